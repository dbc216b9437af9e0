(** Properties of every RTA module: bounds, bookkeeping, disabling, constraint reports. *)
From Coq Require Import String Reals List Bool ZArith Lia Lra.
From Verif Require Import Prelude Vec ModelBase ModelController ModelSimplex SpecCore SpecHistory SpecSimplex
  ProofsBase ProofsHistory ProofsSimplex ProofsSimplex2 ProofsSimplex3 ExampleTools.
Import ListNotations.
Local Open Scope R_scope.

(** ** C01: whenever an enabled module returns a control, it is inside the bounds.
    [compute] is arbitrary: any algorithm, including failing and stateful ones; [s] is any
    state of the module. *)
Theorem C01_output_within_bounds :
  forall (X I : Type) (b : bounds) (compute : I -> R -> vec -> M (rta X) vec) i dt u s w s',
  consistent b -> enable s = true ->
  filter_control b compute i dt u s = (Ok w, s') -> within b w.
Proof.
  intros X I b compute i dt u s w s' C E H.
  destruct (filter_control_ok_inv _ _ _ _ _ _ _ _ E H) as (v & s1 & _ & Hc & _).
  exact (clip_within b v w C Hc).
Qed.
Print Assumptions C01_output_within_bounds.

(** Even with contradictory bounds the upper one is respected. *)
Theorem C01_upper_bound_always :
  forall (X I : Type) (b : bounds) (compute : I -> R -> vec -> M (rta X) vec) i dt u s w s',
  enable s = true ->
  filter_control b compute i dt u s = (Ok w, s') -> below (b_high b) w.
Proof.
  intros X I b compute i dt u s w s' E H.
  destruct (filter_control_ok_inv _ _ _ _ _ _ _ _ E H) as (v & s1 & _ & Hc & _).
  exact (clip_below b v w Hc).
Qed.
Print Assumptions C01_upper_bound_always.

(** Non-vacuity: an enabled module with bounds [-1, 1] whose algorithm asks for 7. *)
Example C01_case : exists w s',
  filter_control unit_box (fun (_ : unit) _ _ => ret [7]) tt 1 [3] (rta_init tt) = (Ok w, s') /\
  consistent unit_box /\ w = [1].
Proof.
  exists [1]; eexists; split; [|split; [exact unit_box_consistent|reflexivity]].
  compute_model; reflexivity.
Qed.

(** ** C02: the clipping step. *)
Theorem C02_clip_leaves_inside_alone :
  forall b u, fits b (length u) -> within b u -> clip b u = Ok u.
Proof. exact clip_id. Qed.
Print Assumptions C02_clip_leaves_inside_alone.

Theorem C02_clip_idempotent :
  forall b u w, fits b (length u) -> clip b u = Ok w -> clip b w = Ok w.
Proof. exact clip_idem. Qed.
Print Assumptions C02_clip_idempotent.

(** The result is the one nearest point of the box. *)
Theorem C02_clip_nearest :
  forall b u w, fits b (length u) -> consistent b -> clip b u = Ok w ->
  within b w /\ length w = length u /\
  forall v, length v = length u -> within b v ->
    dist2 u w <= dist2 u v /\ (dist2 u v <= dist2 u w -> v = w).
Proof.
  intros b u w F C H; split; [exact (clip_within b u w C H)|split; [exact (clip_length b u w F H)|]].
  intros v L W; split; [exact (clip_nearest b u w v F C H L W)|exact (clip_nearest_unique b u w v F C H L W)].
Qed.
Print Assumptions C02_clip_nearest.

(** Clipping always succeeds on controls that the bounds fit. *)
Theorem C02_clip_total : forall b u, fits b (length u) -> exists w, clip b u = Ok w /\ boxed b u w.
Proof. exact clip_boxed. Qed.
Print Assumptions C02_clip_total.

Example C02_case : exists b u w, fits b (length u) /\ consistent b /\ clip b u = Ok w /\ w <> u /\
  length u = 2%nat.
Proof.
  exists (mkBounds (Some (BVec [-1; 0])) (Some (BScalar 5))), [-4; 9], [-1; 5].
  split; [split; simpl; auto|].
  split; [intros i l h Hl Hh; destruct i as [|[|[|]]]; inversion Hl; inversion Hh; subst; lra|].
  split; [compute_model; reflexivity|].
  split; [intros H; inversion H; lra|reflexivity].
Qed.

(** ** C03 and C09: what the info record says about controls.  After any history of calls
    (filter calls that return or raise, resets, enabling and disabling, value updates,
    parameter changes) on a simplex module, the record shows exactly what a bookkeeper who
    saw the calls and their outcomes has written down.  In particular a call that raises
    leaves the actual control as it was. *)
Theorem C03_info_agrees_with_history :
  forall (X P : Type) (cfg : sx_cfg X) (k : sx_kind) defined to_use initial (s0 : simplex X P)
         (os : list (op X P)) seen s,
  gen_sized (sc_bounds cfg) (sc_gen cfg) -> sized (sc_bounds cfg) os ->
  simplex_init defined to_use initial = Ok s0 ->
  cb_run (simplex_filter_control cfg k) simplex_reset os s0 = (seen, s) ->
  let bk := book_of book_start os seen in
  dict_get (cb_info s) "enable" = Ok (IBool (bk_enable bk)) /\
  dict_get (cb_info s) "control_desired" = Ok (IControl (bk_desired bk)) /\
  dict_get (cb_info s) "control_actual" = Ok (IControl (bk_actual bk)).
Proof.
  intros X P cfg k defined to_use initial s0 os seen s G Sz H0 HR bk.
  assert (A : agrees (X:=X) (P:=P) bk s).
  { refine (run_agrees (sc_bounds cfg) (simplex_filter cfg (sx_monitor cfg k)) simplex_reset
              (simplex_framed cfg k) simplex_reset_framed (simplex_out_sized cfg k G)
              os book_start s0 seen s Sz _ HR).
    destruct (simplex_init_inv _ _ _ _ H0) as (_ & _ & _ & _ & E & _ & D & A & _).
    split; [exact E|split; [exact D|exact A]]. }
  destruct A as (A1 & A2 & A3); destruct (info_base s) as (I1 & _ & I3 & I4).
  rewrite <- A1, <- A2, <- A3; auto.
Qed.
Print Assumptions C03_info_agrees_with_history.

(** The same with an explicit last call that raises. *)
Theorem C09_failing_call :
  forall (X P : Type) (cfg : sx_cfg X) (k : sx_kind) (s s' : simplex X P) i dt u e,
  gen_sized (sc_bounds cfg) (sc_gen cfg) -> fits (sc_bounds cfg) (length u) ->
  simplex_filter_control cfg k i dt u s = (Err e, s') ->
  control_desired s' = Some u /\ control_actual s' = control_actual s /\ enable s' = enable s.
Proof.
  intros X P cfg k s s' i dt u e G F H.
  pose (bk := mkBook (enable s) (control_desired s) (control_actual s)).
  destruct (step_agrees (sc_bounds cfg) (simplex_filter cfg (sx_monitor cfg k)) simplex_reset
     (simplex_framed cfg k) simplex_reset_framed (simplex_out_sized cfg k G) bk
     (OFilter i dt u) s (ObsRaised e) s') as (A1 & A2 & A3).
  - intros i0 dt0 u0 Heq; inversion Heq; subst; exact F.
  - split; [reflexivity|split; reflexivity].
  - simpl; unfold gfilter; unfold simplex_filter_control in H; rewrite H; reflexivity.
  - auto.
Qed.
Print Assumptions C09_failing_call.

(** If the bounds do not fit the control, the failing call does record a new actual control:
    compute_filtered_control stores the unclipped control before the clipping step raises. *)
Theorem C09_shape_mismatch_refuted :
  exists (cfg : sx_cfg R) (s s' : simplex R unit) e,
  control_actual s = None /\
  simplex_filter_control cfg Explicit (InArray 0) 1 [5; 6] s = (Err e, s') /\
  control_actual s' = Some [5; 6].
Proof.
  exists (toy_cfg (mkBounds (Some (BVec [0; 0; 0])) None) 0), toy; do 2 eexists.
  split; [reflexivity|split; [compute_model; reflexivity|reflexivity]].
Qed.
Print Assumptions C09_shape_mismatch_refuted.

(** Non-vacuity: a history with a returning, a raising and a disabled call. *)
Definition book_case : list (op R unit) :=
  [OFilter (InArray 0) 1 [-5]; OFilter InOther 1 [2]; OEnable false; OFilter (InArray 0) 1 [9]].
Example C03_case : exists seen s,
  cb_run (simplex_filter_control (toy_cfg unit_box 0) Explicit) simplex_reset book_case toy = (seen, s) /\
  sized unit_box book_case /\
  gen_sized (sc_bounds (toy_cfg unit_box 0)) (sc_gen (toy_cfg unit_box 0)) /\
  seen = [ObsControl [0]; ObsRaised AssertionError; ObsDone; ObsControl [9]].
Proof.
  do 2 eexists; split; [compute_model; reflexivity|].
  split; [|split; [apply toy_gen_sized, unit_box_fits|reflexivity]].
  intros i dt u [H|[H|[H|[H|[]]]]]; inversion H; subst; apply unit_box_fits.
Qed.

(** ** C04: a disabled module. *)
Theorem C04_disabled_passthrough :
  forall (X I : Type) (b : bounds) (compute : I -> R -> vec -> M (rta X) vec) i dt u s,
  enable s = false ->
  exists s', filter_control b compute i dt u s = (Ok u, s') /\
    control_desired s' = Some u /\ control_actual s' = Some u /\
    enable s' = false /\ intervening s' = intervening s /\ ext s' = ext s.
Proof.
  intros X I b compute i dt u s E; rewrite filter_control_disabled by exact E.
  eexists; split; [reflexivity|]; simpl; auto.
Qed.
Print Assumptions C04_disabled_passthrough.

(** Non-vacuity: a disabled module with a control far outside its bounds. *)
Example C04_case : exists s, enable (set_enable false toy) = false /\
  simplex_filter_control (toy_cfg unit_box 0) Explicit (InArray 0) 1 [100] (set_enable false toy) = (Ok [100], s).
Proof. eexists; split; [reflexivity|compute_model; reflexivity]. Qed.

(** ** C06: reported constraint values.  Take any history.  If its operation [o] evaluates
    the constraints (an enabled filter call or a value update, on an array) and no later one
    does, the info record holds under the key that belongs to [o] the values of the
    unbiased constraints at the state given to [o], with the parameters in force then; the
    other key is absent. *)
Theorem C06_reported_values :
  forall (X P : Type) (cfg : sx_cfg X) (k : sx_kind) (s0 : simplex X P) os1 o os2 seen s x key,
  let cs := constraints_after os1 (cb_constraints (ext s0)) in
  let en := switch_of (enable s0) os1 in
  evaluates en o = Some (x, key) -> quiet (switch_after en o) os2 ->
  cb_run (simplex_filter_control cfg k) simplex_reset (os1 ++ o :: os2) s0 = (seen, s) ->
  dict_get (cb_info s) key = Ok (IValues (report cs x)) /\
  (forall l, l = "constraints_at_last_state"%string \/ l = "constraints"%string -> l <> key ->
     dict_get (cb_info s) l = Err KeyError).
Proof.
  intros X P cfg k s0 os1 o os2 seen s x key.
  exact (run_values (sc_bounds cfg) (simplex_filter cfg (sx_monitor cfg k)) simplex_reset
           (simplex_framed cfg k) simplex_reset_framed os1 o os2 s0 seen s x key).
Qed.
Print Assumptions C06_reported_values.

(** Before any evaluation the record holds no values, under the key for the current state. *)
Theorem C06_initially_empty :
  forall (X P : Type) (cfg : sx_cfg X) (k : sx_kind) defined to_use initial (s0 : simplex X P) os seen s,
  simplex_init defined to_use initial = Ok s0 -> quiet true os ->
  cb_run (simplex_filter_control cfg k) simplex_reset os s0 = (seen, s) ->
  dict_get (cb_info s) "constraints" = Ok (IValues []) /\
  dict_get (cb_info s) "constraints_at_last_state" = Err KeyError.
Proof.
  intros X P cfg k defined to_use initial s0 os seen s H0 Q HR.
  destruct (simplex_init_inv _ _ _ _ H0) as (_ & _ & _ & _ & E & _ & _ & _ & _ & V & T).
  rewrite <- E in Q.
  exact (run_no_values (sc_bounds cfg) (simplex_filter cfg (sx_monitor cfg k)) simplex_reset
           (simplex_framed cfg k) simplex_reset_framed os s0 seen s Q V T HR).
Qed.
Print Assumptions C06_initially_empty.

(** Non-vacuity: a filter call, then a reset and a parameter change: the reset does not
    clear the reported values. *)
Example C06_case : exists seen s,
  evaluates (switch_of (X:=R) (P:=unit) (enable toy) []) (OFilter (P:=unit) (InArray 3) 1 [-5])
    = Some (3, "constraints_at_last_state"%string) /\
  quiet (P:=unit) (X:=R) true [OReset; OSetParams "floor"%string tt] /\
  cb_run (simplex_filter_control (toy_cfg unit_box 0) Explicit) simplex_reset
    ([] ++ OFilter (InArray 3) 1 [-5] :: [OReset; OSetParams "floor"%string tt]) toy = (seen, s) /\
  dict_get (cb_info s) "constraints_at_last_state" =
    Ok (IValues [("floor"%string, 3); ("floor_with_margin"%string, 3)]).
Proof.
  do 2 eexists. split; [reflexivity|split; [repeat split|split]].
  - compute_model; reflexivity.
  - reflexivity.
Qed.

(** ** C07: constraints_to_use. *)
Theorem C07_selected_constraints :
  forall (X P : Type) (defined : dict (constraint X P)) names initial s,
  simplex_init defined (Some names) initial = Ok s ->
  subsequence (constraints_now s) defined /\
  (forall k c, In (k, c) (constraints_now s) <-> In (k, c) defined /\ In k names).
Proof.
  intros X P defined names initial s H.
  destruct (simplex_init_inv _ _ _ _ H) as (_ & _ & _ & _ & _ & _ & _ & _ & S & _).
  exact (select_spec defined names (constraints_now s) S).
Qed.
Print Assumptions C07_selected_constraints.

Theorem C07_empty_selection_fails :
  forall (X P : Type) (defined : dict (constraint X P)) names initial,
  savable initial ->
  ((forall k c, In (k, c) defined -> ~ In k names) <->
   exists msg, simplex_init defined (Some names) initial = Err (ValueError msg)).
Proof.
  intros X P defined names initial Hs; rewrite <- select_fails.
  unfold simplex_init, ctl_init, cb_init, rbind; rewrite !(copy_savable _ Hs); simpl; rewrite ?(copy_savable _ Hs); simpl.
  destruct (Nat.eqb _ 0); split; intros [e H]; try discriminate; eauto.
Qed.
Print Assumptions C07_empty_selection_fails.

(** The order of the list and repetitions in it do not matter. *)
Theorem C07_only_membership_matters :
  forall (X P : Type) (defined : dict (constraint X P)) names names' initial,
  (forall n, In n names <-> In n names') ->
  simplex_init defined (Some names) initial = simplex_init defined (Some names') initial.
Proof.
  intros X P defined names names' initial H.
  unfold simplex_init, cb_init, select_constraints.
  assert (E : filter (fun kc : string * constraint X P => existsb (String.eqb (fst kc)) names) defined =
              filter (fun kc => existsb (String.eqb (fst kc)) names') defined).
  { apply filter_ext; intros [k c]; simpl.
    apply eq_iff_eq_true; rewrite !existsb_exists.
    split; intros (n & Hn & He); exists n; split; auto; apply H; auto. }
  rewrite E; reflexivity.
Qed.
Print Assumptions C07_only_membership_matters.

Example C07_case : exists s,
  simplex_init toy_constraints (Some ["unknown"%string; "floor"%string; "floor"%string]) CSNone = Ok s /\
  map fst (constraints_now s) = ["floor"%string].
Proof. eexists; split; reflexivity. Qed.

(** ** C18: evaluating a constraint along a trajectory with or without vmap. *)
Theorem C18_loop_equals_vmap :
  forall (X P : Type) (c : constraint X P) p (states : list X),
  constraint_vals_loop c p states [] = constraint_vals_vmap c p states /\
  length (constraint_vals_vmap c p states) = length states /\
  forall j x, nth_error states j = Some x ->
    nth_error (constraint_vals_vmap c p states) j = Some (c_fun c x p + c_bias c).
Proof.
  intros X P c p states; split; [exact (vals_loop_vmap c p states [])|].
  split; [apply map_length|].
  intros j x H; unfold constraint_vals_vmap; rewrite nth_error_map, H; reflexivity.
Qed.
Print Assumptions C18_loop_equals_vmap.

(** ** C38: cascaded modules. *)
Theorem C38_cascade_composes :
  forall (I : Type) b (i : I) dt u (s : rta (list (member I))) w s',
  enable s = true ->
  (filter_control b cascade_compute i dt u s = (Ok w, s') <->
   exists v ms f, chain i dt (ext s) u v ms f /\ clip b v = Ok w /\
     s' = mkRta true f (Some u) (Some w) ms).
Proof.
  intros I b i dt u s w s' E; split.
  - exact (cascade_filter b i dt u s w s' E).
  - intros (v & ms & f & Hc & Hw & ->); exact (cascade_filter_conv b i dt u s v w ms f E Hc Hw).
Qed.
Print Assumptions C38_cascade_composes.

(** The flag: true iff some member reports intervening after its own call; each member is
    called exactly once, so the list of members keeps its length. *)
Theorem C38_cascade_flag :
  forall (I : Type) (i : I) dt ms u w ms' f,
  chain i dt ms u w ms' f ->
  length ms' = length ms /\ (f = true <-> exists m, In m ms' /\ m_flag m (m_cur m) = true).
Proof.
  intros I i dt ms u w ms' f H; induction H as [u|m ms u v s' w ms' f Hm Hc [IH1 IH2]]; simpl.
  - split; [reflexivity|split; [discriminate|intros (m & [] & _)]].
  - split; [congruence|]. rewrite orb_true_iff, IH2; split.
    + intros [H|(m' & Hin & H)]; [exists (member_with m s'); auto|exists m'; auto].
    + intros (m' & [<-|Hin] & H); [left; exact H|right; exists m'; auto].
Qed.
Print Assumptions C38_cascade_flag.

(** The last member's bounds hold for the output if the cascade has none of its own. *)
Theorem C38_last_member_bounds :
  forall (I X : Type) (i : I) dt ms last u w ms' f b (compute : I -> R -> vec -> M (rta X) vec) s,
  consistent b -> enable s = true ->
  last = mkMember (rta X) s (filter_control b compute) intervening ->
  chain i dt (ms ++ [last]) u w ms' f -> within b w.
Proof.
  intros I X i dt ms last u w ms' f b compute s C E Hl H.
  revert u ms' f H; induction ms as [|m ms IH]; intros u ms' f H.
  - simpl in H; inversion H as [|? ? ? v s1 ? ? ? Hm Hc]; subst.
    inversion Hc; subst. simpl in Hm.
    exact (C01_output_within_bounds X I b compute i dt u s w s1 C E Hm).
  - simpl in H; inversion H as [|? ? ? v s1 ? ? ? Hm Hc]; subst; eapply IH; eauto.
Qed.
Print Assumptions C38_last_member_bounds.

(** Non-vacuity: two members; the first shifts the control and reports intervening. *)
Definition member1 : member unit :=
  mkMember bool false (fun _ _ u => bind (put true) (fun _ => ret (map (Rplus 1) u))) (fun f => f).
Definition member2 : member unit :=
  mkMember unit tt (fun _ _ u => ret (map (Rmult 2) u)) (fun _ => false).
Example C38_case : exists ms f, chain tt 1 [member1; member2] [3] [2 * (1 + 3)] ms f /\ f = true.
Proof.
  do 2 eexists; split; [|reflexivity].
  change true with (m_flag member1 true || (m_flag member2 tt || false)).
  repeat (econstructor; [reflexivity|]); constructor.
Qed.

(** ** C39: resetting a cascade does not reset its members: the model of the code violates
    the property (CascadedRTA inherits RTAModule.reset). *)
Theorem C39_cascade_reset_refuted :
  exists (s0 s1 s2 : rta (list (member unit))),
  s0 = rta_init [member1] /\
  snd (filter_control free cascade_compute tt 1 [3] s0) = s1 /\
  rta_reset (fun y => y) s1 = s2 /\
  exists m m0, ext s2 = [m] /\ ext s0 = [m0] /\
    m_flag m (m_cur m) = true /\ m_flag m0 (m_cur m0) = false.
Proof.
  do 3 eexists; split; [reflexivity|split; [reflexivity|split; [reflexivity|]]].
  do 2 eexists; split; [reflexivity|split; [reflexivity|split; reflexivity]].
Qed.
Print Assumptions C39_cascade_reset_refuted.

(** What does hold: reset gives the cascade's own attributes their initial values. *)
Theorem C39_cascade_reset_partial :
  forall (I : Type) (s : rta (list (member I))),
  rta_reset (fun y => y) s = rta_init (ext s).
Proof. reflexivity. Qed.
Print Assumptions C39_cascade_reset_partial.

(** ** C40: backup controllers. *)
Theorem C40_explicit_state_request_is_pure :
  forall (X : Type) (gen : X -> R -> cstate -> gout) x dt cs c,
  generate_control_with_controller_state gen x dt cs c = (Ok (gen x dt cs), c).
Proof. reflexivity. Qed.
Print Assumptions C40_explicit_state_request_is_pure.

Theorem C40_save_restore :
  forall (X : Type) (gen : X -> R -> cstate -> gout) (rs : list (request X)) c,
  savable (ctl_state c) ->
  exists c1, ctl_save c = (Ok tt, c1) /\ ctl_state c1 = ctl_state c /\
    ctl_state (snd (ctl_restore (run_requests gen rs c1))) = ctl_state c.
Proof.
  intros X gen rs c H; destruct (proj1 (save_succeeds c) H) as [c1 E]; exists c1.
  split; [exact E|split; [|exact (save_restore gen rs c c1 E)]].
  unfold ctl_save, bind, get, lift, modify in E.
  rewrite (copy_savable _ H) in E; inversion E; reflexivity.
Qed.
Print Assumptions C40_save_restore.

Theorem C40_reset :
  forall (X : Type) (gen : X -> R -> cstate -> gout) initial c0 (rs : list (request X)),
  ctl_init initial = Ok c0 ->
  exists c1, ctl_reset (run_requests gen rs c0) = (Ok tt, c1) /\ ctl_state c1 = initial /\
             ctl_state c0 = initial.
Proof. intros X gen initial c0 rs; exact (reset_requests gen initial c0 rs). Qed.
Print Assumptions C40_reset.

Theorem C40_bad_generator :
  forall (X : Type) (gen : X -> R -> cstate -> gout) x dt c,
  gen x dt (ctl_state c) = GOther ->
  exists msg, generate_control gen x dt c = (Err (ValueError msg), c).
Proof.
  intros X gen x dt c H; unfold generate_control, bind, get, raise; rewrite H; eexists; reflexivity.
Qed.
Print Assumptions C40_bad_generator.

Theorem C40_request_advances :
  forall (X : Type) (gen : X -> R -> cstate -> gout) x dt c u cs,
  gen x dt (ctl_state c) = GPair u cs ->
  exists c', generate_control gen x dt c = (Ok u, c') /\ ctl_state c' = cs.
Proof.
  intros X gen x dt c u cs H; unfold generate_control, bind, get, modify, ret; rewrite H.
  eexists; split; reflexivity.
Qed.
Print Assumptions C40_request_advances.

(** Non-vacuity: a counting controller asked twice between save and restore. *)
Definition counting (x dt : R) (cs : cstate) : gout :=
  match cs with CSArray [a] => GPair [a] (CSArray [a + 1]) | _ => GOther end.
Example C40_case :
  ctl_state (run_requests counting [RGenerate 0 1; RGenerate 0 1] (mkCtl CSNone CSNone (CSArray [0]))) =
    CSArray [0 + 1 + 1] /\ savable (CSArray [0]).
Proof. split; [reflexivity|intros t; discriminate]. Qed.
