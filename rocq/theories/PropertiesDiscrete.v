(** Property theorems for the discrete ASIF module (and C03, C05, C06, C08, C09, C17, C22, C23 for
    it). *)
From Coq Require Import String Reals List Bool ZArith Lia Lra.
From Verif Require Import Prelude Vec ModelBase ModelController ModelSimplex ModelAsif ModelDiscrete
  SpecCore SpecHistory SpecAsif SpecDiscrete ProofsBase ProofsHistory ProofsSim ProofsVec ProofsAsif ProofsAsif5
  ProofsDiscrete ProofsDiscrete2 ExampleTools ExampleQP PropertiesAsif.
Import ListNotations.
Local Open Scope R_scope.

(** ** Fixtures: x + dt u on the line, a wall at 1, and a solver that tries the starting point
    and then one fixed point. *)
Fixpoint limits_met (lims : list (option R * option R)) (z : vec) : bool :=
  match lims, z with
  | (lo, hi) :: l, v :: z' =>
      (match lo with Some r => Rleb r v | None => true end) &&
      (match hi with Some r => Rleb v r | None => true end) && limits_met l z'
  | _, _ => true
  end.
Definition functions_met (cons : list (vec -> res R)) (z : vec) : bool :=
  forallb (fun g => match g z with Ok v => Rleb 0 v | Err _ => false end) cons.
Definition slsqp_try (fall : vec) : slsqp := fun obj x0 cons lims =>
  if functions_met cons x0 && limits_met lims x0 then Ok (true, x0)
  else if Nat.eqb (length fall) (length x0) && functions_met cons fall && limits_met lims fall
       then Ok (true, fall) else Ok (false, x0).

Lemma limits_met_in lims : forall z, limits_met lims z = true -> in_limits lims z.
Proof.
  induction lims as [|[lo hi] lims IH]; intros [|v z] H i lim w Hi Hw; try (destruct i; discriminate).
  simpl in H; apply andb_true_iff in H; destruct H as [H H2]; apply andb_true_iff in H; destruct H as [H0 H1].
  destruct i as [|i]; [|exact (IH z H2 i lim w Hi Hw)].
  simpl in Hi, Hw; injection Hi as <-; injection Hw as <-; simpl.
  split; intros r ->; [apply Rleb_true in H0|apply Rleb_true in H1]; auto.
Qed.
Lemma slsqp_try_contract fall : slsqp_contract 0 (slsqp_try fall).
Proof.
  intros obj x0 cons lims z H; unfold slsqp_try in H.
  assert (G : forall y, functions_met cons y = true -> forall g v, In g cons -> g y = Ok v -> - 0 <= v).
  { intros y Hy g v Ig Eg; unfold functions_met in Hy; rewrite forallb_forall in Hy.
    specialize (Hy g Ig); rewrite Eg in Hy; apply Rleb_true in Hy; lra. }
  destruct (functions_met cons x0 && limits_met lims x0) eqn:E1.
  - injection H as <-; apply andb_true_iff in E1; destruct E1 as [A B].
    split; [auto|split; [apply limits_met_in; auto|apply G; auto]].
  - destruct (Nat.eqb (length fall) (length x0) && functions_met cons fall && limits_met lims fall) eqn:E2; [|discriminate].
    injection H as <-. apply andb_true_iff in E2; destruct E2 as [A B]; apply andb_true_iff in A; destruct A as [A C].
    apply Nat.eqb_eq in A.
    split; [auto|split; [apply limits_met_in; auto|apply G; auto]].
Qed.

Definition dline_cfg (b : bounds) (exc : bool) (solve : slsqp) : disc_cfg R :=
  mkDiscCfg b (1/100) 1 exc (fun x dt u => x + dt * hd 0 u) solve.
Definition dline_of (cs : dict (constraint R unit)) : dmod R unit :=
  match disc_init (dline_cfg unit_box false (slsqp_try [])) cs None with
  | Ok s => s
  | Err _ => rta_init (mkCb [] [] [] [] false (mkDisc 0 [] [] [] 0))
  end.
Definition dwalled := dline_of [("wall"%string, wall None)].
Definition dsoft := dline_of [("wall"%string, wall (Some 4)); ("ground"%string, ground 0)].

Lemma dline_reached exc solve cs : distinct_keys cs ->
  disc_reached (dline_cfg unit_box exc solve) (dline_of cs).
Proof.
  intros D; exists cs, None, (dline_of cs), [], []; split; [auto|split; reflexivity].
Qed.
Lemma dwalled_in_use exc solve dt a : 0 < dt -> disc_in_use (dline_cfg unit_box exc solve) dwalled dt [a].
Proof.
  intros Hd; constructor; simpl; auto.
  - apply dline_reached; keys.
  - intros k c [E|[]]; injection E as <- <-; discriminate.
Qed.
Lemma dsoft_in_use exc solve dt a : 0 < dt -> disc_in_use (dline_cfg unit_box exc solve) dsoft dt [a].
Proof.
  intros Hd; constructor; simpl; auto.
  - apply dline_reached; keys.
  - intros k c [E|[E|[]]]; injection E as <- <-; discriminate.
Qed.

(** ** C35.  The optimisation problem.  For every module in use there are inequality functions
    and limits that say exactly what they should (one function per enabled constraint, its
    sign deciding the discrete barrier condition), an objective that orders the points like
    the documented cost, and the call hands exactly this problem to the solver: whatever the
    solver answers to it decides the call. *)
Theorem C35_program :
  forall (X P : Type) (cfg : disc_cfg X) (s : dmod X P) x dt u, disc_in_use cfg s dt u ->
  exists obj start cons lims,
    start = u ++ repeat 0 (slack_count (disc_constraints s)) /\
    program_says (dc_next cfg) (dc_dim cfg) (disc_constraints s) x dt cons /\
    limits_say (dc_bounds cfg) (dc_dim cfg) (slack_count (disc_constraints s)) lims /\
    (positive_scales (disc_constraints s) -> forall z, length z = length start ->
       obj z = slack_cost (dc_dim cfg) (scales (disc_constraints s)) u z - / 2 * dot u u) /\
    forall solve,
      (forall e, solve obj start cons lims = Err e ->
         fst (disc_filter_control (with_slsqp solve cfg) (InArray x) dt u s) = Err e) /\
      (forall z w, solve obj start cons lims = Ok (true, z) -> length z = length start ->
         boxed (dc_bounds cfg) (firstn (dc_dim cfg) z) w ->
         fst (disc_filter_control (with_slsqp solve cfg) (InArray x) dt u s) = Ok w).
Proof.
  intros X P cfg s x dt u U.
  destruct (disc_call cfg s x dt u U) as (obj & cons & lims & Eo & Pr & Li & Hs).
  set (n := slack_count (disc_constraints s)) in *.
  assert (Lu : length u = dc_dim cfg) by (destruct U; auto).
  exists obj, (u ++ zeros n), cons, lims; split; [reflexivity|split; [auto|split; [auto|split]]].
  - intros Hp z Lz; rewrite Eo. unfold n at 1; rewrite <- scales_count.
    rewrite disc_obj_cost; auto.
    + pose proof (positive_scales_forall _ Hp) as F; revert F; apply Forall_impl; intros; lra.
    + rewrite Lz, app_length, zeros_length, Lu; unfold n; rewrite scales_count; auto.
  - intros solve; destruct (Hs solve) as (H1 & _ & _ & H4); split; [exact H1|].
    intros z w Ez Lz B.
    destruct (H4 true z Ez (or_introl eq_refl)) as (w' & B' & E' & _).
    { rewrite Lz, app_length, Lu; lia. }
    rewrite E'; f_equal.
    assert (F : fits (dc_bounds cfg) (length (firstn (dc_dim cfg) z))).
    { assert (N : forall o k, one_number o -> fits1 o k) by (intros [[r|v]|] k H; simpl in *; auto).
      destruct U; split; apply N; auto. }
    apply (clip_iff_boxed _ _ _ F) in B; apply (clip_iff_boxed _ _ _ F) in B'; congruence.
Qed.
Print Assumptions C35_program.

(** With a solver that keeps its contract: a call that returns without a warning returns a
    control inside the bounds with which every enabled constraint steps well (up to the
    solver's tolerance), with one slack value for each constraint that has a slack scale. *)
Theorem C35_enforced :
  forall (X P : Type) tol (cfg : disc_cfg X) (s : dmod X P) x dt u w s',
  slsqp_contract tol (dc_solve cfg) -> disc_in_use cfg s dt u ->
  disc_filter_control cfg (InArray x) dt u s = (Ok w, s') -> disc_warnings s' = disc_warnings s ->
  length w = dc_dim cfg /\ within (dc_bounds cfg) w /\
  exists z, length z = (dc_dim cfg + slack_count (disc_constraints s))%nat /\ firstn (dc_dim cfg) z = w /\
    forall pre k c post, disc_constraints s = pre ++ (k, c) :: post -> c_enabled c = true ->
      steps_well (dc_next cfg) tol c x dt w (slack_value (dc_dim cfg) c (slack_count pre) z).
Proof.
  intros X P tol cfg s x dt u w s' QC U Hc Hw.
  destruct (disc_solved tol cfg s x dt u w s' QC U Hc Hw) as (z & Lz & Ew & Ww & Sw & _).
  split; [subst w; rewrite firstn_length; lia|split; [auto|]].
  exists z; split; [auto|split; [auto|]].
  intros pre k c post E En; apply Sw. rewrite E; clear - En.
  assert (G : forall n, In (c, (n + slack_count pre)%nat) (enabled_places n (pre ++ (k, c) :: post))).
  { induction pre as [|[k0 c0] pre IH]; intros n; simpl.
    - rewrite En; simpl. rewrite Nat.add_0_r; auto.
    - apply in_or_app; right. unfold slack_count; simpl.
      destruct (has_slack (k0, c0)); simpl; [rewrite Nat.add_succ_r; apply (IH (S n))|apply IH]. }
  exact (G 0%nat).
Qed.
Print Assumptions C35_enforced.

Ltac disc_eval := cbv -[Rltb Rleb Rmax Rmin Rplus Rmult Rminus Ropp Rinv Rdiv IZR Rlt Rle sqrt not]; 
  repeat (progress (repeat match goal with
  | |- context [Rltb ?a (sqrt ?e)] =>
      first [ rewrite (Rltb_sqrt_true a e) by lra | rewrite (Rltb_sqrt_false a e) by lra ]
  end; decide_reals; cbv -[Rltb Rleb Rmax Rmin Rplus Rmult Rminus Ropp Rinv Rdiv IZR Rlt Rle sqrt not])).

(** Non-vacuity: half a unit from the wall, full speed is asked for and cut to one half; with a
    soft wall and a second constraint, the slack is used. *)
Example C35_case : exists s',
  disc_filter_control (dline_cfg unit_box true (slsqp_try [1/2])) (InArray (1/2)) (1/2) [1] dwalled = (Ok [1/2], s') /\
  disc_warnings s' = disc_warnings dwalled /\ intervening s' = true.
Proof. eexists; split; [disc_eval; reflexivity|split; reflexivity]. Qed.
Example C35_slack_case : exists s',
  disc_filter_control (dline_cfg unit_box true (slsqp_try [3/4; -1/4])) (InArray (1/2)) (1/2) [1] dsoft = (Ok [3/4], s') /\
  disc_warnings s' = disc_warnings dsoft /\ positive_scales (disc_constraints dsoft).
Proof.
  eexists; split; [disc_eval; reflexivity|split; [reflexivity|]].
  intros k c p [E|[E|[]]] Hs; injection E as <- <-; try discriminate; injection Hs as <-; lra.
Qed.

(** ** C23 (discrete): the intervening flag. *)
Theorem C23_discrete_intervening_iff_far :
  forall (X P : Type) tol (cfg : disc_cfg X) (s : dmod X P) x dt u w s',
  slsqp_contract tol (dc_solve cfg) -> disc_in_use cfg s dt u ->
  disc_filter_control cfg (InArray x) dt u s = (Ok w, s') -> disc_warnings s' = disc_warnings s ->
  (intervening s' = true <-> dc_eps cfg < sqrt (dist2 u w)).
Proof.
  intros X P tol cfg s x dt u w s' QC U Hc Hw.
  destruct (disc_solved tol cfg s x dt u w s' QC U Hc Hw) as (z & _ & _ & _ & _ & H); exact H.
Qed.
Print Assumptions C23_discrete_intervening_iff_far.

(** ** C36.  Any sequence of states along which a constraint steps well stays safe. *)
Theorem C36_sequence_safe :
  forall (X P : Type) (next : X -> R -> vec -> X) (c : constraint X P) dt (x : nat -> X) (u : nat -> vec),
  (forall n, x (S n) = next (x n) dt (u n)) ->
  (forall n, steps_well next 0 c (x n) dt (u n) 0) ->
  (forall n, 0 <= level c (x n) -> dt * decay c (level c (x n)) <= level c (x n)) ->
  0 <= level c (x 0%nat) -> forall n, 0 <= level c (x n).
Proof.
  intros X P next c dt x u Hx Hs Hg H0; induction n as [|n IH]; auto.
  specialize (Hs n); specialize (Hg n IH); unfold steps_well in Hs; rewrite <- Hx in Hs; lra.
Qed.
Print Assumptions C36_sequence_safe.

(** The closed loop.  In every run of the loop without a warning, whatever the desired controls,
    a hard (slack-free) enabled constraint that starts at level [lo] or higher stays there,
    provided its strengthening function is gentle enough for the step size at the levels
    visited.  [lo = 0] and [tol = 0] give safety; with a solver tolerance [lo] is negative. *)
Theorem C36_closed_loop :
  forall (X P : Type) tol (cfg : disc_cfg X) dt (s : dmod X P) x xs,
  slsqp_contract tol (dc_solve cfg) -> disc_reached cfg s ->
  one_number (b_low (dc_bounds cfg)) -> one_number (b_high (dc_bounds cfg)) ->
  strengthened (disc_constraints s) -> enable s = true -> 0 < dt ->
  disc_loop cfg dt s x xs ->
  forall k c lo, In (k, c) (disc_constraints s) -> c_enabled c = true -> c_slack c = None ->
  (forall y, In y (x :: xs) -> lo <= level c y -> dt * (decay c (level c y) + tol) <= level c y - lo) ->
  lo <= level c x -> Forall (fun y => lo <= level c y) xs.
Proof. intros X P tol cfg dt s x xs QC R Hl Hh St En Hd L; exact (loop_safe tol cfg dt s x xs L QC R Hl Hh St En Hd). Qed.
Print Assumptions C36_closed_loop.

(** A linear strengthening function a h with a dt <= 1: with a solver of tolerance tol every
    state reached is within tol / a of safe. *)
Theorem C36_linear_strengthening :
  forall (X P : Type) tol a (cfg : disc_cfg X) dt (s : dmod X P) x xs,
  slsqp_contract tol (dc_solve cfg) -> disc_reached cfg s ->
  one_number (b_low (dc_bounds cfg)) -> one_number (b_high (dc_bounds cfg)) ->
  strengthened (disc_constraints s) -> enable s = true -> 0 < dt -> 0 < a -> a * dt <= 1 ->
  disc_loop cfg dt s x xs ->
  (forall k c, In (k, c) (disc_constraints s) ->
     c_slack c = None /\ forall h, decay c h = a * h) ->
  (forall k c, In (k, c) (disc_constraints s) -> c_enabled c = true -> - (tol / a) <= level c x) ->
  Forall (fun y => forall k c, In (k, c) (disc_constraints s) -> c_enabled c = true -> - (tol / a) <= level c y) xs.
Proof.
  intros X P tol a cfg dt s x xs QC R Hl Hh St En Hd Ha Had L Hc Hx.
  apply Forall_forall; intros y Hy k c Hin Hen.
  destruct (Hc k c Hin) as [Hns Hdec].
  pose proof (C36_closed_loop X P tol cfg dt s x xs QC R Hl Hh St En Hd L k c (- (tol / a)) Hin Hen Hns) as F.
  rewrite Forall_forall in F; apply F; auto; [|eapply Hx; eauto].
  intros z _ Hz; rewrite Hdec.
  set (h := level c z) in *.
  replace (dt * (a * h + tol)) with ((a * dt) * (h + tol / a)) by (field; lra).
  assert (0 <= h + tol / a) by lra. nra.
Qed.
Print Assumptions C36_linear_strengthening.

(** Non-vacuity: two steps of the loop, towards the wall. *)
Example C36_case : disc_loop (dline_cfg unit_box false (slsqp_try [1/2])) (1/2) dwalled (1/2)
    [1/2 + 1/2 * (1/2); (1/2 + 1/2 * (1/2)) + 1/2 * 0].
Proof.
  eapply (dl_cons (dline_cfg unit_box false (slsqp_try [1/2])) (1/2) dwalled (1/2) [1] [1/2]); [reflexivity| | |].
  - disc_eval; reflexivity.
  - reflexivity.
  - eapply (dl_cons (dline_cfg unit_box false (slsqp_try [1/2])) (1/2) _ (1/2 + 1/2 * (1/2)) [0] [0]); [reflexivity| | |].
    + disc_eval; reflexivity.
    + reflexivity.
    + constructor.
Qed.
Example C36_case_meets : slsqp_contract 0 (dc_solve (dline_cfg unit_box false (slsqp_try [1/2]))) /\
  disc_in_use (dline_cfg unit_box false (slsqp_try [1/2])) dwalled (1/2) [1] /\
  (forall y, 0 <= level (wall None) y -> 1/2 * (decay (wall None) (level (wall None) y) + 0) <= level (wall None) y - 0) /\
  0 <= level (wall None) (1/2).
Proof.
  split; [apply slsqp_try_contract|split; [apply dwalled_in_use; lra|]].
  unfold level, decay; simpl; split; intros; lra.
Qed.

(** ** C37.  Failures: the configured reaction to a solver that does not report success. *)
Theorem C37_failure_handling :
  forall (X P : Type) (cfg : disc_cfg X) (s : dmod X P) x dt u, disc_in_use cfg s dt u ->
  exists obj start cons lims, length start = (dc_dim cfg + slack_count (disc_constraints s))%nat /\
    forall solve z, solve obj start cons lims = Ok (false, z) -> (dc_dim cfg <= length z)%nat ->
      let call := disc_filter_control (with_slsqp solve cfg) (InArray x) dt u s in
      (dc_exc cfg = true -> fst call = Err SolverError) /\
      (dc_exc cfg = false ->
         disc_warnings (snd call) = S (disc_warnings s) /\
         exists w, boxed (dc_bounds cfg) (firstn (dc_dim cfg) z) w /\ fst call = Ok w).
Proof.
  intros X P cfg s x dt u U.
  destruct (disc_call cfg s x dt u U) as (obj & cons & lims & Eo & Pr & Li & Hs).
  exists obj, (u ++ zeros (slack_count (disc_constraints s))), cons, lims; split.
  { rewrite app_length, zeros_length; destruct U; auto. }
  intros solve z Hz Lz call; destruct (Hs solve) as (H1 & H2 & H3 & H4).
  split; [eauto|]. intros E; split; [exact (H3 false z Hz (or_intror E))|].
  destruct (H4 false z Hz (or_intror E) Lz) as (w & B & Ew & _); eauto.
Qed.
Print Assumptions C37_failure_handling.

(** Non-vacuity: at the wall nothing within reach is acceptable (the soft solver tries one point
    only) and the starting point is returned, moved into the bounds. *)
Example C37_case : (exists s', disc_filter_control (dline_cfg unit_box false (slsqp_try [1])) (InArray 1) 1 [5] dwalled = (Ok [1], s') /\
    disc_warnings s' = 1%nat) /\
  (exists s', disc_filter_control (dline_cfg unit_box true (slsqp_try [1])) (InArray 1) 1 [5] dwalled = (Err SolverError, s')).
Proof.
  split; [eexists; split; [disc_eval; reflexivity|reflexivity]|].
  eexists; disc_eval; reflexivity.
Qed.

(** Bounds that are numbers are applied to every control in the optimisation and to no slack.
    The full statement, also for bounds given per element, is refuted below. *)
Theorem C37_bounds_partial :
  forall (X P : Type) (cfg : disc_cfg X) (s : dmod X P) x dt u, disc_in_use cfg s dt u ->
  exists obj start cons lims, length lims = length start /\
    (forall i, (i < dc_dim cfg)%nat ->
       nth_error lims i = Some (bound_at (b_low (dc_bounds cfg)) i, bound_at (b_high (dc_bounds cfg)) i)) /\
    (forall i, (dc_dim cfg <= i < length start)%nat -> nth_error lims i = Some (None, None)) /\
    forall solve e, solve obj start cons lims = Err e ->
      fst (disc_filter_control (with_slsqp solve cfg) (InArray x) dt u s) = Err e.
Proof.
  intros X P cfg s x dt u U.
  destruct (disc_call cfg s x dt u U) as (obj & cons & lims & Eo & Pr & (L & L1 & L2) & Hs).
  assert (Ls : length (u ++ zeros (slack_count (disc_constraints s))) = (dc_dim cfg + slack_count (disc_constraints s))%nat)
    by (rewrite app_length, zeros_length; destruct U; auto).
  exists obj, (u ++ zeros (slack_count (disc_constraints s))), cons, lims; rewrite Ls.
  split; [auto|split; [auto|split; [auto|]]].
  intros solve e He; exact (proj1 (Hs solve) e He).
Qed.
Print Assumptions C37_bounds_partial.

(** With bounds given per element the module cannot be used at all: whatever the solver, the
    constraints and the history, every enabled call on a state raises ValueError. *)
Theorem C37_per_element_bounds_refuted :
  forall (X P : Type) (cfg : disc_cfg X) (s : dmod X P) x dt u,
  disc_reached cfg s -> enable s = true -> (0 < dc_dim cfg)%nat ->
  ~ one_number (b_low (dc_bounds cfg)) \/ ~ one_number (b_high (dc_bounds cfg)) ->
  exists msg, fst (disc_filter_control cfg (InArray x) dt u s) = Err (ValueError msg).
Proof. intros X P cfg s x dt u R En Hd Hb; exact (disc_array_bounds cfg s x dt u R En Hd Hb). Qed.
Print Assumptions C37_per_element_bounds_refuted.
Definition two_bounds : bounds := mkBounds (Some (BVec [-1; -2])) (Some (BVec [1; 2])).
Definition two_cfg : disc_cfg R := mkDiscCfg two_bounds (1/100) 2 false (fun x dt u => x + dt * hd 0 u) (slsqp_try []).
Example C37_per_element_case : fits two_bounds 2 /\ exists s msg, disc_reached two_cfg s /\ enable s = true /\
  fst (disc_filter_control (P:=unit) two_cfg (InArray 0) 1 [0; 0] s) = Err (ValueError msg).
Proof.
  split; [split; simpl; auto|]. do 2 eexists; split; [|split].
  - exists [("wall"%string, wall None)], None; do 3 eexists; split; [keys|split; [reflexivity|]].
    instantiate (3 := []). reflexivity.
  - reflexivity.
  - disc_eval; reflexivity.
Qed.

(** ** C17 (discrete): what a disabled constraint is (its function, parameters, strengthening
    function, bias) has no influence on any call. *)
Theorem C17_discrete_disabled_ignored :
  forall (X P : Type) (cfg : disc_cfg X) (s s' : dmod X P) x dt u,
  disc_reached cfg s -> disc_reached cfg s' -> enable s = true -> enable s' = true ->
  same_enabled (disc_constraints s) (disc_constraints s') ->
  fst (disc_filter_control cfg (InArray x) dt u s) = fst (disc_filter_control cfg (InArray x) dt u s').
Proof. intros X P cfg s s' x dt u; exact (disc_disabled cfg s s' x dt u). Qed.
Print Assumptions C17_discrete_disabled_ignored.
Definition off {X P} (c : constraint X P) : constraint X P := set_c_enabled false c.
Example C17_discrete_case :
  let s := dline_of [("wall"%string, wall None); ("ground"%string, off (ground 5))] in
  let s' := dline_of [("wall"%string, wall None); ("ground"%string, off (ground 0))] in
  same_enabled (disc_constraints s) (disc_constraints s') /\ s <> s' /\
  exists t, disc_filter_control (dline_cfg unit_box true (slsqp_try [1/2])) (InArray (1/2)) (1/2) [1] s = (Ok [1/2], t).
Proof.
  split; [|split].
  - constructor; [simpl; auto|constructor; [|constructor]]; simpl; repeat split; auto; discriminate.
  - intros E.
    assert (E2 : map (fun kc => c_fun (snd kc) 0 tt) (disc_constraints (dline_of [("wall"%string, wall None); ("ground"%string, off (ground 5))])) =
                 map (fun kc => c_fun (snd kc) 0 tt) (disc_constraints (dline_of [("wall"%string, wall None); ("ground"%string, off (ground 0))])))
      by (rewrite E; auto).
    simpl in E2; injection E2; lra.
  - eexists; disc_eval; reflexivity.
Qed.

(** ** C03, C09 (discrete): bookkeeping. *)
Theorem C03_discrete_info_agrees_with_history :
  forall (X P : Type) (cfg : disc_cfg X) defined to_use (s0 : dmod X P) os seen s,
  one_number (b_low (dc_bounds cfg)) -> one_number (b_high (dc_bounds cfg)) ->
  disc_init cfg defined to_use = Ok s0 ->
  cb_run (disc_filter_control cfg) disc_reset os s0 = (seen, s) ->
  let bk := book_of book_start os seen in
  dict_get (cb_info s) "enable" = Ok (IBool (bk_enable bk)) /\
  dict_get (cb_info s) "control_desired" = Ok (IControl (bk_desired bk)) /\
  dict_get (cb_info s) "control_actual" = Ok (IControl (bk_actual bk)).
Proof.
  intros X P cfg defined to_use s0 os seen s Hl Hh H0 HR bk.
  assert (A : agrees (X:=X) (P:=P) bk s).
  { refine (run_agrees (dc_bounds cfg) (disc_filter cfg) disc_reset
              (disc_framed cfg) disc_reset_framed (disc_out_sized cfg (fun _ => True) Hl Hh)
              os book_start s0 seen s (fun _ _ _ _ => I) _ HR).
    unfold disc_init in H0. destruct (select_constraints defined to_use) as [cs|e] eqn:Es; [|discriminate].
    cbn [rbind] in H0; cbv zeta in H0. unfold cb_init in H0; rewrite Es in H0; cbn [rbind] in H0.
    injection H0 as <-; split; [reflexivity|split; reflexivity]. }
  destruct A as (A1 & A2 & A3); destruct (info_base s) as (I1 & _ & I3 & I4).
  rewrite <- A1, <- A2, <- A3; auto.
Qed.
Print Assumptions C03_discrete_info_agrees_with_history.

Theorem C09_discrete_failing_call :
  forall (X P : Type) (cfg : disc_cfg X) (s s' : dmod X P) i dt u e,
  one_number (b_low (dc_bounds cfg)) -> one_number (b_high (dc_bounds cfg)) ->
  disc_filter_control cfg i dt u s = (Err e, s') ->
  control_desired s' = Some u /\ control_actual s' = control_actual s /\ enable s' = enable s.
Proof.
  intros X P cfg s s' i dt u e Hl Hh H.
  pose (bk := mkBook (enable s) (control_desired s) (control_actual s)).
  destruct (step_agrees (dc_bounds cfg) (disc_filter cfg) disc_reset
     (disc_framed cfg) disc_reset_framed (disc_out_sized cfg (fun _ => True) Hl Hh) bk
     (OFilter i dt u) s (ObsRaised e) s') as (A1 & A2 & A3).
  - auto.
  - split; [reflexivity|split; reflexivity].
  - simpl; unfold gfilter; unfold disc_filter_control in H; rewrite H; reflexivity.
  - auto.
Qed.
Print Assumptions C09_discrete_failing_call.

(** ** C06 (discrete): reported values. *)
Theorem C06_discrete_reported_values :
  forall (X P : Type) (cfg : disc_cfg X) (s0 : dmod X P) os1 o os2 seen s x key,
  let cs := constraints_after os1 (cb_constraints (ext s0)) in
  let en := switch_of (enable s0) os1 in
  evaluates en o = Some (x, key) -> quiet (switch_after en o) os2 ->
  cb_run (disc_filter_control cfg) disc_reset (os1 ++ o :: os2) s0 = (seen, s) ->
  dict_get (cb_info s) key = Ok (IValues (report cs x)) /\
  (forall l, l = "constraints_at_last_state"%string \/ l = "constraints"%string -> l <> key ->
     dict_get (cb_info s) l = Err KeyError).
Proof.
  intros X P cfg s0 os1 o os2 seen s x key.
  exact (run_values (dc_bounds cfg) (disc_filter cfg) disc_reset
           (disc_framed cfg) disc_reset_framed os1 o os2 s0 seen s x key).
Qed.
Print Assumptions C06_discrete_reported_values.

(** Non-vacuity for these three: a returning call, a raising one and a parameter change. *)
Definition dcase : list (op R unit) :=
  [OFilter (InArray (1/2)) (1/2) [1]; OFilter InOther 1 [2]; OSetParams "wall"%string tt].
Example C03_discrete_case : exists seen s,
  cb_run (disc_filter_control (dline_cfg unit_box false (slsqp_try [1/2]))) disc_reset dcase dwalled = (seen, s) /\
  seen = [ObsControl [1/2]; ObsRaised AssertionError; ObsDone] /\
  disc_init (dline_cfg unit_box false (slsqp_try [1/2])) [("wall"%string, wall None)] None = Ok dwalled.
Proof. do 2 eexists; split; [disc_eval; reflexivity|split; reflexivity]. Qed.

(** ** C05, C08 (discrete).  After a reset, in any history, the module answers every later
    history like a newly built one with the present constraints. *)
Theorem C05_discrete_reset :
  forall (X P : Type) (cfg : disc_cfg X) (s fresh : dmod X P) next,
  disc_reached cfg s -> disc_new cfg (disc_constraints s) fresh ->
  exists s1, disc_reset s = (Ok tt, s1) /\
    let r := cb_run (disc_filter_control cfg) disc_reset next s1 in
    let r' := cb_run (disc_filter_control cfg) disc_reset next fresh in
    fst r = fst r' /\ rta_info (snd r) = rta_info (snd r') /\
    (~ quiet true next -> cb_info (snd r) = cb_info (snd r')).
Proof.
  intros X P cfg s fresh next R F.
  destruct (disc_reset_new cfg s fresh R F) as (s1 & E1 & G & En); exists s1; split; auto.
  destruct (gsim_run disc_alike (dc_bounds cfg) (disc_filter cfg) disc_reset (disc_flt_sim cfg) disc_rst_sim
    (disc_framed cfg) disc_reset_framed next False s1 fresh G) as [A B].
  change (gfilter (dc_bounds cfg) (disc_filter (P:=P) cfg)) with (disc_filter_control (P:=P) cfg) in *.
  destruct (gsim_info _ _ _ _ B) as [C D].
  intros r r'; split; [exact A|split; [exact C|]].
  intros Q; apply D; right. destruct G as (Ge & _); rewrite Ge, En; exact Q.
Qed.
Print Assumptions C05_discrete_reset.
Example C05_discrete_case : exists s seen fresh,
  cb_run (disc_filter_control (dline_cfg unit_box false (slsqp_try [1/2]))) disc_reset
    (dcase ++ [OSetEnabled "wall"%string false]) dwalled = (seen, s) /\
  disc_reached (dline_cfg unit_box false (slsqp_try [1/2])) s /\
  disc_new (dline_cfg unit_box false (slsqp_try [1/2])) (disc_constraints s) fresh /\
  intervening s = true /\ intervening fresh = false.
Proof.
  do 3 eexists; split; [disc_eval; reflexivity|split].
  - exists [("wall"%string, wall None)], None, dwalled, (dcase ++ [OSetEnabled "wall"%string false]).
    eexists; split; [keys|split; [reflexivity|]]. disc_eval; reflexivity.
  - split; [reflexivity|split; reflexivity].
Qed.

(** Two modules that agree on what a caller sees and assigns (in particular: the same present
    parameters and flags, whatever they were before) answer every later history alike. *)
Theorem C08_discrete_present_values_only :
  forall (X P : Type) (cfg : disc_cfg X) (s s' : dmod X P) os,
  disc_reached cfg s -> disc_reached cfg s' ->
  disc_constraints s = disc_constraints s' -> rta_info s = rta_info s' ->
  fst (cb_run (disc_filter_control cfg) disc_reset os s) =
  fst (cb_run (disc_filter_control cfg) disc_reset os s').
Proof.
  intros X P cfg s s' os R R' Ec Ei.
  destruct (disc_reached_plugged _ _ R) as [K P1 P2 P3 P4].
  destruct (disc_reached_plugged _ _ R') as [K' P1' P2' P3' P4'].
  unfold rta_info in Ei; injection Ei as I1 I2 I3 I4.
  assert (G : gsim disc_alike False s s').
  { unfold gsim; repeat (split; [assumption || congruence|]).
    split; [unfold disc_alike; rewrite P1, P2, P3, P4, P1', P2', P3', P4', Ec; auto|tauto]. }
  destruct (gsim_run disc_alike (dc_bounds cfg) (disc_filter cfg) disc_reset (disc_flt_sim cfg) disc_rst_sim
    (disc_framed cfg) disc_reset_framed os False s s' G) as [A _]. exact A.
Qed.
Print Assumptions C08_discrete_present_values_only.
Example C08_discrete_case :
  let cfg := dline_cfg unit_box false (slsqp_try [1/2]) in
  let s := snd (cb_run (disc_filter_control (P:=unit) cfg) disc_reset [OSetEnabled "wall"%string false; OSetEnabled "wall"%string true] dwalled) in
  let s' := snd (cb_run (disc_filter_control (P:=unit) cfg) disc_reset [OUpdateValues (InArray 3)] dwalled) in
  disc_reached cfg s /\ disc_reached cfg s' /\
  disc_constraints s = disc_constraints s' /\ rta_info s = rta_info s' /\ s <> s'.
Proof.
  intros cfg s s'.
  assert (G : forall os, disc_reached cfg (snd (cb_run (disc_filter_control cfg) disc_reset os dwalled))).
  { intros os; exists [("wall"%string, wall None)], None, dwalled, os.
    exists (fst (cb_run (disc_filter_control cfg) disc_reset os dwalled)).
    split; [keys|split; [reflexivity|apply surjective_pairing]]. }
  split; [apply G|split; [apply G|split; [reflexivity|split; [reflexivity|discriminate]]]].
Qed.
