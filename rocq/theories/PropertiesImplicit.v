(** Properties of the implicit ASIF module: C13, C17, C20, C21, C23 to C26, C31 to C34. *)
From Coq Require Import String Reals List Bool ZArith Lia Lra Permutation.
From Verif Require Import Prelude Vec ModelBase ModelController ModelSimplex ModelAsif
  SpecCore SpecHistory SpecSimplex SpecAsif SpecImplicit ProofsBase ProofsVec ProofsHistory ProofsSimplex
  ProofsAsif ProofsAsif2 ProofsAsif3 ProofsAsif4 ProofsAsif5
  ProofsImplicit ProofsImplicit2 ProofsImplicit3 ProofsImplicit4 ProofsImplicit5 ExampleTools ExampleQP PropertiesAsif.
Import ListNotations.
Local Open Scope R_scope.
Local Open Scope monad_scope.

(** ** Fixtures: the line of PropertiesAsif with a backup controller that always commands
    [ub], a window of two steps of length 1 and hence three points. *)
Definition line_ic (ub : R) : imp_cfg R :=
  mkImpCfg 2 (fun x dt u => Ok (x + dt * hd 0 u)) (fun _ _ cs => GPair [ub] cs) (fun _ _ _ => [[0]]) (fun _ => 1%nat).
Definition line_sens (S : mat) : mat := madd S (mscale 1 (mm 1 [[0]] S)).
Definition line_traj (ub x : R) : list (R * mat) :=
  [(x, eye 1); (x + 1 * ub, line_sens (eye 1)); (x + 1 * ub + 1 * ub, line_sens (line_sens (eye 1)))].
Definition imp_of (b : bounds) (cs : dict (constraint R unit)) (ds : dict (direct R unit)) : amod R unit ctl :=
  match implicit_asif_init (line_cfg b false qp1) cs None ds CSNone with
  | Ok s => s
  | Err _ => rta_init (mkCb [] [] [] [] false (mkAsif 0 [] [] [] [] [] [] [] None 0 (mkCtl CSNone CSNone CSNone)))
  end.
Definition imp_call exc solve ub (s : amod R unit ctl) x u :=
  implicit_asif_filter_control (line_cfg unit_box exc solve) (line_ic ub) (InArray x) 1 [u] s.

Lemma line_window : window_steps 2 1 2.
Proof. unfold window_steps; simpl; lra. Qed.

Lemma imp_in_use_line exc solve cs ds ub x u :
  -1 <= ub <= 1 -> distinct_keys cs -> distinct_keys ds ->
  is_ok (implicit_asif_init (line_cfg unit_box false qp1) cs None ds CSNone) = true ->
  asif_constraints (imp_of unit_box cs ds) = cs -> asif_directs (imp_of unit_box cs ds) = ds ->
  imp_ctl (imp_of unit_box cs ds) = CSNone -> enable (imp_of unit_box cs ds) = true ->
  (forall k c, In (k, c) cs -> (forall x, length (c_grad c x (c_params c)) = 1%nat) /\ c_alpha c <> None /\
     valid_sub (c_sub c) 3) -> slack_count cs = 0%nat ->
  (forall k d, In (k, d) ds -> length (d_weight d x (d_params d)) = 1%nat) ->
  imp_in_use (line_cfg unit_box exc solve) (line_ic ub) 1 (imp_of unit_box cs ds) x 1 [u] (line_traj ub x).
Proof.
  intros Hub D1 D2 Hok Ec Ed El Ee HC Hs HD.
  constructor.
  - exists cs, None, ds, CSNone, (imp_of unit_box cs ds), [], []; split; [auto|split; [auto|split; [|reflexivity]]].
    unfold imp_of in *; destruct (implicit_asif_init _ cs None ds CSNone) eqn:E; [|discriminate]. rewrite <- E; reflexivity.
  - simpl; split; simpl; auto.
  - rewrite El; intros t; discriminate.
  - rewrite El. assert (Cl : clip unit_box [ub] = Ok [ub]).
    { apply clip_id; [simpl; split; simpl; auto|].
      split; intros [|[|i]] y b Hy Hb; simpl in *; try discriminate; injection Hy as <-; injection Hb as <-; lra. }
    exists 2%nat; eexists; split; [apply line_window|split; [|split; [|reflexivity]]]; [reflexivity|].
    exact (sp_cons unit_box (line_ic ub) 1 1 CSNone x (eye 1) [ub] CSNone [ub] (x + 1 * ub)
             [(x + 1 * ub + 1 * ub, line_sens (line_sens (eye 1)))] eq_refl Cl eq_refl
           (sp_cons unit_box (line_ic ub) 1 1 CSNone (x + 1 * ub) (line_sens (eye 1)) [ub] CSNone [ub] (x + 1 * ub + 1 * ub)
             [] eq_refl Cl eq_refl (sp_nil _ _ _ _ _ _ _))).
  - rewrite Ec, Ed. constructor; simpl; auto.
    + split; [reflexivity|repeat constructor].
    + intros _ _ _; split; [reflexivity|repeat constructor].
    + intros k c pt Hc _; apply (HC k c Hc).
  - rewrite Ec; intros k c Hc; apply (HC k c Hc).
  - rewrite Ec; intros k c Hc; apply (HC k c Hc).
  - rewrite Ec; auto.
  - auto.
  - reflexivity.
Qed.
Ltac each_in := let H := fresh in intros ? ? H; simpl in H;
  repeat (destruct H as [H|H]; [injection H as <- <-|]); try contradiction.
Ltac good_constraint := split; [reflexivity|split; [discriminate|]]; unfold valid_sub; simpl;
  split; [lia|split; [lia|let E := fresh in intros ? E; try discriminate; injection E as <-; lia]].
Ltac line_imp := apply imp_in_use_line; [lra|keys|keys|reflexivity|reflexivity|reflexivity|reflexivity|reflexivity
  |each_in; good_constraint|reflexivity|each_in; reflexivity].
(** Evaluation of a call up to the solver: the window of two steps gives three points. *)
Definition mats_of_three {X P} (cfg : asif_cfg X) (ic : imp_cfg X) (x : X) : M (amod X P ctl) (mat * vec) :=
  traj <- on_actl (implicit_integrate (ac_bounds cfg) ic x 1 3) ;;
  rc <- implicit_ineq_mats cfg x 3 traj ;;
  modify (fun s => on_asif (set_names (implicit_names cfg 3 s)) s) ;;
  ret rc.
Lemma implicit_mats_three {X P} (cfg : asif_cfg X) ic x (s : amod X P ctl) :
  ic_window ic = 2 -> implicit_mats cfg ic x 1 s = mats_of_three cfg ic x s.
Proof.
  intros E; unfold implicit_mats, mats_of_three; rewrite E.
  replace (py_div 2 1) with (@Ok R (2 / 1)) by (unfold py_div; destruct (Req_EM_T 1 0); [lra|reflexivity]).
  unfold bind at 1, lift at 1.
  replace (py_int (2 / 1)) with 2%Z
    by (symmetry; unfold py_int; destruct (Rle_dec 0 (2 / 1)); [|lra];
        replace (2 / 1) with (INR 2) by (simpl; lra); rewrite Int_part_INR; reflexivity).
  reflexivity.
Qed.
Ltac imp_eval :=
  unfold imp_call;
  cbv -[Rltb Rleb Rmax Rmin Rplus Rmult Rminus Ropp Rinv Rdiv IZR Rlt Rle py_int py_div
        Rabs sqrt pow sin cos INR not qp1 qp_knowing implicit_mats];
  rewrite implicit_mats_three by reflexivity; eval_model.

Definition imp_walled := imp_of unit_box [("wall"%string, wall None)] [("push"%string, push (-1/2))].
Lemma imp_walled_in_use exc solve ub x u : -1 <= ub <= 1 ->
  imp_in_use (line_cfg unit_box exc solve) (line_ic ub) 1 imp_walled x 1 [u] (line_traj ub x).
Proof. intros; unfold imp_walled; apply imp_in_use_line; [lra|keys|keys|reflexivity|reflexivity|reflexivity|reflexivity|reflexivity
  |each_in; good_constraint|reflexivity|each_in; reflexivity]. Qed.
(** At 1/2, backing off at speed 1: the present state is the binding point. *)
Lemma imp_walled_call exc : exists s', imp_call exc qp1 (-1) imp_walled (1/2) 1 = (Ok [1/2], s') /\
  intervening s' = true /\ causes s' = Some ["wall"%string] /\ warnings s' = 0%nat.
Proof.
  eexists; split; [|split; [|split]];
    [imp_eval; qp1_gives [[1]] [1] [[1]; [-1]; [-1]; [-1]; [-1]; [1]] [-1; -1; -1/2; -3/2; -5/2; -1/2] [1/2] [3%nat];
     eval_model; reflexivity|..]; reflexivity.
Qed.

(** The requirements that the module states for controls: those at some selection of points
    made according to the settings. *)
Definition imp_ok {X P} (cfg : asif_cfg X) (s : amod X P ctl) (x : X) (traj : list (X * mat)) (jss : list (list nat)) (w : vec) : Prop :=
  length w = ac_dim cfg /\
  control_ok (ac_bounds cfg) (ac_f cfg) (ac_g cfg) (asif_constraints s) (asif_directs s) x traj jss w.

(** ** C31.  The trajectory: [integrate] returns exactly the points of [lookahead]. *)
Theorem C31_trajectory :
  forall (X : Type) (b : bounds) (ic : imp_cfg X) x dt n (c : ctl) traj,
  window_steps (ic_window ic) dt n ->
  ((exists c', implicit_integrate b ic x dt (S n) c = (Ok traj, c')) <->
   savable (ctl_state c) /\ lookahead b ic dt (ctl_state c) x traj).
Proof.
  intros X b ic x dt n c traj W; split.
  - intros (c' & H). destruct (integrate_path b ic x dt (S n) c traj c' ltac:(lia) H) as (Sv & rest & -> & L & Pth & _).
    split; [auto|]; exists n, rest; split; [auto|split; [simpl in L; lia|split; auto]].
  - intros (Sv & m & rest & W' & L & Pth & ->).
    destruct (path_integrate b ic x dt c rest Sv Pth) as (c' & E & _).
    exists c'; rewrite <- E. f_equal. f_equal. rewrite L.
    apply window_steps_int in W, W'; congruence.
Qed.
Print Assumptions C31_trajectory.

(** The points one by one: as many as whole steps fit in the window plus one, the first is the
    present state with the identity, and each next one is reached with the clipped backup
    control, its sensitivity being (I + dt J) S. *)
Theorem C31_recurrence :
  forall (X : Type) (b : bounds) (ic : imp_cfg X) x dt n cs traj,
  (forall x dt cs, is_mat (ic_size ic x) (ic_size ic x) (ic_jac ic x dt cs)) ->
  (forall y, ic_size ic y = ic_size ic x) ->
  window_steps (ic_window ic) dt n -> lookahead b ic dt cs x traj ->
  length traj = S n /\ nth_error traj 0 = Some (x, eye (ic_size ic x)) /\
  exists states : nat -> cstate, states 0%nat = cs /\
  forall j xj Sj xj1 Sj1, nth_error traj j = Some (xj, Sj) -> nth_error traj (S j) = Some (xj1, Sj1) ->
    exists v u, ic_gen ic xj dt (states j) = GPair v (states (S j)) /\ clip b v = Ok u /\
      ic_pred ic xj dt u = Ok xj1 /\
      Sj1 = mm (ic_size ic x) (madd (eye (ic_size ic x)) (mscale dt (ic_jac ic xj1 dt (states (S j))))) Sj.
Proof.
  intros X b ic x dt n cs traj HJ Hsz W (m & rest & W' & L & Pth & ->).
  assert (m = n) by (apply window_steps_int in W, W'; congruence); subst m.
  split; [simpl; congruence|split; [reflexivity|]].
  assert (HJ' : forall y dt cs, is_mat (ic_size ic x) (ic_size ic x) (ic_jac ic y dt cs)).
  { intros y d c0; rewrite <- (Hsz y); apply HJ. }
  clear - HJ' Pth. pose proof (eye_shape (ic_size ic x)) as HS. revert HS Pth.
  set (N := ic_size ic x) in *.
  enough (G : forall rest y cs S0, is_mat N N S0 -> sensitivity_path b ic N dt cs y S0 rest ->
    exists states : nat -> cstate, states 0%nat = cs /\
    forall j xj Sj xj1 Sj1, nth_error ((y, S0) :: rest) j = Some (xj, Sj) ->
      nth_error ((y, S0) :: rest) (S j) = Some (xj1, Sj1) ->
      exists v u, ic_gen ic xj dt (states j) = GPair v (states (S j)) /\ clip b v = Ok u /\
        ic_pred ic xj dt u = Ok xj1 /\
        Sj1 = mm N (madd (eye N) (mscale dt (ic_jac ic xj1 dt (states (S j))))) Sj) by (intros; apply G; auto).
  clear rest cs; induction rest as [|p rest IH]; intros y cs S0 HS Pth.
  - exists (fun _ => cs); split; auto. intros [|j] xj Sj xj1 Sj1 _ H; simpl in H; [discriminate|destruct j; discriminate].
  - inversion Pth as [|cs1 x1 S1 v cs' u x' rest' Eg Ec Ep S' Pth' E1 E2 E3 E4]; subst.
    assert (HS' : is_mat N N S') by (apply madd_shape; auto; apply mscale_shape; apply mm_shape with (m := N); auto).
    destruct (IH x' cs' S' HS' Pth') as (st & St0 & Hst).
    exists (fun j => match j with O => cs | S j' => st j' end); split; auto.
    intros [|j] xj Sj xj1 Sj1 H1 H2.
    + simpl in H1, H2; injection H1 as <- <-; injection H2 as <- <-.
      exists v, u; rewrite St0; split; [auto|split; [auto|split; [auto|]]].
      apply recurrence_form; auto.
    + destruct (Hst j xj Sj xj1 Sj1 H1 H2) as (v' & u' & Q); exists v', u'; exact Q.
Qed.
Print Assumptions C31_recurrence.

(** Every call that returns has evaluated such a trajectory. *)
Theorem C31_calls_look_ahead :
  forall (X P : Type) (cfg : asif_cfg X) (ic : imp_cfg X) (s : amod X P ctl) x dt u w s',
  0 < dt -> 0 <= ic_window ic -> enable s = true ->
  implicit_asif_filter_control cfg ic (InArray x) dt u s = (Ok w, s') ->
  savable (imp_ctl s) /\ exists traj, lookahead (ac_bounds cfg) ic dt (imp_ctl s) x traj.
Proof.
  intros X P cfg ic s x dt u w s' Hd Hw En H.
  destruct (implicit_call_lookahead cfg ic s x dt u w s' En H) as (S & _ & L); auto.
Qed.
Print Assumptions C31_calls_look_ahead.
Example C31_case : lookahead unit_box (line_ic (-1)) 1 CSNone (1/2) (line_traj (-1) (1/2)) /\
  line_sens (eye 1) = [[1]] /\ map fst (line_traj (-1) (1/2)) = [1/2; -1/2; -3/2].
Proof.
  split; [|split].
  - destruct (imp_walled_in_use false qp1 (-1) (1/2) 1 ltac:(lra)) as [_ _ _ L _ _ _ _ _ _]; exact L.
  - compute_model; list_lra.
  - simpl; list_lra.
Qed.

(** ** C13 (implicit ASIF).  A call that returns leaves the backup controller as it was. *)
Theorem C13_implicit_asif_restores_controller :
  forall (X P : Type) (cfg : asif_cfg X) (ic : imp_cfg X) (s : amod X P ctl) x dt u w s',
  enable s = true -> implicit_asif_filter_control cfg ic (InArray x) dt u s = (Ok w, s') ->
  imp_ctl s' = imp_ctl s.
Proof. intros X P cfg ic s x dt u w s' En H; apply (implicit_call_lookahead cfg ic s x dt u w s' En H). Qed.
Print Assumptions C13_implicit_asif_restores_controller.
(** A controller that counts its requests: not advanced by the call. *)
Definition counting_ic : imp_cfg R :=
  mkImpCfg 2 (fun x dt u => Ok (x + dt * hd 0 u))
    (fun _ _ cs => match cs with CSArray [n] => GPair [-1] (CSArray [n + 1]) | _ => GOther end)
    (fun _ _ _ => [[0]]) (fun _ => 1%nat).
Definition counting : amod R unit ctl :=
  match implicit_asif_init (line_cfg unit_box false qp1) [("wall"%string, wall None)] None
          ([] : dict (direct R unit)) (CSArray [5]) with
  | Ok s => s
  | Err _ => imp_walled
  end.
Example C13_implicit_case : enable counting = true /\ exists s',
  implicit_asif_filter_control (line_cfg unit_box false qp1) counting_ic (InArray (1/2)) 1 [1] counting = (Ok [1/2], s') /\
  imp_ctl s' = CSArray [5].
Proof.
  split; [reflexivity|]. eexists; split.
  - imp_eval. qp1_gives [[1]] [1] [[1]; [-1]; [-1]; [-1]; [-1]] [-1; -1; -1/2; -3/2; -5/2] [1/2] [3%nat].
    eval_model; reflexivity.
  - reflexivity.
Qed.

(** ** C32.  The inequality system: points are selected according to the settings, and a
    control satisfies the system iff it is inside the bounds, meets the condition at every
    selected point and every direct inequality.  The system is what the solver is given. *)
Theorem C32_program_encodes :
  forall (X P : Type) (cfg : asif_cfg X) (ic : imp_cfg X) n (s : amod X P ctl) x dt u traj,
  imp_in_use cfg ic n s x dt u traj ->
  exists jss G a rows consts, all_picks (asif_constraints s) traj x jss /\
    (forall w, length w = ac_dim cfg -> (solves rows consts w <-> imp_ok cfg s x traj jss w)) /\
    (forall solve e, solve G a rows consts = Err e -> e <> ValueError "constraints are inconsistent, no solution" ->
       fst (implicit_asif_filter_control (with_solver solve cfg) ic (InArray x) dt u s) = Err e) /\
    (forall solve w, solve G a rows consts = Ok (w, []) -> length w = ac_dim cfg ->
       fst (implicit_asif_filter_control (with_solver solve cfg) ic (InArray x) dt u s) = clip (ac_bounds cfg) w).
Proof.
  intros X P cfg ic n s x dt u traj U.
  destruct (implicit_call cfg ic n s x dt u traj U) as (rows & consts & Pk & Jn & Enc & SO & Hc); cbv zeta in Hc.
  eexists; do 2 eexists; exists rows, consts; split; [exact Pk|split; [|split]].
  - intros w Lw; rewrite (SO w Lw); unfold imp_ok; tauto.
  - intros solve e He Ne; destruct (Hc solve) as (_ & _ & _ & C3 & _).
    destruct (C3 e He Ne) as (s' & E & _); rewrite E; auto.
  - intros solve w Hw Lw; destruct (Hc solve) as (C1 & _).
    destruct (C1 w [] Hw Lw) as (w1 & s' & out & E & Hw1 & _); [intros i []|].
    rewrite E, Hw1; auto.
Qed.
Print Assumptions C32_program_encodes.

(** With the default settings the selected points are all points. *)
Theorem C32_default_selects_every_point :
  forall (X P : Type) (cs : dict (constraint X P)) (traj : list (X * mat)) x jss,
  (forall k c, In (k, c) cs -> c_sub c = sub_default) -> all_picks cs traj x jss ->
  Forall (fun js => Permutation js (seq 0 (length traj))) jss.
Proof.
  intros X P cs traj x jss Hd F; unfold all_picks in F.
  induction F as [|[k c] js cs jss Hp F IH]; constructor.
  - cbn [snd] in Hp; rewrite (Hd k c) in Hp by (left; auto); unfold picks in Hp; cbn [num_least sub_default keep_first keep_last] in Hp.
    destruct Hp as (base & kept & dropped & ND & Mem & _ & _ & [-> ->] & ->); simpl.
    rewrite app_nil_r; apply NoDup_Permutation; [auto|apply seq_NoDup|].
    intros p; rewrite Mem, in_seq; unfold checked; simpl; split.
    + intros [H|[H _]]; lia.
    + intros H; right; split; [lia|]. exists p; lia.
  - apply IH; intros; eapply Hd; right; eauto.
Qed.
Print Assumptions C32_default_selects_every_point.

(** With the default settings, a control returned without warning meets the condition of
    every enabled constraint at every point of the trajectory. *)
Theorem C32_default_enforced_everywhere :
  forall (X P : Type) (cfg : asif_cfg X) (ic : imp_cfg X) n (s : amod X P ctl) x dt u traj w s',
  qp_contract (ac_solve cfg) -> imp_in_use cfg ic n s x dt u traj ->
  (forall k c, In (k, c) (asif_constraints s) -> c_sub c = sub_default) ->
  implicit_asif_filter_control cfg ic (InArray x) dt u s = (Ok w, s') -> warnings s' = warnings s ->
  within (ac_bounds cfg) w /\
  (forall k c pt, In (k, c) (asif_constraints s) -> c_enabled c = true -> In pt traj ->
     0 <= point_margin (ac_f cfg) (ac_g cfg) c x pt w) /\
  (forall k d, In (k, d) (asif_directs s) -> d_enabled d = true ->
     d_constant d x (d_params d) <= dot (d_weight d x (d_params d)) w).
Proof.
  intros X P cfg ic n s x dt u traj w s' QC U Hd Hc Hw.
  destruct (implicit_solved cfg ic n s x dt u traj w s' QC U Hc) as (Pk & _ & Q); cbv zeta in Q.
  destruct (Q (or_introl Hw)) as (iact & out & Lw & (O1 & O2 & O3) & _).
  split; [auto|split; [|auto]].
  intros k c pt Hi En Hpt.
  pose proof (C32_default_selects_every_point _ _ _ _ _ _ Hd Pk) as Fp; cbv zeta in Fp.
  apply In_nth_error in Hi; destruct Hi as (i & Hi).
  apply In_nth_error in Hpt; destruct Hpt as (j & Hj).
  set (jss := map _ (asif_constraints s)) in *.
  assert (Hjs : exists js, nth_error jss i = Some js).
  { unfold jss; rewrite nth_error_map, Hi; simpl; eauto. }
  destruct Hjs as (js & Hjs).
  rewrite Forall_forall in Fp; specialize (Fp js (nth_error_In _ _ Hjs)).
  assert (Hpt : point traj x j = pt) by (apply nth_error_nth; auto).
  rewrite <- Hpt; apply (O2 i k c js j Hi En Hjs).
  eapply Permutation_in; [symmetry; exact Fp|]. apply in_seq; split; [lia|]; simpl.
  apply nth_error_Some; congruence.
Qed.
Print Assumptions C32_default_enforced_everywhere.
Example C32_case : imp_in_use (line_cfg unit_box false qp1) (line_ic (-1)) 1 imp_walled (1/2) 1 [1] (line_traj (-1) (1/2)) /\
  (forall k c, In (k, c) (asif_constraints imp_walled) -> c_sub c = sub_default) /\
  fst (imp_call false qp1 (-1) imp_walled (1/2) 1) = Ok [1/2] /\
  ~ control_ok unit_box (fun _ => [0]) (fun _ => [[1]]) (asif_constraints imp_walled) [] (1/2) (line_traj (-1) (1/2)) [[0%nat]] [3/4].
Proof.
  split; [apply imp_walled_in_use; lra|split; [each_in; reflexivity|split]].
  - destruct (imp_walled_call false) as (s' & E & _); rewrite E; reflexivity.
  - intros (_ & H & _). specialize (H 0%nat "wall"%string (wall None) [0%nat] 0%nat eq_refl eq_refl eq_refl (or_introl eq_refl)).
    unfold point_margin, point_value in H; simpl in H; lra.
Qed.

(** ** C20, C21 (implicit ASIF).  The control returned without warning meets the requirements
    and is, among all that meet them, the closest one to the desired control. *)
Theorem C21_implicit_minimally_invasive :
  forall (X P : Type) (cfg : asif_cfg X) (ic : imp_cfg X) n (s : amod X P ctl) x dt u traj w s',
  qp_contract (ac_solve cfg) -> imp_in_use cfg ic n s x dt u traj ->
  implicit_asif_filter_control cfg ic (InArray x) dt u s = (Ok w, s') ->
  exists jss, all_picks (asif_constraints s) traj x jss /\
    (warnings s' = warnings s -> imp_ok cfg s x traj jss w) /\
    forall v, imp_ok cfg s x traj jss v -> imp_ok cfg s x traj jss w /\ (v = w \/ dist2 u w < dist2 u v).
Proof.
  intros X P cfg ic n s x dt u traj w s' QC U Hc.
  destruct (implicit_solved cfg ic n s x dt u traj w s' QC U Hc) as (Pk & _ & Q); cbv zeta in Q.
  eexists; split; [exact Pk|split].
  - intros Hw; destruct (Q (or_introl Hw)) as (iact & out & Lw & Ok & _); split; auto.
  - intros v [Lv Okv].
    destruct (Q (or_intror (ex_intro _ v (conj Lv Okv)))) as (iact & out & Lw & Ok & Opt & _).
    split; [split; auto|]. destruct (Opt v Lv Okv) as [Le Eq].
    destruct (Rle_lt_dec (dist2 u v) (dist2 u w)); [left; auto|right; auto].
Qed.
Print Assumptions C21_implicit_minimally_invasive.

(** ** C23 (implicit ASIF). *)
Theorem C23_implicit_intervening_iff_far :
  forall (X P : Type) (cfg : asif_cfg X) (ic : imp_cfg X) n (s : amod X P ctl) x dt u traj w s',
  qp_contract (ac_solve cfg) -> imp_in_use cfg ic n s x dt u traj ->
  implicit_asif_filter_control cfg ic (InArray x) dt u s = (Ok w, s') ->
  (warnings s' = warnings s -> (intervening s' = true <-> ac_eps cfg < sqrt (dist2 u w))) /\
  (warnings s' <> warnings s -> (intervening s' = true <-> ac_eps cfg < 0)).
Proof.
  intros X P cfg ic n s x dt u traj w s' QC U Hc.
  destruct (implicit_solved cfg ic n s x dt u traj w s' QC U Hc) as (Pk & _ & Q); cbv zeta in Q.
  split; intros Hw.
  - destruct (Q (or_introl Hw)) as (iact & out & _ & _ & _ & -> & _); apply Rltb_true.
  - destruct (implicit_outcomes cfg ic n s x dt u traj w s' QC U Hc) as [E|(_ & _ & _ & -> & _)]; [contradiction|apply Rltb_true].
Qed.
Print Assumptions C23_implicit_intervening_iff_far.

(** ** C24 (implicit ASIF).  A warning means that no control meets the requirements, and then
    the clipped desired control is returned; with exceptions requested nothing is returned. *)
Theorem C24_implicit_warning_means_infeasible :
  forall (X P : Type) (cfg : asif_cfg X) (ic : imp_cfg X) n (s : amod X P ctl) x dt u traj w s',
  qp_contract (ac_solve cfg) -> imp_in_use cfg ic n s x dt u traj ->
  implicit_asif_filter_control cfg ic (InArray x) dt u s = (Ok w, s') ->
  warnings s' = warnings s \/
  (warnings s' = S (warnings s) /\ ac_exc cfg = false /\ clip (ac_bounds cfg) u = Ok w /\
   exists jss, all_picks (asif_constraints s) traj x jss /\ forall v, ~ imp_ok cfg s x traj jss v).
Proof.
  intros X P cfg ic n s x dt u traj w s' QC U Hc.
  destruct (implicit_solved cfg ic n s x dt u traj w s' QC U Hc) as (Pk & _ & _).
  destruct (implicit_outcomes cfg ic n s x dt u traj w s' QC U Hc) as [E|(E1 & E2 & E3 & _ & _ & E4)]; [auto|].
  right; split; [auto|split; [auto|split; [auto|]]]. eexists; split; [exact Pk|].
  intros v [Lv Okv]; apply (E4 v Lv Okv).
Qed.
Print Assumptions C24_implicit_warning_means_infeasible.
Theorem C24_implicit_infeasible_handling :
  forall (X P : Type) (cfg : asif_cfg X) (ic : imp_cfg X) n (s : amod X P ctl) x dt u traj,
  imp_in_use cfg ic n s x dt u traj -> 0 <= ac_eps cfg ->
  exists jss G a rows consts, all_picks (asif_constraints s) traj x jss /\
    (forall w, length w = ac_dim cfg -> (solves rows consts w <-> imp_ok cfg s x traj jss w)) /\
    (forall solve, solve G a rows consts = Err (ValueError "constraints are inconsistent, no solution") ->
       let call := implicit_asif_filter_control (with_solver solve cfg) ic (InArray x) dt u s in
       if ac_exc cfg then fst call = Err SolverError /\ warnings (snd call) = warnings s
       else fst call = clip (ac_bounds cfg) u /\ intervening (snd call) = false /\
            warnings (snd call) = S (warnings s)).
Proof.
  intros X P cfg ic n s x dt u traj U He.
  destruct (implicit_call cfg ic n s x dt u traj U) as (rows & consts & Pk & Jn & Enc & SO & Hc); cbv zeta in Hc.
  eexists; do 2 eexists; exists rows, consts; split; [exact Pk|split].
  - intros w Lw; rewrite (SO w Lw); unfold imp_ok; tauto.
  - intros solve Hs; destruct (Hc solve) as (_ & _ & C2 & _). specialize (C2 Hs); cbv zeta.
    destruct (ac_exc cfg).
    + destruct C2 as (s' & E & H1 & _); rewrite E; auto.
    + destruct C2 as (w & s' & E & H1 & H2 & _ & H4); rewrite E; simpl; split; [auto|split; [|auto]].
      rewrite H2; apply Rltb_false; lra.
Qed.
Print Assumptions C24_implicit_infeasible_handling.
(** The same starting point with an additional demand u >= 3/4: infeasible. *)
Definition imp_stuck := imp_of unit_box [("wall"%string, wall None)] [("push"%string, push (3/4))].
Example C24_implicit_case :
  imp_in_use (line_cfg unit_box false qp1) (line_ic (-1)) 1 imp_stuck (1/2) 1 [1] (line_traj (-1) (1/2)) /\
  exists s', imp_call false qp1 (-1) imp_stuck (1/2) 1 = (Ok [1], s') /\ warnings s' = 1%nat.
Proof.
  split; [unfold imp_stuck; line_imp|]. eexists; split; [|].
  - imp_eval. qp1_fails [[1]] [1] [[1]; [-1]; [-1]; [-1]; [-1]; [1]] [-1; -1; -1/2; -3/2; -5/2; 3/4].
    eval_model; reflexivity.
  - reflexivity.
Qed.

(** ** C17 (implicit ASIF). *)
Theorem C17_implicit_asif_disabled_ignored :
  forall (X P : Type) (cfg : asif_cfg X) (ic : imp_cfg X) n (s s1 : amod X P ctl) x dt u traj w t w1 t1,
  qp_contract (ac_solve cfg) -> imp_in_use cfg ic n s x dt u traj -> imp_in_use cfg ic n s1 x dt u traj ->
  asif_constraints s1 = without_disabled (asif_constraints s) ->
  asif_directs s1 = without_disabled_direct (asif_directs s) ->
  implicit_asif_filter_control cfg ic (InArray x) dt u s = (Ok w, t) ->
  implicit_asif_filter_control cfg ic (InArray x) dt u s1 = (Ok w1, t1) ->
  w1 = w /\ intervening t1 = intervening t /\ (warnings t1 = warnings s1 <-> warnings t = warnings s).
Proof.
  intros X P cfg ic n s s1 x dt u traj w t w1 t1 QC U U1 Ec Ed Hc Hc1.
  eapply implicit_disabled; eauto.
  - rewrite Ec; clear; unfold active; induction (asif_constraints s) as [|[k c] cs IH]; simpl; auto; rewrite IH; auto.
  - rewrite Ed; apply without_disabled_direct_active.
Qed.
Print Assumptions C17_implicit_asif_disabled_ignored.
Example C17_implicit_case :
  let s := imp_of unit_box [("off"%string, set_c_enabled false (ground 100)); ("wall"%string, wall None)]
             [("push"%string, push (-1/2)); ("shove"%string, set_d_enabled false (push 50))] in
  imp_in_use (line_cfg unit_box false qp1) (line_ic (-1)) 1 s (1/2) 1 [1] (line_traj (-1) (1/2)) /\
  imp_in_use (line_cfg unit_box false qp1) (line_ic (-1)) 1 imp_walled (1/2) 1 [1] (line_traj (-1) (1/2)) /\
  asif_constraints imp_walled = without_disabled (asif_constraints s) /\
  asif_directs imp_walled = without_disabled_direct (asif_directs s) /\
  fst (imp_call false qp1 (-1) s (1/2) 1) = Ok [1/2].
Proof.
  split; [line_imp|split; [apply imp_walled_in_use; lra|split; [reflexivity|split; [reflexivity|]]]].
  imp_eval.
  qp1_gives [[1]] [1] [[1]; [-1]; [0]; [0]; [0]; [-1]; [-1]; [-1]; [1]; [0]] [-1; -1; 0; 0; 0; -1/2; -3/2; -5/2; -1/2; 0] [1/2] [6%nat].
  eval_model; reflexivity.
Qed.

(** ** C33.  The selected points.  As documented: with num_check_all = a and skip_length = s the
    first a points and then every s-th of the others, that is a, a + s, a + 2s, ... *)
Definition documented_check (sub : subsample) (n p : nat) : Prop :=
  (p < n)%nat /\
  let a := Z.max 0 (num_check_all sub) in
  ((Z.of_nat p < a)%Z \/ exists i : nat, Z.of_nat p = (a + Z.of_nat i * skip_length sub)%Z).

(** What the module does: the selection is of the documented form (the least values among the
    checked points, then the ends), except for which points are checked. *)
Theorem C33_selected_points_partial :
  forall (X P : Type) (cfg : asif_cfg X) (ic : imp_cfg X) n (s : amod X P ctl) x dt u traj,
  imp_in_use cfg ic n s x dt u traj ->
  exists jss G a rows consts,
    (forall w, length w = ac_dim cfg -> (solves rows consts w <-> imp_ok cfg s x traj jss w)) /\
    (forall solve e, solve G a rows consts = Err e -> e <> ValueError "constraints are inconsistent, no solution" ->
       fst (implicit_asif_filter_control (with_solver solve cfg) ic (InArray x) dt u s) = Err e) /\
    length jss = length (asif_constraints s) /\
    forall i k c js, nth_error (asif_constraints s) i = Some (k, c) -> nth_error jss i = Some js ->
      let val := fun j => point_value c (point traj x j) in
      exists kept,
        js = kept ++ (if keep_first (c_sub c) then [0%nat] else []) ++
             (if keep_last (c_sub c) then [(length traj - 1)%nat] else []) /\
        NoDup kept /\ (forall p, In p kept -> checked (c_sub c) (length traj) p) /\
        match num_least (c_sub c) with
        | None => forall p, checked (c_sub c) (length traj) p -> In p kept
        | Some N => (length kept <= Z.to_nat N)%nat /\
            (forall p q, In p kept -> checked (c_sub c) (length traj) q -> ~ In q kept ->
               val p <= val q /\ length kept = Z.to_nat N)
        end.
Proof.
  intros X P cfg ic n s x dt u traj U.
  destruct (implicit_call cfg ic n s x dt u traj U) as (rows & consts & Pk & Jn & Enc & SO & Hc); cbv zeta in Hc.
  exists (jss_of traj (asif_constraints s)); do 2 eexists; exists rows, consts; split; [|split; [|split]].
  - intros w Lw; rewrite (SO w Lw); unfold imp_ok; tauto.
  - intros solve e He Ne; destruct (Hc solve) as (_ & _ & _ & C3 & _).
    destruct (C3 e He Ne) as (s' & E & _); rewrite E; auto.
  - apply map_length.
  - clear - Pk. set (jss := map _ (asif_constraints s)) in *; clearbody jss.
    intros i k c js Hi Hj val. unfold all_picks in Pk.
    assert (Hp : picks (c_sub c) (length traj) val js).
    { revert i Hi Hj; induction Pk as [|kc js0 cs jss0 H F IH]; intros [|i] Hi Hj; simpl in *; try discriminate.
      - injection Hi as ->; injection Hj as ->; exact H.
      - eapply IH; eauto. }
    destruct Hp as (base & kept & dropped & ND & Mem & Perm & Least & Num & Ejs).
    exists kept; split; [auto|].
    assert (NDk : NoDup (kept ++ dropped)) by (eapply Permutation_NoDup; eauto).
    split; [|split].
    + clear - NDk; induction kept as [|p kept IH]; simpl in *; constructor; inversion NDk; subst; auto.
      intros Hin; apply H1, in_or_app; auto.
    + intros p Hp; apply Mem; eapply Permutation_in; [symmetry; exact Perm|apply in_or_app; auto].
    + destruct (num_least (c_sub c)) as [N|].
      * split; [rewrite Num; apply Nat.le_min_l|]. intros p q Hp Hq Nq.
        assert (Hd : In q dropped).
        { apply Mem in Hq; apply (Permutation_in _ Perm) in Hq.
          destruct (in_app_or _ _ _ Hq); [contradiction|auto]. }
        split; [auto|]. apply Permutation_length in Perm; rewrite app_length in Perm.
        destruct dropped; [contradiction|simpl in Perm]; lia.
      * destruct Num as [_ ->]; intros p; apply Mem.
Qed.
Print Assumptions C33_selected_points_partial.

(** With num_check_all left at its default the checked points are the documented ones, ... *)
Theorem C33_default_check_as_documented_partial : forall sub n p,
  num_check_all sub = (-1)%Z -> (1 <= skip_length sub)%Z ->
  (checked sub n p <-> documented_check sub n p).
Proof.
  intros sub n p Ha Hs; unfold checked, documented_check; rewrite Ha; simpl; split.
  - intros [H|[H (i & E)]]; [lia|]. split; [auto|right; exists i; lia].
  - intros [H [E|(i & E)]]; [lia|]. right; split; [auto|exists i; lia].
Qed.
Print Assumptions C33_default_check_as_documented_partial.
(** ... but with any other value point number num_check_all itself is never checked. *)
Theorem C33_documented_point_missed_refuted : forall sub n,
  (0 <= num_check_all sub < Z.of_nat n)%Z -> (1 <= skip_length sub)%Z ->
  documented_check sub n (Z.to_nat (num_check_all sub)) /\ ~ checked sub n (Z.to_nat (num_check_all sub)).
Proof.
  intros sub n Ha Hs; split.
  - split; [lia|right]. exists 0%nat; lia.
  - intros [H|[H (i & E)]]; [lia|]. rewrite Z2Nat.id in E by lia.
    assert (0 <= Z.of_nat i * skip_length sub)%Z by (apply Z.mul_nonneg_nonneg; lia). lia.
Qed.
Print Assumptions C33_documented_point_missed_refuted.
(** The effect on a user: a control is returned without warning although the condition fails at
    a point that the settings promise to check. *)
Definition gap : constraint R unit :=
  mkConstraint (fun x _ => (x - 1) * (x - 1) - 1/4) (fun x _ => (x - 1) * (x - 1) - 1/4) (fun x _ => [2 * (x - 1)])
    (Some (fun h => h)) None 0 (-1/100) None (mkSub 1 1 None false false) tt true.
Definition imp_gap := imp_of unit_box [("gap"%string, gap)] [].
Theorem C33_unsafe_point_accepted_refuted :
  exists (cfg : asif_cfg R) (ic : imp_cfg R) (s : amod R unit ctl) x dt u traj w s' c j,
    qp_contract (ac_solve cfg) /\ imp_in_use cfg ic 1 s x dt u traj /\
    implicit_asif_filter_control cfg ic (InArray x) dt u s = (Ok w, s') /\ warnings s' = warnings s /\
    In ("gap"%string, c) (asif_constraints s) /\ c_enabled c = true /\ num_least (c_sub c) = None /\
    documented_check (c_sub c) (length traj) j /\
    point_margin (ac_f cfg) (ac_g cfg) c x (point traj x j) w < 0.
Proof.
  exists (line_cfg unit_box false qp1), (line_ic 1), imp_gap, 0, 1, [0], (line_traj 1 0), [0].
  eexists; exists gap, 1%nat.
  split; [apply qp1_contract|split; [unfold imp_gap; line_imp|split; [|split; [|split; [|split; [|split; [|split]]]]]]].
  - imp_eval. qp1_gives [[1]] [0] [[1]; [-1]; [-2]; [2]] [-1; -1; -3/4; -3/4] [0] (@nil nat).
    eval_model; reflexivity.
  - reflexivity.
  - left; reflexivity.
  - reflexivity.
  - reflexivity.
  - split; [simpl; lia|right]. exists 0%nat; reflexivity.
  - unfold point_margin, point_value; simpl; lra.
Qed.
Print Assumptions C33_unsafe_point_accepted_refuted.

(** ** C34.  No call of an implicit module with a slack variable ever returns. *)
Theorem C34_slack_never_works_refuted :
  forall (X P : Type) (cfg : asif_cfg X) (ic : imp_cfg X) (s : amod X P ctl) x dt u,
  implicit_reached cfg ic s -> (0 < slack_count (asif_constraints s))%nat -> enable s = true ->
  exists e s', implicit_asif_filter_control cfg ic (InArray x) dt u s = (Err e, s').
Proof. intros; apply implicit_slack_fails; auto. Qed.
Print Assumptions C34_slack_never_works_refuted.
Definition imp_slack := imp_of unit_box [("wall"%string, wall (Some 1))] [].
Example C34_case : implicit_reached (line_cfg unit_box false qp1) (line_ic (-1)) imp_slack /\
  slack_count (asif_constraints imp_slack) = 1%nat /\ enable imp_slack = true /\
  fst (imp_call false qp1 (-1) imp_slack (1/2) 1) = Err TypeError.
Proof.
  split; [|split; [reflexivity|split; [reflexivity|]]].
  - exists [("wall"%string, wall (Some 1))], None, [], CSNone, imp_slack, [], []; split; [keys|split; [keys|split; reflexivity]].
  - imp_eval; reflexivity.
Qed.

(** ** C25, C26 (implicit ASIF).  With the default settings the causes of a solved call are the
    names of requirements that hold with equality; with no cause the desired control is kept. *)
Lemma call_names_default {X P} b dim f g x (traj : list (X * mat)) (cs : dict (constraint X P)) ds jss :
  length jss = length cs -> Forall (fun js => length js = length traj) jss ->
  call_names b dim cs ds (length traj) = map dm_name (implicit_demands b dim f g cs ds x traj jss).
Proof.
  intros L F; unfold call_names, implicit_demands, bound_demands.
  rewrite !app_assoc, !map_app. f_equal; [f_equal|].
  - revert jss L F; induction cs as [|[k c] cs IH]; intros [|js jss] L F; simpl in *; try discriminate; auto.
    rewrite map_app, map_map; simpl. inversion F as [|? ? H1 H2]; subst.
    rewrite <- (IH jss) by (auto; lia). f_equal.
    clear - H1; revert H1; generalize (length traj); induction js as [|j js IH]; intros n <-; simpl; auto; f_equal; auto.
  - unfold dict_keys; clear; induction ds as [|[k d] ds IH]; simpl; auto; f_equal; auto.
Qed.
Theorem C25_implicit_causes_of_solved_call_partial :
  forall (X P : Type) (cfg : asif_cfg X) (ic : imp_cfg X) n (s : amod X P ctl) x dt u traj w s',
  qp_contract (ac_solve cfg) -> imp_in_use cfg ic n s x dt u traj ->
  (forall k c, In (k, c) (asif_constraints s) -> c_sub c = sub_default) ->
  implicit_asif_filter_control cfg ic (InArray x) dt u s = (Ok w, s') -> warnings s' = warnings s ->
  exists jss out, all_picks (asif_constraints s) traj x jss /\ causes s' = Some out /\ NoDup out /\
    (forall k, In k out -> exists d,
       In d (implicit_demands (ac_bounds cfg) (ac_dim cfg) (ac_f cfg) (ac_g cfg)
               (asif_constraints s) (asif_directs s) x traj jss) /\ dm_name d = k /\ dm_margin d w = 0) /\
    (out = [] -> w = u).
Proof.
  intros X P cfg ic n s x dt u traj w s' QC U Hd Hc Hw.
  destruct (implicit_solved cfg ic n s x dt u traj w s' QC U Hc) as (Pk & _ & Q); cbv zeta in Q.
  pose proof (C32_default_selects_every_point _ _ _ _ _ _ Hd Pk) as Fp.
  assert (Lj : length (jss_of traj (asif_constraints s)) = length (asif_constraints s)) by apply map_length.
  set (jss := jss_of traj (asif_constraints s)) in *.
  destruct (Q (or_introl Hw)) as (iact & out & Lw & Okw & Opt & _ & Hca & _ & Hno & Tight & KKT).
  assert (Fl : Forall (fun js => length js = length traj) jss).
  { eapply Forall_impl; [|exact Fp]. intros js Hp; apply Permutation_length in Hp; rewrite Hp, seq_length; auto. }
  rewrite (call_names_default _ _ (ac_f cfg) (ac_g cfg) x _ _ _ jss Lj Fl) in Hno.
  set (demands := implicit_demands _ _ _ _ _ _ _ _ jss) in *.
  exists jss, out; split; [auto|split; [auto|split; [eapply names_of_nodup; [exact Hno|constructor]|split]]].
  - intros k Hk; apply (names_of_in _ _ _ _ Hno) in Hk. destruct Hk as [[]|(j & Hj & Hk)].
    rewrite nth_error_map in Hk. destruct (nth_error demands j) as [d|] eqn:Ed; [|discriminate].
    injection Hk as Hk; exists d; split; [eapply nth_error_In; eauto|split; auto].
    destruct (Tight _ Hj) as (j' & d' & E & Hd' & Z). injection E as <-. congruence.
  - intros ->.
    assert (Ei : iact = []).
    { destruct iact as [|i iact]; auto; exfalso.
      destruct (Tight i (or_introl eq_refl)) as (j & d & -> & Hj & _).
      apply (in_nil (a := dm_name d)); apply (names_of_in _ _ _ _ Hno).
      right; exists j; split; [left; auto|rewrite nth_error_map, Hj; auto]. }
    subst iact. pose proof (ii_length _ _ _ _ _ _ _ _ U) as Lu.
    specialize (KKT u Lu ltac:(intros ? ? [])); rewrite dist2_refl in KKT.
    symmetry; apply dist2_zero; [congruence|auto].
Qed.
Print Assumptions C25_implicit_causes_of_solved_call_partial.
Example C25_implicit_case : imp_in_use (line_cfg unit_box false qp1) (line_ic (-1)) 1 imp_walled (1/2) 1 [1] (line_traj (-1) (1/2)) /\
  (forall k c, In (k, c) (asif_constraints imp_walled) -> c_sub c = sub_default) /\
  exists s', imp_call false qp1 (-1) imp_walled (1/2) 1 = (Ok [1/2], s') /\
  warnings s' = warnings imp_walled /\ causes s' = Some ["wall"%string].
Proof.
  split; [apply imp_walled_in_use; lra|split; [each_in; reflexivity|]].
  destruct (imp_walled_call false) as (s' & H & _ & Hi & Hw); exists s'; auto.
Qed.

(** With subsampling the names do not follow the rows.  Here the wall holds the control back
    and the far-away floor is reported, although it holds with a margin of more than 5. *)
Definition with_sub {X P} (sub : subsample) (c : constraint X P) : constraint X P :=
  mkConstraint (c_fun c) (c_phi c) (c_grad c) (c_alpha c) (c_alpha_neg c) (c_bias c) (c_bias_neg c)
    (c_slack c) sub (c_params c) (c_enabled c).
Definition least_one : subsample := mkSub (-1) 1 (Some 1%Z) false false.
Definition imp_two := imp_of unit_box
  [("floor"%string, with_sub least_one (ground (-10))); ("wall"%string, with_sub least_one (wall None))] [].
Theorem C26_implicit_misattribution_refuted :
  exists (cfg : asif_cfg R) (ic : imp_cfg R) (s : amod R unit ctl) x dt u traj w s',
    qp_contract (ac_solve cfg) /\ imp_in_use cfg ic 1 s x dt u traj /\
    implicit_asif_filter_control cfg ic (InArray x) dt u s = (Ok w, s') /\ warnings s' = warnings s /\
    causes s' = Some ["floor"%string] /\
    (exists c, In ("floor"%string, c) (asif_constraints s) /\
       forall pt, In pt traj -> 5 < point_margin (ac_f cfg) (ac_g cfg) c x pt w).
Proof.
  exists (line_cfg unit_box false qp1), (line_ic (-1)), imp_two, (1/2), 1, [1], (line_traj (-1) (1/2)), [1/2].
  eexists.
  split; [apply qp1_contract|split; [unfold imp_two; line_imp|split; [|split; [|split]]]].
  - imp_eval. qp1_gives [[1]] [1] [[1]; [-1]; [1]; [-1]] [-1; -1; -17/2; -1/2] [1/2] [4%nat].
    eval_model; reflexivity.
  - reflexivity.
  - reflexivity.
  - exists (with_sub least_one (ground (-10))); split; [left; reflexivity|].
    intros pt [<-|[<-|[<-|[]]]]; unfold point_margin, point_value; simpl; lra.
Qed.
Print Assumptions C26_implicit_misattribution_refuted.
(** And a solvable call can fail, because a row has no name. *)
Definition imp_last := imp_of unit_box
  [("wall"%string, with_sub (mkSub (-1) 1 None false true) (wall None))] [("push"%string, push (-1/2))].
Theorem C26_implicit_missing_name_refuted :
  exists (cfg : asif_cfg R) (ic : imp_cfg R) (s : amod R unit ctl) x dt u traj,
    qp_contract (ac_solve cfg) /\ imp_in_use cfg ic 1 s x dt u traj /\
    (exists jss, all_picks (asif_constraints s) traj x jss /\ imp_ok cfg s x traj jss [-1/2]) /\
    fst (implicit_asif_filter_control cfg ic (InArray x) dt u s) = Err IndexError.
Proof.
  exists (line_cfg unit_box false qp1), (line_ic (-1)), imp_last, (1/2), 1, [-1], (line_traj (-1) (1/2)).
  assert (U : imp_in_use (line_cfg unit_box false qp1) (line_ic (-1)) 1 imp_last (1/2) 1 [-1] (line_traj (-1) (1/2)))
    by (unfold imp_last; line_imp).
  split; [apply qp1_contract|split; [exact U|split]].
  - destruct (C32_program_encodes _ _ _ _ _ _ _ _ _ _ U) as (jss & _ & _ & _ & _ & Pk & _).
    exists jss; split; [exact Pk|split; [reflexivity|split; [|split]]].
    + split; intros [|[|i]] y b Hy Hb; simpl in *; try discriminate; injection Hy as <-; injection Hb as <-; lra.
    + intros [|[|i]] k c js j Hi En Hj Hin; simpl in Hi; try discriminate. injection Hi as <- <-.
      unfold point_margin, point_value, point.
      destruct j as [|[|[|j]]]; simpl; try lra; destruct j; simpl; lra.
    + intros k d [H|[]] _; injection H as <- <-; simpl; lra.
  - imp_eval. qp1_gives [[1]] [-1] [[1]; [-1]; [-1]; [-1]; [-1]; [-1]; [1]] [-1; -1; -1/2; -3/2; -5/2; -5/2; -1/2] [-1/2] [7%nat].
    eval_model; reflexivity.
Qed.
Print Assumptions C26_implicit_missing_name_refuted.
