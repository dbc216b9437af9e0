(** C95 continued: when the module with integration_method RK45 can meet its condition. *)
From Coq Require Import String Reals List Bool ZArith Lia Lra Permutation.
From Verif Require Import Prelude Vec ModelBase ModelController ModelSimplex ModelAsif ModelConstraint ModelIntegrator ModelIntImplicit.
From Verif Require ProofsVec ProofsImplicit3.
From Verif Require Import SpecCore SpecConstraint SpecAsif SpecImplicit SpecIntImplicit ProofsBase ProofsConstraint ProofsSimplex ProofsAsif ProofsAsif2 ProofsAsif4 ProofsImplicit ProofsImplicit2 ProofsImplicit4
  PropertiesAsif PropertiesImplicit PropertiesIntegrator PropertiesSolver PropertiesIntImplicit PropertiesIntImplicit2.
Import ListNotations.
Local Open Scope R_scope.

(** Full statement: see C95_stopping_partial, here for exact steps.  What holds: if all predicted
    points are before the target by at least dt / (20 m), and the vehicle stops within the window,
    full braking meets the condition; the call does not fail and does not warn.  The margin makes
    up for the highest point of the flight being between two of the predicted ones. *)
Theorem C95_exact_stopping_partial : forall m win eps exc solve s p v u dt traj n,
  0 < m -> qp_contract solve -> (forall G a C b, solve G a C b <> Err SolverError) ->
  let cfg := int_optimization m eps exc solve in
  let ic := int_implicit_ic false m win in
  imp_in_use cfg ic 2 s [p; v] dt u traj -> asif_constraints s = int_implicit_constraints -> asif_directs s = [] ->
  window_steps win dt n ->
  (forall j, (j <= n)%nat -> fst (braked_exactly m dt j (p, v)) <= - (dt / (20 * m))) ->
  snd (braked_exactly m dt n (p, v)) <= 0 ->
  (forall jss, all_picks (asif_constraints s) traj [p; v] jss -> imp_ok cfg s [p; v] traj jss [-1]) /\
  fst (implicit_asif_filter_control cfg ic (InArray [p; v]) dt u s) <> Err SolverError /\
  forall w s', implicit_asif_filter_control cfg ic (InArray [p; v]) dt u s = (Ok w, s') -> warnings s' = warnings s.
Proof.
  intros m win eps exc solve s p v u dt traj n Hm QC NS cfg ic U Ec Ed W Sf St.
  pose proof (proj1 W) as Hd. assert (Im : 0 < / m) by (apply Rinv_0_lt_compat; lra).
  assert (Mg : 0 < dt / (20 * m)) by (apply Rdiv_lt_0_compat; lra).
  assert (A : forall jss, all_picks (asif_constraints s) traj [p; v] jss -> imp_ok cfg s [p; v] traj jss [-1]).
  { intros jss Pk. rewrite Ec in Pk.
    destruct (int_pick_exact m win dt _ p v traj jss Hm (ii_look _ _ _ _ _ _ _ _ U) Pk) as (n' & j & W' & -> & Hj & Fm & Pt).
    assert (n' = n) by (apply window_steps_int in W, W'; congruence). subst n'.
    assert (B : v - INR j * dt / m <= dt / (2 * m)).
    { assert (0 < dt / (2 * m)) by (apply Rdiv_lt_0_compat; lra).
      destruct (Nat.eq_dec j n) as [->|Nj]; [unfold braked_exactly in St; cbn [fst snd] in St; lra|].
      specialize (Fm (S j) ltac:(lia)). unfold braked_exactly in Fm. cbn [fst snd] in Fm. rewrite S_INR in Fm.
      assert (E : p + v * ((INR j + 1) * dt) - ((INR j + 1) * dt) ^ 2 / (2 * m)
        = p + v * (INR j * dt) - (INR j * dt) ^ 2 / (2 * m) + dt * (v - INR j * dt / m - dt / (2 * m))) by (field; lra).
      rewrite E in Fm. destruct (Rle_lt_dec (v - INR j * dt / m) (dt / (2 * m))) as [|L]; [assumption|].
      assert (0 < dt * (v - INR j * dt / m - dt / (2 * m))) by (apply Rmult_lt_0_compat; lra). lra. }
    split; [reflexivity|]. rewrite Ec, Ed. split; [|split].
    - split; intros i y b Hy Hb; cbn in Hb; injection Hb as <-; destruct i as [|[|i]]; cbn in Hy; try discriminate;
        injection Hy as <-; lra.
    - intros i k c js j' Hc En Hjs Ij. destruct i as [|i]; [|destruct i; discriminate Hc].
      cbn in Hc, Hjs. injection Hc as <- <-. injection Hjs as <-. destruct Ij as [<-|[]].
      match goal with |- 0 <= ?e => assert (Q : e = - (v + INR j * dt * (-1 / m)) +
        (10 * (- fst (braked_exactly m dt j (p, v))) + 30 * ((- fst (braked_exactly m dt j (p, v))) * (- fst (braked_exactly m dt j (p, v))) * (- fst (braked_exactly m dt j (p, v)))))) end.
      { etransitivity; [exact (f_equal (fun q => point_margin (ac_f cfg) (ac_g cfg) _ [p; v] q [-1]) Pt)|].
        exact (proj1 (int_margin m eps exc solve p v (-1) (fst (braked_exactly m dt j (p, v))) (snd (braked_exactly m dt j (p, v))) (INR j * dt))). }
      rewrite Q. clear Q. specialize (Sf j Hj).
      set (q := fst (braked_exactly m dt j (p, v))) in *.
      assert (0 <= (- q) * (- q) * (- q)) by (repeat apply Rmult_le_pos; lra).
      replace (INR j * dt * (-1 / m)) with (- (INR j * dt / m)) by (field; lra).
      replace (dt / (2 * m)) with (10 * (dt / (20 * m))) in B by (field; lra). lra.
    - intros k d []. }
  split; [exact A|]. split; [exact (no_solver_error cfg ic 2 s [p; v] dt u traj [-1] QC NS U A)|]. intros w s' Hc.
  destruct (C24_implicit_warning_means_infeasible _ _ cfg ic 2 s [p; v] dt u traj w s' QC U Hc) as [E|(_ & _ & _ & jss & Pk & No)]; [exact E|].
  destruct (No [-1] (A jss Pk)).
Qed.
Print Assumptions C95_exact_stopping_partial.

(** Without the margin it is false, for every mass, step and window of at least a step: at the target
    and moving on at dt / (4 m), no predicted point is past zero and the vehicle stops within the window,
    but no control meets the condition. *)
Theorem C95_between_points_refuted : forall m win dt n, 0 < m -> window_steps win dt n -> (1 <= n)%nat ->
  exists p v, (forall j, (j <= n)%nat -> fst (braked_exactly m dt j (p, v)) <= 0) /\
  snd (braked_exactly m dt n (p, v)) <= 0 /\
  forall eps exc solve s u traj, qp_contract solve ->
  reports_infeasible solve ->
  let cfg := int_optimization m eps exc solve in
  let ic := int_implicit_ic false m win in
  imp_in_use cfg ic 2 s [p; v] dt u traj -> asif_constraints s = int_implicit_constraints ->
  (forall jss w, all_picks (asif_constraints s) traj [p; v] jss -> ~ imp_ok cfg s [p; v] traj jss w) /\
  let call := implicit_asif_filter_control cfg ic (InArray [p; v]) dt u s in
  if exc then fst call = Err SolverError
  else fst call = clip int_bounds u /\ warnings (snd call) = S (warnings s).
Proof.
  intros m win dt n Hm W Hn. pose proof (proj1 W) as Hd.
  assert (Im : 0 < / m) by (apply Rinv_0_lt_compat; lra).
  set (v := dt / (4 * m)). assert (Hv : 0 < v) by (apply Rdiv_lt_0_compat; lra).
  exists 0, v.
  assert (K : 0 < dt * dt / (4 * m)) by (apply Rdiv_lt_0_compat; [apply Rmult_lt_0_compat|]; lra).
  assert (Pos : forall j, fst (braked_exactly m dt j (0, v)) = dt * dt / (4 * m) * (INR j * (1 - 2 * INR j))).
  { intros j. unfold braked_exactly, v. cbn [fst snd]. field. lra. }
  assert (Neg : forall j, (1 <= j)%nat -> fst (braked_exactly m dt j (0, v)) < 0).
  { intros j Hj. rewrite Pos. assert (1 <= INR j) by (change 1 with (INR 1); apply le_INR; exact Hj).
    assert (INR j * (1 - 2 * INR j) < 0) by nra. nra. }
  assert (Zero : fst (braked_exactly m dt 0 (0, v)) = 0) by (rewrite Pos; cbn; ring).
  split. { intros [|j] Hj; [rewrite Zero; lra|]. apply Rlt_le, Neg. lia. }
  split.
  { unfold braked_exactly. cbn [fst snd]. assert (1 <= INR n) by (change 1 with (INR 1); apply le_INR; exact Hn).
    assert (D : 0 < dt / (4 * m)) by exact Hv.
    replace (v - INR n * dt / m) with (dt / (4 * m) * (1 - 4 * INR n)) by (unfold v; field; lra). nra. }
  intros eps exc solve s u traj QC Oe cfg ic U Ec.
  assert (No : forall jss w, all_picks (asif_constraints s) traj [0; v] jss -> ~ imp_ok cfg s [0; v] traj jss w).
  { intros jss w Pk [Lw (Wi & Ok & _)]. rewrite Ec in Pk, Ok.
    destruct (int_pick_exact m win dt _ 0 v traj jss Hm (ii_look _ _ _ _ _ _ _ _ U) Pk) as (n' & j & W' & -> & Hj & Fm & Pt).
    assert (j = 0%nat).
    { destruct j as [|j]; [reflexivity|]. specialize (Fm 0%nat ltac:(lia)). rewrite Zero in Fm. pose proof (Neg (S j) ltac:(lia)). lra. }
    subst j. specialize (Ok 0%nat _ _ _ 0%nat eq_refl eq_refl eq_refl (or_introl eq_refl)).
    destruct w as [|w0 [|? ?]]; try discriminate Lw.
    match type of Ok with 0 <= ?e => assert (Q : e = - (v + INR 0 * dt * (w0 / m)) + (10 * (- fst (braked_exactly m dt 0 (0, v)))
       + 30 * ((- fst (braked_exactly m dt 0 (0, v))) * (- fst (braked_exactly m dt 0 (0, v))) * (- fst (braked_exactly m dt 0 (0, v)))))) end.
    { etransitivity; [exact (f_equal (fun q => point_margin (ac_f cfg) (ac_g cfg) _ [0; v] q [w0]) Pt)|].
      exact (proj1 (int_margin m eps exc solve 0 v w0 (fst (braked_exactly m dt 0 (0, v))) (snd (braked_exactly m dt 0 (0, v))) (INR 0 * dt))). }
    rewrite Q, Zero in Ok. cbn [INR] in Ok. lra. }
  split; [exact No|].
  destruct (implicit_call cfg ic 2 s [0; v] dt u traj U) as (rows & consts & Pk & _ & _ & SO & Hcall).
  specialize (Hcall solve). change (with_solver solve cfg) with cfg in Hcall. cbv zeta in Hcall |- *.
  destruct Hcall as (_ & _ & C2 & _). pose proof (ii_length _ _ _ _ _ _ _ _ U) as Lu.
  assert (Es : solve (obj_weight 1 []) u rows consts = Err (ValueError msg_inconsistent)).
  { apply Oe; [exact Lu|]. intros (z & Lz & Sz). apply (No _ z Pk). split; [exact Lz|]. apply SO; [exact Lz|exact Sz]. }
  specialize (C2 Es). change (ac_exc cfg) with exc in C2. destruct exc.
  - destruct C2 as (s' & E & _). exact (f_equal fst E).
  - destruct C2 as (w & s' & E & Cl & _ & _ & Wn). split.
    + exact (eq_trans (f_equal fst E) (eq_sym Cl)).
    + exact (eq_trans (f_equal (fun q => warnings (snd q)) E) Wn).
Qed.
Print Assumptions C95_between_points_refuted.

(** Non-vacuity: steps of a second, ten metres away at one metre per second; and any state of a new
    module, with a solver that exists. *)
Example C95_exact_stopping_case : exists solve, qp_contract solve /\ (forall G a C b, solve G a C b <> Err SolverError) /\ reports_infeasible solve /\
  window_steps 2 1 2 /\
  (forall j, (j <= 2)%nat -> fst (braked_exactly 1 1 j (-10, 1)) <= - (1 / (20 * 1))) /\
  snd (braked_exactly 1 1 2 (-10, 1)) <= 0 /\
  forall p v, exists s traj, imp_in_use (int_optimization 1 0 false solve) (int_implicit_ic false 1 2) 2 s [p; v] 1 [1] traj /\
  asif_constraints s = int_implicit_constraints /\ asif_directs s = [].
Proof.
  destruct C69_exact_solver_exists as (solve & QC & NS & An). exists solve. split; [exact QC|]. split; [exact NS|]. split.
  { intros u C b Lu No. destruct (An 1%nat [] u C b Lu (Forall_nil _)) as [_ A]. cbn [length zeros repeat] in A.
    change (zeros 0) with (@nil R) in A. rewrite app_nil_r in A. apply A. exact No. }
  assert (W : window_steps 2 1 2) by (unfold window_steps; simpl; lra).
  split; [exact W|]. split.
  { intros j Hj. unfold braked_exactly. destruct j as [|[|[|j]]]; [cbn; lra..|lia]. }
  split; [unfold braked_exactly; cbn; lra|]. intros p v.
  destruct (int_new_exact 1 2 0 false solve p v 1 1 2 ltac:(lra) W) as (s & traj & _ & U & E1 & E2). exists s, traj. auto.
Qed.
