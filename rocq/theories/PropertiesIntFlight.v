(** C95 continued: how far a flight under the module can get past the target. *)
From Coq Require Import String Reals List Bool ZArith Lia Lra Psatz.
From Verif Require Import Prelude Vec ModelBase ModelController ModelSimplex ModelAsif ModelConstraint ModelIntegrator ModelIntImplicit.
From Verif Require Import SpecCore SpecConstraint SpecAsif SpecImplicit SpecIntImplicit ProofsBase ProofsConstraint ProofsSimplex ProofsAsif ProofsAsif2 ProofsAsif4 ProofsImplicit ProofsImplicit2 ProofsImplicit4
  PropertiesAsif PropertiesImplicit PropertiesIntegrator PropertiesSolver PropertiesIntImplicit.
Import ListNotations.
Local Open Scope R_scope.

(** A flight: at each call the module, whatever its history, filters some desired control without a
    warning, and the vehicle makes an Euler step with the control returned.  The list is of the
    positions and velocities after the calls. *)
Inductive int_flight (m win eps : R) (exc : bool) (solve : qp_solver) (dt : R) : R -> R -> list (R * R) -> Prop :=
| fl_end p v : int_flight m win eps exc solve dt p v []
| fl_call p v s traj u w s' p' v' rest :
    imp_in_use (int_optimization m eps exc solve) (int_implicit_ic true m win) 2 s [p; v] dt u traj ->
    asif_constraints s = int_implicit_constraints -> asif_directs s = [] ->
    implicit_asif_filter_control (int_optimization m eps exc solve) (int_implicit_ic true m win) (InArray [p; v]) dt u s = (Ok w, s') ->
    warnings s' = warnings s ->
    int_euler m [p; v] dt w = Ok [p'; v'] ->
    int_flight m win eps exc solve dt p' v' rest ->
    int_flight m win eps exc solve dt p v ((p', v') :: rest).

Lemma braked_position m dt i p v : 0 < m ->
  fst (braked m dt i (p, v)) = p + INR i * (dt * v) - INR i * (INR i - 1) / 2 * (dt * dt / m).
Proof.
  intros Hm. revert p v. induction i as [|i IH]; intros p v; [cbn; field; lra|].
  change (fst (braked m dt i (p + dt * v, v - dt / m)) = p + INR (S i) * (dt * v) - INR (S i) * (INR (S i) - 1) / 2 * (dt * dt / m)).
  rewrite IH, S_INR. field. lra.
Qed.
Lemma braked_velocity m dt i p v : 0 < m -> snd (braked m dt i (p, v)) = v - INR i * dt / m.
Proof.
  intros Hm. revert p v. induction i as [|i IH]; intros p v; [cbn; field; lra|].
  change (snd (braked m dt i (p + dt * v, v - dt / m)) = v - INR (S i) * dt / m). rewrite IH, S_INR. field. lra.
Qed.

(** One step: the foremost predicted point moves by what the condition allows and at most a. *)
Lemma foremost_step (a vt p w : R) (n i j : nat) : 0 < a -> -1 <= w <= 1 -> (i <= n)%nat -> (j <= n)%nat -> vt <= INR n * a ->
  let pos := fun k : nat => p + INR k * vt - INR k * (INR k - 1) / 2 * a in
  (forall k, (k <= n)%nat -> pos k <= pos j) ->
  p + vt + INR i * (vt + a * w) - INR i * (INR i - 1) / 2 * a <= pos j + (vt + INR j * a * w) + a /\
  vt + INR j * a * w <= 2 * INR n * a.
Proof.
  intros Ha Hw Hi Hj St pos Fm.
  assert (X0 : vt - INR j * a <= 0).
  { destruct (Nat.eq_dec j n) as [->|N]; [lra|]. specialize (Fm (S j) ltac:(lia)). unfold pos in Fm. rewrite S_INR in Fm. nra. }
  assert (X1 : (1 <= j)%nat -> - a <= vt - INR j * a).
  { intros H1. destruct j as [|j]; [lia|]. specialize (Fm j ltac:(lia)). unfold pos in Fm. rewrite S_INR in *. nra. }
  pose proof (pos_INR j) as J0. assert (Jn : INR j <= INR n) by (apply le_INR; exact Hj).
  split; [|].
  2: { assert (INR j * a * w <= INR j * a) by (rewrite <- (Rmult_1_r (INR j * a)) at 2; apply Rmult_le_compat_l; [apply Rmult_le_pos|]; lra).
       assert (INR j * a <= INR n * a) by (apply Rmult_le_compat_r; lra). lra. }
  set (z := (Z.of_nat i - Z.of_nat j)%Z).
  assert (Ez : INR i = INR j + IZR z) by (unfold z; rewrite minus_IZR, <- !INR_IZR_INZ; ring).
  assert (Par : forall y : Z, IZR y * (3 - IZR y) <= 2).
  { intros y. replace (IZR y * (3 - IZR y)) with (IZR (y * (3 - y))) by (rewrite mult_IZR, minus_IZR; reflexivity).
    apply IZR_le. destruct (Z_le_gt_dec y 1); [nia|]. assert (2 <= y)%Z by lia. nia. }
  unfold pos. rewrite Ez.
  assert (K : IZR z * (vt - INR j * a + a * w) - IZR z * (IZR z - 1) / 2 * a <= a).
  { assert (Aw : - a <= a * w <= a) by nra.
    destruct (Z_le_gt_dec 0 z) as [Zp|Zn].
    - assert (0 <= IZR z) by (apply IZR_le in Zp; exact Zp). pose proof (Par z) as P.
      assert (IZR z * (vt - INR j * a + a * w) <= IZR z * a) by (apply Rmult_le_compat_l; lra). nra.
    - assert (H1 : (1 <= j)%nat) by (unfold z in Zn; lia). specialize (X1 H1).
      assert (IZR z <= -1) by (apply IZR_le; lia). pose proof (Par (- z)%Z) as P. rewrite opp_IZR in P.
      assert (- IZR z * - (vt - INR j * a + a * w) <= - IZR z * (2 * a)) by (apply Rmult_le_compat_l; lra). nra. }
  nra.
Qed.

(** Full statement: a flight under the module never gets past zero (refuted by C95_own_steps_refuted).
    What holds: if all predicted points of the start are safe, the steps are short and the vehicle
    could be stopped within the window at every call, it never gets further past zero than
    dt / (10 m), however long the flight and whatever the desired controls. *)
Theorem C95_overshoot_partial : forall m win eps exc solve dt n p v pvs,
  0 < m -> qp_contract solve -> window_steps win dt n ->
  10 * dt + 30 * dt * (dt * (2 * win + dt) / m) ^ 2 <= 1 ->
  int_flight m win eps exc solve dt p v pvs ->
  predicted_safe m dt n p v ->
  Forall (fun q => predicted_stop m dt n (fst q) (snd q)) ((p, v) :: pvs) ->
  Forall (fun q => fst q <= dt / (10 * m)) ((p, v) :: pvs).
Proof.
  intros m win eps exc solve dt n p v pvs Hm QC W Sh Fl Sf St.
  destruct W as [Hd [W1 W2]] eqn:EW. clear EW. assert (W0 : window_steps win dt n) by (split; auto).
  set (a := dt * dt / m). set (D := dt / (10 * m)). set (B := dt * (2 * win + dt) / m) in *.
  assert (Ha : 0 < a) by (apply Rdiv_lt_0_compat; [apply Rmult_lt_0_compat|]; lra).
  assert (HD : 0 < D) by (apply Rdiv_lt_0_compat; lra).
  assert (DA : D * (10 * dt) = a) by (unfold D, a; field; lra).
  assert (B2 : 0 <= B ^ 2) by apply pow2_ge_0.
  assert (T : 10 * dt <= 1) by nra.
  assert (AD : a <= D) by nra.
  assert (BB : 2 * INR n * a + a <= B).
  { unfold a, B. replace (2 * INR n * (dt * dt / m) + dt * dt / m) with (dt * (2 * (INR n * dt) + dt) * / m) by (field; lra).
    apply Rmult_le_compat_r; [apply Rlt_le, Rinv_0_lt_compat; lra|]. apply Rmult_le_compat_l; lra. }
  assert (Pos : 0 <= INR n) by apply pos_INR.
  assert (Inv : forall i, (i <= n)%nat -> fst (braked m dt i (p, v)) <= D) by (intros i Hi; specialize (Sf i Hi); lra).
  clear Sf.
  induction Fl as [p v|p v s traj u w s' p' v' rest U Ec Ed Hc Ww Step Fl IH].
  { constructor; [exact (Inv 0%nat ltac:(lia))|constructor]. }
  inversion St as [|q l St0 Str E]; subst. cbn [fst snd] in St0.
  constructor; [exact (Inv 0%nat ltac:(lia))|]. apply IH; [exact Str|].
  set (cfg := int_optimization m eps exc solve) in *. set (ic := int_implicit_ic true m win) in *.
  destruct (C21_implicit_minimally_invasive _ _ cfg ic 2 s [p; v] dt u traj w s' QC U Hc) as (jss & Pk & Ok & _).
  destruct (Ok Ww) as [Lw (Wi & Met & _)]. clear Ok. rewrite Ec in Pk, Met.
  destruct (int_pick m win dt _ p v traj jss Hm (ii_look _ _ _ _ _ _ _ _ U) Pk) as (n' & j & W' & -> & Hj & Fm & Pt).
  assert (n' = n) by (apply window_steps_int in W0, W'; congruence). subst n'.
  destruct w as [|w0 [|? ?]]; try discriminate Lw.
  assert (Hw : -1 <= w0 <= 1).
  { split; [exact (proj1 Wi 0%nat w0 (-1) eq_refl eq_refl)|exact (proj2 Wi 0%nat w0 1 eq_refl eq_refl)]. }
  specialize (Met 0%nat _ _ _ j eq_refl eq_refl eq_refl (or_introl eq_refl)).
  set (H := fst (braked m dt j (p, v))) in *.
  match type of Met with 0 <= ?e => assert (Q : e = - (v + INR j * dt * (w0 / m)) + (10 * (- H) + 30 * ((- H) * (- H) * (- H)))) end.
  { etransitivity; [exact (f_equal (fun q => point_margin (ac_f cfg) (ac_g cfg) _ [p; v] q [w0]) Pt)|].
    exact (proj1 (int_margin m eps exc solve p v w0 H (snd (braked m dt j (p, v))) (INR j * dt))). }
  rewrite Q in Met. clear Q.
  assert (E1 : p' = p + dt * v) by (cbn in Step; injection Step as E _; rewrite <- E; field; lra).
  assert (E2 : v' = v + dt * w0 / m) by (cbn in Step; injection Step as _ E; rewrite <- E; field; lra).
  intros i Hi.
  assert (VS : dt * v <= INR n * a).
  { unfold predicted_stop in St0. rewrite braked_velocity in St0 by exact Hm.
    assert (dt * v <= dt * (INR n * dt / m)) by (apply Rmult_le_compat_l; lra).
    replace (INR n * a) with (dt * (INR n * dt / m)) by (unfold a; field; lra). lra. }
  destruct (foremost_step a (dt * v) p w0 n i j Ha Hw Hi Hj VS) as [F1 F2].
  { intros k Hk. specialize (Fm k Hk). unfold H in Fm. rewrite !braked_position in Fm by exact Hm. exact Fm. }
  rewrite braked_position by exact Hm. fold a.
  assert (EH : H = p + INR j * (dt * v) - INR j * (INR j - 1) / 2 * a) by (apply braked_position; exact Hm).
  cbv beta zeta in F1. rewrite <- EH in F1.
  replace (p' + INR i * (dt * v') - INR i * (INR i - 1) / 2 * a)
    with (p + dt * v + INR i * (dt * v + a * w0) - INR i * (INR i - 1) / 2 * a) by (rewrite E1, E2; unfold a; field; lra).
  assert (HD' : H <= D) by (apply (Inv j Hj)).
  set (Y := dt * v + INR j * a * w0) in *.
  assert (C : Y <= dt * (10 * (- H) + 30 * ((- H) * (- H) * (- H)))).
  { replace Y with (dt * (v + INR j * dt * (w0 / m))) by (unfold Y, a; field; lra). apply Rmult_le_compat_l; lra. }
  clear - F1 F2 C HD' HD DA T AD BB Sh B2 Ha Hd.
  apply Rle_trans with (H + Y + a); [exact F1|].
  clearbody H Y a D B. set (h := - H) in *. assert (Eh : H = - h) by (unfold h; ring). rewrite Eh in *. clearbody h. clear Eh F1.
  destruct (Rle_lt_dec 0 h) as [Hp|Hn].
  - destruct (Rle_lt_dec h B) as [Hb|Hb]; [|lra].
    assert (h * h <= B ^ 2) by nra.
    assert (dt * (10 * h + 30 * (h * h * h)) <= h).
    { replace (dt * (10 * h + 30 * (h * h * h))) with (h * (10 * dt + 30 * dt * (h * h))) by ring.
      assert (X : 10 * dt + 30 * dt * (h * h) <= 1) by nra.
      apply Rle_trans with (h * 1); [apply Rmult_le_compat_l; [exact Hp|exact X]|lra]. }
    lra.
  - assert (h * h * h <= 0) by nra.
    assert (dt * (10 * h + 30 * (h * h * h)) <= 10 * dt * h) by nra.
    assert ((- h) * (1 - 10 * dt) <= D * (1 - 10 * dt)) by (apply Rmult_le_compat_r; lra). lra.
Qed.
Print Assumptions C95_overshoot_partial.

(** Non-vacuity: the default window of two seconds, steps of 0.02 s, one kilogram, ten metres away at
    rest and full thrust towards the target: a call that returns without a warning, and the step
    after it. *)
Example C95_overshoot_case : exists solve, qp_contract solve /\ window_steps 2 (1 / 50) 100 /\
  10 * (1 / 50) + 30 * (1 / 50) * (1 / 50 * (2 * 2 + 1 / 50) / 1) ^ 2 <= 1 /\
  predicted_safe 1 (1 / 50) 100 (-10) 0 /\
  exists q, int_flight 1 2 0 false solve (1 / 50) (-10) 0 [q] /\
  Forall (fun q => predicted_stop 1 (1 / 50) 100 (fst q) (snd q)) [(-10, 0); q].
Proof.
  destruct C69_exact_solver_exists as (solve & QC & NS & An). exists solve. split; [exact QC|].
  assert (I100 : INR 100 = 100) by (rewrite INR_IZR_INZ; reflexivity).
  assert (W : window_steps 2 (1 / 50) 100) by (unfold window_steps; rewrite I100; lra).
  split; [exact W|]. split; [lra|].
  assert (Sf : predicted_safe 1 (1 / 50) 100 (-10) 0).
  { intros j Hj. rewrite braked_position by lra. pose proof (pos_INR j).
    destruct j as [|j]; [cbn [INR]; lra|]. rewrite S_INR in *. pose proof (pos_INR j). nra. }
  assert (St : predicted_stop 1 (1 / 50) 100 (-10) 0) by (unfold predicted_stop; rewrite braked_velocity, I100 by lra; lra).
  split; [exact Sf|].
  destruct (int_new 1 2 0 false solve (-10) 0 1 (1 / 50) 100 ltac:(lra) W) as (s & traj & _ & U & E1 & E2).
  destruct (C95_stopping_partial 1 2 0 false solve s (-10) 0 [1] (1 / 50) traj 100 ltac:(lra) QC NS U E1 E2 W Sf St) as (A & _ & NW).
  destruct (int_returns 1 2 0 false solve s (-10) 0 [1] (1 / 50) traj [-1] ltac:(lra) QC) as (w & s' & E); auto.
  { intros a C b La Ez. destruct (An 1%nat [] a C b La (Forall_nil _)) as [B _].
    change (zeros (length (@nil R))) with (@nil R) in B. rewrite app_nil_r in B. apply B. exact Ez. }
  destruct (C21_implicit_minimally_invasive _ _ (int_optimization 1 0 false solve) _ 2 s [-10; 0] (1 / 50) [1] traj w s' QC U E) as (jss & _ & Ok & _).
  destruct (Ok (NW _ _ E)) as [Lw (Wi & _)]. destruct w as [|w0 [|? ?]]; try discriminate Lw.
  assert (Hw : w0 <= 1) by exact (proj2 Wi 0%nat w0 1 eq_refl eq_refl).
  eexists (_, _). split.
  - eapply fl_call; [exact U|exact E1|exact E2|exact E|exact (NW _ _ E)|reflexivity|constructor].
  - constructor; [exact St|]. constructor; [|constructor]. unfold predicted_stop. rewrite braked_velocity, I100 by lra. cbn. lra.
Qed.
