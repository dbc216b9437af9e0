(** C81.  The inspection optimisation module can meet its own conditions. *)
From Coq Require Import String Reals List Bool ZArith Lia Lra.
From Verif Require Import Prelude Vec ModelBase ModelAsif ModelConstraint ModelCwh ModelConic ModelZoo ModelInsp.
From Verif Require Import SpecCore SpecConstraint SpecCwh SpecConic SpecZoo SpecTable SpecAsif.
From Verif Require Import ModelController ModelSimplex SpecAsifHistory ProofsBase ProofsAsifHistory.
From Verif Require Import ProofsConstraint ProofsCwh ProofsCwh3 ProofsZoo ProofsTable ProofsInsp PropertiesTable.
Import ListNotations.
Local Open Scope R_scope.

(** No constraint is violated: compute(state, params) of each is at least zero. *)
Definition all_met {P} (cs : dict (constraint vec P)) (s : vec) : Prop :=
  Forall (fun kc => 0 <= c_compute (snd kc) s (c_params (snd kc))) cs.

Lemma Forall2_cons_inv {A B} (R : A -> B -> Prop) a b l m : Forall2 R (a :: l) (b :: m) -> R a b /\ Forall2 R l m.
Proof. intros H. inversion H; auto. Qed.
Lemma row_met {P} s (kc : string * constraint vec P) r : as_row s kc r -> (forall h, r_says r h -> r_margin r <= h) ->
  0 <= c_compute (snd kc) s (c_params (snd kc)).
Proof. intros (_ & (h & S & E) & _) H. rewrite E. specialize (H h S). lra. Qed.

(** Just inside the maximum distance, moving outwards slowly enough to brake, and sideways within
    the speed limits. *)
Definition drifter_at (a : R) : point := pt (1000 - 81 / 200 / a) 0 0.
Definition drifter_velocity : point := pt (899 / 1000) (95 / 100) (95 / 100).

(** The full statement: in every state in which all the values of the constraints are at least
    zero some thrust within the bounds meets all the barrier conditions.  With the default
    settings it is false for every mass from 1 to 15 kg and every mean motion from 0.0008 to
    0.002 per second (for example 12 kg, 0.001027 per second): the maximum distance condition leaves
    out the sideways motion, and no admissible thrust meets it. *)
Theorem C81_always_feasible_refuted : forall nan m n dv eps exc solve, 1 <= m <= 15 -> 8 / 10000 <= n <= 2 / 1000 ->
  let c := insp_default m n in
  let cfg := inspection_optimization c eps exc solve in
  let s := state_of (drifter_at (i_a_max c)) drifter_velocity (PI / 2) dv in
  exists cs, inspection_constraints nan false c = Ok cs /\ all_met cs s /\
  forall w, length w = 3%nat -> ~ acceptable (ac_bounds cfg) 3 (ac_f cfg) (ac_g cfg) cs [] s w.
Proof.
  intros nan m n dv eps exc solve Hm Hn c cfg s.
  assert (Im : 1 / 15 <= 1 / m <= 1).
  { split; unfold Rdiv; rewrite !Rmult_1_l; [apply Rinv_le_contravar; lra|]. apply Rle_trans with (/ 1); [apply Rinv_le_contravar|rewrite Rinv_1]; lra. }
  assert (Rm : Rmin 1 (2 / 10 + 2 * n * 1000) = 1) by (apply Rmin_left; lra).
  set (a := 1 / m - 3 * (n * n) * 1000 - 2 * n).
  assert (Ea : i_a_max c = a).
  { unfold a, c, i_a_max, inspection_a_max, insp_default, u_max_default, i_v1. cbn [i_m i_n i_r_max i_vel_limit i_v0 i_v1_coef].
    rewrite Rm. ring. }
  assert (Ba : 1 / 20 <= a <= 1) by (unfold a; nra).
  set (d := 81 / 200 / a). set (r := 1000 - d).
  assert (Ed : a * d = 81 / 200) by (unfold d; field; lra).
  assert (Bd : 0 < d <= 81 / 10).
  { assert (0 < d) by (unfold d; apply Rdiv_lt_0_compat; lra). split; [lra|]. nra. }
  assert (Br : 0 < r < 1000) by (unfold r; lra).
  set (vx := 899 / 1000). set (vy := 95 / 100).
  assert (Es : s = [r; 0; 0; vx; vy; vy; PI / 2; dv]).
  { unfold s, drifter_at, drifter_velocity. rewrite Ea. reflexivity. }
  assert (Pl : plen (pt r 0 0) = r).
  { unfold plen, pdot, pt. replace (r * r + 0 * 0 + 0 * 0) with (r * r) by ring. apply sqrt_square; lra. }
  assert (Rr : range_rate (pt r 0 0) drifter_velocity = vx).
  { unfold range_rate. rewrite Pl. unfold pdot, pt, drifter_velocity, pt. fold vx. field. lra. }
  assert (Q : sqrt (2 * a * (1000 - r)) = 9 / 10).
  { replace (2 * a * (1000 - r)) with (9 / 10 * (9 / 10)) by (unfold r; lra). apply sqrt_square; lra. }
  destruct (C78_default_inspection nan m n (pt r 0 0) drifter_velocity (PI / 2) dv ltac:(lra) ltac:(rewrite Pl; lra)) as (cs & E & T).
  exists cs. split; [exact E|].
  assert (Ss : s = state_of (pt r 0 0) drifter_velocity (PI / 2) dv) by (rewrite Es; reflexivity).
  assert (Entries : cs = [
      ("rel_vel"%string, wrap ZRv as_rv (rel_vel_3d (i_v0 c) (i_v1 c) (i_v0_distance c) rv_delta None (with_bias (- (1 / 1000)))));
      ("sun"%string, sun_constraint nan c get_sun_vector None);
      ("r_max"%string, wrap ZDist as_dist (max_distance (i_r_max c) (i_a_max c) None (with_bias (- (1 / 1000)))));
      ("PSM"%string, wrap ZPsm as_psm (psm (i_chief c + i_deputy c) (i_n c) 1 100 None kw_default)) ]
    ++ vel_constraints (i_vel_limit c)
    ++ [("chief_collision"%string, wrap ZDist as_dist (chief_collision (i_chief c + i_deputy c) (i_a_max c) None kw_default))]).
  { unfold inspection_constraints in E. injection E as <-. reflexivity. }
  assert (SQ : sqrt (pdot drifter_velocity drifter_velocity + 1 / 100000) <= 162 / 100).
  { rewrite <- (sqrt_square (162 / 100)) by lra. apply sqrt_le_1_alt. unfold pdot, drifter_velocity, pt. lra. }
  assert (SP : r <= sqrt (pdot (pt r 0 0) (pt r 0 0) + 1 / 100000)).
  { rewrite <- (sqrt_square r) at 1 by lra. apply sqrt_le_1_alt. unfold pdot, pt. lra. }
  assert (Br2 : 9919 / 10 <= r) by (unfold r; lra).
  split.
  - rewrite <- Ss in T. unfold all_met. unfold as_table, default_inspection_table in T. rewrite Rm in T.
    replace (1 / m - 3 * (n * n) * 1000 - 2 * n * 1) with a in T by (unfold a; ring).
    rewrite Entries in T |- *. cbn [app vel_constraints] in T |- *. cbv zeta in T |- *.
    repeat match goal with H : Forall2 _ (_ :: _) (_ :: _) |- _ => apply Forall2_cons_inv in H; destruct H as [? H] end.
    apply Forall_cons; [|apply Forall_cons; [|]].
    2: {
      pose proof PI_RGT_0 as PP.
      destruct (sun_aside (60 * PI / 180) a n r vx vy vy ltac:(lra) ltac:(lra) ltac:(lra) ltac:(lra) ltac:(unfold vx; lra) ltac:(unfold vy; lra))
        as (h & Eh & Lh).
      cbv beta. unfold c_compute, sun_constraint. cbn [snd wrap conic new_constraint c_fun c_params c_bias as_cone with_bias kw_bias cn_fov cn_amax].
      rewrite Ss, get_sun_1v1, Ea.
      change (get_pos_vector (state_of (pt r 0 0) drifter_velocity (PI / 2) dv)) with [r; 0; 0].
      change (get_vel_vector (state_of (pt r 0 0) drifter_velocity (PI / 2) dv)) with [vx; vy; vy].
      change (i_fov c) with (60 * PI / 180). change (i_sun_vel c) with (- n).
      match goal with |- context [of_jax nan ?v] => replace v with (Some h) by (symmetry; exact Eh) end. cbn [of_jax].
      assert (CP : 1 / 2 <= cos (60 * PI / 180 / 2)).
      { replace (60 * PI / 180 / 2) with (PI / 6) by lra. rewrite cos_PI6.
        assert (sqrt 1 <= sqrt 3) as S3 by (apply sqrt_le_1_alt; lra). rewrite sqrt_1 in S3. lra. }
      assert (1 <= sqrt (2 * a * (r * cos (60 * PI / 180 / 2)))); [|lra].
      rewrite <- sqrt_1 at 1. apply sqrt_le_1_alt. set (cc := cos (60 * PI / 180 / 2)) in *.
      assert (K : 495 <= r * cc) by (clear - CP Br2; nra). clearbody cc. clear - K Ba. nra. }
    1: {
  eapply row_met; [eassumption|]; intros h Sh; cbn [r_says r_margin] in *. unfold speed_margin in Sh. nra. }
    repeat (apply Forall_cons; [cbv beta; eapply row_met; [eassumption|]; intros h Sh; cbn [r_says r_margin] in *|]); [..|apply Forall_nil].
    + unfold braking, braking_barrier in Sh. rewrite Pl, Rr in Sh. destruct (Rle_dec 0 (1000 - r)) as [_|N]; [|lra].
      rewrite Q in Sh. unfold vx in Sh. lra.
    + apply Sh. rewrite Rplus_0_r. apply drift_outwards; unfold vx, vy; lra.
    + unfold limit_margin in Sh. cbn in Sh. lra.
    + unfold limit_margin in Sh. cbn in Sh. lra.
    + unfold limit_margin in Sh. cbn in Sh. lra.
    + unfold braking, braking_barrier in Sh. rewrite Pl, Rr in Sh. destruct (Rle_dec 0 (r - 10)) as [_|N]; [|lra].
      pose proof (sqrt_pos (2 * a * (r - 10))). unfold vx in Sh. lra.
  - intros w Lw (Wi & Ac & _). rewrite Entries in Ac. cbn [app] in Ac.
    pose proof (Ac [_; _] "r_max"%string _ _ eq_refl eq_refl) as B. clear Ac Entries T E.
    destruct w as [|ux [|uy [|uz [|? ?]]]]; try discriminate Lw.
    assert (Ux : -1 <= ux) by (exact (proj1 Wi 0%nat ux (-1) eq_refl eq_refl)).
    unfold barrier_margin, slack_value in B.
    cbn [wrap max_distance new_constraint c_grad c_params c_fun c_bias c_slack as_dist dist_alpha with_bias kw_bias kw_slack] in B.
    rewrite Ea in B. change (i_r_max c) with 1000 in B.
    rewrite Es in B.
    rewrite (jax_grad_unique _ _ _ (range_gradient r vx vy vy (PI / 2) dv 1000 a Br ltac:(lra))) in B.
    rewrite Q in B.
    assert (V : max_distance_value [r; 0; 0; vx; vy; vy; PI / 2; dv] (mkDist 1000 a) = 1 / 1000).
    { rewrite range_value. cbv zeta. replace (r * r + 0 * 0 + 0 * 0) with (r * r) by ring. rewrite sqrt_square by lra.
      unfold Rleb. destruct (Rle_dec r 1000) as [_|N]; [|lra]. rewrite Q. replace ((r * vx + 0 * vy + 0 * vy) / r) with vx by (field; lra).
      unfold vx. lra. }
    rewrite V in B. unfold strength in B. cbn [c_alpha c_alpha_neg c_bias_neg dist_alpha] in B.
    destruct (Rlt_dec (1 / 1000 + - (1 / 1000)) 0) as [N|_]; [lra|].
    change (c_alpha _) with (Some (polynomial (Some [0; 1 / 100; 0; 1 / 1000]))) in B.
    unfold polynomial in B. cbn [poly_loop] in B.
    cbn in B.
    assert (K : 1 / 1000 <= / r) by (apply Rle_trans with (/ 1000); [lra|apply Rinv_le_contravar; lra]).
    assert (Im2 : - (1 / m) <= 1 / m * ux) by (clear - Im Ux; nra).
    assert (Eq : 1 / m = a + 3000 * (n * n) + 2 * n) by (unfold a; ring).
    assert (Nd : 3 * (n * n) * d <= 1 / 10000).
    { assert (n * n <= 4 / 1000000) by (clear - Hn; nra). assert (0 <= n * n) by nra. clear - Bd H H0. nra. }
    assert (B2 : 0 <= - (a / (9 / 10)) * vx - 2 * (vy * vy) * / r - 3 * (n * n) * r - 2 * n * vy - 1 / m * ux)
      by (eapply Rle_trans; [exact B|]; right; field; lra).
    clear - B2 K Im2 Eq Nd Ba Hn. unfold vx, vy, r in *. set (k := 3 * (n * n)) in *.
    replace (k * (1000 - d)) with (1000 * k - k * d) in B2 by ring. unfold k in *. lra.
Qed.
Print Assumptions C81_always_feasible_refuted.
(** A small satellite in low earth orbit. *)
Example C81_case : 1 <= 12 <= 15 /\ 8 / 10000 <= 1027 / 1000000 <= 2 / 1000.
Proof. lra. Qed.

(** What holds: if the collision constraint is the only one enabled, there is always such a
    thrust.  In range and outside the keep-out sphere, within the component and total speed
    limits, with at least one newton in both directions of each axis and a positive braking
    acceleration.  (With more constraints enabled the statement above is false.) *)
Theorem C81_collision_partial : forall nan c eps exc solve p v angle dv,
  0 < i_m c -> 0 <= i_n c -> 0 < brake c ->
  0 < i_chief c + i_deputy c < plen p -> plen p <= i_r_max c ->
  Rabs (x_of v) <= i_vel_limit c -> Rabs (y_of v) <= i_vel_limit c -> plen v <= i_v0 c + i_v1_coef c * i_n c * i_r_max c ->
  (forall w, Forall (fun u => -1 <= u <= 1) w -> within (i_bounds c) w) ->
  let cfg := inspection_optimization c eps exc solve in
  let s := state_of p v angle dv in
  exists cs, inspection_constraints nan false c = Ok cs /\
  forall cs', (forall k x, In (k, x) cs' -> c_enabled x = true -> k = "chief_collision"%string /\ In (k, x) cs) ->
    (forall k x, In (k, x) cs' -> c_enabled x = true -> 0 <= c_compute x s (c_params x)) ->
    exists w, length w = 3%nat /\ acceptable (ac_bounds cfg) 3 (ac_f cfg) (ac_g cfg) cs' [] s w.
Proof.
  intros nan c eps exc solve p v angle dv Hm Hn Ha Hr HR Lx Ly Lv Hb cfg s.
  unfold inspection_constraints. cbv zeta. eexists; split; [reflexivity|]. intros cs' On Met.
  destruct p as [[x y] z], v as [[vx vy] vz]. cbn [x_of y_of fst snd] in Lx, Ly.
  set (l := sqrt (x * x + y * y + z * z)).
  assert (Pl : plen (x, y, z) = l) by reflexivity. rewrite Pl in *.
  exists [sg x; sg y; sg z]. split; [reflexivity|].
  assert (W : Forall (fun u => -1 <= u <= 1) [sg x; sg y; sg z]) by (repeat apply Forall_cons; try apply Forall_nil; apply sg_unit).
  split; [exact (Hb _ W)|]. split; [|intros k d []].
  intros pre k k0 post E En.
  assert (I : In (k, k0) cs') by (rewrite E; apply in_or_app; right; left; reflexivity).
  destruct (On k k0 I En) as (-> & I2). specialize (Met _ _ I En).
  cbn [dict_set vel_constraints app String.eqb Ascii.eqb Bool.eqb] in I2. cbn [In] in I2.
  assert (K : k0 = wrap ZDist as_dist (chief_collision (i_chief c + i_deputy c) (i_a_max c) None kw_default)).
  { repeat destruct I2 as [I2|I2]; try discriminate I2; [|destruct I2]. injection I2 as <-. reflexivity. }
  subst k0. clear E En On I I2.
  unfold c_compute in Met. unfold barrier_margin, slack_value.
  cbn [wrap chief_collision new_constraint c_grad c_params c_fun c_bias c_slack as_dist kw_default kw_bias kw_slack] in Met |- *.
  rewrite brake_eq in *. set (a := brake c) in *. set (R0 := i_chief c + i_deputy c) in *.
  change s with [x; y; z; vx; vy; vz; angle; dv] in *.
  rewrite (jax_grad_unique _ _ _ (collision_gradient x y z vx vy vz angle dv R0 a Hr Ha)).
  rewrite keep_value in *. cbv zeta in *. fold l in Met |- *.
  unfold Rleb in *. destruct (Rle_dec R0 l) as [_|N]; [|lra].
  set (q := sqrt (2 * a * (l - R0))) in *. set (sd := x * vx + y * vy + z * vz) in *.
  assert (Q : 0 < q) by (apply sqrt_lt_R0; nra).
  rewrite Rplus_0_r in *. set (h := q + sd / l) in *.
  assert (ST : 0 <= strength (wrap ZDist as_dist (chief_collision R0 a None kw_default)) h).
  { unfold strength. change (c_alpha _) with (Some (polynomial (Some [0; 1 / 100; 0; 1 / 1000]))).
    destruct (Rlt_dec h 0); [lra|]. unfold polynomial. cbn [poly_loop].
    assert (0 <= h * h * h) by (repeat apply Rmult_le_pos; lra). cbn [pow]. lra. }
  assert (LL : l * l = x * x + y * y + z * z) by (apply sqrt_sqrt; nra).
  assert (AW := away_acc (i_m c) (i_n c) x y z vx vy (i_r_max c) (i_vel_limit c) (i_v0 c + i_v1_coef c * i_n c * i_r_max c)).
  cbv zeta in AW. fold l in AW.
  specialize (AW Hm Hn ltac:(lra) Lx Ly).
  assert (Sv : sqrt (vx * vx + vy * vy) <= i_v0 c + i_v1_coef c * i_n c * i_r_max c).
  { eapply Rle_trans; [|exact Lv]. unfold plen, pdot; cbn. apply sqrt_le_1_alt. nra. }
  specialize (AW Sv Ha).
  set (acc := _ + _ + _ : R) in AW.
  match goal with |- 0 <= ?d + _ - 0 => assert (D : d = a / q * (sd / l) + ((vx * vx + vy * vy + vz * vz) - sd * sd / (l * l)) / l + acc) end.
  { cbn. unfold acc, sd. field. split; lra. }
  rewrite D.
  assert (AWa : a <= acc) by exact AW.
  assert (T1 : - a <= a / q * (sd / l)).
  { assert (K : - q <= sd / l) by (unfold h in Met; lra).
    replace (- a) with (a / q * - q) by (field; lra). apply Rmult_le_compat_l; [|exact K].
    apply Rlt_le, Rdiv_lt_0_compat; lra. }
  assert (T2 : 0 <= ((vx * vx + vy * vy + vz * vz) - sd * sd / (l * l)) / l).
  { apply Rmult_le_pos; [|apply Rlt_le, Rinv_0_lt_compat; lra].
    assert (CS : sd * sd <= (vx * vx + vy * vy + vz * vz) * (l * l)).
    { rewrite LL. unfold sd. pose proof (Rle_0_sqr (vx * y - vy * x)) as U1. pose proof (Rle_0_sqr (vx * z - vz * x)) as U2.
      pose proof (Rle_0_sqr (vy * z - vz * y)) as U3. unfold Rsqr in *. lra. }
    assert (L2 : 0 < l * l) by nra.
    assert (sd * sd / (l * l) <= vx * vx + vy * vy + vz * vz); [|lra].
    apply Rmult_le_reg_r with (l * l); [exact L2|]. unfold Rdiv. rewrite Rmult_assoc, Rinv_l by lra. lra. }
  lra.
Qed.
Print Assumptions C81_collision_partial.
(** The default settings, 100 m from the chief and approaching: the value is positive. *)
Example C81_collision_case :
  let c := insp_default 12 (1027 / 1000000) in
  let p := pt 60 80 0 in let v := pt (-1) (-9 / 10) 0 in
  0 < i_m c /\ 0 <= i_n c /\ 0 < brake c /\ 0 < i_chief c + i_deputy c < plen p /\ plen p <= i_r_max c /\
  Rabs (x_of v) <= i_vel_limit c /\ Rabs (y_of v) <= i_vel_limit c /\ plen v <= i_v0 c + i_v1_coef c * i_n c * i_r_max c /\
  (forall w, Forall (fun u => -1 <= u <= 1) w -> within (i_bounds c) w) /\
  exists x, inspection_constraints 0 false c = Ok x /\
  forall k x0, In (k, x0) x -> k = "chief_collision"%string -> 0 <= c_compute x0 (state_of p v 0 0) (c_params x0).
Proof.
  intros c p v. cbn [insp_default i_m i_n i_chief i_deputy i_r_max i_vel_limit i_v0 i_v1_coef i_bounds c].
  assert (P : plen p = 100).
  { unfold plen, pdot, p, pt. replace (60 * 60 + 80 * 80 + 0 * 0) with (100 * 100) by ring. apply sqrt_square; lra. }
  assert (V : plen v <= 2).
  { unfold plen, pdot, v, pt. rewrite <- (sqrt_square 2) by lra. apply sqrt_le_1_alt. lra. }
  assert (B : 1 / 20 <= brake c).
  { unfold brake, c, insp_default; cbn [i_m i_n i_r_max i_vel_limit i_v0 i_v1_coef]. rewrite Rmin_left by lra. lra. }
  split; [lra|]. split; [lra|]. split; [lra|]. split; [lra|]. split; [lra|].
  split; [unfold v, x_of, pt; cbn; rewrite Rabs_left; lra|]. split; [unfold v, y_of, pt; cbn; rewrite Rabs_left; lra|].
  split; [lra|]. split.
  { intros w F. rewrite Forall_forall in F. split; intros i u k Eu Ek; injection Ek as <-; apply nth_error_In in Eu; specialize (F u Eu); lra. }
  eexists; split; [reflexivity|]. intros k k0 I ->.
  cbn [dict_set vel_constraints app String.eqb Ascii.eqb Bool.eqb In] in I.
  repeat destruct I as [I|I]; try discriminate I; [|destruct I]. injection I as <-.
  unfold c_compute. cbn [wrap chief_collision new_constraint c_params c_fun c_bias as_dist kw_default kw_bias].
  change (state_of p v 0 0) with [60; 80; 0; -1; -9 / 10; 0; 0; 0]. rewrite keep_value. cbv zeta.
  change (sqrt (60 * 60 + 80 * 80 + 0 * 0)) with (plen p). rewrite P, brake_eq.
  change (i_chief c + i_deputy c) with (5 + 5). unfold Rleb. destruct (Rle_dec (5 + 5) 100) as [_|N]; [|lra].
  assert (3 <= sqrt (2 * brake c * (100 - (5 + 5)))); [|lra].
  rewrite <- (sqrt_square 3) by lra. apply sqrt_le_1_alt. lra.
Qed.

(** The control the module returns has one entry for each of the three thrusters, all of them taken
    from the solution (or the desired control), however many slack variables the program has. *)
Theorem C81_three_thrusts : forall (P : Type) c eps exc solve (s s' : amod vec P unit) x dt u w,
  sized_solver solve -> fits (i_bounds c) 3 -> length u = 3%nat ->
  explicit_asif_filter_control (inspection_optimization c eps exc solve) (InArray x) dt u s = (Ok w, s') -> length w = 3%nat.
Proof.
  intros P c eps exc solve s s' x dt u w HS F Lu H. set (cfg := inspection_optimization c eps exc solve) in *.
  unfold explicit_asif_filter_control, filter_control in H. unfold bind at 1, modify at 1 in H. unfold bind at 1, get at 1 in H.
  match type of H with (if ?b then _ else _) _ = _ => revert H; destruct b; intros H end.
  - unfold bind at 1 in H. unfold cb_compute in H. unfold bind at 1, modify at 1 in H. unfold bind at 1, base_get_state, ret at 1 in H.
    unfold bind at 1, modify at 1 in H. unfold bind at 1, asif_filter in H. unfold bind at 1, modify at 1 in H. unfold bind at 1 in H.
    destruct (explicit_mats cfg x dt _) as [[rc|e] s1] in H; [|discriminate].
    unfold bind at 1 in H. destruct (update_ineq_mats cfg rc x s1) as [[rc'|e] s2] in H; [|discriminate].
    unfold bind at 1 in H. destruct (optimize cfg u (fst rc') (snd rc') s2) as [[v|e] s3] eqn:E; [|discriminate].
    assert (Lv : length v = 3%nat) by exact (optimize_length cfg u _ _ _ _ _ HS Lu E).
    unfold bind at 1, lift at 1 in H. destruct (opt_monitor _ _ _) in H; [|discriminate].
    unfold bind, modify, ret, lift in H. destruct (clip (ac_bounds cfg) v) as [w'|e] eqn:Ew; [|discriminate].
    injection H as -> _. rewrite <- Lv. apply (clip_length (ac_bounds cfg)); [rewrite Lv; exact F|exact Ew].
  - unfold bind, modify, ret in H. injection H as <- _. exact Lu.
Qed.
Print Assumptions C81_three_thrusts.
(** For example a solver that returns what it is asked for, and a module with slack. *)
Example C81_three_thrusts_case :
  let c := insp_default 12 (1027 / 1000000) in
  let solve : qp_solver := fun _ a _ _ => Ok (a, []) in
  let cs := [("r_max"%string, mkConstraint (fun (_ : vec) (_ : unit) => 1) (fun _ _ => 1) (fun _ _ => zeros 8) (Some (fun h => h)) None 0 0
    (Some 5) sub_default tt true)] in
  sized_solver solve /\ fits (i_bounds c) 3 /\ exists s s',
  asif_init (inspection_optimization c 1 true solve) cs None [] tt = Ok s /\
  explicit_asif_filter_control (inspection_optimization c 1 true solve) (InArray (zeros 8)) 1 [1 / 2; 0; 0] s = (Ok [1 / 2; 0; 0], s') /\
  as_num_slack (get_asif s) = 1%nat.
Proof.
  intros c solve cs. split; [intros G a C b z i E; injection E as <- _; reflexivity|]. split; [split; exact Logic.I|].
  eexists. eexists. split; [reflexivity|]. split; [|reflexivity].
  cbv -[Rltb Rleb Rmax Rmin Rplus Rmult Rminus Ropp Rinv Rdiv IZR Rlt Rle sqrt not].
  rewrite (Rmax_left (1 / 2) (-1)), (Rmax_left 0 (-1)), (Rmin_left (1 / 2) 1), (Rmin_left 0 1) by lra. reflexivity.
Qed.

(** ** C82.  The limit on the delta-v used.  Full statement: in a state whose delta-v entry exceeds
    the module's delta_v_limit some constraint of the module is violated.  It is false whatever the
    limit: no constraint of the two modules with that option, and no function its evaluation is
    subsampled by, depends on that entry of the state. *)
Definition blind_to_delta_v {P} (x : constraint vec P) : Prop := forall p v angle dv dv',
  c_compute x (state_of p v angle dv) (c_params x) = c_compute x (state_of p v angle dv') (c_params x) /\
  c_phi x (state_of p v angle dv) (c_params x) = c_phi x (state_of p v angle dv') (c_params x).
Ltac blind := intros [[? ?] ?] [[? ?] ?] ? ? ?; split; reflexivity.
Theorem C82_values_partial : forall nan c,
  (exists cs, inspection_constraints nan false c = Ok cs /\ Forall (fun kc => blind_to_delta_v (snd kc)) cs) /\
  Forall (fun kc => blind_to_delta_v (snd kc)) (discrete_inspection_constraints nan c).
Proof.
  intros nan c. split.
  - unfold inspection_constraints. cbv zeta. eexists; split; [reflexivity|].
    cbn [dict_set vel_constraints app String.eqb Ascii.eqb Bool.eqb]. repeat apply Forall_cons; try apply Forall_nil; cbn [snd]; blind.
  - unfold discrete_inspection_constraints. cbn [vel_constraints app]. repeat apply Forall_cons; try apply Forall_nil; cbn [snd]; blind.
Qed.
Print Assumptions C82_values_partial.
(** In particular, with the default settings, whatever the limit was set to. *)
Theorem C82_delta_v_limit_refuted : forall nan limit, exists p v angle dv, limit < dv /\
  exists cs, inspection_constraints nan false (insp_default 12 (1027 / 1000000)) = Ok cs /\ all_met cs (state_of p v angle dv).
Proof.
  intros nan limit.
  destruct (C81_always_feasible_refuted nan 12 (1027 / 1000000) (limit + 1) 0 true (fun _ _ _ _ => Err SolverError) ltac:(lra) ltac:(lra)) as (cs & E & A & _).
  exists (drifter_at (i_a_max (insp_default 12 (1027 / 1000000)))), drifter_velocity, (PI / 2), (limit + 1). split; [lra|].
  exists cs. split; [exact E|exact A].
Qed.
Print Assumptions C82_delta_v_limit_refuted.
