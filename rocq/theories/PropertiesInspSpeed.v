(** C81, the speed limits: the inspection optimisation module can always meet those of its
    conditions that limit the speed. *)
From Coq Require Import String Reals List Bool ZArith Lia Lra.
From Verif Require Import Prelude Vec ModelBase ModelAsif ModelConstraint ModelCwh ModelConic ModelZoo ModelInsp.
From Verif Require Import SpecCore SpecConstraint SpecCwh SpecConic SpecZoo SpecTable SpecAsif.
From Verif Require Import ProofsConstraint ProofsCwh ProofsCwh3 ProofsZoo ProofsTable ProofsInsp ProofsDock ProofsDock2 ProofsInspSpeed.
Import ListNotations.
Local Open Scope R_scope.

(** The thrusters are stronger than the drift and the tightening of the speed limit: at the maximum
    distance and twice the limit on a component of the velocity. *)
Definition strong_thrusters (c : insp_cfg) : Prop :=
  3 * (i_n c * i_n c) * i_r_max c + (2 + i_v1_coef c) * i_n c * (2 * i_vel_limit c + 1 / 100) <= 1 / i_m c.

(** Full statement: see C81_always_feasible_refuted.  What holds here: if only the four constraints
    on the speed are enabled, any of them, some thrust of at most one newton on each axis meets
    their barrier conditions in every state within range and within the limits on the components,
    in which none of those enabled is violated. *)
Theorem C81_speed_partial : forall nan c eps exc solve p v angle dv,
  0 < i_m c -> 0 <= i_n c -> 0 <= i_v1_coef c -> strong_thrusters c ->
  plen p <= i_r_max c ->
  Rabs (x_of v) <= i_vel_limit c -> Rabs (y_of v) <= i_vel_limit c -> Rabs (z_of v) <= i_vel_limit c ->
  (forall w, Forall (fun u => -1 <= u <= 1) w -> within (i_bounds c) w) ->
  let cfg := inspection_optimization c eps exc solve in
  let s := state_of p v angle dv in
  exists cs, inspection_constraints nan false c = Ok cs /\
  forall cs', (forall k x, In (k, x) cs' -> c_enabled x = true ->
                 In k ["rel_vel"; "x_vel"; "y_vel"; "z_vel"]%string /\ In (k, x) cs) ->
    (forall k x, In (k, x) cs' -> c_enabled x = true -> 0 <= c_compute x s (c_params x)) ->
    exists w, length w = 3%nat /\ acceptable (ac_bounds cfg) 3 (ac_f cfg) (ac_g cfg) cs' [] s w.
Proof.
  intros nan c eps exc solve p v angle dv Hm Hn Hc St HR Lx Ly Lz Hb cfg s.
  unfold inspection_constraints. cbv zeta. eexists; split; [reflexivity|]. intros cs' On Met.
  destruct p as [[x y] z], v as [[vx vy] vz]. cbn [x_of y_of z_of fst snd] in Lx, Ly, Lz.
  exists [- sg vx; - sg vy; - sg vz]. split; [reflexivity|].
  assert (W : Forall (fun u => -1 <= u <= 1) [- sg vx; - sg vy; - sg vz]).
  { assert (U : forall t, -1 <= - sg t <= 1) by (intros t; pose proof (sg_unit t); lra).
    repeat apply Forall_cons; try apply Forall_nil; apply U. }
  split; [exact (Hb _ W)|]. split; [|intros k d []].
  intros pre k k0 post E En.
  assert (I : In (k, k0) cs') by (rewrite E; apply in_or_app; right; left; reflexivity).
  destruct (On k k0 I En) as (Nk & I2). specialize (Met _ _ I En). clear E En On I post.
  change (plen (x, y, z)) with (sqrt (x * x + y * y + z * z)) in HR.
  change s with [x; y; z; vx; vy; vz; angle; dv] in *.
  set (lim := i_vel_limit c) in *. set (rm := i_r_max c) in *. set (n := i_n c) in *. set (k1 := 1 / i_m c) in *.
  assert (K0 : 0 < k1) by (unfold k1; apply Rdiv_lt_0_compat; lra).
  assert (Lp : 0 <= lim) by (pose proof (Rabs_pos vx); lra).
  assert (Rm : 0 <= rm) by (pose proof (sqrt_pos (x * x + y * y + z * z)); lra).
  assert (NN : 0 <= n * n) by nra.
  assert (V1 : 0 <= i_v1 c) by (unfold i_v1; fold n; nra).
  unfold strong_thrusters in St. fold n rm lim k1 in St.
  assert (St2 : 3 * (n * n) * rm + 2 * n * lim <= k1 /\ i_v1 c * (2 * lim + 1 / 100) + 3 * (n * n) * rm <= k1).
  { assert (0 <= i_v1_coef c * n) by nra. assert (0 <= n * lim) by nra.
    assert (0 <= i_v1_coef c * n * lim) by nra. unfold i_v1. fold n. split; lra. }
  destruct St2 as [StA StB].
  assert (Ab : Rabs x <= rm /\ Rabs z <= rm).
  { assert (Q : forall t u, 0 <= u -> Rabs t <= sqrt (t * t + u)).
    { intros t u Hu. rewrite <- sqrt_Rsqr_abs. apply sqrt_le_1_alt. unfold Rsqr. lra. }
    pose proof (Q x (y * y + z * z) ltac:(nra)) as Qx. pose proof (Q z (x * x + y * y) ltac:(nra)) as Qz.
    replace (x * x + (y * y + z * z)) with (x * x + y * y + z * z) in Qx by ring.
    replace (z * z + (x * x + y * y)) with (x * x + y * y + z * z) in Qz by ring. lra. }
  destruct Ab as [Ax Az].
  assert (ST : forall a b (e : constraint vec zparams) h, 0 <= a -> 0 <= b -> c_alpha e = Some (polynomial (Some [0; a; 0; b])) ->
      0 <= h -> 0 <= strength e h).
  { intros a b e h Ha Hb' Ea Hh. unfold strength. rewrite Ea. destruct (Rlt_dec h 0); [lra|]. unfold polynomial. cbn [poly_loop pow].
    assert (0 <= h * h * h) by (repeat apply Rmult_le_pos; lra).
    assert (0 <= a * h) by nra. assert (0 <= b * (h * h * h)) by nra. lra. }
  assert (F : vadd (ac_f cfg [x; y; z; vx; vy; vz; angle; dv]) (mv (ac_g cfg [x; y; z; vx; vy; vz; angle; dv]) [- sg vx; - sg vy; - sg vz])
    = [vx; vy; vz; 3 * (n * n) * x + 2 * n * vy + k1 * - sg vx; - (2 * n * vx) + k1 * - sg vy; - (n * n * z) + k1 * - sg vz; i_sun_vel c; 0]).
  { cbn. unfold n, k1. repeat apply (f_equal2 (@Datatypes.cons R)); try reflexivity; ring. }
  assert (LIM : forall i t a, (3 <= i < 6)%nat -> nth_error [x; y; z; vx; vy; vz; angle; dv] i = Some t ->
     nth_error [vx; vy; vz; 3 * (n * n) * x + 2 * n * vy + k1 * - sg vx; - (2 * n * vx) + k1 * - sg vy; - (n * n * z) + k1 * - sg vz; i_sun_vel c; 0] i
       = Some (a + k1 * - sg t) -> Rabs a <= k1 ->
     let e := wrap ZLimit as_limit (magnitude_limit lim (Z.of_nat i) (Some (polynomial (Some [0; 1 / 10; 0; 1 / 100]))) (with_bias (- (1 / 1000)))) in
     0 <= c_compute e [x; y; z; vx; vy; vz; angle; dv] (c_params e) ->
     0 <= barrier_margin 3 (ac_f cfg) (ac_g cfg) e [x; y; z; vx; vy; vz; angle; dv] (slack_count pre) [- sg vx; - sg vy; - sg vz]).
  { intros i t a Hi Ht Ha Hk e M. unfold barrier_margin, slack_value. cbn [firstn]. rewrite F.
    change (c_slack e) with (@None R). cbv iota beta.
    change (c_grad e [x; y; z; vx; vy; vz; angle; dv] (c_params e))
      with (c_grad (ProofsDock2.lim lim (Z.of_nat i)) [x; y; z; vx; vy; vz; angle; dv] (c_params (ProofsDock2.lim lim (Z.of_nat i)))).
    rewrite (lim_rate lim i _ t _ (a + k1 * - sg t) Ht Ha eq_refl).
    pose proof (brake_axis t a k1 Hk) as B.
    pose proof (ST (1 / 10) (1 / 100) e _ ltac:(lra) ltac:(lra) eq_refl M) as S.
    change (c_compute e [x; y; z; vx; vy; vz; angle; dv] (c_params e))
      with (c_fun e [x; y; z; vx; vy; vz; angle; dv] (c_params e) + c_bias e) in S. lra. }
  assert (A2 : forall a b, Rabs (a + b) <= Rabs a + Rabs b) by (intros; apply Rabs_triang).
  cbn [dict_set vel_constraints app String.eqb Ascii.eqb Bool.eqb] in I2. cbn [In] in I2, Nk.
  repeat destruct I2 as [I2|I2]; try (injection I2 as <- <-);
    try (exfalso; repeat destruct Nk as [Nk|Nk]; try discriminate Nk; exact Nk); [| | | |destruct I2].
  - unfold barrier_margin, slack_value. cbn [firstn]. rewrite F.
    unfold c_compute in Met.
    set (e := wrap ZRv as_rv _) in *. change (c_slack e) with (@None R). cbv iota beta.
    pose proof (ST (5 / 100) (5 / 1000) e _ ltac:(lra) ltac:(lra) eq_refl Met) as S.
    change (c_grad e [x; y; z; vx; vy; vz; angle; dv] (c_params e)) with
      (jax_grad (fun s => rel_vel_value 3 rv_delta s (mkRv (i_v0 c) (i_v1 c) (i_v0_distance c))) [x; y; z; vx; vy; vz; angle; dv]).
    rewrite (jax_grad_unique _ _ _ (rel_vel_gradient_8 (i_v0 c) (i_v1 c) (i_v0_distance c) x y z vx vy vz angle dv)).
    set (rho := sqrt (x * x + y * y + z * z + rv_delta)). set (g := sqrt (vx * vx + vy * vy + vz * vz + rv_delta)).
    assert (P0 : 0 < rv_delta) by (unfold rv_delta; lra).
    assert (Prho : 0 < rho) by (apply sqrt_lt_R0; nra). assert (Pg : 0 < g) by (apply sqrt_lt_R0; nra).
    assert (Lrho : sqrt (x * x + y * y + z * z) <= rho) by (apply sqrt_le_1_alt; lra).
    assert (Lg : g <= 2 * lim + 1 / 100).
    { unfold g. rewrite <- (sqrt_Rsqr (2 * lim + 1 / 100)) by lra. apply sqrt_le_1_alt. unfold Rsqr, rv_delta.
      assert (Sq : forall t, Rabs t <= lim -> t * t <= lim * lim).
      { intros t Ht. pose proof (Rabs_pos t). replace (t * t) with (Rabs t * Rabs t) by (rewrite <- Rabs_mult; apply Rabs_pos_eq; nra). nra. }
      pose proof (Sq _ Lx). pose proof (Sq _ Ly). pose proof (Sq _ Lz). nra. }
    assert (KK : i_v1 c * g + 3 * (n * n) * rm <= k1).
    { assert (i_v1 c * g <= i_v1 c * (2 * lim + 1 / 100)) by (apply Rmult_le_compat_l; auto). lra. }
    pose proof (brake_speed n k1 rm x y z vx vy vz (i_v1 c) g rho V1 HR Lrho Prho Pg KK) as B.
    match goal with |- 0 <= ?d + _ - 0 => match type of B with 0 <= ?b => assert (D : d = b) end end.
    { cbn [dot]. field. split; lra. }
    rewrite D. lra.
  - apply (LIM 3%nat vx (3 * (n * n) * x + 2 * n * vy)); [lia|reflexivity|reflexivity| |exact Met].
    eapply Rle_trans; [apply A2|]. rewrite !Rabs_mult, !(Rabs_pos_eq n), (Rabs_pos_eq 3), (Rabs_pos_eq 2) by lra.
    assert (3 * (n * n) * Rabs x <= 3 * (n * n) * rm) by (apply Rmult_le_compat_l; [nra|auto]).
    assert (2 * n * Rabs vy <= 2 * n * lim) by (apply Rmult_le_compat_l; [nra|auto]). lra.
  - apply (LIM 4%nat vy (- (2 * n * vx))); [lia|reflexivity|reflexivity| |exact Met].
    rewrite Rabs_Ropp, !Rabs_mult, (Rabs_pos_eq n), (Rabs_pos_eq 2) by lra.
    assert (2 * n * Rabs vx <= 2 * n * lim) by (apply Rmult_le_compat_l; [nra|auto]).
    assert (0 <= 3 * (n * n) * rm) by (apply Rmult_le_pos; nra). lra.
  - apply (LIM 5%nat vz (- (n * n * z))); [lia|reflexivity|reflexivity| |exact Met].
    rewrite Rabs_Ropp, !Rabs_mult, !(Rabs_pos_eq n) by lra.
    assert (n * n * Rabs z <= n * n * rm) by (apply Rmult_le_compat_l; auto).
    assert (0 <= n * n * rm) by (apply Rmult_le_pos; auto). assert (0 <= 2 * n * lim) by (apply Rmult_le_pos; nra). lra.
Qed.
Print Assumptions C81_speed_partial.
(** The default settings, at the maximum distance and near all three limits: the four values are
    positive, and the four together are such a choice of constraints. *)
Example C81_speed_case :
  let c := insp_default 12 (1027 / 1000000) in
  let p := pt 600 800 0 in let v := pt (9 / 10) (- (9 / 10)) (9 / 10) in
  0 < i_m c /\ 0 <= i_n c /\ 0 <= i_v1_coef c /\ strong_thrusters c /\ plen p <= i_r_max c /\
  Rabs (x_of v) <= i_vel_limit c /\ Rabs (y_of v) <= i_vel_limit c /\ Rabs (z_of v) <= i_vel_limit c /\
  (forall w, Forall (fun u => -1 <= u <= 1) w -> within (i_bounds c) w) /\
  exists cs, inspection_constraints 0 false c = Ok cs /\
  let four := filter (fun kc => existsb (String.eqb (fst kc)) ["rel_vel"; "x_vel"; "y_vel"; "z_vel"]%string) cs in
  length four = 4%nat /\ forall k x, In (k, x) four -> c_enabled x = true /\ 0 < c_compute x (state_of p v 0 0) (c_params x).
Proof.
  intros c p v. cbn [insp_default i_m i_n i_chief i_deputy i_r_max i_vel_limit i_v0 i_v1_coef i_bounds c].
  assert (P : plen p = 1000).
  { unfold plen, pdot, p, pt. replace (600 * 600 + 800 * 800 + 0 * 0) with (1000 * 1000) by ring. apply sqrt_square; lra. }
  split; [lra|]. split; [lra|]. split; [lra|].
  split; [unfold strong_thrusters, c, insp_default; cbn [i_m i_n i_r_max i_vel_limit i_v1_coef]; lra|].
  split; [lra|].
  split; [unfold v, x_of, pt; cbn; rewrite Rabs_pos_eq; lra|]. split; [unfold v, y_of, pt; cbn; rewrite Rabs_left; lra|].
  split; [unfold v, z_of, pt; cbn; rewrite Rabs_pos_eq; lra|]. split.
  { intros w F. rewrite Forall_forall in F. split; intros i u k Eu Ek; injection Ek as <-; apply nth_error_In in Eu; specialize (F u Eu); lra. }
  eexists; split; [reflexivity|]. split; [reflexivity|]. intros k k0 I.
  cbn [dict_set vel_constraints app String.eqb Ascii.eqb Bool.eqb filter existsb orb andb fst In] in I.
  change (state_of p v 0 0) with [600; 800; 0; 9 / 10; - (9 / 10); 9 / 10; 0; 0].
  repeat destruct I as [I|I]; try (injection I as <- <-); [| | | |destruct I];
    (split; [reflexivity|]; unfold c_compute, wrap, magnitude_limit, rel_vel_3d, new_constraint, with_bias; cbn [c_fun c_params c_bias as_limit as_rv kw_bias]).
  - change (rel_vel_value 3 rv_delta [600; 800; 0; 9 / 10; - (9 / 10); 9 / 10; 0; 0] ?q)
      with (rel_vel_value 3 rv_delta [600; 800; 0; 9 / 10; - (9 / 10); 9 / 10] q).
    rewrite rel_vel_3.
    assert (A : 1000 <= sqrt (600 * 600 + 800 * 800 + 0 * 0 + rv_delta)).
    { rewrite <- P. unfold plen, pdot, p, pt. apply sqrt_le_1_alt. unfold rv_delta. lra. }
    assert (B : sqrt (9 / 10 * (9 / 10) + - (9 / 10) * - (9 / 10) + 9 / 10 * (9 / 10) + rv_delta) <= 16 / 10).
    { apply Rle_trans with (sqrt (16 / 10 * (16 / 10))); [apply sqrt_le_1_alt; unfold rv_delta; lra|]. rewrite sqrt_square; lra. }
    unfold i_v1, c, insp_default; cbn [i_v0 i_n i_v0_distance i_v1_coef]. lra.
  - cbv -[Rltb Rleb Rplus Rmult Rminus Ropp Rinv Rdiv IZR Rlt]. lra.
  - cbv -[Rltb Rleb Rplus Rmult Rminus Ropp Rinv Rdiv IZR Rlt]. lra.
  - cbv -[Rltb Rleb Rplus Rmult Rminus Ropp Rinv Rdiv IZR Rlt]. lra.
Qed.
