(** Properties of the modules the library itself offers: C64-C67. *)
From Coq Require Import String Reals List Bool ZArith Lia Lra.
From Verif Require Import Prelude Vec ModelBase ModelController ModelSimplex ModelAsif ModelConstraint ModelCwh ModelConic ModelZoo
  SpecCore SpecCwh SpecConic SpecZoo ProofsCwh ProofsCwh2 ProofsCwh3 PropertiesCwh ProofsZoo ProofsZoo2 ProofsZoo3.
Import ListNotations.
Local Open Scope R_scope.

(** ** C64.  The braking acceleration behind the keep-out constraint.  Full statement: whenever the
    constraint named chief_collision is at least 0 and the deputy is outside, thrust within the
    module's control bounds can keep it outside.  Proved when the bounds leave at least 1 N in
    each direction; refuted below for smaller bounds, which the constraint ignores. *)
Theorem C64_braking_available_partial :
  forall nan use_discrete c cs k T ux uy uz x y z vx vy vz rest,
  inspection_constraints nan false c = Ok cs ->
  In ("chief_collision"%string, k) (if use_discrete : bool then discrete_inspection_constraints nan c else cs) ->
  0 < i_m c -> 0 <= i_n c -> 0 < i_a_max c -> 0 < i_chief c + i_deputy c ->
  (forall w, Forall (fun r => Rabs r <= 1) w -> within (i_bounds c) w) ->
  let d t := length3 (x t) (y t) (z t) in
  cwh_forced (i_n c) (i_m c) T ux uy uz x y z vx vy vz ->
  (forall t, 0 <= t <= T -> 0 < d t -> [ux t; uy t; uz t] = [x t / d t; y t / d t; z t / d t]) ->
  (forall t, 0 <= t <= T -> d t <= i_r_max c /\ length3 (vx t) (vy t) (vz t) <= i_vel_limit c /\
     length3 (vx t) (vy t) (vz t) <= i_v0 c + i_v1_coef c * i_n c * i_r_max c) ->
  i_chief c + i_deputy c <= d 0 ->
  0 <= c_fun k (x 0 :: y 0 :: z 0 :: vx 0 :: vy 0 :: vz 0 :: rest) (c_params k) ->
  forall t, 0 <= t <= T -> i_chief c + i_deputy c <= d t /\ within (i_bounds c) [ux t; uy t; uz t].
Proof.
  intros nan use_discrete c cs k T ux uy uz x y z vx vy vz rest Ecs Ik Hm Hn Ha HR Hb d M U B D0 H t Ht.
  assert (Ek : k = wrap ZDist as_dist (chief_collision (i_chief c + i_deputy c) (i_a_max c) None kw_default)).
  { destruct use_discrete.
    - cbn [discrete_inspection_constraints vel_constraints app In] in Ik.
      destruct Ik as [E|Ik]; [injection E as <-; reflexivity|]. exfalso.
      repeat (destruct Ik as [E|Ik]; [discriminate E|]). exact Ik.
    - unfold inspection_constraints in Ecs. match type of Ecs with Ok ?a = Ok _ => assert (X : a = cs) by congruence end. rewrite <- X in Ik.
      cbn [dict_set app vel_constraints String.eqb Ascii.eqb Bool.eqb In] in Ik.
      repeat (destruct Ik as [E|Ik]; [try discriminate E|]); [|destruct Ik]. injection E as <-. reflexivity. }
  assert (H' : 0 <= c_fun (chief_collision (i_chief c + i_deputy c) (i_a_max c) None kw_default)
    (x 0 :: y 0 :: z 0 :: vx 0 :: vy 0 :: vz 0 :: rest) (mkDist (i_chief c + i_deputy c) (i_a_max c))) by (rewrite Ek in H; exact H).
  destruct (C58_keep_out_acceleration_available 1 (i_m c) (i_n c) (i_r_max c) (i_vel_limit c) (i_v0 c) (i_v1 c)
    (i_chief c + i_deputy c) None kw_default rest T ux uy uz x y z vx vy vz Hm Hn ltac:(lra) HR Ha M) with (t := t)
    as (P & A1 & A2 & A3); auto.
  - intros r Hr Dr. fold (d r) in Dr |- *. pose proof (U r Hr Dr) as E. injection E as E1 E2 E3. rewrite E1, E2, E3. lra.
  - split; [exact P|]. apply Hb. apply Forall_cons; [exact A1|apply Forall_cons; [exact A2|apply Forall_cons; [exact A3|apply Forall_nil]]].
Qed.
Print Assumptions C64_braking_available_partial.

(** With less thrust there are states that the constraint accepts, outside the keep-out distance,
    from which every thrust within the bounds leads to a collision. *)
Theorem C64_reduced_thrust_refuted :
  forall nan c b angle dv, 0 < i_m c -> 0 < i_chief c + i_deputy c ->
  i_bounds c = mkBounds (Some (BScalar (- b))) (Some (BScalar b)) -> 0 <= b -> b / i_m c < i_a_max c ->
  exists cs k p v T, inspection_constraints nan false c = Ok cs /\ In ("chief_collision"%string, k) cs /\
  0 <= c_fun k (state_of p v angle dv) (c_params k) + c_bias k /\ i_chief c + i_deputy c < plen p /\ 0 < T /\
  forall ux uy uz x y z vx vy vz, cwh_forced (i_n c) (i_m c) T ux uy uz x y z vx vy vz ->
  (forall t, 0 <= t <= T -> within (i_bounds c) [ux t; uy t; uz t]) ->
  pt (x 0) (y 0) (z 0) = p -> pt (vx 0) (vy 0) (vz 0) = v ->
  exists t, 0 <= t <= T /\ length3 (x t) (y t) (z t) < i_chief c + i_deputy c.
Proof.
  intros nan c b angle dv Hm HR Eb Hb HA.
  set (radius := i_chief c + i_deputy c) in *.
  set (h := start_height (i_n c) (i_m c) b (i_a_max c) radius).
  set (s := start_speed (i_n c) (i_m c) b (i_a_max c) radius).
  set (T := crash_time (i_n c) (i_m c) b (i_a_max c) radius).
  pose proof (start_above (i_n c) (i_m c) b (i_a_max c) radius Hm Hb HA HR) as Ab. fold h in Ab.
  destruct (time_pos (i_n c) (i_m c) b (i_a_max c) radius Hm Hb HA HR) as [T0 _]. fold T in T0.
  assert (LL : length3 0 0 h = h).
  { unfold length3. replace (0 * 0 + 0 * 0 + h * h) with (h * h) by ring. apply sqrt_square; lra. }
  eexists. exists (wrap ZDist as_dist (chief_collision radius (i_a_max c) None kw_default)), (pt 0 0 h), (pt 0 0 (- s)), T.
  split; [reflexivity|]. split.
  { cbn [dict_set app vel_constraints String.eqb Ascii.eqb Bool.eqb In]. do 7 right. left. reflexivity. }
  split; [|split; [change (radius < length3 0 0 h); lra|split; [exact T0|]]].
  - cbn [c_fun c_params c_bias wrap as_dist chief_collision new_constraint kw_bias kw_default].
    unfold keep_out_value, state_of, arr, pt, slice; cbn [app firstn skipn Nat.sub dp_radius dp_amax].
    rewrite norm3, LL. destruct (Rleb_spec radius h) as [_|N]; [|lra].
    unfold s. rewrite accepted. fold h. cbn [dot]. set (w := sqrt _).
    replace (0 * 0 + (0 * 0 + (h * - w + 0))) with (- w * h) by ring.
    unfold Rdiv. rewrite Rmult_assoc, Rinv_r by lra. lra.
  - intros ux uy uz x y z vx vy vz M W Ep Ev. injection Ep as X0 Y0 Z0. injection Ev as VX0 VY0 VZ0.
    apply (collides (i_n c) (i_m c) b (i_a_max c) radius Hm Hb HA HR ux uy uz x y z vx vy vz M); auto.
    intros t Ht. destruct (W t Ht) as [Lo Hi]. rewrite Eb in Lo, Hi. unfold above, below in *. cbn [b_low b_high] in *.
    split; [|split]; apply Rabs_le; split.
    + exact (Lo 0%nat _ _ eq_refl eq_refl).
    + exact (Hi 0%nat _ _ eq_refl eq_refl).
    + exact (Lo 1%nat _ _ eq_refl eq_refl).
    + exact (Hi 1%nat _ _ eq_refl eq_refl).
    + exact (Lo 2%nat _ _ eq_refl eq_refl).
    + exact (Hi 2%nat _ _ eq_refl eq_refl).
Qed.
Print Assumptions C64_reduced_thrust_refuted.

(** Non-vacuity: the default module (12 kg, mean motion 0.001) meets the first theorem's
    hypotheses on the bounds and the acceleration; limiting its thrust to 0.1 N meets the second's;
    and a motion without thrust is one of those that are said to collide. *)
Example C64_default_case : let c := insp_default 12 (1 / 1000) in
  0 < i_m c /\ 0 <= i_n c /\ 0 < i_a_max c /\ 0 < i_chief c + i_deputy c /\
  (forall w, Forall (fun r => Rabs r <= 1) w -> within (i_bounds c) w).
Proof.
  cbv zeta. unfold i_a_max, inspection_a_max, i_v1, u_max_default.
  cbn [insp_default i_m i_n i_chief i_deputy i_r_max i_vel_limit i_v0 i_v1_coef i_bounds].
  rewrite Rmin_left by lra. split; [lra|split; [lra|split; [lra|split; [lra|]]]].
  intros w F. rewrite Forall_forall in F. split; intros i x l E B; cbn in B; injection B as <-;
    apply nth_error_In in E; specialize (F x E);
    pose proof (Rle_abs x); pose proof (Rle_abs (- x)) as Q; rewrite Rabs_Ropp in Q; lra.
Qed.
Example C64_reduced_case :
  let c := mkInsp 12 (1 / 1000) 5 5 (2 / 10) 2 0 1000 (60 * PI / 180) 1 (- (1 / 1000))
             (mkBounds (Some (BScalar (- (1 / 10)))) (Some (BScalar (1 / 10)))) in
  0 < i_m c /\ 0 < i_chief c + i_deputy c /\
  i_bounds c = mkBounds (Some (BScalar (- (1 / 10)))) (Some (BScalar (1 / 10))) /\ 1 / 10 / i_m c < i_a_max c /\
  forall T p v, exists x y z vx vy vz, cwh_forced (i_n c) (i_m c) T (fun _ => 0) (fun _ => 0) (fun _ => 0) x y z vx vy vz /\
    (forall t, 0 <= t <= T -> within (i_bounds c) [0; 0; 0]) /\
    pt (x 0) (y 0) (z 0) = p /\ pt (vx 0) (vy 0) (vz 0) = v.
Proof.
  cbv zeta. unfold i_a_max, inspection_a_max, i_v1, u_max_default.
  cbn [i_m i_n i_chief i_deputy i_r_max i_vel_limit i_v0 i_v1_coef i_bounds].
  rewrite Rmin_left by lra. split; [lra|split; [lra|split; [reflexivity|split; [lra|]]]].
  intros T p v. destruct (free_motion (1 / 1000) p v ltac:(lra)) as (x & y & z & vx & vy & vz & [Mx My Mz Mvx Mvy Mvz] & E1 & E2).
  exists x, y, z, vx, vy, vz. split; [|split; [|split; assumption]].
  - constructor; intros t _; auto; (eapply derive_eq; [solve [apply Mvx|apply Mvy|apply Mvz]|field]).
  - intros t _. split; intros i w l E B; cbn in B; injection B as <-;
      (destruct i as [|[|[|i]]]; cbn in E; [injection E as <-; lra|injection E as <-; lra|injection E as <-; lra|destruct i; discriminate]).
Qed.

(** ** C65.  What the reported values of the library's modules say.  Docking in the plane: *)
Theorem C65_docking_2d : forall c x y vx vy, 0 <= d_x_limit c -> 0 <= d_y_limit c ->
  all_reported_nonneg (docking_constraints_2d c) [x; y; vx; vy] <->
  slow_enough (d_v0 c) (d_v1_coef c * d_n c) (d_v0_distance c) (pt x y 0) (pt vx vy 0) /\
  Rabs vx <= d_x_limit c /\ Rabs vy <= d_y_limit c.
Proof.
  intros c x y vx vy Lx Ly. rewrite all_reported_iff. unfold docking_constraints_2d.
  rewrite !Forall_cons_iff, Forall_nil_iff. cbn [snd]. rewrite !wrap_phi by reflexivity.
  pose proof (speed2_iff (d_v0 c) (d_v1_coef c * d_n c) (d_v0_distance c) None (with_bias (- (1 / 10000))) x y vx vy []) as A.
  pose proof (limit_iff (d_x_limit c) 2 None kw_default [x; y; vx; vy] vx Lx eq_refl) as B.
  pose proof (limit_iff (d_y_limit c) 3 None kw_default [x; y; vx; vy] vy Ly eq_refl) as C.
  cbn [c_params rel_vel_2d magnitude_limit new_constraint] in *.
  change (Z.of_nat 2) with 2%Z in B. change (Z.of_nat 3) with 3%Z in C. rewrite A, B, C. tauto.
Qed.
Print Assumptions C65_docking_2d.

(** Docking in space: *)
Theorem C65_docking_3d : forall c p v, 0 <= d_x_limit c -> 0 <= d_y_limit c -> 0 <= d_z_limit c ->
  all_reported_nonneg (docking_constraints_3d c) (arr p ++ arr v) <->
  slow_enough (d_v0 c) (d_v1_coef c * d_n c) (d_v0_distance c) p v /\
  components_within (d_x_limit c) (d_y_limit c) (d_z_limit c) v.
Proof.
  intros c p v Lx Ly Lz. rewrite all_reported_iff. unfold docking_constraints_3d.
  rewrite !Forall_cons_iff, Forall_nil_iff. cbn [snd]. rewrite !wrap_phi by reflexivity.
  pose proof (speed_iff (d_v0 c) (d_v1_coef c * d_n c) (d_v0_distance c) None (with_bias (- (1 / 10000))) p v []) as A.
  rewrite app_nil_r in A. destruct p as [[x y] z], v as [[vx vy] vz]. unfold components_within. cbn [fst snd].
  pose proof (limit_iff (d_x_limit c) 3 None kw_default (arr (x, y, z) ++ arr (vx, vy, vz)) vx Lx eq_refl) as B.
  pose proof (limit_iff (d_y_limit c) 4 None kw_default (arr (x, y, z) ++ arr (vx, vy, vz)) vy Ly eq_refl) as C.
  pose proof (limit_iff (d_z_limit c) 5 None kw_default (arr (x, y, z) ++ arr (vx, vy, vz)) vz Lz eq_refl) as D.
  cbn [c_params rel_vel_3d magnitude_limit new_constraint] in *.
  change (Z.of_nat 3) with 3%Z in B. change (Z.of_nat 4) with 4%Z in C. change (Z.of_nat 5) with 5%Z in D.
  rewrite A, B, C, D. tauto.
Qed.
Print Assumptions C65_docking_3d.

(** Inspection of a chief, with either collision constraint, and with the discrete-time module;
    whatever stands for nan. *)
Theorem C65_inspection : forall nan c use_hocbf p v angle dv,
  i_n c <> 0 -> 0 < i_fov c < PI -> 0 <= i_vel_limit c -> plen p <> 0 ->
  (exists cs, inspection_constraints nan use_hocbf c = Ok cs /\
     (all_reported_nonneg cs (state_of p v angle dv) <-> inspection_ok c p v angle)) /\
  (all_reported_nonneg (discrete_inspection_constraints nan c) (state_of p v angle dv) <-> inspection_ok c p v angle).
Proof.
  intros nan c use_hocbf p v angle dv Hn Hf Hl NZ. split.
  - destruct (inspection_constraints nan use_hocbf c) as [cs|e] eqn:E; [|destruct use_hocbf; discriminate].
    exists cs. split; [reflexivity|]. rewrite all_reported_iff.
    exact (inspection_iff nan c p v [angle; dv] angle Hn Hf Hl NZ use_hocbf cs (get_sun_1v1 p v angle dv) E).
  - rewrite all_reported_iff. exact (discrete_iff nan c p v [angle; dv] angle Hn Hf Hl NZ (get_sun_1v1 p v angle dv)).
Qed.
Print Assumptions C65_inspection.

(** Several deputies.  Full statement: with 2 * deputy_radius as the distance to keep when two
    deputies drift.  Proved with the distance the module uses, chief_radius + deputy_radius. *)
Theorem C65_deputies_partial : forall nan c others p v angle,
  i_n c <> 0 -> 0 < i_fov c < PI -> 0 <= i_vel_limit c -> plen p <> 0 ->
  (forall q w, In (q, w) others -> plen (psub p q) <> 0) ->
  all_reported_nonneg (deputies_constraints nan (S (length others)) c) (deputies_state p v others angle) <->
  inspection_ok c p v angle /\
  forall q w, In (q, w) others -> deputy_ok c (i_chief c + i_deputy c) p v q w angle.
Proof.
  intros nan c others p v angle Hn Hf Hl NZ NQ. rewrite all_reported_iff.
  apply (deputies_iff nan c p v angle Hn Hf Hl NZ others NQ).
Qed.
Print Assumptions C65_deputies_partial.

(** With a chief smaller than the deputies the module accepts states in which two deputies that
    stop thrusting collide within the horizon it looks at (at the first second). *)
Theorem C65_deputy_drift_refuted : forall nan m n chief deputy,
  0 < n <= 1 / 1000 -> 0 <= chief <= 9 / 10 * deputy -> 0 < deputy <= 100 ->
  let c := mkInsp m n chief deputy (2 / 10) 2 0 1000 (60 * PI / 180) 1 (- n)
             (mkBounds (Some (BScalar (-1))) (Some (BScalar 1))) in
  exists p v q w angle,
  all_reported_nonneg (deputies_constraints nan 2 c) (deputies_state p v [(q, w)] angle) /\
  ~ drift_apart n (2 * deputy) p v q w.
Proof.
  intros nan m n chief deputy Hn Hc Hd c. pose proof PI_RGT_0 as P. pose proof PI2_3_2 as P3.
  exists (pt 0 300 0), (pt 0 0 0), (pt 0 300 (2 * deputy)), (pt 0 0 0), 0.
  assert (N0 : n <> 0) by lra.
  assert (L3 : plen (pt 0 300 0) = 300).
  { unfold plen, pdot, pt. replace (0 * 0 + 300 * 300 + 0 * 0) with (300 * 300) by ring. apply sqrt_square; lra. }
  assert (LZ : forall r, 0 <= r -> plen (pt 0 0 r) = r).
  { intros r Hr. unfold plen, pdot, pt. replace (0 * 0 + 0 * 0 + r * r) with (r * r) by ring. apply sqrt_square; lra. }
  assert (S1 : psub (pt 0 300 0) (pt 0 300 (2 * deputy)) = pt 0 0 (- (2 * deputy))).
  { unfold psub, pt. apply f_equal2; [apply f_equal2|]; ring. }
  assert (S2 : psub (pt 0 300 (2 * deputy)) (pt 0 300 0) = pt 0 0 (2 * deputy)).
  { unfold psub, pt. apply f_equal2; [apply f_equal2|]; ring. }
  assert (LN : forall r, plen (pt 0 0 (- r)) = plen (pt 0 0 r)).
  { intros r. unfold plen, pdot, pt. f_equal. ring. }
  assert (View : forall p, pdot p (sun_at 0) = 0 -> ~ in_view (i_fov c) 0 p).
  { intros p E. replace p with (pscale (-1) (pscale (-1) p)).
    - apply in_view_pos; [unfold c; cbn [i_fov]; lra|]. destruct p as [[x y] z]. unfold pdot, pscale, sun_at in *. lra.
    - destruct p as [[x y] z]. unfold pscale. apply f_equal2; [apply f_equal2|]; ring. }
  assert (Drift : forall h x y z vx vy vz, cwh_motion n 1 0 0 0 x y z vx vy vz ->
    pt (x 0) (y 0) (z 0) = pt 0 300 h -> pt (vx 0) (vy 0) (vz 0) = pt 0 0 0 ->
    forall t, pt (x t) (y t) (z t) = pt 0 300 (h * cos (n * t))).
  { intros h x y z vx vy vz M E1 E2 t. injection E1 as X Y Z. injection E2 as VX VY VZ.
    destruct (free_motion_drift n 1 x y z vx vy vz t N0 M) as (-> & -> & ->).
    rewrite X, Y, Z, VX, VY, VZ. unfold pt, sol_x, sol_y, sol_z, Rdiv. apply f_equal2; [apply f_equal2|]; ring. }
  assert (Cos : forall k, (1 <= k <= 100)%nat -> 95 / 100 <= cos (n * INR k) <= 1).
  { intros k [K1 K2]. split; [|apply COS_bound].
    apply le_INR in K1, K2. replace (INR 1) with 1 in K1 by reflexivity.
    replace (INR 100) with 100 in K2 by (simpl; lra).
    set (u := n * INR k) in *. assert (U : 0 < u <= 1 / 10).
    { unfold u. split; [apply Rmult_lt_0_compat; lra|].
      replace (1 / 10) with (1 / 1000 * 100) by field. apply Rmult_le_compat; lra. }
    replace u with (2 * (u / 2)) by field. rewrite cos_2a_sin.
    assert (0 < sin (u / 2)) by (apply sin_gt_0; lra).
    assert (sin (u / 2) < u / 2) by (apply sin_lt_x; lra). nra. }
  split.
  - apply (proj2 (C65_deputies_partial nan c [(pt 0 300 (2 * deputy), pt 0 0 0)] (pt 0 300 0) (pt 0 0 0) 0
      N0 ltac:(unfold c; cbn [i_fov]; lra) ltac:(unfold c; cbn [i_vel_limit]; lra) ltac:(rewrite L3; lra)
      ltac:(intros q w [E|[]]; injection E as <- <-; change (psub (0, 300, 0)) with (psub (pt 0 300 0)) in *;
            rewrite S1, LN, LZ by lra; lra))).
    split.
    + constructor.
      * unfold slow_enough, c; cbn [i_v0 i_v1_coef i_n i_v0_distance].
        assert (A : sqrt (pdot (pt 0 0 0) (pt 0 0 0) + 1 / 100000) <= 2 / 10).
        { unfold pdot, pt. apply le_of_sqr; [lra|]. rewrite sqrt_sqrt; lra. }
        pose proof (sqrt_pos (pdot (pt 0 300 0) (pt 0 300 0) + 1 / 100000)) as B. nra.
      * apply View. unfold pdot, pt, sun_at. rewrite sin_0. ring.
      * rewrite L3. unfold c; cbn [i_r_max]. lra.
      * intros x y z vx vy vz M E1 E2 k Hk. rewrite (Drift 0 _ _ _ _ _ _ M E1 E2), Rmult_0_l, L3.
        unfold c; cbn [i_chief i_deputy]. lra.
      * unfold components_within, pt, c; cbn [fst snd i_vel_limit]. rewrite Rabs_R0. lra.
      * rewrite L3. unfold c; cbn [i_chief i_deputy]. lra.
    + intros q w [E|[]]. injection E as <- <-. constructor.
      * unfold pdist. change (2 * i_deputy c <= plen (psub (pt 0 300 0) (pt 0 300 (2 * deputy)))).
        rewrite S1, LN, LZ by lra. unfold c; cbn [i_deputy]. lra.
      * change (~ in_view (i_fov c) 0 (psub (pt 0 300 0) (pt 0 300 (2 * deputy))) /\
                ~ in_view (i_fov c) 0 (psub (pt 0 300 (2 * deputy)) (pt 0 300 0))).
        rewrite S1, S2. split; apply View; unfold pdot, pt, sun_at; ring.
      * intros x y z vx vy vz x' y' z' vx' vy' vz' M M' E1 E2 E3 E4 k Hk.
        rewrite (Drift 0 _ _ _ _ _ _ M E1 E2), (Drift (2 * deputy) _ _ _ _ _ _ M' E3 E4). specialize (Cos k Hk).
        assert (E : pdist (pt 0 300 (0 * cos (n * INR k))) (pt 0 300 (2 * deputy * cos (n * INR k))) = 2 * deputy * cos (n * INR k)).
        { unfold pdist. replace (psub _ _) with (pt 0 0 (- (2 * deputy * cos (n * INR k)))).
          - rewrite LN, LZ by nra. reflexivity.
          - unfold psub, pt. apply f_equal2; [apply f_equal2|]; ring. }
        rewrite E. unfold c; cbn [i_chief i_deputy]. nra.
  - intros A.
    destruct (free_motion n (pt 0 300 0) (pt 0 0 0) N0) as (x & y & z & vx & vy & vz & M & E1 & E2).
    destruct (free_motion n (pt 0 300 (2 * deputy)) (pt 0 0 0) N0) as (x' & y' & z' & vx' & vy' & vz' & M' & E3 & E4).
    specialize (A _ _ _ _ _ _ _ _ _ _ _ _ M M' E1 E2 E3 E4 1%nat ltac:(lia)).
    rewrite (Drift 0 _ _ _ _ _ _ M E1 E2), (Drift (2 * deputy) _ _ _ _ _ _ M' E3 E4) in A.
    change (INR 1) with 1 in A. rewrite Rmult_1_r in A.
    assert (C1 : cos n < 1) by (rewrite <- cos_0; apply cos_decreasing_1; lra).
    assert (C0 : 0 < cos n) by (apply cos_gt_0; lra).
    assert (E : pdist (pt 0 300 (0 * cos n)) (pt 0 300 (2 * deputy * cos n)) = 2 * deputy * cos n).
    { unfold pdist. replace (psub _ _) with (pt 0 0 (- (2 * deputy * cos (n)))).
          - rewrite LN, LZ by nra. reflexivity.
          - unfold psub, pt. apply f_equal2; [apply f_equal2|]; ring. }
    rewrite E in A. nra.
Qed.
Print Assumptions C65_deputy_drift_refuted.

Example C65_refuted_case : 0 < 1 / 1000 <= 1 / 1000 /\ 0 <= 1 <= 9 / 10 * 5 /\ 0 < 5 <= 100.
Proof. lra. Qed.
(** A state that meets the hypotheses of C65_inspection and all its conditions is the chief-side
    half of the refuting state above; here the hypotheses on the configuration, for the default
    module. *)
Example C65_case : let c := insp_default 12 (1 / 1000) in
  i_n c <> 0 /\ 0 < i_fov c < PI /\ 0 <= i_vel_limit c /\ plen (pt 0 300 0) <> 0 /\ inspection_ok c (pt 0 300 0) (pt 0 0 0) 0.
Proof.
  intros c. pose proof PI_RGT_0 as P.
  assert (L3 : plen (pt 0 300 0) = 300).
  { unfold plen, pdot, pt. replace (0 * 0 + 300 * 300 + 0 * 0) with (300 * 300) by ring. apply sqrt_square; lra. }
  unfold c. split; [cbn; lra|split; [cbn; lra|split; [cbn; lra|split; [lra|]]]].
  constructor; cbn [insp_default i_v0 i_v1_coef i_n i_v0_distance i_fov i_r_max i_chief i_deputy i_vel_limit].
  - unfold slow_enough.
    assert (A : sqrt (pdot (pt 0 0 0) (pt 0 0 0) + 1 / 100000) <= 2 / 10).
    { unfold pdot, pt. apply le_of_sqr; [lra|]. rewrite sqrt_sqrt; lra. }
    pose proof (sqrt_pos (pdot (pt 0 300 0) (pt 0 300 0) + 1 / 100000)) as B. nra.
  - replace (pt 0 300 0) with (pscale (-1) (pt 0 (-300) 0)).
    + apply in_view_pos; [lra|]. unfold pdot, pt, sun_at. rewrite sin_0. lra.
    + unfold pscale, pt. apply f_equal2; [apply f_equal2|]; ring.
  - lra.
  - intros x y z vx vy vz M E1 E2 k _. injection E1 as X Y Z. injection E2 as VX VY VZ.
    destruct (free_motion_drift (1 / 1000) 1 x y z vx vy vz (INR k) ltac:(lra) M) as (-> & -> & ->).
    rewrite X, Y, Z, VX, VY, VZ. unfold sol_x, sol_y, sol_z.
    match goal with |- _ <= plen (pt ?a ?b ?d) => replace a with 0 by (unfold Rdiv; ring); replace b with 300 by (unfold Rdiv; ring);
      replace d with 0 by (unfold Rdiv; ring) end. lra.
  - unfold components_within, pt; cbn [fst snd]. rewrite Rabs_R0. lra.
  - lra.
Qed.

(** ** C66.  The named fields of a state wrapper. *)
Theorem C66_getters : forall x y z a b c sun dv rest,
  let read cls name v := wrapper_get cls name v in
  (forall v, v = x :: y :: a :: b :: rest ->
     read docking_2d_state "x"%string v = (Ok x, v) /\ read docking_2d_state "y"%string v = (Ok y, v) /\
     read docking_2d_state "x_dot"%string v = (Ok a, v) /\ read docking_2d_state "y_dot"%string v = (Ok b, v)) /\
  (forall cls v, cls = docking_3d_state \/ cls = inspection_3d_state -> v = x :: y :: z :: a :: b :: c :: rest ->
     read cls "x"%string v = (Ok x, v) /\ read cls "y"%string v = (Ok y, v) /\ read cls "z"%string v = (Ok z, v) /\
     read cls "x_dot"%string v = (Ok a, v) /\ read cls "y_dot"%string v = (Ok b, v) /\ read cls "z_dot"%string v = (Ok c, v)) /\
  (forall v, v = x :: y :: z :: a :: b :: c :: sun :: dv :: rest ->
     read inspection_3d_state "sun_angle"%string v = (Ok sun, v) /\ read inspection_3d_state "delta_v"%string v = (Ok dv, v)) /\
  (forall v, v = x :: a :: rest ->
     read integrator_1d_state "x"%string v = (Ok x, v) /\ read integrator_1d_state "x_dot"%string v = (Ok a, v)).
Proof.
  intros x y z a b c sun dv rest read.
  assert (R : forall cls name i v r, dict_get cls name = Ok (Z.of_nat i) -> nth_error v i = Some r -> read cls name v = (Ok r, v)).
  { intros cls name i v r E H. unfold read, wrapper_get, bind, lift, get, ret. rewrite E.
    assert (LT : (i < length v)%nat) by (apply nth_error_Some; congruence).
    rewrite jax_get_nth by exact LT. rewrite (nth_error_nth _ _ _ H). reflexivity. }
  split; [|split; [|split]].
  - intros v ->. split; [|split; [|split]]; [apply (R _ _ 0%nat)|apply (R _ _ 1%nat)|apply (R _ _ 2%nat)|apply (R _ _ 3%nat)]; reflexivity.
  - intros cls v [-> | ->] ->; (split; [|split; [|split; [|split; [|split]]]];
      [apply (R _ _ 0%nat)|apply (R _ _ 1%nat)|apply (R _ _ 2%nat)|apply (R _ _ 3%nat)|apply (R _ _ 4%nat)|apply (R _ _ 5%nat)]; reflexivity).
  - intros v ->. split; [apply (R _ _ 6%nat)|apply (R _ _ 7%nat)]; reflexivity.
  - intros v ->. split; [apply (R _ _ 0%nat)|apply (R _ _ 1%nat)]; reflexivity.
Qed.
Print Assumptions C66_getters.

(** The setters never succeed; they leave the array as it was. *)
Theorem C66_setters_refuted : forall cls name val v, In cls [docking_2d_state; docking_3d_state; inspection_3d_state; integrator_1d_state] ->
  In name (map fst cls) -> wrapper_set cls name val v = (Err TypeError, v).
Proof.
  intros cls name val v H I. unfold wrapper_set, bind, lift, raise.
  assert (E : exists i, dict_get cls name = Ok i); [|destruct E as [i ->]; reflexivity].
  clear H. induction cls as [|[k i] cls IH]; [destruct I|]. cbn.
  destruct (String.eqb_spec name k) as [_|N]; [eexists; reflexivity|]. apply IH. destruct I as [E|I]; [cbn in E; congruence|exact I].
Qed.
Print Assumptions C66_setters_refuted.

(** A wrapper around a state without sun angle and delta-v (which the modules accept) reads the
    velocity along z in their place, and raises nothing. *)
Theorem C66_short_state_refuted : forall x y z a b c,
  let v := [x; y; z; a; b; c] in
  wrapper_get inspection_3d_state "sun_angle" v = (Ok c, v) /\ wrapper_get inspection_3d_state "delta_v" v = (Ok c, v).
Proof. intros. split; reflexivity. Qed.
Print Assumptions C66_short_state_refuted.

(** ** C67.  Every constraint set the library builds is ready for every filter. *)
Theorem C67_ready : forall nan num dc ic use_hocbf,
  ready (docking_constraints_2d dc) /\ ready (docking_constraints_3d dc) /\
  (exists cs, inspection_constraints nan use_hocbf ic = Ok cs /\ ready cs) /\
  ready (discrete_inspection_constraints nan ic) /\ ready (deputies_constraints nan num ic).
Proof.
  intros nan num dc ic use_hocbf. split; [apply docking_2d_ready|split; [apply docking_3d_ready|split]].
  - destruct (inspection_constraints nan use_hocbf ic) as [cs|e] eqn:E; [|destruct use_hocbf; discriminate].
    exists cs. split; [reflexivity|]. exact (inspection_ready _ _ _ _ E).
  - split; [apply discrete_ready|apply deputies_ready].
Qed.
Print Assumptions C67_ready.

(** The names, as a user of constraints_to_use or of the reported dictionary sees them: the fixed
    ones, then three for each other deputy. *)
Theorem C67_names : forall nan num dc ic,
  map fst (docking_constraints_2d dc) = ["rel_vel"; "x_vel"; "y_vel"]%string /\
  map fst (docking_constraints_3d dc) = ["rel_vel"; "x_vel"; "y_vel"; "z_vel"]%string /\
  (exists cs, inspection_constraints nan false ic = Ok cs /\
     map fst cs = ["rel_vel"; "sun"; "r_max"; "PSM"; "x_vel"; "y_vel"; "z_vel"; "chief_collision"]%string) /\
  (exists cs, inspection_constraints nan true ic = Ok cs /\
     map fst cs = ["rel_vel"; "sun"; "r_max"; "PSM"; "x_vel"; "y_vel"; "z_vel"; "chief_collision_hocbf"]%string) /\
  map fst (discrete_inspection_constraints nan ic) =
    ["chief_collision"; "rel_vel"; "sun"; "r_max"; "PSM"; "x_vel"; "y_vel"; "z_vel"]%string /\
  length (deputies_constraints nan (S num) ic) = (8 + 3 * num)%nat /\
  forall i name, (1 <= i <= num)%nat -> In name ["deputy_collision_"; "deputy_sun_"; "deputy_PSM_"]%string ->
    exists c, In (numbered name i, c) (deputies_constraints nan (S num) ic).
Proof.
  intros nan num dc ic. split; [reflexivity|split; [reflexivity|split; [eexists; split; reflexivity|]]].
  split; [eexists; split; reflexivity|split; [reflexivity|]].
  rewrite deputies_constraints_eq. replace (S num - 1)%nat with num by lia. split.
  - assert (L : forall k s, length (flat_map (deputy_entries nan ic) (seq s k)) = (3 * k)%nat).
    { intros k. induction k as [|k IH]; intros s; [reflexivity|]. cbn [seq flat_map]. rewrite app_length, IH.
      change (length (deputy_entries nan ic s)) with 3%nat. lia. }
    rewrite app_length, L. reflexivity.
  - intros i name Hi Hw.
    assert (K : In (numbered name i) (map fst (deputy_entries nan ic i))).
    { rewrite deputy_entries_names. apply (in_map (fun w => numbered w i)). exact Hw. }
    apply in_map_iff in K. destruct K as ([k c] & E & I). cbn in E. subst k.
    exists c. apply in_app_iff. right. apply in_flat_map. exists i. split; [apply in_seq; lia|exact I].
Qed.
Print Assumptions C67_names.
Example C67_case : numbered "deputy_sun_" 12 = "deputy_sun_12"%string.
Proof. reflexivity. Qed.
