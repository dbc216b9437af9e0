(** Properties of the CWH examples: C42, C43, C44, C45, C48, C55, C58. *)
From Coq Require Import String Reals List Bool ZArith Lia Lra Psatz.
From Verif Require Import Prelude Vec ModelBase ModelController ModelSimplex ModelAsif ModelConstraint ModelCwh
  SpecConstraint SpecCwh ProofsVec ProofsConstraint ProofsCwh ProofsCwh2 ProofsCwh3 ExampleTools.
Import ListNotations.
Local Open Scope R_scope.

(** ** C42.  The relative velocity constraint bounds the true speed. *)
Theorem C42_speed_bound :
  forall v0 v1 d0 delta alpha kw x y z vx vy vz rest, 0 <= v1 -> 0 <= delta ->
  let c := rel_vel_3d v0 v1 d0 delta alpha kw in
  0 <= c_compute c (x :: y :: z :: vx :: vy :: vz :: rest) (c_params c) ->
  length3 vx vy vz <= v0 + v1 * (length3 x y z - d0) + v1 * sqrt delta + kw_bias kw.
Proof.
  intros v0 v1 d0 delta alpha kw x y z vx vy vz rest Hv Hd c H.
  unfold c, c_compute, rel_vel_3d, new_constraint, rel_vel_value, slice in H; simpl in H.
  pose proof (norm_delta_ge [vx; vy; vz] delta Hd) as B1. pose proof (norm_delta_le [x; y; z] delta Hd) as B2.
  rewrite norm3 in B1, B2. nra.
Qed.
Print Assumptions C42_speed_bound.

Theorem C42_planar_speed_bound :
  forall v0 v1 d0 delta alpha kw x y vx vy rest, 0 <= v1 -> 0 <= delta ->
  let c := rel_vel_2d v0 v1 d0 delta alpha kw in
  0 <= c_compute c (x :: y :: vx :: vy :: rest) (c_params c) ->
  length2 vx vy <= v0 + v1 * (length2 x y - d0) + v1 * sqrt delta + kw_bias kw.
Proof.
  intros v0 v1 d0 delta alpha kw x y vx vy rest Hv Hd c H.
  unfold c, c_compute, rel_vel_2d, new_constraint, rel_vel_value, slice in H; simpl in H.
  pose proof (norm_delta_ge [vx; vy] delta Hd) as B1. pose proof (norm_delta_le [x; y] delta Hd) as B2.
  rewrite norm2 in B1, B2. nra.
Qed.
Print Assumptions C42_planar_speed_bound.

(** With a bias at least as large as the smoothing error the constraint is conservative. *)
Theorem C42_conservative_with_margin :
  forall v0 v1 d0 delta alpha kw x y z vx vy vz rest, 0 <= v1 -> 0 <= delta ->
  v1 * sqrt delta <= - kw_bias kw ->
  let c := rel_vel_3d v0 v1 d0 delta alpha kw in
  0 <= c_compute c (x :: y :: z :: vx :: vy :: vz :: rest) (c_params c) ->
  length3 vx vy vz <= v0 + v1 * (length3 x y z - d0).
Proof.
  intros v0 v1 d0 delta alpha kw x y z vx vy vz rest Hv Hd Hm c H.
  pose proof (C42_speed_bound v0 v1 d0 delta alpha kw x y z vx vy vz rest Hv Hd H). lra.
Qed.
Print Assumptions C42_conservative_with_margin.

(** It does not refuse more than the smoothing requires. *)
Theorem C42_not_too_strict :
  forall v0 v1 d0 delta alpha kw x y z vx vy vz rest, 0 <= v1 -> 0 <= delta ->
  let c := rel_vel_3d v0 v1 d0 delta alpha kw in
  length3 vx vy vz + sqrt delta <= v0 + v1 * (length3 x y z - d0) + kw_bias kw ->
  0 <= c_compute c (x :: y :: z :: vx :: vy :: vz :: rest) (c_params c).
Proof.
  intros v0 v1 d0 delta alpha kw x y z vx vy vz rest Hv Hd c H.
  unfold c, c_compute, rel_vel_3d, new_constraint, rel_vel_value, slice; simpl.
  pose proof (norm_delta_le [vx; vy; vz] delta Hd) as B1. pose proof (norm_delta_ge [x; y; z] delta Hd) as B2.
  rewrite norm3 in B1, B2. nra.
Qed.
Print Assumptions C42_not_too_strict.

(** Without a bias some speeds above the limit are accepted, for every positive smoothing. *)
Theorem C42_no_margin_refuted :
  forall delta, 0 < delta -> exists v0 v1 s vx,
  let c := rel_vel_3d v0 v1 0 delta None kw_default in
  0 <= v1 /\ s = [0; 0; 0; vx; 0; 0] /\ 0 <= c_compute c s (c_params c) /\
  v0 + v1 * length3 0 0 0 < length3 vx 0 0.
Proof.
  intros delta Hd. exists 1, 2, [0; 0; 0; 1 + sqrt delta; 0; 0], (1 + sqrt delta).
  pose proof (sqrt_lt_R0 delta Hd) as Q. pose proof (sqrt_sqrt delta ltac:(lra)) as QQ.
  cbv zeta. split; [lra|split; [reflexivity|split]].
  - unfold c_compute, rel_vel_3d, new_constraint, rel_vel_value, slice, norm_with_delta, sumsq; simpl.
    replace (0 * 0 + (0 * 0 + (0 * 0 + 0)) + delta) with delta by ring.
    set (q := sqrt delta) in *.
    assert (sqrt ((1 + q) * (1 + q) + (0 * 0 + (0 * 0 + 0)) + delta) <= 1 + 2 * q); [|lra].
    rewrite <- (sqrt_square (1 + 2 * q)) by lra. apply sqrt_le_1_alt. nra.
  - unfold length3. replace (0 * 0 + 0 * 0 + 0 * 0) with 0 by ring. rewrite sqrt_0.
    replace ((1 + sqrt delta) * (1 + sqrt delta) + 0 * 0 + 0 * 0) with ((1 + sqrt delta) * (1 + sqrt delta)) by ring.
    rewrite sqrt_square by lra. lra.
Qed.
Print Assumptions C42_no_margin_refuted.

(** The docking modules' values (docking_3d.py 154, and m, n of zoo/cwh/defaults.py): the
    margin suffices, and a slow deputy 100 m away is accepted. *)
Example C42_case :
  2 * (1027 / 1000000) * sqrt (1 / 100000) <= - kw_bias (mkKw None (- (1 / 10000)) (- (1 / 100)) None true sub_default) /\
  let c := rel_vel_3d (2 / 10) (2 * (1027 / 1000000)) 0 (1 / 100000) None
             (mkKw None (- (1 / 10000)) (- (1 / 100)) None true sub_default) in
  0 <= c_compute c [100; 0; 0; 1 / 10; 0; 0] (c_params c).
Proof.
  assert (Q : sqrt (1 / 100000) <= 4 / 1000).
  { rewrite <- (sqrt_square (4 / 1000)) by lra. apply sqrt_le_1_alt. lra. }
  split; [simpl; lra|].
  apply C42_not_too_strict; [lra|lra|]. simpl. unfold length3.
  replace (1 / 10 * (1 / 10) + 0 * 0 + 0 * 0) with (1 / 10 * (1 / 10)) by ring.
  replace (100 * 100 + 0 * 0 + 0 * 0) with (100 * 100) by ring.
  rewrite !sqrt_square by lra. lra.
Qed.

(** ** C43.  Keep-out distances guarantee room to brake. *)

(** The distance reported for logging is negative exactly inside the radius. *)
Theorem C43_reported_distance :
  forall radius a_max alpha kw x y z vx vy vz rest,
  (0 <= c_phi (chief_collision radius a_max alpha kw) (x :: y :: z :: vx :: vy :: vz :: rest)
          (c_params (chief_collision radius a_max alpha kw)) <-> radius <= length3 x y z) /\
  (0 <= c_phi (max_distance radius a_max alpha kw) (x :: y :: z :: vx :: vy :: vz :: rest)
          (c_params (max_distance radius a_max alpha kw)) <-> length3 x y z <= radius).
Proof.
  intros. unfold chief_collision, max_distance, new_constraint, slice; simpl. rewrite norm3. lra.
Qed.
Print Assumptions C43_reported_distance.

(** Outside the radius with a non-negative value, a constant acceleration a_max in the
    direction away from the chief keeps the deputy outside for ever. *)
Theorem C43_chief_collision_braking :
  forall radius a_max alpha kw x y z vx vy vz rest, 0 < a_max -> 0 < length3 x y z -> radius <= length3 x y z ->
  let c := chief_collision radius a_max alpha kw in
  0 <= c_fun c (x :: y :: z :: vx :: vy :: vz :: rest) (c_params c) ->
  forall t, 0 <= t ->
  let d := length3 x y z in
  radius <= length3 (x + vx * t + a_max / 2 * (t * t) * (x / d)) (y + vy * t + a_max / 2 * (t * t) * (y / d))
                    (z + vz * t + a_max / 2 * (t * t) * (z / d)).
Proof.
  intros radius a_max alpha kw x y z vx vy vz rest Ha Hd HR c H t Ht d.
  apply brake_in_space; auto.
  unfold c, chief_collision, new_constraint, keep_out_value, slice in H; simpl in H. rewrite norm3 in H.
  destruct (Rleb_spec radius (length3 x y z)) as [_|N]; [|lra].
  replace (x * vx + y * vy + z * vz) with (x * vx + (y * vy + (z * vz + 0))) by ring. lra.
Qed.
Print Assumptions C43_chief_collision_braking.

(** More generally, whatever the path: as long as the distance is accelerated outwards by at
    least a_max, it does not fall below the radius. *)
Theorem C43_chief_collision_any_braking :
  forall radius a_max alpha kw x y z vx vy vz rest r r' r'' T, 0 < a_max -> 0 < length3 x y z ->
  radius <= length3 x y z ->
  let c := chief_collision radius a_max alpha kw in
  0 <= c_fun c (x :: y :: z :: vx :: vy :: vz :: rest) (c_params c) ->
  radial_motion r r' r'' T -> r 0 = length3 x y z -> r' 0 = (x * vx + y * vy + z * vz) / length3 x y z ->
  (forall t, 0 <= t <= T -> a_max <= r'' t) -> forall t, 0 <= t <= T -> radius <= r t.
Proof.
  intros radius a_max alpha kw x y z vx vy vz rest r r' r'' T Ha Hd HR c H M R0 R1 A t Ht.
  unfold c, chief_collision, new_constraint, keep_out_value, slice in H; simpl in H. rewrite norm3 in H.
  destruct (Rleb_spec radius (length3 x y z)) as [_|N]; [|lra].
  replace (x * vx + (y * vy + (z * vz + 0))) with (x * vx + y * vy + z * vz) in H by ring.
  rewrite <- R1, <- R0 in H.
  pose proof (radial_lower _ _ _ _ _ M A t Ht) as L.
  pose proof (room_to_brake (r 0) (r' 0) a_max radius t Ha ltac:(lra) H ltac:(lra)). lra.
Qed.
Print Assumptions C43_chief_collision_any_braking.

(** The value is not needlessly strict: from a negative one with purely radial motion the
    braking distance is too short. *)
Theorem C43_chief_collision_tight :
  forall radius a_max alpha kw d v rest, 0 < a_max -> 0 < d -> radius <= d ->
  let c := chief_collision radius a_max alpha kw in
  c_fun c (d :: 0 :: 0 :: v :: 0 :: 0 :: rest) (c_params c) < 0 ->
  exists t, 0 <= t /\ d + v * t + a_max / 2 * (t * t) < radius.
Proof.
  intros radius a_max alpha kw d v rest Ha Hd HR c H. apply no_room; auto.
  unfold c, chief_collision, new_constraint, keep_out_value, slice in H; simpl in H. rewrite norm3 in H.
  assert (E : length3 d 0 0 = d).
  { unfold length3. replace (d * d + 0 * 0 + 0 * 0) with (d * d) by ring. apply sqrt_square; lra. }
  rewrite E in H. destruct (Rleb_spec radius d) as [_|N]; [|lra].
  replace ((d * v + (0 * 0 + (0 * 0 + 0))) / d) with v in H by (field; lra). auto.
Qed.
Print Assumptions C43_chief_collision_tight.

(** Two deputies, each able to brake with a_max: the relative acceleration is 2 a_max. *)
Theorem C43_deputy_collision_braking :
  forall radius a_max alpha kw x y z vx vy vz mid x' y' z' vx' vy' vz' rest k, 0 < a_max ->
  length mid = (6 * k)%nat ->
  let d := length3 (x - x') (y - y') (z - z') in
  0 < d -> radius <= d ->
  let c := deputy_collision radius a_max (S k) alpha kw in
  0 <= c_fun c ((x :: y :: z :: vx :: vy :: vz :: mid) ++ x' :: y' :: z' :: vx' :: vy' :: vz' :: rest) (c_params c) ->
  forall t, 0 <= t ->
  let away a b := a_max / 2 * (t * t) * ((a - b) / d) in
  radius <= length3 ((x + vx * t + away x x') - (x' + vx' * t - away x x'))
                    ((y + vy * t + away y y') - (y' + vy' * t - away y y'))
                    ((z + vz * t + away z z') - (z' + vz' * t - away z z')).
Proof.
  intros radius a_max alpha kw x y z vx vy vz mid x' y' z' vx' vy' vz' rest k Ha Lm d Hd HR c H t Ht away.
  assert (Sk : skipn (S k * 6) ((x :: y :: z :: vx :: vy :: vz :: mid) ++ x' :: y' :: z' :: vx' :: vy' :: vz' :: rest)
               = x' :: y' :: z' :: vx' :: vy' :: vz' :: rest).
  { rewrite skipn_app, skipn_all2 by (simpl; lia). simpl length.
    replace (S k * 6 - S (S (S (S (S (S (length mid)))))))%nat with O by lia. reflexivity. }
  assert (Sk' : skipn (S k * 6 + 3) ((x :: y :: z :: vx :: vy :: vz :: mid) ++ x' :: y' :: z' :: vx' :: vy' :: vz' :: rest)
               = vx' :: vy' :: vz' :: rest).
  { rewrite skipn_app, skipn_all2 by (simpl; lia). simpl length.
    replace (S k * 6 + 3 - S (S (S (S (S (S (length mid)))))))%nat with 3%nat by lia. reflexivity. }
  assert (V : keep_out_value 4 [x - x'; y - y'; z - z'] [vx - vx'; vy - vy'; vz - vz'] (mkDist radius a_max)
              = c_fun c ((x :: y :: z :: vx :: vy :: vz :: mid) ++ x' :: y' :: z' :: vx' :: vy' :: vz' :: rest) (c_params c)).
  { unfold c, deputy_collision, new_constraint. cbn [c_fun c_params]. unfold slice.
    rewrite Sk, Sk'. replace (S k * 6 + 3 - S k * 6)%nat with 3%nat by lia.
    replace (S k * 6 + 6 - (S k * 6 + 3))%nat with 3%nat by lia. reflexivity. }
  rewrite <- V in H. unfold keep_out_value in H. cbn [dp_radius dp_amax] in H. rewrite norm3 in H. fold d in H.
  destruct (Rleb_spec radius d) as [_|N]; [|lra]. cbn [dot] in H.
  pose proof (brake_in_space (x - x') (y - y') (z - z') (vx - vx') (vy - vy') (vz - vz') (2 * a_max) radius t
                ltac:(lra) Hd HR) as B. fold d in B.
  assert (Hv : 0 <= sqrt (2 * (2 * a_max) * (d - radius)) +
                    ((x - x') * (vx - vx') + (y - y') * (vy - vy') + (z - z') * (vz - vz')) / d).
  { replace (2 * (2 * a_max)) with (4 * a_max) by ring.
    replace ((x - x') * (vx - vx') + (y - y') * (vy - vy') + (z - z') * (vz - vz'))
      with ((x - x') * (vx - vx') + ((y - y') * (vy - vy') + ((z - z') * (vz - vz') + 0))) by ring. lra. }
  specialize (B Hv Ht). eapply Rle_trans; [apply B|]. apply Req_le. unfold away.
  f_equal; unfold Rdiv; ring.
Qed.
Print Assumptions C43_deputy_collision_braking.

(** Inside the maximum distance with a non-negative value: as long as the distance is
    decelerated by at least a_max, it does not exceed r_max. *)
Theorem C43_max_distance_braking :
  forall r_max a_max alpha kw x y z vx vy vz rest r r' r'' T, 0 < a_max -> 0 < length3 x y z ->
  length3 x y z <= r_max ->
  let c := max_distance r_max a_max alpha kw in
  0 <= c_fun c (x :: y :: z :: vx :: vy :: vz :: rest) (c_params c) ->
  radial_motion r r' r'' T -> r 0 = length3 x y z -> r' 0 = (x * vx + y * vy + z * vz) / length3 x y z ->
  (forall t, 0 <= t <= T -> r'' t <= - a_max) -> forall t, 0 <= t <= T -> r t <= r_max.
Proof.
  intros r_max a_max alpha kw x y z vx vy vz rest r r' r'' T Ha Hd HR c H M R0 R1 A t Ht.
  unfold c, max_distance, new_constraint, max_distance_value, slice in H; simpl in H. rewrite norm3 in H.
  destruct (Rleb_spec (length3 x y z) r_max) as [_|N]; [|lra].
  replace (x * vx + (y * vy + (z * vz + 0))) with (x * vx + y * vy + z * vz) in H by ring.
  rewrite <- R1, <- R0 in H.
  assert (M' : radial_motion (fun t => - r t) (fun t => - r' t) (fun t => - r'' t) T).
  { intros s Hs. destruct (M s Hs). split; apply derivable_pt_lim_opp; auto. }
  pose proof (radial_lower _ _ _ _ a_max M' ltac:(intros s Hs; specialize (A s Hs); lra) t Ht) as L. simpl in L.
  pose proof (room_to_brake (- r 0) (- r' 0) a_max (- r_max) t Ha ltac:(lra)) as B.
  replace (- r 0 - - r_max) with (r_max - r 0) in B by ring.
  specialize (B ltac:(lra) ltac:(lra)). lra.
Qed.
Print Assumptions C43_max_distance_braking.

(** A deputy inside the keep-out radius, or beyond the maximum distance, is given a
    non-negative value if it moves back fast enough: the value alone does not imply the
    position constraint. *)
Theorem C43_violated_position_accepted_refuted :
  forall radius a_max alpha kw, 0 < radius -> 0 < a_max ->
  (exists x v, let c := chief_collision radius a_max alpha kw in
     0 < length3 x 0 0 < radius /\ 0 < c_fun c [x; 0; 0; v; 0; 0] (c_params c)) /\
  (exists x v, let c := max_distance radius a_max alpha kw in
     radius < length3 x 0 0 /\ 0 < c_fun c [x; 0; 0; v; 0; 0] (c_params c)).
Proof.
  intros radius a_max alpha kw HR Ha.
  assert (E : forall d, 0 <= d -> length3 d 0 0 = d).
  { intros d Hd. unfold length3. replace (d * d + 0 * 0 + 0 * 0) with (d * d) by ring. apply sqrt_square; auto. }
  split.
  - set (q := sqrt (2 * a_max * (- (radius / 2) + radius))). exists (radius / 2), (q + 1).
    cbv zeta. rewrite E by lra. split; [lra|].
    unfold chief_collision, new_constraint, keep_out_value, slice; simpl. rewrite norm3, E by lra.
    destruct (Rleb_spec radius (radius / 2)) as [N|_]; [lra|]. fold q.
    replace ((radius / 2 * (q + 1) + (0 * 0 + (0 * 0 + 0))) / (radius / 2)) with (q + 1) by (field; lra). lra.
  - set (q := sqrt (2 * a_max * (- radius + radius * 2))). exists (radius * 2), (- (q + 1)).
    cbv zeta. rewrite E by lra. split; [lra|].
    unfold max_distance, new_constraint, max_distance_value, slice; simpl. rewrite norm3, E by lra.
    destruct (Rleb_spec (radius * 2) radius) as [N|_]; [lra|]. fold q.
    replace ((radius * 2 * - (q + 1) + (0 * 0 + (0 * 0 + 0))) / (radius * 2)) with (- (q + 1)) by (field; lra). lra.
Qed.
Print Assumptions C43_violated_position_accepted_refuted.

(** Non-vacuity: 18 m from the chief, approaching with 2 m/s, radius 10 m, 1 m/s^2. *)
Example C43_case :
  let c := chief_collision 10 1 None kw_default in
  0 < length3 18 0 0 /\ 10 <= length3 18 0 0 /\ 0 <= c_fun c [18; 0; 0; -2; 0; 0] (c_params c).
Proof.
  assert (E : length3 18 0 0 = 18).
  { unfold length3. replace (18 * 18 + 0 * 0 + 0 * 0) with (18 * 18) by ring. apply sqrt_square; lra. }
  cbv zeta. rewrite E. split; [lra|split; [lra|]].
  unfold chief_collision, new_constraint, keep_out_value, slice; simpl. rewrite norm3, E.
  destruct (Rleb_spec 10 18) as [_|N]; [|lra].
  replace (2 * 1 * (18 - 10)) with (4 * 4) by ring. rewrite sqrt_square by lra. lra.
Qed.

(** ** C44.  The discrete matrices give the exact flow. *)

(** The continuous module's f and g are the equations of motion. *)
Theorem C44_continuous_model :
  forall n m sun_vel x y z vx vy vz rest ux uy uz,
  vadd (inspection_f n sun_vel (x :: y :: z :: vx :: vy :: vz :: rest))
       (mv (inspection_g m (x :: y :: z :: vx :: vy :: vz :: rest)) [ux; uy; uz]) =
  [vx; vy; vz; 3 * (n * n) * x + 2 * n * vy + ux / m; - (2 * n * vx) + uy / m; - (n * n * z) + uz / m;
   sun_vel; 0].
Proof.
  intros. unfold inspection_f, inspection_g, slice, cwh_a3, cwh_b3, mv, vadd, zeros.
  cbn [firstn skipn Nat.sub map map2 dot app repeat].
  do 8 (apply (f_equal2 (@cons R)); [unfold Rdiv; ring|]). reflexivity.
Qed.
Print Assumptions C44_continuous_model.

(** So are those of the docking modules, in the plane and in space, and there is no third mode. *)
Theorem C44_docking_model :
  forall n m,
  (exists A B, generate_cwh_matrices m n "2d" = Ok (A, B) /\
   forall x y vx vy ux uy,
   vadd (docking_f A [x; y; vx; vy]) (mv (docking_g B [x; y; vx; vy]) [ux; uy]) =
   [vx; vy; 3 * (n * n) * x + 2 * n * vy + ux / m; - (2 * n * vx) + uy / m]) /\
  (exists A B, generate_cwh_matrices m n "3d" = Ok (A, B) /\
   forall x y z vx vy vz ux uy uz,
   vadd (docking_f A [x; y; z; vx; vy; vz]) (mv (docking_g B [x; y; z; vx; vy; vz]) [ux; uy; uz]) =
   [vx; vy; vz; 3 * (n * n) * x + 2 * n * vy + ux / m; - (2 * n * vx) + uy / m; - (n * n * z) + uz / m]) /\
  (forall mode, mode <> "2d"%string -> mode <> "3d"%string -> generate_cwh_matrices m n mode = Err AssertionError).
Proof.
  intros n m. split; [|split].
  - eexists _, _. split; [reflexivity|]. intros. unfold docking_f, docking_g, cwh_a2, cwh_b2, mv, vadd. cbn [map map2 dot].
    do 4 (apply (f_equal2 (@cons R)); [unfold Rdiv; ring|]). reflexivity.
  - eexists _, _. split; [reflexivity|]. intros. unfold docking_f, docking_g, cwh_a3, cwh_b3, mv, vadd. cbn [map map2 dot].
    do 6 (apply (f_equal2 (@cons R)); [unfold Rdiv; ring|]). reflexivity.
  - intros mode H2 H3. unfold generate_cwh_matrices.
    destruct (String.eqb_spec mode "2d"); [contradiction|]. destruct (String.eqb_spec mode "3d"); [contradiction|]. reflexivity.
Qed.
Print Assumptions C44_docking_model.

(** The control matrices are rectangular: one row per state variable (six per deputy and the sun,
    in the single-deputy module the fuel too), one column per control. *)
Theorem C44_control_shape :
  forall m x num, (1 <= num)%nat ->
  (length (inspection_g m x) = 8%nat /\ Forall (fun row => length row = 3%nat) (inspection_g m x)) /\
  (length (deputies_g m num x) = (6 * num + 1)%nat /\ Forall (fun row => length row = 3%nat) (deputies_g m num x)).
Proof.
  intros m x num Hn. split; [split; [reflexivity|repeat constructor]|].
  assert (S : forall i, length (stack_b (cwh_b3 m) i) = (6 * (i + 1))%nat /\
    Forall (fun row => length row = 3%nat) (stack_b (cwh_b3 m) i)).
  { induction i as [|i [L F]]; [split; [reflexivity|repeat constructor]|]. cbn [stack_b]. split.
    - rewrite app_length, L, map_length. cbn [cwh_b3 length]. lia.
    - apply Forall_app. split; [exact F|]. cbn [cwh_b3 map]. repeat constructor. }
  destruct (S (num - 1)%nat) as [L F]. unfold deputies_g. split.
  - rewrite app_length, L. cbn [length]. lia.
  - apply Forall_app. split; [exact F|repeat constructor].
Qed.
Print Assumptions C44_control_shape.

(** Whatever solution of these equations starts in the given state: after [dt] (of either
    sign) it is where the discrete model says. *)
Theorem C44_exact_flow :
  forall n m sun_vel ux uy uz x y z vx vy vz rest dt, n <> 0 -> m <> 0 ->
  cwh_motion n m ux uy uz x y z vx vy vz ->
  firstn 6 (discrete_next n m sun_vel (x 0 :: y 0 :: z 0 :: vx 0 :: vy 0 :: vz 0 :: rest) dt [ux; uy; uz]) =
  [x dt; y dt; z dt; vx dt; vy dt; vz dt].
Proof.
  intros n m sun_vel ux uy uz x y z vx vy vz rest dt Hn Hm M.
  rewrite discrete_next_eq by auto. cbn [firstn].
  destruct (sol_start n m (x 0) (y 0) (z 0) (vx 0) (vy 0) (vz 0) ux uy uz Hn Hm) as (? & ? & ? & ? & ? & ?).
  destruct (cwh_unique n m ux uy uz _ _ _ _ _ _ _ _ _ _ _ _ Hn
              (sol_motion n m (x 0) (y 0) (z 0) (vx 0) (vy 0) (vz 0) ux uy uz Hn Hm) M) with (t := dt)
    as (E1 & E2 & E3 & E4 & E5 & E6); auto.
  rewrite E1, E2, E3, E4, E5, E6; reflexivity.
Qed.
Print Assumptions C44_exact_flow.

(** And there is such a solution from every state: the discrete model itself. *)
Theorem C44_solves_the_equations :
  forall n m sun_vel ux uy uz x y z vx vy vz rest, n <> 0 -> m <> 0 ->
  let at_ k t := nth k (discrete_next n m sun_vel (x :: y :: z :: vx :: vy :: vz :: rest) t [ux; uy; uz]) 0 in
  cwh_motion n m ux uy uz (at_ 0%nat) (at_ 1%nat) (at_ 2%nat) (at_ 3%nat) (at_ 4%nat) (at_ 5%nat) /\
  map (fun k => at_ k 0) [0; 1; 2; 3; 4; 5]%nat = [x; y; z; vx; vy; vz].
Proof.
  intros n m sun_vel ux uy uz x y z vx vy vz rest Hn Hm at_. split.
  - destruct (sol_motion n m x y z vx vy vz ux uy uz Hn Hm) as [A1 A2 A3 A4 A5 A6].
    split; intros t; unfold at_; rewrite ?discrete_next_eq by auto; cbn [nth].
    + eapply derive_ext; [|apply A1]. intros r; rewrite discrete_next_eq by auto; reflexivity.
    + eapply derive_ext; [|apply A2]. intros r; rewrite discrete_next_eq by auto; reflexivity.
    + eapply derive_ext; [|apply A3]. intros r; rewrite discrete_next_eq by auto; reflexivity.
    + eapply derive_ext; [|apply A4]. intros r; rewrite discrete_next_eq by auto; reflexivity.
    + eapply derive_ext; [|apply A5]. intros r; rewrite discrete_next_eq by auto; reflexivity.
    + eapply derive_ext; [|apply A6]. intros r; rewrite discrete_next_eq by auto; reflexivity.
  - unfold at_. cbn [map]. rewrite !discrete_next_eq by auto; cbn [nth].
    destruct (sol_start n m x y z vx vy vz ux uy uz Hn Hm) as (-> & -> & -> & -> & -> & ->); reflexivity.
Qed.
Print Assumptions C44_solves_the_equations.

(** Two steps are one longer step. *)
Theorem C44_steps_compose :
  forall n m sun_vel ux uy uz x y z vx vy vz rest rest' s t, n <> 0 -> m <> 0 ->
  let next dt st := discrete_next n m sun_vel st dt [ux; uy; uz] in
  firstn 6 (next t (firstn 6 (next s (x :: y :: z :: vx :: vy :: vz :: rest)) ++ rest')) =
  firstn 6 (next (s + t) (x :: y :: z :: vx :: vy :: vz :: rest)).
Proof.
  intros n m sun_vel ux uy uz x y z vx vy vz rest rest' s t Hn Hm next. unfold next.
  rewrite !(discrete_next_eq n m sun_vel x y z vx vy vz rest) by auto. cbn [firstn app].
  pose proof (sol_motion n m x y z vx vy vz ux uy uz Hn Hm) as M.
  pose proof (motion_shift _ _ _ _ _ _ _ _ _ _ _ s M) as M'.
  pose proof (C44_exact_flow n m sun_vel ux uy uz _ _ _ _ _ _ rest' t Hn Hm M') as E. cbv beta in E.
  rewrite Rplus_0_r in E. exact E.
Qed.
Print Assumptions C44_steps_compose.

Example C44_case : cwh_motion 1 2 0 0 0 (fun t => cos t) (fun t => -2 * sin t) (fun _ => 0)
  (fun t => - sin t) (fun t => -2 * cos t) (fun _ => 0).
Proof.
  assert (C : forall t, derivable_pt_lim (fun t => cos t) t (- sin t)) by apply derivable_pt_lim_cos.
  assert (S : forall t, derivable_pt_lim (fun t => sin t) t (cos t)) by apply derivable_pt_lim_sin.
  split; intros t.
  - apply C.
  - apply (derivable_pt_lim_scal (fun t => sin t)); auto.
  - apply derivable_pt_lim_const.
  - eapply derive_eq; [apply (derivable_pt_lim_opp (fun t => sin t)); auto|]. unfold Rdiv; ring.
  - eapply derive_eq; [apply (derivable_pt_lim_scal (fun t => cos t)); auto|]. unfold Rdiv; ring.
  - eapply derive_eq; [apply derivable_pt_lim_const|]. unfold Rdiv; ring.
Qed.

(** ** C45.  The passively-safe maneuver constraint looks along the free drift. *)
Theorem C45_psm_is_drift_distance :
  forall n m radius dt steps alpha kw x y z vx vy vz rest, n <> 0 -> (0 < steps)%nat ->
  cwh_motion n m 0 0 0 x y z vx vy vz ->
  let c := psm radius n dt steps alpha kw in
  let s := x 0 :: y 0 :: z 0 :: vx 0 :: vy 0 :: vz 0 :: rest in
  (0 <= c_fun c s (c_params c) <->
   forall k, (1 <= k <= steps)%nat -> radius <= length3 (x (INR k * dt)) (y (INR k * dt)) (z (INR k * dt))) /\
  psm_array n steps s (c_params c) =
  Ok (map (fun k => length3 (x (INR k * dt)) (y (INR k * dt)) (z (INR k * dt)) - radius) (seq 0 (steps + 1))).
Proof.
  intros n m radius dt steps alpha kw x y z vx vy vz rest Hn Hs M c s.
  assert (V : forall t, psm_future n s t radius = length3 (x t) (y t) (z t) - radius).
  { intros t. unfold psm_future.
    rewrite (drift_at n 0 s t (x 0) (y 0) (z 0) (vx 0) (vy 0) (vz 0) [] rest Hn eq_refl eq_refl).
    rewrite norm3. destruct (free_motion_drift n m _ _ _ _ _ _ t Hn M) as (<- & <- & <-); auto. }
  split.
  - unfold c, psm, new_constraint, psm_value. cbn [c_fun c_params psm_radius psm_dt].
    rewrite linspace_sampling, map_map by auto. rewrite vmin_ge.
    + split.
      * intros H k Hk. specialize (H (psm_future n s (INR k * dt) radius)).
        rewrite V in H. assert (0 <= length3 (x (INR k * dt)) (y (INR k * dt)) (z (INR k * dt)) - radius); [|lra].
        apply H. rewrite <- V. apply in_map_iff. exists k; split; auto. apply in_seq; lia.
      * intros H b Hb. apply in_map_iff in Hb. destruct Hb as (k & <- & Hk). apply in_seq in Hk.
        rewrite V. specialize (H k ltac:(lia)). lra.
    + intros E. destruct steps; [lia|discriminate].
  - unfold psm_array, c, psm, new_constraint. cbn [c_params psm_radius psm_dt].
    rewrite linspace_from_zero, map_map. f_equal. apply map_ext. intros k; apply V.
Qed.
Print Assumptions C45_psm_is_drift_distance.

(** Two drifting deputies: this one and deputy [k + 1]. *)
Theorem C45_deputy_psm_is_drift_distance :
  forall n m m' radius dt steps k alpha kw x y z vx vy vz x' y' z' vx' vy' vz' mid rest, n <> 0 -> (0 < steps)%nat ->
  cwh_motion n m 0 0 0 x y z vx vy vz -> cwh_motion n m' 0 0 0 x' y' z' vx' vy' vz' ->
  length mid = (6 * k)%nat ->
  let c := psm_deputy radius n dt steps (S k) alpha kw in
  let s := (x 0 :: y 0 :: z 0 :: vx 0 :: vy 0 :: vz 0 :: mid) ++ x' 0 :: y' 0 :: z' 0 :: vx' 0 :: vy' 0 :: vz' 0 :: rest in
  0 <= c_fun c s (c_params c) <->
  forall i, (1 <= i <= steps)%nat ->
  radius <= length3 (x (INR i * dt) - x' (INR i * dt)) (y (INR i * dt) - y' (INR i * dt)) (z (INR i * dt) - z' (INR i * dt)).
Proof.
  intros n m m' radius dt steps k alpha kw x y z vx vy vz x' y' z' vx' vy' vz' mid rest Hn Hs M M' Lm c s.
  assert (V : forall t, psm_deputy_future n (S k) s t radius = length3 (x t - x' t) (y t - y' t) (z t - z' t) - radius).
  { intros t. unfold psm_deputy_future.
    rewrite (drift_at n 0 s t (x 0) (y 0) (z 0) (vx 0) (vy 0) (vz 0) [] (mid ++ x' 0 :: y' 0 :: z' 0 :: vx' 0 :: vy' 0 :: vz' 0 :: rest) Hn eq_refl eq_refl).
    rewrite (drift_at n (Z.of_nat (S k * 6)) s t (x' 0) (y' 0) (z' 0) (vx' 0) (vy' 0) (vz' 0)
               (x 0 :: y 0 :: z 0 :: vx 0 :: vy 0 :: vz 0 :: mid) rest Hn eq_refl ltac:(simpl length; f_equal; lia)).
    unfold vsub; cbn [map2]. rewrite norm3.
    destruct (free_motion_drift n m _ _ _ _ _ _ t Hn M) as (<- & <- & <-).
    destruct (free_motion_drift n m' _ _ _ _ _ _ t Hn M') as (<- & <- & <-). auto. }
  unfold c, psm_deputy, new_constraint, psm_deputy_value. cbn [c_fun c_params psm_radius psm_dt].
  rewrite linspace_sampling, map_map by auto. rewrite vmin_ge.
  - split.
    + intros H i Hi. specialize (H (psm_deputy_future n (S k) s (INR i * dt) radius)).
      rewrite V in H.
      assert (0 <= length3 (x (INR i * dt) - x' (INR i * dt)) (y (INR i * dt) - y' (INR i * dt))
                     (z (INR i * dt) - z' (INR i * dt)) - radius); [|lra].
      apply H. rewrite <- V. apply in_map_iff. exists i; split; auto. apply in_seq; lia.
    + intros H b Hb. apply in_map_iff in Hb. destruct Hb as (i & <- & Hi). apply in_seq in Hi.
      rewrite V. specialize (H i ltac:(lia)). lra.
  - intros E. destruct steps; [lia|discriminate].
Qed.
Print Assumptions C45_deputy_psm_is_drift_distance.

(** The helper that gives the whole array works for the chief, and fails for deputies whatever
    the arguments. *)
Theorem C45_deputy_array_refuted :
  forall n steps k s p, exists msg, psm_deputy_array n steps k s p = Err (ValueError msg).
Proof. intros; eexists; reflexivity. Qed.
Print Assumptions C45_deputy_array_refuted.

(** ** C48.  Stacked deputies. *)
Theorem C48_each_deputy_separately :
  forall n m sun_vel ds sun u, ds <> [] -> Forall (fun d => length d = 6%nat) ds ->
  deputies_f n sun_vel (length ds) (concat ds ++ [sun]) = concat (map (cwh_rate n) ds) ++ [sun_vel] /\
  mv (deputies_g m (length ds) (concat ds ++ [sun])) u =
    [0; 0; 0; dot [1 / m; 0; 0] u; dot [0; 1 / m; 0] u; dot [0; 0; 1 / m] u] ++ zeros (6 * (length ds - 1) + 1).
Proof.
  intros n m sun_vel ds sun u N F.
  assert (L : (0 < length ds)%nat) by (destruct ds; [congruence|simpl; lia]).
  assert (LC : length (concat ds) = (length ds * 6)%nat).
  { clear - F. induction F; simpl; auto. rewrite app_length, H, IHF; lia. }
  split.
  - unfold deputies_f. rewrite slice_all by auto.
    rewrite (stack_a_mv _ (cwh_a3_shape n)) by (auto; lia).
    do 2 f_equal. apply map_ext_in. intros d Hd. apply cwh_a3_rate. rewrite Forall_forall in F; auto.
  - unfold deputies_g. rewrite mv_app_rows, stack_b_mv, <- app_assoc.
    assert (E : mv (cwh_b3 m) u = [0; 0; 0; dot [1 / m; 0; 0] u; dot [0; 1 / m; 0] u; dot [0; 0; 1 / m] u]).
    { unfold cwh_b3, mv; cbn [map]. change [0; 0; 0] with (zeros 3). rewrite dot_zeros_l; reflexivity. }
    rewrite E. f_equal. change (length (cwh_b3 m)) with 6%nat.
    assert (E2 : mv [zeros 3] u = zeros 1) by (unfold mv; cbn [map]; rewrite dot_zeros_l; reflexivity).
    rewrite E2. unfold zeros. rewrite <- repeat_app. f_equal. lia.
Qed.
Print Assumptions C48_each_deputy_separately.

Example C48_case : let ds := [[1; 0; 0; 0; 0; 0]; [0; 0; 2; 0; 0; 0]] in
  ds <> [] /\ Forall (fun d => length d = 6%nat) ds.
Proof. split; [discriminate|]. constructor; [reflexivity|constructor; [reflexivity|constructor]]. Qed.

(** ** C55.  The stopping controllers look only at the velocity.  [dim] is the number of position
    entries: 2 for the planar controller, 3 for the spatial one. *)
Theorem C55_velocity_feedback :
  forall dim K, exists L,
  length L = length K /\
  forall p v dt cs, length p = dim ->
  lqr_stop dim K (p ++ v) dt cs = GPair (vneg (mv L v)) CSNone.
Proof.
  intros dim K. exists (map (skipn dim) K). split; [apply map_length|].
  intros p v dt cs <-. rewrite lqr_stop_eq. f_equal. unfold mv, vneg. rewrite !map_map. reflexivity.
Qed.
Print Assumptions C55_velocity_feedback.

Theorem C55_position_independent_and_zero_at_rest :
  forall dim K p p' v dt dt' cs cs', length p = dim -> length p' = dim ->
  lqr_stop dim K (p ++ v) dt cs = lqr_stop dim K (p' ++ v) dt' cs' /\
  (Forall (fun a => a = 0) v -> lqr_stop dim K (p ++ v) dt cs = GPair (zeros (length K)) CSNone).
Proof.
  intros dim K p p' v dt dt' cs cs' H H'.
  destruct (C55_velocity_feedback dim K) as (L & EL & E). rewrite !E by auto. split; auto.
  intros F. f_equal. unfold vneg, mv. rewrite map_map.
  assert (Z : v = zeros (length v)).
  { clear - F. unfold zeros. induction F; simpl; auto. subst x. f_equal; auto. }
  rewrite <- EL. unfold zeros. clear - Z. induction L as [|r L IH]; simpl; auto.
  apply (f_equal2 (@cons R)); auto. rewrite Z, dot_zeros_r; ring.
Qed.
Print Assumptions C55_position_independent_and_zero_at_rest.

Example C55_case : lqr_stop 2 [[1; 2; 3; 4]] [7; 8; 1; 1] 1 CSNone = GPair [- 7] CSNone.
Proof. unfold lqr_stop, mv, vsub, vneg; simpl. do 2 f_equal. ring. Qed.

(** ** C58.  The braking acceleration of the inspection modules is available: full thrust away
    from the chief is within the control bounds and, by the CWH equations, gives the distance
    at least that acceleration, within the maximum distance and speed. *)
Theorem C58_keep_out_acceleration_available :
  forall u_max m n r_max vel_limit v0 v1 radius alpha kw rest T ux uy uz x y z vx vy vz,
  0 < m -> 0 <= n -> 0 <= u_max -> 0 < radius ->
  let a_max := inspection_a_max u_max m n r_max vel_limit v0 v1 in
  let d t := length3 (x t) (y t) (z t) in
  0 < a_max ->
  cwh_forced n m T ux uy uz x y z vx vy vz ->
  (forall t, 0 <= t <= T -> 0 < d t ->
     ux t = u_max * (x t / d t) /\ uy t = u_max * (y t / d t) /\ uz t = u_max * (z t / d t)) ->
  (forall t, 0 <= t <= T -> d t <= r_max /\
     length3 (vx t) (vy t) (vz t) <= vel_limit /\ length3 (vx t) (vy t) (vz t) <= v0 + v1 * r_max) ->
  radius <= d 0 ->
  let c := chief_collision radius a_max alpha kw in
  0 <= c_fun c (x 0 :: y 0 :: z 0 :: vx 0 :: vy 0 :: vz 0 :: rest) (c_params c) ->
  forall t, 0 <= t <= T ->
  radius <= d t /\ Rabs (ux t) <= u_max /\ Rabs (uy t) <= u_max /\ Rabs (uz t) <= u_max.
Proof.
  intros u_max m n r_max vel_limit v0 v1 radius alpha kw rest T ux uy uz x y z vx vy vz
    Hm Hn Hu HR a_max d Ha M U B H0 c Hc.
  destruct M as [Mx My Mz Mvx Mvy Mvz].
  assert (Far : forall t, 0 <= t <= T -> radius * radius <= x t * x t + y t * y t + z t * z t).
  { apply (never_small (fun t => x t * x t + y t * y t + z t * z t)); [nra| | |].
    - rewrite <- length3_sqr. fold (d 0). nra.
    - intros t Ht. eapply square_continuous; eauto.
    - intros S HS Pos t Ht.
      assert (PosD : forall s, 0 <= s <= S -> 0 < d s).
      { intros s Hs. apply sqrt_lt_R0. apply Pos; auto. }
      assert (L : radius <= d t).
      { pose proof (radial_is_motion S x y z vx vy vz
                   (fun t => 3 * (n * n) * x t + 2 * n * vy t + ux t / m) (fun t => - (2 * n * vx t) + uy t / m)
                   (fun t => - (n * n * z t) + uz t / m)
                   ltac:(intros; apply Mx; lra) ltac:(intros; apply My; lra) ltac:(intros; apply Mz; lra)
                   ltac:(intros; apply Mvx; lra) ltac:(intros; apply Mvy; lra) ltac:(intros; apply Mvz; lra) PosD) as RM.
        refine (C43_chief_collision_any_braking radius a_max alpha kw (x 0) (y 0) (z 0) (vx 0) (vy 0) (vz 0) rest
                  _ _ _ S Ha (PosD 0 ltac:(lra)) H0 Hc RM eq_refl eq_refl _ t Ht).
        intros s Hs. cbv beta. specialize (PosD s Hs). destruct (U s ltac:(lra) PosD) as (-> & -> & ->).
          destruct (B s ltac:(lra)) as (B1 & B2 & B3).
          pose proof (length3_sqr (x s) (y s) (z s)) as E. fold (d s) in E |- *.
          pose proof (length3_sqr (vx s) (vy s) (vz s)) as EV.
          pose proof (length3_pos (vx s) (vy s) (vz s)) as PV.
          assert (BV : length3 (vx s) (vy s) (vz s) <= Rmin vel_limit (v0 + v1 * r_max)) by (apply Rmin_glb; auto).
          pose proof (cauchy3 (x s) (y s) (z s) (vx s) (vy s) (vz s)) as C1.
          pose proof (cauchy3_low (x s) (y s) (z s) (vx s) (vy s) (vz s)) as C2.
          assert (C3 : - (d s * length3 (vx s) (vy s) (vz s)) <= x s * vy s - y s * vx s).
          { pose proof (cauchy3_low (x s) (y s) 0 (vy s) (- vx s) 0) as C.
            assert (G : length3 (x s) (y s) 0 * length3 (vy s) (- vx s) 0 <= d s * length3 (vx s) (vy s) (vz s)).
            { apply Rmult_le_compat; try apply length3_pos; unfold d, length3; apply sqrt_le_1_alt.
              - pose proof (Rle_0_sqr (z s)) as P; unfold Rsqr in P. nra.
              - pose proof (Rle_0_sqr (vz s)) as P; unfold Rsqr in P. nra. }
            lra. }
          fold (d s) in C1, C2.
          unfold a_max, inspection_a_max.
          set (vmax := Rmin vel_limit (v0 + v1 * r_max)) in *. clearbody vmax.
          set (D := d s) in *. set (V := length3 (vx s) (vy s) (vz s)) in *.
          set (X := x s) in *; set (Y := y s) in *; set (Z := z s) in *.
          set (VX := vx s) in *; set (VY := vy s) in *; set (VZ := vz s) in *.
          clearbody D V X Y Z VX VY VZ.
          set (W := X * VX + Y * VY + Z * VZ) in *.
          assert (Split :
            (VX * VX + VY * VY + VZ * VZ +
              (X * (3 * (n * n) * X + 2 * n * VY + u_max * (X / D) / m) + Y * (- (2 * n * VX) + u_max * (Y / D) / m)
               + Z * (- (n * n * Z) + u_max * (Z / D) / m))) / D - W * W / (D * D * D)
            = (V * V - (W / D) * (W / D)) / D + (3 * (n * n) * (X * X) - n * n * (Z * Z)) / D
              + 2 * n * ((X * VY - Y * VX) / D) + u_max / m).
          { rewrite EV. transitivity ((VX * VX + VY * VY + VZ * VZ - W / D * (W / D)) / D
              + (3 * (n * n) * (X * X) - n * n * (Z * Z)) / D + 2 * n * ((X * VY - Y * VX) / D)
              + u_max / m * ((X * X + Y * Y + Z * Z) / (D * D))); [field; lra|]. rewrite <- E. field; lra. }
          rewrite Split.
          assert (I : 0 < / D) by (apply Rinv_0_lt_compat; auto).
          assert (T1 : 0 <= (V * V - W / D * (W / D)) / D).
          { apply Rmult_le_pos; [|lra].
            assert (WD : - V <= W / D <= V).
            { split; apply (Rmult_le_reg_r D); auto; replace (W / D * D) with W by (field; lra); lra. }
            nra. }
          assert (T2 : - (3 * n ^ 2 * r_max) <= (3 * (n * n) * (X * X) - n * n * (Z * Z)) / D).
          { apply (Rmult_le_reg_r D); auto.
            replace ((3 * (n * n) * (X * X) - n * n * (Z * Z)) / D * D) with (3 * (n * n) * (X * X) - n * n * (Z * Z)) by (field; lra).
            pose proof (Rle_0_sqr X) as PX; pose proof (Rle_0_sqr Y) as PY; pose proof (Rle_0_sqr Z) as PZ; unfold Rsqr in *.
            assert (ZZ : Z * Z <= D * r_max) by nra.
            assert (NN : 0 <= n * n) by nra.
            assert (n * n * (Z * Z) <= n * n * (D * r_max)) by (apply Rmult_le_compat_l; auto).
            assert (0 <= n * n * (X * X)) by (apply Rmult_le_pos; auto).
            assert (0 <= D * r_max) by lra.
            assert (0 <= n * n * (D * r_max)) by (apply Rmult_le_pos; auto).
            replace (- (3 * n ^ 2 * r_max) * D) with (- (3 * (n * n * (D * r_max)))) by ring. lra. }
          assert (T3 : - (2 * n * vmax) <= 2 * n * ((X * VY - Y * VX) / D)).
          { assert (- vmax <= (X * VY - Y * VX) / D).
            { apply (Rmult_le_reg_r D); auto.
              replace ((X * VY - Y * VX) / D * D) with (X * VY - Y * VX) by (field; lra). nra. }
            nra. }
          lra. }
      rewrite <- length3_sqr. fold (d t). apply Rmult_le_compat; lra. }
  intros t Ht.
  assert (L : radius <= d t).
  { apply le_of_sqr; [apply length3_pos|]. unfold d; rewrite length3_sqr; auto. }
  assert (Pd : 0 < d t) by lra. destruct (U t Ht Pd) as (-> & -> & ->).
  assert (Unit : forall a, a * a <= d t * d t -> Rabs (u_max * (a / d t)) <= u_max).
  { intros a Haa. rewrite Rabs_mult, (Rabs_right u_max) by lra.
    assert (Rabs (a / d t) <= 1); [|pose proof (Rabs_pos (a / d t)); nra].
    apply Rabs_le. split; apply (Rmult_le_reg_r (d t)); auto;
      replace (a / d t * d t) with a by (field; lra).
    - assert (- a <= d t) by (apply le_of_sqr; nra). lra.
    - assert (a <= d t) by (apply le_of_sqr; nra). lra. }
  pose proof (length3_sqr (x t) (y t) (z t)) as E. fold (d t) in E.
  pose proof (Rle_0_sqr (x t)) as PX; pose proof (Rle_0_sqr (y t)) as PY; pose proof (Rle_0_sqr (z t)) as PZ; unfold Rsqr in *.
  split; [auto|split; [|split]]; apply Unit; lra.
Qed.
Print Assumptions C58_keep_out_acceleration_available.

Theorem C58_radial_acceleration :
  forall n m T ux uy uz x y z vx vy vz, cwh_forced n m T ux uy uz x y z vx vy vz ->
  let d t := length3 (x t) (y t) (z t) in
  (forall t, 0 <= t <= T -> 0 < d t) ->
  radial_motion d (fun t => (x t * vx t + y t * vy t + z t * vz t) / d t)
    (fun t => radial_acceleration (x t) (y t) (z t) (vx t) (vy t) (vz t)
       (3 * (n * n) * x t + 2 * n * vy t + ux t / m) (- (2 * n * vx t) + uy t / m) (- (n * n * z t) + uz t / m)) T.
Proof.
  intros n m T ux uy uz x y z vx vy vz [Mx My Mz Mvx Mvy Mvz] d P.
  exact (radial_is_motion T x y z vx vy vz _ _ _ Mx My Mz Mvx Mvy Mvz P).
Qed.
Print Assumptions C58_radial_acceleration.

(** For the maximum distance the centrifugal term has been left out: at the maximum distance on
    the x axis, moving across with the maximum speed, no thrust within the bounds gives that
    deceleration. *)
Theorem C58_max_distance_deceleration_refuted :
  forall u_max m n r_max vel_limit v0 v1, 0 < m -> 0 < r_max -> 0 < vel_limit -> 0 < v0 + v1 * r_max ->
  let a_max := inspection_a_max u_max m n r_max vel_limit v0 v1 in
  exists vy, length3 r_max 0 0 <= r_max /\ length3 0 vy 0 <= vel_limit /\ length3 0 vy 0 <= v0 + v1 * r_max /\
  forall ux uy uz, Rabs ux <= u_max ->
  - a_max < radial_acceleration r_max 0 0 0 vy 0
              (3 * (n * n) * r_max + 2 * n * vy + ux / m) (- (2 * n * 0) + uy / m) (- (n * n * 0) + uz / m).
Proof.
  intros u_max m n r_max vel_limit v0 v1 Hm Hr Hl Hv a_max.
  exists (Rmin vel_limit (v0 + v1 * r_max)).
  unfold a_max, inspection_a_max. clear a_max.
  pose proof (Rmin_l vel_limit (v0 + v1 * r_max)) as L1. pose proof (Rmin_r vel_limit (v0 + v1 * r_max)) as L2.
  assert (P : 0 < Rmin vel_limit (v0 + v1 * r_max)) by (apply Rmin_glb_lt; auto).
  set (vm := Rmin _ _) in *. clearbody vm.
  assert (E1 : length3 r_max 0 0 = r_max).
  { unfold length3. replace (r_max * r_max + 0 * 0 + 0 * 0) with (r_max * r_max) by ring. apply sqrt_square; lra. }
  assert (E2 : length3 0 vm 0 = vm).
  { unfold length3. replace (0 * 0 + vm * vm + 0 * 0) with (vm * vm) by ring. apply sqrt_square; lra. }
  rewrite E1, E2. split; [lra|split; [lra|split; [lra|]]].
  intros ux uy uz Hu. unfold radial_acceleration. rewrite E1.
  match goal with |- _ < ?g => replace g with (vm * vm / r_max + 3 * n ^ 2 * r_max + 2 * n * vm + ux / m) by (field; lra) end.
  assert (0 < vm * vm / r_max) by (apply Rdiv_lt_0_compat; nra).
  assert (- (u_max / m) <= ux / m).
  { unfold Rdiv. rewrite <- Ropp_mult_distr_l_reverse.
    apply Rmult_le_compat_r; [apply Rlt_le, Rinv_0_lt_compat; auto|].
    pose proof (Rabs_def2 ux (u_max + 1) ltac:(lra)). destruct (Rcase_abs ux) as [N|N].
    - rewrite Rabs_left in Hu by lra. lra.
    - pose proof (Rabs_pos ux). lra. }
  lra.
Qed.
Print Assumptions C58_max_distance_deceleration_refuted.

(** Non-vacuity of C58_keep_out_acceleration_available: on the z axis, n = m = 1, thrust 10. *)
Lemma cos_ge t : 0 <= t -> 1 - t * t / 2 <= cos t.
Proof.
  intros Ht. assert (E : cos t = 1 - 2 * sin (t / 2) * sin (t / 2))
    by (rewrite <- cos_2a_sin; f_equal; field). rewrite E.
  assert (sin (t / 2) * sin (t / 2) <= t / 2 * (t / 2)); [|lra].
  assert (A : - (t / 2) <= sin (t / 2) <= t / 2).
  { destruct (Req_dec t 0) as [->|N]; [replace (0 / 2) with 0 by field; rewrite sin_0; lra|].
    pose proof (sin_lt_x (t / 2) ltac:(lra)). pose proof (SIN_bound (t / 2)).
    destruct (Rle_lt_dec 1 (t / 2)); [lra|].
    assert (0 <= sin (t / 2)); [|lra]. pose proof PI2_1. apply sin_ge_0; lra. }
  nra.
Qed.
Example C58_case :
  let z := sol_z 1 1 1 (- (1 / 2)) 10 in let vz := sol_vz 1 1 1 (- (1 / 2)) 10 in
  let a_max := inspection_a_max 10 1 1 2 1 1 1 in
  let c := chief_collision (1 / 2) a_max None kw_default in
  0 < a_max /\
  cwh_forced 1 1 (1 / 10) (fun _ => 0) (fun _ => 0) (fun _ => 10) (fun _ => 0) (fun _ => 0) z (fun _ => 0) (fun _ => 0) vz /\
  (forall t, 0 <= t <= 1 / 10 -> 0 < length3 0 0 (z t) ->
     0 = 10 * (0 / length3 0 0 (z t)) /\ 10 = 10 * (z t / length3 0 0 (z t))) /\
  (forall t, 0 <= t <= 1 / 10 -> length3 0 0 (z t) <= 2 /\ length3 0 0 (vz t) <= 1 /\ length3 0 0 (vz t) <= 1 + 1 * 2) /\
  1 / 2 <= length3 0 0 (z 0) /\ 0 <= c_fun c [0; 0; z 0; 0; 0; vz 0] (c_params c).
Proof.
  intros z vz a_max c.
  assert (A : a_max = 2).
  { unfold a_max, inspection_a_max. rewrite Rmin_left by lra. lra. }
  assert (E : forall a, length3 0 0 a = Rabs a).
  { intros a. unfold length3. replace (0 * 0 + 0 * 0 + a * a) with (Rsqr a) by (unfold Rsqr; ring). apply sqrt_Rsqr_abs. }
  assert (B : forall t, 0 <= t <= 1 / 10 -> 1 / 2 <= z t <= 2 /\ - 1 <= vz t <= 1).
  { intros t Ht. unfold z, vz, sol_z, sol_vz. rewrite !Rmult_1_l.
    pose proof (cos_ge t ltac:(lra)). pose proof (COS_bound t).
    assert (S : 0 <= sin t <= t).
    { destruct (Req_dec t 0) as [->|N]; [rewrite sin_0; lra|].
      pose proof (sin_lt_x t ltac:(lra)). split; [|lra]. pose proof PI2_1. apply sin_ge_0; lra. }
    assert (t * t / 2 <= 1 / 200) by nra.
    split; split; lra. }
  split; [lra|split; [|split; [|split; [|split]]]].
  - destruct (sol_motion 1 1 0 0 1 0 0 (- (1 / 2)) 0 0 10 ltac:(lra) ltac:(lra)) as [M1 M2 M3 M4 M5 M6].
    split; intros t _; cbv beta.
    + apply derivable_pt_lim_const.
    + apply derivable_pt_lim_const.
    + apply M3.
    + eapply derive_eq; [apply derivable_pt_lim_const|lra].
    + eapply derive_eq; [apply derivable_pt_lim_const|lra].
    + apply M6.
  - intros t Ht Hp. destruct (B t Ht) as [Bz _]. rewrite E, Rabs_right by lra. split; field; lra.
  - intros t Ht. destruct (B t Ht) as [Bz Bv]. rewrite !E.
    split; [rewrite Rabs_right; lra|split; apply Rabs_le; lra].
  - destruct (B 0 ltac:(lra)) as [Bz _]. rewrite E, Rabs_right by lra. lra.
  - assert (Z0 : z 0 = 1) by (unfold z, sol_z; rewrite Rmult_0_r, cos_0, sin_0; field).
    assert (V0 : vz 0 = - (1 / 2)) by (unfold vz, sol_vz; rewrite Rmult_0_r, cos_0, sin_0; field).
    rewrite Z0, V0. unfold c, chief_collision, new_constraint, keep_out_value, slice; simpl. rewrite norm3, E, A.
    rewrite Rabs_right by lra. destruct (Rleb_spec (1 / 2) 1) as [_|N]; [|lra].
    assert (1 <= sqrt (2 * 2 * (1 - 1 / 2))) by (rewrite <- sqrt_1 at 1; apply sqrt_le_1_alt; lra). lra.
Qed.
