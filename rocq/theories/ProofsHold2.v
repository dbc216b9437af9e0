(** One step of the docking stop controllers with their command held. *)
From Coq Require Import String Reals List Bool ZArith Lia Lra.
From Verif Require Import Prelude Vec ModelBase ModelController ModelAsif ModelConstraint ModelCwh ModelZoo ModelDock ModelLqr ModelSimplex ModelSwitch
  SpecCore SpecConstraint SpecCwh SpecConic SpecZoo SpecDock SpecLqr SpecHistory SpecSimplex SpecSwitch
  ProofsBase ProofsVec ProofsConstraint ProofsCwh ProofsCwh2 ProofsCwh3 ProofsDock ProofsDock2 ProofsLqr ProofsStop ProofsStop2 ProofsStop3 ProofsUnique ProofsStop4 ProofsHold
  PropertiesDock PropertiesLqr PropertiesStop.
Import ListNotations.
Local Open Scope R_scope.

Lemma boxed_cut u w : boxed docking_bounds u w -> w = map cut u.
Proof.
  intros B. apply (clip_iff_boxed docking_bounds u w (conj I I)) in B. rewrite cut_clip in B. congruence.
Qed.

Lemma spatial_step care n gen dt T x y z vx vy vz ub w cs cs' :
  0 <= n <= 105 / 100000 -> 0 <= T <= 1 ->
  riccati 6 (motion3 n) (thrust3_t 12) (diagonal 6 (1 / 20)) 1000
    (care (motion3 n) (thrust3 12) (diagonal 6 (1 / 20)) (diagonal 3 1000)) ->
  stop_controller care 12 n 3 = Ok gen ->
  gen [x 0; y 0; z 0; vx 0; vy 0; vz 0] dt cs = GPair ub cs' -> boxed docking_bounds ub w ->
  cwh_forced n 12 T (fun _ => nth 0 w 0) (fun _ => nth 1 w 0) (fun _ => nth 2 w 0) x y z vx vy vz ->
  (forall t, 0 <= t <= T -> plen (x t, y t, z t) <= 15000) ->
  docking_safe (dock_default_3d n) (x 0, y 0, z 0) (vx 0, vy 0, vz 0) ->
  forall t, 0 <= t <= T -> docking_safe (dock_default_3d n) (x t, y t, z t) (vx t, vy t, vz t).
Proof.
  intros Hn HT Ric Gen Call Box M Far Start t Ht.
  assert (Lim : 0 <= d_x_limit (dock_default_3d n) /\ 0 <= d_y_limit (dock_default_3d n) /\ 0 <= d_z_limit (dock_default_3d n)) by (cbn; lra).
  unfold stop_controller in Gen. cbn [Nat.eqb generate_cwh_matrices String.eqb Ascii.eqb Bool.eqb rbind fst snd] in Gen.
  rewrite cost3, weight3 in Gen. change (cwh_a3 n) with (motion3 n) in Gen. change (cwh_b3 12) with (thrust3 12) in Gen.
  set (P := care _ _ _ _) in *. injection Gen as <-.
  destruct (spatial_velocity_gain n P Hn Ric) as (k11 & k12 & k22 & k33 & Kv & K1 & K2 & K3 & K4).
  assert (G : lqr_stop 3 (stop_gain 3 (thrust3 12) P) [x 0; y 0; z 0; vx 0; vy 0; vz 0] dt cs
      = GPair (vneg (mv (stop_gain 3 (thrust3 12) P) [0; 0; 0; vx 0; vy 0; vz 0])) CSNone).
  { apply (stop_command 3 (stop_gain 3 (thrust3 12) P) [x 0; y 0; z 0] [vx 0; vy 0; vz 0]); [reflexivity|].
    apply (mm_rows 6), (mm_rows 6), Ric. }
  rewrite G, Kv in Call. injection Call as <- <-. apply boxed_cut in Box. subst w. unfold vneg in M. cbn [map nth] in M.
  rewrite !cut_opp in M.
  replace (k11 * vx 0 + k12 * vy 0) with (k11 * vx 0 + (k12 * vy 0 + 0 * vz 0)) in M by ring.
  replace (k12 * vx 0 + k22 * vy 0) with (k22 * vy 0 + (k12 * vx 0 + 0 * vz 0)) in M by ring.
  replace (k33 * vz 0) with (k33 * vz 0 + (0 * vx 0 + 0 * vy 0)) in M by ring.
  destruct Start as [Sp Lm] eqn:ES. unfold components_within in Lm. cbn [fst snd d_x_limit d_y_limit d_z_limit dock_default_3d] in Lm.
  assert (Vx : - 10 <= vx 0 <= 10) by (pose proof (ba (vx 0)); lra).
  assert (Vy : - 10 <= vy 0 <= 10) by (pose proof (ba (vy 0)); lra).
  assert (Vz : - 10 <= vz 0 <= 10) by (pose proof (ba (vz 0)); lra).
  assert (Fx : forall r, 0 <= r <= T -> - 15000 <= x r <= 15000) by (intros r Hr; apply (within_length _ _ _ (Far r Hr)); cbn; auto).
  assert (Fz : forall r, 0 <= r <= T -> - 15000 <= z r <= 15000) by (intros r Hr; apply (within_length _ _ _ (Far r Hr)); cbn; auto).
  apply (safe_values_3 (dock_default_3d n) (x t) (y t) (z t) (vx t) (vy t) (vz t) Lim).
  set (ux := - cut (k11 * vx 0 + (k12 * vy 0 + 0 * vz 0))) in *.
  set (uy := - cut (k22 * vy 0 + (k12 * vx 0 + 0 * vz 0))) in *.
  set (uz := - cut (k33 * vz 0 + (0 * vx 0 + 0 * vy 0))) in *.
  refine (values_kept (docking_constraints_3d (dock_default_3d n)) T (1 / 1000) (fun t => [x t; y t; z t; vx t; vy t; vz t])
    (fun t => [vx t; vy t; vz t; 3 * (n * n) * x t + 2 * n * vy t + ux / 12; - (2 * n * vx t) + uy / 12; - (n * n * z t) + uz / 12])
    ltac:(lra) _ _ _ t Ht).
  - intros k e I r Hr.
    pose proof (moves_3 (dock_default_3d n) 12 docking_bounds 0 true (fun _ _ _ _ => Err SolverError) T x y z vx vy vz _ _ _ M k e I r Hr) as D.
    cbv beta in D. rewrite dynamics_3 in D. exact D.
  - intros r Hr _ k e I Neg.
    rewrite docking_3d_entries in I. cbn [In] in I. unfold value in Neg. entries_of I.
    + rewrite rv3_value in Neg. rewrite rv3_rate.
      unfold speed_value in Neg. cbn [d_v0 d_v1_coef d_n d_v0_distance dock_default_3d] in Neg |- *. rewrite Rminus_0_r in *.
      apply (speed_held n (4 * n) T k11 k12 0 k22 0 k33 x y z vx vy vz); auto; lra.
    + rewrite (lim_value _ 3 [x r; y r; z r; vx r; vy r; vz r] (vx r) eq_refl) in Neg.
      erewrite (lim_rate _ 3 [x r; y r; z r; vx r; vy r; vz r] (vx r)); [|reflexivity..].
      apply (x_held n T k11 k12 0 k22 0 k33 x y z vx vy vz); auto; cbn in Neg; lra.
    + rewrite (lim_value _ 4 [x r; y r; z r; vx r; vy r; vz r] (vy r) eq_refl) in Neg.
      erewrite (lim_rate _ 4 [x r; y r; z r; vx r; vy r; vz r] (vy r)); [|reflexivity..].
      apply (y_held n T k11 k12 0 k22 0 k33 x y z vx vy vz); auto; cbn in Neg; lra.
    + rewrite (lim_value _ 5 [x r; y r; z r; vx r; vy r; vz r] (vz r) eq_refl) in Neg.
      erewrite (lim_rate _ 5 [x r; y r; z r; vx r; vy r; vz r] (vz r)); [|reflexivity..].
      apply (z_held n T k11 k12 0 k22 0 k33 x y z vx vy vz); auto; cbn in Neg; lra.
  - intros k e I. exact (proj2 (safe_values_3 (dock_default_3d n) _ _ _ _ _ _ Lim) Start k e I).
Qed.

Lemma planar_step care n gen dt T x y vx vy ub w cs cs' :
  0 <= n <= 105 / 100000 -> 0 <= T <= 1 ->
  riccati 4 (motion2 n) (thrust2_t 12) (diagonal 4 (1 / 20)) 1000
    (care (motion2 n) (thrust2 12) (diagonal 4 (1 / 20)) (diagonal 2 1000)) ->
  stop_controller care 12 n 2 = Ok gen ->
  gen [x 0; y 0; vx 0; vy 0] dt cs = GPair ub cs' -> boxed docking_bounds ub w ->
  cwh_forced n 12 T (fun _ => nth 0 w 0) (fun _ => nth 1 w 0) (fun _ => 0) x y (fun _ => 0) vx vy (fun _ => 0) ->
  (forall t, 0 <= t <= T -> plen (x t, y t, 0) <= 15000) ->
  docking_safe (dock_default_2d n) (x 0, y 0, 0) (vx 0, vy 0, 0) ->
  forall t, 0 <= t <= T -> docking_safe (dock_default_2d n) (x t, y t, 0) (vx t, vy t, 0).
Proof.
  intros Hn HT Ric Gen Call Box M Far Start t Ht.
  assert (Lim : 0 <= d_x_limit (dock_default_2d n) /\ 0 <= d_y_limit (dock_default_2d n) /\ 0 <= d_z_limit (dock_default_2d n)) by (cbn; lra).
  unfold stop_controller in Gen. cbn [Nat.eqb generate_cwh_matrices String.eqb Ascii.eqb Bool.eqb rbind fst snd] in Gen.
  rewrite cost2, weight2 in Gen. change (cwh_a2 n) with (motion2 n) in Gen. change (cwh_b2 12) with (thrust2 12) in Gen.
  set (P := care _ _ _ _) in *. injection Gen as <-.
  destruct (planar_velocity_gain n P Hn Ric) as (k11 & k12 & k22 & Kv & K1 & K2 & K3).
  assert (G : lqr_stop 2 (stop_gain 2 (thrust2 12) P) [x 0; y 0; vx 0; vy 0] dt cs
      = GPair (vneg (mv (stop_gain 2 (thrust2 12) P) [0; 0; vx 0; vy 0])) CSNone).
  { apply (stop_command 2 (stop_gain 2 (thrust2 12) P) [x 0; y 0] [vx 0; vy 0]); [reflexivity|].
    apply (mm_rows 4), (mm_rows 4), Ric. }
  rewrite G, Kv in Call. injection Call as <- <-. apply boxed_cut in Box. subst w. unfold vneg in M. cbn [map nth] in M.
  rewrite !cut_opp in M.
  destruct Start as [Sp Lm] eqn:ES. unfold components_within in Lm. cbn [fst snd d_x_limit d_y_limit d_z_limit dock_default_2d] in Lm.
  assert (Vx : - 10 <= vx 0 <= 10) by (pose proof (ba (vx 0)); lra).
  assert (Vy : - 10 <= vy 0 <= 10) by (pose proof (ba (vy 0)); lra).
  assert (Fx : forall r, 0 <= r <= T -> - 15000 <= x r <= 15000) by (intros r Hr; apply (within_length _ _ _ (Far r Hr)); cbn; auto).
  assert (F : cwh_forced n 12 T (fun _ => - cut (k11 * vx 0 + (k12 * vy 0 + 0 * 0))) (fun _ => - cut (k22 * vy 0 + (k12 * vx 0 + 0 * 0)))
    (fun _ => - cut (21 / 100 * 0 + (0 * vx 0 + 0 * vy 0))) x y (fun _ => 0) vx vy (fun _ => 0)).
  { replace (k11 * vx 0 + (k12 * vy 0 + 0 * 0)) with (k11 * vx 0 + k12 * vy 0) by ring.
    replace (k22 * vy 0 + (k12 * vx 0 + 0 * 0)) with (k12 * vx 0 + k22 * vy 0) by ring.
    replace (- cut (21 / 100 * 0 + (0 * vx 0 + 0 * vy 0))) with 0; [exact M|].
    replace (21 / 100 * 0 + (0 * vx 0 + 0 * vy 0)) with 0 by ring. unfold cut, Rmin, Rmax; repeat destruct (Rle_dec _ _); lra. }
  apply (safe_values_2 (dock_default_2d n) (x t) (y t) (vx t) (vy t) Lim).
  refine (values_kept (docking_constraints_2d (dock_default_2d n)) T (1 / 1000) (fun t => [x t; y t; vx t; vy t])
    (fun t => [vx t; vy t; 3 * (n * n) * x t + 2 * n * vy t + - cut (k11 * vx 0 + (k12 * vy 0 + 0 * 0)) / 12;
               - (2 * n * vx t) + - cut (k22 * vy 0 + (k12 * vx 0 + 0 * 0)) / 12]) ltac:(lra) _ _ _ t Ht).
  - intros k e I r Hr.
    pose proof (moves_2 (dock_default_2d n) 12 docking_bounds 0 true (fun _ _ _ _ => Err SolverError) T x y vx vy
      (fun _ => - cut (k11 * vx 0 + (k12 * vy 0 + 0 * 0))) (fun _ => - cut (k22 * vy 0 + (k12 * vx 0 + 0 * 0)))) as D.
    assert (F' : cwh_forced n 12 T (fun _ => - cut (k11 * vx 0 + (k12 * vy 0 + 0 * 0))) (fun _ => - cut (k22 * vy 0 + (k12 * vx 0 + 0 * 0)))
      (fun _ => 0) x y (fun _ => 0) vx vy (fun _ => 0)).
    { replace (k11 * vx 0 + (k12 * vy 0 + 0 * 0)) with (k11 * vx 0 + k12 * vy 0) by ring.
      replace (k22 * vy 0 + (k12 * vx 0 + 0 * 0)) with (k12 * vx 0 + k22 * vy 0) by ring. exact M. }
    specialize (D F' k e I r Hr). cbv beta in D. rewrite dynamics_2 in D. exact D.
  - intros r Hr _ k e I Neg.
    rewrite docking_2d_entries in I. cbn [In] in I. unfold value in Neg. entries_of I.
    + rewrite rv2_value in Neg. rewrite rv2_rate.
      unfold speed_value in Neg. cbn [d_v0 d_v1_coef d_n d_v0_distance dock_default_2d] in Neg |- *.
      pose proof (speed_held n (2 * n) T k11 k12 0 k22 0 (21 / 100) x y (fun _ => 0) vx vy (fun _ => 0) Hn ltac:(lra) HT ltac:(lra) ltac:(lra)
        ltac:(lra) ltac:(lra) ltac:(lra) ltac:(lra) Vx Vy ltac:(lra) F Fx ltac:(intros; lra) r Hr) as S.
      cbv beta in S. rewrite Rminus_0_r in *. specialize (S ltac:(lra)).
      unfold pdot in S |- *. repeat rewrite ?Rmult_0_l, ?Rmult_0_r, ?Rplus_0_r in S. repeat rewrite ?Rmult_0_l, ?Rmult_0_r, ?Rplus_0_r. exact S.
    + rewrite (lim_value _ 2 [x r; y r; vx r; vy r] (vx r) eq_refl) in Neg.
      erewrite (lim_rate _ 2 [x r; y r; vx r; vy r] (vx r)); [|reflexivity..].
      apply (x_held n T k11 k12 0 k22 0 (21 / 100) x y (fun _ => 0) vx vy (fun _ => 0)); auto; intros; cbn in Neg; lra.
    + rewrite (lim_value _ 3 [x r; y r; vx r; vy r] (vy r) eq_refl) in Neg.
      erewrite (lim_rate _ 3 [x r; y r; vx r; vy r] (vy r)); [|reflexivity..].
      apply (y_held n T k11 k12 0 k22 0 (21 / 100) x y (fun _ => 0) vx vy (fun _ => 0)); auto; intros; cbn in Neg; lra.
  - intros k e I. exact (proj2 (safe_values_2 (dock_default_2d n) _ _ _ _ Lim) Start k e I).
Qed.
