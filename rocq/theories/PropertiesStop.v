(** The docking modules under their own backup controllers: C88. *)
From Coq Require Import String Reals List Bool ZArith Lia Lra.
From Verif Require Import Prelude Vec ModelBase ModelController ModelAsif ModelConstraint ModelCwh ModelZoo ModelDock ModelLqr
  SpecCore SpecConstraint SpecCwh SpecConic SpecZoo SpecDock SpecLqr
  ProofsVec ProofsConstraint ProofsCwh ProofsCwh2 ProofsCwh3 ProofsDock ProofsDock2 ProofsLqr ProofsStop ProofsStop2 ProofsStop3 ProofsUnique ProofsStop4 ProofsExist2 PropertiesDock PropertiesLqr.
Import ListNotations.
Local Open Scope R_scope.

Lemma values_kept {P : Type} (cs : dict (constraint vec P)) T margin (x : R -> vec) vel : 0 < margin ->
  (forall k c, In (k, c) cs -> moves_along c (c_params c) x vel T) ->
  (forall t, 0 <= t <= T -> (forall k c, In (k, c) cs -> - margin <= value c (x t)) ->
     forall k c, In (k, c) cs -> value c (x t) < 0 -> 0 < dot (c_grad c (x t) (c_params c)) (vel t)) ->
  (forall k c, In (k, c) cs -> 0 <= value c (x 0)) ->
  forall t, 0 <= t <= T -> forall k c, In (k, c) cs -> 0 <= value c (x t).
Proof.
  intros Hm Mov Rec Init t Ht k c I.
  set (pair := fun kc : string * constraint vec P =>
    ((fun t => value (snd kc) (x t)), (fun t => dot (c_grad (snd kc) (x t) (c_params (snd kc))) (vel t)))).
  change (0 <= fst (pair (k, c)) t).
  refine (together (map pair cs) T margin Hm _ _ _ t Ht (pair (k, c)) (in_map pair _ _ I)).
  - intros f Hf r Hr. apply in_map_iff in Hf. destruct Hf as ([k' c'] & <- & I'). unfold pair, value. cbn [fst snd].
    rewrite <- (Rplus_0_r (dot _ _)).
    apply (derivable_pt_lim_plus (fun q => c_fun c' (x q) (c_params c')) (fun _ => c_bias c')); [apply (Mov k' c' I' r Hr)|apply derivable_pt_lim_const].
  - intros r Hr Near f Hf Neg. apply in_map_iff in Hf. destruct Hf as ([k' c'] & <- & I').
    apply (Rec r Hr) with (k := k'); auto. intros k1 c1 I1. exact (Near (pair (k1, c1)) (in_map pair _ _ I1)).
  - intros f Hf. apply in_map_iff in Hf. destruct Hf as ([k' c'] & <- & I'). apply (Init k' c' I').
Qed.

Lemma cut_clip w : clip docking_bounds w = Ok (map cut w).
Proof. unfold clip, docking_bounds; cbn. rewrite map_map. reflexivity. Qed.
Lemma command_clip (gen : vec -> R -> cstate -> gout) x dt c w : gen x dt (ctl_state c) = GPair w CSNone ->
  fst (backup_control docking_bounds gen x dt c) = Ok (map cut w).
Proof.
  intros G. unfold backup_control, generate_control, bind, get, modify, lift, ret. rewrite G. cbn. rewrite map_map. reflexivity.
Qed.
Lemma within_length p D w : plen p <= D -> (w = fst (fst p) \/ w = snd (fst p) \/ w = snd p) -> - D <= w <= D.
Proof.
  intros H W. pose proof (plen_sqr p) as E. pose proof (plen_pos p) as L. apply sb; [lra|].
  apply Rle_trans with (plen p * plen p); [|apply Rmult_le_compat; lra]. rewrite E. destruct p as [[a b] c]. cbn in W |- *.
  pose proof (sq a). pose proof (sq b). pose proof (sq c). destruct W as [ -> | [ -> | -> ]]; lra.
Qed.
Ltac entries_of I := repeat (destruct I as [I|I]; [injection I as <- <-|]); [..|contradiction I].

(** ** C88.  The stopping controllers keep the limits of the docking modules. *)

(** A spacecraft of the default mass that flies by the planar controller's commands, clipped to the
    default bounds, and that meets the limits of the planar module at first, meets them for as long
    as it is within 15 km. *)
Theorem C88_planar_stop_keeps_limits :
  forall care n gen dt T (x y vx vy ux uy : R -> R) c,
  0 <= n <= 105 / 100000 ->
  riccati 4 (motion2 n) (thrust2_t 12) (diagonal 4 (1 / 20)) 1000
    (care (motion2 n) (thrust2 12) (diagonal 4 (1 / 20)) (diagonal 2 1000)) ->
  stop_controller care 12 n 2 = Ok gen ->
  cwh_forced n 12 T ux uy (fun _ => 0) x y (fun _ => 0) vx vy (fun _ => 0) ->
  (forall t, 0 <= t <= T -> fst (backup_control docking_bounds gen [x t; y t; vx t; vy t] dt (c t)) = Ok [ux t; uy t]) ->
  (forall t, 0 <= t <= T -> plen (x t, y t, 0) <= 15000) ->
  docking_safe (dock_default_2d n) (x 0, y 0, 0) (vx 0, vy 0, 0) ->
  forall t, 0 <= t <= T -> docking_safe (dock_default_2d n) (x t, y t, 0) (vx t, vy t, 0).
Proof.
  intros care n gen dt T x y vx vy ux uy c Hn Ric Gen M Fly Far Start t Ht.
  assert (Lim : 0 <= d_x_limit (dock_default_2d n) /\ 0 <= d_y_limit (dock_default_2d n) /\ 0 <= d_z_limit (dock_default_2d n)) by (cbn; lra).
  unfold stop_controller in Gen. cbn [Nat.eqb generate_cwh_matrices String.eqb Ascii.eqb Bool.eqb rbind fst snd] in Gen.
  rewrite cost2, weight2 in Gen. change (cwh_a2 n) with (motion2 n) in Gen. change (cwh_b2 12) with (thrust2 12) in Gen.
  set (P := care _ _ _ _) in *. injection Gen as <-.
  destruct (planar_velocity_gain n P Hn Ric) as (k11 & k12 & k22 & Kv & K1 & K2 & K3).
  assert (U : forall t, 0 <= t <= T -> ux t = - cut (k11 * vx t + (k12 * vy t + 0 * 0)) /\ uy t = - cut (k22 * vy t + (k12 * vx t + 0 * 0))).
  { intros r Hr. specialize (Fly r Hr).
    assert (G : lqr_stop 2 (stop_gain 2 (thrust2 12) P) [x r; y r; vx r; vy r] dt (ctl_state (c r))
      = GPair (vneg (mv (stop_gain 2 (thrust2 12) P) [0; 0; vx r; vy r])) CSNone).
    { apply (stop_command 2 (stop_gain 2 (thrust2 12) P) [x r; y r] [vx r; vy r]); [reflexivity|].
      apply (mm_rows 4), (mm_rows 4), Ric. }
    rewrite (command_clip _ _ dt _ _ G) in Fly. rewrite Kv in Fly. unfold vneg in Fly. cbn [map] in Fly. injection Fly as F1 F2.
    rewrite cut_opp in F1, F2. split; [rewrite <- F1|rewrite <- F2]; do 2 f_equal; ring. }
  apply (safe_values_2 (dock_default_2d n) (x t) (y t) (vx t) (vy t) Lim).
  refine (values_kept (docking_constraints_2d (dock_default_2d n)) T (1 / 1000) (fun t => [x t; y t; vx t; vy t])
    (fun t => [vx t; vy t; 3 * (n * n) * x t + 2 * n * vy t + ux t / 12; - (2 * n * vx t) + uy t / 12]) ltac:(lra) _ _ _ t Ht).
  - intros k e I r Hr.
    pose proof (moves_2 (dock_default_2d n) 12 docking_bounds 0 true (fun _ _ _ _ => Err SolverError) T x y vx vy ux uy M k e I r Hr) as D.
    cbv beta in D. rewrite dynamics_2 in D. exact D.
  - intros r Hr Near k e I Neg.
    apply (proj1 (nearly_values_2 (dock_default_2d n) (x r) (y r) (vx r) (vy r))) in Near.
    destruct Near as [_ (Vx & Vy & _)]. cbn [d_x_limit d_y_limit dock_default_2d] in Vx, Vy.
    destruct (U r Hr) as [-> ->]. specialize (Far r Hr).
    assert (Fx : -15000 <= x r <= 15000) by (apply (within_length _ _ _ Far); cbn; auto).
    rewrite docking_2d_entries in I. cbn [In] in I. unfold value in Neg. entries_of I.
    + rewrite rv2_value in Neg. rewrite rv2_rate.
      pose proof (speed_recovers n (2 * n) (x r) (y r) 0 (vx r) (vy r) 0 k11 k12 0 k22 0 1 Hn ltac:(lra) ltac:(lra) ltac:(lra) ltac:(lra)
        ltac:(lra) ltac:(lra) ltac:(lra) Vx Vy ltac:(lra)) as S.
      unfold speed_value in Neg. cbn [d_v0 d_v1_coef d_n d_v0_distance dock_default_2d] in Neg |- *.
      specialize (S ltac:(lra)). rewrite Rminus_0_r in *.
      unfold pdot in S |- *. repeat rewrite ?Rmult_0_l, ?Rmult_0_r, ?Rplus_0_r in S. repeat rewrite ?Rmult_0_l, ?Rmult_0_r, ?Rplus_0_r. exact S.
    + rewrite (lim_value _ 2 [x r; y r; vx r; vy r] (vx r) eq_refl) in Neg.
      erewrite (lim_rate _ 2 [x r; y r; vx r; vy r] (vx r)); [|reflexivity..].
      apply (x_recovers n (x r) (vx r) (vy r) 0 k11 k12 0); cbn in Neg; lra.
    + rewrite (lim_value _ 3 [x r; y r; vx r; vy r] (vy r) eq_refl) in Neg.
      erewrite (lim_rate _ 3 [x r; y r; vx r; vy r] (vy r)); [|reflexivity..].
      apply (y_recovers n (vx r) (vy r) 0 k12 k22 0); cbn in Neg; lra.
  - intros k e I. exact (proj2 (safe_values_2 (dock_default_2d n) _ _ _ _ Lim) Start k e I).
Qed.
Print Assumptions C88_planar_stop_keeps_limits.

(** The same in space. *)
Theorem C88_spatial_stop_keeps_limits :
  forall care n gen dt T (x y z vx vy vz ux uy uz : R -> R) c,
  0 <= n <= 105 / 100000 ->
  riccati 6 (motion3 n) (thrust3_t 12) (diagonal 6 (1 / 20)) 1000
    (care (motion3 n) (thrust3 12) (diagonal 6 (1 / 20)) (diagonal 3 1000)) ->
  stop_controller care 12 n 3 = Ok gen ->
  cwh_forced n 12 T ux uy uz x y z vx vy vz ->
  (forall t, 0 <= t <= T ->
     fst (backup_control docking_bounds gen [x t; y t; z t; vx t; vy t; vz t] dt (c t)) = Ok [ux t; uy t; uz t]) ->
  (forall t, 0 <= t <= T -> plen (x t, y t, z t) <= 15000) ->
  docking_safe (dock_default_3d n) (x 0, y 0, z 0) (vx 0, vy 0, vz 0) ->
  forall t, 0 <= t <= T -> docking_safe (dock_default_3d n) (x t, y t, z t) (vx t, vy t, vz t).
Proof.
  intros care n gen dt T x y z vx vy vz ux uy uz c Hn Ric Gen M Fly Far Start t Ht.
  assert (Lim : 0 <= d_x_limit (dock_default_3d n) /\ 0 <= d_y_limit (dock_default_3d n) /\ 0 <= d_z_limit (dock_default_3d n)) by (cbn; lra).
  unfold stop_controller in Gen. cbn [Nat.eqb generate_cwh_matrices String.eqb Ascii.eqb Bool.eqb rbind fst snd] in Gen.
  rewrite cost3, weight3 in Gen. change (cwh_a3 n) with (motion3 n) in Gen. change (cwh_b3 12) with (thrust3 12) in Gen.
  set (P := care _ _ _ _) in *. injection Gen as <-.
  destruct (spatial_velocity_gain n P Hn Ric) as (k11 & k12 & k22 & k33 & Kv & K1 & K2 & K3 & K4).
  assert (U : forall t, 0 <= t <= T -> ux t = - cut (k11 * vx t + (k12 * vy t + 0 * vz t)) /\ uy t = - cut (k22 * vy t + (k12 * vx t + 0 * vz t))
    /\ uz t = - cut (k33 * vz t + (0 * vx t + 0 * vy t))).
  { intros r Hr. specialize (Fly r Hr).
    assert (G : lqr_stop 3 (stop_gain 3 (thrust3 12) P) [x r; y r; z r; vx r; vy r; vz r] dt (ctl_state (c r))
      = GPair (vneg (mv (stop_gain 3 (thrust3 12) P) [0; 0; 0; vx r; vy r; vz r])) CSNone).
    { apply (stop_command 3 (stop_gain 3 (thrust3 12) P) [x r; y r; z r] [vx r; vy r; vz r]); [reflexivity|].
      apply (mm_rows 6), (mm_rows 6), Ric. }
    rewrite (command_clip _ _ dt _ _ G) in Fly. rewrite Kv in Fly. unfold vneg in Fly. cbn [map] in Fly. injection Fly as F1 F2 F3.
    rewrite cut_opp in F1, F2, F3. split; [rewrite <- F1|split; [rewrite <- F2|rewrite <- F3]]; do 2 f_equal; ring. }
  apply (safe_values_3 (dock_default_3d n) (x t) (y t) (z t) (vx t) (vy t) (vz t) Lim).
  refine (values_kept (docking_constraints_3d (dock_default_3d n)) T (1 / 1000) (fun t => [x t; y t; z t; vx t; vy t; vz t])
    (fun t => [vx t; vy t; vz t; 3 * (n * n) * x t + 2 * n * vy t + ux t / 12; - (2 * n * vx t) + uy t / 12; - (n * n * z t) + uz t / 12])
    ltac:(lra) _ _ _ t Ht).
  - intros k e I r Hr.
    pose proof (moves_3 (dock_default_3d n) 12 docking_bounds 0 true (fun _ _ _ _ => Err SolverError) T x y z vx vy vz ux uy uz M k e I r Hr) as D.
    cbv beta in D. rewrite dynamics_3 in D. exact D.
  - intros r Hr Near k e I Neg.
    apply (proj1 (nearly_values_3 (dock_default_3d n) (x r) (y r) (z r) (vx r) (vy r) (vz r))) in Near.
    destruct Near as [_ (Vx & Vy & Vz)]. cbn [d_x_limit d_y_limit d_z_limit dock_default_3d] in Vx, Vy, Vz.
    destruct (U r Hr) as (-> & -> & ->). specialize (Far r Hr).
    assert (Fx : -15000 <= x r <= 15000) by (apply (within_length _ _ _ Far); cbn; auto).
    assert (Fz : -15000 <= z r <= 15000) by (apply (within_length _ _ _ Far); cbn; auto).
    rewrite docking_3d_entries in I. cbn [In] in I. unfold value in Neg. entries_of I.
    + rewrite rv3_value in Neg. rewrite rv3_rate.
      unfold speed_value in Neg. cbn [d_v0 d_v1_coef d_n d_v0_distance dock_default_3d] in Neg |- *. rewrite Rminus_0_r in *.
      apply (speed_recovers n (4 * n) (x r) (y r) (z r) (vx r) (vy r) (vz r) k11 k12 0 k22 0 k33 Hn); try assumption; lra.
    + rewrite (lim_value _ 3 [x r; y r; z r; vx r; vy r; vz r] (vx r) eq_refl) in Neg.
      erewrite (lim_rate _ 3 [x r; y r; z r; vx r; vy r; vz r] (vx r)); [|reflexivity..].
      apply (x_recovers n (x r) (vx r) (vy r) (vz r) k11 k12 0); cbn in Neg; lra.
    + rewrite (lim_value _ 4 [x r; y r; z r; vx r; vy r; vz r] (vy r) eq_refl) in Neg.
      erewrite (lim_rate _ 4 [x r; y r; z r; vx r; vy r; vz r] (vy r)); [|reflexivity..].
      apply (y_recovers n (vx r) (vy r) (vz r) k12 k22 0); cbn in Neg; lra.
    + rewrite (lim_value _ 5 [x r; y r; z r; vx r; vy r; vz r] (vz r) eq_refl) in Neg.
      erewrite (lim_rate _ 5 [x r; y r; z r; vx r; vy r; vz r] (vz r)); [|reflexivity..].
      apply (z_recovers n (z r) (vx r) (vy r) (vz r) 0 0 k33); cbn in Neg; lra.
  - intros k e I. exact (proj2 (safe_values_3 (dock_default_3d n) _ _ _ _ _ _ Lim) Start k e I).
Qed.
Print Assumptions C88_spatial_stop_keeps_limits.

(** The command does not depend on the solver: two that keep the promise give the same controller,
    for any mass and any mean motion. *)
Theorem C88_gain_is_determined :
  forall care care' m n, m <> 0 ->
  (riccati 6 (motion3 n) (thrust3_t m) (diagonal 6 (1 / 20)) 1000 (care (motion3 n) (thrust3 m) (diagonal 6 (1 / 20)) (diagonal 3 1000)) ->
   riccati 6 (motion3 n) (thrust3_t m) (diagonal 6 (1 / 20)) 1000 (care' (motion3 n) (thrust3 m) (diagonal 6 (1 / 20)) (diagonal 3 1000)) ->
   stop_controller care m n 3 = stop_controller care' m n 3) /\
  (riccati 4 (motion2 n) (thrust2_t m) (diagonal 4 (1 / 20)) 1000 (care (motion2 n) (thrust2 m) (diagonal 4 (1 / 20)) (diagonal 2 1000)) ->
   riccati 4 (motion2 n) (thrust2_t m) (diagonal 4 (1 / 20)) 1000 (care' (motion2 n) (thrust2 m) (diagonal 4 (1 / 20)) (diagonal 2 1000)) ->
   stop_controller care m n 2 = stop_controller care' m n 2).
Proof.
  intros care care' m n Hm. unfold stop_controller. cbn [Nat.eqb generate_cwh_matrices String.eqb Ascii.eqb Bool.eqb rbind fst snd].
  rewrite cost2, weight2, cost3, weight3. change (cwh_a3 n) with (motion3 n). change (cwh_b3 m) with (thrust3 m).
  change (cwh_a2 n) with (motion2 n). change (cwh_b2 m) with (thrust2 m). split; intros R1 R2.
  - rewrite (riccati_unique 6 (motion3 n) (thrust3_t m) (diagonal 6 (1 / 20)) _ _ 1000 (1 / 20) R1 R2); try reflexivity; try lra.
    + repeat constructor.
    + intros w Lw. apply cost_form; auto.
  - rewrite (riccati_unique 4 (motion2 n) (thrust2_t m) (diagonal 4 (1 / 20)) _ _ 1000 (1 / 20) R1 R2); try reflexivity; try lra.
    + repeat constructor.
    + intros w Lw. apply cost_form; auto.
Qed.
Print Assumptions C88_gain_is_determined.

(** Nor is the promise empty: there is one matrix that keeps it, and no other. *)
Theorem C88_gain_exists :
  forall n, 0 <= n <= 105 / 100000 ->
  (exists! P, riccati 6 (motion3 n) (thrust3_t 12) (diagonal 6 (1 / 20)) 1000 P) /\
  (exists! P, riccati 4 (motion2 n) (thrust2_t 12) (diagonal 4 (1 / 20)) 1000 P).
Proof.
  intros n Hn. split.
  - destruct (spatial_riccati_exists n Hn) as (P & R). exists P. split; [exact R|]. intros P' R'.
    apply (riccati_unique 6 (motion3 n) (thrust3_t 12) (diagonal 6 (1 / 20)) _ _ 1000 (1 / 20) R R'); try reflexivity; try lra.
    + repeat constructor.
    + intros w Lw. apply cost_form; auto.
  - destruct (planar_riccati_exists n Hn) as (P & R). exists P. split; [exact R|]. intros P' R'.
    apply (riccati_unique 4 (motion2 n) (thrust2_t 12) (diagonal 4 (1 / 20)) _ _ 1000 (1 / 20) R R'); try reflexivity; try lra.
    + repeat constructor.
    + intros w Lw. apply cost_form; auto.
Qed.
Print Assumptions C88_gain_exists.

(** A case with the default mean motion: braking across the orbital plane. *)
Example C88_spatial_case : exists care gen (z vz uz : R -> R) c, let off := fun _ : R => 0 in
  riccati 6 (motion3 mean_motion) (thrust3_t 12) (diagonal 6 (1 / 20)) 1000
    (care (motion3 mean_motion) (thrust3 12) (diagonal 6 (1 / 20)) (diagonal 3 1000)) /\
  stop_controller care 12 mean_motion 3 = Ok gen /\
  cwh_forced mean_motion 12 1000 off off uz off off z off off vz /\
  (forall t, 0 <= t <= 1000 -> fst (backup_control docking_bounds gen [0; 0; z t; 0; 0; vz t] 1 c) = Ok [0; 0; uz t]) /\
  (forall t, 0 <= t <= 1000 -> plen (0, 0, z t) <= 15000) /\
  docking_safe (dock_default_3d mean_motion) (0, 0, z 0) (0, 0, vz 0) /\
  forall t, 0 < vz t.
Proof.
  assert (Hn : 0 <= mean_motion <= 105 / 100000) by (unfold mean_motion; lra).
  destruct (spatial_riccati_exists mean_motion Hn) as (P & Ric).
  destruct (spatial_velocity_gain mean_motion P Hn Ric) as (k11 & k12 & k22 & k & Kv & _ & _ & _ & K).
  set (n := mean_motion) in *.
  assert (N2 : 0 <= n * n <= 1103 / 1000000000) by (unfold n, mean_motion; lra).
  set (q := k * k / 144 - 4 * (n * n)). assert (Kk : 21 / 100 * (21 / 100) <= k * k) by (apply Rmult_le_compat; lra).
  assert (Q0 : 0 <= q) by (unfold q; lra).
  set (l := (k / 12 + sqrt q) / 2). assert (S0 := sqrt_pos q). assert (S2 := sqrt_sqrt q Q0).
  assert (Hl : 875 / 100000 <= l) by (unfold l; lra).
  assert (L2 : l * l - k / 12 * l + n * n = 0).
  { unfold l. replace ((k / 12 + sqrt q) / 2 * ((k / 12 + sqrt q) / 2)) with ((k * k / 144 + k / 6 * sqrt q + sqrt q * sqrt q) / 4) by field.
    rewrite S2. unfold q. field. }
  clearbody l. clear q Q0 S0 S2 Kk.
  set (w := 1 / (10 * (1 + k))). assert (W : w * (1 + k) = 1 / 10) by (unfold w; field; lra).
  assert (W0 : 0 < w) by (unfold w; apply Rdiv_lt_0_compat; lra).
  assert (W1 : w <= 1 / 10) by (assert (0 <= w * k) by (apply Rmult_le_pos; lra); lra). clearbody w.
  exists (fun _ _ _ _ => P), (lqr_stop 3 (stop_gain 3 (thrust3 12) P)), (fun t => - (w / l) * exp (- l * t)), (fun t => w * exp (- l * t)),
    (fun t => - (k * (w * exp (- l * t)))), (mkCtl CSNone CSNone CSNone).
  assert (Ex : forall t, 0 <= t -> 0 < exp (- l * t) <= 1).
  { intros t Ht. split; [apply exp_pos|]. rewrite <- exp_0. assert (0 <= l * t) by (apply Rmult_le_pos; lra).
    destruct (Rle_lt_or_eq_dec 0 (l * t) H) as [P'|P']; [left; apply exp_increasing; lra|right; f_equal; lra]. }
  assert (Wl : 0 <= w / l <= 12).
  { assert (E : w / l * l = w) by (field; lra). split; apply (Rmult_le_reg_r l); lra. }
  cbv zeta. split; [exact Ric|]. split; [reflexivity|]. split; [|split; [|split; [|split]]].
  - assert (Z : forall t r, r = 0 -> derivable_pt_lim (fun _ : R => 0) t r) by (intros t r ->; apply at_rest).
    constructor; intros t _; [apply Z; reflexivity|apply Z; reflexivity| |apply Z; field|apply Z; field|].
    + replace (w * exp (- l * t)) with (- (w / l) * (- l * exp (- l * t))) by (field; lra).
      apply (derivable_pt_lim_scal (fun t => exp (- l * t))). apply decay.
    + replace (- (n * n * (- (w / l) * exp (- l * t))) + - (k * (w * exp (- l * t))) / 12) with (w * (- l * exp (- l * t))).
      * apply (derivable_pt_lim_scal (fun t => exp (- l * t))). apply decay.
      * replace (n * n) with (k / 12 * l - l * l) by lra. field. lra.
  - intros t [Ht _]. specialize (Ex t Ht). set (v := w * exp (- l * t)).
    assert (V : 0 <= v <= w) by (unfold v; split; [apply Rmult_le_pos; lra|assert (0 <= w * (1 - exp (- l * t))) by (apply Rmult_le_pos; lra); lra]).
    assert (G : lqr_stop 3 (stop_gain 3 (thrust3 12) P) [0; 0; - (w / l) * exp (- l * t); 0; 0; v] 1 CSNone
      = GPair (vneg (mv (stop_gain 3 (thrust3 12) P) [0; 0; 0; 0; 0; v])) CSNone).
    { apply (stop_command 3 (stop_gain 3 (thrust3 12) P) [0; 0; - (w / l) * exp (- l * t)] [0; 0; v]); [reflexivity|].
      apply (mm_rows 6), (mm_rows 6), Ric. }
    rewrite (command_clip _ _ 1 (mkCtl CSNone CSNone CSNone) _ G), Kv. unfold vneg. cbn [map].
    assert (KV : 0 <= k * v <= 1 / 10).
    { split; [apply Rmult_le_pos; lra|]. assert (k * v <= k * w) by (apply Rmult_le_compat_l; lra). lra. }
    f_equal. repeat apply (f_equal2 (@cons R)); try reflexivity; unfold cut, Rmin, Rmax; repeat destruct (Rle_dec _ _); lra.
  - intros t [Ht _]. specialize (Ex t Ht).
    assert (Hz : - 12 <= - (w / l) * exp (- l * t) <= 12) by (pose proof (pb (- (w / l)) (exp (- l * t)) 12 1 ltac:(lra) ltac:(lra)); lra).
    apply le_of_sqr; [lra|]. rewrite plen_sqr. cbn. set (u := - (w / l) * exp (- l * t)) in *. pose proof (pb u u 12 12 Hz Hz). lra.
  - specialize (Ex 0 ltac:(lra)). rewrite Rmult_0_r, exp_0, !Rmult_1_r. split.
    + unfold slow_enough. cbn [d_v0 d_v1_coef d_n d_v0_distance dock_default_3d]. unfold pdot.
      assert (S1 : sqrt (0 * 0 + 0 * 0 + w * w + 1 / 100000) <= 11 / 100).
      { apply le_of_sqr; [lra|]. pose proof (pb w w (1 / 10) (1 / 10) ltac:(lra) ltac:(lra)). pose proof (sq w). rewrite sqrt_sqrt by lra. lra. }
      match goal with |- _ <= _ + _ * (sqrt ?e - _) => pose proof (sqrt_pos e) as S3; set (r := sqrt e) in * end.
      assert (0 <= 4 * n * r) by (apply Rmult_le_pos; lra). lra.
    + unfold components_within. cbn [fst snd d_x_limit d_y_limit d_z_limit dock_default_3d]. rewrite Rabs_R0, Rabs_right by lra. lra.
  - intros t. apply Rmult_lt_0_compat; [exact W0|apply exp_pos].
Qed.

(** And in the plane: holding a place on the orbit of the chief. *)
Example C88_planar_case : exists care gen c, let off := fun _ : R => 0 in
  riccati 4 (motion2 mean_motion) (thrust2_t 12) (diagonal 4 (1 / 20)) 1000
    (care (motion2 mean_motion) (thrust2 12) (diagonal 4 (1 / 20)) (diagonal 2 1000)) /\
  stop_controller care 12 mean_motion 2 = Ok gen /\
  cwh_forced mean_motion 12 1000 off off off off (fun _ => 100) off off off off /\
  (forall t, 0 <= t <= 1000 -> fst (backup_control docking_bounds gen [0; 100; 0; 0] 1 c) = Ok [0; 0]) /\
  plen (0, 100, 0) <= 15000 /\ docking_safe (dock_default_2d mean_motion) (0, 100, 0) (0, 0, 0).
Proof.
  assert (Hn : 0 <= mean_motion <= 105 / 100000) by (unfold mean_motion; lra).
  destruct (planar_riccati_exists mean_motion Hn) as (P & Ric).
  destruct (planar_velocity_gain mean_motion P Hn Ric) as (k11 & k12 & k22 & Kv & _).
  exists (fun _ _ _ _ => P), (lqr_stop 2 (stop_gain 2 (thrust2 12) P)), (mkCtl CSNone CSNone CSNone). cbv zeta.
  split; [exact Ric|]. split; [reflexivity|]. split; [|split; [|split]].
  - assert (Z : forall c t r, r = 0 -> derivable_pt_lim (fun _ : R => c) t r) by (intros c t r ->; apply at_rest).
    constructor; intros t _; apply Z; try reflexivity; field.
  - intros t _.
    assert (G : lqr_stop 2 (stop_gain 2 (thrust2 12) P) [0; 100; 0; 0] 1 CSNone = GPair (vneg (mv (stop_gain 2 (thrust2 12) P) [0; 0; 0; 0])) CSNone).
    { apply (stop_command 2 (stop_gain 2 (thrust2 12) P) [0; 100] [0; 0]); [reflexivity|]. apply (mm_rows 4), (mm_rows 4), Ric. }
    rewrite (command_clip _ _ 1 (mkCtl CSNone CSNone CSNone) _ G), Kv. unfold vneg. cbn [map].
    f_equal. repeat apply (f_equal2 (@cons R)); try reflexivity; unfold cut, Rmin, Rmax; repeat destruct (Rle_dec _ _); lra.
  - apply le_of_sqr; [lra|]. rewrite plen_sqr. cbn. lra.
  - split.
    + unfold slow_enough. cbn [d_v0 d_v1_coef d_n d_v0_distance dock_default_2d]. unfold pdot.
      assert (S1 : sqrt (0 * 0 + 0 * 0 + 0 * 0 + 1 / 100000) <= 11 / 100).
      { apply le_of_sqr; [lra|]. rewrite sqrt_sqrt by lra. lra. }
      match goal with |- _ <= _ + _ * (sqrt ?e - _) => pose proof (sqrt_pos e) as S3; set (r := sqrt e) in * end.
      assert (0 <= 2 * mean_motion * r) by (apply Rmult_le_pos; lra). lra.
    + unfold components_within. cbn [fst snd d_x_limit d_y_limit d_z_limit dock_default_2d]. rewrite Rabs_R0. lra.
Qed.
