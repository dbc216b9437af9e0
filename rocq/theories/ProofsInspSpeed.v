(** Lemmas for PropertiesInspSpeed.v: the speed conditions of the inspection module under full
    braking. *)
From Coq Require Import String Reals List Bool ZArith Lia Lra.
From Verif Require Import Prelude Vec ModelBase ModelAsif ModelConstraint ModelCwh ModelConic ModelZoo ModelInsp.
From Verif Require Import SpecConstraint SpecCwh SpecConic SpecZoo SpecTable SpecAsif.
From Verif Require Import ProofsConstraint ProofsCwh ProofsCwh3 ProofsZoo ProofsTable ProofsInsp ProofsDock.
Import ListNotations.
Local Open Scope R_scope.

(** The relative velocity constraint does not look past the sixth entry. *)
Lemma rel_vel_gradient_8 v0 v1 d0 x y z vx vy vz w1 w2 :
  let rho := sqrt (x * x + y * y + z * z + rv_delta) in
  let g := sqrt (vx * vx + vy * vy + vz * vz + rv_delta) in
  is_gradient (fun s => rel_vel_value 3 rv_delta s (mkRv v0 v1 d0)) [x; y; z; vx; vy; vz; w1; w2]
    [v1 * (x / rho); v1 * (y / rho); v1 * (z / rho); - (vx / g); - (vy / g); - (vz / g); 0; 0].
Proof.
  intros rho g. split; [reflexivity|]. intros i Hi.
  destruct (rel_vel_gradient_3 v0 v1 d0 x y z vx vy vz) as [_ G].
  destruct i as [|[|[|[|[|[|[|[|i]]]]]]]]; [| | | | | | | |simpl in Hi; lia].
  1-6: match goal with |- derivable_pt_lim _ (nth ?i _ _) _ => exact (G i ltac:(cbn; lia)) end.
  - cbn [replaced nth]. exact (derivable_pt_lim_const (rel_vel_value 3 rv_delta [x; y; z; vx; vy; vz] (mkRv v0 v1 d0)) w1).
  - cbn [replaced nth]. exact (derivable_pt_lim_const (rel_vel_value 3 rv_delta [x; y; z; vx; vy; vz] (mkRv v0 v1 d0)) w2).
Qed.

(** Full thrust against one component of the velocity, whatever the drift if the thruster is the
    stronger. *)
Lemma brake_axis v f k : Rabs f <= k -> 0 <= - 2 * (v * (f + k * - sg v)).
Proof.
  intros H. pose proof (sg_abs v) as S.
  replace (- 2 * (v * (f + k * - sg v))) with (2 * (k * (sg v * v) - f * v)) by ring. rewrite S.
  assert (f * v <= Rabs f * Rabs v) by (rewrite <- Rabs_mult; apply Rle_abs).
  pose proof (Rabs_pos v). nra.
Qed.

(** Full thrust against all three: the Coriolis terms do no work. *)
Lemma brake_speed n k rmax x y z vx vy vz v1 g rho :
  0 <= v1 -> sqrt (x * x + y * y + z * z) <= rmax ->
  sqrt (x * x + y * y + z * z) <= rho -> 0 < rho -> 0 < g ->
  v1 * g + 3 * (n * n) * rmax <= k ->
  0 <= v1 * ((x * vx + y * vy + z * vz) / rho)
       - (vx * (3 * (n * n) * x + 2 * n * vy + k * - sg vx) + vy * (- (2 * n * vx) + k * - sg vy)
          + vz * (- (n * n * z) + k * - sg vz)) / g.
Proof.
  intros Hv Hr Hl Hrho Hg K.
  set (l := sqrt (x * x + y * y + z * z)) in *. set (s := sqrt (vx * vx + vy * vy + vz * vz)).
  assert (L0 : 0 <= l) by apply sqrt_pos. assert (S0 : 0 <= s) by apply sqrt_pos.
  assert (LL : l * l = x * x + y * y + z * z) by (apply sqrt_sqrt; nra).
  assert (SS : s * s = vx * vx + vy * vy + vz * vz) by (apply sqrt_sqrt; nra).
  assert (CS : - (l * s) <= x * vx + y * vy + z * vz).
  { assert (Q : (x * vx + y * vy + z * vz) * (x * vx + y * vy + z * vz) <= (l * s) * (l * s)).
    { replace (l * s * (l * s)) with ((l * l) * (s * s)) by ring. rewrite LL, SS.
      pose proof (Rle_0_sqr (vx * y - vy * x)) as U1. pose proof (Rle_0_sqr (vx * z - vz * x)) as U2.
      pose proof (Rle_0_sqr (vy * z - vz * y)) as U3. unfold Rsqr in *. lra. }
    assert (0 <= l * s) by (apply Rmult_le_pos; auto).
    destruct (Rle_lt_dec (- (l * s)) (x * vx + y * vy + z * vz)) as [|N]; [auto|nra]. }
  assert (SV : s <= Rabs vx + Rabs vy + Rabs vz).
  { pose proof (Rabs_pos vx); pose proof (Rabs_pos vy); pose proof (Rabs_pos vz).
    assert (E : forall t, Rabs t * Rabs t = t * t) by (intros t; rewrite <- Rabs_mult; apply Rabs_pos_eq; nra).
    apply Rsqr_incr_0_var; [|lra]. unfold Rsqr. rewrite SS, <- (E vx), <- (E vy), <- (E vz).
    assert (0 <= Rabs vx * Rabs vy) by nra. assert (0 <= Rabs vx * Rabs vz) by nra. assert (0 <= Rabs vy * Rabs vz) by nra. nra. }
  (* the drift does at most 3 n^2 l s *)
  assert (W : 3 * (n * n) * (x * vx) - n * n * (z * vz) <= 3 * (n * n) * (l * s)).
  { assert (N : 0 <= n * n) by nra.
    assert (Q : x * vx - / 3 * (z * vz) <= l * s); [|nra].
    assert (Q2 : (x * vx - / 3 * (z * vz)) * (x * vx - / 3 * (z * vz)) <= (l * s) * (l * s)).
    { replace (l * s * (l * s)) with ((l * l) * (s * s)) by ring. rewrite LL, SS.
      pose proof (Rle_0_sqr (vx * (z / 3) + vz * x)) as U1. unfold Rsqr in U1.
      assert (P : forall a b, 0 <= (a * a) * (b * b)) by (intros a b; apply Rmult_le_pos; apply Rle_0_sqr).
      pose proof (P x vy). pose proof (P y vx). pose proof (P y vy). pose proof (P y vz). pose proof (P z vx).
      pose proof (P z vy). pose proof (P z vz). lra. }
    assert (0 <= l * s) by (apply Rmult_le_pos; auto).
    destruct (Rle_lt_dec (x * vx - / 3 * (z * vz)) (l * s)) as [|M]; [auto|nra]. }
  assert (T1 : - (v1 * s) <= v1 * ((x * vx + y * vy + z * vz) / rho)).
  { assert (- s <= (x * vx + y * vy + z * vz) / rho); [|nra].
    apply Rmult_le_reg_r with rho; [exact Hrho|]. unfold Rdiv. rewrite Rmult_assoc, Rinv_l by lra. nra. }
  assert (T2 : s * v1 * g <= - (vx * (3 * (n * n) * x + 2 * n * vy + k * - sg vx) + vy * (- (2 * n * vx) + k * - sg vy)
          + vz * (- (n * n * z) + k * - sg vz))).
  { match goal with |- _ <= ?e => replace e with (k * (sg vx * vx + sg vy * vy + sg vz * vz) - (3 * (n * n) * (x * vx) - n * n * (z * vz))) by ring end.
    rewrite !sg_abs.
    assert (K0 : 0 <= k). { assert (0 <= v1 * g) by nra. assert (0 <= 3 * (n * n) * rmax) by (apply Rmult_le_pos; nra). lra. }
    assert (k * s <= k * (Rabs vx + Rabs vy + Rabs vz)) by (apply Rmult_le_compat_l; auto).
    assert (3 * (n * n) * (l * s) <= 3 * (n * n) * (rmax * s)).
    { apply Rmult_le_compat_l; [nra|]. apply Rmult_le_compat_r; auto. }
    assert ((v1 * g + 3 * (n * n) * rmax) * s <= k * s) by (apply Rmult_le_compat_r; auto). lra. }
  assert (T3 : s * v1 <= - ((vx * (3 * (n * n) * x + 2 * n * vy + k * - sg vx) + vy * (- (2 * n * vx) + k * - sg vy)
          + vz * (- (n * n * z) + k * - sg vz)) / g)).
  { apply Rmult_le_reg_r with g; [exact Hg|]. eapply Rle_trans; [exact T2|]. right. field. lra. }
  lra.
Qed.
