(** Geometry of the conic keep-out zone. *)
From Coq Require Import Reals List Lia Lra Ratan.
From Verif Require Import Prelude Vec ModelConic SpecConic ProofsBase.
Import ListNotations.
Local Open Scope R_scope.

(** ** A unit axis, a point, its height along the axis and its distance from the axis *)

Lemma sqrt_pos0 x : 0 <= x -> sqrt x * sqrt x = x. Proof. apply sqrt_sqrt. Qed.

Section Cone.
Variables (c1 c2 c3 theta : R).
Hypothesis Hc : c1 * c1 + c2 * c2 + c3 * c3 = 1.
Hypothesis Ht : 0 < theta < PI / 2.
Let Hcos : 0 < cos theta. Proof. apply cos_gt_0; pose proof PI_RGT_0; lra. Qed.
Let Hsin : 0 < sin theta. Proof. apply sin_gt_0; pose proof PI_RGT_0; lra. Qed.
Let Hsc : sin theta * sin theta + cos theta * cos theta = 1.
Proof. pose proof (sin2_cos2 theta) as H; unfold Rsqr in H; exact H. Qed.

Definition hgt (x y z : R) : R := x * c1 + y * c2 + z * c3.
Definition rr (x y z : R) : R := sqrt (x * x + y * y + z * z - hgt x y z * hgt x y z).
Definition gap (x y z : R) : R := rr x y z * cos theta - hgt x y z * sin theta.

Lemma rr_arg x y z : 0 <= x * x + y * y + z * z - hgt x y z * hgt x y z.
Proof.
  replace (x * x + y * y + z * z - hgt x y z * hgt x y z)
    with ((x - hgt x y z * c1) * (x - hgt x y z * c1) + (y - hgt x y z * c2) * (y - hgt x y z * c2)
          + (z - hgt x y z * c3) * (z - hgt x y z * c3)).
  - pose proof (Rle_0_sqr (x - hgt x y z * c1)); pose proof (Rle_0_sqr (y - hgt x y z * c2));
      pose proof (Rle_0_sqr (z - hgt x y z * c3)); unfold Rsqr in *; lra.
  - replace (x * x + y * y + z * z - hgt x y z * hgt x y z) with
      (x * x + y * y + z * z - 2 * (hgt x y z * hgt x y z) + hgt x y z * hgt x y z * 1) by ring.
    rewrite <- Hc. unfold hgt; ring.
Qed.
Lemma rr_sqr x y z : rr x y z * rr x y z = x * x + y * y + z * z - hgt x y z * hgt x y z.
Proof. apply sqrt_sqrt, rr_arg. Qed.
Lemma rr_nonneg x y z : 0 <= rr x y z. Proof. apply sqrt_pos. Qed.
Lemma rr_perp x y z : rr x y z =
  sqrt ((x - hgt x y z * c1) * (x - hgt x y z * c1) + (y - hgt x y z * c2) * (y - hgt x y z * c2)
          + (z - hgt x y z * c3) * (z - hgt x y z * c3)).
Proof.
  unfold rr; f_equal.
  replace (x * x + y * y + z * z - hgt x y z * hgt x y z) with
      (x * x + y * y + z * z - 2 * (hgt x y z * hgt x y z) + hgt x y z * hgt x y z * 1) by ring.
  rewrite <- Hc. unfold hgt; ring.
Qed.

(** Inside the cone, strictly and not, as a comparison of cosines. *)
Lemma gap_neg x y z : gap x y z < 0 <-> sqrt (x * x + y * y + z * z) * cos theta < hgt x y z.
Proof.
  set (a := hgt x y z). set (r := rr x y z). set (l := sqrt _).
  assert (L2 : l * l = r * r + a * a).
  { unfold l, r, a. rewrite rr_sqr, sqrt_sqrt; [ring|]. pose proof (Rle_0_sqr x); pose proof (Rle_0_sqr y);
      pose proof (Rle_0_sqr z); unfold Rsqr in *; lra. }
  assert (L0 : 0 <= l) by apply sqrt_pos. assert (R0 : 0 <= r) by apply rr_nonneg.
  unfold gap; fold a r.
  assert (Q : (a * sin theta) * (a * sin theta) - (r * cos theta) * (r * cos theta) = a * a - (l * cos theta) * (l * cos theta)).
  { replace ((l * cos theta) * (l * cos theta)) with (l * l * (cos theta * cos theta)) by ring. rewrite L2.
    replace (a * a - (r * r + a * a) * (cos theta * cos theta)) with
      (a * a * (sin theta * sin theta + cos theta * cos theta) - (r * r + a * a) * (cos theta * cos theta)) by (rewrite Hsc; ring). ring. }
  assert (P1 : 0 <= r * cos theta) by (apply Rmult_le_pos; lra).
  assert (P2 : 0 <= l * cos theta) by (apply Rmult_le_pos; lra).
  split; intros H.
  - assert (A : 0 < a * sin theta) by lra. assert (A' : 0 < a) by (apply (Rmult_lt_reg_r (sin theta)); lra). nra.
  - assert (A : 0 < a) by lra. assert (A' : 0 < a * sin theta) by (apply Rmult_lt_0_compat; lra). nra.
Qed.
Lemma gap_nonpos x y z : gap x y z <= 0 <-> sqrt (x * x + y * y + z * z) * cos theta <= hgt x y z.
Proof.
  set (a := hgt x y z). set (r := rr x y z). set (l := sqrt _).
  assert (L2 : l * l = r * r + a * a).
  { unfold l, r, a. rewrite rr_sqr, sqrt_sqrt; [ring|]. pose proof (Rle_0_sqr x); pose proof (Rle_0_sqr y);
      pose proof (Rle_0_sqr z); unfold Rsqr in *; lra. }
  assert (L0 : 0 <= l) by apply sqrt_pos. assert (R0 : 0 <= r) by apply rr_nonneg.
  unfold gap; fold a r.
  assert (Q : (a * sin theta) * (a * sin theta) - (r * cos theta) * (r * cos theta) = a * a - (l * cos theta) * (l * cos theta)).
  { replace ((l * cos theta) * (l * cos theta)) with (l * l * (cos theta * cos theta)) by ring. rewrite L2.
    replace (a * a - (r * r + a * a) * (cos theta * cos theta)) with
      (a * a * (sin theta * sin theta + cos theta * cos theta) - (r * r + a * a) * (cos theta * cos theta)) by (rewrite Hsc; ring). ring. }
  assert (P1 : 0 <= r * cos theta) by (apply Rmult_le_pos; lra).
  assert (P2 : 0 <= l * cos theta) by (apply Rmult_le_pos; lra).
  split; intros H.
  - assert (A : 0 <= a * sin theta) by lra. assert (A' : 0 <= a) by (apply (Rmult_le_reg_r (sin theta)); lra). nra.
  - assert (A : 0 <= a) by lra. assert (A' : 0 <= a * sin theta) by (apply Rmult_le_pos; lra). nra.
Qed.

(** The gap changes at most as much as the point. *)
Lemma gap_lipschitz x y z x' y' z' :
  gap x y z - gap x' y' z' <= sqrt ((x - x') * (x - x') + (y - y') * (y - y') + (z - z') * (z - z')).
Proof.
  set (D := (x - x') * (x - x') + (y - y') * (y - y') + (z - z') * (z - z')).
  set (r := rr x y z); set (r' := rr x' y' z'); set (a := hgt x y z); set (a' := hgt x' y' z').
  assert (Cs : (r - r') * (r - r') + (a - a') * (a - a') <= D).
  { (* r r' >= p.q - a a' *)
    assert (CS : x * x' + y * y' + z * z' - a * a' <= r * r').
    { set (u1 := x - a * c1); set (u2 := y - a * c2); set (u3 := z - a * c3).
      set (w1 := x' - a' * c1); set (w2 := y' - a' * c2); set (w3 := z' - a' * c3).
      assert (E : x * x' + y * y' + z * z' - a * a' = u1 * w1 + u2 * w2 + u3 * w3).
      { unfold u1, u2, u3, w1, w2, w3.
        replace (x * x' + y * y' + z * z' - a * a') with (x * x' + y * y' + z * z' - 2 * (a * a') + a * a' * 1) by ring.
        rewrite <- Hc. unfold a, a', hgt; ring. }
      assert (Er : r * r = u1 * u1 + u2 * u2 + u3 * u3).
      { unfold r. rewrite rr_perp. fold a u1 u2 u3. apply sqrt_sqrt.
        pose proof (Rle_0_sqr u1); pose proof (Rle_0_sqr u2); pose proof (Rle_0_sqr u3); unfold Rsqr in *; lra. }
      assert (Er' : r' * r' = w1 * w1 + w2 * w2 + w3 * w3).
      { unfold r'. rewrite rr_perp. fold a' w1 w2 w3. apply sqrt_sqrt.
        pose proof (Rle_0_sqr w1); pose proof (Rle_0_sqr w2); pose proof (Rle_0_sqr w3); unfold Rsqr in *; lra. }
      rewrite E. assert (P : 0 <= r * r') by (apply Rmult_le_pos; apply rr_nonneg).
      destruct (Rle_dec (u1 * w1 + u2 * w2 + u3 * w3) 0) as [N|N]; [lra|].
      assert (S : (u1 * w1 + u2 * w2 + u3 * w3) * (u1 * w1 + u2 * w2 + u3 * w3) <= (r * r') * (r * r')).
      { replace ((r * r') * (r * r')) with ((r * r) * (r' * r')) by ring. rewrite Er, Er'.
        pose proof (Rle_0_sqr (u1 * w2 - u2 * w1)); pose proof (Rle_0_sqr (u1 * w3 - u3 * w1));
          pose proof (Rle_0_sqr (u2 * w3 - u3 * w2)); unfold Rsqr in *; nra. }
      nra. }
    pose proof (rr_sqr x y z) as E1; pose proof (rr_sqr x' y' z') as E2. fold r a in E1; fold r' a' in E2.
    unfold D. nra. }
  unfold gap; fold r r' a a'.
  set (G := r * cos theta - a * sin theta - (r' * cos theta - a' * sin theta)).
  assert (D0 : 0 <= D).
  { unfold D. pose proof (Rle_0_sqr (x - x')); pose proof (Rle_0_sqr (y - y')); pose proof (Rle_0_sqr (z - z')); unfold Rsqr in *; lra. }
  destruct (Rle_dec G 0) as [N|N]; [pose proof (sqrt_pos D); lra|].
  rewrite <- (sqrt_square G) by lra. apply sqrt_le_1_alt. apply Rle_trans with (2 := Cs).
  set (e := r - r') in *; set (f := a - a') in *. replace G with (e * cos theta - f * sin theta) by (unfold G, e, f; ring).
  replace (e * e + f * f) with ((e * e + f * f) * (sin theta * sin theta + cos theta * cos theta)) by (rewrite Hsc; ring).
  pose proof (Rle_0_sqr (e * sin theta + f * cos theta)) as S; unfold Rsqr in S. lra.
Qed.

(** ** The outward normal at a point off the axis *)
Section Normal.
Variables (x y z : R).
Hypothesis Off : 0 < rr x y z.
Let a := hgt x y z.
Let r := rr x y z.
Definition nrm1 : R := cos theta * ((x - hgt x y z * c1) / rr x y z) - sin theta * c1.
Definition nrm2 : R := cos theta * ((y - hgt x y z * c2) / rr x y z) - sin theta * c2.
Definition nrm3 : R := cos theta * ((z - hgt x y z * c3) / rr x y z) - sin theta * c3.

Let perp : (x - a * c1) * c1 + (y - a * c2) * c2 + (z - a * c3) * c3 = 0.
Proof.
  replace ((x - a * c1) * c1 + (y - a * c2) * c2 + (z - a * c3) * c3) with
    (hgt x y z - a * (c1 * c1 + c2 * c2 + c3 * c3)) by (unfold hgt; ring). rewrite Hc; unfold a; ring.
Qed.
Let perp_sq : (x - a * c1) * (x - a * c1) + (y - a * c2) * (y - a * c2) + (z - a * c3) * (z - a * c3) = r * r.
Proof.
  unfold r. rewrite rr_perp. fold a. symmetry; apply sqrt_sqrt.
  pose proof (Rle_0_sqr (x - a * c1)); pose proof (Rle_0_sqr (y - a * c2)); pose proof (Rle_0_sqr (z - a * c3)); unfold Rsqr in *; lra.
Qed.

Lemma nrm_unit : nrm1 * nrm1 + nrm2 * nrm2 + nrm3 * nrm3 = 1.
Proof.
  unfold nrm1, nrm2, nrm3; fold a r.
  replace (_ + _ + _) with (cos theta * cos theta * (((x - a * c1) * (x - a * c1) + (y - a * c2) * (y - a * c2) + (z - a * c3) * (z - a * c3)) / (r * r))
    - 2 * cos theta * sin theta / r * ((x - a * c1) * c1 + (y - a * c2) * c2 + (z - a * c3) * c3)
    + sin theta * sin theta * (c1 * c1 + c2 * c2 + c3 * c3)) by (field; unfold r; lra).
  rewrite perp, perp_sq, Hc. replace (r * r / (r * r)) with 1 by (field; unfold r; lra). lra.
Qed.

(** The normal at p, applied to any q, is at most the gap at q. *)
Lemma nrm_below x' y' z' : nrm1 * x' + nrm2 * y' + nrm3 * z' <= gap x' y' z'.
Proof.
  set (r' := rr x' y' z'); set (a' := hgt x' y' z').
  set (u1 := x - a * c1) in *; set (u2 := y - a * c2) in *; set (u3 := z - a * c3) in *.
  set (w1 := x' - a' * c1); set (w2 := y' - a' * c2); set (w3 := z' - a' * c3).
  assert (Er' : r' * r' = w1 * w1 + w2 * w2 + w3 * w3).
  { unfold r'. rewrite rr_perp. fold a' w1 w2 w3. apply sqrt_sqrt.
    pose proof (Rle_0_sqr w1); pose proof (Rle_0_sqr w2); pose proof (Rle_0_sqr w3); unfold Rsqr in *; lra. }
  assert (E : u1 * x' + u2 * y' + u3 * z' = u1 * w1 + u2 * w2 + u3 * w3).
  { unfold w1, w2, w3. replace (u1 * x' + u2 * y' + u3 * z') with (u1 * x' + u2 * y' + u3 * z' - a' * 0) by ring.
    rewrite <- perp. ring. }
  assert (CS : u1 * w1 + u2 * w2 + u3 * w3 <= r * r').
  { assert (P : 0 <= r * r') by (apply Rmult_le_pos; apply rr_nonneg).
    destruct (Rle_dec (u1 * w1 + u2 * w2 + u3 * w3) 0) as [N|N]; [lra|].
    assert (S : (u1 * w1 + u2 * w2 + u3 * w3) * (u1 * w1 + u2 * w2 + u3 * w3) <= (r * r') * (r * r')).
    { replace ((r * r') * (r * r')) with ((r * r) * (r' * r')) by ring. rewrite <- perp_sq, Er'.
      pose proof (Rle_0_sqr (u1 * w2 - u2 * w1)); pose proof (Rle_0_sqr (u1 * w3 - u3 * w1));
        pose proof (Rle_0_sqr (u2 * w3 - u3 * w2)); unfold Rsqr in *; nra. }
    nra. }
  replace (nrm1 * x' + nrm2 * y' + nrm3 * z') with (cos theta * ((u1 * x' + u2 * y' + u3 * z') / r) - a' * sin theta)
    by (unfold nrm1, nrm2, nrm3; fold a r u1 u2 u3; unfold a', hgt; field; unfold r; lra).
  rewrite E. unfold gap; fold r' a'.
  assert (Q : (u1 * w1 + u2 * w2 + u3 * w3) / r <= r').
  { apply (Rmult_le_reg_r r); [exact Off|]. unfold Rdiv; rewrite Rmult_assoc, Rinv_l by (unfold r; lra). lra. }
  assert (cos theta * ((u1 * w1 + u2 * w2 + u3 * w3) / r) <= cos theta * r') by (apply Rmult_le_compat_l; lra).
  lra.
Qed.

Lemma nrm_here : nrm1 * x + nrm2 * y + nrm3 * z = gap x y z.
Proof.
  replace (nrm1 * x + nrm2 * y + nrm3 * z) with
    (cos theta * ((x * x + y * y + z * z - a * a) / r) - a * sin theta)
    by (unfold nrm1, nrm2, nrm3; fold a r; unfold a, hgt; field; unfold r; lra).
  unfold a. rewrite <- rr_sqr. fold r a. unfold gap; fold r a. field; unfold r; lra.
Qed.
End Normal.
End Cone.

(** ** The nearest point *)
Section Foot.
Variables (c1 c2 c3 theta : R).
Hypothesis Hc : c1 * c1 + c2 * c2 + c3 * c3 = 1.
Hypothesis Ht : 0 < theta < PI / 2.
Let Hcos : 0 < cos theta. Proof. apply cos_gt_0; pose proof PI_RGT_0; lra. Qed.
Let Hsin : 0 < sin theta. Proof. apply sin_gt_0; pose proof PI_RGT_0; lra. Qed.
Let Hsc : sin theta * sin theta + cos theta * cos theta = 1.
Proof. pose proof (sin2_cos2 theta) as H; unfold Rsqr in H; exact H. Qed.
Variables (x y z : R).
Notation hgt := (hgt c1 c2 c3).
Notation rr := (rr c1 c2 c3).
Notation gap := (gap c1 c2 c3 theta).
Hypothesis Off : 0 < rr x y z.
Notation n1 := (nrm1 c1 c2 c3 theta x y z).
Notation n2 := (nrm2 c1 c2 c3 theta x y z).
Notation n3 := (nrm3 c1 c2 c3 theta x y z).

Lemma nrm_axis : n1 * c1 + n2 * c2 + n3 * c3 = - sin theta.
Proof.
  unfold nrm1, nrm2, nrm3.
  replace (_ + _ + _) with (cos theta / rr x y z * (hgt x y z - hgt x y z * (c1 * c1 + c2 * c2 + c3 * c3))
    - sin theta * (c1 * c1 + c2 * c2 + c3 * c3)) by (unfold ProofsConic.hgt; field; lra).
  rewrite Hc. ring.
Qed.

Lemma foot : 0 <= hgt x y z * cos theta + rr x y z * sin theta ->
  let d := gap x y z in
  gap (x - d * n1) (y - d * n2) (z - d * n3) = 0.
Proof.
  intros K d. set (k := hgt x y z * cos theta + rr x y z * sin theta) in *.
  set (a := hgt x y z) in *; set (r := rr x y z) in *.
  assert (Eh : hgt (x - d * n1) (y - d * n2) (z - d * n3) = k * cos theta).
  { transitivity (a - d * (n1 * c1 + n2 * c2 + n3 * c3)); [unfold a, ProofsConic.hgt; ring|].
    rewrite nrm_axis. unfold d, ProofsConic.gap; fold a r. unfold k.
    replace a with (a * (sin theta * sin theta + cos theta * cos theta)) at 1 by (rewrite Hsc; ring). ring. }
  assert (Er : rr (x - d * n1) (y - d * n2) (z - d * n3) = k * sin theta).
  { unfold ProofsConic.rr. rewrite Eh.
    replace (_ - _) with ((k * sin theta) * (k * sin theta)); [apply sqrt_square, Rmult_le_pos; lra|].
    replace ((x - d * n1) * (x - d * n1) + (y - d * n2) * (y - d * n2) + (z - d * n3) * (z - d * n3)) with
      (x * x + y * y + z * z - 2 * d * (n1 * x + n2 * y + n3 * z) + d * d * (n1 * n1 + n2 * n2 + n3 * n3)) by ring.
    rewrite (nrm_unit c1 c2 c3 theta Hc) by exact Off. rewrite (nrm_here c1 c2 c3 theta Hc) by exact Off. fold d.
    pose proof (rr_sqr c1 c2 c3 Hc x y z) as E. fold r a in E.
    replace (x * x + y * y + z * z) with (r * r + a * a) by lra.
    assert (Ek : k * k + d * d = r * r + a * a).
    { unfold k, d, ProofsConic.gap; fold a r.
      replace (r * r + a * a) with ((r * r + a * a) * (sin theta * sin theta + cos theta * cos theta)) by (rewrite Hsc; ring). ring. }
    replace (r * r + a * a) with (k * k + d * d).
    replace (k * sin theta * (k * sin theta)) with (k * k * (sin theta * sin theta + cos theta * cos theta) - k * cos theta * (k * cos theta)) by ring.
    rewrite Hsc. ring. }
  unfold ProofsConic.gap. rewrite Eh, Er. ring.
Qed.
Lemma foot_dist : let d := gap x y z in
  sqrt ((x - (x - d * n1)) * (x - (x - d * n1)) + (y - (y - d * n2)) * (y - (y - d * n2)) + (z - (z - d * n3)) * (z - (z - d * n3))) = Rabs d.
Proof.
  intros d.
  replace (_ + _ + _) with (d * d * (n1 * n1 + n2 * n2 + n3 * n3)) by ring.
  rewrite (nrm_unit c1 c2 c3 theta Hc) by exact Off. rewrite Rmult_1_r. apply sqrt_Rsqr_abs.
Qed.

Lemma near_side : - sqrt (x * x + y * y + z * z) * sin theta <= hgt x y z ->
  0 <= hgt x y z * cos theta + rr x y z * sin theta.
Proof.
  set (a := hgt x y z) in *; set (r := rr x y z) in *; set (l := sqrt _) in *. intros H.
  assert (L2 : l * l = r * r + a * a).
  { unfold l, r, a. rewrite rr_sqr by exact Hc. rewrite sqrt_sqrt; [ring|]. pose proof (Rle_0_sqr x); pose proof (Rle_0_sqr y);
      pose proof (Rle_0_sqr z); unfold Rsqr in *; lra. }
  assert (L0 : 0 <= l) by apply sqrt_pos. assert (R0 : 0 <= r) by apply rr_nonneg.
  assert (P1 : 0 <= r * sin theta) by (apply Rmult_le_pos; lra).
  destruct (Rle_dec 0 a) as [A|A].
  - assert (0 <= a * cos theta) by (apply Rmult_le_pos; lra). lra.
  - assert (P2 : 0 <= l * sin theta) by (apply Rmult_le_pos; lra).
    assert (Q : (- a) * (- a) <= (l * sin theta) * (l * sin theta)) by nra.
    assert (S : (- (a * cos theta)) * (- (a * cos theta)) <= (r * sin theta) * (r * sin theta)).
    { replace ((l * sin theta) * (l * sin theta)) with (l * l * (sin theta * sin theta)) in Q by ring. rewrite L2 in Q.
      replace (- a * - a) with (a * a * (sin theta * sin theta + cos theta * cos theta)) in Q by (rewrite Hsc; ring). lra. }
    assert (P3 : 0 <= - (a * cos theta)) by nra. nra.
Qed.
End Foot.

(** ** What the code computes *)
Section Value.
Variables (c1 c2 c3 theta : R).
Hypothesis Hc : c1 * c1 + c2 * c2 + c3 * c3 = 1.
Hypothesis Ht : 0 < theta < PI / 2.
Let Hcos : 0 < cos theta. Proof. apply cos_gt_0; pose proof PI_RGT_0; lra. Qed.
Let Hsc : sin theta * sin theta + cos theta * cos theta = 1.
Proof. pose proof (sin2_cos2 theta) as H; unfold Rsqr in H; exact H. Qed.
Variables (x y z : R).
Notation hgt := (hgt c1 c2 c3).
Notation rr := (rr c1 c2 c3).
Notation gap := (gap c1 c2 c3 theta).
Notation n1 := (nrm1 c1 c2 c3 theta x y z).
Notation n2 := (nrm2 c1 c2 c3 theta x y z).
Notation n3 := (nrm3 c1 c2 c3 theta x y z).

Lemma norm_axis : norm [c1; c2; c3] = 1.
Proof. unfold norm, sumsq; simpl. replace (_ + _) with 1 by lra. apply sqrt_1. Qed.
Lemma norm_pt : norm [x; y; z] = sqrt (x * x + y * y + z * z).
Proof. unfold norm, sumsq; simpl; f_equal; ring. Qed.

Lemma cosine : sqrt (x * x + y * y + z * z) <> 0 -> -1 <= hgt x y z / sqrt (x * x + y * y + z * z) <= 1.
Proof.
  intros L. set (l := sqrt _) in *. assert (L0 : 0 < l) by (pose proof (sqrt_pos (x * x + y * y + z * z)) as Q0; change (0 <= l) in Q0; lra).
  assert (L2 : l * l = rr x y z * rr x y z + hgt x y z * hgt x y z).
  { rewrite rr_sqr by exact Hc. unfold l; rewrite sqrt_sqrt; [ring|]. pose proof (Rle_0_sqr x); pose proof (Rle_0_sqr y);
      pose proof (Rle_0_sqr z); unfold Rsqr in *; lra. }
  pose proof (Rle_0_sqr (rr x y z)) as R2; unfold Rsqr in R2.
  assert (- l <= hgt x y z <= l) by (split; nra).
  split; apply (Rmult_le_reg_r l); auto; unfold Rdiv; rewrite Rmult_assoc, Rinv_l by lra; lra.
Qed.

Lemma mag_gap : sqrt (x * x + y * y + z * z) <> 0 ->
  sqrt (x * x + y * y + z * z) * sin (acos (hgt x y z / sqrt (x * x + y * y + z * z)) - theta) = gap x y z.
Proof.
  intros L. pose proof (cosine L) as Cs. set (l := sqrt _) in *.
  assert (L0 : 0 < l) by (pose proof (sqrt_pos (x * x + y * y + z * z)) as Q0; change (0 <= l) in Q0; lra).
  rewrite sin_minus, (cos_acos _ Cs), (sin_acos _ Cs). unfold ProofsConic.gap.
  assert (E : rr x y z = l * sqrt (1 - (hgt x y z / l)²)).
  { unfold ProofsConic.rr. rewrite <- (sqrt_square l) at 1 by lra. rewrite <- sqrt_mult_alt by nra. f_equal.
    unfold Rsqr. replace (l * l) with (x * x + y * y + z * z).
    2:{ unfold l; rewrite sqrt_sqrt; [ring|]. pose proof (Rle_0_sqr x); pose proof (Rle_0_sqr y);
      pose proof (Rle_0_sqr z); unfold Rsqr in *; lra. }
    assert (E2 : x * x + y * y + z * z = l * l).
    { unfold l; rewrite sqrt_sqrt; [ring|]. pose proof (Rle_0_sqr x); pose proof (Rle_0_sqr y);
      pose proof (Rle_0_sqr z); unfold Rsqr in *; lra. }
    rewrite E2. field; lra. }
  rewrite E. field; lra.
Qed.

Lemma norm_cone : norm (vsub [x; y; z] (vscale (dot [x; y; z] [c1; c2; c3]) [c1; c2; c3])) = rr x y z.
Proof.
  rewrite (rr_perp c1 c2 c3 Hc). unfold norm, sumsq, ProofsConic.hgt; simpl. f_equal. ring.
Qed.

Lemma conic_value_eq fov a_max vx vy vz w1 w2 w3 : fov / 2 = theta ->
  conic_value fov a_max [x; y; z] [vx; vy; vz] [c1; c2; c3] [w1; w2; w3] =
  if Req_EM_T (sqrt (x * x + y * y + z * z)) 0 then None
  else if Req_EM_T (rr x y z) 0 then None
  else if Req_EM_T (gap x y z) 0 then None
  else Some (braking_barrier a_max (gap x y z)
         (n1 * (vx - (w2 * z - w3 * y)) + n2 * (vy - (w3 * x - w1 * z)) + n3 * (vz - (w1 * y - w2 * x)))).
Proof.
  intros Hf. unfold conic_value. rewrite Hf, norm_axis.
  replace (vdiv [c1; c2; c3] 1) with [c1; c2; c3] by (unfold vdiv; simpl; repeat f_equal; field).
  rewrite norm_cone, norm_pt.
  replace (dot [c1; c2; c3] (vdiv [x; y; z] (sqrt (x * x + y * y + z * z)))) with
    (hgt x y z / sqrt (x * x + y * y + z * z)) by (unfold ProofsConic.hgt, vdiv; simpl; unfold Rdiv; ring).
  destruct (Req_EM_T 1 0) as [E|_]; [lra|].
  destruct (Req_EM_T (sqrt (x * x + y * y + z * z)) 0) as [E|L]; [reflexivity|].
  destruct (Req_EM_T (rr x y z) 0) as [E|Lr]; [reflexivity|].
  rewrite (mag_gap L). destruct (Req_EM_T (gap x y z) 0) as [E|Lg]; [reflexivity|].
  f_equal.
  assert (Off : 0 < rr x y z) by (pose proof (rr_nonneg c1 c2 c3 x y z); lra).
  replace (dot [x; y; z] [c1; c2; c3]) with (hgt x y z) by (unfold ProofsConic.hgt; simpl; ring).
  replace (cos theta * (rr x y z - tan theta * hgt x y z)) with (gap x y z)
    by (unfold ProofsConic.gap, tan; field; lra).
  set (a := hgt x y z) in *; set (r := rr x y z) in *; set (d := gap x y z) in *.
  set (m1 := n1) in *; set (m2 := n2) in *; set (m3 := n3) in *.
  assert (Ep : vadd (vadd [x; y; z] (vscale (d * sin theta) [c1; c2; c3]))
      (vdiv (vscale (d * cos theta) (vsub (vscale a [c1; c2; c3]) [x; y; z])) r) =
      [x - d * m1; y - d * m2; z - d * m3]).
  { unfold m1, m2, m3, nrm1, nrm2, nrm3; fold a r. unfold vadd, vdiv, vscale, vsub; simpl.
    repeat (f_equal; [field; lra|]). f_equal. field; lra. }
  rewrite Ep.
  assert (Ed : dot (vsub [x; y; z] [x - d * m1; y - d * m2; z - d * m3])
     (vsub [vx; vy; vz] (cross [w1; w2; w3] [x - d * m1; y - d * m2; z - d * m3])) / d =
     m1 * (vx - (w2 * z - w3 * y)) + m2 * (vy - (w3 * x - w1 * z)) + m3 * (vz - (w1 * y - w2 * x))).
  { unfold vsub, cross; simpl. field; exact Lg. }
  unfold conic_branch, braking_barrier. rewrite Ed.
  destruct (Rle_dec 0 d) as [D|D].
  - replace (Rleb 0 d) with true by (symmetry; apply Rleb_true; exact D). reflexivity.
  - replace (Rleb 0 d) with false by (symmetry; apply Rleb_false; lra). f_equal. f_equal. f_equal. ring.
Qed.

Lemma conic_phi_eq fov : conic_phi fov [x; y; z] [c1; c2; c3] =
  if Req_EM_T (sqrt (x * x + y * y + z * z)) 0 then None
  else Some (acos (hgt x y z / sqrt (x * x + y * y + z * z)) - fov / 2).
Proof.
  unfold conic_phi. rewrite norm_pt, norm_axis. destruct (Req_EM_T _ 0); [reflexivity|].
  destruct (Req_EM_T 1 0) as [E|_]; [lra|]. do 3 f_equal. unfold vdiv, ProofsConic.hgt; simpl. field. exact n.
Qed.
End Value.
