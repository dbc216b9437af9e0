(** Flight under the clipped thrust of a stopping controller: rates of the speed limits. *)
From Coq Require Import Reals List Lia Lra Psatz.
From Verif Require Import Prelude Vec ModelZoo SpecConic SpecDock ProofsVec ProofsConstraint ProofsCwh ProofsCwh2 ProofsDock ProofsDock2 ProofsStop.
Import ListNotations.
Local Open Scope R_scope.

Definition cut (s : R) : R := Rmin (Rmax s (-1)) 1.
Lemma cut_opp s : cut (- s) = - cut s.
Proof. unfold cut, Rmin, Rmax. repeat destruct (Rle_dec _ _); lra. Qed.
Lemma cut_range s : -1 <= cut s <= 1.
Proof. unfold cut, Rmin, Rmax. repeat destruct (Rle_dec _ _); lra. Qed.
Lemma cut_high s : 1 <= s -> cut s = 1.
Proof. intros H. unfold cut, Rmin, Rmax. repeat destruct (Rle_dec _ _); lra. Qed.
Lemma cut_above s r : r <= s -> -1 <= r <= 1 -> r <= cut s.
Proof. intros H. unfold cut, Rmin, Rmax. repeat destruct (Rle_dec _ _); lra. Qed.

(** The power of one thruster. *)
Lemma push k th e f v : 0 <= th <= k -> -1 <= th * v <= 1 -> - f <= e <= f -> f <= 1 ->
  th * (v * v) - f * Rabs v <= v * cut (k * v + e).
Proof.
  intros Hk Ht He Hf.
  assert (P : forall w g, 0 <= w -> th * w <= 1 -> - f <= g <= f -> th * (w * w) - f * w <= w * cut (k * w + g)).
  { intros w g Hw Hw1 Hg. assert (0 <= th * w) by (apply Rmult_le_pos; lra). assert (0 <= (k - th) * w) by (apply Rmult_le_pos; lra).
    assert (C : th * w - f <= cut (k * w + g)) by (apply cut_above; lra).
    replace (th * (w * w) - f * w) with (w * (th * w - f)) by ring. apply Rmult_le_compat_l; lra. }
  unfold Rabs; destruct (Rcase_abs v) as [L|L].
  - specialize (P (- v) (- e) ltac:(lra) ltac:(lra) ltac:(lra)).
    replace (k * - v + - e) with (- (k * v + e)) in P by ring. rewrite cut_opp in P. lra.
  - apply P; lra.
Qed.
(** A thruster at its limit. *)
Lemma full k e v : 12 / 100 <= k -> - (15 / 100) <= e <= 15 / 100 -> 100 <= v * v -> v * cut (k * v + e) = Rabs v /\ 10 <= Rabs v.
Proof.
  intros Hk He Hv.
  assert (P : forall w g, 10 <= w -> - (15 / 100) <= g <= 15 / 100 -> w * cut (k * w + g) = w).
  { intros w g Hw Hg. assert (0 <= (k - 12 / 100) * w) by (apply Rmult_le_pos; lra). rewrite cut_high by lra. ring. }
  unfold Rabs; destruct (Rcase_abs v) as [L|L].
  - assert (10 <= - v).
    { apply Rnot_lt_le; intros Q. assert (0 < (10 - - v) * (10 + - v)) by (apply Rmult_lt_0_compat; lra). lra. }
    split; [|lra]. specialize (P (- v) (- e) ltac:(lra) ltac:(lra)).
    replace (k * - v + - e) with (- (k * v + e)) in P by ring. rewrite cut_opp in P. lra.
  - assert (10 <= v).
    { apply Rnot_lt_le; intros Q. assert (0 < (10 - v) * (10 + v)) by (apply Rmult_lt_0_compat; lra). lra. }
    split; [|lra]. apply P; lra.
Qed.

Section Flight.
Variables (n v1 x y z vx vy vz k11 k12 k13 k22 k23 k33 : R).
Let p := (x, y, z).
Let v := (vx, vy, vz).
Hypotheses (Hn : 0 <= n <= 105 / 100000) (Hv1 : 2 * n <= v1 <= 4 * n).
Hypotheses (G1 : 12 / 100 <= k11) (G2 : 12 / 100 <= k22) (G3 : 12 / 100 <= k33)
  (O1 : - (1 / 200) <= k12 <= 1 / 200) (O2 : - (1 / 200) <= k13 <= 1 / 200) (O3 : - (1 / 200) <= k23 <= 1 / 200).
Hypotheses (Vx : vx * vx <= 10 * 10 + 1 / 1000) (Vy : vy * vy <= 10 * 10 + 1 / 1000) (Vz : vz * vz <= 10 * 10 + 1 / 1000).
Let ux := - cut (k11 * vx + (k12 * vy + k13 * vz)).
Let uy := - cut (k22 * vy + (k12 * vx + k23 * vz)).
Let uz := - cut (k33 * vz + (k13 * vx + k23 * vy)).
Let ax := 3 * (n * n) * x + 2 * n * vy + ux / 12.
Let ay := - (2 * n * vx) + uy / 12.
Let az := - (n * n * z) + uz / 12.

Lemma bx : - (1001 / 100) <= vx <= 1001 / 100.
Proof. apply sb; lra. Qed.
Lemma by_ : - (1001 / 100) <= vy <= 1001 / 100.
Proof. apply sb; lra. Qed.
Lemma bz : - (1001 / 100) <= vz <= 1001 / 100.
Proof. apply sb; lra. Qed.

Lemma cross a b k l : - (1 / 200) <= k <= 1 / 200 -> - (1 / 200) <= l <= 1 / 200 ->
  - ((Rabs a + Rabs b) / 200) <= k * a + l * b <= (Rabs a + Rabs b) / 200.
Proof.
  intros Hk Hl.
  assert (A : forall w, - Rabs w <= w <= Rabs w) by (intros w; unfold Rabs; destruct (Rcase_abs w); lra).
  pose proof (pb k a _ _ Hk (A a)). pose proof (pb l b _ _ Hl (A b)). lra.
Qed.
Lemma abs_le10 w : - (1001 / 100) <= w <= 1001 / 100 -> 0 <= Rabs w <= 1001 / 100.
Proof. unfold Rabs; destruct (Rcase_abs w); lra. Qed.

(** The thrust takes out energy at a rate proportional to it. *)
Lemma power : ux * vx + uy * vy + uz * vz <= - (898 / 10000) * pdot v v.
Proof.
  pose proof (abs_le10 _ bx) as Ax. pose proof (abs_le10 _ by_) as Ay. pose proof (abs_le10 _ bz) as Az.
  pose proof bx as Bx. pose proof by_ as By. pose proof bz as Bz.
  pose proof (push k11 (998 / 10000) _ _ vx ltac:(lra) ltac:(lra) (cross vy vz k12 k13 O1 O2) ltac:(lra)) as P1.
  pose proof (push k22 (998 / 10000) _ _ vy ltac:(lra) ltac:(lra) (cross vx vz k12 k23 O1 O3) ltac:(lra)) as P2.
  pose proof (push k33 (998 / 10000) _ _ vz ltac:(lra) ltac:(lra) (cross vx vy k13 k23 O2 O3) ltac:(lra)) as P3.
  unfold ux, uy, uz, v, pdot.
  assert (S : forall w, Rabs w * Rabs w = w * w) by (intros w; unfold Rabs; destruct (Rcase_abs w); ring).
  pose proof (S vx) as Sx. pose proof (S vy) as Sy. pose proof (S vz) as Sz.
  pose proof (sq (Rabs vx - Rabs vy)). pose proof (sq (Rabs vx - Rabs vz)). pose proof (sq (Rabs vy - Rabs vz)).
  lra.
Qed.

Lemma speed_recovers : 2 / 10 + v1 * smooth p - smooth v - 1 / 10000 < 0 ->
  0 < v1 * (pdot p v / smooth p) - pdot v (ax, ay, az) / smooth v.
Proof.
  intros H. pose proof power as Pw.
  pose proof (smooth_pos p) as Rp. pose proof (smooth_sqr p) as R2. pose proof (smooth_pos v) as Sp. pose proof (smooth_sqr v) as S2.
  set (rho := smooth p) in *. set (sg := smooth v) in *.
  assert (Sl : 1999 / 10000 <= sg).
  { assert (0 <= v1 * rho) by (apply Rmult_le_pos; lra). lra. }
  set (w := sqrt (pdot v v)).
  assert (W0 : 0 <= w) by apply sqrt_pos.
  assert (W2 : w * w = pdot v v) by (apply sqrt_sqrt, pdot_pos).
  assert (Ws : 999 / 1000 * sg <= w).
  { apply le_of_sqr; [exact W0|]. rewrite W2.
    assert (1999 / 10000 * (1999 / 10000) <= sg * sg) by (apply Rmult_le_compat; lra). lra. }
  assert (Wsg : w <= sg) by (apply le_of_sqr; lra).
  pose proof (pdot_pos p) as Pp.
  (* directions *)
  assert (Q1 : - (rho * w) <= pdot p v).
  { apply (sb (pdot p v) (rho * w)); [apply Rmult_le_pos; lra|].
    replace (rho * w * (rho * w)) with ((rho * rho) * (w * w)) by ring. rewrite R2, W2.
    pose proof (pdot_pos v). apply Rle_trans with (pdot p p * pdot v v).
    - unfold p, v, pdot. pose proof (sq (x * vy - y * vx)). pose proof (sq (x * vz - z * vx)). pose proof (sq (y * vz - z * vy)). lra.
    - apply Rmult_le_compat_r; lra. }
  assert (Q2 : 3 * (x * vx) - z * vz <= 3 * (rho * w)).
  { apply (sb (3 * (x * vx) - z * vz) (3 * (rho * w))); [assert (0 <= rho * w) by (apply Rmult_le_pos; lra); lra|].
    replace (3 * (rho * w) * (3 * (rho * w))) with (9 * ((rho * rho) * (w * w))) by ring. rewrite R2, W2.
    pose proof (pdot_pos v). apply Rle_trans with (9 * (pdot p p * pdot v v)).
    - unfold p, v, pdot. pose proof (sq (3 * (x * vz) + z * vx)).
      pose proof (sq (x * vx)). pose proof (sq (x * vy)). pose proof (sq (x * vz)). pose proof (sq (y * vx)). pose proof (sq (y * vy)). pose proof (sq (y * vz)).
      pose proof (sq (z * vx)). pose proof (sq (z * vy)). pose proof (sq (z * vz)). lra.
    - assert (pdot p p * pdot v v <= (pdot p p + 1 / 100000) * pdot v v) by (apply Rmult_le_compat_r; lra). lra. }
  assert (E : pdot v (ax, ay, az) = n * n * (3 * (x * vx) - z * vz) + (ux * vx + uy * vy + uz * vz) / 12).
  { unfold v, pdot, ax, ay, az. field. }
  assert (NN : 0 <= n * n) by apply sq.
  assert (U : pdot v (ax, ay, az) <= 3 * (n * n) * (rho * w) - 748 / 100000 * (w * w)).
  { rewrite E. assert (n * n * (3 * (x * vx) - z * vz) <= n * n * (3 * (rho * w))) by (apply Rmult_le_compat_l; lra). rewrite <- W2 in Pw. pose proof (sq w). lra. }
  (* the distance is bounded by the speed *)
  assert (Rb : 2 * n * rho <= sg).
  { assert (0 <= (v1 - 2 * n) * rho) by (apply Rmult_le_pos; lra). lra. }
  assert (K : 3 * (n * n) * rho + v1 * sg <= 58 / 10000 * sg).
  { assert (0 <= n * (sg - 2 * n * rho)) by (apply Rmult_le_pos; lra).
    assert (0 <= (4 * n - v1) * sg) by (apply Rmult_le_pos; lra).
    assert (0 <= (105 / 100000 - n) * sg) by (apply Rmult_le_pos; lra). lra. }
  apply Rmult_lt_reg_r with sg; [exact Sp|]. rewrite Rmult_0_l.
  replace ((v1 * (pdot p v / rho) - pdot v (ax, ay, az) / sg) * sg) with (v1 * (pdot p v / rho) * sg - pdot v (ax, ay, az)) by (field; lra).
  assert (A : - w <= pdot p v / rho).
  { apply Rmult_le_reg_r with rho; [exact Rp|]. unfold Rdiv; rewrite Rmult_assoc, Rinv_l, Rmult_1_r by lra. lra. }
  assert (B : - (v1 * sg * w) <= v1 * (pdot p v / rho) * sg).
  { assert (0 <= v1 * sg * (pdot p v / rho + w)) by (apply Rmult_le_pos; [apply Rmult_le_pos; lra|lra]). lra. }
  assert (C : 0 < w * (748 / 100000 * w - 3 * (n * n) * rho - v1 * sg)) by (apply Rmult_lt_0_compat; lra).
  lra.
Qed.

Hypothesis Far : - 15000 <= x <= 15000.
Hypothesis Farz : - 15000 <= z <= 15000.

Lemma n2_small : 0 <= n * n <= 1103 / 1000000000.
Proof. pose proof (sq n). pose proof (pb n n (105 / 100000) (105 / 100000) ltac:(lra) ltac:(lra)). lra. Qed.

Lemma cross10 a b k l : - (1001 / 100) <= a <= 1001 / 100 -> - (1001 / 100) <= b <= 1001 / 100 ->
  - (1 / 200) <= k <= 1 / 200 -> - (1 / 200) <= l <= 1 / 200 -> - (15 / 100) <= k * a + l * b <= 15 / 100.
Proof. intros Ha Hb Hk Hl. pose proof (pb k a _ _ Hk Ha). pose proof (pb l b _ _ Hl Hb). lra. Qed.

Lemma drag (w f r : R) : - f <= r <= f -> f < 1 / 12 -> 10 <= Rabs w -> w * r - Rabs w / 12 < 0.
Proof.
  intros Hr Hf Hw. assert (w * r <= Rabs w * f); [|assert (0 < Rabs w * (1 / 12 - f)) by (apply Rmult_lt_0_compat; lra); lra].
  unfold Rabs in *; destruct (Rcase_abs w).
  - assert (0 <= - w * (f + r)) by (apply Rmult_le_pos; lra). lra.
  - assert (0 <= w * (f - r)) by (apply Rmult_le_pos; lra). lra.
Qed.

Lemma x_recovers : 10 * 10 - vx * vx < 0 -> 0 < -2 * (vx * ax).
Proof.
  intros H. pose proof n2_small as N2. pose proof by_ as By.
  destruct (full k11 (k12 * vy + k13 * vz) vx G1 (cross10 _ _ _ _ by_ bz O1 O2) ltac:(lra)) as [F A].
  assert (M := pb (n * n) x (1103 / 1000000000) 15000 ltac:(lra) Far). assert (L := pb n vy (105 / 100000) _ ltac:(lra) By).
  pose proof (drag vx (8 / 100) (3 * (n * n) * x + 2 * n * vy) ltac:(lra) ltac:(lra) A) as D.
  unfold ax, ux. lra.
Qed.
Lemma y_recovers : 10 * 10 - vy * vy < 0 -> 0 < -2 * (vy * ay).
Proof.
  intros H. pose proof bx as Bx.
  destruct (full k22 (k12 * vx + k23 * vz) vy G2 (cross10 _ _ _ _ bx bz O1 O3) ltac:(lra)) as [F A].
  assert (L := pb n vx (105 / 100000) _ ltac:(lra) Bx).
  pose proof (drag vy (8 / 100) (- (2 * n * vx)) ltac:(lra) ltac:(lra) A) as D.
  unfold ay, uy. lra.
Qed.
Lemma z_recovers : 10 * 10 - vz * vz < 0 -> 0 < -2 * (vz * az).
Proof.
  intros H. pose proof n2_small as N2.
  destruct (full k33 (k13 * vx + k23 * vy) vz G3 (cross10 _ _ _ _ bx by_ O2 O3) ltac:(lra)) as [F A].
  assert (M := pb (n * n) z (1103 / 1000000000) 15000 ltac:(lra) Farz).
  pose proof (drag vz (8 / 100) (- (n * n * z)) ltac:(lra) ltac:(lra) A) as D.
  unfold az, uz. lra.
Qed.
End Flight.
