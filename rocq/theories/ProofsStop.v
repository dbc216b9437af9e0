(** The gain of the planar stopping controller: bounds that hold for every solution of its Riccati
    equation with the default mass and mean motion. *)
From Coq Require Import Reals List Lia Lra Psatz.
From Verif Require Import Prelude Vec SpecLqr.
Import ListNotations.
Local Open Scope R_scope.

Lemma discriminant a b c : (forall t, 0 <= a + 2 * t * b + t * t * c) -> b * b <= a * c.
Proof.
  intros H. destruct (Rle_lt_dec c 0) as [L|L].
  - pose proof (H 0) as H0.
    destruct (Req_dec b 0) as [->|N]; [|exfalso].
    + assert (c = 0 \/ c < 0) as [->|C] by lra; [lra|].
      (* a parabola that opens downwards *)
      pose proof (H ((a + 1) / - c + 1)) as H1.
      assert (P : 0 < (a + 1) / - c) by (apply Rdiv_lt_0_compat; lra). set (k := (a + 1) / - c) in *.
      assert (E : k * - c = a + 1) by (unfold k; field; lra).
      assert (E2 : c * k = - a - 1) by lra.
      assert ((k + 1) * (k + 1) * c = k * (c * k) + 2 * (c * k) + c) by ring. nra.
    + assert (c = 0 \/ c < 0) as [C|C] by lra.
      * pose proof (H (- (a + 1) / (2 * b))) as H1. rewrite C in H1.
        replace (a + 2 * (- (a + 1) / (2 * b)) * b + - (a + 1) / (2 * b) * (- (a + 1) / (2 * b)) * 0) with (-1) in H1 by (field; auto). lra.
      * pose proof (H ((a + 1) / - c + 1)) as H1. pose proof (H (- ((a + 1) / - c + 1))) as H2.
        assert (P : 0 < (a + 1) / - c) by (apply Rdiv_lt_0_compat; lra). set (k := (a + 1) / - c) in *.
        assert (E : k * - c = a + 1) by (unfold k; field; lra).
        assert (E2 : c * k = - a - 1) by lra.
        assert (E3 : (k + 1) * (k + 1) * c = k * (c * k) + 2 * (c * k) + c) by ring. nra.
  - pose proof (H (- (b / c))) as H1.
    replace (a + 2 * - (b / c) * b + - (b / c) * - (b / c) * c) with ((a * c - b * b) / c) in H1 by (field; lra).
    assert (0 <= (a * c - b * b) / c * c) by (apply Rmult_le_pos; lra).
    replace ((a * c - b * b) / c * c) with (a * c - b * b) in H0 by (field; lra). lra.
Qed.

(** Bounds on products and square roots. *)
Lemma pb x y X Y : - X <= x <= X -> - Y <= y <= Y -> - (X * Y) <= x * y <= X * Y.
Proof.
  intros Hx Hy. assert (0 <= (X - x) * (Y - y)) by (apply Rmult_le_pos; lra). assert (0 <= (X + x) * (Y + y)) by (apply Rmult_le_pos; lra).
  assert (0 <= (X - x) * (Y + y)) by (apply Rmult_le_pos; lra). assert (0 <= (X + x) * (Y - y)) by (apply Rmult_le_pos; lra). lra.
Qed.
Lemma sb x X : 0 <= X -> x * x <= X * X -> - X <= x <= X.
Proof.
  intros HX H. split; apply Rnot_lt_le; intros L.
  - assert (0 < (- x - X) * (- x + X)) by (apply Rmult_lt_0_compat; lra). lra.
  - assert (0 < (x - X) * (x + X)) by (apply Rmult_lt_0_compat; lra). lra.
Qed.
Lemma sq x : 0 <= x * x.
Proof. exact (Rle_0_sqr x). Qed.

(** The equation, entry by entry and in units in which its terms are of about the same size. *)
Section Planar.
Variables (N d y11 y12 y21 y22 a b c x22 : R).
Hypotheses (HN : 0 <= N <= 42 / 1000) (Hd : d = 3 * (N * N)).
Hypotheses (E1 : y11 * y11 + y12 * y12 = 8 / 9 + 2 * d * y11) (E2 : y21 * y21 + y22 * y22 = 8 / 9)
  (E3 : y11 * y21 + y12 * y22 = d * y21).
Hypotheses (F1 : a * a + b * b = 1 / 1800 + 2 * y11 - 4 * N * b) (F2 : b * b + c * c = 1 / 1800 + 2 * y22 + 4 * N * b)
  (F3 : b * (a + c) = y12 + y21 + 2 * N * (a - c)).
Hypotheses (G : y11 * b + y12 * c - 2 * N * y11 - d * b = y21 * a + y22 * b + 2 * N * y22)
  (X : x22 = y21 * b + y22 * c - 2 * N * y21).
Hypotheses (A0 : 0 <= a) (C0 : 0 <= c) (B0 : b * b <= a * c) (Y0 : y21 * y21 <= x22 * a).

Lemma d_small : 0 <= d <= 53 / 10000.
Proof.
  rewrite Hd. pose proof (sq N).
  assert (0 <= (42 / 1000 - N) * (42 / 1000 + N)) by (apply Rmult_le_pos; lra). lra.
Qed.

(** Y is diag(d, 0) plus a multiple of an orthogonal matrix, but for a stretching close to one. *)
Lemma rotation : exists l, l * l = 1 + 9 / 8 * (d * d) /\ y11 - d = l * y22 /\ y12 = - l * y21.
Proof.
  exists (9 / 8 * ((y11 - d) * y22 - y12 * y21)).
  assert (H1 : (y11 - d) * (y11 - d) + y12 * y12 = 8 / 9 + d * d) by lra.
  assert (H3 : (y11 - d) * y21 + y12 * y22 = 0) by lra.
  set (w := y11 - d) in *. clearbody w. split; [|split].
  - assert (K : (w * y22 - y12 * y21) * (w * y22 - y12 * y21) = (w * w + y12 * y12) * (y21 * y21 + y22 * y22)
      - (w * y21 + y12 * y22) * (w * y21 + y12 * y22)) by ring.
    rewrite H1, E2, H3 in K.
    replace (9 / 8 * (w * y22 - y12 * y21) * (9 / 8 * (w * y22 - y12 * y21))) with (81 / 64 * ((w * y22 - y12 * y21) * (w * y22 - y12 * y21))) by field.
    rewrite K. field.
  - replace (9 / 8 * (w * y22 - y12 * y21) * y22) with (9 / 8 * (w * (y21 * y21 + y22 * y22) - y21 * (w * y21 + y12 * y22))) by ring.
    rewrite E2, H3. field.
  - replace (- (9 / 8 * (w * y22 - y12 * y21)) * y21) with (9 / 8 * (y12 * (y21 * y21 + y22 * y22) - y22 * (w * y21 + y12 * y22))) by ring.
    rewrite E2, H3. field.
Qed.

Lemma planar_gain : 7 / 10 <= a <= 14 / 10 /\ 7 / 10 <= c <= 14 / 10 /\ - (1 / 1000) <= b <= 1 / 1000.
Proof.
  pose proof d_small as Dd. destruct rotation as (l & L2 & W & Y12).
  pose proof (sq y21) as Q21. pose proof (sq y22) as Q22. pose proof (sq b) as Qb. pose proof (sq a) as Qa. pose proof (sq c) as Qc.
  assert (Hy22 : - (95 / 100) <= y22 <= 95 / 100) by (apply sb; lra).
  assert (Hy21 : - (95 / 100) <= y21 <= 95 / 100) by (apply sb; lra).
  assert (D2 : 0 <= d * d <= 3 / 100000).
  { pose proof (sq d). pose proof (pb d d (53 / 10000) (53 / 10000) ltac:(lra) ltac:(lra)). lra. }
  assert (Sum : a * a + 2 * (b * b) + c * c = 1 / 900 + 2 * d + 2 * (1 + l) * y22) by lra.
  destruct (Rle_lt_dec 0 l) as [Hl|Hl].
  - assert (l1 : 1 <= l <= 1 + 2 / 100000).
    { split; apply Rnot_lt_le; intros L.
      - assert (0 < (1 - l) * (1 + l)) by (apply Rmult_lt_0_compat; lra). lra.
      - assert (0 < (l - (1 + 2 / 100000)) * (l + (1 + 2 / 100000))) by (apply Rmult_lt_0_compat; lra). lra. }
    set (g := l - 1) in *. assert (Lg : l = 1 + g) by (unfold g; lra). clearbody g. subst l.
    assert (Hg : - (2 / 100000) <= g <= 2 / 100000) by lra.
    assert (Gy := pb g y22 _ _ Hg Hy22). assert (Gy1 := pb g y21 _ _ Hg Hy21).
    assert (Y11 : y11 = d + y22 + g * y22) by lra.
    assert (Y12' : y12 = - y21 - g * y21) by lra.
    assert (T2 : a * a + 2 * (b * b) + c * c <= (a + c) * (a + c)) by lra.
    assert (Lo : - (3 / 1000) <= y22) by lra.
    assert (Y : 1 / 2 <= y22).
    { destruct (Rle_lt_dec (1 / 2) y22) as [Q|Q]; [exact Q|exfalso].
      assert (S : 63 / 100 <= y21 * y21).
      { assert (y22 * y22 <= 1 / 2 * (1 / 2)) by (apply (pb y22 y22 (1 / 2) (1 / 2)); lra). lra. }
      (* the symmetry of the position block *)
      assert (T0 : 0 <= a + c) by lra. 
      assert (G' : y21 * (a + c) = g * (y22 * b) - g * (y21 * c) - 2 * N * d - 2 * N * (2 * y22 + g * y22)).
      { rewrite Y11, Y12' in G. lra. }
      set (t := a + c) in *.
      assert (Qac : 0 <= a * c) by (apply Rmult_le_pos; lra).
      assert (Bt : - t <= b <= t) by (apply sb; [lra|unfold t; lra]).
      assert (Ct : - t <= c <= t) by (unfold t; lra).
      assert (R1 := pb y22 b _ _ Hy22 Bt). assert (R2 := pb y21 c _ _ Hy21 Ct).
      assert (R1' : - t <= y22 * b <= t) by lra. assert (R2' : - t <= y21 * c <= t) by lra.
      assert (R3 := pb g (y22 * b) _ _ Hg R1'). assert (R4 := pb g (y21 * c) _ _ Hg R2').
      assert (HN' : - (42 / 1000) <= N <= 42 / 1000) by lra.
      assert (R5 := pb N d _ _ HN' (ltac:(lra) : - (53 / 10000) <= d <= 53 / 10000)).
      assert (Ub : 79 / 100 * t <= 1 / 1000 * t + 46 / 100000 + 17 / 100 * Rabs y22).
      { assert (HA : - Rabs y22 <= y22 <= Rabs y22) by (unfold Rabs; destruct (Rcase_abs y22); lra).
        assert (R6 := pb N y22 _ _ HN' HA). assert (R7 := pb N (g * y22) _ _ HN' Gy).
        destruct (Rle_lt_dec 0 y21) as [P21|P21].
        - assert (79 / 100 <= y21).
          { apply Rnot_lt_le; intros L. assert (0 < (79 / 100 - y21) * (79 / 100 + y21)) by (apply Rmult_lt_0_compat; lra). lra. }
          assert (0 <= (y21 - 79 / 100) * t) by (apply Rmult_le_pos; lra). lra.
        - assert (y21 <= - (79 / 100)).
          { apply Rnot_lt_le; intros L. assert (0 < (79 / 100 + y21) * (79 / 100 - y21)) by (apply Rmult_lt_0_compat; lra). lra. }
          assert (0 <= (- y21 - 79 / 100) * t) by (apply Rmult_le_pos; lra). lra. }
      unfold Rabs in Ub; destruct (Rcase_abs y22) as [Ny|Ny].
      - assert (Ut : t <= 15 / 10000) by lra.
        (* then the position block is too small for the coupling *)
        assert (Xs : x22 <= 1).
        { rewrite X. assert (R8 := pb N y21 _ _ HN' Hy21). assert (R9 := pb y21 b _ _ Hy21 Bt). assert (R10 := pb y22 c _ _ Hy22 Ct). lra. }
        assert (At : 0 <= a <= t) by (unfold t; lra).
        assert (x22 * a <= 1 * a) by (apply Rmult_le_compat_r; lra). lra.
      - assert (Ut : 78 / 100 * t <= 46 / 100000 + 17 / 100 * y22) by lra.
        assert (Ut' : t <= 1 / 4) by lra.
        assert (t * t <= 1 / 4 * t) by (apply Rmult_le_compat_r; lra). lra. }
    set (t := a + c) in *. assert (T0 : 0 <= t) by (unfold t; lra).
    assert (T1 : 141 / 100 <= t).
    { apply Rnot_lt_le; intros L. assert (t * t <= 141 / 100 * (141 / 100)) by (apply (pb t t (141 / 100) (141 / 100)); lra). lra. }
    set (e := a - c) in *.
    assert (E4 : e * t = 2 * d + 2 * (g * y22) - 8 * N * b) by (unfold e, t; lra).
    assert (E5 : b * t = - (g * y21) + 2 * N * e) by lra.
    (* eliminate e *)
    assert (HN' : - (42 / 1000) <= N <= 42 / 1000) by lra.
    assert (E6 : b * (t * t + 16 * (N * N)) = - (g * y21) * t + 4 * N * (d + g * y22)).
    { replace (b * (t * t + 16 * (N * N))) with (b * t * t + 16 * (N * N) * b) by ring. rewrite E5.
      replace ((- (g * y21) + 2 * N * e) * t) with (- (g * y21) * t + 2 * N * (e * t)) by ring. rewrite E4. ring. }
    assert (E7 : e * (t * t + 16 * (N * N)) = 2 * (d + g * y22) * t + 8 * N * (g * y21)).
    { replace (e * (t * t + 16 * (N * N))) with (e * t * t + 16 * (N * N) * e) by ring. rewrite E4.
      replace ((2 * d + 2 * (g * y22) - 8 * N * b) * t) with (2 * (d + g * y22) * t - 8 * N * (b * t)) by ring. rewrite E5. ring. }
    set (z := t * t + 16 * (N * N)) in *.
    assert (Tt : 14 / 10 * t <= t * t) by (apply Rmult_le_compat_r; lra).
    assert (Z0 : 14 / 10 * t <= z) by (unfold z; pose proof (sq N); lra).
    assert (R1 := pb N (d + g * y22) _ _ HN' (ltac:(lra) : - (54 / 10000) <= d + g * y22 <= 54 / 10000)).
    assert (R2 := pb (g * y21) t _ _ Gy1 (ltac:(lra) : - t <= t <= t)).
    assert (R3 := pb (d + g * y22) t _ _ (ltac:(lra) : - (54 / 10000) <= d + g * y22 <= 54 / 10000) (ltac:(lra) : - t <= t <= t)).
    assert (R4 := pb N (g * y21) _ _ HN' Gy1).
    assert (Zp : 0 < z) by lra.
    assert (Bb : - (1 / 1000) <= b <= 1 / 1000).
    { split; apply (Rmult_le_reg_r z); try exact Zp; rewrite E6; lra. }
    assert (Be : - (1 / 100) <= e <= 1 / 100).
    { split; apply (Rmult_le_reg_r z); try exact Zp; rewrite E7; lra. }
    assert (Nb := pb N b _ _ HN' Bb).
    assert (Ua : - (14 / 10) <= a <= 14 / 10) by (apply sb; lra). assert (Uc : - (14 / 10) <= c <= 14 / 10) by (apply sb; lra).
    unfold e, t in *. repeat split; lra.
  - exfalso.
    assert (l1 : - (1 + 2 / 100000) <= l <= -1).
    { split; apply Rnot_lt_le; intros L.
      - assert (0 < (- l - (1 + 2 / 100000)) * (- l + (1 + 2 / 100000))) by (apply Rmult_lt_0_compat; lra). lra.
      - assert (0 < (1 + l) * (1 - l)) by (apply Rmult_lt_0_compat; lra). lra. }
    assert (Hg : - (2 / 100000) <= 1 + l <= 2 / 100000) by lra.
    assert (Gy := pb (1 + l) y22 _ _ Hg Hy22).
    assert (S : a * a + 2 * (b * b) + c * c <= 12 / 1000) by lra.
    assert (HN' : - (42 / 1000) <= N <= 42 / 1000) by lra.
    assert (Ba : - (11 / 100) <= a <= 11 / 100) by (apply sb; lra).
    assert (Bc : - (11 / 100) <= c <= 11 / 100) by (apply sb; lra).
    assert (Bb : - (8 / 100) <= b <= 8 / 100) by (apply sb; lra).
    assert (R1 := pb N b _ _ HN' Bb).
    assert (R2 := pb b (a + c) _ _ Bb (ltac:(lra) : - (22 / 100) <= a + c <= 22 / 100)).
    assert (R3 := pb N (a - c) _ _ HN' (ltac:(lra) : - (22 / 100) <= a - c <= 22 / 100)).
    assert (By22 : - (2 / 100) <= y22 <= 2 / 100) by lra.
    assert (R4 := pb y22 y22 _ _ By22 By22).
    assert (R5 : 8 / 10 <= y21 * y21) by lra.
    assert (E8 : (1 - l) * y21 = b * (a + c) - 2 * N * (a - c)) by lra.
    assert (- (5 / 100) <= (1 - l) * y21 <= 5 / 100) by lra.
    assert (- (4 / 100) <= y21 <= 4 / 100).
    { split; apply Rnot_lt_le; intros L.
      - assert (0 < (- (4 / 100) - y21) * (1 - l)) by (apply Rmult_lt_0_compat; lra). lra.
      - assert (0 < (y21 - 4 / 100) * (1 - l)) by (apply Rmult_lt_0_compat; lra). lra. }
    assert (R6 := pb y21 y21 (4 / 100) (4 / 100) ltac:(lra) ltac:(lra)). lra.
Qed.
End Planar.
