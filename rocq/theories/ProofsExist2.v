(** The Riccati equations of the stopping controllers have solutions. *)
From Coq Require Import Reals List Lia Lra Psatz.
From Verif Require Import Prelude Vec SpecLqr ProofsVec ProofsLqr ProofsStop ProofsStop4 ProofsExist.
Import ListNotations.
Local Open Scope R_scope.

Lemma two_by_two p v y : - (96 / 100) <= y <= 96 / 100 -> 0 <= 1 * (p * p) + 2 * y * (p * v) + 125 / 100 * (v * v).
Proof.
  intros Hy. pose proof (sq (p + v)). pose proof (sq (p - v)). pose proof (sq p). pose proof (sq v).
  assert (0 <= (96 / 100 - y) * ((p - v) * (p - v))) by (apply Rmult_le_pos; lra).
  assert (0 <= (96 / 100 + y) * ((p + v) * (p + v))) by (apply Rmult_le_pos; lra). lra.
Qed.
Lemma side e E x y : - E <= e <= E -> - (E * (x * x + y * y)) <= 2 * e * (x * y).
Proof.
  intros H. pose proof (sq (x + y)). pose proof (sq (x - y)).
  assert (0 <= (E - e) * ((x - y) * (x - y))) by (apply Rmult_le_pos; lra).
  assert (0 <= (E + e) * ((x + y) * (x + y))) by (apply Rmult_le_pos; lra). lra.
Qed.

Lemma planar_riccati_exists n : 0 <= n <= 105 / 100000 -> exists P, riccati 4 (motion2 n) (thrust2_t 12) (diagonal 4 (1 / 20)) 1000 P.
Proof.
  intros Hn. set (N := 40 * n). assert (HN : 0 <= N <= 42 / 1000) by (unfold N; lra).
  destruct (planar_solution N HN) as (y11 & y12 & y21 & y22 & a & b & c & E1 & E2 & E3 & F1 & F2 & F3 & G & By11 & By22 & By12 & By21 & Ba & Bc & Bb).
  assert (Hd : 0 <= 3 * (N * N) <= 53 / 10000) by (pose proof (sq N); pose proof (pb N N (42 / 1000) (42 / 1000) ltac:(lra) ltac:(lra)); lra).
  set (d := 3 * (N * N)) in *.
  set (x11 := y11 * a + y12 * b + 2 * N * y12 - d * a). set (x12 := y11 * b + y12 * c - 2 * N * y11 - d * b). set (x22 := y21 * b + y22 * c - 2 * N * y21).
  assert (Bx11 : 124 / 100 <= x11).
  { unfold x11. assert (93 / 100 * (135 / 100) <= y11 * a) by (apply Rmult_le_compat; lra).
    pose proof (pb y12 b _ _ By12 Bb). pose proof (pb N y12 (42 / 1000) _ ltac:(lra) By12). pose proof (pb d a (53 / 10000) (139 / 100) ltac:(lra) ltac:(lra)). lra. }
  assert (Bx22 : 124 / 100 <= x22).
  { unfold x22. assert (93 / 100 * (135 / 100) <= y22 * c) by (apply Rmult_le_compat; lra).
    pose proof (pb y21 b _ _ By21 Bb). pose proof (pb N y21 (42 / 1000) _ ltac:(lra) By21). lra. }
  assert (Bx12 : - (14 / 100) <= x12 <= 14 / 100).
  { unfold x12. pose proof (pb y11 b (95 / 100) _ ltac:(lra) Bb). pose proof (pb y12 c _ (139 / 100) By12 ltac:(lra)).
    pose proof (pb N y11 (42 / 1000) (95 / 100) ltac:(lra) ltac:(lra)). pose proof (pb d b (53 / 10000) _ ltac:(lra) Bb).
    pose proof (pb y21 a _ (139 / 100) By21 ltac:(lra)). pose proof (pb y22 b (95 / 100) _ ltac:(lra) Bb). assert (0 <= N * y11) by (apply Rmult_le_pos; lra). assert (0 <= N * y22) by (apply Rmult_le_pos; lra). lra. }
  exists [[9 / 4 * x11; 9 / 4 * x12; 90 * y11; 90 * y12]; [9 / 4 * x12; 9 / 4 * x22; 90 * y21; 90 * y22];
     [90 * y11; 90 * y21; 3600 * a; 3600 * b]; [90 * y12; 90 * y22; 3600 * b; 3600 * c]].
  split; [split; [reflexivity|repeat constructor]|]. split; [|split].
  - intros x y Lx Ly. destruct x as [|x1 [|x2 [|x3 [|x4 [|]]]]]; try discriminate Lx. destruct y as [|w1 [|w2 [|w3 [|w4 [|]]]]]; try discriminate Ly.
    unfold form, mv. cbn. ring.
  - intros x Lx. destruct x as [|x1 [|x2 [|x3 [|x4 [|]]]]]; try discriminate Lx. unfold form, mv. cbn.
    set (p1 := 3 / 2 * x1). set (p2 := 3 / 2 * x2). set (v1 := 60 * x3). set (v2 := 60 * x4).
    match goal with |- 0 <= ?l => replace l with
      (x11 * (p1 * p1) + 2 * x12 * (p1 * p2) + x22 * (p2 * p2) + 2 * y11 * (p1 * v1) + 2 * y12 * (p1 * v2) + 2 * y21 * (p2 * v1) + 2 * y22 * (p2 * v2)
       + a * (v1 * v1) + 2 * b * (v1 * v2) + c * (v2 * v2)) by (unfold p1, p2, v1, v2; field) end.
    clearbody p1 p2 v1 v2.
    pose proof (two_by_two p1 v1 y11 ltac:(lra)). pose proof (two_by_two p2 v2 y22 ltac:(lra)).
    pose proof (side x12 _ p1 p2 Bx12). pose proof (side y12 (95 / 1000) p1 v2 ltac:(lra)). pose proof (side y21 (95 / 1000) p2 v1 ltac:(lra)).
    pose proof (side b _ v1 v2 Bb).
    assert (0 <= (x11 - 124 / 100) * (p1 * p1)) by (apply Rmult_le_pos; [lra|apply sq]).
    assert (0 <= (x22 - 124 / 100) * (p2 * p2)) by (apply Rmult_le_pos; [lra|apply sq]).
    assert (0 <= (a - 135 / 100) * (v1 * v1)) by (apply Rmult_le_pos; [lra|apply sq]).
    assert (0 <= (c - 135 / 100) * (v2 * v2)) by (apply Rmult_le_pos; [lra|apply sq]).
    pose proof (sq p1). pose proof (sq p2). pose proof (sq v1). pose proof (sq v2). lra.
  - intros x Lx. rewrite cost_form by auto. destruct x as [|x1 [|x2 [|x3 [|x4 [|]]]]]; try discriminate Lx.
    unfold form, mv, motion2, thrust2_t. cbn.
    set (r1 := y11 * y11 + y12 * y12 - (8 / 9 + 2 * d * y11)). set (r2 := y21 * y21 + y22 * y22 - 8 / 9). set (r3 := y11 * y21 + y12 * y22 - d * y21).
    set (s1 := a * a + b * b - (1 / 1800 + 2 * y11 - 4 * N * b)). set (s2 := b * b + c * c - (1 / 1800 + 2 * y22 + 4 * N * b)).
    set (s3 := b * (a + c) - (y12 + y21 + 2 * N * (a - c))). set (q := x12 - (y21 * a + y22 * b + 2 * N * y22)).
    assert (R1 : r1 = 0) by (unfold r1; lra). assert (R2 : r2 = 0) by (unfold r2; lra). assert (R3 : r3 = 0) by (unfold r3; lra).
    assert (S1 : s1 = 0) by (unfold s1; lra). assert (S2 : s2 = 0) by (unfold s2; lra). assert (S3 : s3 = 0) by (unfold s3; lra).
    assert (Q : q = 0) by (unfold q, x12; lra).
    match goal with |- ?l = 0 => replace l with
      (- (9 / 160) * (x1 * x1 * r1 + x2 * x2 * r2 + 2 * x1 * x2 * r3) - 90 * (x3 * x3 * s1 + x4 * x4 * s2 + 2 * x3 * x4 * s3)
       + 9 / 2 * x2 * x3 * q) end; [rewrite R1, R2, R3, S1, S2, S3, Q; ring|].
    unfold r1, r2, r3, s1, s2, s3, q, x11, x12, x22, d, N. field.
Qed.

Lemma spatial_riccati_exists n : 0 <= n <= 105 / 100000 -> exists P, riccati 6 (motion3 n) (thrust3_t 12) (diagonal 6 (1 / 20)) 1000 P.
Proof.
  intros Hn. destruct (planar_riccati_exists n Hn) as (P4 & Sz & Sym & Pos & Eq).
  destruct (ProofsStop2.rows4 P4 Sz) as (p11 & p12 & p13 & p14 & p21 & p22 & p23 & p24 & p31 & p32 & p33 & p34 & p41 & p42 & p43 & p44 & ->).
  set (K := 144000 * (n * n)). assert (HK : 0 <= K) by (unfold K; pose proof (sq n); lra).
  set (w := sqrt (7200 + K * K)). assert (W2 : w * w = 7200 + K * K) by (apply sqrt_sqrt; pose proof (sq K); lra).
  assert (Wk : K <= w) by (unfold w; rewrite <- (sqrt_square K) at 1 by exact HK; apply sqrt_le_1_alt; lra).
  set (y := w - K). assert (Y0 : 0 <= y) by (unfold y; lra). assert (Y2 : y * y + 2 * K * y = 7200) by (unfold y; lra).
  set (z := sqrt (144000 * (1 / 20 + 2 * y))). assert (Z2 : z * z = 144000 * (1 / 20 + 2 * y)) by (apply sqrt_sqrt; lra).
  assert (Z0 : 0 <= z) by apply sqrt_pos. clearbody z. clearbody y. clear w W2 Wk.
  set (x := (n * n + y / 144000) * z).
  exists [[p11; p12; 0; p13; p14; 0]; [p21; p22; 0; p23; p24; 0]; [0; 0; x; 0; 0; y]; [p31; p32; 0; p33; p34; 0]; [p41; p42; 0; p43; p44; 0]; [0; 0; y; 0; 0; z]].
  split; [split; [reflexivity|repeat constructor]|]. split; [|split].
  - intros u v Lu Lv. six u Lu. six v Lv. pose proof (Sym [a; b; d; e] [a0; b0; d0; e0] eq_refl eq_refl) as H. unfold form, mv in *. cbn in H |- *. lra.
  - intros u Lu. six u Lu. pose proof (Pos [a; b; d; e] eq_refl) as H. unfold form, mv in *. cbn in H |- *.
    assert (0 <= x * (c * c) + 2 * y * (c * f) + z * (f * f)); [|lra].
    assert (Zp : 0 < z) by (destruct (Rle_lt_or_eq_dec _ _ Z0) as [L|<-]; [exact L|exfalso; lra]).
    apply (Rmult_le_reg_l z); [exact Zp|]. rewrite Rmult_0_r.
    replace (z * (x * (c * c) + 2 * y * (c * f) + z * (f * f))) with ((y * c + z * f) * (y * c + z * f) + (z * x - y * y) * (c * c)) by ring.
    apply Rplus_le_le_0_compat; [apply sq|]. apply Rmult_le_pos; [|apply sq].
    assert (E : z * x = (n * n + y / 144000) * (z * z)) by (unfold x; ring). rewrite E, Z2.
    pose proof (sq y). assert (0 <= n * n * y) by (apply Rmult_le_pos; [apply sq|exact Y0]). pose proof (sq n). lra.
  - intros u Lu. rewrite cost_form by auto. six u Lu. pose proof (Eq [a; b; d; e] eq_refl) as H. rewrite cost_form in H by auto.
    unfold form, mv, motion2, motion3, thrust2_t, thrust3_t in *. cbn in H |- *.
    set (r1 := y * y + 2 * K * y - 7200). set (r2 := z * z - 144000 * (1 / 20 + 2 * y)).
    assert (R1 : r1 = 0) by (unfold r1; lra). assert (R2 : r2 = 0) by (unfold r2; lra).
    match type of H with ?h = 0 => match goal with |- ?l = 0 => replace l with (h - (c * c * r1 + f * f * r2) / 144000) end end;
      [rewrite H, R1, R2; field|]. unfold r1, r2, x, K. field.
Qed.
