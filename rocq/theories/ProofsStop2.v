(** From the Riccati equation to the entries of the gain of the planar stopping controller. *)
From Coq Require Import Reals List Lia Lra Psatz.
From Verif Require Import Prelude Vec ModelController ModelLqr SpecLqr ProofsStop.
Import ListNotations.
Local Open Scope R_scope.

Lemma rows4 (P : mat) : sized 4 4 P -> exists p11 p12 p13 p14 p21 p22 p23 p24 p31 p32 p33 p34 p41 p42 p43 p44,
  P = [[p11; p12; p13; p14]; [p21; p22; p23; p24]; [p31; p32; p33; p34]; [p41; p42; p43; p44]].
Proof.
  intros [L F]. destruct P as [|r1 [|r2 [|r3 [|r4 [|]]]]]; try discriminate L.
  inversion F as [|? ? L1 F1]; inversion F1 as [|? ? L2 F2]; inversion F2 as [|? ? L3 F3]; inversion F3 as [|? ? L4 _]; subst.
  destruct r1 as [|? [|? [|? [|? [|]]]]]; try discriminate L1. destruct r2 as [|? [|? [|? [|? [|]]]]]; try discriminate L2.
  destruct r3 as [|? [|? [|? [|? [|]]]]]; try discriminate L3. destruct r4 as [|? [|? [|? [|? [|]]]]]; try discriminate L4.
  do 16 eexists. reflexivity.
Qed.

Lemma planar_velocity_gain n P : 0 <= n <= 105 / 100000 ->
  riccati 4 (motion2 n) (thrust2_t 12) (diagonal 4 (1 / 20)) 1000 P ->
  exists k11 k12 k22, (forall vx vy, mv (stop_gain 2 (thrust2 12) P) [0; 0; vx; vy] = [k11 * vx + k12 * vy; k12 * vx + k22 * vy]) /\
    21 / 100 <= k11 <= 42 / 100 /\ 21 / 100 <= k22 <= 42 / 100 /\ - (3 / 10000) <= k12 <= 3 / 10000.
Proof.
  intros Hn (Sz & Sym & Pos & Eq).
  destruct (rows4 P Sz) as (p11 & p12 & p13 & p14 & p21 & p22 & p23 & p24 & p31 & p32 & p33 & p34 & p41 & p42 & p43 & p44 & ->).
  unfold form in *.
  assert (S12 : p12 = p21) by (pose proof (Sym [1; 0; 0; 0] [0; 1; 0; 0] eq_refl eq_refl) as H; cbn in H; lra).
  assert (S13 : p13 = p31) by (pose proof (Sym [1; 0; 0; 0] [0; 0; 1; 0] eq_refl eq_refl) as H; cbn in H; lra).
  assert (S14 : p14 = p41) by (pose proof (Sym [1; 0; 0; 0] [0; 0; 0; 1] eq_refl eq_refl) as H; cbn in H; lra).
  assert (S23 : p23 = p32) by (pose proof (Sym [0; 1; 0; 0] [0; 0; 1; 0] eq_refl eq_refl) as H; cbn in H; lra).
  assert (S24 : p24 = p42) by (pose proof (Sym [0; 1; 0; 0] [0; 0; 0; 1] eq_refl eq_refl) as H; cbn in H; lra).
  assert (S34 : p34 = p43) by (pose proof (Sym [0; 0; 1; 0] [0; 0; 0; 1] eq_refl eq_refl) as H; cbn in H; lra).
  subst p21 p31 p41 p32 p42 p43. clear Sym.
  (* the equation as a polynomial *)
  assert (Q : forall x1 x2 x3 x4,
    2 * ((p11 * x1 + p12 * x2 + p13 * x3 + p14 * x4) * x3 + (p12 * x1 + p22 * x2 + p23 * x3 + p24 * x4) * x4
      + (p13 * x1 + p23 * x2 + p33 * x3 + p34 * x4) * (3 * (n * n) * x1 + 2 * n * x4)
      + (p14 * x1 + p24 * x2 + p34 * x3 + p44 * x4) * (- (2 * n) * x3))
    - ((p13 * x1 + p23 * x2 + p33 * x3 + p34 * x4) * (p13 * x1 + p23 * x2 + p33 * x3 + p34 * x4)
      + (p14 * x1 + p24 * x2 + p34 * x3 + p44 * x4) * (p14 * x1 + p24 * x2 + p34 * x3 + p44 * x4)) / 144000
    + (x1 * x1 + x2 * x2 + x3 * x3 + x4 * x4) / 20 = 0).
  { intros x1 x2 x3 x4. pose proof (Eq [x1; x2; x3; x4] eq_refl) as H. rewrite <- H. unfold mv, motion2, thrust2_t, diagonal. cbn. field. }
  clear Eq.
  set (N := 40 * n).
  assert (Ra : 0 <= p33) by (pose proof (Pos [0; 0; 1; 0] eq_refl) as H; cbn in H; lra).
  assert (Rc : 0 <= p44) by (pose proof (Pos [0; 0; 0; 1] eq_refl) as H; cbn in H; lra).
  assert (Rb : p34 * p34 <= p33 * p44).
  { apply discriminant. intros t. pose proof (Pos [0; 0; 1; t] eq_refl) as H. cbn in H. lra. }
  assert (Ry : p23 * p23 <= p22 * p33).
  { apply discriminant. intros t. pose proof (Pos [0; 1; t; 0] eq_refl) as H. cbn in H. lra. }
  clear Pos.
  assert (Q1 := Q 1 0 0 0). assert (Q2 := Q 0 1 0 0). assert (Q3 := Q 0 0 1 0). assert (Q4 := Q 0 0 0 1).
  assert (Q12 := Q 1 1 0 0). assert (Q34 := Q 0 0 1 1).
  assert (Q14 := Q 1 0 0 1). assert (Q23 := Q 0 1 1 0). assert (Q24 := Q 0 1 0 1).
  exists (p33 / 12000), (p34 / 12000), (p44 / 12000). split.
  { intros vx vy. unfold stop_gain, mm, mv, transpose, mscale, vscale, eye, unit_vec, thrust2. cbn.
    repeat apply (f_equal2 (@cons R)); try reflexivity; field. }
  destruct (planar_gain N (3 * (N * N)) (p13 / 90) (p14 / 90) (p23 / 90) (p24 / 90) (p33 / 3600) (p34 / 3600) (p44 / 3600) (p22 * 4 / 9))
    as (A & C & B); unfold N; try lra.
Qed.
