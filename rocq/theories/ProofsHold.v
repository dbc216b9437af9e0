(** Flight with the thrust held between two calls of a stopping controller. *)
From Coq Require Import Reals List Lia Lra Psatz.
From Verif Require Import Prelude Vec ModelZoo SpecConic SpecCwh SpecDock ProofsVec ProofsConstraint ProofsCwh ProofsCwh2 ProofsDock ProofsDock2 ProofsStop ProofsStop3.
Import ListNotations.
Local Open Scope R_scope.

Lemma ab w X : - X <= w <= X -> Rabs w <= X.
Proof. unfold Rabs; destruct (Rcase_abs w); lra. Qed.
Lemma ba w : - Rabs w <= w <= Rabs w.
Proof. unfold Rabs; destruct (Rcase_abs w); lra. Qed.
Lemma abs_sqr w : Rabs w * Rabs w = w * w.
Proof. unfold Rabs; destruct (Rcase_abs w); ring. Qed.

(** Lengths. *)
Lemma cauchy p q : pdot p q <= plen p * plen q.
Proof.
  apply (sb (pdot p q) (plen p * plen q)); [apply Rmult_le_pos; apply plen_pos|].
  replace (plen p * plen q * (plen p * plen q)) with ((plen p * plen p) * (plen q * plen q)) by ring. rewrite !plen_sqr.
  destruct p as [[a b] c], q as [[d e] f]; cbn.
  pose proof (sq (a * e - b * d)). pose proof (sq (a * f - c * d)). pose proof (sq (b * f - c * e)). lra.
Qed.
Lemma triangle a b c d e f : plen (a + d, b + e, c + f) <= plen (a, b, c) + plen (d, e, f).
Proof.
  pose proof (plen_pos (a, b, c)). pose proof (plen_pos (d, e, f)).
  apply le_of_sqr; [lra|]. pose proof (cauchy (a, b, c) (d, e, f)) as C.
  pose proof (plen_sqr (a, b, c)) as S1. pose proof (plen_sqr (d, e, f)) as S2. rewrite plen_sqr.
  cbn in *. lra.
Qed.
Lemma plen_abs a b c : plen (a, b, c) <= Rabs a + Rabs b + Rabs c.
Proof.
  pose proof (Rabs_pos a). pose proof (Rabs_pos b). pose proof (Rabs_pos c).
  apply le_of_sqr; [lra|]. rewrite plen_sqr. cbn. rewrite <- (abs_sqr a), <- (abs_sqr b), <- (abs_sqr c).
  assert (0 <= Rabs a * Rabs b) by (apply Rmult_le_pos; lra). assert (0 <= Rabs a * Rabs c) by (apply Rmult_le_pos; lra).
  assert (0 <= Rabs b * Rabs c) by (apply Rmult_le_pos; lra). lra.
Qed.
Lemma entry_plen a b c : Rabs a <= plen (a, b, c) /\ Rabs b <= plen (a, b, c) /\ Rabs c <= plen (a, b, c).
Proof.
  pose proof (plen_pos (a, b, c)). pose proof (plen_sqr (a, b, c)) as S. cbn in S. pose proof (sq a). pose proof (sq b). pose proof (sq c).
  repeat split; apply le_of_sqr; auto; rewrite abs_sqr, plen_sqr; cbn; lra.
Qed.
Lemma plen_times t a b c : 0 <= t -> plen (t * a, t * b, t * c) = t * plen (a, b, c).
Proof.
  intros Ht. unfold plen. replace (pdot (t * a, t * b, t * c) (t * a, t * b, t * c)) with (t * t * pdot (a, b, c) (a, b, c)) by (cbn; ring).
  rewrite sqrt_mult_alt by apply sq. rewrite sqrt_square by exact Ht. reflexivity.
Qed.
Lemma cut_abs s : Rabs (cut s) <= Rabs s.
Proof. unfold cut, Rmin, Rmax, Rabs. repeat destruct (Rle_dec _ _); repeat destruct (Rcase_abs _); lra. Qed.

Lemma mean f f' a b : a <= b -> (forall t, a <= t <= b -> derivable_pt_lim f t (f' t)) ->
  exists c, a <= c <= b /\ f b - f a = (b - a) * f' c.
Proof.
  intros H D. destruct (Rle_lt_or_eq_dec a b H) as [L| ->].
  - destruct (MVT_cor2 f f' a b L) as (c & E & Hc); [intros; apply D; lra|]. exists c. split; [lra|]. rewrite E. ring.
  - exists b. split; [lra|ring].
Qed.
Lemma largest f f' T : 0 <= T -> (forall t, 0 <= t <= T -> derivable_pt_lim f t (f' t)) ->
  exists s, 0 <= s <= T /\ forall t, 0 <= t <= T -> Rabs (f t) <= Rabs (f s).
Proof.
  intros HT D. destruct (continuity_ab_maj (fun t => Rabs (f t)) 0 T HT) as (s & M & Hs).
  - intros t Ht. apply (continuity_pt_comp f Rabs); [|apply Rcontinuity_abs].
    apply derivable_continuous_pt. exists (f' t). apply D; auto.
  - exists s. auto.
Qed.

(** The speed limit recovers under any thrust with enough power. *)
Section Power.
Variables (n v1 x y z vx vy vz ux uy uz : R).
Let p := (x, y, z).
Let v := (vx, vy, vz).
Hypotheses (Hn : 0 <= n <= 105 / 100000) (Hv1 : 2 * n <= v1 <= 4 * n).
Let ax := 3 * (n * n) * x + 2 * n * vy + ux / 12.
Let ay := - (2 * n * vx) + uy / 12.
Let az := - (n * n * z) + uz / 12.

Lemma fast_enough : 2 / 10 + v1 * smooth p - smooth v - 1 / 10000 < 0 ->
  1999 / 10000 <= smooth v /\ v1 * smooth p <= smooth v /\ 999 / 1000 * smooth v <= plen v <= smooth v.
Proof.
  intros H.
  pose proof (smooth_pos p) as Rp. pose proof (smooth_pos v) as Sp. pose proof (smooth_sqr v) as S2.
  set (rho := smooth p) in *. set (sg := smooth v) in *.
  assert (Rv : 0 <= v1 * rho) by (apply Rmult_le_pos; lra).
  pose proof (plen_pos v) as W0. pose proof (plen_sqr v) as W2. set (w := plen v) in *.
  assert (Ws : 999 / 1000 * sg <= w).
  { apply le_of_sqr; [exact W0|]. rewrite W2.
    assert (1999 / 10000 * (1999 / 10000) <= sg * sg) by (apply Rmult_le_compat; lra). lra. }
  assert (Wsg : w <= sg) by (apply le_of_sqr; lra). lra.
Qed.

Lemma power_recovers : ux * vx + uy * vy + uz * vz <= - (645 / 10000) * pdot v v ->
  2 / 10 + v1 * smooth p - smooth v - 1 / 10000 < 0 ->
  0 < v1 * (pdot p v / smooth p) - pdot v (ax, ay, az) / smooth v.
Proof.
  intros Pw H. destruct (fast_enough H) as (Sl & Rb & Ws & Wsg).
  pose proof (smooth_pos p) as Rp. pose proof (smooth_sqr p) as R2. pose proof (smooth_pos v) as Sp. pose proof (smooth_sqr v) as S2.
  pose proof (plen_pos v) as W0. pose proof (plen_sqr v) as W2.
  set (rho := smooth p) in *. set (sg := smooth v) in *. set (w := plen v) in *.
  pose proof (pdot_pos p) as Pp.
  assert (Q1 : - (rho * w) <= pdot p v).
  { apply (sb (pdot p v) (rho * w)); [apply Rmult_le_pos; lra|].
    replace (rho * w * (rho * w)) with ((rho * rho) * (w * w)) by ring. rewrite R2, W2.
    pose proof (pdot_pos v). apply Rle_trans with (pdot p p * pdot v v).
    - unfold p, v, pdot. pose proof (sq (x * vy - y * vx)). pose proof (sq (x * vz - z * vx)). pose proof (sq (y * vz - z * vy)). lra.
    - apply Rmult_le_compat_r; lra. }
  assert (Q2 : 3 * (x * vx) - z * vz <= 3 * (rho * w)).
  { apply (sb (3 * (x * vx) - z * vz) (3 * (rho * w))); [assert (0 <= rho * w) by (apply Rmult_le_pos; lra); lra|].
    replace (3 * (rho * w) * (3 * (rho * w))) with (9 * ((rho * rho) * (w * w))) by ring. rewrite R2, W2.
    pose proof (pdot_pos v). apply Rle_trans with (9 * (pdot p p * pdot v v)).
    - unfold p, v, pdot. pose proof (sq (3 * (x * vz) + z * vx)).
      pose proof (sq (x * vx)). pose proof (sq (x * vy)). pose proof (sq (x * vz)). pose proof (sq (y * vx)). pose proof (sq (y * vy)). pose proof (sq (y * vz)).
      pose proof (sq (z * vx)). pose proof (sq (z * vy)). pose proof (sq (z * vz)). lra.
    - assert (pdot p p * pdot v v <= (pdot p p + 1 / 100000) * pdot v v) by (apply Rmult_le_compat_r; lra). lra. }
  assert (E : pdot v (ax, ay, az) = n * n * (3 * (x * vx) - z * vz) + (ux * vx + uy * vy + uz * vz) / 12).
  { unfold v, pdot, ax, ay, az. field. }
  assert (NN : 0 <= n * n) by apply sq.
  assert (U : pdot v (ax, ay, az) <= 3 * (n * n) * (rho * w) - 5375 / 1000000 * (w * w)).
  { rewrite E. assert (n * n * (3 * (x * vx) - z * vz) <= n * n * (3 * (rho * w))) by (apply Rmult_le_compat_l; lra). rewrite <- W2 in Pw. pose proof (sq w). lra. }
  assert (K : 3 * (n * n) * rho + v1 * sg <= 499 / 100000 * sg).
  { assert (F : 3 * (n * n) <= (475 / 100 * n - v1) * v1).
    { assert (0 <= (4 * n - v1) * (v1 - 75 / 100 * n)) by (apply Rmult_le_pos; lra). lra. }
    assert (0 <= ((475 / 100 * n - v1) * v1 - 3 * (n * n)) * rho) by (apply Rmult_le_pos; lra).
    assert (0 <= (475 / 100 * n - v1) * (sg - v1 * rho)) by (apply Rmult_le_pos; lra).
    assert (0 <= (105 / 100000 - n) * sg) by (apply Rmult_le_pos; lra). lra. }
  apply Rmult_lt_reg_r with sg; [exact Sp|]. rewrite Rmult_0_l.
  replace ((v1 * (pdot p v / rho) - pdot v (ax, ay, az) / sg) * sg) with (v1 * (pdot p v / rho) * sg - pdot v (ax, ay, az)) by (field; lra).
  assert (A : - w <= pdot p v / rho).
  { apply Rmult_le_reg_r with rho; [exact Rp|]. unfold Rdiv; rewrite Rmult_assoc, Rinv_l, Rmult_1_r by lra. lra. }
  assert (B : - (v1 * sg * w) <= v1 * (pdot p v / rho) * sg).
  { assert (0 <= v1 * sg * (pdot p v / rho + w)) by (apply Rmult_le_pos; [apply Rmult_le_pos; lra|lra]). lra. }
  assert (C : 0 < w * (5375 / 1000000 * w - 3 * (n * n) * rho - v1 * sg)) by (apply Rmult_lt_0_compat; lra).
  lra.
Qed.
End Power.

Section Hold.
Variables (n v1 T k11 k12 k13 k22 k23 k33 : R) (x y z vx vy vz : R -> R).
Hypotheses (Hn : 0 <= n <= 105 / 100000) (Hv1 : 2 * n <= v1 <= 4 * n) (HT : 0 <= T <= 1).
Hypotheses (G1 : 21 / 100 <= k11 <= 42 / 100) (G2 : 21 / 100 <= k22 <= 42 / 100) (G3 : 21 / 100 <= k33 <= 42 / 100)
  (O1 : - (1 / 2000) <= k12 <= 1 / 2000) (O2 : - (1 / 2000) <= k13 <= 1 / 2000) (O3 : - (1 / 2000) <= k23 <= 1 / 2000).
Hypotheses (Vx : - 10 <= vx 0 <= 10) (Vy : - 10 <= vy 0 <= 10) (Vz : - 10 <= vz 0 <= 10).
Let ux := - cut (k11 * vx 0 + (k12 * vy 0 + k13 * vz 0)).
Let uy := - cut (k22 * vy 0 + (k12 * vx 0 + k23 * vz 0)).
Let uz := - cut (k33 * vz 0 + (k13 * vx 0 + k23 * vy 0)).
Hypothesis Fly : cwh_forced n 12 T (fun _ => ux) (fun _ => uy) (fun _ => uz) x y z vx vy vz.
Hypothesis Far : forall t, 0 <= t <= T -> - 15000 <= x t <= 15000.
Hypothesis Farz : forall t, 0 <= t <= T -> - 15000 <= z t <= 15000.
Let ax t := 3 * (n * n) * x t + 2 * n * vy t + ux / 12.
Let ay t := - (2 * n * vx t) + uy / 12.
Let az t := - (n * n * z t) + uz / 12.

Lemma unit_u : - 1 <= ux <= 1 /\ - 1 <= uy <= 1 /\ - 1 <= uz <= 1.
Proof. unfold ux, uy, uz. repeat split; match goal with |- context [cut ?s] => pose proof (cut_range s) end; lra. Qed.
Lemma n2 : 0 <= n * n <= 1103 / 1000000000.
Proof. pose proof (sq n). pose proof (pb n n (105 / 100000) (105 / 100000) ltac:(lra) ltac:(lra)). lra. Qed.
Lemma pull_x t : 0 <= t <= T -> - (5 / 100) <= 3 * (n * n) * x t <= 5 / 100.
Proof. intros Ht. pose proof n2. pose proof (pb (n * n) (x t) (1103 / 1000000000) 15000 ltac:(lra) (Far t Ht)). lra. Qed.
Lemma pull_z t : 0 <= t <= T -> - (2 / 100) <= - (n * n * z t) <= 2 / 100.
Proof. intros Ht. pose proof n2. pose proof (pb (n * n) (z t) (1103 / 1000000000) 15000 ltac:(lra) (Farz t Ht)). lra. Qed.

Lemma step t r a : 0 <= t <= 1 -> - r <= a <= r -> - r <= t * a <= r.
Proof. intros Ht Ha. pose proof (pb t a 1 r ltac:(lra) Ha). lra. Qed.

(** The velocity during the step. *)
Lemma speeds t : 0 <= t <= T -> - (51 / 5) <= vx t <= 51 / 5 /\ - (51 / 5) <= vy t <= 51 / 5 /\ - (51 / 5) <= vz t <= 51 / 5.
Proof.
  destruct unit_u as (Ux & Uy & Uz).
  destruct (largest vx ax T ltac:(lra) (cf_vx _ _ _ _ _ _ _ _ _ _ _ _ Fly)) as (a & Ha & Ma).
  destruct (largest vy ay T ltac:(lra) (cf_vy _ _ _ _ _ _ _ _ _ _ _ _ Fly)) as (b & Hb & Mb).
  destruct (largest vz az T ltac:(lra) (cf_vz _ _ _ _ _ _ _ _ _ _ _ _ Fly)) as (c & Hc & Mc).
  destruct (mean vx ax 0 a (proj1 Ha)) as (a' & Ha' & Ea); [intros; apply Fly; lra|].
  destruct (mean vy ay 0 b (proj1 Hb)) as (b' & Hb' & Eb); [intros; apply Fly; lra|].
  destruct (mean vz az 0 c (proj1 Hc)) as (c' & Hc' & Ec); [intros; apply Fly; lra|].
  set (A := Rabs (vx a)) in *. set (B := Rabs (vy b)) in *. set (C := Rabs (vz c)) in *.
  assert (Pa : - (5 / 100 + 21 / 10000 * B + 1 / 12) <= ax a' <= 5 / 100 + 21 / 10000 * B + 1 / 12).
  { pose proof (pull_x a' ltac:(lra)). pose proof (ba (vy a')). pose proof (Mb a' ltac:(lra)).
    pose proof (pb n (vy a') (105 / 100000) B ltac:(lra) ltac:(lra)). unfold ax. lra. }
  assert (Pb : - (21 / 10000 * A + 1 / 12) <= ay b' <= 21 / 10000 * A + 1 / 12).
  { pose proof (ba (vx b')). pose proof (Ma b' ltac:(lra)).
    pose proof (pb n (vx b') (105 / 100000) A ltac:(lra) ltac:(lra)). unfold ay. lra. }
  assert (Pc : - (2 / 100 + 1 / 12) <= az c' <= 2 / 100 + 1 / 12).
  { pose proof (pull_z c' ltac:(lra)). unfold az. lra. }
  pose proof (step a _ _ ltac:(lra) Pa) as Sa. pose proof (step b _ _ ltac:(lra) Pb) as Sb. pose proof (step c _ _ ltac:(lra) Pc) as Sc.
  assert (LA : A <= 10 + (5 / 100 + 21 / 10000 * B + 1 / 12)) by (unfold A; apply ab; lra).
  assert (LB : B <= 10 + (21 / 10000 * A + 1 / 12)) by (unfold B; apply ab; lra).
  assert (LC : C <= 10 + (2 / 100 + 1 / 12)) by (unfold C; apply ab; lra).
  intros Ht. specialize (Ma t Ht). specialize (Mb t Ht). specialize (Mc t Ht).
  pose proof (ba (vx t)). pose proof (ba (vy t)). pose proof (ba (vz t)). lra.
Qed.

Lemma rates t : 0 <= t <= T ->
  - (155 / 1000) <= ax t <= 155 / 1000 /\ - (155 / 1000) <= ay t <= 155 / 1000 /\ - (155 / 1000) <= az t <= 155 / 1000.
Proof.
  intros Ht. destruct unit_u as (Ux & Uy & Uz). destruct (speeds t Ht) as (Sx & Sy & Sz).
  pose proof (pull_x t Ht). pose proof (pull_z t Ht).
  pose proof (pb n (vy t) (105 / 100000) _ ltac:(lra) Sy). pose proof (pb n (vx t) (105 / 100000) _ ltac:(lra) Sx).
  unfold ax, ay, az. lra.
Qed.

Lemma slow t : 0 <= t <= T ->
  (- (155 / 1000) <= vx t - vx 0 <= 155 / 1000) /\ (- (155 / 1000) <= vy t - vy 0 <= 155 / 1000) /\ (- (155 / 1000) <= vz t - vz 0 <= 155 / 1000).
Proof.
  intros Ht.
  destruct (mean vx ax 0 t (proj1 Ht)) as (a' & Ha' & Ea); [intros; apply Fly; lra|].
  destruct (mean vy ay 0 t (proj1 Ht)) as (b' & Hb' & Eb); [intros; apply Fly; lra|].
  destruct (mean vz az 0 t (proj1 Ht)) as (c' & Hc' & Ec); [intros; apply Fly; lra|].
  rewrite Ea, Eb, Ec, Rminus_0_r.
  destruct (rates a' ltac:(lra)) as (Ra & _ & _). destruct (rates b' ltac:(lra)) as (_ & Rb & _). destruct (rates c' ltac:(lra)) as (_ & _ & Rc).
  split; [|split]; apply step; lra.
Qed.

(** What the forces other than the thrust do to the velocity. *)
Lemma drift t : 0 <= t <= T -> exists rx ry rz,
  vx t = vx 0 + (t * (ux / 12) + rx) /\ vy t = vy 0 + (t * (uy / 12) + ry) /\ vz t = vz 0 + (t * (uz / 12) + rz) /\
  Rabs rx <= 3 * (n * n) * (Rabs (x t) + 51 / 5) + 2 * n * (Rabs (vy 0) + 155 / 1000) /\
  Rabs ry <= 2 * n * (Rabs (vx 0) + 155 / 1000) /\
  Rabs rz <= n * n * (Rabs (z t) + 51 / 5).
Proof.
  intros Ht. pose proof n2 as N2.
  destruct (mean vx ax 0 t (proj1 Ht)) as (a & Ha & Ea); [intros; apply Fly; lra|].
  destruct (mean vy ay 0 t (proj1 Ht)) as (b & Hb & Eb); [intros; apply Fly; lra|].
  destruct (mean vz az 0 t (proj1 Ht)) as (c & Hc & Ec); [intros; apply Fly; lra|].
  exists (t * (3 * (n * n) * x a + 2 * n * vy a)), (t * - (2 * n * vx b)), (t * - (n * n * z c)).
  split; [unfold ax in Ea; lra|]. split; [unfold ay in Eb; lra|]. split; [unfold az in Ec; lra|].
  destruct (mean x vx a t (proj2 Ha)) as (a' & Ha' & Fa); [intros; apply Fly; lra|].
  destruct (mean z vz c t (proj2 Hc)) as (c' & Hc' & Fc); [intros; apply Fly; lra|].
  destruct (speeds a' ltac:(lra)) as (Sa & _ & _). destruct (speeds c' ltac:(lra)) as (_ & _ & Sc).
  pose proof (step (t - a) _ _ ltac:(lra) Sa) as Da. pose proof (step (t - c) _ _ ltac:(lra) Sc) as Dc.
  pose proof (ba (x t)) as Bx. pose proof (ba (z t)) as Bz. pose proof (ba (vx 0)) as Bvx. pose proof (ba (vy 0)) as Bvy.
  destruct (slow a ltac:(lra)) as (_ & Sa' & _). destruct (slow b ltac:(lra)) as (Sb' & _ & _).
  pose proof (pb (n * n) (x a) (n * n) (Rabs (x t) + 51 / 5) ltac:(lra) ltac:(lra)) as P1.
  pose proof (pb (n * n) (z c) (n * n) (Rabs (z t) + 51 / 5) ltac:(lra) ltac:(lra)) as P2.
  pose proof (pb n (vy a) n (Rabs (vy 0) + 155 / 1000) ltac:(lra) ltac:(lra)) as P3.
  pose proof (pb n (vx b) n (Rabs (vx 0) + 155 / 1000) ltac:(lra) ltac:(lra)) as P4.
  split; [|split]; apply ab, step; lra.
Qed.

Lemma thrust_small : plen (ux, uy, uz) <= 421 / 1000 * plen (vx 0, vy 0, vz 0).
Proof.
  pose proof (plen_pos (vx 0, vy 0, vz 0)) as W0. pose proof (plen_sqr (vx 0, vy 0, vz 0)) as W2.
  apply le_of_sqr; [lra|]. rewrite plen_sqr.
  replace (421 / 1000 * plen (vx 0, vy 0, vz 0) * (421 / 1000 * plen (vx 0, vy 0, vz 0))) with (177241 / 1000000 * pdot (vx 0, vy 0, vz 0) (vx 0, vy 0, vz 0)) by (rewrite <- W2; field).
  cbn [pdot]. set (a := vx 0) in *. set (b := vy 0) in *. set (c := vz 0) in *.
  pose proof (Rabs_pos a). pose proof (Rabs_pos b). pose proof (Rabs_pos c).
  assert (B : forall k l m p q r, - (42 / 100) <= k <= 42 / 100 -> - (1 / 2000) <= l <= 1 / 2000 -> - (1 / 2000) <= m <= 1 / 2000 ->
    let s := - cut (k * p + (l * q + m * r)) in
    s * s <= (42 / 100 * Rabs p + 1 / 2000 * (Rabs q + Rabs r)) * (42 / 100 * Rabs p + 1 / 2000 * (Rabs q + Rabs r))).
  { intros k l m p q r Hk Hl Hm s. rewrite <- (abs_sqr s). unfold s. rewrite Rabs_Ropp.
    pose proof (Rabs_pos (cut (k * p + (l * q + m * r)))). pose proof (cut_abs (k * p + (l * q + m * r))).
    pose proof (pb k p _ _ Hk (ba p)). pose proof (pb l q _ _ Hl (ba q)). pose proof (pb m r _ _ Hm (ba r)).
    assert (Rabs (k * p + (l * q + m * r)) <= 42 / 100 * Rabs p + 1 / 2000 * (Rabs q + Rabs r)) by (apply ab; lra).
    apply Rmult_le_compat; lra. }
  pose proof (B k11 k12 k13 a b c ltac:(lra) O1 O2) as B1. pose proof (B k22 k12 k23 b a c ltac:(lra) O1 O3) as B2.
  pose proof (B k33 k13 k23 c a b ltac:(lra) O2 O3) as B3. cbv zeta in B1, B2, B3. unfold ux, uy, uz. fold a b c.
  rewrite <- (abs_sqr a), <- (abs_sqr b), <- (abs_sqr c).
  pose proof (sq (Rabs a - Rabs b)). pose proof (sq (Rabs a - Rabs c)). pose proof (sq (Rabs b - Rabs c)). lra.
Qed.

(** The speed limit. *)
Lemma speed_held t : 0 <= t <= T -> 2 / 10 + v1 * smooth (x t, y t, z t) - smooth (vx t, vy t, vz t) - 1 / 10000 < 0 ->
  0 < v1 * (pdot (x t, y t, z t) (vx t, vy t, vz t) / smooth (x t, y t, z t)) - pdot (vx t, vy t, vz t) (ax t, ay t, az t) / smooth (vx t, vy t, vz t).
Proof.
  intros Ht H. apply power_recovers; auto.
  destruct (fast_enough n v1 _ _ _ _ _ _ Hn Hv1 H) as (Sl & Rb & Ws & Wsg).
  destruct (drift t Ht) as (rx & ry & rz & Ex & Ey & Ez & Rx & Ry & Rz).
  pose proof thrust_small as Us.
  assert (Pw : ux * vx 0 + uy * vy 0 + uz * vz 0 <= - (898 / 10000) * pdot (vx 0, vy 0, vz 0) (vx 0, vy 0, vz 0)).
  { apply (power (vx 0) (vy 0) (vz 0) k11 k12 k13 k22 k23 k33); try lra.
    - pose proof (pb (vx 0) (vx 0) 10 10 Vx Vx). lra.
    - pose proof (pb (vy 0) (vy 0) 10 10 Vy Vy). lra.
    - pose proof (pb (vz 0) (vz 0) 10 10 Vz Vz). lra. }
  destruct (entry_plen (vx 0) (vy 0) (vz 0)) as (L1 & L2 & _).
  destruct (entry_plen (x t) (y t) (z t)) as (L3 & _ & L4).
  assert (L5 : plen (x t, y t, z t) <= smooth (x t, y t, z t)).
  { pose proof (smooth_pos (x t, y t, z t)). apply le_of_sqr; [lra|]. rewrite plen_sqr, smooth_sqr. lra. }
  rewrite <- (plen_sqr (vx 0, vy 0, vz 0)) in Pw. rewrite <- (plen_sqr (vx t, vy t, vz t)).
  set (rho := smooth (x t, y t, z t)) in *. set (sg := smooth (vx t, vy t, vz t)) in *.
  pose proof (plen_pos (vx 0, vy 0, vz 0)) as W00. pose proof (plen_pos (vx t, vy t, vz t)) as W0.
  set (dx := t * (ux / 12) + rx) in *. set (dy := t * (uy / 12) + ry) in *. set (dz := t * (uz / 12) + rz) in *.
  assert (Tri : plen (vx t, vy t, vz t) <= plen (vx 0, vy 0, vz 0) + plen (dx, dy, dz)) by (rewrite Ex, Ey, Ez; apply triangle).
  assert (Dd : plen (dx, dy, dz) <= t * plen (ux / 12, uy / 12, uz / 12) + plen (rx, ry, rz)).
  { unfold dx, dy, dz. rewrite <- plen_times by lra. apply triangle. }
  assert (U12 : plen (ux / 12, uy / 12, uz / 12) = plen (ux, uy, uz) / 12).
  { replace (ux / 12) with (1 / 12 * ux) by field. replace (uy / 12) with (1 / 12 * uy) by field. replace (uz / 12) with (1 / 12 * uz) by field.
    rewrite plen_times by lra. field. }
  pose proof (plen_abs rx ry rz) as Rr. pose proof (cauchy (dx, dy, dz) (ux, uy, uz)) as Cd.
  pose proof (plen_pos (ux, uy, uz)) as U0. pose proof (plen_pos (dx, dy, dz)) as D0. rewrite U12 in Dd.
  assert (E : ux * vx t + uy * vy t + uz * vz t = (ux * vx 0 + uy * vy 0 + uz * vz 0) + pdot (dx, dy, dz) (ux, uy, uz)).
  { rewrite Ex, Ey, Ez. cbn. ring. }
  rewrite E. clear E Ex Ey Ez U12.
  set (w0 := plen (vx 0, vy 0, vz 0)) in *. set (w := plen (vx t, vy t, vz t)) in *. set (d := plen (dx, dy, dz)) in *.
  set (u := plen (ux, uy, uz)) in *. set (r := plen (rx, ry, rz)) in *. set (du := pdot (dx, dy, dz) (ux, uy, uz)) in *.
  set (pw := ux * vx 0 + uy * vy 0 + uz * vz 0) in *.
  assert (Tu : t * (u / 12) <= u / 12).
  { assert (0 <= (1 - t) * (u / 12)) by (apply Rmult_le_pos; lra). lra. }
  pose proof n2 as N2. pose proof (smooth_pos (x t, y t, z t)) as Rp. fold rho in Rp.
  assert (S1 : 3 * (n * n) * (Rabs (x t) + 51 / 5) + n * n * (Rabs (z t) + 51 / 5) <= 4 * (n * n * rho) + 5 / 100000).
  { assert (0 <= n * n * (rho - Rabs (x t))) by (apply Rmult_le_pos; lra). assert (0 <= n * n * (rho - Rabs (z t))) by (apply Rmult_le_pos; lra). lra. }
  assert (S2 : 2 * n * (Rabs (vy 0) + 155 / 1000) + 2 * n * (Rabs (vx 0) + 155 / 1000) <= 42 / 10000 * w0 + 7 / 10000).
  { assert (0 <= n * (w0 - Rabs (vy 0))) by (apply Rmult_le_pos; lra). assert (0 <= n * (w0 - Rabs (vx 0))) by (apply Rmult_le_pos; lra).
    assert (0 <= (105 / 100000 - n) * w0) by (apply Rmult_le_pos; lra). lra. }
  assert (S3 : 4 * (n * n * rho) <= 21 / 10000 * sg).
  { assert (0 <= n * ((v1 - 2 * n) * rho)) by (apply Rmult_le_pos; [lra|apply Rmult_le_pos; lra]).
    assert (0 <= n * (sg - v1 * rho)) by (apply Rmult_le_pos; lra). assert (0 <= (105 / 100000 - n) * sg) by (apply Rmult_le_pos; lra). lra. }
  assert (Dw : d <= 455 / 10000 * w0) by lra.
  assert (Ww : w <= 10455 / 10000 * w0) by lra.
  assert (Q1 : d * u <= (455 / 10000 * w0) * (421 / 1000 * w0)) by (apply Rmult_le_compat; lra).
  assert (Q2 : w * w <= (10455 / 10000 * w0) * (10455 / 10000 * w0)) by (apply Rmult_le_compat; lra).
  pose proof (sq w0). lra.
Qed.

(** The limits of the three components. *)
Lemma held_full k e v v0 : 21 / 100 <= k -> - (2 / 100) <= e <= 2 / 100 -> - (155 / 1000) <= v - v0 <= 155 / 1000 -> 100 <= v * v ->
  v * cut (k * v0 + e) = Rabs v /\ 10 <= Rabs v.
Proof.
  intros Hk He Hd Hv.
  assert (P : forall w w0 g, 10 <= w -> - (155 / 1000) <= w - w0 <= 155 / 1000 -> - (2 / 100) <= g <= 2 / 100 -> w * cut (k * w0 + g) = w).
  { intros w w0 g Hw Hd' Hg. assert (0 <= (k - 21 / 100) * w0) by (apply Rmult_le_pos; lra). rewrite cut_high by lra. ring. }
  unfold Rabs; destruct (Rcase_abs v) as [L|L].
  - assert (10 <= - v).
    { apply Rnot_lt_le; intros Q. assert (0 < (10 - - v) * (10 + - v)) by (apply Rmult_lt_0_compat; lra). lra. }
    split; [|lra]. specialize (P (- v) (- v0) (- e) ltac:(lra) ltac:(lra) ltac:(lra)).
    replace (k * - v0 + - e) with (- (k * v0 + e)) in P by ring. rewrite cut_opp in P. lra.
  - assert (10 <= v).
    { apply Rnot_lt_le; intros Q. assert (0 < (10 - v) * (10 + v)) by (apply Rmult_lt_0_compat; lra). lra. }
    split; [|lra]. apply P; lra.
Qed.
Lemma x_held t : 0 <= t <= T -> 10 * 10 - vx t * vx t < 0 -> 0 < -2 * (vx t * ax t).
Proof.
  intros Ht H. destruct (slow t Ht) as (Sx & Sy & Sz). destruct (speeds t Ht) as (_ & By & _).
  pose proof (pb k12 (vy 0) (1 / 2000) 10 O1 ltac:(lra)). pose proof (pb k13 (vz 0) (1 / 2000) 10 O2 ltac:(lra)).
  destruct (held_full k11 (k12 * vy 0 + k13 * vz 0) (vx t) (vx 0) ltac:(lra) ltac:(lra) Sx ltac:(lra)) as [F A].
  pose proof (pull_x t Ht). assert (L := pb n (vy t) (105 / 100000) _ ltac:(lra) By).
  pose proof (drag (vx t) (8 / 100) (3 * (n * n) * x t + 2 * n * vy t) ltac:(lra) ltac:(lra) A) as D.
  unfold ax, ux. lra.
Qed.
Lemma y_held t : 0 <= t <= T -> 10 * 10 - vy t * vy t < 0 -> 0 < -2 * (vy t * ay t).
Proof.
  intros Ht H. destruct (slow t Ht) as (Sx & Sy & Sz). destruct (speeds t Ht) as (Bx & _ & _).
  pose proof (pb k12 (vx 0) (1 / 2000) 10 O1 ltac:(lra)). pose proof (pb k23 (vz 0) (1 / 2000) 10 O3 ltac:(lra)).
  destruct (held_full k22 (k12 * vx 0 + k23 * vz 0) (vy t) (vy 0) ltac:(lra) ltac:(lra) Sy ltac:(lra)) as [F A].
  assert (L := pb n (vx t) (105 / 100000) _ ltac:(lra) Bx).
  pose proof (drag (vy t) (8 / 100) (- (2 * n * vx t)) ltac:(lra) ltac:(lra) A) as D.
  unfold ay, uy. lra.
Qed.
Lemma z_held t : 0 <= t <= T -> 10 * 10 - vz t * vz t < 0 -> 0 < -2 * (vz t * az t).
Proof.
  intros Ht H. destruct (slow t Ht) as (Sx & Sy & Sz).
  pose proof (pb k13 (vx 0) (1 / 2000) 10 O2 ltac:(lra)). pose proof (pb k23 (vy 0) (1 / 2000) 10 O3 ltac:(lra)).
  destruct (held_full k33 (k13 * vx 0 + k23 * vy 0) (vz t) (vz 0) ltac:(lra) ltac:(lra) Sz ltac:(lra)) as [F A].
  pose proof (pull_z t Ht).
  pose proof (drag (vz t) (8 / 100) (- (n * n * z t)) ltac:(lra) ltac:(lra) A) as D.
  unfold az, uz. lra.
Qed.
End Hold.
