(** A solution of the Riccati equation of the planar stopping controller. *)
From Coq Require Import Reals Ranalysis5 List Lia Lra Psatz.
From Verif Require Import Prelude Vec SpecLqr ProofsStop.
Import ListNotations.
Local Open Scope R_scope.

Lemma cont_sqrt f a : continuity_pt f a -> 0 <= f a -> continuity_pt (fun t => sqrt (f t)) a.
Proof. intros H P. apply (continuity_pt_comp f sqrt); [exact H|apply continuity_pt_sqrt, P]. Qed.
Lemma cont_inv f a : continuity_pt f a -> f a <> 0 -> continuity_pt (fun t => / f t) a.
Proof. intros H P. apply (continuity_pt_inv f); assumption. Qed.
Lemma cont_const c a : continuity_pt (fun _ => c) a.
Proof. apply continuity_pt_const. intros x y. reflexivity. Qed.
Lemma cont_id a : continuity_pt (fun t => t) a.
Proof. apply derivable_continuous_pt, derivable_pt_id. Qed.
Lemma cont_plus f g a : continuity_pt f a -> continuity_pt g a -> continuity_pt (fun t => f t + g t) a.
Proof. apply (continuity_pt_plus f g). Qed.
Lemma cont_minus f g a : continuity_pt f a -> continuity_pt g a -> continuity_pt (fun t => f t - g t) a.
Proof. apply (continuity_pt_minus f g). Qed.
Lemma cont_mult f g a : continuity_pt f a -> continuity_pt g a -> continuity_pt (fun t => f t * g t) a.
Proof. apply (continuity_pt_mult f g). Qed.
Lemma cont_opp f a : continuity_pt f a -> continuity_pt (fun t => - f t) a.
Proof. apply (continuity_pt_opp f). Qed.
Ltac cont := repeat first [assumption | apply cont_const | apply cont_id | apply cont_plus | apply cont_minus | apply cont_mult | apply cont_opp].

Lemma sqrt_between x l u : 0 <= l -> 0 <= u -> l * l <= x <= u * u -> l <= sqrt x <= u.
Proof.
  intros Hl Hu H. split.
  - rewrite <- (sqrt_square l) by exact Hl. apply sqrt_le_1_alt. lra.
  - rewrite <- (sqrt_square u) by exact Hu. apply sqrt_le_1_alt. lra.
Qed.

Section Planar.
Variables (N : R).
Hypothesis HN : 0 <= N <= 42 / 1000.
Let d := 3 * (N * N).
Let g := sqrt (8 / 9).
Let h := sqrt (8 / 9 + d * d).
(** A rotation, by twice the angle whose tangent is -t. *)
Let co t := (1 - t * t) * / (1 + t * t).
Let si t := - (2 * t) * / (1 + t * t).
Let A t := 2 * d + 2 * (h - g) * co t.
Let B t := (g - h) * si t.
Let W t := 1 / 900 + 2 * d + 2 * (h + g) * co t.
Let M t := 2 * W t + 16 * (N * N).
Let D t := (M t + sqrt (M t * M t - 4 * (A t * A t + 4 * (B t * B t)))) * / 2.
Let s t := sqrt (D t - 16 * (N * N)).
Let e t := (s t * A t - 8 * N * B t) * / D t.
Let b t := (s t * B t + 2 * N * A t) * / D t.
Let Phi t := (h - g) * co t * b t - si t * (h * ((s t - e t) * / 2) + g * ((s t + e t) * / 2)) - 2 * N * (d + (h + g) * co t).

Lemma ex_d : 0 <= d <= 53 / 10000.
Proof. unfold d. pose proof (sq N). pose proof (pb N N (42 / 1000) (42 / 1000) ltac:(lra) ltac:(lra)). lra. Qed.
Lemma ex_g : 9428 / 10000 <= g <= 9429 / 10000 /\ g * g = 8 / 9.
Proof. split; [apply sqrt_between; lra|apply sqrt_sqrt; lra]. Qed.
Lemma ex_h : g <= h <= g + 2 / 100000 /\ h * h = 8 / 9 + d * d.
Proof.
  pose proof ex_d as Hd. destruct ex_g as [G G2]. pose proof (sq d) as D0. pose proof (pb d d (53 / 10000) (53 / 10000) ltac:(lra) ltac:(lra)) as D1.
  split; [|apply sqrt_sqrt; lra]. apply sqrt_between; lra.
Qed.
Section At.
Variable t : R.
Hypothesis Ht : 0 <= t <= 1 / 20.
Lemma ex_den : 1 <= 1 + t * t <= 401 / 400.
Proof. pose proof (sq t). pose proof (pb t t (1 / 20) (1 / 20) ltac:(lra) ltac:(lra)). lra. Qed.
Lemma ex_rot : co t * co t + si t * si t = 1.
Proof. pose proof ex_den. unfold co, si. field. lra. Qed.
Lemma ex_co : 995 / 1000 <= co t <= 1.
Proof.
  pose proof ex_den as H. unfold co. split; apply (Rmult_le_reg_r (1 + t * t)); try lra; rewrite Rmult_assoc, Rinv_l by lra; lra.
Qed.
Lemma ex_si : - (1 / 10) <= si t <= 0.
Proof.
  pose proof ex_den as H. unfold si. split; apply (Rmult_le_reg_r (1 + t * t)); try lra; rewrite Rmult_assoc, Rinv_l by lra; lra.
Qed.
Lemma ex_A : 0 <= A t <= 107 / 10000.
Proof.
  pose proof ex_d. destruct ex_h as [Hh _]. pose proof ex_co. unfold A.
  assert (0 <= (h - g) * co t) by (apply Rmult_le_pos; lra). assert ((h - g) * co t <= 2 / 100000 * 1) by (apply Rmult_le_compat; lra). lra.
Qed.
Lemma ex_B : 0 <= B t <= 1 / 100000.
Proof.
  destruct ex_h as [Hh _]. pose proof ex_si. unfold B.
  assert (0 <= (h - g) * - si t) by (apply Rmult_le_pos; lra). assert ((h - g) * - si t <= 2 / 100000 * (1 / 10)) by (apply Rmult_le_compat; lra). lra.
Qed.
Lemma ex_W : 375 / 100 <= W t <= 379 / 100.
Proof.
  pose proof ex_d. destruct ex_g as [Hg _]. destruct ex_h as [Hh _]. pose proof ex_co. unfold W.
  assert ((h + g) * (995 / 1000) <= (h + g) * co t) by (apply Rmult_le_compat_l; lra).
  assert ((h + g) * co t <= (h + g) * 1) by (apply Rmult_le_compat_l; lra). lra.
Qed.
Lemma ex_N2 : 0 <= N * N <= 1765 / 1000000.
Proof. pose proof (sq N). pose proof (pb N N (42 / 1000) (42 / 1000) ltac:(lra) ltac:(lra)). lra. Qed.
Lemma ex_AB : 0 <= A t * A t + 4 * (B t * B t) <= 12 / 100000.
Proof.
  pose proof ex_A as HA. pose proof ex_B as HB. pose proof (sq (A t)). pose proof (sq (B t)).
  pose proof (pb (A t) (A t) (107 / 10000) (107 / 10000) ltac:(lra) ltac:(lra)). pose proof (pb (B t) (B t) (1 / 100000) (1 / 100000) ltac:(lra) ltac:(lra)). lra.
Qed.
Lemma ex_M : 75 / 10 <= M t <= 761 / 100.
Proof. pose proof ex_W. pose proof ex_N2. unfold M. lra. Qed.
Lemma ex_disc : 56 <= M t * M t - 4 * (A t * A t + 4 * (B t * B t)).
Proof. pose proof ex_M. pose proof ex_AB. assert (75 / 10 * (75 / 10) <= M t * M t) by (apply Rmult_le_compat; lra). lra. Qed.
Lemma ex_D : 748 / 100 <= D t <= 761 / 100 /\ D t * D t - M t * D t + (A t * A t + 4 * (B t * B t)) = 0.
Proof.
  pose proof ex_M as HM. pose proof ex_AB as HA. pose proof ex_disc as Hd. set (x := M t * M t - 4 * (A t * A t + 4 * (B t * B t))) in *.
  assert (Q : sqrt x * sqrt x = x) by (apply sqrt_sqrt; lra).
  assert (L : M t - 1 / 100 <= sqrt x <= M t).
  { apply sqrt_between; [lra|lra|]. unfold x. lra. }
  unfold D. fold x. split; [lra|].
  replace ((M t + sqrt x) * / 2 * ((M t + sqrt x) * / 2)) with ((M t * M t + 2 * M t * sqrt x + sqrt x * sqrt x) / 4) by field.
  rewrite Q. unfold x. field.
Qed.
Lemma ex_s : 272 / 100 <= s t <= 276 / 100 /\ s t * s t = D t - 16 * (N * N).
Proof. destruct ex_D as [HD _]. pose proof ex_N2. split; [apply sqrt_between; lra|apply sqrt_sqrt; lra]. Qed.
Lemma ex_e : - (1 / 1000) <= e t <= 1 / 200 /\ e t * D t = s t * A t - 8 * N * B t.
Proof.
  destruct ex_D as [HD _]. destruct ex_s as [Hs _]. pose proof ex_A as HA. pose proof ex_B as HB.
  assert (E : e t * D t = s t * A t - 8 * N * B t) by (unfold e; field; lra). split; [|exact E].
  pose proof (pb (s t) (A t) (276 / 100) (107 / 10000) ltac:(lra) ltac:(lra)). pose proof (pb N (B t) (42 / 1000) (1 / 100000) ltac:(lra) ltac:(lra)).
  assert (0 <= s t * A t) by (apply Rmult_le_pos; lra). split; apply (Rmult_le_reg_r (D t)); lra.
Qed.
Lemma ex_b : 0 <= b t <= 2 / 10000 /\ b t * D t = s t * B t + 2 * N * A t.
Proof.
  destruct ex_D as [HD _]. destruct ex_s as [Hs _]. pose proof ex_A as HA. pose proof ex_B as HB.
  assert (E : b t * D t = s t * B t + 2 * N * A t) by (unfold b; field; lra). split; [|exact E].
  pose proof (pb (s t) (B t) (276 / 100) (1 / 100000) ltac:(lra) ltac:(lra)). pose proof (pb N (A t) (42 / 1000) (107 / 10000) ltac:(lra) ltac:(lra)).
  assert (0 <= s t * B t) by (apply Rmult_le_pos; lra). assert (0 <= N * A t) by (apply Rmult_le_pos; lra). split; apply (Rmult_le_reg_r (D t)); lra.
Qed.
Lemma ex_cont : continuity_pt Phi t.
Proof.
  pose proof ex_den as Hd. pose proof ex_disc as Hc. destruct ex_D as [HD _]. pose proof ex_N2 as Hn.
  assert (Cco : continuity_pt co t) by (unfold co; apply cont_mult; [cont|apply cont_inv; [cont|lra]]).
  assert (Csi : continuity_pt si t) by (unfold si; apply cont_mult; [cont|apply cont_inv; [cont|lra]]).
  assert (CA : continuity_pt A t) by (unfold A; cont).
  assert (CB : continuity_pt B t) by (unfold B; cont).
  assert (CW : continuity_pt W t) by (unfold W; cont).
  assert (CM : continuity_pt M t) by (unfold M; cont).
  assert (CD : continuity_pt D t).
  { unfold D. apply cont_mult; [|cont]. apply cont_plus; [exact CM|]. apply cont_sqrt; [cont|lra]. }
  assert (Cs : continuity_pt s t) by (unfold s; apply cont_sqrt; [apply cont_minus; [exact CD|cont]|lra]).
  assert (Ce : continuity_pt e t) by (unfold e; apply cont_mult; [cont|apply cont_inv; [exact CD|lra]]).
  assert (Cb : continuity_pt b t) by (unfold b; apply cont_mult; [cont|apply cont_inv; [exact CD|lra]]).
  unfold Phi. cont.
Qed.
End At.

Lemma ex_start : Phi 0 <= 0.
Proof.
  assert (H0 : 0 <= 0 <= 1 / 20) by lra.
  destruct (ex_b 0 H0) as [_ Eb]. destruct (ex_D 0 H0) as [HD _]. pose proof (ex_A 0 H0) as HA. destruct ex_h as [Hh _]. destruct ex_g as [Hg _]. pose proof ex_d as Hd.
  assert (Cc : co 0 = 1) by (unfold co; field). assert (Cs : si 0 = 0) by (unfold si; field).
  unfold Phi. rewrite Cc, Cs. unfold B in Eb. rewrite Cs in Eb.
  assert (b 0 <= 2 * N * (1 / 100)).
  { apply (Rmult_le_reg_r (D 0)); [lra|]. rewrite Eb. assert (N * A 0 <= N * (107 / 10000)) by (apply Rmult_le_compat_l; lra).
    assert (N * (748 / 100) <= N * D 0) by (apply Rmult_le_compat_l; lra). lra. }
  assert ((h - g) * b 0 <= (h - g) * (2 * N * (1 / 100))) by (apply Rmult_le_compat_l; lra).
  assert ((h - g) * (2 * N * (1 / 100)) <= 1 * (2 * N * (1 / 100))) by (apply Rmult_le_compat_r; lra).
  assert (N * (h + g) >= N * 1) by (apply Rle_ge, Rmult_le_compat_l; lra). assert (0 <= N * d) by (apply Rmult_le_pos; lra). lra.
Qed.
Lemma ex_end : 0 < Phi (1 / 20).
Proof.
  assert (H0 : 0 <= 1 / 20 <= 1 / 20) by lra.
  destruct (ex_b _ H0) as [Hb _]. destruct (ex_e _ H0) as [He _]. destruct (ex_s _ H0) as [Hs _]. destruct ex_h as [Hh _]. destruct ex_g as [Hg _]. pose proof ex_d as Hd.
  pose proof (ex_co _ H0) as Hc.
  assert (Cs : si (1 / 20) = - (40 / 401)) by (unfold si; field).
  unfold Phi. rewrite Cs.
  assert (0 <= (h - g) * co (1 / 20) * b (1 / 20)) by (apply Rmult_le_pos; [apply Rmult_le_pos; lra|lra]).
  set (c := (s (1 / 20) - e (1 / 20)) * / 2) in *. set (a := (s (1 / 20) + e (1 / 20)) * / 2) in *.
  assert (Ha : 135 / 100 <= a) by (unfold a; lra). assert (Hc' : 135 / 100 <= c) by (unfold c; lra).
  assert (94 / 100 * (135 / 100) <= h * c) by (apply Rmult_le_compat; lra). assert (94 / 100 * (135 / 100) <= g * a) by (apply Rmult_le_compat; lra).
  assert ((h + g) * co (1 / 20) <= 189 / 100 * 1) by (apply Rmult_le_compat; lra).
  assert (0 <= (h + g) * co (1 / 20)) by (apply Rmult_le_pos; lra).
  pose proof (pb N (d + (h + g) * co (1 / 20)) (42 / 1000) (19 / 10) ltac:(lra) ltac:(lra)). lra.
Qed.

Lemma balance : exists t, 0 <= t <= 1 / 20 /\ Phi t = 0.
Proof.
  destruct (Rle_lt_or_eq_dec _ _ ex_start) as [L|E]; [|exists 0; split; [lra|exact E]].
  destruct (IVT_interv Phi 0 (1 / 20)) as (t & Ht & Et); [intros a Ha; apply ex_cont, Ha|lra|exact L|exact ex_end|].
  exists t. auto.
Qed.

(** The entries, with the bounds from which the matrix is seen to be positive. *)
Lemma planar_solution : exists y11 y12 y21 y22 a b c,
  y11 * y11 + y12 * y12 = 8 / 9 + 2 * d * y11 /\ y21 * y21 + y22 * y22 = 8 / 9 /\ y11 * y21 + y12 * y22 = d * y21 /\
  a * a + b * b = 1 / 1800 + 2 * y11 - 4 * N * b /\ b * b + c * c = 1 / 1800 + 2 * y22 + 4 * N * b /\
  b * (a + c) = y12 + y21 + 2 * N * (a - c) /\
  y11 * b + y12 * c - 2 * N * y11 - d * b = y21 * a + y22 * b + 2 * N * y22 /\
  93 / 100 <= y11 <= 95 / 100 /\ 93 / 100 <= y22 <= 95 / 100 /\ - (95 / 1000) <= y12 <= 95 / 1000 /\ - (95 / 1000) <= y21 <= 95 / 1000 /\
  135 / 100 <= a <= 139 / 100 /\ 135 / 100 <= c <= 139 / 100 /\ - (1 / 1000) <= b <= 1 / 1000.
Proof.
  destruct balance as (t & Ht & E0).
  pose proof (ex_co t Ht) as Hc. pose proof (ex_si t Ht) as Hsi. pose proof (ex_rot t Ht) as Rot. pose proof ex_d as Hd. destruct ex_g as [Hg G2]. destruct ex_h as [Hh H2].
  destruct (ex_D t Ht) as [HD DD]. destruct (ex_s t Ht) as [Hs SS]. destruct (ex_e t Ht) as [He EE]. destruct (ex_b t Ht) as [Hb BB].
  exists (d + h * co t), (- (h * si t)), (g * si t), (g * co t), ((s t + e t) / 2), (b t), ((s t - e t) / 2).
  unfold Phi in E0. unfold M, W in DD.
  assert (EA : A t = 2 * d + 2 * (h - g) * co t) by reflexivity. assert (EB : B t = (g - h) * si t) by reflexivity.
  revert E0 DD SS EE BB EA EB HD Hs He Hb Hc Hsi Rot.
  generalize (co t) (si t) (A t) (B t) (D t) (s t) (e t) (b t). intros k l a' b' D' s' e' bb E0 DD SS EE BB EA EB HD Hs He Hb Hc Hsi Rot.
  (* the two linear equations *)
  assert (L1 : s' * e' + 8 * N * bb = a').
  { apply (Rmult_eq_reg_r D'); [|lra]. replace ((s' * e' + 8 * N * bb) * D') with (s' * (e' * D') + 8 * N * (bb * D')) by ring.
    rewrite EE, BB. replace (s' * (s' * a' - 8 * N * b') + 8 * N * (s' * b' + 2 * N * a')) with (a' * (s' * s' + 16 * (N * N))) by ring. rewrite SS. ring. }
  assert (L2 : s' * bb - 2 * N * e' = b').
  { apply (Rmult_eq_reg_r D'); [|lra]. replace ((s' * bb - 2 * N * e') * D') with (s' * (bb * D') - 2 * N * (e' * D')) by ring.
    rewrite EE, BB. replace (s' * (s' * b' + 2 * N * a') - 2 * N * (s' * a' - 8 * N * b')) with (b' * (s' * s' + 16 * (N * N))) by ring. rewrite SS. ring. }
  assert (Sum : s' * s' + e' * e' + 4 * (bb * bb) = 2 * (1 / 900 + 2 * d + 2 * (h + g) * k)).
  { apply (Rmult_eq_reg_r D'); [|lra].
    assert (K : (e' * e' + 4 * (bb * bb)) * D' = a' * a' + 4 * (b' * b')).
    { rewrite <- L1, <- L2. replace D' with (s' * s' + 16 * (N * N)) by lra. ring. }
    replace ((s' * s' + e' * e' + 4 * (bb * bb)) * D') with (s' * s' * D' + (e' * e' + 4 * (bb * bb)) * D') by ring. rewrite K, SS. lra. }
  assert (H3 : h * k * (h * k) + h * l * (h * l) = 8 / 9 + d * d) by (replace (h * k * (h * k) + h * l * (h * l)) with (h * h * (k * k + l * l)) by ring; rewrite Rot, H2; ring).
  assert (G3 : g * k * (g * k) + g * l * (g * l) = 8 / 9) by (replace (g * k * (g * k) + g * l * (g * l)) with (g * g * (k * k + l * l)) by ring; rewrite Rot, G2; ring).
  assert (Bhk : 937 / 1000 <= h * k <= 9431 / 10000).
  { split; [apply Rle_trans with (9428 / 10000 * (995 / 1000)); [lra|apply Rmult_le_compat; lra]|apply Rle_trans with (9431 / 10000 * 1); [apply Rmult_le_compat; lra|lra]]. }
  assert (Bgk : 937 / 1000 <= g * k <= 9431 / 10000).
  { split; [apply Rle_trans with (9428 / 10000 * (995 / 1000)); [lra|apply Rmult_le_compat; lra]|apply Rle_trans with (9431 / 10000 * 1); [apply Rmult_le_compat; lra|lra]]. }
  assert (Bhl := pb h l (9431 / 10000) (1 / 10) ltac:(lra) ltac:(lra)). assert (Bgl := pb g l (9431 / 10000) (1 / 10) ltac:(lra) ltac:(lra)).
  repeat split; try lra.
Qed.
End Planar.
