(** Lemmas on braking, the passively-safe maneuver, stacked deputies and stopping controllers. *)
From Coq Require Import String Reals List Bool ZArith Lia Lra Psatz.
From Coquelicot Require Import Hierarchy Derive.
From Verif Require Import Prelude Vec ModelBase ModelController ModelSimplex ModelAsif ModelConstraint ModelCwh
  SpecConstraint SpecCwh ProofsVec ProofsConstraint ProofsCwh.
Import ListNotations.
Local Open Scope R_scope.

Lemma Rleb_spec a b : Bool.reflect (a <= b) (Rleb a b).
Proof. unfold Rleb; destruct (Rle_dec a b); constructor; auto. Qed.

(** ** Distances *)

Lemma length3_sqr x y z : length3 x y z * length3 x y z = x * x + y * y + z * z.
Proof.
  unfold length3; apply sqrt_sqrt.
  pose proof (Rle_0_sqr x) as P1; pose proof (Rle_0_sqr y) as P2; pose proof (Rle_0_sqr z) as P3; unfold Rsqr in *; lra.
Qed.
Lemma length3_pos x y z : 0 <= length3 x y z.
Proof. apply sqrt_pos. Qed.

Lemma le_of_sqr a b : 0 <= b -> a * a <= b * b -> a <= b.
Proof. intros Hb H. destruct (Rle_lt_dec a b); auto. exfalso; nra. Qed.

(** Cauchy-Schwarz. *)
Lemma cauchy3 x y z a b c : x * a + y * b + z * c <= length3 x y z * length3 a b c.
Proof.
  apply le_of_sqr; [apply Rmult_le_pos; apply length3_pos|].
  replace (length3 x y z * length3 a b c * (length3 x y z * length3 a b c))
    with ((length3 x y z * length3 x y z) * (length3 a b c * length3 a b c)) by ring.
  rewrite !length3_sqr.
  pose proof (Rle_0_sqr (x * b - y * a)) as P1. pose proof (Rle_0_sqr (y * c - z * b)) as P2.
  pose proof (Rle_0_sqr (x * c - z * a)) as P3. unfold Rsqr in *. nra.
Qed.
Lemma cauchy3_low x y z a b c : - (length3 x y z * length3 a b c) <= x * a + y * b + z * c.
Proof.
  pose proof (cauchy3 x y z (- a) (- b) (- c)) as H.
  assert (E : length3 (- a) (- b) (- c) = length3 a b c) by (unfold length3; f_equal; ring).
  rewrite E in H. lra.
Qed.

(** ** Braking *)

Lemma derivative_nonneg (f f' : R -> R) T : (forall t, 0 <= t <= T -> derivable_pt_lim f t (f' t)) ->
  (forall t, 0 <= t <= T -> 0 <= f' t) -> forall t, 0 <= t <= T -> f 0 <= f t.
Proof.
  intros D P t Ht. destruct (Req_dec t 0) as [->|N]; [lra|].
  destruct (MVT_cor2 f f' 0 t) as (c & E & Hc); [lra|intros; apply D; lra|].
  assert (0 <= f' c) by (apply P; lra). nra.
Qed.

Lemma derive_quadratic a b t : derivable_pt_lim (fun r => a * r + b / 2 * (r * r)) t (a + b * t).
Proof.
  eapply derive_eq.
  - apply (derivable_pt_lim_plus (fun r => a * r) (fun r => b / 2 * (r * r))).
    + apply (derivable_pt_lim_scal id); apply derivable_pt_lim_id.
    + apply (derivable_pt_lim_scal (fun r => r * r)).
      apply (derivable_pt_lim_mult id id); apply derivable_pt_lim_id.
  - unfold id; field.
Qed.

Lemma radial_lower r r' r'' T a : radial_motion r r' r'' T -> (forall t, 0 <= t <= T -> a <= r'' t) ->
  forall t, 0 <= t <= T -> r 0 + r' 0 * t + a / 2 * (t * t) <= r t.
Proof.
  intros D A.
  assert (S1 : forall t, 0 <= t <= T -> r' 0 + a * t <= r' t).
  { intros t Ht. pose proof (derivative_nonneg (fun s => r' s - a * s) (fun s => r'' s - a) T) as H.
    assert (r' 0 - a * 0 <= r' t - a * t); [|lra].
    apply H; auto; intros s Hs; [|specialize (A s Hs); lra].
    apply (derivable_pt_lim_minus r' (fun s => a * s)); [apply D; auto|].
    eapply derive_eq; [apply (derivable_pt_lim_scal id); apply derivable_pt_lim_id|ring]. }
  intros t Ht.
  pose proof (derivative_nonneg (fun s => r s - (r' 0 * s + a / 2 * (s * s))) (fun s => r' s - (r' 0 + a * s)) T) as H.
  assert (r 0 - (r' 0 * 0 + a / 2 * (0 * 0)) <= r t - (r' 0 * t + a / 2 * (t * t))); [|lra].
  apply H; auto; intros s Hs; [|specialize (S1 s Hs); lra].
  apply (derivable_pt_lim_minus r (fun s => r' 0 * s + a / 2 * (s * s))); [apply D; auto|apply derive_quadratic].
Qed.

(** Enough room to brake. *)
Lemma room_to_brake d w a R t : 0 < a -> R <= d -> 0 <= sqrt (2 * a * (d - R)) + w -> 0 <= t ->
  R <= d + w * t + a / 2 * (t * t).
Proof.
  intros Ha Hd Hw Ht.
  destruct (Rle_lt_dec 0 w) as [G|L].
  { pose proof (Rmult_le_pos w t G Ht). pose proof (Rle_0_sqr t) as P; unfold Rsqr in P. nra. }
  assert (W : w * w <= 2 * a * (d - R)).
  { rewrite <- (sqrt_sqrt (2 * a * (d - R))) by nra. set (q := sqrt _) in *. nra. }
  pose proof (Rle_0_sqr (w + a * t)) as P; unfold Rsqr in P.
  assert (0 <= (d + w * t + a / 2 * (t * t) - R) * (2 * a)) by nra. nra.
Qed.

(** And without it, straight motion at full braking crosses. *)
Lemma no_room d w a R : 0 < a -> R <= d -> sqrt (2 * a * (d - R)) + w < 0 ->
  exists t, 0 <= t /\ d + w * t + a / 2 * (t * t) < R.
Proof.
  intros Ha Hd Hw. exists (- w / a).
  pose proof (sqrt_pos (2 * a * (d - R))) as Q0.
  assert (Q : sqrt (2 * a * (d - R)) * sqrt (2 * a * (d - R)) = 2 * a * (d - R)) by (apply sqrt_sqrt; nra).
  set (q := sqrt _) in *.
  assert (W : 2 * a * (d - R) < w * w) by nra.
  split.
  - apply Rmult_le_pos; [lra|apply Rlt_le, Rinv_0_lt_compat; auto].
  - assert (E : d + w * (- w / a) + a / 2 * (- w / a * (- w / a)) = d - w * w / (2 * a)) by (field; lra).
    rewrite E. assert (E2 : d - R < w * w / (2 * a)); [|lra].
    apply (Rmult_lt_reg_r (2 * a)); [lra|].
    replace (w * w / (2 * a) * (2 * a)) with (w * w) by (field; lra). lra.
Qed.

(** In space: constant acceleration along the initial direction. *)
Lemma brake_in_space x y z vx vy vz a R t : 0 < a -> 0 < length3 x y z -> R <= length3 x y z ->
  0 <= sqrt (2 * a * (length3 x y z - R)) + (x * vx + y * vy + z * vz) / length3 x y z -> 0 <= t ->
  R <= length3 (x + vx * t + a / 2 * (t * t) * (x / length3 x y z))
               (y + vy * t + a / 2 * (t * t) * (y / length3 x y z))
               (z + vz * t + a / 2 * (t * t) * (z / length3 x y z)).
Proof.
  intros Ha Hd HR Hv Ht. pose proof (room_to_brake _ _ _ _ _ Ha HR Hv Ht) as B.
  pose proof (length3_sqr x y z) as E.
  set (d := length3 x y z) in *.
  set (x' := x + vx * t + a / 2 * (t * t) * (x / d)) in *; set (y' := y + vy * t + a / 2 * (t * t) * (y / d)) in *;
  set (z' := z + vz * t + a / 2 * (t * t) * (z / d)) in *.
  pose proof (cauchy3 x y z x' y' z') as C. fold d in C.
  assert (E2 : x * x' + y * y' + z * z' = d * (d + (x * vx + y * vy + z * vz) / d * t + a / 2 * (t * t))).
  { unfold x', y', z'.
    transitivity ((x * x + y * y + z * z) + (x * vx + y * vy + z * vz) * t + a / 2 * (t * t) * ((x * x + y * y + z * z) / d)).
    - field; lra.
    - rewrite <- E. field; lra. }
  rewrite E2 in C. apply Rmult_le_reg_l in C; auto. lra.
Qed.

(** ** Radial motion *)

Section Radial.
Variables (T : R) (x y z vx vy vz ax ay az : R -> R).
Hypothesis Dx : forall t, 0 <= t <= T -> derivable_pt_lim x t (vx t).
Hypothesis Dy : forall t, 0 <= t <= T -> derivable_pt_lim y t (vy t).
Hypothesis Dz : forall t, 0 <= t <= T -> derivable_pt_lim z t (vz t).
Hypothesis Dvx : forall t, 0 <= t <= T -> derivable_pt_lim vx t (ax t).
Hypothesis Dvy : forall t, 0 <= t <= T -> derivable_pt_lim vy t (ay t).
Hypothesis Dvz : forall t, 0 <= t <= T -> derivable_pt_lim vz t (az t).

Let r t := length3 (x t) (y t) (z t).
Let w t := x t * vx t + y t * vy t + z t * vz t.
Let w' t := vx t * vx t + vy t * vy t + vz t * vz t + (x t * ax t + y t * ay t + z t * az t).

Lemma square_derive t : 0 <= t <= T ->
  derivable_pt_lim (fun s => x s * x s + y s * y s + z s * z s) t (2 * w t).
Proof.
  intros Ht. eapply derive_eq.
  - apply (derivable_pt_lim_plus (fun s => x s * x s + y s * y s) (fun s => z s * z s));
      [apply (derivable_pt_lim_plus (fun s => x s * x s) (fun s => y s * y s))|].
    + apply (derivable_pt_lim_mult x x); auto.
    + apply (derivable_pt_lim_mult y y); auto.
    + apply (derivable_pt_lim_mult z z); auto.
  - unfold w; ring.
Qed.

Lemma radial_derive t : 0 <= t <= T -> 0 < r t -> derivable_pt_lim r t (w t / r t).
Proof.
  intros Ht Hr. unfold r, length3 in *.
  eapply derive_eq.
  - apply (derivable_pt_lim_comp (fun s => x s * x s + y s * y s + z s * z s) sqrt); [apply square_derive; auto|].
    apply derivable_pt_lim_sqrt. apply Rnot_le_lt; intros N; rewrite sqrt_neg_0 in Hr by auto; lra.
  - field; lra.
Qed.

Lemma w_derive t : 0 <= t <= T -> derivable_pt_lim w t (w' t).
Proof.
  intros Ht. eapply derive_eq.
  - unfold w. apply (derivable_pt_lim_plus (fun s => x s * vx s + y s * vy s) (fun s => z s * vz s));
      [apply (derivable_pt_lim_plus (fun s => x s * vx s) (fun s => y s * vy s))|].
    + apply (derivable_pt_lim_mult x vx); auto.
    + apply (derivable_pt_lim_mult y vy); auto.
    + apply (derivable_pt_lim_mult z vz); auto.
  - unfold w'; ring.
Qed.

Lemma radial_is_motion : (forall t, 0 <= t <= T -> 0 < r t) ->
  radial_motion r (fun t => w t / r t) (fun t => w' t / r t - w t * w t / (r t * r t * r t)) T.
Proof.
  intros P t Ht. specialize (P t Ht). split; [apply radial_derive; auto|].
  eapply derive_eq.
  - apply (derivable_pt_lim_div w r); [apply w_derive; auto|apply radial_derive; auto|lra].
  - unfold Rsqr; field; lra.
Qed.

Lemma square_continuous t : 0 <= t <= T ->
  continuity_pt (fun s => x s * x s + y s * y s + z s * z s) t.
Proof. intros Ht. apply derivable_continuous_pt. exists (2 * w t). apply square_derive; auto. Qed.
End Radial.

(** If, as long as the continuous [q] is positive, it is at least [Q] > 0, then it is always. *)
Lemma never_small (q : R -> R) Q T : 0 < Q -> Q <= q 0 -> (forall t, 0 <= t <= T -> continuity_pt q t) ->
  (forall S, 0 <= S <= T -> (forall t, 0 <= t <= S -> 0 < q t) -> forall t, 0 <= t <= S -> Q <= q t) ->
  forall t, 0 <= t <= T -> Q <= q t.
Proof.
  intros HQ H0 C Step t0 Ht0.
  set (E := fun s => 0 <= s <= T /\ forall t, 0 <= t <= s -> Q <= q t).
  assert (E0 : E 0).
  { split; [lra|]. intros t Ht; replace t with 0 by lra; auto. }
  destruct (completeness E) as (S & Up & Least).
  { exists T; intros s [Hs _]; lra. }
  { exists 0; auto. }
  assert (S0 : 0 <= S) by (apply Up; auto).
  assert (ST : S <= T) by (apply Least; intros s [Hs _]; lra).
  assert (Below : forall t, 0 <= t -> t < S -> Q <= q t).
  { intros t Hp Hl. destruct (Rle_lt_dec Q (q t)) as [|L]; auto. exfalso.
    assert (S <= t); [|lra]. apply Least. intros s [Hs Hq].
    destruct (Rle_lt_dec s t); auto. specialize (Hq t ltac:(lra)); lra. }
  (* positivity a little beyond S *)
  assert (Near : forall s, 0 <= s <= T -> Q <= q s -> exists e, 0 < e /\ forall t, Rabs (t - s) < e -> 0 < q t).
  { intros s Hs Hq. destruct (C s Hs Q ltac:(lra)) as (e & He & H). exists e; split; auto.
    intros t Ht. destruct (Req_dec t s) as [->|N]; [lra|].
    specialize (H t). simpl in H. unfold R_dist in H.
    assert (Hd : Rabs (q t - q s) < Q) by (apply H; split; auto; split; [exact I|auto]).
    apply Rabs_def2 in Hd. lra. }
  assert (QS : Q <= q S).
  { destruct (Rle_lt_dec Q (q S)) as [|L]; auto. exfalso.
    destruct (Req_dec S 0) as [Z|Z]; [rewrite Z in L; lra|].
    destruct (C S ltac:(lra) (Q - q S) ltac:(lra)) as (e & He & H).
    set (t := S - Rmin (e / 2) (S / 2)).
    assert (Hm : 0 < Rmin (e / 2) (S / 2)) by (apply Rmin_glb_lt; lra).
    pose proof (Rmin_l (e / 2) (S / 2)). pose proof (Rmin_r (e / 2) (S / 2)).
    specialize (H t). simpl in H. unfold R_dist in H.
    assert (Hd : Rabs (q t - q S) < Q - q S).
    { apply H; split; [split; [exact I|unfold t; lra]|]. unfold t. rewrite Rabs_left; lra. }
    specialize (Below t ltac:(unfold t; lra) ltac:(unfold t; lra)). apply Rabs_def2 in Hd. lra. }
  assert (Whole : S = T).
  { destruct (Req_dec S T) as [|N]; auto. exfalso.
    destruct (Near S ltac:(lra) QS) as (e & He & Pos).
    set (S' := S + Rmin (e / 2) (T - S)).
    assert (Hm : 0 < Rmin (e / 2) (T - S)) by (apply Rmin_glb_lt; lra).
    pose proof (Rmin_l (e / 2) (T - S)). pose proof (Rmin_r (e / 2) (T - S)).
    assert (S' <= S); [|unfold S' in *; lra].
    apply Up. split; [unfold S'; lra|].
    apply Step; [unfold S'; lra|].
    intros t Ht. destruct (Rlt_le_dec t S) as [L|G].
    - specialize (Below t ltac:(lra) L); lra.
    - apply Pos. unfold S' in Ht. rewrite Rabs_right; lra. }
  destruct (Rlt_le_dec t0 S) as [L|G]; [apply Below; lra|].
  replace t0 with S by lra; auto.
Qed.
