(** Lemmas on the CWH examples. *)
From Coq Require Import String Reals List Bool ZArith Lia Lra Psatz.
From Coquelicot Require Import Hierarchy Derive AutoDerive.
From Verif Require Import Prelude Vec ModelBase ModelController ModelSimplex ModelAsif ModelConstraint ModelCwh
  SpecConstraint SpecCwh ProofsVec ProofsConstraint.
Import ListNotations.
Local Open Scope R_scope.

(** ** Norms *)

Lemma norm2 x y : norm [x; y] = length2 x y.
Proof. unfold norm, sumsq, length2; simpl; f_equal; ring. Qed.
Lemma norm3 x y z : norm [x; y; z] = length3 x y z.
Proof. unfold norm, sumsq, length3; simpl; f_equal; ring. Qed.

Lemma norm_delta_ge v delta : 0 <= delta -> norm v <= norm_with_delta v delta.
Proof. intros H; unfold norm, norm_with_delta; apply sqrt_le_1_alt; lra. Qed.

Lemma norm_delta_le v delta : 0 <= delta -> norm_with_delta v delta <= norm v + sqrt delta.
Proof.
  intros H; unfold norm, norm_with_delta. pose proof (sumsq_nonneg v).
  pose proof (sqrt_pos (sumsq v)). pose proof (sqrt_pos delta).
  apply Rsqr_incr_0_var; [|lra].
  rewrite Rsqr_sqrt by lra. unfold Rsqr.
  pose proof (sqrt_sqrt (sumsq v) H0). pose proof (sqrt_sqrt delta H). nra.
Qed.

(** ** Derivatives *)

(** A function with zero derivative everywhere is constant. *)
Lemma zero_derivative (f : R -> R) : (forall t, derivable_pt_lim f t 0) -> forall t, f t = f 0.
Proof.
  intros D t. destruct (Rtotal_order t 0) as [H|[->|H]]; auto.
  - destruct (MVT_cor2 f (fun _ => 0) t 0) as (c & E & _); auto; lra.
  - destruct (MVT_cor2 f (fun _ => 0) 0 t) as (c & E & _); auto; lra.
Qed.

Lemma derive_eq f t a b : derivable_pt_lim f t a -> a = b -> derivable_pt_lim f t b.
Proof. intros H <-; auto. Qed.

Lemma derive_ext f g t a : (forall r, f r = g r) -> derivable_pt_lim f t a -> derivable_pt_lim g t a.
Proof. intros E H. apply is_derive_Reals. apply is_derive_ext with f; auto. apply is_derive_Reals; auto. Qed.

(** With zero initial values and no thrust nothing moves. *)
Lemma cwh_at_rest n m x y z vx vy vz : n <> 0 -> cwh_motion n m 0 0 0 x y z vx vy vz ->
  x 0 = 0 -> y 0 = 0 -> z 0 = 0 -> vx 0 = 0 -> vy 0 = 0 -> vz 0 = 0 ->
  forall t, x t = 0 /\ y t = 0 /\ z t = 0 /\ vx t = 0 /\ vy t = 0 /\ vz t = 0.
Proof.
  intros Hn [Dx Dy Dz Dvx Dvy Dvz] X0 Y0 Z0 VX0 VY0 VZ0.
  assert (n2 : 0 < n * n) by nra.
  assert (EZ : forall t, vz t * vz t + n * n * (z t * z t) = 0).
  { intros t. rewrite (zero_derivative (fun t => vz t * vz t + n * n * (z t * z t))).
    - rewrite Z0, VZ0; ring.
    - intros r. eapply derive_eq.
      + apply (derivable_pt_lim_plus (fun t => vz t * vz t) (fun t => n * n * (z t * z t))).
        * apply (derivable_pt_lim_mult vz vz); apply Dvz.
        * apply (derivable_pt_lim_scal (fun t => z t * z t)).
          apply (derivable_pt_lim_mult z z); apply Dz.
      + unfold Rdiv; ring. }
  assert (EV : forall t, vy t = - (2 * n * x t)).
  { intros t. assert (E : vy t + 2 * n * x t = 0); [|lra].
    rewrite (zero_derivative (fun t => vy t + 2 * n * x t)).
    - rewrite X0, VY0; ring.
    - intros r. eapply derive_eq.
      + apply (derivable_pt_lim_plus vy (fun t => 2 * n * x t)); [apply Dvy|].
        apply (derivable_pt_lim_scal x); apply Dx.
      + unfold Rdiv; ring. }
  assert (EX : forall t, vx t * vx t + n * n * (x t * x t) = 0).
  { intros t. rewrite (zero_derivative (fun t => vx t * vx t + n * n * (x t * x t))).
    - rewrite X0, VX0; ring.
    - intros r. eapply derive_eq.
      + apply (derivable_pt_lim_plus (fun t => vx t * vx t) (fun t => n * n * (x t * x t))).
        * apply (derivable_pt_lim_mult vx vx); apply Dvx.
        * apply (derivable_pt_lim_scal (fun t => x t * x t)).
          apply (derivable_pt_lim_mult x x); apply Dx.
      + rewrite EV; unfold Rdiv; ring. }
  assert (Sq : forall a b, a * a + n * n * (b * b) = 0 -> a = 0 /\ b = 0).
  { intros a b E. pose proof (Rle_0_sqr a) as P1. pose proof (Rle_0_sqr b) as P2. unfold Rsqr in *.
    assert (b * b = 0) by nra. assert (a * a = 0) by nra.
    split; [destruct (Rmult_integral a a)|destruct (Rmult_integral b b)]; auto. }
  assert (XZ : forall t, x t = 0 /\ z t = 0 /\ vx t = 0 /\ vy t = 0 /\ vz t = 0).
  { intros t. destruct (Sq _ _ (EX t)). destruct (Sq _ _ (EZ t)).
    split; [|split; [|split; [|split]]]; auto. rewrite EV, H0; ring. }
  intros t. destruct (XZ t) as (? & ? & ? & ? & ?).
  split; [|split; [|split; [|split; [|split]]]]; auto.
  rewrite (zero_derivative y); auto. intros r. apply (derive_eq _ _ (vy r)); [apply Dy|]. apply XZ.
Qed.

(** The difference of two motions under the same thrust is a free motion. *)
Lemma cwh_difference n m ux uy uz x y z vx vy vz x' y' z' vx' vy' vz' :
  cwh_motion n m ux uy uz x y z vx vy vz -> cwh_motion n m ux uy uz x' y' z' vx' vy' vz' ->
  cwh_motion n m 0 0 0 (fun t => x t - x' t) (fun t => y t - y' t) (fun t => z t - z' t)
    (fun t => vx t - vx' t) (fun t => vy t - vy' t) (fun t => vz t - vz' t).
Proof.
  intros [A1 A2 A3 A4 A5 A6] [B1 B2 B3 B4 B5 B6].
  split; intros t;
    (eapply derive_eq;
     [match goal with
      | |- derivable_pt_lim (fun t => ?f t - ?g t) _ _ => apply (derivable_pt_lim_minus f g); auto
      end|unfold Rdiv; ring]).
Qed.

Lemma cwh_unique n m ux uy uz x y z vx vy vz x' y' z' vx' vy' vz' : n <> 0 ->
  cwh_motion n m ux uy uz x y z vx vy vz -> cwh_motion n m ux uy uz x' y' z' vx' vy' vz' ->
  x 0 = x' 0 -> y 0 = y' 0 -> z 0 = z' 0 -> vx 0 = vx' 0 -> vy 0 = vy' 0 -> vz 0 = vz' 0 ->
  forall t, x t = x' t /\ y t = y' t /\ z t = z' t /\ vx t = vx' t /\ vy t = vy' t /\ vz t = vz' t.
Proof.
  intros Hn A B E1 E2 E3 E4 E5 E6 t.
  destruct (cwh_at_rest n m _ _ _ _ _ _ Hn (cwh_difference _ _ _ _ _ _ _ _ _ _ _ _ _ _ _ _ _ A B)
              ltac:(lra) ltac:(lra) ltac:(lra) ltac:(lra) ltac:(lra) ltac:(lra) t) as (? & ? & ? & ? & ? & ?).
  split; [|split; [|split; [|split; [|split]]]]; lra.
Qed.

(** ** The discrete matrices *)

(** The entries of the closed-form solution. *)
Definition sol_x n m x vx vy ux uy t : R :=
  (4 - 3 * cos (n * t)) * x + sin (n * t) / n * vx + 2 / n * (1 - cos (n * t)) * vy
  + (1 - cos (n * t)) / (n * n) * (ux / m) + 2 / (n * n) * (n * t - sin (n * t)) * (uy / m).
Definition sol_y n m x y vx vy ux uy t : R :=
  6 * (sin (n * t) - n * t) * x + y - 2 / n * (1 - cos (n * t)) * vx + (4 * sin (n * t) - 3 * n * t) / n * vy
  - 2 / (n * n) * (n * t - sin (n * t)) * (ux / m)
  + (4 / (n * n) * (1 - cos (n * t)) - 3 / 2 * (t * t)) * (uy / m).
Definition sol_z n m z vz uz t : R :=
  cos (n * t) * z + sin (n * t) / n * vz + (1 - cos (n * t)) / (n * n) * (uz / m).
Definition sol_vx n m x vx vy ux uy t : R :=
  3 * n * sin (n * t) * x + cos (n * t) * vx + 2 * sin (n * t) * vy
  + sin (n * t) / n * (ux / m) + 2 / n * (1 - cos (n * t)) * (uy / m).
Definition sol_vy n m x vx vy ux uy t : R :=
  - 6 * n * (1 - cos (n * t)) * x - 2 * sin (n * t) * vx + (4 * cos (n * t) - 3) * vy
  - 2 / n * (1 - cos (n * t)) * (ux / m) + (4 / n * sin (n * t) - 3 * t) * (uy / m).
Definition sol_vz n m z vz uz t : R :=
  - n * sin (n * t) * z + cos (n * t) * vz + sin (n * t) / n * (uz / m).

Lemma discrete_next_eq n m sv x y z vx vy vz rest dt ux uy uz : n <> 0 -> m <> 0 ->
  discrete_next n m sv (x :: y :: z :: vx :: vy :: vz :: rest) dt [ux; uy; uz] =
  [sol_x n m x vx vy ux uy dt; sol_y n m x y vx vy ux uy dt; sol_z n m z vz uz dt;
   sol_vx n m x vx vy ux uy dt; sol_vy n m x vx vy ux uy dt; sol_vz n m z vz uz dt;
   jax_get 0 (x :: y :: z :: vx :: vy :: vz :: rest) 6%Z - sv * dt; 0].
Proof.
  intros Hn Hm. unfold discrete_next, slice. cbn [firstn skipn Nat.sub].
  unfold discrete_a, discrete_b, mv, vadd.
  unfold sol_x, sol_y, sol_z, sol_vx, sol_vy, sol_vz.
  set (c := cos (n * dt)); set (s := sin (n * dt)).
  set (g := jax_get _ _ _). clearbody g c s.
  cbn [map map2 dot app].
  do 6 (apply (f_equal2 (@cons R)); [field; auto|]); reflexivity.
Qed.

Ltac solve_motion Hn Hm :=
  intros t; unfold sol_x, sol_y, sol_z, sol_vx, sol_vy, sol_vz; apply is_derive_Reals;
  auto_derive; [auto|]; field; auto.

Lemma sol_motion n m x y z vx vy vz ux uy uz : n <> 0 -> m <> 0 ->
  cwh_motion n m ux uy uz (sol_x n m x vx vy ux uy) (sol_y n m x y vx vy ux uy) (sol_z n m z vz uz)
    (sol_vx n m x vx vy ux uy) (sol_vy n m x vx vy ux uy) (sol_vz n m z vz uz).
Proof. intros Hn Hm; split; solve_motion Hn Hm. Qed.

Lemma sol_start n m x y z vx vy vz ux uy uz : n <> 0 -> m <> 0 ->
  sol_x n m x vx vy ux uy 0 = x /\ sol_y n m x y vx vy ux uy 0 = y /\ sol_z n m z vz uz 0 = z /\
  sol_vx n m x vx vy ux uy 0 = vx /\ sol_vy n m x vx vy ux uy 0 = vy /\ sol_vz n m z vz uz 0 = vz.
Proof.
  intros Hn Hm. unfold sol_x, sol_y, sol_z, sol_vx, sol_vy, sol_vz.
  rewrite Rmult_0_r, cos_0, sin_0. split; [|split; [|split; [|split; [|split]]]]; field; auto.
Qed.

(** The equations do not mention the time, so a motion may be started later. *)
Lemma motion_shift n m ux uy uz x y z vx vy vz s :
  cwh_motion n m ux uy uz x y z vx vy vz ->
  cwh_motion n m ux uy uz (fun t => x (s + t)) (fun t => y (s + t)) (fun t => z (s + t))
    (fun t => vx (s + t)) (fun t => vy (s + t)) (fun t => vz (s + t)).
Proof.
  intros [A1 A2 A3 A4 A5 A6].
  assert (Sh : forall f t a, derivable_pt_lim f (s + t) a -> derivable_pt_lim (fun r => f (s + r)) t a).
  { intros f t a H. rewrite <- (Rmult_1_r a).
    apply (derivable_pt_lim_comp (fun r => s + r) f t 1 a); auto.
    eapply derive_eq; [apply (derivable_pt_lim_plus (fun _ => s) id); [apply derivable_pt_lim_const|apply derivable_pt_lim_id]|ring]. }
  split; intros t; apply Sh; auto.
Qed.
