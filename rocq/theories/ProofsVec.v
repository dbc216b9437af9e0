(** Linear algebra on lists. *)
From Coq Require Import String Reals List Bool ZArith Lia Lra.
From Verif Require Import Prelude Vec ModelBase ModelController ModelSimplex SpecCore ProofsBase.
Import ListNotations.
Local Open Scope R_scope.

Lemma zeros_length n : length (zeros n) = n.
Proof. apply repeat_length. Qed.
Lemma vadd_length u v : length u = length v -> length (vadd u v) = length u.
Proof. intros H; unfold vadd; rewrite map2_length, H, Nat.min_id; auto. Qed.
Lemma vsub_length u v : length u = length v -> length (vsub u v) = length u.
Proof. intros H; unfold vsub; rewrite map2_length, H, Nat.min_id; auto. Qed.
Lemma vscale_length k u : length (vscale k u) = length u.
Proof. apply map_length. Qed.
Lemma vneg_length u : length (vneg u) = length u.
Proof. apply map_length. Qed.
Lemma mv_length A x : length (mv A x) = length A.
Proof. apply map_length. Qed.
Lemma unit_vec_length n i : length (unit_vec n i) = n.
Proof. unfold unit_vec; rewrite map_length, seq_length; auto. Qed.
Lemma eye_length n : length (eye n) = n.
Proof. unfold eye; rewrite map_length, seq_length; auto. Qed.

Lemma dot_nil_r u : dot u [] = 0.
Proof. destruct u; auto. Qed.
Lemma dot_comm u : forall v, dot u v = dot v u.
Proof. induction u as [|a u IH]; intros [|b v]; simpl; auto; rewrite IH; ring. Qed.
Lemma dot_zeros_l n : forall v, dot (zeros n) v = 0.
Proof. induction n as [|n IH]; intros [|b v]; simpl; auto; fold (zeros n); rewrite IH; ring. Qed.
Lemma dot_zeros_r n u : dot u (zeros n) = 0.
Proof. rewrite dot_comm; apply dot_zeros_l. Qed.
Lemma dot_app u u' : forall v v', length u = length v ->
  dot (u ++ u') (v ++ v') = dot u v + dot u' v'.
Proof.
  induction u as [|a u IH]; intros [|b v] v' H; simpl in *; try discriminate; [ring|].
  rewrite IH by lia; ring.
Qed.
Lemma dot_app_l u u' v : dot (u ++ u') v = dot u (firstn (length u) v) + dot u' (skipn (length u) v).
Proof.
  revert v; induction u as [|a u IH]; intros v; simpl; [ring|].
  destruct v as [|b v]; simpl; [rewrite dot_nil_r; ring|]. rewrite IH; ring.
Qed.
Lemma dot_vadd_l u : forall v w, length u = length v -> dot (vadd u v) w = dot u w + dot v w.
Proof.
  induction u as [|a u IH]; intros [|b v] [|c w] H; simpl in *; try discriminate; try ring.
  unfold vadd in IH; rewrite IH by lia; ring.
Qed.
Lemma dot_vadd_r u v w : length v = length w -> dot u (vadd v w) = dot u v + dot u w.
Proof. intros H; rewrite dot_comm, dot_vadd_l, !(dot_comm u) by auto; auto. Qed.
Lemma dot_vscale_l k u : forall w, dot (vscale k u) w = k * dot u w.
Proof.
  induction u as [|a u IH]; intros [|c w]; simpl; try ring.
  unfold vscale in IH; rewrite IH; ring.
Qed.
Lemma dot_vscale_r k u w : dot u (vscale k w) = k * dot u w.
Proof. rewrite dot_comm, dot_vscale_l, dot_comm; auto. Qed.
Lemma dot_vneg_l u : forall w, dot (vneg u) w = - dot u w.
Proof.
  induction u as [|a u IH]; intros [|c w]; simpl; try ring.
  unfold vneg in IH; rewrite IH; ring.
Qed.
Lemma dot_vneg_r u w : dot u (vneg w) = - dot u w.
Proof. rewrite dot_comm, dot_vneg_l, dot_comm; auto. Qed.
Lemma dot_vsub_l u : forall v w, length u = length v -> dot (vsub u v) w = dot u w - dot v w.
Proof.
  induction u as [|a u IH]; intros [|b v] [|c w] H; simpl in *; try discriminate; try ring.
  unfold vsub in IH; rewrite IH by lia; ring.
Qed.
Lemma dot_vsub_r u v w : length v = length w -> dot u (vsub v w) = dot u v - dot u w.
Proof. intros H; rewrite dot_comm, dot_vsub_l, !(dot_comm u) by auto; auto. Qed.
Lemma sumsq_nonneg u : 0 <= sumsq u.
Proof. unfold sumsq; induction u as [|a u IH]; simpl; [lra|]; pose proof (Rle_0_sqr a); unfold Rsqr in *; lra. Qed.

Lemma vm_length k A : Forall (fun r => length r = k) A -> forall v, length (vm k v A) = k.
Proof.
  induction A as [|r A IH]; intros H [|a v]; simpl; try apply zeros_length.
  inversion H; subst. rewrite vadd_length; rewrite vscale_length; auto. symmetry; apply IH; auto.
Qed.
Lemma vm_dot k A : Forall (fun r => length r = k) A -> forall v u,
  dot (vm k v A) u = dot v (mv A u).
Proof.
  induction A as [|r A IH]; intros H v u.
  - destruct v; simpl; rewrite ?dot_zeros_l; auto.
  - inversion H; subst; destruct v as [|a v]; simpl; [apply dot_zeros_l|].
    rewrite dot_vadd_l by (rewrite vscale_length, vm_length; auto).
    rewrite dot_vscale_l, IH; auto.
Qed.
Lemma mm_rows k A B : Forall (fun r => length r = k) B -> Forall (fun r => length r = k) (mm k A B).
Proof.
  intros H; unfold mm; apply Forall_forall; intros r Hr; apply in_map_iff in Hr.
  destruct Hr as (a & <- & _); apply vm_length; auto.
Qed.
Lemma mm_mv k A B u : Forall (fun r => length r = k) B -> mv (mm k A B) u = mv A (mv B u).
Proof.
  intros H; unfold mv at 1 2, mm; rewrite map_map; apply map_ext; intros r; apply vm_dot; auto.
Qed.
Lemma mv_vadd A u v : length u = length v -> mv A (vadd u v) = vadd (mv A u) (mv A v).
Proof.
  intros H; induction A as [|r A IH]; simpl; auto.
  rewrite dot_vadd_r by auto; rewrite IH; reflexivity.
Qed.

Lemma dot_unit_aux i : forall n a z, (n <= length z)%nat -> (a <= i < a + n)%nat ->
  dot (map (fun j => if Nat.eqb i j then 1 else 0) (seq a n)) z = nth (i - a) z 0.
Proof.
  induction n as [|n IH]; intros a z L H; [lia|].
  destruct z as [|x z]; simpl in L |- *; [lia|].
  destruct (Nat.eqb i a) eqn:E.
  - apply Nat.eqb_eq in E; subst; rewrite Nat.sub_diag.
    assert (D : dot (map (fun j => if Nat.eqb a j then 1 else 0) (seq (S a) n)) z = 0).
    { assert (Q : forall m b y, (a < b)%nat -> dot (map (fun j => if Nat.eqb a j then 1 else 0) (seq b m)) y = 0).
      { induction m as [|m IHm]; intros b [|c y] Hb; simpl; auto.
        replace (Nat.eqb a b) with false by (symmetry; apply Nat.eqb_neq; lia).
        rewrite IHm by lia; ring. }
      apply Q; lia. }
    rewrite D; ring.
  - apply Nat.eqb_neq in E. rewrite IH by lia.
    replace (i - a)%nat with (S (i - S a)) by lia; ring.
Qed.
Lemma dot_unit n i z : (n <= length z)%nat -> (i < n)%nat -> dot (unit_vec n i) z = nth i z 0.
Proof. intros L H; unfold unit_vec; rewrite dot_unit_aux by lia; rewrite Nat.sub_0_r; auto. Qed.

Lemma nth_firstn_lt {A} (d : A) n : forall i l, (i < n)%nat -> nth i (firstn n l) d = nth i l d.
Proof.
  induction n as [|n IH]; intros i l H; [lia|].
  destruct l as [|a l]; simpl; auto. destruct i; auto; apply IH; lia.
Qed.
Lemma nth_skipn {A} (d : A) n : forall i l, nth i (skipn n l) d = nth (n + i) l d.
Proof. induction n as [|n IH]; intros i [|a l]; simpl; auto. destruct i; auto. Qed.

(** Squares and distances. *)
Lemma dist2_expand u : forall v, length u = length v -> dist2 u v = sumsq u - 2 * dot u v + sumsq v.
Proof.
  unfold sumsq; induction u as [|a u IH]; intros [|b v] H; simpl in *; try discriminate; [ring|].
  rewrite IH by lia; ring.
Qed.
Lemma dist2_nonneg u : forall v, 0 <= dist2 u v.
Proof.
  induction u as [|a u IH]; intros [|b v]; simpl; try lra.
  specialize (IH v); pose proof (Rle_0_sqr (a - b)); unfold Rsqr in *; lra.
Qed.
Lemma dist2_zero u : forall v, length u = length v -> dist2 u v <= 0 -> u = v.
Proof.
  induction u as [|a u IH]; intros [|b v] H D; simpl in *; try discriminate; auto.
  pose proof (dist2_nonneg u v); pose proof (Rle_0_sqr (a - b)); unfold Rsqr in *.
  assert (E : (a - b) * (a - b) = 0) by lra.
  apply Rmult_integral in E; f_equal; [lra|apply IH; [lia|lra]].
Qed.
Lemma dist2_refl u : dist2 u u = 0.
Proof. induction u as [|a u IH]; simpl; auto; rewrite IH; ring. Qed.
Lemma sumsq_vsub u v : length u = length v -> sumsq (vsub u v) = dist2 u v.
Proof.
  revert v; unfold sumsq; induction u as [|a u IH]; intros [|b v] H; simpl in *; try discriminate; auto.
  unfold vsub in IH; rewrite IH by lia; auto.
Qed.

(** The quadratic form of a diagonal matrix. *)
Fixpoint wsq (w z : vec) : R :=
  match w, z with a :: w', x :: z' => a * (x * x) + wsq w' z' | _, _ => 0 end.
Lemma wsq_ones z : forall n, length z = n -> wsq (repeat 1 n) z = sumsq z.
Proof.
  unfold sumsq; induction z as [|x z IH]; intros n H; subst; simpl; auto.
  rewrite IH by auto; ring.
Qed.
Lemma wsq_app w w' : forall z, wsq (w ++ w') z = wsq w (firstn (length w) z) + wsq w' (skipn (length w) z).
Proof.
  induction w as [|a w IH]; intros [|x z]; simpl; try ring.
  - destruct w'; simpl; ring.
  - rewrite IH; ring.
Qed.
Lemma wsq_nonneg w : forall z, Forall (fun a => 0 <= a) w -> 0 <= wsq w z.
Proof.
  induction w as [|a w IH]; intros [|x z] H; simpl; try lra.
  inversion H; subst; specialize (IH z H3).
  pose proof (Rle_0_sqr x); unfold Rsqr in *; pose proof (Rmult_le_pos a (x * x)); lra.
Qed.

Lemma wsq_rows n : forall w z a, (a + length w = n)%nat -> (length w = length z)%nat -> forall full,
  length full = n -> (forall i, nth (a + i) full 0 = nth i z 0) ->
  dot z (map (fun r => dot r full) (map2 (fun i x => vscale x (unit_vec n i)) (seq a (length w)) w)) = wsq w z.
Proof.
  induction w as [|c w IH]; intros [|x z] a H L full Lf E; simpl in *; try discriminate; auto.
  rewrite dot_vscale_l, dot_unit by lia.
  rewrite (IH z (S a)); try lia; auto.
  - specialize (E 0%nat); rewrite Nat.add_0_r in E; simpl in E; rewrite E; ring.
  - intros i; specialize (E (S i)); simpl in E; rewrite <- E; f_equal; lia.
Qed.
