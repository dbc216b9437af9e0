(** Lemmas on constraint objects: polynomials, gradients, barrier trajectories. *)
From Coq Require Import String Reals List Bool ZArith Lia Lra.
From Coquelicot Require Import Hierarchy Derive.
From Verif Require Import Prelude Vec ModelBase ModelController ModelSimplex ModelAsif ModelConstraint
  SpecConstraint.
Import ListNotations.
Local Open Scope R_scope.

(** ** Polynomials *)

Lemma poly_loop_horner coefs : forall n x out,
  poly_loop n coefs x out = out + x ^ n * horner coefs x.
Proof.
  induction coefs as [|c t IH]; intros n x out; simpl; [ring|].
  rewrite IH; simpl; ring.
Qed.

Lemma polynomial_horner coefs x : polynomial (Some coefs) x = horner coefs x.
Proof. unfold polynomial; rewrite poly_loop_horner; simpl; ring. Qed.

(** Alternating coefficient lists: [even] tells whether the first is at an even power. *)
Fixpoint alternating (ev : bool) (coefs : list R) : Prop :=
  match coefs with
  | [] => True
  | c :: t => (if ev then c = 0 else 0 <= c) /\ alternating (negb ev) t
  end.

Lemma alternating_of coefs : forall ev,
  (forall n c, nth_error coefs n = Some c -> if xorb (Nat.even n) (negb ev) then c = 0 else 0 <= c) ->
  alternating ev coefs.
Proof.
  induction coefs as [|c t IH]; intros ev H; simpl; auto; split.
  - specialize (H O c eq_refl). destruct ev; simpl in H; auto.
  - apply IH; intros n d Hd. specialize (H (S n) d Hd).
    rewrite Nat.even_succ, <- Nat.negb_even in H.
    destruct (Nat.even n), ev; simpl in *; auto.
Qed.

(** At a pair of points 0 <= x < y. *)
Lemma horner_nonneg coefs : forall ev x, alternating ev coefs -> 0 <= x -> 0 <= horner coefs x.
Proof.
  induction coefs as [|c t IH]; intros ev x [H1 H2] Hx || intros ev x _ Hx; simpl; [lra|].
  specialize (IH _ _ H2 Hx). destruct ev; [subst|]; nra.
Qed.

Lemma horner_parity coefs : forall ev x, alternating ev coefs ->
  horner coefs (- x) = (if ev then - horner coefs x else horner coefs x).
Proof.
  induction coefs as [|c t IH]; intros ev x H; simpl; [destruct ev; ring|].
  destruct H as [H1 H2]. specialize (IH _ x H2). rewrite IH.
  destruct ev; simpl; [subst c|]; ring.
Qed.

Lemma horner_mono coefs : forall ev x y, alternating ev coefs -> 0 <= x -> x <= y ->
  horner coefs x <= horner coefs y.
Proof.
  induction coefs as [|c t IH]; intros ev x y H Hx Hy; simpl; [lra|].
  destruct H as [_ H2]. specialize (IH _ _ _ H2 Hx Hy).
  pose proof (horner_nonneg _ _ _ H2 Hx). nra.
Qed.

Lemma horner_pos coefs : forall ev x, alternating ev coefs -> (exists n c, nth_error coefs n = Some c /\ 0 < c) ->
  0 < x -> 0 < horner coefs x.
Proof.
  induction coefs as [|c t IH]; intros ev x H (n & d & Hn & Hd) Hx; [destruct n; discriminate|].
  destruct H as [H1 H2]; simpl. destruct n as [|n]; simpl in Hn.
  - injection Hn as ->. pose proof (horner_nonneg _ _ x H2 ltac:(lra)). nra.
  - assert (0 < horner t x) by (apply (IH _ _ H2); eauto).
    assert (0 <= c) by (destruct ev; lra). nra.
Qed.

(** Starting at an even power, strictness. *)
Lemma horner_strict coefs : forall x y, alternating true coefs ->
  (exists n c, nth_error coefs n = Some c /\ 0 < c) -> 0 <= x -> x < y ->
  horner coefs x < horner coefs y.
Proof.
  intros x y H (n & d & Hn & Hd) Hx Hy.
  destruct coefs as [|c t]; [destruct n; discriminate|]. destruct H as [-> H2]; simpl in *.
  destruct n as [|n]; simpl in Hn; [injection Hn as Hn; lra|].
  assert (Py : 0 < horner t y) by (apply (horner_pos _ false); eauto; lra).
  pose proof (horner_mono _ _ x y H2 Hx ltac:(lra)) as Mo.
  pose proof (horner_nonneg _ _ x H2 Hx).
  nra.
Qed.

Lemma horner_odd_increasing coefs : odd_increasing coefs ->
  horner coefs 0 = 0 /\ forall x y, x < y -> horner coefs x < horner coefs y.
Proof.
  intros [H P].
  assert (A : alternating true coefs).
  { apply alternating_of; intros n c Hn; specialize (H n c Hn).
    simpl; rewrite xorb_false_r; auto. }
  assert (Z : horner coefs 0 = 0).
  { pose proof (horner_parity _ _ 0 A) as E; rewrite Ropp_0 in E; lra. }
  split; auto. intros x y L.
  destruct (Rle_lt_dec 0 x) as [Hx|Hx]; [apply horner_strict; auto|].
  destruct (Rle_lt_dec 0 y) as [Hy|Hy].
  - (* x < 0 <= y *)
    pose proof (horner_strict _ 0 (- x) A P ltac:(lra) ltac:(lra)) as S1.
    pose proof (horner_mono _ _ 0 y A ltac:(lra) Hy) as S2.
    pose proof (horner_parity _ _ x A) as E. simpl in E. lra.
  - pose proof (horner_strict _ (- y) (- x) A P ltac:(lra) ltac:(lra)) as S1.
    pose proof (horner_parity _ _ x A) as E1. pose proof (horner_parity _ _ y A) as E2. simpl in E1, E2. lra.
Qed.

(** ** Gradients *)

Lemma set_at_replaced i : forall r x, set_at i r x = replaced i r x.
Proof. induction i; destruct x; simpl; auto; rewrite IHi; auto. Qed.

Lemma replaced_length i : forall r x, length (replaced i r x) = length x.
Proof. induction i; destruct x; simpl; auto. Qed.

Lemma replaced_same i : forall x, replaced i (nth i x 0) x = x.
Proof. induction i; destruct x; simpl; auto; rewrite IHi; auto. Qed.

Lemma nth_replaced i : forall r x j, (i < length x)%nat ->
  nth j (replaced i r x) 0 = if Nat.eqb j i then r else nth j x 0.
Proof.
  induction i as [|i IH]; destruct x as [|a x]; intros [|j] H; simpl in *; auto; try lia.
  apply IH; lia.
Qed.

Lemma jax_grad_length F x : length (jax_grad F x) = length x.
Proof. unfold jax_grad; rewrite map_length, seq_length; auto. Qed.

Lemma jax_grad_nth F x i : (i < length x)%nat ->
  nth i (jax_grad F x) 0 = Derive (fun t => F (replaced i t x)) (nth i x 0).
Proof.
  intros H. unfold jax_grad.
  rewrite (nth_indep _ _ (Derive (fun t => F (set_at 0 t x)) (nth 0 x 0)))
    by (rewrite map_length, seq_length; auto).
  rewrite (map_nth (fun i => Derive (fun t => F (set_at i t x)) (nth i x 0))), seq_nth by auto; simpl.
  apply Derive_ext; intros t; rewrite set_at_replaced; auto.
Qed.

(** jax.grad gives the gradient wherever there is one. *)
Lemma jax_grad_unique F x v : is_gradient F x v -> jax_grad F x = v.
Proof.
  intros [L H]. apply nth_ext with (d := 0) (d' := 0); [rewrite jax_grad_length; auto|].
  intros i Hi; rewrite jax_grad_length in Hi.
  rewrite jax_grad_nth by auto. apply is_derive_unique, is_derive_Reals, H; auto.
Qed.

(** Equal functions, on arrays of that length, have equal gradients; also when they differ
    by a constant. *)
Lemma is_gradient_shift F G x v k :
  (forall y, length y = length x -> G y = F y + k) -> is_gradient F x v -> is_gradient G x v.
Proof.
  intros E [L H]; split; auto; intros i Hi.
  apply is_derive_Reals. apply is_derive_ext with (fun t => F (replaced i t x) + k).
  - intros t; rewrite E; auto; apply replaced_length.
  - apply is_derive_Reals. rewrite <- (Rplus_0_r (nth i v 0)).
    apply (derivable_pt_lim_plus (fun t => F (replaced i t x)) (fun _ => k)).
    + apply H; auto.
    + apply derivable_pt_lim_const.
Qed.

(** The derivative of a coordinate. *)
Lemma derive_coordinate (x : vec) i j : (i < length x)%nat -> (j < length x)%nat ->
  derivable_pt_lim (fun t => nth j (replaced i t x) 0) (nth i x 0) (if Nat.eqb j i then 1 else 0).
Proof.
  intros Hi Hj.
  apply is_derive_Reals.
  apply is_derive_ext with (fun t => if Nat.eqb j i then t else nth j x 0).
  - intros t; rewrite nth_replaced; auto.
  - apply is_derive_Reals.
    destruct (Nat.eqb j i); [apply derivable_pt_lim_id|apply (derivable_pt_lim_const (nth j x 0))].
Qed.

(** ** Barrier trajectories *)

(** A function whose derivative is positive wherever it is negative does not become
    negative. *)
Lemma stays_nonneg (v v' : R -> R) T :
  (forall t, 0 <= t <= T -> derivable_pt_lim v t (v' t)) ->
  (forall t, 0 <= t <= T -> v t < 0 -> 0 < v' t) ->
  0 <= v 0 -> forall t, 0 <= t <= T -> 0 <= v t.
Proof.
  intros D P V0 t1 H1.
  destruct (continuity_ab_min v 0 t1) as (m & Hm & Im); [lra| |].
  { intros c Hc. apply derivable_continuous_pt. exists (v' c). apply D; lra. }
  destruct (Rle_lt_dec 0 (v m)) as [G|L]; [specialize (Hm t1 ltac:(lra)); lra|].
  exfalso.
  assert (Hpos : 0 < m).
  { destruct (proj1 Im) as [?|E]; auto. rewrite <- E in L; lra. }
  assert (Dm : 0 < v' m) by (apply P; lra).
  destruct (D m ltac:(lra) (v' m) Dm) as [d Hd].
  set (h := - Rmin (d / 2) (m / 2)).
  assert (Hmin : 0 < Rmin (d / 2) (m / 2)) by (apply Rmin_glb_lt; [destruct d; simpl; lra|lra]).
  pose proof (Rmin_l (d / 2) (m / 2)) as M1. pose proof (Rmin_r (d / 2) (m / 2)) as M2.
  assert (Hd0 : 0 < d) by (destruct d; auto).
  specialize (Hd h ltac:(unfold h; lra)).
  assert (A : Rabs h < d) by (unfold h; rewrite Rabs_Ropp, Rabs_right; lra).
  specialize (Hd A).
  assert (Q : 0 < (v (m + h) - v m) / h).
  { apply Rabs_def2 in Hd. lra. }
  specialize (Hm (m + h) ltac:(unfold h; lra)).
  assert (h < 0) by (unfold h; lra).
  assert ((v (m + h) - v m) / h * h = v (m + h) - v m) by (field; lra).
  nra.
Qed.

(** A function whose derivative is at least [r] while it is negative becomes non-negative
    within -v(0)/r. *)
Lemma recovers (v v' : R -> R) r a :
  0 < r -> 0 < a -> v 0 = - a ->
  (forall t, 0 <= t <= a / r -> derivable_pt_lim v t (v' t)) ->
  (forall t, 0 <= t <= a / r -> v t < 0 -> r <= v' t) ->
  exists t, 0 <= t <= a / r /\ 0 <= v t.
Proof.
  intros Hr Ha V0 D P.
  assert (Ht : 0 < a / r) by (apply Rdiv_lt_0_compat; auto).
  destruct (Rle_lt_dec 0 (v (a / r))) as [G|L]; [exists (a / r); split; [lra|auto]|].
  (* if negative throughout, the mean value theorem contradicts L *)
  destruct (MVT_cor2 v v' 0 (a / r) Ht) as (c & E & Hc); [intros c Hc; apply D; lra|].
  destruct (Rle_lt_dec 0 (v c)) as [G|Lc]; [exists c; split; [lra|auto]|].
  exfalso. specialize (P c ltac:(lra) Lc). rewrite V0, Rminus_0_r in E.
  assert (a / r * r = a) by (field; lra). nra.
Qed.

(** ** Higher order constraints *)

Lemma hocbf_loop_params {P} f alpha rounds : forall c : constraint vec P,
  c_params (hocbf_loop rounds c f alpha) = c_params c.
Proof. induction rounds; intros c; simpl; auto; rewrite IHrounds; auto. Qed.

Lemma hocbf_loop_chain {P} n top h f alpha psi dpsi (p : P) (C : chain_of n top h f alpha psi dpsi) :
  forall rounds i (c : constraint vec P), (i + rounds <= top)%nat ->
  (forall x, length x = n -> c_compute c x p = psi i x) ->
  (forall x, length x = n -> c_grad c x p = jax_grad (fun y => c_fun c y p) x) ->
  forall x, length x = n -> c_compute (hocbf_loop rounds c f alpha) x p = psi (i + rounds)%nat x.
Proof.
  destruct C as [_ Cg Cs].
  induction rounds as [|r IH]; intros i c Hi Hc Hg x Lx; simpl.
  - rewrite Nat.add_0_r; auto.
  - replace (i + S r)%nat with (S i + r)%nat by lia.
    apply IH; [lia| |intros; reflexivity|auto].
    intros y Ly; unfold c_compute at 1, hocbf_helper, new_constraint; simpl.
    rewrite Rplus_0_r, Cs, Hc, Hg by (auto; lia). f_equal. f_equal.
    apply jax_grad_unique. apply is_gradient_shift with (F := psi i) (k := - c_bias c).
    + intros z Lz; rewrite <- Hc by congruence. unfold c_compute; ring.
    + apply Cg; auto; lia.
Qed.

(** ** Limits *)

Lemma component_jax i x v : component i x v -> jax_get 0 x i = v /\ (jax_index (length x) i < length x)%nat /\
  nth (jax_index (length x) i) x 0 = v.
Proof.
  intros (j & Hj & H). pose proof (nth_error_Some x j) as L. rewrite Hj in L.
  assert (Lj : (j < length x)%nat) by (apply L; discriminate).
  assert (E : jax_index (length x) i = j).
  { unfold jax_index. destruct (Z.ltb_spec i 0); lia. }
  unfold jax_get; rewrite E. assert (nth j x 0 = v) by (apply nth_error_nth; auto). auto.
Qed.

(** jax indexing does not depend on the values. *)
Lemma jax_get_replaced i j r x : (i < length x)%nat ->
  jax_get 0 (replaced i r x) j = if Nat.eqb (jax_index (length x) j) i then r else jax_get 0 x j.
Proof. intros H; unfold jax_get; rewrite replaced_length, nth_replaced; auto. Qed.

(** The gradient of a function of one entry. *)
Lemma entry_gradient (F : vec -> R) (phi : R -> R) i x d v :
  component i x v ->
  (forall y, length y = length x -> F y = phi (jax_get 0 y i)) ->
  derivable_pt_lim phi v d ->
  is_gradient F x (vscale d (unit_vec (length x) (jax_index (length x) i))).
Proof.
  intros Hc HF HD. destruct (component_jax _ _ _ Hc) as (Hv & Hj & Hn).
  set (j := jax_index (length x) i) in *.
  split; [unfold vscale; rewrite map_length; unfold unit_vec; rewrite map_length, seq_length; auto|].
  intros k Hk.
  assert (E : nth k (vscale d (unit_vec (length x) j)) 0 = if Nat.eqb j k then d else 0).
  { unfold vscale, unit_vec. rewrite map_map.
    rewrite (nth_indep _ 0 ((fun q => d * (if Nat.eqb j q then 1 else 0)) O)) by (rewrite map_length, seq_length; auto).
    rewrite (map_nth (fun q => d * (if Nat.eqb j q then 1 else 0))), seq_nth by auto.
    simpl; destruct (Nat.eqb j k); ring. }
  rewrite E. apply is_derive_Reals.
  apply is_derive_ext with (fun t => phi (if Nat.eqb j k then t else v)).
  - intros t; rewrite HF by apply replaced_length. rewrite jax_get_replaced by auto.
    fold j; destruct (Nat.eqb j k); auto; rewrite Hv; auto.
  - apply is_derive_Reals. destruct (Nat.eqb j k) eqn:Ej.
    + apply Nat.eqb_eq in Ej; subst k. rewrite Hn; auto.
    + apply derivable_pt_lim_const.
Qed.

Lemma magnitude_gradient x v i (p : R) : component i x v ->
  is_gradient (fun y => p ^ 2 - jax_get 0 y i ^ 2) x (vscale (- 2 * v) (unit_vec (length x) (jax_index (length x) i))).
Proof.
  intros H. apply entry_gradient with (phi := fun r => p ^ 2 - r ^ 2) (v := v); auto.
  replace (- 2 * v) with (0 - INR 2 * v ^ pred 2) by (simpl; ring).
  apply (derivable_pt_lim_minus (fun _ => p ^ 2) (fun r => r ^ 2)).
  - apply derivable_pt_lim_const.
  - apply derivable_pt_lim_pow.
Qed.
Lemma max_gradient x v i (p : R) : component i x v ->
  is_gradient (fun y => p - jax_get 0 y i) x (vscale (- 1) (unit_vec (length x) (jax_index (length x) i))).
Proof.
  intros H. apply entry_gradient with (phi := fun r => p - r) (v := v); auto.
  replace (- 1) with (0 - 1) by ring.
  apply (derivable_pt_lim_minus (fun _ => p) id); [apply derivable_pt_lim_const|apply derivable_pt_lim_id].
Qed.
Lemma min_gradient x v i (p : R) : component i x v ->
  is_gradient (fun y => jax_get 0 y i - p) x (vscale 1 (unit_vec (length x) (jax_index (length x) i))).
Proof.
  intros H. apply entry_gradient with (phi := fun r => r - p) (v := v); auto.
  replace 1 with (1 - 0) by ring.
  apply (derivable_pt_lim_minus id (fun _ => p)); [apply derivable_pt_lim_id|apply derivable_pt_lim_const].
Qed.
