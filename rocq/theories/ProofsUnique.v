(** A Riccati equation whose state cost is a positive multiple of the identity has at most one
    symmetric positive semidefinite solution. *)
From Coq Require Import Reals List Lia Lra Psatz.
From Verif Require Import Prelude Vec SpecLqr ProofsVec ProofsLqr ProofsStop.
Import ListNotations.
Local Open Scope R_scope.

Section Unique.
Variables (V : Type) (add : V -> V -> V) (scale : R -> V -> V) (p1 p2 : V -> V -> R) (nrm : V -> R) (a1 a2 : V -> V) (q C : R).
Hypotheses (Add1 : forall x y z, p1 (add x y) z = p1 x z + p1 y z) (Add2 : forall x y z, p2 (add x y) z = p2 x z + p2 y z)
  (Sc1 : forall k x y, p1 (scale k x) y = k * p1 x y) (Sc2 : forall k x y, p2 (scale k x) y = k * p2 x y)
  (Sy1 : forall x y, p1 x y = p1 y x) (Sy2 : forall x y, p2 x y = p2 y x)
  (Pos1 : forall x, 0 <= p1 x x) (Pos2 : forall x, 0 <= p2 x x) (N0 : forall x, 0 <= nrm x) (Hq : 0 < q <= C).
Hypotheses (D1 : forall x, p1 x (a1 x) <= - q * nrm x) (D2 : forall x, p2 x (a2 x) <= - q * nrm x)
  (Cross : forall x y, p1 (a1 x) y - p2 (a1 x) y + (p1 x (a2 y) - p2 x (a2 y)) = 0)
  (B1 : forall x, p1 x x <= C * nrm x) (B2 : forall x, p2 x x <= C * nrm x)
  (A1 : forall x, p1 (a1 x) (a1 x) <= C * nrm x) (A2 : forall x, p2 (a2 x) (a2 x) <= C * nrm x)
  (Eb : forall x y, 2 * (p1 x y - p2 x y) <= C * (nrm x + nrm y)).

Lemma cs1 x y : p1 x y * p1 x y <= p1 x x * p1 y y.
Proof.
  apply discriminant. intros t. pose proof (Pos1 (add x (scale t y))) as H.
  rewrite Add1, Sc1, (Sy1 x), (Sy1 y (add _ _)), !Add1, !Sc1, (Sy1 y x) in H. lra.
Qed.
Lemma cs2 x y : p2 x y * p2 x y <= p2 x x * p2 y y.
Proof.
  apply discriminant. intros t. pose proof (Pos2 (add x (scale t y))) as H.
  rewrite Add2, Sc2, (Sy2 x), (Sy2 y (add _ _)), !Add2, !Sc2, (Sy2 y x) in H. lra.
Qed.

Lemma lower d f n : 0 <= n -> 0 <= f -> d <= - q * n -> forall g, 0 <= g <= C * n -> d * d <= f * g -> q * q * n <= C * f.
Proof.
  intros Hn Hf Hd g Hg H. destruct (Rle_lt_or_eq_dec _ _ Hn) as [P|<-]; [|assert (0 <= C * f) by (apply Rmult_le_pos; lra); lra].
  assert (q * n * (q * n) <= d * d).
  { assert (0 <= q * n) by (apply Rmult_le_pos; lra).
    assert (0 <= (- d - q * n) * (- d + q * n)) by (apply Rmult_le_pos; lra). lra. }
  assert (f * g <= f * (C * n)) by (apply Rmult_le_compat_l; lra).
  apply (Rmult_le_reg_r n); lra.
Qed.
Lemma low1 x : q * q * nrm x <= C * p1 x x.
Proof. apply (lower (p1 x (a1 x)) _ _ (N0 x) (Pos1 x) (D1 x) (p1 (a1 x) (a1 x))); [split; auto|apply cs1]. Qed.
Lemma low2 x : q * q * nrm x <= C * p2 x x.
Proof. apply (lower (p2 x (a2 x)) _ _ (N0 x) (Pos2 x) (D2 x) (p2 (a2 x) (a2 x))); [split; auto|apply cs2]. Qed.

Let e x y := p1 x y - p2 x y.
Let bound l := forall x y, 2 * e x y <= l * (p1 x x + p2 y y).
Let rho := q * q / (2 * (C * C)).

Lemma neg x y : e (scale (-1) x) y = - e x y.
Proof. unfold e. rewrite Sc1, Sc2. ring. Qed.
Lemma neg_form x : p1 (scale (-1) x) (scale (-1) x) = p1 x x.
Proof. rewrite Sc1, Sy1, Sc1. ring. Qed.

Lemma shrink l : 0 <= l -> bound l -> bound (l * (1 - rho)).
Proof.
  intros Hl U x y.
  assert (CS : (l * (p1 x (a1 x) + p2 y (a2 y)) - (e x (a2 y) + e (a1 x) y)) * (l * (p1 x (a1 x) + p2 y (a2 y)) - (e x (a2 y) + e (a1 x) y))
    <= (l * (p1 x x + p2 y y) - 2 * e x y) * (l * (p1 (a1 x) (a1 x) + p2 (a2 y) (a2 y)) - 2 * e (a1 x) (a2 y))).
  { apply discriminant. intros t. pose proof (U (add x (scale t (a1 x))) (add y (scale t (a2 y)))) as H. unfold e in H |- *.
    set (w := a1 x) in *. set (z := a2 y) in *.
    rewrite (Add1 x (scale t w)), (Add2 y (scale t z)) in H. rewrite (Add1 x (scale t w)), (Add2 x (scale t w)) in H.
    rewrite !Sc1, !Sc2 in H. rewrite (Sy1 x (add _ _)), (Sy1 w (add _ _)), (Sy2 y (add _ _)), (Sy2 z (add _ _)) in H.
    rewrite ?(Sy1 x (add _ _)), ?(Sy1 w (add _ _)), ?(Sy2 x (add _ _)), ?(Sy2 w (add _ _)) in H.
    rewrite !Add1, !Add2, !Sc1, !Sc2 in H.
    rewrite (Sy1 w x), (Sy2 z y), (Sy1 y x), (Sy1 z x), (Sy1 y w), (Sy1 z w), (Sy2 y x), (Sy2 z x), (Sy2 y w), (Sy2 z w) in H. lra. }
  assert (X0 : e x (a2 y) + e (a1 x) y = 0) by (unfold e; pose proof (Cross x y); lra).
  rewrite X0, Rminus_0_r in CS.
  pose proof (D1 x) as E1. pose proof (D2 y) as E2. pose proof (N0 x) as Nx. pose proof (N0 y) as Ny.
  pose proof (A1 x) as F1. pose proof (A2 y) as F2. pose proof (B1 x) as G1. pose proof (B2 y) as G2.
  assert (F : l * (p1 (a1 x) (a1 x) + p2 (a2 y) (a2 y)) - 2 * e (a1 x) (a2 y) <= 2 * l * C * (nrm x + nrm y)).
  { pose proof (U (scale (-1) (a1 x)) (a2 y)) as H. rewrite neg, neg_form in H.
    assert (l * (p1 (a1 x) (a1 x) + p2 (a2 y) (a2 y)) <= l * (C * (nrm x + nrm y))) by (apply Rmult_le_compat_l; lra). lra. }
  pose proof (U x y) as Fx. set (f := l * (p1 x x + p2 y y) - 2 * e x y) in *.
  set (s := nrm x + nrm y) in *. set (d := p1 x (a1 x) + p2 y (a2 y)) in *.
  assert (Hd : d <= - q * s) by (unfold d, s; lra). assert (Hs : 0 <= s) by (unfold s; lra).
  assert (Hf : 0 <= f) by (unfold f; lra).
  assert (Key : l * (q * q) * s <= 2 * C * f).
  { destruct (Rle_lt_or_eq_dec _ _ Hl) as [Pl|<-]; [|assert (0 <= C * f) by (apply Rmult_le_pos; lra); lra].
    destruct (Rle_lt_or_eq_dec _ _ Hs) as [Ps|<-]; [|assert (0 <= C * f) by (apply Rmult_le_pos; lra); lra].
    assert (K1 : l * l * (q * s * (q * s)) <= l * d * (l * d)).
    { replace (l * d * (l * d)) with (l * l * (d * d)) by ring. apply Rmult_le_compat_l; [apply sq|].
      assert (0 <= q * s) by (apply Rmult_le_pos; lra).
      assert (0 <= (- d - q * s) * (- d + q * s)) by (apply Rmult_le_pos; lra). lra. }
    match type of CS with _ <= f * ?g => assert (K2 : f * g <= f * (2 * l * C * s)) by (apply Rmult_le_compat_l; lra) end.
    apply (Rmult_le_reg_r (l * s)); [apply Rmult_lt_0_compat; lra|]. lra. }
  (* the forms are bounded by the norms *)
  assert (T : p1 x x + p2 y y <= C * s) by (unfold s; lra).
  assert (C2 : 0 < C * C) by (apply Rmult_lt_0_compat; lra).
  assert (R : l * rho * (p1 x x + p2 y y) <= f).
  { apply (Rmult_le_reg_r (2 * (C * C))); [lra|]. unfold rho.
    replace (l * (q * q / (2 * (C * C))) * (p1 x x + p2 y y) * (2 * (C * C))) with (l * (q * q) * (p1 x x + p2 y y)) by (field; lra).
    assert (0 <= l * (q * q)) by (apply Rmult_le_pos; [lra|apply sq]).
    assert (l * (q * q) * (p1 x x + p2 y y) <= l * (q * q) * (C * s)) by (apply Rmult_le_compat_l; lra).
    assert (C * (l * (q * q) * s) <= C * (2 * C * f)) by (apply Rmult_le_compat_l; lra). lra. }
  unfold f in R. lra.
Qed.

Lemma rho_range : 0 < rho <= 1 / 2.
Proof.
  assert (C2 : 0 < C * C) by (apply Rmult_lt_0_compat; lra). assert (Q2 : 0 < q * q) by (apply Rmult_lt_0_compat; lra).
  assert (q * q <= C * C) by (apply Rmult_le_compat; lra). unfold rho. split; [apply Rdiv_lt_0_compat; lra|].
  apply (Rmult_le_reg_r (2 * (C * C))); [lra|]. replace (q * q / (2 * (C * C)) * (2 * (C * C))) with (q * q) by (field; lra). lra.
Qed.

Lemma no_difference x y : e x y <= 0.
Proof.
  pose proof rho_range as Rh. assert (Q2 : 0 < q * q) by (apply Rmult_lt_0_compat; lra).
  set (l0 := C * C / (q * q)). assert (L0 : 0 <= l0) by (unfold l0; apply Rlt_le, Rdiv_lt_0_compat; [apply Rmult_lt_0_compat|]; lra).
  assert (U0 : bound l0).
  { intros u v. pose proof (Eb u v) as H. pose proof (low1 u). pose proof (low2 v). fold (e u v) in H.
    apply (Rmult_le_reg_r (q * q)); [exact Q2|].
    replace (l0 * (p1 u u + p2 v v) * (q * q)) with (C * (C * p1 u u + C * p2 v v)) by (unfold l0; field; lra).
    assert (2 * e u v * (q * q) <= C * (nrm u + nrm v) * (q * q)) by (apply Rmult_le_compat_r; lra).
    assert (C * (q * q * nrm u + q * q * nrm v) <= C * (C * p1 u u + C * p2 v v)) by (apply Rmult_le_compat_l; lra). lra. }
  assert (U : forall k, bound (l0 * (1 - rho) ^ k) /\ 0 <= l0 * (1 - rho) ^ k).
  { induction k as [|k [IH IH0]]; [cbn; rewrite Rmult_1_r; auto|]. cbn [pow].
    replace (l0 * ((1 - rho) * (1 - rho) ^ k)) with (l0 * (1 - rho) ^ k * (1 - rho)) by ring. split; [apply shrink; assumption|].
    apply Rmult_le_pos; lra. }
  apply Rnot_lt_le. intros Pe.
  set (B := l0 * (p1 x x + p2 y y)). assert (HB : 0 <= B) by (unfold B; apply Rmult_le_pos; [exact L0|pose proof (Pos1 x); pose proof (Pos2 y); lra]).
  destruct (pow_lt_1_zero (1 - rho) ltac:(rewrite Rabs_right; lra) (e x y / (B + 1)) ltac:(apply Rdiv_lt_0_compat; lra)) as (k & Hk).
  specialize (Hk k (le_n k)). assert (P0 : 0 <= (1 - rho) ^ k) by (apply pow_le; lra). rewrite Rabs_right in Hk by lra.
  pose proof (proj1 (U k) x y) as H. replace (l0 * (1 - rho) ^ k * (p1 x x + p2 y y)) with (B * (1 - rho) ^ k) in H by (unfold B; ring).
  assert ((1 - rho) ^ k * (B + 1) < e x y).
  { apply (Rmult_lt_reg_r (/ (B + 1))); [apply Rinv_0_lt_compat; lra|]. rewrite Rmult_assoc, Rinv_r, Rmult_1_r by lra. exact Hk. }
  lra.
Qed.

Lemma same x y : p1 x y = p2 x y.
Proof.
  pose proof (no_difference x y) as H1. pose proof (no_difference (scale (-1) x) y) as H2. rewrite neg in H2. unfold e in *. lra.
Qed.
End Unique.

(** The equation in matrices. *)
Lemma cauchy_dot u : forall v, dot u v * dot u v <= dot u u * dot v v.
Proof.
  induction u as [|a u IH]; intros [|b v]; cbn; try lra.
  pose proof (IH v) as H. pose proof (sumsq_nonneg u) as Hu. pose proof (sumsq_nonneg v) as Hv. unfold sumsq in Hu, Hv.
    set (s := dot u v) in *. set (U := dot u u) in *. set (W := dot v v) in *.
    assert (2 * (a * b) * s <= a * a * W + b * b * U); [|lra].
    pose proof (Rmult_le_pos _ _ (sq a) Hv) as Ha. pose proof (Rmult_le_pos _ _ (sq b) Hu) as Hb.
    apply (sb (2 * (a * b) * s) (a * a * W + b * b * U)); [lra|].
    assert (4 * (a * a * (b * b)) * (s * s) <= 4 * (a * a * (b * b)) * (U * W)).
    { apply Rmult_le_compat_l; [|exact H]. pose proof (Rmult_le_pos _ _ (sq a) (sq b)). lra. }
    pose proof (sq (a * a * W - b * b * U)). lra.
Qed.
Lemma young u v : 2 * dot u v <= dot u u + dot v v.
Proof.
  revert v. induction u as [|a u IH]; intros [|b v]; cbn; try lra.
  - pose proof (sumsq_nonneg v) as H; unfold sumsq in H. pose proof (sq b). lra.
  - pose proof (sumsq_nonneg u) as H; unfold sumsq in H. pose proof (sq a). lra.
  - pose proof (IH v). pose proof (sq (a - b)). lra.
Qed.

Section Bounded.
Variable dim : nat.
Definition bounded (f : vec -> vec) := exists C, 0 <= C /\ forall x, length x = dim -> dot (f x) (f x) <= C * dot x x.
Lemma bounded_mv M : bounded (mv M).
Proof.
  exists (fold_right (fun r s => dot r r + s) 0 M). split.
  - induction M as [|r M IH]; cbn; [lra|]. pose proof (sumsq_nonneg r) as H; unfold sumsq in H. lra.
  - intros x _. induction M as [|r M IH]; [cbn; lra|]. cbn [fold_right]. rewrite Rmult_plus_distr_r.
    change (dot (mv (r :: M) x) (mv (r :: M) x)) with (dot r x * dot r x + dot (mv M x) (mv M x)).
    apply Rplus_le_compat; [apply cauchy_dot|exact IH].
Qed.
Lemma bounded_comp f g : (forall x, length x = dim -> length (g x) = dim) -> bounded f -> bounded g -> bounded (fun x => f (g x)).
Proof.
  intros L (C & C0 & HC) (D & D0 & HD). exists (C * D). split; [apply Rmult_le_pos; assumption|]. intros x Hx.
  apply Rle_trans with (C * dot (g x) (g x)); [apply HC, L, Hx|]. rewrite Rmult_assoc. apply Rmult_le_compat_l; auto.
Qed.
Lemma bounded_vm bt f : Forall (fun r => length r = dim) bt -> bounded f -> bounded (fun x => vm dim (f x) bt).
Proof.
  intros F (C & C0 & HC). destruct (bounded_mv bt) as (D & D0 & HD). exists (D * C). split; [apply Rmult_le_pos; assumption|].
  intros x Hx. set (z := vm dim (f x) bt). pose proof (HC x Hx) as H1.
  assert (Lz : length z = dim) by (apply vm_length; exact F). pose proof (HD z Lz) as H2.
  assert (E : dot z z = dot (f x) (mv bt z)) by (apply vm_dot; exact F).
  pose proof (cauchy_dot (f x) (mv bt z)) as H3. rewrite <- E in H3.
  pose proof (sumsq_nonneg z) as Hz. pose proof (sumsq_nonneg (f x)) as Hf. pose proof (sumsq_nonneg x) as Hx0. unfold sumsq in Hz, Hf, Hx0.
  assert (R : 0 <= D * C * dot x x) by (apply Rmult_le_pos; [apply Rmult_le_pos|]; assumption).
  destruct (Rle_lt_or_eq_dec _ _ Hz) as [P|P]; [|lra].
  assert (H4 : dot (f x) (f x) * dot (mv bt z) (mv bt z) <= dot (f x) (f x) * (D * dot z z)) by (apply Rmult_le_compat_l; assumption).
  assert (H5 : dot z z <= D * dot (f x) (f x)) by (apply (Rmult_le_reg_r (dot z z)); [exact P|lra]).
  assert (D * dot (f x) (f x) <= D * (C * dot x x)) by (apply Rmult_le_compat_l; assumption). lra.
Qed.
Lemma bounded_sub f g k : (forall x, length x = dim -> length (f x) = dim /\ length (g x) = dim) -> bounded f -> bounded g ->
  bounded (fun x => vsub (f x) (vscale k (g x))).
Proof.
  intros L (C & C0 & HC) (D & D0 & HD). exists (2 * C + 2 * (k * k) * D). split.
  - pose proof (Rmult_le_pos _ _ (sq k) D0). lra.
  - intros x Hx. destruct (L x Hx) as [Lf Lg]. pose proof (HC x Hx) as H1. pose proof (HD x Hx) as H2.
    assert (Ll : length (f x) = length (vscale k (g x))) by (rewrite vscale_length; congruence).
    rewrite dot_vsub_l, !dot_vsub_r, !dot_vscale_l, !dot_vscale_r, (dot_comm (g x) (f x)) by exact Ll.
    pose proof (young (f x) (vscale (- k) (g x))) as Y. rewrite dot_vscale_r, dot_vscale_l, dot_vscale_r in Y.
    assert (k * k * dot (g x) (g x) <= k * k * (D * dot x x)) by (apply Rmult_le_compat_l; [apply sq|exact H2]). lra.
Qed.
End Bounded.

Lemma mv_sub A x y : length x = length y -> mv A (vsub x y) = vsub (mv A x) (mv A y).
Proof. intros L. induction A as [|r A IH]; [reflexivity|]. cbn. rewrite dot_vsub_r by exact L. f_equal. exact IH. Qed.

Section Matrix.
Variables (dim : nat) (A bt Q P1 P2 : mat) (r q : R).
Hypotheses (R1 : riccati dim A bt Q r P1) (R2 : riccati dim A bt Q r P2) (Hr : 0 < r) (Hq : 0 < q) (LA : length A = dim)
  (Lb : Forall (fun row => length row = dim) bt) (HQ : forall x, length x = dim -> form Q x x = q * dot x x).

Definition loop (P : mat) (x : vec) : vec := vsub (mv A x) (vscale (/ r) (vm dim (mv bt (mv P x)) bt)).

Lemma loop_length P x : length (loop P x) = dim.
Proof. unfold loop. rewrite vsub_length; rewrite ?vscale_length, ?mv_length, ?vm_length by exact Lb; congruence. Qed.
Lemma loop_form P P' x y : length P' = dim -> length x = dim -> form P' y (loop P x) = form P' y (mv A x) - form P' y (vm dim (mv bt (mv P x)) bt) / r.
Proof.
  intros LP Lx. unfold loop, form. rewrite mv_sub, dot_vsub_r, mv_vscale, dot_vscale_r.
  - field. lra.
  - rewrite mv_vscale, vscale_length, !mv_length. congruence.
  - rewrite vscale_length, mv_length, vm_length by exact Lb. congruence.
Qed.
Lemma through P' w y : (forall x y, length x = dim -> length y = dim -> form P' x y = form P' y x) -> length y = dim ->
  form P' y (vm dim w bt) = dot w (mv bt (mv P' y)).
Proof.
  intros Sy Ly. rewrite Sy; [|exact Ly|apply vm_length; exact Lb]. unfold form. apply vm_dot. exact Lb.
Qed.
Lemma polar P x y : riccati dim A bt Q r P -> length x = dim -> length y = dim ->
  form P y (mv A x) + form P x (mv A y) - dot (mv bt (mv P x)) (mv bt (mv P y)) / r + q * dot x y = 0.
Proof.
  intros (_ & Sy & _ & Eq) Lx Ly.
  assert (Lxy : length x = length y) by congruence.
  assert (Ls : length (vadd x y) = dim) by (rewrite vadd_length; congruence).
  assert (E : forall z, length z = dim -> 2 * form P z (mv A z) - dot (mv bt (mv P z)) (mv bt (mv P z)) / r + q * dot z z = 0).
  { intros z Lz. pose proof (Eq z Lz) as H. rewrite (Sy (mv A z) z), HQ in H by (rewrite ?mv_length; congruence). lra. }
  pose proof (E x Lx) as Ex. pose proof (E y Ly) as Ey. pose proof (E _ Ls) as Es.
  assert (LAx : forall z, length (mv A z) = dim) by (intros z; rewrite mv_length; exact LA).
  rewrite !mv_vadd in Es by (rewrite ?mv_length; congruence).
  rewrite form_add in Es by (rewrite !LAx; reflexivity).
  rewrite !(Sy (vadd x y)) in Es by auto. rewrite !form_add in Es by exact Lxy.
  rewrite !(Sy (mv A x)), !(Sy (mv A y)) in Es by auto.
  rewrite !dot_vadd_l, !dot_vadd_r in Es by (rewrite ?mv_length; congruence).
  rewrite (dot_comm y x), (dot_comm (mv bt (mv P y)) (mv bt (mv P x))) in Es.
  unfold Rdiv in *. lra.
Qed.

Lemma riccati_same x y : length x = dim -> length y = dim -> form P1 x y = form P2 x y.
Proof.
  intros Lx Ly.
  assert (Nn : forall z : vec, 0 <= dot z z) by exact sumsq_nonneg.
  destruct R1 as ((LP1 & _) & Sy1 & Ps1 & _). destruct R2 as ((LP2 & _) & Sy2 & Ps2 & _).
  assert (Bl : forall P, length P = dim -> bounded dim (loop P)).
  { intros P LP. apply (bounded_sub dim (mv A) (fun x => vm dim (mv bt (mv P x)) bt) (/ r)).
    - intros z _. rewrite mv_length, vm_length by exact Lb. auto.
    - apply bounded_mv.
    - apply bounded_vm; [exact Lb|]. apply bounded_comp; [intros; rewrite mv_length; exact LP|apply bounded_mv|apply bounded_mv]. }
  assert (Bp : forall P, length P = dim -> bounded dim (fun z => mv P (loop P z))).
  { intros P LP. apply bounded_comp; [intros; apply loop_length|apply bounded_mv|apply Bl, LP]. }
  destruct (bounded_mv dim P1) as (C1 & C10 & H1). destruct (bounded_mv dim P2) as (C2 & C20 & H2).
  destruct (Bl P1 LP1) as (C3 & C30 & H3). destruct (Bl P2 LP2) as (C4 & C40 & H4).
  destruct (Bp P1 LP1) as (C5 & C50 & H5). destruct (Bp P2 LP2) as (C6 & C60 & H6).
  set (C := 2 + q + C1 + C2 + C3 + C4 + C5 + C6).
  assert (UpC : forall c z, c <= C -> c * dot z z <= C * dot z z) by (intros c z Hc; apply Rmult_le_compat_r; auto).
  set (V := {z : vec | length z = dim}).
  assert (Ladd : forall u v : V, length (vadd (proj1_sig u) (proj1_sig v)) = dim).
  { intros [u Lu] [v Lv]. cbn [proj1_sig]. rewrite vadd_length; congruence. }
  assert (Lsc : forall k (u : V), length (vscale k (proj1_sig u)) = dim).
  { intros k [u Lu]. cbn [proj1_sig]. rewrite vscale_length. exact Lu. }
  assert (Up : forall P, length P = dim -> forall z, length z = dim -> 2 * form P z z <= dot z z + dot (mv P z) (mv P z)).
  { intros P LP z Lz. apply young. }
  refine (same V (fun u v => exist _ (vadd (proj1_sig u) (proj1_sig v)) (Ladd u v)) (fun k u => exist _ (vscale k (proj1_sig u)) (Lsc k u))
    (fun u v => form P1 (proj1_sig u) (proj1_sig v)) (fun u v => form P2 (proj1_sig u) (proj1_sig v))
    (fun u => dot (proj1_sig u) (proj1_sig u)) (fun u => exist _ (loop P1 (proj1_sig u)) (loop_length P1 (proj1_sig u)))
    (fun u => exist _ (loop P2 (proj1_sig u)) (loop_length P2 (proj1_sig u))) (q / 2) C
    _ _ _ _ _ _ _ _ _ _ _ _ _ _ _ _ _ _ (exist _ x Lx) (exist _ y Ly)); cbn [proj1_sig].
  - intros [u Lu] [v Lv] [w Lw]. cbn [proj1_sig]. apply dot_vadd_l. congruence.
  - intros [u Lu] [v Lv] [w Lw]. cbn [proj1_sig]. apply dot_vadd_l. congruence.
  - intros k [u Lu] [v Lv]. cbn [proj1_sig]. apply dot_vscale_l.
  - intros k [u Lu] [v Lv]. cbn [proj1_sig]. apply dot_vscale_l.
  - intros [u Lu] [v Lv]. exact (Sy1 u v Lu Lv).
  - intros [u Lu] [v Lv]. exact (Sy2 u v Lu Lv).
  - intros [u Lu]. exact (Ps1 u Lu).
  - intros [u Lu]. exact (Ps2 u Lu).
  - intros [u Lu]. cbn [proj1_sig]. apply Nn.
  - unfold C. lra.
  - intros [u Lu]. cbn [proj1_sig]. rewrite loop_form, through by auto. pose proof (polar P1 u u R1 Lu Lu) as E.
    pose proof (Nn (mv bt (mv P1 u))) as Nb. assert (0 <= dot (mv bt (mv P1 u)) (mv bt (mv P1 u)) / r) by (apply Rmult_le_pos; [exact Nb|apply Rlt_le, Rinv_0_lt_compat, Hr]). lra.
  - intros [u Lu]. cbn [proj1_sig]. rewrite loop_form, through by auto. pose proof (polar P2 u u R2 Lu Lu) as E.
    pose proof (Nn (mv bt (mv P2 u))) as Nb. assert (0 <= dot (mv bt (mv P2 u)) (mv bt (mv P2 u)) / r) by (apply Rmult_le_pos; [exact Nb|apply Rlt_le, Rinv_0_lt_compat, Hr]). lra.
  - intros [u Lu] [v Lv]. cbn [proj1_sig]. rewrite (Sy1 _ v), (Sy2 _ v) by (auto; apply loop_length). rewrite !loop_form, !through by auto.
    pose proof (polar P1 u v R1 Lu Lv) as E1. pose proof (polar P2 u v R2 Lu Lv) as E2.
    rewrite (dot_comm (mv bt (mv P2 v)) (mv bt (mv P1 u))). rewrite (dot_comm (mv bt (mv P2 v)) (mv bt (mv P2 u))). unfold Rdiv in *. lra.
  - intros [u Lu]. cbn [proj1_sig]. pose proof (Up P1 LP1 u Lu). pose proof (H1 u Lu). pose proof (UpC (1 + C1) u ltac:(unfold C; lra)). pose proof (Nn u).
    pose proof (Rmult_le_pos _ _ C10 (Nn u)). lra.
  - intros [u Lu]. cbn [proj1_sig]. pose proof (Up P2 LP2 u Lu). pose proof (H2 u Lu). pose proof (UpC (1 + C2) u ltac:(unfold C; lra)). pose proof (Nn u).
    pose proof (Rmult_le_pos _ _ C20 (Nn u)). lra.
  - intros [u Lu]. cbn [proj1_sig]. pose proof (Up P1 LP1 _ (loop_length P1 u)). pose proof (H3 u Lu). pose proof (H5 u Lu).
    pose proof (UpC (C3 + C5) u ltac:(unfold C; lra)). pose proof (Rmult_le_pos _ _ C30 (Nn u)). pose proof (Rmult_le_pos _ _ C50 (Nn u)). lra.
  - intros [u Lu]. cbn [proj1_sig]. pose proof (Up P2 LP2 _ (loop_length P2 u)). pose proof (H4 u Lu). pose proof (H6 u Lu).
    pose proof (UpC (C4 + C6) u ltac:(unfold C; lra)). pose proof (Rmult_le_pos _ _ C40 (Nn u)). pose proof (Rmult_le_pos _ _ C60 (Nn u)). lra.
  - intros [u Lu] [v Lv]. cbn [proj1_sig]. pose proof (young u (mv P1 v)) as Y1. pose proof (young u (vneg (mv P2 v))) as Y2.
    rewrite dot_vneg_r, dot_vneg_r, dot_vneg_l in Y2. unfold form. pose proof (H1 v Lv). pose proof (H2 v Lv).
    pose proof (UpC 2 u ltac:(unfold C; lra)). pose proof (UpC (C1 + C2) v ltac:(unfold C; lra)). lra.
Qed.
End Matrix.
