(** Lemmas on the docking modules: the braking control meets every requirement, and the values of
    the constraints along a motion. *)
From Coq Require Import String Reals List Bool ZArith Lia Lra Psatz.
From Verif Require Import Prelude Vec ModelBase ModelController ModelSimplex ModelAsif ModelConstraint ModelCwh ModelZoo ModelDock
  SpecCore SpecAsif SpecConstraint SpecCwh SpecConic SpecZoo SpecDock ProofsVec ProofsConstraint ProofsCwh ProofsCwh2 ProofsDock.
Import ListNotations.
Local Open Scope R_scope.

Definition smooth (p : point) : R := sqrt (pdot p p + 1 / 100000).

Lemma pdot_pos p : 0 <= pdot p p.
Proof. destruct p as [[x y] z]; cbn. nra. Qed.
Lemma smooth_pos p : 0 < smooth p.
Proof. apply sqrt_lt_R0. pose proof (pdot_pos p); lra. Qed.
Lemma smooth_sqr p : smooth p * smooth p = pdot p p + 1 / 100000.
Proof. apply sqrt_sqrt. pose proof (pdot_pos p); lra. Qed.
Lemma plen_sqr p : plen p * plen p = pdot p p.
Proof. apply sqrt_sqrt, pdot_pos. Qed.
Lemma plen_pos p : 0 <= plen p.
Proof. apply sqrt_pos. Qed.
Lemma smooth_le p D : plen p <= D -> smooth p <= D + 1 / 100.
Proof.
  intros H. pose proof (plen_pos p). pose proof (plen_sqr p) as E. pose proof (smooth_sqr p) as F.
  apply le_of_sqr; [lra|]. rewrite F, <- E. nra.
Qed.
Lemma abs_le_of_sqr a b : 0 <= b -> a * a <= b * b -> Rabs a <= b.
Proof. intros Hb H. apply le_of_sqr; [exact Hb|]. rewrite <- Rabs_mult, Rabs_right by nra. exact H. Qed.
Lemma sqr_of_abs_le a b : Rabs a <= b -> a * a <= b * b.
Proof.
  intros H. pose proof (Rabs_pos a). replace (a * a) with (Rabs a * Rabs a).
  - apply Rmult_le_compat; lra.
  - rewrite <- Rabs_mult. apply Rabs_right. nra.
Qed.

(** The value of the speed limit with its bias of -0.1 mm/s. *)
Definition speed_value (c : dock_cfg) (p v : point) : R :=
  d_v0 c + d_v1_coef c * d_n c * (smooth p - d_v0_distance c) - smooth v - 1 / 10000.
(** Its rate for an acceleration -k v. *)
Definition speed_rate (c : dock_cfg) (p v : point) (k : R) : R :=
  d_v1_coef c * d_n c * (pdot p v / smooth p) + k * (pdot v v / smooth v).

Ltac sqr_pos :=
  repeat match goal with
  | |- context [?a * ?a] => lazymatch goal with H : 0 <= a * a |- _ => fail | _ => pose proof (Rle_0_sqr a : 0 <= a * a) end
  | _ : context [?a * ?a] |- _ => lazymatch goal with H : 0 <= a * a |- _ => fail | _ => pose proof (Rle_0_sqr a : 0 <= a * a) end
  end; lra.

Lemma brake_exists c m D b x y z vx vy vz :
  let p := (x, y, z) in let v := (vx, vy, vz) in let n := d_n c in
  envelope c m D b -> plen p <= D -> docking_nearly_safe c p v ->
  exists k,
    (Rabs (m * (- k * vx - (3 * (n * n) * x + 2 * n * vy))) <= b /\
     Rabs (m * (- k * vy - (- (2 * n * vx)))) <= b /\
     Rabs (m * (- k * vz - (- (n * n * z)))) <= b) /\
    (speed_value c p v < 0 -> 19 / 1000 <= speed_rate c p v k) /\
    (0 <= speed_value c p v -> 0 <= speed_rate c p v k + speed_value c p v / 100) /\
    0 < k /\
    (forall l w, 3 / 10 * top_speed c D <= l * l -> l * l < w * w -> 12 / 1000 <= 2 * k * (w * w)).
Proof.
  intros p v n E HD [Hs _]. destruct E as [Em En ED E1 E0 Et El Ex Ey Ez].
  set (v1 := d_v1_coef c * d_n c) in *.
  unfold slow_enough in Hs. fold (smooth v) in Hs. fold (smooth p) in Hs. fold v1 in Hs.
  pose proof (smooth_pos p) as Rp. pose proof (smooth_sqr p) as R2.
  pose proof (smooth_pos v) as Sp. pose proof (smooth_sqr v) as S2.
  pose proof (smooth_le p D HD) as RD.
  assert (Q : pdot p v * pdot p v <= pdot p p * pdot v v).
  { unfold p, v; cbn.
    pose proof (Rle_0_sqr (x * vy - y * vx)) as Q1. pose proof (Rle_0_sqr (x * vz - z * vx)) as Q2.
    pose proof (Rle_0_sqr (y * vz - z * vy)) as Q3. unfold Rsqr in *. lra. }
  set (V := top_speed c D) in *.
  assert (SV : smooth v <= V).
  { unfold V, top_speed. fold v1.
    assert (v1 * (smooth p - d_v0_distance c) <= v1 * (D + 1 / 100 - d_v0_distance c)) by (apply Rmult_le_compat_l; lra). lra. }
  set (sg := smooth v) in *. set (rho := smooth p) in *.
  set (k := 1 / 50 / sg + 2 * v1).
  assert (Kp : 0 < k) by (exact (kap_pos v1 sg k Sp eq_refl E1)).
  pose proof (kap_sg v1 sg k Sp eq_refl) as Ks.
  exists k. split; [|split; [|split; [|split]]].
  - assert (W : forall w, w * w <= sg * sg -> Rabs w <= sg) by (intros w; apply abs_le_of_sqr; lra).
    assert (Wx : Rabs vx <= sg) by (apply W; rewrite S2; unfold v; cbn; sqr_pos).
    assert (Wy : Rabs vy <= sg) by (apply W; rewrite S2; unfold v; cbn; sqr_pos).
    assert (Wz : Rabs vz <= sg) by (apply W; rewrite S2; unfold v; cbn; sqr_pos).
    assert (P2 : pdot p p <= D * D).
    { rewrite <- plen_sqr. pose proof (plen_pos p). nra. }
    assert (Px : Rabs x <= D) by (apply abs_le_of_sqr; [lra|]; unfold p in P2; cbn in P2; sqr_pos).
    assert (Pz : Rabs z <= D) by (apply abs_le_of_sqr; [lra|]; unfold p in P2; cbn in P2; sqr_pos).
    assert (KV : k * sg <= 1 / 50 + 2 * v1 * V) by (rewrite Ks; nra).
    assert (Kw : forall w, Rabs w <= sg -> Rabs (k * w) <= 1 / 50 + 2 * v1 * V).
    { intros w Hw. rewrite Rabs_mult, (Rabs_right k) by lra. nra. }
    assert (NN : 0 <= n * n) by nra.
    assert (Nw : forall w, Rabs w <= sg -> Rabs (2 * n * w) <= 2 * n * V).
    { intros w Hw. rewrite Rabs_mult, (Rabs_right (2 * n)) by (unfold n in *; lra).
      apply Rmult_le_compat_l; [unfold n in *; lra|lra]. }
    assert (Nr : forall w, Rabs w <= D -> Rabs (n * n * w) <= n * n * D).
    { intros w Hw. rewrite Rabs_mult, (Rabs_right (n * n)) by lra. apply Rmult_le_compat_l; lra. }
    assert (Tw : forall a, Rabs a <= 1 / 50 + 2 * v1 * V + 3 * (n * n) * D + 2 * n * V -> Rabs (m * a) <= b).
    { intros a Ha. rewrite Rabs_mult, (Rabs_right m) by lra. eapply Rle_trans; [|exact Et].
      apply Rmult_le_compat_l; [lra|]. exact Ha. }
    pose proof (Kw vx Wx). pose proof (Kw vy Wy). pose proof (Kw vz Wz).
    pose proof (Nw vx Wx). pose proof (Nw vy Wy). pose proof (Nr x Px). pose proof (Nr z Pz).
    assert (B0 : 0 <= n * n * D) by nra.
    assert (B1 : 0 <= 2 * n * V) by (unfold n in *; apply Rmult_le_pos; lra).
    assert (Tri : forall a a' A A', Rabs a <= A -> Rabs a' <= A' -> Rabs (- a - a') <= A + A').
    { intros a a' A A' ? ?. replace (- a - a') with (- (a + a')) by ring. rewrite Rabs_Ropp.
      eapply Rle_trans; [apply Rabs_triang|lra]. }
    split; [|split]; apply Tw.
    + replace (- k * vx - (3 * (n * n) * x + 2 * n * vy)) with (- (k * vx) - (3 * (n * n * x) + 2 * n * vy)) by ring.
      replace (1 / 50 + 2 * v1 * V + 3 * (n * n) * D + 2 * n * V) with ((1 / 50 + 2 * v1 * V) + (3 * (n * n * D) + 2 * n * V)) by ring.
      apply Tri; [assumption|]. eapply Rle_trans; [apply Rabs_triang|]. rewrite (Rabs_mult 3), (Rabs_right 3) by lra. lra.
    + replace (- k * vy - - (2 * n * vx)) with (- (k * vy) - (- (2 * n * vx))) by ring.
      eapply Rle_trans; [apply Tri; [eassumption|]; rewrite Rabs_Ropp; eassumption|]. lra.
    + replace (- k * vz - - (n * n * z)) with (- (k * vz) - (- (n * n * z))) by ring.
      eapply Rle_trans; [apply Tri; [eassumption|]; rewrite Rabs_Ropp; eassumption|]. lra.
  - exact (rate_outside (d_v0 c) v1 (d_v0_distance c) (pdot p p) (pdot v v) (pdot p v) rho sg k
             (pdot_pos v) Q Rp R2 Sp S2 eq_refl E1 E0).
  - exact (rate_inside (d_v0 c) v1 (d_v0_distance c) (pdot p p) (pdot v v) (pdot p v) rho sg k
             (pdot_pos v) Q Rp R2 Sp S2 eq_refl E1 E0).
  - exact Kp.
  - intros l w Hl Hw.
    assert (A : 3 / 10 * sg <= w * w) by lra.
    assert (1 / 50 / sg <= k) by (unfold k; lra).
    apply Rle_trans with (2 * (1 / 50 / sg) * (3 / 10 * sg)); [right; field; lra|].
    assert (0 < 1 / 50 / sg) by (apply Rmult_lt_0_compat; [lra|apply Rinv_0_lt_compat; lra]).
    apply Rmult_le_compat; nra.
Qed.

(** ** The strengthening term, for values not below -0.001 *)
Lemma strong {X P} (c : constraint X P) a e h r :
  c_alpha c = Some (polynomial (Some [0; a; 0; e])) -> c_alpha_neg c = None -> c_bias_neg c = - (1 / 100) ->
  0 <= a <= 1 / 10 -> 0 <= e <= 1 -> - (1 / 1000) <= h ->
  (0 <= h -> 0 <= r + a * h) -> (h < 0 -> 12 / 1000 <= r) -> 0 <= r + strength c h.
Proof.
  intros Ea En Eb A E Hh Pq N. unfold strength; rewrite Ea, En, Eb.
  replace (polynomial (Some [0; a; 0; e]) h) with (a * h + e * (h * h * h)) by (unfold polynomial; cbn [poly_loop]; ring).
  destruct (Rlt_dec h 0) as [L|L].
  - specialize (N L). assert (- (1 / 10000) <= a * h) by nra.
    assert (0 <= h * h <= 1 / 1000000) by nra.
    assert (- (1 / 1000000000) <= e * (h * h * h)).
    { assert (- (1 / 1000000000) <= h * h * h <= 0) by nra. nra. }
    lra.
  - assert (0 <= h) by lra. specialize (Pq ltac:(lra)).
    assert (0 <= h * h * h) by (apply Rmult_le_pos; [nra|lra]).
    assert (0 <= e * (h * h * h)) by (apply Rmult_le_pos; lra). lra.
Qed.
Lemma strong_negative {X P} (c : constraint X P) a e h :
  c_alpha c = Some (polynomial (Some [0; a; 0; e])) -> c_alpha_neg c = None -> c_bias_neg c = - (1 / 100) ->
  0 <= a -> 0 <= e -> h < 0 -> strength c h < 0.
Proof.
  intros Ea En Eb A E Hh. unfold strength; rewrite Ea, En, Eb.
  replace (polynomial (Some [0; a; 0; e]) h) with (a * h + e * (h * h * h)) by (unfold polynomial; cbn [poly_loop]; ring).
  destruct (Rlt_dec h 0) as [_|L]; [|lra].
  assert (a * h <= 0) by nra. assert (h * h * h <= 0) by nra. assert (e * (h * h * h) <= 0) by nra. lra.
Qed.

(** ** Rates of change *)
Lemma dynamics_3 n m b eps exc solve x y z vx vy vz ux uy uz :
  let cfg := docking_optimization_3d n m b eps exc solve in
  vadd (ac_f cfg [x; y; z; vx; vy; vz]) (mv (ac_g cfg [x; y; z; vx; vy; vz]) [ux; uy; uz])
  = [vx; vy; vz; 3 * (n * n) * x + 2 * n * vy + ux / m; - (2 * n * vx) + uy / m; - (n * n * z) + uz / m].
Proof. cbn. unfold Rdiv. repeat apply (f_equal2 (@Datatypes.cons R)); try reflexivity; ring. Qed.
Lemma dynamics_2 n m b eps exc solve x y vx vy ux uy :
  let cfg := docking_optimization_2d n m b eps exc solve in
  vadd (ac_f cfg [x; y; vx; vy]) (mv (ac_g cfg [x; y; vx; vy]) [ux; uy])
  = [vx; vy; 3 * (n * n) * x + 2 * n * vy + ux / m; - (2 * n * vx) + uy / m].
Proof. cbn. unfold Rdiv. repeat apply (f_equal2 (@Datatypes.cons R)); try reflexivity; ring. Qed.

Section Entries.
Variable c : dock_cfg.
Let v1 := d_v1_coef c * d_n c.
Definition rv3 := wrap ZRv as_rv (rel_vel_3d (d_v0 c) (d_v1_coef c * d_n c) (d_v0_distance c) rv_delta None (with_bias (- (1 / 10000)))).
Definition rv2 := wrap ZRv as_rv (rel_vel_2d (d_v0 c) (d_v1_coef c * d_n c) (d_v0_distance c) rv_delta None (with_bias (- (1 / 10000)))).
Definition lim (l : R) (i : Z) := wrap ZLimit as_limit (magnitude_limit l i None kw_default).

Lemma smooth_3 x y z : sqrt (x * x + y * y + z * z + rv_delta) = smooth (x, y, z).
Proof. reflexivity. Qed.
Lemma smooth_2 x y : sqrt (x * x + y * y + rv_delta) = smooth (x, y, 0).
Proof. unfold smooth, pdot, rv_delta. f_equal; ring. Qed.

Lemma rv3_value x y z vx vy vz :
  c_fun rv3 [x; y; z; vx; vy; vz] (c_params rv3) + c_bias rv3 = speed_value c (x, y, z) (vx, vy, vz).
Proof.
  unfold rv3, wrap, rel_vel_3d, new_constraint, with_bias. cbn [c_fun c_params c_bias as_rv kw_bias].
  rewrite rel_vel_3, !smooth_3. unfold speed_value. ring.
Qed.
Lemma rv2_value x y vx vy :
  c_fun rv2 [x; y; vx; vy] (c_params rv2) + c_bias rv2 = speed_value c (x, y, 0) (vx, vy, 0).
Proof.
  unfold rv2, wrap, rel_vel_2d, new_constraint, with_bias. cbn [c_fun c_params c_bias as_rv kw_bias].
  rewrite rel_vel_2, !smooth_2. unfold speed_value. ring.
Qed.
Lemma rv3_grad x y z vx vy vz : let r := smooth (x, y, z) in let g := smooth (vx, vy, vz) in
  c_grad rv3 [x; y; z; vx; vy; vz] (c_params rv3)
  = [v1 * (x / r); v1 * (y / r); v1 * (z / r); - (vx / g); - (vy / g); - (vz / g)].
Proof. apply (jax_grad_unique _ _ _ (rel_vel_gradient_3 (d_v0 c) v1 (d_v0_distance c) x y z vx vy vz)). Qed.
Lemma rv2_grad x y vx vy : let r := smooth (x, y, 0) in let g := smooth (vx, vy, 0) in
  c_grad rv2 [x; y; vx; vy] (c_params rv2) = [v1 * (x / r); v1 * (y / r); - (vx / g); - (vy / g)].
Proof.
  cbv zeta. rewrite <- !smooth_2.
  apply (jax_grad_unique _ _ _ (rel_vel_gradient_2 (d_v0 c) v1 (d_v0_distance c) x y vx vy)).
Qed.

Lemma lim_value l (i : nat) s v : nth_error s i = Some v ->
  c_fun (lim l (Z.of_nat i)) s (c_params (lim l (Z.of_nat i))) + c_bias (lim l (Z.of_nat i)) = l * l - v * v.
Proof.
  intros H. unfold lim, wrap, magnitude_limit, new_constraint, kw_default. cbn [c_fun c_params c_bias as_limit kw_bias].
  assert (C : component (Z.of_nat i) s v) by (exists i; auto).
  destruct (component_jax _ _ _ C) as (-> & _). ring.
Qed.
Lemma lim_grad l (i : nat) s v : nth_error s i = Some v ->
  c_grad (lim l (Z.of_nat i)) s (c_params (lim l (Z.of_nat i)))
  = vscale (- 2 * v) (unit_vec (length s) (jax_index (length s) (Z.of_nat i))).
Proof.
  intros H. assert (C : component (Z.of_nat i) s v) by (exists i; auto).
  apply (jax_grad_unique _ _ _ (magnitude_gradient s v (Z.of_nat i) l C)).
Qed.

(** The rates as scalar products. *)
Lemma rv3_rate x y z vx vy vz ax ay az :
  dot (c_grad rv3 [x; y; z; vx; vy; vz] (c_params rv3)) [vx; vy; vz; ax; ay; az]
  = v1 * (pdot (x, y, z) (vx, vy, vz) / smooth (x, y, z)) - pdot (vx, vy, vz) (ax, ay, az) / smooth (vx, vy, vz).
Proof.
  rewrite rv3_grad. pose proof (smooth_pos (x, y, z)). pose proof (smooth_pos (vx, vy, vz)).
  set (r := smooth (x, y, z)) in *. set (g := smooth (vx, vy, vz)) in *. cbn. field. split; lra.
Qed.
Lemma rv2_rate x y vx vy ax ay :
  dot (c_grad rv2 [x; y; vx; vy] (c_params rv2)) [vx; vy; ax; ay]
  = v1 * (pdot (x, y, 0) (vx, vy, 0) / smooth (x, y, 0)) - pdot (vx, vy, 0) (ax, ay, 0) / smooth (vx, vy, 0).
Proof.
  rewrite rv2_grad. pose proof (smooth_pos (x, y, 0)). pose proof (smooth_pos (vx, vy, 0)).
  set (r := smooth (x, y, 0)) in *. set (g := smooth (vx, vy, 0)) in *. cbn. field. split; lra.
Qed.
Lemma lim_rate l (i : nat) s v d a : nth_error s i = Some v -> nth_error d i = Some a -> length d = length s ->
  dot (c_grad (lim l (Z.of_nat i)) s (c_params (lim l (Z.of_nat i)))) d = - 2 * (v * a).
Proof.
  intros H Hd L. rewrite (lim_grad l i s v H).
  assert (Li : (i < length s)%nat) by (apply nth_error_Some; congruence).
  assert (E : jax_index (length s) (Z.of_nat i) = i).
  { unfold jax_index. destruct (Z.ltb_spec (Z.of_nat i) 0); lia. }
  rewrite E. clear E.
  assert (K : forall (w : vec) n j k, (j < n)%nat -> length w = n ->
    dot (vscale k (map (fun q => if Nat.eqb j q then 1 else 0) (seq 0 n))) w = k * nth j w 0).
  { assert (K' : forall (w : vec) o j k,
      dot (vscale k (map (fun q => if Nat.eqb j q then 1 else 0) (seq o (length w)))) w
      = if (o <=? j)%nat then k * nth (j - o) w 0 else 0).
    { induction w as [|a' w IH]; intros o j k; cbn [length seq map vscale dot].
      - destruct (o <=? j)%nat; [|reflexivity]. destruct (j - o)%nat; cbn; ring.
      - change (map (Rmult k) (map (fun q => if Nat.eqb j q then 1 else 0) (seq (S o) (length w))))
          with (vscale k (map (fun q => if Nat.eqb j q then 1 else 0) (seq (S o) (length w)))).
        rewrite IH. destruct (Nat.eqb_spec j o) as [->|Ne].
        + rewrite (proj2 (Nat.leb_le o o)) by lia. rewrite Nat.sub_diag.
          destruct (Nat.leb_spec (S o) o); [lia|]. cbn. ring.
        + destruct (Nat.leb_spec (S o) j), (Nat.leb_spec o j); try lia; [|ring].
          replace (j - o)%nat with (S (j - S o)) by lia. cbn [nth]. ring. }
    intros w n j k Hj <-. rewrite K'. cbn. rewrite Nat.sub_0_r. reflexivity. }
  unfold unit_vec. rewrite (K d (length s) i (- 2 * v) Li L).
  rewrite (nth_error_nth d i 0 Hd). ring.
Qed.

(** ** Along a motion *)
Lemma smooth_derive (x y z x' y' z' : R -> R) t :
  derivable_pt_lim x t (x' t) -> derivable_pt_lim y t (y' t) -> derivable_pt_lim z t (z' t) ->
  derivable_pt_lim (fun r => smooth (x r, y r, z r)) t
    (pdot (x t, y t, z t) (x' t, y' t, z' t) / smooth (x t, y t, z t)).
Proof.
  intros Dx Dy Dz.
  pose proof (smooth_pos (x t, y t, z t)) as P.
  assert (Q : derivable_pt_lim (fun r => x r * x r + y r * y r + z r * z r + 1 / 100000) t
                (2 * pdot (x t, y t, z t) (x' t, y' t, z' t))).
  { eapply derive_eq.
    - apply (derivable_pt_lim_plus (fun r => x r * x r + y r * y r + z r * z r) (fun _ => 1 / 100000));
        [|apply derivable_pt_lim_const].
      apply (derivable_pt_lim_plus (fun r => x r * x r + y r * y r) (fun r => z r * z r));
        [apply (derivable_pt_lim_plus (fun r => x r * x r) (fun r => y r * y r))|];
        match goal with |- derivable_pt_lim (fun r => ?f r * ?f r) _ _ => apply (derivable_pt_lim_mult f f); eassumption end.
    - cbn. ring. }
  assert (S0 : 0 < x t * x t + y t * y t + z t * z t + 1 / 100000).
  { pose proof (Rle_0_sqr (x t)); pose proof (Rle_0_sqr (y t)); pose proof (Rle_0_sqr (z t)); unfold Rsqr in *; lra. }
  pose proof (derivable_pt_lim_comp _ sqrt t _ _ Q (derivable_pt_lim_sqrt _ S0)) as E.
  eapply derive_eq; [exact E|].
  change (sqrt (x t * x t + y t * y t + z t * z t + 1 / 100000)) with (smooth (x t, y t, z t)).
  field. lra.
Qed.

Lemma speed_derive (x y z x' y' z' ax ay az : R -> R) t :
  derivable_pt_lim x t (x' t) -> derivable_pt_lim y t (y' t) -> derivable_pt_lim z t (z' t) ->
  derivable_pt_lim x' t (ax t) -> derivable_pt_lim y' t (ay t) -> derivable_pt_lim z' t (az t) ->
  derivable_pt_lim (fun r => speed_value c (x r, y r, z r) (x' r, y' r, z' r)) t
    (v1 * (pdot (x t, y t, z t) (x' t, y' t, z' t) / smooth (x t, y t, z t))
     - pdot (x' t, y' t, z' t) (ax t, ay t, az t) / smooth (x' t, y' t, z' t)).
Proof.
  intros Dx Dy Dz Ax Ay Az.
  pose proof (smooth_derive x y z x' y' z' t Dx Dy Dz) as A.
  pose proof (smooth_derive x' y' z' ax ay az t Ax Ay Az) as B.
  set (f := fun r => smooth (x r, y r, z r)) in *. set (g := fun r => smooth (x' r, y' r, z' r)) in *.
  apply derive_ext with (fun r => (d_v0 c - v1 * d_v0_distance c - 1 / 10000) + (v1 * f r - g r)).
  { intros r. unfold f, g, speed_value. fold v1. ring. }
  match goal with |- derivable_pt_lim _ _ ?e => replace e with (0 + e) by ring end.
  apply (derivable_pt_lim_plus (fun _ => d_v0 c - v1 * d_v0_distance c - 1 / 10000) (fun r => v1 * f r - g r));
    [apply derivable_pt_lim_const|].
  apply (derivable_pt_lim_minus (fun r => v1 * f r) g); [|exact B].
  exact (derivable_pt_lim_scal f v1 t _ A).
Qed.

Lemma lim_derive l (v : R -> R) a t : derivable_pt_lim v t a ->
  derivable_pt_lim (fun r => l * l - v r * v r) t (- 2 * (v t * a)).
Proof.
  intros D. eapply derive_eq.
  - apply (derivable_pt_lim_minus (fun _ => l * l) (fun r => v r * v r)); [apply derivable_pt_lim_const|].
    apply (derivable_pt_lim_mult v v); eassumption.
  - ring.
Qed.
End Entries.

(** ** Requirements without slack variables *)
Lemma no_slack_count {X P} (cs : dict (constraint X P)) :
  (forall k c, In (k, c) cs -> c_slack c = None) -> slack_count cs = 0%nat.
Proof.
  induction cs as [|[k c] cs IH]; intros H; [reflexivity|]. unfold slack_count in *. cbn [filter].
  unfold has_slack at 1. cbn [snd]. rewrite (H k c (or_introl eq_refl)). apply IH. intros k' c' I. apply (H k' c'). right; exact I.
Qed.
Lemma acceptable_plain {X P} b dim f g (cs : dict (constraint X P)) x w :
  (forall k c, In (k, c) cs -> c_slack c = None) -> length w = dim -> within b w ->
  (forall k c, In (k, c) cs -> 0 <= dot (c_grad c x (c_params c)) (vadd (f x) (mv (g x) w))
                                    + strength c (c_fun c x (c_params c) + c_bias c)) ->
  acceptable b dim f g cs [] x w.
Proof.
  intros S L W B. assert (F : firstn dim w = w) by (subst dim; apply firstn_all).
  split; [rewrite F; exact W|split; [|intros k d []]].
  intros pre k c post E _. unfold barrier_margin, slack_value. rewrite F.
  assert (I : In (k, c) cs) by (rewrite E; apply in_elt).
  rewrite (S k c I). specialize (B k c I). lra.
Qed.

Ltac entries I :=
  lazymatch type of I with
  | _ \/ _ => destruct I as [I|I]; [injection I as <- <-|entries I]
  | False => destruct I
  end.

Lemma docking_3d_entries c : docking_constraints_3d c =
  [("rel_vel"%string, rv3 c); ("x_vel"%string, lim (d_x_limit c) (Z.of_nat 3));
   ("y_vel"%string, lim (d_y_limit c) (Z.of_nat 4)); ("z_vel"%string, lim (d_z_limit c) (Z.of_nat 5))].
Proof. reflexivity. Qed.
Lemma docking_2d_entries c : docking_constraints_2d c =
  [("rel_vel"%string, rv2 c); ("x_vel"%string, lim (d_x_limit c) (Z.of_nat 2));
   ("y_vel"%string, lim (d_y_limit c) (Z.of_nat 3))].
Proof. reflexivity. Qed.

Lemma rv3_strong c h r : - (1 / 1000) <= h -> (0 <= h -> 0 <= r + h / 100) -> (h < 0 -> 19 / 1000 <= r) ->
  0 <= r + strength (rv3 c) h.
Proof.
  intros Hh A B. apply (strong (rv3 c) (5 / 100) (5 / 1000)); try reflexivity; lra.
Qed.
Lemma rv2_strong c h r : - (1 / 1000) <= h -> (0 <= h -> 0 <= r + h / 100) -> (h < 0 -> 19 / 1000 <= r) ->
  0 <= r + strength (rv2 c) h.
Proof.
  intros Hh A B. apply (strong (rv2 c) (1 / 100) (1 / 10)); try reflexivity; lra.
Qed.
Lemma lim_strong l i h r : - (1 / 1000) <= h -> 0 <= r -> (h < 0 -> 12 / 1000 <= r) -> 0 <= r + strength (lim l i) h.
Proof.
  intros Hh A B. apply (strong (lim l i) (5 / 10000) (1 / 1000)); try reflexivity; lra.
Qed.

Definition value {X P} (c : constraint X P) (x : X) : R := c_fun c x (c_params c) + c_bias c.

Lemma nearly_values_3 c x y z vx vy vz :
  (forall k e, In (k, e) (docking_constraints_3d c) -> - (1 / 1000) <= value e [x; y; z; vx; vy; vz]) <->
  docking_nearly_safe c (x, y, z) (vx, vy, vz).
Proof.
  rewrite docking_3d_entries. unfold docking_nearly_safe, slow_enough.
  change (sqrt (pdot (vx, vy, vz) (vx, vy, vz) + 1 / 100000)) with (smooth (vx, vy, vz)).
  change (sqrt (pdot (x, y, z) (x, y, z) + 1 / 100000)) with (smooth (x, y, z)).
  split.
  - intros H.
    pose proof (H "rel_vel"%string _ (or_introl eq_refl)) as H0.
    pose proof (H "x_vel"%string _ (or_intror (or_introl eq_refl))) as H1.
    pose proof (H "y_vel"%string _ (or_intror (or_intror (or_introl eq_refl)))) as H2.
    pose proof (H "z_vel"%string _ (or_intror (or_intror (or_intror (or_introl eq_refl))))) as H3.
    unfold value in *. rewrite rv3_value in H0. unfold speed_value in H0.
    rewrite (lim_value _ 3 [x; y; z; vx; vy; vz] vx eq_refl) in H1. rewrite (lim_value _ 4 [x; y; z; vx; vy; vz] vy eq_refl) in H2.
    rewrite (lim_value _ 5 [x; y; z; vx; vy; vz] vz eq_refl) in H3. repeat split; lra.
  - intros (H0 & H1 & H2 & H3) k e I. unfold value.
    cbn [In] in I. entries I.
    + rewrite rv3_value. unfold speed_value. lra.
    + rewrite (lim_value _ 3 [x; y; z; vx; vy; vz] vx eq_refl). lra.
    + rewrite (lim_value _ 4 [x; y; z; vx; vy; vz] vy eq_refl). lra.
    + rewrite (lim_value _ 5 [x; y; z; vx; vy; vz] vz eq_refl). lra.
Qed.

Lemma nearly_values_2 c x y vx vy :
  (forall k e, In (k, e) (docking_constraints_2d c) -> - (1 / 1000) <= value e [x; y; vx; vy]) <->
  docking_nearly_safe c (x, y, 0) (vx, vy, 0).
Proof.
  rewrite docking_2d_entries. unfold docking_nearly_safe, slow_enough.
  change (sqrt (pdot (vx, vy, 0) (vx, vy, 0) + 1 / 100000)) with (smooth (vx, vy, 0)).
  change (sqrt (pdot (x, y, 0) (x, y, 0) + 1 / 100000)) with (smooth (x, y, 0)).
  split.
  - intros H.
    pose proof (H "rel_vel"%string _ (or_introl eq_refl)) as H0.
    pose proof (H "x_vel"%string _ (or_intror (or_introl eq_refl))) as H1.
    pose proof (H "y_vel"%string _ (or_intror (or_intror (or_introl eq_refl)))) as H2.
    unfold value in *. rewrite rv2_value in H0. unfold speed_value in H0.
    rewrite (lim_value _ 2 [x; y; vx; vy] vx eq_refl) in H1. rewrite (lim_value _ 3 [x; y; vx; vy] vy eq_refl) in H2.
    assert (0 <= d_z_limit c * d_z_limit c) by apply Rle_0_sqr. repeat split; lra.
  - intros (H0 & H1 & H2 & H3) k e I. unfold value.
    cbn [In] in I. entries I.
    + rewrite rv2_value. unfold speed_value. lra.
    + rewrite (lim_value _ 2 [x; y; vx; vy] vx eq_refl). lra.
    + rewrite (lim_value _ 3 [x; y; vx; vy] vy eq_refl). lra.
Qed.

(** All values at least zero: the limits are met with the margin. *)
Lemma safe_values_3 c x y z vx vy vz : 0 <= d_x_limit c /\ 0 <= d_y_limit c /\ 0 <= d_z_limit c ->
  (forall k e, In (k, e) (docking_constraints_3d c) -> 0 <= value e [x; y; z; vx; vy; vz]) <->
  docking_safe c (x, y, z) (vx, vy, vz).
Proof.
  intros (L1 & L2 & L3). rewrite docking_3d_entries. unfold docking_safe, slow_enough, components_within. cbn [fst snd].
  change (sqrt (pdot (vx, vy, vz) (vx, vy, vz) + 1 / 100000)) with (smooth (vx, vy, vz)).
  change (sqrt (pdot (x, y, z) (x, y, z) + 1 / 100000)) with (smooth (x, y, z)).
  split.
  - intros H.
    pose proof (H "rel_vel"%string _ (or_introl eq_refl)) as H0.
    pose proof (H "x_vel"%string _ (or_intror (or_introl eq_refl))) as H1.
    pose proof (H "y_vel"%string _ (or_intror (or_intror (or_introl eq_refl)))) as H2.
    pose proof (H "z_vel"%string _ (or_intror (or_intror (or_intror (or_introl eq_refl))))) as H3.
    unfold value in *. rewrite rv3_value in H0. unfold speed_value in H0.
    rewrite (lim_value _ 3 [x; y; z; vx; vy; vz] vx eq_refl) in H1. rewrite (lim_value _ 4 [x; y; z; vx; vy; vz] vy eq_refl) in H2.
    rewrite (lim_value _ 5 [x; y; z; vx; vy; vz] vz eq_refl) in H3.
    split; [lra|split; [|split]]; apply abs_le_of_sqr; lra.
  - intros (H0 & H1 & H2 & H3) k e I. unfold value.
    apply sqr_of_abs_le in H1, H2, H3. cbn [In] in I. entries I.
    + rewrite rv3_value. unfold speed_value. lra.
    + rewrite (lim_value _ 3 [x; y; z; vx; vy; vz] vx eq_refl). lra.
    + rewrite (lim_value _ 4 [x; y; z; vx; vy; vz] vy eq_refl). lra.
    + rewrite (lim_value _ 5 [x; y; z; vx; vy; vz] vz eq_refl). lra.
Qed.
Lemma safe_values_2 c x y vx vy : 0 <= d_x_limit c /\ 0 <= d_y_limit c /\ 0 <= d_z_limit c ->
  (forall k e, In (k, e) (docking_constraints_2d c) -> 0 <= value e [x; y; vx; vy]) <->
  docking_safe c (x, y, 0) (vx, vy, 0).
Proof.
  intros (L1 & L2 & L3). rewrite docking_2d_entries. unfold docking_safe, slow_enough, components_within. cbn [fst snd].
  change (sqrt (pdot (vx, vy, 0) (vx, vy, 0) + 1 / 100000)) with (smooth (vx, vy, 0)).
  change (sqrt (pdot (x, y, 0) (x, y, 0) + 1 / 100000)) with (smooth (x, y, 0)).
  split.
  - intros H.
    pose proof (H "rel_vel"%string _ (or_introl eq_refl)) as H0.
    pose proof (H "x_vel"%string _ (or_intror (or_introl eq_refl))) as H1.
    pose proof (H "y_vel"%string _ (or_intror (or_intror (or_introl eq_refl)))) as H2.
    unfold value in *. rewrite rv2_value in H0. unfold speed_value in H0.
    rewrite (lim_value _ 2 [x; y; vx; vy] vx eq_refl) in H1. rewrite (lim_value _ 3 [x; y; vx; vy] vy eq_refl) in H2.
    split; [lra|split; [|split]]; apply abs_le_of_sqr; try lra. rewrite Rmult_0_l. apply Rle_0_sqr.
  - intros (H0 & H1 & H2 & H3) k e I. unfold value.
    apply sqr_of_abs_le in H1, H2, H3. cbn [In] in I. entries I.
    + rewrite rv2_value. unfold speed_value. lra.
    + rewrite (lim_value _ 2 [x; y; vx; vy] vx eq_refl). lra.
    + rewrite (lim_value _ 3 [x; y; vx; vy] vy eq_refl). lra.
Qed.

Lemma negative_strength_3 c k e h : In (k, e) (docking_constraints_3d c) -> h < 0 -> strength e h < 0.
Proof.
  rewrite docking_3d_entries. intros I Hh. cbn [In] in I. entries I.
  - apply (strong_negative (rv3 c) (5 / 100) (5 / 1000)); try reflexivity; lra.
  - apply (strong_negative (lim (d_x_limit c) _) (5 / 10000) (1 / 1000)); try reflexivity; lra.
  - apply (strong_negative (lim (d_y_limit c) _) (5 / 10000) (1 / 1000)); try reflexivity; lra.
  - apply (strong_negative (lim (d_z_limit c) _) (5 / 10000) (1 / 1000)); try reflexivity; lra.
Qed.
Lemma negative_strength_2 c k e h : In (k, e) (docking_constraints_2d c) -> h < 0 -> strength e h < 0.
Proof.
  rewrite docking_2d_entries. intros I Hh. cbn [In] in I. entries I.
  - apply (strong_negative (rv2 c) (1 / 100) (1 / 10)); try reflexivity; lra.
  - apply (strong_negative (lim (d_x_limit c) _) (5 / 10000) (1 / 1000)); try reflexivity; lra.
  - apply (strong_negative (lim (d_y_limit c) _) (5 / 10000) (1 / 1000)); try reflexivity; lra.
Qed.

(** ** The braking control is acceptable *)
Lemma limit_rate_ok c D k l w : 0 < k ->
  (forall l w, 3 / 10 * top_speed c D <= l * l -> l * l < w * w -> 12 / 1000 <= 2 * k * (w * w)) ->
  3 / 10 * top_speed c D <= l * l -> w * w <= l * l + 1 / 1000 ->
  forall i, 0 <= 2 * k * (w * w) + strength (lim l i) (l * l - w * w).
Proof.
  intros Kp K L W i. apply lim_strong; [lra| |].
  - pose proof (Rle_0_sqr w) as Q; unfold Rsqr in Q. apply Rmult_le_pos; lra.
  - intros N. apply (K l w L). lra.
Qed.

Lemma brake_acceptable_3 c m D b bs eps exc solve x y z vx vy vz :
  let cfg := docking_optimization_3d (d_n c) m bs eps exc solve in
  envelope c m D b -> leaves bs 3 b -> plen (x, y, z) <= D -> docking_nearly_safe c (x, y, z) (vx, vy, vz) ->
  exists w, length w = 3%nat /\
  acceptable bs 3 (ac_f cfg) (ac_g cfg) (docking_constraints_3d c) [] [x; y; z; vx; vy; vz] w.
Proof.
  intros cfg E L HD N. destruct (brake_exists c m D b x y z vx vy vz E HD N) as (k & (Tx & Ty & Tz) & A & B & Kp & K).
  set (n := d_n c) in *. pose proof (ev_mass _ _ _ _ E) as Em.
  set (ux := m * (- k * vx - (3 * (n * n) * x + 2 * n * vy))) in *.
  set (uy := m * (- k * vy - - (2 * n * vx))) in *.
  set (uz := m * (- k * vz - - (n * n * z))) in *.
  exists [ux; uy; uz]. split; [reflexivity|].
  assert (Dy : vadd (ac_f cfg [x; y; z; vx; vy; vz]) (mv (ac_g cfg [x; y; z; vx; vy; vz]) [ux; uy; uz])
    = [vx; vy; vz; - k * vx; - k * vy; - k * vz]).
  { unfold cfg. rewrite dynamics_3. fold n.
    repeat apply (f_equal2 (@Datatypes.cons R)); try reflexivity; [unfold ux|unfold uy|unfold uz]; field; lra. }
  destruct N as [Ns (Nx & Ny & Nz)].
  apply acceptable_plain.
  - intros j e I. rewrite docking_3d_entries in I. cbn [In] in I. entries I; reflexivity.
  - reflexivity.
  - apply L; [reflexivity|]. intros r [<-|[<-|[<-|[]]]]; assumption.
  - rewrite Dy. intros j e I. rewrite docking_3d_entries in I. cbn [In] in I. entries I.
    + rewrite rv3_value, rv3_rate.
      match goal with |- 0 <= ?a + _ => replace a with (speed_rate c (x, y, z) (vx, vy, vz) k) end.
      * apply rv3_strong; [|exact B|exact A].
        unfold slow_enough in Ns. unfold speed_value, smooth. lra.
      * pose proof (smooth_pos (vx, vy, vz)). pose proof (smooth_pos (x, y, z)).
        unfold speed_rate. unfold pdot. field. split; lra.
    + rewrite (lim_value _ 3 [x; y; z; vx; vy; vz] vx eq_refl).
      rewrite (lim_rate _ 3 [x; y; z; vx; vy; vz] vx [vx; vy; vz; - k * vx; - k * vy; - k * vz] (- k * vx) eq_refl eq_refl eq_refl).
      replace (-2 * (vx * (- k * vx))) with (2 * k * (vx * vx)) by ring.
      exact (limit_rate_ok c D k _ _ Kp K (ev_x _ _ _ _ E) Nx _).
    + rewrite (lim_value _ 4 [x; y; z; vx; vy; vz] vy eq_refl).
      rewrite (lim_rate _ 4 [x; y; z; vx; vy; vz] vy [vx; vy; vz; - k * vx; - k * vy; - k * vz] (- k * vy) eq_refl eq_refl eq_refl).
      replace (-2 * (vy * (- k * vy))) with (2 * k * (vy * vy)) by ring.
      exact (limit_rate_ok c D k _ _ Kp K (ev_y _ _ _ _ E) Ny _).
    + rewrite (lim_value _ 5 [x; y; z; vx; vy; vz] vz eq_refl).
      rewrite (lim_rate _ 5 [x; y; z; vx; vy; vz] vz [vx; vy; vz; - k * vx; - k * vy; - k * vz] (- k * vz) eq_refl eq_refl eq_refl).
      replace (-2 * (vz * (- k * vz))) with (2 * k * (vz * vz)) by ring.
      exact (limit_rate_ok c D k _ _ Kp K (ev_z _ _ _ _ E) Nz _).
Qed.

Lemma brake_acceptable_2 c m D b bs eps exc solve x y vx vy :
  let cfg := docking_optimization_2d (d_n c) m bs eps exc solve in
  envelope c m D b -> leaves bs 2 b -> plen (x, y, 0) <= D -> docking_nearly_safe c (x, y, 0) (vx, vy, 0) ->
  exists w, length w = 2%nat /\
  acceptable bs 2 (ac_f cfg) (ac_g cfg) (docking_constraints_2d c) [] [x; y; vx; vy] w.
Proof.
  intros cfg E L HD N. destruct (brake_exists c m D b x y 0 vx vy 0 E HD N) as (k & (Tx & Ty & _) & A & B & Kp & K).
  set (n := d_n c) in *. pose proof (ev_mass _ _ _ _ E) as Em.
  set (ux := m * (- k * vx - (3 * (n * n) * x + 2 * n * vy))) in *.
  set (uy := m * (- k * vy - - (2 * n * vx))) in *.
  exists [ux; uy]. split; [reflexivity|].
  assert (Dy : vadd (ac_f cfg [x; y; vx; vy]) (mv (ac_g cfg [x; y; vx; vy]) [ux; uy])
    = [vx; vy; - k * vx; - k * vy]).
  { unfold cfg. rewrite dynamics_2. fold n.
    repeat apply (f_equal2 (@Datatypes.cons R)); try reflexivity; [unfold ux|unfold uy]; field; lra. }
  destruct N as [Ns (Nx & Ny & _)].
  apply acceptable_plain.
  - intros j e I. rewrite docking_2d_entries in I. cbn [In] in I. entries I; reflexivity.
  - reflexivity.
  - apply L; [reflexivity|]. intros r [<-|[<-|[]]]; assumption.
  - rewrite Dy. intros j e I. rewrite docking_2d_entries in I. cbn [In] in I. entries I.
    + rewrite rv2_value, rv2_rate.
      match goal with |- 0 <= ?a + _ => replace a with (speed_rate c (x, y, 0) (vx, vy, 0) k) end.
      * apply rv2_strong; [|exact B|exact A].
        unfold slow_enough in Ns. unfold speed_value, smooth. lra.
      * pose proof (smooth_pos (vx, vy, 0)). pose proof (smooth_pos (x, y, 0)).
        unfold speed_rate. unfold pdot. field. split; lra.
    + rewrite (lim_value _ 2 [x; y; vx; vy] vx eq_refl).
      rewrite (lim_rate _ 2 [x; y; vx; vy] vx [vx; vy; - k * vx; - k * vy] (- k * vx) eq_refl eq_refl eq_refl).
      replace (-2 * (vx * (- k * vx))) with (2 * k * (vx * vx)) by ring.
      exact (limit_rate_ok c D k _ _ Kp K (ev_x _ _ _ _ E) Nx _).
    + rewrite (lim_value _ 3 [x; y; vx; vy] vy eq_refl).
      rewrite (lim_rate _ 3 [x; y; vx; vy] vy [vx; vy; - k * vx; - k * vy] (- k * vy) eq_refl eq_refl eq_refl).
      replace (-2 * (vy * (- k * vy))) with (2 * k * (vy * vy)) by ring.
      exact (limit_rate_ok c D k _ _ Kp K (ev_y _ _ _ _ E) Ny _).
Qed.

(** ** The constraints along a motion *)
Lemma moves_3 c m bs eps exc solve T (x y z vx vy vz ux uy uz : R -> R) :
  let cfg := docking_optimization_3d (d_n c) m bs eps exc solve in
  let s := fun t => [x t; y t; z t; vx t; vy t; vz t] in
  cwh_forced (d_n c) m T ux uy uz x y z vx vy vz ->
  forall k e, In (k, e) (docking_constraints_3d c) ->
  moves_along e (c_params e) s (fun t => vadd (ac_f cfg (s t)) (mv (ac_g cfg (s t)) [ux t; uy t; uz t])) T.
Proof.
  intros cfg s M k e I t Ht. unfold cfg, s. rewrite dynamics_3.
  destruct M as [Mx My Mz Ax Ay Az].
  specialize (Mx t Ht). specialize (My t Ht). specialize (Mz t Ht). specialize (Ax t Ht). specialize (Ay t Ht). specialize (Az t Ht).
  set (n := d_n c) in *.
  set (ax := fun r => 3 * (n * n) * x r + 2 * n * vy r + ux r / m) in *.
  set (ay := fun r => - (2 * n * vx r) + uy r / m) in *.
  set (az := fun r => - (n * n * z r) + uz r / m) in *.
  change (3 * (n * n) * x t + 2 * n * vy t + ux t / m) with (ax t) in *.
  change (- (2 * n * vx t) + uy t / m) with (ay t) in *.
  change (- (n * n * z t) + uz t / m) with (az t) in *.
  assert (Sh : forall (f : R -> R) b l, derivable_pt_lim (fun r => f r + b) t l -> derivable_pt_lim f t l).
  { intros f b0 l H. apply derive_ext with (fun r => (f r + b0) + - b0); [intros r; ring|].
    replace l with (l + 0) by ring.
    apply (derivable_pt_lim_plus (fun r => f r + b0) (fun _ => - b0)); [exact H|apply derivable_pt_lim_const]. }
  rewrite docking_3d_entries in I. cbn [In] in I. entries I; match goal with |- derivable_pt_lim (fun r => c_fun ?e _ _) _ _ => apply Sh with (c_bias e) end.
  - rewrite rv3_rate.
    apply derive_ext with (fun r => speed_value c (x r, y r, z r) (vx r, vy r, vz r)); [intros r; symmetry; apply rv3_value|].
    exact (speed_derive c x y z vx vy vz ax ay az t Mx My Mz Ax Ay Az).
  - rewrite (lim_rate _ 3 [x t; y t; z t; vx t; vy t; vz t] (vx t) [vx t; vy t; vz t; ax t; ay t; az t] (ax t) eq_refl eq_refl eq_refl).
    apply derive_ext with (fun r => d_x_limit c * d_x_limit c - vx r * vx r);
      [intros r; symmetry; apply (lim_value _ 3 [x r; y r; z r; vx r; vy r; vz r]); reflexivity|].
    apply lim_derive; exact Ax.
  - rewrite (lim_rate _ 4 [x t; y t; z t; vx t; vy t; vz t] (vy t) [vx t; vy t; vz t; ax t; ay t; az t] (ay t) eq_refl eq_refl eq_refl).
    apply derive_ext with (fun r => d_y_limit c * d_y_limit c - vy r * vy r);
      [intros r; symmetry; apply (lim_value _ 4 [x r; y r; z r; vx r; vy r; vz r]); reflexivity|].
    apply lim_derive; exact Ay.
  - rewrite (lim_rate _ 5 [x t; y t; z t; vx t; vy t; vz t] (vz t) [vx t; vy t; vz t; ax t; ay t; az t] (az t) eq_refl eq_refl eq_refl).
    apply derive_ext with (fun r => d_z_limit c * d_z_limit c - vz r * vz r);
      [intros r; symmetry; apply (lim_value _ 5 [x r; y r; z r; vx r; vy r; vz r]); reflexivity|].
    apply lim_derive; exact Az.
Qed.

Lemma moves_2 c m bs eps exc solve T (x y vx vy ux uy : R -> R) :
  let cfg := docking_optimization_2d (d_n c) m bs eps exc solve in
  let s := fun t => [x t; y t; vx t; vy t] in
  cwh_forced (d_n c) m T ux uy (fun _ => 0) x y (fun _ => 0) vx vy (fun _ => 0) ->
  forall k e, In (k, e) (docking_constraints_2d c) ->
  moves_along e (c_params e) s (fun t => vadd (ac_f cfg (s t)) (mv (ac_g cfg (s t)) [ux t; uy t])) T.
Proof.
  intros cfg s M k e I t Ht. unfold cfg, s. rewrite dynamics_2.
  destruct M as [Mx My Mz Ax Ay Az].
  specialize (Mx t Ht). specialize (My t Ht). specialize (Mz t Ht). specialize (Ax t Ht). specialize (Ay t Ht). clear Az.
  set (n := d_n c) in *.
  set (ax := fun r => 3 * (n * n) * x r + 2 * n * vy r + ux r / m) in *.
  set (ay := fun r => - (2 * n * vx r) + uy r / m) in *.
  change (3 * (n * n) * x t + 2 * n * vy t + ux t / m) with (ax t) in *.
  change (- (2 * n * vx t) + uy t / m) with (ay t) in *.
  assert (Sh : forall (f : R -> R) b l, derivable_pt_lim (fun r => f r + b) t l -> derivable_pt_lim f t l).
  { intros f b0 l H. apply derive_ext with (fun r => (f r + b0) + - b0); [intros r; ring|].
    replace l with (l + 0) by ring.
    apply (derivable_pt_lim_plus (fun r => f r + b0) (fun _ => - b0)); [exact H|apply derivable_pt_lim_const]. }
  rewrite docking_2d_entries in I. cbn [In] in I. entries I; match goal with |- derivable_pt_lim (fun r => c_fun ?e _ _) _ _ => apply Sh with (c_bias e) end.
  - rewrite rv2_rate.
    apply derive_ext with (fun r => speed_value c (x r, y r, 0) (vx r, vy r, 0)); [intros r; symmetry; apply rv2_value|].
    exact (speed_derive c x y (fun _ => 0) vx vy (fun _ => 0) ax ay (fun _ => 0) t Mx My Mz Ax Ay Mz).
  - rewrite (lim_rate _ 2 [x t; y t; vx t; vy t] (vx t) [vx t; vy t; ax t; ay t] (ax t) eq_refl eq_refl eq_refl).
    apply derive_ext with (fun r => d_x_limit c * d_x_limit c - vx r * vx r);
      [intros r; symmetry; apply (lim_value _ 2 [x r; y r; vx r; vy r]); reflexivity|].
    apply lim_derive; exact Ax.
  - rewrite (lim_rate _ 3 [x t; y t; vx t; vy t] (vy t) [vx t; vy t; ax t; ay t] (ay t) eq_refl eq_refl eq_refl).
    apply derive_ext with (fun r => d_y_limit c * d_y_limit c - vy r * vy r);
      [intros r; symmetry; apply (lim_value _ 3 [x r; y r; vx r; vy r]); reflexivity|].
    apply lim_derive; exact Ay.
Qed.
