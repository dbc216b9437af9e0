(** Lemmas for PropertiesInsp.v: the gradient of the maximum distance constraint on the x axis,
    and the other constraints in the state used there. *)
From Coq Require Import String Reals List Bool ZArith Lia Lra.
From Verif Require Import Prelude Vec ModelBase ModelAsif ModelConstraint ModelCwh ModelConic ModelZoo ModelInsp.
From Verif Require Import SpecConstraint SpecCwh SpecConic SpecZoo SpecTable SpecAsif.
From Verif Require Import ProofsConstraint ProofsCwh ProofsCwh3 ProofsZoo ProofsTable.
Import ListNotations.
Local Open Scope R_scope.

Lemma norm_arr3 x y z : norm [x; y; z] = sqrt (x * x + y * y + z * z).
Proof. apply norm3. Qed.

(** The value near the x axis, inside the range. *)
Lemma range_value x y z vx vy vz rest R0 a :
  max_distance_value (x :: y :: z :: vx :: vy :: vz :: rest) (mkDist R0 a) =
  let l := sqrt (x * x + y * y + z * z) in
  (if Rleb l R0 then sqrt (2 * a * (R0 - l)) else - sqrt (2 * a * (- R0 + l))) - (x * vx + y * vy + z * vz) / l.
Proof.
  unfold max_distance_value, slice. cbn [firstn skipn Nat.sub dp_radius dp_amax].
  rewrite norm_arr3. cbv zeta. cbn [dot].
  replace (x * vx + (y * vy + (z * vz + 0))) with (x * vx + y * vy + z * vz) by ring.
  destruct (Rleb _ _); reflexivity.
Qed.

(** Functions that agree near the point have the same derivative. *)
Lemma limit_near f g t l e : 0 < e -> (forall r, Rabs (r - t) < e -> f r = g r) -> derivable_pt_lim g t l -> derivable_pt_lim f t l.
Proof.
  intros He E D eps H. destruct (D eps H) as (d & K).
  assert (Q : 0 < Rmin d e) by (apply Rmin_pos; [apply cond_pos|exact He]).
  exists (mkposreal _ Q). intros h Nh Hh. cbn in Hh.
  rewrite (E (t + h)), (E t).
  - apply K; auto. eapply Rlt_le_trans; [exact Hh|apply Rmin_l].
  - replace (t - t) with 0 by ring. rewrite Rabs_R0. exact He.
  - replace (t + h - t) with h by ring. eapply Rlt_le_trans; [exact Hh|apply Rmin_r].
Qed.

Section Range.
Variables (r vx vy vz w1 w2 R0 a : R).
Hypothesis (Hr : 0 < r < R0) (Ha : 0 < a).
Let q := sqrt (2 * a * (R0 - r)).
Let F := fun s => max_distance_value s (mkDist R0 a).

Lemma q_pos : 0 < q.
Proof. apply sqrt_lt_R0. nra. Qed.
Lemma side_length e t : sqrt (r * r + 0 * 0 + 0 * 0) = r /\ (e = 0 -> sqrt (t * t + r * r + e) = sqrt (t * t + r * r)).
Proof.
  split; [|intros ->; f_equal; ring]. replace (r * r + 0 * 0 + 0 * 0) with (r * r) by ring. apply sqrt_square; lra.
Qed.
Lemma zero_length : sqrt (0 * 0 + r * r) = r.
Proof. replace (0 * 0 + r * r) with (r * r) by ring. apply sqrt_square; lra. Qed.

(** Sideways: the distance does not change to first order. *)
Lemma side_derive w : derivable_pt_lim
  (fun t => sqrt (2 * a * (R0 - sqrt (t * t + r * r))) - (r * vx + t * w) / sqrt (t * t + r * r)) 0 (- (w / r)).
Proof.
  pose proof q_pos as Q.
  assert (L : derivable_pt_lim (fun t => sqrt (t * t + r * r)) 0 0).
  { eapply derive_eq; [apply (sqrt_derive (r * r) 0); nra|]. rewrite zero_length. field; lra. }
  eapply derive_eq.
  - apply (derivable_pt_lim_minus (fun t => sqrt (2 * a * (R0 - sqrt (t * t + r * r)))) (fun t => (r * vx + t * w) / sqrt (t * t + r * r))).
    + apply (derivable_pt_lim_comp (fun t => 2 * a * (R0 - sqrt (t * t + r * r))) sqrt).
      * apply (derivable_pt_lim_scal (fun t => R0 - sqrt (t * t + r * r)) (2 * a)).
        apply (derivable_pt_lim_minus (fun _ => R0) (fun t => sqrt (t * t + r * r))); [apply derivable_pt_lim_const|exact L].
      * apply derivable_pt_lim_sqrt. rewrite zero_length. nra.
    + apply (derivable_pt_lim_div (fun t => r * vx + t * w) (fun t => sqrt (t * t + r * r))).
      * apply (derivable_pt_lim_plus (fun _ => r * vx) (fun t => t * w)); [apply derivable_pt_lim_const|].
        apply (derivable_pt_lim_mult (fun t => t) (fun _ => w)); [apply derivable_pt_lim_id|apply derivable_pt_lim_const].
      * exact L.
      * rewrite zero_length. lra.
  - rewrite zero_length. fold q. unfold Rsqr. field. split; lra.
Qed.
Lemma side_near t : Rabs (t - 0) < R0 - r -> sqrt (t * t + r * r) <= R0.
Proof.
  intros H. rewrite Rminus_0_r in H. rewrite <- (sqrt_square R0) by lra. apply sqrt_le_1_alt.
  assert (t * t = Rabs t * Rabs t) as -> by (fold (Rsqr t) (Rsqr (Rabs t)); apply Rsqr_abs).
  pose proof (Rabs_pos t). nra.
Qed.

Lemma range_gradient :
  is_gradient F [r; 0; 0; vx; vy; vz; w1; w2] [- (a / q); - (vy / r); - (vz / r); - 1; 0; 0; 0; 0].
Proof.
  pose proof q_pos as Q.
  assert (IN : Rleb r R0 = true) by (unfold Rleb; destruct (Rle_dec r R0); [reflexivity|lra]).
  split; [reflexivity|]. intros i Hi.
  destruct i as [|[|[|[|[|[|[|[|i]]]]]]]]; cbn [replaced nth]; [| | | | | | | |simpl in Hi; lia].
  - apply limit_near with (g := fun t => sqrt (2 * a * (R0 - t)) - vx) (e := Rmin r (R0 - r)).
    { apply Rmin_pos; lra. }
    + intros t H. assert (H1 : Rabs (t - r) < r) by (eapply Rlt_le_trans; [exact H|apply Rmin_l]).
      assert (H2 : Rabs (t - r) < R0 - r) by (eapply Rlt_le_trans; [exact H|apply Rmin_r]).
      apply Rabs_def2 in H1. apply Rabs_def2 in H2. unfold F. rewrite range_value. cbv zeta.
      replace (t * t + 0 * 0 + 0 * 0) with (t * t) by ring. rewrite sqrt_square by lra.
      unfold Rleb. destruct (Rle_dec t R0); [|lra]. field. lra.
    + eapply derive_eq.
      * apply (derivable_pt_lim_minus (fun t => sqrt (2 * a * (R0 - t))) (fun _ => vx)); [|apply derivable_pt_lim_const].
        apply (derivable_pt_lim_comp (fun t => 2 * a * (R0 - t)) sqrt).
        -- apply (derivable_pt_lim_scal (fun t => R0 - t) (2 * a)).
           apply (derivable_pt_lim_minus (fun _ => R0) (fun t => t)); [apply derivable_pt_lim_const|apply derivable_pt_lim_id].
        -- apply derivable_pt_lim_sqrt. nra.
      * fold q. field. lra.
  - eapply (limit_near _ _ _ _ (R0 - r)); [lra| |exact (side_derive vy)].
    intros t H. unfold F. rewrite range_value. cbv zeta. pose proof (side_near t H) as N.
    replace (r * r + t * t + 0 * 0) with (t * t + r * r) by ring.
    unfold Rleb. destruct (Rle_dec _ R0); [|lra]. f_equal. f_equal. ring.
  - eapply (limit_near _ _ _ _ (R0 - r)); [lra| |exact (side_derive vz)].
    intros t H. unfold F. rewrite range_value. cbv zeta. pose proof (side_near t H) as N.
    replace (r * r + 0 * 0 + t * t) with (t * t + r * r) by ring.
    unfold Rleb. destruct (Rle_dec _ R0); [|lra]. f_equal. f_equal. ring.
  - eapply (limit_ext _ (fun t => q - t)).
    + intros t. unfold F. rewrite range_value. cbv zeta. rewrite (proj1 (side_length 0 0)), IN. fold q. field. lra.
    + eapply derive_eq; [apply (derivable_pt_lim_minus (fun _ => q) (fun t => t)); [apply derivable_pt_lim_const|apply derivable_pt_lim_id]|ring].
  - eapply (limit_ext _ (fun t => q - vx)); [|apply derivable_pt_lim_const].
    intros t. unfold F. rewrite range_value. cbv zeta. rewrite (proj1 (side_length 0 0)), IN. fold q. field. lra.
  - eapply (limit_ext _ (fun t => q - vx)); [|apply derivable_pt_lim_const].
    intros t. unfold F. rewrite range_value. cbv zeta. rewrite (proj1 (side_length 0 0)), IN. fold q. field. lra.
  - eapply (limit_ext _ (fun t => q - vx)); [|apply derivable_pt_lim_const].
    intros t. unfold F. rewrite range_value. cbv zeta. rewrite (proj1 (side_length 0 0)), IN. fold q. field. lra.
  - eapply (limit_ext _ (fun t => q - vx)); [|apply derivable_pt_lim_const].
    intros t. unfold F. rewrite range_value. cbv zeta. rewrite (proj1 (side_length 0 0)), IN. fold q. field. lra.
Qed.
End Range.

(** ** The sun a right angle away from the position, moving outwards *)
Lemma sun_aside fov a n r vx vy vz : 0 < fov < PI -> 0 < a -> 0 < r -> 0 <= n -> 0 <= vx -> 0 <= vy ->
  exists h, conic_value fov a [r; 0; 0] [vx; vy; vz] (ModelConic.sun_vector (PI / 2)) [0; 0; - n] = Some h /\
  sqrt (2 * a * (r * cos (fov / 2))) <= h.
Proof.
  intros Hf Ha Hr Hn Hx Hy. unfold conic_value, ModelConic.sun_vector. rewrite cos_PI2, sin_PI2.
  set (th := fov / 2). assert (T : 0 < th < PI / 2) by (unfold th; lra).
  assert (C : 0 < cos th) by (apply cos_gt_0; lra). assert (S : 0 < sin th) by (apply sin_gt_0; lra).
  assert (N1 : norm (vneg [0; 1; 0]) = 1).
  { unfold vneg; cbn [map]. rewrite norm_arr3. replace (- 0 * - 0 + - (1) * - (1) + - 0 * - 0) with 1 by ring. apply sqrt_1. }
  rewrite N1. cbv zeta. unfold vneg, vdiv; cbn [map].
  assert (Nr : norm [r; 0; 0] = r).
  { rewrite norm_arr3. replace (r * r + 0 * 0 + 0 * 0) with (r * r) by ring. apply sqrt_square; lra. }
  rewrite Nr. unfold vscale, vsub, vadd; cbn [map map2 dot].
  assert (D0 : r * (- 0 / 1) + (0 * (- (1) / 1) + (0 * (- 0 / 1) + 0)) = 0) by field.
  rewrite D0.
  assert (Np : norm [r - 0 * (- 0 / 1); 0 - 0 * (- (1) / 1); 0 - 0 * (- 0 / 1)] = r).
  { rewrite norm_arr3. replace ((r - 0 * (- 0 / 1)) * (r - 0 * (- 0 / 1)) + (0 - 0 * (- (1) / 1)) * (0 - 0 * (- (1) / 1)) + (0 - 0 * (- 0 / 1)) * (0 - 0 * (- 0 / 1))) with (r * r) by field.
    apply sqrt_square; lra. }
  rewrite Np.
  assert (A0 : - 0 / 1 * (r / r) + (- (1) / 1 * (0 / r) + (- 0 / 1 * (0 / r) + 0)) = 0) by (field; lra).
  rewrite A0, acos_0.
  assert (M : sin (PI / 2 - th) = cos th) by (apply sin_shift). rewrite M.
  destruct (Req_EM_T 1 0); [lra|]. destruct (Req_EM_T r 0); [lra|].
  assert (Mp : 0 < r * cos th) by nra. destruct (Req_EM_T (r * cos th) 0); [lra|].
  eexists. split; [reflexivity|]. unfold conic_branch, Rleb. destruct (Rle_dec 0 (r * cos th)); [|lra].
  cbn [cross dot map2]. rewrite !Rmult_0_r, Rminus_0_r.
  match goal with |- _ <= _ + ?e / _ => assert (E : 0 <= e) end.
  { set (g := cos th * r).
    match goal with |- 0 <= ?e => replace e with
      ((g * cos th) * (vx + n * (g * sin th)) + (g * sin th) * (vy + n * (r - g * cos th))) end.
    - assert (G : 0 < g) by (unfold g; nra).
      assert (0 <= g * cos th) by nra. assert (0 <= g * sin th) by nra.
      assert (0 <= r - g * cos th). { unfold g. assert (cos th * cos th <= 1) by (pose proof (COS_bound th); nra). nra. }
      apply Rplus_le_le_0_compat; apply Rmult_le_pos; auto; nra.
    - unfold g. field. lra. }
  assert (0 <= / (r * cos th)) by (apply Rlt_le, Rinv_0_lt_compat; exact Mp).
  unfold Rdiv at 1. match goal with |- _ <= _ + ?e => assert (0 <= e) by (apply Rmult_le_pos; assumption) end. lra.
Qed.

(** Drifting from the x axis outwards, the deputy stays beyond its radius for 100 seconds. *)
Lemma drift_outwards n radius r vx vy vz : 0 < n <= 2 / 1000 -> radius <= r -> 0 < r -> 0 <= vx -> 0 <= vy ->
  drifts_clear n radius (pt r 0 0) (pt vx vy vz).
Proof.
  intros Hn HR Hr Hx Hy x y z ux uy uz M E E' k Hk. injection E as E1 E2 E3. injection E' as E4 E5 E6.
  destruct (free_motion_drift n 1 x y z ux uy uz (INR k) ltac:(lra) M) as (X & _ & _).
  rewrite E1, E4, E5 in X.
  assert (K : 0 <= INR k <= 100).
  { split; [apply pos_INR|]. replace 100 with (INR 100) by (cbn; lra). apply le_INR; lia. }
  assert (B : 0 <= n * INR k <= 1) by nra.
  assert (S : 0 <= sin (n * INR k)) by (apply sin_ge_0; pose proof PI_RGT_0; pose proof PI2_1; lra).
  pose proof (COS_bound (n * INR k)) as C.
  assert (L : r <= x (INR k)).
  { rewrite X. unfold sol_x.
    match goal with |- _ <= ?e => replace e with
      (r + 3 * (1 - cos (n * INR k)) * r + vx * sin (n * INR k) / n + 2 * vy * (1 - cos (n * INR k)) / n) by (field; lra) end.
    assert (0 <= vx * sin (n * INR k) / n) by (apply Rmult_le_pos; [nra|apply Rlt_le, Rinv_0_lt_compat; lra]).
    assert (0 <= 2 * vy * (1 - cos (n * INR k)) / n) by (apply Rmult_le_pos; [nra|apply Rlt_le, Rinv_0_lt_compat; lra]).
    nra. }
  apply Rle_trans with (x (INR k)); [lra|]. unfold plen, pdot, pt.
  rewrite <- (sqrt_square (x (INR k))) at 1 by lra. apply sqrt_le_1_alt. nra.
Qed.

(** ** The collision constraint *)
Lemma keep_value x y z vx vy vz rest R0 a :
  keep_out_value 2 (slice 0 3 (x :: y :: z :: vx :: vy :: vz :: rest)) (slice 3 6 (x :: y :: z :: vx :: vy :: vz :: rest)) (mkDist R0 a) =
  let l := sqrt (x * x + y * y + z * z) in
  (if Rleb R0 l then sqrt (2 * a * (l - R0)) else - sqrt (2 * a * (- l + R0))) + (x * vx + y * vy + z * vz) / l.
Proof.
  unfold keep_out_value, slice. cbn [firstn skipn Nat.sub dp_radius dp_amax].
  rewrite norm_arr3. cbv zeta. cbn [dot].
  replace (x * vx + (y * vy + (z * vz + 0))) with (x * vx + y * vy + z * vz) by ring.
  destruct (Rleb _ _); reflexivity.
Qed.

Lemma far_near b x t R0 : 0 <= b -> 0 < R0 < sqrt (x * x + b) -> Rabs (t - x) < sqrt (x * x + b) - R0 -> R0 <= sqrt (t * t + b).
Proof.
  intros Hb Hl H. set (l := sqrt (x * x + b)) in *. assert (E : l * l = x * x + b) by (apply sqrt_sqrt; nra).
  rewrite <- (sqrt_square R0) by lra. apply sqrt_le_1_alt.
  assert (A : Rabs x <= l). { unfold l. rewrite <- sqrt_Rsqr_abs. apply sqrt_le_1_alt. unfold Rsqr. lra. }
  assert (P : - (l * Rabs (t - x)) <= x * (t - x)).
  { assert (Q : Rabs (x * (t - x)) <= l * Rabs (t - x)) by (rewrite Rabs_mult; apply Rmult_le_compat_r; [apply Rabs_pos|exact A]).
    pose proof (Rle_abs (- (x * (t - x)))) as W. rewrite Rabs_Ropp in W. lra. }
  assert (S : (t - x) * (t - x) = Rabs (t - x) * Rabs (t - x)) by (fold (Rsqr (t - x)) (Rsqr (Rabs (t - x))); apply Rsqr_abs).
  pose proof (Rabs_pos (t - x)). set (d := Rabs (t - x)) in *. nra.
Qed.

Lemma keep_derive b w k R0 a x : 0 <= b -> 0 < R0 < sqrt (x * x + b) -> 0 < a ->
  derivable_pt_lim (fun t => sqrt (2 * a * (sqrt (t * t + b) - R0)) + (t * w + k) / sqrt (t * t + b)) x
    (a / sqrt (2 * a * (sqrt (x * x + b) - R0)) * (x / sqrt (x * x + b)) + w / sqrt (x * x + b)
     - (x * w + k) * x / (sqrt (x * x + b) * sqrt (x * x + b) * sqrt (x * x + b))).
Proof.
  intros Hb Hl Ha. set (l := sqrt (x * x + b)) in *.
  assert (X : 0 < x * x + b).
  { destruct (Rlt_le_dec 0 (x * x + b)) as [H|H]; [exact H|]. unfold l in Hl. rewrite (sqrt_neg_0 _ H) in Hl. lra. }
  assert (Q : 0 < sqrt (2 * a * (l - R0))) by (apply sqrt_lt_R0; nra).
  pose proof (sqrt_derive b x X) as L. fold l in L.
  eapply derive_eq.
  - apply (derivable_pt_lim_plus (fun t => sqrt (2 * a * (sqrt (t * t + b) - R0))) (fun t => (t * w + k) / sqrt (t * t + b))).
    + apply (derivable_pt_lim_comp (fun t => 2 * a * (sqrt (t * t + b) - R0)) sqrt).
      * apply (derivable_pt_lim_scal (fun t => sqrt (t * t + b) - R0) (2 * a)).
        apply (derivable_pt_lim_minus (fun t => sqrt (t * t + b)) (fun _ => R0)); [exact L|apply derivable_pt_lim_const].
      * apply derivable_pt_lim_sqrt. fold l. nra.
    + apply (derivable_pt_lim_div (fun t => t * w + k) (fun t => sqrt (t * t + b))).
      * apply (derivable_pt_lim_plus (fun t => t * w) (fun _ => k)); [|apply derivable_pt_lim_const].
        apply (derivable_pt_lim_mult (fun t => t) (fun _ => w)); [apply derivable_pt_lim_id|apply derivable_pt_lim_const].
      * exact L.
      * fold l. lra.
  - fold l. unfold Rsqr. field. split; lra.
Qed.

Section Keep.
Variables (x y z vx vy vz w1 w2 R0 a : R).
Let l := sqrt (x * x + y * y + z * z).
Hypothesis (Hl : 0 < R0 < l) (Ha : 0 < a).
Let q := sqrt (2 * a * (l - R0)).
Let s := x * vx + y * vy + z * vz.
Let G (e w : R) := a / q * (e / l) + w / l - s * e / (l * l * l).
Lemma collision_gradient :
  is_gradient (fun st => keep_out_value 2 (slice 0 3 st) (slice 3 6 st) (mkDist R0 a)) [x; y; z; vx; vy; vz; w1; w2]
    [G x vx; G y vy; G z vz; x / l; y / l; z / l; 0; 0].
Proof.
  assert (IN : Rleb R0 l = true) by (unfold Rleb; destruct (Rle_dec R0 l); [reflexivity|lra]).
  split; [reflexivity|]. intros i Hi.
  destruct i as [|[|[|[|[|[|[|[|i]]]]]]]]; cbn [replaced nth]; [| | | | | | | |simpl in Hi; lia].
  - assert (E : sqrt (x * x + (y * y + z * z)) = l) by (unfold l; f_equal; ring).
    apply limit_near with (g := fun t => sqrt (2 * a * (sqrt (t * t + (y * y + z * z)) - R0)) + (t * vx + (y * vy + z * vz)) / sqrt (t * t + (y * y + z * z)))
      (e := l - R0); [lra| |].
    + intros t H. rewrite keep_value. cbv zeta. replace (t * t + y * y + z * z) with (t * t + (y * y + z * z)) by ring.
      replace (t * vx + y * vy + z * vz) with (t * vx + (y * vy + z * vz)) by ring.
      pose proof (far_near (y * y + z * z) x t R0 ltac:(nra) ltac:(rewrite E; exact Hl) ltac:(rewrite E; exact H)) as N.
      unfold Rleb. destruct (Rle_dec R0 _); [reflexivity|lra].
    + eapply derive_eq; [apply keep_derive; [nra|rewrite E; exact Hl|exact Ha]|].
      rewrite E. unfold G. fold q. f_equal. unfold s. f_equal. ring.
  - assert (E : sqrt (y * y + (x * x + z * z)) = l) by (unfold l; f_equal; ring).
    apply limit_near with (g := fun t => sqrt (2 * a * (sqrt (t * t + (x * x + z * z)) - R0)) + (t * vy + (x * vx + z * vz)) / sqrt (t * t + (x * x + z * z)))
      (e := l - R0); [lra| |].
    + intros t H. rewrite keep_value. cbv zeta. replace (x * x + t * t + z * z) with (t * t + (x * x + z * z)) by ring.
      replace (x * vx + t * vy + z * vz) with (t * vy + (x * vx + z * vz)) by ring.
      pose proof (far_near (x * x + z * z) y t R0 ltac:(nra) ltac:(rewrite E; exact Hl) ltac:(rewrite E; exact H)) as N.
      unfold Rleb. destruct (Rle_dec R0 _); [reflexivity|lra].
    + eapply derive_eq; [apply keep_derive; [nra|rewrite E; exact Hl|exact Ha]|].
      rewrite E. unfold G. fold q. f_equal. unfold s. f_equal. ring.
  - assert (E : sqrt (z * z + (x * x + y * y)) = l) by (unfold l; f_equal; ring).
    apply limit_near with (g := fun t => sqrt (2 * a * (sqrt (t * t + (x * x + y * y)) - R0)) + (t * vz + (x * vx + y * vy)) / sqrt (t * t + (x * x + y * y)))
      (e := l - R0); [lra| |].
    + intros t H. rewrite keep_value. cbv zeta. replace (x * x + y * y + t * t) with (t * t + (x * x + y * y)) by ring.
      replace (x * vx + y * vy + t * vz) with (t * vz + (x * vx + y * vy)) by ring.
      pose proof (far_near (x * x + y * y) z t R0 ltac:(nra) ltac:(rewrite E; exact Hl) ltac:(rewrite E; exact H)) as N.
      unfold Rleb. destruct (Rle_dec R0 _); [reflexivity|lra].
    + eapply derive_eq; [apply keep_derive; [nra|rewrite E; exact Hl|exact Ha]|].
      rewrite E. unfold G. fold q. f_equal. unfold s. f_equal. ring.
  - eapply (limit_ext _ (fun t => q + (t * x + (y * vy + z * vz)) * / l)).
    + intros t. rewrite keep_value. cbv zeta. fold l. rewrite IN. fold q. unfold Rdiv. ring.
    + eapply derive_eq; [apply (derivable_pt_lim_plus (fun _ => q) (fun t => (t * x + (y * vy + z * vz)) * / l)); [apply derivable_pt_lim_const|]|].
      * apply (derivable_pt_lim_mult (fun t => t * x + (y * vy + z * vz)) (fun _ => / l)); [|apply derivable_pt_lim_const].
        apply (derivable_pt_lim_plus (fun t => t * x) (fun _ => y * vy + z * vz)); [|apply derivable_pt_lim_const].
        apply (derivable_pt_lim_mult (fun t => t) (fun _ => x)); [apply derivable_pt_lim_id|apply derivable_pt_lim_const].
      * unfold Rdiv. ring.
  - eapply (limit_ext _ (fun t => q + (t * y + (x * vx + z * vz)) * / l)).
    + intros t. rewrite keep_value. cbv zeta. fold l. rewrite IN. fold q. unfold Rdiv. ring.
    + eapply derive_eq; [apply (derivable_pt_lim_plus (fun _ => q) (fun t => (t * y + (x * vx + z * vz)) * / l)); [apply derivable_pt_lim_const|]|].
      * apply (derivable_pt_lim_mult (fun t => t * y + (x * vx + z * vz)) (fun _ => / l)); [|apply derivable_pt_lim_const].
        apply (derivable_pt_lim_plus (fun t => t * y) (fun _ => x * vx + z * vz)); [|apply derivable_pt_lim_const].
        apply (derivable_pt_lim_mult (fun t => t) (fun _ => y)); [apply derivable_pt_lim_id|apply derivable_pt_lim_const].
      * unfold Rdiv. ring.
  - eapply (limit_ext _ (fun t => q + (t * z + (x * vx + y * vy)) * / l)).
    + intros t. rewrite keep_value. cbv zeta. fold l. rewrite IN. fold q. unfold Rdiv. ring.
    + eapply derive_eq; [apply (derivable_pt_lim_plus (fun _ => q) (fun t => (t * z + (x * vx + y * vy)) * / l)); [apply derivable_pt_lim_const|]|].
      * apply (derivable_pt_lim_mult (fun t => t * z + (x * vx + y * vy)) (fun _ => / l)); [|apply derivable_pt_lim_const].
        apply (derivable_pt_lim_plus (fun t => t * z) (fun _ => x * vx + y * vy)); [|apply derivable_pt_lim_const].
        apply (derivable_pt_lim_mult (fun t => t) (fun _ => z)); [apply derivable_pt_lim_id|apply derivable_pt_lim_const].
      * unfold Rdiv. ring.
  - eapply (limit_ext _ (fun t => q + s / l)); [|apply derivable_pt_lim_const].
    intros t. rewrite keep_value. cbv zeta. fold l. rewrite IN. fold q. reflexivity.
  - eapply (limit_ext _ (fun t => q + s / l)); [|apply derivable_pt_lim_const].
    intros t. rewrite keep_value. cbv zeta. fold l. rewrite IN. fold q. reflexivity.
Qed.
End Keep.

(** Full thrust away from the chief, in each axis. *)
Definition sg (t : R) : R := if Rle_dec 0 t then 1 else -1.
Lemma sg_abs t : sg t * t = Rabs t.
Proof. unfold sg. destruct (Rle_dec 0 t); [rewrite Rabs_pos_eq|rewrite Rabs_left]; lra. Qed.
Lemma sg_unit t : -1 <= sg t <= 1.
Proof. unfold sg. destruct (Rle_dec 0 t); lra. Qed.

(** The acceleration away from the chief is at least the braking acceleration. *)
Lemma away_acc m n x y z vx vy rmax lim sp :
  let l := sqrt (x * x + y * y + z * z) in
  0 < m -> 0 <= n -> 0 < l <= rmax ->
  Rabs vx <= lim -> Rabs vy <= lim -> sqrt (vx * vx + vy * vy) <= sp ->
  0 < 1 / m - 3 * (n * n) * rmax - 2 * n * Rmin lim sp ->
  1 / m - 3 * (n * n) * rmax - 2 * n * Rmin lim sp <=
  x / l * (3 * (n * n) * x + 2 * n * vy + 1 / m * sg x) + y / l * (- 2 * n * vx + 1 / m * sg y) + z / l * (- (n * n) * z + 1 / m * sg z).
Proof.
  intros l Hm Hn Hl Hx Hy Hs Ha.
  assert (LL : l * l = x * x + y * y + z * z) by (apply sqrt_sqrt; nra).
  set (S := Rabs x + Rabs y + Rabs z).
  pose proof (Rabs_pos x) as Px. pose proof (Rabs_pos y) as Py. pose proof (Rabs_pos z) as Pz.
  assert (Sx : Rabs x * Rabs x = x * x) by (symmetry; fold (Rsqr x) (Rsqr (Rabs x)); apply Rsqr_abs).
  assert (Sy : Rabs y * Rabs y = y * y) by (symmetry; fold (Rsqr y) (Rsqr (Rabs y)); apply Rsqr_abs).
  assert (Sz : Rabs z * Rabs z = z * z) by (symmetry; fold (Rsqr z) (Rsqr (Rabs z)); apply Rsqr_abs).
  assert (SL : l <= S) by (unfold S; nra).
  assert (IM : 0 < 1 / m) by (apply Rdiv_lt_0_compat; lra).
  (* Coriolis *)
  assert (C1 : - (lim * S) <= vy * x - vx * y).
  { assert (Rabs (vy * x) <= lim * Rabs x) by (rewrite Rabs_mult; apply Rmult_le_compat_r; assumption).
    assert (Rabs (vx * y) <= lim * Rabs y) by (rewrite Rabs_mult; apply Rmult_le_compat_r; assumption).
    assert (0 <= lim) by (pose proof (Rabs_pos vx); lra). assert (0 <= lim * Rabs z) by nra.
    pose proof (Rle_abs (- (vy * x))) as W1. rewrite Rabs_Ropp in W1. pose proof (Rle_abs (vx * y)). unfold S. nra. }
  assert (SP0 : 0 <= sp) by (pose proof (sqrt_pos (vx * vx + vy * vy)); lra).
  assert (C2 : - (sp * l) <= vy * x - vx * y).
  { set (vv := sqrt (vx * vx + vy * vy)) in *. assert (VV : vv * vv = vx * vx + vy * vy) by (apply sqrt_sqrt; nra).
    assert (V0 : 0 <= vv) by apply sqrt_pos.
    destruct (Rle_lt_dec (- (sp * l)) (vy * x - vx * y)) as [H|H]; [exact H|exfalso].
    assert (B : (vy * x - vx * y) * (vy * x - vx * y) <= (vv * vv) * (l * l)).
    { rewrite VV, LL. pose proof (Rle_0_sqr (vx * x + vy * y)) as U1. pose proof (Rle_0_sqr vx) as U2. pose proof (Rle_0_sqr vy) as U3.
      pose proof (Rle_0_sqr z) as U4. unfold Rsqr in *. assert (U5 : 0 <= (vx * vx + vy * vy) * (z * z)) by (apply Rmult_le_pos; lra). lra. }
    assert (vv * l <= sp * l) by (apply Rmult_le_compat_r; lra). assert (0 <= vv * l) by nra. nra. }
  assert (T : x / l * (3 * (n * n) * x + 2 * n * vy + 1 / m * sg x) + y / l * (- 2 * n * vx + 1 / m * sg y) + z / l * (- (n * n) * z + 1 / m * sg z)
    = ((n * n) * (3 * (x * x) - z * z) + 2 * n * (vy * x - vx * y) + 1 / m * S) / l).
  { unfold S. rewrite <- !sg_abs. field. lra. }
  rewrite T. apply Rmult_le_reg_r with l; [lra|].
  replace ((n * n * (3 * (x * x) - z * z) + 2 * n * (vy * x - vx * y) + 1 / m * S) / l * l) with
    (n * n * (3 * (x * x) - z * z) + 2 * n * (vy * x - vx * y) + 1 / m * S) by (field; lra).
  assert (G : - (n * n * (l * rmax)) <= n * n * (3 * (x * x) - z * z)).
  { assert (0 <= n * n) by nra. assert (U : l * l <= l * rmax) by (apply Rmult_le_compat_l; lra).
    assert (0 <= x * x) by nra. assert (0 <= y * y) by nra. assert (W : - (l * rmax) <= 3 * (x * x) - z * z) by lra.
    replace (- (n * n * (l * rmax))) with (n * n * - (l * rmax)) by ring. apply Rmult_le_compat_l; lra. }
  assert (G2 : 0 <= n * n * (l * rmax)) by (assert (0 <= n * n) by nra; assert (0 <= l * rmax) by nra; nra).
  destruct (Rle_dec lim sp) as [D|D].
  - rewrite Rmin_left in * by lra.
    assert (K : 2 * n * - (lim * S) <= 2 * n * (vy * x - vx * y)) by (apply Rmult_le_compat_l; lra).
    assert (Z : (1 / m - 2 * n * lim) * l <= (1 / m - 2 * n * lim) * S).
    { apply Rmult_le_compat_l; [|exact SL]. assert (0 <= 3 * (n * n) * rmax) by (assert (0 <= n * n) by nra; nra). lra. }
    nra.
  - rewrite Rmin_right in * by lra.
    assert (K : 2 * n * - (sp * l) <= 2 * n * (vy * x - vx * y)) by (apply Rmult_le_compat_l; lra).
    assert (1 / m * l <= 1 / m * S) by (apply Rmult_le_compat_l; lra). nra.
Qed.
