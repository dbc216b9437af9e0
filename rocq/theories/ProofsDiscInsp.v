(** Lemmas for PropertiesDiscInsp.v. *)
From Coq Require Import String Reals List Bool ZArith Lia Lra.
From Verif Require Import Prelude Vec ModelBase ModelAsif ModelConstraint ModelCwh ModelZoo ModelDiscrete ModelDiscInsp.
From Verif Require Import SpecCore SpecAsif SpecCwh SpecDiscrete SpecDiscInsp.
From Verif Require Import ProofsVec ProofsCwh ProofsCwh2 ProofsInsp ProofsDock ProofsDiscrete PropertiesDiscrete.
Import ListNotations.
Local Open Scope R_scope.

(** A cubic strengthening function is gentle on levels between [lo] and [H]. *)
Lemma cubic_gentle a b lo H tol dt l : 0 < a -> 0 <= b -> 0 < dt -> 0 <= tol -> tol <= a * - lo ->
  dt * (a + b * H ^ 2) <= 1 -> dt * (a + b * lo ^ 2) <= 1 -> lo <= l <= H ->
  dt * (a * l + b * l ^ 3 + tol) <= l - lo.
Proof.
  intros Ha Hb Hd Ht Hl H1 H2 [L1 L2].
  assert (N : 0 <= - lo) by nra.
  assert (D : dt * a <= 1). { assert (0 <= b * H ^ 2) by (apply Rmult_le_pos; [lra|apply pow2_ge_0]). nra. }
  assert (T : dt * tol <= dt * a * - lo) by nra.
  destruct (Rle_lt_dec 0 l) as [P|P].
  - assert (K : dt * (a + b * l ^ 2) <= 1).
    { assert (l ^ 2 <= H ^ 2) by nra. assert (b * l ^ 2 <= b * H ^ 2) by nra. nra. }
    replace (dt * (a * l + b * l ^ 3 + tol)) with (dt * (a + b * l ^ 2) * l + dt * tol) by ring.
    assert (dt * (a + b * l ^ 2) * l <= 1 * l) by (apply Rmult_le_compat_r; lra). nra.
  - assert (K : dt * (a + b * l ^ 2) <= 1).
    { assert (l ^ 2 <= lo ^ 2) by nra. assert (b * l ^ 2 <= b * lo ^ 2) by nra. nra. }
    assert (Q : 0 <= b * l ^ 2) by (apply Rmult_le_pos; [lra|apply pow2_ge_0]).
    replace (dt * (a * l + b * l ^ 3 + tol)) with (dt * (a + b * l ^ 2) * l + dt * tol) by ring.
    set (k := dt * (a + b * l ^ 2)) in *.
    assert (k >= dt * a) by (unfold k; nra).
    assert ((1 - k) * lo <= (1 - k) * l) by (apply Rmult_le_compat_l; lra).
    assert (dt * a * - lo <= k * - lo) by (apply Rmult_le_compat_r; lra). lra.
Qed.

Lemma cubic a b l : polynomial (Some [0; a; 0; b]) l = a * l + b * l ^ 3.
Proof. unfold polynomial; cbn [poly_loop]. ring. Qed.

Lemma next_length n m sv x dt u : length (discrete_next n m sv x dt u) = 8%nat.
Proof. reflexivity. Qed.

Lemma loop_lengths {P} (c : insp_cfg) eps exc solve dt : forall (s : dmod vec P) x xs,
  disc_loop (discrete_inspection c eps exc solve) dt s x xs -> Forall (fun y => length y = 8%nat) xs.
Proof.
  intros s x xs L; induction L as [|s x u w s' xs Hu Hf Hw L IH]; constructor; auto; apply next_length.
Qed.

Lemma flown_of (s : vec) : length s = 8%nat -> flown s (fun _ _ _ _ _ _ => True).
Proof.
  intros H. destruct s as [|a [|b [|d [|e [|f [|g [|h [|i [|j s]]]]]]]]]; try discriminate.
  exists a, b, d, e, f, g, h, i; auto.
Qed.
Lemma flown_eq x y z vx vy vz sun used Q : flown [x; y; z; vx; vy; vz; sun; used] Q <-> Q x y z vx vy vz.
Proof.
  split.
  - intros (x' & y' & z' & vx' & vy' & vz' & a & b & E & H). injection E as -> -> -> -> -> -> _ _. exact H.
  - intros H. exists x, y, z, vx, vy, vz, sun, used; auto.
Qed.

(** ** The constraints as formulas *)
Section Formulas.
Variables (nan : R) (c : insp_cfg) (x y z vx vy vz sun used : R).
Let s := [x; y; z; vx; vy; vz; sun; used].
Let d := length3 x y z.
Let L := i_vel_limit c.

Definition clear_c := wrap ZDist as_dist (chief_collision (i_chief c + i_deputy c) (i_a_max c) None kw_default).
Definition pace_c := wrap ZRv as_rv
      (rel_vel_3d (i_v0 c) (i_v1 c) (i_v0_distance c) rv_delta
         (Some (polynomial (Some [0; 1 / 100; 0; 1 / 1000]))) (with_bias (- (1 / 1000)))).
Definition far_c := wrap ZDist as_dist (max_distance (i_r_max c) (i_a_max c)
      (Some (polynomial (Some [0; 1 / 1000; 0; 1 / 1000]))) (with_bias (- (1 / 1000)))).
Definition axis_c (i : Z) := wrap ZLimit as_limit
    (magnitude_limit (i_vel_limit c) i (Some (polynomial (Some [0; 1 / 10; 0; 1 / 100]))) (with_bias (- (1 / 1000)))).

Lemma members : In ("chief_collision"%string, clear_c) (discrete_inspection_constraints nan c) /\
  In ("rel_vel"%string, pace_c) (discrete_inspection_constraints nan c) /\
  In ("r_max"%string, far_c) (discrete_inspection_constraints nan c) /\
  In ("x_vel"%string, axis_c 3) (discrete_inspection_constraints nan c) /\
  In ("y_vel"%string, axis_c 4) (discrete_inspection_constraints nan c) /\
  In ("z_vel"%string, axis_c 5) (discrete_inspection_constraints nan c).
Proof. unfold discrete_inspection_constraints, vel_constraints. cbn. tauto. Qed.

Lemma stopping_if a r : (if Rleb 0 r then sqrt (2 * a * r) else - sqrt (2 * a * - r)) = stopping_speed a r.
Proof. unfold stopping_speed, Rleb. destruct (Rle_dec 0 r); reflexivity. Qed.

Lemma far_level : level far_c s = stopping_speed (i_a_max c) (i_r_max c - d) - closing x y z vx vy vz - 1 / 1000.
Proof.
  unfold level, far_c, wrap, max_distance, new_constraint, with_bias. cbn [c_fun c_params c_bias as_dist kw_bias].
  unfold s. rewrite range_value. cbv zeta. fold (length3 x y z). fold d. fold (closing x y z vx vy vz).
  rewrite <- stopping_if. unfold Rleb. destruct (Rle_dec d (i_r_max c)), (Rle_dec 0 (i_r_max c - d)); try lra.
  - unfold closing. fold d. lra.
  - replace (- i_r_max c + d) with (- (i_r_max c - d)) by ring. unfold closing. fold d. lra.
Qed.
Lemma clear_level : level clear_c s = stopping_speed (i_a_max c) (d - (i_chief c + i_deputy c)) + closing x y z vx vy vz.
Proof.
  unfold level, clear_c, wrap, chief_collision, new_constraint, kw_default. cbn [c_fun c_params c_bias as_dist kw_bias].
  unfold s. rewrite keep_value. cbv zeta. fold (length3 x y z). fold d.
  rewrite <- stopping_if. set (r := i_chief c + i_deputy c). unfold Rleb. destruct (Rle_dec r d), (Rle_dec 0 (d - r)); try lra.
  - unfold closing. fold d. lra.
  - replace (- d + r) with (- (d - r)) by ring. unfold closing. fold d. lra.
Qed.
Lemma pace_level : level pace_c s = i_v0 c + i_v1 c * (sqrt (x * x + y * y + z * z + rv_delta) - i_v0_distance c)
  - sqrt (vx * vx + vy * vy + vz * vz + rv_delta) - 1 / 1000.
Proof.
  unfold level, pace_c, wrap, rel_vel_3d, new_constraint, with_bias. cbn [c_fun c_params c_bias as_rv kw_bias].
  unfold s. change (rel_vel_value 3 rv_delta [x; y; z; vx; vy; vz; sun; used]) with (rel_vel_value 3 rv_delta [x; y; z; vx; vy; vz]).
  rewrite rel_vel_3. lra.
Qed.
Lemma axis_level : level (axis_c 3) s = L ^ 2 - vx ^ 2 - 1 / 1000 /\ level (axis_c 4) s = L ^ 2 - vy ^ 2 - 1 / 1000 /\
  level (axis_c 5) s = L ^ 2 - vz ^ 2 - 1 / 1000.
Proof.
  unfold level, axis_c, wrap, magnitude_limit, new_constraint, with_bias. cbn [c_fun c_params c_bias as_limit kw_bias].
  unfold s. cbn [jax_get]. repeat split; unfold jax_get, jax_index; cbn; unfold L; lra.
Qed.

Lemma far_decay l : decay far_c l = 1 / 1000 * l + 1 / 1000 * l ^ 3.
Proof. unfold decay, far_c, wrap, max_distance, new_constraint. cbn [c_alpha dist_alpha]. apply cubic. Qed.
Lemma clear_decay l : decay clear_c l = 1 / 100 * l + 1 / 1000 * l ^ 3.
Proof. unfold decay, clear_c, wrap, chief_collision, new_constraint. cbn [c_alpha dist_alpha]. apply cubic. Qed.
Lemma pace_decay l : decay pace_c l = 1 / 100 * l + 1 / 1000 * l ^ 3.
Proof. unfold decay, pace_c, wrap, rel_vel_3d, new_constraint. cbn [c_alpha]. apply cubic. Qed.
Lemma axis_decay i l : decay (axis_c i) l = 1 / 10 * l + 1 / 100 * l ^ 3.
Proof. unfold decay, axis_c, wrap, magnitude_limit, new_constraint. cbn [c_alpha limit_alpha]. apply cubic. Qed.
End Formulas.

(** ** Bounds on the levels *)
Lemma abs_both v l : Rabs v <= l -> - l <= v <= l.
Proof. unfold Rabs; destruct (Rcase_abs v); lra. Qed.
Lemma sqr_abs v l : 0 <= l -> (0 <= l ^ 2 - v ^ 2 <-> Rabs v <= l).
Proof.
  intros H. split; intros K.
  - apply Rabs_le. nra.
  - apply abs_both in K. nra.
Qed.

Lemma closing_bound x y z vx vy vz l : 0 <= l -> Rabs vx <= l -> Rabs vy <= l -> Rabs vz <= l ->
  Rabs (closing x y z vx vy vz) <= 2 * l.
Proof.
  intros Hl A B C. apply sqr_abs in A; auto. apply sqr_abs in B; auto. apply sqr_abs in C; auto.
  assert (V : length3 vx vy vz <= 2 * l).
  { apply le_of_sqr; [lra|]. rewrite length3_sqr. nra. }
  unfold closing. pose proof (cauchy3 x y z vx vy vz) as U. pose proof (cauchy3_low x y z vx vy vz) as W.
  pose proof (length3_pos x y z) as P. set (d := length3 x y z) in *.
  destruct P as [P|P].
  - apply Rabs_le. pose proof (length3_pos vx vy vz). set (v := length3 vx vy vz) in *. set (w := x * vx + y * vy + z * vz) in *.
    split; [apply Rmult_le_reg_r with d|apply Rmult_le_reg_r with d]; auto;
      unfold Rdiv; rewrite Rmult_assoc, Rinv_l by lra; nra.
  - rewrite <- P in *. unfold Rdiv.
    assert (E : x * vx + y * vy + z * vz = 0) by lra. rewrite E, Rmult_0_l, Rabs_R0. lra.
Qed.

Lemma stopping_mono a d e : 0 <= a -> d <= e -> 0 <= e -> stopping_speed a d <= sqrt (2 * a * e).
Proof.
  intros Ha H He. unfold stopping_speed. destruct (Rle_dec 0 d).
  - apply sqrt_le_1_alt. apply Rmult_le_compat_l; lra.
  - pose proof (sqrt_pos (2 * a * - d)). pose proof (sqrt_pos (2 * a * e)). lra.
Qed.

Lemma reach_bound a far d w l : 0 < a -> 0 <= l -> - (2 * l) <= w -> w <= stopping_speed a (far - d) -> d <= far + 2 * l ^ 2 / a.
Proof.
  intros Ha Hl Hw H. unfold stopping_speed in H. destruct (Rle_dec 0 (far - d)).
  - assert (0 <= 2 * l ^ 2 / a) by (apply Rmult_le_pos; [nra|left; apply Rinv_0_lt_compat; exact Ha]). lra.
  - assert (S : sqrt (2 * a * - (far - d)) <= 2 * l) by lra.
    assert (Q : 2 * a * - (far - d) <= (2 * l) * (2 * l)).
    { rewrite <- (sqrt_sqrt (2 * a * - (far - d))) by nra. pose proof (sqrt_pos (2 * a * - (far - d))). nra. }
    assert (E : 2 * l ^ 2 = 2 * l ^ 2 / a * a) by (field; lra). set (q := 2 * l ^ 2 / a) in *.
    apply Rmult_le_reg_l with a; auto. nra.
Qed.

Lemma smooth_bound d2 d : 0 <= d -> d2 = d * d -> sqrt (d2 + rv_delta) <= d + 1.
Proof.
  intros Hd ->. rewrite <- (sqrt_square (d + 1)) by lra. apply sqrt_le_1_alt. unfold rv_delta. nra.
Qed.

(** ** The flight *)
Section Flight.
Variables (nan : R) (c : insp_cfg) (eps : R) (exc : bool) (solve : slsqp) (tol dt : R).
Let cfg := discrete_inspection c eps exc solve.
Variables (s : dmod vec zparams) (x : vec) (xs : list vec).
Hypothesis (QC : slsqp_contract tol solve) (Tol : 0 <= tol <= 1 / 1000000) (Dt : 0 < dt).
Hypothesis (Rch : disc_reached cfg s) (Lo : one_number (b_low (i_bounds c))) (Hi : one_number (b_high (i_bounds c))).
Hypothesis (Cs : forall k d, In (k, d) (disc_constraints s) -> In (k, d) (discrete_inspection_constraints nan c)).
Hypothesis (Used : forall k d, In (k, d) (discrete_inspection_constraints nan c) -> k <> "sun"%string -> k <> "PSM"%string ->
  In (k, d) (disc_constraints s)).
Hypothesis (En : enable s = true).
Hypothesis (Loop : disc_loop cfg dt s x xs) (Len : length x = 8%nat).
Let L := i_vel_limit c.
Let a := i_a_max c.
Let far := i_r_max c.
Hypothesis (HL : 1 / 10 <= L) (Ha : 0 < a) (Hf : 0 <= far) (Hr : 0 <= i_chief c + i_deputy c) (Hv : 0 <= i_v1 c).
Hypothesis (Sh : short_steps L a far (i_v0 c) (i_v1 c) (i_v0_distance c) dt).

Lemma lengths y : In y (x :: xs) -> length y = 8%nat.
Proof.
  intros [<-|H]; auto. pose proof (loop_lengths c eps exc solve dt s x xs Loop) as F.
  rewrite Forall_forall in F; auto.
Qed.
Lemma all_strengthened : strengthened (disc_constraints s).
Proof.
  intros k d H. apply Cs in H. unfold discrete_inspection_constraints, vel_constraints in H. cbn [app In] in H.
  repeat (destruct H as [H|H]; [injection H as <- <-; discriminate|]). destruct H.
Qed.

(** A constraint with a cubic strengthening function keeps a level. *)
Lemma kept k d a0 b0 lo H : In (k, d) (discrete_inspection_constraints nan c) -> k <> "sun"%string -> k <> "PSM"%string -> c_enabled d = true -> c_slack d = None ->
  (forall l, decay d l = a0 * l + b0 * l ^ 3) -> 0 < a0 -> 0 <= b0 -> tol <= a0 * - lo ->
  dt * (a0 + b0 * H ^ 2) <= 1 -> dt * (a0 + b0 * lo ^ 2) <= 1 ->
  (forall y, In y (x :: xs) -> level d y <= H) -> lo <= level d x -> forall y, In y (x :: xs) -> lo <= level d y.
Proof.
  intros Hin K1 K2 He Hs Hd P1 P2 T S1 S2 Hb Hx.
  pose proof (C36_closed_loop _ _ tol cfg dt s x xs QC Rch Lo Hi all_strengthened En Dt Loop k d lo) as F.
  specialize (F (Used k d Hin K1 K2) He Hs).
  assert (G : Forall (fun y => lo <= level d y) xs).
  { apply F; auto. intros y Hy Hl. rewrite Hd. apply cubic_gentle with H; auto; lra. }
  rewrite Forall_forall in G. intros y [<-|Hy]; auto.
Qed.

Lemma dt_ten : dt <= 10.
Proof.
  destruct Sh as [S _ _ _]. assert (0 <= (L ^ 2) ^ 2) by apply pow2_ge_0. nra.
Qed.

Lemma axis_kept i k : In (k, axis_c c i) (discrete_inspection_constraints nan c) -> k <> "sun"%string -> k <> "PSM"%string ->
  (forall y, length y = 8%nat -> level (axis_c c i) y <= L ^ 2) ->
  - (1 / 1000) <= level (axis_c c i) x -> forall y, In y (x :: xs) -> - (1 / 1000) <= level (axis_c c i) y.
Proof.
  intros Hin K1 K2 Hb Hx. pose proof dt_ten as D. destruct Sh as [S _ _ _].
  apply (kept k _ (1 / 10) (1 / 100) _ (L ^ 2)); auto; try lra; try reflexivity.
  - apply axis_decay.
  - assert (1 / 100 <= L ^ 2) by nra. assert ((- (1 / 1000)) ^ 2 <= (L ^ 2) ^ 2) by nra. nra.
  - intros y Hy. apply Hb, lengths, Hy.
Qed.

Theorem axes_kept : axes_slow L x -> forall y, In y (x :: xs) -> axes_slow L y.
Proof.
  intros Hx y Hy. assert (L0 : 0 <= L) by lra.
  destruct (members nan c) as (M4 & M5 & M6 & M1 & M2 & M3).
  assert (B : forall i, (i = 3 \/ i = 4 \/ i = 5)%Z -> forall y, length y = 8%nat -> level (axis_c c i) y <= L ^ 2).
  { intros i Hi2 y' Hl. destruct (flown_of _ Hl) as (px & py & pz & qx & qy & qz & su & us & -> & _).
    destruct (axis_level c px py pz qx qy qz su us) as (E1 & E2 & E3). fold L in E1, E2, E3.
    destruct Hi2 as [->|[->| ->]]; [rewrite E1|rewrite E2|rewrite E3]; nra. }
  assert (X : forall i, (i = 3 \/ i = 4 \/ i = 5)%Z -> - (1 / 1000) <= level (axis_c c i) x).
  { intros i Hi2. destruct (flown_of _ Len) as (px & py & pz & qx & qy & qz & su & us & E & _). rewrite E in *.
    destruct (axis_level c px py pz qx qy qz su us) as (E1 & E2 & E3). fold L in E1, E2, E3.
    apply (proj1 (flown_eq _ _ _ _ _ _ _ _ _)) in Hx. destruct Hx as (X1 & X2 & X3). apply sqr_abs in X1; auto. apply sqr_abs in X2; auto. apply sqr_abs in X3; auto.
    destruct Hi2 as [->|[->| ->]]; [rewrite E1|rewrite E2|rewrite E3]; lra. }
  pose proof (axis_kept 3 _ M1 ltac:(discriminate) ltac:(discriminate) (B 3%Z ltac:(auto)) (X 3%Z ltac:(auto)) y Hy) as K1.
  pose proof (axis_kept 4 _ M2 ltac:(discriminate) ltac:(discriminate) (B 4%Z ltac:(auto)) (X 4%Z ltac:(auto)) y Hy) as K2.
  pose proof (axis_kept 5 _ M3 ltac:(discriminate) ltac:(discriminate) (B 5%Z ltac:(auto)) (X 5%Z ltac:(auto)) y Hy) as K3.
  destruct (flown_of _ (lengths y Hy)) as (px & py & pz & qx & qy & qz & su & us & -> & _).
  destruct (axis_level c px py pz qx qy qz su us) as (E1 & E2 & E3). fold L in E1, E2, E3.
  rewrite E1 in K1. rewrite E2 in K2. rewrite E3 in K3.
  apply (proj2 (flown_eq _ _ _ _ _ _ _ _ _)). repeat split; apply sqr_abs; lra.
Qed.

Lemma speeds : axes_slow L x -> forall px py pz qx qy qz su us, In [px; py; pz; qx; qy; qz; su; us] (x :: xs) ->
  Rabs (closing px py pz qx qy qz) <= 2 * L.
Proof.
  intros Hx px py pz qx qy qz su us Hy. pose proof (axes_kept Hx _ Hy) as A. apply (proj1 (flown_eq _ _ _ _ _ _ _ _ _)) in A.
  destruct A as (A1 & A2 & A3). apply closing_bound; auto; lra.
Qed.

Theorem range_kept : axes_slow L x -> stays_near far a x -> forall y, In y (x :: xs) -> stays_near far a y.
Proof.
  intros Ha0 Hx y Hy. pose proof dt_ten as D. destruct Sh as [_ S _ _].
  destruct (members nan c) as (M0 & M2 & M & M1).
  assert (P : 0 <= sqrt (2 * a * far)) by apply sqrt_pos.
  assert (K : - (1 / 1000) <= level (far_c c) y).
  { apply (kept _ _ (1 / 1000) (1 / 1000) (- (1 / 1000)) (sqrt (2 * a * far) + 2 * L) M ltac:(discriminate) ltac:(discriminate)); auto; try lra.
    - apply far_decay.
    - intros y' Hy'. destruct (flown_of _ (lengths _ Hy')) as (px & py & pz & qx & qy & qz & su & us & -> & _).
      rewrite far_level. fold a far. pose proof (speeds Ha0 _ _ _ _ _ _ _ _ Hy') as V. pose proof (length3_pos px py pz).
      assert (W : stopping_speed a (far - length3 px py pz) <= sqrt (2 * a * far)) by (apply stopping_mono; lra).
      apply abs_both in V. lra.
    - destruct (flown_of _ Len) as (px & py & pz & qx & qy & qz & su & us & E & _). rewrite E in *.
      rewrite far_level. fold a far. apply (proj1 (flown_eq _ _ _ _ _ _ _ _ _)) in Hx. lra. }
  destruct (flown_of _ (lengths y Hy)) as (px & py & pz & qx & qy & qz & su & us & -> & _).
  rewrite far_level in K. fold a far in K. apply (proj2 (flown_eq _ _ _ _ _ _ _ _ _)). lra.
Qed.

Theorem reach_kept : axes_slow L x -> stays_near far a x -> forall y, In y (x :: xs) -> no_farther (far + 2 * L ^ 2 / a) y.
Proof.
  intros Ha0 Hx y Hy. pose proof (range_kept Ha0 Hx y Hy) as K.
  destruct (flown_of _ (lengths y Hy)) as (px & py & pz & qx & qy & qz & su & us & -> & _).
  apply (proj1 (flown_eq _ _ _ _ _ _ _ _ _)) in K. apply (proj2 (flown_eq _ _ _ _ _ _ _ _ _)). pose proof (speeds Ha0 _ _ _ _ _ _ _ _ Hy) as V.
  apply reach_bound with (closing px py pz qx qy qz); auto; [lra|]. apply abs_both in V. lra.
Qed.

Theorem clear_kept : axes_slow L x -> stays_near far a x -> stays_clear (i_chief c + i_deputy c) a (100 * tol) x ->
  forall y, In y (x :: xs) -> stays_clear (i_chief c + i_deputy c) a (100 * tol) y.
Proof.
  intros Ha0 Hn Hx y Hy. pose proof dt_ten as D. destruct Sh as [_ _ S _].
  destruct (members nan c) as (M & _).
  assert (P : 0 <= sqrt (2 * a * far + 4 * L ^ 2)) by apply sqrt_pos.
  assert (K : - (100 * tol) <= level (clear_c c) y).
  { apply (kept _ _ (1 / 100) (1 / 1000) (- (100 * tol)) (sqrt (2 * a * far + 4 * L ^ 2) + 2 * L) M ltac:(discriminate) ltac:(discriminate)); auto; try lra.
    - apply clear_decay.
    - assert ((- (100 * tol)) ^ 2 <= 1) by nra. nra.
    - intros y' Hy'. pose proof (reach_kept Ha0 Hn y' Hy') as Q.
      destruct (flown_of _ (lengths _ Hy')) as (px & py & pz & qx & qy & qz & su & us & -> & _). apply (proj1 (flown_eq _ _ _ _ _ _ _ _ _)) in Q.
      rewrite clear_level. fold a. pose proof (speeds Ha0 _ _ _ _ _ _ _ _ Hy') as V.
      assert (E : 2 * a * far + 4 * L ^ 2 = 2 * a * (far + 2 * L ^ 2 / a)) by (field; lra).
      assert (N : 0 <= 2 * L ^ 2 / a) by (apply Rmult_le_pos; [nra|left; apply Rinv_0_lt_compat; exact Ha]).
      assert (W : stopping_speed a (length3 px py pz - (i_chief c + i_deputy c)) <= sqrt (2 * a * far + 4 * L ^ 2))
        by (rewrite E; apply stopping_mono; lra).
      apply abs_both in V. lra.
    - destruct (flown_of _ Len) as (px & py & pz & qx & qy & qz & su & us & E & _). rewrite E in *.
      rewrite clear_level. fold a. apply (proj1 (flown_eq _ _ _ _ _ _ _ _ _)) in Hx. lra. }
  destruct (flown_of _ (lengths y Hy)) as (px & py & pz & qx & qy & qz & su & us & -> & _).
  rewrite clear_level in K. fold a in K. apply (proj2 (flown_eq _ _ _ _ _ _ _ _ _)). lra.
Qed.

Theorem pace_kept : axes_slow L x -> stays_near far a x -> paced (i_v0 c) (i_v1 c) (i_v0_distance c) rv_delta x ->
  forall y, In y (x :: xs) -> paced (i_v0 c) (i_v1 c) (i_v0_distance c) rv_delta y.
Proof.
  intros Ha0 Hn Hx y Hy. pose proof dt_ten as D. destruct Sh as [_ _ _ S].
  destruct (members nan c) as (M0 & M & M1).
  assert (K : - (1 / 1000) <= level (pace_c c) y).
  { apply (kept _ _ (1 / 100) (1 / 1000) (- (1 / 1000)) (i_v0 c + i_v1 c * (far + 2 * L ^ 2 / a + 1 - i_v0_distance c)) M ltac:(discriminate) ltac:(discriminate)); auto; try lra.
    - apply pace_decay.
    - intros y' Hy'. pose proof (reach_kept Ha0 Hn y' Hy') as Q.
      destruct (flown_of _ (lengths _ Hy')) as (px & py & pz & qx & qy & qz & su & us & -> & _). apply (proj1 (flown_eq _ _ _ _ _ _ _ _ _)) in Q.
      rewrite pace_level. pose proof (smooth_bound _ _ (length3_pos px py pz) (eq_sym (length3_sqr px py pz))) as B.
      pose proof (sqrt_pos (qx * qx + qy * qy + qz * qz + rv_delta)).
      assert (i_v1 c * (sqrt (px * px + py * py + pz * pz + rv_delta) - i_v0_distance c) <=
              i_v1 c * (far + 2 * L ^ 2 / a + 1 - i_v0_distance c)) by (apply Rmult_le_compat_l; lra). lra.
    - destruct (flown_of _ Len) as (px & py & pz & qx & qy & qz & su & us & E & _). rewrite E in *.
      rewrite pace_level. apply (proj1 (flown_eq _ _ _ _ _ _ _ _ _)) in Hx. lra. }
  destruct (flown_of _ (lengths y Hy)) as (px & py & pz & qx & qy & qz & su & us & -> & _).
  rewrite pace_level in K. apply (proj2 (flown_eq _ _ _ _ _ _ _ _ _)). lra.
Qed.
End Flight.
