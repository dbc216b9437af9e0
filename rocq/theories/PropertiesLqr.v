(** Properties of the LQR backup controllers: C77. *)
From Coq Require Import String Reals List Bool Lia Lra Psatz.
From Verif Require Import Prelude Vec ModelBase ModelController ModelCwh ModelLqr SpecCwh SpecLqr ProofsVec ProofsCwh3 ProofsLqr.
Import ListNotations.
Local Open Scope R_scope.

Ltac entries := repeat match goal with
  | |- _ :: _ = _ :: _ => apply (f_equal2 (@cons _))
  | |- [] = [] => reflexivity
  | |- ?a = ?b => match type of a with R => try reflexivity; field; try lra end
  end.
Lemma cost3 : stop_q 3 = diagonal 6 (1 / 20).
Proof. unfold stop_q, diagonal, mscale, vscale, eye, unit_vec. cbn. entries. Qed.
Lemma weight3 : stop_r 3 = diagonal 3 1000.
Proof. unfold stop_r, diagonal, mscale, vscale, eye, unit_vec. cbn. entries. Qed.
Lemma cost2 : stop_q 2 = diagonal 4 (1 / 20).
Proof. unfold stop_q, diagonal, mscale, vscale, eye, unit_vec. cbn. entries. Qed.
Lemma weight2 : stop_r 2 = diagonal 2 1000.
Proof. unfold stop_r, diagonal, mscale, vscale, eye, unit_vec. cbn. entries. Qed.

(** ** C77.  The stopping controllers brake. *)

(** Given a solution of the Riccati equation, the spatial controller commands no thrust at rest
    and otherwise a thrust with a negative component along the velocity. *)
Theorem C77_thrust_opposes_velocity :
  forall care m n, 0 < m ->
  riccati 6 (motion3 n) (thrust3_t m) (diagonal 6 (1 / 20)) 1000
    (care (motion3 n) (thrust3 m) (diagonal 6 (1 / 20)) (diagonal 3 1000)) ->
  exists gen, stop_controller care m n 3 = Ok gen /\
  forall p v dt cs, length p = 3%nat -> length v = 3%nat ->
  exists u, gen (p ++ v) dt cs = GPair u CSNone /\ length u = 3%nat /\
    (v = [0; 0; 0] -> u = [0; 0; 0]) /\ (v <> [0; 0; 0] -> dot u v < 0).
Proof.
  intros care m n Hm Ric. unfold stop_controller. cbn [Nat.eqb generate_cwh_matrices String.eqb Ascii.eqb Bool.eqb rbind fst snd].
  rewrite cost3, weight3. change (cwh_a3 n) with (motion3 n). change (cwh_b3 m) with (thrust3 m).
  set (P := care _ _ _ _) in *. eexists. split; [reflexivity|]. intros p v dt cs Lp Lv.
  assert (Rw : Forall (fun r => length r = 6%nat) P) by (apply Ric).
  assert (LP : length P = 6%nat) by (apply Ric).
  eexists. split; [apply stop_command; [exact Lp|rewrite Lv; apply (mm_rows 6), (mm_rows 6), Rw]|].
  rewrite gain_mv by exact Rw.
  set (x := zeros 3 ++ v). assert (Lx : length x = 6%nat) by (unfold x; rewrite app_length, Lv; reflexivity).
  assert (Lw : length (mv P x) = 6%nat) by (rewrite mv_length; exact LP).
  split; [reflexivity|].
  assert (D : v <> [0; 0; 0] -> 0 < form P x x).
  { intros N. refine (riccati_definite 6 _ _ _ _ P (1 / 20) x Ric ltac:(lra) eq_refl _ Lx _).
    - intros y Ly. destruct y as [|y1 [|y2 [|y3 [|y4 [|y5 [|y6 [|]]]]]]]; try discriminate Ly.
      unfold form, diagonal, mv. cbn. ring.
    - intros Z. apply N. unfold x in Z. apply Forall_app in Z. destruct Z as (_ & Z).
      destruct v as [|v1 [|v2 [|v3 [|]]]]; try discriminate Lv.
      inversion Z as [|? ? -> Z1]. inversion Z1 as [|? ? -> Z2]. inversion Z2 as [|? ? -> _]. reflexivity. }
  assert (Zw : v = [0; 0; 0] -> Forall (fun a => a = 0) (mv P x)).
  { intros ->. apply mv_zero. unfold x, zeros. cbn. repeat constructor. }
  unfold form in D. destruct v as [|v1 [|v2 [|v3 [|]]]]; try discriminate Lv. unfold x in D, Zw, Lw |- *. cbn [zeros repeat app] in D, Zw, Lw |- *.
  set (w := mv P [0; 0; 0; v1; v2; v3]) in *. clearbody w.
  destruct w as [|w1 [|w2 [|w3 [|w4 [|w5 [|w6 [|]]]]]]]; try discriminate Lw.
  unfold mv, transpose, mscale, vscale, eye, unit_vec, thrust3, vneg. cbn.
  split.
  - intros E. specialize (Zw E). do 3 apply Forall_inv_tail in Zw.
    assert (E4 := Forall_inv Zw). apply Forall_inv_tail in Zw. assert (E5 := Forall_inv Zw). apply Forall_inv_tail in Zw.
    assert (E6 := Forall_inv Zw). cbn beta in *. rewrite E4, E5, E6. entries.
  - intros N. specialize (D N). cbn in D.
    match goal with |- ?l < 0 => replace l with (- (1 / (1000 * m)) * (v1 * w4 + v2 * w5 + v3 * w6)) by (field; lra) end.
    assert (0 < 1 / (1000 * m)) by (apply Rdiv_lt_0_compat; lra).
    assert (0 < v1 * w4 + v2 * w5 + v3 * w6) by lra. nra.
Qed.
Print Assumptions C77_thrust_opposes_velocity.

Theorem C77_planar_thrust_opposes_velocity :
  forall care m n, 0 < m ->
  riccati 4 (motion2 n) (thrust2_t m) (diagonal 4 (1 / 20)) 1000
    (care (motion2 n) (thrust2 m) (diagonal 4 (1 / 20)) (diagonal 2 1000)) ->
  exists gen, stop_controller care m n 2 = Ok gen /\
  forall p v dt cs, length p = 2%nat -> length v = 2%nat ->
  exists u, gen (p ++ v) dt cs = GPair u CSNone /\ length u = 2%nat /\
    (v = [0; 0] -> u = [0; 0]) /\ (v <> [0; 0] -> dot u v < 0).
Proof.
  intros care m n Hm Ric. unfold stop_controller. cbn [Nat.eqb generate_cwh_matrices String.eqb Ascii.eqb Bool.eqb rbind fst snd].
  rewrite cost2, weight2. change (cwh_a2 n) with (motion2 n). change (cwh_b2 m) with (thrust2 m).
  set (P := care _ _ _ _) in *. eexists. split; [reflexivity|]. intros p v dt cs Lp Lv.
  assert (Rw : Forall (fun r => length r = 4%nat) P) by (apply Ric).
  assert (LP : length P = 4%nat) by (apply Ric).
  eexists. split; [apply stop_command; [exact Lp|rewrite Lv; apply (mm_rows 4), (mm_rows 4), Rw]|].
  rewrite gain_mv by exact Rw.
  set (x := zeros 2 ++ v). assert (Lx : length x = 4%nat) by (unfold x; rewrite app_length, Lv; reflexivity).
  assert (Lw : length (mv P x) = 4%nat) by (rewrite mv_length; exact LP).
  split; [reflexivity|].
  assert (D : v <> [0; 0] -> 0 < form P x x).
  { intros N. refine (riccati_definite 4 _ _ _ _ P (1 / 20) x Ric ltac:(lra) eq_refl _ Lx _).
    - intros y Ly. destruct y as [|y1 [|y2 [|y3 [|y4 [|]]]]]; try discriminate Ly.
      unfold form, diagonal, mv. cbn. ring.
    - intros Z. apply N. unfold x in Z. apply Forall_app in Z. destruct Z as (_ & Z).
      destruct v as [|v1 [|v2 [|]]]; try discriminate Lv.
      inversion Z as [|? ? -> Z1]. inversion Z1 as [|? ? -> _]. reflexivity. }
  assert (Zw : v = [0; 0] -> Forall (fun a => a = 0) (mv P x)).
  { intros ->. apply mv_zero. unfold x, zeros. cbn. repeat constructor. }
  unfold form in D. destruct v as [|v1 [|v2 [|]]]; try discriminate Lv. unfold x in D, Zw, Lw |- *. cbn [zeros repeat app] in D, Zw, Lw |- *.
  set (w := mv P [0; 0; v1; v2]) in *. clearbody w.
  destruct w as [|w1 [|w2 [|w3 [|w4 [|]]]]]; try discriminate Lw.
  unfold mv, transpose, mscale, vscale, eye, unit_vec, thrust2, vneg. cbn.
  split.
  - intros E. specialize (Zw E). do 2 apply Forall_inv_tail in Zw.
    assert (E3 := Forall_inv Zw). apply Forall_inv_tail in Zw. assert (E4 := Forall_inv Zw). cbn beta in *. rewrite E3, E4. entries.
  - intros N. specialize (D N). cbn in D.
    match goal with |- ?l < 0 => replace l with (- (1 / (1000 * m)) * (v1 * w3 + v2 * w4)) by (field; lra) end.
    assert (0 < 1 / (1000 * m)) by (apply Rdiv_lt_0_compat; lra).
    assert (0 < v1 * w3 + v2 * w4) by lra. nra.
Qed.
Print Assumptions C77_planar_thrust_opposes_velocity.

(** So in flight, while the command is within the bounds, the kinetic energy grows by at most
    the work of the gravity gradient, and by less whenever the spacecraft moves. *)
Theorem C77_energy :
  forall care m n gen T ux uy uz x y z vx vy vz, 0 < m ->
  riccati 6 (motion3 n) (thrust3_t m) (diagonal 6 (1 / 20)) 1000
    (care (motion3 n) (thrust3 m) (diagonal 6 (1 / 20)) (diagonal 3 1000)) ->
  stop_controller care m n 3 = Ok gen ->
  cwh_forced n m T ux uy uz x y z vx vy vz ->
  (forall t, 0 <= t <= T -> gen [x t; y t; z t; vx t; vy t; vz t] 0 CSNone = GPair [ux t; uy t; uz t] CSNone) ->
  forall t, 0 <= t <= T -> exists e,
  derivable_pt_lim (fun t => m / 2 * (vx t * vx t + vy t * vy t + vz t * vz t)) t e /\
  e <= m * (3 * n ^ 2 * x t * vx t - n ^ 2 * z t * vz t) /\
  (~ (vx t = 0 /\ vy t = 0 /\ vz t = 0) -> e < m * (3 * n ^ 2 * x t * vx t - n ^ 2 * z t * vz t)).
Proof.
  intros care m n gen T ux uy uz x y z vx vy vz Hm Ric G F C t Ht.
  destruct (C77_thrust_opposes_velocity care m n Hm Ric) as (gen' & G' & B). rewrite G in G'. injection G' as <-.
  destruct (B [x t; y t; z t] [vx t; vy t; vz t] 0 CSNone eq_refl eq_refl) as (u & Eu & _ & Z & N).
  cbn [app] in Eu. rewrite (C t Ht) in Eu. injection Eu as <-.
  exists (m / 2 * (2 * vx t * (3 * (n * n) * x t + 2 * n * vy t + ux t / m) + 2 * vy t * (- (2 * n * vx t) + uy t / m)
    + 2 * vz t * (- (n * n * z t) + uz t / m))).
  assert (E : m / 2 * (2 * vx t * (3 * (n * n) * x t + 2 * n * vy t + ux t / m) + 2 * vy t * (- (2 * n * vx t) + uy t / m)
    + 2 * vz t * (- (n * n * z t) + uz t / m))
    = m * (3 * n ^ 2 * x t * vx t - n ^ 2 * z t * vz t) + (ux t * vx t + uy t * vy t + uz t * vz t)) by (field; lra).
  split; [|rewrite E; cbn in N; split].
  - destruct F as [_ _ _ Dx Dy Dz]. specialize (Dx t Ht). specialize (Dy t Ht). specialize (Dz t Ht).
    assert (S : forall f l, derivable_pt_lim f t l -> derivable_pt_lim (fun s => f s * f s) t (2 * f t * l)).
    { intros f l D. replace (2 * f t * l) with (l * f t + f t * l) by ring. apply (derivable_pt_lim_mult f f); exact D. }
    apply (derivable_pt_lim_scal (fun t => vx t * vx t + vy t * vy t + vz t * vz t)).
    apply (derivable_pt_lim_plus (fun t => vx t * vx t + vy t * vy t)); [|apply S; exact Dz].
    apply (derivable_pt_lim_plus (fun t => vx t * vx t)); apply S; assumption.
  - destruct (Req_EM_T (vx t) 0) as [E1|E1]; [destruct (Req_EM_T (vy t) 0) as [E2|E2]; [destruct (Req_EM_T (vz t) 0) as [E3|E3]|]|].
    + rewrite E1, E2, E3. lra.
    + assert (ux t * vx t + (uy t * vy t + (uz t * vz t + 0)) < 0) by (apply N; congruence). lra.
    + assert (ux t * vx t + (uy t * vy t + (uz t * vz t + 0)) < 0) by (apply N; congruence). lra.
    + assert (ux t * vx t + (uy t * vy t + (uz t * vz t + 0)) < 0) by (apply N; congruence). lra.
  - intros M. assert (ux t * vx t + (uy t * vy t + (uz t * vz t + 0)) < 0); [|lra].
    apply N. intros Q. injection Q as Q1 Q2 Q3. tauto.
Qed.
Print Assumptions C77_energy.

(** The documented purpose, bringing the velocity to zero, is not reached in general: whatever
    the gain, a spacecraft at rest off the orbit of the chief is moving again at once. *)
Theorem C77_rest_is_left_refuted :
  forall K m n T ux uy uz x y z vx vy vz, 0 < m -> n <> 0 -> 0 < T -> length K = 3%nat ->
  cwh_forced n m T ux uy uz x y z vx vy vz ->
  (forall t, 0 <= t <= T -> lqr_stop 3 K [x t; y t; z t; vx t; vy t; vz t] 0 CSNone = GPair [ux t; uy t; uz t] CSNone) ->
  vx 0 = 0 -> vy 0 = 0 -> vz 0 = 0 -> x 0 <> 0 ->
  forall S, 0 < S <= T -> exists t, 0 < t <= S /\ vx t <> 0.
Proof.
  intros K m n T ux uy uz x y z vx vy vz Hm Hn HT LK F C Vx Vy Vz X S HS.
  assert (U : ux 0 = 0).
  { assert (E := C 0 ltac:(lra)). rewrite Vx, Vy, Vz in E.
    apply (eq_trans (eq_sym (lqr_stop_eq K [x 0; y 0; z 0] [0; 0; 0] 0 CSNone))) in E. cbn [length] in E.
    destruct K as [|r [|r2 [|r3 [|]]]]; try discriminate LK. cbn [map] in E. injection E as E _ _. rewrite <- E.
    rewrite dot_comm, dot_zero_l; [ring|repeat constructor]. }
  destruct F as [_ _ _ D _ _]. specialize (D 0 ltac:(lra)). rewrite U, Vy in D.
  set (L := 3 * (n * n) * x 0 + 2 * n * 0 + 0 / m) in D.
  assert (HL : L <> 0).
  { unfold L. replace (3 * (n * n) * x 0 + 2 * n * 0 + 0 / m) with (3 * (n * n * x 0)) by (field; lra).
    apply Rmult_integral_contrapositive_currified; [lra|]. repeat apply Rmult_integral_contrapositive_currified; assumption. }
  destruct (D (Rabs L) (Rabs_pos_lt _ HL)) as (delta & Hd).
  set (h := Rmin (delta / 2) S). assert (Dp := cond_pos delta).
  assert (Hh : 0 < h <= S /\ h < delta).
  { unfold h. repeat split; [apply Rmin_glb_lt; lra|apply Rmin_r|]. eapply Rle_lt_trans; [apply Rmin_l|lra]. }
  exists h. split; [lra|]. intros Z. specialize (Hd h ltac:(lra) ltac:(rewrite Rabs_right; lra)).
  rewrite Rplus_0_l, Z, Vx in Hd. replace ((0 - 0) / h - L) with (- L) in Hd by (field; lra). rewrite Rabs_Ropp in Hd. lra.
Qed.
Print Assumptions C77_rest_is_left_refuted.

(** A case: no orbital motion and mass one.  Each axis is a double integrator, with this
    solution of the Riccati equation. *)
Definition lb : R := sqrt 50.
Definition lc : R := sqrt (1000 * (2 * lb + 1 / 20)).
Definition la : R := lb * lc / 1000.
Definition lp : mat := [[la; 0; 0; lb; 0; 0]; [0; la; 0; 0; lb; 0]; [0; 0; la; 0; 0; lb];
  [lb; 0; 0; lc; 0; 0]; [0; lb; 0; 0; lc; 0]; [0; 0; lb; 0; 0; lc]].
Lemma lb_sq : lb * lb = 50 /\ 0 <= lb. Proof. split; [apply sqrt_sqrt; lra|apply sqrt_pos]. Qed.
Lemma lc_sq : lc * lc = 1000 * (2 * lb + 1 / 20) /\ 0 <= lc.
Proof. destruct lb_sq. split; [apply sqrt_sqrt; lra|apply sqrt_pos]. Qed.
Example C77_case : riccati 6 (motion3 0) (thrust3_t 1) (diagonal 6 (1 / 20)) 1000 lp.
Proof.
  destruct lb_sq as (B & B0). destruct lc_sq as (C & C0).
  split; [split; [reflexivity|repeat constructor]|].
  assert (A : la * 1000 = lb * lc) by (unfold la; field).
  assert (A0 : 0 <= la) by nra.
  unfold lp. revert A A0 B B0 C C0. generalize la lb lc. intros a b c A A0 B B0 C C0.
  split; [|split].
  - intros x y Lx Ly. destruct x as [|x1 [|x2 [|x3 [|x4 [|x5 [|x6 [|]]]]]]]; try discriminate Lx.
    destruct y as [|y1 [|y2 [|y3 [|y4 [|y5 [|y6 [|]]]]]]]; try discriminate Ly. unfold form, mv. cbn. ring.
  - intros x Lx. destruct x as [|x1 [|x2 [|x3 [|x4 [|x5 [|x6 [|]]]]]]]; try discriminate Lx. unfold form, mv. cbn.
    assert (Q : forall p v, 0 <= a * p * p + 2 * b * p * v + c * v * v).
    { intros p v. assert (H : 0 <= c * (a * p * p + 2 * b * p * v + c * v * v)).
      { replace (c * (a * p * p + 2 * b * p * v + c * v * v)) with ((c * v + b * p) * (c * v + b * p) + (a * c - b * b) * (p * p)) by ring.
        assert (0 <= a * c - b * b).
        { assert (E : a * c * 1000 = b * (c * c)) by (replace (a * c * 1000) with (a * 1000 * c) by ring; rewrite A; ring). rewrite C in E. nra. }
        assert (0 <= (c * v + b * p) * (c * v + b * p)) by apply Rle_0_sqr. assert (0 <= p * p) by apply Rle_0_sqr. nra. }
      assert (0 < c) by nra. apply (Rmult_le_reg_l c); [lra|]. rewrite Rmult_0_r. exact H. }
    assert (Q1 := Q x1 x4). assert (Q2 := Q x2 x5). assert (Q3 := Q x3 x6). lra.
  - intros x Lx. destruct x as [|x1 [|x2 [|x3 [|x4 [|x5 [|x6 [|]]]]]]]; try discriminate Lx. unfold form, mv, motion3, thrust3_t, diagonal. cbn.
    assert (Q : forall p v, 2 * (a * p * v + b * v * v) - (b * p + c * v) * (b * p + c * v) / 1000 + 1 / 20 * (p * p + v * v) = 0).
    { intros p v. replace ((b * p + c * v) * (b * p + c * v)) with (b * b * (p * p) + 2 * (b * c) * (p * v) + c * c * (v * v)) by ring.
      rewrite B, C, <- A. field. }
    assert (Q1 := Q x1 x4). assert (Q2 := Q x2 x5). assert (Q3 := Q x3 x6).
    match goal with |- ?l = 0 => replace l with
      ((2 * (a * x1 * x4 + b * x4 * x4) - (b * x1 + c * x4) * (b * x1 + c * x4) / 1000 + 1 / 20 * (x1 * x1 + x4 * x4)) +
       (2 * (a * x2 * x5 + b * x5 * x5) - (b * x2 + c * x5) * (b * x2 + c * x5) / 1000 + 1 / 20 * (x2 * x2 + x5 * x5)) +
       (2 * (a * x3 * x6 + b * x6 * x6) - (b * x3 + c * x6) * (b * x3 + c * x6) / 1000 + 1 / 20 * (x3 * x3 + x6 * x6))) by field end.
    lra.
Qed.

(** In flight: braking along the first axis. *)
Lemma decay k t : derivable_pt_lim (fun t => exp (- k * t)) t (- k * exp (- k * t)).
Proof.
  replace (- k * exp (- k * t)) with (exp (- k * t) * (- k)) by ring.
  apply (derivable_pt_lim_comp (fun t => - k * t) exp); [|apply derivable_pt_lim_exp].
  assert (D := derivable_pt_lim_scal (fun t => t) (- k) t 1 (derivable_pt_lim_id t)).
  rewrite Rmult_1_r in D. exact D.
Qed.
Lemma at_rest (c t : R) : derivable_pt_lim (fun _ => c) t 0.
Proof. apply derivable_pt_lim_const. Qed.
Example C77_energy_case : exists gen, stop_controller (fun _ _ _ _ => lp) 1 0 3 = Ok gen /\
  exists x vx ux : R -> R, let nil := fun _ : R => 0 in
  cwh_forced 0 1 1 ux nil nil x nil nil vx nil nil /\
  (forall t, 0 <= t <= 1 -> gen [x t; nil t; nil t; vx t; nil t; nil t] 0 CSNone = GPair [ux t; nil t; nil t] CSNone) /\
  forall t, vx t <> 0.
Proof.
  eexists. split; [reflexivity|]. destruct lc_sq as (C & C0). destruct lb_sq as (_ & B0).
  assert (K : 0 < lc / 1000) by (apply Rdiv_lt_0_compat; [nra|lra]). set (k := lc / 1000) in *.
  exists (fun t => - / k * exp (- k * t)), (fun t => exp (- k * t)), (fun t => - k * exp (- k * t)).
  split; [|split].
  - assert (Z : forall t l, l = 0 -> derivable_pt_lim (fun _ : R => 0) t l) by (intros t l ->; apply at_rest).
    constructor; intros t _; [|apply Z; reflexivity|apply Z; reflexivity| |apply Z; field|apply Z; field].
    + replace (exp (- k * t)) with (- / k * (- k * exp (- k * t))) by (field; lra).
      apply (derivable_pt_lim_scal (fun t => exp (- k * t))). apply decay.
    + replace (3 * (0 * 0) * (- / k * exp (- k * t)) + 2 * 0 * 0 + - k * exp (- k * t) / 1) with (- k * exp (- k * t)) by (field; lra). apply decay.
  - intros t _. set (v := exp (- k * t)). unfold lqr_stop, stop_gain, transpose, eye, unit_vec, vsub, mv, zeros, mscale, vscale, vneg, cwh_b3, lp. cbn.
    f_equal. unfold k, v. entries; unfold k in K; nra.
  - intros t. assert (P := exp_pos (- k * t)). lra.
Qed.

(** And at rest above the orbit of the chief, with the thrusters off. *)
Example C77_rest_case : cwh_forced 1 1 1 (fun _ => 0) (fun _ => 0) (fun _ => 0)
    (fun t => 4 - 3 * cos t) (fun t => 6 * (sin t - t)) (fun _ => 0) (fun t => 3 * sin t) (fun t => 6 * (cos t - 1)) (fun _ => 0) /\
  (forall t, 0 <= t <= 1 -> lqr_stop 3 [zeros 6; zeros 6; zeros 6]
     [4 - 3 * cos t; 6 * (sin t - t); 0; 3 * sin t; 6 * (cos t - 1); 0] 0 CSNone = GPair [0; 0; 0] CSNone) /\
  3 * sin 0 = 0 /\ 6 * (cos 0 - 1) = 0 /\ 4 - 3 * cos 0 <> 0.
Proof.
  split; [|split].
  - constructor; intros t _.
    + replace (3 * sin t) with (0 - 3 * (- sin t)) by ring.
      apply (derivable_pt_lim_minus (fun _ => 4) (fun t => 3 * cos t)); [apply at_rest|].
      apply (derivable_pt_lim_scal cos), derivable_pt_lim_cos.
    + apply (derivable_pt_lim_scal (fun t => sin t - t)). apply (derivable_pt_lim_minus sin (fun t => t)); [apply derivable_pt_lim_sin|apply derivable_pt_lim_id].
    + apply at_rest.
    + replace (3 * (1 * 1) * (4 - 3 * cos t) + 2 * 1 * (6 * (cos t - 1)) + 0 / 1) with (3 * cos t) by field.
      apply (derivable_pt_lim_scal sin), derivable_pt_lim_sin.
    + replace (- (2 * 1 * (3 * sin t)) + 0 / 1) with (6 * (- sin t - 0)) by field.
      apply (derivable_pt_lim_scal (fun t => cos t - 1)). apply (derivable_pt_lim_minus cos (fun _ => 1)); [apply derivable_pt_lim_cos|apply at_rest].
    + replace (- (1 * 1 * 0) + 0 / 1) with 0 by field. apply at_rest.
  - intros t _. unfold lqr_stop, vsub, mv, zeros, vneg. cbn. f_equal. entries.
  - rewrite sin_0, cos_0. repeat split; lra.
Qed.
