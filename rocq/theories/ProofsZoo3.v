(** Too little thrust: a deputy that the keep-out constraint accepts and that no admissible
    control keeps out. *)
From Coq Require Import Reals List Lia Lra Ranalysis5.
From Verif Require Import SpecCwh ProofsCwh2.
Local Open Scope R_scope.

Lemma derive_eq f t l l' : derivable_pt_lim f t l -> l = l' -> derivable_pt_lim f t l'.
Proof. intros H <-; exact H. Qed.

(** A bound on the rate bounds the change. *)
Lemma grow_upper f f' B T : (forall t, 0 <= t <= T -> derivable_pt_lim f t (f' t)) ->
  (forall t, 0 <= t <= T -> f' t <= B) -> forall t, 0 <= t <= T -> f t <= f 0 + B * t.
Proof.
  intros D L t Ht.
  pose proof (derivative_nonneg (fun r => B * r - f r) (fun r => B - f' r) T) as N.
  assert (H : B * 0 - f 0 <= B * t - f t).
  { apply N; auto.
    - intros r Hr. apply (derivable_pt_lim_minus (fun r => B * r) f).
      + eapply derive_eq; [apply (derivable_pt_lim_scal id B r 1), derivable_pt_lim_id|lra].
      + auto.
    - intros r Hr. specialize (L r Hr). lra. }
  lra.
Qed.
Lemma grow_abs f f' B T : f 0 = 0 -> (forall t, 0 <= t <= T -> derivable_pt_lim f t (f' t)) ->
  (forall t, 0 <= t <= T -> Rabs (f' t) <= B) -> forall t, 0 <= t <= T -> Rabs (f t) <= B * t.
Proof.
  intros Z D L t Ht. apply Rabs_le. split.
  - pose proof (grow_upper (fun r => - f r) (fun r => - f' r) B T) as G.
    assert (- f t <= - f 0 + B * t); [|lra]. apply G; auto.
    + intros r Hr. apply (derivable_pt_lim_opp f); auto.
    + intros r Hr. specialize (L r Hr). pose proof (Rle_abs (- f' r)) as Q. rewrite Rabs_Ropp in Q. lra.
  - pose proof (grow_upper f f' B T D) as G. assert (f t <= f 0 + B * t); [|lra]. apply G; auto.
    intros r Hr. specialize (L r Hr). pose proof (Rle_abs (f' r)). lra.
Qed.

(** A driven oscillator that starts at rest: its speed is at most the largest drive times the
    time. *)
Lemma oscillator n x v s S T : x 0 = 0 -> v 0 = 0 -> 0 <= S ->
  (forall t, 0 <= t <= T -> derivable_pt_lim x t (v t)) ->
  (forall t, 0 <= t <= T -> derivable_pt_lim v t (- (n * n * x t) + s t)) ->
  (forall t, 0 <= t <= T -> Rabs (s t) <= S) ->
  forall t, 0 <= t <= T -> Rabs (v t) <= S * t.
Proof.
  intros X0 V0 HS Dx Dv Bs t Ht. apply le_epsilon. intros e He.
  set (F := fun r => v r * v r + n * n * (x r * x r) + e * e).
  assert (P : forall r, 0 < F r).
  { intros r. unfold F. pose proof (Rle_0_sqr (v r)) as Q1. pose proof (Rle_0_sqr (n * x r)) as Q2. unfold Rsqr in *. nra. }
  assert (DF : forall r, 0 <= r <= T -> derivable_pt_lim F r (2 * v r * s r)).
  { intros r Hr. unfold F. eapply derive_eq.
    - apply (derivable_pt_lim_plus (fun r => v r * v r + n * n * (x r * x r)) (fun _ => e * e)).
      + apply (derivable_pt_lim_plus (fun r => v r * v r) (fun r => n * n * (x r * x r))).
        * apply (derivable_pt_lim_mult v v); apply Dv; auto.
        * apply (derivable_pt_lim_scal (fun r => x r * x r)). apply (derivable_pt_lim_mult x x); apply Dx; auto.
      + apply derivable_pt_lim_const.
    - ring. }
  assert (DG : forall r, 0 <= r <= T -> derivable_pt_lim (fun r => sqrt (F r)) r (/ (2 * sqrt (F r)) * (2 * v r * s r))).
  { intros r Hr. apply (derivable_pt_lim_comp F sqrt r); [apply DF; auto|]. apply derivable_pt_lim_sqrt, P. }
  assert (G : sqrt (F t) <= sqrt (F 0) + S * t).
  { apply (grow_upper (fun r => sqrt (F r)) (fun r => / (2 * sqrt (F r)) * (2 * v r * s r)) S T); auto.
    intros r Hr. pose proof (sqrt_lt_R0 _ (P r)) as Q.
    assert (A : Rabs (v r) <= sqrt (F r)).
    { apply le_of_sqr; [lra|]. rewrite sqrt_sqrt by (specialize (P r); lra).
      rewrite <- Rabs_mult, Rabs_pos_eq by apply Rle_0_sqr. unfold F. pose proof (Rle_0_sqr (n * x r)) as Q2. unfold Rsqr in *. nra. }
    specialize (Bs r Hr).
    assert (C : v r * s r <= sqrt (F r) * S).
    { eapply Rle_trans; [apply Rle_abs|]. rewrite Rabs_mult. apply Rmult_le_compat; auto using Rabs_pos. }
    apply (Rmult_le_reg_l (sqrt (F r))); auto.
    replace (sqrt (F r) * (/ (2 * sqrt (F r)) * (2 * v r * s r))) with (v r * s r) by (field; lra). lra. }
  assert (F0 : sqrt (F 0) = e).
  { unfold F. rewrite X0, V0. replace (_ + e * e) with (e * e) by ring. apply sqrt_square; lra. }
  rewrite F0 in G.
  assert (A : Rabs (v t) <= sqrt (F t)).
  { apply le_of_sqr; [apply sqrt_pos|]. rewrite sqrt_sqrt by (specialize (P t); lra).
    rewrite <- Rabs_mult, Rabs_pos_eq by apply Rle_0_sqr. unfold F. pose proof (Rle_0_sqr (n * x t)) as Q2. unfold Rsqr in *. nra. }
  lra.
Qed.

Section Collision.
Variables (n m b A radius : R).
Hypothesis (Hm : 0 < m) (Hb : 0 <= b) (HA : b / m < A) (HR : 0 < radius).

Let beta := b / m.
Let beta' := (beta + A) / 2.
Let S1 := beta * (2 * Rabs n + 1).
Let K1 := beta + 2 * Rabs n * S1.
Let kappa := A / beta' - 1.
Let D1 := 2 * A / (beta' * beta').
Let C := (S1 * S1 + K1 * K1) * (D1 * D1).
Let eps := Rmin (Rmin (radius * kappa / (kappa * kappa + C + 1)) (beta' * beta' / (2 * A))) (radius / (C + 1)).

Lemma beta_pos : 0 <= beta.
Proof. unfold beta. apply Rmult_le_pos; auto. apply Rlt_le, Rinv_0_lt_compat; auto. Qed.
Lemma beta'_bounds : beta <= beta' /\ 0 < beta' /\ beta' < A.
Proof. pose proof beta_pos. unfold beta'. change (beta < A) in HA. lra. Qed.
Lemma kappa_pos : 0 < kappa.
Proof.
  destruct beta'_bounds as (_ & P & L). unfold kappa.
  assert (1 < A / beta'); [|lra]. apply (Rmult_lt_reg_r beta'); auto. unfold Rdiv.
  rewrite Rmult_assoc, Rinv_l by lra. lra.
Qed.
Lemma C_pos : 0 <= C.
Proof.
  unfold C. apply Rmult_le_pos; [|apply Rle_0_sqr].
  pose proof (Rle_0_sqr S1). pose proof (Rle_0_sqr K1). unfold Rsqr in *. lra.
Qed.
Lemma eps_bounds : 0 < eps /\ eps * (kappa * kappa + C + 1) <= radius * kappa /\ eps * D1 <= 1 /\ eps * (C + 1) <= radius.
Proof.
  destruct beta'_bounds as (_ & P & L). pose proof kappa_pos as Kp. pose proof C_pos as Cp.
  assert (E1 : eps <= radius * kappa / (kappa * kappa + C + 1)) by (unfold eps; eapply Rle_trans; [apply Rmin_l|apply Rmin_l]).
  assert (E2 : eps <= beta' * beta' / (2 * A)) by (unfold eps; eapply Rle_trans; [apply Rmin_l|apply Rmin_r]).
  assert (E3 : eps <= radius / (C + 1)) by (unfold eps; apply Rmin_r).
  assert (Q : 0 < kappa * kappa + C + 1) by (pose proof (Rle_0_sqr kappa); unfold Rsqr in *; lra).
  split.
  - unfold eps. apply Rmin_glb_lt; [apply Rmin_glb_lt|]; apply Rdiv_lt_0_compat; nra.
  - split; [|split].
    + apply (Rmult_le_compat_r (kappa * kappa + C + 1)) in E1; [|lra].
      unfold Rdiv in E1. rewrite Rmult_assoc, Rinv_l in E1 by lra. lra.
    + unfold D1. apply (Rmult_le_compat_r (2 * A / (beta' * beta'))) in E2.
      * replace (beta' * beta' / (2 * A) * (2 * A / (beta' * beta'))) with 1 in E2 by (field; split; lra). exact E2.
      * apply Rlt_le, Rdiv_lt_0_compat; nra.
    + apply (Rmult_le_compat_r (C + 1)) in E3; [|lra].
      unfold Rdiv in E3. rewrite Rmult_assoc, Rinv_l in E3 by lra. lra.
Qed.

Definition start_height : R := radius + eps.
Definition start_speed : R := sqrt (2 * A * eps).
Definition crash_time : R := start_speed / beta'.

Lemma A_pos : 0 < A.
Proof. destruct beta'_bounds as (_ & P & L). lra. Qed.
Lemma start_above : radius < start_height.
Proof. unfold start_height. destruct eps_bounds. lra. Qed.
Lemma speed_sqr : start_speed * start_speed = 2 * A * eps.
Proof. unfold start_speed. apply sqrt_sqrt. pose proof A_pos. destruct eps_bounds. nra. Qed.
Lemma speed_pos : 0 < start_speed.
Proof. unfold start_speed. apply sqrt_lt_R0. pose proof A_pos. destruct eps_bounds. nra. Qed.
Lemma time_sqr : crash_time * crash_time = D1 * eps.
Proof.
  destruct beta'_bounds as (_ & P & _). unfold crash_time, D1.
  replace (start_speed / beta' * (start_speed / beta')) with (start_speed * start_speed / (beta' * beta')) by (field; lra).
  rewrite speed_sqr. field. lra.
Qed.
Lemma time_pos : 0 < crash_time <= 1.
Proof.
  destruct beta'_bounds as (_ & P & _). pose proof speed_pos as V. split.
  - unfold crash_time. apply Rdiv_lt_0_compat; auto.
  - apply le_of_sqr; [lra|]. rewrite time_sqr. destruct eps_bounds as (_ & _ & E & _). lra.
Qed.

Variables (ux uy uz x y z vx vy vz : R -> R).
Let T := crash_time.
Hypothesis M : cwh_forced n m T ux uy uz x y z vx vy vz.
Hypothesis U : forall t, 0 <= t <= T -> Rabs (ux t) <= b /\ Rabs (uy t) <= b /\ Rabs (uz t) <= b.
Hypothesis (X0 : x 0 = 0) (Y0 : y 0 = 0) (Z0 : z 0 = start_height) (VX0 : vx 0 = 0) (VY0 : vy 0 = 0)
  (VZ0 : vz 0 = - start_speed).

Lemma drive u : Rabs u <= b -> Rabs (u / m) <= beta.
Proof.
  intros H. unfold Rdiv, beta. rewrite Rabs_mult, (Rabs_pos_eq (/ m)) by (apply Rlt_le, Rinv_0_lt_compat; auto).
  apply Rmult_le_compat_r; auto. apply Rlt_le, Rinv_0_lt_compat; auto.
Qed.

Let q t := vy t + 2 * n * x t.
Lemma q_bound t : 0 <= t <= T -> Rabs (q t) <= beta * t.
Proof.
  destruct M as [Mx My Mz Mvx Mvy Mvz]. apply (grow_abs q (fun t => uy t / m)).
  - unfold q. rewrite X0, VY0. ring.
  - intros r Hr. unfold q. eapply derive_eq.
    + apply (derivable_pt_lim_plus vy (fun t => 2 * n * x t)); [apply Mvy; auto|].
      apply (derivable_pt_lim_scal x); apply Mx; auto.
    + ring.
  - intros r Hr. apply drive. apply U; auto.
Qed.

Lemma S1_pos : 0 <= S1.
Proof. unfold S1. pose proof beta_pos. pose proof (Rabs_pos n). nra. Qed.

Lemma vx_bound t : 0 <= t <= T -> Rabs (vx t) <= S1 * t.
Proof.
  destruct M as [Mx My Mz Mvx Mvy Mvz].
  apply (oscillator n x vx (fun t => 2 * n * q t + ux t / m)); auto using S1_pos.
  - intros r Hr. eapply derive_eq; [apply Mvx; auto|]. unfold q. ring.
  - intros r Hr. eapply Rle_trans; [apply Rabs_triang|].
    pose proof (drive _ (proj1 (U r Hr))) as Dr. rewrite !Rabs_mult, (Rabs_pos_eq 2) by lra.
    pose proof (q_bound r Hr) as Q. pose proof beta_pos. pose proof (Rabs_pos n). pose proof time_pos as [_ TT].
    assert (Q1 : Rabs (q r) <= beta) by (unfold T in Hr; nra). unfold S1. nra.
Qed.
Lemma x_bound t : 0 <= t <= T -> Rabs (x t) <= S1 * (T * T).
Proof.
  intros Ht. destruct M as [Mx My Mz Mvx Mvy Mvz].
  assert (B : Rabs (x t) <= S1 * T * t).
  { apply (grow_abs x vx (S1 * T) T); auto. intros r Hr. pose proof (vx_bound r Hr). pose proof S1_pos. nra. }
  pose proof S1_pos. assert (0 <= S1 * T) by (apply Rmult_le_pos; lra). nra.
Qed.
Lemma y_bound t : 0 <= t <= T -> Rabs (y t) <= K1 * (T * T).
Proof.
  intros Ht. destruct M as [Mx My Mz Mvx Mvy Mvz]. pose proof beta_pos as B0. pose proof S1_pos as S0.
  pose proof (Rabs_pos n) as N0. pose proof time_pos as [T0 T1]. fold T in T0, T1.
  assert (B : Rabs (y t) <= K1 * T * t).
  { apply (grow_abs y vy (K1 * T) T); auto. intros r Hr.
    replace (vy r) with (q r + - (2 * n * x r)) by (unfold q; ring).
    eapply Rle_trans; [apply Rabs_triang|]. rewrite Rabs_Ropp, !Rabs_mult, (Rabs_pos_eq 2) by lra.
    pose proof (q_bound r Hr) as Q. pose proof (x_bound r Hr) as X. pose proof (Rabs_pos (x r)).
    assert (Rabs (q r) <= beta * T) by nra.
    assert (Rabs (x r) <= S1 * T).
    { eapply Rle_trans; [exact X|]. apply Rmult_le_compat_l; auto. nra. }
    assert (2 * Rabs n * Rabs (x r) <= 2 * Rabs n * (S1 * T)) by (apply Rmult_le_compat_l; lra).
    unfold K1. lra. }
  assert (0 <= K1) by (unfold K1; assert (0 <= Rabs n * S1) by (apply Rmult_le_pos; auto); lra).
  assert (0 <= K1 * T) by (apply Rmult_le_pos; lra). nra.
Qed.

Lemma abs_sqr a B : Rabs a <= B -> a * a <= B * B.
Proof.
  intros H. rewrite <- (Rabs_pos_eq (a * a)) by apply Rle_0_sqr. rewrite Rabs_mult. pose proof (Rabs_pos a). nra.
Qed.
Lemma aside t : 0 <= t <= T -> x t * x t + y t * y t <= C * (eps * eps).
Proof.
  intros Ht. pose proof (abs_sqr _ _ (x_bound t Ht)) as X. pose proof (abs_sqr _ _ (y_bound t Ht)) as Y.
  assert (E : T * T = D1 * eps) by apply time_sqr. rewrite E in X, Y. unfold C. lra.
Qed.

Theorem collides : exists t, 0 <= t <= T /\ length3 (x t) (y t) (z t) < radius.
Proof.
  destruct (Classical_Prop.classic (exists t, 0 <= t <= T /\ length3 (x t) (y t) (z t) < radius)) as [H|N]; [exact H|exfalso].
  assert (Far : forall t, 0 <= t <= T -> radius * radius <= x t * x t + y t * y t + z t * z t).
  { intros t Ht. rewrite <- length3_sqr. pose proof (length3_pos (x t) (y t) (z t)).
    assert (radius <= length3 (x t) (y t) (z t)); [|nra].
    apply Rnot_lt_le. intros L. apply N. exists t; auto. }
  destruct eps_bounds as (E0 & E1 & E2 & E3). pose proof C_pos as Cp. pose proof kappa_pos as Kp.
  destruct beta'_bounds as (B0 & B1 & B2). pose proof time_pos as [T0 T1]. fold T in T0, T1.
  destruct M as [Mx My Mz Mvx Mvy Mvz].
  assert (Small : C * (eps * eps) < radius * radius).
  { assert (C * eps < radius) by nra. assert (eps <= radius) by nra. nra. }
  assert (Zn : forall t, 0 <= t <= T -> z t <> 0).
  { intros t Ht E. pose proof (Far t Ht) as F. rewrite E in F. pose proof (aside t Ht). nra. }
  assert (Zp : forall t, 0 <= t <= T -> 0 < z t).
  { intros t Ht. destruct (Rlt_le_dec 0 (z t)) as [P|P]; [exact P|exfalso].
    assert (Z' : z t < 0) by (specialize (Zn t Ht); lra).
    assert (t0 : 0 < t).
    { destruct (proj1 Ht) as [|E]; auto. subst t. rewrite Z0 in Z'. pose proof start_above. lra. }
    destruct (IVT_interv (fun r => - z r) 0 t) as (r & Hr & E); [|exact t0| | |].
    - intros a Ha. apply derivable_continuous_pt. exists (- vz a). apply (derivable_pt_lim_opp z). apply Mz. lra.
    - rewrite Z0. pose proof start_above. lra.
    - lra.
    - apply (Zn r); lra. }
  assert (Vz : forall t, 0 <= t <= T -> vz t <= - start_speed + beta' * t).
  { rewrite <- VZ0. intros t Ht.
    apply (grow_upper vz (fun r => - (n * n * z r) + uz r / m) beta' T); auto.
    intros r Hr. pose proof (Zp r Hr) as P. pose proof (drive _ (proj2 (proj2 (U r Hr)))) as Dr.
    pose proof (Rle_abs (uz r / m)). pose proof (Rle_0_sqr n) as Q. unfold Rsqr in Q. nra. }
  assert (ZT : z T <= start_height - start_speed * T + beta' / 2 * (T * T)).
  { pose proof (derivative_nonneg (fun r => (- start_speed * r + beta' / 2 * (r * r)) - z r)
      (fun r => (- start_speed + beta' * r) - vz r) T) as G.
    assert (H : (- start_speed * 0 + beta' / 2 * (0 * 0)) - z 0 <= (- start_speed * T + beta' / 2 * (T * T)) - z T).
    { apply G; [| |lra].
      - intros r Hr. apply (derivable_pt_lim_minus (fun r => - start_speed * r + beta' / 2 * (r * r)) z).
        + apply derive_quadratic.
        + auto.
      - intros r Hr. specialize (Vz r Hr). lra. }
    rewrite Z0 in H. lra. }
  assert (ZK : z T <= radius - kappa * eps).
  { eapply Rle_trans; [exact ZT|]. apply Req_le. unfold T, start_height. rewrite time_sqr.
    unfold crash_time. replace (start_speed * (start_speed / beta')) with (start_speed * start_speed / beta') by (field; lra).
    rewrite speed_sqr. unfold kappa, D1. field. lra. }
  assert (TT : 0 <= T <= T) by lra.
  pose proof (Zp T TT) as ZP. pose proof (Far T TT) as F. pose proof (aside T TT) as As.
  assert (z T * z T <= (radius - kappa * eps) * (radius - kappa * eps)) by nra.
  assert (Q : eps * (eps * (kappa * kappa + C + 1)) <= eps * (radius * kappa)) by (apply Rmult_le_compat_l; lra).
  assert (0 < eps * (radius * kappa)) by (apply Rmult_lt_0_compat; nra).
  assert (0 < eps * eps) by nra.
  nra.
Qed.
End Collision.

(** The starting speed is the one the constraint just accepts. *)
Lemma accepted n m b A radius :
  start_speed n m b A radius = sqrt (2 * A * (start_height n m b A radius - radius)).
Proof. unfold start_height, start_speed. f_equal. ring. Qed.
