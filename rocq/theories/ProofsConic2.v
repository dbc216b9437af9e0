(** The keep-out zone of the sun along motions. *)
From Coq Require Import Reals List Lia Lra Ratan.
From Coquelicot Require Import Hierarchy Derive Continuity AutoDerive.
From Verif Require Import Prelude Vec ModelConic SpecConic ProofsBase ProofsConic.
Import ListNotations.
Local Open Scope R_scope.

(** A function that starts non-negative and does not fall where it is negative, right after a
    zero, stays non-negative. *)
Lemma stays_nonneg (f r : R -> R) T : 0 <= f 0 -> (forall t, 0 <= t <= T -> continuity_pt f t) ->
  (forall t0, 0 <= t0 < T -> f t0 = 0 -> exists e, 0 < e /\
     forall t, t0 < t < t0 + e -> t <= T -> f t < 0 -> is_derive f t (r t) /\ 0 <= r t) ->
  forall t, 0 <= t <= T -> 0 <= f t.
Proof.
  intros F0 C Step t1 Ht1. destruct (Rle_lt_dec 0 (f t1)) as [|Neg]; auto. exfalso.
  set (E := fun s => 0 <= s <= t1 /\ 0 <= f s).
  destruct (completeness E) as (S & Up & Least).
  { exists t1; intros s [Hs _]; lra. }
  { exists 0; split; [lra|auto]. }
  assert (S0 : 0 <= S) by (apply Up; split; [lra|auto]).
  assert (S1 : S <= t1) by (apply Least; intros s [Hs _]; lra).
  assert (After : forall s, S < s <= t1 -> f s < 0).
  { intros s Hs. destruct (Rle_lt_dec 0 (f s)) as [G|]; auto. exfalso.
    assert (s <= S) by (apply Up; split; [lra|auto]). lra. }
  assert (Near : forall s e, 0 <= s <= T -> 0 < e -> exists d, 0 < d /\ forall t, Rabs (t - s) < d -> Rabs (f t - f s) < e).
  { intros s e Hs He. destruct (C s Hs e He) as (d & Hd & H). exists d; split; [exact Hd|].
    intros t Ht. destruct (Req_dec t s) as [->|N]; [rewrite Rminus_diag_eq, Rabs_R0; auto|].
    specialize (H t). simpl in H. unfold R_dist in H. apply H; split; [split; [exact I|auto]|exact Ht]. }
  assert (FS : 0 <= f S).
  { destruct (Rle_lt_dec 0 (f S)) as [|N]; auto. exfalso.
    destruct (Near S (- f S)) as (d & Hd & H); [lra|lra|].
    assert (S <= S - d / 2); [|lra]. apply Least. intros s [Hs Gs].
    destruct (Rle_lt_dec s (S - d / 2)) as [|L]; auto. exfalso.
    assert (s <= S) by (apply Up; split; auto).
    specialize (H s). rewrite Rabs_left1 in H by lra. specialize (H ltac:(lra)). apply Rabs_def2 in H. lra. }
  assert (S < t1) by (destruct (Req_dec S t1) as [E1|E1]; [rewrite E1 in FS; lra|lra]).
  assert (FZ : f S = 0).
  { destruct (Req_dec (f S) 0) as [|N]; auto. exfalso.
    destruct (Near S (f S)) as (d & Hd & H'); [lra|lra|].
    set (s := S + Rmin (d / 2) (t1 - S)).
    assert (Hm : 0 < Rmin (d / 2) (t1 - S)) by (apply Rmin_glb_lt; lra).
    pose proof (Rmin_l (d / 2) (t1 - S)). pose proof (Rmin_r (d / 2) (t1 - S)).
    specialize (After s ltac:(unfold s; lra)). specialize (H' s).
    rewrite Rabs_right in H' by (unfold s; lra). specialize (H' ltac:(unfold s; lra)). apply Rabs_def2 in H'. lra. }
  destruct (Step S ltac:(lra) FZ) as (e & He & H').
  set (s := S + Rmin (e / 2) (t1 - S)).
  assert (Hm : 0 < Rmin (e / 2) (t1 - S)) by (apply Rmin_glb_lt; lra).
  pose proof (Rmin_l (e / 2) (t1 - S)). pose proof (Rmin_r (e / 2) (t1 - S)).
  assert (Fs : f s < 0) by (apply After; unfold s; lra).
  destruct (MVT_gen f S s (fun t => Rmax 0 (r t))) as (c & Hc & Eq).
  - intros t. rewrite Rmin_left, Rmax_right by (unfold s; lra). intros Ht.
    destruct (H' t ltac:(unfold s in Ht; lra) ltac:(unfold s in Ht; lra) ltac:(apply After; unfold s in Ht; lra)) as [D P].
    rewrite Rmax_right by exact P. exact D.
  - intros t. rewrite Rmin_left, Rmax_right by (unfold s; lra). intros Ht. apply C. unfold s in Ht; lra.
  - rewrite FZ in Eq. pose proof (Rmax_l 0 (r c)). assert (0 <= Rmax 0 (r c) * (s - S)) by (apply Rmult_le_pos; unfold s; lra). lra.
Qed.

(** ** The rate of change of the gap while the point moves and the sun turns *)
Section Motion.
Variables (theta : R) (x y z s : R -> R) (vx vy vz w t : R).
Hypothesis Ht : 0 < theta < PI / 2.
Hypothesis Hx : is_derive x t vx.
Hypothesis Hy : is_derive y t vy.
Hypothesis Hz : is_derive z t vz.
Hypothesis Hs : is_derive s t w.

Definition gap_at (u : R) : R := gap (- cos (s u)) (- sin (s u)) (- 0) theta (x u) (y u) (z u).
Definition rate : R :=
  let c1 := - cos (s t) in let c2 := - sin (s t) in let c3 := - 0 in
  nrm1 c1 c2 c3 theta (x t) (y t) (z t) * (vx - (0 * z t - w * y t))
  + nrm2 c1 c2 c3 theta (x t) (y t) (z t) * (vy - (w * x t - 0 * z t))
  + nrm3 c1 c2 c3 theta (x t) (y t) (z t) * (vz - (0 * y t - 0 * x t)).

Lemma axis_unit u : - cos (s u) * - cos (s u) + - sin (s u) * - sin (s u) + - 0 * - 0 = 1.
Proof. pose proof (sin2_cos2 (s u)) as H; unfold Rsqr in H; lra. Qed.

Lemma gap_derive : 0 < rr (- cos (s t)) (- sin (s t)) (- 0) (x t) (y t) (z t) -> is_derive gap_at t rate.
Proof.
  intros Off. unfold gap_at, gap, rr, hgt.
  assert (Dx : ex_derive x t) by (exists vx; exact Hx). assert (Dy : ex_derive y t) by (exists vy; exact Hy).
  assert (Dz : ex_derive z t) by (exists vz; exact Hz). assert (Ds : ex_derive s t) by (exists w; exact Hs).
  assert (P : 0 < x t * x t + y t * y t + z t * z t -
     (x t * - cos (s t) + y t * - sin (s t) + z t * - 0) * (x t * - cos (s t) + y t * - sin (s t) + z t * - 0)).
  { unfold rr, hgt in Off. apply Rnot_le_lt; intros N; rewrite sqrt_neg_0 in Off by exact N; lra. }
  auto_derive.
  - repeat split; auto.
  - replace (Derive (fun u => x u) t) with vx by (symmetry; apply is_derive_unique; exact Hx).
    replace (Derive (fun u => y u) t) with vy by (symmetry; apply is_derive_unique; exact Hy).
    replace (Derive (fun u => z u) t) with vz by (symmetry; apply is_derive_unique; exact Hz).
    replace (Derive (fun u => s u) t) with w by (symmetry; apply is_derive_unique; exact Hs).
    unfold rate, nrm1, nrm2, nrm3, rr, hgt; cbv zeta.
    match goal with |- context [/ (2 * sqrt ?e)] => set (q := sqrt e) in * end.
    match goal with |- context [_ / sqrt ?e] => replace (sqrt e) with q by (unfold q; f_equal; ring) end.
    assert (0 < q) by (apply sqrt_lt_R0; lra).
    field; lra.
Qed.
End Motion.

(** ** The sun's zone in the words of SpecConic *)
Definition gapp (fov angle : R) (p : point) : R :=
  let '(x, y, z) := p in gap (- cos angle) (- sin angle) (- 0) (fov / 2) x y z.

Section Sun.
Variables (fov angle : R).
Hypothesis Hf : 0 < fov < PI.
Let Ht : 0 < fov / 2 < PI / 2. Proof. lra. Qed.
Let U : - cos angle * - cos angle + - sin angle * - sin angle + - 0 * - 0 = 1.
Proof. pose proof (sin2_cos2 angle) as H; unfold Rsqr in H; lra. Qed.

Lemma gapp_view p : gapp fov angle p < 0 <-> in_view fov angle p.
Proof.
  destruct p as [[x y] z]. unfold gapp. rewrite (gap_neg _ _ _ _ U Ht). unfold in_view, plen, pdot, pscale, sun_at, hgt.
  replace (-1 * x * cos angle + -1 * y * sin angle + -1 * z * 0) with (x * - cos angle + y * - sin angle + z * - 0) by ring.
  reflexivity.
Qed.
Lemma gapp_edge p : gapp fov angle p <= 0 <-> in_or_at_view fov angle p.
Proof.
  destruct p as [[x y] z]. unfold gapp. rewrite (gap_nonpos _ _ _ _ U Ht). unfold in_or_at_view, plen, pdot, pscale, sun_at, hgt.
  replace (-1 * x * cos angle + -1 * y * sin angle + -1 * z * 0) with (x * - cos angle + y * - sin angle + z * - 0) by ring.
  reflexivity.
Qed.

Lemma gapp_lip p q : gapp fov angle p - gapp fov angle q <= pdist p q.
Proof.
  destruct p as [[x y] z]; destruct q as [[x' y'] z']. unfold gapp, pdist, psub, plen, pdot.
  apply (gap_lipschitz _ _ _ _ U).
Qed.
Lemma pdist_sym p q : pdist p q = pdist q p.
Proof. destruct p as [[x y] z]; destruct q as [[x' y'] z']. unfold pdist, psub, plen, pdot; f_equal; ring. Qed.

Lemma gapp_attained p : - plen p * sin (fov / 2) <= pdot (pscale (-1) p) (sun_at angle) ->
  exists q, gapp fov angle q = 0 /\ pdist p q = Rabs (gapp fov angle p).
Proof.
  destruct p as [[x y] z]. intros H.
  assert (H' : - sqrt (x * x + y * y + z * z) * sin (fov / 2) <= hgt (- cos angle) (- sin angle) (- 0) x y z).
  { unfold plen, pdot, pscale, sun_at in H. unfold hgt. lra. }
  set (c1 := - cos angle) in *; set (c2 := - sin angle) in *; set (c3 := - 0) in *; set (th := fov / 2) in *.
  destruct (Rle_lt_dec (rr c1 c2 c3 x y z) 0) as [Z|P].
  - (* on the axis *)
    assert (R0 : rr c1 c2 c3 x y z = 0) by (pose proof (rr_nonneg c1 c2 c3 x y z); lra).
    assert (Cp : 0 < cos th) by (apply cos_gt_0; pose proof PI_RGT_0; lra).
    assert (Sp : 0 < sin th) by (apply sin_gt_0; pose proof PI_RGT_0; lra).
    pose proof (sin2_cos2 th) as SC; unfold Rsqr in SC.
    set (a := hgt c1 c2 c3 x y z) in *.
    assert (A0 : 0 <= a).
    { apply Rnot_lt_le; intros An. pose proof (rr_sqr c1 c2 c3 U x y z) as Q. rewrite R0 in Q. fold a in Q.
      replace (x * x + y * y + z * z) with (- a * - a) in H' by lra. rewrite sqrt_square in H' by lra.
      assert (sin th < 1) by nra. nra. }
    assert (Sq : (x - a * c1) * (x - a * c1) + (y - a * c2) * (y - a * c2) + (z - a * c3) * (z - a * c3) = 0).
    { pose proof (rr_perp c1 c2 c3 U x y z) as E. fold a in E. rewrite R0 in E. symmetry in E. apply sqrt_eq_0 in E; [exact E|].
      pose proof (Rle_0_sqr (x - a * c1)); pose proof (Rle_0_sqr (y - a * c2)); pose proof (Rle_0_sqr (z - a * c3)); unfold Rsqr in *; lra. }
    assert (Ez : forall u v v', u * u + v * v + v' * v' = 0 -> u = 0).
    { intros u v v' E. pose proof (Rle_0_sqr u); pose proof (Rle_0_sqr v); pose proof (Rle_0_sqr v'); unfold Rsqr in *.
      destruct (Rmult_integral u u ltac:(lra)); auto. }
    assert (X1 : x = a * c1) by (pose proof (Ez _ _ _ Sq); lra).
    assert (X2 : y = a * c2).
    { assert (Q : y - a * c2 = 0); [|lra]. apply (Ez _ (x - a * c1) (z - a * c3)). lra. }
    assert (X3 : z = a * c3).
    { assert (Q : z - a * c3 = 0); [|lra]. apply (Ez _ (x - a * c1) (y - a * c2)). lra. }
    set (k := a * cos th).
    exists (k * cos th * c1, k * cos th * c2, k * cos th * c3 + k * sin th).
    assert (C3 : c3 = 0) by (unfold c3; lra).
    assert (U2 : c1 * c1 + c2 * c2 = 1) by (rewrite C3 in U; lra).
    assert (Eh : hgt c1 c2 c3 (k * cos th * c1) (k * cos th * c2) (k * cos th * c3 + k * sin th) = k * cos th).
    { unfold hgt; rewrite C3. replace (_ + _ + _) with (k * cos th * (c1 * c1 + c2 * c2)) by ring. rewrite U2; ring. }
    split.
    + unfold gapp; fold c1 c2 c3 th. unfold gap. rewrite Eh.
      assert (Er : rr c1 c2 c3 (k * cos th * c1) (k * cos th * c2) (k * cos th * c3 + k * sin th) = k * sin th).
      { unfold rr. rewrite Eh, C3. replace (_ - _) with (k * sin th * (k * sin th) + k * cos th * (k * cos th) * (c1 * c1 + c2 * c2 - 1)) by ring.
        rewrite U2. replace (_ + _) with (k * sin th * (k * sin th)) by ring. apply sqrt_square. unfold k. apply Rmult_le_pos; [apply Rmult_le_pos|]; lra. }
      rewrite Er. ring.
    + unfold gapp; fold c1 c2 c3 th. unfold gap. rewrite R0. fold a.
      replace (0 * cos th - a * sin th) with (- (a * sin th)) by ring. rewrite Rabs_Ropp, Rabs_right by nra.
      unfold pdist, psub, plen, pdot. rewrite X1 at 1 2. rewrite X2 at 1 2. rewrite X3 at 1 2. rewrite C3.
      replace (_ + _ + _) with ((a - k * cos th) * (a - k * cos th) * (c1 * c1 + c2 * c2) + k * sin th * (k * sin th)) by ring.
      rewrite U2. replace (_ + _) with (a * sin th * (a * sin th)); [apply sqrt_square; apply Rmult_le_pos; lra|].
      unfold k. replace (a - a * cos th * cos th) with (a * (sin th * sin th)) by (replace (sin th * sin th) with (1 - cos th * cos th) by lra; ring).
      replace (a * sin th * (a * sin th)) with (a * sin th * (a * sin th) * (sin th * sin th + cos th * cos th)) by (rewrite SC; ring). ring.
  - pose proof (near_side _ _ _ _ U Ht x y z P H') as K. set (d := gap c1 c2 c3 th x y z).
    exists (x - d * nrm1 c1 c2 c3 th x y z, y - d * nrm2 c1 c2 c3 th x y z, z - d * nrm3 c1 c2 c3 th x y z).
    split.
    + unfold gapp; fold c1 c2 c3 th. exact (foot c1 c2 c3 th U Ht x y z P K).
    + unfold gapp; fold c1 c2 c3 th d. unfold pdist, psub, plen, pdot. exact (foot_dist c1 c2 c3 th U x y z P).
Qed.

Lemma gapp_clearance p : clearance fov angle p (gapp fov angle p).
Proof.
  constructor.
  - rewrite <- gapp_view. lra.
  - intros q Q. apply gapp_edge in Q. pose proof (gapp_lip p q). lra.
  - intros q Q. rewrite <- gapp_view in Q. pose proof (gapp_lip q p). rewrite (pdist_sym p q). lra.
  - intros N. destruct (gapp_attained p N) as (q & Q1 & Q2). exists q.
    split; [apply gapp_edge; lra|split; [rewrite <- gapp_view; lra|exact Q2]].
Qed.

(** The code's value at a state. *)
Definition speed_away (p v : point) (w : R) : R :=
  let '(x, y, z) := p in let '(vx, vy, vz) := v in
  let c1 := - cos angle in let c2 := - sin angle in let c3 := - 0 in
  nrm1 c1 c2 c3 (fov / 2) x y z * (vx - (0 * z - w * y))
  + nrm2 c1 c2 c3 (fov / 2) x y z * (vy - (w * x - 0 * z))
  + nrm3 c1 c2 c3 (fov / 2) x y z * (vz - (0 * y - 0 * x)).
Definition off_axis (p : point) : Prop := let '(x, y, z) := p in rr (- cos angle) (- sin angle) (- 0) x y z <> 0.

Lemma sun_value_some a_max w p v dv h : sun_value fov a_max w (state_of p v angle dv) = Some h ->
  off_axis p /\ gapp fov angle p <> 0 /\ h = braking_barrier a_max (gapp fov angle p) (speed_away p v w).
Proof.
  destruct p as [[x y] z]; destruct v as [[vx vy] vz]. intros H.
  change (sun_value fov a_max w (state_of (x, y, z) (vx, vy, vz) angle dv)) with
    (conic_value fov a_max [x; y; z] [vx; vy; vz] [- cos angle; - sin angle; - 0] [0; 0; w]) in H.
  rewrite (conic_value_eq _ _ _ _ U Ht x y z fov a_max vx vy vz 0 0 w eq_refl) in H.
  destruct (Req_EM_T _ 0); [discriminate|]. destruct (Req_EM_T _ 0) as [|A]; [discriminate|].
  destruct (Req_EM_T _ 0) as [|B]; [discriminate|]. injection H as <-. auto.
Qed.
Lemma sun_value_defined a_max w p v dv : plen p <> 0 -> off_axis p -> gapp fov angle p <> 0 ->
  sun_value fov a_max w (state_of p v angle dv) = Some (braking_barrier a_max (gapp fov angle p) (speed_away p v w)).
Proof.
  destruct p as [[x y] z]; destruct v as [[vx vy] vz]. intros A B C.
  change (sun_value fov a_max w (state_of (x, y, z) (vx, vy, vz) angle dv)) with
    (conic_value fov a_max [x; y; z] [vx; vy; vz] [- cos angle; - sin angle; - 0] [0; 0; w]).
  rewrite (conic_value_eq _ _ _ _ U Ht x y z fov a_max vx vy vz 0 0 w eq_refl).
  destruct (Req_EM_T _ 0) as [E|_]; [destruct (A E)|]. destruct (Req_EM_T _ 0) as [E|_]; [destruct (B E)|].
  destruct (Req_EM_T _ 0) as [E|_]; [destruct (C E)|]. reflexivity.
Qed.
Lemma sun_value_none a_max w p v dv : plen p = 0 \/ ~ off_axis p \/ gapp fov angle p = 0 ->
  sun_value fov a_max w (state_of p v angle dv) = None.
Proof.
  destruct p as [[x y] z]; destruct v as [[vx vy] vz]. intros A.
  change (sun_value fov a_max w (state_of (x, y, z) (vx, vy, vz) angle dv)) with
    (conic_value fov a_max [x; y; z] [vx; vy; vz] [- cos angle; - sin angle; - 0] [0; 0; w]).
  rewrite (conic_value_eq _ _ _ _ U Ht x y z fov a_max vx vy vz 0 0 w eq_refl).
  destruct (Req_EM_T _ 0) as [|E]; [reflexivity|]. destruct (Req_EM_T _ 0) as [|E1]; [reflexivity|].
  destruct (Req_EM_T _ 0) as [|E2]; [reflexivity|]. destruct A as [A|[A|A]]; [destruct (E A)|destruct (A E1)|destruct (E2 A)].
Qed.

(** Braking along the normal. *)
Lemma sun_braking a_max p v dv h : 0 <= a_max -> sun_value fov a_max 0 (state_of p v angle dv) = Some h -> 0 <= h ->
  ~ in_view fov angle p ->
  exists e, plen e = 1 /\ forall t, 0 <= t ->
    ~ in_view fov angle (padd p (padd (pscale t v) (pscale (/ 2 * a_max * (t * t)) e))).
Proof.
  intros Ha Hv Hh Out. destruct (sun_value_some _ _ _ _ _ _ Hv) as (Off & NZ & E).
  rewrite <- gapp_view in Out. destruct p as [[x y] z]; destruct v as [[vx vy] vz]. unfold off_axis in Off.
  pose proof (rr_nonneg (- cos angle) (- sin angle) (- 0) x y z) as R0.
  assert (Op : 0 < rr (- cos angle) (- sin angle) (- 0) x y z) by lra.
  set (n1 := nrm1 (- cos angle) (- sin angle) (- 0) (fov / 2) x y z).
  set (n2 := nrm2 (- cos angle) (- sin angle) (- 0) (fov / 2) x y z).
  set (n3 := nrm3 (- cos angle) (- sin angle) (- 0) (fov / 2) x y z).
  pose proof (nrm_unit _ _ _ (fov / 2) U x y z Op) as N1. fold n1 n2 n3 in N1.
  exists (n1, n2, n3). split; [unfold plen, pdot; rewrite N1; apply sqrt_1|].
  intros t T0. rewrite <- gapp_view. apply Rle_not_lt. unfold padd, pscale, gapp.
  eapply Rle_trans; [|apply (nrm_below _ _ _ _ U Ht x y z Op)]. fold n1 n2 n3.
  pose proof (nrm_here _ _ _ (fov / 2) U x y z Op) as NH. fold n1 n2 n3 in NH.
  set (d := gapp fov angle (x, y, z)) in *. change (gap _ _ _ _ _ _ _) with d in NH.
  set (r := n1 * vx + n2 * vy + n3 * vz).
  assert (Er : speed_away (x, y, z) (vx, vy, vz) 0 = r) by (unfold speed_away; fold n1 n2 n3; unfold r; ring).
  rewrite Er in E. unfold braking_barrier in E. destruct (Rle_dec 0 d) as [D|D]; [|lra].
  replace (_ + _ + _) with (d + r * t + / 2 * a_max * (t * t) * (n1 * n1 + n2 * n2 + n3 * n3)) by (unfold r; rewrite <- NH; ring).
  rewrite N1, Rmult_1_r.
  set (q := sqrt (2 * a_max * d)) in *. assert (Q2 : q * q = 2 * a_max * d) by (apply sqrt_sqrt; nra).
  assert (Rt : - q * t <= r * t) by (apply Rmult_le_compat_r; lra).
  assert (0 <= d - q * t + / 2 * a_max * (t * t)); [|lra].
  assert (Dp : 0 < d) by lra.
  apply (Rmult_le_reg_l (2 * d)); [lra|]. rewrite Rmult_0_r.
  replace (2 * d * (d - q * t + / 2 * a_max * (t * t))) with (2 * (d * d) - 2 * d * q * t + / 2 * (2 * a_max * d) * (t * t)) by field.
  rewrite <- Q2. pose proof (Rle_0_sqr (2 * d - q * t)) as S; unfold Rsqr in S. lra.
Qed.

(** The reported angle. *)
Lemma sun_phi_eq p v dv : plen p <> 0 -> exists h, sun_phi fov (state_of p v angle dv) = Some h /\
  (0 <= h <-> ~ in_view fov angle p).
Proof.
  destruct p as [[x y] z]; destruct v as [[vx vy] vz]. intros A.
  change (sun_phi fov (state_of (x, y, z) (vx, vy, vz) angle dv)) with
    (conic_phi fov [x; y; z] [- cos angle; - sin angle; - 0]).
  rewrite (conic_phi_eq _ _ _ U x y z fov). destruct (Req_EM_T _ 0) as [E|NZ]; [destruct (A E)|].
  eexists; split; [reflexivity|].
  pose proof (cosine _ _ _ U x y z NZ) as Cs. set (l := sqrt _) in *.
  assert (L0 : 0 < l) by (pose proof (sqrt_pos (x * x + y * y + z * z)) as Q0; change (0 <= l) in Q0; lra).
  pose proof (acos_bound (hgt (- cos angle) (- sin angle) (- 0) x y z / l)) as Ab.
  assert (V : in_view fov angle (x, y, z) <-> cos (fov / 2) < hgt (- cos angle) (- sin angle) (- 0) x y z / l).
  { unfold in_view, plen, pdot, pscale, sun_at. fold l.
    replace (-1 * x * cos angle + -1 * y * sin angle + -1 * z * 0) with (hgt (- cos angle) (- sin angle) (- 0) x y z) by (unfold hgt; ring).
    split; intros H.
    - apply (Rmult_lt_reg_r l); [exact L0|]. unfold Rdiv; rewrite Rmult_assoc, Rinv_l by lra. lra.
    - apply (Rmult_lt_compat_r l) in H; [|exact L0]. unfold Rdiv in H; rewrite Rmult_assoc, Rinv_l in H by lra. lra. }
  rewrite V. rewrite <- (cos_acos _ Cs) at 2. pose proof PI_RGT_0.
  split; intros H'.
  - apply Rle_not_lt. apply cos_decr_1; lra.
  - apply Rnot_lt_le in H'. apply cos_decr_0 in H'; lra.
Qed.
End Sun.

(** ** Along a motion *)
Section Along.
Variables (fov a_max w T : R) (p v : R -> point) (angle : R -> R).
Hypothesis Hf : 0 < fov < PI.
Hypothesis Hm : moves T p v.
Hypothesis Hw : turns T w angle.
Let Ht : 0 < fov / 2 < PI / 2. Proof. lra. Qed.
Let x t := fst (fst (p t)).
Let y t := snd (fst (p t)).
Let z t := snd (p t).

Lemma p_eta t : p t = (x t, y t, z t).
Proof. unfold x, y, z; destruct (p t) as [[? ?] ?]; reflexivity. Qed.

Lemma gapp_derive t : 0 <= t <= T -> off_axis (angle t) (p t) ->
  derivable_pt_lim (fun t => gapp fov (angle t) (p t)) t (speed_away fov (angle t) (p t) (v t) w).
Proof.
  intros Tt Off. destruct (Hm t Tt) as (Dx & Dy & Dz). pose proof (Hw t Tt) as Ds.
  apply is_derive_Reals in Dx; apply is_derive_Reals in Dy; apply is_derive_Reals in Dz; apply is_derive_Reals in Ds.
  apply is_derive_Reals.
  apply (is_derive_ext (gap_at (fov / 2) x y z angle)).
  { intros u. unfold gapp, gap_at. rewrite p_eta. reflexivity. }
  rewrite p_eta in Off |- *. unfold off_axis in Off.
  replace (speed_away fov (angle t) (x t, y t, z t) (v t) w) with
    (rate (fov / 2) x y z angle (fst (fst (v t))) (snd (fst (v t))) (snd (v t)) w t).
  2:{ unfold speed_away, rate. destruct (v t) as [[? ?] ?]; reflexivity. }
  apply gap_derive; auto. pose proof (rr_nonneg (- cos (angle t)) (- sin (angle t)) (- 0) (x t) (y t) (z t)). lra.
Qed.

Lemma parts_continuous t : 0 <= t <= T ->
  continuity_pt (fun t => rr (- cos (angle t)) (- sin (angle t)) (- 0) (x t) (y t) (z t)) t /\
  continuity_pt (fun t => hgt (- cos (angle t)) (- sin (angle t)) (- 0) (x t) (y t) (z t)) t.
Proof.
  intros Tt. destruct (Hm t Tt) as (Dx & Dy & Dz). pose proof (Hw t Tt) as Ds.
  apply is_derive_Reals in Dx; apply is_derive_Reals in Dy; apply is_derive_Reals in Dz; apply is_derive_Reals in Ds.
  fold x in Dx; fold y in Dy; fold z in Dz.
  assert (Ex : ex_derive x t) by (eexists; exact Dx). assert (Ey : ex_derive y t) by (eexists; exact Dy).
  assert (Ez : ex_derive z t) by (eexists; exact Dz). assert (Es : ex_derive angle t) by (eexists; exact Ds).
  assert (Der : forall f, ex_derive f t -> continuity_pt f t).
  { intros f Hd. apply continuity_pt_filterlim. exact (ex_derive_continuous f t Hd). }
  split.
  - unfold rr. apply (continuity_pt_comp (fun t => x t * x t + y t * y t + z t * z t -
       hgt (- cos (angle t)) (- sin (angle t)) (- 0) (x t) (y t) (z t) * hgt (- cos (angle t)) (- sin (angle t)) (- 0) (x t) (y t) (z t)) sqrt).
    + apply Der. unfold hgt. auto_derive. repeat split; auto.
    + apply continuity_pt_sqrt. apply rr_arg, axis_unit.
  - apply Der. unfold hgt. auto_derive. repeat split; auto.
Qed.
Lemma gapp_continuous t : 0 <= t <= T -> continuity_pt (fun t => gapp fov (angle t) (p t)) t.
Proof.
  intros Tt. destruct (parts_continuous t Tt) as [A B].
  apply (continuity_pt_ext (fun t => rr (- cos (angle t)) (- sin (angle t)) (- 0) (x t) (y t) (z t) * cos (fov / 2)
     - hgt (- cos (angle t)) (- sin (angle t)) (- 0) (x t) (y t) (z t) * sin (fov / 2))).
  { intros u. unfold gapp, gap. rewrite p_eta. reflexivity. }
  apply continuity_pt_minus; apply continuity_pt_mult; auto; apply continuity_pt_const; intros ? ?; reflexivity.
Qed.

Lemma sun_stays_out dv : 0 <= a_max -> (forall t, 0 <= t <= T -> plen (p t) <> 0) ->
  (forall t h, 0 <= t <= T -> sun_value fov a_max w (state_of (p t) (v t) (angle t) (dv t)) = Some h -> 0 <= h) ->
  ~ in_view fov (angle 0) (p 0) -> forall t, 0 <= t <= T -> ~ in_view fov (angle t) (p t).
Proof.
  intros Ha NZ Hv H0 t Tt. rewrite <- (gapp_view fov (angle t) Hf). rewrite <- (gapp_view fov (angle 0) Hf) in H0.
  apply Rle_not_lt. revert t Tt.
  apply (stays_nonneg (fun t => gapp fov (angle t) (p t)) (fun t => speed_away fov (angle t) (p t) (v t) w) T);
    [lra|exact gapp_continuous|].
  intros t0 T0 G0.
  assert (R0 : 0 < rr (- cos (angle t0)) (- sin (angle t0)) (- 0) (x t0) (y t0) (z t0)).
  { pose proof (rr_nonneg (- cos (angle t0)) (- sin (angle t0)) (- 0) (x t0) (y t0) (z t0)) as N.
    destruct (Req_dec (rr (- cos (angle t0)) (- sin (angle t0)) (- 0) (x t0) (y t0) (z t0)) 0) as [E|]; [|lra]. exfalso.
    rewrite p_eta in G0. unfold gapp, gap in G0. rewrite E in G0.
    assert (Sp : 0 < sin (fov / 2)) by (apply sin_gt_0; pose proof PI_RGT_0; lra).
    assert (Hz : hgt (- cos (angle t0)) (- sin (angle t0)) (- 0) (x t0) (y t0) (z t0) = 0) by nra.
    pose proof (rr_sqr _ _ _ (axis_unit angle t0) (x t0) (y t0) (z t0)) as S. rewrite E, Hz in S.
    apply (NZ t0 ltac:(lra)). rewrite p_eta. unfold plen, pdot. rewrite <- sqrt_0. f_equal. lra. }
  destruct (parts_continuous t0 ltac:(lra)) as [Cr _].
  destruct (Cr _ R0) as (e & He & Near). exists e; split; [exact He|].
  intros t Tt TT Neg.
  assert (Off : off_axis (angle t) (p t)).
  { rewrite p_eta. unfold off_axis. specialize (Near t). simpl in Near. unfold R_dist in Near.
    assert (Q : Rabs (rr (- cos (angle t)) (- sin (angle t)) (- 0) (x t) (y t) (z t) -
       rr (- cos (angle t0)) (- sin (angle t0)) (- 0) (x t0) (y t0) (z t0)) < rr (- cos (angle t0)) (- sin (angle t0)) (- 0) (x t0) (y t0) (z t0)).
    { apply Near; split; [split; [exact I|lra]|]. rewrite Rabs_right; lra. }
    apply Rabs_def2 in Q. lra. }
  split; [apply is_derive_Reals, gapp_derive; [lra|exact Off]|].
  pose proof (sun_value_defined fov (angle t) Hf a_max w (p t) (v t) (dv t) (NZ t ltac:(lra)) Off ltac:(lra)) as V.
  pose proof (Hv t _ ltac:(lra) V) as P. unfold braking_barrier in P.
  destruct (Rle_dec 0 (gapp fov (angle t) (p t))) as [|_]; [lra|].
  pose proof (sqrt_pos (2 * a_max * - gapp fov (angle t) (p t))). lra.
Qed.
End Along.

(** Off the axis, in the words of SpecConic. *)
Lemma off_axis_spec angle p : (forall k, p <> pscale k (sun_at angle)) -> off_axis angle p.
Proof.
  destruct p as [[x y] z]. unfold off_axis. intros N E.
  assert (U : - cos angle * - cos angle + - sin angle * - sin angle + - 0 * - 0 = 1)
    by (pose proof (sin2_cos2 angle) as H; unfold Rsqr in H; lra).
  rewrite (rr_perp _ _ _ U) in E.
  set (a := hgt (- cos angle) (- sin angle) (- 0) x y z) in *.
  assert (Pos : forall u, 0 <= u * u) by (intros u; pose proof (Rle_0_sqr u); auto).
  apply sqrt_eq_0 in E; [|pose proof (Pos (x - a * - cos angle)); pose proof (Pos (y - a * - sin angle)); pose proof (Pos (z - a * - 0)); lra].
  assert (Z : forall u v v', u * u + v * v + v' * v' = 0 -> u = 0).
  { intros u v v' Q. pose proof (Pos u); pose proof (Pos v); pose proof (Pos v'). destruct (Rmult_integral u u ltac:(lra)); auto. }
  apply (N (- a)). unfold pscale, sun_at.
  pose proof (Z _ _ _ E) as E1.
  assert (E2 : y - a * - sin angle = 0) by (apply (Z _ (x - a * - cos angle) (z - a * - 0)); lra).
  assert (E3 : z - a * - 0 = 0) by (apply (Z _ (x - a * - cos angle) (y - a * - sin angle)); lra).
  f_equal; [f_equal|]; lra.
Qed.
Lemma on_axis_spec angle k : ~ off_axis angle (pscale k (sun_at angle)).
Proof.
  unfold pscale, sun_at, off_axis. intros N; apply N.
  pose proof (sin2_cos2 angle) as H; unfold Rsqr in H.
  unfold rr, hgt. replace (_ - _) with (k * k * (sin angle * sin angle + cos angle * cos angle) * (1 - (sin angle * sin angle + cos angle * cos angle))) by ring.
  rewrite H. replace (_ * _) with 0 by ring. apply sqrt_0.
Qed.
