(** C63: the keep-out zone around the sun, in the inspection modules. *)
From Coq Require Import Reals List Lia Lra Ratan.
From Coquelicot Require Import Hierarchy Derive.
From Verif Require Import Prelude Vec ModelConic SpecConic ProofsConic ProofsConic2.
Import ListNotations.
Local Open Scope R_scope.

(** The value that the module reports (phi) for a deputy anywhere but in the chief's place
    exists, and is not negative exactly when the sun is not in view. *)
Theorem C63_reported_value : forall fov angle p v dv, 0 < fov < PI -> plen p <> 0 ->
  exists h, sun_phi fov (state_of p v angle dv) = Some h /\ (0 <= h <-> ~ in_view fov angle p).
Proof. intros; apply sun_phi_eq; auto. Qed.
Print Assumptions C63_reported_value.

Example C63_reported_case :
  0 < PI / 3 < PI /\ plen (pt 0 100 0) <> 0 /\ ~ in_view (PI / 3) 0 (pt 0 100 0) /\ in_view (PI / 3) 0 (pt (-100) 1 0).
Proof.
  assert (C6 : cos (PI / 3 / 2) = sqrt 3 / 2) by (replace (PI / 3 / 2) with (PI / 6) by field; apply cos_PI6).
  pose proof PI_RGT_0 as P.
  assert (S3 : 1 < sqrt 3 < 7 / 4).
  { split; [rewrite <- sqrt_1 at 1; apply sqrt_lt_1; lra|].
    replace (7 / 4) with (sqrt (7 / 4 * (7 / 4))) by (apply sqrt_square; lra). apply sqrt_lt_1; lra. }
  split; [lra|]. unfold in_view, plen, pdot, pscale, sun_at, pt. rewrite C6, cos_0, sin_0.
  replace (0 * 0 + 100 * 100 + 0 * 0) with (100 * 100) by ring. rewrite sqrt_square by lra.
  split; [lra|]. split; [lra|].
  assert (sqrt (-100 * -100 + 1 * 1 + 0 * 0) < 101); [|nra].
  replace 101 with (sqrt (101 * 101)) by (apply sqrt_square; lra). apply sqrt_lt_1; lra.
Qed.

(** The value that the filters use: along every motion of the deputy while the sun turns at the
    module's rate there is a clearance from the places where the sun is in view, and wherever
    the module has a value it is the documented barrier for that clearance and its rate of
    change. *)
Theorem C63_value_is_barrier : forall fov a_max w T p v angle dv, 0 < fov < PI ->
  moves T p v -> turns T w angle ->
  exists d : R -> R, forall t, 0 <= t <= T -> clearance fov (angle t) (p t) (d t) /\
    forall h, sun_value fov a_max w (state_of (p t) (v t) (angle t) (dv t)) = Some h ->
    exists r, derivable_pt_lim d t r /\ h = braking_barrier a_max (d t) r.
Proof.
  intros fov a_max w T p v angle dv Hf Hm Hw. exists (fun t => gapp fov (angle t) (p t)). intros t Tt.
  split; [apply gapp_clearance; auto|]. intros h E.
  destruct (sun_value_some fov (angle t) Hf _ _ _ _ _ _ E) as (Off & _ & ->).
  eexists; split; [|reflexivity]. eapply gapp_derive; eauto.
Qed.
Print Assumptions C63_value_is_barrier.

(** The module has a value, except in the chief's place, on the line through the chief and the
    sun, and at the very edge of the field of view.  (The full statement, a value in every place
    but the chief's, is refuted below.) *)
Theorem C63_value_exists_partial : forall fov a_max w angle p v dv, 0 < fov < PI ->
  plen p <> 0 -> (forall k, p <> pscale k (sun_at angle)) ->
  (in_or_at_view fov angle p -> in_view fov angle p) ->
  exists h, sun_value fov a_max w (state_of p v angle dv) = Some h.
Proof.
  intros fov a_max w angle p v dv Hf NZ Off NE. eexists. apply sun_value_defined; auto.
  - apply off_axis_spec; auto.
  - intros E. rewrite <- gapp_edge, <- gapp_view in NE by auto. lra.
Qed.
Print Assumptions C63_value_exists_partial.

(** A deputy that looks straight into the sun gets no value (nan), and neither does one with the
    sun at the very edge of its view.  (Nan counts as safe: C57_nan_passes_refuted.) *)
Theorem C63_no_value_refuted : forall fov a_max w angle v dv, 0 < fov < PI ->
  (forall k, 0 < k -> in_view fov angle (pscale (- k) (sun_at angle)) /\
     sun_value fov a_max w (state_of (pscale (- k) (sun_at angle)) v angle dv) = None) /\
  (forall p, in_or_at_view fov angle p -> ~ in_view fov angle p ->
     sun_value fov a_max w (state_of p v angle dv) = None).
Proof.
  intros fov a_max w angle v dv Hf. split.
  - intros k K. split.
    + unfold in_view, plen, pscale, pdot, sun_at. pose proof (sin2_cos2 angle) as H; unfold Rsqr in H.
      replace (- k * cos angle * (- k * cos angle) + - k * sin angle * (- k * sin angle) + - k * 0 * (- k * 0))
        with (k * k * (sin angle * sin angle + cos angle * cos angle)) by ring.
      replace (-1 * (- k * cos angle) * cos angle + -1 * (- k * sin angle) * sin angle + -1 * (- k * 0) * 0)
        with (k * (sin angle * sin angle + cos angle * cos angle)) by ring.
      rewrite H, !Rmult_1_r, sqrt_square by lra.
      assert (cos (fov / 2) < 1); [|nra]. rewrite <- cos_0. apply cos_decreasing_1; lra.
    + apply sun_value_none; auto. right; left. apply on_axis_spec.
  - intros p A B. apply sun_value_none; auto. right; right.
    rewrite <- gapp_edge in A by auto. rewrite <- gapp_view in B by auto. lra.
Qed.
Print Assumptions C63_no_value_refuted.

Example C63_edge_case : 0 < PI / 2 < PI /\
  in_or_at_view (PI / 2) 0 (pt (-1) 1 0) /\ ~ in_view (PI / 2) 0 (pt (-1) 1 0).
Proof.
  pose proof PI_RGT_0 as P. split; [lra|].
  unfold in_or_at_view, in_view, plen, pdot, pscale, sun_at, pt.
  replace (PI / 2 / 2) with (PI / 4) by field. rewrite cos_PI4, cos_0, sin_0.
  replace (-1 * -1 + 1 * 1 + 0 * 0) with 2 by ring.
  pose proof (sqrt_lt_R0 2 ltac:(lra)). replace (sqrt 2 * (1 / sqrt 2)) with 1 by (field; lra). lra.
Qed.

(** A filter that keeps the value from becoming negative keeps the sun out of view. *)
Theorem C63_stays_out : forall fov a_max w T p v angle dv, 0 < fov < PI -> 0 <= a_max ->
  moves T p v -> turns T w angle -> (forall t, 0 <= t <= T -> plen (p t) <> 0) ->
  (forall t h, 0 <= t <= T -> sun_value fov a_max w (state_of (p t) (v t) (angle t) (dv t)) = Some h -> 0 <= h) ->
  ~ in_view fov (angle 0) (p 0) ->
  forall t, 0 <= t <= T -> ~ in_view fov (angle t) (p t).
Proof. intros fov a_max w T p v angle dv Hf Ha Hm Hw NZ Hv H0. exact (sun_stays_out fov a_max w T p v angle Hf Hm Hw dv Ha NZ Hv H0). Qed.
Print Assumptions C63_stays_out.

(** Non-vacuity: a deputy that circles the chief with the sun, looking at right angles to it. *)
Example C63_circling_case :
  let p t := pt (- 100 * sin (t / 10)) (100 * cos (t / 10)) 0 in
  let v t := pt (- 10 * cos (t / 10)) (- 10 * sin (t / 10)) 0 in
  let angle t := t / 10 in
  0 < PI / 3 < PI /\ moves 1000 p v /\ turns 1000 (1 / 10) angle /\
  (forall t, 0 <= t <= 1000 -> plen (p t) <> 0) /\
  (forall t, exists h, sun_value (PI / 3) 1 (1 / 10) (state_of (p t) (v t) (angle t) 0) = Some h /\ 0 < h) /\
  ~ in_view (PI / 3) (angle 0) (p 0).
Proof.
  intros p v angle. pose proof PI_RGT_0 as P.
  assert (Hf : 0 < PI / 3 < PI) by lra.
  assert (SC : forall u, sin u * sin u + cos u * cos u = 1) by (intros u; pose proof (sin2_cos2 u) as H; unfold Rsqr in H; exact H).
  assert (C0 : 0 < cos (PI / 3 / 2)) by (apply cos_gt_0; lra).
  assert (Hg : forall t, hgt (- cos (angle t)) (- sin (angle t)) (- 0) (- 100 * sin (t / 10)) (100 * cos (t / 10)) 0 = 0)
    by (intros t; unfold hgt, angle; ring).
  assert (Hr : forall t, rr (- cos (angle t)) (- sin (angle t)) (- 0) (- 100 * sin (t / 10)) (100 * cos (t / 10)) 0 = 100).
  { intros t. unfold rr. rewrite Hg. replace (_ - _) with (100 * 100 * (sin (t / 10) * sin (t / 10) + cos (t / 10) * cos (t / 10))) by ring.
    rewrite SC, Rmult_1_r. apply sqrt_square; lra. }
  assert (G : forall t, gapp (PI / 3) (angle t) (p t) = 100 * cos (PI / 3 / 2)).
  { intros t. unfold gapp, p, pt, gap. rewrite Hg, Hr. ring. }
  assert (NZ : forall t, plen (p t) <> 0).
  { intros t. unfold plen, pdot, p, pt. replace (_ + _ + _) with (100 * 100 * (sin (t / 10) * sin (t / 10) + cos (t / 10) * cos (t / 10))) by ring.
    rewrite SC, Rmult_1_r, sqrt_square; lra. }
  assert (Dc : forall t, is_derive (fun u => 100 * cos (u / 10)) t (- 10 * sin (t / 10))).
  { intros t. replace (-10 * sin (t / 10)) with (100 * scal (/ 10) (- sin (t / 10))) by (unfold scal; simpl; unfold mult; simpl; field).
    apply is_derive_scal. apply (is_derive_comp cos (fun u => u / 10)).
    - apply is_derive_Reals, derivable_pt_lim_cos.
    - apply is_derive_Reals. replace (/ 10) with (1 / 10) by field. unfold Rdiv.
      apply derivable_pt_lim_ext with (f := (mult_real_fct (/ 10) id)); [intros; unfold mult_real_fct, id; ring|].
      replace (1 * / 10) with (/ 10 * 1) by ring. apply derivable_pt_lim_scal, derivable_pt_lim_id. }
  split; [exact Hf|]. split; [|split; [|split; [|split]]].
  - intros t _. unfold p, v, pt; cbn [fst snd]. split; [|split].
    + apply derivable_pt_lim_ext with (f := comp (mult_real_fct (-100) sin) (mult_real_fct (/ 10) id)).
      { intros u. unfold comp, mult_real_fct, id. replace (/ 10 * u) with (u / 10) by field. reflexivity. }
      replace (-10 * cos (t / 10)) with (-100 * cos (mult_real_fct (/ 10) id t) * (/ 10 * 1))
        by (unfold mult_real_fct, id; replace (/ 10 * t) with (t / 10) by field; field).
      apply derivable_pt_lim_comp; [apply derivable_pt_lim_scal, derivable_pt_lim_id|].
      apply derivable_pt_lim_scal, derivable_pt_lim_sin.
    + apply is_derive_Reals, Dc.
    + apply derivable_pt_lim_const.
  - intros t _. unfold angle. apply derivable_pt_lim_ext with (f := mult_real_fct (/ 10) id); [intros; unfold mult_real_fct, id; field|].
    replace (1 / 10) with (/ 10 * 1) by field. apply derivable_pt_lim_scal, derivable_pt_lim_id.
  - intros t _; apply NZ.
  - intros t.
    assert (Off : off_axis (angle t) (p t)) by (unfold off_axis, p, pt; rewrite Hr; lra).
    eexists; split; [apply sun_value_defined; auto; rewrite G; lra|]. rewrite G.
    assert (Z : speed_away (PI / 3) (angle t) (p t) (v t) (1 / 10) = 0).
    { unfold speed_away, p, v, pt. cbv zeta.
      replace (-10 * cos (t / 10) - (0 * 0 - 1 / 10 * (100 * cos (t / 10)))) with 0 by field.
      replace (-10 * sin (t / 10) - (1 / 10 * (-100 * sin (t / 10)) - 0 * 0)) with 0 by field. ring. }
    rewrite Z. unfold braking_barrier. destruct (Rle_dec 0 (100 * cos (PI / 3 / 2))); [|lra].
    rewrite Rplus_0_r. apply sqrt_lt_R0; lra.
  - rewrite <- (gapp_view _ _ Hf), G. lra.
Qed.

(** While the sun stands still: from a state with a value that is not negative and the sun not in
    view, accelerating by [a_max] in one direction keeps the sun out of view for ever. *)
Theorem C63_braking_keeps_out : forall fov a_max angle p v dv h, 0 < fov < PI -> 0 <= a_max ->
  sun_value fov a_max 0 (state_of p v angle dv) = Some h -> 0 <= h -> ~ in_view fov angle p ->
  exists e, plen e = 1 /\ forall t, 0 <= t ->
    ~ in_view fov angle (padd p (padd (pscale t v) (pscale (/ 2 * a_max * (t * t)) e))).
Proof. intros fov a_max angle p v dv h Hf Ha E Hh Out. exact (sun_braking fov angle Hf a_max p v dv h Ha E Hh Out). Qed.
Print Assumptions C63_braking_keeps_out.

Example C63_braking_case :
  exists h, sun_value (PI / 3) 1 0 (state_of (pt 0 100 0) (pt 0 (-1) 0) 0 0) = Some h /\ 0 <= h /\
  ~ in_view (PI / 3) 0 (pt 0 100 0).
Proof.
  pose proof PI_RGT_0 as P. assert (Hf : 0 < PI / 3 < PI) by lra.
  assert (C0 : 0 < cos (PI / 3 / 2)) by (apply cos_gt_0; lra).
  assert (C1 : cos (PI / 3 / 2) <= 1) by apply COS_bound.
  assert (Hg : hgt (- cos 0) (- sin 0) (- 0) 0 100 0 = 0) by (unfold hgt; rewrite sin_0; ring).
  assert (Hr : rr (- cos 0) (- sin 0) (- 0) 0 100 0 = 100).
  { unfold rr. rewrite Hg. replace (_ - _) with (100 * 100) by ring. apply sqrt_square; lra. }
  assert (G : gapp (PI / 3) 0 (pt 0 100 0) = 100 * cos (PI / 3 / 2)) by (unfold gapp, pt, gap; rewrite Hg, Hr; ring).
  eexists; split; [apply sun_value_defined; auto|].
  - unfold plen, pdot, pt. replace (_ + _ + _) with (100 * 100) by ring. rewrite sqrt_square; lra.
  - unfold off_axis, pt. rewrite Hr; lra.
  - rewrite G; lra.
  - rewrite G. split; [|rewrite <- (gapp_view _ _ Hf), G; lra].
    assert (E : speed_away (PI / 3) 0 (pt 0 100 0) (pt 0 (-1) 0) 0 = - cos (PI / 3 / 2)).
    { unfold speed_away, pt, nrm1, nrm2, nrm3; cbv zeta. rewrite Hg, Hr, sin_0. field. }
    rewrite E. unfold braking_barrier. destruct (Rle_dec _ _); [|lra].
    set (c := cos (PI / 3 / 2)) in *.
    assert (c <= sqrt (2 * 1 * (100 * c))); [|lra].
    rewrite <- (sqrt_square c) at 1 by lra. apply sqrt_le_1; nra.
Qed.
