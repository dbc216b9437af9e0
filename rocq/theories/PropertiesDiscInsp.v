(** C94: flights under the discrete inspection module. *)
From Coq Require Import String Reals List Bool ZArith Lia Lra.
From Verif Require Import Prelude Vec ModelBase ModelAsif ModelConstraint ModelCwh ModelConic ModelZoo ModelDiscrete ModelDiscInsp.
From Verif Require Import SpecCore SpecAsif SpecCwh SpecConic SpecDiscrete SpecDiscInsp.
From Verif Require Import ProofsBase ProofsVec ProofsCwh ProofsCwh2 ProofsConic ProofsConic2 ProofsDiscrete PropertiesDiscrete ProofsDiscInsp ProofsDiscInsp2 ExampleDiscInsp.
Import ListNotations.
Local Open Scope R_scope.

(** What a flight keeps: every component of the velocity within the limit, the range kept and at
    most overrun by what the velocity limit explains, the collision distance kept up to the
    solver's tolerance, the distance dependent speed limit kept. *)
Definition flight_limits (c : insp_cfg) (tol : R) (s : vec) : Prop :=
  axes_slow (i_vel_limit c) s /\
  stays_near (i_r_max c) (i_a_max c) s /\
  stays_clear (i_chief c + i_deputy c) (i_a_max c) (100 * tol) s /\
  paced (i_v0 c) (i_v1 c) (i_v0_distance c) (1 / 100000) s.

(** ** C94.  Whatever controls are desired, a flight that starts within these limits and in which
    the solver never fails stays within them at every call, if the steps are short.  The
    sun's keep-out cone and the passively safe maneuver are not part of the statement: that is
    what is missing. *)
Theorem C94_flight_partial :
  forall nan c eps exc solve tol dt (s : dmod vec zparams) x xs,
  slsqp_contract tol solve -> 0 <= tol <= 1 / 1000000 -> 0 < dt ->
  disc_reached (discrete_inspection c eps exc solve) s ->
  one_number (b_low (i_bounds c)) -> one_number (b_high (i_bounds c)) -> enable s = true ->
  (forall k d, In (k, d) (disc_constraints s) -> In (k, d) (discrete_inspection_constraints nan c)) ->
  (forall k d, In (k, d) (discrete_inspection_constraints nan c) -> k <> "sun"%string -> k <> "PSM"%string ->
     In (k, d) (disc_constraints s)) ->
  1 / 10 <= i_vel_limit c -> 0 < i_a_max c -> 0 <= i_r_max c -> 0 <= i_chief c + i_deputy c -> 0 <= i_v1 c ->
  short_steps (i_vel_limit c) (i_a_max c) (i_r_max c) (i_v0 c) (i_v1 c) (i_v0_distance c) dt ->
  disc_loop (discrete_inspection c eps exc solve) dt s x xs -> length x = 8%nat ->
  flight_limits c tol x ->
  Forall (fun y => flight_limits c tol y /\ no_farther (i_r_max c + 2 * i_vel_limit c ^ 2 / i_a_max c) y) xs.
Proof.
  intros nan c eps exc solve tol dt s x xs QC T Dt Rc Lo Hi En C1 C2 HL Ha Hf Hr Hv Sh Lp Len (A & B & D & E).
  apply Forall_forall. intros y Hy. assert (Iy : In y (x :: xs)) by (right; exact Hy).
  split; [split; [|split; [|split]]|].
  - apply (axes_kept nan c eps exc solve tol dt s x xs); auto.
  - apply (range_kept nan c eps exc solve tol dt s x xs); auto.
  - apply (clear_kept nan c eps exc solve tol dt s x xs); auto.
  - apply (pace_kept nan c eps exc solve tol dt s x xs); auto.
  - apply (reach_kept nan c eps exc solve tol dt s x xs); auto.
Qed.
Print Assumptions C94_flight_partial.

(** With the default arguments, a mass of 12 kg and a mean motion of at most 1/900 rad/s, steps
    of up to 4 s are short. *)
Lemma default_a_max n : 0 < n <= 1 / 900 -> 7 / 100 <= i_a_max (insp_default 12 n) <= 1 / 12.
Proof.
  intros Hn. unfold i_a_max, insp_default, i_v1, inspection_a_max, u_max_default.
  cbn [i_m i_n i_r_max i_vel_limit i_v0 i_v1_coef]. cbv zeta.
  assert (M : 0 <= Rmin 1 (2 / 10 + 2 * n * 1000) <= 1) by (split; [apply Rmin_glb; lra|apply Rmin_l]).
  set (v := Rmin _ _) in *. assert (n ^ 2 <= 1 / 900 * (1 / 900)) by nra. assert (0 <= n * v <= 1 / 900) by nra.
  split; nra.
Qed.

Lemma near_1030 n y : 0 < n <= 1 / 900 -> axes_slow 1 y -> stays_near 1000 (i_a_max (insp_default 12 n)) y -> no_farther 1030 y.
Proof.
  intros Hn Sl Nr. pose proof (default_a_max n Hn) as A.
  destruct Sl as (px & py & pz & qx & qy & qz & su & us & -> & A1 & A2 & A3).
  apply (proj1 (flown_eq _ _ _ _ _ _ _ _ _)) in Nr. apply (proj2 (flown_eq _ _ _ _ _ _ _ _ _)).
  assert (V : Rabs (closing px py pz qx qy qz) <= 2 * 1) by (apply closing_bound; auto; lra).
  apply abs_both in V.
  pose proof (reach_bound (i_a_max (insp_default 12 n)) 1000 (length3 px py pz) (closing px py pz qx qy qz) 1 ltac:(lra) ltac:(lra) ltac:(lra) Nr) as Q.
  assert (2 * 1 ^ 2 / i_a_max (insp_default 12 n) <= 30).
  { unfold Rdiv. replace 30 with (2 * 1 ^ 2 * / (1 / 15)) by field. apply Rmult_le_compat_l; [lra|]. apply Rinv_le_contravar; lra. }
  lra.
Qed.

Theorem C94_default_flight_partial :
  forall nan n eps exc solve tol dt (s : dmod vec zparams) x xs,
  let c := insp_default 12 n in
  0 < n <= 1 / 900 -> 0 < dt <= 4 ->
  slsqp_contract tol solve -> 0 <= tol <= 1 / 1000000 ->
  disc_init (discrete_inspection c eps exc solve) (discrete_inspection_constraints nan c) None = Ok s ->
  disc_loop (discrete_inspection c eps exc solve) dt s x xs -> length x = 8%nat ->
  flight_limits c tol x -> Forall (fun y => flight_limits c tol y /\ no_farther 1030 y) xs.
Proof.
  intros nan n eps exc solve tol dt s x xs c Hn Hd QC T Hi Lp Len Hx.
  pose proof (default_a_max n Hn) as A. fold c in A.
  assert (K : distinct_keys (discrete_inspection_constraints nan c)).
  { unfold distinct_keys; cbn. repeat constructor; cbn; intuition discriminate. }
  assert (G : disc_constraints s = discrete_inspection_constraints nan c /\ enable s = true).
  { unfold disc_init in Hi. cbn [select_constraints rbind] in Hi. injection Hi as <-. split; reflexivity. }
  destruct G as [G En].
  assert (F : Forall (fun y => flight_limits c tol y /\ no_farther (i_r_max c + 2 * i_vel_limit c ^ 2 / i_a_max c) y) xs).
  { apply (C94_flight_partial nan c eps exc solve tol dt s x xs); auto; try lra.
    - exists (discrete_inspection_constraints nan c), None, s, [], []. split; [auto|split; [auto|reflexivity]].
    - exact I.
    - exact I.
    - intros k d H; rewrite <- G; exact H.
    - intros k d H _ _; rewrite G; exact H.
    - cbn. lra.
    - cbn. lra.
    - cbn. lra.
    - unfold i_v1. cbn. lra.
    - set (a := i_a_max c) in *.
      assert (S1 : sqrt (2 * a * 1000) <= 13).
      { rewrite <- (sqrt_square 13) by lra. apply sqrt_le_1_alt. lra. }
      assert (S2 : sqrt (2 * a * 1000 + 4 * 1 ^ 2) <= 131 / 10).
      { rewrite <- (sqrt_square (131 / 10)) by lra. apply sqrt_le_1_alt. lra. }
      pose proof (sqrt_pos (2 * a * 1000)). pose proof (sqrt_pos (2 * a * 1000 + 4 * 1 ^ 2)).
      assert (I1 : 0 <= / a <= 15).
      { split; [left; apply Rinv_0_lt_compat; lra|]. replace 15 with (/ (1 / 15)) by field. apply Rinv_le_contravar; lra. }
      constructor; unfold i_v1; cbn [c insp_default i_vel_limit i_r_max i_v0 i_v1_coef i_n i_v0_distance].
      + lra.
      + set (q := sqrt (2 * a * 1000)) in *. assert ((q + 2 * 1) ^ 2 <= 225) by nra. nra.
      + set (q := sqrt (2 * a * 1000 + 4 * 1 ^ 2)) in *. assert ((q + 2 * 1) ^ 2 <= 2281 / 10) by nra. nra.
      + unfold Rdiv. set (r := / a) in *. set (h := (2 * / 10 + 2 * n * (1000 + 2 * 1 ^ 2 * r + 1 - 0))).
        assert (0 <= h <= 3) by (unfold h; nra). assert (h ^ 2 <= 9) by nra. nra. }
  eapply Forall_impl; [|exact F]. intros y [L1 L2]. split; [exact L1|].
  destruct L2 as (px & py & pz & qx & qy & qz & su & us & -> & Q). exists px, py, pz, qx, qy, qz, su, us. split; [reflexivity|].
  cbn [c insp_default i_vel_limit i_r_max] in Q. fold c in Q.
  assert (2 * 1 ^ 2 / i_a_max c <= 30).
  { unfold Rdiv. replace 30 with (2 * 1 ^ 2 * / (1 / 15)) by field. apply Rmult_le_compat_l; [lra|]. apply Rinv_le_contravar; lra. }
  lra.
Qed.
Print Assumptions C94_default_flight_partial.

(** With steps of up to a second, all eight constraints of the default module are kept: also the
    passively safe maneuver (without thrust the deputy would stay clear of the chief at every one of the next
    hundred seconds) and the sun's keep-out zone, as long as every state visited is one for which the sun's constraint has
    a value.  What is missing: other arguments of the constructor. *)
Theorem C94_whole_module_partial :
  forall nan n eps exc solve tol dt (s : dmod vec zparams) x xs,
  let c := insp_default 12 n in
  0 < n <= 1 / 900 -> 0 < dt <= 1 ->
  slsqp_contract tol solve -> 0 <= tol <= 1 / 1000000 ->
  disc_init (discrete_inspection c eps exc solve) (discrete_inspection_constraints nan c) None = Ok s ->
  disc_loop (discrete_inspection c eps exc solve) dt s x xs -> length x = 8%nat ->
  Forall (sun_judged (i_fov c)) (x :: xs) ->
  flight_limits c tol x -> coasts_clear n (10 - 1000 * tol) 100 x ->
  (forall h, sun_value (i_fov c) (i_a_max c) (i_sun_vel c) x = Some h -> 0 <= h) ->
  Forall (fun y => flight_limits c tol y /\ coasts_clear n (10 - 1000 * tol) 100 y /\
                   sun_avoidable (i_fov c) (i_a_max c) (i_sun_vel c) y) xs.
Proof.
  intros nan n eps exc solve tol dt s x xs c Hn Hd QC T Hi Lp Len Ju Hx Hc Hs.
  pose proof (default_a_max n Hn) as A. fold c in A.
  assert (Fl : Forall (fun y => flight_limits c tol y /\ no_farther 1030 y) xs)
    by (apply (C94_default_flight_partial nan n eps exc solve tol dt s x xs); auto; lra).
  assert (K : distinct_keys (discrete_inspection_constraints nan c)).
  { unfold distinct_keys; cbn. repeat constructor; cbn; intuition discriminate. }
  assert (Rc : disc_reached (discrete_inspection c eps exc solve) s).
  { exists (discrete_inspection_constraints nan c), None, s, [], []. split; [auto|split; [auto|reflexivity]]. }
  assert (G : disc_constraints s = discrete_inspection_constraints nan c /\ enable s = true).
  { unfold disc_init in Hi. cbn [select_constraints rbind] in Hi. injection Hi as <-. split; reflexivity. }
  destruct G as [G En].
  assert (N0 : i_n c <> 0) by (cbn; lra).
  assert (F : 0 < i_fov c < PI) by (cbn; pose proof PI_RGT_0; lra).
  assert (Hv : forall y, In y (x :: xs) -> axes_slow 1 y /\ no_farther 1030 y).
  { intros y [<-|Hy].
    - destruct Hx as (X1 & X2 & _). split; [exact X1|]. apply near_1030 with n; auto.
    - rewrite Forall_forall in Fl. destruct (Fl y Hy) as [(Y & _) Z]. split; [exact Y|exact Z]. }
  assert (Hj : forall y, In y (x :: xs) -> sun_value (i_fov c) (i_a_max c) (i_sun_vel c) y <> None).
  { intros y Hy. apply sun_has_value; auto. rewrite Forall_forall in Ju. auto. }
  assert (Cl : forall y, axes_slow 1 y -> (coasts_clear n (10 - 1000 * tol) 100 y <-> - (1000 * tol) <= level (psm_c c) y)).
  { intros y (px & py & pz & qx & qy & qz & su & us & -> & _). rewrite <- coasts_level by auto. cbn [c insp_default i_n i_chief i_deputy].
    replace (- (1000 * tol) + (5 + 5)) with (10 - 1000 * tol) by ring. reflexivity. }
  apply Forall_forall. intros y Hy. assert (Iy : In y (x :: xs)) by (right; exact Hy).
  split; [|split].
  - rewrite Forall_forall in Fl. apply (Fl y Hy).
  - apply Cl; [apply (Hv y Iy)|].
    apply (psm_kept nan n eps exc solve tol dt s x xs); auto. apply Cl; auto. apply (Hv x). left; auto.
  - apply sun_says; auto; [rewrite Forall_forall in Ju; auto|].
    apply (ProofsDiscInsp2.sun_kept nan n eps exc solve tol dt s x xs); auto. fold c; lra.
Qed.
Print Assumptions C94_whole_module_partial.

(** Non-vacuity: at rest 100 m away on the along-track axis, more thrust is asked for than the
    bounds allow; the module answers no thrust, and the flight goes on. *)
Definition six_names : list string := ["chief_collision"; "rel_vel"; "r_max"; "x_vel"; "y_vel"; "z_vel"]%string.
Definition at_rest (sun : R) : vec := [0; 100; 0; 0; 0; 0; sun; 0].
Definition six_cfg (n : R) := discrete_inspection (insp_default 12 n) (1 / 100) true (slsqp_try [0; 0; 0]).
Definition six (nan n : R) : dmod vec zparams :=
  match disc_init (six_cfg n) (discrete_inspection_constraints nan (insp_default 12 n)) (Some six_names) with
  | Ok s => s
  | Err _ => rta_init (mkCb [] [] [] [] false (mkDisc 0 [] [] [] 0))
  end.
Lemma six_ok nan n : disc_init (six_cfg n) (discrete_inspection_constraints nan (insp_default 12 n)) (Some six_names) = Ok (six nan n).
Proof. reflexivity. Qed.
Lemma six_reached nan n : disc_reached (six_cfg n) (six nan n).
Proof.
  exists (discrete_inspection_constraints nan (insp_default 12 n)), (Some six_names), (six nan n), [], [].
  split; [|split; [apply six_ok|reflexivity]]. unfold distinct_keys; cbn. repeat constructor; cbn; intuition discriminate.
Qed.
Lemma six_constraints nan n : disc_constraints (six nan n) =
  [("chief_collision"%string, clear_c (insp_default 12 n)); ("rel_vel"%string, pace_c (insp_default 12 n));
   ("r_max"%string, far_c (insp_default 12 n)); ("x_vel"%string, axis_c (insp_default 12 n) 3);
   ("y_vel"%string, axis_c (insp_default 12 n) 4); ("z_vel"%string, axis_c (insp_default 12 n) 5)].
Proof. reflexivity. Qed.
Lemma rest_next n dt sun : 0 < n -> dc_next (six_cfg n) (at_rest sun) dt [0; 0; 0] = at_rest (sun + n * dt).
Proof.
  intros Hn. unfold six_cfg, discrete_inspection, at_rest. cbn [dc_next i_n i_m i_sun_vel insp_default].
  rewrite discrete_next_eq by lra. unfold sol_x, sol_y, sol_z, sol_vx, sol_vy, sol_vz, jax_get, jax_index. cbn [Z.ltb Z.compare Z.to_nat Pos.to_nat length Nat.min Nat.sub nth].
  change (Z.to_nat (Z.min (Z.max 6 0) (Z.of_nat 8 - 1))) with 6%nat. cbn [nth].
  do 6 (apply f_equal2; [field; lra|]). apply f_equal2; [ring|reflexivity].
Qed.
Lemma rest_limits n sun : 0 < n <= 1 / 900 -> flight_limits (insp_default 12 n) 0 (at_rest sun).
Proof.
  intros Hn. pose proof (default_a_max n Hn) as A. set (c := insp_default 12 n) in *.
  assert (D : length3 0 100 0 = 100) by (unfold length3; replace (0 * 0 + 100 * 100 + 0 * 0) with (100 * 100) by ring; apply sqrt_square; lra).
  assert (Q : closing 0 100 0 0 0 0 = 0) by (unfold closing; rewrite D; field).
  repeat split; apply (proj2 (flown_eq _ _ _ _ _ _ _ _ _)).
  - cbn. rewrite Rabs_R0. lra.
  - rewrite D, Q. unfold stopping_speed. cbn [c insp_default i_r_max]. destruct (Rle_dec 0 (1000 - 100)); [apply sqrt_pos|lra].
  - rewrite D, Q. unfold stopping_speed. cbn [c insp_default i_chief i_deputy]. destruct (Rle_dec 0 (100 - (5 + 5))); [|lra].
    pose proof (sqrt_pos (2 * i_a_max c * (100 - (5 + 5)))). unfold c in *. lra.
  - unfold i_v1. cbn [c insp_default i_v0 i_v1_coef i_n i_v0_distance].
    assert (sqrt (0 * 0 + 0 * 0 + 0 * 0 + 1 / 100000) <= 2 / 10).
    { rewrite <- (sqrt_square (2 / 10)) by lra. apply sqrt_le_1_alt. lra. }
    pose proof (sqrt_pos (0 * 0 + 100 * 100 + 0 * 0 + 1 / 100000)). nra.
Qed.
Lemma rest_steps nan n : 0 < n <= 1 / 900 ->
  forall k d, In (k, d) (disc_constraints (six nan n)) -> steps_well (dc_next (six_cfg n)) 0 d (at_rest 0) 1 [0; 0; 0] 0.
Proof.
  intros Hn.
  assert (Hs : forall d : constraint vec zparams, level d (at_rest (0 + n * 1)) = level d (at_rest 0) -> 0 <= decay d (level d (at_rest 0)) ->
    steps_well (dc_next (six_cfg n)) 0 d (at_rest 0) 1 [0; 0; 0] 0).
  { intros d E D. unfold steps_well. rewrite rest_next by lra. rewrite E. lra. }
  pose proof (default_a_max n Hn) as A. pose proof (rest_limits n 0 Hn) as (_ & L2 & L3 & _). set (c := insp_default 12 n) in *.
  rewrite six_constraints. fold c. intros k d H. cbn [In] in H.
  assert (Cu : forall p q l, 0 <= p -> 0 <= q -> 0 <= l -> 0 <= p * l + q * l ^ 3).
  { intros p q l P1 P2 P3. pose proof (pow_le l 3 P3). nra. }
  assert (D100 : length3 0 100 0 = 100) by (unfold length3; replace (0 * 0 + 100 * 100 + 0 * 0) with (100 * 100) by ring; apply sqrt_square; lra).
  assert (Q : closing 0 100 0 0 0 0 = 0) by (unfold closing; rewrite D100; field).
  destruct (axis_level c 0 100 0 0 0 0 0 0) as (X1 & X2 & X3). destruct (axis_level c 0 100 0 0 0 0 (0 + n * 1) 0) as (Y1 & Y2 & Y3).
  assert (L1 : i_vel_limit c = 1) by reflexivity. rewrite L1 in *.
  destruct H as [H|[H|[H|[H|[H|[H|[]]]]]]]; injection H as <- <-; apply Hs; unfold at_rest.
  * rewrite !clear_level. reflexivity.
  * rewrite clear_decay. apply Cu; try lra. rewrite clear_level, D100, Q. unfold stopping_speed.
    cbn [c insp_default i_chief i_deputy]. destruct (Rle_dec 0 (100 - (5 + 5))); [|lra]. rewrite Rplus_0_r. apply sqrt_pos.
  * rewrite !pace_level. reflexivity.
  * rewrite pace_decay. apply Cu; try lra. rewrite pace_level. unfold i_v1, rv_delta. cbn [c insp_default i_v0 i_v1_coef i_n i_v0_distance].
    assert (sqrt (0 * 0 + 0 * 0 + 0 * 0 + 1 / 100000) <= 1 / 10).
    { rewrite <- (sqrt_square (1 / 10)) by lra. apply sqrt_le_1_alt. lra. }
    pose proof (sqrt_pos (0 * 0 + 100 * 100 + 0 * 0 + 1 / 100000)). nra.
  * rewrite !far_level. reflexivity.
  * rewrite far_decay. apply Cu; try lra. rewrite far_level, D100, Q. unfold stopping_speed.
    cbn [c insp_default i_r_max]. destruct (Rle_dec 0 (1000 - 100)); [|lra].
    assert (1 <= sqrt (2 * i_a_max c * (1000 - 100))).
    { rewrite <- sqrt_1 at 1. apply sqrt_le_1_alt. lra. } lra.
  * rewrite X1, Y1. reflexivity.
  * rewrite axis_decay, X1. apply Cu; lra.
  * rewrite X2, Y2. reflexivity.
  * rewrite axis_decay, X2. apply Cu; lra.
  * rewrite X3, Y3. reflexivity.
  * rewrite axis_decay, X3. apply Cu; lra.
Qed.
Example C94_case : forall nan n, 0 < n <= 1 / 900 ->
  disc_loop (six_cfg n) 1 (six nan n) (at_rest 0) [at_rest (0 + n * 1)] /\
  slsqp_contract 0 (slsqp_try [0; 0; 0]) /\ disc_reached (six_cfg n) (six nan n) /\
  (forall k d, In (k, d) (disc_constraints (six nan n)) -> In (k, d) (discrete_inspection_constraints nan (insp_default 12 n))) /\
  (forall k d, In (k, d) (discrete_inspection_constraints nan (insp_default 12 n)) -> k <> "sun"%string -> k <> "PSM"%string ->
     In (k, d) (disc_constraints (six nan n))) /\
  flight_limits (insp_default 12 n) 0 (at_rest 0).
Proof.
  intros nan n Hn. split; [|split; [apply slsqp_try_contract|split; [apply six_reached|split; [|split; [|apply rest_limits; auto]]]]].
  - rewrite <- rest_next by lra.
    destruct (tried_fall (six_cfg n) (six nan n) (at_rest 0) 1 [2; 0; 0] [0; 0; 0]) as (s' & E & W & _); auto.
    + constructor; auto; try exact I; try lra.
      * apply six_reached.
      * rewrite six_constraints. intros k d H. cbn [In] in H. repeat (destruct H as [H|H]; [injection H as <- <-; discriminate|]). destruct H.
    + rewrite six_constraints. intros k d H. cbn [In] in H. repeat (destruct H as [H|H]; [injection H as <- <-; reflexivity|]). destruct H.
    + exists 0, 0, 0. repeat split; auto; lra.
    + cbn [limits_met]. replace (Rleb 2 1) with false by (symmetry; apply Rleb_false; lra). rewrite andb_false_r. reflexivity.
    + apply rest_steps; auto.
    + apply (dl_cons (six_cfg n) 1 (six nan n) (at_rest 0) [2; 0; 0] [0; 0; 0] s'); auto. constructor.
  - rewrite six_constraints. intros k d H. destruct (members nan (insp_default 12 n)) as (M1 & M2 & M3 & M4 & M5 & M6).
    cbn [In] in H. destruct H as [H|[H|[H|[H|[H|[H|[]]]]]]]; injection H as <- <-; assumption.
  - rewrite six_constraints. intros k d H N1 N2. unfold discrete_inspection_constraints, vel_constraints in H. cbn [app In] in H.
    destruct H as [H|[H|[H|[H|[H|[H|[H|[H|[]]]]]]]]]; injection H as <- <-; cbn [In]; auto 8; congruence.
Qed.

(** ** Refuted for longer steps.  With the default arguments, a mass of 12 kg and steps of 15 s, one
    step from rest under the velocity limit alone ends beyond the limit, with every call
    succeeding and a solver without any tolerance. *)
Definition one_cfg (n : R) := discrete_inspection (insp_default 12 n) (1 / 100) true (slsqp_try [0; 0; 0]).
Lemma sine_bounds t : 0 < t <= 15 / 100 -> 99 / 100 * t <= sin t <= t.
Proof.
  intros H. destruct (SIN_bound t) as [B1 B2]. split.
  - assert (P : 0 <= t <= PI) by (pose proof PI2_3_2; pose proof PI2_1; unfold PI2 in *; lra).
    destruct (sin_bound t 0) as [S _]; [lra|lra|]. unfold sin_approx, sum_f_R0, sin_term in S. cbn [plus mult fact INR pow] in S. 
    simpl in S. nra.
  - left. apply sin_lt_x; lra.
Qed.
Theorem C94_long_steps_refuted : forall nan n, 0 < n <= 1 / 100 ->
  let c := insp_default 12 n in
  exists (s : dmod vec zparams) x y,
  disc_init (one_cfg n) (discrete_inspection_constraints nan c) (Some ["x_vel"%string]) = Ok s /\
  slsqp_contract 0 (slsqp_try [0; 0; 0]) /\ disc_loop (one_cfg n) 15 s x [y] /\
  axes_slow (i_vel_limit c) x /\ ~ axes_slow (i_vel_limit c) y.
Proof.
  intros nan n Hn c.
  set (s := match disc_init (one_cfg n) (discrete_inspection_constraints nan c) (Some ["x_vel"%string]) with
            | Ok s => s | Err _ => rta_init (mkCb [] [] [] [] false (mkDisc 0 [] [] [] 0)) end).
  assert (E : disc_init (one_cfg n) (discrete_inspection_constraints nan c) (Some ["x_vel"%string]) = Ok s) by reflexivity.
  assert (Cs : disc_constraints s = [("x_vel"%string, axis_c c 3)]) by reflexivity.
  set (x := [0; 0; 0; 0; 0; 0; 0; 0] : vec).
  set (y := dc_next (one_cfg n) x 15 [1; 0; 0]).
  assert (Sn : 99 / 100 * (n * 15) <= sin (n * 15) <= n * 15) by (apply sine_bounds; lra).
  set (v := sin (n * 15) / n * (1 / 12)).
  assert (V : 12 / 10 <= v <= 5 / 4).
  { unfold v, Rdiv. split.
    - apply Rmult_le_reg_r with (12 * n); [lra|]. replace (sin (n * 15) * / n * (1 * / 12) * (12 * n)) with (sin (n * 15)) by (field; lra). lra.
    - apply Rmult_le_reg_r with (12 * n); [lra|]. replace (sin (n * 15) * / n * (1 * / 12) * (12 * n)) with (sin (n * 15)) by (field; lra). lra. }
  assert (Y : exists a b d e f g, y = [a; b; d; v; e; f; g; 0]).
  { unfold y, x, one_cfg, discrete_inspection. cbn [dc_next i_n i_m i_sun_vel insp_default].
    rewrite discrete_next_eq by lra. do 6 eexists. apply f_equal2; [reflexivity|]. apply f_equal2; [reflexivity|]. apply f_equal2; [reflexivity|].
    apply f_equal2; [unfold sol_vx, v; field; lra|]. reflexivity. }
  exists s, x, y. split; [exact E|split; [apply slsqp_try_contract|split; [|split]]].
  - destruct (tried_desired (one_cfg n) s x 15 [1; 0; 0] [0; 0; 0]) as (s' & F & W); auto.
    + constructor; auto; try exact I; try lra.
      * exists (discrete_inspection_constraints nan c), (Some ["x_vel"%string]), s, [], [].
        split; [unfold distinct_keys; cbn; repeat constructor; cbn; intuition discriminate|split; [exact E|reflexivity]].
      * rewrite Cs. intros k d [H|[]]. injection H as <- <-. discriminate.
    + rewrite Cs. intros k d [H|[]]. injection H as <- <-. reflexivity.
    + exists 1, 0, 0. repeat split; auto; lra.
    + rewrite Cs. intros k d [H|[]]. injection H as <- <-. unfold steps_well. fold y.
      destruct Y as (a & b & d & e & f & g & ->). unfold x. rewrite axis_decay.
      destruct (axis_level c 0 0 0 0 0 0 0 0) as (X1 & _). destruct (axis_level c a b d v e f g 0) as (Y1 & _).
      rewrite X1, Y1. cbn [c insp_default i_vel_limit]. nra.
    + apply (dl_cons (one_cfg n) 15 s x [1; 0; 0] [1; 0; 0] s'); auto. constructor.
  - unfold x. apply (proj2 (flown_eq _ _ _ _ _ _ _ _ _)). cbn. rewrite Rabs_R0. lra.
  - destruct Y as (a & b & d & e & f & g & ->). intros H. apply (proj1 (flown_eq _ _ _ _ _ _ _ _ _)) in H.
    destruct H as (H & _). cbn in H. apply abs_both in H. lra.
Qed.
Print Assumptions C94_long_steps_refuted.

(** Non-vacuity of the whole module's theorem: the same flight with all eight constraints, the sun
    seen at right angles. *)
Definition all_eight (nan n : R) : dmod vec zparams :=
  match disc_init (six_cfg n) (discrete_inspection_constraints nan (insp_default 12 n)) None with
  | Ok s => s
  | Err _ => rta_init (mkCb [] [] [] [] false (mkDisc 0 [] [] [] 0))
  end.
Lemma all_eight_ok nan n : disc_init (six_cfg n) (discrete_inspection_constraints nan (insp_default 12 n)) None = Ok (all_eight nan n).
Proof. reflexivity. Qed.
Lemma rest_coasts n r sun : 0 < n -> r <= 90 -> r <= level (psm_c (insp_default 12 n)) (at_rest sun).
Proof.
  intros Hn Hr. unfold at_rest. apply psm_level_ge; [cbn; lra|]. intros k _. cbn [insp_default i_n i_chief i_deputy].
  assert (E : length3 (sol_x n 1 0 0 0 0 0 (INR k)) (sol_y n 1 0 100 0 0 0 0 (INR k)) (sol_z n 1 0 0 0 (INR k)) = 100).
  { replace (sol_x n 1 0 0 0 0 0 (INR k)) with 0 by (unfold sol_x; field; lra).
    replace (sol_y n 1 0 100 0 0 0 0 (INR k)) with 100 by (unfold sol_y; field; lra).
    replace (sol_z n 1 0 0 0 (INR k)) with 0 by (unfold sol_z; field; lra).
    unfold length3. replace (0 * 0 + 100 * 100 + 0 * 0) with (100 * 100) by ring. apply sqrt_square; lra. }
  rewrite E. lra.
Qed.
Lemma right_angles angle : 0 <= angle <= 1 / 100 ->
  99 <= rr (- cos angle) (- sin angle) (- 0) 0 100 0 /\ -1 <= hgt (- cos angle) (- sin angle) (- 0) 0 100 0 <= 0 /\
  gapp (PI / 3) angle (pt 0 100 0) = 100 * cos (PI / 3 / 2 - angle).
Proof.
  intros Ha. assert (C : 99 / 100 <= cos angle).
  { pose proof PI2_3_2. pose proof PI2_1. unfold PI2 in *. destruct (cos_bound angle 0) as [B _]; [lra|lra|].
    unfold cos_approx, sum_f_R0, cos_term in B. simpl in B. nra. }
  assert (S : 0 <= sin angle <= angle).
  { destruct (Req_dec angle 0) as [->|N]; [rewrite sin_0; lra|]. pose proof PI2_3_2. unfold PI2 in *.
    split; [apply sin_ge_0; lra|left; apply sin_lt_x; lra]. }
  assert (Hh : hgt (- cos angle) (- sin angle) (- 0) 0 100 0 = - (100 * sin angle)) by (unfold hgt; ring).
  assert (Hr : rr (- cos angle) (- sin angle) (- 0) 0 100 0 = 100 * cos angle).
  { unfold rr. rewrite Hh. pose proof (sin2_cos2 angle) as Q; unfold Rsqr in Q.
    replace (0 * 0 + 100 * 100 + 0 * 0 - - (100 * sin angle) * - (100 * sin angle))
      with (100 * cos angle * (100 * cos angle)); [apply sqrt_square; lra|].
    replace (100 * cos angle * (100 * cos angle)) with (100 * 100 * (cos angle * cos angle)) by ring.
    replace (cos angle * cos angle) with (1 - sin angle * sin angle) by lra. ring. }
  rewrite Hh, Hr. split; [lra|split; [lra|]].
  unfold gapp, pt, gap. rewrite Hh, Hr, cos_minus. ring.
Qed.
Lemma rest_sun n angle : 0 < n <= 1 / 100000 -> 0 <= angle <= 1 / 100 ->
  let c := insp_default 12 n in
  sun_judged (i_fov c) (at_rest angle) /\
  exists r, Rabs r <= 1 / 1000 /\ sun_value (i_fov c) (i_a_max c) (i_sun_vel c) (at_rest angle) =
    Some (sqrt (2 * i_a_max c * (100 * cos (PI / 3 / 2 - angle))) + r) /\
    8 / 10 <= cos (PI / 3 / 2 - angle).
Proof.
  intros Hn Ha c. pose proof PI_RGT_0 as Pp. assert (Hf : 0 < PI / 3 < PI) by lra. assert (Ef : i_fov c = PI / 3) by (cbn; field). rewrite Ef.
  change (i_sun_vel c) with (- n).
  destruct (right_angles angle Ha) as (R1 & H1 & G).
  assert (C : 8 / 10 <= cos (PI / 3 / 2 - angle)).
  { apply Rle_trans with (cos (PI / 3 / 2)).
    - replace (PI / 3 / 2) with (PI / 6) by field. rewrite cos_PI6.
      assert (16 / 10 <= sqrt 3); [|lra]. rewrite <- (sqrt_square (16 / 10)) by lra. apply sqrt_le_1_alt. lra.
    - pose proof PI2_3_2. unfold PI2 in *. apply cos_decr_1; lra. }
  assert (NZ : plen (pt 0 100 0) <> 0).
  { unfold plen, pdot, pt. replace (0 * 0 + 100 * 100 + 0 * 0) with (100 * 100) by ring. rewrite sqrt_square; lra. }
  assert (E : at_rest angle = state_of (pt 0 100 0) (pt 0 0 0) angle 0) by reflexivity. split.
  - exists (pt 0 100 0), (pt 0 0 0), angle, 0. split; [exact E|split; [exact NZ|split]].
    + intros k K. unfold pt, pscale, sun_at in K. injection K as K1 K2 _.
      assert (C0 : 0 < cos angle) by (pose proof PI2_3_2; unfold PI2 in *; apply cos_gt_0; lra).
      assert (k = 0) by (symmetry in K1; apply Rmult_integral in K1; destruct K1; lra). subst k. lra.
    + intros V. rewrite <- gapp_edge in V by auto. rewrite G in V. lra.
  - rewrite E. rewrite sun_value_defined; auto; [|unfold off_axis, pt; lra|rewrite G; lra].
    exists (speed_away (PI / 3) angle (pt 0 100 0) (pt 0 0 0) (- n)). split; [|split; [|exact C]].
    + unfold speed_away, pt. cbv zeta.
      assert (U : - cos angle * - cos angle + - sin angle * - sin angle + - 0 * - 0 = 1) by (pose proof (sin2_cos2 angle) as Q; unfold Rsqr in Q; lra).
      pose proof (nrm_unit (- cos angle) (- sin angle) (- 0) (PI / 3 / 2) U 0 100 0 ltac:(lra)) as N1.
      set (n1 := nrm1 _ _ _ _ _ _ _) in *; set (n2 := nrm2 _ _ _ _ _ _ _) in *; set (n3 := nrm3 _ _ _ _ _ _ _) in *.
      replace (_ + _ + _) with (- (100 * n * n1)) by ring.
      assert (-1 <= n1 <= 1) by (assert (0 <= n2 * n2) by nra; assert (0 <= n3 * n3) by nra; nra).
      apply Rabs_le. nra.
    + unfold braking_barrier. rewrite G. destruct (Rle_dec 0 _); [reflexivity|lra].
Qed.
Example C94_whole_case : forall nan n, 0 < n <= 1 / 100000 ->
  let c := insp_default 12 n in
  disc_loop (six_cfg n) 1 (all_eight nan n) (at_rest 0) [at_rest (0 + n * 1)] /\
  slsqp_contract 0 (slsqp_try [0; 0; 0]) /\
  disc_init (six_cfg n) (discrete_inspection_constraints nan c) None = Ok (all_eight nan n) /\
  Forall (sun_judged (i_fov c)) [at_rest 0; at_rest (0 + n * 1)] /\
  flight_limits c 0 (at_rest 0) /\ coasts_clear n (10 - 1000 * 0) 100 (at_rest 0) /\
  (forall h, sun_value (i_fov c) (i_a_max c) (i_sun_vel c) (at_rest 0) = Some h -> 0 <= h).
Proof.
  intros nan n Hn c. assert (Hn' : 0 < n <= 1 / 900) by lra. pose proof (default_a_max n Hn') as A. fold c in A.
  destruct (rest_sun n 0 Hn ltac:(lra)) as (J0 & r0 & B0 & V0 & C0). fold c in J0, V0.
  destruct (rest_sun n (0 + n * 1) Hn ltac:(lra)) as (J1 & r1 & B1 & V1 & C1). fold c in J1, V1.
  assert (Rc : disc_reached (six_cfg n) (all_eight nan n)).
  { exists (discrete_inspection_constraints nan c), None, (all_eight nan n), [], [].
    split; [|split; [apply all_eight_ok|reflexivity]]. unfold distinct_keys; cbn. repeat constructor; cbn; intuition discriminate. }
  assert (Cs : forall k d, In (k, d) (disc_constraints (all_eight nan n)) ->
    In (k, d) (disc_constraints (six nan n)) \/ d = psm_c c \/ d = sun_c nan c).
  { intros k d H. change (disc_constraints (all_eight nan n)) with (discrete_inspection_constraints nan c) in H.
    rewrite six_constraints. unfold discrete_inspection_constraints, vel_constraints in H. cbn [app In] in H.
    destruct H as [H|[H|[H|[H|[H|[H|[H|[H|[]]]]]]]]]; injection H as <- <-; cbn [In]; auto 9. }
  assert (Q0 : 3 <= sqrt (2 * i_a_max c * (100 * cos (PI / 3 / 2 - 0)))).
  { apply Rle_trans with (sqrt (3 * 3)); [rewrite sqrt_square by lra; lra|]. apply sqrt_le_1_alt. apply Rle_trans with (2 * (7 / 100) * (100 * (8 / 10))); [lra|]. apply Rmult_le_compat; lra. }
  assert (Q1 : sqrt (2 * i_a_max c * (100 * cos (PI / 3 / 2 - 0))) <= sqrt (2 * i_a_max c * (100 * cos (PI / 3 / 2 - (0 + n * 1))))).
  { apply sqrt_le_1_alt. apply Rmult_le_compat_l; [lra|]. apply Rmult_le_compat_l; [lra|].
    pose proof PI2_3_2. pose proof PI_RGT_0. unfold PI2 in *. apply cos_decr_1; lra. }
  apply abs_both in B0. apply abs_both in B1.
  assert (SW : forall k d, In (k, d) (disc_constraints (all_eight nan n)) -> steps_well (dc_next (six_cfg n)) 0 d (at_rest 0) 1 [0; 0; 0] 0).
  { intros k d H. destruct (Cs k d H) as [H'|[->| ->]].
    - exact (rest_steps nan n Hn' k d H').
    - unfold steps_well. rewrite rest_next by lra.
      change (level (psm_c c) (at_rest (0 + n * 1))) with (level (psm_c c) (at_rest 0)).
      pose proof (rest_coasts n 90 0 ltac:(lra) ltac:(lra)) as L. fold c in L. rewrite psm_decay.
      set (l := level _ _) in *. assert (0 <= l ^ 3) by (apply pow_le; lra). lra.
    - unfold steps_well. rewrite rest_next by lra. rewrite sun_decay. unfold at_rest in *.
      rewrite (sun_level _ _ _ _ _ _ _ _ _ _ _ V0), (sun_level _ _ _ _ _ _ _ _ _ _ _ V1).
      set (a0 := sqrt _) in *. set (a1 := sqrt _) in *. set (l := a0 + r0 - 1 / 1000) in *.
      assert (29 / 10 <= l) by (unfold l; lra). assert (0 <= l ^ 3) by (apply pow_le; lra). unfold l in *; lra. }
  split; [|split; [apply slsqp_try_contract|split; [apply all_eight_ok|split; [|split; [apply rest_limits; auto|split]]]]].
  - rewrite <- rest_next by lra.
    destruct (tried_fall (six_cfg n) (all_eight nan n) (at_rest 0) 1 [2; 0; 0] [0; 0; 0]) as (s' & E & W & _); auto.
    + constructor; auto; try exact I; try lra.
      intros k d H. destruct (Cs k d H) as [H'|[->| ->]]; try discriminate.
      rewrite six_constraints in H'. cbn [In] in H'. repeat (destruct H' as [H'|H']; [injection H' as <- <-; discriminate|]). destruct H'.
    + intros k d H. destruct (Cs k d H) as [H'|[->| ->]]; try reflexivity.
      rewrite six_constraints in H'. cbn [In] in H'. repeat (destruct H' as [H'|H']; [injection H' as <- <-; reflexivity|]). destruct H'.
    + exists 0, 0, 0. repeat split; auto; lra.
    + cbn [limits_met]. replace (Rleb 2 1) with false by (symmetry; apply Rleb_false; lra). rewrite andb_false_r. reflexivity.
    + apply (dl_cons (six_cfg n) 1 (all_eight nan n) (at_rest 0) [2; 0; 0] [0; 0; 0] s'); auto. constructor.
  - repeat constructor; auto.
  - pose proof (rest_coasts n 0 0 ltac:(lra) ltac:(lra)) as L. fold c in L. unfold at_rest in *. apply coasts_level in L; [|cbn; lra].
    cbn [c insp_default i_n i_chief i_deputy] in L. replace (10 - 1000 * 0) with (0 + (5 + 5)) by ring. exact L.
  - intros h Eh. rewrite V0 in Eh. injection Eh as <-. lra.
Qed.

(** ** Refuted for the passively safe maneuver from steps of 4 s on.  At rest 31 m away, under that constraint alone, one
    step of full thrust towards the chief is accepted; without further thrust the deputy would
    then pass within 10 m of the chief. *)
Lemma fall_motion n : 0 < n <= 1 / 1000 ->
  exists pz qz, dc_next (one_cfg n) [0; 0; 31; 0; 0; 0; 0; 0] 4 [0; 0; -1] = [0; 0; pz; 0; 0; qz; 0 - - n * 4; 0] /\
  -1 <= sol_z n 1 pz qz 0 (INR 91) <= 1.
Proof.
  intros Hn. exists (sol_z n 12 31 0 (-1) 4), (sol_vz n 12 31 0 (-1) 4). split.
  - unfold one_cfg, discrete_inspection. cbn [dc_next i_n i_m i_sun_vel insp_default].
    rewrite discrete_next_eq by lra. change (jax_get 0 [0; 0; 31; 0; 0; 0; 0; 0] 6) with 0.
    repeat (apply f_equal2; [first [reflexivity|unfold sol_x, sol_y, sol_vx, sol_vy; field; lra]|]). reflexivity.
  - replace (INR 91) with 91 by (simpl; lra).
    destruct (small_angle n 4) as (a & b & Ha & Hb & C & S); [lra|lra|lra|].
    destruct (small_angle n 91) as (a' & b' & Ha' & Hb' & C' & S'); [lra|lra|lra|].
    assert (N2 : 0 < n * n <= 1 / 1000000) by nra.
    assert (E1 : 31 - 7 / 10 <= sol_z n 12 31 0 (-1) 4 <= 31).
    { unfold sol_z. rewrite C, S. replace (_ + _ + _) with (31 - n * n * a * 31 - a / 12) by (field; lra). nra. }
    assert (E2 : -334 / 1000 <= sol_vz n 12 31 0 (-1) 4 <= -333 / 1000).
    { unfold sol_vz. rewrite C, S.
      replace (- n * (n * 4 - n * n * n * b) * 31 + (1 - n * n * a) * 0 + (n * 4 - n * n * n * b) / n * (-1 / 12))
        with (- (n * n) * (4 - n * n * b) * 31 - (4 - n * n * b) / 12) by (field; lra).
      assert (0 <= n * n * b <= 1 / 10000) by nra. nra. }
    set (pz := sol_z n 12 31 0 (-1) 4) in *. set (qz := sol_vz n 12 31 0 (-1) 4) in *.
    unfold sol_z. rewrite C', S'.
    replace (_ + _ + _) with (pz - n * n * a' * pz + (91 - n * n * b') * qz) by (field; lra).
    assert (0 <= n * n * a' <= 5 / 1000) by nra. assert (0 <= n * n * b' <= 13 / 100) by nra. nra.
Qed.
Theorem C94_coasting_refuted : forall nan n, 0 < n <= 1 / 1000 ->
  let c := insp_default 12 n in
  exists (s : dmod vec zparams) x y,
  disc_init (one_cfg n) (discrete_inspection_constraints nan c) (Some ["PSM"%string]) = Ok s /\
  slsqp_contract 0 (slsqp_try [0; 0; 0]) /\ disc_loop (one_cfg n) 4 s x [y] /\
  coasts_clear n 10 100 x /\ ~ coasts_clear n 10 100 y.
Proof.
  intros nan n Hn c.
  set (s := match disc_init (one_cfg n) (discrete_inspection_constraints nan c) (Some ["PSM"%string]) with
            | Ok s => s | Err _ => rta_init (mkCb [] [] [] [] false (mkDisc 0 [] [] [] 0)) end).
  assert (E : disc_init (one_cfg n) (discrete_inspection_constraints nan c) (Some ["PSM"%string]) = Ok s) by reflexivity.
  assert (Cs : disc_constraints s = [("PSM"%string, psm_c c)]) by reflexivity.
  assert (N0 : i_n c <> 0) by (cbn; lra).
  destruct (fall_motion n Hn) as (pz & qz & Ey & Hz).
  set (x := [0; 0; 31; 0; 0; 0; 0; 0] : vec) in *.
  assert (Lx : 20 <= level (psm_c c) x).
  { unfold x. apply psm_level_ge; auto. intros k Hk. cbn [c insp_default i_n i_chief i_deputy].
    assert (T : 0 <= INR k <= 100).
    { split; [apply pos_INR|]. replace 100 with (INR 100) by (simpl; lra). apply le_INR; lia. }
    destruct (small_angle n (INR k)) as (a & b & Ha & Hb & C & S); [lra|lra|nra|].
    assert (Ez : sol_z n 1 31 0 0 (INR k) = 31 - n * n * a * 31) by (unfold sol_z; rewrite C, S; field; lra).
    assert (Ex : sol_x n 1 0 0 0 0 0 (INR k) = 0) by (unfold sol_x; field; lra).
    assert (Ex' : sol_y n 1 0 0 0 0 0 0 (INR k) = 0) by (unfold sol_y; field; lra).
    rewrite Ex, Ex', Ez. assert (a <= 5000) by nra. assert (0 < n * n <= 1 / 1000000) by nra.
    assert (0 <= n * n * a <= 5 / 1000) by nra.
    unfold length3. replace (0 * 0 + 0 * 0 + (31 - n * n * a * 31) * (31 - n * n * a * 31)) with ((31 - n * n * a * 31) * (31 - n * n * a * 31)) by ring.
    rewrite sqrt_square by lra. lra. }
  exists s, x, (dc_next (one_cfg n) x 4 [0; 0; -1]). split; [exact E|split; [apply slsqp_try_contract|split; [|split]]].
  - destruct (tried_desired (one_cfg n) s x 4 [0; 0; -1] [0; 0; 0]) as (s' & F & W); auto.
    + constructor; auto; try exact I; try lra.
      * exists (discrete_inspection_constraints nan c), (Some ["PSM"%string]), s, [], [].
        split; [unfold distinct_keys; cbn; repeat constructor; cbn; intuition discriminate|split; [exact E|reflexivity]].
      * rewrite Cs. intros k d [H|[]]. injection H as <- <-. discriminate.
    + rewrite Cs. intros k d [H|[]]. injection H as <- <-. reflexivity.
    + exists 0, 0, (-1). repeat split; auto; lra.
    + rewrite Cs. intros k d [H|[]]. injection H as <- <-. unfold steps_well.
      assert (Ly : -10 <= level (psm_c c) (dc_next (one_cfg n) x 4 [0; 0; -1])).
      { rewrite Ey. apply psm_level_ge; auto. intros k' _. cbn [c insp_default i_chief i_deputy].
        eapply Rle_trans; [|apply length3_pos]. lra. }
      rewrite psm_decay. set (l := level (psm_c c) x) in *. assert (8000 <= l ^ 3) by (replace 8000 with (20 ^ 3) by ring; apply pow_incr; lra).
      assert (l * (20 * 20) <= l ^ 3) by (replace (l ^ 3) with (l * (l * l)) by ring; apply Rmult_le_compat_l; nra). lra.
    + apply (dl_cons (one_cfg n) 4 s x [0; 0; -1] [0; 0; -1] s'); auto. constructor.
  - assert (L0 : 0 <= level (psm_c c) x) by lra. unfold x in L0. apply coasts_level in L0; auto.
    cbn [c insp_default i_n i_chief i_deputy] in L0. replace 10 with (0 + (5 + 5)) by ring. exact L0.
  - rewrite Ey. intros K. replace 10 with (0 + (i_chief c + i_deputy c)) in K by (cbn; ring).
    change (coasts_clear (i_n c) (0 + (i_chief c + i_deputy c)) 100 [0; 0; pz; 0; 0; qz; 0 - - n * 4; 0]) in K.
    apply coasts_level in K; auto. rewrite psm_level_ge in K by auto. specialize (K 91%nat ltac:(lia)).
    cbn [c insp_default i_n i_chief i_deputy] in K.
    assert (Ex : sol_x n 1 0 0 0 0 0 (INR 91) = 0) by (unfold sol_x; field; lra).
    assert (Ex' : sol_y n 1 0 0 0 0 0 0 (INR 91) = 0) by (unfold sol_y; field; lra).
    rewrite Ex, Ex' in K. set (zz := sol_z n 1 pz qz 0 (INR 91)) in *.
    assert (length3 0 0 zz <= 1) by (apply le_of_sqr; [lra|]; rewrite length3_sqr; nra). lra.
Qed.
Print Assumptions C94_coasting_refuted.
