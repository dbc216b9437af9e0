(** Properties of the modules the library itself offers: the barrier conditions they enforce. *)
From Coq Require Import String Reals List Bool ZArith Lia Lra.
From Verif Require Import Prelude Vec ModelBase ModelController ModelSimplex ModelAsif ModelConstraint ModelCwh ModelConic ModelZoo ModelDock ModelIntegrator
  SpecCore SpecCwh SpecConic SpecZoo SpecTable ProofsTable.
Import ListNotations.
Local Open Scope R_scope.

(** ** C78.  Every constraint of every library module is the barrier for the physical quantity
    it is named after, in the state's own position and velocity, with the
    strengthening polynomial and margin of its row.  The tables are in SpecTable.v. *)
Theorem C78_docking_2d : forall c x y vx vy,
  as_table (docking_constraints_2d c) [x; y; vx; vy] (docking_2d_table c (pt x y 0) (pt vx vy 0)).
Proof. exact docking_2d_rows. Qed.
Print Assumptions C78_docking_2d.

Theorem C78_docking_3d : forall c p v,
  as_table (docking_constraints_3d c) (arr p ++ arr v) (docking_3d_table c p v).
Proof. exact docking_3d_rows. Qed.
Print Assumptions C78_docking_3d.

Theorem C78_inspection : forall nan c use_hocbf p v angle dv,
  i_n c <> 0 -> 0 < i_fov c < PI -> plen p <> 0 ->
  exists cs, inspection_constraints nan use_hocbf c = Ok cs /\
  as_table cs (state_of p v angle dv) (inspection_table c p v angle use_hocbf).
Proof.
  intros nan c use_hocbf p v angle dv Hn Hf NZ.
  destruct (inspection_constraints nan use_hocbf c) as [cs|e] eqn:E; [|destruct use_hocbf; discriminate].
  exists cs. split; [reflexivity|].
  exact (inspection_rows nan c p v [angle; dv] angle Hn Hf NZ use_hocbf cs (ProofsZoo.get_sun_1v1 p v angle dv) E).
Qed.
Print Assumptions C78_inspection.

Theorem C78_discrete_inspection : forall nan c p v angle dv, i_n c <> 0 -> 0 < i_fov c < PI -> plen p <> 0 ->
  as_table (discrete_inspection_constraints nan c) (state_of p v angle dv) (discrete_table c p v angle).
Proof.
  intros nan c p v angle dv Hn Hf NZ.
  exact (discrete_rows nan c p v [angle; dv] angle Hn Hf (ProofsZoo.get_sun_1v1 p v angle dv)).
Qed.
Print Assumptions C78_discrete_inspection.

(** Any number of other deputies. *)
Theorem C78_deputies : forall nan c p v angle others, i_n c <> 0 -> 0 < i_fov c < PI -> plen p <> 0 ->
  (forall q w, In (q, w) others -> plen (psub p q) <> 0) ->
  as_table (deputies_constraints nan (S (length others)) c) (deputies_state p v others angle)
    (deputies_table c p v angle others).
Proof. intros nan c p v angle others Hn Hf NZ H. exact (deputies_say nan c p v angle Hn Hf others H). Qed.
Print Assumptions C78_deputies.

(** The one-dimensional modules. *)
Theorem C78_integrator : forall x v,
  as_table int_explicit_constraints [x; v] (integrator_explicit_table x v) /\
  as_table int_implicit_constraints [x; v] (integrator_implicit_table x v).
Proof.
  intros x v. split; apply Forall2_cons; try apply Forall2_nil;
    (split; [reflexivity|]; split; [|split; [|split; reflexivity]]).
  - exists (- (2 * x + v * v)). split; [reflexivity|]. transitivity (-2 * x - v ^ 2 + 0); [reflexivity|cbn; ring].
  - intros h. unfold c_alpha_at. cbn [snd c_alpha int_explicit new_constraint]. f_equal. unfold polynomial; cbn. ring.
  - exists (- x). split; [reflexivity|]. transitivity (- x + 0); [reflexivity|cbn; ring].
  - intros h. unfold c_alpha_at. cbn [snd c_alpha int_implicit new_constraint]. f_equal. unfold polynomial; cbn. ring.
Qed.
Print Assumptions C78_integrator.

(** The control bounds of the modules when none are given: one newton either way. *)
Theorem C78_default_bounds : forall m n u,
  (within docking_bounds u <-> Forall (fun r => Rabs r <= 1) u) /\
  (within (i_bounds (insp_default m n)) u <-> Forall (fun r => Rabs r <= 1) u) /\
  (within int_bounds u <-> Forall (fun r => Rabs r <= 1) u).
Proof.
  assert (K : forall u, within (mkBounds (Some (BScalar (-1))) (Some (BScalar 1))) u <-> Forall (fun r => Rabs r <= 1) u).
  { intros u. rewrite Forall_forall. split.
    - intros [A B] r I. destruct (In_nth_error _ _ I) as (i & E). apply Rabs_le.
      split; [exact (A i r (-1) E eq_refl)|exact (B i r 1 E eq_refl)].
    - intros H. split; intros i r h E Q; injection Q as <-; apply nth_error_In in E; specialize (H r E);
        unfold Rabs in H; destruct (Rcase_abs r); lra. }
  intros m n u. split; [|split]; apply K.
Qed.
Print Assumptions C78_default_bounds.

(** What the docking modules enforce when no settings are given: all values are non-negative
    exactly when the (smoothed) speed is at most 0.2 m/s plus 2 n (in space: 4 n) times the
    (smoothed) distance, less a margin of 0.1 mm/s, and no component is above 10 m/s. *)
Definition smoothed (p : point) : R := sqrt (pdot p p + 1 / 100000).
Definition all_met {P} (cs : dict (constraint vec P)) (s : vec) : Prop :=
  Forall (fun kc => 0 <= c_compute (snd kc) s (c_params (snd kc))) cs.
Lemma limit_met l v : 0 <= l -> (0 <= l * l - v * v <-> Rabs v <= l).
Proof.
  intros H. split; intros Q.
  - apply Rsqr_incr_0_var; auto. rewrite <- Rsqr_abs. unfold Rsqr; lra.
  - assert (A := Rabs_pos v). assert (B : v * v = Rabs v * Rabs v) by (fold (Rsqr v) (Rsqr (Rabs v)); apply Rsqr_abs). nra.
Qed.
Theorem C78_default_docking : forall n,
  (forall x y vx vy, all_met (docking_constraints_2d (dock_default_2d n)) [x; y; vx; vy] <->
     smoothed (pt vx vy 0) + 1 / 10000 <= 2 / 10 + 2 * n * smoothed (pt x y 0) /\ Rabs vx <= 10 /\ Rabs vy <= 10) /\
  (forall p v, all_met (docking_constraints_3d (dock_default_3d n)) (arr p ++ arr v) <->
     smoothed v + 1 / 10000 <= 2 / 10 + 4 * n * smoothed p /\
     Rabs (x_of v) <= 10 /\ Rabs (y_of v) <= 10 /\ Rabs (z_of v) <= 10).
Proof.
  intros n. split.
  - intros x y vx vy. unfold all_met. rewrite <- (limit_met 10 vx), <- (limit_met 10 vy) by lra.
    pose proof (C78_docking_2d (dock_default_2d n) x y vx vy) as T.
    unfold as_table, docking_2d_table in T. unfold docking_constraints_2d in *. cbv zeta in *.
    repeat match type of T with Forall2 _ (_ :: _) _ => inversion T as [|? ? ? ? (_ & (? & ?S & ?E) & _) T']; clear T; rename T' into T; subst end.
    rewrite !Forall_cons_iff. cbn [r_says r_margin x_of y_of pt fst snd] in *. unfold speed_margin, limit_margin in *.
    cbn [dock_default_2d d_v0 d_v1_coef d_n d_v0_distance d_x_limit d_y_limit] in *. unfold smoothed.
    rewrite E, E0, E1, S, S0, S1. split.
    + intros (A & B & C & _). repeat split; lra.
    + intros (A & B & C). repeat split; try lra. constructor.
  - intros p v. unfold all_met. rewrite <- (limit_met 10 (x_of v)), <- (limit_met 10 (y_of v)), <- (limit_met 10 (z_of v)) by lra.
    pose proof (C78_docking_3d (dock_default_3d n) p v) as T.
    unfold as_table, docking_3d_table in T. unfold docking_constraints_3d in *. cbv zeta in *.
    repeat match type of T with Forall2 _ (_ :: _) _ => inversion T as [|? ? ? ? (_ & (? & ?S & ?E) & _) T']; clear T; rename T' into T; subst end.
    rewrite !Forall_cons_iff. cbn [r_says r_margin] in *. unfold speed_margin, limit_margin in *.
    cbn [dock_default_3d d_v0 d_v1_coef d_n d_v0_distance d_x_limit d_y_limit d_z_limit] in *. unfold smoothed.
    rewrite E, E0, E1, E2, S, S0, S1, S2. split.
    + intros (A & B & C & D & _). repeat split; lra.
    + intros (A & B & C & D). repeat split; try lra. constructor.
Qed.
Print Assumptions C78_default_docking.
Example C78_default_case : all_met (docking_constraints_2d (dock_default_2d (1 / 1000))) [100; 0; 3 / 10; 0].
Proof.
  apply C78_default_docking. rewrite !Rabs_right by lra. split; [|lra].
  unfold smoothed, pdot, pt; cbn [fst snd].
  assert (A : sqrt (3 / 10 * (3 / 10) + 0 * 0 + 0 * 0 + 1 / 100000) <= 31 / 100)
    by (rewrite <- (sqrt_Rsqr (31 / 100)) by lra; apply sqrt_le_1_alt; unfold Rsqr; lra).
  assert (B : 100 <= sqrt (100 * 100 + 0 * 0 + 0 * 0 + 1 / 100000))
    by (rewrite <- (sqrt_Rsqr 100) at 1 by lra; apply sqrt_le_1_alt; unfold Rsqr; lra).
  lra.
Qed.

(** What the inspection modules enforce when no settings are given: 1 km range, 10 m clearance of
    the drift, 60 degrees field of view, 1 m/s in each direction and 0.2 m/s plus 2 n times the
    distance, the sun turning at - n. *)
Definition default_inspection_table (m n angle : R) (p v : point) : list row :=
  let a := 1 / m - 3 * (n * n) * 1000 - 2 * n * Rmin 1 (2 / 10 + 2 * n * 1000) in
  [ mkRow "rel_vel" (speed_margin (2 / 10) (2 * n) 0 p v) (1 / 20) (1 / 200) (1 / 1000);
    mkRow "sun" (sun_barrier (PI / 3) a (- n) angle p v) (1 / 1000) (1 / 10000) (1 / 1000);
    mkRow "r_max" (braking a (1000 - plen p) (- range_rate p v)) (1 / 100) (1 / 1000) (1 / 1000);
    mkRow "PSM" (drift_clearance n 10 p v) (1 / 100) (1 / 1000) 0;
    mkRow "x_vel" (limit_margin 1 (x_of v)) (1 / 10) (1 / 100) (1 / 1000);
    mkRow "y_vel" (limit_margin 1 (y_of v)) (1 / 10) (1 / 100) (1 / 1000);
    mkRow "z_vel" (limit_margin 1 (z_of v)) (1 / 10) (1 / 100) (1 / 1000);
    mkRow "chief_collision" (braking a (plen p - 10) (range_rate p v)) (1 / 100) (1 / 1000) 0 ].
Theorem C78_default_inspection : forall nan m n p v angle dv, n <> 0 -> plen p <> 0 ->
  exists cs, inspection_constraints nan false (insp_default m n) = Ok cs /\
  as_table cs (state_of p v angle dv) (default_inspection_table m n angle p v).
Proof.
  intros nan m n p v angle dv Hn NZ.
  assert (F : 0 < 60 * PI / 180 < PI) by (pose proof PI_RGT_0; lra).
  destruct (C78_inspection nan (insp_default m n) false p v angle dv Hn F NZ) as (cs & E & T).
  exists cs. split; [exact E|]. clear E. revert T. unfold default_inspection_table, inspection_table, velocity_rows, brake.
  cbn [app insp_default i_m i_n i_chief i_deputy i_v0 i_v1_coef i_v0_distance i_r_max i_fov i_vel_limit i_sun_vel].
  replace (5 + 5) with 10 by lra. replace (60 * PI / 180) with (PI / 3) by lra. auto.
Qed.
Print Assumptions C78_default_inspection.

(** ** C79.  The strengthening function that a constraint class uses when it is given none is
    the one its docstring names.  Full statement: for all fourteen classes of the library.  True
    of these: *)
Definition strengthened {P} (c : constraint vec P) (lin cub : R) : Prop :=
  forall h, c_alpha_at c h = Ok (lin * h + cub * h ^ 3).
Ltac default_alpha := intros h; unfold c_alpha_at; cbn [c_alpha new_constraint rel_vel_2d rel_vel_3d chief_collision deputy_collision
  max_distance psm psm_deputy conic hocbf_example magnitude_limit max_limit min_limit dist_alpha limit_alpha int_explicit int_implicit];
  f_equal; unfold polynomial; cbn [poly_loop]; field.
Theorem C79_documented_default_partial : forall a b d e n dt steps i j kw,
  strengthened (rel_vel_2d a b d e None kw) (1 / 100) (1 / 10) /\
  strengthened (psm a n dt steps None kw) (1 / 100) (1 / 1000) /\
  strengthened (psm_deputy a n dt steps i None kw) (1 / 100) (1 / 1000) /\
  strengthened (hocbf_example a None kw) (1 / 100) (1 / 100) /\
  strengthened (magnitude_limit a j None kw) (5 / 10000) (1 / 1000) /\
  strengthened (max_limit a j None kw) (5 / 10000) (1 / 1000) /\
  strengthened (min_limit a j None kw) (5 / 10000) (1 / 1000) /\
  strengthened (int_explicit None kw) 1 30 /\ strengthened (int_implicit None kw) 10 30.
Proof. intros. repeat split; default_alpha. Qed.
Print Assumptions C79_documented_default_partial.

(** The other five classes use another polynomial than documented.  For the keep-out zone of the
    sun, documented as 0.01 h + 0.05 h^3, for the three distance constraints, documented as
    0.005 h + 0.05 h^3, and for the relative velocity in space, documented as
    0.05 h + 0.5 h^3, the two differ wherever h is not 0 (for the distances, nor plus or minus
    a root of 5/49): *)
Theorem C79_documented_default_refuted : forall a b d e i kw nan gp gv gc w,
  strengthened (rel_vel_3d a b d e None kw) (5 / 100) (5 / 1000) /\
  strengthened (conic nan gp gv gc w a b None kw) (1 / 1000) (1 / 10000) /\
  strengthened (chief_collision a b None kw) (1 / 100) (1 / 1000) /\
  strengthened (deputy_collision a b i None kw) (1 / 100) (1 / 1000) /\
  strengthened (max_distance a b None kw) (1 / 100) (1 / 1000) /\
  forall h, h <> 0 ->
    (5 / 100 * h + 5 / 1000 * h ^ 3 <> 5 / 100 * h + 5 / 10 * h ^ 3) /\
    (1 / 1000 * h + 1 / 10000 * h ^ 3 <> 1 / 100 * h + 5 / 100 * h ^ 3) /\
    (h * h <> 5 / 49 -> 1 / 100 * h + 1 / 1000 * h ^ 3 <> 5 / 1000 * h + 5 / 100 * h ^ 3).
Proof.
  intros. split; [default_alpha|]. split; [default_alpha|]. split; [default_alpha|]. split; [default_alpha|].
  split; [default_alpha|]. intros h H.
  assert (P : 0 < h * h) by (apply Rsqr_pos_lt; exact H).
  split; [|split].
  - intros E. assert (h * (h * h) = 0) by lra. apply Rmult_integral in H0. destruct H0; [contradiction|lra].
  - intros E. assert (X : h * (90 + 499 * (h * h)) = 0) by lra. apply Rmult_integral in X. destruct X; [contradiction|nra].
  - intros N E. assert (X : h * (5 - 49 * (h * h)) = 0) by lra. apply Rmult_integral in X. destruct X; [contradiction|apply N; lra].
Qed.
Print Assumptions C79_documented_default_refuted.

(** A case with the default settings, and the value of one row in it. *)
Example C78_case : let c := insp_default 12 (1 / 1000) in let p := pt 100 0 0 in
  i_n c <> 0 /\ 0 < i_fov c < PI /\ plen p <> 0 /\ plen (psub p (pt 0 50 0)) <> 0 /\
  range_rate p (pt (-1) 3 0) = -1 /\
  limit_margin 1 (1 / 2) (3 / 4).
Proof.
  assert (P := PI_RGT_0). cbn. unfold limit_margin, range_rate, plen, pdot, psub, pt, insp_default; cbn.
  replace (100 * 100 + 0 * 0 + 0 * 0) with (100 * 100) by ring. rewrite sqrt_square by lra.
  repeat split; try lra; try field.
  apply Rgt_not_eq, sqrt_lt_R0; lra.
Qed.
