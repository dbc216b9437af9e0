(** Proofs for C78. *)
From Coq Require Import String Reals List Bool ZArith Lia Lra.
From Coquelicot Require Import Coquelicot.
From Verif Require Import Prelude Vec ModelBase ModelController ModelSimplex ModelAsif ModelConstraint ModelCwh ModelConic ModelZoo
  SpecCwh SpecConic SpecConstraint SpecZoo SpecTable ProofsCwh ProofsCwh2 ProofsCwh3 ProofsConic ProofsConic2 ProofsConstraint ProofsVec PropertiesCwh PropertiesConic ProofsZoo ProofsZoo2.
Import ListNotations.
Local Open Scope R_scope.

(** A row for a wrapped constraint. *)
Lemma wrap_row {P} (inj : P -> zparams) prj (c : constraint vec P) s r name a b :
  prj (inj (c_params c)) = Some (c_params c) ->
  name = r_name r -> r_says r (c_fun c s (c_params c)) -> c_bias c = - r_margin r ->
  c_alpha c = Some (polynomial (Some [0; a; 0; b])) -> a = r_lin r -> b = r_cub r ->
  c_enabled c = true -> c_slack c = None ->
  as_row s (name, wrap inj prj c) r.
Proof.
  intros E N S B A -> -> En Sl. split; [exact N|]. split; [|split; [|split; [exact En|exact Sl]]].
  - exists (c_fun c s (c_params c)). split; [exact S|]. unfold c_compute, wrap; cbn [snd c_fun c_params c_bias]. rewrite E, B. ring.
  - intros h. unfold c_alpha_at, wrap; cbn [snd c_alpha]. rewrite A. f_equal. unfold polynomial; cbn [poly_loop]. ring.
Qed.

(** ** One barrier at a time *)
Lemma speed_says v0 v1 d0 alpha kw p v rest :
  speed_margin v0 v1 d0 p v (c_fun (rel_vel_3d v0 v1 d0 rv_delta alpha kw) (arr p ++ arr v ++ rest) (mkRv v0 v1 d0)).
Proof.
  destruct p as [[x y] z], v as [[a b] c].
  unfold speed_margin, rel_vel_3d, new_constraint, rel_vel_value, norm_with_delta, slice, rv_delta; cbn.
  replace (x * x + (y * y + (z * z + 0))) with (x * x + y * y + z * z) by ring.
  replace (a * a + (b * b + (c * c + 0))) with (a * a + b * b + c * c) by ring. reflexivity.
Qed.
Lemma speed2_says v0 v1 d0 alpha kw x y a b :
  speed_margin v0 v1 d0 (pt x y 0) (pt a b 0) (c_fun (rel_vel_2d v0 v1 d0 rv_delta alpha kw) [x; y; a; b] (mkRv v0 v1 d0)).
Proof.
  unfold speed_margin, rel_vel_2d, new_constraint, rel_vel_value, norm_with_delta, slice, rv_delta; cbn.
  replace (x * x + (y * y + 0)) with (x * x + y * y + 0 * 0) by ring.
  replace (a * a + (b * b + 0)) with (a * a + b * b + 0 * 0) by ring. reflexivity.
Qed.
Lemma limit_says l (i : nat) alpha kw s v : nth_error s i = Some v ->
  limit_margin l v (c_fun (magnitude_limit l (Z.of_nat i) alpha kw) s l).
Proof.
  intros E. unfold limit_margin, magnitude_limit, new_constraint; cbn [c_fun].
  rewrite jax_get_nth by (apply nth_error_Some; congruence). rewrite (nth_error_nth _ _ _ E). ring.
Qed.

Lemma pdot_dot p v : dot (arr p) (arr v) = pdot p v.
Proof. destruct p as [[x y] z], v as [[a b] c]. unfold pdot; cbn. ring. Qed.
Lemma norm_plen p : norm (arr p) = plen p.
Proof. destruct p as [[x y] z]. apply norm3. Qed.
Lemma arr_slices p v rest : slice 0 3 (arr p ++ arr v ++ rest) = arr p /\ slice 3 6 (arr p ++ arr v ++ rest) = arr v.
Proof. destruct p as [[x y] z], v as [[a b] c]. split; reflexivity. Qed.

Lemma keep_out_says k a radius p v :
  keep_out_value (2 * k) (arr p) (arr v) (mkDist radius a) = braking_barrier (k * a) (plen p - radius) (range_rate p v).
Proof.
  unfold keep_out_value, braking_barrier, range_rate; cbn [dp_radius dp_amax]. rewrite norm_plen, pdot_dot.
  unfold Rleb. destruct (Rle_dec radius (plen p)) as [H|H]; destruct (Rle_dec 0 (plen p - radius)) as [H'|H']; try lra.
  - do 2 f_equal. ring.
  - do 3 f_equal. ring.
Qed.
Lemma collision_says radius a alpha kw p v rest :
  braking a (plen p - radius) (range_rate p v) (c_fun (chief_collision radius a alpha kw) (arr p ++ arr v ++ rest) (mkDist radius a)).
Proof.
  unfold braking, chief_collision, new_constraint; cbn [c_fun].
  rewrite (proj1 (arr_slices p v rest)), (proj2 (arr_slices p v rest)).
  pose proof (keep_out_says 1 a radius p v) as K. rewrite Rmult_1_l, Rmult_1_r in K. exact K.
Qed.
Lemma range_says radius a alpha kw p v rest :
  braking a (radius - plen p) (- range_rate p v) (c_fun (max_distance radius a alpha kw) (arr p ++ arr v ++ rest) (mkDist radius a)).
Proof.
  unfold braking, max_distance, new_constraint, max_distance_value; cbn [c_fun dp_radius dp_amax].
  rewrite (proj1 (arr_slices p v rest)), (proj2 (arr_slices p v rest)), norm_plen, pdot_dot.
  unfold braking_barrier, range_rate, Rleb.
  destruct (Rle_dec (plen p) radius) as [H|H]; destruct (Rle_dec 0 (radius - plen p)) as [H'|H']; try lra.
  replace (- radius + plen p) with (- (radius - plen p)) by ring. ring.
Qed.

Lemma vmin_shift (f : R -> R) r (l : list R) : l <> [] -> vmin (map (fun t => f t - r) l) = vmin (map f l) - r.
Proof.
  destruct l as [|a l]; [congruence|]. intros _. unfold vmin; cbn [map].
  generalize (f a). induction l as [|b l IH]; intros m; cbn [map fold_left]; [reflexivity|].
  replace (Rmin (m - r) (f b - r)) with (Rmin m (f b) - r); [apply IH|].
  unfold Rmin. destruct (Rle_dec m (f b)), (Rle_dec (m - r) (f b - r)); lra.
Qed.
Lemma linspace_nil a b k : (0 < k)%nat -> linspace a b k <> [].
Proof. destruct k; [lia|]. intros _ H. discriminate H. Qed.

Lemma drift_says n radius alpha kw p v rest : n <> 0 ->
  drift_clearance n radius p v (c_fun (psm radius n 1 100 alpha kw) (arr p ++ arr v ++ rest) (mkPsm radius 1)).
Proof.
  intros Hn r. rewrite <- (drift_iff n (radius + r) alpha kw p v rest Hn).
  unfold psm, new_constraint; cbn [c_fun c_phi]. unfold psm_value; cbn [psm_dt psm_radius].
  rewrite (map_ext (fun t => psm_future n (arr p ++ arr v ++ rest) t (radius + r))
    (fun t => psm_future n (arr p ++ arr v ++ rest) t radius - r)) by (intros t; unfold psm_future; ring).
  rewrite (vmin_shift (fun t => psm_future n (arr p ++ arr v ++ rest) t radius)) by (apply linspace_nil; exact steps_100). lra.
Qed.
Lemma separation_says n radius k alpha kw p v q w mid rest : n <> 0 -> length mid = (6 * k)%nat ->
  drift_separation n radius p v q w
    (c_fun (psm_deputy radius n 1 100 (S k) alpha kw) ((arr p ++ arr v ++ mid) ++ arr q ++ arr w ++ rest) (mkPsm radius 1)).
Proof.
  intros Hn Lm r. rewrite <- (deputy_drift_iff n (radius + r) k alpha kw p v q w mid rest Hn Lm).
  set (s := (arr p ++ arr v ++ mid) ++ arr q ++ arr w ++ rest).
  unfold psm_deputy, new_constraint; cbn [c_fun c_phi]. unfold psm_deputy_value; cbn [psm_dt psm_radius].
  rewrite (map_ext (fun t => psm_deputy_future n (S k) s t (radius + r))
    (fun t => psm_deputy_future n (S k) s t radius - r)) by (intros t; unfold psm_deputy_future; ring).
  rewrite (vmin_shift (fun t => psm_deputy_future n (S k) s t radius)) by (apply linspace_nil; exact steps_100). lra.
Qed.

Lemma conic_says nan fov a turn angle p v : 0 < fov < PI ->
  sun_barrier fov a turn angle p v (of_jax nan (conic_value fov a (arr p) (arr v) (ModelConic.sun_vector angle) [0; 0; turn])).
Proof.
  intros Hf NZ Off NE T p' v' angle' HT M Tn <- <- <-.
  destruct (C63_value_exists_partial fov a turn (angle' 0) (p' 0) (v' 0) 0 Hf NZ Off NE) as (h & E).
  destruct (C63_value_is_barrier fov a turn T p' v' angle' (fun _ => 0) Hf M Tn) as (d & H).
  destruct (H 0 ltac:(lra)) as (_ & H0). destruct (H0 h E) as (r & D & B).
  exists d, r. split; [intros t Ht; exact (proj1 (H t Ht))|]. split; [exact D|].
  assert (E2 : conic_value fov a (arr (p' 0)) (arr (v' 0)) (ModelConic.sun_vector (angle' 0)) [0; 0; turn] = Some h).
  { rewrite <- E. destruct (p' 0) as [[x y] z], (v' 0) as [[vx vy] vz]. reflexivity. }
  rewrite E2. exact B.
Qed.

Lemma brake_eq c : i_a_max c = brake c.
Proof. unfold i_a_max, inspection_a_max, brake, u_max_default, i_v1. cbn [pow]. rewrite Rmult_1_r. reflexivity. Qed.

(** ** The docking modules *)
Ltac row := eapply wrap_row; [reflexivity|reflexivity| |cbn; lra|reflexivity|cbn; lra|cbn; lra|reflexivity|reflexivity].
Ltac rows := unfold as_table, docking_constraints_2d, docking_2d_table, docking_constraints_3d, docking_3d_table, vel_constraints, velocity_rows; repeat (apply Forall2_cons; [row|]); try apply Forall2_nil.
Lemma docking_2d_rows c x y vx vy : as_table (docking_constraints_2d c) [x; y; vx; vy] (docking_2d_table c (pt x y 0) (pt vx vy 0)).
Proof.
  rows; cbn [r_says c_params rel_vel_2d magnitude_limit new_constraint].
  - apply speed2_says.
  - apply (limit_says _ 2). reflexivity.
  - apply (limit_says _ 3). reflexivity.
Qed.
Lemma docking_3d_rows c p v : as_table (docking_constraints_3d c) (arr p ++ arr v) (docking_3d_table c p v).
Proof.
  rows; cbn [r_says c_params rel_vel_3d magnitude_limit new_constraint].
  - pose proof (speed_says (d_v0 c) (d_v1_coef c * d_n c) (d_v0_distance c) None (with_bias (- (1 / 10000))) p v []) as H.
    rewrite app_nil_r in H. exact H.
  - apply (limit_says _ 3). destruct p as [[? ?] ?], v as [[? ?] ?]. reflexivity.
  - apply (limit_says _ 4). destruct p as [[? ?] ?], v as [[? ?] ?]. reflexivity.
  - apply (limit_says _ 5). destruct p as [[? ?] ?], v as [[? ?] ?]. reflexivity.
Qed.

(** ** Inspection *)
Lemma velocity_says l p v rest : as_table (vel_constraints l) (arr p ++ arr v ++ rest) (velocity_rows l v).
Proof.
  rows; cbn [r_says c_params magnitude_limit new_constraint].
  - apply (limit_says _ 3). destruct p as [[? ?] ?], v as [[? ?] ?]. reflexivity.
  - apply (limit_says _ 4). destruct p as [[? ?] ?], v as [[? ?] ?]. reflexivity.
  - apply (limit_says _ 5). destruct p as [[? ?] ?], v as [[? ?] ?]. reflexivity.
Qed.

(** Gradient of the distance. *)
Lemma limit_ext f g t l : (forall t, f t = g t) -> derivable_pt_lim g t l -> derivable_pt_lim f t l.
Proof. intros E D eps H. destruct (D eps H) as (d & K). exists d. intros h. rewrite !E. apply K. Qed.
Lemma sqrt_derive q t : 0 < t * t + q -> derivable_pt_lim (fun t => sqrt (t * t + q)) t (t / sqrt (t * t + q)).
Proof.
  intros H. replace (t / sqrt (t * t + q)) with (/ (2 * sqrt (t * t + q)) * (1 * t + t * 1 + 0)).
  - apply (derivable_pt_lim_comp (fun t => t * t + q) sqrt); [|apply derivable_pt_lim_sqrt; exact H].
    apply (derivable_pt_lim_plus (fun t => t * t) (fun _ => q)); [|apply derivable_pt_lim_const].
    apply (derivable_pt_lim_mult (fun t => t) (fun t => t)); apply derivable_pt_lim_id.
  - field. apply Rgt_not_eq, sqrt_lt_R0; exact H.
Qed.
Lemma distance_gradient radius x y z rest : plen (x, y, z) <> 0 ->
  is_gradient (fun s => norm (slice 0 3 s) - radius) (x :: y :: z :: rest)
    ([x / plen (x, y, z); y / plen (x, y, z); z / plen (x, y, z)] ++ zeros (length rest)).
Proof.
  intros NZ. assert (P : 0 < x * x + y * y + z * z).
  { destruct (Rle_lt_dec (x * x + y * y + z * z) 0) as [H|H]; [|exact H]. destruct NZ. apply sqrt_neg_0. exact H. }
  assert (E : forall a b c l, norm (slice 0 3 (a :: b :: c :: l)) = plen (a, b, c)) by (intros; apply norm3).
  assert (C : forall q t, 0 < t * t + q -> derivable_pt_lim (fun t => sqrt (t * t + q) - radius) t (t / sqrt (t * t + q))).
  { intros q t H. replace (t / sqrt (t * t + q)) with (t / sqrt (t * t + q) - 0) by ring.
    apply (derivable_pt_lim_minus (fun t => sqrt (t * t + q)) (fun _ => radius)); [apply sqrt_derive; exact H|apply derivable_pt_lim_const]. }
  split; [rewrite app_length; unfold zeros; rewrite repeat_length; reflexivity|].
  intros i Hi. destruct i as [|[|[|i]]]; cbn [replaced nth app].
  - assert (D := C (y * y + z * z) x ltac:(lra)). unfold plen, pdot.
    replace (x * x + y * y + z * z) with (x * x + (y * y + z * z)) by ring.
    eapply limit_ext; [|exact D]. intros t. cbn beta. rewrite E. unfold plen, pdot. do 2 f_equal. ring.
  - assert (D := C (x * x + z * z) y ltac:(lra)). unfold plen, pdot.
    replace (x * x + y * y + z * z) with (y * y + (x * x + z * z)) by ring.
    eapply limit_ext; [|exact D]. intros t. cbn beta. rewrite E. unfold plen, pdot. do 2 f_equal. ring.
  - assert (D := C (x * x + y * y) z ltac:(lra)). unfold plen, pdot.
    replace (x * x + y * y + z * z) with (z * z + (x * x + y * y)) by ring.
    eapply limit_ext; [|exact D]. intros t. cbn beta. rewrite E. unfold plen, pdot. do 2 f_equal. ring.
  - replace (nth i (zeros (length rest)) 0) with 0.
    + eapply limit_ext; [|apply (derivable_pt_lim_const (plen (x, y, z) - radius))]. intros t. cbn beta.
      exact (f_equal (fun r => r - radius) (E x y z (replaced i t rest))).
    + unfold zeros. symmetry. destruct (Nat.lt_ge_cases i (length rest)) as [H|H].
      * apply nth_repeat.
      * apply nth_overflow. rewrite repeat_length. exact H.
Qed.

Lemma second_order_says radius n w p v rest : plen p <> 0 ->
  forall h, hocbf (wrap ZRadius as_radius (hocbf_example radius None kw_default)) 2
    (inspection_f n w) (polynomial (Some [0; 1 / 10; 0; 1 / 10])) kw_default = Ok h ->
  as_row (arr p ++ arr v ++ rest) ("chief_collision_hocbf"%string, h)
    (mkRow "chief_collision_hocbf" (second_order radius p v) (1 / 10) (1 / 10) 0).
Proof.
  intros NZ h E. unfold hocbf in E. change (2 <=? 1)%Z with false in E. injection E as <-.
  split; [reflexivity|]. split; [|split; [|split; reflexivity]].
  - eexists. split; [reflexivity|]. cbn [snd r_margin].
    set (s := arr p ++ arr v ++ rest).
    assert (G : jax_grad (fun y => norm (slice 0 3 y) - radius) s =
      [x_of p / plen p; y_of p / plen p; z_of p / plen p] ++ zeros (length (arr v ++ rest))).
    { destruct p as [[x y] z]. apply jax_grad_unique. apply distance_gradient. exact NZ. }
    assert (F : inspection_f n w s = [x_of v; y_of v; z_of v] ++ skipn 3 (inspection_f n w s)).
    { unfold s. destruct p as [[x y] z], v as [[a b] c]. unfold inspection_f, slice, cwh_a3, mv. cbn.
      unfold x_of, y_of, z_of; cbn. repeat (apply (f_equal2 (@cons R)); [ring|]). reflexivity. }
    assert (D : dot (jax_grad (fun y => norm (slice 0 3 y) - radius) s) (inspection_f n w s) = range_rate p v).
    { rewrite G, F. rewrite dot_app by reflexivity. rewrite dot_zeros_l. unfold range_rate.
      destruct p as [[x y] z], v as [[a b] c]. unfold x_of, y_of, z_of, pdot; cbn [fst snd dot]. field. exact NZ. }
    transitivity (dot (jax_grad (fun y => norm (slice 0 3 y) - radius) s) (inspection_f n w s)
      + polynomial (Some [0; 1 / 10; 0; 1 / 10]) (norm (slice 0 3 s) - radius + 0) + 0 + 0); [reflexivity|].
    rewrite D. unfold s at 1. rewrite (proj1 (arr_slices p v rest)), norm_plen. unfold polynomial; cbn [poly_loop]. ring.
  - intros x. unfold c_alpha_at. cbn [snd c_alpha new_constraint]. f_equal. unfold polynomial; cbn [poly_loop r_lin r_cub]. ring.
Qed.

Section Inspection.
Variables (nan : R) (c : insp_cfg) (p v : point) (rest : vec) (angle : R).
Hypothesis (Hn : i_n c <> 0) (Hf : 0 < i_fov c < PI) (NZ : plen p <> 0).
Let s : vec := arr p ++ arr v ++ rest.

Lemma sun_row get_sun alpha name lin cub : get_sun s = ModelConic.sun_vector angle ->
  match alpha with Some a => a | None => polynomial (Some [0; 1 / 1000; 0; 1 / 10000]) end = polynomial (Some [0; lin; 0; cub]) ->
  as_row s (name, sun_constraint nan c get_sun alpha)
    (mkRow name (sun_barrier (i_fov c) (brake c) (i_sun_vel c) angle p v) lin cub (1 / 1000)).
Proof.
  intros G A. unfold sun_constraint. eapply wrap_row; [reflexivity|reflexivity| |cbn; lra| |reflexivity|reflexivity|reflexivity|reflexivity].
  - unfold conic, new_constraint; cbn [r_says c_fun c_params cn_fov cn_amax]. rewrite G.
    unfold get_pos_vector, get_vel_vector. unfold s. rewrite (proj1 (arr_slices p v rest)), (proj2 (arr_slices p v rest)), brake_eq.
    apply conic_says; exact Hf.
  - unfold conic, new_constraint; cbn [c_alpha r_lin r_cub]. destruct alpha; f_equal; exact A.
Qed.
Lemma speed_row name alpha lin cub margin :
  match alpha with Some a => a | None => polynomial (Some [0; 5 / 100; 0; 5 / 1000]) end = polynomial (Some [0; lin; 0; cub]) ->
  as_row s (name, wrap ZRv as_rv (rel_vel_3d (i_v0 c) (i_v1 c) (i_v0_distance c) rv_delta alpha (with_bias (- margin))))
    (mkRow name (speed_margin (i_v0 c) (i_v1_coef c * i_n c) (i_v0_distance c) p v) lin cub margin).
Proof.
  intros A. eapply wrap_row; [reflexivity|reflexivity| |reflexivity| |reflexivity|reflexivity|reflexivity|reflexivity].
  - apply speed_says.
  - unfold rel_vel_3d, new_constraint; cbn [c_alpha r_lin r_cub]. destruct alpha; f_equal; exact A.
Qed.
Definition dist_alpha_is (alpha : option (R -> R)) lin cub : Prop :=
  match alpha with Some a => a | None => polynomial (Some [0; 1 / 100; 0; 1 / 1000]) end = polynomial (Some [0; lin; 0; cub]).
Lemma dist_alpha_eq alpha lin cub : dist_alpha_is alpha lin cub -> dist_alpha alpha = Some (polynomial (Some [0; lin; 0; cub])).
Proof. unfold dist_alpha_is, dist_alpha. intros E. destruct alpha; f_equal; exact E. Qed.
Lemma range_row name alpha kw lin cub margin : dist_alpha_is alpha lin cub ->
  kw_bias kw = - margin -> kw_enabled kw = true -> kw_slack kw = None ->
  as_row s (name, wrap ZDist as_dist (max_distance (i_r_max c) (i_a_max c) alpha kw))
    (mkRow name (braking (brake c) (i_r_max c - plen p) (- range_rate p v)) lin cub margin).
Proof.
  intros A B E S. eapply wrap_row; [reflexivity|reflexivity| |exact B|apply dist_alpha_eq; exact A|reflexivity|reflexivity|exact E|exact S].
  cbn [r_says c_params max_distance new_constraint]. rewrite brake_eq. apply range_says.
Qed.
Lemma collision_row name :
  as_row s (name, wrap ZDist as_dist (chief_collision (i_chief c + i_deputy c) (i_a_max c) None kw_default))
    (mkRow name (braking (brake c) (plen p - (i_chief c + i_deputy c)) (range_rate p v)) (1 / 100) (1 / 1000) 0).
Proof.
  eapply wrap_row; [reflexivity|reflexivity| |cbn; lra|reflexivity|reflexivity|reflexivity|reflexivity|reflexivity].
  cbn [r_says c_params chief_collision new_constraint]. rewrite brake_eq. apply collision_says.
Qed.
Lemma drift_row name alpha lin cub : dist_alpha_is alpha lin cub ->
  as_row s (name, wrap ZPsm as_psm (psm (i_chief c + i_deputy c) (i_n c) 1 100 alpha kw_default))
    (mkRow name (drift_clearance (i_n c) (i_chief c + i_deputy c) p v) lin cub 0).
Proof.
  intros A. eapply wrap_row; [reflexivity|reflexivity| |cbn; lra|apply dist_alpha_eq; exact A|reflexivity|reflexivity|reflexivity|reflexivity].
  apply drift_says; exact Hn.
Qed.

Lemma poly_same a b a' b' : a = a' -> b = b' -> polynomial (Some [0; a; 0; b]) = polynomial (Some [0; a'; 0; b']).
Proof. intros -> ->. reflexivity. Qed.
Ltac same := cbv [dist_alpha_is]; cbv iota beta; apply poly_same; lra.

Lemma discrete_rows : get_sun_vector s = ModelConic.sun_vector angle ->
  as_table (discrete_inspection_constraints nan c) s (discrete_table c p v angle).
Proof.
  intros G. unfold as_table, discrete_inspection_constraints, discrete_table.
  apply Forall2_app; [|apply velocity_says].
  apply Forall2_cons; [apply collision_row|].
  apply Forall2_cons; [apply speed_row; same|].
  apply Forall2_cons; [apply sun_row; [exact G|same]|].
  apply Forall2_cons; [apply range_row; [same|reflexivity|reflexivity|reflexivity]|].
  apply Forall2_cons; [apply drift_row; same|]. apply Forall2_nil.
Qed.

Lemma inspection_rows use_hocbf cs : get_sun_vector s = ModelConic.sun_vector angle ->
  inspection_constraints nan use_hocbf c = Ok cs ->
  as_table cs s (inspection_table c p v angle use_hocbf).
Proof.
  intros G. unfold inspection_constraints, inspection_table. set (base := _ ++ vel_constraints _). rewrite app_assoc. intros H.
  assert (D : forall name k, (name = "chief_collision" \/ name = "chief_collision_hocbf")%string ->
    dict_set base name k = base ++ [(name, k)]) by (intros name k [->| ->]; reflexivity).
  assert (B : forall k r, as_row s k r -> forall l, l = base ++ [k] -> as_table l s
    (([ mkRow "rel_vel" (speed_margin (i_v0 c) (i_v1_coef c * i_n c) (i_v0_distance c) p v) (1 / 20) (1 / 200) (1 / 1000);
    mkRow "sun" (sun_barrier (i_fov c) (brake c) (i_sun_vel c) angle p v) (1 / 1000) (1 / 10000) (1 / 1000);
    mkRow "r_max" (braking (brake c) (i_r_max c - plen p) (- range_rate p v)) (1 / 100) (1 / 1000) (1 / 1000);
    mkRow "PSM" (drift_clearance (i_n c) (i_chief c + i_deputy c) p v) (1 / 100) (1 / 1000) 0 ] ++ velocity_rows (i_vel_limit c) v) ++ [r])).
  { intros k r K l ->. unfold as_table. apply Forall2_app; [|apply Forall2_cons; [exact K|apply Forall2_nil]].
    apply Forall2_app; [|apply velocity_says].
    apply Forall2_cons; [apply speed_row; same|].
    apply Forall2_cons; [apply sun_row; [exact G|reflexivity]|].
    apply Forall2_cons; [apply range_row; [same|reflexivity|reflexivity|reflexivity]|].
    apply Forall2_cons; [apply drift_row; same|]. apply Forall2_nil. }
  destruct use_hocbf.
  - destruct (hocbf _ 2 _ _ _) as [h|] eqn:E in H; [|discriminate]. cbn [rbind] in H.
    match type of H with Ok ?a = Ok _ => assert (X : a = cs) by congruence end. rewrite <- X, D by auto.
    eapply B; [|reflexivity]. eapply second_order_says; [exact NZ|exact E].
  - match type of H with Ok ?a = Ok _ => assert (X : a = cs) by congruence end. rewrite <- X, D by auto.
    eapply B; [|reflexivity]. apply collision_row.
Qed.
End Inspection.

(** ** Several deputies *)
Section Deputies.
Variables (nan : R) (c : insp_cfg) (p v : point) (angle : R).
Hypothesis (Hn : i_n c <> 0) (Hf : 0 < i_fov c < PI) (NZ : plen p <> 0).

Lemma deputies_base_rows others :
  as_table (deputies_base nan c) (deputies_state p v others angle) (firstn 8 (deputies_table c p v angle others)).
Proof.
  unfold deputies_state. set (rest := concat _ ++ [angle]).
  assert (G : last_sun_vector (arr p ++ arr v ++ rest) = ModelConic.sun_vector angle).
  { unfold rest. rewrite !app_assoc. apply last_sun. }
  unfold as_table, deputies_base. cbn [firstn app deputies_table velocity_rows].
  apply Forall2_cons; [apply collision_row|].
  apply Forall2_cons; [apply speed_row; reflexivity|].
  apply Forall2_cons; [apply sun_row; [exact Hf|exact G|reflexivity]|].
  apply Forall2_cons; [apply range_row; [reflexivity|cbn; lra|reflexivity|reflexivity]|].
  apply Forall2_cons; [apply drift_row; [exact Hn|reflexivity]|]. exact (velocity_says _ p v rest).
Qed.

Lemma sign_says k q w mid rest : length mid = (6 * k)%nat -> plen (psub p q) <> 0 ->
  let s := ((arr p ++ arr v ++ mid) ++ arr q ++ arr w ++ rest) ++ [angle] in
  deputy_sun_barrier (i_fov c) (brake c) (i_sun_vel c) angle p v q w
    (of_jax nan (conic_value (i_fov c) (i_a_max c) (get_p1_p2 (S k) s) (get_v1_v2 (S k) s) (last_sun_vector s) [0; 0; i_sun_vel c])).
Proof.
  intros Lm NQ s. assert (LS : last_sun_vector s = ModelConic.sun_vector angle) by apply last_sun.
  unfold get_p1_p2, get_v1_v2, deputy_sign. rewrite LS.
  unfold s. rewrite (proj1 (slice_own p v q w mid rest angle)), (proj2 (slice_own p v q w mid rest angle)).
  rewrite (proj1 (slice_other p v q w mid rest k angle Lm)), (proj2 (slice_other p v q w mid rest k angle Lm)), !arr_sub.
  assert (P : forall t d, vscale t (arr d) = arr (pscale t d)) by (intros t [[? ?] ?]; reflexivity).
  rewrite !P, brake_eq. set (d := psub p q) in *.
  assert (SG : PI / 2 < acos (dot (vdiv (arr d) (norm (arr d)))
      (vdiv (ModelConic.sun_vector angle) (norm (ModelConic.sun_vector angle)))) <-> 0 < pdot d (sun_at angle)).
  { destruct d as [[? ?] ?]. apply sign_iff; auto. }
  assert (N : norm (arr d) <> 0) by (rewrite norm_plen; exact NQ).
  destruct (Req_EM_T _ 0) as [E|_]; [destruct (N E)|].
  unfold Rltb. destruct (Rlt_dec _ _) as [L|L].
  - exists (-1). split; [right; reflexivity|]. split; [|apply conic_says; exact Hf].
    apply SG in L. fold d. destruct d as [[x y] z]. unfold pdot, pscale, sun_at in *. lra.
  - exists 1. split; [left; reflexivity|]. split; [|apply conic_says; exact Hf].
    fold d. rewrite pscale_1. apply Rnot_lt_le. intros B. apply SG in B. lra.
Qed.

Lemma deputy_rows_say ds1 q w ds2 : plen (psub p q) <> 0 ->
  as_table (deputy_entries nan c (S (length ds1))) (deputies_state p v (ds1 ++ (q, w) :: ds2) angle)
    (deputy_rows c p v angle (S (length ds1)) q w).
Proof.
  intros NQ. unfold deputies_state. rewrite map_app, concat_app. cbn [map concat fst snd].
  set (mid := concat (map _ ds1)). set (rest := concat (map _ ds2)).
  assert (Lm : length mid = (6 * length ds1)%nat) by apply flat_length.
  assert (E : arr p ++ arr v ++ (mid ++ (arr q ++ arr w) ++ rest) ++ [angle] =
    ((arr p ++ arr v ++ mid) ++ arr q ++ arr w ++ rest) ++ [angle]) by (rewrite <- !app_assoc; reflexivity).
  rewrite E. unfold as_table, deputy_entries, deputy_rows. set (s := _ ++ [angle]).
  apply Forall2_cons; [|apply Forall2_cons; [|apply Forall2_cons; [|apply Forall2_nil]]].
  - eapply wrap_row; [reflexivity|reflexivity| |cbn; lra|reflexivity|reflexivity|reflexivity|reflexivity|reflexivity].
    cbn [r_says c_params deputy_collision new_constraint c_fun]. unfold braking.
    replace (S (length ds1) * 6)%nat with (6 * S (length ds1))%nat by lia. unfold s.
    rewrite (proj1 (slice_own p v q w mid rest angle)), (proj2 (slice_own p v q w mid rest angle)).
    rewrite (proj1 (slice_other p v q w mid rest _ angle Lm)), (proj2 (slice_other p v q w mid rest _ angle Lm)), !arr_sub.
    pose proof (keep_out_says 2 (i_a_max c) (i_deputy c * 2) (psub p q) (psub v w)) as K.
    rewrite brake_eq in *. replace (2 * 2) with 4 in K by ring. rewrite K. unfold pdist. f_equal. ring.
  - eapply wrap_row; [reflexivity|reflexivity| |cbn; lra|reflexivity|reflexivity|reflexivity|reflexivity|reflexivity].
    apply sign_says; assumption.
  - eapply wrap_row; [reflexivity|reflexivity| |cbn; lra|reflexivity|reflexivity|reflexivity|reflexivity|reflexivity].
    pose proof (separation_says (i_n c) (i_chief c + i_deputy c) (length ds1) None kw_default p v q w mid (rest ++ [angle]) Hn Lm) as D.
    assert (E2 : (arr p ++ arr v ++ mid) ++ arr q ++ arr w ++ rest ++ [angle] = s) by (unfold s; rewrite <- !app_assoc; reflexivity).
    unfold vec in *. rewrite E2 in D. exact D.
Qed.

Lemma deputies_rows_say others : forall ds1, (forall q w, In (q, w) others -> plen (psub p q) <> 0) ->
  as_table (flat_map (deputy_entries nan c) (seq (S (length ds1)) (length others)))
    (deputies_state p v (ds1 ++ others) angle) (deputies_rows c p v angle (S (length ds1)) others).
Proof.
  induction others as [|[q w] others IH]; intros ds1 H; [apply Forall2_nil|].
  cbn [length seq flat_map deputies_rows]. apply Forall2_app.
  - apply deputy_rows_say. apply (H q w). left; reflexivity.
  - specialize (IH (ds1 ++ [(q, w)])). rewrite app_length in IH. cbn [length] in IH.
    replace (length ds1 + 1)%nat with (S (length ds1)) in IH by lia. rewrite <- app_assoc in IH. cbn [app] in IH.
    apply IH. intros q' w' I. apply (H q' w'). right; exact I.
Qed.

Lemma deputies_say others : (forall q w, In (q, w) others -> plen (psub p q) <> 0) ->
  as_table (deputies_constraints nan (S (length others)) c) (deputies_state p v others angle) (deputies_table c p v angle others).
Proof.
  intros H. rewrite deputies_constraints_eq. replace (S (length others) - 1)%nat with (length others) by lia.
  assert (E : deputies_table c p v angle others = firstn 8 (deputies_table c p v angle others) ++ deputies_rows c p v angle 1 others) by reflexivity.
  rewrite E. apply Forall2_app; [apply deputies_base_rows|]. exact (deputies_rows_say others [] H).
Qed.
End Deputies.
