(** Specification vocabulary for C78: the barrier conditions that the library's own modules
    enforce, as tables.  Each row: the constraint's name, what its barrier function h measures,
    and the numbers in the condition  h' >= - (lin * k + cub * k^3)  with  k = h - margin. *)
From Coq Require Import String Reals List ZArith.
From Verif Require Import Prelude Vec ModelBase ModelZoo SpecCwh SpecConic SpecZoo.
Import ListNotations.
Local Open Scope R_scope.

Record row : Type := mkRow { r_name : string; r_says : R -> Prop; r_lin : R; r_cub : R; r_margin : R }.

(** What a module's entry does in the state [s] is as the row says: compute(state, params) and
    alpha(x) of the constraint, which is enabled, without slack. *)
Definition as_row {P} (s : vec) (kc : string * constraint vec P) (r : row) : Prop :=
  fst kc = r_name r /\
  (exists h, r_says r h /\ c_compute (snd kc) s (c_params (snd kc)) = h - r_margin r) /\
  (forall h, c_alpha_at (snd kc) h = Ok (r_lin r * h + r_cub r * h ^ 3)) /\
  c_enabled (snd kc) = true /\ c_slack (snd kc) = None.
Definition as_table {P} (cs : dict (constraint vec P)) (s : vec) (rows : list row) : Prop :=
  Forall2 (as_row s) cs rows.

(** How much slower than its limit the spacecraft is; both norms are smoothed. *)
Definition speed_margin (v0 v1 v0_distance : R) (p v : point) (h : R) : Prop :=
  h = v0 + v1 * (sqrt (pdot p p + 1 / 100000) - v0_distance) - sqrt (pdot v v + 1 / 100000).
(** A component of the velocity against its limit. *)
Definition limit_margin (l v : R) (h : R) : Prop := h = l * l - v * v.
(** A distance [d] from a forbidden place, which changes at the rate [r] and can be braked with
    [a]. *)
Definition braking (a d r : R) (h : R) : Prop := h = braking_barrier a d r.
(** How fast the distance of a point at [p] with velocity [v] from the origin grows. *)
Definition range_rate (p v : point) : R := pdot p v / plen p.
(** The least clearance from the chief, or between two deputies, over the next 100 seconds of
    drift: a number is no more than [h] iff all the clearances are at least that number. *)
Definition drift_clearance (n radius : R) (p v : point) (h : R) : Prop :=
  forall r, r <= h <-> drifts_clear n (radius + r) p v.
Definition drift_separation (n radius : R) (p v q w : point) (h : R) : Prop :=
  forall r, r <= h <-> drift_apart n (radius + r) p v q w.
(** The braking barrier for the clearance from the places with the sun in view, while the sun
    turns at the rate [turn].  Nothing is said about the chief's place, the line through the chief
    and the sun, and the very edge of the view, where there is no value. *)
Definition sun_barrier (fov a turn angle : R) (p v : point) (h : R) : Prop :=
  plen p <> 0 -> (forall k, p <> pscale k (sun_at angle)) -> (in_or_at_view fov angle p -> in_view fov angle p) ->
  forall T p' v' angle', 0 <= T -> moves T p' v' -> turns T turn angle' ->
  p' 0 = p -> v' 0 = v -> angle' 0 = angle ->
  exists (d : R -> R) r, (forall t, 0 <= t <= T -> clearance fov (angle' t) (p' t) (d t)) /\
    derivable_pt_lim d 0 r /\ h = braking_barrier a (d 0) r.
(** Between two deputies: for the one that has the sun in front of it when it looks at the
    other. *)
Definition deputy_sun_barrier (fov a turn angle : R) (p v q w : point) (h : R) : Prop :=
  exists sg, (sg = 1 \/ sg = -1) /\ pdot (pscale sg (psub p q)) (sun_at angle) <= 0 /\
  sun_barrier fov a turn angle (pscale sg (psub p q)) (pscale sg (psub v w)) h.
(** The second order barrier for the distance. *)
Definition second_order (radius : R) (p v : point) (h : R) : Prop :=
  h = range_rate p v + (1 / 10 * (plen p - radius) + 1 / 10 * (plen p - radius) ^ 3).

(** ** The tables *)
Definition x_of (v : point) : R := fst (fst v).
Definition y_of (v : point) : R := snd (fst v).
Definition z_of (v : point) : R := snd v.

Definition docking_2d_table (c : dock_cfg) (p v : point) : list row :=
  [ mkRow "rel_vel" (speed_margin (d_v0 c) (d_v1_coef c * d_n c) (d_v0_distance c) p v) (1 / 100) (1 / 10) (1 / 10000);
    mkRow "x_vel" (limit_margin (d_x_limit c) (x_of v)) (1 / 2000) (1 / 1000) 0;
    mkRow "y_vel" (limit_margin (d_y_limit c) (y_of v)) (1 / 2000) (1 / 1000) 0 ].
Definition docking_3d_table (c : dock_cfg) (p v : point) : list row :=
  [ mkRow "rel_vel" (speed_margin (d_v0 c) (d_v1_coef c * d_n c) (d_v0_distance c) p v) (1 / 20) (1 / 200) (1 / 10000);
    mkRow "x_vel" (limit_margin (d_x_limit c) (x_of v)) (1 / 2000) (1 / 1000) 0;
    mkRow "y_vel" (limit_margin (d_y_limit c) (y_of v)) (1 / 2000) (1 / 1000) 0;
    mkRow "z_vel" (limit_margin (d_z_limit c) (z_of v)) (1 / 2000) (1 / 1000) 0 ].

(** One dimension: the position stays below 0; with the braking distance, or without. *)
Definition integrator_explicit_table (x v : R) : list row :=
  [ mkRow "rel_vel" (fun h => h = - (2 * x + v * v)) 1 30 0 ].
Definition integrator_implicit_table (x v : R) : list row :=
  [ mkRow "rel_vel" (fun h => h = - x) 10 30 0 ].

Definition velocity_rows (l : R) (v : point) : list row :=
  [ mkRow "x_vel" (limit_margin l (x_of v)) (1 / 10) (1 / 100) (1 / 1000);
    mkRow "y_vel" (limit_margin l (y_of v)) (1 / 10) (1 / 100) (1 / 1000);
    mkRow "z_vel" (limit_margin l (z_of v)) (1 / 10) (1 / 100) (1 / 1000) ].

Section Inspection.
Variables (c : insp_cfg) (p v : point) (angle : R).
(** The braking acceleration: what one newton leaves after the largest gravity and Coriolis
    terms in range and below the speed limits. *)
Definition brake : R :=
  1 / i_m c - 3 * (i_n c * i_n c) * i_r_max c -
  2 * i_n c * Rmin (i_vel_limit c) (i_v0 c + i_v1_coef c * i_n c * i_r_max c).
Let speed := speed_margin (i_v0 c) (i_v1_coef c * i_n c) (i_v0_distance c) p v.
Let sun := sun_barrier (i_fov c) brake (i_sun_vel c) angle p v.
Let range := braking brake (i_r_max c - plen p) (- range_rate p v).
Let drift := drift_clearance (i_n c) (i_chief c + i_deputy c) p v.
Let collision := braking brake (plen p - (i_chief c + i_deputy c)) (range_rate p v).

Definition inspection_table (use_hocbf : bool) : list row :=
  [ mkRow "rel_vel" speed (1 / 20) (1 / 200) (1 / 1000);
    mkRow "sun" sun (1 / 1000) (1 / 10000) (1 / 1000);
    mkRow "r_max" range (1 / 100) (1 / 1000) (1 / 1000);
    mkRow "PSM" drift (1 / 100) (1 / 1000) 0 ] ++ velocity_rows (i_vel_limit c) v ++
  [ if use_hocbf
    then mkRow "chief_collision_hocbf" (second_order (i_chief c + i_deputy c) p v) (1 / 10) (1 / 10) 0
    else mkRow "chief_collision" collision (1 / 100) (1 / 1000) 0 ].

Definition discrete_table : list row :=
  [ mkRow "chief_collision" collision (1 / 100) (1 / 1000) 0;
    mkRow "rel_vel" speed (1 / 100) (1 / 1000) (1 / 1000);
    mkRow "sun" sun (1 / 1000) (1 / 1000) (1 / 1000);
    mkRow "r_max" range (1 / 1000) (1 / 1000) (1 / 1000);
    mkRow "PSM" drift (1 / 1000) (1 / 1000) 0 ] ++ velocity_rows (i_vel_limit c) v.

(** Other deputy number [i], at [q] with velocity [w]. *)
Definition deputy_rows (i : nat) (q w : point) : list row :=
  [ mkRow (numbered "deputy_collision_" i)
      (braking (2 * brake) (pdist p q - 2 * i_deputy c) (range_rate (psub p q) (psub v w))) (1 / 100) (1 / 1000) 0;
    mkRow (numbered "deputy_sun_" i)
      (deputy_sun_barrier (i_fov c) brake (i_sun_vel c) angle p v q w) 0 (1 / 10) (1 / 1000);
    mkRow (numbered "deputy_PSM_" i)
      (drift_separation (i_n c) (i_chief c + i_deputy c) p v q w) (1 / 100) (1 / 1000) 0 ].
Fixpoint deputies_rows (i : nat) (others : list (point * point)) : list row :=
  match others with
  | [] => []
  | (q, w) :: others' => deputy_rows i q w ++ deputies_rows (S i) others'
  end.
Definition deputies_table (others : list (point * point)) : list row :=
  [ mkRow "chief_collision" collision (1 / 100) (1 / 1000) 0;
    mkRow "rel_vel" speed 0 (1 / 10) (2 / 1000);
    mkRow "chief_sun" sun (1 / 1000) (1 / 10000) (1 / 1000);
    mkRow "r_max" range (1 / 100) (1 / 1000) 0;
    mkRow "PSM" drift (1 / 100) (1 / 1000) 0 ] ++ velocity_rows (i_vel_limit c) v ++ deputies_rows 1 others.
End Inspection.
