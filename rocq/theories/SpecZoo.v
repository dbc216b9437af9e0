(** Specification vocabulary for the library's own modules: what a reported value of zero or
    more is documented to mean. *)
From Coq Require Import String Reals List ZArith.
From Verif Require Import Prelude Vec ModelBase ModelZoo SpecCwh SpecConic.
Import ListNotations.
Local Open Scope R_scope.

(** Every value a module with the constraints [cs] reports for the state [s] is at least zero.
    The module is one just built ([y] is what its own class adds). *)
Definition all_reported_nonneg {X P} (cs : dict (constraint X P)) (s : X) : Prop :=
  forall (c : cb X P unit), cb_init cs None tt = Ok c ->
  forall name h, In (name, h) (cb_values (update_constraint_values_at s false c)) -> 0 <= h.

(** The distance-dependent speed limit, with the documented smoothing inside the two norms. *)
Definition slow_enough (v0 v1 v0_distance : R) (p v : point) : Prop :=
  sqrt (pdot v v + 1 / 100000) <= v0 + v1 * (sqrt (pdot p p + 1 / 100000) - v0_distance).

(** Without thrust the deputy is [radius] or more away from the chief after each of the next
    100 seconds. *)
Definition drifts_clear (n radius : R) (p v : point) : Prop :=
  forall x y z vx vy vz, cwh_motion n 1 0 0 0 x y z vx vy vz ->
  pt (x 0) (y 0) (z 0) = p -> pt (vx 0) (vy 0) (vz 0) = v ->
  forall k, (1 <= k <= 100)%nat -> radius <= plen (pt (x (INR k)) (y (INR k)) (z (INR k))).

(** The same for two deputies and the distance between them. *)
Definition drift_apart (n radius : R) (p v q w : point) : Prop :=
  forall x y z vx vy vz x' y' z' vx' vy' vz',
  cwh_motion n 1 0 0 0 x y z vx vy vz -> cwh_motion n 1 0 0 0 x' y' z' vx' vy' vz' ->
  pt (x 0) (y 0) (z 0) = p -> pt (vx 0) (vy 0) (vz 0) = v ->
  pt (x' 0) (y' 0) (z' 0) = q -> pt (vx' 0) (vy' 0) (vz' 0) = w ->
  forall k, (1 <= k <= 100)%nat ->
  radius <= pdist (pt (x (INR k)) (y (INR k)) (z (INR k))) (pt (x' (INR k)) (y' (INR k)) (z' (INR k))).

(** Each component of a velocity within its limit. *)
Definition components_within (lx ly lz : R) (v : point) : Prop :=
  Rabs (fst (fst v)) <= lx /\ Rabs (snd (fst v)) <= ly /\ Rabs (snd v) <= lz.

(** The conditions of the inspection task, for one deputy. *)
Record inspection_ok (c : insp_cfg) (p v : point) (angle : R) : Prop := mkOk {
  ok_speed : slow_enough (i_v0 c) (i_v1_coef c * i_n c) (i_v0_distance c) p v;
  ok_sun : ~ in_view (i_fov c) angle p;
  ok_range : plen p <= i_r_max c;
  ok_drift : drifts_clear (i_n c) (i_chief c + i_deputy c) p v;
  ok_velocity : components_within (i_vel_limit c) (i_vel_limit c) (i_vel_limit c) v;
  ok_distance : i_chief c + i_deputy c <= plen p }.

(** With respect to another deputy at [q] with velocity [w]: no collision now, none when both
    drift ([psm_radius] is the distance to keep), and neither looks into the sun when it looks
    at the other one. *)
Record deputy_ok (c : insp_cfg) (psm_radius : R) (p v q w : point) (angle : R) : Prop := mkDepOk {
  dok_distance : 2 * i_deputy c <= pdist p q;
  dok_sun : ~ in_view (i_fov c) angle (psub p q) /\ ~ in_view (i_fov c) angle (psub q p);
  dok_drift : drift_apart (i_n c) psm_radius p v q w }.

(** The state array of the module for several deputies: its own deputy, the others, the angle of
    the sun. *)
Definition deputies_state (p v : point) (others : list (point * point)) (angle : R) : vec :=
  arr p ++ arr v ++ concat (map (fun d => arr (fst d) ++ arr (snd d)) others) ++ [angle].

(** A set of constraints that every filter can work with: distinct names, all enabled, with a
    strengthener that is an increasing odd polynomial, no slack, and a bias that is not
    positive. *)
Definition strengthens (a : R -> R) : Prop :=
  a 0 = 0 /\ (forall x y, x < y -> a x < a y) /\ (forall x, a (- x) = - a x).
Definition ready {X P} (cs : dict (constraint X P)) : Prop :=
  NoDup (map fst cs) /\
  forall name c, In (name, c) cs ->
    c_enabled c = true /\ c_slack c = None /\ c_bias c <= 0 /\
    exists a, c_alpha c = Some a /\ strengthens a.
