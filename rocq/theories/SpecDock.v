(** Specification vocabulary for the docking modules: the flight envelope in which the thrusters
    are strong enough for the speed limits. *)
From Coq Require Import String Reals List.
From Verif Require Import Prelude Vec ModelBase ModelAsif ModelZoo SpecCore SpecAsif SpecConic SpecZoo.
Import ListNotations.
Local Open Scope R_scope.

(** The highest speed the distance-dependent limit allows within distance [D]. *)
Definition top_speed (c : dock_cfg) (D : R) : R :=
  d_v0 c + d_v1_coef c * d_n c * (D + 1 / 100 - d_v0_distance c) + 1 / 1000.

(** A configuration, mass [m], distance [D] and thrust [b] per axis such that: the speed limit at
    the origin is at least 2 cm/s and grows by at most 1 cm/s per metre; the thrust can undo the
    gravity gradient at distance [D] and decelerate by 2 cm/s^2 and twice the slope times the
    speed; the limits per axis are not much smaller than the speed limit.  (For the planar
    module, which has no limit in z, any large enough number will do for it.) *)
Record envelope (c : dock_cfg) (m D b : R) : Prop := mkEnv {
  ev_mass : 0 < m;
  ev_motion : 0 <= d_n c;
  ev_range : 0 <= D;
  ev_slope : 0 <= d_v1_coef c * d_n c <= 1 / 100;
  ev_dock : 1 / 50 <= d_v0 c - d_v1_coef c * d_n c * d_v0_distance c;
  ev_thrust : m * (1 / 50 + 2 * (d_v1_coef c * d_n c) * top_speed c D
                   + 3 * (d_n c * d_n c) * D + 2 * d_n c * top_speed c D) <= b;
  ev_limits : 0 <= d_x_limit c /\ 0 <= d_y_limit c /\ 0 <= d_z_limit c;
  ev_x : 3 / 10 * top_speed c D <= d_x_limit c * d_x_limit c;
  ev_y : 3 / 10 * top_speed c D <= d_y_limit c * d_y_limit c;
  ev_z : 3 / 10 * top_speed c D <= d_z_limit c * d_z_limit c }.

(** Controls of [dim] entries up to [b] in size are within the bounds. *)
Definition leaves (bs : bounds) (dim : nat) (b : R) : Prop :=
  forall w, length w = dim -> (forall r, In r w -> Rabs r <= b) -> within bs w.

(** The limits are met with the documented safety margin of 0.1 mm/s ... *)
Definition docking_safe (c : dock_cfg) (p v : point) : Prop :=
  slow_enough (d_v0 c - 1 / 10000) (d_v1_coef c * d_n c) (d_v0_distance c) p v /\
  components_within (d_x_limit c) (d_y_limit c) (d_z_limit c) v.
(** ... or missed by no more than a little. *)
Definition docking_nearly_safe (c : dock_cfg) (p v : point) : Prop :=
  slow_enough (d_v0 c + 9 / 10000) (d_v1_coef c * d_n c) (d_v0_distance c) p v /\
  let '(vx, vy, vz) := v in
  vx * vx <= d_x_limit c * d_x_limit c + 1 / 1000 /\
  vy * vy <= d_y_limit c * d_y_limit c + 1 / 1000 /\
  vz * vz <= d_z_limit c * d_z_limit c + 1 / 1000.

(** The state arrays of the planar and of the spatial module. *)
Definition dock2 (p v : point) : vec :=
  let '(x, y, _) := p in let '(vx, vy, _) := v in [x; y; vx; vy].
Definition dock3 (p v : point) : vec := arr p ++ arr v.

(** The filter with the constraints [cs] (and no other requirements) runs at all times from 0 to
    [T]: at time [t] the state is [x t], the pilot wants [ud t], and the module returns [u t].
    The module may be in any state it can reach by use, and may report failures of the solver. *)
Definition filter_runs {X P} (cfg : asif_cfg X) (n : nat) (cs : dict (constraint X P)) (dt T : R)
    (x : R -> X) (ud u : R -> vec) (s : R -> amod X P unit) : Prop :=
  forall t, 0 <= t <= T ->
    in_use cfg n (s t) (x t) (ud t) /\ asif_constraints (s t) = cs /\ asif_directs (s t) = [] /\
    fst (explicit_asif_filter_control cfg (InArray (x t)) dt (ud t) (s t)) = Ok (u t).
