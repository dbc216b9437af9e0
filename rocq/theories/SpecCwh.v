(** Specification vocabulary for the CWH examples: distances, the equations of motion, braking. *)
From Coq Require Import Reals List.
From Verif Require Import Prelude Vec.
Import ListNotations.
Local Open Scope R_scope.

(** Euclidean length in the plane and in space. *)
Definition length2 (x y : R) : R := sqrt (x * x + y * y).
Definition length3 (x y z : R) : R := sqrt (x * x + y * y + z * z).

(** A solution, for all times, of the Clohessy-Wiltshire-Hill equations with mean motion [n],
    mass [m] and the constant thrust [ux, uy, uz]. *)
Record cwh_motion (n m ux uy uz : R) (x y z vx vy vz : R -> R) : Prop := mkMotion {
  cm_x : forall t, derivable_pt_lim x t (vx t);
  cm_y : forall t, derivable_pt_lim y t (vy t);
  cm_z : forall t, derivable_pt_lim z t (vz t);
  cm_vx : forall t, derivable_pt_lim vx t (3 * (n * n) * x t + 2 * n * vy t + ux / m);
  cm_vy : forall t, derivable_pt_lim vy t (- (2 * n * vx t) + uy / m);
  cm_vz : forall t, derivable_pt_lim vz t (- (n * n * z t) + uz / m) }.

(** [T] seconds of a motion under the CWH equations with a thrust that may change. *)
Record cwh_forced (n m T : R) (ux uy uz x y z vx vy vz : R -> R) : Prop := mkForced {
  cf_x : forall t, 0 <= t <= T -> derivable_pt_lim x t (vx t);
  cf_y : forall t, 0 <= t <= T -> derivable_pt_lim y t (vy t);
  cf_z : forall t, 0 <= t <= T -> derivable_pt_lim z t (vz t);
  cf_vx : forall t, 0 <= t <= T -> derivable_pt_lim vx t (3 * (n * n) * x t + 2 * n * vy t + ux t / m);
  cf_vy : forall t, 0 <= t <= T -> derivable_pt_lim vy t (- (2 * n * vx t) + uy t / m);
  cf_vz : forall t, 0 <= t <= T -> derivable_pt_lim vz t (- (n * n * z t) + uz t / m) }.

(** The rate of change of a CWH state without thrust. *)
Definition cwh_rate (n : R) (s : vec) : vec :=
  match s with
  | [x; y; z; vx; vy; vz] => [vx; vy; vz; 3 * (n * n) * x + 2 * n * vy; - (2 * n * vx); - (n * n * z)]
  | _ => []
  end.

(** [r] is a distance with rate [r'] and second derivative [r''] on [0, T]. *)
Definition radial_motion (r r' r'' : R -> R) (T : R) : Prop :=
  forall t, 0 <= t <= T -> derivable_pt_lim r t (r' t) /\ derivable_pt_lim r' t (r'' t).

(** The second derivative of the distance to the origin, for a position, velocity and
    acceleration (justified by C58_radial_acceleration). *)
Definition radial_acceleration (x y z vx vy vz ax ay az : R) : R :=
  let r := length3 x y z in
  let w := x * vx + y * vy + z * vz in
  (vx * vx + vy * vy + vz * vz + (x * ax + y * ay + z * az)) / r - w * w / (r * r * r).
