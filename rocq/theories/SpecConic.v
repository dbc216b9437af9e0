(** Specification vocabulary for the conic keep-out zone: looking at the sun. *)
From Coq Require Import Reals List.
From Verif Require Import Vec.
Import ListNotations.
Local Open Scope R_scope.

(** Points and directions in space. *)
Definition point : Type := (R * R * R)%type.
Definition pt (x y z : R) : point := (x, y, z).
Definition pdot (p q : point) : R :=
  let '(x, y, z) := p in let '(x', y', z') := q in x * x' + y * y' + z * z'.
Definition plen (p : point) : R := sqrt (pdot p p).
Definition padd (p q : point) : point :=
  let '(x, y, z) := p in let '(x', y', z') := q in (x + x', y + y', z + z').
Definition psub (p q : point) : point :=
  let '(x, y, z) := p in let '(x', y', z') := q in (x - x', y - y', z - z').
Definition pscale (k : R) (p : point) : point := let '(x, y, z) := p in (k * x, k * y, k * z).
Definition pdist (p q : point) : R := plen (psub p q).
(** The array of a point. *)
Definition arr (p : point) : vec := let '(x, y, z) := p in [x; y; z].

(** The sun's direction, seen from the chief, at a given angle in the x-y plane. *)
Definition sun_at (angle : R) : point := (cos angle, sin angle, 0).

(** A deputy at [p] looks at the chief (in the origin).  The sun is in view when the angle
    between the line of sight, -p, and the direction to the sun is less than half the field of
    view [fov]; for angles up to pi that is a comparison of cosines. *)
Definition in_view (fov angle : R) (p : point) : Prop :=
  plen p * cos (fov / 2) < pdot (pscale (-1) p) (sun_at angle).
(** Seen at the very edge of the field of view, or nearer to its centre. *)
Definition in_or_at_view (fov angle : R) (p : point) : Prop :=
  plen p * cos (fov / 2) <= pdot (pscale (-1) p) (sun_at angle).

(** [d] is the signed clearance of a deputy at [p] from the places where the sun is in view:
    not negative iff the sun is not in view; at least [d] away from each of those places, and
    inside at least [- d] away from each place outside.  It is attained, except on the far
    side (more than 90 degrees beyond the edge), where the chief itself is the nearest place. *)
Record clearance (fov angle : R) (p : point) (d : R) : Prop := mkClearance {
  cl_sign : 0 <= d <-> ~ in_view fov angle p;
  cl_outside : forall q, in_or_at_view fov angle q -> d <= pdist p q;
  cl_inside : forall q, ~ in_view fov angle q -> - d <= pdist p q;
  cl_attained : - plen p * sin (fov / 2) <= pdot (pscale (-1) p) (sun_at angle) ->
    exists q, in_or_at_view fov angle q /\ ~ in_view fov angle q /\ pdist p q = Rabs d }.

(** The barrier for a distance [d] that changes at the rate [r] and can be braked with
    [a_max]: documented as sqrt(2 a_max d) + r, and with the root's sign outside. *)
Definition braking_barrier (a_max d r : R) : R :=
  (if Rle_dec 0 d then sqrt (2 * a_max * d) else - sqrt (2 * a_max * - d)) + r.

(** A motion on [0, T] and its velocity; a sun angle that changes at the rate [w]. *)
Definition moves (T : R) (p v : R -> point) : Prop :=
  forall t, 0 <= t <= T ->
    derivable_pt_lim (fun t => fst (fst (p t))) t (fst (fst (v t))) /\
    derivable_pt_lim (fun t => snd (fst (p t))) t (snd (fst (v t))) /\
    derivable_pt_lim (fun t => snd (p t)) t (snd (v t)).
Definition turns (T w : R) (angle : R -> R) : Prop :=
  forall t, 0 <= t <= T -> derivable_pt_lim angle t w.

(** The state array of the inspection modules: position, velocity, sun angle, used delta-v. *)
Definition state_of (p v : point) (angle dv : R) : vec := arr p ++ arr v ++ [angle; dv].
