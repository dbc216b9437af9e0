(** Specification of what a flight under the discrete inspection module is to keep, and of the
    step sizes for which it does.  Nothing here mentions the module. *)
From Coq Require Import Reals List.
From Verif Require Import Prelude Vec SpecCwh SpecConic.
Import ListNotations.
Local Open Scope R_scope.

(** The speed from which an acceleration [a] stops within the distance [d]; a distance already
    overrun by [- d] asks for that speed in the other direction. *)
Definition stopping_speed (a d : R) : R := if Rle_dec 0 d then sqrt (2 * a * d) else - sqrt (2 * a * - d).

(** The state is a position, a velocity, the sun's angle and the delta-v used. *)
Definition flown (s : vec) (Q : R -> R -> R -> R -> R -> R -> Prop) : Prop :=
  exists x y z vx vy vz sun used, s = [x; y; z; vx; vy; vz; sun; used] /\ Q x y z vx vy vz.

(** The rate of change of the distance to the chief. *)
Definition closing (x y z vx vy vz : R) : R := (x * vx + y * vy + z * vz) / length3 x y z.

(** No component of the velocity is beyond [L]. *)
Definition axes_slow (L : R) (s : vec) : Prop :=
  flown s (fun _ _ _ vx vy vz => Rabs vx <= L /\ Rabs vy <= L /\ Rabs vz <= L).
(** The distance can be kept below [far] with the deceleration [a]; beyond [far] the deputy is
    on its way back. *)
Definition stays_near (far a : R) (s : vec) : Prop :=
  flown s (fun x y z vx vy vz => closing x y z vx vy vz <= stopping_speed a (far - length3 x y z)).
(** The distance can be kept above [radius] with the deceleration [a], up to a speed [e]. *)
Definition stays_clear (radius a e : R) (s : vec) : Prop :=
  flown s (fun x y z vx vy vz => - closing x y z vx vy vz <= stopping_speed a (length3 x y z - radius) + e).
(** The speed is at most v0 + v1 (distance - d0), both lengths smoothed by [delta]. *)
Definition paced (v0 v1 d0 delta : R) (s : vec) : Prop :=
  flown s (fun x y z vx vy vz =>
    sqrt (vx * vx + vy * vy + vz * vz + delta) <= v0 + v1 * (sqrt (x * x + y * y + z * z + delta) - d0)).
(** The distance is at most [d]. *)
Definition no_farther (d : R) (s : vec) : Prop := flown s (fun x y z _ _ _ => length3 x y z <= d).

(** Without thrust the deputy would be at least [d] away at every second of the next [secs]. *)
Definition coasts_clear (n d : R) (secs : nat) (s : vec) : Prop :=
  flown s (fun px py pz qx qy qz => forall x y z vx vy vz,
    cwh_motion n 1 0 0 0 x y z vx vy vz ->
    x 0 = px -> y 0 = py -> z 0 = pz -> vx 0 = qx -> vy 0 = qy -> vz 0 = qz ->
    forall k, (1 <= k <= secs)%nat -> d <= length3 (x (INR k)) (y (INR k)) (z (INR k))).

(** The deputy is neither in the chief's place nor in line with the chief and the sun, and does not
    see the sun at the very edge of its view [fov]. *)
Definition sun_judged (fov : R) (s : vec) : Prop :=
  exists p v angle used, s = state_of p v angle used /\ plen p <> 0 /\
  (forall k, p <> pscale k (sun_at angle)) /\ (in_or_at_view fov angle p -> in_view fov angle p).
(** The clearance from the places where the sun is in view can be kept with the deceleration
    [a]: with [d] the clearance and [r] the rate at which it changes in any motion through the
    state in which the sun turns at the rate [w]. *)
Definition sun_avoidable (fov a w : R) (s : vec) : Prop :=
  exists p v angle used d r, s = state_of p v angle used /\ clearance fov angle p d /\
  0 <= braking_barrier a d r /\
  forall T P V A, 0 < T -> moves T P V -> turns T w A -> P 0 = p -> V 0 = v -> A 0 = angle ->
  exists D, (forall t, 0 <= t <= T -> clearance fov (A t) (P t) (D t)) /\ D 0 = d /\ derivable_pt_lim D 0 r.

(** Steps short enough for the limits: [L] is the limit of each velocity component, [a] the
    deceleration, [far] the range, v0, v1 and d0 the speed limit. *)
Record short_steps (L a far v0 v1 d0 dt : R) : Prop := mkShort {
  sh_axes : dt * (1 / 10 + 1 / 100 * (L ^ 2) ^ 2) <= 1;
  sh_far : dt * (1 / 1000 + 1 / 1000 * (sqrt (2 * a * far) + 2 * L) ^ 2) <= 1;
  sh_clear : dt * (1 / 100 + 1 / 1000 * (sqrt (2 * a * far + 4 * L ^ 2) + 2 * L) ^ 2) <= 1;
  sh_pace : dt * (1 / 100 + 1 / 1000 * (v0 + v1 * (far + 2 * L ^ 2 / a + 1 - d0)) ^ 2) <= 1 }.
