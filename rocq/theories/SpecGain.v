(** Specification vocabulary for the gain of the delta-v module. *)
From Coq Require Import Reals List.
From Verif Require Import Prelude Vec SpecLqr SpecCwh.
Import ListNotations.
Local Open Scope R_scope.

(** By how much a matrix [P] misses the Riccati equation A'P + PA - P B R^-1 B'P + Q = 0 for
    Q = q * identity and R = r * identity, as a quadratic form.  [B] has [k] columns. *)
Definition miss (k : nat) (A B : mat) (q r : R) (P : mat) (x : vec) : R :=
  form P x (mv A x) + form P (mv A x) x - dot (vm k (mv P x) B) (vm k (mv P x) B) / r + q * dot x x.

(** A solver of such equations: it returns a matrix of the right size that misses by at most
    [tol], or raises. *)
Definition solves_riccati (tol : R) (care : mat -> mat -> mat -> mat -> res mat) : Prop :=
  forall dim k A B q r P, sized dim dim A -> sized dim k B ->
  care A B (diagonal dim q) (diagonal k r) = Ok P ->
  sized dim dim P /\ forall x, length x = dim -> Rabs (miss k A B q r P x) <= tol * dot x x.

(** The motion and the integral of its state, together: how they change without thrust. *)
Definition with_integral (n : R) (x : vec) : vec := cwh_rate n (firstn 6 x) ++ firstn 6 x.

(** By how much [P] misses the equation of the optimal regulator of a spacecraft of mass [m] with
    the weights 1e-5 for the state and its integral and 1e5 for the thrust. *)
Definition regulator_miss (n m : R) (P : mat) (x : vec) : R :=
  form P x (with_integral n x) + form P (with_integral n x) x
  - ((nth 3 (mv P x) 0 / m) ^ 2 + (nth 4 (mv P x) 0 / m) ^ 2 + (nth 5 (mv P x) 0 / m) ^ 2) / 100000
  + 1 / 100000 * dot x x.

(** The natural ellipses around the chief, on which a spacecraft returns without thrust. *)
Definition on_ellipse (n : R) (s : vec) : Prop :=
  nth 3 s 0 = n * nth 1 s 0 / 2 /\ nth 4 s 0 = - (2 * n * nth 0 s 0).
