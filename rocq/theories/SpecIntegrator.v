(** Specification vocabulary for the 1d integrator: braking paths. *)
From Coq Require Import Reals List.
From Verif Require Import Prelude Vec.
Import ListNotations.
Local Open Scope R_scope.

(** Full braking (control -1) with the given step sizes, from [x] through the states [xs]. *)
Inductive brakes (pred : vec -> R -> vec -> res vec) : list R -> vec -> list vec -> Prop :=
| br_nil x : brakes pred [] x []
| br_cons dt dts x x' xs :
    pred x dt [-1] = Ok x' -> brakes pred dts x' xs -> brakes pred (dt :: dts) x (x' :: xs).

(** The explicit safe set: a car at position [p] with speed [v] that brakes with deceleration
    one stops before 0. *)
Definition can_stop (x : vec) : Prop :=
  exists p v, x = [p; v] /\ 0 <= -2 * p - v * v.
Definition not_past_zero (x : vec) : Prop := exists p v, x = [p; v] /\ p <= 0.
