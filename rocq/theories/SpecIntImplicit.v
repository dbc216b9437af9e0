(** What the implicit optimisation module of the integrator looks at. *)
From Coq Require Import Reals.
Local Open Scope R_scope.

(** Position and velocity after [j] steps of full braking (one newton, mass [m]), each of them an
    Euler step: the position moves with the velocity before the step. *)
Fixpoint braked (m dt : R) (j : nat) (pv : R * R) : R * R :=
  match j with
  | O => pv
  | S j' => braked m dt j' (fst pv + dt * snd pv, snd pv - dt / m)
  end.

(** None of the points the module predicts within [n] steps is past zero. *)
Definition predicted_safe (m dt : R) (n : nat) (p v : R) : Prop :=
  forall j, (j <= n)%nat -> fst (braked m dt j (p, v)) <= 0.
(** The last of them is at rest or moving away. *)
Definition predicted_stop (m dt : R) (n : nat) (p v : R) : Prop := snd (braked m dt n (p, v)) <= 0.

(** Position and velocity after a time of [j] steps of full braking, without discretisation. *)
Definition braked_exactly (m dt : R) (j : nat) (pv : R * R) : R * R :=
  let t := INR j * dt in (fst pv + snd pv * t - t ^ 2 / (2 * m), snd pv - t / m).
