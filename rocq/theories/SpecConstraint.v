(** Specification vocabulary for constraint objects: polynomials, gradients, trajectories. *)
From Coq Require Import String Reals List Bool ZArith.
From Verif Require Import Prelude Vec ModelBase.
Import ListNotations.
Local Open Scope R_scope.

(** The polynomial c_0 + c_1 x + c_2 x^2 + ..., by Horner's rule. *)
Fixpoint horner (coefs : list R) (x : R) : R :=
  match coefs with
  | [] => 0
  | c :: coefs' => c + x * horner coefs' x
  end.

(** Coefficients that vanish at even powers, are not negative at odd powers, and of which one
    is positive. *)
Definition odd_increasing (coefs : list R) : Prop :=
  (forall n c, nth_error coefs n = Some c -> if Nat.even n then c = 0 else 0 <= c) /\
  (exists n c, nth_error coefs n = Some c /\ 0 < c).

(** [x] with entry [i] replaced. *)
Fixpoint replaced (i : nat) (r : R) (x : vec) : vec :=
  match x, i with
  | [], _ => []
  | _ :: t, O => r :: t
  | a :: t, S i' => a :: replaced i' r t
  end.

(** [v] is the array of partial derivatives of [F] at [x]. *)
Definition is_gradient (F : vec -> R) (x v : vec) : Prop :=
  length v = length x /\
  forall i, (i < length x)%nat -> derivable_pt_lim (fun t => F (replaced i t x)) (nth i x 0) (nth i v 0).

(** The documented chain of a higher order barrier function on states of [n] entries:
    psi_0 = h and psi_{i+1} = grad psi_i . f + alpha(psi_i), up to level [top]. *)
Record chain_of (n top : nat) (h : vec -> R) (f : vec -> vec) (alpha : R -> R)
    (psi : nat -> vec -> R) (dpsi : nat -> vec -> vec) : Prop := mkChain {
  ch_start : forall x, length x = n -> psi O x = h x;
  ch_grad : forall i x, (i < top)%nat -> length x = n -> is_gradient (psi i) x (dpsi i x);
  ch_step : forall i x, (i < top)%nat -> length x = n ->
    psi (S i) x = dot (dpsi i x) (f x) + alpha (psi i x) }.

(** [v] is entry [i] of [x]; a negative index counts from the end. *)
Definition component (i : Z) (x : vec) (v : R) : Prop :=
  exists j : nat, nth_error x j = Some v /\ (Z.of_nat j = i \/ Z.of_nat j = (Z.of_nat (length x) + i)%Z /\ (i < 0)%Z).

(** The derivative of the value of a constraint along a trajectory is the gradient times the
    velocity, at the times from 0 to [T]. *)
Definition moves_along {X P} (c : constraint X P) (p : P) (x : R -> X) (velocity : R -> vec) (T : R) : Prop :=
  forall t, 0 <= t <= T ->
  derivable_pt_lim (fun r => c_fun c (x r) p) t (dot (c_grad c (x t) p) (velocity t)).
