(** Specification vocabulary for the LQR backup controllers. *)
From Coq Require Import Reals List.
From Verif Require Import Prelude Vec.
Import ListNotations.
Local Open Scope R_scope.

Definition sized (r c : nat) (A : mat) : Prop := length A = r /\ Forall (fun row => length row = c) A.
(** x' P y *)
Definition form (P : mat) (x y : vec) : R := dot x (mv P y).
(** What a solver of the Riccati equation A'P + PA - P B R^-1 B'P + Q = 0 promises for
    R = r * identity: a symmetric positive semidefinite solution.  The equation is written as the
    quadratic form it denotes; [bt] is the transpose of B. *)
Definition riccati (dim : nat) (A bt Q : mat) (r : R) (P : mat) : Prop :=
  sized dim dim P /\
  (forall x y, length x = dim -> length y = dim -> form P x y = form P y x) /\
  (forall x, length x = dim -> 0 <= form P x x) /\
  (forall x, length x = dim ->
     form P x (mv A x) + form P (mv A x) x - dot (mv bt (mv P x)) (mv bt (mv P x)) / r + form Q x x = 0).

(** The CWH equations x' = A x + B u of the spatial and the planar model, and the identity
    scaled by [q]. *)
Definition motion3 (n : R) : mat :=
  [[0; 0; 0; 1; 0; 0]; [0; 0; 0; 0; 1; 0]; [0; 0; 0; 0; 0; 1];
   [3 * n ^ 2; 0; 0; 0; 2 * n; 0]; [0; 0; 0; -2 * n; 0; 0]; [0; 0; - n ^ 2; 0; 0; 0]].
Definition thrust3 (m : R) : mat :=
  [[0; 0; 0]; [0; 0; 0]; [0; 0; 0]; [1 / m; 0; 0]; [0; 1 / m; 0]; [0; 0; 1 / m]].
Definition thrust3_t (m : R) : mat := [[0; 0; 0; 1 / m; 0; 0]; [0; 0; 0; 0; 1 / m; 0]; [0; 0; 0; 0; 0; 1 / m]].
Definition motion2 (n : R) : mat := [[0; 0; 1; 0]; [0; 0; 0; 1]; [3 * n ^ 2; 0; 0; 2 * n]; [0; 0; -2 * n; 0]].
Definition thrust2 (m : R) : mat := [[0; 0]; [0; 0]; [1 / m; 0]; [0; 1 / m]].
Definition thrust2_t (m : R) : mat := [[0; 0; 1 / m; 0]; [0; 0; 0; 1 / m]].
Definition diagonal (k : nat) (q : R) : mat := map (fun i => map (fun j => if Nat.eqb i j then q else 0) (seq 0 k)) (seq 0 k).
