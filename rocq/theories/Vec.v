(** One- and two-dimensional numpy arrays as lists of reals. *)
From Coq Require Import Reals List.
Import ListNotations.
Local Open Scope R_scope.

Definition vec : Type := list R.
(** A matrix is the list of its rows. *)
Definition mat : Type := list vec.

Fixpoint map2 {A B C} (f : A -> B -> C) (l : list A) (l' : list B) : list C :=
  match l, l' with
  | a :: t, b :: t' => f a b :: map2 f t t'
  | _, _ => []
  end.

Definition vadd (u v : vec) : vec := map2 Rplus u v.
Definition vsub (u v : vec) : vec := map2 Rminus u v.
Definition vscale (k : R) (u : vec) : vec := map (Rmult k) u.
Definition vneg (u : vec) : vec := map Ropp u.
Definition zeros (n : nat) : vec := repeat 0 n.

Fixpoint dot (u v : vec) : R :=
  match u, v with
  | a :: t, b :: t' => a * b + dot t t'
  | _, _ => 0
  end.

Definition sumsq (u : vec) : R := dot u u.
(** numpy.linalg.norm of a vector. *)
Definition norm (u : vec) : R := sqrt (sumsq u).

(** Matrix times column vector. *)
Definition mv (A : mat) (x : vec) : vec := map (fun r => dot r x) A.

(** Row vector times matrix with [k] columns: the combination of the rows. *)
Fixpoint vm (k : nat) (v : vec) (A : mat) : vec :=
  match v, A with
  | a :: t, r :: A' => vadd (vscale a r) (vm k t A')
  | _, _ => zeros k
  end.

(** Matrix product, the right factor having [k] columns. *)
Definition mm (k : nat) (A B : mat) : mat := map (fun r => vm k r B) A.

Definition madd (A B : mat) : mat := map2 vadd A B.
Definition mscale (k : R) (A : mat) : mat := map (vscale k) A.

(** The unit vector of length [n] with a one at position [i]. *)
Definition unit_vec (n i : nat) : vec := map (fun j => if Nat.eqb i j then 1 else 0) (seq 0 n).
Definition eye (n : nat) : mat := map (unit_vec n) (seq 0 n).

(** The shape of a matrix: [n] rows of length [k]. *)
Definition is_mat (n k : nat) (A : mat) : Prop :=
  length A = n /\ Forall (fun r => length r = k) A.
