(** Shared vocabulary of the model: python exceptions as values, a
    state-and-exception monad, python dictionaries and reals with decidable
    comparisons.  Nothing here is specific to the library. *)
From Coq Require Import String Reals List Bool ZArith.
Import ListNotations.
Local Open Scope R_scope.

(** Python exceptions that the modelled code can raise.  [ValueError] carries
    the message because rta/asif.py:260 compares it. *)
Inductive exn : Type :=
| ValueError (msg : string)
| TypeError
| AssertionError
| IndexError
| KeyError
| ZeroDivisionError
| UnboundLocalError
| AttributeError
| SolverError
| OtherExn (tag : nat).

(** Outcome of a python expression: a value or a raised exception. *)
Inductive res (A : Type) : Type :=
| Ok (a : A)
| Err (e : exn).
Arguments Ok {A} a.
Arguments Err {A} e.

Definition rbind {A B} (m : res A) (f : A -> res B) : res B :=
  match m with Ok a => f a | Err e => Err e end.

(** A method of an object with attributes [S]: it may change the attributes and
    either returns or raises.  Attribute writes made before a raise persist, as in
    python. *)
Definition M (S A : Type) : Type := S -> res A * S.

Definition ret {S A} (a : A) : M S A := fun s => (Ok a, s).
Definition raise {S A} (e : exn) : M S A := fun s => (Err e, s).
Definition bind {S A B} (m : M S A) (f : A -> M S B) : M S B :=
  fun s => match m s with
           | (Ok a, s') => f a s'
           | (Err e, s') => (Err e, s')
           end.
Definition get {S} : M S S := fun s => (Ok s, s).
Definition put {S} (s' : S) : M S unit := fun _ => (Ok tt, s').
Definition modify {S} (f : S -> S) : M S unit := fun s => (Ok tt, f s).
Definition lift {S A} (r : res A) : M S A := fun s => (r, s).

Declare Scope monad_scope.
Delimit Scope monad_scope with monad.
Notation "x <- m ;; k" := (bind m (fun x => k))
  (at level 61, m at next level, right associativity) : monad_scope.
Notation "m ;; k" := (bind m (fun _ => k))
  (at level 61, right associativity) : monad_scope.
Notation "x <-- m ;;; k" := (rbind m (fun x => k))
  (at level 61, m at next level, right associativity) : monad_scope.

(** Lifting a method of a part of an object to the object. *)
Definition zoom {S T A} (get_part : S -> T) (set_part : T -> S -> S) (m : M T A) : M S A :=
  fun s => match m (get_part s) with (r, t) => (r, set_part t s) end.

(** Python dictionaries with string keys, in insertion order. *)
Definition dict (V : Type) : Type := list (string * V).

Fixpoint dict_get {V} (d : dict V) (k : string) : res V :=
  match d with
  | [] => Err KeyError
  | (k', v) :: d' => if String.eqb k k' then Ok v else dict_get d' k
  end.

(** Item assignment: replaces in place, or appends a new key at the end. *)
Fixpoint dict_set {V} (d : dict V) (k : string) (v : V) : dict V :=
  match d with
  | [] => [(k, v)]
  | (k', v') :: d' => if String.eqb k k' then (k', v) :: d' else (k', v') :: dict_set d' k v
  end.

Definition dict_keys {V} (d : dict V) : list string := map fst d.

(** Decidable comparisons on the reals. *)
Definition Rltb (x y : R) : bool := if Rlt_dec x y then true else false.
Definition Rleb (x y : R) : bool := if Rle_dec x y then true else false.

(** Python's [int] on a float: truncation towards zero. *)
Definition py_int (r : R) : Z :=
  if Rle_dec 0 r then Int_part r else (- Int_part (- r))%Z.

(** Division of python floats: dividing by zero raises.  (numpy scalars give inf,
    on which [int] raises as well.) *)
Definition py_div (x y : R) : res R :=
  if Req_EM_T y 0 then Err ZeroDivisionError else Ok (x / y).

(** Elementwise mapping that stops at the first exception. *)
Fixpoint rmap {A B} (f : A -> res B) (l : list A) : res (list B) :=
  match l with
  | [] => Ok []
  | a :: l' => match f a with
               | Ok b => match rmap f l' with Ok bs => Ok (b :: bs) | Err e => Err e end
               | Err e => Err e
               end
  end.
