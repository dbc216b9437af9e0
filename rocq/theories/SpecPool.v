(** Specification for C87, readable without the model of the modules: which controller each module
    of a program was given, which operations concern it, and which controllers have no state. *)
From Coq Require Import String Reals List Bool ZArith.
From Verif Require Import Prelude Vec ModelController ModelSimplex ModelPool.
Import ListNotations.

(** The controllers given to the modules of a program, in the order in which these are built. *)
Fixpoint given_controllers {X P} (os : list (pool_op X P)) : list nat :=
  match os with
  | [] => []
  | NewUser _ r :: os' => r :: given_controllers os'
  | _ :: os' => given_controllers os'
  end.
Definition controller_given {X P} (os : list (pool_op X P)) (i : nat) : option nat :=
  nth_error (given_controllers os) i.

(** Building an object concerns everyone, using a module concerns that module.  [asking]: so does
    asking controller [r] directly. *)
Definition concerns {X P} (i : nat) (asking : option nat) (o : pool_op X P) : bool :=
  match o with
  | NewController _ _ _ | NewUser _ _ => true
  | Use j _ => Nat.eqb j i
  | Ask r _ _ => match asking with Some q => Nat.eqb r q | None => false end
  end.

(** What the caller sees of module [i]. *)
Definition seen (i : nat) (rs : list (nat * obs)) : list obs :=
  map snd (filter (fun p => Nat.eqb (fst p) i) rs).

(** A controller that keeps no state between its requests. *)
Definition stateless {X} (gen : X -> R -> cstate -> gout) : Prop :=
  forall x dt u st, gen x dt CSNone = GPair u st -> st = CSNone.
Definition builds_stateless {X P} (o : pool_op X P) : Prop :=
  match o with NewController gen _ initial => initial = CSNone /\ stateless gen | _ => True end.
