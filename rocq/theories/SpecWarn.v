(** Specification vocabulary for the warnings of a process. *)
From Coq Require Import String Reals List Bool.
From Verif Require Import Prelude Vec ModelBase ModelSimplex ModelWarn.
Import ListNotations.

(** All warnings of a run, in order, with the marks of those displayed. *)
Definition all_warnings (out : list (option obs * list (warning * bool))) : list (warning * bool) :=
  flat_map snd out.
(** The same warning was issued before position [n]. *)
Definition issued_before (k : warning) (l : list (warning * bool)) (n : nat) : Prop :=
  exists m b, m < n /\ nth_error l m = Some (k, b).
(** Module [i] of the process after a change; nothing else changes except perhaps the registry. *)
Definition at_module {X P} (p p' : process X P) (i : nat) (m : moduleof X P) : Prop :=
  nth_error (pr_modules p') i = Some m /\
  length (pr_modules p') = length (pr_modules p) /\
  forall j, j <> i -> nth_error (pr_modules p') j = nth_error (pr_modules p) j.
(** How many warnings were displayed. *)
Definition displayed (l : list (warning * bool)) : nat := length (filter snd l).
(** The modules that solve a quadratic program. *)
Inductive quadratic {X P} : moduleof X P -> Prop :=
| q_explicit cfg s : quadratic (explicit_module cfg s)
| q_implicit cfg ic s : quadratic (implicit_module cfg ic s).
