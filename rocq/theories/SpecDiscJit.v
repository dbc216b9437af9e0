(** Specification vocabulary for the compiled discrete module. *)
From Coq Require Import String Reals List Bool.
From Verif Require Import Prelude Vec ModelBase ModelSimplex ModelDiscrete ModelJit ModelDiscJit.
Import ListNotations.

(** Assigning attributes of constraints other than parameters and enabled flags. *)
Definition settings_only {X P} (o : dop X P) : Prop :=
  match o with
  | DOp _ => True
  | DAssign _ f => forall c, c_params (f c) = c_params c /\ c_enabled (f c) = c_enabled c
  end.
(** The same history without the assignments. *)
Definition unassigned {X P} (o : dop X P) : dop X P :=
  match o with
  | DOp o => DOp o
  | DAssign k _ => DAssign k (fun c => c)
  end.
(** The arguments of a call have the shapes and dtypes that [n] stands for. *)
Definition shaped {X P} (sig : X -> R -> P -> nat) (n : nat) (o : dop X P) : Prop :=
  match o with
  | DOp (OFilter (InArray x) dt _) => forall p, sig x dt p = n
  | _ => True
  end.
