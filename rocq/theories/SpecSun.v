(** Specification vocabulary for the sun's rate in the inspection modules. *)
From Coq Require Import String Reals List Bool ZArith.
From Verif Require Import Prelude Vec ModelBase ModelController ModelSimplex ModelAsif ModelConstraint ModelCwh
  ModelZoo ModelInsp ModelJit ModelSun.
Import ListNotations.
Local Open Scope R_scope.

(** The inspection modules: number of entries of a complete state, and what a shorter one lacks. *)
Inductive inspects : sun_kind -> nat -> vec -> Prop :=
| InspectsOne c eps exc solve : inspects (one_deputy c eps exc solve) 8 [0; 0]
| InspectsSeveral n m num b eps exc solve :
    inspects (several_deputies n m num b eps exc solve) (6 * num + 1) [0].

(** A state without the sun's entry, and the state that is used for it. *)
Definition lacks (len : nat) (x : vec) : Prop := (length x < len)%nat.
Definition lacksb (len : nat) (x : vec) : bool := (length x <? len)%nat.
Definition completed (len : nat) (pad x : vec) : vec := if lacksb len x then x ++ pad else x.

(** The rate a call uses according to the documentation of a short state: a stationary sun. *)
Definition rate_for (len : nat) (x : vec) (rate : R) : R := if lacksb len x then 0 else rate.

(** The state an operation hands over, if any. *)
Definition state_in {P} (o : aop vec P) : option vec :=
  match o with
  | ABase (OFilter (InArray x) _ _) | ABase (OUpdateValues (InArray x)) => Some x
  | _ => None
  end.
Definition all_complete {P} (len : nat) (os : list (aop vec P)) : Prop :=
  forall o x, In o os -> state_in o = Some x -> ~ lacks len x.

(** No call with step size [dt]. *)
Definition never_called_with {P} (dt : R) (os : list (aop vec P)) : Prop :=
  forall i u, ~ In (ABase (OFilter i dt u)) os.

(** The same operation with its state completed. *)
Definition fill {P} (len : nat) (pad : vec) (o : aop vec P) : aop vec P :=
  match o with
  | ABase (OFilter (InArray x) dt u) => ABase (OFilter (InArray (completed len pad x)) dt u)
  | ABase (OUpdateValues (InArray x)) => ABase (OUpdateValues (InArray (completed len pad x)))
  | _ => o
  end.
