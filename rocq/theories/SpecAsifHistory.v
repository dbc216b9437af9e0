(** Specification vocabulary for whole histories of the quadratic-program modules. *)
From Coq Require Import String Reals List Bool ZArith.
From Verif Require Import Prelude Vec ModelBase ModelController ModelSimplex ModelAsif SpecCore SpecHistory SpecAsif.
Import ListNotations.
Local Open Scope R_scope.

(** The operations every constraint-based module has: the rest of a history is assignment to
    direct inequality constraints. *)
Fixpoint plain {X P} (os : list (aop X P)) : list (op X P) :=
  match os with
  | [] => []
  | ABase o :: os' => o :: plain os'
  | _ :: os' => plain os'
  end.

(** The bookkeeper of SpecHistory, for these histories: an assignment to a direct inequality
    changes nothing in the book. *)
Fixpoint abook_of {X P} (bk : book) (os : list (aop X P)) (seen : list obs) : book :=
  match os, seen with
  | ABase o :: os', b :: seen' => abook_of (book_step bk o b) os' seen'
  | _ :: os', _ :: seen' => abook_of bk os' seen'
  | _, _ => bk
  end.

(** Every desired control in a history has control_dim entries. *)
Definition sized_for {X P} (dim : nat) (os : list (aop X P)) : Prop :=
  forall i dt u, In (ABase (OFilter i dt u)) os -> length u = dim.

(** The solver returns a vector as long as the linear term of its objective. *)
Definition sized_solver (solve : qp_solver) : Prop :=
  forall G a C b z iact, solve G a C b = Ok (z, iact) -> length z = length a.

(** The direct inequalities after a history. *)
Definition assign_direct {X P} (o : aop X P) (kd : string * direct X P) : string * direct X P :=
  match o with
  | ASetDirectParams k p => if String.eqb k (fst kd) then (fst kd, set_d_params p (snd kd)) else kd
  | ASetDirectEnabled k b => if String.eqb k (fst kd) then (fst kd, set_d_enabled b (snd kd)) else kd
  | ABase _ => kd
  end.
Fixpoint directs_after {X P} (os : list (aop X P)) (ds : dict (direct X P)) : dict (direct X P) :=
  match os with
  | [] => ds
  | o :: os' => directs_after os' (map (assign_direct o) ds)
  end.

(** A state an implicit module can be in when its backup controller was built with the
    controller state [initial]: any history after the constructor. *)
Definition implicit_from {X P} (cfg : asif_cfg X) (ic : imp_cfg X) (initial : cstate) (s : amod X P ctl) : Prop :=
  exists defined to_use directs s0 os seen,
    distinct_keys defined /\ distinct_keys directs /\
    implicit_asif_init cfg defined to_use directs initial = Ok s0 /\
    asif_run (implicit_asif_filter_control cfg ic) implicit_asif_reset os s0 = (seen, s).
