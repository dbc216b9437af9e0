(** Specification vocabulary for whole histories of calls: what a bookkeeper who only
    sees the operations and their visible outcomes would write down. *)
From Coq Require Import String Reals List Bool ZArith.
From Verif Require Import Prelude Vec ModelBase ModelController ModelSimplex SpecCore.
Import ListNotations.
Local Open Scope R_scope.

(** The bookkeeper's record: the enable switch, the last desired control sent and the
    last control received back. *)
Record book : Type := mkBook { bk_enable : bool; bk_desired : option vec; bk_actual : option vec }.

Definition book_start : book := mkBook true None None.

(** A filter call notes the control sent; only a control that came back is noted as
    actual.  A reset (even a failing one) erases the book and enables the module. *)
Definition book_step {X P} (bk : book) (o : op X P) (seen : obs) : book :=
  match o with
  | OFilter _ _ u =>
      mkBook (bk_enable bk) (Some u)
             (match seen with ObsControl w => Some w | _ => bk_actual bk end)
  | OReset => book_start
  | OEnable b => mkBook b (bk_desired bk) (bk_actual bk)
  | _ => bk
  end.

Fixpoint book_of {X P} (bk : book) (os : list (op X P)) (seen : list obs) : book :=
  match os, seen with
  | o :: os', b :: seen' => book_of (book_step bk o b) os' seen'
  | _, _ => bk
  end.

(** Every desired control in a history has a length that the bounds fit. *)
Definition sized {X P} (b : bounds) (os : list (op X P)) : Prop :=
  forall i dt u, In (OFilter i dt u) os -> fits b (length u).
(** Every control the backup controller produces has a length that the bounds fit. *)
Definition gen_sized {X} (b : bounds) (gen : X -> R -> cstate -> gout) : Prop :=
  forall x dt cs u cs', gen x dt cs = GPair u cs' -> fits b (length u).

(** Does an operation, with the enable switch at [en], evaluate the constraints?  If so:
    at which state, and under which key are the values reported? *)
Definition evaluates {X P} (en : bool) (o : op X P) : option (X * string) :=
  match o with
  | OFilter (InArray x) _ _ => if en then Some (x, "constraints_at_last_state"%string) else None
  | OUpdateValues (InArray x) => Some (x, "constraints"%string)
  | _ => None
  end.

(** The enable switch after an operation. *)
Definition switch_after {X P} (en : bool) (o : op X P) : bool :=
  match o with OReset => true | OEnable b => b | _ => en end.

(** No operation of the list evaluates the constraints. *)
Fixpoint quiet {X P} (en : bool) (os : list (op X P)) : Prop :=
  match os with
  | [] => True
  | o :: os' => evaluates en o = None /\ quiet (switch_after en o) os'
  end.

(** The report due for a set of constraints at a state: name and unbiased value (phi) with
    the parameters in force, one entry per constraint, in order. *)
Fixpoint report {X P} (cs : dict (constraint X P)) (x : X) : dict R :=
  match cs with
  | [] => []
  | (k, c) :: cs' => (k, c_phi c x (c_params c)) :: report cs' x
  end.

(** The constraints after a history, from those before it: only the two attributes that
    a user can assign change. *)
Definition assign {X P} (o : op X P) (kc : string * constraint X P) : string * constraint X P :=
  match o with
  | OSetParams k p => if String.eqb k (fst kc) then (fst kc, set_c_params p (snd kc)) else kc
  | OSetEnabled k b => if String.eqb k (fst kc) then (fst kc, set_c_enabled b (snd kc)) else kc
  | _ => kc
  end.
Fixpoint constraints_after {X P} (os : list (op X P)) (cs : dict (constraint X P))
  : dict (constraint X P) :=
  match os with
  | [] => cs
  | o :: os' => constraints_after os' (map (assign o) cs)
  end.

(** The enable switch after a history. *)
Fixpoint switch_of {X P} (en : bool) (os : list (op X P)) : bool :=
  match os with [] => en | o :: os' => switch_of (switch_after en o) os' end.

(** A reset does not occur. *)
Definition no_reset {X P} (os : list (op X P)) : Prop := ~ In OReset os.
