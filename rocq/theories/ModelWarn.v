(** Model of the warnings that optimisation modules issue (rta/asif.py 259-266 and 1005-1010,
    utils/utils.py 93-106) and of what python shows of them. *)
From Coq Require Import String Reals List Bool ZArith.
From Verif Require Import Prelude Vec ModelBase ModelController ModelSimplex ModelAsif ModelDiscrete.
Import ListNotations.

(** A warning as python tells warnings apart: its text, its category and the line that issued
    it.  Simplification: the registry belongs to the python module that contains the line; all
    warnings here come from rta/asif.py, so one registry is enough. *)
Record warning : Type := mkWarning { wn_text : string; wn_category : string; wn_line : nat }.
Definition warning_dec (k k' : warning) : {k = k'} + {k <> k'}.
Proof. decide equality; [apply PeanoNat.Nat.eq_dec|apply string_dec|apply string_dec]. Defined.

(** The standard library's warnings.warn_explicit under python's default filters: no filter
    matches a UserWarning, the action is the default one, and a warning that is in the registry
    is dropped.  External; assumed.  Returns whether the warning is displayed, and the registry. *)
Definition py_warn (seen : list warning) (k : warning) : bool * list warning :=
  if in_dec warning_dec k seen then (false, seen) else (true, k :: seen).
Fixpoint py_warns (seen : list warning) (ks : list warning) : list (warning * bool) * list warning :=
  match ks with
  | [] => ([], seen)
  | k :: ks' =>
      match py_warn seen k with
      | (b, seen') => match py_warns seen' ks' with (l, seen'') => ((k, b) :: l, seen'') end
      end
  end.

(** asif.py 262 with utils.py 101-106: the text does not depend on anything. *)
Definition solver_warning : warning :=
  mkWarning "**Warning! Solver could not find a solution, passing desired control**" "SolverWarning" 262.
(** asif.py 1006-1008: the text contains the solver's message. *)
Definition failure_warning (msg : string) : warning :=
  mkWarning (append "Solver Failure: " msg) "UserWarning" 1008.

(** A module object of any kind, with its filter_control and reset.  [ms_issued msg before after]
    are the warnings an operation issued, read off the counters of the two states; [msg] is the
    message that the solver gave if it failed. *)
Record moduleof (X P : Type) : Type := mkModule {
  ms_ext : Type;
  ms_filter : input X -> R -> vec -> M (rta (cb X P ms_ext)) vec;
  ms_reset : M (rta (cb X P ms_ext)) unit;
  ms_issued : string -> rta (cb X P ms_ext) -> rta (cb X P ms_ext) -> list warning;
  ms_state : rta (cb X P ms_ext) }.
Arguments mkModule {X P}.
Arguments ms_ext {X P}.
Arguments ms_filter {X P}.
Arguments ms_reset {X P}.
Arguments ms_issued {X P}.
Arguments ms_state {X P}.

(** Modules that solve a quadratic program (asif.py 223-267). *)
Definition qp_module {X P Z} (filt : input X -> R -> vec -> M (amod X P Z) vec) (rst : M (amod X P Z) unit)
    (s : amod X P Z) : moduleof X P :=
  mkModule (asif X P Z) filt rst
    (fun _ a b => repeat solver_warning (as_warned (get_asif b) - as_warned (get_asif a))) s.
Definition explicit_module {X P} (cfg : asif_cfg X) (s : amod X P unit) : moduleof X P :=
  qp_module (explicit_asif_filter_control cfg) explicit_asif_reset s.
Definition implicit_module {X P} (cfg : asif_cfg X) (ic : imp_cfg X) (s : amod X P ctl) : moduleof X P :=
  qp_module (implicit_asif_filter_control cfg ic) implicit_asif_reset s.
(** The discrete module (asif.py 995-1016). *)
Definition discrete_module {X P} (cfg : disc_cfg X) (s : dmod X P) : moduleof X P :=
  mkModule disc (disc_filter_control cfg) disc_reset
    (fun msg a b => repeat (failure_warning msg) (ds_warned (cb_ext (ext b)) - ds_warned (cb_ext (ext a)))) s.

(** A python process with its modules and the registry of rta/asif.py.  Simplification: the
    modules take states and parameters of the same types. *)
Record process (X P : Type) : Type := mkProcess { pr_modules : list (moduleof X P); pr_seen : list warning }.
Arguments mkProcess {X P}.
Arguments pr_modules {X P}.
Arguments pr_seen {X P}.

(** An operation on module number [i]. *)
Record pop (X P : Type) : Type := mkPop { po_module : nat; po_op : op X P; po_message : string }.
Arguments mkPop {X P}.
Arguments po_module {X P}.
Arguments po_op {X P}.
Arguments po_message {X P}.

Definition module_step {X P} (o : op X P) (msg : string) (m : moduleof X P) : obs * list warning * moduleof X P :=
  match cb_step (ms_filter m) (ms_reset m) o (ms_state m) with
  | (b, s') => (b, ms_issued m msg (ms_state m) s', mkModule _ (ms_filter m) (ms_reset m) (ms_issued m) s')
  end.
Fixpoint put {A} (i : nat) (a : A) (l : list A) : list A :=
  match l, i with
  | [], _ => []
  | _ :: l', O => a :: l'
  | b :: l', S i' => b :: put i' a l'
  end.
(** One operation: what the caller gets, and the warnings with the mark of those displayed. *)
Definition process_step {X P} (o : pop X P) (p : process X P)
  : option obs * list (warning * bool) * process X P :=
  match nth_error (pr_modules p) (po_module o) with
  | None => (None, [], p)
  | Some m =>
      match module_step (po_op o) (po_message o) m with
      | (b, ks, m') =>
          match py_warns (pr_seen p) ks with
          | (l, seen') => (Some b, l, mkProcess (put (po_module o) m' (pr_modules p)) seen')
          end
      end
  end.
Fixpoint process_run {X P} (os : list (pop X P)) (p : process X P)
  : list (option obs * list (warning * bool)) * process X P :=
  match os with
  | [] => ([], p)
  | o :: os' =>
      match process_step o p with
      | (b, l, p') => match process_run os' p' with (out, p'') => ((b, l) :: out, p'') end
      end
  end.
