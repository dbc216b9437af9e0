(** Specification vocabulary for the simplex modules. *)
From Coq Require Import String Reals List Bool ZArith.
From Verif Require Import Prelude Vec ModelBase ModelController ModelSimplex SpecCore.
Import ListNotations.
Local Open Scope R_scope.

(** The states that a module of the given kind has to look at before it lets the control
    [u] through: the state reached under [u] and, for an implicit module, the recovery
    from there under the backup controller. *)
Definition foreseen {X} (cfg : sx_cfg X) (k : sx_kind) (dt : R) (x : X) (st : cstate) (u : vec)
    (xs : list X) : Prop :=
  exists x1, sc_pred cfg x dt u = Ok x1 /\
  match k with
  | Explicit => xs = [x1]
  | Implicit window =>
      exists n ps, window_steps window dt n /\
        backup_path (sc_bounds cfg) (sc_pred cfg) (sc_gen cfg) dt n x1 st ps /\ xs = x1 :: ps
  end.

(** The internal state of the module's backup controller. *)
Definition ctl_now {X P} (s : simplex X P) : cstate := ctl_state (sx_ctl (cb_ext (ext s))).
(** The constraints with their present parameters and flags. *)
Definition constraints_now {X P} (s : simplex X P) : dict (constraint X P) := cb_constraints (ext s).
(** Latching time used so far. *)
Definition elapsed_now {X P} (s : simplex X P) : R := sx_elapsed (cb_ext (ext s)).

(** The module is held on the backup controller. *)
Definition held {X P} (cfg : sx_cfg X) (s : simplex X P) : Prop :=
  intervening s = true /\ elapsed_now s < sc_latch cfg.

(** The closed loop of a module with a plant that follows the prediction model: the
    desired controls [us] are filtered one after the other, the returned controls are
    applied; [xs] are the states visited after [x]. *)
Inductive closed_loop {X P} (cfg : sx_cfg X) (k : sx_kind) (dt : R)
  : list vec -> X -> simplex X P -> list X -> Prop :=
| cl_nil x s : closed_loop cfg k dt [] x s []
| cl_cons u us x s w s' x' xs :
    simplex_filter_control cfg k (InArray x) dt u s = (Ok w, s') ->
    sc_pred cfg x dt w = Ok x' ->
    closed_loop cfg k dt us x' s' xs ->
    closed_loop cfg k dt (u :: us) x s (x' :: xs).

(** The outputs of the backup controller, moved into the bounds, along given states. *)
Inductive backup_outputs {X} (b : bounds) (gen : X -> R -> cstate -> gout) (dt : R)
  : list X -> cstate -> list vec -> cstate -> Prop :=
| bo_nil st : backup_outputs b gen dt [] st [] st
| bo_cons x xs st u w st1 ws st2 :
    gen x dt st = GPair u st1 -> boxed b u w ->
    backup_outputs b gen dt xs st1 ws st2 ->
    backup_outputs b gen dt (x :: xs) st (w :: ws) st2.

(** [n] is the least number of steps of length [dt] that last at least [T]. *)
Definition least_steps (dt T : R) (n : nat) : Prop :=
  T <= INR n * dt /\ forall m, (m < n)%nat -> INR m * dt < T.

(** A list of filter calls with one step size. *)
Definition calls {X P} (dt : R) (ins : list (X * vec)) : list (op X P) :=
  map (fun xu => OFilter (InArray (fst xu)) dt (snd xu)) ins.

(** The dictionary without its disabled constraints. *)
Fixpoint without_disabled {X P} (cs : dict (constraint X P)) : dict (constraint X P) :=
  match cs with
  | [] => []
  | (k, c) :: cs' => if c_enabled c then (k, c) :: without_disabled cs' else without_disabled cs'
  end.

(** Two modules that differ at most in the memory of past constraint parameters and flags
    (base.py 192-194) and in the scratch copy of the controller state. *)
Definition same_but_caches {X P} (s s' : simplex X P) : Prop :=
  enable s = enable s' /\ intervening s = intervening s' /\
  control_desired s = control_desired s' /\ control_actual s = control_actual s' /\
  constraints_now s = constraints_now s' /\
  elapsed_now s = elapsed_now s' /\ ctl_now s = ctl_now s' /\
  ctl_initial (sx_ctl (cb_ext (ext s))) = ctl_initial (sx_ctl (cb_ext (ext s'))) /\
  cb_values (ext s) = cb_values (ext s') /\ cb_stale (ext s) = cb_stale (ext s').

(** No assignment to constraint attributes. *)
Definition no_assign {X P} (o : op X P) : Prop :=
  match o with OSetParams _ _ | OSetEnabled _ _ => False | _ => True end.

(** Any sequence of requests between save and restore: each request is a state and a step
    size, put to the controller itself or with an explicit controller state. *)
Inductive request (X : Type) : Type :=
| RGenerate (x : X) (dt : R)
| RWith (x : X) (dt : R) (cs : cstate).
Arguments RGenerate {X}.
Arguments RWith {X}.

Fixpoint run_requests {X} (gen : X -> R -> cstate -> gout) (rs : list (request X)) (c : ctl) : ctl :=
  match rs with
  | [] => c
  | RGenerate x dt :: rs' => run_requests gen rs' (snd (generate_control gen x dt c))
  | RWith x dt cs :: rs' =>
      run_requests gen rs' (snd (generate_control_with_controller_state gen x dt cs c))
  end.

(** Specification: the members, called one after the other. *)
Inductive chain {I} (i : I) (dt : R) : list (member I) -> vec -> vec -> list (member I) -> bool -> Prop :=
| chain_nil u : chain i dt [] u u [] false
| chain_cons m ms u v s' w ms' f :
    m_step m i dt u (m_cur m) = (Ok v, s') ->
    chain i dt ms v w ms' f ->
    chain i dt (m :: ms) u w (member_with m s' :: ms') (m_flag m s' || f).
