(** Model of run_time_assurance/rta/simplex.py. *)
From Coq Require Import String Reals List Bool ZArith.
From Verif Require Import Prelude Vec ModelBase ModelController.
Import ListNotations.
Local Open Scope R_scope.
Local Open Scope monad_scope.

(** The attributes that SimplexModule and BackupControlBasedRTA add (simplex.py 30-33,
    base.py 400-405), without the constants collected in [sx_cfg]. *)
Record sx : Type := mkSx {
  sx_elapsed : R;
  sx_ctl : ctl }.

Definition set_elapsed (r : R) (s : sx) : sx := mkSx r (sx_ctl s).
Definition set_ctl (c : ctl) (s : sx) : sx := mkSx (sx_elapsed s) c.

(** What is fixed at construction or comes from outside: the bounds, the latch time,
    the subclass's _pred_state and the backup controller's _generate_control. *)
Record sx_cfg (X : Type) : Type := mkSxCfg {
  sc_bounds : bounds;
  sc_latch : R;
  sc_pred : X -> R -> vec -> res X;
  sc_gen : X -> R -> cstate -> gout }.
Arguments mkSxCfg {X}.
Arguments sc_bounds {X}.
Arguments sc_latch {X}.
Arguments sc_pred {X}.
Arguments sc_gen {X}.

(** A simplex module object. *)
Definition simplex (X P : Type) : Type := rta (cb X P sx).

Definition get_sx {X P} (s : simplex X P) : sx := cb_ext (ext s).
Definition put_sx {X P} (y : sx) (s : simplex X P) : simplex X P :=
  on_ext (set_cb_ext y) s.

(** Running a method of the backup controller inside a simplex module. *)
Definition on_ctl {X P A} (m : M ctl A) : M (simplex X P) A :=
  zoom (fun s => sx_ctl (get_sx s)) (fun c s => put_sx (set_ctl c (get_sx s)) s) m.

(** simplex.py 30-33 with base.py 400-405: construction.  latched_elapsed starts at 0. *)
Definition simplex_init {X P} (defined : dict (constraint X P)) (to_use : option (list string))
    (initial : cstate) : res (simplex X P) :=
  c <-- ctl_init initial ;;;
  y <-- cb_init defined to_use (mkSx 0 c) ;;;
  Ok (rta_init y).

(** simplex.py 35-40, SimplexModule.reset: base reset, then the controller's reset.
    latched_elapsed is not touched. *)
Definition simplex_reset {X P} : M (simplex X P) unit :=
  modify (rta_reset (fun y => y)) ;;
  on_ctl ctl_reset.

(** simplex.py 203-223 and 182-201: constraint values (with bias) along a trajectory,
    by a loop or by vmap. *)
Fixpoint constraint_vals_loop {X P} (c : constraint X P) (p : P) (states : list X) (acc : list R)
  : list R :=
  match states with
  | [] => acc
  | x :: xs => constraint_vals_loop c p xs (acc ++ [c_compute c x p])
  end.
Definition constraint_vals_vmap {X P} (c : constraint X P) (p : P) (states : list X) : list R :=
  map (fun x => c_compute c x p) states.

(** simplex.py 162-167 with 174-180: the values if the constraint is enabled, zeros
    otherwise. *)
Definition mask_vals (enabled : bool) (vals : list R) : list R :=
  if enabled then vals else map (fun _ => 0) vals.

(** simplex.py 134-172, _constraint_violation: for each constraint, whether some value
    is negative; then whether some constraint is violated.  Reading the caches raises
    KeyError on a missing name.  The array of 0/1 flags is a list of booleans. *)
Definition constraint_violation {X P} (constraints : dict (constraint X P)) (states : list X)
    (params : dict P) (enabled : dict bool) : res bool :=
  flags <-- rmap (fun kc =>
      p <-- dict_get params (fst kc) ;;;
      e <-- dict_get enabled (fst kc) ;;;
      Ok (existsb (fun v => Rltb v 0) (mask_vals e (constraint_vals_vmap (snd kc) p states))))
    constraints ;;;
  Ok (existsb (fun b => b) flags).

(** simplex.py 232-234, ExplicitSimplexModule._monitor: the one state predicted under
    the desired control. *)
Definition explicit_monitor {X P} (cfg : sx_cfg X) (x : X) (dt : R) (u : vec)
  : M (simplex X P) bool :=
  x' <- lift (sc_pred cfg x dt u) ;;
  s <- get ;;
  lift (constraint_violation (cb_constraints (ext s)) [x'] (cb_params (ext s)) (cb_enabled (ext s))).

(** simplex.py 304-307: [n] steps of the backup controller from [x]; gives the states
    visited after [x]. *)
Fixpoint backup_loop {X} (cfg : sx_cfg X) (dt : R) (n : nat) (x : X) : M ctl (list X) :=
  match n with
  | O => ret []
  | S n' =>
      u <- backup_control (sc_bounds cfg) (sc_gen cfg) x dt ;;
      x' <- lift (sc_pred cfg x dt u) ;;
      xs <- backup_loop cfg dt n' x' ;;
      ret (x' :: xs)
  end.

(** simplex.py 280-311, ImplicitSimplexModule.integrate. *)
Definition simplex_integrate {X} (cfg : sx_cfg X) (window : R) (x : X) (dt : R) (u : vec)
  : M ctl (list X) :=
  q <- lift (py_div window dt) ;;
  x1 <- lift (sc_pred cfg x dt u) ;;
  ctl_save ;;
  xs <- backup_loop cfg dt (Z.to_nat (py_int q)) x1 ;;
  ctl_restore ;;
  ret (x1 :: xs).

(** simplex.py 274-278, ImplicitSimplexModule._monitor. *)
Definition implicit_monitor {X P} (cfg : sx_cfg X) (window : R) (x : X) (dt : R) (u : vec)
  : M (simplex X P) bool :=
  xs <- on_ctl (simplex_integrate cfg window x dt u) ;;
  s <- get ;;
  lift (constraint_violation (cb_constraints (ext s)) xs (cb_params (ext s)) (cb_enabled (ext s))).

(** simplex.py 69-91, SimplexModule._filter_control, for a monitor. *)
Definition simplex_filter {X P} (cfg : sx_cfg X)
    (monitor : X -> R -> vec -> M (simplex X P) bool) (x : X) (dt : R) (u : vec)
  : M (simplex X P) vec :=
  s <- get ;;
  latched <-
    (if intervening s then
       if Rleb (sc_latch cfg) (sx_elapsed (get_sx s)) then
         (modify (fun s => put_sx (set_elapsed 0 (get_sx s)) s) ;; ret false)
       else
         (modify (fun s => put_sx (set_elapsed (sx_elapsed (get_sx s) + dt) (get_sx s)) s) ;;
          ret true)
     else ret false) ;;
  if (latched : bool) then
    on_ctl (backup_control (sc_bounds cfg) (sc_gen cfg) x dt)
  else
    (b <- monitor x dt u ;;
     modify (set_intervening b) ;;
     if (b : bool) then on_ctl (backup_control (sc_bounds cfg) (sc_gen cfg) x dt)
     else ret u).

(** The two kinds of simplex module and their filter_control. *)
Inductive sx_kind : Type := Explicit | Implicit (window : R).

Definition sx_monitor {X P} (cfg : sx_cfg X) (k : sx_kind) : X -> R -> vec -> M (simplex X P) bool :=
  match k with
  | Explicit => explicit_monitor cfg
  | Implicit w => implicit_monitor cfg w
  end.

Definition simplex_filter_control {X P} (cfg : sx_cfg X) (k : sx_kind)
    (i : input X) (dt : R) (u : vec) : M (simplex X P) vec :=
  filter_control (sc_bounds cfg)
    (cb_compute base_get_state (simplex_filter cfg (sx_monitor cfg k))) i dt u.

(** The ways in which a caller can use a constraint-based module: the public methods,
    and the attributes the documentation tells users to assign. *)
Inductive op (X P : Type) : Type :=
| OFilter (i : input X) (dt : R) (u : vec)
| OReset
| OEnable (b : bool)
| OUpdateValues (i : input X)
| OSetParams (k : string) (p : P)
| OSetEnabled (k : string) (b : bool).
Arguments OFilter {X P}.
Arguments OReset {X P}.
Arguments OEnable {X P}.
Arguments OUpdateValues {X P}.
Arguments OSetParams {X P}.
Arguments OSetEnabled {X P}.

(** Assigning an attribute of the constraint named [k] (module.constraints[k].params = p);
    an unknown name raises KeyError in python and changes nothing. *)
Definition on_constraint {X P Y} (k : string) (f : constraint X P -> constraint X P) (s : cb X P Y)
  : cb X P Y :=
  set_constraints (map (fun kc => if String.eqb k (fst kc) then (fst kc, f (snd kc)) else kc)
                       (cb_constraints s)) s.

(** What a caller observes of one operation. *)
Inductive obs : Type :=
| ObsControl (u : vec)
| ObsDone
| ObsRaised (e : exn).

Definition obs_of (r : res vec) : obs := match r with Ok u => ObsControl u | Err e => ObsRaised e end.
Definition obs_unit (r : res unit) : obs := match r with Ok _ => ObsDone | Err e => ObsRaised e end.

(** One operation on a constraint-based module, given its filter_control and reset. *)
Definition cb_step {X P Y} (filt : input X -> R -> vec -> M (rta (cb X P Y)) vec)
    (rst : M (rta (cb X P Y)) unit) (o : op X P) (s : rta (cb X P Y)) : obs * rta (cb X P Y) :=
  match o with
  | OFilter i dt u => match filt i dt u s with (r, s') => (obs_of r, s') end
  | OReset => match rst s with (r, s') => (obs_unit r, s') end
  | OEnable b => (ObsDone, set_enable b s)
  | OUpdateValues i => match update_constraint_values base_get_state i s with
                       | (r, s') => (obs_unit r, s') end
  | OSetParams k p => (ObsDone, on_ext (on_constraint k (set_c_params p)) s)
  | OSetEnabled k b => (ObsDone, on_ext (on_constraint k (set_c_enabled b)) s)
  end.

(** A whole history, with its observations. *)
Fixpoint cb_run {X P Y} (filt : input X -> R -> vec -> M (rta (cb X P Y)) vec)
    (rst : M (rta (cb X P Y)) unit) (os : list (op X P)) (s : rta (cb X P Y))
  : list obs * rta (cb X P Y) :=
  match os with
  | [] => ([], s)
  | o :: os' =>
      match cb_step filt rst o s with
      | (b, s') => match cb_run filt rst os' s' with (bs, s'') => (b :: bs, s'') end
      end
  end.
