(** Model of what jax.jit does to the modules (asif.py 106-124, simplex.py 42-67, controller.py
    26-34): python code is run once per signature of the arguments, the attributes it reads are
    frozen into the compiled function, and later calls with the same signature run that. *)
From Coq Require Import String Reals List Bool ZArith.
From Verif Require Import Prelude Vec ModelBase ModelController ModelSimplex ModelAsif.
Import ListNotations.
Local Open Scope R_scope.
Local Open Scope monad_scope.

(** The compiled versions of one function: for each signature, what the trace has captured.
    Compiled versions are never dropped. *)
Definition traces (K C : Type) : Type := list (K * C).

Fixpoint trace_of {K C} (dec : forall a b : K, {a = b} + {a <> b}) (k : K) (t : traces K C) : option C :=
  match t with
  | [] => None
  | (k', c) :: t' => if dec k k' then Some c else trace_of dec k t'
  end.

(** A call of a compiled function: with a known signature the captured attributes are used; with
    a new one the present ones, which are captured if the trace does not raise. *)
Definition jit_call {K C A} (dec : forall a b : K, {a = b} + {a <> b}) (k : K) (now : C) (body : C -> res A)
    (t : traces K C) : res A * traces K C :=
  match trace_of dec k t with
  | Some c => (body c, t)
  | None => match body now with
            | Ok a => (Ok a, (k, now) :: t)
            | Err e => (Err e, t)
            end
  end.

(** ** Explicit ASIF *)

(** Signature of _generate_barrier_constraint_mats: the static step_size, with the shapes and
    dtypes of the state and the parameters, which a number stands for. *)
Definition key_dec (a b : R * nat) : {a = b} + {a <> b}.
Proof.
  destruct a as [r n], b as [r' n']. destruct (Req_EM_T r r') as [->|H]; [|right; congruence].
  destruct (PeanoNat.Nat.eq_dec n n') as [->|H]; [left; reflexivity|right; congruence].
Defined.

(** The compiled versions of the two jitted functions of the module (asif.py 116-124). *)
Record jits (X P : Type) : Type := mkJits {
  j_barrier : traces (R * nat) (dict (constraint X P));
  j_direct : traces nat (dict (direct X P)) }.
Arguments mkJits {X P}.
Arguments j_barrier {X P}.
Arguments j_direct {X P}.
Definition no_traces {X P} : jits X P := mkJits [] [].
Definition set_j_barrier {X P} t (j : jits X P) : jits X P := mkJits t (j_direct j).
Definition set_j_direct {X P} t (j : jits X P) : jits X P := mkJits (j_barrier j) t.

(** The signatures of the arguments: of the state and the parameters of the constraints, and of
    the state and the parameters of the direct inequalities (with the number of rows so far). *)
Record sigs (X P : Type) : Type := mkSigs {
  sig_barrier : X -> dict P -> nat;
  sig_direct : nat -> X -> dict P -> nat }.
Arguments sig_barrier {X P}.
Arguments sig_direct {X P}.

Definition jit_amod (X P : Type) : Type := amod X P (jits X P).

(** asif.py 129: the compiled _generate_barrier_constraint_mats (363-435).  The parameters and the
    enabled flags are arguments; all other attributes of the constraints are captured.  The
    actuation rows and num_slack are captured as well; nothing changes them after construction.
    The functions _compute and grad are compiled on their own (constraint.py 106-109); what they
    read is taken to be fixed, as the documentation demands (constraint.py 155). *)
Definition jit_explicit_mats {X P} (g : sigs X P) (cfg : asif_cfg X) (x : X) (dt : R)
  : M (jit_amod X P) (mat * vec) :=
  s <- get ;;
  let y := get_asif s in
  match jit_call key_dec (dt, sig_barrier g x (cb_params (ext s))) (cb_constraints (ext s))
          (fun cs => explicit_rows cfg (as_num_slack y) 0 cs (cb_params (ext s)) (cb_enabled (ext s)) x)
          (j_barrier (as_ext y)) with
  | (r, t) =>
      modify (on_asif (fun y => set_as_ext (set_j_barrier t (as_ext y)) y)) ;;
      rc <- lift r ;;
      ret (as_act_rows y ++ fst rc, as_act_consts y ++ snd rc)
  end.

(** asif.py 130-132: the compiled _update_ineq_mats (172-214). *)
Definition jit_update_ineq_mats {X P} (g : sigs X P) (cfg : asif_cfg X) (rc : mat * vec) (x : X)
  : M (jit_amod X P) (mat * vec) :=
  s <- get ;;
  let y := get_asif s in
  match jit_call PeanoNat.Nat.eq_dec (sig_direct g (length (fst rc)) x (as_dparams y)) (as_direct y)
          (fun ds => direct_rows (ac_dim cfg) (as_num_slack y) ds (as_dparams y) (as_denabled y) x)
          (j_direct (as_ext y)) with
  | (r, t) =>
      modify (on_asif (fun y => set_as_ext (set_j_direct t (as_ext y)) y)) ;;
      d <- lift r ;;
      ret (fst rc ++ fst d, snd rc ++ snd d)
  end.

(** asif.py 126-136, _filter_control, with the compiled functions. *)
Definition jit_asif_filter {X P} (g : sigs X P) (cfg : asif_cfg X) (x : X) (dt : R) (u : vec)
  : M (jit_amod X P) vec :=
  modify (on_asif update_direct) ;;
  rc <- jit_explicit_mats g cfg x dt ;;
  rc <- jit_update_ineq_mats g cfg rc x ;;
  v <- optimize cfg u (fst rc) (snd rc) ;;
  b <- lift (opt_monitor (ac_eps cfg) u v) ;;
  modify (set_intervening b) ;;
  ret v.

Definition jit_asif_filter_control {X P} (g : sigs X P) (cfg : asif_cfg X) (i : input X) (dt : R) (u : vec)
  : M (jit_amod X P) vec :=
  filter_control (ac_bounds cfg) (cb_compute base_get_state (jit_asif_filter g cfg)) i dt u.

Definition jit_asif_reset {X P} : M (jit_amod X P) unit := modify (rta_reset (fun y => y)).

(** Histories in which the caller may also reassign other attributes of the constraints (bias,
    alpha, ...), which the library does not forbid. *)
Inductive jop (X P : Type) : Type :=
| JOp (o : aop X P)
| JAssign (k : string) (f : constraint X P -> constraint X P)
| JAssignDirect (k : string) (f : direct X P -> direct X P).
Arguments JOp {X P}.
Arguments JAssign {X P}.
Arguments JAssignDirect {X P}.

Definition assign_step {X P Z} (filt : input X -> R -> vec -> M (amod X P Z) vec)
    (rst : M (amod X P Z) unit) (o : jop X P) (s : amod X P Z) : obs * amod X P Z :=
  match o with
  | JOp o => asif_step filt rst o s
  | JAssign k f => (ObsDone, on_ext (on_constraint k f) s)
  | JAssignDirect k f => (ObsDone, on_asif (on_direct k f) s)
  end.
Fixpoint assign_run {X P Z} (filt : input X -> R -> vec -> M (amod X P Z) vec)
    (rst : M (amod X P Z) unit) (os : list (jop X P)) (s : amod X P Z) : list obs * amod X P Z :=
  match os with
  | [] => ([], s)
  | o :: os' =>
      match assign_step filt rst o s with
      | (b, s') => match assign_run filt rst os' s' with (bs, s'') => (b :: bs, s'') end
      end
  end.

(** ** Simplex *)

(** A simplex module with the compiled versions of _constraint_violation (simplex.py 54-57). *)
Definition jit_simplex (X P : Type) : Type :=
  rta (cb X P (sx * traces nat (dict (constraint X P)))).

(** The module without the compiled versions, and back. *)
Definition plain {X P} (s : jit_simplex X P) : simplex X P :=
  let e := ext s in
  mkRta (enable s) (intervening s) (control_desired s) (control_actual s)
    (mkCb (cb_constraints e) (cb_params e) (cb_enabled e) (cb_values e) (cb_stale e) (fst (cb_ext e))).
Definition compiled {X P} (s : jit_simplex X P) : traces nat (dict (constraint X P)) := snd (cb_ext (ext s)).
Definition with_compiled {X P} (t : traces nat (dict (constraint X P))) (s : simplex X P) : jit_simplex X P :=
  let e := ext s in
  mkRta (enable s) (intervening s) (control_desired s) (control_actual s)
    (mkCb (cb_constraints e) (cb_params e) (cb_enabled e) (cb_values e) (cb_stale e) (cb_ext e, t)).
(** A method that does not touch the compiled versions. *)
Definition on_plain {X P A} (m : M (simplex X P) A) : M (jit_simplex X P) A :=
  zoom plain (fun s j => with_compiled (compiled j) s) m.

(** simplex.py 134-172, compiled.  The signature is that of the array of states (its length) and
    of the parameters. *)
Definition jit_violation {X P} (sig : list X -> dict P -> nat) (states : list X) : M (jit_simplex X P) bool :=
  s <- get ;;
  match jit_call PeanoNat.Nat.eq_dec (sig states (cb_params (ext s))) (cb_constraints (ext s))
          (fun cs => constraint_violation cs states (cb_params (ext s)) (cb_enabled (ext s))) (compiled s) with
  | (r, t) => modify (fun s => with_compiled t (plain s)) ;; lift r
  end.

(** simplex.py 232-234 and 274-278. *)
Definition jit_monitor {X P} (sig : list X -> dict P -> nat) (cfg : sx_cfg X) (k : sx_kind) (x : X) (dt : R) (u : vec)
  : M (jit_simplex X P) bool :=
  match k with
  | Explicit => x' <- lift (sc_pred cfg x dt u) ;; jit_violation sig [x']
  | Implicit w => xs <- on_plain (on_ctl (simplex_integrate cfg w x dt u)) ;; jit_violation sig xs
  end.

(** simplex.py 69-91, _filter_control, with that monitor. *)
Definition jit_simplex_filter {X P} (sig : list X -> dict P -> nat) (cfg : sx_cfg X) (k : sx_kind)
    (x : X) (dt : R) (u : vec) : M (jit_simplex X P) vec :=
  latched <- on_plain
    (s <- get ;;
     if intervening s then
       if Rleb (sc_latch cfg) (sx_elapsed (get_sx s)) then
         (modify (fun s => put_sx (set_elapsed 0 (get_sx s)) s) ;; ret false)
       else
         (modify (fun s => put_sx (set_elapsed (sx_elapsed (get_sx s) + dt) (get_sx s)) s) ;;
          ret true)
     else ret false) ;;
  if (latched : bool) then
    on_plain (on_ctl (backup_control (sc_bounds cfg) (sc_gen cfg) x dt))
  else
    (b <- jit_monitor sig cfg k x dt u ;;
     modify (set_intervening b) ;;
     if (b : bool) then on_plain (on_ctl (backup_control (sc_bounds cfg) (sc_gen cfg) x dt))
     else ret u).

Definition jit_simplex_filter_control {X P} (sig : list X -> dict P -> nat) (cfg : sx_cfg X) (k : sx_kind)
    (i : input X) (dt : R) (u : vec) : M (jit_simplex X P) vec :=
  filter_control (sc_bounds cfg) (cb_compute base_get_state (jit_simplex_filter sig cfg k)) i dt u.

Definition jit_simplex_reset {X P} : M (jit_simplex X P) unit := on_plain simplex_reset.

(** ** Backup controllers *)

(** controller.py 26-34 and 69: the compiled _generate_control takes the controller state as a
    static argument, which jax requires to be hashable; None is, arrays and dictionaries are not
    (and everything else that a compiled function returns is an array). *)
Definition msg_static := "Non-hashable static arguments are used in a jit function"%string.
Definition jit_gen {X} (gen : X -> R -> cstate -> gout) (x : X) (dt : R) (c : cstate) : gout :=
  match c with
  | CSNone => gen x dt CSNone
  | _ => GRaise (ValueError msg_static)
  end.
(** A simplex configuration whose backup controller is compiled (jit_enable is on by default). *)
Definition jit_controller {X} (cfg : sx_cfg X) : sx_cfg X :=
  mkSxCfg (sc_bounds cfg) (sc_latch cfg) (sc_pred cfg) (jit_gen (sc_gen cfg)).

(** ** Implicit ASIF *)

(** asif.py 518-526 and 593: the compiled integrate, for a controller without internal state.  It
    captures the controller state None and reads nothing else that changes.  For a controller
    with internal state the trace would leave a tracer behind as its state; controller.py 167
    documents that this is not supported, and it is not modelled. *)
Definition empty_ctl : ctl := mkCtl CSNone CSNone CSNone.
Definition jit_integrate {X} (b : bounds) (ic : imp_cfg X) (x : X) (dt : R) (n : nat) : res (list (X * mat)) :=
  fst (implicit_integrate b ic x dt n empty_ctl).

(** asif.py 611-692 as a function of the constraints it captures. *)
Definition ineq_body {X P} (cfg : asif_cfg X) (num_slack num_steps : nat) (x0 : X) (traj : list (X * mat))
    (params : dict P) (enabled : dict bool) (cs : dict (constraint X P)) : res (mat * vec) :=
  blocks <-- implicit_blocks cfg num_slack 0 cs params enabled x0 traj ;;;
  subsample_loop num_slack cs 0 num_steps
    (concat (map (fun b => fst (fst b)) blocks))
    (concat (map (fun b => snd (fst b)) blocks))
    (map snd blocks).

(** asif.py 513-516 and 594-596: the compiled _generate_ineq_constraint_mats.  The static argument is
    num_steps. *)
Definition jit_ineq_mats {X P} (g : sigs X P) (cfg : asif_cfg X) (x0 : X) (num_steps : nat) (traj : list (X * mat))
  : M (jit_amod X P) (mat * vec) :=
  s <- get ;;
  let y := get_asif s in
  match jit_call key_dec (INR num_steps, sig_barrier g x0 (cb_params (ext s))) (cb_constraints (ext s))
          (ineq_body cfg (as_num_slack y) num_steps x0 traj (cb_params (ext s)) (cb_enabled (ext s)))
          (j_barrier (as_ext y)) with
  | (r, t) =>
      modify (on_asif (fun y => set_as_ext (set_j_barrier t (as_ext y)) y)) ;;
      rc <- lift r ;;
      ret (as_act_rows y ++ fst rc, as_act_consts y ++ snd rc)
  end.

(** asif.py 566-609: _generate_barrier_constraint_mats itself is not compiled (line 511). *)
Definition jit_implicit_mats {X P} (g : sigs X P) (cfg : asif_cfg X) (ic : imp_cfg X) (x : X) (dt : R)
  : M (jit_amod X P) (mat * vec) :=
  q <- lift (py_div (ic_window ic) dt) ;;
  let num_steps := Z.to_nat (py_int q + 1) in
  traj <- lift (jit_integrate (ac_bounds cfg) ic x dt num_steps) ;;
  rc <- jit_ineq_mats g cfg x num_steps traj ;;
  modify (fun s => on_asif (set_names (implicit_names cfg num_steps s)) s) ;;
  ret rc.

(** asif.py 126-136, _filter_control, with these functions. *)
Definition jit_implicit_filter {X P} (g : sigs X P) (cfg : asif_cfg X) (ic : imp_cfg X) (x : X) (dt : R) (u : vec)
  : M (jit_amod X P) vec :=
  modify (on_asif update_direct) ;;
  rc <- jit_implicit_mats g cfg ic x dt ;;
  rc <- jit_update_ineq_mats g cfg rc x ;;
  v <- optimize cfg u (fst rc) (snd rc) ;;
  b <- lift (opt_monitor (ac_eps cfg) u v) ;;
  modify (set_intervening b) ;;
  ret v.

Definition jit_implicit_filter_control {X P} (g : sigs X P) (cfg : asif_cfg X) (ic : imp_cfg X)
    (i : input X) (dt : R) (u : vec) : M (jit_amod X P) vec :=
  filter_control (ac_bounds cfg) (cb_compute base_get_state (jit_implicit_filter g cfg ic)) i dt u.

(** An implicit configuration whose backup controller is compiled. *)
Definition jit_backup {X} (ic : imp_cfg X) : imp_cfg X :=
  mkImpCfg (ic_window ic) (ic_pred ic) (jit_gen (ic_gen ic)) (ic_jac ic) (ic_size ic).
