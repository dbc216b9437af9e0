(** Model of compilation in the discrete module: DiscreteCBFConstraint wraps its function in
    jax.jit when it is built (constraint.py 527-533), and DiscreteASIFModule hands the wrapped
    function to the solver (asif.py 991-1005). *)
From Coq Require Import String Reals List Bool ZArith.
From Verif Require Import Prelude Vec ModelBase ModelController ModelSimplex ModelAsif ModelDiscrete ModelJit.
Import ListNotations.
Local Open Scope R_scope.
Local Open Scope monad_scope.

(** constraint.py 532-533: whether cbf is compiled.  The argument jit_enable of the module
    (base.py 168, 196-200) reaches neither line. *)
Definition cbf_compiled (jit_enable : bool) : bool := true.

(** The compiled versions of all the functions: the position of the constraint and the signature
    of the arguments (shapes and dtypes of state, step size and parameters, for which a number
    stands), with the constraint's attributes as the trace has read them. *)
Definition cbf_key_dec (a b : nat * nat) : {a = b} + {a <> b}.
Proof.
  destruct a as [n k], b as [n' k']. destruct (PeanoNat.Nat.eq_dec n n') as [->|H]; [|right; congruence].
  destruct (PeanoNat.Nat.eq_dec k k') as [->|H]; [left; reflexivity|right; congruence].
Defined.
Definition cbf_traces (X P : Type) : Type := traces (nat * nat) (constraint X P).
Definition jdisc (X P : Type) : Type := rta (cb X P (disc * cbf_traces X P)).
Definition disc_of {X P} (s : jdisc X P) : disc := fst (cb_ext (ext s)).
Definition cbfs_of {X P} (s : jdisc X P) : cbf_traces X P := snd (cb_ext (ext s)).

(** asif.py 978-993. *)
Definition jdisc_init {X P} (cfg : disc_cfg X) (defined : dict (constraint X P))
    (to_use : option (list string)) : res (jdisc X P) :=
  s <-- disc_init cfg defined to_use ;;;
  w <-- cb_init defined to_use (cb_ext (ext s), []) ;;;
  Ok (rta_init w).

(** asif.py 998-1001 with the wrapped functions, from position [n] on, and the compiled versions
    after the solver's first evaluations.  scipy's SLSQP evaluates the functions once at the start,
    in order, until one raises ([go] is false from there on); [z] is the starting point.  As
    elsewhere the Jacobians, compiled in the same way on the same calls, are left out, and what
    _compute itself reads is taken to be fixed (constraint.py 155). *)
Fixpoint compiled_cbfs {X P} (jit_enable : bool) (sig : X -> R -> P -> nat) (cfg : disc_cfg X) (n : nat) (go : bool)
    (cs : list (constraint X P)) (idx : list (option nat)) (params : list P) (enabled : list bool) (x : X) (dt : R)
    (z : vec) (t : cbf_traces X P) : list (vec -> res R) * cbf_traces X P :=
  match cs, idx, params, enabled with
  | c :: cs', i :: idx', p :: params', e :: enabled' =>
      if (e : bool) then
        let k := (n, sig x dt p) in
        let known := if cbf_compiled jit_enable then trace_of cbf_key_dec k t else None in
        let read := match known with Some c' => c' | None => c end in
        match jit_call cbf_key_dec k c (fun c => cbf_fn cfg c i x dt p z) t with
        | (r, t') =>
            match compiled_cbfs jit_enable sig cfg (S n) (go && match r with Ok _ => true | Err _ => false end)
                    cs' idx' params' enabled' x dt z (if go && cbf_compiled jit_enable then t' else t) with
            | (fs, t'') => (cbf_fn cfg read i x dt p :: fs, t'')
            end
        end
      else compiled_cbfs jit_enable sig cfg (S n) go cs' idx' params' enabled' x dt z t
  | _, _, _, _ => ([], t)
  end.

(** asif.py 995-1016, _filter_control. *)
Definition jdisc_filter {X P} (jit_enable : bool) (sig : X -> R -> P -> nat) (cfg : disc_cfg X) (x : X) (dt : R) (u : vec)
  : M (jdisc X P) vec :=
  s <- get ;;
  let y := disc_of s in
  let desired := u ++ zeros (ds_num_slack y) in
  bnds <- lift (scipy_bounds (ds_opt_bounds y)) ;;
  match compiled_cbfs jit_enable sig cfg 0 true (map snd (cb_constraints (ext s))) (ds_slack_idx y)
          (map snd (cb_params (ext s))) (map snd (cb_enabled (ext s))) x dt desired (cbfs_of s) with
  | (fs, t) =>
      modify (on_ext (fun w => set_cb_ext (fst (cb_ext w), t) w)) ;;
      r <- lift (dc_solve cfg (disc_obj (ds_weight y) desired) desired fs bnds) ;;
      (if fst r then ret tt
       else if dc_exc cfg then raise SolverError
       else modify (on_ext (fun w => set_cb_ext (disc_warn (fst (cb_ext w)), snd (cb_ext w)) w))) ;;
      let actual := firstn (dc_dim cfg) (snd r) in
      b <- lift (opt_monitor (dc_eps cfg) (firstn (dc_dim cfg) desired) actual) ;;
      modify (set_intervening b) ;;
      ret actual
  end.

(** filter_control, and the inherited reset, which drops no compiled version. *)
Definition jdisc_filter_control {X P} (jit_enable : bool) (sig : X -> R -> P -> nat) (cfg : disc_cfg X) (i : input X)
    (dt : R) (u : vec) : M (jdisc X P) vec :=
  filter_control (dc_bounds cfg) (cb_compute base_get_state (jdisc_filter jit_enable sig cfg)) i dt u.
Definition jdisc_reset {X P} : M (jdisc X P) unit := modify (rta_reset (fun y => y)).

(** Histories in which the caller may also assign other attributes of the constraints. *)
Inductive dop (X P : Type) : Type :=
| DOp (o : op X P)
| DAssign (k : string) (f : constraint X P -> constraint X P).
Arguments DOp {X P}.
Arguments DAssign {X P}.
Definition dassign_step {X P Y} (filt : input X -> R -> vec -> M (rta (cb X P Y)) vec) (rst : M (rta (cb X P Y)) unit)
    (o : dop X P) (s : rta (cb X P Y)) : obs * rta (cb X P Y) :=
  match o with
  | DOp o => cb_step filt rst o s
  | DAssign k f => (ObsDone, on_ext (on_constraint k f) s)
  end.
Fixpoint dassign_run {X P Y} (filt : input X -> R -> vec -> M (rta (cb X P Y)) vec) (rst : M (rta (cb X P Y)) unit)
    (os : list (dop X P)) (s : rta (cb X P Y)) : list obs * rta (cb X P Y) :=
  match os with
  | [] => ([], s)
  | o :: os' =>
      match dassign_step filt rst o s with
      | (b, s') => match dassign_run filt rst os' s' with (bs, s'') => (b :: bs, s'') end
      end
  end.
