(** Model of run_time_assurance/rta/asif.py lines 973-1034, DiscreteASIFModule, and of
    constraint.py lines 512-560, DiscreteCBFConstraint. *)
From Coq Require Import String Reals List Bool ZArith.
From Verif Require Import Prelude Vec ModelBase ModelController ModelSimplex ModelAsif.
Import ListNotations.
Local Open Scope R_scope.
Local Open Scope monad_scope.

(** scipy.optimize.minimize(method SLSQP) (asif.py 1003-1005), an oracle.  Its arguments here:
    the objective, the starting point, the inequality functions and one pair of optional
    limits per variable.  It returns the success flag and the last iterate (res.success and
    res.x), or raises.  The Jacobians passed in asif.py 993 are left out. *)
Definition slsqp : Type :=
  (vec -> R) -> vec -> list (vec -> res R) -> list (option R * option R) -> res (bool * vec).

(** scipy takes each limit to be None or one number: an array is converted with
    ndarray.item(), which raises ValueError unless it has exactly one element
    (scipy.optimize._constraints.old_bound_to_new and _arr_to_scalar). *)
Definition as_number (b : option bnd) : res (option R) :=
  match b with
  | None => Ok None
  | Some (BScalar r) => Ok (Some r)
  | Some (BVec [r]) => Ok (Some r)
  | Some (BVec _) => Err (ValueError "can only convert an array of size 1 to a Python scalar")
  end.
Definition scipy_bounds (l : list (option bnd * option bnd)) : res (list (option R * option R)) :=
  rmap (fun lh => lo <-- as_number (fst lh) ;;; hi <-- as_number (snd lh) ;;; Ok (lo, hi)) l.

(** What is fixed at construction or comes from outside: asif.py 42-47, the subclass's
    next_state_differentiable and the solver. *)
Record disc_cfg (X : Type) : Type := mkDiscCfg {
  dc_bounds : bounds;
  dc_eps : R;
  dc_dim : nat;
  dc_exc : bool;
  dc_next : X -> R -> vec -> X;
  dc_solve : slsqp }.
Arguments mkDiscCfg {X}.
Arguments dc_bounds {X}.
Arguments dc_eps {X}.
Arguments dc_dim {X}.
Arguments dc_exc {X}.
Arguments dc_next {X}.
Arguments dc_solve {X}.

(** The attributes added by asif.py 49-58 and 981-993: num_slack, obj_weight, opt_bounds and,
    per constraint, the slack index of its DiscreteCBFConstraint; [ds_warned] counts the
    warnings issued. *)
Record disc : Type := mkDisc {
  ds_num_slack : nat;
  ds_weight : mat;
  ds_opt_bounds : list (option bnd * option bnd);
  ds_slack_idx : list (option nat);
  ds_warned : nat }.
Definition disc_warn (y : disc) : disc :=
  mkDisc (ds_num_slack y) (ds_weight y) (ds_opt_bounds y) (ds_slack_idx y) (S (ds_warned y)).

(** A discrete module object. *)
Definition dmod (X P : Type) : Type := rta (cb X P disc).

(** asif.py 984-990: the slack index of each constraint, counting from [n]. *)
Fixpoint slack_indices {X P} (n : nat) (cs : dict (constraint X P)) : list (option nat) :=
  match cs with
  | [] => []
  | (_, c) :: cs' =>
      match c_slack c with
      | Some _ => Some n :: slack_indices (S n) cs'
      | None => None :: slack_indices n cs'
      end
  end.

(** asif.py 42-58 and 978-993: construction. *)
Definition disc_init {X P} (cfg : disc_cfg X) (defined : dict (constraint X P))
    (to_use : option (list string)) : res (dmod X P) :=
  cs <-- select_constraints defined to_use ;;;
  let scales := slack_scales cs in
  let y := mkDisc (length scales) (obj_weight (dc_dim cfg) scales)
             (repeat (b_low (dc_bounds cfg), b_high (dc_bounds cfg)) (dc_dim cfg)
              ++ repeat (None, None) (length scales))
             (slack_indices 0 cs) 0 in
  w <-- cb_init defined to_use y ;;;
  Ok (rta_init w).

(** constraint.py 537-560, DiscreteCBFConstraint.cbf_fn.  Division by a zero step gives inf or
    nan in jax; here it gives some real number. *)
Definition cbf_fn {X P} (cfg : disc_cfg X) (c : constraint X P) (slack_idx : option nat)
    (x : X) (dt : R) (p : P) (z : vec) : res R :=
  let next := dc_next cfg x dt (firstn (dc_dim cfg) z) in
  a <-- c_alpha_at c (c_compute c x p) ;;;
  let h := (c_compute c next p - c_compute c x p) / dt + a in
  Ok (match slack_idx with
      | Some i => h - nth (dc_dim cfg + i) z 0
      | None => h
      end).

(** asif.py 998-1001: zip of the constraints with the values of the two caches, in their
    order; the enabled ones are kept. *)
Fixpoint enabled_cbfs {X P} (cfg : disc_cfg X) (cs : list (constraint X P)) (idx : list (option nat))
    (params : list P) (enabled : list bool) (x : X) (dt : R) : list (vec -> res R) :=
  match cs, idx, params, enabled with
  | c :: cs', i :: idx', p :: params', e :: enabled' =>
      if (e : bool) then cbf_fn cfg c i x dt p :: enabled_cbfs cfg cs' idx' params' enabled' x dt
      else enabled_cbfs cfg cs' idx' params' enabled' x dt
  | _, _, _, _ => []
  end.

(** asif.py 1018-1033, obj.  1/2 u' (W' W) u + (-W' d)' u, the first product written as
    (W u)' (W u). *)
Definition disc_obj (w : mat) (desired z : vec) : R :=
  / 2 * dot (mv w z) (mv w z) - dot (vm (length w) desired w) z.

(** asif.py 995-1016, _filter_control. *)
Definition disc_filter {X P} (cfg : disc_cfg X) (x : X) (dt : R) (u : vec) : M (dmod X P) vec :=
  s <- get ;;
  let y := cb_ext (ext s) in
  let desired := u ++ zeros (ds_num_slack y) in
  let cons := enabled_cbfs cfg (map snd (cb_constraints (ext s))) (ds_slack_idx y)
                (map snd (cb_params (ext s))) (map snd (cb_enabled (ext s))) x dt in
  bnds <- lift (scipy_bounds (ds_opt_bounds y)) ;;
  r <- lift (dc_solve cfg (disc_obj (ds_weight y) desired) desired cons bnds) ;;
  (if fst r then ret tt
   else if dc_exc cfg then raise SolverError
   else modify (on_ext (fun w => set_cb_ext (disc_warn (cb_ext w)) w))) ;;
  let actual := firstn (dc_dim cfg) (snd r) in
  b <- lift (opt_monitor (dc_eps cfg) (firstn (dc_dim cfg) desired) actual) ;;
  modify (set_intervening b) ;;
  ret actual.

(** DiscreteASIFModule.filter_control, and the inherited reset. *)
Definition disc_filter_control {X P} (cfg : disc_cfg X) (i : input X) (dt : R) (u : vec)
  : M (dmod X P) vec :=
  filter_control (dc_bounds cfg) (cb_compute base_get_state (disc_filter cfg)) i dt u.
Definition disc_reset {X P} : M (dmod X P) unit := modify (rta_reset (fun y => y)).
