(** Model of the sun's rate in the optimisation modules of the inspection tasks, with and without
    compilation (zoo/cwh/inspection_1v1.py 347-364, zoo/cwh/inspection_3d.py 245-263, rta/asif.py
    106-136): _get_state assigns the attribute sun_vel, and the compiled program reads it once per
    signature. *)
From Coq Require Import String Reals List Bool ZArith.
From Verif Require Import Prelude Vec ModelBase ModelController ModelSimplex ModelAsif ModelConstraint ModelCwh
  ModelZoo ModelInsp ModelJit.
Import ListNotations.
Local Open Scope R_scope.
Local Open Scope monad_scope.

(** The attribute sun_vel, and for each compiled version of _generate_barrier_constraint_mats the
    value of it that the trace has read.  What else a trace captures is in ModelJit.v. *)
Record sunny : Type := mkSunny { sun_vel : R; sun_traces : traces (R * nat) R }.
Definition sun_mod (P : Type) : Type := amod vec P sunny.
Definition sun_of {P} (s : sun_mod P) : sunny := as_ext (get_asif s).
Definition set_sun {P} (f : sunny -> sunny) (s : sun_mod P) : sun_mod P :=
  on_asif (fun y => set_as_ext (f (as_ext y)) y) s.

(** What the two modules differ in: the configuration apart from f, f for a rate of the sun, and
    _get_state. *)
Record sun_kind : Type := mkSunKind {
  sk_cfg : asif_cfg vec;
  sk_drift : R -> vec -> vec;
  sk_get : input vec -> M R vec }.
Definition at_rate (k : sun_kind) (v : R) : asif_cfg vec :=
  let c := sk_cfg k in
  mkAsifCfg (ac_bounds c) (ac_eps c) (ac_dim c) (ac_exc c) (sk_drift k v) (ac_g c) (ac_solve c).

(** inspection_1v1.py 347-364. *)
Definition one_deputy (c : insp_cfg) (eps : R) (exc : bool) (solve : qp_solver) : sun_kind :=
  mkSunKind (inspection_optimization c eps exc solve) (inspection_f (i_n c)) inspection_get_state.
(** inspection_3d.py 245-263, for [num] deputies.  Shapes are not checked here; ModelShare.v has
    that. *)
Definition several_deputies (n m : R) (num : nat) (b : bounds) (eps : R) (exc : bool) (solve : qp_solver) : sun_kind :=
  mkSunKind (mkAsifCfg b eps 3 exc (deputies_f n 0 num) (deputies_g m num) solve)
    (fun v => deputies_f n v num) (deputies_get_state num).

(** _get_state as a method: it may assign sun_vel. *)
Definition sun_get_state {P} (k : sun_kind) (i : input vec) : M (sun_mod P) vec :=
  zoom (fun s => sun_vel (sun_of s)) (fun v => set_sun (fun z => mkSunny v (sun_traces z))) (sk_get k i).

(** asif.py 363-435 without compilation: state_transition_system reads the attribute. *)
Definition sun_mats {P} (k : sun_kind) (x : vec) (dt : R) : M (sun_mod P) (mat * vec) :=
  s <- get ;; explicit_mats (at_rate k (sun_vel (sun_of s))) x dt.

(** asif.py 116-118: compiled.  step_size is static; of the shapes of the other arguments only that
    of the state can differ between calls, if the parameters of the constraints keep theirs. *)
Definition jit_sun_mats {P} (k : sun_kind) (x : vec) (dt : R) : M (sun_mod P) (mat * vec) :=
  s <- get ;;
  let y := get_asif s in
  match jit_call key_dec (dt, length x) (sun_vel (sun_of s))
          (fun v => explicit_rows (at_rate k v) (as_num_slack y) 0 (cb_constraints (ext s)) (cb_params (ext s))
                      (cb_enabled (ext s)) x)
          (sun_traces (sun_of s)) with
  | (r, t) =>
      modify (set_sun (fun z => mkSunny (sun_vel z) t)) ;;
      rc <- lift r ;;
      ret (as_act_rows y ++ fst rc, as_act_consts y ++ snd rc)
  end.

(** filter_control; [compiled] is the argument jit_enable. *)
Definition sun_filter_control {P} (compiled : bool) (k : sun_kind) (i : input vec) (dt : R) (u : vec)
  : M (sun_mod P) vec :=
  filter_control (ac_bounds (sk_cfg k))
    (cb_compute (sun_get_state k)
       (asif_filter (sk_cfg k) (if compiled then jit_sun_mats k else sun_mats k))) i dt u.

(** reset (base.py 95-105) leaves sun_vel and the compiled versions alone. *)
Definition sun_reset {P} : M (sun_mod P) unit := modify (rta_reset (fun y => y)).

(** One operation; update_constraint_values (base.py 311-321) goes through _get_state too. *)
Definition sun_step {P} (compiled : bool) (k : sun_kind) (o : aop vec P) (s : sun_mod P) : obs * sun_mod P :=
  match o with
  | ABase (OUpdateValues i) =>
      match update_constraint_values (sun_get_state k) i s with (r, s') => (obs_unit r, s') end
  | _ => asif_step (sun_filter_control compiled k) sun_reset o s
  end.
Fixpoint sun_run {P} (compiled : bool) (k : sun_kind) (os : list (aop vec P)) (s : sun_mod P)
  : list obs * sun_mod P :=
  match os with
  | [] => ([], s)
  | o :: os' =>
      match sun_step compiled k o s with
      | (b, s') => match sun_run compiled k os' s' with (bs, s'') => (b :: bs, s'') end
      end
  end.

(** Construction (asif.py 42-58, inspection_1v1.py 172-232): the rate is an argument, and nothing
    is compiled yet. *)
Definition sun_init {P} (k : sun_kind) (rate : R) (defined : dict (constraint vec P))
    (to_use : option (list string)) (directs : dict (direct vec P)) : res (sun_mod P) :=
  asif_init (sk_cfg k) defined to_use directs (mkSunny rate []).
