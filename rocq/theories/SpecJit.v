(** Specification vocabulary for compiled modules. *)
From Coq Require Import String Reals List Bool.
From Verif Require Import Prelude Vec ModelBase ModelController ModelSimplex ModelAsif ModelJit.
Import ListNotations.

(** Two lists of constraints that differ in parameters and enabled flags only. *)
Definition alike {X P} (a b : dict (constraint X P)) : Prop :=
  Forall2 (fun c d => fst c = fst d /\
    exists p e, snd d = mkConstraint (c_fun (snd c)) (c_phi (snd c)) (c_grad (snd c)) (c_alpha (snd c))
      (c_alpha_neg (snd c)) (c_bias (snd c)) (c_bias_neg (snd c)) (c_slack (snd c)) (c_sub (snd c)) p e) a b.
Definition alike_direct {X P} (a b : dict (direct X P)) : Prop :=
  Forall2 (fun c d => fst c = fst d /\
    exists p e, snd d = mkDirect (d_weight (snd c)) (d_constant (snd c)) p e) a b.

(** An ASIF module without the attributes its subclass adds. *)
Definition forget {X P Z} (s : amod X P Z) : amod X P unit :=
  let e := ext s in let y := cb_ext e in
  mkRta (enable s) (intervening s) (control_desired s) (control_actual s)
    (mkCb (cb_constraints e) (cb_params e) (cb_enabled e) (cb_values e) (cb_stale e)
       (mkAsif (as_num_slack y) (as_weight y) (as_names y) (as_act_rows y) (as_act_consts y) (as_direct y)
          (as_dparams y) (as_denabled y) (as_causes y) (as_warned y) tt)).

(** Assigning attributes of constraints other than parameters and enabled flags. *)
Definition attribute_only {X P} (o : jop X P) : Prop :=
  match o with
  | JOp _ => False
  | JAssign _ f => forall c, c_params (f c) = c_params c /\ c_enabled (f c) = c_enabled c
  | JAssignDirect _ f => forall d, d_params (f d) = d_params d /\ d_enabled (f d) = d_enabled d
  end.

(** The plain implicit module with a controller without internal state that corresponds to a
    compiled one. *)
Definition with_controller {X P} (s : jit_amod X P) : amod X P ctl :=
  let e := ext s in let y := cb_ext e in
  mkRta (enable s) (intervening s) (control_desired s) (control_actual s)
    (mkCb (cb_constraints e) (cb_params e) (cb_enabled e) (cb_values e) (cb_stale e)
       (mkAsif (as_num_slack y) (as_weight y) (as_names y) (as_act_rows y) (as_act_consts y) (as_direct y)
          (as_dparams y) (as_denabled y) (as_causes y) (as_warned y) empty_ctl)).
