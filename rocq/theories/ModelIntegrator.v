(** Model of zoo/integrators/integrator_1d.py. *)
From Coq Require Import String Reals List Bool ZArith.
From Verif Require Import Prelude Vec ModelBase ModelController ModelSimplex ModelAsif ModelConstraint.
Import ListNotations.
Local Open Scope R_scope.

(** integrator_1d.py 61-68: the matrices of PointMassIntegratorDynamics in mode 1d, which is in
    safe_autonomy_simulation (not in /repo): position and velocity, thrust over mass. *)
Definition int_a : mat := [[0; 1]; [0; 0]].
Definition int_b (m : R) : mat := [[0]; [1 / m]].

(** integrator_1d.py 103-109: f and g. *)
Definition int_f (x : vec) : vec := mv int_a x.
Definition int_g (m : R) (x : vec) : mat := int_b m.

(** integrator_1d.py 96-101: _docking_pred_state calls dynamics.step of safe_autonomy_simulation.
    With integration_method Euler that is one explicit Euler step; RK45 is modelled by the exact
    solution for a constant control (a polynomial of degree two, on which the method is exact up
    to rounding).  Other shapes than two states and one control raise. *)
Definition int_euler (m : R) (x : vec) (dt : R) (u : vec) : res vec :=
  match x, u with
  | [p; v], [a] => Ok (vadd [p; v] (vscale dt (vadd (mv int_a [p; v]) (mv (int_b m) [a]))))
  | _, _ => Err TypeError
  end.
Definition int_exact (m : R) (x : vec) (dt : R) (u : vec) : res vec :=
  match x, u with
  | [p; v], [a] => Ok [p + v * dt + a / m * dt ^ 2 / 2; v + a / m * dt]
  | _, _ => Err TypeError
  end.

(** integrator_1d.py 365-374: the backup controller. *)
Definition int_gen (x : vec) (dt : R) (cs : cstate) : gout := GPair [-1] CSNone.

(** integrator_1d.py 377-393 and 396-412: the constraints with their default strengtheners. *)
Definition int_explicit (alpha : option (R -> R)) (kw : ckw) : constraint vec unit :=
  let f := fun (x : vec) (_ : unit) => -2 * jax_get 0 x 0%Z - jax_get 0 x 1%Z ^ 2 in
  new_constraint f f (match alpha with Some a => Some a | None => Some (polynomial (Some [0; 1; 0; 30])) end) tt kw.
Definition int_implicit (alpha : option (R -> R)) (kw : ckw) : constraint vec unit :=
  let f := fun (x : vec) (_ : unit) => - jax_get 0 x 0%Z in
  new_constraint f f (match alpha with Some a => Some a | None => Some (polynomial (Some [0; 10; 0; 30])) end) tt kw.

(** integrator_1d.py 77-81 and 83-94: the dictionaries of constraints. *)
Definition int_explicit_constraints : dict (constraint vec unit) :=
  [("rel_vel"%string, int_explicit None kw_default)].
Definition int_implicit_constraints : dict (constraint vec unit) :=
  [("rel_vel"%string, int_implicit None
      (mkKw None 0 (- (1 / 100)) None true (mkSub (-1) 1 (Some 1%Z) false false)))].

(** integrator_1d.py 112-170 and 173-237: the default control bounds of the modules. *)
Definition int_bounds : bounds := mkBounds (Some (BScalar (-1))) (Some (BScalar 1)).
(** The switching modules, with the Euler or the exact step. *)
Definition int_switching (euler : bool) (m latch : R) : sx_cfg vec :=
  mkSxCfg int_bounds latch (if euler then int_euler m else int_exact m) int_gen.
(** The explicit optimisation module (integrator_1d.py 240-290). *)
Definition int_optimization (m eps : R) (exc : bool) (solve : qp_solver) : asif_cfg vec :=
  mkAsifCfg int_bounds eps 1 exc int_f (int_g m) solve.
