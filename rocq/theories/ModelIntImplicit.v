(** Model of the implicit optimisation module of zoo/integrators/integrator_1d.py. *)
From Coq Require Import String Reals List Bool ZArith.
From Verif Require Import Prelude Vec ModelBase ModelController ModelSimplex ModelAsif ModelConstraint ModelIntegrator.
Import ListNotations.
Local Open Scope R_scope.

(** integrator_1d.py 293-362, Integrator1dDockingImplicitOptimizationRTA: what it has beside the
    configuration of the explicit module.  The prediction is that of asif.py 922-924, a step of
    the ODE solver of 960-972 with the module's own f and g and the method asked for (Euler by
    default, integrator_1d.py 327); the Jacobian of asif.py 560-564 for the constant backup
    control is the matrix A. *)
Definition int_implicit_ic (euler : bool) (m window : R) : imp_cfg vec :=
  mkImpCfg window (if euler then int_euler m else int_exact m) int_gen (fun _ _ _ => int_a) (@length R).
