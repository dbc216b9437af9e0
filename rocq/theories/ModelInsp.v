(** Model of the explicit optimisation module of the inspection task (zoo/cwh/inspection_1v1.py
    130-376): what it hands to the optimisation.  The constraints it sets up are in ModelZoo.v,
    the handling of short states in ModelCwh.v. *)
From Coq Require Import String Reals List Bool ZArith.
From Verif Require Import Prelude Vec ModelBase ModelAsif ModelConstraint ModelCwh ModelZoo.
Import ListNotations.
Local Open Scope R_scope.

(** inspection_1v1.py 172-232 and 347-352: control_dim is the number of columns of B (3), f and g
    are state_transition_system and state_transition_input.  The other arguments (epsilon,
    solver_exception) are those of ExplicitASIFModule. *)
Definition inspection_optimization (c : insp_cfg) (eps : R) (exc : bool) (solve : qp_solver) : asif_cfg vec :=
  mkAsifCfg (i_bounds c) eps 3 exc (inspection_f (i_n c) (i_sun_vel c)) (inspection_g (i_m c)) solve.
