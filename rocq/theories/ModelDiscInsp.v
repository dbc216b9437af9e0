(** Model of the discrete module of the inspection task (zoo/cwh/inspection_1v1.py 379-622): what
    it hands to the optimisation.  The constraints it sets up and the discrete dynamics are in
    ModelZoo.v and ModelCwh.v; it has no _get_state of its own. *)
From Coq Require Import String Reals List Bool ZArith.
From Verif Require Import Prelude Vec ModelBase ModelAsif ModelConstraint ModelCwh ModelZoo ModelDiscrete.
Import ListNotations.
Local Open Scope R_scope.

(** inspection_1v1.py 419-473 and 559-566: control_dim is the number of columns of B (3); the next
    state does not keep the entry of the delta-v used.  The other arguments (epsilon,
    solver_exception) are those of DiscreteASIFModule. *)
Definition discrete_inspection (c : insp_cfg) (eps : R) (exc : bool) (solve : slsqp) : disc_cfg vec :=
  mkDiscCfg (i_bounds c) eps 3 exc (discrete_next (i_n c) (i_m c) (i_sun_vel c)) solve.
