(** Model of the explicit optimisation modules of the docking task (zoo/cwh/docking_2d.py 350-433,
    docking_3d.py 393-485).  The constraints they set up are in ModelZoo.v. *)
From Coq Require Import String Reals List Bool ZArith.
From Verif Require Import Prelude Vec ModelBase ModelAsif ModelConstraint ModelCwh ModelZoo.
Import ListNotations.
Local Open Scope R_scope.

(** docking_2d.py 386-433: control_dim is 2, f and g are those of the mixin (docking_2d.py
    149-155).  The other arguments (epsilon, solver_exception) are those of ExplicitASIFModule. *)
Definition docking_optimization_2d (n m : R) (b : bounds) (eps : R) (exc : bool) (solve : qp_solver) : asif_cfg vec :=
  mkAsifCfg b eps 2 exc (docking_f (cwh_a2 n)) (docking_g (cwh_b2 m)) solve.

(** docking_3d.py 431-485: control_dim is 3. *)
Definition docking_optimization_3d (n m : R) (b : bounds) (eps : R) (exc : bool) (solve : qp_solver) : asif_cfg vec :=
  mkAsifCfg b eps 3 exc (docking_f (cwh_a3 n)) (docking_g (cwh_b3 m)) solve.

(** docking_2d.py 395-396 and docking_3d.py 441-442: the control bounds if none are given. *)
Definition docking_bounds : bounds := mkBounds (Some (BScalar (-1))) (Some (BScalar 1)).
