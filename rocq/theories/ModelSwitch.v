(** Model of the switching modules of the docking task (zoo/cwh/docking_2d.py 162-347,
    docking_3d.py 187-390). *)
From Coq Require Import String Reals List Bool ZArith.
From Verif Require Import Prelude Vec ModelBase ModelController ModelSimplex ModelConstraint ModelCwh ModelZoo ModelLqr.
Import ListNotations.
Local Open Scope R_scope.

(** docking_2d.py 196-236 and 290-332, docking_3d.py 223-265 and 326-370: without a
    backup_controller argument the module makes a stopping controller of its own mass and mean
    motion.  [dim] is 2 or 3.  [pred] is _pred_state (docking_2d.py 144-151, 248-251 and 344-347,
    docking_3d.py 171-176, 282-285 and 387-390), which calls a step of safe_autonomy_simulation. *)
Definition docking_switching (care : mat -> mat -> mat -> mat -> mat) (m n latch : R) (b : bounds) (dim : nat)
    (pred : vec -> R -> vec -> res vec) : res (sx_cfg vec) :=
  rbind (stop_controller care m n dim) (fun gen => Ok (mkSxCfg b latch pred gen)).

(** The module object after construction.  The controllers have no internal state
    (docking_2d.py 566-573, docking_3d.py 627-634). *)
Definition switching_module_2d (c : dock_cfg) : res (simplex vec zparams) :=
  simplex_init (docking_constraints_2d c) None CSNone.
Definition switching_module_3d (c : dock_cfg) : res (simplex vec zparams) :=
  simplex_init (docking_constraints_3d c) None CSNone.
