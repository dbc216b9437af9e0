(** Model of run_one_step of utils/sample_testing.py. *)
From Coq Require Import String Reals List Bool ZArith.
From Verif Require Import Prelude Vec ModelBase ModelSampling.
Import ListNotations.
Local Open Scope R_scope.
Local Open Scope monad_scope.

(** sample_testing.py 168-173, run_one_step.  The predicted state is computed and dropped. *)
Definition run_one_step {X P A B} (t : tester X P A B) : M (A * B) unit :=
  x <- on_sampler (st_sample t) ;;
  w <- on_module (st_filter t (InArray x) (st_dt t) (st_desired t x)) ;;
  _ <- lift (st_pred t x (st_dt t) w) ;;
  ret tt.
