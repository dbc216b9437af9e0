(** The gain of the delta-v module (zoo/cwh/inspection_1v1.py 655-687). *)
From Coq Require Import String Reals List.
From Verif Require Import Prelude Vec ModelBase ModelController ModelCwh ModelLqr ModelInspect.
Import ListNotations.
Local Open Scope R_scope.

(** np.hstack of two matrices with the same number of rows; np.vstack is the append of lists. *)
Definition hstack (A B : mat) : mat := map2 (@app R) A B.
Definition zero_mat (r c : nat) : mat := repeat (zeros c) r.

(** inspection_1v1.py 663-672: Q, R, A_int and B_int. *)
Definition dv_q : mat := mscale (1 / 100000) (eye 12).
Definition dv_r : mat := mscale 100000 (eye 3).
Definition dv_a_int (A : mat) : mat := hstack A (zero_mat 6 6) ++ hstack (eye 6) (zero_mat 6 6).
Definition dv_b_int (B : mat) : mat := B ++ zero_mat 6 3.

(** inspection_1v1.py 675-679.  Simplification: the inverse of 1e5 * eye is written down, not
    computed. *)
Definition dv_gain (B_int P : mat) : mat * mat :=
  let K := mm 12 (mscale (1 / 100000) (eye 3)) (mm 12 (transpose 3 B_int) P) in
  (map (firstn 6) K, map (skipn 6) K).

(** inspection_1v1.py 645-687: the constants of the module.  [care] is
    scipy.linalg.solve_continuous_are, which returns a matrix or raises. *)
Definition dv_build (care : mat -> mat -> mat -> mat -> res mat) (m n limit : R) (steps : nat) (b : bounds) : res dv_cfg :=
  rbind (generate_cwh_matrices m n "3d"%string) (fun ab =>
  rbind (care (dv_a_int (fst ab)) (dv_b_int (snd ab)) dv_q dv_r) (fun P =>
  let K := dv_gain (dv_b_int (snd ab)) P in
  Ok (mkDvCfg m n limit steps (fst K) (snd K) b))).
