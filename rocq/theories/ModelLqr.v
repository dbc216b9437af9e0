(** The constructors of the LQR backup controllers (docking_2d.py 547-558, docking_3d.py 608-619). *)
From Coq Require Import String Reals List.
From Verif Require Import Prelude Vec ModelController ModelCwh.
Import ListNotations.
Local Open Scope R_scope.

(** jnp.transpose of a matrix with [k] columns. *)
Definition transpose (k : nat) (A : mat) : mat := map (fun j => map (fun row => nth j row 0) A) (seq 0 k).

(** The weights Q = 0.050 * eye and R = 1000 * eye. *)
Definition stop_q (k : nat) : mat := mscale (50 / 1000) (eye (2 * k)).
Definition stop_r (k : nat) : mat := mscale 1000 (eye k).

(** K = inv(R) @ (transpose(B) @ P), with [k] controls.  Simplification: the inverse of
    1000 * eye is written down, not computed. *)
Definition stop_gain (k : nat) (B P : mat) : mat :=
  mm (2 * k) (mscale (1 / 1000) (eye k)) (mm (2 * k) (transpose k B) P).

(** The whole controller of dimension [k] (2 or 3).  [care] is scipy.linalg.solve_continuous_are. *)
Definition stop_controller (care : mat -> mat -> mat -> mat -> mat) (m n : R) (k : nat)
    : res (vec -> R -> cstate -> gout) :=
  rbind (generate_cwh_matrices m n (if Nat.eqb k 2 then "2d" else "3d")%string) (fun ab =>
  let P := care (fst ab) (snd ab) (stop_q k) (stop_r k) in
  Ok (lqr_stop k (stop_gain k (snd ab) P))).
