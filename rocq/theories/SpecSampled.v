(** Specification vocabulary for solvers of limited accuracy and for controls that are held
    between two calls: C72, C73. *)
From Coq Require Import String Reals List Bool ZArith.
From Verif Require Import Prelude Vec ModelBase ModelController ModelSimplex ModelAsif SpecCore SpecAsif.
Import ListNotations.
Local Open Scope R_scope.

(** A solver whose answers satisfy each row up to [tol] (nothing is said about how close to the
    minimum they are), with row numbers that exist.  quadprog computes with floating point
    numbers, so this is the most that its answers promise. *)
Definition approximate_solver (tol : R) (solve : qp_solver) : Prop :=
  forall G a C b z iact, solve G a C b = Ok (z, iact) ->
    length z = length a /\
    Forall2 (fun r c => c - tol <= dot r z) C b /\
    (forall i, In i iact -> exists j, i = S j /\ (j < length C)%nat).

(** The sum of the absolute values of the entries. *)
Fixpoint sum_abs (v : vec) : R :=
  match v with
  | [] => 0
  | a :: v' => Rabs a + sum_abs v'
  end.

(** How strongly the control acts on the constraint: the entries of grad . g. *)
Definition authority {X P} (cfg : asif_cfg X) (c : constraint X P) (x : X) : R :=
  sum_abs (vm (ac_dim cfg) (c_grad c x (c_params c)) (ac_g cfg x)).

(** The rate at which the value of constraint [c] changes at [x] under control [u]. *)
Definition rate {X P} (cfg : asif_cfg X) (c : constraint X P) (x : X) (u : vec) : R :=
  dot (c_grad c x (c_params c)) (vadd (ac_f cfg x) (mv (ac_g cfg x) u)).

(** The value of a constraint with its bias. *)
Definition value {X P} (c : constraint X P) (x : X) : R := c_fun c x (c_params c) + c_bias c.

(** An explicit module that is called once every [T] time units, [N] times, always without the
    infeasibility warning, while the plant holds the returned control until the next call.
    [x] is the motion, [ud i], [u i] the desired and the returned control of call [i], and [s i] the
    module before that call. *)
Record held_between_calls {X P} (cfg : asif_cfg X) (n : nat) (k : string) (c : constraint X P) (dt T : R) (N : nat)
    (x : R -> X) (ud u : nat -> vec) (s : nat -> amod X P unit) : Prop := mkHeld {
  hb_call : forall i, (i < N)%nat ->
    in_use cfg n (s i) (x (INR i * T)) (ud i) /\ In (k, c) (asif_constraints (s i)) /\
    exists s', explicit_asif_filter_control cfg (InArray (x (INR i * T))) dt (ud i) (s i) = (Ok (u i), s') /\
               warnings s' = warnings (s i);
  hb_continuous : forall t, 0 <= t <= INR N * T -> continuity_pt (fun r => c_fun c (x r) (c_params c)) t;
  hb_moves : forall i t, (i < N)%nat -> INR i * T < t < INR (S i) * T ->
    derivable_pt_lim (fun r => c_fun c (x r) (c_params c)) t (rate cfg c (x t) (u i)) }.

(** Between two calls the rate falls by at most [L] per time unit below its value at the call. *)
Definition rate_falls_by {X P} (cfg : asif_cfg X) (c : constraint X P) (L T : R) (N : nat)
    (x : R -> X) (u : nat -> vec) : Prop :=
  forall i t, (i < N)%nat -> INR i * T <= t <= INR (S i) * T ->
    rate cfg c (x (INR i * T)) (u i) - L * (t - INR i * T) <= rate cfg c (x t) (u i).
