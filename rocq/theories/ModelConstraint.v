(** Model of the constraint classes of run_time_assurance/constraint.py lines 46-450. *)
From Coq Require Import String Reals List Bool ZArith.
From Coquelicot Require Import Derive.
From Verif Require Import Prelude Vec ModelBase ModelController ModelSimplex ModelAsif.
Import ListNotations.
Local Open Scope R_scope.
Local Open Scope monad_scope.

(** jax.grad (constraint.py 106-113) of a function of an array: the array of its partial
    derivatives.  Coquelicot's [Derive] gives the derivative where there is one; at other
    points, where jax gives nan or a one-sided value, it gives some number. *)
Definition jax_grad (F : vec -> R) (x : vec) : vec :=
  map (fun i => Derive (fun t => F (set_at i t x)) (nth i x 0)) (seq 0 (length x)).

(** The optional arguments of ConstraintModule.__init__ (constraint.py 80-91) other than
    alpha and params.  jit_enable is not modelled. *)
Record ckw : Type := mkKw {
  kw_alpha_neg : option (R -> R);
  kw_bias : R;
  kw_bias_neg : R;
  kw_slack : option R;
  kw_enabled : bool;
  kw_sub : subsample }.
(** Their defaults: bias 0, bias_negative -0.01, enabled, no slack. *)
Definition kw_default : ckw := mkKw None 0 (- (1 / 100)) None true sub_default.

(** constraint.py 80-113: __init__ and _compose, for a subclass's _compute and _phi. *)
Definition new_constraint {P} (compute phi : vec -> P -> R) (alpha : option (R -> R)) (params : P)
    (kw : ckw) : constraint vec P :=
  mkConstraint compute phi (fun x p => jax_grad (fun y => compute y p) x) alpha (kw_alpha_neg kw)
    (kw_bias kw) (kw_bias_neg kw) (kw_slack kw) (kw_sub kw) params (kw_enabled kw).

(** constraint.py 375-391, PolynomialConstraintStrengthener.__call__: the loop over
    enumerate(coefs), from [n] on. *)
Fixpoint poly_loop (n : nat) (coefs : list R) (x output : R) : R :=
  match coefs with
  | [] => output
  | c :: coefs' => poly_loop (S n) coefs' x (output + c * x ^ n)
  end.
Definition polynomial (coefs : option (list R)) (x : R) : R :=
  poly_loop 0 (match coefs with None => [0; 1] | Some l => l end) x 0.

(** constraint.py 288-291, 316-319, 344-347: the strengthener used when none is given. *)
Definition limit_alpha (alpha : option (R -> R)) : option (R -> R) :=
  match alpha with
  | Some a => Some a
  | None => Some (polynomial (Some [0; 5 / 10000; 0; 1 / 1000]))
  end.

(** constraint.py 272-353: the three state limits.  The parameter dictionary has the single
    key limit_val and is modelled by its value.  state[state_index] is jax indexing. *)
Definition magnitude_limit (limit : R) (i : Z) (alpha : option (R -> R)) (kw : ckw) : constraint vec R :=
  let f := fun (x : vec) (l : R) => l ^ 2 - jax_get 0 x i ^ 2 in
  new_constraint f f (limit_alpha alpha) limit kw.
Definition max_limit (limit : R) (i : Z) (alpha : option (R -> R)) (kw : ckw) : constraint vec R :=
  let f := fun (x : vec) (l : R) => l - jax_get 0 x i in
  new_constraint f f (limit_alpha alpha) limit kw.
Definition min_limit (limit : R) (i : Z) (alpha : option (R -> R)) (kw : ckw) : constraint vec R :=
  let f := fun (x : vec) (l : R) => jax_get 0 x i - l in
  new_constraint f f (limit_alpha alpha) limit kw.

(** constraint.py 431-450, HOCBFConstraintHelper; no further keyword arguments are passed to
    it (constraint.py 415-417). *)
Definition hocbf_helper {P} (c : constraint vec P) (f : vec -> vec) (alpha : R -> R) : constraint vec P :=
  let g := fun (x : vec) (p : P) => dot (c_grad c x p) (f x) + alpha (c_compute c x p) in
  new_constraint g g (Some alpha) (c_params c) kw_default.

(** constraint.py 414-418: the rounds of the loop; the entry constraint_{i-1} of the dictionary
    is the object made in the round before. *)
Fixpoint hocbf_loop {P} (rounds : nat) (c : constraint vec P) (f : vec -> vec) (alpha : R -> R)
  : constraint vec P :=
  match rounds with
  | O => c
  | S n => hocbf_loop n (hocbf_helper c f alpha) f alpha
  end.

(** constraint.py 409-428, HOCBFConstraint.  The name psi is bound only inside the loop, so
    that an empty loop makes line 419 raise UnboundLocalError. *)
Definition hocbf {P} (c : constraint vec P) (degree : Z) (f : vec -> vec) (alpha : R -> R) (kw : ckw)
  : res (constraint vec P) :=
  if (degree <=? 1)%Z then Err UnboundLocalError
  else
    let final := hocbf_loop (Z.to_nat (degree - 1)) c f alpha in
    Ok (new_constraint (fun x p => c_compute final x p) (fun x p => c_phi c x p) (Some alpha)
          (c_params final) kw).
