(** Clipping and the simplex monitor on IEEE numbers.  The other models use real numbers; here
    numbers are those of Coq's specification of binary64, with infinities and not-a-number. *)
From Coq Require Import ZArith List Bool Floats.SpecFloat.
Import ListNotations.

Definition float : Type := spec_float.
Definition is_nan (x : float) : bool := match x with S754_nan => true | _ => false end.
Definition f_zero : float := S754_zero false.

(** numpy's maximum and minimum, as in np.clip and jnp.clip: not-a-number in either argument
    is passed on. *)
Definition f_max (a b : float) : float := if is_nan a then a else if SFltb b a then a else b.
Definition f_min (a b : float) : float := if is_nan a then a else if SFltb a b then a else b.

(** A bound: None, or one number per component (a scalar bound is repeated). *)
Definition f_bound : Type := option (list float).
Fixpoint zip (f : float -> float -> float) (xs ys : list float) : list float :=
  match xs, ys with x :: xs', y :: ys' => f x y :: zip f xs' ys' | _, _ => [] end.
Definition f_apply (f : float -> float -> float) (b : f_bound) (u : list float) : list float :=
  match b with None => u | Some v => zip f u v end.
(** base.py 124-138, _clip_control, and base.py 282-296, _clip_control_jax. *)
Definition f_clip (low high : f_bound) (u : list float) : list float := f_apply f_min high (f_apply f_max low u).

(** simplex.py 134-172, _constraint_violation: each constraint is its enable flag and its values
    along the trajectory. *)
Definition f_violation (constraints : list (bool * list float)) : bool :=
  existsb (fun c : bool * list float => existsb (fun v => SFltb v f_zero) (if fst c then snd c else map (fun _ => f_zero) (snd c))) constraints.

(** What the calls of a simplex module use: the bounds, the backup control, and for a state and a
    desired control the constraint values along the monitored trajectory, all as computed by the
    floating point code. *)
Record f_module (X : Type) : Type := mkF {
  f_low : f_bound;
  f_high : f_bound;
  f_backup : X -> list float;
  f_values : X -> list float -> list (bool * list float) }.
Arguments mkF {X}.
Arguments f_low {X}.
Arguments f_high {X}.
Arguments f_backup {X}.
Arguments f_values {X}.

(** simplex.py 69-91 with base.py 60-85: filter_control of an enabled module without latch
    (latch_time 0); the control returned and the intervening flag. *)
Definition f_filter {X} (m : f_module X) (x : X) (u : list float) : list float * bool :=
  let violated := f_violation (f_values m x u) in
  let v := if violated then f_clip (f_low m) (f_high m) (f_backup m x) else u in
  (f_clip (f_low m) (f_high m) v, violated).
