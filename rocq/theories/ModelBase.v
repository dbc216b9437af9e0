(** Model of run_time_assurance/rta/base.py and of the attributes of
    constraint objects from run_time_assurance/constraint.py. *)
From Coq Require Import String Reals List Bool ZArith.
From Verif Require Import Prelude Vec.
Import ListNotations.
Local Open Scope R_scope.
Local Open Scope monad_scope.

(** A control bound: a number, or an array (base.py 36-43 turns a list into an
    array).  [None] is modelled by [option]. *)
Inductive bnd : Type :=
| BScalar (r : R)
| BVec (v : vec).

Record bounds : Type := mkBounds { b_low : option bnd; b_high : option bnd }.

(** numpy broadcasting of a vector with a bound, for a binary elementwise
    operation: a scalar or a one-element array meets every element; a one-element
    vector is stretched; other length mismatches raise ValueError. *)
Definition bcast (f : R -> R -> R) (u : vec) (b : bnd) : res vec :=
  match b with
  | BScalar r => Ok (map (fun x => f x r) u)
  | BVec v =>
      if Nat.eqb (length u) (length v) then Ok (map2 f u v)
      else match v, u with
           | [r], _ => Ok (map (fun x => f x r) u)
           | _, [x] => Ok (map (f x) v)
           | _, _ => Err (ValueError "operands could not be broadcast together")
           end
  end.

(** base.py 124-138, RTAModule._clip_control, and 282-296, _clip_control_jax:
    if either bound is set, np.clip(control, low, high), that is the minimum with
    [high] of the maximum with [low], a side that is None being left out.
    Simplification: the two functions differ in nothing but the array library and
    the class of the exception raised on a shape mismatch. *)
Definition clip (b : bounds) (u : vec) : res vec :=
  match b_low b, b_high b with
  | None, None => Ok u
  | Some l, None => bcast Rmax u l
  | None, Some h => bcast Rmin u h
  | Some l, Some h => v <-- bcast Rmax u l ;;; bcast Rmin v h
  end.

(** The attributes of RTAModule set by base.py 45-48, with those of a subclass in
    [ext]. *)
Record rta (X : Type) : Type := mkRta {
  enable : bool;
  intervening : bool;
  control_desired : option vec;
  control_actual : option vec;
  ext : X }.
Arguments mkRta {X}.
Arguments enable {X}.
Arguments intervening {X}.
Arguments control_desired {X}.
Arguments control_actual {X}.
Arguments ext {X}.

Definition set_enable {X} (b : bool) (s : rta X) : rta X :=
  mkRta b (intervening s) (control_desired s) (control_actual s) (ext s).
Definition set_intervening {X} (b : bool) (s : rta X) : rta X :=
  mkRta (enable s) b (control_desired s) (control_actual s) (ext s).
Definition set_desired {X} (u : option vec) (s : rta X) : rta X :=
  mkRta (enable s) (intervening s) u (control_actual s) (ext s).
Definition set_actual {X} (u : option vec) (s : rta X) : rta X :=
  mkRta (enable s) (intervening s) (control_desired s) u (ext s).
Definition set_ext {X} (x : X) (s : rta X) : rta X :=
  mkRta (enable s) (intervening s) (control_desired s) (control_actual s) x.

(** base.py 29-50, RTAModule.__init__. *)
Definition rta_init {X} (x : X) : rta X := mkRta true false None None x.

(** base.py 52-58, RTAModule.reset; [reset_ext] is what the subclass adds
    (nothing, in RTAModule itself). *)
Definition rta_reset {X} (reset_ext : X -> X) (s : rta X) : rta X :=
  mkRta true false None None (reset_ext (ext s)).

(** base.py 60-85, RTAModule.filter_control.  [compute] is the subclass's
    compute_filtered_control.  np.copy and np.array copies are the identity on
    values; their effect on aliasing is modelled in ModelHeap.v. *)
Definition filter_control {X I} (b : bounds) (compute : I -> R -> vec -> M (rta X) vec)
    (i : I) (dt : R) (u : vec) : M (rta X) vec :=
  modify (set_desired (Some u)) ;;
  s <- get ;;
  if enable s then
    (v <- compute i dt u ;;
     w <- lift (clip b v) ;;
     modify (set_actual (Some w)) ;;
     ret w)
  else
    (modify (set_actual (Some u)) ;;
     ret u).

(** Values in the info dictionary. *)
Inductive ival : Type :=
| IBool (b : bool)
| IControl (u : option vec)
| IValues (d : dict R).

Definition k_enable := "enable"%string.
Definition k_intervening := "intervening"%string.
Definition k_desired := "control_desired"%string.
Definition k_actual := "control_actual"%string.
Definition k_fresh := "constraints"%string.
Definition k_stale := "constraints_at_last_state"%string.

(** base.py 107-122, RTAModule.generate_info. *)
Definition rta_info {X} (s : rta X) : dict ival :=
  [ (k_enable, IBool (enable s));
    (k_intervening, IBool (intervening s));
    (k_desired, IControl (control_desired s));
    (k_actual, IControl (control_actual s)) ].

(** ** Constraint objects *)

(** constraint.py 39-43: subsampling settings.  [num_least] is
    subsample_constraints_num_least. *)
Record subsample : Type := mkSub {
  num_check_all : Z;
  skip_length : Z;
  num_least : option Z;
  keep_first : bool;
  keep_last : bool }.

(** constraint.py 39-43, the defaults. *)
Definition sub_default : subsample := mkSub (-1) 1 None false false.

(** The attributes of a ConstraintModule (constraint.py 80-103).  [c_fun] is
    _compute, [c_phi] is _phi and [c_grad] is jax.grad of _compute (an oracle).
    [c_alpha] and [c_alpha_neg] are the optional strengtheners.  The user may
    reassign [c_params] and [c_enabled] at any time. *)
Record constraint (X P : Type) : Type := mkConstraint {
  c_fun : X -> P -> R;
  c_phi : X -> P -> R;
  c_grad : X -> P -> vec;
  c_alpha : option (R -> R);
  c_alpha_neg : option (R -> R);
  c_bias : R;
  c_bias_neg : R;
  c_slack : option R;
  c_sub : subsample;
  c_params : P;
  c_enabled : bool }.
Arguments mkConstraint {X P}.
Arguments c_fun {X P}.
Arguments c_phi {X P}.
Arguments c_grad {X P}.
Arguments c_alpha {X P}.
Arguments c_alpha_neg {X P}.
Arguments c_bias {X P}.
Arguments c_bias_neg {X P}.
Arguments c_slack {X P}.
Arguments c_sub {X P}.
Arguments c_params {X P}.
Arguments c_enabled {X P}.

Definition set_c_params {X P} (p : P) (c : constraint X P) : constraint X P :=
  mkConstraint (c_fun c) (c_phi c) (c_grad c) (c_alpha c) (c_alpha_neg c) (c_bias c)
    (c_bias_neg c) (c_slack c) (c_sub c) p (c_enabled c).
Definition set_c_enabled {X P} (b : bool) (c : constraint X P) : constraint X P :=
  mkConstraint (c_fun c) (c_phi c) (c_grad c) (c_alpha c) (c_alpha_neg c) (c_bias c)
    (c_bias_neg c) (c_slack c) (c_sub c) (c_params c) b.

(** constraint.py 133-149, ConstraintModule.compute (and __call__, 115-131). *)
Definition c_compute {X P} (c : constraint X P) (x : X) (p : P) : R :=
  c_fun c x p + c_bias c.

(** constraint.py 191-206, ConstraintModule.alpha: an assertion that a strengthener
    is present. *)
Definition c_alpha_at {X P} (c : constraint X P) (h : R) : res R :=
  match c_alpha c with Some a => Ok (a h) | None => Err AssertionError end.

(** constraint.py 208-226, ConstraintModule.alpha_negative: ten times alpha unless
    an own strengthener is given. *)
Definition c_alpha_negative_at {X P} (c : constraint X P) (h : R) : res R :=
  match c_alpha_neg c with
  | None => match c_alpha c with Some a => Ok (a h * 10) | None => Err AssertionError end
  | Some a => Ok (a h)
  end.

(** ** ConstraintBasedRTA *)

(** The attributes of ConstraintBasedRTA (base.py 182-205): the constraint
    dictionary, the caches of parameters and enabled flags, the last constraint
    values and whether they are stale, with those of a subclass in [cb_ext].
    jit settings are not modelled. *)
Record cb (X P Y : Type) : Type := mkCb {
  cb_constraints : dict (constraint X P);
  cb_params : dict P;
  cb_enabled : dict bool;
  cb_values : dict R;
  cb_stale : bool;
  cb_ext : Y }.
Arguments mkCb {X P Y}.
Arguments cb_constraints {X P Y}.
Arguments cb_params {X P Y}.
Arguments cb_enabled {X P Y}.
Arguments cb_values {X P Y}.
Arguments cb_stale {X P Y}.
Arguments cb_ext {X P Y}.

Definition set_constraints {X P Y} (d : dict (constraint X P)) (s : cb X P Y) : cb X P Y :=
  mkCb d (cb_params s) (cb_enabled s) (cb_values s) (cb_stale s) (cb_ext s).
Definition set_caches {X P Y} (p : dict P) (e : dict bool) (s : cb X P Y) : cb X P Y :=
  mkCb (cb_constraints s) p e (cb_values s) (cb_stale s) (cb_ext s).
Definition set_values {X P Y} (v : dict R) (st : bool) (s : cb X P Y) : cb X P Y :=
  mkCb (cb_constraints s) (cb_params s) (cb_enabled s) v st (cb_ext s).
Definition set_cb_ext {X P Y} (y : Y) (s : cb X P Y) : cb X P Y :=
  mkCb (cb_constraints s) (cb_params s) (cb_enabled s) (cb_values s) (cb_stale s) y.

(** base.py 207-211, _update_params: for each constraint, in order, write its
    parameters and its flag into the two caches. *)
Definition update_params {X P Y} (s : cb X P Y) : cb X P Y :=
  set_caches
    (fold_left (fun d kc => dict_set d (fst kc) (c_params (snd kc))) (cb_constraints s) (cb_params s))
    (fold_left (fun d kc => dict_set d (fst kc) (c_enabled (snd kc))) (cb_constraints s) (cb_enabled s))
    s.

(** base.py 183-191: the constraints_to_use loop of the constructor. *)
Definition select_constraints {X P} (defined : dict (constraint X P))
    (to_use : option (list string)) : res (dict (constraint X P)) :=
  match to_use with
  | None => Ok defined
  | Some names =>
      let chosen := filter (fun kc => existsb (String.eqb (fst kc)) names) defined in
      if Nat.eqb (length chosen) 0 then Err (ValueError "No constraints are used")
      else Ok chosen
  end.

(** base.py 162-205, ConstraintBasedRTA.__init__: [defined] is the result of
    _setup_constraints.  dict.fromkeys followed by _update_params gives caches with
    one entry per constraint; the model starts from empty caches, to which the same
    keys are added in the same order. *)
Definition cb_init {X P Y} (defined : dict (constraint X P)) (to_use : option (list string))
    (y : Y) : res (cb X P Y) :=
  cs <-- select_constraints defined to_use ;;;
  Ok (update_params (mkCb cs [] [] [] false y)).

(** base.py 323-337, _update_constraint_values. *)
Definition update_constraint_values_at {X P Y} (x : X) (stale : bool) (s : cb X P Y) : cb X P Y :=
  set_values (map (fun kc => (fst kc, c_phi (snd kc) x (c_params (snd kc)))) (cb_constraints s))
             stale s.

(** What the caller passes as a state: an array, or anything else. *)
Inductive input (X : Type) : Type :=
| InArray (x : X)
| InOther.
Arguments InArray {X} x.
Arguments InOther {X}.

(** base.py 298-309, _get_state: an assertion that the input is an array. *)
Definition base_get_state {S X} (i : input X) : M S X :=
  match i with InArray x => ret x | InOther => raise AssertionError end.

(** Changing the extension of an RTA object. *)
Definition on_ext {X} (f : X -> X) (s : rta X) : rta X := set_ext (f (ext s)) s.

(** base.py 213-238, ConstraintBasedRTA.compute_filtered_control.  [get_state] is
    the subclass's _get_state and [filter] its _filter_control. *)
Definition cb_compute {X P Y I} (get_state : I -> M (rta (cb X P Y)) X)
    (filter : X -> R -> vec -> M (rta (cb X P Y)) vec)
    (i : I) (dt : R) (u : vec) : M (rta (cb X P Y)) vec :=
  modify (on_ext update_params) ;;
  x <- get_state i ;;
  modify (on_ext (update_constraint_values_at x true)) ;;
  v <- filter x dt u ;;
  modify (set_actual (Some v)) ;;
  ret v.

(** base.py 311-321, update_constraint_values. *)
Definition update_constraint_values {X P Y I} (get_state : I -> M (rta (cb X P Y)) X)
    (i : I) : M (rta (cb X P Y)) unit :=
  x <- get_state i ;;
  modify (on_ext (update_constraint_values_at x false)).

(** base.py 339-356, ConstraintBasedRTA.generate_info. *)
Definition cb_info {X P Y} (s : rta (cb X P Y)) : dict ival :=
  dict_set (rta_info s) (if cb_stale (ext s) then k_stale else k_fresh)
           (IValues (cb_values (ext s))).

(** ** CascadedRTA *)

(** A member of a cascade, seen from outside: its filter_control and its
    intervening attribute.  [m_step] returns the outcome and the member after the
    call; [m_flag] reads the flag. *)
Record member (I : Type) : Type := mkMember {
  m_state : Type;
  m_cur : m_state;
  m_step : I -> R -> vec -> M m_state vec;
  m_flag : m_state -> bool }.
Arguments mkMember {I}.
Arguments m_state {I}.
Arguments m_cur {I}.
Arguments m_step {I}.
Arguments m_flag {I}.

Definition member_with {I} (m : member I) (s : m_state m) : member I :=
  mkMember (m_state m) s (m_step m) (m_flag m).

(** base.py 370-373: the loop over the members.  The accumulated members are kept
    in order; [flag] is the cascade's own intervening attribute.  On an exception
    the members after the failing one are left as they were. *)
Fixpoint cascade_loop {I} (i : I) (dt : R) (ms : list (member I)) (u : vec) (flag : bool)
  : res vec * list (member I) * bool :=
  match ms with
  | [] => (Ok u, [], flag)
  | m :: ms' =>
      match m_step m i dt u (m_cur m) with
      | (Err e, s') => (Err e, member_with m s' :: ms', flag)
      | (Ok v, s') =>
          match cascade_loop i dt ms' v (if m_flag m s' then true else flag) with
          | (r, ms'', flag') => (r, member_with m s' :: ms'', flag')
          end
      end
  end.

(** base.py 367-375, CascadedRTA.compute_filtered_control. *)
Definition cascade_compute {I} (i : I) (dt : R) (u : vec) : M (rta (list (member I))) vec :=
  fun s =>
    match cascade_loop i dt (ext s) u false with
    | (r, ms, flag) => (r, set_intervening flag (set_ext ms s))
    end.
