(** Specification vocabulary for the base and simplex properties.  These
    definitions do not use the functions of the model, only its data types. *)
From Coq Require Import String Reals List Bool ZArith.
From Verif Require Import Prelude Vec ModelBase ModelController.
Import ListNotations.
Local Open Scope R_scope.

(** The bound that applies to component [i]: a number or a one-element array applies
    to all components, a longer array elementwise. *)
Definition bound_at (b : option bnd) (i : nat) : option R :=
  match b with
  | None => None
  | Some (BScalar r) => Some r
  | Some (BVec [r]) => Some r
  | Some (BVec v) => nth_error v i
  end.

Definition above (b : option bnd) (w : vec) : Prop :=
  forall i x l, nth_error w i = Some x -> bound_at b i = Some l -> l <= x.
Definition below (b : option bnd) (w : vec) : Prop :=
  forall i x h, nth_error w i = Some x -> bound_at b i = Some h -> x <= h.
(** [w] respects the bounds. *)
Definition within (b : bounds) (w : vec) : Prop := above (b_low b) w /\ below (b_high b) w.
(** low <= high wherever both are given. *)
Definition consistent (b : bounds) : Prop :=
  forall i l h, bound_at (b_low b) i = Some l -> bound_at (b_high b) i = Some h -> l <= h.
(** The bound gives a value for each component of a control of length [n] (a number, a
    one-element array, or an array of that length). *)
Definition fits1 (b : option bnd) (n : nat) : Prop :=
  match b with
  | Some (BVec v) => length v = n \/ length v = 1%nat
  | _ => True
  end.
Definition fits (b : bounds) (n : nat) : Prop := fits1 (b_low b) n /\ fits1 (b_high b) n.

(** Euclidean distance, squared. *)
Fixpoint dist2 (u v : vec) : R :=
  match u, v with
  | a :: t, b :: t' => (a - b) * (a - b) + dist2 t t'
  | _, _ => 0
  end.

(** An enabled constraint, with its bias and present parameters, holds at [x]. *)
Definition holds {X P} (c : constraint X P) (x : X) : Prop :=
  c_enabled c = true -> 0 <= c_fun c x (c_params c) + c_bias c.
(** Every constraint of a dictionary holds at [x]. *)
Definition safe {X P} (cs : dict (constraint X P)) (x : X) : Prop :=
  forall k c, In (k, c) cs -> holds c x.

(** [sub] is obtained from [l] by dropping elements. *)
Inductive subsequence {A} : list A -> list A -> Prop :=
| sub_nil : subsequence [] []
| sub_drop a s l : subsequence s l -> subsequence s (a :: l)
| sub_keep a s l : subsequence s l -> subsequence (a :: s) (a :: l).

(** The python dictionary invariant: no key twice. *)
Definition distinct_keys {V} (d : dict V) : Prop := NoDup (map fst d).

(** One step of a plant under its backup controller: the controller, in internal state
    [cs], asks for [u]; [w] is [u] moved into the bounds; the plant goes to [x']. *)
Definition boxed (b : bounds) (u w : vec) : Prop :=
  length w = length u /\
  forall i x y, nth_error u i = Some x -> nth_error w i = Some y ->
    y = (let m := match bound_at (b_low b) i with Some l => Rmax x l | None => x end in
         match bound_at (b_high b) i with Some h => Rmin m h | None => m end).

Definition backup_step {X} (b : bounds) (pred : X -> R -> vec -> res X)
    (gen : X -> R -> cstate -> gout) (dt : R) (x : X) (cs : cstate) (x' : X) (cs' : cstate) : Prop :=
  exists u w, gen x dt cs = GPair u cs' /\ boxed b u w /\ pred x dt w = Ok x'.

(** [n] steps under the backup controller; [xs] are the states after [x]. *)
Inductive backup_path {X} (b : bounds) (pred : X -> R -> vec -> res X)
    (gen : X -> R -> cstate -> gout) (dt : R) : nat -> X -> cstate -> list X -> Prop :=
| bp_nil x cs : backup_path b pred gen dt 0 x cs []
| bp_cons n x cs x' cs' xs :
    backup_step b pred gen dt x cs x' cs' ->
    backup_path b pred gen dt n x' cs' xs ->
    backup_path b pred gen dt (S n) x cs (x' :: xs).

(** How many whole steps fit in a window: the floor of window / dt. *)
Definition window_steps (window dt : R) (n : nat) : Prop :=
  0 < dt /\ INR n * dt <= window < (INR n + 1) * dt.

(** A controller state that can be saved: None, an array or a dictionary of arrays. *)
Definition savable (cs : cstate) : Prop := forall t, cs <> CSOther t.

(** A safe recovery: [n] steps under the backup controller, every state reached safe. *)
Definition safe_plan {X P} (cs : dict (constraint X P)) (b : bounds) (pred : X -> R -> vec -> res X)
    (gen : X -> R -> cstate -> gout) (dt : R) (n : nat) (x : X) (st : cstate) : Prop :=
  exists xs, backup_path b pred gen dt n x st xs /\ Forall (safe cs) xs.
