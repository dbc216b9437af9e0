(** Arrays as mutable objects: the copies that run_time_assurance/rta/base.py makes of the
    controls handed to and from the caller.  The other models treat arrays as values. *)
From Coq Require Import String Reals List Bool.
From Verif Require Import Prelude Vec ModelBase.
Import ListNotations.
Local Open Scope R_scope.
Local Open Scope monad_scope.

(** The heap: numpy arrays by address.  New arrays get the next address; nothing is freed. *)
Definition loc := nat.
Definition heap := list vec.
Definition hget (h : heap) (l : loc) : vec := nth l h [].
(** In-place modification of an array by the caller, a[:] = v. *)
Fixpoint hput (h : heap) (l : loc) (v : vec) : heap :=
  match h, l with
  | [], _ => []
  | _ :: h', O => v :: h'
  | x :: h', S l' => x :: hput h' l' v
  end.

(** The attributes of an RTA object, as in ModelBase.rta, with arrays by reference. *)
Record hrta (Y : Type) : Type := mkHrta {
  h_enable : bool;
  h_intervening : bool;
  h_desired : option loc;
  h_actual : option loc;
  h_ext : Y }.
Arguments mkHrta {Y}.
Arguments h_enable {Y}.
Arguments h_intervening {Y}.
Arguments h_desired {Y}.
Arguments h_actual {Y}.
Arguments h_ext {Y}.

(** The attributes with the contents of the arrays. *)
Definition contents {Y} (h : heap) (m : hrta Y) : rta Y :=
  mkRta (h_enable m) (h_intervening m) (option_map (hget h) (h_desired m)) (option_map (hget h) (h_actual m)) (h_ext m).

Definition HM (Y V : Type) := M (heap * hrta Y) V.

(** A new array (np.copy, np.array, np.clip and functions of jax). *)
Definition new_array {Y} (v : vec) : HM Y loc := fun s => (Ok (length (fst s)), (fst s ++ [v], snd s)).
Definition read {Y} (l : loc) : HM Y vec := fun s => (Ok (hget (fst s) l), s).
(** np.copy(a) and np.array(a). *)
Definition copy {Y} (l : loc) : HM Y loc := v <- read l ;; new_array v.
Definition on_mod {Y} (f : hrta Y -> hrta Y) : HM Y unit := modify (fun s => (fst s, f (snd s))).
Definition put_desired {Y} (l : option loc) (m : hrta Y) : hrta Y :=
  mkHrta (h_enable m) (h_intervening m) l (h_actual m) (h_ext m).
Definition put_actual {Y} (l : option loc) (m : hrta Y) : hrta Y :=
  mkHrta (h_enable m) (h_intervening m) (h_desired m) l (h_ext m).
Definition put_enable {Y} (b : bool) (m : hrta Y) : hrta Y :=
  mkHrta b (h_intervening m) (h_desired m) (h_actual m) (h_ext m).

(** The bounds attributes: None, a number, or an array by reference. *)
Inductive hbnd : Type := HNone | HScalar (x : R) | HArray (l : loc).
Definition bnd_of (h : heap) (b : hbnd) : option bnd :=
  match b with HNone => None | HScalar x => Some (BScalar x) | HArray l => Some (BVec (hget h l)) end.
Definition bounds_of (h : heap) (low high : hbnd) : bounds := mkBounds (bnd_of h low) (bnd_of h high).

(** base.py 124-138, _clip_control: np.clip makes a new array; without bounds the argument
    itself is returned. *)
Definition h_clip {Y} (low high : hbnd) (l : loc) : HM Y loc :=
  match low, high with
  | HNone, HNone => ret l
  | _, _ =>
      s <- get ;;
      w <- lift (clip (bounds_of (fst s) low high) (hget (fst s) l)) ;;
      new_array w
  end.

(** base.py 60-85, RTAModule.filter_control; [compute] is the subclass's
    compute_filtered_control, which is given the caller's array itself. *)
Definition h_filter_control {Y I} (low high : hbnd) (compute : I -> R -> loc -> HM Y loc)
    (i : I) (dt : R) (l : loc) : HM Y loc :=
  d <- copy l ;;
  on_mod (put_desired (Some d)) ;;
  s <- get ;;
  (if h_enable (snd s) then
     (v <- compute i dt l ;;
      w <- h_clip low high v ;;
      a <- copy w ;;
      on_mod (put_actual (Some a)))
   else
     (a <- copy l ;;
      on_mod (put_actual (Some a)))) ;;
  s <- get ;;
  match h_actual (snd s) with
  | Some a => copy a
  | None => new_array []
  end.

(** base.py 52-58, reset. *)
Definition h_reset {Y} (reset_ext : Y -> Y) (m : hrta Y) : hrta Y := mkHrta true false None None (reset_ext (h_ext m)).

(** base.py 107-122, generate_info: the two entries that are arrays are the module's own. *)
Definition h_info_arrays {Y} (m : hrta Y) : list loc :=
  match h_desired m with Some l => [l] | None => [] end ++ match h_actual m with Some l => [l] | None => [] end.

(** Running code that handles jax arrays, which cannot be modified, and that does not assign
    control_desired or control_actual. *)
Definition immutable {Y V} (f : M (rta Y) V) : HM Y V :=
  fun s => let (r, c) := f (contents (fst s) (snd s)) in
           (r, (fst s, mkHrta (enable c) (intervening c) (h_desired (snd s)) (h_actual (snd s)) (ext c))).

(** base.py 213-238, ConstraintBasedRTA.compute_filtered_control.  [filter] may use the bounds
    (_clip_control_jax), which it reads from the module's attributes. *)
Definition h_cb_compute {X P Y I} (get_state : I -> M (rta (cb X P Y)) X)
    (filter : bounds -> X -> R -> vec -> M (rta (cb X P Y)) vec)
    (low high : hbnd) (i : I) (dt : R) (l : loc) : HM (cb X P Y) loc :=
  u <- read l ;;
  s <- get ;;
  w <- immutable (modify (on_ext update_params) ;;
                  x <- get_state i ;;
                  modify (on_ext (update_constraint_values_at x true)) ;;
                  filter (bounds_of (fst s) low high) x dt u) ;;
  a <- new_array w ;;
  on_mod (put_actual (Some a)) ;;
  new_array w.

(** base.py 29-43, the bounds arguments: a list is copied to a new array, an array is kept as
    it is.  The caller's arrays are the first of the heap. *)
Inductive barg : Type := ANone | AScalar (x : R) | AList (v : vec) | AArray (i : nat).
Definition keep_bound (h : heap) (a : barg) : heap * hbnd :=
  match a with
  | ANone => (h, HNone)
  | AScalar x => (h, HScalar x)
  | AList v => (h ++ [v], HArray (length h))
  | AArray i => (h, HArray i)
  end.

(** A program using a module: its arrays by number, those it made or got from filter_control
    ([Own]) and those it got from generate_info ([Info]). *)
Inductive ref : Type := Own (i : nat) | Info (j : nat).
Inductive hop (I : Type) : Type :=
| HNew (v : vec)
| HWrite (r : ref) (v : vec)
| HCall (i : I) (dt : R) (r : ref)
| HInfo
| HReset
| HEnable (b : bool).
Arguments HNew {I}.
Arguments HWrite {I}.
Arguments HCall {I}.
Arguments HInfo {I}.
Arguments HReset {I}.
Arguments HEnable {I}.

Record world (Y : Type) : Type := mkWorld {
  w_heap : heap;
  w_mod : hrta Y;
  w_low : hbnd;
  w_high : hbnd;
  w_own : list loc;
  w_info : list loc }.
Arguments mkWorld {Y}.
Arguments w_heap {Y}.
Arguments w_mod {Y}.
Arguments w_low {Y}.
Arguments w_high {Y}.
Arguments w_own {Y}.
Arguments w_info {Y}.

(** base.py 29-50: construction by a caller that holds the given arrays; as in python the lower
    bound is handled after the upper one. *)
Definition construct {Y} (arrays : list vec) (low high : barg) (y : Y) : world Y :=
  let (h1, hi) := keep_bound arrays high in
  let (h2, lo) := keep_bound h1 low in
  mkWorld h2 (mkHrta true false None None y) lo hi (seq 0 (length arrays)) [].

Definition array_at {Y} (w : world Y) (r : ref) : option loc :=
  match r with Own i => nth_error (w_own w) i | Info j => nth_error (w_info w) j end.

(** One operation and what it returns; an array number that is not in use does nothing. *)
Definition hstep {Y I} (compute : hbnd -> hbnd -> I -> R -> loc -> HM Y loc) (reset_ext : Y -> Y) (o : hop I) (w : world Y)
  : option (res vec) * world Y :=
  match o with
  | HNew v => (None, mkWorld (w_heap w ++ [v]) (w_mod w) (w_low w) (w_high w) (w_own w ++ [length (w_heap w)]) (w_info w))
  | HWrite r v =>
      match array_at w r with
      | None => (None, w)
      | Some l => (None, mkWorld (hput (w_heap w) l v) (w_mod w) (w_low w) (w_high w) (w_own w) (w_info w))
      end
  | HCall i dt r =>
      match array_at w r with
      | None => (None, w)
      | Some l =>
          match h_filter_control (w_low w) (w_high w) (compute (w_low w) (w_high w)) i dt l (w_heap w, w_mod w) with
          | (Ok a, (h, m)) => (Some (Ok (hget h a)), mkWorld h m (w_low w) (w_high w) (w_own w ++ [a]) (w_info w))
          | (Err e, (h, m)) => (Some (Err e), mkWorld h m (w_low w) (w_high w) (w_own w) (w_info w))
          end
      end
  | HInfo => (None, mkWorld (w_heap w) (w_mod w) (w_low w) (w_high w) (w_own w) (w_info w ++ h_info_arrays (w_mod w)))
  | HReset => (None, mkWorld (w_heap w) (h_reset reset_ext (w_mod w)) (w_low w) (w_high w) (w_own w) (w_info w))
  | HEnable b => (None, mkWorld (w_heap w) (put_enable b (w_mod w)) (w_low w) (w_high w) (w_own w) (w_info w))
  end.
Fixpoint hrun {Y I} (compute : hbnd -> hbnd -> I -> R -> loc -> HM Y loc) (reset_ext : Y -> Y) (os : list (hop I)) (w : world Y)
  : list (option (res vec)) * world Y :=
  match os with
  | [] => ([], w)
  | o :: os' => let (b, w1) := hstep compute reset_ext o w in
                let (bs, w2) := hrun compute reset_ext os' w1 in (b :: bs, w2)
  end.
