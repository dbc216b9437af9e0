(** Specification of sharing: what a program sees if nothing is shared. *)
From Coq Require Import String Reals List Bool.
From Verif Require Import Prelude Vec ModelBase ModelHeap.
Import ListNotations.
Local Open Scope R_scope.

(** The same programs in a world where every array is a value of its own: the module's
    attributes and bounds, the caller's arrays, and the arrays from generate_info. *)
Record vworld (Y : Type) : Type := mkV {
  v_mod : rta Y;
  v_bounds : bounds;
  v_own : list vec;
  v_info : list vec }.
Arguments mkV {Y}.
Arguments v_mod {Y}.
Arguments v_bounds {Y}.
Arguments v_own {Y}.
Arguments v_info {Y}.

Definition replace_nth (n : nat) (v : vec) (l : list vec) : list vec :=
  if Nat.ltb n (length l) then firstn n l ++ v :: skipn (S n) l else l.
Definition listed (u : option vec) : list vec := match u with Some v => [v] | None => [] end.

(** [call] is the module's filter_control on values. *)
Definition vstep {Y I} (call : bounds -> I -> R -> vec -> M (rta Y) vec) (reset_ext : Y -> Y) (o : hop I) (v : vworld Y)
  : option (res vec) * vworld Y :=
  match o with
  | HNew a => (None, mkV (v_mod v) (v_bounds v) (v_own v ++ [a]) (v_info v))
  | HWrite (Own i) a => (None, mkV (v_mod v) (v_bounds v) (replace_nth i a (v_own v)) (v_info v))
  | HWrite (Info j) a => (None, mkV (v_mod v) (v_bounds v) (v_own v) (replace_nth j a (v_info v)))
  | HCall i dt r =>
      match (match r with Own k => nth_error (v_own v) k | Info k => nth_error (v_info v) k end) with
      | None => (None, v)
      | Some u =>
          match call (v_bounds v) i dt u (v_mod v) with
          | (Ok a, m) => (Some (Ok a), mkV m (v_bounds v) (v_own v ++ [a]) (v_info v))
          | (Err e, m) => (Some (Err e), mkV m (v_bounds v) (v_own v) (v_info v))
          end
      end
  | HInfo => (None, mkV (v_mod v) (v_bounds v) (v_own v)
                      (v_info v ++ listed (control_desired (v_mod v)) ++ listed (control_actual (v_mod v))))
  | HReset => (None, mkV (rta_reset reset_ext (v_mod v)) (v_bounds v) (v_own v) (v_info v))
  | HEnable b => (None, mkV (set_enable b (v_mod v)) (v_bounds v) (v_own v) (v_info v))
  end.
Fixpoint vrun {Y I} (call : bounds -> I -> R -> vec -> M (rta Y) vec) (reset_ext : Y -> Y) (os : list (hop I)) (v : vworld Y)
  : list (option (res vec)) * vworld Y :=
  match os with
  | [] => ([], v)
  | o :: os' => let (b, v1) := vstep call reset_ext o v in
                let (bs, v2) := vrun call reset_ext os' v1 in (b :: bs, v2)
  end.

(** The module as constructed, on values. *)
Definition given_bound (arrays : list vec) (a : barg) : option bnd :=
  match a with
  | ANone => None
  | AScalar x => Some (BScalar x)
  | AList v => Some (BVec v)
  | AArray i => Some (BVec (nth i arrays []))
  end.
Definition vstart {Y} (arrays : list vec) (low high : barg) (y : Y) : vworld Y :=
  mkV (rta_init y) (mkBounds (given_bound arrays low) (given_bound arrays high)) arrays [].

(** What a program sees of a world with references. *)
Definition seen {Y} (w : world Y) : vworld Y :=
  mkV (contents (w_heap w) (w_mod w)) (bounds_of (w_heap w) (w_low w) (w_high w))
    (map (hget (w_heap w)) (w_own w)) (map (hget (w_heap w)) (w_info w)).

(** The bounds arguments name arrays of the caller. *)
Definition names_array (arrays : list vec) (a : barg) : Prop :=
  match a with AArray i => (i < length arrays)%nat | _ => True end.
(** The operation modifies no array from generate_info, and no array given as a bound. *)
Definition no_info_write {I} (o : hop I) : Prop := match o with HWrite (Info _) _ => False | _ => True end.
Definition no_bound_write {I} (low high : barg) (o : hop I) : Prop :=
  match o with HWrite (Own i) _ => low <> AArray i /\ high <> AArray i | _ => True end.

(** A subclass's compute_filtered_control on references that does what [c] does on values: it
    modifies no existing array, it does not assign control_desired, and if it assigns
    control_actual, then an array of its own making.  It may return any array. *)
Definition respects {Y I} (hc : hbnd -> hbnd -> I -> R -> loc -> HM Y loc)
    (c : bounds -> I -> R -> vec -> M (rta Y) vec) : Prop :=
  forall lo hi i dt l h m r h' m', (l < length h)%nat ->
  (forall k, lo = HArray k \/ hi = HArray k \/ h_desired m = Some k \/ h_actual m = Some k -> (k < length h)%nat) ->
  hc lo hi i dt l (h, m) = (r, (h', m')) ->
  (exists more, h' = h ++ more) /\
  h_desired m' = h_desired m /\
  (h_actual m' = h_actual m \/ exists a, h_actual m' = Some a /\ (length h <= a < length h')%nat) /\
  match r with
  | Ok a => (a < length h')%nat /\ c (bounds_of h lo hi) i dt (hget h l) (contents h m) = (Ok (hget h' a), contents h' m')
  | Err e => c (bounds_of h lo hi) i dt (hget h l) (contents h m) = (Err e, contents h' m')
  end.
