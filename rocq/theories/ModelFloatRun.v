(** Histories of a simplex module with latch on IEEE numbers: ModelFloat.v (controls and monitor) and
    ModelTime.v (latch clock) together. *)
From Coq Require Import ZArith List Bool Floats.SpecFloat.
From Flocq Require Import IEEE754.BinarySingleNaN.
From Verif Require Import ModelFloat ModelTime.
Import ListNotations.

(** The attributes of the module that matter here (base.py 55-58, simplex.py 30-33). *)
Record f_state : Type := mkFState {
  fs_enable : bool;
  fs_intervening : bool;
  fs_elapsed : double }.
Definition f_fresh : f_state := mkFState true false d_zero.

(** What a caller does: call the filter, reset, assign enable.  A call comes with what the rest of
    the code reads ([X]: the state, the step size and the state of the controller). *)
Inductive f_op (X : Type) : Type :=
| FCall (dt : double) (x : X) (u : list float)
| FReset
| FEnable (b : bool).
Arguments FCall {X}.
Arguments FReset {X}.
Arguments FEnable {X}.

(** simplex.py 69-91, _filter_control, with base.py 60-85, filter_control. *)
Definition f_call {X} (m : f_module X) (latch_time : double) (dt : double) (x : X) (u : list float) (s : f_state)
  : list float * f_state :=
  if fs_enable s then
    match d_latch_call latch_time (fs_intervening s, fs_elapsed s) dt (f_violation (f_values m x u)) with
    | (latched, (i, e)) =>
        let v := if latched then f_clip (f_low m) (f_high m) (f_backup m x)
                 else if i then f_clip (f_low m) (f_high m) (f_backup m x) else u in
        (f_clip (f_low m) (f_high m) v, mkFState true i e)
    end
  else (u, s).

(** base.py 52-58 with simplex.py 35-40, reset: latched_elapsed is not touched. *)
Definition f_step {X} (m : f_module X) (latch_time : double) (o : f_op X) (s : f_state) : option (list float) * f_state :=
  match o with
  | FCall dt x u => match f_call m latch_time dt x u s with (w, s') => (Some w, s') end
  | FReset => (None, mkFState true false (fs_elapsed s))
  | FEnable b => (None, mkFState b (fs_intervening s) (fs_elapsed s))
  end.
(** A history: for each operation the control returned, if it is a call, and the state after it. *)
Fixpoint f_run {X} (m : f_module X) (latch_time : double) (os : list (f_op X)) (s : f_state)
  : list (option (list float) * f_state) :=
  match os with
  | [] => []
  | o :: os' => let r := f_step m latch_time o s in r :: f_run m latch_time os' (snd r)
  end.
