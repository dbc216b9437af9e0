(** Model of run_time_assurance/controller.py. *)
From Coq Require Import String Reals List Bool ZArith.
From Verif Require Import Prelude Vec ModelBase.
Import ListNotations.
Local Open Scope R_scope.
Local Open Scope monad_scope.

(** The values a controller state may have (controller.py 42-50): None, an array, a
    dictionary of arrays, or something else (which cannot be copied). *)
Inductive cstate : Type :=
| CSNone
| CSArray (v : vec)
| CSDict (d : dict vec)
| CSOther (tag : nat).

(** What a subclass's _generate_control gives back (controller.py 69-72): a pair of a
    control and a controller state, some other value, or an exception. *)
Inductive gout : Type :=
| GPair (u : vec) (cs : cstate)
| GOther
| GRaise (e : exn).

(** The attributes of RTABackupController (controller.py 18-24).  jit_enable and the
    composed functions are not modelled. *)
Record ctl : Type := mkCtl {
  ctl_initial : cstate;
  ctl_saved : cstate;
  ctl_state : cstate }.

Definition set_ctl_saved (c : cstate) (s : ctl) : ctl := mkCtl (ctl_initial s) c (ctl_state s).
Definition set_ctl_state (c : cstate) (s : ctl) : ctl := mkCtl (ctl_initial s) (ctl_saved s) c.

(** controller.py 42-52, _copy_controller_state. *)
Definition copy_controller_state (c : cstate) : res cstate :=
  match c with
  | CSNone => Ok CSNone
  | CSArray v => Ok (CSArray v)
  | CSDict d => Ok (CSDict d)
  | CSOther _ => Err TypeError
  end.

(** controller.py 18-24, RTABackupController.__init__. *)
Definition ctl_init (initial : cstate) : res ctl :=
  c0 <-- copy_controller_state initial ;;;
  c1 <-- copy_controller_state c0 ;;;
  Ok (mkCtl c0 CSNone c1).

(** controller.py 36-40, reset. *)
Definition ctl_reset : M ctl unit :=
  s <- get ;;
  c <- lift (copy_controller_state (ctl_initial s)) ;;
  modify (set_ctl_state c).

(** controller.py 54-73, generate_control. *)
Definition generate_control {X} (gen : X -> R -> cstate -> gout) (x : X) (dt : R) : M ctl vec :=
  s <- get ;;
  match gen x dt (ctl_state s) with
  | GPair u cs => modify (set_ctl_state cs) ;; ret u
  | GOther => raise (ValueError "_generate_control should return 2 values")
  | GRaise e => raise e
  end.

(** controller.py 75-106, generate_control_with_controller_state: the same function
    on an explicit controller state.  The result is whatever _generate_control gives. *)
Definition generate_control_with_controller_state {X} (gen : X -> R -> cstate -> gout)
    (x : X) (dt : R) (cs : cstate) : M ctl gout :=
  ret (gen x dt cs).

(** controller.py 157-161, save. *)
Definition ctl_save : M ctl unit :=
  s <- get ;;
  c <- lift (copy_controller_state (ctl_state s)) ;;
  modify (set_ctl_saved c).

(** controller.py 163-169, restore. *)
Definition ctl_restore : M ctl unit :=
  modify (fun s => set_ctl_state (ctl_saved s) s).

(** base.py 407-424, BackupControlBasedRTA.backup_control: the controller's output
    clipped to the module's bounds. *)
Definition backup_control {X} (b : bounds) (gen : X -> R -> cstate -> gout) (x : X) (dt : R)
  : M ctl vec :=
  u <- generate_control gen x dt ;;
  lift (clip b u).
