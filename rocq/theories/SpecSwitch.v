(** Specification vocabulary for the docking task's switching modules in flight. *)
From Coq Require Import Reals List.
From Verif Require Import Prelude Vec ModelBase ModelController ModelSimplex ModelZoo SpecCwh.
Import ListNotations.
Local Open Scope R_scope.

(** A flight of [N] steps of length [T].  In step [i] the spacecraft (of mass 12, mean
    motion [n]) is at [x i t], [y i t], [z i t] after [t] seconds.  At the start of the step the
    module is called with the state and the desired control [ud i]; what it returns, [u i], is
    held during the step.  [s i] is the module before the call.  Where the spacecraft is at the
    end is what the module's own prediction gives for the control that is applied. *)
Record switching_flight_3d (n : R) (cfg : sx_cfg vec) (k : sx_kind) (T : R) (N : nat) (x y z vx vy vz : nat -> R -> R)
    (ud u : nat -> vec) (s : nat -> simplex vec zparams) : Prop := mkFlight3 {
  f3_call : forall i, (i < N)%nat -> simplex_filter_control cfg k (InArray [x i 0; y i 0; z i 0; vx i 0; vy i 0; vz i 0]) T (ud i) (s i) = (Ok (u i), s (S i));
  f3_move : forall i, (i < N)%nat -> cwh_forced n 12 T (fun _ => nth 0 (u i) 0) (fun _ => nth 1 (u i) 0) (fun _ => nth 2 (u i) 0)
                        (x i) (y i) (z i) (vx i) (vy i) (vz i);
  f3_pred : forall i, (i < N)%nat -> sc_pred cfg [x i 0; y i 0; z i 0; vx i 0; vy i 0; vz i 0] T (u i) = Ok [x i T; y i T; z i T; vx i T; vy i T; vz i T];
  f3_next : forall i, (i < N)%nat -> x (S i) 0 = x i T /\ y (S i) 0 = y i T /\ z (S i) 0 = z i T /\
                      vx (S i) 0 = vx i T /\ vy (S i) 0 = vy i T /\ vz (S i) 0 = vz i T }.

(** The same in the orbital plane. *)
Record switching_flight_2d (n : R) (cfg : sx_cfg vec) (k : sx_kind) (T : R) (N : nat) (x y vx vy : nat -> R -> R)
    (ud u : nat -> vec) (s : nat -> simplex vec zparams) : Prop := mkFlight2 {
  f2_call : forall i, (i < N)%nat -> simplex_filter_control cfg k (InArray [x i 0; y i 0; vx i 0; vy i 0]) T (ud i) (s i) = (Ok (u i), s (S i));
  f2_move : forall i, (i < N)%nat -> cwh_forced n 12 T (fun _ => nth 0 (u i) 0) (fun _ => nth 1 (u i) 0) (fun _ => 0)
                        (x i) (y i) (fun _ => 0) (vx i) (vy i) (fun _ => 0);
  f2_pred : forall i, (i < N)%nat -> sc_pred cfg [x i 0; y i 0; vx i 0; vy i 0] T (u i) = Ok [x i T; y i T; vx i T; vy i T];
  f2_next : forall i, (i < N)%nat -> x (S i) 0 = x i T /\ y (S i) 0 = y i T /\ vx (S i) 0 = vx i T /\ vy (S i) 0 = vy i T }.
