(** Model of the switching delta-v module (zoo/cwh/inspection_1v1.py 625-744) and of the combined
    inspection module (zoo/cwh/inspection_3d.py 477-528). *)
From Coq Require Import String Reals List Bool ZArith.
From Verif Require Import Prelude Vec ModelBase ModelController ModelSimplex ModelAsif ModelConstraint ModelCwh.
Import ListNotations.
Local Open Scope R_scope.
Local Open Scope monad_scope.

(** The constants of SwitchingDeltaVLimitRTA.__init__ (inspection_1v1.py 655-687).  The gain
    matrices are given here; how they are obtained is in ModelGain.v. *)
Record dv_cfg : Type := mkDvCfg {
  dv_m : R;
  dv_n : R;
  dv_limit : R;
  dv_steps : nat;
  dv_K1 : mat;
  dv_K2 : mat;
  dv_bounds : bounds }.

(** The attributes that change: error_integral and latched (inspection_1v1.py 660, 681). *)
Record dv : Type := mkDv { dv_integral : vec; dv_latched : bool }.
Definition dv_init : rta dv := rta_init (mkDv (zeros 6) false).

(** numpy's error for mismatched shapes. *)
Definition shape_error : exn := ValueError "operands could not be broadcast together".

(** inspection_1v1.py 689-695: _pred_state.  numpy accepts only states of 8 and controls of 3
    entries (otherwise a matrix product or the final sum raises ValueError). *)
Definition dv_pred (cfg : dv_cfg) (state : vec) (dt : R) (control : vec) : res vec :=
  if Nat.eqb (length state) 8 && Nat.eqb (length control) 3 then
    let xd := vadd (mv (cwh_a3 (dv_n cfg)) (slice 0 6 state)) (mv (cwh_b3 (dv_m cfg)) control) in
    let sun_dot := [- dv_n cfg] in
    let delta_v_dot := [fold_right Rplus 0 (map Rabs control) / dv_m cfg] in
    Ok (vadd state (map (fun a => a * dt) (xd ++ sun_dot ++ delta_v_dot)))
  else Err shape_error.

(** inspection_1v1.py 723-737: backup_control.  Indexing a short state raises IndexError. *)
Definition dv_backup (cfg : dv_cfg) (state : vec) (dt : R) (error_integral : vec) : res (vec * vec) :=
  if (length state <? 5)%nat then Err IndexError
  else
    let st := fun i => nth i state 0 in
    let error := [0; 0; 0; st 3%nat - dv_n cfg / 2 * st 1%nat; st 4%nat + 2 * dv_n cfg * st 0%nat; 0] in
    let action := vsub (mv (map vneg (dv_K1 cfg)) error) (mv (dv_K2 cfg) error_integral) in
    Ok (map (fun a => Rmin (Rmax a (-1)) 1) action, vadd error_integral (map (fun a => a * dt) error)).

Definition set_dv_integral (e : vec) (s : rta dv) : rta dv := set_ext (mkDv e (dv_latched (ext s))) s.
Definition set_dv_latched (b : bool) (s : rta dv) : rta dv := set_ext (mkDv (dv_integral (ext s)) b) s.

(** inspection_1v1.py 703-714: the rounds of the prediction loop that are left. *)
Fixpoint dv_loop (cfg : dv_cfg) (input : vec) (dt : R) (rounds : nat) (pred error_integral : vec)
  : M (rta dv) unit :=
  match rounds with
  | O => ret tt
  | S k =>
      ub <- lift (dv_backup cfg pred dt error_integral) ;;
      pred' <- lift (dv_pred cfg pred dt (fst ub)) ;;
      (if Rltb (dv_limit cfg) (nth 7 pred' 0)
       then s <- get ;;
            ub' <- lift (dv_backup cfg input dt (dv_integral (ext s))) ;;
            modify (set_dv_integral (snd ub')) ;;
            modify (set_dv_latched true) ;;
            modify (set_intervening true)
       else ret tt) ;;
      dv_loop cfg input dt k pred' (snd ub)
  end.

(** inspection_1v1.py 697-721: compute_filtered_control.  The assignment of ub to out inside the
    loop is overwritten by line 715. *)
Definition dv_compute (cfg : dv_cfg) (input : vec) (dt : R) (control_desired : vec) : M (rta dv) vec :=
  s <- get ;;
  if dv_latched (ext s) then
    ub <- lift (dv_backup cfg input dt (dv_integral (ext s))) ;;
    modify (set_dv_integral (snd ub)) ;;
    ret (fst ub)
  else
    pred <- lift (dv_pred cfg input dt control_desired) ;;
    dv_loop cfg input dt (dv_steps cfg) pred (dv_integral (ext s)) ;;
    ret control_desired.

(** The module, through base.py 60-85 and 52-58 (it has no reset of its own). *)
Definition dv_filter (cfg : dv_cfg) : vec -> R -> vec -> M (rta dv) vec :=
  filter_control (dv_bounds cfg) (dv_compute cfg).
Definition dv_reset (s : rta dv) : rta dv := rta_reset (fun y => y) s.

(** A history of the delta-v module. *)
Inductive dv_op : Type :=
| DvFilter (x : vec) (dt : R) (u : vec)
| DvReset
| DvEnable (b : bool).
Definition dv_step (cfg : dv_cfg) (o : dv_op) (s : rta dv) : rta dv :=
  match o with
  | DvFilter x dt u => snd (dv_filter cfg x dt u s)
  | DvReset => dv_reset s
  | DvEnable b => set_enable b s
  end.
Definition dv_run (cfg : dv_cfg) (os : list dv_op) (s : rta dv) : rta dv :=
  fold_left (fun s o => dv_step cfg o s) os s.

(** inspection_3d.py 523-528: get_agent_state; np.delete of a slice. *)
Definition agent_state (state : vec) (i : nat) : vec :=
  slice (6 * i) (6 * i + 6) state ++ (firstn (6 * i) state ++ skipn (6 * i + 6) state).

(** numpy assignment of [v] to a slice of three entries: three entries, or one that is
    repeated. *)
Definition assign3 (v : vec) : res vec :=
  match v with
  | [_; _; _] => Ok v
  | [a] => Ok [a; a; a]
  | _ => Err (ValueError "could not broadcast input array")
  end.

(** inspection_3d.py 514-520: the rounds of the loop from deputy [i] on; all deputies are
    filtered by the one object deputy_rta.  The result is the rest of u_act.  An exception leaves
    deputy_rta as it then is. *)
Fixpoint combined_loop {D} (step : vec -> R -> vec -> M D vec) (state : vec) (dt : R) (u : vec)
    (rounds i : nat) : M D vec :=
  match rounds with
  | O => ret []
  | S k =>
      v <- step (agent_state state i) dt (slice (3 * i) (3 * i + 3) u) ;;
      a <- lift (assign3 v) ;;
      rest <- combined_loop step state dt u k (S i) ;;
      ret (a ++ rest)
  end.

(** inspection_3d.py 511-521: compute_filtered_control. *)
Definition combined_compute {D} (step : vec -> R -> vec -> M D vec) (num : nat) (state : vec) (dt : R) (u : vec)
  : M (rta D) vec :=
  zoom ext set_ext (combined_loop step state dt u num 0).
Definition combined_filter {D} (b : bounds) (step : vec -> R -> vec -> M D vec) (num : nat)
  : vec -> R -> vec -> M (rta D) vec :=
  filter_control b (combined_compute step num).
