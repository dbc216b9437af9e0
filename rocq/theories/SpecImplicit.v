(** Specification vocabulary for the implicit ASIF module. *)
From Coq Require Import String Reals List Bool ZArith Permutation.
From Verif Require Import Prelude Vec ModelBase ModelController ModelSimplex ModelAsif SpecCore SpecAsif.
Import ListNotations.
Local Open Scope R_scope.

(** ** The backup trajectory with its sensitivities.  From state [x], controller state [cs] and
    sensitivity [S], each step applies the clipped backup control, and the new sensitivity is
    S + dt J S with the Jacobian J of the closed loop at the new state. *)
Inductive sensitivity_path {X} (b : bounds) (ic : imp_cfg X) (size : nat) (dt : R)
  : cstate -> X -> mat -> list (X * mat) -> Prop :=
| sp_nil cs x S : sensitivity_path b ic size dt cs x S []
| sp_cons cs x S v cs' u x' rest :
    ic_gen ic x dt cs = GPair v cs' -> clip b v = Ok u -> ic_pred ic x dt u = Ok x' ->
    let S' := madd S (mscale dt (mm size (ic_jac ic x' dt cs') S)) in
    sensitivity_path b ic size dt cs' x' S' rest ->
    sensitivity_path b ic size dt cs x S ((x', S') :: rest).

(** The points evaluated from state [x]: the state itself with the identity, then one point per
    whole step that fits in the window. *)
Definition lookahead {X} (b : bounds) (ic : imp_cfg X) (dt : R) (cs : cstate) (x : X)
    (traj : list (X * mat)) : Prop :=
  exists n rest, window_steps (ic_window ic) dt n /\ length rest = n /\
    sensitivity_path b ic (ic_size ic x) dt cs x (eye (ic_size ic x)) rest /\
    traj = (x, eye (ic_size ic x)) :: rest.

(** ** The condition at one point: grad h(x_j) . S_j (f(x_0) + g(x_0) u) + alpha(h(x_j)). *)
Definition point_value {X P} (c : constraint X P) (pt : X * mat) : R :=
  c_fun c (fst pt) (c_params c) + c_bias c.
Definition point_margin {X P} (f : X -> vec) (g : X -> mat) (c : constraint X P) (x0 : X)
    (pt : X * mat) (w : vec) : R :=
  dot (c_grad c (fst pt) (c_params c)) (mv (snd pt) (vadd (f x0) (mv (g x0) w)))
  + match c_alpha c with Some a => a (point_value c pt) | None => 0 end.

(** ** Which points are used.  [n] points with values [val]; [js] their numbers. *)

(** The settings that make sense: num_check_all between -1 (the default) and the number of
    points, a positive skip_length, and no negative number of least values. *)
Definition valid_sub (sub : subsample) (n : nat) : Prop :=
  (-1 <= num_check_all sub <= Z.of_nat n)%Z /\ (1 <= skip_length sub)%Z /\
  (forall N, num_least sub = Some N -> (0 <= N)%Z).

(** As coded: points 0 .. num_check_all - 1, then from num_check_all + 1 in steps of
    skip_length. *)
Definition checked (sub : subsample) (n : nat) (p : nat) : Prop :=
  (Z.of_nat p < num_check_all sub)%Z \/
  ((p < n)%nat /\ exists i : nat, Z.of_nat p = (num_check_all sub + 1 + Z.of_nat i * skip_length sub)%Z).

(** Of these the [N] with the least values are kept, and the ends are added. *)
Definition picks (sub : subsample) (n : nat) (val : nat -> R) (js : list nat) : Prop :=
  exists base kept dropped,
    NoDup base /\ (forall p, In p base <-> checked sub n p) /\
    Permutation base (kept ++ dropped) /\
    (forall p q, In p kept -> In q dropped -> val p <= val q) /\
    match num_least sub with
    | None => dropped = [] /\ kept = base
    | Some N => length kept = Nat.min (Z.to_nat N) (length base)
    end /\
    js = kept ++ (if keep_first sub then [0%nat] else []) ++ (if keep_last sub then [(n - 1)%nat] else []).

(** Point number [j] of a trajectory. *)
Definition point {X} (traj : list (X * mat)) (x : X) (j : nat) : X * mat := nth j traj (x, []).

(** ** The requirements of an implicit module, in the order of the rows. *)
Fixpoint point_demands {X P} (dim : nat) (f : X -> vec) (g : X -> mat) (x : X) (traj : list (X * mat))
    (cs : dict (constraint X P)) (jss : list (list nat)) : list demand :=
  match cs, jss with
  | (k, c) :: cs', js :: jss' =>
      map (fun j => mkDemand k (if c_enabled c
                                then fun z => point_margin f g c x (point traj x j) (firstn dim z)
                                else fun _ => 0)) js
      ++ point_demands dim f g x traj cs' jss'
  | _, _ => []
  end.
Definition implicit_demands {X P} (b : bounds) (dim : nat) (f : X -> vec) (g : X -> mat)
    (cs : dict (constraint X P)) (ds : dict (direct X P)) (x : X) (traj : list (X * mat))
    (jss : list (list nat)) : list demand :=
  low_demands (b_low b) dim ++ high_demands (b_high b) dim ++
  point_demands dim f g x traj cs jss ++ direct_demands dim x ds.

(** The points used for each constraint. *)
Definition all_picks {X P} (cs : dict (constraint X P)) (traj : list (X * mat)) (x : X) (jss : list (list nat)) : Prop :=
  Forall2 (fun kc js => picks (c_sub (snd kc)) (length traj) (fun j => point_value (snd kc) (point traj x j)) js) cs jss.

(** A control meets the requirements: bounds, every enabled constraint at every point used for
    it, every enabled direct inequality. *)
Definition control_ok {X P} (b : bounds) (f : X -> vec) (g : X -> mat) (cs : dict (constraint X P))
    (ds : dict (direct X P)) (x : X) (traj : list (X * mat)) (jss : list (list nat)) (w : vec) : Prop :=
  within b w /\
  (forall i k c js j, nth_error cs i = Some (k, c) -> c_enabled c = true -> nth_error jss i = Some js -> In j js ->
     0 <= point_margin f g c x (point traj x j) w) /\
  (forall k d, In (k, d) ds -> d_enabled d = true ->
     d_constant d x (d_params d) <= dot (d_weight d x (d_params d)) w).

(** Shapes: [n] state variables and [dim] controls. *)
Record shaped_imp {X P} (n dim : nat) (f : X -> vec) (g : X -> mat) (cs : dict (constraint X P))
    (ds : dict (direct X P)) (ic : imp_cfg X) (x : X) (traj : list (X * mat)) : Prop := mkShapedImp {
  si_size : ic_size ic x = n;
  si_f : length (f x) = n;
  si_g : is_mat n dim (g x);
  si_jac : forall x dt cs, is_mat n n (ic_jac ic x dt cs);
  si_grad : forall k c pt, In (k, c) cs -> In pt traj -> length (c_grad c (fst pt) (c_params c)) = n;
  si_weight : forall k d, In (k, d) ds -> length (d_weight d x (d_params d)) = dim }.

(** The internal state of the backup controller of an implicit module. *)
Definition imp_ctl {X P} (s : amod X P ctl) : cstate := ctl_state (as_ext (get_asif s)).

(** An implicit module in use at state [x] with the backup trajectory [traj]; no slack. *)
Record imp_in_use {X P} (cfg : asif_cfg X) (ic : imp_cfg X) (n : nat) (s : amod X P ctl) (x : X) (dt : R)
    (u : vec) (traj : list (X * mat)) : Prop := mkImpInUse {
  ii_reached : implicit_reached cfg ic s;
  ii_fits : fits (ac_bounds cfg) (ac_dim cfg);
  ii_savable : savable (imp_ctl s);
  ii_look : lookahead (ac_bounds cfg) ic dt (imp_ctl s) x traj;
  ii_shaped : shaped_imp n (ac_dim cfg) (ac_f cfg) (ac_g cfg) (asif_constraints s) (asif_directs s) ic x traj;
  ii_strengthened : strengthened (asif_constraints s);
  ii_sub : forall k c, In (k, c) (asif_constraints s) -> valid_sub (c_sub c) (length traj);
  ii_slack : slack_count (asif_constraints s) = 0%nat;
  ii_enabled : enable s = true;
  ii_length : length u = ac_dim cfg }.
