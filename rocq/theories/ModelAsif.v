(** Model of run_time_assurance/rta/asif.py lines 27-955: the quadratic-program modules. *)
From Coq Require Import String Reals List Bool ZArith DecimalString.
From Verif Require Import Prelude Vec ModelBase ModelController ModelSimplex.
Import ListNotations.
Local Open Scope R_scope.
Local Open Scope monad_scope.

(** constraint.py 453-509, DirectInequalityConstraint: a subclass's ineq_weight and
    ineq_constant, and the two attributes a user may reassign. *)
Record direct (X P : Type) : Type := mkDirect {
  d_weight : X -> P -> vec;
  d_constant : X -> P -> R;
  d_params : P;
  d_enabled : bool }.
Arguments mkDirect {X P}.
Arguments d_weight {X P}.
Arguments d_constant {X P}.
Arguments d_params {X P}.
Arguments d_enabled {X P}.

Definition set_d_params {X P} (p : P) (d : direct X P) : direct X P :=
  mkDirect (d_weight d) (d_constant d) p (d_enabled d).
Definition set_d_enabled {X P} (b : bool) (d : direct X P) : direct X P :=
  mkDirect (d_weight d) (d_constant d) (d_params d) b.

(** quadprog.solve_qp(G, a, C, b, 0) (asif.py 247-249), an oracle.  Its arguments here: G,
    a, the rows of C transposed, b.  It returns the minimiser and the 1-based numbers of
    the active constraints (entries 0 and 5 of the tuple), or raises. *)
Definition qp_solver : Type := mat -> vec -> mat -> vec -> res (vec * list nat).

(** asif.py 260: the message by which inconsistency is recognised. *)
Definition msg_inconsistent := "constraints are inconsistent, no solution"%string.

(** What is fixed at construction or comes from outside: bounds, epsilon, control_dim and
    solver_exception (asif.py 42-47), the dynamics f and g of the subclass, the solver. *)
Record asif_cfg (X : Type) : Type := mkAsifCfg {
  ac_bounds : bounds;
  ac_eps : R;
  ac_dim : nat;
  ac_exc : bool;
  ac_f : X -> vec;
  ac_g : X -> mat;
  ac_solve : qp_solver }.
Arguments mkAsifCfg {X}.
Arguments ac_bounds {X}.
Arguments ac_eps {X}.
Arguments ac_dim {X}.
Arguments ac_exc {X}.
Arguments ac_f {X}.
Arguments ac_g {X}.
Arguments ac_solve {X}.

(** The attributes that BaseOptimizationModule and ASIFModule add (asif.py 42-58, 86-98),
    with those of a subclass in [as_ext].  [as_warned] counts the warnings issued by
    warnings.warn (asif.py 262), which python shows to the user rather than stores. *)
Record asif (X P Z : Type) : Type := mkAsif {
  as_num_slack : nat;
  as_weight : mat;
  as_names : list string;
  as_act_rows : mat;
  as_act_consts : vec;
  as_direct : dict (direct X P);
  as_dparams : dict P;
  as_denabled : dict bool;
  as_causes : option (list string);
  as_warned : nat;
  as_ext : Z }.
Arguments mkAsif {X P Z}.
Arguments as_num_slack {X P Z}.
Arguments as_weight {X P Z}.
Arguments as_names {X P Z}.
Arguments as_act_rows {X P Z}.
Arguments as_act_consts {X P Z}.
Arguments as_direct {X P Z}.
Arguments as_dparams {X P Z}.
Arguments as_denabled {X P Z}.
Arguments as_causes {X P Z}.
Arguments as_warned {X P Z}.
Arguments as_ext {X P Z}.

Definition set_names {X P Z} (l : list string) (y : asif X P Z) : asif X P Z :=
  mkAsif (as_num_slack y) (as_weight y) l (as_act_rows y) (as_act_consts y) (as_direct y)
    (as_dparams y) (as_denabled y) (as_causes y) (as_warned y) (as_ext y).
Definition set_direct {X P Z} (d : dict (direct X P)) (y : asif X P Z) : asif X P Z :=
  mkAsif (as_num_slack y) (as_weight y) (as_names y) (as_act_rows y) (as_act_consts y) d
    (as_dparams y) (as_denabled y) (as_causes y) (as_warned y) (as_ext y).
Definition set_dcaches {X P Z} (p : dict P) (e : dict bool) (y : asif X P Z) : asif X P Z :=
  mkAsif (as_num_slack y) (as_weight y) (as_names y) (as_act_rows y) (as_act_consts y) (as_direct y)
    p e (as_causes y) (as_warned y) (as_ext y).
Definition set_causes {X P Z} (l : option (list string)) (y : asif X P Z) : asif X P Z :=
  mkAsif (as_num_slack y) (as_weight y) (as_names y) (as_act_rows y) (as_act_consts y) (as_direct y)
    (as_dparams y) (as_denabled y) l (as_warned y) (as_ext y).
Definition warn {X P Z} (y : asif X P Z) : asif X P Z :=
  mkAsif (as_num_slack y) (as_weight y) (as_names y) (as_act_rows y) (as_act_consts y) (as_direct y)
    (as_dparams y) (as_denabled y) (as_causes y) (S (as_warned y)) (as_ext y).
Definition set_as_ext {X P Z} (z : Z) (y : asif X P Z) : asif X P Z :=
  mkAsif (as_num_slack y) (as_weight y) (as_names y) (as_act_rows y) (as_act_consts y) (as_direct y)
    (as_dparams y) (as_denabled y) (as_causes y) (as_warned y) z.

(** An ASIF module object. *)
Definition amod (X P Z : Type) : Type := rta (cb X P (asif X P Z)).
Definition on_asif {X P Z} (f : asif X P Z -> asif X P Z) (s : amod X P Z) : amod X P Z :=
  on_ext (fun y => set_cb_ext (f (cb_ext y)) y) s.
Definition get_asif {X P Z} (s : amod X P Z) : asif X P Z := cb_ext (ext s).

(** asif.py 49-53: the slack scales of the constraints that have one, in order. *)
Fixpoint slack_scales {X P} (cs : dict (constraint X P)) : vec :=
  match cs with
  | [] => []
  | (_, c) :: cs' => match c_slack c with Some p => p :: slack_scales cs' | None => slack_scales cs' end
  end.

(** np.diag of a vector. *)
Definition diag (v : vec) : mat :=
  map2 (fun i x => vscale x (unit_vec (length v) i)) (seq 0 (length v)) v.

(** asif.py 55-58: obj_weight.  np.sqrt of a negative scale gives nan; here it gives 0. *)
Definition obj_weight (dim : nat) (scales : vec) : mat :=
  diag (repeat 1 dim ++ map sqrt scales).

(** asif.py 927-955, get_lower_bound_ineq_constraint_mats.  Bounds given as lists are numpy
    arrays (base.py 36-43), so the branch taken is bound * ones(vec_len), with broadcasting;
    for a jax array the code asserts the shape instead. *)
Definition lower_bound_mats (bound : bnd) (n : nat) : res (mat * vec) :=
  b <-- bcast (fun one r => r * one) (repeat 1 n) bound ;;;
  Ok (eye n, b).

Definition nat_string (n : nat) : string := NilZero.string_of_uint (Nat.to_uint n).

(** asif.py 157-158 and 167-168: the names u1_min, u2_min, ... *)
Definition bound_names (n : nat) (suffix : string) : list string :=
  map (fun i => ("u" ++ nat_string (i + 1) ++ suffix)%string) (seq 0 n).

(** asif.py 138-170, _generate_actuation_constraint_mats: rows, constants and names. *)
Definition actuation_mats (b : bounds) (dim num_slack : nat) : res (mat * vec * list string) :=
  low <-- match b_low b with
          | None => Ok ([], [], [])
          | Some l => cb <-- lower_bound_mats l dim ;;;
              Ok (map (fun r => r ++ zeros num_slack) (fst cb), snd cb, bound_names dim "_min")
          end ;;;
  high <-- match b_high b with
           | None => Ok ([], [], [])
           | Some h => cb <-- lower_bound_mats h dim ;;;
               Ok (map (fun r => r ++ zeros num_slack) (map (vscale (-1)) (fst cb)),
                   vscale (-1) (snd cb), bound_names dim "_max")
           end ;;;
  match low, high with
  | (r1, c1, n1), (r2, c2, n2) => Ok (r1 ++ r2, c1 ++ c2, n1 ++ n2)
  end.

(** asif.py 100-104, _update_direct_inequality_params. *)
Definition update_direct {X P Z} (y : asif X P Z) : asif X P Z :=
  set_dcaches
    (fold_left (fun d kc => dict_set d (fst kc) (d_params (snd kc))) (as_direct y) (as_dparams y))
    (fold_left (fun d kc => dict_set d (fst kc) (d_enabled (snd kc))) (as_direct y) (as_denabled y))
    y.

(** asif.py 42-58 and 86-98: construction.  [defined] is the result of _setup_constraints and
    [directs] that of _setup_direct_constraints. *)
Definition asif_init {X P Z} (cfg : asif_cfg X) (defined : dict (constraint X P))
    (to_use : option (list string)) (directs : dict (direct X P)) (z : Z) : res (amod X P Z) :=
  cs <-- select_constraints defined to_use ;;;
  let scales := slack_scales cs in
  act <-- actuation_mats (ac_bounds cfg) (ac_dim cfg) (length scales) ;;;
  match act with
  | (rows, consts, names) =>
      let y := update_direct
        (mkAsif (length scales) (obj_weight (ac_dim cfg) scales)
           (names ++ dict_keys cs ++ dict_keys directs) rows consts directs [] [] None 0 z) in
      w <-- cb_init defined to_use y ;;;
      Ok (rta_init w)
  end.

(** jax's x.at[i].set(v) on a vector: out of range indices are dropped. *)
Fixpoint set_at (i : nat) (r : R) (v : vec) : vec :=
  match v, i with
  | [], _ => []
  | _ :: t, O => r :: t
  | a :: t, S i' => a :: set_at i' r t
  end.

(** asif.py 395-416 and 419-425: the row and the constant of one constraint.  Both
    strengtheners are evaluated before lax.cond chooses.  A disabled constraint gives
    zeros. *)
Definition explicit_row {X P} (cfg : asif_cfg X) (num_slack counter : nat) (c : constraint X P) (p : P)
    (enabled : bool) (x : X) : res (vec * R) :=
  let grad := c_grad c x p in
  let temp1 := vm (ac_dim cfg) grad (ac_g cfg x) in
  let slack := match c_slack c with
               | Some _ => set_at counter (-1) (zeros num_slack)
               | None => zeros num_slack
               end in
  let temp1 := temp1 ++ slack in
  let val := c_compute c x p in
  a <-- c_alpha_at c val ;;;
  an <-- c_alpha_negative_at c val ;;;
  let alpha := if Rltb val 0 then an + c_bias_neg c else a in
  let temp2 := dot (vneg grad) (ac_f cfg x) - alpha in
  Ok (if enabled then (temp1, temp2) else (zeros (length temp1), 0)).

(** asif.py 391-429: the loop over the constraints. *)
Fixpoint explicit_rows {X P} (cfg : asif_cfg X) (num_slack counter : nat) (cs : dict (constraint X P))
    (params : dict P) (enabled : dict bool) (x : X) : res (mat * vec) :=
  match cs with
  | [] => Ok ([], [])
  | (k, c) :: cs' =>
      p <-- dict_get params k ;;;
      e <-- dict_get enabled k ;;;
      rc <-- explicit_row cfg num_slack counter c p e x ;;;
      rest <-- explicit_rows cfg num_slack
                 (match c_slack c with Some _ => S counter | None => counter end) cs' params enabled x ;;;
      Ok (fst rc :: fst rest, snd rc :: snd rest)
  end.

(** asif.py 363-435, ExplicitASIFModule._generate_barrier_constraint_mats. *)
Definition explicit_mats {X P Z} (cfg : asif_cfg X) (x : X) (dt : R) : M (amod X P Z) (mat * vec) :=
  s <- get ;;
  let y := get_asif s in
  rc <- lift (explicit_rows cfg (as_num_slack y) 0 (cb_constraints (ext s)) (cb_params (ext s))
                (cb_enabled (ext s)) x) ;;
  ret (as_act_rows y ++ fst rc, as_act_consts y ++ snd rc).

(** asif.py 172-214, _update_ineq_mats: one more row per direct inequality; a disabled one
    gives zeros.  A weight of the wrong length makes jnp.append raise TypeError. *)
Fixpoint direct_rows {X P} (dim num_slack : nat) (ds : dict (direct X P)) (params : dict P)
    (enabled : dict bool) (x : X) : res (mat * vec) :=
  match ds with
  | [] => Ok ([], [])
  | (k, d) :: ds' =>
      p <-- dict_get params k ;;;
      e <-- dict_get enabled k ;;;
      let temp1 := d_weight d x p ++ zeros num_slack in
      let temp2 := d_constant d x p in
      if Nat.eqb (length temp1) (dim + num_slack) then
        rest <-- direct_rows dim num_slack ds' params enabled x ;;;
        Ok ((if e : bool then temp1 else zeros (length temp1)) :: fst rest,
            (if e : bool then temp2 else 0) :: snd rest)
      else Err TypeError
  end.

Definition update_ineq_mats {X P Z} (cfg : asif_cfg X) (rc : mat * vec) (x : X)
  : M (amod X P Z) (mat * vec) :=
  s <- get ;;
  let y := get_asif s in
  d <- lift (direct_rows (ac_dim cfg) (as_num_slack y) (as_direct y) (as_dparams y) (as_denabled y) x) ;;
  ret (fst rc ++ fst d, snd rc ++ snd d).

(** Python list indexing by i - 1 (asif.py 255): 0 - 1 means the last entry. *)
Definition name_of_row (names : list string) (i : nat) : res string :=
  match i with
  | O => match rev names with [] => Err IndexError | k :: _ => Ok k end
  | S j => match nth_error names j with Some k => Ok k | None => Err IndexError end
  end.

(** asif.py 253-257: the names of the active rows, without repetition, appended one by one. *)
Fixpoint record_causes {X P Z} (iact : list nat) : M (amod X P Z) unit :=
  match iact with
  | [] => ret tt
  | i :: iact' =>
      s <- get ;;
      key <- lift (name_of_row (as_names (get_asif s)) i) ;;
      let causes := match as_causes (get_asif s) with Some l => l | None => [] end in
      (if existsb (String.eqb key) causes then ret tt
       else modify (on_asif (set_causes (Some (causes ++ [key]))))) ;;
      record_causes iact'
  end.

(** asif.py 224-268, _optimize. *)
Definition optimize {X P Z} (cfg : asif_cfg X) (u : vec) (rows : mat) (consts : vec)
  : M (amod X P Z) vec :=
  s <- get ;;
  let a := u ++ zeros (as_num_slack (get_asif s)) in
  match ac_solve cfg (as_weight (get_asif s)) a rows consts with
  | Ok (z, iact) =>
      modify (on_asif (set_causes (Some []))) ;;
      record_causes iact ;;
      ret (firstn (ac_dim cfg) z)
  | Err (ValueError msg) =>
      if String.eqb msg msg_inconsistent then
        if ac_exc cfg then raise SolverError
        else (modify (on_asif warn) ;; ret (firstn (ac_dim cfg) a))
      else raise (ValueError msg)
  | Err e => raise e
  end.

(** asif.py 60-75, monitor: norm of the difference (with numpy broadcasting) against
    epsilon. *)
Definition opt_monitor (eps : R) (desired actual : vec) : res bool :=
  d <-- bcast Rminus desired (BVec actual) ;;;
  Ok (Rltb eps (norm d)).

(** asif.py 126-136, ASIFModule._filter_control, for a generator of barrier rows. *)
Definition asif_filter {X P Z} (cfg : asif_cfg X)
    (barrier_mats : X -> R -> M (amod X P Z) (mat * vec)) (x : X) (dt : R) (u : vec)
  : M (amod X P Z) vec :=
  modify (on_asif update_direct) ;;
  rc <- barrier_mats x dt ;;
  rc <- update_ineq_mats cfg rc x ;;
  v <- optimize cfg u (fst rc) (snd rc) ;;
  b <- lift (opt_monitor (ac_eps cfg) u v) ;;
  modify (set_intervening b) ;;
  ret v.

(** ExplicitASIFModule.filter_control. *)
Definition explicit_asif_filter_control {X P} (cfg : asif_cfg X) (i : input X) (dt : R) (u : vec)
  : M (amod X P unit) vec :=
  filter_control (ac_bounds cfg)
    (cb_compute base_get_state (asif_filter cfg (explicit_mats cfg))) i dt u.

(** ** Implicit ASIF *)

(** What an implicit module has in addition (asif.py 473-486): the backup window, the plant
    integrator _pred_state (922-924, from safe_autonomy_simulation), the backup controller,
    jax's Jacobian of the closed loop (539-564), and the length of a state array. *)
Record imp_cfg (X : Type) : Type := mkImpCfg {
  ic_window : R;
  ic_pred : X -> R -> vec -> res X;
  ic_gen : X -> R -> cstate -> gout;
  ic_jac : X -> R -> cstate -> mat;
  ic_size : X -> nat }.
Arguments mkImpCfg {X}.
Arguments ic_window {X}.
Arguments ic_pred {X}.
Arguments ic_gen {X}.
Arguments ic_jac {X}.
Arguments ic_size {X}.

(** asif.py 488-493, reset. *)
Definition on_actl {X P A} (m : M ctl A) : M (amod X P ctl) A :=
  zoom (fun s => as_ext (get_asif s)) (fun c s => on_asif (set_as_ext c) s) m.
Definition implicit_asif_reset {X P} : M (amod X P ctl) unit :=
  modify (rta_reset (fun y => y)) ;;
  on_actl ctl_reset.

(** ExplicitASIFModule inherits RTAModule.reset. *)
Definition explicit_asif_reset {X P} : M (amod X P unit) unit := modify (rta_reset (fun y => y)).

(** asif.py 909-916: the loop of integrate; the states and sensitivities after the first. *)
Fixpoint implicit_loop {X} (b : bounds) (ic : imp_cfg X) (size : nat) (dt : R) (n : nat) (x : X) (sens : mat)
  : M ctl (list (X * mat)) :=
  match n with
  | O => ret []
  | S n' =>
      u <- backup_control b (ic_gen ic) x dt ;;
      x' <- lift (ic_pred ic x dt u) ;;
      c <- get ;;
      let jac := ic_jac ic x' dt (ctl_state c) in
      let sens' := madd sens (mscale dt (mm size jac sens)) in
      rest <- implicit_loop b ic size dt n' x' sens' ;;
      ret ((x', sens') :: rest)
  end.

(** asif.py 883-920, integrate: the trajectory points with their sensitivities. *)
Definition implicit_integrate {X} (b : bounds) (ic : imp_cfg X) (x : X) (dt : R) (n : nat)
  : M ctl (list (X * mat)) :=
  let sens := eye (ic_size ic x) in
  ctl_save ;;
  rest <- implicit_loop b ic (ic_size ic x) dt (n - 1) x sens ;;
  ctl_restore ;;
  ret ((x, sens) :: rest).

(** asif.py 837-881, invariance_constraints: row, constant and value at one point. *)
Definition invariance_row {X P} (cfg : asif_cfg X) (c : constraint X P) (p : P) (x0 : X) (pt : X * mat)
  : res (vec * R * R) :=
  let f0 := ac_f cfg x0 in
  let g0 := ac_g cfg x0 in
  let grad := c_grad c (fst pt) p in
  let w := vm (ac_dim cfg) grad (mm (ac_dim cfg) (snd pt) g0) in
  let val := c_compute c (fst pt) p in
  a <-- c_alpha_at c val ;;;
  Ok (w, - (dot grad (mv (snd pt) f0) + a), val).

(** asif.py 661-682, one constraint: its rows along the trajectory, with the slack column
    (which is appended after the rows of a disabled constraint have been zeroed), its
    constants and its values.  vmap and the loop of 800-835 are one map. *)
Definition implicit_block {X P} (cfg : asif_cfg X) (num_slack counter : nat) (c : constraint X P) (p : P)
    (enabled : bool) (x0 : X) (traj : list (X * mat)) : res (mat * vec * vec) :=
  rows <-- rmap (invariance_row cfg c p x0) traj ;;;
  let slack := match c_slack c with
               | Some _ => set_at counter (-1) (zeros num_slack)
               | None => zeros num_slack
               end in
  Ok (map (fun r => (if enabled then fst (fst r) else zeros (length (fst (fst r)))) ++ slack) rows,
      map (fun r => if enabled then snd (fst r) else 0) rows,
      map snd rows).

(** asif.py 657-682: the loop over the constraints; the blocks one after the other. *)
Fixpoint implicit_blocks {X P} (cfg : asif_cfg X) (num_slack counter : nat) (cs : dict (constraint X P))
    (params : dict P) (enabled : dict bool) (x0 : X) (traj : list (X * mat))
  : res (list (mat * vec * vec)) :=
  match cs with
  | [] => Ok []
  | (k, c) :: cs' =>
      p <-- dict_get params k ;;;
      e <-- dict_get enabled k ;;;
      b <-- implicit_block cfg num_slack counter c p e x0 traj ;;;
      rest <-- implicit_blocks cfg num_slack
                 (match c_slack c with Some _ => S counter | None => counter end)
                 cs' params enabled x0 traj ;;;
      Ok (b :: rest)
  end.

(** Python's range(a, b, step) for integers; step 0 raises ValueError. *)
Definition py_range (a b step : Z) : res (list Z) :=
  if (step =? 0)%Z then Err (ValueError "range() arg 3 must not be zero")
  else
    let n := if (0 <? step)%Z then ((b - a + step - 1) / step)%Z else ((a - b - step - 1) / (- step))%Z in
    Ok (map (fun i => (a + Z.of_nat i * step)%Z) (seq 0 (Z.to_nat n))).

(** jax indexing of an array by an integer: negative indices count from the end, indices out
    of range are clamped. *)
Definition jax_index (len : nat) (i : Z) : nat :=
  let j := if (i <? 0)%Z then (i + Z.of_nat len)%Z else i in
  Z.to_nat (Z.min (Z.max j 0) (Z.of_nat len - 1)).
Definition jax_get {A} (d : A) (l : list A) (i : Z) : A := nth (jax_index (length l) i) l d.

(** jnp.argsort: a stable sort of the indices by value (here by insertion). *)
Fixpoint insert_by (vals : vec) (i : nat) (l : list nat) : list nat :=
  match l with
  | [] => [i]
  | j :: l' => if Rltb (nth j vals 0) (nth i vals 0) then j :: insert_by vals i l' else i :: l
  end.
Fixpoint sort_indices (vals : vec) (l : list nat) : list nat :=
  match l with
  | [] => []
  | i :: l' => insert_by vals i (sort_indices vals l')
  end.
Definition argsort (vals : vec) : list nat := sort_indices vals (seq 0 (length vals)).

(** Python's l[0:n]: a negative n counts from the end. *)
Definition py_upto {A} (n : Z) (l : list A) : list A :=
  firstn (Z.to_nat (if (n <? 0)%Z then (Z.of_nat (length l) + n)%Z else n)) l.

(** l[a:b] for natural a <= b. *)
Definition slice {A} (a b : nat) (l : list A) : list A := firstn (b - a) (skipn a l).

(** asif.py 726-760, one round of the loop of subsample_constraints: the rows and constants
    kept for constraint [i], from the full arrays. *)
Definition subsample_one {X P} (c : constraint X P) (i num_steps : nat) (rows : mat) (consts : vec)
    (vals : vec) : res (mat * vec) :=
  let tmp_rows := slice (num_steps * i) (num_steps * (i + 1)) rows in
  let tmp_consts := slice (num_steps * i) (num_steps * (i + 1)) consts in
  let sub := c_sub c in
  first <-- py_range 0 (num_check_all sub) 1 ;;;
  then_ <-- py_range (num_check_all sub + 1) (Z.of_nat num_steps) (skip_length sub) ;;;
  let check_points := first ++ then_ in
  let tmp_rows := map (jax_get [] tmp_rows) check_points in
  let tmp_consts := map (jax_get 0 tmp_consts) check_points in
  let tmp_vals := map (jax_get 0 vals) check_points in
  let kept :=
    match num_least sub with
    | None => (tmp_rows, tmp_consts)
    | Some n =>
        let idxs := py_upto n (argsort tmp_vals) in
        (map (fun j => nth j tmp_rows []) idxs, map (fun j => nth j tmp_consts 0) idxs)
    end in
  let kept :=
    if keep_first sub then
      (fst kept ++ [jax_get [] rows (Z.of_nat (num_steps * i))],
       snd kept ++ [jax_get 0 consts (Z.of_nat (num_steps * i))])
    else kept in
  let kept :=
    if keep_last sub then
      (fst kept ++ [jax_get [] rows (Z.of_nat (num_steps * (i + 1)) - 1)],
       snd kept ++ [jax_get 0 consts (Z.of_nat (num_steps * (i + 1)) - 1)])
    else kept in
  Ok kept.

(** asif.py 702-765, subsample_constraints.  The new array starts with control_dim columns
    (line 723) while the rows have control_dim + num_slack: concatenation raises TypeError
    unless num_slack is 0. *)
Fixpoint subsample_loop {X P} (num_slack : nat) (cs : dict (constraint X P)) (i num_steps : nat)
    (rows : mat) (consts : vec) (vals : list vec) : res (mat * vec) :=
  match cs with
  | [] => Ok ([], [])
  | (_, c) :: cs' =>
      one <-- subsample_one c i num_steps rows consts (nth i vals []) ;;;
      if Nat.eqb num_slack 0 then
        rest <-- subsample_loop num_slack cs' (S i) num_steps rows consts vals ;;;
        Ok (fst one ++ fst rest, snd one ++ snd rest)
      else Err TypeError
  end.

(** asif.py 611-692, _generate_ineq_constraint_mats. *)
Definition implicit_ineq_mats {X P Z} (cfg : asif_cfg X) (x0 : X) (num_steps : nat) (traj : list (X * mat))
  : M (amod X P Z) (mat * vec) :=
  s <- get ;;
  let y := get_asif s in
  blocks <- lift (implicit_blocks cfg (as_num_slack y) 0 (cb_constraints (ext s)) (cb_params (ext s))
                    (cb_enabled (ext s)) x0 traj) ;;
  rc <- lift (subsample_loop (as_num_slack y) (cb_constraints (ext s)) 0 num_steps
                (concat (map (fun b => fst (fst b)) blocks))
                (concat (map (fun b => snd (fst b)) blocks))
                (map snd blocks)) ;;
  ret (as_act_rows y ++ fst rc, as_act_consts y ++ snd rc).

(** asif.py 599-607: constraint_names rewritten with num_steps copies of each name. *)
Definition implicit_names {X P Z} (cfg : asif_cfg X) (num_steps : nat) (s : amod X P Z) : list string :=
  let idx := ((match b_low (ac_bounds cfg) with Some _ => ac_dim cfg | None => 0 end) +
              (match b_high (ac_bounds cfg) with Some _ => ac_dim cfg | None => 0 end))%nat in
  firstn idx (as_names (get_asif s)) ++
  concat (map (fun k => repeat k num_steps) (dict_keys (cb_constraints (ext s)))) ++
  dict_keys (as_direct (get_asif s)).

(** asif.py 566-609, ImplicitASIFModule._generate_barrier_constraint_mats.  The number of
    steps is taken as a natural number: a window below minus one step, for which it would be
    negative, is not modelled. *)
Definition implicit_mats {X P} (cfg : asif_cfg X) (ic : imp_cfg X) (x : X) (dt : R)
  : M (amod X P ctl) (mat * vec) :=
  q <- lift (py_div (ic_window ic) dt) ;;
  let num_steps := Z.to_nat (py_int q + 1) in
  traj <- on_actl (implicit_integrate (ac_bounds cfg) ic x dt num_steps) ;;
  rc <- implicit_ineq_mats cfg x num_steps traj ;;
  modify (fun s => on_asif (set_names (implicit_names cfg num_steps s)) s) ;;
  ret rc.

(** ImplicitASIFModule.filter_control. *)
Definition implicit_asif_filter_control {X P} (cfg : asif_cfg X) (ic : imp_cfg X)
    (i : input X) (dt : R) (u : vec) : M (amod X P ctl) vec :=
  filter_control (ac_bounds cfg)
    (cb_compute base_get_state (asif_filter cfg (implicit_mats cfg ic))) i dt u.

(** asif.py 473-486: construction of an implicit module. *)
Definition implicit_asif_init {X P} (cfg : asif_cfg X) (defined : dict (constraint X P))
    (to_use : option (list string)) (directs : dict (direct X P)) (initial : cstate)
  : res (amod X P ctl) :=
  c <-- ctl_init initial ;;;
  asif_init cfg defined to_use directs c.

(** ** Histories of an ASIF module: the operations of every constraint-based module, and
    assignment to the attributes of direct inequality constraints. *)
Inductive aop (X P : Type) : Type :=
| ABase (o : op X P)
| ASetDirectParams (k : string) (p : P)
| ASetDirectEnabled (k : string) (b : bool).
Arguments ABase {X P}.
Arguments ASetDirectParams {X P}.
Arguments ASetDirectEnabled {X P}.

Definition on_direct {X P Z} (k : string) (f : direct X P -> direct X P) (y : asif X P Z) : asif X P Z :=
  set_direct (map (fun kd => if String.eqb k (fst kd) then (fst kd, f (snd kd)) else kd) (as_direct y)) y.

Definition asif_step {X P Z} (filt : input X -> R -> vec -> M (amod X P Z) vec)
    (rst : M (amod X P Z) unit) (o : aop X P) (s : amod X P Z) : obs * amod X P Z :=
  match o with
  | ABase o => cb_step filt rst o s
  | ASetDirectParams k p => (ObsDone, on_asif (on_direct k (set_d_params p)) s)
  | ASetDirectEnabled k b => (ObsDone, on_asif (on_direct k (set_d_enabled b)) s)
  end.

Fixpoint asif_run {X P Z} (filt : input X -> R -> vec -> M (amod X P Z) vec)
    (rst : M (amod X P Z) unit) (os : list (aop X P)) (s : amod X P Z) : list obs * amod X P Z :=
  match os with
  | [] => ([], s)
  | o :: os' =>
      match asif_step filt rst o s with
      | (b, s') => match asif_run filt rst os' s' with (bs, s'') => (b :: bs, s'') end
      end
  end.
