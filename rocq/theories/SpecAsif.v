(** Specification vocabulary for the quadratic-program (ASIF) modules. *)
From Coq Require Import String Reals List Bool ZArith DecimalString.
From Verif Require Import Prelude Vec ModelBase ModelController ModelSimplex ModelAsif SpecCore.
Import ListNotations.
Local Open Scope R_scope.

(** ** The solver *)

(** A point satisfies every inequality row . z >= constant. *)
Definition solves (rows : mat) (consts : vec) (z : vec) : Prop :=
  Forall2 (fun r c => c <= dot r z) rows consts.

(** The objective documented for quadprog: one half z'Gz - a'z. *)
Definition objective (G : mat) (a z : vec) : R := / 2 * dot z (mv G z) - dot a z.

(** What is assumed of quadprog.solve_qp: a result is a feasible minimiser, with the 1-based
    numbers of an active set: rows that hold with equality and that alone already force the
    minimum (rows without influence are not in the way of a smaller value); the inconsistency error is raised only if
    there is no feasible point.  Nothing is assumed about other errors. *)
Record qp_contract (solve : qp_solver) : Prop := mkContract {
  qp_optimal : forall G a C b z iact, solve G a C b = Ok (z, iact) ->
    length z = length a /\ solves C b z /\
    (forall y, length y = length a -> solves C b y -> objective G a z <= objective G a y) /\
    (forall i, In i iact -> exists j r c, i = S j /\
       nth_error C j = Some r /\ nth_error b j = Some c /\ dot r z = c) /\
    (forall y, length y = length a ->
       (forall j r c, In (S j) iact -> nth_error C j = Some r -> nth_error b j = Some c ->
          c <= dot r y) ->
       objective G a z <= objective G a y);
  qp_inconsistent : forall G a C b,
    solve G a C b = Err (ValueError "constraints are inconsistent, no solution") ->
    forall y, length y = length a -> ~ solves C b y }.

(** ** What the control and the slack values have to satisfy.  The decision vector is the
    control followed by one slack value per constraint that has a slack scale. *)

(** The strengthening term of the barrier condition. *)
Definition strength {X P} (c : constraint X P) (h : R) : R :=
  match c_alpha c with
  | None => 0
  | Some a =>
      if Rlt_dec h 0
      then match c_alpha_neg c with Some a' => a' h | None => 10 * a h end + c_bias_neg c
      else a h
  end.

(** The slack value of constraint [c], whose slack variable (if any) is number [j]. *)
Definition slack_value {X P} (dim : nat) (c : constraint X P) (j : nat) (z : vec) : R :=
  match c_slack c with Some _ => nth (dim + j) z 0 | None => 0 end.

(** d/dt h + alpha(h) - slack, with dx/dt = f + g u. *)
Definition barrier_margin {X P} (dim : nat) (f : X -> vec) (g : X -> mat) (c : constraint X P)
    (x : X) (j : nat) (z : vec) : R :=
  dot (c_grad c x (c_params c)) (vadd (f x) (mv (g x) (firstn dim z)))
  + strength c (c_fun c x (c_params c) + c_bias c) - slack_value dim c j z.

Definition has_slack {X P} (kc : string * constraint X P) : bool :=
  match c_slack (snd kc) with Some _ => true | None => false end.
(** The number of slack variables of a list of constraints. *)
Definition slack_count {X P} (cs : dict (constraint X P)) : nat := length (filter has_slack cs).

(** A decision vector is acceptable: control inside the bounds, barrier condition of every
    enabled constraint, every enabled direct inequality. *)
Definition acceptable {X P} (b : bounds) (dim : nat) (f : X -> vec) (g : X -> mat)
    (cs : dict (constraint X P)) (ds : dict (direct X P)) (x : X) (z : vec) : Prop :=
  within b (firstn dim z) /\
  (forall pre k c post, cs = pre ++ (k, c) :: post -> c_enabled c = true ->
     0 <= barrier_margin dim f g c x (slack_count pre) z) /\
  (forall k d, In (k, d) ds -> d_enabled d = true ->
     d_constant d x (d_params d) <= dot (d_weight d x (d_params d)) (firstn dim z)).

(** A named requirement: its margin must not be negative. *)
Record demand : Type := mkDemand { dm_name : string; dm_margin : vec -> R }.

Definition bound_val (b : option bnd) (i : nat) : R :=
  match bound_at b i with Some r => r | None => 0 end.
(** u1_min, u2_min, ... *)
Definition control_name (suffix : string) (i : nat) : string :=
  ("u" ++ NilZero.string_of_uint (Nat.to_uint (i + 1)) ++ suffix)%string.

Definition low_demands (b : option bnd) (dim : nat) : list demand :=
  match b with
  | None => []
  | Some _ => map (fun i => mkDemand (control_name "_min" i) (fun z => nth i z 0 - bound_val b i)) (seq 0 dim)
  end.
Definition high_demands (b : option bnd) (dim : nat) : list demand :=
  match b with
  | None => []
  | Some _ => map (fun i => mkDemand (control_name "_max" i) (fun z => bound_val b i - nth i z 0)) (seq 0 dim)
  end.
Fixpoint barrier_demands {X P} (dim : nat) (f : X -> vec) (g : X -> mat) (x : X) (j : nat)
    (cs : dict (constraint X P)) : list demand :=
  match cs with
  | [] => []
  | (k, c) :: cs' =>
      mkDemand k (if c_enabled c then barrier_margin dim f g c x j else fun _ => 0)
      :: barrier_demands dim f g x (if has_slack (k, c) then S j else j) cs'
  end.
Definition direct_demands {X P} (dim : nat) (x : X) (ds : dict (direct X P)) : list demand :=
  map (fun kd => mkDemand (fst kd)
        (if d_enabled (snd kd)
         then fun z => dot (d_weight (snd kd) x (d_params (snd kd))) (firstn dim z)
                       - d_constant (snd kd) x (d_params (snd kd))
         else fun _ => 0)) ds.
(** All requirements of an explicit module, in the order of the rows. *)
Definition explicit_demands {X P} (b : bounds) (dim : nat) (f : X -> vec) (g : X -> mat)
    (cs : dict (constraint X P)) (ds : dict (direct X P)) (x : X) : list demand :=
  low_demands (b_low b) dim ++ high_demands (b_high b) dim ++
  barrier_demands dim f g x 0 cs ++ direct_demands dim x ds.

(** The arrays have the shapes that the dynamics and the constraints promise: [n] state
    variables, [dim] controls. *)
Record shaped {X P} (n dim : nat) (f : X -> vec) (g : X -> mat) (cs : dict (constraint X P))
    (ds : dict (direct X P)) (x : X) : Prop := mkShaped {
  sh_f : length (f x) = n;
  sh_g : is_mat n dim (g x);
  sh_grad : forall k c, In (k, c) cs -> length (c_grad c x (c_params c)) = n;
  sh_weight : forall k d, In (k, d) ds -> length (d_weight d x (d_params d)) = dim }.

(** Every constraint has a strengthening function. *)
Definition strengthened {X P} (cs : dict (constraint X P)) : Prop :=
  forall k c, In (k, c) cs -> c_alpha c <> None.

(** The slack scales, one per slack variable. *)
Fixpoint scales {X P} (cs : dict (constraint X P)) : vec :=
  match cs with
  | [] => []
  | (_, c) :: cs' => match c_slack c with Some p => p :: scales cs' | None => scales cs' end
  end.

(** sum of w_i z_i^2. *)
Fixpoint weighted_squares (w z : vec) : R :=
  match w, z with a :: w', x :: z' => a * (x * x) + weighted_squares w' z' | _, _ => 0 end.

(** The module's view of its constraints, direct inequalities and causes. *)
Definition asif_constraints {X P Z} (s : amod X P Z) : dict (constraint X P) := cb_constraints (ext s).
Definition asif_directs {X P Z} (s : amod X P Z) : dict (direct X P) := as_direct (get_asif s).
Definition causes {X P Z} (s : amod X P Z) : option (list string) := as_causes (get_asif s).
Definition warnings {X P Z} (s : amod X P Z) : nat := as_warned (get_asif s).

(** The same configuration with another solver. *)
Definition with_solver {X} (solve : qp_solver) (cfg : asif_cfg X) : asif_cfg X :=
  mkAsifCfg (ac_bounds cfg) (ac_eps cfg) (ac_dim cfg) (ac_exc cfg) (ac_f cfg) (ac_g cfg) solve.

(** An explicit module after construction and any history of operations. *)
Definition explicit_reached {X P} (cfg : asif_cfg X) (s : amod X P unit) : Prop :=
  exists defined to_use directs s0 os seen,
    distinct_keys defined /\ distinct_keys directs /\
    asif_init cfg defined to_use directs tt = Ok s0 /\
    asif_run (explicit_asif_filter_control cfg) explicit_asif_reset os s0 = (seen, s).

(** The same for an implicit module. *)
Definition implicit_reached {X P} (cfg : asif_cfg X) (ic : imp_cfg X) (s : amod X P ctl) : Prop :=
  exists defined to_use directs initial s0 os seen,
    distinct_keys defined /\ distinct_keys directs /\
    implicit_asif_init cfg defined to_use directs initial = Ok s0 /\
    asif_run (implicit_asif_filter_control cfg ic) implicit_asif_reset os s0 = (seen, s).

(** The names of given rows (1-based), each once, in order of first appearance. *)
Inductive names_of (names : list string) : list nat -> list string -> list string -> Prop :=
| no_nil acc : names_of names [] acc acc
| no_old j k iact acc out : nth_error names j = Some k -> In k acc ->
    names_of names iact acc out -> names_of names (S j :: iact) acc out
| no_new j k iact acc out : nth_error names j = Some k -> ~ In k acc ->
    names_of names iact (acc ++ [k]) out -> names_of names (S j :: iact) acc out.

(** An explicit module in use: reached by some history, switched on, with arrays of the
    promised shapes at state [x] and a desired control of control_dim entries. *)
Record in_use {X P} (cfg : asif_cfg X) (n : nat) (s : amod X P unit) (x : X) (u : vec) : Prop := mkInUse {
  iu_reached : explicit_reached cfg s;
  iu_fits : fits (ac_bounds cfg) (ac_dim cfg);
  iu_shaped : shaped n (ac_dim cfg) (ac_f cfg) (ac_g cfg) (asif_constraints s) (asif_directs s) x;
  iu_strengthened : strengthened (asif_constraints s);
  iu_enabled : enable s = true;
  iu_length : length u = ac_dim cfg }.

(** The decision vectors acceptable to a module: right length and requirements met. *)
Definition allowed {X P Z} (cfg : asif_cfg X) (s : amod X P Z) (x : X) (z : vec) : Prop :=
  length z = (ac_dim cfg + slack_count (asif_constraints s))%nat /\
  acceptable (ac_bounds cfg) (ac_dim cfg) (ac_f cfg) (ac_g cfg) (asif_constraints s) (asif_directs s) x z.

(** Half the squared distance from the desired control plus half the weighted squared slacks. *)
Definition slack_cost (dim : nat) (weights : vec) (u z : vec) : R :=
  / 2 * dist2 u (firstn dim z) + / 2 * weighted_squares weights (skipn dim z).

(** The dictionary of direct inequalities without the disabled ones. *)
Fixpoint without_disabled_direct {X P} (ds : dict (direct X P)) : dict (direct X P) :=
  match ds with
  | [] => []
  | (k, d) :: ds' => if d_enabled d then (k, d) :: without_disabled_direct ds' else without_disabled_direct ds'
  end.

(** All slack scales are positive. *)
Definition positive_scales {X P} (cs : dict (constraint X P)) : Prop :=
  forall k c p, In (k, c) cs -> c_slack c = Some p -> 0 < p.
