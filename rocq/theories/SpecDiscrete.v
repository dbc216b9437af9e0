(** Specification vocabulary for the discrete ASIF module. *)
From Coq Require Import String Reals List Bool ZArith.
From Verif Require Import Prelude Vec ModelBase ModelController ModelSimplex ModelAsif ModelDiscrete SpecCore SpecAsif.
Import ListNotations.
Local Open Scope R_scope.

(** A point respects the limits given per variable. *)
Definition in_limits (lims : list (option R * option R)) (z : vec) : Prop :=
  forall i lim v, nth_error lims i = Some lim -> nth_error z i = Some v ->
    (forall l, fst lim = Some l -> l <= v) /\ (forall h, snd lim = Some h -> v <= h).

(** What is assumed of SLSQP when it reports success: a point of the right length, inside the
    limits, where no inequality function is below minus the tolerance.  Nothing is assumed
    about optimality, nor about calls that fail. *)
Definition slsqp_contract (tol : R) (solve : slsqp) : Prop :=
  forall obj x0 cons lims z, solve obj x0 cons lims = Ok (true, z) ->
    length z = length x0 /\ in_limits lims z /\
    (forall g v, In g cons -> g z = Ok v -> - tol <= v).

(** The constraint's value with its bias and present parameters. *)
Definition level {X P} (c : constraint X P) (x : X) : R := c_fun c x (c_params c) + c_bias c.
(** The strengthening function (0 if there is none). *)
Definition decay {X P} (c : constraint X P) (h : R) : R :=
  match c_alpha c with Some a => a h | None => 0 end.

(** The discrete barrier condition, up to a tolerance: after the step the level is at least
    h - dt alpha(h) + dt slack - dt tol. *)
Definition steps_well {X P} (next : X -> R -> vec -> X) (tol : R) (c : constraint X P)
    (x : X) (dt : R) (u : vec) (slack : R) : Prop :=
  level c x - dt * decay c (level c x) + dt * slack - dt * tol <= level c (next x dt u).

(** The enabled constraints, each with the number of its slack variable: the slack variables
    of all constraints, enabled or not, are counted in order. *)
Fixpoint enabled_places {X P} (j : nat) (cs : dict (constraint X P)) : list (constraint X P * nat) :=
  match cs with
  | [] => []
  | (k, c) :: cs' =>
      (if c_enabled c then [(c, j)] else []) ++ enabled_places (if has_slack (k, c) then S j else j) cs'
  end.

(** The inequality functions of a program say exactly that the enabled constraints step well,
    one function per enabled constraint, in order. *)
Definition program_says {X P} (next : X -> R -> vec -> X) (dim : nat) (cs : dict (constraint X P))
    (x : X) (dt : R) (cons : list (vec -> res R)) : Prop :=
  Forall2 (fun g cj => forall z, exists v, g z = Ok v /\
             (forall tol, - tol <= v <->
                steps_well next tol (fst cj) x dt (firstn dim z) (slack_value dim (fst cj) (snd cj) z)))
          cons (enabled_places 0 cs).

(** The limits of a program: the module's bounds on every control, nothing on the slacks. *)
Definition limits_say (b : bounds) (dim slacks : nat) (lims : list (option R * option R)) : Prop :=
  length lims = (dim + slacks)%nat /\
  (forall i, (i < dim)%nat -> nth_error lims i = Some (bound_at (b_low b) i, bound_at (b_high b) i)) /\
  (forall i, (dim <= i < dim + slacks)%nat -> nth_error lims i = Some (None, None)).

(** A bound that is absent, a number or an array with one element. *)
Definition one_number (b : option bnd) : Prop :=
  match b with Some (BVec v) => length v = 1%nat | _ => True end.

(** The module's constraints and the number of warnings issued so far. *)
Definition disc_constraints {X P} (s : dmod X P) : dict (constraint X P) := cb_constraints (ext s).
Definition disc_warnings {X P} (s : dmod X P) : nat := ds_warned (cb_ext (ext s)).

(** The same configuration with another solver. *)
Definition with_slsqp {X} (solve : slsqp) (cfg : disc_cfg X) : disc_cfg X :=
  mkDiscCfg (dc_bounds cfg) (dc_eps cfg) (dc_dim cfg) (dc_exc cfg) (dc_next cfg) solve.

(** A discrete module after construction and any history of operations. *)
Definition disc_reached {X P} (cfg : disc_cfg X) (s : dmod X P) : Prop :=
  exists defined to_use s0 os seen,
    distinct_keys defined /\ disc_init cfg defined to_use = Ok s0 /\
    cb_run (disc_filter_control cfg) disc_reset os s0 = (seen, s).

(** The module is in use: reached, enabled, with strengthening functions, bounds that are
    numbers, and called with a control of the right length and a positive step. *)
Record disc_in_use {X P} (cfg : disc_cfg X) (s : dmod X P) (dt : R) (u : vec) : Prop := mkDiscInUse {
  du_reached : disc_reached cfg s;
  du_low : one_number (b_low (dc_bounds cfg));
  du_high : one_number (b_high (dc_bounds cfg));
  du_strengthened : strengthened (disc_constraints s);
  du_enabled : enable s = true;
  du_step : 0 < dt;
  du_length : length u = dc_dim cfg }.

(** The closed loop: at each step some control is desired, the module's answer is applied to
    the plant for one step and no warning is issued.  [xs] are the states reached. *)
Inductive disc_loop {X P} (cfg : disc_cfg X) (dt : R) : dmod X P -> X -> list X -> Prop :=
| dl_nil s x : disc_loop cfg dt s x []
| dl_cons s x u w s' xs :
    length u = dc_dim cfg ->
    disc_filter_control cfg (InArray x) dt u s = (Ok w, s') ->
    disc_warnings s' = disc_warnings s ->
    disc_loop cfg dt s' (dc_next cfg x dt w) xs ->
    disc_loop cfg dt s x (dc_next cfg x dt w :: xs).

(** Two sets of constraints that differ only inside disabled constraints: same names, same
    flags, slack scales in the same places, and the enabled ones are identical. *)
Definition same_enabled {X P} (cs cs' : dict (constraint X P)) : Prop :=
  Forall2 (fun kc kc' => fst kc = fst kc' /\ c_enabled (snd kc) = c_enabled (snd kc') /\
             c_slack (snd kc) = c_slack (snd kc') /\ (c_enabled (snd kc) = true -> kc = kc')) cs cs'.

(** A module newly built from given constraints. *)
Definition disc_new {X P} (cfg : disc_cfg X) (cs : dict (constraint X P)) (fresh : dmod X P) : Prop :=
  disc_init cfg cs None = Ok fresh.
