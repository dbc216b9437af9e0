(** Specification of the constructors of the library: for every class the options
    its documentation lists, which part of the object uses the option, and what
    holds when the option is not given. *)
From Coq Require Import String List QArith.
From Verif Require Import ModelArgs.
Import ListNotations.
Local Open Scope string_scope.
Local Open Scope list_scope.

(** An option must be given; or it has a default; or it may be None, in the place of
    which another value is then used (and it is None if not given). *)
Inductive default : Type :=
| Required
| Default (v : pyval)
| InsteadOfNone (v : pyval).

(** An option, the class that uses its value, and its default. *)
Record opt : Type := Opt { o_name : string; o_user : string; o_default : default }.

(** The value of an option in a call with keyword arguments [kw]. *)
Definition option_value (kw : kwargs) (o : opt) : option pyval :=
  match o_default o, lookup (o_name o) kw with
  | InsteadOfNone v, None => Some v
  | InsteadOfNone v, Some PNone => Some v
  | _, Some v => Some v
  | Default v, None => Some v
  | Required, None => None
  end.

Definition option_names (l : list opt) : list string := map o_name l.

Definition num (z : Z) : pyval := PNum (z # 1).
Definition own (c : string) (l : list (string * pyval)) : list opt :=
  map (fun p => Opt (fst p) c (Default (snd p))) l.
Definition must (c : string) (l : list string) : list opt :=
  map (fun p => Opt p c Required) l.

(** Options of the base classes. *)
Definition bounds_opts (high low : pyval) : list opt :=
  own "RTAModule" [("control_bounds_high", high); ("control_bounds_low", low)].
Definition constraint_opts (jit : default) : list opt :=
  Opt "jit_compile_dict" "ConstraintBasedRTA" jit
  :: own "ConstraintBasedRTA" [("jit_enable", PBool true); ("constraints_to_use", PNone)].
Definition backup_opts (d : default) : list opt :=
  [Opt "backup_controller" "BackupControlBasedRTA" d].
Definition latch_opts : list opt := own "SimplexModule" [("latch_time", num 0)].
Definition optimization_opts : list opt :=
  own "BaseOptimizationModule"
      [("epsilon", PNum (1 # 100)); ("solver_exception", PBool false)].
Definition control_dim_opt : list opt := must "BaseOptimizationModule" ["control_dim"].
Definition window_opt (c : string) (d : default) : list opt := [Opt "backup_window" c d].
Definition base_bounds : list opt := bounds_opts PNone PNone.
Definition base_constraint : list opt := constraint_opts (Default PNone).

(** Options of the problems in the zoo. *)
Definition cwh (c : string) : list opt :=
  own c [("m", PObj "defaults.M_DEFAULT"); ("n", PObj "defaults.N_DEFAULT")].
Definition velocity (c : string) (v1 : Z) : list opt :=
  own c [("v0", PNum (1 # 5)); ("v1_coef", num v1); ("v0_distance", num 0)].
Definition docking2d (c : string) : list opt :=
  cwh c ++ velocity c 2 ++ own c [("x_vel_limit", num 10); ("y_vel_limit", num 10)].
Definition docking3d (c : string) : list opt :=
  cwh c ++ velocity c 4
  ++ own c [("x_vel_limit", num 10); ("y_vel_limit", num 10); ("z_vel_limit", num 10)].
Definition integrator (c : string) : list opt := own c [("m", PObj "M_DEFAULT")].
Definition inspection (c : string) : list opt :=
  cwh c ++ velocity c 2
  ++ own c [("chief_radius", num 5); ("deputy_radius", num 5); ("r_max", num 1000);
            ("fov", PObj "FOV_DEFAULT"); ("vel_limit", num 1);
            ("sun_vel", PObj "SUN_VEL_DEFAULT")].
Definition delta_v (c : string) : list opt := own c [("delta_v_limit", num 20)].
Definition unit_bounds : list opt := bounds_opts (num 1) (num (-1)).
Definition lqr2d : default :=
  InsteadOfNone (PObj "Docking2dStopLQRBackupController(m=self.m, n=self.n)").
Definition lqr3d : default :=
  InsteadOfNone (PObj "Docking3dStopLQRBackupController(m=self.m, n=self.n)").
Definition brake1d : default := InsteadOfNone (PObj "Integrator1dDockingBackupController()").
Definition jit_check : list opt :=
  constraint_opts (InsteadOfNone (PObj "{'constraint_violation': True}")).
Definition jit_barrier : list opt :=
  constraint_opts (InsteadOfNone (PObj "{'generate_barrier_constraint_mats': True}")).
Definition jit_ineq : list opt :=
  constraint_opts (InsteadOfNone (PObj "{'generate_ineq_constraint_mats': True}")).

(** The four modules of a docking problem. *)
Definition explicit_switching (c : string) (own_opts : list opt) (b : default) (meth : string) :=
  (c, own_opts ++ unit_bounds ++ jit_check ++ backup_opts b ++ latch_opts
      ++ own c [("integration_method", PStr meth)]).
Definition implicit_switching (c : string) (own_opts : list opt) (b : default) (meth : string) (w : Z) :=
  (c, own_opts ++ unit_bounds ++ jit_check ++ backup_opts b ++ latch_opts
      ++ window_opt "ImplicitSimplexModule" (Default (num w))
      ++ own c [("integration_method", PStr meth)]).
Definition explicit_optimization (c : string) (own_opts : list opt) :=
  (c, own_opts ++ unit_bounds ++ jit_barrier ++ optimization_opts).
Definition implicit_optimization (c : string) (own_opts : list opt) (b : default) (meth : string) (w : Z) :=
  (c, own_opts ++ unit_bounds ++ jit_ineq ++ backup_opts b ++ optimization_opts
      ++ window_opt "ImplicitASIFModule" (Default (num w))
      ++ own "ImplicitASIFModule" [("integration_method", PStr meth)]).

Definition docking_modules : list (string * list opt) :=
  [explicit_switching "Docking2dExplicitSwitchingRTA"
     (docking2d "Docking2dExplicitSwitchingRTA") lqr2d "RK45";
   implicit_switching "Docking2dImplicitSwitchingRTA"
     (docking2d "Docking2dImplicitSwitchingRTA") lqr2d "RK45" 5;
   explicit_optimization "Docking2dExplicitOptimizationRTA"
     (docking2d "Docking2dExplicitOptimizationRTA");
   implicit_optimization "Docking2dImplicitOptimizationRTA"
     (docking2d "Docking2dImplicitOptimizationRTA") lqr2d "RK45" 5;
   explicit_switching "Docking3dExplicitSwitchingRTA"
     (docking3d "Docking3dExplicitSwitchingRTA") lqr3d "RK45";
   implicit_switching "Docking3dImplicitSwitchingRTA"
     (docking3d "Docking3dImplicitSwitchingRTA") lqr3d "RK45" 5;
   explicit_optimization "Docking3dExplicitOptimizationRTA"
     (docking3d "Docking3dExplicitOptimizationRTA");
   implicit_optimization "Docking3dImplicitOptimizationRTA"
     (docking3d "Docking3dImplicitOptimizationRTA") lqr3d "RK45" 5;
   explicit_switching "Integrator1dDockingExplicitSwitchingRTA"
     (integrator "Integrator1dDockingExplicitSwitchingRTA") brake1d "Euler";
   implicit_switching "Integrator1dDockingImplicitSwitchingRTA"
     (integrator "Integrator1dDockingImplicitSwitchingRTA") brake1d "Euler" 2;
   explicit_optimization "Integrator1dDockingExplicitOptimizationRTA"
     (integrator "Integrator1dDockingExplicitOptimizationRTA");
   implicit_optimization "Integrator1dDockingImplicitOptimizationRTA"
     (integrator "Integrator1dDockingImplicitOptimizationRTA") brake1d "Euler" 2].

Definition other_modules : list (string * list opt) :=
  [("ExplicitSimplexModule",
    base_bounds ++ base_constraint ++ backup_opts Required ++ latch_opts);
   ("ImplicitSimplexModule",
    base_bounds ++ base_constraint ++ backup_opts Required ++ latch_opts
    ++ window_opt "ImplicitSimplexModule" Required);
   ("ExplicitASIFModule",
    base_bounds ++ base_constraint ++ optimization_opts ++ control_dim_opt);
   ("ImplicitASIFModule",
    base_bounds ++ base_constraint ++ backup_opts Required ++ optimization_opts
    ++ control_dim_opt ++ window_opt "ImplicitASIFModule" Required
    ++ own "ImplicitASIFModule" [("integration_method", PStr "RK45")]);
   ("DiscreteASIFModule",
    base_bounds ++ base_constraint ++ optimization_opts ++ control_dim_opt);
   ("DiscreteASIFIntegratorModule",
    base_bounds ++ base_constraint ++ optimization_opts ++ control_dim_opt);
   ("CascadedRTA", base_bounds);
   ("Inspection1v1RTA",
    inspection "Inspection1v1RTA" ++ delta_v "Inspection1v1RTA"
    ++ own "Inspection1v1RTA" [("use_hocbf", PBool false)]
    ++ unit_bounds ++ base_constraint ++ optimization_opts);
   ("DiscreteInspection1v1RTA",
    inspection "DiscreteInspection1v1RTA" ++ delta_v "DiscreteInspection1v1RTA"
    ++ unit_bounds ++ base_constraint ++ optimization_opts);
   ("InspectionRTA",
    inspection "InspectionRTA" ++ own "InspectionRTA" [("num_deputies", num 5)]
    ++ unit_bounds ++ base_constraint ++ optimization_opts);
   ("SwitchingDeltaVLimitRTA",
    cwh "SwitchingDeltaVLimitRTA" ++ delta_v "SwitchingDeltaVLimitRTA"
    ++ own "SwitchingDeltaVLimitRTA" [("n_steps", num 500)] ++ unit_bounds);
   ("InspectionCascadedRTA", base_bounds);
   ("CombinedInspectionRTA",
    own "CombinedInspectionRTA"
        [("num_deputies", num 5); ("deputy_rta", PObj "InspectionRTA()")]
    ++ unit_bounds)].

Definition modules : list (string * list opt) := docking_modules ++ other_modules.

(** The sample tests. *)
Definition simulation : list opt :=
  must "BaseSampleTestingModule" ["simulation_time"; "step_size"; "control_dim"; "state_dim"].
Definition simulation_defaults : list opt :=
  own "BaseSampleTestingModule"
      [("simulation_time", num 100); ("step_size", num 1); ("control_dim", num 2);
       ("state_dim", num 4)].
Definition assurance : list opt := must "SafetyAssuranceSampleTestingModule" ["rta"; "n_points"].
Definition assurance_defaults : list opt :=
  [Opt "rta" "SafetyAssuranceSampleTestingModule"
       (InsteadOfNone (PObj "Docking2dExplicitOptimizationRTA()"));
   Opt "n_points" "SafetyAssuranceSampleTestingModule" (Default (num 100))].
Definition sample_tests : list (string * list opt) :=
  [("DataTrackingSampleTestingModule",
    simulation ++ must "DataTrackingSampleTestingModule" ["rta"]
    ++ own "DataTrackingSampleTestingModule" [("check_init_state", PBool true)]);
   ("SafetyAssuranceSampleTestingModule", simulation ++ assurance);
   ("LatinHypercubeRandomSampleTestingModule",
    simulation ++ assurance
    ++ must "LatinHypercubeRandomSampleTestingModule" ["bounds"; "multiplier"]);
   ("ParametricRandomSampleTestingModule",
    simulation ++ assurance
    ++ must "ParametricRandomSampleTestingModule" ["state_pdfs"; "distribution_params"]);
   ("Docking2DLatinHypercubeRandomSampleTest",
    simulation_defaults ++ assurance_defaults
    ++ [Opt "bounds" "LatinHypercubeRandomSampleTestingModule"
            (InsteadOfNone
               (PObj "np.array([[-10000, -10000, -5, -5], [10000, 10000, 5, 5]])"));
        Opt "multiplier" "LatinHypercubeRandomSampleTestingModule" (Default (num 3))]);
   ("Docking2DParametricRandomSampleTest",
    simulation_defaults ++ assurance_defaults
    ++ [Opt "state_pdfs" "ParametricRandomSampleTestingModule"
            (InsteadOfNone (PObj "['gaussian', 'gaussian', 'gaussian', 'gaussian']"));
        Opt "distribution_params" "ParametricRandomSampleTestingModule"
            (InsteadOfNone (PObj "np.array([[0, 0, 0, 0], [5000, 5000, 2, 2]])"))])].

(** The constraints.  All take the options of the base class; those that have
    parameters of their own make the dictionary of parameters from these. *)
Definition constraint_base (alpha : default) : list opt :=
  Opt "alpha" "ConstraintModule" alpha
  :: own "ConstraintModule"
       [("alpha_negative", PNone); ("bias", num 0); ("bias_negative", PNum (-1 # 100));
        ("jit_enable", PBool true); ("slack_priority_scale", PNone); ("enabled", PBool true);
        ("num_check_all", num (-1)); ("skip_length", num 1);
        ("subsample_constraints_num_least", PNone); ("keep_first", PBool false);
        ("keep_last", PBool false)].
Definition params_opt : list opt := own "ConstraintModule" [("params", PNone)].
Definition poly (l : string) : default :=
  InsteadOfNone (PObj ("PolynomialConstraintStrengthener(" ++ l ++ ")")).

(** Constraints that make their own dictionary of parameters. *)
Definition constraints_with_params : list (string * list opt) :=
  let limit c := (c, constraint_base (poly "[0, 0.0005, 0, 0.001]")
                     ++ must c ["limit_val"; "state_index"]) in
  let speed c l := (c, constraint_base (poly l) ++ must c ["v0"; "v1"]
                       ++ own c [("v0_distance", num 0); ("delta", PNum (1 # 100000))]) in
  let usual := constraint_base (poly "[0, 0.01, 0, 0.001]") in
  [limit "ConstraintMagnitudeStateLimit"; limit "ConstraintMaxStateLimit";
   limit "ConstraintMinStateLimit";
   ("HOCBFConstraint",
    constraint_base Required
    ++ must "HOCBFConstraint" ["constraint"; "relative_degree"; "state_transition_system"]);
   speed "ConstraintDocking2dRelativeVelocity" "[0, 0.01, 0, 0.1]";
   speed "ConstraintCWH3dRelativeVelocity" "[0, 0.05, 0, 0.005]";
   ("ConstraintCWHChiefCollision",
    usual ++ must "ConstraintCWHChiefCollision" ["collision_radius"; "a_max"]);
   ("ConstraintCWHConicKeepOutZone",
    constraint_base (poly "[0, 0.001, 0, 0.0001]")
    ++ must "ConstraintCWHConicKeepOutZone"
            ["a_max"; "fov"; "get_pos"; "get_vel"; "get_cone_vec"; "cone_ang_vel"]);
   ("ConstraintPassivelySafeManeuver",
    usual ++ must "ConstraintPassivelySafeManeuver" ["collision_radius"; "m"; "n"; "dt"; "steps"]);
   ("ConstraintCWHMaxDistance", usual ++ must "ConstraintCWHMaxDistance" ["r_max"; "a_max"]);
   ("HOCBFExampleChiefCollision",
    constraint_base (poly "[0, 0.01, 0, 0.01]")
    ++ must "HOCBFExampleChiefCollision" ["collision_radius"]);
   ("ConstraintCWHDeputyCollision",
    usual ++ must "ConstraintCWHDeputyCollision" ["collision_radius"; "a_max"; "deputy"]);
   ("ConstraintPSMDeputy",
    usual ++ must "ConstraintPSMDeputy" ["collision_radius"; "m"; "n"; "dt"; "steps"; "deputy"])].

(** Constraints that take the dictionary of parameters from the user. *)
Definition plain_constraints : list (string * list opt) :=
  [("ConstraintModule", constraint_base (Default PNone) ++ params_opt);
   ("ConstraintIntegrator1dDockingCollisionExplicit",
    constraint_base (poly "[0, 1, 0, 30]") ++ params_opt);
   ("ConstraintIntegrator1dDockingCollisionImplicit",
    constraint_base (poly "[0, 10, 0, 30]") ++ params_opt)].

Definition constraints : list (string * list opt) :=
  constraints_with_params ++ plain_constraints.

(** The options that must be given are given. *)
Definition complete (opts : list opt) (kw : kwargs) : Prop :=
  forall o, In o opts -> o_default o = Required -> In (o_name o) (keys kw).
(** Every keyword given is one of the options. *)
Definition known (opts : list opt) (kw : kwargs) : Prop :=
  forall k, In k (keys kw) -> In k (option_names opts).
(** The integration method, if given, is one of the two that exist. *)
Definition valid_method (kw : kwargs) : Prop :=
  forall v, In ("integration_method", v) kw -> v = PStr "RK45" \/ v = PStr "Euler".
(** Every option has arrived, with the value given or its default, at the part that
    uses it. *)
Definition honoured (opts : list opt) (kw : kwargs) (r : received) : Prop :=
  forall o, In o opts -> got r (o_user o) (o_name o) = option_value kw o.

(** [in_order s l]: the members of [s]
    occur in [l] in the same order. *)
Inductive in_order {A : Type} : list A -> list A -> Prop :=
| io_nil : in_order [] []
| io_skip x s l : in_order s l -> in_order s (x :: l)
| io_take x s l : in_order s l -> in_order (x :: s) (x :: l).

(** What python's documentation promises of a method resolution order [l] of a class [c] with the
    bases [bs], whose own orders are given by [order]: the class comes first, no class occurs twice,
    the bases keep the order of the class statement, and each base's own order is kept. *)
Record resolves (order : string -> list string) (c : string) (bs l : list string) : Prop := mkResolves {
  rs_first : hd_error l = Some c;
  rs_once : NoDup l;
  rs_bases : in_order bs l;
  rs_orders : forall b, In b bs -> in_order (order b) l;
  rs_only : forall d, In d l -> d = c \/ exists b, In b bs /\ In d (order b) }.
