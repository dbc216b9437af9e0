(** Model of the way arguments travel through the constructors of the library:
    python's binding of arguments to parameters, the method resolution order, and
    for every class its constructor's parameters, defaults and the arguments it
    hands on to the next constructor.  File names in the comments are relative to
    run_time_assurance/. *)
From Coq Require Import String List Bool QArith.
From Verif Require Import Prelude.
Import ListNotations.
Local Open Scope string_scope.

(** Argument values.  Numbers, flags, None and strings occur as defaults; [PObj]
    stands for every other object, named by the expression that makes it. *)
Inductive pyval : Type :=
| PNone
| PBool (b : bool)
| PNum (q : Q)
| PStr (s : string)
| PObj (s : string).

Definition mem (k : string) (l : list string) : bool := existsb (String.eqb k) l.

(** A keyword dictionary. *)
Definition kwargs : Type := list (string * pyval).
Definition keys (kw : kwargs) : list string := map fst kw.
Fixpoint lookup (k : string) (kw : kwargs) : option pyval :=
  match kw with
  | [] => None
  | (k', v) :: r => if String.eqb k k' then Some v else lookup k r
  end.

(** A parameter and its default, if it has one. *)
Definition param : Type := (string * option pyval)%type.
Definition names (ps : list param) : list string := map fst ps.

(** The value a constructor hands on under some keyword: one of its own
    parameters, one of its own parameters unless that is None, or a value it makes
    itself. *)
Inductive fwd : Type :=
| FParam (p : string)
| FUnlessNone (p : string) (v : pyval)
| FConst (v : pyval).

(** What a constructor does with the arguments it has no parameter for: it calls
    the next constructor with some keywords of its own, followed by those
    arguments; or it builds a pydantic model from the keywords; or it ends. *)
Inductive super : Type :=
| SCall (forwarded : list (string * fwd))
| SValidator (fields : list param)
| SNone.

(** A constructor: class, positional parameters, whether it has *args, parameters
    after *args, whether it has **kwargs, and what follows.  Every constructor of
    the library that has *args or **kwargs hands both on in its super call, so
    that a flag for this is not needed. *)
Record init : Type := mkInit {
  i_class : string;
  i_pos : list param;
  i_star : bool;
  i_kwonly : list param;
  i_kw : bool;
  i_super : super }.

Definition params (i : init) : list param := (i_pos i ++ i_kwonly i)%list.

(** Python's binding of the arguments of a call (language reference, 6.3.4):
    positional arguments fill the positional parameters in order. *)
Fixpoint take_pos (ps : list param) (args : list pyval) : kwargs * list pyval :=
  match ps, args with
  | (p, _) :: ps', a :: args' =>
      let '(b, x) := take_pos ps' args' in ((p, a) :: b, x)
  | _, _ => ([], args)
  end.

(** Every parameter has the value given for it, or else its default; a parameter
    with neither is an error. *)
Fixpoint fill (ps : list param) (given : kwargs) : res kwargs :=
  match ps with
  | [] => Ok []
  | (p, d) :: ps' =>
      match (match lookup p given with Some v => Some v | None => d end) with
      | None => Err TypeError
      | Some v => match fill ps' given with
                  | Err e => Err e
                  | Ok env => Ok ((p, v) :: env)
                  end
      end
  end.

Definition is_nil {A} (l : list A) : bool := match l with [] => true | _ => false end.

(** The result of binding: the values of the parameters, the surplus positional
    arguments and the surplus keywords.  Surplus arguments without *args or
    **kwargs to take them, and a parameter given both by position and by keyword,
    are TypeErrors. *)
Definition bind_args (i : init) (args : list pyval) (kw : kwargs)
  : res (kwargs * list pyval * kwargs) :=
  let '(bp, xs) := take_pos (i_pos i) args in
  if negb (i_star i) && negb (is_nil xs) then Err TypeError
  else if existsb (fun p => mem (fst p) (keys kw)) bp then Err TypeError
  else
    let rest := filter (fun p => negb (mem (fst p) (names (params i)))) kw in
    if negb (i_kw i) && negb (is_nil rest) then Err TypeError
    else match fill (params i) (bp ++ kw)%list with
         | Err e => Err e
         | Ok env => Ok (env, xs, rest)
         end.

Definition handed_on (env : kwargs) (f : fwd) : pyval :=
  let own p := match lookup p env with Some v => v | None => PNone end in
  match f with
  | FParam p => own p
  | FUnlessNone p v => match own p with PNone => v | w => w end
  | FConst v => v
  end.

(** What a construction leaves behind: which class received which value for which
    of its parameters. *)
Definition received : Type := list (string * string * pyval).
Definition tag (c : string) (env : kwargs) : received :=
  map (fun p => (c, fst p, snd p)) env.

(** The chain of constructors run one after the other.  At the end of the chain
    stands object.__init__, which takes no arguments: TypeError.  A keyword handed
    on both explicitly and in **kwargs is a TypeError (multiple values).  A pydantic
    model ignores keywords that are not its fields (the default of pydantic's
    extra option).
    Simplifications: the other statements of the constructors, among them the
    methods they call and pydantic's check of the types of its fields, are not part
    of this model; a construction that succeeds here may still fail there. *)
Fixpoint construct (chain : list init) (args : list pyval) (kw : kwargs)
  : res received :=
  match chain with
  | [] => if is_nil args && is_nil kw then Ok [] else Err TypeError
  | i :: rest =>
      match bind_args i args kw with
      | Err e => Err e
      | Ok (env, xs, rkw) =>
          match i_super i with
          | SNone => Ok (tag (i_class i) env)
          | SValidator fields =>
              match fill fields rkw with
              | Err e => Err e
              | Ok fenv => Ok (tag (i_class i) env ++ tag (i_class i) fenv)%list
              end
          | SCall fw =>
              if existsb (fun p => mem (fst p) (keys rkw)) fw then Err TypeError
              else match construct rest xs
                           (map (fun p => (fst p, handed_on env (snd p))) fw ++ rkw)%list with
                   | Err e => Err e
                   | Ok r => Ok (tag (i_class i) env ++ r)%list
                   end
          end
      end
  end.

(** The method resolution order (C3): a class, then the merge of the orders of its
    bases and of the list of bases.  The merge takes the first head that occurs in
    no tail. *)
Definition heads_ok (c : string) (seqs : list (list string)) : bool :=
  forallb (fun s => negb (mem c (tl s))) seqs.
Fixpoint pick (cands : list (list string)) (seqs : list (list string)) : option string :=
  match cands with
  | [] => None
  | [] :: r => pick r seqs
  | (c :: _) :: r => if heads_ok c seqs then Some c else pick r seqs
  end.
Definition drop_head (c : string) (s : list string) : list string :=
  match s with x :: r => if String.eqb c x then r else s | [] => [] end.
Fixpoint merge (fuel : nat) (seqs : list (list string)) : list string :=
  match fuel with
  | O => []
  | S f => match pick seqs seqs with
           | None => []
           | Some c => c :: merge f (map (drop_head c) seqs)
           end
  end.

(** The fields of SubsampleConfigValidator, constraint.py 39-43. *)
Definition subsample_fields : list param :=
  [("num_check_all", Some (PNum (-1 # 1))); ("skip_length", Some (PNum (1 # 1)));
   ("subsample_constraints_num_least", Some PNone);
   ("keep_first", Some (PBool false)); ("keep_last", Some (PBool false))].

(** The constructors of the classes.  A parameter that is read and replaced when it
    is None before being handed on appears as [FUnlessNone].  The control dimension
    that the inspection modules hand on is the number of columns of the
    Clohessy-Wiltshire input matrix, 3 (inspection_1v1.py 222, 465,
    inspection_3d.py 139). *)

(** rta/base.py 29-50. *)
Definition init_RTAModule : init :=
  mkInit "RTAModule"
    [] true
    [("control_bounds_high", Some PNone); ("control_bounds_low", Some PNone)] true
    (SCall []).

(** rta/base.py 162-172. *)
Definition init_ConstraintBasedRTA : init :=
  mkInit "ConstraintBasedRTA"
    [] true
    [("control_bounds_high", Some PNone); ("control_bounds_low", Some PNone);
     ("jit_compile_dict", Some PNone); ("jit_enable", Some (PBool true));
     ("constraints_to_use", Some PNone)] true
    (SCall [("control_bounds_high", FParam "control_bounds_high");
     ("control_bounds_low", FParam "control_bounds_low")]).

(** rta/base.py 363-365. *)
Definition init_CascadedRTA : init :=
  mkInit "CascadedRTA"
    [] true
    [] true
    (SCall []).

(** rta/base.py 400-402. *)
Definition init_BackupControlBasedRTA : init :=
  mkInit "BackupControlBasedRTA"
    [] true
    [("backup_controller", None)] true
    (SCall []).

(** rta/simplex.py 30-33. *)
Definition init_SimplexModule : init :=
  mkInit "SimplexModule"
    [] true
    [("latch_time", Some (PNum (0 # 1)))] true
    (SCall []).

(** rta/simplex.py 252-254. *)
Definition init_ImplicitSimplexModule : init :=
  mkInit "ImplicitSimplexModule"
    [] true
    [("backup_window", None); ("backup_controller", None)] true
    (SCall [("backup_controller", FParam "backup_controller")]).

(** rta/asif.py 42-44. *)
Definition init_BaseOptimizationModule : init :=
  mkInit "BaseOptimizationModule"
    [] true
    [("epsilon", Some (PNum (1 # 100))); ("control_dim", None);
     ("solver_exception", Some (PBool false))] true
    (SCall []).

(** rta/asif.py 86-87. *)
Definition init_ASIFModule : init :=
  mkInit "ASIFModule"
    [] true
    [] true
    (SCall []).

(** rta/asif.py 473-486. *)
Definition init_ImplicitASIFModule : init :=
  mkInit "ImplicitASIFModule"
    [] true
    [("backup_window", None); ("backup_controller", None);
     ("integration_method", Some (PStr "RK45"))] true
    (SCall [("backup_controller", FParam "backup_controller")]).

(** rta/asif.py 978-979. *)
Definition init_DiscreteASIFModule : init :=
  mkInit "DiscreteASIFModule"
    [] true
    [] true
    (SCall []).

(** rta/asif.py 1062-1063. *)
Definition init_DiscreteASIFIntegratorModule : init :=
  mkInit "DiscreteASIFIntegratorModule"
    [] true
    [] true
    (SCall []).

(** zoo/cwh/docking_2d.py 196-236. *)
Definition init_Docking2dExplicitSwitchingRTA : init :=
  mkInit "Docking2dExplicitSwitchingRTA"
    [] true
    [("m", Some (PObj "defaults.M_DEFAULT"));
     ("n", Some (PObj "defaults.N_DEFAULT")); ("v0", Some (PNum (1 # 5)));
     ("v1_coef", Some (PNum (2 # 1))); ("v0_distance", Some (PNum (0 # 1)));
     ("x_vel_limit", Some (PNum (10 # 1))); ("y_vel_limit", Some (PNum (10 # 1)));
     ("control_bounds_high", Some (PNum (1 # 1)));
     ("control_bounds_low", Some (PNum (-1 # 1)));
     ("backup_controller", Some PNone); ("jit_compile_dict", Some PNone);
     ("integration_method", Some (PStr "RK45"))] true
    (SCall [("control_bounds_high", FParam "control_bounds_high");
     ("control_bounds_low", FParam "control_bounds_low");
     ("backup_controller", FUnlessNone "backup_controller" (PObj "Docking2dStopLQRBackupController(m=self.m, n=self.n)"));
     ("jit_compile_dict", FUnlessNone "jit_compile_dict" (PObj "{'constraint_violation': True}"))]).

(** zoo/cwh/docking_2d.py 290-332. *)
Definition init_Docking2dImplicitSwitchingRTA : init :=
  mkInit "Docking2dImplicitSwitchingRTA"
    [] true
    [("backup_window", Some (PNum (5 # 1)));
     ("m", Some (PObj "defaults.M_DEFAULT"));
     ("n", Some (PObj "defaults.N_DEFAULT")); ("v0", Some (PNum (1 # 5)));
     ("v1_coef", Some (PNum (2 # 1))); ("v0_distance", Some (PNum (0 # 1)));
     ("x_vel_limit", Some (PNum (10 # 1))); ("y_vel_limit", Some (PNum (10 # 1)));
     ("control_bounds_high", Some (PNum (1 # 1)));
     ("control_bounds_low", Some (PNum (-1 # 1)));
     ("backup_controller", Some PNone); ("jit_compile_dict", Some PNone);
     ("integration_method", Some (PStr "RK45"))] true
    (SCall [("backup_window", FParam "backup_window");
     ("backup_controller", FUnlessNone "backup_controller" (PObj "Docking2dStopLQRBackupController(m=self.m, n=self.n)"));
     ("control_bounds_high", FParam "control_bounds_high");
     ("control_bounds_low", FParam "control_bounds_low");
     ("jit_compile_dict", FUnlessNone "jit_compile_dict" (PObj "{'constraint_violation': True}"))]).

(** zoo/cwh/docking_2d.py 382-416. *)
Definition init_Docking2dExplicitOptimizationRTA : init :=
  mkInit "Docking2dExplicitOptimizationRTA"
    [] true
    [("m", Some (PObj "defaults.M_DEFAULT"));
     ("n", Some (PObj "defaults.N_DEFAULT")); ("v0", Some (PNum (1 # 5)));
     ("v1_coef", Some (PNum (2 # 1))); ("v0_distance", Some (PNum (0 # 1)));
     ("x_vel_limit", Some (PNum (10 # 1))); ("y_vel_limit", Some (PNum (10 # 1)));
     ("control_bounds_high", Some (PNum (1 # 1)));
     ("control_bounds_low", Some (PNum (-1 # 1))); ("jit_compile_dict", Some PNone)] true
    (SCall [("control_dim", FConst (PNum 2));
     ("control_bounds_high", FParam "control_bounds_high");
     ("control_bounds_low", FParam "control_bounds_low");
     ("jit_compile_dict", FUnlessNone "jit_compile_dict" (PObj "{'generate_barrier_constraint_mats': True}"))]).

(** zoo/cwh/docking_2d.py 474-517. *)
Definition init_Docking2dImplicitOptimizationRTA : init :=
  mkInit "Docking2dImplicitOptimizationRTA"
    [] true
    [("backup_window", Some (PNum (5 # 1)));
     ("m", Some (PObj "defaults.M_DEFAULT"));
     ("n", Some (PObj "defaults.N_DEFAULT")); ("v0", Some (PNum (1 # 5)));
     ("v1_coef", Some (PNum (2 # 1))); ("v0_distance", Some (PNum (0 # 1)));
     ("x_vel_limit", Some (PNum (10 # 1))); ("y_vel_limit", Some (PNum (10 # 1)));
     ("control_bounds_high", Some (PNum (1 # 1)));
     ("control_bounds_low", Some (PNum (-1 # 1)));
     ("backup_controller", Some PNone); ("jit_compile_dict", Some PNone);
     ("integration_method", Some (PStr "RK45"))] true
    (SCall [("control_dim", FConst (PNum 2));
     ("backup_window", FParam "backup_window");
     ("backup_controller", FUnlessNone "backup_controller" (PObj "Docking2dStopLQRBackupController(m=self.m, n=self.n)"));
     ("control_bounds_high", FParam "control_bounds_high");
     ("control_bounds_low", FParam "control_bounds_low");
     ("jit_compile_dict", FUnlessNone "jit_compile_dict" (PObj "{'generate_ineq_constraint_mats': True}"));
     ("integration_method", FParam "integration_method")]).

(** zoo/cwh/docking_2d.py 595-612. *)
Definition init_ConstraintDocking2dRelativeVelocity : init :=
  mkInit "ConstraintDocking2dRelativeVelocity"
    [("v0", None); ("v1", None); ("v0_distance", Some (PNum (0 # 1)));
     ("delta", Some (PNum (1 # 100000))); ("alpha", Some PNone)] false
    [] true
    (SCall [("alpha", FUnlessNone "alpha" (PObj "PolynomialConstraintStrengthener([0, 0.01, 0, 0.1])"));
     ("params", FConst (PObj "{'v0': v0, 'v1': v1, 'v0_distance': v0_distance}"))]).

(** zoo/cwh/docking_3d.py 223-265. *)
Definition init_Docking3dExplicitSwitchingRTA : init :=
  mkInit "Docking3dExplicitSwitchingRTA"
    [] true
    [("m", Some (PObj "defaults.M_DEFAULT"));
     ("n", Some (PObj "defaults.N_DEFAULT")); ("v0", Some (PNum (1 # 5)));
     ("v1_coef", Some (PNum (4 # 1))); ("v0_distance", Some (PNum (0 # 1)));
     ("x_vel_limit", Some (PNum (10 # 1))); ("y_vel_limit", Some (PNum (10 # 1)));
     ("z_vel_limit", Some (PNum (10 # 1)));
     ("control_bounds_high", Some (PNum (1 # 1)));
     ("control_bounds_low", Some (PNum (-1 # 1)));
     ("backup_controller", Some PNone); ("jit_compile_dict", Some PNone);
     ("integration_method", Some (PStr "RK45"))] true
    (SCall [("control_bounds_high", FParam "control_bounds_high");
     ("control_bounds_low", FParam "control_bounds_low");
     ("backup_controller", FUnlessNone "backup_controller" (PObj "Docking3dStopLQRBackupController(m=self.m, n=self.n)"));
     ("jit_compile_dict", FUnlessNone "jit_compile_dict" (PObj "{'constraint_violation': True}"))]).

(** zoo/cwh/docking_3d.py 326-370. *)
Definition init_Docking3dImplicitSwitchingRTA : init :=
  mkInit "Docking3dImplicitSwitchingRTA"
    [] true
    [("backup_window", Some (PNum (5 # 1)));
     ("m", Some (PObj "defaults.M_DEFAULT"));
     ("n", Some (PObj "defaults.N_DEFAULT")); ("v0", Some (PNum (1 # 5)));
     ("v1_coef", Some (PNum (4 # 1))); ("v0_distance", Some (PNum (0 # 1)));
     ("x_vel_limit", Some (PNum (10 # 1))); ("y_vel_limit", Some (PNum (10 # 1)));
     ("z_vel_limit", Some (PNum (10 # 1)));
     ("control_bounds_high", Some (PNum (1 # 1)));
     ("control_bounds_low", Some (PNum (-1 # 1)));
     ("backup_controller", Some PNone); ("jit_compile_dict", Some PNone);
     ("integration_method", Some (PStr "RK45"))] true
    (SCall [("backup_window", FParam "backup_window");
     ("backup_controller", FUnlessNone "backup_controller" (PObj "Docking3dStopLQRBackupController(m=self.m, n=self.n)"));
     ("control_bounds_high", FParam "control_bounds_high");
     ("control_bounds_low", FParam "control_bounds_low");
     ("jit_compile_dict", FUnlessNone "jit_compile_dict" (PObj "{'constraint_violation': True}"))]).

(** zoo/cwh/docking_3d.py 427-463. *)
Definition init_Docking3dExplicitOptimizationRTA : init :=
  mkInit "Docking3dExplicitOptimizationRTA"
    [] true
    [("m", Some (PObj "defaults.M_DEFAULT"));
     ("n", Some (PObj "defaults.N_DEFAULT")); ("v0", Some (PNum (1 # 5)));
     ("v1_coef", Some (PNum (4 # 1))); ("v0_distance", Some (PNum (0 # 1)));
     ("x_vel_limit", Some (PNum (10 # 1))); ("y_vel_limit", Some (PNum (10 # 1)));
     ("z_vel_limit", Some (PNum (10 # 1)));
     ("control_bounds_high", Some (PNum (1 # 1)));
     ("control_bounds_low", Some (PNum (-1 # 1))); ("jit_compile_dict", Some PNone)] true
    (SCall [("control_dim", FConst (PNum 3));
     ("control_bounds_high", FParam "control_bounds_high");
     ("control_bounds_low", FParam "control_bounds_low");
     ("jit_compile_dict", FUnlessNone "jit_compile_dict" (PObj "{'generate_barrier_constraint_mats': True}"))]).

(** zoo/cwh/docking_3d.py 528-573. *)
Definition init_Docking3dImplicitOptimizationRTA : init :=
  mkInit "Docking3dImplicitOptimizationRTA"
    [] true
    [("backup_window", Some (PNum (5 # 1)));
     ("m", Some (PObj "defaults.M_DEFAULT"));
     ("n", Some (PObj "defaults.N_DEFAULT")); ("v0", Some (PNum (1 # 5)));
     ("v1_coef", Some (PNum (4 # 1))); ("v0_distance", Some (PNum (0 # 1)));
     ("x_vel_limit", Some (PNum (10 # 1))); ("y_vel_limit", Some (PNum (10 # 1)));
     ("z_vel_limit", Some (PNum (10 # 1)));
     ("control_bounds_high", Some (PNum (1 # 1)));
     ("control_bounds_low", Some (PNum (-1 # 1)));
     ("backup_controller", Some PNone); ("jit_compile_dict", Some PNone);
     ("integration_method", Some (PStr "RK45"))] true
    (SCall [("control_dim", FConst (PNum 3));
     ("backup_window", FParam "backup_window");
     ("backup_controller", FUnlessNone "backup_controller" (PObj "Docking3dStopLQRBackupController(m=self.m, n=self.n)"));
     ("control_bounds_high", FParam "control_bounds_high");
     ("control_bounds_low", FParam "control_bounds_low");
     ("jit_compile_dict", FUnlessNone "jit_compile_dict" (PObj "{'generate_ineq_constraint_mats': True}"));
     ("integration_method", FParam "integration_method")]).

(** zoo/cwh/docking_3d.py 656-673. *)
Definition init_ConstraintCWH3dRelativeVelocity : init :=
  mkInit "ConstraintCWH3dRelativeVelocity"
    [("v0", None); ("v1", None); ("v0_distance", Some (PNum (0 # 1)));
     ("delta", Some (PNum (1 # 100000))); ("alpha", Some PNone)] false
    [] true
    (SCall [("alpha", FUnlessNone "alpha" (PObj "PolynomialConstraintStrengthener([0, 0.05, 0, 0.005])"));
     ("params", FConst (PObj "{'v0': v0, 'v1': v1, 'v0_distance': v0_distance}"))]).

(** zoo/cwh/inspection_1v1.py 172-233. *)
Definition init_Inspection1v1RTA : init :=
  mkInit "Inspection1v1RTA"
    [] true
    [("m", Some (PObj "defaults.M_DEFAULT"));
     ("n", Some (PObj "defaults.N_DEFAULT")); ("chief_radius", Some (PNum (5 # 1)));
     ("deputy_radius", Some (PNum (5 # 1))); ("v0", Some (PNum (1 # 5)));
     ("v1_coef", Some (PNum (2 # 1))); ("v0_distance", Some (PNum (0 # 1)));
     ("r_max", Some (PNum (1000 # 1))); ("fov", Some (PObj "FOV_DEFAULT"));
     ("vel_limit", Some (PNum (1 # 1))); ("delta_v_limit", Some (PNum (20 # 1)));
     ("sun_vel", Some (PObj "SUN_VEL_DEFAULT")); ("use_hocbf", Some (PBool false));
     ("control_bounds_high", Some (PNum (1 # 1)));
     ("control_bounds_low", Some (PNum (-1 # 1)))] true
    (SCall [("control_dim", FConst (PNum 3));
     ("control_bounds_high", FParam "control_bounds_high");
     ("control_bounds_low", FParam "control_bounds_low")]).

(** zoo/cwh/inspection_1v1.py 419-473. *)
Definition init_DiscreteInspection1v1RTA : init :=
  mkInit "DiscreteInspection1v1RTA"
    [] true
    [("m", Some (PObj "defaults.M_DEFAULT"));
     ("n", Some (PObj "defaults.N_DEFAULT")); ("chief_radius", Some (PNum (5 # 1)));
     ("deputy_radius", Some (PNum (5 # 1))); ("v0", Some (PNum (1 # 5)));
     ("v1_coef", Some (PNum (2 # 1))); ("v0_distance", Some (PNum (0 # 1)));
     ("r_max", Some (PNum (1000 # 1))); ("fov", Some (PObj "FOV_DEFAULT"));
     ("vel_limit", Some (PNum (1 # 1))); ("delta_v_limit", Some (PNum (20 # 1)));
     ("sun_vel", Some (PObj "SUN_VEL_DEFAULT"));
     ("control_bounds_high", Some (PNum (1 # 1)));
     ("control_bounds_low", Some (PNum (-1 # 1)))] true
    (SCall [("control_dim", FConst (PNum 3));
     ("control_bounds_high", FParam "control_bounds_high");
     ("control_bounds_low", FParam "control_bounds_low")]).

(** zoo/cwh/inspection_1v1.py 645-687. *)
Definition init_SwitchingDeltaVLimitRTA : init :=
  mkInit "SwitchingDeltaVLimitRTA"
    [] true
    [("m", Some (PObj "defaults.M_DEFAULT"));
     ("n", Some (PObj "defaults.N_DEFAULT"));
     ("delta_v_limit", Some (PNum (20 # 1))); ("n_steps", Some (PNum (500 # 1)));
     ("control_bounds_high", Some (PNum (1 # 1)));
     ("control_bounds_low", Some (PNum (-1 # 1)))] true
    (SCall [("control_bounds_high", FParam "control_bounds_high");
     ("control_bounds_low", FParam "control_bounds_low")]).

(** zoo/cwh/inspection_1v1.py 761-774. *)
Definition init_ConstraintCWHChiefCollision : init :=
  mkInit "ConstraintCWHChiefCollision"
    [("collision_radius", None); ("a_max", None); ("alpha", Some PNone)] false
    [] true
    (SCall [("alpha", FUnlessNone "alpha" (PObj "PolynomialConstraintStrengthener([0, 0.01, 0, 0.001])"));
     ("params", FConst (PObj "{'collision_radius': collision_radius, 'a_max': a_max}"))]).

(** zoo/cwh/inspection_1v1.py 832-850. *)
Definition init_ConstraintCWHConicKeepOutZone : init :=
  mkInit "ConstraintCWHConicKeepOutZone"
    [("a_max", None); ("fov", None); ("get_pos", None); ("get_vel", None);
     ("get_cone_vec", None); ("cone_ang_vel", None); ("alpha", Some PNone)] false
    [] true
    (SCall [("alpha", FUnlessNone "alpha" (PObj "PolynomialConstraintStrengthener([0, 0.001, 0, 0.0001])"));
     ("params", FConst (PObj "{'fov': fov, 'a_max': a_max}"))]).

(** zoo/cwh/inspection_1v1.py 929-950. *)
Definition init_ConstraintPassivelySafeManeuver : init :=
  mkInit "ConstraintPassivelySafeManeuver"
    [("collision_radius", None); ("m", None); ("n", None); ("dt", None);
     ("steps", None); ("alpha", Some PNone)] false
    [] true
    (SCall [("alpha", FUnlessNone "alpha" (PObj "PolynomialConstraintStrengthener([0, 0.01, 0, 0.001])"));
     ("params", FConst (PObj "{'collision_radius': collision_radius, 'dt': dt}"))]).

(** zoo/cwh/inspection_1v1.py 1002-1007. *)
Definition init_ConstraintCWHMaxDistance : init :=
  mkInit "ConstraintCWHMaxDistance"
    [("r_max", None); ("a_max", None); ("alpha", Some PNone)] false
    [] true
    (SCall [("alpha", FUnlessNone "alpha" (PObj "PolynomialConstraintStrengthener([0, 0.01, 0, 0.001])"));
     ("params", FConst (PObj "{'r_max': r_max, 'a_max': a_max}"))]).

(** zoo/cwh/inspection_1v1.py 1058-1065. *)
Definition init_HOCBFExampleChiefCollision : init :=
  mkInit "HOCBFExampleChiefCollision"
    [("collision_radius", None); ("alpha", Some PNone)] false
    [] true
    (SCall [("alpha", FUnlessNone "alpha" (PObj "PolynomialConstraintStrengthener([0, 0.01, 0, 0.01])"));
     ("params", FConst (PObj "{'collision_radius': collision_radius}"))]).

(** zoo/cwh/inspection_3d.py 83-147. *)
Definition init_InspectionRTA : init :=
  mkInit "InspectionRTA"
    [] true
    [("num_deputies", Some (PNum (5 # 1)));
     ("m", Some (PObj "defaults.M_DEFAULT"));
     ("n", Some (PObj "defaults.N_DEFAULT")); ("chief_radius", Some (PNum (5 # 1)));
     ("deputy_radius", Some (PNum (5 # 1))); ("v0", Some (PNum (1 # 5)));
     ("v1_coef", Some (PNum (2 # 1))); ("v0_distance", Some (PNum (0 # 1)));
     ("r_max", Some (PNum (1000 # 1))); ("fov", Some (PObj "FOV_DEFAULT"));
     ("vel_limit", Some (PNum (1 # 1))); ("sun_vel", Some (PObj "SUN_VEL_DEFAULT"));
     ("control_bounds_high", Some (PNum (1 # 1)));
     ("control_bounds_low", Some (PNum (-1 # 1)))] true
    (SCall [("control_dim", FConst (PNum 3));
     ("control_bounds_high", FParam "control_bounds_high");
     ("control_bounds_low", FParam "control_bounds_low")]).

(** zoo/cwh/inspection_3d.py 316-332. *)
Definition init_ConstraintCWHDeputyCollision : init :=
  mkInit "ConstraintCWHDeputyCollision"
    [("collision_radius", None); ("a_max", None); ("deputy", None);
     ("alpha", Some PNone)] false
    [] true
    (SCall [("alpha", FUnlessNone "alpha" (PObj "PolynomialConstraintStrengthener([0, 0.01, 0, 0.001])"));
     ("params", FConst (PObj "{'collision_radius': collision_radius, 'a_max': a_max}"))]).

(** zoo/cwh/inspection_3d.py 398-421. *)
Definition init_ConstraintPSMDeputy : init :=
  mkInit "ConstraintPSMDeputy"
    [("collision_radius", None); ("m", None); ("n", None); ("dt", None);
     ("steps", None); ("deputy", None); ("alpha", Some PNone)] false
    [] true
    (SCall [("alpha", FUnlessNone "alpha" (PObj "PolynomialConstraintStrengthener([0, 0.01, 0, 0.001])"));
     ("params", FConst (PObj "{'collision_radius': collision_radius, 'dt': dt}"))]).

(** zoo/cwh/inspection_3d.py 493-509. *)
Definition init_CombinedInspectionRTA : init :=
  mkInit "CombinedInspectionRTA"
    [] true
    [("num_deputies", Some (PNum (5 # 1)));
     ("deputy_rta", Some (PObj "InspectionRTA()"));
     ("control_bounds_high", Some (PNum (1 # 1)));
     ("control_bounds_low", Some (PNum (-1 # 1)))] true
    (SCall [("control_bounds_high", FParam "control_bounds_high");
     ("control_bounds_low", FParam "control_bounds_low")]).

(** zoo/integrators/integrator_1d.py 130-157. *)
Definition init_Integrator1dDockingExplicitSwitchingRTA : init :=
  mkInit "Integrator1dDockingExplicitSwitchingRTA"
    [] true
    [("m", Some (PObj "M_DEFAULT")); ("control_bounds_high", Some (PNum (1 # 1)));
     ("control_bounds_low", Some (PNum (-1 # 1)));
     ("backup_controller", Some PNone); ("jit_compile_dict", Some PNone);
     ("integration_method", Some (PStr "Euler"))] true
    (SCall [("control_bounds_high", FParam "control_bounds_high");
     ("control_bounds_low", FParam "control_bounds_low");
     ("backup_controller", FUnlessNone "backup_controller" (PObj "Integrator1dDockingBackupController()"));
     ("jit_compile_dict", FUnlessNone "jit_compile_dict" (PObj "{'constraint_violation': True}"))]).

(** zoo/integrators/integrator_1d.py 195-224. *)
Definition init_Integrator1dDockingImplicitSwitchingRTA : init :=
  mkInit "Integrator1dDockingImplicitSwitchingRTA"
    [] true
    [("backup_window", Some (PNum (2 # 1))); ("m", Some (PObj "M_DEFAULT"));
     ("control_bounds_high", Some (PNum (1 # 1)));
     ("control_bounds_low", Some (PNum (-1 # 1)));
     ("backup_controller", Some PNone); ("jit_compile_dict", Some PNone);
     ("integration_method", Some (PStr "Euler"))] true
    (SCall [("backup_window", FParam "backup_window");
     ("backup_controller", FUnlessNone "backup_controller" (PObj "Integrator1dDockingBackupController()"));
     ("control_bounds_high", FParam "control_bounds_high");
     ("control_bounds_low", FParam "control_bounds_low");
     ("jit_compile_dict", FUnlessNone "jit_compile_dict" (PObj "{'constraint_violation': True}"))]).

(** zoo/integrators/integrator_1d.py 258-278. *)
Definition init_Integrator1dDockingExplicitOptimizationRTA : init :=
  mkInit "Integrator1dDockingExplicitOptimizationRTA"
    [] true
    [("m", Some (PObj "M_DEFAULT")); ("control_bounds_high", Some (PNum (1 # 1)));
     ("control_bounds_low", Some (PNum (-1 # 1))); ("jit_compile_dict", Some PNone)] true
    (SCall [("control_bounds_high", FParam "control_bounds_high");
     ("control_bounds_low", FParam "control_bounds_low");
     ("control_dim", FConst (PNum 1));
     ("jit_compile_dict", FUnlessNone "jit_compile_dict" (PObj "{'generate_barrier_constraint_mats': True}"))]).

(** zoo/integrators/integrator_1d.py 318-348. *)
Definition init_Integrator1dDockingImplicitOptimizationRTA : init :=
  mkInit "Integrator1dDockingImplicitOptimizationRTA"
    [] true
    [("backup_window", Some (PNum (2 # 1))); ("m", Some (PObj "M_DEFAULT"));
     ("control_bounds_high", Some (PNum (1 # 1)));
     ("control_bounds_low", Some (PNum (-1 # 1)));
     ("backup_controller", Some PNone); ("jit_compile_dict", Some PNone);
     ("integration_method", Some (PStr "Euler"))] true
    (SCall [("backup_window", FParam "backup_window");
     ("integration_method", FParam "integration_method");
     ("backup_controller", FUnlessNone "backup_controller" (PObj "Integrator1dDockingBackupController()"));
     ("control_bounds_high", FParam "control_bounds_high");
     ("control_bounds_low", FParam "control_bounds_low");
     ("control_dim", FConst (PNum 1));
     ("jit_compile_dict", FUnlessNone "jit_compile_dict" (PObj "{'generate_ineq_constraint_mats': True}"))]).

(** zoo/integrators/integrator_1d.py 387-390. *)
Definition init_ConstraintIntegrator1dDockingCollisionExplicit : init :=
  mkInit "ConstraintIntegrator1dDockingCollisionExplicit"
    [("alpha", Some PNone)] false
    [] true
    (SCall [("alpha", FUnlessNone "alpha" (PObj "PolynomialConstraintStrengthener([0, 1, 0, 30])"))]).

(** zoo/integrators/integrator_1d.py 406-409. *)
Definition init_ConstraintIntegrator1dDockingCollisionImplicit : init :=
  mkInit "ConstraintIntegrator1dDockingCollisionImplicit"
    [("alpha", Some PNone)] false
    [] true
    (SCall [("alpha", FUnlessNone "alpha" (PObj "PolynomialConstraintStrengthener([0, 10, 0, 30])"))]).

(** constraint.py 80-101. *)
Definition init_ConstraintModule : init :=
  mkInit "ConstraintModule"
    [("alpha", Some PNone); ("alpha_negative", Some PNone);
     ("bias", Some (PNum (0 # 1))); ("bias_negative", Some (PNum (-1 # 100)));
     ("jit_enable", Some (PBool true)); ("slack_priority_scale", Some PNone);
     ("params", Some PNone); ("enabled", Some (PBool true))] false
    [] true
    (SValidator subsample_fields).

(** constraint.py 289-294. *)
Definition init_ConstraintMagnitudeStateLimit : init :=
  mkInit "ConstraintMagnitudeStateLimit"
    [("limit_val", None); ("state_index", None); ("alpha", Some PNone)] false
    [] true
    (SCall [("alpha", FUnlessNone "alpha" (PObj "PolynomialConstraintStrengthener([0, 0.0005, 0, 0.001])"));
     ("params", FConst (PObj "{'limit_val': limit_val}"))]).

(** constraint.py 317-322. *)
Definition init_ConstraintMaxStateLimit : init :=
  mkInit "ConstraintMaxStateLimit"
    [("limit_val", None); ("state_index", None); ("alpha", Some PNone)] false
    [] true
    (SCall [("alpha", FUnlessNone "alpha" (PObj "PolynomialConstraintStrengthener([0, 0.0005, 0, 0.001])"));
     ("params", FConst (PObj "{'limit_val': limit_val}"))]).

(** constraint.py 345-350. *)
Definition init_ConstraintMinStateLimit : init :=
  mkInit "ConstraintMinStateLimit"
    [("limit_val", None); ("state_index", None); ("alpha", Some PNone)] false
    [] true
    (SCall [("alpha", FUnlessNone "alpha" (PObj "PolynomialConstraintStrengthener([0, 0.0005, 0, 0.001])"));
     ("params", FConst (PObj "{'limit_val': limit_val}"))]).

(** constraint.py 411-422. *)
Definition init_HOCBFConstraint : init :=
  mkInit "HOCBFConstraint"
    [("constraint", None); ("relative_degree", None);
     ("state_transition_system", None); ("alpha", None)] false
    [] true
    (SCall [("alpha", FParam "alpha");
     ("params", FConst (PObj "self.final_constraint.params"))]).

(** constraint.py 444-447. *)
Definition init_HOCBFConstraintHelper : init :=
  mkInit "HOCBFConstraintHelper"
    [("constraint", None); ("state_transition_system", None); ("alpha", None)] false
    [] true
    (SCall [("alpha", FParam "alpha");
     ("params", FConst (PObj "self.constraint.params"))]).

(** utils/sample_testing.py 36-40. *)
Definition init_BaseSampleTestingModule : init :=
  mkInit "BaseSampleTestingModule"
    [("simulation_time", None); ("step_size", None); ("control_dim", None);
     ("state_dim", None)] false
    [] false
    SNone.

(** utils/sample_testing.py 117-120. *)
Definition init_DataTrackingSampleTestingModule : init :=
  mkInit "DataTrackingSampleTestingModule"
    [] true
    [("rta", None); ("check_init_state", Some (PBool true))] true
    (SCall []).

(** utils/sample_testing.py 223-226. *)
Definition init_SafetyAssuranceSampleTestingModule : init :=
  mkInit "SafetyAssuranceSampleTestingModule"
    [] true
    [("rta", None); ("n_points", None)] true
    (SCall []).

(** utils/sample_testing.py 328-329. *)
Definition init_LatinHypercubeRandomSampleTestingModule : init :=
  mkInit "LatinHypercubeRandomSampleTestingModule"
    [] true
    [("bounds", None); ("multiplier", None)] true
    (SCall []).

(** utils/sample_testing.py 364-365. *)
Definition init_ParametricRandomSampleTestingModule : init :=
  mkInit "ParametricRandomSampleTestingModule"
    [] true
    [("state_pdfs", None); ("distribution_params", None)] true
    (SCall []).

(** zoo/cwh/random_sample_testing.py 19-47. *)
Definition init_Docking2DLatinHypercubeRandomSampleTest : init :=
  mkInit "Docking2DLatinHypercubeRandomSampleTest"
    [("rta", Some PNone); ("n_points", Some (PNum (100 # 1)));
     ("simulation_time", Some (PNum (100 # 1))); ("step_size", Some (PNum (1 # 1)));
     ("control_dim", Some (PNum (2 # 1))); ("state_dim", Some (PNum (4 # 1)));
     ("bounds", Some PNone); ("multiplier", Some (PNum (3 # 1)))] false
    [] false
    (SCall [("rta", FUnlessNone "rta" (PObj "Docking2dExplicitOptimizationRTA()"));
     ("n_points", FParam "n_points"); ("simulation_time", FParam "simulation_time");
     ("step_size", FParam "step_size"); ("control_dim", FParam "control_dim");
     ("state_dim", FParam "state_dim");
     ("bounds", FUnlessNone "bounds" (PObj "np.array([[-10000, -10000, -5, -5], [10000, 10000, 5, 5]])"));
     ("multiplier", FParam "multiplier")]).

(** zoo/cwh/random_sample_testing.py 59-89. *)
Definition init_Docking2DParametricRandomSampleTest : init :=
  mkInit "Docking2DParametricRandomSampleTest"
    [("rta", Some PNone); ("n_points", Some (PNum (100 # 1)));
     ("simulation_time", Some (PNum (100 # 1))); ("step_size", Some (PNum (1 # 1)));
     ("control_dim", Some (PNum (2 # 1))); ("state_dim", Some (PNum (4 # 1)));
     ("state_pdfs", Some PNone); ("distribution_params", Some PNone)] false
    [] false
    (SCall [("rta", FUnlessNone "rta" (PObj "Docking2dExplicitOptimizationRTA()"));
     ("n_points", FParam "n_points"); ("simulation_time", FParam "simulation_time");
     ("step_size", FParam "step_size"); ("control_dim", FParam "control_dim");
     ("state_dim", FParam "state_dim");
     ("state_pdfs", FUnlessNone "state_pdfs" (PObj "['gaussian', 'gaussian', 'gaussian', 'gaussian']"));
     ("distribution_params", FUnlessNone "distribution_params" (PObj "np.array([[0, 0, 0, 0], [5000, 5000, 2, 2]])"))]).


(** The bases of the classes.  Classes without a constructor of their own are
    listed too: their instances are built by the constructors of their bases. *)
Definition bases : list (string * list string) :=
  [("RTAModule", ["ABC"]);
   ("ConstraintBasedRTA", ["RTAModule"]);
   ("CascadedRTA", ["RTAModule"]);
   ("BackupControlBasedRTA", ["ConstraintBasedRTA"]);
   ("SimplexModule", ["BackupControlBasedRTA"]);
   ("ExplicitSimplexModule", ["SimplexModule"]);
   ("ImplicitSimplexModule", ["SimplexModule"]);
   ("BaseOptimizationModule", ["ConstraintBasedRTA"]);
   ("ASIFModule", ["BaseOptimizationModule"]);
   ("ExplicitASIFModule", ["ASIFModule"]);
   ("ImplicitASIFModule", ["ASIFModule"; "BackupControlBasedRTA"]);
   ("DiscreteASIFModule", ["BaseOptimizationModule"]);
   ("DiscreteASIFIntegratorModule", ["DiscreteASIFModule"]);
   ("Docking2dRTAMixin", ["object"]);
   ("Docking2dExplicitSwitchingRTA", ["ExplicitSimplexModule"; "Docking2dRTAMixin"]);
   ("Docking2dImplicitSwitchingRTA", ["ImplicitSimplexModule"; "Docking2dRTAMixin"]);
   ("Docking2dExplicitOptimizationRTA", ["ExplicitASIFModule"; "Docking2dRTAMixin"]);
   ("Docking2dImplicitOptimizationRTA", ["ImplicitASIFModule"; "Docking2dRTAMixin"]);
   ("ConstraintDocking2dRelativeVelocity", ["ConstraintModule"]);
   ("Docking3dRTAMixin", ["object"]);
   ("Docking3dExplicitSwitchingRTA", ["ExplicitSimplexModule"; "Docking3dRTAMixin"]);
   ("Docking3dImplicitSwitchingRTA", ["ImplicitSimplexModule"; "Docking3dRTAMixin"]);
   ("Docking3dExplicitOptimizationRTA", ["ExplicitASIFModule"; "Docking3dRTAMixin"]);
   ("Docking3dImplicitOptimizationRTA", ["ImplicitASIFModule"; "Docking3dRTAMixin"]);
   ("ConstraintCWH3dRelativeVelocity", ["ConstraintModule"]);
   ("Inspection1v1RTA", ["ExplicitASIFModule"]);
   ("DiscreteInspection1v1RTA", ["DiscreteASIFModule"]);
   ("SwitchingDeltaVLimitRTA", ["RTAModule"]);
   ("InspectionCascadedRTA", ["CascadedRTA"]);
   ("ConstraintCWHChiefCollision", ["ConstraintModule"]);
   ("ConstraintCWHConicKeepOutZone", ["ConstraintModule"]);
   ("ConstraintPassivelySafeManeuver", ["ConstraintModule"]);
   ("ConstraintCWHMaxDistance", ["ConstraintModule"]);
   ("HOCBFExampleChiefCollision", ["ConstraintModule"]);
   ("InspectionRTA", ["ExplicitASIFModule"]);
   ("ConstraintCWHDeputyCollision", ["ConstraintModule"]);
   ("ConstraintPSMDeputy", ["ConstraintModule"]);
   ("CombinedInspectionRTA", ["RTAModule"]);
   ("Integrator1dDockingRTAMixin", ["object"]);
   ("Integrator1dDockingExplicitSwitchingRTA", ["ExplicitSimplexModule"; "Integrator1dDockingRTAMixin"]);
   ("Integrator1dDockingImplicitSwitchingRTA", ["ImplicitSimplexModule"; "Integrator1dDockingRTAMixin"]);
   ("Integrator1dDockingExplicitOptimizationRTA", ["ExplicitASIFModule"; "Integrator1dDockingRTAMixin"]);
   ("Integrator1dDockingImplicitOptimizationRTA", ["ImplicitASIFModule"; "Integrator1dDockingRTAMixin"]);
   ("ConstraintIntegrator1dDockingCollisionExplicit", ["ConstraintModule"]);
   ("ConstraintIntegrator1dDockingCollisionImplicit", ["ConstraintModule"]);
   ("ConstraintModule", ["ABC"]);
   ("ConstraintMagnitudeStateLimit", ["ConstraintModule"]);
   ("ConstraintMaxStateLimit", ["ConstraintModule"]);
   ("ConstraintMinStateLimit", ["ConstraintModule"]);
   ("HOCBFConstraint", ["ConstraintModule"]);
   ("HOCBFConstraintHelper", ["ConstraintModule"]);
   ("BaseSampleTestingModule", ["ABC"]);
   ("DataTrackingSampleTestingModule", ["BaseSampleTestingModule"]);
   ("SafetyAssuranceSampleTestingModule", ["BaseSampleTestingModule"]);
   ("LatinHypercubeRandomSampleTestingModule", ["SafetyAssuranceSampleTestingModule"]);
   ("ParametricRandomSampleTestingModule", ["SafetyAssuranceSampleTestingModule"]);
   ("Docking2DLatinHypercubeRandomSampleTest", ["LatinHypercubeRandomSampleTestingModule"]);
   ("Docking2DParametricRandomSampleTest", ["ParametricRandomSampleTestingModule"]);
   ("ABC", ["object"])].

Fixpoint bases_of (c : string) (l : list (string * list string)) : list string :=
  match l with
  | [] => []
  | (d, bs) :: r => if String.eqb c d then bs else bases_of c r
  end.

Fixpoint mro_from (table : list (string * list string)) (fuel : nat) (c : string)
  : list string :=
  match fuel with
  | O => [c]
  | S f =>
      let bs := bases_of c table in
      c :: merge 20 (map (mro_from table f) bs ++ [bs])%list
  end.
Definition mro (c : string) : list string := mro_from bases 10 c.

Definition inits : list init :=
  [init_RTAModule; init_ConstraintBasedRTA; init_CascadedRTA;
   init_BackupControlBasedRTA; init_SimplexModule; init_ImplicitSimplexModule;
   init_BaseOptimizationModule; init_ASIFModule; init_ImplicitASIFModule;
   init_DiscreteASIFModule; init_DiscreteASIFIntegratorModule;
   init_Docking2dExplicitSwitchingRTA; init_Docking2dImplicitSwitchingRTA;
   init_Docking2dExplicitOptimizationRTA; init_Docking2dImplicitOptimizationRTA;
   init_ConstraintDocking2dRelativeVelocity; init_Docking3dExplicitSwitchingRTA;
   init_Docking3dImplicitSwitchingRTA; init_Docking3dExplicitOptimizationRTA;
   init_Docking3dImplicitOptimizationRTA; init_ConstraintCWH3dRelativeVelocity;
   init_Inspection1v1RTA; init_DiscreteInspection1v1RTA;
   init_SwitchingDeltaVLimitRTA; init_ConstraintCWHChiefCollision;
   init_ConstraintCWHConicKeepOutZone; init_ConstraintPassivelySafeManeuver;
   init_ConstraintCWHMaxDistance; init_HOCBFExampleChiefCollision;
   init_InspectionRTA; init_ConstraintCWHDeputyCollision;
   init_ConstraintPSMDeputy; init_CombinedInspectionRTA;
   init_Integrator1dDockingExplicitSwitchingRTA;
   init_Integrator1dDockingImplicitSwitchingRTA;
   init_Integrator1dDockingExplicitOptimizationRTA;
   init_Integrator1dDockingImplicitOptimizationRTA;
   init_ConstraintIntegrator1dDockingCollisionExplicit;
   init_ConstraintIntegrator1dDockingCollisionImplicit; init_ConstraintModule;
   init_ConstraintMagnitudeStateLimit; init_ConstraintMaxStateLimit;
   init_ConstraintMinStateLimit; init_HOCBFConstraint;
   init_HOCBFConstraintHelper; init_BaseSampleTestingModule;
   init_DataTrackingSampleTestingModule;
   init_SafetyAssuranceSampleTestingModule;
   init_LatinHypercubeRandomSampleTestingModule;
   init_ParametricRandomSampleTestingModule;
   init_Docking2DLatinHypercubeRandomSampleTest;
   init_Docking2DParametricRandomSampleTest].

Fixpoint init_of (c : string) (l : list init) : list init :=
  match l with
  | [] => []
  | i :: r => if String.eqb c (i_class i) then [i] else init_of c r
  end.

(** The constructors run for an instance of class [c], in order: those of the
    classes of its resolution order that define one. *)
Definition chain (c : string) : list init :=
  flat_map (fun d => init_of d inits) (mro c).

(** The value that class [c] received for parameter [p]. *)
Fixpoint got (r : received) (c p : string) : option pyval :=
  match r with
  | [] => None
  | (c', p', v) :: r' =>
      if String.eqb c c' && String.eqb p p' then Some v else got r' c p
  end.

(** The assertion on the integration method that the set-up of the docking and
    integrator modules makes: zoo/cwh/docking_2d.py 108-111,
    zoo/cwh/docking_3d.py 129-132, zoo/integrators/integrator_1d.py 69-71.  The
    attribute it reads is set by the module's own constructor in the switching
    modules and by ImplicitASIFModule in the implicit optimization modules; the
    explicit optimization modules pass RK45.
    Simplification: the dynamics object built just before the assertion is taken to
    accept every method. *)
Definition method_of (c : string) (r : received) : option pyval :=
  match got r c "integration_method" with
  | None => Some (PStr "RK45")
  | Some v => match got r "ImplicitASIFModule" "integration_method" with
              | Some w => Some w
              | None => Some v
              end
  end.
Definition method_ok (v : option pyval) : bool :=
  match v with
  | Some (PStr s) => String.eqb s "RK45" || String.eqb s "Euler"
  | _ => false
  end.
Definition docking_mixins : list string :=
  ["Docking2dRTAMixin"; "Docking3dRTAMixin"; "Integrator1dDockingRTAMixin"].

(** Building an instance of class [c] with positional arguments [args] and keyword
    arguments [kw]. *)
Definition build (c : string) (args : list pyval) (kw : kwargs) : res received :=
  match construct (chain c) args kw with
  | Err e => Err e
  | Ok r =>
      if existsb (fun m => mem m (mro c)) docking_mixins && negb (method_ok (method_of c r))
      then Err AssertionError
      else Ok r
  end.
