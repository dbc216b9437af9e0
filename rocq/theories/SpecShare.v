(** Specification for C84 to C86, readable without the model: which deputies' module each combined
    module of a program was given, which operations concern a module, which states are those of
    [k] deputies, and what the documentation says is compiled. *)
From Coq Require Import String Reals List Bool ZArith.
From Verif Require Import Prelude Vec ModelShare.
Import ListNotations.

(** The deputies' modules given to the combined modules of a program, in the order in which these
    are built: the number of an object, or none. *)
Fixpoint given_deputies {D} (os : list (share_op D)) : list (option nat) :=
  match os with
  | [] => []
  | NewCombined _ _ dep :: os' => dep :: given_deputies os'
  | _ :: os' => given_deputies os'
  end.

(** The object meant: without an argument it is the one built when the class was defined. *)
Definition object_of (dep : option nat) : nat := match dep with Some r => r | None => 0 end.
Definition deputy_given {D} (os : list (share_op D)) (i : nat) : option nat :=
  option_map object_of (nth_error (given_deputies os) i).

(** Building an object concerns everyone; any other operation the module it is made on. *)
Definition concerns {D} (i : nat) (o : share_op D) : bool :=
  match o with
  | NewDeputy _ | NewCombined _ _ _ => true
  | CallOn j _ _ _ | ResetOn j | EnableOn j _ | DeputyOn j _ => Nat.eqb j i
  end.

(** The answers that module [i] gives. *)
Definition answers (i : nat) (rs : list (nat * res vec)) : list (res vec) :=
  map snd (filter (fun p => Nat.eqb (fst p) i) rs).

(** A state of [k] deputies, with or without the angle of the sun. *)
Definition state_of (k : nat) (x : vec) : Prop := length x = 6 * k \/ length x = 6 * k + 1.

(** The documented defaults: docstrings of the compose methods (asif.py 110-113 and 499-506,
    simplex.py 46-51 and 260-264 with its parent's). *)
Local Open Scope string_scope.
Definition documented (k : kind) : list (string * bool) :=
  match k with
  | ExplicitAsif => [("generate_barrier_constraint_mats", true)]
  | ImplicitAsif => [("generate_ineq_constraint_mats", true); ("pred_state", false); ("integrate", false)]
  | ExplicitSimplex => [("constraint_violation", true); ("pred_state", false)]
  | ImplicitSimplex => [("constraint_violation", true); ("pred_state", false); ("integrate", false)]
  end.
(** What the code does for the functions the documentation does not mention. *)
Definition undocumented (k : kind) : list (string * bool) :=
  match k with
  | ExplicitAsif => [("update_ineq_mats", true)]
  | ImplicitAsif => [("jacobian", true); ("generate_barrier_constraint_mats", false); ("update_ineq_mats", true)]
  | ExplicitSimplex => []
  | ImplicitSimplex => []
  end.
(** The functions of each kind of module that can be compiled. *)
Definition functions (k : kind) : list string :=
  match k with
  | ExplicitAsif => ["generate_barrier_constraint_mats"; "update_ineq_mats"]
  | ImplicitAsif => ["jacobian"; "generate_ineq_constraint_mats"; "pred_state"; "integrate";
                     "generate_barrier_constraint_mats"; "update_ineq_mats"]
  | ExplicitSimplex => ["constraint_violation"; "pred_state"]
  | ImplicitSimplex => ["constraint_violation"; "pred_state"; "integrate"]
  end.
Definition listed (d : dict bool) (f : string) : Prop := In f (map fst d).
