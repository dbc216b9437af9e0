(** Model of several CombinedInspectionRTA modules in one program (inspection_3d.py 477-530), of
    the shapes that its deputies' module accepts, and of the choice of the functions to compile
    (base.py 167-205, asif.py 106-124 and 496-538, simplex.py 42-67 and 256-273). *)
From Coq Require Import String Reals List Bool ZArith.
From Verif Require Import Prelude Vec ModelBase ModelAsif ModelCwh ModelInspect.
Import ListNotations.
Local Open Scope R_scope.
Local Open Scope monad_scope.

(** ** Several combined modules *)

(** The attributes of a CombinedInspectionRTA (inspection_3d.py 493-509).  deputy_rta is a
    reference: a position in the list of the deputies' modules of the program.  [cm_rta] are the
    attributes of RTAModule. *)
Record comb : Type := mkComb {
  cm_num : nat;
  cm_bounds : bounds;
  cm_ref : nat;
  cm_rta : rta unit }.
Definition set_cm_rta (s : rta unit) (c : comb) : comb := mkComb (cm_num c) (cm_bounds c) (cm_ref c) s.

(** The objects of the program: deputies' modules and combined modules, in the order in which
    they were built.  Objects are not removed: a dropped one is one that is not used again. *)
Record world (D : Type) : Type := mkWorld {
  w_deputies : list D;
  w_modules : list comb }.
Arguments mkWorld {D}.
Arguments w_deputies {D}.
Arguments w_modules {D}.

(** Writing entry [i] of a list. *)
Fixpoint set_at {A} (i : nat) (a : A) (l : list A) : list A :=
  match l, i with
  | [], _ => []
  | _ :: l', O => a :: l'
  | b :: l', S i' => b :: set_at i' a l'
  end.

(** inspection_3d.py 497, deputy_rta = InspectionRTA() in the signature: python evaluates a
    default once, when the class is defined (at import).  The object [d0] is the first one. *)
Definition import_module {D} (d0 : D) : world D := mkWorld [d0] [].
Definition default_ref : nat := 0.

(** What a program does: build a deputies' module, build a combined module (with deputy_rta left
    out, or one of the objects), call filter_control, reset, assign enable, or do anything to the
    object m.deputy_rta. *)
Inductive share_op (D : Type) : Type :=
| NewDeputy (d : D)
| NewCombined (num : nat) (b : bounds) (dep : option nat)
| CallOn (i : nat) (x : vec) (dt : R) (u : vec)
| ResetOn (i : nat)
| EnableOn (i : nat) (e : bool)
| DeputyOn (i : nat) (f : D -> D).
Arguments NewDeputy {D}.
Arguments NewCombined {D}.
Arguments CallOn {D}.
Arguments ResetOn {D}.
Arguments EnableOn {D}.
Arguments DeputyOn {D}.

(** A call: combined_filter (ModelInspect.v) with deputy_rta as its extension. *)
Definition call_on {D} (step : vec -> R -> vec -> M D vec) (c : comb) (d : D) (x : vec) (dt : R) (u : vec)
  : res vec * (comb * D) :=
  match combined_filter (cm_bounds c) step (cm_num c) x dt u (mkRta (enable (cm_rta c))
          (intervening (cm_rta c)) (control_desired (cm_rta c)) (control_actual (cm_rta c)) d) with
  | (r, s) => (r, (set_cm_rta (mkRta (enable s) (intervening s) (control_desired s) (control_actual s) tt) c, ext s))
  end.

(** One operation: its result, if it is a call, and the new objects.  An operation on a module
    that does not exist does nothing. *)
Definition share_step {D} (step : vec -> R -> vec -> M D vec) (o : share_op D) (w : world D)
  : option (res vec) * world D :=
  match o with
  | NewDeputy d => (None, mkWorld (w_deputies w ++ [d]) (w_modules w))
  | NewCombined num b dep =>
      (None, mkWorld (w_deputies w) (w_modules w ++
               [mkComb num b (match dep with Some r => r | None => default_ref end) (rta_init tt)]))
  | CallOn i x dt u =>
      match nth_error (w_modules w) i with
      | Some c =>
          match nth_error (w_deputies w) (cm_ref c) with
          | Some d =>
              match call_on step c d x dt u with
              | (r, (c', d')) => (Some r, mkWorld (set_at (cm_ref c) d' (w_deputies w)) (set_at i c' (w_modules w)))
              end
          | None => (None, w)
          end
      | None => (None, w)
      end
  | ResetOn i =>
      match nth_error (w_modules w) i with
      | Some c => (None, mkWorld (w_deputies w)
                    (set_at i (set_cm_rta (rta_reset (fun t => t) (cm_rta c)) c) (w_modules w)))
      | None => (None, w)
      end
  | EnableOn i e =>
      match nth_error (w_modules w) i with
      | Some c => (None, mkWorld (w_deputies w) (set_at i (set_cm_rta (set_enable e (cm_rta c)) c) (w_modules w)))
      | None => (None, w)
      end
  | DeputyOn i f =>
      match nth_error (w_modules w) i with
      | Some c =>
          match nth_error (w_deputies w) (cm_ref c) with
          | Some d => (None, mkWorld (set_at (cm_ref c) (f d) (w_deputies w)) (w_modules w))
          | None => (None, w)
          end
      | None => (None, w)
      end
  end.

(** A program: the results of the calls, each with the module it was made on, and the objects. *)
Definition called {D} (o : share_op D) : nat :=
  match o with CallOn i _ _ _ => i | _ => 0%nat end.
Fixpoint share_run {D} (step : vec -> R -> vec -> M D vec) (os : list (share_op D)) (w : world D)
  : list (nat * res vec) * world D :=
  match os with
  | [] => ([], w)
  | o :: os' =>
      match share_step step o w with
      | (r, w1) =>
          match share_run step os' w1 with
          | (rs, w2) => (match r with Some a => (called o, a) :: rs | None => rs end, w2)
          end
      end
  end.

(** ** Shapes in the deputies' module *)

(** jax's product of a matrix with [k] columns and a vector raises TypeError unless the vector
    has [k] entries.  inspection_3d.py 245-247: state_transition_system of a module built for
    [num] deputies. *)
Definition deputies_f_shaped (n sun_vel : R) (num : nat) (x : vec) : res vec :=
  if (length (slice 0 (num * 6) x) =? num * 6)%nat then Ok (deputies_f n sun_vel num x) else Err TypeError.

(** asif.py 416, -grad_x @ self.state_transition_system(state): jax's product of two vectors
    raises TypeError unless they have as many entries.  The gradient has the shape of the state. *)
Definition dot_shaped (a b : vec) : res R :=
  if (length a =? length b)%nat then Ok (dot a b) else Err TypeError.

(** A call of an explicit ASIF module for [num] deputies, reduced to what its shapes decide:
    _get_state (inspection_3d.py 253-263), then [before] (evaluation of the constraints and of
    their parameters, which may raise), then the first row of the program, then [after] (the other
    rows and the solver, which may raise).  [D] holds the attributes other than sun_vel. *)
Definition shaped_call {D} (n : R) (num : nat) (grad : vec -> vec) (before : vec -> M (R * D) unit)
    (after : vec -> R -> vec -> M (R * D) vec) (x : vec) (dt : R) (u : vec) : M (R * D) vec :=
  s <- zoom fst (fun v p => (v, snd p)) (deputies_get_state num (InArray x)) ;;
  before s ;;
  p <- get ;;
  f <- lift (deputies_f_shaped n (fst p) num s) ;;
  l <- lift (dot_shaped (vneg (grad s)) f) ;;
  after s l u.

(** ** Which functions are compiled *)

(** The base classes with a compose method: ExplicitASIFModule, ImplicitASIFModule,
    ExplicitSimplexModule, ImplicitSimplexModule. *)
Inductive kind : Type := ExplicitAsif | ImplicitAsif | ExplicitSimplex | ImplicitSimplex.

(** dict.get with a default, and dict.setdefault. *)
Definition get_or {V} (d : dict V) (k : string) (v : V) : V :=
  match dict_get d k with Ok a => a | Err _ => v end.
Definition set_default {V} (d : dict V) (k : string) (v : V) : dict V :=
  match dict_get d k with Ok _ => d | Err _ => dict_set d k v end.
(** dict.fromkeys of a dictionary's keys. *)
Definition from_keys {V} (d : dict V) (v : V) : dict V := map (fun p => (fst p, v)) d.

Local Open Scope string_scope.
(** asif.py 106-124 (ASIFModule.compose): the functions and whether each is compiled. *)
Definition asif_compose (on : bool) (d : dict bool) : list (string * bool) :=
  [("generate_barrier_constraint_mats", on && get_or d "generate_barrier_constraint_mats" true);
   ("update_ineq_mats", on && get_or d "update_ineq_mats" true)].
(** asif.py 496-538 (ImplicitASIFModule.compose).  Line 513 writes to the dictionary. *)
Definition implicit_asif_compose (on : bool) (d : dict bool) : list (string * bool) * dict bool :=
  let jac := on && get_or d "jacobian" true in
  let d' := set_default d "generate_barrier_constraint_mats" false in
  (([("jacobian", jac);
    ("generate_ineq_constraint_mats", on && get_or d' "generate_ineq_constraint_mats" true);
    ("pred_state", on && get_or d' "pred_state" true);
    ("integrate", on && get_or d' "integrate" true)] ++ asif_compose on d')%list, d').
(** simplex.py 42-67 (SimplexModule.compose) and 256-273 (ImplicitSimplexModule.compose). *)
Definition simplex_compose (on : bool) (d : dict bool) : list (string * bool) :=
  [("constraint_violation", on && get_or d "constraint_violation" true);
   ("pred_state", on && get_or d "pred_state" false)].
Definition implicit_simplex_compose (on : bool) (d : dict bool) : list (string * bool) :=
  (simplex_compose on d ++ [("integrate", on && get_or d "integrate" false)])%list.

(** base.py 174-201: the dictionary of the module and the caller's own one.  Without an argument
    the module has a new dictionary.  With an argument it has the caller's object itself, unless
    jit_enable is False: then it gets a new dictionary (lines 196-197).  The result is what is
    compiled and the caller's dictionary afterwards. *)
Definition compose_kind (k : kind) (on : bool) (d : dict bool) : list (string * bool) * dict bool :=
  match k with
  | ExplicitAsif => (asif_compose on d, d)
  | ImplicitAsif => implicit_asif_compose on d
  | ExplicitSimplex => (simplex_compose on d, d)
  | ImplicitSimplex => (implicit_simplex_compose on d, d)
  end.
Definition build_jit (k : kind) (on : bool) (given : option (dict bool))
  : list (string * bool) * option (dict bool) :=
  match given with
  | None => (fst (compose_kind k on (if on then [] else from_keys [] false)), None)
  | Some d =>
      if on then (fst (compose_kind k on d), Some (snd (compose_kind k on d)))
      else (fst (compose_kind k on (from_keys d false)), Some d)
  end.
(** Modules built one after the other with the same dictionary. *)
Fixpoint build_all (ks : list (kind * bool)) (d : dict bool) : list (list (string * bool)) * dict bool :=
  match ks with
  | [] => ([], d)
  | (k, on) :: ks' =>
      match build_jit k on (Some d) with
      | (c, Some d') => match build_all ks' d' with (cs, d2) => (c :: cs, d2) end
      | (c, None) => match build_all ks' d with (cs, d2) => (c :: cs, d2) end
      end
  end.
