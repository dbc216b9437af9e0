(** Model of utils/sample_testing.py. *)
From Coq Require Import String Reals List Bool ZArith.
From Verif Require Import Prelude Vec ModelBase.
Import ListNotations.
Local Open Scope R_scope.
Local Open Scope monad_scope.

(** What a sample testing object is made of (sample_testing.py 36-40, 117-120, 223-226), with the
    methods that subclasses provide.  [A] are the attributes of the module under test and [B]
    those of the source of initial states; [st_constraints] is None for a module that is not a
    ConstraintBasedRTA.  _update_status (175-184) and _transform_state (301-314) are the default
    ones, which do nothing.  _pred_state, _desired_control and _check_done_conditions are
    functions of their arguments: a subclass that keeps attributes of its own is not modelled. *)
Record tester (X P A B : Type) : Type := mkTester {
  st_filter : input X -> R -> vec -> M A vec;
  st_flag : A -> bool;
  st_constraints : A -> option (dict (constraint X P));
  st_sample : M B X;
  st_pred : X -> R -> vec -> res X;
  st_desired : X -> vec;
  st_done : X -> R -> bool;
  st_dt : R;
  st_dim : nat;
  st_check : bool }.
Arguments mkTester {X P A B}.
Arguments st_filter {X P A B}.
Arguments st_flag {X P A B}.
Arguments st_constraints {X P A B}.
Arguments st_sample {X P A B}.
Arguments st_pred {X P A B}.
Arguments st_desired {X P A B}.
Arguments st_done {X P A B}.
Arguments st_dt {X P A B}.
Arguments st_dim {X P A B}.
Arguments st_check {X P A B}.

(** sample_testing.py 73-86 and 88-103: the default desired control and end condition. *)
Definition default_desired {X} (dim : nat) (x : X) : vec := zeros dim.
Definition default_done {X} (simulation_time : R) (x : X) (time : R) : bool := Rleb simulation_time time.

(** Running a method of the module or of the sampler. *)
Definition on_module {A B V} (m : M A V) : M (A * B) V := zoom fst (fun s p => (s, snd p)) m.
Definition on_sampler {A B V} (m : M B V) : M (A * B) V := zoom snd (fun z p => (fst p, z)) m.

(** sample_testing.py 203-208: the loop over the constraints, enabled or not. *)
Fixpoint all_satisfied {X P} (cs : dict (constraint X P)) (x : X) : bool :=
  match cs with
  | [] => true
  | (_, c) :: cs' =>
      if Rltb (c_phi c x (c_params c)) 0 || Rltb (c_compute c x (c_params c)) 0 then false
      else all_satisfied cs' x
  end.
(** sample_testing.py 186-208, check_if_safe_state. *)
Definition check_if_safe_state {X P A B} (t : tester X P A B) (x : X) : M A bool :=
  s <- get ;;
  match st_constraints t s with
  | None => raise AssertionError
  | Some cs => ret (all_satisfied cs x)
  end.

Definition msg_no_safe_state : string :=
  "Unable to find safe initial state. To disable, set check_init_state = False.".

(** sample_testing.py 136-143: the search for a safe initial state, with [counter] as
    check_counter.  A while loop is given a number of rounds; None means that it has not ended
    after them. *)
Fixpoint search {X P A B} (t : tester X P A B) (rounds : nat) (counter : Z) : M (A * B) (option X) :=
  match rounds with
  | O => ret None
  | S rounds' =>
      if (100 <=? counter + 1)%Z then raise (ValueError msg_no_safe_state)
      else
        (x <- on_sampler (st_sample t) ;;
         ok <- on_module (check_if_safe_state t x) ;;
         if (ok : bool) then ret (Some x) else search t rounds' (counter + 1)%Z)
  end.

(** sample_testing.py 135-145. *)
Definition initial_state {X P A B} (t : tester X P A B) (rounds : nat) : M (A * B) (option X) :=
  if st_check t then search t rounds 0
  else (x <- on_sampler (st_sample t) ;; ret (Some x)).

(** sample_testing.py 154-164: the loop of an episode.  The three lists are appended to. *)
Fixpoint episode_loop {X P A B} (t : tester X P A B) (rounds : nat) (x : X) (time : R)
    (xs : list X) (us : list vec) (bs : list bool) : M A (option (list X * list vec * list bool)) :=
  match rounds with
  | O => ret None
  | S rounds' =>
      let u := st_desired t x in
      w <- st_filter t (InArray x) (st_dt t) u ;;
      x' <- lift (st_pred t x (st_dt t) w) ;;
      let time' := time + st_dt t in
      let done := st_done t x' time' in
      s <- get ;;
      let xs' := xs ++ [x'] in
      let us' := us ++ [w] in
      let bs' := bs ++ [st_flag t s] in
      if done then ret (Some (xs', us', bs')) else episode_loop t rounds' x' time' xs' us' bs'
  end.

(** sample_testing.py 122-166, simulate_episode.  The arrays are returned as lists (np.array of
    rows of different lengths would raise). *)
Definition simulate_episode {X P A B} (t : tester X P A B) (rounds : nat)
  : M (A * B) (option (list X * list vec * list bool)) :=
  start <- initial_state t rounds ;;
  match start with
  | None => ret None
  | Some x => on_module (episode_loop t rounds x 0 [x] [zeros (st_dim t)] [false])
  end.

(** sample_testing.py 279 and 296: phi and the constraint itself are called without params,
    which both require (constraint.py 115 and 228). *)
Definition phi_without_params {X P} (c : constraint X P) (x : X) : res R := Err TypeError.
Definition call_without_params {X P} (c : constraint X P) (x : X) : res R := Err TypeError.

(** sample_testing.py 278-280: is some constraint violated at first? *)
Fixpoint first_check {X P} (cs : dict (constraint X P)) (x : X) : res bool :=
  match cs with
  | [] => Ok false
  | (_, c) :: cs' =>
      v <-- phi_without_params c x ;;;
      if Rltb v 0 then Ok true
      else (h <-- call_without_params c x ;;;
            if Rltb h 0 then Ok true else first_check cs' x)
  end.
(** sample_testing.py 295-297: is some constraint violated now? *)
Fixpoint later_check {X P} (cs : dict (constraint X P)) (x : X) : res bool :=
  match cs with
  | [] => Ok false
  | (_, c) :: cs' =>
      v <-- phi_without_params c x ;;;
      if Rltb v 0 then Ok true else later_check cs' x
  end.

(** Catching SolverError, and no other exception (287-290). *)
Definition catch_solver {A V} (m : M A V) : M A (option V) :=
  fun s => match m s with
           | (Ok a, s') => (Ok (Some a), s')
           | (Err SolverError, s') => (Ok None, s')
           | (Err e, s') => (Err e, s')
           end.

(** The constraints of the module; one that is not constraint-based has no such attribute. *)
Definition constraints_of {X P A B} (t : tester X P A B) : M A (dict (constraint X P)) :=
  s <- get ;;
  match st_constraints t s with None => raise AttributeError | Some cs => ret cs end.

(** sample_testing.py 285-299: the loop; a round count as above. *)
Fixpoint assurance_loop {X P A B} (t : tester X P A B) (rounds : nat) (x : X) (time : R) : M A (option bool) :=
  match rounds with
  | O => ret None
  | S rounds' =>
      r <- catch_solver (st_filter t (InArray x) (st_dt t) (st_desired t x)) ;;
      match r with
      | None => ret (Some false)
      | Some w =>
          x' <- lift (st_pred t x (st_dt t) w) ;;
          let time' := time + st_dt t in
          let done := st_done t x' time' in
          cs <- constraints_of t ;;
          bad <- lift (later_check cs x') ;;
          if (bad : bool) then ret (Some false)
          else if done then ret (Some true) else assurance_loop t rounds' x' time'
      end
  end.
(** sample_testing.py 260-299, _simulate_episode of the safety assurance module: the outer
    option is the round count, the inner one python's None. *)
Definition assurance_episode {X P A B} (t : tester X P A B) (rounds : nat) (x : X)
  : M A (option (option bool)) :=
  cs <- constraints_of t ;;
  bad <- lift (first_check cs x) ;;
  if (bad : bool) then ret (Some None)
  else
    (r <- assurance_loop t rounds x 0 ;;
     ret (match r with None => None | Some b => Some (Some b) end)).

(** sample_testing.py 244-250: sampling until there is a verdict. *)
Fixpoint one_point {X P A B} (t : tester X P A B) (rounds rounds2 : nat) : M (A * B) (option (bool * X)) :=
  match rounds with
  | O => ret None
  | S rounds' =>
      x <- on_sampler (st_sample t) ;;
      r <- on_module (assurance_episode t rounds2 x) ;;
      match r with
      | None => ret None
      | Some None => one_point t rounds' rounds2
      | Some (Some b) => ret (Some (b, x))
      end
  end.
(** sample_testing.py 228-258, run_sample_test: the rows written to the file.  Making the
    directory, printing and writing are not modelled. *)
Fixpoint sample_test {X P A B} (t : tester X P A B) (n_points rounds rounds2 : nat)
  : M (A * B) (option (list (bool * X))) :=
  match n_points with
  | O => ret (Some [])
  | S n =>
      r <- one_point t rounds rounds2 ;;
      match r with
      | None => ret None
      | Some row =>
          rs <- sample_test t n rounds rounds2 ;;
          ret (match rs with None => None | Some rows => Some (row :: rows) end)
      end
  end.

(** sample_testing.py 336-346, LatinHypercubeRandomSampleTestingModule._get_initial_state: the
    attributes are all_ics and idx. *)
Definition hypercube_sample {X} : M (list X * nat) X :=
  s <- get ;;
  match nth_error (fst s) (snd s) with
  | None => raise IndexError
  | Some x => put (fst s, S (snd s)) ;; ret x
  end.

(** sample_testing.py 370-388, ParametricRandomSampleTestingModule._get_initial_state.  A state
    component is drawn from [normal mean sd] or [uniform low high], functions of the state of
    numpy's generator.  state_pdfs and the two rows of distribution_params have state_dim
    entries (shorter ones raise IndexError). *)
Fixpoint parametric_loop {B} (normal uniform : R -> R -> M B R) (pdfs : list string) (row0 row1 : vec) (n : nat)
  {struct n} : M B vec :=
  match n, pdfs, row0, row1 with
  | O, _, _, _ => ret []
  | S n', k :: pdfs', a :: row0', b :: row1' =>
      x <- (if String.eqb k "gaussian" then normal a b
            else if String.eqb k "constant" then ret a
            else if String.eqb k "uniform" then uniform a b
            else raise (ValueError "state_PDFs must be either gaussian, constant, or uniform")) ;;
      xs <- parametric_loop normal uniform pdfs' row0' row1' n' ;;
      ret (x :: xs)
  | _, _, _, _ => raise IndexError
  end.
