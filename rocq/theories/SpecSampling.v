(** Specification vocabulary for simulated episodes. *)
From Coq Require Import String Reals List Bool ZArith.
From Verif Require Import Prelude Vec ModelBase.
Import ListNotations.
Local Open Scope R_scope.

(** An episode: the control desired at each state is filtered, the filtered control is applied,
    and the module's flag is read.  The lists hold what comes after the initial state. *)
Inductive episode {X S} (filter : input X -> R -> vec -> M S vec) (flag : S -> bool)
    (pred : X -> R -> vec -> res X) (desired : X -> vec) (dt : R)
  : X -> S -> list X -> list vec -> list bool -> S -> Prop :=
| ep_end x s : episode filter flag pred desired dt x s [] [] [] s
| ep_step x s w s' x' xs us bs s'' :
    filter (InArray x) dt (desired x) s = (Ok w, s') ->
    pred x dt w = Ok x' ->
    episode filter flag pred desired dt x' s' xs us bs s'' ->
    episode filter flag pred desired dt x s (x' :: xs) (w :: us) (flag s' :: bs) s''.

(** The end condition, asked after step number i at time i dt, holds for the last of the states
    and for no earlier one. *)
Definition ends_first {X} (done : X -> R -> bool) (dt : R) (xs : list X) : Prop :=
  forall i x, nth_error xs i = Some x ->
  done x (INR (S i) * dt) = Nat.eqb (S i) (length xs).

(** The least number of steps, at least one, that takes at least the time [T]. *)
Definition least_positive_steps (dt T : R) (n : nat) : Prop :=
  (1 <= n)%nat /\ T <= INR n * dt /\ forall k, (1 <= k)%nat -> T <= INR k * dt -> (n <= k)%nat.

(** Satisfied with the bias and, as the logged value, without. *)
Definition satisfied {X P} (c : constraint X P) (x : X) : Prop :=
  0 <= c_fun c x (c_params c) + c_bias c /\ 0 <= c_phi c x (c_params c).
Definition satisfies_all {X P} (cs : dict (constraint X P)) (x : X) : Prop :=
  forall k c, In (k, c) cs -> satisfied c x.

(** Taking samples one after the other. *)
Inductive draws {X Z} (sample : M Z X) : Z -> list X -> Z -> Prop :=
| dr_nil z : draws sample z [] z
| dr_cons z x z' xs z'' : sample z = (Ok x, z') -> draws sample z' xs z'' -> draws sample z (x :: xs) z''.

(** The verdict that the safety assurance run is documented to give (sample_testing.py 272-275):
    None if some constraint is violated at the initial state; False if the filter fails with
    SolverError or a constraint is violated at a later state; True if the episode ends without
    either.  [phi] is the logged value of a constraint. *)
Inductive documented_verdict {X P A} (filter : input X -> R -> vec -> M A vec)
    (constraints : A -> option (dict (constraint X P)))
    (pred : X -> R -> vec -> res X) (desired : X -> vec) (done : X -> R -> bool) (dt : R)
  : bool -> nat -> X -> A -> option bool -> A -> Prop :=
| dv_unsafe_start x s cs :
    constraints s = Some cs -> ~ satisfies_all cs x ->
    documented_verdict filter constraints pred desired done dt true 0 x s None s
| dv_safe_start x s cs v s' :
    constraints s = Some cs -> satisfies_all cs x ->
    documented_verdict filter constraints pred desired done dt false 0 x s v s' ->
    documented_verdict filter constraints pred desired done dt true 0 x s v s'
| dv_solver n x s s' :
    filter (InArray x) dt (desired x) s = (Err SolverError, s') ->
    documented_verdict filter constraints pred desired done dt false n x s (Some false) s'
| dv_violated n x s w s' x' cs k c :
    filter (InArray x) dt (desired x) s = (Ok w, s') -> pred x dt w = Ok x' ->
    constraints s' = Some cs -> In (k, c) cs -> c_phi c x' (c_params c) < 0 ->
    documented_verdict filter constraints pred desired done dt false n x s (Some false) s'
| dv_over n x s w s' x' cs :
    filter (InArray x) dt (desired x) s = (Ok w, s') -> pred x dt w = Ok x' ->
    constraints s' = Some cs -> (forall k c, In (k, c) cs -> 0 <= c_phi c x' (c_params c)) ->
    done x' (INR (S n) * dt) = true ->
    documented_verdict filter constraints pred desired done dt false n x s (Some true) s'
| dv_goes_on n x s w s' x' cs v s'' :
    filter (InArray x) dt (desired x) s = (Ok w, s') -> pred x dt w = Ok x' ->
    constraints s' = Some cs -> (forall k c, In (k, c) cs -> 0 <= c_phi c x' (c_params c)) ->
    done x' (INR (S n) * dt) = false ->
    documented_verdict filter constraints pred desired done dt false (S n) x' s' v s'' ->
    documented_verdict filter constraints pred desired done dt false n x s v s''.
