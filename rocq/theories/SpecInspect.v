(** Specification of the switching delta-v module and of the view of a single deputy. *)
From Coq Require Import Reals List Bool.
From Verif Require Import Prelude Vec ModelInspect.
Import ListNotations.
Local Open Scope R_scope.

(** ** The delta-v module *)

(** The inspection state (position, velocity, sun angle, delta-v used) one Euler step of [dt]
    seconds later, with mean motion [n], mass [m] and thrust [u]. *)
Definition euler_step (n m dt : R) (s u : vec) : vec :=
  match s, u with
  | [x; y; z; vx; vy; vz; sun; used], [ux; uy; uz] =>
      [ x + dt * vx; y + dt * vy; z + dt * vz;
        vx + dt * (3 * (n * n) * x + 2 * n * vy + ux / m);
        vy + dt * (- (2 * n * vx) + uy / m);
        vz + dt * (- (n * n * z) + uz / m);
        sun - dt * n;
        used + dt * ((Rabs ux + Rabs uy + Rabs uz) / m) ]
  | _, _ => []
  end.

(** How far a state is from a natural ellipse. *)
Definition track_error (n : R) (s : vec) : vec :=
  [0; 0; 0; nth 3 s 0 - n * nth 1 s 0 / 2; nth 4 s 0 + 2 * n * nth 0 s 0; 0].

(** The tracking control with gains [K1] and [K2] on the error and its integral [e], limited to
    one in each component. *)
Definition tracking (n : R) (K1 K2 : mat) (s e : vec) : vec :=
  map2 (fun k1 k2 => Rmax (-1) (Rmin 1 (- dot k1 (track_error n s) - dot k2 e))) K1 K2.

(** The forecast from state [s] under the desired control [u]: one step with [u], then [j] steps
    with the tracking control, whose integral is [e] at the start. *)
Fixpoint forecast (n m dt : R) (K1 K2 : mat) (s u e : vec) (j : nat) : vec * vec :=
  match j with
  | O => (euler_step n m dt s u, e)
  | S j' =>
      let p := forecast n m dt K1 K2 s u e j' in
      (euler_step n m dt (fst p) (tracking n K1 K2 (fst p) (snd p)),
       vadd (snd p) (vscale dt (track_error n (fst p))))
  end.
Definition delta_v_used (s : vec) : R := nth 7 s 0.

(** ** The combined module *)

(** Agent [i] first, the others in their order. *)
Definition first_view {A} (i : nat) (agents : list A) : list A :=
  match nth_error agents i with
  | Some a => a :: firstn i agents ++ skipn (S i) agents
  | None => agents
  end.

(** ** The behaviour of the delta-v module over a history *)

(** The number of forecasts, from 1 to [steps], that use more than [limit]. *)
Definition violations (n m dt limit : R) (K1 K2 : mat) (s u e : vec) (steps : nat) : nat :=
  length (filter (fun j => Rltb limit (delta_v_used (fst (forecast n m dt K1 K2 s u e j)))) (seq 1 steps)).

(** Before the first forecast violation the module watches; after it, it tracks an ellipse with
    the integral [e] of the error. *)
Inductive mode : Type :=
| Watching
| Tracking (e : vec).

(** The module with the constants [n], [m], [limit], [K1], [K2], [steps] as it behaves: one call
    from state [x] with step [dt] and desired control [u].  A forecast from [x] that violates the
    limit [k + 1] times adds the error that often to the integral. *)
Section Limiter.
  Variables (n m limit : R) (K1 K2 : mat) (steps : nat).
  Definition call_effect (md : mode) (x : vec) (dt : R) (u : vec) : mode :=
    match md with
    | Watching =>
        if (Nat.eqb (length x) 8 && Nat.eqb (length u) 3)%bool then
          match violations n m dt limit K1 K2 x u (zeros 6) steps with
          | O => Watching
          | S k => Tracking (vscale (INR (S k) * dt) (track_error n x))
          end
        else Watching
    | Tracking e =>
        if (length x <? 5)%nat then Tracking e else Tracking (vadd e (vscale dt (track_error n x)))
    end.
  (** The calls of a history that were made while the module was enabled. *)
  Fixpoint mode_after (calls : list (vec * R * vec)) (md : mode) : mode :=
    match calls with
    | [] => md
    | (x, dt, u) :: calls' => mode_after calls' (call_effect md x dt u)
    end.
End Limiter.

(** Deputies [i], [i + 1], ... served one after the other by a module with the filter [step]: it
    is asked for deputy [i] with the state [view i]; [vs] are its answers, of three entries each.
    The module goes from [d] to [d']. *)
Inductive one_by_one {D} (step : vec -> R -> vec -> M D vec) (view : nat -> vec) (dt : R)
  : nat -> list vec -> D -> list vec -> D -> Prop :=
| obo_nil i d : one_by_one step view dt i [] d [] d
| obo_cons i u us d v d1 vs d' :
    step (view i) dt u d = (Ok v, d1) -> length v = 3%nat ->
    one_by_one step view dt (S i) us d1 vs d' ->
    one_by_one step view dt i (u :: us) d (v :: vs) d'.

(** The calls of a history made while enabled; [en] tells whether it is enabled at the start. *)
Fixpoint enabled_calls (en : bool) (os : list dv_op) : list (vec * R * vec) :=
  match os with
  | [] => []
  | DvFilter x dt u :: os' => if en then (x, dt, u) :: enabled_calls en os' else enabled_calls en os'
  | DvReset :: os' => enabled_calls true os'
  | DvEnable b :: os' => enabled_calls b os'
  end.

(** The gain matrices have three rows. *)
Definition gains_ok (cfg : dv_cfg) : Prop := length (dv_K1 cfg) = 3%nat /\ length (dv_K2 cfg) = 3%nat.
