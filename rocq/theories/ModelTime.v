(** Time arithmetic on IEEE doubles (python floats): the number of lookahead steps, the time
    accumulated by a latch and by an episode.  Doubles and their operations are those of
    Flocq's BinarySingleNaN, rounding to nearest even as python does. *)
From Coq Require Import String ZArith List Bool.
From Flocq Require Import Core IEEE754.BinarySingleNaN.
From Verif Require Import Prelude.
Import ListNotations.

Lemma prec_double : Prec_gt_0 53. Proof. reflexivity. Qed.
Lemma emax_double : Prec_lt_emax 53 1024. Proof. reflexivity. Qed.
Global Existing Instance prec_double.
Global Existing Instance emax_double.
Definition double : Type := binary_float 53 1024.

Definition d_zero : double := B754_zero false.
Definition d_is_zero (y : double) : bool := match y with B754_zero _ => true | _ => false end.
Definition d_add (x y : double) : double := Bplus mode_NE x y.
(** x >= y *)
Definition d_ge (x y : double) : bool := Bleb y x.

(** Division of python floats raises when the divisor is zero. *)
Definition d_div (x y : double) : res double := if d_is_zero y then Err ZeroDivisionError else Ok (Bdiv mode_NE x y).
(** int() of a python float: truncation; infinities raise OverflowError ([OtherExn 1]), nan
    ValueError. *)
Definition d_int (x : double) : res Z :=
  match x with
  | B754_infinity _ => Err (OtherExn 1)
  | B754_nan => Err (ValueError "cannot convert float NaN to integer")
  | _ => Ok (Btrunc x)
  end.

(** simplex.py 298, ImplicitSimplexModule.integrate: Nsteps; asif.py 592,
    ImplicitASIFModule: num_steps - 1.  A negative number of steps runs the loop zero times. *)
Definition d_lookahead (window dt : double) : res Z := rbind (d_div window dt) d_int.

(** simplex.py 69-92, SimplexModule._filter_control, without the controls: the state is
    (intervening, latched_elapsed); [unsafe] is what the monitor would answer.  Returns whether
    the call is latched (the backup control is used without asking the monitor). *)
Definition d_latch_call (latch_time : double) (s : bool * double) (dt : double) (unsafe : bool) : bool * (bool * double) :=
  let '(intervening, elapsed) := s in
  let '(latched, elapsed) :=
    if intervening then
      if d_ge elapsed latch_time then (false, d_zero) else (true, d_add elapsed dt)
    else (false, elapsed) in
  if latched then (true, (intervening, elapsed)) else (false, (unsafe, elapsed)).
(** Successive calls, each with its step size and the monitor's answer. *)
Fixpoint d_latch_run (latch_time : double) (calls : list (double * bool)) (s : bool * double) : list bool * (bool * double) :=
  match calls with
  | [] => ([], s)
  | (dt, unsafe) :: calls =>
      let '(l, s) := d_latch_call latch_time s dt unsafe in
      let '(ls, s) := d_latch_run latch_time calls s in
      (l :: ls, s)
  end.

(** utils/sample_testing.py 148-159: the clock of an episode with the default condition for its
    end (_check_done_conditions).  The number of steps taken, if the episode ends within
    [rounds] of them. *)
Fixpoint d_episode (simulation_time step_size : double) (rounds : nat) (current_time : double) : option nat :=
  match rounds with
  | O => None
  | S rounds =>
      let current_time := d_add current_time step_size in
      if d_ge current_time simulation_time then Some 1%nat
      else option_map S (d_episode simulation_time step_size rounds current_time)
  end.
