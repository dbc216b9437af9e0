(** Specification vocabulary for time on IEEE doubles. *)
From Coq Require Import ZArith Reals List.
From Flocq Require Import Core IEEE754.BinarySingleNaN.
From Verif Require Import ModelTime.
Import ListNotations.
Local Open Scope R_scope.

(** The real number a double stands for (0 for infinities and nan, hence [finite]). *)
Definition seconds (x : double) : R := B2R x.
Definition finite (x : double) : Prop := is_finite x = true.
Definition infinite (x : double) : Prop := is_finite x = false /\ is_nan x = false.
Definition positive (x : double) : Prop := finite x /\ 0 < seconds x.
(** Exact sum. *)
Definition total (ds : list double) : R := fold_right Rplus 0 (map seconds ds).
(** Largest relative error of one operation. *)
Definition roundoff : R := / 2 ^ 53.
(** The double that python reads when the program text says [r]. *)
Definition literal (r : R) (x : double) : Prop :=
  finite x /\ forall y, finite y -> Rabs (seconds x - r) <= Rabs (seconds y - r).
