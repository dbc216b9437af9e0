(** Fixtures for the non-vacuity examples: a small plant and its module, and a tactic that
    evaluates model functions on literals. *)
From Coq Require Import String Reals List Bool ZArith Lia Lra.
From Verif Require Import Prelude Vec ModelBase ModelController ModelSimplex SpecCore SpecHistory SpecSimplex
  ProofsBase.
Import ListNotations.
Local Open Scope R_scope.

(** Unfold everything except real arithmetic, and decide comparisons of literals. *)
Ltac decide_reals :=
  repeat match goal with
  | |- context [Rltb ?a ?b] =>
      first [ replace (Rltb a b) with true by (symmetry; apply Rltb_true; lra)
            | replace (Rltb a b) with false by (symmetry; apply Rltb_false; lra) ]
  | |- context [Rleb ?a ?b] =>
      first [ replace (Rleb a b) with true by (symmetry; apply Rleb_true; lra)
            | replace (Rleb a b) with false by (symmetry; apply Rleb_false; lra) ]
  | |- context [Rmax ?a ?b] =>
      first [ rewrite (Rmax_left a b) by lra | rewrite (Rmax_right a b) by lra ]
  | |- context [Rmin ?a ?b] =>
      first [ rewrite (Rmin_left a b) by lra | rewrite (Rmin_right a b) by lra ]
  end.
Ltac compute_model :=
  cbv -[Rltb Rleb Rmax Rmin Rplus Rmult Rminus Ropp Rinv Rdiv IZR Rlt Rle py_int py_div
        Rabs sqrt pow sin cos INR not];
  repeat (progress (decide_reals;
  cbv -[Rltb Rleb Rmax Rmin Rplus Rmult Rminus Ropp Rinv Rdiv IZR Rlt Rle py_int py_div
        Rabs sqrt pow sin cos INR not])).

(** The plant: a number that becomes the commanded value.  The constraint: it must not be
    negative.  The backup controller commands zero. *)
Definition toy_constraint (bias : R) : constraint R unit :=
  mkConstraint (fun x _ => x) (fun x _ => x) (fun _ _ => [1]) None None bias 0 None sub_default tt true.
Definition toy_pred (x dt : R) (u : vec) : res R := Ok (hd 0 u).
Definition toy_gen (x dt : R) (cs : cstate) : gout := GPair [0] cs.
Definition toy_cfg (b : bounds) (latch : R) : sx_cfg R := mkSxCfg b latch toy_pred toy_gen.
Definition free : bounds := mkBounds None None.
Definition unit_box : bounds := mkBounds (Some (BScalar (-1))) (Some (BVec [1])).
Definition toy_constraints : dict (constraint R unit) :=
  [("floor"%string, toy_constraint 0); ("floor_with_margin"%string, toy_constraint 1)].
Definition toy : simplex R unit :=
  match simplex_init toy_constraints None CSNone with Ok s => s | Err _ => rta_init (mkCb [] [] [] [] false (mkSx 0 (mkCtl CSNone CSNone CSNone))) end.

Lemma toy_init : simplex_init toy_constraints None CSNone = Ok toy.
Proof. reflexivity. Qed.
Lemma toy_distinct : distinct_keys (constraints_now toy).
Proof.
  unfold distinct_keys; simpl. repeat constructor; simpl; intuition discriminate.
Qed.
Lemma toy_gen_sized b latch : fits b 1 -> gen_sized (sc_bounds (toy_cfg b latch)) (sc_gen (toy_cfg b latch)).
Proof. intros F x dt cs u cs' H; inversion H; subst; exact F. Qed.
Lemma unit_box_fits : fits unit_box 1.
Proof. split; simpl; auto. Qed.
Lemma unit_box_consistent : consistent unit_box.
Proof. intros i l h Hl Hh; inversion Hl; inversion Hh; subst; lra. Qed.
