(** Solvers for the non-vacuity examples: a one-dimensional quadratic program solver and a
    solver for a single given program, both proved to meet the contract of SpecAsif. *)
From Coq Require Import String Reals List Bool ZArith Lia Lra.
From Verif Require Import Prelude Vec ModelBase ModelController ModelSimplex ModelAsif
  SpecCore SpecAsif ProofsBase ProofsVec ExampleTools.
Import ListNotations.
Local Open Scope R_scope.

(** ** One decision variable *)

(** Feasibility of a number. *)
Definition feasible1 (C : mat) (b : vec) (z : R) : bool :=
  Nat.eqb (length C) (length b) && forallb (fun rc => Rleb (snd rc) (dot (fst rc) [z])) (combine C b).

(** Row number j, if it keeps the minimiser away from [z0]: the nearest point and its number. *)
Fixpoint blocking (z0 : R) (j : nat) (C : mat) (b : vec) : list (R * list nat) :=
  match C, b with
  | [c] :: C', d :: b' =>
      (if Rltb 0 c && Rltb z0 (d / c) || Rltb c 0 && Rltb (d / c) z0
       then [(d / c, [S j])] else []) ++ blocking z0 (S j) C' b'
  | _ :: C', _ :: b' => blocking z0 (S j) C' b'
  | _, _ => []
  end.

(** Two rows that contradict each other, or a row that nothing satisfies. *)
Definition clash (rc rc' : vec * R) : bool :=
  match rc, rc' with
  | ([c], d), ([c'], d') => Rltb 0 c && Rltb c' 0 && Rltb (d' / c') (d / c)
  | _, _ => false
  end.
Definition inconsistent1 (C : mat) (b : vec) : bool :=
  existsb (fun rc => existsb (clash rc) (combine C b)) (combine C b).

Definition qp1 : qp_solver := fun G a C b =>
  match G, a with
  | [[w]], [a0] =>
      if Rltb 0 w then
        match find (fun p => feasible1 C b (fst p)) ((a0 / w, []) :: blocking (a0 / w) 0 C b) with
        | Some (z, iact) => Ok ([z], iact)
        | None => if inconsistent1 C b then Err (ValueError msg_inconsistent) else Err (OtherExn 0)
        end
      else Err (OtherExn 0)
  | _, _ => Err (OtherExn 0)
  end.

Lemma feasible1_solves C b z : feasible1 C b z = true -> solves C b [z].
Proof.
  unfold feasible1, solves; intros H; apply andb_prop in H; destruct H as [L H].
  apply Nat.eqb_eq in L. revert b L H; induction C as [|r C IH]; intros [|d b] L H; simpl in *;
    try discriminate; constructor.
  - apply andb_prop in H; apply Rleb_true, H.
  - apply IH; [lia|apply andb_prop in H; apply H].
Qed.

Lemma objective1 w a0 y : objective [[w]] [a0] [y] = / 2 * w * (y * y) - a0 * y.
Proof. unfold objective; simpl; ring. Qed.

Lemma closer1 w a0 z y : 0 < w -> (y - a0 / w) * (y - a0 / w) >= (z - a0 / w) * (z - a0 / w) ->
  objective [[w]] [a0] [z] <= objective [[w]] [a0] [y].
Proof.
  intros Hw H; rewrite !objective1.
  replace a0 with (w * (a0 / w)) at 1 2 by (field; lra).
  set (t := a0 / w) in *. nra.
Qed.

Lemma blocking_in z0 C : forall b j p, In p (blocking z0 j C b) ->
  exists i c d, p = (d / c, [S (j + i)]) /\ nth_error C i = Some [c] /\ nth_error b i = Some d /\
    ((0 < c /\ z0 < d / c) \/ (c < 0 /\ d / c < z0)).
Proof.
  induction C as [|r C IH]; intros [|d b] j p H; simpl in H; try contradiction.
  { destruct r as [|c [|? ?]]; contradiction. }
  assert (Rec : In p (blocking z0 (S j) C b) -> exists i c d', p = (d' / c, [S (j + i)]) /\
    nth_error (r :: C) i = Some [c] /\ nth_error (d :: b) i = Some d' /\
    ((0 < c /\ z0 < d' / c) \/ (c < 0 /\ d' / c < z0))).
  { intros Hp; destruct (IH _ _ _ Hp) as (i & c & d' & -> & H1 & H2 & H3).
    exists (S i), c, d'; simpl; replace (j + S i)%nat with (S (j + i)) by lia; auto. }
  destruct r as [|c [|? ?]]; auto.
  apply in_app_or in H; destruct H as [H|H]; auto.
  destruct (Rltb 0 c && Rltb z0 (d / c) || Rltb c 0 && Rltb (d / c) z0) eqn:E; [|contradiction].
  destruct H as [<-|[]]. exists 0%nat, c, d; simpl; rewrite Nat.add_0_r; split; [auto|split; [auto|split; [auto|]]].
  apply orb_prop in E; destruct E as [E|E]; apply andb_prop in E; destruct E as [E1 E2];
    apply Rltb_true in E1, E2; auto.
Qed.

Lemma qp1_contract : qp_contract qp1.
Proof.
  constructor.
  - intros G a C b z iact H; unfold qp1 in H.
    destruct G as [|[|w [|? ?]] [|? ?]]; try discriminate.
    destruct a as [|a0 [|? ?]]; try discriminate.
    destruct (Rltb 0 w) eqn:Ew; [|discriminate]. apply Rltb_true in Ew.
    destruct (find _ _) as [[z1 i1]|] eqn:Ef; [|destruct (inconsistent1 C b); discriminate].
    injection H as <- <-. apply find_some in Ef; destruct Ef as [Hin Hf]; simpl in Hf.
    apply feasible1_solves in Hf.
    destruct Hin as [E|Hin].
    + injection E as <- <-.
      assert (K : forall y, length y = 1%nat -> objective [[w]] [a0] [a0 / w] <= objective [[w]] [a0] y).
      { intros [|y [|? ?]] Ly; try discriminate; apply closer1; auto.
        replace (a0 / w - a0 / w) with 0 by ring; pose proof (Rle_0_sqr (y - a0 / w)); unfold Rsqr in *; lra. }
      split; [auto|split; [auto|split; [intros y Ly _; auto|split; [intros i []|intros y Ly _; auto]]]].
    + destruct (blocking_in _ _ _ _ _ Hin) as (i & c & d & E & Hc & Hd & Hcase).
      injection E as -> ->. simpl Nat.add in *.
      assert (Hne : c <> 0) by lra.
      assert (K : forall y, length y = 1%nat ->
         (forall j r e, In (S j) [S i] -> nth_error C j = Some r -> nth_error b j = Some e -> e <= dot r y) ->
         objective [[w]] [a0] [d / c] <= objective [[w]] [a0] y).
      { intros [|y [|? ?]] Ly Hy; try discriminate; apply closer1; auto.
        specialize (Hy i [c] d (or_introl eq_refl) Hc Hd); simpl in Hy.
        set (q := d / c) in *. assert (Ed : d = c * q) by (unfold q; field; auto).
        set (z0 := a0 / w) in *. destruct Hcase as [[H1 H2]|[H1 H2]]; rewrite Ed in Hy.
        - assert (q <= y) by (apply (Rmult_le_reg_l c); lra). nra.
        - assert (y <= q) by (apply (Rmult_le_reg_l (- c)); lra). nra. }
      split; [auto|split; [auto|split; [|split]]].
      * intros y Ly Sy; apply K; auto.
        intros j r e _ Hr He; clear - Sy Hr He; unfold solves in Sy.
        revert b e Sy j Hr He; induction C as [|r0 C IH]; intros b e Sy j Hr He; inversion Sy; subst; destruct j; simpl in *; try discriminate.
        -- injection Hr as ->; injection He as ->; auto.
        -- eapply IH; eauto.
      * intros i' [<-|[]]; exists i, [c], d; split; [auto|split; [auto|split; [auto|]]].
        simpl; field; auto.
      * intros y Ly Hy; apply K; auto.
  - intros G a C b H y Ly S; unfold qp1 in H.
    destruct G as [|[|w [|? ?]] [|? ?]]; try discriminate.
    destruct a as [|a0 [|? ?]]; try discriminate.
    destruct (Rltb 0 w) eqn:Ew; [|discriminate].
    destruct (find _ _) as [[z1 i1]|] eqn:Ef; [discriminate|].
    destruct (inconsistent1 C b) eqn:Ei; [|discriminate].
    assert (A : forall rc, In rc (combine C b) -> snd rc <= dot (fst rc) y).
    { clear - S; unfold solves in S; induction S; simpl; [intros rc []|intros rc [<-|Hr]; auto]. }
    destruct y as [|y [|? ?]]; try discriminate.
    unfold inconsistent1 in Ei; apply existsb_exists in Ei; destruct Ei as ([r d] & H1 & Ei).
    apply existsb_exists in Ei; destruct Ei as ([r' d'] & H2 & Ei).
    unfold clash in Ei. destruct r as [|c [|? ?]]; try discriminate. destruct r' as [|c' [|? ?]]; try discriminate.
    apply andb_prop in Ei; destruct Ei as [Ei E3]; apply andb_prop in Ei; destruct Ei as [E1 E2].
    apply Rltb_true in E1, E2, E3.
    specialize (A _ H1) as A1; specialize (A _ H2) as A2; simpl in A1, A2.
    assert (d / c <= y) by (apply (Rmult_le_reg_l c); [lra|]; replace (c * (d / c)) with d by (field; lra); lra).
    assert (y <= d' / c') by (apply (Rmult_le_reg_l (- c')); [lra|]; replace (- c' * (d' / c')) with (- d') by (field; lra); lra).
    lra.
Qed.

(** ** A solver that knows one program *)

Definition same_data (l l' : vec) : bool :=
  if list_eq_dec Req_EM_T l l' then true else false.
Definition same_rows (m m' : mat) : bool :=
  if list_eq_dec (list_eq_dec Req_EM_T) m m' then true else false.
Definition qp_knowing (G : mat) (a : vec) (C : mat) (b : vec) (z : vec) (iact : list nat) : qp_solver :=
  fun G' a' C' b' =>
    if same_rows G' G && same_data a' a && same_rows C' C && same_data b' b
    then Ok (z, iact) else Err (OtherExn 0).

Lemma qp_knowing_hit G a C b z iact : qp_knowing G a C b z iact G a C b = Ok (z, iact).
Proof.
  unfold qp_knowing, same_rows, same_data.
  repeat (destruct (list_eq_dec _ _ _); [|congruence]); auto.
Qed.

Lemma qp_knowing_contract G a C b z iact :
  length z = length a -> solves C b z ->
  (forall i, In i iact -> exists j r c, i = S j /\ nth_error C j = Some r /\ nth_error b j = Some c /\ dot r z = c) ->
  (forall y, length y = length a ->
     (forall j r c, In (S j) iact -> nth_error C j = Some r -> nth_error b j = Some c -> c <= dot r y) ->
     objective G a z <= objective G a y) ->
  qp_contract (qp_knowing G a C b z iact).
Proof.
  intros Lz Sz Act KKT; constructor; unfold qp_knowing.
  - intros G' a' C' b' z' iact' H.
    destruct (same_rows G' G && same_data a' a && same_rows C' C && same_data b' b) eqn:E; [|discriminate].
    unfold same_rows, same_data in E.
    do 4 (match type of E with context [list_eq_dec ?d ?l ?l'] => destruct (list_eq_dec d l l') end;
          [|rewrite ?andb_false_r in E; discriminate]).
    injection H as <- <-; subst.
    split; [auto|split; [auto|split; [|split; [auto|auto]]]].
    intros y Ly Sy; apply KKT; auto.
    intros j r c _ Hr Hc; clear - Sy Hr Hc; unfold solves in Sy.
    revert j Hr Hc; induction Sy; intros [|j] Hr Hc; simpl in *; try discriminate.
    + injection Hr as <-; injection Hc as <-; auto.
    + eauto.
  - intros G' a' C' b' H; destruct (same_rows G' G && same_data a' a && same_rows C' C && same_data b' b); discriminate.
Qed.

(** ** Evaluating calls on literals *)

Lemma Rltb_sqrt_true a e : 0 <= a -> a * a < e -> Rltb a (sqrt e) = true.
Proof.
  intros Ha He; apply Rltb_true. rewrite <- (sqrt_square a) by auto. apply sqrt_lt_1; nra.
Qed.
Lemma Rltb_sqrt_false a e : 0 <= a -> e <= a * a -> Rltb a (sqrt e) = false.
Proof.
  intros Ha He; apply Rltb_false. rewrite <- (sqrt_square a) by auto. apply sqrt_le_1_alt; auto.
Qed.

Ltac list_lra :=
  repeat match goal with
  | |- @eq R _ _ => first [reflexivity | lra | field]
  | |- _ :: _ = _ :: _ => f_equal
  | |- [] = [] => reflexivity
  end.
Ltac eval_step :=
  cbv -[Rltb Rleb Rmax Rmin Rplus Rmult Rminus Ropp Rinv Rdiv IZR Rlt Rle py_int py_div
        Rabs sqrt pow sin cos INR not qp1 qp_knowing];
  repeat match goal with
  | |- context [Rltb ?a (sqrt ?e)] =>
      first [ rewrite (Rltb_sqrt_true a e) by lra | rewrite (Rltb_sqrt_false a e) by lra ]
  end;
  decide_reals.
Ltac eval_model := repeat (progress eval_step).
(** The call to [qp1] has the data given up to arithmetic, and the given result. *)
Ltac qp1_gives G a C b z iact :=
  match goal with
  | |- context [qp1 ?G' ?a' ?C' ?b'] =>
      replace G' with G by list_lra; replace a' with a by list_lra;
      replace C' with C by list_lra; replace b' with b by list_lra;
      replace (qp1 G a C b) with (@Ok (vec * list nat) (z, iact))
        by (unfold qp1; compute_model; first [reflexivity | do 2 f_equal; list_lra])
  end.
Ltac qp1_fails G a C b :=
  match goal with
  | |- context [qp1 ?G' ?a' ?C' ?b'] =>
      replace G' with G by list_lra; replace a' with a by list_lra;
      replace C' with C by list_lra; replace b' with b by list_lra;
      replace (qp1 G a C b) with (@Err (vec * list nat) (ValueError msg_inconsistent))
        by (unfold qp1; compute_model; reflexivity)
  end.
