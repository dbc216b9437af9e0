(** Fixtures for the examples of PropertiesDiscInsp.v: what the module answers when the solver of
    PropertiesDiscrete.v accepts a control. *)
From Coq Require Import String Reals List Bool ZArith Lia Lra.
From Verif Require Import Prelude Vec ModelBase ModelAsif ModelConstraint ModelCwh ModelZoo ModelDiscrete ModelDiscInsp.
From Verif Require Import SpecCore SpecAsif SpecCwh SpecDiscrete SpecDiscInsp.
From Verif Require Import ProofsBase ProofsVec ProofsCwh ProofsDiscrete ProofsDiscrete2 PropertiesDiscrete ProofsDiscInsp.
Import ListNotations.
Local Open Scope R_scope.

Lemma enabled_place {X P} (cs : dict (constraint X P)) : forall n c j, In (c, j) (enabled_places n cs) ->
  exists k, In (k, c) cs /\ c_enabled c = true.
Proof.
  induction cs as [|[k c0] cs IH]; intros n c j H; [destruct H|].
  cbn [enabled_places] in H. apply in_app_or in H. destruct H as [H|H].
  - destruct (c_enabled c0) eqn:E; [|destruct H]. destruct H as [H|[]]. injection H as <- _. exists k; split; [left; auto|auto].
  - destruct (IH _ _ _ H) as (k' & A & B). exists k'; split; [right; auto|auto].
Qed.

Lemma forall2_left {A B} (Q : A -> B -> Prop) l l' : Forall2 Q l l' -> forall a, In a l -> exists b, In b l' /\ Q a b.
Proof.
  induction 1 as [|a b l l' H F IH]; intros a' Hin; [destruct Hin|].
  destruct Hin as [<-|Hin]; [exists b; split; [left; auto|auto]|].
  destruct (IH _ Hin) as (b' & A1 & B1). exists b'; split; [right; auto|auto].
Qed.

Definition unit_box3 : bounds := mkBounds (Some (BScalar (-1))) (Some (BScalar 1)).

Lemma box_lims lims : limits_say unit_box3 3 0 lims ->
  lims = [(Some (-1), Some 1); (Some (-1), Some 1); (Some (-1), Some 1)].
Proof.
  intros (L & E & _). pose proof (E 0%nat ltac:(lia)) as E0. pose proof (E 1%nat ltac:(lia)) as E1. pose proof (E 2%nat ltac:(lia)) as E2.
  destruct lims as [|a [|b [|d [|]]]]; try discriminate.
  cbn in E0, E1, E2. injection E0 as ->. injection E1 as ->. injection E2 as ->. reflexivity.
Qed.

Definition in_unit_box (u : vec) : Prop := exists a b d, u = [a; b; d] /\ -1 <= a <= 1 /\ -1 <= b <= 1 /\ -1 <= d <= 1.

Lemma box_met u : in_unit_box u -> limits_met [(Some (-1), Some 1); (Some (-1), Some 1); (Some (-1), Some 1)] u = true.
Proof.
  intros (a & b & d & -> & A & B & D). cbn [limits_met].
  repeat (apply andb_true_intro; split); auto; apply Rleb_true; lra.
Qed.
Lemma box_same u : in_unit_box u -> boxed unit_box3 u u.
Proof.
  intros (a & b & d & -> & A & B & D). split; [reflexivity|]. intros i x y Hx Hy. rewrite Hx in Hy. injection Hy as <-.
  destruct i as [|[|[|i]]]; cbn in Hx; try (destruct i; discriminate); injection Hx as <-; cbn;
    rewrite Rmax_left by lra; rewrite Rmin_left by lra; reflexivity.
Qed.

Section Tried.
Context {P : Type}.
Variables (cfg : disc_cfg vec) (s : dmod vec P) (x : vec) (dt : R) (u fall : vec).
Hypothesis (Hb : dc_bounds cfg = unit_box3) (Hd : dc_dim cfg = 3%nat) (Hs : dc_solve cfg = slsqp_try fall).
Hypothesis (U : disc_in_use cfg s dt u) (NoSlack : forall k d, In (k, d) (disc_constraints s) -> c_slack d = None).

Lemma no_slack_count : slack_count (disc_constraints s) = 0%nat.
Proof.
  unfold slack_count. assert (F : filter has_slack (disc_constraints s) = []); [|rewrite F; reflexivity].
  revert NoSlack. induction (disc_constraints s) as [|[k d] cs IH]; intros N; auto.
  cbn [filter]. assert (H : has_slack (k, d) = false) by (unfold has_slack; cbn; rewrite (N k d (or_introl eq_refl)); reflexivity).
  rewrite H. apply IH. intros k' d' H'. apply (N k' d'). right; auto.
Qed.

Lemma met cons z : length z = 3%nat -> program_says (dc_next cfg) (dc_dim cfg) (disc_constraints s) x dt cons ->
  (forall k d, In (k, d) (disc_constraints s) -> steps_well (dc_next cfg) 0 d x dt z 0) -> functions_met cons z = true.
Proof.
  intros Lz Hp Hw. unfold functions_met. apply forallb_forall. intros g Hg.
  destruct (forall2_left _ _ _ Hp g Hg) as ([d j] & Hin & Q). cbn [fst snd] in Q.
  destruct (Q z) as (v & -> & Hv). apply Rleb_true.
  destruct (enabled_place _ _ _ _ Hin) as (k & Hk & _).
  specialize (Hw k d Hk). specialize (Hv 0). rewrite Hd in Hv. rewrite <- Lz, firstn_all, Lz in Hv.
  assert (E : slack_value 3 d j z = 0) by (unfold slack_value; rewrite (NoSlack k d Hk); reflexivity).
  rewrite E in Hv. apply Hv in Hw. lra.
Qed.

(** The solver's answer is what the module returns, without a warning. *)
Lemma answered z : in_unit_box z ->
  (forall obj cons lims, program_says (dc_next cfg) (dc_dim cfg) (disc_constraints s) x dt cons ->
     limits_say unit_box3 3 0 lims -> slsqp_try fall obj u cons lims = Ok (true, z)) ->
  exists s', disc_filter_control cfg (InArray x) dt u s = (Ok z, s') /\ disc_warnings s' = disc_warnings s /\
    intervening s' = Rltb (dc_eps cfg) (sqrt (dist2 u z)).
Proof.
  intros Bz Hz. destruct (disc_call cfg s x dt u U) as (obj & cons & lims & Eo & Hp & Hl & C).
  specialize (C (slsqp_try fall)). rewrite <- Hs, with_slsqp_same in C. cbv zeta in C. rewrite no_slack_count in *. cbn [zeros repeat] in C.
  assert (A0 : dc_solve cfg obj (u ++ []) cons lims = Ok (true, z)).
  { rewrite app_nil_r, Hs. apply Hz; auto. rewrite Hb, Hd in Hl. exact Hl. }
  destruct C as (_ & _ & C3 & C4). specialize (C3 true z A0 (or_introl eq_refl)).
  assert (Lz : length z = 3%nat) by (destruct Bz as (a & b & d & -> & _); reflexivity).
  destruct (C4 true z A0 (or_introl eq_refl)) as (w & B & Ew & Ei); [rewrite Hd, Lz; auto|].
  rewrite Hd in B, Ei. rewrite <- Lz, firstn_all in B. rewrite <- Lz, firstn_all in Ei. rewrite Hb in B.
  pose proof (boxed_unique _ _ _ _ B (box_same z Bz)) as ->.
  exists (snd (disc_filter_control cfg (InArray x) dt u s)). split; [|split; auto].
  rewrite <- Ew. apply surjective_pairing.
Qed.

(** The desired control is inside the bounds and acceptable. *)
Lemma tried_desired : in_unit_box u ->
  (forall k d, In (k, d) (disc_constraints s) -> steps_well (dc_next cfg) 0 d x dt u 0) ->
  exists s', disc_filter_control cfg (InArray x) dt u s = (Ok u, s') /\ disc_warnings s' = disc_warnings s.
Proof.
  intros B Hw. destruct (answered u B) as (s' & E & W & _); [|exists s'; auto].
  intros obj cons lims Hp Hl. unfold slsqp_try. rewrite (box_lims _ Hl), (box_met u B), (met cons u); auto.
  destruct B as (a & b & d & -> & _); reflexivity.
Qed.
(** The desired control is outside the bounds, the other point is acceptable. *)
Lemma tried_fall : in_unit_box fall -> length u = 3%nat ->
  limits_met [(Some (-1), Some 1); (Some (-1), Some 1); (Some (-1), Some 1)] u = false ->
  (forall k d, In (k, d) (disc_constraints s) -> steps_well (dc_next cfg) 0 d x dt fall 0) ->
  exists s', disc_filter_control cfg (InArray x) dt u s = (Ok fall, s') /\ disc_warnings s' = disc_warnings s /\
    intervening s' = Rltb (dc_eps cfg) (sqrt (dist2 u fall)).
Proof.
  intros B Lu Nu Hw. apply (answered fall B).
  assert (Lf : length fall = 3%nat) by (destruct B as (a & b & d & -> & _); reflexivity).
  intros obj cons lims Hp Hl. unfold slsqp_try. rewrite (box_lims _ Hl), Nu, andb_false_r, Lf, Lu, (met cons fall), (box_met fall B); auto.
Qed.
End Tried.
