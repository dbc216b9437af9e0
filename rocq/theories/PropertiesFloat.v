(** Properties on IEEE numbers: C57. *)
From Coq Require Import ZArith List Bool Lia Floats.SpecFloat.
From Verif Require Import ModelFloat.
Import ListNotations.

(** ** Specification *)

(** Below zero, at least zero, between two numbers: IEEE comparison, false on not-a-number. *)
Definition negative (v : float) : Prop := SFltb v (S754_zero false) = true.
Definition between (lo hi r : float) : Prop := SFleb lo r = true /\ SFleb r hi = true.
Definition is_number (v : float) : Prop := v <> S754_nan.
Definition is_finite (v : float) : Prop := match v with S754_zero _ | S754_finite _ _ _ => True | _ => False end.

(** ** Lemmas *)
Lemma compare_refl x : is_number x -> SFcompare x x = Some Eq.
Proof.
  destruct x as [s|s| |s m e]; intros H; simpl; auto; [destruct s; auto|destruct H; auto|].
  destruct s; rewrite Z.compare_refl, Pos.compare_cont_refl; reflexivity.
Qed.
Lemma le_refl x : is_number x -> SFleb x x = true.
Proof. intros H. unfold SFleb. rewrite compare_refl by auto. reflexivity. Qed.
Lemma lt_le x y : SFltb x y = true -> SFleb x y = true.
Proof. unfold SFltb, SFleb. destruct (SFcompare x y) as [[]|]; auto; discriminate. Qed.
Lemma nan_dec x : {x = S754_nan} + {is_number x}.
Proof. destruct x; try (right; discriminate). left; auto. Qed.
Lemma is_nan_false x : is_number x -> is_nan x = false.
Proof. destruct x; auto. intros H. destruct H; auto. Qed.
Lemma is_nan_true x : is_nan x = true -> x = S754_nan.
Proof. destruct x; auto; discriminate. Qed.
Lemma nan_lt_l x : SFltb S754_nan x = false.
Proof. reflexivity. Qed.
Lemma nan_lt_r x : SFltb x S754_nan = false.
Proof. destruct x; reflexivity. Qed.
Lemma total x y : is_number x -> is_number y -> SFltb x y = false -> SFleb y x = true.
Proof.
  unfold SFltb, SFleb, is_number. intros Hx Hy.
  assert (E : SFcompare y x = option_map CompOpp (SFcompare x y)).
  { destruct x as [s|s| |s m e], y as [s'|s'| |s' m' e']; try congruence; simpl; try (destruct s, s'; reflexivity); try (destruct s; reflexivity); try (destruct s'; reflexivity).
    destruct s, s'; simpl; auto; rewrite (Z.compare_antisym e e'); destruct (Z.compare e e'); simpl; auto;
      f_equal; unfold Pos.compare; rewrite <- ?Pos.compare_antisym; try reflexivity;
      rewrite !CompOpp_involutive || idtac; auto using Pos.compare_antisym. }
  rewrite E. destruct (SFcompare x y) as [[]|] eqn:Exy; simpl; auto; try discriminate.
  destruct x as [s|s| |s m e], y as [s'|s'| |s' m' e']; try congruence; simpl in Exy; try discriminate;
    destruct s; try discriminate; destruct s'; try discriminate; destruct (Z.compare e e'); discriminate.
Qed.

(** The bounds have one number per component of the control. *)
Definition f_fits (b : f_bound) (u : list float) : Prop := match b with None => True | Some v => length v = length u end.
Definition f_bound_at (b : f_bound) (i : nat) : option float := match b with None => None | Some v => nth_error v i end.
(** Where a lower bound is given, [r] is not below it; where an upper one is, not above. *)
Definition in_bounds (low high : option float) (r : float) : Prop :=
  (forall l, low = Some l -> SFleb l r = true) /\ (forall h, high = Some h -> SFleb r h = true).
(** No bound is not-a-number, and lower bounds are not above upper ones. *)
Definition proper (low high : option float) : Prop :=
  low <> Some S754_nan /\ high <> Some S754_nan /\ forall l h, low = Some l -> high = Some h -> SFleb l h = true.

Lemma zip_nth f u v i : length v = length u ->
  nth_error (zip f u v) i = match nth_error u i, nth_error v i with Some x, Some y => Some (f x y) | _, _ => None end.
Proof.
  revert v i. induction u as [|x u IH]; intros [|y v] [|i] H; simpl in *; try discriminate; auto.
Qed.
Lemma zip_length f u v : length v = length u -> length (zip f u v) = length u.
Proof. revert v. induction u as [|x u IH]; intros [|y v] H; simpl in *; try discriminate; auto. Qed.
Lemma apply_length f b u : f_fits b u -> length (f_apply f b u) = length u.
Proof. destruct b; simpl; auto. intros H. apply zip_length; auto. Qed.
Lemma apply_nth f b u i x : f_fits b u -> nth_error u i = Some x ->
  nth_error (f_apply f b u) i = Some (match f_bound_at b i with None => x | Some y => f x y end).
Proof.
  destruct b as [v|]; simpl; auto. intros H Hx. rewrite zip_nth, Hx by auto.
  destruct (nth_error v i) eqn:E; auto. apply nth_error_None in E.
  assert (i < length u)%nat by (apply nth_error_Some; congruence). lia.
Qed.
Lemma clip_nth low high u i x : f_fits low u -> f_fits high u -> nth_error u i = Some x ->
  nth_error (f_clip low high u) i =
  Some (let m := match f_bound_at low i with None => x | Some l => f_max x l end in
        match f_bound_at high i with None => m | Some h => f_min m h end).
Proof.
  intros Fl Fh Hx. unfold f_clip. erewrite apply_nth; [reflexivity| |apply apply_nth; eauto].
  destruct high; simpl in *; auto. rewrite apply_length; auto.
Qed.
Lemma max_nan a b : f_max a b = S754_nan <-> a = S754_nan \/ b = S754_nan.
Proof.
  unfold f_max. destruct (nan_dec a) as [->|Na]; [simpl; tauto|]. rewrite is_nan_false by auto.
  destruct (SFltb b a) eqn:E; split; intros H; auto.
  - destruct H as [H|H]; auto. subst b. rewrite nan_lt_l in E. discriminate.
  - destruct H as [H|H]; auto. destruct Na; auto.
Qed.
Lemma min_nan a b : f_min a b = S754_nan <-> a = S754_nan \/ b = S754_nan.
Proof.
  unfold f_min. destruct (nan_dec a) as [->|Na]; [simpl; tauto|]. rewrite is_nan_false by auto.
  destruct (SFltb a b) eqn:E; split; intros H; auto.
  - destruct H as [H|H]; auto. subst b. rewrite nan_lt_r in E. discriminate.
  - destruct H as [H|H]; auto. destruct Na; auto.
Qed.

(** ** C57.  Not-a-number. *)

(** The monitor rejects exactly when a value of an enabled constraint is below zero in the IEEE
    order (minus infinity included). *)
Theorem C57_monitor_exact :
  forall constraints,
  f_violation constraints = true <->
  exists vals v, In (true, vals) constraints /\ In v vals /\ negative v.
Proof.
  intros cs. unfold f_violation. rewrite existsb_exists. split.
  - intros ([e vals] & Hin & H). simpl in H. apply existsb_exists in H. destruct H as (v & Hv & Hn).
    destruct e; [exists vals, v; auto|]. apply in_map_iff in Hv. destruct Hv as (_ & <- & _). discriminate.
  - intros (vals & v & Hin & Hv & Hn). exists (true, vals). split; [auto|]. simpl. apply existsb_exists. eauto.
Qed.
Print Assumptions C57_monitor_exact.

(** The full claim fails: not-a-number counts as safe, whatever the module; the call returns the
    desired control with its not-a-number components, and does not intervene. *)
Theorem C57_nan_passes_refuted :
  forall (X : Type) (m : f_module X) x u,
  (forall b vals v, In (b, vals) (f_values m x u) -> In v vals -> v = S754_nan) ->
  f_fits (f_low m) u -> f_fits (f_high m) u ->
  snd (f_filter m x u) = false /\
  forall i, nth_error u i = Some S754_nan -> nth_error (fst (f_filter m x u)) i = Some S754_nan.
Proof.
  intros X m x u HN Fl Fh.
  assert (E : f_violation (f_values m x u) = false).
  { destruct (f_violation (f_values m x u)) eqn:E; auto. apply C57_monitor_exact in E.
    destruct E as (vals & v & Hin & Hv & Hn). rewrite (HN _ _ _ Hin Hv) in Hn. discriminate. }
  unfold f_filter. rewrite E. simpl. split; [auto|]. intros i Hi. rewrite (clip_nth _ _ _ _ _ Fl Fh Hi). simpl.
  destruct (f_bound_at (f_low m) i), (f_bound_at (f_high m) i); reflexivity.
Qed.
Print Assumptions C57_nan_passes_refuted.

(** A component is not-a-number after clipping exactly if it was before, or a bound is. *)
Theorem C57_clip_nan_iff :
  forall low high u i x, f_fits low u -> f_fits high u -> nth_error u i = Some x ->
  nth_error (f_clip low high u) i = Some S754_nan <->
  x = S754_nan \/ f_bound_at low i = Some S754_nan \/ f_bound_at high i = Some S754_nan.
Proof.
  intros low high u i x Fl Fh Hx. rewrite (clip_nth _ _ _ _ _ Fl Fh Hx). cbv zeta.
  destruct (f_bound_at low i) as [l|], (f_bound_at high i) as [h|]; split; intros H.
  - injection H as H. apply min_nan in H. destruct H as [H| ->]; [apply max_nan in H; destruct H as [->| ->]; auto|auto].
  - f_equal. apply min_nan. destruct H as [->|[H|H]]; [left; apply max_nan; auto|injection H as ->; left; apply max_nan; auto|injection H as ->; auto].
  - injection H as H. apply max_nan in H. destruct H as [->| ->]; auto.
  - f_equal. apply max_nan. destruct H as [->|[H|H]]; [auto|injection H as ->; auto|discriminate].
  - injection H as H. apply min_nan in H. destruct H as [->| ->]; auto.
  - f_equal. apply min_nan. destruct H as [->|[H|H]]; [auto|discriminate|injection H as ->; auto].
  - injection H as ->. auto.
  - destruct H as [->|[H|H]]; [auto|discriminate|discriminate].
Qed.
Print Assumptions C57_clip_nan_iff.

(** Clipping any number, infinite ones included, gives a number within the bounds; with finite
    bounds on both sides a finite one. *)
Theorem C57_clip_numbers_partial :
  forall low high u i x, f_fits low u -> f_fits high u -> nth_error u i = Some x -> is_number x ->
  proper (f_bound_at low i) (f_bound_at high i) ->
  exists r, nth_error (f_clip low high u) i = Some r /\ is_number r /\ in_bounds (f_bound_at low i) (f_bound_at high i) r /\
  ((exists l h, f_bound_at low i = Some l /\ is_finite l /\ f_bound_at high i = Some h /\ is_finite h) -> is_finite r).
Proof.
  intros low high u i x Fl Fh Hx Nx (Pl & Ph & Plh). rewrite (clip_nth _ _ _ _ _ Fl Fh Hx). cbv zeta.
  set (m := match f_bound_at low i with None => x | Some l => f_max x l end).
  assert (Hm : is_number m /\ (forall l, f_bound_at low i = Some l -> SFleb l m = true)).
  { subst m. destruct (f_bound_at low i) as [l|].
    - split; [intros E; apply max_nan in E; destruct E as [E| ->]; auto|]. intros l' E; injection E as <-.
      unfold f_max. rewrite is_nan_false by auto. destruct (SFltb l x) eqn:Ex; [apply lt_le; auto|apply le_refl; intros E0; apply Pl; rewrite E0; reflexivity].
    - split; [auto|discriminate]. }
  destruct Hm as [Nm Hm].
  assert (Hr : exists r, (match f_bound_at high i with None => m | Some h => f_min m h end) = r /\ is_number r /\
                         in_bounds (f_bound_at low i) (f_bound_at high i) r).
  { eexists. split; [reflexivity|]. destruct (f_bound_at high i) as [h|].
    - split; [intros E; apply min_nan in E; destruct E as [E| ->]; auto|]. unfold f_min. rewrite is_nan_false by auto.
      destruct (SFltb m h) eqn:Eh; (split; [|intros h' E; injection E as <-]); auto.
      + apply lt_le; auto.
      + apply le_refl. intros E0; apply Ph; rewrite E0; reflexivity.
    - split; [auto|split; [auto|discriminate]]. }
  destruct Hr as (r & -> & Nr & Ir). exists r. split; [auto|split; [auto|split; [auto|]]].
  intros (l & h & El & Fil & Eh & Fih). destruct Ir as [I1 I2]. specialize (I1 _ El). specialize (I2 _ Eh).
  destruct r as [s|s| |s mm e]; simpl; auto. destruct s.
  - destruct l as [?|?| |? ? ?]; simpl in *; try discriminate; try contradiction.
  - destruct h as [?|?| |? ? ?]; simpl in *; try discriminate; try contradiction.
Qed.
Print Assumptions C57_clip_numbers_partial.

(** Whole calls: if the desired control and the backup control are numbers then so is the control
    returned, within proper bounds; and if the module does not intervene, every enabled value is
    not-a-number or at least zero. *)
Theorem C57_call_partial :
  forall (X : Type) (m : f_module X) x u w b,
  f_filter m x u = (w, b) -> length (f_backup m x) = length u -> f_fits (f_low m) u -> f_fits (f_high m) u ->
  (forall y, In y u \/ In y (f_backup m x) -> is_number y) ->
  (forall i, proper (f_bound_at (f_low m) i) (f_bound_at (f_high m) i)) ->
  length w = length u /\
  (forall i r, nth_error w i = Some r -> is_number r /\ in_bounds (f_bound_at (f_low m) i) (f_bound_at (f_high m) i) r) /\
  (b = false -> forall vals v, In (true, vals) (f_values m x u) -> In v vals -> v = S754_nan \/ SFleb f_zero v = true).
Proof.
  intros X m x u w b H Lb Fl Fh HN HP. unfold f_filter in H. injection H as <- <-.
  assert (CL : forall y : list float, length y = length u -> length (f_clip (f_low m) (f_high m) y) = length y).
  { intros y Ly. unfold f_clip. rewrite apply_length; [apply apply_length|].
    - destruct (f_low m); simpl in *; auto. congruence.
    - destruct (f_high m); simpl in *; auto. rewrite apply_length; [congruence|]. destruct (f_low m); simpl in *; auto. congruence. }
  assert (CN : forall y : list float, length y = length u -> (forall z, In z y -> is_number z) ->
    forall i r, nth_error (f_clip (f_low m) (f_high m) y) i = Some r ->
    is_number r /\ in_bounds (f_bound_at (f_low m) i) (f_bound_at (f_high m) i) r).
  { intros y Ly Hy i r Hr. destruct (nth_error y i) as [z|] eqn:Ez.
    - destruct (C57_clip_numbers_partial (f_low m) (f_high m) y i z) as (r' & E & N & B & _); auto.
      + destruct (f_low m); simpl in *; auto. congruence.
      + destruct (f_high m); simpl in *; auto. congruence.
      + apply Hy. eapply nth_error_In; eauto.
      + rewrite E in Hr. injection Hr as <-. auto.
    - apply nth_error_None in Ez. rewrite <- (CL y Ly) in Ez. apply nth_error_None in Ez. congruence. }
  split; [|split].
  - destruct (f_violation (f_values m x u)); rewrite !CL; auto. rewrite CL; auto.
  - intros i r Hr. destruct (f_violation (f_values m x u)).
    + apply (CN (f_clip (f_low m) (f_high m) (f_backup m x))); auto; [rewrite CL; auto|].
      intros z Hz. apply In_nth_error in Hz. destruct Hz as [k Hk].
      apply (CN (f_backup m x) Lb ltac:(auto) k z Hk).
    + apply (CN u); auto.
  - intros E vals v Hin Hv. destruct (nan_dec v) as [->|Nv]; [auto|right].
    apply total; auto; [discriminate|]. destruct (SFltb v f_zero) eqn:Ev; auto.
    assert (f_violation (f_values m x u) = true) by (apply C57_monitor_exact; exists vals, v; auto). congruence.
Qed.
Print Assumptions C57_call_partial.

(** ** Concrete cases.  One and minus two as IEEE numbers. *)
Definition f_one : float := S754_finite false 4503599627370496 (-52).
Definition f_mtwo : float := S754_finite true 4503599627370496 (-51).
(** The values are those of the control itself, the backup commands one, the bounds are -2 and 1. *)
Definition f_toy : f_module unit := mkF (Some [f_mtwo]) (Some [f_one]) (fun _ => [f_one]) (fun _ u => [(true, u); (false, [f_mtwo])]).
Example C57_cases :
  f_filter f_toy tt [f_mtwo] = ([f_one], true) /\
  f_filter f_toy tt [S754_infinity true] = ([f_one], true) /\
  f_filter f_toy tt [S754_infinity false] = ([f_one], false) /\
  f_filter f_toy tt [S754_nan] = ([S754_nan], false) /\
  f_clip (Some [f_mtwo]) (Some [f_one]) [S754_infinity true] = [f_mtwo].
Proof. vm_compute. repeat split. Qed.
Example C57_proper_case : forall i, proper (f_bound_at (f_low f_toy) i) (f_bound_at (f_high f_toy) i).
Proof.
  intros [|[|i]]; simpl; (split; [discriminate|split; [discriminate|]]); intros l h E1 E2; try discriminate.
  injection E1 as <-. injection E2 as <-. reflexivity.
Qed.
Example C57_nan_case : snd (f_filter (mkF None None (fun _ : unit => [f_one]) (fun _ u => [(true, u)])) tt [S754_nan]) = false.
Proof.
  refine (proj1 (C57_nan_passes_refuted unit (mkF None None (fun _ => [f_one]) (fun _ u => [(true, u)])) tt [S754_nan] _ Logic.I Logic.I)).
  intros b vals v [E|[]] Hv. injection E as <- <-. destruct Hv as [<-|[]]. reflexivity.
Qed.
