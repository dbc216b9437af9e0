(** Two objects of the same class that differ only in what their later answers do not
    depend on: a generic simulation argument over histories. *)
From Coq Require Import String Reals List Bool ZArith Lia Lra.
From Verif Require Import Prelude Vec ModelBase ModelController ModelSimplex SpecCore SpecHistory ProofsBase ProofsHistory.
Import ListNotations.
Local Open Scope R_scope.

(** ** The caches *)

(** One entry per constraint, in the order of the constraints. *)
Definition keyed {X P Y} (w : cb X P Y) : Prop :=
  distinct_keys (cb_constraints w) /\
  map fst (cb_params w) = map fst (cb_constraints w) /\
  map fst (cb_enabled w) = map fst (cb_constraints w).

Lemma dict_set_at {V} (pre : dict V) k v v' post :
  ~ In k (map fst pre) -> dict_set (pre ++ (k, v) :: post) k v' = pre ++ (k, v') :: post.
Proof.
  induction pre as [|[k0 v0] pre IH]; simpl; intros H.
  - rewrite String.eqb_refl; auto.
  - destruct (String.eqb k k0) eqn:E.
    + apply String.eqb_eq in E; subst; tauto.
    + rewrite IH by tauto; auto.
Qed.

Lemma dict_set_new {V} (pre : dict V) k v' :
  ~ In k (map fst pre) -> dict_set pre k v' = pre ++ [(k, v')].
Proof.
  induction pre as [|[k0 v0] pre IH]; simpl; intros H; auto.
  destruct (String.eqb k k0) eqn:E.
  - apply String.eqb_eq in E; subst; tauto.
  - rewrite IH by tauto; auto.
Qed.

Lemma fold_set_keyed {A V} (f : string * A -> V) (l : list (string * A)) :
  forall (pre : dict V) rest, NoDup (map fst pre ++ map fst l) ->
  (map fst rest = map fst l \/ rest = []) ->
  fold_left (fun d kc => dict_set d (fst kc) (f kc)) l (pre ++ rest) =
  pre ++ map (fun kc => (fst kc, f kc)) l.
Proof.
  induction l as [|[k a] l IH]; intros pre rest N H.
  - simpl; destruct H as [H| ->]; auto. destruct rest; simpl in H; [auto|discriminate].
  - assert (Nk : ~ In k (map fst pre)).
    { simpl in N; apply NoDup_remove_2 in N; intros C; apply N, in_or_app; auto. }
    assert (N' : NoDup (map fst (pre ++ [(k, f (k, a))]) ++ map fst l)).
    { rewrite map_app, <- app_assoc; exact N. }
    destruct H as [H| ->].
    + destruct rest as [|[k0 v0] rest]; simpl in H; [discriminate|].
      injection H as -> H.
      simpl. rewrite dict_set_at by auto.
      replace (pre ++ (k, f (k, a)) :: rest) with ((pre ++ [(k, f (k, a))]) ++ rest)
        by (rewrite <- app_assoc; auto).
      rewrite IH by auto. rewrite <- app_assoc; auto.
    + simpl. rewrite app_nil_r, dict_set_new by auto.
      rewrite <- (app_nil_r (pre ++ _)). rewrite IH by auto.
      rewrite <- app_assoc; auto.
Qed.

(** After _update_params the caches hold the present attributes, in order. *)
Lemma update_params_keyed {X P Y} (w : cb X P Y) : keyed w ->
  cb_params (update_params w) = map (fun kc => (fst kc, c_params (snd kc))) (cb_constraints w) /\
  cb_enabled (update_params w) = map (fun kc => (fst kc, c_enabled (snd kc))) (cb_constraints w).
Proof.
  intros (N & Hp & He); simpl; split;
    [apply (fold_set_keyed (fun kc => c_params (snd kc)) _ [])
    |apply (fold_set_keyed (fun kc => c_enabled (snd kc)) _ [])]; simpl; auto.
Qed.

Lemma keyed_update {X P Y} (w : cb X P Y) : keyed w -> keyed (update_params w).
Proof.
  intros K; destruct (update_params_keyed w K) as [E1 E2]; unfold keyed; rewrite E1, E2.
  destruct K as (N & _ & _); simpl; rewrite !map_map; auto.
Qed.

Lemma keyed_values {X P Y} (w : cb X P Y) x st : keyed w -> keyed (update_constraint_values_at x st w).
Proof. intros K; exact K. Qed.

Lemma keyed_init {X P Y} defined to_use (y : Y) (w : cb X P Y) :
  distinct_keys defined -> cb_init defined to_use y = Ok w -> keyed w.
Proof.
  unfold cb_init; intros N H.
  destruct (select_constraints defined to_use) as [cs|e] eqn:E; [|discriminate].
  simpl in H; injection H as <-.
  assert (Ncs : NoDup (map fst cs)).
  { unfold select_constraints in E; destruct to_use as [names|]; [|injection E as <-; exact N].
    destruct (Nat.eqb _ _) in E; [discriminate|]; injection E as <-.
    clear - N; unfold distinct_keys in N.
    induction defined as [|[k c] d IH]; simpl; [constructor|].
    inversion N; subst. destruct (existsb _ _); simpl; auto. constructor; auto.
    rewrite in_map_iff; intros ([k' c'] & Ek & I); simpl in Ek; subst.
    apply filter_In in I; apply H1; rewrite in_map_iff; exists (k, c'); simpl; tauto. }
  unfold keyed; simpl. split; [exact Ncs|].
  pose proof (fold_set_keyed (fun kc => c_params (snd kc)) cs [] []) as Fparams; simpl in Fparams; rewrite Fparams by auto.
  pose proof (fold_set_keyed (fun kc => c_enabled (snd kc)) cs [] []) as Fenabled; simpl in Fenabled; rewrite Fenabled by auto.
  simpl; rewrite !map_map; auto.
Qed.

Lemma keyed_assign {X P Y} (w : cb X P Y) k (f : constraint X P -> constraint X P) :
  keyed w -> keyed (on_constraint k f w).
Proof.
  unfold keyed, on_constraint, distinct_keys; simpl.
  replace (map fst (map (fun kc => if String.eqb k (fst kc) then (fst kc, f (snd kc)) else kc) (cb_constraints w)))
    with (map fst (cb_constraints w)); auto.
  rewrite map_map; apply map_ext; intros [k' c]; simpl; destruct (String.eqb k k'); auto.
Qed.

(** ** Simulation *)

Section Sim.
Context {X P Y : Type} (RY : Y -> Y -> Prop).
Notation obj := (rta (cb X P Y)).

(** Equal up to the caches, the relation on the extension, and (unless [V]) the reported
    constraint values. *)
Definition gsim (V : Prop) (s s' : obj) : Prop :=
  enable s = enable s' /\ intervening s = intervening s' /\
  control_desired s = control_desired s' /\ control_actual s = control_actual s' /\
  cb_constraints (ext s) = cb_constraints (ext s') /\
  keyed (ext s) /\ keyed (ext s') /\
  RY (cb_ext (ext s)) (cb_ext (ext s')) /\
  (V -> cb_values (ext s) = cb_values (ext s') /\ cb_stale (ext s) = cb_stale (ext s')).

(** The algorithm, started in similar states with equal caches, gives equal results and
    similar states. *)
Definition flt_sim (flt : X -> R -> vec -> M obj vec) : Prop :=
  forall x dt u V s s', gsim V s s' ->
    cb_params (ext s) = cb_params (ext s') -> cb_enabled (ext s) = cb_enabled (ext s') ->
    fst (flt x dt u s) = fst (flt x dt u s') /\ gsim V (snd (flt x dt u s)) (snd (flt x dt u s')).
Definition rst_sim (rst : M obj unit) : Prop :=
  forall V s s', gsim V s s' -> fst (rst s) = fst (rst s') /\ gsim V (snd (rst s)) (snd (rst s')).

Context (b : bounds) (flt : X -> R -> vec -> M obj vec) (rst : M obj unit).
Hypothesis HF : flt_sim flt.
Hypothesis HR : rst_sim rst.

Lemma gsim_weaken (V V' : Prop) s s' : (V' -> V) -> gsim V s s' -> gsim V' s s'.
Proof. unfold gsim; intros H G; decompose [and] G; repeat (split; [assumption|]); auto. Qed.

Lemma gsim_prep V x u s s' : gsim V s s' ->
  gsim True (prep x u s) (prep x u s') /\
  cb_params (ext (prep x u s)) = cb_params (ext (prep x u s')) /\
  cb_enabled (ext (prep x u s)) = cb_enabled (ext (prep x u s')).
Proof.
  intros (H1 & H2 & H3 & H4 & H5 & H6 & H7 & H8 & H9).
  destruct (update_params_keyed _ H6) as [E1 E2]; destruct (update_params_keyed _ H7) as [E1' E2'].
  assert (Q1 : cb_params (update_params (ext s)) = cb_params (update_params (ext s')))
    by (rewrite E1, E1', H5; auto).
  assert (Q2 : cb_enabled (update_params (ext s)) = cb_enabled (update_params (ext s')))
    by (rewrite E2, E2', H5; auto).
  split; [|split; [exact Q1|exact Q2]].
  unfold gsim. split; [exact H1|split; [exact H2|split; [reflexivity|split; [exact H4|split; [exact H5|]]]]].
  split; [apply (keyed_values (update_params (ext s)) x true), keyed_update; auto|].
  split; [apply (keyed_values (update_params (ext s')) x true), keyed_update; auto|].
  split; [exact H8|].
  intros _; simpl; rewrite H5; auto.
Qed.

Lemma gsim_step V o s s' : gsim V s s' ->
  fst (cb_step (gfilter b flt) rst o s) = fst (cb_step (gfilter b flt) rst o s') /\
  gsim (V \/ evaluates (enable s) o <> None)
       (snd (cb_step (gfilter b flt) rst o s)) (snd (cb_step (gfilter b flt) rst o s')).
Proof.
  intros G; pose proof G as G0.
  destruct G as (H1 & H2 & H3 & H4 & H5 & H6 & H7 & H8 & H9).
  destruct o as [i dt u| |en|i|k p|k e]; simpl.
  - destruct (enable s) eqn:En.
    + destruct i as [x|].
      * rewrite (gfilter_array b flt x dt u s), (gfilter_array b flt x dt u s') by congruence.
        destruct (gsim_prep _ x u _ _ G0) as (GP & Q1 & Q2).
        destruct (HF x dt u True _ _ GP Q1 Q2) as [F1 F2].
        destruct (flt x dt u (prep x u s)) as [r s1]; destruct (flt x dt u (prep x u s')) as [r' s1'].
        simpl in F1, F2; subst r'.
        destruct F2 as (A1 & A2 & A3 & A4 & A5 & A6 & A7 & A8 & A9).
        destruct r as [v|e]; [destruct (clip b v)|]; simpl; (split; [reflexivity|]);
          unfold gsim; simpl; repeat (split; [first [assumption|reflexivity]|]); auto.
      * rewrite (gfilter_other b flt dt u s), (gfilter_other b flt dt u s') by congruence.
        simpl; split; auto. unfold gsim; simpl.
        split; [congruence|split; [auto|split; [auto|split; [auto|split; [auto|]]]]].
        split; [apply keyed_update; auto|split; [apply keyed_update; auto|split; [auto|]]].
        intros [v|n]; [auto|congruence].
    + rewrite (gfilter_disabled b flt i dt u s), (gfilter_disabled b flt i dt u s') by congruence.
      simpl; split; auto. unfold gsim; simpl.
      split; [congruence|split; [auto|split; [auto|split; [auto|split; [auto|]]]]].
      split; [auto|split; [auto|split; [auto|]]].
      intros [v|n]; [auto|exfalso; apply n; destruct i; auto].
  - destruct (HR V _ _ G0) as [F1 F2].
    destruct (rst s) as [r s1]; destruct (rst s') as [r' s1']; simpl in *; subst; split; auto.
    eapply gsim_weaken; [|exact F2]. intros [v|n]; [auto|congruence].
  - split; auto. unfold gsim; simpl.
    split; [auto|split; [auto|split; [auto|split; [auto|split; [auto|]]]]].
    split; [auto|split; [auto|split; [auto|]]].
    intros [v|n]; [auto|congruence].
  - destruct i as [x|]; simpl; (split; [auto|]).
    + unfold gsim; simpl.
      split; [auto|split; [auto|split; [auto|split; [auto|split; [auto|]]]]].
      split; [apply (keyed_values (ext s)); auto|split; [apply (keyed_values (ext s')); auto|split; [auto|]]].
      intros _; rewrite H5; auto.
    + eapply gsim_weaken; [|exact G0]. intros [v|n]; [auto|congruence].
  - split; auto. unfold gsim; simpl.
    split; [auto|split; [auto|split; [auto|split; [auto|split; [rewrite H5; auto|]]]]].
    split; [apply keyed_assign; auto|split; [apply keyed_assign; auto|split; [auto|]]].
    intros [v|n]; [auto|congruence].
  - split; auto. unfold gsim; simpl.
    split; [auto|split; [auto|split; [auto|split; [auto|split; [rewrite H5; auto|]]]]].
    split; [apply keyed_assign; auto|split; [apply keyed_assign; auto|split; [auto|]]].
    intros [v|n]; [auto|congruence].
Qed.

Hypothesis HFr : framed flt.
Hypothesis HRr : reset_framed rst.

Lemma gsim_run os : forall V s s', gsim V s s' ->
  fst (cb_run (gfilter b flt) rst os s) = fst (cb_run (gfilter b flt) rst os s') /\
  gsim (V \/ ~ quiet (enable s) os)
       (snd (cb_run (gfilter b flt) rst os s)) (snd (cb_run (gfilter b flt) rst os s')).
Proof.
  induction os as [|o os IH]; simpl; intros V s s' G.
  - split; auto. eapply gsim_weaken; [|exact G]; tauto.
  - destruct (gsim_step V o s s' G) as [F1 F2].
    destruct (cb_step (gfilter b flt) rst o s) as [b1 s1] eqn:E1.
    destruct (cb_step (gfilter b flt) rst o s') as [b1' s1'] eqn:E1'.
    simpl in F1, F2; subst b1'.
    destruct (IH _ _ _ F2) as [F3 F4].
    destruct (cb_run (gfilter b flt) rst os s1) as [bs s2].
    destruct (cb_run (gfilter b flt) rst os s1') as [bs' s2'].
    simpl in *; subst; split; auto.
    eapply gsim_weaken; [|exact F4].
    rewrite (step_enable b flt rst HFr HRr _ _ _ _ E1).
    intros [v|n]; [auto|].
    destruct (evaluates (enable s) o) eqn:Ev; [left; right; discriminate|].
    right; tauto.
Qed.

Lemma gsim_info V s s' : gsim V s s' -> rta_info s = rta_info s' /\ (V -> cb_info s = cb_info s').
Proof.
  intros (H1 & H2 & H3 & H4 & H5 & H6 & H7 & H8 & H9).
  assert (Q : rta_info s = rta_info s') by (unfold rta_info; rewrite H1, H2, H3, H4; auto).
  split; auto. intros v; destruct (H9 v) as [A B]. unfold cb_info; rewrite Q, A, B; auto.
Qed.
End Sim.

(** ** The caches stay keyed *)
Definition keeps_caches {X P Y} (flt : X -> R -> vec -> M (rta (cb X P Y)) vec) : Prop :=
  forall x dt u s r s', flt x dt u s = (r, s') ->
    cb_params (ext s') = cb_params (ext s) /\ cb_enabled (ext s') = cb_enabled (ext s).
Definition reset_keeps_caches {X P Y} (rst : M (rta (cb X P Y)) unit) : Prop :=
  forall s r s', rst s = (r, s') ->
    cb_params (ext s') = cb_params (ext s) /\ cb_enabled (ext s') = cb_enabled (ext s).

Section Keyed.
Context {X P Y : Type} (b : bounds) (flt : X -> R -> vec -> M (rta (cb X P Y)) vec)
  (rst : M (rta (cb X P Y)) unit).
Hypothesis HF : framed flt.
Hypothesis HC : keeps_caches flt.
Hypothesis HR : reset_framed rst.
Hypothesis HRC : reset_keeps_caches rst.

Lemma keyed_same (w w' : cb X P Y) : cb_constraints w' = cb_constraints w ->
  cb_params w' = cb_params w -> cb_enabled w' = cb_enabled w -> keyed w -> keyed w'.
Proof. unfold keyed; intros -> -> ->; auto. Qed.

Lemma keyed_step o s seen s' : keyed (ext s) -> cb_step (gfilter b flt) rst o s = (seen, s') -> keyed (ext s').
Proof.
  intros K; destruct o as [i dt u| |en|i|k p|k e]; simpl.
  - destruct (enable s) eqn:En.
    + destruct i as [x|].
      * rewrite gfilter_array by auto.
        destruct (flt x dt u (prep x u s)) as [r s1] eqn:E.
        destruct (HF _ _ _ _ _ _ E) as (_ & _ & _ & A & _).
        destruct (HC _ _ _ _ _ _ E) as (B & C).
        assert (K1 : keyed (ext s1)).
        { apply (keyed_same (ext (prep x u s))); auto.
          apply (keyed_values (update_params (ext s)) x true), keyed_update; auto. }
        destruct r as [v|e]; [destruct (clip b v)|]; simpl; intros H; injection H as _ <-; exact K1.
      * rewrite gfilter_other by auto; intros H; injection H as _ <-; apply keyed_update; exact K.
    + rewrite gfilter_disabled by auto; intros H; injection H as _ <-; exact K.
  - destruct (rst s) as [r s1] eqn:E; intros H; injection H as _ <-.
    destruct (HR _ _ _ E) as (_ & _ & _ & _ & A & _); destruct (HRC _ _ _ E) as [B C].
    eapply keyed_same; eauto.
  - intros H; injection H as _ <-; exact K.
  - destruct i as [x|]; simpl; intros H; injection H as _ <-; exact K.
  - intros H; injection H as _ <-; apply keyed_assign; exact K.
  - intros H; injection H as _ <-; apply keyed_assign; exact K.
Qed.

Lemma keyed_run os : forall s seen s', keyed (ext s) ->
  cb_run (gfilter b flt) rst os s = (seen, s') -> keyed (ext s').
Proof.
  induction os as [|o os IH]; simpl; intros s seen s' K H; [injection H as _ <-; auto|].
  destruct (cb_step (gfilter b flt) rst o s) as [b1 s1] eqn:E1.
  destruct (cb_run (gfilter b flt) rst os s1) as [bs s2] eqn:E2; injection H as _ <-.
  eapply IH; [|exact E2]. eapply keyed_step; eauto.
Qed.
End Keyed.
