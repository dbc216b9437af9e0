(** Histories of calls on any constraint-based module: bookkeeping, reported values and
    dependence on the caches. *)
From Coq Require Import String Reals List Bool ZArith Lia Lra.
From Verif Require Import Prelude Vec ModelBase ModelController ModelSimplex SpecCore SpecHistory ProofsBase.
Import ListNotations.
Local Open Scope R_scope.

(** What every _filter_control of the library leaves alone. *)
Definition framed {X P Y} (flt : X -> R -> vec -> M (rta (cb X P Y)) vec) : Prop :=
  forall x dt u s r s', flt x dt u s = (r, s') ->
    enable s' = enable s /\ control_desired s' = control_desired s /\
    control_actual s' = control_actual s /\
    cb_constraints (ext s') = cb_constraints (ext s) /\
    cb_values (ext s') = cb_values (ext s) /\ cb_stale (ext s') = cb_stale (ext s).

(** What every reset of the library does to the attributes of the base class. *)
Definition reset_framed {X P Y} (rst : M (rta (cb X P Y)) unit) : Prop :=
  forall s r s', rst s = (r, s') ->
    enable s' = true /\ control_desired s' = None /\ control_actual s' = None /\
    intervening s' = false /\
    cb_constraints (ext s') = cb_constraints (ext s) /\
    cb_values (ext s') = cb_values (ext s) /\ cb_stale (ext s') = cb_stale (ext s).

(** The controls a _filter_control returns can be clipped. *)
Definition out_sized_on {X P Y} (ok : vec -> Prop) (b : bounds)
    (flt : X -> R -> vec -> M (rta (cb X P Y)) vec) : Prop :=
  forall x dt u s v s', ok u -> flt x dt u s = (Ok v, s') -> fits b (length v).
Definition out_sized {X P Y} (b : bounds) (flt : X -> R -> vec -> M (rta (cb X P Y)) vec) : Prop :=
  out_sized_on (fun u => fits b (length u)) b flt.

Section Generic.
Context {X P Y : Type} (b : bounds) (flt : X -> R -> vec -> M (rta (cb X P Y)) vec)
        (rst : M (rta (cb X P Y)) unit).

Definition gfilter : input X -> R -> vec -> M (rta (cb X P Y)) vec :=
  filter_control b (cb_compute base_get_state flt).

(** The state in which the algorithm is started. *)
Definition prep (x : X) (u : vec) (s : rta (cb X P Y)) : rta (cb X P Y) :=
  on_ext (update_constraint_values_at x true)
    (on_ext update_params (set_desired (Some u) s)).

Lemma gfilter_array x dt u s : enable s = true ->
  gfilter (InArray x) dt u s =
  match flt x dt u (prep x u s) with
  | (Ok v, s1) => match clip b v with
                  | Ok w => (Ok w, set_actual (Some w) (set_actual (Some v) s1))
                  | Err e => (Err e, set_actual (Some v) s1)
                  end
  | (Err e, s1) => (Err e, s1)
  end.
Proof.
  intros E; unfold gfilter; rewrite filter_control_enabled by auto.
  unfold cb_compute, bind, modify, base_get_state, ret.
  fold (prep x u s).
  change (on_ext (update_constraint_values_at x true)
             (on_ext update_params (set_desired (Some u) s))) with (prep x u s).
  destruct (flt x dt u (prep x u s)) as [[v|e] s1]; auto.
Qed.

Lemma gfilter_other dt u s : enable s = true ->
  gfilter InOther dt u s = (Err AssertionError, on_ext update_params (set_desired (Some u) s)).
Proof. intros E; unfold gfilter; rewrite filter_control_enabled by auto; reflexivity. Qed.

Lemma gfilter_disabled i dt u s : enable s = false ->
  gfilter i dt u s = (Ok u, set_actual (Some u) (set_desired (Some u) s)).
Proof. intros E; apply filter_control_disabled; auto. Qed.

Hypothesis HF : framed flt.
Hypothesis HR : reset_framed rst.

Lemma step_constraints o s seen s' :
  cb_step gfilter rst o s = (seen, s') ->
  cb_constraints (ext s') = map (assign o) (cb_constraints (ext s)).
Proof.
  destruct o as [i dt u| |en|i|k p|k e]; simpl.
  - intros H.
    replace (map (assign (OFilter i dt u)) (cb_constraints (ext s)))
      with (cb_constraints (ext s)) by (simpl; symmetry; apply map_id).
    destruct (gfilter i dt u s) as [r s1] eqn:E; inversion H; subst; clear H.
    destruct (enable s) eqn:En.
    + destruct i as [x|].
      * rewrite gfilter_array in E by auto.
        destruct (flt x dt u (prep x u s)) as [r1 s1] eqn:Ef.
        destruct (HF _ _ _ _ _ _ Ef) as (_ & _ & _ & HC & _ & _).
        destruct r1 as [v|e]; [destruct (clip b v)|]; inversion E; subst; simpl in *; auto.
      * rewrite gfilter_other in E by auto; inversion E; subst; auto.
    + rewrite gfilter_disabled in E by auto; inversion E; subst; auto.
  - intros H; destruct (rst s) as [r s1] eqn:E; inversion H; subst.
    destruct (HR _ _ _ E) as (_ & _ & _ & _ & HC & _); rewrite HC.
    symmetry; apply map_id.
  - intros H; inversion H; subst; simpl; symmetry; apply map_id.
  - intros H; destruct i; inversion H; subst; simpl; symmetry; apply map_id.
  - intros H; inversion H; subst; reflexivity.
  - intros H; inversion H; subst; reflexivity.
Qed.

Lemma run_constraints os : forall s seen s',
  cb_run gfilter rst os s = (seen, s') ->
  cb_constraints (ext s') = constraints_after os (cb_constraints (ext s)).
Proof.
  induction os as [|o os IH]; simpl; intros s seen s' H; [inversion H; auto|].
  destruct (cb_step gfilter rst o s) as [o1 s1] eqn:E1.
  destruct (cb_run gfilter rst os s1) as [os2 s2] eqn:E2; inversion H; subst.
  rewrite (IH _ _ _ E2). rewrite (step_constraints _ _ _ _ E1). auto.
Qed.

Lemma step_enable o s seen s' :
  cb_step gfilter rst o s = (seen, s') -> enable s' = switch_after (enable s) o.
Proof.
  destruct o as [i dt u| |en|i|k p|k e]; simpl; intros H.
  - destruct (gfilter i dt u s) as [r s1] eqn:E; inversion H; subst; clear H.
    destruct (enable s) eqn:En.
    + destruct i as [x|].
      * rewrite gfilter_array in E by auto.
        destruct (flt x dt u (prep x u s)) as [r1 s1] eqn:Ef.
        destruct (HF _ _ _ _ _ _ Ef) as (HE & _).
        destruct r1 as [v|e]; [destruct (clip b v)|]; inversion E; subst; simpl in *;
          congruence.
      * rewrite gfilter_other in E by auto; inversion E; subst; auto.
    + rewrite gfilter_disabled in E by auto; inversion E; subst; auto.
  - destruct (rst s) as [r s1] eqn:E; inversion H; subst; apply (HR _ _ _ E).
  - inversion H; auto.
  - destruct i; inversion H; auto.
  - inversion H; auto.
  - inversion H; auto.
Qed.

Lemma run_enable os : forall s seen s',
  cb_run gfilter rst os s = (seen, s') -> enable s' = switch_of (enable s) os.
Proof.
  induction os as [|o os IH]; simpl; intros s seen s' H; [inversion H; auto|].
  destruct (cb_step gfilter rst o s) as [o1 s1] eqn:E1.
  destruct (cb_run gfilter rst os s1) as [os2 s2] eqn:E2; inversion H; subst.
  rewrite (IH _ _ _ E2). rewrite (step_enable _ _ _ _ E1). auto.
Qed.

(** *** The bookkeeper's record *)

Definition agrees (bk : book) (s : rta (cb X P Y)) : Prop :=
  enable s = bk_enable bk /\ control_desired s = bk_desired bk /\ control_actual s = bk_actual bk.

Context {ok : vec -> Prop}.
Hypothesis HS : out_sized_on ok b flt.

Lemma step_agrees bk o s seen s' :
  (forall i dt u, o = OFilter i dt u -> ok u) ->
  agrees bk s -> cb_step gfilter rst o s = (seen, s') -> agrees (book_step bk o seen) s'.
Proof.
  intros Sz (A1 & A2 & A3) H; unfold agrees.
  destruct o as [i dt u| |en|i|k p|k e]; simpl in H |- *.
  - specialize (Sz i dt u eq_refl).
    destruct (gfilter i dt u s) as [r s1] eqn:E; inversion H; subst; clear H.
    destruct (enable s) eqn:En.
    + destruct i as [x|].
      * rewrite gfilter_array in E by auto.
        destruct (flt x dt u (prep x u s)) as [r1 s1] eqn:Ef.
        destruct (HF _ _ _ _ _ _ Ef) as (HE & HD & HA & _).
        destruct r1 as [v|e].
        -- assert (Fv := HS _ _ _ _ _ _ Sz Ef).
           destruct (clip_boxed b v Fv) as (w & Ew & _); rewrite Ew in E.
           inversion E; subst; simpl in *; repeat split; try congruence.
        -- inversion E; subst; simpl in *; repeat split; congruence.
      * rewrite gfilter_other in E by auto; inversion E; subst; simpl;
          repeat split; congruence.
    + rewrite gfilter_disabled in E by auto; inversion E; subst; simpl;
        repeat split; congruence.
  - destruct (rst s) as [r s1] eqn:E; inversion H; subst.
    destruct (HR _ _ _ E) as (H1 & H2 & H3 & _); simpl; auto.
  - inversion H; subst; simpl; auto.
  - destruct i; inversion H; subst; simpl; auto.
  - inversion H; subst; simpl; auto.
  - inversion H; subst; simpl; auto.
Qed.

Lemma run_agrees os : forall bk s seen s',
  (forall i dt u, In (OFilter i dt u) os -> ok u) -> agrees bk s -> cb_run gfilter rst os s = (seen, s') ->
  agrees (book_of bk os seen) s'.
Proof.
  induction os as [|o os IH]; simpl; intros bk s seen s' Sz A H.
  - inversion H; subst; auto.
  - destruct (cb_step gfilter rst o s) as [o1 s1] eqn:E1.
    destruct (cb_run gfilter rst os s1) as [os2 s2] eqn:E2; inversion H; subst.
    apply (IH _ s1); auto.
    + intros i dt u Hin; apply (Sz i dt u); right; auto.
    + apply step_agrees with (s := s); auto. intros i dt u ->; apply (Sz i dt u); left; auto.
Qed.

(** *** Reported constraint values *)

Lemma report_map (cs : dict (constraint X P)) x :
  map (fun kc => (fst kc, c_phi (snd kc) x (c_params (snd kc)))) cs = report cs x.
Proof. induction cs as [|[k c] cs IH]; simpl; auto; rewrite IH; auto. Qed.

Lemma step_evaluates o s seen s' x lbl :
  evaluates (enable s) o = Some (x, lbl) ->
  cb_step gfilter rst o s = (seen, s') ->
  cb_values (ext s') = report (cb_constraints (ext s)) x /\
  cb_stale (ext s') = String.eqb lbl k_stale /\ (lbl = k_stale \/ lbl = k_fresh).
Proof.
  destruct o as [i dt u| |en|i|k p|k e]; simpl; intros Ev H; try discriminate.
  - destruct i as [y|]; [|discriminate].
    destruct (enable s) eqn:En; [|discriminate]; inversion Ev; subst y lbl; clear Ev.
    destruct (gfilter (InArray x) dt u s) as [r s1] eqn:E; inversion H; subst; clear H.
    rewrite gfilter_array in E by auto.
    destruct (flt x dt u (prep x u s)) as [r1 s1] eqn:Ef.
    destruct (HF _ _ _ _ _ _ Ef) as (_ & _ & _ & _ & HV & HT).
    assert (Q : cb_values (ext s') = cb_values (ext s1) /\ cb_stale (ext s') = cb_stale (ext s1)).
    { destruct r1 as [v|e]; [destruct (clip b v)|]; inversion E; subst; auto. }
    destruct Q as [-> ->]; rewrite HV, HT; simpl.
    rewrite report_map; auto.
  - destruct i as [y|]; inversion Ev; subst y lbl; inversion H; subst; simpl.
    rewrite report_map; auto.
Qed.

Lemma step_quiet o s seen s' :
  evaluates (enable s) o = None -> cb_step gfilter rst o s = (seen, s') ->
  cb_values (ext s') = cb_values (ext s) /\ cb_stale (ext s') = cb_stale (ext s).
Proof.
  destruct o as [i dt u| |en|i|k p|k e]; simpl; intros Ev H.
  - destruct (gfilter i dt u s) as [r s1] eqn:E; inversion H; subst; clear H.
    destruct (enable s) eqn:En.
    + destruct i as [x|]; [discriminate|].
      rewrite gfilter_other in E by auto; inversion E; subst; auto.
    + rewrite gfilter_disabled in E by auto; inversion E; subst; auto.
  - destruct (rst s) as [r s1] eqn:E; inversion H; subst.
    destruct (HR _ _ _ E) as (_ & _ & _ & _ & _ & H1 & H2); auto.
  - inversion H; subst; auto.
  - destruct i; [discriminate|]; inversion H; subst; auto.
  - inversion H; subst; auto.
  - inversion H; subst; auto.
Qed.

Lemma run_quiet os : forall s seen s',
  quiet (enable s) os -> cb_run gfilter rst os s = (seen, s') ->
  cb_values (ext s') = cb_values (ext s) /\ cb_stale (ext s') = cb_stale (ext s).
Proof.
  induction os as [|o os IH]; simpl; intros s seen s' Q H; [inversion H; auto|].
  destruct (cb_step gfilter rst o s) as [o1 s1] eqn:E1.
  destruct (cb_run gfilter rst os s1) as [os2 s2] eqn:E2; inversion H; subst.
  destruct Q as [Q1 Q2].
  rewrite <- (step_enable _ _ _ _ E1) in Q2.
  destruct (IH _ _ _ Q2 E2) as [-> ->]. eapply step_quiet; eauto.
Qed.

Lemma run_app os1 : forall os2 s,
  cb_run gfilter rst (os1 ++ os2) s =
  (let (o1, s1) := cb_run gfilter rst os1 s in
   let (o2, s2) := cb_run gfilter rst os2 s1 in (o1 ++ o2, s2)).
Proof.
  induction os1 as [|o os1 IH]; simpl; intros os2 s.
  - destruct (cb_run gfilter rst os2 s); auto.
  - destruct (cb_step gfilter rst o s) as [a s1]; rewrite IH.
    destruct (cb_run gfilter rst os1 s1) as [o1 s2].
    destruct (cb_run gfilter rst os2 s2); auto.
Qed.

(** Looking up the values in the info record. *)
Lemma info_values (s : rta (cb X P Y)) lbl vs :
  cb_values (ext s) = vs -> cb_stale (ext s) = String.eqb lbl k_stale ->
  lbl = k_stale \/ lbl = k_fresh ->
  dict_get (cb_info s) lbl = Ok (IValues vs) /\
  (forall l, l = k_stale \/ l = k_fresh -> l <> lbl -> dict_get (cb_info s) l = Err KeyError).
Proof.
  intros HV HT HL; unfold cb_info; rewrite HV, HT.
  destruct HL; subst lbl; split; auto; intros l [->| ->] HN; auto; congruence.
Qed.

Lemma run_values os1 o os2 s seen s' x lbl :
  let cs := constraints_after os1 (cb_constraints (ext s)) in
  let en := switch_of (enable s) os1 in
  evaluates en o = Some (x, lbl) ->
  quiet (switch_after en o) os2 ->
  cb_run gfilter rst (os1 ++ o :: os2) s = (seen, s') ->
  dict_get (cb_info s') lbl = Ok (IValues (report cs x)) /\
  (forall l, l = k_stale \/ l = k_fresh -> l <> lbl -> dict_get (cb_info s') l = Err KeyError).
Proof.
  intros cs en Ev Q H.
  rewrite run_app in H; simpl in H.
  destruct (cb_run gfilter rst os1 s) as [q1 s1] eqn:E1.
  destruct (cb_step gfilter rst o s1) as [q2 s2] eqn:E2.
  destruct (cb_run gfilter rst os2 s2) as [q3 s3] eqn:E3.
  inversion H; subst s3 seen; clear H.
  assert (En : enable s1 = en) by (eapply run_enable; eauto).
  assert (Cs : cb_constraints (ext s1) = cs) by (eapply run_constraints; eauto).
  rewrite <- En in Ev.
  destruct (step_evaluates _ _ _ _ _ _ Ev E2) as (V & T & L).
  assert (En2 : enable s2 = switch_after en o)
    by (rewrite (step_enable _ _ _ _ E2), En; auto).
  rewrite <- En2 in Q.
  destruct (run_quiet _ _ _ _ Q E3) as [V3 T3].
  apply info_values; congruence.
Qed.

Lemma run_no_values os s seen s' :
  quiet (enable s) os -> cb_values (ext s) = [] -> cb_stale (ext s) = false ->
  cb_run gfilter rst os s = (seen, s') ->
  dict_get (cb_info s') k_fresh = Ok (IValues []) /\ dict_get (cb_info s') k_stale = Err KeyError.
Proof.
  intros Q V T H; destruct (run_quiet _ _ _ _ Q H) as [V' T'].
  destruct (info_values s' k_fresh []) as [H1 H2]; try congruence; auto.
  - rewrite T', T; auto.
  - split; auto. apply H2; auto. discriminate.
Qed.

End Generic.

(** The info record shows the base attributes. *)
Lemma info_base {X P Y} (s : rta (cb X P Y)) :
  dict_get (cb_info s) k_enable = Ok (IBool (enable s)) /\
  dict_get (cb_info s) k_intervening = Ok (IBool (intervening s)) /\
  dict_get (cb_info s) k_desired = Ok (IControl (control_desired s)) /\
  dict_get (cb_info s) k_actual = Ok (IControl (control_actual s)).
Proof. unfold cb_info; destruct (cb_stale (ext s)); repeat split; reflexivity. Qed.
