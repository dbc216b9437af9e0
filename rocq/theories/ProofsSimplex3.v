(** Disabled constraints in simplex modules; backup controllers; cascades. *)
From Coq Require Import String Reals List Bool ZArith Lia Lra.
From Verif Require Import Prelude Vec ModelBase ModelController ModelSimplex SpecCore SpecHistory SpecSimplex
  ProofsBase ProofsHistory ProofsSimplex ProofsSimplex2.
Import ListNotations.
Local Open Scope R_scope.

Section Drop.
Context {X P : Type} (cfg : sx_cfg X).
Notation simplex := (simplex X P).

Lemma violb_without_disabled (cs : dict (constraint X P)) xs :
  violb (without_disabled cs) xs = violb cs xs.
Proof.
  induction cs as [|[k c] cs IH]; simpl; auto.
  unfold violb in *; destruct (c_enabled c) eqn:E; simpl; rewrite ?IH, ?E; auto.
Qed.

Lemma without_disabled_incl (cs : dict (constraint X P)) : subsequence (without_disabled cs) cs.
Proof.
  induction cs as [|[k c] cs IH]; simpl; [constructor|].
  destruct (c_enabled c); [apply sub_keep|apply sub_drop]; auto.
Qed.

Lemma without_disabled_distinct (cs : dict (constraint X P)) :
  distinct_keys cs -> distinct_keys (without_disabled cs).
Proof.
  intros D; eapply subsequence_NoDup; [|exact D].
  apply subsequence_keys, without_disabled_incl.
Qed.

(** [s'] is [s] with its disabled constraints left out. *)
Definition pruned (s s' : simplex) : Prop :=
  enable s = enable s' /\ intervening s = intervening s' /\
  control_desired s = control_desired s' /\ control_actual s = control_actual s' /\
  elapsed_now s = elapsed_now s' /\ ctl_sim (ctl_of s) (ctl_of s') /\
  constraints_now s' = without_disabled (constraints_now s) /\ distinct_keys (constraints_now s).

Definition cached (s : simplex) : Prop :=
  forall k c, In (k, c) (constraints_now s) ->
    dict_get (cb_params (ext s)) k = Ok (c_params c) /\ dict_get (cb_enabled (ext s)) k = Ok (c_enabled c).

Definition pruned_in (s s' : simplex) : Prop := pruned s s' /\ cached s /\ cached s'.

Lemma violation_pruned s s' xs : pruned_in s s' ->
  constraint_violation (cb_constraints (ext s)) xs (cb_params (ext s)) (cb_enabled (ext s)) =
  constraint_violation (cb_constraints (ext s')) xs (cb_params (ext s')) (cb_enabled (ext s')).
Proof.
  intros ((_ & _ & _ & _ & _ & _ & H & _) & C1 & C2).
  rewrite !constraint_violation_caches; auto.
  unfold constraints_now in H; rewrite H, violb_without_disabled; auto.
Qed.

Lemma on_ctl_pruned {A} (m : M ctl A) : rel2 ctl_sim m m -> rel2 pruned_in (on_ctl m) (on_ctl m).
Proof.
  intros Hm s s' (Hs & C1 & C2).
  destruct Hs as (H1 & H2 & H3 & H4 & H5 & H6 & H7 & H8).
  destruct (Hm _ _ H6) as [E1 E2].
  unfold on_ctl, zoom; fold (ctl_of s) (ctl_of s').
  destruct (m (ctl_of s)) as [r c], (m (ctl_of s')) as [r' c']; simpl in *; subst r'; split; auto.
  split; [|split; auto]. unfold pruned; simpl; auto 10.
Qed.

Lemma monitor_pruned k x dt u : rel2 pruned_in (sx_monitor cfg k x dt u) (sx_monitor cfg k x dt u).
Proof.
  destruct k as [|w]; simpl.
  - unfold explicit_monitor; apply rel_bind; [apply rel_lift|intros x'].
    apply rel_get; intros s s' Hs; unfold lift; simpl; split; auto.
    apply violation_pruned; auto.
  - unfold implicit_monitor; apply rel_bind; [apply on_ctl_pruned, integrate_sim|intros xs].
    apply rel_get; intros s s' Hs; unfold lift; simpl; split; auto.
    apply violation_pruned; auto.
Qed.

Lemma pruned_put y y' s s' :
  sx_elapsed y = sx_elapsed y' -> ctl_sim (sx_ctl y) (sx_ctl y') ->
  pruned_in s s' -> pruned_in (put_sx y s) (put_sx y' s').
Proof.
  intros E C ((H1 & H2 & H3 & H4 & H5 & H6 & H7 & H8) & C1 & C2); split; [|split; auto].
  unfold pruned; simpl; auto 10.
Qed.

Lemma pruned_intervening b s s' : pruned_in s s' -> pruned_in (set_intervening b s) (set_intervening b s').
Proof.
  intros ((H1 & H2 & H3 & H4 & H5 & H6 & H7 & H8) & C1 & C2); split; [|split; auto].
  unfold pruned; simpl; auto 10.
Qed.

Lemma simplex_filter_pruned k x dt u :
  rel2 pruned_in (simplex_filter cfg (sx_monitor cfg k) x dt u)
                 (simplex_filter cfg (sx_monitor cfg k) x dt u).
Proof.
  unfold simplex_filter. apply rel_get. intros s s' Hs.
  assert (Hs' := Hs).
  destruct Hs as ((H1 & H2 & H3 & H4 & H5 & H6 & H7 & H8) & HC).
  assert (HK : forall b : bool,
    rel2 pruned_in
     (if b then on_ctl (backup_control (sc_bounds cfg) (sc_gen cfg) x dt)
      else bind (sx_monitor cfg k x dt u) (fun b => bind (modify (set_intervening b)) (fun _ =>
        if b then on_ctl (backup_control (sc_bounds cfg) (sc_gen cfg) x dt) else ret u)))
     (if b then on_ctl (backup_control (sc_bounds cfg) (sc_gen cfg) x dt)
      else bind (sx_monitor cfg k x dt u) (fun b => bind (modify (set_intervening b)) (fun _ =>
        if b then on_ctl (backup_control (sc_bounds cfg) (sc_gen cfg) x dt) else ret u)))).
  { intros [|]; [apply on_ctl_pruned, backup_control_sim|].
    apply rel_bind; [apply monitor_pruned|intros b].
    apply rel_bind; [apply rel_modify; intros; apply pruned_intervening; auto|intros _].
    destruct b; [apply on_ctl_pruned, backup_control_sim|apply rel_ret]. }
  rewrite <- H2. change (sx_elapsed (get_sx s')) with (elapsed_now s'); rewrite <- H5.
  change (sx_elapsed (get_sx s)) with (elapsed_now s).
  match goal with
  | |- fst (bind ?m ?f s) = fst (bind ?m' ?f' s') /\ _ =>
      assert (HR : rel2 pruned_in (bind m f) (bind m' f'));
      [apply rel_bind; [|exact HK]|apply HR; auto]
  end.
  destruct (intervening s); [|apply rel_ret].
  destruct (Rleb (sc_latch cfg) (elapsed_now s)).
  - apply rel_bind; [|intros _; apply rel_ret].
    apply rel_modify; intros t t' Ht; apply pruned_put; auto.
    destruct Ht as ((_ & _ & _ & _ & _ & T7 & _) & _); auto.
  - apply rel_bind; [|intros _; apply rel_ret].
    apply rel_modify; intros t t' Ht; apply pruned_put; auto;
    destruct Ht as ((_ & _ & _ & _ & T6 & T7 & _) & _); auto.
    simpl. unfold elapsed_now in T6; unfold get_sx; rewrite T6; auto.
Qed.

Lemma cached_prep x u (s : simplex) : distinct_keys (constraints_now s) -> cached (prep x u s).
Proof.
  intros D k c H; split; [apply update_params_params|apply update_params_enabled]; auto.
Qed.

Lemma call_pruned k i dt u s s' : pruned s s' ->
  fst (simplex_filter_control cfg k i dt u s) = fst (simplex_filter_control cfg k i dt u s') /\
  pruned (snd (simplex_filter_control cfg k i dt u s)) (snd (simplex_filter_control cfg k i dt u s')).
Proof.
  intros Hs; assert (Hs' := Hs); destruct Hs as (H1 & H2 & H3 & H4 & H5 & H6 & H7 & H8).
  destruct (enable s) eqn:En.
  - destruct i as [x|].
    + rewrite !filter_eq by congruence.
      assert (HP : pruned_in (prep x u s) (prep x u s')).
      { split; [|split; apply cached_prep; auto].
        - unfold pruned; simpl; rewrite En; auto 10.
        - rewrite H7; apply without_disabled_distinct; auto. }
      destruct (simplex_filter_pruned k x dt u _ _ HP) as [E1 E2].
      destruct (simplex_filter cfg (sx_monitor cfg k) x dt u (prep x u s)) as [r t].
      destruct (simplex_filter cfg (sx_monitor cfg k) x dt u (prep x u s')) as [r' t'].
      simpl in E1, E2; subst r'.
      destruct E2 as ((Q1 & Q2 & Q3 & Q4 & Q5 & Q6 & Q7 & Q8) & _).
      destruct r as [v|e]; [destruct (clip (sc_bounds cfg) v)|]; simpl; split; auto;
        unfold pruned; simpl; auto 12.
    + unfold simplex_filter_control; rewrite !filter_control_enabled by congruence; simpl.
      split; auto. unfold pruned; simpl; repeat split; auto; try congruence; try apply H6.
  - unfold simplex_filter_control; rewrite !filter_control_disabled by congruence; simpl.
    split; auto. unfold pruned; simpl; repeat split; auto; try congruence; try apply H6.
Qed.

Lemma step_pruned k o s s' : no_assign o -> pruned s s' ->
  fst (cb_step (simplex_filter_control cfg k) simplex_reset o s) =
  fst (cb_step (simplex_filter_control cfg k) simplex_reset o s') /\
  pruned (snd (cb_step (simplex_filter_control cfg k) simplex_reset o s))
         (snd (cb_step (simplex_filter_control cfg k) simplex_reset o s')).
Proof.
  intros NA Hs; assert (Hs' := Hs); destruct Hs as (H1 & H2 & H3 & H4 & H5 & H6 & H7 & H8).
  destruct o as [i dt u| |en|i|kk p|kk e]; try contradiction.
  - destruct (call_pruned k i dt u s s' Hs') as [E1 E2]; simpl.
    destruct (simplex_filter_control cfg k i dt u s) as [r t].
    destruct (simplex_filter_control cfg k i dt u s') as [r' t'].
    simpl in *; subst r'; auto.
  - simpl; rewrite !simplex_reset_eq.
    destruct H6 as [C1 C2]; rewrite C1.
    destruct (copy_controller_state _); simpl; split; auto; unfold pruned, ctl_sim; simpl; auto 12.
  - simpl; split; auto; unfold pruned; simpl; auto 12.
  - destruct i as [x|]; simpl; split; auto; unfold pruned; simpl; auto 12.
Qed.

Lemma run_pruned k os : forall s s', Forall no_assign os -> pruned s s' ->
  fst (cb_run (simplex_filter_control cfg k) simplex_reset os s) =
  fst (cb_run (simplex_filter_control cfg k) simplex_reset os s') /\
  pruned (snd (cb_run (simplex_filter_control cfg k) simplex_reset os s))
         (snd (cb_run (simplex_filter_control cfg k) simplex_reset os s')).
Proof.
  induction os as [|o os IH]; intros s s' NA Hs; simpl; auto.
  inversion NA; subst.
  destruct (step_pruned k o s s' H1 Hs) as [E1 E2].
  destruct (cb_step (simplex_filter_control cfg k) simplex_reset o s) as [a t] eqn:Es.
  destruct (cb_step (simplex_filter_control cfg k) simplex_reset o s') as [a' t'].
  simpl in E1, E2; subst a'.
  destruct (IH _ _ H2 E2) as [E3 E4].
  destruct (cb_run (simplex_filter_control cfg k) simplex_reset os t) as [b t1].
  destruct (cb_run (simplex_filter_control cfg k) simplex_reset os t') as [b' t1'].
  simpl in *; subst b'; auto.
Qed.

End Drop.

(** ** Backup controllers *)

Lemma generate_keeps {X} (gen : X -> R -> cstate -> gout) x dt c :
  ctl_saved (snd (generate_control gen x dt c)) = ctl_saved c /\
  ctl_initial (snd (generate_control gen x dt c)) = ctl_initial c.
Proof.
  unfold generate_control, bind, get, modify, ret, raise.
  destruct (gen x dt (ctl_state c)); auto.
Qed.

Lemma requests_keep {X} (gen : X -> R -> cstate -> gout) rs : forall c,
  ctl_saved (run_requests gen rs c) = ctl_saved c /\
  ctl_initial (run_requests gen rs c) = ctl_initial c.
Proof.
  induction rs as [|[x dt|x dt cs] rs IH]; simpl; intros c; auto.
  - destruct (IH (snd (generate_control gen x dt c))) as [-> ->]; apply generate_keeps.
Qed.

Lemma save_restore {X} (gen : X -> R -> cstate -> gout) rs c c1 :
  ctl_save c = (Ok tt, c1) ->
  ctl_state (snd (ctl_restore (run_requests gen rs c1))) = ctl_state c.
Proof.
  unfold ctl_save, bind, get, lift, modify.
  destruct (copy_controller_state (ctl_state c)) as [c0|e] eqn:E; intros H; inversion H; subst.
  simpl. destruct (requests_keep gen rs (set_ctl_saved c0 c)) as [-> _]; simpl.
  destruct (ctl_state c); simpl in E; inversion E; auto.
Qed.

Lemma save_succeeds c : savable (ctl_state c) <-> exists c1, ctl_save c = (Ok tt, c1).
Proof.
  unfold ctl_save, bind, get, lift, modify; split.
  - intros H; rewrite (copy_savable _ H); eauto.
  - intros [c1 H]; destruct (ctl_state c); simpl in H; try discriminate; intros t; discriminate.
Qed.

Lemma reset_requests {X} (gen : X -> R -> cstate -> gout) initial c0 rs :
  ctl_init initial = Ok c0 ->
  exists c1, ctl_reset (run_requests gen rs c0) = (Ok tt, c1) /\ ctl_state c1 = initial /\
             ctl_state c0 = initial.
Proof.
  unfold ctl_init, rbind.
  destruct (copy_controller_state initial) as [c|e] eqn:E; [|discriminate].
  assert (savable initial /\ c = initial).
  { destruct initial; simpl in E; inversion E; subst; split; auto; discriminate. }
  destruct H as [Hs ->]; rewrite E; intros H; inversion H; subst.
  unfold ctl_reset, bind, get, lift, modify.
  destruct (requests_keep gen rs (mkCtl initial CSNone initial)) as [_ ->]; simpl.
  rewrite E; eauto.
Qed.

(** ** Cascades *)

Lemma cascade_loop_chain {I} (i : I) dt ms : forall u flag w ms' flag',
  cascade_loop i dt ms u flag = (Ok w, ms', flag') ->
  exists f, chain i dt ms u w ms' f /\ flag' = flag || f.
Proof.
  induction ms as [|m ms IH]; simpl; intros u flag w ms' flag' H.
  - inversion H; subst; exists false; split; [constructor|rewrite orb_false_r; auto].
  - destruct (m_step m i dt u (m_cur m)) as [[v|e] s'] eqn:E; [|discriminate].
    destruct (cascade_loop i dt ms v (if m_flag m s' then true else flag)) as [[r ms''] f''] eqn:E2.
    inversion H; subst.
    destruct (IH _ _ _ _ _ E2) as (f & Hc & Hf).
    exists (m_flag m s' || f); split; [econstructor; eauto|].
    rewrite Hf; destruct (m_flag m s'), flag, f; auto.
Qed.

Lemma chain_cascade {I} (i : I) dt ms : forall u w ms' f,
  chain i dt ms u w ms' f -> forall flag, cascade_loop i dt ms u flag = (Ok w, ms', flag || f).
Proof.
  induction 1 as [u|m ms u v s' w ms' f Hm Hc IH]; intros flag; simpl.
  - rewrite orb_false_r; auto.
  - rewrite Hm, IH; destruct (m_flag m s'), flag, f; auto.
Qed.

Lemma cascade_filter {I} b (i : I) dt u (s : rta (list (member I))) w s' :
  enable s = true ->
  filter_control b cascade_compute i dt u s = (Ok w, s') ->
  exists v ms f, chain i dt (ext s) u v ms f /\ clip b v = Ok w /\
    s' = mkRta true f (Some u) (Some w) ms.
Proof.
  intros E H; destruct (filter_control_ok_inv _ _ _ _ _ _ _ _ E H) as (v & s1 & Hc & Hw & ->).
  unfold cascade_compute in Hc; simpl in Hc.
  destruct (cascade_loop i dt (ext s) u false) as [[r ms] f] eqn:El; inversion Hc; subst.
  destruct (cascade_loop_chain _ _ _ _ _ _ _ _ El) as (f' & Hch & Hf).
  exists v, ms, f'; repeat split; auto; simpl in *; subst; unfold set_actual, set_intervening; simpl; rewrite E; auto.
Qed.

Lemma cascade_filter_conv {I} b (i : I) dt u (s : rta (list (member I))) v w ms f :
  enable s = true -> chain i dt (ext s) u v ms f -> clip b v = Ok w ->
  filter_control b cascade_compute i dt u s = (Ok w, mkRta true f (Some u) (Some w) ms).
Proof.
  intros E Hc Hw; rewrite filter_control_enabled by auto.
  unfold cascade_compute; simpl.
  rewrite (chain_cascade _ _ _ _ _ _ _ Hc); simpl; rewrite Hw; unfold set_actual; simpl; rewrite E; auto.
Qed.
