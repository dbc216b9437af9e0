(** Simplex modules over whole histories: latch, closed loop, reset, caches. *)
From Coq Require Import String Reals List Bool ZArith Lia Lra.
From Verif Require Import Prelude Vec ModelBase ModelController ModelSimplex SpecCore SpecHistory SpecSimplex
  ProofsBase ProofsHistory ProofsSimplex.
Import ListNotations.
Local Open Scope R_scope.

(** ** Relational reasoning about methods *)

Definition rel2 {S A} (R : S -> S -> Prop) (m m' : M S A) : Prop :=
  forall s s', R s s' -> fst (m s) = fst (m' s') /\ R (snd (m s)) (snd (m' s')).

Lemma rel_bind {S A B} (R : S -> S -> Prop) (m m' : M S A) (f f' : A -> M S B) :
  rel2 R m m' -> (forall a, rel2 R (f a) (f' a)) -> rel2 R (bind m f) (bind m' f').
Proof.
  intros H1 H2 s s' Hr; unfold bind.
  destruct (H1 s s' Hr) as [E1 E2].
  destruct (m s) as [r t], (m' s') as [r' t']; simpl in *; subst r'.
  destruct r as [a|e]; simpl; auto. apply H2; auto.
Qed.
Lemma rel_ret {S A} (R : S -> S -> Prop) (a : A) : rel2 R (ret a) (ret a).
Proof. intros s s' H; simpl; auto. Qed.
Lemma rel_lift {S A} (R : S -> S -> Prop) (a : res A) : rel2 R (lift a) (lift a).
Proof. intros s s' H; simpl; auto. Qed.
Lemma rel_modify {S} (R : S -> S -> Prop) f f' :
  (forall s s', R s s' -> R (f s) (f' s')) -> rel2 R (modify f) (modify f').
Proof. intros H s s' Hr; simpl; auto. Qed.
Lemma rel_get {S A} (R : S -> S -> Prop) (f f' : S -> M S A) :
  (forall s s', R s s' -> fst (f s s) = fst (f' s' s') /\ R (snd (f s s)) (snd (f' s' s'))) ->
  rel2 R (bind get f) (bind get f').
Proof. intros H s s' Hr; unfold bind, get; auto. Qed.

(** ** Behaviour does not depend on caches and scratch memory *)

Definition ctl_sim (c c' : ctl) : Prop := ctl_initial c = ctl_initial c' /\ ctl_state c = ctl_state c'.

Section Sim.
Context {X P : Type} (cfg : sx_cfg X).
Notation simplex := (simplex X P).

Lemma backup_control_sim b gen x dt :
  rel2 ctl_sim (backup_control (X:=X) b gen x dt) (backup_control b gen x dt).
Proof.
  intros c c' [H1 H2]; rewrite !backup_control_eq, H2.
  destruct (gen x dt (ctl_state c')); simpl; unfold ctl_sim; simpl; auto.
Qed.

Lemma backup_loop_sim dt n : forall x, rel2 ctl_sim (backup_loop cfg dt n x) (backup_loop cfg dt n x).
Proof.
  induction n as [|n IH]; intros x; simpl.
  - apply rel_ret.
  - apply rel_bind; [apply backup_control_sim|intros u].
    apply rel_bind; [apply rel_lift|intros x'].
    apply rel_bind; [apply IH|intros xs; apply rel_ret].
Qed.

Lemma bind_save {A} (k : unit -> M ctl A) c :
  bind ctl_save k c =
  match copy_controller_state (ctl_state c) with
  | Ok c0 => k tt (set_ctl_saved c0 c)
  | Err e => (Err e, c)
  end.
Proof.
  unfold ctl_save, bind, get, lift, modify; destruct (copy_controller_state (ctl_state c)); auto.
Qed.

(** The lookahead: the saved state is overwritten before use. *)
Lemma integrate_sim w x dt u :
  rel2 ctl_sim (simplex_integrate cfg w x dt u) (simplex_integrate cfg w x dt u).
Proof.
  unfold simplex_integrate.
  apply rel_bind; [apply rel_lift|intros q].
  apply rel_bind; [apply rel_lift|intros x1].
  intros c c' [H1 H2]. rewrite !bind_save, H2.
  destruct (copy_controller_state (ctl_state c')) as [c0|e]; [|simpl; unfold ctl_sim; auto].
  pose (R := fun d d' => ctl_sim d d' /\ ctl_saved d = ctl_saved d').
  assert (HL : forall n x, rel2 R (backup_loop cfg dt n x) (backup_loop cfg dt n x)).
  { intros n x0 d d' [D1 D2]; split; [apply backup_loop_sim; auto|].
    split; [apply backup_loop_sim; auto|].
    assert (K : forall n x d, ctl_saved (snd (backup_loop cfg dt n x d)) = ctl_saved d).
    { clear; induction n as [|n IH]; intros x d; simpl; auto.
      unfold bind at 1; rewrite backup_control_eq.
      destruct (sc_gen cfg x dt (ctl_state d)) as [u0 cs| |e]; auto.
      destruct (clip (sc_bounds cfg) u0) as [w0|e]; auto.
      unfold bind at 1, lift; destruct (sc_pred cfg x dt w0) as [x'|e]; auto.
      unfold bind; specialize (IH x' (set_ctl_state cs d)).
      destruct (backup_loop cfg dt n x' (set_ctl_state cs d)) as [[xs|e] d1]; auto. }
    rewrite !K; auto. }
  assert (HB : rel2 R (bind (backup_loop cfg dt (Z.to_nat (py_int q)) x1)
                       (fun xs => bind ctl_restore (fun _ => ret (x1 :: xs))))
                      (bind (backup_loop cfg dt (Z.to_nat (py_int q)) x1)
                       (fun xs => bind ctl_restore (fun _ => ret (x1 :: xs))))).
  { apply rel_bind; [apply HL|intros xs].
    apply rel_bind; [|intros _; apply rel_ret].
    apply rel_modify; intros d d' [[D1 D2] D3]; unfold R, ctl_sim; simpl; rewrite D3; auto. }
  destruct (HB (set_ctl_saved c0 c) (set_ctl_saved c0 c')) as [E1 [E2 _]].
  { unfold R, ctl_sim; simpl; auto. }
  split; [exact E1|exact E2].
Qed.

(** Equal up to caches, the scratch copy in the controller, and (unless [V]) the last
    reported constraint values. *)
Definition sim (V : Prop) (s s' : simplex) : Prop :=
  enable s = enable s' /\ intervening s = intervening s' /\
  control_desired s = control_desired s' /\ control_actual s = control_actual s' /\
  constraints_now s = constraints_now s' /\
  elapsed_now s = elapsed_now s' /\ ctl_sim (ctl_of s) (ctl_of s') /\
  (V -> cb_values (ext s) = cb_values (ext s') /\ cb_stale (ext s) = cb_stale (ext s')).

(** In addition the caches agree where they are read. *)
Definition sim_in (V : Prop) (s s' : simplex) : Prop :=
  sim V s s' /\
  (forall k, In k (map fst (constraints_now s)) ->
     dict_get (cb_params (ext s)) k = dict_get (cb_params (ext s')) k /\
     dict_get (cb_enabled (ext s)) k = dict_get (cb_enabled (ext s')) k).

Lemma sim_update_params V s s' : sim V s s' -> sim_in V (on_ext update_params s) (on_ext update_params s').
Proof.
  intros (H1 & H2 & H3 & H4 & H5 & H6 & H7 & H8); split.
  - unfold sim; repeat split; auto; try apply H7; try (apply H8; auto).
  - unfold constraints_now in *; simpl; rewrite H5; intros k Hk; split;
      apply fold_set_indep; auto.
Qed.

Lemma rmap_ext_in {A B} (f g : A -> res B) l : (forall a, In a l -> f a = g a) -> rmap f l = rmap g l.
Proof.
  induction l as [|a l IH]; simpl; intros H; auto.
  rewrite (H a) by auto; rewrite IH by auto; auto.
Qed.

Lemma violation_sim_in V s s' xs : sim_in V s s' ->
  constraint_violation (cb_constraints (ext s)) xs (cb_params (ext s)) (cb_enabled (ext s)) =
  constraint_violation (cb_constraints (ext s')) xs (cb_params (ext s')) (cb_enabled (ext s')).
Proof.
  intros ((_ & _ & _ & _ & H5 & _) & HC); unfold constraint_violation, constraints_now in *.
  rewrite <- H5; erewrite rmap_ext_in; [reflexivity|].
  intros [k c] Hk; simpl.
  destruct (HC k) as [-> ->]; auto.
  apply in_map_iff; exists (k, c); auto.
Qed.

Lemma on_ctl_sim {A} V (m : M ctl A) :
  rel2 ctl_sim m m -> rel2 (sim_in V) (on_ctl m) (on_ctl m).
Proof.
  intros Hm s s' (Hs & HC).
  destruct Hs as (H1 & H2 & H3 & H4 & H5 & H6 & H7 & H8).
  destruct (Hm _ _ H7) as [E1 E2].
  unfold on_ctl, zoom; fold (ctl_of s) (ctl_of s').
  destruct (m (ctl_of s)) as [r c], (m (ctl_of s')) as [r' c']; simpl in *; subst r'; split; auto.
  split; auto. unfold sim; simpl; auto 10.
Qed.

Lemma monitor_sim V k x dt u : rel2 (sim_in V) (sx_monitor cfg k x dt u) (sx_monitor cfg k x dt u).
Proof.
  destruct k as [|w]; simpl.
  - unfold explicit_monitor; apply rel_bind; [apply rel_lift|intros x'].
    apply rel_get; intros s s' Hs; unfold lift; simpl; split; auto.
    apply (violation_sim_in V); auto.
  - unfold implicit_monitor; apply rel_bind; [apply on_ctl_sim, integrate_sim|intros xs].
    apply rel_get; intros s s' Hs; unfold lift; simpl; split; auto.
    apply (violation_sim_in V); auto.
Qed.

Lemma sim_in_put V y y' s s' :
  sx_elapsed y = sx_elapsed y' -> ctl_sim (sx_ctl y) (sx_ctl y') ->
  sim_in V s s' -> sim_in V (put_sx y s) (put_sx y' s').
Proof.
  intros E C ((H1 & H2 & H3 & H4 & H5 & H6 & H7 & H8) & HC); split; auto.
  unfold sim; simpl; auto 10.
Qed.

Lemma sim_in_intervening V b s s' : sim_in V s s' -> sim_in V (set_intervening b s) (set_intervening b s').
Proof.
  intros ((H1 & H2 & H3 & H4 & H5 & H6 & H7 & H8) & HC); split; auto.
  unfold sim; simpl; auto 10.
Qed.

Lemma simplex_filter_sim V k x dt u :
  rel2 (sim_in V) (simplex_filter cfg (sx_monitor cfg k) x dt u)
                  (simplex_filter cfg (sx_monitor cfg k) x dt u).
Proof.
  unfold simplex_filter. apply rel_get. intros s s' Hs.
  assert (Hs' := Hs).
  destruct Hs as ((H1 & H2 & H3 & H4 & H5 & H6 & H7 & H8) & HC).
  assert (HK : forall b : bool,
    rel2 (sim_in V)
     (if b then on_ctl (backup_control (sc_bounds cfg) (sc_gen cfg) x dt)
      else bind (sx_monitor cfg k x dt u) (fun b => bind (modify (set_intervening b)) (fun _ =>
        if b then on_ctl (backup_control (sc_bounds cfg) (sc_gen cfg) x dt) else ret u)))
     (if b then on_ctl (backup_control (sc_bounds cfg) (sc_gen cfg) x dt)
      else bind (sx_monitor cfg k x dt u) (fun b => bind (modify (set_intervening b)) (fun _ =>
        if b then on_ctl (backup_control (sc_bounds cfg) (sc_gen cfg) x dt) else ret u)))).
  { intros [|]; [apply on_ctl_sim, backup_control_sim|].
    apply rel_bind; [apply monitor_sim|intros b].
    apply rel_bind; [apply rel_modify; intros; apply sim_in_intervening; auto|intros _].
    destruct b; [apply on_ctl_sim, backup_control_sim|apply rel_ret]. }
  rewrite <- H2. change (sx_elapsed (get_sx s')) with (elapsed_now s'); rewrite <- H6.
  change (sx_elapsed (get_sx s)) with (elapsed_now s).
  match goal with
  | |- fst (bind ?m ?f s) = fst (bind ?m' ?f' s') /\ _ =>
      assert (HR : rel2 (sim_in V) (bind m f) (bind m' f'));
      [apply rel_bind; [|exact HK]|apply HR; auto]
  end.
  destruct (intervening s); [|apply rel_ret].
  destruct (Rleb (sc_latch cfg) (elapsed_now s)).
  - apply rel_bind; [|intros _; apply rel_ret].
    apply rel_modify; intros t t' Ht; apply sim_in_put; auto.
    destruct Ht as ((_ & _ & _ & _ & _ & _ & T7 & _) & _); auto.
  - apply rel_bind; [|intros _; apply rel_ret].
    apply rel_modify; intros t t' Ht; apply sim_in_put; auto;
    destruct Ht as ((_ & _ & _ & _ & _ & T6 & T7 & _) & _); auto.
    simpl. unfold elapsed_now in T6; unfold get_sx; rewrite T6; auto.
Qed.

Lemma simplex_call_sim V k i dt u s s' :
  sim V s s' ->
  fst (simplex_filter_control cfg k i dt u s) = fst (simplex_filter_control cfg k i dt u s') /\
  sim (V \/ evaluates (P:=P) (enable s) (OFilter i dt u) <> None)
      (snd (simplex_filter_control cfg k i dt u s)) (snd (simplex_filter_control cfg k i dt u s')).
Proof.
  intros Hs; assert (Hs' := Hs); destruct Hs as (H1 & H2 & H3 & H4 & H5 & H6 & H7 & H8).
  destruct (enable s) eqn:En.
  - destruct i as [x|].
    + rewrite !filter_eq by congruence.
      assert (HP : sim_in True (prep x u s) (prep x u s')).
      { unfold prep.
        assert (S0 : sim V (set_desired (Some u) s) (set_desired (Some u) s')).
        { unfold sim; simpl; rewrite En; auto 12. }
        destruct (sim_update_params V _ _ S0) as [S1 S2].
        destruct S1 as (Q1 & Q2 & Q3 & Q4 & Q5 & Q6 & Q7 & Q8).
        split; [|exact S2].
        unfold sim; repeat split; auto; try apply Q7.
        simpl; unfold constraints_now in H5; rewrite H5; auto. }
      destruct (simplex_filter_sim True k x dt u _ _ HP) as [E1 E2].
      destruct (simplex_filter cfg (sx_monitor cfg k) x dt u (prep x u s)) as [r t].
      destruct (simplex_filter cfg (sx_monitor cfg k) x dt u (prep x u s')) as [r' t'].
      simpl in E1, E2; subst r'.
      destruct E2 as ((Q1 & Q2 & Q3 & Q4 & Q5 & Q6 & Q7 & Q8) & _).
      destruct r as [v|e]; [destruct (clip (sc_bounds cfg) v)|]; simpl; split; auto;
        unfold sim; simpl; auto 12.
    + unfold simplex_filter_control; rewrite !filter_control_enabled by congruence; simpl.
      split; auto. unfold sim; simpl; repeat split; auto; try congruence; try apply H7;
        destruct H as [H|H]; try (apply H8; auto); congruence.
  - unfold simplex_filter_control; rewrite !filter_control_disabled by congruence; simpl.
    split; auto. unfold sim; simpl; repeat split; auto; try congruence; try apply H7;
      destruct H as [H|H]; try (apply H8; auto);
      exfalso; apply H; destruct i; auto.
Qed.

Lemma step_sim V k o s s' :
  sim V s s' ->
  fst (cb_step (simplex_filter_control cfg k) simplex_reset o s) =
  fst (cb_step (simplex_filter_control cfg k) simplex_reset o s') /\
  sim (V \/ evaluates (enable s) o <> None)
      (snd (cb_step (simplex_filter_control cfg k) simplex_reset o s))
      (snd (cb_step (simplex_filter_control cfg k) simplex_reset o s')).
Proof.
  intros Hs; assert (Hs' := Hs); destruct Hs as (H1 & H2 & H3 & H4 & H5 & H6 & H7 & H8).
  destruct o as [i dt u| |en|i|kk p|kk e].
  - destruct (simplex_call_sim V k i dt u s s' Hs') as [E1 E2]; simpl.
    destruct (simplex_filter_control cfg k i dt u s) as [r t].
    destruct (simplex_filter_control cfg k i dt u s') as [r' t'].
    simpl in *; subst r'; auto.
  - simpl; rewrite !simplex_reset_eq.
    destruct H7 as [C1 C2]; rewrite C1.
    destruct (copy_controller_state _); simpl; split; auto; unfold sim, ctl_sim; simpl;
      repeat split; auto; destruct H as [H|H]; try (apply H8; auto); congruence.
  - simpl; split; auto; unfold sim; simpl; repeat split; auto; try apply H7;
      destruct H as [H|H]; try (apply H8; auto); congruence.
  - destruct i as [x|]; simpl.
    + split; auto; unfold sim; simpl; repeat split; auto; try apply H7.
      unfold constraints_now in H5; rewrite H5; auto.
    + split; auto; unfold sim; simpl; repeat split; auto; try apply H7;
        destruct H as [H|H]; try (apply H8; auto); congruence.
  - simpl; split; auto; unfold sim, constraints_now in *; simpl; repeat split; auto; try apply H7;
      try (rewrite H5; auto);
      destruct H as [H|H]; try (apply H8; auto); congruence.
  - simpl; split; auto; unfold sim, constraints_now in *; simpl; repeat split; auto; try apply H7;
      try (rewrite H5; auto);
      destruct H as [H|H]; try (apply H8; auto); congruence.
Qed.

Lemma run_sim k os : forall V s s',
  sim V s s' ->
  fst (cb_run (simplex_filter_control cfg k) simplex_reset os s) =
  fst (cb_run (simplex_filter_control cfg k) simplex_reset os s') /\
  sim (V \/ ~ quiet (enable s) os)
      (snd (cb_run (simplex_filter_control cfg k) simplex_reset os s))
      (snd (cb_run (simplex_filter_control cfg k) simplex_reset os s')).
Proof.
  induction os as [|o os IH]; intros V s s' Hs; simpl.
  - split; auto.
    destruct Hs as (H1 & H2 & H3 & H4 & H5 & H6 & H7 & H8).
    unfold sim; repeat split; auto; try apply H7; destruct H as [H|H]; try (apply H8; auto); tauto.
  - destruct (step_sim V k o s s' Hs) as [E1 E2].
    destruct (cb_step (simplex_filter_control cfg k) simplex_reset o s) as [a t] eqn:Es.
    destruct (cb_step (simplex_filter_control cfg k) simplex_reset o s') as [a' t'].
    simpl in E1, E2; subst a'.
    destruct (IH _ _ _ E2) as [E3 E4].
    assert (Et : enable t = switch_after (enable s) o).
    { eapply (step_enable (sc_bounds cfg) (simplex_filter cfg (sx_monitor cfg k)) simplex_reset);
        eauto using simplex_framed, simplex_reset_framed. }
    destruct (cb_run (simplex_filter_control cfg k) simplex_reset os t) as [b t1].
    destruct (cb_run (simplex_filter_control cfg k) simplex_reset os t') as [b' t1'].
    simpl in *; subst b'; split; auto.
    destruct E4 as (H1 & H2 & H3 & H4 & H5 & H6 & H7 & H8).
    unfold sim; do 7 (split; auto).
    rewrite Et in H8. intros [HV|HN]; apply H8; auto.
    destruct (evaluates (enable s) o) eqn:Ee; [left; right; congruence|].
    right; intros Q; apply HN; auto.
Qed.

Lemma sim_info s s' : sim True s s' -> cb_info s = cb_info s'.
Proof.
  intros (H1 & H2 & H3 & H4 & H5 & H6 & H7 & H8); destruct (H8 I) as [V1 V2].
  unfold cb_info, rta_info; rewrite V1, V2, H1, H2, H3, H4; auto.
Qed.

(** ** The latch counter *)

Definition counter_ok (s : simplex) : Prop := intervening s = false -> elapsed_now s = 0.

Lemma simplex_filter_counter k x dt u s r s' :
  counter_ok s -> simplex_filter cfg (sx_monitor cfg k) x dt u s = (r, s') -> counter_ok s'.
Proof.
  intros Hc H; destruct (latched_dec cfg s) as [L|L].
  - rewrite simplex_filter_latched in H by auto.
    unfold on_ctl, zoom in H; destruct (backup_control _ _ x dt _) as [r1 c1].
    inversion H; subst. destruct L as [L _]; unfold counter_ok; simpl; congruence.
  - rewrite simplex_filter_free in H by auto.
    destruct (sx_monitor cfg k x dt u (unlatch s)) as [r1 s2] eqn:E.
    destruct (monitor_frame _ _ _ _ _ _ _ _ E) as (_ & _ & E2).
    assert (Z : elapsed_now s2 = 0).
    { change (elapsed_now s2) with (elapsed s2); rewrite E2.
      unfold unlatch; destruct (intervening s) eqn:Ei; [reflexivity|apply Hc; auto]. }
    destruct r1 as [[|]|e].
    + unfold on_ctl, zoom in H; destruct (backup_control _ _ x dt _) as [r1 c1].
      inversion H; subst; unfold counter_ok; simpl; intros; auto.
    + inversion H; subst; unfold counter_ok; auto.
    + inversion H; subst; unfold counter_ok; auto.
Qed.

Lemma step_counter k o s seen s' :
  o <> OReset -> counter_ok s ->
  cb_step (simplex_filter_control cfg k) simplex_reset o s = (seen, s') -> counter_ok s'.
Proof.
  intros N Hc H; destruct o as [i dt u| |en|i|kk p|kk e]; simpl in H.
  - destruct (simplex_filter_control cfg k i dt u s) as [r t] eqn:E; inversion H; subst; clear H.
    destruct (enable s) eqn:En.
    + destruct i as [x|].
      * rewrite filter_eq in E by auto.
        destruct (simplex_filter cfg (sx_monitor cfg k) x dt u (prep x u s)) as [r1 t] eqn:Ef.
        assert (C : counter_ok t) by (apply (simplex_filter_counter k x dt u (prep x u s) r1); auto; exact Hc).
        destruct r1 as [v|e]; [destruct (clip _ v)|]; inversion E; subst; auto.
      * unfold simplex_filter_control in E; rewrite filter_control_enabled in E by auto.
        inversion E; subst; auto.
    + unfold simplex_filter_control in E; rewrite filter_control_disabled in E by auto.
      inversion E; subst; auto.
  - congruence.
  - inversion H; subst; auto.
  - destruct i; inversion H; subst; auto.
  - inversion H; subst; auto.
  - inversion H; subst; auto.
Qed.

Lemma run_counter k os : forall s seen s',
  no_reset os -> counter_ok s ->
  cb_run (simplex_filter_control cfg k) simplex_reset os s = (seen, s') -> counter_ok s'.
Proof.
  induction os as [|o os IH]; simpl; intros s seen s' N Hc H; [inversion H; subst; auto|].
  destruct (cb_step _ _ o s) as [a t] eqn:E1.
  destruct (cb_run _ _ os t) as [b t1] eqn:E2; inversion H; subst.
  apply (IH t b s'); auto.
  - intros Hi; apply N; right; auto.
  - eapply step_counter; eauto. intros ->; apply N; left; auto.
Qed.

(** Without a latch time the counter stays at zero. *)
Lemma step_zero k o (s : simplex) seen s' :
  sc_latch cfg <= 0 -> elapsed_now s = 0 ->
  cb_step (simplex_filter_control cfg k) simplex_reset o s = (seen, s') -> elapsed_now s' = 0.
Proof.
  intros L0 Hc H; destruct o as [i dt u| |en|i|kk p|kk e]; simpl in H.
  - destruct (simplex_filter_control cfg k i dt u s) as [r t] eqn:E; inversion H; subst; clear H.
    destruct (enable s) eqn:En.
    + destruct i as [x|].
      * rewrite filter_eq in E by auto.
        destruct (simplex_filter cfg (sx_monitor cfg k) x dt u (prep x u s)) as [r1 t] eqn:Ef.
        assert (C : elapsed_now t = 0).
        { destruct (latched_dec cfg (prep x u s)) as [L|L].
          - destruct L as [_ L]; change (elapsed (prep x u s)) with (elapsed_now s) in L; lra.
          - rewrite simplex_filter_free in Ef by auto.
            destruct (sx_monitor cfg k x dt u (unlatch (prep x u s))) as [r2 s2] eqn:E3.
            destruct (monitor_frame _ _ _ _ _ _ _ _ E3) as (_ & _ & E4).
            assert (Z : elapsed_now s2 = 0).
            { change (elapsed_now s2) with (elapsed s2); rewrite E4.
              unfold unlatch; destruct (intervening _); [reflexivity|apply Hc; auto]. }
            destruct r2 as [[|]|e].
            + unfold on_ctl, zoom in Ef; destruct (backup_control _ _ x dt _) as [r3 c1].
              inversion Ef; subst; auto.
            + inversion Ef; subst; auto.
            + inversion Ef; subst; auto. }
        destruct r1 as [v|e]; [destruct (clip _ v)|]; inversion E; subst; auto.
      * unfold simplex_filter_control in E; rewrite filter_control_enabled in E by auto.
        inversion E; subst; auto.
    + unfold simplex_filter_control in E; rewrite filter_control_disabled in E by auto.
      inversion E; subst; auto.
  - rewrite simplex_reset_eq in H; destruct (copy_controller_state _); inversion H; subst; auto.
  - inversion H; subst; auto.
  - destruct i; inversion H; subst; auto.
  - inversion H; subst; auto.
  - inversion H; subst; auto.
Qed.

Lemma run_zero k os : forall (s : simplex) seen s',
  sc_latch cfg <= 0 -> elapsed_now s = 0 ->
  cb_run (simplex_filter_control cfg k) simplex_reset os s = (seen, s') -> elapsed_now s' = 0.
Proof.
  induction os as [|o os IH]; simpl; intros s seen s' L Hc H; [inversion H; subst; auto|].
  destruct (cb_step _ _ o s) as [a t] eqn:E1.
  destruct (cb_run _ _ os t) as [b t1] eqn:E2; inversion H; subst.
  apply (IH t b s'); auto. eapply step_zero; eauto.
Qed.

(** The initial controller state never changes. *)
Definition initial_of (s : simplex) : cstate := ctl_initial (ctl_of s).

Lemma backup_control_initial x dt c :
  ctl_initial (snd (backup_control (sc_bounds cfg) (sc_gen cfg) x dt c)) = ctl_initial c.
Proof. rewrite backup_control_eq; destruct (sc_gen cfg x dt _); auto. Qed.

Lemma backup_loop_initial dt n : forall x c,
  ctl_initial (snd (backup_loop cfg dt n x c)) = ctl_initial c.
Proof.
  induction n as [|n IH]; intros x c; simpl; auto.
  unfold bind at 1. assert (B := backup_control_initial x dt c).
  destruct (backup_control _ _ x dt c) as [[w|e] c1]; auto.
  unfold bind at 1, lift; destruct (sc_pred cfg x dt w) as [x'|e]; auto.
  unfold bind; specialize (IH x' c1).
  destruct (backup_loop cfg dt n x' c1) as [[xs|e] d1]; simpl in *; congruence.
Qed.

Lemma integrate_initial w x dt u c :
  ctl_initial (snd (simplex_integrate cfg w x dt u c)) = ctl_initial c.
Proof.
  unfold simplex_integrate, bind at 1, lift.
  destruct (py_div w dt) as [q|e]; auto.
  unfold bind at 1; destruct (sc_pred cfg x dt u) as [x1|e]; auto.
  unfold bind at 1, ctl_save, bind at 1, get, bind at 1, lift, modify.
  destruct (copy_controller_state (ctl_state c)) as [c0|e]; auto.
  unfold bind at 1.
  assert (B := backup_loop_initial dt (Z.to_nat (py_int q)) x1 (set_ctl_saved c0 c)).
  destruct (backup_loop _ _ _ _ _) as [[xs|e] c1]; auto.
Qed.

Lemma on_ctl_initial {A} (m : M ctl A) s :
  (forall c, ctl_initial (snd (m c)) = ctl_initial c) -> initial_of (snd (on_ctl m s)) = initial_of s.
Proof.
  intros H; unfold on_ctl, zoom, initial_of; fold (ctl_of s).
  specialize (H (ctl_of s)); destruct (m (ctl_of s)); auto.
Qed.

Lemma monitor_initial k x dt u s : initial_of (snd (sx_monitor cfg k x dt u s)) = initial_of s.
Proof.
  destruct k as [|w]; simpl.
  - unfold explicit_monitor, bind, lift, get; destruct (sc_pred cfg x dt u); auto.
  - unfold implicit_monitor, bind, lift, get.
    assert (B := on_ctl_initial (simplex_integrate cfg w x dt u) s (integrate_initial w x dt u)).
    destruct (on_ctl _ s) as [[xs|e] t]; auto.
Qed.

Lemma filter_initial k x dt u s :
  initial_of (snd (simplex_filter cfg (sx_monitor cfg k) x dt u s)) = initial_of s.
Proof.
  destruct (latched_dec cfg s) as [L|L].
  - rewrite simplex_filter_latched by auto.
    rewrite on_ctl_initial by (apply backup_control_initial). reflexivity.
  - rewrite simplex_filter_free by auto.
    assert (B := monitor_initial k x dt u (unlatch s)).
    assert (U : initial_of (unlatch s) = initial_of s)
      by (unfold unlatch; destruct (intervening s); auto).
    destruct (sx_monitor cfg k x dt u (unlatch s)) as [[[|]|e] s2]; simpl in B.
    + rewrite on_ctl_initial by (apply backup_control_initial).
      transitivity (initial_of s2); [reflexivity|congruence].
    + transitivity (initial_of s2); [reflexivity|congruence].
    + simpl; congruence.
Qed.

Lemma step_initial k o s seen s' :
  cb_step (simplex_filter_control cfg k) simplex_reset o s = (seen, s') -> initial_of s' = initial_of s.
Proof.
  intros H; destruct o as [i dt u| |en|i|kk p|kk e]; simpl in H.
  - destruct (simplex_filter_control cfg k i dt u s) as [r t] eqn:E; inversion H; subst; clear H.
    destruct (enable s) eqn:En.
    + destruct i as [x|].
      * rewrite filter_eq in E by auto.
        assert (B := filter_initial k x dt u (prep x u s)).
        destruct (simplex_filter cfg (sx_monitor cfg k) x dt u (prep x u s)) as [r1 t] eqn:Ef.
        simpl in B.
        transitivity (initial_of (prep x u s)); [|reflexivity].
        rewrite <- B.
        destruct r1 as [v|e]; [destruct (clip _ v)|]; inversion E; subst; auto.
      * unfold simplex_filter_control in E; rewrite filter_control_enabled in E by auto.
        inversion E; subst; auto.
    + unfold simplex_filter_control in E; rewrite filter_control_disabled in E by auto.
      inversion E; subst; auto.
  - rewrite simplex_reset_eq in H; destruct (copy_controller_state _); inversion H; subst; auto.
  - inversion H; subst; auto.
  - destruct i; inversion H; subst; auto.
  - inversion H; subst; auto.
  - inversion H; subst; auto.
Qed.

Lemma run_initial k os : forall s seen s',
  cb_run (simplex_filter_control cfg k) simplex_reset os s = (seen, s') -> initial_of s' = initial_of s.
Proof.
  induction os as [|o os IH]; simpl; intros s seen s' H; [inversion H; subst; auto|].
  destruct (cb_step _ _ o s) as [a t] eqn:E1.
  destruct (cb_run _ _ os t) as [b t1] eqn:E2; inversion H; subst.
  rewrite (IH _ _ _ E2); eapply step_initial; eauto.
Qed.

(** ** Reset *)

Lemma simplex_init_inv defined to_use initial (s0 : simplex) :
  simplex_init defined to_use initial = Ok s0 ->
  savable initial /\ initial_of s0 = initial /\ ctl_now s0 = initial /\ elapsed_now s0 = 0 /\
  enable s0 = true /\ intervening s0 = false /\ control_desired s0 = None /\ control_actual s0 = None /\
  select_constraints defined to_use = Ok (constraints_now s0) /\
  cb_values (ext s0) = [] /\ cb_stale (ext s0) = false.
Proof.
  unfold simplex_init, rbind, ctl_init.
  destruct (copy_controller_state initial) as [c0|e] eqn:E0; [|discriminate].
  assert (Hs : savable initial /\ c0 = initial).
  { destruct initial; simpl in E0; inversion E0; subst; split; auto; discriminate. }
  destruct Hs as [Hs ->]; simpl; rewrite E0.
  unfold cb_init, rbind; destruct (select_constraints defined to_use) as [cs|e]; [|discriminate].
  intros H; inversion H; subst; simpl; auto 15.
Qed.

Lemma simplex_init_exists defined initial :
  savable initial -> exists s0, simplex_init (P:=P) (X:=X) defined None initial = Ok s0.
Proof.
  intros Hs; unfold simplex_init, ctl_init, cb_init, rbind; simpl.
  rewrite (copy_savable _ Hs); simpl; rewrite (copy_savable _ Hs); simpl; eauto.
Qed.

Lemma reset_like_new s initial fresh :
  savable initial -> initial_of s = initial -> elapsed_now s = 0 ->
  simplex_init (constraints_now s) None initial = Ok fresh ->
  exists s1, simplex_reset s = (Ok tt, s1) /\ sim False s1 fresh.
Proof.
  intros Hs Hi He Hf.
  destruct (simplex_init_inv _ _ _ _ Hf) as (_ & F1 & F2 & F3 & F4 & F5 & F6 & F7 & F8 & _).
  rewrite simplex_reset_eq. fold (initial_of s); rewrite Hi, (copy_savable _ Hs).
  eexists; split; [reflexivity|].
  inversion F8 as [F8'].
  unfold sim, ctl_sim; simpl; repeat split; try congruence; try contradiction.
  - symmetry; auto.
  - rewrite F3; exact He.
  - transitivity (initial_of s); [reflexivity|]; rewrite Hi; auto.
  - symmetry; exact F2.
Qed.

End Sim.

(** ** The latch *)

Section Latch.
Context {X P : Type} (cfg : sx_cfg X).
Notation simplex := (simplex X P).
Hypothesis G : gen_sized (sc_bounds cfg) (sc_gen cfg).

Lemma latch_run k dt n : least_steps dt (sc_latch cfg) n ->
  forall ins m ws st (s : simplex),
  enable s = true -> intervening s = true -> elapsed_now s = INR m * dt ->
  (m + length ins <= n)%nat ->
  backup_outputs (sc_bounds cfg) (sc_gen cfg) dt (map fst ins) (ctl_now s) ws st ->
  exists s', cb_run (simplex_filter_control cfg k) simplex_reset (calls dt ins) s =
               (map ObsControl ws, s') /\
    enable s' = true /\ intervening s' = true /\ ctl_now s' = st /\
    constraints_now s' = constraints_now s /\
    elapsed_now s' = INR (m + length ins) * dt.
Proof.
  intros [Hn1 Hn2]; induction ins as [|[x u] ins IH]; intros m ws st s E I El Hm HB;
    inversion HB as [|x0 xs0 st0 ub w st1 ws0 st2 Hg Hb Hre]; subst; simpl.
  - exists s; rewrite Nat.add_0_r; auto 10.
  - simpl in Hm.
    assert (Hh : held cfg s) by (split; auto; rewrite El; apply Hn2; lia).
    destruct (call_held cfg G k x dt u ub w st1 s E Hh Hg Hb) as (s1 & Ef & A).
    destruct A as (A1 & A2 & A3 & A4 & A5 & A6).
    rewrite Ef; simpl.
    assert (Q1 : enable s1 = true) by congruence.
    assert (Q2 : elapsed_now s1 = INR (S m) * dt) by (rewrite A4, El, S_INR; ring).
    assert (Q3 : (S m + length ins <= n)%nat) by lia.
    rewrite <- A5 in Hre.
    destruct (IH (S m) ws0 st s1 Q1 A3 Q2 Q3 Hre) as (s' & R1 & R2 & R3 & R4 & R5 & R6).
    change (map (fun xu => OFilter (InArray (fst xu)) dt (snd xu)) ins) with (calls (P:=P) dt ins).
    rewrite R1; exists s'; simpl; repeat split; auto; try congruence.
    rewrite R6; f_equal; f_equal; lia.
Qed.

Lemma latch_from_call k dt n x u (s s1 : simplex) w ins ws st :
  0 < dt -> (forall win, k = Implicit win -> 0 <= win) ->
  least_steps dt (sc_latch cfg) n ->
  enable s = true -> distinct_keys (constraints_now s) -> counter_ok s ->
  ~ held cfg s ->
  simplex_filter_control cfg k (InArray x) dt u s = (Ok w, s1) -> intervening s1 = true ->
  (length ins <= n)%nat ->
  backup_outputs (sc_bounds cfg) (sc_gen cfg) dt (map fst ins) (ctl_now s1) ws st ->
  exists s2, cb_run (simplex_filter_control cfg k) simplex_reset (calls dt ins) s1 =
               (map ObsControl ws, s2) /\
    intervening s2 = true /\ ctl_now s2 = st /\
    (held cfg s2 <-> (length ins < n)%nat).
Proof.
  intros Hd Hw Hn E D C Hh Hf Hi Hl HB.
  assert (El : elapsed_now s1 = 0 /\ enable s1 = true).
  { destruct (call_inv cfg G k x dt u s s1 w Hd Hw E D Hf) as [[Hh' _]|[_ (xs & _ & [A|A])]].
    - contradiction.
    - destruct A as (_ & _ & A1 & A2 & A3 & _); congruence.
    - destruct A as (_ & ub & st' & _ & _ & A1 & A2 & A3 & A4 & _); split; [|congruence].
      rewrite A4; destruct (intervening s) eqn:Ei; auto. }
  destruct El as [El E1].
  destruct (latch_run k dt n Hn ins 0 ws st s1) as (s2 & R1 & R2 & R3 & R4 & R5 & R6); auto.
  { rewrite El; simpl; ring. }
  exists s2; repeat split; auto.
  - intros [_ H]; simpl in R6; rewrite R6 in H.
    destruct (Nat.lt_ge_cases (length ins) n) as [L|L]; auto.
    assert (length ins = n) by lia; subst n; destruct Hn as [Hn _]; lra.
  - rewrite R6; simpl; apply Hn; auto.
Qed.

(** ** Closed loop *)

Lemma backup_step_intro dt x (s : simplex) ub w st x' :
  sc_gen cfg x dt (ctl_now s) = GPair ub st -> boxed (sc_bounds cfg) ub w ->
  sc_pred cfg x dt w = Ok x' ->
  backup_step (sc_bounds cfg) (sc_pred cfg) (sc_gen cfg) dt x (ctl_now s) x' st.
Proof. intros; exists ub, w; auto. Qed.

Lemma explicit_safe dt (cs : dict (constraint X P)) (I : cstate -> Prop) :
  0 < dt -> distinct_keys cs ->
  (forall x st x' st', safe cs x -> I st ->
     backup_step (sc_bounds cfg) (sc_pred cfg) (sc_gen cfg) dt x st x' st' -> safe cs x' /\ I st') ->
  forall us x (s : simplex) xs,
  (forall u, In u us -> fits (sc_bounds cfg) (length u) /\ within (sc_bounds cfg) u) ->
  enable s = true -> constraints_now s = cs -> I (ctl_now s) -> safe cs x ->
  closed_loop cfg Explicit dt us x s xs -> Forall (safe cs) xs.
Proof.
  intros Hd D Inv us x s xs Hus E C Hi Hx HL.
  revert Hus E C Hi Hx.
  induction HL as [x s|u us x s w s' x' xs Hf Hp HL IH]; intros Hus E C Hi Hx; constructor.
  - assert (D' : distinct_keys (constraints_now s)) by (rewrite C; auto).
    destruct (call_inv cfg G Explicit x dt u s s' w Hd) as [[Hh A]|[Hh (xs' & HF & [A|A])]]; auto;
      try discriminate.
    + destruct A as (ub & st & Hg & Hb & _).
      eapply (Inv x (ctl_now s)); eauto. eapply backup_step_intro; eauto.
    + destruct A as (Hs & Hc & _).
      destruct (Hus u (or_introl eq_refl)) as [Fu Wu].
      rewrite (clip_id _ _ Fu Wu) in Hc; inversion Hc; subst w.
      destruct HF as (x1 & Hp1 & ->).
      rewrite Hp in Hp1; inversion Hp1; subst x1. rewrite <- C; apply Hs; left; auto.
    + destruct A as (_ & ub & st & Hg & Hb & _).
      eapply (Inv x (ctl_now s)); eauto. eapply backup_step_intro; eauto.
  - assert (D' : distinct_keys (constraints_now s)) by (rewrite C; auto).
    assert (K : enable s' = true /\ constraints_now s' = cs /\ I (ctl_now s') /\ safe cs x').
    { destruct (call_inv cfg G Explicit x dt u s s' w Hd) as [[Hh A]|[Hh (xs' & HF & [A|A])]]; auto;
        try discriminate.
      + destruct A as (ub & st & Hg & Hb & A1 & A2 & _ & _ & A5 & _).
        destruct (Inv x (ctl_now s) x' st) as [S1 S2]; auto.
        { eapply backup_step_intro; eauto. }
        rewrite A5; split; [congruence|split; [congruence|split; auto]].
      + destruct A as (Hs & Hc & A1 & A2 & _ & _ & A5 & _).
        destruct (Hus u (or_introl eq_refl)) as [Fu Wu].
        rewrite (clip_id _ _ Fu Wu) in Hc; inversion Hc; subst w.
        destruct HF as (x1 & Hp1 & ->).
        rewrite Hp in Hp1; inversion Hp1; subst x1.
        rewrite A5; split; [congruence|split; [congruence|split; auto]].
        rewrite <- C; apply Hs; left; auto.
      + destruct A as (_ & ub & st & Hg & Hb & A1 & A2 & _ & _ & A5 & _).
        destruct (Inv x (ctl_now s) x' st) as [S1 S2]; auto.
        { eapply backup_step_intro; eauto. }
        rewrite A5; split; [congruence|split; [congruence|split; auto]]. }
    destruct K as (K1 & K2 & K3 & K4). apply IH; auto.
    intros v Hv; apply Hus; right; auto.
Qed.

(** Nothing raises: with a total model and a total controller the loop always runs. *)
Lemma explicit_runs dt :
  0 < dt ->
  (forall x w, exists x', sc_pred cfg x dt w = Ok x') ->
  (forall x st, exists u st', sc_gen cfg x dt st = GPair u st') ->
  forall us x (s : simplex),
  (forall u, In u us -> fits (sc_bounds cfg) (length u)) ->
  enable s = true -> distinct_keys (constraints_now s) ->
  exists xs, closed_loop cfg Explicit dt us x s xs /\ length xs = length us.
Proof.
  intros Hd Tp Tg; induction us as [|u us IH]; intros x s Fu E D.
  - exists []; split; [constructor|auto].
  - assert (K : exists w s', simplex_filter_control cfg Explicit (InArray x) dt u s = (Ok w, s') /\
                  enable s' = true /\ constraints_now s' = constraints_now s).
    { destruct (Tg x (ctl_now s)) as (ub & st & Hg).
      destruct (clip_boxed (sc_bounds cfg) ub (G _ _ _ _ _ Hg)) as (wb & _ & Hb).
      destruct (latched_dec cfg s) as [L|L].
      - destruct (call_held cfg G Explicit x dt u ub wb st s E) as (s' & Hf & A1 & A2 & _); auto.
        exists wb, s'; repeat split; congruence.
      - assert (L' : ~ held cfg s) by (rewrite held_latched; auto).
        destruct (Tp x u) as (x1 & Hp).
        assert (F : foreseen cfg Explicit dt x (ctl_now s) u [x1]) by (exists x1; auto).
        destruct (violb (constraints_now s) [x1]) eqn:Ev.
        + destruct (call_reject cfg G Explicit x dt u s [x1] ub wb st) as (s' & Hf & A1 & A2 & _);
            auto; try discriminate. { apply violb_true; auto. }
          exists wb, s'; repeat split; congruence.
        + destruct (clip_boxed (sc_bounds cfg) u (Fu u (or_introl eq_refl))) as (w & Ew & _).
          destruct (call_accept cfg G Explicit x dt u s [x1] w) as (s' & Hf & A1 & A2 & _);
            auto; try discriminate. { apply violb_false; auto. }
          exists w, s'; repeat split; congruence. }
    destruct K as (w & s' & Hf & E' & C').
    destruct (Tp x w) as (x' & Hp).
    destruct (IH x' s') as (xs & HL & Len); auto.
    { intros v Hv; apply Fu; right; auto. } { rewrite C'; auto. }
    exists (x' :: xs); split; [econstructor; eauto|simpl; auto].
Qed.

(** A safe plan can be cut and followed. *)
Lemma plan_follow (cs : dict (constraint X P)) dt n x st x' st' :
  safe_plan cs (sc_bounds cfg) (sc_pred cfg) (sc_gen cfg) dt (S n) x st ->
  backup_step (sc_bounds cfg) (sc_pred cfg) (sc_gen cfg) dt x st x' st' ->
  safe cs x' /\ safe_plan cs (sc_bounds cfg) (sc_pred cfg) (sc_gen cfg) dt n x' st'.
Proof.
  intros (xs & Hp & HS) Hst.
  inversion Hp as [|? ? ? y st'' ys Hst2 Hre]; subst.
  destruct Hst as (u & w & A1 & A2 & A3), Hst2 as (u' & w' & B1 & B2 & B3).
  rewrite A1 in B1; inversion B1; subst.
  assert (w = w') by (eapply boxed_unique; eauto); subst.
  rewrite A3 in B3; inversion B3; subst.
  inversion HS; subst; split; auto; exists ys; auto.
Qed.

Lemma plan_shorter (cs : dict (constraint X P)) dt n m x st :
  (m <= n)%nat ->
  safe_plan cs (sc_bounds cfg) (sc_pred cfg) (sc_gen cfg) dt n x st ->
  safe_plan cs (sc_bounds cfg) (sc_pred cfg) (sc_gen cfg) dt m x st.
Proof.
  intros L (xs & Hp & HS); revert n x st xs L Hp HS.
  induction m as [|m IH]; intros n x st xs L Hp HS.
  - exists []; split; constructor.
  - inversion Hp as [|n' ? ? y st'' ys Hst2 Hre]; subst; [lia|].
    inversion HS; subst.
    destruct (IH n' y st'' ys) as (zs & Z1 & Z2); auto; [lia|].
    exists (y :: zs); split; [econstructor; eauto|constructor; auto].
Qed.

(** One call of an implicit module from a state with a plan of at least one step. *)
Lemma implicit_call dt win N n x u (s s' : simplex) w x' :
  window_steps win dt N -> enable s = true -> distinct_keys (constraints_now s) ->
  fits (sc_bounds cfg) (length u) -> within (sc_bounds cfg) u ->
  safe_plan (constraints_now s) (sc_bounds cfg) (sc_pred cfg) (sc_gen cfg) dt (S n) x (ctl_now s) ->
  simplex_filter_control cfg (Implicit win) (InArray x) dt u s = (Ok w, s') ->
  sc_pred cfg x dt w = Ok x' ->
  enable s' = true /\ constraints_now s' = constraints_now s /\ safe (constraints_now s) x' /\
  (safe_plan (constraints_now s) (sc_bounds cfg) (sc_pred cfg) (sc_gen cfg) dt N x' (ctl_now s') \/
   safe_plan (constraints_now s) (sc_bounds cfg) (sc_pred cfg) (sc_gen cfg) dt n x' (ctl_now s')).
Proof.
  intros W E D Fu Wu Pl Hf Hp.
  assert (Hd : 0 < dt) by apply W.
  assert (Hw : forall win0, Implicit win = Implicit win0 -> 0 <= win0).
  { intros win0 Eq; inversion Eq; subst. destruct W as (_ & W1 & _).
    apply Rle_trans with (INR N * dt); auto.
    apply Rmult_le_pos; [apply pos_INR|lra]. }
  destruct (call_inv cfg G (Implicit win) x dt u s s' w Hd Hw E D Hf)
    as [[Hh A]|[Hh (xs' & HF & [A|A])]].
  - destruct A as (ub & st & Hg & Hb & A1 & A2 & _ & _ & A5 & _).
    destruct (plan_follow _ dt n x (ctl_now s) x' st Pl) as [S1 S2].
    { eapply backup_step_intro; eauto. }
    rewrite A5; split; [congruence|split; [congruence|split; auto]].
  - destruct A as (Hs & Hc & A1 & A2 & _ & _ & A5 & _).
    rewrite (clip_id _ _ Fu Wu) in Hc; inversion Hc; subst w.
    destruct HF as (x1 & Hp1 & n' & ps & W' & Hpath & ->).
    rewrite Hp in Hp1; inversion Hp1; subst x1.
    assert (n' = N).
    { rewrite <- (window_steps_int _ _ _ W), <- (window_steps_int _ _ _ W'); auto. }
    subst n'. rewrite A5; split; [congruence|split; [congruence|split]].
    + apply Hs; left; auto.
    + left; exists ps; split; auto. apply Forall_forall; intros y Hy; apply Hs; right; auto.
  - destruct A as (_ & ub & st & Hg & Hb & A1 & A2 & _ & _ & A5 & _).
    destruct (plan_follow _ dt n x (ctl_now s) x' st Pl) as [S1 S2].
    { eapply backup_step_intro; eauto. }
    rewrite A5; split; [congruence|split; [congruence|split; auto]].
Qed.

(** After an accepted control, [N] more states are safe whatever is asked for. *)
Lemma implicit_plan_safe dt win N (cs : dict (constraint X P)) :
  window_steps win dt N -> distinct_keys cs ->
  forall us x (s : simplex) xs,
  (forall u, In u us -> fits (sc_bounds cfg) (length u) /\ within (sc_bounds cfg) u) ->
  enable s = true -> constraints_now s = cs ->
  (length us <= N)%nat ->
  (exists n, (length us <= n)%nat /\
     safe_plan cs (sc_bounds cfg) (sc_pred cfg) (sc_gen cfg) dt n x (ctl_now s)) ->
  closed_loop cfg (Implicit win) dt us x s xs -> Forall (safe cs) xs.
Proof.
  intros W D us x s xs Hus E C Hl Pl HL; revert Hus E C Hl Pl.
  induction HL as [x s|u us x s w s' x' xs Hf Hp HL IH]; intros Hus E C Hl Pl; [constructor|].
  destruct Pl as (n & Hn & Pl); simpl in Hn, Hl.
  destruct n as [|n]; [lia|].
  destruct (Hus u (or_introl eq_refl)) as [Fu Wu].
  rewrite <- C in Pl.
  destruct (implicit_call dt win N n x u s s' w x') as (K1 & K2 & K3 & K4); auto.
  { rewrite C; auto. }
  rewrite C in *.
  constructor; auto.
  apply IH; try congruence; try lia.
  - intros v Hv; apply Hus; right; auto.
  - destruct K4 as [K4|K4]; [exists N|exists n]; split; auto; lia.
Qed.

(** If a safe plan over the window can always be prolonged, the loop is safe for ever. *)
Lemma implicit_safe dt win N (cs : dict (constraint X P)) :
  window_steps win dt N -> distinct_keys cs ->
  (forall x st, safe_plan cs (sc_bounds cfg) (sc_pred cfg) (sc_gen cfg) dt N x st ->
     safe_plan cs (sc_bounds cfg) (sc_pred cfg) (sc_gen cfg) dt (S N) x st) ->
  forall us x (s : simplex) xs,
  (forall u, In u us -> fits (sc_bounds cfg) (length u) /\ within (sc_bounds cfg) u) ->
  enable s = true -> constraints_now s = cs ->
  safe_plan cs (sc_bounds cfg) (sc_pred cfg) (sc_gen cfg) dt N x (ctl_now s) ->
  closed_loop cfg (Implicit win) dt us x s xs -> Forall (safe cs) xs.
Proof.
  intros W D Ext us x s xs Hus E C Pl HL; revert Hus E C Pl.
  induction HL as [x s|u us x s w s' x' xs Hf Hp HL IH]; intros Hus E C Pl; [constructor|].
  destruct (Hus u (or_introl eq_refl)) as [Fu Wu].
  apply Ext in Pl; rewrite <- C in Pl.
  destruct (implicit_call dt win N N x u s s' w x') as (K1 & K2 & K3 & K4); auto.
  { rewrite C; auto. }
  rewrite C in *.
  constructor; auto.
  apply IH; try congruence.
  - intros v Hv; apply Hus; right; auto.
  - tauto.
Qed.

End Latch.
