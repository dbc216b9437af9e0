(** Lemmas for PropertiesMore.v: calls that agree up to the scratch copy of the controller state. *)
From Coq Require Import String Reals List Bool ZArith Lia Lra.
From Verif Require Import Prelude Vec ModelBase ModelController ModelSimplex SpecCore SpecHistory SpecSimplex
  ProofsBase ProofsHistory ProofsSimplex.
Import ListNotations.
Local Open Scope R_scope.
Local Open Scope monad_scope.

Section Short.
  Context {X P : Type}.
  Definition resave (c : cstate) (s : simplex X P) : simplex X P :=
    put_sx (set_ctl (set_ctl_saved c (sx_ctl (get_sx s))) (get_sx s)) s.

  Lemma resave_resave c c' s : resave c (resave c' s) = resave c s.
  Proof. reflexivity. Qed.
  Lemma resave_same s : resave (ctl_saved (sx_ctl (get_sx s))) s = s.
  Proof. destruct s as [? ? ? ? [? ? ? ? ? [? []]]]; reflexivity. Qed.

  (** [m] and [m'] agree up to the scratch copy. *)
  Definition agree {A} (m m' : M (simplex X P) A) (s : simplex X P) : Prop :=
    forall c, exists c', m' (resave c s) = (fst (m s), resave c' (snd (m s))).

  Lemma agree_bind {A B} (m m' : M (simplex X P) A) (k k' : A -> M (simplex X P) B) s :
    agree m m' s -> (forall a s1, m s = (Ok a, s1) -> agree (k a) (k' a) s1) -> agree (bind m k) (bind m' k') s.
  Proof.
    intros H1 H2 c. destruct (H1 c) as [c' E]. unfold bind. rewrite E.
    destruct (m s) as [[a|e] s1] eqn:F; cbn [fst snd].
    - exact (H2 a s1 eq_refl c').
    - exists c'; reflexivity.
  Qed.
  Lemma agree_ret {A} (a : A) s : agree (ret a) (ret a) s.
  Proof. intros c; exists c; reflexivity. Qed.
  Lemma agree_lift {A} (a : res A) s : agree (lift a) (lift a) s.
  Proof. intros c; exists c; reflexivity. Qed.
  Lemma agree_modify (f : simplex X P -> simplex X P) s :
    (forall c, exists c', f (resave c s) = resave c' (f s)) -> agree (modify f) (modify f) s.
  Proof. intros H c; destruct (H c) as [c' E]; exists c'; unfold modify; rewrite E; reflexivity. Qed.
  Lemma agree_backup b (gen : X -> R -> cstate -> gout) x dt s :
    agree (on_ctl (backup_control b gen x dt)) (on_ctl (backup_control b gen x dt)) s.
  Proof.
    intros c; exists c. unfold on_ctl, zoom, backup_control, generate_control, bind, get, modify, ret, raise, lift.
    cbn. destruct (gen x dt _); cbn; try (destruct (clip b u)); reflexivity.
  Qed.

  Lemma agree_self_ext (f : cb X P sx -> cb X P sx) s :
    (forall y, cb_ext (f y) = cb_ext y) -> (forall z y, f (set_cb_ext z y) = set_cb_ext z (f y)) ->
    agree (modify (on_ext f)) (modify (on_ext f)) s.
  Proof.
    intros E H. apply agree_modify. intros c; exists c.
    unfold resave, put_sx, on_ext, get_sx. destruct s; cbn. rewrite H, E. reflexivity.
  Qed.

  Lemma no_steps w dt : 0 < dt -> w < dt -> exists q, py_div w dt = Ok q /\ Z.to_nat (py_int q) = 0%nat.
  Proof.
    intros Hd Hw. unfold py_div. destruct (Req_EM_T dt 0) as [E|E]; [lra|]. exists (w / dt). split; [reflexivity|].
    assert (Q : w / dt < 1) by (apply Rmult_lt_reg_r with dt; [lra|unfold Rdiv; rewrite Rmult_assoc, Rinv_l; lra]).
    unfold py_int. destruct (Rle_dec 0 (w / dt)) as [L|L].
    - destruct (base_Int_part (w / dt)) as [B1 B2].
      assert (IZR (Int_part (w / dt)) < 1) as H by lra. apply lt_IZR in H. lia.
    - destruct (base_Int_part (- (w / dt))) as [B1 B2].
      assert (-1 < IZR (Int_part (- (w / dt)))) as H by lra. change (-1) with (IZR (-1)) in H. apply lt_IZR in H. lia.
  Qed.

  Lemma agree_monitor cfg w x dt u s : 0 < dt -> w < dt -> savable (ctl_now s) ->
    agree (explicit_monitor cfg x dt u) (implicit_monitor cfg w x dt u) s.
  Proof.
    intros Hd Hw Sv c. destruct (no_steps w dt Hd Hw) as (q & Eq & En).
    unfold explicit_monitor, implicit_monitor, simplex_integrate, on_ctl, zoom, bind, lift, get.
    rewrite Eq. destruct (sc_pred cfg x dt u) as [x1|e]; [|exists c; reflexivity].
    rewrite En. exists (ctl_now s).
    unfold ctl_save, ctl_restore, bind, get, lift, modify, ret. cbn -[copy_controller_state constraint_violation].
    fold (get_sx s). change (ctl_state (sx_ctl (get_sx s))) with (ctl_now s).
    rewrite (copy_savable _ Sv). reflexivity.
  Qed.

  Lemma explicit_monitor_keeps (cfg : sx_cfg X) x dt u (s : simplex X P) : snd (explicit_monitor cfg x dt u s) = s.
  Proof. unfold explicit_monitor, bind, lift, get. destruct (sc_pred cfg x dt u); reflexivity. Qed.

  Lemma agree_filter cfg w x dt u s : 0 < dt -> w < dt -> savable (ctl_now s) ->
    agree (simplex_filter cfg (explicit_monitor cfg) x dt u) (simplex_filter cfg (implicit_monitor cfg w) x dt u) s.
  Proof.
    intros Hd Hw Sv c. unfold simplex_filter.
    pose (k := fun (mon : X -> R -> vec -> M (simplex X P) bool) (latched : bool) =>
      if latched then on_ctl (backup_control (sc_bounds cfg) (sc_gen cfg) x dt)
      else (b <- mon x dt u ;; modify (set_intervening b) ;;
            if (b : bool) then on_ctl (backup_control (sc_bounds cfg) (sc_gen cfg) x dt) else ret u)).
    assert (K : forall b s1, ctl_now s1 = ctl_now s -> agree (k (explicit_monitor cfg) b) (k (implicit_monitor cfg w) b) s1).
    { intros b s1 H1. unfold k. destruct b; [apply agree_backup|].
      apply agree_bind; [apply agree_monitor; auto; rewrite H1; auto|].
      intros b s2 H2. apply agree_bind; [apply agree_modify; intros c1; exists c1; reflexivity|].
      intros [] s3 H3. destruct b; [apply agree_backup|apply agree_ret]. }
    unfold bind at 1 4. unfold get at 1 3. cbv beta iota.
    change (intervening (resave c s)) with (intervening s).
    change (sx_elapsed (get_sx (resave c s))) with (sx_elapsed (get_sx s)).
    refine (agree_bind _ _ (k (explicit_monitor cfg)) (k (implicit_monitor cfg w)) s _ _ c).
    - destruct (intervening s); [destruct (Rleb _ _)|]; try apply agree_ret;
        (apply agree_bind; [apply agree_modify; intros c1; exists c1; reflexivity|intros; apply agree_ret]).
    - intros b s1 H1. apply K. revert H1.
      destruct (intervening s); [destruct (Rleb _ _)|]; unfold bind, modify, ret; intros H1; inversion H1; reflexivity.
  Qed.

  (** What a call of the explicit module does to a savable controller state. *)
  Definition fine (s : simplex X P) : Prop := savable (ctl_now s) /\ savable (ctl_initial (sx_ctl (get_sx s))).
  Definition keeps {A} (m : M (simplex X P) A) : Prop := forall s, fine s -> fine (snd (m s)).
  Lemma keeps_bind {A B} (m : M (simplex X P) A) (k : A -> M (simplex X P) B) :
    keeps m -> (forall a, keeps (k a)) -> keeps (bind m k).
  Proof.
    intros H1 H2 s Sv. specialize (H1 s Sv). unfold bind. destruct (m s) as [[a|e] s1]; [|exact H1].
    apply H2; exact H1.
  Qed.
  Lemma keeps_modify f : (forall s, sx_ctl (get_sx (f s)) = sx_ctl (get_sx s)) -> keeps (modify f).
  Proof. intros H s Sv. unfold modify, fine, ctl_now; cbn [snd]. specialize (H s). unfold get_sx in *. rewrite H; exact Sv. Qed.
  Lemma keeps_id {A} (m : M (simplex X P) A) : (forall s, snd (m s) = s) -> keeps m.
  Proof. intros H s Sv. rewrite H; exact Sv. Qed.
  Lemma keeps_backup b (gen : X -> R -> cstate -> gout) x dt :
    (forall x dt st u st', savable st -> gen x dt st = GPair u st' -> savable st') ->
    keeps (on_ctl (backup_control b gen x dt)).
  Proof.
    intros G s Sv. unfold on_ctl, zoom, backup_control, generate_control, bind, get, modify, ret, raise, lift.
    destruct (gen x dt (ctl_state (sx_ctl (get_sx s)))) eqn:E; try exact Sv; destruct Sv as [Sv Si];
      pose proof (G x dt _ _ _ Sv E) as S2; destruct (clip b _); split; auto.
  Qed.
  Lemma keeps_filter cfg x dt u :
    (forall x dt st u st', savable st -> sc_gen cfg x dt st = GPair u st' -> savable st') ->
    keeps (simplex_filter cfg (explicit_monitor cfg) x dt u).
  Proof.
    intros G. unfold simplex_filter. apply keeps_bind; [apply keeps_id; reflexivity|]. intros s0.
    apply keeps_bind.
    - destruct (intervening s0); [destruct (Rleb _ _)|]; try (apply keeps_id; reflexivity);
        (apply keeps_bind; [apply keeps_modify; reflexivity|intros; apply keeps_id; reflexivity]).
    - intros [|]; [apply keeps_backup; exact G|].
      apply keeps_bind; [apply keeps_id; apply explicit_monitor_keeps|]. intros b.
      apply keeps_bind; [apply keeps_modify; reflexivity|]. intros [].
      destruct b; [apply keeps_backup; exact G|apply keeps_id; reflexivity].
  Qed.

  Lemma keeps_call cfg i dt u :
    (forall x dt st u st', savable st -> sc_gen cfg x dt st = GPair u st' -> savable st') ->
    keeps (simplex_filter_control cfg Explicit i dt u).
  Proof.
    intros G. unfold simplex_filter_control, filter_control.
    apply keeps_bind; [apply keeps_modify; reflexivity|]. intros [].
    apply keeps_bind; [apply keeps_id; reflexivity|]. intros s0. destruct (enable s0).
    - apply keeps_bind.
      + unfold cb_compute. apply keeps_bind; [apply keeps_modify; reflexivity|]. intros [].
        apply keeps_bind; [apply keeps_id; destruct i; reflexivity|]. intros x.
        apply keeps_bind; [apply keeps_modify; reflexivity|]. intros [].
        apply keeps_bind; [apply keeps_filter; exact G|]. intros v.
        apply keeps_bind; [apply keeps_modify; reflexivity|]. intros []. apply keeps_id; reflexivity.
      + intros v. apply keeps_bind; [apply keeps_id; intros; destruct (clip _ v); reflexivity|]. intros w.
        apply keeps_bind; [apply keeps_modify; reflexivity|]. intros []. apply keeps_id; reflexivity.
    - apply keeps_bind; [apply keeps_modify; reflexivity|]. intros []. apply keeps_id; reflexivity.
  Qed.

  Lemma agree_call cfg w i dt u s : 0 < dt -> w < dt -> savable (ctl_now s) ->
    agree (simplex_filter_control cfg Explicit i dt u) (simplex_filter_control cfg (Implicit w) i dt u) s.
  Proof.
    intros Hd Hw Sv. unfold simplex_filter_control, filter_control, sx_monitor.
    apply agree_bind; [apply agree_modify; intros c1; exists c1; reflexivity|].
    intros [] s1 H1. assert (Sv1 : savable (ctl_now s1)) by (inversion H1; exact Sv).
    intros c. unfold bind at 1 5. unfold get at 1 2. cbv beta iota.
    change (enable (resave c s1)) with (enable s1). revert c. change (agree
      (if enable s1 then v <- cb_compute base_get_state (simplex_filter cfg (explicit_monitor cfg)) i dt u ;;
         w0 <- lift (clip (sc_bounds cfg) v) ;; modify (set_actual (Some w0)) ;; ret w0
       else modify (set_actual (Some u)) ;; ret u)
      (if enable s1 then v <- cb_compute base_get_state (simplex_filter cfg (implicit_monitor cfg w)) i dt u ;;
         w0 <- lift (clip (sc_bounds cfg) v) ;; modify (set_actual (Some w0)) ;; ret w0
       else modify (set_actual (Some u)) ;; ret u) s1).
    destruct (enable s1).
    - apply agree_bind.
      + unfold cb_compute.
        apply agree_bind; [apply agree_self_ext; reflexivity|]. intros [] s2 H2.
        apply agree_bind; [intros c; exists c; destruct i; reflexivity|]. intros x s3 H3.
        apply agree_bind; [apply agree_self_ext; reflexivity|]. intros [] s4 H4.
        apply agree_bind.
        * apply agree_filter; auto. inversion H2; subst. destruct i; inversion H3; subst. inversion H4; subst. exact Sv1.
        * intros v s5 H5. apply agree_bind; [apply agree_modify; intros c1; exists c1; reflexivity|]. intros; apply agree_ret.
      + intros v s2 H2. apply agree_bind; [intros c; exists c; unfold lift; destruct (clip _ v); reflexivity|].
        intros w0 s3 H3. apply agree_bind; [apply agree_modify; intros c1; exists c1; reflexivity|]. intros; apply agree_ret.
    - apply agree_bind; [apply agree_modify; intros c1; exists c1; reflexivity|]. intros; apply agree_ret.
  Qed.

  Lemma agree_step cfg w o s :
    (forall x dt st u st', savable st -> sc_gen cfg x dt st = GPair u st' -> savable st') ->
    match o with OFilter _ dt _ => 0 < dt /\ w < dt | _ => True end ->
    fine s ->
    forall c, exists c' b s1, cb_step (simplex_filter_control cfg Explicit) simplex_reset o s = (b, s1) /\
      cb_step (simplex_filter_control cfg (Implicit w)) simplex_reset o (resave c s) = (b, resave c' s1) /\
      fine s1.
  Proof.
    intros G Ho [Sv Si] c. destruct o as [i dt u| |b|i|k p|k b].
    - destruct (agree_call cfg w i dt u s (proj1 Ho) (proj2 Ho) Sv c) as [c' E].
      pose proof (keeps_call cfg i dt u G s (conj Sv Si)) as K. unfold cb_step. rewrite E.
      destruct (simplex_filter_control cfg Explicit i dt u s) as [r s1]. exists c', (obs_of r), s1. auto.
    - unfold cb_step, simplex_reset, bind, modify, on_ctl, zoom, ctl_reset, bind, get, lift, modify.
      
      change (ctl_initial (sx_ctl (get_sx (rta_reset (fun y => y) s)))) with (ctl_initial (sx_ctl (get_sx s))).
      change (ctl_initial (sx_ctl (get_sx (rta_reset (fun y => y) (resave c s))))) with (ctl_initial (sx_ctl (get_sx s))).
      rewrite (copy_savable _ Si).
      eexists c, _, _; split; [reflexivity|]. split; [reflexivity|]. split; exact Si.
    - exists c, ObsDone, (set_enable b s). split; [reflexivity|]. split; [reflexivity|]. split; assumption.
    - unfold cb_step, update_constraint_values, bind. destruct i; cbn; eexists c, _, _; (split; [reflexivity|]); (split; [reflexivity|]); split; assumption.
    - eexists c, ObsDone, _. split; [reflexivity|]. split; [reflexivity|]. split; assumption.
    - eexists c, ObsDone, _. split; [reflexivity|]. split; [reflexivity|]. split; assumption.
  Qed.

  Lemma agree_run cfg w os :
    (forall x dt st u st', savable st -> sc_gen cfg x dt st = GPair u st' -> savable st') ->
    (forall o, In o os -> match o with OFilter _ dt _ => 0 < dt /\ w < dt | _ => True end) ->
    forall s c, fine s -> exists c' bs s1, cb_run (simplex_filter_control cfg Explicit) simplex_reset os s = (bs, s1) /\
      cb_run (simplex_filter_control cfg (Implicit w)) simplex_reset os (resave c s) = (bs, resave c' s1) /\ fine s1.
  Proof.
    intros G. induction os as [|o os IH]; intros Ho s c F.
    - exists c, [], s. auto.
    - destruct (agree_step cfg w o s G (Ho o (or_introl eq_refl)) F c) as (c1 & b & s1 & E1 & E2 & F1).
      destruct (IH (fun o' H => Ho o' (or_intror H)) s1 c1 F1) as (c2 & bs & s2 & E3 & E4 & F2).
      exists c2, (b :: bs), s2. cbn [cb_run]. rewrite E1, E2, E3, E4. auto.
  Qed.
  Lemma init_fine (defined : dict (constraint X P)) to_use initial s :
    simplex_init defined to_use initial = Ok s -> fine s.
  Proof.
    unfold simplex_init, ctl_init, cb_init. destruct initial; cbn -[select_constraints];
      try discriminate; destruct (select_constraints defined to_use); cbn; intros H; inversion H;
      split; intros t; discriminate.
  Qed.
End Short.
