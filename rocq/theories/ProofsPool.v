(** Lemmas for PropertiesPool.v. *)
From Coq Require Import String Reals List Bool ZArith Lia Lra.
From Verif Require Import Prelude Vec ModelBase ModelController ModelSimplex ModelAsif ModelPool SpecPool.
From Verif Require Import ModelShare ProofsShare.
From Verif Require Import ModelPool SpecPool.
Import ListNotations.
Local Open Scope R_scope.
Local Open Scope monad_scope.

(** ** Methods that keep a predicate on the attributes *)
Definition pres {S A} (Q : S -> Prop) (m : M S A) : Prop := forall s, Q s -> Q (snd (m s)).
Lemma pres_bind {S A B} (Q : S -> Prop) (m : M S A) (k : A -> M S B) :
  pres Q m -> (forall a, pres Q (k a)) -> pres Q (bind m k).
Proof.
  intros H1 H2 s Hs. specialize (H1 s Hs). unfold bind. destruct (m s) as [[a|e] s1]; [apply H2|]; exact H1.
Qed.
Lemma pres_get {S} (Q : S -> Prop) : pres Q get.
Proof. intros s H; exact H. Qed.
Lemma pres_ret {S A} (Q : S -> Prop) (a : A) : pres Q (ret a).
Proof. intros s H; exact H. Qed.
Lemma pres_raise {S A} (Q : S -> Prop) e : pres Q (raise (A:=A) e).
Proof. intros s H; exact H. Qed.
Lemma pres_lift {S A} (Q : S -> Prop) (r : res A) : pres Q (lift r).
Proof. intros s H; destruct r; exact H. Qed.
Lemma pres_modify {S} (Q : S -> Prop) f : (forall s, Q s -> Q (f s)) -> pres Q (modify f).
Proof. intros H s Hs; apply H; exact Hs. Qed.
Lemma pres_zoom {S T A} (Q : S -> Prop) (Q' : T -> Prop) g p (m : M T A) :
  pres Q' m -> (forall s, Q s -> Q' (g s)) -> (forall s t, Q s -> Q' t -> Q (p t s)) -> pres Q (zoom g p m).
Proof.
  intros H H1 H2 s Hs. unfold zoom. specialize (H (g s) (H1 s Hs)). destruct (m (g s)) as [r t]. apply H2; auto.
Qed.
Ltac pres_tac := repeat first
  [ apply pres_bind; [|intros ?] | apply pres_get | apply pres_ret | apply pres_raise | apply pres_lift ].

Lemma pres_base_get_state {X S} (Q : S -> Prop) (i : input X) : pres Q (base_get_state i).
Proof. destruct i; [apply pres_ret|apply pres_raise]. Qed.
Lemma pres_filter_control {X I} (Q : rta X -> Prop) b (compute : I -> R -> vec -> M (rta X) vec) i dt u :
  (forall s s', Q s -> ext s' = ext s -> Q s') -> pres Q (compute i dt u) -> pres Q (filter_control b compute i dt u).
Proof.
  intros E H. unfold filter_control.
  apply pres_bind; [apply pres_modify; intros s Hs; apply (E s); auto|]. intros [].
  apply pres_bind; [apply pres_get|]. intros s0. destruct (enable s0).
  - apply pres_bind; [exact H|]. intros v. apply pres_bind; [apply pres_lift|]. intros w.
    apply pres_bind; [apply pres_modify; intros s Hs; apply (E s); auto|]. intros; apply pres_ret.
  - apply pres_bind; [apply pres_modify; intros s Hs; apply (E s); auto|]. intros; apply pres_ret.
Qed.
Lemma pres_cb_compute {X P Y} (Q : rta (cb X P Y) -> Prop) (filt : X -> R -> vec -> M (rta (cb X P Y)) vec)
    (i : input X) dt u :
  (forall s s', Q s -> cb_ext (ext s') = cb_ext (ext s) -> Q s') -> (forall x, pres Q (filt x dt u)) ->
  pres Q (cb_compute base_get_state filt i dt u).
Proof.
  intros E H. unfold cb_compute.
  apply pres_bind; [apply pres_modify; intros s Hs; apply (E s); auto|]. intros [].
  apply pres_bind; [apply pres_base_get_state|]. intros x.
  apply pres_bind; [apply pres_modify; intros s Hs; apply (E s); auto|]. intros [].
  apply pres_bind; [apply H|]. intros v.
  apply pres_bind; [apply pres_modify; intros s Hs; apply (E s); auto|]. intros; apply pres_ret.
Qed.
Lemma pres_cb_step {X P Y} (Q : rta (cb X P Y) -> Prop) filt rst (o : op X P) s :
  (forall s s', Q s -> cb_ext (ext s') = cb_ext (ext s) -> Q s') ->
  (forall i dt u, pres Q (filt i dt u)) -> pres Q rst -> Q s -> Q (snd (cb_step filt rst o s)).
Proof.
  intros E F G H. destruct o as [i dt u| |b|i|k p|k b]; cbn [cb_step].
  - specialize (F i dt u s H). destruct (filt i dt u s). exact F.
  - specialize (G s H). destruct (rst s). exact G.
  - apply (E s); auto.
  - assert (K : pres Q (update_constraint_values (Y:=Y) base_get_state i)).
    { unfold update_constraint_values. apply pres_bind; [apply pres_base_get_state|]. intros x.
      apply pres_modify. intros s1 H1; apply (E s1); auto. }
    specialize (K s H). destruct (update_constraint_values base_get_state i s). exact K.
  - apply (E s); auto.
  - apply (E s); auto.
Qed.

(** ** A stateless controller is never changed *)
Definition idle (c : ctl) : Prop := c = no_ctl.

Section Idle.
  Context {X P : Type} (gen : X -> R -> cstate -> gout) (jac : X -> R -> cstate -> mat).
  Hypothesis SL : stateless gen.

  Lemma idle_generate x dt : pres idle (generate_control gen x dt).
  Proof.
    intros c ->. unfold generate_control, bind, get, modify, ret, raise. cbn [no_ctl ctl_state].
    destruct (gen x dt CSNone) eqn:E; try reflexivity. rewrite (SL _ _ _ _ E). reflexivity.
  Qed.
  Lemma idle_backup b x dt : pres idle (backup_control b gen x dt).
  Proof. unfold backup_control. apply pres_bind; [apply idle_generate|intros; apply pres_lift]. Qed.
  Lemma idle_save : pres idle ctl_save.
  Proof. intros c ->; reflexivity. Qed.
  Lemma idle_restore : pres idle ctl_restore.
  Proof. intros c ->; reflexivity. Qed.
  Lemma idle_reset : pres idle ctl_reset.
  Proof. intros c ->; reflexivity. Qed.

  Lemma idle_backup_loop b latch pred dt n : forall x, pres idle (backup_loop (mkSxCfg b latch pred gen) dt n x).
  Proof.
    induction n as [|n IH]; intros x; cbn [backup_loop]; [apply pres_ret|].
    apply pres_bind; [apply idle_backup|]. intros u. apply pres_bind; [apply pres_lift|]. intros x'.
    apply pres_bind; [apply IH|]. intros; apply pres_ret.
  Qed.
  Definition sx_idle (s : simplex X P) : Prop := idle (sx_ctl (get_sx s)).
  Lemma sx_idle_ext s s' : sx_idle s -> cb_ext (ext s') = cb_ext (ext s) -> sx_idle s'.
  Proof. unfold sx_idle, get_sx. intros H E; rewrite E; exact H. Qed.
  Lemma sx_idle_on_ctl {A} (m : M ctl A) : pres idle m -> pres sx_idle (on_ctl m).
  Proof. intros H. unfold on_ctl. apply (pres_zoom _ idle); auto. Qed.

  Lemma sx_idle_filter b latch pred k x dt u :
    pres sx_idle (simplex_filter (mkSxCfg b latch pred gen) (sx_monitor (mkSxCfg b latch pred gen) k) x dt u).
  Proof.
    unfold simplex_filter. apply pres_bind; [apply pres_get|]. intros s0.
    apply pres_bind.
    - destruct (intervening s0); [destruct (Rleb _ _)|]; try apply pres_ret;
        (apply pres_bind; [apply pres_modify; intros s H; exact H|intros; apply pres_ret]).
    - intros latched. destruct latched; [apply sx_idle_on_ctl, idle_backup|].
      apply pres_bind.
      + destruct k as [|w]; cbn [sx_monitor].
        * unfold explicit_monitor. apply pres_bind; [apply pres_lift|]. intros x'.
          apply pres_bind; [apply pres_get|]. intros; apply pres_lift.
        * unfold implicit_monitor. apply pres_bind.
          -- apply sx_idle_on_ctl. unfold simplex_integrate.
             apply pres_bind; [apply pres_lift|]. intros q. apply pres_bind; [apply pres_lift|]. intros x1.
             apply pres_bind; [apply idle_save|]. intros []. apply pres_bind; [apply idle_backup_loop|]. intros xs.
             apply pres_bind; [apply idle_restore|]. intros; apply pres_ret.
          -- intros xs. apply pres_bind; [apply pres_get|]. intros; apply pres_lift.
      + intros v. apply pres_bind; [apply pres_modify; intros s H; exact H|]. intros [].
        destruct v; [apply sx_idle_on_ctl, idle_backup|apply pres_ret].
  Qed.

  Lemma idle_implicit_loop b window pred size sz dt n :
    forall x sens, pres idle (implicit_loop b (mkImpCfg window pred gen jac size) sz dt n x sens).
  Proof.
    induction n as [|n IH]; intros x sens; cbn [implicit_loop]; [apply pres_ret|].
    apply pres_bind; [apply idle_backup|]. intros u. apply pres_bind; [apply pres_lift|]. intros x'.
    apply pres_bind; [apply pres_get|]. intros c. cbv zeta.
    apply pres_bind; [apply IH|]. intros; apply pres_ret.
  Qed.
  Definition as_idle (s : amod X P ctl) : Prop := idle (as_ext (get_asif s)).
  Lemma as_idle_ext s s' : as_idle s -> cb_ext (ext s') = cb_ext (ext s) -> as_idle s'.
  Proof. unfold as_idle, get_asif. intros H E; rewrite E; exact H. Qed.
  Lemma as_idle_causes l : pres as_idle (record_causes l).
  Proof.
    induction l as [|i l IH]; cbn [record_causes]; [apply pres_ret|].
    apply pres_bind; [apply pres_get|]. intros s0. apply pres_bind; [apply pres_lift|]. intros key. cbv zeta.
    apply pres_bind; [|intros; apply IH].
    destruct (existsb _ _); [apply pres_ret|apply pres_modify; intros s H; exact H].
  Qed.
  Lemma as_idle_filter cfg window pred size x dt u :
    pres as_idle (asif_filter cfg (implicit_mats cfg (mkImpCfg window pred gen jac size)) x dt u).
  Proof.
    unfold asif_filter. apply pres_bind; [apply pres_modify; intros s H; exact H|]. intros [].
    apply pres_bind.
    - unfold implicit_mats. apply pres_bind; [apply pres_lift|]. intros q. cbv zeta.
      apply pres_bind.
      + unfold on_actl. apply (pres_zoom _ idle); auto.
        unfold implicit_integrate. cbv zeta. apply pres_bind; [apply idle_save|]. intros [].
        apply pres_bind; [apply idle_implicit_loop|]. intros rest.
        apply pres_bind; [apply idle_restore|]. intros; apply pres_ret.
      + intros traj. apply pres_bind.
        * unfold implicit_ineq_mats. apply pres_bind; [apply pres_get|]. intros s0. cbv zeta.
          apply pres_bind; [apply pres_lift|]. intros bl. apply pres_bind; [apply pres_lift|]. intros; apply pres_ret.
        * intros rc. apply pres_bind; [apply pres_modify; intros s H; exact H|]. intros; apply pres_ret.
    - intros rc. apply pres_bind.
      + unfold update_ineq_mats. apply pres_bind; [apply pres_get|]. intros s0. cbv zeta.
        apply pres_bind; [apply pres_lift|]. intros; apply pres_ret.
      + intros rc'. apply pres_bind.
        * unfold optimize. apply pres_bind; [apply pres_get|]. intros s0. cbv zeta.
          destruct (ac_solve cfg _ _ _ _) as [[z iact]|e].
          -- apply pres_bind; [apply pres_modify; intros s H; exact H|]. intros [].
             apply pres_bind; [apply as_idle_causes|]. intros; apply pres_ret.
          -- destruct e; try apply pres_raise. destruct (String.eqb _ _); [|apply pres_raise].
             destruct (ac_exc cfg); [apply pres_raise|].
             apply pres_bind; [apply pres_modify; intros s H; exact H|]. intros; apply pres_ret.
        * intros v. apply pres_bind; [apply pres_lift|]. intros bb.
          apply pres_bind; [apply pres_modify; intros s H; exact H|]. intros; apply pres_ret.
  Qed.

  Lemma idle_use (o : op X P) m : snd (snd (use o m (mkController gen jac no_ctl))) = no_ctl.
  Proof.
    destruct m as [b latch pred k s|cfg window pred size s]; cbn [use k_gen k_jac k_ctl].
    - pose proof (pres_cb_step sx_idle (simplex_filter_control (mkSxCfg b latch pred gen) k) simplex_reset o
        (put_sx (set_ctl no_ctl (get_sx s)) s) sx_idle_ext) as H.
      destruct (cb_step _ _ _ _) as [ob s']. apply H; [| |reflexivity].
      + intros i dt u. apply pres_filter_control.
        * intros s1 s2 H1 H2. apply (sx_idle_ext s1); auto. rewrite H2; reflexivity.
        * apply pres_cb_compute; [exact sx_idle_ext|]. intros x. apply sx_idle_filter.
      + unfold simplex_reset. apply pres_bind; [apply pres_modify; intros s1 H1; exact H1|]. intros [].
        apply sx_idle_on_ctl, idle_reset.
    - pose proof (pres_cb_step as_idle (implicit_asif_filter_control cfg (mkImpCfg window pred gen jac size)) implicit_asif_reset o
        (on_asif (set_as_ext no_ctl) s) as_idle_ext) as H.
      destruct (cb_step _ _ _ _) as [ob s']. apply H; [| |reflexivity].
      + intros i dt u. apply pres_filter_control.
        * intros s1 s2 H1 H2. apply (as_idle_ext s1); auto. rewrite H2; reflexivity.
        * apply pres_cb_compute; [exact as_idle_ext|]. intros x. apply as_idle_filter.
      + unfold implicit_asif_reset. apply pres_bind; [apply pres_modify; intros s1 H1; exact H1|]. intros [].
        unfold on_actl. apply (pres_zoom _ idle); auto. apply idle_reset.
  Qed.
End Idle.

(** ** Programs *)
(** Two pools look alike to module [i], whose controller is object [r]. *)
Record alikep {X P} (i r : nat) (w w' : pool X P) : Prop := mkAlikep {
  ap_refs : map fst (p_users w) = map fst (p_users w');
  ap_mod : nth_error (p_users w) i = nth_error (p_users w') i;
  ap_len : length (p_ctls w) = length (p_ctls w');
  ap_ctl : nth_error (p_ctls w) r = nth_error (p_ctls w') r }.
Arguments ap_refs {X P i r w w'}.
Arguments ap_mod {X P i r w w'}.
Arguments ap_len {X P i r w w'}.
Arguments ap_ctl {X P i r w w'}.
Lemma alikep_refl {X P} i r (w : pool X P) : alikep i r w w.
Proof. split; auto. Qed.
Lemma alikep_trans {X P} i r (w1 w2 w3 : pool X P) : alikep i r w1 w2 -> alikep i r w2 w3 -> alikep i r w1 w3.
Proof. intros [] []; split; congruence. Qed.
Lemma alikep_sym {X P} i r (w1 w2 : pool X P) : alikep i r w1 w2 -> alikep i r w2 w1.
Proof. intros []; split; congruence. Qed.
Lemma alikep_length {X P} i r (w w' : pool X P) : alikep i r w w' -> length (p_users w) = length (p_users w').
Proof. intros A. pose proof (f_equal (@length nat) (ap_refs A)) as H. rewrite !map_length in H; auto. Qed.

Lemma pstep_refs {X P} (o : pool_op X P) w :
  map fst (p_users (snd (pool_step o w))) = map fst (p_users w) ++ given_controllers [o].
Proof.
  destruct o as [gen jac initial|m r|j o|r x dt]; cbn; rewrite ?app_nil_r; auto.
  - destruct (ctl_init initial); reflexivity.
  - rewrite map_app; auto.
  - destruct (nth_error (p_users w) j) as [[r m]|] eqn:E; [|auto].
    destruct (nth_error (p_ctls w) r) as [k|] eqn:F; [|auto].
    destruct (use o m k) as [ob [m' c']]. cbn. apply set_at_map. intros b H. rewrite E in H; injection H as <-; auto.
  - destruct (nth_error (p_ctls w) r); reflexivity.
Qed.
Lemma pgiven_cons {X P} (o : pool_op X P) os : given_controllers (o :: os) = given_controllers [o] ++ given_controllers os.
Proof. destruct o; reflexivity. Qed.

(** An operation that concerns module [i] has the same result on pools that are alike. *)
Lemma pstep_same {X P} i r asking (o : pool_op X P) w w' :
  (forall q m, nth_error (p_users w) i = Some (q, m) -> q = r) -> (forall q, asking = Some q -> q = r) ->
  alikep i r w w' -> concerns i asking o = true ->
  fst (pool_step o w) = fst (pool_step o w') /\ alikep i r (snd (pool_step o w)) (snd (pool_step o w')).
Proof.
  intros U Q A C. pose proof (alikep_length _ _ _ _ A) as L. pose proof A as [A1 A2 A3 A4].
  destruct o as [gen jac initial|m q|j o|q x dt]; cbn in C; cbn [pool_step].
  - destruct (ctl_init initial) as [c|e]; [|split; auto]. split; auto. split; cbn; auto.
    + rewrite !app_length; cbn; lia.
    + destruct (Nat.lt_ge_cases r (length (p_ctls w))) as [H|H].
      * rewrite !nth_error_app1 by lia; auto.
      * rewrite !nth_error_app2 by lia. rewrite A3; auto.
  - split; auto. split; cbn; auto.
    + rewrite !map_app, A1; auto.
    + destruct (Nat.lt_ge_cases i (length (p_users w))) as [H|H].
      * rewrite !nth_error_app1 by lia; auto.
      * rewrite !nth_error_app2 by lia. rewrite L; auto.
  - apply Nat.eqb_eq in C; subst j. rewrite <- A2.
    destruct (nth_error (p_users w) i) as [[q m]|] eqn:E; [|split; auto].
    rewrite (U q m eq_refl) in *. rewrite <- A4.
    destruct (nth_error (p_ctls w) r) as [k|] eqn:F; [|split; auto].
    destruct (use o m k) as [ob [m' c']] eqn:G. split; [reflexivity|]. split; cbn.
    + rewrite !set_at_map; auto; intros b H; rewrite ?E, <- ?A2 in H; injection H as <-; auto.
    + rewrite !set_at_same; auto; apply nth_error_Some; congruence.
    + rewrite !set_at_length; auto.
    + rewrite !set_at_same; auto; apply nth_error_Some; congruence.
  - destruct asking as [q'|]; [|discriminate]. apply Nat.eqb_eq in C; subst q'. rewrite (Q q eq_refl) in *.
    rewrite <- A4. destruct (nth_error (p_ctls w) r) as [k|] eqn:F; [|split; auto].
    split; [reflexivity|]. split; cbn; auto.
    + rewrite !set_at_length; auto.
    + rewrite !set_at_same; auto; apply nth_error_Some; congruence.
Qed.

(** An operation that does not, leaves it alike: if module [i] alone has controller [r]... *)
Lemma pstep_other_own {X P} i r (o : pool_op X P) w :
  only_user i r (map fst (p_users w)) -> concerns i (Some r) o = false -> alikep i r w (snd (pool_step o w)).
Proof.
  intros U C. destruct o as [gen jac initial|m q|j o|q x dt]; cbn in C; try discriminate;
    apply Nat.eqb_neq in C; cbn [pool_step].
  - destruct (nth_error (p_users w) j) as [[q m]|] eqn:E; [|apply alikep_refl].
    destruct (nth_error (p_ctls w) q) as [k|] eqn:F; [|apply alikep_refl].
    destruct (use o m k) as [ob [m' c']].
    assert (N : q <> r) by (intros ->; apply C, U; rewrite nth_map, E; reflexivity).
    split; cbn.
    + symmetry; apply set_at_map. intros b H. rewrite E in H; injection H as <-; auto.
    + rewrite set_at_other; auto.
    + rewrite set_at_length; auto.
    + rewrite set_at_other; auto.
  - destruct (nth_error (p_ctls w) q) as [k|] eqn:F; [|apply alikep_refl].
    split; cbn; auto; [rewrite set_at_length|rewrite set_at_other]; auto.
Qed.

(** ... or if the controllers have no state. *)
Definition all_idle {X P} (w : pool X P) : Prop := Forall (fun k => k_ctl k = no_ctl /\ stateless (k_gen k)) (p_ctls w).
Lemma set_at_id {A} i (a : A) l : nth_error l i = Some a -> set_at i a l = l.
Proof. revert i; induction l as [|b l IH]; intros [|i] H; cbn in *; try discriminate; [congruence|rewrite IH; auto]. Qed.
Lemma idle_pool_use {X P} (w : pool X P) r k (o : op X P) m :
  all_idle w -> nth_error (p_ctls w) r = Some k -> set_k_ctl (snd (snd (use o m k))) k = k.
Proof.
  intros A E. pose proof (proj1 (Forall_forall _ _) A k (nth_error_In _ _ E)) as [K1 K2].
  destruct k as [gen jac c]; cbn in K1, K2; subst c. unfold set_k_ctl; cbn [k_gen k_jac]. rewrite idle_use; auto.
Qed.
Lemma idle_pool_ask {X P} (w : pool X P) r k x dt :
  all_idle w -> nth_error (p_ctls w) r = Some k -> set_k_ctl (snd (generate_control (k_gen k) x dt (k_ctl k))) k = k.
Proof.
  intros A E. pose proof (proj1 (Forall_forall _ _) A k (nth_error_In _ _ E)) as [K1 K2].
  destruct k as [gen jac c]; cbn in K1, K2; subst c. unfold set_k_ctl; cbn [k_gen k_jac k_ctl].
  rewrite (idle_generate gen K2 x dt no_ctl eq_refl); auto.
Qed.
Lemma idle_pool_step {X P} (o : pool_op X P) w : all_idle w -> builds_stateless o ->
  p_ctls (snd (pool_step o w)) = p_ctls w ++ match o with NewController gen jac _ => [mkController gen jac no_ctl] | _ => [] end /\
  all_idle (snd (pool_step o w)).
Proof.
  intros A B. assert (G : forall w' : pool X P, p_ctls w' = p_ctls w -> all_idle w') by (unfold all_idle; intros ? ->; exact A).
  destruct o as [gen jac initial|m q|j o|q x dt]; cbn [pool_step]; rewrite ?app_nil_r; auto.
  - destruct B as [-> B]. cbn. split; auto. unfold all_idle; cbn. apply Forall_app; split; auto.
  - destruct (nth_error (p_users w) j) as [[q m]|] eqn:E; auto.
    destruct (nth_error (p_ctls w) q) as [k|] eqn:F; auto.
    pose proof (idle_pool_use w q k o m A F) as K. destruct (use o m k) as [ob [m' c']]. cbn in K |- *.
    rewrite K, (set_at_id _ _ _ F); split; auto.
  - destruct (nth_error (p_ctls w) q) as [k|] eqn:F; auto. cbn [snd p_ctls].
    rewrite (idle_pool_ask w q k x dt A F), (set_at_id _ _ _ F); split; auto.
Qed.
Lemma pstep_other_idle {X P} i r (o : pool_op X P) w :
  all_idle w -> builds_stateless o -> concerns i None o = false -> alikep i r w (snd (pool_step o w)).
Proof.
  intros A B C. destruct (idle_pool_step o w A B) as [H _].
  pose proof (pstep_refs o w) as Rf.
  destruct o as [gen jac initial|m q|j o|q x dt]; cbn in C; try discriminate; rewrite app_nil_r in H;
    cbn in Rf; rewrite app_nil_r in Rf; split; auto; try (rewrite H; reflexivity).
  - cbn. destruct (nth_error (p_users w) j) as [[q m]|] eqn:E; auto.
    destruct (nth_error (p_ctls w) q) as [k|] eqn:F; auto. destruct (use o m k) as [ob [m' c']]. cbn.
    rewrite set_at_other; auto. apply Nat.eqb_neq; auto.
  - cbn. destruct (nth_error (p_ctls w) q); reflexivity.
Qed.

Lemma prun_cons {X P} (o : pool_op X P) os w :
  snd (pool_run (o :: os) w) = snd (pool_run os (snd (pool_step o w))) /\
  forall i, seen i (fst (pool_run (o :: os) w)) =
    (match fst (pool_step o w), o with Some a, Use j _ => if Nat.eqb j i then [a] else [] | _, _ => [] end) ++
    seen i (fst (pool_run os (snd (pool_step o w)))).
Proof.
  cbn. destruct (pool_step o w) as [r w1]; cbn. destruct (pool_run os w1) as [rs w2]; cbn. split; auto.
  intros i. destruct r; [destruct o|]; auto. unfold seen; cbn. destruct (Nat.eqb i0 i); auto.
Qed.
Lemma psilent {X P} i asking (o : pool_op X P) w : concerns i asking o = false ->
  match fst (pool_step o w), o with Some a, Use j _ => if Nat.eqb j i then [a] else [] | _, _ => [] end = [].
Proof.
  intros C. destruct o as [gen jac initial|m q|j o|q x dt]; cbn in C; try discriminate.
  - destruct (fst _); auto. rewrite C; auto.
  - destruct (fst _); auto.
Qed.

(** Dropping what does not concern module [i] makes no difference to it. *)
Lemma pinterference {X P} i r asking (Inv : list (pool_op X P) -> pool X P -> Prop) :
  (forall q, asking = Some q -> q = r) ->
  (forall o os w, Inv (o :: os) w -> Inv os (snd (pool_step o w)) /\
     (forall q m, nth_error (p_users w) i = Some (q, m) -> q = r) /\
     (concerns i asking o = false -> alikep i r w (snd (pool_step o w)))) ->
  forall os w w', Inv os w -> alikep i r w w' ->
  seen i (fst (pool_run os w)) = seen i (fst (pool_run (filter (concerns i asking) os) w')) /\
  alikep i r (snd (pool_run os w)) (snd (pool_run (filter (concerns i asking) os) w')).
Proof.
  intros Q Step. induction os as [|o os IH]; intros w w' I A; [split; auto|].
  destruct (Step o os w I) as (I' & U & O). destruct (prun_cons o os w) as [R1 R2]. rewrite R1, R2.
  cbn [filter]. destruct (concerns i asking o) eqn:C.
  - destruct (pstep_same i r asking o w w' U Q A C) as [S1 S2].
    destruct (prun_cons o (filter (concerns i asking) os) w') as [R3 R4]. rewrite R3, R4, <- S1.
    destruct (IH _ _ I' S2) as [H1 H2]. rewrite H1. auto.
  - rewrite (psilent i asking o w C). cbn [app]. apply IH; auto.
    eapply alikep_trans; [apply alikep_sym; auto|exact A].
Qed.
