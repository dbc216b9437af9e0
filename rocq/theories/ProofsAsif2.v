(** Calls of ASIF modules: invariants over histories, and the explicit call. *)
From Coq Require Import String Reals List Bool ZArith Lia Lra.
From Verif Require Import Prelude Vec ModelBase ModelController ModelSimplex ModelAsif
  SpecCore SpecHistory SpecAsif ProofsBase ProofsVec ProofsHistory ProofsAsif.
Import ListNotations.
Local Open Scope R_scope.

(** ** What a call leaves alone *)

Definition kept {X P Z} (s s' : amod X P Z) : Prop :=
  enable s' = enable s /\ control_desired s' = control_desired s /\ control_actual s' = control_actual s /\
  cb_constraints (ext s') = cb_constraints (ext s) /\ cb_values (ext s') = cb_values (ext s) /\
  cb_stale (ext s') = cb_stale (ext s) /\
  as_num_slack (get_asif s') = as_num_slack (get_asif s) /\ as_weight (get_asif s') = as_weight (get_asif s) /\
  as_act_rows (get_asif s') = as_act_rows (get_asif s) /\
  as_act_consts (get_asif s') = as_act_consts (get_asif s) /\
  as_direct (get_asif s') = as_direct (get_asif s).

Lemma kept_refl {X P Z} (s : amod X P Z) : kept s s.
Proof. unfold kept; repeat split. Qed.
Lemma kept_trans {X P Z} (s1 s2 s3 : amod X P Z) : kept s1 s2 -> kept s2 s3 -> kept s1 s3.
Proof. unfold kept; intros A B; decompose [and] A; decompose [and] B; repeat split; congruence. Qed.

Definition keeps {X P Z A} (m : M (amod X P Z) A) : Prop := forall s r s', m s = (r, s') -> kept s s'.

Lemma keeps_bind {X P Z A B} (m : M (amod X P Z) A) (f : A -> M (amod X P Z) B) :
  keeps m -> (forall a, keeps (f a)) -> keeps (bind m f).
Proof.
  intros Hm Hf s r s' H; unfold bind in H; destruct (m s) as [[a|e] s1] eqn:E.
  - eapply kept_trans; [eapply Hm; eauto|eapply Hf; eauto].
  - inversion H; subst; eapply Hm; eauto.
Qed.
Lemma keeps_ret {X P Z A} (a : A) : keeps (X:=X) (P:=P) (Z:=Z) (ret a).
Proof. intros s r s' H; inversion H; subst; apply kept_refl. Qed.
Lemma keeps_raise {X P Z A} e : keeps (X:=X) (P:=P) (Z:=Z) (A:=A) (raise e).
Proof. intros s r s' H; inversion H; subst; apply kept_refl. Qed.
Lemma keeps_lift {X P Z A} (a : res A) : keeps (X:=X) (P:=P) (Z:=Z) (lift a).
Proof. intros s r s' H; inversion H; subst; apply kept_refl. Qed.
Lemma keeps_get {X P Z} : keeps (X:=X) (P:=P) (Z:=Z) get.
Proof. intros s r s' H; inversion H; subst; apply kept_refl. Qed.
Lemma keeps_modify {X P Z} (f : amod X P Z -> amod X P Z) : (forall s, kept s (f s)) -> keeps (modify f).
Proof. intros H s r s' E; inversion E; subst; auto. Qed.

Lemma kept_update_direct {X P Z} (s : amod X P Z) : kept s (on_asif update_direct s).
Proof. unfold kept; repeat split. Qed.
Lemma kept_causes {X P Z} l (s : amod X P Z) : kept s (on_asif (set_causes l) s).
Proof. unfold kept; repeat split. Qed.
Lemma kept_warn {X P Z} (s : amod X P Z) : kept s (on_asif warn s).
Proof. unfold kept; repeat split. Qed.
Lemma kept_names {X P Z} l (s : amod X P Z) : kept s (on_asif (set_names l) s).
Proof. unfold kept; repeat split. Qed.
Lemma kept_ext {X P Z} z (s : amod X P Z) : kept s (on_asif (set_as_ext z) s).
Proof. unfold kept; repeat split. Qed.
Lemma kept_intervening {X P Z} b (s : amod X P Z) : kept s (set_intervening b s).
Proof. unfold kept; repeat split. Qed.

Lemma keeps_record_causes {X P Z} iact : keeps (X:=X) (P:=P) (Z:=Z) (record_causes iact).
Proof.
  induction iact as [|i iact IH]; simpl; [apply keeps_ret|].
  apply keeps_bind; [apply keeps_get|intros s0].
  apply keeps_bind; [apply keeps_lift|intros key].
  apply keeps_bind; [|auto].
  destruct (existsb _ _); [apply keeps_ret|apply keeps_modify; intros; apply kept_causes].
Qed.
Lemma keeps_optimize {X P Z} (cfg : asif_cfg X) u rows consts :
  keeps (X:=X) (P:=P) (Z:=Z) (optimize cfg u rows consts).
Proof.
  unfold optimize; apply keeps_bind; [apply keeps_get|intros s0].
  destruct (ac_solve cfg _ _ _ _) as [[z iact]|e].
  - apply keeps_bind; [apply keeps_modify; intros; apply kept_causes|intros _].
    apply keeps_bind; [apply keeps_record_causes|intros _; apply keeps_ret].
  - destruct e; try apply keeps_raise.
    destruct (String.eqb msg msg_inconsistent); [|apply keeps_raise].
    destruct (ac_exc cfg); [apply keeps_raise|].
    apply keeps_bind; [apply keeps_modify; intros; apply kept_warn|intros _; apply keeps_ret].
Qed.
Lemma keeps_filter {X P Z} (cfg : asif_cfg X) bm x dt u :
  (forall x dt, keeps (X:=X) (P:=P) (Z:=Z) (bm x dt)) -> keeps (asif_filter cfg bm x dt u).
Proof.
  intros HB; unfold asif_filter.
  apply keeps_bind; [apply keeps_modify; intros; apply kept_update_direct|intros _].
  apply keeps_bind; [apply HB|intros rc].
  apply keeps_bind.
  { unfold update_ineq_mats; apply keeps_bind; [apply keeps_get|intros s0].
    apply keeps_bind; [apply keeps_lift|intros d; apply keeps_ret]. }
  intros rc'; apply keeps_bind; [apply keeps_optimize|intros v].
  apply keeps_bind; [apply keeps_lift|intros b].
  apply keeps_bind; [apply keeps_modify; intros; apply kept_intervening|intros _; apply keeps_ret].
Qed.
Lemma keeps_explicit_mats {X P Z} (cfg : asif_cfg X) x dt : keeps (X:=X) (P:=P) (Z:=Z) (explicit_mats cfg x dt).
Proof.
  unfold explicit_mats; apply keeps_bind; [apply keeps_get|intros s].
  apply keeps_bind; [apply keeps_lift|intros rc; apply keeps_ret].
Qed.
Lemma keeps_on_actl {X P A} (m : M ctl A) : keeps (X:=X) (P:=P) (on_actl m).
Proof.
  intros s r s' H; unfold on_actl, zoom in H.
  destruct (m (as_ext (get_asif s))) as [r1 c]; inversion H; subst; apply kept_ext.
Qed.
Lemma keeps_implicit_mats {X P} (cfg : asif_cfg X) ic x dt : keeps (X:=X) (P:=P) (implicit_mats cfg ic x dt).
Proof.
  unfold implicit_mats; apply keeps_bind; [apply keeps_lift|intros q].
  apply keeps_bind; [apply keeps_on_actl|intros traj].
  apply keeps_bind; [|intros rc].
  { unfold implicit_ineq_mats; apply keeps_bind; [apply keeps_get|intros s].
    apply keeps_bind; [apply keeps_lift|intros bl].
    apply keeps_bind; [apply keeps_lift|intros rc; apply keeps_ret]. }
  apply keeps_bind; [apply keeps_modify; intros; apply kept_names|intros _; apply keeps_ret].
Qed.

Lemma keeps_framed {X P Z} (flt : X -> R -> vec -> M (amod X P Z) vec) :
  (forall x dt u, keeps (flt x dt u)) -> framed flt.
Proof.
  intros H x dt u s r s' E; specialize (H _ _ _ _ _ _ E); unfold kept in H; decompose [and] H; auto 10.
Qed.

(** ** The invariant over histories *)

Definition keys_and_slack {X P} (cs : dict (constraint X P)) : list (string * option R) :=
  map (fun kc => (fst kc, c_slack (snd kc))) cs.

Definition same_form {X P Z} (s s' : amod X P Z) : Prop :=
  keys_and_slack (cb_constraints (ext s')) = keys_and_slack (cb_constraints (ext s)) /\
  map fst (as_direct (get_asif s')) = map fst (as_direct (get_asif s)) /\
  as_num_slack (get_asif s') = as_num_slack (get_asif s) /\ as_weight (get_asif s') = as_weight (get_asif s) /\
  as_act_rows (get_asif s') = as_act_rows (get_asif s) /\
  as_act_consts (get_asif s') = as_act_consts (get_asif s).

Lemma same_form_refl {X P Z} (s : amod X P Z) : same_form s s.
Proof. unfold same_form; auto 10. Qed.
Lemma same_form_trans {X P Z} (s1 s2 s3 : amod X P Z) : same_form s1 s2 -> same_form s2 s3 -> same_form s1 s3.
Proof. unfold same_form; intros A B; decompose [and] A; decompose [and] B; repeat split; congruence. Qed.
Lemma kept_same_form {X P Z} (s s' : amod X P Z) : kept s s' -> same_form s s'.
Proof. unfold kept, same_form; intros H; decompose [and] H; repeat split; congruence. Qed.

Lemma keys_and_slack_assign {X P} o (cs : dict (constraint X P)) :
  keys_and_slack (map (assign o) cs) = keys_and_slack cs.
Proof.
  unfold keys_and_slack; rewrite map_map; apply map_ext; intros [k c]; destruct o; simpl; auto;
    match goal with |- context [String.eqb ?a ?b] => destruct (String.eqb a b) end; auto.
Qed.

(** A reset that leaves the ASIF attributes alone. *)
Definition reset_form {X P Z} (rst : M (amod X P Z) unit) : Prop :=
  forall s r s', rst s = (r, s') -> same_form s s'.

Section Histories.
Context {X P Z : Type} (cfg : asif_cfg X) (flt : X -> R -> vec -> M (amod X P Z) vec)
        (rst : M (amod X P Z) unit).
Hypothesis HK : forall x dt u, keeps (flt x dt u).
Hypothesis HR : reset_form rst.

Notation call := (filter_control (ac_bounds cfg) (cb_compute base_get_state flt)).

Lemma call_kept i dt u s r s' : call i dt u s = (r, s') ->
  enable s' = enable s /\ same_form s s' /\ cb_constraints (ext s') = cb_constraints (ext s) /\
  as_direct (get_asif s') = as_direct (get_asif s).
Proof.
  change call with (gfilter (ac_bounds cfg) flt); intros H.
  destruct (enable s) eqn:En.
  - destruct i as [x|].
    + rewrite gfilter_array in H by auto.
      destruct (flt x dt u (prep x u s)) as [r1 s1] eqn:Ef.
      apply HK in Ef; pose proof (kept_same_form _ _ Ef) as F.
      unfold kept in Ef; decompose [and] Ef.
      assert (Q : same_form s s1) by exact F.
      destruct r1 as [v|e]; [destruct (clip (ac_bounds cfg) v)|]; inversion H; subst; simpl in *;
        (split; [congruence|split; [exact Q|split; assumption]]).
    + rewrite gfilter_other in H by auto; inversion H; subst; repeat split; auto.
  - rewrite gfilter_disabled in H by auto; inversion H; subst; repeat split; auto.
Qed.

Lemma step_form o s seen s' : asif_step call rst o s = (seen, s') -> same_form s s'.
Proof.
  destruct o as [o|k p|k b]; simpl.
  - destruct o as [i dt u| |en|i|k p|k e]; simpl.
    + destruct (call i dt u s) as [r s1] eqn:E; intros H; inversion H; subst.
      apply (call_kept _ _ _ _ _ _ E).
    + destruct (rst s) as [r s1] eqn:E; intros H; inversion H; subst; eapply HR; eauto.
    + intros H; inversion H; subst; unfold same_form; repeat split.
    + destruct i; intros H; inversion H; subst; unfold same_form; repeat split.
    + intros H; inversion H; subst; unfold same_form; simpl; repeat split.
      apply (keys_and_slack_assign (OSetParams k p)).
    + intros H; inversion H; subst; unfold same_form; simpl; repeat split.
      apply (keys_and_slack_assign (OSetEnabled k e)).
  - intros H; inversion H; subst; unfold same_form; simpl; repeat split.
    rewrite map_map; apply map_ext; intros [k' d]; simpl; destruct (String.eqb k k'); auto.
  - intros H; inversion H; subst; unfold same_form; simpl; repeat split.
    rewrite map_map; apply map_ext; intros [k' d]; simpl; destruct (String.eqb k k'); auto.
Qed.

Lemma run_form os : forall s seen s', asif_run call rst os s = (seen, s') -> same_form s s'.
Proof.
  induction os as [|o os IH]; simpl; intros s seen s' H; [inversion H; subst; apply same_form_refl|].
  destruct (asif_step call rst o s) as [b s1] eqn:E1.
  destruct (asif_run call rst os s1) as [bs s2] eqn:E2; inversion H; subst.
  eapply same_form_trans; [eapply step_form; eauto|eauto].
Qed.
End Histories.

(** The facts about a module that every call relies on. *)
Record wired {X P Z} (cfg : asif_cfg X) (s : amod X P Z) : Prop := mkWired {
  wi_slack : as_num_slack (get_asif s) = slack_count (asif_constraints s);
  wi_weight : as_weight (get_asif s) = obj_weight (ac_dim cfg) (scales (asif_constraints s));
  wi_act : exists names, actuation_mats (ac_bounds cfg) (ac_dim cfg) (slack_count (asif_constraints s))
             = Ok (as_act_rows (get_asif s), as_act_consts (get_asif s), names);
  wi_keys : distinct_keys (asif_constraints s);
  wi_dkeys : distinct_keys (asif_directs s) }.

Lemma keys_and_slack_scales {X P} (cs cs' : dict (constraint X P)) :
  keys_and_slack cs = keys_and_slack cs' -> scales cs = scales cs' /\ map fst cs = map fst cs'.
Proof.
  revert cs'; induction cs as [|[k c] cs IH]; intros [|[k' c'] cs'] H; simpl in *; try discriminate; auto.
  inversion H as [[H1 H2 H3]]; destruct (IH _ H3) as [-> ->]; subst; rewrite H2; auto.
Qed.

Lemma wired_form {X P Z} (cfg : asif_cfg X) (s s' : amod X P Z) :
  wired cfg s -> same_form s s' -> wired cfg s'.
Proof.
  intros [W1 W2 [nm W3] W4 W5] (F1 & F2 & F3 & F4 & F5 & F6).
  destruct (keys_and_slack_scales _ _ F1) as [S K].
  assert (C : slack_count (asif_constraints s') = slack_count (asif_constraints s))
    by (rewrite <- !scales_count; f_equal; exact S).
  constructor.
  - rewrite F3, C; auto.
  - unfold asif_constraints in *; rewrite F4, S; auto.
  - exists nm; rewrite C, F5, F6; auto.
  - unfold distinct_keys, asif_constraints in *; rewrite K; auto.
  - unfold distinct_keys, asif_directs in *; rewrite F2; auto.
Qed.

Lemma asif_init_inv {X P Z} (cfg : asif_cfg X) defined to_use directs (z : Z) (s : amod X P Z) :
  asif_init cfg defined to_use directs z = Ok s ->
  exists cs names, select_constraints defined to_use = Ok cs /\
    actuation_mats (ac_bounds cfg) (ac_dim cfg) (slack_count cs)
      = Ok (as_act_rows (get_asif s), as_act_consts (get_asif s), names) /\
    asif_constraints s = cs /\ asif_directs s = directs /\
    as_num_slack (get_asif s) = slack_count cs /\
    as_weight (get_asif s) = obj_weight (ac_dim cfg) (scales cs) /\
    as_names (get_asif s) = names ++ dict_keys cs ++ dict_keys directs /\
    causes s = None /\ warnings s = 0%nat /\ as_ext (get_asif s) = z /\
    enable s = true /\ intervening s = false /\ control_desired s = None /\ control_actual s = None /\
    cb_values (ext s) = [] /\ cb_stale (ext s) = false.
Proof.
  unfold asif_init; destruct (select_constraints defined to_use) as [cs|e] eqn:Es; [|discriminate].
  cbn [rbind]; rewrite slack_scales_scales, scales_count.
  destruct (actuation_mats _ _ _) as [[[rows consts] names]|e] eqn:Ea; [|discriminate].
  cbn [rbind]; unfold cb_init; rewrite Es; cbn [rbind].
  intros H; inversion H; subst; clear H.
  exists cs, names; repeat split; auto.
Qed.

Lemma select_distinct {X P} (defined : dict (constraint X P)) to_use cs :
  distinct_keys defined -> select_constraints defined to_use = Ok cs -> distinct_keys cs.
Proof.
  intros D H; destruct to_use as [names|]; [|inversion H; subst; auto].
  unfold select_constraints in H.
  destruct (Nat.eqb _ 0); [discriminate|]; inversion H; subst.
  unfold distinct_keys; eapply subsequence_NoDup; [|exact D].
  apply subsequence_keys, filter_subsequence.
Qed.

Lemma wired_init {X P Z} (cfg : asif_cfg X) defined to_use directs (z : Z) (s : amod X P Z) :
  distinct_keys defined -> distinct_keys directs ->
  asif_init cfg defined to_use directs z = Ok s -> wired cfg s.
Proof.
  intros D1 D2 H; destruct (asif_init_inv _ _ _ _ _ _ H)
    as (cs & names & Es & Ea & E1 & E2 & E3 & E4 & E5 & _).
  constructor; rewrite ?E1, ?E2; auto.
  - eauto.
  - eapply select_distinct; eauto.
Qed.

Lemma explicit_reset_form {X P} : reset_form (explicit_asif_reset (X:=X) (P:=P)).
Proof. intros s r s' H; inversion H; subst; unfold same_form; repeat split. Qed.
Lemma implicit_reset_form {X P} : reset_form (implicit_asif_reset (X:=X) (P:=P)).
Proof.
  intros s r s' H; unfold implicit_asif_reset, bind, modify in H.
  apply keeps_on_actl in H; apply kept_same_form in H.
  eapply same_form_trans; [|exact H]; unfold same_form; repeat split.
Qed.

Lemma explicit_reached_wired {X P} (cfg : asif_cfg X) (s : amod X P unit) :
  explicit_reached cfg s -> wired cfg s.
Proof.
  intros (defined & to_use & directs & s0 & os & seen & D1 & D2 & H0 & HR).
  eapply wired_form; [eapply wired_init; [exact D1|exact D2|exact H0]|].
  refine (run_form cfg (asif_filter cfg (explicit_mats cfg)) explicit_asif_reset _ explicit_reset_form _ _ _ _ HR).
  intros; apply keeps_filter; intros; apply keeps_explicit_mats.
Qed.

Lemma implicit_reached_wired {X P} (cfg : asif_cfg X) ic (s : amod X P ctl) :
  implicit_reached cfg ic s -> wired cfg s.
Proof.
  intros (defined & to_use & directs & initial & s0 & os & seen & D1 & D2 & H0 & HR).
  unfold implicit_asif_init in H0; destruct (ctl_init initial) as [c|e]; [|discriminate]; cbn [rbind] in H0.
  eapply wired_form; [eapply wired_init; [exact D1|exact D2|exact H0]|].
  refine (run_form cfg (asif_filter cfg (implicit_mats cfg ic)) implicit_asif_reset _ implicit_reset_form _ _ _ _ HR).
  intros; apply keeps_filter; intros; apply keeps_implicit_mats.
Qed.

(** *** Names in explicit modules *)

Definition keeps_names {X P Z A} (m : M (amod X P Z) A) : Prop :=
  forall s r s', m s = (r, s') -> as_names (get_asif s') = as_names (get_asif s).
Lemma kn_bind {X P Z A B} (m : M (amod X P Z) A) (f : A -> M (amod X P Z) B) :
  keeps_names m -> (forall a, keeps_names (f a)) -> keeps_names (bind m f).
Proof.
  intros Hm Hf s r s' H; unfold bind in H; destruct (m s) as [[a|e] s1] eqn:E.
  - rewrite (Hf _ _ _ _ H); eapply Hm; eauto.
  - inversion H; subst; eapply Hm; eauto.
Qed.
Lemma kn_ret {X P Z A} (a : A) : keeps_names (X:=X) (P:=P) (Z:=Z) (ret a).
Proof. intros s r s' H; inversion H; auto. Qed.
Lemma kn_raise {X P Z A} e : keeps_names (X:=X) (P:=P) (Z:=Z) (A:=A) (raise e).
Proof. intros s r s' H; inversion H; auto. Qed.
Lemma kn_lift {X P Z A} (a : res A) : keeps_names (X:=X) (P:=P) (Z:=Z) (lift a).
Proof. intros s r s' H; inversion H; auto. Qed.
Lemma kn_get {X P Z} : keeps_names (X:=X) (P:=P) (Z:=Z) get.
Proof. intros s r s' H; inversion H; auto. Qed.
Lemma kn_modify {X P Z} (f : amod X P Z -> amod X P Z) :
  (forall s, as_names (get_asif (f s)) = as_names (get_asif s)) -> keeps_names (modify f).
Proof. intros H s r s' E; inversion E; subst; auto. Qed.
Lemma kn_record_causes {X P Z} iact : keeps_names (X:=X) (P:=P) (Z:=Z) (record_causes iact).
Proof.
  induction iact as [|i iact IH]; simpl; [apply kn_ret|].
  apply kn_bind; [apply kn_get|intros s0].
  apply kn_bind; [apply kn_lift|intros key].
  apply kn_bind; [|auto].
  destruct (existsb _ _); [apply kn_ret|apply kn_modify; auto].
Qed.
Lemma kn_explicit_filter {X P Z} (cfg : asif_cfg X) x dt u :
  keeps_names (X:=X) (P:=P) (Z:=Z) (asif_filter cfg (explicit_mats cfg) x dt u).
Proof.
  unfold asif_filter.
  apply kn_bind; [apply kn_modify; auto|intros _].
  apply kn_bind; [|intros rc].
  { unfold explicit_mats; apply kn_bind; [apply kn_get|intros s].
    apply kn_bind; [apply kn_lift|intros rc; apply kn_ret]. }
  apply kn_bind; [|intros rc'].
  { unfold update_ineq_mats; apply kn_bind; [apply kn_get|intros s0].
    apply kn_bind; [apply kn_lift|intros d; apply kn_ret]. }
  apply kn_bind; [|intros v].
  { unfold optimize; apply kn_bind; [apply kn_get|intros s0].
    destruct (ac_solve cfg _ _ _ _) as [[z iact]|e].
    - apply kn_bind; [apply kn_modify; auto|intros _].
      apply kn_bind; [apply kn_record_causes|intros _; apply kn_ret].
    - destruct e; try apply kn_raise.
      destruct (String.eqb msg msg_inconsistent); [|apply kn_raise].
      destruct (ac_exc cfg); [apply kn_raise|].
      apply kn_bind; [apply kn_modify; auto|intros _; apply kn_ret]. }
  apply kn_bind; [apply kn_lift|intros b].
  apply kn_bind; [apply kn_modify; auto|intros _; apply kn_ret].
Qed.

Section Names.
Context {X P Z : Type} (cfg : asif_cfg X) (flt : X -> R -> vec -> M (amod X P Z) vec)
        (rst : M (amod X P Z) unit).
Hypothesis HK : forall x dt u, keeps_names (flt x dt u).
Hypothesis HR : keeps_names rst.
Notation call := (filter_control (ac_bounds cfg) (cb_compute base_get_state flt)).

Lemma call_names i dt u s r s' : call i dt u s = (r, s') -> as_names (get_asif s') = as_names (get_asif s).
Proof.
  change call with (gfilter (ac_bounds cfg) flt); intros H.
  destruct (enable s) eqn:En.
  - destruct i as [x|].
    + rewrite gfilter_array in H by auto.
      destruct (flt x dt u (prep x u s)) as [r1 s1] eqn:Ef; apply HK in Ef.
      destruct r1 as [v|e]; [destruct (clip (ac_bounds cfg) v)|]; inversion H; subst; simpl; auto.
    + rewrite gfilter_other in H by auto; inversion H; subst; auto.
  - rewrite gfilter_disabled in H by auto; inversion H; subst; auto.
Qed.

Lemma run_names os : forall s seen s', asif_run call rst os s = (seen, s') ->
  as_names (get_asif s') = as_names (get_asif s).
Proof.
  induction os as [|o os IH]; simpl; intros s seen s' H; [inversion H; subst; auto|].
  destruct (asif_step call rst o s) as [b s1] eqn:E1.
  destruct (asif_run call rst os s1) as [bs s2] eqn:E2; inversion H; subst.
  rewrite (IH _ _ _ E2).
  destruct o as [o|k p|k e]; simpl in E1; try (inversion E1; subst; auto; fail).
  destruct o as [i dt u| |en|i|k p|k e]; simpl in E1; try (inversion E1; subst; auto; fail).
  - destruct (call i dt u s) as [r s3] eqn:E; inversion E1; subst; eapply call_names; eauto.
  - destruct (rst s) as [r s3] eqn:E; inversion E1; subst; eapply HR; eauto.
  - destruct i; inversion E1; subst; auto.
Qed.
End Names.

Lemma map_demand_names_barrier {X P} dim f g (x : X) (cs : dict (constraint X P)) : forall j,
  map dm_name (barrier_demands dim f g x j cs) = dict_keys cs.
Proof. induction cs as [|[k c] cs IH]; intros j; simpl; auto; rewrite IH; auto. Qed.
Lemma map_demand_names_direct {X P} dim (x : X) (ds : dict (direct X P)) :
  map dm_name (direct_demands dim x ds) = dict_keys ds.
Proof. unfold direct_demands; rewrite map_map; reflexivity. Qed.

Lemma explicit_reached_names {X P} (cfg : asif_cfg X) (s : amod X P unit) x :
  fits (ac_bounds cfg) (ac_dim cfg) -> explicit_reached cfg s ->
  as_names (get_asif s) =
  map dm_name (explicit_demands (ac_bounds cfg) (ac_dim cfg) (ac_f cfg) (ac_g cfg)
                 (asif_constraints s) (asif_directs s) x).
Proof.
  intros F (defined & to_use & directs & s0 & os & seen & D1 & D2 & H0 & HR).
  assert (SF : same_form s0 s).
  { refine (run_form cfg (asif_filter cfg (explicit_mats cfg)) explicit_asif_reset _ explicit_reset_form _ _ _ _ HR).
    intros; apply keeps_filter; intros; apply keeps_explicit_mats. }
  assert (N : as_names (get_asif s) = as_names (get_asif s0)).
  { refine (run_names cfg (asif_filter cfg (explicit_mats cfg)) explicit_asif_reset _ _ _ _ _ _ HR).
    - intros; apply kn_explicit_filter.
    - apply kn_modify; auto. }
  destruct (asif_init_inv _ _ _ _ _ _ H0) as (cs & names & _ & Ea & Ec & Ed & _ & _ & En & _).
  destruct (actuation_mats_ok (ac_bounds cfg) (ac_dim cfg) (slack_count cs) F)
    as (rows & consts & names' & Ea' & _ & En' & _).
  rewrite Ea in Ea'; injection Ea' as _ _ EN.
  destruct SF as (F1 & F2 & _); destruct (keys_and_slack_scales _ _ F1) as [_ K].
  unfold explicit_demands; rewrite app_assoc, !map_app, map_demand_names_barrier, map_demand_names_direct.
  rewrite N, En, EN, En', map_app; unfold dict_keys, asif_constraints, asif_directs in *.
  rewrite K, F2, Ec, Ed; auto.
Qed.

(** ** The inequality system of an explicit call *)

Lemma prep_update {X P Z} (x : X) u (s : amod X P Z) :
  cb_constraints (ext (prep x u s)) = asif_constraints s /\
  get_asif (prep x u s) = get_asif s /\ enable (prep x u s) = enable s /\
  control_desired (prep x u s) = Some u /\ control_actual (prep x u s) = control_actual s.
Proof. repeat split. Qed.

Lemma prep_params {X P Z} (x : X) u (s : amod X P Z) k c :
  distinct_keys (asif_constraints s) -> In (k, c) (asif_constraints s) ->
  dict_get (cb_params (ext (prep x u s))) k = Ok (c_params c) /\
  dict_get (cb_enabled (ext (prep x u s))) k = Ok (c_enabled c).
Proof.
  intros D H; split.
  - apply (update_params_params (ext (set_desired (Some u) s)) k c); auto.
  - apply (update_params_enabled (ext (set_desired (Some u) s)) k c); auto.
Qed.

Lemma update_direct_params {X P Z} (y : asif X P Z) k d :
  distinct_keys (as_direct y) -> In (k, d) (as_direct y) ->
  dict_get (as_dparams (update_direct y)) k = Ok (d_params d) /\
  dict_get (as_denabled (update_direct y)) k = Ok (d_enabled d).
Proof.
  intros D H; split; simpl.
  - apply (fold_set_in (fun kc : string * direct X P => d_params (snd kc)) (as_direct y) _ k d D H).
  - apply (fold_set_in (fun kc : string * direct X P => d_enabled (snd kc)) (as_direct y) _ k d D H).
Qed.
