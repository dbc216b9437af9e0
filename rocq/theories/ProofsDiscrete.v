(** Proofs about the discrete ASIF module. *)
From Coq Require Import String Reals List Bool ZArith Lia Lra.
From Verif Require Import Prelude Vec ModelBase ModelController ModelSimplex ModelAsif ModelDiscrete
  SpecCore SpecHistory SpecAsif SpecDiscrete ProofsBase ProofsHistory ProofsSim ProofsVec ProofsAsif ProofsAsif2 ProofsAsif3 ProofsAsif4 ProofsAsif5.
Import ListNotations.
Local Open Scope R_scope.
Local Open Scope monad_scope.

(** ** The frame *)

(** Everything that disc_filter leaves alone. *)
Definition dkept {X P} (s s' : dmod X P) : Prop :=
  enable s' = enable s /\ control_desired s' = control_desired s /\
  control_actual s' = control_actual s /\
  cb_constraints (ext s') = cb_constraints (ext s) /\
  cb_values (ext s') = cb_values (ext s) /\ cb_stale (ext s') = cb_stale (ext s) /\
  cb_params (ext s') = cb_params (ext s) /\ cb_enabled (ext s') = cb_enabled (ext s) /\
  ds_num_slack (cb_ext (ext s')) = ds_num_slack (cb_ext (ext s)) /\
  ds_weight (cb_ext (ext s')) = ds_weight (cb_ext (ext s)) /\
  ds_opt_bounds (cb_ext (ext s')) = ds_opt_bounds (cb_ext (ext s)) /\
  ds_slack_idx (cb_ext (ext s')) = ds_slack_idx (cb_ext (ext s)).

Lemma dkept_refl {X P} (s : dmod X P) : dkept s s.
Proof. unfold dkept; auto 20. Qed.

(** disc_filter, by the solver's answer. *)
Definition disc_asks {X P} (cfg : disc_cfg X) (s : dmod X P) (x : X) (dt : R) (u : vec)
    (lims : list (option R * option R)) : res (bool * vec) :=
  let y := cb_ext (ext s) in
  let desired := u ++ zeros (ds_num_slack y) in
  dc_solve cfg (disc_obj (ds_weight y) desired) desired
    (enabled_cbfs cfg (map snd (cb_constraints (ext s))) (ds_slack_idx y)
                (map snd (cb_params (ext s))) (map snd (cb_enabled (ext s))) x dt) lims.

Definition warned {X P} (s : dmod X P) : dmod X P :=
  on_ext (fun w => set_cb_ext (disc_warn (cb_ext w)) w) s.

Lemma disc_filter_eq {X P} (cfg : disc_cfg X) x dt u (s : dmod X P) :
  disc_filter cfg x dt u s =
  match scipy_bounds (ds_opt_bounds (cb_ext (ext s))) with
  | Err e => (Err e, s)
  | Ok lims =>
      match disc_asks cfg s x dt u lims with
      | Err e => (Err e, s)
      | Ok (ok, z) =>
          if negb ok && dc_exc cfg then (Err SolverError, s)
          else
            let s1 := if ok then s else warned s in
            match opt_monitor (dc_eps cfg) (firstn (dc_dim cfg) (u ++ zeros (ds_num_slack (cb_ext (ext s)))))
                    (firstn (dc_dim cfg) z) with
            | Err e => (Err e, s1)
            | Ok b => (Ok (firstn (dc_dim cfg) z), set_intervening b s1)
            end
      end
  end.
Proof.
  unfold disc_filter, disc_asks, warned, bind, get, lift, ret, modify, raise.
  destruct (scipy_bounds _) as [lims|e]; [|reflexivity].
  destruct (dc_solve _ _ _ _ _) as [[ok z]|e]; [|reflexivity].
  cbn [fst snd]. destruct ok; cbn [negb andb].
  - destruct (opt_monitor _ _ _); reflexivity.
  - destruct (dc_exc cfg); [reflexivity|]. destruct (opt_monitor _ _ _); reflexivity.
Qed.

Lemma disc_filter_kept {X P} (cfg : disc_cfg X) x dt u (s : dmod X P) r s' :
  disc_filter cfg x dt u s = (r, s') -> dkept s s'.
Proof.
  rewrite disc_filter_eq.
  destruct (scipy_bounds _) as [lims|e]; [|intros H; injection H as _ <-; apply dkept_refl].
  destruct (disc_asks _ _ _ _ _ _) as [[ok z]|e]; [|intros H; injection H as _ <-; apply dkept_refl].
  destruct (negb ok && dc_exc cfg); [intros H; injection H as _ <-; apply dkept_refl|].
  destruct (opt_monitor _ _ _); intros H; injection H as _ <-; destruct ok; unfold dkept; simpl; auto 20.
Qed.

Lemma disc_framed {X P} (cfg : disc_cfg X) : framed (disc_filter (P:=P) cfg).
Proof. intros x dt u s r s' H; apply disc_filter_kept in H; unfold dkept in H; decompose [and] H; auto 10. Qed.
Lemma disc_caches {X P} (cfg : disc_cfg X) : keeps_caches (disc_filter (P:=P) cfg).
Proof. intros x dt u s r s' H; apply disc_filter_kept in H; unfold dkept in H; decompose [and] H; auto 10. Qed.
Lemma disc_reset_framed {X P} : reset_framed (@disc_reset X P).
Proof. intros s r s' H; injection H as _ <-; simpl; auto 10. Qed.
Lemma disc_reset_caches {X P} : reset_keeps_caches (@disc_reset X P).
Proof. intros s r s' H; injection H as _ <-; simpl; auto 10. Qed.

(** ** The invariant of a module's attributes *)

Record plugged {X P} (cfg : disc_cfg X) (s : dmod X P) : Prop := mkPlugged {
  pl_keyed : keyed (ext s);
  pl_slacks : ds_num_slack (cb_ext (ext s)) = slack_count (disc_constraints s);
  pl_weight : ds_weight (cb_ext (ext s)) = obj_weight (dc_dim cfg) (scales (disc_constraints s));
  pl_bounds : ds_opt_bounds (cb_ext (ext s)) =
    repeat (b_low (dc_bounds cfg), b_high (dc_bounds cfg)) (dc_dim cfg)
    ++ repeat (None, None) (slack_count (disc_constraints s));
  pl_idx : ds_slack_idx (cb_ext (ext s)) = slack_indices 0 (disc_constraints s) }.

Lemma slack_indices_form {X P} (cs : dict (constraint X P)) : forall (cs' : dict (constraint X P)) n, keys_and_slack cs' = keys_and_slack cs ->
  slack_indices n cs' = slack_indices n cs.
Proof.
  induction cs as [|[k c] cs IH]; intros [|[k' c'] cs'] n H; try discriminate; auto.
  simpl in H; injection H as -> E H; simpl; rewrite E. destruct (c_slack c); rewrite (IH cs') by auto; auto.
Qed.

Lemma plugged_form {X P} (cfg : disc_cfg X) (s s' : dmod X P) :
  plugged cfg s -> keyed (ext s') ->
  keys_and_slack (disc_constraints s') = keys_and_slack (disc_constraints s) ->
  ds_num_slack (cb_ext (ext s')) = ds_num_slack (cb_ext (ext s)) ->
  ds_weight (cb_ext (ext s')) = ds_weight (cb_ext (ext s)) ->
  ds_opt_bounds (cb_ext (ext s')) = ds_opt_bounds (cb_ext (ext s)) ->
  ds_slack_idx (cb_ext (ext s')) = ds_slack_idx (cb_ext (ext s)) ->
  plugged cfg s'.
Proof.
  intros [A1 A2 A3 A4 A5] K F E2 E3 E4 E5.
  destruct (keys_and_slack_scales _ _ F) as [Sc _].
  assert (Ct : slack_count (disc_constraints s') = slack_count (disc_constraints s))
    by (rewrite <- !scales_count, Sc; auto).
  constructor; auto.
  - rewrite Ct; congruence.
  - rewrite Sc; congruence.
  - rewrite Ct; congruence.
  - rewrite (slack_indices_form _ _ _ F); congruence.
Qed.

Lemma disc_init_plugged {X P} (cfg : disc_cfg X) defined to_use (s : dmod X P) :
  distinct_keys defined -> disc_init cfg defined to_use = Ok s -> plugged cfg s.
Proof.
  unfold disc_init; intros N H.
  destruct (select_constraints defined to_use) as [cs|e] eqn:Es; [|discriminate].
  cbn [rbind] in H. cbv zeta in H.
  destruct (cb_init defined to_use _) as [w|e] eqn:Ei; [|discriminate].
  cbn [rbind] in H; injection H as <-.
  pose proof (keyed_init _ _ _ _ N Ei) as K.
  unfold cb_init in Ei; rewrite Es in Ei; cbn [rbind] in Ei; injection Ei as <-.
  constructor; [exact K| | | |]; unfold disc_constraints; simpl; rewrite ?slack_scales_scales, ?scales_count; auto.
Qed.

Lemma step_plugged {X P} (cfg : disc_cfg X) o (s : dmod X P) seen s' :
  plugged cfg s -> cb_step (disc_filter_control cfg) disc_reset o s = (seen, s') -> plugged cfg s'.
Proof.
  intros PL H.
  assert (K : keyed (ext s')).
  { eapply (keyed_step (dc_bounds cfg) (disc_filter cfg) disc_reset (disc_framed cfg) (disc_caches cfg)
      disc_reset_framed disc_reset_caches); [apply PL|exact H]. }
  assert (G : forall t, keyed (ext t) -> dkept s t -> plugged cfg t).
  { intros t Kt D; unfold dkept in D; decompose [and] D.
    apply (plugged_form cfg s); auto. unfold disc_constraints; congruence. }
  destruct o as [i dt u| |en|i|k p|k e]; simpl in H.
  - destruct (disc_filter_control cfg i dt u s) as [r s1] eqn:E; injection H as _ <-.
    change (gfilter (dc_bounds cfg) (disc_filter cfg) i dt u s = (r, s1)) in E.
    destruct (enable s) eqn:En.
    + destruct i as [x|].
      * rewrite gfilter_array in E by auto.
        destruct (disc_filter cfg x dt u (prep x u s)) as [r1 s2] eqn:Ef.
        apply disc_filter_kept in Ef; unfold dkept in Ef; decompose [and] Ef.
        apply (plugged_form cfg s); auto;
          (destruct r1 as [v|e]; [destruct (clip (dc_bounds cfg) v)|]; injection E as _ <-;
           unfold disc_constraints; simpl in *; congruence).
      * rewrite gfilter_other in E by auto; injection E as _ <-.
        apply (plugged_form cfg s); auto.
    + rewrite gfilter_disabled in E by auto; injection E as _ <-. apply (plugged_form cfg s); auto.
  - injection H as _ <-; apply (plugged_form cfg s); auto.
  - injection H as _ <-; apply (plugged_form cfg s); auto.
  - destruct i; injection H as _ <-; apply (plugged_form cfg s); auto.
  - injection H as _ <-; apply (plugged_form cfg s); auto. apply (keys_and_slack_assign (OSetParams k p)).
  - injection H as _ <-; apply (plugged_form cfg s); auto. apply (keys_and_slack_assign (OSetEnabled k e)).
Qed.

Lemma run_plugged {X P} (cfg : disc_cfg X) os : forall (s : dmod X P) seen s',
  plugged cfg s -> cb_run (disc_filter_control cfg) disc_reset os s = (seen, s') -> plugged cfg s'.
Proof.
  induction os as [|o os IH]; simpl; intros s seen s' PL H; [injection H as _ <-; auto|].
  destruct (cb_step (disc_filter_control cfg) disc_reset o s) as [b1 s1] eqn:E1.
  destruct (cb_run (disc_filter_control cfg) disc_reset os s1) as [bs s2] eqn:E2; injection H as _ <-.
  eapply IH; [|exact E2]. eapply step_plugged; eauto.
Qed.

Lemma disc_reached_plugged {X P} (cfg : disc_cfg X) (s : dmod X P) : disc_reached cfg s -> plugged cfg s.
Proof.
  intros (defined & to_use & s0 & os & seen & N & H0 & H).
  eapply run_plugged; [|exact H]. eapply disc_init_plugged; eauto.
Qed.

Lemma disc_reached_step {X P} (cfg : disc_cfg X) o (s : dmod X P) seen s' : disc_reached cfg s ->
  cb_step (disc_filter_control cfg) disc_reset o s = (seen, s') -> disc_reached cfg s'.
Proof.
  intros (defined & to_use & s0 & os & seen0 & N & H0 & H) E.
  exists defined, to_use, s0, (os ++ [o]), (seen0 ++ [seen]); split; [auto|split; [auto|]].
  pose proof (run_app (dc_bounds cfg) (disc_filter cfg) disc_reset os [o] s0) as R.
  change (gfilter (dc_bounds cfg) (disc_filter (P:=P) cfg)) with (disc_filter_control (P:=P) cfg) in R.
  rewrite R, H. cbn [cb_run]; rewrite E; reflexivity.
Qed.

(** ** The program *)

Lemma cbfs_say {X P} (cfg : disc_cfg X) x dt : 0 < dt -> forall (cs : dict (constraint X P)) n, strengthened cs ->
  Forall2 (fun g cj => forall z, exists v, g z = Ok v /\
             (forall tol, - tol <= v <->
                steps_well (dc_next cfg) tol (fst cj) x dt (firstn (dc_dim cfg) z)
                  (slack_value (dc_dim cfg) (fst cj) (snd cj) z)))
    (enabled_cbfs cfg (map snd cs) (slack_indices n cs) (map (fun kc => c_params (snd kc)) cs)
       (map (fun kc => c_enabled (snd kc)) cs) x dt)
    (enabled_places n cs).
Proof.
  intros Hd; induction cs as [|[k c] cs IH]; intros n St; [constructor|].
  assert (St' : strengthened cs) by (intros k' c' I; apply (St k'); simpl; auto).
  assert (Ha : c_alpha c <> None) by (apply (St k); simpl; auto).
  destruct (c_alpha c) as [a|] eqn:Ea; [|congruence].
  assert (G : forall oi j, match c_slack c with Some _ => oi = Some j | None => oi = None end ->
    forall z, exists v, cbf_fn cfg c oi x dt (c_params c) z = Ok v /\
      (forall tol, - tol <= v <-> steps_well (dc_next cfg) tol c x dt (firstn (dc_dim cfg) z)
         (slack_value (dc_dim cfg) c j z))).
  { intros oi j Hoi z; unfold cbf_fn, c_alpha_at; rewrite Ea; cbn [rbind].
    eexists; split; [reflexivity|]. intros tol.
    unfold steps_well, slack_value, level, decay, c_compute; rewrite Ea.
    set (h' := c_fun c (dc_next cfg x dt (firstn (dc_dim cfg) z)) (c_params c) + c_bias c).
    set (h := c_fun c x (c_params c) + c_bias c).
    assert (Q : forall s, (- tol <= (h' - h) / dt + a h - s) <-> h - dt * a h + dt * s - dt * tol <= h').
    { intros s. replace h' with (h + dt * ((h' - h) / dt)) at 2 by (field; lra).
      split; intros L; nra. }
    destruct (c_slack c); rewrite Hoi.
    - apply Q.
    - rewrite <- (Rminus_0_r ((h' - h) / dt + a h)). apply Q. }
  simpl. unfold has_slack; simpl. destruct (c_slack c) as [p|] eqn:Es; simpl;
    (destruct (c_enabled c); simpl; [constructor; [|apply IH; auto]|apply IH; auto]; apply G; auto).
Qed.

Lemma with_slsqp_cbfs {X P} (cfg : disc_cfg X) solve x dt : forall (cs : list (constraint X P)) idx ps es,
  enabled_cbfs (with_slsqp solve cfg) cs idx ps es x dt = enabled_cbfs cfg cs idx ps es x dt.
Proof.
  induction cs as [|c cs IH]; intros idx ps es; auto.
  destruct idx, ps, es as [|e es]; simpl; auto. rewrite IH; reflexivity.
Qed.

Lemma scipy_bounds_ok b dim slacks : one_number (b_low b) -> one_number (b_high b) ->
  exists lims, scipy_bounds (repeat (b_low b, b_high b) dim ++ repeat (None, None) slacks) = Ok lims /\
    limits_say b dim slacks lims.
Proof.
  intros Hl Hh.
  assert (N : forall o, one_number o -> exists r, as_number o = Ok r /\ forall i, bound_at o i = r).
  { intros [[r|[|r [|? ?]]]|] H; simpl in *; try discriminate; eexists; split; eauto. }
  destruct (N _ Hl) as (l & El & Bl); destruct (N _ Hh) as (h & Eh & Bh).
  exists (repeat (l, h) dim ++ repeat (None, None) slacks); split.
  - unfold scipy_bounds.
    assert (S0 : rmap (fun lh : option bnd * option bnd => lo <-- as_number (fst lh);;; hi <-- as_number (snd lh);;; Ok (lo, hi))
       (repeat (None, None) slacks) = Ok (repeat (None, None) slacks)).
    { induction slacks as [|n IH]; simpl; auto. rewrite IH; auto. }
    induction dim as [|n IH]; simpl; auto.
    rewrite El, Eh; cbn [rbind]. rewrite IH; auto.
  - split; [rewrite app_length, !repeat_length; auto|split]; intros i Hi.
    + rewrite nth_error_app1 by (rewrite repeat_length; auto).
      rewrite (nth_error_repeat _ Hi), Bl, Bh; auto.
    + rewrite nth_error_app2 by (rewrite repeat_length; lia). rewrite repeat_length.
      apply nth_error_repeat; lia.
Qed.

(** What a call does, by the answer of an arbitrary solver. *)
Lemma disc_call {X P} (cfg : disc_cfg X) (s : dmod X P) x dt u : disc_in_use cfg s dt u ->
  exists obj cons lims,
    obj = disc_obj (obj_weight (dc_dim cfg) (scales (disc_constraints s))) (u ++ zeros (slack_count (disc_constraints s))) /\
    program_says (dc_next cfg) (dc_dim cfg) (disc_constraints s) x dt cons /\
    limits_say (dc_bounds cfg) (dc_dim cfg) (slack_count (disc_constraints s)) lims /\
    forall solve,
      let call := disc_filter_control (with_slsqp solve cfg) (InArray x) dt u s in
      let answer := solve obj (u ++ zeros (slack_count (disc_constraints s))) cons lims in
      (forall e, answer = Err e -> fst call = Err e) /\
      (forall z, answer = Ok (false, z) -> dc_exc cfg = true -> fst call = Err SolverError) /\
      (forall ok z, answer = Ok (ok, z) -> ok = true \/ dc_exc cfg = false ->
         disc_warnings (snd call) = (if ok then disc_warnings s else S (disc_warnings s))) /\
      (forall ok z, answer = Ok (ok, z) -> ok = true \/ dc_exc cfg = false ->
         (dc_dim cfg <= length z)%nat ->
         exists w, boxed (dc_bounds cfg) (firstn (dc_dim cfg) z) w /\ fst call = Ok w /\
           intervening (snd call) = Rltb (dc_eps cfg) (sqrt (dist2 u (firstn (dc_dim cfg) z)))).
Proof.
  intros [Hr Hl Hh St En Hd Lu].
  destruct (disc_reached_plugged _ _ Hr) as [K P1 P2 P3 P4].
  destruct (scipy_bounds_ok (dc_bounds cfg) (dc_dim cfg) (slack_count (disc_constraints s)) Hl Hh) as (lims & El & Ls).
  pose proof (cbfs_say cfg x dt Hd (disc_constraints s) 0 St) as CS.
  do 2 eexists; exists lims; split; [reflexivity|split; [exact CS|split; [exact Ls|]]].
  intros solve call answer.
  destruct (update_params_keyed _ K) as [U1 U2].
  assert (Ask : disc_asks (with_slsqp solve cfg) (prep x u s) x dt u lims = answer).
  { unfold disc_asks. cbv zeta.
    change (cb_params (ext (prep x u s))) with (cb_params (update_params (ext s))).
    change (cb_enabled (ext (prep x u s))) with (cb_enabled (update_params (ext s))).
    change (cb_ext (ext (prep x u s))) with (cb_ext (ext s)).
    change (cb_constraints (ext (prep x u s))) with (disc_constraints s).
    rewrite U1, U2, P1, P2, P4; fold (disc_constraints s). rewrite !map_map.
    rewrite with_slsqp_cbfs. reflexivity. }
  assert (Ob : scipy_bounds (ds_opt_bounds (cb_ext (ext (prep x u s)))) = Ok lims).
  { change (ds_opt_bounds (cb_ext (ext (prep x u s)))) with (ds_opt_bounds (cb_ext (ext s))).
    rewrite P3; exact El. }
  assert (Hc : call = match disc_filter (with_slsqp solve cfg) x dt u (prep x u s) with
      | (Ok v, s1) => match clip (dc_bounds cfg) v with
                      | Ok w => (Ok w, set_actual (Some w) (set_actual (Some v) s1))
                      | Err e => (Err e, set_actual (Some v) s1)
                      end
      | (Err e, s1) => (Err e, s1)
      end) by (apply (gfilter_array (dc_bounds cfg)); auto).
  rewrite disc_filter_eq, Ob, Ask in Hc. rewrite Hc; clear Hc.
  split; [intros e ->; reflexivity|split; [|split]].
  - intros z -> He; change (dc_exc (with_slsqp solve cfg)) with (dc_exc cfg); rewrite He; reflexivity.
  - intros ok z -> Hok.
    replace (negb ok && dc_exc (with_slsqp solve cfg)) with false
      by (simpl; destruct Hok as [-> | ->]; [auto|rewrite andb_false_r; auto]).
    cbv zeta. destruct (opt_monitor _ _ _); [destruct (clip _ _)|]; destruct ok; reflexivity.
  - intros ok z -> Hok Lz.
    assert (Lf : length (firstn (dc_dim cfg) z) = dc_dim cfg) by (rewrite firstn_length; lia).
    replace (negb ok && dc_exc (with_slsqp solve cfg)) with false
      by (simpl; destruct Hok as [-> | ->]; [auto|rewrite andb_false_r; auto]).
    change (dc_dim (with_slsqp solve cfg)) with (dc_dim cfg).
    rewrite firstn_app, Lu, Nat.sub_diag, firstn_O, app_nil_r, (firstn_all2 u) by (rewrite Lu; auto).
    rewrite monitor_ok by congruence. cbv zeta.
    assert (F : fits (dc_bounds cfg) (length (firstn (dc_dim cfg) z))).
    { assert (N : forall o n, one_number o -> fits1 o n) by (intros [[r|v]|] n H; simpl in *; auto).
      split; apply N; auto. }
    destruct (clip_boxed _ _ F) as (w & Ew & Bw). rewrite Ew.
    exists w; split; [exact Bw|].
    split; reflexivity.
Qed.
