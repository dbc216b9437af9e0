(** Lemmas about the warnings of a process. *)
From Coq Require Import String Reals List Bool ZArith Lia Lra.
From Verif Require Import Prelude Vec ModelBase ModelController ModelSimplex ModelAsif ModelDiscrete ModelWarn
  SpecCore SpecHistory SpecSimplex SpecAsif SpecDiscrete SpecWarn ProofsBase ProofsVec ProofsHistory ProofsAsif ProofsAsif2
  ProofsAsif3 ProofsAsif4 ProofsAsif5 ProofsAsifHistory2 ProofsDiscrete.
Import ListNotations.
Local Open Scope R_scope.

Lemma py_warns_app ks : forall ks' seen,
  py_warns seen (ks ++ ks') =
  match py_warns seen ks with
  | (l, seen') => match py_warns seen' ks' with (l', seen'') => (l ++ l', seen'') end
  end.
Proof.
  induction ks as [|k ks IH]; intros ks' seen.
  - simpl. destruct (py_warns seen ks'); reflexivity.
  - cbn [app py_warns]. destruct (py_warn seen k) as [b seen1]. rewrite IH.
    destruct (py_warns seen1 ks) as [l seen2]. destruct (py_warns seen2 ks') as [l' seen3]. reflexivity.
Qed.

Lemma process_warnings {X P} os : forall (p : process X P) out p', process_run os p = (out, p') ->
  exists ks, py_warns (pr_seen p) ks = (all_warnings out, pr_seen p').
Proof.
  induction os as [|o os IH]; intros p out p' H.
  - injection H as <- <-. exists []. reflexivity.
  - cbn [process_run] in H. destruct (process_step o p) as [[b l] p1] eqn:E1.
    destruct (process_run os p1) as [out1 p2] eqn:E2. injection H as <- <-.
    destruct (IH _ _ _ E2) as [ks2 H2].
    assert (H1 : exists ks1, py_warns (pr_seen p) ks1 = (l, pr_seen p1)).
    { unfold process_step in E1. destruct (nth_error (pr_modules p) (po_module o)) as [m|].
      - destruct (module_step (po_op o) (po_message o) m) as [[b1 ks] m'].
        destruct (py_warns (pr_seen p) ks) as [l1 seen1] eqn:Ew. injection E1 as <- <- <-. exists ks; exact Ew.
      - injection E1 as <- <- <-. exists []; reflexivity. }
    destruct H1 as [ks1 H1]. exists (ks1 ++ ks2). rewrite py_warns_app, H1, H2. reflexivity.
Qed.

Lemma py_warns_marks ks : forall seen l seen' n k b, py_warns seen ks = (l, seen') ->
  nth_error l n = Some (k, b) -> (b = true <-> ~ In k seen /\ ~ issued_before k l n).
Proof.
  induction ks as [|k0 ks IH]; intros seen l seen' n k b H Hn.
  - injection H as <- <-. destruct n; discriminate.
  - cbn [py_warns] in H. unfold py_warn in H.
    destruct (in_dec warning_dec k0 seen) as [I|I];
      [destruct (py_warns seen ks) as [l1 seen2] eqn:E | destruct (py_warns (k0 :: seen) ks) as [l1 seen2] eqn:E];
      injection H as <- <-; destruct n as [|n]; cbn [nth_error] in Hn.
    + injection Hn as <- <-. split; [discriminate|intros [N _]; contradiction].
    + rewrite (IH _ _ _ _ _ _ E Hn). split; intros [N1 N2]; (split; [exact N1|]); intros (m & b' & L & Hm).
      * destruct m as [|m]; cbn in Hm; [injection Hm as -> _; contradiction|].
        apply N2; exists m, b'; split; [lia|exact Hm].
      * apply N2; exists (S m), b'; split; [lia|exact Hm].
    + injection Hn as <- <-. split; [|reflexivity]. intros _; split; [exact I|intros (m & b' & L & _); lia].
    + rewrite (IH _ _ _ _ _ _ E Hn). split.
      * intros [N1 N2]; split; [intros A; apply N1; right; exact A|].
        intros (m & b' & L & Hm). destruct m as [|m]; cbn in Hm.
        -- injection Hm as -> _; apply N1; left; reflexivity.
        -- apply N2; exists m, b'; split; [lia|exact Hm].
      * intros [N1 N2]; split.
        -- intros [A|A]; [|contradiction]. subst k0. apply N2; exists 0%nat, true; split; [lia|reflexivity].
        -- intros (m & b' & L & Hm). apply N2; exists (S m), b'; split; [lia|exact Hm].
Qed.

Lemma put_nth {A} (a : A) i : forall l x, nth_error l i = Some x -> nth_error (put i a l) i = Some a.
Proof. induction i as [|i IH]; intros [|y l] x H; try discriminate; cbn in *; eauto. Qed.
Lemma put_other {A} (a : A) i : forall l j, j <> i -> nth_error (put i a l) j = nth_error l j.
Proof.
  induction i as [|i IH]; intros [|y l] [|j] N; cbn; try reflexivity; try contradiction.
  apply IH; lia.
Qed.
Lemma put_length {A} (a : A) i : forall l, length (put i a l) = length l.
Proof. induction i as [|i IH]; intros [|y l]; cbn; auto. Qed.
Lemma put_at {X P} (p : process X P) i (m m0 : moduleof X P) seen : nth_error (pr_modules p) i = Some m0 ->
  at_module p (mkProcess (put i m (pr_modules p)) seen) i m.
Proof.
  intros H; split; [exact (put_nth m i _ _ H)|split; [apply put_length|]].
  intros j N; exact (put_other m i _ j N).
Qed.

(** The mark that a single warning gets. *)
Definition mark (k : warning) (seen : list warning) : bool := if in_dec warning_dec k seen then false else true.
Lemma py_warns_one seen k : exists seen', py_warns seen (repeat k 1) = ([(k, mark k seen)], seen').
Proof. cbn [repeat py_warns]. unfold py_warn, mark. destruct (in_dec warning_dec k seen); eexists; reflexivity. Qed.

(** What the info dictionary of an explicit module shows after a call that returned. *)
Lemma explicit_info {X P} (cfg : asif_cfg X) (s : amod X P unit) x dt u w s' : enable s = true ->
  explicit_asif_filter_control cfg (InArray x) dt u s = (Ok w, s') ->
  enable s' = true /\ control_desired s' = Some u /\ control_actual s' = Some w /\
  cb_values (ext s') = cb_values (ext (prep x u s)) /\ cb_stale (ext s') = cb_stale (ext (prep x u s)).
Proof.
  intros En H.
  pose proof (gfilter_array (ac_bounds cfg) (asif_filter cfg (explicit_mats cfg)) x dt u s En) as G.
  change (gfilter (ac_bounds cfg) (asif_filter cfg (explicit_mats cfg)) (InArray x) dt u s)
    with (explicit_asif_filter_control cfg (InArray x) dt u s) in G.
  rewrite H in G. destruct (asif_filter cfg (explicit_mats cfg) x dt u (prep x u s)) as [[v|e] s1] eqn:E; [|discriminate].
  destruct (explicit_framed cfg x dt u _ _ _ E) as (F1 & F2 & _ & _ & F5 & F6).
  destruct (clip (ac_bounds cfg) v) as [w1|e1]; [|discriminate]. injection G as <- ->.
  cbn. rewrite F1, F2. repeat split; [exact En|exact F5|exact F6].
Qed.
Lemma info_same {X P Y} (a b : rta (cb X P Y)) : enable a = enable b -> intervening a = intervening b ->
  control_desired a = control_desired b -> control_actual a = control_actual b ->
  cb_values (ext a) = cb_values (ext b) -> cb_stale (ext a) = cb_stale (ext b) -> cb_info a = cb_info b.
Proof. intros E1 E2 E3 E4 E5 E6. unfold cb_info, rta_info. rewrite E1, E2, E3, E4, E5, E6. reflexivity. Qed.

Lemma explicit_module_step {X P} (cfg : asif_cfg X) (s : amod X P unit) i dt u msg :
  module_step (OFilter i dt u) msg (explicit_module cfg s) =
  match explicit_asif_filter_control cfg i dt u s with
  | (r, s') => (obs_of r, repeat solver_warning (SpecAsif.warnings s' - SpecAsif.warnings s), explicit_module cfg s')
  end.
Proof.
  unfold module_step. cbn [explicit_module qp_module ms_filter ms_reset ms_state ms_ext ms_issued cb_step].
  match goal with |- match (match ?c with _ => _ end) with _ => _ end = _ =>
    change c with (explicit_asif_filter_control cfg i dt u s) end.
  destruct (explicit_asif_filter_control cfg i dt u s) as [r s']. reflexivity.
Qed.
Lemma discrete_module_step {X P} (cfg : disc_cfg X) (s : dmod X P) i dt u msg :
  module_step (OFilter i dt u) msg (discrete_module cfg s) =
  match disc_filter_control cfg i dt u s with
  | (r, s') => (obs_of r, repeat (failure_warning msg) (disc_warnings s' - disc_warnings s), discrete_module cfg s')
  end.
Proof.
  unfold module_step. cbn [discrete_module ms_filter ms_reset ms_state ms_ext ms_issued cb_step].
  match goal with |- match (match ?c with _ => _ end) with _ => _ end = _ =>
    change c with (disc_filter_control cfg i dt u s) end.
  destruct (disc_filter_control cfg i dt u s) as [r s']. reflexivity.
Qed.

(** One call of an explicit module of a process whose program the solver calls inconsistent. *)
Lemma explicit_failure {X P} (cfg : asif_cfg X) n (s : amod X P unit) x dt u :
  in_use cfg n s x u -> 0 <= ac_eps cfg ->
  exists G a rows consts, firstn (ac_dim cfg) a = u /\
    (forall z, length z = (ac_dim cfg + slack_count (asif_constraints s))%nat ->
       (solves rows consts z <-> allowed cfg s x z)) /\
    forall solve agree msg (p : process X P) i,
      solve G a rows consts = Err (ValueError "constraints are inconsistent, no solution") ->
      agree G a rows consts = Ok (a, []) ->
      nth_error (pr_modules p) i = Some (explicit_module (with_solver solve cfg) s) ->
      exists w s1 p1, clip (ac_bounds cfg) u = Ok w /\
        process_step (mkPop i (OFilter (InArray x) dt u) msg) p =
          (if ac_exc cfg then (Some (ObsRaised SolverError), [], p1)
           else (Some (ObsControl w), [(solver_warning, mark solver_warning (pr_seen p))], p1)) /\
        at_module p p1 i (explicit_module (with_solver solve cfg) s1) /\
        exists s2, explicit_asif_filter_control (with_solver agree cfg) (InArray x) dt u s = (Ok w, s2) /\
          (ac_exc cfg = false -> intervening s1 = false /\ cb_info s1 = cb_info s2).
Proof.
  intros [H1 H2 H3 H4 H5 H6] He.
  destruct (explicit_call cfg n s x dt u H1 H2 H3 H4 H5 H6) as (rows & consts & Enc & Nm & Hc).
  assert (Fn : firstn (ac_dim cfg) (u ++ zeros (slack_count (asif_constraints s))) = u).
  { rewrite <- H6, firstn_app, Nat.sub_diag, firstn_all. cbn [firstn]. apply app_nil_r. }
  cbv zeta in Hc. do 2 eexists; exists rows, consts; split; [exact Fn|split].
  { intros z Lz; rewrite (encodes_solves _ _ _ _ Enc z Lz).
    rewrite demands_acceptable by (auto; lia). unfold allowed; tauto. }
  intros solve agree msg p i Hs Ha Hi.
  destruct (Hc solve) as (_ & C2 & _); specialize (C2 Hs).
  destruct (Hc agree) as (C1 & _ & _).
  destruct (C1 _ _ Ha) as (w2 & s2 & out & E2 & Hw2 & I2 & _); [|intros j []|].
  { rewrite app_length, zeros_length, H6; reflexivity. }
  rewrite Fn in Hw2, I2. rewrite dist2_refl, sqrt_0 in I2.
  exists w2. unfold process_step; cbn [po_module po_op po_message]; rewrite Hi.
  rewrite explicit_module_step.
  destruct (ac_exc cfg) eqn:Ex.
  - destruct C2 as (s1 & E1 & W1 & _). exists s1. eexists; split; [exact Hw2|].
    rewrite E1, W1, Nat.sub_diag.
    cbn [repeat py_warns obs_of]. split; [reflexivity|]. split; [apply (put_at p i _ _ _ Hi)|].
    exists s2; split; [exact E2|discriminate].
  - destruct C2 as (w1 & s1 & E1 & Hw1 & I1 & _ & W1). exists s1.
    rewrite Hw2 in Hw1; injection Hw1 as <-.
    destruct (py_warns_one (pr_seen p) solver_warning) as [seen' Ew].
    eexists; split; [exact Hw2|].
    rewrite E1, W1.
    replace (S (SpecAsif.warnings s) - SpecAsif.warnings s)%nat with 1%nat by lia.
    rewrite Ew. cbn [obs_of]. split; [reflexivity|]. split; [apply (put_at p i _ _ _ Hi)|].
    exists s2; split; [exact E2|]. intros _. split; [rewrite I1; apply Rltb_false; exact He|].
    destruct (explicit_info _ _ _ _ _ _ _ H5 E1) as (A1 & A2 & A3 & A4 & A5).
    destruct (explicit_info _ _ _ _ _ _ _ H5 E2) as (B1 & B2 & B3 & B4 & B5).
    apply info_same; congruence.
Qed.

(** One call of a discrete module whose solver gives up. *)
Lemma discrete_failure {X P} (cfg : disc_cfg X) (s : dmod X P) x dt u : disc_in_use cfg s dt u ->
  exists obj start cons lims, length start = (dc_dim cfg + slack_count (disc_constraints s))%nat /\
    forall solve z msg (p : process X P) i,
      solve obj start cons lims = Ok (false, z) -> (dc_dim cfg <= length z)%nat -> dc_exc cfg = false ->
      nth_error (pr_modules p) i = Some (discrete_module (with_slsqp solve cfg) s) ->
      exists w s1 p1, boxed (dc_bounds cfg) (firstn (dc_dim cfg) z) w /\
        process_step (mkPop i (OFilter (InArray x) dt u) msg) p =
          (Some (ObsControl w), [(failure_warning msg, mark (failure_warning msg) (pr_seen p))], p1) /\
        at_module p p1 i (discrete_module (with_slsqp solve cfg) s1).
Proof.
  intros U. destruct (disc_call cfg s x dt u U) as (obj & cons & lims & Eo & Pr & Li & Hs).
  exists obj, (u ++ zeros (slack_count (disc_constraints s))), cons, lims; split.
  { rewrite app_length, zeros_length; destruct U; auto. }
  intros solve z msg p i Hz Lz Ex Hi. destruct (Hs solve) as (_ & _ & H3 & H4).
  pose proof (H3 false z Hz (or_intror Ex)) as W. destruct (H4 false z Hz (or_intror Ex) Lz) as (w & B & Ew & _).
  exists w. destruct (disc_filter_control (with_slsqp solve cfg) (InArray x) dt u s) as [r s1] eqn:E.
  cbn [fst snd] in W, Ew. subst r. exists s1.
  unfold process_step; cbn [po_module po_op po_message]; rewrite Hi.
  rewrite discrete_module_step, E, W.
  replace (S (disc_warnings s) - disc_warnings s)%nat with 1%nat by lia.
  destruct (py_warns_one (pr_seen p) (failure_warning msg)) as [seen' Ewn]. rewrite Ewn.
  eexists; split; [exact B|split; [reflexivity|apply (put_at p i _ _ _ Hi)]].
Qed.

(** A module whose only warning is [solver_warning]. *)
Definition one_text {X P} (m : moduleof X P) : Prop :=
  forall msg a b, exists n, ms_issued m msg a b = repeat solver_warning n.
Lemma Forall_put {A} (Q : A -> Prop) a i : forall l, Forall Q l -> Q a -> Forall Q (put i a l).
Proof.
  induction i as [|i IH]; intros l H Ha; inversion H; subst; cbn; constructor; auto.
Qed.
Lemma one_text_run {X P} os : forall (p : process X P) out p', Forall one_text (pr_modules p) ->
  process_run os p = (out, p') -> Forall (fun kb => fst kb = solver_warning) (all_warnings out).
Proof.
  induction os as [|o os IH]; intros p out p' Hp H.
  - injection H as <- <-. constructor.
  - cbn [process_run] in H. destruct (process_step o p) as [[b l] p1] eqn:E1.
    destruct (process_run os p1) as [out1 p2] eqn:E2. injection H as <- <-.
    assert (Q : Forall (fun kb => fst kb = solver_warning) l /\ Forall one_text (pr_modules p1)).
    { unfold process_step in E1. destruct (nth_error (pr_modules p) (po_module o)) as [m|] eqn:En.
      - assert (Hm : one_text m) by (exact (proj1 (Forall_forall _ _) Hp m (nth_error_In _ _ En))).
        unfold module_step in E1.
        destruct (cb_step (ms_filter m) (ms_reset m) (po_op o) (ms_state m)) as [b1 s'].
        destruct (Hm (po_message o) (ms_state m) s') as [n Hn]. rewrite Hn in E1.
        destruct (py_warns (pr_seen p) (repeat solver_warning n)) as [l1 seen1] eqn:Ew. injection E1 as <- <- <-.
        split; [|apply Forall_put; [exact Hp|exact Hm]].
        clear - Ew. revert l1 seen1 Ew. generalize (pr_seen p) as seen.
        induction n as [|n IHn]; intros seen l1 seen1 Ew; cbn [repeat py_warns] in Ew.
        + injection Ew as <- <-; constructor.
        + destruct (py_warn seen solver_warning) as [bb seen2].
          destruct (py_warns seen2 (repeat solver_warning n)) as [l2 seen3] eqn:E3. injection Ew as <- <-.
          constructor; [reflexivity|exact (IHn _ _ _ E3)].
      - injection E1 as <- <- <-. split; [constructor|exact Hp]. }
    destruct Q as [Q1 Q2]. cbn [all_warnings flat_map snd].
    apply Forall_app; split; [exact Q1|exact (IH _ _ _ Q2 E2)].
Qed.
