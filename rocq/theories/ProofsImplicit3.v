(** The implicit ASIF module: the call. *)
From Coq Require Import String Reals List Bool ZArith Lia Lra Permutation.
From Verif Require Import Prelude Vec ModelBase ModelController ModelSimplex ModelAsif
  SpecCore SpecHistory SpecAsif SpecImplicit ProofsBase ProofsVec ProofsHistory ProofsSimplex ProofsAsif ProofsAsif2
  ProofsAsif3 ProofsAsif4 ProofsImplicit ProofsImplicit2.
Import ListNotations.
Local Open Scope R_scope.

(** ** An invariant on the recorded names *)
Section NamesInv.
Context {X P Z : Type} (Q : list string -> Prop).
Definition inv_names {A} (m : M (amod X P Z) A) : Prop :=
  forall s r s', m s = (r, s') -> Q (as_names (get_asif s)) -> Q (as_names (get_asif s')).
Lemma inv_kn {A} (m : M (amod X P Z) A) : keeps_names m -> inv_names m.
Proof. intros H s r s' E; rewrite (H _ _ _ E); auto. Qed.
Lemma inv_bind {A B} (m : M (amod X P Z) A) (f : A -> M (amod X P Z) B) :
  inv_names m -> (forall a, inv_names (f a)) -> inv_names (bind m f).
Proof.
  intros Hm Hf s r s' H I; unfold bind in H; destruct (m s) as [[a|e] s1] eqn:E.
  - eapply Hf; eauto.
  - inversion H; subst; eapply Hm; eauto.
Qed.
Context (cfg : asif_cfg X) (flt : X -> R -> vec -> M (amod X P Z) vec) (rst : M (amod X P Z) unit).
Hypothesis HK : forall x dt u, inv_names (flt x dt u).
Hypothesis HR : inv_names rst.
Notation call := (filter_control (ac_bounds cfg) (cb_compute base_get_state flt)).

Lemma call_inv_names i dt u s r s' : call i dt u s = (r, s') -> Q (as_names (get_asif s)) -> Q (as_names (get_asif s')).
Proof.
  change call with (gfilter (ac_bounds cfg) flt); intros H I.
  destruct (enable s) eqn:En.
  - destruct i as [x|].
    + rewrite gfilter_array in H by auto.
      destruct (flt x dt u (prep x u s)) as [r1 s1] eqn:Ef; pose proof (HK _ _ _ _ _ _ Ef I) as Ef'.
      destruct r1 as [v|e]; [destruct (clip (ac_bounds cfg) v)|]; inversion H; subst; exact Ef'.
    + rewrite gfilter_other in H by auto; inversion H; subst; exact I.
  - rewrite gfilter_disabled in H by auto; inversion H; subst; exact I.
Qed.

Lemma run_inv_names os : forall s seen s', asif_run call rst os s = (seen, s') ->
  Q (as_names (get_asif s)) -> Q (as_names (get_asif s')).
Proof.
  induction os as [|o os IH]; simpl; intros s seen s' H I; [inversion H; subst; auto|].
  destruct (asif_step call rst o s) as [b s1] eqn:E1.
  destruct (asif_run call rst os s1) as [bs s2] eqn:E2; inversion H; subst.
  apply (IH _ _ _ E2). clear IH E2 H.
  destruct o as [o|k p|k e]; simpl in E1; try (inversion E1; subst; exact I).
  destruct o as [i dt u| |en|i|k p|k e]; simpl in E1; try (inversion E1; subst; exact I).
  - destruct (call i dt u s) as [r s3] eqn:E; inversion E1; subst; eapply call_inv_names; eauto.
  - destruct (rst s) as [r s3] eqn:E; inversion E1; subst; eapply HR; eauto.
  - destruct i; inversion E1; subst; exact I.
Qed.
End NamesInv.

Lemma kn_optimize {X P Z} (cfg : asif_cfg X) u rows consts : keeps_names (X:=X) (P:=P) (Z:=Z) (optimize cfg u rows consts).
Proof.
  unfold optimize; apply kn_bind; [apply kn_get|intros s0].
  destruct (ac_solve cfg _ _ _ _) as [[z iact]|e].
  - apply kn_bind; [apply kn_modify; auto|intros _].
    apply kn_bind; [apply kn_record_causes|intros _; apply kn_ret].
  - destruct e; try apply kn_raise.
    destruct (String.eqb msg msg_inconsistent); [|apply kn_raise].
    destruct (ac_exc cfg); [apply kn_raise|].
    apply kn_bind; [apply kn_modify; auto|intros _; apply kn_ret].
Qed.
Lemma kn_on_actl {X P A} (m : M ctl A) : keeps_names (X:=X) (P:=P) (on_actl m).
Proof.
  intros s r s' H; unfold on_actl, zoom in H.
  destruct (m (as_ext (get_asif s))) as [r1 c]; inversion H; subst; auto.
Qed.

Lemma inv_implicit_filter {X P} (Q : list string -> Prop) (cfg : asif_cfg X) ic x dt u :
  (forall n (s : amod X P ctl), Q (as_names (get_asif s)) -> Q (implicit_names cfg n s)) ->
  inv_names (X:=X) (P:=P) Q (asif_filter cfg (implicit_mats cfg ic) x dt u).
Proof.
  intros HQ; unfold asif_filter.
  apply inv_bind; [apply inv_kn, kn_modify; auto|intros _].
  apply inv_bind; [|intros rc].
  { unfold implicit_mats; apply inv_bind; [apply inv_kn, kn_lift|intros q].
    apply inv_bind; [apply inv_kn, kn_on_actl|intros traj].
    apply inv_bind; [|intros rc].
    { apply inv_kn; unfold implicit_ineq_mats; apply kn_bind; [apply kn_get|intros s].
      apply kn_bind; [apply kn_lift|intros bl]. apply kn_bind; [apply kn_lift|intros rc; apply kn_ret]. }
    apply inv_bind; [|intros _; apply inv_kn, kn_ret].
    intros s r s' E I; inversion E; subst; apply HQ; exact I. }
  apply inv_kn. apply kn_bind; [|intros rc'].
  { unfold update_ineq_mats; apply kn_bind; [apply kn_get|intros s0].
    apply kn_bind; [apply kn_lift|intros d; apply kn_ret]. }
  apply kn_bind; [apply kn_optimize|intros v].
  apply kn_bind; [apply kn_lift|intros b].
  apply kn_bind; [apply kn_modify; auto|intros _; apply kn_ret].
Qed.

(** The names of the bound rows. *)
Definition bound_demands (b : bounds) (dim : nat) : list demand := low_demands (b_low b) dim ++ high_demands (b_high b) dim.

Lemma implicit_reached_head {X P} (cfg : asif_cfg X) ic (s : amod X P ctl) :
  fits (ac_bounds cfg) (ac_dim cfg) -> implicit_reached cfg ic s ->
  firstn ((match b_low (ac_bounds cfg) with Some _ => ac_dim cfg | None => 0 end) +
          (match b_high (ac_bounds cfg) with Some _ => ac_dim cfg | None => 0 end))
    (as_names (get_asif s)) = map dm_name (bound_demands (ac_bounds cfg) (ac_dim cfg)).
Proof.
  intros F (defined & to_use & directs & initial & s0 & os & seen & D1 & D2 & H0 & HR).
  unfold implicit_asif_init in H0; destruct (ctl_init initial) as [c|e]; [|discriminate]; cbn [rbind] in H0.
  destruct (asif_init_inv _ _ _ _ _ _ H0) as (cs & names & _ & Ea & Ec & Ed & _ & _ & En & _).
  destruct (actuation_mats_ok (ac_bounds cfg) (ac_dim cfg) (slack_count cs) F)
    as (rows & consts & names' & Ea' & _ & En' & Ln).
  rewrite Ea in Ea'; injection Ea' as _ _ EN; subst names'.
  set (idx := (_ + _)%nat) in *.
  refine (run_inv_names (fun l => firstn idx l = _) cfg (asif_filter cfg (implicit_mats cfg ic)) implicit_asif_reset _ _ _ _ _ _ HR _).
  - intros; apply inv_implicit_filter; intros n s1 I; unfold implicit_names; fold idx.
    rewrite I. rewrite firstn_app. unfold bound_demands; rewrite <- En'.
    rewrite firstn_all2 by lia. replace (idx - length names)%nat with 0%nat by lia.
    simpl; apply app_nil_r.
  - apply inv_bind; [apply inv_kn, kn_modify; auto|intros _; apply inv_kn, kn_on_actl].
  - rewrite En, firstn_app, firstn_all2 by lia. replace (idx - length names)%nat with 0%nat by lia.
    simpl; rewrite app_nil_r; exact En'.
Qed.

(** ** The system of an implicit call *)

(** The names recorded by a call: one per point of the trajectory for every constraint. *)
Definition call_names {X P} (b : bounds) (dim : nat) (cs : dict (constraint X P)) (ds : dict (direct X P)) (n : nat) : list string :=
  map dm_name (bound_demands b dim) ++ concat (map (fun k => repeat k n) (dict_keys cs)) ++ dict_keys ds.

Lemma implicit_blocks_solver {X P} (cfg : asif_cfg X) solve ns params enabled x traj (cs : dict (constraint X P)) : forall j,
  implicit_blocks (with_solver solve cfg) ns j cs params enabled x traj = implicit_blocks cfg ns j cs params enabled x traj.
Proof.
  induction cs as [|[k c] cs IH]; intros j; simpl; auto.
  destruct (dict_get params k) as [p|]; simpl; auto. destruct (dict_get enabled k); simpl; auto.
  unfold implicit_block; simpl.
  change (rmap (invariance_row (with_solver solve cfg) c p x) traj) with (rmap (invariance_row cfg c p x) traj).
  destruct (rmap _ traj); simpl; auto. rewrite IH; auto.
Qed.

(** The state handed to the solver stage. *)
Record staged {X P} (cfg : asif_cfg X) (s s2 : amod X P ctl) (n : nat) : Prop := mkStaged {
  sg_weight : as_weight (get_asif s2) = obj_weight (ac_dim cfg) (scales (asif_constraints s));
  sg_slack : as_num_slack (get_asif s2) = 0%nat;
  sg_causes : causes s2 = causes s;
  sg_warnings : warnings s2 = warnings s;
  sg_intervening : intervening s2 = intervening s;
  sg_ctl : imp_ctl s2 = imp_ctl s;
  sg_names : as_names (get_asif s2) = call_names (ac_bounds cfg) (ac_dim cfg) (asif_constraints s) (asif_directs s) n }.

Lemma implicit_system {X P} (cfg : asif_cfg X) ic n (s : amod X P ctl) x dt u traj :
  imp_in_use cfg ic n s x dt u traj ->
  let jss := map (fun kc => pick_list (c_sub (snd kc)) (length traj) (map (point_value (snd kc)) traj)) (asif_constraints s) in
  exists rows consts s2,
    all_picks (asif_constraints s) traj x jss /\
    Forall2 (fun kc js => forall j, In j js -> (j < length traj)%nat) (asif_constraints s) jss /\
    encodes (ac_dim cfg) rows consts
      (implicit_demands (ac_bounds cfg) (ac_dim cfg) (ac_f cfg) (ac_g cfg)
         (asif_constraints s) (asif_directs s) x traj jss) /\
    staged cfg s s2 (length traj) /\
    forall solve, asif_filter (with_solver solve cfg) (implicit_mats (with_solver solve cfg) ic) x dt u (prep x u s)
      = finish (with_solver solve cfg) u rows consts s2.
Proof.
  intros U jss; revert U. intros [Rch F Sv (m & rest & Wn & Lm & Pth & ET) [Hsz Sf Sg Sj Sgr Sw] HA Vs Sl En Lu].
  destruct (implicit_reached_wired cfg ic s Rch) as [W1 W2 [nm W3] W4 W5].
  pose proof (implicit_reached_head cfg ic s F Rch) as Hd.
  rewrite Sl in W1, W3.
  assert (LT : length traj = S m) by (rewrite ET; simpl; congruence).
  destruct (actuation_mats_ok (ac_bounds cfg) (ac_dim cfg) 0 F) as (ra & ca & na & Ea & Enc & _).
  rewrite W3 in Ea; injection Ea as <- <- _.
  destruct (direct_rows_ok (ac_dim cfg) 0 x
    (as_dparams (update_direct (get_asif s))) (as_denabled (update_direct (get_asif s))) (asif_directs s))
    as (rd & cd & Ed & Encd); auto.
  { intros k d Hd'; apply update_direct_params; auto. }
  destruct (subsample_loop_ok (iblock cfg x traj) (length traj) (asif_constraints s) []) as (Fp & Es).
  { lia. }
  { intros b []. }
  { intros [k c] Hc; split; [|apply (Vs k); auto].
    unfold block_sized, iblock; cbn [fst snd]; rewrite !map_length; auto. }
  cbn [app length] in Es.
  assert (Ej : map (fun kc => pick_list (c_sub (snd kc)) (length traj) (snd (iblock cfg x traj kc))) (asif_constraints s) = jss).
  { apply map_ext; intros [k c]; unfold iblock; cbn [fst snd]; rewrite map_map; reflexivity. }
  rewrite Ej in Fp, Es; clearbody jss; clear Ej.
  destruct (path_integrate (ac_bounds cfg) ic x dt (as_ext (get_asif s)) rest Sv Pth) as (c' & Ei & Ec' & _).
  rewrite <- ET in Ei.
  rewrite Nat.add_0_r in Enc, Encd.
  exists ((as_act_rows (get_asif s) ++ sel_rows (iblock cfg x traj) (asif_constraints s) jss) ++ rd).
  exists ((as_act_consts (get_asif s) ++ sel_consts (iblock cfg x traj) (asif_constraints s) jss) ++ cd).
  set (s1 := on_asif (set_as_ext c') (on_asif update_direct (prep x u s))).
  exists (on_asif (set_names (implicit_names cfg (length traj) s1)) s1).
  split; [|split; [|split; [|split]]].
  - unfold all_picks. clear - Fp Vs.
    assert (Q : forall kc, In kc (asif_constraints s) -> valid_sub (c_sub (snd kc)) (length traj))
      by (intros [k c] Hi; apply (Vs k); auto).
    clear Vs; induction Fp as [|kc js cs jss [Hp Hj] Fp IH]; constructor.
    + eapply picks_ext; [apply Q; left; auto| |exact Hp].
      intros j Hj'; simpl. rewrite !map_map; simpl.
      erewrite nth_indep with (d' := _) by (rewrite map_length; auto).
      rewrite (map_nth (fun pt => point_value (snd kc) pt) traj (x, [])); reflexivity.
    + apply IH; intros; apply Q; right; auto.
  - clear - Fp; induction Fp as [|kc js cs jss [Hp Hj] Fp IH]; constructor; auto.
  - unfold implicit_demands; rewrite !app_assoc.
    apply encodes_app; [apply encodes_app; [exact Enc|]|exact Encd].
    apply (sel_encodes cfg n); auto.
    clear - Fp; induction Fp as [|kc js cs jss [Hp Hj] Fp IH]; constructor; auto.
  - constructor; try reflexivity.
    + exact W2.
    + exact W1.
    + exact Ec'.
    + cbn [get_asif ext on_asif set_names as_names]. unfold implicit_names.
      change (as_names (get_asif s1)) with (as_names (get_asif s)). rewrite Hd. reflexivity.
  - intros solve. apply asif_filter_finish.
    + unfold implicit_mats.
      assert (Q : lift (py_div (ic_window ic) dt) (on_asif update_direct (prep x u s))
                  = (Ok (ic_window ic / dt), on_asif update_direct (prep x u s))).
      { unfold lift, py_div; destruct (Req_EM_T dt 0); [destruct Wn; lra|reflexivity]. }
      unfold bind at 1; rewrite Q; clear Q.
      assert (Qn : Z.to_nat (py_int (ic_window ic / dt) + 1) = length traj).
      { rewrite LT. pose proof (window_steps_int _ _ _ Wn) as Q.
        assert (0 <= py_int (ic_window ic / dt))%Z; [|lia].
        destruct Wn as (D0 & D1 & D2); unfold py_int.
        assert (0 <= ic_window ic / dt).
        { apply Rmult_le_pos; [|left; apply Rinv_0_lt_compat; auto].
          pose proof (pos_INR m); nra. }
        destruct (Rle_dec 0 _); [|contradiction].
        apply le_IZR. destruct (base_Int_part (ic_window ic / dt)) as [B1 B2].
        assert (H9 : -1 < IZR (Int_part (ic_window ic / dt))) by lra.
        apply (lt_IZR (-1)) in H9; apply IZR_le; lia. }
      rewrite Qn; cbv zeta.
      assert (Qi : on_actl (implicit_integrate (ac_bounds (with_solver solve cfg)) ic x dt (length traj))
                (on_asif update_direct (prep x u s)) = (Ok traj, s1)).
      { unfold on_actl, zoom.
        change (as_ext (get_asif (on_asif update_direct (prep x u s)))) with (as_ext (get_asif s)).
        change (ac_bounds (with_solver solve cfg)) with (ac_bounds cfg).
        rewrite LT, <- Lm, Ei; reflexivity. }
      unfold bind at 1; rewrite Qi; clear Qi.
      assert (Qm : implicit_ineq_mats (with_solver solve cfg) x (length traj) traj s1 =
         (Ok (as_act_rows (get_asif s) ++ sel_rows (iblock cfg x traj) (asif_constraints s) jss,
              as_act_consts (get_asif s) ++ sel_consts (iblock cfg x traj) (asif_constraints s) jss), s1)).
      { unfold implicit_ineq_mats, bind, get, lift, ret.
        change (as_num_slack (get_asif s1)) with (as_num_slack (get_asif s)); rewrite W1.
        change (cb_constraints (ext s1)) with (asif_constraints s).
        change (cb_params (ext s1)) with (cb_params (ext (prep x u s))).
        change (cb_enabled (ext s1)) with (cb_enabled (ext (prep x u s))).
        rewrite implicit_blocks_solver, (implicit_blocks_ok cfg 0); auto.
        - rewrite Es; reflexivity.
        - intros k c Hc; apply prep_params; auto. }
      unfold bind at 1; rewrite Qm; reflexivity.
    + change (direct_rows (ac_dim cfg) (as_num_slack (get_asif s)) (asif_directs s)
       (as_dparams (update_direct (get_asif s))) (as_denabled (update_direct (get_asif s))) x = Ok (rd, cd)).
      rewrite W1; exact Ed.
Qed.
