(** The implicit ASIF module: infeasibility, disabled constraints, slack, recurrence, names. *)
From Coq Require Import String Reals List Bool ZArith Lia Lra Permutation.
From Verif Require Import Prelude Vec ModelBase ModelController ModelSimplex ModelAsif
  SpecCore SpecHistory SpecAsif SpecImplicit ProofsBase ProofsVec ProofsHistory ProofsSimplex ProofsAsif ProofsAsif2
  ProofsAsif3 ProofsAsif4 ProofsAsif5 ProofsImplicit ProofsImplicit2 ProofsImplicit3 ProofsImplicit4.
Import ListNotations.
Local Open Scope R_scope.

Notation jss_of traj cs :=
  (map (fun kc => pick_list (c_sub (snd kc)) (length traj) (map (point_value (snd kc)) traj)) cs).

Lemma implicit_outcomes {X P} (cfg : asif_cfg X) ic n (s : amod X P ctl) x dt u traj w s' :
  qp_contract (ac_solve cfg) -> imp_in_use cfg ic n s x dt u traj ->
  implicit_asif_filter_control cfg ic (InArray x) dt u s = (Ok w, s') ->
  warnings s' = warnings s \/
  (warnings s' = S (warnings s) /\ ac_exc cfg = false /\ clip (ac_bounds cfg) u = Ok w /\
   intervening s' = Rltb (ac_eps cfg) 0 /\ causes s' = causes s /\
   forall y, length y = ac_dim cfg ->
     ~ control_ok (ac_bounds cfg) (ac_f cfg) (ac_g cfg) (asif_constraints s) (asif_directs s) x traj
         (jss_of traj (asif_constraints s)) y).
Proof.
  intros QC U Hc.
  destruct (implicit_call cfg ic n s x dt u traj U) as (rows & consts & Pk & Jn & Enc & SO & Hcall).
  specialize (Hcall (ac_solve cfg)); rewrite with_solver_same in Hcall; cbv zeta in Hcall.
  destruct Hcall as (C1 & C1' & C2 & C3 & _).
  pose proof (ii_length _ _ _ _ _ _ _ _ U) as Lu.
  destruct (ac_solve cfg (obj_weight (ac_dim cfg) []) u rows consts) as [[z iact]|e] eqn:Es.
  - left.
    destruct (qp_optimal _ QC _ _ _ _ _ _ Es) as (Lz & _ & _ & Act & _).
    destruct (implicit_solved cfg ic n s x dt u traj w s' QC U Hc) as (_ & _ & Q); cbv zeta in Q.
    destruct Q as (_ & _ & _ & _ & _ & _ & _ & Hw & _); [|exact Hw].
    right; exists z; split; [congruence|]. apply SO; [congruence|]. apply (qp_optimal _ QC _ _ _ _ _ _ Es).
  - assert (Ei : e = ValueError msg_inconsistent \/ e <> ValueError msg_inconsistent).
    { destruct e; try (right; discriminate).
      destruct (string_dec msg msg_inconsistent); [left; subst; auto|right; congruence]. }
    destruct Ei as [->|Ne].
    + specialize (C2 eq_refl); destruct (ac_exc cfg).
      * destruct C2 as (s1 & Hc1 & _); rewrite Hc in Hc1; discriminate.
      * destruct C2 as (w1 & s1 & Hc1 & H1 & H2 & H3 & H4); rewrite Hc in Hc1.
        injection Hc1 as -> ->. right; split; [auto|split; [auto|split; [auto|split; [auto|split; [auto|]]]]].
        intros y Ly Oky; apply (qp_inconsistent _ QC _ _ _ _ Es y); [congruence|apply SO; auto].
    + destruct (C3 e eq_refl Ne) as (s1 & Hc1 & _); rewrite Hc in Hc1; discriminate.
Qed.

(** ** Disabled constraints *)
Lemma point_ok_active {X P} f g x traj (cs : dict (constraint X P)) (F : string * constraint X P -> list nat) w :
  (forall i k c js j, nth_error cs i = Some (k, c) -> c_enabled c = true -> nth_error (map F cs) i = Some js -> In j js ->
     0 <= point_margin f g c x (point traj x j) w) <->
  (forall k c j, In (k, c) cs -> c_enabled c = true -> In j (F (k, c)) -> 0 <= point_margin f g c x (point traj x j) w).
Proof.
  split.
  - intros H k c j Hi En Hj; apply In_nth_error in Hi; destruct Hi as (i & Hi).
    apply (H i k c (F (k, c)) j); auto. rewrite nth_error_map, Hi; auto.
  - intros H i k c js j Hc En Hjs Hj; rewrite nth_error_map, Hc in Hjs; injection Hjs as <-.
    apply (H k c j); auto. eapply nth_error_In; eauto.
Qed.

Lemma control_ok_active {X P} b f g (cs : dict (constraint X P)) (ds : dict (direct X P)) x traj w :
  control_ok b f g (active cs) (active_direct ds) x traj (jss_of traj (active cs)) w <->
  control_ok b f g cs ds x traj (jss_of traj cs) w.
Proof.
  unfold control_ok; rewrite !point_ok_active. unfold active, active_direct.
  split; intros (H1 & H2 & H3); (split; [auto|split]).
  - intros k c j Hi En Hj; apply (H2 k c j); auto; apply filter_In; auto.
  - intros k d Hi En; apply (H3 k); auto; apply filter_In; auto.
  - intros k c j Hi En Hj; apply filter_In in Hi; apply (H2 k c j); auto; apply Hi.
  - intros k d Hi En; apply filter_In in Hi; apply (H3 k); auto; apply Hi.
Qed.

Lemma implicit_disabled {X P} (cfg : asif_cfg X) ic n (s s1 : amod X P ctl) x dt u traj w t w1 t1 :
  qp_contract (ac_solve cfg) -> imp_in_use cfg ic n s x dt u traj -> imp_in_use cfg ic n s1 x dt u traj ->
  asif_constraints s1 = active (asif_constraints s) -> asif_directs s1 = active_direct (asif_directs s) ->
  implicit_asif_filter_control cfg ic (InArray x) dt u s = (Ok w, t) ->
  implicit_asif_filter_control cfg ic (InArray x) dt u s1 = (Ok w1, t1) ->
  w1 = w /\ intervening t1 = intervening t /\ (warnings t1 = warnings s1 <-> warnings t = warnings s).
Proof.
  intros QC U U1 Ecs Eds Hc Hc1.
  pose proof (implicit_outcomes cfg ic n s x dt u traj w t QC U Hc) as O.
  pose proof (implicit_outcomes cfg ic n s1 x dt u traj w1 t1 QC U1 Hc1) as O1.
  pose proof (implicit_solved cfg ic n s x dt u traj w t QC U Hc) as S.
  pose proof (implicit_solved cfg ic n s1 x dt u traj w1 t1 QC U1 Hc1) as S1.
  cbv zeta in S, S1; destruct S as (_ & _ & S), S1 as (_ & _ & S1).
  rewrite Ecs, Eds in O1, S1.
  destruct O as [O|(Ow & _ & Oc & Oi & _ & On)], O1 as [O1|(Ow1 & _ & Oc1 & Oi1 & _ & On1)].
  - destruct (S (or_introl O)) as (iact & out & Lw & Okw & Opt & Hi & _).
    destruct (S1 (or_introl O1)) as (iact1 & out1 & Lw1 & Okw1 & Opt1 & Hi1 & _).
    rewrite control_ok_active in Okw1.
    destruct (Opt w1 Lw1 Okw1) as [Le Eq].
    destruct (Opt1 w Lw ltac:(apply control_ok_active; auto)) as [Le1 _].
    assert (Ew : w1 = w) by (apply Eq; lra).
    subst w1; split; [auto|split; [congruence|split; auto]].
  - exfalso; destruct (S (or_introl O)) as (iact & out & Lw & Okw & _).
    apply (On1 w Lw); apply control_ok_active; auto.
  - exfalso; destruct (S1 (or_introl O1)) as (iact & out & Lw & Okw & _).
    apply (On w1 Lw); apply control_ok_active; auto.
  - split; [congruence|split; [congruence|]]. split; intros H; exfalso; lia.
Qed.

(** ** Slack *)
Lemma subsample_slack {X P} ns (cs : dict (constraint X P)) n rows consts vals :
  ns <> 0%nat -> cs <> [] -> exists e, subsample_loop ns cs 0 n rows consts vals = Err e.
Proof.
  intros Hn Hc; destruct cs as [|[k c] cs]; [congruence|]; simpl.
  destruct (subsample_one _ _ _ _ _ _); cbn [rbind]; [|eauto].
  apply Nat.eqb_neq in Hn; rewrite Hn; eauto.
Qed.

Lemma bind_err {S A B} (m : M S A) (f : A -> M S B) s e s' : m s = (Err e, s') -> bind m f s = (Err e, s').
Proof. intros H; unfold bind; rewrite H; auto. Qed.

Lemma implicit_slack_fails {X P} (cfg : asif_cfg X) ic (s : amod X P ctl) x dt u :
  implicit_reached cfg ic s -> (0 < slack_count (asif_constraints s))%nat -> enable s = true ->
  exists e s', implicit_asif_filter_control cfg ic (InArray x) dt u s = (Err e, s').
Proof.
  intros Rch Hs En.
  destruct (implicit_reached_wired cfg ic s Rch) as [W1 _ _ _ _].
  assert (F : exists e s', asif_filter cfg (implicit_mats cfg ic) x dt u (prep x u s) = (Err e, s')).
  { unfold asif_filter, bind at 1, modify at 1.
    set (s1 := on_asif update_direct (prep x u s)).
    assert (Q : exists e s', implicit_mats cfg ic x dt s1 = (Err e, s')).
    { unfold implicit_mats. destruct (py_div (ic_window ic) dt) as [q|e] eqn:Eq; [|do 2 eexists; apply bind_err; reflexivity].
      unfold bind at 1, lift at 1. cbv zeta.
      destruct (on_actl (implicit_integrate (ac_bounds cfg) ic x dt (Z.to_nat (py_int q + 1))) s1) as [[traj|e] s2] eqn:Ei;
        [|do 2 eexists; apply bind_err; exact Ei].
      unfold bind at 1; rewrite Ei.
      assert (Q2 : exists e, implicit_ineq_mats cfg x (Z.to_nat (py_int q + 1)) traj s2 = (Err e, s2)).
      { unfold on_actl, zoom in Ei.
        destruct (implicit_integrate _ _ _ _ _ (as_ext (get_asif s1))) as [r c]; injection Ei as _ <-.
        unfold implicit_ineq_mats, bind at 1, get.
        destruct (implicit_blocks _ _ _ _ _ _ _ _) as [bl|e]; [|exists e; apply bind_err; reflexivity].
        unfold bind at 1, lift at 1.
        destruct (subsample_slack (as_num_slack (get_asif s)) (asif_constraints s) (Z.to_nat (py_int q + 1))
           (concat (map (fun b => fst (fst b)) bl)) (concat (map (fun b => snd (fst b)) bl)) (map snd bl)) as (e & Ee).
        - rewrite W1; lia.
        - intros E; rewrite E in Hs; unfold slack_count in Hs; simpl in Hs; lia.
        - exists e; apply bind_err; unfold lift. f_equal; exact Ee. }
      destruct Q2 as (e & Q2); do 2 eexists; apply bind_err; exact Q2. }
    destruct Q as (e & s' & Q); do 2 eexists; apply bind_err; exact Q. }
  destruct F as (e & s' & F).
  exists e, s'. unfold implicit_asif_filter_control.
  etransitivity; [apply (gfilter_array (ac_bounds cfg)); exact En|]. rewrite F; auto.
Qed.

(** ** A returning call has gone through the lookahead *)
Lemma bind_ok {S A B} (m : M S A) (f : A -> M S B) s b s' :
  bind m f s = (Ok b, s') -> exists a s1, m s = (Ok a, s1) /\ f a s1 = (Ok b, s').
Proof. unfold bind; destruct (m s) as [[a|e] s1]; intros H; [eauto|discriminate]. Qed.

Lemma integrate_state {X} b (ic : imp_cfg X) x dt n c traj c' :
  implicit_integrate b ic x dt n c = (Ok traj, c') -> savable (ctl_state c) /\ ctl_state c' = ctl_state c /\ ctl_initial c' = ctl_initial c.
Proof.
  intros H; unfold implicit_integrate, ctl_save, ctl_restore, bind, get, modify, lift, ret in H.
  destruct (copy_controller_state (ctl_state c)) as [c0|e] eqn:Ec; try discriminate.
  destruct (copy_savable_inv _ _ Ec) as [-> Sv].
  match type of H with context [implicit_loop ?a1 ?a2 ?a3 ?a4 ?a5 ?a6 ?a7 ?a8] =>
      destruct (implicit_loop a1 a2 a3 a4 a5 a6 a7 a8) as [[rest|e] c2] eqn:El end; try discriminate.
  destruct (implicit_loop_path _ _ _ _ _ _ _ _ _ _ El) as (L & Pth & S2 & I2).
  inversion H; subst; simpl; rewrite S2, I2; auto.
Qed.

Lemma implicit_call_lookahead {X P} (cfg : asif_cfg X) ic (s : amod X P ctl) x dt u w s' :
  enable s = true -> implicit_asif_filter_control cfg ic (InArray x) dt u s = (Ok w, s') ->
  savable (imp_ctl s) /\ imp_ctl s' = imp_ctl s /\
  (0 < dt -> 0 <= ic_window ic -> exists traj, lookahead (ac_bounds cfg) ic dt (imp_ctl s) x traj).
Proof.
  intros En H; unfold implicit_asif_filter_control in H.
  assert (H' : gfilter (ac_bounds cfg) (asif_filter cfg (implicit_mats cfg ic)) (InArray x) dt u s = (Ok w, s')) by exact H.
  rewrite gfilter_array in H' by auto; clear H.
  destruct (asif_filter cfg (implicit_mats cfg ic) x dt u (prep x u s)) as [[v|e] s1] eqn:Ef; [|discriminate].
  destruct (clip (ac_bounds cfg) v) as [w'|e]; [|discriminate].
  assert (Es' : imp_ctl s' = imp_ctl s1) by (injection H' as _ <-; reflexivity); clear H'.
  unfold asif_filter in Ef.
  apply bind_ok in Ef; destruct Ef as ([] & s2 & E1 & Ef).
  injection E1 as <-.
  apply bind_ok in Ef; destruct Ef as (rc & s3 & Em & Ef).
  assert (Q1 : imp_ctl s1 = imp_ctl s3).
  { apply bind_ok in Ef; destruct Ef as (rc2 & s4 & Eu & Ef).
    assert (imp_ctl s4 = imp_ctl s3).
    { revert Eu; apply (lv_bind (Z:=ctl) imp_ctl); [apply lv_get|intros y; apply lv_bind; [apply lv_lift|intros; apply lv_ret]]. }
    rewrite <- H; revert Ef; apply (lv_finish (Z:=ctl) imp_ctl cfg u (fst rc2) (snd rc2)); reflexivity. }
  unfold implicit_mats in Em.
  apply bind_ok in Em; destruct Em as (q & s5 & Eq & Em).
  unfold lift in Eq; injection Eq as Eq <-.
  apply bind_ok in Em; destruct Em as (traj & s6 & Ei & Em).
  assert (Q2 : imp_ctl s3 = imp_ctl s6).
  { revert Em; apply (lv_bind (Z:=ctl) imp_ctl).
    - apply lv_bind; [apply lv_get|intros y]. apply lv_bind; [apply lv_lift|intros bl].
      apply lv_bind; [apply lv_lift|intros rc2; apply lv_ret].
    - intros rc2; apply lv_bind; [apply lv_modify; reflexivity|intros; apply lv_ret]. }
  unfold on_actl, zoom in Ei.
  destruct (implicit_integrate _ _ _ _ _ _) as [r c] eqn:Eint.
  injection Ei as -> <-.
  destruct (integrate_state _ _ _ _ _ _ _ _ Eint) as (Sv & St & _).
  split; [exact Sv|split; [rewrite Es', Q1, Q2; exact St|]].
  intros Hd Hw. destruct (window_steps_exists _ _ Hd Hw) as (m & Wm).
  unfold py_div in Eq; destruct (Req_EM_T dt 0); [discriminate|]; injection Eq as <-.
  pose proof (window_steps_int _ _ _ Wm) as Qm.
  assert (Hn : (1 <= Z.to_nat (py_int (ic_window ic / dt) + 1))%nat /\
               (Z.to_nat (py_int (ic_window ic / dt) + 1) - 1)%nat = m).
  { assert (0 <= py_int (ic_window ic / dt))%Z; [|lia].
    unfold py_int.
    assert (0 <= ic_window ic / dt) by (apply Rmult_le_pos; [auto|left; apply Rinv_0_lt_compat; auto]).
    destruct (Rle_dec 0 _); [|contradiction].
    destruct (base_Int_part (ic_window ic / dt)) as [B1 B2].
    apply le_IZR.
    assert (H9 : -1 < IZR (Int_part (ic_window ic / dt))) by lra.
    apply (lt_IZR (-1)) in H9; apply IZR_le; lia. }
  destruct Hn as [Hn1 Hn2].
  destruct (integrate_path _ _ _ _ _ _ _ _ Hn1 Eint) as (_ & rest & -> & Lr & Pth & _).
  eexists; exists m, rest; split; [exact Wm|split; [congruence|split; [exact Pth|reflexivity]]].
Qed.

(** ** The recurrence in the form (I + dt J) S *)
Lemma vm_vadd k A : forall u v, length u = length v -> Forall (fun r => length r = k) A -> 
  vm k (vadd u v) A = vadd (vm k u A) (vm k v A).
Proof.
  induction A as [|r A IH]; intros [|a u] [|b v] L FA; simpl in *; try discriminate;
    try (unfold zeros; clear; induction k; simpl; auto; unfold vadd in *; simpl; f_equal; [ring|auto]; fail).
  inversion FA; subst. unfold vadd in IH; rewrite IH by (auto; lia).
  pose proof (vm_length (length r) A H2 u) as L1; pose proof (vm_length (length r) A H2 v) as L2.
  revert L1 L2; generalize (vm (length r) u A) (vm (length r) v A); clear.
  induction r as [|x r IH]; intros [|y l] [|z l'] L1 L2; simpl in *; try discriminate; auto.
  unfold vadd, vscale in *; simpl; f_equal; [ring|]. apply IH; lia.
Qed.
Lemma vm_vscale k A c : forall u, vm k (vscale c u) A = vscale c (vm k u A).
Proof.
  induction A as [|r A IH]; intros [|a u]; simpl;
    try (unfold zeros; clear; induction k; simpl; auto; unfold vscale in *; simpl; f_equal; [ring|auto]; fail).
  change (map (fun x : R => c * x) u) with (vscale c u); rewrite IH; clear. generalize (vm k u A); unfold vadd, vscale.
  induction r as [|x r IH]; intros [|y l]; simpl; auto; f_equal; [ring|auto].
Qed.
Lemma vm_zeros k A n : Forall (fun r => length r = k) A -> vm k (zeros n) A = zeros k.
Proof.
  revert n; induction A as [|r A IH]; intros [|n] FA; simpl; auto. inversion FA; subst.
  fold (zeros n); rewrite IH by auto; clear. unfold zeros, vadd, vscale.
  induction r; simpl; auto; f_equal; [ring|auto].
Qed.
Lemma vm_unit k A : forall i, (i < length A)%nat -> Forall (fun r => length r = k) A ->
  vm k (unit_vec (length A) i) A = nth i A [].
Proof.
  unfold unit_vec.
  induction A as [|r A IH]; intros i Hi FA; [simpl in Hi; lia|].
  inversion FA; subst. cbn [length seq map vm]. rewrite <- seq_shift, map_map.
  destruct i as [|i]; simpl.
  - match goal with |- context [vm _ ?b A] => replace b with (zeros (length A)) end.
    + rewrite vm_zeros by auto. unfold zeros, vadd, vscale; clear; induction r; simpl; auto; f_equal; [ring|auto].
    + unfold zeros; clear; generalize 0%nat; induction (length A); simpl; intros; f_equal; auto.
  - cbn in Hi. specialize (IH i ltac:(lia) H2).
    match type of IH with vm _ ?a _ = _ => match goal with |- context [vm _ ?b A] => replace b with a end end.
    + rewrite IH. assert (L : length (nth i A []) = length r).
      { rewrite Forall_forall in H2; apply H2, nth_In; lia. }
      revert L; generalize (nth i A []); clear; unfold vadd, vscale.
      induction r; intros [|y l] L; simpl in *; try discriminate; auto; f_equal; [ring|apply IHr; lia].
    + apply map_ext; intros; reflexivity.
Qed.

Lemma recurrence_form n dt J S : is_mat n n J -> is_mat n n S ->
  madd S (mscale dt (mm n J S)) = mm n (madd (eye n) (mscale dt J)) S.
Proof.
  intros [LJ RJ] [LS RS].
  unfold mm at 2, madd, mscale, eye.
  assert (G : forall k (J : mat) (S0 : mat), length J = k -> length S0 = k -> Forall (fun r => length r = n) J ->
     forall a, (a + k = n)%nat -> S0 = skipn a S ->
     map2 vadd S0 (map (vscale dt) (mm n J S)) =
     map (fun r => vm n r S) (map2 vadd (map (unit_vec n) (seq a k)) (map (vscale dt) J))).
  { induction k as [|k IH]; intros [|r J0] [|q S0] E1 E2 FR a Ha ES; simpl in *; try discriminate; auto.
    assert (Lr : length r = n) by (inversion FR; auto).
    assert (FR' : Forall (fun r => length r = n) J0) by (inversion FR; auto). f_equal.
    - rewrite vm_vadd, vm_vscale; auto.
      + f_equal.
        pose proof (vm_unit n S a) as VU; unfold mat, vec in *; rewrite LS in VU; rewrite VU by (auto; lia).
        rewrite <- (Nat.add_0_r a), <- nth_skipn, <- ES; reflexivity.
      + rewrite unit_vec_length, vscale_length; auto.
    - apply (IH J0 S0); auto; try lia.
      clear - ES; revert S ES; induction a as [|a IHa]; intros [|y S] ES; simpl in *; try discriminate;
        [injection ES as _ ES; auto|apply IHa; auto]. }
  apply (G n J S); auto.
Qed.
