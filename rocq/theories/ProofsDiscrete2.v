(** Consequences of a successful call, the closed loop and the histories of the discrete
    ASIF module. *)
From Coq Require Import String Reals List Bool ZArith Lia Lra.
From Verif Require Import Prelude Vec ModelBase ModelController ModelSimplex ModelAsif ModelDiscrete
  SpecCore SpecHistory SpecAsif SpecDiscrete ProofsBase ProofsHistory ProofsSim ProofsVec ProofsAsif ProofsAsif2 ProofsAsif3 ProofsAsif4 ProofsAsif5 ProofsDiscrete.
Import ListNotations.
Local Open Scope R_scope.

Lemma with_slsqp_same {X} (cfg : disc_cfg X) : with_slsqp (dc_solve cfg) cfg = cfg.
Proof. destruct cfg; reflexivity. Qed.

(** ** The objective *)

Lemma mv_diag_aux n : forall w z a, (a + length w = n)%nat -> (length w = length z)%nat -> forall full,
  length full = n -> (forall i, nth (a + i) full 0 = nth i z 0) ->
  map (fun r => dot r full) (map2 (fun i x => vscale x (unit_vec n i)) (seq a (length w)) w) = map2 Rmult w z.
Proof.
  induction w as [|c w IH]; intros [|x z] a H L full Lf E; simpl in *; try discriminate; auto.
  rewrite dot_vscale_l, dot_unit by lia.
  rewrite (IH z (S a)); try lia; auto.
  - specialize (E 0%nat); rewrite Nat.add_0_r in E; simpl in E; rewrite E; auto.
  - intros i; specialize (E (S i)); simpl in E; rewrite <- E; f_equal; lia.
Qed.
Lemma mv_diag w z : length w = length z -> mv (diag w) z = map2 Rmult w z.
Proof. intros L; unfold mv, diag; apply mv_diag_aux; auto. Qed.
Lemma diag_rows w : Forall (fun r => length r = length w) (diag w).
Proof.
  unfold diag. generalize (length w) at 1 2 as n; intros n.
  assert (G : forall l (v : vec), Forall (fun r => length r = n) (map2 (fun i x => vscale x (unit_vec n i)) l v)).
  { induction l as [|i l IH]; intros [|x v]; simpl; constructor; auto.
    rewrite vscale_length, unit_vec_length; auto. }
  apply G.
Qed.
Lemma diag_length w : length (diag w) = length w.
Proof.
  unfold diag. generalize (length w) at 1 as n; intros n.
  assert (G : forall (v : vec) a, length (map2 (fun i x => vscale x (unit_vec n i)) (seq a (length v)) v) = length v).
  { induction v as [|x v IH]; intros a; simpl; auto. }
  apply G.
Qed.
Lemma dot_scaled w : forall z, dot (map2 Rmult w z) (map2 Rmult w z) = weighted_squares (map (fun a => a * a) w) z.
Proof. induction w as [|a w IH]; intros [|x z]; simpl; auto. rewrite IH; ring. Qed.
Lemma dot_ones u w : forall z, dot (u ++ zeros (length w)) (map2 Rmult (repeat 1 (length u) ++ w) z) =
  dot u (firstn (length u) z).
Proof.
  induction u as [|a u IH]; intros z; simpl.
  - apply dot_zeros_l.
  - destruct z as [|x z]; simpl; auto. rewrite IH; ring.
Qed.
Lemma weighted_app w w' z : weighted_squares (w ++ w') z =
  weighted_squares w (firstn (length w) z) + weighted_squares w' (skipn (length w) z).
Proof. rewrite <- !wsq_weighted; apply wsq_app. Qed.

(** The objective is the documented cost, up to a constant. *)
Lemma disc_obj_cost dim ps u z : Forall (fun p => 0 <= p) ps ->
  length u = dim -> length z = (dim + length ps)%nat ->
  disc_obj (obj_weight dim ps) (u ++ zeros (length ps)) z = slack_cost dim ps u z - / 2 * sumsq u.
Proof.
  intros Hp Lu Lz; unfold disc_obj, obj_weight.
  set (w := repeat 1 dim ++ map sqrt ps).
  assert (Lw : length w = length z) by (unfold w; rewrite app_length, repeat_length, map_length; auto).
  rewrite diag_length, mv_diag by auto.
  rewrite (vm_dot (length w)) by apply diag_rows. rewrite mv_diag by auto.
  rewrite dot_scaled. unfold w. rewrite map_app, weighted_app, map_length, repeat_length.
  subst dim. replace (length ps) with (length (map sqrt ps)) at 1 by (apply map_length).
  rewrite dot_ones. unfold slack_cost.
  rewrite dist2_expand by (rewrite firstn_length; lia).
  assert (E1 : weighted_squares (map (fun a => a * a) (repeat 1 (length u))) (firstn (length u) z) = sumsq (firstn (length u) z)).
  { assert (Lf : (length u <= length z)%nat) by lia. clear - Lf; revert z Lf.
    induction u as [|a u IH]; intros [|x z] Lf; simpl in *; try lia; auto.
    unfold sumsq in *; simpl; rewrite IH by lia; ring. }
  rewrite E1.
  assert (E2 : map (fun a => a * a) (map sqrt ps) = ps).
  { rewrite map_map. clear - Hp; induction Hp; simpl; auto. rewrite IHHp, sqrt_sqrt by auto; auto. }
  rewrite E2; lra.
Qed.

(** ** A call that returns without a warning *)

Lemma limits_within b dim slacks lims z : limits_say b dim slacks lims -> in_limits lims z ->
  within b (firstn dim z).
Proof.
  intros (L & Hb & _) Hz.
  assert (G : forall i v, nth_error (firstn dim z) i = Some v -> (i < dim)%nat /\ nth_error z i = Some v).
  { intros i v Hi. assert (Hlt : (i < dim)%nat).
    { assert (i < length (firstn dim z))%nat by (apply nth_error_Some; congruence).
      rewrite firstn_length in H; lia. }
    split; auto. rewrite <- (firstn_skipn dim z), nth_error_app1; auto.
    apply nth_error_Some; congruence. }
  split; intros i x r Hi Hr; destruct (G _ _ Hi) as [Lt Hi']; destruct (Hz i _ x (Hb i Lt) Hi') as [A B]; auto.
Qed.

Lemma Forall2_in_r {A B} (R : A -> B -> Prop) l l' y : Forall2 R l l' -> In y l' -> exists x, In x l /\ R x y.
Proof.
  induction 1; simpl; [tauto|]. intros [->|H1]; [exists x; auto|].
  destruct (IHForall2 H1) as (x0 & ? & ?); exists x0; auto.
Qed.

Lemma disc_solved {X P} tol (cfg : disc_cfg X) (s : dmod X P) x dt u w s' :
  slsqp_contract tol (dc_solve cfg) -> disc_in_use cfg s dt u ->
  disc_filter_control cfg (InArray x) dt u s = (Ok w, s') -> disc_warnings s' = disc_warnings s ->
  exists z, length z = (dc_dim cfg + slack_count (disc_constraints s))%nat /\ w = firstn (dc_dim cfg) z /\
    within (dc_bounds cfg) w /\
    (forall c j, In (c, j) (enabled_places 0 (disc_constraints s)) ->
       steps_well (dc_next cfg) tol c x dt w (slack_value (dc_dim cfg) c j z)) /\
    (intervening s' = true <-> dc_eps cfg < sqrt (dist2 u w)).
Proof.
  intros QC U Hc Hw.
  destruct (disc_call cfg s x dt u U) as (obj & cons & lims & Eo & Pr & Li & Hs).
  specialize (Hs (dc_solve cfg)); cbv zeta in Hs; rewrite with_slsqp_same, Hc in Hs; simpl fst in Hs; simpl snd in Hs.
  destruct Hs as (H1 & H2 & H3 & H4).
  set (x0 := u ++ zeros (slack_count (disc_constraints s))) in *.
  destruct (dc_solve cfg obj x0 cons lims) as [[ok z]|e] eqn:Ea; [|specialize (H1 e eq_refl); discriminate].
  destruct ok.
  - destruct (QC _ _ _ _ _ Ea) as (Lz & Iz & Cz).
    assert (Lz' : length z = (dc_dim cfg + slack_count (disc_constraints s))%nat).
    { rewrite Lz; unfold x0; rewrite app_length, zeros_length; destruct U; auto. }
    destruct (H4 true z eq_refl (or_introl eq_refl)) as (w' & Bw & Ew & Hi); [lia|].
    injection Ew as <-.
    pose proof (limits_within _ _ _ _ _ Li Iz) as Wz.
    assert (F : fits (dc_bounds cfg) (length (firstn (dc_dim cfg) z))).
    { assert (N : forall o n, one_number o -> fits1 o n) by (intros [[r|v]|] n H; simpl in *; auto).
      destruct U; split; apply N; auto. }
    pose proof (clip_id _ _ F Wz) as Cid.
    apply (clip_iff_boxed _ _ _ F) in Bw. rewrite Cid in Bw; injection Bw as <-.
    exists z; split; [auto|split; [auto|split; [auto|split]]].
    + intros c j Hin. destruct (Forall2_in_r _ _ _ _ Pr Hin) as (g & Ig & Hg).
      destruct (Hg z) as (v & Ev & Hv). apply Hv. eapply Cz; eauto.
    + rewrite Hi; apply Rltb_true.
  - destruct (dc_exc cfg) eqn:Ee; [specialize (H2 z eq_refl eq_refl); discriminate|].
    exfalso. specialize (H3 false z eq_refl (or_intror eq_refl)); simpl in H3; lia.
Qed.

(** ** Disabled constraints *)

Lemma same_enabled_cbfs {X P} (cfg : disc_cfg X) x dt : forall (cs cs' : dict (constraint X P)) n,
  same_enabled cs cs' ->
  enabled_cbfs cfg (map snd cs) (slack_indices n cs) (map (fun kc => c_params (snd kc)) cs)
    (map (fun kc => c_enabled (snd kc)) cs) x dt =
  enabled_cbfs cfg (map snd cs') (slack_indices n cs') (map (fun kc => c_params (snd kc)) cs')
    (map (fun kc => c_enabled (snd kc)) cs') x dt.
Proof.
  intros cs cs' n H; revert n; induction H as [|[k c] [k' c'] cs cs' (E1 & E2 & E3 & E4) _ IH]; intros n; auto.
  simpl in *; subst k'. rewrite <- E3, <- E2.
  destruct (c_enabled c) eqn:Ec.
  - specialize (E4 eq_refl); injection E4 as <-.
    destruct (c_slack c); simpl; rewrite IH; auto.
  - destruct (c_slack c); simpl; rewrite IH; auto.
Qed.
Lemma same_enabled_scales {X P} (cs cs' : dict (constraint X P)) : same_enabled cs cs' -> scales cs = scales cs'.
Proof.
  induction 1 as [|[k c] [k' c'] cs cs' (E1 & E2 & E3 & E4) _ IH]; auto.
  simpl in *; rewrite E3, IH; auto.
Qed.

Lemma disc_disabled {X P} (cfg : disc_cfg X) (s s' : dmod X P) x dt u :
  disc_reached cfg s -> disc_reached cfg s' -> enable s = true -> enable s' = true ->
  same_enabled (disc_constraints s) (disc_constraints s') ->
  fst (disc_filter_control cfg (InArray x) dt u s) = fst (disc_filter_control cfg (InArray x) dt u s').
Proof.
  intros R R' En En' Hs.
  destruct (disc_reached_plugged _ _ R) as [K P1 P2 P3 P4].
  destruct (disc_reached_plugged _ _ R') as [K' P1' P2' P3' P4'].
  pose proof (same_enabled_scales _ _ Hs) as Sc.
  assert (Ct : slack_count (disc_constraints s) = slack_count (disc_constraints s'))
    by (rewrite <- !scales_count, Sc; auto).
  destruct (update_params_keyed _ K) as [U1 U2]; destruct (update_params_keyed _ K') as [U1' U2'].
  assert (Ask : forall lims, disc_asks cfg (prep x u s) x dt u lims = disc_asks cfg (prep x u s') x dt u lims).
  { intros lims; unfold disc_asks; cbv zeta.
    change (cb_params (ext (prep x u s))) with (cb_params (update_params (ext s))).
    change (cb_enabled (ext (prep x u s))) with (cb_enabled (update_params (ext s))).
    change (cb_ext (ext (prep x u s))) with (cb_ext (ext s)).
    change (cb_constraints (ext (prep x u s))) with (disc_constraints s).
    change (cb_params (ext (prep x u s'))) with (cb_params (update_params (ext s'))).
    change (cb_enabled (ext (prep x u s'))) with (cb_enabled (update_params (ext s'))).
    change (cb_ext (ext (prep x u s'))) with (cb_ext (ext s')).
    change (cb_constraints (ext (prep x u s'))) with (disc_constraints s').
    rewrite U1, U2, P1, P2, P4, U1', U2', P1', P2', P4'; fold (disc_constraints s) (disc_constraints s').
    rewrite !map_map. rewrite Ct, Sc. cbn [snd]. rewrite (same_enabled_cbfs cfg x dt _ _ 0%nat Hs); auto. }
  change (fst (gfilter (dc_bounds cfg) (disc_filter cfg) (InArray x) dt u s) =
          fst (gfilter (dc_bounds cfg) (disc_filter cfg) (InArray x) dt u s')).
  rewrite !gfilter_array, !disc_filter_eq by auto.
  change (ds_opt_bounds (cb_ext (ext (prep x u s)))) with (ds_opt_bounds (cb_ext (ext s))).
  change (ds_opt_bounds (cb_ext (ext (prep x u s')))) with (ds_opt_bounds (cb_ext (ext s'))).
  change (ds_num_slack (cb_ext (ext (prep x u s)))) with (ds_num_slack (cb_ext (ext s))).
  change (ds_num_slack (cb_ext (ext (prep x u s')))) with (ds_num_slack (cb_ext (ext s'))).
  rewrite P3, P3', P1, P1', Ct.
  destruct (scipy_bounds _) as [lims|e]; [|reflexivity].
  rewrite Ask. destruct (disc_asks _ _ _ _ _ _) as [[ok z]|e]; [|reflexivity].
  destruct (negb ok && dc_exc cfg); [reflexivity|]. cbv zeta.
  destruct (opt_monitor _ _ _); [|reflexivity]. destruct (clip _ _); reflexivity.
Qed.

(** ** The closed loop *)

Lemma call_constraints {X P} (cfg : disc_cfg X) i dt u (s : dmod X P) r s' :
  disc_filter_control cfg i dt u s = (r, s') ->
  disc_constraints s' = disc_constraints s /\ enable s' = enable s.
Proof.
  intros H.
  assert (St : cb_step (gfilter (dc_bounds cfg) (disc_filter cfg)) disc_reset (OFilter i dt u) s = (obs_of r, s')).
  { simpl; unfold gfilter; unfold disc_filter_control in H; rewrite H; auto. }
  split.
  - unfold disc_constraints. rewrite (step_constraints _ _ _ (disc_framed cfg) disc_reset_framed _ _ _ _ St).
    simpl; apply map_id.
  - rewrite (step_enable _ _ _ (disc_framed cfg) disc_reset_framed _ _ _ _ St); auto.
Qed.

Lemma call_reached {X P} (cfg : disc_cfg X) i dt u (s : dmod X P) r s' : disc_reached cfg s ->
  disc_filter_control cfg i dt u s = (r, s') -> disc_reached cfg s'.
Proof.
  intros R H; eapply (disc_reached_step cfg (OFilter i dt u)); [exact R|]. simpl; rewrite H; reflexivity.
Qed.

Lemma no_slack_place {X P} (cs : dict (constraint X P)) : forall n k c, In (k, c) cs -> c_enabled c = true ->
  exists j, In (c, j) (enabled_places n cs).
Proof.
  induction cs as [|[k0 c0] cs IH]; intros n k c H E; simpl in H; [destruct H|]; simpl; destruct H as [H|H].
  - injection H as -> ->; rewrite E; exists n; simpl; auto.
  - destruct (IH (if has_slack (k0, c0) then S n else n) k c H E) as (j & Hj).
    exists j; apply in_or_app; auto.
Qed.

Lemma loop_safe {X P} tol (cfg : disc_cfg X) dt (s : dmod X P) x xs :
  disc_loop cfg dt s x xs ->
  slsqp_contract tol (dc_solve cfg) -> disc_reached cfg s ->
  one_number (b_low (dc_bounds cfg)) -> one_number (b_high (dc_bounds cfg)) ->
  strengthened (disc_constraints s) -> enable s = true -> 0 < dt ->
  forall k c lo, In (k, c) (disc_constraints s) -> c_enabled c = true -> c_slack c = None ->
  (forall y, In y (x :: xs) -> lo <= level c y -> dt * (decay c (level c y) + tol) <= level c y - lo) ->
  lo <= level c x -> Forall (fun y => lo <= level c y) xs.
Proof.
  intros L QC; induction L as [s x|s x u w s' xs Lu Hc Hw L IH];
    intros R Hl Hh St En Hd k c lo Hin Hen Hns Hg Hx; constructor.
  - destruct (disc_solved tol cfg s x dt u w s' QC) as (z & _ & _ & _ & Sw & _); auto.
    { constructor; auto. }
    destruct (no_slack_place _ 0%nat k c Hin Hen) as (j & Hj).
    specialize (Sw c j Hj); unfold steps_well, slack_value in Sw; rewrite Hns in Sw.
    specialize (Hg x (or_introl eq_refl) Hx). lra.
  - destruct (call_constraints _ _ _ _ _ _ _ Hc) as [Ec Ee].
    refine (IH (call_reached _ _ _ _ _ _ _ R Hc) Hl Hh _ _ Hd k c lo _ Hen Hns _ _);
      [rewrite Ec; auto|congruence|rewrite Ec; auto| |].
    + intros y Hy; apply Hg; right; auto.
    + destruct (disc_solved tol cfg s x dt u w s' QC) as (z & _ & _ & _ & Sw & _); auto.
      { constructor; auto. }
      destruct (no_slack_place _ 0%nat k c Hin Hen) as (j & Hj).
      specialize (Sw c j Hj); unfold steps_well, slack_value in Sw; rewrite Hns in Sw.
      specialize (Hg x (or_introl eq_refl) Hx). lra.
Qed.

(** ** Similar modules *)

Definition disc_alike (y y' : disc) : Prop :=
  ds_num_slack y = ds_num_slack y' /\ ds_weight y = ds_weight y' /\
  ds_opt_bounds y = ds_opt_bounds y' /\ ds_slack_idx y = ds_slack_idx y'.

Lemma disc_flt_sim {X P} (cfg : disc_cfg X) : flt_sim disc_alike (disc_filter (P:=P) cfg).
Proof.
  intros x dt u V s s' G Ep Ee.
  pose proof G as G0.
  destruct G as (H1 & H2 & H3 & H4 & H5 & H6 & H7 & (D1 & D2 & D3 & D4) & H9).
  rewrite !disc_filter_eq. rewrite <- D3.
  destruct (scipy_bounds _) as [lims|e]; [|split; [reflexivity|exact G0]].
  replace (disc_asks cfg s' x dt u lims) with (disc_asks cfg s x dt u lims)
    by (unfold disc_asks; rewrite D1, D2, D4, H5, Ep, Ee; reflexivity).
  destruct (disc_asks _ _ _ _ _ _) as [[ok z]|e]; [|split; [reflexivity|exact G0]].
  destruct (negb ok && dc_exc cfg); [split; [reflexivity|exact G0]|]. cbv zeta. rewrite D1.
  destruct (opt_monitor _ _ _) as [b|e]; (split; [reflexivity|]); destruct ok; simpl; try exact G0;
    unfold gsim; simpl; (repeat (split; [assumption || reflexivity|]));
    (split; [unfold disc_alike; simpl; auto|exact H9]).
Qed.
Lemma disc_rst_sim {X P} : rst_sim disc_alike (@disc_reset X P).
Proof.
  intros V s s' G.
  destruct G as (H1 & H2 & H3 & H4 & H5 & H6 & H7 & H8 & H9).
  split; [reflexivity|]. unfold gsim; simpl; auto 12.
Qed.

(** A module after a reset is like a new one with the same constraints. *)
Lemma disc_reset_new {X P} (cfg : disc_cfg X) (s : dmod X P) fresh : disc_reached cfg s ->
  disc_new cfg (disc_constraints s) fresh ->
  exists s1, disc_reset s = (Ok tt, s1) /\ gsim disc_alike False s1 fresh /\ enable fresh = true.
Proof.
  intros R F; eexists; split; [reflexivity|].
  destruct (disc_reached_plugged _ _ R) as [K P1 P2 P3 P4].
  assert (N : distinct_keys (disc_constraints s)) by apply K.
  destruct (disc_init_plugged cfg _ None fresh N F) as [K' Q1 Q2 Q3 Q4].
  unfold disc_new, disc_init in F; cbn [select_constraints rbind] in F; cbv zeta in F.
  unfold cb_init in F; cbn [select_constraints rbind] in F. injection F as E.
  assert (Ec : disc_constraints fresh = disc_constraints s) by (rewrite <- E; reflexivity).
  rewrite Ec in *.
  split; [|rewrite <- E; reflexivity].
  unfold gsim. split; [rewrite <- E; reflexivity|split; [rewrite <- E; reflexivity|]].
  split; [rewrite <- E; reflexivity|split; [rewrite <- E; reflexivity|]].
  split; [symmetry; exact Ec|split; [exact K|split; [exact K'|split; [|tauto]]]].
  unfold disc_alike; simpl. rewrite P1, P2, P3, P4, Q1, Q2, Q3, Q4; auto.
Qed.

Lemma disc_out_sized {X P} (cfg : disc_cfg X) (ok : vec -> Prop) :
  one_number (b_low (dc_bounds cfg)) -> one_number (b_high (dc_bounds cfg)) ->
  out_sized_on ok (dc_bounds cfg) (disc_filter (P:=P) cfg).
Proof.
  intros Hl Hh x dt u s v s' _ _.
  assert (N : forall o n, one_number o -> fits1 o n) by (intros [[r|w]|] n H; simpl in *; auto).
  split; apply N; auto.
Qed.

(** Per-element bounds. *)
Lemma disc_array_bounds {X P} (cfg : disc_cfg X) (s : dmod X P) x dt u :
  disc_reached cfg s -> enable s = true -> (0 < dc_dim cfg)%nat ->
  ~ one_number (b_low (dc_bounds cfg)) \/ ~ one_number (b_high (dc_bounds cfg)) ->
  exists msg, fst (disc_filter_control cfg (InArray x) dt u s) = Err (ValueError msg).
Proof.
  intros R En Hd Hb.
  destruct (disc_reached_plugged _ _ R) as [K P1 P2 P3 P4].
  change (disc_filter_control cfg (InArray x) dt u s) with (gfilter (dc_bounds cfg) (disc_filter cfg) (InArray x) dt u s).
  rewrite gfilter_array, disc_filter_eq by auto.
  change (ds_opt_bounds (cb_ext (ext (prep x u s)))) with (ds_opt_bounds (cb_ext (ext s))).
  rewrite P3. destruct (dc_dim cfg) as [|n]; [lia|].
  assert (N : forall o, (exists r, as_number o = Ok r) \/ (exists m, as_number o = Err (ValueError m))).
  { intros [[r|[|r [|? ?]]]|]; simpl; eauto. }
  assert (N' : forall o, ~ one_number o -> exists m, as_number o = Err (ValueError m)).
  { intros [[r|[|r [|? ?]]]|] H; simpl in *; try (exfalso; apply H; auto; fail); eauto. }
  simpl repeat. cbn [app]. unfold scipy_bounds; cbn [rmap fst snd].
  destruct Hb as [Hb|Hb].
  - destruct (N' _ Hb) as (m & ->); exists m; reflexivity.
  - destruct (N (b_low (dc_bounds cfg))) as [(r & ->)|(m & ->)]; [|exists m; reflexivity].
    destruct (N' _ Hb) as (m & ->); exists m; reflexivity.
Qed.
