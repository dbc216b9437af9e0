(** Consequences of the solver contract for explicit ASIF calls. *)
From Coq Require Import String Reals List Bool ZArith Lia Lra.
From Verif Require Import Prelude Vec ModelBase ModelController ModelSimplex ModelAsif
  SpecCore SpecHistory SpecAsif ProofsBase ProofsVec ProofsHistory ProofsAsif ProofsAsif2 ProofsAsif3.
Import ListNotations.
Local Open Scope R_scope.

Lemma wsq_weighted w : forall z, wsq w z = weighted_squares w z.
Proof. induction w; intros [|x z]; simpl; auto; rewrite IHw; auto. Qed.

(** The objective in closed form. *)
Lemma objective_value dim ps u z :
  length u = dim -> length z = (dim + length ps)%nat ->
  objective (obj_weight dim ps) (u ++ zeros (length ps)) z =
  / 2 * dist2 u (firstn dim z) + / 2 * weighted_squares (map sqrt ps) (skipn dim z) - / 2 * sumsq u.
Proof.
  intros Lu Lz; unfold objective, obj_weight, diag, mv.
  set (w := repeat 1 dim ++ map sqrt ps).
  assert (Lw : length w = length z) by (unfold w; rewrite app_length, repeat_length, map_length; auto).
  rewrite (wsq_rows (length w) w z 0) by (auto; lia).
  unfold w; rewrite wsq_app, repeat_length, wsq_ones by (rewrite firstn_length; lia).
  rewrite dot_app_l, dot_zeros_l, Lu.
  rewrite dist2_expand by (rewrite firstn_length; lia).
  rewrite wsq_weighted; lra.
Qed.

(** Strict convexity. *)
Fixpoint wdist (w a z : vec) : R :=
  match w, a, z with
  | c :: w', b :: a', x :: z' => c * ((b - x) * (b - x)) + wdist w' a' z'
  | _, _, _ => 0
  end.
Definition mid (y z : vec) : vec := map2 (fun a b => / 2 * a + / 2 * b) y z.
Lemma mid_length y z : length y = length z -> length (mid y z) = length y.
Proof. intros H; unfold mid; rewrite map2_length, H, Nat.min_id; auto. Qed.
Lemma dot_mid r : forall y z, length y = length z -> dot r (mid y z) = / 2 * dot r y + / 2 * dot r z.
Proof.
  induction r as [|a r IH]; intros [|b y] [|c z] H; simpl in *; try discriminate; try ring.
  unfold mid in IH; rewrite IH by lia; ring.
Qed.
Lemma wdist_mid w : forall a y z, length y = length z ->
  wdist w a (mid y z) = / 2 * wdist w a y + / 2 * wdist w a z - / 4 * (if Nat.leb (length w) (length a) then wdist w y z else wdist (firstn (length a) w) y z).
Proof.
  induction w as [|c w IH]; intros [|b a] [|p y] [|q z] H; simpl in *; try discriminate; try field;
    try (destruct (Nat.leb _ _); simpl; field).
  fold (mid y z); rewrite (IH a y z) by lia.
  destruct (Nat.leb (length w) (length a)); simpl; field.
Qed.
Lemma wdist_zero w : forall y z, length y = length z -> length y = length w ->
  Forall (fun c => 0 < c) w -> wdist w y z <= 0 -> y = z.
Proof.
  induction w as [|c w IH]; intros [|p y] [|q z] H L Fw D; simpl in *; try discriminate; auto.
  inversion Fw; subst.
  assert (N : forall w y z, Forall (fun c => 0 < c) w -> 0 <= wdist w y z).
  { clear; induction w as [|c w IH]; intros [|p y] [|q z] F; simpl; try lra.
    inversion F; subst; specialize (IH y z H2).
    pose proof (Rle_0_sqr (p - q)); unfold Rsqr in *; pose proof (Rmult_le_pos c ((p - q) * (p - q))); lra. }
  pose proof (N w y z H3); pose proof (Rle_0_sqr (p - q)) as Q; unfold Rsqr in Q.
  pose proof (Rmult_le_pos c ((p - q) * (p - q))).
  assert (E : c * ((p - q) * (p - q)) = 0) by lra.
  apply Rmult_integral in E; destruct E as [E|E]; [lra|].
  apply Rmult_integral in E; f_equal; [lra|apply IH; auto; lra].
Qed.
Lemma wdist_ones u : forall w n, length u = n -> wdist (repeat 1 n) u w = dist2 u w.
Proof.
  induction u as [|a u IH]; intros w n <-; simpl; auto.
  destruct w; simpl; auto; rewrite IH by auto; ring.
Qed.
Lemma wdist_app w1 : forall w2 a1 a2 z, length a1 = length w1 ->
  wdist (w1 ++ w2) (a1 ++ a2) z = wdist w1 a1 (firstn (length w1) z) + wdist w2 a2 (skipn (length w1) z).
Proof.
  induction w1 as [|c w1 IH]; intros w2 [|b a1] a2 z H; simpl in *; try discriminate; [ring|].
  destruct z as [|x z]; simpl; [destruct w2; destruct a2; simpl; ring|].
  rewrite IH by lia; ring.
Qed.
Lemma wdist_zeros w : forall z, length w = length z -> wdist w (zeros (length w)) z = weighted_squares w z.
Proof.
  induction w as [|c w IH]; intros [|x z] H; simpl in *; try discriminate; auto.
  fold (zeros (length w)); rewrite IH by lia; ring.
Qed.

Lemma objective_wdist dim ps u z :
  length u = dim -> length z = (dim + length ps)%nat ->
  objective (obj_weight dim ps) (u ++ zeros (length ps)) z =
  / 2 * wdist (repeat 1 dim ++ map sqrt ps) (u ++ zeros (length ps)) z - / 2 * sumsq u.
Proof.
  intros Lu Lz; rewrite objective_value by auto.
  rewrite wdist_app, repeat_length, wdist_ones by (rewrite ?repeat_length; auto).
  replace (zeros (length ps)) with (zeros (length (map sqrt ps))) by (rewrite map_length; auto).
  rewrite wdist_zeros by (rewrite map_length, skipn_length; lia). ring.
Qed.

Lemma solves_mid rows consts : forall y z, length y = length z ->
  solves rows consts y -> solves rows consts z -> solves rows consts (mid y z).
Proof.
  unfold solves; intros y z L H1; induction H1; intros H2; inversion H2; subst; constructor; auto.
  rewrite dot_mid by auto; lra.
Qed.

(** Two minimisers of the program coincide. *)
Lemma minimiser_unique dim ps u rows consts y z :
  length u = dim -> Forall (fun p => 0 < p) ps ->
  length y = (dim + length ps)%nat -> length z = (dim + length ps)%nat ->
  solves rows consts y -> solves rows consts z ->
  (forall x, length x = (dim + length ps)%nat -> solves rows consts x ->
     objective (obj_weight dim ps) (u ++ zeros (length ps)) z <=
     objective (obj_weight dim ps) (u ++ zeros (length ps)) x) ->
  objective (obj_weight dim ps) (u ++ zeros (length ps)) y <=
  objective (obj_weight dim ps) (u ++ zeros (length ps)) z -> y = z.
Proof.
  intros Lu Hp Ly Lz Sy Sz Opt Le.
  specialize (Opt (mid y z)); rewrite mid_length in Opt by congruence.
  specialize (Opt Ly (solves_mid rows consts y z ltac:(congruence) Sy Sz)).
  rewrite !objective_wdist in * by (auto; rewrite ?mid_length; congruence).
  rewrite wdist_mid in Opt by congruence.
  rewrite (proj2 (Nat.leb_le _ _)) in Opt
    by (rewrite !app_length, repeat_length, map_length, zeros_length; lia).
  apply (wdist_zero (repeat 1 dim ++ map sqrt ps)).
  - congruence.
  - rewrite app_length, repeat_length, map_length; auto.
  - apply Forall_app; split.
    + apply Forall_forall; intros c Hc; apply repeat_spec in Hc; subst; lra.
    + apply Forall_forall; intros c Hc; apply in_map_iff in Hc; destruct Hc as (p & <- & Hc).
      apply sqrt_lt_R0; rewrite Forall_forall in Hp; auto.
  - lra.
Qed.

Lemma with_solver_same {X} (cfg : asif_cfg X) : with_solver (ac_solve cfg) cfg = cfg.
Proof. destruct cfg; reflexivity. Qed.

(** A call under a solver that meets its contract, when no warning was issued or some
    decision vector is acceptable. *)
Lemma explicit_solved {X P} (cfg : asif_cfg X) n (s : amod X P unit) x dt u w s' :
  qp_contract (ac_solve cfg) ->
  explicit_reached cfg s -> fits (ac_bounds cfg) (ac_dim cfg) ->
  shaped n (ac_dim cfg) (ac_f cfg) (ac_g cfg) (asif_constraints s) (asif_directs s) x ->
  strengthened (asif_constraints s) -> enable s = true -> length u = ac_dim cfg ->
  let dim := ac_dim cfg in
  let cs := asif_constraints s in
  let ok := acceptable (ac_bounds cfg) dim (ac_f cfg) (ac_g cfg) cs (asif_directs s) x in
  let demands := explicit_demands (ac_bounds cfg) dim (ac_f cfg) (ac_g cfg) cs (asif_directs s) x in
  let cost := objective (obj_weight dim (scales cs)) (u ++ zeros (length (scales cs))) in
  (warnings s' = warnings s \/ exists y, length y = (dim + slack_count cs)%nat /\ ok y) ->
  explicit_asif_filter_control cfg (InArray x) dt u s = (Ok w, s') ->
  exists z iact out, length z = (dim + slack_count cs)%nat /\ ok z /\ w = firstn dim z /\
    (forall v, length v = (dim + slack_count cs)%nat -> ok v -> cost z <= cost v) /\
    (Forall (fun p => 0 < p) (scales cs) ->
     forall v, length v = (dim + slack_count cs)%nat -> ok v -> cost v <= cost z -> v = z) /\
    intervening s' = Rltb (ac_eps cfg) (sqrt (dist2 u w)) /\
    causes s' = Some out /\ warnings s' = warnings s /\ NoDup out /\
    (forall k, In k out <-> exists j d, In (S j) iact /\ nth_error demands j = Some d /\ dm_name d = k) /\
    (forall j d, In (S j) iact -> nth_error demands j = Some d -> dm_margin d z = 0) /\
    (forall v, length v = (dim + slack_count cs)%nat ->
       (forall j d, In (S j) iact -> nth_error demands j = Some d -> 0 <= dm_margin d v) -> cost z <= cost v).
Proof.
  intros QC Rch F Sh HA En Lu dim cs ok demands cost Hok Hc.
  destruct (explicit_call cfg n s x dt u Rch F Sh HA En Lu) as (rows & consts & Enc & Nm & Hcall).
  specialize (Hcall (ac_solve cfg)); rewrite with_solver_same in Hcall; cbv zeta in Hcall.
  fold cs dim in Enc, Nm, Hcall.
  change (explicit_demands (ac_bounds cfg) dim (ac_f cfg) (ac_g cfg) cs (asif_directs s) x) with demands in Enc, Nm, Hcall.
  destruct Hcall as (C1 & C2 & C3).
  assert (SO : forall v, length v = (dim + slack_count cs)%nat -> (solves rows consts v <-> ok v)).
  { intros v Lv; rewrite (encodes_solves _ _ _ _ Enc v Lv).
    apply demands_acceptable; auto; unfold dim in *; lia. }
  assert (La : length (u ++ zeros (slack_count cs)) = (dim + slack_count cs)%nat)
    by (rewrite app_length, zeros_length, Lu; auto).
  unfold cost; rewrite scales_count.
  destruct (ac_solve cfg (obj_weight dim (scales cs)) (u ++ zeros (slack_count cs)) rows consts)
    as [[z iact]|e] eqn:Es.
  - destruct (qp_optimal _ QC _ _ _ _ _ _ Es) as (Lz & Sz & Opt & Act & KKT); rewrite La in *.
    destruct (C1 z iact eq_refl Lz) as (w1 & s1 & out & Hc1 & Hclip & Hint & Hno & Hca & Hwa).
    { intros i Hi; destruct (Act i Hi) as (j & r & c & -> & Hr & _); exists j; split; auto.
      destruct (encodes_length _ _ _ _ Enc) as [L1 _].
      rewrite <- L1; apply nth_error_Some; congruence. }
    rewrite Hc in Hc1; inversion Hc1; subst w1 s1; clear Hc1.
    assert (Okz : ok z) by (apply SO; auto).
    assert (Ew : w = firstn dim z).
    { rewrite clip_id in Hclip; [inversion Hclip; auto| |apply Okz].
      rewrite firstn_length, Lz; replace (Nat.min _ _) with dim by lia; auto. }
    exists z, iact, out.
    split; [auto|split; [auto|split; [auto|]]].
    split; [intros v Lv Okv; apply Opt; auto; apply SO; auto|].
    split.
    { intros Hp v Lv Okv Le. rewrite <- scales_count in *.
      apply (minimiser_unique dim (scales cs) u rows consts v z); auto; apply SO; auto. }
    split; [rewrite Ew; auto|split; [auto|split; [auto|]]].
    split; [eapply names_of_nodup; [exact Hno|constructor]|].
    split; [|split].
    + intros k; rewrite (names_of_in _ _ _ _ Hno k); split.
      * intros [[]|(j & Hj & Hk)]. rewrite nth_error_map in Hk.
        destruct (nth_error demands j) as [d|] eqn:Ed; cbn in Hk; [|discriminate Hk].
        injection Hk as Hk; exists j, d; auto.
      * intros (j & d & Hj & Hd & <-); right; exists j; split; auto.
        rewrite nth_error_map, Hd; auto.
    + intros j d Hj Hd; destruct (Act _ Hj) as (j' & r & c & E & Hr & Hc' & Hz).
      inversion E; subst j'.
      destruct (encodes_nth _ _ _ _ Enc _ _ _ Hr Hc') as (d' & Hd' & Hm).
      rewrite Hd in Hd'; inversion Hd'; subst d'; rewrite <- Hm by auto; lra.
    + intros v Lv Hv; apply KKT; auto.
      intros j r c Hj Hr Hc'; destruct (encodes_nth _ _ _ _ Enc _ _ _ Hr Hc') as (d & Hd & Hm).
      specialize (Hv j d Hj Hd); rewrite <- Hm in Hv by auto; lra.
  - exfalso.
    assert (Ei : e = ValueError msg_inconsistent \/ e <> ValueError msg_inconsistent).
    { destruct e; try (right; discriminate).
      destruct (string_dec msg msg_inconsistent); [left; subst; auto|right; congruence]. }
    destruct Ei as [->|Ne].
    + destruct Hok as [Hw|(y & Ly & Oky)].
      * specialize (C2 eq_refl); destruct (ac_exc cfg).
        -- destruct C2 as (s1 & Hc1 & _); rewrite Hc in Hc1; discriminate.
        -- destruct C2 as (w1 & s1 & Hc1 & _ & _ & _ & Hw1); rewrite Hc in Hc1.
           injection Hc1 as -> ->; lia.
      * apply (qp_inconsistent _ QC _ _ _ _ Es y); [congruence|apply SO; auto].
    + destruct (C3 e eq_refl Ne) as (s1 & Hc1 & _); rewrite Hc in Hc1; discriminate.
Qed.
