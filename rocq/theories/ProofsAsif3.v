(** The outcome of a call of an explicit ASIF module, in terms of the solver's answer. *)
From Coq Require Import String Reals List Bool ZArith Lia Lra.
From Verif Require Import Prelude Vec ModelBase ModelController ModelSimplex ModelAsif
  SpecCore SpecHistory SpecAsif ProofsBase ProofsVec ProofsHistory ProofsAsif ProofsAsif2.
Import ListNotations.
Local Open Scope R_scope.

Lemma existsb_In k (l : list string) : existsb (String.eqb k) l = true <-> In k l.
Proof.
  rewrite existsb_exists; split.
  - intros (y & H & E); apply String.eqb_eq in E; subst; auto.
  - intros H; exists k; split; auto; apply String.eqb_refl.
Qed.

Lemma on_causes_id {X P Z} (s : amod X P Z) : on_asif (set_causes (as_causes (get_asif s))) s = s.
Proof. destruct s as [e i d a [c p en v st [n w nm r co di dp de ca wa z]]]; reflexivity. Qed.

Lemma record_causes_ok {X P Z} iact : forall (s : amod X P Z) acc,
  as_causes (get_asif s) = Some acc ->
  (forall i, In i iact -> exists j, i = S j /\ (j < length (as_names (get_asif s)))%nat) ->
  exists out, names_of (as_names (get_asif s)) iact acc out /\
    record_causes iact s = (Ok tt, on_asif (set_causes (Some out)) s).
Proof.
  induction iact as [|i iact IH]; intros s acc Hc Hv.
  - exists acc; split; [constructor|]. simpl; rewrite <- Hc, on_causes_id; auto.
  - destruct (Hv i) as (j & -> & Hj); [left; auto|].
    destruct (nth_error (as_names (get_asif s)) j) as [k|] eqn:En;
      [|apply nth_error_None in En; lia].
    cbn [record_causes]; unfold bind at 1, get at 1; cbn [name_of_row]; rewrite En.
    unfold bind at 1, lift at 1. rewrite Hc.
    destruct (existsb (String.eqb k) acc) eqn:Ex.
    + apply existsb_In in Ex. unfold bind, ret.
      destruct (IH s acc Hc) as (out & N & E); [intros i' Hi; apply Hv; right; auto|].
      exists out; split; [eapply no_old; eauto|exact E].
    + assert (Nx : ~ In k acc) by (intros H; apply existsb_In in H; congruence).
      unfold bind, modify.
      destruct (IH (on_asif (set_causes (Some (acc ++ [k]))) s) (acc ++ [k])) as (out & N & E);
        [reflexivity|intros i' Hi; apply Hv; right; auto|].
      exists out; split; [eapply no_new; eauto|].
      rewrite E; reflexivity.
Qed.

Lemma names_of_nodup names iact acc out : names_of names iact acc out -> NoDup acc -> NoDup out.
Proof.
  induction 1; auto. intros N; apply IHnames_of.
  apply NoDup_rev in N; rewrite <- (rev_involutive (acc ++ [k])); apply NoDup_rev.
  rewrite rev_app_distr; simpl; constructor; auto. rewrite <- in_rev; auto.
Qed.
Lemma names_of_in names iact acc out : names_of names iact acc out -> forall k,
  In k out <-> In k acc \/ exists j, In (S j) iact /\ nth_error names j = Some k.
Proof.
  induction 1 as [acc|j k0 iact acc out E I N IH|j k0 iact acc out E I N IH]; intros k.
  - split; auto; intros [H|(j & [] & _)]; auto.
  - rewrite IH; split.
    + intros [H|(j' & H1 & H2)]; auto. right; exists j'; simpl; auto.
    + intros [H|(j' & [H1|H1] & H2)]; auto.
      * inversion H1; subst; left; congruence.
      * right; exists j'; auto.
  - rewrite IH, in_app_iff; simpl; split.
    + intros [[H|[H|[]]]|(j' & H1 & H2)]; auto.
      * subst; right; exists j; auto.
      * right; exists j'; auto.
    + intros [H|(j' & [H1|H1] & H2)]; auto.
      * inversion H1; subst; left; right; left; congruence.
      * right; exists j'; auto.
Qed.

(** The generic body of _filter_control once the barrier rows are known. *)
Definition finish {X P Z} (cfg : asif_cfg X) (u : vec) (rows : mat) (consts : vec) : M (amod X P Z) vec :=
  bind (optimize cfg u rows consts) (fun v =>
  bind (lift (opt_monitor (ac_eps cfg) u v)) (fun b =>
  bind (modify (set_intervening b)) (fun _ => ret v))).

Lemma asif_filter_finish {X P Z} (cfg : asif_cfg X) (bm : X -> R -> M (amod X P Z) (mat * vec)) x dt u s0 r0 c0 s2 r1 c1 :
  bm x dt (on_asif update_direct s0) = (Ok (r0, c0), s2) ->
  direct_rows (ac_dim cfg) (as_num_slack (get_asif s2)) (as_direct (get_asif s2))
    (as_dparams (get_asif s2)) (as_denabled (get_asif s2)) x = Ok (r1, c1) ->
  asif_filter cfg bm x dt u s0 = finish cfg u (r0 ++ r1) (c0 ++ c1) s2.
Proof.
  intros H1 H2; unfold asif_filter, bind at 1, modify at 1.
  unfold bind at 1; rewrite H1. unfold bind at 1, update_ineq_mats, bind, get, lift, ret; simpl.
  rewrite H2; simpl. reflexivity.
Qed.

Lemma monitor_ok eps u v : length u = length v -> opt_monitor eps u v = Ok (Rltb eps (sqrt (dist2 u v))).
Proof.
  intros H; unfold opt_monitor, bcast; rewrite H, Nat.eqb_refl; cbn [rbind].
  unfold norm; change (map2 Rminus u v) with (vsub u v); rewrite sumsq_vsub by auto; auto.
Qed.

Lemma finish_ok {X P Z} (cfg : asif_cfg X) u rows consts (s : amod X P Z) z iact :
  ac_solve cfg (as_weight (get_asif s)) (u ++ zeros (as_num_slack (get_asif s))) rows consts = Ok (z, iact) ->
  length u = ac_dim cfg -> length z = (ac_dim cfg + as_num_slack (get_asif s))%nat ->
  (forall i, In i iact -> exists j, i = S j /\ (j < length (as_names (get_asif s)))%nat) ->
  exists out, names_of (as_names (get_asif s)) iact [] out /\
  finish cfg u rows consts s =
    (Ok (firstn (ac_dim cfg) z),
     set_intervening (Rltb (ac_eps cfg) (sqrt (dist2 u (firstn (ac_dim cfg) z))))
       (on_asif (set_causes (Some out)) s)).
Proof.
  intros Hs Lu Lz Hv; unfold finish.
  destruct (record_causes_ok iact (on_asif (set_causes (Some [])) s) [] eq_refl Hv) as (out & N & E).
  exists out; split; [exact N|].
  unfold optimize, bind, get, modify, lift, ret; rewrite Hs, E.
  rewrite monitor_ok by (rewrite firstn_length; lia).
  reflexivity.
Qed.

Lemma finish_inconsistent {X P Z} (cfg : asif_cfg X) u rows consts (s : amod X P Z) :
  ac_solve cfg (as_weight (get_asif s)) (u ++ zeros (as_num_slack (get_asif s))) rows consts
    = Err (ValueError msg_inconsistent) ->
  length u = ac_dim cfg ->
  finish cfg u rows consts s =
    if ac_exc cfg then (Err SolverError, s)
    else (Ok u, set_intervening (Rltb (ac_eps cfg) 0) (on_asif warn s)).
Proof.
  intros Hs Lu; unfold finish, optimize, bind, get, modify, lift, ret; rewrite Hs, String.eqb_refl.
  destruct (ac_exc cfg); [reflexivity|].
  rewrite firstn_app, <- Lu, Nat.sub_diag, firstn_all; simpl; rewrite app_nil_r.
  rewrite monitor_ok by auto; rewrite dist2_refl, sqrt_0; reflexivity.
Qed.

Lemma finish_error {X P Z} (cfg : asif_cfg X) u rows consts (s : amod X P Z) e :
  ac_solve cfg (as_weight (get_asif s)) (u ++ zeros (as_num_slack (get_asif s))) rows consts = Err e ->
  e <> ValueError msg_inconsistent ->
  finish cfg u rows consts s = (Err e, s).
Proof.
  intros Hs Ne; unfold finish, optimize, bind, get, raise; rewrite Hs.
  destruct e; auto. destruct (String.eqb msg msg_inconsistent) eqn:E; auto.
  apply String.eqb_eq in E; congruence.
Qed.

(** ** The explicit system *)

Lemma explicit_system {X P Z} (cfg : asif_cfg X) n (s : amod X P Z) x dt u :
  wired cfg s -> fits (ac_bounds cfg) (ac_dim cfg) ->
  shaped n (ac_dim cfg) (ac_f cfg) (ac_g cfg) (asif_constraints s) (asif_directs s) x ->
  strengthened (asif_constraints s) ->
  exists rows consts,
    encodes (ac_dim cfg + slack_count (asif_constraints s)) rows consts
      (explicit_demands (ac_bounds cfg) (ac_dim cfg) (ac_f cfg) (ac_g cfg)
         (asif_constraints s) (asif_directs s) x) /\
    forall solve, asif_filter (with_solver solve cfg) (explicit_mats (with_solver solve cfg)) x dt u (prep x u s)
      = finish (with_solver solve cfg) u rows consts (on_asif update_direct (prep x u s)).
Proof.
  intros [W1 W2 [nm W3] W4 W5] F [Sf Sg Sgr Sw] HA.
  destruct (actuation_mats_ok (ac_bounds cfg) (ac_dim cfg) (slack_count (asif_constraints s)) F)
    as (ra & ca & na & Ea & Enc & _).
  rewrite W3 in Ea; injection Ea as <- <- _.
  destruct (explicit_rows_ok cfg n (slack_count (asif_constraints s)) x
     (cb_params (ext (prep x u s))) (cb_enabled (ext (prep x u s))) (asif_constraints s) Sf Sg)
    with (j := 0%nat) as (rb & cb & Eb & Encb); auto.
  { intros k c Hc; apply prep_params; auto. }
  destruct (direct_rows_ok (ac_dim cfg) (slack_count (asif_constraints s)) x
    (as_dparams (update_direct (get_asif s))) (as_denabled (update_direct (get_asif s))) (asif_directs s))
    as (rd & cd & Ed & Encd); auto.
  { intros k d Hd; apply update_direct_params; auto. }
  exists ((as_act_rows (get_asif s) ++ rb) ++ rd), ((as_act_consts (get_asif s) ++ cb) ++ cd); split.
  - unfold explicit_demands; rewrite !app_assoc.
    apply encodes_app; [apply encodes_app; [exact Enc|exact Encb]|exact Encd].
  - intros solve.
    apply asif_filter_finish.
    + unfold explicit_mats, bind, get, lift, ret.
      change (cb_constraints (ext (on_asif update_direct (prep x u s)))) with (asif_constraints s).
      change (cb_params (ext (on_asif update_direct (prep x u s)))) with (cb_params (ext (prep x u s))).
      change (cb_enabled (ext (on_asif update_direct (prep x u s)))) with (cb_enabled (ext (prep x u s))).
      change (as_num_slack (get_asif (on_asif update_direct (prep x u s)))) with (as_num_slack (get_asif s)).
      rewrite W1.
      assert (Q : explicit_rows (with_solver solve cfg) (slack_count (asif_constraints s)) 0 (asif_constraints s)
                    (cb_params (ext (prep x u s))) (cb_enabled (ext (prep x u s))) x =
                  explicit_rows cfg (slack_count (asif_constraints s)) 0 (asif_constraints s)
                    (cb_params (ext (prep x u s))) (cb_enabled (ext (prep x u s))) x).
      { generalize 0%nat; generalize (asif_constraints s) at 2 4.
        intros cs; induction cs as [|[k c] cs IH]; intros j; simpl; auto.
        destruct (dict_get _ k); simpl; auto. destruct (dict_get _ k); simpl; auto.
        unfold explicit_row; simpl.
        destruct (c_alpha_at _ _); simpl; auto. destruct (c_alpha_negative_at _ _); simpl; auto.
        rewrite IH; auto. }
      rewrite Q, Eb; reflexivity.
    + change (as_num_slack (get_asif (on_asif update_direct (prep x u s)))) with (as_num_slack (get_asif s)).
      rewrite W1; exact Ed.
Qed.

(** The decision vector handed to the solver as the linear term, and the weight. *)
Lemma explicit_call {X P} (cfg : asif_cfg X) n (s : amod X P unit) x dt u :
  explicit_reached cfg s -> fits (ac_bounds cfg) (ac_dim cfg) ->
  shaped n (ac_dim cfg) (ac_f cfg) (ac_g cfg) (asif_constraints s) (asif_directs s) x ->
  strengthened (asif_constraints s) -> enable s = true -> length u = ac_dim cfg ->
  let demands := explicit_demands (ac_bounds cfg) (ac_dim cfg) (ac_f cfg) (ac_g cfg)
         (asif_constraints s) (asif_directs s) x in
  let ns := slack_count (asif_constraints s) in
  let G := obj_weight (ac_dim cfg) (scales (asif_constraints s)) in
  exists rows consts,
    encodes (ac_dim cfg + ns) rows consts demands /\
    as_names (get_asif s) = map dm_name demands /\
    forall solve,
    let call := explicit_asif_filter_control (with_solver solve cfg) (InArray x) dt u s in
    (forall z iact, solve G (u ++ zeros ns) rows consts = Ok (z, iact) ->
       length z = (ac_dim cfg + ns)%nat ->
       (forall i, In i iact -> exists j, i = S j /\ (j < length demands)%nat) ->
       exists w s' out, call = (Ok w, s') /\ clip (ac_bounds cfg) (firstn (ac_dim cfg) z) = Ok w /\
         intervening s' = Rltb (ac_eps cfg) (sqrt (dist2 u (firstn (ac_dim cfg) z))) /\
         names_of (map dm_name demands) iact [] out /\ causes s' = Some out /\ warnings s' = warnings s) /\
    (solve G (u ++ zeros ns) rows consts = Err (ValueError msg_inconsistent) ->
       if ac_exc cfg then exists s', call = (Err SolverError, s') /\ warnings s' = warnings s /\
                            causes s' = causes s /\ intervening s' = intervening s
       else exists w s', call = (Ok w, s') /\ clip (ac_bounds cfg) u = Ok w /\
              intervening s' = Rltb (ac_eps cfg) 0 /\ causes s' = causes s /\ warnings s' = S (warnings s)) /\
    (forall e, solve G (u ++ zeros ns) rows consts = Err e -> e <> ValueError msg_inconsistent ->
       exists s', call = (Err e, s') /\ warnings s' = warnings s /\ causes s' = causes s).
Proof.
  intros Rch F Sh HA En Lu demands ns G.
  pose proof (explicit_reached_wired _ _ Rch) as W.
  destruct (explicit_system cfg n s x dt u W F Sh HA) as (rows & consts & Enc & Hsys).
  exists rows, consts; split; [exact Enc|].
  pose proof (explicit_reached_names cfg s x F Rch) as Nm; fold demands in Nm.
  split; [exact Nm|]; intros solve call.
  assert (Wt : as_weight (get_asif (on_asif update_direct (prep x u s))) = G) by apply W.
  assert (Ns : as_num_slack (get_asif (on_asif update_direct (prep x u s))) = ns) by apply W.
  assert (Hcall : call = match finish (with_solver solve cfg) u rows consts (on_asif update_direct (prep x u s)) with
    | (Ok v, s1) => match clip (ac_bounds cfg) v with
                  | Ok w => (Ok w, set_actual (Some w) (set_actual (Some v) s1))
                  | Err e => (Err e, set_actual (Some v) s1)
                  end
    | (Err e, s1) => (Err e, s1)
    end).
  { unfold call, explicit_asif_filter_control; change (ac_bounds (with_solver solve cfg)) with (ac_bounds cfg).
    etransitivity; [apply (gfilter_array (ac_bounds cfg)); exact En|]. rewrite <- Hsys; reflexivity. }
  repeat split.
  - intros z iact Hs Lz Hv.
    destruct (finish_ok (with_solver solve cfg) u rows consts (on_asif update_direct (prep x u s)) z iact)
      as (out & N & Ef).
    + rewrite Wt, Ns; exact Hs.
    + exact Lu.
    + rewrite Ns; exact Lz.
    + intros i Hi; destruct (Hv i Hi) as (j & -> & Hj); exists j; split; auto.
      change (as_names (get_asif (on_asif update_direct (prep x u s)))) with (as_names (get_asif s)).
      rewrite Nm, map_length; auto.
    + destruct (clip_boxed (ac_bounds cfg) (firstn (ac_dim cfg) z)) as (w & Ew & _).
      { rewrite firstn_length, Lz; replace (Nat.min _ _) with (ac_dim cfg) by lia; auto. }
      change (ac_dim (with_solver solve cfg)) with (ac_dim cfg) in Ef.
      rewrite Ef, Ew in Hcall.
      do 3 eexists; split; [exact Hcall|].
      split; [exact Ew|split; [reflexivity|split; [|split; reflexivity]]].
      change (as_names (get_asif (on_asif update_direct (prep x u s)))) with (as_names (get_asif s)) in N.
      rewrite Nm in N; exact N.
  - intros Hs.
    rewrite finish_inconsistent in Hcall; [|rewrite Wt, Ns; exact Hs|exact Lu].
    change (ac_exc (with_solver solve cfg)) with (ac_exc cfg) in Hcall.
    change (ac_eps (with_solver solve cfg)) with (ac_eps cfg) in Hcall.
    destruct (ac_exc cfg).
    + eexists; split; [exact Hcall|repeat split].
    + destruct (clip_boxed (ac_bounds cfg) u) as (w & Ew & _); [rewrite Lu; auto|].
      rewrite Ew in Hcall; do 2 eexists; split; [exact Hcall|]; repeat split; auto.
  - intros e Hs Ne.
    rewrite (finish_error _ _ _ _ _ e) in Hcall; [|rewrite Wt, Ns; exact Hs|exact Ne].
    eexists; split; [exact Hcall|repeat split].
Qed.
