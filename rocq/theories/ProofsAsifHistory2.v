(** The explicit and the implicit module as instances of ProofsAsifHistory. *)
From Coq Require Import String Reals List Bool ZArith Lia Lra.
From Verif Require Import Prelude Vec ModelBase ModelController ModelSimplex ModelAsif
  SpecCore SpecHistory SpecAsif SpecImplicit SpecAsifHistory ProofsBase ProofsHistory ProofsSim ProofsVec ProofsAsif
  ProofsAsif2 ProofsAsif3 ProofsImplicit3 ProofsAsifHistory.
Import ListNotations.
Local Open Scope R_scope.

(** ** Frames *)

Lemma explicit_framed {X P} (cfg : asif_cfg X) : framed (asif_filter (P:=P) (Z:=unit) cfg (explicit_mats cfg)).
Proof. apply keeps_framed; intros; apply keeps_filter; intros; apply keeps_explicit_mats. Qed.
Lemma implicit_framed {X P} (cfg : asif_cfg X) ic : framed (asif_filter (P:=P) cfg (implicit_mats cfg ic)).
Proof. apply keeps_framed; intros; apply keeps_filter; intros; apply keeps_implicit_mats. Qed.
Lemma explicit_reset_framed {X P} : reset_framed (explicit_asif_reset (X:=X) (P:=P)).
Proof. intros s r s' H; injection H as <- <-; repeat split. Qed.
Lemma implicit_reset_framed {X P} : reset_framed (implicit_asif_reset (X:=X) (P:=P)).
Proof.
  intros s r s' H; unfold implicit_asif_reset, bind, modify, on_actl, zoom in H.
  destruct (ctl_reset _) as [r1 c]; injection H as <- <-; repeat split.
Qed.

(** ** The initial state *)

Lemma asif_init_keyed {X P Z} (cfg : asif_cfg X) defined to_use directs (z : Z) (s : amod X P Z) :
  distinct_keys defined -> distinct_keys directs ->
  asif_init cfg defined to_use directs z = Ok s -> keyed (ext s) /\ dkeyed (get_asif s).
Proof.
  intros D1 D2; unfold asif_init.
  destruct (select_constraints defined to_use) as [cs|e] eqn:Es; [|discriminate]; cbn [rbind].
  destruct (actuation_mats _ _ _) as [[[rows consts] names]|e]; [|discriminate]; cbn [rbind]; cbv zeta.
  match goal with |- context [cb_init defined to_use ?y] => set (y0 := y) end.
  destruct (cb_init defined to_use y0) as [w|e] eqn:Ew; [|discriminate]. cbn [rbind].
  intros H; injection H as <-. split; [exact (keyed_init defined to_use y0 w D1 Ew)|].
  unfold cb_init in Ew; rewrite Es in Ew; cbn [rbind] in Ew. injection Ew as <-.
  unfold get_asif; cbn. unfold dkeyed; simpl. split; [exact D2|].
  pose proof (fold_set_keyed (fun kd : string * direct X P => d_params (snd kd)) directs [] []) as F1.
  pose proof (fold_set_keyed (fun kd : string * direct X P => d_enabled (snd kd)) directs [] []) as F2.
  simpl in F1, F2; rewrite F1, F2 by auto. rewrite !map_map; auto.
Qed.

Lemma gsim_self {X P Z} (RZ : Z -> Z -> Prop) (N : list string -> list string -> Prop) (s : amod X P Z) :
  (forall l, N l l) -> (forall z, RZ z z) -> keyed (ext s) -> dkeyed (get_asif s) -> gsim (alike RZ N) False s s.
Proof.
  intros HN HZ K D; unfold gsim, alike; repeat (split; [assumption || reflexivity|]).
  split; [|tauto]. repeat (split; [assumption || reflexivity|]). split; auto.
Qed.

(** ** Explicit modules *)

Definition any (_ _ : unit) : Prop := True.

Lemma msim_explicit_mats {X P} (cfg : asif_cfg X) x dt :
  msim any eq eq (explicit_mats (P:=P) (Z:=unit) cfg x dt).
Proof.
  unfold explicit_mats; apply msim_get; intros V s s' C.
  assert (E : as_num_slack (get_asif s) = as_num_slack (get_asif s') /\
    cb_constraints (ext s) = cb_constraints (ext s') /\ cb_params (ext s) = cb_params (ext s') /\
    cb_enabled (ext s) = cb_enabled (ext s') /\ as_act_rows (get_asif s) = as_act_rows (get_asif s') /\
    as_act_consts (get_asif s) = as_act_consts (get_asif s')).
  { destruct C as [(H1 & H2 & H3 & H4 & H5 & H6 & H7 & (A1 & A2 & A3 & A4 & A5 & A6 & A7 & A8 & A9) & H9) (B1 & B2 & B3 & B4)].
    repeat split; assumption. }
  destruct E as (<- & <- & <- & <- & <- & <-). cbv zeta.
  refine (msim_bind _ eq eq _ _ (fun _ _ H => H) (msim_lift _ eq _) _ V s s' C). intros; apply msim_ret.
Qed.

Lemma explicit_flt_sim {X P} (cfg : asif_cfg X) :
  flt_sim (alike any eq) (asif_filter (P:=P) (Z:=unit) cfg (explicit_mats cfg)).
Proof. apply asif_flt_sim; [auto|intros; apply msim_explicit_mats]. Qed.

Lemma gsim_rta_reset {X P Z} (RZ : Z -> Z -> Prop) N V (s s' : amod X P Z) : gsim (alike RZ N) V s s' ->
  gsim (alike RZ N) V (rta_reset (fun y => y) s) (rta_reset (fun y => y) s').
Proof.
  intros (H1 & H2 & H3 & H4 & H5 & H6 & H7 & H8 & H9). unfold gsim; simpl.
  do 4 (split; [reflexivity|]). split; [exact H5|split; [exact H6|split; [exact H7|split; [exact H8|exact H9]]]].
Qed.

Lemma explicit_rst_sim {X P} : rst_sim (alike any eq) (explicit_asif_reset (X:=X) (P:=P)).
Proof. intros V s s' G; split; [reflexivity|]. apply gsim_rta_reset; exact G. Qed.

(** What a history leaves of the construction. *)
Lemma explicit_reached_facts {X P} (cfg : asif_cfg X) (s : amod X P unit) : explicit_reached cfg s ->
  keyed (ext s) /\ dkeyed (get_asif s) /\
  exists names, actuation_mats (ac_bounds cfg) (ac_dim cfg) (slack_count (asif_constraints s)) =
      Ok (as_act_rows (get_asif s), as_act_consts (get_asif s), names) /\
    as_names (get_asif s) = names ++ dict_keys (asif_constraints s) ++ dict_keys (asif_directs s).
Proof.
  intros (defined & to_use & directs & s0 & os & seen & D1 & D2 & H0 & HR).
  destruct (asif_init_keyed _ _ _ _ _ _ D1 D2 H0) as [K0 DK0].
  assert (SF : same_form s0 s).
  { refine (run_form cfg (asif_filter cfg (explicit_mats cfg)) explicit_asif_reset _ explicit_reset_form _ _ _ _ HR).
    intros; apply keeps_filter; intros; apply keeps_explicit_mats. }
  assert (Nm : as_names (get_asif s) = as_names (get_asif s0)).
  { refine (run_names cfg (asif_filter cfg (explicit_mats cfg)) explicit_asif_reset _ _ _ _ _ _ HR).
    - intros; apply kn_explicit_filter.
    - apply kn_modify; auto. }
  destruct (asif_gsim_run any (ac_bounds cfg) (asif_filter cfg (explicit_mats cfg)) explicit_asif_reset eq
     (explicit_flt_sim cfg) explicit_rst_sim (explicit_framed cfg) explicit_reset_framed os False s0 s0
     (gsim_self any eq s0 (fun l => eq_refl) (fun _ => I) K0 DK0)) as [_ G].
  change (gfilter (ac_bounds cfg) (asif_filter (P:=P) (Z:=unit) cfg (explicit_mats cfg)))
    with (explicit_asif_filter_control (P:=P) cfg) in G.
  rewrite HR in G; cbn [snd] in G.
  destruct G as (_ & _ & _ & _ & _ & K & _ & (_ & _ & _ & _ & _ & DK & _) & _).
  split; [exact K|split; [exact DK|]].
  destruct (asif_init_inv _ _ _ _ _ _ H0) as (cs & names & _ & Ea & Ec & Ed & _ & _ & En & _).
  destruct SF as (F1 & F2 & F3 & F4 & F5 & F6); destruct (keys_and_slack_scales _ _ F1) as [S1 K1].
  exists names. rewrite Nm, En.
  assert (Ct : slack_count (asif_constraints s) = slack_count cs).
  { rewrite <- !scales_count; f_equal. rewrite <- Ec. unfold asif_constraints. symmetry. first [exact S1|symmetry; exact S1]. }
  split; [rewrite Ct, F5, F6; exact Ea|].
  unfold dict_keys, asif_constraints, asif_directs in *. rewrite K1, F2, Ec, Ed; reflexivity.
Qed.

(** Two explicit modules that agree on what a caller sees and assigns. *)
Lemma explicit_same {X P} (cfg : asif_cfg X) (s s' : amod X P unit) :
  explicit_reached cfg s -> explicit_reached cfg s' ->
  asif_constraints s = asif_constraints s' -> asif_directs s = asif_directs s' -> rta_info s = rta_info s' ->
  gsim (alike any eq) False s s'.
Proof.
  intros R R' Ec Ed Ei.
  destruct (explicit_reached_facts _ _ R) as (K & DK & nm & Ea & En).
  destruct (explicit_reached_facts _ _ R') as (K' & DK' & nm' & Ea' & En').
  destruct (explicit_reached_wired _ _ R) as [W1 W2 _ _ _].
  destruct (explicit_reached_wired _ _ R') as [W1' W2' _ _ _].
  rewrite Ec in Ea, En, W1, W2. rewrite Ed in En. rewrite Ea' in Ea; injection Ea as E1 E2 E3.
  unfold rta_info in Ei; injection Ei as I1 I2 I3 I4.
  unfold gsim. split; [exact I1|split; [exact I2|split; [exact I3|split; [exact I4|split; [exact Ec|]]]]].
  split; [exact K|split; [exact K'|split; [|tauto]]].
  change (cb_ext (ext s)) with (get_asif s). change (cb_ext (ext s')) with (get_asif s').
  unfold alike. split; [congruence|split; [congruence|split; [congruence|split; [congruence|split; [exact Ed|]]]]].
  split; [exact DK|split; [exact DK'|split; [rewrite En, En', E3; reflexivity|exact I]]].
Qed.

Lemma explicit_new_reached {X P} (cfg : asif_cfg X) (s fresh : amod X P unit) : explicit_reached cfg s ->
  asif_init cfg (asif_constraints s) None (asif_directs s) tt = Ok fresh -> explicit_reached cfg fresh.
Proof.
  intros R F; destruct (explicit_reached_wired _ _ R) as [_ _ _ D1 D2].
  exists (asif_constraints s), None, (asif_directs s), fresh, [], []. auto.
Qed.
Lemma explicit_reset_reached {X P} (cfg : asif_cfg X) (s : amod X P unit) : explicit_reached cfg s ->
  explicit_reached cfg (rta_reset (fun y => y) s).
Proof.
  intros (defined & to_use & directs & s0 & os & seen & D1 & D2 & H0 & HR).
  exists defined, to_use, directs, s0, (os ++ [ABase OReset]).
  eexists; split; [exact D1|split; [exact D2|split; [exact H0|]]].
  change (explicit_asif_filter_control (P:=P) cfg) with (gfilter (ac_bounds cfg) (asif_filter (P:=P) (Z:=unit) cfg (explicit_mats cfg))) in *.
  rewrite asif_run_app, HR. simpl. reflexivity.
Qed.

(** ** Implicit modules *)

(** Two controllers that only differ in the saved state. *)
Definition ctl_alike (c c' : ctl) : Prop := ctl_initial c = ctl_initial c' /\ ctl_state c = ctl_state c'.

Definition bound_rows (b : bounds) (dim : nat) : nat :=
  ((match b_low b with Some _ => dim | None => 0 end) + (match b_high b with Some _ => dim | None => 0 end))%nat.
Definition same_head (n : nat) (l l' : list string) : Prop := firstn n l = firstn n l'.

Lemma msim_on_actl {X P A} N (m : M ctl A) :
  (forall c c', ctl_alike c c' -> fst (m c) = fst (m c') /\ ctl_alike (snd (m c)) (snd (m c'))) ->
  msim ctl_alike N N (on_actl (X:=X) (P:=P) m).
Proof.
  intros H V s s' C. pose proof C as C0.
  destruct C as [(H1 & H2 & H3 & H4 & H5 & H6 & H7 & (A1 & A2 & A3 & A4 & A5 & A6 & A7 & A8 & A9) & H9) (B1 & B2 & B3 & B4)].
  destruct (H _ _ A9) as [E R]. unfold on_actl, zoom.
  change (as_ext (cb_ext (ext s))) with (as_ext (get_asif s)) in *.
  change (as_ext (cb_ext (ext s'))) with (as_ext (get_asif s')) in *.
  destruct (m (as_ext (get_asif s))) as [r c]; destruct (m (as_ext (get_asif s'))) as [r' c'].
  cbn [fst snd] in *; subst r'. unfold out; cbn [fst snd]. split; [reflexivity|].
  assert (G : close ctl_alike N V (on_asif (set_as_ext c) s) (on_asif (set_as_ext c') s')).
  { unfold close; split; [|split; [exact B1|split; [exact B2|split; [exact B3|exact B4]]]].
    unfold gsim. split; [exact H1|split; [exact H2|split; [exact H3|split; [exact H4|split; [exact H5|]]]]].
    split; [exact H6|split; [exact H7|split; [|exact H9]]].
    unfold alike. split; [exact A1|split; [exact A2|split; [exact A3|split; [exact A4|split; [exact A5|]]]]].
    split; [exact A6|split; [exact A7|split; [exact A8|exact R]]]. }
  destruct r; exact G.
Qed.

Lemma integrate_eqn {X} b (ic : imp_cfg X) x dt n c :
  implicit_integrate b ic x dt n c =
  match copy_controller_state (ctl_state c) with
  | Ok c0 => bind (implicit_loop b ic (ic_size ic x) dt (n - 1) x (eye (ic_size ic x))) (fun rest =>
      bind ctl_restore (fun _ => ret ((x, eye (ic_size ic x)) :: rest))) (set_ctl_saved c0 c)
  | Err e => (Err e, c)
  end.
Proof.
  unfold implicit_integrate, ctl_save. unfold bind at 1. unfold bind at 1. unfold get. unfold bind at 1. unfold lift.
  destruct (copy_controller_state (ctl_state c)); reflexivity.
Qed.

Lemma integrate_alike {X} b (ic : imp_cfg X) x dt n c c' : ctl_alike c c' ->
  fst (implicit_integrate b ic x dt n c) = fst (implicit_integrate b ic x dt n c') /\
  ctl_alike (snd (implicit_integrate b ic x dt n c)) (snd (implicit_integrate b ic x dt n c')).
Proof.
  intros [E1 E2]. destruct c as [i sv st]; destruct c' as [i' sv' st']; simpl in E1, E2; subst i' st'.
  rewrite !integrate_eqn; simpl ctl_state.
  destruct (copy_controller_state st) as [c0|e]; [|split; [reflexivity|split; reflexivity]].
  unfold set_ctl_saved; simpl. split; [reflexivity|split; reflexivity].
Qed.

Lemma msim_bind_same {X P Z} (RZ : Z -> Z -> Prop) {A B} (N N' : list string -> list string -> Prop)
    (m : M (amod X P Z) A) (f : A -> M (amod X P Z) B) :
  msim RZ N N m -> (forall a, msim RZ N N' (f a)) -> msim RZ N N' (bind m f).
Proof.
  intros Hm Hf V s s' C; destruct (Hm V s s' C) as [E C'].
  unfold bind. destruct (m s) as [r t]; destruct (m s') as [r' t']; cbn [fst snd] in *; subst r'.
  destruct r as [a|e]; [|split; auto]. exact (Hf a V t t' C').
Qed.

Lemma msim_implicit_mats {X P} (cfg : asif_cfg X) ic x dt :
  msim ctl_alike (same_head (bound_rows (ac_bounds cfg) (ac_dim cfg))) eq (implicit_mats (P:=P) cfg ic x dt).
Proof.
  set (N := same_head _).
  assert (W : forall l l', N l l' -> N l l') by auto.
  assert (W0 : forall l l', eq l l' -> N l l') by (intros l l' ->; reflexivity).
  unfold implicit_mats. apply msim_bind_same; [apply msim_lift|intros q]. cbv zeta.
  apply msim_bind_same; [apply msim_on_actl; intros; apply integrate_alike; auto|intros traj].
  apply msim_bind_same; [|intros rc; apply msim_bind; [exact W0| |intros; apply msim_ret]].
  - unfold implicit_ineq_mats; apply msim_get; intros V1 t t' C1.
    assert (E : as_num_slack (get_asif t) = as_num_slack (get_asif t') /\
      cb_constraints (ext t) = cb_constraints (ext t') /\ cb_params (ext t) = cb_params (ext t') /\
      cb_enabled (ext t) = cb_enabled (ext t') /\ as_act_rows (get_asif t) = as_act_rows (get_asif t') /\
      as_act_consts (get_asif t) = as_act_consts (get_asif t')).
    { destruct C1 as [(H1 & H2 & H3 & H4 & H5 & H6 & H7 & (A1 & A2 & A3 & A4 & A5 & A6 & A7 & A8 & A9) & H9) (B1 & B2 & B3 & B4)].
      repeat split; assumption. }
    destruct E as (<- & <- & <- & <- & <- & <-). cbv zeta.
    refine (msim_bind_same _ N N _ _ (msim_lift _ N _) _ V1 t t' C1). intros bl.
    apply msim_bind_same; [apply msim_lift|intros; apply msim_ret].
  - apply msim_modify. intros V s2 s2' F2.
    destruct F2 as [(H1 & H2 & H3 & H4 & H5 & H6 & H7 & (A1 & A2 & A3 & A4 & A5 & A6 & A7 & A8 & A9) & H9) (B1 & B2 & B3 & B4)].
    unfold close; split; [|split; [exact B1|split; [exact B2|split; [exact B3|exact B4]]]].
    unfold gsim. split; [exact H1|split; [exact H2|split; [exact H3|split; [exact H4|split; [exact H5|]]]]].
    split; [exact H6|split; [exact H7|split; [|exact H9]]].
    unfold alike. split; [exact A1|split; [exact A2|split; [exact A3|split; [exact A4|split; [exact A5|]]]]].
    split; [exact A6|split; [exact A7|split; [|exact A9]]].
    simpl. unfold implicit_names. unfold N, same_head, bound_rows in A8.
    change (cb_ext (ext s2)) with (get_asif s2) in *. change (cb_ext (ext s2')) with (get_asif s2') in *.
    rewrite A8, A5, H5; reflexivity.
Qed.

Lemma implicit_flt_sim {X P} (cfg : asif_cfg X) ic :
  flt_sim (alike ctl_alike (same_head (bound_rows (ac_bounds cfg) (ac_dim cfg))))
    (asif_filter (P:=P) cfg (implicit_mats cfg ic)).
Proof. apply asif_flt_sim; [intros; reflexivity|intros; apply msim_implicit_mats]. Qed.

Lemma implicit_rst_sim {X P} (N : list string -> list string -> Prop) :
  rst_sim (alike ctl_alike N) (implicit_asif_reset (X:=X) (P:=P)).
Proof.
  intros V s s' G. pose proof (gsim_rta_reset _ _ _ _ _ G) as G1.
  unfold implicit_asif_reset, bind, modify, on_actl, zoom.
  set (t := rta_reset (fun y => y) s) in *. set (t' := rta_reset (fun y => y) s') in *.
  destruct G1 as (H1 & H2 & H3 & H4 & H5 & H6 & H7 & (A1 & A2 & A3 & A4 & A5 & A6 & A7 & A8 & A9) & H9).
  change (cb_ext (ext t)) with (get_asif t) in *. change (cb_ext (ext t')) with (get_asif t') in *.
  assert (Q : fst (ctl_reset (as_ext (get_asif t))) = fst (ctl_reset (as_ext (get_asif t'))) /\
     ctl_alike (snd (ctl_reset (as_ext (get_asif t)))) (snd (ctl_reset (as_ext (get_asif t'))))).
  { destruct A9 as [I1 I2]. unfold ctl_reset, bind, get, lift, modify. rewrite <- I1.
    destruct (copy_controller_state _); split; try reflexivity; split; auto. }
  destruct Q as [Q1 Q2].
  destruct (ctl_reset (as_ext (get_asif t))) as [r c]; destruct (ctl_reset (as_ext (get_asif t'))) as [r' c'].
  cbn [fst snd] in *; subst r'. split; [reflexivity|].
  unfold gsim. split; [exact H1|split; [exact H2|split; [exact H3|split; [exact H4|split; [exact H5|]]]]].
  split; [exact H6|split; [exact H7|split; [|exact H9]]].
  unfold alike. split; [exact A1|split; [exact A2|split; [exact A3|split; [exact A4|split; [exact A5|]]]]].
  split; [exact A6|split; [exact A7|split; [exact A8|exact Q2]]].
Qed.

Lemma implicit_reached_keyed {X P} (cfg : asif_cfg X) ic (s : amod X P ctl) : implicit_reached cfg ic s ->
  keyed (ext s) /\ dkeyed (get_asif s).
Proof.
  intros (defined & to_use & directs & initial & s0 & os & seen & D1 & D2 & H0 & HR).
  unfold implicit_asif_init in H0; destruct (ctl_init initial) as [c|e]; [|discriminate]; cbn [rbind] in H0.
  destruct (asif_init_keyed _ _ _ _ _ _ D1 D2 H0) as [K0 DK0].
  destruct (asif_gsim_run ctl_alike (ac_bounds cfg) (asif_filter cfg (implicit_mats cfg ic)) implicit_asif_reset
     (same_head (bound_rows (ac_bounds cfg) (ac_dim cfg)))
     (implicit_flt_sim cfg ic) (implicit_rst_sim _) (implicit_framed cfg ic) implicit_reset_framed os False s0 s0) as [_ G].
  { apply gsim_self; auto; [intros; reflexivity|intros; split; reflexivity]. }
  change (gfilter (ac_bounds cfg) (asif_filter (P:=P) cfg (implicit_mats cfg ic)))
    with (implicit_asif_filter_control (P:=P) cfg ic) in G.
  rewrite HR in G; cbn [snd] in G.
  destruct G as (_ & _ & _ & _ & _ & K & _ & (_ & _ & _ & _ & _ & DK & _) & _). auto.
Qed.

(** The controller's initial state never changes. *)
Definition imp_initial {X P} (s : amod X P ctl) : cstate := ctl_initial (as_ext (get_asif s)).

Lemma loop_initial {X} b (ic : imp_cfg X) size dt n : forall x S c,
  ctl_initial (snd (implicit_loop b ic size dt n x S c)) = ctl_initial c.
Proof.
  induction n as [|n IH]; intros x S c; [reflexivity|]. cbn [implicit_loop].
  unfold bind at 1. unfold backup_control, generate_control, bind at 1 2, get, modify, ret, raise, lift.
  destruct (ic_gen ic x dt (ctl_state c)) as [u cs| |e]; try reflexivity.
  unfold bind at 1; simpl. destruct (clip b u) as [w|e]; [|reflexivity].
  unfold bind at 1. destruct (ic_pred ic x dt w) as [x'|e]; [|reflexivity].
  unfold bind at 1. simpl.
  unfold bind at 1.
  match goal with |- context [implicit_loop b ic size dt n x' ?S' ?c'] =>
    specialize (IH x' S' c'); destruct (implicit_loop b ic size dt n x' S' c') as [[l|e] c2] end; exact IH.
Qed.
Lemma integrate_initial {X} b (ic : imp_cfg X) x dt n c :
  ctl_initial (snd (implicit_integrate b ic x dt n c)) = ctl_initial c.
Proof.
  rewrite integrate_eqn.
  destruct (copy_controller_state (ctl_state c)) as [c0|e]; [|reflexivity].
  unfold bind at 1.
  pose proof (loop_initial b ic (ic_size ic x) dt (n - 1) x (eye (ic_size ic x)) (set_ctl_saved c0 c)) as L.
  destruct (implicit_loop _ _ _ _ _ _ _ _) as [[l|e] c2]; exact L.
Qed.

Section Initial.
Context {X P : Type} (cfg : asif_cfg X) (ic : imp_cfg X).
Notation obj := (amod X P ctl).
Definition ki {A} (m : M obj A) : Prop := forall s, imp_initial (snd (m s)) = imp_initial s.
Lemma ki_bind {A B} (m : M obj A) (f : A -> M obj B) : ki m -> (forall a, ki (f a)) -> ki (bind m f).
Proof.
  intros Hm Hf s; unfold bind; specialize (Hm s); destruct (m s) as [[a|e] t]; cbn [snd] in *; auto.
  rewrite Hf; exact Hm.
Qed.
Lemma ki_ret {A} (a : A) : ki (ret a). Proof. intros s; reflexivity. Qed.
Lemma ki_raise {A} e : ki (A:=A) (raise e). Proof. intros s; reflexivity. Qed.
Lemma ki_lift {A} (r : res A) : ki (lift r). Proof. intros s; destruct r; reflexivity. Qed.
Lemma ki_get : ki get. Proof. intros s; reflexivity. Qed.
Lemma ki_modify f : (forall s, imp_initial (f s) = imp_initial s) -> ki (modify f).
Proof. intros H s; apply H. Qed.
Lemma ki_on_actl {A} (m : M ctl A) : (forall c, ctl_initial (snd (m c)) = ctl_initial c) -> ki (on_actl m).
Proof.
  intros H s; unfold on_actl, zoom. specialize (H (as_ext (get_asif s))).
  destruct (m (as_ext (get_asif s))) as [r c]; exact H.
Qed.
Lemma ki_record_causes iact : ki (record_causes iact).
Proof.
  induction iact as [|i iact IH]; simpl; [apply ki_ret|].
  apply ki_bind; [apply ki_get|intros s]. apply ki_bind; [apply ki_lift|intros k].
  apply ki_bind; [|intros; exact IH]. destruct (existsb _ _); [apply ki_ret|apply ki_modify; reflexivity].
Qed.
Lemma ki_filter x dt u : ki (asif_filter cfg (implicit_mats cfg ic) x dt u).
Proof.
  unfold asif_filter. apply ki_bind; [apply ki_modify; reflexivity|intros _].
  apply ki_bind; [|intros rc].
  { unfold implicit_mats; apply ki_bind; [apply ki_lift|intros q].
    apply ki_bind; [apply ki_on_actl; intros; apply integrate_initial|intros traj].
    apply ki_bind; [|intros rc].
    { unfold implicit_ineq_mats; apply ki_bind; [apply ki_get|intros s].
      apply ki_bind; [apply ki_lift|intros]; apply ki_bind; [apply ki_lift|intros]; apply ki_ret. }
    apply ki_bind; [apply ki_modify; reflexivity|intros; apply ki_ret]. }
  apply ki_bind; [|intros rc'].
  { unfold update_ineq_mats; apply ki_bind; [apply ki_get|intros s].
    apply ki_bind; [apply ki_lift|intros]; apply ki_ret. }
  apply ki_bind; [|intros v].
  { unfold optimize; apply ki_bind; [apply ki_get|intros s].
    destruct (ac_solve _ _ _ _ _) as [[z iact]|e].
    - apply ki_bind; [apply ki_modify; reflexivity|intros]; apply ki_bind; [apply ki_record_causes|intros; apply ki_ret].
    - destruct e; try apply ki_raise. destruct (String.eqb _ _); [|apply ki_raise].
      destruct (ac_exc cfg); [apply ki_raise|]. apply ki_bind; [apply ki_modify; reflexivity|intros; apply ki_ret]. }
  apply ki_bind; [apply ki_lift|intros b]. apply ki_bind; [apply ki_modify; reflexivity|intros; apply ki_ret].
Qed.
Lemma ctl_reset_initial c : ctl_initial (snd (ctl_reset c)) = ctl_initial c.
Proof. destruct c as [i sv st]; destruct i; reflexivity. Qed.
Lemma reset_initial s : imp_initial (snd (implicit_asif_reset (X:=X) (P:=P) s)) = imp_initial s.
Proof.
  unfold implicit_asif_reset. apply ki_bind; [apply ki_modify; reflexivity|intros _].
  apply ki_on_actl, ctl_reset_initial.
Qed.
Lemma run_imp_initial os : forall (s : obj) seen s',
  asif_run (implicit_asif_filter_control cfg ic) implicit_asif_reset os s = (seen, s') -> imp_initial s' = imp_initial s.
Proof.
  induction os as [|o os IH]; intros s seen s' H; simpl in H; [injection H as _ <-; reflexivity|].
  destruct (asif_step _ _ o s) as [b1 s1] eqn:E1.
  destruct (asif_run _ _ os s1) as [bs s2] eqn:E2; injection H as _ <-.
  rewrite (IH _ _ _ E2). clear IH E2 bs s2.
  destruct o as [o|k p|k e]; [|injection E1 as _ <-; reflexivity|injection E1 as _ <-; reflexivity].
  simpl in E1; destruct o as [i dt u| |en|i|k p|k e]; simpl in E1; try (injection E1 as _ <-; reflexivity).
  - destruct (implicit_asif_filter_control cfg ic i dt u s) as [r s2] eqn:E; injection E1 as _ <-.
    change (implicit_asif_filter_control cfg ic i dt u s) with
      (gfilter (ac_bounds cfg) (asif_filter cfg (implicit_mats cfg ic)) i dt u s) in E.
    destruct (enable s) eqn:En.
    + destruct i as [x|].
      * rewrite gfilter_array in E by auto.
        pose proof (ki_filter x dt u (prep x u s)) as Kf.
        destruct (asif_filter _ _ x dt u (prep x u s)) as [[v|e] s1']; cbn [snd] in Kf.
        -- destruct (clip _ v); injection E as _ <-; exact Kf.
        -- injection E as _ <-; exact Kf.
      * rewrite gfilter_other in E by auto. injection E as _ <-; reflexivity.
    + rewrite gfilter_disabled in E by auto. injection E as _ <-; reflexivity.
  - pose proof (reset_initial s) as Rs. destruct (implicit_asif_reset s) as [r s2]; injection E1 as _ <-; exact Rs.
  - destruct i; injection E1 as _ <-; reflexivity.
Qed.
End Initial.

(** Two implicit modules that agree on what a caller sees and assigns and on the controller. *)
Lemma implicit_same {X P} (cfg : asif_cfg X) ic (s s' : amod X P ctl) :
  fits (ac_bounds cfg) (ac_dim cfg) ->
  implicit_reached cfg ic s -> implicit_reached cfg ic s' ->
  asif_constraints s = asif_constraints s' -> asif_directs s = asif_directs s' -> rta_info s = rta_info s' ->
  imp_ctl s = imp_ctl s' -> imp_initial s = imp_initial s' ->
  gsim (alike ctl_alike (same_head (bound_rows (ac_bounds cfg) (ac_dim cfg)))) False s s'.
Proof.
  intros F R R' Ec Ed Ei Es E0.
  destruct (implicit_reached_keyed _ _ _ R) as (K & DK).
  destruct (implicit_reached_keyed _ _ _ R') as (K' & DK').
  destruct (implicit_reached_wired _ _ _ R) as [W1 W2 (nm & W3) _ _].
  destruct (implicit_reached_wired _ _ _ R') as [W1' W2' (nm' & W3') _ _].
  pose proof (implicit_reached_head cfg ic s F R) as Hd. pose proof (implicit_reached_head cfg ic s' F R') as Hd'.
  rewrite Ec in W1, W2, W3. rewrite W3' in W3; injection W3 as E1 E2 E3.
  unfold rta_info in Ei; injection Ei as I1 I2 I3 I4.
  unfold gsim. split; [exact I1|split; [exact I2|split; [exact I3|split; [exact I4|split; [exact Ec|]]]]].
  split; [exact K|split; [exact K'|split; [|tauto]]].
  change (cb_ext (ext s)) with (get_asif s). change (cb_ext (ext s')) with (get_asif s').
  unfold alike. split; [congruence|split; [congruence|split; [congruence|split; [congruence|split; [exact Ed|]]]]].
  split; [exact DK|split; [exact DK'|split]].
  - unfold same_head, bound_rows. rewrite Hd, Hd'; reflexivity.
  - split; [exact E0|exact Es].
Qed.

Lemma ctl_init_inv initial c : ctl_init initial = Ok c -> savable initial /\ ctl_initial c = initial /\ ctl_state c = initial.
Proof. unfold ctl_init; destruct initial; simpl; intros H; try discriminate; injection H as <-; simpl;
  (split; [intros t; discriminate|auto]). Qed.

Lemma implicit_new_reached {X P} (cfg : asif_cfg X) ic (s fresh : amod X P ctl) initial : implicit_reached cfg ic s ->
  implicit_asif_init cfg (asif_constraints s) None (asif_directs s) initial = Ok fresh -> implicit_reached cfg ic fresh.
Proof.
  intros R F; destruct (implicit_reached_wired _ _ _ R) as [_ _ _ D1 D2].
  exists (asif_constraints s), None, (asif_directs s), initial, fresh, [], []. auto.
Qed.

Lemma from_reached {X P} (cfg : asif_cfg X) ic initial (s : amod X P ctl) :
  implicit_from cfg ic initial s -> implicit_reached cfg ic s.
Proof. intros (d & tu & ds & s0 & os & seen & D1 & D2 & H0 & HR). exists d, tu, ds, initial, s0, os, seen; auto. Qed.

Lemma init_initial {X P} (cfg : asif_cfg X) defined to_use directs initial (s : amod X P ctl) :
  implicit_asif_init cfg defined to_use directs initial = Ok s ->
  imp_initial s = initial /\ imp_ctl s = initial /\ savable initial /\ rta_info s = rta_info (X:=unit) (mkRta true false None None tt).
Proof.
  unfold implicit_asif_init; destruct (ctl_init initial) as [c|e] eqn:Ec; [|discriminate]; cbn [rbind]; intros H.
  destruct (ctl_init_inv _ _ Ec) as (S & I1 & I2).
  unfold asif_init in H. destruct (select_constraints defined to_use) as [cs|e] eqn:Es; [|discriminate]; cbn [rbind] in H.
  destruct (actuation_mats _ _ _) as [[[rows consts] names]|e]; [|discriminate]; cbn [rbind] in H; cbv zeta in H.
  unfold cb_init in H; rewrite Es in H; cbn [rbind] in H. injection H as <-.
  unfold imp_initial, imp_ctl, get_asif; simpl. auto.
Qed.

Lemma from_initial {X P} (cfg : asif_cfg X) ic initial (s : amod X P ctl) :
  implicit_from cfg ic initial s -> imp_initial s = initial /\ savable initial.
Proof.
  intros (d & tu & ds & s0 & os & seen & D1 & D2 & H0 & HR).
  rewrite (run_imp_initial cfg ic os _ _ _ HR). destruct (init_initial _ _ _ _ _ _ H0) as (A & _ & B & _). auto.
Qed.

(** Assignments are the only thing that changes the direct inequalities. *)
Lemma run_directs {X P Z} (b : bounds) (flt : X -> R -> vec -> M (amod X P Z) vec) rst :
  (forall x dt u, keeps (flt x dt u)) ->
  (forall s r s', rst s = (r, s') -> asif_directs s' = asif_directs s) ->
  forall os s seen s', asif_run (gfilter b flt) rst os s = (seen, s') ->
  asif_directs s' = directs_after os (asif_directs s).
Proof.
  intros HF HR; induction os as [|o os IH]; intros s seen s' H; simpl in H; [injection H as _ <-; reflexivity|].
  destruct (asif_step (gfilter b flt) rst o s) as [b1 s1] eqn:E1.
  destruct (asif_run (gfilter b flt) rst os s1) as [bs s2] eqn:E2; injection H as _ <-.
  simpl. rewrite (IH _ _ _ E2). f_equal. clear IH E2 bs s2.
  destruct o as [o|k p|k e]; [|injection E1 as _ <-; reflexivity|injection E1 as _ <-; reflexivity].
  replace (map (assign_direct (ABase o)) (asif_directs s)) with (asif_directs s) by (symmetry; apply map_id).
  simpl in E1; destruct o as [i dt u| |en|i|k p|k e]; simpl in E1; try (injection E1 as _ <-; reflexivity).
  - destruct (gfilter b flt i dt u s) as [r s2] eqn:E; injection E1 as _ <-.
    destruct (enable s) eqn:En.
    + destruct i as [x|].
      * rewrite gfilter_array in E by auto.
        destruct (flt x dt u (prep x u s)) as [rr s3] eqn:Ef.
        pose proof (HF x dt u _ _ _ Ef) as (_ & _ & _ & _ & _ & _ & _ & _ & _ & _ & Kd).
        destruct rr as [v|e].
        -- destruct (clip _ v); injection E as _ <-; exact Kd.
        -- injection E as _ <-; exact Kd.
      * rewrite gfilter_other in E by auto. injection E as _ <-; reflexivity.
    + rewrite gfilter_disabled in E by auto. injection E as _ <-; reflexivity.
  - destruct (rst s) as [r s2] eqn:Er; injection E1 as _ <-. exact (HR _ _ _ Er).
  - destruct i; injection E1 as _ <-; reflexivity.
Qed.
