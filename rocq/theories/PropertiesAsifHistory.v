(** Whole histories of the explicit and the implicit ASIF module: C03, C05, C06, C08, C09. *)
From Coq Require Import String Reals List Bool ZArith Lia Lra.
From Verif Require Import Prelude Vec ModelBase ModelController ModelSimplex ModelAsif
  SpecCore SpecHistory SpecSimplex SpecAsif SpecImplicit SpecAsifHistory ProofsBase ProofsVec ProofsHistory ProofsSim
  ProofsAsif ProofsAsif2 ProofsAsif3 ProofsImplicit3 ProofsAsifHistory ProofsAsifHistory2
  ExampleTools ExampleQP PropertiesAsif PropertiesImplicit.
Import ListNotations.
Local Open Scope R_scope.

Lemma init_agrees {X P Z} (cfg : asif_cfg X) defined to_use directs (z : Z) (s : amod X P Z) :
  asif_init cfg defined to_use directs z = Ok s -> agrees book_start s /\ rta_info s = rta_info (X:=unit) (mkRta true false None None tt).
Proof.
  unfold asif_init. destruct (select_constraints defined to_use) as [cs|e] eqn:Es; [|discriminate]; cbn [rbind].
  destruct (actuation_mats _ _ _) as [[[rows consts] names]|e]; [|discriminate]; cbn [rbind]; cbv zeta.
  unfold cb_init; rewrite Es; cbn [rbind]. intros H; injection H as <-.
  split; [split; [reflexivity|split; reflexivity]|reflexivity].
Qed.

(** ** C03.  After any history, what the module reports about itself is what a bookkeeper
    who saw the operations and their outcomes wrote down. *)
Theorem C03_explicit_asif_info_agrees_with_history :
  forall (X P : Type) (cfg : asif_cfg X) defined to_use directs (s0 : amod X P unit) os seen s,
  sized_solver (ac_solve cfg) -> fits (ac_bounds cfg) (ac_dim cfg) -> sized_for (ac_dim cfg) os ->
  asif_init cfg defined to_use directs tt = Ok s0 ->
  asif_run (explicit_asif_filter_control cfg) explicit_asif_reset os s0 = (seen, s) ->
  let bk := abook_of book_start os seen in
  dict_get (cb_info s) "enable" = Ok (IBool (bk_enable bk)) /\
  dict_get (cb_info s) "control_desired" = Ok (IControl (bk_desired bk)) /\
  dict_get (cb_info s) "control_actual" = Ok (IControl (bk_actual bk)).
Proof.
  intros X P cfg defined to_use directs s0 os seen s HS F Sz H0 HR bk.
  assert (A : agrees bk s).
  { exact (asif_run_agrees (ac_bounds cfg) (asif_filter cfg (explicit_mats cfg)) explicit_asif_reset
      (explicit_framed cfg) explicit_reset_framed _ (asif_out_sized cfg _ HS F) os book_start s0 seen s Sz
      (proj1 (init_agrees _ _ _ _ _ _ H0)) HR). }
  destruct A as (A1 & A2 & A3); destruct (info_base s) as (I1 & _ & I3 & I4).
  rewrite <- A1, <- A2, <- A3; auto.
Qed.
Print Assumptions C03_explicit_asif_info_agrees_with_history.

Theorem C03_implicit_asif_info_agrees_with_history :
  forall (X P : Type) (cfg : asif_cfg X) ic defined to_use directs initial (s0 : amod X P ctl) os seen s,
  sized_solver (ac_solve cfg) -> fits (ac_bounds cfg) (ac_dim cfg) -> sized_for (ac_dim cfg) os ->
  implicit_asif_init cfg defined to_use directs initial = Ok s0 ->
  asif_run (implicit_asif_filter_control cfg ic) implicit_asif_reset os s0 = (seen, s) ->
  let bk := abook_of book_start os seen in
  dict_get (cb_info s) "enable" = Ok (IBool (bk_enable bk)) /\
  dict_get (cb_info s) "control_desired" = Ok (IControl (bk_desired bk)) /\
  dict_get (cb_info s) "control_actual" = Ok (IControl (bk_actual bk)).
Proof.
  intros X P cfg ic defined to_use directs initial s0 os seen s HS F Sz H0 HR bk.
  unfold implicit_asif_init in H0; destruct (ctl_init initial) as [c|e]; [|discriminate]; cbn [rbind] in H0.
  assert (A : agrees bk s).
  { exact (asif_run_agrees (ac_bounds cfg) (asif_filter cfg (implicit_mats cfg ic)) implicit_asif_reset
      (implicit_framed cfg ic) implicit_reset_framed _ (asif_out_sized cfg _ HS F) os book_start s0 seen s Sz
      (proj1 (init_agrees _ _ _ _ _ _ H0)) HR). }
  destruct A as (A1 & A2 & A3); destruct (info_base s) as (I1 & _ & I3 & I4).
  rewrite <- A1, <- A2, <- A3; auto.
Qed.
Print Assumptions C03_implicit_asif_info_agrees_with_history.

(** ** C09.  A call that raises: the desired control is noted, the actual one stays. *)
Theorem C09_explicit_asif_failing_call :
  forall (X P : Type) (cfg : asif_cfg X) (s s' : amod X P unit) i dt u e,
  sized_solver (ac_solve cfg) -> fits (ac_bounds cfg) (ac_dim cfg) -> length u = ac_dim cfg ->
  explicit_asif_filter_control cfg i dt u s = (Err e, s') ->
  control_desired s' = Some u /\ control_actual s' = control_actual s /\ enable s' = enable s.
Proof.
  intros X P cfg s s' i dt u e HS F Lu H.
  pose (bk := mkBook (enable s) (control_desired s) (control_actual s)).
  destruct (step_agrees (ac_bounds cfg) (asif_filter cfg (explicit_mats cfg)) explicit_asif_reset
     (explicit_framed cfg) explicit_reset_framed (asif_out_sized cfg _ HS F) bk
     (OFilter i dt u) s (ObsRaised e) s') as (A1 & A2 & A3).
  - intros i' dt' u' E; injection E as _ _ <-; exact Lu.
  - split; [reflexivity|split; reflexivity].
  - simpl; unfold gfilter; unfold explicit_asif_filter_control in H; rewrite H; reflexivity.
  - auto.
Qed.
Print Assumptions C09_explicit_asif_failing_call.

Theorem C09_implicit_asif_failing_call :
  forall (X P : Type) (cfg : asif_cfg X) ic (s s' : amod X P ctl) i dt u e,
  sized_solver (ac_solve cfg) -> fits (ac_bounds cfg) (ac_dim cfg) -> length u = ac_dim cfg ->
  implicit_asif_filter_control cfg ic i dt u s = (Err e, s') ->
  control_desired s' = Some u /\ control_actual s' = control_actual s /\ enable s' = enable s.
Proof.
  intros X P cfg ic s s' i dt u e HS F Lu H.
  pose (bk := mkBook (enable s) (control_desired s) (control_actual s)).
  destruct (step_agrees (ac_bounds cfg) (asif_filter cfg (implicit_mats cfg ic)) implicit_asif_reset
     (implicit_framed cfg ic) implicit_reset_framed (asif_out_sized cfg _ HS F) bk
     (OFilter i dt u) s (ObsRaised e) s') as (A1 & A2 & A3).
  - intros i' dt' u' E; injection E as _ _ <-; exact Lu.
  - split; [reflexivity|split; reflexivity].
  - simpl; unfold gfilter; unfold implicit_asif_filter_control in H; rewrite H; reflexivity.
  - auto.
Qed.
Print Assumptions C09_implicit_asif_failing_call.

(** ** C06.  The reported constraint values are those of the last evaluation, under the key
    that says when it happened, whatever came before and after. *)
Theorem C06_explicit_asif_reported_values :
  forall (X P : Type) (cfg : asif_cfg X) (s0 : amod X P unit) os1 o os2 seen s x key,
  let cs := constraints_after (plain os1) (cb_constraints (ext s0)) in
  let en := switch_of (enable s0) (plain os1) in
  evaluates en o = Some (x, key) -> quiet (switch_after en o) (plain os2) ->
  asif_run (explicit_asif_filter_control cfg) explicit_asif_reset (os1 ++ ABase o :: os2) s0 = (seen, s) ->
  dict_get (cb_info s) key = Ok (IValues (report cs x)) /\
  (forall l, l = "constraints_at_last_state"%string \/ l = "constraints"%string -> l <> key ->
     dict_get (cb_info s) l = Err KeyError).
Proof.
  intros X P cfg s0 os1 o os2 seen s x key.
  exact (asif_run_values (ac_bounds cfg) (asif_filter cfg (explicit_mats cfg)) explicit_asif_reset
           (explicit_framed cfg) explicit_reset_framed os1 o os2 s0 seen s x key).
Qed.
Print Assumptions C06_explicit_asif_reported_values.

Theorem C06_implicit_asif_reported_values :
  forall (X P : Type) (cfg : asif_cfg X) ic (s0 : amod X P ctl) os1 o os2 seen s x key,
  let cs := constraints_after (plain os1) (cb_constraints (ext s0)) in
  let en := switch_of (enable s0) (plain os1) in
  evaluates en o = Some (x, key) -> quiet (switch_after en o) (plain os2) ->
  asif_run (implicit_asif_filter_control cfg ic) implicit_asif_reset (os1 ++ ABase o :: os2) s0 = (seen, s) ->
  dict_get (cb_info s) key = Ok (IValues (report cs x)) /\
  (forall l, l = "constraints_at_last_state"%string \/ l = "constraints"%string -> l <> key ->
     dict_get (cb_info s) l = Err KeyError).
Proof.
  intros X P cfg ic s0 os1 o os2 seen s x key.
  exact (asif_run_values (ac_bounds cfg) (asif_filter cfg (implicit_mats cfg ic)) implicit_asif_reset
           (implicit_framed cfg ic) implicit_reset_framed os1 o os2 s0 seen s x key).
Qed.
Print Assumptions C06_implicit_asif_reported_values.

(** Non-vacuity for these: a returning call, a raising one and an assignment. *)
Definition before : list (aop R unit) :=
  [ABase (OSetParams "wall"%string tt); ABase (OFilter InOther 1 [0]); ASetDirectEnabled "push"%string false].
Definition the_call : op R unit := OFilter (InArray (1/2)) 1 [1].
Definition acase : list (aop R unit) := before ++ [ABase the_call].
Ltac alone_qp := qp1_gives [[1]] [1] [[1]; [-1]; [-1]; [0]] [-1; -1; -1/2; 0] [1/2] [3%nat].
Lemma qp1_sized : sized_solver qp1.
Proof. intros G a C b z iact H. exact (proj1 (qp_optimal _ qp1_contract _ _ _ _ _ _ H)). Qed.
Example C03_explicit_asif_case : exists s,
  sized_solver qp1 /\ fits unit_box 1 /\ sized_for 1 acase /\
  asif_init (line_cfg unit_box false qp1) [("wall"%string, wall None)] None [("push"%string, push (-1/2))] tt = Ok walled /\
  asif_run (explicit_asif_filter_control (line_cfg unit_box false qp1)) explicit_asif_reset acase walled =
    ([ObsDone; ObsRaised AssertionError; ObsDone; ObsControl [1/2]], s) /\
  evaluates (switch_of (enable walled) (plain before)) the_call = Some (1/2, "constraints_at_last_state"%string) /\
  quiet true (plain ([] : list (aop R unit))).
Proof.
  eexists; split; [exact qp1_sized|split; [exact unit_box_fits|split; [|split; [reflexivity|split; [|split]]]]].
  - intros i dt u H; simpl in H; repeat destruct H as [H|H]; try discriminate; try tauto; injection H as _ _ <-; reflexivity.
  - eval_model; alone_qp; eval_model; reflexivity.
  - reflexivity.
  - simpl; auto.
Qed.

(** ** C05.  After a reset, in any history, the module answers every later history like a
    newly built one with the present constraints and direct inequalities. *)
Theorem C05_explicit_asif_reset :
  forall (X P : Type) (cfg : asif_cfg X) (s fresh : amod X P unit) next,
  explicit_reached cfg s ->
  asif_init cfg (asif_constraints s) None (asif_directs s) tt = Ok fresh ->
  exists s1, explicit_asif_reset s = (Ok tt, s1) /\
    let r := asif_run (explicit_asif_filter_control cfg) explicit_asif_reset next s1 in
    let r' := asif_run (explicit_asif_filter_control cfg) explicit_asif_reset next fresh in
    fst r = fst r' /\ rta_info (snd r) = rta_info (snd r') /\
    (~ quiet true (plain next) -> cb_info (snd r) = cb_info (snd r')).
Proof.
  intros X P cfg s fresh next R F. eexists; split; [reflexivity|].
  pose proof (explicit_new_reached cfg s fresh R F) as R'.
  destruct (asif_init_inv _ _ _ _ _ _ F) as (cs & names & Es & _ & Ec & Ed & _).
  simpl in Es; injection Es as <-.
  destruct (init_agrees _ _ _ _ _ _ F) as [(E0 & _) Ei].
  assert (G : gsim (alike any eq) False (rta_reset (fun y => y) s) fresh).
  { apply (explicit_same cfg); [apply explicit_reset_reached; exact R|exact R'|symmetry; exact Ec|symmetry; exact Ed|].
    rewrite Ei; reflexivity. }
  destruct (asif_gsim_run any (ac_bounds cfg) (asif_filter cfg (explicit_mats cfg)) explicit_asif_reset eq
     (explicit_flt_sim cfg) explicit_rst_sim (explicit_framed cfg) explicit_reset_framed next False _ _ G) as [A B].
  change (gfilter (ac_bounds cfg) (asif_filter (P:=P) (Z:=unit) cfg (explicit_mats cfg)))
    with (explicit_asif_filter_control (P:=P) cfg) in *.
  destruct (gsim_info _ _ _ _ B) as [C D].
  intros r r'; split; [exact A|split; [exact C|]]. intros Q; apply D; right. exact Q.
Qed.
Print Assumptions C05_explicit_asif_reset.
Example C05_explicit_asif_case : let cfg := line_cfg unit_box false qp1 in
  exists s fresh,
  asif_run (explicit_asif_filter_control cfg) explicit_asif_reset acase walled =
    ([ObsDone; ObsRaised AssertionError; ObsDone; ObsControl [1/2]], s) /\
  explicit_reached cfg s /\
  asif_init cfg (asif_constraints s) None (asif_directs s) tt = Ok fresh /\
  intervening s = true /\ intervening fresh = false /\
  asif_directs fresh = [("push"%string, set_d_enabled false (push (-1/2)))].
Proof.
  intros cfg. do 2 eexists.
  assert (E : asif_run (explicit_asif_filter_control cfg) explicit_asif_reset acase walled =
    ([ObsDone; ObsRaised AssertionError; ObsDone; ObsControl [1/2]], snd (line_run unit_box false qp1
       [("wall"%string, wall None)] [("push"%string, push (-1/2))] acase))).
  { unfold line_run, cfg. eval_model; alone_qp; eval_model; reflexivity. }
  split; [exact E|split; [apply line_reached; [keys|keys|reflexivity]|]].
  clear E. unfold line_run. eval_model; alone_qp; eval_model.
  split; [reflexivity|split; [reflexivity|split; reflexivity]].
Qed.

Theorem C05_implicit_asif_reset :
  forall (X P : Type) (cfg : asif_cfg X) ic initial (s fresh : amod X P ctl) next,
  fits (ac_bounds cfg) (ac_dim cfg) -> implicit_from cfg ic initial s ->
  implicit_asif_init cfg (asif_constraints s) None (asif_directs s) initial = Ok fresh ->
  exists s1, implicit_asif_reset s = (Ok tt, s1) /\
    let r := asif_run (implicit_asif_filter_control cfg ic) implicit_asif_reset next s1 in
    let r' := asif_run (implicit_asif_filter_control cfg ic) implicit_asif_reset next fresh in
    fst r = fst r' /\ rta_info (snd r) = rta_info (snd r') /\
    (~ quiet true (plain next) -> cb_info (snd r) = cb_info (snd r')).
Proof.
  intros X P cfg ic initial s fresh next Ft R F.
  destruct (from_initial _ _ _ _ R) as [I0 Sv]. destruct (init_initial _ _ _ _ _ _ F) as (J0 & J1 & _ & Ei).
  pose proof (implicit_new_reached cfg ic s fresh initial (from_reached _ _ _ _ R) F) as R'.
  assert (F' := F). unfold implicit_asif_init in F'; destruct (ctl_init initial) as [c|e]; [|discriminate]; cbn [rbind] in F'.
  destruct (asif_init_inv _ _ _ _ _ _ F') as (cs & names & Es & _ & Ec & Ed & _).
  simpl in Es; injection Es as <-. destruct (init_agrees _ _ _ _ _ _ F') as [(E0 & _) _].
  set (s1 := snd (implicit_asif_reset s)).
  assert (Er : implicit_asif_reset s = (Ok tt, s1) /\ asif_constraints s1 = asif_constraints s /\
     asif_directs s1 = asif_directs s /\ rta_info s1 = rta_info fresh /\ imp_ctl s1 = initial /\ imp_initial s1 = initial /\
     enable s1 = true).
  { unfold s1. rewrite Ei. unfold imp_initial in I0. unfold implicit_asif_reset, bind, modify, on_actl, zoom.
    unfold ctl_reset, bind, get, lift, modify.
    change (as_ext (get_asif (rta_reset (fun y => y) s))) with (as_ext (get_asif s)). rewrite I0.
    destruct initial; try (repeat split; exact I0). destruct (Sv tag eq_refl). }
  destruct Er as (Er & Qc & Qd & Qi & Q1 & Q2 & Qe). exists s1; split; [exact Er|].
  assert (R1 : implicit_reached cfg ic s1).
  { destruct (from_reached _ _ _ _ R) as (d & tu & ds & ini & s0 & os & seen & D1 & D2 & H0 & HR).
    exists d, tu, ds, ini, s0, (os ++ [ABase OReset]). eexists; split; [exact D1|split; [exact D2|split; [exact H0|]]].
    change (implicit_asif_filter_control (P:=P) cfg ic) with
      (gfilter (ac_bounds cfg) (asif_filter (P:=P) cfg (implicit_mats cfg ic))) in *.
    rewrite asif_run_app, HR. cbn [asif_run asif_step cb_step]. rewrite Er. reflexivity. }
  assert (G : gsim (alike ctl_alike (same_head (bound_rows (ac_bounds cfg) (ac_dim cfg)))) False s1 fresh).
  { apply (implicit_same cfg ic); auto; congruence. }
  destruct (asif_gsim_run ctl_alike (ac_bounds cfg) (asif_filter cfg (implicit_mats cfg ic)) implicit_asif_reset
     (same_head (bound_rows (ac_bounds cfg) (ac_dim cfg)))
     (implicit_flt_sim cfg ic) (implicit_rst_sim _) (implicit_framed cfg ic) implicit_reset_framed next False _ _ G) as [A B].
  change (gfilter (ac_bounds cfg) (asif_filter (P:=P) cfg (implicit_mats cfg ic)))
    with (implicit_asif_filter_control (P:=P) cfg ic) in *.
  destruct (gsim_info _ _ _ _ B) as [C D].
  intros r r'; split; [exact A|split; [exact C|]]. intros Q; apply D; right. rewrite Qe; exact Q.
Qed.
Print Assumptions C05_implicit_asif_reset.
(** A controller that counts, advanced by a call that fails half-way, and then reset. *)
Definition broken_ic : imp_cfg R :=
  mkImpCfg 2 (fun _ _ _ => Err TypeError)
    (fun _ _ cs => match cs with CSArray [n] => GPair [-1] (CSArray [n + 1]) | _ => GOther end)
    (fun _ _ _ => [[0]]) (fun _ => 1%nat).
Definition bcase : list (aop R unit) := [ABase (OFilter (InArray (1/2)) 1 [1])].
Example C05_implicit_asif_case : let cfg := line_cfg unit_box false qp1 in
  exists s fresh, fits (ac_bounds cfg) (ac_dim cfg) /\ implicit_from cfg broken_ic (CSArray [5]) s /\
  asif_run (implicit_asif_filter_control cfg broken_ic) implicit_asif_reset bcase counting = ([ObsRaised TypeError], s) /\
  implicit_asif_init cfg (asif_constraints s) None (asif_directs s) (CSArray [5]) = Ok fresh /\
  imp_ctl s = CSArray [5 + 1] /\ imp_ctl fresh = CSArray [5].
Proof.
  intros cfg. do 2 eexists.
  assert (E : asif_run (implicit_asif_filter_control cfg broken_ic) implicit_asif_reset bcase counting =
    ([ObsRaised TypeError], snd (asif_run (implicit_asif_filter_control cfg broken_ic) implicit_asif_reset bcase counting))).
  { unfold cfg. imp_eval. reflexivity. }
  split; [exact unit_box_fits|split; [|split; [exact E|]]].
  - exists [("wall"%string, wall None)], None, ([] : dict (direct R unit)), counting, bcase, [ObsRaised TypeError].
    split; [keys|split; [keys|split; [reflexivity|exact E]]].
  - clear E. unfold cfg; imp_eval. split; [reflexivity|split; reflexivity].
Qed.

(** ** C08.  Assignments are all that changes the constraints and direct inequalities. *)
Theorem C08_explicit_asif_assignments :
  forall (X P : Type) (cfg : asif_cfg X) (s0 : amod X P unit) os seen s,
  asif_run (explicit_asif_filter_control cfg) explicit_asif_reset os s0 = (seen, s) ->
  asif_constraints s = constraints_after (plain os) (asif_constraints s0) /\
  asif_directs s = directs_after os (asif_directs s0).
Proof.
  intros X P cfg s0 os seen s H; split.
  - exact (proj1 (asif_run_constraints (ac_bounds cfg) (asif_filter cfg (explicit_mats cfg)) explicit_asif_reset
      (explicit_framed cfg) explicit_reset_framed os s0 seen s H)).
  - refine (run_directs (ac_bounds cfg) (asif_filter cfg (explicit_mats cfg)) explicit_asif_reset _ _ os s0 seen s H).
    + intros; apply keeps_filter; intros; apply keeps_explicit_mats.
    + intros t r t' E; injection E as _ <-; reflexivity.
Qed.
Print Assumptions C08_explicit_asif_assignments.
Theorem C08_implicit_asif_assignments :
  forall (X P : Type) (cfg : asif_cfg X) ic (s0 : amod X P ctl) os seen s,
  asif_run (implicit_asif_filter_control cfg ic) implicit_asif_reset os s0 = (seen, s) ->
  asif_constraints s = constraints_after (plain os) (asif_constraints s0) /\
  asif_directs s = directs_after os (asif_directs s0).
Proof.
  intros X P cfg ic s0 os seen s H; split.
  - exact (proj1 (asif_run_constraints (ac_bounds cfg) (asif_filter cfg (implicit_mats cfg ic)) implicit_asif_reset
      (implicit_framed cfg ic) implicit_reset_framed os s0 seen s H)).
  - refine (run_directs (ac_bounds cfg) (asif_filter cfg (implicit_mats cfg ic)) implicit_asif_reset _ _ os s0 seen s H).
    + intros; apply keeps_filter; intros; apply keeps_implicit_mats.
    + intros t r t' E; unfold implicit_asif_reset, bind, modify, on_actl, zoom in E.
      destruct (ctl_reset _); injection E as _ <-; reflexivity.
Qed.
Print Assumptions C08_implicit_asif_assignments.

(** Two modules that agree on what a caller sees and assigns (whatever was assigned before)
    answer every later history alike, assignments to direct inequalities included. *)
Theorem C08_explicit_asif_present_values_only :
  forall (X P : Type) (cfg : asif_cfg X) (s s' : amod X P unit) os,
  explicit_reached cfg s -> explicit_reached cfg s' ->
  asif_constraints s = asif_constraints s' -> asif_directs s = asif_directs s' -> rta_info s = rta_info s' ->
  fst (asif_run (explicit_asif_filter_control cfg) explicit_asif_reset os s) =
  fst (asif_run (explicit_asif_filter_control cfg) explicit_asif_reset os s').
Proof.
  intros X P cfg s s' os R R' Ec Ed Ei.
  destruct (asif_gsim_run any (ac_bounds cfg) (asif_filter cfg (explicit_mats cfg)) explicit_asif_reset eq
     (explicit_flt_sim cfg) explicit_rst_sim (explicit_framed cfg) explicit_reset_framed os False s s'
     (explicit_same cfg s s' R R' Ec Ed Ei)) as [A _]. exact A.
Qed.
Print Assumptions C08_explicit_asif_present_values_only.
Theorem C08_implicit_asif_present_values_only :
  forall (X P : Type) (cfg : asif_cfg X) ic initial (s s' : amod X P ctl) os,
  fits (ac_bounds cfg) (ac_dim cfg) -> implicit_from cfg ic initial s -> implicit_from cfg ic initial s' ->
  asif_constraints s = asif_constraints s' -> asif_directs s = asif_directs s' -> rta_info s = rta_info s' ->
  imp_ctl s = imp_ctl s' ->
  fst (asif_run (implicit_asif_filter_control cfg ic) implicit_asif_reset os s) =
  fst (asif_run (implicit_asif_filter_control cfg ic) implicit_asif_reset os s').
Proof.
  intros X P cfg ic initial s s' os Ft R R' Ec Ed Ei Ek.
  destruct (from_initial _ _ _ _ R) as [I1 _]; destruct (from_initial _ _ _ _ R') as [I2 _].
  destruct (asif_gsim_run ctl_alike (ac_bounds cfg) (asif_filter cfg (implicit_mats cfg ic)) implicit_asif_reset
     (same_head (bound_rows (ac_bounds cfg) (ac_dim cfg)))
     (implicit_flt_sim cfg ic) (implicit_rst_sim _) (implicit_framed cfg ic) implicit_reset_framed os False s s'
     (implicit_same cfg ic s s' Ft (from_reached _ _ _ _ R) (from_reached _ _ _ _ R') Ec Ed Ei Ek (eq_trans I1 (eq_sym I2)))) as [A _].
  exact A.
Qed.
Print Assumptions C08_implicit_asif_present_values_only.

(** Two different pasts, one of them with the direct inequality switched off and on again. *)
Definition past1 : list (aop R unit) :=
  [ASetDirectEnabled "push"%string false; ABase (OUpdateValues (InArray 3)); ASetDirectEnabled "push"%string true].
Definition past2 : list (aop R unit) := [ABase (OSetParams "wall"%string tt)].
Example C08_explicit_asif_case :
  let cfg := line_cfg unit_box false qp1 in
  let s := snd (line_run unit_box false qp1 [("wall"%string, wall None)] [("push"%string, push (-1/2))] past1) in
  let s' := snd (line_run unit_box false qp1 [("wall"%string, wall None)] [("push"%string, push (-1/2))] past2) in
  explicit_reached cfg s /\ explicit_reached cfg s' /\
  asif_constraints s = asif_constraints s' /\ asif_directs s = asif_directs s' /\ rta_info s = rta_info s' /\ s <> s'.
Proof.
  intros cfg s s'. split; [apply line_reached; [keys|keys|reflexivity]|split; [apply line_reached; [keys|keys|reflexivity]|]].
  split; [reflexivity|split; [reflexivity|split; [reflexivity|discriminate]]].
Qed.
Example C08_implicit_asif_case :
  let cfg := line_cfg unit_box false qp1 in
  let past os := snd (asif_run (implicit_asif_filter_control cfg counting_ic) implicit_asif_reset os counting) in
  fits (ac_bounds cfg) (ac_dim cfg) /\
  implicit_from cfg counting_ic (CSArray [5]) (past [ABase (OSetEnabled "wall"%string false); ABase (OUpdateValues (InArray 3)); ABase (OSetEnabled "wall"%string true)]) /\
  implicit_from cfg counting_ic (CSArray [5]) (past past2) /\
  let s := past [ABase (OSetEnabled "wall"%string false); ABase (OUpdateValues (InArray 3)); ABase (OSetEnabled "wall"%string true)] in
  let s' := past past2 in
  asif_constraints s = asif_constraints s' /\ asif_directs s = asif_directs s' /\ rta_info s = rta_info s' /\
  imp_ctl s = imp_ctl s' /\ s <> s'.
Proof.
  intros cfg past.
  assert (G : forall os, implicit_from cfg counting_ic (CSArray [5]) (past os)).
  { intros os; exists [("wall"%string, wall None)], None, ([] : dict (direct R unit)), counting, os.
    exists (fst (asif_run (implicit_asif_filter_control cfg counting_ic) implicit_asif_reset os counting)).
    split; [keys|split; [keys|split; [reflexivity|apply surjective_pairing]]]. }
  split; [exact unit_box_fits|split; [apply G|split; [apply G|]]].
  intros s s'. split; [reflexivity|split; [reflexivity|split; [reflexivity|split; [reflexivity|discriminate]]]].
Qed.
