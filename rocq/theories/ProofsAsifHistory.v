(** Histories of the quadratic-program modules: bookkeeping, reported values, and modules
    that answer alike. *)
From Coq Require Import String Reals List Bool ZArith Lia Lra.
From Verif Require Import Prelude Vec ModelBase ModelController ModelSimplex ModelAsif
  SpecCore SpecHistory SpecAsif SpecAsifHistory ProofsBase ProofsHistory ProofsSim ProofsVec ProofsAsif ProofsAsif2
  ProofsAsif3 ProofsImplicit3.
Import ListNotations.
Local Open Scope R_scope.

(** ** The lengths of the controls *)

Lemma optimize_length {X P Z} (cfg : asif_cfg X) u rows consts (s : amod X P Z) v s' :
  sized_solver (ac_solve cfg) -> length u = ac_dim cfg ->
  optimize cfg u rows consts s = (Ok v, s') -> length v = ac_dim cfg.
Proof.
  intros HS Lu; unfold optimize, bind, get, modify, ret, raise.
  destruct (ac_solve _ _ _ _ _) as [[z iact]|e] eqn:Es.
  - destruct (record_causes iact _) as [[[]|e] s1]; [|discriminate].
    intros H; injection H as <- _. apply HS in Es. rewrite firstn_length, Es, app_length; lia.
  - destruct e; try discriminate. destruct (String.eqb _ _); [|discriminate].
    destruct (ac_exc cfg); [discriminate|]. intros H; injection H as <- _.
    rewrite firstn_length, app_length; lia.
Qed.

Lemma asif_out_sized {X P Z} (cfg : asif_cfg X) (bm : X -> R -> M (amod X P Z) (mat * vec)) :
  sized_solver (ac_solve cfg) -> fits (ac_bounds cfg) (ac_dim cfg) ->
  out_sized_on (fun u => length u = ac_dim cfg) (ac_bounds cfg) (asif_filter cfg bm).
Proof.
  intros HS F x dt u s v s' Lu H.
  replace (length v) with (ac_dim cfg); auto; symmetry.
  unfold asif_filter, bind at 1, modify at 1 in H. unfold bind at 1 in H.
  destruct (bm x dt (on_asif update_direct s)) as [[rc|e] s1]; [|discriminate].
  unfold bind at 1 in H. destruct (update_ineq_mats cfg rc x s1) as [[rc'|e] s2]; [|discriminate].
  unfold bind at 1 in H. destruct (optimize cfg u (fst rc') (snd rc') s2) as [[w|e] s3] eqn:E; [|discriminate].
  unfold bind, lift, modify, ret in H. destruct (opt_monitor _ _ _); [|discriminate].
  injection H as <- _. eapply optimize_length; eauto.
Qed.

(** ** Bookkeeping *)

Section Runs.
Context {X P Z : Type} (b : bounds) (flt : X -> R -> vec -> M (amod X P Z) vec) (rst : M (amod X P Z) unit).
Hypothesis HF : framed flt.
Hypothesis HR : reset_framed rst.

Lemma asif_run_agrees (ok : vec -> Prop) : out_sized_on ok b flt -> forall os bk s seen s',
  (forall i dt u, In (ABase (OFilter i dt u)) os -> ok u) ->
  agrees bk s -> asif_run (gfilter b flt) rst os s = (seen, s') -> agrees (abook_of bk os seen) s'.
Proof.
  intros HS; induction os as [|o os IH]; intros bk s seen s' Sz A H; simpl in H.
  - injection H as <- <-; exact A.
  - destruct (asif_step (gfilter b flt) rst o s) as [b1 s1] eqn:E1.
    destruct (asif_run (gfilter b flt) rst os s1) as [bs s2] eqn:E2; injection H as <- <-.
    assert (Sz' : forall i dt u, In (ABase (OFilter i dt u)) os -> ok u)
      by (intros i dt u Hin; apply (Sz i dt u); right; auto).
    destruct o as [o|k p|k e]; simpl in E1 |- *.
    + refine (IH _ s1 _ _ Sz' _ E2). apply (step_agrees b flt rst HF HR HS bk o s b1 s1); auto.
      intros i dt u ->; apply (Sz i dt u); left; auto.
    + injection E1 as <- <-; refine (IH _ _ _ _ Sz' _ E2); exact A.
    + injection E1 as <- <-; refine (IH _ _ _ _ Sz' _ E2); exact A.
Qed.

Lemma asif_run_constraints os : forall s seen s', asif_run (gfilter b flt) rst os s = (seen, s') ->
  cb_constraints (ext s') = constraints_after (plain os) (cb_constraints (ext s)) /\
  enable s' = switch_of (enable s) (plain os).
Proof.
  induction os as [|o os IH]; intros s seen s' H; simpl in H.
  - injection H as <- <-; auto.
  - destruct (asif_step (gfilter b flt) rst o s) as [b1 s1] eqn:E1.
    destruct (asif_run (gfilter b flt) rst os s1) as [bs s2] eqn:E2; injection H as <- <-.
    destruct (IH _ _ _ E2) as [A B]. destruct o as [o|k p|k e]; simpl in E1 |- *.
    + rewrite A, B, (step_constraints b flt rst HF HR _ _ _ _ E1), (step_enable b flt rst HF HR _ _ _ _ E1); auto.
    + injection E1 as <- <-; auto.
    + injection E1 as <- <-; auto.
Qed.

Lemma asif_run_quiet os : forall s seen s', quiet (enable s) (plain os) ->
  asif_run (gfilter b flt) rst os s = (seen, s') ->
  cb_values (ext s') = cb_values (ext s) /\ cb_stale (ext s') = cb_stale (ext s).
Proof.
  induction os as [|o os IH]; intros s seen s' Q H; simpl in H.
  - injection H as <- <-; auto.
  - destruct (asif_step (gfilter b flt) rst o s) as [b1 s1] eqn:E1.
    destruct (asif_run (gfilter b flt) rst os s1) as [bs s2] eqn:E2; injection H as <- <-.
    destruct o as [o|k p|k e]; simpl in E1, Q.
    + destruct Q as [Q1 Q2]. rewrite <- (step_enable b flt rst HF HR _ _ _ _ E1) in Q2.
      destruct (IH _ _ _ Q2 E2) as [-> ->]. eapply step_quiet; eauto.
    + injection E1 as <- <-; refine (IH _ _ _ _ E2); exact Q.
    + injection E1 as <- <-; refine (IH _ _ _ _ E2); exact Q.
Qed.

Lemma asif_run_app os1 : forall os2 s,
  asif_run (gfilter b flt) rst (os1 ++ os2) s =
  (let (o1, s1) := asif_run (gfilter b flt) rst os1 s in
   let (o2, s2) := asif_run (gfilter b flt) rst os2 s1 in (o1 ++ o2, s2)).
Proof.
  induction os1 as [|o os1 IH]; intros os2 s.
  - simpl. destruct (asif_run (gfilter b flt) rst os2 s); auto.
  - simpl. destruct (asif_step (gfilter b flt) rst o s) as [a s1]; rewrite IH.
    destruct (asif_run (gfilter b flt) rst os1 s1) as [o1 s2].
    destruct (asif_run (gfilter b flt) rst os2 s2); auto.
Qed.

Lemma asif_run_values os1 o os2 s seen s' x lbl :
  let cs := constraints_after (plain os1) (cb_constraints (ext s)) in
  let en := switch_of (enable s) (plain os1) in
  evaluates en o = Some (x, lbl) ->
  quiet (switch_after en o) (plain os2) ->
  asif_run (gfilter b flt) rst (os1 ++ ABase o :: os2) s = (seen, s') ->
  dict_get (cb_info s') lbl = Ok (IValues (report cs x)) /\
  (forall l, l = k_stale \/ l = k_fresh -> l <> lbl -> dict_get (cb_info s') l = Err KeyError).
Proof.
  intros cs en Ev Q H. rewrite asif_run_app in H. simpl in H.
  destruct (asif_run (gfilter b flt) rst os1 s) as [q1 s1] eqn:E1.
  destruct (cb_step (gfilter b flt) rst o s1) as [q2 s2] eqn:E2.
  destruct (asif_run (gfilter b flt) rst os2 s2) as [q3 s3] eqn:E3.
  injection H as _ <-.
  destruct (asif_run_constraints _ _ _ _ E1) as [Cs En].
  fold cs in Cs; fold en in En. rewrite <- En in Ev.
  destruct (step_evaluates b flt rst HF _ _ _ _ _ _ Ev E2) as (V & T & L).
  assert (En2 : enable s2 = switch_after en o)
    by (rewrite (step_enable b flt rst HF HR _ _ _ _ E2), En; auto).
  rewrite <- En2 in Q.
  destruct (asif_run_quiet _ _ _ _ Q E3) as [V3 T3].
  apply info_values; congruence.
Qed.
End Runs.

(** ** Modules that answer alike *)

Definition dkeyed {X P Z} (y : asif X P Z) : Prop :=
  distinct_keys (as_direct y) /\
  map fst (as_dparams y) = map fst (as_direct y) /\
  map fst (as_denabled y) = map fst (as_direct y).

Lemma update_direct_keyed {X P Z} (y : asif X P Z) : dkeyed y ->
  as_dparams (update_direct y) = map (fun kd => (fst kd, d_params (snd kd))) (as_direct y) /\
  as_denabled (update_direct y) = map (fun kd => (fst kd, d_enabled (snd kd))) (as_direct y).
Proof.
  intros (N & Hp & He); simpl; split;
    [apply (fold_set_keyed (fun kd => d_params (snd kd)) _ [])
    |apply (fold_set_keyed (fun kd => d_enabled (snd kd)) _ [])]; simpl; auto.
Qed.
Lemma dkeyed_update {X P Z} (y : asif X P Z) : dkeyed y -> dkeyed (update_direct y).
Proof.
  intros K; destruct (update_direct_keyed y K) as [E1 E2]; unfold dkeyed; rewrite E1, E2.
  destruct K as (N & _ & _); simpl; rewrite !map_map; auto.
Qed.
Lemma dkeyed_on_direct {X P Z} k f (y : asif X P Z) : dkeyed y -> dkeyed (on_direct k f y).
Proof.
  unfold dkeyed, on_direct, distinct_keys; simpl.
  replace (map fst (map (fun kd => if String.eqb k (fst kd) then (fst kd, f (snd kd)) else kd) (as_direct y)))
    with (map fst (as_direct y)); auto.
  rewrite map_map; apply map_ext; intros [k' d]; simpl; destruct (String.eqb k k'); auto.
Qed.

Section Alike.
Context {X P Z : Type} (RZ : Z -> Z -> Prop).
Notation obj := (amod X P Z).

(** The same fixed data, direct inequalities and extension; names related by [N]. *)
Definition alike (N : list string -> list string -> Prop) (y y' : asif X P Z) : Prop :=
  as_num_slack y = as_num_slack y' /\ as_weight y = as_weight y' /\
  as_act_rows y = as_act_rows y' /\ as_act_consts y = as_act_consts y' /\
  as_direct y = as_direct y' /\ dkeyed y /\ dkeyed y' /\
  N (as_names y) (as_names y') /\ RZ (as_ext y) (as_ext y').

(** Alike, with equal caches. *)
Definition close N (V : Prop) (s s' : obj) : Prop :=
  gsim (alike N) V s s' /\
  cb_params (ext s) = cb_params (ext s') /\ cb_enabled (ext s) = cb_enabled (ext s') /\
  as_dparams (get_asif s) = as_dparams (get_asif s') /\ as_denabled (get_asif s) = as_denabled (get_asif s').

Definition out {A} N N' (V : Prop) (p p' : res A * obj) : Prop :=
  fst p = fst p' /\ close (match fst p with Ok _ => N' | Err _ => N end) V (snd p) (snd p').
Definition msim {A} N N' (m : M obj A) : Prop :=
  forall V s s', close N V s s' -> out N N' V (m s) (m s').

Lemma close_weaken (N N' : list string -> list string -> Prop) V s s' : (forall l l', N l l' -> N' l l') ->
  close N V s s' -> close N' V s s'.
Proof.
  intros H (G & E); split; [|exact E].
  destruct G as (H1 & H2 & H3 & H4 & H5 & H6 & H7 & (A1 & A2 & A3 & A4 & A5 & A6 & A7 & A8 & A9) & H9).
  unfold gsim, alike; repeat (split; [assumption|]); split; [|assumption].
  repeat (split; [assumption|]); auto.
Qed.

Lemma msim_bind {A B} (N N' : list string -> list string -> Prop) (m : M obj A) (f : A -> M obj B) :
  (forall l l', N' l l' -> N l l') -> msim N N' m -> (forall a, msim N' N' (f a)) -> msim N N' (bind m f).
Proof.
  intros W Hm Hf V s s' C; destruct (Hm V s s' C) as [E C'].
  unfold bind. destruct (m s) as [r t]; destruct (m s') as [r' t']; cbn [fst snd] in *; subst r'.
  destruct r as [a|e]; [|split; auto].
  destruct (Hf a V t t' C') as [E2 C2]. split; [exact E2|].
  destruct (fst (f a t)); auto. eapply close_weaken; eauto.
Qed.
Lemma msim_ret {A} N (a : A) : msim N N (ret a).
Proof. intros V s s' C; split; auto. Qed.
Lemma msim_raise {A} N e : msim (A:=A) N N (raise e).
Proof. intros V s s' C; split; auto. Qed.
Lemma msim_lift {A} N (r : res A) : msim N N (lift r).
Proof. intros V s s' C; split; auto. simpl. destruct r; auto. Qed.
Lemma msim_modify N N' f : (forall V s s', close N V s s' -> close N' V (f s) (f s')) -> msim N N' (modify f).
Proof. intros H V s s' C; split; simpl; auto. Qed.
Lemma msim_get {A} N N' (f : obj -> M obj A) :
  (forall V s s', close N V s s' -> out N N' V (f s s) (f s' s')) -> msim N N' (bind get f).
Proof. intros H V s s' C; unfold bind, get; apply H; auto. Qed.

Ltac open_close C :=
  destruct C as [(H1 & H2 & H3 & H4 & H5 & H6 & H7 & (A1 & A2 & A3 & A4 & A5 & A6 & A7 & A8 & A9) & H9) (B1 & B2 & B3 & B4)].
Ltac shut_close := unfold close, gsim, alike, get_asif in *; simpl in *;
  repeat match goal with |- _ /\ _ => split; [first [assumption|reflexivity|congruence|tauto]|] end;
  try (first [assumption|reflexivity|congruence|tauto]).

Lemma close_causes N l l' V s s' : close N V s s' ->
  close N V (on_asif (set_causes l) s) (on_asif (set_causes l') s').
Proof. intros C; open_close C. shut_close. Qed.
Lemma close_warn N V s s' : close N V s s' -> close N V (on_asif warn s) (on_asif warn s').
Proof. intros C; open_close C. shut_close. Qed.
Lemma close_intervening N b V s s' : close N V s s' -> close N V (set_intervening b s) (set_intervening b s').
Proof. intros C; open_close C. shut_close. Qed.

Lemma set_causes_same (s : obj) : on_asif (set_causes (as_causes (get_asif s))) s = s.
Proof. apply on_causes_id. Qed.

Lemma msim_record_causes iact : msim eq eq (record_causes (X:=X) (P:=P) (Z:=Z) iact).
Proof.
  induction iact as [|i iact IH]; simpl; [apply msim_ret|].
  apply msim_get; intros V s s' C.
  assert (En : as_names (get_asif s) = as_names (get_asif s')) by (open_close C; exact A8).
  rewrite <- En. destruct (name_of_row _ i) as [key|e]; [|split; auto].
  unfold lift.
  assert (D : forall (q : bool) l (t : obj), (if q then ret tt else modify (on_asif (set_causes (Some l)))) t =
     (Ok tt, on_asif (set_causes (if q then as_causes (get_asif t) else Some l)) t)).
  { intros [] l t; [rewrite set_causes_same|]; reflexivity. }
  unfold bind. rewrite !D. apply IH. apply close_causes; exact C.
Qed.

Lemma msim_optimize (cfg : asif_cfg X) u rows consts : msim eq eq (optimize (X:=X) (P:=P) (Z:=Z) cfg u rows consts).
Proof.
  unfold optimize; apply msim_get; intros V s s' C.
  assert (En : as_num_slack (get_asif s) = as_num_slack (get_asif s') /\ as_weight (get_asif s) = as_weight (get_asif s'))
    by (open_close C; split; assumption).
  destruct En as [<- <-].
  destruct (ac_solve _ _ _ _ _) as [[z iact]|e].
  - refine (msim_bind eq eq _ _ (fun _ _ H => H) _ _ V s s' C).
    + apply msim_modify; intros; apply close_causes; auto.
    + intros []; apply msim_bind; auto; [apply msim_record_causes|intros; apply msim_ret].
  - destruct e; try (apply msim_raise; exact C).
    destruct (String.eqb _ _); [|apply msim_raise; exact C].
    destruct (ac_exc cfg); [apply msim_raise; exact C|].
    refine (msim_bind eq eq _ _ (fun _ _ H => H) _ _ V s s' C).
    + apply msim_modify; intros; apply close_warn; auto.
    + intros []; apply msim_ret.
Qed.

Lemma msim_update_ineq (cfg : asif_cfg X) rc x : msim eq eq (update_ineq_mats (X:=X) (P:=P) (Z:=Z) cfg rc x).
Proof.
  unfold update_ineq_mats; apply msim_get; intros V s s' C.
  assert (E : direct_rows (ac_dim cfg) (as_num_slack (get_asif s)) (as_direct (get_asif s))
     (as_dparams (get_asif s)) (as_denabled (get_asif s)) x =
     direct_rows (ac_dim cfg) (as_num_slack (get_asif s')) (as_direct (get_asif s'))
     (as_dparams (get_asif s')) (as_denabled (get_asif s')) x).
  { open_close C. unfold get_asif in *. rewrite A1, A5, B3, B4; reflexivity. }
  cbv zeta. rewrite <- E.
  refine (msim_bind eq eq _ _ (fun _ _ H => H) (msim_lift eq _) _ V s s' C). intros; apply msim_ret.
Qed.

Lemma asif_flt_sim (N : list string -> list string -> Prop) (cfg : asif_cfg X) (bm : X -> R -> M obj (mat * vec)) :
  (forall l, N l l) -> (forall x dt, msim N eq (bm x dt)) -> flt_sim (alike N) (asif_filter cfg bm).
Proof.
  intros NR Hbm x dt u V s s' G Ep Ee.
  assert (C : close N V (on_asif update_direct s) (on_asif update_direct s')).
  { destruct G as (H1 & H2 & H3 & H4 & H5 & H6 & H7 & (A1 & A2 & A3 & A4 & A5 & A6 & A7 & A8 & A9) & H9).
    destruct (update_direct_keyed _ A6) as [U1 U2]; destruct (update_direct_keyed _ A7) as [U1' U2'].
    assert (Q1 : as_dparams (update_direct (cb_ext (ext s))) = as_dparams (update_direct (cb_ext (ext s'))))
      by (rewrite U1, U1', A5; auto).
    assert (Q2 : as_denabled (update_direct (cb_ext (ext s))) = as_denabled (update_direct (cb_ext (ext s'))))
      by (rewrite U2, U2', A5; auto).
    unfold close; split; [|split; [exact Ep|split; [exact Ee|split; [exact Q1|exact Q2]]]].
    unfold gsim. split; [exact H1|split; [exact H2|split; [exact H3|split; [exact H4|split; [exact H5|]]]]].
    split; [exact H6|split; [exact H7|split; [|exact H9]]].
    unfold alike. split; [exact A1|split; [exact A2|split; [exact A3|split; [exact A4|split; [exact A5|]]]]].
    split; [apply dkeyed_update; exact A6|split; [apply dkeyed_update; exact A7|split; [exact A8|exact A9]]]. }
  assert (M : msim N eq (bind (bm x dt) (fun rc => bind (update_ineq_mats cfg rc x) (fun rc =>
     bind (optimize cfg u (fst rc) (snd rc)) (fun v => bind (lift (opt_monitor (ac_eps cfg) u v)) (fun b =>
     bind (modify (set_intervening b)) (fun _ => ret v))))))).
  { apply msim_bind; [intros l l' ->; apply NR|apply Hbm|intros rc].
    apply msim_bind; [auto|apply msim_update_ineq|intros rc'].
    apply msim_bind; [auto|apply msim_optimize|intros v].
    apply msim_bind; [auto|apply msim_lift|intros b].
    apply msim_bind; [auto|apply msim_modify; intros; apply close_intervening; auto|intros; apply msim_ret]. }
  destruct (M V _ _ C) as [E C'].
  change (asif_filter cfg bm x dt u s) with
    (bind (bm x dt) (fun rc => bind (update_ineq_mats cfg rc x) (fun rc =>
     bind (optimize cfg u (fst rc) (snd rc)) (fun v => bind (lift (opt_monitor (ac_eps cfg) u v)) (fun b =>
     bind (modify (set_intervening b)) (fun _ => ret v))))) (on_asif update_direct s)).
  change (asif_filter cfg bm x dt u s') with
    (bind (bm x dt) (fun rc => bind (update_ineq_mats cfg rc x) (fun rc =>
     bind (optimize cfg u (fst rc) (snd rc)) (fun v => bind (lift (opt_monitor (ac_eps cfg) u v)) (fun b =>
     bind (modify (set_intervening b)) (fun _ => ret v))))) (on_asif update_direct s')).
  split; [exact E|].
  assert (C2 : close N V (snd (bind (bm x dt) (fun rc => bind (update_ineq_mats cfg rc x) (fun rc =>
     bind (optimize cfg u (fst rc) (snd rc)) (fun v => bind (lift (opt_monitor (ac_eps cfg) u v)) (fun b =>
     bind (modify (set_intervening b)) (fun _ => ret v))))) (on_asif update_direct s)))
     (snd (bind (bm x dt) (fun rc => bind (update_ineq_mats cfg rc x) (fun rc =>
     bind (optimize cfg u (fst rc) (snd rc)) (fun v => bind (lift (opt_monitor (ac_eps cfg) u v)) (fun b =>
     bind (modify (set_intervening b)) (fun _ => ret v))))) (on_asif update_direct s')))).
  { destruct (fst _) in C'; [|exact C']. eapply close_weaken; [|exact C']. intros l l' ->; apply NR. }
  exact (proj1 C2).
Qed.

(** Histories. *)
Context (b : bounds) (flt : X -> R -> vec -> M obj vec) (rst : M obj unit).
Context (N : list string -> list string -> Prop).
Hypothesis HF : flt_sim (alike N) flt.
Hypothesis HR : rst_sim (alike N) rst.
Hypothesis HFr : framed flt.
Hypothesis HRr : reset_framed rst.

Lemma gsim_on_direct V k f s s' : gsim (alike N) V s s' ->
  gsim (alike N) V (on_asif (on_direct k f) s) (on_asif (on_direct k f) s').
Proof.
  intros (H1 & H2 & H3 & H4 & H5 & H6 & H7 & (A1 & A2 & A3 & A4 & A5 & A6 & A7 & A8 & A9) & H9).
  unfold gsim. split; [exact H1|split; [exact H2|split; [exact H3|split; [exact H4|split; [exact H5|]]]]].
  split; [exact H6|split; [exact H7|split; [|exact H9]]].
  unfold alike. split; [exact A1|split; [exact A2|split; [exact A3|split; [exact A4|split; [simpl; rewrite A5; reflexivity|]]]]].
  split; [apply dkeyed_on_direct; exact A6|split; [apply dkeyed_on_direct; exact A7|split; [exact A8|exact A9]]].
Qed.

Lemma asif_gsim_run os : forall V s s', gsim (alike N) V s s' ->
  fst (asif_run (gfilter b flt) rst os s) = fst (asif_run (gfilter b flt) rst os s') /\
  gsim (alike N) (V \/ ~ quiet (enable s) (plain os))
       (snd (asif_run (gfilter b flt) rst os s)) (snd (asif_run (gfilter b flt) rst os s')).
Proof.
  induction os as [|o os IH]; intros V s s' G.
  - simpl; split; auto. eapply gsim_weaken; [|exact G]; tauto.
  - assert (D : forall t t', gsim (alike N) V t t' -> enable t = enable s -> 
       fst (let (bs, s'') := asif_run (gfilter b flt) rst os t in (ObsDone :: bs, s'')) =
       fst (let (bs, s'') := asif_run (gfilter b flt) rst os t' in (ObsDone :: bs, s'')) /\
       gsim (alike N) (V \/ ~ quiet (enable s) (plain os))
         (snd (let (bs, s'') := asif_run (gfilter b flt) rst os t in (ObsDone :: bs, s'')))
         (snd (let (bs, s'') := asif_run (gfilter b flt) rst os t' in (ObsDone :: bs, s'')))).
    { intros t t' Gt En; destruct (IH V t t' Gt) as [F3 F4]. rewrite En in F4.
      destruct (asif_run (gfilter b flt) rst os t) as [bs s2].
      destruct (asif_run (gfilter b flt) rst os t') as [bs' s2']. simpl in *; subst; auto. }
    destruct o as [o|k p|k e]; simpl.
    + destruct (gsim_step (alike N) b flt rst HF HR V o s s' G) as [F1 F2].
      destruct (cb_step (gfilter b flt) rst o s) as [b1 s1] eqn:E1.
      destruct (cb_step (gfilter b flt) rst o s') as [b1' s1'] eqn:E1'.
      cbn [fst snd] in F1, F2; subst b1'.
      destruct (IH _ _ _ F2) as [F3 F4].
      destruct (asif_run (gfilter b flt) rst os s1) as [bs s2].
      destruct (asif_run (gfilter b flt) rst os s1') as [bs' s2'].
      cbn [fst snd] in *; subst; split; auto.
      eapply gsim_weaken; [|exact F4].
      rewrite (step_enable b flt rst HFr HRr _ _ _ _ E1).
      intros [v|n]; [auto|].
      destruct (evaluates (enable s) o) eqn:Ev; [left; right; discriminate|].
      right; tauto.
    + apply D; [apply gsim_on_direct; exact G|reflexivity].
    + apply D; [apply gsim_on_direct; exact G|reflexivity].
Qed.
End Alike.
