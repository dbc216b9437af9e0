(** Lemmas about the compiled implicit ASIF module. *)
From Coq Require Import String Reals List Bool ZArith Lia Lra.
From Verif Require Import Prelude Vec ModelBase ModelController ModelSimplex ModelAsif ModelJit SpecCore SpecSimplex SpecJit
  ProofsBase ProofsSimplex ProofsJit.
Import ListNotations.
Local Open Scope R_scope.

(** A controller without internal state stays so. *)
Definition stateless {X} (gen : X -> R -> cstate -> gout) : Prop :=
  forall x dt u c, gen x dt CSNone = GPair u c -> c = CSNone.

Lemma loop_stateless {X} b (ic : imp_cfg X) size dt : stateless (ic_gen ic) ->
  forall n x sens, snd (implicit_loop b ic size dt n x sens empty_ctl) = empty_ctl.
Proof.
  intros G. induction n as [|n IH]; intros x sens; [reflexivity|]. cbn [implicit_loop].
  unfold backup_control, generate_control, bind, get, modify, ret, lift. cbn [ctl_state empty_ctl].
  destruct (ic_gen ic x dt CSNone) as [u c| |e] eqn:E; try reflexivity.
  rewrite (G _ _ _ _ E). destruct (clip b u) as [v|e]; [|reflexivity].
  destruct (ic_pred ic x dt v) as [x'|e]; [|reflexivity].
  change (set_ctl_state CSNone empty_ctl) with empty_ctl. change (ctl_state empty_ctl) with CSNone.
  specialize (IH x' (madd sens (mscale dt (mm size (ic_jac ic x' dt CSNone) sens)))).
  destruct (implicit_loop b ic size dt n x' _ empty_ctl) as [[r|e] c']; cbn in *; exact IH.
Qed.
Lemma integrate_stateless {X} b (ic : imp_cfg X) x dt n : stateless (ic_gen ic) ->
  implicit_integrate b ic x dt n empty_ctl = (jit_integrate b ic x dt n, empty_ctl).
Proof.
  intros G. unfold jit_integrate.
  assert (E : snd (implicit_integrate b ic x dt n empty_ctl) = empty_ctl).
  { unfold implicit_integrate, ctl_save, ctl_restore, bind, get, modify, ret, lift. cbn [ctl_state empty_ctl copy_controller_state].
    assert (L := loop_stateless b ic (ic_size ic x) dt G (n - 1) x (eye (ic_size ic x))).
    change (set_ctl_saved CSNone empty_ctl) with empty_ctl.
    destruct (implicit_loop b ic (ic_size ic x) dt (n - 1) x (eye (ic_size ic x)) empty_ctl) as [[r|e] c]; cbn in *; subst c; reflexivity. }
  destruct (implicit_integrate b ic x dt n empty_ctl) as [r c]. cbn [fst snd] in *. subst c. reflexivity.
Qed.

Section ImplicitAsif.
Context {X P : Type}.
Variables (g : sigs X P) (cfg : asif_cfg X) (ic : imp_cfg X).
Hypothesis G : stateless (ic_gen ic).
Notation sm := (sim (@with_controller X P) (@current X P)).
Ltac frame := intros t It; refine (current_of t _ _ _ _ It); destruct t as [? ? ? ? [? ? ? ? ? []]]; reflexivity.
Ltac same := let t := fresh in intros t; destruct t as [? ? ? ? [? ? ? ? ? []]]; reflexivity.

Lemma alike_blocks ns (a b : dict (constraint X P)) ps es x traj : alike a b -> forall n,
  implicit_blocks cfg ns n a ps es x traj = implicit_blocks cfg ns n b ps es x traj.
Proof.
  intros H. induction H as [|[k c] [k' d] a b (K & p & e & E) H IH]; intros n; [reflexivity|].
  cbn [fst snd] in *. subst k' d. cbn [implicit_blocks]. unfold rbind. destruct (dict_get ps k); [|reflexivity].
  destruct (dict_get es k); [|reflexivity]. cbn [c_slack].
  match goal with |- match ?l with Ok _ => _ | Err _ => _ end = match ?r with Ok _ => _ | Err _ => _ end =>
    change r with l; destruct l; [|reflexivity] end.
  rewrite IH. reflexivity.
Qed.
Lemma alike_subsample ns (a b : dict (constraint X P)) num_steps rows consts vals : alike a b -> forall i,
  subsample_loop ns a i num_steps rows consts vals = subsample_loop ns b i num_steps rows consts vals.
Proof.
  intros H. induction H as [|[k c] [k' d] a b (K & p & e & E) H IH]; intros i; [reflexivity|].
  cbn [fst snd] in *. subst k' d. cbn [subsample_loop]. unfold rbind.
  match goal with |- match ?l with Ok _ => _ | Err _ => _ end = match ?r with Ok _ => _ | Err _ => _ end =>
    change r with l; destruct l; [|reflexivity] end.
  destruct (Nat.eqb ns 0); [|reflexivity]. rewrite IH. reflexivity.
Qed.
Lemma alike_body ns n x traj ps es (a b : dict (constraint X P)) : alike a b ->
  ineq_body cfg ns n x traj ps es a = ineq_body cfg ns n x traj ps es b.
Proof.
  intros H. unfold ineq_body. rewrite (alike_blocks ns a b ps es x traj H). unfold rbind.
  destruct (implicit_blocks _ _ _ _ _ _ _ _); [|reflexivity]. apply alike_subsample. exact H.
Qed.

Lemma sim_ineq_mats x n traj : sm (implicit_ineq_mats cfg x n traj) (jit_ineq_mats g cfg x n traj).
Proof.
  unfold implicit_ineq_mats, jit_ineq_mats. apply sim_get. intros j [A B].
  set (now := cb_constraints (ext j)).
  set (body := ineq_body cfg (as_num_slack (get_asif j)) n x traj (cb_params (ext j)) (cb_enabled (ext j))).
  set (k := (INR n, sig_barrier g x (cb_params (ext j)))).
  assert (E : fst (jit_call key_dec k now body (j_barrier (as_ext (get_asif j)))) = body now).
  { apply jit_call_plain. intros k' cs I. apply alike_body. apply (A k' cs I). }
  assert (T : forall k' cs, In (k', cs) (snd (jit_call key_dec k now body (j_barrier (as_ext (get_asif j))))) -> alike cs now).
  { intros k' cs I. destruct (jit_call_traces _ _ _ _ _ _ _ I) as [I'| ->]; [apply (A k' cs I')|apply alike_refl]. }
  destruct (jit_call key_dec k now body (j_barrier (as_ext (get_asif j)))) as [r t]. cbn [fst snd] in *. subst r.
  set (m := bind (lift (body now)) (fun rc => @ret (amod X P ctl) _ (as_act_rows (get_asif j) ++ fst rc, as_act_consts (get_asif j) ++ snd rc))).
  match goal with |- _ = fst (?m' _) /\ _ => assert (Em : forall s, m' s = m s) end.
  { intros s. unfold m, body, ineq_body, rbind, bind, lift, ret, now. cbn [with_controller get_asif ext cb_ext cb_constraints cb_params cb_enabled as_num_slack].
    change (cb_ext (ext j)) with (get_asif j).
    match goal with |- context [match ?l with Ok a => (Ok a, s) | Err e => (Err e, s) end] => idtac | _ => idtac end.
    destruct (implicit_blocks _ _ _ _ _ _ _ _) as [blocks|]; [|reflexivity].
    destruct (subsample_loop _ _ _ _ _ _ _); reflexivity. }
  rewrite Em. unfold m.
  unfold bind, lift, modify, ret. destruct (body now) as [rc|e]; cbn [fst snd];
    (split; [reflexivity|split; [destruct j as [? ? ? ? [? ? ? ? ? []]]; reflexivity|]]);
    split; (exact T || exact B).
Qed.
Lemma sim_integrate x dt n : sm (on_actl (implicit_integrate (ac_bounds cfg) ic x dt n)) (lift (jit_integrate (ac_bounds cfg) ic x dt n)).
Proof.
  intros j I. unfold on_actl, zoom. change (as_ext (get_asif (with_controller j))) with empty_ctl.
  rewrite integrate_stateless by exact G. cbn. split; [reflexivity|split; [|exact I]].
  destruct j as [? ? ? ? [? ? ? ? ? []]]; reflexivity.
Qed.
Lemma sim_implicit_mats x dt : sm (implicit_mats cfg ic x dt) (jit_implicit_mats g cfg ic x dt).
Proof.
  unfold implicit_mats, jit_implicit_mats. apply sim_bind; [apply sim_lift|]. intros q.
  apply sim_bind; [apply sim_integrate|]. intros traj.
  apply sim_bind; [apply sim_ineq_mats|]. intros rc.
  apply sim_bind; [apply sim_modify; [same|frame]|]. intros _. apply sim_ret.
Qed.
Lemma sim_update_implicit rc x : sm (update_ineq_mats cfg rc x) (jit_update_ineq_mats g cfg rc x).
Proof.
  unfold update_ineq_mats, jit_update_ineq_mats. apply sim_get. intros j [A B].
  set (now := as_direct (get_asif j)).
  set (body := fun ds => direct_rows (ac_dim cfg) (as_num_slack (get_asif j)) ds (as_dparams (get_asif j)) (as_denabled (get_asif j)) x).
  set (k := sig_direct g (length (fst rc)) x (as_dparams (get_asif j))).
  assert (E : fst (jit_call PeanoNat.Nat.eq_dec k now body (j_direct (as_ext (get_asif j)))) = body now).
  { apply jit_call_plain. intros k' cs I. apply alike_direct_rows. apply (B k' cs I). }
  assert (T : forall k' cs, In (k', cs) (snd (jit_call PeanoNat.Nat.eq_dec k now body (j_direct (as_ext (get_asif j))))) -> alike_direct cs now).
  { intros k' cs I. destruct (jit_call_traces _ _ _ _ _ _ _ I) as [I'| ->]; [apply (B k' cs I')|apply alike_direct_refl]. }
  destruct (jit_call PeanoNat.Nat.eq_dec k now body (j_direct (as_ext (get_asif j)))) as [r t]. cbn [fst snd] in *. subst r.
  change (direct_rows (ac_dim cfg) (as_num_slack (get_asif (with_controller j))) (as_direct (get_asif (with_controller j)))
    (as_dparams (get_asif (with_controller j))) (as_denabled (get_asif (with_controller j))) x) with (body now).
  unfold bind, lift, modify, ret. destruct (body now) as [d|e]; cbn [fst snd];
    (split; [reflexivity|split; [destruct j as [? ? ? ? [? ? ? ? ? []]]; reflexivity|]]);
    split; (exact T || exact A).
Qed.
Lemma sim_implicit_filter x dt u : sm (asif_filter cfg (implicit_mats cfg ic) x dt u) (jit_implicit_filter g cfg ic x dt u).
Proof.
  unfold asif_filter, jit_implicit_filter.
  apply sim_bind; [apply sim_modify; [same|frame]|]. intros _.
  apply sim_bind; [apply sim_implicit_mats|]. intros rc.
  apply sim_bind; [apply sim_update_implicit|]. intros rc'.
  apply sim_bind; [apply sim_optimize; (same || frame || (intros l; same) || (intros l; frame))|]. intros v.
  apply sim_bind; [apply sim_lift|]. intros b.
  apply sim_bind; [apply sim_modify; [same|frame]|]. intros _. apply sim_ret.
Qed.
Lemma sim_implicit_filter_control i dt u :
  sm (implicit_asif_filter_control cfg ic i dt u) (jit_implicit_filter_control g cfg ic i dt u).
Proof.
  unfold implicit_asif_filter_control, jit_implicit_filter_control, filter_control.
  apply sim_bind; [apply sim_modify; [same|frame]|]. intros _.
  apply sim_read. intros j I. change (enable (with_controller j)) with (enable j). destruct (enable j).
  - apply sim_bind.
    + unfold cb_compute. apply sim_bind; [apply sim_modify; [same|frame]|]. intros _.
      apply sim_bind; [destruct i; [apply sim_ret|apply sim_raise]|]. intros x.
      apply sim_bind; [apply sim_modify; [same|frame]|]. intros _.
      apply sim_bind; [apply sim_implicit_filter|]. intros v.
      apply sim_bind; [apply sim_modify; [same|frame]|]. intros _. apply sim_ret.
    + intros v. apply sim_bind; [apply sim_lift|]. intros w.
      apply sim_bind; [apply sim_modify; [same|frame]|]. intros _. apply sim_ret.
  - apply sim_bind; [apply sim_modify; [same|frame]|]. intros _. apply sim_ret.
Qed.
Lemma sim_implicit_reset : sm implicit_asif_reset jit_asif_reset.
Proof.
  intros j I. split; [reflexivity|split; [destruct j as [? ? ? ? [? ? ? ? ? []]]; reflexivity|]].
  refine (current_of j _ _ _ _ I); reflexivity.
Qed.

Lemma sim_implicit_step (o : aop X P) j : current j ->
  let s := asif_step (implicit_asif_filter_control cfg ic) implicit_asif_reset o (with_controller j) in
  let s' := asif_step (jit_implicit_filter_control g cfg ic) jit_asif_reset o j in
  fst s' = fst s /\ with_controller (snd s') = snd s /\ current (snd s').
Proof.
  intros I. destruct o as [[i dt u| |b|i|k p|k b]|k p|k b]; cbn [asif_step cb_step].
  - destruct (sim_implicit_filter_control i dt u j I) as (A & B & C).
    destruct (implicit_asif_filter_control cfg ic i dt u (with_controller j)), (jit_implicit_filter_control g cfg ic i dt u j).
    cbn [fst snd] in *. subst. auto.
  - destruct (sim_implicit_reset j I) as (A & B & C).
    destruct (implicit_asif_reset (with_controller j)), (jit_asif_reset j).
    cbn [fst snd] in *. subst. auto.
  - cbn. split; [reflexivity|split; [destruct j as [? ? ? ? [? ? ? ? ? []]]; reflexivity|]].
    refine (current_of j _ _ _ _ I); reflexivity.
  - destruct i; cbn; (split; [reflexivity|split; [destruct j as [? ? ? ? [? ? ? ? ? []]]; reflexivity|]]);
    refine (current_of j _ _ _ _ I); reflexivity.
  - cbn [fst snd]. split; [reflexivity|split; [destruct j as [? ? ? ? [? ? ? ? ? []]]; reflexivity|]].
    destruct I as [A B]. split; [|exact B]. intros k' cs I. apply alike_map; [|exact (A k' cs I)].
    intros [k'' c]. cbn. destruct (String.eqb k k''); cbn; (split; [reflexivity|]).
    + exists p, (c_enabled c). destruct c; reflexivity.
    + exists (c_params c), (c_enabled c). destruct c; reflexivity.
  - cbn [fst snd]. split; [reflexivity|split; [destruct j as [? ? ? ? [? ? ? ? ? []]]; reflexivity|]].
    destruct I as [A B]. split; [|exact B]. intros k' cs I. apply alike_map; [|exact (A k' cs I)].
    intros [k'' c]. cbn. destruct (String.eqb k k''); cbn; (split; [reflexivity|]).
    + exists (c_params c), b. destruct c; reflexivity.
    + exists (c_params c), (c_enabled c). destruct c; reflexivity.
  - cbn [fst snd]. split; [reflexivity|split; [destruct j as [? ? ? ? [? ? ? ? ? []]]; reflexivity|]].
    destruct I as [A B]. split; [exact A|]. intros k' cs I. apply alike_direct_map; [|exact (B k' cs I)].
    intros [k'' c]. cbn. destruct (String.eqb k k''); cbn; (split; [reflexivity|]).
    + exists p, (d_enabled c). destruct c; reflexivity.
    + exists (d_params c), (d_enabled c). destruct c; reflexivity.
  - cbn [fst snd]. split; [reflexivity|split; [destruct j as [? ? ? ? [? ? ? ? ? []]]; reflexivity|]].
    destruct I as [A B]. split; [exact A|]. intros k' cs I. apply alike_direct_map; [|exact (B k' cs I)].
    intros [k'' c]. cbn. destruct (String.eqb k k''); cbn; (split; [reflexivity|]).
    + exists (d_params c), b. destruct c; reflexivity.
    + exists (d_params c), (d_enabled c). destruct c; reflexivity.
Qed.
Lemma sim_implicit_run os : forall j, current j ->
  let s := asif_run (implicit_asif_filter_control cfg ic) implicit_asif_reset os (with_controller j) in
  let s' := asif_run (jit_implicit_filter_control g cfg ic) jit_asif_reset os j in
  fst s' = fst s /\ with_controller (snd s') = snd s /\ current (snd s').
Proof.
  induction os as [|o os IH]; intros j I; [cbn; auto|]. cbn [asif_run].
  destruct (sim_implicit_step o j I) as (A & B & C).
  destruct (asif_step (implicit_asif_filter_control cfg ic) implicit_asif_reset o (with_controller j)) as [b s1].
  destruct (asif_step (jit_implicit_filter_control g cfg ic) jit_asif_reset o j) as [b' j1]. cbn [fst snd] in *. subst b' s1.
  destruct (IH j1 C) as (A' & B' & C').
  destruct (asif_run (implicit_asif_filter_control cfg ic) implicit_asif_reset os (with_controller j1)) as [bs s2].
  destruct (asif_run (jit_implicit_filter_control g cfg ic) jit_asif_reset os j1) as [bs' j2]. cbn [fst snd] in *. subst bs' s2. auto.
Qed.
Lemma init_implicit_jit (defined : dict (constraint X P)) to_use directs :
  implicit_asif_init cfg defined to_use directs CSNone
  = match asif_init (Z := jits X P) cfg defined to_use directs no_traces with Ok j => Ok (with_controller j) | Err e => Err e end.
Proof.
  unfold implicit_asif_init, ctl_init, asif_init, rbind. cbn [copy_controller_state].
  destruct (select_constraints defined to_use) as [cs|e] eqn:E; [|reflexivity].
  destruct (actuation_mats _ _ _) as [[[rows consts] names]|e]; [|reflexivity].
  unfold cb_init, rbind. rewrite E. reflexivity.
Qed.
End ImplicitAsif.

(** ** Compiled backup controllers of implicit ASIF modules *)
Lemma loop_compiled {X} b (ic : imp_cfg X) size dt : stateless (ic_gen ic) ->
  forall n x sens, implicit_loop b (jit_backup ic) size dt n x sens empty_ctl = implicit_loop b ic size dt n x sens empty_ctl.
Proof.
  intros G. induction n as [|n IH]; intros x sens; [reflexivity|]. cbn [implicit_loop].
  unfold backup_control, generate_control, bind, get, modify, ret, lift. cbn [ctl_state empty_ctl jit_backup ic_gen ic_pred ic_jac jit_gen].
  destruct (ic_gen ic x dt CSNone) as [u c| |e] eqn:E; try reflexivity.
  rewrite (G _ _ _ _ E). destruct (clip b u) as [v|e]; [|reflexivity].
  destruct (ic_pred ic x dt v) as [x'|e]; [|reflexivity].
  change (set_ctl_state CSNone empty_ctl) with empty_ctl. rewrite IH. reflexivity.
Qed.
Lemma integrate_compiled {X} b (ic : imp_cfg X) x dt n : stateless (ic_gen ic) ->
  implicit_integrate b (jit_backup ic) x dt n empty_ctl = implicit_integrate b ic x dt n empty_ctl.
Proof.
  intros G. unfold implicit_integrate, ctl_save, bind, get, modify, ret, lift. cbn [ctl_state empty_ctl copy_controller_state].
  change (set_ctl_saved CSNone empty_ctl) with empty_ctl. cbn [ic_size jit_backup]. rewrite (loop_compiled b ic _ _ G). reflexivity.
Qed.

Section Backup.
Context {X P : Type}.
Variables (cfg : asif_cfg X) (ic : imp_cfg X).
Hypothesis G : stateless (ic_gen ic).
Definition nothing_kept (s : amod X P ctl) : Prop := as_ext (get_asif s) = empty_ctl.
Notation sm := (sim (fun s : amod X P ctl => s) nothing_kept).
Ltac kept := let t := fresh in intros t; destruct t as [? ? ? ? [? ? ? ? ? []]]; auto.

Lemma sim_backup_integrate x dt n : sm (on_actl (implicit_integrate (ac_bounds cfg) ic x dt n))
  (on_actl (implicit_integrate (ac_bounds cfg) (jit_backup ic) x dt n)).
Proof.
  intros s I. unfold on_actl, zoom. red in I. rewrite I.
  rewrite integrate_compiled by exact G. rewrite integrate_stateless by exact G. cbn. split; [reflexivity|split; [reflexivity|]].
  destruct s as [? ? ? ? [? ? ? ? ? []]]; reflexivity.
Qed.
Lemma sim_same {A} (m : M (amod X P ctl) A) : (forall s, as_ext (get_asif (snd (m s))) = as_ext (get_asif s)) -> sm m m.
Proof. intros H s I. split; [reflexivity|split; [reflexivity|]]. red. rewrite H. exact I. Qed.
Lemma sim_backup_control i dt u :
  sm (implicit_asif_filter_control cfg ic i dt u) (implicit_asif_filter_control cfg (jit_backup ic) i dt u).
Proof.
  unfold implicit_asif_filter_control, filter_control.
  apply sim_bind; [apply sim_modify; kept|]. intros _.
  apply sim_read. intros j I. destruct (enable j).
  - apply sim_bind.
    + unfold cb_compute. apply sim_bind; [apply sim_modify; kept|]. intros _.
      apply sim_bind; [destruct i; [apply sim_ret|apply sim_raise]|]. intros x.
      apply sim_bind; [apply sim_modify; kept|]. intros _.
      apply sim_bind; [|intros v; apply sim_bind; [apply sim_modify; kept|]; intros _; apply sim_ret].
      unfold asif_filter. apply sim_bind; [apply sim_modify; kept|]. intros _.
      apply sim_bind.
      * unfold implicit_mats. apply sim_bind; [apply sim_lift|]. intros q.
        apply sim_bind; [apply sim_backup_integrate|]. intros traj.
        apply sim_bind; [|intros rc; apply sim_bind; [apply sim_modify; kept|]; intros _; apply sim_ret].
        apply sim_same. intros s. unfold implicit_ineq_mats, bind, get, lift, ret.
        destruct (implicit_blocks _ _ _ _ _ _ _ _); [|reflexivity]. destruct (subsample_loop _ _ _ _ _ _ _); reflexivity.
      * intros rc. apply sim_bind.
        { apply sim_same. intros s. unfold update_ineq_mats, bind, get, lift, ret. destruct (direct_rows _ _ _ _ _ _); reflexivity. }
        intros rc'. apply sim_bind; [apply sim_optimize; auto; try (intros l; kept); kept|]. intros v.
        apply sim_bind; [apply sim_lift|]. intros b. apply sim_bind; [apply sim_modify; kept|]. intros _. apply sim_ret.
    + intros v. apply sim_bind; [apply sim_lift|]. intros w. apply sim_bind; [apply sim_modify; kept|]. intros _. apply sim_ret.
  - apply sim_bind; [apply sim_modify; kept|]. intros _. apply sim_ret.
Qed.
Lemma sim_backup_step (o : aop X P) s : nothing_kept s ->
  asif_step (implicit_asif_filter_control cfg (jit_backup ic)) implicit_asif_reset o s
  = asif_step (implicit_asif_filter_control cfg ic) implicit_asif_reset o s /\
  nothing_kept (snd (asif_step (implicit_asif_filter_control cfg ic) implicit_asif_reset o s)).
Proof.
  intros I. destruct o as [[i dt u| |b|i|k p|k b]|k p|k b]; cbn [asif_step cb_step]; try (split; [reflexivity|exact I]).
  - destruct (sim_backup_control i dt u s I) as (A & B & C).
    destruct (implicit_asif_filter_control cfg ic i dt u s), (implicit_asif_filter_control cfg (jit_backup ic) i dt u s).
    cbn [fst snd] in *. subst. auto.
  - split; [reflexivity|]. destruct s as [? ? ? ? [? ? ? ? ? [? ? ? ? ? ? ? ? ? ? c]]]. red in I. cbn in I. subst c. reflexivity.
  - split; [reflexivity|]. destruct i; exact I.
Qed.
Lemma sim_backup_run os : forall s, nothing_kept s ->
  asif_run (implicit_asif_filter_control cfg (jit_backup ic)) implicit_asif_reset os s
  = asif_run (implicit_asif_filter_control cfg ic) implicit_asif_reset os s.
Proof.
  induction os as [|o os IH]; intros s I; [reflexivity|]. cbn [asif_run]. destruct (sim_backup_step o s I) as (-> & C).
  destruct (asif_step (implicit_asif_filter_control cfg ic) implicit_asif_reset o s) as [b s1]. cbn [snd] in C. rewrite (IH s1 C). reflexivity.
Qed.
End Backup.

(** With internal state the compiled controller raises in the lookahead. *)
Lemma integrate_raises {X} b (ic : imp_cfg X) x dt n c traj c' : ctl_state c <> CSNone ->
  implicit_integrate b ic x dt (S (S n)) c = (Ok traj, c') ->
  fst (implicit_integrate b (jit_backup ic) x dt (S (S n)) c) = Err (ValueError msg_static).
Proof.
  intros N. unfold implicit_integrate, ctl_save, bind, get, modify, ret, lift.
  destruct (copy_controller_state (ctl_state c)) as [c0|e] eqn:E; [|discriminate]. intros _.
  cbn [Nat.sub implicit_loop]. unfold backup_control, generate_control, bind, get, modify, ret, lift. cbn [ic_gen jit_backup].
  replace (ctl_state (set_ctl_saved c0 c)) with (ctl_state c) by (destruct c; reflexivity).
  destruct (ctl_state c); [congruence|reflexivity..].
Qed.

(** An enabled call computes the inequality matrices first. *)
Lemma call_mats {X P Z} (cfg : asif_cfg X) (mats : X -> R -> M (amod X P Z) (mat * vec)) s x dt u : enable s = true ->
  let t := on_asif update_direct (on_ext (update_constraint_values_at x true) (on_ext update_params (set_desired (Some u) s))) in
  let call := filter_control (ac_bounds cfg) (cb_compute base_get_state (asif_filter cfg mats)) (InArray x) dt u s in
  (forall e s1, mats x dt t = (Err e, s1) -> fst call = Err e) /\
  (forall v s', call = (Ok v, s') -> exists rc s1, mats x dt t = (Ok rc, s1)).
Proof.
  intros E t call.
  assert (K : call = bind (bind (asif_filter cfg mats x dt u) (fun v => bind (modify (set_actual (Some v))) (fun _ => ret v)))
    (fun v => bind (lift (clip (ac_bounds cfg) v)) (fun w => bind (modify (set_actual (Some w))) (fun _ => ret w)))
    (on_ext (update_constraint_values_at x true) (on_ext update_params (set_desired (Some u) s)))).
  { unfold call, filter_control. unfold bind at 1, modify at 1. unfold bind at 1, get at 1.
    change (enable (set_desired (Some u) s)) with (enable s). rewrite E. reflexivity. }
  unfold asif_filter in K. unfold bind at 1 2 3, modify at 1 in K. unfold bind at 1 in K. fold t in K.
  rewrite K. destruct (mats x dt t) as [[rc|e0] s0].
  - split; [discriminate|eauto].
  - split; [|discriminate]. intros e s1 H. injection H as -> _. reflexivity.
Qed.

Lemma mats_eq {X P} (cfg : asif_cfg X) (ic : imp_cfg X) x dt (t : amod X P ctl) :
  (forall q, py_div (ic_window ic) dt = Ok q -> forall rc s1, implicit_mats cfg ic x dt t = (Ok rc, s1) ->
     exists traj c, implicit_integrate (ac_bounds cfg) ic x dt (Z.to_nat (py_int q + 1)) (as_ext (get_asif t)) = (Ok traj, c)) /\
  (forall q e, py_div (ic_window ic) dt = Ok q ->
     fst (implicit_integrate (ac_bounds cfg) ic x dt (Z.to_nat (py_int q + 1)) (as_ext (get_asif t))) = Err e ->
     fst (implicit_mats cfg ic x dt t) = Err e).
Proof.
  split.
  - intros q Q rc s1. unfold implicit_mats. rewrite Q. unfold bind, lift, on_actl, zoom.
    destruct (implicit_integrate _ _ _ _ _ _) as [[traj|e] c]; [eauto|discriminate].
  - intros q e Q. unfold implicit_mats. rewrite Q. unfold bind, lift, on_actl, zoom.
    destruct (implicit_integrate _ _ _ _ _ _) as [[traj|e'] c]; cbn [fst]; [discriminate|]. intros H; injection H as ->; reflexivity.
Qed.
