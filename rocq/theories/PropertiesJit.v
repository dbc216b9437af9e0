(** Properties of compiled modules: C70 and C71. *)
From Coq Require Import String Reals List Bool ZArith Lia Lra.
From Verif Require Import Prelude Vec ModelBase ModelController ModelSimplex ModelAsif ModelJit
  SpecCore SpecHistory SpecSimplex SpecAsif SpecJit ProofsBase ProofsSimplex ProofsJit ExampleTools ExampleQP PropertiesAsif.
Import ListNotations.
Local Open Scope R_scope.

(** ** C70: compiling a module does not change what it does. *)

(** Full property: for every history, including assignments of attributes of constraints.
    Explicit ASIF: for histories of the documented operations (calls, resets, the enable flag,
    parameters and enabled flags of constraints and direct inequalities), whatever the caller
    passes and whichever arguments share a compiled version. *)
Theorem C70_compiled_asif_same_partial :
  forall (X P : Type) (g : sigs X P) (cfg : asif_cfg X) (defined : dict (constraint X P)) to_use
    (directs : dict (direct X P)) s0 os,
  asif_init cfg defined to_use directs tt = Ok s0 ->
  exists j0, asif_init cfg defined to_use directs no_traces = Ok j0 /\
    fst (asif_run (jit_asif_filter_control g cfg) jit_asif_reset os j0)
    = fst (asif_run (explicit_asif_filter_control cfg) explicit_asif_reset os s0) /\
    forget (snd (asif_run (jit_asif_filter_control g cfg) jit_asif_reset os j0))
    = snd (asif_run (explicit_asif_filter_control cfg) explicit_asif_reset os s0).
Proof.
  intros X P g cfg defined to_use directs s0 os H. rewrite init_jit in H.
  destruct (asif_init cfg defined to_use directs no_traces) as [j0|] eqn:E; [|discriminate]. injection H as <-.
  exists j0. split; [reflexivity|].
  destruct (sim_run g cfg os j0 (init_current cfg _ _ _ _ E)) as (A & B & _). auto.
Qed.
Print Assumptions C70_compiled_asif_same_partial.

(** Simplex modules of both kinds. *)
Theorem C70_compiled_simplex_same_partial :
  forall (X P : Type) (sig : list X -> dict P -> nat) (cfg : sx_cfg X) k (defined : dict (constraint X P)) to_use
    initial s0 os,
  simplex_init defined to_use initial = Ok s0 ->
  let j := cb_run (jit_simplex_filter_control sig cfg k) jit_simplex_reset os (with_compiled [] s0) in
  let s := cb_run (simplex_filter_control cfg k) simplex_reset os s0 in
  fst j = fst s /\ plain (snd j) = snd s.
Proof.
  intros X P sig cfg k defined to_use initial s0 os _.
  assert (F : ProofsJit.fresh (with_compiled [] s0)) by (intros k' cs []).
  assert (E : plain (with_compiled [] s0) = s0) by (destruct s0 as [? ? ? ? []]; reflexivity).
  assert (S := sim_simplex_run sig cfg k os (with_compiled [] s0) F). rewrite E in S. exact S.
Qed.
Print Assumptions C70_compiled_simplex_same_partial.

(** What is missing: attributes other than parameters and enabled flags are read when a function
    is compiled.  After a call that returns, assigning any of them on any constraints and direct
    inequalities changes nothing about the answer of the next call with the same step size and
    arguments of the same shape. *)
Theorem C70_assignments_ignored :
  forall (X P : Type) (g : sigs X P) (cfg : asif_cfg X) j x x' dt u u' w j' os,
  enable j = true -> distinct_keys (cb_constraints (ext j)) -> distinct_keys (as_direct (get_asif j)) ->
  jit_asif_filter_control g cfg (InArray x) dt u j = (Ok w, j') ->
  (forall p, sig_barrier g x' p = sig_barrier g x p) -> (forall n p, sig_direct g n x' p = sig_direct g n x p) ->
  Forall attribute_only os ->
  fst (jit_asif_filter_control g cfg (InArray x') dt u'
         (snd (assign_run (jit_asif_filter_control g cfg) jit_asif_reset os j')))
  = fst (jit_asif_filter_control g cfg (InArray x') dt u' j').
Proof.
  intros X P g cfg j x x' dt u u' w j' os E N1 N2 H S1 S2 F.
  exact (assigned_ignored g cfg x x' dt u u' j w j' os E N1 N2 S1 S2 H F).
Qed.
Print Assumptions C70_assignments_ignored.

(** Fixtures: the walled module with compilation; all arguments have the same shape. *)
Definition one_shape : sigs R unit := mkSigs R unit (fun _ _ => 0%nat) (fun _ _ _ => 0%nat).
Definition jwalled : jit_amod R unit :=
  match asif_init (line_cfg unit_box false qp1) [("wall"%string, wall None)] None [("push"%string, push (-1/2))] no_traces with
  | Ok s => s
  | Err _ => rta_init (mkCb [] [] [] [] false (mkAsif 0 [] [] [] [] [] [] [] None 0 no_traces))
  end.
Definition line_step : aop R unit := ABase (OFilter (InArray (1/2)) 1 [1]).
(** Moving the wall a quarter closer. *)
Definition closer (c : constraint R unit) : constraint R unit :=
  mkConstraint (c_fun c) (c_phi c) (c_grad c) (c_alpha c) (c_alpha_neg c) (-1/4) (c_bias_neg c) (c_slack c) (c_sub c)
    (c_params c) (c_enabled c).
Notation jcall := (jit_asif_filter_control one_shape (line_cfg unit_box false qp1)).
Notation pcall := (explicit_asif_filter_control (line_cfg unit_box false qp1)).

(** The module after one call. *)
Definition walled1 : amod R unit unit :=
  set_actual (Some [1/2]) (set_intervening true (on_asif (set_causes (Some ["wall"%string]))
    (on_ext (update_constraint_values_at (1/2) true) (set_desired (Some [1]) walled)))).
Lemma walled_next : pcall (InArray (1/2)) 1 [1] walled = (Ok [1/2], walled1).
Proof. eval_model. walled_qp. eval_model. reflexivity. Qed.
Lemma walled1_next : fst (pcall (InArray (1/2)) 1 [1] walled1) = Ok [1/2].
Proof. eval_model. walled_qp. eval_model. reflexivity. Qed.
Lemma walled1_closer : fst (pcall (InArray (1/2)) 1 [1] (on_ext (on_constraint "wall"%string closer) walled1)) = Ok [1/4].
Proof.
  eval_model. qp1_gives [[1]] [1] [[1]; [-1]; [-1]; [1]] [-1; -1; -1/4; -1/2] [1/4] [3%nat]. eval_model. reflexivity.
Qed.

(** Without compilation the second call heeds the assignment, with compilation it does not. *)
Theorem C70_assignment_refuted :
  exists (g : sigs R unit) cfg (defined : dict (constraint R unit)) directs s0 j0 os,
    asif_init cfg defined None directs tt = Ok s0 /\ asif_init cfg defined None directs no_traces = Ok j0 /\
    fst (assign_run (explicit_asif_filter_control cfg) explicit_asif_reset os s0)
      = [ObsControl [1/2]; ObsDone; ObsControl [1/4]] /\
    fst (assign_run (jit_asif_filter_control g cfg) jit_asif_reset os j0)
      = [ObsControl [1/2]; ObsDone; ObsControl [1/2]].
Proof.
  exists one_shape, (line_cfg unit_box false qp1), [("wall"%string, wall None)], [("push"%string, push (-1/2))],
    walled, jwalled, [JOp line_step; JAssign "wall"%string closer; JOp line_step].
  split; [reflexivity|split; [reflexivity|split]].
  - cbn [assign_run assign_step asif_step cb_step line_step]. rewrite walled_next. assert (C := walled1_closer).
    destruct (pcall (InArray (1/2)) 1 [1] (on_ext (on_constraint "wall"%string closer) walled1)) as [r s2].
    cbn [fst] in *. rewrite C. reflexivity.
  - assert (U : fst (asif_run pcall explicit_asif_reset [line_step; line_step] walled) = [ObsControl [1/2]; ObsControl [1/2]]).
    { cbn [asif_run asif_step cb_step line_step]. rewrite walled_next. assert (C := walled1_next).
      destruct (pcall (InArray (1/2)) 1 [1] walled1) as [r s2]. cbn [fst] in *. rewrite C. reflexivity. }
    destruct (C70_compiled_asif_same_partial R unit one_shape (line_cfg unit_box false qp1) [("wall"%string, wall None)] None
      [("push"%string, push (-1/2))] walled [line_step; line_step] eq_refl) as (j0 & J0 & J & _).
    assert (j0 = jwalled) by (unfold jwalled; rewrite J0; reflexivity). subst j0. rewrite U in J.
    cbn [asif_run asif_step cb_step line_step] in J. cbn [assign_run assign_step asif_step cb_step line_step].
    destruct (jcall (InArray (1/2)) 1 [1] jwalled) as [r j1] eqn:E1.
    assert (E2 := C70_assignments_ignored R unit one_shape (line_cfg unit_box false qp1) jwalled (1/2) (1/2) 1 [1] [1] [1/2] j1
      [JAssign "wall"%string closer]).
    destruct (jcall (InArray (1/2)) 1 [1] j1) as [r2 j2]. cbn [fst] in J. injection J as J1 J2.
    destruct r as [v|]; [|discriminate]. injection J1 as ->.
    assert (E3 := E2 eq_refl ltac:(keys) ltac:(keys) E1 (fun _ => eq_refl) (fun _ _ => eq_refl)
      ltac:(repeat constructor)). cbn [assign_run assign_step snd fst] in E3.
    destruct (jcall (InArray (1/2)) 1 [1] (on_ext (on_constraint "wall"%string closer) j1)) as [r3 j3].
    cbn [fst] in *. rewrite E3, J2. reflexivity.
Qed.
Print Assumptions C70_assignment_refuted.
Example C70_case : asif_init (line_cfg unit_box false qp1) [("wall"%string, wall None)] None [("push"%string, push (-1/2))] tt = Ok walled /\
  (exists j', jcall (InArray (1/2)) 1 [1] jwalled = (Ok [1/2], j')) /\
  enable jwalled = true /\ distinct_keys (cb_constraints (ext jwalled)) /\ distinct_keys (as_direct (get_asif jwalled)) /\
  Forall attribute_only [JAssign "wall"%string closer].
Proof.
  split; [reflexivity|split].
  - destruct (C70_compiled_asif_same_partial R unit one_shape (line_cfg unit_box false qp1) [("wall"%string, wall None)] None
      [("push"%string, push (-1/2))] walled [line_step] eq_refl) as (j0 & J0 & J & _).
    assert (j0 = jwalled) by (unfold jwalled; rewrite J0; reflexivity). subst j0.
    destruct (walled_call false) as (s' & W & _). unfold line_call in W.
    cbn [asif_run asif_step cb_step line_step] in J. rewrite W in J.
    destruct (jcall (InArray (1/2)) 1 [1] jwalled) as [[v|] j1]; cbn in J; [injection J as ->; eauto|discriminate].
  - split; [reflexivity|split; [keys|split; [keys|repeat constructor]]].
Qed.
Example C70_simplex_case : simplex_init toy_constraints None CSNone = Ok toy /\
  fst (simplex_filter_control (toy_cfg unit_box 0) Explicit (InArray 1) 1 [-1] toy) = Ok [0].
Proof. split; [reflexivity|]. compute_model. reflexivity. Qed.

(** ** C71: compiling a backup controller does not change what the module does. *)

(** Full property: for all backup controllers.  Proved for those without internal state: every
    history gives the same observations and the same module. *)
Theorem C71_stateless_controller_same_partial :
  forall (X P : Type) (cfg : sx_cfg X) k (defined : dict (constraint X P)) to_use s0 os,
  (forall x dt u c, sc_gen cfg x dt CSNone = GPair u c -> c = CSNone) ->
  simplex_init defined to_use CSNone = Ok s0 ->
  cb_run (simplex_filter_control (jit_controller cfg) k) simplex_reset os s0
  = cb_run (simplex_filter_control cfg k) simplex_reset os s0.
Proof.
  intros X P cfg k defined to_use s0 os G H. apply sim_jc_run; [exact G|].
  revert H. unfold simplex_init, ctl_init, cb_init, rbind. cbn.
  destruct (select_constraints defined to_use); [|discriminate]. injection 1 as <-. reflexivity.
Qed.
Print Assumptions C71_stateless_controller_same_partial.
Example C71_case : (forall x dt u c, sc_gen (toy_cfg unit_box 0) x dt CSNone = GPair u c -> c = CSNone) /\
  simplex_init toy_constraints None CSNone = Ok toy /\
  fst (simplex_filter_control (jit_controller (toy_cfg unit_box 0)) Explicit (InArray 1) 1 [-1] toy) = Ok [0].
Proof. split; [intros x dt u c H; injection H as _ <-; reflexivity|split; [reflexivity|]]. compute_model. reflexivity. Qed.

(** A controller with internal state: whenever an explicit module has to intervene, the call
    raises instead. *)
Theorem C71_stateful_explicit_refuted :
  forall (X P : Type) (cfg : sx_cfg X) (s : simplex X P) x dt u v s',
  enable s = true -> ctl_now s <> CSNone ->
  simplex_filter_control cfg Explicit (InArray x) dt u s = (Ok v, s') -> intervening s' = true ->
  fst (simplex_filter_control (jit_controller cfg) Explicit (InArray x) dt u s) = Err (ValueError msg_static).
Proof.
  intros X P cfg s x dt u v s' E N H I.
  unfold simplex_filter_control, filter_control, cb_compute, base_get_state in *.
  unfold bind at 1, modify at 1 in H. unfold bind at 1, get at 1 in H.
  unfold bind at 1, modify at 1. unfold bind at 1, get at 1.
  change (enable (set_desired (Some u) s)) with (enable s) in *. rewrite E in *.
  set (t := on_ext (update_constraint_values_at x true) (on_ext update_params (set_desired (Some u) s))).
  match type of H with bind (bind _ _) ?k _ = _ => change (bind (bind (simplex_filter cfg (sx_monitor cfg Explicit) x dt u)
    (fun v => bind (modify (set_actual (Some v))) (fun _ => ret v))) k t = (Ok v, s')) in H end.
  match goal with |- fst (bind (bind _ _) ?k _) = _ => change (fst (bind (bind
    (simplex_filter (jit_controller cfg) (sx_monitor (jit_controller cfg) Explicit) x dt u)
    (fun v => bind (modify (set_actual (Some v))) (fun _ => ret v))) k t) = Err (ValueError msg_static)) end.
  unfold bind at 1 2 in H. unfold bind at 1 2.
  destruct (simplex_filter cfg (sx_monitor cfg Explicit) x dt u t) as [[v0|] s0] eqn:F; [|discriminate].
  assert (I0 : intervening s0 = true).
  { revert H. cbn. unfold bind, lift, modify, ret. destruct (clip _ _); [|discriminate]. intros H. injection H as _ <-. exact I. }
  assert (R := explicit_raises cfg x dt u t v0 s0 N F I0).
  destruct (simplex_filter (jit_controller cfg) _ x dt u t) as [r s1]. cbn [fst] in R. subst r. reflexivity.
Qed.
Print Assumptions C71_stateful_explicit_refuted.

(** An implicit module whose window holds at least one step raises in every call that would
    otherwise return, whether it has to intervene or not. *)
Theorem C71_stateful_implicit_refuted :
  forall (X P : Type) (cfg : sx_cfg X) (s : simplex X P) w n x dt u v s',
  enable s = true -> ctl_now s <> CSNone -> window_steps w dt (S n) ->
  simplex_filter_control cfg (Implicit w) (InArray x) dt u s = (Ok v, s') ->
  fst (simplex_filter_control (jit_controller cfg) (Implicit w) (InArray x) dt u s) = Err (ValueError msg_static).
Proof.
  intros X P cfg s w n x dt u v s' E N W H.
  unfold simplex_filter_control, filter_control, cb_compute, base_get_state in *.
  unfold bind at 1, modify at 1 in H. unfold bind at 1, get at 1 in H.
  unfold bind at 1, modify at 1. unfold bind at 1, get at 1.
  change (enable (set_desired (Some u) s)) with (enable s) in *. rewrite E in *.
  set (t := on_ext (update_constraint_values_at x true) (on_ext update_params (set_desired (Some u) s))).
  match type of H with bind (bind _ _) ?k _ = _ => change (bind (bind (simplex_filter cfg (sx_monitor cfg (Implicit w)) x dt u)
    (fun v => bind (modify (set_actual (Some v))) (fun _ => ret v))) k t = (Ok v, s')) in H end.
  match goal with |- fst (bind (bind _ _) ?k _) = _ => change (fst (bind (bind
    (simplex_filter (jit_controller cfg) (sx_monitor (jit_controller cfg) (Implicit w)) x dt u)
    (fun v => bind (modify (set_actual (Some v))) (fun _ => ret v))) k t) = Err (ValueError msg_static)) end.
  unfold bind at 1 2 in H. unfold bind at 1 2.
  destruct (simplex_filter cfg (sx_monitor cfg (Implicit w)) x dt u t) as [[v0|] s0] eqn:F; [|discriminate].
  assert (R := implicit_raises cfg w n x dt u t v0 s0 N W F).
  destruct (simplex_filter (jit_controller cfg) _ x dt u t) as [r s1]. cbn [fst] in R. subst r. reflexivity.
Qed.
Print Assumptions C71_stateful_implicit_refuted.

(** Fixtures: the toy module with a controller that counts its calls. *)
Definition counting (x dt : R) (c : cstate) : gout :=
  match c with CSArray v => GPair [0] (CSArray (map (fun r => r + 1) v)) | _ => GPair [0] c end.
Definition counting_cfg : sx_cfg R := mkSxCfg unit_box 0 toy_pred counting.
Definition counted : simplex R unit :=
  match simplex_init toy_constraints None (CSArray [0]) with Ok s => s | Err _ => toy end.
Example C71_stateful_case :
  simplex_init toy_constraints None (CSArray [0]) = Ok counted /\ ctl_now counted = CSArray [0] /\
  (exists s', simplex_filter_control counting_cfg Explicit (InArray 1) 1 [-1] counted = (Ok [0], s') /\ intervening s' = true) /\
  window_steps 1 1 1 /\
  (exists s', simplex_filter_control counting_cfg (Implicit 1) (InArray 1) 1 [1/2] counted = (Ok [1/2], s')).
Proof.
  split; [reflexivity|split; [reflexivity|split; [|split]]].
  - eexists. split; [compute_model; reflexivity|reflexivity].
  - unfold window_steps. cbn. lra.
  - eexists. compute_model. replace (py_div 1 1) with (@Ok R (1 / 1)) by (unfold py_div; destruct (Req_EM_T 1 0); [lra|reflexivity]).
    assert (Q : py_int (1 / 1) = 1%Z).
    { assert (W : window_steps 1 1 1) by (unfold window_steps; cbn; lra). assert (L := window_steps_int 1 1 1 W). lia. }
    compute_model. rewrite Q. compute_model. reflexivity.
Qed.
