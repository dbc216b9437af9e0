(** Properties of compiled implicit ASIF modules: C70 and C71. *)
From Coq Require Import String Reals List Bool ZArith Lia Lra.
From Verif Require Import Prelude Vec ModelBase ModelController ModelSimplex ModelAsif ModelJit
  SpecCore SpecHistory SpecSimplex SpecAsif SpecImplicit SpecJit ProofsBase ProofsSimplex ProofsJit ProofsJitImplicit
  ExampleTools ExampleQP PropertiesAsif PropertiesImplicit PropertiesJit.
Import ListNotations.
Local Open Scope R_scope.

(** ** C70: compiling a module does not change what it does. *)

(** Full property: for every history, including assignments of attributes of constraints.
    Implicit ASIF: the whole lookahead is one compiled function.  For backup controllers without
    internal state (the compiled lookahead admits no others) and histories of the documented
    operations, every observation and every attribute is that of the plain module, whichever
    arguments share a compiled version. *)
Theorem C70_compiled_implicit_asif_same_partial :
  forall (X P : Type) (g : sigs X P) (cfg : asif_cfg X) (ic : imp_cfg X) (defined : dict (constraint X P)) to_use
    (directs : dict (direct X P)) s0 os,
  (forall x dt u c, ic_gen ic x dt CSNone = GPair u c -> c = CSNone) ->
  implicit_asif_init cfg defined to_use directs CSNone = Ok s0 ->
  exists j0, asif_init cfg defined to_use directs no_traces = Ok j0 /\
    fst (asif_run (jit_implicit_filter_control g cfg ic) jit_asif_reset os j0)
    = fst (asif_run (implicit_asif_filter_control cfg ic) implicit_asif_reset os s0) /\
    with_controller (snd (asif_run (jit_implicit_filter_control g cfg ic) jit_asif_reset os j0))
    = snd (asif_run (implicit_asif_filter_control cfg ic) implicit_asif_reset os s0).
Proof.
  intros X P g cfg ic defined to_use directs s0 os G H. rewrite init_implicit_jit in H.
  destruct (asif_init cfg defined to_use directs no_traces) as [j0|] eqn:E; [|discriminate]. injection H as <-.
  exists j0. split; [reflexivity|].
  destruct (sim_implicit_run g cfg ic G os j0 (init_current cfg _ _ _ _ E)) as (A & B & _). auto.
Qed.
Print Assumptions C70_compiled_implicit_asif_same_partial.
Example C70_implicit_case :
  (forall x dt u c, ic_gen (line_ic (-1)) x dt CSNone = GPair u c -> c = CSNone) /\
  implicit_asif_init (line_cfg unit_box false qp1) [("wall"%string, wall None)] None [("push"%string, push (-1/2))] CSNone = Ok imp_walled /\
  exists j', jit_implicit_filter_control one_shape (line_cfg unit_box false qp1) (line_ic (-1)) (InArray (1/2)) 1 [1] jwalled = (Ok [1/2], j').
Proof.
  assert (G : forall x dt u c, ic_gen (line_ic (-1)) x dt CSNone = GPair u c -> c = CSNone)
    by (intros x dt u c H; injection H as _ <-; reflexivity).
  split; [exact G|split; [reflexivity|]].
  destruct (C70_compiled_implicit_asif_same_partial R unit one_shape (line_cfg unit_box false qp1) (line_ic (-1))
    [("wall"%string, wall None)] None [("push"%string, push (-1/2))] imp_walled [line_step] G eq_refl) as (j0 & J0 & J & _).
  assert (j0 = jwalled) by (unfold jwalled; rewrite J0; reflexivity). subst j0.
  destruct (imp_walled_call false) as (s' & W & _). unfold imp_call in W.
  cbn [asif_run asif_step cb_step line_step] in J. rewrite W in J.
  destruct (jit_implicit_filter_control one_shape (line_cfg unit_box false qp1) (line_ic (-1)) (InArray (1/2)) 1 [1] jwalled) as [[v|] j1];
    cbn in J; [injection J as ->; eauto|discriminate].
Qed.

(** ** C71: compiling a backup controller does not change what the module does. *)

(** Full property: for all backup controllers.  Implicit ASIF with a controller without internal
    state: every history gives the same observations and the same module. *)
Theorem C71_stateless_implicit_asif_same_partial :
  forall (X P : Type) (cfg : asif_cfg X) (ic : imp_cfg X) (defined : dict (constraint X P)) to_use
    (directs : dict (direct X P)) s0 os,
  (forall x dt u c, ic_gen ic x dt CSNone = GPair u c -> c = CSNone) ->
  implicit_asif_init cfg defined to_use directs CSNone = Ok s0 ->
  asif_run (implicit_asif_filter_control cfg (jit_backup ic)) implicit_asif_reset os s0
  = asif_run (implicit_asif_filter_control cfg ic) implicit_asif_reset os s0.
Proof.
  intros X P cfg ic defined to_use directs s0 os G H. apply sim_backup_run; [exact G|].
  rewrite init_implicit_jit in H. destruct (asif_init cfg defined to_use directs no_traces) as [j0|]; [|discriminate].
  injection H as <-. reflexivity.
Qed.
Print Assumptions C71_stateless_implicit_asif_same_partial.

(** A controller with internal state: a module whose window holds at least one step raises in
    every call that would otherwise return. *)
Theorem C71_stateful_implicit_asif_refuted :
  forall (X P : Type) (cfg : asif_cfg X) (ic : imp_cfg X) (s : amod X P ctl) n x dt u v s',
  enable s = true -> imp_ctl s <> CSNone -> window_steps (ic_window ic) dt (S n) ->
  implicit_asif_filter_control cfg ic (InArray x) dt u s = (Ok v, s') ->
  fst (implicit_asif_filter_control cfg (jit_backup ic) (InArray x) dt u s) = Err (ValueError msg_static).
Proof.
  intros X P cfg ic s n x dt u v s' E N W H.
  assert (Q : py_div (ic_window ic) dt = Ok (ic_window ic / dt)).
  { unfold py_div. destruct W as [W _]. destruct (Req_EM_T dt 0); [lra|reflexivity]. }
  assert (Z : Z.to_nat (py_int (ic_window ic / dt) + 1) = S (S n)).
  { assert (L := window_steps_int _ _ _ W). lia. }
  set (t := on_asif update_direct (on_ext (update_constraint_values_at x true) (on_ext update_params (set_desired (Some u) s)))).
  assert (T : ctl_state (as_ext (get_asif t)) <> CSNone) by exact N.
  destruct (call_mats cfg (implicit_mats cfg ic) s x dt u E) as [_ A]. fold t in A.
  destruct (call_mats cfg (implicit_mats cfg (jit_backup ic)) s x dt u E) as [B _]. fold t in B.
  destruct (A v s' H) as (rc & s1 & M). apply (B _ (snd (implicit_mats cfg (jit_backup ic) x dt t))).
  destruct (mats_eq cfg ic x dt t) as [M1 _]. destruct (mats_eq cfg (jit_backup ic) x dt t) as [_ M2].
  destruct (M1 _ Q _ _ M) as (traj & c & F). rewrite Z in F.
  assert (K := integrate_raises _ _ _ _ _ _ _ _ T F). rewrite <- Z in K. apply (M2 _ _ Q) in K.
  rewrite (surjective_pairing (implicit_mats cfg (jit_backup ic) x dt t)), K. reflexivity.
Qed.
Print Assumptions C71_stateful_implicit_asif_refuted.
Example C71_implicit_asif_case : enable PropertiesImplicit.counting = true /\ imp_ctl PropertiesImplicit.counting = CSArray [5] /\
  window_steps (ic_window counting_ic) 1 2 /\
  (exists s', implicit_asif_filter_control (line_cfg unit_box false qp1) counting_ic (InArray (1/2)) 1 [1] PropertiesImplicit.counting
     = (Ok [1/2], s')) /\
  (forall x dt u c, ic_gen (line_ic (-1)) x dt CSNone = GPair u c -> c = CSNone).
Proof.
  split; [reflexivity|split; [reflexivity|split; [exact line_window|split]]].
  - destruct C13_implicit_case as (_ & s' & H & _). eauto.
  - intros x dt u c H; injection H as _ <-; reflexivity.
Qed.
