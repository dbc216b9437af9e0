(** C92.  Whether a discrete module built without compilation follows its constraints' settings. *)
From Coq Require Import String Reals List Bool ZArith Lia Lra.
From Verif Require Import Prelude Vec ModelBase ModelController ModelSimplex ModelAsif ModelDiscrete ModelJit ModelDiscJit
  SpecCore SpecHistory SpecAsif SpecDiscrete SpecDiscJit ProofsBase ProofsSimplex ProofsSim ProofsJit ProofsDiscrete ProofsDiscJit
  ExampleTools PropertiesAsif PropertiesDiscrete PropertiesJit.
Import ListNotations.
Local Open Scope R_scope.

(** The full property: a discrete module built with jit_enable=False answers every history of
    operations and assignments to its constraints as the plain model does, which reads every
    setting when it is called.

    This holds, with jit_enable=False and with jit_enable=True, for histories of the documented
    operations: calls, resets, the enable flag, parameters and enabled flags.  The answers, the
    state and the reported values agree; so what is shown about the plain model (C35, C36, C37)
    holds for the module as it runs. *)
Theorem C92_documented_operations_partial :
  forall (X P : Type) jit_enable (sig : X -> R -> P -> nat) (cfg : disc_cfg X) (defined : dict (constraint X P)) to_use s0 os,
  disc_init cfg defined to_use = Ok s0 ->
  exists j0, jdisc_init cfg defined to_use = Ok j0 /\
    let j := cb_run (jdisc_filter_control jit_enable sig cfg) jdisc_reset os j0 in
    let s := cb_run (disc_filter_control cfg) disc_reset os s0 in
    fst j = fst s /\ cb_info (snd j) = cb_info (snd s) /\ cb_constraints (ext (snd j)) = cb_constraints (ext (snd s)) /\
    disc_of (snd j) = cb_ext (ext (snd s)).
Proof.
  intros X P je sig cfg defined to_use s0 os H. destruct (jdisc_built cfg defined to_use s0 H) as (j0 & J & _ & _ & _ & _ & _ & B).
  exists j0. split; [exact J|]. intros j s.
  assert (A : Forall (asked sig (fun _ => True)) os).
  { apply Forall_forall. intros o _. destruct o as [[x|] dt u| | | | |]; cbn; auto. }
  destruct (b_run je sig cfg True (fun _ => True) (fun _ => False) _ os j0 s0 A (B True (fun _ => True))) as (E & [R1 _ _ D _ _ _ _ G]).
  destruct (G Logic.I) as (G1 & G2 & G3). split; [exact E|]. unfold cb_info. fold j s in R1, G1, G2, G3, D. rewrite R1, G2, G3. auto.
Qed.
Print Assumptions C92_documented_operations_partial.

(** What is missing.  Once a call with all constraints enabled has returned, no assignment of a
    setting (bias, strengthening function, ...) has any effect on any later call with arguments of
    the same shapes and types, whatever step size it has and whatever jit_enable says: all later
    answers are those of the plain model without the assignments. *)
Theorem C92_assignments_ignored_refuted :
  forall (X P : Type) jit_enable (sig : X -> R -> P -> nat) n (cfg : disc_cfg X) (defined : dict (constraint X P)) to_use s0
    x dt u w os,
  distinct_keys defined -> disc_init cfg defined to_use = Ok s0 ->
  (forall k c, In (k, c) (cb_constraints (ext s0)) -> c_enabled c = true /\ c_alpha c <> None) ->
  fst (disc_filter_control cfg (InArray x) dt u s0) = Ok w ->
  Forall (shaped sig n) (DOp (OFilter (InArray x) dt u) :: os) -> Forall settings_only os ->
  exists j0, jdisc_init cfg defined to_use = Ok j0 /\
    fst (dassign_run (jdisc_filter_control jit_enable sig cfg) jdisc_reset (DOp (OFilter (InArray x) dt u) :: os) j0)
    = fst (dassign_run (disc_filter_control cfg) disc_reset (map unassigned (DOp (OFilter (InArray x) dt u) :: os)) s0).
Proof.
  intros X P je sig n cfg defined to_use s0 x dt u w os D H Hc Hw HA HS.
  destruct (jdisc_built cfg defined to_use s0 H) as (j0 & J & En & Li & K & E0 & Ec & B).
  exists j0. split; [exact J|]. inversion HA as [|? ? Hs HA']; subst. cbn in Hs.
  assert (HQ : forall x' p, InArray x = InArray x' -> sig x' dt p = n) by (intros x' p E; injection E as <-; apply Hs).
  destruct (ps_call je sig cfg False (fun m => m = n) (fun _ => False) _ (InArray x) dt u HQ j0 s0 (B False _)) as (E & I1).
  rewrite Hw in E. cbn [map unassigned dassign_run dassign_step cb_step].
  destruct (jdisc_filter_control je sig cfg (InArray x) dt u j0) as [r j1] eqn:Ej. cbn [fst snd] in *. subst r.
  destruct (disc_filter_control cfg (InArray x) dt u s0) as [r s1] eqn:Es. cbn [fst snd] in *. subst r.
  rewrite <- Ec in Hc. assert (Tr := first_call_traces je sig cfg n x dt u j0 w j1 Hs En (K D) E0 Li Hc Ej).
  set (N := length (cb_constraints (ext j0))) in *.
  assert (I2 : beside False (fun m => m = n) (fun k => snd k = n /\ (fst k < N)%nat) N j1 s1).
  { destruct I1 as [A1 A2 A3 A4 A5 A6 A7 _ A9]. split; auto. intros [m sg] (Ek & Lk). cbn [fst snd] in *. subst sg. apply Tr. exact Lk. }
  assert (Q := b_assign_run je sig cfg False (fun m => m = n) (fun k => snd k = n /\ (fst k < N)%nat) N os (fun f => f)
    (fun sg m Hsg Hm => conj Hsg Hm) j1 s1).
  assert (HA2 : Forall (fun o => match o with DOp o => asked sig (fun m => m = n) o | DAssign _ _ => True end) os).
  { revert HA'. apply Forall_impl. intros [o|k f]; [|auto]. destruct o as [[y|] dt' u'| | | | |]; cbn; auto. }
  destruct (Q HA2 HS I2) as (Q1 & _).
  destruct (dassign_run (jdisc_filter_control je sig cfg) jdisc_reset os j1).
  destruct (dassign_run (disc_filter_control cfg) disc_reset (map unassigned os) s1). cbn [fst snd] in *. subst. reflexivity.
Qed.
Print Assumptions C92_assignments_ignored_refuted.

(** On numbers: a vehicle half a unit before a wall asks for half a unit per second and gets it.
    The caller then moves the wall a quarter of a unit closer (bias, the documented way to make a
    constraint more conservative).  The plain model would now slow down to a quarter; the module
    built with jit_enable=False does not. *)
Definition dclose_cfg : disc_cfg R := dline_cfg unit_box false (slsqp_try [1/4]).
Definition dclose_call : dop R unit := DOp (OFilter (InArray (1/2)) (1/2) [1/2]).
Definition dclose : list (dop R unit) := [dclose_call; DAssign "wall"%string closer; dclose_call].
Theorem C92_closer_wall_refuted : forall sig : R -> R -> unit -> nat,
  slsqp_contract 0 (dc_solve dclose_cfg) /\
  exists s0 j0, disc_init dclose_cfg [("wall"%string, wall None)] None = Ok s0 /\
  jdisc_init dclose_cfg [("wall"%string, wall None)] None = Ok j0 /\
  fst (dassign_run (disc_filter_control dclose_cfg) disc_reset dclose s0)
    = [ObsControl [1/2]; ObsDone; ObsControl [1/4]] /\
  fst (dassign_run (jdisc_filter_control false sig dclose_cfg) jdisc_reset dclose j0)
    = [ObsControl [1/2]; ObsDone; ObsControl [1/2]].
Proof.
  intros sig. split; [apply slsqp_try_contract|].
  assert (A : fst (disc_filter_control dclose_cfg (InArray (1/2)) (1/2) [1/2] dwalled) = Ok [1/2]) by (disc_eval; reflexivity).
  destruct (C92_assignments_ignored_refuted R unit false sig (sig (1/2) (1/2) tt) dclose_cfg [("wall"%string, wall None)] None dwalled
    (1/2) (1/2) [1/2] [1/2] [DAssign "wall"%string closer; dclose_call]) as (j0 & J & E).
  - keys.
  - reflexivity.
  - intros k c [I|[]]. injection I as <- <-. split; [reflexivity|discriminate].
  - exact A.
  - repeat constructor; intros []; reflexivity.
  - repeat constructor.
  - exists dwalled, j0. split; [reflexivity|]. split; [exact J|]. split; [disc_eval; reflexivity|].
    unfold dclose. change dclose_call with (DOp (OFilter (InArray (1/2)) (1/2) [1/2]) : dop R unit) at 1.
    rewrite E. disc_eval. reflexivity.
Qed.
Print Assumptions C92_closer_wall_refuted.
(** The hypotheses of the first two theorems hold for this module. *)
Example C92_case : disc_init dclose_cfg [("wall"%string, wall None)] None = Ok dwalled /\
  distinct_keys [("wall"%string, wall None)] /\
  (forall k c, In (k, c) (cb_constraints (ext dwalled)) -> c_enabled c = true /\ c_alpha c <> None) /\
  fst (disc_filter_control dclose_cfg (InArray (1/2)) (1/2) [1/2] dwalled) = Ok [1/2] /\
  Forall (shaped (fun _ _ _ => 0%nat) 0) dclose /\ Forall settings_only dclose.
Proof.
  split; [reflexivity|split; [keys|split; [|split; [disc_eval; reflexivity|split; repeat constructor]]]].
  intros k c [I|[]]. injection I as <- <-. split; [reflexivity|discriminate].
Qed.
