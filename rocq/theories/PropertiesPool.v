(** C87: modules and the backup controllers they are given. *)
From Coq Require Import String Reals List Bool ZArith Lia Lra.
From Verif Require Import Prelude Vec ModelBase ModelController ModelSimplex ModelAsif SpecCore SpecAsif SpecImplicit.
From Verif Require Import ModelCwh ModelIntegrator ExampleTools ExampleQP PropertiesAsif PropertiesImplicit.
From Verif Require Import ModelPool SpecPool ProofsShare ProofsPool.
Import ListNotations.
Local Open Scope R_scope.

Definition nothing_built {X P} : pool X P := mkPool [] [].

Lemma refs_of {X P} (os : list (pool_op X P)) : forall w,
  map fst (p_users (snd (pool_run os w))) = map fst (p_users w) ++ given_controllers os.
Proof.
  induction os as [|o os IH]; intros w; [cbn; rewrite app_nil_r; auto|].
  rewrite (proj1 (prun_cons o os w)), IH, pstep_refs, (pgiven_cons o os), app_assoc; reflexivity.
Qed.

(** A module given a controller that no other module was given acts by itself: what the caller sees
    of it, its state and that of its controller are those of the program without the operations on
    other modules and controllers. *)
Theorem C87_own_controller_partial :
  forall (X P : Type) (os : list (pool_op X P)) i r,
  controller_given os i = Some r -> (forall j, controller_given os j = Some r -> j = i) ->
  let all := pool_run os nothing_built in
  let own := pool_run (filter (concerns i (Some r)) os) nothing_built in
  seen i (fst all) = seen i (fst own) /\
  nth_error (p_users (snd all)) i = nth_error (p_users (snd own)) i /\
  nth_error (p_ctls (snd all)) r = nth_error (p_ctls (snd own)) r.
Proof.
  intros X P os i r Gi U.
  destruct (pinterference i r (Some r)
    (fun (os : list (pool_op X P)) (w : pool X P) => only_user i r (map fst (p_users w) ++ given_controllers os) /\
       forall q, nth_error (map fst (p_users w) ++ given_controllers os) i = Some q -> q = r))
    with (os := os) (w := @nothing_built X P) (w' := @nothing_built X P) as [H1 H2].
  - intros q H; congruence.
  - intros o os' w [I1 I2].
    assert (E : map fst (p_users (snd (pool_step o w))) ++ given_controllers os' =
                map fst (p_users w) ++ given_controllers (o :: os'))
      by (rewrite pstep_refs, (pgiven_cons o os'), app_assoc; reflexivity).
    rewrite E. split; [split; auto|]. split.
    + intros q m H. apply I2. rewrite nth_error_app1.
      * rewrite nth_map, H; reflexivity.
      * rewrite map_length. apply nth_error_Some; congruence.
    + apply pstep_other_own. eapply only_user_prefix; eauto.
  - cbn. split; [intros j H; apply U; exact H|]. intros q H. unfold controller_given in Gi. congruence.
  - apply alikep_refl.
  - split; [exact H1|]. split; apply H2.
Qed.
Print Assumptions C87_own_controller_partial.

(** If all controllers are stateless, it does not matter which module was given which: modules with
    the same controller do not influence each other, nor does asking the controller. *)
Theorem C87_stateless_shared_partial :
  forall (X P : Type) (os : list (pool_op X P)) i r,
  controller_given os i = Some r -> (forall o, In o os -> builds_stateless o) ->
  let all := pool_run os nothing_built in
  let own := pool_run (filter (concerns i None) os) nothing_built in
  seen i (fst all) = seen i (fst own) /\
  nth_error (p_users (snd all)) i = nth_error (p_users (snd own)) i /\
  nth_error (p_ctls (snd all)) r = nth_error (p_ctls (snd own)) r.
Proof.
  intros X P os i r Gi B.
  destruct (pinterference i r None
    (fun (os : list (pool_op X P)) (w : pool X P) => (forall o, In o os -> builds_stateless o) /\ all_idle w /\
       forall q, nth_error (map fst (p_users w) ++ given_controllers os) i = Some q -> q = r))
    with (os := os) (w := @nothing_built X P) (w' := @nothing_built X P) as [H1 H2].
  - intros q H; discriminate.
  - intros o os' w (I1 & I2 & I3).
    assert (E : map fst (p_users (snd (pool_step o w))) ++ given_controllers os' =
                map fst (p_users w) ++ given_controllers (o :: os'))
      by (rewrite pstep_refs, (pgiven_cons o os'), app_assoc; reflexivity).
    rewrite E. split; [split; [|split; auto]|split].
    + intros o' H; apply I1; right; exact H.
    + apply idle_pool_step; auto. apply I1; left; reflexivity.
    + intros q m H. apply I3. rewrite nth_error_app1.
      * rewrite nth_map, H; reflexivity.
      * rewrite map_length. apply nth_error_Some; congruence.
    + apply pstep_other_idle; auto. apply I1; left; reflexivity.
  - split; [exact B|]. split; [constructor|]. cbn. intros q H. unfold controller_given in Gi. congruence.
  - apply alikep_refl.
  - split; [exact H1|]. split; apply H2.
Qed.
Print Assumptions C87_stateless_shared_partial.

(** The library's controllers are stateless, for every gain. *)
Theorem C87_library_controllers_stateless :
  (forall k K, stateless (lqr_stop k K)) /\ stateless int_gen.
Proof.
  split; [intros k K|]; intros x dt u st H; injection H; auto.
Qed.
Print Assumptions C87_library_controllers_stateless.

(** A controller that has a state: it counts its requests. *)
Definition counting_gen (x dt : R) (cs : cstate) : gout :=
  match cs with CSArray [a] => GPair [a] (CSArray [a + 1]) | _ => GOther end.
Definition counting_user : user R unit := USimplex free 0 toy_pred Explicit toy.
Definition two_users : list (pool_op R unit) :=
  [NewController counting_gen (fun _ _ _ => []) (CSArray [0]); NewUser counting_user 0; NewUser counting_user 0].

(** Two modules with that controller do influence each other: after an intervention of the first
    the second one gets another control, in the same state and for the same desired control. *)
Theorem C87_shared_refuted :
  controller_given two_users 0 = Some 0%nat /\ controller_given two_users 1 = Some 0%nat /\
  seen 1 (fst (pool_run (two_users ++ [Use 0 (OFilter (InArray 0) 1 [-4]); Use 1 (OFilter (InArray 0) 1 [-4])]) nothing_built)) =
    [ObsControl [0 + 1]] /\
  seen 1 (fst (pool_run (two_users ++ [Use 1 (OFilter (InArray 0) 1 [-4])]) nothing_built)) = [ObsControl [0]].
Proof.
  split; [reflexivity|]. split; [reflexivity|].
  split; compute_model; reflexivity.
Qed.
Print Assumptions C87_shared_refuted.

(** What one module does to a stateful controller reaches every module that was given it.  Resetting
    a simplex or implicit ASIF module puts the controller into its initial state, also in the middle
    of an episode of another module. *)
Theorem C87_reset_reaches_all :
  forall (X P : Type) (w : pool X P) i j r m m' k,
  nth_error (p_users w) i = Some (r, m) -> nth_error (p_users w) j = Some (r, m') ->
  nth_error (p_ctls w) r = Some k -> savable (ctl_initial (k_ctl k)) ->
  exists k', nth_error (p_ctls (snd (pool_step (Use i OReset) w))) r = Some k' /\
    ctl_state (k_ctl k') = ctl_initial (k_ctl k) /\
    exists m2, nth_error (p_users (snd (pool_step (Use i OReset) w))) j = Some (r, m2).
Proof.
  intros X P w i j r m m' k Ei Ej Ek Sv. cbn [pool_step]. rewrite Ei, Ek.
  assert (C : copy_controller_state (ctl_initial (k_ctl k)) = Ok (ctl_initial (k_ctl k))).
  { destruct (ctl_initial (k_ctl k)) as [| | |t]; try reflexivity. exfalso; apply (Sv t); reflexivity. }
  assert (H : ctl_state (snd (snd (use OReset m k))) = ctl_initial (k_ctl k)).
  { destruct m as [b latch pred kd s|cfg window pred size s]; cbn [use cb_step].
    - unfold simplex_reset, bind, modify, on_ctl, zoom, ctl_reset, bind, get, lift, modify.
      change (ctl_initial (sx_ctl (get_sx (rta_reset (fun y => y) (put_sx (set_ctl (k_ctl k) (get_sx s)) s)))))
        with (ctl_initial (k_ctl k)). rewrite C. reflexivity.
    - unfold implicit_asif_reset, bind, modify, on_actl, zoom, ctl_reset, bind, get, lift, modify.
      change (ctl_initial (as_ext (get_asif (rta_reset (fun y => y) (on_asif (set_as_ext (k_ctl k)) s)))))
        with (ctl_initial (k_ctl k)). rewrite C. reflexivity. }
  destruct (use OReset m k) as [ob [m2 c2]]. cbn [fst snd p_ctls p_users] in *.
  exists (set_k_ctl c2 k). split; [apply set_at_same, nth_error_Some; congruence|]. split; [exact H|].
  destruct (Nat.eq_dec i j) as [<-|N].
  - exists m2. apply set_at_same, nth_error_Some; congruence.
  - exists m'. rewrite set_at_other; auto.
Qed.
Print Assumptions C87_reset_reaches_all.

(** Implicit ASIF modules only look ahead: a call of one that returns leaves the state of every
    controller of the program as it was, so they can be given a stateful controller together. *)
Theorem C87_optimising_users :
  forall (X P : Type) (w : pool X P) i r cfg window pred size s x dt u v q k,
  nth_error (p_users w) i = Some (r, UImplicit cfg window pred size s) ->
  fst (pool_step (Use i (OFilter (InArray x) dt u)) w) = Some (ObsControl v) ->
  nth_error (p_ctls w) q = Some k ->
  exists k', nth_error (p_ctls (snd (pool_step (Use i (OFilter (InArray x) dt u)) w))) q = Some k' /\
    ctl_state (k_ctl k') = ctl_state (k_ctl k) /\ k_gen k' = k_gen k.
Proof.
  intros X P w i r cfg window pred size s x dt u v q k Ei Hv Eq. revert Hv. cbn [pool_step]. rewrite Ei.
  destruct (nth_error (p_ctls w) r) as [kr|] eqn:Er; [|discriminate].
  cbn [use cb_step].
  set (ic := mkImpCfg window pred (k_gen kr) (k_jac kr) size). set (s0 := on_asif (set_as_ext (k_ctl kr)) s).
  destruct (implicit_asif_filter_control cfg ic (InArray x) dt u s0) as [[v'|e] s'] eqn:F; cbn; [|discriminate].
  intros _.
  assert (K : ctl_state (as_ext (get_asif s')) = ctl_state (k_ctl kr)).
  { destruct (enable s) eqn:En.
    - exact (C13_implicit_asif_restores_controller X P cfg ic s0 x dt u v' s' En F).
    - unfold implicit_asif_filter_control, filter_control, bind, modify, get, ret in F.
      change (enable (set_desired (Some u) s0)) with (enable s) in F. rewrite En in F.
      injection F as _ <-. reflexivity. }
  destruct (Nat.eq_dec r q) as [<-|N].
  - rewrite Er in Eq; injection Eq as <-. eexists. split; [apply set_at_same, nth_error_Some; congruence|].
    split; [exact K|reflexivity].
  - exists k. rewrite set_at_other; auto.
Qed.
Print Assumptions C87_optimising_users.

(** Non-vacuity: the second module with its own counting controller sees the same whether or not the
    first one is used; and two modules share the library's integrator controller. *)
Definition separate : list (pool_op R unit) :=
  two_users ++ [NewController counting_gen (fun _ _ _ => []) (CSArray [7]); NewUser counting_user 1;
    Use 0 (OFilter (InArray 0) 1 [-4]); Use 2 (OFilter (InArray 0) 1 [-4]); Use 0 OReset; Use 2 (OFilter (InArray 0) 1 [-4])].
Example C87_case :
  controller_given separate 2 = Some 1%nat /\ (forall j, controller_given separate j = Some 1%nat -> j = 2%nat) /\
  seen 2 (fst (pool_run (filter (concerns 2 (Some 1%nat)) separate) nothing_built)) = [ObsControl [7]; ObsControl [7 + 1]].
Proof.
  split; [reflexivity|]. split.
  - intros [|[|[|j]]]; cbn; try discriminate; auto. destruct j; discriminate.
  - compute_model; reflexivity.
Qed.
Definition stateless_sharing : list (pool_op R unit) :=
  [NewController (fun _ _ _ => GPair [0] CSNone) (fun _ _ _ => []) CSNone; NewUser counting_user 0; NewUser counting_user 0;
   Use 0 (OFilter (InArray 0) 1 [-4]); Use 1 (OFilter (InArray 0) 1 [-4])].
Example C87_stateless_case :
  controller_given stateless_sharing 0 = Some 0%nat /\ controller_given stateless_sharing 1 = Some 0%nat /\
  (forall o, In o stateless_sharing -> builds_stateless o) /\
  seen 1 (fst (pool_run stateless_sharing nothing_built)) = [ObsControl [0]].
Proof.
  split; [reflexivity|]. split; [reflexivity|]. split.
  - intros o [<-|[<-|[<-|[<-|[<-|[]]]]]]; cbn; auto. split; [reflexivity|]. intros x dt u st H; injection H; auto.
  - compute_model; reflexivity.
Qed.
(** An implicit ASIF module with a counting controller answers. *)
Definition optimising_pool : pool R unit :=
  mkPool [mkController (ic_gen counting_ic) (ic_jac counting_ic) (as_ext (get_asif counting))]
    [(0%nat, UImplicit (line_cfg unit_box false qp1) 2 (ic_pred counting_ic) (ic_size counting_ic) counting);
     (0%nat, counting_user)].
Example C87_optimising_case :
  (exists s, nth_error (p_users optimising_pool) 0 =
     Some (0%nat, UImplicit (line_cfg unit_box false qp1) 2 (ic_pred counting_ic) (ic_size counting_ic) s)) /\
  fst (pool_step (Use 0 (OFilter (InArray (1/2)) 1 [1])) optimising_pool) = Some (ObsControl [1/2]) /\
  exists k, nth_error (p_ctls optimising_pool) 0 = Some k /\ savable (ctl_initial (k_ctl k)) /\ ctl_state (k_ctl k) = CSArray [5].
Proof.
  split; [eexists; reflexivity|]. split.
  - destruct C13_implicit_case as (_ & s' & H & _). cbn [pool_step optimising_pool p_users p_ctls nth_error use cb_step k_gen k_jac k_ctl].
    change (mkImpCfg 2 (ic_pred counting_ic) (ic_gen counting_ic) (ic_jac counting_ic) (ic_size counting_ic)) with counting_ic.
    change (on_asif (set_as_ext (as_ext (get_asif counting))) counting) with counting.
    rewrite H. reflexivity.
  - eexists; split; [reflexivity|]. split; [intros t; discriminate|reflexivity].
Qed.
