(** Properties of several modules in one program: C84, C85, C86. *)
From Coq Require Import String Reals List Bool ZArith Lia Lra.
From Verif Require Import Prelude Vec ModelBase ModelAsif ModelCwh ModelInspect ModelShare SpecShare
  ExampleTools ProofsBase ProofsInspect ProofsShare.
Import ListNotations.
Local Open Scope R_scope.

(** ** C84.  Modules built separately do not influence each other. *)

(** A combined module whose deputies' module was given to no other gives, in every program, the
    same answers as if nothing were ever done with the other modules, and ends in the same state. *)
Theorem C84_own_deputy_partial :
  forall D (step : vec -> R -> vec -> M D vec) d0 os i r,
  deputy_given os i = Some r -> (forall j, deputy_given os j = Some r -> j = i) ->
  let all := share_run step os (import_module d0) in
  let own := share_run step (filter (concerns i) os) (import_module d0) in
  answers i (fst all) = answers i (fst own) /\
  nth_error (w_modules (snd all)) i = nth_error (w_modules (snd own)) i /\
  nth_error (w_deputies (snd all)) r = nth_error (w_deputies (snd own)) r.
Proof.
  intros D step d0 os i r G U.
  assert (E : forall j, nth_error (map object_of (given_deputies os)) j = deputy_given os j)
    by (intros j; apply nth_map).
  destruct (noninterference step i r os (import_module d0) (import_module d0)) as [A B].
  - cbn. intros j H. apply U. rewrite <- E; auto.
  - cbn. intros r' H. rewrite E, G in H. congruence.
  - apply alike_refl.
  - split; [exact A|]. split; apply B.
Qed.
Print Assumptions C84_own_deputy_partial.

(** Modules given the same deputies' module, or none, share it: whatever is done to the
    deputies' module of one is done to that of the other. *)
Theorem C84_same_deputy :
  forall D (step : vec -> R -> vec -> M D vec) d0 os1 os2 i j r f,
  deputy_given os1 i = Some r -> deputy_given os1 j = Some r ->
  share_run step (os1 ++ DeputyOn i f :: os2) (import_module d0) =
  share_run step (os1 ++ DeputyOn j f :: os2) (import_module d0).
Proof.
  intros D step d0 os1 os2 i j r f Hi Hj. rewrite !run_app, !run_cons.
  pose proof (run_refs step os1 (import_module d0)) as E. cbn [import_module w_modules map app] in E.
  rewrite (same_deputy step i j f _ r); auto; rewrite E, nth_map; auto.
Qed.
Print Assumptions C84_same_deputy.

(** A deputies' module that replaces every control by zero. *)
Definition stopper : vec -> R -> vec -> M (rta unit) vec :=
  filter_control free (fun x dt u => ret (zeros 3)).

(** So two modules built with the defaults do influence each other: disabling the deputies' module
    of the first switches off the second. *)
Theorem C84_default_refuted :
  exists os : list (share_op (rta unit)), given_deputies os = [None; None] /\
  (forall o, In o os -> concerns 1 o = false -> exists e, o = DeputyOn 0 (set_enable e)) /\
  answers 1 (fst (share_run stopper os (import_module (rta_init tt)))) <>
  answers 1 (fst (share_run stopper (filter (concerns 1) os) (import_module (rta_init tt)))).
Proof.
  exists [NewCombined 1 free None; NewCombined 1 free None; DeputyOn 0 (set_enable false);
          CallOn 1 [0; 0; 0; 0; 0; 0] 1 [1; 1; 1]].
  split; [reflexivity|]. split.
  - intros o [<-|[<-|[<-|[<-|[]]]]]; cbn; try discriminate. intros _; eauto.
  - cbn. intros H; injection H; lra.
Qed.
Print Assumptions C84_default_refuted.

(** Even a mere call does: after one with a state without the sun's angle the deputies' module of
    every default module holds the sun for fixed, whatever its constraints and solver do.  [rest]
    is the remainder of its call. *)
Definition with_state {D} (rest : vec -> R -> vec -> M (R * D) vec) (x : vec) (dt : R) (u : vec) : M (R * D) vec :=
  bind (zoom fst (fun v p => (v, snd p)) (deputies_get_state 5 (InArray x))) (fun s => rest s dt u).
Theorem C84_short_state_stops_the_sun :
  forall D (rest : vec -> R -> vec -> M (R * D) vec) (d0 : R * D) os j num b x dt u,
  (forall s dt u p, fst (snd (rest s dt u p)) = fst p) -> (1 <= num)%nat -> length x = 30%nat ->
  let w := snd (share_run (with_state rest) os (import_module d0)) in
  nth_error (w_modules w) j = Some (mkComb num b 0 (rta_init tt)) ->
  forall d, nth_error (w_deputies (snd (share_step (with_state rest) (CallOn j x dt u) w))) 0 = Some d -> fst d = 0.
Proof.
  intros D rest d0 os j num b x dt u K Hn Lx w E d. clearbody w.
  cbn [share_step]. rewrite E. cbn [cm_ref].
  destruct (nth_error (w_deputies w) 0) as [d1|] eqn:F; [|cbn [snd]; intros H; congruence].
  destruct (call_on (with_state rest) (mkComb num b 0 (rta_init tt)) d1 x dt u) as [a [c' d']] eqn:G.
  cbn [snd w_deputies]. intros H. rewrite set_at_same in H by (apply nth_error_Some; congruence).
  injection H as <-.
  unfold call_on in G. cbn [cm_bounds cm_num cm_rta rta_init enable intervening control_desired control_actual] in G.
  assert (W : forall y v p, fst (snd (with_state rest y dt v p)) = if (length y <? 31)%nat then 0 else fst p).
  { intros y v p. unfold with_state, bind, zoom, deputies_get_state.
    change (6 * 5 + 1)%nat with 31%nat. destruct (length y <? 31)%nat; (etransitivity; [apply K|reflexivity]). }
  assert (L : forall rounds i p, fst p = 0 -> fst (snd (combined_loop (with_state rest) x dt u rounds i p)) = 0).
  { induction rounds as [|k IH]; intros i p Hp; [exact Hp|]. cbn [combined_loop]. unfold bind at 1.
    pose proof (W (agent_state x i) (slice (3 * i) (3 * i + 3) u) p) as P1.
    destruct (with_state rest (agent_state x i) dt (slice (3 * i) (3 * i + 3) u) p) as [[v|e] p1];
      cbn [snd] in P1 |- *; (assert (P2 : fst p1 = 0) by (rewrite P1; destruct (_ <? _)%nat; auto)); [|exact P2].
    unfold bind. destruct (assign3 v) as [a3|e3]; cbn [lift]; [|exact P2].
    specialize (IH (S i) p1 P2).
    destruct (combined_loop (with_state rest) x dt u k (S i) p1) as [[v'|e'] p2]; exact IH. }
  assert (Z : fst (snd (combined_loop (with_state rest) x dt u num 0 d1)) = 0).
  { destruct num as [|k]; [lia|]. cbn [combined_loop]. unfold bind at 1.
    pose proof (W (agent_state x 0) (slice (3 * 0) (3 * 0 + 3) u) d1) as P1.
    assert (La : length (agent_state x 0) = 30%nat).
    { unfold agent_state, slice. rewrite !app_length, !firstn_length, !skipn_length. unfold vec in *; lia. }
    rewrite La in P1. change (30 <? 31)%nat with true in P1.
    destruct (with_state rest (agent_state x 0) dt (slice (3 * 0) (3 * 0 + 3) u) d1) as [[v|e] p1];
      cbn [snd] in P1 |- *; [|exact P1].
    unfold bind. destruct (assign3 v) as [a3|e3]; cbn [lift]; [|exact P1].
    pose proof (L k 1%nat p1 P1) as Q.
    destruct (combined_loop (with_state rest) x dt u k 1 p1) as [[v'|e'] p2]; exact Q. }
  unfold combined_filter in G. rewrite filter_control_enabled in G by reflexivity.
  unfold combined_compute, zoom in G. cbn [set_desired ext] in G.
  destruct (combined_loop (with_state rest) x dt u num 0 d1) as [[v|e] p2]; cbn [snd] in Z.
  - destruct (clip b v); injection G as _ _ <-; exact Z.
  - injection G as _ _ <-; exact Z.
Qed.
Print Assumptions C84_short_state_stops_the_sun.

(** Resetting a combined module leaves every deputies' module as it is. *)
Theorem C84_reset_leaves_deputies :
  forall D (step : vec -> R -> vec -> M D vec) i w,
  w_deputies (snd (share_step step (ResetOn i) w)) = w_deputies w.
Proof. intros. cbn. destruct (nth_error (w_modules w) i); reflexivity. Qed.
Print Assumptions C84_reset_leaves_deputies.

(** Non-vacuity: two modules with objects of their own; the second answers the same whether or not
    the first one's deputies' module is disabled, and really filters. *)
Example C84_case :
  let os := [NewDeputy (rta_init tt); NewDeputy (rta_init tt); NewCombined 1 free (Some 1%nat);
             NewCombined 1 free (Some 2%nat); DeputyOn 0 (set_enable false);
             CallOn 0 [0; 0; 0; 0; 0; 0] 1 [1; 1; 1]; CallOn 1 [0; 0; 0; 0; 0; 0] 1 [1; 1; 1]] in
  deputy_given os 1 = Some 2%nat /\ (forall j, deputy_given os j = Some 2%nat -> j = 1%nat) /\
  answers 0 (fst (share_run stopper os (import_module (rta_init tt)))) = [Ok [1; 1; 1]] /\
  answers 1 (fst (share_run stopper os (import_module (rta_init tt)))) = [Ok [0; 0; 0]].
Proof.
  cbv zeta. split; [reflexivity|]. split.
  - intros [|[|[|j]]]; cbn; intros H; try discriminate; reflexivity.
  - split; reflexivity.
Qed.
(** A module on which the short state has its effect: a deputies' module that answers its sun's
    speed. *)
Example C84_sun_case :
  let rest := fun (s : vec) (dt : R) (u : vec) (p : R * unit) => (Ok [fst p; fst p; fst p], p) in
  let os := [NewCombined 1 free None; NewCombined 1 free None] in
  (forall s dt u p, fst (snd (rest s dt u p)) = fst p) /\
  nth_error (w_modules (snd (share_run (with_state rest) os (import_module (1, tt))))) 1 =
    Some (mkComb 1 free 0 (rta_init tt)) /\
  answers 0 (fst (share_run (with_state rest) (os ++ [CallOn 0 (zeros 31) 1 [1; 1; 1]]) (import_module (1, tt)))) =
    [Ok [1; 1; 1]] /\
  answers 0 (fst (share_run (with_state rest) (os ++ [CallOn 1 (zeros 30) 1 [1; 1; 1]; CallOn 0 (zeros 31) 1 [1; 1; 1]])
                    (import_module (1, tt)))) = [Ok [0; 0; 0]].
Proof. cbv zeta. repeat split; reflexivity. Qed.

(** ** C85.  The number of deputies. *)

(** A combined module for [k] deputies whose deputies' module was built for [k] gets past the
    shapes: the call is the rest of the deputies' module's work, for states with and without the
    angle of the sun. *)
Theorem C85_matching_partial :
  forall D n k grad before after x dt u (p : R * D),
  (forall y, length (grad y) = length y) -> (1 <= k)%nat -> state_of k x ->
  let s := if (length x =? 6 * k)%nat then x ++ [0] else x in
  let v := if (length x =? 6 * k)%nat then 0 else fst p in
  shaped_call n k grad before after x dt u p =
  bind (before s) (fun _ q => after s (dot (vneg (grad s)) (deputies_f n (fst q) k s)) u q) (v, snd p).
Proof.
  intros D n k grad before after x dt u p G Hk S. cbv zeta.
  assert (Q : forall s (q : R * D), length s = (6 * k + 1)%nat ->
     bind (lift (deputies_f_shaped n (fst q) k s))
          (fun f => bind (lift (dot_shaped (vneg (grad s)) f)) (fun l => after s l u)) q =
     after s (dot (vneg (grad s)) (deputies_f n (fst q) k s)) u q).
  { intros s q L. destruct (proj2 (shaped_iff n (fst q) k s)) as [f E]; [unfold vec in *; lia|].
    pose proof (shaped_is _ _ _ _ _ E) as ->. unfold bind, lift. rewrite E.
    unfold dot_shaped. unfold vneg at 1. rewrite map_length, G.
    unfold vec in *. rewrite (deputies_f_length n (fst q) k s Hk), L, Nat.eqb_refl. reflexivity. }
  unfold bind in Q. unfold shaped_call, zoom, deputies_get_state, bind.
  destruct S as [L|L]; unfold vec in *; rewrite L.
  - replace (6 * k <? 6 * k + 1)%nat with true by (symmetry; apply Nat.ltb_lt; lia).
    rewrite Nat.eqb_refl. unfold put, ret, get, bind. cbv beta iota.
    destruct (before (x ++ [0]) (0, snd p)) as [[[]|e] q]; [|reflexivity].
    apply Q. rewrite app_length, L; reflexivity.
  - replace (6 * k + 1 <? 6 * k + 1)%nat with false by (symmetry; apply Nat.ltb_ge; lia).
    replace (6 * k + 1 =? 6 * k)%nat with false by (symmetry; apply Nat.eqb_neq; lia).
    unfold put, ret, get, bind. cbv beta iota.
    destruct (before x (fst p, snd p)) as [[[]|e] q]; [|reflexivity].
    apply Q. exact L.
Qed.
Print Assumptions C85_matching_partial.

(** Otherwise no call returns: a combined module for [k] deputies whose deputies' module was built
    for [num] raises for every state of [k] deputies, whatever its constraints and solver do. *)
Theorem C85_mismatch_raises :
  forall D b n num k grad before after x dt u (s : rta (R * D)) v s',
  (forall y, length (grad y) = length y) -> (1 <= k)%nat -> (1 <= num)%nat -> enable s = true -> state_of k x ->
  combined_filter b (shaped_call n num grad before after) k x dt u s = (Ok v, s') -> k = num.
Proof.
  intros D b n num k grad before after x dt u s v s' G Hk Hn En S H.
  unfold combined_filter in H. rewrite filter_control_enabled in H by auto.
  unfold combined_compute, zoom in H.
  destruct k as [|k]; [lia|]. cbn [combined_loop] in H. unfold bind at 1 in H.
  match type of H with context [shaped_call ?a ?b' ?c ?d ?e ?f ?g ?h ?i] =>
    destruct (shaped_call a b' c d e f g h i) as [[v0|e0] p0] eqn:E end; [|discriminate].
  clear H. assert (La : length (agent_state x 0) = length x).
  { unfold agent_state, slice. rewrite !app_length, !firstn_length, !skipn_length. unfold vec in *; lia. }
  assert (Q : forall y q w, bind (lift (deputies_f_shaped n (fst q) num y))
          (fun f => bind (lift (dot_shaped (vneg (grad y)) f)) (fun l => after y l (slice (3 * 0) (3 * 0 + 3) u))) q = (Ok w, p0) ->
          length y = (6 * num + 1)%nat).
  { intros y q w B. unfold bind at 1, lift in B.
    destruct (deputies_f_shaped n (fst q) num y) as [f|e] eqn:F; [|discriminate].
    pose proof (shaped_is _ _ _ _ _ F) as ->. unfold bind, dot_shaped in B.
    destruct (Nat.eqb_spec (length (vneg (grad y))) (length (deputies_f n (fst q) num y))) as [Hl|Hl]; [|discriminate].
    unfold vneg in Hl. rewrite map_length, G in Hl. rewrite Hl. apply deputies_f_length; auto. }
  unfold bind in Q. unfold shaped_call, zoom, deputies_get_state, bind in E.
  unfold vec in *. rewrite La in E.
  destruct (Nat.ltb_spec (length x) (6 * num + 1)) as [H|H]; unfold put, ret, get, bind in E; cbv beta iota in E.
  - match type of E with context [before ?a ?b'] => destruct (before a b') as [[[]|e] q] end; [|discriminate].
    apply Q in E. rewrite app_length, La in E. cbn [length] in E.
    destruct S as [L|L]; unfold vec in *; lia.
  - match type of E with context [before ?a ?b'] => destruct (before a b') as [[[]|e] q] end; [|discriminate].
    apply Q in E. rewrite La in E.
    destruct S as [L|L]; unfold vec in *; lia.
Qed.
Print Assumptions C85_mismatch_raises.

(** num_deputies does not reach the default deputies' module, which is built for five: a default
    combined module for any other number never returns a control. *)
Theorem C85_default_refuted :
  forall D b n k grad before after x dt u (s : rta (R * D)),
  (forall y, length (grad y) = length y) -> (1 <= k)%nat -> k <> 5%nat -> enable s = true -> state_of k x ->
  forall v s', combined_filter b (shaped_call n 5 grad before after) k x dt u s <> (Ok v, s').
Proof.
  intros D b n k grad before after x dt u s G Hk N En S v s' H. apply N.
  eapply C85_mismatch_raises in H; eauto; lia.
Qed.
Print Assumptions C85_default_refuted.

(** Non-vacuity: two deputies. *)
Example C85_case :
  let grad := fun y : vec => zeros (length y) in
  let before := fun (_ : vec) => ret (S := R * unit) tt in
  let after := fun (_ : vec) (_ : R) (u : vec) => ret (S := R * unit) u in
  (forall y, length (grad y) = length y) /\ state_of 2 (zeros 12) /\ state_of 2 (zeros 13) /\
  fst (combined_filter free (shaped_call 1 2 grad before after) 2 (zeros 13) 1 [1; 2; 3; 4; 5; 6] (rta_init (1, tt)))
    = Ok [1; 2; 3; 4; 5; 6] /\
  fst (combined_filter free (shaped_call 1 5 grad before after) 2 (zeros 13) 1 [1; 2; 3; 4; 5; 6] (rta_init (1, tt)))
    = Err TypeError.
Proof.
  cbv zeta. split; [intros y; apply repeat_length|]. split; [left; reflexivity|]. split; [right; reflexivity|].
  split; reflexivity.
Qed.

(** ** C86.  What is compiled. *)
Local Open Scope string_scope.
Definition barrier := "generate_barrier_constraint_mats".

(** Exactly the functions of the kind are decided on, each once. *)
Theorem C86_functions :
  forall k on given, map fst (fst (build_jit k on given)) = functions k.
Proof. intros [] [] [d|]; reflexivity. Qed.
Print Assumptions C86_functions.

(** With jit_enable False nothing is compiled, and the caller's dictionary is left alone. *)
Theorem C86_disabled :
  forall k given, Forall (fun p => snd p = false) (fst (build_jit k false given)) /\
  snd (build_jit k false given) = given.
Proof.
  intros k given. split.
  - destruct k, given; cbn; repeat constructor.
  - destruct given; reflexivity.
Qed.
Print Assumptions C86_disabled.

(** What the dictionary lists is obeyed. *)
Theorem C86_listed :
  forall k d f b, In f (functions k) -> dict_get d f = Ok b -> In (f, b) (fst (build_jit k true (Some d))).
Proof.
  intros k d f b F E.
  assert (G : forall v, get_or d f v = b) by (intros v; unfold get_or; rewrite E; auto).
  destruct k; cbn in F |- *; decompose [or] F; try contradiction; subst f;
    rewrite ?set_default_here, ?set_default_get by discriminate; rewrite G; auto 10.
Qed.
Print Assumptions C86_listed.

(** What it does not list has the documented default, except the two predictions of the implicit
    ASIF. *)
Theorem C86_documented_partial :
  forall k given f b, In (f, b) (documented k) ->
  (forall d, given = Some d -> ~ listed d f) ->
  (k = ImplicitAsif -> f <> "pred_state" /\ f <> "integrate") ->
  In (f, b) (fst (build_jit k true given)).
Proof.
  intros k given f b F U N.
  destruct given as [d|].
  - specialize (U d eq_refl).
    assert (G : forall v, get_or d f v = v) by (intros v; apply get_or_unlisted; auto).
    destruct k; cbn in F |- *; decompose [or] F; try contradiction;
      match goal with E : (_, _) = (f, b) |- _ => injection E as <- <- end;
      rewrite ?set_default_here, ?set_default_get by discriminate; rewrite ?G; auto 10;
      destruct (N eq_refl); congruence.
  - destruct k; cbn in F |- *; decompose [or] F; try contradiction;
      match goal with E : (_, _) = (f, b) |- _ => injection E as <- <- end; auto 10;
      destruct (N eq_refl); congruence.
Qed.
Print Assumptions C86_documented_partial.

(** The functions the documentation says nothing about; together with it this is all of them. *)
Theorem C86_undocumented :
  (forall k f, In f (functions k) <-> In f (map fst (documented k ++ undocumented k))) /\
  forall k given f b, In (f, b) (undocumented k) ->
  (forall d, given = Some d -> ~ listed d f) ->
  In (f, b) (fst (build_jit k true given)).
Proof.
  split; [intros k f; destruct k; cbn; tauto|].
  intros k given f b F U. destruct given as [d|].
  - specialize (U d eq_refl).
    assert (G : forall v, get_or d f v = v) by (intros v; apply get_or_unlisted; auto).
    destruct k; cbn in F |- *; decompose [or] F; try contradiction;
      match goal with E : (_, _) = (f, b) |- _ => injection E as <- <- end;
      rewrite ?set_default_here, ?set_default_get by discriminate; rewrite ?G; auto 10.
  - destruct k; cbn in F |- *; decompose [or] F; try contradiction;
      match goal with E : (_, _) = (f, b) |- _ => injection E as <- <- end; auto 10.
Qed.
Print Assumptions C86_undocumented.

(** Those two are documented as not compiled, and are compiled. *)
Theorem C86_documented_refuted :
  forall d, ~ listed d "pred_state" -> ~ listed d "integrate" ->
  In ("pred_state", false) (documented ImplicitAsif) /\ In ("integrate", false) (documented ImplicitAsif) /\
  In ("pred_state", true) (fst (build_jit ImplicitAsif true (Some d))) /\
  In ("integrate", true) (fst (build_jit ImplicitAsif true (Some d))).
Proof.
  intros d H K. cbn. rewrite !(set_default_get d) by discriminate.
  rewrite (get_or_unlisted d "pred_state"), (get_or_unlisted d "integrate") by auto. auto 10.
Qed.
Print Assumptions C86_documented_refuted.

(** Building a module leaves the caller's dictionary as it is, unless it is an implicit ASIF with
    compilation and the entry for the barrier rows is missing. *)
Theorem C86_dictionary_partial :
  forall k on d, (k = ImplicitAsif -> on = true -> listed d barrier) ->
  snd (build_jit k on (Some d)) = Some d.
Proof.
  intros k on d H. destruct on; [|reflexivity]. destruct k; try reflexivity.
  cbn. rewrite set_default_listed; auto.
Qed.
Print Assumptions C86_dictionary_partial.

(** In that case it adds an entry, which changes what a later module compiles. *)
Theorem C86_dictionary_refuted :
  forall d, ~ listed d barrier ->
  exists d', snd (build_jit ImplicitAsif true (Some d)) = Some d' /\ dict_get d' barrier = Ok false /\
  In (barrier, true) (fst (build_jit ExplicitAsif true (Some d))) /\
  In (barrier, false) (fst (build_jit ExplicitAsif true (Some d'))).
Proof.
  intros d H. eexists. split; [reflexivity|].
  assert (E : dict_get (set_default d barrier false) barrier = Ok false).
  { unfold set_default. destruct (dict_get d barrier) as [b|e] eqn:E.
    - exfalso; apply H; apply get_listed; eauto.
    - rewrite get_dict_set, String.eqb_refl; auto. }
  split; [exact E|]. split.
  - cbn. fold barrier. rewrite (get_or_unlisted d barrier) by auto. auto.
  - cbn. fold barrier. unfold get_or at 1. rewrite E. auto.
Qed.
Print Assumptions C86_dictionary_refuted.

(** Modules built one after the other with one dictionary: an explicit ASIF compiles its barrier
    rows exactly if the dictionary says so, or says nothing and no implicit ASIF with compilation
    was built before. *)
Lemma build_all_cons k on ks d :
  build_all ((k, on) :: ks) d =
  let d' := if on then snd (compose_kind k on d) else d in
  (fst (build_jit k on (Some d)) :: fst (build_all ks d'), snd (build_all ks d')).
Proof.
  cbn [build_all]. unfold build_jit. destruct on; cbn [fst snd];
    destruct (build_all ks _) as [cs d2]; reflexivity.
Qed.
Theorem C86_built_in_sequence :
  forall ks d j c, nth_error ks j = Some (ExplicitAsif, true) -> nth_error (fst (build_all ks d)) j = Some c ->
  (In (barrier, true) c <->
   dict_get d barrier = Ok true \/
   (~ listed d barrier /\ forall i, (i < j)%nat -> nth_error ks i <> Some (ImplicitAsif, true))).
Proof.
  induction ks as [|[k on] ks IH]; intros d j c K C; [destruct j; discriminate|].
  rewrite build_all_cons in C. cbv zeta in C. cbn [fst] in C. destruct j as [|j].
  - cbn in K. injection K as -> ->. cbn [nth_error] in C. injection C as <-. cbn. fold barrier.
    assert (D : listed d barrier \/ ~ listed d barrier)
      by (unfold listed; destruct (in_dec String.string_dec barrier (map fst d)); auto).
    split.
    + intros [H|[H|[]]]; [|discriminate]. injection H as H.
      destruct D as [D|D]; [left|right; split; auto; intros; lia].
      apply get_listed in D. destruct D as [b E]. unfold get_or in H; rewrite E in H |- *; congruence.
    + intros [H|[H _]]; left.
      * unfold get_or; rewrite H; auto.
      * rewrite get_or_unlisted; auto.
  - cbn in K. cbn [nth_error] in C. specialize (IH _ j c K C). rewrite IH.
    destruct on; cbn [compose_kind].
    + destruct k; cbn [compose_kind snd implicit_asif_compose].
      * split; (intros [H|[H H2]]; [left; auto|right; split; auto]).
        -- intros [|i] L; cbn; [congruence|apply H2; lia].
        -- intros i L. apply (H2 (S i)); lia.
      * fold barrier. unfold set_default. destruct (dict_get d barrier) as [b|e] eqn:E.
        -- split; (intros [H|[H H2]]; [left; congruence|exfalso; apply H; apply get_listed; eauto]).
        -- split.
           ++ intros [H|[H H2]].
              ** rewrite get_dict_set, String.eqb_refl in H; discriminate.
              ** exfalso. apply H. apply dict_set_listed; auto.
           ++ intros [H|[H H2]]; [discriminate|]. exfalso. apply (H2 0%nat); [lia|reflexivity].
      * split; (intros [H|[H H2]]; [left; auto|right; split; auto]).
        -- intros [|i] L; cbn; [congruence|apply H2; lia].
        -- intros i L. apply (H2 (S i)); lia.
      * split; (intros [H|[H H2]]; [left; auto|right; split; auto]).
        -- intros [|i] L; cbn; [congruence|apply H2; lia].
        -- intros i L. apply (H2 (S i)); lia.
    + split; (intros [H|[H H2]]; [left; auto|right; split; auto]).
      * intros [|i] L; cbn; [congruence|apply H2; lia].
      * intros i L. apply (H2 (S i)); lia.
Qed.
Print Assumptions C86_built_in_sequence.

(** Nothing else depends on the modules built before. *)
Theorem C86_sequence_otherwise_unaffected :
  forall ks d j k on c, nth_error ks j = Some (k, on) -> nth_error (fst (build_all ks d)) j = Some c ->
  forall f b, f <> barrier \/ k <> ExplicitAsif ->
  (In (f, b) c <-> In (f, b) (fst (build_jit k on (Some d)))).
Proof.
  induction ks as [|[k0 on0] ks IH]; intros d j k on c K C f b N; [destruct j; discriminate|].
  rewrite build_all_cons in C. cbv zeta in C. cbn [fst] in C. destruct j as [|j].
  - cbn in K. injection K as -> ->. cbn [nth_error] in C. injection C as <-. tauto.
  - cbn in K. cbn [nth_error] in C. specialize (IH _ j k on c K C f b N). rewrite IH.
    destruct on0; [|tauto]. destruct k0; try tauto. cbn [compose_kind implicit_asif_compose snd].
    fold barrier. destruct on.
    + assert (G : forall g v, g <> barrier -> get_or (set_default d barrier false) g v = get_or d g v)
        by (intros; apply set_default_get; auto).
      destruct k; unfold build_jit, compose_kind, implicit_asif_compose; fold barrier;
        rewrite ?set_default_twice; cbn [fst snd asif_compose simplex_compose implicit_simplex_compose app andb In];
        fold barrier; rewrite ?(G "update_ineq_mats"), ?(G "constraint_violation"), ?(G "pred_state"), ?(G "integrate"),
          ?(G "jacobian") by discriminate; try tauto.
      split; (intros [H|[H|[]]]; [injection H as <- _; destruct N; congruence|auto]).
    + destruct k; cbn; tauto.
Qed.
Print Assumptions C86_sequence_otherwise_unaffected.

(** Non-vacuity: an implicit ASIF between two explicit ones, with one dictionary. *)
Example C86_case :
  fst (build_all [(ExplicitAsif, true); (ImplicitAsif, true); (ExplicitAsif, true)] [("update_ineq_mats", false)]) =
  [[(barrier, true); ("update_ineq_mats", false)];
   [("jacobian", true); ("generate_ineq_constraint_mats", true); ("pred_state", true); ("integrate", true);
    (barrier, false); ("update_ineq_mats", false)];
   [(barrier, false); ("update_ineq_mats", false)]].
Proof. reflexivity. Qed.
