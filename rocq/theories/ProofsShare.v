(** Lemmas for C84 to C86. *)
From Coq Require Import String Reals List Bool ZArith Lia Lra.
From Verif Require Import Prelude Vec ModelBase ModelAsif ModelCwh ModelInspect ModelShare SpecShare.
Import ListNotations.

Lemma set_at_length {A} i (a : A) l : length (set_at i a l) = length l.
Proof. revert i; induction l as [|b l IH]; intros [|i]; cbn; auto. Qed.
Lemma set_at_same {A} i (a : A) l : (i < length l)%nat -> nth_error (set_at i a l) i = Some a.
Proof. revert i; induction l as [|b l IH]; intros [|i] H; cbn in *; try lia; auto. apply IH; lia. Qed.
Lemma set_at_other {A} i j (a : A) l : i <> j -> nth_error (set_at i a l) j = nth_error l j.
Proof. revert i j; induction l as [|b l IH]; intros [|i] [|j] H; cbn; auto; try congruence. Qed.
Lemma set_at_map {A B} (f : A -> B) i a l :
  (forall b, nth_error l i = Some b -> f a = f b) -> map f (set_at i a l) = map f l.
Proof.
  revert i; induction l as [|b l IH]; intros [|i] H; cbn; auto.
  - rewrite (H b); auto.
  - rewrite IH; auto.
Qed.

Lemma call_ref {D} (step : vec -> R -> vec -> M D vec) c d x dt u :
  cm_ref (fst (snd (call_on step c d x dt u))) = cm_ref c.
Proof. unfold call_on. destruct (combined_filter _ _ _ _ _ _ _) as [r s]. reflexivity. Qed.

(** Two worlds look alike to module [i], whose deputies' module is object [r]: the same number of
    objects, the same references, the same module [i] and the same object [r]. *)
Record alike {D} (i r : nat) (w w' : world D) : Prop := mkAlike {
  al_refs : map cm_ref (w_modules w) = map cm_ref (w_modules w');
  al_mod : nth_error (w_modules w) i = nth_error (w_modules w') i;
  al_len : length (w_deputies w) = length (w_deputies w');
  al_dep : nth_error (w_deputies w) r = nth_error (w_deputies w') r }.
Arguments al_refs {D i r w w'}.
Arguments al_mod {D i r w w'}.
Arguments al_len {D i r w w'}.
Arguments al_dep {D i r w w'}.

(** Module [i] alone uses object [r]. *)
Definition only_user (i r : nat) (refs : list nat) : Prop :=
  forall j, nth_error refs j = Some r -> j = i.

Lemma alike_length {D} i r (w w' : world D) : alike i r w w' -> length (w_modules w) = length (w_modules w').
Proof. intros A. pose proof (f_equal (@length nat) (al_refs A)) as H. rewrite !map_length in H; auto. Qed.

Lemma alike_refl {D} i r (w : world D) : alike i r w w.
Proof. split; auto. Qed.
Lemma alike_trans {D} i r (w1 w2 w3 : world D) : alike i r w1 w2 -> alike i r w2 w3 -> alike i r w1 w3.
Proof. intros [] []; split; congruence. Qed.
Lemma alike_sym {D} i r (w1 w2 : world D) : alike i r w1 w2 -> alike i r w2 w1.
Proof. intros []; split; congruence. Qed.

Lemma nth_map {A B} (f : A -> B) l j : nth_error (map f l) j = option_map f (nth_error l j).
Proof. revert j; induction l; intros [|j]; cbn; auto. Qed.

(** An operation that does not concern module [i] leaves the world alike. *)
Lemma step_other {D} (step : vec -> R -> vec -> M D vec) i r o w :
  only_user i r (map cm_ref (w_modules w)) -> concerns i o = false ->
  alike i r w (snd (share_step step o w)).
Proof.
  intros U C. destruct o as [d|num b dep|j x dt u|j|j e|j f]; cbn in C; try discriminate;
    apply Nat.eqb_neq in C; cbn [share_step];
    (destruct (nth_error (w_modules w) j) as [c|] eqn:E; [|apply alike_refl]).
  - destruct (nth_error (w_deputies w) (cm_ref c)) as [d|] eqn:F; [|apply alike_refl].
    destruct (call_on step c d x dt u) as [a [c' d']] eqn:G.
    pose proof (call_ref step c d x dt u) as K. rewrite G in K; cbn in K.
    assert (N : cm_ref c <> r).
    { intros <-. apply C. apply U. rewrite nth_map, E; reflexivity. }
    split; cbn.
    + symmetry; apply set_at_map. intros b H. rewrite E in H; injection H as <-; auto.
    + rewrite set_at_other; auto.
    + rewrite set_at_length; auto.
    + rewrite set_at_other; auto.
  - split; cbn; auto.
    + symmetry; apply set_at_map. intros b H. rewrite E in H; injection H as <-; auto.
    + rewrite set_at_other; auto.
  - split; cbn; auto.
    + symmetry; apply set_at_map. intros b H. rewrite E in H; injection H as <-; auto.
    + rewrite set_at_other; auto.
  - destruct (nth_error (w_deputies w) (cm_ref c)) as [d|] eqn:F; [|apply alike_refl].
    assert (N : cm_ref c <> r).
    { intros <-. apply C. apply U. rewrite nth_map, E; reflexivity. }
    split; cbn; auto.
    + rewrite set_at_length; auto.
    + rewrite set_at_other; auto.
Qed.

(** The references after an operation: only building adds one. *)
Lemma step_refs {D} (step : vec -> R -> vec -> M D vec) o w :
  map cm_ref (w_modules (snd (share_step step o w))) =
  map cm_ref (w_modules w) ++ map (fun dep => match dep with Some r => r | None => default_ref end) (given_deputies [o]).
Proof.
  destruct o as [d|num b dep|j x dt u|j|j e|j f]; cbn; rewrite ?app_nil_r; auto.
  - rewrite map_app; auto.
  - destruct (nth_error (w_modules w) j) as [c|] eqn:E; [|auto].
    destruct (nth_error (w_deputies w) (cm_ref c)) as [d|] eqn:F; [|auto].
    destruct (call_on step c d x dt u) as [a [c' d']] eqn:G.
    pose proof (call_ref step c d x dt u) as K. rewrite G in K; cbn in K. cbn.
    apply set_at_map. intros b H. rewrite E in H; injection H as <-; auto.
  - destruct (nth_error (w_modules w) j) as [c|] eqn:E; [|auto]. cbn.
    apply set_at_map. intros b H. rewrite E in H; injection H as <-; auto.
  - destruct (nth_error (w_modules w) j) as [c|] eqn:E; [|auto]. cbn.
    apply set_at_map. intros b H. rewrite E in H; injection H as <-; auto.
  - destruct (nth_error (w_modules w) j) as [c|] eqn:E; [|auto].
    destruct (nth_error (w_deputies w) (cm_ref c)) as [d|] eqn:F; auto.
Qed.


(** An operation that concerns module [i] has the same result on worlds that are alike. *)
Lemma step_same {D} (step : vec -> R -> vec -> M D vec) i r o (w w' : world D) :
  (forall c, nth_error (w_modules w) i = Some c -> cm_ref c = r) ->
  alike i r w w' -> concerns i o = true ->
  fst (share_step step o w) = fst (share_step step o w') /\
  alike i r (snd (share_step step o w)) (snd (share_step step o w')).
Proof.
  intros U A C. pose proof (alike_length _ _ _ _ A) as L.
  destruct o as [d|num b dep|j x dt u|j|j e|j f]; cbn in C; try (apply Nat.eqb_eq in C; subst j); cbn [share_step].
  - split; auto. destruct A as [A1 A2 A3 A4]. split; cbn; auto.
    + rewrite !app_length; cbn; lia.
    + destruct (Nat.lt_ge_cases r (length (w_deputies w))) as [H|H].
      * rewrite !nth_error_app1 by lia; auto.
      * rewrite !nth_error_app2 by lia. rewrite A3; auto.
  - split; auto. destruct A as [A1 A2 A3 A4]. split; cbn; auto.
    + rewrite !map_app, A1; auto.
    + destruct (Nat.lt_ge_cases i (length (w_modules w))) as [H|H].
      * rewrite !nth_error_app1 by lia; auto.
      * rewrite !nth_error_app2 by lia. rewrite L; auto.
  - rewrite <- (al_mod A). destruct (nth_error (w_modules w) i) as [c|] eqn:E; [|split; auto].
    rewrite (U c eq_refl) in *. rewrite <- (al_dep A).
    destruct (nth_error (w_deputies w) r) as [d|] eqn:F; [|split; auto].
    destruct (call_on step c d x dt u) as [a [c' d']] eqn:G.
    pose proof (call_ref step c d x dt u) as K. rewrite G in K; cbn in K.
    assert (E' : nth_error (w_modules w') i = Some c) by (rewrite <- (al_mod A); auto).
    assert (F' : nth_error (w_deputies w') r = Some d) by (rewrite <- (al_dep A); auto).
    split; [reflexivity|]. split; cbn.
    + rewrite !set_at_map; [exact (al_refs A)| |]; intros b H; congruence.
    + rewrite !set_at_same; auto; apply nth_error_Some; congruence.
    + rewrite !set_at_length; apply A.
    + rewrite !set_at_same; auto; apply nth_error_Some; congruence.
  - rewrite <- (al_mod A). destruct (nth_error (w_modules w) i) as [c|] eqn:E; [|split; auto].
    assert (E' : nth_error (w_modules w') i = Some c) by (rewrite <- (al_mod A); auto).
    split; [reflexivity|]. split; cbn; try apply A.
    + rewrite !set_at_map; [exact (al_refs A)| |]; intros b H; cbn; congruence.
    + rewrite !set_at_same; auto; apply nth_error_Some; congruence.
  - rewrite <- (al_mod A). destruct (nth_error (w_modules w) i) as [c|] eqn:E; [|split; auto].
    assert (E' : nth_error (w_modules w') i = Some c) by (rewrite <- (al_mod A); auto).
    split; [reflexivity|]. split; cbn; try apply A.
    + rewrite !set_at_map; [exact (al_refs A)| |]; intros b H; cbn; congruence.
    + rewrite !set_at_same; auto; apply nth_error_Some; congruence.
  - rewrite <- (al_mod A). destruct (nth_error (w_modules w) i) as [c|] eqn:E; [|split; auto].
    rewrite (U c eq_refl) in *. rewrite <- (al_dep A).
    destruct (nth_error (w_deputies w) r) as [d|] eqn:F; [|split; auto].
    assert (F' : nth_error (w_deputies w') r = Some d) by (rewrite <- (al_dep A); auto).
    split; [reflexivity|]. split; cbn; try apply A.
    + rewrite !set_at_length; apply A.
    + rewrite !set_at_same; auto; apply nth_error_Some; congruence.
Qed.

Lemma run_cons {D} (step : vec -> R -> vec -> M D vec) o os w :
  share_run step (o :: os) w =
  (match fst (share_step step o w) with
   | Some a => (called o, a) :: fst (share_run step os (snd (share_step step o w)))
   | None => fst (share_run step os (snd (share_step step o w))) end,
   snd (share_run step os (snd (share_step step o w)))).
Proof. cbn. destruct (share_step step o w) as [r w1]; cbn. destruct (share_run step os w1); auto. Qed.

Lemma run_app {D} (step : vec -> R -> vec -> M D vec) os1 os2 w :
  share_run step (os1 ++ os2) w =
  (fst (share_run step os1 w) ++ fst (share_run step os2 (snd (share_run step os1 w))),
   snd (share_run step os2 (snd (share_run step os1 w)))).
Proof.
  revert w; induction os1 as [|o os1 IH]; intros w.
  - cbn. destruct (share_run step os2 w); auto.
  - rewrite <- app_comm_cons, !run_cons, IH. cbn [fst snd].
    destruct (fst (share_step step o w)); reflexivity.
Qed.

Lemma answers_cons {D} (step : vec -> R -> vec -> M D vec) i o os w :
  answers i (fst (share_run step (o :: os) w)) =
  (match fst (share_step step o w) with
   | Some a => if Nat.eqb (called o) i then [a] else []
   | None => [] end) ++ answers i (fst (share_run step os (snd (share_step step o w)))).
Proof.
  rewrite run_cons; cbn [fst]. destruct (fst (share_step step o w)) as [a|]; auto.
  unfold answers; cbn. destruct (Nat.eqb (called o) i); auto.
Qed.

Lemma other_silent {D} (step : vec -> R -> vec -> M D vec) i o w :
  concerns i o = false ->
  match fst (share_step step o w) with Some a => if Nat.eqb (called o) i then [a] else [] | None => [] end = [].
Proof.
  intros C. destruct o as [d|num b dep|j x dt u|j|j e|j f]; cbn in C; try discriminate; cbn [called];
    try (destruct (fst _); [|auto]; rewrite C; auto);
    cbn; destruct (nth_error (w_modules w) j) as [c|]; auto;
    destruct (nth_error (w_deputies w) (cm_ref c)); auto.
Qed.

(** The references at the end of a program. *)
Lemma given_cons {D} (o : share_op D) os : given_deputies (o :: os) = given_deputies [o] ++ given_deputies os.
Proof. destruct o; reflexivity. Qed.
Lemma run_refs {D} (step : vec -> R -> vec -> M D vec) os w :
  map cm_ref (w_modules (snd (share_run step os w))) = map cm_ref (w_modules w) ++ map object_of (given_deputies os).
Proof.
  revert w; induction os as [|o os IH]; intros w; [cbn; rewrite app_nil_r; auto|].
  rewrite run_cons; cbn [snd]. rewrite IH, step_refs, (given_cons o os), map_app, app_assoc; reflexivity.
Qed.

Lemma only_user_prefix i r l l' : only_user i r (l ++ l') -> only_user i r l.
Proof.
  intros U j H. apply U. rewrite nth_error_app1; auto. apply nth_error_Some; congruence.
Qed.

Lemma noninterference {D} (step : vec -> R -> vec -> M D vec) i r os : forall w w',
  only_user i r (map cm_ref (w_modules w) ++ map object_of (given_deputies os)) ->
  (forall r', nth_error (map cm_ref (w_modules w) ++ map object_of (given_deputies os)) i = Some r' -> r' = r) ->
  alike i r w w' ->
  answers i (fst (share_run step os w)) = answers i (fst (share_run step (filter (concerns i) os) w')) /\
  alike i r (snd (share_run step os w)) (snd (share_run step (filter (concerns i) os) w')).
Proof.
  induction os as [|o os IH]; intros w w' U V A; [split; auto|].
  assert (W : only_user i r (map cm_ref (w_modules w))) by (eapply only_user_prefix; eauto).
  assert (V' : forall c, nth_error (w_modules w) i = Some c -> cm_ref c = r).
  { intros c H. apply V. rewrite nth_error_app1.
    - rewrite nth_map, H; auto.
    - rewrite map_length. apply nth_error_Some; congruence. }
  assert (R' : map cm_ref (w_modules (snd (share_step step o w))) ++ map object_of (given_deputies os) =
               map cm_ref (w_modules w) ++ map object_of (given_deputies (o :: os))).
  { rewrite step_refs, (given_cons o os), map_app, app_assoc; reflexivity. }
  cbn [filter]. destruct (concerns i o) eqn:C.
  - destruct (step_same step i r o w w' V' A C) as [S1 S2].
    rewrite !answers_cons, <- S1, !run_cons; cbn [snd].
    destruct (IH (snd (share_step step o w)) (snd (share_step step o w'))) as [I1 I2].
    + rewrite R'; auto.
    + rewrite R'; auto.
    + auto.
    + rewrite I1; split; auto.
  - rewrite answers_cons, other_silent, run_cons by auto. cbn [snd app].
    apply IH; try (rewrite R'; auto).
    eapply alike_trans; [apply alike_sym; apply (step_other step i r o w W C)|exact A].
Qed.

(** Doing something to the deputies' module of [j] is doing it to that of [i] if they are one. *)
Lemma same_deputy {D} (step : vec -> R -> vec -> M D vec) i j f (w : world D) r :
  nth_error (map cm_ref (w_modules w)) i = Some r -> nth_error (map cm_ref (w_modules w)) j = Some r ->
  share_step step (DeputyOn i f) w = share_step step (DeputyOn j f) w.
Proof.
  rewrite !nth_map. cbn. intros H K.
  destruct (nth_error (w_modules w) i) as [c|]; [|discriminate].
  destruct (nth_error (w_modules w) j) as [c'|]; [|discriminate].
  cbn in H, K. injection H as H; injection K as K. rewrite H, K; reflexivity.
Qed.

(** ** Compilation *)
Lemma get_or_listed (d : dict bool) k v v' : listed d k -> get_or d k v = get_or d k v'.
Proof.
  unfold get_or, listed. induction d as [|[k' b] d IH]; cbn; [tauto|].
  intros [H|H]; destruct (String.eqb_spec k k'); auto; congruence.
Qed.
Lemma get_or_unlisted (d : dict bool) k v : ~ listed d k -> get_or d k v = v.
Proof.
  unfold get_or, listed. induction d as [|[k' b] d IH]; cbn; auto.
  intros N. destruct (String.eqb_spec k k') as [->|H]; [tauto|]. apply IH; tauto.
Qed.
Lemma get_listed (d : dict bool) k : listed d k <-> exists b, dict_get d k = Ok b.
Proof.
  unfold listed. induction d as [|[k' b] d IH]; cbn.
  - split; [tauto|intros [b H]; discriminate].
  - destruct (String.eqb_spec k k') as [->|N]; [split; eauto|].
    rewrite <- IH. split; [intros [H|H]; congruence || auto|auto].
Qed.
Lemma dict_set_listed (d : dict bool) k v k' : listed (dict_set d k v) k' <-> listed d k' \/ k' = k.
Proof.
  unfold listed. induction d as [|[k0 b] d IH]; cbn.
  - split; intros [H|H]; auto; try tauto.
  - destruct (String.eqb_spec k k0) as [->|N]; cbn; [|rewrite IH]; intuition congruence.
Qed.
Lemma get_dict_set (d : dict bool) k v k' :
  dict_get (dict_set d k v) k' = if String.eqb k' k then Ok v else dict_get d k'.
Proof.
  induction d as [|[k0 b] d IH]; cbn; auto.
  destruct (String.eqb_spec k k0) as [->|N]; cbn.
  - destruct (String.eqb_spec k' k0); auto.
  - destruct (String.eqb_spec k' k0) as [->|M]; auto.
    destruct (String.eqb_spec k0 k); congruence.
Qed.
Lemma set_default_get (d : dict bool) k v k' w :
  k' <> k -> get_or (set_default d k v) k' w = get_or d k' w.
Proof.
  intros N. unfold set_default. destruct (dict_get d k); auto.
  unfold get_or. rewrite get_dict_set. apply String.eqb_neq in N; rewrite N; auto.
Qed.
Lemma set_default_here (d : dict bool) k v w : get_or (set_default d k v) k w = get_or d k v.
Proof.
  unfold set_default. destruct (dict_get d k) as [b|e] eqn:E.
  - unfold get_or; rewrite E; auto.
  - unfold get_or at 1. rewrite get_dict_set, String.eqb_refl. unfold get_or; rewrite E; auto.
Qed.
Lemma set_default_listed (d : dict bool) k v : listed d k -> set_default d k v = d.
Proof. intros H. apply get_listed in H; destruct H as [b H]. unfold set_default; rewrite H; auto. Qed.

(** ** Shapes *)
Local Open Scope R_scope.
Lemma stack_length n i : length (stack_a (cwh_a3 n) i) = (6 * (i + 1))%nat.
Proof.
  induction i as [|i IH]; [reflexivity|]. cbn [stack_a]. unfold block_diag.
  rewrite app_length, !map_length. unfold vec, mat in *. rewrite IH.
  change (length (cwh_a3 n)) with 6%nat. lia.
Qed.
Lemma deputies_f_length n v num x : (1 <= num)%nat -> length (deputies_f n v num x) = (6 * num + 1)%nat.
Proof.
  intros H. unfold deputies_f. rewrite app_length. unfold mv; rewrite map_length.
  transitivity (6 * (num - 1 + 1) + 1)%nat; [|lia].
  exact (f_equal (fun a => (a + 1)%nat) (stack_length n (num - 1))).
Qed.
Lemma shaped_iff n v num x :
  (exists f, deputies_f_shaped n v num x = Ok f) <-> (6 * num <= length x)%nat.
Proof.
  unfold deputies_f_shaped, slice. rewrite skipn_O, Nat.sub_0_r, firstn_length.
  destruct (Nat.eqb_spec (Nat.min (num * 6) (length x)) (num * 6)) as [H|H].
  - split; [lia|eauto].
  - split; [intros [f E]; discriminate|lia].
Qed.
Lemma shaped_is n v num x f : deputies_f_shaped n v num x = Ok f -> f = deputies_f n v num x.
Proof. unfold deputies_f_shaped. destruct (_ =? _)%nat; congruence. Qed.
Lemma set_default_twice (d : dict bool) k v v' : set_default (set_default d k v) k v' = set_default d k v.
Proof.
  apply set_default_listed. apply get_listed. unfold set_default.
  destruct (dict_get d k) as [b|e] eqn:E; [eauto|].
  rewrite get_dict_set, String.eqb_refl; eauto.
Qed.
