(** Proofs about the module for several deputies, and about the names and strengtheners. *)
From Coq Require Import String Reals List Bool ZArith Lia Lra Ratan DecimalString DecimalNat.
From Verif Require Import Prelude Vec ModelBase ModelController ModelSimplex ModelAsif ModelConstraint ModelCwh ModelConic ModelZoo
  SpecConstraint SpecCwh SpecConic SpecZoo ProofsCwh ProofsConic ProofsConic2 PropertiesConstraint ProofsZoo.
Import ListNotations.
Local Open Scope R_scope.

(** ** Names *)
Lemma dict_set_fresh {V} (d : dict V) k v : ~ In k (map fst d) -> dict_set d k v = d ++ [(k, v)].
Proof.
  induction d as [|[k' v'] d IH]; intros H; [reflexivity|]. cbn in *.
  destruct (String.eqb_spec k k') as [->|N]; [tauto|]. rewrite IH by tauto. reflexivity.
Qed.

Lemma append_inj w a b : (w ++ a)%string = (w ++ b)%string -> a = b.
Proof. induction w as [|c w IH]; cbn; intros H; [exact H|]. injection H; auto. Qed.

Lemma to_uint_nonnil n : Nat.to_uint n <> Decimal.Nil.
Proof.
  intros E. assert (H : Nat.of_uint (Nat.to_uint n) = n) by apply DecimalNat.Unsigned.of_to.
  rewrite E in H. cbn in H. subst n. discriminate.
Qed.

Lemma numbered_inj w i j : numbered w i = numbered w j -> i = j.
Proof.
  intros H. apply append_inj in H. apply (f_equal NilZero.uint_of_string) in H.
  rewrite !NilZero.usu in H by apply to_uint_nonnil. injection H as H.
  apply DecimalNat.Unsigned.to_uint_inj; exact H.
Qed.

Definition kinds : list string := ["deputy_collision_"; "deputy_sun_"; "deputy_PSM_"]%string.
Definition base_names : list string :=
  ["chief_collision"; "rel_vel"; "chief_sun"; "r_max"; "PSM"; "x_vel"; "y_vel"; "z_vel"]%string.

Lemma numbered_inj2 w w' i j : In w kinds -> In w' kinds -> numbered w i = numbered w' j -> w = w' /\ i = j.
Proof.
  intros A B H. destruct A as [<-|[<-|[<-|[]]]], B as [<-|[<-|[<-|[]]]];
    solve [split; [reflexivity|exact (numbered_inj _ _ _ H)] | discriminate].
Qed.
Lemma numbered_base w i : In w kinds -> ~ In (numbered w i) base_names.
Proof.
  intros A B. destruct A as [<-|[<-|[<-|[]]]]; cbn in B;
    repeat (destruct B as [B|B]; [discriminate|]); exact B.
Qed.

(** The three entries of one deputy. *)
Definition deputy_entries (nan : R) (c : insp_cfg) (i : nat) : dict (constraint vec zparams) :=
  [ (numbered "deputy_collision_" i,
     wrap ZDist as_dist (deputy_collision (i_deputy c * 2) (i_a_max c) i None kw_default));
    (numbered "deputy_sun_" i,
     wrap ZCone as_cone
      (conic nan (get_p1_p2 i) (get_v1_v2 i) last_sun_vector [0; 0; i_sun_vel c] (i_a_max c) (i_fov c)
         (Some (polynomial (Some [0; 0; 0; 1 / 10]))) (with_bias (- (1 / 1000)))));
    (numbered "deputy_PSM_" i,
     wrap ZPsm as_psm (psm_deputy (i_chief c + i_deputy c) (i_n c) 1 100 i None kw_default)) ].

Lemma add_deputy_fresh nan c d i : (forall w, In w kinds -> ~ In (numbered w i) (map fst d)) ->
  add_deputy nan c d i = d ++ deputy_entries nan c i.
Proof.
  intros F. unfold add_deputy, deputy_entries.
  assert (K1 : In "deputy_collision_"%string kinds) by (cbn; tauto).
  assert (K2 : In "deputy_sun_"%string kinds) by (cbn; tauto).
  assert (K3 : In "deputy_PSM_"%string kinds) by (cbn; tauto).
  rewrite (dict_set_fresh d) by exact (F _ K1). rewrite (dict_set_fresh (d ++ _) (numbered "deputy_sun_" i)).
  2:{ rewrite map_app, in_app_iff. cbn [map fst In]. intros [H|[H|[]]]; [exact (F _ K2 H)|].
      destruct (numbered_inj2 _ _ _ _ K1 K2 H); discriminate. }
  rewrite dict_set_fresh.
  2:{ rewrite !map_app, !in_app_iff. cbn [map fst In]. intros [[H|[H|[]]]|[H|[]]]; [exact (F _ K3 H)| |].
      - destruct (numbered_inj2 _ _ _ _ K1 K3 H); discriminate.
      - destruct (numbered_inj2 _ _ _ _ K2 K3 H); discriminate. }
  rewrite <- !app_assoc. reflexivity.
Qed.

Lemma deputy_entries_names nan c i : map fst (deputy_entries nan c i) = map (fun w => numbered w i) kinds.
Proof. reflexivity. Qed.

Lemma add_deputies nan c l : NoDup l -> forall d,
  (forall w i, In w kinds -> In i l -> ~ In (numbered w i) (map fst d)) ->
  fold_left (add_deputy nan c) l d = d ++ flat_map (deputy_entries nan c) l.
Proof.
  induction 1 as [|i l N _ IH]; intros d F; cbn [fold_left flat_map]; [rewrite app_nil_r; reflexivity|].
  rewrite add_deputy_fresh by (intros; apply F; [assumption|left; reflexivity]).
  rewrite IH, app_assoc; [reflexivity|].
  intros w j Hw Hj. rewrite map_app, in_app_iff, deputy_entries_names. intros [H|H].
  - exact (F w j Hw (or_intror Hj) H).
  - apply in_map_iff in H. destruct H as (w' & E & Hw').
    destruct (numbered_inj2 _ _ _ _ Hw' Hw E) as [_ ->]. exact (N Hj).
Qed.

Definition deputies_base (nan : R) (c : insp_cfg) : dict (constraint vec zparams) :=
  [ ("chief_collision"%string, wrap ZDist as_dist (chief_collision (i_chief c + i_deputy c) (i_a_max c) None kw_default));
    ("rel_vel"%string, wrap ZRv as_rv
      (rel_vel_3d (i_v0 c) (i_v1 c) (i_v0_distance c) rv_delta
         (Some (polynomial (Some [0; 0; 0; 1 / 10]))) (with_bias (- (2 / 1000)))));
    ("chief_sun"%string, sun_constraint nan c last_sun_vector None);
    ("r_max"%string, wrap ZDist as_dist (max_distance (i_r_max c) (i_a_max c) None kw_default));
    ("PSM"%string, wrap ZPsm as_psm (psm (i_chief c + i_deputy c) (i_n c) 1 100 None kw_default)) ]
  ++ vel_constraints (i_vel_limit c).

Lemma deputies_constraints_eq nan num c :
  deputies_constraints nan num c = deputies_base nan c ++ flat_map (deputy_entries nan c) (seq 1 (num - 1)).
Proof.
  unfold deputies_constraints. fold (deputies_base nan c). apply add_deputies; [apply seq_NoDup|].
  intros w i Hw _. change (map fst (deputies_base nan c)) with base_names. apply numbered_base; auto.
Qed.

(** ** Values *)
Section Values.
Variables (nan : R) (c : insp_cfg) (p v : point) (angle : R).
Hypothesis (Hn : i_n c <> 0) (Hf : 0 < i_fov c < PI) (Hl : 0 <= i_vel_limit c) (NZ : plen p <> 0).

Lemma deputies_base_iff others :
  Forall (phi_ok (deputies_state p v others angle)) (deputies_base nan c) <-> inspection_ok c p v angle.
Proof.
  unfold deputies_state. set (rest := concat _ ++ [angle]).
  assert (G : last_sun_vector (arr p ++ arr v ++ rest) = ModelConic.sun_vector angle).
  { unfold rest. rewrite !app_assoc. apply last_sun. }
  unfold deputies_base. rewrite Forall_app, !Forall_cons_iff, Forall_nil_iff.
  rewrite entry_rv, (entry_sun nan c p v rest angle), entry_range, entry_collision, entry_drift by assumption.
  rewrite vel_iff, ok_conj by assumption. tauto.
Qed.

Lemma flat_length (l : list (point * point)) : length (concat (map (fun d => arr (fst d) ++ arr (snd d)) l)) = (6 * length l)%nat.
Proof.
  induction l as [|[[[a b] e] [[f g] h]] l IH]; [reflexivity|]. cbn [map concat]. rewrite app_length, IH.
  cbn [fst snd arr app length]. lia.
Qed.

Lemma deputy_entries_iff ds1 q w ds2 : plen (psub p q) <> 0 ->
  Forall (phi_ok (deputies_state p v (ds1 ++ (q, w) :: ds2) angle)) (deputy_entries nan c (S (length ds1))) <->
  deputy_ok c (i_chief c + i_deputy c) p v q w angle.
Proof.
  intros NQ. unfold deputies_state. rewrite map_app, concat_app. cbn [map concat fst snd].
  set (mid := concat (map _ ds1)). set (rest := concat (map _ ds2)).
  assert (Lm : length mid = (6 * length ds1)%nat) by apply flat_length.
  assert (E : arr p ++ arr v ++ (mid ++ (arr q ++ arr w) ++ rest) ++ [angle] =
    ((arr p ++ arr v ++ mid) ++ arr q ++ arr w ++ rest) ++ [angle]) by (rewrite <- !app_assoc; reflexivity).
  rewrite E. unfold deputy_entries. rewrite !Forall_cons_iff, Forall_nil_iff. unfold phi_ok; cbn [snd].
  rewrite !wrap_phi by reflexivity. cbn [c_params deputy_collision conic psm_deputy new_constraint].
  rewrite deputy_collision_iff, deputy_sun_iff by assumption.
  pose proof (deputy_drift_iff (i_n c) (i_chief c + i_deputy c) (length ds1) None kw_default p v q w mid (rest ++ [angle]) Hn Lm) as D.
  assert (E2 : (arr p ++ arr v ++ mid) ++ arr q ++ arr w ++ rest ++ [angle] =
    ((arr p ++ arr v ++ mid) ++ arr q ++ arr w ++ rest) ++ [angle]) by (rewrite <- !app_assoc; reflexivity).
  unfold vec in *. rewrite E2 in D. rewrite D.
  rewrite (Rmult_comm (i_deputy c) 2).
  split; [intros (A & B & C & _); constructor; assumption|intros [A B C]; auto].
Qed.

Lemma deputies_iff others : (forall q w, In (q, w) others -> plen (psub p q) <> 0) ->
  Forall (phi_ok (deputies_state p v others angle)) (deputies_constraints nan (S (length others)) c) <->
  inspection_ok c p v angle /\
  forall q w, In (q, w) others -> deputy_ok c (i_chief c + i_deputy c) p v q w angle.
Proof.
  intros NQ. rewrite deputies_constraints_eq, Forall_app, deputies_base_iff.
  replace (S (length others) - 1)%nat with (length others) by lia.
  assert (K : Forall (phi_ok (deputies_state p v others angle)) (flat_map (deputy_entries nan c) (seq 1 (length others))) <->
    forall q w, In (q, w) others -> deputy_ok c (i_chief c + i_deputy c) p v q w angle); [|tauto].
  rewrite Forall_flat_map, Forall_forall. split.
  - intros H q w I. destruct (in_split _ _ I) as (ds1 & ds2 & E). subst others.
    apply (deputy_entries_iff ds1 q w ds2 (NQ q w I)). apply H. apply in_seq. rewrite app_length; cbn [length]. lia.
  - intros H i I. apply in_seq in I. destruct i as [|i]; [lia|].
    destruct (nth_error others i) as [[q w]|] eqn:E; [|apply nth_error_None in E; lia].
    destruct (nth_error_split _ _ E) as (ds1 & ds2 & -> & <-).
    apply deputy_entries_iff; [|apply H].
    + apply (NQ q w). apply in_elt.
    + apply in_elt.
Qed.
End Values.

(** ** Strengtheners *)
Lemma poly4 a b : 0 <= a -> 0 <= b -> 0 < a + b -> strengthens (polynomial (Some [0; a; 0; b])).
Proof.
  intros A B P.
  assert (O : odd_increasing [0; a; 0; b]).
  { split.
    - intros [|[|[|[|k]]]] r H; cbn in *; try (injection H as <-; lra). destruct k; discriminate.
    - destruct (Rlt_le_dec 0 a); [exists 1%nat, a|exists 3%nat, b]; split; try reflexivity; lra. }
  destruct (C29_valid_strengthener _ O) as [Z S].
  split; [exact Z|]. split; [exact S|]. intros x. unfold polynomial; cbn [poly_loop]. ring.
Qed.

Lemma ready_app {X P} (a b : dict (constraint X P)) :
  ready a -> ready b -> (forall k, In k (map fst a) -> ~ In k (map fst b)) -> ready (a ++ b).
Proof.
  intros [N A] [N' B] D. split.
  - rewrite map_app. clear A B. induction (map fst a) as [|k l IH]; [exact N'|].
    cbn. inversion N; subst. constructor.
    + rewrite in_app_iff. intros [H|H]; [contradiction|]. exact (D k (or_introl eq_refl) H).
    + apply IH; auto. intros j Hj. apply D. right; exact Hj.
  - intros name c I. apply in_app_iff in I. destruct I as [I|I]; eauto.
Qed.

Ltac poly := eexists; split; [reflexivity|apply poly4; lra].
Ltac one_ready :=
  match goal with
  | H : (_, _) = (_, ?c) |- _ =>
      injection H as <- <-; cbn [c_enabled c_slack c_bias c_alpha wrap sun_constraint rel_vel_2d rel_vel_3d
        magnitude_limit limit_alpha new_constraint conic psm psm_deputy dist_alpha max_distance chief_collision
        deputy_collision with_bias kw_default kw_enabled kw_slack kw_bias];
      split; [reflexivity|split; [reflexivity|split; [lra|poly]]]
  end.
Ltac names := repeat constructor; cbn; intuition discriminate.

Lemma docking_2d_ready c : ready (docking_constraints_2d c).
Proof.
  split; [names|]. intros name k I. cbn [docking_constraints_2d In] in I.
  repeat (destruct I as [I|I]; [one_ready|]). destruct I.
Qed.
Lemma docking_3d_ready c : ready (docking_constraints_3d c).
Proof.
  split; [names|]. intros name k I. cbn [docking_constraints_3d In] in I.
  repeat (destruct I as [I|I]; [one_ready|]). destruct I.
Qed.
Lemma discrete_ready nan c : ready (discrete_inspection_constraints nan c).
Proof.
  split; [names|]. intros name k I. cbn [discrete_inspection_constraints vel_constraints app In] in I.
  repeat (destruct I as [I|I]; [one_ready|]). destruct I.
Qed.
Lemma inspection_ready nan use_hocbf c cs : inspection_constraints nan use_hocbf c = Ok cs -> ready cs.
Proof.
  unfold inspection_constraints. set (base := _ ++ vel_constraints _). intros H.
  assert (D : forall name k, (name = "chief_collision" \/ name = "chief_collision_hocbf")%string ->
    dict_set base name k = base ++ [(name, k)]) by (intros name k [->| ->]; reflexivity).
  assert (B : ready base).
  { split; [names|]. intros name k I. unfold base in I. cbn [vel_constraints app In] in I.
    repeat (destruct I as [I|I]; [one_ready|]). destruct I. }
  destruct use_hocbf.
  - destruct (hocbf _ 2 _ _ _) as [h|] eqn:E in H; [|discriminate]. cbn [rbind] in H.
    match type of H with Ok ?a = Ok _ => assert (X : a = cs) by congruence end. rewrite <- X, D by auto.
    apply ready_app; [exact B| |].
    + split; [names|]. intros name k [I|[]]. injection I as <- <-.
      unfold hocbf in E. change (2 <=? 1)%Z with false in E. injection E as <-.
      split; [reflexivity|split; [reflexivity|split; [cbn; lra|poly]]].
    + intros k K. intros [<-|[]]. cbn in K. intuition discriminate.
  - match type of H with Ok ?a = Ok _ => assert (X : a = cs) by congruence end. rewrite <- X, D by auto.
    apply ready_app; [exact B| |].
    + split; [names|]. intros name k [I|[]]. one_ready.
    + intros k K. intros [<-|[]]. cbn in K. intuition discriminate.
Qed.
Lemma deputies_ready nan num c : ready (deputies_constraints nan num c).
Proof.
  rewrite deputies_constraints_eq. apply ready_app.
  - split; [names|]. intros name k I. cbn [deputies_base vel_constraints app In] in I.
    repeat (destruct I as [I|I]; [one_ready|]). destruct I.
  - split.
    + generalize (seq_NoDup (num - 1) 1). induction 1 as [|i l N _ IH]; [constructor|].
      cbn [flat_map]. rewrite map_app.
      assert (F : forall w, In w kinds -> ~ In (numbered w i) (map fst (flat_map (deputy_entries nan c) l))).
      { intros w Hw H. apply in_map_iff in H. destruct H as ([k d] & E & H). cbn in E. subst k.
        apply in_flat_map in H. destruct H as (j & Hj & H).
        apply (in_map fst) in H. rewrite deputy_entries_names in H. apply in_map_iff in H.
        destruct H as (w' & E & Hw'). cbn in E. destruct (numbered_inj2 _ _ _ _ Hw' Hw E) as [_ ->]. exact (N Hj). }
      rewrite deputy_entries_names. cbn [map kinds app].
      constructor; [|constructor; [|constructor; [|exact IH]]].
      * cbn [In]. intros [H|[H|H]]; [discriminate H|discriminate H|]. revert H. apply F. cbn; tauto.
      * cbn [In]. intros [H|H]; [discriminate H|]. revert H. apply F. cbn; tauto.
      * apply F. cbn; tauto.
    + intros name k I. apply in_flat_map in I. destruct I as (i & _ & I). cbn [deputy_entries In] in I.
      repeat (destruct I as [I|I]; [one_ready|]). destruct I.
  - change (map fst (deputies_base nan c)) with base_names. intros k K H.
    apply in_map_iff in H. destruct H as ([k' d] & E & H). cbn in E. subst k'.
    apply in_flat_map in H. destruct H as (j & Hj & H).
    apply (in_map fst) in H. rewrite deputy_entries_names in H. apply in_map_iff in H.
    destruct H as (w' & E & Hw'). cbn in E. subst k. exact (numbered_base _ _ Hw' K).
Qed.
