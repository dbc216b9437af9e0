(** The implicit ASIF module: trajectory, subsampling and the system of inequalities. *)
From Coq Require Import String Reals List Bool ZArith Lia Lra Permutation.
From Verif Require Import Prelude Vec ModelBase ModelController ModelSimplex ModelAsif
  SpecCore SpecHistory SpecAsif SpecImplicit ProofsBase ProofsVec ProofsHistory ProofsSimplex ProofsAsif ProofsAsif2
  ProofsAsif3.
Import ListNotations.
Local Open Scope R_scope.

(** ** The trajectory *)

Lemma implicit_loop_path {X} b (ic : imp_cfg X) size dt n : forall x S c traj c',
  implicit_loop b ic size dt n x S c = (Ok traj, c') ->
  length traj = n /\ sensitivity_path b ic size dt (ctl_state c) x S traj /\
  ctl_saved c' = ctl_saved c /\ ctl_initial c' = ctl_initial c.
Proof.
  induction n as [|n IH]; intros x S c traj c' H; simpl in H.
  - inversion H; subst; split; [auto|split; [constructor|auto]].
  - unfold backup_control, generate_control, bind, get, modify, lift, ret, raise in H.
    destruct (ic_gen ic x dt (ctl_state c)) as [v cs'| |e] eqn:Eg; try discriminate.
    destruct (clip b v) as [u|e] eqn:Ec; try discriminate.
    destruct (ic_pred ic x dt u) as [x'|e] eqn:Ep; try discriminate.
    match type of H with context [implicit_loop ?a1 ?a2 ?a3 ?a4 ?a5 ?a6 ?a7 ?a8] =>
      destruct (implicit_loop a1 a2 a3 a4 a5 a6 a7 a8) as [[rest|e] c2] eqn:El end; try discriminate.
    inversion H; subst; clear H.
    destruct (IH _ _ _ _ _ El) as (L & Pth & Sv & In0).
    split; [simpl; auto|split; [|split; [rewrite Sv; auto|rewrite In0; auto]]].
    exact (sp_cons b ic size dt _ x S v cs' u x' rest Eg Ec Ep Pth).
Qed.

Lemma path_implicit_loop {X} b (ic : imp_cfg X) size dt traj : forall x S c,
  sensitivity_path b ic size dt (ctl_state c) x S traj ->
  exists c', implicit_loop b ic size dt (length traj) x S c = (Ok traj, c') /\
    ctl_saved c' = ctl_saved c /\ ctl_initial c' = ctl_initial c.
Proof.
  induction traj as [|pt traj IH]; intros x S c H; simpl.
  - exists c; auto.
  - inversion H as [|cs x1 S1 v cs' u x' rest Eg Ec Ep S' Pth]; subst.
    specialize (IH x' S' (set_ctl_state cs' c) Pth); subst S'.
    destruct IH as (c2 & El & Sv & I0).
    unfold backup_control, generate_control, bind, get, modify, lift, ret.
    rewrite Eg, Ec, Ep. exists c2; split; [|auto].
    change (ctl_state (set_ctl_state cs' c)) with cs'; cbv zeta.
    rewrite El; auto.
Qed.

Lemma copy_savable cs : savable cs -> copy_controller_state cs = Ok cs.
Proof. intros H; destruct cs; auto; exfalso; eapply H; eauto. Qed.
Lemma copy_savable_inv cs c0 : copy_controller_state cs = Ok c0 -> c0 = cs /\ savable cs.
Proof. destruct cs; simpl; intros H; inversion H; subst; split; auto; intros t; discriminate. Qed.

Lemma integrate_path {X} b (ic : imp_cfg X) x dt n c traj c' :
  (1 <= n)%nat -> implicit_integrate b ic x dt n c = (Ok traj, c') ->
  savable (ctl_state c) /\
  exists rest, traj = (x, eye (ic_size ic x)) :: rest /\ length rest = (n - 1)%nat /\
    sensitivity_path b ic (ic_size ic x) dt (ctl_state c) x (eye (ic_size ic x)) rest /\
    ctl_state c' = ctl_state c /\ ctl_initial c' = ctl_initial c.
Proof.
  intros Hn H; unfold implicit_integrate, ctl_save, ctl_restore, bind, get, modify, lift, ret in H.
  destruct (copy_controller_state (ctl_state c)) as [c0|e] eqn:Ec; try discriminate.
  destruct (copy_savable_inv _ _ Ec) as [-> Sv].
  match type of H with context [implicit_loop ?a1 ?a2 ?a3 ?a4 ?a5 ?a6 ?a7 ?a8] =>
      destruct (implicit_loop a1 a2 a3 a4 a5 a6 a7 a8) as [[rest|e] c2] eqn:El end; try discriminate.
  inversion H; subst; clear H.
  destruct (implicit_loop_path _ _ _ _ _ _ _ _ _ _ El) as (L & Pth & S2 & I2).
  split; auto. exists rest; split; [auto|split; [auto|split; [exact Pth|]]].
  simpl; rewrite S2, I2; auto.
Qed.

Lemma path_integrate {X} b (ic : imp_cfg X) x dt c rest :
  savable (ctl_state c) ->
  sensitivity_path b ic (ic_size ic x) dt (ctl_state c) x (eye (ic_size ic x)) rest ->
  exists c', implicit_integrate b ic x dt (S (length rest)) c = (Ok ((x, eye (ic_size ic x)) :: rest), c') /\
    ctl_state c' = ctl_state c /\ ctl_initial c' = ctl_initial c.
Proof.
  intros Sv Pth; unfold implicit_integrate, ctl_save, ctl_restore, bind, get, modify, lift, ret.
  rewrite (copy_savable _ Sv).
  destruct (path_implicit_loop b ic (ic_size ic x) dt rest x (eye (ic_size ic x))
              (set_ctl_saved (ctl_state c) c) Pth) as (c2 & El & S2 & I2).
  replace (S (length rest) - 1)%nat with (length rest) by lia. rewrite El.
  eexists; split; [reflexivity|]. simpl; rewrite S2, I2; auto.
Qed.

(** Shapes along the path. *)
Lemma madd_shape n k A B : is_mat n k A -> is_mat n k B -> is_mat n k (madd A B).
Proof.
  intros [LA RA] [LB RB]; split; unfold madd; [rewrite map2_length; lia|].
  revert B n LA LB RB; induction RA as [|r A Hr RA IH]; intros [|r' B] n LA LB RB; simpl in *; constructor; subst.
  - inversion RB; subst; rewrite vadd_length; lia.
  - inversion RB; subst. apply (IH B (length A)); auto.
Qed.
Lemma mscale_shape n k d A : is_mat n k A -> is_mat n k (mscale d A).
Proof.
  intros [LA RA]; split; unfold mscale; [rewrite map_length; auto|].
  apply Forall_forall; intros r Hr; apply in_map_iff in Hr; destruct Hr as (r0 & <- & Hr).
  rewrite vscale_length; rewrite Forall_forall in RA; auto.
Qed.
Lemma mm_shape n m k A B : is_mat n m A -> is_mat m k B -> is_mat n k (mm k A B).
Proof. intros [LA RA] [LB RB]; split; [unfold mm; rewrite map_length; auto|apply mm_rows; auto]. Qed.
Lemma eye_shape n : is_mat n n (eye n).
Proof.
  split; [apply eye_length|]. unfold eye; apply Forall_forall; intros r Hr; apply in_map_iff in Hr.
  destruct Hr as (i & <- & _); apply unit_vec_length.
Qed.

Lemma path_shapes {X} b (ic : imp_cfg X) n dt : (forall x dt cs, is_mat n n (ic_jac ic x dt cs)) ->
  forall traj cs x S, is_mat n n S -> sensitivity_path b ic n dt cs x S traj ->
  forall pt, In pt traj -> is_mat n n (snd pt).
Proof.
  intros HJ; induction traj as [|p traj IH]; intros cs x S HS H pt Hpt; [destruct Hpt|].
  inversion H as [|cs1 x1 S1 v cs' u x' rest Eg Ec Ep S' Pth]; subst.
  assert (HS' : is_mat n n S') by (apply madd_shape; auto; apply mscale_shape; apply mm_shape with (m := n); auto).
  destruct Hpt as [<-|Hpt]; auto. eapply IH; eauto.
Qed.

(** ** argsort *)

Lemma insert_perm vals i l : Permutation (insert_by vals i l) (i :: l).
Proof.
  induction l as [|j l IH]; simpl; auto. destruct (Rltb _ _); auto.
  rewrite IH; apply perm_swap.
Qed.
Lemma sort_perm vals l : Permutation (sort_indices vals l) l.
Proof. induction l as [|i l IH]; simpl; auto. rewrite insert_perm, IH; auto. Qed.

Inductive ordered (v : nat -> R) : list nat -> Prop :=
| or_nil : ordered v []
| or_cons i l : Forall (fun j => v i <= v j) l -> ordered v l -> ordered v (i :: l).
Lemma insert_ordered vals i l : ordered (fun j => nth j vals 0) l -> ordered (fun j => nth j vals 0) (insert_by vals i l).
Proof.
  induction 1 as [|j l H Ho IH]; simpl; [repeat constructor|].
  destruct (Rltb (nth j vals 0) (nth i vals 0)) eqn:E.
  - apply Rltb_true in E. constructor; auto.
    eapply Permutation_Forall; [symmetry; apply insert_perm|]. constructor; [lra|auto].
  - apply Rltb_false in E. constructor; [|constructor; auto].
    constructor; [lra|]. eapply Forall_impl; [|exact H]; simpl; intros; lra.
Qed.
Lemma sort_ordered vals l : ordered (fun j => nth j vals 0) (sort_indices vals l).
Proof. induction l; simpl; [constructor|apply insert_ordered; auto]. Qed.
Lemma ordered_split v l : ordered v l -> forall k p q, In p (firstn k l) -> In q (skipn k l) -> v p <= v q.
Proof.
  induction 1 as [|i l H Ho IH]; intros k p q Hp Hq; destruct k; simpl in *; try contradiction.
  destruct Hp as [<-|Hp]; [|eauto].
  rewrite Forall_forall in H; apply H. rewrite <- (firstn_skipn k l); apply in_or_app; auto.
Qed.

(** ** The points selected for one constraint *)

Lemma py_range_up a n s : (1 <= s)%Z ->
  exists m, py_range a n s = Ok (map (fun i => (a + Z.of_nat i * s)%Z) (seq 0 m)) /\
    forall i, (i < m)%nat <-> (a + Z.of_nat i * s < n)%Z.
Proof.
  intros Hs; unfold py_range.
  replace (s =? 0)%Z with false by (symmetry; apply Z.eqb_neq; lia).
  replace (0 <? s)%Z with true by (symmetry; apply Z.ltb_lt; lia).
  exists (Z.to_nat ((n - a + s - 1) / s)); split; auto.
  intros i; split; intros H.
  - assert (Hi : (Z.of_nat i < (n - a + s - 1) / s)%Z) by lia.
    assert (Hq : (s * ((n - a + s - 1) / s) <= n - a + s - 1)%Z) by (apply Z.mul_div_le; lia). nia.
  - assert (Hi : (Z.of_nat i + 1 <= (n - a + s - 1) / s)%Z).
    { apply Z.div_le_lower_bound; [lia|nia]. }
    lia.
Qed.

Definition base_points (sub : subsample) (n : nat) : list nat :=
  match py_range 0 (num_check_all sub) 1, py_range (num_check_all sub + 1) (Z.of_nat n) (skip_length sub) with
  | Ok l1, Ok l2 => map Z.to_nat (l1 ++ l2)
  | _, _ => []
  end.

Lemma NoDup_map_inj {A B} (f : A -> B) l : (forall a b, In a l -> In b l -> f a = f b -> a = b) -> NoDup l -> NoDup (map f l).
Proof.
  intros Hf H; induction H as [|a l Ha H IH]; simpl; constructor.
  - intros Hin; apply in_map_iff in Hin; destruct Hin as (b & E & Hb).
    apply Hf in E; simpl; auto. subst; contradiction.
  - apply IH; intros; apply Hf; simpl; auto.
Qed.
Lemma NoDup_app_disjoint {A} (l l' : list A) : NoDup l -> NoDup l' -> (forall a, In a l -> In a l' -> False) -> NoDup (l ++ l').
Proof.
  intros H H' D; induction H as [|a l Ha H IH]; simpl; auto. constructor.
  - intros Hin; apply in_app_or in Hin; destruct Hin; [contradiction|eapply D; simpl; eauto].
  - apply IH; intros; eapply D; simpl; eauto.
Qed.

Lemma base_points_ok sub n : valid_sub sub n ->
  exists l1 l2, py_range 0 (num_check_all sub) 1 = Ok l1 /\
    py_range (num_check_all sub + 1) (Z.of_nat n) (skip_length sub) = Ok l2 /\
    base_points sub n = map Z.to_nat (l1 ++ l2) /\
    (forall z, In z (l1 ++ l2) -> (0 <= z < Z.of_nat n)%Z) /\
    NoDup (base_points sub n) /\ forall p, In p (base_points sub n) <-> checked sub n p.
Proof.
  intros (Ha & Hs & _).
  destruct (py_range_up 0 (num_check_all sub) 1 ltac:(lia)) as (m1 & E1 & M1).
  destruct (py_range_up (num_check_all sub + 1) (Z.of_nat n) (skip_length sub) Hs) as (m2 & E2 & M2).
  do 2 eexists; split; [exact E1|split; [exact E2|]].
  split; [unfold base_points; rewrite E1, E2; auto|].
  assert (B : forall z, In z (map (fun i => (0 + Z.of_nat i * 1)%Z) (seq 0 m1) ++
     map (fun i => (num_check_all sub + 1 + Z.of_nat i * skip_length sub)%Z) (seq 0 m2)) -> (0 <= z < Z.of_nat n)%Z).
  { intros z Hz; apply in_app_or in Hz; destruct Hz as [Hz|Hz]; apply in_map_iff in Hz;
      destruct Hz as (i & <- & Hi); apply in_seq in Hi.
    - assert (Hi' : (i < m1)%nat) by lia; apply M1 in Hi'; lia.
    - assert (Hi' : (i < m2)%nat) by lia; apply M2 in Hi'; nia. }
  split; [exact B|].
  unfold base_points; rewrite E1, E2; split.
  - apply NoDup_map_inj; [intros a b Pa Pb E; apply B in Pa, Pb; lia|].
    apply NoDup_app_disjoint.
    + apply NoDup_map_inj; [intros; lia|apply seq_NoDup].
    + apply NoDup_map_inj; [intros; nia|apply seq_NoDup].
    + intros z Hz Hz'; apply in_map_iff in Hz, Hz'; destruct Hz as (i & <- & Hi), Hz' as (i' & E & Hi').
      apply in_seq in Hi; assert (H : (i < m1)%nat) by lia; apply M1 in H. nia.
  - intros p; unfold checked; rewrite map_app, in_app_iff; split.
    + intros [H|H]; apply in_map_iff in H; destruct H as (z & <- & H); apply in_map_iff in H;
        destruct H as (i & <- & Hi); apply in_seq in Hi.
      * left; assert (H : (i < m1)%nat) by lia; apply M1 in H; lia.
      * right; assert (H : (i < m2)%nat) by lia; apply M2 in H.
        split; [nia|]; exists i; nia.
    + intros [H|[H (i & E)]].
      * left; apply in_map_iff; exists (Z.of_nat p); split; [lia|].
        apply in_map_iff; exists p; split; [lia|]. apply in_seq; split; [lia|]; simpl; apply M1; lia.
      * right; apply in_map_iff; exists (Z.of_nat p); split; [lia|].
        apply in_map_iff; exists i; split; [lia|]. apply in_seq; split; [lia|]; simpl; apply M2; lia.
Qed.

Lemma jax_get_nat {A} (d : A) l z : (0 <= z < Z.of_nat (length l))%Z -> jax_get d l z = nth (Z.to_nat z) l d.
Proof.
  intros H; unfold jax_get, jax_index.
  replace (z <? 0)%Z with false by (symmetry; apply Z.ltb_ge; lia).
  f_equal; lia.
Qed.

Lemma nth_map_nat {A} (d : A) (f : nat -> A) l j : (j < length l)%nat -> nth j (map f l) d = f (nth j l 0%nat).
Proof. intros H; rewrite nth_indep with (d' := f 0%nat) by (rewrite map_length; auto); apply map_nth. Qed.

Lemma map_nth_seq {A} (d : A) l : map (fun j => nth j l d) (seq 0 (length l)) = l.
Proof.
  induction l as [|a l IH]; simpl; auto. f_equal. rewrite <- seq_shift, map_map. exact IH.
Qed.

(** The point numbers selected, in order. *)
Definition pick_list (sub : subsample) (n : nat) (vals : vec) : list nat :=
  let base := base_points sub n in
  let tv := map (fun p => nth p vals 0) base in
  match num_least sub with
  | None => base
  | Some N => map (fun j => nth j base 0%nat) (firstn (Z.to_nat N) (argsort tv))
  end ++ (if keep_first sub then [0%nat] else []) ++ (if keep_last sub then [(n - 1)%nat] else []).

Lemma subsample_one_ok {X P} (c : constraint X P) i n rows consts vals br bc :
  valid_sub (c_sub c) n -> (1 <= n)%nat ->
  slice (n * i) (n * (i + 1)) rows = br -> slice (n * i) (n * (i + 1)) consts = bc ->
  length br = n -> length bc = n -> length vals = n ->
  (n * (i + 1) <= length rows)%nat -> (n * (i + 1) <= length consts)%nat ->
  let js := pick_list (c_sub c) n vals in
  picks (c_sub c) n (fun j => nth j vals 0) js /\ (forall j, In j js -> (j < n)%nat) /\
    subsample_one c i n rows consts vals = Ok (map (fun j => nth j br []) js, map (fun j => nth j bc 0) js).
Proof.
  intros V Hn Hr Hc Lr Lc Lv LR LC js.
  destruct (base_points_ok _ _ V) as (l1 & l2 & E1 & E2 & Eb & Hb & ND & Mem).
  unfold subsample_one; rewrite Hr, Hc, E1; cbn [rbind]; rewrite E2; cbn [rbind].
  set (base := base_points (c_sub c) n) in *.
  assert (Bn : forall p, In p base -> (p < n)%nat).
  { intros p Hp; rewrite Eb in Hp; apply in_map_iff in Hp; destruct Hp as (z & <- & Hz); apply Hb in Hz; lia. }
  assert (Q : forall A (d : A) l, length l = n -> map (jax_get d l) (l1 ++ l2) = map (fun p => nth p l d) base).
  { intros A d l Ll; rewrite Eb, map_map; apply map_ext_in; intros z Hz; apply jax_get_nat; rewrite Ll; auto. }
  rewrite (Q _ [] br Lr), (Q _ 0 bc Lc), (Q _ 0 vals Lv).
  set (tv := map (fun p => nth p vals 0) base).
  assert (Ltv : length tv = length base) by (unfold tv; rewrite map_length; auto).
  assert (Fst : jax_get [] rows (Z.of_nat (n * i)) = nth 0 br [] /\ jax_get 0 consts (Z.of_nat (n * i)) = nth 0 bc 0 /\
                jax_get [] rows (Z.of_nat (n * (i + 1)) - 1) = nth (n - 1) br [] /\
                jax_get 0 consts (Z.of_nat (n * (i + 1)) - 1) = nth (n - 1) bc 0).
  { rewrite <- Hr, <- Hc; unfold slice.
    unfold mat, vec in *.
    assert (M1 : (n * i + n = n * (i + 1))%nat) by lia.
    rewrite !jax_get_nat by lia.
    rewrite !nth_firstn_lt by lia. rewrite !nth_skipn.
    replace (Z.to_nat (Z.of_nat (n * i))) with (n * i + 0)%nat by lia.
    replace (Z.to_nat (Z.of_nat (n * (i + 1)) - 1)) with (n * i + (n - 1))%nat by lia. auto. }
  destruct Fst as (F1 & F2 & F3 & F4); rewrite F1, F2, F3, F4.
  set (kept := match num_least (c_sub c) with
               | None => base
               | Some N => map (fun j => nth j base 0%nat) (firstn (Z.to_nat N) (argsort tv))
               end).
  set (dropped := match num_least (c_sub c) with
               | None => []
               | Some N => map (fun j => nth j base 0%nat) (skipn (Z.to_nat N) (argsort tv))
               end).
  assert (Pa : Permutation (argsort tv) (seq 0 (length base))) by (unfold argsort; rewrite sort_perm, Ltv; auto).
  assert (Ain : forall j, In j (argsort tv) -> (j < length base)%nat).
  { intros j Hj; eapply Permutation_in in Hj; [|exact Pa]; apply in_seq in Hj; lia. }
  assert (Kn : forall j, In j kept -> (j < n)%nat).
  { unfold kept; intros j Hj; destruct (num_least (c_sub c)); [|auto].
    apply in_map_iff in Hj; destruct Hj as (m & <- & Hm). apply Bn, nth_In, Ain.
    rewrite <- (firstn_skipn (Z.to_nat z) (argsort tv)); apply in_or_app; auto. }
  assert (Ejs : js = kept ++ (if keep_first (c_sub c) then [0%nat] else []) ++
                     (if keep_last (c_sub c) then [(n - 1)%nat] else [])) by reflexivity.
  clearbody js; subst js.
  split; [|split].
  - exists base, kept, dropped; split; [auto|split; [auto|]].
    split.
    { unfold kept, dropped; destruct (num_least (c_sub c)) as [N|]; [|rewrite app_nil_r; auto].
      rewrite <- map_app, firstn_skipn. rewrite (Permutation_map _ Pa), map_nth_seq; auto. }
    split.
    { unfold kept, dropped; destruct (num_least (c_sub c)) as [N|]; [|intros p q _ []].
      intros p q Hp Hq; apply in_map_iff in Hp, Hq; destruct Hp as (a & <- & Hp), Hq as (b & <- & Hq).
      assert (A1 : In a (argsort tv)) by (rewrite <- (firstn_skipn (Z.to_nat N) (argsort tv)); apply in_or_app; auto).
      assert (A2 : In b (argsort tv)) by (rewrite <- (firstn_skipn (Z.to_nat N) (argsort tv)); apply in_or_app; auto).
      apply Ain in A1, A2.
      pose proof (ordered_split _ _ (sort_ordered tv _) _ _ _ Hp Hq) as O; simpl in O.
      unfold tv in O; rewrite !nth_map_nat in O by auto; auto. }
    split; [|reflexivity].
    unfold kept, dropped; destruct (num_least (c_sub c)) as [N|]; [|auto].
    rewrite map_length, firstn_length; f_equal. rewrite (Permutation_length Pa), seq_length; auto.
  - intros j Hj; apply in_app_or in Hj; destruct Hj as [Hj|Hj]; auto.
    apply in_app_or in Hj; destruct Hj as [Hj|Hj].
    + destruct (keep_first _); simpl in Hj; intuition lia.
    + destruct (keep_last _); simpl in Hj; intuition lia.
  - assert (Hk : match num_least (c_sub c) with
      | None => (map (fun p => nth p br []) base, map (fun p => nth p bc 0) base)
      | Some n0 => (map (fun j => nth j (map (fun p => nth p br []) base) []) (py_upto n0 (argsort tv)),
                    map (fun j => nth j (map (fun p => nth p bc 0) base) 0) (py_upto n0 (argsort tv)))
      end = (map (fun j => nth j br []) kept, map (fun j => nth j bc 0) kept)).
    { unfold kept; destruct (num_least (c_sub c)) as [N|] eqn:EN; auto.
      destruct V as (_ & _ & VN); specialize (VN N EN).
      unfold py_upto; replace (N <? 0)%Z with false by (symmetry; apply Z.ltb_ge; lia).
      rewrite !map_map; f_equal; apply map_ext_in; intros j Hj;
        (rewrite nth_map_nat; [auto|]); apply Ain; rewrite <- (firstn_skipn (Z.to_nat N) (argsort tv)); apply in_or_app; auto. }
    cbv zeta.
    match goal with |- context [match num_least (c_sub c) with Some n0 => @?b n0 | None => ?a end] =>
      set (kk := match num_least (c_sub c) with Some n0 => b n0 | None => a end) end.
    assert (Ek : kk = (map (fun j => nth j br []) kept, map (fun j => nth j bc 0) kept)) by exact Hk.
    rewrite Ek; f_equal. rewrite !map_app.
    destruct (keep_first _), (keep_last _); simpl; rewrite ?app_nil_r, <- ?app_assoc; auto.
Qed.
