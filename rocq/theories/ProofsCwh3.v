(** Lemmas on the passively-safe maneuver, stacked deputies and stopping controllers. *)
From Coq Require Import String Reals List Bool ZArith Lia Lra Psatz.
From Verif Require Import Prelude Vec ModelBase ModelController ModelSimplex ModelAsif ModelConstraint ModelCwh
  SpecConstraint SpecCwh ProofsVec ProofsConstraint ProofsCwh ProofsCwh2.
Import ListNotations.
Local Open Scope R_scope.

(** ** Sampled minima *)

Lemma fold_min_ge r l : forall a, r <= fold_left Rmin l a <-> r <= a /\ forall b, In b l -> r <= b.
Proof.
  induction l as [|c l IH]; intros a; simpl.
  - split; [intros H; split; auto; intros b []|intros [H _]; auto].
  - rewrite IH. split.
    + intros [H1 H2]. pose proof (Rmin_l a c). pose proof (Rmin_r a c).
      split; [lra|]. intros b [<-|Hb]; [lra|auto].
    + intros [H1 H2]. split; [apply Rmin_glb; auto|auto].
Qed.

Lemma vmin_ge r v : v <> [] -> (r <= vmin v <-> forall b, In b v -> r <= b).
Proof.
  destruct v as [|a t]; [congruence|intros _]. simpl. rewrite fold_min_ge. split.
  - intros [H1 H2] b [<-|Hb]; auto.
  - intros H; split; auto.
Qed.

Lemma linspace_sampling dt n : (0 < n)%nat ->
  linspace dt (INR n * dt) n = map (fun k => INR k * dt) (seq 1 n).
Proof.
  intros H. unfold linspace. rewrite <- (seq_shift n 0), map_map.
  apply map_ext_in. intros i Hi. apply in_seq in Hi. rewrite S_INR.
  destruct (Nat.eq_dec n 1) as [->|N].
  - replace i with 0%nat by lia. simpl; ring.
  - assert (INR n - 1 <> 0).
    { intros E. apply N. apply INR_eq. simpl. lra. }
    field; auto.
Qed.

Lemma linspace_from_zero dt n :
  linspace 0 (INR n * dt) (n + 1) = map (fun k => INR k * dt) (seq 0 (n + 1)).
Proof.
  unfold linspace. apply map_ext_in. intros i Hi. apply in_seq in Hi.
  rewrite plus_INR. simpl (INR 1). destruct n as [|n].
  - replace i with 0%nat by lia. simpl; ring.
  - assert (INR (S n) <> 0) by (apply not_0_INR; lia).
    field. lra.
Qed.

(** ** The closed-form position *)

Lemma jax_get_nth (l : vec) i : (i < length l)%nat -> jax_get 0 l (Z.of_nat i) = nth i l 0.
Proof.
  intros H. unfold jax_get, jax_index. destruct (Z.of_nat i <? 0)%Z eqn:E; [apply Z.ltb_lt in E; lia|].
  f_equal. lia.
Qed.

Lemma drift_at n o s t x y z vx vy vz pre rest : n <> 0 ->
  s = pre ++ x :: y :: z :: vx :: vy :: vz :: rest -> o = Z.of_nat (length pre) ->
  drift_position n o s t =
  [sol_x n 1 x vx vy 0 0 t; sol_y n 1 x y vx vy 0 0 t; sol_z n 1 z vz 0 t].
Proof.
  intros Hn -> ->.
  assert (G : forall k, (k < 6)%nat ->
    jax_get 0 (pre ++ x :: y :: z :: vx :: vy :: vz :: rest) (Z.of_nat (length pre) + Z.of_nat k)
    = nth k [x; y; z; vx; vy; vz] 0).
  { intros k Hk. rewrite <- Nat2Z.inj_add, jax_get_nth by (rewrite app_length; simpl; lia).
    rewrite app_nth2 by lia. replace (length pre + k - length pre)%nat with k by lia.
    change (x :: y :: z :: vx :: vy :: vz :: rest) with ([x; y; z; vx; vy; vz] ++ rest).
    rewrite app_nth1; auto. }
  unfold drift_position.
  pose proof (G 0%nat ltac:(lia)) as G0. pose proof (G 1%nat ltac:(lia)) as G1.
  pose proof (G 2%nat ltac:(lia)) as G2. pose proof (G 3%nat ltac:(lia)) as G3.
  pose proof (G 4%nat ltac:(lia)) as G4. pose proof (G 5%nat ltac:(lia)) as G5.
  change (Z.of_nat 0) with 0%Z in G0. change (Z.of_nat 1) with 1%Z in G1. change (Z.of_nat 2) with 2%Z in G2.
  change (Z.of_nat 3) with 3%Z in G3. change (Z.of_nat 4) with 4%Z in G4. change (Z.of_nat 5) with 5%Z in G5.
  rewrite G0, G1, G2, G3, G4, G5.
  cbn [nth]. unfold sol_x, sol_y, sol_z.
  do 3 (apply (f_equal2 (@cons R)); [field; auto|]). reflexivity.
Qed.

(** A free motion from the state at the front is the closed form, whatever the mass. *)
Lemma free_motion_drift n m x y z vx vy vz t : n <> 0 -> cwh_motion n m 0 0 0 x y z vx vy vz ->
  x t = sol_x n 1 (x 0) (vx 0) (vy 0) 0 0 t /\
  y t = sol_y n 1 (x 0) (y 0) (vx 0) (vy 0) 0 0 t /\
  z t = sol_z n 1 (z 0) (vz 0) 0 t.
Proof.
  intros Hn M.
  pose proof (sol_motion n 1 (x 0) (y 0) (z 0) (vx 0) (vy 0) (vz 0) 0 0 0 Hn ltac:(lra)) as S.
  destruct (sol_start n 1 (x 0) (y 0) (z 0) (vx 0) (vy 0) (vz 0) 0 0 0 Hn ltac:(lra))
    as (S1 & S2 & S3 & S4 & S5 & S6).
  assert (M' : cwh_motion n 1 0 0 0 x y z vx vy vz).
  { destruct M as [A1 A2 A3 A4 A5 A6]. split; auto; intros r.
    - eapply derive_eq; [apply A4|unfold Rdiv; ring].
    - eapply derive_eq; [apply A5|unfold Rdiv; ring].
    - eapply derive_eq; [apply A6|unfold Rdiv; ring]. }
  destruct (cwh_unique n 1 0 0 0 _ _ _ _ _ _ _ _ _ _ _ _ Hn M' S) with (t := t) as (? & ? & ? & _); auto.
Qed.

(** ** Stacked deputies *)

Lemma stack_a_shape A i : is_mat 6 6 A -> is_mat (6 * (i + 1)) (6 * (i + 1)) (stack_a A i).
Proof.
  intros [L F]. induction i as [|i [IL IF]]; [split; auto|].
  simpl stack_a. unfold block_diag. split.
  - rewrite app_length, !map_length. unfold mat, vec in *. lia.
  - apply Forall_app; split; apply Forall_map.
    + eapply Forall_impl; [|apply IF]. intros r Hr; simpl in *. rewrite app_length, Hr, zeros_length; lia.
    + eapply Forall_impl; [|apply F]. intros r Hr; simpl in *. rewrite app_length, Hr, zeros_length; lia.
Qed.

Lemma mv_app_rows A B x : mv (A ++ B) x = mv A x ++ mv B x.
Proof. unfold mv; apply map_app. Qed.

Lemma block_diag_mv k k' A B x y : Forall (fun r => length r = k) A ->
  length x = k -> length y = k' ->
  mv (block_diag k k' A B) (x ++ y) = mv A x ++ mv B y.
Proof.
  intros FA Lx Ly. unfold block_diag. rewrite mv_app_rows. f_equal.
  - unfold mv. rewrite map_map. apply map_ext_in. intros r Hr.
    rewrite Forall_forall in FA. specialize (FA r Hr).
    rewrite dot_app by lia. rewrite dot_zeros_l; ring.
  - unfold mv. rewrite map_map. apply map_ext. intros r.
    rewrite dot_app by (rewrite zeros_length; lia). rewrite dot_zeros_l; ring.
Qed.

Lemma stack_a_mv A : is_mat 6 6 A -> forall i ds, length ds = S i -> Forall (fun d => length d = 6%nat) ds ->
  mv (stack_a A i) (concat ds) = concat (map (mv A) ds).
Proof.
  intros IA. induction i as [|i IH]; intros ds L F.
  - destruct ds as [|d [|]]; simpl in L; try lia. simpl. rewrite !app_nil_r; auto.
  - destruct (@exists_last _ ds) as (ds' & d & ->); [intros ->; simpl in L; lia|].
    rewrite app_length in L; simpl in L.
    apply Forall_app in F; destruct F as [F1 F2]. inversion F2; subst.
    rewrite concat_app, map_app, concat_app; simpl concat. rewrite !app_nil_r.
    simpl stack_a. rewrite block_diag_mv.
    + rewrite IH by (auto; lia). auto.
    + apply stack_a_shape; auto.
    + assert (E : length (concat ds') = (6 * length ds')%nat).
      { clear - F1. induction F1; simpl; auto. rewrite app_length, H, IHF1; lia. }
      rewrite E. replace (length ds') with (i + 1)%nat by lia. lia.
    + auto.
Qed.

Lemma mv_zeros_rows A k u : mv (map (fun _ : vec => zeros k) A) u = zeros (length A).
Proof.
  unfold mv, zeros. rewrite map_map. induction A as [|a A IH]; simpl; auto. f_equal; auto.
  apply dot_zeros_l.
Qed.

Lemma stack_b_mv B i u : mv (stack_b B i) u = mv B u ++ zeros (i * length B).
Proof.
  induction i as [|i IH]; [simpl; rewrite app_nil_r; auto|].
  simpl stack_b. rewrite mv_app_rows, IH, <- app_assoc, mv_zeros_rows.
  f_equal. unfold zeros. rewrite <- repeat_app. f_equal. simpl; lia.
Qed.

Lemma cwh_a3_shape n : is_mat 6 6 (cwh_a3 n).
Proof. split; [reflexivity|]. unfold cwh_a3. repeat (constructor; [reflexivity|]). constructor. Qed.

Lemma cwh_a3_rate n s : length s = 6%nat -> mv (cwh_a3 n) s = cwh_rate n s.
Proof.
  intros H. do 6 (destruct s as [|? s]; [simpl in H; lia|]). destruct s; [|simpl in H; lia].
  unfold cwh_a3, mv, cwh_rate; cbn [map dot].
  do 6 (apply (f_equal2 (@cons R)); [ring|]). reflexivity.
Qed.

Lemma slice_all {A} (l l' : list A) n : length l = n -> slice 0 n (l ++ l') = l.
Proof. intros <-. unfold slice. rewrite Nat.sub_0_r. simpl. rewrite firstn_app, firstn_all, Nat.sub_diag. simpl; apply app_nil_r. Qed.

(** ** Stopping controllers *)

Lemma vsub_app u u' v v' : length u = length v -> vsub (u ++ u') (v ++ v') = vsub u v ++ vsub u' v'.
Proof. revert v; induction u; destruct v; simpl; intros; try lia; auto. unfold vsub in *; simpl. f_equal; auto. Qed.
Lemma vsub_self u : vsub u u = zeros (length u).
Proof. unfold vsub, zeros; induction u; simpl; auto. apply (f_equal2 (@cons R)); [ring|auto]. Qed.
Lemma vsub_zeros u : vsub u (zeros (length u)) = u.
Proof. unfold vsub, zeros; induction u; simpl; auto. apply (f_equal2 (@cons R)); [ring|auto]. Qed.

Lemma lqr_stop_eq K p v dt cs :
  lqr_stop (length p) K (p ++ v) dt cs =
  GPair (map (fun row => - dot (skipn (length p) row) v) K) CSNone.
Proof.
  unfold lqr_stop.
  rewrite firstn_app, firstn_all, Nat.sub_diag, firstn_O, app_nil_r, app_length.
  replace (length p + length v - length p)%nat with (length v) by lia.
  rewrite vsub_app, vsub_self, vsub_zeros by auto.
  f_equal. unfold mv. rewrite map_map. apply map_ext. intros row.
  rewrite dot_vneg_l. f_equal. rewrite dot_comm, dot_app_l, dot_zeros_l, zeros_length, dot_comm. ring.
Qed.
