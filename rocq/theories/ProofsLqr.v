(** Lemmas about the LQR backup controllers. *)
From Coq Require Import String Reals List Bool Lia Lra Psatz.
From Verif Require Import Prelude Vec ModelBase ModelController ModelCwh ModelLqr SpecCwh SpecLqr ProofsVec ProofsCwh3.
Import ListNotations.
Local Open Scope R_scope.

Lemma form_add P x y z : length y = length z -> form P x (vadd y z) = form P x y + form P x z.
Proof. intros H. unfold form. rewrite mv_vadd by exact H. apply dot_vadd_r. rewrite !mv_length. reflexivity. Qed.
Lemma mv_vscale A k x : mv A (vscale k x) = vscale k (mv A x).
Proof. unfold mv, vscale. rewrite map_map. apply map_ext. intros r. fold (vscale k x). rewrite dot_vscale_r. reflexivity. Qed.
Lemma form_scale P x k y : form P x (vscale k y) = k * form P x y.
Proof. unfold form. rewrite mv_vscale, dot_vscale_r. reflexivity. Qed.
Lemma dot_self_zero x : dot x x = 0 -> Forall (fun a => a = 0) x.
Proof.
  induction x as [|a x IH]; intros H; constructor; cbn in H; assert (0 <= dot x x) by (apply (sumsq_nonneg x)).
  - nra.
  - apply IH. nra.
Qed.
Lemma dot_zero_l x y : Forall (fun a => a = 0) x -> dot x y = 0.
Proof. intros H. revert y. induction H as [|a x -> _ IH]; intros [|b y]; cbn; try reflexivity. rewrite IH. ring. Qed.
Lemma mv_zero A x : Forall (fun a => a = 0) x -> Forall (fun a => a = 0) (mv A x).
Proof. intros H. apply Forall_forall. intros r R. apply in_map_iff in R. destruct R as (row & <- & _). rewrite dot_comm. apply dot_zero_l, H. Qed.

(** A positive semidefinite solution is positive definite when the state cost is. *)
Lemma riccati_definite dim A bt Q r P q x : riccati dim A bt Q r P -> 0 < q -> length A = dim ->
  (forall x, length x = dim -> form Q x x = q * dot x x) ->
  length x = dim -> ~ Forall (fun a => a = 0) x -> 0 < form P x x.
Proof.
  intros ((LP & SP) & Sy & Ps & Eq) Hq LA HQ Lx Nx.
  destruct (Rle_lt_or_eq_dec _ _ (Ps x Lx)) as [H|H]; [exact H|]. exfalso. apply Nx.
  assert (Lw : length (mv P x) = dim) by (rewrite mv_length; exact LP).
  set (w := mv P x) in *.
  assert (W : dot w w = 0).
  { assert (B : forall t, 0 <= 2 * t * dot w w + t * t * form P w w).
    { intros t. assert (L : length (vadd x (vscale t w)) = dim) by (rewrite vadd_length; rewrite ?vscale_length; congruence).
      assert (K := Ps _ L).
      rewrite form_add in K by (rewrite vscale_length; congruence). rewrite form_scale in K.
      rewrite (Sy _ x L Lx), (Sy _ w L Lw) in K.
      rewrite !form_add in K by (rewrite vscale_length; congruence). rewrite !form_scale in K.
      rewrite (Sy x w Lx Lw) in K. assert (E1 : form P w x = dot w w) by reflexivity. rewrite E1 in K. nra. }
    assert (N : 0 <= dot w w) by (apply (sumsq_nonneg w)).
    assert (F : 0 <= form P w w) by (apply Ps; exact Lw).
    destruct (Rle_lt_or_eq_dec _ _ N) as [S|S]; [|auto].
    specialize (B (- (dot w w / (form P w w + 1)))).
    set (d := dot w w) in *. set (f := form P w w) in *. set (t := d / (f + 1)) in *.
    assert (T : t * (f + 1) = d) by (unfold t; field; lra). assert (0 < t) by (unfold t; apply Rdiv_lt_0_compat; lra). nra. }
  assert (Z := dot_self_zero w W).
  assert (LAx : length (mv A x) = dim) by (rewrite mv_length; exact LA).
  assert (E := Eq x Lx). rewrite (Sy x (mv A x) Lx LAx) in E. unfold form at 1 2 in E. fold w in E.
  rewrite (dot_comm (mv A x) w), (dot_zero_l w) in E by exact Z.
  rewrite (dot_zero_l (mv bt w)) in E by (apply mv_zero; exact Z). rewrite HQ in E by exact Lx.
  apply dot_self_zero. unfold Rdiv in E. rewrite Rmult_0_l in E. nra.
Qed.

Lemma skip_dot k row v : length row = (k + length v)%nat -> dot (skipn k row) v = dot row (zeros k ++ v).
Proof.
  revert row. induction k as [|k IH]; intros row H; [reflexivity|]. destruct row as [|a row]; [discriminate|].
  cbn [skipn zeros repeat app dot]. cbn in H. fold (zeros k). rewrite IH by lia. ring.
Qed.
Lemma stop_command k K p v dt cs : length p = k -> Forall (fun r => length r = (k + length v)%nat) K ->
  lqr_stop k K (p ++ v) dt cs = GPair (vneg (mv K (zeros k ++ v))) CSNone.
Proof.
  intros <- H. rewrite lqr_stop_eq. f_equal. unfold vneg, mv. rewrite map_map.
  induction H as [|r K Hr _ IH]; [reflexivity|]. cbn [map]. rewrite skip_dot by exact Hr.
  apply (f_equal2 (@cons R)); [reflexivity|exact IH].
Qed.
Lemma gain_mv k B P x : Forall (fun r => length r = (2 * k)%nat) P ->
  mv (stop_gain k B P) x = mv (mscale (1 / 1000) (eye k)) (mv (transpose k B) (mv P x)).
Proof. intros H. unfold stop_gain. rewrite !mm_mv; [reflexivity|exact H|apply mm_rows; exact H]. Qed.
