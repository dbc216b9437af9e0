(** Lemmas for the gain of the delta-v module. *)
From Coq Require Import String Reals List Bool Lia Lra.
From Verif Require Import Prelude Vec ModelBase ModelController ModelCwh ModelLqr ModelInspect ModelGain SpecCwh SpecLqr SpecInspect SpecGain
  ProofsVec ProofsCwh3 ProofsLqr ProofsInspect.
Import ListNotations.
Local Open Scope R_scope.

(** Fewer linear equations than unknowns: there is a solution other than zero. *)
Lemma underdetermined : forall k (A : mat), (length A < k)%nat -> Forall (fun r => length r = k) A ->
  exists v, length v = k /\ ~ Forall (fun a => a = 0) v /\ Forall (fun r => dot r v = 0) A.
Proof.
  induction k as [|k IH]; intros A HA HR; [lia|].
  destruct (Exists_dec (fun r => nth 0 r 0 <> 0) A) as [Ex|No].
  { intros r. destruct (Req_EM_T (nth 0 r 0) 0); [right|left]; tauto. }
  - apply Exists_exists in Ex. destruct Ex as (p & Hp & Np). apply in_split in Hp. destruct Hp as (A1 & A2 & ->).
    rewrite app_length in HA. cbn in HA. apply Forall_app in HR. destruct HR as [R1 R2]. inversion R2 as [|? ? Lp R2']; subst.
    destruct p as [|a p]; [discriminate|]. cbn in Np, Lp. injection Lp as Lp.
    pose (el := fun r : vec => vsub (tl r) (vscale (nth 0 r 0 / a) p)).
    assert (Rows : Forall (fun r => length r = S k) (A1 ++ A2)) by (apply Forall_app; split; assumption).
    destruct (IH (map el (A1 ++ A2))) as (v & Lv & Nv & Z).
    { rewrite map_length, app_length. lia. }
    { apply Forall_forall. intros r Hr. apply in_map_iff in Hr. destruct Hr as (r0 & <- & Hr0).
      rewrite Forall_forall in Rows. specialize (Rows r0 Hr0). destruct r0 as [|b r0]; [discriminate|]. injection Rows as Rows. unfold el. cbn [tl].
      rewrite vsub_length; rewrite ?vscale_length; lia. }
    exists (- dot p v / a :: v). split; [cbn; lia|]. split.
    { intros F. inversion F; subst. contradiction. }
    assert (Q : Forall (fun r => dot r (- dot p v / a :: v) = 0) (A1 ++ A2)).
    { apply Forall_forall. intros r Hr. rewrite Forall_forall in Z, Rows. specialize (Z _ (in_map el _ _ Hr)). specialize (Rows r Hr).
      destruct r as [|b r]; [discriminate|]. injection Rows as Rows. unfold el in Z. cbn [tl nth] in Z.
      rewrite dot_vsub_l in Z by (rewrite vscale_length; lia). rewrite dot_vscale_l in Z. cbn [dot].
      replace (b * (- dot p v / a)) with (- (b / a * dot p v)) by (field; exact Np). lra. }
    apply Forall_app in Q. destruct Q as [Q1 Q2]. apply Forall_app. split; [exact Q1|]. constructor; [|exact Q2].
    cbn [dot]. field. exact Np.
  - exists (1 :: zeros k). split; [unfold zeros; cbn; rewrite repeat_length; reflexivity|]. split.
    { intros F. inversion F. lra. }
    apply Forall_forall. intros r Hr. rewrite Forall_forall in HR. specialize (HR r Hr). destruct r as [|b r]; [reflexivity|].
    cbn [dot]. rewrite dot_zeros_r. destruct (Req_EM_T b 0) as [->|N]; [ring|]. exfalso. apply No. apply Exists_exists. exists (b :: r). split; [exact Hr|exact N].
Qed.

Lemma dot_pos x : ~ Forall (fun a => a = 0) x -> 0 < dot x x.
Proof.
  intros N. assert (H : 0 <= dot x x) by (apply (sumsq_nonneg x)). destruct (Rle_lt_or_eq_dec _ _ H) as [K|K]; [exact K|].
  exfalso. apply N, dot_self_zero. symmetry. exact K.
Qed.

(** A row vector times a matrix, by columns. *)
Lemma entries (k : nat) : forall r : vec, length r = k -> r = map (fun j => nth j r 0) (seq 0 k).
Proof.
  induction k as [|k IH]; intros r H; destruct r as [|a r]; try discriminate; [reflexivity|]. cbn. rewrite <- seq_shift, map_map.
  injection H as H. rewrite (IH r H) at 1. reflexivity.
Qed.
Lemma vadd_map (f g : nat -> R) l : vadd (map f l) (map g l) = map (fun j => f j + g j) l.
Proof. induction l as [|a l IH]; cbn; [reflexivity|]. f_equal. exact IH. Qed.
Lemma vm_columns k : forall (v : vec) (A : mat), length v = length A -> Forall (fun r => length r = k) A ->
  vm k v A = mv (transpose k A) v.
Proof.
  induction v as [|a v IH]; intros A L R; destruct A as [|r A]; try discriminate.
  - unfold mv, transpose. rewrite map_map. cbn [map dot vm]. unfold zeros. clear. generalize 0%nat. induction k as [|k IH]; intros i; cbn; [reflexivity|].
    f_equal. apply IH.
  - injection L as L. inversion R as [|? ? Lr R']; subst. cbn [vm]. rewrite (IH A L R'). unfold mv, transpose. rewrite !map_map.
    rewrite (entries (length r) r eq_refl) at 1. unfold vscale. rewrite map_map, vadd_map. apply map_ext. intros j. cbn [map dot]. ring.
Qed.

(** Where the motion stands still as long as the first six entries are zero, fewer thrusters than
    other entries cannot see them all. *)
Lemma blind k rest (A B P : mat) : sized (6 + rest) (6 + rest) P -> sized (6 + rest) k B -> (k < rest)%nat ->
  (forall e, length e = rest -> mv A (zeros 6 ++ e) = zeros (6 + rest)) ->
  exists x, length x = (6 + rest)%nat /\ 0 < dot x x /\ forall q r, miss k A B q r P x = q * dot x x.
Proof.
  intros (LP & RP) (LB & RB) Hk Still.
  pose (E := mm (6 + rest) (transpose k B) P).
  assert (RE : Forall (fun r => length r = (6 + rest)%nat) E) by (apply mm_rows; exact RP).
  assert (LE : length E = k) by (unfold E, mm, transpose; rewrite !map_length, seq_length; reflexivity).
  destruct (underdetermined rest (map (skipn 6) E)) as (e & Le & Ne & Z).
  { exact (eq_ind_r (fun l => (l < rest)%nat) Hk (eq_trans (map_length _ E) LE)). }
  { apply Forall_forall. intros r Hr. apply in_map_iff in Hr. destruct Hr as (r0 & <- & H0). rewrite Forall_forall in RE.
    rewrite skipn_length, (RE r0 H0). lia. }
  exists (zeros 6 ++ e). assert (Lx : length (zeros 6 ++ e) = (6 + rest)%nat) by (rewrite app_length; cbn; lia).
  split; [exact Lx|]. split.
  { apply dot_pos. intros F. apply Forall_app in F. apply Ne, F. }
  intros q r. unfold miss. rewrite (Still e Le).
  assert (S1 : forall x, form P x (zeros (6 + rest)) = 0).
  { intros x. unfold form. rewrite dot_comm. apply dot_zero_l. apply mv_zero. apply Forall_forall. intros a Ha. apply repeat_spec in Ha. exact Ha. }
  rewrite S1. unfold form. rewrite dot_zeros_l.
  assert (S2 : Forall (fun a => a = 0) (vm k (mv P (zeros 6 ++ e)) B)).
  { rewrite vm_columns by (rewrite ?mv_length; congruence || exact RB). rewrite <- (mm_mv (6 + rest)) by exact RP. fold E.
    apply Forall_forall. intros a Ha. apply in_map_iff in Ha. destruct Ha as (row & <- & Hrow). rewrite Forall_forall in Z, RE.
    specialize (Z _ (in_map (skipn 6) _ _ Hrow)). rewrite skip_dot in Z; [exact Z|]. rewrite (RE row Hrow), Le. reflexivity. }
  rewrite (dot_zero_l _ _ S2). unfold Rdiv. ring.
Qed.

(** The arguments the solver is called with. *)
Lemma dv_a_still n e : length e = 6%nat -> mv (dv_a_int (cwh_a3 n)) (zeros 6 ++ e) = zeros (6 + 6).
Proof.
  intros H. destruct e as [|e1 [|e2 [|e3 [|e4 [|e5 [|e6 [|]]]]]]]; try discriminate.
  cbv [dv_a_int hstack zero_mat repeat zeros eye unit_vec seq map map2 app cwh_a3 mv Nat.eqb Nat.add]. cbn [dot].
  unfold vec. repeat (apply (f_equal2 (@Datatypes.cons R)); [ring|]). reflexivity.
Qed.
Lemma dv_a_sized n : sized 12 12 (dv_a_int (cwh_a3 n)).
Proof. split; [reflexivity|]. repeat (apply Forall_cons; [reflexivity|]). constructor. Qed.
Lemma dv_b_sized m : sized 12 3 (dv_b_int (cwh_b3 m)).
Proof. split; [reflexivity|]. repeat (apply Forall_cons; [reflexivity|]). constructor. Qed.
Lemma dv_q_is : dv_q = diagonal 12 (1 / 100000).
Proof.
  unfold dv_q, mscale, eye, diagonal. rewrite map_map. apply map_ext. intros i. unfold vscale, unit_vec. rewrite map_map. apply map_ext. intros j.
  destruct (Nat.eqb i j); ring.
Qed.
Lemma dv_r_is : dv_r = diagonal 3 100000.
Proof.
  unfold dv_r, mscale, eye, diagonal. rewrite map_map. apply map_ext. intros i. unfold vscale, unit_vec. rewrite map_map. apply map_ext. intros j.
  destruct (Nat.eqb i j); ring.
Qed.

(** ** Coasting on a natural ellipse *)
Lemma zeros_six_error n s : on_ellipse n s -> track_error n s = zeros 6.
Proof. intros [H K]. unfold track_error. rewrite H, K. unfold zeros. cbn. unfold vec. repeat (apply (f_equal2 (@Datatypes.cons R)); [ring|]). reflexivity. Qed.
Lemma idle_tracking n K1 K2 s : length K1 = 3%nat -> length K2 = 3%nat -> on_ellipse n s -> tracking n K1 K2 s (zeros 6) = zeros 3.
Proof.
  intros L1 L2 O. unfold tracking. rewrite (zeros_six_error n s O).
  destruct K1 as [|a [|b [|c [|]]]]; try discriminate. destruct K2 as [|a' [|b' [|c' [|]]]]; try discriminate. cbn [map2].
  assert (Z : forall k l : vec, Rmax (-1) (Rmin 1 (- dot k (zeros 6) - dot l (zeros 6))) = 0).
  { intros k l. rewrite !dot_zeros_r. unfold Rmin, Rmax. repeat destruct (Rle_dec _ _); lra. }
  rewrite !Z. reflexivity.
Qed.
Lemma coast_step n m dt s : length s = 8%nat -> on_ellipse n s ->
  let s' := euler_step n m dt s (zeros 3) in length s' = 8%nat /\ on_ellipse n s' /\ delta_v_used s' = delta_v_used s.
Proof.
  intros L [H K]. destruct s as [|x [|y [|z [|vx [|vy [|vz [|sun [|used [|]]]]]]]]]; try discriminate. cbn [nth] in H, K. cbn. subst vx vy.
  split; [reflexivity|]. unfold on_ellipse, delta_v_used. cbn [nth]. rewrite Rabs_R0, !Rplus_0_r.
  assert (Z : 0 / m = 0) by (unfold Rdiv; ring). rewrite Z. repeat split; field.
Qed.
Lemma coast_forecast n m dt K1 K2 s j : length K1 = 3%nat -> length K2 = 3%nat -> length s = 8%nat -> on_ellipse n s ->
  let p := forecast n m dt K1 K2 s (zeros 3) (zeros 6) j in
  length (fst p) = 8%nat /\ on_ellipse n (fst p) /\ delta_v_used (fst p) = delta_v_used s /\ snd p = zeros 6.
Proof.
  intros L1 L2 Ls O. induction j as [|j IH]; cbn [forecast fst snd].
  - destruct (coast_step n m dt s Ls O) as (A & B & C). auto.
  - cbv zeta in IH. destruct IH as (A & B & C & D). rewrite D, (idle_tracking _ _ _ _ L1 L2 B).
    destruct (coast_step n m dt _ A B) as (A' & B' & C'). split; [exact A'|]. split; [exact B'|]. split; [congruence|].
    rewrite (zeros_six_error _ _ B). cbn. unfold vec. repeat (apply (f_equal2 (@Datatypes.cons R)); [ring|]). reflexivity.
Qed.

(** The same for the motion itself. *)
Lemma constant T (f f' : R -> R) : (forall t, 0 <= t <= T -> derivable_pt_lim f t (f' t)) -> (forall t, 0 <= t <= T -> f' t = 0) ->
  forall t, 0 <= t <= T -> f t = f 0.
Proof.
  intros D Z t Ht. destruct (Req_dec t 0) as [->|N]; [reflexivity|].
  destruct (MVT_cor2 f f' 0 t ltac:(lra) ltac:(intros; apply D; lra)) as (c & E & Hc). rewrite (Z c) in E by lra. lra.
Qed.
Lemma ellipse_kept n m T x y z vx vy vz :
  cwh_forced n m T (fun _ => 0) (fun _ => 0) (fun _ => 0) x y z vx vy vz ->
  vx 0 = n * y 0 / 2 -> vy 0 = - (2 * n * x 0) ->
  forall t, 0 <= t <= T -> vx t = n * y t / 2 /\ vy t = - (2 * n * x t) /\ 4 * (x t * x t) + y t * y t = 4 * (x 0 * x 0) + y 0 * y 0.
Proof.
  intros [Cx Cy Cz Cvx Cvy Cvz] H K.
  assert (E2 : forall t, 0 <= t <= T -> vy t + 2 * n * x t = 0).
  { intros t Ht. replace 0 with (vy 0 + 2 * n * x 0) by lra.
    apply (constant T (fun t => vy t + 2 * n * x t) (fun t => - (2 * n * vx t) + 0 / m + 2 * n * vx t)); [| |exact Ht].
    - intros s Hs. apply derivable_pt_lim_plus; [apply Cvy; exact Hs|]. apply (derivable_pt_lim_scal x (2 * n)). apply Cx; exact Hs.
    - intros s _. unfold Rdiv. ring. }
  assert (E1 : forall t, 0 <= t <= T -> vx t - n / 2 * y t = 0).
  { intros t Ht. replace 0 with (vx 0 - n / 2 * y 0) by lra.
    apply (constant T (fun t => vx t - n / 2 * y t) (fun t => 3 * (n * n) * x t + 2 * n * vy t + 0 / m - n / 2 * vy t)); [| |exact Ht].
    - intros s Hs. apply derivable_pt_lim_minus; [apply Cvx; exact Hs|]. apply (derivable_pt_lim_scal y (n / 2)). apply Cy; exact Hs.
    - intros s Hs. assert (Q : vy s = - (2 * n * x s)) by (specialize (E2 s Hs); lra). rewrite Q.
      assert (Z : 0 / m = 0) by (unfold Rdiv; ring). rewrite Z. field. }
  intros t Ht. pose proof (E1 t Ht). pose proof (E2 t Ht). split; [lra|]. split; [lra|].
  apply (constant T (fun t => 4 * (x t * x t) + y t * y t) (fun t => 4 * (vx t * x t + x t * vx t) + (vy t * y t + y t * vy t))); [| |exact Ht].
  - intros s Hs. apply derivable_pt_lim_plus.
    + apply (derivable_pt_lim_scal (fun t => x t * x t) 4). apply derivable_pt_lim_mult; apply Cx; exact Hs.
    + apply derivable_pt_lim_mult; apply Cy; exact Hs.
  - intros s Hs. specialize (E1 s Hs). specialize (E2 s Hs). replace (vx s) with (n / 2 * y s) by lra. replace (vy s) with (- (2 * n * x s)) by lra. field.
Qed.
