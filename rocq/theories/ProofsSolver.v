(** A quadratic program with a positive diagonal weight that has a feasible point has a minimiser,
    and its active rows alone already force the minimum. *)
From Coq Require Import String Reals List Bool ZArith Lia Lra Psatz Classical.
From Coq Require Import ClassicalChoice.
From Verif Require Import Prelude Vec ModelBase ModelController ModelSimplex ModelAsif
  SpecCore SpecHistory SpecAsif ProofsBase ProofsVec ProofsHistory ProofsAsif ProofsAsif2 ProofsAsif3 ProofsAsif4.
Import ListNotations.
Local Open Scope R_scope.

(** ** Limits of sequences of vectors, entry by entry *)
Definition tends (zs : nat -> vec) (z : vec) : Prop :=
  (forall k, length (zs k) = length z) /\ forall i, (i < length z)%nat -> Un_cv (fun k => nth i (zs k) 0) (nth i z 0).

Lemma tends_cons zs x z : tends zs (x :: z) ->
  Un_cv (fun k => nth 0 (zs k) 0) x /\ tends (fun k => tl (zs k)) z /\ forall k, zs k = nth 0 (zs k) 0 :: tl (zs k).
Proof.
  intros [L H].
  assert (E : forall k, zs k = nth 0 (zs k) 0 :: tl (zs k)).
  { intros k. specialize (L k). destruct (zs k); [discriminate|reflexivity]. }
  split; [exact (H 0%nat ltac:(simpl; lia))|split; [|exact E]].
  split.
  - intros k. specialize (L k). rewrite E in L. cbn in L. injection L; auto.
  - intros i Hi. specialize (H (S i) ltac:(simpl; lia)). cbn in H.
    intros eps He. destruct (H eps He) as [N HN]. exists N. intros k Hk. specialize (HN k Hk).
    rewrite (E k) in HN. exact HN.
Qed.

Lemma cv_const a : Un_cv (fun _ => a) a.
Proof. intros e He. exists 0%nat. intros k _. unfold R_dist. rewrite Rminus_eq_0, Rabs_R0. exact He. Qed.
Lemma cv_ext f g l : (forall k, f k = g k) -> Un_cv f l -> Un_cv g l.
Proof. intros E H e He. destruct (H e He) as [N HN]. exists N. intros k Hk. rewrite <- E. auto. Qed.

Lemma dot_tends r : forall zs z, tends zs z -> Un_cv (fun k => dot r (zs k)) (dot r z).
Proof.
  induction r as [|a r IH]; intros zs z T; [exact (cv_const 0)|]. destruct z as [|x z].
  - destruct T as [L _]. apply cv_ext with (fun _ => 0); [|apply cv_const].
    intros k. specialize (L k). destruct (zs k); [reflexivity|discriminate].
  - destruct (tends_cons _ _ _ T) as (H0 & H1 & E).
    apply cv_ext with (fun k => a * nth 0 (zs k) 0 + dot r (tl (zs k))).
    + intros k. rewrite (E k) at 3. reflexivity.
    + cbn. apply (CV_plus (fun k => a * nth 0 (zs k) 0) (fun k => dot r (tl (zs k)))); [|apply IH; exact H1].
      apply (CV_mult (fun _ => a) (fun k => nth 0 (zs k) 0)); [apply cv_const|exact H0].
Qed.
Lemma wdist_tends w : forall a zs z, tends zs z -> Un_cv (fun k => wdist w a (zs k)) (wdist w a z).
Proof.
  induction w as [|c w IH]; intros a zs z T; [exact (cv_const 0)|]. destruct a as [|b a]; [exact (cv_const 0)|].
  destruct z as [|x z].
  - destruct T as [L _]. apply cv_ext with (fun _ => 0); [|apply cv_const].
    intros k. specialize (L k). destruct (zs k); [reflexivity|discriminate].
  - destruct (tends_cons _ _ _ T) as (H0 & H1 & E).
    apply cv_ext with (fun k => c * ((b - nth 0 (zs k) 0) * (b - nth 0 (zs k) 0)) + wdist w a (tl (zs k))).
    + intros k. rewrite (E k) at 4. reflexivity.
    + cbn. apply (CV_plus (fun k => c * ((b - nth 0 (zs k) 0) * (b - nth 0 (zs k) 0))) (fun k => wdist w a (tl (zs k)))); [|apply IH; exact H1].
      assert (D : Un_cv (fun k => b - nth 0 (zs k) 0) (b - x)) by (apply (CV_minus (fun _ => b)); [apply cv_const|exact H0]).
      apply (CV_mult (fun _ => c)); [apply cv_const|]. apply CV_mult; exact D.
Qed.

Lemma list_of (Q : nat -> R -> Prop) n : (forall i, (i < n)%nat -> exists l, Q i l) ->
  exists z : vec, length z = n /\ forall i, (i < n)%nat -> Q i (nth i z 0).
Proof.
  induction n as [|n IH]; intros H; [exists []; split; [reflexivity|intros; lia]|].
  destruct IH as (z & L & Hz); [intros i Hi; apply H; lia|].
  destruct (H n ltac:(lia)) as [l Hl]. exists (z ++ [l]). split; [rewrite app_length; simpl; lia|].
  intros i Hi. destruct (Nat.eq_dec i n) as [->|N].
  - rewrite app_nth2 by lia. rewrite L, Nat.sub_diag. exact Hl.
  - rewrite app_nth1 by lia. apply Hz; lia.
Qed.

(** ** The minimum of a weighted squared distance over a polyhedron *)
Section Minimum.
Variables (W A : vec) (rows : mat) (consts : vec).
Hypotheses (Wp : Forall (fun c => 0 < c) W) (LA : length A = length W).
Let feas (y : vec) : Prop := length y = length W /\ solves rows consts y.

Lemma wdist_nonneg w : Forall (fun c => 0 < c) w -> forall y z, 0 <= wdist w y z.
Proof.
  induction 1 as [|c w Hc _ IH]; intros y z; [simpl; lra|].
  destruct y as [|a y], z as [|b z]; simpl; try lra.
  specialize (IH y z). pose proof (Rle_0_sqr (a - b)) as Q; unfold Rsqr in Q.
  pose proof (Rmult_le_pos c _ (Rlt_le _ _ Hc) Q). lra.
Qed.
Lemma wdist_entry w : Forall (fun c => 0 < c) w -> forall y z i, length y = length w -> length z = length w ->
  (i < length w)%nat -> nth i w 0 * ((nth i y 0 - nth i z 0) * (nth i y 0 - nth i z 0)) <= wdist w y z.
Proof.
  induction 1 as [|c w Hc Hw IH]; intros y z i Ly Lz Hi; [simpl in Hi; lia|].
  destruct y as [|a y], z as [|b z]; try discriminate. simpl in Ly, Lz.
  pose proof (wdist_nonneg w Hw y z) as N.
  destruct i as [|i]; cbn [nth wdist].
  - lra.
  - specialize (IH y z i ltac:(lia) ltac:(lia) ltac:(simpl in Hi; lia)).
    pose proof (Rle_0_sqr (a - b)) as Q; unfold Rsqr in Q.
    pose proof (Rmult_le_pos c _ (Rlt_le _ _ Hc) Q). lra.
Qed.

Lemma minimum_exists : (exists y, feas y) ->
  exists z, feas z /\ forall y, feas y -> wdist W A z <= wdist W A y.
Proof.
  intros [y0 F0].
  destruct (completeness (fun r => exists y, feas y /\ r = - wdist W A y)) as (m & Ub & Lub).
  { exists 0. intros r (y & _ & ->). pose proof (wdist_nonneg W Wp A y). lra. }
  { exists (- wdist W A y0), y0; auto. }
  assert (Low : forall y, feas y -> - m <= wdist W A y).
  { intros y Fy. assert (- wdist W A y <= m) by (apply Ub; exists y; auto). lra. }
  assert (Near : forall k : nat, exists y, feas y /\ wdist W A y <= - m + / (INR k + 1)).
  { intros k. apply NNPP. intros N.
    assert (0 < / (INR k + 1)) by (apply Rinv_0_lt_compat; pose proof (pos_INR k); lra).
    assert (m <= m - / (INR k + 1)); [|lra].
    apply Lub. intros r (y & Fy & ->). destruct (Rle_lt_dec (- wdist W A y) (m - / (INR k + 1))) as [L|L]; [exact L|].
    exfalso. apply N. exists y. split; [exact Fy|lra]. }
  destruct (choice _ Near) as [zs Hz].
  assert (Fz : forall k, feas (zs k)) by (intros k; apply Hz).
  assert (Close : forall j k, wdist W (zs j) (zs k) <= 2 * / (INR j + 1) + 2 * / (INR k + 1)).
  { intros j k. destruct (Fz j) as [Lj Sj], (Fz k) as [Lk Sk].
    assert (Fm : feas (mid (zs j) (zs k))).
    { split; [rewrite mid_length by congruence; exact Lj|apply solves_mid; auto; congruence]. }
    specialize (Low _ Fm). rewrite wdist_mid in Low by congruence.
    rewrite (proj2 (Nat.leb_le _ _)) in Low by lia.
    destruct (Hz j) as [_ Hj], (Hz k) as [_ Hk]. lra. }
  assert (Cau : forall i, (i < length W)%nat -> exists l, Un_cv (fun k => nth i (zs k) 0) l).
  { intros i Hi.
    assert (C : Cauchy_crit (fun k => nth i (zs k) 0)).
    { intros eps He.
      assert (Wi : 0 < nth i W 0) by (rewrite Forall_forall in Wp; apply Wp, nth_In; exact Hi).
      assert (Pos : 0 < nth i W 0 * (eps * eps) / 4) by (apply Rmult_lt_0_compat; [apply Rmult_lt_0_compat; nra|lra]).
      destruct (archimed_cor1 _ Pos) as (N & HN & N0).
      exists N. intros j k Hj Hk. unfold R_dist.
      destruct (Fz j) as [Lj _], (Fz k) as [Lk _].
      pose proof (wdist_entry W Wp (zs j) (zs k) i Lj Lk Hi) as En. specialize (Close j k).
      assert (Inv : forall q, (q >= N)%nat -> / (INR q + 1) < nth i W 0 * (eps * eps) / 4).
      { intros q Hq. apply Rlt_trans with (/ INR N); [|exact HN].
        apply Rinv_lt_contravar.
        - apply Rmult_lt_0_compat; [apply lt_0_INR; lia|pose proof (pos_INR q); lra].
        - apply le_INR in Hq. lra. }
      pose proof (Inv j Hj). pose proof (Inv k Hk).
      set (d := nth i (zs j) 0 - nth i (zs k) 0) in *.
      assert (D : d * d < eps * eps).
      { apply Rmult_lt_reg_l with (nth i W 0); [exact Wi|]. lra. }
      apply Rnot_le_lt. intros B. assert (eps * eps <= Rabs d * Rabs d) by (apply Rmult_le_compat; lra).
      rewrite <- Rabs_mult, (Rabs_right (d * d)) in H1 by (apply Rle_ge, Rle_0_sqr). lra. }
    destruct (R_complete _ C) as [l Hl]. exists l; exact Hl. }
  destruct (list_of _ (length W) Cau) as (z & Lz & Cv).
  assert (T : tends zs z).
  { split; [intros k; destruct (Fz k); congruence|]. intros i Hi. apply Cv. lia. }
  exists z. split; [split; [exact Lz|]|].
  - assert (S : forall k, solves rows consts (zs k)) by (intros k; apply Fz).
    clear - S T. unfold solves in *. pose proof (S 0%nat) as S0. revert S S0. generalize (zs 0%nat) at 1. intros z0 S S0. revert S.
    induction S0 as [|r c rs cs H0 _ IH]; intros S; constructor.
    + destruct (Rle_lt_dec c (dot r z)) as [L|L]; [exact L|exfalso].
      destruct (dot_tends r zs z T (c - dot r z) ltac:(lra)) as [N HN]. specialize (HN N (le_n N)).
      specialize (S N). inversion S; subst. unfold R_dist in HN. apply Rabs_def2 in HN. lra.
    + apply IH. intros k. specialize (S k). inversion S; subst; assumption.
  - intros y Fy. specialize (Low y Fy).
    assert (wdist W A z <= - m); [|lra].
    destruct (Rle_lt_dec (wdist W A z) (- m)) as [L|L]; [exact L|exfalso].
    set (e := wdist W A z + m). assert (He : 0 < e / 2) by (unfold e; lra).
    destruct (wdist_tends W A zs z T (e / 2) He) as [N HN].
    destruct (archimed_cor1 _ He) as (N' & HN' & N0).
    set (k := Nat.max N N'). specialize (HN k ltac:(unfold k; lia)). unfold R_dist in HN. apply Rabs_def2 in HN.
    destruct (Hz k) as [_ Hk].
    assert (/ (INR k + 1) < e / 2).
    { apply Rlt_trans with (/ INR N'); [|exact HN']. apply Rinv_lt_contravar.
      - apply Rmult_lt_0_compat; [apply lt_0_INR; lia|pose proof (pos_INR k); lra].
      - assert (INR N' <= INR k) by (apply le_INR; unfold k; lia). lra. }
    unfold e in *. lra.
Qed.

(** ** Active rows *)
Definition towards_point (e : R) (z y : vec) : vec := map2 (fun a b => a + e * (b - a)) z y.
Lemma towards_length e z y : length z = length y -> length (towards_point e z y) = length z.
Proof. intros H; unfold towards_point; rewrite map2_length, H, Nat.min_id; auto. Qed.
Lemma dot_towards e r : forall z y, length z = length y ->
  dot r (towards_point e z y) = dot r z + e * (dot r y - dot r z).
Proof.
  induction r as [|a r IH]; intros [|x z] [|b y] H; try discriminate; cbn; try ring.
  unfold towards_point in IH. rewrite IH by (simpl in H; lia). ring.
Qed.
Lemma wdist_towards e w : 0 <= e <= 1 -> Forall (fun c => 0 < c) w -> forall a z y, length z = length y ->
  wdist w a (towards_point e z y) <= wdist w a z + e * (wdist w a y - wdist w a z).
Proof.
  intros He. induction 1 as [|c w Hc _ IH]; intros a z y L; [cbn; lra|].
  destruct a as [|q a]; [cbn; lra|]. destruct z as [|x z], y as [|b y]; try discriminate; cbn; [lra|].
  specialize (IH a z y ltac:(simpl in L; lia)). unfold towards_point in IH.
  assert (c * ((q - (x + e * (b - x))) * (q - (x + e * (b - x))))
          <= c * ((q - x) * (q - x)) + e * (c * ((q - b) * (q - b)) - c * ((q - x) * (q - x)))); [|lra].
  assert (Q : 0 <= c * (e * (1 - e)) * ((b - x) * (b - x))).
  { apply Rmult_le_pos; [apply Rmult_le_pos; [lra|apply Rmult_le_pos; lra]|apply Rle_0_sqr]. }
  replace (c * (e * (1 - e)) * ((b - x) * (b - x))) with
    (c * ((q - x) * (q - x)) + e * (c * ((q - b) * (q - b)) - c * ((q - x) * (q - x)))
     - c * ((q - (x + e * (b - x))) * (q - (x + e * (b - x))))) in Q by ring.
  lra.
Qed.

Lemma small_step rs cs z y : length z = length y -> Forall2 (fun r c => c <= dot r z) rs cs ->
  (forall j r c, nth_error rs j = Some r -> nth_error cs j = Some c -> dot r z = c -> c <= dot r y) ->
  exists e0, 0 < e0 <= 1 /\ forall e, 0 < e <= e0 -> Forall2 (fun r c => c <= dot r (towards_point e z y)) rs cs.
Proof.
  intros L H. induction H as [|r c rs cs H0 _ IH]; intros Act.
  - exists 1. split; [lra|]. intros e _. constructor.
  - destruct IH as (e1 & He1 & H1); [intros j r' c' Hr Hc; exact (Act (S j) r' c' Hr Hc)|].
    assert (K : exists e2, 0 < e2 <= 1 /\ forall e, 0 < e <= e2 -> c <= dot r z + e * (dot r y - dot r z)).
    { destruct (Req_dec (dot r z) c) as [E|N].
      - exists 1. split; [lra|]. intros e He. specialize (Act 0%nat r c eq_refl eq_refl E). rewrite E. nra.
      - assert (G : 0 < dot r z - c) by lra. set (g := dot r z - c) in *. set (d := Rabs (dot r y - dot r z) + 1).
        assert (Dp : 0 < d) by (unfold d; pose proof (Rabs_pos (dot r y - dot r z)); lra).
        assert (Gd : 0 < g / d) by (apply Rmult_lt_0_compat; [lra|apply Rinv_0_lt_compat; lra]).
        exists (Rmin 1 (g / d)). split; [split; [apply Rmin_pos; lra|apply Rmin_l]|].
        intros e He. pose proof (Rmin_r 1 (g / d)).
        assert (e * d <= g).
        { apply Rle_trans with (g / d * d); [apply Rmult_le_compat_r; lra|]. right; field; lra. }
        pose proof (Rle_abs (- (dot r y - dot r z))) as B. rewrite Rabs_Ropp in B.
        assert (e * (- (dot r y - dot r z)) <= e * d) by (apply Rmult_le_compat_l; unfold d; lra).
        unfold g in *. lra. }
    destruct K as (e2 & He2 & H2).
    exists (Rmin e1 e2). split; [split; [apply Rmin_pos; lra|pose proof (Rmin_l e1 e2); lra]|].
    intros e He. pose proof (Rmin_l e1 e2). pose proof (Rmin_r e1 e2). constructor.
    + rewrite dot_towards by exact L. apply H2. lra.
    + apply H1. lra.
Qed.

Lemma active_suffices z y : feas z -> (forall y, feas y -> wdist W A z <= wdist W A y) -> length y = length W ->
  (forall j r c, nth_error rows j = Some r -> nth_error consts j = Some c -> dot r z = c -> c <= dot r y) ->
  wdist W A z <= wdist W A y.
Proof.
  intros [Lz Sz] Opt Ly Act.
  destruct (small_step rows consts z y ltac:(congruence) Sz Act) as (e & He & S). specialize (S e ltac:(lra)).
  specialize (Opt (towards_point e z y)).
  assert (F : feas (towards_point e z y)) by (split; [rewrite towards_length by congruence; exact Lz|exact S]).
  specialize (Opt F).
  pose proof (wdist_towards e W ltac:(lra) Wp A z y ltac:(congruence)) as C. nra.
Qed.
End Minimum.

(** ** An exact solver *)
(** The programs the modules pose: weight 1 for the controls, the roots of the slack scales for
    the slack values, desired control [u]. *)
Definition posed (G : mat) (a : vec) (dim : nat) (ps u : vec) : Prop :=
  G = obj_weight dim ps /\ a = u ++ zeros (length ps) /\ length u = dim /\ Forall (fun p => 0 < p) ps.

Definition active_rows (C : mat) (b z : vec) : list nat :=
  map S (filter (fun j => if Req_EM_T (dot (nth j C []) z) (nth j b 0) then true else false) (seq 0 (length C))).

Definition exact_answer (G : mat) (a : vec) (C : mat) (b : vec) (out : res (vec * list nat)) : Prop :=
  ((exists dim ps u, posed G a dim ps u) ->
   ((exists y, length y = length a /\ solves C b y) ->
      exists z, out = Ok (z, active_rows C b z) /\ length z = length a /\ solves C b z /\
        forall y, length y = length a ->
          (forall j r c, nth_error C j = Some r -> nth_error b j = Some c -> dot r z = c -> c <= dot r y) ->
          objective G a z <= objective G a y) /\
   (~ (exists y, length y = length a /\ solves C b y) -> out = Err (ValueError msg_inconsistent))) /\
  (~ (exists dim ps u, posed G a dim ps u) -> out = Err (OtherExn 0)).

Lemma exact_exists G a C b : exists out, exact_answer G a C b out.
Proof.
  destruct (classic (exists dim ps u, posed G a dim ps u)) as [P|N]; [|exists (Err (OtherExn 0)); split; tauto].
  destruct (classic (exists y, length y = length a /\ solves C b y)) as [F|F];
    [|exists (Err (ValueError msg_inconsistent)); split; [intros _; split; tauto|tauto]].
  destruct P as (dim & ps & u & -> & -> & Lu & Hp).
  set (W := repeat 1 dim ++ map sqrt ps). set (A := u ++ zeros (length ps)) in *.
  assert (LW : length W = (dim + length ps)%nat) by (unfold W; rewrite app_length, repeat_length, map_length; auto).
  assert (LA : length A = length W) by (unfold A; rewrite app_length, zeros_length; lia).
  assert (Wp : Forall (fun c => 0 < c) W).
  { apply Forall_app; split.
    - apply Forall_forall; intros c Hc; apply repeat_spec in Hc; subst; lra.
    - apply Forall_forall; intros c Hc; apply in_map_iff in Hc; destruct Hc as (p & <- & Hc).
      apply sqrt_lt_R0; rewrite Forall_forall in Hp; auto. }
  rewrite LA in F.
  destruct (minimum_exists W A C b Wp LA F) as (z & [Lz Sz] & Opt).
  exists (Ok (z, active_rows C b z)). split; [|intros N; exfalso; apply N; exists dim, ps, u; repeat split; auto].
  intros _. split; [|intros N; exfalso; apply N; rewrite LA; exact F].
  intros _. exists z. split; [reflexivity|split; [congruence|split; [exact Sz|]]].
  intros y Ly Act. unfold A. rewrite !objective_wdist by (auto; congruence). fold W A.
  pose proof (active_suffices W A C b Wp LA z y (conj Lz Sz) Opt ltac:(congruence) Act). lra.
Qed.

Lemma solves_nth C b z : solves C b z -> forall j r c, nth_error C j = Some r -> nth_error b j = Some c -> c <= dot r z.
Proof.
  intros H. induction H; intros [|j] r c Hr Hc; simpl in *; try discriminate.
  - injection Hr as <-; injection Hc as <-; auto.
  - eauto.
Qed.
Lemma solves_length C b z : solves C b z -> length C = length b.
Proof. intros H; induction H; simpl; auto. Qed.

Lemma exact_contract (solve : qp_solver) : (forall G a C b, exact_answer G a C b (solve G a C b)) ->
  qp_contract solve /\ forall G a C b, solve G a C b <> Err SolverError.
Proof.
  intros H. split; [split|].
  - intros G a C b z iact E. destruct (H G a C b) as [P N].
    destruct (classic (exists dim ps u, posed G a dim ps u)) as [Q|Q]; [|rewrite (N Q) in E; discriminate].
    destruct (P Q) as [F NF]. clear P N.
    destruct (classic (exists y, length y = length a /\ solves C b y)) as [R0|R0]; [|rewrite (NF R0) in E; discriminate].
    destruct (F R0) as (z' & E' & Lz & Sz & Opt). rewrite E in E'. injection E' as <- ->.
    split; [exact Lz|split; [exact Sz|]].
    assert (Act : forall j r c, In (S j) (active_rows C b z) -> nth_error C j = Some r -> nth_error b j = Some c -> dot r z = c).
    { intros j r c I Hr Hc. unfold active_rows in I. apply in_map_iff in I. destruct I as (j' & Ej & I). injection Ej as ->.
      apply filter_In in I. destruct I as [_ I].
      rewrite (nth_error_nth C j [] Hr), (nth_error_nth b j 0 Hc) in I.
      destruct (Req_EM_T (dot r z) c); [assumption|discriminate]. }
    split; [|split].
    + intros y Ly Sy. apply Opt; [exact Ly|]. intros j r c Hr Hc _. exact (solves_nth C b y Sy j r c Hr Hc).
    + intros i I. pose proof I as I'. unfold active_rows in I'. apply in_map_iff in I'. destruct I' as (j & <- & I').
      apply filter_In in I'. destruct I' as [I' _]. apply in_seq in I'.
      destruct (nth_error C j) as [r|] eqn:Hr; [|apply nth_error_None in Hr; lia].
      destruct (nth_error b j) as [c|] eqn:Hc; [|apply nth_error_None in Hc; rewrite <- (solves_length C b z Sz) in Hc; lia].
      exists j, r, c. repeat split; auto. exact (Act j r c I Hr Hc).
    + intros y Ly Hy. apply Opt; [exact Ly|]. intros j r c Hr Hc E0. apply (Hy j r c); auto.
      unfold active_rows. apply in_map. apply filter_In. split.
      * apply in_seq. assert (j < length C)%nat by (apply nth_error_Some; congruence). lia.
      * rewrite (nth_error_nth C j [] Hr), (nth_error_nth b j 0 Hc). destruct (Req_EM_T (dot r z) c); [reflexivity|contradiction].
  - intros G a C b E y Ly Sy. destruct (H G a C b) as [P N].
    destruct (classic (exists dim ps u, posed G a dim ps u)) as [Q|Q]; [|rewrite (N Q) in E; discriminate].
    destruct (P Q) as [F _]. destruct F as (z & E' & _); [exists y; auto|]. congruence.
  - intros G a C b E. destruct (H G a C b) as [P N].
    destruct (classic (exists dim ps u, posed G a dim ps u)) as [Q|Q]; [|rewrite (N Q) in E; discriminate].
    destruct (P Q) as [F NF].
    destruct (classic (exists y, length y = length a /\ solves C b y)) as [R0|R0]; [|rewrite (NF R0) in E; discriminate].
    destruct (F R0) as (z & E' & _). congruence.
Qed.

Lemma exact_solver_exists : exists solve : qp_solver, forall G a C b, exact_answer G a C b (solve G a C b).
Proof.
  destruct (choice (fun (i : (mat * vec) * (mat * vec)) out => exact_answer (fst (fst i)) (snd (fst i)) (fst (snd i)) (snd (snd i)) out))
    as [f Hf].
  - intros [[G a] [C b]]. exact (exact_exists G a C b).
  - exists (fun G a C b => f ((G, a), (C, b))). intros G a C b. exact (Hf ((G, a), (C, b))).
Qed.

