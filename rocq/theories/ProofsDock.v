(** Lemmas on the docking modules: staying safe when the program is feasible near the safe set,
    the gradient of the speed limit, and the braking manoeuvre that meets all requirements. *)
From Coq Require Import String Reals List Bool ZArith Lia Lra Psatz.
From Coquelicot Require Import Hierarchy Derive AutoDerive.
From Verif Require Import Prelude Vec ModelBase ModelController ModelSimplex ModelAsif ModelConstraint ModelCwh ModelZoo ModelDock
  SpecCore SpecAsif SpecConstraint SpecCwh SpecConic SpecZoo SpecDock ProofsVec ProofsConstraint ProofsCwh ProofsCwh2.
Import ListNotations.
Local Open Scope R_scope.

(** ** Several functions that stay non-negative together *)
Lemma near_continuous (v : R -> R) t e : continuity_pt v t -> 0 < e ->
  exists d, 0 < d /\ forall r, Rabs (r - t) < d -> Rabs (v r - v t) < e.
Proof.
  intros C He. destruct (C e He) as (d & Hd & H). exists d; split; [exact Hd|]. intros r Hr.
  destruct (Req_dec r t) as [->|N]; [rewrite Rminus_eq_0, Rabs_R0; exact He|].
  apply (H r). split; [split; [exact I|auto]|exact Hr].
Qed.

Lemma together (fs : list ((R -> R) * (R -> R))) T e : 0 < e ->
  (forall f, In f fs -> forall t, 0 <= t <= T -> derivable_pt_lim (fst f) t (snd f t)) ->
  (forall t, 0 <= t <= T -> (forall f, In f fs -> - e <= fst f t) ->
     forall f, In f fs -> fst f t < 0 -> 0 < snd f t) ->
  (forall f, In f fs -> 0 <= fst f 0) ->
  forall t, 0 <= t <= T -> forall f, In f fs -> 0 <= fst f t.
Proof.
  intros He D P Z.
  assert (C : forall f, In f fs -> forall t, 0 <= t <= T -> continuity_pt (fst f) t).
  { intros f Hf t Ht. apply derivable_continuous_pt. exists (snd f t). apply D; auto. }
  set (good := fun t => 0 <= t <= T /\ forall r, 0 <= r <= t -> forall f, In f fs -> 0 <= fst f r).
  intros t1 H1.
  assert (G0 : good 0).
  { split; [lra|]. intros r Hr f Hf. replace r with 0 by lra. apply Z; auto. }
  destruct (completeness good) as (a & Ub & Lub).
  { exists T. intros t [Ht _]; lra. }
  { exists 0; exact G0. }
  assert (A0 : 0 <= a) by (apply Ub; exact G0).
  assert (AT : a <= T) by (apply Lub; intros t [Ht _]; lra).
  (* below the supremum everything is fine *)
  assert (B : forall r, 0 <= r < a -> forall f, In f fs -> 0 <= fst f r).
  { intros r Hr f Hf. destruct (Rle_lt_dec 0 (fst f r)) as [L|N]; [exact L|exfalso].
    assert (a <= r); [|lra]. apply Lub. intros t [Ht G].
    destruct (Rle_lt_dec t r) as [L|L]; [exact L|]. specialize (G r ltac:(lra) f Hf). lra. }
  assert (Ga : good a).
  { split; [lra|]. intros r Hr f Hf. destruct (Rlt_le_dec r a) as [L|L]; [apply B; auto; lra|].
    replace r with a by lra. destruct (Rle_lt_dec 0 (fst f a)) as [L'|N]; [exact L'|exfalso].
    destruct (Req_dec a 0) as [E|NE]; [rewrite E in N; specialize (Z f Hf); lra|].
    destruct (near_continuous (fst f) a (- fst f a) (C f Hf a ltac:(lra)) ltac:(lra)) as (d & Hd & H).
    set (q := Rmax 0 (a - d / 2)).
    assert (0 <= q < a) by (unfold q, Rmax; destruct (Rle_dec _ _); lra).
    assert (Rabs (q - a) < d) by (apply Rabs_def1; unfold q, Rmax; destruct (Rle_dec _ _); lra).
    specialize (H q ltac:(auto)). apply Rabs_def2 in H. specialize (B q ltac:(auto) f Hf). lra. }
  destruct (Rle_lt_dec t1 a) as [L|L]; [intros f Hf; apply Ga; auto; lra|exfalso].
  (* a common neighbourhood *)
  assert (Nb : exists d, 0 < d /\ forall r, a <= r < a + d -> forall f, In f fs -> - e <= fst f r).
  { destruct Ga as [_ G].
    assert (K : forall l, incl l fs -> exists d, 0 < d /\ forall r, a <= r < a + d -> forall f, In f l -> - e <= fst f r).
    { induction l as [|g l IH]; intros Hl; [exists 1; split; [lra|intros r _ f []]|].
      destruct IH as (d & Hd & H); [intros f Hf; apply Hl; right; exact Hf|].
      assert (Hg : In g fs) by (apply Hl; left; reflexivity).
      destruct (near_continuous (fst g) a e (C g Hg a ltac:(lra)) He) as (d' & Hd' & H').
      exists (Rmin d d'). split; [apply Rmin_pos; auto|]. intros r Hr f [<-|Hf].
      - pose proof (Rmin_r d d'). specialize (H' r ltac:(apply Rabs_def1; lra)). apply Rabs_def2 in H'.
        specialize (G a ltac:(lra) g Hg). lra.
      - pose proof (Rmin_l d d'). apply H; auto; lra. }
    apply K. intros f Hf; exact Hf. }
  destruct Nb as (d & Hd & Hn).
  set (q := Rmin (d / 2) (t1 - a)).
  assert (Q : 0 < q /\ q < d /\ a + q <= T).
  { unfold q, Rmin; destruct (Rle_dec _ _); lra. }
  assert (Gq : good (a + q)).
  { split; [lra|]. intros r Hr f Hf. destruct (Rlt_le_dec r a) as [L'|L']; [apply B; auto; lra|].
    pose proof (stays_nonneg (fun t => fst f (a + t)) (fun t => snd f (a + t)) q) as S. cbv beta in S.
    replace r with (a + (r - a)) by ring. apply S.
    - intros t Ht. pose proof (derivable_pt_lim_comp (fun t => a + t) (fst f) t 1 (snd f (a + t))) as E.
      rewrite Rmult_1_r in E. apply E.
      + replace 1 with (0 + 1) by ring. apply (derivable_pt_lim_plus (fun _ => a) id);
          [apply derivable_pt_lim_const|apply derivable_pt_lim_id].
      + apply D; auto; lra.
    - intros t Ht N. apply (P (a + t)); auto; [lra|]. intros g Hg. apply Hn; auto; lra.
    - rewrite Rplus_0_r. apply Ga; auto; lra.
    - lra. }
  specialize (Ub _ Gq). lra.
Qed.

(** ** The braking manoeuvre: rates of the speed limit *)
Section Brake.
Variables (v0 v1 d0 rr vv q rho sg kap : R).
Hypotheses (R0 : 0 <= rr) (V0 : 0 <= vv) (Q : q * q <= rr * vv).
Hypotheses (Rho : 0 < rho) (Rho2 : rho * rho = rr + 1 / 100000) (Sg : 0 < sg) (Sg2 : sg * sg = vv + 1 / 100000).
Hypotheses (K : kap = 1 / 50 / sg + 2 * v1) (H1 : 0 <= v1 <= 1 / 100) (H0 : 1 / 50 <= v0 - v1 * d0).
Let h := v0 + v1 * (rho - d0) - sg - 1 / 10000.

Lemma towards : - sqrt vv <= q / rho.
Proof.
  assert (A : 0 <= sqrt vv) by apply sqrt_pos.
  assert (B : sqrt vv * sqrt vv = vv) by (apply sqrt_sqrt; auto).
  apply Rmult_le_reg_r with rho; [exact Rho|]. unfold Rdiv; rewrite Rmult_assoc, Rinv_l, Rmult_1_r by lra.
  assert (- q <= sqrt vv * rho); [|lra].
  apply le_of_sqr; [apply Rmult_le_pos; lra|].
  replace (- q * - q) with (q * q) by ring.
  replace (sqrt vv * rho * (sqrt vv * rho)) with ((sqrt vv * sqrt vv) * (rho * rho)) by ring.
  rewrite B, Rho2. nra.
Qed.

Lemma kap_pos : 0 < kap.
Proof. rewrite K. assert (0 < / sg) by (apply Rinv_0_lt_compat; auto). unfold Rdiv. nra. Qed.

Lemma kap_sg : kap * sg = 1 / 50 + 2 * v1 * sg.
Proof. rewrite K. field; lra. Qed.

Lemma rate_outside : h < 0 -> 19 / 1000 <= v1 * (q / rho) + kap * (vv / sg).
Proof.
  intros N. pose proof towards as T. pose proof kap_sg as Ks.
  assert (S : 199 / 10000 < sg) by (unfold h in N; nra).
  assert (Vs : sqrt vv <= sg).
  { apply le_of_sqr; [lra|]. rewrite sqrt_sqrt by auto. rewrite Sg2. lra. }
  assert (E : kap * (vv / sg) = (kap * sg) * (vv / (sg * sg))) by (field; lra).
  assert (F : 97 / 100 <= vv / (sg * sg)).
  { apply Rmult_le_reg_r with (sg * sg); [nra|]. unfold Rdiv at 2. rewrite Rmult_assoc, Rinv_l by nra. nra. }
  rewrite E, Ks. assert (0 <= v1 * sg) by nra. nra.
Qed.

Lemma rate_inside : 0 <= h -> 0 <= v1 * (q / rho) + kap * (vv / sg) + h / 100.
Proof.
  intros N. pose proof towards as T. pose proof kap_sg as Ks. pose proof kap_pos as Kp.
  assert (B0 : 0 <= sqrt vv) by apply sqrt_pos.
  assert (B : sqrt vv * sqrt vv = vv) by (apply sqrt_sqrt; auto).
  set (w := sqrt vv) in *.
  assert (E : kap * (vv / sg) = (kap * sg) * (vv / (sg * sg))) by (field; lra).
  assert (P0 : 0 <= vv / (sg * sg)) by (apply Rmult_le_pos; [lra|left; apply Rinv_0_lt_compat; nra]).
  destruct (Rle_lt_dec (1 / 100000) vv) as [L|L].
  - assert (F : 1 / 2 <= vv / (sg * sg)).
    { apply Rmult_le_reg_r with (sg * sg); [nra|]. unfold Rdiv at 2. rewrite Rmult_assoc, Rinv_l by nra. nra. }
    assert (Vs : w <= sg) by (apply le_of_sqr; [lra|rewrite B, Sg2; lra]).
    rewrite E, Ks. assert (0 <= v1 * sg) by nra. nra.
  - assert (w <= 4 / 1000) by (apply le_of_sqr; [lra|nra]).
    assert (sg <= 5 / 1000) by (apply le_of_sqr; [lra|nra]).
    assert (0 <= kap * (vv / sg)) by (rewrite E, Ks; apply Rmult_le_pos; [nra|exact P0]).
    assert (149 / 10000 <= h) by (unfold h; nra).
    assert (- (4 / 100000) <= v1 * (q / rho)) by nra. lra.
Qed.
End Brake.

(** ** Gradients of the constraints *)
Lemma smooth_norm (k t : R) : 0 < k -> is_derive (fun r => sqrt (r * r + k)) t (t / sqrt (t * t + k)).
Proof.
  intros Hk. assert (P : 0 < t * t + k) by nra. assert (S : 0 < sqrt (t * t + k)) by (apply sqrt_lt_R0; auto).
  auto_derive; [exact P|]. field. lra.
Qed.

Lemma position_partial (v0 v1 d0 s k t : R) : 0 < k ->
  is_derive (fun r => v0 + v1 * (sqrt (r * r + k) - d0) - s) t (v1 * (t / sqrt (t * t + k))).
Proof.
  intros Hk. apply is_derive_ext with (fun r => v1 * sqrt (r * r + k) + (v0 - v1 * d0 - s)); [intros r; cbn; ring|].
  replace (v1 * (t / sqrt (t * t + k))) with (plus (v1 * (t / sqrt (t * t + k))) 0) by apply Rplus_0_r.
  apply (@is_derive_plus R_AbsRing R_NormedModule (fun r => v1 * sqrt (r * r + k)) (fun _ => v0 - v1 * d0 - s));
    [|exact (is_derive_const (V := R_NormedModule) (v0 - v1 * d0 - s) t)].
  apply (is_derive_scal (fun r => sqrt (r * r + k)) t v1 (t / sqrt (t * t + k))). apply smooth_norm; auto.
Qed.
Lemma velocity_partial (a k t : R) : 0 < k ->
  is_derive (fun r => a - sqrt (r * r + k)) t (- (t / sqrt (t * t + k))).
Proof.
  intros Hk. apply is_derive_ext with (fun r => -1 * sqrt (r * r + k) + a); [intros r; cbn; ring|].
  replace (- (t / sqrt (t * t + k))) with (plus (-1 * (t / sqrt (t * t + k))) 0) by (unfold plus; cbn; ring).
  apply (@is_derive_plus R_AbsRing R_NormedModule (fun r => -1 * sqrt (r * r + k)) (fun _ => a));
    [|exact (is_derive_const (V := R_NormedModule) a t)].
  apply (is_derive_scal (fun r => sqrt (r * r + k)) t (-1) (t / sqrt (t * t + k))). apply smooth_norm; auto.
Qed.

Lemma rel_vel_3 v0 v1 d0 x y z vx vy vz : rel_vel_value 3 rv_delta [x; y; z; vx; vy; vz] (mkRv v0 v1 d0)
  = v0 + v1 * (sqrt (x * x + y * y + z * z + rv_delta) - d0) - sqrt (vx * vx + vy * vy + vz * vz + rv_delta).
Proof.
  unfold rel_vel_value, norm_with_delta. cbn [rv_v0 rv_v1 rv_distance].
  replace (sumsq (slice 0 3 [x; y; z; vx; vy; vz])) with (x * x + y * y + z * z) by (cbn; ring).
  replace (sumsq (slice 3 (2 * 3) [x; y; z; vx; vy; vz])) with (vx * vx + vy * vy + vz * vz) by (cbn; ring). reflexivity.
Qed.
Lemma rel_vel_2 v0 v1 d0 x y vx vy : rel_vel_value 2 rv_delta [x; y; vx; vy] (mkRv v0 v1 d0)
  = v0 + v1 * (sqrt (x * x + y * y + rv_delta) - d0) - sqrt (vx * vx + vy * vy + rv_delta).
Proof.
  unfold rel_vel_value, norm_with_delta. cbn [rv_v0 rv_v1 rv_distance].
  replace (sumsq (slice 0 2 [x; y; vx; vy])) with (x * x + y * y) by (cbn; ring).
  replace (sumsq (slice 2 (2 * 2) [x; y; vx; vy])) with (vx * vx + vy * vy) by (cbn; ring). reflexivity.
Qed.

Lemma pos_der (f : R -> R) v0 v1 d0 s k l t : 0 < k ->
  (forall r, f r = v0 + v1 * (sqrt (r * r + k) - d0) - s) -> l = t * t + k ->
  derivable_pt_lim f t (v1 * (t / sqrt l)).
Proof.
  intros Hk E ->. apply is_derive_Reals. apply is_derive_ext with (fun r => v0 + v1 * (sqrt (r * r + k) - d0) - s).
  - intros r; symmetry; apply E.
  - apply position_partial; auto.
Qed.
Lemma vel_der (f : R -> R) a k l t : 0 < k ->
  (forall r, f r = a - sqrt (r * r + k)) -> l = t * t + k ->
  derivable_pt_lim f t (- (t / sqrt l)).
Proof.
  intros Hk E ->. apply is_derive_Reals. apply is_derive_ext with (fun r => a - sqrt (r * r + k)).
  - intros r; symmetry; apply E.
  - apply velocity_partial; auto.
Qed.

Lemma rel_vel_gradient_3 v0 v1 d0 x y z vx vy vz :
  let rho := sqrt (x * x + y * y + z * z + rv_delta) in
  let sg := sqrt (vx * vx + vy * vy + vz * vz + rv_delta) in
  is_gradient (fun s => rel_vel_value 3 rv_delta s (mkRv v0 v1 d0)) [x; y; z; vx; vy; vz]
    [v1 * (x / rho); v1 * (y / rho); v1 * (z / rho); - (vx / sg); - (vy / sg); - (vz / sg)].
Proof.
  intros rho sg. split; [reflexivity|]. intros i Hi.
  assert (D : 0 < rv_delta) by (unfold rv_delta; lra).
  destruct i as [|[|[|[|[|[|i]]]]]]; cbn [replaced nth]; [| | | | | |simpl in Hi; lia].
  - apply (pos_der _ v0 v1 d0 sg (y * y + z * z + rv_delta)); [nra| |ring].
    intros r; rewrite rel_vel_3. unfold sg. do 2 f_equal. f_equal. f_equal. f_equal. ring.
  - apply (pos_der _ v0 v1 d0 sg (x * x + z * z + rv_delta)); [nra| |ring].
    intros r; rewrite rel_vel_3. unfold sg. do 2 f_equal. f_equal. f_equal. f_equal. ring.
  - apply (pos_der _ v0 v1 d0 sg (x * x + y * y + rv_delta)); [nra| |ring].
    intros r; rewrite rel_vel_3. unfold sg. do 2 f_equal. f_equal. f_equal. f_equal. ring.
  - apply (vel_der _ (v0 + v1 * (rho - d0)) (vy * vy + vz * vz + rv_delta)); [nra| |ring].
    intros r; rewrite rel_vel_3. unfold rho. f_equal. f_equal. ring.
  - apply (vel_der _ (v0 + v1 * (rho - d0)) (vx * vx + vz * vz + rv_delta)); [nra| |ring].
    intros r; rewrite rel_vel_3. unfold rho. f_equal. f_equal. ring.
  - apply (vel_der _ (v0 + v1 * (rho - d0)) (vx * vx + vy * vy + rv_delta)); [nra| |ring].
    intros r; rewrite rel_vel_3. unfold rho. f_equal. f_equal. ring.
Qed.

Lemma rel_vel_gradient_2 v0 v1 d0 x y vx vy :
  let rho := sqrt (x * x + y * y + rv_delta) in
  let sg := sqrt (vx * vx + vy * vy + rv_delta) in
  is_gradient (fun s => rel_vel_value 2 rv_delta s (mkRv v0 v1 d0)) [x; y; vx; vy]
    [v1 * (x / rho); v1 * (y / rho); - (vx / sg); - (vy / sg)].
Proof.
  intros rho sg. split; [reflexivity|]. intros i Hi.
  assert (D : 0 < rv_delta) by (unfold rv_delta; lra).
  destruct i as [|[|[|[|i]]]]; cbn [replaced nth]; [| | | |simpl in Hi; lia].
  - apply (pos_der _ v0 v1 d0 sg (y * y + rv_delta)); [nra| |ring].
    intros r; rewrite rel_vel_2. unfold sg. do 2 f_equal. f_equal. f_equal. f_equal. ring.
  - apply (pos_der _ v0 v1 d0 sg (x * x + rv_delta)); [nra| |ring].
    intros r; rewrite rel_vel_2. unfold sg. do 2 f_equal. f_equal. f_equal. f_equal. ring.
  - apply (vel_der _ (v0 + v1 * (rho - d0)) (vy * vy + rv_delta)); [nra| |ring].
    intros r; rewrite rel_vel_2. unfold rho. f_equal. f_equal. ring.
  - apply (vel_der _ (v0 + v1 * (rho - d0)) (vx * vx + rv_delta)); [nra| |ring].
    intros r; rewrite rel_vel_2. unfold rho. f_equal. f_equal. ring.
Qed.
