(** Lemmas about time on IEEE doubles. *)
From Coq Require Import ZArith Reals List Bool Lia Lra.
From Flocq Require Import Core BinarySingleNaN Relative Plus_error.
From Verif Require Import Prelude ModelTime SpecTime.
Import ListNotations.
Local Open Scope R_scope.

Notation fx := (SpecFloat.fexp 53 1024).
Notation rnd := (round radix2 (SpecFloat.fexp 53 1024) (round_mode mode_NE)).
Lemma fx_flt : fx = FLT_exp (SpecFloat.emin 53 1024) 53. Proof. reflexivity. Qed.
Global Instance fx_valid : Valid_exp (SpecFloat.fexp 53 1024) := fexp_correct 53 1024 _.

Lemma roundoff_eq : u_ro radix2 53 = roundoff.
Proof. unfold u_ro, roundoff. change (bpow radix2 (-53 + 1)) with (/ IZR (2 ^ 52)). rewrite pow_IZR.
  replace (2 ^ Z.of_nat 53)%Z with (2 * 2 ^ 52)%Z by reflexivity. rewrite mult_IZR. rewrite Rinv_mult. reflexivity. Qed.
Lemma roundoff_pos : 0 < roundoff <= 1 / 2.
Proof. unfold roundoff. split; [apply Rinv_0_lt_compat, pow_lt; lra|].
  replace (1/2) with (/ (2^1)) by lra. apply Rinv_le_contravar; [lra|]. apply Rle_pow; [lra|lia]. Qed.

(** One addition of nonnegative doubles. *)
Lemma add_cases x y : finite x -> finite y -> 0 <= seconds x -> 0 <= seconds y ->
  let s := seconds x + seconds y in
  s * (1 - roundoff) <= rnd s <= s * (1 + roundoff) /\ 0 <= rnd s /\
  ((finite (d_add x y) /\ seconds (d_add x y) = rnd s /\ rnd s < bpow radix2 1024) \/
   (d_add x y = B754_infinity false /\ bpow radix2 1024 <= rnd s)).
Proof.
  intros Fx Fy Px Py s.
  assert (P : 0 <= rnd s).
  { rewrite <- (round_0 radix2 fx (round_mode mode_NE)). apply round_le; [exact _|exact _|]. unfold s. lra. }
  split; [|split; [exact P|]].
  - assert (Gx := generic_format_B2R 53 1024 x). assert (Gy := generic_format_B2R 53 1024 y). rewrite fx_flt in Gx, Gy.
    destruct (FLT_plus_error_N_ex radix2 (SpecFloat.emin 53 1024) 53 (fun x => negb (Z.even x)) _ _ Gx Gy) as (eps & E & Q).
    rewrite roundoff_eq in E. fold (seconds x) (seconds y) s in Q.
    change (rnd s) with (round radix2 (FLT_exp (SpecFloat.emin 53 1024) 53) (Znearest (fun x => negb (Z.even x))) s). rewrite Q.
    assert (B : Rabs eps <= roundoff).
    { eapply Rle_trans; [exact E|]. assert (R := roundoff_pos). unfold Rdiv. rewrite <- (Rmult_1_r roundoff) at 3.
      apply Rmult_le_compat_l; [lra|]. rewrite <- Rinv_1. apply Rinv_le_contravar; lra. }
    apply Rabs_le_inv in B. assert (0 <= s) by (unfold s; lra). split; apply Rmult_le_compat_l; lra.
  - unfold d_add, finite, seconds in *. assert (C := Bplus_correct 53 1024 _ _ mode_NE x y Fx Fy). fold s in C.
    rewrite Rabs_right in C by lra.
    destruct (Rlt_bool_spec (rnd s) (bpow radix2 1024)) as [L|L].
    + left. destruct C as (A & B & _). auto.
    + right. split; [|exact L]. destruct C as (A & B).
      assert (Sx : Bsign x = false).
      { destruct (Bsign x) eqn:Q; [|reflexivity]. exfalso.
        assert (Z : B2R x <= 0 /\ B2R y <= 0).
        { split; [destruct x as [| | |[] ? ? ?]|destruct y as [| | |[] ? ? ?]]; simpl in *; try discriminate; try lra;
            apply F2R_le_0; simpl; lia. }
        assert (s = 0) by (unfold s; lra). rewrite H in L. rewrite round_0 in L by exact _.
        assert (T := bpow_gt_0 radix2 1024). lra. }
      rewrite Sx in A. apply B2SF_inj. rewrite A. reflexivity.
Qed.

Lemma ge_finite x y : finite x -> finite y -> d_ge x y = true <-> seconds y <= seconds x.
Proof. intros Fx Fy. unfold d_ge. rewrite Bleb_correct by assumption. unfold seconds. destruct (Rle_bool_spec (B2R y) (B2R x)); split; auto; intros; try discriminate; lra. Qed.
Lemma ge_infinity y : finite y -> d_ge (B754_infinity false) y = true.
Proof. unfold finite. destruct y as [[]|[]| |[]]; try discriminate; reflexivity. Qed.
Lemma below_top x : finite x -> seconds x < bpow radix2 1024.
Proof. intros _. eapply Rle_lt_trans; [apply Rle_abs|]. apply abs_B2R_lt_emax. Qed.
Lemma zero_number : finite d_zero /\ seconds d_zero = 0. Proof. split; reflexivity. Qed.

(** Accumulated time. *)
Fixpoint clock (t : double) (ds : list double) : double :=
  match ds with [] => t | d :: ds => clock (d_add t d) ds end.
Lemma clock_app t a b : clock t (a ++ b) = clock (clock t a) b.
Proof. revert t. induction a; intros; cbn; auto. Qed.

Lemma total_app a b : total (a ++ b) = total a + total b.
Proof. unfold total. rewrite map_app, fold_right_app. induction (map seconds a) as [|r l IH]; cbn; [ring|]. rewrite IH. ring. Qed.
Lemma total_nonneg ds : Forall positive ds -> 0 <= total ds.
Proof. induction 1 as [|d ds (_ & P) _ IH]; unfold total in *; cbn; lra. Qed.

Lemma widen_hi c t d hi u : 0 <= d -> 1 <= hi -> 0 < u <= 1 / 2 -> c <= t * hi -> (c + d) * (1 + u) <= (t + d) * ((1 + u) * hi).
Proof. intros D H U C. replace ((t + d) * ((1 + u) * hi)) with ((t * hi + d * hi) * (1 + u)) by ring. apply Rmult_le_compat_r; [lra|]. nra. Qed.
Lemma widen_lo c t d lo u : 0 <= d -> lo <= 1 -> 0 < u <= 1 / 2 -> t * lo <= c -> (t + d) * ((1 - u) * lo) <= (c + d) * (1 - u).
Proof. intros D H U C. replace ((t + d) * ((1 - u) * lo)) with ((t * lo + d * lo) * (1 - u)) by ring. apply Rmult_le_compat_r; [lra|]. nra. Qed.
(** The clock reads between the exact total less and more its rounding, or infinity when even
    the exact total overflows up to rounding. *)
Lemma clock_total ds : Forall positive ds ->
  let k := length ds in
  (finite (clock d_zero ds) /\ 0 <= seconds (clock d_zero ds) /\
     total ds * (1 - roundoff) ^ k <= seconds (clock d_zero ds) <= total ds * (1 + roundoff) ^ k) \/
  (clock d_zero ds = B754_infinity false /\ bpow radix2 1024 <= total ds * (1 + roundoff) ^ k).
Proof.
  intros F. assert (U := roundoff_pos). induction ds as [|d ds IH] using rev_ind.
  - left. cbn. unfold total. cbn. rewrite !Rmult_0_l. repeat split; try reflexivity; lra.
  - apply Forall_app in F. destruct F as (Fd & Pd). inversion Pd as [|? ? (Gd & Ld) _]; subst. specialize (IH Fd).
    rewrite clock_app. cbn [clock]. rewrite total_app, app_length. cbn [length]. rewrite Nat.add_1_r.
    assert (Td : total [d] = seconds d) by (unfold total; cbn; ring). rewrite Td.
    assert (N := total_nonneg ds Fd). cbn [pow]. cbv zeta in IH.
    assert (P1 : 1 <= (1 + roundoff) ^ length ds) by (apply pow_R1_Rle; lra).
    assert (P2 : 0 < (1 - roundoff) ^ length ds) by (apply pow_lt; lra).
    assert (P3 : (1 - roundoff) ^ length ds <= 1).
    { apply Rle_trans with (1 ^ length ds); [apply pow_incr; lra|rewrite pow1; lra]. }
    set (hi := (1 + roundoff) ^ length ds) in *. set (lo := (1 - roundoff) ^ length ds) in *.
    destruct IH as [(Fc & Pc & Lc & Hc)|(Ec & Hc)].
    + destruct (add_cases _ _ Fc Gd Pc (Rlt_le _ _ Ld)) as ((A & B) & P & [(Fr & Sr & _)|(Er & Hr)]).
      * left. split; [exact Fr|]. rewrite Sr. split; [exact P|].
        split; [apply (Rle_trans _ _ _ (widen_lo _ _ _ _ _ (Rlt_le _ _ Ld) P3 U Lc) A)
               |apply (Rle_trans _ _ _ B (widen_hi _ _ _ _ _ (Rlt_le _ _ Ld) P1 U Hc))].
      * right. split; [exact Er|].
        apply (Rle_trans _ _ _ Hr), (Rle_trans _ _ _ B (widen_hi _ _ _ _ _ (Rlt_le _ _ Ld) P1 U Hc)).
    + right. rewrite Ec. split.
      * unfold finite in Gd. destruct d as [| | |]; try discriminate; reflexivity.
      * assert (T := bpow_gt_0 radix2 1024). assert (0 < hi) by lra.
        assert (total ds * hi <= (total ds + seconds d) * hi) by (apply Rmult_le_compat_r; lra). nra.
Qed.
Lemma clock_below ds T : Forall positive ds -> finite T -> d_ge (clock d_zero ds) T = false ->
  total ds * (1 - roundoff) ^ length ds < seconds T.
Proof.
  intros F FT H. destruct (clock_total ds F) as [(A & B & C & D)|(A & _)].
  - destruct (Rle_lt_dec (seconds T) (seconds (clock d_zero ds))) as [Q|Q]; [|lra].
    apply (ge_finite _ _ A FT) in Q. congruence.
  - rewrite A, ge_infinity in H by exact FT. discriminate.
Qed.
Lemma clock_reached ds T : Forall positive ds -> finite T -> d_ge (clock d_zero ds) T = true ->
  seconds T <= total ds * (1 + roundoff) ^ length ds.
Proof.
  intros F FT H. destruct (clock_total ds F) as [(A & B & C & D)|(A & D)].
  - apply (ge_finite _ _ A FT) in H. lra.
  - assert (Q := below_top T FT). lra.
Qed.
Lemma hi_mono a b T : Forall positive (a ++ b) ->
  total (a ++ b) * (1 + roundoff) ^ length (a ++ b) < T -> total a * (1 + roundoff) ^ length a < T.
Proof.
  intros F. apply Forall_app in F. destruct F as (Fa & Fb). intros H. eapply Rle_lt_trans; [|exact H].
  assert (U := roundoff_pos). assert (A := total_nonneg a Fa). assert (B := total_nonneg b Fb).
  rewrite total_app, app_length, pow_add.
  assert (1 <= (1 + roundoff) ^ length a) by (apply pow_R1_Rle; lra).
  assert (1 <= (1 + roundoff) ^ length b) by (apply pow_R1_Rle; lra).
  apply Rmult_le_compat; [lra|lra|lra|]. rewrite <- (Rmult_1_r (_ ^ length a)) at 1. apply Rmult_le_compat_l; lra.
Qed.

(** ** Latches *)
Lemma latch_run_app T a b s : d_latch_run T (a ++ b) s =
  let '(la, s1) := d_latch_run T a s in let '(lb, s2) := d_latch_run T b s1 in (la ++ lb, s2).
Proof.
  revert s. induction a as [|(d, v) a IH]; intros s; cbn [d_latch_run app].
  - destruct (d_latch_run T b s); reflexivity.
  - destruct (d_latch_call T s d v) as [l s1]. rewrite IH. destruct (d_latch_run T a s1) as [la s2].
    destruct (d_latch_run T b s2) as [lb s3]. reflexivity.
Qed.
Lemma latch_run_length T a s : length (fst (d_latch_run T a s)) = length a.
Proof. revert s. induction a as [|(d, v) a IH]; intros s; [reflexivity|]. cbn. destruct (d_latch_call T s d v) as [l s1].
  specialize (IH s1). destruct (d_latch_run T a s1). cbn in *. lia. Qed.
(** All calls latched exactly when the clock never reached the latch time before a call. *)
Lemma latch_all T calls : forall t, fst (d_latch_run T calls (true, t)) = repeat true (length calls) <->
  forall a b, calls = a ++ b -> b <> [] -> d_ge (clock t (map fst a)) T = false.
Proof.
  induction calls as [|(d, v) calls IH]; intros t.
  - cbn. split; [|reflexivity]. intros _ a b E N. symmetry in E. apply app_eq_nil in E. destruct E; contradiction.
  - cbn [d_latch_run d_latch_call]. destruct (d_ge t T) eqn:G.
    + split.
      * destruct (d_latch_run T calls (v, d_zero)). cbn. discriminate.
      * intros H. specialize (H [] ((d, v) :: calls) eq_refl ltac:(discriminate)). cbn in H. congruence.
    + destruct (d_latch_run T calls (true, d_add t d)) as [ls s'] eqn:E. cbn [fst length repeat].
      specialize (IH (d_add t d)). rewrite E in IH. cbn [fst] in IH. split.
      * intros H. injection H as H. intros a b Q N. destruct a as [|(d', v') a]; [exact G|].
        cbn in Q. injection Q as <- <- ->. cbn [map clock fst]. apply (proj1 IH H a b eq_refl N).
      * intros H. f_equal. apply IH. intros a b -> N. apply (H ((d, v) :: a) b eq_refl N).
Qed.

(** ** Episodes *)
Lemma episode_clock T dt rounds : forall t N, d_episode T dt rounds t = Some N ->
  (1 <= N)%nat /\ d_ge (clock t (repeat dt N)) T = true /\
  forall k, (1 <= k < N)%nat -> d_ge (clock t (repeat dt k)) T = false.
Proof.
  induction rounds as [|rounds IH]; intros t N; [discriminate|]. cbn [d_episode].
  destruct (d_ge (d_add t dt) T) eqn:G.
  - intros H. injection H as <-. split; [lia|split; [exact G|intros; lia]].
  - destruct (d_episode T dt rounds (d_add t dt)) as [n|] eqn:E; [|discriminate]. intros H. injection H as <-.
    destruct (IH _ _ E) as (A & B & C). split; [lia|split; [exact B|]].
    intros k K. destruct k as [|k]; [lia|]. cbn [repeat clock]. destruct k as [|k]; [exact G|]. apply C. lia.
Qed.
Lemma episode_none T dt rounds : forall t, d_episode T dt rounds t = None <->
  forall k, (1 <= k <= rounds)%nat -> d_ge (clock t (repeat dt k)) T = false.
Proof.
  induction rounds as [|rounds IH]; intros t; cbn [d_episode]; [split; [intros; lia|reflexivity]|].
  destruct (d_ge (d_add t dt) T) eqn:G.
  - split; [discriminate|]. intros H. specialize (H 1%nat ltac:(lia)). cbn in H. congruence.
  - specialize (IH (d_add t dt)). destruct (d_episode T dt rounds (d_add t dt)).
    + split; [discriminate|]. intros H. assert (Some n = None); [|discriminate]. apply IH.
      intros k K. apply (H (S k)). lia.
    + split; [|reflexivity]. intros _ k K. destruct k as [|[|k]]; [lia|exact G|]. cbn [repeat clock].
      apply (proj1 IH eq_refl (S k)). lia.
Qed.
Lemma total_repeat dt n : total (repeat dt n) = INR n * seconds dt.
Proof. induction n; [unfold total; cbn; ring|]. rewrite S_INR. unfold total in *. cbn. rewrite IHn. ring. Qed.
Lemma bernoulli u k : 0 <= u <= 1 -> 1 - INR k * u <= (1 - u) ^ k.
Proof.
  intros U. induction k as [|k IH]; [cbn; lra|]. rewrite S_INR. cbn [pow].
  destruct (Rle_lt_dec 0 (1 - INR k * u)).
  - assert (0 <= INR k) by apply pos_INR. nra.
  - assert (0 <= (1 - u) ^ k) by (apply pow_le; lra). assert (0 <= INR k) by apply pos_INR. nra.
Qed.

(** ** Lookahead *)
Lemma trunc_value x : Btrunc x = Ztrunc (seconds x).
Proof. apply eq_IZR. rewrite (Btrunc_correct 53 1024 emax_double). unfold round, F2R, scaled_mantissa, cexp, FIX_exp. cbn. rewrite !Rmult_1_r. reflexivity. Qed.
Lemma format_int k : (Z.abs k < 2 ^ 53)%Z -> generic_format radix2 fx (IZR k).
Proof.
  intros H. rewrite fx_flt. apply generic_format_FLT. exists (Float radix2 k 0); [unfold F2R; cbn; ring|exact H|cbn; lia].
Qed.
Lemma lookahead_value window dt : finite window -> 0 <= seconds window -> positive dt ->
  seconds window < 2 ^ 53 * seconds dt ->
  d_lookahead window dt = Ok (Ztrunc (rnd (seconds window / seconds dt))) /\ 0 <= rnd (seconds window / seconds dt).
Proof.
  intros Fw Pw (Fd & Pd) B. unfold d_lookahead, d_div.
  assert (Z : d_is_zero dt = false) by (destruct dt; try reflexivity; unfold seconds in Pd; cbn in Pd; lra).
  rewrite Z. cbn [rbind].
  assert (Q : 0 <= seconds window / seconds dt < 2 ^ 53).
  { split; [apply Rmult_le_pos; [exact Pw|apply Rlt_le, Rinv_0_lt_compat; exact Pd]|].
    apply (Rmult_lt_reg_r (seconds dt)); [exact Pd|]. unfold Rdiv. rewrite Rmult_assoc, Rinv_l; lra. }
  assert (R0 : 0 <= rnd (seconds window / seconds dt)).
  { rewrite <- (round_0 radix2 fx (round_mode mode_NE)). apply round_le; [exact _|exact _|]. lra. }
  split; [|exact R0].
  assert (R1 : rnd (seconds window / seconds dt) <= bpow radix2 53).
  { rewrite <- (round_generic radix2 fx (round_mode mode_NE) (bpow radix2 53)).
    - apply round_le; [exact _|exact _|]. replace (bpow radix2 53) with (2 ^ 53); [lra|]. rewrite pow_IZR. reflexivity.
    - apply generic_format_bpow. cbn. lia. }
  assert (C := Bdiv_correct 53 1024 _ _ mode_NE window dt). fold (seconds window) (seconds dt) in C.
  rewrite Rabs_right in C by lra.
  rewrite Rlt_bool_true in C by (eapply Rle_lt_trans; [exact R1|apply bpow_lt; lia]).
  destruct C as (V & F & _); [lra|]. rewrite Fw in F.
  destruct (Bdiv mode_NE window dt) eqn:E; try discriminate F; cbn [d_int]; rewrite trunc_value; unfold seconds; rewrite V; reflexivity.
Qed.
Lemma quotient_int window dt k : positive dt -> IZR k * seconds dt <= seconds window -> IZR k <= seconds window / seconds dt.
Proof. intros (_ & P) H. apply (Rmult_le_reg_r (seconds dt)); [exact P|]. unfold Rdiv. rewrite Rmult_assoc, Rinv_l; lra. Qed.
Lemma lookahead_bounds window dt : finite window -> 0 <= seconds window -> positive dt -> seconds window < 2 ^ 53 * seconds dt ->
  let n := Ztrunc (rnd (seconds window / seconds dt)) in
  (forall k, IZR k * seconds dt <= seconds window -> (k <= n)%Z) /\ IZR n * seconds dt <= seconds window * (1 + roundoff).
Proof.
  intros Fw Pw Pd B n. destruct (lookahead_value window dt Fw Pw Pd B) as (_ & R0). set (q := seconds window / seconds dt) in *.
  assert (Hn : n = Zfloor (rnd q)) by (unfold n; apply Ztrunc_floor; exact R0).
  assert (Nn : (0 <= n)%Z) by (rewrite Hn; apply Zfloor_lub; exact R0).
  destruct Pd as (Fd & Pd0). assert (Hq : q * seconds dt = seconds window) by (unfold q, Rdiv; rewrite Rmult_assoc, Rinv_l; lra).
  assert (U := roundoff_pos). split.
  - intros k H. destruct (Z_le_gt_dec k 0) as [K|K]; [lia|]. rewrite Hn. apply Zfloor_lub.
    rewrite <- (round_generic radix2 fx (round_mode mode_NE) (IZR k)).
    + apply round_le; [exact _|exact _|]. apply quotient_int; [split; assumption|exact H].
    + apply format_int. assert (L : IZR k < IZR (2 ^ 53)).
      { apply (Rmult_lt_reg_r (seconds dt)); [exact Pd0|]. replace (IZR (2 ^ 53)) with (2 ^ 53) by (rewrite pow_IZR; reflexivity). lra. }
      apply lt_IZR in L. lia.
  - destruct (Z.eq_dec n 0) as [E|E]; [rewrite E; nra|].
    assert (L1 : IZR n <= rnd q) by (rewrite Hn; apply Zfloor_lb).
    assert (L2 : 1 <= IZR n) by (apply IZR_le; lia).
    assert (L3 : / 2 <= q).
    { destruct (Rle_lt_dec (/ 2) q) as [L|L]; [exact L|]. exfalso.
      assert (rnd q <= / 2); [|lra]. replace (/ 2) with (bpow radix2 (-1)) in * by (cbn; lra).
      rewrite <- (round_generic radix2 fx (round_mode mode_NE) (bpow radix2 (-1))).
      - apply round_le; [exact _|exact _|]. lra.
      - apply generic_format_bpow. cbn. lia. }
    assert (RE := relative_error_N_FLT radix2 (SpecFloat.emin 53 1024) 53 prec_double (fun x => negb (Z.even x)) q).
    change (Znearest (fun x => negb (Z.even x))) with (round_mode mode_NE) in RE. rewrite <- fx_flt in RE.
    fold (u_ro radix2 53) in RE. rewrite roundoff_eq in RE. rewrite (Rabs_right q) in RE by lra.
    assert (RB : bpow radix2 (SpecFloat.emin 53 1024 + 53 - 1) <= q).
    { apply Rle_trans with (bpow radix2 (-1)); [apply bpow_le; cbn; lia|cbn; lra]. }
    specialize (RE RB). apply Rabs_le_inv in RE.
    assert (IZR n <= q * (1 + roundoff)) by lra. rewrite <- Hq.
    replace (q * seconds dt * (1 + roundoff)) with (q * (1 + roundoff) * seconds dt) by ring. apply Rmult_le_compat_r; lra.
Qed.

(** ** Decimal literals *)
Lemma literal_intro (r : R) (m : BinNums.positive) e (H : SpecFloat.bounded 53 1024 m e = true) mg :
  bpow radix2 (mg - 1) <= r < bpow radix2 mg -> fx mg = e ->
  Rabs (r * bpow radix2 (- e) - IZR (Zpos m)) < / 2 ->
  literal r (B754_finite false m e H).
Proof.
  intros M E N. split; [reflexivity|]. intros y Fy.
  assert (P : 0 < r) by (destruct M as [M _]; assert (T := bpow_gt_0 radix2 (mg - 1)); lra).
  assert (G : seconds (B754_finite false m e H) = rnd r).
  { unfold round, scaled_mantissa, cexp. rewrite (mag_unique radix2 r mg) by (rewrite Rabs_right by lra; exact M). rewrite E.
    change (round_mode mode_NE) with (Znearest (fun x => negb (Z.even x))). rewrite (Znearest_imp _ _ _ N). reflexivity. }
  rewrite G. destruct (round_N_pt radix2 fx (fun x => negb (Z.even x)) r) as (_ & Q).
  apply Q. apply generic_format_B2R.
Qed.
