(** Properties of time on IEEE doubles: C74 (lookahead), C75 (latch), C76 (episodes). *)
From Coq Require Import ZArith Reals List Bool Lia Lra.
From Flocq Require Import Core BinarySingleNaN.
From Verif Require Import Prelude ModelTime SpecTime ProofsTime.
Import ListNotations.
Local Open Scope R_scope.

(** Doubles used below; [tenth] and [three_tenths] are what python reads for 0.1 and 0.3. *)
Definition d_fin (s : bool) (m : BinNums.positive) e (H : SpecFloat.bounded 53 1024 m e = true) : double := B754_finite s m e H.
Definition one : double := d_fin false 4503599627370496 (-52) eq_refl.
Definition tenth : double := d_fin false 7205759403792794 (-56) eq_refl.
Definition three_tenths : double := d_fin false 5404319552844595 (-54) eq_refl.
Definition half : double := d_fin false 4503599627370496 (-53) eq_refl.
Definition three : double := d_fin false 6755399441055744 (-51) eq_refl.
Definition top53 : double := d_fin false 4503599627370496 1 eq_refl.
Definition top53_2 : double := d_fin false 4503599627370497 1 eq_refl.

Lemma one_value : seconds one = 1. Proof. unfold seconds, one, d_fin, B2R, F2R. cbn -[IZR]. lra. Qed.
Lemma half_value : seconds half = 1 / 2. Proof. unfold seconds, half, d_fin, B2R, F2R. cbn -[IZR]. lra. Qed.
Lemma three_value : seconds three = 3. Proof. unfold seconds, three, d_fin, B2R, F2R. cbn -[IZR]. lra. Qed.
Lemma top53_value : seconds top53 = 2 ^ 53. Proof. rewrite pow_IZR. unfold seconds, top53, d_fin, B2R, F2R. cbn -[IZR]. lra. Qed.
Lemma top53_2_value : seconds top53_2 = 2 ^ 53 + 2. Proof. rewrite pow_IZR. unfold seconds, top53_2, d_fin, B2R, F2R. cbn -[IZR]. lra. Qed.
Lemma tenth_value : seconds tenth = IZR 7205759403792794 / IZR 72057594037927936.
Proof. unfold seconds, tenth, d_fin, B2R, F2R. cbn -[IZR]. lra. Qed.
Lemma tenth_literal : literal (1 / 10) tenth.
Proof.
  apply literal_intro with (mg := (-3)%Z); [|reflexivity|].
  - cbn -[IZR]. lra.
  - cbn -[IZR]. apply Rabs_lt. lra.
Qed.
Lemma three_tenths_literal : literal (3 / 10) three_tenths.
Proof.
  apply literal_intro with (mg := (-1)%Z); [|reflexivity|].
  - cbn -[IZR]. lra.
  - cbn -[IZR]. apply Rabs_lt. lra.
Qed.

(** ** C74: the lookahead covers the backup window. *)

(** The number of steps is at least that of the whole steps that fit in the window, and at most
    that of the steps that fit in a window longer by one rounding. *)
Theorem C74_lookahead :
  forall window dt, finite window -> 0 <= seconds window -> positive dt ->
  seconds window < 2 ^ 53 * seconds dt ->
  exists n, d_lookahead window dt = Ok n /\
    (forall k, IZR k * seconds dt <= seconds window -> (k <= n)%Z) /\
    IZR n * seconds dt <= seconds window * (1 + roundoff).
Proof.
  intros window dt F P D B. destruct (lookahead_value window dt F P D B) as (E & _).
  exists (Ztrunc (rnd (seconds window / seconds dt))). split; [exact E|]. apply lookahead_bounds; assumption.
Qed.
Print Assumptions C74_lookahead.

(** A window that is exactly [k] steps long gives [k] steps. *)
Theorem C74_whole_steps :
  forall window dt k, finite window -> positive dt -> (0 <= k < 2 ^ 53)%Z ->
  seconds window = IZR k * seconds dt -> d_lookahead window dt = Ok k.
Proof.
  intros window dt k F (Fd & Pd) K E.
  assert (K0 : 0 <= IZR k) by (apply IZR_le; lia).
  assert (K1 : IZR k < IZR (2 ^ 53)) by (apply IZR_lt; lia).
  assert (P : 0 <= seconds window) by (rewrite E; nra).
  assert (B : seconds window < 2 ^ 53 * seconds dt).
  { rewrite E. apply Rmult_lt_compat_r; [exact Pd|]. rewrite pow_IZR. exact K1. }
  destruct (lookahead_value window dt F P (conj Fd Pd) B) as (V & _). rewrite V. f_equal.
  rewrite E. unfold Rdiv. rewrite Rmult_assoc, Rinv_r, Rmult_1_r by lra.
  rewrite round_generic; [|exact _|apply format_int; lia]. apply Ztrunc_IZR.
Qed.
Print Assumptions C74_whole_steps.

(** Full property for decimal settings: a window of 0.3 has three steps of 0.1.  It has two. *)
Theorem C74_decimal_refuted :
  exists window dt, literal (3 / 10) window /\ literal (1 / 10) dt /\ d_lookahead window dt = Ok 2%Z.
Proof. exists three_tenths, tenth. split; [exact three_tenths_literal|split; [exact tenth_literal|]]. vm_compute. reflexivity. Qed.
Print Assumptions C74_decimal_refuted.

Theorem C74_zero_step :
  forall window dt, finite dt -> seconds dt = 0 -> d_lookahead window dt = Err ZeroDivisionError.
Proof.
  intros window dt F Z. destruct dt as [s|s| |s m e H]; try discriminate F; [reflexivity|].
  exfalso. revert Z. unfold seconds. cbn. unfold F2R. cbn. destruct s; cbn; intros Z; apply Rmult_integral in Z;
    destruct Z as [Z|Z]; try (apply eq_IZR in Z; discriminate); assert (T := bpow_gt_0 radix2 e); cbn in T; lra.
Qed.
Print Assumptions C74_zero_step.

(** Windows and steps that are not finite numbers: an infinite window raises OverflowError
    ([OtherExn 1]), nan raises ValueError, and an infinite step means no lookahead at all. *)
Theorem C74_not_finite : forall window dt,
  (is_nan window = true -> ~ (finite dt /\ seconds dt = 0) -> exists msg, d_lookahead window dt = Err (ValueError msg)) /\
  (is_nan dt = true -> exists msg, d_lookahead window dt = Err (ValueError msg)) /\
  (infinite window -> infinite dt -> exists msg, d_lookahead window dt = Err (ValueError msg)) /\
  (infinite window -> finite dt -> seconds dt <> 0 -> d_lookahead window dt = Err (OtherExn 1)) /\
  (finite window -> infinite dt -> d_lookahead window dt = Ok 0%Z).
Proof.
  intros window dt. destruct window as [s|s| |s m e H], dt as [s'|s'| |s' m' e' H']; unfold infinite, finite; cbn [is_nan is_finite];
    repeat split; intros; repeat match goal with K : _ /\ _ |- _ => destruct K end; try discriminate; try (eexists; reflexivity); try reflexivity; exfalso; try tauto.
  all: match goal with K : ~ _ |- _ => apply K; split; reflexivity | K : _ <> _ |- _ => apply K; reflexivity end.
Qed.
Print Assumptions C74_not_finite.
Example C74_case : finite three /\ 0 <= seconds three /\ positive half /\ seconds three < 2 ^ 53 * seconds half /\
  seconds three = IZR 6 * seconds half /\ d_lookahead three half = Ok 6%Z.
Proof.
  unfold positive. rewrite three_value, half_value, pow_IZR. cbn -[IZR]. split; [reflexivity|]. split; [lra|].
  split; [split; [reflexivity|lra]|]. split; [lra|split; [lra|vm_compute; reflexivity]].
Qed.

(** ** C75: a latch holds for its time. *)

(** [calls] are the calls after the one that intervened first, with their step sizes and the
    monitor's answers; [last] is the next call.  While the exact time since then is below the
    latch time, with a margin of one rounding per call, every call is latched. *)
Theorem C75_latch_holds :
  forall latch_time calls last, finite latch_time -> Forall positive (map fst calls) ->
  total (map fst calls) * (1 + roundoff) ^ length calls < seconds latch_time ->
  fst (d_latch_run latch_time (calls ++ [last]) (true, d_zero)) = repeat true (S (length calls)).
Proof.
  intros T calls last FT P H. replace (S (length calls)) with (length (calls ++ [last])) by (rewrite app_length; cbn; lia).
  apply latch_all. intros a b E N.
  assert (Q : exists c, calls = a ++ c).
  { destruct (exists_last N) as (c & z & ->). rewrite app_assoc in E. apply app_inj_tail in E. destruct E as (E & _). eauto. }
  destruct Q as (c & ->). rewrite map_app in *. rewrite <- (map_length fst), map_app in H.
  apply hi_mono in H; [|exact P]. apply Forall_app in P. destruct P as (P & _).
  destruct (d_ge (clock d_zero (map fst a)) T) eqn:G; [|reflexivity].
  assert (L := clock_reached _ _ P FT G). lra.
Qed.
Print Assumptions C75_latch_holds.

(** And as long as every call is latched, the exact time at the last one is below the latch
    time, up to one rounding per call. *)
Theorem C75_latch_releases :
  forall latch_time calls last, finite latch_time -> Forall positive (map fst calls) ->
  fst (d_latch_run latch_time (calls ++ [last]) (true, d_zero)) = repeat true (S (length calls)) ->
  total (map fst calls) * (1 - roundoff) ^ length calls < seconds latch_time.
Proof.
  intros T calls last FT P H. replace (S (length calls)) with (length (calls ++ [last])) in H by (rewrite app_length; cbn; lia).
  assert (G := proj1 (latch_all _ _ _) H calls [last] eq_refl ltac:(discriminate)).
  rewrite <- (map_length fst). apply clock_below; assumption.
Qed.
Print Assumptions C75_latch_releases.

Lemma first_over T d : 0 < T -> 0 < d -> forall k, 2 * T <= INR k * d -> exists j, (1 <= j <= k)%nat /\ 2 * T <= INR j * d <= 2 * T + d.
Proof.
  intros HT Hd. induction k as [|k IH]; intros H; [cbn in H; lra|].
  destruct (Rle_lt_dec (2 * T) (INR k * d)) as [L|L].
  - destruct (IH L) as (j & J & B). exists j. split; [lia|exact B].
  - exists (S k). split; [lia|]. rewrite S_INR in *. lra.
Qed.
Lemma long_total T d j (ds : list double) : 0 < T -> 0 < d -> T <= 2 ^ 50 * d -> 2 * T <= INR j * d <= 2 * T + d ->
  length ds = j -> INR j * d <= total ds -> T <= total ds * (1 - roundoff) ^ j.
Proof.
  intros HT Hd B J L S.
  assert (K : INR j <= 2 ^ 52).
  { apply (Rmult_le_reg_r d); [exact Hd|]. apply (Rle_trans _ _ _ (proj2 J)).
    replace (2 ^ 52) with (4 * 2 ^ 50) by (cbn; lra). assert (1 <= 2 ^ 50) by (apply pow_R1_Rle; lra). nra. }
  assert (U := roundoff_pos). assert (Bn := bernoulli roundoff j ltac:(lra)).
  assert (INR j * roundoff <= 1 / 2).
  { unfold roundoff. apply (Rmult_le_reg_r (2 ^ 53)); [apply pow_lt; lra|]. rewrite Rmult_assoc, Rinv_l by (apply pow_nonzero; lra).
    replace (2 ^ 53) with (2 * 2 ^ 52) by (cbn; lra). lra. }
  assert (1 / 2 <= (1 - roundoff) ^ j) by lra. nra.
Qed.
Lemma total_least d l : Forall (fun s => d <= seconds s) l -> INR (length l) * d <= total l.
Proof. induction 1 as [|s l Q _ IH]; [unfold total; cbn; lra|]. cbn [length]. rewrite S_INR. unfold total in *. cbn [map fold_right]. lra. Qed.
(** So a latch of at most 2^50 of the shortest step ends: fewer than twice the nominal number
    of calls are latched. *)
Theorem C75_latch_ends_partial :
  forall latch_time d calls last, finite latch_time -> Forall positive (map fst calls) ->
  0 < d -> Forall (fun s => d <= seconds s) (map fst calls) -> seconds latch_time <= 2 ^ 50 * d ->
  fst (d_latch_run latch_time (calls ++ [last]) (true, d_zero)) = repeat true (S (length calls)) ->
  INR (length calls) * d < 2 * seconds latch_time.
Proof.
  intros T d calls last FT P Hd D B H.
  assert (H' := H). replace (S (length calls)) with (length (calls ++ [last])) in H' by (rewrite app_length; cbn; lia).
  assert (A := proj1 (latch_all _ _ _) H').
  assert (T0 : 0 < seconds T).
  { assert (G := A [] (calls ++ [last]) eq_refl ltac:(destruct calls; discriminate)). cbn [map clock] in G.
    apply (clock_below []) in G; [|constructor|exact FT]. change (total []) with 0 in G. rewrite Rmult_0_l in G. exact G. }
  destruct (Rlt_le_dec (INR (length calls) * d) (2 * seconds T)) as [L|L]; [exact L|]. exfalso.
  destruct (first_over _ _ T0 Hd _ L) as (j & J & Bj).
  assert (Lj : length (firstn j calls) = j) by (apply firstn_length_le; lia).
  assert (G := A (firstn j calls) (skipn j calls ++ [last]) ltac:(rewrite app_assoc, firstn_skipn; reflexivity)
    ltac:(destruct (skipn j calls); discriminate)).
  rewrite <- (firstn_skipn j calls), map_app in P, D. apply Forall_app in P. apply Forall_app in D.
  apply clock_below in G; [|apply P|exact FT]. rewrite map_length, Lj in G.
  assert (Tt : INR j * d <= total (map fst (firstn j calls))).
  { assert (Q := total_least _ _ (proj1 D)). rewrite map_length, Lj in Q. exact Q. }
  assert (Q := long_total _ _ j _ T0 Hd B Bj ltac:(rewrite map_length; exact Lj) Tt). lra.
Qed.
Print Assumptions C75_latch_ends_partial.

(** Without that bound the accumulated time can stop growing and the latch never ends. *)
Lemma stuck_clock n : finite (clock d_zero (repeat one n)) /\ 0 <= seconds (clock d_zero (repeat one n)) <= 2 ^ 53.
Proof.
  induction n as [|n (F & P)].
  - split; [reflexivity|]. change (seconds (clock d_zero (repeat one 0))) with 0. split; [lra|apply pow_le; lra].
  - change (repeat one (S n)) with (one :: repeat one n). rewrite repeat_cons, clock_app. cbn [clock].
    set (c := clock d_zero (repeat one n)) in *.
    assert (M : rnd (seconds c + seconds one) <= 2 ^ 53).
    { assert (C := add_cases top53 one eq_refl eq_refl). rewrite top53_value, one_value in C.
      assert (0 <= 2 ^ 53) by (apply pow_le; lra). destruct (C ltac:(lra) ltac:(lra)) as (_ & _ & [(_ & V & _)|(V & _)]).
      - assert (E : d_add top53 one = top53) by (apply B2SF_inj; vm_compute; reflexivity). rewrite E, top53_value in V. rewrite V.
        rewrite one_value. apply round_le; [exact _|exact _|lra].
      - assert (E : d_add top53 one = top53) by (apply B2SF_inj; vm_compute; reflexivity). rewrite E in V. discriminate. }
    assert (L : 2 ^ 53 < bpow radix2 1024).
    { rewrite pow_IZR. change (IZR (2 ^ Z.of_nat 53)) with (bpow radix2 53). apply bpow_lt. lia. }
    destruct (add_cases c one F eq_refl (proj1 P) ltac:(rewrite one_value; lra)) as (_ & N & [(G & V & _)|(_ & V)]); [|lra].
    split; [exact G|]. rewrite V. lra.
Qed.
Theorem C75_endless_latch_refuted :
  exists latch_time dt, positive latch_time /\ positive dt /\ forall verdicts,
    fst (d_latch_run latch_time (map (fun v => (dt, v)) verdicts) (true, d_zero)) = repeat true (length verdicts).
Proof.
  exists top53_2, one. unfold positive. rewrite top53_2_value, one_value. assert (0 < 2 ^ 53) by (apply pow_lt; lra).
  split; [split; [reflexivity|lra]|split; [split; [reflexivity|lra]|]].
  intros vs. rewrite <- (map_length (fun v => (one, v)) vs). apply latch_all. intros a b E _.
  assert (Q : map fst a = repeat one (length a)).
  { assert (R : map fst (a ++ b) = repeat one (length (a ++ b))).
    { rewrite <- E. rewrite map_map, map_length. cbn. clear. induction vs; cbn; [reflexivity|]. f_equal. exact IHvs. }
    rewrite map_app, app_length, repeat_app in R.
    assert (S : forall (x y z w : list double), length x = length z -> x ++ y = z ++ w -> x = z).
    { clear. induction x as [|h x IH]; intros y [|k z] w L R; try discriminate L; [reflexivity|]. cbn in *.
      injection R as -> R. f_equal. eapply IH; [lia|exact R]. }
    eapply S; [|exact R]. rewrite map_length, repeat_length. reflexivity. }
  rewrite Q. destruct (stuck_clock (length a)) as (F & P).
  destruct (d_ge (clock d_zero (repeat one (length a))) top53_2) eqn:G; [|reflexivity].
  apply (ge_finite _ top53_2 F eq_refl) in G. rewrite top53_2_value in G. lra.
Qed.
Print Assumptions C75_endless_latch_refuted.

(** Nominally ten calls of 0.1 make 1.0; the latch holds for eleven. *)
Theorem C75_decimal_refuted :
  exists latch_time dt, seconds latch_time = 1 /\ literal (1 / 10) dt /\
    fst (d_latch_run latch_time (repeat (dt, false) 12) (true, d_zero)) = repeat true 11 ++ [false].
Proof. exists one, tenth. split; [exact one_value|split; [exact tenth_literal|]]. vm_compute. reflexivity. Qed.
Print Assumptions C75_decimal_refuted.
Example C75_case : finite three /\ Forall positive (map fst (repeat (half, false) 5)) /\
  Forall (fun s => 1 / 2 <= seconds s) (map fst (repeat (half, false) 5)) /\ seconds three <= 2 ^ 50 * (1 / 2) /\
  fst (d_latch_run three (repeat (half, false) 5 ++ [(one, true)]) (true, d_zero)) = repeat true 6.
Proof.
  assert (H : positive half) by (split; [reflexivity|rewrite half_value; lra]).
  split; [reflexivity|]. split; [cbn; repeat (constructor; [exact H|]); constructor|].
  split; [cbn; repeat (constructor; [rewrite half_value; lra|]); constructor|].
  split; [rewrite three_value, pow_IZR; cbn -[IZR]; lra|vm_compute; reflexivity].
Qed.
Example C75_holds_case : total (map fst (repeat (half, false) 5)) * (1 + roundoff) ^ 5 < seconds three.
Proof.
  rewrite three_value. unfold total. cbn [map fst repeat fold_right]. rewrite half_value. unfold roundoff.
  rewrite pow_IZR. cbn -[IZR]. lra.
Qed.

(** ** C76: an episode lasts for the simulation time. *)
Theorem C76_episode :
  forall simulation_time step_size rounds N, finite simulation_time -> positive step_size ->
  d_episode simulation_time step_size rounds d_zero = Some N ->
  (1 <= N)%nat /\
  seconds simulation_time <= INR N * seconds step_size * (1 + roundoff) ^ N /\
  (forall k, (1 <= k < N)%nat -> INR k * seconds step_size * (1 - roundoff) ^ k < seconds simulation_time).
Proof.
  intros T dt rounds N FT P H. destruct (episode_clock _ _ _ _ _ H) as (A & B & C). split; [exact A|].
  assert (F : forall n, Forall positive (repeat dt n)) by (induction n; constructor; assumption).
  split.
  - apply clock_reached in B; [|apply F|exact FT]. rewrite total_repeat, repeat_length in B. exact B.
  - intros k K. assert (G := C k K). apply clock_below in G; [|apply F|exact FT]. rewrite total_repeat, repeat_length in G. exact G.
Qed.
Print Assumptions C76_episode.

(** Episodes end within twice the nominal number of steps, if that is at most 2^50. *)
Theorem C76_episode_ends_partial :
  forall simulation_time step_size rounds, positive simulation_time -> positive step_size ->
  seconds simulation_time <= 2 ^ 50 * seconds step_size ->
  2 * seconds simulation_time <= INR rounds * seconds step_size ->
  exists N, d_episode simulation_time step_size rounds d_zero = Some N.
Proof.
  intros T dt rounds (FT & PT) P B R. destruct (d_episode T dt rounds d_zero) as [N|] eqn:E; [eauto|]. exfalso.
  assert (A := proj1 (episode_none _ _ _ _) E). destruct P as (Fd & Pd).
  destruct (first_over _ _ PT Pd _ R) as (j & J & Bj). assert (G := A j J).
  apply clock_below in G; [|clear - Fd Pd; induction j; constructor; [split; assumption|assumption]|exact FT]. rewrite repeat_length in G.
  assert (Q := long_total _ _ j (repeat dt j) PT Pd B Bj (repeat_length _ _) ltac:(rewrite total_repeat; lra)). lra.
Qed.
Print Assumptions C76_episode_ends_partial.

(** Nominally ten steps of 0.1 make 1.0; the episode has eleven. *)
Theorem C76_decimal_refuted :
  exists simulation_time step_size, seconds simulation_time = 1 /\ literal (1 / 10) step_size /\
    d_episode simulation_time step_size 20 d_zero = Some 11%nat.
Proof. exists one, tenth. split; [exact one_value|split; [exact tenth_literal|]]. vm_compute. reflexivity. Qed.
Print Assumptions C76_decimal_refuted.
Theorem C76_endless_episode_refuted :
  exists simulation_time step_size, positive simulation_time /\ positive step_size /\
    forall rounds, d_episode simulation_time step_size rounds d_zero = None.
Proof.
  exists top53_2, one. unfold positive. rewrite top53_2_value, one_value. assert (0 < 2 ^ 53) by (apply pow_lt; lra).
  split; [split; [reflexivity|lra]|split; [split; [reflexivity|lra]|]].
  intros rounds. apply episode_none. intros k _. destruct (stuck_clock k) as (F & P).
  destruct (d_ge (clock d_zero (repeat one k)) top53_2) eqn:G; [|reflexivity].
  apply (ge_finite _ top53_2 F eq_refl) in G. rewrite top53_2_value in G. lra.
Qed.
Print Assumptions C76_endless_episode_refuted.
Example C76_case : positive three /\ positive half /\ seconds three <= 2 ^ 50 * seconds half /\
  2 * seconds three <= INR 12 * seconds half /\ d_episode three half 12 d_zero = Some 6%nat.
Proof.
  unfold positive. rewrite three_value, half_value. split; [split; [reflexivity|lra]|split; [split; [reflexivity|lra]|]].
  split; [rewrite pow_IZR; cbn -[IZR]; lra|]. split; [cbn; lra|vm_compute; reflexivity].
Qed.
