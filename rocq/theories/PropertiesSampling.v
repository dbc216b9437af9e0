(** Properties of the sample testing modules: C52, C53, C54, C60. *)
From Coq Require Import String Reals List Bool ZArith Lia Lra.
From Verif Require Import Prelude Vec ModelBase ModelController ModelSimplex ModelSampling
  SpecCore SpecSampling ProofsBase ProofsSampling ExampleTools.
Import ListNotations.
Local Open Scope R_scope.

(** ** C52.  Simulated episodes record a consistent history. *)

Lemma initial_keeps_module {X P A B} (t : tester X P A B) rounds s z r s' z' :
  initial_state t rounds (s, z) = (Ok r, (s', z')) -> s' = s.
Proof.
  unfold initial_state. destruct (st_check t).
  - generalize 0%Z as counter. revert z. induction rounds as [|rounds IH]; intros z counter H.
    + simpl in H. injection H as _ <- _; auto.
    + destruct (Z_lt_le_dec (counter + 1) 100) as [L|L].
      * rewrite search_step in H by auto. destruct (st_sample t z) as [[x|e] z1]; [|discriminate].
        destruct (st_constraints t s) as [cs|]; [|discriminate].
        destruct (all_satisfied cs x); [injection H as _ <- _; auto|eapply IH; eauto].
      * rewrite search_fails in H by auto. discriminate.
  - unfold bind, on_sampler, zoom. simpl. destruct (st_sample t z) as [[x|e] z1]; [|discriminate].
    unfold ret. intros H. injection H as _ <- _; auto.
Qed.

Lemma simulate_inv {X P A B} (t : tester X P A B) rounds s z r s' z' :
  simulate_episode t rounds (s, z) = (Ok (Some r), (s', z')) ->
  exists x0, initial_state t rounds (s, z) = (Ok (Some x0), (s, z')) /\
             episode_loop t rounds x0 0 [x0] [zeros (st_dim t)] [false] s = (Ok (Some r), s').
Proof.
  unfold simulate_episode, bind. destruct (initial_state t rounds (s, z)) as [[o|e] [s1 z1]] eqn:E; [|discriminate].
  pose proof (initial_keeps_module _ _ _ _ _ _ _ E) as ->.
  destruct o as [x0|]; [|discriminate]. unfold on_module, zoom; cbn [fst snd].
  destruct (episode_loop t rounds x0 0 [x0] [zeros (st_dim t)] [false] s) as [r1 s2] eqn:E2.
  intros H. injection H as -> <- <-. eauto.
Qed.

Theorem C52_recorded_history :
  forall (X P A B : Type) (t : tester X P A B) rounds s z xs us bs s' z',
  simulate_episode t rounds (s, z) = (Ok (Some (xs, us, bs)), (s', z')) ->
  exists x0 xs' us' bs',
    xs = x0 :: xs' /\ us = zeros (st_dim t) :: us' /\ bs = false :: bs' /\
    length us = length xs /\ length bs = length xs /\ (1 <= length xs')%nat /\
    episode (st_filter t) (st_flag t) (st_pred t) (st_desired t) (st_dt t) x0 s xs' us' bs' s' /\
    ends_first (st_done t) (st_dt t) xs'.
Proof.
  intros X P A B t rounds s z xs us bs s' z' H. destruct (simulate_inv _ _ _ _ _ _ _ H) as (x0 & _ & E).
  destruct (episode_loop_inv t rounds _ _ _ _ _ _ _ _ E) as (xs' & us' & bs' & Er & He & Hl & Hd).
  simpl in Er. injection Er as -> -> ->. exists x0, xs', us', bs'.
  destruct (episode_lengths t _ _ _ _ _ _ He) as [L1 L2].
  split; [auto|split; [auto|split; [auto|split; [simpl; lia|split; [simpl; lia|split; [auto|split; [auto|]]]]]]].
  intros i y Hy. rewrite <- (Hd i y Hy). f_equal. ring.
Qed.
Print Assumptions C52_recorded_history.

Theorem C52_number_of_steps :
  forall (X P A B : Type) (t : tester X P A B) T rounds s z xs us bs s' z',
  st_done t = default_done T -> 0 < st_dt t ->
  simulate_episode t rounds (s, z) = (Ok (Some (xs, us, bs)), (s', z')) ->
  exists n, length xs = S n /\ least_positive_steps (st_dt t) T n.
Proof.
  intros X P A B t T rounds s z xs us bs s' z' Hd Hdt H.
  destruct (C52_recorded_history _ _ _ _ t _ _ _ _ _ _ _ _ H) as (x0 & xs' & us' & bs' & -> & _ & _ & _ & _ & L & _ & E).
  exists (length xs'). split; [auto|]. rewrite Hd in E. unfold ends_first, default_done in E.
  split; [auto|split].
  - destruct (nth_error xs' (length xs' - 1)) as [y|] eqn:Ey.
    + specialize (E _ _ Ey). replace (S (length xs' - 1)) with (length xs') in E by lia.
      rewrite Nat.eqb_refl in E. apply Rleb_true in E; auto.
    + apply nth_error_None in Ey; lia.
  - intros k Hk Ht. destruct (Nat.le_gt_cases (length xs') k) as [|G]; auto. exfalso.
    destruct (nth_error xs' (k - 1)) as [y|] eqn:Ey.
    + specialize (E _ _ Ey). replace (S (k - 1)) with k in E by lia.
      apply Rleb_true in Ht. rewrite Ht in E. symmetry in E. apply Nat.eqb_eq in E. lia.
    + apply nth_error_None in Ey; lia.
Qed.
Print Assumptions C52_number_of_steps.

(** With a positive step the default episode comes to its end, as long as nothing raises; the
    number of rounds given to the model does not matter. *)
Theorem C52_episode_ends :
  forall (X P A B : Type) (t : tester X P A B) T rounds0 s z x0 z' (I : A -> X -> Prop),
  st_done t = default_done T -> 0 < st_dt t ->
  initial_state t rounds0 (s, z) = (Ok (Some x0), (s, z')) -> I s x0 ->
  (forall s x, I s x -> exists w s' x', st_filter t (InArray x) (st_dt t) (st_desired t x) s = (Ok w, s') /\
     st_pred t x (st_dt t) w = Ok x' /\ I s' x') ->
  exists enough r s', forall rounds, (enough <= rounds)%nat ->
    simulate_episode t rounds (s, z) = (Ok (Some r), (s', z')).
Proof.
  intros X P A B t T rounds0 s z x0 z' I Hd Hdt Hi HI HS.
  destruct (archimed_steps (st_dt t) T Hdt) as (n & Hn).
  destruct (episode_loop_ends t I HS n x0 0 [x0] [zeros (st_dim t)] [false] s HI) as (r & s' & E).
  { intros y k Hk. rewrite Hd. unfold default_done. apply Rleb_true.
    rewrite Rplus_0_l. apply Rle_trans with (INR n * st_dt t); auto.
    apply Rmult_le_compat_r; [lra|apply le_INR; lia]. }
  exists (rounds0 + S n)%nat, r, s'. intros rounds Hr. unfold simulate_episode, bind.
  rewrite (initial_more t rounds0 (s, z) (Ok (Some x0)) (s, z') Hi) by (auto; discriminate || lia).
  unfold on_module, zoom; cbn [fst snd].
  rewrite (episode_loop_more t (S n) x0 0 [x0] [zeros (st_dim t)] [false] s (Ok (Some r)) s' E); auto; [discriminate|lia].
Qed.
Print Assumptions C52_episode_ends.

(** Without a positive step it never ends. *)
Theorem C52_endless_without_progress :
  forall (X P A B : Type) (t : tester X P A B) T rounds s z r s' z',
  st_done t = default_done T -> st_dt t <= 0 -> 0 < T ->
  simulate_episode t rounds (s, z) <> (Ok (Some r), (s', z')).
Proof.
  intros X P A B t T rounds s z [[xs us] bs] s' z' Hd Hdt HT H.
  destruct (C52_recorded_history _ _ _ _ t _ _ _ _ _ _ _ _ H) as (x0 & xs' & us' & bs' & -> & _ & _ & _ & _ & L & _ & E).
  destruct (nth_error xs' (length xs' - 1)) as [y|] eqn:Ey; [|apply nth_error_None in Ey; lia].
  specialize (E _ _ Ey). replace (S (length xs' - 1)) with (length xs') in E by lia.
  rewrite Nat.eqb_refl, Hd in E. apply Rleb_true in E. pose proof (pos_INR (length xs')). nra.
Qed.
Print Assumptions C52_endless_without_progress.

(** ** C53.  Episodes start in safe states. *)
Theorem C53_episode_starts_safe :
  forall (X P A B : Type) (t : tester X P A B) rounds s z xs us bs s' z',
  st_check t = true -> simulate_episode t rounds (s, z) = (Ok (Some (xs, us, bs)), (s', z')) ->
  exists x0 xs' cs, xs = x0 :: xs' /\ st_constraints t s = Some cs /\ satisfies_all cs x0.
Proof.
  intros X P A B t rounds s z xs us bs s' z' Hc H.
  destruct (simulate_inv _ _ _ _ _ _ _ H) as (x0 & E & E2).
  destruct (episode_loop_inv t rounds _ _ _ _ _ _ _ _ E2) as (xs' & us' & bs' & Er & _).
  simpl in Er. injection Er as -> _ _.
  unfold initial_state in E. rewrite Hc in E. exists x0, xs'.
  enough (exists cs, st_constraints t s = Some cs /\ satisfies_all cs x0) as (cs & ? & ?) by (exists cs; auto).
  clear H E2 Hc. revert E. generalize 0%Z as counter. revert z.
  induction rounds as [|rounds IH]; intros z counter E; [discriminate|].
  destruct (Z_lt_le_dec (counter + 1) 100) as [L|L]; [|rewrite search_fails in E by auto; discriminate].
  rewrite search_step in E by auto. destruct (st_sample t z) as [[x|e] z1]; [|discriminate].
  destruct (st_constraints t s) as [cs|] eqn:Ec; [|discriminate].
  destruct (all_satisfied cs x) eqn:Ea; [|eapply IH; eauto].
  injection E as <- _. exists cs; split; [auto|apply all_satisfied_iff; auto].
Qed.
Print Assumptions C53_episode_starts_safe.

(** The search takes samples until one is safe; exactly the 99th unsafe sample ends it with
    ValueError. *)
Theorem C53_first_safe_sample :
  forall (X P A B : Type) (t : tester X P A B) s z cs xs x z',
  st_check t = true -> st_constraints t s = Some cs ->
  draws (st_sample t) z (xs ++ [x]) z' -> Forall (fun y => ~ satisfies_all cs y) xs -> satisfies_all cs x ->
  (length xs < 99)%nat ->
  initial_state t 100 (s, z) = (Ok (Some x), (s, z')).
Proof.
  intros X P A B t s z cs xs x z' Hk Hc D F Hx Hl. unfold initial_state; rewrite Hk.
  assert (D2 : exists z1, draws (st_sample t) z xs z1 /\ st_sample t z1 = (Ok x, z')).
  { clear - D. revert z D. induction xs as [|y xs IH]; intros z D; inversion D as [|z0 x0 z1 xs0 z2 Hs Dr]; subst.
    - inversion Dr; subst. exists z; split; [constructor|auto].
    - destruct (IH _ Dr) as (z3 & D3 & E). exists z3; split; [econstructor; eauto|auto]. }
  destruct D2 as (z1 & D1 & Es).
  rewrite (search_through t cs s Hc xs 100 0 z z1 D1 F) by lia.
  destruct (100 - length xs)%nat as [|n] eqn:E; [lia|].
  rewrite search_step by lia. rewrite Es, Hc. apply all_satisfied_iff in Hx. rewrite Hx. auto.
Qed.
Print Assumptions C53_first_safe_sample.

Theorem C53_gives_up :
  forall (X P A B : Type) (t : tester X P A B) s z cs xs z',
  st_check t = true -> st_constraints t s = Some cs ->
  draws (st_sample t) z xs z' -> Forall (fun y => ~ satisfies_all cs y) xs -> length xs = 99%nat ->
  initial_state t 100 (s, z) =
    (Err (ValueError "Unable to find safe initial state. To disable, set check_init_state = False."), (s, z')) /\
  simulate_episode t 100 (s, z) =
    (Err (ValueError "Unable to find safe initial state. To disable, set check_init_state = False."), (s, z')).
Proof.
  intros X P A B t s z cs xs z' Hk Hc D F Hl.
  assert (E : initial_state t 100 (s, z) =
    (Err (ValueError "Unable to find safe initial state. To disable, set check_init_state = False."), (s, z'))).
  { unfold initial_state; rewrite Hk.
    rewrite (search_through t cs s Hc xs 100 0 z z' D F) by lia.
    destruct (100 - length xs)%nat as [|n] eqn:E; [lia|]. rewrite search_fails by lia. auto. }
  split; [auto|]. unfold simulate_episode, bind. rewrite E. auto.
Qed.
Print Assumptions C53_gives_up.

Theorem C53_sampler_raises :
  forall (X P A B : Type) (t : tester X P A B) s z cs xs z1 e z',
  st_check t = true -> st_constraints t s = Some cs ->
  draws (st_sample t) z xs z1 -> Forall (fun y => ~ satisfies_all cs y) xs -> (length xs < 99)%nat ->
  st_sample t z1 = (Err e, z') ->
  initial_state t 100 (s, z) = (Err e, (s, z')).
Proof.
  intros X P A B t s z cs xs z1 e z' Hk Hc D F Hl Hs. unfold initial_state; rewrite Hk.
  rewrite (search_through t cs s Hc xs 100 0 z z1 D F) by lia.
  destruct (100 - length xs)%nat as [|n] eqn:E; [lia|].
  rewrite search_step by lia. rewrite Hs. auto.
Qed.
Print Assumptions C53_sampler_raises.

(** There are no other cases. *)
Theorem C53_cases_complete :
  forall (X P A B : Type) (t : tester X P A B) z (cs : dict (constraint X P)),
  exists xs z1, draws (st_sample t) z xs z1 /\ Forall (fun y => ~ satisfies_all cs y) xs /\
  (length xs = 99%nat \/
   (length xs < 99)%nat /\
   ((exists x z', st_sample t z1 = (Ok x, z') /\ satisfies_all cs x) \/ exists e z', st_sample t z1 = (Err e, z'))).
Proof.
  intros X P A B t z cs. generalize 99%nat as n. intros n. revert z.
  induction n as [|n IH]; intros z; [exists [], z; split; [constructor|split; [constructor|left; auto]]|].
  destruct (st_sample t z) as [[x|e] z'] eqn:E.
  - destruct (all_satisfied cs x) eqn:Ea.
    + apply all_satisfied_iff in Ea. exists [], z. split; [constructor|split; [constructor|right]].
      split; [simpl; lia|left; eauto].
    + destruct (IH z') as (xs & z1 & D & F & C). exists (x :: xs), z1.
      split; [econstructor; eauto|split; [constructor; auto; intros Q; apply all_satisfied_iff in Q; congruence|]].
      destruct C as [C|[C1 C2]]; [left; simpl; lia|right; split; [simpl; lia|auto]].
  - exists [], z. split; [constructor|split; [constructor|right]]. split; [simpl; lia|right; eauto].
Qed.
Print Assumptions C53_cases_complete.

Theorem C53_not_constraint_based :
  forall (X P A B : Type) (t : tester X P A B) s z x z',
  st_check t = true -> st_constraints t s = None -> st_sample t z = (Ok x, z') ->
  initial_state t 100 (s, z) = (Err AssertionError, (s, z')).
Proof.
  intros X P A B t s z x z' Hk Hc Hs. unfold initial_state; rewrite Hk.
  rewrite search_step by lia. rewrite Hs, Hc. auto.
Qed.
Print Assumptions C53_not_constraint_based.

(** ** C54.  The verdict of a safety assurance run. *)

(** A module with a constraint gets no verdict: the run raises TypeError, at every initial
    state, and so does the whole test. *)
Theorem C54_no_verdict_refuted :
  forall (X P A B : Type) (t : tester X P A B) s cs, st_constraints t s = Some cs -> cs <> [] ->
  (forall x rounds, assurance_episode t rounds x s = (Err TypeError, s)) /\
  (forall z x z' n rounds rounds2, st_sample t z = (Ok x, z') ->
     sample_test t (S n) (S rounds) rounds2 (s, z) = (Err TypeError, (s, z'))).
Proof.
  intros X P A B t s cs Hc Hn.
  assert (E : forall x rounds, assurance_episode t rounds x s = (Err TypeError, s)).
  { intros x rounds. unfold assurance_episode, constraints_of, bind, get, lift. rewrite Hc.
    destruct cs as [|[k c] cs]; [congruence|reflexivity]. }
  split; [exact E|]. intros z x z' n rounds rounds2 Hs.
  simpl. unfold bind, on_sampler, zoom; cbn [fst snd]. rewrite Hs. unfold on_module, zoom; cbn [fst snd].
  rewrite E. reflexivity.
Qed.
Print Assumptions C54_no_verdict_refuted.

(** A module that never has a constraint gets the documented verdict. *)
Theorem C54_verdict_partial :
  forall (X P A B : Type) (t : tester X P A B) rounds x s v s',
  (forall s, st_constraints t s = Some []) ->
  assurance_episode t rounds x s = (Ok (Some v), s') ->
  documented_verdict (st_filter t) (st_constraints t) (st_pred t) (st_desired t) (st_done t) (st_dt t) true 0 x s v s'.
Proof.
  intros X P A B t rounds x s v s' Hc H.
  unfold assurance_episode, constraints_of, bind, get, lift in H. rewrite Hc in H. simpl in H.
  destruct (assurance_loop t rounds x 0 s) as [[r|e] s1] eqn:E; [|discriminate]. unfold ret in H.
  destruct r as [b|]; [|discriminate]. injection H as <- <-.
  apply dv_safe_start with (cs := []); [auto|intros k c []|].
  assert (G : forall rounds n x s, assurance_loop t rounds x (INR n * st_dt t) s = (Ok (Some b), s1) ->
    documented_verdict (st_filter t) (st_constraints t) (st_pred t) (st_desired t) (st_done t) (st_dt t) false n x s (Some b) s1).
  { clear - Hc. induction rounds as [|rounds IH]; intros n x s H; [discriminate|].
    simpl in H. unfold bind, catch_solver, lift, ret in H.
    destruct (st_filter t (InArray x) (st_dt t) (st_desired t x) s) as [[w|e] s2] eqn:Ef.
    - destruct (st_pred t x (st_dt t) w) as [x'|e] eqn:Ep; [|discriminate].
      unfold constraints_of, bind, get in H. rewrite Hc in H. simpl in H.
      replace (INR n * st_dt t + st_dt t) with (INR (S n) * st_dt t) in H by (rewrite S_INR; ring).
      destruct (st_done t x' (INR (S n) * st_dt t)) eqn:Ed.
      + injection H as <- <-. eapply dv_over; eauto. intros k c [].
      + eapply dv_goes_on; eauto. intros k c [].
    - destruct e; try discriminate. injection H as <- <-. apply dv_solver; auto. }
  apply (G rounds 0%nat). simpl INR. rewrite Rmult_0_l. exact E.
Qed.
Print Assumptions C54_verdict_partial.

(** The test writes one row per point; each row is a sampled state with the verdict that the
    run from this state gave. *)
Theorem C54_rows :
  forall (X P A B : Type) (t : tester X P A B) n rounds rounds2 p rows p',
  sample_test t n rounds rounds2 p = (Ok (Some rows), p') ->
  length rows = n /\
  forall b x, In (b, x) rows ->
    (exists z z', st_sample t z = (Ok x, z')) /\
    exists s s', assurance_episode t rounds2 x s = (Ok (Some (Some b)), s').
Proof.
  intros X P A B t n rounds rounds2. induction n as [|n IH]; intros p rows p' H.
  - injection H as <- <-. split; [auto|intros b x []].
  - simpl in H. unfold bind at 1 in H.
    destruct (one_point t rounds rounds2 p) as [[[row|]|e] p1] eqn:E1; try discriminate.
    unfold bind in H. destruct (sample_test t n rounds rounds2 p1) as [[[rows1|]|e] p2] eqn:E2; try discriminate.
    injection H as <- <-. destruct (IH _ _ _ E2) as [L R]. split; [simpl; lia|].
    intros b x [->|Hin]; [|eauto]. clear - E1. revert p E1.
    induction rounds as [|rounds IH]; intros [s z] E; [discriminate|].
    simpl in E. unfold bind, on_sampler, on_module, zoom in E. cbn [fst snd] in E.
    destruct (st_sample t z) as [[y|e] z1] eqn:Es; [|discriminate].
    cbn [fst snd] in E. destruct (assurance_episode t rounds2 y s) as [[r|e] s1] eqn:Ea; [|discriminate].
    destruct r as [[v|]|]; [|eapply IH; eauto|discriminate].
    injection E as <- <- <-. split; [eauto|eauto].
Qed.
Print Assumptions C54_rows.

(** ** C60.  Initial states come from the given samples or distributions. *)

(** Latin hypercube: each prepared sample once, in order; IndexError when there are no more. *)
Theorem C60_hypercube_in_order :
  forall (X : Type) (ics : list X) i xs q,
  draws hypercube_sample (ics, i) xs q <->
  q = (ics, i + length xs)%nat /\ xs = firstn (length xs) (skipn i ics).
Proof.
  intros X ics i xs q. revert i q. induction xs as [|x xs IH]; intros i q; split; intros H.
  - inversion H; subst. simpl. rewrite Nat.add_0_r. auto.
  - destruct H as [-> _]. simpl. rewrite Nat.add_0_r. constructor.
  - inversion H as [|z x0 z' xs0 z'' Hs Hd]; subst. unfold hypercube_sample, bind, get in Hs. cbn [fst snd] in Hs.
    destruct (nth_error ics i) as [y|] eqn:E; [|discriminate]. unfold put, ret in Hs. injection Hs as -> <-.
    apply IH in Hd. destruct Hd as [-> Hx]. split; [simpl; f_equal; lia|].
    assert (Sk : skipn i ics = x :: skipn (S i) ics).
    { clear - E. revert i E. induction ics as [|a ics IH]; intros [|i] E; simpl in *; try discriminate.
      - injection E as ->; auto.
      - rewrite (IH i E). reflexivity. }
    rewrite Sk. simpl. f_equal. exact Hx.
  - destruct H as [-> Hx]. destruct (skipn i ics) as [|y rest] eqn:Sk; [discriminate|].
    simpl in Hx. injection Hx as <- Hx.
    assert (E : nth_error ics i = Some x /\ skipn (S i) ics = rest).
    { clear - Sk. revert i Sk. induction ics as [|a ics IH]; intros [|i] E; simpl in *; try discriminate.
      - injection E as -> ->; auto.
      - destruct (IH i E) as [E1 E2]. split; auto. }
    destruct E as [E1 E2]. econstructor.
    + unfold hypercube_sample, bind, get. cbn [fst snd]. rewrite E1. reflexivity.
    + apply IH. split; [simpl; f_equal; lia|]. rewrite E2. auto.
Qed.
Print Assumptions C60_hypercube_in_order.

Theorem C60_hypercube_exhausted :
  forall (X : Type) (ics : list X) i,
  (length ics <= i)%nat <-> hypercube_sample (ics, i) = (Err IndexError, (ics, i)).
Proof.
  intros X ics i. unfold hypercube_sample, bind, get. cbn [fst snd]. split; intros H.
  - apply nth_error_None in H. rewrite H. reflexivity.
  - destruct (nth_error ics i) eqn:E; [discriminate|]. apply nth_error_None; auto.
Qed.
Print Assumptions C60_hypercube_exhausted.

(** Parametric: a component is the given constant, or a number drawn with the given parameters
    by the generator of the given kind; any other kind raises ValueError. *)
Theorem C60_parametric_components :
  forall (B : Type) (normal uniform : R -> R -> M B R) pdfs row0 row1 n z xs z',
  parametric_loop normal uniform pdfs row0 row1 n z = (Ok xs, z') ->
  length xs = n /\
  forall i x, nth_error xs i = Some x -> exists k a b,
    nth_error pdfs i = Some k /\ nth_error row0 i = Some a /\ nth_error row1 i = Some b /\
    ((k = "constant"%string /\ x = a) \/
     (k = "gaussian"%string /\ exists z1 z2, normal a b z1 = (Ok x, z2)) \/
     (k = "uniform"%string /\ exists z1 z2, uniform a b z1 = (Ok x, z2))).
Proof.
  intros B normal uniform pdfs row0 row1 n. revert pdfs row0 row1. induction n as [|n IH]; intros pdfs row0 row1 z xs z' H.
  - cbn [parametric_loop] in H. unfold ret in H. injection H as <- <-. split; [auto|intros [|i] x Hx; discriminate].
  - destruct pdfs as [|k pdfs], row0 as [|a row0], row1 as [|b row1]; try discriminate.
    cbn [parametric_loop] in H. unfold bind at 1 in H.
    match type of H with (match ?m z with _ => _ end) = _ => destruct (m z) as [[x|e] z1] eqn:E end; [|discriminate].
    unfold bind in H. destruct (parametric_loop normal uniform pdfs row0 row1 n z1) as [[xs1|e] z2] eqn:E2; [|discriminate].
    injection H as <- <-. destruct (IH _ _ _ _ _ _ E2) as [L R]. split; [simpl; lia|].
    intros [|i] y Hy; simpl in Hy; [injection Hy as <-|apply (R i y Hy)].
    exists k, a, b. split; [auto|split; [auto|split; [auto|]]].
    destruct (String.eqb k "gaussian") eqn:Eg; [apply String.eqb_eq in Eg; right; left; eauto|].
    destruct (String.eqb k "constant") eqn:Ec; [apply String.eqb_eq in Ec; left; injection E as <- <-; auto|].
    destruct (String.eqb k "uniform") eqn:Eu; [apply String.eqb_eq in Eu; right; right; eauto|discriminate].
Qed.
Print Assumptions C60_parametric_components.

Theorem C60_parametric_unknown :
  forall (B : Type) (normal uniform : R -> R -> M B R) pdfs row0 row1 n z,
  (forall a b z, exists x z', normal a b z = (Ok x, z')) -> (forall a b z, exists x z', uniform a b z = (Ok x, z')) ->
  (n <= length pdfs)%nat -> (n <= length row0)%nat -> (n <= length row1)%nat ->
  (exists i k, (i < n)%nat /\ nth_error pdfs i = Some k /\ ~ In k ["gaussian"; "constant"; "uniform"]%string) ->
  exists m, fst (parametric_loop normal uniform pdfs row0 row1 n z) = Err (ValueError m).
Proof.
  intros B normal uniform pdfs row0 row1 n z HN HU. revert pdfs row0 row1 z.
  induction n as [|n IH]; intros pdfs row0 row1 z L0 L1 L2 (i & k & Hi & Hk & Nk); [lia|].
  destruct pdfs as [|k0 pdfs], row0 as [|a row0], row1 as [|b row1]; simpl in L0, L1, L2; try lia.
  cbn [parametric_loop]. unfold bind at 1.
  assert (Case : (exists x z1, (if String.eqb k0 "gaussian" then normal a b
            else if String.eqb k0 "constant" then ret a
            else if String.eqb k0 "uniform" then uniform a b
            else raise (ValueError "state_PDFs must be either gaussian, constant, or uniform")) z = (Ok x, z1))
            \/ ~ In k0 ["gaussian"; "constant"; "uniform"]%string /\ (if String.eqb k0 "gaussian" then normal a b
            else if String.eqb k0 "constant" then ret a
            else if String.eqb k0 "uniform" then uniform a b
            else raise (ValueError "state_PDFs must be either gaussian, constant, or uniform")) z
              = (Err (ValueError "state_PDFs must be either gaussian, constant, or uniform"), z)).
  { destruct (String.eqb k0 "gaussian") eqn:Eg; [left; auto|].
    destruct (String.eqb k0 "constant") eqn:Ec; [left; do 2 eexists; reflexivity|].
    destruct (String.eqb k0 "uniform") eqn:Eu; [left; auto|]. right; split; [|reflexivity].
    apply String.eqb_neq in Eg, Ec, Eu. simpl; intuition. }
  destruct Case as [(x & z1 & E)|[_ E]]; rewrite E; [|eexists; reflexivity].
  destruct i as [|i].
  - simpl in Hk. injection Hk as ->. exfalso.
    destruct (String.eqb k "gaussian") eqn:Eg; [apply String.eqb_eq in Eg; simpl in Nk; intuition|].
    destruct (String.eqb k "constant") eqn:Ec; [apply String.eqb_eq in Ec; simpl in Nk; intuition|].
    destruct (String.eqb k "uniform") eqn:Eu; [apply String.eqb_eq in Eu; simpl in Nk; intuition|]. discriminate.
  - destruct (IH pdfs row0 row1 z1) as [m Hm]; try lia; [exists i, k; split; [lia|auto]|].
    exists m. unfold bind. destruct (parametric_loop normal uniform pdfs row0 row1 n z1) as [[xs|e] z2]; simpl in *; [discriminate|auto].
Qed.
Print Assumptions C60_parametric_unknown.

(** ** Concrete cases. *)

(** The toy module with a list of prepared samples; the desired control is one half. *)
Definition toy_tester (check : bool) (T dt : R) : tester R unit (simplex R unit) (list R * nat) :=
  mkTester (simplex_filter_control (toy_cfg unit_box 0) Explicit) intervening (fun s => Some (cb_constraints (ext s)))
    hypercube_sample toy_pred (fun _ => [1/2]) (default_done T) dt 1 check.

Lemma toy_safe x : 0 <= x -> satisfies_all toy_constraints x.
Proof.
  intros Hx k c [E|[E|[]]]; injection E as _ <-; unfold satisfied; simpl; lra.
Qed.
Lemma toy_unsafe x : x < 0 -> ~ satisfies_all toy_constraints x.
Proof.
  intros Hx H. destruct (H _ _ (or_introl eq_refl)) as [_ H1]. simpl in H1. lra.
Qed.

(** C52: an episode of three steps of length one for a simulation time of two and a half; the
    first sample is not safe. *)
Example C52_case : exists s',
  simulate_episode (toy_tester true (5/2) 1) 4 (toy, ([-1; 2; 3], 0%nat)) =
    (Ok (Some ([2; 1/2; 1/2; 1/2], [[0]; [1/2]; [1/2]; [1/2]], [false; false; false; false])), (s', ([-1; 2; 3], 2%nat))).
Proof. eexists. compute_model. reflexivity. Qed.

(** C52_episode_ends: the toy module at any safe state. *)
Example C52_ends_case : exists enough r s', forall rounds, (enough <= rounds)%nat ->
  simulate_episode (toy_tester false (5/2) 1) rounds (toy, ([2], 0%nat)) = (Ok (Some r), (s', ([2], 1%nat))).
Proof.
  refine (C52_episode_ends _ _ _ _ (toy_tester false (5/2) 1) (5/2) 1 toy ([2], 0%nat) 2 ([2], 1%nat)
    (fun s x => 0 <= x /\ exists cd ca vs st, s = mkRta true false cd ca
      (mkCb toy_constraints (cb_params (ext toy)) (cb_enabled (ext toy)) vs st (cb_ext (ext toy)))) eq_refl _ eq_refl _ _).
  - simpl; lra.
  - split; [lra|]. exists (control_desired toy), (control_actual toy), (cb_values (ext toy)), (cb_stale (ext toy)). reflexivity.
  - intros s x (Hx & cd & ca & vs & st & ->).
    exists [1/2]. eexists. exists (1/2). split; [|split; [reflexivity|]].
    + compute_model. reflexivity.
    + split; [lra|]. do 4 eexists. reflexivity.
Qed.

(** C53: the first safe sample of four; no safe one in the list; a module without constraints. *)
Example C53_case :
  initial_state (toy_tester true (5/2) 1) 100 (toy, ([-1; -2; 3; 4], 0%nat)) = (Ok (Some 3), (toy, ([-1; -2; 3; 4], 3%nat))).
Proof.
  refine (C53_first_safe_sample _ _ _ _ (toy_tester true (5/2) 1) toy ([-1; -2; 3; 4], 0%nat) toy_constraints [-1; -2] 3 _
    eq_refl eq_refl _ _ _ _).
  - apply C60_hypercube_in_order. split; reflexivity.
  - constructor; [apply toy_unsafe; lra|]. constructor; [apply toy_unsafe; lra|constructor].
  - apply toy_safe; lra.
  - simpl; lia.
Qed.
Example C53_exhausted_case :
  initial_state (toy_tester true (5/2) 1) 100 (toy, ([-1; -2], 0%nat)) = (Err IndexError, (toy, ([-1; -2], 2%nat))).
Proof.
  refine (C53_sampler_raises _ _ _ _ (toy_tester true (5/2) 1) toy ([-1; -2], 0%nat) toy_constraints [-1; -2] ([-1; -2], 2%nat) _ _
    eq_refl eq_refl _ _ _ eq_refl).
  - apply C60_hypercube_in_order. split; reflexivity.
  - constructor; [apply toy_unsafe; lra|]. constructor; [apply toy_unsafe; lra|constructor].
  - simpl; lia.
Qed.
Example C53_gives_up_case : exists z',
  initial_state (toy_tester true (5/2) 1) 100 (toy, (repeat (-1) 99 ++ [1], 0%nat)) =
    (Err (ValueError "Unable to find safe initial state. To disable, set check_init_state = False."), (toy, z')).
Proof.
  eexists. refine (proj1 (C53_gives_up _ _ _ _ (toy_tester true (5/2) 1) toy (repeat (-1) 99 ++ [1], 0%nat) toy_constraints (repeat (-1) 99) _
    eq_refl eq_refl _ _ _)).
  - apply C60_hypercube_in_order. split; reflexivity.
  - apply Forall_forall. intros y Hy. apply repeat_spec in Hy. subst y. apply toy_unsafe; lra.
  - apply repeat_length.
Qed.

(** C54: the toy module has constraints, so there is no verdict; without them there is one. *)
Example C54_no_verdict_case :
  sample_test (toy_tester true (5/2) 1) 3 10 10 (toy, ([1; 2; 3], 0%nat)) = (Err TypeError, (toy, ([1; 2; 3], 1%nat))).
Proof.
  refine (proj2 (C54_no_verdict_refuted _ _ _ _ (toy_tester true (5/2) 1) toy toy_constraints eq_refl _) ([1; 2; 3], 0%nat) 1 ([1; 2; 3], 1%nat) 2%nat 9%nat 10%nat eq_refl).
  discriminate.
Qed.
(** A filter that fails below one, and constraints that are always none. *)
Definition bare_tester : tester R unit unit (list R * nat) :=
  mkTester (fun i _ _ => match i with InArray x => if Rltb x 1 then raise SolverError else ret [x - 1/2] | InOther => raise TypeError end)
    (fun _ => false) (fun _ => Some []) hypercube_sample toy_pred (fun _ => [0]) (default_done 2) 1 1 true.
Example C54_verdict_case :
  sample_test bare_tester 2 10 10 (tt, ([3; 1; 5], 0%nat)) = (Ok (Some [(true, 3); (false, 1)]), (tt, ([3; 1; 5], 2%nat))) /\
  assurance_episode bare_tester 10 1 tt = (Ok (Some (Some false)), tt).
Proof. split; compute_model; reflexivity. Qed.

(** C60: a constant, a uniform (the generator gives the middle) and an unknown kind. *)
Example C60_case :
  parametric_loop (B:=unit) (fun m sd => ret m) (fun lo hi => ret ((lo + hi) / 2))
    ["constant"; "uniform"]%string [3; 0] [9; 2] 2 tt = (Ok [3; (0 + 2) / 2], tt) /\
  exists m, fst (parametric_loop (B:=unit) (fun m sd => ret m) (fun lo hi => ret ((lo + hi) / 2))
    ["constant"; "beta"]%string [3; 0] [9; 2] 2 tt) = Err (ValueError m).
Proof.
  split; [reflexivity|]. refine (C60_parametric_unknown unit _ _ _ _ _ _ _ _ _ _ _ _ _); simpl; try lia.
  - intros; do 2 eexists; reflexivity.
  - intros; do 2 eexists; reflexivity.
  - exists 1%nat, "beta"%string. split; [lia|split; [reflexivity|]]. intros [H|[H|[H|[]]]]; discriminate.
Qed.
Example C60_order_case :
  draws hypercube_sample ([1; 2; 3], 0%nat) [1; 2] ([1; 2; 3], 2%nat) /\
  hypercube_sample ([1; 2; 3], 3%nat) = (Err IndexError, ([1; 2; 3], 3%nat)).
Proof. split; [apply C60_hypercube_in_order; split; reflexivity|reflexivity]. Qed.
Definition unconstrained_tester : tester R unit unit (list R * nat) :=
  mkTester (fun _ _ u => ret u) (fun _ => false) (fun _ => None) hypercube_sample toy_pred (fun _ => [0]) (default_done 2) 1 1 true.
Example C53_not_constraint_based_case :
  initial_state unconstrained_tester 100 (tt, ([3], 0%nat)) = (Err AssertionError, (tt, ([3], 1%nat))).
Proof. exact (C53_not_constraint_based _ _ _ _ unconstrained_tester tt ([3], 0%nat) 3 ([3], 1%nat) eq_refl eq_refl eq_refl). Qed.
