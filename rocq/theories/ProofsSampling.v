(** Lemmas about simulated episodes. *)
From Coq Require Import String Reals List Bool ZArith Lia Lra.
From Verif Require Import Prelude Vec ModelBase ModelSampling SpecCore SpecSampling ProofsBase.
Import ListNotations.
Local Open Scope R_scope.

Lemma archimed_steps dt T : 0 < dt -> exists n, T <= INR n * dt.
Proof.
  intros Hd. destruct (archimed (T / dt)) as [Hu _]. exists (Z.to_nat (up (T / dt))).
  assert (Hn : T / dt < INR (Z.to_nat (up (T / dt)))).
  { apply Rlt_le_trans with (IZR (up (T / dt))); auto. rewrite INR_IZR_INZ. apply IZR_le. lia. }
  set (n := Z.to_nat (up (T / dt))) in *. apply Rmult_lt_compat_r with (r := dt) in Hn; auto. replace (T / dt * dt) with T in Hn by (field; lra). lra.
Qed.

Section Tester.
Context {X P A B : Type} (t : tester X P A B).

Notation epi := (episode (st_filter t) (st_flag t) (st_pred t) (st_desired t) (st_dt t)).

Lemma all_satisfied_iff (cs : dict (constraint X P)) x : all_satisfied cs x = true <-> satisfies_all cs x.
Proof.
  induction cs as [|[k c] cs IH]; simpl.
  - split; [intros _ k c []|auto].
  - destruct (Rltb (c_phi c x (c_params c)) 0) eqn:E1; simpl.
    { apply Rltb_true in E1. split; [discriminate|]. intros H. destruct (H k c (or_introl eq_refl)); lra. }
    destruct (Rltb (c_compute c x (c_params c)) 0) eqn:E2; simpl.
    { apply Rltb_true in E2. unfold c_compute in E2. split; [discriminate|].
      intros H. destruct (H k c (or_introl eq_refl)); lra. }
    apply Rltb_false in E1. apply Rltb_false in E2. unfold c_compute in E2. rewrite IH. split; intros H.
    + intros k' c' [E|Hin]; [injection E as <- <-; split; lra|apply (H k' c' Hin)].
    + intros k' c' Hin. apply (H k' c'); right; auto.
Qed.

Lemma episode_loop_S rounds x time xs us bs s :
  episode_loop t (S rounds) x time xs us bs s =
  match st_filter t (InArray x) (st_dt t) (st_desired t x) s with
  | (Err e, s') => (Err e, s')
  | (Ok w, s') =>
      match st_pred t x (st_dt t) w with
      | Err e => (Err e, s')
      | Ok x' =>
          if st_done t x' (time + st_dt t)
          then (Ok (Some (xs ++ [x'], us ++ [w], bs ++ [st_flag t s'])), s')
          else episode_loop t rounds x' (time + st_dt t) (xs ++ [x']) (us ++ [w]) (bs ++ [st_flag t s']) s'
      end
  end.
Proof.
  simpl. unfold bind, lift, get. destruct (st_filter t (InArray x) (st_dt t) (st_desired t x) s) as [[w|e] s']; [|auto].
  destruct (st_pred t x (st_dt t) w) as [x'|e]; [|auto]. destruct (st_done t x' (time + st_dt t)); auto.
Qed.

Lemma episode_loop_inv rounds : forall x time xs us bs s r s',
  episode_loop t rounds x time xs us bs s = (Ok (Some r), s') ->
  exists xs' us' bs', r = (xs ++ xs', us ++ us', bs ++ bs') /\ epi x s xs' us' bs' s' /\
    (1 <= length xs')%nat /\
    forall i y, nth_error xs' i = Some y ->
      st_done t y (time + INR (S i) * st_dt t) = Nat.eqb (S i) (length xs').
Proof.
  induction rounds as [|rounds IH]; intros x time xs us bs s r s' H; [discriminate|].
  simpl in H. unfold bind, lift, get in H.
  destruct (st_filter t (InArray x) (st_dt t) (st_desired t x) s) as [[w|e] s1] eqn:Ef; [|discriminate].
  destruct (st_pred t x (st_dt t) w) as [x'|e] eqn:Ep; [|discriminate].
  destruct (st_done t x' (time + st_dt t)) eqn:Ed.
  - injection H as <- <-. exists [x'], [w], [st_flag t s1]. split; [auto|split; [|split; [simpl; lia|]]].
    + econstructor; eauto. constructor.
    + intros [|[|i]] y Hy; try discriminate. simpl in Hy. injection Hy as <-. simpl INR. rewrite Rmult_1_l. auto.
  - destruct (IH _ _ _ _ _ _ _ _ H) as (xs' & us' & bs' & -> & He & Hl & Hd).
    exists (x' :: xs'), (w :: us'), (st_flag t s1 :: bs'). rewrite <- !app_assoc. split; [auto|split; [|split; [simpl; lia|]]].
    + econstructor; eauto.
    + intros [|i] y Hy.
      * simpl in Hy. injection Hy as <-. simpl INR. rewrite Rmult_1_l, Ed. destruct xs'; simpl in *; [lia|auto].
      * simpl in Hy. specialize (Hd i y Hy). rewrite S_INR.
        replace (time + (INR (S i) + 1) * st_dt t) with (time + st_dt t + INR (S i) * st_dt t) by ring.
        rewrite Hd. reflexivity.
Qed.

Lemma episode_lengths x s xs us bs s' : epi x s xs us bs s' ->
  length us = length xs /\ length bs = length xs.
Proof. induction 1; simpl; lia. Qed.

(** A longer run of the loop gives the same result. *)
Lemma episode_loop_more rounds : forall x time xs us bs s r s',
  episode_loop t rounds x time xs us bs s = (r, s') -> r <> Ok None ->
  forall more, (rounds <= more)%nat -> episode_loop t more x time xs us bs s = (r, s').
Proof.
  induction rounds as [|rounds IH]; intros x time xs us bs s r s' H N more Hm.
  - simpl in H. injection H as <- <-. congruence.
  - destruct more as [|more]; [lia|]. simpl in *. unfold bind, lift, get in *.
    destruct (st_filter t (InArray x) (st_dt t) (st_desired t x) s) as [[w|e] s1]; [|auto].
    destruct (st_pred t x (st_dt t) w) as [x'|e]; [|auto].
    destruct (st_done t x' (time + st_dt t)); [auto|].
    apply IH; auto; lia.
Qed.

(** Nothing raises while [I] holds, so the loop ends once the end condition holds. *)
Lemma episode_loop_ends (I : A -> X -> Prop) :
  (forall s x, I s x -> exists w s' x', st_filter t (InArray x) (st_dt t) (st_desired t x) s = (Ok w, s') /\
     st_pred t x (st_dt t) w = Ok x' /\ I s' x') ->
  forall n x time xs us bs s, I s x ->
  (forall y k, (n <= k)%nat -> st_done t y (time + INR (S k) * st_dt t) = true) ->
  exists r s', episode_loop t (S n) x time xs us bs s = (Ok (Some r), s').
Proof.
  intros HI. induction n as [|n IH]; intros x time xs us bs s Hi Hd;
    destruct (HI s x Hi) as (w & s1 & x' & Hf & Hp & Hi'); rewrite episode_loop_S, Hf, Hp.
  - assert (E : st_done t x' (time + st_dt t) = true).
    { specialize (Hd x' 0%nat (le_n 0)). simpl INR in Hd. rewrite Rmult_1_l in Hd. auto. }
    rewrite E. do 2 eexists; reflexivity.
  - destruct (st_done t x' (time + st_dt t)); [do 2 eexists; reflexivity|].
    apply IH; auto. intros y k Hk. specialize (Hd y (S k) ltac:(lia)). rewrite S_INR in Hd.
    replace (time + st_dt t + INR (S k) * st_dt t) with (time + (INR (S k) + 1) * st_dt t) by ring. auto.
Qed.

(** The search. *)
Lemma search_step rounds counter s z : (counter + 1 < 100)%Z ->
  search t (S rounds) counter (s, z) =
  match st_sample t z with
  | (Err e, z') => (Err e, (s, z'))
  | (Ok x, z') =>
      match st_constraints t s with
      | None => (Err AssertionError, (s, z'))
      | Some cs => if all_satisfied cs x then (Ok (Some x), (s, z')) else search t rounds (counter + 1) (s, z')
      end
  end.
Proof.
  intros Hc. change (search t (S rounds) counter (s, z)) with
    ((if (100 <=? counter + 1)%Z then raise (ValueError msg_no_safe_state)
      else bind (on_sampler (st_sample t)) (fun x => bind (on_module (check_if_safe_state t x))
             (fun ok : bool => if ok then ret (Some x) else search t rounds (counter + 1)%Z))) (s, z)).
  replace (100 <=? counter + 1)%Z with false by (symmetry; apply Z.leb_gt; lia).
  unfold bind at 1, on_sampler, zoom. cbn [snd fst]. destruct (st_sample t z) as [[x|e] z']; [|reflexivity].
  unfold bind, on_module, zoom, check_if_safe_state, bind, get. cbn [snd fst].
  destruct (st_constraints t s) as [cs|]; [|reflexivity]. unfold ret. destruct (all_satisfied cs x); reflexivity.
Qed.

Lemma search_fails rounds counter s z : (100 <= counter + 1)%Z ->
  search t (S rounds) counter (s, z) = (Err (ValueError msg_no_safe_state), (s, z)).
Proof. intros H. simpl. apply Z.leb_le in H. rewrite H. reflexivity. Qed.

Lemma search_more rounds : forall counter s z r s', search t rounds counter (s, z) = (r, s') -> r <> Ok None ->
  forall more, (rounds <= more)%nat -> search t more counter (s, z) = (r, s').
Proof.
  induction rounds as [|rounds IH]; intros counter s z r s' H N more Hm.
  - simpl in H. injection H as <- _; congruence.
  - destruct more as [|more]; [lia|].
    destruct (Z_lt_le_dec (counter + 1) 100) as [L|L].
    + rewrite search_step in * by auto. destruct (st_sample t z) as [[x|e] z1]; [|auto].
      destruct (st_constraints t s) as [cs|]; [|auto]. destruct (all_satisfied cs x); [auto|]. apply IH; auto; lia.
    + rewrite search_fails in * by auto. auto.
Qed.
Lemma initial_more rounds p r p' : initial_state t rounds p = (r, p') -> r <> Ok None ->
  forall more, (rounds <= more)%nat -> initial_state t more p = (r, p').
Proof.
  unfold initial_state. destruct p as [s z]. destruct (st_check t); [|auto]. apply search_more.
Qed.

Lemma search_through cs s : st_constraints t s = Some cs -> forall xs rounds counter z z',
  draws (st_sample t) z xs z' -> Forall (fun x => ~ satisfies_all cs x) xs ->
  (counter + Z.of_nat (length xs) < 100)%Z -> (length xs <= rounds)%nat ->
  search t rounds counter (s, z) = search t (rounds - length xs) (counter + Z.of_nat (length xs)) (s, z').
Proof.
  intros Hc. induction xs as [|x xs IH]; intros rounds counter z z' D F Hb Hr.
  - inversion D; subst. simpl. f_equal; [lia|lia].
  - inversion D as [|z0 x0 z1 xs0 z2 Hs Dr]; subst. inversion F as [|x1 xs1 Hx Fx]; subst.
    destruct rounds as [|rounds]; [simpl in Hr; lia|].
    cbn [length] in Hb, Hr.
    rewrite search_step by lia. rewrite Hs, Hc.
    destruct (all_satisfied cs x) eqn:E; [apply all_satisfied_iff in E; tauto|].
    rewrite (IH rounds (counter + 1)%Z z1 z' Dr Fx) by lia.
    cbn [length Nat.sub]. f_equal; lia.
Qed.
End Tester.
