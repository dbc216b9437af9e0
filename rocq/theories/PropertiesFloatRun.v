(** C57 for whole histories of a simplex module with latch, on IEEE numbers. *)
From Coq Require Import ZArith List Bool Lia Floats.SpecFloat.
From Flocq Require Import IEEE754.BinarySingleNaN.
From Verif Require Import ModelFloat ModelTime ModelFloatRun PropertiesFloat.
From Verif Require PropertiesTime.
Import ListNotations.

(** The module is held on its backup controller: it has intervened and the latch time is not over. *)
Definition f_held (latch_time : double) (s : f_state) : Prop :=
  fs_enable s = true /\ fs_intervening s = true /\ Bleb latch_time (fs_elapsed s) = false.
(** A call of the filter, or the assignment that enables the module. *)
Definition goes_on {X} (o : f_op X) : Prop := match o with FCall _ _ _ | FEnable true => True | _ => False end.

Lemma call_plain {X} (m : f_module X) latch dt x u s : fs_enable s = true ->
  (f_held latch s /\ f_call m latch dt x u s =
     (f_clip (f_low m) (f_high m) (f_clip (f_low m) (f_high m) (f_backup m x)), mkFState true true (d_add (fs_elapsed s) dt))) \/
  (exists e, f_call m latch dt x u s = (fst (f_filter m x u), mkFState true (snd (f_filter m x u)) e)).
Proof.
  intros E. unfold f_call, f_held, d_latch_call, d_ge, f_filter. rewrite E.
  destruct (fs_intervening s); [destruct (Bleb latch (fs_elapsed s)) eqn:G|].
  - right. eexists. cbn [fst snd]. reflexivity.
  - left. split; auto.
  - right. eexists. cbn [fst snd]. reflexivity.
Qed.

Lemma run_nth {X} (m : f_module X) latch os : forall s k o r, nth_error os k = Some o ->
  nth_error (f_run m latch os s) k = Some r -> exists s0, f_step m latch o s0 = r.
Proof.
  induction os as [|o' os IH]; intros s [|k] o r Ho Hr; cbn in *; try discriminate.
  - injection Ho as ->; injection Hr as <-; eauto.
  - eapply IH; eauto.
Qed.

(** In every history, from every state of the module: a call answers with numbers within the bounds
    if the desired and the backup control are numbers and the bounds proper; and if the module is not
    intervening after it, every enabled constraint value is not-a-number or at least zero. *)
Theorem C57_history_partial :
  forall (X : Type) (m : f_module X) latch os s k dt x u w s',
  nth_error os k = Some (FCall dt x u) -> nth_error (f_run m latch os s) k = Some (Some w, s') ->
  fs_enable s' = true ->
  length (f_backup m x) = length u -> f_fits (f_low m) u -> f_fits (f_high m) u ->
  (forall y, In y u \/ In y (f_backup m x) -> is_number y) ->
  (forall i, proper (f_bound_at (f_low m) i) (f_bound_at (f_high m) i)) ->
  length w = length u /\
  (forall i r, nth_error w i = Some r -> is_number r /\ in_bounds (f_bound_at (f_low m) i) (f_bound_at (f_high m) i) r) /\
  (fs_intervening s' = false -> forall vals v, In (true, vals) (f_values m x u) -> In v vals -> v = S754_nan \/ SFleb f_zero v = true).
Proof.
  intros X m latch os s k dt x u w s' Ho Hr En Lb Fl Fh HN HP.
  destruct (run_nth m latch os s k _ _ Ho Hr) as [s0 H]. cbn in H.
  assert (E0 : fs_enable s0 = true).
  { destruct (fs_enable s0) eqn:E; auto. unfold f_call in H. rewrite E in H. injection H as _ <-. congruence. }
  destruct (call_plain m latch dt x u s0 E0) as [[_ E]|[e E]]; rewrite E in H; injection H as <- <-; cbn [fs_intervening].
  - (* held: the same control as a module whose values are all below zero *)
    pose (m' := mkF (f_low m) (f_high m) (f_backup m) (fun _ _ => [(true, [S754_infinity true])])).
    destruct (C57_call_partial X m' x u _ _ (surjective_pairing _) Lb Fl Fh HN HP) as (A & B & _).
    split; [exact A|]. split; [exact B|]. intros Q; discriminate Q.
  - apply (C57_call_partial X m x u _ _ (surjective_pairing _) Lb Fl Fh HN HP).
Qed.
Print Assumptions C57_history_partial.

(** While the module is held, the desired control does not matter, not even if it is not a number. *)
Theorem C57_held_ignores_desired :
  forall (X : Type) (m : f_module X) latch dt x u u' s, f_held latch s ->
  f_call m latch dt x u s = f_call m latch dt x u' s.
Proof.
  intros X m latch dt x u u' s (E & I & L). unfold f_call, d_latch_call, d_ge. rewrite E, I, L. reflexivity.
Qed.
Print Assumptions C57_held_ignores_desired.

Lemma nan_ge T : Bleb T (B754_nan : double) = false.
Proof. destruct T; reflexivity. Qed.
Lemma add_nan (x : double) : d_add x B754_nan = B754_nan.
Proof. destruct x; reflexivity. Qed.
Lemma nan_add (x : double) : d_add B754_nan x = B754_nan.
Proof. reflexivity. Qed.

Lemma step_nan {X} (m : f_module X) latch o s : fs_elapsed s = B754_nan -> fs_elapsed (snd (f_step m latch o s)) = B754_nan.
Proof.
  intros H. destruct o as [dt x u| |b]; cbn; auto. unfold f_call, d_latch_call, d_ge.
  destruct (fs_enable s); auto. destruct (fs_intervening s); rewrite H; [rewrite nan_ge|]; reflexivity.
Qed.
Lemma nan_held {X} (m : f_module X) latch os : forall s, fs_elapsed s = B754_nan -> fs_enable s = true -> fs_intervening s = true ->
  (forall o, In o os -> goes_on o) ->
  forall k r, nth_error (f_run m latch os s) k = Some r -> fs_intervening (snd r) = true /\
    forall dt x u, nth_error os k = Some (FCall dt x u) ->
      fst r = Some (f_clip (f_low m) (f_high m) (f_clip (f_low m) (f_high m) (f_backup m x))).
Proof.
  induction os as [|o os IH]; intros s N E I G k r Hr; [destruct k; discriminate|].
  assert (S1 : fs_elapsed (snd (f_step m latch o s)) = B754_nan /\ fs_enable (snd (f_step m latch o s)) = true /\
               fs_intervening (snd (f_step m latch o s)) = true /\
               forall dt x u, o = FCall dt x u ->
                 fst (f_step m latch o s) = Some (f_clip (f_low m) (f_high m) (f_clip (f_low m) (f_high m) (f_backup m x)))).
  { split; [apply step_nan; auto|]. specialize (G o (or_introl eq_refl)).
    destruct o as [dt x u| |[]]; cbn in G |- *; try contradiction.
    - unfold f_call, d_latch_call, d_ge. rewrite E, I, N, nan_ge. split; [reflexivity|]. split; [reflexivity|].
      intros dt' x' u' Q. injection Q as <- <- <-. reflexivity.
    - split; auto. split; auto. discriminate. }
  destruct S1 as (N1 & E1 & I1 & C1). destruct k as [|k]; cbn in Hr.
  - injection Hr as <-. split; [exact I1|]. cbn. intros dt x u Q. injection Q as ->. apply (C1 dt x u); reflexivity.
  - destruct (IH _ N1 E1 I1 (fun o' H => G o' (or_intror H)) k r Hr) as [A B]. split; auto.
Qed.

(** A step size that is not a number does harm for ever.  Given to a module that is being held, it
    makes the hold permanent: every later call answers with the backup control, whatever its state,
    step size and desired control, until the module is reset or disabled. *)
Theorem C57_nan_step_refuted :
  forall (X : Type) (m : f_module X) latch x0 u0 s os, f_held latch s -> (forall o, In o os -> goes_on o) ->
  forall k r, nth_error (f_run m latch os (snd (f_call m latch B754_nan x0 u0 s))) k = Some r ->
  fs_intervening (snd r) = true /\
  forall dt x u, nth_error os k = Some (FCall dt x u) ->
    fst r = Some (f_clip (f_low m) (f_high m) (f_clip (f_low m) (f_high m) (f_backup m x))).
Proof.
  intros X m latch x0 u0 s os (E & I & L) G. apply nan_held; auto;
    unfold f_call, d_latch_call, d_ge; rewrite E, I, L; cbn; auto. apply add_nan.
Qed.
Print Assumptions C57_nan_step_refuted.

(** Resetting the module does not help: the accumulated time stays not-a-number through every history,
    so the next intervention, however long after, is permanent again. *)
Theorem C57_nan_step_survives_reset :
  forall (X : Type) (m : f_module X) latch x0 u0 s os1 dt x u w s1 os2, f_held latch s ->
  let s0 := snd (f_call m latch B754_nan x0 u0 s) in
  last (f_run m latch (os1 ++ [FCall dt x u]) s0) (None, s0) = (Some w, s1) ->
  fs_enable s1 = true -> fs_intervening s1 = true -> (forall o, In o os2 -> goes_on o) ->
  forall k r, nth_error (f_run m latch os2 s1) k = Some r -> fs_intervening (snd r) = true.
Proof.
  intros X m latch x0 u0 s os1 dt x u w s1 os2 (E & I & L) s0 H E1 I1 G k r Hr.
  assert (N0 : fs_elapsed s0 = B754_nan).
  { unfold s0, f_call, d_latch_call, d_ge. rewrite E, I, L. cbn. apply add_nan. }
  assert (N : forall os s d, fs_elapsed s = B754_nan -> fs_elapsed (snd d) = B754_nan -> fs_elapsed (snd (last (f_run m latch os s) d)) = B754_nan).
  { clear. induction os as [|o os IH]; intros s d N D; [exact D|].
    cbn [f_run]. pose proof (step_nan m latch o s N) as N1. cbv zeta.
    specialize (IH (snd (f_step m latch o s)) (f_step m latch o s) N1 N1).
    destruct (f_run m latch os (snd (f_step m latch o s))) as [|y ys] eqn:F; [exact N1|].
    assert (Q : last (f_step m latch o s :: y :: ys) d = last (y :: ys) (f_step m latch o s)).
    { change (last (y :: ys) d = last (y :: ys) (f_step m latch o s)). clear. revert y. induction ys as [|z ys IHy]; intros y; [reflexivity|].
      change (last (z :: ys) d = last (z :: ys) (f_step m latch o s)). apply IHy. }
    rewrite Q. exact IH. }
  assert (N1 : fs_elapsed s1 = B754_nan).
  { specialize (N (os1 ++ [FCall dt x u]) s0 (None, s0) N0 N0). rewrite H in N. exact N. }
  destruct (nan_held m latch os2 s1 N1 E1 I1 G k r Hr) as [A _]. exact A.
Qed.
Print Assumptions C57_nan_step_survives_reset.

(** Non-vacuity: the toy module of PropertiesFloat with a latch time of one.  A control of minus two is
    refused; held for 0.5, 0.5; then minus one half of its range is free again.  With a step size that
    is not a number it is held in all later calls; a reset lets it go until the next intervention. *)
Definition quiet : list float := [f_one].
Example C57_history_case :
  map fst (f_run f_toy PropertiesTime.one
    [FCall PropertiesTime.half tt [f_mtwo]; FCall PropertiesTime.half tt [S754_nan]; FCall PropertiesTime.half tt [S754_nan];
     FCall PropertiesTime.half tt [S754_nan]; FEnable false; FCall PropertiesTime.half tt [f_mtwo]; FReset; FCall PropertiesTime.half tt quiet] f_fresh) =
  [Some [f_one]; Some [f_one]; Some [f_one]; Some [S754_nan]; None; Some [f_mtwo]; None; Some [f_one]].
Proof. vm_compute. reflexivity. Qed.
Example C57_nan_step_case :
  f_held PropertiesTime.one (snd (f_call f_toy PropertiesTime.one PropertiesTime.half tt [f_mtwo] f_fresh)) /\
  let s0 := snd (f_call f_toy PropertiesTime.one B754_nan tt quiet (snd (f_call f_toy PropertiesTime.one PropertiesTime.half tt [f_mtwo] f_fresh))) in
  exists w s1, last (f_run f_toy PropertiesTime.one ([FReset; FCall PropertiesTime.half tt quiet] ++ [FCall PropertiesTime.half tt [f_mtwo]]) s0) (None, s0) = (Some w, s1) /\
  fs_enable s1 = true /\ fs_intervening s1 = true.
Proof.
  split; [repeat split|]. vm_compute. do 2 eexists. split; [reflexivity|split; reflexivity].
Qed.
