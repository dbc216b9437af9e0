(** Properties of the inspection modules: C46, C47, C49, C50. *)
From Coq Require Import String Reals List Bool ZArith Lia Lra.
From Verif Require Import Prelude Vec ModelBase ModelController ModelSimplex ModelAsif ModelConstraint ModelCwh
  ModelInspect SpecCore SpecCwh SpecInspect ProofsBase ProofsCwh ProofsCwh3 ProofsInspect ExampleTools.
Import ListNotations.
Local Open Scope R_scope.

(** ** C46.  The sun angle evolves in the same direction in all inspection modules. *)

(** The rate of the continuous modules is sun_vel, of which the default is minus the mean
    motion; the delta-v module then predicts the Euler step of the continuous model.  The
    thrust enters the delta-v entry through its absolute value, so it is not part of f and g. *)
Theorem C46_continuous_and_delta_v_agree_partial :
  forall cfg x y z vx vy vz sun used ux uy uz dt, dv_m cfg <> 0 ->
  let s := [x; y; z; vx; vy; vz; sun; used] in let u := [ux; uy; uz] in
  exists p, dv_pred cfg s dt u = Ok p /\
  nth 6 p 0 = sun + nth 6 (inspection_f (dv_n cfg) (- dv_n cfg) s) 0 * dt /\
  p = vadd s (vscale dt (inspection_state_dot (dv_n cfg) (dv_m cfg) (- dv_n cfg) s u)).
Proof.
  intros cfg x y z vx vy vz sun used ux uy uz dt Hm s u.
  eexists; split; [apply dv_pred_eq; auto; reflexivity|].
  split; [cbn; lra|].
  cbn. do 8 (apply (f_equal2 (@cons R)); [field; auto|]). reflexivity.
Qed.
Print Assumptions C46_continuous_and_delta_v_agree_partial.

(** The discrete module turns the sun the other way, by the same angle. *)
Theorem C46_discrete_direction_refuted :
  forall n m sun_vel x y z vx vy vz sun used ux uy uz dt, sun_vel <> 0 -> 0 < dt ->
  let s := [x; y; z; vx; vy; vz; sun; used] in
  let advance := nth 6 (discrete_next n m sun_vel s dt [ux; uy; uz]) 0 - sun in
  let rate := nth 6 (inspection_f n sun_vel s) 0 in
  advance = - (rate * dt) /\ advance * rate < 0.
Proof.
  intros n m sv x y z vx vy vz sun used ux uy uz dt Hs Hdt s advance rate.
  assert (E : advance = - (sv * dt)) by (unfold advance, discrete_next, jax_get; simpl; lra).
  assert (E' : rate = sv) by reflexivity.
  rewrite E, E'. split; [auto|].
  assert (0 < sv * sv) by (apply Rlt_0_sqr; auto). nra.
Qed.
Print Assumptions C46_discrete_direction_refuted.
(** With the default -n for both modules, after one second the angles differ by 2 n. *)
Example C46_case : forall n, 0 < n ->
  nth 6 (discrete_next n 12 (- n) [0; 0; 0; 0; 0; 0; 1; 0] 1 [0; 0; 0]) 0 = 1 + n /\
  nth 6 (inspection_f n (- n) [0; 0; 0; 0; 0; 0; 1; 0]) 0 = - n.
Proof. intros n Hn; split; [unfold discrete_next, jax_get; simpl; lra|reflexivity]. Qed.

(** ** C47.  Short inspection states are completed; a stationary sun is used for that call. *)
Theorem C47_padding_partial :
  forall v sun_vel,
  (length v = 6%nat -> inspection_get_state (InArray v) sun_vel = (Ok (v ++ [0; 0]), 0)) /\
  ((8 <= length v)%nat -> inspection_get_state (InArray v) sun_vel = (Ok v, sun_vel)) /\
  (forall num, length v = (6 * num)%nat -> deputies_get_state num (InArray v) sun_vel = (Ok (v ++ [0]), 0)) /\
  (forall num, (6 * num + 1 <= length v)%nat -> deputies_get_state num (InArray v) sun_vel = (Ok v, sun_vel)).
Proof.
  intros v sv. unfold inspection_get_state, deputies_get_state, put, ret, bind.
  split; [|split; [|split]]; intros; 
    [ replace (length v <? 8)%nat with true by (symmetry; apply Nat.ltb_lt; lia)
    | replace (length v <? 8)%nat with false by (symmetry; apply Nat.ltb_ge; lia)
    | replace (length v <? 6 * num + 1)%nat with true by (symmetry; apply Nat.ltb_lt; lia)
    | replace (length v <? 6 * num + 1)%nat with false by (symmetry; apply Nat.ltb_ge; lia) ]; reflexivity.
Qed.
Print Assumptions C47_padding_partial.

(** Every shorter state is completed, except to the expected length only from six entries: a
    state with the sun angle but without the delta-v entry becomes one of nine entries. *)
Theorem C47_length_seven_refuted :
  forall v sun_vel, length v = 7%nat ->
  exists w, inspection_get_state (InArray v) sun_vel = (Ok w, 0) /\ length w = 9%nat.
Proof.
  intros v sv L. exists (v ++ [0; 0]). unfold inspection_get_state, put, ret, bind.
  rewrite L; cbn [Nat.ltb Nat.leb]. split; [auto|]. rewrite app_length, L; auto.
Qed.
Print Assumptions C47_length_seven_refuted.

(** The sun does not move again: after one short state, a complete state is handled with a
    stationary sun for ever, whatever the calls in between. *)
Definition sun_after (num : option nat) (is : list (input vec)) (sun_vel : R) : R :=
  fold_left (fun sv i => snd (match num with
                              | None => inspection_get_state i sv
                              | Some k => deputies_get_state k i sv
                              end)) is sun_vel.
Theorem C47_sun_stops_for_ever_refuted :
  forall sun_vel v before after, length v = 6%nat ->
  sun_after None (before ++ InArray v :: after) sun_vel = 0 /\
  forall k, sun_after (Some (S k)) (before ++ InArray v :: after) sun_vel = 0.
Proof.
  intros sv v before after L. unfold sun_after.
  split; [|intros k]; rewrite fold_left_app; cbn [fold_left];
    match goal with |- fold_left _ _ (snd ?m) = 0 => assert (E : snd m = 0) end.
  - clear - L. unfold inspection_get_state. rewrite L; reflexivity.
  - rewrite E. clear. induction after as [|i after IH]; cbn [fold_left]; auto.
    replace (snd (inspection_get_state i 0)) with 0; [exact IH|].
    destruct i as [v|]; unfold inspection_get_state; auto. destruct (length v <? 8)%nat; auto.
  - unfold deputies_get_state. rewrite L. replace (6 <? 6 * S k + 1)%nat with true; [reflexivity|].
    symmetry; apply Nat.ltb_lt; lia.
  - rewrite E. clear. induction after as [|i after IH]; cbn [fold_left]; auto.
    replace (snd (deputies_get_state (S k) i 0)) with 0; [exact IH|].
    destruct i as [v|]; unfold deputies_get_state; auto. destruct (length v <? 6 * S k + 1)%nat; auto.
Qed.
Print Assumptions C47_sun_stops_for_ever_refuted.
(** Without short states it keeps its value. *)
Example C47_case :
  sun_after None [InArray [1; 1; 1; 1; 1; 1; 1; 1]; InOther] (-2) = -2 /\
  sun_after None [InArray [1; 1; 1; 1; 1; 1; 1; 1]; InArray [1; 1; 1; 1; 1; 1]; InArray [1; 1; 1; 1; 1; 1; 1; 1]] (-2) = 0.
Proof. split; reflexivity. Qed.

(** ** C49.  The combined module filters each deputy with its own view. *)
Theorem C49_each_deputy_with_its_view_partial :
  forall D b (step : vec -> R -> vec -> M D vec) ds tail dt us s w s',
  Forall (fun d => length d = 6%nat) ds -> Forall (fun u => length u = 3%nat) us -> length us = length ds ->
  (forall x u d v d', length u = 3%nat -> step x dt u d = (Ok v, d') -> length v = 3%nat) ->
  fits b (3 * length ds) -> enable s = true ->
  (combined_filter b step (length ds) (concat ds ++ tail) dt (concat us) s = (Ok w, s') <->
   exists vs d',
     one_by_one step (fun i => concat (first_view i ds) ++ tail) dt 0 us (ext s) vs d' /\
     boxed b (concat vs) w /\
     s' = mkRta true (intervening s) (Some (concat us)) (Some w) d').
Proof.
  intros D b step ds tail dt us s w s' Fd Fu L C Fb En.
  unfold combined_filter. rewrite filter_control_enabled by auto.
  unfold combined_compute, zoom. rewrite <- L.
  change (ext (set_desired (Some (concat us)) s)) with (ext s).
  pose proof (fun w d' => combined_loop_iff step (concat ds ++ tail) dt us Fu C us 0 (ext s) w d' (fun k u H => H)) as I.
  assert (V : forall vs d', one_by_one step (agent_state (concat ds ++ tail)) dt 0 us (ext s) vs d' <->
                            one_by_one step (fun i => concat (first_view i ds) ++ tail) dt 0 us (ext s) vs d').
  { intros vs d'; split; intros O; (eapply obo_view; [|shelve|exact O]); intros k Hk.
    - apply agent_state_view; [auto|exact Hk].
    - symmetry; apply agent_state_view; [auto|exact Hk].
    Unshelve. all: unfold vec in *; lia. }
  split.
  - destruct (combined_loop step (concat ds ++ tail) dt (concat us) (length us) 0 (ext s)) as [[v|er] d'] eqn:E;
      [|discriminate].
    apply I in E. destruct E as (vs & O & ->). destruct (obo_length _ _ _ _ _ _ _ _ O) as [Fv Lv].
    assert (Lc : length (concat vs) = (3 * length ds)%nat)
      by (pose proof (concat_length3 vs 3 Fv); unfold vec in *; lia).
    intros H. destruct (clip b (concat vs)) as [w'|er] eqn:Ec; [|discriminate].
    injection H as -> <-. exists vs, d'. split; [apply V; auto|]. split.
    + apply clip_iff_boxed; auto. unfold vec in *; rewrite Lc; auto.
    + destruct s as [e0 i0 cd ca x0]; cbn in En; subst e0; reflexivity.
  - intros (vs & d' & O & B & ->). apply V in O. destruct (obo_length _ _ _ _ _ _ _ _ O) as [Fv Lv].
    assert (Lc : length (concat vs) = (3 * length ds)%nat)
      by (pose proof (concat_length3 vs 3 Fv); unfold vec in *; lia).
    pose proof (proj2 (I (concat vs) d') (ex_intro _ vs (conj O eq_refl))) as E.
    unfold vec in *. rewrite E.
    apply clip_iff_boxed in B; [|unfold vec in *; rewrite Lc; auto].
    rewrite B. destruct s as [e0 i0 cd ca x0]; cbn in En; subst e0; reflexivity.
Qed.
Print Assumptions C49_each_deputy_with_its_view_partial.

(** The flag of the combined module never changes, for any deputies and any calls, even when the
    deputies' module intervenes. *)
Theorem C49_flag_never_set :
  forall D b (step : vec -> R -> vec -> M D vec) num x dt u s,
  intervening (snd (combined_filter b step num x dt u s)) = intervening s.
Proof.
  intros D b step num x dt u s. unfold combined_filter.
  destruct (enable s) eqn:E; [|rewrite filter_control_disabled by auto; auto].
  rewrite filter_control_enabled by auto. unfold combined_compute, zoom.
  destruct (combined_loop step x dt u num 0 _) as [[v|er] d']; [|auto].
  destruct (clip b v); auto.
Qed.
Print Assumptions C49_flag_never_set.

(** A deputies' module that replaces every control by zero, and says so. *)
Definition stop_module : vec -> R -> vec -> M (rta unit) vec :=
  filter_control free (fun x dt u => bind (modify (set_intervening true)) (fun _ => ret (zeros 3))).
Theorem C49_flag_refuted :
  exists x dt u w s', combined_filter free stop_module 1 x dt u (rta_init (rta_init tt)) = (Ok w, s') /\
  w <> u /\ intervening (ext s') = true /\ intervening s' = false.
Proof.
  exists [0; 0; 0; 0; 0; 0], 1, [1; 1; 1], (zeros 3).
  eexists; split; [reflexivity|]. split; [intros H; injection H; lra|]. auto.
Qed.
Print Assumptions C49_flag_refuted.

(** Non-vacuity: two deputies and a sun angle, answered with a third of the first position. *)
Definition view_module : vec -> R -> vec -> M nat vec :=
  fun x dt u k => (Ok [nth 0 x 0; nth 6 x 0; nth 0 u 0], S k).
Example C49_case :
  let ds := [[1; 0; 0; 0; 0; 0]; [2; 0; 0; 0; 0; 0]; [3; 0; 0; 0; 0; 0]] in
  let us := [[7; 0; 0]; [8; 0; 0]; [9; 0; 0]] in
  combined_filter free view_module 3 (concat ds ++ [5]) 1 (concat us) (rta_init 0%nat) =
    (Ok [1; 2; 7; 2; 1; 8; 3; 1; 9],
     mkRta true false (Some (concat us)) (Some [1; 2; 7; 2; 1; 8; 3; 1; 9]) 3%nat) /\
  (forall x u d v d', length u = 3%nat -> view_module x 1 u d = (Ok v, d') -> length v = 3%nat).
Proof.
  split; [reflexivity|]. intros x u d v d' _ H; injection H as <- _; reflexivity.
Qed.

(** ** C50.  The delta-v module hands over to its backup controller. *)

(** The mode of the module after a history of calls, resets and changes of enable: the spec's
    [mode_after] of the calls made while it was enabled.  The answer to a further call. *)
Definition dv_mode (cfg : dv_cfg) (os : list dv_op) : mode :=
  mode_after (dv_n cfg) (dv_m cfg) (dv_limit cfg) (dv_K1 cfg) (dv_K2 cfg) (dv_steps cfg)
    (enabled_calls true os) Watching.

Theorem C50_history_partial :
  forall cfg os (x : vec) dt (u : vec), gains_ok cfg -> dv_m cfg <> 0 -> fits (dv_bounds cfg) 3 ->
  length x = 8%nat -> length u = 3%nat ->
  let s := dv_run cfg os dv_init in
  enable s = true ->
  exists w, fst (dv_filter cfg x dt u s) = Ok w /\
  match dv_mode cfg os with
  | Watching => boxed (dv_bounds cfg) u w
  | Tracking e => boxed (dv_bounds cfg) (tracking (dv_n cfg) (dv_K1 cfg) (dv_K2 cfg) x e) w
  end.
Proof.
  intros cfg os x dt u K Hm Fb Lx Lu s En.
  assert (I : in_mode s (dv_mode cfg os)).
  { unfold s, dv_mode. change true with (enable dv_init). apply dv_run_mode; auto. reflexivity. }
  unfold dv_filter. rewrite filter_control_enabled by auto.
  assert (I' : in_mode (set_desired (Some u) s) (dv_mode cfg os)) by exact I.
  destruct (dv_compute_mode cfg x dt u _ _ K Hm I') as (_ & _ & V & T & _).
  destruct (T Lx Lu) as [v Ev]. specialize (V v Ev).
  destruct (dv_compute cfg x dt u (set_desired (Some u) s)) as [r s1]; cbn [fst] in Ev; subst r.
  assert (Lv : length v = 3%nat).
  { subst v. destruct (dv_mode cfg os); auto. destruct K; apply tracking_length; auto. }
  destruct (clip_boxed (dv_bounds cfg) v ltac:(rewrite Lv; auto)) as (w & Ec & B).
  exists w. cbv beta iota. rewrite Ec. split; [auto|]. subst v. destruct (dv_mode cfg os); auto.
Qed.
Print Assumptions C50_history_partial.

(** While it watches, the prediction leaves the stored integral alone; the module tracks from the
    first call on whose forecast violates the limit; and it tracks for ever. *)
Theorem C50_latch :
  forall cfg calls (x : vec) dt (u : vec),
  let after cs := mode_after (dv_n cfg) (dv_m cfg) (dv_limit cfg) (dv_K1 cfg) (dv_K2 cfg) (dv_steps cfg) cs Watching in
  after calls = Watching -> length x = 8%nat -> length u = 3%nat ->
  (after (calls ++ [(x, dt, u)]) <> Watching <->
   exists j, (1 <= j <= dv_steps cfg)%nat /\
     dv_limit cfg < delta_v_used (fst (forecast (dv_n cfg) (dv_m cfg) dt (dv_K1 cfg) (dv_K2 cfg) x u (zeros 6) j))).
Proof.
  intros cfg calls x dt u after W Lx Lu.
  assert (A : forall cs md c, mode_after (dv_n cfg) (dv_m cfg) (dv_limit cfg) (dv_K1 cfg) (dv_K2 cfg) (dv_steps cfg) (cs ++ [c]) md
    = call_effect (dv_n cfg) (dv_m cfg) (dv_limit cfg) (dv_K1 cfg) (dv_K2 cfg) (dv_steps cfg)
        (mode_after (dv_n cfg) (dv_m cfg) (dv_limit cfg) (dv_K1 cfg) (dv_K2 cfg) (dv_steps cfg) cs md)
        (fst (fst c)) (snd (fst c)) (snd c)).
  { induction cs as [|[[x0 dt0] u0] cs IH]; intros md [[x1 dt1] u1]; [reflexivity|]. cbn [app mode_after]. apply IH. }
  unfold after in *. rewrite A, W. cbn [fst snd call_effect]. rewrite Lx, Lu; cbn [Nat.eqb andb].
  unfold violations.
  set (P := fun j => Rltb (dv_limit cfg) (delta_v_used (fst (forecast (dv_n cfg) (dv_m cfg) dt (dv_K1 cfg) (dv_K2 cfg) x u (zeros 6) j)))).
  destruct (filter P (seq 1 (dv_steps cfg))) as [|j0 js] eqn:F; cbn [length].
  - split; [tauto|]. intros (j & Hj & V).
    assert (I : In j (filter P (seq 1 (dv_steps cfg)))).
    { apply filter_In; split; [apply in_seq; lia|]. apply Rltb_true; auto. }
    rewrite F in I; destruct I.
  - split; [intros _|discriminate].
    assert (I : In j0 (filter P (seq 1 (dv_steps cfg)))) by (rewrite F; left; auto).
    apply filter_In in I. destruct I as [I V]. exists j0; split; [apply in_seq in I; lia|].
    apply Rltb_true in V; auto.
Qed.
Print Assumptions C50_latch.

Theorem C50_latched_for_ever :
  forall n m limit K1 K2 steps calls e,
  mode_after n m limit K1 K2 steps calls (Tracking e) <> Watching.
Proof.
  intros n m limit K1 K2 steps calls; induction calls as [|[[x dt] u] calls IH]; intros e; cbn [mode_after]; [discriminate|].
  unfold call_effect at 1. destruct (length x <? 5)%nat; apply IH.
Qed.
Print Assumptions C50_latched_for_ever.

(** The delta-v used never decreases along a forecast, so that it is the end that counts. *)
Theorem C50_only_the_end_counts :
  forall n m dt limit K1 K2 s u e steps, length K1 = 3%nat -> length K2 = 3%nat ->
  length s = 8%nat -> length u = 3%nat -> 0 < m -> 0 <= dt -> (1 <= steps)%nat ->
  ((exists j, (1 <= j <= steps)%nat /\ limit < delta_v_used (fst (forecast n m dt K1 K2 s u e j))) <->
   limit < delta_v_used (fst (forecast n m dt K1 K2 s u e steps))).
Proof.
  intros n m dt limit K1 K2 s u e steps H1 H2 Hs Hu Hm Hdt St. split.
  - intros (j & [_ Hj] & V). eapply Rlt_le_trans; [exact V|]. clear V.
    induction Hj as [|k Hk IH]; [lra|]. destruct k as [|k].
    + destruct j; [|lia]. apply forecast_monotone; auto.
    + eapply Rle_trans; [apply IH; lia|]. apply forecast_monotone; auto.
  - intros V; exists steps; split; [lia|auto].
Qed.
Print Assumptions C50_only_the_end_counts.

(** The call that detects the violation still answers with the desired control. *)
Theorem C50_detection_call_refuted :
  forall cfg os (x : vec) dt (u : vec), gains_ok cfg -> dv_m cfg <> 0 -> fits (dv_bounds cfg) 3 ->
  length x = 8%nat -> length u = 3%nat ->
  let s := dv_run cfg os dv_init in
  enable s = true -> dv_mode cfg os = Watching ->
  exists w, fst (dv_filter cfg x dt u s) = Ok w /\ boxed (dv_bounds cfg) u w.
Proof.
  intros cfg os x dt u K Hm Fb Lx Lu s En W.
  destruct (C50_history_partial cfg os x dt u K Hm Fb Lx Lu En) as (w & E & B). rewrite W in B. eauto.
Qed.
Print Assumptions C50_detection_call_refuted.

(** A module with gains that brake against the first velocity error, with two steps. *)
Definition dv_small : dv_cfg :=
  mkDvCfg 1 1 1 2 [[0; 0; 0; 1; 0; 0]; zeros 6; zeros 6] [zeros 6; zeros 6; zeros 6] free.
Lemma dv_small_gains : gains_ok dv_small.
Proof. split; reflexivity. Qed.

(** The first call violates the limit in both forecasts.  It returns the desired control and not
    the backup control; the error has been added to the stored integral twice; the flag is set. *)
Theorem C50_switching_call_refuted :
  exists x u s', dv_filter dv_small x 1 u dv_init = (Ok u, s') /\
  (forall j, (1 <= j <= 2)%nat ->
     dv_limit dv_small < delta_v_used (fst (forecast 1 1 1 (dv_K1 dv_small) (dv_K2 dv_small) x u (zeros 6) j))) /\
  u <> tracking 1 (dv_K1 dv_small) (dv_K2 dv_small) x (zeros 6) /\
  dv_integral (ext s') = vscale 2 (track_error 1 x) /\ track_error 1 x <> zeros 6 /\
  dv_latched (ext s') = true /\ intervening s' = true.
Proof.
  set (x := [0; 0; 0; 1; 0; 0; 0; 2] : vec). set (u := [0; 0; 0] : vec).
  assert (V : forall j, (1 <= j <= 2)%nat ->
     dv_limit dv_small < delta_v_used (fst (forecast 1 1 1 (dv_K1 dv_small) (dv_K2 dv_small) x u (zeros 6) j))).
  { intros j Hj.
    assert (M : forall k, 2 <= delta_v_used (fst (forecast 1 1 1 (dv_K1 dv_small) (dv_K2 dv_small) x u (zeros 6) k))).
    { induction k as [|k IH].
      - cbn. rewrite !Rabs_R0. lra.
      - eapply Rle_trans; [exact IH|]. apply forecast_monotone; auto; lra. }
    specialize (M j). cbn [dv_limit dv_small]. lra. }
  assert (In0 : in_mode (set_desired (Some u) dv_init) Watching) by reflexivity.
  destruct (dv_compute_mode dv_small x 1 u _ _ dv_small_gains ltac:(cbn; lra) In0) as (A & _ & W & T & F).
  destruct (T eq_refl eq_refl) as [v Ev]. specialize (W v Ev).
  assert (Vi : violations 1 1 1 1 (dv_K1 dv_small) (dv_K2 dv_small) x u (zeros 6) 2 = 2%nat).
  { unfold violations. cbn [seq filter].
    pose proof (proj2 (Rltb_true _ _) (V 1%nat ltac:(lia))) as V1.
    pose proof (proj2 (Rltb_true _ _) (V 2%nat ltac:(lia))) as V2.
    change (dv_limit dv_small) with 1 in V1, V2. rewrite V1, V2. reflexivity. }
  assert (Ef : dv_effect dv_small Watching x 1 u = Tracking (vscale (INR 2 * 1) (track_error 1 x))).
  { unfold dv_effect, call_effect. change (length x) with 8%nat. change (length u) with 3%nat. cbn [Nat.eqb andb].
    change (dv_n dv_small) with 1. change (dv_m dv_small) with 1. change (dv_limit dv_small) with 1.
    change (dv_steps dv_small) with 2%nat. rewrite Vi. reflexivity. }
  rewrite Ef in A, F.
  destruct (dv_compute dv_small x 1 u (set_desired (Some u) dv_init)) as [r s1] eqn:E; cbn [fst snd] in *. subst r v.
  exists x, u, (set_actual (Some u) s1). split.
  { unfold dv_filter. rewrite filter_control_enabled by reflexivity. rewrite E. reflexivity. }
  split; [exact V|]. split.
  { intros H. apply (f_equal (fun l => nth 0 l 0)) in H. revert H. cbn.
    unfold Rmax, Rmin. repeat destruct (Rle_dec _ _); lra. }
  unfold in_mode in A. cbn [ext set_actual]. change (ext (set_actual (Some u) s1)) with (ext s1). rewrite A.
  split; [cbn [dv_integral]; f_equal; cbn; lra|].
  split; [intros H; apply (f_equal (fun l => nth 3 l 0)) in H; revert H; cbn; lra|].
  split; [reflexivity|exact F].
Qed.
Print Assumptions C50_switching_call_refuted.

(** Reset does not bring it back: afterwards it still answers with the backup control, and says
    that it does not intervene. *)
Theorem C50_reset_refuted :
  forall cfg os (x : vec) dt (u e : vec), gains_ok cfg -> dv_m cfg <> 0 -> fits (dv_bounds cfg) 3 ->
  length x = 8%nat -> length u = 3%nat -> dv_mode cfg os = Tracking e ->
  let s := dv_reset (dv_run cfg os dv_init) in
  exists w s', dv_filter cfg x dt u s = (Ok w, s') /\
  boxed (dv_bounds cfg) (tracking (dv_n cfg) (dv_K1 cfg) (dv_K2 cfg) x e) w /\ intervening s' = false.
Proof.
  intros cfg os x dt u e K Hm Fb Lx Lu Md s.
  assert (I : in_mode (set_desired (Some u) s) (Tracking e)).
  { change (in_mode (dv_run cfg os dv_init) (Tracking e)). rewrite <- Md. unfold dv_mode.
    change true with (enable dv_init). apply dv_run_mode; auto. reflexivity. }
  unfold dv_filter. rewrite filter_control_enabled by reflexivity.
  destruct (dv_compute_mode cfg x dt u _ _ K Hm I) as (_ & _ & V & T & F).
  destruct (T Lx Lu) as [v Ev]. specialize (V v Ev).
  destruct (dv_compute cfg x dt u (set_desired (Some u) s)) as [r s1]; cbn [fst snd] in *; subst r.
  destruct (clip_boxed (dv_bounds cfg) v) as (w & Ec & B).
  { subst v. destruct K; rewrite tracking_length; auto. }
  exists w, (set_actual (Some w) s1). cbv beta iota. rewrite Ec. split; [auto|]. subst v. split; [auto|].
  exact F.
Qed.
Print Assumptions C50_reset_refuted.

(** Non-vacuity: a history that leaves the small module watching, and one after which it tracks. *)
Example C50_case :
  dv_mode dv_small [] = Watching /\
  dv_mode dv_small [DvEnable false; DvFilter [0; 0; 0; 1; 0; 0; 0; 2] 1 [0; 0; 0]; DvReset] = Watching /\
  exists e, dv_mode dv_small [DvFilter [0; 0; 0; 1; 0; 0; 0; 2] 1 [0; 0; 0]; DvReset] = Tracking e.
Proof.
  split; [reflexivity|]. split; [reflexivity|].
  pose proof (C50_latch dv_small [] [0; 0; 0; 1; 0; 0; 0; 2] 1 [0; 0; 0] eq_refl eq_refl eq_refl) as [_ L].
  unfold dv_mode; cbn [enabled_calls]. cbn [app] in L.
  destruct (mode_after _ _ _ _ _ _ _ Watching) as [|e] eqn:E; [|eauto].
  exfalso; apply L; [|auto]. exists 1%nat. split; [cbn; lia|].
  eapply Rlt_le_trans; [|apply forecast_monotone; cbn; auto; lra].
  cbn. rewrite !Rabs_R0. lra.
Qed.
