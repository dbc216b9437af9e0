(** The docking task's switching modules in flight: C89. *)
From Coq Require Import String Reals List Bool ZArith Lia Lra.
From Verif Require Import Prelude Vec ModelBase ModelController ModelAsif ModelConstraint ModelCwh ModelZoo ModelDock ModelLqr ModelSimplex ModelSwitch
  SpecCore SpecConstraint SpecCwh SpecConic SpecZoo SpecDock SpecLqr SpecHistory SpecSimplex SpecSwitch
  ProofsBase ProofsVec ProofsConstraint ProofsCwh ProofsCwh2 ProofsCwh3 ProofsDock ProofsDock2 ProofsLqr ProofsStop ProofsStop2 ProofsStop3 ProofsUnique ProofsStop4
  ProofsExist2 ProofsHold ProofsHold2 ProofsGlide ProofsSimplex PropertiesDock PropertiesLqr PropertiesStop PropertiesSimplex.
Import ListNotations.
Local Open Scope R_scope.

Lemma switch_inv care m n latch b dim pred cfg : docking_switching care m n latch b dim pred = Ok cfg ->
  exists gen, stop_controller care m n dim = Ok gen /\ cfg = mkSxCfg b latch pred gen.
Proof.
  unfold docking_switching. destruct (stop_controller care m n dim) as [gen|e]; cbn; [|discriminate]. intros H; injection H as <-. eauto.
Qed.
Lemma safe_3 c x y z vx vy vz : 0 <= d_x_limit c /\ 0 <= d_y_limit c /\ 0 <= d_z_limit c ->
  safe (docking_constraints_3d c) [x; y; z; vx; vy; vz] <-> docking_safe c (x, y, z) (vx, vy, vz).
Proof.
  intros L. rewrite <- (safe_values_3 c x y z vx vy vz L). unfold safe, holds. split; intros H k e I.
  - apply (H k e I). rewrite docking_3d_entries in I. cbn [In] in I. entries_of I; reflexivity.
  - intros _. exact (H k e I).
Qed.
Lemma safe_2 c x y vx vy : 0 <= d_x_limit c /\ 0 <= d_y_limit c /\ 0 <= d_z_limit c ->
  safe (docking_constraints_2d c) [x; y; vx; vy] <-> docking_safe c (x, y, 0) (vx, vy, 0).
Proof.
  intros L. rewrite <- (safe_values_2 c x y vx vy L). unfold safe, holds. split; intros H k e I.
  - apply (H k e I). rewrite docking_2d_entries in I. cbn [In] in I. entries_of I; reflexivity.
  - intros _. exact (H k e I).
Qed.
Lemma distinct_3 c : distinct_keys (docking_constraints_3d c).
Proof. rewrite docking_3d_entries. unfold distinct_keys; cbn. repeat constructor; cbn; intuition discriminate. Qed.
Lemma distinct_2 c : distinct_keys (docking_constraints_2d c).
Proof. rewrite docking_2d_entries. unfold distinct_keys; cbn. repeat constructor; cbn; intuition discriminate. Qed.
Lemma init_3 c s : switching_module_3d c = Ok s -> enable s = true /\ constraints_now s = docking_constraints_3d c /\ ctl_now s = CSNone /\ intervening s = false.
Proof. intros H. injection H as <-. repeat split; reflexivity. Qed.
Lemma init_2 c s : switching_module_2d c = Ok s -> enable s = true /\ constraints_now s = docking_constraints_2d c /\ ctl_now s = CSNone /\ intervening s = false.
Proof. intros H. injection H as <-. repeat split; reflexivity. Qed.

(** One call of a switching module: either a control of the backup controller, or the desired
    control after its predicted state was found safe. *)
Lemma one_call gen latch pred k dt x u (s s' : simplex vec zparams) w :
  0 < dt -> (forall win, k = Implicit win -> 0 <= win) -> enable s = true -> distinct_keys (constraints_now s) ->
  within docking_bounds u ->
  simplex_filter_control (mkSxCfg docking_bounds latch pred gen) k (InArray x) dt u s = (Ok w, s') ->
  enable s' = true /\ constraints_now s' = constraints_now s /\
  ((exists ub st, gen x dt (ctl_now s) = GPair ub st /\ boxed docking_bounds ub w) \/
   (intervening s' = false /\ w = u /\ exists x1, pred x dt u = Ok x1 /\ safe (constraints_now s) x1)).
Proof.
  intros Hd Hw E D W H.
  assert (G : gen_sized (sc_bounds (mkSxCfg docking_bounds latch pred gen)) (sc_gen (mkSxCfg docking_bounds latch pred gen)))
    by (intros ? ? ? ? ? _; split; exact I).
  destruct (call_inv _ G k x dt u s s' w Hd Hw E D H) as [(_ & ub & st & Hg & Hb & A)|(_ & xs & F & [(Sf & Hc & A)|(_ & ub & st & Hg & Hb & A)])];
    destruct A as (A1 & A2 & A3 & _); (split; [congruence|split; [exact A2|]]).
  - left. exists ub, st. auto.
  - right. split; [exact A3|]. cbn [sc_bounds] in Hc. rewrite (clip_id docking_bounds u (conj I I) W) in Hc.
    split; [congruence|]. destruct F as (x1 & Hp & F). exists x1. split; [exact Hp|]. apply Sf.
    destruct k; [subst xs; left; reflexivity|destruct F as (? & ? & _ & _ & ->); left; reflexivity].
  - left. exists ub, st. auto.
Qed.

(** ** C89.  A switching module with its own stopping controller keeps the limits. *)

(** A spacecraft of the default mass under the spatial module, explicit or implicit, with any latch
    time, any in-bounds desired controls, steps of at most a second and a right prediction: it
    meets the limits at every call, and at every moment while the backup controller acts. *)
Theorem C89_spatial_switching :
  forall care n latch pred cfg k T N x y z vx vy vz ud u s,
  0 <= n <= 105 / 100000 -> 0 < T <= 1 -> (forall win, k = Implicit win -> 0 <= win) ->
  riccati 6 (motion3 n) (thrust3_t 12) (diagonal 6 (1 / 20)) 1000
    (care (motion3 n) (thrust3 12) (diagonal 6 (1 / 20)) (diagonal 3 1000)) ->
  docking_switching care 12 n latch docking_bounds 3 pred = Ok cfg ->
  switching_module_3d (dock_default_3d n) = Ok (s 0%nat) ->
  switching_flight_3d n cfg k T N x y z vx vy vz ud u s ->
  (forall i, (i < N)%nat -> within docking_bounds (ud i)) ->
  (forall i t, (i < N)%nat -> 0 <= t <= T -> plen (x i t, y i t, z i t) <= 15000) ->
  docking_safe (dock_default_3d n) (x 0%nat 0, y 0%nat 0, z 0%nat 0) (vx 0%nat 0, vy 0%nat 0, vz 0%nat 0) ->
  (forall i, (i <= N)%nat -> docking_safe (dock_default_3d n) (x i 0, y i 0, z i 0) (vx i 0, vy i 0, vz i 0)) /\
  (forall i t, (i < N)%nat -> 0 <= t <= T -> intervening (s (S i)) = true ->
     docking_safe (dock_default_3d n) (x i t, y i t, z i t) (vx i t, vy i t, vz i t)).
Proof.
  intros care n latch pred cfg k T N x y z vx vy vz ud u s Hn HT Hw Ric Hcfg Hs0 [Call Move Pred Next] Hud Far Start.
  destruct (switch_inv _ _ _ _ _ _ _ _ Hcfg) as (gen & Gen & ->). destruct (init_3 _ _ Hs0) as (E0 & C0 & _ & _).
  assert (Lim : 0 <= d_x_limit (dock_default_3d n) /\ 0 <= d_y_limit (dock_default_3d n) /\ 0 <= d_z_limit (dock_default_3d n)) by (cbn; lra).
  assert (St : forall i, (i < N)%nat -> enable (s i) = true -> constraints_now (s i) = docking_constraints_3d (dock_default_3d n) ->
    docking_safe (dock_default_3d n) (x i 0, y i 0, z i 0) (vx i 0, vy i 0, vz i 0) ->
    enable (s (S i)) = true /\ constraints_now (s (S i)) = docking_constraints_3d (dock_default_3d n) /\
    docking_safe (dock_default_3d n) (x i T, y i T, z i T) (vx i T, vy i T, vz i T) /\
    forall t, 0 <= t <= T -> intervening (s (S i)) = true -> docking_safe (dock_default_3d n) (x i t, y i t, z i t) (vx i t, vy i t, vz i t)).
  { intros i Hi Ei Ci Si.
    destruct (one_call gen latch pred k T _ (ud i) (s i) (s (S i)) (u i) ltac:(lra) Hw Ei ltac:(rewrite Ci; apply distinct_3) (Hud i Hi) (Call i Hi))
      as (E' & C' & [(ub & st & Hg & Hb)|(Hf & Hu & x1 & Hp & Sf)]); (split; [exact E'|split; [congruence|]]).
    - assert (K : forall t, 0 <= t <= T -> docking_safe (dock_default_3d n) (x i t, y i t, z i t) (vx i t, vy i t, vz i t)).
      { apply (spatial_step care n gen T T (x i) (y i) (z i) (vx i) (vy i) (vz i) ub (u i) (ctl_now (s i)) st Hn ltac:(lra) Ric Gen Hg Hb (Move i Hi)); auto. }
      split; [apply K; lra|auto].
    - split; [|intros t _ Hi'; congruence]. pose proof (Pred i Hi) as P. cbn [sc_pred] in P. rewrite Hu, Hp in P. injection P as ->.
      rewrite Ci in Sf. apply (safe_3 _ _ _ _ _ _ _ Lim) in Sf. exact Sf. }
  assert (All : forall i, (i <= N)%nat -> enable (s i) = true /\ constraints_now (s i) = docking_constraints_3d (dock_default_3d n) /\
    docking_safe (dock_default_3d n) (x i 0, y i 0, z i 0) (vx i 0, vy i 0, vz i 0)).
  { induction i as [|i IH]; intros Hi; [auto|]. destruct (IH ltac:(lia)) as (Ei & Ci & Si).
    destruct (St i ltac:(lia) Ei Ci Si) as (E' & C' & S' & _). destruct (Next i ltac:(lia)) as (-> & -> & -> & -> & -> & ->). auto. }
  split; [intros i Hi; apply All; exact Hi|]. intros i t Hi Ht Hv. destruct (All i ltac:(lia)) as (Ei & Ci & Si). apply (St i Hi Ei Ci Si); auto.
Qed.
Print Assumptions C89_spatial_switching.

(** The planar module. *)
Theorem C89_planar_switching :
  forall care n latch pred cfg k T N x y vx vy ud u s,
  0 <= n <= 105 / 100000 -> 0 < T <= 1 -> (forall win, k = Implicit win -> 0 <= win) ->
  riccati 4 (motion2 n) (thrust2_t 12) (diagonal 4 (1 / 20)) 1000
    (care (motion2 n) (thrust2 12) (diagonal 4 (1 / 20)) (diagonal 2 1000)) ->
  docking_switching care 12 n latch docking_bounds 2 pred = Ok cfg ->
  switching_module_2d (dock_default_2d n) = Ok (s 0%nat) ->
  switching_flight_2d n cfg k T N x y vx vy ud u s ->
  (forall i, (i < N)%nat -> within docking_bounds (ud i)) ->
  (forall i t, (i < N)%nat -> 0 <= t <= T -> plen (x i t, y i t, 0) <= 15000) ->
  docking_safe (dock_default_2d n) (x 0%nat 0, y 0%nat 0, 0) (vx 0%nat 0, vy 0%nat 0, 0) ->
  (forall i, (i <= N)%nat -> docking_safe (dock_default_2d n) (x i 0, y i 0, 0) (vx i 0, vy i 0, 0)) /\
  (forall i t, (i < N)%nat -> 0 <= t <= T -> intervening (s (S i)) = true ->
     docking_safe (dock_default_2d n) (x i t, y i t, 0) (vx i t, vy i t, 0)).
Proof.
  intros care n latch pred cfg k T N x y vx vy ud u s Hn HT Hw Ric Hcfg Hs0 [Call Move Pred Next] Hud Far Start.
  destruct (switch_inv _ _ _ _ _ _ _ _ Hcfg) as (gen & Gen & ->). destruct (init_2 _ _ Hs0) as (E0 & C0 & _ & _).
  assert (Lim : 0 <= d_x_limit (dock_default_2d n) /\ 0 <= d_y_limit (dock_default_2d n) /\ 0 <= d_z_limit (dock_default_2d n)) by (cbn; lra).
  assert (St : forall i, (i < N)%nat -> enable (s i) = true -> constraints_now (s i) = docking_constraints_2d (dock_default_2d n) ->
    docking_safe (dock_default_2d n) (x i 0, y i 0, 0) (vx i 0, vy i 0, 0) ->
    enable (s (S i)) = true /\ constraints_now (s (S i)) = docking_constraints_2d (dock_default_2d n) /\
    docking_safe (dock_default_2d n) (x i T, y i T, 0) (vx i T, vy i T, 0) /\
    forall t, 0 <= t <= T -> intervening (s (S i)) = true -> docking_safe (dock_default_2d n) (x i t, y i t, 0) (vx i t, vy i t, 0)).
  { intros i Hi Ei Ci Si.
    destruct (one_call gen latch pred k T _ (ud i) (s i) (s (S i)) (u i) ltac:(lra) Hw Ei ltac:(rewrite Ci; apply distinct_2) (Hud i Hi) (Call i Hi))
      as (E' & C' & [(ub & st & Hg & Hb)|(Hf & Hu & x1 & Hp & Sf)]); (split; [exact E'|split; [congruence|]]).
    - assert (K : forall t, 0 <= t <= T -> docking_safe (dock_default_2d n) (x i t, y i t, 0) (vx i t, vy i t, 0)).
      { apply (planar_step care n gen T T (x i) (y i) (vx i) (vy i) ub (u i) (ctl_now (s i)) st Hn ltac:(lra) Ric Gen Hg Hb (Move i Hi)); auto. }
      split; [apply K; lra|auto].
    - split; [|intros t _ Hi'; congruence]. pose proof (Pred i Hi) as P. cbn [sc_pred] in P. rewrite Hu, Hp in P. injection P as ->.
      rewrite Ci in Sf. apply (safe_2 _ _ _ _ _ Lim) in Sf. exact Sf. }
  assert (All : forall i, (i <= N)%nat -> enable (s i) = true /\ constraints_now (s i) = docking_constraints_2d (dock_default_2d n) /\
    docking_safe (dock_default_2d n) (x i 0, y i 0, 0) (vx i 0, vy i 0, 0)).
  { induction i as [|i IH]; intros Hi; [auto|]. destruct (IH ltac:(lia)) as (Ei & Ci & Si).
    destruct (St i ltac:(lia) Ei Ci Si) as (E' & C' & S' & _). destruct (Next i ltac:(lia)) as (-> & -> & -> & ->). auto. }
  split; [intros i Hi; apply All; exact Hi|]. intros i t Hi Ht Hv. destruct (All i ltac:(lia)) as (Ei & Ci & Si). apply (St i Hi Ei Ci Si); auto.
Qed.
Print Assumptions C89_planar_switching.

(** A case without gravity (mean motion zero, where the prediction is a polynomial): a desired
    acceleration along the first axis is let through once and then overruled. *)
Definition glide (st : vec) (dt : R) (u : vec) : res vec :=
  match st, u with
  | [x; y; z; a; b; c], [p; q; r] =>
      Ok [x + a * dt + p * (dt * dt) / 24; y + b * dt + q * (dt * dt) / 24; z + c * dt + r * (dt * dt) / 24;
          a + p * dt / 12; b + q * dt / 12; c + r * dt / 12]
  | _, _ => Err SolverError
  end.
Ltac by_entries := unfold vec; repeat (apply (f_equal2 (@Datatypes.cons R)); [field|]); reflexivity.
Lemma unit_within w : (forall r, In r w -> -1 <= r <= 1) -> within docking_bounds w.
Proof.
  intros H. split; intros i a l Ha Hl; apply nth_error_In in Ha; specialize (H a Ha); cbn in Hl; injection Hl as <-; lra.
Qed.
Lemma slow_x c a (x y : R) : d_v1_coef c * d_n c = 0 -> d_v0 c = 2 / 10 -> d_x_limit c = 10 -> 0 <= d_y_limit c /\ 0 <= d_z_limit c -> 0 <= a ->
  (a <= 19 / 100 -> docking_safe c (x, y, 0) (a, 0, 0)) /\ (2 / 10 <= a -> ~ docking_safe c (x, y, 0) (a, 0, 0)).
Proof.
  intros Hv H0 Hx Hl Ha. unfold docking_safe, slow_enough, components_within. rewrite Hv, H0, Hx. cbn [fst snd pdot].
  set (q := sqrt (a * a + 0 * 0 + 0 * 0 + 1 / 100000)). pose proof (sqrt_pos (a * a + 0 * 0 + 0 * 0 + 1 / 100000)) as Q0. fold q in Q0.
  pose proof (sq a). assert (Q2 : q * q = a * a + 1 / 100000) by (unfold q; rewrite sqrt_sqrt; lra).
  split.
  - intros Hs. split.
    + assert (q <= 199 / 1000); [|lra]. apply le_of_sqr; [lra|]. pose proof (pb a a (19 / 100) (19 / 100) ltac:(lra) ltac:(lra)). lra.
    + rewrite Rabs_R0, Rabs_right by lra. lra.
  - intros Hs [Q _]. assert (q <= 1999 / 10000) by lra. pose proof (pb q q (1999 / 10000) (1999 / 10000) ltac:(lra) ltac:(lra)).
    assert (2 / 10 * (2 / 10) <= a * a) by (apply Rmult_le_compat; lra). lra.
Qed.

Example C89_spatial_case : exists care cfg x y z vx vy vz ud u s,
  riccati 6 (motion3 0) (thrust3_t 12) (diagonal 6 (1 / 20)) 1000
    (care (motion3 0) (thrust3 12) (diagonal 6 (1 / 20)) (diagonal 3 1000)) /\
  docking_switching care 12 0 5 docking_bounds 3 glide = Ok cfg /\
  switching_module_3d (dock_default_3d 0) = Ok (s 0%nat) /\
  switching_flight_3d 0 cfg Explicit 1 2 x y z vx vy vz ud u s /\
  (forall i, (i < 2)%nat -> within docking_bounds (ud i)) /\
  (forall i t, (i < 2)%nat -> 0 <= t <= 1 -> plen (x i t, y i t, z i t) <= 15000) /\
  docking_safe (dock_default_3d 0) (x 0%nat 0, y 0%nat 0, z 0%nat 0) (vx 0%nat 0, vy 0%nat 0, vz 0%nat 0) /\
  intervening (s 1%nat) = false /\ intervening (s 2%nat) = true.
Proof.
  assert (Hn : 0 <= 0 <= 105 / 100000) by lra.
  destruct (spatial_riccati_exists 0 Hn) as (P & Ric).
  destruct (spatial_velocity_gain 0 P Hn Ric) as (k11 & k12 & k22 & k33 & Kv & _).
  set (gen := lqr_stop 3 (stop_gain 3 (thrust3 12) P)). set (cfg := mkSxCfg docking_bounds 5 glide gen).
  destruct (switching_module_3d (dock_default_3d 0)) as [s0|e] eqn:E0; [|discriminate].
  destruct (init_3 _ _ E0) as (En & Cn & St & Iv).
  assert (Lim : 0 <= d_x_limit (dock_default_3d 0) /\ 0 <= d_y_limit (dock_default_3d 0) /\ 0 <= d_z_limit (dock_default_3d 0)) by (cbn; lra).
  assert (G : gen_sized (sc_bounds cfg) (sc_gen cfg)) by (intros ? ? ? ? ? _; split; exact I).
  assert (V0 : forall a x y, 0 <= a ->
    (a <= 19 / 100 -> safe (docking_constraints_3d (dock_default_3d 0)) [x; y; 0; a; 0; 0]) /\
    (2 / 10 <= a -> ~ safe (docking_constraints_3d (dock_default_3d 0)) [x; y; 0; a; 0; 0])).
  { intros a x y Ha. rewrite (safe_3 (dock_default_3d 0) x y 0 a 0 0 Lim). apply slow_x; cbn; lra. }
  (* the first call *)
  set (p0 := [0; 100; 0; 1 / 10; 0; 0] : vec). set (p1 := [1 / 10 + 1 / 24; 100; 0; 1 / 10 + 1 / 12; 0; 0] : vec).
  assert (G0 : glide p0 1 [1; 0; 0] = Ok p1).
  { unfold glide, p0, p1. refine (f_equal (@Ok vec) _). by_entries. }
  destruct (C10_explicit_switching vec zparams cfg s0 p0 1 [1; 0; 0] p1 G (conj I I) En ltac:(rewrite Cn; apply distinct_3)
    ltac:(intros [H _]; congruence) G0) as [C1 _].
  destruct C1 as (w0 & s1 & Call0 & B0 & I1 & St1); [rewrite Cn; apply V0; lra|].
  apply boxed_cut in B0. cbn [map] in B0.
  assert (W0 : w0 = [1; 0; 0]).
  { rewrite B0. repeat apply (f_equal2 (@Datatypes.cons R)); try reflexivity; unfold cut, Rmin, Rmax; repeat destruct (Rle_dec _ _); lra. }
  clear B0. subst w0.
  destruct (call_inv cfg G Explicit p0 1 [1; 0; 0] s0 s1 _ ltac:(lra) ltac:(discriminate) En ltac:(rewrite Cn; apply distinct_3) Call0)
    as [([H _] & _)|(_ & _ & _ & [(_ & _ & A)|(_ & ? & ? & _ & _ & A)])]; [congruence| |destruct A as (_ & _ & A & _); congruence].
  destruct A as (A1 & A2 & _). rewrite En in A1. rewrite Cn in A2.
  (* the second call *)
  set (q2 := [1 / 10 + 1 / 24 + (1 / 10 + 1 / 12) + 1 / 24; 100; 0; 1 / 10 + 1 / 12 + 1 / 12; 0; 0] : vec).
  assert (G1 : glide p1 1 [1; 0; 0] = Ok q2).
  { unfold glide, p1, q2. refine (f_equal (@Ok vec) _). by_entries. }
  destruct (C10_explicit_switching vec zparams cfg s1 p1 1 [1; 0; 0] q2 G (conj I I) A1 ltac:(rewrite A2; apply distinct_3)
    ltac:(intros [H _]; congruence) G1) as [_ C2].
  assert (Hg : gen p1 1 (ctl_now s1) = GPair (vneg (mv (stop_gain 3 (thrust3 12) P) [0; 0; 0; 1 / 10 + 1 / 12; 0; 0])) CSNone).
  { apply (stop_command 3 (stop_gain 3 (thrust3 12) P) [1 / 10 + 1 / 24; 100; 0] [1 / 10 + 1 / 12; 0; 0]); [reflexivity|].
    apply (mm_rows 6), (mm_rows 6), Ric. }
  rewrite Kv in Hg. unfold vneg in Hg. cbn [map] in Hg.
  destruct (C2 ltac:(rewrite A2; apply V0; lra) _ _ Hg) as (w1 & s2 & Call1 & B1 & I2 & _).
  apply boxed_cut in B1. cbn [map] in B1.
  match type of B1 with _ = [?a; ?b; ?c] => set (p := a) in *; set (q := b) in *; set (r := c) in * end.
  assert (Hp : -1 <= p <= 1) by apply cut_range. assert (Hq : -1 <= q <= 1) by apply cut_range. assert (Hr : -1 <= r <= 1) by apply cut_range.
  subst w1. clearbody p q r.
  pose (u := fun i => match i with O => [1; 0; 0] | _ => [p; q; r] end : vec).
  pose (pos := fun (x0 v0 a0 x1 v1 a1 : R) (i : nat) (t : R) => match i with
    | O => x0 + v0 * t + a0 * (t * t) / 24 | 1%nat => x1 + v1 * t + a1 * (t * t) / 24 | _ => x1 + v1 * 1 + a1 * (1 * 1) / 24 end).
  pose (vel := fun (v0 a0 v1 a1 : R) (i : nat) (t : R) => match i with O => v0 + a0 * t / 12 | 1%nat => v1 + a1 * t / 12 | _ => v1 + a1 * 1 / 12 end).
  exists (fun _ _ _ _ => P), cfg, (pos 0 (1 / 10) 1 (1 / 10 + 1 / 24) (1 / 10 + 1 / 12) p), (pos 100 0 0 100 0 q), (pos 0 0 0 0 0 r),
    (vel (1 / 10) 1 (1 / 10 + 1 / 12) p), (vel 0 0 0 q), (vel 0 0 0 r), (fun _ => [1; 0; 0]), u,
    (fun i => match i with O => s0 | 1%nat => s1 | _ => s2 end).
  split; [exact Ric|]. split; [reflexivity|]. split; [reflexivity|]. split; [|split; [|split; [|split]]].
  - constructor; intros i Hi; (destruct i as [|[|i]]; [| |lia]); unfold pos, vel, u.
    + replace [0 + 1 / 10 * 0 + 1 * (0 * 0) / 24; 100 + 0 * 0 + 0 * (0 * 0) / 24; 0 + 0 * 0 + 0 * (0 * 0) / 24; 1 / 10 + 1 * 0 / 12; 0 + 0 * 0 / 12; 0 + 0 * 0 / 12]
        with p0; [exact Call0|]. unfold p0. by_entries.
    + match goal with |- simplex_filter_control _ _ (InArray ?e) _ _ _ = _ => replace e with p1 end; [exact Call1|].
      unfold p1. by_entries.
    + cbn [nth]. apply glide_moves.
    + cbn [nth]. apply glide_moves.
    + cbn [sc_pred cfg glide]. refine (f_equal (@Ok vec) _). by_entries.
    + cbn [sc_pred cfg glide]. refine (f_equal (@Ok vec) _). by_entries.
    + repeat split; field.
    + repeat split; field.
  - intros i _. apply unit_within. intros e [<-|[<-|[<-|[]]]]; lra.
  - intros i t Hi Ht.
    assert (T2 : 0 <= t * t <= 1) by (pose proof (sq t); pose proof (pb t t 1 1 ltac:(lra) ltac:(lra)); lra).
    pose proof (pb p (t * t) 1 1 ltac:(lra) ltac:(lra)). pose proof (pb q (t * t) 1 1 ltac:(lra) ltac:(lra)). pose proof (pb r (t * t) 1 1 ltac:(lra) ltac:(lra)).
    apply Rle_trans with (2 + 103 + 1); [|lra]. eapply Rle_trans; [apply plen_abs|].
    repeat apply Rplus_le_compat; apply ab; destruct i as [|[|i]]; [..|lia| | |lia| | |lia]; unfold pos; lra.
  - unfold pos, vel.
    assert (D : docking_safe (dock_default_3d 0) (0, 100, 0) (1 / 10, 0, 0)) by (apply slow_x; cbn; lra).
    match goal with |- docking_safe _ ?a ?b => replace a with (0, 100, 0); [replace b with (1 / 10, 0, 0); [exact D|]|] end; repeat (apply (f_equal2 pair)); field.
  - auto.
Qed.

(** And in the plane: overruled at once. *)
Definition glide_2 (st : vec) (dt : R) (u : vec) : res vec :=
  match st, u with
  | [x; y; a; b], [p; q] =>
      Ok [x + a * dt + p * (dt * dt) / 24; y + b * dt + q * (dt * dt) / 24; a + p * dt / 12; b + q * dt / 12]
  | _, _ => Err SolverError
  end.
Example C89_planar_case : exists care cfg x y vx vy ud u s,
  riccati 4 (motion2 0) (thrust2_t 12) (diagonal 4 (1 / 20)) 1000
    (care (motion2 0) (thrust2 12) (diagonal 4 (1 / 20)) (diagonal 2 1000)) /\
  docking_switching care 12 0 5 docking_bounds 2 glide_2 = Ok cfg /\
  switching_module_2d (dock_default_2d 0) = Ok (s 0%nat) /\
  switching_flight_2d 0 cfg Explicit 1 1 x y vx vy ud u s /\
  (forall i, (i < 1)%nat -> within docking_bounds (ud i)) /\
  (forall i t, (i < 1)%nat -> 0 <= t <= 1 -> plen (x i t, y i t, 0) <= 15000) /\
  docking_safe (dock_default_2d 0) (x 0%nat 0, y 0%nat 0, 0) (vx 0%nat 0, vy 0%nat 0, 0) /\
  intervening (s 1%nat) = true.
Proof.
  assert (Hn : 0 <= 0 <= 105 / 100000) by lra.
  destruct (planar_riccati_exists 0 Hn) as (P & Ric).
  destruct (planar_velocity_gain 0 P Hn Ric) as (k11 & k12 & k22 & Kv & _).
  set (gen := lqr_stop 2 (stop_gain 2 (thrust2 12) P)). set (cfg := mkSxCfg docking_bounds 5 glide_2 gen).
  destruct (switching_module_2d (dock_default_2d 0)) as [s0|e] eqn:E0; [|discriminate].
  destruct (init_2 _ _ E0) as (En & Cn & St & Iv).
  assert (Lim : 0 <= d_x_limit (dock_default_2d 0) /\ 0 <= d_y_limit (dock_default_2d 0) /\ 0 <= d_z_limit (dock_default_2d 0)) by (cbn; lra).
  assert (G : gen_sized (sc_bounds cfg) (sc_gen cfg)) by (intros ? ? ? ? ? _; split; exact I).
  set (p0 := [0; 100; 15 / 100; 0] : vec). set (q1 := [15 / 100 + 1 / 24; 100; 15 / 100 + 1 / 12; 0] : vec).
  assert (G0 : glide_2 p0 1 [1; 0] = Ok q1) by (unfold glide_2, p0, q1; refine (f_equal (@Ok vec) _); by_entries).
  destruct (C10_explicit_switching vec zparams cfg s0 p0 1 [1; 0] q1 G (conj I I) En ltac:(rewrite Cn; apply distinct_2)
    ltac:(intros [H _]; congruence) G0) as [_ C2].
  assert (Hg : gen p0 1 (ctl_now s0) = GPair (vneg (mv (stop_gain 2 (thrust2 12) P) [0; 0; 15 / 100; 0])) CSNone).
  { apply (stop_command 2 (stop_gain 2 (thrust2 12) P) [0; 100] [15 / 100; 0]); [reflexivity|]. apply (mm_rows 4), (mm_rows 4), Ric. }
  rewrite Kv in Hg. unfold vneg in Hg. cbn [map] in Hg.
  assert (Uns : ~ safe (constraints_now s0) q1).
  { rewrite Cn. unfold q1. rewrite (safe_2 _ _ _ _ _ Lim). apply slow_x; cbn; lra. }
  destruct (C2 Uns _ _ Hg) as (w1 & s1 & Call & B1 & I1 & _).
  apply boxed_cut in B1. cbn [map] in B1.
  match type of B1 with _ = [?a; ?b] => set (p := a) in *; set (q := b) in * end.
  assert (Hp : -1 <= p <= 1) by apply cut_range. assert (Hq : -1 <= q <= 1) by apply cut_range.
  subst w1. clearbody p q.
  pose (x := fun (i : nat) t => match i with O => 0 + 15 / 100 * t + p * (t * t) / 24 | _ => 15 / 100 + p / 24 end).
  pose (y := fun (i : nat) t => match i with O => 100 + 0 * t + q * (t * t) / 24 | _ => 100 + q / 24 end).
  pose (vx := fun (i : nat) t => match i with O => 15 / 100 + p * t / 12 | _ => 15 / 100 + p / 12 end).
  pose (vy := fun (i : nat) t => match i with O => 0 + q * t / 12 | _ => q / 12 end).
  exists (fun _ _ _ _ => P), cfg, x, y, vx, vy, (fun _ => [1; 0]), (fun _ => [p; q]), (fun i => match i with O => s0 | _ => s1 end).
  split; [exact Ric|]. split; [reflexivity|]. split; [reflexivity|]. split; [|split; [|split; [|split]]].
  - constructor; intros i Hi; (destruct i as [|i]; [|lia]); unfold x, y, vx, vy.
    + match goal with |- simplex_filter_control _ _ (InArray ?e) _ _ _ = _ => replace e with p0 end; [exact Call|]. unfold p0. by_entries.
    + cbn [nth]. apply glide_moves_2.
    + cbn [sc_pred cfg glide_2]. refine (f_equal (@Ok vec) _). by_entries.
    + repeat split; field.
  - intros i _. apply unit_within. intros e [<-|[<-|[]]]; lra.
  - intros i t Hi Ht. destruct i as [|i]; [|lia].
    assert (T2 : 0 <= t * t <= 1) by (pose proof (sq t); pose proof (pb t t 1 1 ltac:(lra) ltac:(lra)); lra).
    pose proof (pb p (t * t) 1 1 ltac:(lra) ltac:(lra)). pose proof (pb q (t * t) 1 1 ltac:(lra) ltac:(lra)).
    apply Rle_trans with (2 + 103 + 1); [|lra]. eapply Rle_trans; [apply plen_abs|].
    repeat apply Rplus_le_compat; apply ab; unfold x, y; lra.
  - assert (D : docking_safe (dock_default_2d 0) (0, 100, 0) (15 / 100, 0, 0)) by (apply slow_x; cbn; lra).
    match goal with |- docking_safe _ ?a ?b => replace a with (0, 100, 0); [replace b with (15 / 100, 0, 0); [exact D|]|] end;
      unfold x, y, vx, vy; repeat (apply (f_equal2 pair)); field.
  - exact I1.
Qed.

(** The claim stops at the calls: while a desired control is let through, the limits are looked at
    only where the step ends.  Drifting through the origin at 0.2 m/s, a spacecraft is within the
    limit half a second before and after, but not on the way; the module lets it drift. *)
Definition swing (n : R) (st : vec) (dt : R) (u : vec) : res vec :=
  match st with
  | [x; y; z; a; b; c] => Ok [0; 0; z * cos (n * dt) + c / n * sin (n * dt); 0; 0; c * cos (n * dt) - n * z * sin (n * dt)]
  | _ => Err SolverError
  end.
Theorem C89_between_calls_refuted :
  exists care latch cfg x y z vx vy vz ud u s, let n := mean_motion in
  riccati 6 (motion3 n) (thrust3_t 12) (diagonal 6 (1 / 20)) 1000
    (care (motion3 n) (thrust3 12) (diagonal 6 (1 / 20)) (diagonal 3 1000)) /\
  docking_switching care 12 n latch docking_bounds 3 (swing n) = Ok cfg /\
  switching_module_3d (dock_default_3d n) = Ok (s 0%nat) /\
  switching_flight_3d n cfg Explicit 1 1 x y z vx vy vz ud u s /\
  (forall i, (i < 1)%nat -> within docking_bounds (ud i)) /\
  (forall i t, (i < 1)%nat -> 0 <= t <= 1 -> plen (x i t, y i t, z i t) <= 15000) /\
  docking_safe (dock_default_3d n) (x 0%nat 0, y 0%nat 0, z 0%nat 0) (vx 0%nat 0, vy 0%nat 0, vz 0%nat 0) /\
  exists t, 0 <= t <= 1 /\ ~ docking_safe (dock_default_3d n) (x 0%nat t, y 0%nat t, z 0%nat t) (vx 0%nat t, vy 0%nat t, vz 0%nat t).
Proof.
  set (n := mean_motion). assert (En0 : n = 1027 / 1000000) by reflexivity.
  assert (Hn : 0 <= n <= 105 / 100000) by lra. assert (N0 : n <> 0) by lra.
  destruct (spatial_riccati_exists n Hn) as (P & Ric).
  set (gen := lqr_stop 3 (stop_gain 3 (thrust3 12) P)). set (cfg := mkSxCfg docking_bounds 5 (swing n) gen).
  destruct (switching_module_3d (dock_default_3d n)) as [s0|e] eqn:E0; [|discriminate].
  destruct (init_3 _ _ E0) as (En & Cn & St & Iv).
  assert (Lim : 0 <= d_x_limit (dock_default_3d n) /\ 0 <= d_y_limit (dock_default_3d n) /\ 0 <= d_z_limit (dock_default_3d n)) by (cbn; lra).
  assert (G : gen_sized (sc_bounds cfg) (sc_gen cfg)) by (intros ? ? ? ? ? _; split; exact I).
  set (w := 1 / 5). pose (zz := fun t => w / n * sin (n * (t - 1 / 2))). pose (cc := fun t => w * cos (n * (t - 1 / 2))).
  assert (Sw : swing n [0; 0; zz 0; 0; 0; cc 0] 1 [0; 0; 0] = Ok [0; 0; zz 1; 0; 0; cc 1]).
  { unfold swing, zz, cc. rewrite Rmult_1_r.
    replace (n * (0 - 1 / 2)) with (n * (1 - 1 / 2) - n) by field. rewrite sin_minus, cos_minus.
    set (a := n * (1 - 1 / 2)). pose proof (sin2_cos2 n) as Q. unfold Rsqr in Q.
    refine (f_equal (@Ok vec) _). unfold vec. do 2 apply (f_equal2 (@Datatypes.cons R) eq_refl).
    apply (f_equal2 (@Datatypes.cons R)).
    { replace (w / n * (sin a * cos n - cos a * sin n) * cos n + w * (cos a * cos n + sin a * sin n) / n * sin n)
        with (w / n * sin a * (sin n * sin n + cos n * cos n)) by (field; exact N0). rewrite Q. ring. }
    do 2 apply (f_equal2 (@Datatypes.cons R) eq_refl). apply (f_equal2 (@Datatypes.cons R)); [|reflexivity].
    replace (w * (cos a * cos n + sin a * sin n) * cos n - n * (w / n * (sin a * cos n - cos a * sin n)) * sin n)
      with (w * cos a * (sin n * sin n + cos n * cos n)) by (field; exact N0). rewrite Q. ring. }
  (* both ends of the step are within the limits *)
  assert (Half : n / 4 <= sin (n * (1 / 2))) by (pose proof (half_sine (n * (1 / 2)) ltac:(lra)); lra).
  assert (Ends : forall z c, w / 4 <= z \/ z <= - (w / 4) -> - w <= c <= w -> docking_safe (dock_default_3d n) (0, 0, z) (0, 0, c)).
  { intros z c Hz Hc. split.
    - unfold slow_enough. cbn [d_v0 d_v1_coef d_n d_v0_distance dock_default_3d pdot].
      assert (Z2 : w / 4 * (w / 4) <= z * z).
      { destruct Hz; [apply Rmult_le_compat; unfold w in *; lra|]. replace (z * z) with (- z * - z) by ring. apply Rmult_le_compat; unfold w in *; lra. }
      assert (C2 : c * c <= w * w) by (pose proof (pb c c w w Hc Hc); lra).
      assert (S1 : sqrt (0 * 0 + 0 * 0 + c * c + 1 / 100000) <= 20003 / 100000).
      { pose proof (sq c). apply le_of_sqr; [lra|]. rewrite sqrt_sqrt by lra. unfold w in *. lra. }
      assert (S2 : 5 / 100 <= sqrt (0 * 0 + 0 * 0 + z * z + 1 / 100000)).
      { apply le_of_sqr; [apply sqrt_pos|]. pose proof (sq z). rewrite sqrt_sqrt by lra. unfold w in *. lra. }
      rewrite Rminus_0_r. assert (0 <= (sqrt (0 * 0 + 0 * 0 + z * z + 1 / 100000) - 5 / 100) * n) by (apply Rmult_le_pos; lra). lra.
    - unfold components_within. cbn [fst snd d_x_limit d_y_limit d_z_limit dock_default_3d]. rewrite Rabs_R0. pose proof (ab c w Hc). unfold w in *. lra. }
  assert (Cb : forall a, - w <= w * cos a <= w).
  { intros a. pose proof (COS_bound a). unfold w. lra. }
  assert (Z1 : w / 4 <= zz 1).
  { unfold zz. replace (1 - 1 / 2) with (1 / 2) by field. apply (Rmult_le_reg_r n); [lra|].
    replace (w / n * sin (n * (1 / 2)) * n) with (w * sin (n * (1 / 2))) by (field; exact N0). unfold w in *. lra. }
  assert (Z0 : zz 0 <= - (w / 4)).
  { unfold zz in *. replace (n * (0 - 1 / 2)) with (- (n * (1 - 1 / 2))) by field. rewrite sin_neg. lra. }
  destruct (C10_explicit_switching vec zparams cfg s0 [0; 0; zz 0; 0; 0; cc 0] 1 [0; 0; 0] [0; 0; zz 1; 0; 0; cc 1] G (conj I I) En
    ltac:(rewrite Cn; apply distinct_3) ltac:(intros [H _]; congruence) Sw) as [C1 _].
  destruct C1 as (w0 & s1 & Call & B & I1 & _).
  { rewrite Cn. apply (safe_3 _ _ _ _ _ _ _ Lim). apply Ends; [left; exact Z1|apply Cb]. }
  apply boxed_cut in B. cbn [map] in B.
  assert (W0 : w0 = [0; 0; 0]).
  { rewrite B. repeat apply (f_equal2 (@Datatypes.cons R)); try reflexivity; unfold cut, Rmin, Rmax; repeat destruct (Rle_dec _ _); lra. }
  clear B. subst w0.
  pose (z := fun (i : nat) t => match i with O => zz t | _ => zz 1 end). pose (vz := fun (i : nat) t => match i with O => cc t | _ => cc 1 end).
  pose (o := fun (_ : nat) (_ : R) => 0).
  exists (fun _ _ _ _ => P), 5, cfg, o, o, z, o, o, vz, (fun _ => [0; 0; 0]), (fun _ => [0; 0; 0]), (fun i => match i with O => s0 | _ => s1 end).
  cbv zeta. split; [exact Ric|]. split; [reflexivity|]. split; [exact E0|]. split; [|split; [|split; [|split]]].
  - constructor; intros i Hi; (destruct i as [|i]; [|lia]); unfold o, z, vz; [exact Call| |exact Sw|repeat split].
    cbn [nth]. apply (swing_moves 1 n w (1 / 2) N0).
  - intros i _. apply unit_within. intros e [<-|[<-|[<-|[]]]]; lra.
  - intros i t Hi Ht. destruct i as [|i]; [|lia]. eapply Rle_trans; [apply plen_abs|]. unfold o, z. rewrite Rabs_R0.
    assert (Rabs (zz t) <= 200); [|lra]. apply ab. unfold zz. pose proof (SIN_bound (n * (t - 1 / 2))) as Sb.
    assert (0 <= w / n <= 200).
    { assert (E : w / n * n = w) by (field; exact N0). unfold w in *. split; apply (Rmult_le_reg_r n); lra. }
    pose proof (pb (w / n) (sin (n * (t - 1 / 2))) 200 1 ltac:(lra) ltac:(lra)). lra.
  - unfold o, z, vz. apply Ends; [right; exact Z0|apply Cb].
  - exists (1 / 2). split; [lra|]. unfold o, z, vz, zz, cc. replace (1 / 2 - 1 / 2) with 0 by field. rewrite Rmult_0_r, sin_0, cos_0, Rmult_0_r, Rmult_1_r.
    intros [Q _]. unfold slow_enough in Q. cbn [d_v0 d_v1_coef d_n d_v0_distance dock_default_3d pdot] in Q. rewrite Rminus_0_r in Q.
    assert (S1 : 2 / 10 <= sqrt (0 * 0 + 0 * 0 + w * w + 1 / 100000)).
    { apply le_of_sqr; [apply sqrt_pos|]. unfold w. rewrite sqrt_sqrt by lra. lra. }
    assert (S2 : sqrt (0 * 0 + 0 * 0 + 0 * 0 + 1 / 100000) <= 1 / 100) by (apply le_of_sqr; [lra|]; rewrite sqrt_sqrt by lra; lra).
    assert (0 <= (1 / 100 - sqrt (0 * 0 + 0 * 0 + 0 * 0 + 1 / 100000)) * n) by (apply Rmult_le_pos; lra). lra.
Qed.
Print Assumptions C89_between_calls_refuted.
