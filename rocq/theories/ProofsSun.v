(** Lemmas about the sun's rate in the inspection modules: a call is that of a plain explicit
    module with a fixed rate, which the history decides. *)
From Coq Require Import String Reals List Bool ZArith Lia Lra.
From Verif Require Import Prelude Vec ModelBase ModelController ModelSimplex ModelAsif ModelConstraint ModelCwh
  ModelZoo ModelInsp ModelJit ModelSun SpecCore SpecSimplex SpecJit SpecSun ProofsBase ProofsSimplex ProofsJit.
Import ListNotations.
Local Open Scope R_scope.

Section Sun.
Context {P : Type}.
Variables (k : sun_kind) (len : nat) (pad : vec).
Hypothesis H : inspects k len pad.
Implicit Types (j : sun_mod P) (c : bool).

Lemma get_array x r : sk_get k (InArray x) r = (Ok (completed len pad x), rate_for len x r).
Proof.
  destruct H; unfold completed, rate_for, lacksb; cbn [sk_get one_deputy several_deputies];
    unfold inspection_get_state, deputies_get_state;
    [destruct (length x <? 8)%nat|destruct (length x <? 6 * num + 1)%nat]; reflexivity.
Qed.
Lemma get_other r : sk_get k InOther r = (Err AssertionError, r).
Proof. destruct H; reflexivity. Qed.

Definition key_of (dt : R) (x : vec) : R * nat := (dt, length (completed len pad x)).

(** The rate that a call uses. *)
Definition used (c : bool) (dt : R) (x : vec) j : R :=
  if c then match trace_of key_dec (key_of dt x) (sun_traces (sun_of j)) with
            | Some v => v
            | None => rate_for len x (sun_vel (sun_of j))
            end
  else rate_for len x (sun_vel (sun_of j)).

(** How the compiled versions change. *)
Definition grows (c : bool) (key : R * nat) (r : R) (t t' : traces (R * nat) R) : Prop :=
  t' = t \/ (c = true /\ trace_of key_dec key t = None /\ t' = (key, r) :: t).

Notation mats c := (if c then jit_sun_mats k else sun_mats k).
Definition rate_at (c : bool) (y : vec) (dt : R) j : R :=
  if c then match trace_of key_dec (dt, length y) (sun_traces (sun_of j)) with
            | Some v => v | None => sun_vel (sun_of j) end
  else sun_vel (sun_of j).

Lemma mats_eq c y dt j : exists t',
  (mats c : vec -> R -> M (sun_mod P) (mat * vec)) y dt j
  = (fst (explicit_mats (at_rate k (rate_at c y dt j)) y dt (forget j)),
     set_sun (fun z => mkSunny (sun_vel z) t') j) /\
  snd (explicit_mats (at_rate k (rate_at c y dt j)) y dt (forget j)) = forget j /\
  grows c (dt, length y) (sun_vel (sun_of j)) (sun_traces (sun_of j)) t' /\
  (c = true -> (exists rc, fst (explicit_mats (at_rate k (rate_at c y dt j)) y dt (forget j)) = Ok rc) ->
   trace_of key_dec (dt, length y) t' = Some (rate_at c y dt j)).
Proof.
  assert (S0 : forall j, set_sun (fun z => mkSunny (sun_vel z) (sun_traces (sun_of j))) j = j).
  { intros [? ? ? ? [? ? ? ? ? [? ? ? ? ? ? ? ? ? ? []]]]. reflexivity. }
  destruct c; unfold rate_at.
  - unfold jit_sun_mats, explicit_mats, bind, get, lift, modify, ret, jit_call.
    change (get_asif (forget j)) with (mkAsif (as_num_slack (get_asif j)) (as_weight (get_asif j)) (as_names (get_asif j))
      (as_act_rows (get_asif j)) (as_act_consts (get_asif j)) (as_direct (get_asif j)) (as_dparams (get_asif j))
      (as_denabled (get_asif j)) (as_causes (get_asif j)) (as_warned (get_asif j)) tt).
    cbn [as_num_slack as_act_rows as_act_consts].
    change (cb_constraints (ext (forget j))) with (cb_constraints (ext j)).
    change (cb_params (ext (forget j))) with (cb_params (ext j)).
    change (cb_enabled (ext (forget j))) with (cb_enabled (ext j)).
    destruct (trace_of key_dec (dt, length y) (sun_traces (sun_of j))) as [v|] eqn:E; cbn match; cbn [fst snd].
    + destruct (explicit_rows (at_rate k v) _ _ _ _ _ _) as [rc|e]; exists (sun_traces (sun_of j));
        (split; [reflexivity|split; [reflexivity|split; [left; reflexivity|intros _ _; exact E]]]).
    + destruct (explicit_rows (at_rate k (sun_vel (sun_of j))) _ _ _ _ _ _) as [rc|e].
      * exists (((dt, length y), sun_vel (sun_of j)) :: sun_traces (sun_of j)).
        split; [reflexivity|split; [reflexivity|split; [right; auto|]]]. intros _ _. cbn [trace_of].
        destruct (key_dec (dt, length y) (dt, length y)); [reflexivity|congruence].
      * exists (sun_traces (sun_of j)). split; [reflexivity|split; [reflexivity|split; [left; reflexivity|]]].
        intros _ [rc X]. discriminate X.
  - exists (sun_traces (sun_of j)). unfold sun_mats, explicit_mats, bind, get, lift, ret.
    change (cb_constraints (ext (forget j))) with (cb_constraints (ext j)).
    change (cb_params (ext (forget j))) with (cb_params (ext j)).
    change (cb_enabled (ext (forget j))) with (cb_enabled (ext j)).
    change (as_num_slack (get_asif (forget j))) with (as_num_slack (get_asif j)).
    rewrite S0.
    destruct (explicit_rows (at_rate k (sun_vel (sun_of j))) _ _ _ _ _ _) as [rc|e];
      (split; [reflexivity|split; [reflexivity|split; [left; reflexivity|discriminate]]]).
Qed.

Ltac same := let t := fresh in intros t; destruct t as [? ? ? ? [? ? ? ? ? []]]; reflexivity.
Ltac frame := intros ? <-; reflexivity.

(** What follows the barrier rows reads neither f nor the sun's rate. *)
Definition rest_of (cfg : asif_cfg vec) {Z} (y : vec) (u : vec) (rc : mat * vec) : M (amod vec P Z) vec :=
  bind (update_ineq_mats cfg rc y) (fun rc => bind (optimize cfg u (fst rc) (snd rc)) (fun v =>
    bind (lift (opt_monitor (ac_eps cfg) u v)) (fun b => bind (modify (set_intervening b)) (fun _ => ret v)))).
Lemma asif_filter_rest (cfg : asif_cfg vec) {Z} (m : vec -> R -> M (amod vec P Z) (mat * vec)) y dt u :
  asif_filter cfg m y dt u = bind (modify (on_asif update_direct)) (fun _ => bind (m y dt) (rest_of cfg y u)).
Proof. reflexivity. Qed.
Lemma sim_rest v y u rc z : sim (@forget vec P sunny) (fun j => sun_of j = z)
  (rest_of (at_rate k v) y u rc) (rest_of (sk_cfg k) y u rc).
Proof.
  unfold rest_of. apply sim_bind.
  - unfold update_ineq_mats. apply sim_get. intros j I.
    unfold bind, lift, ret. change (as_dparams (get_asif (forget j))) with (as_dparams (get_asif j)).
    change (as_denabled (get_asif (forget j))) with (as_denabled (get_asif j)).
    change (as_direct (get_asif (forget j))) with (as_direct (get_asif j)).
    change (as_num_slack (get_asif (forget j))) with (as_num_slack (get_asif j)).
    change (ac_dim (at_rate k v)) with (ac_dim (sk_cfg k)).
    destruct (direct_rows _ _ _ _ _ _); cbn [fst snd]; auto.
  - intros rc'. apply sim_bind.
    + change (optimize (P:=P) (Z:=unit) (at_rate k v) u (fst rc') (snd rc')) with (optimize (P:=P) (Z:=unit) (sk_cfg k) u (fst rc') (snd rc')).
      apply sim_optimize; ((intros l; same) || same || frame || (intros l; frame)).
    + intros w. apply sim_bind; [apply sim_lift|]. intros b.
      apply sim_bind; [apply sim_modify; [same|frame]|]. intros _. apply sim_ret.
Qed.

(** _filter_control. *)
Lemma filter_eq c y dt u j :
  let v := rate_at c y dt j in
  let a := asif_filter (sk_cfg k) (mats c : vec -> R -> M (sun_mod P) (mat * vec)) y dt u j in
  let b := asif_filter (at_rate k v) (explicit_mats (at_rate k v)) y dt u (forget j) in
  fst a = fst b /\ forget (snd a) = snd b /\
  exists t', sun_of (snd a) = mkSunny (sun_vel (sun_of j)) t' /\
    grows c (dt, length y) (sun_vel (sun_of j)) (sun_traces (sun_of j)) t' /\
    (c = true -> (exists w, fst a = Ok w) -> trace_of key_dec (dt, length y) t' = Some v).
Proof.
  intros v a b. unfold a, b. clear a b. rewrite !asif_filter_rest. unfold bind at 1 3 5 7 9 11. unfold modify.
  set (j1 := on_asif update_direct j).
  assert (F1 : on_asif update_direct (forget j) = forget j1) by (unfold j1; destruct j as [? ? ? ? [? ? ? ? ? []]]; reflexivity).
  rewrite F1. assert (V : v = rate_at c y dt j1) by reflexivity.
  destruct (mats_eq c y dt j1) as (t' & E & S & G & T). rewrite <- V in *. clear V.
  change (sun_of j1) with (sun_of j) in G.
  unfold bind. rewrite E.
  destruct (explicit_mats (at_rate k v) y dt (forget j1)) as [r s1]. cbn [fst snd] in *. subst s1.
  set (j2 := set_sun (fun z => mkSunny (sun_vel z) t') j1).
  assert (Z : sun_of j2 = mkSunny (sun_vel (sun_of j)) t') by reflexivity.
  assert (F2 : forget j2 = forget j1) by reflexivity. rewrite <- F2. clearbody j2. clear E F1 F2 j1.
  destruct r as [rc|e].
  - destruct (sim_rest v y u rc _ j2 Z) as (A & B & C). split; [exact A|split; [exact B|]].
    exists t'. split; [exact C|split; [exact G|]]. intros Hc _. apply T; [exact Hc|exists rc; reflexivity].
  - cbn [fst snd]. split; [reflexivity|split; [reflexivity|]]. exists t'. split; [exact Z|split; [exact G|]].
    intros _ [w X]; discriminate X.
Qed.

(** A call on a module that is switched on. *)
Lemma call_eq c x dt u j : enable j = true ->
  let v := used c dt x j in
  let r := rate_for len x (sun_vel (sun_of j)) in
  let a := sun_filter_control c k (InArray x) dt u j in
  let b := explicit_asif_filter_control (at_rate k v) (InArray (completed len pad x)) dt u (forget j) in
  fst a = fst b /\ forget (snd a) = snd b /\
  exists t', sun_of (snd a) = mkSunny r t' /\
    grows c (key_of dt x) r (sun_traces (sun_of j)) t' /\
    (c = true -> (exists w, fst a = Ok w) -> trace_of key_dec (key_of dt x) t' = Some v).
Proof.
  intros En v r a b. unfold a, b. clear a b.
  unfold sun_filter_control, explicit_asif_filter_control, filter_control, cb_compute, sun_get_state, zoom.
  unfold bind, modify, get, base_get_state, ret. cbv beta iota.
  replace (enable (set_desired (Some u) (forget j))) with true by (symmetry; exact En).
  replace (enable (set_desired (Some u) j)) with true by (symmetry; exact En).
  cbv beta iota.
  set (j1 := on_ext update_params (set_desired (Some u) j)).
  assert (F1 : on_ext update_params (set_desired (Some u) (forget j)) = forget j1)
    by (unfold j1; destruct j as [? ? ? ? [? ? ? ? ? []]]; reflexivity).
  rewrite F1. change (sun_of j1) with (sun_of j). rewrite get_array. cbn [fst snd].
  set (y := completed len pad x). set (j2 := set_sun (fun z => mkSunny (rate_for len x (sun_vel (sun_of j))) (sun_traces z)) j1).
  set (j3 := on_ext (update_constraint_values_at y true) j2).
  assert (F3 : on_ext (update_constraint_values_at y true) (forget j1) = forget j3)
    by (unfold j3, j2; destruct j1 as [? ? ? ? [? ? ? ? ? []]]; reflexivity).
  rewrite F3.
  assert (V : v = rate_at c y dt j3) by (destruct c; reflexivity).
  destruct (filter_eq c y dt u j3) as (A & B & t' & Z & G & T). rewrite <- V in A, B, T.
  change (sun_vel (sun_of j3)) with r in Z, G. change (sun_traces (sun_of j3)) with (sun_traces (sun_of j)) in G.
  change (ac_bounds (at_rate k v)) with (ac_bounds (sk_cfg k)).
  destruct (asif_filter (at_rate k v) (explicit_mats (at_rate k v)) y dt u (forget j3)) as [rb s4].
  cbn [fst snd] in A, B. subst rb s4. clear V.
  destruct c; cbv iota in *;
    [destruct (asif_filter (sk_cfg k) (jit_sun_mats k) y dt u j3) as [ra j4]
    |destruct (asif_filter (sk_cfg k) (sun_mats k) y dt u j3) as [ra j4]]; cbn [fst snd] in *;
    (destruct ra as [w|e]; cbv beta iota; cbn [fst snd];
     [unfold lift; destruct (clip (ac_bounds (sk_cfg k)) w) as [w'|e]; cbv beta iota; cbn [fst snd];
      (split; [reflexivity|split; [reflexivity|]]; exists t'; split; [exact Z|split; [exact G|]];
       intros Hc [w0 X]; first [discriminate X|apply T; [exact Hc|eauto]])
     |split; [reflexivity|split; [reflexivity|]]; exists t'; split; [exact Z|split; [exact G|]];
      intros _ [w' X]; discriminate X]).
Qed.
Lemma call_other c dt u j : enable j = true ->
  sun_of (snd (sun_filter_control c k InOther dt u j)) = sun_of j /\
  fst (sun_filter_control c k InOther dt u j) = Err AssertionError /\
  forall v, forget (snd (sun_filter_control c k InOther dt u j))
    = snd (explicit_asif_filter_control (at_rate k v) InOther dt u (forget j)).
Proof.
  intros En. unfold sun_filter_control, explicit_asif_filter_control, filter_control, cb_compute, sun_get_state, zoom, bind, modify, get.
  replace (enable (set_desired (Some u) (forget j))) with true by (symmetry; exact En).
  replace (enable (set_desired (Some u) j)) with true by (symmetry; exact En).
  rewrite get_other. cbn [fst snd]. split; [|split; [reflexivity|]].
  - destruct j as [? ? ? ? [? ? ? ? ? [? ? ? ? ? ? ? ? ? ? []]]]; reflexivity.
  - intros v. destruct j as [? ? ? ? [? ? ? ? ? []]]; reflexivity.
Qed.
Lemma call_off c i dt u j : enable j = false ->
  sun_filter_control c k i dt u j = (Ok u, set_actual (Some u) (set_desired (Some u) j)).
Proof.
  intros En. unfold sun_filter_control, filter_control, bind, modify, get.
  replace (enable (set_desired (Some u) j)) with false by (symmetry; exact En). reflexivity.
Qed.
Lemma explicit_off (cfg : asif_cfg vec) i dt u (s : amod vec P unit) : enable s = false ->
  explicit_asif_filter_control cfg i dt u s = (Ok u, set_actual (Some u) (set_desired (Some u) s)).
Proof.
  intros En. unfold explicit_asif_filter_control, filter_control, bind, modify, get.
  replace (enable (set_desired (Some u) s)) with false by (symmetry; exact En). reflexivity.
Qed.

(** What an operation does to the rate and to the compiled versions. *)
Lemma step_sun c o j :
  let z := sun_of j in let z' := sun_of (snd (sun_step c k o j)) in
  (sun_vel z' = sun_vel z \/ exists x, state_in o = Some x /\ sun_vel z' = rate_for len x (sun_vel z)) /\
  (sun_traces z' = sun_traces z \/ exists x dt u, o = ABase (OFilter (InArray x) dt u) /\
     grows c (key_of dt x) (sun_vel z') (sun_traces z) (sun_traces z')).
Proof.
  destruct o as [[i dt u| |b|i|q p|q b]|q p|q b]; cbn [sun_step asif_step cb_step]; try (split; left; reflexivity).
  - destruct (enable j) eqn:En.
    + destruct i as [x|].
      * destruct (call_eq c x dt u j En) as (_ & _ & t' & Z & G & _).
        destruct (sun_filter_control c k (InArray x) dt u j) as [r j']. cbn [fst snd] in *. rewrite Z. cbn [sun_vel sun_traces].
        split; [right; exists x; auto|right; exists x, dt, u; auto].
      * destruct (call_other c dt u j En) as (Z & _ & _).
        destruct (sun_filter_control c k InOther dt u j) as [r j']. cbn [fst snd] in *. rewrite Z. auto.
    + rewrite (call_off c i dt u j En). split; left; reflexivity.
  - unfold update_constraint_values, sun_get_state, zoom, bind, modify. destruct i as [x|].
    + rewrite get_array. cbn [fst snd obs_unit]. split; [right; exists x; split; reflexivity|left; reflexivity].
    + rewrite get_other. cbn [fst snd]. destruct j as [? ? ? ? [? ? ? ? ? [? ? ? ? ? ? ? ? ? ? []]]].
      split; left; reflexivity.
Qed.

Lemma run_keeps c os : forall j key v,
  trace_of key_dec key (sun_traces (sun_of j)) = Some v ->
  trace_of key_dec key (sun_traces (sun_of (snd (sun_run c k os j)))) = Some v.
Proof.
  induction os as [|o os IH]; intros j key v E; [exact E|]. cbn [sun_run].
  destruct (step_sun c o j) as [_ T]. destruct (sun_step c k o j) as [b j1]. cbn [fst snd] in T.
  assert (E1 : trace_of key_dec key (sun_traces (sun_of j1)) = Some v).
  { destruct T as [->|(x & dt & u & _ & [->|(_ & N & ->)])]; [exact E|exact E|].
    cbn [trace_of]. destruct (key_dec key (key_of dt x)) as [->|]; [congruence|exact E]. }
  specialize (IH j1 key v E1). destruct (sun_run c k os j1) as [bs j2]. exact IH.
Qed.
Lemma run_untraced c os : forall j dt n, never_called_with dt os ->
  trace_of key_dec (dt, n) (sun_traces (sun_of j)) = None ->
  trace_of key_dec (dt, n) (sun_traces (sun_of (snd (sun_run c k os j)))) = None.
Proof.
  induction os as [|o os IH]; intros j dt n Nv E; [exact E|]. cbn [sun_run].
  destruct (step_sun c o j) as [_ T]. destruct (sun_step c k o j) as [b j1]. cbn [fst snd] in T.
  assert (E1 : trace_of key_dec (dt, n) (sun_traces (sun_of j1)) = None).
  { destruct T as [->|(x & dt' & u & Eo & [->|(_ & N & ->)])]; [exact E|exact E|].
    cbn [trace_of]. destruct (key_dec (dt, n) (key_of dt' x)) as [Ek|]; [|exact E].
    injection Ek as -> _. exfalso. apply (Nv (InArray x) u). left. exact Eo. }
  assert (N1 : never_called_with dt os) by (intros i u I; apply (Nv i u); right; exact I).
  specialize (IH j1 dt n N1 E1). destruct (sun_run c k os j1) as [bs j2]. exact IH.
Qed.

(** A module whose rate has been and is [r]. *)
Definition steady (r : R) j : Prop :=
  sun_vel (sun_of j) = r /\ forall key v, trace_of key_dec key (sun_traces (sun_of j)) = Some v -> v = r.

Lemma steady_used r c dt x j : steady r j -> rate_for len x r = r -> used c dt x j = r.
Proof.
  intros [S T] E. unfold used. rewrite S, E. destruct c; [|reflexivity].
  destruct (trace_of _ _ _) as [v|] eqn:F; [exact (T _ _ F)|reflexivity].
Qed.
Lemma steady_step r c o j : steady r j -> (forall x, state_in o = Some x -> rate_for len x r = r) ->
  let s' := asif_step (explicit_asif_filter_control (at_rate k r)) explicit_asif_reset (fill len pad o) (forget j) in
  fst (sun_step c k o j) = fst s' /\ forget (snd (sun_step c k o j)) = snd s' /\ steady r (snd (sun_step c k o j)).
Proof.
  intros St E s'.
  assert (SS : steady r (snd (sun_step c k o j))).
  { destruct (step_sun c o j) as [V T]. destruct St as [S0 T0]. rewrite S0 in V.
    assert (V' : sun_vel (sun_of (snd (sun_step c k o j))) = r).
    { destruct V as [V|(x & Ex & V)]; [exact V|]. rewrite V. exact (E x Ex). }
    split; [exact V'|]. intros key v F. destruct T as [T|(x & dt & u & _ & [T|(_ & _ & T)])]; rewrite T in F; [exact (T0 _ _ F)|exact (T0 _ _ F)|].
    cbn [trace_of] in F. destruct (key_dec key (key_of dt x)); [|exact (T0 _ _ F)]. injection F as <-. exact V'. }
  unfold s'. clear s'.
  destruct o as [[i dt u| |b|i|q p|q b]|q p|q b]; cbn [sun_step asif_step cb_step fill] in *;
    try (split; [reflexivity|split; [destruct j as [? ? ? ? [? ? ? ? ? []]]; reflexivity|exact SS]]).
  - destruct (enable j) eqn:En.
    + destruct i as [x|]; cbn [fill].
      * destruct (call_eq c x dt u j En) as (A & B & _). rewrite (steady_used r c dt x j St (E x eq_refl)) in A, B.
        cbn [asif_step cb_step].
        destruct (sun_filter_control c k (InArray x) dt u j) as [ra j'].
        destruct (explicit_asif_filter_control (at_rate k r) (InArray (completed len pad x)) dt u (forget j)) as [rb s'].
        cbn [fst snd] in *. subst rb s'. auto.
      * destruct (call_other c dt u j En) as (_ & A & B). specialize (B r). cbn [asif_step cb_step].
        assert (C : fst (explicit_asif_filter_control (at_rate k r) InOther dt u (forget j)) = Err AssertionError).
        { unfold explicit_asif_filter_control, filter_control, cb_compute, bind, modify, get.
          replace (enable (set_desired (Some u) (forget j))) with true by (symmetry; exact En). reflexivity. }
        destruct (sun_filter_control c k InOther dt u j) as [ra j'].
        destruct (explicit_asif_filter_control (at_rate k r) InOther dt u (forget j)) as [rb s'].
        cbn [fst snd] in *. subst. auto.
    + assert (F : exists i', fill len pad (ABase (OFilter i dt u)) = @ABase vec P (OFilter i' dt u)) by (destruct i; cbn; eauto).
      destruct F as [i' F]. cbn [fill] in F. rewrite F. cbn [asif_step cb_step].
      rewrite (call_off c i dt u j En) in *.
      rewrite explicit_off by exact En. cbn [fst snd] in *. split; [reflexivity|split; [|exact SS]].
      destruct j as [? ? ? ? [? ? ? ? ? []]]; reflexivity.
  - unfold update_constraint_values, sun_get_state, zoom, bind, modify in *. destruct i as [x|].
    + rewrite get_array in *. cbn [fst snd obs_unit asif_step cb_step] in *. split; [reflexivity|split; [|exact SS]].
      destruct j as [? ? ? ? [? ? ? ? ? []]]; reflexivity.
    + rewrite get_other in *. cbn [fst snd obs_unit asif_step cb_step] in *. split; [reflexivity|split; [|exact SS]].
      destruct j as [? ? ? ? [? ? ? ? ? []]]; reflexivity.
Qed.
Lemma steady_run r c os : (forall o x, In o os -> state_in o = Some x -> rate_for len x r = r) -> forall j, steady r j ->
  let s' := asif_run (explicit_asif_filter_control (at_rate k r)) explicit_asif_reset (map (fill len pad) os) (forget j) in
  fst (sun_run c k os j) = fst s' /\ forget (snd (sun_run c k os j)) = snd s' /\ steady r (snd (sun_run c k os j)).
Proof.
  induction os as [|o os IH]; intros E j St; [cbn; auto|]. cbn [map sun_run asif_run].
  destruct (steady_step r c o j St) as (A & B & C); [intros x; apply E; left; reflexivity|].
  destruct (sun_step c k o j) as [b j1].
  destruct (asif_step (explicit_asif_filter_control (at_rate k r)) explicit_asif_reset (fill len pad o) (forget j)) as [b' s1].
  cbn [fst snd] in *. subst b' s1.
  destruct (IH (fun o x I => E o x (or_intror I)) j1 C) as (A' & B' & C').
  destruct (sun_run c k os j1) as [bs j2].
  destruct (asif_run (explicit_asif_filter_control (at_rate k r)) explicit_asif_reset (map (fill len pad) os) (forget j1)) as [bs' s2].
  cbn [fst snd] in *. subst bs' s2. auto.
Qed.
Lemma complete_rate os r : @all_complete P len os \/ r = 0 ->
  forall o x, In o os -> state_in o = Some x -> rate_for len x r = r.
Proof.
  intros C o x I S. unfold rate_for, lacksb. destruct (Nat.ltb_spec (length x) len); [|reflexivity].
  destruct C as [C|C]; [|symmetry; exact C]. exfalso. exact (C o x I S H0).
Qed.
End Sun.

(** Construction. *)
Lemma sun_init_plain {P} k rate (defined : dict (constraint vec P)) to_use directs j0 :
  sun_init k rate defined to_use directs = Ok j0 ->
  sun_of j0 = mkSunny rate [] /\ (forall v, asif_init (at_rate k v) defined to_use directs tt = Ok (forget j0)) /\
  enable j0 = true.
Proof.
  unfold sun_init, asif_init. destruct (select_constraints defined to_use) as [cs|]; [|discriminate]. cbn [rbind].
  change (fun v => ac_bounds (at_rate k v)) with (fun v : R => ac_bounds (sk_cfg k)).
  destruct (actuation_mats (ac_bounds (sk_cfg k)) (ac_dim (sk_cfg k)) (length (slack_scales cs))) as [[[rows consts] names]|] eqn:E;
    [|discriminate]. cbn [rbind].
  unfold cb_init. destruct (select_constraints defined to_use) as [cs'|]; [|discriminate]. cbn [rbind].
  intros X; injection X as <-. split; [reflexivity|split; [|reflexivity]]. intros v.
  cbn [at_rate ac_bounds ac_dim]. rewrite E. reflexivity.
Qed.
