(** Lemmas about compiled modules: they simulate the plain ones. *)
From Coq Require Import String Reals List Bool ZArith Lia Lra.
From Verif Require Import Prelude Vec ModelBase ModelController ModelSimplex ModelAsif ModelJit SpecCore SpecSimplex SpecJit ProofsBase ProofsSimplex.
Import ListNotations.
Local Open Scope R_scope.

(** ** Simulation of one monadic program by another, for a map that forgets attributes. *)
Definition sim {S T A} (f : T -> S) (I : T -> Prop) (m : M S A) (m' : M T A) : Prop :=
  forall t, I t -> fst (m' t) = fst (m (f t)) /\ f (snd (m' t)) = snd (m (f t)) /\ I (snd (m' t)).

Lemma sim_bind {S T A B} f (I : T -> Prop) (m : M S A) (m' : M T A) (k : A -> M S B) k' :
  sim f I m m' -> (forall a, sim f I (k a) (k' a)) -> sim f I (bind m k) (bind m' k').
Proof.
  intros H K t It. destruct (H t It) as (E1 & E2 & I').
  unfold bind. destruct (m' t) as [r' t'], (m (f t)) as [r s']. cbn in *. subst r' s'.
  destruct r as [a|e]; [apply K; exact I'|auto].
Qed.
Lemma sim_ret {S T A} f (I : T -> Prop) (a : A) : sim f I (@ret S A a) (ret a).
Proof. intros t It. cbn. auto. Qed.
Lemma sim_raise {S T A} f (I : T -> Prop) e : sim f I (@raise S A e) (raise e).
Proof. intros t It. cbn. auto. Qed.
Lemma sim_lift {S T A} f (I : T -> Prop) (r : res A) : sim f I (@lift S A r) (lift r).
Proof. intros t It. cbn. auto. Qed.
Lemma sim_modify {S T} f (I : T -> Prop) (g : S -> S) g' :
  (forall t, f (g' t) = g (f t)) -> (forall t, I t -> I (g' t)) -> sim f I (modify g) (modify g').
Proof. intros E K t It. cbn. auto. Qed.
Lemma sim_get {S T A} f (I : T -> Prop) (k : S -> M S A) (k' : T -> M T A) :
  (forall t, I t -> fst (k' t t) = fst (k (f t) (f t)) /\ f (snd (k' t t)) = snd (k (f t) (f t)) /\ I (snd (k' t t))) ->
  sim f I (bind get k) (bind get k').
Proof. intros H t It. unfold bind, get. apply H; exact It. Qed.

Lemma sim_read {S T A} f (I : T -> Prop) (k : S -> M S A) (k' : T -> M T A) :
  (forall t, I t -> sim f I (k (f t)) (k' t)) -> sim f I (bind get k) (bind get k').
Proof. intros H. apply sim_get. intros t It. exact (H t It t It). Qed.

(** ** Lists that differ in parameters and flags only. *)
Section Alike.
Context {X P : Type}.
Implicit Types cs : dict (constraint X P).
Implicit Types ds : dict (direct X P).

Lemma alike_refl cs : alike cs cs.
Proof.
  induction cs as [|[k c] cs IH]; constructor; [|exact IH]. split; [reflexivity|].
  exists (c_params c), (c_enabled c). destruct c; reflexivity.
Qed.
Lemma alike_direct_refl ds : alike_direct ds ds.
Proof.
  induction ds as [|[k c] cs IH]; constructor; [|exact IH]. split; [reflexivity|].
  exists (d_params c), (d_enabled c). destruct c; reflexivity.
Qed.
Lemma alike_map a b (g : string * constraint X P -> string * constraint X P) :
  (forall c, fst (g c) = fst c /\ exists p e, snd (g c) = set_c_params p (set_c_enabled e (snd c))) ->
  alike a b -> alike a (map g b).
Proof.
  intros G H. induction H as [|c d a b (K & p & e & E) H IH]; [constructor|]. cbn. constructor; [|exact IH].
  destruct (G d) as (K' & p' & e' & E'). split; [congruence|]. exists p', e'. rewrite E', E. reflexivity.
Qed.
Lemma alike_direct_map a b (g : string * direct X P -> string * direct X P) :
  (forall c, fst (g c) = fst c /\ exists p e, snd (g c) = set_d_params p (set_d_enabled e (snd c))) ->
  alike_direct a b -> alike_direct a (map g b).
Proof.
  intros G H. induction H as [|c d a b (K & p & e & E) H IH]; [constructor|]. cbn. constructor; [|exact IH].
  destruct (G d) as (K' & p' & e' & E'). split; [congruence|]. exists p', e'. rewrite E', E. reflexivity.
Qed.
Lemma alike_rows (cfg : asif_cfg X) ns (a b : dict (constraint X P)) ps es x : alike a b -> forall n,
  explicit_rows cfg ns n a ps es x = explicit_rows cfg ns n b ps es x.
Proof.
  intros H. induction H as [|[k c] [k' d] a b (K & p & e & E) H IH]; intros n; [reflexivity|].
  cbn [fst snd] in *. subst k' d. cbn. unfold rbind. destruct (dict_get ps k); [|reflexivity].
  destruct (dict_get es k); [|reflexivity].
  unfold explicit_row, c_compute, c_alpha_at, c_alpha_negative_at, rbind. cbn.
  destruct (c_alpha_neg c); destruct (c_alpha c); try reflexivity; rewrite IH; reflexivity.
Qed.
Lemma alike_direct_rows dim ns (a b : dict (direct X P)) ps es x : alike_direct a b ->
  direct_rows dim ns a ps es x = direct_rows dim ns b ps es x.
Proof.
  intros H. induction H as [|[k c] [k' d] a b (K & p & e & E) H IH]; [reflexivity|].
  cbn [fst snd] in *. subst k' d. cbn. unfold rbind. destruct (dict_get ps k); [|reflexivity].
  destruct (dict_get es k); [|reflexivity]. rewrite IH. reflexivity.
Qed.
Lemma alike_violation (a b : dict (constraint X P)) states ps es : alike a b ->
  constraint_violation a states ps es = constraint_violation b states ps es.
Proof.
  intros H. unfold constraint_violation.
  match goal with |- rbind (rmap ?f a) _ = _ => set (h := f); assert (R : rmap h a = rmap h b) end;
    [|rewrite R; reflexivity].
  induction H as [|[k c] [k' d] a b (K & p & e & E) H IH]; [reflexivity|].
  cbn [fst snd] in *. subst k' d. cbn [rmap]. rewrite IH. reflexivity.
Qed.
End Alike.

Lemma trace_of_in {K C} dec (k : K) (t : traces K C) c : trace_of dec k t = Some c -> In (k, c) t.
Proof.
  induction t as [|[k' c'] t IH]; cbn; [discriminate|]. destruct (dec k k') as [->|N]; [injection 1 as ->; auto|auto].
Qed.

(** A compiled call on attributes like the captured ones. *)
Lemma jit_call_plain {K C A} dec (k : K) (now : C) (body : C -> res A) t :
  (forall k' c, In (k', c) t -> body c = body now) -> fst (jit_call dec k now body t) = body now.
Proof.
  intros H. unfold jit_call. destruct (trace_of dec k t) eqn:E; [apply (H k), (trace_of_in dec); exact E|].
  destruct (body now); reflexivity.
Qed.
Lemma jit_call_traces {K C A} dec (k : K) (now : C) (body : C -> res A) t k' c :
  In (k', c) (snd (jit_call dec k now body t)) -> In (k', c) t \/ c = now.
Proof.
  unfold jit_call. destruct (trace_of dec k t); [auto|]. destruct (body now); cbn; [|auto].
  intros [E|I]; [injection E as _ <-; auto|auto].
Qed.

(** ** Solving the program, seen through a map that keeps what it reads. *)
Section Optimize.
Context {X P Z Z' : Type}.
Variables (f : amod X P Z -> amod X P Z') (I : amod X P Z -> Prop) (cfg : asif_cfg X).
Hypothesis Fn : forall t, as_names (get_asif (f t)) = as_names (get_asif t).
Hypothesis Fs : forall t, as_num_slack (get_asif (f t)) = as_num_slack (get_asif t).
Hypothesis Fw : forall t, as_weight (get_asif (f t)) = as_weight (get_asif t).
Hypothesis Fc : forall t, as_causes (get_asif (f t)) = as_causes (get_asif t).
Hypothesis Uc : forall l t, f (on_asif (set_causes l) t) = on_asif (set_causes l) (f t).
Hypothesis Uw : forall t, f (on_asif warn t) = on_asif warn (f t).
Hypothesis Ic : forall l t, I t -> I (on_asif (set_causes l) t).
Hypothesis Iw : forall t, I t -> I (on_asif warn t).

Lemma sim_record_causes iact : sim f I (record_causes iact) (record_causes iact).
Proof.
  induction iact as [|i iact IH]; cbn [record_causes]; [apply sim_ret|].
  apply sim_get. intros j0 I0. rewrite Fn, Fc.
  set (names := as_names (get_asif j0)). set (causes := match as_causes (get_asif j0) with Some l => l | None => [] end).
  assert (S : sim f I (bind (lift (name_of_row names i)) (fun key => bind
      (if existsb (String.eqb key) causes then ret tt else modify (on_asif (set_causes (Some (causes ++ [key])))))
      (fun _ => record_causes iact)))
    (bind (lift (name_of_row names i)) (fun key => bind
      (if existsb (String.eqb key) causes then ret tt else modify (on_asif (set_causes (Some (causes ++ [key])))))
      (fun _ => record_causes iact)))).
  { apply sim_bind; [apply sim_lift|]. intros key. apply sim_bind; [|intros _; exact IH].
    destruct (existsb (String.eqb key) causes); [apply sim_ret|]. apply sim_modify; [apply Uc|apply Ic]. }
  exact (S j0 I0).
Qed.
Lemma sim_optimize u rows consts : sim f I (optimize cfg u rows consts) (optimize cfg u rows consts).
Proof.
  unfold optimize. apply sim_get. intros j I0. rewrite Fs, Fw.
  set (a := u ++ zeros (as_num_slack (get_asif j))).
  destruct (ac_solve cfg (as_weight (get_asif j)) a rows consts) as [[z iact]|e].
  - assert (S : sim f I (bind (modify (on_asif (set_causes (Some [])))) (fun _ => bind (record_causes iact)
      (fun _ => ret (firstn (ac_dim cfg) z)))) (bind (modify (on_asif (set_causes (Some [])))) (fun _ => bind (record_causes iact)
      (fun _ => ret (firstn (ac_dim cfg) z))))).
    { apply sim_bind; [apply sim_modify; [apply Uc|apply Ic]|]. intros _.
      apply sim_bind; [apply sim_record_causes|]. intros _. apply sim_ret. }
    exact (S j I0).
  - assert (S : forall e0, sim f I (@raise _ vec e0) (raise e0)) by (intros; apply sim_raise).
    destruct e as [msg| | | | | | | | |]; try (apply (S _ j I0)).
    destruct (String.eqb msg msg_inconsistent); [|apply (S _ j I0)].
    destruct (ac_exc cfg); [apply (S _ j I0)|].
    assert (S' : sim f I (bind (modify (on_asif warn)) (fun _ => ret (firstn (ac_dim cfg) a)))
      (bind (modify (on_asif warn)) (fun _ => ret (firstn (ac_dim cfg) a)))).
    { apply sim_bind; [apply sim_modify; [apply Uw|apply Iw]|]. intros _. apply sim_ret. }
    exact (S' j I0).
Qed.
End Optimize.

(** ** Explicit ASIF *)
Section Asif.
Context {X P : Type}.
Variables (g : sigs X P) (cfg : asif_cfg X).

(** Every compiled version has captured what is still so. *)
Definition current (j : jit_amod X P) : Prop :=
  (forall k cs, In (k, cs) (j_barrier (as_ext (get_asif j))) -> alike cs (cb_constraints (ext j))) /\
  (forall k ds, In (k, ds) (j_direct (as_ext (get_asif j))) -> alike_direct ds (as_direct (get_asif j))).
Notation sm := (sim (@forget X P (jits X P)) current).

(** Changes that concern neither the constraints nor the compiled versions. *)
Lemma current_of j j' : as_ext (get_asif j') = as_ext (get_asif j) -> cb_constraints (ext j') = cb_constraints (ext j) ->
  as_direct (get_asif j') = as_direct (get_asif j) -> current j -> current j'.
Proof. intros E1 E2 E3 [A B]. unfold current. rewrite E1, E2, E3. auto. Qed.
Ltac frame := intros t It; refine (current_of t _ _ _ _ It); destruct t as [? ? ? ? [? ? ? ? ? []]]; reflexivity.
Ltac same := let t := fresh in intros t; destruct t as [? ? ? ? [? ? ? ? ? []]]; reflexivity.

Lemma sim_explicit_mats x dt : sm (explicit_mats cfg x dt) (jit_explicit_mats g cfg x dt).
Proof.
  unfold explicit_mats, jit_explicit_mats. apply sim_get. intros j [A B].
  set (now := cb_constraints (ext j)).
  set (body := fun cs => explicit_rows cfg (as_num_slack (get_asif j)) 0 cs (cb_params (ext j)) (cb_enabled (ext j)) x).
  set (k := (dt, sig_barrier g x (cb_params (ext j)))).
  assert (E : fst (jit_call key_dec k now body (j_barrier (as_ext (get_asif j)))) = body now).
  { apply jit_call_plain. intros k' cs I. apply alike_rows. apply (A k' cs I). }
  assert (T : forall k' cs, In (k', cs) (snd (jit_call key_dec k now body (j_barrier (as_ext (get_asif j))))) -> alike cs now).
  { intros k' cs I. destruct (jit_call_traces _ _ _ _ _ _ _ I) as [I'| ->]; [apply (A k' cs I')|apply alike_refl]. }
  destruct (jit_call key_dec k now body (j_barrier (as_ext (get_asif j)))) as [r t]. cbn [fst snd] in *. subst r.
  change (explicit_rows cfg (as_num_slack (get_asif (forget j))) 0 (cb_constraints (ext (forget j)))
    (cb_params (ext (forget j))) (cb_enabled (ext (forget j))) x) with (body now).
  unfold bind, lift, modify, ret. destruct (body now) as [rc|e]; cbn [fst snd];
    (split; [reflexivity|split; [destruct j as [? ? ? ? [? ? ? ? ? []]]; reflexivity|]]);
    split; (exact T || exact B).
Qed.
Lemma sim_update_ineq_mats rc x : sm (update_ineq_mats cfg rc x) (jit_update_ineq_mats g cfg rc x).
Proof.
  unfold update_ineq_mats, jit_update_ineq_mats. apply sim_get. intros j [A B].
  set (now := as_direct (get_asif j)).
  set (body := fun ds => direct_rows (ac_dim cfg) (as_num_slack (get_asif j)) ds (as_dparams (get_asif j)) (as_denabled (get_asif j)) x).
  set (k := sig_direct g (length (fst rc)) x (as_dparams (get_asif j))).
  assert (E : fst (jit_call PeanoNat.Nat.eq_dec k now body (j_direct (as_ext (get_asif j)))) = body now).
  { apply jit_call_plain. intros k' cs I. apply alike_direct_rows. apply (B k' cs I). }
  assert (T : forall k' cs, In (k', cs) (snd (jit_call PeanoNat.Nat.eq_dec k now body (j_direct (as_ext (get_asif j))))) -> alike_direct cs now).
  { intros k' cs I. destruct (jit_call_traces _ _ _ _ _ _ _ I) as [I'| ->]; [apply (B k' cs I')|apply alike_direct_refl]. }
  destruct (jit_call PeanoNat.Nat.eq_dec k now body (j_direct (as_ext (get_asif j)))) as [r t]. cbn [fst snd] in *. subst r.
  change (direct_rows (ac_dim cfg) (as_num_slack (get_asif (forget j))) (as_direct (get_asif (forget j)))
    (as_dparams (get_asif (forget j))) (as_denabled (get_asif (forget j))) x) with (body now).
  unfold bind, lift, modify, ret. destruct (body now) as [d|e]; cbn [fst snd];
    (split; [reflexivity|split; [destruct j as [? ? ? ? [? ? ? ? ? []]]; reflexivity|]]);
    split; (exact T || exact A).
Qed.
Lemma sim_filter x dt u : sm (asif_filter cfg (explicit_mats cfg) x dt u) (jit_asif_filter g cfg x dt u).
Proof.
  unfold asif_filter, jit_asif_filter.
  apply sim_bind; [apply sim_modify; [same|frame]|]. intros _.
  apply sim_bind; [apply sim_explicit_mats|]. intros rc.
  apply sim_bind; [apply sim_update_ineq_mats|]. intros rc'.
  apply sim_bind; [apply sim_optimize; (same || frame || (intros l; same) || (intros l; frame))|]. intros v.
  apply sim_bind; [apply sim_lift|]. intros b.
  apply sim_bind; [apply sim_modify; [same|frame]|]. intros _. apply sim_ret.
Qed.
Lemma sim_compute i dt u : sm (cb_compute base_get_state (asif_filter cfg (explicit_mats cfg)) i dt u)
  (cb_compute base_get_state (jit_asif_filter g cfg) i dt u).
Proof.
  unfold cb_compute. apply sim_bind; [apply sim_modify; [same|frame]|]. intros _.
  apply sim_bind; [destruct i; [apply sim_ret|apply sim_raise]|]. intros x.
  apply sim_bind; [apply sim_modify; [same|frame]|]. intros _.
  apply sim_bind; [apply sim_filter|]. intros v.
  apply sim_bind; [apply sim_modify; [same|frame]|]. intros _. apply sim_ret.
Qed.
Lemma sim_filter_control i dt u : sm (explicit_asif_filter_control cfg i dt u) (jit_asif_filter_control g cfg i dt u).
Proof.
  unfold explicit_asif_filter_control, jit_asif_filter_control, filter_control.
  apply sim_bind; [apply sim_modify; [same|frame]|]. intros _.
  apply sim_get. intros j I. change (enable (forget j)) with (enable j). destruct (enable j).
  - revert j I. change (sm (bind (cb_compute base_get_state (asif_filter cfg (explicit_mats cfg)) i dt u)
      (fun v => bind (lift (clip (ac_bounds cfg) v)) (fun w => bind (modify (set_actual (Some w))) (fun _ => ret w))))
      (bind (cb_compute base_get_state (jit_asif_filter g cfg) i dt u)
      (fun v => bind (lift (clip (ac_bounds cfg) v)) (fun w => bind (modify (set_actual (Some w))) (fun _ => ret w))))).
    apply sim_bind; [apply sim_compute|]. intros v. apply sim_bind; [apply sim_lift|]. intros w.
    apply sim_bind; [apply sim_modify; [same|frame]|]. intros _. apply sim_ret.
  - revert j I. change (sm (bind (modify (set_actual (Some u))) (fun _ => ret u)) (bind (modify (set_actual (Some u))) (fun _ => ret u))).
    apply sim_bind; [apply sim_modify; [same|frame]|]. intros _. apply sim_ret.
Qed.

Lemma sim_step (o : aop X P) j : current j ->
  let s := asif_step (explicit_asif_filter_control cfg) explicit_asif_reset o (forget j) in
  let s' := asif_step (jit_asif_filter_control g cfg) jit_asif_reset o j in
  fst s' = fst s /\ forget (snd s') = snd s /\ current (snd s').
Proof.
  intros I. destruct o as [[i dt u| |b|i|k p|k b]|k p|k b]; cbn [asif_step cb_step].
  - destruct (sim_filter_control i dt u j I) as (A & B & C).
    destruct (explicit_asif_filter_control cfg i dt u (forget j)), (jit_asif_filter_control g cfg i dt u j).
    cbn [fst snd] in *. subst. auto.
  - cbn. split; [reflexivity|split; [destruct j as [? ? ? ? [? ? ? ? ? []]]; reflexivity|]].
    refine (current_of j _ _ _ _ I); reflexivity.
  - cbn. split; [reflexivity|split; [destruct j as [? ? ? ? [? ? ? ? ? []]]; reflexivity|]].
    refine (current_of j _ _ _ _ I); reflexivity.
  - destruct i; cbn; (split; [reflexivity|split; [destruct j as [? ? ? ? [? ? ? ? ? []]]; reflexivity|]]);
    refine (current_of j _ _ _ _ I); reflexivity.
  - cbn [fst snd]. split; [reflexivity|split; [destruct j as [? ? ? ? [? ? ? ? ? []]]; reflexivity|]].
    destruct I as [A B]. split; [|exact B]. intros k' cs I. apply alike_map; [|exact (A k' cs I)].
    intros [k'' c]. cbn. destruct (String.eqb k k''); cbn; (split; [reflexivity|]).
    + exists p, (c_enabled c). destruct c; reflexivity.
    + exists (c_params c), (c_enabled c). destruct c; reflexivity.
  - cbn [fst snd]. split; [reflexivity|split; [destruct j as [? ? ? ? [? ? ? ? ? []]]; reflexivity|]].
    destruct I as [A B]. split; [|exact B]. intros k' cs I. apply alike_map; [|exact (A k' cs I)].
    intros [k'' c]. cbn. destruct (String.eqb k k''); cbn; (split; [reflexivity|]).
    + exists (c_params c), b. destruct c; reflexivity.
    + exists (c_params c), (c_enabled c). destruct c; reflexivity.
  - cbn [fst snd]. split; [reflexivity|split; [destruct j as [? ? ? ? [? ? ? ? ? []]]; reflexivity|]].
    destruct I as [A B]. split; [exact A|]. intros k' cs I. apply alike_direct_map; [|exact (B k' cs I)].
    intros [k'' c]. cbn. destruct (String.eqb k k''); cbn; (split; [reflexivity|]).
    + exists p, (d_enabled c). destruct c; reflexivity.
    + exists (d_params c), (d_enabled c). destruct c; reflexivity.
  - cbn [fst snd]. split; [reflexivity|split; [destruct j as [? ? ? ? [? ? ? ? ? []]]; reflexivity|]].
    destruct I as [A B]. split; [exact A|]. intros k' cs I. apply alike_direct_map; [|exact (B k' cs I)].
    intros [k'' c]. cbn. destruct (String.eqb k k''); cbn; (split; [reflexivity|]).
    + exists (d_params c), b. destruct c; reflexivity.
    + exists (d_params c), (d_enabled c). destruct c; reflexivity.
Qed.
Lemma sim_run os : forall j, current j ->
  let s := asif_run (explicit_asif_filter_control cfg) explicit_asif_reset os (forget j) in
  let s' := asif_run (jit_asif_filter_control g cfg) jit_asif_reset os j in
  fst s' = fst s /\ forget (snd s') = snd s /\ current (snd s').
Proof.
  induction os as [|o os IH]; intros j I; [cbn; auto|]. cbn [asif_run].
  destruct (sim_step o j I) as (A & B & C).
  destruct (asif_step (explicit_asif_filter_control cfg) explicit_asif_reset o (forget j)) as [b s1].
  destruct (asif_step (jit_asif_filter_control g cfg) jit_asif_reset o j) as [b' j1]. cbn [fst snd] in *. subst b' s1.
  destruct (IH j1 C) as (A' & B' & C').
  destruct (asif_run (explicit_asif_filter_control cfg) explicit_asif_reset os (forget j1)) as [bs s2].
  destruct (asif_run (jit_asif_filter_control g cfg) jit_asif_reset os j1) as [bs' j2]. cbn [fst snd] in *. subst bs' s2. auto.
Qed.

(** The constructor with and without room for compiled versions. *)
Lemma init_jit (defined : dict (constraint X P)) to_use directs :
  asif_init cfg defined to_use directs tt
  = match asif_init (Z := jits X P) cfg defined to_use directs no_traces with Ok j => Ok (forget j) | Err e => Err e end.
Proof.
  unfold asif_init, rbind. destruct (select_constraints defined to_use) as [cs|e] eqn:E; [|reflexivity].
  destruct (actuation_mats _ _ _) as [[[rows consts] names]|e]; [|reflexivity].
  unfold cb_init, rbind. rewrite E. reflexivity.
Qed.
Lemma init_current (defined : dict (constraint X P)) to_use directs j : asif_init cfg defined to_use directs no_traces = Ok j -> current j.
Proof.
  unfold asif_init, rbind. destruct (select_constraints defined to_use) as [cs|e] eqn:E; [|discriminate].
  destruct (actuation_mats _ _ _) as [[[rows consts] names]|e]; [|discriminate].
  unfold cb_init, rbind. rewrite E. injection 1 as <-. split; intros k l [].
Qed.

(** *** What a compiled module does not see: everything that its traces have captured. *)
Definition unseen (j : jit_amod X P) : jit_amod X P :=
  let e := ext j in let y := cb_ext e in
  mkRta (enable j) (intervening j) (control_desired j) (control_actual j)
    (mkCb [] (cb_params e) (cb_enabled e) [] (cb_stale e)
       (mkAsif (as_num_slack y) (as_weight y) (as_names y) (as_act_rows y) (as_act_consts y) []
          (as_dparams y) (as_denabled y) (as_causes y) (as_warned y) (as_ext y))).

Definition key_at (x : X) (dt : R) (j : jit_amod X P) := (dt, sig_barrier g x (cb_params (ext j))).
(** Both functions have been compiled for these arguments. *)
Definition traced (x : X) (dt : R) (j : jit_amod X P) : Prop :=
  exists c, trace_of key_dec (key_at x dt j) (j_barrier (as_ext (get_asif j))) = Some c /\
  trace_of PeanoNat.Nat.eq_dec
    (sig_direct g (length (as_act_rows (get_asif j)) + length c) x (as_dparams (get_asif j)))
    (j_direct (as_ext (get_asif j))) <> None.

Lemma explicit_rows_length ns ps es x : forall (cs : dict (constraint X P)) n rc,
  explicit_rows cfg ns n cs ps es x = Ok rc -> length (fst rc) = length cs.
Proof.
  induction cs as [|[k c] cs IH]; intros n rc; cbn; [injection 1 as <-; reflexivity|].
  unfold rbind. destruct (dict_get ps k); [|discriminate]. destruct (dict_get es k); [|discriminate].
  destruct (explicit_row _ _ _ _ _ _ _) as [r|]; [|discriminate].
  destruct (explicit_rows _ _ _ _ _ _ _) as [rest|] eqn:E; [|discriminate].
  injection 1 as <-. cbn. f_equal. exact (IH _ _ E).
Qed.

(** The part of a call after the caches have been filled. *)
Definition tail (x : X) (dt : R) (u : vec) : M (jit_amod X P) vec :=
  bind (jit_explicit_mats g cfg x dt) (fun rc =>
  bind (jit_update_ineq_mats g cfg rc x) (fun rc =>
  bind (optimize cfg u (fst rc) (snd rc)) (fun v =>
  bind (lift (opt_monitor (ac_eps cfg) u v)) (fun b =>
  bind (modify (set_intervening b)) (fun _ => ret v))))).
Definition prep (x : X) (u : vec) (j : jit_amod X P) : jit_amod X P :=
  on_asif update_direct (on_ext (update_constraint_values_at x true) (on_ext update_params (set_desired (Some u) j))).
Definition finish (v : res vec) : res vec := match v with Ok v => clip (ac_bounds cfg) v | Err e => Err e end.

Lemma call_tail x dt u j : enable j = true ->
  fst (jit_asif_filter_control g cfg (InArray x) dt u j) = finish (fst (tail x dt u (prep x u j))).
Proof.
  intros E. unfold jit_asif_filter_control, filter_control, bind at 1, modify at 1. unfold bind at 1, get at 1.
  change (enable (set_desired (Some u) j)) with (enable j). rewrite E.
  unfold cb_compute, base_get_state, jit_asif_filter.
  change (fst (bind (bind (tail x dt u) (fun v => bind (modify (set_actual (Some v))) (fun _ => ret v)))
    (fun v => bind (lift (clip (ac_bounds cfg) v)) (fun w => bind (modify (set_actual (Some w))) (fun _ => ret w)))
    (prep x u j)) = finish (fst (tail x dt u (prep x u j)))).
  unfold bind at 1 2. destruct (tail x dt u (prep x u j)) as [[v|e] s]; cbn; [|reflexivity].
  unfold bind, lift, modify, ret. destruct (clip (ac_bounds cfg) v); reflexivity.
Qed.

Definition rows_of (c : dict (constraint X P)) x (j : jit_amod X P) : res (mat * vec) :=
  match explicit_rows cfg (as_num_slack (get_asif j)) 0 c (cb_params (ext j)) (cb_enabled (ext j)) x with
  | Ok rc => Ok (as_act_rows (get_asif j) ++ fst rc, as_act_consts (get_asif j) ++ snd rc)
  | Err e => Err e
  end.
Definition more_rows (d : dict (direct X P)) (rc : mat * vec) x (j : jit_amod X P) : res (mat * vec) :=
  match direct_rows (ac_dim cfg) (as_num_slack (get_asif j)) d (as_dparams (get_asif j)) (as_denabled (get_asif j)) x with
  | Ok r => Ok (fst rc ++ fst r, snd rc ++ snd r)
  | Err e => Err e
  end.
Lemma mats_traced x dt j c : trace_of key_dec (key_at x dt j) (j_barrier (as_ext (get_asif j))) = Some c ->
  jit_explicit_mats g cfg x dt j = (rows_of c x j, j).
Proof.
  intros T. unfold jit_explicit_mats, bind at 1, get, jit_call. unfold key_at in T. rewrite T.
  unfold bind, modify, lift, ret, rows_of.
  replace (on_asif _ j) with j by (destruct j as [? ? ? ? [? ? ? ? ? [? ? ? ? ? ? ? ? ? ? []]]]; reflexivity).
  destruct (explicit_rows _ _ _ _ _ _ _); reflexivity.
Qed.
Lemma more_traced (rc : mat * vec) x (j : jit_amod X P) (d : dict (direct X P)) :
  trace_of PeanoNat.Nat.eq_dec (sig_direct g (@length vec (fst rc)) x (as_dparams (get_asif j))) (j_direct (as_ext (get_asif j))) = Some d ->
  jit_update_ineq_mats g cfg rc x j = (more_rows d rc x j, j).
Proof.
  intros T. unfold jit_update_ineq_mats, bind at 1, get, jit_call. cbv zeta. rewrite T.
  unfold bind, modify, lift, ret, more_rows.
  replace (on_asif _ j) with j by (destruct j as [? ? ? ? [? ? ? ? ? [? ? ? ? ? ? ? ? ? ? []]]]; reflexivity).
  destruct (direct_rows _ _ _ _ _ _); reflexivity.
Qed.

Definition rest (u : vec) (rc : mat * vec) : M (jit_amod X P) vec :=
  bind (optimize cfg u (fst rc) (snd rc)) (fun v =>
  bind (lift (opt_monitor (ac_eps cfg) u v)) (fun b =>
  bind (modify (set_intervening b)) (fun _ => ret v))).
Lemma tail_traced x dt u j c : trace_of key_dec (key_at x dt j) (j_barrier (as_ext (get_asif j))) = Some c ->
  tail x dt u j = match rows_of c x j with
    | Ok rc => bind (jit_update_ineq_mats g cfg rc x) (rest u) j
    | Err e => (Err e, j)
    end.
Proof.
  intros T. unfold tail. unfold bind at 1. rewrite (mats_traced x dt j c T). destruct (rows_of c x j); reflexivity.
Qed.
Lemma more_then (rc : mat * vec) x u (j : jit_amod X P) (d : dict (direct X P)) :
  trace_of PeanoNat.Nat.eq_dec (sig_direct g (@length vec (fst rc)) x (as_dparams (get_asif j))) (j_direct (as_ext (get_asif j))) = Some d ->
  bind (jit_update_ineq_mats g cfg rc x) (rest u) j = match more_rows d rc x j with
    | Ok rc' => rest u rc' j
    | Err e => (Err e, j)
    end.
Proof.
  intros T. unfold bind at 1. rewrite (more_traced rc x j d T). destruct (more_rows d rc x j); reflexivity.
Qed.
Lemma sim_rest u rc : sim unseen (fun _ => True) (rest u rc) (rest u rc).
Proof.
  unfold rest. apply sim_bind; [apply sim_optimize; auto|]. intros v.
  apply sim_bind; [apply sim_lift|]. intros b. apply sim_bind; [apply sim_modify; auto|]. intros _. apply sim_ret.
Qed.
Lemma tail_unseen x dt u j : traced x dt j -> fst (tail x dt u j) = fst (tail x dt u (unseen j)).
Proof.
  intros (c & T1 & T2). rewrite (tail_traced x dt u j c T1), (tail_traced x dt u (unseen j) c T1).
  change (rows_of c x (unseen j)) with (rows_of c x j).
  destruct (rows_of c x j) as [rc|e] eqn:Er; [|reflexivity].
  assert (L : @length vec (fst rc) = (length (as_act_rows (get_asif j)) + length c)%nat).
  { unfold rows_of in Er. destruct (explicit_rows _ _ _ _ _ _ _) as [q|] eqn:Q; [|discriminate].
    injection Er as <-. cbn [fst]. rewrite app_length, (explicit_rows_length _ _ _ _ _ _ _ Q). reflexivity. }
  rewrite <- L in T2. destruct (trace_of _ _ _) as [d|] eqn:T3 in T2; [|congruence].
  rewrite (more_then rc x u j d T3), (more_then rc x u (unseen j) d T3).
  change (more_rows d rc x (unseen j)) with (more_rows d rc x j).
  destruct (more_rows d rc x j) as [rc'|e]; [|reflexivity].
  apply (sim_rest u rc' j Logic.I).
Qed.

(** A call that succeeds leaves both functions compiled for its arguments. *)
Lemma jit_call_known {K C A} dec (k : K) (now : C) (body : C -> res A) t a t' :
  jit_call dec k now body t = (Ok a, t') -> exists c, trace_of dec k t' = Some c /\ body c = Ok a.
Proof.
  unfold jit_call. destruct (trace_of dec k t) as [c|] eqn:E.
  - intros H. injection H as H <-. eauto.
  - destruct (body now) as [b|e] eqn:B; [|discriminate]. intros H. injection H as <- <-. exists now. cbn.
    destruct (dec k k); [auto|congruence].
Qed.
Lemma tail_traces x dt u j v j1 : tail x dt u j = (Ok v, j1) ->
  traced x dt j1 /\ cb_params (ext j1) = cb_params (ext j) /\ cb_constraints (ext j1) = cb_constraints (ext j) /\
  cb_enabled (ext j1) = cb_enabled (ext j) /\ enable j1 = enable j /\
  as_dparams (get_asif j1) = as_dparams (get_asif j) /\ as_denabled (get_asif j1) = as_denabled (get_asif j) /\
  as_direct (get_asif j1) = as_direct (get_asif j).
Proof.
  unfold tail. unfold bind at 1, jit_explicit_mats. unfold bind at 1, get at 1.
  destruct (jit_call key_dec _ _ _ _) as [r t] eqn:J1. unfold bind at 1, modify at 1. unfold bind at 1, lift at 1.
  destruct r as [q|]; [|discriminate]. destruct (jit_call_known _ _ _ _ _ _ _ J1) as (c & T1 & B1).
  unfold ret at 1. unfold bind at 1, jit_update_ineq_mats. unfold bind at 1, get at 1. cbn [fst snd].
  destruct (jit_call PeanoNat.Nat.eq_dec _ _ _ _) as [r' t'] eqn:J2. unfold bind at 1, modify at 1. unfold bind at 1, lift at 1.
  destruct r' as [q'|]; [|discriminate]. destruct (jit_call_known _ _ _ _ _ _ _ J2) as (d & T2 & B2).
  unfold ret at 1. cbn [fst snd].
  match goal with |- ?m ?t = _ -> _ => set (j2 := t); set (m2 := m) end. intros H.
  assert (T : traced x dt j2).
  { exists c. split; [exact T1|]. rewrite <- (explicit_rows_length _ _ _ _ _ _ _ B1), <- app_length.
    intros N. refine (_ (eq_trans (eq_sym T2) N)). discriminate. }
  set (Q := fun t : jit_amod X P => traced x dt t /\ cb_params (ext t) = cb_params (ext j) /\ cb_constraints (ext t) = cb_constraints (ext j) /\
    cb_enabled (ext t) = cb_enabled (ext j) /\ enable t = enable j /\
    as_dparams (get_asif t) = as_dparams (get_asif j) /\ as_denabled (get_asif t) = as_denabled (get_asif j) /\
    as_direct (get_asif t) = as_direct (get_asif j)).
  assert (S : sim (fun t => t) Q m2 m2).
  { unfold m2. apply sim_bind; [apply sim_optimize; auto|]. intros w.
    apply sim_bind; [apply sim_lift|]. intros b. apply sim_bind; [apply sim_modify; auto|]. intros _. apply sim_ret. }
  assert (Q2 : Q j2) by (split; [exact T|repeat split]).
  destruct (S j2 Q2) as (_ & _ & Q3). rewrite H in Q3. exact Q3.
Qed.

(** *** Assigning other attributes *)
Lemma dict_set_same {V} (d : dict V) k v : dict_get d k = Ok v -> dict_set d k v = d.
Proof.
  induction d as [|[k' v'] d IH]; cbn; [discriminate|]. destruct (String.eqb k k'); [injection 1 as ->; reflexivity|].
  intros H. rewrite (IH H). reflexivity.
Qed.
Lemma fold_set_same {V C} (f : string * C -> V) (l : dict C) (d : dict V) :
  (forall kc, In kc l -> dict_get d (fst kc) = Ok (f kc)) ->
  fold_left (fun d kc => dict_set d (fst kc) (f kc)) l d = d.
Proof.
  revert d. induction l as [|kc l IH]; intros d H; [reflexivity|]. cbn. rewrite dict_set_same by (apply H; left; reflexivity).
  apply IH. intros k I. apply H. right. exact I.
Qed.

(** What the caches are filled from. *)
Definition info (kc : string * constraint X P) := (fst kc, c_params (snd kc), c_enabled (snd kc)).
Definition dinfo (kc : string * direct X P) := (fst kc, d_params (snd kc), d_enabled (snd kc)).
Definition like (t j : jit_amod X P) : Prop :=
  unseen t = unseen j /\ map info (cb_constraints (ext t)) = map info (cb_constraints (ext j)) /\
  map dinfo (as_direct (get_asif t)) = map dinfo (as_direct (get_asif j)).

Lemma fold_info {V C I} (h : string * C -> I) (key : I -> string) (val : I -> V) (l l' : dict C) (d : dict V) :
  map h l = map h l' ->
  fold_left (fun d kc => dict_set d (key (h kc)) (val (h kc))) l d
  = fold_left (fun d kc => dict_set d (key (h kc)) (val (h kc))) l' d.
Proof.
  revert l' d. induction l as [|a l IH]; intros [|a' l'] d; cbn; try discriminate; [reflexivity|].
  intros E. injection E as E1 E2. rewrite E1. apply IH. exact E2.
Qed.
Lemma like_prep x u t j : like t j -> unseen (prep x u t) = unseen (prep x u j).
Proof.
  intros (U & C & D).
  destruct t as [e1 i1 d1 a1 [c1 p1 n1 v1 s1 [? ? ? ? ? r1 ? ? ? ? ?]]], j as [e2 i2 d2 a2 [c2 p2 n2 v2 s2 [? ? ? ? ? r2 q2 m2 ? ? ?]]].
  unfold unseen in U. cbn in U, C, D. injection U as -> -> -> -> -> -> -> -> -> -> -> -> -> -> -> -> ->.
  unfold unseen, prep. cbn.
  assert (F := fold_info info (fun i => fst (fst i)) (fun i => snd (fst i)) c1 c2 p2 C); unfold info in F; cbn in F; rewrite F; clear F.
  assert (F := fold_info info (fun i => fst (fst i)) (fun i => snd i) c1 c2 n2 C); unfold info in F; cbn in F; rewrite F; clear F.
  assert (F := fold_info dinfo (fun i => fst (fst i)) (fun i => snd (fst i)) r1 r2 q2 D); unfold dinfo in F; cbn in F; rewrite F; clear F.
  assert (F := fold_info dinfo (fun i => fst (fst i)) (fun i => snd i) r1 r2 m2 D); unfold dinfo in F; cbn in F; rewrite F; clear F.
  reflexivity.
Qed.
Lemma assign_like (o : jop X P) t : attribute_only o -> like (snd (assign_step (jit_asif_filter_control g cfg) jit_asif_reset o t)) t.
Proof.
  destruct o as [o|k f|k f]; cbn [attribute_only assign_step snd]; intros H; [destruct H|..]; split.
  - destruct t as [? ? ? ? []]; reflexivity.
  - split; [|reflexivity]. destruct t as [? ? ? ? [cs ? ? ? ? ?]]. cbn. rewrite map_map. apply map_ext. intros [k' c].
    unfold info. cbn. destruct (String.eqb k k'); cbn; [|reflexivity]. destruct (H c) as (-> & ->). reflexivity.
  - destruct t as [? ? ? ? [? ? ? ? ? []]]; reflexivity.
  - split; [reflexivity|]. destruct t as [? ? ? ? [? ? ? ? ? []]]. cbn. rewrite map_map. apply map_ext. intros [k' c].
    unfold dinfo. cbn. destruct (String.eqb k k'); cbn; [|reflexivity]. destruct (H c) as (-> & ->). reflexivity.
Qed.
Lemma assigns_like os : forall t, Forall attribute_only os -> like (snd (assign_run (jit_asif_filter_control g cfg) jit_asif_reset os t)) t.
Proof.
  induction os as [|o os IH]; intros t F; [repeat split|]. inversion F; subst. cbn [assign_run].
  assert (L := assign_like o t H1). destruct (assign_step _ _ o t) as [b t1]. cbn [snd] in L.
  assert (L' := IH t1 H2). destruct (assign_run _ _ os t1) as [bs t2]. cbn [snd] in *.
  destruct L as (A & B & C), L' as (A' & B' & C'). repeat split; congruence.
Qed.

Lemma call_parts x dt u j w j' : enable j = true ->
  jit_asif_filter_control g cfg (InArray x) dt u j = (Ok w, j') ->
  exists v jt, tail x dt u (prep x u j) = (Ok v, jt) /\ j' = set_actual (Some w) (set_actual (Some v) jt).
Proof.
  intros E. unfold jit_asif_filter_control, filter_control, bind at 1, modify at 1. unfold bind at 1, get at 1.
  change (enable (set_desired (Some u) j)) with (enable j). rewrite E.
  unfold cb_compute, base_get_state, jit_asif_filter.
  change (bind (bind (tail x dt u) (fun v => bind (modify (set_actual (Some v))) (fun _ => ret v)))
    (fun v => bind (lift (clip (ac_bounds cfg) v)) (fun w => bind (modify (set_actual (Some w))) (fun _ => ret w)))
    (prep x u j) = (Ok w, j') -> exists v jt, tail x dt u (prep x u j) = (Ok v, jt) /\ j' = set_actual (Some w) (set_actual (Some v) jt)).
  unfold bind at 1 2. destruct (tail x dt u (prep x u j)) as [[v|e] s]; cbn; [|discriminate].
  unfold bind, lift, modify, ret. destruct (clip (ac_bounds cfg) v); [|discriminate].
  intros H. injection H as -> <-. eauto.
Qed.

Lemma fold_again {V C} (f : string * C -> V) (l : dict C) (d : dict V) : distinct_keys l ->
  fold_left (fun d kc => dict_set d (fst kc) (f kc)) l (fold_left (fun d kc => dict_set d (fst kc) (f kc)) l d)
  = fold_left (fun d kc => dict_set d (fst kc) (f kc)) l d.
Proof.
  intros N. apply fold_set_same. intros [k c] I. apply fold_set_in; [exact N|exact I].
Qed.

Lemma traced_after x x' dt u u' j w j' : enable j = true ->
  distinct_keys (cb_constraints (ext j)) -> distinct_keys (as_direct (get_asif j)) ->
  (forall p, sig_barrier g x' p = sig_barrier g x p) -> (forall n p, sig_direct g n x' p = sig_direct g n x p) ->
  jit_asif_filter_control g cfg (InArray x) dt u j = (Ok w, j') -> traced x' dt (prep x' u' j') /\ enable j' = true.
Proof.
  intros E N1 N2 S1 S2 H. destruct (call_parts _ _ _ _ _ _ E H) as (v & jt & T & ->).
  destruct (tail_traces _ _ _ _ _ _ T) as ((c & T1 & T2) & P1 & P2 & _ & P3 & P4 & _ & P5).
  split; [|cbn; rewrite P3; cbn; exact E].
  assert (A : cb_params (ext (prep x' u' (set_actual (Some w) (set_actual (Some v) jt)))) = cb_params (ext jt)).
  { cbn. rewrite P1, P2. apply fold_again. exact N1. }
  assert (B : as_dparams (get_asif (prep x' u' (set_actual (Some w) (set_actual (Some v) jt)))) = as_dparams (get_asif jt)).
  { unfold get_asif in *. cbn in *. rewrite P4, P5. apply (fold_again (fun kc => d_params (snd kc))). exact N2. }
  exists c. unfold key_at. rewrite A, B, S1, S2. split; [exact T1|exact T2].
Qed.

Lemma assigned_ignored x x' dt u u' j w j' os : enable j = true ->
  distinct_keys (cb_constraints (ext j)) -> distinct_keys (as_direct (get_asif j)) ->
  (forall p, sig_barrier g x' p = sig_barrier g x p) -> (forall n p, sig_direct g n x' p = sig_direct g n x p) ->
  jit_asif_filter_control g cfg (InArray x) dt u j = (Ok w, j') -> Forall attribute_only os ->
  fst (jit_asif_filter_control g cfg (InArray x') dt u' (snd (assign_run (jit_asif_filter_control g cfg) jit_asif_reset os j')))
  = fst (jit_asif_filter_control g cfg (InArray x') dt u' j').
Proof.
  intros E N1 N2 S1 S2 H F. destruct (traced_after x x' dt u u' j w j' E N1 N2 S1 S2 H) as (T & E').
  assert (L := assigns_like os j' F). set (t := snd (assign_run _ _ os j')) in *.
  assert (Q := like_prep x' u' t j' L).
  assert (Et : enable t = true) by (destruct L as (U & _); change (enable (unseen t) = true); rewrite U; exact E').
  rewrite !call_tail by assumption. f_equal. rewrite (tail_unseen x' dt u' (prep x' u' j')) by exact T.
  rewrite <- Q. apply tail_unseen. destruct T as (c & T1 & T2). exists c.
  assert (Qp : cb_params (ext (prep x' u' t)) = cb_params (ext (prep x' u' j'))) by exact (f_equal (fun s => cb_params (ext s)) Q).
  assert (Qd : as_dparams (get_asif (prep x' u' t)) = as_dparams (get_asif (prep x' u' j'))) by exact (f_equal (fun s => as_dparams (get_asif s)) Q).
  assert (Qe : as_ext (get_asif (prep x' u' t)) = as_ext (get_asif (prep x' u' j'))) by exact (f_equal (fun s => as_ext (get_asif s)) Q).
  assert (Qa : as_act_rows (get_asif (prep x' u' t)) = as_act_rows (get_asif (prep x' u' j'))) by exact (f_equal (fun s => as_act_rows (get_asif s)) Q).
  unfold key_at in *. rewrite Qp, Qd, Qe, Qa. auto.
Qed.
End Asif.

(** ** Simplex *)
Section Simplex.
Context {X P : Type}.
Variables (sig : list X -> dict P -> nat) (cfg : sx_cfg X).

Definition fresh (j : jit_simplex X P) : Prop :=
  forall k cs, In (k, cs) (compiled j) -> alike cs (cb_constraints (ext j)).
Notation sm := (sim (@plain X P) fresh).
Ltac same := let t := fresh in intros t; destruct t as [? ? ? ? [? ? ? ? ? []]]; reflexivity.

(** Methods that leave the constraints alone. *)
Definition keeps {A} (m : M (simplex X P) A) : Prop := forall s, cb_constraints (ext (snd (m s))) = cb_constraints (ext s).
Lemma keeps_bind {A B} (m : M (simplex X P) A) (k : A -> M (simplex X P) B) :
  keeps m -> (forall a, keeps (k a)) -> keeps (bind m k).
Proof.
  intros H K s. unfold bind. specialize (H s). destruct (m s) as [[a|e] s']; cbn in *; [rewrite K; exact H|exact H].
Qed.
Lemma keeps_ctl {A} (m : M ctl A) : keeps (on_ctl m).
Proof. intros s. unfold on_ctl, zoom. destruct (m _). reflexivity. Qed.
Lemma sim_on_plain {A} (m : M (simplex X P) A) : keeps m -> sm m (on_plain m).
Proof.
  intros K j I. unfold on_plain, zoom. specialize (K (plain j)). destruct (m (plain j)) as [r s]. cbn [fst snd] in *.
  split; [reflexivity|split; [destruct s as [? ? ? ? []]; reflexivity|]].
  intros k cs H. change (alike cs (cb_constraints (ext s))). rewrite K. apply (I k cs H).
Qed.
Lemma sim_violation states : sm (bind get (fun s => lift (constraint_violation (cb_constraints (ext s)) states (cb_params (ext s)) (cb_enabled (ext s)))))
  (jit_violation sig states).
Proof.
  unfold jit_violation. apply sim_get. intros j I.
  set (now := cb_constraints (ext j)).
  set (body := fun cs => constraint_violation cs states (cb_params (ext j)) (cb_enabled (ext j))).
  set (k := sig states (cb_params (ext j))).
  assert (E : fst (jit_call PeanoNat.Nat.eq_dec k now body (compiled j)) = body now).
  { apply jit_call_plain. intros k' cs H. apply alike_violation. apply (I k' cs H). }
  assert (T : forall k' cs, In (k', cs) (snd (jit_call PeanoNat.Nat.eq_dec k now body (compiled j))) -> alike cs now).
  { intros k' cs H. destruct (jit_call_traces _ _ _ _ _ _ _ H) as [H'| ->]; [apply (I k' cs H')|apply alike_refl]. }
  destruct (jit_call PeanoNat.Nat.eq_dec k now body (compiled j)) as [r t]. cbn [fst snd] in *. subst r.
  split; [reflexivity|split; [destruct j as [? ? ? ? [? ? ? ? ? []]]; reflexivity|exact T]].
Qed.
Lemma sim_monitor k x dt u : sm (sx_monitor cfg k x dt u) (jit_monitor sig cfg k x dt u).
Proof.
  destruct k as [|w]; cbn [sx_monitor jit_monitor]; unfold explicit_monitor, implicit_monitor.
  - apply sim_bind; [apply sim_lift|]. intros x'. apply sim_violation.
  - apply sim_bind; [apply sim_on_plain, keeps_ctl|]. intros xs. apply sim_violation.
Qed.
Lemma sim_simplex_filter k x dt u : sm (simplex_filter cfg (sx_monitor cfg k) x dt u) (jit_simplex_filter sig cfg k x dt u).
Proof.
  unfold jit_simplex_filter.
  match goal with |- sim _ _ _ (bind (on_plain ?m) ?k') =>
    assert (E : forall s, simplex_filter cfg (sx_monitor cfg k) x dt u s
      = bind m (fun latched => if (latched : bool) then on_ctl (backup_control (sc_bounds cfg) (sc_gen cfg) x dt)
          else bind (sx_monitor cfg k x dt u) (fun b => bind (modify (set_intervening b)) (fun _ =>
            if (b : bool) then on_ctl (backup_control (sc_bounds cfg) (sc_gen cfg) x dt) else ret u))) s) by reflexivity;
    assert (Kp : keeps m)
  end.
  { intros s. unfold bind, get, modify, ret. destruct (intervening s); [|reflexivity]. destruct (Rleb _ _); reflexivity. }
  intros j I. rewrite E. revert j I. clear E. match goal with |- forall t, _ -> fst (?m' t) = fst (?m _) /\ _ => change (sm m m') end.
  apply sim_bind; [apply sim_on_plain; exact Kp|]. intros [|].
  - apply sim_on_plain, keeps_ctl.
  - apply sim_bind; [apply sim_monitor|]. intros b.
    apply sim_bind; [apply sim_modify; [same|intros t It; exact It]|]. intros _.
    destruct b; [apply sim_on_plain, keeps_ctl|apply sim_ret].
Qed.
Lemma sim_simplex_control k i dt u : sm (simplex_filter_control cfg k i dt u) (jit_simplex_filter_control sig cfg k i dt u).
Proof.
  unfold simplex_filter_control, jit_simplex_filter_control, filter_control.
  apply sim_bind; [apply sim_modify; [same|intros t It; exact It]|]. intros _.
  apply sim_get. intros j I. change (enable (plain j)) with (enable j). destruct (enable j).
  - revert j I. match goal with |- forall t, _ -> fst (?m' t) = fst (?m _) /\ _ => change (sm m m') end.
    unfold cb_compute. apply sim_bind.
    + apply sim_bind; [apply sim_modify; [same|intros t It; exact It]|]. intros _.
      apply sim_bind; [destruct i; [apply sim_ret|apply sim_raise]|]. intros x.
      apply sim_bind; [apply sim_modify; [same|intros t It; exact It]|]. intros _.
      apply sim_bind; [apply sim_simplex_filter|]. intros v.
      apply sim_bind; [apply sim_modify; [same|intros t It; exact It]|]. intros _. apply sim_ret.
    + intros v. apply sim_bind; [apply sim_lift|]. intros w.
      apply sim_bind; [apply sim_modify; [same|intros t It; exact It]|]. intros _. apply sim_ret.
  - revert j I. match goal with |- forall t, _ -> fst (?m' t) = fst (?m _) /\ _ => change (sm m m') end.
    apply sim_bind; [apply sim_modify; [same|intros t It; exact It]|]. intros _. apply sim_ret.
Qed.
Lemma sim_simplex_step k (o : op X P) j : fresh j ->
  let s := cb_step (simplex_filter_control cfg k) simplex_reset o (plain j) in
  let s' := cb_step (jit_simplex_filter_control sig cfg k) jit_simplex_reset o j in
  fst s' = fst s /\ plain (snd s') = snd s /\ fresh (snd s').
Proof.
  intros I. destruct o as [i dt u| |b|i|n p|n b]; cbn [cb_step].
  - destruct (sim_simplex_control k i dt u j I) as (A & B & C).
    destruct (simplex_filter_control cfg k i dt u (plain j)), (jit_simplex_filter_control sig cfg k i dt u j).
    cbn [fst snd] in *. subst. auto.
  - assert (S : sm simplex_reset jit_simplex_reset).
    { apply sim_on_plain. unfold simplex_reset. apply keeps_bind; [intros s; reflexivity|intros _; apply keeps_ctl]. }
    destruct (S j I) as (A & B & C). destruct (simplex_reset (plain j)), (jit_simplex_reset j).
    cbn [fst snd] in *. subst. auto.
  - cbn. split; [reflexivity|split; [destruct j as [? ? ? ? [? ? ? ? ? []]]; reflexivity|exact I]].
  - destruct i; cbn; (split; [reflexivity|split; [destruct j as [? ? ? ? [? ? ? ? ? []]]; reflexivity|exact I]]).
  - cbn [fst snd]. split; [reflexivity|split; [destruct j as [? ? ? ? [? ? ? ? ? []]]; reflexivity|]].
    intros k' cs H. apply alike_map; [|exact (I k' cs H)].
    intros [k'' c]. cbn. destruct (String.eqb n k''); cbn; (split; [reflexivity|]).
    + exists p, (c_enabled c). destruct c; reflexivity.
    + exists (c_params c), (c_enabled c). destruct c; reflexivity.
  - cbn [fst snd]. split; [reflexivity|split; [destruct j as [? ? ? ? [? ? ? ? ? []]]; reflexivity|]].
    intros k' cs H. apply alike_map; [|exact (I k' cs H)].
    intros [k'' c]. cbn. destruct (String.eqb n k''); cbn; (split; [reflexivity|]).
    + exists (c_params c), b. destruct c; reflexivity.
    + exists (c_params c), (c_enabled c). destruct c; reflexivity.
Qed.
Lemma sim_simplex_run k os : forall j, fresh j ->
  let s := cb_run (simplex_filter_control cfg k) simplex_reset os (plain j) in
  let s' := cb_run (jit_simplex_filter_control sig cfg k) jit_simplex_reset os j in
  fst s' = fst s /\ plain (snd s') = snd s.
Proof.
  induction os as [|o os IH]; intros j I; [cbn; auto|]. cbn [cb_run].
  destruct (sim_simplex_step k o j I) as (A & B & C).
  destruct (cb_step (simplex_filter_control cfg k) simplex_reset o (plain j)) as [b s1].
  destruct (cb_step (jit_simplex_filter_control sig cfg k) jit_simplex_reset o j) as [b' j1]. cbn [fst snd] in *. subst b' s1.
  destruct (IH j1 C) as (A' & B').
  destruct (cb_run (simplex_filter_control cfg k) simplex_reset os (plain j1)) as [bs s2].
  destruct (cb_run (jit_simplex_filter_control sig cfg k) jit_simplex_reset os j1) as [bs' j2]. cbn [fst snd] in *. subst. auto.
Qed.
End Simplex.

(** ** Backup controllers without state *)
Section Stateless.
Context {X P : Type}.
Variable cfg : sx_cfg X.
Hypothesis gen_none : forall x dt u c, sc_gen cfg x dt CSNone = GPair u c -> c = CSNone.

Definition no_state (c : ctl) : Prop := c = mkCtl CSNone CSNone CSNone.
Notation cs := (sim (fun c : ctl => c) no_state).
Definition no_cstate (s : simplex X P) : Prop := no_state (sx_ctl (get_sx s)).
Notation ss := (sim (fun s : simplex X P => s) no_cstate).

Lemma sim_backup x dt : cs (backup_control (sc_bounds cfg) (sc_gen cfg) x dt)
  (backup_control (sc_bounds (jit_controller cfg)) (sc_gen (jit_controller cfg)) x dt).
Proof.
  unfold backup_control. apply sim_bind; [|intros u; apply sim_lift].
  unfold generate_control. apply sim_get. intros c ->. cbn [jit_controller sc_gen jit_gen ctl_state].
  destruct (sc_gen cfg x dt CSNone) as [u c| |e] eqn:G; cbn; repeat split; try reflexivity.
  rewrite (gen_none x dt u c G). reflexivity.
Qed.
Lemma sim_save : cs ctl_save ctl_save.
Proof. intros c ->. cbn. repeat split. Qed.
Lemma sim_restore : cs ctl_restore ctl_restore.
Proof. intros c ->. cbn. repeat split. Qed.
Lemma sim_loop dt n : forall x, cs (backup_loop cfg dt n x) (backup_loop (jit_controller cfg) dt n x).
Proof.
  induction n as [|n IH]; intros x; cbn [backup_loop]; [apply sim_ret|].
  apply sim_bind; [apply sim_backup|]. intros u. apply sim_bind; [apply sim_lift|]. intros x'.
  apply sim_bind; [apply IH|]. intros xs. apply sim_ret.
Qed.
Lemma sim_integrate w x dt u : cs (simplex_integrate cfg w x dt u) (simplex_integrate (jit_controller cfg) w x dt u).
Proof.
  unfold simplex_integrate. apply sim_bind; [apply sim_lift|]. intros q. apply sim_bind; [apply sim_lift|]. intros x1.
  apply sim_bind; [apply sim_save|]. intros _. apply sim_bind; [apply sim_loop|]. intros xs.
  apply sim_bind; [apply sim_restore|]. intros _. apply sim_ret.
Qed.
Lemma sim_on_ctl {A} (m m' : M ctl A) : cs m m' -> ss (on_ctl m) (on_ctl m').
Proof.
  intros H s I. unfold on_ctl, zoom. destruct (H _ I) as (A1 & A2 & A3).
  destruct (m _), (m' _). cbn in *. subst. repeat split. exact A3.
Qed.
Lemma sim_jc_monitor k x dt u : ss (sx_monitor cfg k x dt u) (sx_monitor (jit_controller cfg) k x dt u).
Proof.
  destruct k as [|w]; cbn [sx_monitor]; unfold explicit_monitor, implicit_monitor.
  - intros s I. split; [reflexivity|split; [reflexivity|]]. cbn [jit_controller sc_pred].
    unfold bind, lift, get. destruct (sc_pred cfg x dt u); exact I.
  - apply sim_bind; [apply sim_on_ctl, sim_integrate|]. intros xs. apply sim_get. intros s I. repeat split. exact I.
Qed.
Lemma sim_jc_filter k x dt u : ss (simplex_filter cfg (sx_monitor cfg k) x dt u)
  (simplex_filter (jit_controller cfg) (sx_monitor (jit_controller cfg) k) x dt u).
Proof.
  unfold simplex_filter. apply sim_read. intros s I. cbn [jit_controller sc_latch].
  apply sim_bind.
  { destruct (intervening s); [|apply sim_ret]. destruct (Rleb _ _);
      (apply sim_bind; [apply sim_modify; [reflexivity|intros t It; exact It]|intros _; apply sim_ret]). }
  intros [|]; [apply sim_on_ctl, sim_backup|].
  apply sim_bind; [apply sim_jc_monitor|]. intros b. apply sim_bind; [apply sim_modify; [reflexivity|intros t It; exact It]|].
  intros _. destruct b; [apply sim_on_ctl, sim_backup|apply sim_ret].
Qed.
Lemma sim_jc_control k i dt u : ss (simplex_filter_control cfg k i dt u) (simplex_filter_control (jit_controller cfg) k i dt u).
Proof.
  unfold simplex_filter_control, filter_control. cbn [jit_controller sc_bounds].
  apply sim_bind; [apply sim_modify; [reflexivity|intros t It; exact It]|]. intros _.
  apply sim_read. intros s I. destruct (enable s).
  - unfold cb_compute. apply sim_bind.
    + apply sim_bind; [apply sim_modify; [reflexivity|intros t It; exact It]|]. intros _.
      apply sim_bind; [destruct i; [apply sim_ret|apply sim_raise]|]. intros x.
      apply sim_bind; [apply sim_modify; [reflexivity|intros t It; exact It]|]. intros _.
      apply sim_bind; [apply sim_jc_filter|]. intros v.
      apply sim_bind; [apply sim_modify; [reflexivity|intros t It; exact It]|]. intros _. apply sim_ret.
    + intros v. apply sim_bind; [apply sim_lift|]. intros w.
      apply sim_bind; [apply sim_modify; [reflexivity|intros t It; exact It]|]. intros _. apply sim_ret.
  - apply sim_bind; [apply sim_modify; [reflexivity|intros t It; exact It]|]. intros _. apply sim_ret.
Qed.
Lemma sim_jc_step k (o : op X P) s : no_cstate s ->
  cb_step (simplex_filter_control (jit_controller cfg) k) simplex_reset o s
  = cb_step (simplex_filter_control cfg k) simplex_reset o s /\
  no_cstate (snd (cb_step (simplex_filter_control cfg k) simplex_reset o s)).
Proof.
  intros I. destruct o as [i dt u| |b|i|n p|n b]; cbn [cb_step].
  - destruct (sim_jc_control k i dt u s I) as (A & B & C).
    destruct (simplex_filter_control cfg k i dt u s), (simplex_filter_control (jit_controller cfg) k i dt u s).
    cbn [fst snd] in *. subst. auto.
  - split; [reflexivity|]. unfold no_cstate, no_state in *. unfold simplex_reset, on_ctl, zoom, bind, modify.
    destruct s as [? ? ? ? [? ? ? ? ? [e c]]]. unfold get_sx in *. cbn in *. subst c. reflexivity.
  - split; [reflexivity|exact I].
  - split; [reflexivity|]. destruct i; exact I.
  - split; [reflexivity|exact I].
  - split; [reflexivity|exact I].
Qed.
Lemma sim_jc_run k os : forall s : simplex X P, no_cstate s ->
  cb_run (simplex_filter_control (jit_controller cfg) k) simplex_reset os s
  = cb_run (simplex_filter_control cfg k) simplex_reset os s.
Proof.
  induction os as [|o os IH]; intros s I; [reflexivity|]. cbn [cb_run].
  destruct (sim_jc_step k o s I) as (A & B). rewrite A.
  destruct (cb_step (simplex_filter_control cfg k) simplex_reset o s) as [b s1]. rewrite (IH s1 B). reflexivity.
Qed.
End Stateless.

(** ** Backup controllers with state *)
Section Stateful.
Context {X P : Type}.
Variable cfg : sx_cfg X.

Lemma jc_backup_raises x dt c : ctl_state c <> CSNone ->
  backup_control (sc_bounds (jit_controller cfg)) (sc_gen (jit_controller cfg)) x dt c = (Err (ValueError msg_static), c).
Proof.
  intros N. unfold backup_control, generate_control, bind, get. cbn [jit_controller sc_gen jit_gen].
  destruct (ctl_state c); [congruence|reflexivity..].
Qed.
Lemma jc_backup_ctl x dt (s : simplex X P) : ctl_state (sx_ctl (get_sx s)) <> CSNone ->
  fst (on_ctl (backup_control (sc_bounds (jit_controller cfg)) (sc_gen (jit_controller cfg)) x dt) s) = Err (ValueError msg_static).
Proof. intros N. unfold on_ctl, zoom. rewrite jc_backup_raises by exact N. reflexivity. Qed.

(** The latch of a call, and the rest of it. *)
Definition latch_part (dt : R) (s : simplex X P) : bool * simplex X P :=
  if intervening s then
    if Rleb (sc_latch cfg) (sx_elapsed (get_sx s)) then (false, put_sx (set_elapsed 0 (get_sx s)) s)
    else (true, put_sx (set_elapsed (sx_elapsed (get_sx s) + dt) (get_sx s)) s)
  else (false, s).
Lemma latch_ctl dt s : sx_ctl (get_sx (snd (latch_part dt s))) = sx_ctl (get_sx s).
Proof. unfold latch_part. destruct (intervening s); [|reflexivity]. destruct (Rleb _ _); reflexivity. Qed.
Lemma filter_parts (cfg' : sx_cfg X) k x dt u s : sc_latch cfg' = sc_latch cfg ->
  simplex_filter cfg' (sx_monitor cfg' k) x dt u s =
  (if fst (latch_part dt s) then on_ctl (backup_control (sc_bounds cfg') (sc_gen cfg') x dt) (snd (latch_part dt s))
   else bind (sx_monitor cfg' k x dt u) (fun b => bind (modify (set_intervening b)) (fun _ =>
     if (b : bool) then on_ctl (backup_control (sc_bounds cfg') (sc_gen cfg') x dt) else ret u)) (snd (latch_part dt s))).
Proof.
  intros E. unfold simplex_filter, latch_part. unfold bind at 1, get. rewrite E.
  destruct (intervening s); [|reflexivity]. destruct (Rleb _ _); reflexivity.
Qed.

(** The control an un-compiled backup controller would have been asked for. *)
Lemma explicit_raises x dt u (s : simplex X P) v s' : ctl_state (sx_ctl (get_sx s)) <> CSNone ->
  simplex_filter cfg (sx_monitor cfg Explicit) x dt u s = (Ok v, s') -> intervening s' = true ->
  fst (simplex_filter (jit_controller cfg) (sx_monitor (jit_controller cfg) Explicit) x dt u s) = Err (ValueError msg_static).
Proof.
  intros N H I. rewrite (filter_parts cfg) in H by reflexivity. rewrite (filter_parts (jit_controller cfg)) by reflexivity.
  rewrite <- (latch_ctl dt s) in N. destruct (latch_part dt s) as [b t]. cbn [fst snd] in *.
  destruct b; [apply jc_backup_ctl; exact N|].
  revert H. unfold sx_monitor, explicit_monitor, bind, lift, get, modify, ret. cbn [jit_controller sc_pred].
  destruct (sc_pred cfg x dt u) as [x'|]; [|discriminate].
  destruct (constraint_violation _ _ _ _) as [[|]|]; [|intros H; injection H as _ <-; discriminate|discriminate].
  intros _. apply jc_backup_ctl. exact N.
Qed.
Lemma loop_raises dt n x c : ctl_state c <> CSNone ->
  fst (backup_loop (jit_controller cfg) dt (S n) x c) = Err (ValueError msg_static).
Proof. intros N. cbn [backup_loop]. unfold bind at 1. rewrite jc_backup_raises by exact N. reflexivity. Qed.
Lemma implicit_raises w n x dt u (s : simplex X P) v s' : ctl_state (sx_ctl (get_sx s)) <> CSNone -> window_steps w dt (S n) ->
  simplex_filter cfg (sx_monitor cfg (Implicit w)) x dt u s = (Ok v, s') ->
  fst (simplex_filter (jit_controller cfg) (sx_monitor (jit_controller cfg) (Implicit w)) x dt u s) = Err (ValueError msg_static).
Proof.
  intros N W H. rewrite (filter_parts cfg) in H by reflexivity. rewrite (filter_parts (jit_controller cfg)) by reflexivity.
  rewrite <- (latch_ctl dt s) in N. destruct (latch_part dt s) as [b t]. cbn [fst snd] in *.
  destruct b; [apply jc_backup_ctl; exact N|].
  assert (R : fst (on_ctl (simplex_integrate (jit_controller cfg) w x dt u) t) = Err (ValueError msg_static)).
  { revert H. unfold sx_monitor, implicit_monitor. unfold bind at 1 2, on_ctl, zoom, simplex_integrate.
    unfold bind at 1, lift at 1. destruct (py_div w dt) as [q|] eqn:Q; [|discriminate].
    unfold bind at 1, lift at 1. cbn [jit_controller sc_pred]. destruct (sc_pred cfg x dt u) as [x1|] eqn:Px; [|discriminate].
    unfold bind at 1. destruct (ctl_save (sx_ctl (get_sx t))) as [[[]|] c1] eqn:Sv; [|discriminate]. intros _.
    unfold bind at 1, lift at 1. unfold bind at 1, lift at 1. unfold bind at 1. rewrite Sv.
    assert (N1 : ctl_state c1 <> CSNone).
    { revert Sv. unfold ctl_save, bind, get, lift, modify. destruct (copy_controller_state _); [|discriminate].
      intros E. injection E as <-. exact N. }
    unfold py_div in Q. destruct (Req_EM_T dt 0); [discriminate|]. injection Q as <-.
    rewrite (window_steps_int w dt (S n) W). unfold bind at 1.
    assert (LR := loop_raises dt n x1 c1 N1). destruct (backup_loop _ _ _ _ _) as [r c2]. cbn in LR. subst r. reflexivity. }
  unfold sx_monitor, implicit_monitor. unfold bind at 1 2.
  destruct (on_ctl _ t) as [r t']. cbn in R. subst r. reflexivity.
Qed.
End Stateful.
