(** Lemmas about the compiled discrete module: it does what the plain one does on the settings in
    force. *)
From Coq Require Import String Reals List Bool ZArith Lia Lra.
From Verif Require Import Prelude Vec ModelBase ModelController ModelSimplex ModelAsif ModelDiscrete ModelJit ModelDiscJit
  SpecCore SpecHistory SpecDiscrete SpecDiscJit ProofsBase ProofsSimplex ProofsSim ProofsJit.
Import ListNotations.
Local Open Scope R_scope.

Section DiscJit.
Context {X P : Type}.
Variables (je : bool) (sig : X -> R -> P -> nat) (cfg : disc_cfg X).
Notation tr := (cbf_traces X P).

(** The settings the function of a constraint uses: those captured, or the present ones. *)
Definition in_force (m sg : nat) (c : constraint X P) (t : tr) : constraint X P :=
  match trace_of cbf_key_dec (m, sg) t with Some c' => c' | None => c end.
(** What the function reads of a constraint. *)
Definition reads_same (c d : constraint X P) : Prop :=
  c_fun c = c_fun d /\ c_alpha c = c_alpha d /\ c_bias c = c_bias d.

Lemma cbf_same c d i x dt p : reads_same c d -> cbf_fn cfg c i x dt p = cbf_fn cfg d i x dt p.
Proof.
  intros (A & B & C). unfold cbf_fn, c_alpha_at, c_compute. rewrite A, B, C. reflexivity.
Qed.

Lemma call_trace k (c : constraint X P) (body : constraint X P -> res R) (t : tr) k' :
  trace_of cbf_key_dec k' (snd (jit_call cbf_key_dec k c body t)) = trace_of cbf_key_dec k' t \/
  (k' = k /\ trace_of cbf_key_dec k t = None /\ trace_of cbf_key_dec k' (snd (jit_call cbf_key_dec k c body t)) = Some c).
Proof.
  unfold jit_call. destruct (trace_of cbf_key_dec k t) eqn:E; [auto|]. destruct (body c); cbn; [|auto].
  destruct (cbf_key_dec k' k) as [->|]; auto.
Qed.

(** The traces after a call: nothing is lost, and a new trace holds the constraint's present
    settings. *)
Lemma cbfs_traces x dt z : forall cs idx ps es n go t k,
  let t' := snd (compiled_cbfs je sig cfg n go cs idx ps es x dt z t) in
  trace_of cbf_key_dec k t' = trace_of cbf_key_dec k t \/
  exists i c, fst k = (n + i)%nat /\ nth_error cs i = Some c /\ trace_of cbf_key_dec k t = None /\
    trace_of cbf_key_dec k t' = Some c.
Proof.
  induction cs as [|c cs IH]; intros idx ps es n go t k; cbn [compiled_cbfs]; [left; reflexivity|].
  destruct idx as [|i idx]; [left; reflexivity|]. destruct ps as [|p ps]; [left; reflexivity|].
  destruct es as [|[|] es]; [left; reflexivity|..].
  - cbv zeta. destruct (call_trace (n, sig x dt p) c (fun c => cbf_fn cfg c i x dt p z) t k) as [H|(Hk & H0 & H1)];
      destruct (jit_call cbf_key_dec (n, sig x dt p) c (fun c => cbf_fn cfg c i x dt p z) t) as [r t1]; cbn [snd] in *;
      change (cbf_compiled je) with true; rewrite andb_true_r;
      specialize (IH idx ps es (S n) (go && match r with Ok _ => true | Err _ => false end) (if go then t1 else t) k);
      destruct (compiled_cbfs je sig cfg (S n) _ cs idx ps es x dt z (if go then t1 else t)) as [fs t2]; cbn [snd] in *.
    + assert (G : trace_of cbf_key_dec k (if go then t1 else t) = trace_of cbf_key_dec k t) by (destruct go; auto).
      destruct IH as [I|(m & d & A & B & C & D)]; [left; exact (eq_trans I G)|].
      right. exists (S m), d. rewrite A. split; [lia|]. split; [exact B|]. split; [exact (eq_trans (eq_sym G) C)|exact D].
    + subst k. destruct go.
      * destruct IH as [I|(m & d & A & _)]; [|cbn in A; lia].
        right. exists 0%nat, c. cbn. split; [lia|]. split; [reflexivity|]. split; [exact H0|exact (eq_trans I H1)].
      * destruct IH as [I|(m & d & A & _)]; [left; exact I|cbn in A; lia].
  - specialize (IH idx ps es (S n) go t k). cbv zeta in IH.
    destruct IH as [I|(m & d & A & B & C & D)]; [left; exact I|].
    right. exists (S m), d. rewrite A. split; [lia|]. auto.
Qed.
Lemma cbfs_force x dt z cs idx ps es t m sg c : nth_error cs m = Some c ->
  in_force m sg c (snd (compiled_cbfs je sig cfg 0 true cs idx ps es x dt z t)) = in_force m sg c t.
Proof.
  intros N. unfold in_force. destruct (cbfs_traces x dt z cs idx ps es 0 true t (m, sg)) as [-> |(i & d & A & B & C & D)];
    [reflexivity|]. cbn in A. subst i. rewrite D, C. congruence.
Qed.

(** The functions handed to the solver are those of a plain module with the settings in force. *)
Lemma cbfs_fns x dt z : forall cs cs' idx ps es n go t, length cs = length cs' ->
  (forall i c d p, nth_error cs i = Some c -> nth_error cs' i = Some d ->
     reads_same (in_force (n + i) (sig x dt p) c t) d) ->
  fst (compiled_cbfs je sig cfg n go cs idx ps es x dt z t) = enabled_cbfs cfg cs' idx ps es x dt.
Proof.
  induction cs as [|c cs IH]; intros [|d cs'] idx ps es n go t L H; try discriminate; cbn [compiled_cbfs enabled_cbfs]; [reflexivity|].
  injection L as L. destruct idx as [|i idx]; [reflexivity|]. destruct ps as [|p ps]; [reflexivity|].
  destruct es as [|[|] es]; [reflexivity|..].
  - cbv zeta. assert (H0 := H 0%nat c d p eq_refl eq_refl). rewrite Nat.add_0_r in H0.
    destruct (jit_call cbf_key_dec (n, sig x dt p) c (fun c => cbf_fn cfg c i x dt p z) t) as [r t1] eqn:J.
    change (cbf_compiled je) with true. rewrite andb_true_r.
    match goal with |- context [compiled_cbfs je sig cfg (S n) ?g0 cs idx ps es x dt z ?t0] =>
      set (call := compiled_cbfs je sig cfg (S n) g0 cs idx ps es x dt z t0) end.
    assert (E : fst call = enabled_cbfs cfg cs' idx ps es x dt).
    { unfold call. apply IH; [exact L|]. intros m c' d' q Hc Hd. specialize (H (S m) c' d' q Hc Hd).
      replace (S n + m)%nat with (n + S m)%nat by lia. unfold in_force in *.
      destruct go; [|exact H].
      assert (Q := call_trace (n, sig x dt p) c (fun c => cbf_fn cfg c i x dt p z) t (n + S m, sig x dt q)%nat).
      rewrite J in Q. cbn [snd] in Q. destruct Q as [G|(G & _)].
      - refine (eq_ind_r (fun o => reads_same (match o with Some c0 => c0 | None => c' end) d') H G).
      - injection G as G _. lia. }
    destruct call as [fs t3]. cbn [fst] in *. subst fs.
    exact (f_equal (fun h => h :: enabled_cbfs cfg cs' idx ps es x dt) (cbf_same (in_force n (sig x dt p) c t) d i x dt p H0)).
  - apply IH; [exact L|]. intros m c' d' q Hc Hd. specialize (H (S m) c' d' q Hc Hd).
    replace (S n + m)%nat with (n + S m)%nat by lia. exact H.
Qed.

(** Every enabled constraint with a strengthening function is compiled by a call. *)
Lemma cbfs_all x dt z sg : (forall p, sig x dt p = sg) -> forall cs idx ps es n t,
  length idx = length cs -> length ps = length cs -> length es = length cs ->
  Forall (fun e => e = true) es -> Forall (fun c => c_alpha c <> None) cs ->
  (forall m c, nth_error cs m = Some c -> trace_of cbf_key_dec (n + m, sg)%nat t = None) ->
  forall m c, nth_error cs m = Some c ->
  trace_of cbf_key_dec (n + m, sg)%nat (snd (compiled_cbfs je sig cfg n true cs idx ps es x dt z t)) = Some c.
Proof.
  intros S0. induction cs as [|c cs IH]; intros idx ps es n t Li Lp Le Fe Fa N m d Hd; [destruct m; discriminate|].
  destruct idx as [|i idx]; [discriminate|]. destruct ps as [|p ps]; [discriminate|]. destruct es as [|e es]; [discriminate|].
  injection Li as Li. injection Lp as Lp. injection Le as Le. inversion Fe as [|? ? He Fe']; subst. inversion Fa as [|? ? Ha Fa']; subst.
  cbn [compiled_cbfs]. cbv zeta. rewrite S0.
  assert (N0 := N 0%nat c eq_refl). rewrite Nat.add_0_r in N0.
  unfold jit_call at 1. rewrite N0.
  assert (B : exists v, cbf_fn cfg c i x dt p z = Ok v).
  { unfold cbf_fn, c_alpha_at. destruct (c_alpha c); [|congruence]. eexists. reflexivity. }
  destruct B as (v & B). rewrite B. change (cbf_compiled je) with true. cbn [andb].
  set (t1 := ((n, sg), c) :: t). specialize (IH idx ps es (S n) t1 Li Lp Le Fe' Fa').
  assert (NN : forall m0 c0, nth_error cs m0 = Some c0 -> trace_of cbf_key_dec (S n + m0, sg)%nat t1 = None).
  { intros m' c' H'. unfold t1. cbn [trace_of].
    destruct (cbf_key_dec (S n + m', sg)%nat (n, sg)) as [E|_]; [injection E; intros; lia|].
    replace (S n + m')%nat with (n + S m')%nat by lia. apply (N (S m') c'). exact H'. }
  specialize (IH NN).
  destruct m as [|m].
  - injection Hd as <-. rewrite Nat.add_0_r.
    destruct (cbfs_traces x dt z cs idx ps es (S n) true t1 (n, sg)) as [E|(m' & d' & A & _)]; [|cbn in A; lia].
    destruct (compiled_cbfs je sig cfg (S n) true cs idx ps es x dt z t1) as [fs t3]. cbn [snd] in *. rewrite E.
    unfold t1. cbn [trace_of]. destruct (cbf_key_dec (n, sg) (n, sg)); [reflexivity|congruence].
  - cbn [nth_error] in Hd. specialize (IH m d Hd). replace (n + S m)%nat with (S n + m)%nat by lia.
    destruct (compiled_cbfs je sig cfg (S n) true cs idx ps es x dt z t1) as [fs t3]. exact IH.
Qed.

(** ** A compiled module beside a plain one *)
Definition cinfo (kc : string * constraint X P) := (fst kc, c_params (snd kc), c_enabled (snd kc)).
Variables (V : Prop) (Sg : nat -> Prop) (T : nat * nat -> Prop) (N : nat).
Record beside (j : jdisc X P) (s : dmod X P) : Prop := {
  bs_rta : rta_info j = rta_info s;
  bs_params : cb_params (ext j) = cb_params (ext s);
  bs_enabled : cb_enabled (ext j) = cb_enabled (ext s);
  bs_disc : disc_of j = cb_ext (ext s);
  bs_info : map cinfo (cb_constraints (ext j)) = map cinfo (cb_constraints (ext s));
  bs_force : forall m sg c d, Sg sg -> nth_error (map snd (cb_constraints (ext j))) m = Some c ->
    nth_error (map snd (cb_constraints (ext s))) m = Some d -> reads_same (in_force m sg c (cbfs_of j)) d;
  bs_len : length (cb_constraints (ext j)) = N;
  bs_traced : forall k, T k -> trace_of cbf_key_dec k (cbfs_of j) <> None;
  bs_all : V -> cb_constraints (ext j) = cb_constraints (ext s) /\ cb_values (ext j) = cb_values (ext s) /\
    cb_stale (ext j) = cb_stale (ext s) }.

Definition pair_sim {A} (m' : M (jdisc X P) A) (m : M (dmod X P) A) : Prop :=
  forall j s, beside j s -> fst (m' j) = fst (m s) /\ beside (snd (m' j)) (snd (m s)).

Lemma ps_bind {A B} (m' : M (jdisc X P) A) m (k' : A -> M (jdisc X P) B) k :
  pair_sim m' m -> (forall a, pair_sim (k' a) (k a)) -> pair_sim (bind m' k') (bind m k).
Proof.
  intros H K j s I. destruct (H j s I) as (E & I'). unfold bind. destruct (m' j) as [r j'], (m s) as [r' s']. cbn in *. subst r'.
  destruct r as [a|e]; [apply K; exact I'|auto].
Qed.
Lemma ps_ret {A} (a : A) : pair_sim (ret a) (ret a).
Proof. intros j s I. cbn. auto. Qed.
Lemma ps_raise {A} e : pair_sim (@raise _ A e) (raise e).
Proof. intros j s I. cbn. auto. Qed.
Lemma ps_lift {A} (r : res A) : pair_sim (lift r) (lift r).
Proof. intros j s I. cbn. auto. Qed.
Lemma ps_modify (g' : jdisc X P -> jdisc X P) g :
  (forall j s, beside j s -> beside (g' j) (g s)) -> pair_sim (modify g') (modify g).
Proof. intros H j s I. cbn. auto. Qed.

(** Methods that change the attributes of every module in the same way. *)
Lemma b_desired v j s : beside j s -> beside (set_desired v j) (set_desired v s).
Proof. intros [A B C D E F Len Tr G]. unfold rta_info in A. injection A as A1 A2 A3 A4. split; auto. unfold rta_info. cbn. rewrite A1, A2, A4. reflexivity. Qed.
Lemma b_actual v j s : beside j s -> beside (set_actual v j) (set_actual v s).
Proof. intros [A B C D E F Len Tr G]. unfold rta_info in A. injection A as A1 A2 A3 A4. split; auto. unfold rta_info. cbn. rewrite A1, A2, A3. reflexivity. Qed.
Lemma b_intervening v j s : beside j s -> beside (set_intervening v j) (set_intervening v s).
Proof. intros [A B C D E F Len Tr G]. unfold rta_info in A. injection A as A1 A2 A3 A4. split; auto. unfold rta_info. cbn. rewrite A1, A3, A4. reflexivity. Qed.
Lemma b_enable v j s : beside j s -> beside (set_enable v j) (set_enable v s).
Proof. intros [A B C D E F Len Tr G]. unfold rta_info in A. injection A as A1 A2 A3 A4. split; auto. unfold rta_info. cbn. rewrite A2, A3, A4. reflexivity. Qed.
Lemma b_reset j s : beside j s -> beside (rta_reset (fun y => y) j) (rta_reset (fun y => y) s).
Proof. intros [A B C D E F Len Tr G]. unfold rta_info in A. injection A as A1 A2 A3 A4. split; auto. Qed.
Lemma b_values x st j s : beside j s ->
  beside (on_ext (update_constraint_values_at x st) j) (on_ext (update_constraint_values_at x st) s).
Proof.
  intros [A B C D E F Len Tr G]. split; auto. intros v. destruct (G v) as (G1 & G2 & G3). cbn. rewrite G1. auto.
Qed.
Lemma b_update j s : beside j s -> beside (on_ext update_params j) (on_ext update_params s).
Proof.
  intros [A B C D E F Len Tr G]. split; auto; cbn.
  - rewrite B. exact (fold_info cinfo (fun i => fst (fst i)) (fun i => snd (fst i)) _ _ _ E).
  - rewrite C. exact (fold_info cinfo (fun i => fst (fst i)) (fun i => snd i) _ _ _ E).
Qed.

Lemma ps_get {A} (k' : jdisc X P -> M (jdisc X P) A) k :
  (forall j s, beside j s -> fst (k' j j) = fst (k s s) /\ beside (snd (k' j j)) (snd (k s s))) ->
  pair_sim (bind get k') (bind get k).
Proof. intros H j s I. exact (H j s I). Qed.

Definition rest (desired : vec) (r : bool * vec) : M (jdisc X P) vec :=
  bind (if fst r then ret tt else if dc_exc cfg then raise SolverError
        else modify (on_ext (fun w => set_cb_ext (disc_warn (fst (cb_ext w)), snd (cb_ext w)) w))) (fun _ =>
  bind (lift (opt_monitor (dc_eps cfg) (firstn (dc_dim cfg) desired) (firstn (dc_dim cfg) (snd r)))) (fun b =>
  bind (modify (set_intervening b)) (fun _ => ret (firstn (dc_dim cfg) (snd r))))).
Definition rest' (desired : vec) (r : bool * vec) : M (dmod X P) vec :=
  bind (if fst r then ret tt else if dc_exc cfg then raise SolverError
        else modify (on_ext (fun w => set_cb_ext (disc_warn (cb_ext w)) w))) (fun _ =>
  bind (lift (opt_monitor (dc_eps cfg) (firstn (dc_dim cfg) desired) (firstn (dc_dim cfg) (snd r)))) (fun b =>
  bind (modify (set_intervening b)) (fun _ => ret (firstn (dc_dim cfg) (snd r))))).
Lemma ps_rest desired r : pair_sim (rest desired r) (rest' desired r).
Proof.
  apply ps_bind.
  { destruct (fst r); [apply ps_ret|]. destruct (dc_exc cfg); [apply ps_raise|]. apply ps_modify.
    intros j' s' [A B C D E F Len Tr G]. split; auto. unfold disc_of in *. cbn in *. rewrite D. reflexivity. }
  intros _. apply ps_bind; [apply ps_lift|]. intros b. apply ps_bind; [apply ps_modify, b_intervening|]. intros _. apply ps_ret.
Qed.

(** The compiled functions and versions of a call. *)
Definition fns_of (x : X) (dt : R) (u : vec) (j : jdisc X P) :=
  compiled_cbfs je sig cfg 0 true (map snd (cb_constraints (ext j))) (ds_slack_idx (disc_of j))
    (map snd (cb_params (ext j))) (map snd (cb_enabled (ext j))) x dt (u ++ zeros (ds_num_slack (disc_of j))) (cbfs_of j).
Definition compile (t : tr) (j : jdisc X P) : jdisc X P := on_ext (fun w => set_cb_ext (fst (cb_ext w), t) w) j.
Lemma filter_eq x dt u j :
  jdisc_filter je sig cfg x dt u j
  = bind (lift (scipy_bounds (ds_opt_bounds (disc_of j)))) (fun bnds =>
      bind (modify (compile (snd (fns_of x dt u j)))) (fun _ =>
      bind (lift (dc_solve cfg (disc_obj (ds_weight (disc_of j)) (u ++ zeros (ds_num_slack (disc_of j))))
                    (u ++ zeros (ds_num_slack (disc_of j))) (fst (fns_of x dt u j)) bnds))
        (rest (u ++ zeros (ds_num_slack (disc_of j)))))) j.
Proof.
  unfold jdisc_filter, fns_of. unfold bind at 1, get. cbv zeta. unfold bind at 1, lift at 1. unfold bind at 5. unfold lift at 3.
  destruct (scipy_bounds _); [|reflexivity].
  destruct (compiled_cbfs _ _ _ _ _ _ _ _ _ _ _ _ _) as [fs t]. reflexivity.
Qed.
Lemma filter_eq' x dt u (s : dmod X P) :
  disc_filter cfg x dt u s
  = bind (lift (scipy_bounds (ds_opt_bounds (cb_ext (ext s))))) (fun bnds =>
      bind (lift (dc_solve cfg (disc_obj (ds_weight (cb_ext (ext s))) (u ++ zeros (ds_num_slack (cb_ext (ext s)))))
                    (u ++ zeros (ds_num_slack (cb_ext (ext s))))
                    (enabled_cbfs cfg (map snd (cb_constraints (ext s))) (ds_slack_idx (cb_ext (ext s)))
                       (map snd (cb_params (ext s))) (map snd (cb_enabled (ext s))) x dt) bnds))
        (rest' (u ++ zeros (ds_num_slack (cb_ext (ext s)))))) s.
Proof. reflexivity. Qed.

Lemma b_compile x dt u j s : beside j s -> beside (compile (snd (fns_of x dt u j)) j) s.
Proof.
  intros [A B C D E F Len Tr G]. split; auto.
  - intros m sg c d Hs Hc Hd.
    change (reads_same (in_force m sg c (snd (fns_of x dt u j))) d). unfold fns_of. rewrite cbfs_force by exact Hc.
    apply (F m sg c d); auto.
  - intros k Hk. change (trace_of cbf_key_dec k (snd (fns_of x dt u j)) <> None). unfold fns_of.
    destruct (cbfs_traces x dt (u ++ zeros (ds_num_slack (disc_of j))) (map snd (cb_constraints (ext j))) (ds_slack_idx (disc_of j))
      (map snd (cb_params (ext j))) (map snd (cb_enabled (ext j))) 0 true (cbfs_of j) k) as [Q|(i & c & _ & _ & _ & Q)];
      intros Z; [exact (Tr k Hk (eq_trans (eq_sym Q) Z))|refine (_ (eq_trans (eq_sym Q) Z)); discriminate].
Qed.
Lemma fns_same x dt u j s : (forall p, Sg (sig x dt p)) -> beside j s ->
  fst (fns_of x dt u j) = enabled_cbfs cfg (map snd (cb_constraints (ext s))) (ds_slack_idx (cb_ext (ext s)))
                       (map snd (cb_params (ext s))) (map snd (cb_enabled (ext s))) x dt.
Proof.
  intros HS [A B C D E F Len Tr G]. unfold fns_of. rewrite D, B, C. apply cbfs_fns.
  - rewrite !map_length. rewrite <- (map_length cinfo), E, map_length. reflexivity.
  - intros m c d p Hc Hd. exact (F m (sig x dt p) c d (HS p) Hc Hd).
Qed.
Lemma ps_filter x dt u : (forall p, Sg (sig x dt p)) ->
  pair_sim (jdisc_filter je sig cfg x dt u) (disc_filter cfg x dt u).
Proof.
  intros HS j s I. rewrite filter_eq, filter_eq'. rewrite (fns_same x dt u j s HS I). rewrite (bs_disc _ _ I).
  match goal with |- fst (?m' _) = fst (?m _) /\ _ => assert (S : fst (m' j) = fst (m s) /\ beside (snd (m' j)) (snd (m s))); [|exact S] end.
  unfold bind at 1, lift at 1. unfold bind at 3, lift at 2. unfold bind at 4, lift at 3. unfold bind at 6, lift at 4.
  destruct (scipy_bounds _) as [bnds|e]; [|cbn; auto].
  unfold bind at 1, modify at 1.
  match goal with |- fst (?m' _) = fst (?m _) /\ _ => assert (S : pair_sim m' m); [|exact (S _ _ (b_compile x dt u j s I))] end.
  apply ps_bind; [apply ps_lift|]. intros r. apply ps_rest.
Qed.

Lemma ps_compute x dt u : (forall p, Sg (sig x dt p)) ->
  pair_sim (cb_compute base_get_state (jdisc_filter je sig cfg) (InArray x) dt u)
    (cb_compute base_get_state (disc_filter cfg) (InArray x) dt u).
Proof.
  intros HS. unfold cb_compute. apply ps_bind; [apply ps_modify, b_update|]. intros _.
  change (base_get_state (InArray x)) with (@ret (jdisc X P) X x) at 1.
  change (base_get_state (InArray x)) with (@ret (dmod X P) X x) at 1.
  intros j s I.
  change (bind (ret x) ?k ?j) with (k x j).
  match goal with |- fst (?m' _) = fst (?m _) /\ _ => assert (S : pair_sim m' m); [|exact (S _ _ I)] end.
  apply ps_bind; [apply ps_modify; intros; apply b_values; assumption|]. intros _.
  apply ps_bind; [apply ps_filter; exact HS|]. intros v. apply ps_bind; [apply ps_modify, b_actual|]. intros _. apply ps_ret.
Qed.
Lemma ps_call i dt u : (forall x p, i = InArray x -> Sg (sig x dt p)) ->
  pair_sim (jdisc_filter_control je sig cfg i dt u) (disc_filter_control cfg i dt u).
Proof.
  intros HS. unfold jdisc_filter_control, disc_filter_control, filter_control.
  apply ps_bind; [apply ps_modify, b_desired|]. intros _. apply ps_get. intros j s I.
  replace (enable s) with (enable j) by (assert (A := bs_rta _ _ I); unfold rta_info in A; injection A; auto).
  destruct (enable j).
  - match goal with |- fst (?m' _) = fst (?m _) /\ _ => assert (S : pair_sim m' m); [|exact (S _ _ I)] end.
    apply ps_bind.
    + destruct i as [x|]; [apply ps_compute; intros p; apply (HS x p eq_refl)|].
      unfold cb_compute. apply ps_bind; [apply ps_modify, b_update|]. intros _. intros j' s' I'. cbn. auto.
    + intros v. apply ps_bind; [apply ps_lift|]. intros w. apply ps_bind; [apply ps_modify, b_actual|]. intros _. apply ps_ret.
  - match goal with |- fst (?m' _) = fst (?m _) /\ _ => assert (S : pair_sim m' m); [|exact (S _ _ I)] end.
    apply ps_bind; [apply ps_modify, b_actual|]. intros _. apply ps_ret.
Qed.

(** Assignments of parameters and flags. *)
Lemma map_pick {A B} (f g : A -> B) l m b : nth_error (map f l) m = Some b -> exists a, nth_error l m = Some a /\ f a = b.
Proof.
  revert m. induction l as [|a l IH]; intros [|m]; cbn; try discriminate; [injection 1 as <-; eauto|apply IH].
Qed.
Lemma b_both k f j s : (forall c, reads_same (f c) c) ->
  (forall c d, c_params c = c_params d -> c_enabled c = c_enabled d ->
     c_params (f c) = c_params (f d) /\ c_enabled (f c) = c_enabled (f d)) ->
  beside j s -> beside (on_ext (on_constraint k f) j) (on_ext (on_constraint k f) s).
Proof.
  intros Hr Hi [A B C D E F Len Tr G]. set (h := fun kc : string * constraint X P => if String.eqb k (fst kc) then (fst kc, f (snd kc)) else kc).
  assert (H0 : forall kc, reads_same (snd (h kc)) (snd kc)).
  { intros [k' c]. unfold h. cbn. destruct (String.eqb k k'); [apply Hr|repeat split]. }
  split; auto.
  - change (map cinfo (map h (cb_constraints (ext j))) = map cinfo (map h (cb_constraints (ext s)))).
    revert E. generalize (cb_constraints (ext s)). clear - Hi. generalize (cb_constraints (ext j)).
    induction d as [|[k1 c1] l IH]; intros [|[k2 c2] l']; cbn [map]; try discriminate; [reflexivity|].
    intros E. injection E as E1 E2 E3 E4. rewrite (IH l' E4). f_equal. unfold h, cinfo. cbn. subst k2.
    destruct (String.eqb k k1); cbn; [|congruence]. destruct (Hi c1 c2 E2 E3) as (-> & ->). reflexivity.
  - intros m sg c d Hs Hc Hd.
    change (nth_error (map snd (map h (cb_constraints (ext j)))) m = Some c) in Hc.
    change (nth_error (map snd (map h (cb_constraints (ext s)))) m = Some d) in Hd.
    change (reads_same (in_force m sg c (cbfs_of j)) d).
    rewrite map_map in Hc, Hd. destruct (map_pick _ (fun _ => c) _ _ _ Hc) as (kc & Ic & <-). destruct (map_pick _ (fun _ => d) _ _ _ Hd) as (kd & Id & <-).
    specialize (F m sg (snd kc) (snd kd) Hs (map_nth_error snd m _ Ic) (map_nth_error snd m _ Id)).
    unfold in_force in *. destruct (H0 kd) as (R1 & R2 & R3), (H0 kc) as (Q1 & Q2 & Q3).
    destruct (trace_of cbf_key_dec (m, sg) (cbfs_of j)); destruct F as (F1 & F2 & F3); repeat split; congruence.
  - change (length (map h (cb_constraints (ext j))) = N). rewrite map_length. exact Len.
  - intros v. destruct (G v) as (G1 & G2 & G3). cbn. rewrite G1. auto.
Qed.
(** An assignment of other attributes that the plain module does not get. *)
Lemma b_drop k f j s : ~ V -> (forall sg m, Sg sg -> (m < N)%nat -> T (m, sg)) ->
  (forall c, c_params (f c) = c_params c /\ c_enabled (f c) = c_enabled c) ->
  beside j s -> beside (on_ext (on_constraint k f) j) (on_ext (on_constraint k (fun c => c)) s).
Proof.
  intros NV HT Hi [A B C D E F Len Tr G]. set (h := fun kc : string * constraint X P => if String.eqb k (fst kc) then (fst kc, f (snd kc)) else kc).
  assert (U : on_ext (on_constraint k (fun c => c)) s = s).
  { destruct s as [e i d a [cs ps es vs st y]]. unfold on_ext, on_constraint, set_constraints, set_ext. cbn. do 2 f_equal.
    rewrite <- (map_id cs) at 2. apply map_ext. intros [k' c]. cbn. destruct (String.eqb k k'); reflexivity. }
  rewrite U. split; auto.
  - change (map cinfo (map h (cb_constraints (ext j))) = map cinfo (cb_constraints (ext s))). rewrite <- E, map_map.
    apply map_ext. intros [k' c]. unfold h, cinfo. cbn. destruct (String.eqb k k'); cbn; [|reflexivity].
    destruct (Hi c) as (-> & ->). reflexivity.
  - intros m sg c d Hs Hc Hd.
    change (nth_error (map snd (map h (cb_constraints (ext j)))) m = Some c) in Hc.
    change (reads_same (in_force m sg c (cbfs_of j)) d).
    rewrite map_map in Hc. destruct (map_pick _ (fun _ => c) _ _ _ Hc) as (kc & Ic & _).
    specialize (F m sg (snd kc) d Hs (map_nth_error snd m _ Ic) Hd). unfold in_force in *.
    assert (L : (m < N)%nat) by (rewrite <- Len; apply nth_error_Some; congruence).
    assert (Q := Tr (m, sg) (HT sg m Hs L)). destruct (trace_of cbf_key_dec (m, sg) (cbfs_of j)); [exact F|congruence].
  - change (length (map h (cb_constraints (ext j))) = N). rewrite map_length. exact Len.
  - intros v. tauto.
Qed.

Definition asked (o : op X P) : Prop :=
  match o with OFilter (InArray x) dt _ => forall p, Sg (sig x dt p) | _ => True end.
Lemma b_step o j s : asked o -> beside j s ->
  let a := cb_step (jdisc_filter_control je sig cfg) jdisc_reset o j in
  let b := cb_step (disc_filter_control cfg) disc_reset o s in
  fst a = fst b /\ beside (snd a) (snd b).
Proof.
  intros HA I. destruct o as [i dt u| |b|i|k p|k b]; cbn [cb_step].
  - assert (HS : forall x p, i = InArray x -> Sg (sig x dt p)) by (intros x p ->; apply HA).
    destruct (ps_call i dt u HS j s I) as (E & I').
    destruct (jdisc_filter_control je sig cfg i dt u j), (disc_filter_control cfg i dt u s). cbn [fst snd] in *. subst. auto.
  - cbn. split; [reflexivity|apply b_reset; exact I].
  - cbn. split; [reflexivity|apply b_enable; exact I].
  - destruct i; cbn; (split; [reflexivity|]); [apply b_values; exact I|exact I].
  - cbn [fst snd]. split; [reflexivity|]. apply b_both; [repeat split| |exact I]. intros c d H1 H2. cbn. auto.
  - cbn [fst snd]. split; [reflexivity|]. apply b_both; [repeat split| |exact I]. intros c d H1 H2. cbn. auto.
Qed.
Lemma b_run os : forall j s, Forall asked os -> beside j s ->
  let a := cb_run (jdisc_filter_control je sig cfg) jdisc_reset os j in
  let b := cb_run (disc_filter_control cfg) disc_reset os s in
  fst a = fst b /\ beside (snd a) (snd b).
Proof.
  induction os as [|o os IH]; intros j s HA I; [cbn; auto|]. cbn [cb_run]. inversion HA as [|? ? Ho Hos]; subst.
  destruct (b_step o j s Ho I) as (E & I').
  destruct (cb_step (jdisc_filter_control je sig cfg) jdisc_reset o j) as [b1 j1].
  destruct (cb_step (disc_filter_control cfg) disc_reset o s) as [b2 s1]. cbn [fst snd] in *. subst b2.
  destruct (IH j1 s1 Hos I') as (E2 & I2).
  destruct (cb_run (jdisc_filter_control je sig cfg) jdisc_reset os j1), (cb_run (disc_filter_control cfg) disc_reset os s1).
  cbn [fst snd] in *. subst. auto.
Qed.
Lemma b_assign_run os : ~ V -> (forall sg m, Sg sg -> (m < N)%nat -> T (m, sg)) -> forall j s,
  Forall (fun o => match o with DOp o => asked o | DAssign _ _ => True end) os -> Forall settings_only os -> beside j s ->
  let a := dassign_run (jdisc_filter_control je sig cfg) jdisc_reset os j in
  let b := dassign_run (disc_filter_control cfg) disc_reset (map unassigned os) s in
  fst a = fst b /\ beside (snd a) (snd b).
Proof.
  intros NV HT. induction os as [|o os IH]; intros j s HA HS I; [cbn; auto|]. cbn [dassign_run map].
  inversion HA as [|? ? Ho Hos]; subst. inversion HS as [|? ? So Sos]; subst.
  assert (Q : fst (dassign_step (jdisc_filter_control je sig cfg) jdisc_reset o j) = fst (dassign_step (disc_filter_control cfg) disc_reset (unassigned o) s) /\
    beside (snd (dassign_step (jdisc_filter_control je sig cfg) jdisc_reset o j)) (snd (dassign_step (disc_filter_control cfg) disc_reset (unassigned o) s))).
  { destruct o as [o|k f]; [exact (b_step o j s Ho I)|]. cbn [dassign_step unassigned fst snd]. split; [reflexivity|].
    apply b_drop; auto. }
  destruct Q as (E & I').
  destruct (dassign_step (jdisc_filter_control je sig cfg) jdisc_reset o j) as [b1 j1].
  destruct (dassign_step (disc_filter_control cfg) disc_reset (unassigned o) s) as [b2 s1]. cbn [fst snd] in *. subst b2.
  destruct (IH j1 s1 Hos Sos I') as (E2 & I2).
  destruct (dassign_run (jdisc_filter_control je sig cfg) jdisc_reset os j1), (dassign_run (disc_filter_control cfg) disc_reset (map unassigned os) s1).
  cbn [fst snd] in *. subst. auto.
Qed.
End DiscJit.

(** ** Construction and the first call *)
Section Start.
Context {X P : Type}.
Variables (je : bool) (sig : X -> R -> P -> nat) (cfg : disc_cfg X).

Lemma slack_indices_length (cs : dict (constraint X P)) : forall n, length (slack_indices n cs) = length cs.
Proof. induction cs as [|[k c] cs IH]; intros n; cbn; [reflexivity|]. destruct (c_slack c); cbn; rewrite IH; reflexivity. Qed.

Lemma jdisc_built defined to_use (s0 : dmod X P) : disc_init cfg defined to_use = Ok s0 ->
  exists j0, jdisc_init cfg defined to_use = Ok j0 /\ enable j0 = true /\
    length (ds_slack_idx (disc_of j0)) = length (cb_constraints (ext j0)) /\
    (distinct_keys defined -> keyed (ext j0)) /\ cbfs_of j0 = [] /\
    cb_constraints (ext j0) = cb_constraints (ext s0) /\
    forall V Sg, beside V Sg (fun _ => False) (length (cb_constraints (ext j0))) j0 s0.
Proof.
  intros H. unfold jdisc_init. rewrite H. cbn [rbind]. unfold disc_init in H.
  destruct (select_constraints defined to_use) as [cs|e] eqn:Es; [|discriminate]. cbn [rbind] in H. cbv zeta in H.
  unfold cb_init in *. rewrite Es in H |- *. cbn [rbind] in *. injection H as <-.
  eexists. split; [reflexivity|]. split; [reflexivity|]. split; [apply slack_indices_length|].
  split; [|split; [reflexivity|split; [reflexivity|]]].
  - intros D. refine (keyed_init defined to_use _ _ D _). unfold cb_init. rewrite Es. reflexivity.
  - intros V Sg. split; try reflexivity; [|intros k []|auto].
    intros m sg c d _ Hc Hd. cbn in Hc, Hd. assert (c = d) by congruence. subst d. repeat split.
Qed.

Lemma rest_traces d r j : cbfs_of (snd (rest cfg d r j)) = cbfs_of (X:=X) (P:=P) j.
Proof.
  unfold rest, bind, lift, modify, ret, raise. destruct (fst r); [|destruct (dc_exc cfg); [reflexivity|]];
    destruct (opt_monitor _ _ _); reflexivity.
Qed.
Definition prep (x : X) (u : vec) (j : jdisc X P) : jdisc X P :=
  on_ext (update_constraint_values_at x true) (on_ext update_params (set_desired (Some u) j)).
Lemma call_traces x dt u j w j1 : enable j = true -> jdisc_filter_control je sig cfg (InArray x) dt u j = (Ok w, j1) ->
  cbfs_of j1 = snd (fns_of je sig cfg x dt u (prep x u j)).
Proof.
  intros En H. unfold jdisc_filter_control, filter_control in H. unfold bind at 1, modify at 1 in H. unfold bind at 1, get at 1 in H.
  change (enable (set_desired (Some u) j)) with (enable j) in H. rewrite En in H.
  unfold bind at 1 in H. unfold cb_compute in H.
  change (bind (modify (on_ext update_params)) ?k ?s) with (k tt (on_ext update_params s)) in H. cbv beta in H.
  change (bind (base_get_state (InArray x)) ?k ?s) with (k x s) in H. cbv beta in H.
  change (bind (modify (on_ext (update_constraint_values_at x true))) ?k ?s) with (k tt (on_ext (update_constraint_values_at x true) s)) in H.
  cbv beta in H. fold (prep x u j) in H. unfold bind at 1 in H. rewrite filter_eq in H.
  unfold bind at 1, lift at 1 in H. destruct (scipy_bounds _) as [bnds|e] in H; [|discriminate].
  unfold bind at 1, modify at 1 in H. unfold bind at 1, lift at 1 in H.
  destruct (dc_solve _ _ _ _ _) as [r|e] in H; [|discriminate].
  match type of H with context [rest cfg ?d r ?s] => assert (Q := rest_traces d r s); destruct (rest cfg d r s) as [[v|e] s'] end;
    [|discriminate]. cbn [snd] in Q.
  unfold bind, modify, ret, lift in H. destruct (clip _ v) as [w'|e]; [|discriminate]. injection H as _ <-.
  exact Q.
Qed.
Lemma first_call_traces sg x dt u j w j1 : (forall p, sig x dt p = sg) -> enable j = true -> keyed (ext j) -> cbfs_of j = [] ->
  length (ds_slack_idx (disc_of j)) = length (cb_constraints (ext j)) ->
  (forall k c, In (k, c) (cb_constraints (ext j)) -> c_enabled c = true /\ c_alpha c <> None) ->
  jdisc_filter_control je sig cfg (InArray x) dt u j = (Ok w, j1) ->
  forall m, (m < length (cb_constraints (ext j)))%nat -> trace_of cbf_key_dec (m, sg) (cbfs_of j1) <> None.
Proof.
  intros Hs En K E0 Li Hc Hw m Hm. rewrite (call_traces x dt u j w j1 En Hw). unfold fns_of.
  destruct (update_params_keyed (ext j) K) as (U1 & U2).
  change (cb_constraints (ext (prep x u j))) with (cb_constraints (ext j)).
  change (cb_params (ext (prep x u j))) with (cb_params (update_params (ext j))).
  change (cb_enabled (ext (prep x u j))) with (cb_enabled (update_params (ext j))).
  change (disc_of (prep x u j)) with (disc_of j). change (cbfs_of (prep x u j)) with (cbfs_of j). rewrite E0, U1, U2.
  destruct (nth_error (map snd (cb_constraints (ext j))) m) as [c|] eqn:Ec.
  - assert (Q := cbfs_all je sig cfg x dt (u ++ zeros (ds_num_slack (disc_of j))) sg Hs (map snd (cb_constraints (ext j)))
      (ds_slack_idx (disc_of j)) (map snd (map (fun kc => (fst kc, c_params (snd kc))) (cb_constraints (ext j))))
      (map snd (map (fun kc => (fst kc, c_enabled (snd kc))) (cb_constraints (ext j)))) 0 []).
    rewrite !map_length in Q. specialize (Q Li eq_refl eq_refl).
    assert (F1 : Forall (fun e => e = true) (map snd (map (fun kc => (fst kc, c_enabled (snd kc))) (cb_constraints (ext j))))).
    { rewrite map_map. apply Forall_forall. intros e Ie. apply in_map_iff in Ie. destruct Ie as ([k c'] & <- & Ik).
      apply (Hc k c' Ik). }
    assert (F2 : Forall (fun c => c_alpha c <> None) (map snd (cb_constraints (ext j)))).
    { apply Forall_forall. intros c' Ic. apply in_map_iff in Ic. destruct Ic as ([k c''] & <- & Ik). apply (Hc k c'' Ik). }
    specialize (Q F1 F2 (fun _ _ _ => eq_refl) m c Ec). cbn [Nat.add] in Q. rewrite Q. discriminate.
  - apply nth_error_None in Ec. rewrite map_length in Ec. lia.
Qed.
End Start.
