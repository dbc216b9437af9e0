(** Property C83: an option given to a constructor takes effect or is rejected. *)
From Coq Require Import String List Bool QArith.
From Verif Require Import Prelude ModelArgs SpecArgs ProofsArgs.
Import ListNotations.
Local Open Scope string_scope.
Local Open Scope list_scope.

(** ** Checks of the tables, by computation. *)
Definition src_of_opt (o : opt) : src :=
  match o_default o with
  | Required => SUser (o_name o) None
  | Default v => SUser (o_name o) (Some v)
  | InsteadOfNone v => SUnless (SUser (o_name o) (Some PNone)) v
  end.
Lemma src_of_opt_value kw o : eval kw (src_of_opt o) = option_value kw o.
Proof.
  unfold src_of_opt, option_value. destruct (o_default o); cbn; unfold given_or;
    destruct (lookup (o_name o) kw) as [[]|]; reflexivity.
Qed.

Definition required_names (l : list opt) : list string :=
  map o_name (filter (fun o => match o_default o with Required => true | _ => false end) l).
Lemma required_names_complete opts kw :
  complete opts kw <-> (forall k, In k (required_names opts) -> In k (keys kw)).
Proof.
  unfold complete, required_names. split.
  - intros H k Hk. apply in_map_iff in Hk. destruct Hk as (o & <- & Ho).
    apply filter_In in Ho. destruct Ho as (Ho & R). apply H; [exact Ho|].
    destruct (o_default o); congruence.
  - intros H o Ho R. apply H. apply in_map_iff. exists o. split; [reflexivity|].
    apply filter_In. rewrite R. auto.
Qed.

Definition same (a b : list string) : bool :=
  forallb (fun k => mem k b) a && forallb (fun k => mem k a) b.
Lemma same_In a b : same a b = true -> forall k, In k a <-> In k b.
Proof.
  unfold same. intros H k. apply andb_true_iff in H. destruct H as (H1 & H2).
  rewrite forallb_forall in H1, H2.
  split; intros H; [apply H1 in H | apply H2 in H]; apply mem_In in H; exact H.
Qed.

Definition sources (c : string) (opts : list opt) : Prop :=
  map (fun o => got_src (values (chain c)) (o_user o) (o_name o)) opts = map src_of_opt opts.

Lemma sources_honoured c opts kw r :
  sources c opts -> construct (chain c) [] kw = Ok r -> honoured opts kw r.
Proof.
  unfold sources, honoured. intros S C o Ho.
  rewrite (got_value _ _ _ _ _ C), <- src_of_opt_value. f_equal.
  revert S Ho. generalize (values (chain c)). intros vs. clear.
  induction opts as [|q opts IH]; cbn; [tauto|].
  intros S. inversion S. intros [<-|H]; auto.
Qed.

Lemma table_strict :
  Forall (fun t =>
    static (chain (fst t)) = true /\ closed_b (chain (fst t)) = true
    /\ same (opts_of (chain (fst t))) (option_names (snd t)) = true
    /\ same (needs (chain (fst t))) (required_names (snd t)) = true
    /\ sources (fst t) (snd t))
  (modules ++ sample_tests).
Proof.
  repeat (apply Forall_cons; [repeat split; vm_compute; reflexivity|]). apply Forall_nil.
Qed.

Lemma table_open :
  Forall (fun t =>
    static (chain (fst t)) = true /\ open_b (chain (fst t)) = true
    /\ same (needs (chain (fst t))) (required_names (snd t)) = true
    /\ sources (fst t) (snd t)
    /\ forallb (fun s => forallb (fun k => mem k (option_names (snd t))) (mentions (snd s)))
               (values (chain (fst t))) = true)
  constraints.
Proof.
  repeat (apply Forall_cons; [repeat split; vm_compute; reflexivity|]). apply Forall_nil.
Qed.
Lemma blocked_with :
  Forall (fun t => blocked (chain (fst t)) = ["params"]) constraints_with_params.
Proof.
  repeat (apply Forall_cons; [vm_compute; reflexivity|]). apply Forall_nil.
Qed.
Lemma blocked_plain :
  Forall (fun t => blocked (chain (fst t)) = []) plain_constraints.
Proof.
  repeat (apply Forall_cons; [vm_compute; reflexivity|]). apply Forall_nil.
Qed.

(** Which modules check the integration method, and where they read it. *)
Definition im : string := "integration_method".
Definition reads_method (c : string) (opts : list opt) (d : string) : Prop :=
  existsb (fun m => mem m (mro c)) docking_mixins = true
  /\ (d = "RK45" \/ d = "Euler")
  /\ (let own := got_src (values (chain c)) c im in
      let asif := got_src (values (chain c)) "ImplicitASIFModule" im in
      if mem im (option_names opts)
      then own = SUser im (Some (PStr d))
           /\ (asif = SVal None \/ asif = SUser im (Some (PStr d)))
      else own = SVal None).
Lemma docking_reads :
  Forall (fun t => exists d, reads_method (fst t) (snd t) d) docking_modules.
Proof.
  repeat (apply Forall_cons; [
    first [ exists "RK45"; split; [vm_compute; reflexivity|];
            split; [left; reflexivity|]; vm_compute;
            first [ reflexivity
                  | split; [reflexivity|]; first [left; reflexivity | right; reflexivity]]
          | exists "Euler"; split; [vm_compute; reflexivity|];
            split; [right; reflexivity|]; vm_compute;
            first [ reflexivity
                  | split; [reflexivity|]; first [left; reflexivity | right; reflexivity]]]|]).
  apply Forall_nil.
Qed.
Lemma method_read c opts d kw r :
  reads_method c opts d -> construct (chain c) [] kw = Ok r ->
  method_of c r =
  if mem im (option_names opts) then given_or kw im (Some (PStr d)) else Some (PStr "RK45").
Proof.
  intros (_ & _ & H) C. unfold method_of. fold im. rewrite !(got_value _ _ _ _ _ C).
  cbv zeta in H. destruct (mem im (option_names opts)).
  - destruct H as (-> & [->| ->]); cbn; unfold given_or; destruct (lookup im kw); reflexivity.
  - rewrite H. reflexivity.
Qed.
Lemma others_unchecked :
  Forall (fun t => existsb (fun m => mem m (mro (fst t))) docking_mixins = false)
  (other_modules ++ sample_tests ++ constraints).
Proof.
  repeat (apply Forall_cons; [vm_compute; reflexivity|]). apply Forall_nil.
Qed.

Lemma build_other c opts args kw :
  In (c, opts) (other_modules ++ sample_tests ++ constraints) ->
  build c args kw = construct (chain c) args kw.
Proof.
  intros H. pose proof others_unchecked as U. rewrite Forall_forall in U.
  specialize (U _ H). cbn [fst] in U. unfold build. rewrite U.
  destruct (construct (chain c) args kw); reflexivity.
Qed.

(** ** C83, modules and sample tests. *)

(** A docking or integrator module is built exactly if every keyword is one of its
    documented options and the integration method, if given, exists; otherwise the
    constructor raises. *)
Theorem C83_docking_accepted : forall c opts kw,
  In (c, opts) docking_modules -> NoDup (keys kw) ->
  ((exists r, build c [] kw = Ok r) <-> known opts kw /\ complete opts kw /\ valid_method kw).
Proof.
  intros c opts kw Hc N.
  assert (Hs : In (c, opts) (modules ++ sample_tests)).
  { apply in_or_app. left. apply in_or_app. left. exact Hc. }
  pose proof table_strict as T. rewrite Forall_forall in T. specialize (T _ Hs).
  cbn [fst snd] in T. destruct T as (St & Cl & So & Sn & _).
  pose proof docking_reads as D. rewrite Forall_forall in D. specialize (D _ Hc).
  cbn [fst snd] in D. destruct D as (d & D).
  assert (A : (exists r, construct (chain c) [] kw = Ok r) <-> known opts kw /\ complete opts kw).
  { rewrite (accept_iff _ St kw N), required_names_complete. unfold known.
    split; intros (H1 & H2); split.
    - intros k Hk. specialize (H1 k Hk). rewrite (accepts_opts _ _ Cl) in H1.
      apply (same_In _ _ So), mem_In, H1.
    - intros k Hk. apply H2. apply (same_In _ _ Sn), Hk.
    - intros k Hk. rewrite (accepts_opts _ _ Cl). apply mem_In.
      apply (same_In _ _ So), H1, Hk.
    - intros k Hk. apply H2. apply (same_In _ _ Sn), Hk. }
  assert (V : forall r, construct (chain c) [] kw = Ok r ->
              (method_ok (method_of c r) = true <-> valid_method kw)).
  { intros r C. rewrite (method_read _ _ _ _ _ D C). unfold valid_method. fold im.
    destruct (mem im (option_names opts)) eqn:M.
    - unfold given_or. destruct (lookup im kw) as [v|] eqn:L.
      + split.
        * intros H w Hw. pose proof (lookup_unique _ _ _ N Hw) as E.
          rewrite L in E. inversion E; subst w.
          destruct v; try discriminate. cbn in H. apply orb_true_iff in H.
          destruct H as [H|H]; apply String.eqb_eq in H; subst; auto.
        * intros H. destruct (H v (lookup_In _ _ _ L)) as [->| ->]; reflexivity.
      + split; [|intros _].
        * intros _ w Hw. exfalso. apply lookup_none in L. apply L.
          apply (in_map fst) in Hw. exact Hw.
        * destruct D as (_ & [->| ->] & _); reflexivity.
    - split; [|reflexivity]. intros _ w Hw. exfalso.
      apply mem_not in M. apply M. apply A; [eauto|].
      apply (in_map fst) in Hw. exact Hw. }
  unfold build. rewrite (proj1 D). cbn [andb]. split.
  - intros (r & H). destruct (construct (chain c) [] kw) as [r'|] eqn:C; [|discriminate].
    destruct (method_ok (method_of c r')) eqn:O; [|discriminate].
    pose proof (proj1 A (ex_intro _ r' eq_refl)) as (A1 & A2).
    split; [exact A1|]. split; [exact A2|]. apply (V r' eq_refl). exact O.
  - intros (A1 & A2 & A3). destruct (proj2 A (conj A1 A2)) as (r & C).
    rewrite C in *. exists r.
    rewrite (proj2 (V r eq_refl) A3). reflexivity.
Qed.

(** The same for the other modules, the base classes a user derives from, and the
    sample tests: here no option is checked when the object is built. *)
Theorem C83_accepted : forall c opts kw,
  In (c, opts) (other_modules ++ sample_tests) -> NoDup (keys kw) ->
  ((exists r, build c [] kw = Ok r) <-> known opts kw /\ complete opts kw).
Proof.
  intros c opts kw Hc N.
  assert (Hs : In (c, opts) (modules ++ sample_tests)).
  { unfold modules. rewrite <- app_assoc. apply in_or_app. right. exact Hc. }
  rewrite (build_other c opts).
  2:{ rewrite app_assoc. apply in_or_app. left. exact Hc. }
  pose proof table_strict as T. rewrite Forall_forall in T. specialize (T _ Hs).
  cbn [fst snd] in T. destruct T as (St & Cl & So & Sn & _).
  rewrite (accept_iff _ St kw N), required_names_complete. unfold known.
  split; intros (H1 & H2); split.
  - intros k Hk. specialize (H1 k Hk). rewrite (accepts_opts _ _ Cl) in H1.
    apply (same_In _ _ So), mem_In, H1.
  - intros k Hk. apply H2. apply (same_In _ _ Sn), Hk.
  - intros k Hk. rewrite (accepts_opts _ _ Cl). apply mem_In.
    apply (same_In _ _ So), H1, Hk.
  - intros k Hk. apply H2. apply (same_In _ _ Sn), Hk.
Qed.

(** Every option, given or not, arrives at the part of the module that uses it. *)
Theorem C83_honoured : forall c opts kw r,
  In (c, opts) (modules ++ sample_tests) -> build c [] kw = Ok r -> honoured opts kw r.
Proof.
  intros c opts kw r Hc B.
  pose proof table_strict as T. rewrite Forall_forall in T. specialize (T _ Hc).
  cbn [fst snd] in T. destruct T as (_ & _ & _ & _ & Src).
  apply (sources_honoured c opts kw r Src). unfold build in B.
  destruct (construct (chain c) [] kw) as [r'|]; [|discriminate].
  destruct (_ && _); [discriminate|]. exact B.
Qed.

(** An unknown keyword is a TypeError, whatever else is given. *)
Theorem C83_unknown_rejected : forall c opts kw k,
  In (c, opts) (modules ++ sample_tests) -> NoDup (keys kw) ->
  In k (keys kw) -> ~ In k (option_names opts) -> build c [] kw = Err TypeError.
Proof.
  intros c opts kw k Hc N Hk Hn.
  pose proof table_strict as T. rewrite Forall_forall in T. specialize (T _ Hc).
  cbn [fst snd] in T. destruct T as (St & Cl & So & _ & _).
  unfold build. destruct (construct (chain c) [] kw) as [r|e] eqn:C.
  - exfalso. destruct (proj1 (accept_iff _ St kw N) (ex_intro _ r C)) as (H1 & _).
    specialize (H1 k Hk). rewrite (accepts_opts _ _ Cl) in H1.
    apply Hn, (same_In _ _ So), mem_In, H1.
  - f_equal. eapply construct_err; eauto.
Qed.

(** The modules take no arguments by position. *)
Theorem C83_position_rejected : forall c opts args kw,
  In (c, opts) modules -> args <> [] -> build c args kw = Err TypeError.
Proof.
  intros c opts args kw Hc Ha. unfold build. rewrite no_position; auto.
  assert (T : Forall (fun t => forallb (fun i => is_nil (i_pos i)
      && match i_super i with SCall _ => true | _ => false end) (chain (fst t)) = true) modules).
  { repeat (apply Forall_cons; [vm_compute; reflexivity|]). apply Forall_nil. }
  rewrite Forall_forall in T. apply (T _ Hc).
Qed.

(** User-defined subclasses.  Let a user derive from a class of the library any
    number of times, every constructor [user] taking whatever parameters it likes
    and handing on whatever keywords it likes together with the arguments it has no
    parameter for.  Then no argument is lost: in every successful construction each
    keyword argument is received, with its value, by a class that has a parameter
    of that name, and each positional argument is received by some parameter. *)
Theorem C83_nothing_lost : forall user c opts args kw r,
  In (c, opts) (modules ++ sample_tests) ->
  Forall (fun i => NoDup (names (params i))
                   /\ exists fw, i_super i = SCall fw /\ NoDup (map fst fw)) user ->
  NoDup (keys kw) ->
  construct (user ++ chain c) args kw = Ok r ->
  (forall k v, In (k, v) kw -> exists owner, In (owner, k, v) r)
  /\ (forall v, In v args -> exists owner p, In (owner, p, v) r).
Proof.
  intros user c opts args kw r Hc U N C.
  pose proof table_strict as T. rewrite Forall_forall in T. specialize (T _ Hc).
  cbn [fst snd] in T. destruct T as (_ & Cl & _). apply closed_b_closed in Cl.
  destruct Cl as (C1 & C2).
  apply (nothing_lost (user ++ chain c)) with (args := args); auto.
  - apply Forall_app. split; [|exact C1]. revert U. apply Forall_impl.
    intros i (_ & fw & E & Nf). unfold closed. rewrite E. exact Nf.
  - apply Forall_app. split; [|exact C2]. revert U. apply Forall_impl. tauto.
Qed.

(** ** C83, constraints. *)

(** The constraints of the library are built exactly if what must be given is given
    and, for those that make their own parameters, [params] is not given. *)
Theorem C83_constraint_accepted : forall c opts kw,
  In (c, opts) constraints -> NoDup (keys kw) ->
  ((exists r, build c [] kw = Ok r)
   <-> complete opts kw
       /\ (In (c, opts) constraints_with_params -> ~ In "params" (keys kw))).
Proof.
  intros c opts kw Hc N.
  rewrite (build_other c opts).
  2:{ apply in_or_app. right. apply in_or_app. right. exact Hc. }
  pose proof table_open as T. rewrite Forall_forall in T. specialize (T _ Hc).
  cbn [fst snd] in T. destruct T as (St & Op & Sn & _).
  rewrite (accept_iff _ St kw N), required_names_complete.
  assert (E : (forall k, In k (keys kw) -> accepts (chain c) k = true)
              <-> (In (c, opts) constraints_with_params -> ~ In "params" (keys kw))).
  { unfold constraints in Hc. apply in_app_or in Hc. destruct Hc as [Hc|Hc].
    - pose proof blocked_with as B. rewrite Forall_forall in B. specialize (B _ Hc).
      cbn [fst] in B. split.
      + intros H _ K. specialize (H _ K). rewrite (accepts_open _ _ Op), B in H. discriminate.
      + intros H k Hk. rewrite (accepts_open _ _ Op), B. apply negb_true_iff, mem_not.
        intros [<-|[]]. apply (H Hc Hk).
    - pose proof blocked_plain as B. rewrite Forall_forall in B. specialize (B _ Hc).
      cbn [fst] in B. split.
      + intros _ Hw. exfalso.
        pose proof blocked_with as B'. rewrite Forall_forall in B'. specialize (B' _ Hw).
        cbn [fst] in B'. congruence.
      + intros _ k _. rewrite (accepts_open _ _ Op), B. reflexivity. }
  split; intros (H1 & H2); split.
  - intros k Hk. apply H2. apply (same_In _ _ Sn), Hk.
  - apply E. exact H1.
  - apply E. exact H2.
  - intros k Hk. apply H1. apply (same_In _ _ Sn), Hk.
Qed.

Theorem C83_constraint_honoured : forall c opts kw r,
  In (c, opts) constraints -> build c [] kw = Ok r -> honoured opts kw r.
Proof.
  intros c opts kw r Hc B.
  rewrite (build_other c opts) in B.
  2:{ apply in_or_app. right. apply in_or_app. right. exact Hc. }
  pose proof table_open as T. rewrite Forall_forall in T. specialize (T _ Hc).
  cbn [fst snd] in T. destruct T as (_ & _ & _ & Src & _).
  apply (sources_honoured c opts kw r Src B).
Qed.

(** An option that a constraint does not have is dropped without notice: the object
    is the one built without it, and if the construction fails it fails without it
    too. *)
Theorem C83_constraint_unknown_ignored : forall c opts kw k v,
  In (c, opts) constraints -> NoDup (keys ((k, v) :: kw)) ->
  ~ In k (option_names opts) -> k <> "params" ->
  build c [] ((k, v) :: kw) = build c [] kw.
Proof.
  intros c opts kw k v Hc N Hn Hp.
  assert (N' : NoDup (keys kw)) by (inversion N; assumption).
  pose proof (C83_constraint_accepted c opts _ Hc N) as A1.
  pose proof (C83_constraint_accepted c opts _ Hc N') as A2.
  assert (A : (exists r, build c [] ((k, v) :: kw) = Ok r) <-> (exists r, build c [] kw = Ok r)).
  { rewrite A1, A2. unfold complete. cbn [keys map fst].
    split; intros (H1 & H2); split.
    - intros o Ho R. destruct (H1 o Ho R) as [E|E]; [|exact E]. exfalso. apply Hn.
      rewrite E. apply in_map. exact Ho.
    - intros W K. apply (H2 W). right. exact K.
    - intros o Ho R. right. apply H1; assumption.
    - intros W [K|K]; [congruence | apply (H2 W K)]. }
  clear A1 A2.
  assert (U : forall kw, build c [] kw = construct (chain c) [] kw).
  { intros kw0. apply (build_other c opts). apply in_or_app. right. apply in_or_app. right.
    exact Hc. }
  rewrite !U in *.
  pose proof table_open as T. rewrite Forall_forall in T. specialize (T _ Hc).
  cbn [fst snd] in T. destruct T as (_ & _ & _ & _ & M).
  destruct (construct (chain c) [] ((k, v) :: kw)) as [r|e] eqn:C1;
    destruct (construct (chain c) [] kw) as [r'|e'] eqn:C2.
  - f_equal. apply some_val_inj.
    rewrite (received_values _ _ _ C1), (received_values _ _ _ C2).
    apply map_ext_in. intros (t & s) Hs. unfold eval_val. cbn [fst snd]. f_equal.
    apply eval_ext. intros q Hq. cbn [lookup].
    destruct (String.eqb q k) eqn:E; [|reflexivity]. exfalso.
    apply String.eqb_eq in E. subst q. apply Hn.
    rewrite forallb_forall in M. specialize (M _ Hs). cbn [snd] in M.
    rewrite forallb_forall in M. apply mem_In. apply M. exact Hq.
  - exfalso. destruct (proj1 A (ex_intro _ r eq_refl)) as (r' & X). discriminate.
  - exfalso. destruct (proj2 A (ex_intro _ r' eq_refl)) as (r & X). discriminate.
  - apply construct_err in C1. apply construct_err in C2. congruence.
Qed.

(** So the property fails for constraints: a misspelt option is neither honoured nor
    rejected.  Here a user asks for a safety margin of -5 and writes [bais]. *)
Theorem C83_constraint_refuted :
  ~ (forall c opts kw r, In (c, opts) constraints -> NoDup (keys kw) ->
       build c [] kw = Ok r ->
       forall k v, In (k, v) kw -> exists owner, In (owner, k, v) r).
Proof.
  intros H.
  pose (kw := [("limit_val", num 10); ("state_index", num 2); ("bais", num (-5))]).
  destruct (build "ConstraintMaxStateLimit" [] kw) as [r|e] eqn:B; [|vm_compute in B; discriminate].
  assert (N : NoDup (keys kw)).
  { apply nodup_b_ok. reflexivity. }
  assert (Hc : exists opts, In ("ConstraintMaxStateLimit", opts) constraints).
  { eexists. right. left. reflexivity. }
  destruct Hc as (opts & Hc).
  destruct (H _ opts kw r Hc N B "bais" (num (-5))) as (o & Ho).
  { right. right. left. reflexivity. }
  vm_compute in B. inversion B; subst r. clear -Ho.
  repeat (destruct Ho as [Ho|Ho]; [discriminate Ho|]). destruct Ho.
Qed.

(** Arguments by position, for the classes that take them (constraints and the
    ready-made sample tests): the n-th argument is the value of the n-th parameter,
    as if given by keyword; a parameter given twice, or too many arguments, are
    TypeErrors. *)
Theorem C83_by_position : forall c opts i rest args kw,
  In (c, opts) (sample_tests ++ constraints) -> chain c = i :: rest ->
  i_star i = false ->
  ((length args <= length (i_pos i))%nat ->
   (forall k, In k (keys (combine (names (i_pos i)) args)) -> ~ In k (keys kw)) ->
   build c args kw = build c [] (combine (names (i_pos i)) args ++ kw))
  /\ ((length (i_pos i) < length args)%nat -> build c args kw = Err TypeError).
Proof.
  intros c opts i rest args kw Hc E S.
  assert (U : forall args kw, build c args kw = construct (chain c) args kw).
  { intros a0 kw0. apply (build_other c opts). apply in_or_app. right. exact Hc. }
  rewrite !U, E. split.
  - intros L D. apply by_position; assumption.
  - intros L. apply too_many_args; assumption.
Qed.

(** The resolution order, for classes of any hierarchy (so also those a user derives): if every class
    of the bases' orders got a place, the order is as promised.  (Python refuses the class
    statement otherwise.) *)
Lemma io_nil_l {A} (l : list A) : in_order [] l.
Proof. induction l; constructor; auto. Qed.
Lemma mem_In k l : mem k l = true <-> In k l.
Proof.
  unfold mem. rewrite existsb_exists. split.
  - intros (x & H & E). apply String.eqb_eq in E. subst x. exact H.
  - intros H. exists k. split; [exact H|apply String.eqb_refl].
Qed.
Lemma pick_spec cands seqs c : pick cands seqs = Some c ->
  (exists r, In (c :: r) cands) /\ forall s, In s seqs -> ~ In c (tl s).
Proof.
  induction cands as [|[|d r] cands IH]; cbn; intros H; [discriminate| |].
  - destruct (IH H) as ((r & K) & F). split; [exists r; right; exact K|exact F].
  - destruct (heads_ok d seqs) eqn:E.
    + injection H as <-. split; [exists r; left; reflexivity|].
      intros s Hs. unfold heads_ok in E. rewrite forallb_forall in E. specialize (E s Hs).
      intros K. apply mem_In in K. rewrite K in E. discriminate.
    + destruct (IH H) as ((r' & K) & F). split; [exists r'; right; exact K|exact F].
Qed.
Lemma merge_only fuel : forall seqs d, In d (merge fuel seqs) -> exists s, In s seqs /\ In d s.
Proof.
  induction fuel as [|f IH]; intros seqs d H; cbn in H; [contradiction|].
  destruct (pick seqs seqs) as [c|] eqn:E; [|contradiction]. destruct H as [<-|H].
  - destruct (pick_spec _ _ _ E) as ((r & K) & _). exists (c :: r). split; [exact K|left; reflexivity].
  - destruct (IH _ _ H) as (s & Hs & Hd). apply in_map_iff in Hs. destruct Hs as (s0 & <- & Hs). exists s0. split; [exact Hs|].
    destruct s0 as [|x s0]; [contradiction|]. cbn in Hd. destruct (String.eqb c x); [right|]; exact Hd.
Qed.
Lemma dropped c seqs : (forall s, In s seqs -> ~ In c (tl s)) -> forall s, In s (map (drop_head c) seqs) -> ~ In c s.
Proof.
  intros T s H. apply in_map_iff in H. destruct H as ([|x r] & <- & H); cbn; [tauto|]. specialize (T _ H). cbn in T.
  destruct (String.eqb c x) eqn:E; [exact T|]. intros [K|K]; [subst x; rewrite String.eqb_refl in E; discriminate|tauto].
Qed.
Lemma merge_resolves fuel : forall seqs, (forall s, In s seqs -> incl s (merge fuel seqs)) ->
  NoDup (merge fuel seqs) /\ forall s, In s seqs -> in_order s (merge fuel seqs).
Proof.
  induction fuel as [|f IH]; intros seqs C; cbn [merge] in *.
  - split; [constructor|]. intros s Hs. specialize (C s Hs). destruct s as [|x r]; [constructor|]. destruct (C x); left; reflexivity.
  - destruct (pick seqs seqs) as [c|] eqn:E.
    + destruct (pick_spec _ _ _ E) as (_ & T). pose proof (dropped c seqs T) as D.
      assert (C' : forall s, In s (map (drop_head c) seqs) -> incl s (merge f (map (drop_head c) seqs))).
      { intros s Hs d Hd. pose proof (D s Hs) as N. apply in_map_iff in Hs. destruct Hs as (s0 & <- & Hs).
        assert (K : In d s0) by (destruct s0 as [|x r]; [contradiction|]; cbn in Hd; destruct (String.eqb c x); [right|]; exact Hd).
        destruct (C s0 Hs d K) as [->|L]; [contradiction|exact L]. }
      destruct (IH _ C') as [N O]. split.
      * constructor; [|exact N]. intros K. destruct (merge_only _ _ _ K) as (s & Hs & Hc). exact (D s Hs Hc).
      * intros s Hs. pose proof (O _ (in_map (drop_head c) _ _ Hs)) as Q. destruct s as [|x r]; [apply io_nil_l|]. cbn in Q.
        destruct (String.eqb c x) eqn:X; [|constructor; exact Q]. apply String.eqb_eq in X. subst x. apply io_take. exact Q.
    + split; [constructor|]. intros s Hs. specialize (C s Hs). destruct s as [|x r]; [constructor|]. destruct (C x); left; reflexivity.
Qed.
Theorem C83_resolution_order : forall table fuel c,
  let bs := bases_of c table in let order := mro_from table fuel in let l := mro_from table (S fuel) c in
  ~ In c bs -> (forall b, In b bs -> ~ In c (order b)) ->
  incl bs l -> (forall b, In b bs -> incl (order b) l) ->
  resolves order c bs l.
Proof.
  intros table fuel c bs order l N1 N2 C1 C2.
  assert (L : l = c :: merge 20 (map order bs ++ [bs])) by reflexivity.
  set (m := merge 20 (map order bs ++ [bs])) in *.
  assert (C : forall s, In s (map order bs ++ [bs]) -> incl s m).
  { intros s Hs d Hd. apply in_app_or in Hs. destruct Hs as [Hs|[<-|[]]].
    - apply in_map_iff in Hs. destruct Hs as (b & <- & Hb). specialize (C2 b Hb d Hd). rewrite L in C2.
      destruct C2 as [->|K]; [|exact K]. destruct (N2 b Hb Hd).
    - specialize (C1 d Hd). rewrite L in C1. destruct C1 as [->|K]; [contradiction|exact K]. }
  destruct (merge_resolves 20 _ C) as [N O]. fold m in N, O.
  assert (W : forall d, In d m -> In d bs \/ exists b, In b bs /\ In d (order b)).
  { intros d Hd. destruct (merge_only _ _ _ Hd) as (s & Hs & K). apply in_app_or in Hs. destruct Hs as [Hs|[<-|[]]]; [|left; exact K].
    apply in_map_iff in Hs. destruct Hs as (b & <- & Hb). right. exists b. split; assumption. }
  assert (Self : forall b, In b (order b)).
  { intros b. unfold order. destruct fuel; left; reflexivity. }
  rewrite L. constructor.
  - reflexivity.
  - constructor; [|exact N]. intros K. destruct (W c K) as [K'|(b & Hb & K')]; [contradiction|exact (N2 b Hb K')].
  - constructor. apply O. apply in_or_app. right. left. reflexivity.
  - intros b Hb. constructor. apply O. apply in_or_app. left. apply in_map. exact Hb.
  - intros d [<-|Hd]; [left; reflexivity|]. right. destruct (W d Hd) as [K|K]; [|exact K]. exists d. split; [exact K|apply Self].
Qed.
Print Assumptions C83_resolution_order.

(** Every class of the library meets the conditions, so its order is as promised.  In particular
    its constructors run from the class itself to those it is derived from. *)
Definition inclb (s l : list string) : bool := forallb (fun x => mem x l) s.
Lemma inclb_incl s l : inclb s l = true -> incl s l.
Proof. unfold inclb. rewrite forallb_forall. intros H x Hx. apply mem_In, H, Hx. Qed.
Theorem C83_library_resolution : forall c bs, In (c, bs) bases -> resolves mro c bs (mro c).
Proof.
  intros c bs H.
  assert (B : forallb (fun p => let c := fst p in let bs := snd p in
    let l := mro_from bases 11 c in
    (if list_eq_dec string_dec (bases_of c bases) bs then true else false) &&
    (if list_eq_dec string_dec l (mro c) then true else false) &&
    negb (mem c bs) && forallb (fun b => negb (mem c (mro b))) bs && inclb bs l && forallb (fun b => inclb (mro b) l) bs) bases = true)
    by (vm_compute; reflexivity).
  rewrite forallb_forall in B. specialize (B _ H). cbn [fst snd] in B.
  apply andb_prop in B. destruct B as [B B6]. apply andb_prop in B. destruct B as [B B5]. apply andb_prop in B. destruct B as [B B4].
  apply andb_prop in B. destruct B as [B B3]. apply andb_prop in B. destruct B as [B1 B2].
  destruct (list_eq_dec string_dec (bases_of c bases) bs) as [E1|]; [|discriminate].
  destruct (list_eq_dec string_dec (mro_from bases 11 c) (mro c)) as [E2|]; [|discriminate]. clear B1 B2.
  rewrite forallb_forall in B4, B6. pose proof (C83_resolution_order bases 10 c) as Q. cbv zeta in Q.
  rewrite E1, E2 in Q. apply Q.
  - intros K. apply mem_In in K. rewrite K in B3. discriminate.
  - intros b Hb K. specialize (B4 b Hb). apply mem_In in K. unfold mro in B4. rewrite K in B4. discriminate.
  - rewrite <- E2. apply inclb_incl, B5.
  - intros b Hb. rewrite <- E2. apply inclb_incl. exact (B6 b Hb).
Qed.
Print Assumptions C83_library_resolution.

(** A hierarchy with a common ancestor. *)
Example C83_case_order :
  mro_from [("D", ["B"; "C"]); ("B", ["A"]); ("C", ["A"])] 3 "D" = ["D"; "B"; "C"; "A"].
Proof. reflexivity. Qed.

(** ** Cases. *)
Example C83_case_accepted :
  exists r,
    build "Docking2dImplicitOptimizationRTA" []
      [("m", num 12); ("control_bounds_high", num 2); ("epsilon", num 0);
       ("integration_method", PStr "Euler"); ("jit_enable", PBool false)] = Ok r
    /\ got r "RTAModule" "control_bounds_high" = Some (num 2)
    /\ got r "RTAModule" "control_bounds_low" = Some (num (-1))
    /\ got r "BaseOptimizationModule" "control_dim" = Some (PNum 2)
    /\ got r "ImplicitASIFModule" "integration_method" = Some (PStr "Euler").
Proof. eexists. split; [vm_compute; reflexivity|]. repeat split; vm_compute; reflexivity. Qed.
Example C83_case_rejected :
  build "Docking2dImplicitOptimizationRTA" [] [("control_bound_high", num 2)] = Err TypeError
  /\ build "Docking2dExplicitSwitchingRTA" [] [("integration_method", PStr "rk45")]
     = Err AssertionError
  /\ build "Inspection1v1RTA" [] [("control_dim", num 3)] = Err TypeError
  /\ build "InspectionCascadedRTA" [] [("delta_v_limit", num 3)] = Err TypeError.
Proof. repeat split; vm_compute; reflexivity. Qed.
(** A user's module with an option of its own. *)
Example C83_case_user :
  exists r,
    construct
      (mkInit "MyRTA" [] true [("gain", Some (num 1))] true
              (SCall [("control_dim", FConst (num 2))]) :: chain "ExplicitASIFModule")
      [] [("gain", num 7); ("epsilon", num 0)] = Ok r
    /\ got r "MyRTA" "gain" = Some (num 7).
Proof. eexists. split; vm_compute; reflexivity. Qed.
Example C83_case_position :
  exists r, build "ConstraintMaxStateLimit" [num 10; num 2] [("bias", num (-5))] = Ok r
            /\ got r "ConstraintModule" "bias" = Some (num (-5))
            /\ got r "ConstraintMaxStateLimit" "limit_val" = Some (num 10).
Proof. eexists. split; [vm_compute; reflexivity|]. split; vm_compute; reflexivity. Qed.

Print Assumptions C83_docking_accepted.
Print Assumptions C83_accepted.
Print Assumptions C83_honoured.
Print Assumptions C83_unknown_rejected.
Print Assumptions C83_position_rejected.
Print Assumptions C83_nothing_lost.
Print Assumptions C83_constraint_accepted.
Print Assumptions C83_constraint_honoured.
Print Assumptions C83_constraint_unknown_ignored.
Print Assumptions C83_constraint_refuted.
Print Assumptions C83_by_position.
