(** Proofs about the constructors: when a chain of constructors accepts a keyword
    dictionary, and which value each class receives. *)
From Coq Require Import String List Bool.
From Verif Require Import Prelude ModelArgs.
Import ListNotations.
Local Open Scope list_scope.

Lemma mem_In k l : mem k l = true <-> In k l.
Proof.
  unfold mem. rewrite existsb_exists. split.
  - intros (x & Hx & E). apply String.eqb_eq in E. subst. exact Hx.
  - intros H. exists k. split; [exact H | apply String.eqb_refl].
Qed.
Lemma mem_not k l : mem k l = false <-> ~ In k l.
Proof. rewrite <- mem_In. destruct (mem k l); split; congruence || tauto. Qed.

Lemma lookup_In k kw v : lookup k kw = Some v -> In (k, v) kw.
Proof.
  induction kw as [|(k', v') r IH]; cbn; [discriminate|].
  destruct (String.eqb k k') eqn:E.
  - apply String.eqb_eq in E. intros H. inversion H; subst. left; reflexivity.
  - intros H. right. auto.
Qed.
Lemma lookup_keys k kw : In k (keys kw) <-> exists v, lookup k kw = Some v.
Proof.
  split.
  - induction kw as [|(k', v') r IH]; cbn; [tauto|].
    intros [->|H].
    + rewrite String.eqb_refl. eauto.
    + destruct (String.eqb k k'); eauto.
  - intros (v & H). apply lookup_In in H. apply (in_map fst) in H. exact H.
Qed.
Lemma lookup_none k kw : lookup k kw = None <-> ~ In k (keys kw).
Proof.
  rewrite lookup_keys. destruct (lookup k kw); split; try congruence.
  - intros H. exfalso. apply H. eauto.
  - intros _ (v & E). congruence.
Qed.
Lemma lookup_unique k v kw : NoDup (keys kw) -> In (k, v) kw -> lookup k kw = Some v.
Proof.
  induction kw as [|(k', v') r IH]; cbn; [tauto|].
  intros N H. inversion N as [|? ? N1 N2]; subst.
  destruct H as [H|H].
  - inversion H; subst. rewrite String.eqb_refl. reflexivity.
  - destruct (String.eqb k k') eqn:E.
    + apply String.eqb_eq in E. subst k'. exfalso. apply N1.
      apply (in_map fst) in H. exact H.
    + auto.
Qed.
Lemma lookup_app k a b :
  lookup k (a ++ b) = match lookup k a with Some v => Some v | None => lookup k b end.
Proof.
  induction a as [|(k', v') r IH]; cbn; [reflexivity|].
  destruct (String.eqb k k'); [reflexivity | exact IH].
Qed.
Lemma lookup_filter k kw (f : string -> bool) :
  lookup k (filter (fun p => f (fst p)) kw) = if f k then lookup k kw else None.
Proof.
  induction kw as [|(k', v') r IH]; cbn; [destruct (f k); reflexivity|].
  destruct (f k') eqn:F; cbn.
  - destruct (String.eqb k k') eqn:E.
    + apply String.eqb_eq in E. subst. rewrite F. reflexivity.
    + exact IH.
  - destruct (String.eqb k k') eqn:E.
    + apply String.eqb_eq in E. subst. rewrite IH, F. reflexivity.
    + exact IH.
Qed.
Lemma keys_filter kw (f : string -> bool) :
  keys (filter (fun p => f (fst p)) kw) = filter f (keys kw).
Proof.
  unfold keys. induction kw as [|(k', v') r IH]; cbn; [reflexivity|].
  destruct (f k'); cbn; rewrite IH; reflexivity.
Qed.
Lemma NoDup_app_intro {A} (a b : list A) :
  NoDup a -> NoDup b -> (forall x, In x a -> ~ In x b) -> NoDup (a ++ b).
Proof.
  induction a as [|x a IH]; cbn; intros Ha Hb D; [exact Hb|].
  inversion Ha; subst. constructor.
  - intros C. apply in_app_or in C. destruct C as [C|C]; [tauto|].
    apply (D x); [left; reflexivity | exact C].
  - apply IH; auto.
Qed.
Lemma is_nil_true {A} (l : list A) : is_nil l = true <-> l = [].
Proof. destruct l; cbn; split; congruence. Qed.

(** ** Filling parameters. *)
Lemma fill_ok ps g :
  (exists env, fill ps g = Ok env) <-> (forall p, In (p, None) ps -> In p (keys g)).
Proof.
  induction ps as [|(p, d) r IH]; cbn.
  - split; [intros _ p []|eauto].
  - split.
    + intros (env & H) q [E|Hq].
      * inversion E; subst. destruct (lookup q g) eqn:L; [|discriminate].
        apply lookup_keys. eauto.
      * destruct (match lookup p g with Some v => Some v | None => d end); [|discriminate].
        destruct (fill r g) eqn:F; [|discriminate].
        apply IH; eauto.
    + intros H.
      assert (exists env, fill r g = Ok env) as (env & ->)
        by (apply IH; intros q Hq; apply H; right; exact Hq).
      destruct (lookup p g) eqn:L; [eauto|].
      destruct d; [eauto|]. exfalso.
      apply lookup_none in L. apply L, H. left; reflexivity.
Qed.
Lemma fill_err ps g e : fill ps g = Err e -> e = TypeError.
Proof.
  induction ps as [|(p, d) r IH]; cbn; [discriminate|].
  destruct (match lookup p g with Some v => Some v | None => d end); [|congruence].
  destruct (fill r g); [discriminate|]. intros H. apply IH. congruence.
Qed.

Fixpoint default_of (p : string) (ps : list param) : option (option pyval) :=
  match ps with
  | [] => None
  | (q, d) :: r => if String.eqb p q then Some d else default_of p r
  end.
Definition given_or (g : kwargs) (p : string) (d : option pyval) : option pyval :=
  match lookup p g with Some v => Some v | None => d end.

Lemma fill_values ps g env :
  fill ps g = Ok env ->
  map (fun p => (fst p, Some (snd p))) env
  = map (fun p => (fst p, given_or g (fst p) (snd p))) ps.
Proof.
  revert env. induction ps as [|(p, d) r IH]; cbn; intros env H.
  - inversion H. reflexivity.
  - unfold given_or at 1. cbn.
    destruct (match lookup p g with Some v => Some v | None => d end) eqn:L; [|discriminate].
    destruct (fill r g) eqn:F; [|discriminate].
    inversion H; subst. cbn. rewrite (IH _ eq_refl). reflexivity.
Qed.
Lemma fill_lookup ps g env p :
  fill ps g = Ok env ->
  lookup p env = match default_of p ps with Some d => given_or g p d | None => None end.
Proof.
  revert env. induction ps as [|(q, d) r IH]; cbn; intros env H.
  - inversion H. reflexivity.
  - destruct (match lookup q g with Some v => Some v | None => d end) eqn:L; [|discriminate].
    destruct (fill r g) eqn:F; [|discriminate].
    inversion H; subst. cbn. destruct (String.eqb p q) eqn:E.
    + apply String.eqb_eq in E. subst. unfold given_or. rewrite L. reflexivity.
    + apply IH. reflexivity.
Qed.

Lemma take_pos_nil ps : take_pos ps [] = ([], []).
Proof. destruct ps as [|(p, d) r]; reflexivity. Qed.

(** ** Which keywords a chain accepts. *)
Fixpoint accepts (ch : list init) (k : string) : bool :=
  match ch with
  | [] => false
  | i :: rest =>
      mem k (names (params i))
      || (i_kw i && match i_super i with
                    | SCall fw => negb (mem k (map fst fw)) && accepts rest k
                    | _ => true
                    end)
  end.
Definition no_default (ps : list param) : list string :=
  map fst (filter (fun p => match snd p with None => true | Some _ => false end) ps).
Fixpoint needs (ch : list init) : list string :=
  match ch with
  | [] => []
  | i :: rest =>
      no_default (params i)
      ++ match i_super i with
         | SCall fw => filter (fun k => negb (mem k (map fst fw))) (needs rest)
         | _ => []
         end
  end.
Fixpoint nodup_b (l : list string) : bool :=
  match l with [] => true | x :: r => negb (mem x r) && nodup_b r end.
Fixpoint static (ch : list init) : bool :=
  match ch with
  | [] => true
  | i :: rest =>
      match i_super i with
      | SCall fw =>
          nodup_b (map fst fw)
          && forallb (fun p => accepts rest (fst p)) fw
          && forallb (fun k => mem k (map fst fw) || negb (mem k (names (params i))))
                     (needs rest)
          && static rest
      | SValidator f => is_nil (no_default f)
      | SNone => true
      end
  end.

Lemma nodup_b_ok l : nodup_b l = true -> NoDup l.
Proof.
  induction l as [|x r IH]; cbn; intros H; [constructor|].
  apply andb_true_iff in H. destruct H as (H1 & H2).
  constructor; [|auto]. apply mem_not. destruct (mem x r); [discriminate|reflexivity].
Qed.
Lemma In_no_default p ps : In p (no_default ps) <-> In (p, None) ps.
Proof.
  unfold no_default. rewrite in_map_iff. split.
  - intros ((q & d) & E & H). cbn in E. subst q. apply filter_In in H.
    destruct H as (H & D). destruct d; [discriminate|exact H].
  - intros H. exists (p, None). split; [reflexivity|]. apply filter_In. auto.
Qed.

Lemma bind_no_args i kw :
  bind_args i [] kw =
  let rest := filter (fun p => negb (mem (fst p) (names (params i)))) kw in
  if negb (i_kw i) && negb (is_nil rest) then Err TypeError
  else match fill (params i) kw with
       | Err e => Err e
       | Ok env => Ok (env, [], rest)
       end.
Proof.
  unfold bind_args. rewrite take_pos_nil. cbn. rewrite andb_false_r. reflexivity.
Qed.

Lemma construct_err ch args kw e : construct ch args kw = Err e -> e = TypeError.
Proof.
  revert args kw. induction ch as [|i rest IH]; intros args kw; cbn [construct].
  - destruct (is_nil args && is_nil kw); congruence.
  - unfold bind_args. destruct (take_pos (i_pos i) args) as (bp & xs).
    destruct (negb (i_star i) && negb (is_nil xs)); [congruence|].
    destruct (existsb _ bp); [congruence|].
    destruct (negb (i_kw i) && _); [congruence|].
    destruct (fill (params i) (bp ++ kw)) eqn:F;
      [|intros H; inversion H; subst; eapply fill_err; eauto].
    destruct (i_super i) as [fw|f|]; [|destruct (fill f _) eqn:F2|congruence].
    + destruct (existsb _ fw); [congruence|].
      destruct (construct rest xs _) eqn:C; [congruence|].
      intros H. inversion H; subst. eapply IH; eauto.
    + congruence.
    + intros H. inversion H; subst. eapply fill_err; eauto.
Qed.

Theorem accept_iff ch : static ch = true -> forall kw, NoDup (keys kw) ->
  ((exists r, construct ch [] kw = Ok r)
   <-> (forall k, In k (keys kw) -> accepts ch k = true)
       /\ (forall k, In k (needs ch) -> In k (keys kw))).
Proof.
  induction ch as [|i rest IH]; intros St kw N.
  - cbn. split.
    + intros (r & H). destruct kw; cbn in H; [|discriminate]. split; intros k [].
    + intros (H & _). destruct kw as [|(k, v) kw]; cbn; [eauto|].
      exfalso. specialize (H k (or_introl eq_refl)). discriminate.
  - cbn [construct]. rewrite bind_no_args. cbv zeta.
    set (rkw := filter (fun p => negb (mem (fst p) (names (params i)))) kw).
    assert (Kr : forall k, In k (keys rkw) <-> In k (keys kw) /\ ~ In k (names (params i))).
    { intros k. unfold rkw.
      rewrite (keys_filter kw (fun q => negb (mem q (names (params i))))), filter_In.
      rewrite negb_true_iff, mem_not. reflexivity. }
    assert (Nr : NoDup (keys rkw)).
    { unfold rkw. rewrite (keys_filter kw (fun q => negb (mem q (names (params i))))).
      apply NoDup_filter. exact N. }
    assert (Rn : is_nil rkw = true <-> forall k, In k (keys kw) -> In k (names (params i))).
    { rewrite is_nil_true. split.
      - intros E k Hk. destruct (in_dec string_dec k (names (params i))) as [H|H]; [exact H|].
        exfalso. assert (In k (keys rkw)) by (apply Kr; auto). rewrite E in *. auto.
      - intros H. destruct rkw as [|(k, v) r0]; [reflexivity|]. exfalso.
        assert (In k (keys ((k, v) :: r0))) as X by (left; reflexivity).
        apply Kr in X. apply (proj2 X). apply H, X. }
    clearbody rkw.
    cbn [accepts needs static] in *.
    destruct (negb (i_kw i) && negb (is_nil rkw)) eqn:B.
    { apply andb_true_iff in B. destruct B as (B1 & B2).
      apply negb_true_iff in B1. apply negb_true_iff in B2.
      split; [intros (r & H); discriminate|].
      intros (H & _). exfalso.
      assert (is_nil rkw = true); [|congruence]. apply Rn. intros k Hk.
      specialize (H k Hk). rewrite B1 in H. cbn in H. rewrite orb_false_r in H.
      apply mem_In. exact H. }
    assert (B' : i_kw i = true \/ forall k, In k (keys kw) -> In k (names (params i))).
    { destruct (i_kw i); [left; reflexivity|]. right. apply Rn.
      cbn in B. apply negb_false_iff in B. exact B. }
    destruct (fill (params i) kw) as [env|e] eqn:F.
    2:{ split; [intros (r & H); discriminate|]. intros (_ & H). exfalso.
        assert (exists env, fill (params i) kw = Ok env) as (env & E).
        { apply fill_ok. intros p Hp. apply H. apply in_or_app. left.
          apply In_no_default. exact Hp. }
        congruence. }
    assert (Fn : forall p, In p (no_default (params i)) -> In p (keys kw)).
    { intros p Hp. apply In_no_default in Hp. revert p Hp. apply fill_ok. eauto. }
    destruct (i_super i) as [fw|f|].
    + rewrite !andb_true_iff in St. destruct St as (((S1 & S2) & S3) & S4).
      apply nodup_b_ok in S1. rewrite forallb_forall in S2, S3.
      destruct (existsb (fun p => mem (fst p) (keys rkw)) fw) eqn:X.
      { split; [intros (r & H); discriminate|]. intros (H & _). exfalso.
        apply existsb_exists in X. destruct X as ((k & f) & Hf & Hk). cbn in Hk.
        apply mem_In, Kr in Hk. destruct Hk as (Hk & Hn).
        specialize (H k Hk). apply orb_true_iff in H. destruct H as [H|H].
        - apply mem_In in H. auto.
        - rewrite !andb_true_iff in H. destruct H as (_ & H & _).
          apply negb_true_iff, mem_not in H. apply H.
          apply (in_map fst) in Hf. exact Hf. }
      assert (D : forall k, In k (map fst fw) -> ~ In k (keys rkw)).
      { intros k Hk Hr. apply in_map_iff in Hk. destruct Hk as ((k' & f) & E & Hf).
        cbn in E. subst k'.
        assert (existsb (fun p => mem (fst p) (keys rkw)) fw = true); [|congruence].
        apply existsb_exists. exists (k, f). split; [exact Hf|]. apply mem_In. exact Hr. }
      set (kw' := map (fun p => (fst p, handed_on env (snd p))) fw ++ rkw).
      assert (K' : keys kw' = map fst fw ++ keys rkw).
      { unfold kw', keys. rewrite map_app, map_map. reflexivity. }
      assert (N' : NoDup (keys kw')).
      { rewrite K'. apply NoDup_app_intro; auto. }
      clearbody kw'.
      specialize (IH S4 kw' N'). split.
      * intros (r & H). destruct (construct rest [] kw') as [r'|e] eqn:C; [|discriminate].
        destruct (proj1 IH (ex_intro _ r' eq_refl)) as (A1 & A2). split.
        -- intros k Hk. destruct (mem k (names (params i))) eqn:M; [reflexivity|].
           apply mem_not in M. assert (Hr : In k (keys rkw)) by (apply Kr; auto).
           destruct B' as [B'|B']; [|exfalso; auto].
           rewrite B'. cbn. rewrite A1.
           ++ rewrite andb_true_r. apply negb_true_iff, mem_not.
              intros C1. apply (D k C1 Hr).
           ++ rewrite K'. apply in_or_app. right. exact Hr.
        -- intros k Hk. apply in_app_or in Hk. destruct Hk as [Hk|Hk]; [auto|].
           apply filter_In in Hk. destruct Hk as (Hk & Hf).
           apply negb_true_iff, mem_not in Hf. apply A2 in Hk. rewrite K' in Hk.
           apply in_app_or in Hk. destruct Hk as [Hk|Hk]; [tauto|]. apply Kr, Hk.
      * intros (A1 & A2).
        assert (exists r, construct rest [] kw' = Ok r) as (r & ->); [|eauto].
        apply IH. split.
        -- intros k Hk. rewrite K' in Hk. apply in_app_or in Hk. destruct Hk as [Hk|Hk].
           ++ apply in_map_iff in Hk. destruct Hk as ((k' & f) & E & Hf).
              cbn in E. subst k'. apply (S2 _ Hf).
           ++ apply Kr in Hk. destruct Hk as (Hk & Hn). specialize (A1 k Hk).
              apply mem_not in Hn. rewrite Hn in A1. cbn in A1.
              rewrite !andb_true_iff in A1. tauto.
        -- intros k Hk. rewrite K'. apply in_or_app.
           destruct (mem k (map fst fw)) eqn:M.
           ++ left. apply mem_In. exact M.
           ++ right. apply Kr. split.
              ** apply A2. apply in_or_app. right. apply filter_In. split; [exact Hk|].
                 rewrite M. reflexivity.
              ** specialize (S3 k Hk). rewrite M in S3. cbn in S3.
                 apply negb_true_iff, mem_not in S3. exact S3.
    + apply is_nil_true in St.
      assert (exists fenv, fill f rkw = Ok fenv) as (fenv & ->).
      { apply fill_ok. intros p Hp. apply In_no_default in Hp. rewrite St in Hp. destruct Hp. }
      split; [|eauto]. intros _. split.
      * intros k Hk. destruct (mem k (names (params i))) eqn:M; [reflexivity|].
        apply mem_not in M. destruct B' as [B'|B']; [rewrite B'; reflexivity|].
        exfalso. auto.
      * intros k Hk. rewrite app_nil_r in Hk. auto.
    + split; [|eauto]. intros _. split.
      * intros k Hk. destruct (mem k (names (params i))) eqn:M; [reflexivity|].
        apply mem_not in M. destruct B' as [B'|B']; [rewrite B'; reflexivity|].
        exfalso. auto.
      * intros k Hk. rewrite app_nil_r in Hk. auto.
Qed.

(** ** Which value each class receives. *)
Inductive src : Type :=
| SUser (k : string) (d : option pyval)
| SUnless (s : src) (v : pyval)
| SVal (v : option pyval).
Fixpoint eval (kw : kwargs) (s : src) : option pyval :=
  match s with
  | SUser k d => given_or kw k d
  | SUnless s v => match eval kw s with Some PNone => Some v | x => x end
  | SVal v => v
  end.
Definition own_src (ps : list param) (p : string) : src :=
  match default_of p ps with
  | Some d => SUser p d
  | None => SVal (Some PNone)
  end.
Definition fwd_src (ps : list param) (f : fwd) : src :=
  match f with
  | FParam p => own_src ps p
  | FUnlessNone p v => SUnless (own_src ps p) v
  | FConst v => SVal (Some v)
  end.
Fixpoint fwd_of (k : string) (fw : list (string * fwd)) : option fwd :=
  match fw with
  | [] => None
  | (q, f) :: r => if String.eqb k q then Some f else fwd_of k r
  end.
Fixpoint subst (ps : list param) (fw : list (string * fwd)) (s : src) : src :=
  match s with
  | SUser k d =>
      match fwd_of k fw with
      | Some f => fwd_src ps f
      | None => if mem k (names ps) then SVal d else SUser k d
      end
  | SUnless s v => SUnless (subst ps fw s) v
  | SVal v => SVal v
  end.
Definition tag_src (c : string) (ps : list param) : list (string * string * src) :=
  map (fun p => (c, fst p, SUser (fst p) (snd p))) ps.
Fixpoint values (ch : list init) : list (string * string * src) :=
  match ch with
  | [] => []
  | i :: rest =>
      tag_src (i_class i) (params i)
      ++ match i_super i with
         | SCall fw =>
             map (fun t => (fst t, subst (params i) fw (snd t))) (values rest)
         | SValidator f =>
             map (fun t => (fst t, subst (params i) [] (snd t))) (tag_src (i_class i) f)
         | SNone => []
         end
  end.

Definition some_val (t : string * string * pyval) : string * string * option pyval :=
  (fst t, Some (snd t)).
Definition eval_val (kw : kwargs) (t : string * string * src)
  : string * string * option pyval := (fst t, eval kw (snd t)).

Lemma tag_values c ps kw env :
  fill ps kw = Ok env ->
  map some_val (tag c env) = map (eval_val kw) (tag_src c ps).
Proof.
  intros H. apply fill_values in H. unfold tag, tag_src. rewrite !map_map.
  unfold some_val, eval_val. cbn.
  revert ps H. induction env as [|(p, v) env IH]; intros [|(q, d) ps] H; try discriminate.
  - reflexivity.
  - cbn in H. inversion H as [[E1 E2 E3]]. cbn. f_equal; [|apply IH; exact E3].
    try rewrite E2; reflexivity.
Qed.

Lemma own_src_handed ps kw env p :
  fill ps kw = Ok env ->
  eval kw (own_src ps p) = Some (match lookup p env with Some v => v | None => PNone end).
Proof.
  intros F. pose proof (fill_lookup _ _ _ p F) as L. unfold own_src.
  destruct (default_of p ps) as [d|] eqn:D; cbn; [|rewrite L; reflexivity].
  rewrite L. destruct (given_or kw p d) eqn:G; [reflexivity|]. exfalso.
  apply fill_values in F. revert F D G. clear. revert env.
  induction ps as [|(q, e) ps IH]; cbn; [discriminate|].
  intros [|(q', v) env] F; cbn in F; [discriminate|].
  inversion F as [[E1 E2 E3]].
  destruct (String.eqb p q) eqn:E.
  - apply String.eqb_eq in E. subst. intros D G. inversion D; subst. congruence.
  - eauto.
Qed.
Lemma fwd_src_handed ps kw env f :
  fill ps kw = Ok env -> eval kw (fwd_src ps f) = Some (handed_on env f).
Proof.
  intros F. destruct f as [p|p v|v]; cbn; [apply own_src_handed; exact F| |reflexivity].
  rewrite (own_src_handed _ _ _ p F). destruct (lookup p env) as [[]|]; reflexivity.
Qed.
Lemma fwd_lookup k fw env :
  lookup k (map (fun p => (fst p, handed_on env (snd p))) fw)
  = option_map (handed_on env) (fwd_of k fw).
Proof.
  induction fw as [|(q, f) r IH]; cbn; [reflexivity|].
  destruct (String.eqb k q); [reflexivity | exact IH].
Qed.
Lemma subst_eval ps fw kw env s :
  fill ps kw = Ok env ->
  eval (map (fun p => (fst p, handed_on env (snd p))) fw
        ++ filter (fun p => negb (mem (fst p) (names ps))) kw) s
  = eval kw (subst ps fw s).
Proof.
  intros F. induction s as [k d|s IH v|v]; cbn.
  - unfold given_or at 1. rewrite lookup_app, fwd_lookup.
    destruct (fwd_of k fw) as [f|]; cbn.
    + symmetry. apply fwd_src_handed. exact F.
    + rewrite (lookup_filter k kw (fun q => negb (mem q (names ps)))).
      destruct (mem k (names ps)); reflexivity.
  - rewrite IH. reflexivity.
  - reflexivity.
Qed.

Theorem received_values ch : forall kw r,
  construct ch [] kw = Ok r -> map some_val r = map (eval_val kw) (values ch).
Proof.
  induction ch as [|i rest IH]; intros kw r; cbn [construct values].
  - destruct (is_nil [] && is_nil kw); [|discriminate]. intros H. inversion H. reflexivity.
  - rewrite bind_no_args. cbv zeta.
    destruct (negb (i_kw i) && _); [discriminate|].
    destruct (fill (params i) kw) as [env|e] eqn:F; [|discriminate].
    rewrite map_app. rewrite <- (tag_values (i_class i) _ _ _ F).
    destruct (i_super i) as [fw|f|].
    + destruct (existsb _ fw); [discriminate|].
      destruct (construct rest [] _) as [r'|e] eqn:C; [|discriminate].
      intros H. inversion H; subst. rewrite map_app. f_equal.
      rewrite (IH _ _ C), map_map. apply map_ext. intros (t & s). unfold eval_val. cbn.
      f_equal. apply subst_eval. exact F.
    + destruct (fill f _) as [fenv|e] eqn:F2; [|discriminate].
      intros H. inversion H; subst. rewrite map_app. f_equal.
      rewrite (tag_values _ _ _ _ F2), map_map. apply map_ext. intros (t & s).
      unfold eval_val. cbn. f_equal.
      rewrite <- (subst_eval (params i) [] kw env s F). reflexivity.
    + intros H. inversion H; subst. cbn. rewrite app_nil_r. reflexivity.
Qed.

Fixpoint got_src (l : list (string * string * src)) (c p : string) : src :=
  match l with
  | [] => SVal None
  | (c', p', s) :: r =>
      if String.eqb c c' && String.eqb p p' then s else got_src r c p
  end.
Lemma got_value ch kw r c p :
  construct ch [] kw = Ok r -> got r c p = eval kw (got_src (values ch) c p).
Proof.
  intros H. apply received_values in H. revert r H.
  induction (values ch) as [|((c', p') & s) l IH]; intros [|((c'' & p'') & v) r] H;
    try discriminate; [reflexivity|].
  cbn in H. inversion H as [[E1 E2 E3 E4]]. cbn.
  destruct (String.eqb c c' && String.eqb p p'); [congruence | apply IH; exact E4].
Qed.

(** ** Nothing is lost on the way. *)
Definition closed (i : init) : Prop :=
  match i_super i with
  | SCall fw => NoDup (map fst fw)
  | SValidator _ => False
  | SNone => i_kw i = false /\ i_star i = false
  end.

Lemma fill_given ps g env k v :
  fill ps g = Ok env -> lookup k g = Some v -> In k (names ps) -> In (k, v) env.
Proof.
  intros F L H. pose proof (fill_lookup _ _ _ k F) as E.
  assert (exists d, default_of k ps = Some d) as (d & D).
  { clear -H. induction ps as [|(q, d) r IH]; [destruct H|]. cbn in *.
    destruct (String.eqb k q) eqn:Q; [eauto|]. destruct H as [H|H]; [|auto].
    subst. rewrite String.eqb_refl in Q. discriminate. }
  rewrite D in E. unfold given_or in E. rewrite L in E. apply lookup_In. exact E.
Qed.
Lemma take_pos_args ps args bp xs :
  take_pos ps args = (bp, xs) -> args = map snd bp ++ xs.
Proof.
  revert args bp xs. induction ps as [|(p, d) r IH]; intros [|a args] bp xs; cbn;
    try (intros H; inversion H; subst; reflexivity).
  destruct (take_pos r args) as (b & x) eqn:T. intros H. inversion H; subst.
  cbn. f_equal. apply IH. exact T.
Qed.
Lemma take_pos_names ps args bp xs :
  take_pos ps args = (bp, xs) -> exists l, names ps = keys bp ++ l.
Proof.
  revert args bp xs. induction ps as [|(p, d) r IH]; intros [|a args] bp xs; cbn;
    try (intros H; inversion H; subst; cbn; eauto; fail).
  destruct (take_pos r args) as (b & x) eqn:T. intros H. inversion H; subst.
  destruct (IH _ _ _ T) as (l & E). exists l. cbn. f_equal. exact E.
Qed.

Theorem nothing_lost ch :
  Forall closed ch ->
  Forall (fun i => NoDup (names (params i))) ch ->
  forall args kw r, NoDup (keys kw) -> construct ch args kw = Ok r ->
  (forall k v, In (k, v) kw -> exists c, In (c, k, v) r)
  /\ (forall v, In v args -> exists c p, In (c, p, v) r).
Proof.
  induction ch as [|i rest IH]; intros Cl Nd args kw r N; cbn [construct].
  - destruct args; cbn; [|discriminate]. destruct kw; cbn; [|discriminate].
    intros _. split; [intros k v [] | intros v []].
  - inversion Cl as [|? ? C1 C2]; subst. inversion Nd as [|? ? D1 D2]; subst.
    unfold bind_args. destruct (take_pos (i_pos i) args) as (bp & xs) eqn:T.
    destruct (negb (i_star i) && negb (is_nil xs)) eqn:B1; [discriminate|].
    destruct (existsb (fun p => mem (fst p) (keys kw)) bp) eqn:X; [discriminate|].
    cbv zeta.
    set (rkw := filter (fun p => negb (mem (fst p) (names (params i)))) kw).
    destruct (negb (i_kw i) && negb (is_nil rkw)) eqn:B2; [discriminate|].
    destruct (fill (params i) (bp ++ kw)) as [env|e] eqn:F; [|discriminate].
    pose proof (take_pos_args _ _ _ _ T) as Ea.
    destruct (take_pos_names _ _ _ _ T) as (ln & En).
    assert (Dbp : forall k, In k (keys bp) -> ~ In k (keys kw)).
    { intros k Hk Hw. apply in_map_iff in Hk. destruct Hk as ((k' & v) & E & Hb).
      cbn in E. subst k'. assert (existsb (fun p => mem (fst p) (keys kw)) bp = true);
        [|congruence]. apply existsb_exists. exists (k, v). split; [exact Hb|].
      apply mem_In. exact Hw. }
    assert (Own : forall k v, In (k, v) kw -> In k (names (params i)) -> In (k, v) env).
    { intros k v Hk Hn. eapply fill_given; eauto. rewrite lookup_app.
      assert (lookup k bp = None) as ->.
      { apply lookup_none. intros C. apply (Dbp k C). apply (in_map fst) in Hk. exact Hk. }
      apply lookup_unique; assumption. }
    assert (Nbp : NoDup (keys bp)).
    { unfold params, names in D1. rewrite map_app in D1.
      change (map fst (i_pos i)) with (names (i_pos i)) in D1. unfold param in D1.
      rewrite En in D1.
      rewrite <- app_assoc in D1. clear -D1.
      induction (keys bp) as [|x l IH]; [constructor|]. cbn in D1. inversion D1; subst.
      constructor; [|auto]. intros C. apply H1. apply in_or_app. left. exact C. }
    assert (Pos : forall k v, In (k, v) bp -> In (k, v) env).
    { intros k v Hb. eapply fill_given; eauto.
      - rewrite lookup_app. rewrite (lookup_unique k v bp); auto.
      - unfold params, names. rewrite map_app. apply in_or_app. left.
        change (map fst (i_pos i)) with (names (i_pos i)). rewrite En. apply in_or_app. left.
        apply (in_map fst) in Hb. exact Hb. }
    assert (Tag : forall k v, In (k, v) env -> In (i_class i, k, v) (tag (i_class i) env)).
    { intros k v H. unfold tag. apply in_map_iff. exists (k, v). auto. }
    assert (Arg : forall v, In v (map snd bp) ->
              exists c p, In (c, p, v) (tag (i_class i) env)).
    { intros v Hv. apply in_map_iff in Hv. destruct Hv as ((k & v') & E & Hb).
      cbn in E. subst v'. exists (i_class i), k. auto. }
    unfold closed in C1. destruct (i_super i) as [fw|f|]; [|destruct C1|].
    + destruct (existsb (fun p => mem (fst p) (keys rkw)) fw) eqn:Y; [discriminate|].
      destruct (construct rest xs _) as [r'|e] eqn:C; [|discriminate].
      intros H. inversion H; subst r. clear H.
      assert (N' : NoDup (keys (map (fun p => (fst p, handed_on env (snd p))) fw ++ rkw))).
      { unfold keys. rewrite map_app, map_map. cbn. apply NoDup_app_intro.
        - exact C1.
        - change (map fst rkw) with (keys rkw). unfold rkw.
          rewrite (keys_filter kw (fun q => negb (mem q (names (params i))))).
          apply NoDup_filter. exact N.
        - intros k Hk Hr. apply in_map_iff in Hk. destruct Hk as ((k' & f) & E & Hf).
          cbn in E. subst k'.
          assert (existsb (fun p => mem (fst p) (keys rkw)) fw = true); [|congruence].
          apply existsb_exists. exists (k, f). split; [exact Hf|]. apply mem_In. exact Hr. }
      destruct (IH C2 D2 _ _ _ N' C) as (I1 & I2). split.
      * intros k v Hk. destruct (in_dec string_dec k (names (params i))) as [G|G].
        -- exists (i_class i). apply in_or_app. left. apply Tag, Own; assumption.
        -- destruct (I1 k v) as (c & Hc).
           ++ apply in_or_app. right. apply filter_In. split; [exact Hk|]. cbn.
              apply negb_true_iff, mem_not. exact G.
           ++ exists c. apply in_or_app. right. exact Hc.
      * intros v Hv. rewrite Ea in Hv. apply in_app_or in Hv. destruct Hv as [Hv|Hv].
        -- destruct (Arg v Hv) as (c & p & Hc). exists c, p. apply in_or_app. left. exact Hc.
        -- destruct (I2 v Hv) as (c & p & Hc). exists c, p. apply in_or_app. right. exact Hc.
    + destruct C1 as (K1 & K2). rewrite K1 in B2. rewrite K2 in B1. cbn in B1, B2.
      apply negb_false_iff, is_nil_true in B1. apply negb_false_iff, is_nil_true in B2.
      intros H. inversion H; subst r. split.
      * intros k v Hk. exists (i_class i). apply Tag, Own; [exact Hk|].
        destruct (in_dec string_dec k (names (params i))) as [G|G]; [exact G|]. exfalso.
        assert (In (k, v) rkw) as Q.
        { apply filter_In. split; [exact Hk|]. cbn. apply negb_true_iff, mem_not. exact G. }
        rewrite B2 in Q. destruct Q.
      * intros v Hv. rewrite Ea in Hv. rewrite B1, app_nil_r in Hv. auto.
Qed.

(** ** The options of a chain as lists, for comparison with the tables. *)
Fixpoint opts_of (ch : list init) : list string :=
  match ch with
  | [] => []
  | i :: rest =>
      names (params i)
      ++ match i_super i with
         | SCall fw =>
             if i_kw i then filter (fun k => negb (mem k (map fst fw))) (opts_of rest) else []
         | _ => []
         end
  end.
Fixpoint closed_b (ch : list init) : bool :=
  match ch with
  | [] => true
  | i :: rest =>
      nodup_b (names (params i))
      && match i_super i with
         | SCall fw => nodup_b (map fst fw) && closed_b rest
         | SValidator _ => false
         | SNone => negb (i_kw i) && negb (i_star i) && is_nil rest
         end
  end.
Lemma mem_app k a b : mem k (a ++ b) = mem k a || mem k b.
Proof. unfold mem. apply existsb_app. Qed.
Lemma mem_filter k l (f : string -> bool) : mem k (filter f l) = mem k l && f k.
Proof.
  induction l as [|x l IH]; cbn; [reflexivity|].
  destruct (String.eqb k x) eqn:E.
  - apply String.eqb_eq in E. subst x. destruct (f k) eqn:F; cbn.
    + rewrite String.eqb_refl. reflexivity.
    + change (existsb (String.eqb k) (filter f l)) with (mem k (filter f l)).
      rewrite IH. apply andb_false_r.
  - destruct (f x); cbn; [rewrite E; cbn|]; exact IH.
Qed.
Lemma closed_b_closed ch :
  closed_b ch = true -> Forall closed ch /\ Forall (fun i => NoDup (names (params i))) ch.
Proof.
  induction ch as [|i rest IH]; cbn; intros H; [split; constructor|].
  apply andb_true_iff in H. destruct H as (H1 & H). apply nodup_b_ok in H1.
  destruct (i_super i) as [fw|f|] eqn:S; [| |].
  - apply andb_true_iff in H. destruct H as (H2 & H3). destruct (IH H3) as (I1 & I2).
    split; constructor; auto. unfold closed. rewrite S. apply nodup_b_ok. exact H2.
  - discriminate.
  - rewrite !andb_true_iff, !negb_true_iff in H. destruct H as ((H2 & H3) & H4).
    apply is_nil_true in H4. subst rest.
    split; constructor; auto. unfold closed. rewrite S. auto.
Qed.
Lemma accepts_opts ch k : closed_b ch = true -> accepts ch k = mem k (opts_of ch).
Proof.
  induction ch as [|i rest IH]; cbn [accepts opts_of closed_b]; intros H; [reflexivity|].
  apply andb_true_iff in H. destruct H as (_ & H).
  rewrite mem_app. f_equal. destruct (i_super i) as [fw|f|].
  - apply andb_true_iff in H. destruct H as (_ & H). rewrite (IH H).
    destruct (i_kw i); [|reflexivity].
    rewrite (mem_filter k (opts_of rest) (fun q => negb (mem q (map fst fw)))).
    cbn [andb]. apply andb_comm.
  - discriminate.
  - rewrite !andb_true_iff, !negb_true_iff in H. destruct H as ((H2 & H3) & H4).
    rewrite H2. reflexivity.
Qed.

(** Chains that end in a pydantic model accept all but these. *)
Fixpoint blocked (ch : list init) : list string :=
  match ch with
  | [] => []
  | i :: rest =>
      filter (fun k => negb (mem k (names (params i))))
        match i_super i with
        | SCall fw => map fst fw ++ blocked rest
        | _ => []
        end
  end.
Fixpoint open_b (ch : list init) : bool :=
  match ch with
  | [] => false
  | i :: rest =>
      i_kw i && match i_super i with
                | SCall _ => open_b rest
                | SValidator _ => true
                | SNone => false
                end
  end.
Lemma accepts_open ch k : open_b ch = true -> accepts ch k = negb (mem k (blocked ch)).
Proof.
  induction ch as [|i rest IH]; cbn [accepts blocked open_b]; intros H; [discriminate|].
  apply andb_true_iff in H. destruct H as (K & H). rewrite K.
  rewrite (mem_filter k _ (fun q => negb (mem q (names (params i))))).
  destruct (mem k (names (params i))) eqn:M; cbn [orb andb negb]; [rewrite andb_false_r; reflexivity|].
  rewrite andb_true_r. destruct (i_super i) as [fw|f|].
  - rewrite mem_app, negb_orb, (IH H). reflexivity.
  - reflexivity.
  - discriminate.
Qed.

(** Arguments by position. *)
Lemma take_pos_short ps args :
  length args <= length ps ->
  take_pos ps args = (combine (names ps) args, []).
Proof.
  revert args. induction ps as [|(p, d) r IH]; intros [|a args] H; cbn in *;
    try reflexivity; [exfalso; apply (PeanoNat.Nat.nle_succ_0 _ H)|].
  rewrite (IH args) by (apply le_S_n; exact H). reflexivity.
Qed.
Lemma take_pos_long ps args :
  length ps < length args -> exists bp x xs, take_pos ps args = (bp, x :: xs).
Proof.
  revert args. induction ps as [|(p, d) r IH]; intros [|a args] H; cbn in *.
  - inversion H.
  - eauto.
  - inversion H.
  - destruct (IH args) as (bp & x & xs & ->); [apply le_S_n; exact H|]. eauto.
Qed.
Lemma combine_names {A} (l : list string) (a : list A) k :
  In k (map fst (combine l a)) -> In k l.
Proof.
  revert a. induction l as [|x l IH]; intros [|y a]; cbn; try tauto.
  intros [H|H]; [left; exact H | right; eauto].
Qed.

Theorem by_position i rest args kw :
  (length args <= length (i_pos i))%nat ->
  (forall k, In k (keys (combine (names (i_pos i)) args)) -> ~ In k (keys kw)) ->
  construct (i :: rest) args kw
  = construct (i :: rest) [] (combine (names (i_pos i)) args ++ kw).
Proof.
  intros L D. cbn [construct]. rewrite bind_no_args. unfold bind_args.
  rewrite (take_pos_short _ _ L). cbn [is_nil negb]. rewrite andb_false_r.
  assert (existsb (fun p => mem (fst p) (keys kw)) (combine (names (i_pos i)) args) = false) as ->.
  { destruct (existsb _ _) eqn:X; [|reflexivity]. exfalso.
    apply existsb_exists in X. destruct X as ((k & v) & H & M). cbn in M.
    apply mem_In in M. apply (D k); [|exact M]. apply (in_map fst) in H. exact H. }
  cbv zeta.
  assert (filter (fun p => negb (mem (fst p) (names (params i))))
            (combine (names (i_pos i)) args ++ kw)
          = filter (fun p => negb (mem (fst p) (names (params i)))) kw) as ->; [|reflexivity].
  rewrite filter_app.
  assert (filter (fun p => negb (mem (fst p) (names (params i))))
                 (combine (names (i_pos i)) args) = []) as ->; [|reflexivity].
  assert (G : forall l : kwargs, (forall k, In k (keys l) -> In k (names (params i))) ->
              filter (fun p => negb (mem (fst p) (names (params i)))) l = []).
  { induction l as [|(k & v) l IH]; intros H; [reflexivity|]. cbn [filter fst].
    assert (mem k (names (params i)) = true) as ->
      by (apply mem_In, H; left; reflexivity).
    cbn. apply IH. intros q Hq. apply H. right. exact Hq. }
  apply G. intros k Hk. unfold params, names. rewrite map_app. apply in_or_app. left.
  apply combine_names in Hk. exact Hk.
Qed.
Lemma too_many_args i rest args kw :
  (length (i_pos i) < length args)%nat -> i_star i = false ->
  construct (i :: rest) args kw = Err TypeError.
Proof.
  intros L S. cbn [construct]. unfold bind_args.
  destruct (take_pos_long _ _ L) as (bp & x & xs & ->). rewrite S. reflexivity.
Qed.

(** Constructors without positional parameters reject arguments by position. *)
Lemma no_position ch args kw :
  forallb (fun i => is_nil (i_pos i)
                    && match i_super i with SCall _ => true | _ => false end) ch = true ->
  args <> [] -> construct ch args kw = Err TypeError.
Proof.
  intros H Ha. destruct (construct ch args kw) as [r|e] eqn:C;
    [exfalso | f_equal; eapply construct_err; eauto].
  revert args kw r H Ha C. induction ch as [|i rest IH]; intros args kw r H Ha.
  - destruct args; [congruence|]. cbn. discriminate.
  - cbn [construct forallb] in *. apply andb_true_iff in H. destruct H as (H1 & H2).
    apply andb_true_iff in H1. destruct H1 as (P & S). apply is_nil_true in P.
    unfold bind_args. rewrite P. cbn [take_pos].
    destruct (negb (i_star i) && _); [discriminate|]. cbn [existsb]. cbv zeta.
    destruct (negb (i_kw i) && _); [discriminate|].
    destruct (fill _ _); [|discriminate].
    destruct (i_super i); [|discriminate|discriminate].
    destruct (existsb _ _); [discriminate|].
    destruct (construct rest args _) eqn:C; [|discriminate].
    intros _. eapply IH; eauto.
Qed.

(** Leaving out a keyword that no class has a parameter for. *)
Fixpoint mentions (s : src) : list string :=
  match s with SUser k _ => [k] | SUnless s _ => mentions s | SVal _ => [] end.
Lemma eval_ext kw kw' s :
  (forall k, In k (mentions s) -> lookup k kw = lookup k kw') -> eval kw s = eval kw' s.
Proof.
  induction s as [k d|s IH v|v]; cbn; intros H; [|rewrite IH; auto|reflexivity].
  unfold given_or. rewrite H; auto.
Qed.
Lemma some_val_inj r r' : map some_val r = map some_val r' -> r = r'.
Proof.
  revert r'. induction r as [|(t & v) r IH]; intros [|(t' & v') r'] H; try discriminate.
  - reflexivity.
  - cbn in H. inversion H as [[E1 E2 E3]]. subst. f_equal. apply IH. exact E3.
Qed.
