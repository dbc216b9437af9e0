(** Proofs about sharing of arrays. *)
From Coq Require Import String Reals List Bool Lia Permutation.
From Verif Require Import Prelude Vec ModelBase ModelController ModelSimplex ModelAsif ModelHeap SpecHeap.
Import ListNotations.
Local Open Scope R_scope.

Lemma hget_app h more l : (l < length h)%nat -> hget (h ++ more) l = hget h l.
Proof. intros H. unfold hget. apply app_nth1; auto. Qed.
Lemma hget_new h v more : hget ((h ++ [v]) ++ more) (length h) = v.
Proof. unfold hget. rewrite <- app_assoc. rewrite app_nth2 by lia. rewrite Nat.sub_diag. reflexivity. Qed.
Lemma hget_last h v : hget (h ++ [v]) (length h) = v.
Proof. rewrite <- (app_nil_r (h ++ [v])). apply hget_new. Qed.
Lemma hget_last2 h v x : hget ((h ++ [v]) ++ [x]) (S (length h)) = x.
Proof. replace (S (length h)) with (length (h ++ [v])) by (rewrite app_length; simpl; lia). apply hget_last. Qed.
Lemma hput_length h l v : length (hput h l v) = length h.
Proof. revert l. induction h as [|x h IH]; intros [|l]; simpl; auto. Qed.
Lemma hput_same h l v : (l < length h)%nat -> hget (hput h l v) l = v.
Proof.
  revert l. induction h as [|x h IH]; intros [|l] H; simpl in *; try lia; auto. apply (IH l); lia.
Qed.
Lemma hput_other h l v k : k <> l -> hget (hput h l v) k = hget h k.
Proof.
  revert l k. induction h as [|x h IH]; intros [|l] [|k] H; simpl; auto; try congruence. apply (IH l k); auto.
Qed.

Lemma bnd_of_app h more b : (forall k, b = HArray k -> (k < length h)%nat) -> bnd_of (h ++ more) b = bnd_of h b.
Proof. intros H. destruct b; simpl; auto. rewrite hget_app; auto. Qed.
Lemma bounds_of_app h more lo hi :
  (forall k, lo = HArray k \/ hi = HArray k -> (k < length h)%nat) -> bounds_of (h ++ more) lo hi = bounds_of h lo hi.
Proof. intros H. unfold bounds_of. rewrite !bnd_of_app; auto. Qed.
Lemma opt_app h more (o : option loc) :
  (forall k, o = Some k -> (k < length h)%nat) -> option_map (hget (h ++ more)) o = option_map (hget h) o.
Proof. destruct o; simpl; auto. intros H. rewrite hget_app; auto. Qed.
Lemma contents_app {Y} h more (m : hrta Y) :
  (forall k, h_desired m = Some k \/ h_actual m = Some k -> (k < length h)%nat) -> contents (h ++ more) m = contents h m.
Proof. intros H. unfold contents. rewrite !opt_app; auto. Qed.

Lemma clip_free v : clip (mkBounds None None) v = Ok v.
Proof. reflexivity. Qed.

Lemma h_filter_control_eq {Y I} lo hi (compute : I -> R -> loc -> HM Y loc) i dt l h m :
  h_filter_control lo hi compute i dt l (h, m) =
  let h1 := h ++ [hget h l] in
  let m1 := put_desired (Some (length h)) m in
  if h_enable m then
    match compute i dt l (h1, m1) with
    | (Err e, s) => (Err e, s)
    | (Ok v, s) =>
        match h_clip lo hi v s with
        | (Err e, s) => (Err e, s)
        | (Ok w, (h3, m3)) => (Ok (S (length h3)), ((h3 ++ [hget h3 w]) ++ [hget h3 w], put_actual (Some (length h3)) m3))
        end
    end
  else (Ok (S (length h1)), ((h1 ++ [hget h1 l]) ++ [hget h1 l], put_actual (Some (length h1)) m1)).
Proof.
  cbv zeta. unfold h_filter_control, copy, read, new_array, on_mod, modify, bind, get; cbn [fst snd].
  change (h_enable (put_desired (Some (length h)) m)) with (h_enable m).
  destruct (h_enable m).
  - destruct (compute i dt l _) as [[v|e] [h2 m2]]; [|reflexivity].
    destruct (h_clip lo hi v (h2, m2)) as [[w|e] [h3 m3]]; [|reflexivity].
    cbn [fst snd put_actual h_actual]. rewrite hget_last, app_length. simpl. rewrite Nat.add_1_r. reflexivity.
  - cbn [fst snd put_actual h_actual]. rewrite hget_last, (app_length (h ++ _)). simpl. rewrite Nat.add_1_r. reflexivity.
Qed.

(** One call on references and the call on values. *)
Lemma h_filter_control_sim {Y I} (hc : hbnd -> hbnd -> I -> R -> loc -> HM Y loc) c lo hi i dt l h m r h' m' :
  respects hc c -> (l < length h)%nat ->
  (forall k, lo = HArray k \/ hi = HArray k \/ h_desired m = Some k \/ h_actual m = Some k -> (k < length h)%nat) ->
  h_filter_control lo hi (hc lo hi) i dt l (h, m) = (r, (h', m')) ->
  (exists more, h' = h ++ more) /\
  (exists d, h_desired m' = Some d /\ (length h <= d < length h')%nat) /\
  (h_actual m' = h_actual m \/ exists a, h_actual m' = Some a /\ (length h <= a < length h')%nat) /\
  match r with
  | Ok a => (length h <= a < length h')%nat /\ h_desired m' <> Some a /\ h_actual m' <> Some a /\
      filter_control (bounds_of h lo hi) (c (bounds_of h lo hi)) i dt (hget h l) (contents h m) = (Ok (hget h' a), contents h' m')
  | Err e => filter_control (bounds_of h lo hi) (c (bounds_of h lo hi)) i dt (hget h l) (contents h m) = (Err e, contents h' m')
  end.
Proof.
  intros HR Hl Hw H.
  rewrite h_filter_control_eq in H. cbv zeta in H.
  set (h1 := h ++ [hget h l]) in *.
  assert (L1 : length h1 = S (length h)) by (unfold h1; rewrite app_length; simpl; lia).
  set (m1 := put_desired (Some (length h)) m) in *.
  assert (C1 : contents h1 m1 = set_desired (Some (hget h l)) (contents h m)).
  { unfold contents, set_desired, m1, put_desired; simpl. f_equal.
    - unfold h1. rewrite hget_last. auto.
    - unfold h1. apply opt_app. intros k Hk. apply Hw; auto. }
  assert (Hw1 : forall k, lo = HArray k \/ hi = HArray k \/ h_desired m1 = Some k \/ h_actual m1 = Some k -> (k < length h1)%nat).
  { intros k [E|[E|[E|E]]]; [assert (k < length h)%nat by (apply Hw; auto); lia|assert (k < length h)%nat by (apply Hw; auto); lia| |].
    - simpl in E. injection E as <-. lia.
    - simpl in E. assert (k < length h)%nat by (apply Hw; auto). lia. }
  assert (B1 : bounds_of h1 lo hi = bounds_of h lo hi) by (apply bounds_of_app; intros k [E|E]; apply Hw; auto).
  assert (G1 : hget h1 l = hget h l) by (apply hget_app; auto).
  unfold filter_control, modify, bind, get. cbn [fst snd]. rewrite <- C1.
  change (enable (contents h1 m1)) with (h_enable m1).
  change (h_enable m1) with (h_enable m).
  destruct (h_enable m) eqn:En.
  - destruct (hc lo hi i dt l (h1, m1)) as [[v|e] [h2 m2]] eqn:Ec.
    + destruct (HR lo hi i dt l h1 m1 _ _ _ ltac:(lia) Hw1 Ec) as ((more & E2) & Hd & Ha & Hv & HC).
      rewrite B1, G1 in HC. rewrite HC. clear HC.
      assert (L2 : (length h1 <= length h2)%nat) by (rewrite E2, app_length; lia).
      assert (B2 : bounds_of h2 lo hi = bounds_of h lo hi).
      { rewrite E2, bounds_of_app; [exact B1|]. intros k [E|E]; apply Hw1; auto. }
      assert (CL : exists w h3, h_clip lo hi v (h2, m2) = (w, (h3, m2)) /\ (exists more3, h3 = h2 ++ more3) /\
        match w with
        | Ok a => (a < length h3)%nat /\ clip (bounds_of h lo hi) (hget h2 v) = Ok (hget h3 a)
        | Err e => clip (bounds_of h lo hi) (hget h2 v) = Err e
        end).
      { assert (D : (lo = HNone /\ hi = HNone) \/
            h_clip lo hi v (h2, m2) = match clip (bounds_of h2 lo hi) (hget h2 v) with
                                      | Ok w => (Ok (length h2), (h2 ++ [w], m2))
                                      | Err e => (Err e, (h2, m2))
                                      end).
        { destruct lo, hi; first [left; split; reflexivity | right; unfold h_clip, bind, get, lift, new_array; cbn [fst snd];
            match goal with |- context [clip ?b ?x] => destruct (clip b x); reflexivity end]. }
        rewrite B2 in D. destruct D as [[-> ->]|D].
        - exists (Ok v), h2. split; [auto|split; [exists []; rewrite app_nil_r; auto|]]. split; [auto|apply clip_free].
        - rewrite D. destruct (clip (bounds_of h lo hi) (hget h2 v)) as [w|e].
          + exists (Ok (length h2)), (h2 ++ [w]). split; [auto|].
            split; [eauto|]. rewrite app_length; simpl. split; [lia|]. rewrite hget_last. auto.
          + exists (Err e), h2. split; [auto|]. split; [exists []; rewrite app_nil_r; auto|auto]. }
      destruct CL as (w & h3 & Ew & (more3 & E3) & Hcl). rewrite Ew in H. unfold lift.
      assert (L3 : (length h2 <= length h3)%nat) by (rewrite E3, app_length; lia).
      assert (C3 : contents h3 m2 = contents h2 m2).
      { rewrite E3. apply contents_app. intros k [E|E].
        - rewrite Hd in E. assert (k < length h1)%nat by (apply Hw1; auto). lia.
        - destruct Ha as [Ha|(a & Ha & La)]; rewrite Ha in E.
          + assert (k < length h1)%nat by (apply Hw1; auto). lia.
          + injection E as <-. lia. }
      destruct w as [w|e].
      * destruct Hcl as [Lw Hcl]. rewrite Hcl.
        injection H as <- <- <-.
        assert (La : length (h3 ++ [hget h3 w]) = S (length h3)) by (rewrite app_length; simpl; lia).
        split; [|split; [|split; [|split; [|split; [|split]]]]].
        -- exists ([hget h l] ++ more ++ more3 ++ [hget h3 w] ++ [hget h3 w]).
           rewrite E3, E2. unfold h1. rewrite <- !app_assoc. reflexivity.
        -- exists (length h). split; [simpl; rewrite Hd; reflexivity|]. rewrite !app_length; simpl. lia.
        -- right. exists (length h3). split; [reflexivity|]. rewrite !app_length; simpl. lia.
        -- rewrite !app_length; simpl. lia.
        -- simpl. rewrite Hd. simpl. intros E. injection E as E. lia.
        -- simpl. intros E. injection E as E. lia.
        -- rewrite hget_last2. unfold ret. f_equal.
           unfold contents, set_actual, put_actual; simpl. f_equal.
           ++ rewrite Hd. simpl. rewrite <- app_assoc, hget_app by lia.
              rewrite E3, hget_app by lia. reflexivity.
           ++ rewrite hget_new. reflexivity.
      * rewrite Hcl. injection H as <- <- <-.
        split; [|split; [|split]].
        -- exists ([hget h l] ++ more ++ more3). rewrite E3, E2. unfold h1. rewrite <- !app_assoc. reflexivity.
        -- exists (length h). split; [rewrite Hd; reflexivity|lia].
        -- destruct Ha as [Ha|(a & Ha & La)]; [left; exact Ha|right; exists a; split; [auto|lia]].
        -- rewrite C3. reflexivity.
    + destruct (HR lo hi i dt l h1 m1 _ _ _ ltac:(lia) Hw1 Ec) as ((more & E2) & Hd & Ha & HC).
      rewrite B1, G1 in HC. rewrite HC. injection H as <- <- <-.
      assert (L2 : (length h1 <= length h2)%nat) by (rewrite E2, app_length; lia).
      split; [|split; [|split]].
      * exists ([hget h l] ++ more). rewrite E2. unfold h1. rewrite <- app_assoc. reflexivity.
      * exists (length h). split; [rewrite Hd; reflexivity|lia].
      * destruct Ha as [Ha|(a & Ha & La)]; [left; exact Ha|right; exists a; split; [auto|lia]].
      * reflexivity.
  - rewrite G1 in H. injection H as <- <- <-.
    split; [|split; [|split; [|split; [|split; [|split]]]]].
    + eexists. unfold h1. rewrite <- !app_assoc. reflexivity.
    + exists (length h). split; [reflexivity|]. rewrite !app_length; simpl. lia.
    + right. exists (length h1). split; [reflexivity|]. rewrite !app_length; simpl. lia.
    + rewrite !app_length; simpl. lia.
    + simpl. intros E. injection E as E. lia.
    + simpl. intros E. injection E as E. lia.
    + rewrite hget_last2. unfold ret. f_equal.
      unfold contents, set_actual, put_actual; simpl. f_equal.
      * rewrite <- app_assoc, hget_app by lia. reflexivity.
      * rewrite hget_new. reflexivity.
Qed.

Lemma NoDup_app_one {A} (l : list A) x : NoDup l -> ~ In x l -> NoDup (l ++ [x]).
Proof.
  intros Hn Hx. apply (Permutation.Permutation_NoDup (l := x :: l)); [|constructor; auto].
  apply Permutation.Permutation_cons_append.
Qed.

(** The invariant of a program's world.  [F] are the numbers of the arrays given as bounds. *)
Record separate {Y} (F : nat -> Prop) (w : world Y) : Prop := mkSeparate {
  sp_own : forall l, In l (w_own w) -> (l < length (w_heap w))%nat;
  sp_info : forall l, In l (w_info w) -> (l < length (w_heap w))%nat;
  sp_mod : forall l, w_low w = HArray l \/ w_high w = HArray l \/ h_desired (w_mod w) = Some l \/ h_actual (w_mod w) = Some l ->
           (l < length (w_heap w))%nat;
  sp_nodup : NoDup (w_own w);
  sp_apart : forall l, In l (w_own w) -> ~ In l (w_info w) /\ h_desired (w_mod w) <> Some l /\ h_actual (w_mod w) <> Some l;
  sp_bounds : forall i l, nth_error (w_own w) i = Some l -> w_low w = HArray l \/ w_high w = HArray l -> F i }.

Lemma map_hput h l v own i :
  NoDup own -> nth_error own i = Some l -> (l < length h)%nat ->
  map (hget (hput h l v)) own = replace_nth i v (map (hget h) own).
Proof.
  intros Hn Hi Hl. unfold replace_nth.
  assert (L : (i < length own)%nat) by (apply nth_error_Some; congruence).
  destruct (Nat.ltb_spec i (length (map (hget h) own))) as [_|L2]; [|rewrite map_length in L2; unfold loc in *; lia]. revert i Hi L. induction own as [|k own IH]; intros i Hi L; [simpl in L; lia|].
  inversion Hn as [|? ? Hk Hn']; subst. destruct i as [|i]; simpl in *.
  - injection Hi as ->. rewrite hput_same by auto. f_equal. apply map_ext_in. intros k Hk'. apply hput_other. intros ->. auto.
  - rewrite hput_other by (intros ->; apply Hk; eapply nth_error_In; eauto). f_equal. apply IH; auto; lia.
Qed.
Lemma map_hput_other h l v ks : ~ In l ks -> map (hget (hput h l v)) ks = map (hget h) ks.
Proof. intros H. apply map_ext_in. intros k Hk. apply hput_other. intros ->. auto. Qed.
Lemma map_hget_app h more ks : (forall l, In l ks -> (l < length h)%nat) -> map (hget (h ++ more)) ks = map (hget h) ks.
Proof. intros H. apply map_ext_in. intros k Hk. apply hget_app; auto. Qed.
Lemma replace_beyond i v l : nth_error l i = None -> replace_nth i v l = l.
Proof.
  intros H. apply nth_error_None in H. unfold replace_nth. destruct (Nat.ltb_spec i (length l)); [lia|auto].
Qed.
Lemma listed_map h o : listed (option_map (hget h) o) = map (hget h) (match o with Some l => [l] | None => [] end).
Proof. destruct o; reflexivity. Qed.

Definition allowed_write {I} (F : nat -> Prop) (o : hop I) : Prop :=
  match o with HWrite (Info _) _ => False | HWrite (Own i) _ => ~ F i | _ => True end.

Lemma hstep_sim {Y I} (hc : hbnd -> hbnd -> I -> R -> loc -> HM Y loc) c reset_ext F o w b w' :
  respects hc c -> separate F w -> allowed_write F o -> (forall i, F i -> (i < length (w_own w))%nat) ->
  hstep hc reset_ext o w = (b, w') ->
  separate F w' /\ (length (w_own w) <= length (w_own w'))%nat /\
  vstep (fun bd => filter_control bd (c bd)) reset_ext o (seen w) = (b, seen w').
Proof.
  intros HR SP AW HF H. destruct SP as [So Si Sm Sn Sa Sb]. destruct w as [h m lo hi own info]; cbn [w_heap w_mod w_low w_high w_own w_info] in *.
  assert (Fresh : forall more k, In k own -> (length h <= more)%nat -> k <> more) by (intros more k Hk L E; specialize (So _ Hk); lia).
  assert (Ban : forall i l, nth_error own i = Some l -> ~ F i -> lo <> HArray l /\ hi <> HArray l).
  { intros i l Hi HN. split; intros E; apply HN; eapply Sb; eauto. }
  destruct o as [v|r v|i dt r| | |b0]; cbn [hstep vstep seen w_heap w_mod w_low w_high w_own w_info v_mod v_bounds v_own v_info] in *.
  - (* a new array *)
    injection H as <- <-. split; [|split].
    + constructor; cbn [w_heap w_mod w_low w_high w_own w_info]; rewrite ?app_length; simpl.
      * intros l Hl. apply in_app_or in Hl. destruct Hl as [Hl|[<-|[]]]; [specialize (So _ Hl)|]; lia.
      * intros l Hl. specialize (Si _ Hl). lia.
      * intros l Hl. specialize (Sm _ Hl). lia.
      * apply NoDup_app_one. { exact Sn. } intros Hin. specialize (So _ Hin). lia.
      * intros l Hl. apply in_app_or in Hl. destruct Hl as [Hl|[<-|[]]]; [auto|].
        split; [intros Hin; specialize (Si _ Hin); lia|split; intros E; assert (length h < length h)%nat by (apply Sm; auto); lia].
      * intros i l Hi Hb. destruct (Nat.lt_ge_cases i (length own)) as [L|L].
        -- rewrite nth_error_app1 in Hi by auto. eapply Sb; eauto.
        -- rewrite nth_error_app2 in Hi by auto. assert (l = length h).
           { destruct (i - length own)%nat; simpl in Hi; [injection Hi; auto|destruct n; discriminate]. }
           subst l. assert (length h < length h)%nat by (apply Sm; tauto). lia.
    + simpl. rewrite app_length. lia.
    + f_equal. unfold seen; simpl. rewrite map_app, (map_hget_app h [v] own), (map_hget_app h [v] info) by auto. simpl. rewrite hget_last.
      rewrite contents_app by (intros k [E|E]; apply Sm; auto).
      rewrite bounds_of_app by (intros k [E|E]; apply Sm; auto). reflexivity.
  - (* modification in place *)
    destruct r as [i|j]; [|destruct AW]. cbn [array_at w_own] in H. simpl in AW.
    destruct (nth_error own i) as [l|] eqn:Ei.
    + injection H as <- <-. assert (Hin : In l own) by (eapply nth_error_In; eauto).
      destruct (Sa _ Hin) as (A1 & A2 & A3). destruct (Ban _ _ Ei AW) as [B1 B2]. split; [|split].
      * constructor; cbn [w_heap w_mod w_low w_high w_own w_info]; rewrite ?hput_length; auto.
      * auto.
      * f_equal. unfold seen; simpl. rewrite (map_hput h l v own i) by auto. rewrite map_hput_other by auto. f_equal.
        -- unfold contents. f_equal.
           ++ destruct (h_desired m) as [k|]; simpl; auto. rewrite hput_other by congruence. auto.
           ++ destruct (h_actual m) as [k|]; simpl; auto. rewrite hput_other by congruence. auto.
        -- unfold bounds_of. f_equal.
           ++ destruct lo as [| |k]; simpl; auto. rewrite hput_other by congruence. auto.
           ++ destruct hi as [| |k]; simpl; auto. rewrite hput_other by congruence. auto.
    + injection H as <- <-. split; [constructor; auto|split; [auto|]]. f_equal. unfold seen; simpl.
      rewrite replace_beyond; [auto|]. rewrite nth_error_map, Ei. auto.
  - (* a call *)
    assert (AT : array_at (mkWorld h m lo hi own info) r = None \/
                 exists l, array_at (mkWorld h m lo hi own info) r = Some l /\ (l < length h)%nat /\
                 (match r with Own k => nth_error (map (hget h) own) k | Info k => nth_error (map (hget h) info) k end) = Some (hget h l)).
    { destruct r as [k|k]; cbn [array_at w_own w_info]; rewrite nth_error_map.
      - destruct (nth_error own k) as [l|] eqn:E; [right; exists l; split; [auto|split; [apply So; eapply nth_error_In; eauto|auto]]|auto].
      - destruct (nth_error info k) as [l|] eqn:E; [right; exists l; split; [auto|split; [apply Si; eapply nth_error_In; eauto|auto]]|auto]. }
    destruct AT as [AT|(l & AT & Ll & Vl)]; rewrite AT in H.
    { injection H as <- <-. split; [constructor; auto|split; [auto|]]. destruct r as [k|k]; cbn [array_at w_own w_info] in AT; rewrite nth_error_map, AT; reflexivity. }
    rewrite Vl. cbn [v_mod v_bounds]. clear AT Vl.
    destruct (h_filter_control lo hi (hc lo hi) i dt l (h, m)) as [rr [h' m']] eqn:Ef.
    destruct (h_filter_control_sim hc c lo hi i dt l h m _ _ _ HR Ll Sm Ef) as ((more & Eh) & (d & Hd & Ld) & Ha & Hr).
    assert (L' : (length h <= length h')%nat) by (rewrite Eh, app_length; lia).
    assert (Mods : forall k, h_desired m' = Some k \/ h_actual m' = Some k -> (k < length h')%nat /\ ((length h <= k)%nat \/ h_actual m = Some k)).
    { intros k [E|E].
      - rewrite Hd in E. injection E as <-. split; [lia|left; lia].
      - destruct Ha as [Ha|(a & Ha & La)]; rewrite Ha in E.
        + split; [assert (k < length h)%nat by (apply Sm; auto); lia|auto].
        + injection E as <-. split; [lia|left; lia]. }
    destruct rr as [a|e].
    + destruct Hr as (La & Nd & Na & Hv). rewrite Hv. injection H as <- <-. split; [|split].
      * constructor; cbn [w_heap w_mod w_low w_high w_own w_info].
        -- intros k Hk. apply in_app_or in Hk. destruct Hk as [Hk|[<-|[]]]; [specialize (So _ Hk)|]; lia.
        -- intros k Hk. specialize (Si _ Hk). lia.
        -- intros k [E|[E|E]]; [assert (k < length h)%nat by (apply Sm; auto); lia|assert (k < length h)%nat by (apply Sm; auto); lia|apply Mods; auto].
        -- apply NoDup_app_one; auto. intros Hin. specialize (So _ Hin). lia.
        -- intros k Hk. apply in_app_or in Hk. destruct Hk as [Hk|[<-|[]]].
           ++ destruct (Sa _ Hk) as (A1 & A2 & A3). specialize (So _ Hk). split; [auto|split; intros E].
              ** destruct (Mods k (or_introl E)) as [_ [?|?]]; [lia|congruence].
              ** destruct (Mods k (or_intror E)) as [_ [?|?]]; [lia|congruence].
           ++ split; [intros Hin; specialize (Si _ Hin); lia|auto].
        -- intros j k Hj Hb. destruct (Nat.lt_ge_cases j (length own)) as [L|L].
           ++ rewrite nth_error_app1 in Hj by auto. eapply Sb; eauto.
           ++ rewrite nth_error_app2 in Hj by auto. assert (k = a).
              { destruct (j - length own)%nat; simpl in Hj; [injection Hj; auto|destruct n; discriminate]. }
              subst k. assert (a < length h)%nat by (apply Sm; tauto). lia.
      * simpl. rewrite app_length. lia.
      * f_equal. unfold seen; simpl. rewrite map_app. simpl. rewrite Eh, (map_hget_app h more own), (map_hget_app h more info) by auto.
        rewrite bounds_of_app by (intros k [E|E]; apply Sm; auto). reflexivity.
    + rewrite Hr. injection H as <- <-. split; [|split].
      * constructor; cbn [w_heap w_mod w_low w_high w_own w_info].
        -- intros k Hk. specialize (So _ Hk); lia.
        -- intros k Hk. specialize (Si _ Hk). lia.
        -- intros k [E|[E|E]]; [assert (k < length h)%nat by (apply Sm; auto); lia|assert (k < length h)%nat by (apply Sm; auto); lia|apply Mods; auto].
        -- auto.
        -- intros k Hk. destruct (Sa _ Hk) as (A1 & A2 & A3). specialize (So _ Hk). split; [auto|split; intros E].
           ++ destruct (Mods k (or_introl E)) as [_ [?|?]]; [lia|congruence].
           ++ destruct (Mods k (or_intror E)) as [_ [?|?]]; [lia|congruence].
        -- auto.
      * auto.
      * f_equal. unfold seen; simpl. rewrite Eh, (map_hget_app h more own), (map_hget_app h more info) by auto.
        rewrite bounds_of_app by (intros k [E|E]; apply Sm; auto). reflexivity.
  - (* generate_info *)
    injection H as <- <-. split; [|split].
    + constructor; cbn [w_heap w_mod w_low w_high w_own w_info]; auto.
      * intros k Hk. apply in_app_or in Hk. destruct Hk as [Hk|Hk]; [auto|]. apply Sm.
        unfold h_info_arrays in Hk. apply in_app_or in Hk. destruct Hk as [Hk|Hk].
        -- destruct (h_desired m); [destruct Hk as [<-|[]]; auto|destruct Hk].
        -- destruct (h_actual m); [destruct Hk as [<-|[]]; auto|destruct Hk].
      * intros k Hk. destruct (Sa _ Hk) as (A1 & A2 & A3). split; [|auto]. intros Hin. apply in_app_or in Hin.
        destruct Hin as [Hin|Hin]; [auto|]. unfold h_info_arrays in Hin. apply in_app_or in Hin. destruct Hin as [Hin|Hin].
        -- destruct (h_desired m); [destruct Hin as [<-|[]]; auto|destruct Hin].
        -- destruct (h_actual m); [destruct Hin as [<-|[]]; auto|destruct Hin].
    + auto.
    + f_equal. unfold seen; simpl. rewrite !map_app. unfold h_info_arrays. rewrite map_app. rewrite !listed_map. reflexivity.
  - injection H as <- <-. split; [|split].
    + constructor; cbn [w_heap w_mod w_low w_high w_own w_info]; auto.
      * intros l [E|[E|[E|E]]]; [apply Sm; auto|apply Sm; auto|discriminate|discriminate].
      * intros k Hk. destruct (Sa _ Hk) as (A1 & A2 & A3). split; [auto|split; discriminate].
    + auto.
    + reflexivity.
  - injection H as <- <-. split; [|split].
    + constructor; auto.
    + auto.
    + reflexivity.
Qed.

Lemma hrun_sim {Y I} (hc : hbnd -> hbnd -> I -> R -> loc -> HM Y loc) c reset_ext F os w bs w' :
  respects hc c -> separate F w -> Forall (allowed_write F) os -> (forall i, F i -> (i < length (w_own w))%nat) ->
  hrun hc reset_ext os w = (bs, w') ->
  separate F w' /\ vrun (fun bd => filter_control bd (c bd)) reset_ext os (seen w) = (bs, seen w').
Proof.
  intros HR. revert w bs. induction os as [|o os IH]; intros w bs SP FA HF H.
  - injection H as <- <-. auto.
  - simpl in H. destruct (hstep hc reset_ext o w) as [b w1] eqn:E1.
    destruct (hrun hc reset_ext os w1) as [bs2 w2] eqn:E2. injection H as <- <-.
    inversion FA as [|? ? A1 A2]; subst. destruct (hstep_sim _ _ _ _ _ _ _ _ HR SP A1 HF E1) as (SP1 & L & V1).
    destruct (IH w1 bs2 SP1 A2) as (SP2 & V2); [intros i Hi; specialize (HF i Hi); lia|exact E2|].
    split; [exact SP2|]. simpl. rewrite V1, V2. reflexivity.
Qed.

(** The arrays given as bounds. *)
Definition is_bound (low high : barg) (i : nat) : Prop := low = AArray i \/ high = AArray i.

Lemma nth_error_seq n i l : nth_error (seq 0 n) i = Some l -> l = i /\ (i < n)%nat.
Proof.
  intros H. assert (L : (i < n)%nat) by (rewrite <- (seq_length n 0); apply nth_error_Some; congruence).
  split; [|auto]. apply nth_error_nth with (d := 0%nat) in H. rewrite seq_nth in H by auto. simpl in H. congruence.
Qed.
Lemma hget_seq (h : heap) : map (hget h) (seq 0 (length h)) = h.
Proof.
  apply nth_ext with (d := []) (d' := []); [rewrite map_length, seq_length; auto|].
  intros n Hn. rewrite map_length, seq_length in Hn.
  rewrite nth_indep with (d' := hget h 0%nat) by (rewrite map_length, seq_length; auto).
  rewrite map_nth. rewrite seq_nth by auto. reflexivity.
Qed.

Lemma keep_bound_spec h a h' b arrays :
  keep_bound h a = (h', b) -> (exists more, h = arrays ++ more) -> names_array arrays a ->
  (exists more, h' = h ++ more) /\ bnd_of h' b = given_bound arrays a /\
  (forall k, b = HArray k -> (k < length h')%nat /\ ((length arrays <= k)%nat \/ a = AArray k)).
Proof.
  intros H (more & Eh) Hn. assert (L : (length arrays <= length h)%nat) by (rewrite Eh, app_length; lia).
  destruct a as [|x|v|i]; simpl in H; injection H as <- <-; simpl in *.
  - split; [exists []; rewrite app_nil_r; auto|split; [auto|discriminate]].
  - split; [exists []; rewrite app_nil_r; auto|split; [auto|discriminate]].
  - split; [eauto|split; [rewrite hget_last; auto|]]. intros k E. injection E as <-. rewrite app_length; simpl. lia.
  - split; [exists []; rewrite app_nil_r; auto|split].
    + rewrite Eh, hget_app by auto. reflexivity.
    + intros k E. injection E as <-. split; [lia|auto].
Qed.

Lemma construct_separate {Y} arrays low high (y : Y) :
  names_array arrays low -> names_array arrays high ->
  separate (is_bound low high) (construct arrays low high y) /\ seen (construct arrays low high y) = vstart arrays low high y /\
  (forall i, is_bound low high i -> (i < length (w_own (construct arrays low high y)))%nat).
Proof.
  intros Nl Nh. unfold construct.
  destruct (keep_bound arrays high) as [h1 hi] eqn:E1. destruct (keep_bound h1 low) as [h2 lo] eqn:E2.
  destruct (keep_bound_spec _ _ _ _ arrays E1 ltac:(exists []; rewrite app_nil_r; auto) Nh) as ((m1 & M1) & G1 & K1).
  destruct (keep_bound_spec _ _ _ _ arrays E2 ltac:(eauto) Nl) as ((m2 & M2) & G2 & K2).
  assert (L1 : (length arrays <= length h1)%nat) by (rewrite M1, app_length; lia).
  assert (L2 : (length h1 <= length h2)%nat) by (rewrite M2, app_length; lia).
  split; [|split].
  - constructor; cbn [w_heap w_mod w_low w_high w_own w_info h_desired h_actual].
    + intros l Hl. apply in_seq in Hl. unfold loc in *; lia.
    + intros l [].
    + intros l [E|[E|[E|E]]]; try discriminate; [apply K2 in E|apply K1 in E]; lia.
    + apply seq_NoDup.
    + intros l Hl. split; [auto|split; discriminate].
    + intros i l Hi Hb. apply nth_error_seq in Hi. destruct Hi as [-> Hi]. unfold is_bound.
      destruct Hb as [E|E]; [apply K2 in E|apply K1 in E]; destruct E as [_ [E|E]]; unfold loc, heap in *; try lia; auto.
  - unfold seen, vstart; cbn [w_heap w_mod w_low w_high w_own w_info]. f_equal.
    + unfold bounds_of. rewrite G2. f_equal. rewrite M2, bnd_of_app; [exact G1|]. intros k E. apply K1 in E. tauto.
    + rewrite M2, M1, <- app_assoc, map_hget_app; [apply hget_seq|]. intros l Hl. apply in_seq in Hl. unfold loc, heap in *; lia.
  - intros i [->| ->]; cbn [w_own]; rewrite seq_length; simpl in *; auto.
Qed.

(** A constraint-based module's own code leaves the recorded controls alone. *)
Definition keeps_controls {Y V} (f : M (rta Y) V) : Prop :=
  forall s, control_desired (snd (f s)) = control_desired s /\ control_actual (snd (f s)) = control_actual s.

Lemma keeps_bind {Y V W} (f : M (rta Y) V) (g : V -> M (rta Y) W) :
  keeps_controls f -> (forall v, keeps_controls (g v)) -> keeps_controls (bind f g).
Proof.
  intros Hf Hg s. unfold bind. specialize (Hf s). destruct (f s) as [[v|e] s1]; simpl in *; [|auto].
  destruct (Hg v s1) as [A1 A2]. destruct Hf as [B1 B2]. rewrite A1, A2. auto.
Qed.
Lemma keeps_ext {Y} (f : Y -> Y) : keeps_controls (modify (on_ext f)).
Proof. intros s. split; reflexivity. Qed.

Lemma immutable_spec {Y V} (f : M (rta Y) V) h m : keeps_controls f ->
  exists m', immutable f (h, m) = (fst (f (contents h m)), (h, m')) /\ h_desired m' = h_desired m /\ h_actual m' = h_actual m /\
  contents h m' = snd (f (contents h m)).
Proof.
  intros K. unfold immutable; cbn [fst snd]. specialize (K (contents h m)).
  destruct (f (contents h m)) as [r c]; simpl in *. eexists. split; [reflexivity|split; [reflexivity|split; [reflexivity|]]].
  unfold contents; simpl. destruct K as [K1 K2]. rewrite <- K1, <- K2. destruct c; reflexivity.
Qed.

Lemma cb_respects {X P Y I} (get_state : I -> M (rta (cb X P Y)) X) (filter : bounds -> X -> R -> vec -> M (rta (cb X P Y)) vec) :
  (forall i, keeps_controls (get_state i)) -> (forall b x dt u, keeps_controls (filter b x dt u)) ->
  respects (h_cb_compute get_state filter) (fun b => cb_compute get_state (filter b)).
Proof.
  intros Kg Kf lo hi i dt l h m r h' m' Hl Hw H.
  set (body := bind (modify (on_ext update_params)) (fun _ => bind (get_state i) (fun x =>
    bind (modify (on_ext (update_constraint_values_at x true))) (fun _ => filter (bounds_of h lo hi) x dt (hget h l))))).
  assert (EH : h_cb_compute get_state filter lo hi i dt l (h, m) =
    match immutable body (h, m) with
    | (Ok w, s) => (Ok (length (fst s ++ [w])), ((fst s ++ [w]) ++ [w], put_actual (Some (length (fst s))) (snd s)))
    | (Err e, s) => (Err e, s)
    end).
  { unfold h_cb_compute, read, get, bind at 1 2. cbn [fst snd]. fold body. unfold bind at 1.
    destruct (immutable body (h, m)) as [[w|e] [h1 m1]]; reflexivity. }
  rewrite EH in H. clear EH.
  assert (K : keeps_controls body).
  { apply keeps_bind; [apply keeps_ext|intros _]. apply keeps_bind; [apply Kg|intros x]. apply keeps_bind; [apply keeps_ext|intros _]. apply Kf. }
  assert (EQ : forall s, cb_compute get_state (filter (bounds_of h lo hi)) i dt (hget h l) s =
    match body s with (Ok v, s1) => (Ok v, set_actual (Some v) s1) | (Err e, s1) => (Err e, s1) end).
  { intros s. unfold cb_compute, body, bind, modify. destruct (get_state i (on_ext update_params s)) as [[x|e] s1]; [|reflexivity].
    destruct (filter (bounds_of h lo hi) x dt (hget h l) (on_ext (update_constraint_values_at x true) s1)) as [[v|e] s2]; reflexivity. }
  destruct (immutable_spec body h m K) as (m1 & E1 & D1 & A1 & C1).
  unfold heap in *. rewrite E1 in H. rewrite EQ. clear EQ.
  destruct (body (contents h m)) as [[v|e] s1]; cbn [fst snd] in *.
  - injection H as <- <- <-.
    split; [exists ([v] ++ [v]); rewrite app_assoc; auto|]. split; [exact D1|]. split.
    + right. exists (length h). split; [reflexivity|]. rewrite !app_length; simpl. lia.
    + split; [rewrite !app_length; simpl; lia|]. f_equal.
      * rewrite hget_last. reflexivity.
      * rewrite <- C1. unfold set_actual, contents, put_actual; simpl. f_equal.
        -- rewrite <- app_assoc. symmetry. apply opt_app. intros k E. apply Hw. rewrite D1 in E. auto.
        -- rewrite hget_new. reflexivity.
  - injection H as <- <- <-. split; [exists []; rewrite app_nil_r; auto|]. split; [exact D1|]. split; [auto|].
    rewrite C1. reflexivity.
Qed.

Lemma keeps_ret {Y V} (v : V) : keeps_controls (ret (S:=rta Y) v).
Proof. intros s. split; reflexivity. Qed.
Lemma keeps_raise {Y V} e : keeps_controls (raise (S:=rta Y) (A:=V) e).
Proof. intros s. split; reflexivity. Qed.
Lemma keeps_get {Y} : keeps_controls (get (S:=rta Y)).
Proof. intros s. split; reflexivity. Qed.
Lemma keeps_lift {Y V} (r : res V) : keeps_controls (lift (S:=rta Y) r).
Proof. intros s. split; reflexivity. Qed.
Lemma keeps_intervening {Y} b : keeps_controls (modify (set_intervening (X:=Y) b)).
Proof. intros s. split; reflexivity. Qed.
Lemma keeps_get_state {Y X} (i : input X) : keeps_controls (base_get_state (S:=rta Y) i).
Proof. destruct i; [apply keeps_ret|apply keeps_raise]. Qed.
Lemma keeps_put_sx {X P} (f : simplex X P -> sx) : keeps_controls (modify (fun s : simplex X P => put_sx (f s) s)).
Proof. intros s. split; reflexivity. Qed.
Lemma keeps_on_ctl {X P V} (m : M ctl V) : keeps_controls (on_ctl (X:=X) (P:=P) m).
Proof. intros s. unfold on_ctl, zoom. destruct (m _) as [r c]. split; reflexivity. Qed.
Lemma keeps_on_asif {X P Z} (f : amod X P Z -> asif X P Z -> asif X P Z) :
  keeps_controls (modify (fun s : amod X P Z => on_asif (f s) s)).
Proof. intros s. split; reflexivity. Qed.
Lemma keeps_on_actl {X P V} (m : M ctl V) : keeps_controls (on_actl (X:=X) (P:=P) m).
Proof. intros s. unfold on_actl, zoom. destruct (m _) as [r c]. split; reflexivity. Qed.

Ltac keeps :=
  repeat first [ apply keeps_ret | apply keeps_raise | apply keeps_get | apply keeps_lift | apply keeps_intervening
               | apply keeps_ext | apply keeps_put_sx | apply keeps_on_ctl
               | apply (keeps_on_asif (fun _ => _)) | apply keeps_on_asif | apply keeps_on_actl
               | apply keeps_bind; [|intros ?] ].

Lemma keeps_simplex {X P} (cfg : sx_cfg X) k (x : X) dt u :
  keeps_controls (simplex_filter (P:=P) cfg (sx_monitor cfg k) x dt u).
Proof.
  unfold simplex_filter. keeps.
  - destruct (intervening _); [destruct (Rleb _ _)|]; keeps.
  - match goal with b : bool |- _ => destruct b end; keeps.
    + destruct k; unfold sx_monitor, explicit_monitor, implicit_monitor; keeps.
    + match goal with b : bool |- _ => destruct b end; keeps.
Qed.

Lemma keeps_causes {X P Z} iact : keeps_controls (record_causes (X:=X) (P:=P) (Z:=Z) iact).
Proof.
  induction iact as [|i iact IH]; [apply keeps_ret|]. cbn [record_causes]. keeps; [|exact IH].
  destruct (existsb _ _); keeps.
Qed.
Lemma keeps_asif {X P Z} (cfg : asif_cfg X) (mats : X -> R -> M (amod X P Z) (mat * vec)) x dt u :
  keeps_controls (mats x dt) -> keeps_controls (asif_filter cfg mats x dt u).
Proof.
  intros K. unfold asif_filter, update_ineq_mats, optimize. keeps; [exact K|].
  match goal with |- keeps_controls (match ?r with _ => _ end) => destruct r as [[z iact]|e] end.
  - keeps. apply keeps_causes.
  - destruct e; keeps. destruct (String.eqb _ _); [destruct (ac_exc cfg)|]; keeps.
Qed.
Lemma keeps_explicit {X P Z} (cfg : asif_cfg X) x dt : keeps_controls (explicit_mats (P:=P) (Z:=Z) cfg x dt).
Proof. unfold explicit_mats. keeps. Qed.
Lemma keeps_implicit {X P} (cfg : asif_cfg X) ic x dt : keeps_controls (implicit_mats (P:=P) cfg ic x dt).
Proof. unfold implicit_mats, implicit_ineq_mats. cbv zeta. keeps. Qed.

(** Every operation keeps the invariant; only modifications in place change existing arrays. *)
Lemma hstep_separate {Y I} (hc : hbnd -> hbnd -> I -> R -> loc -> HM Y loc) c reset_ext F o w b w' :
  respects hc c -> separate F w -> (forall i, F i -> (i < length (w_own w))%nat) ->
  hstep hc reset_ext o w = (b, w') ->
  separate F w' /\ (length (w_own w) <= length (w_own w'))%nat /\ (exists more, w_info w' = w_info w ++ more) /\
  w_low w' = w_low w /\ w_high w' = w_high w.
Proof.
  intros HR SP HF H.
  assert (D : (exists r v, o = HWrite r v) \/ allowed_write F o) by (destruct o; first [right; exact Logic.I | left; eauto]).
  destruct D as [(r & v & ->)|D].
  - cbn [hstep] in H. destruct (array_at w r) as [l|].
    + injection H as _ <-. destruct SP as [So Si Sm Sn Sa Sb].
      split; [constructor; cbn [w_heap w_mod w_low w_high w_own w_info]; rewrite ?hput_length; auto|].
      split; [auto|split; [exists []; simpl; rewrite app_nil_r; auto|auto]].
    + injection H as _ <-. split; [auto|split; [auto|split; [exists []; rewrite app_nil_r; auto|auto]]].
  - destruct (hstep_sim _ _ _ _ _ _ _ _ HR SP D HF H) as (SP' & L & _). split; [exact SP'|split; [exact L|]].
    clear - H. destruct o as [v|r v|i dt r| | |b0]; cbn [hstep] in H.
    + injection H as _ <-. split; [exists []; simpl; rewrite app_nil_r; auto|auto].
    + destruct (array_at w r); injection H as _ <-; (split; [exists []; simpl; rewrite app_nil_r; auto|auto]).
    + destruct (array_at w r) as [l|]; [|injection H as _ <-; split; [exists []; rewrite app_nil_r; auto|auto]].
      destruct (h_filter_control _ _ _ _ _ _ _) as [[a|e] [h m]]; injection H as _ <-;
        (split; [exists []; simpl; rewrite app_nil_r; auto|auto]).
    + injection H as _ <-. split; [eexists; reflexivity|auto].
    + injection H as _ <-. split; [exists []; simpl; rewrite app_nil_r; auto|auto].
    + injection H as _ <-. split; [exists []; simpl; rewrite app_nil_r; auto|auto].
Qed.
Lemma hrun_separate {Y I} (hc : hbnd -> hbnd -> I -> R -> loc -> HM Y loc) c reset_ext F os w bs w' :
  respects hc c -> separate F w -> (forall i, F i -> (i < length (w_own w))%nat) ->
  hrun hc reset_ext os w = (bs, w') ->
  separate F w' /\ (length (w_own w) <= length (w_own w'))%nat /\ w_low w' = w_low w /\ w_high w' = w_high w.
Proof.
  intros HR. revert w bs. induction os as [|o os IH]; intros w bs SP HF H.
  - injection H as <- <-. auto.
  - simpl in H. destruct (hstep hc reset_ext o w) as [b w1] eqn:E1.
    destruct (hrun hc reset_ext os w1) as [bs2 w2] eqn:E2. injection H as <- <-.
    destruct (hstep_separate _ _ _ _ _ _ _ _ HR SP HF E1) as (SP1 & L & _ & B1 & B2).
    destruct (IH w1 bs2 SP1) as (SP2 & L2 & B3 & B4); [intros i Hi; specialize (HF i Hi); lia|exact E2|].
    split; [auto|split; [lia|split; congruence]].
Qed.

(** The arrays from generate_info. *)
Lemma hstep_info {Y I} (hc : hbnd -> hbnd -> I -> R -> loc -> HM Y loc) c reset_ext F o w b w' j a :
  respects hc c -> separate F w -> (forall i, F i -> (i < length (w_own w))%nat) -> no_info_write o ->
  hstep hc reset_ext o w = (b, w') ->
  nth_error (v_info (seen w)) j = Some a -> nth_error (v_info (seen w')) j = Some a.
Proof.
  intros HR SP HF NI H Hj.
  assert (D : (exists i v, o = HWrite (Own i) v) \/ allowed_write F o)
    by (destruct o as [ |[?|?] ?| | | | ]; first [right; exact Logic.I | left; solve [eauto] | destruct NI]).
  destruct D as [(i & v & ->)|D].
  - cbn [hstep array_at] in H. destruct (nth_error (w_own w) i) as [l|] eqn:Ei.
    + injection H as _ <-. cbn [seen v_info w_heap w_info] in *. rewrite map_hput_other; [exact Hj|].
      apply (sp_apart _ _ SP). eapply nth_error_In; eauto.
    + injection H as _ <-. auto.
  - destruct (hstep_sim _ _ _ _ _ _ _ _ HR SP D HF H) as (_ & _ & V). clear H.
    assert (G : exists more, v_info (seen w') = v_info (seen w) ++ more).
    { destruct o as [v|[k|k] v|i dt r| | |b0]; cbn [vstep] in V; try destruct NI.
      - apply (f_equal snd) in V; cbn [snd] in V. rewrite <- V. exists []. rewrite app_nil_r. reflexivity.
      - apply (f_equal snd) in V; cbn [snd] in V. rewrite <- V. exists []. rewrite app_nil_r. reflexivity.
      - destruct (match r with Own k => _ | Info k => _ end) as [u|].
        + destruct (filter_control _ _ _ _ _ _) as [[x|e] m]; apply (f_equal snd) in V; cbn [snd] in V; rewrite <- V; exists []; rewrite app_nil_r; reflexivity.
        + apply (f_equal snd) in V; cbn [snd] in V. rewrite <- V. exists []. rewrite app_nil_r. reflexivity.
      - apply (f_equal snd) in V; cbn [snd] in V. rewrite <- V. eexists. reflexivity.
      - apply (f_equal snd) in V; cbn [snd] in V. rewrite <- V. exists []. rewrite app_nil_r. reflexivity.
      - apply (f_equal snd) in V; cbn [snd] in V. rewrite <- V. exists []. rewrite app_nil_r. reflexivity. }
    destruct G as [more G]. rewrite G, nth_error_app1; [exact Hj|]. apply nth_error_Some. congruence.
Qed.
Lemma hrun_info {Y I} (hc : hbnd -> hbnd -> I -> R -> loc -> HM Y loc) c reset_ext F os w bs w' j a :
  respects hc c -> separate F w -> (forall i, F i -> (i < length (w_own w))%nat) -> Forall no_info_write os ->
  hrun hc reset_ext os w = (bs, w') ->
  nth_error (v_info (seen w)) j = Some a -> nth_error (v_info (seen w')) j = Some a.
Proof.
  intros HR. revert w bs. induction os as [|o os IH]; intros w bs SP HF FA H Hj.
  - injection H as <- <-. auto.
  - simpl in H. destruct (hstep hc reset_ext o w) as [b w1] eqn:E1.
    destruct (hrun hc reset_ext os w1) as [bs2 w2] eqn:E2. injection H as <- <-.
    inversion FA as [|? ? A1 A2]; subst.
    destruct (hstep_separate _ _ _ _ _ _ _ _ HR SP HF E1) as (SP1 & L & _).
    apply (IH w1 bs2 SP1); [intros i Hi; specialize (HF i Hi); lia|exact A2|exact E2|].
    exact (hstep_info hc c reset_ext F o w b w1 j a HR SP HF A1 E1 Hj).
Qed.

Lemma hrun_app {Y I} (hc : hbnd -> hbnd -> I -> R -> loc -> HM Y loc) reset_ext os os2 w :
  hrun hc reset_ext (os ++ os2) w =
  (fst (hrun hc reset_ext os w) ++ fst (hrun hc reset_ext os2 (snd (hrun hc reset_ext os w))),
   snd (hrun hc reset_ext os2 (snd (hrun hc reset_ext os w)))).
Proof.
  revert w. induction os as [|o os IH]; intros w; simpl.
  - destruct (hrun hc reset_ext os2 w); reflexivity.
  - destruct (hstep hc reset_ext o w) as [b w1]. rewrite IH. destruct (hrun hc reset_ext os w1) as [bs w2]. reflexivity.
Qed.
