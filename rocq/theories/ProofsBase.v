(** Lemmas about clipping, filter_control and ConstraintBasedRTA. *)
From Coq Require Import String Reals List Bool ZArith Lia Lra Psatz.
From Verif Require Import Prelude Vec ModelBase ModelController SpecCore.
Import ListNotations.
Local Open Scope R_scope.

Lemma Rltb_true x y : Rltb x y = true <-> x < y.
Proof. unfold Rltb; destruct (Rlt_dec x y); split; intros; try easy; lra. Qed.
Lemma Rltb_false x y : Rltb x y = false <-> y <= x.
Proof. unfold Rltb; destruct (Rlt_dec x y); split; intros; try easy; lra. Qed.
Lemma Rleb_true x y : Rleb x y = true <-> x <= y.
Proof. unfold Rleb; destruct (Rle_dec x y); split; intros; try easy; lra. Qed.
Lemma Rleb_false x y : Rleb x y = false <-> y < x.
Proof. unfold Rleb; destruct (Rle_dec x y); split; intros; try easy; lra. Qed.

Ltac minmax :=
  repeat match goal with
  | H : context [Rmax ?a ?b] |- _ =>
      let E := fresh in
      destruct (Rle_dec a b) as [E|E];
      [rewrite (Rmax_right a b) in * by lra | rewrite (Rmax_left a b) in * by lra]
  | H : context [Rmin ?a ?b] |- _ =>
      let E := fresh in
      destruct (Rle_dec a b) as [E|E];
      [rewrite (Rmin_left a b) in * by lra | rewrite (Rmin_right a b) in * by lra]
  | |- context [Rmax ?a ?b] =>
      let E := fresh in
      destruct (Rle_dec a b) as [E|E];
      [rewrite (Rmax_right a b) in * by lra | rewrite (Rmax_left a b) in * by lra]
  | |- context [Rmin ?a ?b] =>
      let E := fresh in
      destruct (Rle_dec a b) as [E|E];
      [rewrite (Rmin_left a b) in * by lra | rewrite (Rmin_right a b) in * by lra]
  end.

(** ** Lists *)

Lemma map2_length {A B C} (f : A -> B -> C) l l' :
  length (map2 f l l') = Nat.min (length l) (length l').
Proof. revert l'; induction l as [|a l IH]; intros [|b l']; simpl; auto. Qed.

Lemma nth_error_map2 {A B C} (f : A -> B -> C) l l' i :
  nth_error (map2 f l l') i =
  match nth_error l i, nth_error l' i with
  | Some a, Some b => Some (f a b)
  | _, _ => None
  end.
Proof.
  revert l' i; induction l as [|a l IH]; intros [|b l'] [|i]; simpl; auto.
  destruct (nth_error l i); auto.
Qed.

Lemma nth_error_ext {A} (l l' : list A) :
  (forall i, nth_error l i = nth_error l' i) -> l = l'.
Proof.
  revert l'; induction l as [|a l IH]; intros [|b l'] H; auto.
  - specialize (H 0%nat); discriminate.
  - specialize (H 0%nat); discriminate.
  - f_equal.
    + specialize (H 0%nat); simpl in H; congruence.
    + apply IH; intros i; apply (H (S i)).
Qed.

(** ** Broadcasting and clipping *)

Lemma bound_at_vec v i : length v <> 1%nat -> bound_at (Some (BVec v)) i = nth_error v i.
Proof. destruct v as [|a [|b v]]; simpl; auto; intros; lia. Qed.

(** What an element of a broadcast result is. *)
Lemma bcast_elem f u b w i y :
  bcast f u b = Ok w -> nth_error w i = Some y ->
  exists x r, bound_at (Some b) i = Some r /\ y = f x r /\
    (nth_error u i = Some x \/ (length u = 1%nat /\ nth_error u 0 = Some x)).
Proof.
  destruct b as [r|v]; simpl bcast.
  - intros H Hi; inversion H; subst; clear H.
    rewrite nth_error_map in Hi; destruct (nth_error u i) eqn:E; inversion Hi; subst.
    exists r0, r; simpl; auto.
  - destruct (Nat.eqb (length u) (length v)) eqn:El.
    + apply Nat.eqb_eq in El; intros H Hi; inversion H; subst; clear H.
      rewrite nth_error_map2 in Hi.
      destruct (nth_error u i) as [x|] eqn:Eu; [|discriminate].
      destruct (nth_error v i) as [r|] eqn:Ev; inversion Hi; subst.
      exists x, r; repeat split; auto.
      destruct v as [|a [|b v]]; simpl in *; auto.
      destruct i as [|i]; simpl in *; auto; destruct i; discriminate.
    + destruct v as [|r [|r' v]].
      * destruct u as [|x [|x' u]]; intros H Hi; inversion H; subst.
        destruct i; discriminate.
      * intros H Hi; inversion H; subst; clear H.
        rewrite nth_error_map in Hi; destruct (nth_error u i) eqn:E; inversion Hi; subst.
        exists r0, r; simpl; auto.
      * destruct u as [|x [|x' u]]; intros H Hi; inversion H; subst; clear H.
        assert (Hi' : nth_error (map (f x) (r :: r' :: v)) i = Some y) by exact Hi.
        rewrite nth_error_map in Hi'.
        destruct (nth_error (r :: r' :: v) i) as [q|] eqn:E; inversion Hi'; subst.
        exists x, q; repeat split; auto.
Qed.

(** A bound of the right size broadcasts elementwise. *)
Lemma bcast_fits f u b :
  fits1 (Some b) (length u) ->
  exists w, bcast f u b = Ok w /\ length w = length u /\
    forall i, nth_error w i =
      match nth_error u i, bound_at (Some b) i with
      | Some x, Some r => Some (f x r)
      | _, _ => None
      end.
Proof.
  destruct b as [r|v]; simpl bcast; intros F.
  - eexists; split; [reflexivity|]; split; [apply map_length|].
    intros i; rewrite nth_error_map; simpl; destruct (nth_error u i); auto.
  - simpl in F.
    destruct (Nat.eqb (length u) (length v)) eqn:El.
    + apply Nat.eqb_eq in El.
      eexists; split; [reflexivity|]; split; [rewrite map2_length; lia|].
      intros i; rewrite nth_error_map2.
      destruct (Nat.eq_dec (length v) 1) as [E1|E1].
      * destruct v as [|r [|r' v]]; simpl in E1; try lia.
        destruct u as [|x [|x' u]]; simpl in El; try lia.
        destruct i as [|i]; simpl; auto. destruct i; auto.
      * rewrite (bound_at_vec v i E1); auto.
    + apply Nat.eqb_neq in El.
      destruct v as [|r [|r' v]]; simpl in F, El; try lia.
      eexists; split; [reflexivity|]; split; [apply map_length|].
      intros i; rewrite nth_error_map; simpl; destruct (nth_error u i); auto.
Qed.

Lemma bcast_length f u b w : fits1 (Some b) (length u) -> bcast f u b = Ok w -> length w = length u.
Proof. intros F H; destruct (bcast_fits f u b F) as (w' & E & L & _); congruence. Qed.

(** The upper bound always holds after clipping. *)
Lemma clip_below b u w : clip b u = Ok w -> below (b_high b) w.
Proof.
  unfold clip, below; intros H i x h Hi Hb.
  destruct (b_low b) as [l|], (b_high b) as [hi|]; try discriminate.
  - unfold rbind in H; destruct (bcast Rmax u l) as [v|] eqn:Ev; [|discriminate].
    destruct (bcast_elem _ _ _ _ _ _ H Hi) as (z & r & Hr & -> & _).
    rewrite Hr in Hb; inversion Hb; subst; apply Rmin_r.
  - destruct (bcast_elem _ _ _ _ _ _ H Hi) as (z & r & Hr & -> & _).
    rewrite Hr in Hb; inversion Hb; subst; apply Rmin_r.
Qed.

(** If both bounds are consistent, the lower one holds as well. *)
Lemma clip_above b u w : consistent b -> clip b u = Ok w -> above (b_low b) w.
Proof.
  unfold clip, above, consistent; intros C H i x l Hi Hb.
  destruct (b_low b) as [lo|], (b_high b) as [hi|]; try discriminate.
  - unfold rbind in H; destruct (bcast Rmax u lo) as [v|] eqn:Ev; [|discriminate].
    destruct (bcast_elem _ _ _ _ _ _ H Hi) as (z & r & Hr & -> & Hz).
    assert (Hlr : l <= r) by (apply (C i); auto).
    assert (Hlz : l <= z).
    { destruct Hz as [Hz|[L Hz]].
      - destruct (bcast_elem _ _ _ _ _ _ Ev Hz) as (y & r0 & Hr0 & -> & _).
        rewrite Hb in Hr0; inversion Hr0; subst; apply Rmax_r.
      - destruct (bcast_elem _ _ _ _ _ _ Ev Hz) as (y & r0 & Hr0 & -> & _).
        assert (r0 = l); [|subst; apply Rmax_r].
        destruct lo as [q|q]; simpl in *; [congruence|].
        destruct q as [|q0 [|q1 q]]; try congruence.
        exfalso; clear -Ev L. simpl in Ev.
        destruct (Nat.eqb (length u) (S (S (length q)))) eqn:E.
        + apply Nat.eqb_eq in E; inversion Ev; subst.
          rewrite map2_length in L; simpl in L; lia.
        + destruct u as [|x [|x' u]]; inversion Ev; subst; simpl in L; lia. }
    apply Rmin_glb; auto.
  - destruct (bcast_elem _ _ _ _ _ _ H Hi) as (z & r & Hr & -> & _).
    rewrite Hr in Hb; inversion Hb; subst; apply Rmax_r.
Qed.

Lemma clip_within b u w : consistent b -> clip b u = Ok w -> within b w.
Proof. intros C H; split; [eapply clip_above; eauto|eapply clip_below; eauto]. Qed.

(** Clipping a control that the bounds fit. *)
Lemma clip_boxed b u : fits b (length u) ->
  exists w, clip b u = Ok w /\ boxed b u w.
Proof.
  unfold clip, fits, boxed; destruct b as [lo hi]; simpl; intros [Fl Fh].
  destruct lo as [l|], hi as [h|].
  - destruct (bcast_fits Rmax u l Fl) as (v & Ev & Lv & Nv).
    rewrite <- Lv in Fh.
    destruct (bcast_fits Rmin v h Fh) as (w & Ew & Lw & Nw).
    exists w; unfold rbind; rewrite Ev; split; auto; split; [congruence|].
    intros i x y Hx Hy; rewrite Nw, Nv, Hx in Hy.
    destruct (bound_at (Some l) i) as [r|]; [|discriminate].
    destruct (bound_at (Some h) i) as [q|]; [|discriminate]; congruence.
  - destruct (bcast_fits Rmax u l Fl) as (v & Ev & Lv & Nv).
    exists v; split; auto; split; auto.
    intros i x y Hx Hy; rewrite Nv, Hx in Hy.
    destruct (bound_at (Some l) i) as [r|]; [|discriminate]; simpl; congruence.
  - destruct (bcast_fits Rmin u h Fh) as (v & Ev & Lv & Nv).
    exists v; split; auto; split; auto.
    intros i x y Hx Hy; rewrite Nv, Hx in Hy.
    destruct (bound_at (Some h) i) as [r|]; [|discriminate]; simpl; congruence.
  - exists u; split; auto; split; auto.
    intros i x y Hx Hy; simpl; congruence.
Qed.

Lemma boxed_unique b u w w' : boxed b u w -> boxed b u w' -> w = w'.
Proof.
  intros [L N] [L' N']; apply nth_error_ext; intros i.
  destruct (nth_error u i) as [x|] eqn:E.
  - assert (i < length u)%nat by (apply nth_error_Some; congruence).
    destruct (nth_error w i) as [y|] eqn:Ey;
      [|apply nth_error_None in Ey; lia].
    destruct (nth_error w' i) as [y'|] eqn:Ey';
      [|apply nth_error_None in Ey'; lia].
    rewrite (N _ _ _ E Ey), (N' _ _ _ E Ey'); auto.
  - apply nth_error_None in E.
    assert (nth_error w i = None) by (apply nth_error_None; lia).
    assert (nth_error w' i = None) by (apply nth_error_None; lia).
    congruence.
Qed.

Lemma clip_iff_boxed b u w : fits b (length u) -> (clip b u = Ok w <-> boxed b u w).
Proof.
  intros F; destruct (clip_boxed b u F) as (w' & E & B); split; intros H.
  - congruence.
  - rewrite E; f_equal; eapply boxed_unique; eauto.
Qed.

Lemma clip_length b u w : fits b (length u) -> clip b u = Ok w -> length w = length u.
Proof. intros F H; apply (clip_iff_boxed b u w F) in H; apply H. Qed.

(** A control inside the bounds is left alone. *)
Lemma clip_id b u : fits b (length u) -> within b u -> clip b u = Ok u.
Proof.
  intros F [Ha Hb]; apply clip_iff_boxed; auto; split; auto.
  intros i x y Hx Hy; assert (x = y) by congruence; subst y.
  specialize (Ha i x); specialize (Hb i x).
  destruct (bound_at (b_low b) i) as [l|]; destruct (bound_at (b_high b) i) as [h|].
  - specialize (Ha l Hx eq_refl); specialize (Hb h Hx eq_refl).
    rewrite Rmax_left by lra; rewrite Rmin_left by lra; auto.
  - specialize (Ha l Hx eq_refl); rewrite Rmax_left by lra; auto.
  - specialize (Hb h Hx eq_refl); rewrite Rmin_left by lra; auto.
  - auto.
Qed.

(** Clipping twice is clipping once, for any bounds of the right size. *)
Lemma clip_idem b u w : fits b (length u) -> clip b u = Ok w -> clip b w = Ok w.
Proof.
  intros F H; assert (L := clip_length _ _ _ F H).
  apply clip_iff_boxed; [rewrite L; auto|].
  apply clip_iff_boxed in H; auto; destruct H as [_ N]; split; auto.
  intros i y y' Hy Hy'; assert (y' = y) by congruence; subst y'.
  destruct (nth_error u i) as [x|] eqn:E.
  - specialize (N i x y E Hy).
    destruct (bound_at (b_low b) i) as [l|]; destruct (bound_at (b_high b) i) as [h|];
      simpl in *; minmax; lra.
  - apply nth_error_None in E.
    assert (i < length w)%nat by (apply nth_error_Some; congruence); lia.
Qed.

Lemma sq_far a b c :
  (a <= b <= c \/ c <= b <= a) -> (a - b) * (a - b) <= (a - c) * (a - c).
Proof.
  intros H. assert (0 <= (c - b) * (b - a)) by (destruct H; nra).
  nra.
Qed.
Lemma sq_far_eq a b c :
  (a <= b <= c \/ c <= b <= a) -> (a - c) * (a - c) <= (a - b) * (a - b) -> c = b.
Proof.
  intros H D. assert (0 <= (c - b) * (b - a)) by (destruct H; nra).
  assert ((c - b) * (c - b) <= 0) by nra. nra.
Qed.

(** The clipped control is a nearest point of the box. *)
Lemma boxed_nearest_aux (lo hi : nat -> option R) u :
  forall w v, length w = length u -> length v = length u ->
  (forall i x y, nth_error u i = Some x -> nth_error w i = Some y ->
     y = (let m := match lo i with Some l => Rmax x l | None => x end in
          match hi i with Some h => Rmin m h | None => m end)) ->
  (forall i l h, lo i = Some l -> hi i = Some h -> l <= h) ->
  (forall i x l, nth_error v i = Some x -> lo i = Some l -> l <= x) ->
  (forall i x h, nth_error v i = Some x -> hi i = Some h -> x <= h) ->
  dist2 u w <= dist2 u v.
Proof.
  revert lo hi; induction u as [|a u IH]; intros lo hi [|b w] [|c v] Lw Lv N C A B;
    simpl in *; try lia; try lra.
  apply Rplus_le_compat.
  - specialize (N 0%nat a b eq_refl eq_refl).
    specialize (A 0%nat c); specialize (B 0%nat c); specialize (C 0%nat).
    destruct (lo 0%nat) as [l|]; destruct (hi 0%nat) as [h|]; simpl in N.
    + specialize (A l eq_refl eq_refl); specialize (B h eq_refl eq_refl);
        specialize (C l h eq_refl eq_refl).
      minmax; subst; apply sq_far; lra.
    + specialize (A l eq_refl eq_refl); minmax; subst; apply sq_far; lra.
    + specialize (B h eq_refl eq_refl); minmax; subst; apply sq_far; lra.
    + subst; apply Rle_trans with 0; [right; ring|apply Rle_0_sqr].
  - apply (IH (fun i => lo (S i)) (fun i => hi (S i))); try lia.
    + intros i x y; apply (N (S i)).
    + intros i; apply (C (S i)).
    + intros i; apply (A (S i)).
    + intros i; apply (B (S i)).
Qed.

Lemma clip_nearest b u w v :
  fits b (length u) -> consistent b -> clip b u = Ok w ->
  length v = length u -> within b v -> dist2 u w <= dist2 u v.
Proof.
  intros F C H L [Va Vb]; apply clip_iff_boxed in H; auto; destruct H as [Lw N].
  apply (boxed_nearest_aux (bound_at (b_low b)) (bound_at (b_high b))); auto.
Qed.

(** The nearest point is unique. *)
Lemma boxed_nearest_unique_aux (lo hi : nat -> option R) u :
  forall w v, length w = length u -> length v = length u ->
  (forall i x y, nth_error u i = Some x -> nth_error w i = Some y ->
     y = (let m := match lo i with Some l => Rmax x l | None => x end in
          match hi i with Some h => Rmin m h | None => m end)) ->
  (forall i l h, lo i = Some l -> hi i = Some h -> l <= h) ->
  (forall i x l, nth_error v i = Some x -> lo i = Some l -> l <= x) ->
  (forall i x h, nth_error v i = Some x -> hi i = Some h -> x <= h) ->
  dist2 u v <= dist2 u w -> v = w.
Proof.
  revert lo hi; induction u as [|a u IH]; intros lo hi [|b w] [|c v] Lw Lv N C A B D;
    simpl in *; try lia; auto.
  assert (Htail : dist2 u w <= dist2 u v).
  { apply (boxed_nearest_aux (fun i => lo (S i)) (fun i => hi (S i))); try lia.
    + intros i x y; apply (N (S i)).
    + intros i; apply (C (S i)).
    + intros i; apply (A (S i)).
    + intros i; apply (B (S i)). }
  assert (Hhead : (a - b) * (a - b) <= (a - c) * (a - c) /\
                  ((a - c) * (a - c) <= (a - b) * (a - b) -> c = b)).
  { specialize (N 0%nat a b eq_refl eq_refl).
    specialize (A 0%nat c); specialize (B 0%nat c); specialize (C 0%nat).
    destruct (lo 0%nat) as [l|]; destruct (hi 0%nat) as [h|]; simpl in N.
    + specialize (A l eq_refl eq_refl); specialize (B h eq_refl eq_refl);
        specialize (C l h eq_refl eq_refl).
      minmax; subst; (split; [apply sq_far; lra|apply sq_far_eq; lra]).
    + specialize (A l eq_refl eq_refl); minmax; subst; (split; [apply sq_far; lra|apply sq_far_eq; lra]).
    + specialize (B h eq_refl eq_refl); minmax; subst; (split; [apply sq_far; lra|apply sq_far_eq; lra]).
    + subst; split; [apply Rle_trans with 0; [right; ring|apply Rle_0_sqr]|intros; nra]. }
  destruct Hhead as [H1 H2].
  f_equal; [apply H2; lra|].
  apply (IH (fun i => lo (S i)) (fun i => hi (S i))); try lia.
  + intros i x y; apply (N (S i)).
  + intros i; apply (C (S i)).
  + intros i; apply (A (S i)).
  + intros i; apply (B (S i)).
  + lra.
Qed.

Lemma clip_nearest_unique b u w v :
  fits b (length u) -> consistent b -> clip b u = Ok w ->
  length v = length u -> within b v -> dist2 u v <= dist2 u w -> v = w.
Proof.
  intros F C H L [Va Vb] D; apply clip_iff_boxed in H; auto; destruct H as [Lw N].
  apply (boxed_nearest_unique_aux (bound_at (b_low b)) (bound_at (b_high b)) u); auto.
Qed.

(** Scalar (or absent) bounds clip every control. *)
Definition scalar_bounds (b : bounds) : Prop :=
  (forall v, b_low b <> Some (BVec v)) /\ (forall v, b_high b <> Some (BVec v)).

Lemma scalar_fits b n : scalar_bounds b -> fits b n.
Proof.
  intros [Hl Hh]; split; unfold fits1.
  - destruct (b_low b) as [[r|v]|]; auto; exfalso; eapply Hl; eauto.
  - destruct (b_high b) as [[r|v]|]; auto; exfalso; eapply Hh; eauto.
Qed.

(** ** filter_control *)

Lemma filter_control_disabled {X I} b (compute : I -> R -> vec -> M (rta X) vec) i dt u s :
  enable s = false ->
  filter_control b compute i dt u s = (Ok u, set_actual (Some u) (set_desired (Some u) s)).
Proof.
  intros E; unfold filter_control, bind, modify, get, ret; simpl; rewrite E; auto.
Qed.

Lemma filter_control_enabled {X I} b (compute : I -> R -> vec -> M (rta X) vec) i dt u s :
  enable s = true ->
  filter_control b compute i dt u s =
  match compute i dt u (set_desired (Some u) s) with
  | (Ok v, s1) => match clip b v with
                  | Ok w => (Ok w, set_actual (Some w) s1)
                  | Err e => (Err e, s1)
                  end
  | (Err e, s1) => (Err e, s1)
  end.
Proof.
  intros E; unfold filter_control, bind, modify, get, ret, lift; simpl; rewrite E.
  destruct (compute i dt u (set_desired (Some u) s)) as [[v|e] s1]; reflexivity.
Qed.

Lemma filter_control_ok_inv {X I} b (compute : I -> R -> vec -> M (rta X) vec) i dt u s w s' :
  enable s = true ->
  filter_control b compute i dt u s = (Ok w, s') ->
  exists v s1, compute i dt u (set_desired (Some u) s) = (Ok v, s1) /\ clip b v = Ok w /\
               s' = set_actual (Some w) s1.
Proof.
  intros E H; rewrite filter_control_enabled in H by auto.
  destruct (compute i dt u (set_desired (Some u) s)) as [[v|e] s1]; [|discriminate].
  destruct (clip b v) eqn:Ec; inversion H; subst; eauto.
Qed.

Lemma filter_control_returned_is_recorded {X I} b (compute : I -> R -> vec -> M (rta X) vec)
    i dt u s w s' :
  filter_control b compute i dt u s = (Ok w, s') -> control_actual s' = Some w.
Proof.
  destruct (enable s) eqn:E; intros H.
  - destruct (filter_control_ok_inv _ _ _ _ _ _ _ _ E H) as (v & s1 & _ & _ & ->); auto.
  - rewrite filter_control_disabled in H by auto; inversion H; subst; auto.
Qed.

(** ** Dictionaries *)

Lemma dict_get_set {V} (d : dict V) k k' v :
  dict_get (dict_set d k v) k' = if String.eqb k' k then Ok v else dict_get d k'.
Proof.
  induction d as [|[k0 v0] d IH]; simpl.
  - destruct (String.eqb k' k); auto.
  - destruct (String.eqb k k0) eqn:E; simpl.
    + apply String.eqb_eq in E; subst k0.
      destruct (String.eqb k' k); auto.
    + rewrite IH; destruct (String.eqb k' k0) eqn:E0; auto.
      apply String.eqb_eq in E0; subst k0.
      rewrite String.eqb_sym in E; rewrite E; auto.
Qed.

Lemma dict_get_in {V} (d : dict V) k v :
  distinct_keys d -> In (k, v) d -> dict_get d k = Ok v.
Proof.
  unfold distinct_keys; induction d as [|[k0 v0] d IH]; simpl; intros N H; [destruct H|destruct H as [H|H]].
  - inversion H; subst; rewrite String.eqb_refl; auto.
  - inversion N; subst. destruct (String.eqb k k0) eqn:E.
    + apply String.eqb_eq in E; subst; exfalso; apply H2.
      apply in_map_iff; exists (k0, v); auto.
    + auto.
Qed.

(** Writing one value per constraint: afterwards every constraint's entry is its own. *)
Lemma fold_set_other {A V} (f : string * A -> V) (l : list (string * A)) :
  forall d k, ~ In k (map fst l) ->
  dict_get (fold_left (fun d kc => dict_set d (fst kc) (f kc)) l d) k = dict_get d k.
Proof.
  induction l as [|[k0 c0] l IH]; simpl; intros d k H; auto.
  rewrite IH by tauto. rewrite dict_get_set; simpl.
  destruct (String.eqb k k0) eqn:E; auto.
  apply String.eqb_eq in E; subst; tauto.
Qed.

Lemma fold_set_in {A V} (f : string * A -> V) (l : list (string * A)) :
  forall d k c, NoDup (map fst l) -> In (k, c) l ->
  dict_get (fold_left (fun d kc => dict_set d (fst kc) (f kc)) l d) k = Ok (f (k, c)).
Proof.
  induction l as [|[k0 c0] l IH]; simpl; intros d k c N H; [destruct H|destruct H as [H|H]].
  - inversion H; subst; inversion N; subst.
    rewrite fold_set_other by auto. rewrite dict_get_set, String.eqb_refl; auto.
  - inversion N; subst; auto.
Qed.

(** The value found for a key that was written does not depend on the dictionary
    written to. *)
Lemma fold_set_indep {A V} (f : string * A -> V) (l : list (string * A)) :
  forall d d' k, In k (map fst l) ->
  dict_get (fold_left (fun d kc => dict_set d (fst kc) (f kc)) l d) k =
  dict_get (fold_left (fun d kc => dict_set d (fst kc) (f kc)) l d') k.
Proof.
  assert (Base : forall l d d' k,
    dict_get d k = dict_get d' k ->
    dict_get (fold_left (fun d kc => dict_set d (fst kc) (f kc)) l d) k =
    dict_get (fold_left (fun d kc => dict_set d (fst kc) (f kc)) l d') k).
  { clear; induction l as [|[k0 c0] l IH]; simpl; intros d d' k H; auto.
    apply IH; rewrite !dict_get_set; simpl; rewrite H; auto. }
  induction l as [|[k0 c0] l IH]; simpl; intros d d' k H; [tauto|].
  destruct H as [->|H].
  - apply Base; rewrite !dict_get_set; simpl; rewrite String.eqb_refl; auto.
  - apply IH; auto.
Qed.

Lemma update_params_params {X P Y} (s : cb X P Y) k c :
  distinct_keys (cb_constraints s) -> In (k, c) (cb_constraints s) ->
  dict_get (cb_params (update_params s)) k = Ok (c_params c).
Proof.
  intros N H; unfold update_params, set_caches; simpl.
  apply (fold_set_in (fun kc => c_params (snd kc))); auto.
Qed.

Lemma update_params_enabled {X P Y} (s : cb X P Y) k c :
  distinct_keys (cb_constraints s) -> In (k, c) (cb_constraints s) ->
  dict_get (cb_enabled (update_params s)) k = Ok (c_enabled c).
Proof.
  intros N H; unfold update_params, set_caches; simpl.
  apply (fold_set_in (fun kc => c_enabled (snd kc))); auto.
Qed.

(** ** constraints_to_use *)

Lemma filter_subsequence {A} (f : A -> bool) l : subsequence (filter f l) l.
Proof.
  induction l as [|a l IH]; simpl; [constructor|].
  destruct (f a); [apply sub_keep|apply sub_drop]; exact IH.
Qed.

Lemma select_spec {X P} (defined : dict (constraint X P)) names chosen :
  select_constraints defined (Some names) = Ok chosen ->
  subsequence chosen defined /\
  (forall k c, In (k, c) chosen <-> In (k, c) defined /\ In k names).
Proof.
  simpl; destruct (Nat.eqb _ 0); [discriminate|]; intros H; inversion H; subst; clear H.
  split; [apply filter_subsequence|].
  intros k c; rewrite filter_In; split; intros [H1 H2]; split; auto.
  - apply existsb_exists in H2; destruct H2 as (n & Hn & E).
    apply String.eqb_eq in E; simpl in E; subst; auto.
  - apply existsb_exists; exists k; split; auto; apply String.eqb_refl.
Qed.

Lemma select_fails {X P} (defined : dict (constraint X P)) names :
  (exists e, select_constraints defined (Some names) = Err e) <->
  (forall k c, In (k, c) defined -> ~ In k names).
Proof.
  simpl; destruct (Nat.eqb _ 0) eqn:E.
  - apply Nat.eqb_eq in E; split; [|eauto].
    intros _ k c H Hn.
    assert (Hf : In (k, c) (filter (fun kc => existsb (String.eqb (fst kc)) names) defined)).
    { apply filter_In; split; auto; apply existsb_exists; exists k; split; auto;
      apply String.eqb_refl. }
    destruct (filter _ defined); [destruct Hf|discriminate].
  - apply Nat.eqb_neq in E; split; [intros [e H]; discriminate|].
    intros H; exfalso; apply E.
    destruct (filter _ defined) as [|[k c] l] eqn:Ef; auto.
    assert (Hf : In (k, c) (filter (fun kc => existsb (String.eqb (fst kc)) names) defined))
      by (rewrite Ef; left; auto).
    apply filter_In in Hf; destruct Hf as [Hf1 Hf2].
    apply existsb_exists in Hf2; destruct Hf2 as (n & Hn & Eq).
    apply String.eqb_eq in Eq; simpl in Eq; subst; exfalso; eapply H; eauto.
Qed.

Lemma subsequence_keys {A B} (f : A -> B) s l : subsequence s l -> subsequence (map f s) (map f l).
Proof. induction 1; simpl; [apply sub_nil|apply sub_drop|apply sub_keep]; auto. Qed.

Lemma subsequence_incl {A} (s l : list A) : subsequence s l -> incl s l.
Proof.
  induction 1; intros x Hx.
  - destruct Hx.
  - right; auto.
  - destruct Hx as [->|Hx]; [left|right]; auto.
Qed.

Lemma subsequence_NoDup {A} (s l : list A) : subsequence s l -> NoDup l -> NoDup s.
Proof.
  induction 1; intros N; inversion N; subst; auto.
  constructor; auto; intros Hs; apply H2; eapply subsequence_incl; eauto.
Qed.
