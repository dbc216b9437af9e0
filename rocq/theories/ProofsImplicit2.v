(** The implicit ASIF module: blocks of rows, the system of a call, names. *)
From Coq Require Import String Reals List Bool ZArith Lia Lra Permutation.
From Verif Require Import Prelude Vec ModelBase ModelController ModelSimplex ModelAsif
  SpecCore SpecHistory SpecAsif SpecImplicit ProofsBase ProofsVec ProofsHistory ProofsSimplex ProofsAsif ProofsAsif2
  ProofsAsif3 ProofsImplicit.
Import ListNotations.
Local Open Scope R_scope.

(** ** Blocks of rows *)

(** The row, constant and value at a point, for a constraint with strengthening function. *)
Definition irow {X P} (cfg : asif_cfg X) (c : constraint X P) (x0 : X) (pt : X * mat) : vec * R * R :=
  let grad := c_grad c (fst pt) (c_params c) in
  (vm (ac_dim cfg) grad (mm (ac_dim cfg) (snd pt) (ac_g cfg x0)),
   - (dot grad (mv (snd pt) (ac_f cfg x0)) +
      match c_alpha c with Some a => a (point_value c pt) | None => 0 end),
   point_value c pt).

Lemma invariance_row_irow {X P} (cfg : asif_cfg X) (c : constraint X P) x0 pt : c_alpha c <> None ->
  invariance_row cfg c (c_params c) x0 pt = Ok (irow cfg c x0 pt).
Proof.
  intros H; unfold invariance_row, irow, c_alpha_at, c_compute, point_value.
  destruct (c_alpha c); [reflexivity|congruence].
Qed.
Lemma rmap_total {A B} (f : A -> res B) g l : (forall a, f a = Ok (g a)) -> rmap f l = Ok (map g l).
Proof. intros H; induction l as [|a l IH]; simpl; auto. rewrite H, IH; auto. Qed.

Lemma irow_length {X P} (cfg : asif_cfg X) n (c : constraint X P) x0 pt :
  is_mat n (ac_dim cfg) (ac_g cfg x0) -> length (fst (fst (irow cfg c x0 pt))) = ac_dim cfg.
Proof. intros [L G]; simpl; apply vm_length, mm_rows; auto. Qed.

Lemma irow_margin {X P} (cfg : asif_cfg X) n (c : constraint X P) x0 pt w :
  length (ac_f cfg x0) = n -> is_mat n (ac_dim cfg) (ac_g cfg x0) ->
  dot (fst (fst (irow cfg c x0 pt))) w - snd (fst (irow cfg c x0 pt)) = point_margin (ac_f cfg) (ac_g cfg) c x0 pt w.
Proof.
  intros Lf [Lg G]; unfold point_margin; simpl.
  rewrite vm_dot by (apply mm_rows; auto). rewrite mm_mv by auto.
  rewrite mv_vadd by (rewrite mv_length; congruence).
  rewrite dot_vadd_r by (rewrite !mv_length; auto). ring.
Qed.

(** The block of one constraint of a module without slack. *)
Definition iblock {X P} (cfg : asif_cfg X) (x0 : X) (traj : list (X * mat)) (kc : string * constraint X P)
  : mat * vec * vec :=
  let c := snd kc in
  let rows := map (irow cfg c x0) traj in
  (map (fun r => (if c_enabled c then fst (fst r) else zeros (length (fst (fst r)))) ++ []) rows,
   map (fun r => if c_enabled c then snd (fst r) else 0) rows,
   map snd rows).

Lemma implicit_blocks_ok {X P} (cfg : asif_cfg X) j params enabled x0 traj (cs : dict (constraint X P)) :
  (forall k c, In (k, c) cs -> dict_get params k = Ok (c_params c) /\ dict_get enabled k = Ok (c_enabled c)) ->
  strengthened cs -> slack_count cs = 0%nat ->
  implicit_blocks cfg 0 j cs params enabled x0 traj = Ok (map (iblock cfg x0 traj) cs).
Proof.
  intros HC HA; induction cs as [|[k c] cs IH]; intros Hs; simpl; auto.
  unfold slack_count in *; simpl in Hs.
  destruct (HC k c) as [-> ->]; [left; auto|]; cbn [rbind].
  unfold has_slack in Hs; simpl in Hs; destruct (c_slack c) eqn:Esl; [discriminate|].
  unfold implicit_block; rewrite Esl.
  rewrite (rmap_total _ (irow cfg c x0)) by (intros pt; apply invariance_row_irow; apply (HA k); left; auto).
  cbn [rbind]. rewrite IH; auto.
  - intros k' c' Hi; apply HC; right; auto.
  - intros k' c' Hi; apply (HA k'); right; auto.
Qed.

(** Subsampling of a concatenation of blocks. *)
Lemma concat_length {A} n (bl : list (list A)) : (forall b, In b bl -> length b = n) ->
  length (concat bl) = (n * length bl)%nat.
Proof.
  induction bl as [|b bl IH]; intros H; simpl; [lia|].
  rewrite app_length, IH, (H b) by (simpl; auto; intros; apply H; simpl; auto). lia.
Qed.
Lemma slice_concat {A} n (pre post : list (list A)) b :
  (forall b', In b' pre -> length b' = n) -> length b = n ->
  slice (n * length pre) (n * (length pre + 1)) (concat (pre ++ b :: post)) = b.
Proof.
  intros Hp Hb; unfold slice; rewrite concat_app; simpl.
  rewrite skipn_app, <- (concat_length n pre Hp), skipn_all, Nat.sub_diag; simpl.
  replace (n * (length pre + 1) - length (concat pre))%nat with (length b) by (rewrite (concat_length n pre Hp); lia).
  rewrite firstn_app, Nat.sub_diag, firstn_all; simpl; apply app_nil_r.
Qed.

Section Subsample.
Context {X P : Type} (blk : string * constraint X P -> mat * vec * vec) (n : nat).
Notation brows := (fun b : mat * vec * vec => fst (fst b)).
Notation bconsts := (fun b : mat * vec * vec => snd (fst b)).

Fixpoint sel_rows (cs : dict (constraint X P)) (jss : list (list nat)) : mat :=
  match cs, jss with
  | kc :: cs', js :: jss' => map (fun j => nth j (fst (fst (blk kc))) []) js ++ sel_rows cs' jss'
  | _, _ => []
  end.
Fixpoint sel_consts (cs : dict (constraint X P)) (jss : list (list nat)) : vec :=
  match cs, jss with
  | kc :: cs', js :: jss' => map (fun j => nth j (snd (fst (blk kc))) 0) js ++ sel_consts cs' jss'
  | _, _ => []
  end.
Definition block_sized (b : mat * vec * vec) : Prop :=
  length (fst (fst b)) = n /\ length (snd (fst b)) = n /\ length (snd b) = n.

Lemma subsample_loop_ok (cs : dict (constraint X P)) : forall pre,
  (1 <= n)%nat -> (forall b, In b pre -> block_sized b) ->
  (forall kc, In kc cs -> block_sized (blk kc) /\ valid_sub (c_sub (snd kc)) n) ->
  let jss := map (fun kc => pick_list (c_sub (snd kc)) n (snd (blk kc))) cs in
  Forall2 (fun kc js => picks (c_sub (snd kc)) n (fun j => nth j (snd (blk kc)) 0) js /\
                                   forall j, In j js -> (j < n)%nat) cs jss /\
    subsample_loop 0 cs (length pre) n
      (concat (map brows (pre ++ map blk cs))) (concat (map bconsts (pre ++ map blk cs)))
      (map snd (pre ++ map blk cs)) = Ok (sel_rows cs jss, sel_consts cs jss).
Proof.
  induction cs as [|[k c] cs IH]; intros pre Hn Hpre Hcs.
  - split; [constructor|reflexivity].
  - intros jss. destruct (Hcs (k, c)) as ((L1 & L2 & L3) & V); [left; auto|]; cbn [snd] in V.
    assert (Hp1 : forall b, In b (map brows pre) -> length b = n)
      by (intros b Hb; apply in_map_iff in Hb; destruct Hb as (b' & <- & Hb); apply (Hpre _ Hb)).
    assert (Hp2 : forall b, In b (map bconsts pre) -> length b = n)
      by (intros b Hb; apply in_map_iff in Hb; destruct Hb as (b' & <- & Hb); apply (Hpre _ Hb)).
    assert (Hall : forall b, In b (pre ++ map blk ((k, c) :: cs)) -> block_sized b).
    { intros b Hb; apply in_app_or in Hb; destruct Hb as [Hb|Hb]; auto.
      apply in_map_iff in Hb; destruct Hb as (kc & <- & Hb); apply Hcs; auto. }
    assert (LT : (n * (length pre + 1) <= n * length (pre ++ map blk ((k, c) :: cs)))%nat).
    { apply Nat.mul_le_mono_l; rewrite app_length; simpl; lia. }
    destruct (subsample_one_ok c (length pre) n
      (concat (map brows (pre ++ map blk ((k, c) :: cs)))) (concat (map bconsts (pre ++ map blk ((k, c) :: cs))))
      (snd (blk (k, c))) (fst (fst (blk (k, c)))) (snd (fst (blk (k, c)))) V Hn) as (Pk & Jn & E1); auto.
    + rewrite !map_app; cbn [map]. rewrite <- (map_length brows pre); apply slice_concat; auto.
    + rewrite !map_app; cbn [map]. rewrite <- (map_length bconsts pre); apply slice_concat; auto.
    + rewrite (concat_length n); [rewrite map_length; exact LT|].
      intros b Hb; apply in_map_iff in Hb; destruct Hb as (b' & <- & Hb); apply (Hall _ Hb).
    + rewrite (concat_length n); [rewrite map_length; exact LT|].
      intros b Hb; apply in_map_iff in Hb; destruct Hb as (b' & <- & Hb); apply (Hall _ Hb).
    + destruct (IH (pre ++ [blk (k, c)])) as (F & E2); auto.
      { intros b Hb; apply Hall; apply in_app_or in Hb; apply in_or_app; destruct Hb as [Hb|[<-|[]]]; [left|right; left]; auto. }
      { intros kc Hkc; apply Hcs; right; auto. }
      split; [constructor; auto|].
      cbn [subsample_loop].
      assert (Ev : nth (length pre) (map snd (pre ++ map blk ((k, c) :: cs))) [] = snd (blk (k, c))).
      { rewrite map_app, app_nth2; rewrite map_length; [|lia]. rewrite Nat.sub_diag; reflexivity. }
      rewrite Ev, E1; cbn [rbind Nat.eqb fst snd].
      rewrite app_length in E2; cbn [length] in E2; rewrite Nat.add_1_r in E2.
      rewrite <- app_assoc in E2; cbn [app] in E2. cbn [map] in *. rewrite E2; reflexivity.
Qed.
End Subsample.

Lemma checked_lt sub n p : valid_sub sub n -> checked sub n p -> (p < n)%nat.
Proof. intros ((H1 & H2) & _) [H|[H _]]; lia. Qed.
Lemma picks_ext sub n v v' js : valid_sub sub n -> (forall j, (j < n)%nat -> v j = v' j) ->
  picks sub n v js -> picks sub n v' js.
Proof.
  intros V E (base & kept & dropped & H1 & H2 & H3 & H4 & H5 & H6).
  exists base, kept, dropped; split; [auto|split; [auto|split; [auto|split; [|auto]]]].
  assert (Q : forall p, In p (kept ++ dropped) -> (p < n)%nat).
  { intros p Hp; apply (checked_lt sub); auto; apply H2; eapply Permutation_in; [symmetry; exact H3|auto]. }
  intros p q Hp Hq; rewrite <- !E; auto; apply Q, in_or_app; auto.
Qed.

(** ** The rows selected encode the requirements *)
Lemma sel_encodes {X P} (cfg : asif_cfg X) n x traj (cs : dict (constraint X P)) : forall jss,
  length (ac_f cfg x) = n -> is_mat n (ac_dim cfg) (ac_g cfg x) ->
  Forall2 (fun kc js => forall j, In j js -> (j < length traj)%nat) cs jss ->
  encodes (ac_dim cfg) (sel_rows (iblock cfg x traj) cs jss) (sel_consts (iblock cfg x traj) cs jss)
    (point_demands (ac_dim cfg) (ac_f cfg) (ac_g cfg) x traj cs jss).
Proof.
  intros jss Lf Hg F; induction F as [|[k c] js cs jss Hj F IH]; [constructor|].
  cbn [sel_rows sel_consts point_demands].
  apply encodes_app; [|exact IH].
  clear IH F; induction js as [|j js IHj]; [constructor|].
  cbn [map]; constructor; [| |apply IHj; intros; apply Hj; right; auto].
  - cbn [iblock fst snd].
    rewrite map_map. erewrite nth_indep with (d' := _) by (rewrite map_length; apply Hj; left; auto).
    rewrite (map_nth (fun pt => _) traj (x, [])).
    rewrite app_nil_r; destruct (c_enabled c); rewrite ?zeros_length; apply (irow_length _ n); auto.
  - intros z Lz; cbn [iblock fst snd dm_margin].
    rewrite !map_map.
    erewrite nth_indep with (d' := _) by (rewrite map_length; apply Hj; left; auto).
    rewrite (map_nth (fun pt => _) traj (x, [])).
    erewrite (nth_indep (map _ traj) 0) by (rewrite map_length; apply Hj; left; auto).
    rewrite (map_nth (fun pt => _) traj (x, [])).
    rewrite app_nil_r; fold (point traj x j); destruct (c_enabled c).
    + rewrite (irow_margin _ n) by auto. rewrite firstn_all2 by lia; reflexivity.
    + rewrite dot_zeros_l; ring.
Qed.
