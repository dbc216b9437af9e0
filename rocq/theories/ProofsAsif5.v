(** Slack variables: programs that are always solvable, and disabled constraints. *)
From Coq Require Import String Reals List Bool ZArith Lia Lra.
From Verif Require Import Prelude Vec ModelBase ModelController ModelSimplex ModelAsif
  SpecCore SpecHistory SpecAsif ProofsBase ProofsVec ProofsHistory ProofsAsif ProofsAsif2 ProofsAsif3
  ProofsAsif4.
Import ListNotations.
Local Open Scope R_scope.

(** The barrier part of a decision vector, with the slack values as a list of their own. *)
Definition plain_margin {X P} (f : X -> vec) (g : X -> mat) (c : constraint X P) (x : X) (w : vec) : R :=
  dot (c_grad c x (c_params c)) (vadd (f x) (mv (g x) w)) + strength c (c_fun c x (c_params c) + c_bias c).
Fixpoint bar_ok {X P} (f : X -> vec) (g : X -> mat) (x : X) (w : vec) (cs : dict (constraint X P)) (sl : vec) : Prop :=
  match cs with
  | [] => True
  | (_, c) :: cs' =>
      match c_slack c with
      | Some _ => (c_enabled c = true -> hd 0 sl <= plain_margin f g c x w) /\ bar_ok f g x w cs' (tl sl)
      | None => (c_enabled c = true -> 0 <= plain_margin f g c x w) /\ bar_ok f g x w cs' sl
      end
  end.

Lemma hd_skipn (z : vec) k : hd 0 (skipn k z) = nth k z 0.
Proof. revert z; induction k; intros [|a z]; simpl; auto. Qed.
Lemma tl_skipn (z : vec) k : tl (skipn k z) = skipn (S k) z.
Proof. revert z; induction k; intros [|a z]; simpl; auto; rewrite IHk; destruct z; auto. Qed.

Lemma bar_ok_demands {X P} dim f g (x : X) (z : vec) : forall (cs : dict (constraint X P)) j,
  ((forall d, In d (barrier_demands dim f g x j cs) -> 0 <= dm_margin d z) <->
   bar_ok f g x (firstn dim z) cs (skipn (dim + j) z)).
Proof.
  induction cs as [|[k c] cs IH]; intros j; simpl; [split; auto; intros _ d []|].
  unfold has_slack; simpl; destruct (c_slack c) eqn:Ec.
  - specialize (IH (S j)). rewrite tl_skipn, hd_skipn.
    replace (dim + S j)%nat with (S (dim + j)) in IH by lia.
    assert (E : (0 <= dm_margin (mkDemand k (if c_enabled c then barrier_margin dim f g c x j else fun _ => 0)) z)
      <-> (c_enabled c = true -> nth (dim + j) z 0 <= plain_margin f g c x (firstn dim z))).
    { simpl; unfold plain_margin. destruct (c_enabled c).
      - unfold barrier_margin, slack_value; rewrite Ec. split; intros; [lra|specialize (H eq_refl); lra].
      - split; [discriminate|lra]. }
    rewrite <- IH, <- E; split.
    + intros H; split; [apply H; auto|intros d Hd; apply H; auto].
    + intros [H1 H2] d [<-|Hd]; auto.
  - specialize (IH j).
    assert (E : (0 <= dm_margin (mkDemand k (if c_enabled c then barrier_margin dim f g c x j else fun _ => 0)) z)
      <-> (c_enabled c = true -> 0 <= plain_margin f g c x (firstn dim z))).
    { simpl; unfold plain_margin. destruct (c_enabled c).
      - unfold barrier_margin, slack_value; rewrite Ec. split; intros; [lra|specialize (H eq_refl); lra].
      - split; [discriminate|lra]. }
    rewrite <- IH, <- E; split.
    + intros H; split; [apply H; auto|intros d Hd; apply H; auto].
    + intros [H1 H2] d [<-|Hd]; auto.
Qed.

Definition dir_ok {X P} (ds : dict (direct X P)) (x : X) (w : vec) : Prop :=
  forall k d, In (k, d) ds -> d_enabled d = true ->
     d_constant d x (d_params d) <= dot (d_weight d x (d_params d)) w.

Lemma acceptable_parts {X P} b dim f g (cs : dict (constraint X P)) (ds : dict (direct X P)) x z :
  acceptable b dim f g cs ds x z <->
  within b (firstn dim z) /\ bar_ok f g x (firstn dim z) cs (skipn dim z) /\ dir_ok ds x (firstn dim z).
Proof.
  unfold acceptable, dir_ok.
  rewrite <- (Nat.add_0_r dim) at 4; rewrite <- (bar_ok_demands dim f g x z cs 0).
  rewrite barrier_demands_split; tauto.
Qed.

(** ** Slack everywhere *)

Fixpoint loose {X P} (f : X -> vec) (g : X -> mat) (x : X) (w : vec) (cs : dict (constraint X P)) : vec :=
  match cs with
  | [] => []
  | (_, c) :: cs' => match c_slack c with Some _ => plain_margin f g c x w :: loose f g x w cs' | None => loose f g x w cs' end
  end.
Lemma loose_length {X P} f g (x : X) w (cs : dict (constraint X P)) : length (loose f g x w cs) = slack_count cs.
Proof.
  unfold slack_count; induction cs as [|[k c] cs IH]; simpl; auto; unfold has_slack; simpl.
  destruct (c_slack c); simpl; auto.
Qed.
Lemma loose_ok {X P} f g (x : X) w (cs : dict (constraint X P)) :
  (forall k c, In (k, c) cs -> c_slack c <> None) -> bar_ok f g x w cs (loose f g x w cs).
Proof.
  induction cs as [|[k c] cs IH]; simpl; auto; intros H.
  destruct (c_slack c) eqn:Ec; [|exfalso; apply (H k c); auto].
  simpl; split; [intros _; lra|apply IH; eauto].
Qed.

Lemma slack_feasible {X P} b dim f g (cs : dict (constraint X P)) x :
  fits b dim -> consistent b -> (forall k c, In (k, c) cs -> c_slack c <> None) ->
  exists z, length z = (dim + slack_count cs)%nat /\ acceptable b dim f g cs [] x z.
Proof.
  intros F C H.
  assert (Lz0 : length (zeros dim) = dim) by apply zeros_length.
  destruct (clip_boxed b (zeros dim)) as (w & Ec & _); [rewrite Lz0; auto|].
  assert (Lw : length w = dim) by (rewrite (clip_length b (zeros dim) w); auto; rewrite Lz0; auto).
  exists (w ++ loose f g x w cs); rewrite app_length, loose_length, Lw; split; auto.
  apply acceptable_parts.
  rewrite firstn_app, skipn_app, Lw, Nat.sub_diag, firstn_O, app_nil_r, skipn_O.
  rewrite firstn_all2, skipn_all2 by lia; simpl.
  split; [|split; [apply loose_ok; auto|intros k d []]].
  apply (clip_within b (zeros dim) w); auto.
Qed.

(** ** Leaving out the disabled constraints *)

Definition active {X P} (cs : dict (constraint X P)) : dict (constraint X P) := filter (fun kc => c_enabled (snd kc)) cs.
Definition active_direct {X P} (ds : dict (direct X P)) : dict (direct X P) := filter (fun kd => d_enabled (snd kd)) ds.

(** Drop the slack values of the disabled constraints, or put zeros there. *)
Fixpoint erase {X P} (cs : dict (constraint X P)) (sl : vec) : vec :=
  match cs with
  | [] => []
  | (_, c) :: cs' =>
      match c_slack c with
      | Some _ => if c_enabled c then hd 0 sl :: erase cs' (tl sl) else erase cs' (tl sl)
      | None => erase cs' sl
      end
  end.
Fixpoint insert {X P} (cs : dict (constraint X P)) (sl : vec) : vec :=
  match cs with
  | [] => []
  | (_, c) :: cs' =>
      match c_slack c with
      | Some _ => if c_enabled c then hd 0 sl :: insert cs' (tl sl) else 0 :: insert cs' sl
      | None => insert cs' sl
      end
  end.
Lemma erase_length {X P} (cs : dict (constraint X P)) : forall sl, length (erase cs sl) = slack_count (active cs).
Proof.
  unfold slack_count, active; induction cs as [|[k c] cs IH]; intros sl; simpl; auto.
  destruct (c_slack c) eqn:Es, (c_enabled c); simpl; unfold has_slack at 1; simpl; rewrite ?Es; simpl; auto.
Qed.
Lemma insert_length {X P} (cs : dict (constraint X P)) : forall sl, length (insert cs sl) = slack_count cs.
Proof.
  unfold slack_count; induction cs as [|[k c] cs IH]; intros sl; simpl; auto.
  destruct (c_slack c) eqn:Es, (c_enabled c); simpl; unfold has_slack at 1; simpl; rewrite ?Es; simpl; auto.
Qed.
Lemma erase_ok {X P} f g (x : X) w (cs : dict (constraint X P)) : forall sl,
  bar_ok f g x w cs sl -> bar_ok f g x w (active cs) (erase cs sl).
Proof.
  unfold active; induction cs as [|[k c] cs IH]; intros sl; simpl; auto.
  destruct (c_slack c) eqn:Es, (c_enabled c); simpl; rewrite ?Es; simpl; intros [H1 H2]; auto.
Qed.
Lemma insert_ok {X P} f g (x : X) w (cs : dict (constraint X P)) : forall sl,
  bar_ok f g x w (active cs) sl -> bar_ok f g x w cs (insert cs sl).
Proof.
  unfold active; induction cs as [|[k c] cs IH]; intros sl; simpl; auto.
  destruct (c_slack c) eqn:Es, (c_enabled c) eqn:Ee; simpl; rewrite ?Es; simpl.
  - intros [H1 H2]; split; auto.
  - intros H; split; [discriminate|auto].
  - rewrite Ee; intros [H1 H2]; split; auto.
  - intros H; split; [discriminate|auto].
Qed.
Lemma erase_cost {X P} (cs : dict (constraint X P)) : forall sl, length sl = slack_count cs ->
  weighted_squares (map sqrt (scales (active cs))) (erase cs sl) <= weighted_squares (map sqrt (scales cs)) sl.
Proof.
  unfold slack_count, active; induction cs as [|[k c] cs IH]; intros sl; simpl; [lra|].
  unfold has_slack at 1; simpl; destruct (c_slack c) eqn:Es, (c_enabled c) eqn:Ee; simpl; rewrite ?Es; simpl; auto;
    destruct sl as [|a sl]; simpl; try discriminate; intros L; specialize (IH sl ltac:(lia)); [lra|].
  pose proof (Rle_0_sqr a); unfold Rsqr in *; pose proof (sqrt_pos r).
  pose proof (Rmult_le_pos _ _ H0 H); lra.
Qed.
Lemma insert_cost {X P} (cs : dict (constraint X P)) : forall sl, length sl = slack_count (active cs) ->
  weighted_squares (map sqrt (scales cs)) (insert cs sl) = weighted_squares (map sqrt (scales (active cs))) sl.
Proof.
  unfold slack_count, active; induction cs as [|[k c] cs IH]; intros sl; simpl; auto.
  destruct (c_slack c) eqn:Es, (c_enabled c) eqn:Ee; simpl; rewrite ?Es; simpl; auto;
    unfold has_slack at 1; simpl; rewrite ?Es; simpl; intros L.
  - destruct sl as [|a sl]; simpl in *; try discriminate; rewrite IH by lia; auto.
  - rewrite IH by auto; ring.
  - auto.
Qed.

Lemma first_part (w sl : vec) dim : length w = dim -> firstn dim (w ++ sl) = w.
Proof. intros L; rewrite firstn_app, L, Nat.sub_diag, firstn_O, app_nil_r; apply firstn_all2; lia. Qed.
Lemma second_part (w sl : vec) dim : length w = dim -> skipn dim (w ++ sl) = sl.
Proof. intros L; rewrite skipn_app, L, Nat.sub_diag, skipn_O, skipn_all2 by lia; auto. Qed.

Lemma dir_ok_active {X P} (ds : dict (direct X P)) x w : dir_ok (active_direct ds) x w <-> dir_ok ds x w.
Proof.
  unfold dir_ok, active_direct; split; intros H k d Hd He.
  - apply (H k d); auto; apply filter_In; auto.
  - apply filter_In in Hd; apply (H k d); auto; apply Hd.
Qed.

Section Drop.
  Context {X P : Type} (b : bounds) (dim : nat) (f : X -> vec) (g : X -> mat)
    (cs : dict (constraint X P)) (ds : dict (direct X P)) (x : X).

  Lemma drop_acceptable z : (dim <= length z)%nat -> acceptable b dim f g cs ds x z ->
    acceptable b dim f g (active cs) (active_direct ds) x (firstn dim z ++ erase cs (skipn dim z)).
  Proof.
    intros L; rewrite !acceptable_parts, first_part, second_part by (rewrite firstn_length; lia).
    intros (H1 & H2 & H3); split; [auto|split; [apply erase_ok; auto|apply dir_ok_active; auto]].
  Qed.
  Lemma fill_acceptable z : (dim <= length z)%nat -> acceptable b dim f g (active cs) (active_direct ds) x z ->
    acceptable b dim f g cs ds x (firstn dim z ++ insert cs (skipn dim z)).
  Proof.
    intros L; rewrite !acceptable_parts, first_part, second_part by (rewrite firstn_length; lia).
    intros (H1 & H2 & H3); split; [auto|split; [apply insert_ok; auto|apply dir_ok_active; auto]].
  Qed.
  Lemma drop_length z : (dim <= length z)%nat ->
    length (firstn dim z ++ erase cs (skipn dim z)) = (dim + slack_count (active cs))%nat.
  Proof. intros L; rewrite app_length, erase_length, firstn_length; lia. Qed.
  Lemma fill_length z : (dim <= length z)%nat ->
    length (firstn dim z ++ insert cs (skipn dim z)) = (dim + slack_count cs)%nat.
  Proof. intros L; rewrite app_length, insert_length, firstn_length; lia. Qed.
End Drop.

(** A call that returns either solved the program, or there was nothing to solve. *)
Lemma explicit_outcomes {X P} (cfg : asif_cfg X) n (s : amod X P unit) x dt u w s' :
  qp_contract (ac_solve cfg) ->
  explicit_reached cfg s -> fits (ac_bounds cfg) (ac_dim cfg) ->
  shaped n (ac_dim cfg) (ac_f cfg) (ac_g cfg) (asif_constraints s) (asif_directs s) x ->
  strengthened (asif_constraints s) -> enable s = true -> length u = ac_dim cfg ->
  explicit_asif_filter_control cfg (InArray x) dt u s = (Ok w, s') ->
  warnings s' = warnings s \/
  (warnings s' = S (warnings s) /\ ac_exc cfg = false /\ clip (ac_bounds cfg) u = Ok w /\
   intervening s' = Rltb (ac_eps cfg) 0 /\ causes s' = causes s /\
   forall y, length y = (ac_dim cfg + slack_count (asif_constraints s))%nat ->
     ~ acceptable (ac_bounds cfg) (ac_dim cfg) (ac_f cfg) (ac_g cfg) (asif_constraints s) (asif_directs s) x y).
Proof.
  intros QC Rch F Sh HA En Lu Hc.
  destruct (explicit_call cfg n s x dt u Rch F Sh HA En Lu) as (rows & consts & Enc & Nm & Hcall).
  specialize (Hcall (ac_solve cfg)); rewrite with_solver_same in Hcall; cbv zeta in Hcall.
  destruct Hcall as (C1 & C2 & C3).
  destruct (ac_solve cfg (obj_weight (ac_dim cfg) (scales (asif_constraints s)))
              (u ++ zeros (slack_count (asif_constraints s))) rows consts) as [[z iact]|e] eqn:Es.
  - left. destruct (qp_optimal _ QC _ _ _ _ _ _ Es) as (Lz & Sz & Opt & Act & KKT).
    rewrite app_length, zeros_length, Lu in Lz.
    destruct (C1 z iact eq_refl Lz) as (w1 & s1 & out & Hc1 & _ & _ & _ & _ & Hwa).
    { intros i Hi; destruct (Act i Hi) as (j & r & c & -> & Hr & _); exists j; split; auto.
      destruct (encodes_length _ _ _ _ Enc) as [L1 _].
      rewrite <- L1; apply nth_error_Some; congruence. }
    rewrite Hc in Hc1; injection Hc1 as -> ->; auto.
  - assert (Ei : e = ValueError msg_inconsistent \/ e <> ValueError msg_inconsistent).
    { destruct e; try (right; discriminate).
      destruct (string_dec msg msg_inconsistent); [left; subst; auto|right; congruence]. }
    destruct Ei as [->|Ne].
    + specialize (C2 eq_refl); destruct (ac_exc cfg).
      * destruct C2 as (s1 & Hc1 & _); rewrite Hc in Hc1; discriminate.
      * destruct C2 as (w1 & s1 & Hc1 & H1 & H2 & H3 & H4); rewrite Hc in Hc1; injection Hc1 as -> ->.
        right; split; [auto|split; [auto|split; [auto|split; [auto|split; [auto|]]]]].
        intros y Ly Hy; apply (qp_inconsistent _ QC _ _ _ _ Es y).
        -- rewrite app_length, zeros_length; congruence.
        -- apply (encodes_solves _ _ _ _ Enc y Ly), demands_acceptable; auto; lia.
    + destruct (C3 e eq_refl Ne) as (s1 & Hc1 & _); rewrite Hc in Hc1; discriminate.
Qed.

Lemma scales_active {X P} (cs : dict (constraint X P)) :
  Forall (fun p => 0 < p) (scales cs) -> Forall (fun p => 0 < p) (scales (active cs)).
Proof.
  unfold active; induction cs as [|[k c] cs IH]; simpl; auto.
  destruct (c_slack c) eqn:Es, (c_enabled c); simpl; rewrite ?Es; intros H; auto;
    inversion H; subst; auto.
Qed.

Lemma explicit_disabled {X P} (cfg : asif_cfg X) n (s s1 : amod X P unit) x dt u w t w1 t1 :
  qp_contract (ac_solve cfg) ->
  explicit_reached cfg s -> explicit_reached cfg s1 ->
  asif_constraints s1 = active (asif_constraints s) -> asif_directs s1 = active_direct (asif_directs s) ->
  fits (ac_bounds cfg) (ac_dim cfg) ->
  shaped n (ac_dim cfg) (ac_f cfg) (ac_g cfg) (asif_constraints s) (asif_directs s) x ->
  strengthened (asif_constraints s) -> Forall (fun p => 0 < p) (scales (asif_constraints s)) ->
  enable s = true -> enable s1 = true -> length u = ac_dim cfg ->
  explicit_asif_filter_control cfg (InArray x) dt u s = (Ok w, t) ->
  explicit_asif_filter_control cfg (InArray x) dt u s1 = (Ok w1, t1) ->
  w1 = w /\ intervening t1 = intervening t /\ (warnings t1 = warnings s1 <-> warnings t = warnings s).
Proof.
  intros QC R R1 Ecs Eds F Sh HA Hp En En1 Lu Hc Hc1.
  assert (Sh1 : shaped n (ac_dim cfg) (ac_f cfg) (ac_g cfg) (asif_constraints s1) (asif_directs s1) x).
  { destruct Sh as [S1 S2 S3 S4]; constructor; auto; rewrite ?Ecs, ?Eds; unfold active, active_direct.
    - intros k c H; apply filter_In in H; apply (S3 k c); apply H.
    - intros k d H; apply filter_In in H; apply (S4 k d); apply H. }
  assert (HA1 : strengthened (asif_constraints s1)).
  { rewrite Ecs; intros k c H; unfold active in H; apply filter_In in H; apply (HA k c), H. }
  pose proof (explicit_outcomes cfg n s x dt u w t QC R F Sh HA En Lu Hc) as O.
  pose proof (explicit_outcomes cfg n s1 x dt u w1 t1 QC R1 F Sh1 HA1 En1 Lu Hc1) as O1.
  set (dim := ac_dim cfg) in *.
  destruct O as [O|(Ow & _ & Oc & Oi & _ & On)], O1 as [O1|(Ow1 & _ & Oc1 & Oi1 & _ & On1)].
  - destruct (explicit_solved cfg n s x dt u w t QC R F Sh HA En Lu (or_introl O) Hc)
      as (z & iact & out & Lz & Oz & Ez & Opt & Uni & Hi & _).
    destruct (explicit_solved cfg n s1 x dt u w1 t1 QC R1 F Sh1 HA1 En1 Lu (or_introl O1) Hc1)
      as (z1 & iact1 & out1 & Lz1 & Oz1 & Ez1 & Opt1 & _ & Hi1 & _).
    fold dim in Lz, Oz, Ez, Opt, Uni, Lz1, Oz1, Ez1, Opt1.
    rewrite Ecs, Eds in Oz1. rewrite Ecs in Lz1, Opt1. rewrite Eds in Opt1.
    set (cs := asif_constraints s) in *.
    assert (Ly : length (firstn dim z1 ++ insert cs (skipn dim z1)) = (dim + slack_count cs)%nat)
      by (apply fill_length; lia).
    assert (Oy := fill_acceptable _ dim _ _ cs (asif_directs s) x z1 ltac:(lia) Oz1).
    assert (Ly1 : length (firstn dim z ++ erase cs (skipn dim z)) = (dim + slack_count (active cs))%nat)
      by (apply drop_length; lia).
    assert (Oy1 := drop_acceptable _ dim _ _ cs (asif_directs s) x z ltac:(lia) Oz).
    specialize (Opt1 _ Ly1 Oy1).
    assert (Ez' : firstn dim z1 ++ insert cs (skipn dim z1) = z).
    { apply Uni; auto.
      rewrite !objective_value in Opt1 by (rewrite ?scales_count; auto).
      rewrite !objective_value by (rewrite ?scales_count; auto).
      rewrite first_part, second_part in * by (rewrite firstn_length; lia).
      rewrite insert_cost by (rewrite skipn_length; lia).
      pose proof (erase_cost cs (skipn dim z) ltac:(rewrite skipn_length; lia)). lra. }
    assert (Ew : w1 = w).
    { rewrite Ez, Ez1, <- Ez'; symmetry; apply first_part; rewrite firstn_length; lia. }
    subst w1; split; [auto|split; [congruence|split; auto]].
  - exfalso.
    destruct (explicit_solved cfg n s x dt u w t QC R F Sh HA En Lu (or_introl O) Hc)
      as (z & iact & out & Lz & Oz & _).
    fold dim in Lz, Oz.
    apply (On1 (firstn dim z ++ erase (asif_constraints s) (skipn dim z))).
    + rewrite Ecs; apply drop_length; lia.
    + rewrite Ecs, Eds; apply drop_acceptable; [lia|auto].
  - exfalso.
    destruct (explicit_solved cfg n s1 x dt u w1 t1 QC R1 F Sh1 HA1 En1 Lu (or_introl O1) Hc1)
      as (z & iact & out & Lz & Oz & _).
    fold dim in Lz, Oz; rewrite Ecs in Lz; rewrite Ecs, Eds in Oz.
    apply (On (firstn dim z ++ insert (asif_constraints s) (skipn dim z))).
    + apply fill_length; lia.
    + apply fill_acceptable; [lia|auto].
  - split; [congruence|split; [congruence|]]. split; intros H; exfalso; lia.
Qed.

(** No active row: nothing was changed. *)
Lemma explicit_no_cause {X P} (cfg : asif_cfg X) n (s : amod X P unit) x dt u w s' :
  qp_contract (ac_solve cfg) ->
  explicit_reached cfg s -> fits (ac_bounds cfg) (ac_dim cfg) ->
  shaped n (ac_dim cfg) (ac_f cfg) (ac_g cfg) (asif_constraints s) (asif_directs s) x ->
  strengthened (asif_constraints s) -> Forall (fun p => 0 < p) (scales (asif_constraints s)) ->
  enable s = true -> length u = ac_dim cfg ->
  explicit_asif_filter_control cfg (InArray x) dt u s = (Ok w, s') ->
  warnings s' = warnings s -> causes s' = Some [] -> w = u.
Proof.
  intros QC R F Sh HA Hp En Lu Hc Hw Hn.
  destruct (explicit_solved cfg n s x dt u w s' QC R F Sh HA En Lu (or_introl Hw) Hc)
    as (z & iact & out & Lz & Oz & Ez & Opt & Uni & Hi & Hca & _ & _ & Hin & _ & KKT).
  rewrite Hn in Hca; injection Hca as <-.
  set (dim := ac_dim cfg) in *; set (cs := asif_constraints s) in *.
  specialize (KKT (u ++ zeros (slack_count cs))).
  assert (K : objective (obj_weight dim (scales cs)) (u ++ zeros (length (scales cs))) z <=
              objective (obj_weight dim (scales cs)) (u ++ zeros (length (scales cs))) (u ++ zeros (slack_count cs))).
  { apply KKT; [rewrite app_length, zeros_length; lia|].
    intros j d Hj Hd; exfalso; apply (proj2 (Hin (dm_name d))); eauto. }
  rewrite !objective_wdist in K by (rewrite ?scales_count; auto; rewrite app_length, zeros_length; lia).
  rewrite <- scales_count in K.
  assert (Z : forall w a, wdist w a a = 0).
  { clear; induction w as [|c w IH]; intros [|b a]; simpl; auto; rewrite IH; ring. }
  rewrite Z in K.
  assert (E : u ++ zeros (length (scales cs)) = z).
  { apply (wdist_zero (repeat 1 dim ++ map sqrt (scales cs))).
    - rewrite app_length, zeros_length, scales_count; lia.
    - rewrite !app_length, zeros_length, repeat_length, map_length; lia.
    - apply Forall_app; split.
      + apply Forall_forall; intros c H; apply repeat_spec in H; subst; lra.
      + apply Forall_forall; intros c H; apply in_map_iff in H; destruct H as (p & <- & H).
        apply sqrt_lt_R0; rewrite Forall_forall in Hp; auto.
    - lra. }
  rewrite Ez, <- E; apply first_part; auto.
Qed.

(** ** Small facts used by the property theorems *)

Lemma positive_scales_forall {X P} (cs : dict (constraint X P)) :
  positive_scales cs -> Forall (fun p => 0 < p) (scales cs).
Proof.
  unfold positive_scales; induction cs as [|[k c] cs IH]; simpl; intros H; [constructor|].
  assert (Hr : Forall (fun p => 0 < p) (scales cs)) by (apply IH; intros k' c' p Hin Hs; eapply H; eauto).
  destruct (c_slack c) as [p|] eqn:Es; auto. constructor; auto. eapply H; eauto.
Qed.
Lemma without_disabled_direct_active {X P} (ds : dict (direct X P)) : without_disabled_direct ds = active_direct ds.
Proof.
  unfold active_direct; induction ds as [|[k d] ds IH]; simpl; auto; rewrite IH; auto.
Qed.
Lemma slack_cost_objective dim ps u z : length u = dim -> length z = (dim + length ps)%nat ->
  objective (obj_weight dim ps) (u ++ zeros (length ps)) z = slack_cost dim (map sqrt ps) u z - / 2 * sumsq u.
Proof. intros; rewrite objective_value by auto; unfold slack_cost; lra. Qed.
