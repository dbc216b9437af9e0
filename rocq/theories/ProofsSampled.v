(** Proofs about solvers of limited accuracy and controls held between two calls. *)
From Coq Require Import String Reals List Bool ZArith Lia Lra.
From Coquelicot Require Import Coquelicot.
From Verif Require Import Prelude Vec ModelBase ModelController ModelSimplex ModelAsif
  SpecCore SpecHistory SpecAsif SpecSampled ProofsBase ProofsVec ProofsHistory ProofsAsif ProofsAsif2 ProofsAsif3 ProofsAsif4.
Import ListNotations.
Local Open Scope R_scope.

Lemma sum_abs_nonneg v : 0 <= sum_abs v.
Proof. induction v as [|a v IH]; simpl; [lra|]. pose proof (Rabs_pos a). lra. Qed.

Lemma dot_close tol v : 0 <= tol -> forall w z, length w = length z ->
  (forall i a b, nth_error w i = Some a -> nth_error z i = Some b -> Rabs (a - b) <= tol) ->
  dot v z - tol * sum_abs v <= dot v w.
Proof.
  intros Ht. induction v as [|a v IH]; intros w z L H; [destruct w, z; simpl; lra|].
  destruct w as [|p w], z as [|q z]; simpl in *; try discriminate.
  - pose proof (Rabs_pos a); pose proof (sum_abs_nonneg v). nra.
  - specialize (IH w z ltac:(lia) (fun i => H (S i))). pose proof (H O p q eq_refl eq_refl) as H0.
    assert (B : a * (q - p) <= Rabs a * tol).
    { eapply Rle_trans; [apply Rle_abs|]. rewrite Rabs_mult, Rabs_minus_sym.
      apply Rmult_le_compat_l; [apply Rabs_pos|exact H0]. }
    nra.
Qed.

Lemma encodes_within tol n rows consts ds : encodes n rows consts ds -> forall z, length z = n ->
  Forall2 (fun r c => c - tol <= dot r z) rows consts -> forall d, In d ds -> - tol <= dm_margin d z.
Proof.
  induction 1 as [|r c d rows consts ds L E H IH]; intros z Lz S d' Hd; [destruct Hd|].
  inversion S; subst. destruct Hd as [<-|Hd]; [specialize (E z Lz); lra|]. eapply IH; eauto.
Qed.

(** Cutting a control that is out of bounds by at most [tol] moves each entry by at most [tol]. *)
Lemma boxed_close tol b u w : 0 <= tol -> consistent b -> boxed b u w ->
  (forall i x l, nth_error u i = Some x -> bound_at (b_low b) i = Some l -> l - tol <= x) ->
  (forall i x h, nth_error u i = Some x -> bound_at (b_high b) i = Some h -> x <= h + tol) ->
  forall i x y, nth_error w i = Some y -> nth_error u i = Some x -> Rabs (y - x) <= tol.
Proof.
  intros Ht C [_ B] Hl Hh i x y Hy Hx. specialize (B i x y Hx Hy). subst y.
  specialize (Hl i x); specialize (Hh i x). specialize (C i).
  destruct (bound_at (b_low b) i) as [l|], (bound_at (b_high b) i) as [h|];
    try specialize (Hl _ Hx eq_refl); try specialize (Hh _ Hx eq_refl); try specialize (C _ _ eq_refl eq_refl);
    cbv zeta; unfold Rmax, Rmin; repeat destruct (Rle_dec _ _); apply Rabs_le; lra.
Qed.

Lemma boxed_within b u w : consistent b -> boxed b u w -> within b w.
Proof.
  intros C [L B]. split.
  - intros i y l Hy Hb. assert (exists x, nth_error u i = Some x) as [x Hx].
    { destruct (nth_error u i) eqn:E; eauto. apply nth_error_None in E.
      assert (nth_error w i <> None) by congruence. apply nth_error_Some in H. lia. }
    specialize (B i x y Hx Hy). rewrite Hb in B. specialize (C i). rewrite Hb in C. subst y.
    destruct (bound_at (b_high b) i) as [h|]; cbv zeta; [specialize (C _ _ eq_refl eq_refl)|];
      unfold Rmax, Rmin; repeat destruct (Rle_dec _ _); lra.
  - intros i y h Hy Hb. assert (exists x, nth_error u i = Some x) as [x Hx].
    { destruct (nth_error u i) eqn:E; eauto. apply nth_error_None in E.
      assert (nth_error w i <> None) by congruence. apply nth_error_Some in H. lia. }
    specialize (B i x y Hx Hy). rewrite Hb in B. subst y. cbv zeta. apply Rmin_r.
Qed.

Lemma barrier_demands_in {X P} dim f g (x : X) (cs : dict (constraint X P)) : forall j pre k c post,
  cs = pre ++ (k, c) :: post -> c_enabled c = true ->
  In (mkDemand k (barrier_margin dim f g c x (j + slack_count pre))) (barrier_demands dim f g x j cs).
Proof.
  induction cs as [|[k0 c0] cs IH]; intros j pre k c post E En; [destruct pre; discriminate|].
  destruct pre as [|kc pre]; simpl in E; injection E as E1 E2; subst.
  - left. rewrite En. unfold slack_count; simpl. rewrite Nat.add_0_r. reflexivity.
  - right. set (j' := if has_slack (k0, c0) then S j else j).
    replace (j + slack_count ((k0, c0) :: pre))%nat with (j' + slack_count pre)%nat.
    + eapply IH; eauto.
    + unfold slack_count, j'; simpl; destruct (has_slack (k0, c0)); simpl; lia.
Qed.

(** What a call returns when the solver is accurate up to [tol]. *)
Lemma approximate_call {X P} tol (cfg : asif_cfg X) n (s : amod X P unit) x dt u w s' :
  0 <= tol -> approximate_solver tol (ac_solve cfg) -> in_use cfg n s x u -> consistent (ac_bounds cfg) ->
  explicit_asif_filter_control cfg (InArray x) dt u s = (Ok w, s') -> warnings s' = warnings s ->
  exists z, length z = (ac_dim cfg + slack_count (asif_constraints s))%nat /\
    (forall d, In d (explicit_demands (ac_bounds cfg) (ac_dim cfg) (ac_f cfg) (ac_g cfg)
                       (asif_constraints s) (asif_directs s) x) -> - tol <= dm_margin d z) /\
    boxed (ac_bounds cfg) (firstn (ac_dim cfg) z) w.
Proof.
  intros Ht AS [H1 H2 H3 H4 H5 H6] Cb Hc Hw.
  destruct (explicit_call cfg n s x dt u H1 H2 H3 H4 H5 H6) as (rows & consts & Enc & _ & Call).
  specialize (Call (ac_solve cfg)). rewrite with_solver_same in Call. cbv zeta in Call.
  rewrite Hc in Call. destruct Call as (C1 & C2 & C3).
  match type of C1 with context [ac_solve cfg ?G ?a rows consts = _] =>
    destruct (ac_solve cfg G a rows consts) as [[z iact]|e] eqn:Q end.
  - destruct (AS _ _ _ _ _ _ Q) as (Lz & Fz & Iz).
    assert (Lz' : length z = (ac_dim cfg + slack_count (asif_constraints s))%nat).
    { rewrite Lz, app_length, zeros_length. congruence. }
    destruct (C1 z iact eq_refl Lz') as (w' & s'' & out & E & Cl & _).
    { intros i Hi. destruct (Iz i Hi) as (j & -> & Hj). exists j. split; auto.
      destruct (encodes_length _ _ _ _ Enc) as [<- _]. exact Hj. }
    injection E as <- <-. exists z. split; [exact Lz'|split].
    + eapply encodes_within; eauto.
    + apply clip_iff_boxed in Cl; auto. rewrite firstn_length. replace (Nat.min _ _) with (ac_dim cfg) by lia. exact H2.
  - exfalso. assert (D : e = ValueError msg_inconsistent \/ e <> ValueError msg_inconsistent).
    { destruct e as [m| | | | | | | | |]; try (right; discriminate).
      destruct (string_dec m msg_inconsistent) as [->|N]; [left|right; congruence]; reflexivity. }
    destruct D as [->|N].
    + specialize (C2 eq_refl). destruct (ac_exc cfg).
      * destruct C2 as (s1 & E & _). discriminate.
      * destruct C2 as (w1 & s1 & E & _ & _ & _ & W). injection E as <- <-. lia.
    + destruct (C3 e eq_refl N) as (s1 & E & _). discriminate.
Qed.

(** ** Motion between two calls *)

(** A rate that falls by at most [L] per time unit: the value after [r] time units. *)
Lemma held_value (h v : R -> R) t0 T L : 0 <= T ->
  (forall t, t0 <= t <= t0 + T -> continuity_pt h t) ->
  (forall t, t0 < t < t0 + T -> derivable_pt_lim h t (v t)) ->
  (forall t, t0 <= t <= t0 + T -> v t0 - L * (t - t0) <= v t) ->
  forall r, 0 <= r <= T -> h t0 + v t0 * r - L * (r * r) / 2 <= h (t0 + r).
Proof.
  intros HT C D V r Hr.
  set (q := fun t => h t - v t0 * (t - t0) + L * ((t - t0) * (t - t0)) / 2).
  destruct (Req_dec r 0) as [->|Hr0]; [rewrite Rplus_0_r; lra|].
  assert (M : exists c, t0 <= c <= t0 + r /\ q (t0 + r) - q t0 = (v c - v t0 + L * (c - t0)) * (t0 + r - t0)).
  { destruct (MVT_gen q t0 (t0 + r) (fun t => v t - v t0 + L * (t - t0))) as (c & Hc & E).
    - rewrite Rmin_left, Rmax_right by lra. intros t Ht. apply is_derive_Reals. unfold q.
      replace (v t - v t0 + L * (t - t0)) with ((v t - v t0 * (1 - 0)) + L * (2 * (t - t0)) / 2) by lra.
      apply derivable_pt_lim_plus; [apply derivable_pt_lim_minus|].
      + apply D; lra.
      + apply (derivable_pt_lim_scal (fun t => t - t0) (v t0)).
        apply (derivable_pt_lim_minus (fun t => t) (fun _ => t0)); [apply derivable_pt_lim_id|apply derivable_pt_lim_const].
      + apply is_derive_Reals. auto_derive; auto. field.
    - rewrite Rmin_left, Rmax_right by lra. intros t Ht. unfold q.
      apply (continuity_pt_plus (fun t => h t - v t0 * (t - t0)) (fun t => L * ((t - t0) * (t - t0)) / 2)).
      + apply (continuity_pt_minus h (fun t => v t0 * (t - t0))); [apply C; lra|].
        apply derivable_continuous_pt. exists (v t0). apply is_derive_Reals. auto_derive; auto. ring.
      + apply derivable_continuous_pt. exists (L * (2 * (t - t0)) / 2). apply is_derive_Reals. auto_derive; auto. field.
    - rewrite Rmin_left, Rmax_right in Hc by lra. exists c. split; [exact Hc|exact E]. }
  destruct M as (c & Hc & E). specialize (V c ltac:(lra)).
  assert (0 <= q (t0 + r) - q t0) by (rewrite E; apply Rmult_le_pos; lra).
  unfold q in H. replace (t0 + r - t0) with r in H by ring. replace (t0 - t0) with 0 in H by ring. lra.
Qed.

(** The recursion over the calls. *)
Lemma held_recursion (h : R -> R) (v : nat -> R) a D E L T N :
  0 < a -> 0 <= T -> a * T <= 1 -> 0 <= L -> 0 <= E -> D = (E + L * T / 2) / a ->
  (forall i, (i < N)%nat -> - D <= h (INR i * T) -> - E - a * h (INR i * T) <= v i) ->
  (forall i r, (i < N)%nat -> 0 <= r <= T -> h (INR i * T) + v i * r - L * (r * r) / 2 <= h (INR i * T + r)) ->
  - D <= h 0 -> forall t, 0 <= t <= INR N * T -> - D <= h t.
Proof.
  intros Ha HT HaT HL HE HD Hv Hh H0.
  assert (Step : forall i, (i < N)%nat -> - D <= h (INR i * T) -> forall r, 0 <= r <= T -> - D <= h (INR i * T + r)).
  { intros i Hi Hk r Hr. specialize (Hv i Hi Hk). specialize (Hh i r Hi Hr).
    assert (aD : a * D = E + L * T / 2) by (subst D; field; lra).
    set (hk := h (INR i * T)) in *.
    assert (P1 : (- E - a * hk) * r <= v i * r) by (apply Rmult_le_compat_r; lra).
    assert (P2 : a * r <= 1) by (eapply Rle_trans; [apply Rmult_le_compat_l; [lra|apply Hr]|exact HaT]).
    assert (P3 : 0 <= (hk + D) * (1 - a * r)) by (apply Rmult_le_pos; lra).
    assert (P4 : 0 <= L * (r * (T - r))) by (apply Rmult_le_pos; [lra|apply Rmult_le_pos; lra]).
    assert (P5 : r * (a * D) = r * (E + L * T / 2)) by (rewrite aD; reflexivity).
    lra. }
  assert (At : forall i, (i <= N)%nat -> - D <= h (INR i * T)).
  { induction i as [|i IH]; intros Hi; [simpl; rewrite Rmult_0_l; exact H0|].
    rewrite S_INR, Rmult_plus_distr_r, Rmult_1_l. apply Step; [lia|apply IH; lia|lra]. }
  intros t Ht. revert Ht. induction N as [|m IH]; intros Ht.
  - simpl in Ht. replace t with 0 by lra. exact H0.
  - destruct (Rle_lt_dec t (INR m * T)) as [Le|Lt].
    + apply IH; intros; auto; try lra.
    + replace t with (INR m * T + (t - INR m * T)) by ring. rewrite S_INR in Ht. apply Step; [lia|apply At; lia|lra].
Qed.
