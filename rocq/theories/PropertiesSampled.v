(** Properties of optimisation modules with a solver of limited accuracy and with controls that
    are held between two calls: C72, C73. *)
From Coq Require Import String Reals List Bool ZArith Lia Lra.
From Verif Require Import Prelude Vec ModelBase ModelController ModelSimplex ModelAsif
  SpecCore SpecHistory SpecAsif SpecSampled ProofsBase ProofsVec ProofsHistory ProofsAsif ProofsAsif2 ProofsAsif3 ProofsAsif4
  ProofsSampled ExampleTools ExampleQP PropertiesAsif.
Import ListNotations.
Local Open Scope R_scope.

(** ** C72.  A solver that satisfies its rows only up to [tol]: the returned control is still
    inside the bounds, and each barrier condition and each direct inequality fails by at most
    [tol] times one plus the influence of the control on it. *)
Theorem C72_limited_accuracy :
  forall (X P : Type) tol (cfg : asif_cfg X) n (s : amod X P unit) x dt u w s',
  0 <= tol -> approximate_solver tol (ac_solve cfg) -> in_use cfg n s x u -> consistent (ac_bounds cfg) ->
  explicit_asif_filter_control cfg (InArray x) dt u s = (Ok w, s') -> warnings s' = warnings s ->
  length w = ac_dim cfg /\ within (ac_bounds cfg) w /\
  (forall k c, In (k, c) (asif_constraints s) -> c_enabled c = true -> c_slack c = None ->
     - (tol * (1 + authority cfg c x)) <= rate cfg c x w + strength c (value c x)) /\
  (forall k d, In (k, d) (asif_directs s) -> d_enabled d = true ->
     d_constant d x (d_params d) - tol * (1 + sum_abs (d_weight d x (d_params d))) <= dot (d_weight d x (d_params d)) w).
Proof.
  intros X P tol cfg n s x dt u w s' Ht AS U Cb Hc Hw.
  destruct (approximate_call tol cfg n s x dt u w s' Ht AS U Cb Hc Hw) as (z & Lz & Mz & Bx).
  destruct U as [H1 H2 H3 H4 H5 H6]. unfold explicit_demands in Mz.
  set (dim := ac_dim cfg) in *. set (b := ac_bounds cfg) in *.
  assert (Lf : length (firstn dim z) = dim) by (rewrite firstn_length; lia).
  assert (Nth : forall i y, nth_error (firstn dim z) i = Some y -> (i < dim)%nat /\ nth i z 0 = y).
  { intros i y Hy. assert (Hi : (i < dim)%nat) by (rewrite <- Lf; apply nth_error_Some; congruence).
    split; [exact Hi|]. rewrite <- (nth_firstn_lt 0 dim) by exact Hi. apply nth_error_nth. exact Hy. }
  assert (Close : forall i p q, nth_error w i = Some p -> nth_error (firstn dim z) i = Some q -> Rabs (p - q) <= tol).
  { intros i p q Hp Hq. refine (boxed_close tol b (firstn dim z) w Ht Cb Bx _ _ i q p Hp Hq).
    - intros j y l Hy Hl. destruct (Nth j y Hy) as [Hj <-].
      assert (I : In (mkDemand (control_name "_min" j) (fun z => nth j z 0 - bound_val (b_low b) j)) (low_demands (b_low b) dim)).
      { unfold low_demands. destruct (b_low b) as [bl|]; [|discriminate].
        apply in_map_iff. exists j. split; [reflexivity|apply in_seq; lia]. }
      specialize (Mz _ (in_or_app _ _ _ (or_introl I))). cbn in Mz. unfold bound_val in Mz. rewrite Hl in Mz. lra.
    - intros j y h Hy Hh. destruct (Nth j y Hy) as [Hj <-].
      assert (I : In (mkDemand (control_name "_max" j) (fun z => bound_val (b_high b) j - nth j z 0)) (high_demands (b_high b) dim)).
      { unfold high_demands. destruct (b_high b) as [bl|]; [|discriminate].
        apply in_map_iff. exists j. split; [reflexivity|apply in_seq; lia]. }
      assert (I' := in_or_app (low_demands (b_low b) dim) _ _ (or_intror (in_or_app _ (barrier_demands dim (ac_f cfg) (ac_g cfg) x 0 (asif_constraints s) ++ direct_demands dim x (asif_directs s)) _ (or_introl I)))).
      specialize (Mz _ I'). cbn in Mz. unfold bound_val in Mz. rewrite Hh in Mz. lra. }
  assert (Lw : length w = length (firstn dim z)) by apply Bx.
  split; [congruence|split; [eapply boxed_within; eauto|split]].
  - intros k c Hin He Hs. pose proof Hin as Hin'. apply in_split in Hin. destruct Hin as (pre & post & E).
    pose proof (barrier_demands_in dim (ac_f cfg) (ac_g cfg) x _ 0 pre k c post E He) as I.
    assert (M : - tol <= barrier_margin dim (ac_f cfg) (ac_g cfg) c x (0 + slack_count pre) z).
    { apply (Mz (mkDemand k (barrier_margin dim (ac_f cfg) (ac_g cfg) c x (0 + slack_count pre)))).
      rewrite !in_app_iff. auto. }
    unfold barrier_margin, slack_value in M. rewrite Hs in M.
    pose proof (sh_f _ _ _ _ _ _ _ H3) as Sf. destruct (sh_g _ _ _ _ _ _ _ H3) as [Sg Rg].
    unfold rate, authority, value.
    rewrite dot_vadd_r in M |- * by (rewrite mv_length; congruence).
    rewrite <- (vm_dot dim) in M |- * by exact Rg.
    pose proof (dot_close tol (vm dim (c_grad c x (c_params c)) (ac_g cfg x)) Ht w (firstn dim z) Lw Close) as Dc.
    fold dim. lra.
  - intros k d Hd He.
    assert (M : - tol <= dot (d_weight d x (d_params d)) (firstn dim z) - d_constant d x (d_params d)).
    { apply (Mz (mkDemand k (fun z => dot (d_weight d x (d_params d)) (firstn dim z) - d_constant d x (d_params d)))).
      rewrite !in_app_iff. right; right; right. unfold direct_demands. apply in_map_iff. exists (k, d). cbn. rewrite He. auto. }
    pose proof (dot_close tol (d_weight d x (d_params d)) Ht w (firstn dim z) Lw Close) as Dc. lra.
Qed.
Print Assumptions C72_limited_accuracy.

(** The contract assumed elsewhere is the case of no tolerance. *)
Theorem C72_exact_is_accurate : forall solve, qp_contract solve -> approximate_solver 0 solve.
Proof.
  intros solve QC G a C b z iact H. destruct (qp_optimal _ QC _ _ _ _ _ _ H) as (L & S & _ & A & _).
  split; [exact L|split].
  - clear - S. induction S as [|r c C b H S IH]; constructor; [lra|exact IH].
  - intros i Hi. destruct (A i Hi) as (j & r & c & -> & Hr & _). exists j. split; [reflexivity|].
    apply nth_error_Some. congruence.
Qed.
Print Assumptions C72_exact_is_accurate.

(** Non-vacuity: a solver that gives each row away by [tol].  In front of the wall at 1 it returns
    0.6 where 0.5 is allowed. *)
Definition generous (tol : R) (solve : qp_solver) : qp_solver :=
  fun G a C b => solve G a C (map (fun c => c - tol) b).
Lemma generous_approximate tol solve : qp_contract solve -> approximate_solver tol (generous tol solve).
Proof.
  intros QC G a C b z iact H. destruct (qp_optimal _ QC _ _ _ _ _ _ H) as (L & S & _ & A & _).
  split; [exact L|split].
  - clear - S. revert C S. induction b as [|c b IH]; intros C S; inversion S; subst; constructor; auto.
  - intros i Hi. destruct (A i Hi) as (j & r & c & -> & Hr & _). exists j. split; [reflexivity|].
    apply nth_error_Some. congruence.
Qed.
Example C72_case :
  approximate_solver (1/10) (generous (1/10) qp1) /\
  in_use (line_cfg unit_box false (generous (1/10) qp1)) 1 walled (1/2) [1] /\ consistent unit_box /\
  (exists s', line_call false (generous (1/10) qp1) walled (1/2) 1 = (Ok [6/10], s') /\ warnings s' = warnings walled) /\
  authority (line_cfg unit_box false (generous (1/10) qp1)) (wall None) (1/2) = 1 /\
  rate (line_cfg unit_box false (generous (1/10) qp1)) (wall None) (1/2) [6/10] + strength (wall None) (value (wall None) (1/2)) = - (1/10).
Proof.
  split; [apply generous_approximate, qp1_contract|split; [apply walled_in_use|split; [|split; [|split]]]].
  - intros [|i] l h; cbn; intros E1 E2; injection E1 as <-; injection E2 as <-; lra.
  - eexists; split; [|].
    + unfold line_call; eval_model. unfold generous.
      qp1_gives [[1]] [1] [[1]; [-1]; [-1]; [1]] [-11/10; -11/10; -6/10; -6/10] [6/10] [3%nat]. eval_model; reflexivity.
    + reflexivity.
  - unfold authority; cbn. unfold Rabs. repeat destruct (Rcase_abs _); lra.
  - unfold rate, strength, value; cbn. destruct (Rlt_dec _ _); lra.
Qed.

(** ** C73.  One call every [T] time units, with the returned control held in between.  If the
    strengthening term is at most [a] times the value over the range of values that occur, if
    a T <= 1 and if the rate falls by at most [L] per time unit between two calls, then the value
    never falls below minus the accuracy of the solver plus half of L T, divided by [a]. *)
Theorem C73_held_control :
  forall (X P : Type) (cfg : asif_cfg X) n k (c : constraint X P) dt T N x ud u s tol a A L top,
  0 <= tol -> approximate_solver tol (ac_solve cfg) -> consistent (ac_bounds cfg) ->
  held_between_calls cfg n k c dt T N x ud u s ->
  c_enabled c = true -> c_slack c = None ->
  0 <= T -> 0 < a -> a * T <= 1 -> 0 <= L -> rate_falls_by cfg c L T N x u ->
  (forall i, (i < N)%nat -> authority cfg c (x (INR i * T)) <= A) ->
  let allowance := (tol * (1 + A) + L * T / 2) / a in
  (forall i, (i < N)%nat -> value c (x (INR i * T)) <= top) ->
  (forall h, - allowance <= h <= top -> strength c h <= a * h) ->
  - allowance <= value c (x 0) ->
  forall t, 0 <= t <= INR N * T -> - allowance <= value c (x t).
Proof.
  intros X P cfg n k c dt T N x ud u s tol a A L top Ht AS Cb [Hcall Hcont Hmove] He Hs HT Ha HaT HL Hfall HA D Htop Hst H0.
  assert (HN : (0 < N)%nat \/ N = 0%nat) by lia. destruct HN as [HN| ->].
  2: { intros t Hb. simpl in Hb. replace t with 0 by lra. exact H0. }
  assert (HA0 : 0 <= A) by (eapply Rle_trans; [apply sum_abs_nonneg|apply (HA 0%nat HN)]).
  apply (held_recursion (fun t => value c (x t)) (fun i => rate cfg c (x (INR i * T)) (u i)) a D (tol * (1 + A)) L T N);
    auto; [apply Rmult_le_pos; lra| |].
  - intros i Hi Hk. destruct (Hcall i Hi) as (U & Hin & s' & Hc & Hw).
    destruct (C72_limited_accuracy X P tol cfg n (s i) _ dt (ud i) (u i) s' Ht AS U Cb Hc Hw) as (_ & _ & B & _).
    specialize (B k c Hin He Hs). specialize (Hst _ (conj Hk (Htop i Hi))).
    assert (tol * (1 + authority cfg c (x (INR i * T))) <= tol * (1 + A)).
    { apply Rmult_le_compat_l; [lra|]. specialize (HA i Hi). lra. }
    lra.
  - intros i r Hi Hr.
    assert (HiN : INR (S i) * T <= INR N * T) by (apply Rmult_le_compat_r; [lra|apply le_INR; lia]).
    assert (Hi0 : 0 <= INR i * T) by (apply Rmult_le_pos; [apply pos_INR|lra]).
    rewrite S_INR in HiN.
    assert (E : c_fun c (x (INR i * T)) (c_params c) + rate cfg c (x (INR i * T)) (u i) * r - L * (r * r) / 2
                <= c_fun c (x (INR i * T + r)) (c_params c)).
    { apply (held_value (fun t => c_fun c (x t) (c_params c)) (fun t => rate cfg c (x t) (u i)) (INR i * T) T L); auto.
      - intros t Hb. apply Hcont. lra.
      - intros t Hb. apply Hmove; [exact Hi|]. rewrite S_INR. lra.
      - intros t Hb. apply Hfall; [exact Hi|]. rewrite S_INR. lra. }
    unfold value. lra.
Qed.
Print Assumptions C73_held_control.

(** A constraint bias of minus the allowance absorbs it: the constraint itself stays
    non-negative. *)
Theorem C73_bias_absorbs :
  forall (X P : Type) (cfg : asif_cfg X) n k (c : constraint X P) dt T N x ud u s tol a A L top,
  0 <= tol -> approximate_solver tol (ac_solve cfg) -> consistent (ac_bounds cfg) ->
  held_between_calls cfg n k c dt T N x ud u s ->
  c_enabled c = true -> c_slack c = None ->
  0 <= T -> 0 < a -> a * T <= 1 -> 0 <= L -> rate_falls_by cfg c L T N x u ->
  (forall i, (i < N)%nat -> authority cfg c (x (INR i * T)) <= A) ->
  let allowance := (tol * (1 + A) + L * T / 2) / a in
  (forall i, (i < N)%nat -> value c (x (INR i * T)) <= top) ->
  (forall h, - allowance <= h <= top -> strength c h <= a * h) ->
  c_bias c = - allowance ->
  0 <= c_fun c (x 0) (c_params c) ->
  forall t, 0 <= t <= INR N * T -> 0 <= c_fun c (x t) (c_params c).
Proof.
  intros X P cfg n k c dt T N x ud u s tol a A L top Ht AS Cb Hh He Hs HT Ha HaT HL Hfall HA D Htop Hst Hb H0 t Ht'.
  assert (K : - D <= value c (x t)).
  { eapply (C73_held_control X P cfg n k c dt T N x ud u s tol a A L top); eauto.
    fold D. unfold value. rewrite Hb. lra. }
  unfold value in K. rewrite Hb in K. lra.
Qed.
Print Assumptions C73_bias_absorbs.

(** With an exact solver and a rate that does not fall between two calls nothing is lost. *)
Theorem C73_exact_when_rate_keeps :
  forall (X P : Type) (cfg : asif_cfg X) n k (c : constraint X P) dt T N x ud u s a A top,
  qp_contract (ac_solve cfg) -> consistent (ac_bounds cfg) ->
  held_between_calls cfg n k c dt T N x ud u s ->
  c_enabled c = true -> c_slack c = None ->
  0 <= T -> 0 < a -> a * T <= 1 -> rate_falls_by cfg c 0 T N x u ->
  (forall i, (i < N)%nat -> authority cfg c (x (INR i * T)) <= A) ->
  (forall i, (i < N)%nat -> value c (x (INR i * T)) <= top) ->
  (forall h, 0 <= h <= top -> strength c h <= a * h) ->
  0 <= value c (x 0) ->
  forall t, 0 <= t <= INR N * T -> 0 <= value c (x t).
Proof.
  intros X P cfg n k c dt T N x ud u s a A top QC Cb Hh He Hs HT Ha HaT Hfall HA Htop Hst H0 t Ht'.
  assert (Z : - ((0 * (1 + A) + 0 * T / 2) / a) = 0) by (field; lra).
  rewrite <- Z. eapply (C73_held_control X P cfg n k c dt T N x ud u s 0 a A 0 top); eauto; try lra.
  - apply C72_exact_is_accurate, QC.
  - rewrite Z. exact Hst.
Qed.
Print Assumptions C73_exact_when_rate_keeps.

(** Non-vacuity: the wall at 1, approached from 1/2 with a desired speed of 1.  The module
    returns 1/2, which is held for a period T. *)
Definition approach (t : R) : R := 1/2 + t / 2.
Lemma approach_held T : 0 <= T ->
  held_between_calls (line_cfg unit_box false qp1) 1 "wall" (wall None) 1 T 1 approach
    (fun _ => [1]) (fun _ => [1/2]) (fun _ => walled).
Proof.
  intros HT. assert (D : forall t, derivable_pt_lim (fun r => 1 - approach r) t (- (1/2))).
  { intros t. unfold approach. replace (- (1/2)) with (0 - (0 + 1 * /2)) by lra.
    apply (derivable_pt_lim_minus (fun _ => 1) (fun r => 1/2 + r / 2)); [apply derivable_pt_lim_const|].
    apply (derivable_pt_lim_plus (fun _ => 1/2) (fun r => r / 2)); [apply derivable_pt_lim_const|].
    unfold Rdiv. replace (1 * / 2) with (1 * / 2 + t * 0) by ring.
    apply (derivable_pt_lim_mult (fun r => r) (fun _ => / 2)); [apply derivable_pt_lim_id|apply derivable_pt_lim_const]. }
  constructor.
  - intros i Hi. replace i with 0%nat by lia. split; [apply walled_in_use|split; [left; reflexivity|]].
    destruct (walled_call false) as (s' & H & _ & _ & Hw). exists s'. split; [|exact Hw].
    replace (approach (INR 0 * T)) with (1/2); [exact H|]. simpl INR. unfold approach. lra.
  - intros t _. cbn. apply derivable_continuous_pt. exists (- (1/2)). apply D.
  - intros i t _ _. replace (rate (line_cfg unit_box false qp1) (wall None) (approach t) [1/2]) with (- (1/2)); [apply D|].
    unfold rate; cbn. lra.
Qed.
Lemma approach_rate T : rate_falls_by (line_cfg unit_box false qp1) (wall None) 0 T 1 approach (fun _ => [1/2]).
Proof. intros i t _ _. unfold rate; cbn. lra. Qed.
Example C73_case :
  qp_contract qp1 /\ consistent unit_box /\
  held_between_calls (line_cfg unit_box false qp1) 1 "wall" (wall None) 1 (1/2) 1 approach
    (fun _ => [1]) (fun _ => [1/2]) (fun _ => walled) /\
  rate_falls_by (line_cfg unit_box false qp1) (wall None) 0 (1/2) 1 approach (fun _ => [1/2]) /\
  (forall x, authority (line_cfg unit_box false qp1) (wall None) x <= 1) /\
  (forall h, strength (wall None) h <= 1 * h) /\
  value (wall None) (approach 0) = 1/2 /\ value (wall None) (approach (1/2)) = 1/4.
Proof.
  split; [apply qp1_contract|split; [|split; [apply approach_held; lra|split; [apply approach_rate|split; [|split; [|split]]]]]].
  - intros [|i] l h; cbn; intros E1 E2; injection E1 as <-; injection E2 as <-; lra.
  - intros x. unfold authority; cbn. unfold Rabs. repeat destruct (Rcase_abs _); lra.
  - intros h. unfold strength; cbn. destruct (Rlt_dec h 0); lra.
  - unfold value, approach; cbn; lra.
  - unfold value, approach; cbn; lra.
Qed.

(** The condition a T <= 1 is needed: with a period of 2 the same module drives through the wall,
    although every call returns without a warning and the barrier condition holds at every call. *)
Theorem C73_long_period_refuted :
  exists (cfg : asif_cfg R) n k (c : constraint R unit) dt T N x ud u s a A top,
  qp_contract (ac_solve cfg) /\ consistent (ac_bounds cfg) /\
  held_between_calls cfg n k c dt T N x ud u s /\
  c_enabled c = true /\ c_slack c = None /\
  0 <= T /\ 0 < a /\ rate_falls_by cfg c 0 T N x u /\
  (forall i, (i < N)%nat -> authority cfg c (x (INR i * T)) <= A) /\
  (forall i, (i < N)%nat -> value c (x (INR i * T)) <= top) /\
  (forall h, strength c h <= a * h) /\
  0 < value c (x 0) /\ exists t, 0 <= t <= INR N * T /\ value c (x t) < 0.
Proof.
  destruct C73_case as (Q & Cb & _ & _ & A1 & St & V0 & _).
  exists (line_cfg unit_box false qp1), 1%nat, "wall"%string, (wall None), 1, 2, 1%nat, approach,
    (fun _ => [1]), (fun _ => [1/2]), (fun _ => walled), 1, 1, 1.
  split; [exact Q|split; [exact Cb|split; [apply approach_held; lra|split; [reflexivity|split; [reflexivity|]]]]].
  split; [lra|split; [lra|split; [apply approach_rate|split; [intros i _; apply A1|split; [|split; [exact St|split]]]]]].
  - intros i Hi. replace i with 0%nat by lia. simpl INR. rewrite Rmult_0_l, V0. lra.
  - rewrite V0. lra.
  - exists 2. simpl INR. split; [lra|]. unfold value, approach; cbn. lra.
Qed.
Print Assumptions C73_long_period_refuted.
