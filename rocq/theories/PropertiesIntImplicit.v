(** C95.  The implicit optimisation module of the integrator can meet its own condition. *)
From Coq Require Import String Reals List Bool ZArith Lia Lra Permutation.
From Verif Require Import Prelude Vec ModelBase ModelController ModelSimplex ModelAsif ModelConstraint ModelIntegrator ModelIntImplicit.
From Verif Require ProofsVec ProofsImplicit3.
From Verif Require Import SpecCore SpecConstraint SpecAsif SpecImplicit SpecIntImplicit ProofsBase ProofsConstraint ProofsSimplex ProofsAsif ProofsAsif2 ProofsAsif4 ProofsImplicit ProofsImplicit2 ProofsImplicit4
  PropertiesAsif PropertiesImplicit PropertiesIntegrator PropertiesSolver.
Import ListNotations.
Local Open Scope R_scope.

Lemma int_path m win dt cs p v a rest : 0 < m ->
  sensitivity_path int_bounds (int_implicit_ic true m win) 2 dt cs [p; v] [[1; a]; [0; 1]] rest ->
  forall j, (j <= length rest)%nat ->
  nth j (([p; v], [[1; a]; [0; 1]]) :: rest) ([p; v], []) =
  ([fst (braked m dt j (p, v)); snd (braked m dt j (p, v))], [[1; a + INR j * dt]; [0; 1]]).
Proof.
  intros Hm H.
  assert (G : forall x S, x = [p; v] -> S = [[1; a]; [0; 1]] -> sensitivity_path int_bounds (int_implicit_ic true m win) 2 dt cs x S rest ->
    forall j d, (j <= length rest)%nat -> nth j ((x, S) :: rest) d =
      ([fst (braked m dt j (p, v)); snd (braked m dt j (p, v))], [[1; a + INR j * dt]; [0; 1]])).
  2: { intros j Hj. apply G; auto. }
  clear H. revert cs p v a. induction rest as [|r rest IH]; intros cs p v a x S0 -> -> H j d Hj.
  - destruct j; [|cbn in Hj; lia]. cbn. f_equal. replace (a + 0 * dt) with a by ring. reflexivity.
  - inversion H as [|cs1 x1 S1 w cs' u x' rest' Eg Ec Ep S' Pth E1 E2 E3 E4]; subst.
    destruct j as [|j].
    { cbn. f_equal. replace (a + 0 * dt) with a by ring. reflexivity. }
    cbn in Eg. injection Eg as <- <-.
    assert (u = [-1]).
    { cbn in Ec. injection Ec as <-. f_equal. rewrite Rmax_left by lra. apply Rmin_left. lra. }
    subst u. cbn in Ep. injection Ep as <-.
    cbn [length] in Hj.
    assert (X1 : [p + dt * (0 * p + (1 * v + 0) + (0 * -1 + 0)); v + dt * (0 * p + (0 * v + 0) + (1 / m * -1 + 0))] = [p + dt * v; v - dt / m]).
    { repeat apply (f_equal2 (@Datatypes.cons R)); try reflexivity; field; lra. }
    assert (X2 : S' = [[1; a + dt]; [0; 1]]).
    { unfold S'. cbn. repeat apply (f_equal2 (@Datatypes.cons vec)); try reflexivity;
        repeat apply (f_equal2 (@Datatypes.cons R)); try reflexivity; ring. }
    etransitivity; [exact (IH CSNone (p + dt * v) (v - dt / m) (a + dt) _ _ X1 X2 Pth j d ltac:(lia))|].
    cbn [braked fst snd]. f_equal. rewrite S_INR. repeat apply (f_equal2 (@Datatypes.cons vec)); try reflexivity.
    repeat apply (f_equal2 (@Datatypes.cons R)); try reflexivity; ring.
Qed.

(** The condition at one predicted point. *)
Lemma int_margin m eps exc solve p v u q r a :
  let cfg := int_optimization m eps exc solve in
  let c := int_implicit None (mkKw None 0 (- (1 / 100)) None true (mkSub (-1) 1 (Some 1%Z) false false)) in
  point_margin (ac_f cfg) (ac_g cfg) c [p; v] ([q; r], [[1; a]; [0; 1]]) [u]
  = - (v + a * (u / m)) + (10 * (- q) + 30 * ((- q) * (- q) * (- q))) /\
  point_value c ([q; r], [[1; a]; [0; 1]]) = - q.
Proof.
  intros cfg c. assert (V : point_value c ([q; r], [[1; a]; [0; 1]]) = - q) by (cbv -[Rplus Rmult Ropp IZR]; ring).
  split; [|exact V]. unfold point_margin. rewrite V. cbn [fst snd].
  assert (G : c_grad c [q; r] (c_params c) = [-1; 0]).
  { change (jax_grad (fun x => - jax_get 0 x 0%Z) [q; r] = [-1; 0]). apply jax_grad_unique. split; [reflexivity|].
    intros i Hi. destruct i as [|[|i]]; [| |cbn in Hi; lia].
    - change (derivable_pt_lim (fun t => - t) q (-1)). exact (derivable_pt_lim_opp id q 1 (derivable_pt_lim_id q)).
    - change (derivable_pt_lim (fun _ => - q) r 0). apply derivable_pt_lim_const. }
  rewrite G. change (c_alpha c) with (Some (polynomial (Some [0; 10; 0; 30]))). unfold polynomial. cbn [poly_loop]. cbn. unfold Rdiv. ring.
Qed.

(** The one point that is used: a foremost one. *)
Lemma int_pick m win dt cs p v traj jss : 0 < m ->
  lookahead int_bounds (int_implicit_ic true m win) dt cs [p; v] traj -> all_picks int_implicit_constraints traj [p; v] jss ->
  exists n j, window_steps win dt n /\ jss = [[j]] /\ (j <= n)%nat /\
    (forall i, (i <= n)%nat -> fst (braked m dt i (p, v)) <= fst (braked m dt j (p, v))) /\
    point traj [p; v] j = ([fst (braked m dt j (p, v)); snd (braked m dt j (p, v))], [[1; INR j * dt]; [0; 1]]).
Proof.
  intros Hm (n & rest & W & L & Pth & ->) Pk. exists n.
  assert (T : forall j, (j <= n)%nat -> point (([p; v], eye (ic_size (int_implicit_ic true m win) [p; v])) :: rest) [p; v] j =
     ([fst (braked m dt j (p, v)); snd (braked m dt j (p, v))], [[1; INR j * dt]; [0; 1]])).
  { intros j Hj. unfold point.
    assert (E : eye (ic_size (int_implicit_ic true m win) [p; v]) = [[1; 0]; [0; 1]]) by reflexivity.
    rewrite E in *. pose proof (int_path m win dt cs p v 0 rest Hm Pth j ltac:(lia)) as Q.
    etransitivity; [exact Q|]. rewrite Rplus_0_l. reflexivity. }
  set (traj := _ :: rest) in *.
  assert (Lt : length traj = S n) by (unfold traj; cbn; lia).
  unfold all_picks, int_implicit_constraints in Pk. inversion Pk as [|kc js l1 l2 Pj Pr E1 E2]; subst.
  inversion Pr; subst. cbn [snd] in Pj.
  destruct Pj as (base & kept & dropped & Nd & Hb & Pm & Le & Ln & ->).
  set (c := int_implicit None _) in *.
  assert (B : forall q, In q base <-> (q <= length rest)%nat).
  { intros q. rewrite Hb, Lt. unfold checked. change (num_check_all (c_sub c)) with (-1)%Z. change (skip_length (c_sub c)) with 1%Z. split.
    - intros [H|(H & _)]; lia.
    - intros H. right. split; [lia|]. exists q. lia. }
  change (num_least (c_sub c)) with (Some 1%Z) in Ln. cbv beta iota in Ln.
  change (keep_first (c_sub c)) with false. change (keep_last (c_sub c)) with false. cbv iota. rewrite !app_nil_r.
  assert (B0 : In 0%nat base) by (apply B; lia).
  assert (L1 : length kept = 1%nat).
  { rewrite Ln. destruct base as [|b0 base]; [destruct B0|]. cbn. lia. }
  destruct kept as [|j [|? ?]]; try discriminate L1. exists j.
  assert (J : (j <= length rest)%nat).
  { apply B. apply (Permutation_in j (Permutation_sym Pm)). left; reflexivity. }
  split; [exact W|]. split; [reflexivity|]. split; [exact J|]. split; [|apply T; exact J].
  intros i Hi. assert (I : In i ([j] ++ dropped)) by (apply (Permutation_in i Pm), B, Hi).
  destruct I as [<-|I]; [apply Rle_refl|].
  specialize (Le j i (or_introl eq_refl) I). cbv beta in Le.
  destruct (int_margin m 0 true (fun _ _ _ _ => Err SolverError) p v 0 (fst (braked m dt j (p, v))) (snd (braked m dt j (p, v))) (INR j * dt)) as [_ V1].
  destruct (int_margin m 0 true (fun _ _ _ _ => Err SolverError) p v 0 (fst (braked m dt i (p, v))) (snd (braked m dt i (p, v))) (INR i * dt)) as [_ V2].
  assert (Q : - fst (braked m dt j (p, v)) <= - fst (braked m dt i (p, v))); [|lra].
  apply Rle_trans with (point_value c (point traj [p; v] j)); [right; symmetry; exact (eq_trans (f_equal (point_value c) (T j J)) V1)|].
  apply Rle_trans with (point_value c (point traj [p; v] i)); [exact Le|right; exact (eq_trans (f_equal (point_value c) (T i Hi)) V2)].
Qed.

(** ** C95.  Full statement: in every state from which none of the points the module predicts is
    past zero, some admissible control meets the module's condition.  What holds: if in addition
    the last predicted point is at rest or moving away, full braking is such a control; the call
    does not fail and does not warn. *)
Lemma int_foremost m dt n p v j : 0 < m -> 0 < dt -> predicted_stop m dt n p v -> (j <= n)%nat ->
  (forall i, (i <= n)%nat -> fst (braked m dt i (p, v)) <= fst (braked m dt j (p, v))) ->
  v - INR j * dt / m <= 0.
Proof.
  intros Hm Hd Hs Hj Hf.
  assert (Vel : forall i q w, snd (braked m dt i (q, w)) = w - INR i * dt / m).
  { induction i as [|i IH]; intros q w; [cbn; field; lra|]. cbn [braked fst snd]. rewrite IH, S_INR. field. lra. }
  assert (Nxt : forall i q w, fst (braked m dt (S i) (q, w)) = fst (braked m dt i (q, w)) + dt * snd (braked m dt i (q, w))).
  { induction i as [|i IH]; intros q w; [reflexivity|]. change (fst (braked m dt (S i) (q + dt * w, w - dt / m)) =
      fst (braked m dt i (q + dt * w, w - dt / m)) + dt * snd (braked m dt i (q + dt * w, w - dt / m))). apply IH. }
  unfold predicted_stop in Hs. rewrite Vel in Hs.
  destruct (Nat.eq_dec j n) as [->|Nj]; [exact Hs|].
  specialize (Hf (S j) ltac:(lia)). rewrite Nxt, Vel in Hf.
  destruct (Rle_lt_dec (v - INR j * dt / m) 0) as [|P]; [assumption|].
  assert (0 < dt * (v - INR j * dt / m)) by (apply Rmult_lt_0_compat; auto). lra.
Qed.
Lemma no_solver_error {X P} (cfg : asif_cfg X) ic n (s : amod X P ctl) x dt u traj y :
  qp_contract (ac_solve cfg) -> (forall G a C b, ac_solve cfg G a C b <> Err SolverError) ->
  imp_in_use cfg ic n s x dt u traj ->
  (forall jss, all_picks (asif_constraints s) traj x jss -> imp_ok cfg s x traj jss y) ->
  fst (implicit_asif_filter_control cfg ic (InArray x) dt u s) <> Err SolverError.
Proof.
  intros QC NS U A. destruct (implicit_call cfg ic n s x dt u traj U) as (rows & consts & Pk & Jn & Enc & SO & Hcall).
  specialize (Hcall (ac_solve cfg)); rewrite with_solver_same in Hcall; cbv zeta in Hcall.
  destruct Hcall as (C1 & C1' & C2 & C3 & _). pose proof (ii_length _ _ _ _ _ _ _ _ U) as Lu.
  destruct (A _ Pk) as [Ly Oy].
  destruct (ac_solve cfg (obj_weight (ac_dim cfg) []) u rows consts) as [[z iact]|e] eqn:Es.
  - destruct (qp_optimal _ QC _ _ _ _ _ _ Es) as (Lz & _ & _ & Act & _).
    assert (Pos : forall i, In i iact -> exists j, i = S j) by (intros i I; destruct (Act i I) as (j & _ & _ & E & _); eauto).
    set (k := length _) in C1. 
    destruct (Forall_Exists_dec (fun i => (i <= k)%nat) (fun i => le_dec i k) iact) as [Fa|Ex].
    + rewrite Forall_forall in Fa. destruct (C1 z iact eq_refl ltac:(congruence)) as (w & s' & out & E & _); [|rewrite E; discriminate].
      intros i I. destruct (Pos i I) as (j & ->). exists j. specialize (Fa _ I). split; [auto|]. unfold k in Fa. lia.
    + apply Exists_exists in Ex. destruct Ex as (i & I & N).
      destruct (C1' z iact i eq_refl Pos I) as (s' & E); [unfold k in N; lia|]. rewrite E. discriminate.
  - assert (Ei : e = ValueError msg_inconsistent \/ e <> ValueError msg_inconsistent).
    { destruct e; try (right; discriminate).
      destruct (string_dec msg msg_inconsistent); [left; subst; auto|right; congruence]. }
    destruct Ei as [->|Ne].
    + exfalso. apply (qp_inconsistent _ QC _ _ _ _ Es y); [congruence|apply SO; auto].
    + destruct (C3 e eq_refl Ne) as (s1 & Hc1 & _). rewrite Hc1. cbn. intros Q. injection Q as ->. exact (NS _ _ _ _ Es).
Qed.
Theorem C95_stopping_partial : forall m win eps exc solve s p v u dt traj n,
  0 < m -> qp_contract solve -> (forall G a C b, solve G a C b <> Err SolverError) ->
  let cfg := int_optimization m eps exc solve in
  let ic := int_implicit_ic true m win in
  imp_in_use cfg ic 2 s [p; v] dt u traj -> asif_constraints s = int_implicit_constraints -> asif_directs s = [] ->
  window_steps win dt n -> predicted_safe m dt n p v -> predicted_stop m dt n p v ->
  (forall jss, all_picks (asif_constraints s) traj [p; v] jss -> imp_ok cfg s [p; v] traj jss [-1]) /\
  fst (implicit_asif_filter_control cfg ic (InArray [p; v]) dt u s) <> Err SolverError /\
  forall w s', implicit_asif_filter_control cfg ic (InArray [p; v]) dt u s = (Ok w, s') -> warnings s' = warnings s.
Proof.
  intros m win eps exc solve s p v u dt traj n Hm QC NS cfg ic U Ec Ed W Sf St.
  assert (A : forall jss, all_picks (asif_constraints s) traj [p; v] jss -> imp_ok cfg s [p; v] traj jss [-1]).
  { intros jss Pk. rewrite Ec in Pk.
    destruct (int_pick m win dt _ p v traj jss Hm (ii_look _ _ _ _ _ _ _ _ U) Pk) as (n' & j & W' & -> & Hj & Fm & Pt).
    assert (n' = n) by (apply window_steps_int in W, W'; congruence). subst n'.
    split; [reflexivity|]. rewrite Ec, Ed. split; [|split].
    - split; intros i y b Hy Hb; cbn in Hb; injection Hb as <-; destruct i as [|[|i]]; cbn in Hy; try discriminate;
        injection Hy as <-; lra.
    - intros i k c js j' Hc En Hjs Ij. destruct i as [|i]; [|destruct i; discriminate Hc].
      cbn in Hc, Hjs. injection Hc as <- <-. injection Hjs as <-. destruct Ij as [<-|[]].
      match goal with |- 0 <= ?e => assert (Q : e = - (v + INR j * dt * (-1 / m)) +
        (10 * (- fst (braked m dt j (p, v))) + 30 * ((- fst (braked m dt j (p, v))) * (- fst (braked m dt j (p, v))) * (- fst (braked m dt j (p, v)))))) end.
      { etransitivity; [exact (f_equal (fun q => point_margin (ac_f cfg) (ac_g cfg) _ [p; v] q [-1]) Pt)|].
        exact (proj1 (int_margin m eps exc solve p v (-1) (fst (braked m dt j (p, v))) (snd (braked m dt j (p, v))) (INR j * dt))). }
      rewrite Q. clear Q.
      pose proof (int_foremost m dt n p v j Hm (proj1 W) St Hj Fm) as B. specialize (Sf j Hj).
      set (q := fst (braked m dt j (p, v))) in *.
      assert (0 <= (- q) * (- q) * (- q)) by (repeat apply Rmult_le_pos; lra).
      replace (INR j * dt * (-1 / m)) with (- (INR j * dt / m)) by (field; lra). lra.
    - intros k d []. }
  split; [exact A|]. split; [exact (no_solver_error cfg ic 2 s [p; v] dt u traj [-1] QC NS U A)|]. intros w s' Hc.
  destruct (C24_implicit_warning_means_infeasible _ _ cfg ic 2 s [p; v] dt u traj w s' QC U Hc) as [E|(_ & _ & _ & jss & Pk & No)]; [exact E|].
  destruct (No [-1] (A jss Pk)).
Qed.
Print Assumptions C95_stopping_partial.

(** A solver that recognises every program without a feasible point, as the one of
    C69_exact_solver_exists does. *)
Definition reports_infeasible (solve : qp_solver) : Prop := forall u C b, length u = 1%nat ->
  ~ (exists z, length z = 1%nat /\ solves C b z) ->
  solve (obj_weight 1 []) u C b = Err (ValueError "constraints are inconsistent, no solution").

(** The full statement is false for every window, step and mass: the module predicts only safe
    points, but is still moving towards zero at the end of the window, and no admissible control
    meets the condition.  The call then raises, or returns the desired control, clipped, with a
    warning. *)
Theorem C95_short_window_refuted : forall m win dt, 0 < m -> 0 < dt -> 0 <= win ->
  exists n p v, window_steps win dt n /\ predicted_safe m dt n p v /\
  forall eps exc solve s u traj, qp_contract solve ->
  reports_infeasible solve ->
  let cfg := int_optimization m eps exc solve in
  let ic := int_implicit_ic true m win in
  imp_in_use cfg ic 2 s [p; v] dt u traj -> asif_constraints s = int_implicit_constraints ->
  (forall jss w, all_picks (asif_constraints s) traj [p; v] jss -> ~ imp_ok cfg s [p; v] traj jss w) /\
  let call := implicit_asif_filter_control cfg ic (InArray [p; v]) dt u s in
  if exc then fst call = Err SolverError
  else fst call = clip int_bounds u /\ warnings (snd call) = S (warnings s).
Proof.
  intros m win dt Hm Hd Hw. destruct (window_steps_exists win dt Hd Hw) as (n & W).
  set (v := INR n * dt / m + 1). set (p := - fst (braked m dt n (0, v))). exists n, p, v. split; [exact W|].
  assert (Vel : forall i q w, snd (braked m dt i (q, w)) = w - INR i * dt / m).
  { induction i as [|i IH]; intros q w; [cbn; field; lra|]. cbn [braked fst snd]. rewrite IH, S_INR. field. lra. }
  assert (Nxt : forall i q w, fst (braked m dt (S i) (q, w)) = fst (braked m dt i (q, w)) + dt * snd (braked m dt i (q, w))).
  { induction i as [|i IH]; intros q w; [reflexivity|]. change (fst (braked m dt (S i) (q + dt * w, w - dt / m)) =
      fst (braked m dt i (q + dt * w, w - dt / m)) + dt * snd (braked m dt i (q + dt * w, w - dt / m))). apply IH. }
  assert (Shift : forall i q w, fst (braked m dt i (q, w)) = q + fst (braked m dt i (0, w))).
  { induction i as [|i IH]; intros q w; [cbn; ring|]. rewrite !Nxt, IH, !Vel. ring. }
  assert (End : fst (braked m dt n (p, v)) = 0) by (rewrite Shift; unfold p; ring).
  assert (Mono : forall k, (k < n)%nat -> fst (braked m dt k (p, v)) < fst (braked m dt (S k) (p, v))).
  { intros k Hk. rewrite Nxt, Vel. unfold v.
    assert (INR k * dt / m <= INR n * dt / m).
    { apply Rmult_le_compat_r; [apply Rlt_le, Rinv_0_lt_compat; lra|]. apply Rmult_le_compat_r; [lra|]. apply le_INR. lia. }
    assert (0 < dt * (INR n * dt / m + 1 - INR k * dt / m)) by (apply Rmult_lt_0_compat; lra). lra. }
  assert (Below : forall k, (k < n)%nat -> fst (braked m dt k (p, v)) < 0).
  { intros k Hk. rewrite <- End. remember (n - k - 1)%nat as g eqn:Eg. revert k Hk Eg. induction g as [|g IH]; intros k Hk Eg.
    - replace n with (S k) by lia. apply Mono. lia.
    - apply Rlt_trans with (fst (braked m dt (S k) (p, v))); [apply Mono; lia|apply IH; lia]. }
  split.
  { intros j Hj. destruct (Nat.eq_dec j n) as [->|N]; [rewrite End; lra|]. apply Rlt_le, Below. lia. }
  intros eps exc solve s u traj QC Oe cfg ic U Ec.
  assert (No : forall jss w, all_picks (asif_constraints s) traj [p; v] jss -> ~ imp_ok cfg s [p; v] traj jss w).
  { intros jss w Pk [Lw (Wi & Ok & _)]. rewrite Ec in Pk, Ok.
    destruct (int_pick m win dt _ p v traj jss Hm (ii_look _ _ _ _ _ _ _ _ U) Pk) as (n' & j & W' & -> & Hj & Fm & Pt).
    assert (n' = n) by (apply window_steps_int in W, W'; congruence). subst n'.
    assert (j = n).
    { destruct (Nat.eq_dec j n) as [|N]; [assumption|]. specialize (Fm n (le_n n)). rewrite End in Fm.
      pose proof (Below j ltac:(lia)). lra. }
    subst j. specialize (Ok 0%nat _ _ _ n eq_refl eq_refl eq_refl (or_introl eq_refl)).
    destruct w as [|w0 [|? ?]]; try discriminate Lw.
    assert (W0 : -1 <= w0) by (exact (proj1 Wi 0%nat w0 (-1) eq_refl eq_refl)).
    match type of Ok with 0 <= ?e => assert (Q : e = - (v + INR n * dt * (w0 / m)) + (10 * (- fst (braked m dt n (p, v)))
       + 30 * ((- fst (braked m dt n (p, v))) * (- fst (braked m dt n (p, v))) * (- fst (braked m dt n (p, v)))))) end.
    { etransitivity; [exact (f_equal (fun q => point_margin (ac_f cfg) (ac_g cfg) _ [p; v] q [w0]) Pt)|].
      exact (proj1 (int_margin m eps exc solve p v w0 (fst (braked m dt n (p, v))) (snd (braked m dt n (p, v))) (INR n * dt))). }
    rewrite Q, End in Ok. clear - Ok W0 Hm Hd. unfold v in Ok.
    assert (0 <= INR n * dt / m * (w0 + 1)).
    { apply Rmult_le_pos; [|lra]. apply Rmult_le_pos; [|apply Rlt_le, Rinv_0_lt_compat; lra]. apply Rmult_le_pos; [apply pos_INR|lra]. }
    replace (INR n * dt * (w0 / m)) with (INR n * dt / m * w0) in Ok by (field; lra). lra. }
  split; [exact No|].
  destruct (implicit_call cfg ic 2 s [p; v] dt u traj U) as (rows & consts & Pk & _ & _ & SO & Hcall).
  specialize (Hcall solve). change (with_solver solve cfg) with cfg in Hcall. cbv zeta in Hcall |- *.
  destruct Hcall as (_ & _ & C2 & _). pose proof (ii_length _ _ _ _ _ _ _ _ U) as Lu.
  assert (Es : solve (obj_weight 1 []) u rows consts = Err (ValueError msg_inconsistent)).
  { apply Oe; [exact Lu|]. intros (z & Lz & Sz). apply (No _ z Pk). split; [exact Lz|]. apply SO; [exact Lz|exact Sz]. }
  specialize (C2 Es). change (ac_exc cfg) with exc in C2. destruct exc.
  - destruct C2 as (s' & E & _). exact (f_equal fst E).
  - destruct C2 as (w & s' & E & Cl & _ & _ & Wn). split.
    + exact (eq_trans (f_equal fst E) (eq_sym Cl)).
    + exact (eq_trans (f_equal (fun q => warnings (snd q)) E) Wn).
Qed.
Print Assumptions C95_short_window_refuted.

(** A newly built module is in use in every state. *)
Lemma int_new m win eps exc solve p v u dt n : 0 < m -> window_steps win dt n ->
  exists s traj, implicit_asif_init (int_optimization m eps exc solve) int_implicit_constraints None [] CSNone = Ok s /\
  imp_in_use (int_optimization m eps exc solve) (int_implicit_ic true m win) 2 s [p; v] dt [u] traj /\
  asif_constraints s = int_implicit_constraints /\ asif_directs s = [].
Proof.
  intros Hm W.
  assert (Ex : forall k x a, exists rest, length rest = k /\ length x = 2%nat /\
     sensitivity_path int_bounds (int_implicit_ic true m win) 2 dt CSNone x a rest /\ Forall (fun r => length (fst r) = 2%nat) rest \/ length x <> 2%nat).
  { induction k as [|k IH]; intros x a; destruct x as [|q [|r [|? ?]]]; try (exists []; right; cbn; lia).
    - exists []. left. repeat split; [constructor|constructor].
    - set (x' := vadd [q; r] (vscale dt (vadd (mv int_a [q; r]) (mv (int_b m) [-1])))).
      destruct (IH x' (madd a (mscale dt (mm 2 int_a a)))) as (rest & [(L & Lx & Pth & Fa)|N]); [|destruct N; reflexivity].
      exists ((x', madd a (mscale dt (mm 2 int_a a))) :: rest). left. split; [cbn; congruence|]. split; [reflexivity|]. split.
      + apply (sp_cons int_bounds (int_implicit_ic true m win) 2 dt CSNone [q; r] a [-1] CSNone [-1] x' rest); [reflexivity| |reflexivity|exact Pth].
        cbn. rewrite Rmax_left by lra. rewrite Rmin_left by lra. reflexivity.
      + constructor; [reflexivity|exact Fa]. }
  destruct (Ex n [p; v] (eye 2)) as (rest & [(L & _ & Pth & Fa)|N]); [|destruct N; reflexivity].
  eexists. exists (([p; v], eye 2) :: rest). split; [reflexivity|]. split; [|split; reflexivity].
  constructor.
  - exists int_implicit_constraints, None, [], CSNone. eexists. exists [], []. split; [|split; [|split; reflexivity]].
    + repeat constructor; intros [].
    + constructor.
  - split; exact Logic.I.
  - intros t. discriminate.
  - exists n, rest. split; [exact W|]. split; [exact L|]. split; [exact Pth|reflexivity].
  - constructor; cbn; auto.
    + split; [reflexivity|repeat constructor].
    + intros _ _ _. split; [reflexivity|repeat constructor].
    + intros k c pt [E|[]] I. injection E as <- <-.
      change (length (jax_grad (fun x => - jax_get 0 x 0%Z) (fst pt)) = 2%nat). rewrite jax_grad_length.
      destruct I as [<-|I]; [reflexivity|]. rewrite Forall_forall in Fa. exact (Fa pt I).
    + intros k d [].
  - intros k c [E|[]]. injection E as <- <-. discriminate.
  - intros k c [E|[]]. injection E as <- <-. unfold valid_sub. cbn. split; [lia|]. split; [lia|]. intros N E. injection E as <-. lia.
  - reflexivity.
  - reflexivity.
  - reflexivity.
Qed.

(** Non-vacuity: with the default window of two seconds and steps of a second, ten metres away at
    one metre per second (which stops in time); and the state of the second theorem, with a solver
    that exists. *)
Example C95_case : exists solve, qp_contract solve /\ (forall G a C b, solve G a C b <> Err SolverError) /\ reports_infeasible solve /\
  window_steps 2 1 2 /\ predicted_safe 1 1 2 (-10) 1 /\ predicted_stop 1 1 2 (-10) 1 /\
  forall p v, exists s traj, imp_in_use (int_optimization 1 0 false solve) (int_implicit_ic true 1 2) 2 s [p; v] 1 [1] traj /\
  asif_constraints s = int_implicit_constraints /\ asif_directs s = [].
Proof.
  destruct C69_exact_solver_exists as (solve & QC & NS & An). exists solve. split; [exact QC|]. split; [exact NS|]. split.
  { intros u C b Lu No. destruct (An 1%nat [] u C b Lu (Forall_nil _)) as [_ A]. cbn [length zeros repeat] in A.
    change (zeros 0) with (@nil R) in A. rewrite app_nil_r in A. apply A. exact No. }
  assert (W : window_steps 2 1 2) by (unfold window_steps; simpl; lra).
  split; [exact W|]. split.
  { intros j Hj. destruct j as [|[|[|j]]]; [cbn; lra..|lia]. }
  split; [unfold predicted_stop; cbn; lra|]. intros p v.
  destruct (int_new 1 2 0 false solve p v 1 1 2 ltac:(lra) W) as (s & traj & _ & U & E1 & E2). exists s, traj. auto.
Qed.

(** Keeping what the module promises is refuted too, for every step: just before the target and
    slowly receding, from where all predicted points are safe and the last one recedes, the module
    accepts full thrust towards the target without intervening, and after the next step, one of the
    module's own, the vehicle is past zero whatever the control of that step is. *)
Lemma int_receding_ok m win eps exc solve (s : amod vec unit ctl) p v dt traj :
  0 < m -> 0 < dt -> p <= 0 -> v < 0 ->
  let cfg := int_optimization m eps exc solve in
  let ic := int_implicit_ic true m win in
  imp_in_use cfg ic 2 s [p; v] dt [1] traj -> asif_constraints s = int_implicit_constraints -> asif_directs s = [] ->
  forall jss, all_picks (asif_constraints s) traj [p; v] jss -> imp_ok cfg s [p; v] traj jss [1].
Proof.
  intros Hm Hd Hp Hv cfg ic U Ec Ed jss Pk.
  assert (Im : 0 < / m) by (apply Rinv_0_lt_compat; lra).
  assert (Low : forall i q w, w < 0 -> fst (braked m dt (S i) (q, w)) < q).
  { induction i as [|i IH]; intros q w Hw; [cbn; nra|].
    change (fst (braked m dt (S i) (q + dt * w, w - dt / m)) < q).
    assert (Hw' : w - dt / m < 0) by (unfold Rdiv; nra). specialize (IH (q + dt * w) _ Hw'). nra. }
  rewrite Ec in Pk.
  destruct (int_pick m win dt _ p v traj jss Hm (ii_look _ _ _ _ _ _ _ _ U) Pk) as (n' & j & W' & -> & Hj & Fm & Pt).
  assert (J : j = 0%nat).
  { destruct j as [|j]; [reflexivity|exfalso]. specialize (Fm 0%nat ltac:(lia)). cbn [braked fst] in Fm.
    pose proof (Low j p v Hv) as L. cbn [braked fst] in L. cbn [snd] in Fm, L. lra. }
  subst j. split; [reflexivity|]. rewrite Ec, Ed. split; [|split].
  - split; intros i y b Hy Hb; cbn in Hb; injection Hb as <-; destruct i as [|[|i]]; cbn in Hy; try discriminate;
      injection Hy as <-; lra.
  - intros i k c js j' Hc' En Hjs Ij. destruct i as [|i]; [|destruct i; discriminate Hc'].
    cbn in Hc', Hjs. injection Hc' as <- <-. injection Hjs as <-. destruct Ij as [<-|[]].
    match goal with |- 0 <= ?e => assert (Q : e = - (v + INR 0 * dt * (1 / m)) + (10 * (- p) + 30 * (- p * - p * - p))) end.
    { etransitivity; [exact (f_equal (fun q => point_margin (ac_f cfg) (ac_g cfg) _ [p; v] q [1]) Pt)|].
      exact (proj1 (int_margin m eps exc solve p v 1 p v (INR 0 * dt))). }
    rewrite Q. clear Q. cbn [INR].
    assert (C3 : 0 <= - p * - p * - p) by (repeat apply Rmult_le_pos; lra). lra.
  - intros k d [].
Qed.
Theorem C95_own_steps_refuted : forall m win dt, 0 < m -> 0 < dt -> 0 <= win ->
  exists n p v, window_steps win dt n /\ predicted_safe m dt n p v /\ predicted_stop m dt n p v /\
  (forall eps exc solve s traj w s', qp_contract solve -> 0 <= eps ->
   let cfg := int_optimization m eps exc solve in
   let ic := int_implicit_ic true m win in
   imp_in_use cfg ic 2 s [p; v] dt [1] traj -> asif_constraints s = int_implicit_constraints -> asif_directs s = [] ->
   implicit_asif_filter_control cfg ic (InArray [p; v]) dt [1] s = (Ok w, s') ->
   w = [1] /\ warnings s' = warnings s /\ intervening s' = false) /\
  exists x1, int_euler m [p; v] dt [1] = Ok x1 /\
  forall u2, exists q r, int_euler m x1 dt [u2] = Ok [q; r] /\ 0 < q.
Proof.
  intros m win dt Hm Hd Hw. destruct (window_steps_exists win dt Hd Hw) as (n & W).
  assert (Im : 0 < / m) by (apply Rinv_0_lt_compat; lra).
  set (p := - (dt * dt / m / 4)). set (v := - (dt / m / 8)).
  assert (Hp : p < 0). { assert (0 < dt * dt / m / 4); [|unfold p; lra]. unfold Rdiv. repeat apply Rmult_lt_0_compat; lra. }
  assert (Hv : v < 0). { assert (0 < dt / m / 8); [|unfold v; lra]. unfold Rdiv. repeat apply Rmult_lt_0_compat; lra. }
  exists n, p, v. split; [exact W|].
  assert (Low : forall i q w, w < 0 -> fst (braked m dt i (q, w)) <= q /\ snd (braked m dt i (q, w)) < 0).
  { induction i as [|i IH]; intros q w Hw'; [cbn; split; lra|].
    change (fst (braked m dt i (q + dt * w, w - dt / m)) <= q /\ snd (braked m dt i (q + dt * w, w - dt / m)) < 0).
    assert (Hw2 : w - dt / m < 0) by (unfold Rdiv; nra). destruct (IH (q + dt * w) _ Hw2). split; nra. }
  split; [intros j Hj; destruct (Low j p v Hv); lra|].
  split; [apply Rlt_le, Low, Hv|].
  split.
  - intros eps exc solve s traj w s' QC He cfg ic U Ec Ed Hc.
    pose proof (int_receding_ok m win eps exc solve s p v dt traj Hm Hd (Rlt_le _ _ Hp) Hv U Ec Ed) as A.
    destruct (C21_implicit_minimally_invasive _ _ cfg ic 2 s [p; v] dt [1] traj w s' QC U Hc) as (jss & Pk & _ & Opt).
    assert (Ew : w = [1]).
    { destruct (Opt [1] (A jss Pk)) as [_ [E|E]]; [auto|]. exfalso.
      pose proof (ProofsVec.dist2_nonneg [1] w).
      pose proof (ProofsVec.dist2_refl [1]) as Z. rewrite Z in E. lra. }
    assert (Ww : warnings s' = warnings s).
    { destruct (C24_implicit_warning_means_infeasible _ _ cfg ic 2 s [p; v] dt [1] traj w s' QC U Hc) as [E|(_ & _ & _ & jss' & Pk' & No)]; [exact E|].
      destruct (No [1] (A jss' Pk')). }
    split; [exact Ew|]. split; [exact Ww|].
    destruct (C23_implicit_intervening_iff_far _ _ cfg ic 2 s [p; v] dt [1] traj w s' QC U Hc) as [I _]. specialize (I Ww).
    destruct (intervening s'); [|reflexivity]. exfalso. pose proof (proj1 I eq_refl) as L. rewrite Ew in L.
    pose proof (ProofsVec.dist2_refl [1]) as Z. rewrite Z, sqrt_0 in L. change (ac_eps cfg) with eps in L. lra.
  - eexists. split; [reflexivity|]. intros u2. eexists. eexists. split; [reflexivity|]. cbn.
    match goal with |- 0 < ?e => replace e with (dt * dt / m / 2); [|unfold p, v; field; lra] end.
    unfold Rdiv. repeat apply Rmult_lt_0_compat; lra.
Qed.
Print Assumptions C95_own_steps_refuted.

(** With a solver that solves every program with a feasible point the call of the theorem above, and
    those of the first theorem, return: with the default window of two seconds, for example. *)
Lemma int_returns m win eps exc solve s p v u dt traj y : 0 < m ->
  qp_contract solve ->
  (forall a C b, length a = 1%nat -> (exists z, length z = 1%nat /\ solves C b z) -> exists z iact, solve (obj_weight 1 []) a C b = Ok (z, iact)) ->
  let cfg := int_optimization m eps exc solve in
  let ic := int_implicit_ic true m win in
  imp_in_use cfg ic 2 s [p; v] dt u traj -> asif_constraints s = int_implicit_constraints -> asif_directs s = [] ->
  (forall jss, all_picks (asif_constraints s) traj [p; v] jss -> imp_ok cfg s [p; v] traj jss y) ->
  exists w s', implicit_asif_filter_control cfg ic (InArray [p; v]) dt u s = (Ok w, s').
Proof.
  intros Hm QC An cfg ic U Ec Ed A.
  destruct (implicit_call cfg ic 2 s [p; v] dt u traj U) as (rows & consts & Pk & Jn & Enc & SO & Hcall).
  specialize (Hcall solve). change (with_solver solve cfg) with cfg in Hcall. cbv zeta in Hcall.
  destruct Hcall as (C1 & _). pose proof (ii_length _ _ _ _ _ _ _ _ U) as Lu.
  destruct (A _ Pk) as [Ly Oy].
  destruct (An u rows consts Lu) as (z & iact & Es).
  { exists y. split; [exact Ly|]. apply SO; [exact Ly|exact Oy]. }
  destruct (qp_optimal _ QC _ _ _ _ _ _ Es) as (Lz & _ & _ & Act & _).
  destruct (C1 z iact Es) as (w & s' & out & E & _); [exact (eq_trans Lz Lu)| |exists w, s'; exact E].
  intros i I. destruct (Act i I) as (j & r & c & -> & Nr & _). exists j. split; [reflexivity|].
  destruct (encodes_length _ _ _ _ Enc) as [L1 _].
  assert (Hj : (j < length rows)%nat) by (apply nth_error_Some; congruence).
  rewrite Ec in Pk. destruct (int_pick m win dt _ p v traj _ Hm (ii_look _ _ _ _ _ _ _ _ U) Pk) as (n & j' & _ & Ej & _).
  eapply Nat.lt_le_trans; [exact Hj|]. rewrite L1, Ec, Ed, Ej.
  destruct (ii_look _ _ _ _ _ _ _ _ U) as (n2 & rest & _ & _ & _ & ->).
  unfold ProofsImplicit3.call_names. cbn. rewrite app_length. cbn. lia.
Qed.
Example C95_own_steps_case : exists solve s traj w s', qp_contract solve /\
  imp_in_use (int_optimization 1 0 false solve) (int_implicit_ic true 1 2) 2 s [- (1 * 1 / 1 / 4); - (1 / 1 / 8)] 1 [1] traj /\
  asif_constraints s = int_implicit_constraints /\ asif_directs s = [] /\
  implicit_asif_filter_control (int_optimization 1 0 false solve) (int_implicit_ic true 1 2) (InArray [- (1 * 1 / 1 / 4); - (1 / 1 / 8)]) 1 [1] s = (Ok w, s').
Proof.
  destruct C69_exact_solver_exists as (solve & QC & NS & An). exists solve.
  assert (W : window_steps 2 1 2) by (unfold window_steps; simpl; lra).
  destruct (int_new 1 2 0 false solve (- (1 * 1 / 1 / 4)) (- (1 / 1 / 8)) 1 1 2 ltac:(lra) W) as (s & traj & _ & U & E1 & E2). exists s, traj.
  destruct (int_returns 1 2 0 false solve s (- (1 * 1 / 1 / 4)) (- (1 / 1 / 8)) [1] 1 traj [1] ltac:(lra) QC) as (w & s' & E); auto.
  - intros a C b La Ez. destruct (An 1%nat [] a C b La (Forall_nil _)) as [B _].
    change (zeros (length (@nil R))) with (@nil R) in B. rewrite app_nil_r in B. apply B. exact Ez.
  - apply (int_receding_ok 1 2 0 false solve s (- (1 * 1 / 1 / 4)) (- (1 / 1 / 8)) 1 traj); auto; lra.
  - exists w, s'. auto.
Qed.
