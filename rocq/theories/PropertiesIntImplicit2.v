(** C95 continued: the implicit optimisation module of the integrator with integration_method RK45. *)
From Coq Require Import String Reals List Bool ZArith Lia Lra Permutation.
From Verif Require Import Prelude Vec ModelBase ModelController ModelSimplex ModelAsif ModelConstraint ModelIntegrator ModelIntImplicit.
From Verif Require ProofsVec ProofsImplicit3.
From Verif Require Import SpecCore SpecConstraint SpecAsif SpecImplicit SpecIntImplicit ProofsBase ProofsConstraint ProofsSimplex ProofsAsif ProofsAsif2 ProofsAsif4 ProofsImplicit ProofsImplicit2 ProofsImplicit4
  PropertiesAsif PropertiesImplicit PropertiesIntegrator PropertiesSolver PropertiesIntImplicit.
Import ListNotations.
Local Open Scope R_scope.

Lemma int_path_exact m win dt cs p v a rest : 0 < m ->
  sensitivity_path int_bounds (int_implicit_ic false m win) 2 dt cs [p; v] [[1; a]; [0; 1]] rest ->
  forall j, (j <= length rest)%nat ->
  nth j (([p; v], [[1; a]; [0; 1]]) :: rest) ([p; v], []) =
  ([fst (braked_exactly m dt j (p, v)); snd (braked_exactly m dt j (p, v))], [[1; a + INR j * dt]; [0; 1]]).
Proof.
  intros Hm H.
  assert (G : forall x S, x = [p; v] -> S = [[1; a]; [0; 1]] -> sensitivity_path int_bounds (int_implicit_ic false m win) 2 dt cs x S rest ->
    forall j d, (j <= length rest)%nat -> nth j ((x, S) :: rest) d =
      ([fst (braked_exactly m dt j (p, v)); snd (braked_exactly m dt j (p, v))], [[1; a + INR j * dt]; [0; 1]])).
  2: { intros j Hj. apply G; auto. }
  clear H. revert cs p v a. induction rest as [|r rest IH]; intros cs p v a x S0 -> -> H j d Hj.
  - destruct j; [|cbn in Hj; lia]. cbn. f_equal; [|replace (a + 0 * dt) with a by ring; reflexivity].
    repeat apply (f_equal2 (@Datatypes.cons R)); try reflexivity; field; lra.
  - inversion H as [|cs1 x1 S1 w cs' u x' rest' Eg Ec Ep S' Pth E1 E2 E3 E4]; subst.
    destruct j as [|j].
    { cbn. f_equal; [|replace (a + 0 * dt) with a by ring; reflexivity].
      repeat apply (f_equal2 (@Datatypes.cons R)); try reflexivity; field; lra. }
    cbn in Eg. injection Eg as <- <-.
    assert (u = [-1]).
    { cbn in Ec. injection Ec as <-. f_equal. rewrite Rmax_left by lra. apply Rmin_left. lra. }
    subst u. cbn in Ep. injection Ep as <-.
    cbn [length] in Hj.
    assert (X2 : S' = [[1; a + dt]; [0; 1]]).
    { unfold S'. cbn. repeat apply (f_equal2 (@Datatypes.cons vec)); try reflexivity;
        repeat apply (f_equal2 (@Datatypes.cons R)); try reflexivity; ring. }
    etransitivity; [exact (IH CSNone _ _ (a + dt) _ _ eq_refl X2 Pth j d ltac:(lia))|].
    unfold braked_exactly. cbn [fst snd]. rewrite S_INR. f_equal; repeat apply (f_equal2 (@Datatypes.cons vec)); try reflexivity;
    repeat apply (f_equal2 (@Datatypes.cons R)); try reflexivity; field; lra.
Qed.

(** The one point that is used: a foremost one. *)
Lemma int_pick_exact m win dt cs p v traj jss : 0 < m ->
  lookahead int_bounds (int_implicit_ic false m win) dt cs [p; v] traj -> all_picks int_implicit_constraints traj [p; v] jss ->
  exists n j, window_steps win dt n /\ jss = [[j]] /\ (j <= n)%nat /\
    (forall i, (i <= n)%nat -> fst (braked_exactly m dt i (p, v)) <= fst (braked_exactly m dt j (p, v))) /\
    point traj [p; v] j = ([fst (braked_exactly m dt j (p, v)); snd (braked_exactly m dt j (p, v))], [[1; INR j * dt]; [0; 1]]).
Proof.
  intros Hm (n & rest & W & L & Pth & ->) Pk. exists n.
  assert (T : forall j, (j <= n)%nat -> point (([p; v], eye (ic_size (int_implicit_ic false m win) [p; v])) :: rest) [p; v] j =
     ([fst (braked_exactly m dt j (p, v)); snd (braked_exactly m dt j (p, v))], [[1; INR j * dt]; [0; 1]])).
  { intros j Hj. unfold point.
    assert (E : eye (ic_size (int_implicit_ic false m win) [p; v]) = [[1; 0]; [0; 1]]) by reflexivity.
    rewrite E in *. pose proof (int_path_exact m win dt cs p v 0 rest Hm Pth j ltac:(lia)) as Q.
    etransitivity; [exact Q|]. rewrite Rplus_0_l. reflexivity. }
  set (traj := _ :: rest) in *.
  assert (Lt : length traj = S n) by (unfold traj; cbn; lia).
  unfold all_picks, int_implicit_constraints in Pk. inversion Pk as [|kc js l1 l2 Pj Pr E1 E2]; subst.
  inversion Pr; subst. cbn [snd] in Pj.
  destruct Pj as (base & kept & dropped & Nd & Hb & Pm & Le & Ln & ->).
  set (c := int_implicit None _) in *.
  assert (B : forall q, In q base <-> (q <= length rest)%nat).
  { intros q. rewrite Hb, Lt. unfold checked. change (num_check_all (c_sub c)) with (-1)%Z. change (skip_length (c_sub c)) with 1%Z. split.
    - intros [H|(H & _)]; lia.
    - intros H. right. split; [lia|]. exists q. lia. }
  change (num_least (c_sub c)) with (Some 1%Z) in Ln. cbv beta iota in Ln.
  change (keep_first (c_sub c)) with false. change (keep_last (c_sub c)) with false. cbv iota. rewrite !app_nil_r.
  assert (B0 : In 0%nat base) by (apply B; lia).
  assert (L1 : length kept = 1%nat).
  { rewrite Ln. destruct base as [|b0 base]; [destruct B0|]. cbn. lia. }
  destruct kept as [|j [|? ?]]; try discriminate L1. exists j.
  assert (J : (j <= length rest)%nat).
  { apply B. apply (Permutation_in j (Permutation_sym Pm)). left; reflexivity. }
  split; [exact W|]. split; [reflexivity|]. split; [exact J|]. split; [|apply T; exact J].
  intros i Hi. assert (I : In i ([j] ++ dropped)) by (apply (Permutation_in i Pm), B, Hi).
  destruct I as [<-|I]; [apply Rle_refl|].
  specialize (Le j i (or_introl eq_refl) I). cbv beta in Le.
  destruct (int_margin m 0 true (fun _ _ _ _ => Err SolverError) p v 0 (fst (braked_exactly m dt j (p, v))) (snd (braked_exactly m dt j (p, v))) (INR j * dt)) as [_ V1].
  destruct (int_margin m 0 true (fun _ _ _ _ => Err SolverError) p v 0 (fst (braked_exactly m dt i (p, v))) (snd (braked_exactly m dt i (p, v))) (INR i * dt)) as [_ V2].
  assert (Q : - fst (braked_exactly m dt j (p, v)) <= - fst (braked_exactly m dt i (p, v))); [|lra].
  apply Rle_trans with (point_value c (point traj [p; v] j)); [right; symmetry; exact (eq_trans (f_equal (point_value c) (T j J)) V1)|].
  apply Rle_trans with (point_value c (point traj [p; v] i)); [exact Le|right; exact (eq_trans (f_equal (point_value c) (T i Hi)) V2)].
Qed.

(** A newly built module is in use in every state. *)
Lemma int_new_exact m win eps exc solve p v u dt n : 0 < m -> window_steps win dt n ->
  exists s traj, implicit_asif_init (int_optimization m eps exc solve) int_implicit_constraints None [] CSNone = Ok s /\
  imp_in_use (int_optimization m eps exc solve) (int_implicit_ic false m win) 2 s [p; v] dt [u] traj /\
  asif_constraints s = int_implicit_constraints /\ asif_directs s = [].
Proof.
  intros Hm W.
  assert (Ex : forall k x a, exists rest, length rest = k /\ length x = 2%nat /\
     sensitivity_path int_bounds (int_implicit_ic false m win) 2 dt CSNone x a rest /\ Forall (fun r => length (fst r) = 2%nat) rest \/ length x <> 2%nat).
  { induction k as [|k IH]; intros x a; destruct x as [|q [|r [|? ?]]]; try (exists []; right; cbn; lia).
    - exists []. left. repeat split; [constructor|constructor].
    - set (x' := [q + r * dt + -1 / m * dt ^ 2 / 2; r + -1 / m * dt]).
      destruct (IH x' (madd a (mscale dt (mm 2 int_a a)))) as (rest & [(L & Lx & Pth & Fa)|N]); [|destruct N; reflexivity].
      exists ((x', madd a (mscale dt (mm 2 int_a a))) :: rest). left. split; [cbn; congruence|]. split; [reflexivity|]. split.
      + apply (sp_cons int_bounds (int_implicit_ic false m win) 2 dt CSNone [q; r] a [-1] CSNone [-1] x' rest); [reflexivity| |reflexivity|exact Pth].
        cbn. rewrite Rmax_left by lra. rewrite Rmin_left by lra. reflexivity.
      + constructor; [reflexivity|exact Fa]. }
  destruct (Ex n [p; v] (eye 2)) as (rest & [(L & _ & Pth & Fa)|N]); [|destruct N; reflexivity].
  eexists. exists (([p; v], eye 2) :: rest). split; [reflexivity|]. split; [|split; reflexivity].
  constructor.
  - exists int_implicit_constraints, None, [], CSNone. eexists. exists [], []. split; [|split; [|split; reflexivity]].
    + repeat constructor; intros [].
    + constructor.
  - split; exact Logic.I.
  - intros t. discriminate.
  - exists n, rest. split; [exact W|]. split; [exact L|]. split; [exact Pth|reflexivity].
  - constructor; cbn; auto.
    + split; [reflexivity|repeat constructor].
    + intros _ _ _. split; [reflexivity|repeat constructor].
    + intros k c pt [E|[]] I. injection E as <- <-.
      change (length (jax_grad (fun x => - jax_get 0 x 0%Z) (fst pt)) = 2%nat). rewrite jax_grad_length.
      destruct I as [<-|I]; [reflexivity|]. rewrite Forall_forall in Fa. exact (Fa pt I).
    + intros k d [].
  - intros k c [E|[]]. injection E as <- <-. discriminate.
  - intros k c [E|[]]. injection E as <- <-. unfold valid_sub. cbn. split; [lia|]. split; [lia|]. intros N E. injection E as <-. lia.
  - reflexivity.
  - reflexivity.
  - reflexivity.
Qed.

Lemma int_returns_exact m win eps exc solve s p v u dt traj y : 0 < m ->
  qp_contract solve ->
  (forall a C b, length a = 1%nat -> (exists z, length z = 1%nat /\ solves C b z) -> exists z iact, solve (obj_weight 1 []) a C b = Ok (z, iact)) ->
  let cfg := int_optimization m eps exc solve in
  let ic := int_implicit_ic false m win in
  imp_in_use cfg ic 2 s [p; v] dt u traj -> asif_constraints s = int_implicit_constraints -> asif_directs s = [] ->
  (forall jss, all_picks (asif_constraints s) traj [p; v] jss -> imp_ok cfg s [p; v] traj jss y) ->
  exists w s', implicit_asif_filter_control cfg ic (InArray [p; v]) dt u s = (Ok w, s').
Proof.
  intros Hm QC An cfg ic U Ec Ed A.
  destruct (implicit_call cfg ic 2 s [p; v] dt u traj U) as (rows & consts & Pk & Jn & Enc & SO & Hcall).
  specialize (Hcall solve). change (with_solver solve cfg) with cfg in Hcall. cbv zeta in Hcall.
  destruct Hcall as (C1 & _). pose proof (ii_length _ _ _ _ _ _ _ _ U) as Lu.
  destruct (A _ Pk) as [Ly Oy].
  destruct (An u rows consts Lu) as (z & iact & Es).
  { exists y. split; [exact Ly|]. apply SO; [exact Ly|exact Oy]. }
  destruct (qp_optimal _ QC _ _ _ _ _ _ Es) as (Lz & _ & _ & Act & _).
  destruct (C1 z iact Es) as (w & s' & out & E & _); [exact (eq_trans Lz Lu)| |exists w, s'; exact E].
  intros i I. destruct (Act i I) as (j & r & c & -> & Nr & _). exists j. split; [reflexivity|].
  destruct (encodes_length _ _ _ _ Enc) as [L1 _].
  assert (Hj : (j < length rows)%nat) by (apply nth_error_Some; congruence).
  rewrite Ec in Pk. destruct (int_pick_exact m win dt _ p v traj _ Hm (ii_look _ _ _ _ _ _ _ _ U) Pk) as (n & j' & _ & Ej & _).
  eapply Nat.lt_le_trans; [exact Hj|]. rewrite L1, Ec, Ed, Ej.
  destruct (ii_look _ _ _ _ _ _ _ _ U) as (n2 & rest & _ & _ & _ & ->).
  unfold ProofsImplicit3.call_names. cbn. rewrite app_length. cbn. lia.
Qed.

(** At rest full thrust is accepted: the foremost point is the present one. *)
Lemma int_rest_ok m win eps exc solve (s : amod vec unit ctl) p dt traj :
  0 < m -> 0 < dt -> p <= 0 ->
  let cfg := int_optimization m eps exc solve in
  let ic := int_implicit_ic false m win in
  imp_in_use cfg ic 2 s [p; 0] dt [1] traj -> asif_constraints s = int_implicit_constraints -> asif_directs s = [] ->
  forall jss, all_picks (asif_constraints s) traj [p; 0] jss -> imp_ok cfg s [p; 0] traj jss [1].
Proof.
  intros Hm Hd Hp cfg ic U Ec Ed.
  assert (Im : 0 < / m) by (apply Rinv_0_lt_compat; lra).
  assert (Sq : forall j, fst (braked_exactly m dt j (p, 0)) = p - (INR j * dt) ^ 2 * (/ m / 2)) by (intros j; cbn; field; lra).
  intros jss Pk. rewrite Ec in Pk.
      destruct (int_pick_exact m win dt _ p 0 traj jss Hm (ii_look _ _ _ _ _ _ _ _ U) Pk) as (n' & j & W' & -> & Hj & Fm & Pt).
      assert (J : j = 0%nat).
      { destruct j as [|j]; [reflexivity|exfalso]. specialize (Fm 0%nat ltac:(lia)). rewrite !Sq in Fm. rewrite S_INR in Fm. cbn [INR] in Fm.
        pose proof (pos_INR j) as Pj. assert (0 < ((INR j + 1) * dt) ^ 2) by (apply pow_lt, Rmult_lt_0_compat; lra).
        assert (0 < ((INR j + 1) * dt) ^ 2 * (/ m / 2)) by (apply Rmult_lt_0_compat; lra). lra. }
      subst j. assert (Pj : fst (braked_exactly m dt 0 (p, 0)) = p) by (rewrite Sq; cbn; ring).
      split; [reflexivity|]. rewrite Ec, Ed. split; [|split].
      - split; intros i y b Hy Hb; cbn in Hb; injection Hb as <-; destruct i as [|[|i]]; cbn in Hy; try discriminate;
          injection Hy as <-; lra.
      - intros i k c js j' Hc' En Hjs Ij. destruct i as [|i]; [|destruct i; discriminate Hc'].
        cbn in Hc', Hjs. injection Hc' as <- <-. injection Hjs as <-. destruct Ij as [<-|[]].
        match goal with |- 0 <= ?e => assert (Q : e = - (0 + INR 0 * dt * (1 / m)) + (10 * (- fst (braked_exactly m dt 0 (p, 0)))
          + 30 * ((- fst (braked_exactly m dt 0 (p, 0))) * (- fst (braked_exactly m dt 0 (p, 0))) * (- fst (braked_exactly m dt 0 (p, 0)))))) end.
        { etransitivity; [exact (f_equal (fun q => point_margin (ac_f cfg) (ac_g cfg) _ [p; 0] q [1]) Pt)|].
          exact (proj1 (int_margin m eps exc solve p 0 1 (fst (braked_exactly m dt 0 (p, 0))) (snd (braked_exactly m dt 0 (p, 0))) (INR 0 * dt))). }
        rewrite Q, Pj. clear Q. cbn [INR].
        assert (C3 : 0 <= - p * - p * - p) by (repeat apply Rmult_le_pos; lra). lra.
      - intros k d [].
Qed.

(** With integration_method RK45, the step of which is taken to be exact here, the full statement is
    false for every step: at rest less than dt^2 / (2 m) before the target, from where braking is
    safe for ever, the module accepts full thrust towards the target without intervening, and the
    next step of its own takes the vehicle past zero. *)
Theorem C95_exact_steps_refuted : forall m win dt p, 0 < m -> 0 < dt -> 0 <= win ->
  - (dt ^ 2 / (2 * m)) < p <= 0 ->
  (forall j, fst (braked_exactly m dt j (p, 0)) <= 0 /\ snd (braked_exactly m dt j (p, 0)) <= 0) /\
  (forall eps exc solve s traj w s', qp_contract solve -> 0 <= eps ->
   let cfg := int_optimization m eps exc solve in
   let ic := int_implicit_ic false m win in
   imp_in_use cfg ic 2 s [p; 0] dt [1] traj -> asif_constraints s = int_implicit_constraints -> asif_directs s = [] ->
   implicit_asif_filter_control cfg ic (InArray [p; 0]) dt [1] s = (Ok w, s') ->
   w = [1] /\ warnings s' = warnings s /\ intervening s' = false) /\
  exists q r, int_exact m [p; 0] dt [1] = Ok [q; r] /\ 0 < q.
Proof.
  intros m win dt p Hm Hd Hw Hp.
  assert (Im : 0 < / m) by (apply Rinv_0_lt_compat; lra).
  assert (Sq : forall j, fst (braked_exactly m dt j (p, 0)) = p - (INR j * dt) ^ 2 * (/ m / 2)) by (intros j; cbn; field; lra).
  assert (Pos : forall j, 0 <= INR j * dt) by (intros j; apply Rmult_le_pos; [apply pos_INR|lra]).
  split.
  { intros j. specialize (Pos j). split.
    - rewrite Sq. pose proof (pow2_ge_0 (INR j * dt)). nra.
    - unfold braked_exactly. cbn [fst snd]. unfold Rdiv. nra. }
  split.
  - intros eps exc solve s traj w s' QC He cfg ic U Ec Ed Hc.
    pose proof (int_rest_ok m win eps exc solve s p dt traj Hm Hd (proj2 Hp) U Ec Ed) as A.
    destruct (C21_implicit_minimally_invasive _ _ cfg ic 2 s [p; 0] dt [1] traj w s' QC U Hc) as (jss & Pk & _ & Opt).
    assert (Ew : w = [1]).
    { destruct (Opt [1] (A jss Pk)) as [_ [E|E]]; [auto|]. exfalso.
      pose proof (ProofsVec.dist2_nonneg [1] w).
      pose proof (ProofsVec.dist2_refl [1]) as Z. rewrite Z in E. lra. }
    assert (Ww : warnings s' = warnings s).
    { destruct (C24_implicit_warning_means_infeasible _ _ cfg ic 2 s [p; 0] dt [1] traj w s' QC U Hc) as [E|(_ & _ & _ & jss' & Pk' & No)]; [exact E|].
      destruct (No [1] (A jss' Pk')). }
    split; [exact Ew|]. split; [exact Ww|].
    destruct (C23_implicit_intervening_iff_far _ _ cfg ic 2 s [p; 0] dt [1] traj w s' QC U Hc) as [I _]. specialize (I Ww).
    destruct (intervening s'); [|reflexivity]. exfalso. pose proof (proj1 I eq_refl) as L. rewrite Ew in L.
    pose proof (ProofsVec.dist2_refl [1]) as Z. rewrite Z, sqrt_0 in L. change (ac_eps cfg) with eps in L. lra.
  - eexists. eexists. split; [reflexivity|].
    replace (1 / m * dt ^ 2 / 2) with (dt ^ 2 / (2 * m)) by (field; lra). lra.
Qed.
Print Assumptions C95_exact_steps_refuted.

(** Such calls exist: a tenth of a millimetre before the target, with a step of 0.02 s, the default
    window and a mass of one kilogram (the default mass is defined outside the repository). *)
Example C95_exact_steps_case : - ((1 / 50) ^ 2 / (2 * 1)) < - (1 / 10000) <= 0 /\
  exists solve s traj w s', qp_contract solve /\
  imp_in_use (int_optimization 1 0 false solve) (int_implicit_ic false 1 2) 2 s [- (1 / 10000); 0] (1 / 50) [1] traj /\
  asif_constraints s = int_implicit_constraints /\ asif_directs s = [] /\
  implicit_asif_filter_control (int_optimization 1 0 false solve) (int_implicit_ic false 1 2) (InArray [- (1 / 10000); 0]) (1 / 50) [1] s = (Ok w, s').
Proof.
  split; [lra|].
  destruct C69_exact_solver_exists as (solve & QC & NS & An). exists solve.
  destruct (window_steps_exists 2 (1 / 50) ltac:(lra) ltac:(lra)) as (n & W).
  destruct (int_new_exact 1 2 0 false solve (- (1 / 10000)) 0 1 (1 / 50) n ltac:(lra) W) as (s & traj & _ & U & E1 & E2). exists s, traj.
  destruct (int_returns_exact 1 2 0 false solve s (- (1 / 10000)) 0 [1] (1 / 50) traj [1] ltac:(lra) QC) as (w & s' & E); auto.
  - intros a C b La Ez. destruct (An 1%nat [] a C b La (Forall_nil _)) as [B _].
    change (zeros (length (@nil R))) with (@nil R) in B. rewrite app_nil_r in B. apply B. exact Ez.
  - apply (int_rest_ok 1 2 0 false solve s (- (1 / 10000)) (1 / 50) traj); auto; lra.
  - exists w, s'. auto.
Qed.
