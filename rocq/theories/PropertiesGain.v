(** Property C90: the gain of the delta-v module. *)
From Coq Require Import String Reals List Bool Lia Lra.
From Verif Require Import Prelude Vec ModelBase ModelController ModelCwh ModelLqr ModelInspect ModelGain SpecCore SpecCwh SpecLqr SpecInspect SpecGain
  ProofsVec ProofsCwh3 ProofsLqr ProofsInspect ProofsGain ProofsStop ProofsExist ProofsExist2 PropertiesInspect.
Import ListNotations.
Local Open Scope R_scope.

(** The solver is asked for the optimal regulator of the motion together with the integral of its
    state. *)
Lemma regulator_equation m n P x : sized 12 12 P -> length x = 12%nat ->
  miss 3 (dv_a_int (cwh_a3 n)) (dv_b_int (cwh_b3 m)) (1 / 100000) 100000 P x = regulator_miss n m P x.
Proof.
  intros (LP & RP) Lx. unfold miss, regulator_miss.
  assert (LPx : length (mv P x) = 12%nat) by (rewrite mv_length; exact LP).
  assert (A : mv (dv_a_int (cwh_a3 n)) x = with_integral n x).
  { clear - Lx. do 12 (destruct x as [|? x]; [discriminate|]). destruct x; [|discriminate].
    unfold with_integral. cbn [firstn cwh_rate app].
    cbv [dv_a_int hstack zero_mat repeat zeros eye unit_vec seq map map2 app cwh_a3 mv Nat.eqb]. cbn [dot].
    unfold vec. repeat (apply (f_equal2 (@Datatypes.cons R)); [ring|]). reflexivity. }
  rewrite A.
  assert (B : vm 3 (mv P x) (dv_b_int (cwh_b3 m)) = [nth 3 (mv P x) 0 / m; nth 4 (mv P x) 0 / m; nth 5 (mv P x) 0 / m]).
  { set (y := mv P x) in *. clearbody y. clear - LPx. do 12 (destruct y as [|? y]; [discriminate|]). destruct y; [|discriminate].
    cbn [nth]. cbv [dv_b_int zero_mat repeat zeros app cwh_b3 vm vadd vscale map map2].
    unfold vec, Rdiv. repeat (apply (f_equal2 (@Datatypes.cons R)); [ring|]). reflexivity. }
  rewrite B. cbn [dot]. unfold Rdiv. ring.
Qed.
Theorem C90_equation : forall care m n limit steps b,
  exists A B, sized 12 12 A /\ sized 12 3 B /\
  dv_build care m n limit steps b = rbind (care A B (diagonal 12 (1 / 100000)) (diagonal 3 100000)) (fun P =>
    Ok (mkDvCfg m n limit steps (fst (dv_gain B P)) (snd (dv_gain B P)) b)) /\
  forall P x, sized 12 12 P -> length x = 12%nat -> miss 3 A B (1 / 100000) 100000 P x = regulator_miss n m P x.
Proof.
  intros care m n limit steps b. exists (dv_a_int (cwh_a3 n)), (dv_b_int (cwh_b3 m)).
  split; [apply dv_a_sized|]. split; [apply dv_b_sized|]. split; [|intros; apply regulator_equation; assumption].
  unfold dv_build. cbn [generate_cwh_matrices String.eqb Ascii.eqb Bool.eqb rbind fst snd]. rewrite dv_q_is, dv_r_is. reflexivity.
Qed.
Print Assumptions C90_equation.

(** What is made of the solver's matrix: the backup command of each thruster, before it is cut to
    the bounds, weighs the error of the state and the integral of the error (inspection_1v1.py 735)
    by the row of the matrix that belongs to the velocity it acts on. *)
Lemma split_rows K e z : Forall (fun r : vec => length r = 12%nat) K -> length e = 6%nat -> length z = 6%nat ->
  vadd (mv (map (firstn 6) K) e) (mv (map (skipn 6) K) z) = mv K (e ++ z).
Proof.
  intros F Le Lz. induction F as [|r K Lr F IH]; [reflexivity|]. unfold mv, vadd in *. cbn [map map2]. rewrite IH. f_equal.
  rewrite <- (firstn_skipn 6 r) at 3. rewrite dot_app; [reflexivity|]. rewrite firstn_length, Lr, Le. reflexivity.
Qed.
Theorem C90_feedback : forall P m n limit steps b cfg error integral,
  sized 12 12 P -> dv_build (fun _ _ _ _ => Ok P) m n limit steps b = Ok cfg ->
  length error = 6%nat -> length integral = 6%nat ->
  vadd (mv (dv_K1 cfg) error) (mv (dv_K2 cfg) integral)
  = map (fun i => dot (nth i P []) (error ++ integral) / m / 100000) [3; 4; 5]%nat.
Proof.
  intros P m n limit steps b cfg e z (LP & RP) H Le Lz. unfold dv_build in H.
  cbn [generate_cwh_matrices String.eqb Ascii.eqb Bool.eqb rbind fst snd] in H. apply (f_equal (fun r => match r with Ok c => c | Err _ => cfg end)) in H. cbv beta iota in H. subst cfg. cbn [dv_K1 dv_K2]. unfold dv_gain. cbn [fst snd].
  etransitivity; [apply split_rows; [apply mm_rows, mm_rows; exact RP|exact Le|exact Lz]|].
  rewrite !mm_mv by (try apply mm_rows; exact RP).
  assert (N : forall i, (i < 12)%nat -> dot (nth i P []) (e ++ z) = nth i (mv P (e ++ z)) 0).
  { intros i Hi. unfold mv. rewrite (nth_indep _ 0 (dot [] (e ++ z))) by (rewrite map_length, LP; exact Hi).
    rewrite (map_nth (fun r => dot r (e ++ z))). reflexivity. }
  cbn [map]. rewrite !N by lia.
  assert (Ly : length (mv P (e ++ z)) = 12%nat) by (rewrite mv_length; exact LP).
  set (y := mv P (e ++ z)) in *. clearbody y. clear - Ly. do 12 (destruct y as [|? y]; [discriminate|]). destruct y; [|discriminate].
  cbn [nth]. cbv [dv_b_int zero_mat repeat zeros app cwh_b3 transpose mscale vscale eye unit_vec seq map mv Nat.eqb nth]. cbn [dot].
  unfold vec, Rdiv. repeat (apply (f_equal2 (@Datatypes.cons R)); [ring|]); reflexivity.
Qed.
Print Assumptions C90_feedback.
Example C90_feedback_case : sized 12 12 (diagonal 12 2) /\
  exists cfg, dv_build (fun _ _ _ _ => Ok (diagonal 12 2)) 12 1 20 5 (mkBounds None None) = Ok cfg /\
  vadd (mv (dv_K1 cfg) [0; 0; 0; 600000; 0; 0]) (mv (dv_K2 cfg) (zeros 6)) = [1; 0; 0].
Proof.
  assert (Z : sized 12 12 (diagonal 12 2)) by (split; [reflexivity|repeat constructor]).
  split; [exact Z|]. eexists. split; [reflexivity|].
  erewrite (C90_feedback (diagonal 12 2) 12 1 20 5 (mkBounds None None)); [|exact Z|reflexivity..].
  cbv [diagonal map seq nth Nat.eqb zeros repeat app]. cbn [dot].
  unfold vec. repeat (apply (f_equal2 (@Datatypes.cons R)); [field|]); reflexivity.
Qed.

(** No matrix solves it, whatever the mass and the mean motion.  Every matrix misses it in some
    direction by the whole of the state's weight: a nearly right solution does not exist either. *)
Theorem C90_no_solution_refuted : forall m n P, sized 12 12 P ->
  exists x, length x = 12%nat /\ 0 < dot x x /\ regulator_miss n m P x = 1 / 100000 * dot x x.
Proof.
  intros m n P SP.
  destruct (blind 3 6 (dv_a_int (cwh_a3 n)) (dv_b_int (cwh_b3 m)) P SP (dv_b_sized m) ltac:(lia) (dv_a_still n)) as (x & Lx & Px & Q).
  exists x. split; [exact Lx|]. split; [exact Px|]. rewrite <- (regulator_equation m n P x SP Lx). apply Q.
Qed.
Print Assumptions C90_no_solution_refuted.

(** So with a solver that only returns solutions, however roughly, the module cannot be built. *)
Theorem C90_construction_refuted : forall tol care m n limit steps b,
  tol < 1 / 100000 -> solves_riccati tol care -> exists e, dv_build care m n limit steps b = Err e.
Proof.
  intros tol care m n limit steps b Ht C. destruct (C90_equation care m n limit steps b) as (A & B & SA & SB & E & M).
  rewrite E. destruct (care A B (diagonal 12 (1 / 100000)) (diagonal 3 100000)) as [P|e] eqn:K; [|exists e; reflexivity].
  exfalso. destruct (C 12%nat 3%nat A B _ _ P SA SB K) as (SP & Q).
  destruct (C90_no_solution_refuted m n P SP) as (x & Lx & Px & R).
  specialize (Q x Lx). rewrite (M P x SP Lx), R in Q. rewrite Rabs_right in Q.
  - apply (Rmult_lt_compat_r (dot x x)) in Ht; lra.
  - apply Rle_ge, Rmult_le_pos; lra.
Qed.
Print Assumptions C90_construction_refuted.

(** Such solvers exist, also ones that solve the equations of the docking controllers. *)
Lemma diagonal_inj k q l r : (0 < k)%nat -> diagonal k q = diagonal l r -> k = l /\ q = r.
Proof.
  intros Hk E. assert (L : k = l) by (apply (f_equal (@length _)) in E; unfold diagonal in E; rewrite !map_length, !seq_length in E; exact E).
  split; [exact L|]. subst l. destruct k as [|k]; [lia|]. unfold diagonal in E. cbn in E. injection E as E _ _. exact E.
Qed.
Example C90_solver_case : exists care P, solves_riccati 0 care /\
  care (motion2 0) (thrust2 12) (diagonal 4 (1 / 20)) (diagonal 2 1000) = Ok P.
Proof.
  destruct (planar_riccati_exists 0 ltac:(lra)) as (P & Sz & Sym & Pos & Eq).
  pose (dec := list_eq_dec (list_eq_dec Req_EM_T)).
  exists (fun A B Q Rm => if dec A (motion2 0) then if dec B (thrust2 12) then if dec Q (diagonal 4 (1 / 20)) then
    if dec Rm (diagonal 2 1000) then Ok P else Err SolverError else Err SolverError else Err SolverError else Err SolverError), P.
  split.
  - intros dim k A B q r P' SA SB H.
    destruct (dec A (motion2 0)) as [->|]; [|discriminate]. destruct (dec B (thrust2 12)) as [->|]; [|discriminate].
    destruct (dec (diagonal dim q) (diagonal 4 (1 / 20))) as [E|]; [|discriminate].
    destruct (dec (diagonal k r) (diagonal 2 1000)) as [E'|]; [|discriminate]. injection H as <-.
    symmetry in E, E'. destruct (diagonal_inj 4 _ _ _ ltac:(lia) E) as [<- <-]. destruct (diagonal_inj 2 _ _ _ ltac:(lia) E') as [<- <-].
    split; [exact Sz|]. intros x Lx. specialize (Eq x Lx).
    assert (V : vm 2 (mv P x) (thrust2 12) = mv (thrust2_t 12) (mv P x)).
    { apply vm_columns; [rewrite mv_length; apply Sz|]. apply SB. }
    assert (D : form (diagonal 4 (1 / 20)) x x = 1 / 20 * dot x x).
    { destruct x as [|a [|b [|c [|d [|]]]]]; try discriminate. unfold form, diagonal. cbn. field. }
    unfold miss. rewrite V, <- D, Eq, Rabs_R0. lra.
  - destruct (dec (motion2 0) (motion2 0)); [|congruence]. destruct (dec (thrust2 12) (thrust2 12)); [|congruence].
    destruct (dec (diagonal 4 (1 / 20)) (diagonal 4 (1 / 20))); [|congruence]. destruct (dec (diagonal 2 1000) (diagonal 2 1000)); [reflexivity|congruence].
Qed.

(** What holds for every matrix a solver may return instead: the gains have the right shape (so C50
    applies), *)
Theorem C90_any_gain_partial : forall care m n limit steps b cfg,
  dv_build care m n limit steps b = Ok cfg ->
  gains_ok cfg /\ dv_m cfg = m /\ dv_n cfg = n /\ dv_limit cfg = limit /\ dv_steps cfg = steps /\ dv_bounds cfg = b.
Proof.
  intros care m n limit steps b cfg H. destruct (C90_equation care m n limit steps b) as (A & B & _ & _ & E & _). rewrite E in H.
  destruct (care A B _ _) as [P|e]; [|discriminate]. injection H as <-. repeat split.
Qed.
Print Assumptions C90_any_gain_partial.

(** and on a natural ellipse without thrust the module switches exactly if more than the limit has
    been used already: the forecast uses no more. *)
Theorem C90_coasting_partial : forall cfg calls (x : vec) dt,
  gains_ok cfg -> (1 <= dv_steps cfg)%nat -> length x = 8%nat -> on_ellipse (dv_n cfg) x ->
  let after cs := mode_after (dv_n cfg) (dv_m cfg) (dv_limit cfg) (dv_K1 cfg) (dv_K2 cfg) (dv_steps cfg) cs Watching in
  after calls = Watching ->
  (after (calls ++ [(x, dt, zeros 3)]) <> Watching <-> dv_limit cfg < delta_v_used x).
Proof.
  intros cfg calls x dt [K1 K2] St Lx O after W. unfold after in *.
  rewrite (C50_latch cfg calls x dt (zeros 3) W Lx eq_refl).
  assert (F : forall j, delta_v_used (fst (forecast (dv_n cfg) (dv_m cfg) dt (dv_K1 cfg) (dv_K2 cfg) x (zeros 3) (zeros 6) j)) = delta_v_used x)
    by (intros j; destruct (coast_forecast (dv_n cfg) (dv_m cfg) dt (dv_K1 cfg) (dv_K2 cfg) x j K1 K2 Lx O) as (_ & _ & D & _); exact D).
  split.
  - intros (j & _ & V). rewrite F in V. exact V.
  - intros V. exists 1%nat. split; [lia|]. rewrite F. exact V.
Qed.
Print Assumptions C90_coasting_partial.

(** The command on the ellipse is zero, and a spacecraft without thrust stays on it: what the
    controller steers to needs no fuel and does not drift away. *)
Theorem C90_ellipse_is_free : forall cfg n m T x y z vx vy vz sun used dt t,
  gains_ok cfg -> dv_n cfg = n ->
  cwh_forced n m T (fun _ => 0) (fun _ => 0) (fun _ => 0) x y z vx vy vz ->
  vx 0 = n * y 0 / 2 -> vy 0 = - (2 * n * x 0) -> 0 <= t <= T ->
  dv_backup cfg [x t; y t; z t; vx t; vy t; vz t; sun; used] dt (zeros 6) = Ok (zeros 3, zeros 6) /\
  4 * (x t * x t) + y t * y t = 4 * (x 0 * x 0) + y 0 * y 0.
Proof.
  intros cfg n m T x y z vx vy vz sun used dt t [K1 K2] <- Mo Hx Hy Ht.
  destruct (ellipse_kept _ _ _ _ _ _ _ _ _ Mo Hx Hy t Ht) as (E1 & E2 & E3). split; [|exact E3].
  unfold dv_backup. cbn [length Nat.ltb Nat.leb nth].
  replace (vx t - dv_n cfg / 2 * y t) with 0 by lra. replace (vy t + 2 * dv_n cfg * x t) with 0 by lra.
  change [0; 0; 0; 0; 0; 0] with (zeros 6).
  destruct (dv_K1 cfg) as [|a [|b [|c [|]]]]; try discriminate. destruct (dv_K2 cfg) as [|a' [|b' [|c' [|]]]]; try discriminate.
  cbn [map mv vsub map2]. rewrite !dot_zeros_r.
  assert (Z : Rmin (Rmax (0 - 0) (-1)) 1 = 0) by (unfold Rmin, Rmax; repeat destruct (Rle_dec _ _); lra). rewrite Z.
  refine (f_equal (@Ok _) _). apply (f_equal2 pair); [reflexivity|]. cbn. unfold vec. repeat (apply (f_equal2 (@Datatypes.cons R)); [ring|]). reflexivity.
Qed.
Print Assumptions C90_ellipse_is_free.

(** A spacecraft 100 m ahead of the chief in its orbit, on an ellipse with mean motion 1. *)
Example C90_coasting_case :
  on_ellipse 1 [0; 100; 0; 50; 0; 0; 0; 2] /\ gains_ok dv_small /\
  mode_after 1 1 1 (dv_K1 dv_small) (dv_K2 dv_small) 2 [([0; 100; 0; 50; 0; 0; 0; 2], 1, zeros 3)] Watching <> Watching /\
  mode_after 1 1 1 (dv_K1 dv_small) (dv_K2 dv_small) 2 [([0; 100; 0; 50; 0; 0; 0; 1], 1, zeros 3)] Watching = Watching.
Proof.
  assert (O : forall a, on_ellipse 1 [0; 100; 0; 50; 0; 0; 0; a]) by (intros a; split; cbn; field).
  split; [apply O|]. split; [apply dv_small_gains|]. split.
  - apply (C90_coasting_partial dv_small [] [0; 100; 0; 50; 0; 0; 0; 2] 1 dv_small_gains ltac:(cbn; lia) eq_refl (O 2) eq_refl). cbn. lra.
  - assert (D : forall md, md = Watching \/ md <> Watching) by (intros []; [left; reflexivity|right; discriminate]).
    match goal with |- ?md = Watching => destruct (D md) as [K|K]; [exact K|] end. exfalso.
    pose proof (proj1 (C90_coasting_partial dv_small [] [0; 100; 0; 50; 0; 0; 0; 1] 1 dv_small_gains ltac:(cbn; lia) eq_refl (O 1) eq_refl) K) as Q.
    cbn in Q. lra.
Qed.
