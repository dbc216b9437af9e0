(** Properties of the 1d integrator example: C51. *)
From Coq Require Import String Reals List Bool ZArith Lia Lra Psatz.
From Verif Require Import Prelude Vec ModelBase ModelController ModelSimplex ModelAsif ModelConstraint ModelIntegrator
  SpecCore SpecHistory SpecSimplex SpecAsif SpecConstraint SpecIntegrator ProofsBase ProofsSimplex ProofsSimplex2 ProofsVec ProofsConstraint ProofsIntegrator
  ExampleTools ExampleQP PropertiesSimplex PropertiesAsif PropertiesConstraint.
Import ListNotations.
Local Open Scope R_scope.

(** ** C51.  Full braking keeps the explicit safe set, and the position never passes zero. *)

(** The constraint is satisfied exactly on that set. *)
Theorem C51_safe_set :
  forall p v, (0 <= c_compute (int_explicit None kw_default) [p; v] tt <-> can_stop [p; v]) /\
              (can_stop [p; v] -> p <= 0).
Proof.
  intros p v; split.
  - rewrite can_stop_iff. split; [intros H; exists p, v; auto|intros (_ & _ & _ & H); auto].
  - intros (p' & v' & E & H). injection E as <- <-. nra.
Qed.
Print Assumptions C51_safe_set.

(** Exact integration with mass one: any number of steps of any sizes. *)
Theorem C51_exact_braking_invariant :
  forall dts x xs, brakes (int_exact 1) dts x xs -> can_stop x -> Forall (fun y : vec => can_stop y /\ not_past_zero y) xs.
Proof.
  induction 1 as [|dt dts x x' xs H B IH]; intros S; constructor.
  - pose proof (exact_brake x dt x' H S) as S'. split; [auto|].
    destruct S' as (p & v & -> & S'). exists p, v; split; auto. nra.
  - apply IH. eapply exact_brake; eauto.
Qed.
Print Assumptions C51_exact_braking_invariant.

(** And at all times in between, also for lighter masses. *)
Theorem C51_exact_braking_all_times :
  forall m p v t x', 0 < m <= 1 -> 0 <= t -> can_stop [p; v] ->
  int_exact m [p; v] t [-1] = Ok x' -> not_past_zero x'.
Proof.
  intros m p v t x' [Hm Hm1] Ht (p' & v' & E & S) H. injection E as <- <-. cbn in H. injection H as <-.
  do 2 eexists; split; [reflexivity|].
  assert (1 <= / m). { rewrite <- Rinv_1. apply Rinv_le_contravar; lra. }
  replace (-1 / m * (t * (t * 1)) / 2) with (- (/ m * (t * t) / 2)) by (field; lra).
  assert (t * t <= / m * (t * t)) by nra.
  assert (0 <= (v - t) * (v - t)) by apply Rle_0_sqr. lra.
Qed.
Print Assumptions C51_exact_braking_all_times.

(** The explicit switching module with exact integration: whatever is asked for within the
    bounds, and for ever, the position does not pass zero. *)
Theorem C51_switching_safe_for_ever :
  forall dt latch us p v s xs, 0 < dt ->
  (forall u, In u us -> length u = 1%nat /\ within int_bounds u) ->
  enable s = true -> constraints_now s = int_explicit_constraints -> can_stop [p; v] ->
  closed_loop (int_switching false 1 latch) Explicit dt us [p; v] s xs ->
  Forall (fun y : vec => can_stop y /\ not_past_zero y) xs.
Proof.
  intros dt latch us p v s xs Hdt Hus En Ec S HL.
  assert (Two : forall us x s xs, closed_loop (int_switching false 1 latch) (P:=unit) Explicit dt us x s xs ->
            Forall (fun y => exists p v, y = [p; v]) xs).
  { clear. induction 1 as [|u us x s w s' x' xs H1 H2 H3 IH]; constructor; auto.
    cbn in H2. unfold int_exact in H2. destruct x as [|p [|v [|? ?]]]; try discriminate.
    destruct w as [|a [|? ?]]; try discriminate. injection H2 as <-. eauto. }
  assert (A : Forall (safe int_explicit_constraints) xs).
  { refine (C14_explicit_safe_for_ever vec unit (int_switching false 1 latch) dt int_explicit_constraints
      (fun _ => True) (int_gen_sized false 1 latch) Hdt _ _ us [p; v] s xs _ En Ec I _ HL).
    - repeat constructor; simpl; tauto.
    - intros x st x' st' Sx _ Hs. split; auto.
      destruct (int_backup_step false 1 dt x st x' st' Hs) as [Hp _].
      assert (E2 : exists p v, x = [p; v]).
      { cbn in Hp. unfold int_exact in Hp. destruct x as [|p0 [|v0 [|? ?]]]; try discriminate. eauto. }
      destruct E2 as (p0 & v0 & ->). apply safe_explicit in Sx.
      pose proof (exact_brake _ _ _ Hp Sx) as Sx'. destruct Sx' as (p1 & v1 & -> & Sx').
      apply safe_explicit. exists p1, v1; auto.
    - intros u Hu. destruct (Hus u Hu) as [L W]. split; [cbn; rewrite L; exact int_fits|exact W].
    - apply safe_explicit; auto. }
  specialize (Two _ _ _ _ HL). rewrite Forall_forall in *. intros y Hy.
  destruct (Two y Hy) as (p0 & v0 & ->). specialize (A _ Hy). apply safe_explicit in A.
  split; auto. destruct (C51_safe_set p0 v0) as [_ B]. exists p0, v0; auto.
Qed.
Print Assumptions C51_switching_safe_for_ever.

(** The default integration method loses the square of the step size at every step: a state on
    the boundary leaves the safe set at once, and the position can pass zero. *)
Theorem C51_euler_refuted :
  (forall p v dt, 0 < dt -> -2 * p - v * v = 0 ->
     exists x', int_euler 1 [p; v] dt [-1] = Ok x' /\ can_stop [p; v] /\ ~ can_stop x') /\
  (forall dt, 0 < dt -> exists p v x', can_stop [p; v] /\ int_euler 1 [p; v] dt [-1] = Ok x' /\ ~ not_past_zero x').
Proof.
  split.
  - intros p v dt Hdt H. eexists; split; [apply int_euler_eq; lra|]. split.
    + exists p, v; split; auto; lra.
    + intros (p' & v' & E & S). injection E as <- <-.
      replace (-2 * (p + dt * v) - (v + dt * (-1 / 1)) * (v + dt * (-1 / 1))) with (-2 * p - v * v - dt * dt) in S by field.
      nra.
  - intros dt Hdt. exists (- (dt * dt / 2)), dt. eexists; split; [|split; [apply int_euler_eq; lra|]].
    + do 2 eexists; split; [reflexivity|]. lra.
    + intros (p' & v' & E & S). injection E as <- <-. nra.
Qed.
Print Assumptions C51_euler_refuted.

(** With Euler integration the position passes zero by at most v dt / 2 + dt^2 / 8, after any
    number of steps of the same size. *)
Theorem C51_euler_braking_partial :
  forall dt n p v xs, 0 <= dt -> brakes (int_euler 1) (repeat dt n) [p; v] xs -> can_stop [p; v] ->
  Forall (fun y => exists p' v', y = [p'; v'] /\ p' <= v * dt / 2 + dt * dt / 8) xs.
Proof.
  intros dt n p v xs Hdt B (p0 & v0 & E & S). injection E as <- <-.
  assert (G : forall n p1 v1 xs, brakes (int_euler 1) (repeat dt n) [p1; v1] xs ->
    2 * p1 + v1 * v1 + v1 * dt <= v * dt ->
    Forall (fun y => exists p' v', y = [p'; v'] /\ p' <= v * dt / 2 + dt * dt / 8) xs).
  { clear B S xs n. induction n as [|n IH]; intros p1 v1 xs B S; inversion B as [|dt0 dts x x' xs' H B']; subst; constructor.
    - rewrite int_euler_eq in H by lra. injection H as <-. do 2 eexists; split; [reflexivity|].
      assert (0 <= (v1 - dt / 2) * (v1 - dt / 2)) by apply Rle_0_sqr. nra.
    - rewrite int_euler_eq in H by lra. injection H as <-. apply (IH _ _ _ B'). nra. }
  apply (G n p v xs B). lra.
Qed.
Print Assumptions C51_euler_braking_partial.

(** With a mass above one the thrust does not give the deceleration that the constraint assumes. *)
Theorem C51_heavy_refuted :
  forall m, 1 < m -> exists p v t x', can_stop [p; v] /\ 0 <= t /\
  int_exact m [p; v] t [-1] = Ok x' /\ ~ not_past_zero x'.
Proof.
  intros m Hm. exists (- (1 / 2)), 1, 1. eexists; split; [|split; [lra|split; [reflexivity|]]].
  - do 2 eexists; split; [reflexivity|]. lra.
  - intros (p' & v' & E & S). injection E as <- _.
    assert (/ m < 1). { rewrite <- Rinv_1. apply Rinv_lt_contravar; lra. }
    replace (-1 / m * (1 * (1 * 1)) / 2) with (- (/ m / 2)) in S by (field; lra). lra.
Qed.
Print Assumptions C51_heavy_refuted.

(** The explicit optimisation module always has a solution on the safe set, so that it neither
    raises SolverError nor falls back to the desired control. *)
Theorem C51_optimization_always_feasible :
  forall m eps exc solve s p v u dt, 0 < m <= 1 -> qp_contract solve ->
  (forall G a C b, solve G a C b <> Err SolverError) ->
  let cfg := int_optimization m eps exc solve in
  in_use cfg 2 s [p; v] u -> asif_constraints s = int_explicit_constraints -> asif_directs s = [] ->
  can_stop [p; v] ->
  allowed cfg s [p; v] [- m] /\
  fst (explicit_asif_filter_control cfg (InArray [p; v]) dt u s) <> Err SolverError /\
  warnings (snd (explicit_asif_filter_control cfg (InArray [p; v]) dt u s)) = warnings s.
Proof.
  intros m eps exc solve s p v u dt [Hm Hm1] QC NS cfg U Ec Ed S.
  assert (A : allowed cfg s [p; v] [- m]).
  { split; [rewrite Ec; reflexivity|]. rewrite Ec, Ed. split; [|split].
    - split; intros i y b Hy Hb; cbn in Hb; injection Hb as <-; destruct i as [|[|i]]; cbn in Hy; try discriminate;
        injection Hy as <-; lra.
    - intros pre k c post E _. destruct pre as [|x0 [|? ?]]; cbn in E; try discriminate.
      injection E as <- <- _. unfold barrier_margin, slack_value.
      change (c_params (int_explicit None kw_default)) with tt. rewrite int_grad, int_h_value.
      change (c_bias (int_explicit None kw_default)) with 0.
      destruct S as (p' & v' & E & S). injection E as <- <-.
      unfold strength. cbn [c_alpha int_explicit new_constraint c_slack kw_slack kw_default].
      destruct (Rlt_dec (-2 * p - v * v + 0) 0) as [N|_]; [lra|].
      cbn. set (h := -2 * p - v * v + 0).
      assert (0 <= h) by (unfold h; lra). clearbody h.
      match goal with |- 0 <= ?a + ?b - 0 => replace a with 0 by (field; lra); replace b with (h + 30 * (h * (h * h))) by ring end.
      assert (0 <= h * (h * h)) by (apply Rmult_le_pos; [auto|apply Rmult_le_pos; auto]). lra.
    - intros k d []. }
  split; [auto|]. exact (C24_feasible_call vec unit cfg 2 s [p; v] dt u [- m] QC NS U A).
Qed.
Print Assumptions C51_optimization_always_feasible.

(** Hence, with the control recomputed at all times, the position never passes zero. *)
Theorem C51_optimization_safe_for_ever :
  forall m eps exc solve dt T p v ud u s, 0 < m <= 1 -> qp_contract solve ->
  let cfg := int_optimization m eps exc solve in
  filtered_at_all_times cfg 2 "rel_vel" (int_explicit None kw_default) dt T (fun t => [p t; v t]) ud
    (fun t => [u t]) s ->
  (forall t, 0 <= t <= T -> derivable_pt_lim p t (v t) /\ derivable_pt_lim v t (u t / m)) ->
  can_stop [p 0; v 0] ->
  forall t, 0 <= t <= T -> can_stop [p t; v t] /\ p t <= 0.
Proof.
  intros m eps exc solve dt T p v ud u s [Hm _] QC cfg F D S t Ht.
  set (c := int_explicit None kw_default) in *.
  assert (H : 0 <= c_fun c [p t; v t] tt + c_bias c).
  { refine (C28_stays_safe vec unit cfg 2 "rel_vel" c dt T (fun t => [p t; v t]) ud (fun t => [u t]) s QC F
      _ eq_refl eq_refl _ _ t Ht).
    - intros r Hr. destruct (D r Hr) as [D1 D2]. change (c_params c) with tt.
      unfold c; rewrite int_grad.
      assert (E : dot [-2; -2 * v r] (vadd (ac_f cfg [p r; v r]) (mv (ac_g cfg [p r; v r]) [u r]))
                  = -2 * v r - (u r / m * v r + v r * (u r / m))) by (cbn; field; lra).
      rewrite E. clear E.
      intros eps0 He.
      destruct (derivable_pt_lim_minus (mult_real_fct (-2) p) (mult_fct v v) r (-2 * v r)
                  (u r / m * v r + v r * (u r / m))
                  (derivable_pt_lim_scal _ _ _ _ D1) (derivable_pt_lim_mult _ _ _ _ _ D2 D2) eps0 He) as [d Hd].
      exists d. intros h Hh0 Hh. rewrite !int_h_value. exact (Hd h Hh0 Hh).
    - intros h Hh. unfold strength, c; cbn [c_alpha int_explicit new_constraint c_alpha_neg kw_alpha_neg kw_default c_bias_neg kw_bias_neg].
      destruct (Rlt_dec h 0); [|lra].
      replace (polynomial (Some [0; 1; 0; 30]) h) with (h + 30 * (h * (h * h))) by (cbn; ring).
      assert (0 <= - h * (h * h)) by (apply Rmult_le_pos; [lra|apply Rle_0_sqr]). lra.
    - unfold c; rewrite int_h_value. destruct S as (p' & v' & E & S). injection E as <- <-. cbn; lra. }
  unfold c in H; rewrite int_h_value in H. cbn in H.
  split; [exists (p t), (v t); split; auto; lra|].
  pose proof (Rle_0_sqr (v t)); unfold Rsqr in *; lra.
Qed.
Print Assumptions C51_optimization_safe_for_ever.

(** Cases. *)
Definition int_module (cs : dict (constraint vec unit)) : simplex vec unit :=
  match simplex_init cs None CSNone with
  | Ok s => s
  | Err _ => rta_init (mkCb [] [] [] [] false (mkSx 0 (mkCtl CSNone CSNone CSNone)))
  end.
Example C51_braking_case : exists xs,
  can_stop [-2; 2] /\ brakes (int_exact 1) [1; 1; 1] [-2; 2] xs /\ In [- (1 / 2); 1] xs.
Proof.
  eexists; split; [do 2 eexists; split; [reflexivity|lra]|]. split.
  - eapply br_cons; [reflexivity|]. eapply br_cons; [reflexivity|]. eapply br_cons; [reflexivity|]. apply br_nil.
  - left. do 2 (apply (f_equal2 (@Datatypes.cons R)); [field|]). reflexivity.
Qed.
(** The loop runs for every sequence of desired controls. *)
Theorem C51_switching_loop_runs :
  forall euler m latch dt k us p v s, 0 < m -> 0 < dt ->
  (forall win, k = Implicit win -> 0 <= win) ->
  (forall u, In u us -> length u = 1%nat) ->
  enable s = true -> distinct_keys (constraints_now s) -> ctl_now s = CSNone ->
  exists xs, closed_loop (int_switching euler m latch) (P:=unit) k dt us [p; v] s xs /\ length xs = length us.
Proof.
  intros euler m latch dt k us p v s Hm Hdt Hk. revert p v s.
  assert (Step : forall p v a, exists p' v', sc_pred (int_switching euler m latch) [p; v] dt [a] = Ok [p'; v']).
  { intros p v a; cbn; destruct euler; [rewrite int_euler_eq by lra|]; cbn; eauto. }
  set (cfg := int_switching euler m latch) in *.
  assert (G : gen_sized (sc_bounds cfg) (sc_gen cfg)) by apply int_gen_sized.
  assert (B : boxed (sc_bounds cfg) [-1] [-1]).
  { apply (clip_iff_boxed int_bounds [-1] [-1] int_fits). apply int_clip_brake. }
  assert (Path : forall n p v, exists xs, backup_path (sc_bounds cfg) (sc_pred cfg) (sc_gen cfg) dt n [p; v] CSNone xs).
  { induction n as [|n IH]; intros p v; [exists []; constructor|].
    destruct (Step p v (-1)) as (p' & v' & E). destruct (IH p' v') as [xs Hx].
    exists ([p'; v'] :: xs). econstructor; [|exact Hx]. exists [-1], [-1]. split; [reflexivity|auto]. }
  assert (Fore : forall p v a, exists xs, foreseen cfg k dt [p; v] CSNone [a] xs).
  { intros p v a. destruct (Step p v a) as (p' & v' & E). destruct k as [|win].
    - exists [[p'; v']], [p'; v']; auto.
    - destruct (window_steps_exists win dt) as [n Hn]; [auto|apply (Hk win); auto|].
      destruct (Path n p' v') as [xs Hx]. exists ([p'; v'] :: xs), [p'; v']. split; [auto|]. exists n, xs; auto. }
  induction us as [|u us IH]; intros p v s Hu En Dk Hc; [exists []; split; [constructor|auto]|].
  destruct u as [|a [|? ?]]; try (specialize (Hu _ (or_introl eq_refl)); discriminate).
  assert (Sv : forall w, k = Implicit w -> savable (ctl_now s)) by (intros; rewrite Hc; discriminate).
  assert (K : exists b s', simplex_filter_control cfg k (InArray [p; v]) dt [a] s = (Ok [b], s') /\
                enable s' = true /\ constraints_now s' = constraints_now s /\ ctl_now s' = CSNone).
  { destruct (latched_dec cfg s) as [L|L].
    - rewrite <- held_latched in L.
      destruct (call_held cfg G k [p; v] dt [a] [-1] [-1] CSNone s En L eq_refl B) as (s' & Hf & A1 & A2 & _ & _ & A5 & _).
      exists (-1), s'; split; [auto|]. split; [congruence|auto].
    - assert (L' : ~ held cfg s) by (rewrite held_latched; auto).
      destruct (Fore p v a) as [xs Hx]. rewrite <- Hc in Hx.
      destruct (violb (constraints_now s) xs) eqn:Ev.
      + destruct (call_reject cfg G k [p; v] dt [a] s xs [-1] [-1] CSNone) as (s' & Hf & A1 & A2 & _ & _ & A5 & _); auto.
        { apply violb_true; auto. }
        exists (-1), s'; split; [auto|]. split; [congruence|auto].
      + destruct (call_accept cfg G k [p; v] dt [a] s xs [Rmin (Rmax a (-1)) 1]) as (s' & Hf & A1 & A2 & _ & _ & A5 & _); auto.
        { apply violb_false; auto. }
        exists (Rmin (Rmax a (-1)) 1), s'; split; [auto|]. split; [congruence|split; congruence]. }
  destruct K as (b & s' & Hf & E' & C' & K').
  destruct (Step p v b) as (p' & v' & Hp).
  destruct (IH p' v' s') as (xs & HL & Len); auto.
  { intros w Hw; apply Hu; right; auto. } { rewrite C'; auto. }
  exists ([p'; v'] :: xs); split; [econstructor; eauto|simpl; auto].
Qed.
Print Assumptions C51_switching_loop_runs.
Example C51_switching_case :
  simplex_init int_explicit_constraints None CSNone = Ok (int_module int_explicit_constraints) /\
  enable (int_module int_explicit_constraints) = true /\
  constraints_now (int_module int_explicit_constraints) = int_explicit_constraints /\
  ctl_now (int_module int_explicit_constraints) = CSNone /\
  exists xs, closed_loop (int_switching false 1 0) Explicit (1 / 2) (repeat [1] 7) [-2; 1]
    (int_module int_explicit_constraints) xs /\ length xs = 7%nat.
Proof.
  split; [reflexivity|split; [reflexivity|split; [reflexivity|split; [reflexivity|]]]].
  apply C51_switching_loop_runs; try reflexivity; try lra; try discriminate.
  - intros u Hu. apply repeat_spec in Hu; subst; auto.
  - repeat constructor; simpl; tauto.
Qed.

Definition int_opt_module : amod vec unit unit :=
  match asif_init (int_optimization 1 0 false qp1) int_explicit_constraints None [] tt with
  | Ok s => s
  | Err _ => rta_init (mkCb [] [] [] [] false (mkAsif 0 [] [] [] [] [] [] [] None 0 tt))
  end.
Lemma int_opt_in_use m eps exc solve p v a : m <> 0 ->
  in_use (int_optimization m eps exc solve) 2 int_opt_module [p; v] [a].
Proof.
  intros Hm. constructor; try reflexivity.
  - exists int_explicit_constraints, None, [], int_opt_module, [], [].
    split; [keys|split; [keys|split; reflexivity]].
  - exact int_fits.
  - constructor; try reflexivity.
    + split; [reflexivity|repeat constructor].
    + intros k c [E|[]]. injection E as <- <-. reflexivity.
    + intros k d [].
  - intros k c [E|[]]. injection E as <- <-. discriminate.
Qed.
Ltac int_eval :=
  cbv -[Rltb Rleb Rmax Rmin Rplus Rmult Rminus Ropp Rinv Rdiv IZR Rlt Rle py_int py_div
        Rabs sqrt pow sin cos INR not qp1 jax_grad].
Lemma int_opt_call : exists s',
  explicit_asif_filter_control (int_optimization 1 (1 / 10) false qp1) (InArray [-1; 0]) 1 [0] int_opt_module
    = (Ok [0], s') /\ warnings s' = warnings int_opt_module.
Proof.
  assert (Q : c_grad (int_explicit None kw_default) [-1; 0] tt = [-2; -2 * 0]) by apply int_grad.
  eexists; split.
  - int_eval. match goal with |- context [jax_grad ?f ?x] => replace (jax_grad f x) with [-2; -2 * 0] by (symmetry; exact Q) end.
    eval_model. qp1_gives [[1]] [0] [[1]; [-1]; [0]] [-1; -1; -242] [0] (@nil nat). eval_model. reflexivity.
  - reflexivity.
Qed.
Example C51_optimization_case : forall T, 0 <= T ->
  let cfg := int_optimization 1 (1 / 10) false qp1 in
  can_stop [-1; 0] /\ asif_constraints int_opt_module = int_explicit_constraints /\
  asif_directs int_opt_module = [] /\ (forall G a C b, qp1 G a C b <> Err SolverError) /\
  filtered_at_all_times cfg 2 "rel_vel" (int_explicit None kw_default) 1 T (fun _ => [-1; 0]) (fun _ => [0])
    (fun _ => [0]) (fun _ => int_opt_module) /\
  (forall t, derivable_pt_lim (fun _ => -1) t 0 /\ derivable_pt_lim (fun _ => 0) t (0 / 1)).
Proof.
  intros T HT cfg. split; [do 2 eexists; split; [reflexivity|lra]|].
  split; [reflexivity|split; [reflexivity|split; [|split]]].
  - intros G a C b. unfold qp1. destruct G as [|[|w [|? ?]] [|? ?]]; try discriminate.
    destruct a as [|? [|? ?]]; try discriminate. destruct (Rltb 0 w); try discriminate.
    match goal with |- context [find ?f ?l] => destruct (find f l) as [[? ?]|] end; try discriminate.
    destruct (inconsistent1 C b); discriminate.
  - intros t _. split; [apply int_opt_in_use; lra|split; [left; reflexivity|apply int_opt_call]].
  - intros t. split; [apply derivable_pt_lim_const|]. replace (0 / 1) with 0 by field. apply derivable_pt_lim_const.
Qed.

(** ** C59.  The implicit modules look only a bounded time ahead. *)

(** Whatever the bounded control, the position is at least that of full braking. *)
Lemma braking_is_best latch k dt : 0 < dt -> (forall win, k = Implicit win -> 0 <= win) ->
  forall us p v s xs i p1 v1,
  enable s = true -> distinct_keys (constraints_now s) ->
  closed_loop (int_switching false 1 latch) (P:=unit) k dt us [p; v] s xs ->
  nth_error xs i = Some [p1; v1] ->
  p + v * (INR (S i) * dt) - (INR (S i) * dt) * (INR (S i) * dt) / 2 <= p1 /\ v - INR (S i) * dt <= v1.
Proof.
  intros Hdt Hk us. induction us as [|u us IH]; intros p v s xs i p1 v1 En Dk HL Hi;
    inversion HL as [|u0 us0 x0 s0 w s' x' xs' Hf Hp Hr]; subst; [destruct i; discriminate|].
  assert (A : exists a, w = [a] /\ -1 <= a /\ enable s' = true /\ constraints_now s' = constraints_now s).
  { assert (Hw : exists a, w = [a]).
    { cbn in Hp. destruct w as [|a [|? ?]]; try discriminate; eauto. }
    destruct Hw as [a ->]. exists a; split; auto.
    set (cfg := int_switching false 1 latch) in *.
    assert (G : gen_sized (sc_bounds cfg) (sc_gen cfg)) by apply int_gen_sized.
    assert (Bd : forall u, boxed (sc_bounds cfg) u [a] -> -1 <= a).
    { intros z Hb. destruct Hb as [L Hb]. destruct z as [|z0 [|? ?]]; try discriminate.
      pose proof (conj L Hb : boxed int_bounds [z0] [a]) as Hb'.
      apply (clip_iff_boxed int_bounds [z0] [a] int_fits) in Hb'. rewrite int_clip in Hb'. injection Hb' as <-.
      apply Rmin_glb; [apply Rmax_r|lra]. }
    destruct (call_inv cfg G k [p; v] dt u s s' [a] Hdt Hk En Dk Hf)
      as [(_ & ub & st & _ & Hb & A1 & A2 & _)|(_ & ys & _ & [(_ & Hc & A1 & A2 & _)|(_ & ub & st & _ & Hb & A1 & A2 & _)])].
    - split; [eapply Bd; eauto|split; congruence].
    - split; [|split; congruence]. cbn in Hc. injection Hc as Hc. destruct u as [|z [|? ?]]; try discriminate.
      cbn in Hc. injection Hc as <-. apply Rmin_glb; [apply Rmax_r|lra].
    - split; [eapply Bd; eauto|split; congruence]. }
  destruct A as (a & -> & Ha & En' & Ec'). cbn in Hp. injection Hp as <-.
  destruct i as [|i].
  - cbn in Hi. injection Hi as <- <-. simpl INR. split; nra.
  - cbn in Hi. assert (Dk' : distinct_keys (constraints_now s')) by (rewrite Ec'; auto).
    destruct (IH _ _ s' xs' i p1 v1 En' Dk' Hr Hi) as [H1 H2].
    rewrite S_INR in *. rewrite S_INR. pose proof (pos_INR i). set (r := INR i) in *. clearbody r.
    assert (E : a / 1 = a) by field. rewrite E in *.
    set (t := (r + 1) * dt) in *. assert (0 <= t) by (unfold t; nra).
    replace ((r + 1 + 1) * dt) with (t + dt) by (unfold t; ring). clearbody t.
    assert (0 <= (a + 1) * (dt * dt)) by (apply Rmult_le_pos; [lra|nra]).
    assert (0 <= (a + 1) * (dt * t)) by (apply Rmult_le_pos; [lra|nra]).
    split; nra.
Qed.

Lemma safe_implicit p v : safe int_implicit_constraints [p; v] <-> p <= 0.
Proof.
  split.
  - intros H.
    specialize (H "rel_vel"%string _ (or_introl eq_refl) eq_refl).
    rewrite int_pos_value in H. cbn in H; lra.
  - intros H k c [I|[]] _. injection I as <- <-.
    rewrite int_pos_value. cbn; lra.
Qed.

Lemma braking_plan latch dt : 0 < dt -> forall n p v,
  INR n * dt <= v -> p + v * (INR n * dt) <= 0 ->
  exists xs, backup_path int_bounds (sc_pred (int_switching false 1 latch)) int_gen dt n [p; v] CSNone xs /\
             Forall (safe int_implicit_constraints) xs.
Proof.
  intros Hdt. induction n as [|n IH]; intros p v Hv Hp; [exists []; split; constructor|].
  rewrite S_INR in *. pose proof (pos_INR n) as Hn.
  destruct (IH (p + v * dt + (-1) / 1 * (dt * (dt * 1)) / 2) (v + (-1) / 1 * dt)) as (xs & Hx & Hs).
  - replace (-1 / 1) with (-1) by field. nra.
  - replace (-1 / 1) with (-1) by field. nra.
  - exists ([p + v * dt + (-1) / 1 * (dt * (dt * 1)) / 2; v + (-1) / 1 * dt] :: xs); split.
    + econstructor; [|exact Hx]. exists [-1], [-1]. split; [reflexivity|split; [|reflexivity]].
      apply (clip_iff_boxed int_bounds [-1] [-1] int_fits). apply int_clip_brake.
    + constructor; auto. apply safe_implicit. replace (-1 / 1) with (-1) by field.
      assert (0 <= v * (INR n * dt)) by (apply Rmult_le_pos; nra). nra.
Qed.

(** For every window and step size there is a state at which the module sees no danger and
    accepts full braking as the desired control, but from which every run of the module, with
    any desired controls, goes past zero. *)
Theorem C59_short_window_refuted :
  forall win dt latch, 0 < dt -> 0 <= win ->
  exists p v K, p <= 0 /\
  (forall s, enable s = true -> constraints_now s = int_implicit_constraints -> ctl_now s = CSNone ->
     ~ held (int_switching false 1 latch) s ->
     exists w s', simplex_filter_control (int_switching false 1 latch) (Implicit win) (InArray [p; v]) dt [-1] s
                  = (Ok w, s') /\ intervening s' = false) /\
  (forall us s xs, enable s = true -> constraints_now s = int_implicit_constraints ->
     closed_loop (int_switching false 1 latch) (Implicit win) dt us [p; v] s xs ->
     length us = K -> exists y, In y xs /\ ~ not_past_zero y).
Proof.
  intros win dt latch Hdt Hw. destruct (window_steps_exists win dt Hdt Hw) as (N & W).
  pose proof (pos_INR N) as HN.
  set (T := INR (S N) * dt). assert (HT : T = INR N * dt + dt) by (unfold T; rewrite S_INR; ring).
  assert (PT : 0 < T) by (rewrite HT; nra).
  set (cfg := int_switching false 1 latch).
  exists (- (4 * T * T)), (4 * T), (4 * S N)%nat. split; [nra|split].
  - intros s En Ec Es Nh.
    assert (Dk : distinct_keys (constraints_now s)) by (rewrite Ec; repeat constructor; simpl; tauto).
    destruct (braking_plan latch dt Hdt (S N) (- (4 * T * T)) (4 * T)) as (xs & Hx & Hs); fold T; [lra|lra|].
    inversion Hx as [|n0 x0 c0 x1 c1 ys Hst Hre]; subst.
    destruct (int_backup_step false 1 dt _ _ _ _ Hst) as [Hp ->].
    destruct (C12_accepts_iff_foreseen_safe vec unit cfg (Implicit win) s [- (4 * T * T); 4 * T] dt [-1] (x1 :: ys))
      as [A _]; auto.
    + apply int_gen_sized.
    + exact int_fits.
    + rewrite Es; discriminate.
    + exists x1; split; [exact Hp|]. exists N, ys. split; [exact W|split; [rewrite Es; exact Hre|reflexivity]].
    + destruct A as (w & s' & Hf & _ & Hi & _); [rewrite Ec; auto|]. exists w, s'; auto.
  - intros us s xs En Ec HL Hlen.
    assert (Dk : distinct_keys (constraints_now s)) by (rewrite Ec; repeat constructor; simpl; tauto).
    assert (L : length xs = length us).
    { clear - HL. induction HL; simpl; auto. }
    destruct (nth_error xs (4 * S N - 1)) as [y|] eqn:Ey.
    2: { apply nth_error_None in Ey. lia. }
    assert (E2 : exists p1 v1, y = [p1; v1]).
    { assert (Two : forall us x s xs, closed_loop cfg (P:=unit) (Implicit win) dt us x s xs ->
            Forall (fun y : vec => exists p v, y = [p; v]) xs).
      { clear. induction 1 as [|u us x s w s' x' xs H1 H2 H3 IH]; constructor; auto.
        cbn in H2. unfold int_exact in H2. destruct x as [|p [|v [|? ?]]]; try discriminate.
        destruct w as [|a [|? ?]]; try discriminate. injection H2 as <-. eauto. }
      specialize (Two _ _ _ _ HL). rewrite Forall_forall in Two. apply Two. eapply nth_error_In; eauto. }
    destruct E2 as (p1 & v1 & ->).
    exists [p1; v1]; split; [eapply nth_error_In; eauto|].
    destruct (braking_is_best latch (Implicit win) dt Hdt) with (us := us) (p := - (4 * T * T)) (v := 4 * T) (s := s) (xs := xs)
      (i := (4 * S N - 1)%nat) (p1 := p1) (v1 := v1) as [H1 _]; auto.
    { intros w E; injection E as <-; auto. }
    replace (S (4 * S N - 1)) with (4 * S N)%nat in H1 by lia. rewrite mult_INR in H1.
    replace (INR 4 * INR (S N) * dt) with (4 * T) in H1 by (unfold T; simpl INR; ring).
    intros (p2 & v2 & E & Hp2). injection E as <- <-. nra.
Qed.
Print Assumptions C59_short_window_refuted.
(** The runs it speaks about exist (C51_switching_loop_runs), as here. *)
Example C59_case : exists xs,
  enable (int_module int_implicit_constraints) = true /\
  constraints_now (int_module int_implicit_constraints) = int_implicit_constraints /\
  ctl_now (int_module int_implicit_constraints) = CSNone /\
  ~ held (int_switching false 1 0) (int_module int_implicit_constraints) /\
  closed_loop (int_switching false 1 0) (Implicit 2) 1 (repeat [-1] 12) [-36; 12]
    (int_module int_implicit_constraints) xs /\ length xs = 12%nat.
Proof.
  destruct (C51_switching_loop_runs false 1 0 1 (Implicit 2) (repeat [-1] 12) (-36) 12 (int_module int_implicit_constraints))
    as (xs & H1 & H2); try reflexivity; try lra.
  - intros w E; injection E as <-; lra.
  - intros u Hu. apply repeat_spec in Hu; subst; auto.
  - repeat constructor; simpl; tauto.
  - exists xs. split; [reflexivity|split; [reflexivity|split; [reflexivity|split; [intros [H _]; discriminate|split; auto]]]].
Qed.

(** What does hold: as long as the speed stays below the braking capacity of the window, the
    position does not pass zero. *)
Definition always_stops (dt : R) (x : vec) : Prop :=
  exists p v, x = [p; v] /\
  forall i, (0 < i)%nat -> p + v * (INR i * dt) - (INR i * dt) * (INR i * dt) / 2 <= 0.

Lemma always_stops_step dt x x' : 0 < dt -> int_exact 1 x dt [-1] = Ok x' -> always_stops dt x ->
  not_past_zero x' /\ always_stops dt x'.
Proof.
  intros Hdt H (p & v & -> & S). cbn in H. injection H as <-. split.
  - do 2 eexists; split; [reflexivity|]. specialize (S 1%nat Nat.lt_0_1). simpl INR in S. lra.
  - do 2 eexists; split; [reflexivity|]. intros i _. specialize (S (Datatypes.S i) (Nat.lt_0_succ i)).
    rewrite S_INR in S. replace (-1 / 1) with (-1) by field. lra.
Qed.

Lemma plan_values latch dt : 0 < dt -> forall n p v xs,
  backup_path int_bounds (sc_pred (int_switching false 1 latch)) int_gen dt n [p; v] CSNone xs ->
  Forall (safe int_implicit_constraints) xs ->
  forall i, (0 < i <= n)%nat -> p + v * (INR i * dt) - (INR i * dt) * (INR i * dt) / 2 <= 0.
Proof.
  intros Hdt. induction n as [|n IH]; intros p v xs Hx Hs i Hi; [lia|].
  inversion Hx as [|n0 x0 c0 x1 c1 ys Hst Hre]; subst.
  destruct (int_backup_step false 1 dt _ _ _ _ Hst) as [Hp ->]. cbn in Hp. injection Hp as <-.
  inversion Hs as [|y ys' Hy Hys]; subst. apply safe_implicit in Hy.
  replace (-1 / 1) with (-1) in * by field.
  destruct i as [|[|i]]; [lia|simpl INR; lra|].
  specialize (IH _ _ _ Hre Hys (S i) ltac:(lia)). rewrite (S_INR (S i)). lra.
Qed.

Lemma long_window_call win dt latch N x u s w s' x' :
  window_steps win dt N -> length u = 1%nat -> within int_bounds u ->
  enable s = true -> constraints_now s = int_implicit_constraints -> ctl_now s = CSNone ->
  simplex_filter_control (P:=unit) (int_switching false 1 latch) (Implicit win) (InArray x) dt u s = (Ok w, s') ->
  int_exact 1 x dt w = Ok x' -> (forall p' v', x' = [p'; v'] -> v' <= INR N * dt) ->
  always_stops dt x ->
  not_past_zero x' /\ always_stops dt x' /\ enable s' = true /\
  constraints_now s' = int_implicit_constraints /\ ctl_now s' = CSNone.
Proof.
  intros W Lu Wu En Ec Es Hf Hp Hv A. pose proof W as (Hdt & W1 & W2).
  assert (Hwin : forall win0, Implicit win = Implicit win0 -> 0 <= win0).
  { intros win0 E; injection E as <-. apply Rle_trans with (INR N * dt); auto. apply Rmult_le_pos; [apply pos_INR|lra]. }
  set (cfg := int_switching false 1 latch) in *.
  assert (G : gen_sized (sc_bounds cfg) (sc_gen cfg)) by apply int_gen_sized.
  assert (Dk : distinct_keys (constraints_now s)) by (rewrite Ec; repeat constructor; simpl; tauto).
  assert (Bk : forall ub st, sc_gen cfg x dt (ctl_now s) = GPair ub st -> boxed (sc_bounds cfg) ub w ->
             not_past_zero x' /\ always_stops dt x' /\ st = CSNone).
  { intros ub st Hg Hb. destruct (int_backup_step false 1 dt x (ctl_now s) x' st) as [Hpp ->]; [exists ub, w; auto|].
    destruct (always_stops_step dt x x' Hdt Hpp A); auto. }
  destruct (call_inv cfg G (Implicit win) x dt u s s' w Hdt Hwin En Dk Hf)
    as [(_ & ub & st & Hg & Hb & A1 & A2 & _ & _ & A5 & _)|(_ & ys & HF & [(Sf & Hc & A1 & A2 & _ & _ & A5 & _)|(_ & ub & st & Hg & Hb & A1 & A2 & _ & _ & A5 & _)])].
  - destruct (Bk ub st Hg Hb) as (B1 & B2 & ->); split; [auto|split; [auto|split; [congruence|split; congruence]]].
  - assert (w = u).
    { assert (Q : clip int_bounds u = Ok u) by (apply clip_id; auto; rewrite Lu; exact int_fits).
      change (sc_bounds cfg) with int_bounds in Hc; congruence. }
    subst w. destruct HF as (x1 & Hp1 & n & ps & W' & Hpath & ->).
    change (sc_pred cfg) with (int_exact 1) in Hp1. rewrite Hp in Hp1; injection Hp1 as <-.
    assert (n = N) by (rewrite <- (window_steps_int _ _ _ W), <- (window_steps_int _ _ _ W'); auto); subst n.
    rewrite Es in Hpath. rewrite Ec in Sf.
    assert (E2 : exists p1 v1, x' = [p1; v1]).
    { unfold int_exact in Hp; destruct x as [|? [|? [|? ?]]]; try discriminate;
      destruct u as [|? [|? ?]]; try discriminate; injection Hp as <-; eauto. }
    destruct E2 as (p1 & v1 & ->).
    assert (P1 : p1 <= 0) by (apply (safe_implicit p1 v1), Sf; left; auto).
    specialize (Hv p1 v1 eq_refl).
    assert (PV : forall i, (0 < i <= N)%nat -> p1 + v1 * (INR i * dt) - (INR i * dt) * (INR i * dt) / 2 <= 0).
    { apply (plan_values latch dt Hdt N p1 v1 ps Hpath); apply Forall_forall; intros y Hy; apply Sf; right; auto. }
    split; [exists p1, v1; auto|split; [|split; [congruence|split; congruence]]].
    exists p1, v1; split; [auto|]. intros i Hi.
    destruct (Nat.le_gt_cases i N) as [Le|Gt]; [apply PV; lia|].
    assert (LN : p1 + v1 * (INR N * dt) - (INR N * dt) * (INR N * dt) / 2 <= 0).
    { destruct N as [|N']; [simpl; lra|apply PV; lia]. }
    assert (LI : INR N * dt <= INR i * dt) by (apply Rmult_le_compat_r; [lra|apply le_INR; lia]).
    set (a := INR N * dt) in *. set (t := INR i * dt) in *.
    assert (0 <= (t - a) * (t + a - 2 * v1)) by (apply Rmult_le_pos; lra). nra.
  - destruct (Bk ub st Hg Hb) as (B1 & B2 & ->); split; [auto|split; [auto|split; [congruence|split; congruence]]].
Qed.

Theorem C59_long_window_partial :
  forall win dt latch N, window_steps win dt N ->
  forall us p v s xs,
  (forall u, In u us -> length u = 1%nat /\ within int_bounds u) ->
  enable s = true -> constraints_now s = int_implicit_constraints -> ctl_now s = CSNone ->
  closed_loop (int_switching false 1 latch) (Implicit win) dt us [p; v] s xs ->
  (forall p' v', In [p'; v'] xs -> v' <= INR N * dt) ->
  (forall i, (0 < i)%nat -> p + v * (INR i * dt) - (INR i * dt) * (INR i * dt) / 2 <= 0) ->
  Forall (fun y : vec => not_past_zero y) xs.
Proof.
  intros win dt latch N W us p v s xs Hu En Ec Es HL Hv A.
  assert (A' : always_stops dt [p; v]) by (exists p, v; auto). clear A. revert Hu En Ec Es Hv A'.
  induction HL as [x s|u us x s w s' x' xs Hf Hp Hr IH]; intros Hu En Ec Es Hv A; [constructor|].
  destruct (Hu u (or_introl eq_refl)) as [Lu Wu].
  destruct (long_window_call win dt latch N x u s w s' x' W Lu Wu En Ec Es Hf Hp) as (K1 & K2 & K3 & K4 & K5); auto.
  { intros p' v' ->; apply (Hv p' v'); left; auto. }
  constructor; auto. apply IH; auto.
  - intros u1 Hu1; apply Hu; right; auto.
  - intros p' v' Hy; apply (Hv p' v'); right; auto.
Qed.
Print Assumptions C59_long_window_partial.
(** The initial condition holds on the explicit safe set. *)
Example C59_long_window_case :
  window_steps 2 1 2 /\ (forall i, (0 < i)%nat -> -2 + 2 * (INR i * 1) - (INR i * 1) * (INR i * 1) / 2 <= 0) /\
  2 <= INR 2 * 1.
Proof.
  split; [unfold window_steps; simpl; lra|split; [|simpl; lra]].
  intros i _. assert (0 <= (INR i - 2) * (INR i - 2)) by apply Rle_0_sqr. lra.
Qed.
