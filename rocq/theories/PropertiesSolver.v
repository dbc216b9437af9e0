(** Properties of optimisation modules under every quadratic program solver: C69. *)
From Coq Require Import String Reals List Bool ZArith Lia Lra Classical.
From Verif Require Import Prelude Vec ModelBase ModelController ModelSimplex ModelAsif
  SpecCore SpecHistory SpecAsif ProofsBase ProofsVec ProofsHistory ProofsAsif ProofsAsif2 ProofsAsif3 ProofsAsif4 ProofsAsif5
  ExampleTools ExampleQP PropertiesAsif ProofsSolver.
Import ListNotations.
Local Open Scope R_scope.

Lemma positive_list {X P} (cs : dict (constraint X P)) : positive_scales cs -> Forall (fun p => 0 < p) (scales cs).
Proof.
  intros PS. apply Forall_forall. intros p Hp.
  assert (K : exists k c, In (k, c) cs /\ c_slack c = Some p).
  { clear PS. induction cs as [|[k c] l IH]; [destruct Hp|]. cbn in Hp. destruct (c_slack c) as [q|] eqn:E.
    - destruct Hp as [<-|Hp]; [exists k, c; split; [left; reflexivity|exact E]|].
      destruct (IH Hp) as (k' & c' & I & E'). exists k', c'. split; [right; exact I|exact E'].
    - destruct (IH Hp) as (k' & c' & I & E'). exists k', c'. split; [right; exact I|exact E']. }
  destruct K as (k & c & I & E). exact (PS k c p I E).
Qed.

(** ** C69.  The filtered control does not depend on the solver. *)

(** The contract assumed of the solver can be met, by a solver that answers every program the
    modules pose: with the optimum if there is a feasible point and with the inconsistency error
    otherwise. *)
Theorem C69_exact_solver_exists :
  exists solve : qp_solver, qp_contract solve /\ (forall G a C b, solve G a C b <> Err SolverError) /\
  forall dim ps u C b, length u = dim -> Forall (fun p => 0 < p) ps ->
    let answer := solve (obj_weight dim ps) (u ++ zeros (length ps)) C b in
    ((exists z, length z = (dim + length ps)%nat /\ solves C b z) -> exists z iact, answer = Ok (z, iact)) /\
    (~ (exists z, length z = (dim + length ps)%nat /\ solves C b z) ->
       answer = Err (ValueError "constraints are inconsistent, no solution")).
Proof.
  destruct exact_solver_exists as [solve H]. exists solve. destruct (exact_contract solve H) as [QC NS].
  split; [exact QC|split; [exact NS|]]. intros dim ps u C b Lu Hp answer.
  destruct (H (obj_weight dim ps) (u ++ zeros (length ps)) C b) as [P _]. fold answer in P.
  assert (La : length (u ++ zeros (length ps)) = (dim + length ps)%nat) by (rewrite app_length, zeros_length, Lu; reflexivity).
  rewrite La in P. destruct P as [F N]; [exists dim, ps, u; repeat split; auto|].
  split; [|exact N]. intros E. destruct (F E) as (z & Ez & _). eauto.
Qed.
Print Assumptions C69_exact_solver_exists.

(** For every reachable module, state and desired control there is one answer that every solver
    meeting the contract gives if it lets the call return at all, and some such solver does give
    it: the control part of the one acceptable decision vector of least cost if there is an
    acceptable one, and otherwise the handling of infeasible programs. *)
Theorem C69_answer_independent_of_solver :
  forall (X P : Type) (cfg : asif_cfg X) n (s : amod X P unit) x dt u,
  in_use cfg n s x u -> positive_scales (asif_constraints s) ->
  let call := fun solve => explicit_asif_filter_control (with_solver solve cfg) (InArray x) dt u s in
  let cost := slack_cost (ac_dim cfg) (map sqrt (scales (asif_constraints s))) u in
  exists answer : res vec,
    (forall solve w, qp_contract solve -> fst (call solve) = Ok w -> answer = Ok w) /\
    (exists solve, qp_contract solve /\ fst (call solve) = answer) /\
    ((exists z, allowed cfg s x z) -> exists z, allowed cfg s x z /\ answer = Ok (firstn (ac_dim cfg) z) /\
       forall y, allowed cfg s x y -> y = z \/ cost z < cost y) /\
    (~ (exists z, allowed cfg s x z) -> answer = if ac_exc cfg then Err SolverError else clip (ac_bounds cfg) u).
Proof.
  intros X P cfg n s x dt u [H1 H2 H3 H4 H5 H6] PS call cost.
  set (cs := asif_constraints s) in *. set (dim := ac_dim cfg) in *.
  destruct (explicit_call cfg n s x dt u H1 H2 H3 H4 H5 H6) as (rows & consts & Enc & Nm & Hcall).
  cbv zeta in Hcall. fold cs dim in Enc, Nm, Hcall.
  set (demands := explicit_demands (ac_bounds cfg) dim (ac_f cfg) (ac_g cfg) cs (asif_directs s) x) in *.
  assert (Ns : length (scales cs) = slack_count cs) by apply scales_count.
  pose proof (positive_list cs PS) as Pp.
  assert (SO : forall v, length v = (dim + slack_count cs)%nat -> (solves rows consts v <-> allowed cfg s x v)).
  { intros v Lv; rewrite (encodes_solves _ _ _ _ Enc v Lv).
    unfold demands. rewrite demands_acceptable by (auto; unfold dim in *; lia). unfold allowed. fold cs dim. tauto. }
  set (G := obj_weight dim (scales cs)) in *. set (a := u ++ zeros (slack_count cs)) in *.
  assert (La : length a = (dim + slack_count cs)%nat) by (unfold a; rewrite app_length, zeros_length, H6; auto).
  assert (Cost : forall z, length z = (dim + slack_count cs)%nat -> objective G a z = cost z - / 2 * sumsq u).
  { intros z Lz. unfold G, a, cost. rewrite <- Ns. apply slack_cost_objective; [exact H6|rewrite Ns; exact Lz]. }
  (* what a solver that meets the contract leads to *)
  assert (Good : forall solve z iact, qp_contract solve -> solve G a rows consts = Ok (z, iact) ->
    allowed cfg s x z /\ (forall y, allowed cfg s x y -> y = z \/ cost z < cost y) /\
    fst (call solve) = Ok (firstn dim z)).
  { intros solve z iact QC E. destruct (qp_optimal _ QC _ _ _ _ _ _ E) as (Lz & Sz & Opt & Act & _). rewrite La in *.
    destruct (Hcall solve) as (C1 & _ & _).
    destruct (C1 z iact E Lz) as (w & s' & out & Hc & Hclip & _).
    { intros i Hi; destruct (Act i Hi) as (j & r & c & -> & Hr & _); exists j; split; auto.
      destruct (encodes_length _ _ _ _ Enc) as [L1 _]. rewrite <- L1; apply nth_error_Some; congruence. }
    assert (Az : allowed cfg s x z) by (apply SO; auto).
    split; [exact Az|split].
    - intros y Ay. assert (Ly : length y = (dim + slack_count cs)%nat) by apply Ay.
      destruct (Rle_lt_dec (cost y) (cost z)) as [L|L]; [left|right; exact L].
      pose proof (minimiser_unique dim (scales cs) u rows consts y z H6 Pp) as U. rewrite Ns in U. fold G a in U.
      apply U; auto; [apply SO; auto|]. rewrite !Cost by auto. lra.
    - unfold call. rewrite Hc. cbn [fst]. f_equal.
      rewrite clip_id in Hclip; [congruence| |apply Az].
      rewrite firstn_length, Lz; replace (Nat.min _ _) with dim by lia; auto. }
  assert (Bad : forall solve w, qp_contract solve -> fst (call solve) = Ok w ->
    (exists z iact, solve G a rows consts = Ok (z, iact)) \/
    solve G a rows consts = Err (ValueError msg_inconsistent) /\ ac_exc cfg = false /\ clip (ac_bounds cfg) u = Ok w).
  { intros solve w QC E. destruct (Hcall solve) as (_ & C2 & C3).
    destruct (solve G a rows consts) as [[z iact]|e] eqn:Es; [left; eauto|right].
    assert (Ei : e = ValueError msg_inconsistent \/ e <> ValueError msg_inconsistent).
    { destruct e; try (right; discriminate).
      destruct (string_dec msg msg_inconsistent); [left; subst; auto|right; congruence]. }
    destruct Ei as [->|Ne].
    - split; [reflexivity|]. specialize (C2 eq_refl). destruct (ac_exc cfg).
      + destruct C2 as (s1 & Hc & _). unfold call in E. rewrite Hc in E. discriminate.
      + split; [reflexivity|]. destruct C2 as (w1 & s1 & Hc & Hw & _). unfold call in E. rewrite Hc in E. cbn in E. congruence.
    - destruct (C3 e eq_refl Ne) as (s1 & Hc & _). unfold call in E. rewrite Hc in E. discriminate. }
  destruct C69_exact_solver_exists as (solve & QC & NS & Ans).
  specialize (Ans dim (scales cs) u rows consts H6 Pp). rewrite Ns in Ans. fold a G in Ans. cbv zeta in Ans.
  destruct Ans as [Af An].
  destruct (classic (exists z, allowed cfg s x z)) as [F|F].
  - destruct Af as (z & iact & Ez).
    { destruct F as [z Az]. exists z. split; [apply Az|apply SO; [apply Az|exact Az]]. }
    destruct (Good solve z iact QC Ez) as (Az & Uni & Ec).
    exists (Ok (firstn dim z)). split; [|split; [exists solve; auto|split; [|intros N; contradiction]]].
    + intros solve' w QC' E'. destruct (Bad solve' w QC' E') as [(z' & iact' & Ez')|(Ei & _)].
      * destruct (Good solve' z' iact' QC' Ez') as (Az' & Uni' & Ec').
        destruct (Uni z' Az') as [->|L]; [congruence|]. destruct (Uni' z Az) as [->|L']; [congruence|lra].
      * exfalso. destruct F as [y Ay]. apply (qp_inconsistent _ QC' _ _ _ _ Ei y); [rewrite La; apply Ay|].
        apply SO; [apply Ay|exact Ay].
    + intros _. exists z. auto.
  - assert (Ei : solve G a rows consts = Err (ValueError msg_inconsistent)).
    { apply An. intros (z & Lz & Sz). apply F. exists z. apply SO; auto. }
    assert (Ec : fst (call solve) = if ac_exc cfg then Err SolverError else clip (ac_bounds cfg) u).
    { destruct (Hcall solve) as (_ & C2 & _). specialize (C2 Ei). destruct (ac_exc cfg).
      - destruct C2 as (s1 & Hc & _). unfold call. rewrite Hc. reflexivity.
      - destruct C2 as (w1 & s1 & Hc & Hw & _). unfold call. rewrite Hc, Hw. reflexivity. }
    exists (if ac_exc cfg then Err SolverError else clip (ac_bounds cfg) u).
    split; [|split; [exists solve; auto|split; [intros Y; contradiction|reflexivity]]].
    intros solve' w QC' E'. destruct (Bad solve' w QC' E') as [(z & iact & Ez)|(_ & -> & Ew)]; [|exact Ew].
    exfalso. apply F. exists z. apply (Good solve' z iact QC' Ez).
Qed.
Print Assumptions C69_answer_independent_of_solver.

(** One solver meeting the contract serves all modules: with it every call returns a control,
    except that a module asked to raise on infeasible programs does so. *)
Theorem C69_some_solver_serves_all :
  exists solve, qp_contract solve /\ (forall G a C b, solve G a C b <> Err SolverError) /\
  forall (X P : Type) (cfg : asif_cfg X) n (s : amod X P unit) x dt u,
  in_use cfg n s x u -> positive_scales (asif_constraints s) ->
  let answer := fst (explicit_asif_filter_control (with_solver solve cfg) (InArray x) dt u s) in
  (exists w, answer = Ok w) \/
  (ac_exc cfg = true /\ answer = Err SolverError /\ ~ exists z, allowed cfg s x z).
Proof.
  destruct C69_exact_solver_exists as (solve & QC & NS & Ans). exists solve. split; [exact QC|split; [exact NS|]].
  intros X P cfg n s x dt u [H1 H2 H3 H4 H5 H6] PS answer.
  set (cs := asif_constraints s) in *. set (dim := ac_dim cfg) in *.
  destruct (explicit_call cfg n s x dt u H1 H2 H3 H4 H5 H6) as (rows & consts & Enc & Nm & Hcall).
  cbv zeta in Hcall. fold cs dim in Enc, Nm, Hcall.
  set (demands := explicit_demands (ac_bounds cfg) dim (ac_f cfg) (ac_g cfg) cs (asif_directs s) x) in *.
  assert (Ns : length (scales cs) = slack_count cs) by apply scales_count.
  pose proof (positive_list cs PS) as Pp.
  assert (SO : forall v, length v = (dim + slack_count cs)%nat -> (solves rows consts v <-> allowed cfg s x v)).
  { intros v Lv; rewrite (encodes_solves _ _ _ _ Enc v Lv).
    unfold demands. rewrite demands_acceptable by (auto; unfold dim in *; lia). unfold allowed. fold cs dim. tauto. }
  specialize (Ans dim (scales cs) u rows consts H6 Pp). rewrite Ns in Ans. cbv zeta in Ans.
  destruct (Hcall solve) as (C1 & C2 & C3).
  destruct Ans as [Af An].
  destruct (classic (exists z, length z = (dim + slack_count cs)%nat /\ solves rows consts z)) as [F|F].
  - left. destruct (Af F) as (z & iact & Ez). destruct (qp_optimal _ QC _ _ _ _ _ _ Ez) as (Lz & _ & _ & Act & _).
    rewrite app_length, zeros_length, H6 in Lz.
    destruct (C1 z iact Ez Lz) as (w & s' & out & Hc & _).
    { intros i Hi; destruct (Act i Hi) as (j & r & c & -> & Hr & _); exists j; split; auto.
      destruct (encodes_length _ _ _ _ Enc) as [L1 _]. rewrite <- L1; apply nth_error_Some; congruence. }
    exists w. unfold answer. rewrite Hc. reflexivity.
  - specialize (C2 (An F)). destruct (ac_exc cfg).
    + right. destruct C2 as (s1 & Hc & _). split; [reflexivity|split; [unfold answer; rewrite Hc; reflexivity|]].
      intros [z Az]. apply F. exists z. split; [apply Az|apply SO; [apply Az|exact Az]].
    + left. destruct C2 as (w1 & s1 & Hc & Hw & _). exists w1. unfold answer. rewrite Hc. reflexivity.
Qed.
Print Assumptions C69_some_solver_serves_all.
Example C69_case : in_use (line_cfg unit_box false qp1) 1 walled (1/2) [1] /\
  positive_scales (asif_constraints walled) /\ allowed (line_cfg unit_box false qp1) walled (1/2) [1/2] /\
  fst (explicit_asif_filter_control (with_solver qp1 (line_cfg unit_box false qp1)) (InArray (1/2)) 1 [1] walled) = Ok [1/2].
Proof.
  split; [apply walled_in_use|split; [|split; [apply C19_case|]]].
  - intros k c p I E. cbn in I. destruct I as [I|[]]. injection I as <- <-. discriminate.
  - destruct (walled_call false) as (s' & H & _).
    change (fst (line_call false qp1 walled (1/2) 1) = Ok [1/2]). rewrite H. reflexivity.
Qed.
