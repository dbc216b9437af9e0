(** Properties of the explicit ASIF module: C17, C19 to C27. *)
From Coq Require Import String Reals List Bool ZArith Lia Lra.
From Verif Require Import Prelude Vec ModelBase ModelController ModelSimplex ModelAsif
  SpecCore SpecHistory SpecSimplex SpecAsif ProofsBase ProofsVec ProofsHistory ProofsAsif ProofsAsif2
  ProofsAsif3 ProofsAsif4 ProofsAsif5 ExampleTools ExampleQP.
Import ListNotations.
Local Open Scope R_scope.

(** ** Fixtures for the examples: dx/dt = u on the line, |u| <= 1 and a wall at 1. *)
Definition wall (slack : option R) : constraint R unit :=
  mkConstraint (fun x _ => 1 - x) (fun x _ => 1 - x) (fun _ _ => [-1]) (Some (fun h => h)) None 0 (-1/100)
    slack sub_default tt true.
(** A second constraint: x must stay above [a]. *)
Definition ground (a : R) : constraint R unit :=
  mkConstraint (fun x _ => x - a) (fun x _ => x - a) (fun _ _ => [1]) (Some (fun h => h)) None 0 (-1/100)
    None sub_default tt true.
(** A direct inequality: u >= a. *)
Definition push (a : R) : direct R unit := mkDirect (fun _ _ => [1]) (fun _ _ => a) tt true.
Definition line_cfg (b : bounds) (exc : bool) (solve : qp_solver) : asif_cfg R :=
  mkAsifCfg b (1/100) 1 exc (fun _ => [0]) (fun _ => [[1]]) solve.
Definition line_of (b : bounds) (cs : dict (constraint R unit)) (ds : dict (direct R unit)) : amod R unit unit :=
  match asif_init (line_cfg b false qp1) cs None ds tt with
  | Ok s => s
  | Err _ => rta_init (mkCb [] [] [] [] false (mkAsif 0 [] [] [] [] [] [] [] None 0 tt))
  end.
Definition walled := line_of unit_box [("wall"%string, wall None)] [("push"%string, push (-1/2))].

Definition is_ok {A} (r : res A) : bool := match r with Ok _ => true | Err _ => false end.
(** Any history of such a module. *)
Definition line_run (b : bounds) exc solve (cs : dict (constraint R unit)) (ds : dict (direct R unit)) os :=
  asif_run (explicit_asif_filter_control (line_cfg b exc solve)) explicit_asif_reset os (line_of b cs ds).

Lemma line_reached b exc solve cs ds os : distinct_keys cs -> distinct_keys ds ->
  is_ok (asif_init (line_cfg b false qp1) cs None ds tt) = true ->
  explicit_reached (line_cfg b exc solve) (snd (line_run b exc solve cs ds os)).
Proof.
  intros D1 D2 H. exists cs, None, ds, (line_of b cs ds), os, (fst (line_run b exc solve cs ds os)).
  split; [auto|split; [auto|split]].
  - unfold line_of; destruct (asif_init (line_cfg b false qp1) cs None ds tt) eqn:E; [exact E|discriminate].
  - apply surjective_pairing.
Qed.
Ltac keys := unfold distinct_keys; simpl; repeat constructor; simpl; intuition discriminate.
Ltac line_in_use os b exc solve cs ds :=
  constructor;
  [ apply (line_reached b exc solve cs ds os); [keys|keys|reflexivity]
  | simpl; split; simpl; auto
  | constructor; simpl; auto;
    [ split; [reflexivity|repeat constructor]
    | intros k c; intuition; match goal with H : (_, _) = (_, _) |- _ => injection H as <- <- end; reflexivity
    | intros k d; intuition; match goal with H : (_, _) = (_, _) |- _ => injection H as <- <- end; reflexivity ]
  | intros k c; simpl; intuition; match goal with H : (_, _) = (_, _) |- _ => injection H as <- <- end; discriminate
  | reflexivity
  | reflexivity ].

Lemma walled_in_use exc solve x u : in_use (line_cfg unit_box exc solve) 1 walled x [u].
Proof.
  line_in_use (@nil (aop R unit)) unit_box exc solve [("wall"%string, wall None)] [("push"%string, push (-1/2))].
Qed.

Definition line_call exc solve (s : amod R unit unit) x u :=
  explicit_asif_filter_control (line_cfg unit_box exc solve) (InArray x) 1 [u] s.
(** At x = 1/2 the wall only allows speeds up to 1/2. *)
Ltac walled_qp := qp1_gives [[1]] [1] [[1]; [-1]; [-1]; [1]] [-1; -1; -1/2; -1/2] [1/2] [3%nat].
Lemma walled_call exc : exists s', line_call exc qp1 walled (1/2) 1 = (Ok [1/2], s') /\
  intervening s' = true /\ causes s' = Some ["wall"%string] /\ warnings s' = 0%nat.
Proof.
  unfold line_call; eexists; split; [|split; [|split]];
    [eval_model; walled_qp; eval_model; reflexivity|..]; reflexivity.
Qed.

(** ** C19.  The program that a call hands to the solver: whatever answer the solver gives to
    this program is what decides the outcome (an error is passed on, a solution is cut to the
    control and clipped), and its inequalities hold exactly for the acceptable decision
    vectors. *)
Theorem C19_program_encodes :
  forall (X P : Type) (cfg : asif_cfg X) n (s : amod X P unit) x dt u,
  in_use cfg n s x u ->
  exists G a rows consts,
    (forall z, length z = (ac_dim cfg + slack_count (asif_constraints s))%nat ->
       (solves rows consts z <-> allowed cfg s x z)) /\
    (forall solve e, solve G a rows consts = Err e -> e <> ValueError "constraints are inconsistent, no solution" ->
       fst (explicit_asif_filter_control (with_solver solve cfg) (InArray x) dt u s) = Err e) /\
    (forall solve z, solve G a rows consts = Ok (z, []) ->
       length z = (ac_dim cfg + slack_count (asif_constraints s))%nat ->
       fst (explicit_asif_filter_control (with_solver solve cfg) (InArray x) dt u s) =
       clip (ac_bounds cfg) (firstn (ac_dim cfg) z)).
Proof.
  intros X P cfg n s x dt u [H1 H2 H3 H4 H5 H6].
  destruct (explicit_call cfg n s x dt u H1 H2 H3 H4 H5 H6) as (rows & consts & Enc & Nm & Hc).
  cbv zeta in Hc. do 2 eexists; exists rows, consts; split; [|split].
  - intros z Lz; rewrite (encodes_solves _ _ _ _ Enc z Lz).
    rewrite demands_acceptable by (auto; lia). unfold allowed; tauto.
  - intros solve e He Ne; destruct (Hc solve) as (_ & _ & C3).
    destruct (C3 e He Ne) as (s' & E & _); rewrite E; auto.
  - intros solve z Hz Lz; destruct (Hc solve) as (C1 & _ & _).
    destruct (C1 z [] Hz Lz) as (w & s' & out & E & Hw & _); [intros i []|].
    rewrite E, Hw; auto.
Qed.
Print Assumptions C19_program_encodes.
Example C19_case : in_use (line_cfg unit_box false qp1) 1 walled (1/2) [1] /\
  allowed (line_cfg unit_box false qp1) walled (1/2) [1/2] /\
  ~ allowed (line_cfg unit_box false qp1) walled (1/2) [3/4].
Proof.
  split; [apply walled_in_use|]. unfold allowed; rewrite !acceptable_parts; split.
  - split; [reflexivity|]. split; [|split].
    + split; intros [|[|i]] y b Hy Hb; simpl in *; try discriminate; injection Hy as <-; injection Hb as <-; lra.
    + unfold bar_ok, plain_margin, strength; simpl; destruct (Rlt_dec _ _); split; auto; intros; lra.
    + intros k d [E|[]]; injection E as <- <-; simpl; intros; lra.
  - intros (_ & _ & H & _); unfold bar_ok, plain_margin, strength in H; simpl in H.
    destruct H as [H _]; specialize (H eq_refl); destruct (Rlt_dec _ _); lra.
Qed.

(** ** C20.  When a call returns without the infeasibility warning, the returned control meets
    the bounds, the barrier condition of every enabled constraint without slack, and every
    enabled direct inequality. *)
Theorem C20_returned_control_meets_barriers :
  forall (X P : Type) (cfg : asif_cfg X) n (s : amod X P unit) x dt u w s',
  qp_contract (ac_solve cfg) -> in_use cfg n s x u ->
  explicit_asif_filter_control cfg (InArray x) dt u s = (Ok w, s') -> warnings s' = warnings s ->
  length w = ac_dim cfg /\ within (ac_bounds cfg) w /\
  (forall k c, In (k, c) (asif_constraints s) -> c_enabled c = true -> c_slack c = None ->
     0 <= dot (c_grad c x (c_params c)) (vadd (ac_f cfg x) (mv (ac_g cfg x) w))
          + strength c (c_fun c x (c_params c) + c_bias c)) /\
  (forall k d, In (k, d) (asif_directs s) -> d_enabled d = true ->
     d_constant d x (d_params d) <= dot (d_weight d x (d_params d)) w).
Proof.
  intros X P cfg n s x dt u w s' QC [H1 H2 H3 H4 H5 H6] Hc Hw.
  destruct (explicit_solved cfg n s x dt u w s' QC H1 H2 H3 H4 H5 H6 (or_introl Hw) Hc)
    as (z & iact & out & Lz & Oz & -> & _).
  split; [rewrite firstn_length; lia|split; [apply Oz|split]].
  - intros k c Hin He Hs; apply in_split in Hin; destruct Hin as (pre & post & E).
    destruct Oz as (_ & Ob & _); specialize (Ob pre k c post E He).
    unfold barrier_margin, slack_value in Ob; rewrite Hs in Ob; lra.
  - intros k d Hd He; apply Oz with (k := k); auto.
Qed.
Print Assumptions C20_returned_control_meets_barriers.
Example C20_case : qp_contract qp1 /\ in_use (line_cfg unit_box false qp1) 1 walled (1/2) [1] /\
  exists s', line_call false qp1 walled (1/2) 1 = (Ok [1/2], s') /\ warnings s' = warnings walled.
Proof.
  split; [apply qp1_contract|split; [apply walled_in_use|]].
  destruct (walled_call false) as (s' & H & _ & _ & Hw); exists s'; auto.
Qed.

(** ** C21.  Without slack variables the returned control is the unique closest one, and an
    acceptable desired control is returned unchanged without intervention. *)
Theorem C21_minimally_invasive :
  forall (X P : Type) (cfg : asif_cfg X) n (s : amod X P unit) x dt u w s' v,
  qp_contract (ac_solve cfg) -> in_use cfg n s x u -> slack_count (asif_constraints s) = 0%nat ->
  explicit_asif_filter_control cfg (InArray x) dt u s = (Ok w, s') ->
  allowed cfg s x v ->
  allowed cfg s x w /\ (v = w \/ dist2 u w < dist2 u v).
Proof.
  intros X P cfg n s x dt u w s' v QC [H1 H2 H3 H4 H5 H6] Hn Hc [Lv Hv].
  destruct (explicit_solved cfg n s x dt u w s' QC H1 H2 H3 H4 H5 H6 (or_intror (ex_intro _ v (conj Lv Hv))) Hc)
    as (z & iact & out & Lz & Oz & Ew & Opt & Uni & _).
  assert (E : firstn (ac_dim cfg) z = z) by (apply firstn_all2; lia). rewrite E in Ew; subst z.
  split; [split; auto|].
  assert (E0 : scales (asif_constraints s) = []).
  { rewrite <- scales_count in Hn; destruct (scales _); auto; discriminate. }
  destruct (Rle_lt_dec (dist2 u v) (dist2 u w)) as [Le|Lt]; [left|right; auto].
  apply Uni; auto; [rewrite E0; constructor|].
  rewrite Hn, Nat.add_0_r in *.
  rewrite !objective_value by (rewrite ?E0; simpl; auto; lia). rewrite E0; simpl.
  rewrite !firstn_all2 by lia; lra.
Qed.
Print Assumptions C21_minimally_invasive.

Theorem C21_acceptable_unchanged :
  forall (X P : Type) (cfg : asif_cfg X) n (s : amod X P unit) x dt u w s',
  qp_contract (ac_solve cfg) -> in_use cfg n s x u -> slack_count (asif_constraints s) = 0%nat ->
  0 <= ac_eps cfg ->
  explicit_asif_filter_control cfg (InArray x) dt u s = (Ok w, s') ->
  allowed cfg s x u ->
  w = u /\ intervening s' = false.
Proof.
  intros X P cfg n s x dt u w s' QC U Hn He Hc Hu.
  destruct (C21_minimally_invasive X P cfg n s x dt u w s' u QC U Hn Hc Hu) as [_ [E|E]].
  - subst w; split; auto. destruct U as [H1 H2 H3 H4 H5 H6], Hu as [Lu Hu].
    destruct (explicit_solved cfg n s x dt u u s' QC H1 H2 H3 H4 H5 H6 (or_intror (ex_intro _ u (conj Lu Hu))) Hc)
      as (z & iact & out & _ & _ & _ & _ & _ & Hi & _).
    rewrite Hi, dist2_refl, sqrt_0; apply Rltb_false; auto.
  - exfalso; rewrite dist2_refl in E; pose proof (dist2_nonneg u w); lra.
Qed.
Print Assumptions C21_acceptable_unchanged.
Example C21_case : slack_count (asif_constraints walled) = 0%nat /\
  (exists s', line_call false qp1 walled (1/2) 1 = (Ok [1/2], s')) /\
  allowed (line_cfg unit_box false qp1) walled (1/2) [1/2].
Proof.
  split; [reflexivity|split; [|apply C19_case]].
  destruct (walled_call false) as (s' & H & _); exists s'; auto.
Qed.

(** ** C22.  What is minimised: half the squared distance plus half the squared slacks,
    weighted with the square roots of the priority scales. *)
Theorem C22_minimised_cost_partial :
  forall (X P : Type) (cfg : asif_cfg X) n (s : amod X P unit) x dt u w s',
  qp_contract (ac_solve cfg) -> in_use cfg n s x u ->
  explicit_asif_filter_control cfg (InArray x) dt u s = (Ok w, s') -> warnings s' = warnings s ->
  let cost := slack_cost (ac_dim cfg) (map sqrt (scales (asif_constraints s))) u in
  exists z, allowed cfg s x z /\ w = firstn (ac_dim cfg) z /\
    (forall v, allowed cfg s x v -> cost z <= cost v) /\
    (positive_scales (asif_constraints s) -> forall v, allowed cfg s x v -> v <> z -> cost z < cost v).
Proof.
  intros X P cfg n s x dt u w s' QC [H1 H2 H3 H4 H5 H6] Hc Hw cost.
  destruct (explicit_solved cfg n s x dt u w s' QC H1 H2 H3 H4 H5 H6 (or_introl Hw) Hc)
    as (z & iact & out & Lz & Oz & Ew & Opt & Uni & _).
  assert (E : forall v, length v = (ac_dim cfg + slack_count (asif_constraints s))%nat ->
    objective (obj_weight (ac_dim cfg) (scales (asif_constraints s)))
      (u ++ zeros (length (scales (asif_constraints s)))) v = cost v - / 2 * sumsq u).
  { intros v Lv; apply slack_cost_objective; auto; rewrite scales_count; auto. }
  exists z; split; [split; auto|split; [auto|split]].
  - intros v [Lv Ov]; specialize (Opt v Lv Ov); rewrite !E in Opt by auto; lra.
  - intros Hp v [Lv Ov] Ne; apply Rnot_le_lt; intros Le; apply Ne.
    apply Uni; auto; [apply positive_scales_forall; auto|]. rewrite !E by auto; lra.
Qed.
Print Assumptions C22_minimised_cost_partial.

(** The documented weight is the scale itself (docs/RTA/asif.md 41, and the discrete module).
    With scale 4 the explicit module returns a control that is not optimal for it: another
    decision vector is strictly better than the returned control with any slack values. *)
Definition soft_solver : qp_solver :=
  qp_knowing (obj_weight 1 [4]) [1; 0] [[-1; -1]] [0] [1/3; -1/3] [1%nat].
Lemma sqrt_4 : sqrt 4 = 2.
Proof. replace 4 with (2 * 2) by ring; apply sqrt_square; lra. Qed.
Lemma soft_contract : qp_contract soft_solver.
Proof.
  apply qp_knowing_contract.
  - reflexivity.
  - repeat constructor; simpl; lra.
  - intros i [<-|[]]; exists 0%nat, [-1; -1], 0; repeat split; simpl; lra.
  - intros y Ly Hy. change [1; 0] with ([1] ++ zeros (length [4])).
    rewrite !slack_cost_objective by (auto; simpl in *; lia).
    specialize (Hy 0%nat [-1; -1] 0 (or_introl eq_refl) eq_refl eq_refl).
    destruct y as [|a [|d [|? ?]]]; try discriminate; simpl in Hy.
    unfold slack_cost; simpl; rewrite sqrt_4.
    pose proof (Rle_0_sqr (a - 1/3)); pose proof (Rle_0_sqr (d + 1/3)); unfold Rsqr in *; nra.
Qed.
Definition soft := line_of free [("wall"%string, wall (Some 4))] [].
Lemma soft_in_use : in_use (line_cfg free false soft_solver) 1 soft 1 [1].
Proof.
  line_in_use (@nil (aop R unit)) free false soft_solver [("wall"%string, wall (Some 4))] (@nil (string * direct R unit)).
Qed.
Lemma soft_call : exists s', explicit_asif_filter_control (line_cfg free false soft_solver) (InArray 1) 1 [1] soft
    = (Ok [1/3], s') /\ warnings s' = warnings soft.
Proof.
  eexists; split; [unfold soft_solver; eval_model|].
  - match goal with |- context [qp_knowing ?G ?a ?C ?b ?z ?i ?G' ?a' ?C' ?b'] =>
      replace G' with G by list_lra; replace a' with a by list_lra;
      replace C' with C by list_lra; replace b' with b by list_lra end.
    rewrite qp_knowing_hit; eval_model; reflexivity.
  - reflexivity.
Qed.

Theorem C22_documented_weight_refuted :
  exists (cfg : asif_cfg R) (s : amod R unit unit) x dt u w s' v,
    qp_contract (ac_solve cfg) /\ in_use cfg 1 s x u /\ positive_scales (asif_constraints s) /\
    explicit_asif_filter_control cfg (InArray x) dt u s = (Ok w, s') /\ warnings s' = warnings s /\
    allowed cfg s x v /\
    forall z, allowed cfg s x z -> firstn (ac_dim cfg) z = w ->
      slack_cost (ac_dim cfg) (scales (asif_constraints s)) u v
      < slack_cost (ac_dim cfg) (scales (asif_constraints s)) u z.
Proof.
  destruct soft_call as (s' & Hc & Hw).
  exists (line_cfg free false soft_solver), soft, 1, 1, [1], [1/3], s', [1/5; -1/5].
  split; [apply soft_contract|split; [apply soft_in_use|split; [|split; [auto|split; [auto|split]]]]].
  - intros k c p [E|[]] Hs; injection E as <- <-; injection Hs as <-; lra.
  - split; [reflexivity|]. apply acceptable_parts; split; [|split].
    + split; intros i y b Hy Hb; discriminate.
    + unfold bar_ok, plain_margin, strength; simpl; destruct (Rlt_dec _ _); split; auto; intros; lra.
    + intros k d [].
  - intros z [Lz Oz] Ez; apply acceptable_parts in Oz; destruct Oz as (_ & Oz & _).
    rewrite Ez in Oz. destruct z as [|a [|d [|? ?]]]; try discriminate.
    simpl in Ez; injection Ez as ->.
    unfold bar_ok, plain_margin, strength in Oz; simpl in Oz.
    destruct Oz as [Oz _]; specialize (Oz eq_refl).
    assert (d <= -1/3) by (destruct (Rlt_dec _ _); lra).
    unfold slack_cost; simpl. nra.
Qed.
Print Assumptions C22_documented_weight_refuted.

(** ** C23.  The intervening flag.  For any solver: when it returns a solution, the flag says
    whether its control part is further than epsilon from the desired control; without a
    solution the control is the desired one, at distance zero.  *)
Theorem C23_intervening_iff_far :
  forall (X P : Type) (cfg : asif_cfg X) n (s : amod X P unit) x dt u w s',
  qp_contract (ac_solve cfg) -> in_use cfg n s x u ->
  explicit_asif_filter_control cfg (InArray x) dt u s = (Ok w, s') ->
  (warnings s' = warnings s -> (intervening s' = true <-> ac_eps cfg < sqrt (dist2 u w))) /\
  (warnings s' <> warnings s -> (intervening s' = true <-> ac_eps cfg < 0)).
Proof.
  intros X P cfg n s x dt u w s' QC [H1 H2 H3 H4 H5 H6] Hc; split; intros Hw.
  - destruct (explicit_solved cfg n s x dt u w s' QC H1 H2 H3 H4 H5 H6 (or_introl Hw) Hc)
      as (z & iact & out & _ & _ & _ & _ & _ & Hi & _).
    rewrite Hi; apply Rltb_true.
  - destruct (explicit_outcomes cfg n s x dt u w s' QC H1 H2 H3 H4 H5 H6 Hc) as [E|(_ & _ & _ & Hi & _)];
      [contradiction|]. rewrite Hi; apply Rltb_true.
Qed.
Print Assumptions C23_intervening_iff_far.

(** The same for a solver without any contract: only the flag is looked at. *)
Theorem C23_any_solver :
  forall (X P : Type) (cfg : asif_cfg X) n (s : amod X P unit) x dt u,
  in_use cfg n s x u ->
  exists G a rows consts, forall solve z,
    solve G a rows consts = Ok (z, []) ->
    length z = (ac_dim cfg + slack_count (asif_constraints s))%nat ->
    intervening (snd (explicit_asif_filter_control (with_solver solve cfg) (InArray x) dt u s)) = true <->
    ac_eps cfg < sqrt (dist2 u (firstn (ac_dim cfg) z)).
Proof.
  intros X P cfg n s x dt u [H1 H2 H3 H4 H5 H6].
  destruct (explicit_call cfg n s x dt u H1 H2 H3 H4 H5 H6) as (rows & consts & Enc & Nm & Hc).
  cbv zeta in Hc. do 2 eexists; exists rows, consts; intros solve z Hz Lz.
  destruct (Hc solve) as (C1 & _ & _).
  destruct (C1 z [] Hz Lz) as (w & s' & out & E & Hw & Hi & _); [intros i []|].
  rewrite E; simpl snd; rewrite Hi; apply Rltb_true.
Qed.
Print Assumptions C23_any_solver.
Example C23_case : exists s', line_call false qp1 walled (1/2) 1 = (Ok [1/2], s') /\
  warnings s' = warnings walled /\ intervening s' = true /\ 1/100 < sqrt (dist2 [1] [1/2]).
Proof.
  destruct (walled_call false) as (s' & H & Hi & _ & Hw); exists s'; split; [auto|split; [auto|split; [auto|]]].
  apply Rltb_true, Rltb_sqrt_true; simpl; lra.
Qed.

(** ** C24.  Solver failure, for every solver: there is one program (the one of C19) such that
    - if the solver calls it inconsistent, a module configured with solver_exception raises
      SolverError, and otherwise issues one warning and returns the clipped desired control
      with intervening False (for epsilon not negative) and the earlier causes;
    - any other exception of the solver is passed on. *)
Theorem C24_infeasible_handling :
  forall (X P : Type) (cfg : asif_cfg X) n (s : amod X P unit) x dt u,
  in_use cfg n s x u -> 0 <= ac_eps cfg ->
  exists G a rows consts,
    (forall z, length z = (ac_dim cfg + slack_count (asif_constraints s))%nat ->
       (solves rows consts z <-> allowed cfg s x z)) /\
    (forall solve, solve G a rows consts = Err (ValueError "constraints are inconsistent, no solution") ->
       let call := explicit_asif_filter_control (with_solver solve cfg) (InArray x) dt u s in
       if ac_exc cfg then fst call = Err SolverError /\ warnings (snd call) = warnings s
       else fst call = clip (ac_bounds cfg) u /\ intervening (snd call) = false /\
            warnings (snd call) = S (warnings s)) /\
    (forall solve e, solve G a rows consts = Err e -> e <> ValueError "constraints are inconsistent, no solution" ->
       fst (explicit_asif_filter_control (with_solver solve cfg) (InArray x) dt u s) = Err e).
Proof.
  intros X P cfg n s x dt u [H1 H2 H3 H4 H5 H6] He.
  destruct (explicit_call cfg n s x dt u H1 H2 H3 H4 H5 H6) as (rows & consts & Enc & Nm & Hc).
  cbv zeta in Hc. do 2 eexists; exists rows, consts; split; [|split].
  - intros z Lz; rewrite (encodes_solves _ _ _ _ Enc z Lz).
    rewrite demands_acceptable by (auto; lia). unfold allowed; tauto.
  - intros solve Hs; cbv zeta; destruct (Hc solve) as (_ & C2 & _); specialize (C2 Hs).
    destruct (ac_exc cfg).
    + destruct C2 as (s' & E & Hw & _); rewrite E; auto.
    + destruct C2 as (w & s' & E & Hcl & Hi & _ & Hw); rewrite E; simpl fst; simpl snd.
      split; [auto|split; [rewrite Hi; apply Rltb_false; auto|auto]].
  - intros solve e Hs Ne; destruct (Hc solve) as (_ & _ & C3).
    destruct (C3 e Hs Ne) as (s' & E & _); rewrite E; auto.
Qed.
Print Assumptions C24_infeasible_handling.

(** With a solver that keeps its contract a warning means that nothing was acceptable. *)
Theorem C24_warning_means_infeasible :
  forall (X P : Type) (cfg : asif_cfg X) n (s : amod X P unit) x dt u w s',
  qp_contract (ac_solve cfg) -> in_use cfg n s x u ->
  explicit_asif_filter_control cfg (InArray x) dt u s = (Ok w, s') ->
  warnings s' = warnings s \/
  (ac_exc cfg = false /\ clip (ac_bounds cfg) u = Ok w /\ forall z, ~ allowed cfg s x z).
Proof.
  intros X P cfg n s x dt u w s' QC [H1 H2 H3 H4 H5 H6] Hc.
  destruct (explicit_outcomes cfg n s x dt u w s' QC H1 H2 H3 H4 H5 H6 Hc) as [E|(_ & Hx & Hcl & _ & _ & Hn)]; auto.
  right; split; [auto|split; [auto|]]. intros z [Lz Oz]; apply (Hn z); auto.
Qed.
Print Assumptions C24_warning_means_infeasible.

(** And a module whose program has a solution neither raises SolverError nor warns. *)
Theorem C24_feasible_call :
  forall (X P : Type) (cfg : asif_cfg X) n (s : amod X P unit) x dt u z,
  qp_contract (ac_solve cfg) -> (forall G a C b, ac_solve cfg G a C b <> Err SolverError) ->
  in_use cfg n s x u -> allowed cfg s x z ->
  fst (explicit_asif_filter_control cfg (InArray x) dt u s) <> Err SolverError /\
  warnings (snd (explicit_asif_filter_control cfg (InArray x) dt u s)) = warnings s.
Proof.
  intros X P cfg n s x dt u z QC NS U A.
  pose proof U as [H1 H2 H3 H4 H5 H6].
  pose proof A as [Lz Oz].
  destruct (explicit_call cfg n s x dt u H1 H2 H3 H4 H5 H6) as (rows & consts & Enc & Nm & Hc).
  specialize (Hc (ac_solve cfg)); rewrite with_solver_same in Hc; cbv zeta in Hc; destruct Hc as (C1 & C2 & C3).
  destruct (ac_solve cfg (obj_weight (ac_dim cfg) (scales (asif_constraints s)))
              (u ++ zeros (slack_count (asif_constraints s))) rows consts) as [[y iact]|e] eqn:Es.
  - destruct (qp_optimal _ QC _ _ _ _ _ _ Es) as (Ly & _ & _ & Act & _).
    rewrite app_length, zeros_length, H6 in Ly.
    destruct (C1 y iact eq_refl Ly) as (w1 & s1 & out & Hc1 & _ & _ & _ & _ & Hwa).
    { intros i Hi; destruct (Act i Hi) as (j & r & c & -> & Hr & _); exists j; split; auto.
      destruct (encodes_length _ _ _ _ Enc) as [L1 _].
      rewrite <- L1; apply nth_error_Some; congruence. }
    rewrite Hc1; split; [discriminate|auto].
  - assert (Ne : e <> ValueError msg_inconsistent).
    { intros ->; apply (qp_inconsistent _ QC _ _ _ _ Es z).
      - rewrite app_length, zeros_length; congruence.
      - apply (encodes_solves _ _ _ _ Enc z Lz), demands_acceptable; auto; lia. }
    destruct (C3 e eq_refl Ne) as (s1 & Hc1 & Hw1 & _); rewrite Hc1; split; [|auto].
    intros E; injection E as ->; apply (NS _ _ _ _ Es).
Qed.
Print Assumptions C24_feasible_call.

(** Non-vacuity, and material for C25: a module between a wall and the ground.  One call is
    stopped by the wall; then the wall is disabled, and at x = -10 the program is infeasible
    (it asks for u >= 100.01).  *)
Definition cell_constraints : dict (constraint R unit) :=
  [("wall"%string, wall None); ("ground"%string, ground 0)].
Definition cell_ops : list (aop R unit) :=
  [ABase (OFilter (InArray (1/2)) 1 [1]); ABase (OSetEnabled "wall" false)].
Lemma cell_state exc : exists s, snd (line_run unit_box exc qp1 cell_constraints [] cell_ops) = s /\
  in_use (line_cfg unit_box exc qp1) 1 s (-10) [2] /\
  causes s = Some ["wall"%string] /\ warnings s = 0%nat /\
  asif_constraints s = [("wall"%string, set_c_enabled false (wall None)); ("ground"%string, ground 0)] /\
  exists s', line_call exc qp1 s (-10) 2 = (if exc then Err SolverError else Ok [1], s') /\
    intervening s' = (if exc then true else false) /\
    causes s' = Some ["wall"%string] /\ warnings s' = if exc then 0%nat else 1%nat.
Proof.
  assert (E : exists s, snd (line_run unit_box exc qp1 cell_constraints [] cell_ops) = s /\
     causes s = Some ["wall"%string] /\ warnings s = 0%nat /\ enable s = true /\ asif_directs s = [] /\
     asif_constraints s = [("wall"%string, set_c_enabled false (wall None)); ("ground"%string, ground 0)] /\
     exists s', line_call exc qp1 s (-10) 2 = (if exc then Err SolverError else Ok [1], s') /\
    intervening s' = (if exc then true else false) /\
    causes s' = Some ["wall"%string] /\ warnings s' = if exc then 0%nat else 1%nat).
  { eexists; split; [eval_model; qp1_gives [[1]] [1] [[1]; [-1]; [-1]; [1]] [-1; -1; -1/2; -1/2] [1/2] [3%nat];
      eval_model; reflexivity|].
    split; [reflexivity|split; [reflexivity|split; [reflexivity|split; [reflexivity|split; [reflexivity|]]]]].
    destruct exc; (eexists; split; [unfold line_call; eval_model;
      qp1_fails [[1]] [2] [[1]; [-1]; [0]; [1]] [-1; -1; 0; 100 + 1/100]; eval_model; reflexivity|]);
    (split; [reflexivity|split; reflexivity]). }
  destruct E as (s & E & H1 & H2 & H3 & H4 & H5 & H6); exists s; split; [auto|split; [|auto]].
  constructor.
  - rewrite <- E; apply line_reached; [keys|keys|reflexivity].
  - split; simpl; auto.
  - constructor; rewrite ?H4, ?H5; simpl; auto.
    + split; [reflexivity|repeat constructor].
    + intros k c [K|[K|[]]]; injection K as <- <-; reflexivity.
    + intros k d [].
  - rewrite H5; intros k c [K|[K|[]]]; injection K as <- <-; discriminate.
  - auto.
  - reflexivity.
Qed.
Example C24_case exc : exists s s', in_use (line_cfg unit_box exc qp1) 1 s (-10) [2] /\
  line_call exc qp1 s (-10) 2 = (if exc then Err SolverError else Ok [1], s').
Proof.
  destruct (cell_state exc) as (s & _ & U & _ & _ & _ & s' & H & _); exists s, s'; auto.
Qed.

(** ** C25.  The causes after a call that solved its program: no repetitions; each is the name
    of a requirement that holds with equality at the solution, of which the returned control
    is the first part; and if there are none the desired control was returned.  (After an
    infeasible call they are not updated: see the refutation below.) *)
Theorem C25_causes_of_solved_call_partial :
  forall (X P : Type) (cfg : asif_cfg X) n (s : amod X P unit) x dt u w s',
  qp_contract (ac_solve cfg) -> in_use cfg n s x u ->
  explicit_asif_filter_control cfg (InArray x) dt u s = (Ok w, s') -> warnings s' = warnings s ->
  exists out z, causes s' = Some out /\ NoDup out /\
    allowed cfg s x z /\ w = firstn (ac_dim cfg) z /\
    (forall k, In k out -> exists d,
       In d (explicit_demands (ac_bounds cfg) (ac_dim cfg) (ac_f cfg) (ac_g cfg)
               (asif_constraints s) (asif_directs s) x) /\ dm_name d = k /\ dm_margin d z = 0) /\
    (positive_scales (asif_constraints s) -> out = [] -> w = u).
Proof.
  intros X P cfg n s x dt u w s' QC [H1 H2 H3 H4 H5 H6] Hc Hw.
  destruct (explicit_solved cfg n s x dt u w s' QC H1 H2 H3 H4 H5 H6 (or_introl Hw) Hc)
    as (z & iact & out & Lz & Oz & Ez & Opt & Uni & Hi & Hca & _ & ND & Hin & Tight & KKT).
  exists out, z; split; [auto|split; [auto|split; [split; auto|split; [auto|split]]]].
  - intros k Hk; apply Hin in Hk; destruct Hk as (j & d & Hj & Hd & <-).
    exists d; split; [eapply nth_error_In; eauto|split; [auto|eapply Tight; eauto]].
  - intros Hp ->; eapply explicit_no_cause; eauto. apply positive_scales_forall; auto.
Qed.
Print Assumptions C25_causes_of_solved_call_partial.
Example C25_case : exists s', line_call false qp1 walled (1/2) 1 = (Ok [1/2], s') /\
  warnings s' = warnings walled /\ causes s' = Some ["wall"%string].
Proof. destruct (walled_call false) as (s' & H & _ & Hi & Hw); exists s'; auto. Qed.

(** The full property fails: an infeasible call returns a control, but the reported causes are
    those of an earlier call; here they name a constraint that is disabled by now. *)
Theorem C25_stale_causes_refuted :
  exists (cfg : asif_cfg R) (s : amod R unit unit) x dt u w s' c,
    qp_contract (ac_solve cfg) /\ in_use cfg 1 s x u /\
    explicit_asif_filter_control cfg (InArray x) dt u s = (Ok w, s') /\
    In ("wall"%string, c) (asif_constraints s) /\ c_enabled c = false /\
    causes s' = Some ["wall"%string] /\ forall z, ~ allowed cfg s x z.
Proof.
  destruct (cell_state false) as (s & _ & U & Hc & Hw & Hcs & s' & H & _ & Hc' & Hw').
  exists (line_cfg unit_box false qp1), s, (-10), 1, [2], [1], s', (set_c_enabled false (wall None)).
  split; [apply qp1_contract|split; [auto|split; [exact H|split; [rewrite Hcs; simpl; auto|]]]].
  split; [reflexivity|split; [auto|]].
  destruct (C24_warning_means_infeasible _ _ (line_cfg unit_box false qp1) _ _ _ _ _ _ _ qp1_contract U H) as [E|(_ & _ & E)]; auto.
  rewrite Hw, Hw' in E; discriminate.
Qed.
Print Assumptions C25_stale_causes_refuted.

(** ** C26 (explicit).  Entry i of constraint_names names row i: there is a program (decisive
    for the call as in C19) whose rows are, one by one, the requirements, with their names. *)
Theorem C26_explicit_names :
  forall (X P : Type) (cfg : asif_cfg X) n (s : amod X P unit) x dt u,
  in_use cfg n s x u ->
  let demands := explicit_demands (ac_bounds cfg) (ac_dim cfg) (ac_f cfg) (ac_g cfg)
                   (asif_constraints s) (asif_directs s) x in
  exists G a rows consts,
    (forall solve e, solve G a rows consts = Err e -> e <> ValueError "constraints are inconsistent, no solution" ->
       fst (explicit_asif_filter_control (with_solver solve cfg) (InArray x) dt u s) = Err e) /\
    length rows = length demands /\ length consts = length demands /\
    length (as_names (get_asif s)) = length demands /\
    forall i d, nth_error demands i = Some d ->
      nth_error (as_names (get_asif s)) i = Some (dm_name d) /\
      exists r c, nth_error rows i = Some r /\ nth_error consts i = Some c /\
        forall z, length z = (ac_dim cfg + slack_count (asif_constraints s))%nat -> dot r z - c = dm_margin d z.
Proof.
  intros X P cfg n s x dt u [H1 H2 H3 H4 H5 H6] demands.
  destruct (explicit_call cfg n s x dt u H1 H2 H3 H4 H5 H6) as (rows & consts & Enc & Nm & Hc).
  cbv zeta in Hc. do 2 eexists; exists rows, consts; split; [|split; [|split; [|split]]].
  - intros solve e Hs Ne; destruct (Hc solve) as (_ & _ & C3).
    destruct (C3 e Hs Ne) as (s' & E & _); rewrite E; auto.
  - apply (encodes_length _ _ _ _ Enc).
  - apply (encodes_length _ _ _ _ Enc).
  - rewrite Nm, map_length; auto.
  - intros i d Hd; split.
    + rewrite Nm. apply map_nth_error; auto.
    + destruct (encodes_nth' _ _ _ _ Enc i d Hd) as (r & c & Hr & Hcc & Hm); eauto.
Qed.
Print Assumptions C26_explicit_names.
Example C26_case : map dm_name (explicit_demands unit_box 1 (fun _ => [0]) (fun _ => [[1]])
    (asif_constraints walled) (asif_directs walled) (1/2))
  = ["u1_min"%string; "u1_max"%string; "wall"%string; "push"%string].
Proof. reflexivity. Qed.

(** ** C27.  Slack on every constraint. *)
Theorem C27_slack_always_solvable :
  forall (X P : Type) (cfg : asif_cfg X) n (s : amod X P unit) x dt u,
  qp_contract (ac_solve cfg) -> (forall G a C b, ac_solve cfg G a C b <> Err SolverError) ->
  in_use cfg n s x u -> consistent (ac_bounds cfg) ->
  (forall k c, In (k, c) (asif_constraints s) -> c_slack c <> None) -> asif_directs s = [] ->
  (exists z, allowed cfg s x z) /\
  fst (explicit_asif_filter_control cfg (InArray x) dt u s) <> Err SolverError /\
  warnings (snd (explicit_asif_filter_control cfg (InArray x) dt u s)) = warnings s.
Proof.
  intros X P cfg n s x dt u QC NS U C Hs Hd.
  pose proof U as [H1 H2 H3 H4 H5 H6].
  destruct (slack_feasible (ac_bounds cfg) (ac_dim cfg) (ac_f cfg) (ac_g cfg) (asif_constraints s) x H2 C Hs)
    as (z & Lz & Oz).
  assert (A : allowed cfg s x z) by (split; auto; rewrite Hd; auto).
  split; [exists z; auto|].
  destruct (explicit_call cfg n s x dt u H1 H2 H3 H4 H5 H6) as (rows & consts & Enc & Nm & Hc).
  specialize (Hc (ac_solve cfg)); rewrite with_solver_same in Hc; cbv zeta in Hc; destruct Hc as (C1 & C2 & C3).
  destruct (ac_solve cfg (obj_weight (ac_dim cfg) (scales (asif_constraints s)))
              (u ++ zeros (slack_count (asif_constraints s))) rows consts) as [[y iact]|e] eqn:Es.
  - destruct (qp_optimal _ QC _ _ _ _ _ _ Es) as (Ly & _ & _ & Act & _).
    rewrite app_length, zeros_length, H6 in Ly.
    destruct (C1 y iact eq_refl Ly) as (w1 & s1 & out & Hc1 & _ & _ & _ & _ & Hwa).
    { intros i Hi; destruct (Act i Hi) as (j & r & c & -> & Hr & _); exists j; split; auto.
      destruct (encodes_length _ _ _ _ Enc) as [L1 _].
      rewrite <- L1; apply nth_error_Some; congruence. }
    rewrite Hc1; split; [discriminate|auto].
  - assert (Ne : e <> ValueError msg_inconsistent).
    { intros ->; apply (qp_inconsistent _ QC _ _ _ _ Es z).
      - rewrite app_length, zeros_length; congruence.
      - apply (encodes_solves _ _ _ _ Enc z Lz), demands_acceptable; auto; [lia|apply A]. }
    destruct (C3 e eq_refl Ne) as (s1 & Hc1 & Hw1 & _); rewrite Hc1; split; [|auto].
    intros E; injection E as ->; apply (NS _ _ _ _ Es).
Qed.
Print Assumptions C27_slack_always_solvable.
Example C27_case : qp_contract soft_solver /\ (forall G a C b, soft_solver G a C b <> Err SolverError) /\
  in_use (line_cfg free false soft_solver) 1 soft 1 [1] /\ consistent free /\
  (forall k c, In (k, c) (asif_constraints soft) -> c_slack c <> None) /\ asif_directs soft = [].
Proof.
  split; [apply soft_contract|split; [|split; [apply soft_in_use|split; [|split; [|reflexivity]]]]].
  - intros G a C b; unfold soft_solver, qp_knowing; destruct (_ && _); discriminate.
  - intros i l h Hl; discriminate.
  - intros k c [E|[]]; injection E as <- <-; discriminate.
Qed.

(** ** C17 (explicit ASIF).  A module and the module without its disabled constraints and
    direct inequalities return the same control, with the same intervening flag, and warn of
    infeasibility in the same calls. *)
Theorem C17_explicit_asif_disabled_ignored :
  forall (X P : Type) (cfg : asif_cfg X) n (s s1 : amod X P unit) x dt u w t w1 t1,
  qp_contract (ac_solve cfg) -> in_use cfg n s x u -> in_use cfg n s1 x u ->
  positive_scales (asif_constraints s) ->
  asif_constraints s1 = without_disabled (asif_constraints s) ->
  asif_directs s1 = without_disabled_direct (asif_directs s) ->
  explicit_asif_filter_control cfg (InArray x) dt u s = (Ok w, t) ->
  explicit_asif_filter_control cfg (InArray x) dt u s1 = (Ok w1, t1) ->
  w1 = w /\ intervening t1 = intervening t /\ (warnings t1 = warnings s1 <-> warnings t = warnings s).
Proof.
  intros X P cfg n s s1 x dt u w t w1 t1 QC [H1 H2 H3 H4 H5 H6] [K1 _ _ _ K5 _] Hp Ec Ed Hc Hc1.
  eapply explicit_disabled; eauto.
  - rewrite Ec; clear; unfold active; induction (asif_constraints s) as [|[k c] cs IH]; simpl; auto; rewrite IH; auto.
  - rewrite Ed; apply without_disabled_direct_active.
  - apply positive_scales_forall; auto.
Qed.
Print Assumptions C17_explicit_asif_disabled_ignored.
Example C17_explicit_case :
  let s := line_of unit_box [("off"%string, set_c_enabled false (ground 100)); ("wall"%string, wall None)]
             [("push"%string, push (-1/2)); ("shove"%string, set_d_enabled false (push 50))] in
  in_use (line_cfg unit_box false qp1) 1 s (1/2) [1] /\
  in_use (line_cfg unit_box false qp1) 1 walled (1/2) [1] /\
  asif_constraints walled = without_disabled (asif_constraints s) /\
  asif_directs walled = without_disabled_direct (asif_directs s) /\
  fst (line_call false qp1 s (1/2) 1) = Ok [1/2].
Proof.
  split; [|split; [apply walled_in_use|split; [reflexivity|split; [reflexivity|]]]].
  - line_in_use (@nil (aop R unit)) unit_box false qp1
      [("off"%string, set_c_enabled false (ground 100)); ("wall"%string, wall None)]
      [("push"%string, push (-1/2)); ("shove"%string, set_d_enabled false (push 50))].
  - unfold line_call; eval_model.
    qp1_gives [[1]] [1] [[1]; [-1]; [0]; [-1]; [1]; [0]] [-1; -1; 0; -1/2; -1/2; 0] [1/2] [4%nat].
    eval_model; reflexivity.
Qed.
