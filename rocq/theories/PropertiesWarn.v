(** Warnings about failed optimisations: C93. *)
From Coq Require Import String Reals List Bool ZArith Lia Lra.
From Verif Require Import Prelude Vec ModelBase ModelController ModelSimplex ModelAsif ModelDiscrete ModelWarn
  SpecCore SpecHistory SpecSimplex SpecAsif SpecDiscrete SpecWarn ProofsBase ProofsVec ProofsHistory ProofsAsif ProofsAsif2
  ProofsAsif3 ProofsAsif4 ProofsAsif5 ProofsAsifHistory2 ProofsDiscrete ProofsWarn ExampleTools ExampleQP PropertiesAsif
  PropertiesDiscrete.
Import ListNotations.
Local Open Scope R_scope.

(** ** C93.  The documentation of solver_exception promises a warning (False) or an exception
    (True) when the solver finds no solution.  A warning is issued in every such call (C24, C37);
    what python displays is the first one of each text: in every process and history, a warning
    is displayed exactly if it has not been issued before. *)
Theorem C93_displayed_once :
  forall (X P : Type) (os : list (pop X P)) (p : process X P) out p',
  process_run os p = (out, p') ->
  forall n k b, nth_error (all_warnings out) n = Some (k, b) ->
    (b = true <-> ~ In k (pr_seen p) /\ ~ issued_before k (all_warnings out) n).
Proof.
  intros X P os p out p' H n k b Hn. destruct (process_warnings os p out p' H) as [ks Hk].
  exact (py_warns_marks ks _ _ _ _ _ _ Hk Hn).
Qed.
Print Assumptions C93_displayed_once.

(** All modules that solve quadratic programs use one text: however many such modules there are
    and whatever happens, one warning is displayed in the life of the process. *)
Theorem C93_one_warning_per_process_refuted :
  forall (X P : Type) (os : list (pop X P)) (p : process X P) out p',
  Forall quadratic (pr_modules p) -> process_run os p = (out, p') ->
  (displayed (all_warnings out) <= 1)%nat.
Proof.
  intros X P os p out p' Q H.
  assert (T : Forall one_text (pr_modules p)).
  { apply (Forall_impl one_text (P:=quadratic)); [|exact Q]. intros m []; intros msg a b; eexists; reflexivity. }
  pose proof (one_text_run os p out p' T H) as F.
  pose proof (C93_displayed_once X P os p out p' H) as M. revert F M.
  generalize (all_warnings out) as l; generalize (pr_seen p) as seen; clear.
  intros seen [|[k b] l] F M; [cbn; lia|].
  assert (R : filter snd l = []).
  { apply Forall_inv in F as F1. cbn in F1. subst k. apply Forall_inv_tail in F.
    assert (G : forall n k' b', nth_error l n = Some (k', b') -> b' = false).
    { intros n k' b' Hn. pose proof (proj1 (Forall_forall _ _) F _ (nth_error_In _ _ Hn)) as Ek. cbn in Ek. subst k'.
      destruct b'; [|reflexivity]. exfalso.
      apply (proj1 (M (S n) solver_warning true Hn) eq_refl). exists 0%nat, b. split; [lia|reflexivity]. }
    clear - G. induction l as [|[k' b'] l IH]; [reflexivity|].
    cbn. rewrite (G 0%nat k' b' eq_refl). apply IH. intros n; exact (G (S n)). }
  unfold displayed. cbn [filter snd]. destruct b; rewrite R; cbn; lia.
Qed.
Print Assumptions C93_one_warning_per_process_refuted.

(** The first failure is displayed.  Whatever the module has done before and whatever the other
    modules of the process are, there is one program (that of C19) such that, if the solver calls
    it inconsistent and the warning has not been issued in the process, then the call displays
    it; with solver_exception the call raises SolverError, in every process. *)
Theorem C93_first_failure_partial :
  forall (X P : Type) (cfg : asif_cfg X) n (s : amod X P unit) x dt u,
  in_use cfg n s x u -> 0 <= ac_eps cfg ->
  exists G a rows consts,
    (forall z, length z = (ac_dim cfg + slack_count (asif_constraints s))%nat ->
       (solves rows consts z <-> allowed cfg s x z)) /\
    forall solve msg (p : process X P) i,
      solve G a rows consts = Err (ValueError "constraints are inconsistent, no solution") ->
      nth_error (pr_modules p) i = Some (explicit_module (with_solver solve cfg) s) ->
      (ac_exc cfg = true ->
         fst (process_step (mkPop i (OFilter (InArray x) dt u) msg) p) = (Some (ObsRaised SolverError), [])) /\
      (ac_exc cfg = false -> ~ In solver_warning (pr_seen p) ->
         exists w, clip (ac_bounds cfg) u = Ok w /\
         fst (process_step (mkPop i (OFilter (InArray x) dt u) msg) p) = (Some (ObsControl w), [(solver_warning, true)])).
Proof.
  intros X P cfg n s x dt u U He. destruct (explicit_failure cfg n s x dt u U He) as (G & a & rows & consts & _ & S & H).
  exists G, a, rows, consts; split; [exact S|]. intros solve msg p i Hs Hi.
  destruct (H solve (fun _ _ _ _ => Ok (a, [])) msg p i Hs eq_refl Hi) as (w & s1 & p1 & Hw & E & _).
  rewrite E. split; intros Ex; rewrite Ex; [reflexivity|]. intros N. exists w; split; [exact Hw|].
  unfold mark. destruct (in_dec warning_dec solver_warning (pr_seen p)); [contradiction|reflexivity].
Qed.
Print Assumptions C93_first_failure_partial.

(** A later failure, of this or of any other module of the process, cannot be noticed: nothing is
    displayed, and the control that is returned and the whole info dictionary are the same as if
    the solver had answered that the desired control is safe. *)
Theorem C93_silent_failure_refuted :
  forall (X P : Type) (cfg : asif_cfg X) n (s : amod X P unit) x dt u,
  in_use cfg n s x u -> 0 <= ac_eps cfg -> ac_exc cfg = false ->
  exists G a rows consts, firstn (ac_dim cfg) a = u /\
    (forall z, length z = (ac_dim cfg + slack_count (asif_constraints s))%nat ->
       (solves rows consts z <-> allowed cfg s x z)) /\
    forall solve agree msg (p : process X P) i,
      solve G a rows consts = Err (ValueError "constraints are inconsistent, no solution") ->
      agree G a rows consts = Ok (a, []) ->
      nth_error (pr_modules p) i = Some (explicit_module (with_solver solve cfg) s) ->
      In solver_warning (pr_seen p) ->
      exists w s1 p1 s2,
        process_step (mkPop i (OFilter (InArray x) dt u) msg) p =
          (Some (ObsControl w), [(solver_warning, false)], p1) /\
        at_module p p1 i (explicit_module (with_solver solve cfg) s1) /\
        explicit_asif_filter_control (with_solver agree cfg) (InArray x) dt u s = (Ok w, s2) /\
        intervening s1 = false /\ cb_info s1 = cb_info s2.
Proof.
  intros X P cfg n s x dt u U He Ex. destruct (explicit_failure cfg n s x dt u U He) as (G & a & rows & consts & Fn & S & H).
  exists G, a, rows, consts; split; [exact Fn|split; [exact S|]]. intros solve agree msg p i Hs Ha Hi I.
  destruct (H solve agree msg p i Hs Ha Hi) as (w & s1 & p1 & Hw & E & At & s2 & E2 & R).
  rewrite Ex in E. destruct (R Ex) as [R1 R2]. exists w, s1, p1, s2.
  split; [|auto]. rewrite E. unfold mark.
  destruct (in_dec warning_dec solver_warning (pr_seen p)); [reflexivity|contradiction].
Qed.
Print Assumptions C93_silent_failure_refuted.

(** The discrete module puts the solver's message into the text: a failure is displayed exactly
    if no discrete module of the process failed with this message before. *)
Theorem C93_discrete_partial :
  forall (X P : Type) (cfg : disc_cfg X) (s : dmod X P) x dt u, disc_in_use cfg s dt u -> dc_exc cfg = false ->
  exists obj start cons lims, length start = (dc_dim cfg + slack_count (disc_constraints s))%nat /\
    forall solve z msg (p : process X P) i,
      solve obj start cons lims = Ok (false, z) -> (dc_dim cfg <= length z)%nat ->
      nth_error (pr_modules p) i = Some (discrete_module (with_slsqp solve cfg) s) ->
      exists w b, boxed (dc_bounds cfg) (firstn (dc_dim cfg) z) w /\
        fst (process_step (mkPop i (OFilter (InArray x) dt u) msg) p) =
          (Some (ObsControl w), [(failure_warning msg, b)]) /\
        (b = true <-> ~ In (failure_warning msg) (pr_seen p)).
Proof.
  intros X P cfg s x dt u U Ex. destruct (discrete_failure cfg s x dt u U) as (obj & start & cons & lims & L & H).
  exists obj, start, cons, lims; split; [exact L|]. intros solve z msg p i Hz Lz Hi.
  destruct (H solve z msg p i Hz Lz Ex Hi) as (w & s1 & p1 & B & E & _).
  exists w. eexists; split; [exact B|]. rewrite E. split; [reflexivity|].
  unfold mark. destruct (in_dec warning_dec (failure_warning msg) (pr_seen p)); split; intros A; auto; try discriminate; contradiction.
Qed.
Print Assumptions C93_discrete_partial.

(** Non-vacuity.  Two modules that keep above the ground and are far below it (nothing allowed is
    acceptable).  The first module's failure is displayed; the second module's first failure and
    the first module's second one are not. *)
Definition grounded := line_of unit_box [("ground"%string, ground 0)] (@nil (string * direct R unit)).
Lemma grounded_in_use exc solve x u : in_use (line_cfg unit_box exc solve) 1 grounded x [u].
Proof.
  line_in_use (@nil (aop R unit)) unit_box exc solve [("ground"%string, ground 0)] (@nil (string * direct R unit)).
Qed.
Definition sink : pop R unit := mkPop 0 (OFilter (InArray (-10)) 1 [2]) EmptyString.
Definition sink_other : pop R unit := mkPop 1 (OFilter (InArray (-10)) 1 [2]) EmptyString.
Definition two_grounded : process R unit :=
  mkProcess [explicit_module (line_cfg unit_box false qp1) grounded;
             explicit_module (line_cfg unit_box false qp1) grounded] [].
Example C93_case : in_use (line_cfg unit_box false qp1) 1 grounded (-10) [2] /\
  fst (process_run [sink; sink_other; sink] two_grounded) =
  [(Some (ObsControl [1]), [(solver_warning, true)]); (Some (ObsControl [1]), [(solver_warning, false)]);
   (Some (ObsControl [1]), [(solver_warning, false)])].
Proof.
  split; [apply grounded_in_use|].
  assert (A : exists s1 s2, line_call false qp1 grounded (-10) 2 = (Ok [1], s1) /\ warnings s1 = 1%nat /\
     line_call false qp1 s1 (-10) 2 = (Ok [1], s2) /\ warnings s2 = 2%nat).
  { do 2 eexists; split; [unfold line_call; eval_model; qp1_fails [[1]] [2] [[1]; [-1]; [1]] [-1; -1; 100 + 1/100]; eval_model; reflexivity|].
    split; [reflexivity|]. split; [unfold line_call; eval_model; qp1_fails [[1]] [2] [[1]; [-1]; [1]] [-1; -1; 100 + 1/100]; eval_model; reflexivity|reflexivity]. }
  destruct A as (s1 & s2 & E1 & W1 & E2 & W2).
  assert (M1 : forall m, module_step (OFilter (InArray (-10)) 1 [2]) m (explicit_module (line_cfg unit_box false qp1) grounded) =
    (ObsControl [1], [solver_warning], explicit_module (line_cfg unit_box false qp1) s1)).
  { intros m. rewrite explicit_module_step. unfold line_call in E1. rewrite E1, W1. reflexivity. }
  assert (M2 : forall m, module_step (OFilter (InArray (-10)) 1 [2]) m (explicit_module (line_cfg unit_box false qp1) s1) =
    (ObsControl [1], [solver_warning], explicit_module (line_cfg unit_box false qp1) s2)).
  { intros m. rewrite explicit_module_step. unfold line_call in E2. rewrite E2, W1, W2. reflexivity. }
  unfold two_grounded, sink, sink_other. cbn [process_run].
  unfold process_step at 1. cbn [po_module po_op po_message pr_modules pr_seen nth_error]. rewrite M1.
  unfold py_warns at 1, py_warn at 1. destruct (in_dec warning_dec solver_warning []) as [[]|_].
  cbn [put].
  unfold process_step at 1. cbn [po_module po_op po_message pr_modules pr_seen nth_error]. rewrite M1.
  unfold py_warns at 1, py_warn at 1. destruct (in_dec warning_dec solver_warning [solver_warning]) as [_|N];
    [|exfalso; apply N; left; reflexivity].
  cbn [put].
  unfold process_step at 1. cbn [po_module po_op po_message pr_modules pr_seen nth_error]. rewrite M2.
  unfold py_warns at 1, py_warn at 1. destruct (in_dec warning_dec solver_warning [solver_warning]) as [_|N];
    [|exfalso; apply N; left; reflexivity].
  reflexivity.
Qed.
(** The hypotheses of the discrete part, at a solver that gives up (C37_case). *)
Example C93_discrete_case : disc_in_use (dline_cfg unit_box false (slsqp_try [1])) dwalled 1 [5] /\
  exists s', disc_filter_control (dline_cfg unit_box false (slsqp_try [1])) (InArray 1) 1 [5] dwalled = (Ok [1], s') /\
  disc_warnings s' = 1%nat.
Proof. split; [apply dwalled_in_use; lra|exact (proj1 C37_case)]. Qed.
