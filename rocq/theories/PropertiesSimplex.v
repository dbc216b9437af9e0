(** Properties of the simplex modules. *)
From Coq Require Import String Reals List Bool ZArith Lia Lra.
From Verif Require Import Prelude Vec ModelBase ModelController ModelSimplex SpecCore SpecHistory SpecSimplex
  ProofsBase ProofsHistory ProofsSimplex ProofsSimplex2 ProofsSimplex3 ExampleTools.
Import ListNotations.
Local Open Scope R_scope.

(** ** C10: the explicit module, when not held on the backup controller. *)
Theorem C10_explicit_switching :
  forall (X P : Type) (cfg : sx_cfg X) (s : simplex X P) x dt u x1,
  gen_sized (sc_bounds cfg) (sc_gen cfg) -> fits (sc_bounds cfg) (length u) ->
  enable s = true -> distinct_keys (constraints_now s) -> ~ held cfg s ->
  sc_pred cfg x dt u = Ok x1 ->
  (safe (constraints_now s) x1 ->
     exists w s', simplex_filter_control cfg Explicit (InArray x) dt u s = (Ok w, s') /\
       boxed (sc_bounds cfg) u w /\ intervening s' = false /\ ctl_now s' = ctl_now s) /\
  (~ safe (constraints_now s) x1 ->
     forall ub st, sc_gen cfg x dt (ctl_now s) = GPair ub st ->
     exists w s', simplex_filter_control cfg Explicit (InArray x) dt u s = (Ok w, s') /\
       boxed (sc_bounds cfg) ub w /\ intervening s' = true /\ ctl_now s' = st).
Proof.
  intros X P cfg s x dt u x1 G F E D Hh Hp.
  assert (HF : foreseen cfg Explicit dt x (ctl_now s) u [x1]) by (exists x1; auto).
  split.
  - intros Hs. destruct (clip_boxed _ _ F) as (w & Hc & Hb).
    destruct (call_accept cfg G Explicit x dt u s [x1] w E Hh D) as (s' & H1 & A); auto; try discriminate.
    { intros y [<-|[]]; auto. }
    destruct A as (_ & _ & A3 & _ & A5 & _); exists w, s'; auto.
  - intros Hs ub st Hg. destruct (clip_boxed _ _ (G _ _ _ _ _ Hg)) as (w & Hc & Hb).
    destruct (call_reject cfg G Explicit x dt u s [x1] ub w st E Hh D) as (s' & H1 & A); auto; try discriminate.
    { exists x1; split; [left|]; auto. }
    destruct A as (_ & _ & A3 & _ & A5 & _); exists w, s'; auto.
Qed.
Print Assumptions C10_explicit_switching.

Lemma toy_not_held b : ~ held (toy_cfg b 2) toy.
Proof. intros [H _]; discriminate. Qed.
(** Non-vacuity: both sides occur, at bounds [-1, 1], for desired controls 3 and -4. *)
Example C10_case :
  gen_sized (sc_bounds (toy_cfg unit_box 2)) (sc_gen (toy_cfg unit_box 2)) /\
  fits (sc_bounds (toy_cfg unit_box 2)) 1 /\ enable toy = true /\ distinct_keys (constraints_now toy) /\
  ~ held (toy_cfg unit_box 2) toy /\
  sc_pred (toy_cfg unit_box 2) 0 1 [3] = Ok 3 /\ safe (constraints_now toy) 3 /\
  sc_pred (toy_cfg unit_box 2) 0 1 [-4] = Ok (-4) /\ ~ safe (constraints_now toy) (-4).
Proof.
  split; [apply toy_gen_sized, unit_box_fits|]. split; [apply unit_box_fits|].
  split; [reflexivity|split; [apply toy_distinct|split; [apply toy_not_held|]]].
  split; [reflexivity|split; [|split; [reflexivity|]]].
  - intros k c [H|[H|[]]] _; inversion H; subst; simpl; lra.
  - intros H; specialize (H "floor"%string (toy_constraint 0) (or_introl eq_refl) eq_refl); simpl in H; lra.
Qed.

(** ** C12: both kinds, in terms of the states the module has to foresee. *)
Theorem C12_accepts_iff_foreseen_safe :
  forall (X P : Type) (cfg : sx_cfg X) (k : sx_kind) (s : simplex X P) x dt u xs,
  gen_sized (sc_bounds cfg) (sc_gen cfg) -> fits (sc_bounds cfg) (length u) ->
  enable s = true -> distinct_keys (constraints_now s) -> ~ held cfg s -> savable (ctl_now s) ->
  foreseen cfg k dt x (ctl_now s) u xs ->
  (Forall (safe (constraints_now s)) xs ->
     exists w s', simplex_filter_control cfg k (InArray x) dt u s = (Ok w, s') /\
       boxed (sc_bounds cfg) u w /\ intervening s' = false /\ ctl_now s' = ctl_now s) /\
  (~ Forall (safe (constraints_now s)) xs ->
     forall ub st, sc_gen cfg x dt (ctl_now s) = GPair ub st ->
     exists w s', simplex_filter_control cfg k (InArray x) dt u s = (Ok w, s') /\
       boxed (sc_bounds cfg) ub w /\ intervening s' = true /\ ctl_now s' = st).
Proof.
  intros X P cfg k s x dt u xs G F E D Hh Sv HF; split.
  - intros Hs; rewrite Forall_forall in Hs. destruct (clip_boxed _ _ F) as (w & Hc & Hb).
    destruct (call_accept cfg G k x dt u s xs w E Hh D) as (s' & H1 & A); auto.
    destruct A as (_ & _ & A3 & _ & A5 & _); exists w, s'; auto.
  - intros Hs ub st Hg. destruct (clip_boxed _ _ (G _ _ _ _ _ Hg)) as (w & Hc & Hb).
    destruct (call_reject cfg G k x dt u s xs ub w st E Hh D) as (s' & H1 & A); auto.
    { apply violb_true; destruct (violb (constraints_now s) xs) eqn:V; auto.
      exfalso; apply Hs, Forall_forall; apply violb_false; auto. }
    destruct A as (_ & _ & A3 & _ & A5 & _); exists w, s'; auto.
Qed.
Print Assumptions C12_accepts_iff_foreseen_safe.

(** Conversely a call that returns has looked at exactly those states (in particular the
    recovery has floor(window/step) steps after the first state). *)
Theorem C12_returning_call :
  forall (X P : Type) (cfg : sx_cfg X) (k : sx_kind) (s s' : simplex X P) x dt u w,
  gen_sized (sc_bounds cfg) (sc_gen cfg) ->
  0 < dt -> (forall win, k = Implicit win -> 0 <= win) ->
  enable s = true -> distinct_keys (constraints_now s) -> ~ held cfg s ->
  simplex_filter_control cfg k (InArray x) dt u s = (Ok w, s') ->
  exists xs, foreseen cfg k dt x (ctl_now s) u xs /\
    (intervening s' = false <-> Forall (safe (constraints_now s)) xs).
Proof.
  intros X P cfg k s s' x dt u w G Hd Hw E D Hh H.
  destruct (call_inv cfg G k x dt u s s' w Hd Hw E D H) as [[H' _]|(_ & xs & HF & [A|A])]; [tauto| |];
    exists xs; split; auto; rewrite Forall_forall.
  - destruct A as (A & _ & _ & _ & -> & _); tauto.
  - destruct A as ((y & Hy & Hn) & ub & st & _ & _ & _ & _ & -> & _); split; [discriminate|].
    intros K; exfalso; auto.
Qed.
Print Assumptions C12_returning_call.

Lemma toy_safe x : safe (constraints_now toy) x <-> 0 <= x.
Proof.
  split.
  - intros H; specialize (H "floor"%string (toy_constraint 0) (or_introl eq_refl) eq_refl); simpl in H; lra.
  - intros Hx k c [H|[H|[]]] _; inversion H; subst; simpl; lra.
Qed.
Lemma toy_path b n : fits b 1 -> clip b [0] = Ok [0] -> forall x,
  backup_path b toy_pred toy_gen 1 n x CSNone (repeat 0 n).
Proof.
  intros F C; induction n as [|n IH]; intros x; simpl; [constructor|].
  apply (bp_cons b toy_pred toy_gen 1 n x CSNone 0 CSNone); [|apply IH].
  exists [0], [0]; split; [reflexivity|split; [|reflexivity]].
  apply (clip_iff_boxed b [0] [0] F); auto.
Qed.
(** Non-vacuity: window 7/2, step 1: the first state and three recovery states. *)
Example C12_case :
  window_steps (7/2) 1 3 /\
  foreseen (toy_cfg free 2) (Implicit (7/2)) 1 5 (ctl_now toy) [3] [3; 0; 0; 0] /\
  Forall (safe (constraints_now toy)) [3; 0; 0; 0] /\
  foreseen (toy_cfg free 2) (Implicit (7/2)) 1 5 (ctl_now toy) [-3] [-3; 0; 0; 0] /\
  ~ Forall (safe (constraints_now toy)) [-3; 0; 0; 0] /\ savable (ctl_now toy).
Proof.
  assert (W : window_steps (7/2) 1 3) by (unfold window_steps; simpl; lra).
  split; [exact W|].
  split; [exists 3; split; [reflexivity|exists 3%nat, [0;0;0]; split; [exact W|split; [|reflexivity]]];
          apply (toy_path free 3); [split; simpl; auto|reflexivity]|].
  split; [repeat (constructor; [apply toy_safe; lra|]); constructor|].
  split; [exists (-3); split; [reflexivity|exists 3%nat, [0;0;0]; split; [exact W|split; [|reflexivity]]];
          apply (toy_path free 3); [split; simpl; auto|reflexivity]|].
  split; [|intros t; discriminate].
  intros H; inversion H as [|? ? H1 _]; subst.
  specialize (H1 "floor"%string (toy_constraint 0) (or_introl eq_refl) eq_refl); simpl in H1; lra.
Qed.

(** ** C11: the latch. *)
(** [h] is any history without reset since construction that leads to [s]; the call on [s]
    consults the monitor and intervenes.  The next [n] calls, whatever they ask for, return
    the backup controls, and the module stays held until exactly [n] of them are made. *)
Theorem C11_latch_duration :
  forall (X P : Type) (cfg : sx_cfg X) (k : sx_kind) defined to_use initial (s0 : simplex X P)
         h seen s x dt u w s1 n ins ws st,
  gen_sized (sc_bounds cfg) (sc_gen cfg) ->
  0 < dt -> (forall win, k = Implicit win -> 0 <= win) ->
  least_steps dt (sc_latch cfg) n ->
  simplex_init defined to_use initial = Ok s0 -> no_reset h ->
  cb_run (simplex_filter_control cfg k) simplex_reset h s0 = (seen, s) ->
  enable s = true -> distinct_keys (constraints_now s) -> ~ held cfg s ->
  simplex_filter_control cfg k (InArray x) dt u s = (Ok w, s1) -> intervening s1 = true ->
  (length ins <= n)%nat ->
  backup_outputs (sc_bounds cfg) (sc_gen cfg) dt (map fst ins) (ctl_now s1) ws st ->
  exists s2, cb_run (simplex_filter_control cfg k) simplex_reset (calls dt ins) s1 =
               (map ObsControl ws, s2) /\
    intervening s2 = true /\ ctl_now s2 = st /\
    (held cfg s2 <-> (length ins < n)%nat).
Proof.
  intros X P cfg k defined to_use initial s0 h seen s x dt u w s1 n ins ws st
    G Hd Hw Hn H0 NR HR E D Hh Hf Hi Hl HB.
  assert (C : counter_ok s).
  { eapply run_counter; eauto. intros _.
    destruct (simplex_init_inv _ _ _ _ H0) as (_ & _ & _ & El & _); exact El. }
  exact (latch_from_call cfg G k dt n x u s s1 w ins ws st Hd Hw Hn E D C Hh Hf Hi Hl HB).
Qed.
Print Assumptions C11_latch_duration.

(** Non-vacuity: latch time 3/2, step 1: two calls after the first intervention. *)
Example C11_case :
  least_steps 1 (3/2) 2 /\
  exists s1, simplex_filter_control (toy_cfg unit_box (3/2)) Explicit (InArray 0) 1 [-1] toy = (Ok [0], s1) /\
    intervening s1 = true /\
    backup_outputs unit_box toy_gen 1 (map fst [(4, [9]); (5, [8])]) (ctl_now s1) [[0]; [0]] CSNone.
Proof.
  split.
  - split; [simpl; lra|]. intros m Hm; assert (m = 0 \/ m = 1)%nat as [-> | ->] by lia; simpl; lra.
  - eexists; split; [compute_model; reflexivity|split; [reflexivity|]].
    assert (B : boxed unit_box [0] [0])
      by (apply (clip_iff_boxed unit_box [0] [0] unit_box_fits); compute_model; reflexivity).
    repeat (econstructor; [reflexivity|exact B|]). constructor.
Qed.

(** ** C13: looking ahead. *)
Theorem C13_lookahead_restores_controller :
  forall (X : Type) (cfg : sx_cfg X) window x dt u c ys c',
  gen_sized (sc_bounds cfg) (sc_gen cfg) -> 0 < dt -> 0 <= window ->
  simplex_integrate cfg window x dt u c = (Ok ys, c') ->
  ctl_state c' = ctl_state c /\ ctl_initial c' = ctl_initial c.
Proof.
  intros X cfg window x dt u c ys c' G Hd Hw H.
  destruct (integrate_inv cfg G _ _ _ _ _ _ _ Hd Hw H) as (_ & _ & _ & _ & _ & _ & _ & _ & ->); auto.
Qed.
Print Assumptions C13_lookahead_restores_controller.

(** Seen from outside: a returning call moves the controller by at most one request, namely
    the one whose output is returned. *)
Theorem C13_call_makes_at_most_one_request :
  forall (X P : Type) (cfg : sx_cfg X) (k : sx_kind) (s s' : simplex X P) x dt u w,
  gen_sized (sc_bounds cfg) (sc_gen cfg) ->
  0 < dt -> (forall win, k = Implicit win -> 0 <= win) ->
  enable s = true -> distinct_keys (constraints_now s) ->
  simplex_filter_control cfg k (InArray x) dt u s = (Ok w, s') ->
  (intervening s' = false /\ ctl_now s' = ctl_now s) \/
  (intervening s' = true /\ exists ub, sc_gen cfg x dt (ctl_now s) = GPair ub (ctl_now s')).
Proof.
  intros X P cfg k s s' x dt u w G Hd Hw E D H.
  destruct (call_inv cfg G k x dt u s s' w Hd Hw E D H)
    as [(_ & ub & st & Hg & _ & _ & _ & Hi & _ & <- & _)|(_ & xs & _ & [A|A])].
  - right; split; eauto.
  - destruct A as (_ & _ & _ & _ & A3 & _ & A5 & _); auto.
  - destruct A as (_ & ub & st & Hg & _ & _ & _ & A3 & _ & <- & _); right; split; eauto.
Qed.
Print Assumptions C13_call_makes_at_most_one_request.

(** A controller that counts its requests and fails on the third. *)
Definition failing_gen (x dt : R) (cs : cstate) : gout :=
  match cs with
  | CSArray [a] => if Rltb a 2 then GPair [0] (CSArray [a + 1]) else GRaise (OtherExn 1)
  | _ => GOther
  end.
Definition failing_cfg : sx_cfg R := mkSxCfg free 0 toy_pred failing_gen.

(** The proviso of C13 is needed: when the lookahead raises, the controller is left in the
    advanced state (save is not undone by a finally clause). *)
Theorem C13_exception_disturbs :
  exists c e c', ctl_state c = CSArray [0] /\
    simplex_integrate failing_cfg 5 0 1 [1] c = (Err e, c') /\ ctl_state c' = CSArray [0 + 1 + 1].
Proof.
  exists (mkCtl (CSArray [0]) CSNone (CSArray [0])); do 2 eexists; split; [reflexivity|].
  assert (W : window_steps 5 1 5) by (unfold window_steps; simpl; lra).
  unfold simplex_integrate, py_div. destruct (Req_EM_T 1 0); [lra|].
  unfold bind at 1, lift; rewrite (window_steps_int _ _ _ W).
  split; [compute_model; reflexivity|reflexivity].
Qed.
Print Assumptions C13_exception_disturbs.

Example C13_case : exists ys c',
  simplex_integrate failing_cfg 2 0 1 [1] (mkCtl (CSArray [0]) CSNone (CSArray [0])) = (Ok ys, c') /\
  length ys = 3%nat.
Proof.
  assert (W : window_steps 2 1 2) by (unfold window_steps; simpl; lra).
  do 2 eexists. unfold simplex_integrate, py_div. destruct (Req_EM_T 1 0); [lra|].
  unfold bind at 1, lift; rewrite (window_steps_int _ _ _ W).
  split; [compute_model; reflexivity|reflexivity].
Qed.

(** ** C14: explicit simplex, infinite horizon.  [I] is an invariant of the controller's
    internal state (use [fun _ => True] for a stateless controller). *)
Theorem C14_explicit_safe_for_ever :
  forall (X P : Type) (cfg : sx_cfg X) dt (cs : dict (constraint X P)) (I : cstate -> Prop),
  gen_sized (sc_bounds cfg) (sc_gen cfg) -> 0 < dt -> distinct_keys cs ->
  (forall x st x' st', safe cs x -> I st ->
     backup_step (sc_bounds cfg) (sc_pred cfg) (sc_gen cfg) dt x st x' st' -> safe cs x' /\ I st') ->
  forall us x (s : simplex X P) xs,
  (forall u, In u us -> fits (sc_bounds cfg) (length u) /\ within (sc_bounds cfg) u) ->
  enable s = true -> constraints_now s = cs -> I (ctl_now s) -> safe cs x ->
  closed_loop cfg Explicit dt us x s xs -> Forall (safe cs) xs.
Proof. intros X P cfg dt cs I G; exact (explicit_safe cfg G dt cs I). Qed.
Print Assumptions C14_explicit_safe_for_ever.

(** The closed loop does run, for every sequence of desired controls. *)
Theorem C14_loop_runs :
  forall (X P : Type) (cfg : sx_cfg X) dt,
  gen_sized (sc_bounds cfg) (sc_gen cfg) -> 0 < dt ->
  (forall x w, exists x', sc_pred cfg x dt w = Ok x') ->
  (forall x st, exists u st', sc_gen cfg x dt st = GPair u st') ->
  forall us x (s : simplex X P),
  (forall u, In u us -> fits (sc_bounds cfg) (length u)) ->
  enable s = true -> distinct_keys (constraints_now s) ->
  exists xs, closed_loop cfg Explicit dt us x s xs /\ length xs = length us.
Proof. intros X P cfg dt G; exact (explicit_runs cfg G dt). Qed.
Print Assumptions C14_loop_runs.

Lemma toy_backup b dt x st x' st' : clip b [0] = Ok [0] -> fits b 1 ->
  backup_step b toy_pred toy_gen dt x st x' st' -> x' = 0 /\ st' = st.
Proof.
  intros C F (u & w & Hg & Hb & Hp). inversion Hg; subst u st'.
  apply (clip_iff_boxed b [0] w F) in Hb. rewrite C in Hb; inversion Hb; subst w.
  inversion Hp; auto.
Qed.
Lemma unit_box_zero : clip unit_box [0] = Ok [0].
Proof. compute_model; reflexivity. Qed.
(** Non-vacuity: the toy plant with bounds [-1, 1] satisfies the hypotheses for every
    sequence of in-bounds desired controls, and some are overridden. *)
Example C14_case : forall us, (forall u, In u us -> length u = 1%nat /\ within unit_box u) ->
  exists xs, closed_loop (toy_cfg unit_box 2) Explicit 1 us 1 toy xs /\ length xs = length us /\
             Forall (fun x => 0 <= x) xs.
Proof.
  intros us Hus.
  assert (G := toy_gen_sized unit_box 2 unit_box_fits).
  destruct (C14_loop_runs R unit (toy_cfg unit_box 2) 1 G ltac:(lra)) with (us := us) (x := 1) (s := toy)
    as (xs & HL & Len).
  - intros x w; exists (hd 0 w); reflexivity.
  - intros x st; exists [0], st; reflexivity.
  - intros u Hu; destruct (Hus u Hu) as [-> _]; exact unit_box_fits.
  - reflexivity.
  - exact toy_distinct.
  - exists xs; split; [exact HL|split; [exact Len|]].
    assert (Forall (safe (constraints_now toy)) xs).
    { refine (C14_explicit_safe_for_ever R unit (toy_cfg unit_box 2) 1 (constraints_now toy) (fun _ => True)
        G ltac:(lra) toy_distinct _ us 1 toy xs _ eq_refl eq_refl I _ HL).
      - intros x st x' st' _ _ Hs.
        destruct (toy_backup unit_box 1 x st x' st' unit_box_zero unit_box_fits Hs) as [-> ->].
        split; auto; apply toy_safe; lra.
      - intros u Hu; destruct (Hus u Hu) as [-> Hw]; split; [exact unit_box_fits|exact Hw].
      - apply toy_safe; lra. }
    eapply Forall_impl; [|exact H]; intros a; apply toy_safe.
Qed.

(** ** C15: without the assumption on the desired control the guarantee fails.  The plant
    x' = x + u with bounds [-1, 1] must stay out of the open interval (1, 3); the backup
    controller stands still, so it keeps every state safe.  From x = 1, a desired control of
    2 is judged safe (1 + 2 = 3) but what is applied is 1, and the plant lands in 2. *)
Definition gap : constraint R unit :=
  mkConstraint (fun x _ => (x - 2) * (x - 2) - 1) (fun x _ => (x - 2) * (x - 2) - 1)
    (fun x _ => [2 * (x - 2)]) None None 0 0 None sub_default tt true.
Definition adder (x dt : R) (u : vec) : res R := Ok (x + hd 0 u).
Definition gap_cfg : sx_cfg R := mkSxCfg unit_box 0 adder toy_gen.
Theorem C15_out_of_bounds_refuted :
  exists (cfg : sx_cfg R) (cs : dict (constraint R unit)) (s : simplex R unit) us x xs,
  gen_sized (sc_bounds cfg) (sc_gen cfg) /\ distinct_keys cs /\ consistent (sc_bounds cfg) /\
  (forall x st x' st', safe cs x ->
     backup_step (sc_bounds cfg) (sc_pred cfg) (sc_gen cfg) 1 x st x' st' -> safe cs x') /\
  (forall u, In u us -> fits (sc_bounds cfg) (length u)) /\
  enable s = true /\ constraints_now s = cs /\ safe cs x /\
  closed_loop cfg Explicit 1 us x s xs /\ ~ Forall (safe cs) xs.
Proof.
  exists gap_cfg, [("gap"%string, gap)],
    (rta_init (update_params (mkCb [("gap"%string, gap)] [] [] [] false (mkSx 0 (mkCtl CSNone CSNone CSNone))))),
    [[2]], 1, [1 + 1].
  split; [intros x dt cs u cs' H; inversion H; subst; exact unit_box_fits|].
  split; [repeat constructor; simpl; tauto|].
  split; [exact unit_box_consistent|].
  split.
  { intros x st x' st' Hs (u & w & Hg & Hb & Hp). inversion Hg; subst u st'.
    apply (clip_iff_boxed unit_box [0] w unit_box_fits) in Hb.
    rewrite unit_box_zero in Hb; inversion Hb; subst w.
    unfold gap_cfg, sc_pred, adder in Hp; simpl in Hp; inversion Hp; subst x'.
    intros k c Hc He; specialize (Hs k c Hc He); destruct Hc as [Hc|[]]; inversion Hc; subst; simpl in *.
    replace (x + 0) with x by ring; exact Hs. }
  split; [intros u [<-|[]]; exact unit_box_fits|].
  split; [reflexivity|split; [reflexivity|]].
  split; [intros k c [H|[]] _; inversion H; subst; simpl; lra|].
  split.
  - econstructor; [compute_model; reflexivity|reflexivity|constructor].
  - intros H; inversion H as [|? ? H1 _]; subst.
    specialize (H1 "gap"%string gap (or_introl eq_refl) eq_refl); simpl in H1; lra.
Qed.
Print Assumptions C15_out_of_bounds_refuted.

(** What does hold without it: the guarantee under the extra assumption that safety of the
    raw prediction implies safety of the applied one. *)
Theorem C15_out_of_bounds_partial :
  forall (X P : Type) (cfg : sx_cfg X) dt (cs : dict (constraint X P)) (s s' : simplex X P) x u w x' x1,
  gen_sized (sc_bounds cfg) (sc_gen cfg) -> 0 < dt -> distinct_keys cs ->
  (forall st x2 st2, backup_step (sc_bounds cfg) (sc_pred cfg) (sc_gen cfg) dt x st x2 st2 -> safe cs x2) ->
  enable s = true -> constraints_now s = cs ->
  sc_pred cfg x dt u = Ok x1 ->
  (forall v x2, boxed (sc_bounds cfg) u v -> sc_pred cfg x dt v = Ok x2 -> safe cs x1 -> safe cs x2) ->
  fits (sc_bounds cfg) (length u) ->
  simplex_filter_control cfg Explicit (InArray x) dt u s = (Ok w, s') ->
  sc_pred cfg x dt w = Ok x' -> safe cs x'.
Proof.
  intros X P cfg dt cs s s' x u w x' x1 G Hd D B E C Hp1 Hc Fu H Hp.
  destruct (call_inv cfg G Explicit x dt u s s' w Hd) as [(_ & ub & st & Hg & Hb & _)|(_ & xs & HF & [A|A])];
    auto; try discriminate; try congruence.
  - apply (B (ctl_now s) x' st); exists ub, w; auto.
  - destruct A as (A & Hcl & _). destruct HF as (x2 & Hp2 & ->).
    rewrite Hp1 in Hp2; inversion Hp2; subst x2.
    apply (Hc w x'); auto; [apply clip_iff_boxed; auto|rewrite <- C; apply A; left; auto].
  - destruct A as (_ & ub & st & Hg & Hb & _). apply (B (ctl_now s) x' st); exists ub, w; auto.
Qed.
Print Assumptions C15_out_of_bounds_partial.

(** ** C16: implicit simplex. *)
(** Accepting a control means having a plan: a safe next state and a safe recovery of
    floor(window/step) steps from it. *)
Theorem C16_accepted_control_has_plan :
  forall (X P : Type) (cfg : sx_cfg X) win (s s' : simplex X P) x dt u w N x1,
  gen_sized (sc_bounds cfg) (sc_gen cfg) -> window_steps win dt N ->
  enable s = true -> distinct_keys (constraints_now s) ->
  simplex_filter_control cfg (Implicit win) (InArray x) dt u s = (Ok w, s') ->
  intervening s' = false -> sc_pred cfg x dt u = Ok x1 ->
  safe (constraints_now s) x1 /\
  safe_plan (constraints_now s) (sc_bounds cfg) (sc_pred cfg) (sc_gen cfg) dt N x1 (ctl_now s').
Proof.
  intros X P cfg win s s' x dt u w N x1 G W E D H Hi Hp.
  assert (Hw : forall win0, Implicit win = Implicit win0 -> 0 <= win0).
  { intros win0 Eq; inversion Eq; subst. destruct W as (W0 & W1 & _).
    apply Rle_trans with (INR N * dt); auto. apply Rmult_le_pos; [apply pos_INR|lra]. }
  destruct (call_inv cfg G (Implicit win) x dt u s s' w (proj1 W) Hw E D H)
    as [(_ & ub & st & _ & _ & _ & _ & Hi' & _)|(_ & xs & HF & [A|A])]; [congruence| |].
  - destruct A as (A & _ & _ & _ & _ & _ & A5 & _).
    destruct HF as (x2 & Hp2 & n & ps & W' & Hpath & ->).
    rewrite Hp in Hp2; inversion Hp2; subst x2.
    assert (n = N) by (rewrite <- (window_steps_int _ _ _ W), <- (window_steps_int _ _ _ W'); auto).
    subst n; split; [apply A; left; auto|].
    rewrite A5; exists ps; split; auto. apply Forall_forall; intros y Hy; apply A; right; auto.
  - destruct A as (_ & ub & st & _ & _ & _ & _ & Hi' & _); congruence.
Qed.
Print Assumptions C16_accepted_control_has_plan.

(** As long as the plan lasts the loop is safe, whatever is asked for. *)
Theorem C16_safe_while_plan_lasts :
  forall (X P : Type) (cfg : sx_cfg X) dt win N (cs : dict (constraint X P)),
  gen_sized (sc_bounds cfg) (sc_gen cfg) -> window_steps win dt N -> distinct_keys cs ->
  forall us x (s : simplex X P) xs,
  (forall u, In u us -> fits (sc_bounds cfg) (length u) /\ within (sc_bounds cfg) u) ->
  enable s = true -> constraints_now s = cs -> (length us <= N)%nat ->
  safe_plan cs (sc_bounds cfg) (sc_pred cfg) (sc_gen cfg) dt N x (ctl_now s) ->
  closed_loop cfg (Implicit win) dt us x s xs -> Forall (safe cs) xs.
Proof.
  intros X P cfg dt win N cs G W D us x s xs Hus E C Hl Pl.
  refine (implicit_plan_safe cfg G dt win N cs W D us x s xs Hus E C Hl _); exists N; auto.
Qed.
Print Assumptions C16_safe_while_plan_lasts.

Theorem C16_implicit_safe_for_ever :
  forall (X P : Type) (cfg : sx_cfg X) dt win N (cs : dict (constraint X P)),
  gen_sized (sc_bounds cfg) (sc_gen cfg) -> window_steps win dt N -> distinct_keys cs ->
  (forall x st, safe_plan cs (sc_bounds cfg) (sc_pred cfg) (sc_gen cfg) dt N x st ->
     safe_plan cs (sc_bounds cfg) (sc_pred cfg) (sc_gen cfg) dt (S N) x st) ->
  forall us x (s : simplex X P) xs,
  (forall u, In u us -> fits (sc_bounds cfg) (length u) /\ within (sc_bounds cfg) u) ->
  enable s = true -> constraints_now s = cs ->
  safe_plan cs (sc_bounds cfg) (sc_pred cfg) (sc_gen cfg) dt N x (ctl_now s) ->
  closed_loop cfg (Implicit win) dt us x s xs -> Forall (safe cs) xs.
Proof. intros X P cfg dt win N cs G; exact (implicit_safe cfg G dt win N cs). Qed.
Print Assumptions C16_implicit_safe_for_ever.

(** Non-vacuity: the toy plant, window 2. *)
Lemma toy_plan n x : safe_plan (constraints_now toy) unit_box toy_pred toy_gen 1 n x CSNone.
Proof.
  exists (repeat 0 n); split; [apply toy_path; [exact unit_box_fits|exact unit_box_zero]|].
  apply Forall_forall; intros y Hy; apply repeat_spec in Hy; subst; apply toy_safe; lra.
Qed.
Example C16_case :
  gen_sized (sc_bounds (toy_cfg unit_box 2)) (sc_gen (toy_cfg unit_box 2)) /\ window_steps 2 1 2 /\
  distinct_keys (constraints_now toy) /\
  (forall x st, safe_plan (constraints_now toy) unit_box toy_pred toy_gen 1 2 x st ->
                safe_plan (constraints_now toy) unit_box toy_pred toy_gen 1 3 x st) /\
  safe_plan (constraints_now toy) unit_box toy_pred toy_gen 1 2 1 (ctl_now toy) /\
  exists xs, closed_loop (toy_cfg unit_box 2) (Implicit 2) 1 [[1]; [-1]] 1 toy xs.
Proof.
  assert (W : window_steps 2 1 2) by (unfold window_steps; simpl; lra).
  assert (B : boxed unit_box [0] [0])
    by (apply (clip_iff_boxed unit_box [0] [0] unit_box_fits), unit_box_zero).
  assert (G := toy_gen_sized unit_box 2 unit_box_fits).
  split; [exact G|split; [exact W|split; [exact toy_distinct|split; [|split; [apply toy_plan|]]]]].
  - intros x st _. exists [0; 0; 0].
    split; [|repeat (constructor; [apply toy_safe; lra|]); constructor].
    repeat (econstructor; [exists [0], [0]; split; [reflexivity|split; [exact B|reflexivity]]|]); constructor.
  - destruct (C12_accepts_iff_foreseen_safe R unit (toy_cfg unit_box 2) (Implicit 2) toy 1 1 [1] [1; 0; 0])
      as [H _]; auto; try exact unit_box_fits; try exact toy_distinct; try apply toy_not_held;
      try (intros t; discriminate).
    { exists 1; split; [reflexivity|]. exists 2%nat, [0; 0]; split; [exact W|split; [|reflexivity]].
      apply (toy_path unit_box 2 unit_box_fits unit_box_zero). }
    destruct H as (w & s1 & H1 & H2 & H3 & H4).
    { repeat (constructor; [apply toy_safe; lra|]); constructor. }
    destruct (C12_accepts_iff_foreseen_safe R unit (toy_cfg unit_box 2) (Implicit 2) s1 (hd 0 w) 1 [-1] [-1; 0; 0])
      as [_ K]; auto; try exact unit_box_fits.
    { destruct (filter_control_ok_inv _ _ _ _ _ _ _ _ (eq_refl : enable toy = true) H1) as (v & t & Hc & _ & ->).
      assert (A := call_inv (toy_cfg unit_box 2) G (Implicit 2) 1 1 [1] toy _ w ltac:(lra)
                 ltac:(intros win Eq; inversion Eq; lra) eq_refl toy_distinct H1).
      destruct A as [(_ & ub & st & _ & _ & A & _)|(_ & xs & _ & [(_ & _ & A & _)|(_ & ub & st & _ & _ & A & _)])];
        exact A. }
    { assert (A := call_inv (toy_cfg unit_box 2) G (Implicit 2) 1 1 [1] toy s1 w ltac:(lra)
                 ltac:(intros win Eq; inversion Eq; lra) eq_refl toy_distinct H1).
      assert (constraints_now s1 = constraints_now toy).
      { destruct A as [(_ & ub & st & _ & _ & _ & A & _)|(_ & xs & _ & [(_ & _ & _ & A & _)|(_ & ub & st & _ & _ & _ & A & _)])];
        exact A. }
      rewrite H; exact toy_distinct. }
    { intros [Hi _]; congruence. }
    { rewrite H4; intros t; discriminate. }
    { exists (-1); split; [reflexivity|]. exists 2%nat, [0; 0]; split; [exact W|split; [|reflexivity]].
      rewrite H4; apply (toy_path unit_box 2 unit_box_fits unit_box_zero). }
    destruct (K) with (ub := [0]) (st := ctl_now s1) as (w2 & s2 & K1 & _).
    { assert (A := call_inv (toy_cfg unit_box 2) G (Implicit 2) 1 1 [1] toy s1 w ltac:(lra)
                 ltac:(intros win Eq; inversion Eq; lra) eq_refl toy_distinct H1).
      assert (constraints_now s1 = constraints_now toy).
      { destruct A as [(_ & ub & st & _ & _ & _ & A & _)|(_ & xs & _ & [(_ & _ & _ & A & _)|(_ & ub & st & _ & _ & _ & A & _)])];
        exact A. }
      rewrite H; intros F; inversion F as [|? ? F1 _]; subst; apply toy_safe in F1; lra. }
    { reflexivity. }
    exists [hd 0 w; hd 0 w2].
    econstructor; [exact H1|reflexivity|]. econstructor; [exact K1|reflexivity|constructor].
Qed.

(** ** C17 (simplex): disabled constraints.  [s'] is [s] with its disabled constraints left
    out; every later history without assignments to constraints looks the same. *)
Theorem C17_simplex_disabled_ignored :
  forall (X P : Type) (cfg : sx_cfg X) (k : sx_kind) (s s' : simplex X P) os,
  enable s' = enable s -> intervening s' = intervening s ->
  control_desired s' = control_desired s -> control_actual s' = control_actual s ->
  cb_ext (ext s') = cb_ext (ext s) ->
  distinct_keys (constraints_now s) ->
  constraints_now s' = without_disabled (constraints_now s) ->
  Forall no_assign os ->
  fst (cb_run (simplex_filter_control cfg k) simplex_reset os s') =
  fst (cb_run (simplex_filter_control cfg k) simplex_reset os s).
Proof.
  intros X P cfg k s s' os H1 H2 H3 H4 H5 H6 H7 NA.
  symmetry; apply run_pruned; auto.
  unfold pruned, elapsed_now, ctl_sim, ctl_of, get_sx; rewrite H5; auto 12.
Qed.
Print Assumptions C17_simplex_disabled_ignored.

(** Non-vacuity: a module with one disabled constraint that is violated. *)
Example C17_case :
  let cs := [("floor"%string, toy_constraint 0); ("off"%string, set_c_enabled false (toy_constraint (-100)))] in
  exists s s', simplex_init cs None CSNone = Ok s /\ simplex_init (without_disabled cs) None CSNone = Ok s' /\
    distinct_keys (constraints_now s) /\ constraints_now s' = without_disabled (constraints_now s) /\
    length (constraints_now s') = 1%nat /\
    fst (simplex_filter_control (toy_cfg free 0) Explicit (InArray 0) 1 [5] s) = Ok [5].
Proof.
  do 2 eexists; split; [reflexivity|split; [reflexivity|]].
  split; [unfold distinct_keys; simpl; repeat constructor; simpl; intuition discriminate|].
  split; [reflexivity|split; [reflexivity|]].
  compute_model; reflexivity.
Qed.

(** ** C08 (simplex): only present parameters and flags matter: two modules that agree on
    everything except the memory of earlier parameter values and flags give the same
    observations in every history, and equal info records. *)
Theorem C08_simplex_present_values_only :
  forall (X P : Type) (cfg : sx_cfg X) (k : sx_kind) (s s' : simplex X P) os,
  same_but_caches s s' ->
  fst (cb_run (simplex_filter_control cfg k) simplex_reset os s) =
  fst (cb_run (simplex_filter_control cfg k) simplex_reset os s') /\
  cb_info (snd (cb_run (simplex_filter_control cfg k) simplex_reset os s)) =
  cb_info (snd (cb_run (simplex_filter_control cfg k) simplex_reset os s')).
Proof.
  intros X P cfg k s s' os (H1 & H2 & H3 & H4 & H5 & H6 & H7 & H8 & H9 & H10).
  assert (S : sim True s s') by (unfold sim, ctl_sim; auto 12).
  destruct (run_sim cfg k os True s s' S) as [E1 E2]; split; auto.
  apply sim_info; destruct E2 as (E21 & E22 & E23 & E24 & E25 & E26 & E27 & E28).
  unfold sim; auto 12.
Qed.
Print Assumptions C08_simplex_present_values_only.

(** Two histories of assignments that end in the same values give equal modules up to that
    memory. *)
Theorem C08_assignments_last_value_counts :
  forall (X P : Type) (cfg : sx_cfg X) (k : sx_kind) (s : simplex X P) os os' next,
  (forall o, In o (os ++ os') -> ~ no_assign o) ->
  constraints_after os (constraints_now s) = constraints_after os' (constraints_now s) ->
  fst (cb_run (simplex_filter_control cfg k) simplex_reset next
        (snd (cb_run (simplex_filter_control cfg k) simplex_reset os s))) =
  fst (cb_run (simplex_filter_control cfg k) simplex_reset next
        (snd (cb_run (simplex_filter_control cfg k) simplex_reset os' s))).
Proof.
  intros X P cfg k s os os' next HA HC.
  assert (K : forall l, (forall o, In o l -> ~ no_assign o) -> forall s0 : simplex X P,
    let t := snd (cb_run (simplex_filter_control cfg k) simplex_reset l s0) in
    t = on_ext (set_constraints (constraints_after l (constraints_now s0))) s0).
  { induction l as [|o l IH]; intros Hl s0; simpl.
    - destruct s0 as [a1 a2 a3 a4 [b1 b2 b3 b4 b5 b6]]; reflexivity.
    - assert (Ho := Hl o (or_introl eq_refl)).
      assert (Hl' : forall o0, In o0 l -> ~ no_assign o0) by (intros o0 H0; apply Hl; right; auto).
      destruct o as [i dt u| |en|i|kk p|kk e]; try (exfalso; apply Ho; exact I); simpl.
      + specialize (IH Hl' (on_ext (on_constraint kk (set_c_params p)) s0)); simpl in IH.
        destruct (cb_run _ _ l _) as [bs t]; simpl in *; rewrite IH; reflexivity.
      + specialize (IH Hl' (on_ext (on_constraint kk (set_c_enabled e)) s0)); simpl in IH.
        destruct (cb_run _ _ l _) as [bs t]; simpl in *; rewrite IH; reflexivity. }
  rewrite (K os) by (intros o Ho; apply HA, in_or_app; auto).
  rewrite (K os') by (intros o Ho; apply HA, in_or_app; auto).
  rewrite HC; reflexivity.
Qed.
Print Assumptions C08_assignments_last_value_counts.

(** Non-vacuity: a module built with the constraint disabled and then enabled, and one
    built with it enabled, differ in their memory only. *)
Example C08_case :
  let off := set_c_enabled false (toy_constraint 0) in
  exists s0 s s', simplex_init [("floor"%string, off)] None CSNone = Ok s0 /\
    snd (cb_step (simplex_filter_control (toy_cfg free 0) Explicit) simplex_reset
           (OSetEnabled "floor"%string true) s0) = s /\
    simplex_init [("floor"%string, toy_constraint 0)] None CSNone = Ok s' /\
    same_but_caches s s' /\ cb_enabled (ext s) <> cb_enabled (ext s').
Proof.
  do 3 eexists; split; [reflexivity|split; [reflexivity|split; [reflexivity|split]]].
  - unfold same_but_caches; repeat split; reflexivity.
  - discriminate.
Qed.

(** ** C05 (simplex): reset. *)
(** The full statement: after a reset, in any history, the module answers later calls like
    a newly built one.  It fails: the latching time used so far survives the reset.
    With latch time 2 and step 1, an intervention and one held call before the reset make
    the first intervention after it end one call early. *)
Theorem C05_simplex_reset_refuted :
  exists (cfg : sx_cfg R) (s0 s fresh : simplex R unit) h next,
  simplex_init toy_constraints None CSNone = Ok s0 /\
  snd (cb_run (simplex_filter_control cfg Explicit) simplex_reset (h ++ [OReset]) s0) = s /\
  simplex_init toy_constraints None CSNone = Ok fresh /\
  fst (cb_run (simplex_filter_control cfg Explicit) simplex_reset next s) <>
  fst (cb_run (simplex_filter_control cfg Explicit) simplex_reset next fresh).
Proof.
  exists (toy_cfg free 2), toy; do 2 eexists.
  exists [OFilter (InArray 0) 1 [-1]; OFilter (InArray 0) 1 [-1]],
         [OFilter (InArray 0) 1 [-1]; OFilter (InArray 0) 1 [1]; OFilter (InArray 0) 1 [1]].
  split; [reflexivity|split; [reflexivity|split; [reflexivity|]]].
  compute_model. intros H; inversion H; lra.
Qed.
Print Assumptions C05_simplex_reset_refuted.

(** What holds: a module without latching, or one reset while not intervening for the first
    time, behaves after the reset as a new module with the same constraints (present
    parameters and flags), in every later history; its info record differs at most in the
    constraint values, until these are evaluated again. *)
Theorem C05_simplex_reset_partial :
  forall (X P : Type) (cfg : sx_cfg X) (k : sx_kind) defined to_use initial (s0 s : simplex X P) h seen fresh next,
  simplex_init defined to_use initial = Ok s0 ->
  cb_run (simplex_filter_control cfg k) simplex_reset h s0 = (seen, s) ->
  (sc_latch cfg <= 0 \/ (no_reset h /\ intervening s = false)) ->
  simplex_init (constraints_now s) None initial = Ok fresh ->
  exists s1, simplex_reset s = (Ok tt, s1) /\
    let r := cb_run (simplex_filter_control cfg k) simplex_reset next s1 in
    let r' := cb_run (simplex_filter_control cfg k) simplex_reset next fresh in
    fst r = fst r' /\ rta_info (snd r) = rta_info (snd r') /\
    (~ quiet true next -> cb_info (snd r) = cb_info (snd r')).
Proof.
  intros X P cfg k defined to_use initial s0 s h seen fresh next H0 HR HL HF.
  destruct (simplex_init_inv _ _ _ _ H0) as (Sv & I0 & _ & E0 & _ & N0 & _).
  assert (Hi : initial_of s = initial) by (rewrite (run_initial cfg k h s0 seen s HR); auto).
  assert (He : elapsed_now s = 0).
  { destruct HL as [HL|[NR Hn]].
    - exact (run_zero cfg k h s0 seen s HL E0 HR).
    - apply (run_counter cfg k h s0 seen s NR); auto. intros _; exact E0. }
  destruct (reset_like_new s initial fresh Sv Hi He HF) as (s1 & R1 & S1).
  exists s1; split; auto.
  destruct (simplex_init_inv _ _ _ _ HF) as (_ & _ & _ & _ & Ef & _).
  destruct (run_sim cfg k next False s1 fresh S1) as [E1 E2]; simpl.
  destruct E2 as (A1 & A2 & A3 & A4 & A5 & A6 & A7 & A8).
  split; auto; split.
  - unfold rta_info; rewrite A1, A2, A3, A4; auto.
  - intros Q; apply sim_info; unfold sim; repeat (split; [assumption|]).
    intros _; apply A8; right. destruct S1 as (-> & _); rewrite Ef; auto.
Qed.
Print Assumptions C05_simplex_reset_partial.

(** Non-vacuity: a history with an intervention, parameters changed, no latching. *)
Example C05_case : exists seen s fresh,
  cb_run (simplex_filter_control (toy_cfg free 0) Explicit) simplex_reset
    [OFilter (InArray 0) 1 [-1]; OSetEnabled "floor"%string false] toy = (seen, s) /\
  seen = [ObsControl [0]; ObsDone] /\
  sc_latch (toy_cfg free 0) <= 0 /\
  simplex_init (constraints_now s) None CSNone = Ok fresh.
Proof.
  do 3 eexists; split; [compute_model; reflexivity|split; [reflexivity|split; [simpl; lra|reflexivity]]].
Qed.
