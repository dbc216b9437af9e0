(** C80: what optimization modules do with a constraint that has no strengthening function. *)
From Coq Require Import String Reals List Bool ZArith Lia Lra.
From Verif Require Import Prelude Vec ModelBase ModelController ModelSimplex ModelAsif ModelDiscrete
  SpecCore SpecSimplex SpecHistory SpecAsif SpecImplicit SpecDiscrete ProofsBase ProofsVec ProofsHistory ProofsAsif ProofsAsif2
  ProofsAsif3 ProofsSimplex ProofsImplicit ProofsImplicit2 ProofsImplicit5 ProofsDiscrete ProofsSim ExampleQP ExampleTools PropertiesAsif
  PropertiesImplicit PropertiesDiscrete.
Import ListNotations.
Local Open Scope R_scope.
Local Open Scope monad_scope.

(** Some constraint has no strengthening function; for the second definition, an enabled one. *)
Definition unstrengthened {X P} (cs : dict (constraint X P)) : Prop :=
  exists k c, In (k, c) cs /\ c_alpha c = None.
Definition unstrengthened_enabled {X P} (cs : dict (constraint X P)) : Prop :=
  exists k c, In (k, c) cs /\ c_alpha c = None /\ c_enabled c = true.

Lemma explicit_rows_fail {X P} (cfg : asif_cfg X) ns x params enabled (cs : dict (constraint X P)) :
  (forall k c, In (k, c) cs -> dict_get params k = Ok (c_params c) /\ dict_get enabled k = Ok (c_enabled c)) ->
  unstrengthened cs -> forall j, explicit_rows cfg ns j cs params enabled x = Err AssertionError.
Proof.
  induction cs as [|[k c] cs IH]; intros G (k0 & c0 & I & N) j; [destruct I|].
  cbn [explicit_rows]. destruct (G k c) as [-> ->]; [left; auto|]. cbn [rbind].
  unfold explicit_row, c_alpha_at. destruct (c_alpha c) eqn:A; [|reflexivity]. cbn [rbind].
  unfold c_alpha_negative_at; rewrite A.
  assert (U : forall j, explicit_rows cfg ns j cs params enabled x = Err AssertionError).
  { apply IH; [intros; apply G; right; auto|].
    destruct I as [I|I]; [injection I as -> ->; congruence|exists k0, c0; auto]. }
  destruct (c_alpha_neg c); cbn [rbind]; rewrite U; destruct (c_enabled c); reflexivity.
Qed.

(** ** C80, explicit module: whatever the history, every call raises AssertionError, also when
    the constraint is disabled. *)
Theorem C80_explicit : forall (X P : Type) (cfg : asif_cfg X) (s : amod X P unit) x dt u,
  explicit_reached cfg s -> enable s = true -> unstrengthened (asif_constraints s) ->
  fst (explicit_asif_filter_control cfg (InArray x) dt u s) = Err AssertionError.
Proof.
  intros X P cfg s x dt u R En U.
  destruct (explicit_reached_wired _ _ R) as [W1 W2 W3 W4 W5].
  assert (F : exists s', asif_filter cfg (explicit_mats cfg) x dt u (prep x u s) = (Err AssertionError, s')).
  { unfold asif_filter, bind at 1, modify at 1. set (s1 := on_asif update_direct (prep x u s)).
    exists s1. apply bind_err. unfold explicit_mats, bind at 1, get. apply bind_err. unfold lift. f_equal.
    apply explicit_rows_fail; auto. intros k c I. apply prep_params; auto. }
  destruct F as (s' & F). unfold explicit_asif_filter_control.
  pose proof (gfilter_array (ac_bounds cfg) (asif_filter cfg (explicit_mats cfg)) x dt u s En) as G.
  unfold gfilter in G. rewrite G. rewrite F. reflexivity.
Qed.
Print Assumptions C80_explicit.

(** A module whose constraint is even disabled, and what it does without that constraint. *)
Definition unarmed {X} (c : constraint X unit) : constraint X unit :=
  mkConstraint (c_fun c) (c_phi c) (c_grad c) None (c_alpha_neg c) (c_bias c) (c_bias_neg c) (c_slack c)
    (c_sub c) (c_params c) false.
Example C80_case : let s := line_of unit_box [("wall"%string, wall None); ("off"%string, unarmed (ground 100))] [] in
  explicit_reached (line_cfg unit_box false qp1) s /\ enable s = true /\ unstrengthened (asif_constraints s) /\
  c_enabled (@unarmed R (ground 100)) = false.
Proof.
  cbv zeta. split; [|split; [reflexivity|split; [do 2 eexists; split; [right; left; reflexivity|reflexivity]|reflexivity]]].
  apply (line_reached unit_box false qp1 _ _ []); [keys|keys|reflexivity].
Qed.
Definition half_armed := line_of unit_box [("off"%string, unarmed (ground 100)); ("wall"%string, wall None)]
  [("push"%string, push (-1/2))].

(** So a disabled constraint is not the same as none: the full statement of C80 is refuted. *)
Theorem C80_disabled_refuted :
  in_use (line_cfg unit_box false qp1) 1 walled (1/2) [1] /\
  asif_constraints walled = without_disabled (asif_constraints half_armed) /\
  asif_directs walled = asif_directs half_armed /\
  fst (line_call false qp1 walled (1/2) 1) = Ok [1/2] /\
  fst (line_call false qp1 half_armed (1/2) 1) = Err AssertionError.
Proof.
  split; [apply walled_in_use|split; [reflexivity|split; [reflexivity|split]]].
  - unfold line_call; eval_model.
    qp1_gives [[1]] [1] [[1]; [-1]; [-1]; [1]] [-1; -1; -1/2; -1/2] [1/2] [3%nat].
    eval_model; reflexivity.
  - unfold line_call; eval_model; reflexivity.
Qed.
Print Assumptions C80_disabled_refuted.

(** ** Implicit module: no call returns a control, and one that gets as far as evaluating its
    constraints along the backup trajectory raises AssertionError. *)
Lemma implicit_blocks_fail {X P} (cfg : asif_cfg X) ns x params enabled pt traj (cs : dict (constraint X P)) :
  (forall k c, In (k, c) cs -> dict_get params k = Ok (c_params c) /\ dict_get enabled k = Ok (c_enabled c)) ->
  unstrengthened cs -> forall j, implicit_blocks cfg ns j cs params enabled x (pt :: traj) = Err AssertionError.
Proof.
  induction cs as [|[k c] cs IH]; intros G (k0 & c0 & I & N) j; [destruct I|].
  cbn [implicit_blocks]. destruct (G k c) as [-> ->]; [left; auto|]. cbn [rbind].
  destruct (c_alpha c) eqn:A.
  - assert (U : forall j, implicit_blocks cfg ns j cs params enabled x (pt :: traj) = Err AssertionError).
    { apply IH; [intros; apply G; right; auto|].
      destruct I as [I|I]; [injection I as -> ->; congruence|exists k0, c0; auto]. }
    unfold implicit_block.
    rewrite (rmap_total _ (fun p => (vm (ac_dim cfg) (c_grad c (fst p) (c_params c)) (mm (ac_dim cfg) (snd p) (ac_g cfg x)),
        - (dot (c_grad c (fst p) (c_params c)) (mv (snd p) (ac_f cfg x)) + r (c_compute c (fst p) (c_params c))),
        c_compute c (fst p) (c_params c)))).
    + cbn [rbind]. rewrite U; reflexivity.
    + intros a. unfold invariance_row, c_alpha_at. rewrite A. reflexivity.
  - unfold implicit_block. cbn [rmap]. unfold invariance_row at 1, c_alpha_at at 1. rewrite A. reflexivity.
Qed.

Lemma implicit_filter_fails {X P} (cfg : asif_cfg X) ic (s : amod X P ctl) x dt u :
  distinct_keys (asif_constraints s) -> unstrengthened (asif_constraints s) ->
  exists e s', asif_filter cfg (implicit_mats cfg ic) x dt u (prep x u s) = (Err e, s') /\
    (forall q traj c, py_div (ic_window ic) dt = Ok q ->
       implicit_integrate (ac_bounds cfg) ic x dt (Z.to_nat (py_int q + 1)) (as_ext (get_asif s)) = (Ok traj, c) ->
       e = AssertionError).
Proof.
  intros K U. unfold asif_filter, bind at 1, modify at 1.
  set (s1 := on_asif update_direct (prep x u s)).
  assert (Q : exists e s', implicit_mats cfg ic x dt s1 = (Err e, s') /\
    (forall q traj c, py_div (ic_window ic) dt = Ok q ->
       implicit_integrate (ac_bounds cfg) ic x dt (Z.to_nat (py_int q + 1)) (as_ext (get_asif s)) = (Ok traj, c) ->
       e = AssertionError)).
  { unfold implicit_mats. destruct (py_div (ic_window ic) dt) as [q|e] eqn:Eq.
    2:{ do 2 eexists; split; [apply bind_err; reflexivity|discriminate]. }
    unfold bind at 1, lift at 1. cbv zeta.
    unfold bind at 1, on_actl, zoom.
    change (as_ext (get_asif s1)) with (as_ext (get_asif s)).
    destruct (implicit_integrate (ac_bounds cfg) ic x dt (Z.to_nat (py_int q + 1)) (as_ext (get_asif s))) as [[traj|e] c] eqn:Ei.
    2:{ do 2 eexists; split; [reflexivity|]. intros q' tr c' E; injection E as <-. rewrite Ei. discriminate. }
    do 2 eexists; split; [|intros; reflexivity].
    assert (T : exists pt tr, traj = pt :: tr).
    { revert Ei. unfold implicit_integrate, bind at 1. cbv zeta. destruct (ctl_save _) as [[[]|] c1]; [|discriminate].
      unfold bind at 1. destruct (implicit_loop _ _ _ _ _ _ _ c1) as [[rest|] c2]; [|discriminate].
      unfold bind. destruct (ctl_restore c2) as [[[]|] c3]; [|discriminate]. intros E; injection E as <- _; eauto. }
    destruct T as (pt & tr & ->).
    apply bind_err. unfold implicit_ineq_mats, bind at 1, get. apply bind_err. unfold lift. f_equal.
    apply implicit_blocks_fail; auto. intros k c0 I. apply prep_params; auto. }
  destruct Q as (e & s' & Q & QA). exists e, s'; split; [apply bind_err; exact Q|exact QA].
Qed.

Theorem C80_implicit : forall (X P : Type) (cfg : asif_cfg X) (ic : imp_cfg X) (s : amod X P ctl) x dt u,
  implicit_reached cfg ic s -> enable s = true -> unstrengthened (asif_constraints s) ->
  (forall w, fst (implicit_asif_filter_control cfg ic (InArray x) dt u s) <> Ok w) /\
  (forall traj, savable (imp_ctl s) -> lookahead (ac_bounds cfg) ic dt (imp_ctl s) x traj ->
     fst (implicit_asif_filter_control cfg ic (InArray x) dt u s) = Err AssertionError).
Proof.
  intros X P cfg ic s x dt u R En U.
  destruct (implicit_reached_wired cfg ic s R) as [_ _ _ W4 _].
  destruct (implicit_filter_fails cfg ic s x dt u W4 U) as (e & s' & F & QA).
  pose proof (gfilter_array (ac_bounds cfg) (asif_filter cfg (implicit_mats cfg ic)) x dt u s En) as G.
  unfold gfilter in G. unfold implicit_asif_filter_control. rewrite G, F. split; [discriminate|].
  intros traj Sv (m & rest & Wn & Lm & Pth & ET).
  destruct (path_integrate (ac_bounds cfg) ic x dt (as_ext (get_asif s)) rest Sv Pth) as (c' & Ei & _).
  cbn [fst]. f_equal. destruct Wn as (D0 & D1 & D2).
  apply (QA (ic_window ic / dt) traj c').
  - unfold py_div. destruct (Req_EM_T dt 0); [lra|reflexivity].
  - rewrite ET. rewrite <- Ei. f_equal. rewrite Lm.
    pose proof (window_steps_int _ _ _ (conj D0 (conj D1 D2))) as Q.
    assert (0 <= py_int (ic_window ic / dt))%Z; [|lia].
    unfold py_int.
    assert (0 <= ic_window ic / dt).
    { apply Rmult_le_pos; [|left; apply Rinv_0_lt_compat; auto]. pose proof (pos_INR m); nra. }
    destruct (Rle_dec 0 _); [|contradiction].
    apply le_IZR. destruct (base_Int_part (ic_window ic / dt)) as [B1 B2].
    assert (H9 : -1 < IZR (Int_part (ic_window ic / dt))) by lra.
    apply (lt_IZR (-1)) in H9; apply IZR_le; lia.
Qed.
Print Assumptions C80_implicit.
Definition imp_half_armed := imp_of unit_box [("wall"%string, wall None); ("off"%string, unarmed (ground 100))] [].
Example C80_implicit_case :
  unstrengthened (asif_constraints imp_half_armed) /\
  lookahead unit_box (line_ic (-1)) 1 (imp_ctl imp_half_armed) (1/2) (line_traj (-1) (1/2)) /\
  fst (imp_call false qp1 (-1) imp_half_armed (1/2) 1) = Err AssertionError.
Proof.
  split; [do 2 eexists; split; [right; left; reflexivity|reflexivity]|split].
  - destruct (imp_walled_in_use false qp1 (-1) (1/2) 1 ltac:(lra)) as [_ _ _ L _ _ _ _ _ _]; exact L.
  - imp_eval; reflexivity.
Qed.

(** ** Discrete module.  What is assumed of the solver here: it evaluates the inequality functions
    at the starting point, in order, and an exception of one of them ends the call. *)
Fixpoint first_exception (z : vec) (cons : list (vec -> res R)) : option exn :=
  match cons with
  | [] => None
  | g :: cons' => match g z with Err e => Some e | Ok _ => first_exception z cons' end
  end.
Definition evaluates (solve : slsqp) : Prop :=
  forall obj x0 cons lims e, first_exception x0 cons = Some e -> solve obj x0 cons lims = Err e.

Lemma cbfs_fail {X P} (cfg : disc_cfg X) x dt z : forall (cs : dict (constraint X P)) n, unstrengthened_enabled cs ->
  first_exception z (enabled_cbfs cfg (map snd cs) (slack_indices n cs) (map (fun kc => c_params (snd kc)) cs)
     (map (fun kc => c_enabled (snd kc)) cs) x dt) = Some AssertionError.
Proof.
  induction cs as [|[k c] cs IH]; intros n (k0 & c0 & I & N & E); [destruct I|].
  assert (Q : c_alpha c = None /\ c_enabled c = true \/ unstrengthened_enabled cs).
  { destruct I as [I|I]; [injection I as -> ->; left; auto|right; exists k0, c0; auto]. }
  destruct Q as [[A B]|U].
  - cbn [map slack_indices snd]. destruct (c_slack c); cbn [enabled_cbfs]; rewrite B; cbn [first_exception];
      unfold cbf_fn at 1, c_alpha_at at 1; rewrite A; reflexivity.
  - cbn [map slack_indices snd]. destruct (c_slack c); cbn [enabled_cbfs]; destruct (c_enabled c); cbn [first_exception];
      auto; unfold cbf_fn at 1, c_alpha_at at 1; destruct (c_alpha c); cbn [rbind]; auto.
Qed.

(** Only an enabled constraint without strengthening function matters here. *)
Theorem C80_discrete : forall (X P : Type) (cfg : disc_cfg X) (s : dmod X P) x dt u,
  evaluates (dc_solve cfg) -> disc_reached cfg s -> enable s = true ->
  one_number (b_low (dc_bounds cfg)) -> one_number (b_high (dc_bounds cfg)) ->
  unstrengthened_enabled (disc_constraints s) ->
  fst (disc_filter_control cfg (InArray x) dt u s) = Err AssertionError.
Proof.
  intros X P cfg s x dt u Ev R En Hl Hh U.
  destruct (disc_reached_plugged _ _ R) as [K P1 P2 P3 P4].
  destruct (scipy_bounds_ok (dc_bounds cfg) (dc_dim cfg) (slack_count (disc_constraints s)) Hl Hh) as (lims & El & _).
  destruct (update_params_keyed _ K) as [U1 U2].
  assert (Ask : disc_asks cfg (prep x u s) x dt u lims = Err AssertionError).
  { unfold disc_asks. cbv zeta.
    change (cb_params (ext (prep x u s))) with (cb_params (update_params (ext s))).
    change (cb_enabled (ext (prep x u s))) with (cb_enabled (update_params (ext s))).
    change (cb_ext (ext (prep x u s))) with (cb_ext (ext s)).
    change (cb_constraints (ext (prep x u s))) with (disc_constraints s).
    rewrite U1, U2, P4; fold (disc_constraints s). rewrite !map_map.
    apply Ev, cbfs_fail; exact U. }
  assert (Ob : scipy_bounds (ds_opt_bounds (cb_ext (ext (prep x u s)))) = Ok lims).
  { change (ds_opt_bounds (cb_ext (ext (prep x u s)))) with (ds_opt_bounds (cb_ext (ext s))).
    rewrite P3; exact El. }
  pose proof (gfilter_array (dc_bounds cfg) (disc_filter cfg) x dt u s En) as G.
  unfold gfilter in G. unfold disc_filter_control. rewrite G, disc_filter_eq, Ob, Ask. reflexivity.
Qed.
Print Assumptions C80_discrete.
Definition careful (solve : slsqp) : slsqp := fun obj x0 cons lims =>
  match first_exception x0 cons with Some e => Err e | None => solve obj x0 cons lims end.
Definition bare (e : bool) : constraint R unit := set_c_enabled e (unarmed (ground 0)).
Example C80_discrete_case : forall solve,
  let cfg := dline_cfg unit_box false (careful solve) in
  let s := dline_of [("wall"%string, wall None); ("bare"%string, bare true)] in
  evaluates (dc_solve cfg) /\ disc_reached cfg s /\ enable s = true /\ unstrengthened_enabled (disc_constraints s).
Proof.
  intros solve. cbv zeta. split; [|split; [apply dline_reached; keys|split; [reflexivity|]]].
  - intros obj x0 cons lims e E. unfold dline_cfg, careful; cbn [dc_solve]. rewrite E; reflexivity.
  - do 2 eexists; split; [right; left; reflexivity|split; reflexivity].
Qed.
