(** Properties of the explicit optimisation modules of the docking task: C68. *)
From Coq Require Import String Reals List Bool ZArith Lia Lra.
From Verif Require Import Prelude Vec ModelBase ModelController ModelSimplex ModelAsif ModelConstraint ModelCwh ModelZoo ModelDock
  SpecCore SpecHistory SpecAsif SpecConstraint SpecCwh SpecConic SpecZoo SpecDock
  ProofsBase ProofsVec ProofsHistory ProofsAsif ProofsAsif2 ProofsAsif3 ProofsAsif4 ProofsDock ProofsDock2
  ExampleTools PropertiesAsif PropertiesSolver.
Import ListNotations.
Local Open Scope R_scope.

(** ** C68.  The optimisation modules for docking cannot fail in their flight envelope. *)

(** In general: if near the safe states some control is always acceptable to all constraints,
    then no constraint is ever violated, and no program is infeasible; that the programs are
    feasible need not be assumed along the way. *)
Theorem C68_feasible_nearby_keeps_safe :
  forall (X P : Type) (cfg : asif_cfg X) n (cs : dict (constraint X P)) (region : X -> Prop) margin dt T x ud u s,
  qp_contract (ac_solve cfg) -> (forall G a C b, ac_solve cfg G a C b <> Err SolverError) -> 0 < margin ->
  (forall k c, In (k, c) cs -> c_enabled c = true /\ c_slack c = None /\ forall h, h < 0 -> strength c h < 0) ->
  (forall x, region x -> (forall k c, In (k, c) cs -> - margin <= c_fun c x (c_params c) + c_bias c) ->
     exists w, length w = ac_dim cfg /\ acceptable (ac_bounds cfg) (ac_dim cfg) (ac_f cfg) (ac_g cfg) cs [] x w) ->
  filter_runs cfg n cs dt T x ud u s ->
  (forall t, 0 <= t <= T -> region (x t)) ->
  (forall k c, In (k, c) cs ->
     moves_along c (c_params c) x (fun t => vadd (ac_f cfg (x t)) (mv (ac_g cfg (x t)) (u t))) T) ->
  (forall k c, In (k, c) cs -> 0 <= c_fun c (x 0) (c_params c) + c_bias c) ->
  forall t, 0 <= t <= T ->
    (forall k c, In (k, c) cs -> 0 <= c_fun c (x t) (c_params c) + c_bias c) /\
    warnings (snd (explicit_asif_filter_control cfg (InArray (x t)) dt (ud t) (s t))) = warnings (s t).
Proof.
  intros X P cfg n cs region margin dt T x ud u s QC NS Hm Hcs Feas Run Reg Mov Init.
  set (vel := fun t => vadd (ac_f cfg (x t)) (mv (ac_g cfg (x t)) (u t))) in *.
  assert (NoS : slack_count cs = 0%nat) by (apply no_slack_count; intros k c I; apply (Hcs k c I)).
  (* near the safe states no call fails *)
  assert (Quiet : forall t, 0 <= t <= T -> (forall k c, In (k, c) cs -> - margin <= c_fun c (x t) (c_params c) + c_bias c) ->
    warnings (snd (explicit_asif_filter_control cfg (InArray (x t)) dt (ud t) (s t))) = warnings (s t)).
  { intros t Ht Near. destruct (Run t Ht) as (U & Ec & Ed & _).
    destruct (Feas (x t) (Reg t Ht) Near) as (w & Lw & Aw).
    apply (C24_feasible_call X P cfg n (s t) (x t) dt (ud t) w QC NS U).
    unfold allowed. rewrite Ec, Ed, NoS, Nat.add_0_r. auto. }
  assert (All : forall t, 0 <= t <= T -> forall k c, In (k, c) cs -> 0 <= c_fun c (x t) (c_params c) + c_bias c).
  { set (pair := fun kc : string * constraint X P =>
      ((fun t => c_fun (snd kc) (x t) (c_params (snd kc)) + c_bias (snd kc)),
       (fun t => dot (c_grad (snd kc) (x t) (c_params (snd kc))) (vel t)))).
    intros t Ht k c I. change (0 <= fst (pair (k, c)) t).
    refine (together (map pair cs) T margin Hm _ _ _ t Ht (pair (k, c)) (in_map pair _ _ I)).
    - intros f Hf r Hr. apply in_map_iff in Hf. destruct Hf as ([k' c'] & <- & I'). cbn [fst snd pair].
      unfold pair. cbn [fst snd].
      rewrite <- (Rplus_0_r (dot _ _)).
      apply (derivable_pt_lim_plus (fun q => c_fun c' (x q) (c_params c')) (fun _ => c_bias c')).
      + apply (Mov k' c' I' r Hr).
      + apply derivable_pt_lim_const.
    - intros r Hr Near f Hf Neg. apply in_map_iff in Hf. destruct Hf as ([k' c'] & <- & I').
      unfold pair in *. cbn [fst snd] in *.
      assert (Near' : forall k c, In (k, c) cs -> - margin <= c_fun c (x r) (c_params c) + c_bias c).
      { intros k1 c1 I1. exact (Near (pair (k1, c1)) (in_map pair _ _ I1)). }
      pose proof (Quiet r Hr Near') as W. destruct (Run r Hr) as (U & Ec & Ed & Ok_).
      destruct (explicit_asif_filter_control cfg (InArray (x r)) dt (ud r) (s r)) as [o s'] eqn:Call.
      cbn [fst snd] in *. subst o.
      destruct (C20_returned_control_meets_barriers X P cfg n (s r) (x r) dt (ud r) (u r) s' QC U Call W)
        as (_ & _ & B & _).
      destruct (Hcs k' c' I') as (En & Sl & St). rewrite Ec in B. specialize (B k' c' I' En Sl). specialize (St _ Neg).
      fold (vel r) in B. lra.
    - intros f Hf. apply in_map_iff in Hf. destruct Hf as ([k' c'] & <- & I'). apply (Init k' c' I'). }
  intros t Ht. split; [apply All; auto|].
  apply Quiet; auto. intros k c I. specialize (All t Ht k c I). lra.
Qed.
Print Assumptions C68_feasible_nearby_keeps_safe.

(** Spatial docking: in every state of the envelope that meets the limits, or misses them by a
    little, there is an acceptable thrust, so the module neither raises SolverError nor falls back
    to the unsafe control. *)
Theorem C68_docking_3d_always_feasible :
  forall c m D b bs eps exc solve s p v dt u,
  let cfg := docking_optimization_3d (d_n c) m bs eps exc solve in
  qp_contract solve -> (forall G a C b, solve G a C b <> Err SolverError) ->
  envelope c m D b -> leaves bs 3 b -> plen p <= D -> docking_nearly_safe c p v ->
  in_use cfg 6 s (dock3 p v) u -> asif_constraints s = docking_constraints_3d c -> asif_directs s = [] ->
  (exists w, length w = 3%nat /\ allowed cfg s (dock3 p v) w) /\
  fst (explicit_asif_filter_control cfg (InArray (dock3 p v)) dt u s) <> Err SolverError /\
  warnings (snd (explicit_asif_filter_control cfg (InArray (dock3 p v)) dt u s)) = warnings s.
Proof.
  intros c m D b bs eps exc solve s [[x y] z] [[vx vy] vz] dt u cfg QC NS E L HD N U Ec Ed.
  destruct (brake_acceptable_3 c m D b bs eps exc solve x y z vx vy vz E L HD N) as (w & Lw & Aw).
  assert (A : allowed cfg s (dock3 (x, y, z) (vx, vy, vz)) w).
  { unfold allowed. rewrite Ec, Ed. split; [|exact Aw].
    rewrite no_slack_count; [exact Lw|]. rewrite docking_3d_entries. intros k e I. cbn [In] in I. entries I; reflexivity. }
  split; [exists w; auto|]. exact (C24_feasible_call _ _ cfg 6 s _ dt u w QC NS U A).
Qed.
Print Assumptions C68_docking_3d_always_feasible.

Theorem C68_docking_2d_always_feasible :
  forall c m D b bs eps exc solve s x y vx vy dt u,
  let cfg := docking_optimization_2d (d_n c) m bs eps exc solve in
  let p := (x, y, 0) in let v := (vx, vy, 0) in
  qp_contract solve -> (forall G a C b, solve G a C b <> Err SolverError) ->
  envelope c m D b -> leaves bs 2 b -> plen p <= D -> docking_nearly_safe c p v ->
  in_use cfg 4 s (dock2 p v) u -> asif_constraints s = docking_constraints_2d c -> asif_directs s = [] ->
  (exists w, length w = 2%nat /\ allowed cfg s (dock2 p v) w) /\
  fst (explicit_asif_filter_control cfg (InArray (dock2 p v)) dt u s) <> Err SolverError /\
  warnings (snd (explicit_asif_filter_control cfg (InArray (dock2 p v)) dt u s)) = warnings s.
Proof.
  intros c m D b bs eps exc solve s x y vx vy dt u cfg p v QC NS E L HD N U Ec Ed.
  destruct (brake_acceptable_2 c m D b bs eps exc solve x y vx vy E L HD N) as (w & Lw & Aw).
  assert (A : allowed cfg s (dock2 p v) w).
  { unfold allowed. rewrite Ec, Ed. split; [|exact Aw].
    rewrite no_slack_count; [exact Lw|]. rewrite docking_2d_entries. intros k e I. cbn [In] in I. entries I; reflexivity. }
  split; [exists w; auto|]. exact (C24_feasible_call _ _ cfg 4 s _ dt u w QC NS U A).
Qed.
Print Assumptions C68_docking_2d_always_feasible.

(** A spacecraft that moves by the Clohessy-Wiltshire equations under the thrust the module
    returns, and stays within distance [D], keeps all speed limits for ever; no call reports an
    infeasible program. *)
Theorem C68_docking_3d_keeps_limits :
  forall c m D b bs eps exc solve dt T (x y z vx vy vz ux uy uz : R -> R) ud s,
  let cfg := docking_optimization_3d (d_n c) m bs eps exc solve in
  let p := fun t => (x t, y t, z t) in let v := fun t => (vx t, vy t, vz t) in
  qp_contract solve -> (forall G a C b, solve G a C b <> Err SolverError) ->
  envelope c m D b -> leaves bs 3 b ->
  cwh_forced (d_n c) m T ux uy uz x y z vx vy vz ->
  filter_runs cfg 6 (docking_constraints_3d c) dt T (fun t => dock3 (p t) (v t)) ud (fun t => [ux t; uy t; uz t]) s ->
  (forall t, 0 <= t <= T -> plen (p t) <= D) ->
  docking_safe c (p 0) (v 0) ->
  forall t, 0 <= t <= T -> docking_safe c (p t) (v t) /\
    warnings (snd (explicit_asif_filter_control cfg (InArray (dock3 (p t) (v t))) dt (ud t) (s t))) = warnings (s t).
Proof.
  intros c m D b bs eps exc solve dt T x y z vx vy vz ux uy uz ud s cfg p v QC NS E L M Run HD H0 t Ht.
  pose proof (ev_limits _ _ _ _ E) as Lim.
  destruct (C68_feasible_nearby_keeps_safe _ _ cfg 6 (docking_constraints_3d c)
    (fun a => exists x y z vx vy vz, a = [x; y; z; vx; vy; vz] /\ plen (x, y, z) <= D) (1 / 1000) dt T
    (fun t => dock3 (p t) (v t)) ud (fun t => [ux t; uy t; uz t]) s QC NS) with (t := t) as [A W]; try exact Ht; try lra.
  - intros k e I. split; [|split; [|intros h; exact (negative_strength_3 c k e h I)]];
      rewrite docking_3d_entries in I; cbn [In] in I; entries I; reflexivity.
  - intros a (x1 & y1 & z1 & a1 & b1 & c1 & -> & H1) Near.
    apply (brake_acceptable_3 c m D b bs eps exc solve); auto. apply nearly_values_3. exact Near.
  - exact Run.
  - intros r Hr. exists (x r), (y r), (z r), (vx r), (vy r), (vz r). split; [reflexivity|apply (HD r Hr)].
  - intros k e I. exact (moves_3 c m bs eps exc solve T x y z vx vy vz ux uy uz M k e I).
  - intros k e I. exact (proj2 (safe_values_3 c _ _ _ _ _ _ Lim) H0 k e I).
  - split; [|exact W]. apply (safe_values_3 c); [exact Lim|]. exact A.
Qed.
Print Assumptions C68_docking_3d_keeps_limits.

Theorem C68_docking_2d_keeps_limits :
  forall c m D b bs eps exc solve dt T (x y vx vy ux uy : R -> R) ud s,
  let cfg := docking_optimization_2d (d_n c) m bs eps exc solve in
  let p := fun t => (x t, y t, 0) in let v := fun t => (vx t, vy t, 0) in
  qp_contract solve -> (forall G a C b, solve G a C b <> Err SolverError) ->
  envelope c m D b -> leaves bs 2 b ->
  cwh_forced (d_n c) m T ux uy (fun _ => 0) x y (fun _ => 0) vx vy (fun _ => 0) ->
  filter_runs cfg 4 (docking_constraints_2d c) dt T (fun t => dock2 (p t) (v t)) ud (fun t => [ux t; uy t]) s ->
  (forall t, 0 <= t <= T -> plen (p t) <= D) ->
  docking_safe c (p 0) (v 0) ->
  forall t, 0 <= t <= T -> docking_safe c (p t) (v t) /\
    warnings (snd (explicit_asif_filter_control cfg (InArray (dock2 (p t) (v t))) dt (ud t) (s t))) = warnings (s t).
Proof.
  intros c m D b bs eps exc solve dt T x y vx vy ux uy ud s cfg p v QC NS E L M Run HD H0 t Ht.
  pose proof (ev_limits _ _ _ _ E) as Lim.
  destruct (C68_feasible_nearby_keeps_safe _ _ cfg 4 (docking_constraints_2d c)
    (fun a => exists x y vx vy, a = [x; y; vx; vy] /\ plen (x, y, 0) <= D) (1 / 1000) dt T
    (fun t => dock2 (p t) (v t)) ud (fun t => [ux t; uy t]) s QC NS) with (t := t) as [A W]; try exact Ht; try lra.
  - intros k e I. split; [|split; [|intros h; exact (negative_strength_2 c k e h I)]];
      rewrite docking_2d_entries in I; cbn [In] in I; entries I; reflexivity.
  - intros a (x1 & y1 & a1 & b1 & -> & H1) Near.
    apply (brake_acceptable_2 c m D b bs eps exc solve); auto. apply nearly_values_2. exact Near.
  - exact Run.
  - intros r Hr. exists (x r), (y r), (vx r), (vy r). split; [reflexivity|apply (HD r Hr)].
  - intros k e I. exact (moves_2 c m bs eps exc solve T x y vx vy ux uy M k e I).
  - intros k e I. exact (proj2 (safe_values_2 c _ _ _ _ Lim) H0 k e I).
  - split; [|exact W]. apply (safe_values_2 c); [exact Lim|]. exact A.
Qed.
Print Assumptions C68_docking_2d_keeps_limits.

(** The default limits, mass 12, mean motion 0.001027 and thrust of 1 are in the envelope up to a
    distance of 1 km. *)
Definition mean_motion : R := 1027 / 1000000.
Lemma default_envelope_3d : envelope (dock_default_3d mean_motion) 12 1000 1.
Proof. unfold mean_motion. constructor; unfold top_speed, dock_default_3d; cbn; lra. Qed.
Lemma default_envelope_2d : envelope (dock_default_2d mean_motion) 12 1000 1.
Proof. unfold mean_motion. constructor; unfold top_speed, dock_default_2d; cbn; lra. Qed.
Lemma docking_bounds_leave dim : leaves docking_bounds dim 1.
Proof.
  intros w _ H. split; intros i u l Hu Hl; apply nth_error_In in Hu; specialize (H u Hu);
    destruct i; cbn in Hl; injection Hl as <-; unfold Rabs in H; destruct (Rcase_abs u); lra.
Qed.

Definition docking_module_3d (c : dock_cfg) : amod vec zparams unit :=
  match asif_init (docking_optimization_3d (d_n c) 12 docking_bounds 0 true (fun _ _ _ _ => Err SolverError))
          (docking_constraints_3d c) None [] tt with
  | Ok s => s
  | Err _ => rta_init (mkCb [] [] [] [] false (mkAsif 0 [] [] [] [] [] [] [] None 0 tt))
  end.
Definition docking_module_2d (c : dock_cfg) : amod vec zparams unit :=
  match asif_init (docking_optimization_2d (d_n c) 12 docking_bounds 0 true (fun _ _ _ _ => Err SolverError))
          (docking_constraints_2d c) None [] tt with
  | Ok s => s
  | Err _ => rta_init (mkCb [] [] [] [] false (mkAsif 0 [] [] [] [] [] [] [] None 0 tt))
  end.
Lemma docking_3d_in_use c m eps exc solve p v u : length u = 3%nat ->
  in_use (docking_optimization_3d (d_n c) m docking_bounds eps exc solve) 6 (docking_module_3d c) (dock3 p v) u.
Proof.
  intros Lu. destruct p as [[x y] z], v as [[vx vy] vz]. constructor; try reflexivity; try exact Lu.
  - exists (docking_constraints_3d c), None, [], (docking_module_3d c), [], [].
    split; [keys|split; [keys|split; reflexivity]].
  - split; cbn; auto.
  - constructor.
    + reflexivity.
    + split; [reflexivity|repeat constructor].
    + intros k e I. change (In (k, e) (docking_constraints_3d c)) in I. rewrite docking_3d_entries in I. cbn [In] in I.
      change (dock3 (x, y, z) (vx, vy, vz)) with [x; y; z; vx; vy; vz].
      entries I; [rewrite rv3_grad|rewrite (lim_grad _ 3 _ vx) by reflexivity|rewrite (lim_grad _ 4 _ vy) by reflexivity|rewrite (lim_grad _ 5 _ vz) by reflexivity]; reflexivity.
    + intros k d [].
  - intros k e I. change (In (k, e) (docking_constraints_3d c)) in I. rewrite docking_3d_entries in I. cbn [In] in I.
    entries I; discriminate.
Qed.
Lemma docking_2d_in_use c m eps exc solve x y vx vy u : length u = 2%nat ->
  in_use (docking_optimization_2d (d_n c) m docking_bounds eps exc solve) 4 (docking_module_2d c) (dock2 (x, y, 0) (vx, vy, 0)) u.
Proof.
  intros Lu. constructor; try reflexivity; try exact Lu.
  - exists (docking_constraints_2d c), None, [], (docking_module_2d c), [], [].
    split; [keys|split; [keys|split; reflexivity]].
  - split; cbn; auto.
  - constructor.
    + reflexivity.
    + split; [reflexivity|repeat constructor].
    + intros k e I. change (In (k, e) (docking_constraints_2d c)) in I. rewrite docking_2d_entries in I. cbn [In] in I.
      change (dock2 (x, y, 0) (vx, vy, 0)) with [x; y; vx; vy].
      entries I; [rewrite rv2_grad|rewrite (lim_grad _ 2 _ vx) by reflexivity|rewrite (lim_grad _ 3 _ vy) by reflexivity]; reflexivity.
    + intros k d [].
  - intros k e I. change (In (k, e) (docking_constraints_2d c)) in I. rewrite docking_2d_entries in I. cbn [In] in I.
    entries I; discriminate.
Qed.

(** A spacecraft leaves along the orbit at 10 cm/s; the pilot wants the thrust that keeps it so.
    With some solver the module lets it pass at all times. *)
Lemma pilot_unchanged :
  exists solve, qp_contract solve /\ (forall G a C b, solve G a C b <> Err SolverError) /\
  forall (X P : Type) (cfg : asif_cfg X) n (s : amod X P unit) x dt u, ac_solve cfg = solve -> 0 <= ac_eps cfg ->
  in_use cfg n s x u -> (forall k c, In (k, c) (asif_constraints s) -> c_slack c = None) -> allowed cfg s x u ->
  fst (explicit_asif_filter_control cfg (InArray x) dt u s) = Ok u.
Proof.
  destruct C69_some_solver_serves_all as (solve & QC & NS & H). exists solve. split; [exact QC|split; [exact NS|]].
  intros X P cfg n s x dt u <- He U Sl A.
  assert (PS : positive_scales (asif_constraints s)).
  { intros k c p I E. rewrite (Sl k c I) in E. discriminate. }
  specialize (H X P cfg n s x dt u U PS). rewrite with_solver_same in H. cbv zeta in H.
  destruct H as [[w Hw]|(_ & _ & N)]; [|exfalso; apply N; eauto].
  destruct (explicit_asif_filter_control cfg (InArray x) dt u s) as [o s'] eqn:E. cbn [fst] in *. subst o.
  destruct (C21_acceptable_unchanged X P cfg n s x dt u w s' QC U) as [-> _]; auto.
  apply no_slack_count. exact Sl.
Qed.
Definition drift_thrust : R := - (2 * mean_motion * (1 / 10)) * 12.
Definition drift (t : R) : R := 100 + t / 10.
Lemma drift_speed : smooth (0, 1 / 10, 0) <= 11 / 100.
Proof.
  replace (11 / 100) with (1 / 10 + 1 / 100) by lra. apply smooth_le. unfold plen, pdot.
  replace (0 * 0 + 1 / 10 * (1 / 10) + 0 * 0) with ((1 / 10) * (1 / 10)) by ring. rewrite sqrt_square; lra.
Qed.
Lemma drift_length t : 0 <= t -> plen (0, drift t, 0) = drift t.
Proof.
  intros Ht. unfold plen, pdot. replace (0 * 0 + drift t * drift t + 0 * 0) with (drift t * drift t) by ring.
  apply sqrt_square. unfold drift. lra.
Qed.
Lemma drift_safe c t : 0 <= t -> 2 / 10 = d_v0 c -> d_v0_distance c = 0 -> 0 <= d_v1_coef c * d_n c ->
  d_x_limit c = 10 -> d_y_limit c = 10 -> d_z_limit c = 10 -> docking_safe c (0, drift t, 0) (0, 1 / 10, 0).
Proof.
  intros Ht E1 E2 Hp Ex Ey Ez. split.
  - unfold slow_enough. rewrite E2, <- E1.
    change (sqrt (pdot (0, 1 / 10, 0) (0, 1 / 10, 0) + 1 / 100000)) with (smooth (0, 1 / 10, 0)).
    change (sqrt (pdot (0, drift t, 0) (0, drift t, 0) + 1 / 100000)) with (smooth (0, drift t, 0)).
    pose proof drift_speed. pose proof (smooth_pos (0, drift t, 0)).
    assert (0 <= d_v1_coef c * d_n c * (smooth (0, drift t, 0) - 0)) by (apply Rmult_le_pos; lra). lra.
  - unfold components_within. rewrite Ex, Ey, Ez. cbn. unfold Rabs. destruct (Rcase_abs 0), (Rcase_abs (1 / 10)); lra.
Qed.

Example C68_docking_3d_case : forall T, 0 <= T <= 1000 ->
  let c := dock_default_3d mean_motion in let p := fun t => (0, drift t, 0) in let v := (0, 1 / 10, 0) in
  exists solve, let cfg := docking_optimization_3d mean_motion 12 docking_bounds 0 true solve in
  qp_contract solve /\ (forall G a C b, solve G a C b <> Err SolverError) /\
  envelope c 12 1000 1 /\ leaves docking_bounds 3 1 /\
  cwh_forced mean_motion 12 T (fun _ => drift_thrust) (fun _ => 0) (fun _ => 0)
    (fun _ => 0) drift (fun _ => 0) (fun _ => 0) (fun _ => 1 / 10) (fun _ => 0) /\
  filter_runs cfg 6 (docking_constraints_3d c) 1 T (fun t => dock3 (p t) v) (fun _ => [drift_thrust; 0; 0])
    (fun _ => [drift_thrust; 0; 0]) (fun _ => docking_module_3d c) /\
  (forall t, 0 <= t <= T -> plen (p t) <= 1000) /\ docking_safe c (p 0) v /\ docking_nearly_safe c (p 0) v.
Proof.
  intros T HT c p v. destruct pilot_unchanged as (solve & QC & NS & H). exists solve. intros cfg.
  assert (Sf : forall t, 0 <= t -> docking_safe c (p t) v).
  { intros t Ht. apply drift_safe; auto; unfold c, dock_default_3d, mean_motion; cbn; lra. }
  split; [exact QC|split; [exact NS|split; [exact default_envelope_3d|split; [exact (docking_bounds_leave 3)|]]]].
  split; [|split; [|split; [|split; [apply Sf; lra|]]]].
  - constructor; intros t Ht; try (apply derivable_pt_lim_const).
    + unfold drift. replace (1 / 10) with (0 + 1 / 10) by ring.
      apply (derivable_pt_lim_plus (fun _ => 100) (fun t => t / 10)); [apply derivable_pt_lim_const|].
      unfold Rdiv. replace (1 * / 10) with (1 * / 10 + t * 0) by ring.
      apply (derivable_pt_lim_mult id (fun _ => / 10)); [apply derivable_pt_lim_id|apply derivable_pt_lim_const].
    + match goal with |- derivable_pt_lim _ _ ?a => replace a with 0 by (unfold drift_thrust; field) end.
      apply derivable_pt_lim_const.
    + match goal with |- derivable_pt_lim _ _ ?a => replace a with 0 by field end. apply derivable_pt_lim_const.
    + match goal with |- derivable_pt_lim _ _ ?a => replace a with 0 by field end. apply derivable_pt_lim_const.
  - intros t Ht. split; [apply (docking_3d_in_use c); reflexivity|split; [reflexivity|split; [reflexivity|]]].
    apply (H _ _ cfg 6%nat); [reflexivity|cbn; lra|apply (docking_3d_in_use c); reflexivity| |].
    + intros k e I. change (In (k, e) (docking_constraints_3d c)) in I. rewrite docking_3d_entries in I.
      cbn [In] in I. entries I; reflexivity.
    + split; [reflexivity|]. change (asif_constraints (docking_module_3d c)) with (docking_constraints_3d c).
      change (asif_directs (docking_module_3d c)) with (@nil (string * direct vec zparams)).
      change (dock3 (p t) v) with [0; drift t; 0; 0; 1 / 10; 0].
      apply acceptable_plain; [|reflexivity| |].
      * intros k e I. rewrite docking_3d_entries in I. cbn [In] in I. entries I; reflexivity.
      * apply (docking_bounds_leave 3); [reflexivity|]. unfold drift_thrust, mean_motion.
        intros r [<-|[<-|[<-|[]]]]; unfold Rabs; destruct (Rcase_abs _); lra.
      * unfold cfg. rewrite dynamics_3. intros k e I.
        assert (V : 0 <= value e [0; drift t; 0; 0; 1 / 10; 0]).
        { refine (proj2 (safe_values_3 c _ _ _ _ _ _ _) (Sf t ltac:(lra)) k e I). cbn. lra. }
        unfold value in V. set (h := c_fun e _ _ + c_bias e) in *.
        assert (Z1 : 3 * (mean_motion * mean_motion) * 0 + 2 * mean_motion * (1 / 10) + drift_thrust / 12 = 0)
          by (unfold drift_thrust; field).
        assert (Z2 : - (2 * mean_motion * 0) + 0 / 12 = 0) by field.
        assert (Z3 : - (mean_motion * mean_motion * 0) + 0 / 12 = 0) by field. rewrite Z1, Z2, Z3.
        rewrite docking_3d_entries in I. cbn [In] in I. entries I; clearbody h.
        -- rewrite rv3_rate. apply rv3_strong; [lra| |lra]. intros _.
           assert (Pz : pdot (0, 1 / 10, 0) (0, 0, 0) = 0) by (unfold pdot; ring). rewrite Pz.
           assert (Pd : pdot (0, drift t, 0) (0, 1 / 10, 0) = drift t / 10) by (unfold pdot; field). rewrite Pd.
           pose proof (smooth_pos (0, drift t, 0)) as Sp.
           assert (0 <= d_v1_coef c * d_n c * (drift t / 10 / smooth (0, drift t, 0))).
           { apply Rmult_le_pos; [unfold c, dock_default_3d, mean_motion; cbn; lra|].
             apply Rmult_le_pos; [unfold drift; lra|left; apply Rinv_0_lt_compat; exact Sp]. }
           unfold Rdiv at 2. lra.
        -- rewrite (lim_rate _ 3 [0; drift t; 0; 0; 1 / 10; 0] 0 [0; 1 / 10; 0; 0; 0; 0] 0 eq_refl eq_refl eq_refl).
           apply lim_strong; lra.
        -- rewrite (lim_rate _ 4 [0; drift t; 0; 0; 1 / 10; 0] (1 / 10) [0; 1 / 10; 0; 0; 0; 0] 0 eq_refl eq_refl eq_refl).
           apply lim_strong; lra.
        -- rewrite (lim_rate _ 5 [0; drift t; 0; 0; 1 / 10; 0] 0 [0; 1 / 10; 0; 0; 0; 0] 0 eq_refl eq_refl eq_refl).
           apply lim_strong; lra.
  - intros t Ht. unfold p. rewrite drift_length by lra. unfold drift. lra.
  - destruct (Sf 0 (Rle_refl 0)) as [A (B1 & B2 & B3)]. cbn [fst snd v] in *. split.
    + unfold slow_enough in *. lra.
    + cbn. lra.
Qed.

Example C68_docking_2d_case : forall T, 0 <= T <= 1000 ->
  let c := dock_default_2d mean_motion in let p := fun t => (0, drift t, 0) in let v := (0, 1 / 10, 0) in
  exists solve, let cfg := docking_optimization_2d mean_motion 12 docking_bounds 0 true solve in
  qp_contract solve /\ (forall G a C b, solve G a C b <> Err SolverError) /\
  envelope c 12 1000 1 /\ leaves docking_bounds 2 1 /\
  cwh_forced mean_motion 12 T (fun _ => drift_thrust) (fun _ => 0) (fun _ => 0)
    (fun _ => 0) drift (fun _ => 0) (fun _ => 0) (fun _ => 1 / 10) (fun _ => 0) /\
  filter_runs cfg 4 (docking_constraints_2d c) 1 T (fun t => dock2 (p t) v) (fun _ => [drift_thrust; 0])
    (fun _ => [drift_thrust; 0]) (fun _ => docking_module_2d c) /\
  (forall t, 0 <= t <= T -> plen (p t) <= 1000) /\ docking_safe c (p 0) v /\ docking_nearly_safe c (p 0) v.
Proof.
  intros T HT c p v. destruct pilot_unchanged as (solve & QC & NS & H). exists solve. intros cfg.
  assert (Sf : forall t, 0 <= t -> docking_safe c (p t) v).
  { intros t Ht. apply drift_safe; auto; unfold c, dock_default_2d, mean_motion; cbn; lra. }
  destruct (C68_docking_3d_case T HT) as (_ & _ & _ & _ & _ & Motion & _ & Near & _).
  split; [exact QC|split; [exact NS|split; [exact default_envelope_2d|split; [exact (docking_bounds_leave 2)|]]]].
  split; [exact Motion|split; [|split; [exact Near|split; [apply Sf; lra|]]]].
  - intros t Ht. split; [apply (docking_2d_in_use c); reflexivity|split; [reflexivity|split; [reflexivity|]]].
    apply (H _ _ cfg 4%nat); [reflexivity|cbn; lra|apply (docking_2d_in_use c); reflexivity| |].
    + intros k e I. change (In (k, e) (docking_constraints_2d c)) in I. rewrite docking_2d_entries in I.
      cbn [In] in I. entries I; reflexivity.
    + split; [reflexivity|]. change (asif_constraints (docking_module_2d c)) with (docking_constraints_2d c).
      change (asif_directs (docking_module_2d c)) with (@nil (string * direct vec zparams)).
      change (dock2 (p t) v) with [0; drift t; 0; 1 / 10].
      apply acceptable_plain; [|reflexivity| |].
      * intros k e I. rewrite docking_2d_entries in I. cbn [In] in I. entries I; reflexivity.
      * apply (docking_bounds_leave 2); [reflexivity|]. unfold drift_thrust, mean_motion.
        intros r [<-|[<-|[]]]; unfold Rabs; destruct (Rcase_abs _); lra.
      * unfold cfg. rewrite dynamics_2. intros k e I.
        assert (V : 0 <= value e [0; drift t; 0; 1 / 10]).
        { refine (proj2 (safe_values_2 c _ _ _ _ _) (Sf t ltac:(lra)) k e I). cbn. lra. }
        unfold value in V. set (h := c_fun e _ _ + c_bias e) in *.
        assert (Z1 : 3 * (mean_motion * mean_motion) * 0 + 2 * mean_motion * (1 / 10) + drift_thrust / 12 = 0)
          by (unfold drift_thrust; field).
        assert (Z2 : - (2 * mean_motion * 0) + 0 / 12 = 0) by field. rewrite Z1, Z2.
        rewrite docking_2d_entries in I. cbn [In] in I. entries I; clearbody h.
        -- rewrite rv2_rate. apply rv2_strong; [lra| |lra]. intros _.
           assert (Pz : pdot (0, 1 / 10, 0) (0, 0, 0) = 0) by (unfold pdot; ring). rewrite Pz.
           assert (Pd : pdot (0, drift t, 0) (0, 1 / 10, 0) = drift t / 10) by (unfold pdot; field). rewrite Pd.
           pose proof (smooth_pos (0, drift t, 0)) as Sp.
           assert (0 <= d_v1_coef c * d_n c * (drift t / 10 / smooth (0, drift t, 0))).
           { apply Rmult_le_pos; [unfold c, dock_default_2d, mean_motion; cbn; lra|].
             apply Rmult_le_pos; [unfold drift; lra|left; apply Rinv_0_lt_compat; exact Sp]. }
           unfold Rdiv at 2. lra.
        -- rewrite (lim_rate _ 2 [0; drift t; 0; 1 / 10] 0 [0; 1 / 10; 0; 0] 0 eq_refl eq_refl eq_refl).
           apply lim_strong; lra.
        -- rewrite (lim_rate _ 3 [0; drift t; 0; 1 / 10] (1 / 10) [0; 1 / 10; 0; 0] 0 eq_refl eq_refl eq_refl).
           apply lim_strong; lra.
  - destruct (Sf 0 (Rle_refl 0)) as [A (B1 & B2 & B3)]. cbn [fst snd v] in *. split.
    + unfold slow_enough in *. lra.
    + cbn. lra.
Qed.
