(** C91.  How compiled and uncompiled inspection modules treat the sun. *)
From Coq Require Import String Reals List Bool ZArith Lia Lra.
From Verif Require Import Prelude Vec ModelBase ModelController ModelSimplex ModelAsif ModelConstraint ModelCwh
  ModelZoo ModelInsp ModelJit ModelSun SpecCore SpecHistory SpecSimplex SpecAsif SpecJit SpecSun
  ProofsBase ProofsSimplex ProofsSim ProofsAsif2 ProofsAsif5 ProofsJit ProofsHistory ProofsAsifHistory ProofsAsifHistory2 ProofsSun ExampleTools
  PropertiesAsif PropertiesSolver.
Import ListNotations.
Local Open Scope R_scope.

(** The full property: a call with a state that lacks the sun's entries is answered as by a module
    whose sun stands still, every other call as by a module whose sun moves with the rate given at
    construction, compiled or not. *)

Lemma explicit_enable {P} (cfg : asif_cfg vec) i dt u (s : amod vec P unit) :
  enable (snd (explicit_asif_filter_control cfg i dt u s)) = enable s.
Proof.
  destruct (explicit_asif_filter_control cfg i dt u s) as [r s'] eqn:E.
  assert (K : forall x dt u, ProofsAsif2.keeps (asif_filter (P:=P) (Z:=unit) cfg (explicit_mats cfg) x dt u))
    by (intros; apply keeps_filter; intros; apply keeps_explicit_mats).
  exact (proj1 (call_kept cfg _ K i dt u s r s' E)).
Qed.

(** Without compilation a call is answered like that as long as the attribute sun_vel has the value
    it was given; it takes the value 0 with the first short state and keeps it (C47). *)
Theorem C91_uncompiled_call_partial : forall P k len pad x dt u (j : sun_mod P),
  inspects k len pad -> enable j = true ->
  let rate := rate_for len x (sun_vel (sun_of j)) in
  fst (sun_filter_control false k (InArray x) dt u j)
  = fst (explicit_asif_filter_control (at_rate k rate) (InArray (completed len pad x)) dt u (forget j)) /\
  sun_vel (sun_of (snd (sun_filter_control false k (InArray x) dt u j))) = rate.
Proof.
  intros P k len pad x dt u j I En rate. destruct (call_eq k len pad I false x dt u j En) as (A & _ & t & Z & _).
  split; [exact A|]. rewrite Z. reflexivity.
Qed.
Print Assumptions C91_uncompiled_call_partial.

(** With compilation the first call with a step size decides: if it returns, all later calls with
    that step size and a state of the same length use the rate in force during that call, whatever
    happens in between. *)
Theorem C91_first_call_decides : forall P k len pad rate (defined : dict (constraint vec P)) to_use directs j0
    before between x dt u w x' u',
  inspects k len pad -> sun_init k rate defined to_use directs = Ok j0 ->
  never_called_with dt before ->
  let j1 := snd (sun_run true k before j0) in
  let j2 := snd (sun_filter_control true k (InArray x) dt u j1) in
  let j3 := snd (sun_run true k between j2) in
  enable j1 = true -> fst (sun_filter_control true k (InArray x) dt u j1) = Ok w ->
  enable j3 = true -> length (completed len pad x') = length (completed len pad x) ->
  sun_vel (sun_of j2) = rate_for len x (sun_vel (sun_of j1)) /\
  fst (sun_filter_control true k (InArray x') dt u' j3)
  = fst (explicit_asif_filter_control (at_rate k (sun_vel (sun_of j2))) (InArray (completed len pad x')) dt u' (forget j3)).
Proof.
  intros P k len pad rate defined to_use directs j0 before between x dt u w x' u' I I0 Nv j1 j2 j3 E1 Ew E3 L.
  destruct (sun_init_plain _ _ _ _ _ _ I0) as (Z0 & _ & _).
  assert (N : trace_of key_dec (key_of len pad dt x) (sun_traces (sun_of j1)) = None).
  { unfold j1, key_of. apply (run_untraced k len pad I true before j0 dt _ Nv). rewrite Z0. reflexivity. }
  destruct (call_eq k len pad I true x dt u j1 E1) as (_ & _ & t & Z & _ & T). fold j2 in Z.
  specialize (T eq_refl (ex_intro _ w Ew)). unfold used in T. rewrite N in T.
  assert (V : sun_vel (sun_of j2) = rate_for len x (sun_vel (sun_of j1))) by (rewrite Z; reflexivity).
  split; [exact V|]. rewrite V.
  assert (T3 : trace_of key_dec (key_of len pad dt x) (sun_traces (sun_of j3)) = Some (rate_for len x (sun_vel (sun_of j1)))).
  { unfold j3. apply (run_keeps k len pad I). rewrite Z. exact T. }
  destruct (call_eq k len pad I true x' dt u' j3 E3) as (A & _). rewrite A.
  unfold used, key_of. rewrite L. unfold key_of in T3. rewrite T3. reflexivity.
Qed.
Print Assumptions C91_first_call_decides.

(** Hence the full property holds, compiled or not, if no state is short or the sun is built to
    stand still: the module does what the plain explicit module with that rate does on completed
    states. *)
Theorem C91_steady_partial : forall P compiled k len pad rate (defined : dict (constraint vec P)) to_use directs j0 os,
  inspects k len pad -> sun_init k rate defined to_use directs = Ok j0 ->
  all_complete len os \/ rate = 0 ->
  exists s0, asif_init (at_rate k rate) defined to_use directs tt = Ok s0 /\
  let plain := asif_run (explicit_asif_filter_control (at_rate k rate)) explicit_asif_reset (map (fill len pad) os) s0 in
  fst (sun_run compiled k os j0) = fst plain /\ forget (snd (sun_run compiled k os j0)) = snd plain /\
  sun_vel (sun_of (snd (sun_run compiled k os j0))) = rate.
Proof.
  intros P c k len pad rate defined to_use directs j0 os I I0 C.
  destruct (sun_init_plain _ _ _ _ _ _ I0) as (Z0 & S0 & _). exists (forget j0). split; [apply S0|].
  assert (St : steady rate j0) by (split; rewrite Z0; [reflexivity|discriminate]).
  destruct (steady_run k len pad I rate c os (complete_rate len os rate C) j0 St) as (A & B & S & _).
  auto.
Qed.
Print Assumptions C91_steady_partial.

(** With compilation a short state does not stop the sun for its own call if a complete state came
    first with that step size; and it stops the sun for all step sizes used for the first time
    afterwards.  So a module that has been given one short state treats equal complete states with
    two different rates, depending on the step size. *)
Theorem C91_two_rates_refuted : forall P k len pad rate (defined : dict (constraint vec P)) to_use directs j0
    x short dt dt' u w u' w' u'',
  inspects k len pad -> sun_init k rate defined to_use directs = Ok j0 ->
  ~ lacks len x -> lacks len short -> length (completed len pad short) = length x -> dt <> dt' ->
  let j1 := snd (sun_filter_control true k (InArray x) dt u j0) in
  let j2 := snd (sun_filter_control true k (InArray short) dt u' j1) in
  fst (sun_filter_control true k (InArray x) dt u j0) = Ok w ->
  fst (sun_filter_control true k (InArray short) dt u' j1) = Ok w' ->
  fst (sun_filter_control true k (InArray short) dt u' j1)
    = fst (explicit_asif_filter_control (at_rate k rate) (InArray (completed len pad short)) dt u' (forget j1)) /\
  fst (sun_filter_control true k (InArray x) dt u'' j2)
    = fst (explicit_asif_filter_control (at_rate k rate) (InArray x) dt u'' (forget j2)) /\
  fst (sun_filter_control true k (InArray x) dt' u'' j2)
    = fst (explicit_asif_filter_control (at_rate k 0) (InArray x) dt' u'' (forget j2)).
Proof.
  intros P k len pad rate defined to_use directs j0 x short dt dt' u w u' w' u'' I I0 Hx Hs L Nd j1 j2 E1 E2.
  assert (Cx : lacksb len x = false) by (apply Nat.ltb_ge; unfold lacks in Hx; lia).
  assert (Cs : lacksb len short = true) by (apply Nat.ltb_lt; exact Hs).
  assert (Kx : completed len pad x = x) by (unfold completed; rewrite Cx; reflexivity).
  destruct (sun_init_plain _ _ _ _ _ _ I0) as (Z0 & _ & En0).
  assert (Keep : forall (j : sun_mod P) i d v, enable j = true -> enable (snd (sun_filter_control true k (InArray i) d v j)) = true).
  { intros j i d v En. destruct (call_eq k len pad I true i d v j En) as (_ & B & _).
    change (enable (forget (snd (sun_filter_control true k (InArray i) d v j))) = true). rewrite B.
    rewrite explicit_enable. exact En. }
  assert (En1 : enable j1 = true) by (apply Keep; exact En0).
  assert (En2 : enable j2 = true) by (apply Keep; exact En1).
  destruct (call_eq k len pad I true x dt u j0 En0) as (_ & _ & t1 & Z1 & G1 & T1). fold j1 in Z1.
  specialize (T1 eq_refl (ex_intro _ w E1)). unfold used in T1. rewrite Z0 in *. cbn [sun_traces sun_vel trace_of] in *.
  unfold rate_for in Z1, T1, G1. rewrite Cx in Z1, T1, G1.
  destruct (call_eq k len pad I true short dt u' j1 En1) as (A2 & _ & t2 & Z2 & G2 & _). fold j2 in Z2.
  rewrite Z1 in *. cbn [sun_traces sun_vel] in *. unfold rate_for in Z2, G2. rewrite Cs in Z2, G2.
  unfold used, key_of in A2. rewrite Z1, L in A2. cbn [sun_traces] in A2. unfold key_of in T1, G1, G2. rewrite Kx in T1, G1. rewrite L in G2.
  rewrite T1 in A2. split; [exact A2|].
  assert (T2 : t2 = t1) by (destruct G2 as [G|(_ & N & _)]; [exact G|congruence]). subst t2.
  destruct (call_eq k len pad I true x dt u'' j2 En2) as (A3 & _).
  destruct (call_eq k len pad I true x dt' u'' j2 En2) as (A4 & _).
  rewrite Kx in A3, A4. unfold used, key_of in A3, A4. rewrite Z2, Kx in A3, A4. cbn [sun_traces sun_vel] in A3, A4.
  rewrite T1 in A3. unfold rate_for in A4. rewrite Cx in A4.
  assert (T4 : trace_of key_dec (dt', length x) t1 = None).
  { destruct G1 as [->|(_ & _ & ->)]; [reflexivity|]. cbn [trace_of].
    destruct (key_dec (dt', length x) (dt, length x)) as [Ek|]; [injection Ek as Ek; congruence|reflexivity]. }
  rewrite T4 in A4. auto.
Qed.
Print Assumptions C91_two_rates_refuted.

(** A module with one constraint, that the sun's angle and the first velocity do not add up to more
    than zero, at the origin with the sun's angle [a]. *)
Definition spin : constraint vec unit :=
  mkConstraint (fun x _ => - nth 6 x 0 - nth 3 x 0) (fun x _ => - nth 6 x 0 - nth 3 x 0)
    (fun _ _ => [0; 0; 0; -1; 0; 0; -1; 0]) (Some (fun h => h)) None 0 (-1/100) None sub_default tt true.
Definition spins : dict (constraint vec unit) := [("spin"%string, spin)].
Definition spin_kind (solve : qp_solver) : sun_kind := one_deputy (insp_default 1 1) (1/100) false solve.
Definition spun : sun_mod unit :=
  match sun_init (spin_kind (fun _ _ _ _ => Err SolverError)) (-1) spins None [] with
  | Ok s => s
  | Err _ => rta_init (mkCb [] [] [] [] false (mkAsif 0 [] [] [] [] [] [] [] None 0 (mkSunny 0 [])))
  end.
Lemma spun_init solve : sun_init (spin_kind solve) (-1) spins None [] = Ok spun.
Proof. reflexivity. Qed.
Definition origin (a : R) : vec := [0; 0; 0; 0; 0; 0; a; 0].

Lemma spin_f solve v a : ac_f (at_rate (spin_kind solve) v) (origin a) = [0; 0; 0; 0; 0; 0; v; 0].
Proof.
  cbn. repeat (apply (f_equal2 (@Datatypes.cons R)); [try ring|]). reflexivity.
Qed.
Lemma spin_margin solve v a u0 u1 u2 : a <= 0 ->
  plain_margin (ac_f (at_rate (spin_kind solve) v)) (ac_g (at_rate (spin_kind solve) v)) spin (origin a) [u0; u1; u2] = - u0 - v - a.
Proof.
  intros Ha. unfold plain_margin. rewrite spin_f.
  assert (M : dot (c_grad spin (origin a) (c_params spin)) (vadd [0; 0; 0; 0; 0; 0; v; 0]
    (mv (ac_g (at_rate (spin_kind solve) v) (origin a)) [u0; u1; u2])) = - u0 - v) by (cbn; field).
  assert (S : strength spin (c_fun spin (origin a) (c_params spin) + c_bias spin) = - a).
  { unfold strength. cbn [c_alpha spin c_fun c_bias nth origin]. destruct (Rlt_dec _ _); lra. }
  unfold vec in *. rewrite M, S. ring.
Qed.
Definition unit3 : bounds := mkBounds (Some (BScalar (-1))) (Some (BScalar 1)).
Lemma spin_allowed solve v a (s : amod vec unit unit) u0 u1 u2 : asif_constraints s = spins -> asif_directs s = [] -> a <= 0 ->
  allowed (at_rate (spin_kind solve) v) s (origin a) [u0; u1; u2] <-> within unit3 [u0; u1; u2] /\ u0 <= - v - a.
Proof.
  intros Ec Ed Ha. unfold allowed. rewrite Ec, Ed, acceptable_parts.
  change (ac_dim (at_rate (spin_kind solve) v)) with 3%nat. cbn [firstn skipn].
  change (ac_bounds (at_rate (spin_kind solve) v)) with unit3.
  assert (B : bar_ok (ac_f (at_rate (spin_kind solve) v)) (ac_g (at_rate (spin_kind solve) v)) (origin a) [u0; u1; u2] spins []
    <-> u0 <= - v - a).
  { unfold spins. cbn [bar_ok c_slack spin]. rewrite (spin_margin solve v a u0 u1 u2 Ha).
    split; [intros [Q _]; specialize (Q eq_refl); lra|intros Q; split; [intros _; lra|exact I]]. }
  rewrite B. split; [tauto|]. intros [W Q]. split; [reflexivity|split; [exact W|split; [exact Q|intros q d []]]].
Qed.
Lemma within3 u0 u1 u2 : -1 <= u0 <= 1 -> -1 <= u1 <= 1 -> -1 <= u2 <= 1 -> within unit3 [u0; u1; u2].
Proof.
  intros H0 H1 H2. split; intros [|[|[|i]]] y b Hy Hb; cbn in *; try (destruct i; discriminate); injection Hy as <-; injection Hb as <-; lra.
Qed.
Lemma spin_in_use solve v a (s : amod vec unit unit) : explicit_reached (at_rate (spin_kind solve) v) s ->
  asif_constraints s = spins -> asif_directs s = [] -> enable s = true ->
  in_use (at_rate (spin_kind solve) v) 8 s (origin a) [1; 0; 0].
Proof.
  intros Rch Ec Ed En. constructor; [exact Rch|split; exact I| | |exact En|reflexivity].
  - constructor; rewrite ?Ec, ?Ed; [rewrite spin_f; reflexivity| | |intros q d []].
    + split; [reflexivity|repeat constructor].
    + intros q c [E|[]]. injection E as <- <-. reflexivity.
  - rewrite Ec. intros q c [E|[]]. injection E as <- <-. discriminate.
Qed.

(** The answers of the plain module with a solver that meets the contract and answers. *)
Lemma spin_passes solve v a (s : amod vec unit unit) dt : qp_contract solve ->
  explicit_reached (at_rate (spin_kind solve) v) s -> asif_constraints s = spins -> asif_directs s = [] -> enable s = true ->
  a <= 0 -> 1 <= - v - a ->
  (exists w, fst (explicit_asif_filter_control (at_rate (spin_kind solve) v) (InArray (origin a)) dt [1; 0; 0] s) = Ok w) ->
  fst (explicit_asif_filter_control (at_rate (spin_kind solve) v) (InArray (origin a)) dt [1; 0; 0] s) = Ok [1; 0; 0] /\
  rta_info (snd (explicit_asif_filter_control (at_rate (spin_kind solve) v) (InArray (origin a)) dt [1; 0; 0] s))
    = [(k_enable, IBool true); (k_intervening, IBool false); (k_desired, IControl (Some [1; 0; 0])); (k_actual, IControl (Some [1; 0; 0]))] /\
  asif_constraints (snd (explicit_asif_filter_control (at_rate (spin_kind solve) v) (InArray (origin a)) dt [1; 0; 0] s)) = spins /\
  asif_directs (snd (explicit_asif_filter_control (at_rate (spin_kind solve) v) (InArray (origin a)) dt [1; 0; 0] s)) = [] /\
  explicit_reached (at_rate (spin_kind solve) v)
    (snd (explicit_asif_filter_control (at_rate (spin_kind solve) v) (InArray (origin a)) dt [1; 0; 0] s)).
Proof.
  intros QC Rch Ec Ed En Ha Hv [w Ew].
  destruct (explicit_asif_filter_control (at_rate (spin_kind solve) v) (InArray (origin a)) dt [1; 0; 0] s) as [r s'] eqn:E.
  cbn [fst snd] in *. subst r.
  assert (Al : allowed (at_rate (spin_kind solve) v) s (origin a) [1; 0; 0]).
  { apply spin_allowed; auto. split; [apply within3; lra|lra]. }
  destruct (C21_acceptable_unchanged _ _ (at_rate (spin_kind solve) v) 8 s (origin a) dt [1; 0; 0] w s' QC (spin_in_use solve v a s Rch Ec Ed En)) as [Ew Hi].
  { rewrite Ec. reflexivity. } { cbn. lra. } { exact E. } { exact Al. }
  split; [rewrite Ew; reflexivity|].
  set (cfg := at_rate (spin_kind solve) v) in *.
  assert (K : forall x dt u, ProofsAsif2.keeps (asif_filter (P:=unit) (Z:=unit) cfg (explicit_mats cfg) x dt u))
    by (intros; apply keeps_filter; intros; apply keeps_explicit_mats).
  destruct (call_kept cfg _ K _ _ _ _ _ _ E) as (E1 & _ & E3 & E4).
  split; [|split; [|split]].
  - unfold rta_info. rewrite E1, En, Hi.
    assert (G := gfilter_array (ac_bounds cfg) (asif_filter (P:=unit) (Z:=unit) cfg (explicit_mats cfg)) (origin a) dt [1; 0; 0] s En).
    unfold gfilter in G. unfold explicit_asif_filter_control in E. rewrite E in G.
    destruct (asif_filter cfg (explicit_mats cfg) (origin a) dt [1; 0; 0] (prep (origin a) [1; 0; 0] s)) as [[w1|e1] s1] eqn:Ef; [|discriminate G].
    destruct (clip (ac_bounds cfg) w1) as [w2|] eqn:Cw; [|discriminate G]. injection G as -> ->.
    destruct (explicit_framed cfg (origin a) dt [1; 0; 0] (prep (origin a) [1; 0; 0] s) _ _ Ef) as (_ & D & _).
    cbn [control_desired control_actual set_actual]. rewrite D, Ew. reflexivity.
  - unfold asif_constraints in *. rewrite E3. exact Ec.
  - unfold asif_directs in *. rewrite E4. exact Ed.
  - destruct Rch as (defined & to_use & directs & s0 & os & seen & D1 & D2 & I0 & R).
    exists defined, to_use, directs, s0, (os ++ [ABase (OFilter (InArray (origin a)) dt [1; 0; 0])]).
    eexists. split; [exact D1|split; [exact D2|split; [exact I0|]]].
    change (explicit_asif_filter_control (P:=unit) cfg) with (gfilter (ac_bounds cfg) (asif_filter (P:=unit) (Z:=unit) cfg (explicit_mats cfg))) in *.
    rewrite asif_run_app, R. cbn [asif_run asif_step cb_step]. rewrite E. reflexivity.
Qed.
Lemma spin_stops solve (s : amod vec unit unit) dt : qp_contract solve ->
  explicit_reached (at_rate (spin_kind solve) 0) s -> asif_constraints s = spins -> asif_directs s = [] -> enable s = true ->
  (exists w, fst (explicit_asif_filter_control (at_rate (spin_kind solve) 0) (InArray (origin 0)) dt [1; 0; 0] s) = Ok w) ->
  fst (explicit_asif_filter_control (at_rate (spin_kind solve) 0) (InArray (origin 0)) dt [1; 0; 0] s) = Ok [0; 0; 0].
Proof.
  intros QC Rch Ec Ed En [w Ew].
  destruct (explicit_asif_filter_control (at_rate (spin_kind solve) 0) (InArray (origin 0)) dt [1; 0; 0] s) as [r s'] eqn:E.
  cbn [fst snd] in *. subst r.
  assert (Al : allowed (at_rate (spin_kind solve) 0) s (origin 0) [0; 0; 0]).
  { apply spin_allowed; auto; [lra|]. split; [apply within3; lra|lra]. }
  destruct (C21_minimally_invasive _ _ (at_rate (spin_kind solve) 0) 8 s (origin 0) dt [1; 0; 0] w s' [0; 0; 0] QC (spin_in_use solve 0 0 s Rch Ec Ed En)) as [Aw D].
  { rewrite Ec. reflexivity. } { exact E. } { exact Al. }
  destruct D as [<-|D]; [reflexivity|]. exfalso.
  assert (Lw := proj1 Aw). change (ac_dim (at_rate (spin_kind solve) 0)) with 3%nat in Lw. rewrite Ec in Lw. cbn in Lw.
  destruct w as [|w0 [|w1 [|w2 [|]]]]; try discriminate Lw.
  apply spin_allowed in Aw; auto; [|lra]. destruct Aw as [_ Aw].
  unfold dist2 in D. cbn in D. nra.
Qed.
(** Modules reached with different rates that agree on what a caller sees answer alike. *)
Lemma same_across k v v' (s s' : amod vec unit unit) x dt u :
  explicit_reached (at_rate k v) s -> explicit_reached (at_rate k v') s' ->
  asif_constraints s = asif_constraints s' -> asif_directs s = asif_directs s' -> rta_info s = rta_info s' ->
  fst (explicit_asif_filter_control (at_rate k v') (InArray x) dt u s)
  = fst (explicit_asif_filter_control (at_rate k v') (InArray x) dt u s').
Proof.
  intros Rch R' Ec Ed Ei.
  destruct (explicit_reached_facts _ _ Rch) as (K & DK & nm & Ea & En).
  destruct (explicit_reached_facts _ _ R') as (K' & DK' & nm' & Ea' & En').
  destruct (explicit_reached_wired _ _ Rch) as [W1 W2 _ _ _].
  destruct (explicit_reached_wired _ _ R') as [W1' W2' _ _ _].
  change (ac_bounds (at_rate k v)) with (ac_bounds (at_rate k v')) in Ea.
  change (ac_dim (at_rate k v)) with (ac_dim (at_rate k v')) in Ea, W2.
  rewrite Ec in Ea, En, W1, W2. rewrite Ed in En. rewrite Ea' in Ea; injection Ea as E1 E2 E3.
  unfold rta_info in Ei; injection Ei as I1 I2 I3 I4.
  assert (G : gsim (ProofsAsifHistory.alike any eq) False s s').
  { unfold gsim. split; [exact I1|split; [exact I2|split; [exact I3|split; [exact I4|split; [exact Ec|]]]]].
    split; [exact K|split; [exact K'|split; [|tauto]]].
    change (cb_ext (ext s)) with (get_asif s). change (cb_ext (ext s')) with (get_asif s').
    unfold ProofsAsifHistory.alike. split; [congruence|split; [congruence|split; [congruence|split; [congruence|split; [exact Ed|]]]]].
    split; [exact DK|split; [exact DK'|split; [rewrite En, En', E3; reflexivity|exact I]]]. }
  set (cfg := at_rate k v') in *.
  destruct (asif_gsim_run any (ac_bounds cfg) (asif_filter cfg (explicit_mats cfg)) explicit_asif_reset eq
     (explicit_flt_sim cfg) explicit_rst_sim (explicit_framed cfg) explicit_reset_framed
     [ABase (OFilter (InArray x) dt u)] False s s' G) as [F _].
  cbn [asif_run asif_step cb_step] in F.
  change (gfilter (ac_bounds cfg) (asif_filter (P:=unit) (Z:=unit) cfg (explicit_mats cfg)))
    with (explicit_asif_filter_control (P:=unit) cfg) in F.
  destruct (explicit_asif_filter_control cfg (InArray x) dt u s) as [r t].
  destruct (explicit_asif_filter_control cfg (InArray x) dt u s') as [r' t']. cbn [fst] in *.
  injection F as F. destruct r, r'; cbn [obs_of] in F; congruence.
Qed.

(** The module at the origin, asked to accelerate along the first axis: first with a complete state,
    then with one without the sun's entries.  Uncompiled it obeys the first time and refuses the
    second time, as the sun now stands still; compiled it obeys both times.  Given the short state
    first it refuses. *)
Theorem C91_short_state_refuted : exists solve (defined : dict (constraint vec unit)) j0,
  let k := one_deputy (insp_default 1 1) (1/100) false solve in
  let complete := ABase (OFilter (InArray [0; 0; 0; 0; 0; 0; 0; 0]) 1 [1; 0; 0]) in
  let short := ABase (OFilter (InArray [0; 0; 0; 0; 0; 0]) 1 [1; 0; 0]) in
  qp_contract solve /\ sun_init k (i_sun_vel (insp_default 1 1)) defined None [] = Ok j0 /\
  fst (sun_run false k [complete; short] j0) = [ObsControl [1; 0; 0]; ObsControl [0; 0; 0]] /\
  fst (sun_run true k [complete; short] j0) = [ObsControl [1; 0; 0]; ObsControl [1; 0; 0]] /\
  fst (sun_run true k [short] j0) = [ObsControl [0; 0; 0]].
Proof.
  destruct C69_some_solver_serves_all as (solve & QC & _ & Serves).
  exists solve, spins, spun. intros k complete short. split; [exact QC|].
  assert (I0 : sun_init k (i_sun_vel (insp_default 1 1)) spins None [] = Ok spun) by reflexivity.
  split; [exact I0|].
  assert (Ans : forall v a (s : amod vec unit unit) dt, explicit_reached (at_rate k v) s -> asif_constraints s = spins ->
    asif_directs s = [] -> enable s = true ->
    exists w, fst (explicit_asif_filter_control (at_rate k v) (InArray (origin a)) dt [1; 0; 0] s) = Ok w).
  { intros v a s dt Rch Ec Ed En.
    destruct (Serves vec unit (at_rate k v) 8%nat s (origin a) dt [1; 0; 0] (spin_in_use solve v a s Rch Ec Ed En)) as [A|(X & _)].
    - rewrite Ec. intros q c p [E|[]] Hp. injection E as <- <-. discriminate Hp.
    - exact A.
    - discriminate X. }
  assert (H : inspects k 8 [0; 0]) by apply InspectsOne.
  assert (R0 : forall v, explicit_reached (at_rate k v) (forget spun)).
  { intros v. exists spins, None, [], (forget spun), [], [].
    split; [keys|split; [keys|split; [|reflexivity]]].
    exact (proj1 (proj2 (sun_init_plain _ _ _ _ _ _ I0)) v). }
  assert (C0 : asif_constraints (forget spun) = spins) by reflexivity.
  assert (D0 : asif_directs (forget spun) = []) by reflexivity.
  destruct (spin_passes solve (-1) 0 (forget spun) 1 QC (R0 _) C0 D0 eq_refl ltac:(lra) ltac:(lra) (Ans _ _ _ _ (R0 _) C0 D0 eq_refl))
    as (P1 & P2 & P3 & P4 & P5).
  destruct (spin_passes solve 0 (-1) (forget spun) 1 QC (R0 _) C0 D0 eq_refl ltac:(lra) ltac:(lra) (Ans _ _ _ _ (R0 _) C0 D0 eq_refl))
    as (Q1 & Q2 & Q3 & Q4 & Q5).
  set (s1 := snd (explicit_asif_filter_control (at_rate (spin_kind solve) (-1)) (InArray (origin 0)) 1 [1; 0; 0] (forget spun))) in *.
  set (q1 := snd (explicit_asif_filter_control (at_rate (spin_kind solve) 0) (InArray (origin (-1))) 1 [1; 0; 0] (forget spun))) in *.
  assert (En1 : enable s1 = true) by (unfold s1; rewrite explicit_enable; reflexivity).
  assert (Eq1 : enable q1 = true) by (unfold q1; rewrite explicit_enable; reflexivity).
  (* the first call, compiled or not *)
  assert (First : forall c, exists j1, sun_filter_control c k (InArray (origin 0)) 1 [1; 0; 0] spun = (Ok [1; 0; 0], j1) /\
    forget j1 = s1 /\ enable j1 = true /\ sun_vel (sun_of j1) = -1 /\
    (c = true -> trace_of key_dec (1, 8%nat) (sun_traces (sun_of j1)) = Some (-1))).
  { intros c. destruct (call_eq k 8 [0; 0] H c (origin 0) 1 [1; 0; 0] spun eq_refl) as (A & B & t & Z & _ & T).
    assert (U : used 8 [0; 0] c 1 (origin 0) spun = -1) by (destruct c; reflexivity). rewrite U in A, B, T.
    change (completed 8 [0; 0] (origin 0)) with (origin 0) in A, B.
    change k with (spin_kind solve) in A, B, T, Z |- *. unfold s1. rewrite <- B. rewrite P1 in A.
    destruct (sun_filter_control c (spin_kind solve) (InArray (origin 0)) 1 [1; 0; 0] spun) as [r j1] eqn:E. cbn [fst snd] in *. subst r.
    exists j1. split; [reflexivity|split; [reflexivity|split; [|split]]].
    - change (enable (forget j1) = true). rewrite B. exact En1.
    - rewrite Z. reflexivity.
    - intros Hc. rewrite Z. exact (T Hc (ex_intro _ _ eq_refl)). }
  assert (Short : forall c (j : sun_mod unit), enable j = true -> fst (sun_filter_control c k (InArray [0; 0; 0; 0; 0; 0]) 1 [1; 0; 0] j)
    = fst (explicit_asif_filter_control (at_rate k (used 8 [0; 0] c 1 [0; 0; 0; 0; 0; 0] j)) (InArray (origin 0)) 1 [1; 0; 0] (forget j))).
  { intros c j En. exact (proj1 (call_eq k 8 [0; 0] H c [0; 0; 0; 0; 0; 0] 1 [1; 0; 0] j En)). }
  assert (Second : forall c (j : sun_mod unit) w, enable j = true ->
    fst (explicit_asif_filter_control (at_rate k (used 8 [0; 0] c 1 [0; 0; 0; 0; 0; 0] j)) (InArray (origin 0)) 1 [1; 0; 0] (forget j)) = Ok w ->
    fst (sun_run c k [short] j) = [ObsControl w]).
  { intros c j w En E. rewrite <- Short in E by exact En. unfold short. cbn [sun_run sun_step asif_step cb_step].
    destruct (sun_filter_control c k (InArray [0; 0; 0; 0; 0; 0]) 1 [1; 0; 0] j) as [r j']. cbn [fst] in *. subst r. reflexivity. }
  assert (Both : forall c j1 w, sun_filter_control c k (InArray (origin 0)) 1 [1; 0; 0] spun = (Ok [1; 0; 0], j1) ->
    fst (sun_run c k [short] j1) = [ObsControl w] ->
    fst (sun_run c k [complete; short] spun) = [ObsControl [1; 0; 0]; ObsControl w]).
  { intros c j1 w E F.
    assert (Es : sun_step c k complete spun = (ObsControl [1; 0; 0], j1)).
    { change (match sun_filter_control c k (InArray (origin 0)) 1 [1; 0; 0] spun with (r, s') => (obs_of r, s') end
        = (ObsControl [1; 0; 0], j1)). rewrite E. reflexivity. }
    cbn [sun_run] in F |- *. rewrite Es.
    destruct (sun_step c k short j1) as [b j2]. cbn [fst] in *. injection F as ->. reflexivity. }
  split; [|split].
  - destruct (First false) as (j1 & E1 & F1 & En & V & _). apply (Both false j1 [0; 0; 0] E1). apply Second; [exact En|].
    assert (U : used 8 [0; 0] false 1 [0; 0; 0; 0; 0; 0] j1 = 0) by reflexivity. rewrite U, F1.
    rewrite (same_across k (-1) 0 s1 q1 (origin 0) 1 [1; 0; 0] P5 Q5); [|congruence|congruence|congruence].
    apply spin_stops; [exact QC|exact Q5|exact Q3|exact Q4|exact Eq1|apply Ans; auto].
  - destruct (First true) as (j1 & E1 & F1 & En & V & T). apply (Both true j1 [1; 0; 0] E1). apply Second; [exact En|].
    assert (U : used 8 [0; 0] true 1 [0; 0; 0; 0; 0; 0] j1 = -1).
    { unfold used, key_of. change (length (completed 8 [0; 0] [0; 0; 0; 0; 0; 0])) with 8%nat. rewrite (T eq_refl). reflexivity. }
    rewrite U, F1.
    destruct (spin_passes solve (-1) 0 s1 1 QC P5 P3 P4 En1 ltac:(lra) ltac:(lra) (Ans _ _ _ _ P5 P3 P4 En1)) as (X & _). exact X.
  - apply Second; [reflexivity|]. assert (U : used 8 [0; 0] true 1 [0; 0; 0; 0; 0; 0] spun = 0) by reflexivity. rewrite U.
    apply spin_stops; [exact QC|apply R0|reflexivity|reflexivity|reflexivity|apply Ans; auto].
Qed.
Print Assumptions C91_short_state_refuted.

(** Non-vacuity: the modules of that theorem with complete states, and the hypotheses of the
    theorems on the first call. *)
Example C91_case : exists solve w,
  let k := one_deputy (insp_default 1 1) (1/100) false solve in
  inspects k 8 [0; 0] /\ qp_contract solve /\
  sun_init k (-1) spins None [] = Ok spun /\ enable spun = true /\
  fst (sun_filter_control true k (InArray (origin 0)) 1 [1; 0; 0] spun) = Ok w /\
  never_called_with 1 [ABase (OUpdateValues (InArray (origin 0))); ABase (@OFilter vec unit InOther 2 [])] /\
  all_complete 8 [ABase (@OFilter vec unit (InArray (origin 0)) 1 [1; 0; 0])] /\
  lacks 8 [0; 0; 0; 0; 0; 0] /\ length (completed 8 [0; 0] [0; 0; 0; 0; 0; 0]) = length (origin 0) /\
  inspects (several_deputies 1 1 5 free (1/100) false solve) 31 [0].
Proof.
  destruct C69_some_solver_serves_all as (solve & QC & _ & Serves). exists solve.
  set (k := one_deputy (insp_default 1 1) (1/100) false solve). cbv zeta.
  assert (H : inspects k 8 [0; 0]) by apply InspectsOne.
  assert (I0 : sun_init k (-1) spins None [] = Ok spun) by reflexivity.
  assert (R0 : explicit_reached (at_rate k (-1)) (forget spun)).
  { exists spins, None, [], (forget spun), [], []. split; [keys|split; [keys|split; [|reflexivity]]].
    exact (proj1 (proj2 (sun_init_plain _ _ _ _ _ _ I0)) (-1)). }
  destruct (Serves vec unit (at_rate k (-1)) 8%nat (forget spun) (origin 0) 1 [1; 0; 0]
    (spin_in_use solve (-1) 0 (forget spun) R0 eq_refl eq_refl eq_refl)) as [[w A]|(X & _)].
  - intros q c p [E|[]] Hp. injection E as <- <-. discriminate Hp.
  - exists w. split; [exact H|split; [exact QC|split; [exact I0|split; [reflexivity|split]]]].
    + destruct (call_eq k 8 [0; 0] H true (origin 0) 1 [1; 0; 0] spun eq_refl) as (B & _). rewrite B. exact A.
    + split; [intros i u [E|[E|[]]]; [discriminate E|injection E as _ E _; lra]|].
      split; [intros o x [<-|[]] E; injection E as <-; unfold lacks; cbn; lia|].
      split; [unfold lacks; cbn; lia|]. split; [reflexivity|apply (InspectsSeveral 1 1 5)].
  - discriminate X.
Qed.
