(** Properties of the arrays shared with the caller: C56, C61, C62. *)
From Coq Require Import String Reals List Bool Lia Lra.
From Verif Require Import Prelude Vec ModelBase ModelController ModelSimplex ModelAsif ModelHeap SpecCore SpecHeap
  ProofsBase ProofsHeap ExampleTools.
Import ListNotations.
Local Open Scope R_scope.

(** ** The library's modules meet the description of a module. *)

(** A configuration with other bounds. *)
Definition sx_bounded {X} (cfg : sx_cfg X) (b : bounds) : sx_cfg X := mkSxCfg b (sc_latch cfg) (sc_pred cfg) (sc_gen cfg).
Definition asif_bounded {X} (cfg : asif_cfg X) (b : bounds) : asif_cfg X :=
  mkAsifCfg b (ac_eps cfg) (ac_dim cfg) (ac_exc cfg) (ac_f cfg) (ac_g cfg) (ac_solve cfg).

Definition h_simplex {X P} (cfg : sx_cfg X) (k : sx_kind) : hbnd -> hbnd -> input X -> R -> loc -> HM (cb X P sx) loc :=
  h_cb_compute base_get_state (fun b => simplex_filter (sx_bounded cfg b) (sx_monitor (sx_bounded cfg b) k)).
Definition h_explicit_asif {X P} (cfg : asif_cfg X) : hbnd -> hbnd -> input X -> R -> loc -> HM (cb X P (asif X P unit)) loc :=
  h_cb_compute base_get_state (fun b => asif_filter (asif_bounded cfg b) (explicit_mats (asif_bounded cfg b))).
Definition h_implicit_asif {X P} (cfg : asif_cfg X) (ic : imp_cfg X)
  : hbnd -> hbnd -> input X -> R -> loc -> HM (cb X P (asif X P ctl)) loc :=
  h_cb_compute base_get_state (fun b => asif_filter (asif_bounded cfg b) (implicit_mats (asif_bounded cfg b) ic)).

(** Each works on references as the module does on values. *)
Theorem C56_library_modules :
  (forall (X P : Type) (cfg : sx_cfg X) k, exists c, respects (h_simplex (P:=P) cfg k) c /\
     forall b i dt u, filter_control b (c b) i dt u = simplex_filter_control (sx_bounded cfg b) k i dt u) /\
  (forall (X P : Type) (cfg : asif_cfg X), exists c, respects (h_explicit_asif (P:=P) cfg) c /\
     forall b i dt u, filter_control b (c b) i dt u = explicit_asif_filter_control (asif_bounded cfg b) i dt u) /\
  (forall (X P : Type) (cfg : asif_cfg X) ic, exists c, respects (h_implicit_asif (P:=P) cfg ic) c /\
     forall b i dt u, filter_control b (c b) i dt u = implicit_asif_filter_control (asif_bounded cfg b) ic i dt u).
Proof.
  split; [|split]; intros; eexists; (split; [apply cb_respects; intros; first [apply keeps_get_state | idtac]|reflexivity]).
  - apply keeps_simplex.
  - apply keeps_asif, keeps_explicit.
  - apply keeps_asif, keeps_implicit.
Qed.
Print Assumptions C56_library_modules.

(** ** C56.  Arrays handed to and from the caller are not shared. *)

(** Whatever the program did before, modifying in place an array it made or got from
    filter_control changes nothing in the module, and no array from generate_info. *)
Theorem C56_recorded_controls_unchanged :
  forall (Y I : Type) (hc : hbnd -> hbnd -> I -> R -> loc -> HM Y loc) c reset_ext arrays low high y os i v,
  respects hc c -> names_array arrays low -> names_array arrays high ->
  let before := seen (snd (hrun hc reset_ext os (construct arrays low high y))) in
  let after := seen (snd (hrun hc reset_ext (os ++ [HWrite (Own i) v]) (construct arrays low high y))) in
  v_mod after = v_mod before /\ v_info after = v_info before /\ v_own after = replace_nth i v (v_own before).
Proof.
  intros Y I hc c reset_ext arrays low high y os i v HR Nl Nh before after.
  destruct (construct_separate arrays low high y Nl Nh) as (SP & _ & HF).
  subst before after. rewrite hrun_app. cbn [snd].
  destruct (hrun hc reset_ext os (construct arrays low high y)) as [bs w] eqn:E. cbn [snd].
  destruct (hrun_separate _ _ _ _ _ _ _ _ HR SP HF E) as (SP1 & _).
  cbn [hrun hstep array_at]. destruct (nth_error (w_own w) i) as [l|] eqn:Ei; cbn [snd].
  - assert (Hin : In l (w_own w)) by (eapply nth_error_In; eauto).
    destruct (sp_apart _ _ SP1 _ Hin) as (A1 & A2 & A3). unfold seen; cbn [w_heap w_mod w_low w_high w_own w_info v_mod v_info v_own].
    split; [|split].
    + unfold contents. f_equal.
      * destruct (h_desired (w_mod w)) as [k|]; simpl; auto. rewrite hput_other by congruence. auto.
      * destruct (h_actual (w_mod w)) as [k|]; simpl; auto. rewrite hput_other by congruence. auto.
    + apply map_hput_other; auto.
    + apply map_hput; [apply (sp_nodup _ _ SP1)|auto|apply (sp_own _ _ SP1); auto].
  - split; [auto|split; [auto|]]. symmetry. apply replace_beyond. unfold seen; cbn [v_own]. rewrite nth_error_map, Ei. reflexivity.
Qed.
Print Assumptions C56_recorded_controls_unchanged.

(** A program that modifies no array from generate_info, and none it gave as a bound, sees
    exactly what it would see if every array were a value. *)
Theorem C56_programs_see_values :
  forall (Y I : Type) (hc : hbnd -> hbnd -> I -> R -> loc -> HM Y loc) c reset_ext arrays low high y os bs w,
  respects hc c -> names_array arrays low -> names_array arrays high ->
  Forall no_info_write os -> Forall (no_bound_write low high) os ->
  hrun hc reset_ext os (construct arrays low high y) = (bs, w) ->
  vrun (fun b => filter_control b (c b)) reset_ext os (vstart arrays low high y) = (bs, seen w).
Proof.
  intros Y I hc c reset_ext arrays low high y os bs w HR Nl Nh F1 F2 H.
  destruct (construct_separate arrays low high y Nl Nh) as (SP & ES & HF).
  rewrite <- ES. refine (proj2 (hrun_sim hc c reset_ext _ os _ _ _ HR SP _ HF H)).
  rewrite Forall_forall in *. intros o Ho. specialize (F1 o Ho). specialize (F2 o Ho).
  destruct o as [ |[i|j] v| | | | ]; simpl in *; auto. intros [E|E]; destruct F2; auto.
Qed.
Print Assumptions C56_programs_see_values.

(** ** C61.  The info dictionary is a snapshot. *)

(** The recorded controls in a dictionary from generate_info keep their values whatever is done
    afterwards, as long as the dictionaries' arrays themselves are not modified. *)
Theorem C61_later_calls_do_not_change_info :
  forall (Y I : Type) (hc : hbnd -> hbnd -> I -> R -> loc -> HM Y loc) c reset_ext arrays low high y os later j a,
  respects hc c -> names_array arrays low -> names_array arrays high -> Forall no_info_write later ->
  nth_error (v_info (seen (snd (hrun hc reset_ext os (construct arrays low high y))))) j = Some a ->
  nth_error (v_info (seen (snd (hrun hc reset_ext (os ++ later) (construct arrays low high y))))) j = Some a.
Proof.
  intros Y I hc c reset_ext arrays low high y os later j a HR Nl Nh FA H.
  destruct (construct_separate arrays low high y Nl Nh) as (SP & _ & HF).
  rewrite hrun_app. cbn [snd].
  destruct (hrun hc reset_ext os (construct arrays low high y)) as [bs w] eqn:E. cbn [snd] in *.
  destruct (hrun_separate _ _ _ _ _ _ _ _ HR SP HF E) as (SP1 & L & _).
  destruct (hrun hc reset_ext later w) as [bs2 w2] eqn:E2. cbn [snd].
  refine (hrun_info hc c reset_ext _ later w bs2 w2 j a HR SP1 _ FA E2 H).
  intros i Hi. specialize (HF i Hi). lia.
Qed.
Print Assumptions C61_later_calls_do_not_change_info.

(** They are the module's own arrays: modifying the desired control in a dictionary changes
    the recorded one, always. *)
Theorem C61_modifying_info_refuted :
  forall (Y I : Type) (hc : hbnd -> hbnd -> I -> R -> loc -> HM Y loc) c reset_ext arrays low high y os u v,
  respects hc c -> names_array arrays low -> names_array arrays high ->
  let before := seen (snd (hrun hc reset_ext os (construct arrays low high y))) in
  control_desired (v_mod before) = Some u ->
  let after := seen (snd (hrun hc reset_ext (os ++ [HInfo; HWrite (Info (length (v_info before))) v]) (construct arrays low high y))) in
  control_desired (v_mod after) = Some v.
Proof.
  intros Y I hc c reset_ext arrays low high y os u v HR Nl Nh before Hu after.
  destruct (construct_separate arrays low high y Nl Nh) as (SP & _ & HF).
  subst before after. rewrite hrun_app. cbn [snd].
  destruct (hrun hc reset_ext os (construct arrays low high y)) as [bs w] eqn:E. cbn [snd] in *.
  destruct (hrun_separate _ _ _ _ _ _ _ _ HR SP HF E) as (SP1 & _).
  unfold seen in Hu; simpl in Hu. destruct (h_desired (w_mod w)) as [l|] eqn:El; [|discriminate].
  unfold seen at 2; cbn [v_info]. rewrite map_length. cbn [hrun hstep array_at w_info].
  assert (EI : nth_error (w_info w ++ h_info_arrays (w_mod w)) (length (w_info w)) = Some l).
  { rewrite nth_error_app2 by lia. rewrite Nat.sub_diag. unfold h_info_arrays. rewrite El. reflexivity. }
  rewrite EI. cbn [snd]. unfold seen, contents; cbn [v_mod control_desired w_heap w_mod]. rewrite El. simpl.
  rewrite hput_same; [reflexivity|]. apply (sp_mod _ _ SP1). auto.
Qed.
Print Assumptions C61_modifying_info_refuted.

(** ** C62.  The bounds are those given at construction. *)

(** With numbers and lists, for ever. *)
Theorem C62_bounds_fixed_partial :
  forall (Y I : Type) (hc : hbnd -> hbnd -> I -> R -> loc -> HM Y loc) c reset_ext arrays low high y os,
  respects hc c -> (forall i, low <> AArray i /\ high <> AArray i) -> Forall no_info_write os ->
  v_bounds (seen (snd (hrun hc reset_ext os (construct arrays low high y)))) =
    mkBounds (given_bound arrays low) (given_bound arrays high).
Proof.
  intros Y I hc c reset_ext arrays low high y os HR NA F1.
  destruct (hrun hc reset_ext os (construct arrays low high y)) as [bs w] eqn:E. cbn [snd].
  assert (V : vrun (fun b => filter_control b (c b)) reset_ext os (vstart arrays low high y) = (bs, seen w)).
  { refine (C56_programs_see_values _ _ _ _ _ _ _ _ _ _ _ _ HR _ _ F1 _ E).
    - destruct low; simpl; auto. destruct (NA i); congruence.
    - destruct high; simpl; auto. destruct (NA i); congruence.
    - apply Forall_forall. intros [ |[i|j] v| | | | ] _; simpl; auto. }
  assert (G : forall os v bs v', vrun (fun b => filter_control b (c b)) reset_ext os v = (bs, v') -> v_bounds v' = v_bounds v).
  { clear. induction os as [|o os IH]; intros v bs v' H; [injection H as _ <-; auto|].
    simpl in H. destruct (vstep _ reset_ext o v) as [b v1] eqn:E1. destruct (vrun _ reset_ext os v1) as [bs2 v2] eqn:E2.
    injection H as _ <-. rewrite (IH _ _ _ E2). clear E2 IH.
    destruct o as [a|[i|j] a|i dt r| | |b0]; cbn [vstep] in E1; try (apply (f_equal snd) in E1; cbn [snd] in E1; rewrite <- E1; reflexivity).
    destruct (match r with Own k => _ | Info k => _ end).
    - destruct (filter_control _ _ _ _ _ _) as [[x|e] m]; apply (f_equal snd) in E1; cbn [snd] in E1; rewrite <- E1; reflexivity.
    - apply (f_equal snd) in E1; cbn [snd] in E1; rewrite <- E1; reflexivity. }
  rewrite (G _ _ _ _ V). reflexivity.
Qed.
Print Assumptions C62_bounds_fixed_partial.

(** An array given as a bound stays shared: modifying it later moves the bound. *)
Theorem C62_array_bounds_refuted :
  forall (Y I : Type) (hc : hbnd -> hbnd -> I -> R -> loc -> HM Y loc) c reset_ext arrays low i y os v,
  respects hc c -> names_array arrays low -> (i < length arrays)%nat ->
  b_high (v_bounds (seen (snd (hrun hc reset_ext (os ++ [HWrite (Own i) v]) (construct arrays low (AArray i) y))))) = Some (BVec v).
Proof.
  intros Y I hc c reset_ext arrays low i y os v HR Nl Hi.
  destruct (construct_separate arrays low (AArray i) y Nl Hi) as (SP & _ & HF).
  rewrite hrun_app. cbn [snd].
  assert (G : forall os w, exists more, w_own (snd (hrun hc reset_ext os w)) = w_own w ++ more).
  { clear. induction os as [|o os IH]; intros w; [exists []; rewrite app_nil_r; reflexivity|].
    simpl. destruct (hstep hc reset_ext o w) as [b w1] eqn:E1. destruct (IH w1) as [more E].
    destruct (hrun hc reset_ext os w1) as [bs w2]. cbn [snd] in *. rewrite E.
    assert (exists m, w_own w1 = w_own w ++ m) as [m ->]; [|exists (m ++ more); rewrite app_assoc; reflexivity].
    destruct o as [a|r a|j dt r| | |b0]; cbn [hstep] in E1; try (injection E1 as _ <-; exists []; simpl; rewrite app_nil_r; reflexivity).
    - injection E1 as _ <-. eexists; reflexivity.
    - destruct (array_at w r); injection E1 as _ <-; exists []; simpl; rewrite app_nil_r; reflexivity.
    - destruct (array_at w r); [|injection E1 as _ <-; exists []; simpl; rewrite app_nil_r; reflexivity].
      destruct (h_filter_control _ _ _ _ _ _ _) as [[x|e] [h m]]; injection E1 as _ <-; [eexists; reflexivity|exists []; simpl; rewrite app_nil_r; reflexivity]. }
  destruct (G os (construct arrays low (AArray i) y)) as [more EO].
  destruct (hrun hc reset_ext os (construct arrays low (AArray i) y)) as [bs w] eqn:E. cbn [snd] in *.
  destruct (hrun_separate _ _ _ _ _ _ _ _ HR SP HF E) as (SP1 & _ & _ & EH).
  assert (EO2 : nth_error (w_own w) i = Some i).
  { rewrite EO. unfold construct. destruct (keep_bound arrays (AArray i)) as [h1 hi]. destruct (keep_bound h1 low) as [h2 lo].
    cbn [w_own]. rewrite nth_error_app1 by (rewrite seq_length; auto).
    rewrite (nth_error_nth' _ 0%nat) by (rewrite seq_length; auto). rewrite seq_nth by auto. reflexivity. }
  assert (EH2 : w_high w = HArray i).
  { rewrite EH. unfold construct. simpl. destruct (keep_bound arrays low) as [h2 lo]. reflexivity. }
  cbn [hrun hstep array_at]. rewrite EO2. cbn [snd]. unfold seen; cbn [v_bounds w_heap w_high w_low bounds_of b_high].
  unfold bounds_of; cbn [b_high]. rewrite EH2. simpl. rewrite hput_same; [reflexivity|]. apply (sp_own _ _ SP1). eapply nth_error_In; eauto.
Qed.
Print Assumptions C62_array_bounds_refuted.

(** ** Concrete cases. *)

(** The hypotheses hold for the toy module, and for a module whose compute_filtered_control
    returns the very array it was given (a cascade without members). *)
Example C56_simplex_case : exists c, respects (h_simplex (P:=unit) (toy_cfg free 0) Explicit) c.
Proof. destruct (proj1 C56_library_modules R unit (toy_cfg free 0) Explicit) as (c & HR & _). exists c. exact HR. Qed.
Definition same_array : hbnd -> hbnd -> unit -> R -> loc -> HM unit loc := fun _ _ _ _ l => ret l.
Lemma same_array_respects : respects same_array (fun _ _ _ u => ret u).
Proof.
  intros lo hi i dt l h m r h' m' Hl Hw H. injection H as <- <- <-.
  split; [exists []; rewrite app_nil_r; auto|]. split; [auto|]. split; [auto|]. split; [auto|reflexivity].
Qed.

(** A call, then both the array passed and the array returned are overwritten. *)
Example C56_case :
  let (bs, w) := hrun same_array (fun y => y)
                   [HCall tt 1 (Own 0); HWrite (Own 0) [7]; HWrite (Own 1) [9]] (construct [[1/2]] ANone ANone tt) in
  bs = [Some (Ok [1/2]); None; None] /\ control_desired (v_mod (seen w)) = Some [1/2] /\
  control_actual (v_mod (seen w)) = Some [1/2] /\ v_own (seen w) = [[7]; [9]].
Proof. cbv -[Rdiv IZR]. split; [reflexivity|split; [reflexivity|split; reflexivity]]. Qed.

(** Info taken after a call: a later call does not change it; modifying it changes the module. *)
Example C61_case :
  let (bs, w) := hrun same_array (fun y => y)
                   [HCall tt 1 (Own 0); HInfo; HCall tt 1 (Own 1); HInfo; HWrite (Info 3) [5]]
                   (construct [[1/2]; [3/4]] ANone ANone tt) in
  v_info (seen w) = [[1/2]; [1/2]; [3/4]; [5]] /\ control_actual (v_mod (seen w)) = Some [5].
Proof. cbv -[Rdiv IZR]. split; reflexivity. Qed.

(** A bound given as an array and modified later; the same with a list. *)
Example C62_case :
  fst (hrun same_array (fun y => y) [HCall tt 1 (Own 1); HWrite (Own 0) [2]; HCall tt 1 (Own 1)] (construct [[1]; [3]] ANone (AArray 0) tt))
    = [Some (Ok [1]); None; Some (Ok [2])] /\
  fst (hrun same_array (fun y => y) [HCall tt 1 (Own 1); HWrite (Own 0) [2]; HCall tt 1 (Own 1)] (construct [[1]; [3]] ANone (AList [1]) tt))
    = [Some (Ok [1]); None; Some (Ok [1])].
Proof. split; cbv -[Rmin Rmax Rdiv IZR]; decide_reals; reflexivity. Qed.
