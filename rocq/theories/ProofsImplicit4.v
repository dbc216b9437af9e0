(** The implicit ASIF module: outcomes of a call under the solver contract. *)
From Coq Require Import String Reals List Bool ZArith Lia Lra Permutation.
From Verif Require Import Prelude Vec ModelBase ModelController ModelSimplex ModelAsif
  SpecCore SpecHistory SpecAsif SpecImplicit ProofsBase ProofsVec ProofsHistory ProofsSimplex ProofsAsif ProofsAsif2
  ProofsAsif3 ProofsAsif4 ProofsImplicit ProofsImplicit2 ProofsImplicit3.
Import ListNotations.
Local Open Scope R_scope.

(** ** What the solver stage leaves alone *)
Section Frame.
Context {X P Z B : Type} (f : amod X P Z -> B).
Definition leaves {A} (m : M (amod X P Z) A) : Prop := forall s r s', m s = (r, s') -> f s' = f s.
Lemma lv_bind {A C} (m : M (amod X P Z) A) (k : A -> M (amod X P Z) C) :
  leaves m -> (forall a, leaves (k a)) -> leaves (bind m k).
Proof.
  intros Hm Hf s r s' H; unfold bind in H; destruct (m s) as [[a|e] s1] eqn:E.
  - rewrite (Hf _ _ _ _ H); eapply Hm; eauto.
  - inversion H; subst; eapply Hm; eauto.
Qed.
Lemma lv_ret {A} (a : A) : leaves (ret a).
Proof. intros s r s' H; inversion H; auto. Qed.
Lemma lv_raise {A} e : leaves (A := A) (raise e).
Proof. intros s r s' H; inversion H; auto. Qed.
Lemma lv_lift {A} (a : res A) : leaves (lift a).
Proof. intros s r s' H; inversion H; auto. Qed.
Lemma lv_get : leaves get.
Proof. intros s r s' H; inversion H; auto. Qed.
Lemma lv_modify g : (forall s, f (g s) = f s) -> leaves (modify g).
Proof. intros H s r s' E; inversion E; subst; auto. Qed.
Lemma lv_record_causes iact : (forall l s, f (on_asif (set_causes l) s) = f s) -> leaves (record_causes iact).
Proof.
  intros HC; induction iact as [|i iact IH]; simpl; [apply lv_ret|].
  apply lv_bind; [apply lv_get|intros s0].
  apply lv_bind; [apply lv_lift|intros key].
  apply lv_bind; [|auto].
  destruct (existsb _ _); [apply lv_ret|apply lv_modify; auto].
Qed.
Lemma lv_finish (cfg : asif_cfg X) u rows consts :
  (forall l s, f (on_asif (set_causes l) s) = f s) -> (forall s, f (on_asif warn s) = f s) ->
  (forall b s, f (set_intervening b s) = f s) -> leaves (finish cfg u rows consts).
Proof.
  intros H1 H2 H3; unfold finish; apply lv_bind; [|intros v].
  { unfold optimize; apply lv_bind; [apply lv_get|intros s0].
    destruct (ac_solve cfg _ _ _ _) as [[z iact]|e].
    - apply lv_bind; [apply lv_modify; auto|intros _].
      apply lv_bind; [apply lv_record_causes; auto|intros _; apply lv_ret].
    - destruct e; try apply lv_raise.
      destruct (String.eqb msg msg_inconsistent); [|apply lv_raise].
      destruct (ac_exc cfg); [apply lv_raise|].
      apply lv_bind; [apply lv_modify; auto|intros _; apply lv_ret]. }
  apply lv_bind; [apply lv_lift|intros b].
  apply lv_bind; [apply lv_modify; auto|intros _; apply lv_ret].
Qed.
End Frame.

Lemma record_causes_bad {X P Z} iact : forall (s : amod X P Z) i,
  (forall i, In i iact -> exists j, i = S j) -> In i iact -> (length (as_names (get_asif s)) < i)%nat ->
  exists s', record_causes iact s = (Err IndexError, s').
Proof.
  induction iact as [|i0 iact IH]; intros s i Hv Hi Hl; [destruct Hi|].
  destruct (Hv i0) as (j & ->); [left; auto|].
  cbn [record_causes]; unfold bind at 1, get at 1; cbn [name_of_row].
  destruct (nth_error (as_names (get_asif s)) j) as [k|] eqn:En; [|eexists; reflexivity].
  assert (Hj : (j < length (as_names (get_asif s)))%nat) by (apply nth_error_Some; congruence).
  destruct Hi as [<-|Hi]; [lia|].
  unfold bind at 1, lift at 1.
  set (s1 := if existsb (String.eqb k) match as_causes (get_asif s) with Some l => l | None => [] end then s
             else on_asif (set_causes (Some (match as_causes (get_asif s) with Some l => l | None => [] end ++ [k]))) s).
  destruct (IH s1 i) as (s' & E); auto.
  { intros; apply Hv; right; auto. }
  { unfold s1; destruct (existsb _ _); exact Hl. }
  exists s'; rewrite <- E; unfold bind, s1; destruct (existsb _ _); reflexivity.
Qed.

Lemma finish_bad {X P Z} (cfg : asif_cfg X) u rows consts (s : amod X P Z) z iact i :
  ac_solve cfg (as_weight (get_asif s)) (u ++ zeros (as_num_slack (get_asif s))) rows consts = Ok (z, iact) ->
  (forall i, In i iact -> exists j, i = S j) -> In i iact -> (length (as_names (get_asif s)) < i)%nat ->
  exists s', finish cfg u rows consts s = (Err IndexError, s').
Proof.
  intros Hs Hv Hi Hl; unfold finish, optimize, bind, get, modify; rewrite Hs.
  destruct (record_causes_bad iact (on_asif (set_causes (Some [])) s) i Hv Hi Hl) as (s' & E).
  rewrite E; eauto.
Qed.

Lemma Forall2_length {A B} (R : A -> B -> Prop) l l' : Forall2 R l l' -> length l = length l'.
Proof. induction 1; simpl; auto. Qed.

(** The requirements in terms of the controls. *)
Lemma point_demands_iff {X P} dim f g x traj (cs : dict (constraint X P)) z : forall jss,
  length z = dim -> length jss = length cs ->
  (forall d, In d (point_demands dim f g x traj cs jss) -> 0 <= dm_margin d z) <->
  (forall i k c js j, nth_error cs i = Some (k, c) -> c_enabled c = true -> nth_error jss i = Some js -> In j js ->
     0 <= point_margin f g c x (point traj x j) z).
Proof.
  intros jss Lz; revert jss; induction cs as [|[k c] cs IH]; intros [|js jss] L; simpl in L; try discriminate.
  - split; [intros _ [|i]; discriminate|intros _ d []].
  - cbn [point_demands]; split.
    + intros H [|i] k' c' js' j Hc En Hjs Hj; simpl in Hc, Hjs.
      * injection Hc as <- <-; injection Hjs as <-.
        assert (Hd : 0 <= dm_margin (mkDemand k (if c_enabled c then fun z => point_margin f g c x (point traj x j) (firstn dim z) else fun _ => 0)) z).
        { apply H, in_or_app; left; apply (in_map (fun j => mkDemand k _) js j Hj). }
        rewrite En in Hd; cbn [dm_margin] in Hd; rewrite firstn_all2 in Hd by lia; exact Hd.
      * apply (proj1 (IH jss ltac:(lia)) (fun d Hd => H d (in_or_app _ _ _ (or_intror Hd))) i k' c' js' j); auto.
    + intros H d Hd; apply in_app_or in Hd; destruct Hd as [Hd|Hd].
      * apply in_map_iff in Hd; destruct Hd as (j & <- & Hj); simpl.
        destruct (c_enabled c) eqn:En; [|lra].
        rewrite firstn_all2 by lia; apply (H 0%nat k c js j); auto.
      * revert d Hd; apply (IH jss ltac:(lia)).
        intros i k' c' js' j Hc En Hjs Hj; apply (H (S i) k' c' js' j); auto.
Qed.

Lemma implicit_demands_iff {X P} b dim f g (cs : dict (constraint X P)) (ds : dict (direct X P)) x traj jss z :
  fits b dim -> length z = dim -> length jss = length cs ->
  (forall d, In d (implicit_demands b dim f g cs ds x traj jss) -> 0 <= dm_margin d z) <->
  control_ok b f g cs ds x traj jss z.
Proof.
  intros [FL FH] Lz Lj; unfold implicit_demands, control_ok, within.
  rewrite <- (low_demands_above _ dim _ FL Lz), <- (high_demands_below _ dim _ FH Lz).
  rewrite <- (point_demands_iff dim f g x traj cs z jss Lz Lj).
  assert (D : (forall d, In d (direct_demands dim x ds) -> 0 <= dm_margin d z) <->
    (forall k d, In (k, d) ds -> d_enabled d = true -> d_constant d x (d_params d) <= dot (d_weight d x (d_params d)) z)).
  { split.
    - intros H k d Hd En. specialize (H _ (in_map _ _ _ Hd)); cbn [fst snd dm_margin] in H.
      rewrite En in H; cbn in H; rewrite firstn_all2 in H by lia; lra.
    - intros H d Hd; apply in_map_iff in Hd; destruct Hd as ([k dd] & <- & Hd); simpl.
      destruct (d_enabled dd) eqn:En; [|lra]. rewrite firstn_all2 by lia. specialize (H k dd Hd En); lra. }
  rewrite <- D; split.
  - intros H; split; [split|split]; intros d Hd; apply H; rewrite !in_app_iff; auto.
  - intros [[H1 H2] [H3 H4]] d Hd; rewrite !in_app_iff in Hd; intuition.
Qed.

Lemma scales_nil {X P} (cs : dict (constraint X P)) : slack_count cs = 0%nat -> scales cs = [].
Proof. intros H; rewrite <- scales_count in H; destruct (scales cs); [auto|discriminate]. Qed.

Lemma objective_plain dim u z : length u = dim -> length z = dim ->
  objective (obj_weight dim []) u z = / 2 * dist2 u z - / 2 * sumsq u.
Proof.
  intros Lu Lz; pose proof (objective_value dim [] u z Lu) as H; simpl in H; unfold zeros in H; simpl in H.
  rewrite app_nil_r in H; rewrite H by lia.
  rewrite firstn_all2 by lia. ring.
Qed.

(** ** The call *)

(** The program handed to the solver, and the outcome for every answer. *)
Lemma implicit_call {X P} (cfg : asif_cfg X) ic n (s : amod X P ctl) x dt u traj :
  imp_in_use cfg ic n s x dt u traj ->
  let cs := asif_constraints s in
  let G := obj_weight (ac_dim cfg) [] in
  let names := call_names (ac_bounds cfg) (ac_dim cfg) cs (asif_directs s) (length traj) in
  let jss := map (fun kc => pick_list (c_sub (snd kc)) (length traj) (map (point_value (snd kc)) traj)) cs in
  exists rows consts,
    all_picks cs traj x jss /\
    Forall2 (fun kc js => forall j, In j js -> (j < length traj)%nat) cs jss /\
    encodes (ac_dim cfg) rows consts
      (implicit_demands (ac_bounds cfg) (ac_dim cfg) (ac_f cfg) (ac_g cfg) cs (asif_directs s) x traj jss) /\
    (forall v, length v = ac_dim cfg -> (solves rows consts v <->
       control_ok (ac_bounds cfg) (ac_f cfg) (ac_g cfg) cs (asif_directs s) x traj jss v)) /\
    forall solve,
    let call := implicit_asif_filter_control (with_solver solve cfg) ic (InArray x) dt u s in
    (forall z iact, solve G u rows consts = Ok (z, iact) -> length z = ac_dim cfg ->
       (forall i, In i iact -> exists j, i = S j /\ (j < length names)%nat) ->
       exists w s' out, call = (Ok w, s') /\ clip (ac_bounds cfg) z = Ok w /\
         intervening s' = Rltb (ac_eps cfg) (sqrt (dist2 u z)) /\
         names_of names iact [] out /\ causes s' = Some out /\ warnings s' = warnings s) /\
    (forall z iact i, solve G u rows consts = Ok (z, iact) -> (forall i, In i iact -> exists j, i = S j) ->
       In i iact -> (length names < i)%nat -> exists s', call = (Err IndexError, s')) /\
    (solve G u rows consts = Err (ValueError msg_inconsistent) ->
       if ac_exc cfg then exists s', call = (Err SolverError, s') /\ warnings s' = warnings s /\
                            causes s' = causes s /\ intervening s' = intervening s
       else exists w s', call = (Ok w, s') /\ clip (ac_bounds cfg) u = Ok w /\
              intervening s' = Rltb (ac_eps cfg) 0 /\ causes s' = causes s /\ warnings s' = S (warnings s)) /\
    (forall e, solve G u rows consts = Err e -> e <> ValueError msg_inconsistent ->
       exists s', call = (Err e, s') /\ warnings s' = warnings s /\ causes s' = causes s) /\
    imp_ctl (snd call) = imp_ctl s.
Proof.
  intros U cs G names jss.
  destruct (implicit_system cfg ic n s x dt u traj U) as (rows & consts & s2 & Pk & Jn & Enc & Stg & Hsys).
  destruct U as [Rch F Sv Look Sh HA Vs Sl En Lu].
  destruct Stg as [Gw Gs Gc Gwn Gi Gl Gn].
  rewrite (scales_nil _ Sl) in Gw.
  exists rows, consts; split; [exact Pk|split; [exact Jn|split; [exact Enc|split]]].
  { intros v Lv; rewrite (encodes_solves _ _ _ _ Enc v Lv).
    apply implicit_demands_iff; auto. symmetry; eapply Forall2_length; exact Jn. }
  intros solve call.
  assert (Hcall : call = match finish (with_solver solve cfg) u rows consts s2 with
    | (Ok v, s1) => match clip (ac_bounds cfg) v with
                  | Ok w => (Ok w, set_actual (Some w) (set_actual (Some v) s1))
                  | Err e => (Err e, set_actual (Some v) s1)
                  end
    | (Err e, s1) => (Err e, s1)
    end).
  { unfold call, implicit_asif_filter_control; change (ac_bounds (with_solver solve cfg)) with (ac_bounds cfg).
    etransitivity; [apply (gfilter_array (ac_bounds cfg)); exact En|]. rewrite <- Hsys; reflexivity. }
  assert (Ha : u ++ zeros (as_num_slack (get_asif s2)) = u) by (rewrite Gs; apply app_nil_r).
  split; [|split; [|split; [|split]]].
  - intros z iact Hs Lz Hv.
    destruct (finish_ok (with_solver solve cfg) u rows consts s2 z iact) as (out & N & Ef).
    + rewrite Gw, Ha; exact Hs.
    + exact Lu.
    + rewrite Gs, Nat.add_0_r; exact Lz.
    + rewrite Gn; exact Hv.
    + change (ac_dim (with_solver solve cfg)) with (ac_dim cfg) in Ef.
      rewrite firstn_all2 in Ef by lia.
      destruct (clip_boxed (ac_bounds cfg) z) as (w & Ew & _); [rewrite Lz; auto|].
      rewrite Ef, Ew in Hcall.
      do 3 eexists; split; [exact Hcall|].
      split; [exact Ew|split; [reflexivity|split; [rewrite Gn in N; exact N|split; [reflexivity|exact Gwn]]]].
  - intros z iact i Hs Hv Hi Hl.
    destruct (finish_bad (with_solver solve cfg) u rows consts s2 z iact i) as (s1 & Ef); auto.
    + rewrite Gw, Ha; exact Hs.
    + rewrite Gn; exact Hl.
    + rewrite Ef in Hcall; eauto.
  - intros Hs.
    rewrite finish_inconsistent in Hcall; [|rewrite Gw, Ha; exact Hs|exact Lu].
    change (ac_exc (with_solver solve cfg)) with (ac_exc cfg) in Hcall.
    change (ac_eps (with_solver solve cfg)) with (ac_eps cfg) in Hcall.
    destruct (ac_exc cfg).
    + eexists; split; [exact Hcall|split; [exact Gwn|split; [exact Gc|exact Gi]]].
    + destruct (clip_boxed (ac_bounds cfg) u) as (w & Ew & _); [rewrite Lu; auto|].
      rewrite Ew in Hcall; do 2 eexists; split; [exact Hcall|].
      split; [auto|split; [reflexivity|split; [exact Gc|]]].
      unfold warnings in *; rewrite <- Gwn; reflexivity.
  - intros e Hs Ne.
    rewrite (finish_error _ _ _ _ _ e) in Hcall; [|rewrite Gw, Ha; exact Hs|exact Ne].
    eexists; split; [exact Hcall|split; [exact Gwn|exact Gc]].
  - rewrite Hcall; clear call Hcall.
    destruct (finish (with_solver solve cfg) u rows consts s2) as [r s1] eqn:Ef.
    apply (lv_finish (Z:=ctl) imp_ctl) in Ef; [|reflexivity..].
    destruct r as [v|e]; [destruct (clip (ac_bounds cfg) v)|]; simpl; rewrite <- Gl, <- Ef; reflexivity.
Qed.

(** A solved call. *)
Lemma implicit_solved {X P} (cfg : asif_cfg X) ic n (s : amod X P ctl) x dt u traj w s' :
  qp_contract (ac_solve cfg) -> imp_in_use cfg ic n s x dt u traj ->
  implicit_asif_filter_control cfg ic (InArray x) dt u s = (Ok w, s') ->
  let cs := asif_constraints s in
  let names := call_names (ac_bounds cfg) (ac_dim cfg) cs (asif_directs s) (length traj) in
  let ok := fun jss => control_ok (ac_bounds cfg) (ac_f cfg) (ac_g cfg) cs (asif_directs s) x traj jss in
  let jss := map (fun kc => pick_list (c_sub (snd kc)) (length traj) (map (point_value (snd kc)) traj)) cs in
  all_picks cs traj x jss /\
    Forall2 (fun kc js => forall j, In j js -> (j < length traj)%nat) cs jss /\
    let demands := implicit_demands (ac_bounds cfg) (ac_dim cfg) (ac_f cfg) (ac_g cfg) cs (asif_directs s) x traj jss in
    (warnings s' = warnings s \/ (exists y, length y = ac_dim cfg /\ ok jss y) ->
    exists iact out, length w = ac_dim cfg /\ ok jss w /\
    (forall v, length v = ac_dim cfg -> ok jss v -> dist2 u w <= dist2 u v /\ (dist2 u v <= dist2 u w -> v = w)) /\
    intervening s' = Rltb (ac_eps cfg) (sqrt (dist2 u w)) /\
    causes s' = Some out /\ warnings s' = warnings s /\ names_of names iact [] out /\
    (forall i, In i iact -> exists j d, i = S j /\ nth_error demands j = Some d /\ dm_margin d w = 0) /\
    (forall v, length v = ac_dim cfg ->
       (forall j d, In (S j) iact -> nth_error demands j = Some d -> 0 <= dm_margin d v) -> dist2 u w <= dist2 u v)).
Proof.
  intros QC U Hc cs names ok jss.
  destruct (implicit_call cfg ic n s x dt u traj U) as (rows & consts & Pk & Jn & Enc & SO & Hcall).
  specialize (Hcall (ac_solve cfg)); rewrite with_solver_same in Hcall; cbv zeta in Hcall.
  fold cs in Enc, SO, Hcall, Pk, Jn; fold names in Hcall; fold jss in Enc, SO, Pk, Jn.
  clearbody jss.
  destruct Hcall as (C1 & C1' & C2 & C3 & _).
  split; [exact Pk|split; [exact Jn|]]; intros demands Hok.
  fold cs in demands. pose proof (ii_length _ _ _ _ _ _ _ _ U) as Lu.
  assert (F : fits (ac_bounds cfg) (ac_dim cfg)) by apply U.
  set (dim := ac_dim cfg) in *.
  destruct (ac_solve cfg (obj_weight dim []) u rows consts) as [[z iact]|e] eqn:Es.
  - destruct (qp_optimal _ QC _ _ _ _ _ _ Es) as (Lz & Sz & Opt & Act & KKT); rewrite Lu in *.
    assert (Hv : (forall i, In i iact -> exists j, i = S j /\ (j < length names)%nat)
                 \/ exists i, In i iact /\ (length names < i)%nat).
    { clear - Act. induction iact as [|i iact IH]; [left; intros i []|].
      destruct (Act i) as (j & _ & _ & -> & _); [left; auto|].
      destruct (lt_dec j (length names)) as [Hj|Hj]; [|right; exists (S j); split; [left; auto|lia]].
      destruct IH as [H|(i & Hi & Hl)]; [intros; apply Act; right; auto| |].
      - left; intros i [<-|Hi]; [exists j; auto|auto].
      - right; exists i; split; [right; auto|auto]. }
    destruct Hv as [Hv|(i & Hi & Hl)].
    2:{ destruct (C1' z iact i eq_refl) as (s1 & Hc1); auto.
        - intros i' Hi'; destruct (Act i' Hi') as (j & _ & _ & -> & _); eauto.
        - rewrite Hc in Hc1; discriminate. }
    destruct (C1 z iact eq_refl Lz Hv) as (w1 & s1 & out & Hc1 & Hclip & Hint & Hno & Hca & Hwa).
    rewrite Hc in Hc1; injection Hc1 as -> ->.
    assert (Okz : ok jss z) by (apply SO; auto).
    assert (Ew : w1 = z).
    { rewrite clip_id in Hclip; [injection Hclip as <-; auto|rewrite Lz; auto|apply Okz]. }
    subst w1; exists iact, out.
    split; [auto|split; [auto|split]].
    { intros v Lv Okv.
      assert (Ov : dist2 u z <= dist2 u v).
      { assert (Q := Opt v Lv (proj2 (SO v Lv) Okv)). rewrite !objective_plain in Q by auto; lra. }
      split; [auto|intros Le].
      pose proof (minimiser_unique dim [] u rows consts v z Lu (Forall_nil _)) as MU; simpl in MU.
      rewrite Nat.add_0_r in MU; unfold zeros in MU; simpl in MU; rewrite app_nil_r in MU.
      apply MU; auto; [apply SO; auto|]. rewrite !objective_plain by auto; lra. }
    split; [auto|split; [auto|split; [auto|split; [auto|split]]]].
    + intros i Hi; destruct (Act _ Hi) as (j & r & c & -> & Hr & Hc' & Hz).
      destruct (encodes_nth _ _ _ _ Enc _ _ _ Hr Hc') as (d & Hd & Hm).
      exists j, d; split; [auto|split; [auto|]]. rewrite <- Hm by auto; lra.
    + intros v Lv Hv'.
      assert (Q : objective (obj_weight dim []) u z <= objective (obj_weight dim []) u v).
      { apply KKT; auto. intros j r c Hj Hr Hc'; destruct (encodes_nth _ _ _ _ Enc _ _ _ Hr Hc') as (d & Hd & Hm).
        specialize (Hv' j d Hj Hd); rewrite <- Hm in Hv' by auto; lra. }
      rewrite !objective_plain in Q by auto; lra.
  - exfalso.
    assert (Ei : e = ValueError msg_inconsistent \/ e <> ValueError msg_inconsistent).
    { destruct e; try (right; discriminate).
      destruct (string_dec msg msg_inconsistent); [left; subst; auto|right; congruence]. }
    destruct Ei as [->|Ne].
    + destruct Hok as [Hw|(y & Ly & Oky)].
      * specialize (C2 eq_refl); destruct (ac_exc cfg).
        -- destruct C2 as (s1 & Hc1 & _); rewrite Hc in Hc1; discriminate.
        -- destruct C2 as (w1 & s1 & Hc1 & _ & _ & _ & Hw1); rewrite Hc in Hc1.
           injection Hc1 as -> ->; lia.
      * apply (qp_inconsistent _ QC _ _ _ _ Es y); [congruence|apply SO; auto].
    + destruct (C3 e eq_refl Ne) as (s1 & Hc1 & _); rewrite Hc in Hc1; discriminate.
Qed.
