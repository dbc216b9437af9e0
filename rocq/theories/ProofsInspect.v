(** Lemmas about the delta-v and combined modules. *)
From Coq Require Import String Reals List Bool ZArith Lia Lra.
From Verif Require Import Prelude Vec ModelBase ModelController ModelSimplex ModelAsif ModelConstraint ModelCwh
  ModelInspect SpecCore SpecInspect ProofsBase.
Import ListNotations.
Local Open Scope R_scope.

Lemma len8 (s : vec) : length s = 8%nat -> exists x y z vx vy vz a b, s = [x; y; z; vx; vy; vz; a; b].
Proof.
  intros H. do 8 (destruct s as [|? s]; [discriminate|]). destruct s; [|discriminate].
  do 8 eexists; reflexivity.
Qed.
Lemma len3 (s : vec) : length s = 3%nat -> exists x y z, s = [x; y; z].
Proof.
  intros H. do 3 (destruct s as [|? s]; [discriminate|]). destruct s; [|discriminate].
  do 3 eexists; reflexivity.
Qed.

Lemma dv_pred_eq cfg s dt u : dv_m cfg <> 0 -> length s = 8%nat -> length u = 3%nat ->
  dv_pred cfg s dt u = Ok (euler_step (dv_n cfg) (dv_m cfg) dt s u).
Proof.
  intros Hm Hs Hu. destruct (len8 s Hs) as (x & y & z & vx & vy & vz & a & b & ->).
  destruct (len3 u Hu) as (ux & uy & uz & ->).
  unfold dv_pred; simpl. f_equal.
  do 8 (apply (f_equal2 (@cons R)); [field; auto|]). reflexivity.
Qed.

Lemma dv_pred_shape cfg s dt u p : dv_pred cfg s dt u = Ok p -> length s = 8%nat /\ length u = 3%nat.
Proof.
  unfold dv_pred; intros H. destruct (Nat.eqb (length s) 8) eqn:E1; [|discriminate].
  destruct (Nat.eqb (length u) 3) eqn:E2; [|discriminate].
  apply Nat.eqb_eq in E1, E2; auto.
Qed.

Lemma clamp_eq a : Rmin (Rmax a (-1)) 1 = Rmax (-1) (Rmin 1 a).
Proof.
  unfold Rmin, Rmax. repeat destruct (Rle_dec _ _); lra.
Qed.

Lemma dot_vneg r v : dot (vneg r) v = - dot r v.
Proof.
  revert v; induction r as [|a r IH]; intros v; simpl; [lra|]. destruct v; [lra|].
  change (map Ropp r) with (vneg r); rewrite IH; lra.
Qed.

Lemma tracking_rows (er e : vec) K1 : forall K2,
  map (fun a => Rmin (Rmax a (-1)) 1) (vsub (mv (map vneg K1) er) (mv K2 e)) =
  map2 (fun k1 k2 => Rmax (-1) (Rmin 1 (- dot k1 er - dot k2 e))) K1 K2.
Proof.
  induction K1 as [|k1 K1 IH]; intros [|k2 K2]; simpl; auto.
  rewrite clamp_eq, dot_vneg. f_equal. apply IH.
Qed.

Lemma dv_backup_eq cfg s dt e : (5 <= length s)%nat ->
  dv_backup cfg s dt e =
  Ok (tracking (dv_n cfg) (dv_K1 cfg) (dv_K2 cfg) s e, vadd e (vscale dt (track_error (dv_n cfg) s))).
Proof.
  intros H; unfold dv_backup. replace (length s <? 5)%nat with false by (symmetry; apply Nat.ltb_ge; auto).
  assert (E : [0; 0; 0; nth 3 s 0 - dv_n cfg / 2 * nth 1 s 0; nth 4 s 0 + 2 * dv_n cfg * nth 0 s 0; 0]
              = track_error (dv_n cfg) s).
  { unfold track_error. do 3 (apply (f_equal2 (@cons R)); [reflexivity|]).
    apply (f_equal2 (@cons R)); [field|reflexivity]. }
  cbv zeta beta. rewrite E, tracking_rows. unfold tracking.
  replace (vscale dt (track_error (dv_n cfg) s)) with (map (fun a => a * dt) (track_error (dv_n cfg) s)); auto.
  unfold vscale; apply map_ext; intros; ring.
Qed.

Lemma dv_backup_short cfg s dt e : (length s < 5)%nat -> dv_backup cfg s dt e = Err IndexError.
Proof. intros H; unfold dv_backup. apply Nat.ltb_lt in H; rewrite H; auto. Qed.

Lemma euler_length n m dt s u : length s = 8%nat -> length u = 3%nat -> length (euler_step n m dt s u) = 8%nat.
Proof.
  intros Hs Hu. destruct (len8 s Hs) as (x & y & z & vx & vy & vz & a & b & ->).
  destruct (len3 u Hu) as (ux & uy & uz & ->). reflexivity.
Qed.

Lemma tracking_length n K1 K2 s e : length K1 = 3%nat -> length K2 = 3%nat ->
  length (tracking n K1 K2 s e) = 3%nat.
Proof. intros H1 H2; unfold tracking; rewrite map2_length, H1, H2; auto. Qed.

Lemma forecast_length n m dt K1 K2 s u e j : length K1 = 3%nat -> length K2 = 3%nat ->
  length s = 8%nat -> length u = 3%nat -> length (fst (forecast n m dt K1 K2 s u e j)) = 8%nat.
Proof.
  intros H1 H2 Hs Hu; induction j as [|j IH]; cbn [forecast fst].
  - apply euler_length; auto.
  - apply euler_length; auto. apply tracking_length; auto.
Qed.

(** The error is added once for each of [c] violations. *)
Definition add_times (c : nat) (v e : vec) : vec := Nat.iter c (fun e => vadd e v) e.

Lemma add_times_shift c v e : add_times c v (vadd e v) = add_times (S c) v e.
Proof. induction c as [|c IH]; [reflexivity|].
  change (vadd (add_times c v (vadd e v)) v = vadd (add_times (S c) v e) v). rewrite IH; auto. Qed.
Lemma add_times_eq c v : forall e, length e = length v -> add_times c v e = vadd e (vscale (INR c) v).
Proof.
  induction c as [|c IH]; intros e H.
  - cbn. revert v H; induction e as [|a e IHe]; intros [|b v] H; try discriminate; cbn; auto.
    f_equal; [lra|]. apply IHe; auto.
  - change (add_times (S c) v e) with (vadd (add_times c v e) v). rewrite IH by auto.
    rewrite S_INR. clear IH. revert v H; induction e as [|a e IHe]; intros [|b v] H; try discriminate; cbn; auto.
    f_equal; [lra|]. apply IHe; auto.
Qed.

Section Loop.
  Variables (cfg : dv_cfg) (x : vec) (dt : R) (u e0 : vec).
  Hypothesis K : gains_ok cfg.
  Hypothesis Hm : dv_m cfg <> 0.
  Hypothesis Hx : length x = 8%nat.
  Hypothesis Hu : length u = 3%nat.
  Let fc := forecast (dv_n cfg) (dv_m cfg) dt (dv_K1 cfg) (dv_K2 cfg) x u e0.
  Let bad j := Rltb (dv_limit cfg) (delta_v_used (fst (fc j))).
  Let er := vscale dt (track_error (dv_n cfg) x).

  Lemma dv_loop_eq rounds : forall j s,
    let c := length (filter bad (seq (S j) rounds)) in
    dv_loop cfg x dt rounds (fst (fc j)) (snd (fc j)) s =
    (Ok tt, match c with
            | O => s
            | S _ => set_intervening true (set_ext (mkDv (add_times c er (dv_integral (ext s))) true) s)
            end).
  Proof.
    destruct K as [K1 K2].
    induction rounds as [|k IH]; intros j s; [reflexivity|].
    assert (L : length (fst (fc j)) = 8%nat) by (apply forecast_length; auto).
    cbn [dv_loop]. unfold bind at 1, lift at 1. rewrite dv_backup_eq by (rewrite L; lia).
    unfold bind at 1, lift at 1. cbn [fst snd].
    rewrite dv_pred_eq by (auto; apply tracking_length; auto).
    change (euler_step _ _ dt (fst (fc j)) _) with (fst (fc (S j))).
    change (vadd (snd (fc j)) _) with (snd (fc (S j))).
    change (Rltb (dv_limit cfg) (nth 7 (fst (fc (S j))) 0)) with (bad (S j)).
    cbn [seq filter]. unfold bind at 1.
    destruct (bad (S j)) eqn:B.
    - cbn [length].
      unfold bind, get, lift, modify. rewrite dv_backup_eq by (rewrite Hx; lia). cbn [fst snd].
      rewrite IH. cbv zeta.
      destruct (length (filter bad (seq (S (S j)) k))) as [|c'] eqn:Ec; [reflexivity|].
      f_equal. unfold set_intervening, set_ext, set_dv_integral, set_dv_latched; cbn. f_equal. f_equal.
      apply (add_times_shift (S c')).
    - unfold ret. rewrite IH. reflexivity.
  Qed.
End Loop.

(** ** Calls of the delta-v module *)
Definition dv_effect (cfg : dv_cfg) : mode -> vec -> R -> vec -> mode :=
  call_effect (dv_n cfg) (dv_m cfg) (dv_limit cfg) (dv_K1 cfg) (dv_K2 cfg) (dv_steps cfg).
Definition in_mode (s : rta dv) (md : mode) : Prop :=
  ext s = match md with Watching => mkDv (zeros 6) false | Tracking e => mkDv e true end.

Lemma vadd_zeros n v : length v = n -> vadd (zeros n) v = v.
Proof.
  revert v; induction n as [|n IH]; intros [|a v] H; try discriminate; auto.
  change (0 + a :: vadd (zeros n) v = a :: v). rewrite IH by (injection H; auto). f_equal; lra.
Qed.
Lemma vscale_vscale a b v : vscale a (vscale b v) = vscale (a * b) v.
Proof. unfold vscale; rewrite map_map; apply map_ext; intros; ring. Qed.

Lemma dv_compute_mode cfg x dt u s md : gains_ok cfg -> dv_m cfg <> 0 -> in_mode s md ->
  in_mode (snd (dv_compute cfg x dt u s)) (dv_effect cfg md x dt u) /\
  enable (snd (dv_compute cfg x dt u s)) = enable s /\
  (forall v, fst (dv_compute cfg x dt u s) = Ok v ->
     v = match md with Watching => u | Tracking e => tracking (dv_n cfg) (dv_K1 cfg) (dv_K2 cfg) x e end) /\
  (length x = 8%nat -> length u = 3%nat -> exists v, fst (dv_compute cfg x dt u s) = Ok v) /\
  (intervening (snd (dv_compute cfg x dt u s)) =
     match md, dv_effect cfg md x dt u with Watching, Tracking _ => true | _, _ => intervening s end).
Proof.
  intros K Hm I. unfold in_mode in I. destruct md as [|e]; unfold dv_compute, bind, get, lift, modify, ret.
  - rewrite I; cbn [dv_latched dv_integral].
    destruct (Nat.eq_dec (length x) 8) as [Lx|Lx]; [destruct (Nat.eq_dec (length u) 3) as [Lu|Lu]|].
    + rewrite dv_pred_eq by auto.
      change (dv_loop cfg x dt (dv_steps cfg) (euler_step (dv_n cfg) (dv_m cfg) dt x u) (zeros 6) s)
        with (dv_loop cfg x dt (dv_steps cfg)
                (fst (forecast (dv_n cfg) (dv_m cfg) dt (dv_K1 cfg) (dv_K2 cfg) x u (zeros 6) 0))
                (snd (forecast (dv_n cfg) (dv_m cfg) dt (dv_K1 cfg) (dv_K2 cfg) x u (zeros 6) 0)) s).
      rewrite dv_loop_eq by auto. cbn [fst snd].
      unfold dv_effect, call_effect. rewrite Lx, Lu, !Nat.eqb_refl; cbn [andb].
      unfold violations. rewrite I; cbn [dv_integral].
      destruct (length (filter _ (seq 1 (dv_steps cfg)))) as [|k].
      * split; [exact I|]. split; [auto|]. split; [intros v H; congruence|]. split; eauto.
      * split; [|split; [auto|split; [intros v H; congruence|split; eauto]]].
        unfold in_mode; cbn [ext set_intervening set_ext]. f_equal.
        rewrite add_times_eq by reflexivity. rewrite vadd_zeros by reflexivity.
        apply vscale_vscale.
    + destruct (dv_pred cfg x dt u) as [p|er] eqn:E.
      { apply dv_pred_shape in E; tauto. }
      cbn [fst snd]. unfold dv_effect, call_effect.
      apply Nat.eqb_neq in Lu. rewrite Lu, andb_false_r. apply Nat.eqb_neq in Lu.
      split; [exact I|]. split; [auto|]. split; [discriminate|]. split; [intros; lia|auto].
    + destruct (dv_pred cfg x dt u) as [p|er] eqn:E.
      { apply dv_pred_shape in E; tauto. }
      cbn [fst snd]. unfold dv_effect, call_effect.
      apply Nat.eqb_neq in Lx. rewrite Lx, andb_false_l. apply Nat.eqb_neq in Lx.
      split; [exact I|]. split; [auto|]. split; [discriminate|]. split; [intros; lia|auto].
  - rewrite I; cbn [dv_latched dv_integral]. unfold dv_effect, call_effect.
    destruct (length x <? 5)%nat eqn:L.
    + apply Nat.ltb_lt in L. rewrite dv_backup_short by auto. cbn [fst snd].
      split; [exact I|]. split; [auto|]. split; [discriminate|]. split; [intros; lia|auto].
    + apply Nat.ltb_ge in L. rewrite dv_backup_eq by auto. cbn [fst snd].
      split; [unfold in_mode, set_dv_integral; cbn [ext set_ext]; rewrite I; reflexivity|].
      split; [auto|]. split; [intros v H; congruence|]. split; eauto.
Qed.

Lemma dv_run_mode cfg os : gains_ok cfg -> dv_m cfg <> 0 -> forall s md, in_mode s md ->
  in_mode (dv_run cfg os s)
    (mode_after (dv_n cfg) (dv_m cfg) (dv_limit cfg) (dv_K1 cfg) (dv_K2 cfg) (dv_steps cfg)
       (enabled_calls (enable s) os) md).
Proof.
  intros K Hm. induction os as [|o os IH]; intros s md I; [exact I|].
  change (dv_run cfg (o :: os) s) with (dv_run cfg os (dv_step cfg o s)).
  destruct o as [x dt u| |b]; cbn [dv_step enabled_calls].
  - unfold dv_filter. destruct (enable s) eqn:E.
    + rewrite filter_control_enabled by auto.
      assert (I' : in_mode (set_desired (Some u) s) md) by exact I.
      destruct (dv_compute_mode cfg x dt u _ md K Hm I') as (A & B & _).
      destruct (dv_compute cfg x dt u (set_desired (Some u) s)) as [[v|er] s1] eqn:Ec; cbn [fst snd] in *.
      * destruct (clip (dv_bounds cfg) v) as [w|er]; cbn [snd mode_after].
        -- specialize (IH (set_actual (Some w) s1) _ A). cbn in IH.
           change (enable (set_actual (Some w) s1)) with (enable s1) in IH. rewrite B in IH.
           change (enable (set_desired (Some u) s)) with (enable s) in IH. rewrite E in IH. exact IH.
        -- specialize (IH s1 _ A). rewrite B in IH.
           change (enable (set_desired (Some u) s)) with (enable s) in IH. rewrite E in IH. exact IH.
      * cbn [mode_after]. specialize (IH s1 _ A). rewrite B in IH.
        change (enable (set_desired (Some u) s)) with (enable s) in IH. rewrite E in IH. exact IH.
    + rewrite filter_control_disabled by auto. cbn [snd].
      specialize (IH (set_actual (Some u) (set_desired (Some u) s)) md I).
      change (enable (set_actual (Some u) (set_desired (Some u) s))) with (enable s) in IH. rewrite E in IH; exact IH.
  - apply (IH (dv_reset s) md). exact I.
  - apply (IH (set_enable b s) md). exact I.
Qed.

Lemma forecast_monotone n m dt K1 K2 s u e j : length K1 = 3%nat -> length K2 = 3%nat ->
  length s = 8%nat -> length u = 3%nat -> 0 < m -> 0 <= dt ->
  delta_v_used (fst (forecast n m dt K1 K2 s u e j)) <= delta_v_used (fst (forecast n m dt K1 K2 s u e (S j))).
Proof.
  intros H1 H2 Hs Hu Hm Hdt. cbn [forecast fst].
  pose proof (forecast_length n m dt K1 K2 s u e j H1 H2 Hs Hu) as L.
  destruct (len8 _ L) as (x & y & z & vx & vy & vz & a & b & E). rewrite E.
  destruct (len3 _ (tracking_length n K1 K2 (x :: y :: z :: vx :: vy :: vz :: a :: b :: [])
                      (snd (forecast n m dt K1 K2 s u e j)) H1 H2)) as (ux & uy & uz & ->).
  cbn. pose proof (Rabs_pos ux). pose proof (Rabs_pos uy). pose proof (Rabs_pos uz).
  assert (0 <= dt * ((Rabs ux + Rabs uy + Rabs uz) / m)); [|lra].
  apply Rmult_le_pos; auto. apply Rmult_le_pos; [lra|]. left; apply Rinv_0_lt_compat; auto.
Qed.

(** ** The view of a deputy *)
Lemma agent_state_view (ds : list vec) (tail : vec) i :
  Forall (fun d => length d = 6%nat) ds -> (i < length ds)%nat ->
  agent_state (concat ds ++ tail) i = concat (first_view i ds) ++ tail.
Proof.
  unfold vec in *. intros F. revert i; induction F as [|d ds Hd F IH]; intros i Hi; [simpl in Hi; lia|].
  destruct i as [|i].
  - unfold first_view; cbn [nth_error firstn skipn app concat].
    do 6 (destruct d as [|? d]; [discriminate|]). destruct d; [|discriminate]. reflexivity.
  - simpl in Hi. specialize (IH i ltac:(lia)).
    assert (Sk : forall k (l : vec), skipn (6 + k) (d ++ l) = skipn k l).
    { intros k l. rewrite skipn_app, Hd. rewrite (skipn_all2 d) by lia.
      replace (6 + k - 6)%nat with k by lia; auto. }
    assert (Fi : forall k (l : vec), firstn (6 + k) (d ++ l) = d ++ firstn k l).
    { intros k l. rewrite firstn_app, Hd. rewrite (firstn_all2 d) by lia.
      replace (6 + k - 6)%nat with k by lia; auto. }
    unfold agent_state, slice in IH |- *. cbn [concat]. rewrite <- app_assoc.
    replace (6 * S i)%nat with (6 + 6 * i)%nat by lia.
    replace (6 + 6 * i + 6)%nat with (6 + (6 * i + 6))%nat by lia.
    rewrite Fi, !Sk.
    replace (6 + (6 * i + 6) - (6 + 6 * i))%nat with (6 * i + 6 - 6 * i)%nat by lia.
    unfold first_view in IH |- *. cbn [nth_error].
    destruct (nth_error ds i) as [a|] eqn:En; [|apply nth_error_None in En; lia].
    assert (La : length a = 6%nat) by (eapply Forall_forall in F; [exact F|eapply nth_error_In; eauto]).
    cbn [concat firstn skipn app] in IH |- *.
    rewrite <- app_assoc in IH |- *. 
    assert (L6 : length (firstn (6 * i + 6 - 6 * i) (skipn (6 * i) (concat ds ++ tail))) = 6%nat).
    { replace (6 * i + 6 - 6 * i)%nat with 6%nat by lia.
      rewrite firstn_length, skipn_length, app_length.
      assert (length (concat ds) = 6 * length ds)%nat.
      { clear - F. induction F as [|d ds Hd F IH]; cbn; auto. rewrite app_length, Hd, IH; lia. }
      lia. }
    set (f := firstn (6 * i + 6 - 6 * i) _) in *.
    assert (E : f = a /\ firstn (6 * i) (concat ds ++ tail) ++ skipn (6 * i + 6) (concat ds ++ tail)
                = concat (firstn i ds ++ skipn (S i) ds) ++ tail).
    { clear - IH L6 La. revert IH. set (r1 := firstn _ _ ++ _). set (r2 := concat _ ++ _). clearbody f r1 r2.
      intros E. do 6 (destruct f as [|? f]; [discriminate|]; destruct a as [|? a]; [discriminate|]).
      destruct f; [|discriminate]. destruct a; [|discriminate].
      cbn in E. injection E; intros; subst; auto. }
    destruct E as [-> E]. rewrite <- !app_assoc. f_equal. f_equal. exact E.
Qed.

Lemma slices_concat (us : list vec) k : Forall (fun u => length u = k) us ->
  forall i u, nth_error us i = Some u -> slice (k * i) (k * i + k) (concat us) = u.
Proof.
  intros F; induction F as [|d us Hd F IH]; intros [|i] u H; try discriminate; cbn in H.
  - injection H as <-. unfold slice. replace (k * 0)%nat with 0%nat by lia.
    replace (0 + k - 0)%nat with k by lia. cbn [concat skipn]. rewrite firstn_app, Hd.
    rewrite (firstn_all2 d) by lia. rewrite Nat.sub_diag; cbn; apply app_nil_r.
  - specialize (IH i u H). unfold slice in *. cbn [concat].
    replace (k * S i)%nat with (k + k * i)%nat by lia.
    rewrite skipn_app, Hd. rewrite (skipn_all2 d) by lia.
    replace (k + k * i - k)%nat with (k * i)%nat by lia.
    replace (k + k * i + k - (k + k * i))%nat with (k * i + k - k * i)%nat by lia. exact IH.
Qed.

(** ** The combined module *)
Lemma assign3_same v : length v = 3%nat -> assign3 v = Ok v.
Proof. intros H; destruct (len3 v H) as (a & b & c & ->); reflexivity. Qed.

Lemma combined_loop_iff {D} (step : vec -> R -> vec -> M D vec) state dt (us0 : list vec) :
  Forall (fun u => length u = 3%nat) us0 ->
  (forall x u d v d', length u = 3%nat -> step x dt u d = (Ok v, d') -> length v = 3%nat) ->
  forall us i d w d', (forall k u, nth_error us k = Some u -> nth_error us0 (i + k) = Some u) ->
  (combined_loop step state dt (concat us0) (length us) i d = (Ok w, d') <->
   exists vs, one_by_one step (agent_state state) dt i us d vs d' /\ w = concat vs).
Proof.
  intros F L us; induction us as [|u us IH]; intros i d w d' N.
  - cbn. split.
    + intros H; injection H as <- <-. exists []; split; [constructor|auto].
    + intros (vs & H & ->). inversion H; subst; reflexivity.
  - assert (N0 : nth_error us0 i = Some u) by (rewrite <- (N 0%nat u eq_refl); f_equal; lia).
    assert (Lu : length u = 3%nat) by (eapply Forall_forall in F; [exact F|eapply nth_error_In; eauto]).
    assert (N' : forall k u', nth_error us k = Some u' -> nth_error us0 (S i + k) = Some u').
    { intros k u' H. rewrite <- (N (S k) u' H). f_equal; lia. }
    cbn [combined_loop length]. rewrite (slices_concat us0 3 F i u N0).
    unfold bind, lift, ret.
    destruct (step (agent_state state i) dt u d) as [[v|er] d1] eqn:E.
    + pose proof (L _ _ _ _ _ Lu E) as Lv. rewrite (assign3_same v Lv).
      split.
      * destruct (combined_loop step state dt (concat us0) (length us) (S i) d1) as [[w'|er] d2] eqn:E2;
          [|discriminate].
        intros H; injection H as <- <-. apply (IH _ _ _ _ N') in E2. destruct E2 as (vs & O & ->).
        exists (v :: vs); split; [econstructor; eauto|auto].
      * intros (vs & O & ->). inversion O; subst.
        match goal with H : step _ _ _ _ = _ |- _ => rewrite E in H; injection H as -> -> end.
        match goal with H : one_by_one _ _ _ (S i) _ _ ?vs _ |- _ =>
          pose proof (proj2 (IH _ _ (concat vs) _ N') (ex_intro _ vs (conj H eq_refl))) as E2 end.
        rewrite E2; auto.
    + split; [discriminate|]. intros (vs & O & ->). inversion O; subst.
      match goal with H : step _ _ _ _ = _ |- _ => rewrite E in H; discriminate end.
Qed.

Lemma obo_view {D} (step : vec -> R -> vec -> M D vec) view view' dt n us : forall i d vs d',
  (forall k, (k < n)%nat -> view k = view' k) -> (i + length us <= n)%nat ->
  one_by_one step view dt i us d vs d' -> one_by_one step view' dt i us d vs d'.
Proof.
  intros i d vs d' H L O. revert L. induction O as [|i u us d v d1 vs d' E Lv O IH]; intros L; [constructor|].
  cbn in L. econstructor; [rewrite <- H by lia; exact E|exact Lv|apply IH; lia].
Qed.

Lemma obo_length {D} (step : vec -> R -> vec -> M D vec) view dt i us d vs d' :
  one_by_one step view dt i us d vs d' ->
  Forall (fun v => length v = 3%nat) vs /\ length vs = length us.
Proof. induction 1 as [|i u us d v d1 vs d' E Lv O [IH1 IH2]]; cbn; auto. Qed.

Lemma concat_length3 (vs : list vec) k : Forall (fun v => length v = k) vs ->
  length (concat vs) = (k * length vs)%nat.
Proof.
  induction 1 as [|v vs H F IH]; cbn; [lia|]. unfold vec in *. rewrite app_length, H, IH; lia.
Qed.
