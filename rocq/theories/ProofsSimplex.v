(** Lemmas about the simplex modules. *)
From Coq Require Import String Reals List Bool ZArith Lia Lra.
From Verif Require Import Prelude Vec ModelBase ModelController ModelSimplex SpecCore SpecHistory SpecSimplex
  ProofsBase ProofsHistory.
Import ListNotations.
Local Open Scope R_scope.

(** ** Constraint violation *)

Lemma vals_loop_vmap {X P} (c : constraint X P) p xs :
  forall acc, constraint_vals_loop c p xs acc = acc ++ constraint_vals_vmap c p xs.
Proof.
  induction xs as [|x xs IH]; simpl; intros acc; [rewrite app_nil_r; auto|].
  rewrite IH, <- app_assoc; auto.
Qed.

(** Whether some enabled constraint is negative at some of the states. *)
Definition violb {X P} (cs : dict (constraint X P)) (xs : list X) : bool :=
  existsb (fun kc => c_enabled (snd kc) &&
                     existsb (fun x => Rltb (c_compute (snd kc) x (c_params (snd kc))) 0) xs) cs.

Lemma violb_false {X P} (cs : dict (constraint X P)) xs :
  violb cs xs = false <-> forall x, In x xs -> safe cs x.
Proof.
  unfold violb, safe, holds; split.
  - intros H x Hx k c Hc He.
    destruct (Rlt_dec (c_fun c x (c_params c) + c_bias c) 0) as [L|L]; [|lra].
    exfalso; rewrite <- not_true_iff_false in H; apply H.
    apply existsb_exists; exists (k, c); split; auto; simpl; rewrite He; simpl.
    apply existsb_exists; exists x; split; auto; apply Rltb_true; auto.
  - intros H; rewrite <- not_true_iff_false; intros E.
    apply existsb_exists in E; destruct E as ((k, c) & Hc & E); simpl in E.
    apply andb_true_iff in E; destruct E as [He E].
    apply existsb_exists in E; destruct E as (x & Hx & E); apply Rltb_true in E.
    specialize (H x Hx k c Hc He); unfold c_compute in E; lra.
Qed.

Lemma violb_true {X P} (cs : dict (constraint X P)) xs :
  violb cs xs = true <-> exists x, In x xs /\ ~ safe cs x.
Proof.
  split; intros H.
  - unfold violb in H; apply existsb_exists in H; destruct H as ((k, c) & Hc & E); simpl in E.
    apply andb_true_iff in E; destruct E as [He E].
    apply existsb_exists in E; destruct E as (x & Hx & E); apply Rltb_true in E.
    exists x; split; auto; intros S; specialize (S k c Hc He).
    unfold c_compute in E; lra.
  - destruct H as (x & Hx & N); destruct (violb cs xs) eqn:E; auto.
    exfalso; apply N; eapply violb_false; eauto.
Qed.

Lemma mask_vals_neg e (l : list R) :
  existsb (fun v => Rltb v 0) (mask_vals e l) = e && existsb (fun v => Rltb v 0) l.
Proof.
  destruct e; simpl; auto.
  induction l as [|a l IH]; simpl; auto; rewrite IH, orb_false_r; apply Rltb_false; lra.
Qed.

Lemma existsb_map {A B} (f : A -> B) g l : existsb g (map f l) = existsb (fun a => g (f a)) l.
Proof. induction l; simpl; auto; rewrite IHl; auto. Qed.

Lemma constraint_violation_caches {X P} (cs : dict (constraint X P)) xs params enabled :
  (forall k c, In (k, c) cs -> dict_get params k = Ok (c_params c) /\
                               dict_get enabled k = Ok (c_enabled c)) ->
  constraint_violation cs xs params enabled = Ok (violb cs xs).
Proof.
  intros H; unfold constraint_violation, violb.
  assert (E : forall l, incl l cs ->
    rmap (fun kc => rbind (dict_get params (fst kc)) (fun p =>
                    rbind (dict_get enabled (fst kc)) (fun e =>
      Ok (existsb (fun v => Rltb v 0) (mask_vals e (constraint_vals_vmap (snd kc) p xs)))))) l
    = Ok (map (fun kc => c_enabled (snd kc) &&
                existsb (fun x => Rltb (c_compute (snd kc) x (c_params (snd kc))) 0) xs) l)).
  { induction l as [|[k c] l IH]; simpl; intros I; auto.
    destruct (H k c) as [-> ->]; [apply I; left; auto|]; simpl.
    rewrite IH by (intros z Hz; apply I; right; auto).
    rewrite mask_vals_neg; unfold constraint_vals_vmap; rewrite existsb_map; auto. }
  rewrite E by apply incl_refl; simpl.
  rewrite existsb_map; auto.
Qed.

(** With the caches just updated, the monitor's check is [violb]. *)
Lemma constraint_violation_updated {X P Y} (y : cb X P Y) xs :
  distinct_keys (cb_constraints y) ->
  constraint_violation (cb_constraints y) xs (cb_params (update_params y)) (cb_enabled (update_params y))
  = Ok (violb (cb_constraints y) xs).
Proof.
  intros D; apply constraint_violation_caches; intros k c H; split.
  - apply update_params_params; auto.
  - apply update_params_enabled; auto.
Qed.

(** ** The filter step, by cases *)

Section Filter.
Context {X P : Type} (cfg : sx_cfg X).
Notation simplex := (simplex X P).

Definition elapsed (s : simplex) : R := sx_elapsed (get_sx s).
Definition ctl_of (s : simplex) : ctl := sx_ctl (get_sx s).
Definition cons (s : simplex) : dict (constraint X P) := cb_constraints (ext s).

Definition latched (s : simplex) : Prop := intervening s = true /\ elapsed s < sc_latch cfg.

Definition bump (dt : R) (s : simplex) : simplex :=
  put_sx (set_elapsed (elapsed s + dt) (get_sx s)) s.
Definition unlatch (s : simplex) : simplex :=
  if intervening s then put_sx (set_elapsed 0 (get_sx s)) s else s.

Lemma latched_dec s : latched s \/ ~ latched s.
Proof.
  unfold latched; destruct (intervening s); [|right; intros [? _]; discriminate].
  destruct (Rlt_dec (elapsed s) (sc_latch cfg)); [left; auto|right; tauto].
Qed.

Lemma simplex_filter_latched mon x dt u (s : simplex) :
  latched s ->
  simplex_filter cfg mon x dt u s =
  on_ctl (backup_control (sc_bounds cfg) (sc_gen cfg) x dt) (bump dt s).
Proof.
  intros [Hi He]; unfold simplex_filter, bind, get, modify, ret; rewrite Hi.
  replace (Rleb (sc_latch cfg) (sx_elapsed (get_sx s))) with false
    by (symmetry; apply Rleb_false; exact He).
  reflexivity.
Qed.

Lemma simplex_filter_free mon x dt u (s : simplex) :
  ~ latched s ->
  simplex_filter cfg mon x dt u s =
  match mon x dt u (unlatch s) with
  | (Ok b, s2) =>
      if b then on_ctl (backup_control (sc_bounds cfg) (sc_gen cfg) x dt) (set_intervening true s2)
      else (Ok u, set_intervening false s2)
  | (Err e, s2) => (Err e, s2)
  end.
Proof.
  intros N; unfold simplex_filter, bind, get, modify, ret, unlatch.
  destruct (intervening s) eqn:Hi.
  - replace (Rleb (sc_latch cfg) (sx_elapsed (get_sx s))) with true.
    + destruct (mon x dt u _) as [[[|]|e] s2]; auto.
    + symmetry; apply Rleb_true. destruct (Rle_dec (sc_latch cfg) (sx_elapsed (get_sx s))); auto.
      exfalso; apply N; split; auto; unfold elapsed; lra.
  - destruct (mon x dt u s) as [[[|]|e] s2]; auto.
Qed.

(** Running the backup controller inside the module. *)
Lemma on_ctl_eq {A} (m : M ctl A) (s : simplex) r c :
  m (ctl_of s) = (r, c) -> on_ctl m s = (r, put_sx (set_ctl c (get_sx s)) s).
Proof. unfold on_ctl, zoom; fold (ctl_of s); intros ->; auto. Qed.

Lemma backup_control_eq b gen x dt (c : ctl) :
  backup_control (X:=X) b gen x dt c =
  match gen x dt (ctl_state c) with
  | GPair u cs => (clip b u, set_ctl_state cs c)
  | GOther => (Err (ValueError "_generate_control should return 2 values"), c)
  | GRaise e => (Err e, c)
  end.
Proof.
  unfold backup_control, generate_control, bind, get, modify, ret, raise, lift.
  destruct (gen x dt (ctl_state c)); auto.
Qed.

(** What the monitors and the filter leave alone. *)
Definition same_frame (s s' : simplex) : Prop :=
  enable s' = enable s /\ control_desired s' = control_desired s /\
  control_actual s' = control_actual s /\
  cb_constraints (ext s') = cb_constraints (ext s) /\
  cb_params (ext s') = cb_params (ext s) /\ cb_enabled (ext s') = cb_enabled (ext s) /\
  cb_values (ext s') = cb_values (ext s) /\ cb_stale (ext s') = cb_stale (ext s).

Lemma same_frame_refl s : same_frame s s.
Proof. repeat split. Qed.
Lemma same_frame_trans s s' s'' : same_frame s s' -> same_frame s' s'' -> same_frame s s''.
Proof. unfold same_frame; intuition congruence. Qed.
Lemma same_frame_put y s : same_frame s (put_sx y s).
Proof. repeat split. Qed.
Lemma same_frame_intervening b s : same_frame s (set_intervening b s).
Proof. repeat split. Qed.
Lemma same_frame_on_ctl {A} (m : M ctl A) s r s' : on_ctl m s = (r, s') -> same_frame s s'.
Proof.
  unfold on_ctl, zoom; destruct (m _) as [r0 c]; intros H; inversion H; subst.
  apply same_frame_put.
Qed.
Lemma same_frame_unlatch s : same_frame s (unlatch s).
Proof. unfold unlatch; destruct (intervening s); [apply same_frame_put|apply same_frame_refl]. Qed.

Lemma monitor_frame k x dt u s r s' :
  sx_monitor cfg k x dt u s = (r, s') ->
  same_frame s s' /\ intervening s' = intervening s /\ elapsed s' = elapsed s.
Proof.
  destruct k as [|w]; simpl.
  - unfold explicit_monitor, bind, lift, get.
    destruct (sc_pred cfg x dt u); intros H; inversion H; subst;
      split; auto using same_frame_refl.
  - unfold implicit_monitor, bind, lift, get.
    destruct (on_ctl (simplex_integrate cfg w x dt u) s) as [r1 s1] eqn:E.
    assert (F := same_frame_on_ctl _ _ _ _ E).
    assert (intervening s1 = intervening s /\ elapsed s1 = elapsed s).
    { unfold on_ctl, zoom in E; destruct (simplex_integrate _ _ _ _ _ _) as [r0 c];
        inversion E; subst; auto. }
    destruct r1; intros H'; inversion H'; subst; auto.
Qed.

Lemma simplex_framed k : framed (simplex_filter (P:=P) cfg (sx_monitor cfg k)).
Proof.
  intros x dt u s r s' H.
  assert (F : same_frame s s').
  { destruct (latched_dec s) as [L|L].
    - rewrite simplex_filter_latched in H by auto.
      eapply same_frame_trans; [|eapply same_frame_on_ctl; eauto]; apply same_frame_put.
    - rewrite simplex_filter_free in H by auto.
      destruct (sx_monitor cfg k x dt u (unlatch s)) as [r1 s2] eqn:E.
      destruct (monitor_frame _ _ _ _ _ _ _ E) as [F2 _].
      assert (F3 := same_frame_trans _ _ _ (same_frame_unlatch s) F2).
      destruct r1 as [[|]|e].
      + eapply same_frame_trans; [|eapply same_frame_on_ctl; eauto].
        eapply same_frame_trans; eauto; apply same_frame_intervening.
      + inversion H; subst; eapply same_frame_trans; eauto; apply same_frame_intervening.
      + inversion H; subst; auto. }
  destruct F as (F1 & F2 & F3 & F4 & _ & _ & F5 & F6); auto 10.
Qed.

Lemma simplex_out_sized k :
  gen_sized (sc_bounds cfg) (sc_gen cfg) ->
  out_sized (sc_bounds cfg) (simplex_filter (P:=P) cfg (sx_monitor cfg k)).
Proof.
  intros G x dt u s v s' Fu H.
  assert (B : forall s1, on_ctl (P:=P) (backup_control (sc_bounds cfg) (sc_gen cfg) x dt) s1 = (Ok v, s') ->
                    fits (sc_bounds cfg) (length v)).
  { intros s1 H1; unfold on_ctl, zoom in H1; rewrite backup_control_eq in H1.
    destruct (sc_gen cfg x dt _) as [u0 cs| |e] eqn:Eg; inversion H1; subst.
    assert (F0 := G _ _ _ _ _ Eg).
    rewrite (clip_length _ _ _ F0 H2); auto. }
  destruct (latched_dec s) as [L|L].
  - rewrite simplex_filter_latched in H by auto; eauto.
  - rewrite simplex_filter_free in H by auto.
    destruct (sx_monitor cfg k x dt u (unlatch s)) as [[[|]|e] s2]; eauto.
    + inversion H; subst; auto.
    + discriminate.
Qed.

Lemma simplex_reset_eq (s : simplex) :
  simplex_reset s =
  match copy_controller_state (ctl_initial (ctl_of s)) with
  | Ok c => (Ok tt, put_sx (set_ctl (set_ctl_state c (ctl_of s)) (get_sx s))
                      (mkRta true false None None (ext s)))
  | Err e => (Err e, mkRta true false None None (ext s))
  end.
Proof.
  unfold simplex_reset, on_ctl, zoom, bind, modify, rta_reset, ctl_reset, bind, get, lift, ctl_of, get_sx.
  simpl. destruct (copy_controller_state _); auto.
  simpl. destruct s as [s1 s2 s3 s4 [y1 y2 y3 y4 y5 [z1 z2]]]; reflexivity.
Qed.

Lemma simplex_reset_framed : reset_framed (simplex_reset (X:=X) (P:=P)).
Proof.
  intros s r s' H; rewrite simplex_reset_eq in H.
  destruct (copy_controller_state _); inversion H; subst; simpl; auto 10.
Qed.

End Filter.

(** ** Looking ahead *)

Lemma py_int_floor r n : INR n <= r < INR n + 1 -> Z.to_nat (py_int r) = n.
Proof.
  intros [H1 H2]; unfold py_int.
  assert (0 <= INR n) by apply pos_INR.
  destruct (Rle_dec 0 r); [|lra].
  assert (E : Int_part r = Z.of_nat n).
  { destruct (base_Int_part r) as [B1 B2]; rewrite INR_IZR_INZ in *.
    assert (IZR (Int_part r) < IZR (Z.of_nat n + 1)) by (rewrite plus_IZR; lra).
    assert (IZR (Z.of_nat n - 1) < IZR (Int_part r)) by (rewrite minus_IZR; lra).
    apply lt_IZR in H0; apply lt_IZR in H3; lia. }
  rewrite E; apply Nat2Z.id.
Qed.

Lemma window_steps_int w dt n : window_steps w dt n -> Z.to_nat (py_int (w / dt)) = n.
Proof.
  intros (Hd & H1 & H2); apply py_int_floor; split.
  - apply Rmult_le_reg_r with dt; auto; unfold Rdiv; rewrite Rmult_assoc, Rinv_l by lra; lra.
  - apply Rmult_lt_reg_r with dt; auto; unfold Rdiv; rewrite Rmult_assoc, Rinv_l by lra; lra.
Qed.

Lemma window_steps_exists w dt : 0 < dt -> 0 <= w -> exists n, window_steps w dt n.
Proof.
  intros Hd Hw. exists (Z.to_nat (Int_part (w / dt))).
  assert (0 <= w / dt) by (apply Rmult_le_pos; [auto|left; apply Rinv_0_lt_compat; auto]).
  destruct (base_Int_part (w / dt)) as [B1 B2].
  assert (0 <= Int_part (w / dt))%Z.
  { apply le_IZR. assert (-1 < IZR (Int_part (w / dt))) by lra.
    apply (lt_IZR (-1)) in H0. apply IZR_le; lia. }
  split; auto; rewrite INR_IZR_INZ, Z2Nat.id by auto.
  assert (E : w / dt * dt = w) by (field; lra).
  split; [rewrite <- E at 2|rewrite <- E at 1]; [apply Rmult_le_compat_r|apply Rmult_lt_compat_r]; lra.
Qed.

Lemma copy_savable cs : savable cs -> copy_controller_state cs = Ok cs.
Proof. destruct cs; simpl; auto; intros H; exfalso; eapply H; eauto. Qed.

Lemma set_ctl_state_same c : set_ctl_state (ctl_state c) c = c.
Proof. destruct c; auto. Qed.

Section Look.
Context {X P : Type} (cfg : sx_cfg X).
Notation simplex := (simplex X P).
Hypothesis G : gen_sized (sc_bounds cfg) (sc_gen cfg).

Lemma backup_control_ok x dt (c : ctl) u w cs :
  sc_gen cfg x dt (ctl_state c) = GPair u cs -> boxed (sc_bounds cfg) u w ->
  backup_control (sc_bounds cfg) (sc_gen cfg) x dt c = (Ok w, set_ctl_state cs c).
Proof.
  intros Hg Hb; rewrite backup_control_eq, Hg.
  assert (F := G _ _ _ _ _ Hg).
  apply (clip_iff_boxed _ _ _ F) in Hb; rewrite Hb; auto.
Qed.

Lemma backup_control_inv x dt (c : ctl) w c' :
  backup_control (sc_bounds cfg) (sc_gen cfg) x dt c = (Ok w, c') ->
  exists u cs, sc_gen cfg x dt (ctl_state c) = GPair u cs /\ boxed (sc_bounds cfg) u w /\
               c' = set_ctl_state cs c.
Proof.
  rewrite backup_control_eq; destruct (sc_gen cfg x dt (ctl_state c)) as [u cs| |e] eqn:Hg;
    intros H; inversion H; subst.
  exists u, cs; repeat split; auto; eapply (clip_iff_boxed _ _ _ (G _ _ _ _ _ Hg)); eauto.
Qed.

Lemma backup_loop_path dt n : forall x c xs,
  backup_path (sc_bounds cfg) (sc_pred cfg) (sc_gen cfg) dt n x (ctl_state c) xs ->
  exists cs, backup_loop cfg dt n x c = (Ok xs, set_ctl_state cs c).
Proof.
  induction n as [|n IH]; intros x c xs H;
    inversion H as [|n0 x0 cs0 x' cs' xs0 Hst Hre]; subst; simpl.
  - exists (ctl_state c); rewrite set_ctl_state_same; auto.
  - destruct Hst as (u & w & Hg & Hb & Hp).
    unfold bind at 1; rewrite (backup_control_ok _ _ _ _ _ _ Hg Hb).
    unfold bind at 1, lift; rewrite Hp.
    destruct (IH x' (set_ctl_state cs' c) xs0 Hre) as (cs2 & E2).
    unfold bind; rewrite E2; exists cs2; auto.
Qed.

Lemma backup_loop_inv dt n : forall x c xs c',
  backup_loop cfg dt n x c = (Ok xs, c') ->
  backup_path (sc_bounds cfg) (sc_pred cfg) (sc_gen cfg) dt n x (ctl_state c) xs /\
  exists cs, c' = set_ctl_state cs c.
Proof.
  induction n as [|n IH]; intros x c xs c' H; simpl in H.
  - inversion H; subst; split; [constructor|exists (ctl_state c'); symmetry; apply set_ctl_state_same].
  - unfold bind at 1 in H.
    destruct (backup_control _ _ x dt c) as [[w|e] c1] eqn:E1; [|discriminate].
    destruct (backup_control_inv _ _ _ _ _ E1) as (u & cs & Hg & Hb & ->).
    unfold bind at 1, lift in H. destruct (sc_pred cfg x dt w) as [x'|e] eqn:Hp; [|discriminate].
    unfold bind in H; destruct (backup_loop cfg dt n x' (set_ctl_state cs c)) as [[xs'|e] c2] eqn:E2;
      [|discriminate].
    inversion H; subst.
    destruct (IH _ _ _ _ E2) as [Hpath (cs2 & ->)].
    split; [|exists cs2; auto].
    econstructor; [exists u, w; eauto|exact Hpath].
Qed.

Lemma backup_path_det b pred gen dt n : forall (x : X) cs xs ys,
  backup_path b pred gen dt n x cs xs -> backup_path b pred gen dt n x cs ys -> xs = ys.
Proof.
  induction n as [|n IH]; intros x cs xs ys H1 H2; 
    inversion H1 as [|? ? ? ? ? ? Hst1 Hre1]; inversion H2 as [|? ? ? ? ? ? Hst2 Hre2]; subst; auto.
  destruct Hst1 as (u & w & A1 & A2 & A3), Hst2 as (u' & w' & B1 & B2 & B3).
  rewrite A1 in B1; inversion B1; subst.
  assert (w = w') by (eapply boxed_unique; eauto); subst.
  rewrite A3 in B3; inversion B3; subst.
  f_equal; eapply IH; eauto.
Qed.

Lemma integrate_ok w dt n x x1 u c xs :
  window_steps w dt n -> sc_pred cfg x dt u = Ok x1 -> savable (ctl_state c) ->
  backup_path (sc_bounds cfg) (sc_pred cfg) (sc_gen cfg) dt n x1 (ctl_state c) xs ->
  simplex_integrate cfg w x dt u c = (Ok (x1 :: xs), set_ctl_saved (ctl_state c) c).
Proof.
  intros W Hp Hs Hpath; unfold simplex_integrate, bind at 1, lift, py_div.
  destruct W as (Hd & W1 & W2).
  destruct (Req_EM_T dt 0); [lra|].
  rewrite (window_steps_int w dt n) by (split; auto).
  unfold bind at 1; rewrite Hp.
  unfold bind at 1, ctl_save, bind at 1, get, bind at 1, lift, modify.
  rewrite (copy_savable _ Hs).
  destruct (backup_loop_path dt n x1 (set_ctl_saved (ctl_state c) c) xs) as (cs & E); auto.
  unfold bind at 1; rewrite E.
  unfold bind, ctl_restore, modify, ret.
  destruct c; reflexivity.
Qed.

Lemma integrate_inv w dt x u c ys c' :
  0 < dt -> 0 <= w ->
  simplex_integrate cfg w x dt u c = (Ok ys, c') ->
  exists n x1 xs, window_steps w dt n /\ sc_pred cfg x dt u = Ok x1 /\ savable (ctl_state c) /\
    backup_path (sc_bounds cfg) (sc_pred cfg) (sc_gen cfg) dt n x1 (ctl_state c) xs /\
    ys = x1 :: xs /\ c' = set_ctl_saved (ctl_state c) c.
Proof.
  intros Hd Hw H.
  destruct (window_steps_exists w dt Hd Hw) as (n & W).
  unfold simplex_integrate, bind at 1, lift, py_div in H.
  destruct (Req_EM_T dt 0); [lra|].
  rewrite (window_steps_int w dt n W) in H.
  unfold bind at 1 in H. destruct (sc_pred cfg x dt u) as [x1|e] eqn:Hp; [|discriminate].
  unfold bind at 1, ctl_save, bind at 1, get, bind at 1, lift, modify in H.
  destruct (copy_controller_state (ctl_state c)) as [c0|e] eqn:Ec; [|discriminate].
  assert (Hs : savable (ctl_state c) /\ c0 = ctl_state c).
  { destruct (ctl_state c); simpl in Ec; inversion Ec; subst; split; auto; discriminate. }
  destruct Hs as [Hs ->].
  unfold bind at 1 in H.
  destruct (backup_loop cfg dt n x1 (set_ctl_saved (ctl_state c) c)) as [[xs|e] c1] eqn:El; [|discriminate].
  destruct (backup_loop_inv _ _ _ _ _ _ El) as [Hpath (cs & ->)].
  unfold bind, ctl_restore, modify, ret in H; inversion H; subst.
  exists n, x1, xs; repeat split; auto; try apply W.
Qed.

(** ** One call, by outcome *)

(** The state after a call, as far as behaviour goes. *)
Definition after (s s' : simplex) (flag : bool) (el : R) (st : cstate) : Prop :=
  enable s' = enable s /\ constraints_now s' = constraints_now s /\
  intervening s' = flag /\ elapsed_now s' = el /\ ctl_now s' = st /\
  ctl_initial (sx_ctl (cb_ext (ext s'))) = ctl_initial (sx_ctl (cb_ext (ext s))).

Lemma held_latched (s : simplex) : held cfg s <-> latched cfg s.
Proof. unfold held, latched, elapsed_now, elapsed, get_sx; tauto. Qed.

Lemma prep_latched x u (s : simplex) : latched cfg (prep x u s) <-> latched cfg s.
Proof. unfold latched; simpl; tauto. Qed.

Lemma filter_eq k x dt u (s : simplex) :
  enable s = true ->
  simplex_filter_control cfg k (InArray x) dt u s =
  match simplex_filter cfg (sx_monitor cfg k) x dt u (prep x u s) with
  | (Ok v, s1) => match clip (sc_bounds cfg) v with
                  | Ok w => (Ok w, set_actual (Some w) (set_actual (Some v) s1))
                  | Err e => (Err e, set_actual (Some v) s1)
                  end
  | (Err e, s1) => (Err e, s1)
  end.
Proof. intros E; apply (gfilter_array (sc_bounds cfg) (simplex_filter cfg (sx_monitor cfg k))); auto. Qed.

Lemma backup_clip_again x dt c w c' :
  backup_control (sc_bounds cfg) (sc_gen cfg) x dt c = (Ok w, c') -> clip (sc_bounds cfg) w = Ok w.
Proof.
  intros H; destruct (backup_control_inv _ _ _ _ _ H) as (u & cs & Hg & Hb & _).
  assert (F := G _ _ _ _ _ Hg).
  eapply clip_idem; eauto; apply clip_iff_boxed; auto.
Qed.

(** The backup controller in command. *)
Lemma call_held k x dt u ub w st (s : simplex) :
  enable s = true -> held cfg s ->
  sc_gen cfg x dt (ctl_now s) = GPair ub st -> boxed (sc_bounds cfg) ub w ->
  exists s', simplex_filter_control cfg k (InArray x) dt u s = (Ok w, s') /\
             after s s' true (elapsed_now s + dt) st.
Proof.
  intros E L Hg Hb; apply held_latched in L.
  rewrite filter_eq by auto.
  rewrite simplex_filter_latched by (apply prep_latched; auto).
  assert (E1 : backup_control (sc_bounds cfg) (sc_gen cfg) x dt (ctl_of (bump dt (prep x u s))) =
               (Ok w, set_ctl_state st (ctl_of (bump dt (prep x u s)))))
    by (apply (backup_control_ok _ _ _ _ _ _ Hg Hb)).
  rewrite (on_ctl_eq _ _ _ _ E1).
  rewrite (backup_clip_again _ _ _ _ _ E1).
  eexists; split; [reflexivity|].
  destruct L as [Li _].
  unfold after; simpl; auto 10.
Qed.

Lemma monitor_ok k x dt u (s : simplex) xs :
  distinct_keys (cons s) ->
  (forall w, k = Implicit w -> savable (ctl_now s)) ->
  foreseen cfg k dt x (ctl_now s) u xs ->
  exists s2, sx_monitor cfg k x dt u (unlatch (prep x u s)) = (Ok (violb (cons s) xs), s2) /\
    after s s2 (intervening s) (if intervening s then 0 else elapsed_now s) (ctl_now s).
Proof.
  intros D Sv (x1 & Hp & HF).
  assert (U : forall ss, (ss = put_sx (set_elapsed 0 (get_sx (prep x u s))) (prep x u s) \/ ss = prep x u s) ->
     exists s2, sx_monitor cfg k x dt u ss = (Ok (violb (cons s) xs), s2) /\
     after s s2 (intervening s) (elapsed_now ss) (ctl_now s)).
  { intros ss Hss.
    assert (C : constraint_violation (cb_constraints (ext ss)) xs (cb_params (ext ss)) (cb_enabled (ext ss))
                = Ok (violb (cons s) xs)).
    { rewrite <- (constraint_violation_updated (ext s)) by auto.
      destruct Hss; subst ss; reflexivity. }
    destruct k as [|w]; simpl.
    - subst xs. unfold explicit_monitor, bind, lift, get; rewrite Hp, C.
      eexists; split; [reflexivity|]. destruct Hss; subst ss; unfold after; simpl; auto 10.
    - destruct HF as (n & ps & W & Hpath & ->).
      unfold implicit_monitor, bind at 1.
      assert (Ec : ctl_of ss = ctl_of s) by (destruct Hss; subst ss; auto).
      assert (I : simplex_integrate cfg w x dt u (ctl_of ss) =
                  (Ok (x1 :: ps), set_ctl_saved (ctl_now s) (ctl_of ss))).
      { rewrite Ec; apply (integrate_ok w dt n); auto. apply (Sv w); auto. }
      rewrite (on_ctl_eq _ _ _ _ I).
      unfold bind, get, lift; simpl ext.
      change (cb_constraints (ext (put_sx (set_ctl (set_ctl_saved (ctl_now s) (ctl_of ss)) (get_sx ss)) ss)))
        with (cb_constraints (ext ss)).
      simpl; rewrite C.
      eexists; split; [reflexivity|]. destruct Hss; subst ss; unfold after; simpl; auto 10. }
  unfold unlatch.
  assert (Ei : intervening (prep x u s) = intervening s) by reflexivity.
  rewrite Ei; destruct (intervening s).
  - destruct (U _ (or_introl eq_refl)) as (s2 & H1 & H2); exists s2; split; auto.
  - destruct (U _ (or_intror eq_refl)) as (s2 & H1 & H2); exists s2; split; auto.
Qed.

(** The monitor accepts. *)
Lemma call_accept k x dt u (s : simplex) xs w :
  enable s = true -> ~ held cfg s -> distinct_keys (constraints_now s) ->
  (forall w, k = Implicit w -> savable (ctl_now s)) ->
  foreseen cfg k dt x (ctl_now s) u xs ->
  (forall y, In y xs -> safe (constraints_now s) y) ->
  clip (sc_bounds cfg) u = Ok w ->
  exists s', simplex_filter_control cfg k (InArray x) dt u s = (Ok w, s') /\
    after s s' false (if intervening s then 0 else elapsed_now s) (ctl_now s).
Proof.
  intros E L D Sv F S Hc.
  rewrite filter_eq by auto.
  rewrite simplex_filter_free by (rewrite prep_latched, <- held_latched; auto).
  destruct (monitor_ok k x dt u s xs D Sv F) as (s2 & E2 & A).
  rewrite E2. replace (violb (cons s) xs) with false by (symmetry; apply violb_false; auto).
  rewrite Hc.
  eexists; split; [reflexivity|].
  unfold after in *; simpl; intuition.
Qed.

(** The monitor rejects. *)
Lemma call_reject k x dt u (s : simplex) xs ub w st :
  enable s = true -> ~ held cfg s -> distinct_keys (constraints_now s) ->
  (forall w, k = Implicit w -> savable (ctl_now s)) ->
  foreseen cfg k dt x (ctl_now s) u xs ->
  (exists y, In y xs /\ ~ safe (constraints_now s) y) ->
  sc_gen cfg x dt (ctl_now s) = GPair ub st -> boxed (sc_bounds cfg) ub w ->
  exists s', simplex_filter_control cfg k (InArray x) dt u s = (Ok w, s') /\
    after s s' true (if intervening s then 0 else elapsed_now s) st.
Proof.
  intros E L D Sv F S Hg Hb.
  rewrite filter_eq by auto.
  rewrite simplex_filter_free by (rewrite prep_latched, <- held_latched; auto).
  destruct (monitor_ok k x dt u s xs D Sv F) as (s2 & E2 & A).
  rewrite E2. replace (violb (cons s) xs) with true by (symmetry; apply violb_true; auto).
  destruct A as (A1 & A2 & A3 & A4 & A5 & A6).
  assert (E1 : backup_control (sc_bounds cfg) (sc_gen cfg) x dt (ctl_of (set_intervening true s2)) =
               (Ok w, set_ctl_state st (ctl_of (set_intervening true s2)))).
  { apply backup_control_ok with ub; auto.
    change (ctl_state (ctl_of (set_intervening true s2))) with (ctl_now s2); rewrite A5; auto. }
  rewrite (on_ctl_eq _ _ _ _ E1).
  rewrite (backup_clip_again _ _ _ _ _ E1).
  eexists; split; [reflexivity|].
  unfold after; simpl; auto 10.
Qed.

(** Every call that returns is one of the three. *)
Lemma call_inv k x dt u (s s' : simplex) w :
  0 < dt -> (forall win, k = Implicit win -> 0 <= win) ->
  enable s = true -> distinct_keys (constraints_now s) ->
  simplex_filter_control cfg k (InArray x) dt u s = (Ok w, s') ->
  (held cfg s /\ exists ub st, sc_gen cfg x dt (ctl_now s) = GPair ub st /\
      boxed (sc_bounds cfg) ub w /\ after s s' true (elapsed_now s + dt) st)
  \/
  (~ held cfg s /\ exists xs, foreseen cfg k dt x (ctl_now s) u xs /\
     ((forall y, In y xs -> safe (constraints_now s) y) /\ clip (sc_bounds cfg) u = Ok w /\
       after s s' false (if intervening s then 0 else elapsed_now s) (ctl_now s)
     \/
      (exists y, In y xs /\ ~ safe (constraints_now s) y) /\
       exists ub st, sc_gen cfg x dt (ctl_now s) = GPair ub st /\ boxed (sc_bounds cfg) ub w /\
         after s s' true (if intervening s then 0 else elapsed_now s) st)).
Proof.
  intros Hd Hw E D H.
  assert (H0 := H).
  rewrite filter_eq in H by auto.
  destruct (latched_dec cfg s) as [L|L].
  - left; split; [apply held_latched; auto|].
    rewrite simplex_filter_latched in H by (apply prep_latched; auto).
    unfold on_ctl, zoom in H.
    destruct (backup_control _ _ x dt _) as [[v|e] c'] eqn:Eb; [|discriminate].
    assert (Ec := backup_clip_again _ _ _ _ _ Eb).
    destruct (backup_control_inv _ _ _ _ _ Eb) as (ub & st & Hg & Hb & _).
    rewrite Ec in H. assert (v = w) by congruence; subst v.
    exists ub, st; split; auto; split; auto.
    assert (Hh : held cfg s) by (apply held_latched; auto).
    destruct (call_held k x dt u ub w st s E Hh Hg Hb) as (s'' & H1 & A).
    rewrite H0 in H1; inversion H1; subst; auto.
  - right; split; [rewrite held_latched; auto|].
    rewrite simplex_filter_free in H by (rewrite prep_latched; auto).
    destruct (sx_monitor cfg k x dt u (unlatch (prep x u s))) as [[vb|e] s2] eqn:Em; [|discriminate].
    assert (HF : (exists xs, foreseen cfg k dt x (ctl_now s) u xs) /\
                 (forall win, k = Implicit win -> savable (ctl_now s))).
    { destruct k as [|win]; simpl in Em.
      - unfold explicit_monitor, bind, lift in Em.
        destruct (sc_pred cfg x dt u) as [x1|e] eqn:Hp; [|discriminate].
        split; [exists [x1], x1; auto|discriminate].
      - unfold implicit_monitor, bind at 1, on_ctl, zoom in Em.
        assert (Ec : sx_ctl (get_sx (unlatch (prep x u s))) = ctl_of s).
        { unfold unlatch; destruct (intervening (prep x u s)); auto. }
        rewrite Ec in Em.
        destruct (simplex_integrate cfg win x dt u (ctl_of s)) as [[ys|e] c'] eqn:Ei; [|discriminate].
        destruct (integrate_inv _ _ _ _ _ _ _ Hd (Hw win eq_refl) Ei)
          as (n & x1 & xs & W & Hp & Hs & Hpath & -> & _).
        split; [|intros; auto]. exists (x1 :: xs), x1; split; auto. exists n, xs; auto. }
    destruct HF as ((xs & HF) & Sv).
    exists xs; split; auto.
    destruct (monitor_ok k x dt u s xs D Sv HF) as (s3 & E3 & A3).
    rewrite Em in E3; inversion E3; subst vb s3; clear E3.
    destruct (violb (cons s) xs) eqn:Ev.
    + right; split; [apply violb_true; auto|].
      unfold on_ctl, zoom in H.
      destruct (backup_control _ _ x dt _) as [[v|e] c'] eqn:Eb; [|discriminate].
      assert (Ec := backup_clip_again _ _ _ _ _ Eb).
      destruct (backup_control_inv _ _ _ _ _ Eb) as (ub & st & Hg & Hb & _).
      rewrite Ec in H. assert (v = w) by congruence; subst v.
      assert (Hg' : sc_gen cfg x dt (ctl_now s) = GPair ub st).
      { destruct A3 as (_ & _ & _ & _ & A5 & _).
        change (ctl_state (sx_ctl (get_sx (set_intervening true s2)))) with (ctl_now s2) in Hg.
        rewrite A5 in Hg; auto. }
      exists ub, st; split; auto; split; auto.
      assert (Hn : ~ held cfg s) by (rewrite held_latched; auto).
      assert (Hv : exists y, In y xs /\ ~ safe (constraints_now s) y) by (apply violb_true; auto).
      destruct (call_reject k x dt u s xs ub w st E Hn D Sv HF Hv Hg' Hb) as (s'' & H1 & A).
      rewrite H0 in H1; inversion H1; subst; auto.
    + left; split; [apply violb_false; auto|].
      destruct (clip (sc_bounds cfg) u) as [w'|e] eqn:Ec; [|discriminate].
      assert (w' = w) by congruence; subst w'.
      split; auto.
      assert (Hn : ~ held cfg s) by (rewrite held_latched; auto).
      assert (Hv : forall y, In y xs -> safe (constraints_now s) y) by (apply violb_false; auto).
      destruct (call_accept k x dt u s xs w E Hn D Sv HF Hv Ec) as (s'' & H1 & A).
      rewrite H0 in H1; inversion H1; subst; auto.
Qed.

End Look.
