(** Lemmas about the explicit ASIF module. *)
From Coq Require Import String Reals List Bool ZArith Lia Lra.
From Verif Require Import Prelude Vec ModelBase ModelController ModelSimplex ModelAsif
  SpecCore SpecHistory SpecAsif ProofsBase ProofsVec ProofsHistory.
Import ListNotations.
Local Open Scope R_scope.

(** ** Rows that encode demands *)

(** Row by row: row . z - constant is the margin, for every decision vector of length [n]. *)
Inductive encodes (n : nat) : mat -> vec -> list demand -> Prop :=
| enc_nil : encodes n [] [] []
| enc_cons r c d rows consts ds :
    length r = n ->
    (forall z, length z = n -> dot r z - c = dm_margin d z) ->
    encodes n rows consts ds -> encodes n (r :: rows) (c :: consts) (d :: ds).

Lemma encodes_app n r1 c1 d1 r2 c2 d2 :
  encodes n r1 c1 d1 -> encodes n r2 c2 d2 -> encodes n (r1 ++ r2) (c1 ++ c2) (d1 ++ d2).
Proof. intros H; induction H; simpl; auto; intros; constructor; auto. Qed.

Lemma encodes_solves n rows consts ds : encodes n rows consts ds -> forall z, length z = n ->
  (solves rows consts z <-> forall d, In d ds -> 0 <= dm_margin d z).
Proof.
  induction 1 as [|r c d rows consts ds L E H IH]; intros z Lz.
  - split; [intros _ d []|intros _; constructor].
  - specialize (E z Lz); split.
    + intros S; inversion S; subst; intros d' [<-|Hd]; [lra|]. apply IH; auto.
    + intros S; constructor; [specialize (S d (or_introl eq_refl)); lra|].
      apply IH; auto; intros d' Hd; apply S; right; auto.
Qed.

Lemma encodes_nth n rows consts ds : encodes n rows consts ds -> forall j r c,
  nth_error rows j = Some r -> nth_error consts j = Some c ->
  exists d, nth_error ds j = Some d /\ forall z, length z = n -> dot r z - c = dm_margin d z.
Proof.
  induction 1 as [|r0 c0 d rows consts ds L E H IH]; intros [|j] r c Hr Hc; simpl in *; try discriminate.
  - inversion Hr; inversion Hc; subst; eauto.
  - eauto.
Qed.
Lemma encodes_nth' n rows consts ds : encodes n rows consts ds -> forall j d,
  nth_error ds j = Some d -> exists r c,
  nth_error rows j = Some r /\ nth_error consts j = Some c /\
  forall z, length z = n -> dot r z - c = dm_margin d z.
Proof.
  induction 1 as [|r0 c0 d0 rows consts ds L E H IH]; intros [|j] d Hd; simpl in *; try discriminate.
  - inversion Hd; subst; eauto.
  - eauto.
Qed.
Lemma encodes_length n rows consts ds : encodes n rows consts ds ->
  length rows = length ds /\ length consts = length ds.
Proof. induction 1; simpl; auto; lia. Qed.

(** ** Bounds *)

Lemma map_repeat_seq {A B} (f : A -> B) (a : A) n : forall k, map f (repeat a n) = map (fun _ => f a) (seq k n).
Proof. induction n as [|n IH]; simpl; intros k; auto; rewrite (IH (S k)); auto. Qed.
Lemma map2_repeat_nth (f : R -> R -> R) n : forall (v : vec) k, length v = n ->
  map2 f (repeat 1 n) v = map (fun i => f 1 (nth (i - k) v 0)) (seq k n).
Proof.
  induction n as [|n IH]; intros [|a v] k H; simpl in *; try discriminate; auto.
  rewrite Nat.sub_diag; f_equal; rewrite (IH v (S k)) by lia.
  apply map_ext_in; intros i Hi; apply in_seq in Hi.
  replace (i - k)%nat with (S (i - S k)) by lia; auto.
Qed.

Lemma lower_bound_mats_ok l n : fits1 (Some l) n ->
  exists v, lower_bound_mats l n = Ok (eye n, v) /\ v = map (bound_val (Some l)) (seq 0 n).
Proof.
  intros F; unfold lower_bound_mats, bcast; destruct l as [r|v]; simpl in F.
  - eexists; split; [reflexivity|]; unfold bound_val; simpl.
    rewrite (map_repeat_seq _ 1 n 0); apply map_ext; intros; ring.
  - rewrite repeat_length; destruct (Nat.eqb n (length v)) eqn:E.
    + apply Nat.eqb_eq in E; eexists; split; [reflexivity|].
      rewrite (map2_repeat_nth _ n v 0) by auto.
      apply map_ext_in; intros i Hi; apply in_seq in Hi; rewrite Nat.sub_0_r.
      assert (Q : nth_error v i = Some (nth i v 0)) by (apply nth_error_nth'; lia).
      unfold bound_val, bound_at; destruct v as [|a [|b v]].
      * simpl in *; lia.
      * simpl in *; replace i with 0%nat by lia; simpl; ring.
      * rewrite Q; ring.
    + apply Nat.eqb_neq in E; destruct F as [F|F]; [lia|].
      destruct v as [|r [|]]; try discriminate.
      eexists; split; [destruct n as [|[|]]; reflexivity|].
      unfold bound_val; simpl.
      rewrite (map_repeat_seq _ 1 n 0); apply map_ext; intros; ring.
Qed.

Lemma encodes_bound (sgn : R) (n k dim : nat) (l : option bnd) (mk : nat -> demand) :
  (n = dim + k)%nat ->
  (forall i z, dm_margin (mk i) z = sgn * (nth i z 0 - bound_val l i)) ->
  encodes n (map (fun r => r ++ zeros k) (map (vscale sgn) (eye dim)))
    (vscale sgn (map (bound_val l) (seq 0 dim))) (map mk (seq 0 dim)).
Proof.
  intros -> HM. unfold eye, vscale at 2.
  assert (H : forall i, In i (seq 0 dim) -> (i < dim)%nat) by (intros i Hi; apply in_seq in Hi; lia).
  induction (seq 0 dim) as [|i is IH]; simpl; constructor.
  - rewrite app_length, vscale_length, unit_vec_length, zeros_length; auto.
  - intros z Lz; rewrite HM. rewrite dot_app_l, dot_zeros_l, vscale_length, unit_vec_length.
    rewrite dot_vscale_l, dot_unit, nth_firstn_lt.
    + ring.
    + apply H; left; auto.
    + rewrite firstn_length; lia.
    + apply H; left; auto.
  - apply IH; intros j Hj; apply H; right; auto.
Qed.

Lemma map_vscale_1 (A : mat) : map (vscale 1) A = A.
Proof.
  rewrite <- (map_id A) at 2; apply map_ext; intros r; unfold vscale.
  rewrite <- (map_id r) at 2; apply map_ext; intros; ring.
Qed.
Lemma vscale_1 u : vscale 1 u = u.
Proof. unfold vscale; rewrite <- (map_id u) at 2; apply map_ext; intros; ring. Qed.

Lemma actuation_mats_ok b dim k : fits b dim ->
  exists rows consts names, actuation_mats b dim k = Ok (rows, consts, names) /\
  encodes (dim + k) rows consts (low_demands (b_low b) dim ++ high_demands (b_high b) dim) /\
  names = map dm_name (low_demands (b_low b) dim ++ high_demands (b_high b) dim) /\
  length names = ((match b_low b with Some _ => dim | None => 0 end) +
              (match b_high b with Some _ => dim | None => 0 end))%nat.
Proof.
  intros [FL FH]; unfold actuation_mats.
  assert (LowOk : exists r c nm,
    match b_low b with
    | None => Ok ([], [], [])
    | Some l => rbind (lower_bound_mats l dim) (fun cb =>
        Ok (map (fun r => r ++ zeros k) (fst cb), snd cb, bound_names dim "_min"))
    end = Ok (r, c, nm) /\ encodes (dim + k) r c (low_demands (b_low b) dim) /\
    nm = map dm_name (low_demands (b_low b) dim) /\
    length nm = match b_low b with Some _ => dim | None => 0%nat end).
  { destruct (b_low b) as [l|]; [|exists [], [], []; split; [auto|split; [constructor|auto]]].
    destruct (lower_bound_mats_ok l dim FL) as (v & -> & ->); simpl.
    do 3 eexists; split; [reflexivity|split; [|split]].
    - pose proof (encodes_bound 1 (dim + k) k dim (Some l)
        (fun i => mkDemand (control_name "_min" i) (fun z => nth i z 0 - bound_val (Some l) i)) eq_refl) as Q.
      rewrite map_vscale_1, vscale_1 in Q; apply Q; intros; simpl; ring.
    - rewrite map_map; reflexivity.
    - unfold bound_names; rewrite map_length, seq_length; auto. }
  assert (HighOk : exists r c nm,
    match b_high b with
    | None => Ok ([], [], [])
    | Some l => rbind (lower_bound_mats l dim) (fun cb =>
        Ok (map (fun r => r ++ zeros k) (map (vscale (-1)) (fst cb)), vscale (-1) (snd cb),
            bound_names dim "_max"))
    end = Ok (r, c, nm) /\ encodes (dim + k) r c (high_demands (b_high b) dim) /\
    nm = map dm_name (high_demands (b_high b) dim) /\
    length nm = match b_high b with Some _ => dim | None => 0%nat end).
  { destruct (b_high b) as [l|]; [|exists [], [], []; split; [auto|split; [constructor|auto]]].
    destruct (lower_bound_mats_ok l dim FH) as (v & -> & ->); cbn [rbind fst snd].
    do 3 eexists; split; [reflexivity|split; [|split]].
    - pose proof (encodes_bound (-1) (dim + k) k dim (Some l)
        (fun i => mkDemand (control_name "_max" i) (fun z => bound_val (Some l) i - nth i z 0)) eq_refl) as Q.
      apply Q; intros; simpl; ring.
    - simpl; rewrite map_map; reflexivity.
    - unfold bound_names; rewrite map_length, seq_length; auto. }
  destruct LowOk as (r1 & c1 & n1 & -> & E1 & N1 & L1).
  destruct HighOk as (r2 & c2 & n2 & -> & E2 & N2 & L2).
  cbn [rbind].
  do 3 eexists; split; [reflexivity|split; [|split]].
  - apply encodes_app; auto.
  - rewrite map_app; congruence.
  - rewrite app_length; lia.
Qed.

Lemma low_demands_above b dim w : fits1 b dim -> length w = dim ->
  ((forall d, In d (low_demands b dim) -> 0 <= dm_margin d w) <-> above b w).
Proof.
  intros F L; unfold low_demands, above; destruct b as [l|].
  - split.
    + intros H i x y Hx Hy.
      assert (Li : (i < dim)%nat) by (rewrite <- L; apply nth_error_Some; congruence).
      specialize (H (mkDemand (control_name "_min" i) (fun z => nth i z 0 - bound_val (Some l) i))).
      simpl in H; unfold bound_val in H; rewrite Hy in H.
      rewrite (nth_error_nth w i 0 Hx) in H.
      enough (0 <= x - y) by lra; apply H.
      apply in_map_iff; exists i; split; [unfold bound_val; rewrite Hy; auto|apply in_seq; lia].
    + intros H d Hd; apply in_map_iff in Hd; destruct Hd as (i & <- & Hi); apply in_seq in Hi; simpl.
      assert (Q : nth_error w i = Some (nth i w 0)) by (apply nth_error_nth'; lia).
      unfold bound_val; destruct (bound_at (Some l) i) as [y|] eqn:Hy.
      * specialize (H i _ y Q Hy); lra.
      * exfalso; destruct l as [r|[|a [|a' v]]]; simpl in *; try discriminate; try lia.
        apply nth_error_None in Hy; simpl in *; lia.
  - split; [intros _ i x y _ Hy; discriminate|intros _ d []].
Qed.
Lemma high_demands_below b dim w : fits1 b dim -> length w = dim ->
  ((forall d, In d (high_demands b dim) -> 0 <= dm_margin d w) <-> below b w).
Proof.
  intros F L; unfold high_demands, below; destruct b as [l|].
  - split.
    + intros H i x y Hx Hy.
      assert (Li : (i < dim)%nat) by (rewrite <- L; apply nth_error_Some; congruence).
      specialize (H (mkDemand (control_name "_max" i) (fun z => bound_val (Some l) i - nth i z 0))).
      simpl in H; unfold bound_val in H; rewrite Hy in H.
      rewrite (nth_error_nth w i 0 Hx) in H.
      enough (0 <= y - x) by lra; apply H.
      apply in_map_iff; exists i; split; [unfold bound_val; rewrite Hy; auto|apply in_seq; lia].
    + intros H d Hd; apply in_map_iff in Hd; destruct Hd as (i & <- & Hi); apply in_seq in Hi; simpl.
      assert (Q : nth_error w i = Some (nth i w 0)) by (apply nth_error_nth'; lia).
      unfold bound_val; destruct (bound_at (Some l) i) as [y|] eqn:Hy.
      * specialize (H i _ y Q Hy); lra.
      * exfalso; destruct l as [r|[|a [|a' v]]]; simpl in *; try discriminate; try lia.
        apply nth_error_None in Hy; simpl in *; lia.
  - split; [intros _ i x y _ Hy; discriminate|intros _ d []].
Qed.

(** The margin of a bound depends on the control part only. *)
Lemma bound_demand_firstn b dim d z : In d (low_demands b dim) \/ In d (high_demands b dim) ->
  dm_margin d (firstn dim z) = dm_margin d z.
Proof.
  destruct b as [l|]; simpl; [|intros [[]|[]]].
  intros [H|H]; apply in_map_iff in H; destruct H as (i & <- & Hi); apply in_seq in Hi; simpl;
    rewrite nth_firstn_lt by lia; auto.
Qed.

(** ** Barrier and direct rows *)

Lemma set_at_length i r v : length (set_at i r v) = length v.
Proof. revert i; induction v as [|a v IH]; intros [|i]; simpl; auto. Qed.
Lemma dot_set_at j k : forall z, (j < k)%nat -> length z = k ->
  dot (set_at j (-1) (zeros k)) z = - nth j z 0.
Proof.
  revert j; induction k as [|k IH]; intros j [|a z] H L; simpl in *; try lia; try discriminate.
  destruct j as [|j]; simpl.
  - fold (zeros k); rewrite dot_zeros_l; ring.
  - fold (zeros k); rewrite IH by lia; ring.
Qed.

Lemma slack_scales_scales {X P} (cs : dict (constraint X P)) : slack_scales cs = scales cs.
Proof. induction cs as [|[k c] cs IH]; simpl; auto; rewrite IH; auto. Qed.
Lemma scales_count {X P} (cs : dict (constraint X P)) : length (scales cs) = slack_count cs.
Proof.
  unfold slack_count; induction cs as [|[k c] cs IH]; simpl; auto.
  unfold has_slack at 1; simpl; destruct (c_slack c); simpl; auto.
Qed.

Lemma explicit_row_ok {X P} (cfg : asif_cfg X) n num_slack j (c : constraint X P) x :
  length (ac_f cfg x) = n -> is_mat n (ac_dim cfg) (ac_g cfg x) ->
  length (c_grad c x (c_params c)) = n -> c_alpha c <> None ->
  (c_slack c <> None -> (j < num_slack)%nat) ->
  exists r c0, explicit_row cfg num_slack j c (c_params c) (c_enabled c) x = Ok (r, c0) /\
    length r = (ac_dim cfg + num_slack)%nat /\
    forall z, length z = (ac_dim cfg + num_slack)%nat ->
      dot r z - c0 = (if c_enabled c then barrier_margin (ac_dim cfg) (ac_f cfg) (ac_g cfg) c x j z else 0).
Proof.
  intros Lf [Lg Rg] Lgr Ha Hj; unfold explicit_row.
  set (grad := c_grad c x (c_params c)) in *.
  set (h := c_compute c x (c_params c)).
  assert (A : exists a an, c_alpha_at c h = Ok a /\ c_alpha_negative_at c h = Ok an /\
     (if Rltb h 0 then an + c_bias_neg c else a) = strength c h).
  { unfold c_alpha_at, c_alpha_negative_at, strength, Rltb.
    destruct (c_alpha c) as [a|]; [|congruence].
    destruct (c_alpha_neg c) as [a'|]; do 2 eexists; (split; [reflexivity|split; [reflexivity|]]);
      destruct (Rlt_dec h 0); auto; ring. }
  destruct A as (a & an & E1 & E2 & E3); rewrite E1; cbn [rbind]; rewrite E2; cbn [rbind]; rewrite E3; clear E1 E2 E3.
  set (slack := match c_slack c with Some _ => set_at j (-1) (zeros num_slack) | None => zeros num_slack end).
  assert (Lr : length (vm (ac_dim cfg) grad (ac_g cfg x) ++ slack) = (ac_dim cfg + num_slack)%nat).
  { rewrite app_length, vm_length by auto; unfold slack.
    destruct (c_slack c); rewrite ?set_at_length, zeros_length; auto. }
  destruct (c_enabled c); do 2 eexists; (split; [reflexivity|split]).
  - exact Lr.
  - intros z Lz; unfold barrier_margin, slack_value; fold grad.
    rewrite dot_app_l, vm_length, vm_dot by auto.
    rewrite dot_vneg_l, dot_vadd_r by (rewrite mv_length; congruence).
    unfold h, c_compute, slack; destruct (c_slack c).
    + rewrite dot_set_at; [|apply Hj; discriminate|rewrite skipn_length; lia].
      rewrite nth_skipn; ring.
    + rewrite dot_zeros_l; ring.
  - rewrite zeros_length; exact Lr.
  - intros z _; rewrite dot_zeros_l; ring.
Qed.

Lemma explicit_rows_ok {X P} (cfg : asif_cfg X) n num_slack x params enabled (cs : dict (constraint X P)) :
  length (ac_f cfg x) = n -> is_mat n (ac_dim cfg) (ac_g cfg x) ->
  (forall k c, In (k, c) cs -> dict_get params k = Ok (c_params c) /\ dict_get enabled k = Ok (c_enabled c)) ->
  (forall k c, In (k, c) cs -> length (c_grad c x (c_params c)) = n) ->
  strengthened cs ->
  forall j, (j + slack_count cs <= num_slack)%nat ->
  exists rows consts, explicit_rows cfg num_slack j cs params enabled x = Ok (rows, consts) /\
    encodes (ac_dim cfg + num_slack) rows consts
      (barrier_demands (ac_dim cfg) (ac_f cfg) (ac_g cfg) x j cs).
Proof.
  intros Lf Lg; induction cs as [|[k c] cs IH]; intros HC HG HA j Hj; simpl.
  - exists [], []; split; [auto|constructor].
  - destruct (HC k c) as [-> ->]; [left; auto|]; cbn [rbind].
    unfold slack_count in Hj; simpl in Hj; unfold has_slack at 1 in Hj; simpl in Hj.
    destruct (explicit_row_ok cfg n num_slack j c x Lf Lg) as (r & c0 & -> & Lr & Er).
    + apply HG with k; left; auto.
    + apply HA with k; left; auto.
    + intros Hs; destruct (c_slack c); [simpl in Hj; lia|congruence].
    + cbn [rbind].
      destruct IH with (j := match c_slack c with Some _ => S j | None => j end)
        as (rows & consts & Er1 & Er2).
      * intros k' c' Hi; apply HC; right; auto.
      * intros k' c' Hi; apply HG with k'; right; auto.
      * intros k' c' Hi; apply HA with k'; right; auto.
      * unfold slack_count; destruct (c_slack c); simpl in Hj; lia.
      * rewrite Er1; cbn [rbind fst snd]; do 2 eexists; split; [reflexivity|].
        constructor; [exact Lr| |].
        -- intros z Lz; rewrite Er by auto; simpl; destruct (c_enabled c); auto.
        -- unfold has_slack; simpl; destruct (c_slack c); auto.
Qed.

Lemma direct_rows_ok {X P} dim k x params enabled (ds : dict (direct X P)) :
  (forall nm d, In (nm, d) ds -> dict_get params nm = Ok (d_params d) /\ dict_get enabled nm = Ok (d_enabled d)) ->
  (forall nm d, In (nm, d) ds -> length (d_weight d x (d_params d)) = dim) ->
  exists rows consts, direct_rows dim k ds params enabled x = Ok (rows, consts) /\
    encodes (dim + k) rows consts (direct_demands dim x ds).
Proof.
  induction ds as [|[nm d] ds IH]; intros HC HW; simpl.
  - exists [], []; split; [auto|constructor].
  - destruct (HC nm d) as [-> ->]; [left; auto|]; cbn [rbind].
    assert (L : length (d_weight d x (d_params d)) = dim) by (apply (HW nm); left; auto).
    assert (L' : length (d_weight d x (d_params d) ++ zeros k) = (dim + k)%nat)
      by (rewrite app_length, zeros_length; congruence).
    rewrite L', Nat.eqb_refl.
    destruct IH as (rows & consts & -> & E).
    + intros n' d' Hi; apply HC; right; auto.
    + intros n' d' Hi; apply (HW n'); right; auto.
    + cbn [rbind fst snd]; do 2 eexists; split; [reflexivity|].
      constructor; [destruct (d_enabled d); auto using zeros_length| |exact E].
      intros z Lz; simpl; destruct (d_enabled d).
      * rewrite dot_app_l, dot_zeros_l, L; ring.
      * rewrite dot_zeros_l; ring.
Qed.

(** ** Demands and acceptable decision vectors *)

Lemma barrier_demands_split {X P} dim f g (x : X) (cs : dict (constraint X P)) z : forall j,
  (forall d, In d (barrier_demands dim f g x j cs) -> 0 <= dm_margin d z) <->
  (forall pre k c post, cs = pre ++ (k, c) :: post -> c_enabled c = true ->
     0 <= barrier_margin dim f g c x (j + slack_count pre) z).
Proof.
  induction cs as [|[k c] cs IH]; intros j; simpl.
  - split; [intros _ pre k c post H; destruct pre; discriminate|intros _ d []].
  - set (j' := if has_slack (k, c) then S j else j).
    assert (Q : forall pre, (j + slack_count ((k, c) :: pre) = j' + slack_count pre)%nat).
    { intros pre; unfold slack_count, j'; simpl; destruct (has_slack (k, c)); simpl; lia. }
    split.
    + intros H pre k0 c0 post E En; destruct pre as [|kc pre]; simpl in E; inversion E; subst.
      * unfold slack_count; simpl; rewrite Nat.add_0_r.
        specialize (H _ (or_introl eq_refl)); simpl in H; rewrite En in H; exact H.
      * rewrite Q; apply (proj1 (IH j')) with (post := post) (k := k0); auto.
    + intros H d [<-|Hd]; simpl.
      * destruct (c_enabled c) eqn:En; [|lra].
        specialize (H [] k c cs eq_refl En); unfold slack_count in H; simpl in H.
        rewrite Nat.add_0_r in H; exact H.
      * revert d Hd; apply IH. intros pre k0 c0 post -> En.
        rewrite <- Q; apply (H ((k, c) :: pre) k0 c0 post); auto.
Qed.

Lemma demands_acceptable {X P} b dim f g (cs : dict (constraint X P)) (ds : dict (direct X P)) x z :
  fits b dim -> (dim <= length z)%nat ->
  ((forall d, In d (explicit_demands b dim f g cs ds x) -> 0 <= dm_margin d z) <->
   acceptable b dim f g cs ds x z).
Proof.
  intros [FL FH] L; unfold explicit_demands, acceptable, within.
  assert (Lw : length (firstn dim z) = dim) by (rewrite firstn_length; lia).
  rewrite <- (low_demands_above _ dim _ FL Lw), <- (high_demands_below _ dim _ FH Lw).
  split.
  - intros H; split; [split|split].
    + intros d Hd; rewrite (bound_demand_firstn (b_low b)) by auto; apply H; rewrite in_app_iff; auto.
    + intros d Hd; rewrite (bound_demand_firstn (b_high b)) by auto; apply H; rewrite !in_app_iff; auto.
    + apply (barrier_demands_split dim f g x cs z 0); intros d Hd; apply H; rewrite !in_app_iff; auto.
    + intros k d Hd En.
      specialize (H (mkDemand k (fun z => dot (d_weight d x (d_params d)) (firstn dim z) - d_constant d x (d_params d)))).
      simpl in H; enough (0 <= dot (d_weight d x (d_params d)) (firstn dim z) - d_constant d x (d_params d)) by lra.
      apply H; rewrite !in_app_iff; right; right; right.
      apply in_map_iff; exists (k, d); simpl; rewrite En; auto.
  - intros [[H1 H2] [H3 H4]] d Hd; rewrite !in_app_iff in Hd; destruct Hd as [Hd|[Hd|[Hd|Hd]]].
    + rewrite <- (bound_demand_firstn (b_low b) dim) by auto; auto.
    + rewrite <- (bound_demand_firstn (b_high b) dim) by auto; auto.
    + revert d Hd; apply (barrier_demands_split dim f g x cs z 0); auto.
    + apply in_map_iff in Hd; destruct Hd as ([k dd] & <- & Hd); simpl.
      destruct (d_enabled dd) eqn:En; [|lra]. specialize (H4 k dd Hd En); lra.
Qed.
