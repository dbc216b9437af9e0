(** Proofs about the constraint dictionaries of the library's modules. *)
From Coq Require Import String Reals List Bool ZArith Lia Lra Ratan.
From Verif Require Import Prelude Vec ModelBase ModelController ModelSimplex ModelAsif ModelConstraint ModelCwh ModelConic ModelZoo
  SpecCwh SpecConic SpecZoo ProofsCwh ProofsCwh2 ProofsCwh3 ProofsConic ProofsConic2 PropertiesCwh.
Import ListNotations.
Local Open Scope R_scope.

(** ** Reported values *)
Lemma all_reported_iff {X P} (cs : dict (constraint X P)) (s : X) :
  all_reported_nonneg cs s <-> Forall (fun kc => 0 <= c_phi (snd kc) s (c_params (snd kc))) cs.
Proof.
  unfold all_reported_nonneg. rewrite Forall_forall. split.
  - intros H [k c] I. apply (H _ eq_refl k).
    cbn. apply in_map_iff. exists (k, c). split; [reflexivity|exact I].
  - intros H c E name h I. injection E as <-. cbn in I. apply in_map_iff in I.
    destruct I as ([k c] & E & I). injection E as <- <-. exact (H _ I).
Qed.

Lemma wrap_phi {P} (inj : P -> zparams) prj (c : constraint vec P) s : prj (inj (c_params c)) = Some (c_params c) ->
  c_phi (wrap inj prj c) s (c_params (wrap inj prj c)) = c_phi c s (c_params c).
Proof. intros E. unfold wrap; cbn. rewrite E. reflexivity. Qed.

(** ** One constraint at a time *)
Lemma plen3 x y z : plen (x, y, z) = length3 x y z.
Proof. reflexivity. Qed.

Lemma speed_iff v0 v1 d0 alpha kw p v rest :
  0 <= c_phi (rel_vel_3d v0 v1 d0 rv_delta alpha kw) (arr p ++ arr v ++ rest) (mkRv v0 v1 d0) <->
  slow_enough v0 v1 d0 p v.
Proof.
  destruct p as [[x y] z], v as [[a b] c].
  unfold slow_enough, rel_vel_3d, new_constraint, rel_vel_value, norm_with_delta, slice, rv_delta; cbn.
  replace (x * x + (y * y + (z * z + 0))) with (x * x + y * y + z * z) by ring.
  replace (a * a + (b * b + (c * c + 0))) with (a * a + b * b + c * c) by ring. lra.
Qed.

Lemma speed2_iff v0 v1 d0 alpha kw x y a b rest :
  0 <= c_phi (rel_vel_2d v0 v1 d0 rv_delta alpha kw) (x :: y :: a :: b :: rest) (mkRv v0 v1 d0) <->
  slow_enough v0 v1 d0 (pt x y 0) (pt a b 0).
Proof.
  unfold slow_enough, rel_vel_2d, new_constraint, rel_vel_value, norm_with_delta, slice, rv_delta; cbn.
  replace (x * x + (y * y + 0)) with (x * x + y * y + 0 * 0) by ring.
  replace (a * a + (b * b + 0)) with (a * a + b * b + 0 * 0) by ring. lra.
Qed.

Lemma limit_iff l (i : nat) alpha kw s v : 0 <= l -> nth_error s i = Some v ->
  0 <= c_phi (magnitude_limit l (Z.of_nat i) alpha kw) s l <-> Rabs v <= l.
Proof.
  intros L E. unfold magnitude_limit, new_constraint; cbn [c_phi].
  assert (G : jax_get 0 s (Z.of_nat i) = v).
  { assert (LT : (i < length s)%nat) by (apply nth_error_Some; congruence).
    unfold jax_get, jax_index. destruct (Z.ltb_spec (Z.of_nat i) 0); [lia|].
    replace (Z.to_nat _) with i by lia. exact (nth_error_nth _ _ _ E). }
  rewrite G. assert (Q : l ^ 2 - v ^ 2 = l * l - Rabs v * Rabs v).
  { rewrite <- Rabs_mult, Rabs_pos_eq by apply Rle_0_sqr. ring. }
  rewrite Q. pose proof (Rabs_pos v). split; intros H'; nra.
Qed.

Lemma collision_iff radius a alpha kw p v rest :
  0 <= c_phi (chief_collision radius a alpha kw) (arr p ++ arr v ++ rest) (mkDist radius a) <-> radius <= plen p.
Proof.
  destruct p as [[x y] z], v as [[vx vy] vz]. rewrite plen3.
  exact (proj1 (C43_reported_distance radius a alpha kw x y z vx vy vz rest)).
Qed.
Lemma range_iff radius a alpha kw p v rest :
  0 <= c_phi (max_distance radius a alpha kw) (arr p ++ arr v ++ rest) (mkDist radius a) <-> plen p <= radius.
Proof.
  destruct p as [[x y] z], v as [[vx vy] vz]. rewrite plen3.
  exact (proj2 (C43_reported_distance radius a alpha kw x y z vx vy vz rest)).
Qed.
Lemma example_iff radius alpha kw p rest :
  0 <= c_phi (hocbf_example radius alpha kw) (arr p ++ rest) radius <-> radius <= plen p.
Proof.
  destruct p as [[x y] z]. unfold hocbf_example, new_constraint, slice; cbn [c_phi arr app firstn skipn Nat.sub].
  rewrite norm3, plen3. lra.
Qed.

(** A free motion from every state. *)
Lemma free_motion n p v : n <> 0 -> exists x y z vx vy vz, cwh_motion n 1 0 0 0 x y z vx vy vz /\
  pt (x 0) (y 0) (z 0) = p /\ pt (vx 0) (vy 0) (vz 0) = v.
Proof.
  intros Hn. destruct p as [[x y] z], v as [[vx vy] vz].
  destruct (C44_solves_the_equations n 1 0 0 0 0 x y z vx vy vz [] Hn ltac:(lra)) as [M E].
  set (f := fun k t => nth k (discrete_next n 1 0 [x; y; z; vx; vy; vz] t [0; 0; 0]) 0) in *.
  change (map (fun k => f k 0) [0; 1; 2; 3; 4; 5]%nat = [x; y; z; vx; vy; vz]) in E.
  change (cwh_motion n 1 0 0 0 (f 0%nat) (f 1%nat) (f 2%nat) (f 3%nat) (f 4%nat) (f 5%nat)) in M.
  cbn [map] in E. clearbody f. injection E as E0 E1 E2 E3 E4 E5.
  exists (f 0%nat), (f 1%nat), (f 2%nat), (f 3%nat), (f 4%nat), (f 5%nat).
  split; [exact M|]. rewrite E0, E1, E2, E3, E4, E5. split; reflexivity.
Qed.

Lemma steps_100 : (0 < 100)%nat.
Proof. lia. Qed.

Lemma drift_iff n radius alpha kw p v rest : n <> 0 ->
  0 <= c_phi (psm radius n 1 100 alpha kw) (arr p ++ arr v ++ rest) (mkPsm radius 1) <-> drifts_clear n radius p v.
Proof.
  intros Hn. change (c_phi (psm radius n 1 100 alpha kw)) with (c_fun (psm radius n 1 100 alpha kw)).
  assert (K : forall x y z vx vy vz, cwh_motion n 1 0 0 0 x y z vx vy vz ->
    pt (x 0) (y 0) (z 0) = p -> pt (vx 0) (vy 0) (vz 0) = v ->
    (0 <= c_fun (psm radius n 1 100 alpha kw) (arr p ++ arr v ++ rest) (mkPsm radius 1) <->
     forall k, (1 <= k <= 100)%nat -> radius <= plen (pt (x (INR k)) (y (INR k)) (z (INR k))))).
  { intros x y z vx vy vz M <- <-.
    destruct (C45_psm_is_drift_distance n 1 radius 1 100 alpha kw x y z vx vy vz rest Hn steps_100 M) as [H _].
    split.
    - intros A k Hk. pose proof (proj1 H A k Hk) as B. rewrite Rmult_1_r in B. exact B.
    - intros A. apply (proj2 H). intros k Hk. rewrite Rmult_1_r. exact (A k Hk). }
  split.
  - intros A x y z vx vy vz M E1 E2. exact (proj1 (K _ _ _ _ _ _ M E1 E2) A).
  - intros A. destruct (free_motion n p v Hn) as (x & y & z & vx & vy & vz & M & E1 & E2).
    apply (proj2 (K _ _ _ _ _ _ M E1 E2)). exact (A _ _ _ _ _ _ M E1 E2).
Qed.

Lemma deputy_drift_iff n radius k alpha kw p v q w mid rest : n <> 0 -> length mid = (6 * k)%nat ->
  0 <= c_phi (psm_deputy radius n 1 100 (S k) alpha kw) ((arr p ++ arr v ++ mid) ++ arr q ++ arr w ++ rest) (mkPsm radius 1)
  <-> drift_apart n radius p v q w.
Proof.
  intros Hn Lm. change (c_phi (psm_deputy radius n 1 100 (S k) alpha kw)) with (c_fun (psm_deputy radius n 1 100 (S k) alpha kw)).
  assert (K : forall x y z vx vy vz x' y' z' vx' vy' vz', cwh_motion n 1 0 0 0 x y z vx vy vz ->
    cwh_motion n 1 0 0 0 x' y' z' vx' vy' vz' ->
    pt (x 0) (y 0) (z 0) = p -> pt (vx 0) (vy 0) (vz 0) = v ->
    pt (x' 0) (y' 0) (z' 0) = q -> pt (vx' 0) (vy' 0) (vz' 0) = w ->
    (0 <= c_fun (psm_deputy radius n 1 100 (S k) alpha kw) ((arr p ++ arr v ++ mid) ++ arr q ++ arr w ++ rest) (mkPsm radius 1) <->
     forall k, (1 <= k <= 100)%nat ->
       radius <= pdist (pt (x (INR k)) (y (INR k)) (z (INR k))) (pt (x' (INR k)) (y' (INR k)) (z' (INR k))))).
  { intros x y z vx vy vz x' y' z' vx' vy' vz' M M' <- <- <- <-.
    pose proof (C45_deputy_psm_is_drift_distance n 1 1 radius 1 100 k alpha kw x y z vx vy vz x' y' z' vx' vy' vz' mid rest
      Hn steps_100 M M' Lm) as H.
    split.
    - intros A j Hj. pose proof (proj1 H A j Hj) as B. rewrite Rmult_1_r in B. exact B.
    - intros A. apply (proj2 H). intros j Hj. rewrite Rmult_1_r. exact (A j Hj). }
  split.
  - intros A x y z vx vy vz x' y' z' vx' vy' vz' M M' E1 E2 E3 E4. exact (proj1 (K _ _ _ _ _ _ _ _ _ _ _ _ M M' E1 E2 E3 E4) A).
  - intros A. destruct (free_motion n p v Hn) as (x & y & z & vx & vy & vz & M & E1 & E2).
    destruct (free_motion n q w Hn) as (x' & y' & z' & vx' & vy' & vz' & M' & E3 & E4).
    apply (proj2 (K _ _ _ _ _ _ _ _ _ _ _ _ M M' E1 E2 E3 E4)). exact (A _ _ _ _ _ _ _ _ _ _ _ _ M M' E1 E2 E3 E4).
Qed.

(** ** Looking at the sun *)
Lemma phi_iff nan fov angle p : 0 < fov < PI -> plen p <> 0 ->
  0 <= of_jax nan (conic_phi fov (arr p) (ModelConic.sun_vector angle)) <-> ~ in_view fov angle p.
Proof.
  intros Hf NZ. destruct (sun_phi_eq fov angle Hf p (pt 0 0 0) 0 NZ) as (h & E & H).
  rewrite <- H.
  assert (E2 : conic_phi fov (arr p) (ModelConic.sun_vector angle) = Some h).
  { destruct p as [[x y] z]. exact E. }
  rewrite E2. reflexivity.
Qed.

Lemma sun_iff nan c get_sun alpha p v rest angle : 0 < i_fov c < PI -> plen p <> 0 ->
  get_sun (arr p ++ arr v ++ rest) = ModelConic.sun_vector angle ->
  let k := sun_constraint nan c get_sun alpha in
  0 <= c_phi k (arr p ++ arr v ++ rest) (c_params k) <-> ~ in_view (i_fov c) angle p.
Proof.
  intros Hf NZ G k. rewrite <- (phi_iff nan (i_fov c) angle p Hf NZ).
  unfold k, sun_constraint. rewrite wrap_phi by reflexivity.
  unfold conic, new_constraint; cbn [c_phi c_params cn_fov]. rewrite G.
  unfold get_pos_vector. destruct p as [[x y] z]. reflexivity.
Qed.

Lemma get_sun_1v1 p v angle dv : get_sun_vector (state_of p v angle dv) = ModelConic.sun_vector angle.
Proof. destruct p as [[x y] z], v as [[a b] c]. reflexivity. Qed.

Lemma jax_last l a : jax_get 0 (l ++ [a]) (-1) = a.
Proof.
  unfold jax_get, jax_index. rewrite app_length; cbn [length].
  change (-1 <? 0)%Z with true. cbv iota.
  replace (Z.to_nat _) with (length l) by lia.
  rewrite app_nth2, Nat.sub_diag by lia. reflexivity.
Qed.
Lemma last_sun l a : last_sun_vector (l ++ [a]) = ModelConic.sun_vector a.
Proof. unfold last_sun_vector. rewrite jax_last. reflexivity. Qed.

(** The angle of [p] with the axis is more than a right angle iff the scalar product with the
    direction to the sun is positive. *)
Lemma sign_iff angle x y z : plen (x, y, z) <> 0 ->
  PI / 2 < acos (dot (vdiv [x; y; z] (norm [x; y; z]))
                     (vdiv (ModelConic.sun_vector angle) (norm (ModelConic.sun_vector angle))))
  <-> 0 < pdot (x, y, z) (sun_at angle).
Proof.
  intros NZ.
  assert (U : - cos angle * - cos angle + - sin angle * - sin angle + - 0 * - 0 = 1).
  { pose proof (sin2_cos2 angle) as Q; unfold Rsqr in Q. lra. }
  pose proof (conic_phi_eq _ _ _ U x y z 0) as E. unfold conic_phi in E.
  change (vneg [cos angle; sin angle; 0]) with [- cos angle; - sin angle; - 0] in *.
  change (ModelConic.sun_vector angle) with [- cos angle; - sin angle; - 0].
  destruct (Req_EM_T (norm [x; y; z]) 0) as [N|N]; [rewrite norm3 in N; destruct (NZ N)|].
  destruct (Req_EM_T (sqrt (x * x + y * y + z * z)) 0) as [N'|N']; [destruct (NZ N')|].
  destruct (Req_EM_T (norm [- cos angle; - sin angle; - 0]) 0) as [N''|N''].
  { rewrite norm3 in N''. unfold length3 in N''. rewrite U, sqrt_1 in N''. lra. }
  apply (f_equal (of_jax 0)) in E. cbv beta iota delta [of_jax] in E. apply Rplus_eq_reg_r in E. rewrite E. clear E.
  pose proof (cosine _ _ _ U x y z N') as Cs. set (l := sqrt _) in *.
  assert (L0 : 0 < l) by (pose proof (sqrt_pos (x * x + y * y + z * z)) as Q0; change (0 <= l) in Q0; lra).
  set (d := hgt (- cos angle) (- sin angle) (- 0) x y z / l) in *.
  assert (D : pdot (x, y, z) (sun_at angle) = - d * l).
  { unfold d, pdot, sun_at, hgt. field. lra. }
  rewrite D. pose proof (acos_bound d) as Ab. pose proof PI_RGT_0 as P.
  assert (S : PI / 2 < acos d <-> d < 0).
  { rewrite <- (cos_acos d Cs) at 2. rewrite <- cos_PI2. split; intros H.
    - apply cos_decreasing_1; lra.
    - apply cos_decreasing_0 in H; lra. }
  rewrite S. split; intros; nra.
Qed.

Lemma in_view_pos fov angle p : 0 < fov < PI -> pdot p (sun_at angle) <= 0 -> ~ in_view fov angle (pscale (-1) p).
Proof.
  intros Hf H V. unfold in_view in V. destruct p as [[x y] z].
  assert (0 < cos (fov / 2)) by (apply cos_gt_0; lra).
  pose proof (sqrt_pos (pdot (pscale (-1) (x, y, z)) (pscale (-1) (x, y, z)))) as Q.
  change (0 <= plen (pscale (-1) (x, y, z))) in Q.
  assert (E : pdot (pscale (-1) (pscale (-1) (x, y, z))) (sun_at angle) = pdot (x, y, z) (sun_at angle)).
  { unfold pdot, pscale, sun_at. ring. }
  rewrite E in V. nra.
Qed.

Lemma pscale_1 p : pscale 1 p = p.
Proof. destruct p as [[x y] z]. unfold pscale. rewrite !Rmult_1_l. reflexivity. Qed.
Lemma pscale_sub p q : pscale (-1) (psub p q) = psub q p.
Proof. destruct p as [[x y] z], q as [[x' y'] z']. unfold pscale, psub. apply f_equal2; [apply f_equal2|]; ring. Qed.
Lemma plen_scale p : plen (pscale (-1) p) = plen p.
Proof. destruct p as [[x y] z]. unfold plen, pscale, pdot. f_equal. ring. Qed.

Section Deputy.
Variables (p v q w : point) (mid rest : vec) (k : nat) (angle : R).
Hypothesis Lm : length mid = (6 * k)%nat.
Let s : vec := ((arr p ++ arr v ++ mid) ++ arr q ++ arr w ++ rest) ++ [angle].

Lemma slice_own : slice 0 3 s = arr p /\ slice 3 6 s = arr v.
Proof. unfold s, slice. destruct p as [[? ?] ?], v as [[? ?] ?]. split; reflexivity. Qed.

Lemma prefix_length : length (arr p ++ arr v ++ mid) = (6 * S k)%nat.
Proof. destruct p as [[? ?] ?], v as [[? ?] ?]. cbn [arr app length]. lia. Qed.

Lemma skip_prefix j : skipn (6 * S k + j) s = skipn j ((arr q ++ arr w ++ rest) ++ [angle]).
Proof.
  unfold s. rewrite <- prefix_length, <- app_assoc. set (a := arr p ++ _).
  rewrite skipn_app. rewrite skipn_all2 by lia. cbn [app]. f_equal. lia.
Qed.

Lemma slice_other : slice (6 * S k) (6 * S k + 3) s = arr q /\ slice (6 * S k + 3) (6 * S k + 6) s = arr w.
Proof.
  assert (K0 : skipn (6 * S k) s = (arr q ++ arr w ++ rest) ++ [angle]).
  { pose proof (skip_prefix 0) as H. rewrite Nat.add_0_r in H. exact H. }
  unfold slice. rewrite K0, skip_prefix.
  replace (6 * S k + 3 - 6 * S k)%nat with 3%nat by lia.
  replace (6 * S k + 6 - (6 * S k + 3))%nat with 3%nat by lia.
  destruct q as [[? ?] ?], w as [[? ?] ?]. split; reflexivity.
Qed.

Lemma arr_sub a b : vsub (arr a) (arr b) = arr (psub a b).
Proof. destruct a as [[? ?] ?], b as [[? ?] ?]. reflexivity. Qed.

Lemma deputy_collision_iff radius a alpha kw :
  0 <= c_phi (deputy_collision radius a (S k) alpha kw) s (mkDist radius a) <-> radius <= pdist p q.
Proof.
  unfold deputy_collision, new_constraint; cbn [c_phi dp_radius].
  replace (S k * 6)%nat with (6 * S k)%nat by lia.
  rewrite (proj1 slice_own), (proj1 slice_other), arr_sub. unfold pdist.
  destruct (psub p q) as [[x y] z]. cbn [arr]. rewrite norm3, plen3. lra.
Qed.

Lemma deputy_sun_iff nan fov a ang alpha kw : 0 < fov < PI -> plen (psub p q) <> 0 ->
  0 <= c_phi (conic nan (get_p1_p2 (S k)) (get_v1_v2 (S k)) last_sun_vector ang a fov alpha kw) s (mkCone fov a) <->
  ~ in_view fov angle (psub p q) /\ ~ in_view fov angle (psub q p).
Proof.
  intros Hf NZ. unfold conic, new_constraint; cbn [c_phi cn_fov].
  assert (LS : last_sun_vector s = ModelConic.sun_vector angle) by apply last_sun.
  rewrite LS. unfold get_p1_p2, deputy_sign.
  rewrite LS, (proj1 slice_own), (proj1 slice_other), arr_sub.
  assert (P : forall t, vscale t (arr (psub p q)) = arr (pscale t (psub p q))).
  { intros t. destruct (psub p q) as [[? ?] ?]. reflexivity. }
  rewrite P. clear P. rewrite <- (pscale_sub p q). set (d := psub p q) in *.
  assert (SG : PI / 2 < acos (dot (vdiv (arr d) (norm (arr d)))
      (vdiv (ModelConic.sun_vector angle) (norm (ModelConic.sun_vector angle)))) <-> 0 < pdot d (sun_at angle)).
  { destruct d as [[? ?] ?]. apply sign_iff; auto. }
  assert (N : norm (arr d) <> 0) by (destruct d as [[? ?] ?]; cbn [arr]; rewrite norm3; auto).
  destruct (Req_EM_T _ 0) as [E|_]; [destruct (N E)|].
  unfold Rltb. destruct (Rlt_dec _ _) as [L|L].
  - rewrite phi_iff by (auto; rewrite plen_scale; auto). split; [|tauto]. intros H; split; [|exact H].
    apply SG in L. replace d with (pscale (-1) (pscale (-1) d)).
    + apply in_view_pos; auto. destruct d as [[x y] z]. unfold pdot, pscale, sun_at in *. lra.
    + destruct d as [[x y] z]. unfold pscale. apply f_equal2; [apply f_equal2|]; ring.
  - rewrite pscale_1, phi_iff by auto. split; [|tauto]. intros H; split; [exact H|].
    apply in_view_pos; auto. apply Rnot_lt_le. intros B. apply SG in B. lra.
Qed.
End Deputy.

(** ** The dictionaries *)
Definition phi_ok (s : vec) (kc : string * constraint vec zparams) : Prop :=
  0 <= c_phi (snd kc) s (c_params (snd kc)).

Lemma vel_iff l p v rest : 0 <= l ->
  Forall (phi_ok (arr p ++ arr v ++ rest)) (vel_constraints l) <-> components_within l l l v.
Proof.
  intros L. destruct p as [[x y] z], v as [[a b] c]. unfold vel_constraints, components_within.
  rewrite !Forall_cons_iff, Forall_nil_iff. unfold phi_ok; cbn [snd fst].
  rewrite !wrap_phi by reflexivity. cbn [c_params magnitude_limit new_constraint].
  pose proof (limit_iff l 3 (Some (polynomial (Some [0; 1 / 10; 0; 1 / 100]))) (with_bias (- (1 / 1000)))
    (arr (x, y, z) ++ arr (a, b, c) ++ rest) a L eq_refl) as A.
  pose proof (limit_iff l 4 (Some (polynomial (Some [0; 1 / 10; 0; 1 / 100]))) (with_bias (- (1 / 1000)))
    (arr (x, y, z) ++ arr (a, b, c) ++ rest) b L eq_refl) as B.
  pose proof (limit_iff l 5 (Some (polynomial (Some [0; 1 / 10; 0; 1 / 100]))) (with_bias (- (1 / 1000)))
    (arr (x, y, z) ++ arr (a, b, c) ++ rest) c L eq_refl) as C.
  change (Z.of_nat 3) with 3%Z in A. change (Z.of_nat 4) with 4%Z in B. change (Z.of_nat 5) with 5%Z in C.
  rewrite A, B, C. tauto.
Qed.

Section Chief.
Variables (nan : R) (c : insp_cfg) (p v : point) (rest : vec) (angle : R).
Hypothesis (Hn : i_n c <> 0) (Hf : 0 < i_fov c < PI) (Hl : 0 <= i_vel_limit c) (NZ : plen p <> 0).
Let s : vec := arr p ++ arr v ++ rest.

Lemma entry_rv name alpha kw : phi_ok s (name, wrap ZRv as_rv (rel_vel_3d (i_v0 c) (i_v1 c) (i_v0_distance c) rv_delta alpha kw)) <->
  slow_enough (i_v0 c) (i_v1_coef c * i_n c) (i_v0_distance c) p v.
Proof. unfold phi_ok; cbn [snd]. rewrite wrap_phi by reflexivity. apply speed_iff. Qed.
Lemma entry_sun name get_sun alpha : get_sun s = ModelConic.sun_vector angle ->
  phi_ok s (name, sun_constraint nan c get_sun alpha) <-> ~ in_view (i_fov c) angle p.
Proof. intros G. unfold phi_ok; cbn [snd]. apply sun_iff; auto. Qed.
Lemma entry_range name alpha kw :
  phi_ok s (name, wrap ZDist as_dist (max_distance (i_r_max c) (i_a_max c) alpha kw)) <-> plen p <= i_r_max c.
Proof. unfold phi_ok; cbn [snd]. rewrite wrap_phi by reflexivity. apply range_iff. Qed.
Lemma entry_collision name radius alpha kw :
  phi_ok s (name, wrap ZDist as_dist (chief_collision radius (i_a_max c) alpha kw)) <-> radius <= plen p.
Proof. unfold phi_ok; cbn [snd]. rewrite wrap_phi by reflexivity. apply collision_iff. Qed.
Lemma entry_drift name radius alpha kw :
  phi_ok s (name, wrap ZPsm as_psm (psm radius (i_n c) 1 100 alpha kw)) <-> drifts_clear (i_n c) radius p v.
Proof. unfold phi_ok; cbn [snd]. rewrite wrap_phi by reflexivity. apply drift_iff; auto. Qed.

Lemma ok_conj : inspection_ok c p v angle <->
  slow_enough (i_v0 c) (i_v1_coef c * i_n c) (i_v0_distance c) p v /\ ~ in_view (i_fov c) angle p /\
  plen p <= i_r_max c /\ drifts_clear (i_n c) (i_chief c + i_deputy c) p v /\
  components_within (i_vel_limit c) (i_vel_limit c) (i_vel_limit c) v /\ i_chief c + i_deputy c <= plen p.
Proof. split; [intros []; tauto|]. intros (A & B & C & D & E & F). constructor; assumption. Qed.

Lemma discrete_iff : get_sun_vector s = ModelConic.sun_vector angle ->
  Forall (phi_ok s) (discrete_inspection_constraints nan c) <-> inspection_ok c p v angle.
Proof.
  intros G. unfold discrete_inspection_constraints. rewrite Forall_app, !Forall_cons_iff, Forall_nil_iff.
  rewrite entry_rv, entry_sun, entry_range, entry_collision, entry_drift by exact G.
  unfold s. rewrite vel_iff, ok_conj by exact Hl. tauto.
Qed.

Lemma inspection_iff use_hocbf cs : get_sun_vector s = ModelConic.sun_vector angle ->
  inspection_constraints nan use_hocbf c = Ok cs ->
  Forall (phi_ok s) cs <-> inspection_ok c p v angle.
Proof.
  intros G. unfold inspection_constraints. set (base := _ ++ vel_constraints _).
  assert (B : Forall (phi_ok s) base <->
    slow_enough (i_v0 c) (i_v1_coef c * i_n c) (i_v0_distance c) p v /\ ~ in_view (i_fov c) angle p /\
    plen p <= i_r_max c /\ drifts_clear (i_n c) (i_chief c + i_deputy c) p v /\
    components_within (i_vel_limit c) (i_vel_limit c) (i_vel_limit c) v).
  { unfold base. rewrite Forall_app, !Forall_cons_iff, Forall_nil_iff.
    rewrite entry_rv, entry_sun, entry_range, entry_drift by exact G.
    unfold s. rewrite vel_iff by exact Hl. tauto. }
  assert (D : forall name k, (name = "chief_collision" \/ name = "chief_collision_hocbf")%string ->
    dict_set base name k = base ++ [(name, k)]) by (intros name k [->| ->]; reflexivity).
  assert (L : forall name k, phi_ok s (name, k) <-> i_chief c + i_deputy c <= plen p ->
    Forall (phi_ok s) (base ++ [(name, k)]) <-> inspection_ok c p v angle).
  { intros name k K. rewrite Forall_app, Forall_cons_iff, Forall_nil_iff, B, ok_conj. tauto. }
  destruct use_hocbf.
  - set (e := wrap ZRadius as_radius (hocbf_example (i_chief c + i_deputy c) None kw_default)).
    set (f := inspection_f _ _). set (a := polynomial _).
    destruct (hocbf e 2 f a kw_default) as [h|] eqn:E; [|discriminate].
    cbn [rbind]. intros H; match type of H with Ok ?a = Ok _ => assert (X : a = cs) by congruence end; rewrite <- X, D by auto. apply L.
    unfold hocbf in E. change (2 <=? 1)%Z with false in E. injection E as <-.
    change (0 <= c_phi e s (c_params e) <-> i_chief c + i_deputy c <= plen p).
    unfold e. rewrite wrap_phi by reflexivity. unfold s. apply example_iff.
  - intros H; match type of H with Ok ?a = Ok _ => assert (X : a = cs) by congruence end; rewrite <- X, D by auto. apply L. apply entry_collision.
Qed.
End Chief.
