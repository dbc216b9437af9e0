(** Lemmas for PropertiesDiscInsp.v: the passively safe maneuver. *)
From Coq Require Import String Reals List Bool ZArith Lia Lra.
From Verif Require Import Prelude Vec ModelBase ModelAsif ModelConstraint ModelCwh ModelConic ModelZoo ModelDiscrete ModelDiscInsp.
From Verif Require Import SpecCore SpecAsif SpecCwh SpecConic SpecDiscrete SpecDiscInsp.
From Verif Require Import ProofsVec ProofsCwh ProofsCwh2 ProofsCwh3 ProofsTable ProofsConic ProofsConic2 ProofsDiscrete ProofsDiscrete2 PropertiesDiscrete PropertiesCwh ProofsDiscInsp.
Import ListNotations.
Local Open Scope R_scope.

(** ** A constraint is kept if at every state its strengthening is gentle or no control can break it *)
Lemma loop_kept {X P} tol (cfg : disc_cfg X) dt (s : dmod X P) x xs :
  disc_loop cfg dt s x xs ->
  slsqp_contract tol (dc_solve cfg) -> disc_reached cfg s ->
  one_number (b_low (dc_bounds cfg)) -> one_number (b_high (dc_bounds cfg)) ->
  strengthened (disc_constraints s) -> enable s = true -> 0 < dt ->
  forall k c lo, In (k, c) (disc_constraints s) -> c_enabled c = true -> c_slack c = None ->
  (forall y, In y (x :: xs) -> lo <= level c y ->
     dt * (decay c (level c y) + tol) <= level c y - lo \/
     forall w, length w = dc_dim cfg -> within (dc_bounds cfg) w -> lo <= level c (dc_next cfg y dt w)) ->
  lo <= level c x -> forall y, In y (x :: xs) -> lo <= level c y.
Proof.
  intros L QC; induction L as [s x|s x u w s' xs Lu Hc Hw L IH];
    intros R Hl Hh St En Hd k c lo Hin Hen Hns Hg Hx y Hy; [destruct Hy as [<-|[]]; exact Hx|].
  destruct Hy as [<-|Hy]; [exact Hx|].
  destruct (call_constraints _ _ _ _ _ _ _ Hc) as [Ec Ee].
  refine (IH (call_reached _ _ _ _ _ _ _ R Hc) Hl Hh _ _ Hd k c lo _ Hen Hns _ _ y Hy);
    [rewrite Ec; auto|congruence|rewrite Ec; auto| |].
  - intros y' Hy'; apply Hg; right; auto.
  - destruct (disc_solved tol cfg s x dt u w s' QC) as (z & Lz & Ew & Ww & Sw & _); auto.
    { constructor; auto. }
    destruct (no_slack_place _ 0%nat k c Hin Hen) as (j & Hj).
    specialize (Sw c j Hj); unfold steps_well, slack_value in Sw; rewrite Hns in Sw.
    destruct (Hg x (or_introl eq_refl) Hx) as [G|G]; [lra|].
    apply G; auto. subst w. rewrite firstn_length, Lz. lia.
Qed.

(** ** Bounds *)
Definition bd (a A : R) : Prop := - A <= a <= A.
Lemma bd_add a b A B : bd a A -> bd b B -> bd (a + b) (A + B). Proof. unfold bd; lra. Qed.
Lemma bd_sub a b A B : bd a A -> bd b B -> bd (a - b) (A + B). Proof. unfold bd; lra. Qed.
Lemma bd_opp a A : bd a A -> bd (- a) A. Proof. unfold bd; lra. Qed.
Lemma bd_mul a b A B : bd a A -> bd b B -> bd (a * b) (A * B).
Proof. unfold bd; intros H K. assert (0 <= A) by lra. assert (0 <= B) by lra. split; nra. Qed.
Lemma bd_num r : 0 <= r -> bd r r. Proof. unfold bd; lra. Qed.
Lemma bd_le a A B : bd a A -> A <= B -> bd a B. Proof. unfold bd; lra. Qed.

Ltac bound_of e :=
  match goal with
  | H : bd e ?A |- _ => constr:(H)
  | _ => match e with
         | ?a + ?b => let p := bound_of a in let q := bound_of b in constr:(bd_add _ _ _ _ p q)
         | ?a - ?b => let p := bound_of a in let q := bound_of b in constr:(bd_sub _ _ _ _ p q)
         | ?a * ?b => let p := bound_of a in let q := bound_of b in constr:(bd_mul _ _ _ _ p q)
         | - ?a => let p := bound_of a in constr:(bd_opp _ _ p)
         | _ => constr:(bd_num e ltac:(lra))
         end
  end.
Ltac bounded := match goal with |- bd ?e _ => let p := bound_of e in eapply bd_le; [exact p|lra] end.

(** Sine and cosine of a small angle n t: n t - n^3 b and 1 - n^2 a. *)
Lemma small_angle n t : 0 < n -> 0 <= t -> n * t <= 1 -> exists a b, 0 <= a <= t * t / 2 /\ 0 <= b <= t * t * t / 6 /\
  cos (n * t) = 1 - n * n * a /\ sin (n * t) = n * t - n * n * n * b.
Proof.
  intros Hn Ht H1. set (th := n * t) in *. assert (T0 : 0 <= th) by (unfold th; nra).
  assert (Pi : 3 <= PI) by (pose proof PI2_3_2; lra).
  assert (C : 1 - th * th / 2 <= cos th <= 1) by (split; [apply cos_ge; auto|apply COS_bound]).
  assert (S : th - th * th * th / 6 <= sin th <= th).
  { split.
    - destruct (sin_bound th 0) as [S _]; [lra|lra|]. unfold sin_approx, sum_f_R0, sin_term in S. simpl in S. lra.
    - destruct (Req_dec th 0) as [->|N]; [rewrite sin_0; lra|left; apply sin_lt_x; lra]. }
  exists ((1 - cos th) / (n * n)), ((th - sin th) / (n * n * n)).
  assert (N2 : 0 < n * n) by nra. assert (N3 : 0 < n * n * n) by nra.
  split; [|split; [|split]].
  - split; [apply Rmult_le_pos; [lra|left; apply Rinv_0_lt_compat; auto]|].
    apply Rmult_le_reg_r with (n * n); auto. unfold Rdiv at 1. rewrite Rmult_assoc, Rinv_l by lra.
    replace (t * t / 2 * (n * n)) with (th * th / 2) by (unfold th; field). lra.
  - split; [apply Rmult_le_pos; [lra|left; apply Rinv_0_lt_compat; auto]|].
    apply Rmult_le_reg_r with (n * n * n); auto. unfold Rdiv at 1. rewrite Rmult_assoc, Rinv_l by lra.
    replace (t * t * t / 6 * (n * n * n)) with (th * th * th / 6) by (unfold th; field). lra.
  - field. lra.
  - field. lra.
Qed.

(** ** How far one step moves the state, and what that does to where the deputy would coast *)
Section Step.
Variables (n : R).
Hypothesis (Hn : 0 < n <= 1 / 900).

Lemma step_moves dt x y z vx vy vz ux uy uz : 0 < dt <= 1 ->
  bd x 1030 -> bd z 1030 -> bd vx 1 -> bd vy 1 -> bd vz 1 -> bd ux 1 -> bd uy 1 -> bd uz 1 ->
  bd (sol_x n 12 x vx vy ux uy dt - x) (12 / 10) /\ bd (sol_y n 12 x y vx vy ux uy dt - y) (12 / 10) /\
  bd (sol_z n 12 z vz uz dt - z) (12 / 10) /\
  bd (sol_vx n 12 x vx vy ux uy dt - vx) (9 / 100) /\ bd (sol_vy n 12 x vx vy ux uy dt - vy) (9 / 100) /\
  bd (sol_vz n 12 z vz uz dt - vz) (9 / 100).
Proof.
  intros Hd Bx Bz Bvx Bvy Bvz Bux Buy Buz.
  destruct (small_angle n dt) as (a & b & Ha & Hb & C & S); [lra|lra|nra|].
  assert (Ba : bd a (1 / 2)) by (unfold bd; nra).
  assert (Bb : bd b (1 / 6)) by (unfold bd; assert (dt * dt * dt <= 1) by (assert (dt * dt <= 1) by nra; nra); nra).
  assert (Bd : bd dt 1) by (unfold bd; lra). assert (Bn : bd n (1 / 900)) by (unfold bd; lra).
  unfold sol_x, sol_y, sol_z, sol_vx, sol_vy, sol_vz. rewrite C, S.
  split; [|split; [|split; [|split; [|split]]]].
  - replace (_ - x) with (3 * (n * n * a) * x + (dt - n * n * b) * vx + 2 * n * a * vy + a * (ux * (1 / 12)) + 2 * (n * b) * (uy * (1 / 12))) by (field; lra). bounded.
  - replace (_ - y) with (- (6 * (n * n * n * b) * x) - 2 * n * a * vx + (dt - 4 * (n * n * b)) * vy - 2 * (n * b) * (ux * (1 / 12)) + (4 * a - 3 / 2 * (dt * dt)) * (uy * (1 / 12))) by (field; lra).
    assert (bd (4 * a - 3 / 2 * (dt * dt)) 2) by (unfold bd; nra). bounded.
  - replace (_ - z) with (- (n * n * a * z) + (dt - n * n * b) * vz + a * (uz * (1 / 12))) by (field; lra). bounded.
  - replace (_ - vx) with (3 * (n * n * (dt - n * n * b)) * x - n * n * a * vx + 2 * n * (dt - n * n * b) * vy + (dt - n * n * b) * (ux * (1 / 12)) + 2 * n * a * (uy * (1 / 12))) by (field; lra). bounded.
  - replace (_ - vy) with (- (6 * (n * n * n * a) * x) - 2 * n * (dt - n * n * b) * vx - 4 * (n * n * a) * vy - 2 * n * a * (ux * (1 / 12)) + (dt - 4 * (n * n * b)) * (uy * (1 / 12))) by (field; lra). bounded.
  - replace (_ - vz) with (- (n * n * (dt - n * n * b) * z) - n * n * a * vz + (dt - n * n * b) * (uz * (1 / 12))) by (field; lra). bounded.
Qed.

Lemma coast_moves t dx dy dz dvx dvy dvz : 0 <= t <= 100 ->
  bd dx (12 / 10) -> bd dy (12 / 10) -> bd dz (12 / 10) -> bd dvx (9 / 100) -> bd dvy (9 / 100) -> bd dvz (9 / 100) ->
  length3 (sol_x n 1 dx dvx dvy 0 0 t) (sol_y n 1 dx dy dvx dvy 0 0 t) (sol_z n 1 dz dvz 0 t) <= 20.
Proof.
  intros Ht B1 B2 B3 B4 B5 B6.
  destruct (small_angle n t) as (a & b & Ha & Hb & C & S); [lra|lra|nra|].
  assert (T2 : t * t <= 10000) by nra.
  assert (Ba : bd a 5000) by (unfold bd; nra).
  assert (Bb : bd b (1000000 / 6)) by (unfold bd; assert (t * t * t <= 1000000) by nra; nra).
  assert (Bt : bd t 100) by (unfold bd; lra). assert (Bn : bd n (1 / 900)) by (unfold bd; lra).
  assert (Q : 0 <= n * n * b <= 1 / 4 * t).
  { assert (0 <= n * n <= 1 / 900 * (1 / 900)) by nra. assert (t * t * t <= 10000 * t) by nra. split; nra. }
  assert (B7 : bd (t - n * n * b) 100) by (unfold bd; lra).
  assert (B8 : bd (t - 4 * (n * n * b)) 100) by (unfold bd; lra).
  set (X := sol_x n 1 dx dvx dvy 0 0 t). set (Y := sol_y n 1 dx dy dvx dvy 0 0 t). set (Z := sol_z n 1 dz dvz 0 t).
  assert (EX : bd X (115 / 10)).
  { unfold X, sol_x. rewrite C, S.
    replace (_ + _) with ((1 + 3 * (n * n * a)) * dx + (t - n * n * b) * dvx + 2 * n * a * dvy) by (field; lra). bounded. }
  assert (EY : bd Y (115 / 10)).
  { unfold Y, sol_y. rewrite C, S.
    replace (_ + _) with (- (6 * (n * n * n * b) * dx) + dy - 2 * n * a * dvx + (t - 4 * (n * n * b)) * dvy) by (field; lra). bounded. }
  assert (EZ : bd Z (115 / 10)).
  { unfold Z, sol_z. rewrite C, S.
    replace (_ + _) with (dz - n * n * a * dz + (t - n * n * b) * dvz) by (field; lra). bounded. }
  apply le_of_sqr; [lra|]. rewrite length3_sqr. unfold bd in *. nra.
Qed.

(** The solution is linear in the state. *)
Lemma sol_linear t x y z vx vy vz x' y' z' vx' vy' vz' :
  sol_x n 1 x' vx' vy' 0 0 t - sol_x n 1 x vx vy 0 0 t = sol_x n 1 (x' - x) (vx' - vx) (vy' - vy) 0 0 t /\
  sol_y n 1 x' y' vx' vy' 0 0 t - sol_y n 1 x y vx vy 0 0 t = sol_y n 1 (x' - x) (y' - y) (vx' - vx) (vy' - vy) 0 0 t /\
  sol_z n 1 z' vz' 0 t - sol_z n 1 z vz 0 t = sol_z n 1 (z' - z) (vz' - vz) 0 t.
Proof. unfold sol_x, sol_y, sol_z. repeat split; field; lra. Qed.

Lemma length3_triangle x y z x' y' z' : length3 x y z <= length3 x' y' z' + length3 (x' - x) (y' - y) (z' - z).
Proof.
  pose proof (length3_pos x' y' z') as P1. pose proof (length3_pos (x' - x) (y' - y) (z' - z)) as P2.
  apply le_of_sqr; [lra|]. rewrite length3_sqr.
  pose proof (cauchy3_low x' y' z' (x' - x) (y' - y) (z' - z)) as K.
  pose proof (length3_sqr x' y' z') as E1. pose proof (length3_sqr (x' - x) (y' - y) (z' - z)) as E2. nra.
Qed.
End Step.

(** ** The constraint *)
Definition psm_c (c : insp_cfg) := wrap ZPsm as_psm (psm (i_chief c + i_deputy c) (i_n c) 1 100
  (Some (polynomial (Some [0; 1 / 1000; 0; 1 / 1000]))) kw_default).
Lemma psm_member nan c : In ("PSM"%string, psm_c c) (discrete_inspection_constraints nan c).
Proof. unfold discrete_inspection_constraints. cbn [app In]. right; right; right; right; left. reflexivity. Qed.
Lemma psm_decay c l : decay (psm_c c) l = 1 / 1000 * l + 1 / 1000 * l ^ 3.
Proof. unfold decay, psm_c, wrap, psm, new_constraint. cbn [c_alpha dist_alpha]. apply cubic. Qed.

Lemma psm_level_ge c x y z vx vy vz sun used r : i_n c <> 0 ->
  (r <= level (psm_c c) [x; y; z; vx; vy; vz; sun; used] <->
   forall k, (1 <= k <= 100)%nat -> r + (i_chief c + i_deputy c) <=
     length3 (sol_x (i_n c) 1 x vx vy 0 0 (INR k)) (sol_y (i_n c) 1 x y vx vy 0 0 (INR k)) (sol_z (i_n c) 1 z vz 0 (INR k))).
Proof.
  intros Hn. unfold level, psm_c, wrap, psm, new_constraint, kw_default. cbn [c_fun c_params c_bias as_psm kw_bias].
  unfold psm_value. cbn [psm_radius psm_dt]. rewrite linspace_sampling by lia. rewrite map_map.
  set (s := [x; y; z; vx; vy; vz; sun; used]).
  assert (E : forall k, psm_future (i_n c) s (INR k * 1) (i_chief c + i_deputy c) =
    length3 (sol_x (i_n c) 1 x vx vy 0 0 (INR k)) (sol_y (i_n c) 1 x y vx vy 0 0 (INR k)) (sol_z (i_n c) 1 z vz 0 (INR k)) - (i_chief c + i_deputy c)).
  { intros k. unfold psm_future. rewrite Rmult_1_r.
    rewrite (drift_at (i_n c) 0 s (INR k) x y z vx vy vz [] [sun; used] Hn eq_refl eq_refl). rewrite norm3. reflexivity. }
  rewrite Rplus_0_r.
  rewrite vmin_ge by (intros H; apply map_eq_nil in H; discriminate).
  split.
  - intros H k Hk. specialize (H _ (in_map (fun k => psm_future (i_n c) s (INR k * 1) (i_chief c + i_deputy c)) (seq 1 100) k ltac:(apply in_seq; lia))).
    cbv beta in H. rewrite E in H. lra.
  - intros H b Hb. apply in_map_iff in Hb. destruct Hb as (k & <- & Hk). apply in_seq in Hk. rewrite E. specialize (H k ltac:(lia)). lra.
Qed.

Lemma coasts_level c x y z vx vy vz sun used r : i_n c <> 0 ->
  (coasts_clear (i_n c) (r + (i_chief c + i_deputy c)) 100 [x; y; z; vx; vy; vz; sun; used] <->
   r <= level (psm_c c) [x; y; z; vx; vy; vz; sun; used]).
Proof.
  intros Hn. rewrite psm_level_ge by auto. unfold coasts_clear. rewrite flown_eq.
  destruct (sol_start (i_n c) 1 x y z vx vy vz 0 0 0 Hn ltac:(lra)) as (S1 & S2 & S3 & S4 & S5 & S6).
  pose proof (sol_motion (i_n c) 1 x y z vx vy vz 0 0 0 Hn ltac:(lra)) as M. split.
  - intros H k Hk. exact (H _ _ _ _ _ _ M S1 S2 S3 S4 S5 S6 k Hk).
  - intros H X Y Z VX VY VZ M' E1 E2 E3 E4 E5 E6 k Hk. specialize (H k Hk).
    destruct (cwh_unique (i_n c) 1 0 0 0 _ _ _ _ _ _ _ _ _ _ _ _ Hn M' M) with (t := INR k) as (F1 & F2 & F3 & _); try congruence.
Qed.

(** One step changes the level by 20 at most. *)
Lemma psm_jump n dt y w : 0 < n <= 1 / 900 -> 0 < dt <= 1 -> axes_slow 1 y -> no_farther 1030 y ->
  length w = 3%nat -> within (i_bounds (insp_default 12 n)) w ->
  level (psm_c (insp_default 12 n)) y - 20 <=
  level (psm_c (insp_default 12 n)) (discrete_next n 12 (- n) y dt w).
Proof.
  intros Hn Hd A F Lw W. set (c := insp_default 12 n) in *. assert (N0 : i_n c <> 0) by (cbn; lra).
  destruct A as (px & py & pz & qx & qy & qz & su & us & -> & A1 & A2 & A3).
  apply (proj1 (flown_eq _ _ _ _ _ _ _ _ _)) in F. cbv beta in F.
  destruct w as [|ux [|uy [|uz [|]]]]; try discriminate.
  assert (B : forall i u, nth_error [ux; uy; uz] i = Some u -> bd u 1).
  { intros i u E. destruct W as [W1 W2]. specialize (W1 i u (-1) E eq_refl). specialize (W2 i u 1 E eq_refl). unfold bd; lra. }
  assert (B0 := B 0%nat ux eq_refl). assert (B1 := B 1%nat uy eq_refl). assert (B2 := B 2%nat uz eq_refl).
  apply abs_both in A1. apply abs_both in A2. apply abs_both in A3.
  pose proof (length3_sqr px py pz) as Q. pose proof (length3_pos px py pz) as P. set (d := length3 px py pz) in *.
  assert (D2 : d * d <= 1030 * 1030) by nra.
  assert (Bx : bd px 1030) by (assert (px * px <= 1030 * 1030) by nra; split; nra).
  assert (Bz : bd pz 1030) by (assert (pz * pz <= 1030 * 1030) by nra; split; nra). clear D2.
  destruct (step_moves n Hn dt px py pz qx qy qz ux uy uz Hd Bx Bz A1 A2 A3 B0 B1 B2) as (D1 & D2 & D3 & D4 & D5 & D6).
  rewrite discrete_next_eq by lra.
  set (x' := sol_x n 12 px qx qy ux uy dt) in *. set (y' := sol_y n 12 px py qx qy ux uy dt) in *. set (z' := sol_z n 12 pz qz uz dt) in *.
  set (vx' := sol_vx n 12 px qx qy ux uy dt) in *. set (vy' := sol_vy n 12 px qx qy ux uy dt) in *. set (vz' := sol_vz n 12 pz qz uz dt) in *.
  apply psm_level_ge; auto. intros k Hk.
  pose proof (proj1 (psm_level_ge c px py pz qx qy qz su us _ N0) (Rle_refl _) k Hk) as H.
  change (i_n c) with n in *.
  assert (T : 0 <= INR k <= 100).
  { split; [apply pos_INR|]. replace 100 with (INR 100) by (simpl; lra). apply le_INR; lia. }
  pose proof (coast_moves n Hn (INR k) _ _ _ _ _ _ T D1 D2 D3 D4 D5 D6) as G.
  destruct (sol_linear n Hn (INR k) px py pz qx qy qz x' y' z' vx' vy' vz') as (L1 & L2 & L3).
  rewrite <- L1, <- L2, <- L3 in G.
  pose proof (length3_triangle (sol_x n 1 px qx qy 0 0 (INR k)) (sol_y n 1 px py qx qy 0 0 (INR k)) (sol_z n 1 pz qz 0 (INR k))
    (sol_x n 1 x' vx' vy' 0 0 (INR k)) (sol_y n 1 x' y' vx' vy' 0 0 (INR k)) (sol_z n 1 z' vz' 0 (INR k))) as TR.
  lra.
Qed.

Lemma psm_kept nan n eps exc solve tol dt (s : dmod vec zparams) x xs :
  let c := insp_default 12 n in let cfg := discrete_inspection c eps exc solve in
  0 < n <= 1 / 900 -> 0 < dt <= 1 -> slsqp_contract tol solve -> 0 <= tol <= 1 / 1000000 ->
  disc_reached cfg s -> disc_constraints s = discrete_inspection_constraints nan c -> enable s = true ->
  disc_loop cfg dt s x xs ->
  (forall y, In y (x :: xs) -> axes_slow 1 y /\ no_farther 1030 y) ->
  - (1000 * tol) <= level (psm_c c) x -> forall y, In y (x :: xs) -> - (1000 * tol) <= level (psm_c c) y.
Proof.
  intros c cfg Hn Hd QC T Rc Cs En Lp Hv Hx.
  assert (St : strengthened (disc_constraints s)) by (eapply all_strengthened; rewrite Cs; intros k d H; exact H).
  apply (loop_kept tol cfg dt s x xs Lp QC Rc I I St En ltac:(lra) "PSM"%string); auto.
  - rewrite Cs. apply psm_member.
  - intros y Hy Hl. destruct (Rle_lt_dec (level (psm_c c) y) 31) as [G|G].
    + left. rewrite psm_decay. apply cubic_gentle with 31; try lra. nra.
    + right. intros w Lw W. destruct (Hv y Hy) as [A F].
      pose proof (psm_jump n dt y w Hn Hd A F Lw W) as J. fold c in J.
      change (dc_next cfg y dt w) with (discrete_next n 12 (- n) y dt w). lra.
Qed.

(** ** The sun *)
Definition sun_c (nan : R) (c : insp_cfg) := sun_constraint nan c get_sun_vector (Some (polynomial (Some [0; 1 / 1000; 0; 1 / 1000]))).
Lemma sun_member nan c : In ("sun"%string, sun_c nan c) (discrete_inspection_constraints nan c).
Proof. unfold discrete_inspection_constraints. cbn [app In]. right; right; left. reflexivity. Qed.
Lemma sun_decay nan c l : decay (sun_c nan c) l = 1 / 1000 * l + 1 / 1000 * l ^ 3.
Proof. unfold decay, sun_c, sun_constraint, wrap, conic, new_constraint. cbn [c_alpha]. apply cubic. Qed.
Lemma sun_level nan c x y z vx vy vz sun used h :
  sun_value (i_fov c) (i_a_max c) (i_sun_vel c) [x; y; z; vx; vy; vz; sun; used] = Some h ->
  level (sun_c nan c) [x; y; z; vx; vy; vz; sun; used] = h - 1 / 1000.
Proof.
  intros E. unfold level, sun_c, sun_constraint, wrap, conic, new_constraint, with_bias. cbn [c_fun c_params c_bias as_cone kw_bias cn_fov cn_amax].
  unfold sun_value in E. cbn [firstn skipn nth] in E.
  change (get_pos_vector [x; y; z; vx; vy; vz; sun; used]) with [x; y; z].
  change (get_vel_vector [x; y; z; vx; vy; vz; sun; used]) with [vx; vy; vz].
  change (get_sun_vector [x; y; z; vx; vy; vz; sun; used]) with (ModelConic.sun_vector sun).
  rewrite E. cbn [of_jax]. lra.
Qed.

(** The value is bounded by the distance and the speed. *)
Lemma sun_bound fov a w x y z vx vy vz sun used h D V : 0 < fov < PI -> 0 <= a -> length3 x y z <= D -> length3 vx vy vz <= V ->
  sun_value fov a w [x; y; z; vx; vy; vz; sun; used] = Some h -> h <= sqrt (2 * a * D) + V + Rabs w * D.
Proof.
  intros Hf Ha HD HV E. unfold sun_value in E. cbn [firstn skipn nth] in E.
  change (ModelConic.sun_vector sun) with [- cos sun; - sin sun; - 0] in E.
  assert (Hc : - cos sun * - cos sun + - sin sun * - sin sun + - 0 * - 0 = 1).
  { pose proof (sin2_cos2 sun) as H; unfold Rsqr in H. lra. }
  assert (Ht : 0 < fov / 2 < PI / 2) by lra.
  rewrite (conic_value_eq _ _ _ (fov / 2) Hc Ht x y z fov a vx vy vz 0 0 w eq_refl) in E.
  destruct (Req_EM_T _ 0) as [?|N0] in E; [discriminate|].
  destruct (Req_EM_T _ 0) as [?|N1] in E; [discriminate|].
  destruct (Req_EM_T _ 0) as [?|N2] in E; [discriminate|]. injection E as <-.
  set (c1 := - cos sun) in *; set (c2 := - sin sun) in *; set (c3 := - 0) in *.
  assert (Off : 0 < rr c1 c2 c3 x y z) by (pose proof (rr_nonneg c1 c2 c3 x y z); lra).
  set (g := gap c1 c2 c3 (fov / 2) x y z) in *.
  pose proof (nrm_unit c1 c2 c3 (fov / 2) Hc x y z Off) as U.
  set (n1 := nrm1 c1 c2 c3 (fov / 2) x y z) in *; set (n2 := nrm2 c1 c2 c3 (fov / 2) x y z) in *; set (n3 := nrm3 c1 c2 c3 (fov / 2) x y z) in *.
  assert (LU : length3 n1 n2 n3 = 1) by (unfold length3; rewrite U; apply sqrt_1).
  assert (G : g <= length3 x y z).
  { unfold g. rewrite <- (nrm_here c1 c2 c3 (fov / 2) Hc x y z Off). fold n1 n2 n3.
    pose proof (cauchy3 n1 n2 n3 x y z) as K. rewrite LU in K. lra. }
  pose proof (length3_pos x y z) as P.
  assert (S : (if Rle_dec 0 g then sqrt (2 * a * g) else - sqrt (2 * a * - g)) <= sqrt (2 * a * D)).
  { destruct (Rle_dec 0 g); [apply sqrt_le_1_alt; apply Rmult_le_compat_l; lra|].
    pose proof (sqrt_pos (2 * a * - g)). pose proof (sqrt_pos (2 * a * D)). lra. }
  unfold braking_barrier.
  assert (W : n1 * (vx - (0 * z - w * y)) + n2 * (vy - (w * x - 0 * z)) + n3 * (vz - (0 * y - 0 * x)) <= V + Rabs w * D).
  { pose proof (cauchy3 n1 n2 n3 vx vy vz) as K1. rewrite LU in K1.
    pose proof (cauchy3 n1 n2 n3 (w * y) (- (w * x)) 0) as K2. rewrite LU in K2.
    assert (LE : length3 (w * y) (- (w * x)) 0 <= Rabs w * length3 x y z).
    { apply le_of_sqr; [apply Rmult_le_pos; [apply Rabs_pos|auto]|]. rewrite length3_sqr.
      replace (Rabs w * length3 x y z * (Rabs w * length3 x y z)) with ((Rabs w * Rabs w) * (length3 x y z * length3 x y z)) by ring.
      rewrite length3_sqr. assert (Aw : Rabs w * Rabs w = w * w) by (pose proof (Rsqr_abs w) as Q; unfold Rsqr in Q; lra). rewrite Aw.
      assert (0 <= w * w) by nra. assert (0 <= z * z) by nra. nra. }
    assert (Rabs w * length3 x y z <= Rabs w * D) by (apply Rmult_le_compat_l; [apply Rabs_pos|auto]). lra. }
  lra.
Qed.

Lemma sun_kept nan n eps exc solve tol dt (s : dmod vec zparams) x xs :
  let c := insp_default 12 n in let cfg := discrete_inspection c eps exc solve in
  0 < n <= 1 / 900 -> 0 < dt <= 1 -> slsqp_contract tol solve -> 0 <= tol <= 1 / 1000000 -> 0 <= i_a_max c <= 1 / 12 ->
  disc_reached cfg s -> disc_constraints s = discrete_inspection_constraints nan c -> enable s = true ->
  disc_loop cfg dt s x xs ->
  (forall y, In y (x :: xs) -> axes_slow 1 y /\ no_farther 1030 y) ->
  (forall y, In y (x :: xs) -> sun_value (i_fov c) (i_a_max c) (i_sun_vel c) y <> None) ->
  (forall h, sun_value (i_fov c) (i_a_max c) (i_sun_vel c) x = Some h -> 0 <= h) ->
  forall y, In y (x :: xs) -> forall h, sun_value (i_fov c) (i_a_max c) (i_sun_vel c) y = Some h -> 0 <= h.
Proof.
  intros c cfg Hn Hd QC T Ha Rc Cs En Lp Hv Hs Hx y Hy h Eh.
  assert (St : strengthened (disc_constraints s)) by (eapply all_strengthened; rewrite Cs; intros k d H; exact H).
  assert (F : 0 < i_fov c < PI) by (cbn; pose proof PI_RGT_0; lra).
  assert (K : - (1 / 1000) <= level (sun_c nan c) y).
  { apply (loop_kept tol cfg dt s x xs Lp QC Rc I I St En ltac:(lra) "sun"%string (sun_c nan c)); auto.
    - rewrite Cs. apply sun_member.
    - intros y' Hy' Hl. left. rewrite sun_decay. apply cubic_gentle with 18; try lra.
      split; [exact Hl|]. destruct (Hv y' Hy') as [A Fa].
        destruct (sun_value (i_fov c) (i_a_max c) (i_sun_vel c) y') as [h'|] eqn:E'; [|exfalso; exact (Hs y' Hy' E')].
        destruct A as (px & py & pz & qx & qy & qz & su & us & -> & A1 & A2 & A3).
        apply (proj1 (flown_eq _ _ _ _ _ _ _ _ _)) in Fa. cbv beta in Fa.
        rewrite (sun_level _ _ _ _ _ _ _ _ _ _ h' E').
        assert (V : length3 qx qy qz <= 2).
        { apply abs_both in A1. apply abs_both in A2. apply abs_both in A3. apply le_of_sqr; [lra|]. rewrite length3_sqr.
          assert (Q : forall v, -1 <= v <= 1 -> v * v <= 1) by (intros v ?; nra).
          pose proof (Q _ A1). pose proof (Q _ A2). pose proof (Q _ A3). lra. }
        pose proof (sun_bound _ _ _ _ _ _ _ _ _ _ _ h' 1030 2 F (proj1 Ha) Fa V E') as B.
        assert (S : sqrt (2 * i_a_max c * 1030) <= 132 / 10).
        { rewrite <- (sqrt_square (132 / 10)) by lra. apply sqrt_le_1_alt. lra. }
        assert (W : Rabs (i_sun_vel c) <= 1 / 900) by (cbn; rewrite Rabs_Ropp, Rabs_pos_eq; lra). lra.
    - destruct (sun_value (i_fov c) (i_a_max c) (i_sun_vel c) x) as [h'|] eqn:E'; [|exfalso; exact (Hs x (or_introl eq_refl) E')].
      destruct (Hv x (or_introl eq_refl)) as [A _].
      destruct A as (px & py & pz & qx & qy & qz & su & us & -> & _).
      rewrite (sun_level _ _ _ _ _ _ _ _ _ _ h' E'). specialize (Hx h' eq_refl). lra. }
  destruct (Hv y Hy) as [A _]. destruct A as (px & py & pz & qx & qy & qz & su & us & -> & _).
  rewrite (sun_level _ _ _ _ _ _ _ _ _ _ h Eh) in K. lra.
Qed.

(** What a value says, in the words of SpecDiscInsp. *)
Lemma sun_has_value fov a w s : 0 < fov < PI -> sun_judged fov s -> sun_value fov a w s <> None.
Proof.
  intros Hf (p & v & angle & used & -> & NZ & Off & NE). rewrite (sun_value_defined fov angle Hf); auto; [discriminate|apply off_axis_spec; auto|].
  intros E. rewrite <- gapp_edge, <- gapp_view in NE by auto. lra.
Qed.
Lemma sun_says fov a w s : 0 < fov < PI -> sun_judged fov s ->
  (forall h, sun_value fov a w s = Some h -> 0 <= h) -> sun_avoidable fov a w s.
Proof.
  intros Hf J Hh. pose proof (sun_has_value fov a w s Hf J) as NN. destruct J as (p & v & angle & used & -> & _).
  destruct (sun_value fov a w (state_of p v angle used)) as [h|] eqn:E; [|congruence]. specialize (Hh h eq_refl).
  destruct (sun_value_some fov angle Hf _ _ _ _ _ _ E) as (Off & _ & Eh).
  exists p, v, angle, used, (gapp fov angle p), (speed_away fov angle p v w).
  split; [reflexivity|split; [apply gapp_clearance; auto|split; [lra|]]].
  intros T P V A Tp Hm Hw P0 V0 A0. exists (fun t => gapp fov (A t) (P t)).
  split; [intros t _; apply gapp_clearance; auto|split; [rewrite P0, A0; reflexivity|]].
  rewrite <- P0, <- V0, <- A0. eapply gapp_derive; eauto; [lra|]. rewrite P0, A0. exact Off.
Qed.
