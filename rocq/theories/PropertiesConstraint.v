(** Properties of constraint objects and of continuous enforcement: C28, C29, C30, C41. *)
From Coq Require Import String Reals List Bool ZArith Lia Lra.
From Coquelicot Require Import Hierarchy Derive.
From Verif Require Import Prelude Vec ModelBase ModelController ModelSimplex ModelAsif ModelConstraint
  SpecCore SpecAsif SpecConstraint ProofsBase ProofsVec ProofsConstraint ExampleTools ExampleQP PropertiesAsif.
Import ListNotations.
Local Open Scope R_scope.

(** ** C28.  An explicit module that is called at every instant and always returns without the
    infeasibility warning.  [x] is the trajectory of dx/dt = f(x) + g(x) u under the returned
    controls [u]; [s t] is the module at time [t] (its parameters and its other constraints may
    change over time), and [ud t] the desired control. *)
Definition filtered_at_all_times {X P} (cfg : asif_cfg X) (n : nat) (k : string) (c : constraint X P) (dt T : R)
    (x : R -> X) (ud u : R -> vec) (s : R -> amod X P unit) : Prop :=
  forall t, 0 <= t <= T ->
    in_use cfg n (s t) (x t) (ud t) /\ In (k, c) (asif_constraints (s t)) /\
    exists s', explicit_asif_filter_control cfg (InArray (x t)) dt (ud t) (s t) = (Ok (u t), s') /\
               warnings s' = warnings (s t).

(** A constraint that starts non-negative stays non-negative, if its strengthening term is
    negative for negative values. *)
Theorem C28_stays_safe :
  forall (X P : Type) (cfg : asif_cfg X) n k (c : constraint X P) dt T x ud u s,
  qp_contract (ac_solve cfg) -> filtered_at_all_times cfg n k c dt T x ud u s ->
  moves_along c (c_params c) x (fun t => vadd (ac_f cfg (x t)) (mv (ac_g cfg (x t)) (u t))) T ->
  c_enabled c = true -> c_slack c = None -> (forall h, h < 0 -> strength c h < 0) ->
  0 <= c_fun c (x 0) (c_params c) + c_bias c ->
  forall t, 0 <= t <= T -> 0 <= c_fun c (x t) (c_params c) + c_bias c.
Proof.
  intros X P cfg n k c dt T x ud u s QC F D He Hs Hst H0.
  set (xd := fun t => vadd (ac_f cfg (x t)) (mv (ac_g cfg (x t)) (u t))) in *.
  apply (stays_nonneg (fun t => c_fun c (x t) (c_params c) + c_bias c)
           (fun t => dot (c_grad c (x t) (c_params c)) (xd t)) T); auto.
  - intros t Ht. rewrite <- (Rplus_0_r (dot _ _)).
    apply (derivable_pt_lim_plus (fun r => c_fun c (x r) (c_params c)) (fun _ => c_bias c)); [apply D; auto|].
    apply derivable_pt_lim_const.
  - intros t Ht Hneg. destruct (F t Ht) as (U & Hin & s' & Hc & Hw).
    destruct (C20_returned_control_meets_barriers _ _ cfg n (s t) (x t) dt (ud t) (u t) s' QC U Hc Hw)
      as (_ & _ & B & _).
    specialize (B k c Hin He Hs). specialize (Hst _ Hneg). fold (xd t) in B. lra.
Qed.
Print Assumptions C28_stays_safe.

(** With the default negative strengthener and bias, a violation of size [a] is repaired within
    a/0.01; after that C28_stays_safe applies. *)
Theorem C28_recovers :
  forall (X P : Type) (cfg : asif_cfg X) n k (c : constraint X P) alpha dt a x ud u s,
  qp_contract (ac_solve cfg) -> filtered_at_all_times cfg n k c dt (a / (1 / 100)) x ud u s ->
  moves_along c (c_params c) x (fun t => vadd (ac_f cfg (x t)) (mv (ac_g cfg (x t)) (u t))) (a / (1 / 100)) ->
  c_enabled c = true -> c_slack c = None ->
  c_alpha c = Some alpha -> c_alpha_neg c = None -> c_bias_neg c = - (1 / 100) ->
  (forall h, h < 0 -> alpha h <= 0) ->
  0 < a -> c_fun c (x 0) (c_params c) + c_bias c = - a ->
  exists t, 0 <= t <= a / (1 / 100) /\ 0 <= c_fun c (x t) (c_params c) + c_bias c.
Proof.
  intros X P cfg n k c alpha dt a x ud u s QC F D He Hs Ha Hn Hb Hal Hpos H0.
  set (xd := fun t => vadd (ac_f cfg (x t)) (mv (ac_g cfg (x t)) (u t))) in *.
  apply (recovers (fun t => c_fun c (x t) (c_params c) + c_bias c)
           (fun t => dot (c_grad c (x t) (c_params c)) (xd t)) (1 / 100) a); auto; [lra| |].
  - intros t Ht. rewrite <- (Rplus_0_r (dot _ _)).
    apply (derivable_pt_lim_plus (fun r => c_fun c (x r) (c_params c)) (fun _ => c_bias c)); [apply D; auto|].
    apply derivable_pt_lim_const.
  - intros t Ht Hneg. destruct (F t Ht) as (U & Hin & s' & Hc & Hw).
    destruct (C20_returned_control_meets_barriers _ _ cfg n (s t) (x t) dt (ud t) (u t) s' QC U Hc Hw)
      as (_ & _ & B & _).
    specialize (B k c Hin He Hs). fold (xd t) in B. unfold strength in B; rewrite Ha, Hn, Hb in B.
    destruct (Rlt_dec _ 0) as [_|N]; [|contradiction]. specialize (Hal _ Hneg). lra.
Qed.
Print Assumptions C28_recovers.

(** Non-vacuity: a wall at 1 without control bounds.  From x = 2 (a violation of size 1) the
    desired speed -20 is let through at all times, and the trajectory 2 - 20 t recovers; from
    x = 0 the wall is never crossed. *)
Definition open_wall := line_of free [("wall"%string, wall None)] [].
Definition away (t : R) : R := 2 - 20 * t.
Lemma open_wall_in_use x u : in_use (line_cfg free false qp1) 1 open_wall x [u].
Proof. line_in_use (@nil (aop R unit)) free false qp1 [("wall"%string, wall None)] (@nil (string * direct R unit)). Qed.
Lemma open_wall_call x : x <= 2 -> exists s',
  explicit_asif_filter_control (line_cfg free false qp1) (InArray x) 1 [-20] open_wall = (Ok [-20], s') /\
  warnings s' = warnings open_wall.
Proof.
  intros H. destruct (Rlt_dec 1 x) as [L|L].
  - eexists; split; [|].
    + eval_model. qp1_gives [[1]] [-20] [[-1]] [10 * (x - 1) + 1/100] [-20] (@nil nat). eval_model. reflexivity.
    + reflexivity.
  - eexists; split; [|].
    + eval_model. qp1_gives [[1]] [-20] [[-1]] [x - 1] [-20] (@nil nat). eval_model. reflexivity.
    + reflexivity.
Qed.
Example C28_case T : 0 <= T ->
  qp_contract qp1 /\
  filtered_at_all_times (line_cfg free false qp1) 1 "wall" (wall None) 1 T away
    (fun _ => [-20]) (fun _ => [-20]) (fun _ => open_wall) /\
  moves_along (wall None) tt away (fun _ => vadd [0] (mv [[1]] [-20])) T /\
  (forall h, h < 0 -> strength (wall None) h < 0) /\
  c_alpha (wall None) = Some (fun h => h) /\ c_alpha_neg (wall None) = None /\
  c_bias_neg (wall None) = - (1 / 100) /\
  c_fun (wall None) (away 0) tt + c_bias (wall None) = - 1.
Proof.
  intros HT. split; [apply qp1_contract|split; [|split; [|split; [|split; [|split; [|split]]]]]]; try reflexivity.
  - intros t Ht. split; [apply open_wall_in_use|split; [left; reflexivity|]].
    apply open_wall_call; unfold away; lra.
  - intros t Ht. simpl. unfold away.
    replace (-1 * (0 + (1 * -20 + 0)) + 0) with (0 - (0 - 20)) by ring.
    apply (derivable_pt_lim_minus (fun _ => 1) (fun r => 2 - 20 * r)); [apply derivable_pt_lim_const|].
    apply (derivable_pt_lim_minus (fun _ => 2) (fun r => 20 * r)); [apply derivable_pt_lim_const|].
    pose proof (derivable_pt_lim_scal id 20 t 1 (derivable_pt_lim_id t)) as E.
    rewrite Rmult_1_r in E; exact E.
  - intros h Hh; unfold strength, wall; simpl. destruct (Rlt_dec h 0); lra.
  - simpl; lra.
  - unfold away, wall; simpl; ring.
Qed.

(** ** C29.  Polynomial strengtheners. *)
Theorem C29_polynomial_value :
  forall coefs x, polynomial (Some coefs) x = horner coefs x /\ polynomial None x = x.
Proof. intros; split; [apply polynomial_horner|]. unfold polynomial; simpl; ring. Qed.
Print Assumptions C29_polynomial_value.

Theorem C29_valid_strengthener :
  forall coefs, odd_increasing coefs ->
  polynomial (Some coefs) 0 = 0 /\
  forall x y, x < y -> polynomial (Some coefs) x < polynomial (Some coefs) y.
Proof.
  intros coefs H; destruct (horner_odd_increasing coefs H) as [Z S].
  split; [rewrite polynomial_horner; auto|intros; rewrite !polynomial_horner; auto].
Qed.
Print Assumptions C29_valid_strengthener.

(** Without an own strengthener for negative values, ten times the ordinary one is used; with
    one, that is used.  Without any strengthener the call fails. *)
Theorem C29_negative_default :
  forall (X P : Type) (c : constraint X P) h,
  (forall a, c_alpha c = Some a -> c_alpha_neg c = None -> c_alpha_negative_at c h = Ok (10 * a h)) /\
  (forall a, c_alpha_neg c = Some a -> c_alpha_negative_at c h = Ok (a h)) /\
  (c_alpha c = None -> c_alpha_neg c = None -> c_alpha_negative_at c h = Err AssertionError).
Proof.
  intros X P c h; unfold c_alpha_negative_at; split; [|split]; intros.
  - rewrite H, H0; f_equal; ring.
  - rewrite H; auto.
  - rewrite H, H0; auto.
Qed.
Print Assumptions C29_negative_default.

(** The strengthener that the limit constraints use by default is valid. *)
Example C29_case : odd_increasing [0; 5 / 10000; 0; 1 / 1000] /\
  limit_alpha None = Some (polynomial (Some [0; 5 / 10000; 0; 1 / 1000])) /\
  polynomial (Some [0; 5 / 10000; 0; 1 / 1000]) 10 = 1005 / 1000.
Proof.
  split; [split|split].
  - intros [|[|[|[|n]]]] c Hc; simpl in *; try (injection Hc as <-; lra). destruct n; discriminate.
  - exists 1%nat, (5 / 10000); split; [reflexivity|lra].
  - reflexivity.
  - unfold polynomial; simpl; lra.
Qed.

(** An even power breaks monotonicity: the condition on the coefficients is needed. *)
Example C29_even_power_decreases : polynomial (Some [0; 0; 1]) (-1) > polynomial (Some [0; 0; 1]) 0.
Proof. unfold polynomial; simpl; lra. Qed.

(** ** C30.  For relative degree at least two: the value is the last function of the documented
    chain, the reported value is that of the original constraint, and the parameters are those
    of the original constraint. *)
Theorem C30_documented_chain :
  forall (P : Type) (c : constraint vec P) d f alpha kw n psi dpsi p,
  (2 <= d)%Z ->
  (forall x, length x = n -> c_grad c x p = jax_grad (fun y => c_fun c y p) x) ->
  chain_of n (Z.to_nat (d - 1)) (fun x => c_fun c x p + c_bias c) f alpha psi dpsi ->
  exists hc, hocbf c d f alpha kw = Ok hc /\
    c_params hc = c_params c /\ c_alpha hc = Some alpha /\ c_bias hc = kw_bias kw /\
    forall x, length x = n ->
      c_fun hc x p = psi (Z.to_nat (d - 1)) x /\ c_phi hc x p = c_phi c x p /\
      forall v, is_gradient (psi (Z.to_nat (d - 1))) x v -> c_grad hc x p = v.
Proof.
  intros P c d f alpha kw n psi dpsi p Hd Hg C. unfold hocbf.
  destruct (Z.leb_spec d 1); [lia|]. eexists; split; [reflexivity|]. simpl.
  split; [apply hocbf_loop_params|split; [auto|split; [auto|]]].
  assert (V : forall y, length y = n ->
    c_compute (hocbf_loop (Z.to_nat (d - 1)) c f alpha) y p = psi (Z.to_nat (d - 1)) y).
  { intros y Ly. apply (hocbf_loop_chain n _ _ f alpha psi dpsi p C _ 0 c); auto.
    intros z Lz; rewrite (ch_start _ _ _ _ _ _ _ C); auto. }
  intros x Lx; split; [auto|split; [auto|]].
  intros v Hv. apply jax_grad_unique.
  apply is_gradient_shift with (F := psi (Z.to_nat (d - 1))) (k := 0); auto.
  intros y Ly; rewrite V by congruence; ring.
Qed.
Print Assumptions C30_documented_chain.

(** For relative degree one construction fails, although degree one is a positive degree. *)
Theorem C30_degree_one_refuted :
  forall (P : Type) (c : constraint vec P) f alpha kw, hocbf c 1 f alpha kw = Err UnboundLocalError.
Proof. reflexivity. Qed.
Print Assumptions C30_degree_one_refuted.

(** What the chain is for: along a trajectory on which the control acts on no level below the
    last one, keeping the last level non-negative keeps all of them non-negative, in particular
    the original constraint, if all start non-negative. *)
Theorem C30_chain_keeps_safe :
  forall n top h f alpha psi dpsi (x : R -> vec) T,
  chain_of n top h f alpha psi dpsi -> (forall r, r < 0 -> alpha r < 0) ->
  (forall t, 0 <= t <= T -> length (x t) = n) ->
  (forall i t, (i < top)%nat -> 0 <= t <= T ->
     derivable_pt_lim (fun r => psi i (x r)) t (dot (dpsi i (x t)) (f (x t)))) ->
  (forall i, (i < top)%nat -> 0 <= psi i (x 0)) ->
  (forall t, 0 <= t <= T -> 0 <= psi top (x t)) ->
  forall t, 0 <= t <= T -> 0 <= h (x t).
Proof.
  intros n top h f alpha psi dpsi x T C Ha Hn D H0 Htop t Ht.
  rewrite <- (ch_start _ _ _ _ _ _ _ C) by auto.
  assert (G : forall k i, (i + k = top)%nat -> forall r, 0 <= r <= T -> 0 <= psi i (x r)).
  { induction k as [|k IH]; intros i Hi r Hr.
    - rewrite Nat.add_0_r in Hi; subst i; auto.
    - apply (stays_nonneg (fun q => psi i (x q)) (fun q => dot (dpsi i (x q)) (f (x q))) T); auto.
      + intros q Hq; apply D; auto; lia.
      + intros q Hq Hneg. assert (Hs : 0 <= psi (S i) (x q)) by (apply IH; auto; lia).
        rewrite (ch_step _ _ _ _ _ _ _ C) in Hs by (auto; lia).
        specialize (Ha _ Hneg). lra.
      + apply H0; lia. }
  apply (G top 0%nat); auto.
Qed.
Print Assumptions C30_chain_keeps_safe.

(** Non-vacuity: position and speed, x' = v; h = 1 - x has relative degree two, with
    psi_1 = -v + (1 - x). *)
Definition below_one : constraint vec unit := 
  new_constraint (fun x _ => 1 - nth 0 x 0) (fun x _ => 1 - nth 0 x 0) (Some (fun h => h)) tt kw_default.
Definition drift (x : vec) : vec := [nth 1 x 0; 0].
Definition psi_ex (i : nat) (x : vec) : R :=
  match i with O => 1 - nth 0 x 0 | _ => - nth 1 x 0 + (1 - nth 0 x 0) end.
Lemma below_one_chain :
  chain_of 2 1 (fun x => c_fun below_one x tt + c_bias below_one) drift (fun h => h) psi_ex (fun _ _ => [-1; 0]).
Proof.
  constructor.
  - intros x Lx; simpl; ring.
  - intros i x Hi Lx; assert (i = 0)%nat by lia; subst i.
    destruct x as [|a [|b [|? ?]]]; try discriminate. split; [reflexivity|].
    intros [|[|i]] Hi'; simpl in *; [| |lia].
    + replace (-1) with (0 - 1) by ring.
      apply (derivable_pt_lim_minus (fun _ => 1) id); [apply derivable_pt_lim_const|apply derivable_pt_lim_id].
    + apply (derivable_pt_lim_const (1 - a)).
  - intros i x Hi Lx; assert (i = 0)%nat by lia; subst i.
    destruct x as [|a [|b [|? ?]]]; try discriminate. simpl; ring.
Qed.
Example C30_case : (forall x, c_grad below_one x tt = jax_grad (fun y => c_fun below_one y tt) x) /\
  exists hc, hocbf below_one 2 drift (fun h => h) kw_default = Ok hc /\
    c_fun hc [1/4; 1/2] tt = 1/4 /\ c_phi hc [1/4; 1/2] tt = 3/4.
Proof.
  split; [reflexivity|].
  destruct (C30_documented_chain unit below_one 2 drift (fun h => h) kw_default 2 psi_ex _ tt
    ltac:(lia) (fun _ _ => eq_refl) below_one_chain) as (hc & E & _ & _ & _ & V).
  exists hc; split; [exact E|].
  destruct (V [1/4; 1/2] eq_refl) as (V1 & V2 & _).
  split; [rewrite V1; change (Z.to_nat (2 - 1)) with 1%nat; simpl; lra|rewrite V2; simpl; lra].
Qed.
(** A trajectory for C30_chain_keeps_safe: constant position 0. *)
Example C30_case_trajectory :
  (forall t, derivable_pt_lim (fun r => psi_ex 0 [0; 0]) t (dot [-1; 0] (drift [0; 0]))) /\
  0 <= psi_ex 0 [0; 0] /\ 0 <= psi_ex 1 [0; 0].
Proof.
  split; [|simpl; lra]. intros t. replace (dot _ _) with 0 by (simpl; ring). apply derivable_pt_lim_const.
Qed.

(** ** C41.  The state limits: with bias b, the selected entry has to be below limit + b (above
    limit - b), for the parameter value in force; its square below limit^2 + b. *)
Theorem C41_max_and_min_limits :
  forall i alpha kw l0 x v l, component i x v ->
  (0 <= c_fun (max_limit l0 i alpha kw) x l + c_bias (max_limit l0 i alpha kw) <-> v <= l + kw_bias kw) /\
  (0 <= c_fun (min_limit l0 i alpha kw) x l + c_bias (min_limit l0 i alpha kw) <-> l - kw_bias kw <= v) /\
  c_params (max_limit l0 i alpha kw) = l0 /\ c_params (min_limit l0 i alpha kw) = l0.
Proof.
  intros i alpha kw l0 x v l H; destruct (component_jax _ _ _ H) as (E & _); simpl; rewrite E.
  split; [|split; [|split; auto]]; split; intros; lra.
Qed.
Print Assumptions C41_max_and_min_limits.

Theorem C41_magnitude_limit :
  forall i alpha kw l0 x v l, component i x v -> 0 <= l ->
  (0 <= c_fun (magnitude_limit l0 i alpha kw) x l <-> Rabs v <= l) /\
  (kw_bias kw <= 0 -> 0 <= c_fun (magnitude_limit l0 i alpha kw) x l + c_bias (magnitude_limit l0 i alpha kw) ->
   Rabs v <= l).
Proof.
  intros i alpha kw l0 x v l H Hl; destruct (component_jax _ _ _ H) as (E & _); simpl; rewrite E.
  assert (A : 0 <= l * (l * 1) - v * (v * 1) -> Rabs v <= l).
  { intros Hv. apply Rabs_le. nra. }
  split; [split; auto|].
  - intros Hv. pose proof (Rabs_pos v). assert (v * v = Rabs v * Rabs v) by (unfold Rabs; destruct (Rcase_abs v); ring).
    nra.
  - intros Hb Hv; apply A; lra.
Qed.
Print Assumptions C41_magnitude_limit.

(** A negative magnitude limit, which nothing satisfies, is accepted as its absolute value. *)
Theorem C41_negative_magnitude_refuted :
  exists l x, l < 0 /\ component 0 x 0 /\ 0 < c_fun (magnitude_limit l 0 None kw_default) x l /\ ~ Rabs 0 <= l.
Proof.
  exists (-1), [0]; split; [lra|split; [exists 0%nat; simpl; auto|split]].
  - simpl; unfold jax_get, jax_index; simpl. lra.
  - rewrite Rabs_R0; lra.
Qed.
Print Assumptions C41_negative_magnitude_refuted.

(** Their gradients are the true ones, and the barrier term is the true rate of change. *)
Theorem C41_true_gradients :
  forall i alpha kw l0 x v l xdot w,
  component i x v -> length xdot = length x -> component i xdot w ->
  (is_gradient (fun y => c_fun (magnitude_limit l0 i alpha kw) y l) x (c_grad (magnitude_limit l0 i alpha kw) x l) /\
   dot (c_grad (magnitude_limit l0 i alpha kw) x l) xdot = - 2 * v * w) /\
  (is_gradient (fun y => c_fun (max_limit l0 i alpha kw) y l) x (c_grad (max_limit l0 i alpha kw) x l) /\
   dot (c_grad (max_limit l0 i alpha kw) x l) xdot = - w) /\
  (is_gradient (fun y => c_fun (min_limit l0 i alpha kw) y l) x (c_grad (min_limit l0 i alpha kw) x l) /\
   dot (c_grad (min_limit l0 i alpha kw) x l) xdot = w).
Proof.
  intros i alpha kw l0 x v l xdot w Hc L Hw.
  destruct (component_jax _ _ _ Hc) as (_ & Hj & _).
  destruct (component_jax _ _ _ Hw) as (_ & _ & Ew). rewrite L in Ew.
  pose proof (magnitude_gradient x v i l Hc) as G1.
  pose proof (max_gradient x v i l Hc) as G2.
  pose proof (min_gradient x v i l Hc) as G3.
  change (c_grad (magnitude_limit l0 i alpha kw) x l) with (jax_grad (fun y => l ^ 2 - jax_get 0 y i ^ 2) x).
  change (c_grad (max_limit l0 i alpha kw) x l) with (jax_grad (fun y => l - jax_get 0 y i) x).
  change (c_grad (min_limit l0 i alpha kw) x l) with (jax_grad (fun y => jax_get 0 y i - l) x).
  rewrite (jax_grad_unique _ _ _ G1), (jax_grad_unique _ _ _ G2), (jax_grad_unique _ _ _ G3).
  rewrite !dot_vscale_l, !dot_unit, Ew by (auto; lia).
  split; [split; [exact G1|ring]|split; [split; [exact G2|ring]|split; [exact G3|ring]]].
Qed.
Print Assumptions C41_true_gradients.
Example C41_case : component (-1) [3; 4] 4 /\ component 0 [3; 4] 3 /\
  c_fun (magnitude_limit 5 0 None kw_default) [3; 4] 5 = 16.
Proof.
  split; [exists 1%nat; simpl; auto with zarith|split; [exists 0%nat; simpl; auto|]].
  simpl; unfold jax_get, jax_index; simpl; ring.
Qed.
