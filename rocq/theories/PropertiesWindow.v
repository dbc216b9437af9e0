(** C31, C12: implicit optimisation-based modules whose window is shorter than a step. *)
From Coq Require Import String Reals List Bool ZArith Lia Lra.
From Verif Require Import Prelude Vec ModelBase ModelController ModelSimplex ModelAsif SpecCore SpecAsif ProofsBase ProofsSimplex
  ExampleTools ExampleQP PropertiesAsif PropertiesImplicit.
Import ListNotations.
Local Open Scope R_scope.

(** Every filter call of the history has a step longer than the window, in either direction. *)
Definition below_a_step {X P} (w : R) (o : aop X P) : Prop :=
  match o with ABase (OFilter _ dt _) => - dt < w < dt | _ => True end.

Lemma zero_part r : 0 <= r < 1 -> Int_part r = 0%Z.
Proof.
  intros H. destruct (base_Int_part r) as [A B].
  assert (Int_part r < 1)%Z by (apply lt_IZR; lra). assert (-1 < Int_part r)%Z by (apply lt_IZR; lra). lia.
Qed.
Lemma below_one w dt : - dt < w < dt -> py_div w dt = Ok (w / dt) /\ Z.to_nat (py_int (w / dt) + 1) = 1%nat.
Proof.
  intros H. assert (D : 0 < dt) by lra. unfold py_div. destruct (Req_EM_T dt 0); [lra|]. split; [reflexivity|].
  assert (B : -1 < w / dt < 1).
  { split; apply Rmult_lt_reg_r with dt; auto; unfold Rdiv; rewrite Rmult_assoc, Rinv_l by lra; lra. }
  assert (E : py_int (w / dt) = 0%Z); [|rewrite E; reflexivity].
  unfold py_int. destruct (Rle_dec 0 (w / dt)).
  - apply zero_part. lra.
  - rewrite zero_part by lra. reflexivity.
Qed.

Section Same.
Context {X P : Type}.
Variables (cfg : asif_cfg X) (ic ic' : imp_cfg X).
Hypothesis Sz : forall x, ic_size ic x = ic_size ic' x.

Lemma same_mats x dt (s : amod X P ctl) : - dt < ic_window ic < dt -> - dt < ic_window ic' < dt ->
  implicit_mats cfg ic x dt s = implicit_mats cfg ic' x dt s.
Proof.
  intros W W'. destruct (below_one _ _ W) as [E1 E2]. destruct (below_one _ _ W') as [F1 F2].
  unfold implicit_mats, bind at 1 6. rewrite E1, F1. cbn [lift]. unfold bind, lift. rewrite E2, F2.
  unfold implicit_integrate. cbn [Nat.sub implicit_loop]. rewrite Sz. reflexivity.
Qed.

Lemma same_call i dt u (s : amod X P ctl) : - dt < ic_window ic < dt -> - dt < ic_window ic' < dt ->
  implicit_asif_filter_control cfg ic i dt u s = implicit_asif_filter_control cfg ic' i dt u s.
Proof.
  intros W W'. unfold implicit_asif_filter_control, filter_control, cb_compute, asif_filter, bind, modify, get.
  destruct (enable _); [|reflexivity].
  destruct (base_get_state _ _) as [[x|e] s1]; [|reflexivity].
  rewrite (same_mats x dt _ W W'). reflexivity.
Qed.
End Same.

(** ** C31.  A window shorter than the steps, negative ones included, makes the module look only at the state it is given:
    the backup controller, the plant model and the Jacobian make no difference, over whole
    histories. *)
Theorem C31_window_below_a_step :
  forall (X P : Type) (cfg : asif_cfg X) (ic ic' : imp_cfg X) rst os (s : amod X P ctl),
  (forall x, ic_size ic x = ic_size ic' x) ->
  (forall o, In o os -> below_a_step (ic_window ic) o /\ below_a_step (ic_window ic') o) ->
  asif_run (implicit_asif_filter_control cfg ic) rst os s =
  asif_run (implicit_asif_filter_control cfg ic') rst os s.
Proof.
  intros X P cfg ic ic' rst os. induction os as [|o os IH]; intros s Sz Ho; [reflexivity|].
  cbn [asif_run].
  assert (E : asif_step (implicit_asif_filter_control cfg ic) rst o s = asif_step (implicit_asif_filter_control cfg ic') rst o s).
  { destruct (Ho o (or_introl eq_refl)) as [W W']. destruct o as [o| |]; [|reflexivity|reflexivity].
    destruct o; try reflexivity. cbn [asif_step cb_step]. cbn in W, W'.
    rewrite (same_call cfg ic ic' Sz _ _ _ s W W'). reflexivity. }
  rewrite E. destruct (asif_step (implicit_asif_filter_control cfg ic') rst o s) as [b s1]. rewrite (IH s1); auto. intros o' H'. apply Ho. right; auto.
Qed.
Print Assumptions C31_window_below_a_step.

(** Non-vacuity: a window of minus half a step and a window of half a step with a plant model that
    always raises; the call returns a control that is neither the desired one nor zero. *)
Definition short_ic : imp_cfg R :=
  mkImpCfg (-1/2) (fun x dt u => Ok (x + dt * hd 0 u)) (fun _ _ cs => GPair [-1] cs) (fun _ _ _ => [[0]]) (fun _ => 1%nat).
Definition broken_ic : imp_cfg R :=
  mkImpCfg (1/2) (fun _ _ _ => Err TypeError) (fun _ _ _ => GOther) (fun _ _ _ => [[5]]) (fun _ => 1%nat).
Definition mats_of_one {X P} (cfg : asif_cfg X) (ic : imp_cfg X) (x : X) (dt : R) : M (amod X P ctl) (mat * vec) :=
  bind (on_actl (implicit_integrate (ac_bounds cfg) ic x dt 1)) (fun traj =>
  bind (implicit_ineq_mats cfg x 1 traj) (fun rc =>
  bind (modify (fun s => on_asif (set_names (implicit_names cfg 1 s)) s)) (fun _ => ret rc))).
Lemma implicit_mats_one {X P} (cfg : asif_cfg X) ic x dt (s : amod X P ctl) : - dt < ic_window ic < dt ->
  implicit_mats cfg ic x dt s = mats_of_one cfg ic x dt s.
Proof. intros W. destruct (below_one _ _ W) as [E1 E2]. unfold implicit_mats. unfold bind at 1. rewrite E1. unfold lift at 1. rewrite E2. reflexivity. Qed.
Example C31_window_case :
  (forall x, ic_size short_ic x = ic_size broken_ic x) /\
  (forall o : aop R unit, In o [ABase (OFilter (InArray (1/2)) 1 [1]); ABase OReset] ->
     below_a_step (ic_window short_ic) o /\ below_a_step (ic_window broken_ic) o) /\
  exists s', implicit_asif_filter_control (line_cfg unit_box false qp1) short_ic (InArray (1/2)) 1 [1] counting = (Ok [1/2], s').
Proof.
  split; [reflexivity|split].
  - intros o [<-|[<-|[]]]; cbn; try lra; auto.
  - eexists.
    cbv -[Rltb Rleb Rmax Rmin Rplus Rmult Rminus Ropp Rinv Rdiv IZR Rlt Rle py_int py_div
          Rabs sqrt pow sin cos INR not qp1 qp_knowing implicit_mats].
    rewrite implicit_mats_one by (cbn; lra). eval_model.
    qp1_gives [[1]] [1] [[1]; [-1]; [-1]] [-1; -1; -1/2] [1/2] [3%nat].
    eval_model; reflexivity.
Qed.
