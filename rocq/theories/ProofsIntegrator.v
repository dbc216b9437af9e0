(** Lemmas about the 1d integrator. *)
From Coq Require Import String Reals List Bool ZArith Lia Lra Psatz.
From Coquelicot Require Import Hierarchy Derive AutoDerive.
From Verif Require Import Prelude Vec ModelBase ModelController ModelSimplex ModelAsif ModelConstraint ModelIntegrator
  SpecCore SpecHistory SpecSimplex SpecAsif SpecConstraint SpecIntegrator ProofsBase ProofsVec ProofsConstraint.
Import ListNotations.
Local Open Scope R_scope.

Lemma int_euler_eq m p v dt a : m <> 0 -> int_euler m [p; v] dt [a] = Ok [p + dt * v; v + dt * (a / m)].
Proof. intros; cbn. f_equal. do 2 (apply (f_equal2 (@cons R)); [field; auto|]). reflexivity. Qed.

Lemma int_h_value alpha kw p v : c_fun (int_explicit alpha kw) [p; v] tt = -2 * p - v * v.
Proof. cbn; unfold jax_get; simpl; ring. Qed.
Lemma int_pos_value alpha kw p v : c_fun (int_implicit alpha kw) [p; v] tt = - p.
Proof. reflexivity. Qed.

Lemma can_stop_iff x : can_stop x <->
  exists p v, x = [p; v] /\ 0 <= c_compute (int_explicit None kw_default) x tt.
Proof.
  split; intros (p & v & -> & H); exists p, v; split; auto.
  - unfold c_compute; rewrite int_h_value. cbn; lra.
  - unfold c_compute in H; rewrite int_h_value in H. cbn in H; lra.
Qed.

Lemma int_grad alpha kw p v : c_grad (int_explicit alpha kw) [p; v] tt = [-2; -2 * v].
Proof.
  change (jax_grad (fun x => -2 * jax_get 0 x 0%Z - jax_get 0 x 1%Z ^ 2) [p; v] = [-2; -2 * v]).
  apply jax_grad_unique. split; [reflexivity|].
  intros [|[|i]] Hi; [| |cbn in Hi; lia]; cbn [replaced nth];
    unfold jax_get; simpl; apply is_derive_Reals; auto_derive; auto; ring.
Qed.

Lemma int_clip a : clip int_bounds [a] = Ok [Rmin (Rmax a (-1)) 1].
Proof. reflexivity. Qed.
Lemma int_clip_brake : clip int_bounds [-1] = Ok [-1].
Proof. rewrite int_clip. rewrite Rmax_left by lra. rewrite Rmin_left by lra. auto. Qed.
Lemma int_fits : fits int_bounds 1.
Proof. split; cbn; auto. Qed.
Lemma int_gen_sized euler m latch : gen_sized (sc_bounds (int_switching euler m latch)) (sc_gen (int_switching euler m latch)).
Proof. intros x dt cs u cs' H; inversion H; subst; exact int_fits. Qed.

Lemma int_backup_step (euler : bool) m dt x st x' st' :
  backup_step int_bounds (if euler then int_euler m else int_exact m) int_gen dt x st x' st' ->
  (if euler then int_euler m else int_exact m) x dt [-1] = Ok x' /\ st' = CSNone.
Proof.
  intros (u & w & Hg & Hb & Hp). unfold int_gen in Hg. injection Hg as <- <-.
  apply (clip_iff_boxed int_bounds [-1] w int_fits) in Hb. rewrite int_clip_brake in Hb. injection Hb as <-. auto.
Qed.

Lemma exact_brake x dt x' : int_exact 1 x dt [-1] = Ok x' -> can_stop x -> can_stop x'.
Proof.
  intros H (p & v & -> & S). cbn in H. injection H as <-. do 2 eexists; split; [reflexivity|]. nra.
Qed.

Lemma safe_explicit p v : safe int_explicit_constraints [p; v] <-> can_stop [p; v].
Proof.
  split.
  - intros H. exists p, v; split; auto.
    specialize (H "rel_vel"%string (int_explicit None kw_default) (or_introl eq_refl) eq_refl).
    rewrite int_h_value in H. cbn in H; lra.
  - intros (p' & v' & E & H) k c [I|[]] _. injection E as <- <-. injection I as <- <-.
    rewrite int_h_value. cbn; lra.
Qed.
