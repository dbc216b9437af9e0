(** Motions for the examples of C89. *)
From Coq Require Import Reals Lra.
From Coquelicot Require Import Coquelicot.
From Verif Require Import Prelude Vec SpecCwh.
Local Open Scope R_scope.

Lemma glide_moves T x y z a b c p q r : cwh_forced 0 12 T (fun _ => p) (fun _ => q) (fun _ => r)
  (fun t => x + a * t + p * (t * t) / 24) (fun t => y + b * t + q * (t * t) / 24) (fun t => z + c * t + r * (t * t) / 24)
  (fun t => a + p * t / 12) (fun t => b + q * t / 12) (fun t => c + r * t / 12).
Proof. constructor; intros t _; apply is_derive_Reals; auto_derive; auto; field. Qed.
Lemma glide_moves_2 T x y a b p q : cwh_forced 0 12 T (fun _ => p) (fun _ => q) (fun _ => 0)
  (fun t => x + a * t + p * (t * t) / 24) (fun t => y + b * t + q * (t * t) / 24) (fun t => 0)
  (fun t => a + p * t / 12) (fun t => b + q * t / 12) (fun t => 0).
Proof. constructor; intros t _; apply is_derive_Reals; auto_derive; auto; field. Qed.

(** Swinging through the origin across the orbital plane. *)
Lemma swing_moves T n w h : n <> 0 -> cwh_forced n 12 T (fun _ => 0) (fun _ => 0) (fun _ => 0)
  (fun _ => 0) (fun _ => 0) (fun t => w / n * sin (n * (t - h))) (fun _ => 0) (fun _ => 0) (fun t => w * cos (n * (t - h))).
Proof. intros Hn. constructor; intros t _; apply is_derive_Reals; unfold Rminus; auto_derive; auto; field; exact Hn. Qed.

Lemma half_sine a : 0 <= a <= 1 / 2 -> a / 2 <= sin a.
Proof.
  intros Ha. destruct (Req_dec a 0) as [->|Hz]; [rewrite sin_0; lra|].
  destruct (MVT_cor2 sin cos 0 a) as (c & E & Hc); [lra|intros; apply derivable_pt_lim_sin|].
  rewrite sin_0, !Rminus_0_r in E. rewrite E.
  assert (1 / 2 <= cos c).
  { rewrite <- cos_PI3. pose proof PI2_3_2. unfold PI2 in *. assert (1 / 2 <= PI / 3) by lra. apply cos_decr_1; lra. }
  assert (0 <= (cos c - 1 / 2) * a) by (apply Rmult_le_pos; lra). lra.
Qed.
