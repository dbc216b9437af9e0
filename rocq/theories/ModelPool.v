(** Model of several modules and backup controllers in one program: a module keeps a reference to
    the controller object it is given (base.py 400-402), so several modules can be given the same
    one.  Compilation (403-405) is left out, see ModelJit.v. *)
From Coq Require Import String Reals List Bool ZArith.
From Verif Require Import Prelude Vec ModelBase ModelController ModelSimplex ModelAsif.
From Verif Require ModelShare.
Import ListNotations.
Local Open Scope R_scope.
Local Open Scope monad_scope.

(** A backup controller object: its _generate_control and the Jacobian of it (controller.py 27-34),
    and its attributes. *)
Record controller (X : Type) : Type := mkController {
  k_gen : X -> R -> cstate -> gout;
  k_jac : X -> R -> cstate -> mat;
  k_ctl : ctl }.
Arguments mkController {X}.
Arguments k_gen {X}.
Arguments k_jac {X}.
Arguments k_ctl {X}.
Definition set_k_ctl {X} (c : ctl) (k : controller X) : controller X := mkController (k_gen k) (k_jac k) c.

(** A module that uses a backup controller: simplex (simplex.py 12-33) or implicit ASIF (asif.py
    473-486), with its constants and attributes.  The controller inside the attributes is a
    placeholder: the object used is the one referred to. *)
Inductive user (X P : Type) : Type :=
| USimplex (b : bounds) (latch : R) (pred : X -> R -> vec -> res X) (k : sx_kind) (s : simplex X P)
| UImplicit (cfg : asif_cfg X) (window : R) (pred : X -> R -> vec -> res X) (size : X -> nat) (s : amod X P ctl).
Arguments USimplex {X P}.
Arguments UImplicit {X P}.
Definition no_ctl : ctl := mkCtl CSNone CSNone CSNone.

(** One operation on a module whose controller is [k]: what the caller sees, the module, and the
    controller's attributes afterwards. *)
Definition use {X P} (o : op X P) (m : user X P) (k : controller X) : obs * (user X P * ctl) :=
  match m with
  | USimplex b latch pred kd s =>
      match cb_step (simplex_filter_control (mkSxCfg b latch pred (k_gen k)) kd) simplex_reset o
              (put_sx (set_ctl (k_ctl k) (get_sx s)) s) with
      | (ob, s') => (ob, (USimplex b latch pred kd (put_sx (set_ctl no_ctl (get_sx s')) s'), sx_ctl (get_sx s')))
      end
  | UImplicit cfg window pred size s =>
      match cb_step (implicit_asif_filter_control cfg (mkImpCfg window pred (k_gen k) (k_jac k) size)) implicit_asif_reset o
              (on_asif (set_as_ext (k_ctl k)) s) with
      | (ob, s') => (ob, (UImplicit cfg window pred size (on_asif (set_as_ext no_ctl) s'), as_ext (get_asif s')))
      end
  end.

(** The objects of the program, in the order in which they were built. *)
Record pool (X P : Type) : Type := mkPool {
  p_ctls : list (controller X);
  p_users : list (nat * user X P) }.
Arguments mkPool {X P}.
Arguments p_ctls {X P}.
Arguments p_users {X P}.

(** What a program does: build a controller (controller.py 18-24; nothing is built if that raises),
    build a module with a controller, use a module, or ask a controller for a control. *)
Inductive pool_op (X P : Type) : Type :=
| NewController (gen : X -> R -> cstate -> gout) (jac : X -> R -> cstate -> mat) (initial : cstate)
| NewUser (m : user X P) (r : nat)
| Use (i : nat) (o : op X P)
| Ask (r : nat) (x : X) (dt : R).
Arguments NewController {X P}.
Arguments NewUser {X P}.
Arguments Use {X P}.
Arguments Ask {X P}.

Definition pool_step {X P} (o : pool_op X P) (w : pool X P) : option obs * pool X P :=
  match o with
  | NewController gen jac initial =>
      match ctl_init initial with
      | Ok c => (None, mkPool (p_ctls w ++ [mkController gen jac c]) (p_users w))
      | Err _ => (None, w)
      end
  | NewUser m r => (None, mkPool (p_ctls w) (p_users w ++ [(r, m)]))
  | Use i o' =>
      match nth_error (p_users w) i with
      | Some (r, m) =>
          match nth_error (p_ctls w) r with
          | Some k =>
              match use o' m k with
              | (ob, (m', c')) =>
                  (Some ob, mkPool (ModelShare.set_at r (set_k_ctl c' k) (p_ctls w))
                                   (ModelShare.set_at i (r, m') (p_users w)))
              end
          | None => (None, w)
          end
      | None => (None, w)
      end
  | Ask r x dt =>
      match nth_error (p_ctls w) r with
      | Some k => (None, mkPool (ModelShare.set_at r
                    (set_k_ctl (snd (generate_control (k_gen k) x dt (k_ctl k))) k) (p_ctls w)) (p_users w))
      | None => (None, w)
      end
  end.

(** A program: what is seen of the uses, each with its module, and the objects. *)
Fixpoint pool_run {X P} (os : list (pool_op X P)) (w : pool X P) : list (nat * obs) * pool X P :=
  match os with
  | [] => ([], w)
  | o :: os' =>
      match pool_step o w with
      | (r, w1) =>
          match pool_run os' w1 with
          | (rs, w2) => (match r, o with Some a, Use i _ => (i, a) :: rs | _, _ => rs end, w2)
          end
      end
  end.
