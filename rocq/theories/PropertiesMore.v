(** Further properties of backup controllers and of short look-ahead windows. *)
From Coq Require Import String Reals List Bool ZArith Lia Lra.
From Verif Require Import Prelude Vec ModelBase ModelController ModelSimplex SpecCore SpecHistory SpecSimplex
  ProofsBase ProofsHistory ProofsSimplex ProofsSimplex2 ProofsSimplex3 ProofsMore ExampleTools PropertiesBase.
Import ListNotations.
Local Open Scope R_scope.

(** ** C40: a controller state of an unsupported type is refused, when a controller is built
    with it and when it is saved; a supported one is not. *)
Theorem C40_unsupported_state :
  forall t c, ctl_init (CSOther t) = Err TypeError /\
    (ctl_state c = CSOther t -> ctl_save c = (Err TypeError, c)).
Proof.
  intros t c; split; [reflexivity|]. intros H. unfold ctl_save, bind, get, lift. rewrite H. reflexivity.
Qed.
Print Assumptions C40_unsupported_state.
Theorem C40_supported_state :
  forall initial, savable initial <-> exists c, ctl_init initial = Ok c.
Proof.
  intros [|v|d|t]; split; intros H; try (eexists; reflexivity); try (intros t'; discriminate).
  - exfalso; apply (H t); reflexivity.
  - destruct H as [c H]; discriminate.
Qed.
Print Assumptions C40_supported_state.
Example C40_supported_case : savable (CSArray [1; 2]) /\ ~ savable (CSOther 3).
Proof. split; [intros t; discriminate|intros H; apply (H 3%nat); reflexivity]. Qed.

(** ** C12: a look-ahead window shorter than one step, or negative, adds nothing.

    [short w o]: if [o] is a call of the filter, then its step size is positive and above [w]. *)
Definition short {X P} (w : R) (o : op X P) : Prop :=
  match o with OFilter _ dt _ => 0 < dt /\ w < dt | _ => True end.


(** Over whole histories, an implicit module whose window is shorter than every step returns the same controls,
    raises the same exceptions and goes through the same states as the explicit module, for every backup
    controller whose states can be saved. *)
Theorem C12_short_window :
  forall (X P : Type) (cfg : sx_cfg X) (w : R) defined to_use initial (s : simplex X P) os,
  (forall x dt st u st', savable st -> sc_gen cfg x dt st = GPair u st' -> savable st') ->
  (forall o, In o os -> short w o) ->
  simplex_init defined to_use initial = Ok s ->
  fst (cb_run (simplex_filter_control cfg (Implicit w)) simplex_reset os s) =
  fst (cb_run (simplex_filter_control cfg Explicit) simplex_reset os s) /\
  same_but_caches (snd (cb_run (simplex_filter_control cfg (Implicit w)) simplex_reset os s))
                  (snd (cb_run (simplex_filter_control cfg Explicit) simplex_reset os s)).
Proof.
  intros X P cfg w defined to_use initial s os G Ho Hi.
  destruct (agree_run cfg w os G Ho s (ctl_saved (sx_ctl (get_sx s))) (init_fine _ _ _ _ Hi)) as (c & bs & s1 & E1 & E2 & _).
  rewrite resave_same in E2. rewrite E1, E2. cbn [fst snd]. split; [reflexivity|].
  unfold same_but_caches. repeat split; reflexivity.
Qed.
Print Assumptions C12_short_window.

(** Non-vacuity: a negative window, and a history with an accepted and a refused control. *)
Example C12_short_case :
  (forall x dt st u st', savable st -> sc_gen (toy_cfg unit_box 2) x dt st = GPair u st' -> savable st') /\
  (forall o, In o [OFilter (InArray 0) 1 [3]; OFilter (InArray 0) 1 [-4]; OReset] -> short (X:=R) (P:=unit) (-5) o) /\
  simplex_init toy_constraints None CSNone = Ok toy.
Proof.
  split; [|split].
  - intros x dt st u st' Sv H. inversion H; subst. exact Sv.
  - intros o [<-|[<-|[<-|[]]]]; cbn; try lra; auto.
  - reflexivity.
Qed.
