(** C52 continued: the single step that the data tracking module offers for profiling. *)
From Coq Require Import String Reals List Bool ZArith Lia Lra.
From Verif Require Import Prelude Vec ModelBase ModelController ModelSimplex ModelConstraint ModelCwh ModelZoo ModelSampling ModelOneStep
  SpecCore SpecSampling ProofsBase ProofsSampling PropertiesSampling.
Import ListNotations.
Local Open Scope R_scope.

(** run_one_step is an episode of one step from the next sample: it takes one sample, whether or
    not that is a safe state and whether or not initial states are to be checked, and calls the
    module once with the control desired there. *)
Theorem C52_one_step :
  forall (X P A B : Type) (t : tester X P A B) s z s' z',
  run_one_step t (s, z) = (Ok tt, (s', z')) <->
  exists x0 x1 w, st_sample t z = (Ok x0, z') /\
    episode (st_filter t) (st_flag t) (st_pred t) (st_desired t) (st_dt t) x0 s [x1] [w] [st_flag t s'] s'.
Proof.
  intros X P A B t s z s' z'. unfold run_one_step, bind, on_sampler, on_module, zoom, lift, ret. cbn [fst snd]. split.
  - destruct (st_sample t z) as [[x0|e] z1] eqn:Es; [|discriminate]. cbn [fst snd].
    destruct (st_filter t (InArray x0) (st_dt t) (st_desired t x0) s) as [[w|e] s1] eqn:Ef; [|discriminate]. cbn [fst snd].
    destruct (st_pred t x0 (st_dt t) w) as [x1|e] eqn:Ep; [|discriminate].
    intros H. injection H as <- <-. exists x0, x1, w. split; [reflexivity|]. econstructor; eauto. constructor.
  - intros (x0 & x1 & w & Es & Ep). rewrite Es. cbn [fst snd].
    inversion Ep as [|x s0 w' s1 x' xs us bs s2 Hf Hp Hr]; subst. inversion Hr; subst. rewrite Hf. cbn [fst snd]. rewrite Hp. reflexivity.
Qed.
Print Assumptions C52_one_step.

(** So it leaves the module and the sampler as an episode does that takes the same sample and ends
    after its first step. *)
Theorem C52_one_step_as_episode :
  forall (X P A B : Type) (t : tester X P A B) rounds s z s' z',
  st_check t = false -> (forall x time, st_done t x time = true) ->
  (run_one_step t (s, z) = (Ok tt, (s', z')) <->
   exists r, simulate_episode t (S rounds) (s, z) = (Ok (Some r), (s', z'))).
Proof.
  intros X P A B t rounds s z s' z' Hc Hd. unfold run_one_step, simulate_episode, initial_state. rewrite Hc. cbn [episode_loop].
  unfold bind, on_sampler, on_module, zoom, lift, ret, get. cbn [fst snd].
  destruct (st_sample t z) as [[x0|e] z1]; cbn [fst snd]; [|split; [discriminate|intros (r & H); discriminate]].
  destruct (st_filter t (InArray x0) (st_dt t) (st_desired t x0) s) as [[w|e] s1]; cbn [fst snd]; [|split; [discriminate|intros (r & H); discriminate]].
  destruct (st_pred t x0 (st_dt t) w) as [x1|e]; cbn [fst snd]; [|split; [discriminate|intros (r & H); discriminate]].
  rewrite Hd. cbn [fst snd]. split.
  - intros H. injection H as <- <-. eexists. reflexivity.
  - intros (r & H). injection H as _ <- <-. reflexivity.
Qed.
Print Assumptions C52_one_step_as_episode.

(** A module that counts its calls, a sampler that counts its samples and starts where the only
    constraint is violated: the step is made all the same. *)
Example C52_one_step_case :
  let c := new_constraint (fun (x : vec) (_ : unit) => hd 0 x) (fun x _ => hd 0 x) None tt (with_bias 0) in
  let t := mkTester (fun _ _ u k => (Ok u, S k)) (fun k => Nat.eqb k 1) (fun _ => Some [("c"%string, c)])
             (fun k => (Ok [-3], S k)) (fun x dt u => Ok (vadd x [dt])) (fun _ => [1]) (fun _ _ => true) 1 1 true in
  run_one_step t (0%nat, 5%nat) = (Ok tt, (1%nat, 6%nat)) /\ ~ satisfies_all [("c"%string, c)] [-3] /\
  st_check t = true /\
  exists t' : tester vec unit nat nat, st_check t' = false /\ (forall x time, st_done t' x time = true) /\
    run_one_step t' (0%nat, 5%nat) = (Ok tt, (1%nat, 6%nat)).
Proof.
  intros c t. split; [reflexivity|]. split; [|split; [reflexivity|]].
  - intros H. destruct (H _ _ (or_introl eq_refl)) as [_ H2]. cbn in H2. lra.
  - exists (mkTester (st_filter t) (st_flag t) (st_constraints t) (st_sample t) (st_pred t) (st_desired t) (st_done t) 1 1%nat false).
    repeat split.
Qed.
