(** The gain of the spatial stopping controller. *)
From Coq Require Import Reals List Lia Lra Psatz.
From Verif Require Import Prelude Vec ModelController ModelLqr SpecLqr ProofsVec ProofsLqr ProofsStop ProofsStop2 ProofsUnique.
Import ListNotations.
Local Open Scope R_scope.

Lemma form_entry dim P i j : sized dim dim P -> (i < dim)%nat -> (j < dim)%nat ->
  form P (unit_vec dim i) (unit_vec dim j) = nth j (nth i P []) 0.
Proof.
  intros (L & F) Hi Hj. unfold form. rewrite dot_unit by (rewrite ?mv_length; unfold vec in *; lia). unfold mv.
  rewrite (nth_indep _ 0 (dot [] (unit_vec dim j))) by (rewrite map_length; unfold vec in *; lia).
  rewrite (map_nth (fun r => dot r (unit_vec dim j)) P [] i).
  assert (Lr : length (nth i P []) = dim) by (apply (Forall_nth (fun row => length row = dim) P); [exact F|unfold vec in *; lia]).
  rewrite dot_comm, dot_unit by (unfold vec in *; lia). reflexivity.
Qed.
Lemma same_matrix dim P1 P2 : sized dim dim P1 -> sized dim dim P2 ->
  (forall x y, length x = dim -> length y = dim -> form P1 x y = form P2 x y) -> P1 = P2.
Proof.
  intros S1 S2 H. pose proof S1 as (L1 & F1). pose proof S2 as (L2 & F2).
  apply (nth_ext _ _ [] []); [exact (eq_trans L1 (eq_sym L2))|]. intros i Hi.
  assert (K1 : length (nth i P1 []) = dim) by (apply (Forall_nth (fun row => length row = dim) P1); [exact F1|unfold vec in *; lia]).
  assert (K2 : length (nth i P2 []) = dim) by (apply (Forall_nth (fun row => length row = dim) P2); [exact F2|unfold vec in *; lia]).
  apply (nth_ext _ _ 0 0); [exact (eq_trans K1 (eq_sym K2))|]. intros j Hj.
  assert (Hi' : (i < dim)%nat) by (unfold vec in *; lia). assert (Hj' : (j < dim)%nat) by (unfold vec in *; lia).
  refine (eq_trans (eq_sym (form_entry dim P1 i j S1 Hi' Hj')) (eq_trans _ (form_entry dim P2 i j S2 Hi' Hj'))).
  apply H; apply unit_vec_length.
Qed.

(** At most one solution. *)
Theorem riccati_unique dim A bt Q P1 P2 r q : riccati dim A bt Q r P1 -> riccati dim A bt Q r P2 -> 0 < r -> 0 < q -> length A = dim ->
  Forall (fun row => length row = dim) bt -> (forall x, length x = dim -> form Q x x = q * dot x x) -> P1 = P2.
Proof.
  intros R1 R2 Hr Hq LA Lb HQ. apply (same_matrix dim); [apply R1|apply R2|].
  intros x y Lx Ly. exact (riccati_same dim A bt Q P1 P2 r q R1 R2 Hr Hq LA Lb HQ x y Lx Ly).
Qed.

(** Reflection in the orbital plane. *)
Definition sg : vec := [1; 1; -1; 1; 1; -1].
Definition mirror (x : vec) : vec := map2 Rmult sg x.
Definition mirrored (P : mat) : mat := map2 (fun s row => vscale s (mirror row)) sg P.

Ltac six x L := destruct x as [|?a [|?b [|?c [|?d [|?e [|?f [|]]]]]]]; try discriminate L.
Ltac rows6 P S := destruct S as [?L ?F]; destruct P as [|?r [|?r [|?r [|?r [|?r [|?r [|]]]]]]]; try discriminate L;
  repeat match goal with F : Forall _ (_ :: _) |- _ => inversion F; clear F; subst end.

Lemma mirror_length x : length x = 6%nat -> length (mirror x) = 6%nat.
Proof. intros L. six x L. reflexivity. Qed.
Lemma mirror_dot x y : length x = 6%nat -> length y = 6%nat -> dot (mirror x) y = dot x (mirror y).
Proof. intros Lx Ly. six x Lx. six y Ly. cbn. ring. Qed.
Lemma mirror_twice x : length x = 6%nat -> mirror (mirror x) = x.
Proof. intros L. six x L. cbn. repeat apply (f_equal2 (@cons R)); try reflexivity; ring. Qed.
Lemma mirrored_mv P x : sized 6 6 P -> length x = 6%nat -> mv (mirrored P) x = mirror (mv P (mirror x)).
Proof.
  intros [L F] Lx. unfold mirrored. revert L F. generalize P. intros P' L F.
  destruct P' as [|r1 [|r2 [|r3 [|r4 [|r5 [|r6 [|]]]]]]]; try discriminate L.
  repeat match goal with F : Forall _ (_ :: _) |- _ => inversion F; clear F; subst end.
  unfold mv, mirror at 2, sg. cbn [map2 map].
  rewrite !dot_vscale_l, !mirror_dot by assumption. reflexivity.
Qed.
Lemma mirrored_sized P : sized 6 6 P -> sized 6 6 (mirrored P).
Proof.
  intros [L F]. destruct P as [|r1 [|r2 [|r3 [|r4 [|r5 [|r6 [|]]]]]]]; try discriminate L.
  repeat match goal with F : Forall _ (_ :: _) |- _ => inversion F; clear F; subst end.
  split; [reflexivity|]. unfold mirrored, sg. cbn [map2].
  repeat apply Forall_cons; try apply Forall_nil; rewrite vscale_length; apply mirror_length; assumption.
Qed.
Lemma mirrored_form P x y : sized 6 6 P -> length x = 6%nat -> length y = 6%nat -> form (mirrored P) x y = form P (mirror x) (mirror y).
Proof.
  intros S Lx Ly. unfold form. rewrite mirrored_mv by assumption. rewrite mirror_dot; [reflexivity|assumption|].
  rewrite mv_length. apply S.
Qed.

Lemma cost_form dim q x : (dim = 6 \/ dim = 4)%nat -> length x = dim -> form (diagonal dim q) x x = q * dot x x.
Proof.
  intros [ -> | -> ] L; [six x L|destruct x as [|a [|b [|c [|d [|]]]]]; try discriminate L]; unfold form, mv, diagonal; cbn; ring.
Qed.

Lemma mirrored_riccati n m q r P : riccati 6 (motion3 n) (thrust3_t m) (diagonal 6 q) r P -> riccati 6 (motion3 n) (thrust3_t m) (diagonal 6 q) r (mirrored P).
Proof.
  intros (S & Sy & Ps & Eq). split; [apply mirrored_sized, S|].
  split; [|split].
  - intros x y Lx Ly. rewrite !mirrored_form by assumption. apply Sy; apply mirror_length; assumption.
  - intros x Lx. rewrite mirrored_form by assumption. apply Ps, mirror_length, Lx.
  - intros x Lx. pose proof (Eq (mirror x) (mirror_length x Lx)) as E.
    rewrite !mirrored_form, mirrored_mv by (try assumption; rewrite mv_length; reflexivity).
    assert (C : mv (motion3 n) (mirror x) = mirror (mv (motion3 n) x)).
    { six x Lx. unfold mv, motion3, mirror, sg. cbn. repeat apply (f_equal2 (@cons R)); try reflexivity; ring. }
    rewrite C in E. rewrite !cost_form in E |- * by auto using mirror_length.
    assert (D : dot (mirror x) (mirror x) = dot x x) by (six x Lx; cbn; ring). rewrite D in E.
    assert (B : forall w, length w = 6%nat -> dot (mv (thrust3_t m) (mirror w)) (mv (thrust3_t m) (mirror w)) = dot (mv (thrust3_t m) w) (mv (thrust3_t m) w)).
    { intros w Lw. six w Lw. unfold thrust3_t, mv, mirror, sg. cbn. ring. }
    rewrite B; [exact E|]. rewrite mv_length. apply S.
Qed.
Lemma plane_symmetric n m q r P x y : 0 < r -> 0 < q -> riccati 6 (motion3 n) (thrust3_t m) (diagonal 6 q) r P ->
  length x = 6%nat -> length y = 6%nat -> form P (mirror x) (mirror y) = form P x y.
Proof.
  intros Hr Hq Ric Lx Ly. rewrite <- mirrored_form by (try assumption; apply Ric). f_equal.
  apply (riccati_unique 6 (motion3 n) (thrust3_t m) (diagonal 6 q) _ _ r q); auto using mirrored_riccati.
  - repeat constructor.
  - intros z Lz. apply cost_form; auto.
Qed.

Lemma rows_six (P : mat) : sized 6 6 P -> exists p11 p12 p13 p14 p15 p16 p21 p22 p23 p24 p25 p26 p31 p32 p33 p34 p35 p36 p41 p42 p43 p44 p45 p46
  p51 p52 p53 p54 p55 p56 p61 p62 p63 p64 p65 p66,
  P = [[p11; p12; p13; p14; p15; p16]; [p21; p22; p23; p24; p25; p26]; [p31; p32; p33; p34; p35; p36]; [p41; p42; p43; p44; p45; p46];
       [p51; p52; p53; p54; p55; p56]; [p61; p62; p63; p64; p65; p66]].
Proof.
  intros [L F]. destruct P as [|r1 [|r2 [|r3 [|r4 [|r5 [|r6 [|]]]]]]]; try discriminate L. clear L.
  repeat match goal with F : Forall _ (_ :: _) |- _ => inversion F; clear F; subst end.
  repeat match goal with H : length ?r = 6%nat |- _ => destruct r as [|?p [|?p [|?p [|?p [|?p [|?p [|]]]]]]]; try discriminate H; clear H end.
  do 36 eexists. reflexivity.
Qed.

Lemma spatial_velocity_gain n P : 0 <= n <= 105 / 100000 ->
  riccati 6 (motion3 n) (thrust3_t 12) (diagonal 6 (1 / 20)) 1000 P ->
  exists k11 k12 k22 k33, (forall vx vy vz, mv (stop_gain 3 (thrust3 12) P) [0; 0; 0; vx; vy; vz]
      = [k11 * vx + k12 * vy; k12 * vx + k22 * vy; k33 * vz]) /\
    21 / 100 <= k11 <= 42 / 100 /\ 21 / 100 <= k22 <= 42 / 100 /\ - (3 / 10000) <= k12 <= 3 / 10000 /\ 21 / 100 <= k33 <= 42 / 100.
Proof.
  intros Hn Ric. pose proof (plane_symmetric n 12 (1 / 20) 1000 P) as Mir. pose proof Ric as (Sz & Sym & Pos & Eq).
  assert (Zero : forall x y, length x = 6%nat -> length y = 6%nat -> mirror x = x -> mirror y = vneg y -> form P x y = 0 /\ form P y x = 0).
  { intros x y Lx Ly Mx My. pose proof (Mir x y ltac:(lra) ltac:(lra) Ric Lx Ly) as H. rewrite Mx, My in H.
    rewrite (Sym y x Ly Lx). unfold form in H |- *. replace (vneg y) with (vscale (-1) y) in H by (unfold vneg, vscale; apply map_ext; intros; ring).
    rewrite mv_vscale, dot_vscale_r in H. lra. }
  clear Mir.
  destruct (rows_six P Sz) as (p11 & p12 & p13 & p14 & p15 & p16 & p21 & p22 & p23 & p24 & p25 & p26 & p31 & p32 & p33 & p34 & p35 & p36
    & p41 & p42 & p43 & p44 & p45 & p46 & p51 & p52 & p53 & p54 & p55 & p56 & p61 & p62 & p63 & p64 & p65 & p66 & ->).
  assert (In : forall a b c d e f, let x := [a; b; 0; d; e; 0] in let y := [0; 0; c; 0; 0; f] in mirror x = x /\ mirror y = vneg y).
  { intros. cbn. split; repeat apply (f_equal2 (@cons R)); try reflexivity; ring. }
  assert (Z : forall a b c d e f, form _ [a; b; 0; d; e; 0] [0; 0; c; 0; 0; f] = 0 /\ form _ [0; 0; c; 0; 0; f] [a; b; 0; d; e; 0] = 0)
    by (intros; apply Zero; try reflexivity; apply (In a b c d e f)).
  clear Zero In. unfold form, mv in Z. cbn in Z.
  assert (Z13 : p13 = 0) by (pose proof (Z 1 0 1 0 0 0) as [H _]; lra).
  assert (Z23 : p23 = 0) by (pose proof (Z 0 1 1 0 0 0) as [H _]; lra).
  assert (Z43 : p43 = 0) by (pose proof (Z 0 0 1 1 0 0) as [H _]; lra).
  assert (Z53 : p53 = 0) by (pose proof (Z 0 0 1 0 1 0) as [H _]; lra).
  assert (Z16 : p16 = 0) by (pose proof (Z 1 0 0 0 0 1) as [H _]; lra).
  assert (Z26 : p26 = 0) by (pose proof (Z 0 1 0 0 0 1) as [H _]; lra).
  assert (Z46 : p46 = 0) by (pose proof (Z 0 0 0 1 0 1) as [H _]; lra).
  assert (Z56 : p56 = 0) by (pose proof (Z 0 0 0 0 1 1) as [H _]; lra).
  assert (Z31 : p31 = 0) by (pose proof (Z 1 0 1 0 0 0) as [_ H]; lra).
  assert (Z32 : p32 = 0) by (pose proof (Z 0 1 1 0 0 0) as [_ H]; lra).
  assert (Z34 : p34 = 0) by (pose proof (Z 0 0 1 1 0 0) as [_ H]; lra).
  assert (Z35 : p35 = 0) by (pose proof (Z 0 0 1 0 1 0) as [_ H]; lra).
  assert (Z61 : p61 = 0) by (pose proof (Z 1 0 0 0 0 1) as [_ H]; lra).
  assert (Z62 : p62 = 0) by (pose proof (Z 0 1 0 0 0 1) as [_ H]; lra).
  assert (Z64 : p64 = 0) by (pose proof (Z 0 0 0 1 0 1) as [_ H]; lra).
  assert (Z65 : p65 = 0) by (pose proof (Z 0 0 0 0 1 1) as [_ H]; lra).
  clear Z Ric Sz. subst p13 p23 p43 p53 p16 p26 p46 p56 p31 p32 p34 p35 p61 p62 p64 p65.
  (* the plane *)
  set (P4 := [[p11; p12; p14; p15]; [p21; p22; p24; p25]; [p41; p42; p44; p45]; [p51; p52; p54; p55]]).
  assert (Ric4 : riccati 4 (motion2 n) (thrust2_t 12) (diagonal 4 (1 / 20)) 1000 P4).
  { split; [split; [reflexivity|repeat constructor]|]. split; [|split].
    - intros x y Lx Ly. destruct x as [|x1 [|x2 [|x3 [|x4 [|]]]]]; try discriminate Lx. destruct y as [|y1 [|y2 [|y3 [|y4 [|]]]]]; try discriminate Ly.
      pose proof (Sym [x1; x2; 0; x3; x4; 0] [y1; y2; 0; y3; y4; 0] eq_refl eq_refl) as H. unfold form, mv, P4 in *. cbn in H |- *. lra.
    - intros x Lx. destruct x as [|x1 [|x2 [|x3 [|x4 [|]]]]]; try discriminate Lx.
      pose proof (Pos [x1; x2; 0; x3; x4; 0] eq_refl) as H. unfold form, mv, P4 in *. cbn in H |- *. lra.
    - intros x Lx. destruct x as [|x1 [|x2 [|x3 [|x4 [|]]]]]; try discriminate Lx.
      pose proof (Eq [x1; x2; 0; x3; x4; 0] eq_refl) as H. rewrite cost_form in H |- * by auto.
      unfold form, mv, motion2, motion3, thrust2_t, thrust3_t, P4 in *. cbn in H |- *. refine (eq_trans _ H). field. }
  destruct (planar_velocity_gain n P4 Hn Ric4) as (k11 & k12 & k22 & K & K1 & K2 & K3).
  exists k11, k12, k22, (p66 / 12000). split; [|split; [exact K1|split; [exact K2|split; [exact K3|]]]].
  { intros vx vy vz. pose proof (K vx vy) as H.
    unfold stop_gain, mm, mv, transpose, mscale, vscale, eye, unit_vec, thrust2, thrust3, P4 in H |- *. cbn in H |- *.
    injection H as H1 H2. repeat apply (f_equal2 (@cons R)); [rewrite <- H1|rewrite <- H2| |reflexivity]; field. }
  (* the axis across it *)
  assert (S36 : p63 = p36) by (pose proof (Sym [0; 0; 0; 0; 0; 1] [0; 0; 1; 0; 0; 0] eq_refl eq_refl) as H; unfold form, mv in H; cbn in H; lra).
  subst p63.
  assert (P66 : 0 <= p66) by (pose proof (Pos [0; 0; 0; 0; 0; 1] eq_refl) as H; unfold form, mv in H; cbn in H; lra).
  assert (E3 : p36 * p36 / 144000 + 2 * (n * n) * p36 = 1 / 20).
  { pose proof (Eq [0; 0; 1; 0; 0; 0] eq_refl) as H. rewrite cost_form in H by auto. unfold form, mv, motion3, thrust3_t in H. cbn in H. lra. }
  assert (E6 : p66 * p66 / 144000 = 1 / 20 + 2 * p36).
  { pose proof (Eq [0; 0; 0; 0; 0; 1] eq_refl) as H. rewrite cost_form in H by auto. unfold form, mv, motion3, thrust3_t in H. cbn in H. lra. }
  assert (N2 : 0 <= n * n <= 1103 / 1000000000).
  { pose proof (sq n). pose proof (pb n n (105 / 100000) (105 / 100000) ltac:(lra) ltac:(lra)). lra. }
  assert (L : - (1 / 40) <= p36) by (pose proof (sq p66); lra).
  assert (U : 80 <= p36).
  { apply Rnot_lt_le. intros H.
    assert (p36 * p36 <= 80 * 80) by (apply (pb p36 p36 80 80); lra).
    pose proof (pb (n * n) p36 (1103 / 1000000000) 80 ltac:(lra) ltac:(lra)). lra. }
  assert (U2 : p36 <= 85).
  { apply Rnot_lt_le. intros H. assert (85 * 85 <= p36 * p36) by (apply Rmult_le_compat; lra).
    assert (0 <= n * n * p36) by (apply Rmult_le_pos; lra). lra. }
  assert (- 5000 <= p66 <= 5000) by (apply sb; lra).
  assert (2520 <= p66); [|lra]. apply Rnot_lt_le. intros H'.
  assert (p66 * p66 <= 2520 * 2520) by (apply (pb p66 p66 2520 2520); lra). lra.
Qed.
