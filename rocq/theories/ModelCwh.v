(** Model of the CWH zoo: run_time_assurance/zoo/cwh (utils.py, docking_2d.py, docking_3d.py,
    inspection_1v1.py, inspection_3d.py) and utils/utils.py lines 10-28. *)
From Coq Require Import String Reals List Bool ZArith.
From Verif Require Import Prelude Vec ModelBase ModelController ModelSimplex ModelAsif ModelConstraint.
Import ListNotations.
Local Open Scope R_scope.
Local Open Scope monad_scope.

(** zoo/cwh/utils.py 30-51: the planar matrices of generate_cwh_matrices. *)
Definition cwh_a2 (n : R) : mat :=
  [ [0; 0; 1; 0]; [0; 0; 0; 1]; [3 * n ^ 2; 0; 0; 2 * n]; [0; 0; -2 * n; 0] ].
Definition cwh_b2 (m : R) : mat := [ [0; 0]; [0; 0]; [1 / m; 0]; [0; 1 / m] ].

(** zoo/cwh/utils.py 52-72: the spatial ones. *)
Definition cwh_a3 (n : R) : mat :=
  [ [0; 0; 0; 1; 0; 0];
    [0; 0; 0; 0; 1; 0];
    [0; 0; 0; 0; 0; 1];
    [3 * n ^ 2; 0; 0; 0; 2 * n; 0];
    [0; 0; 0; -2 * n; 0; 0];
    [0; 0; - n ^ 2; 0; 0; 0] ].
Definition cwh_b3 (m : R) : mat :=
  [ [0; 0; 0]; [0; 0; 0]; [0; 0; 0]; [1 / m; 0; 0]; [0; 1 / m; 0]; [0; 0; 1 / m] ].

(** zoo/cwh/utils.py 27-74: generate_cwh_matrices. *)
Definition generate_cwh_matrices (m n : R) (mode : string) : res (mat * mat) :=
  if String.eqb mode "2d" then Ok (cwh_a2 n, cwh_b2 m)
  else if String.eqb mode "3d" then Ok (cwh_a3 n, cwh_b3 m)
  else Err AssertionError.

(** utils/utils.py 10-28. *)
Definition norm_with_delta (x : vec) (delta : R) : R := sqrt (sumsq x + delta).

(** docking_2d.py 149-155 and docking_3d.py 178-184: f and g of the docking modules; the matrix
    is one of the two above. *)
Definition docking_f (A : mat) (state : vec) : vec := mv A state.
Definition docking_g (B : mat) (state : vec) : mat := B.

(** The parameter dictionary of the relative velocity constraints (docking_2d.py 611). *)
Record rv_params : Type := mkRv { rv_v0 : R; rv_v1 : R; rv_distance : R }.

(** docking_2d.py 576-620 and docking_3d.py 637-680: the relative velocity constraints; no
    separate phi.  [k] is the number of position entries, 2 or 3. *)
Definition rel_vel_value (k : nat) (delta : R) (state : vec) (p : rv_params) : R :=
  rv_v0 p + rv_v1 p * (norm_with_delta (slice 0 k state) delta - rv_distance p)
  - norm_with_delta (slice k (2 * k) state) delta.
Definition rel_vel_2d (v0 v1 v0_distance delta : R) (alpha : option (R -> R)) (kw : ckw)
  : constraint vec rv_params :=
  new_constraint (rel_vel_value 2 delta) (rel_vel_value 2 delta)
    (match alpha with Some a => Some a | None => Some (polynomial (Some [0; 1 / 100; 0; 1 / 10])) end)
    (mkRv v0 v1 v0_distance) kw.
Definition rel_vel_3d (v0 v1 v0_distance delta : R) (alpha : option (R -> R)) (kw : ckw)
  : constraint vec rv_params :=
  new_constraint (rel_vel_value 3 delta) (rel_vel_value 3 delta)
    (match alpha with Some a => Some a | None => Some (polynomial (Some [0; 5 / 100; 0; 5 / 1000])) end)
    (mkRv v0 v1 v0_distance) kw.

(** The parameter dictionary of the distance constraints (inspection_1v1.py 773, 1008). *)
Record dist_params : Type := mkDist { dp_radius : R; dp_amax : R }.

(** inspection_1v1.py 768-769 and the like: the strengthener of the distance constraints. *)
Definition dist_alpha (alpha : option (R -> R)) : option (R -> R) :=
  match alpha with
  | Some a => Some a
  | None => Some (polynomial (Some [0; 1 / 100; 0; 1 / 1000]))
  end.

(** inspection_1v1.py 777-810 (with [k] = 2) and inspection_3d.py 333-372 (with [k] = 4): the
    value of a keep-out constraint for a relative position and velocity.  jnp.sqrt of a negative
    number is nan and [sqrt] gives 0, but the branch chosen only takes the root of a
    non-negative number when a_max is not negative.  At distance 0 jax gives nan; here the
    quotient is some number. *)
Definition keep_out_value (k : R) (dp dv : vec) (p : dist_params) : R :=
  let mag := norm dp in
  if Rleb (dp_radius p) mag
  then sqrt (k * dp_amax p * (mag - dp_radius p)) + dot dp dv / mag
  else - sqrt (k * dp_amax p * (- mag + dp_radius p)) + dot dp dv / mag.

(** inspection_1v1.py 747-810, ConstraintCWHChiefCollision. *)
Definition chief_collision (radius a_max : R) (alpha : option (R -> R)) (kw : ckw)
  : constraint vec dist_params :=
  new_constraint
    (fun s p => keep_out_value 2 (slice 0 3 s) (slice 3 6 s) p)
    (fun s p => norm (slice 0 3 s) - dp_radius p)
    (dist_alpha alpha) (mkDist radius a_max) kw.

(** inspection_3d.py 300-372, ConstraintCWHDeputyCollision. *)
Definition deputy_collision (radius a_max : R) (deputy : nat) (alpha : option (R -> R)) (kw : ckw)
  : constraint vec dist_params :=
  let dp := fun s : vec => vsub (slice 0 3 s) (slice (deputy * 6) (deputy * 6 + 3) s) in
  let dv := fun s : vec => vsub (slice 3 6 s) (slice (deputy * 6 + 3) (deputy * 6 + 6) s) in
  new_constraint
    (fun s p => keep_out_value 4 (dp s) (dv s) p)
    (fun s p => norm (dp s) - dp_radius p)
    (dist_alpha alpha) (mkDist radius a_max) kw.

(** inspection_1v1.py 988-1043, ConstraintCWHMaxDistance. *)
Definition max_distance_value (s : vec) (p : dist_params) : R :=
  let dp := slice 0 3 s in
  let dv := slice 3 6 s in
  let mag := norm dp in
  if Rleb mag (dp_radius p)
  then sqrt (2 * dp_amax p * (dp_radius p - mag)) - dot dp dv / mag
  else - sqrt (2 * dp_amax p * (- dp_radius p + mag)) - dot dp dv / mag.
Definition max_distance (r_max a_max : R) (alpha : option (R -> R)) (kw : ckw)
  : constraint vec dist_params :=
  new_constraint max_distance_value (fun s p => dp_radius p - norm (slice 0 3 s))
    (dist_alpha alpha) (mkDist r_max a_max) kw.

(** inspection_1v1.py 211-215: the braking acceleration handed to the distance constraints. *)
Definition inspection_a_max (u_max m n r_max vel_limit v0 v1 : R) : R :=
  let vmax := Rmin vel_limit (v0 + v1 * r_max) in
  u_max / m - 3 * n ^ 2 * r_max - 2 * n * vmax.

(** jnp.linspace(start, stop, num). *)
Definition linspace (start stop : R) (num : nat) : vec :=
  map (fun i => start + INR i * ((stop - start) / (INR num - 1))) (seq 0 num).

(** jnp.min of an array.  jnp.min of an empty array raises; no horizon of 0 steps is modelled. *)
Definition vmin (v : vec) : R :=
  match v with
  | [] => 0
  | a :: t => fold_left Rmin t a
  end.

(** The parameter dictionary of the passively-safe-maneuver constraints. *)
Record psm_params : Type := mkPsm { psm_radius : R; psm_dt : R }.

(** inspection_1v1.py 958-972 and inspection_3d.py 435-462: the closed-form position at time [t]
    of the deputy whose state starts at entry [o]. *)
Definition drift_position (n : R) (o : Z) (s : vec) (t : R) : vec :=
  let st := fun i => jax_get 0 s (o + i)%Z in
  [ (4 - 3 * cos (n * t)) * st 0%Z + sin (n * t) * st 3%Z / n + 2 / n * (1 - cos (n * t)) * st 4%Z;
    6 * (sin (n * t) - n * t) * st 0%Z + st 1%Z - 2 / n * (1 - cos (n * t)) * st 3%Z
      + (4 * sin (n * t) - 3 * n * t) * st 4%Z / n;
    st 2%Z * cos (n * t) + st 5%Z / n * sin (n * t) ].

(** inspection_1v1.py 958-974: get_future_state. *)
Definition psm_future (n : R) (s : vec) (t radius : R) : R := norm (drift_position n 0 s t) - radius.
(** inspection_1v1.py 949-956: _compute. *)
Definition psm_value (n : R) (steps : nat) (s : vec) (p : psm_params) : R :=
  vmin (map (fun t => psm_future n s t (psm_radius p))
          (linspace (psm_dt p) (INR steps * psm_dt p) steps)).
(** inspection_1v1.py 976-985: get_array. *)
Definition psm_array (n : R) (steps : nat) (s : vec) (p : psm_params) : res vec :=
  Ok (map (fun t => psm_future n s t (psm_radius p)) (linspace 0 (INR steps * psm_dt p) (steps + 1))).
(** inspection_1v1.py 908-985, ConstraintPassivelySafeManeuver. *)
Definition psm (radius n dt : R) (steps : nat) (alpha : option (R -> R)) (kw : ckw)
  : constraint vec psm_params :=
  new_constraint (psm_value n steps) (psm_value n steps) (dist_alpha alpha) (mkPsm radius dt) kw.

(** inspection_3d.py 435-464: get_future_state of the deputy version. *)
Definition psm_deputy_future (n : R) (deputy : nat) (s : vec) (t radius : R) : R :=
  norm (vsub (drift_position n 0 s t) (drift_position n (Z.of_nat (deputy * 6)) s t)) - radius.
(** inspection_3d.py 426-433. *)
Definition psm_deputy_value (n : R) (steps deputy : nat) (s : vec) (p : psm_params) : R :=
  vmin (map (fun t => psm_deputy_future n deputy s t (psm_radius p))
          (linspace (psm_dt p) (INR steps * psm_dt p) steps)).
(** inspection_3d.py 466-474: get_array maps with in_axes of two entries over three arguments;
    jax.vmap raises ValueError. *)
Definition psm_deputy_array (n : R) (steps deputy : nat) (s : vec) (p : psm_params) : res vec :=
  Err (ValueError "vmap in_axes must be an int, None, or a tuple of entries corresponding to the positional arguments").
(** inspection_3d.py 375-474, ConstraintPSMDeputy. *)
Definition psm_deputy (radius n dt : R) (steps deputy : nat) (alpha : option (R -> R)) (kw : ckw)
  : constraint vec psm_params :=
  new_constraint (psm_deputy_value n steps deputy) (psm_deputy_value n steps deputy)
    (dist_alpha alpha) (mkPsm radius dt) kw.

(** inspection_1v1.py 327-331: compute_state_dot. *)
Definition inspection_state_dot (n m sun_vel : R) (x u : vec) : vec :=
  vadd (mv (cwh_a3 n) (slice 0 6 x)) (mv (cwh_b3 m) u)
  ++ [sun_vel; fold_right Rplus 0 (map Rabs u) / m].
(** inspection_1v1.py 347-352: f and g. *)
Definition inspection_f (n sun_vel : R) (x : vec) : vec := mv (cwh_a3 n) (slice 0 6 x) ++ [sun_vel; 0].
Definition inspection_g (m : R) (x : vec) : mat := cwh_b3 m ++ [zeros 3; zeros 3].

(** inspection_1v1.py 354-364: _get_state.  The attribute sun_vel is the state. *)
Definition inspection_get_state (i : input vec) : M R vec :=
  match i with
  | InOther => raise AssertionError
  | InArray v =>
      if (length v <? 8)%nat
      then put 0 ;; ret (v ++ [0; 0])
      else ret v
  end.
(** inspection_1v1.py 366-368 and 612-614: get_sun_vector. *)
Definition sun_vector (x : vec) : vec := vneg [cos (jax_get 0 x 6%Z); sin (jax_get 0 x 6%Z); 0].

(** inspection_1v1.py 568-610: discrete_a_mat and discrete_b_mat. *)
Definition discrete_a (n dt : R) : mat :=
  let c := cos (n * dt) in
  let s := sin (n * dt) in
  [ [4 - 3 * c; 0; 0; 1 / n * s; 2 / n * (1 - c); 0];
    [6 * (s - n * dt); 1; 0; -2 / n * (1 - c); 1 / n * (4 * s - 3 * n * dt); 0];
    [0; 0; c; 0; 0; 1 / n * s];
    [3 * n * s; 0; 0; c; 2 * s; 0];
    [-6 * n * (1 - c); 0; 0; -2 * s; 4 * c - 3; 0];
    [0; 0; - n * s; 0; 0; c] ].
Definition discrete_b (n m dt : R) : mat :=
  let c := cos (n * dt) in
  let s := sin (n * dt) in
  map (map (fun a => a / m))
  [ [1 / n ^ 2 * (1 - c); 2 / n ^ 2 * (n * dt - s); 0];
    [-2 / n ^ 2 * (n * dt - s); 4 / n ^ 2 * (1 - c) - 3 / 2 * dt ^ 2; 0];
    [0; 0; 1 / n ^ 2 * (1 - c)];
    [1 / n * s; 2 / n * (1 - c); 0];
    [-2 / n * (1 - c); 4 / n * s - 3 * dt; 0];
    [0; 0; 1 / n * s] ].

(** inspection_1v1.py 559-566: next_state_differentiable. *)
Definition discrete_next (n m sun_vel : R) (x : vec) (dt : R) (u : vec) : vec :=
  vadd (mv (discrete_a n dt) (slice 0 6 x)) (mv (discrete_b n m dt) u)
  ++ [jax_get 0 x 6%Z - sun_vel * dt; 0].

(** scipy.linalg.block_diag of two matrices, the first with [k] columns, the second with [k']. *)
Definition block_diag (k k' : nat) (A B : mat) : mat :=
  map (fun r => r ++ zeros k') A ++ map (fun r => zeros k ++ r) B.
(** inspection_3d.py 128-132: the loop over range(num_deputies - 1) building A_n; after [i]
    rounds. *)
Fixpoint stack_a (A : mat) (i : nat) : mat :=
  match i with
  | O => A
  | S i' => block_diag (6 * (i' + 1)) 6 (stack_a A i') A
  end.
(** inspection_3d.py 134-137: the same for B_n, stacking zeros. *)
Fixpoint stack_b (B : mat) (i : nat) : mat :=
  match i with
  | O => B
  | S i' => stack_b B i' ++ map (fun _ => zeros 3) B
  end.
(** inspection_3d.py 245-251: f and g of the multi-deputy module. *)
Definition deputies_f (n sun_vel : R) (num : nat) (x : vec) : vec :=
  mv (stack_a (cwh_a3 n) (num - 1)) (slice 0 (num * 6) x) ++ [sun_vel].
Definition deputies_g (m : R) (num : nat) (x : vec) : mat :=
  stack_b (cwh_b3 m) (num - 1) ++ [zeros 3].
(** inspection_3d.py 253-263: _get_state. *)
Definition deputies_get_state (num : nat) (i : input vec) : M R vec :=
  match i with
  | InOther => raise AssertionError
  | InArray v =>
      if (length v <? 6 * num + 1)%nat
      then put 0 ;; ret (v ++ [0])
      else ret v
  end.

(** docking_2d.py 558-573 and docking_3d.py 619-634: _generate_control of the stopping
    controllers, with the gain matrix [K] (from scipy's Riccati solver, not modelled) and the
    number [k] of position entries. *)
Definition lqr_stop (k : nat) (K : mat) (state : vec) (dt : R) (cs : cstate) : gout :=
  let state_des := firstn k state ++ zeros (length state - k) in
  let error := vsub state state_des in
  GPair (mv (map vneg K) error) CSNone.
