(** Model of the conic keep-out zone (zoo/cwh/inspection_1v1.py 813-906). *)
From Coq Require Import Reals List Ratan.
From Verif Require Import Prelude Vec.
Import ListNotations.
Local Open Scope R_scope.

(** jnp.cross of two vectors of three entries. *)
Definition cross (u v : vec) : vec :=
  match u, v with
  | [u1; u2; u3], [v1; v2; v3] => [u2 * v3 - u3 * v2; u3 * v1 - u1 * v3; u1 * v2 - u2 * v1]
  | _, _ => []
  end.

(** v / k for an array [v] and a number [k]; the caller takes care of k = 0. *)
Definition vdiv (v : vec) (k : R) : vec := map (fun a => a / k) v.

(** inspection_1v1.py 899-906: positive_distance_constraint and negative_distance_constraint,
    selected as in lines 879-888. *)
Definition conic_branch (delta_p delta_v : vec) (mag_delta_p a_max : R) : R :=
  if Rleb 0 mag_delta_p
  then sqrt (2 * a_max * mag_delta_p) + dot delta_p delta_v / mag_delta_p
  else - sqrt (- (2) * a_max * mag_delta_p) + dot delta_p delta_v / mag_delta_p.

(** inspection_1v1.py 852-889, _compute, as a function of the position, the velocity and the
    cone's axis (get_pos, get_vel and get_cone_vec applied to the state), the cone's angular
    velocity and the parameters.  jax numbers: a quotient 0/0 or x/0 makes the result nan,
    written None.  The quotients are by the norm of the axis, the norm of the position, the norm
    of pos_cone and mag_delta_p; where the last is 0 so is the numerator.  As everywhere, real
    numbers stand for floats. *)
Definition conic_value (fov a_max : R) (pos vel cone_vec cone_ang_vel : vec) : option R :=
  let c := vdiv cone_vec (norm cone_vec) in
  let theta := fov / 2 in
  let pos_cone := vsub pos (vscale (dot pos c) c) in
  let mult := cos theta * (norm pos_cone - tan theta * dot pos c) in
  let proj := vadd (vadd pos (vscale (mult * sin theta) c))
                   (vdiv (vscale (mult * cos theta) (vsub (vscale (dot pos c) c) pos)) (norm pos_cone)) in
  let vel_proj := cross cone_ang_vel proj in
  let delta_p := vsub pos proj in
  let delta_v := vsub vel vel_proj in
  let mag_delta_p := norm pos * sin (acos (dot c (vdiv pos (norm pos))) - theta) in
  if Req_EM_T (norm cone_vec) 0 then None
  else if Req_EM_T (norm pos) 0 then None
  else if Req_EM_T (norm pos_cone) 0 then None
  else if Req_EM_T mag_delta_p 0 then None
  else Some (conic_branch delta_p delta_v mag_delta_p a_max).

(** inspection_1v1.py 891-897, _phi. *)
Definition conic_phi (fov : R) (pos cone_vec : vec) : option R :=
  if Req_EM_T (norm pos) 0 then None
  else if Req_EM_T (norm cone_vec) 0 then None
  else Some (acos (dot (vdiv pos (norm pos)) (vdiv cone_vec (norm cone_vec))) - fov / 2).

(** inspection_1v1.py 366-368, get_sun_vector of the inspection modules: from the sun to the
    chief, for the sun's angle. *)
Definition sun_vector (angle : R) : vec := vneg [cos angle; sin angle; 0].

(** inspection_1v1.py 244-255: the constraint named sun of the inspection modules; the cone's
    angular velocity is (0, 0, sun_vel).  State: position, velocity, sun angle, ... *)
Definition sun_value (fov a_max sun_vel : R) (state : vec) : option R :=
  conic_value fov a_max (firstn 3 state) (firstn 3 (skipn 3 state)) (sun_vector (nth 6 state 0)) [0; 0; sun_vel].
Definition sun_phi (fov : R) (state : vec) : option R :=
  conic_phi fov (firstn 3 state) (sun_vector (nth 6 state 0)).
