(** Model of what the library's own modules assemble: the constraint dictionaries of the docking
    and inspection modules (zoo/cwh: docking_2d.py, docking_3d.py, inspection_1v1.py,
    inspection_3d.py) and the state wrappers (state.py and the zoo). *)
From Coq Require Import String Reals List Bool ZArith DecimalString.
From Verif Require Import Prelude Vec ModelBase ModelController ModelSimplex ModelAsif ModelConstraint ModelCwh ModelConic.
Import ListNotations.
Local Open Scope R_scope.
Local Open Scope monad_scope.

(** The parameter dictionaries of the conic keep-out zone (inspection_1v1.py 850) and of the
    higher order example (inspection_1v1.py 1063-1065). *)
Record cone_params : Type := mkCone { cn_fov : R; cn_amax : R }.

(** The constraints of one module have parameter dictionaries with different keys; in python
    they are all of type dict.  Here: a sum of the records used for them. *)
Inductive zparams : Type :=
| ZRv (p : rv_params)
| ZDist (p : dist_params)
| ZPsm (p : psm_params)
| ZLimit (l : R)
| ZCone (p : cone_params)
| ZRadius (r : R).
Definition as_rv (p : zparams) := match p with ZRv q => Some q | _ => None end.
Definition as_dist (p : zparams) := match p with ZDist q => Some q | _ => None end.
Definition as_psm (p : zparams) := match p with ZPsm q => Some q | _ => None end.
Definition as_limit (p : zparams) := match p with ZLimit q => Some q | _ => None end.
Definition as_cone (p : zparams) := match p with ZCone q => Some q | _ => None end.
Definition as_radius (p : zparams) := match p with ZRadius q => Some q | _ => None end.

(** A constraint seen with that common parameter type.  With parameters of another kind, for
    which python would raise KeyError, its own parameters are used; the modules never pass such
    parameters. *)
Definition wrap {P} (inj : P -> zparams) (prj : zparams -> option P) (c : constraint vec P)
  : constraint vec zparams :=
  let own := fun p => match prj p with Some q => q | None => c_params c end in
  mkConstraint (fun x p => c_fun c x (own p)) (fun x p => c_phi c x (own p)) (fun x p => c_grad c x (own p))
    (c_alpha c) (c_alpha_neg c) (c_bias c) (c_bias_neg c) (c_slack c) (c_sub c) (inj (c_params c)) (c_enabled c).

(** A keyword argument bias. *)
Definition with_bias (b : R) : ckw := mkKw None b (- (1 / 100)) None true sub_default.

(** A jax number as a real number; [nan] stands for nan. *)
Definition of_jax (nan : R) (o : option R) : R := match o with Some r => r | None => nan end.

(** inspection_1v1.py 813-897, ConstraintCWHConicKeepOutZone, for the functions get_pos, get_vel
    and get_cone_vec handed to it. *)
Definition conic (nan : R) (get_pos get_vel get_cone : vec -> vec) (ang_vel : vec) (a_max fov : R)
    (alpha : option (R -> R)) (kw : ckw) : constraint vec cone_params :=
  new_constraint
    (fun s p => of_jax nan (conic_value (cn_fov p) (cn_amax p) (get_pos s) (get_vel s) (get_cone s) ang_vel))
    (fun s p => of_jax nan (conic_phi (cn_fov p) (get_pos s) (get_cone s)))
    (match alpha with Some a => Some a | None => Some (polynomial (Some [0; 1 / 1000; 0; 1 / 10000])) end)
    (mkCone fov a_max) kw.

(** inspection_1v1.py 1046-1069, HOCBFExampleChiefCollision. *)
Definition hocbf_example (radius : R) (alpha : option (R -> R)) (kw : ckw) : constraint vec R :=
  let f := fun (s : vec) (r : R) => norm (slice 0 3 s) - r in
  new_constraint f f
    (match alpha with Some a => Some a | None => Some (polynomial (Some [0; 1 / 100; 0; 1 / 100])) end)
    radius kw.

(** docking_2d.py 30-35 and 197-216, docking_3d.py 31-36: the arguments of the docking modules
    that reach the constraints.  The planar module has no z_vel_limit. *)
Record dock_cfg : Type := mkDock {
  d_n : R; d_v0 : R; d_v1_coef : R; d_v0_distance : R;
  d_x_limit : R; d_y_limit : R; d_z_limit : R }.
(** Their defaults, for the planar and the spatial module. *)
Definition dock_default_2d (n : R) : dock_cfg := mkDock n (2 / 10) 2 0 10 10 10.
Definition dock_default_3d (n : R) : dock_cfg := mkDock n (2 / 10) 4 0 10 10 10.

(** docking_2d.py 576-602: the delta of the relative velocity constraints, 1e-5 by default. *)
Definition rv_delta : R := 1 / 100000.

(** docking_2d.py 96 and 116-142. *)
Definition docking_constraints_2d (c : dock_cfg) : dict (constraint vec zparams) :=
  let v1 := d_v1_coef c * d_n c in
  [ ("rel_vel"%string, wrap ZRv as_rv (rel_vel_2d (d_v0 c) v1 (d_v0_distance c) rv_delta None (with_bias (- (1 / 10000)))));
    ("x_vel"%string, wrap ZLimit as_limit (magnitude_limit (d_x_limit c) 2 None kw_default));
    ("y_vel"%string, wrap ZLimit as_limit (magnitude_limit (d_y_limit c) 3 None kw_default)) ].

(** docking_3d.py 111-169. *)
Definition docking_constraints_3d (c : dock_cfg) : dict (constraint vec zparams) :=
  let v1 := d_v1_coef c * d_n c in
  [ ("rel_vel"%string, wrap ZRv as_rv (rel_vel_3d (d_v0 c) v1 (d_v0_distance c) rv_delta None (with_bias (- (1 / 10000)))));
    ("x_vel"%string, wrap ZLimit as_limit (magnitude_limit (d_x_limit c) 3 None kw_default));
    ("y_vel"%string, wrap ZLimit as_limit (magnitude_limit (d_y_limit c) 4 None kw_default));
    ("z_vel"%string, wrap ZLimit as_limit (magnitude_limit (d_z_limit c) 5 None kw_default)) ].

(** inspection_1v1.py 165-194: the constructor's arguments of the inspection modules.  The
    option delta_v_limit is stored (207, 453) and read only by the module of ModelInspect.v. *)
Record insp_cfg : Type := mkInsp {
  i_m : R; i_n : R; i_chief : R; i_deputy : R; i_v0 : R; i_v1_coef : R; i_v0_distance : R;
  i_r_max : R; i_fov : R; i_vel_limit : R; i_sun_vel : R; i_bounds : bounds }.
(** inspection_1v1.py 31-43: the defaults (mass and mean motion come from another library). *)
Definition insp_default (m n : R) : insp_cfg :=
  mkInsp m n 5 5 (2 / 10) 2 0 1000 (60 * PI / 180) 1 (- n) (mkBounds (Some (BScalar (-1))) (Some (BScalar 1))).

(** inspection_1v1.py 40 and 211, 456, inspection_3d.py 120: U_MAX_DEFAULT. *)
Definition u_max_default : R := 1.
(** inspection_1v1.py 202 and 211-215 (the same in 447, 456-460 and inspection_3d.py 114, 120-124). *)
Definition i_v1 (c : insp_cfg) : R := i_v1_coef c * i_n c.
Definition i_a_max (c : insp_cfg) : R :=
  inspection_a_max u_max_default (i_m c) (i_n c) (i_r_max c) (i_vel_limit c) (i_v0 c) (i_v1 c).

(** inspection_1v1.py 366-376: get_sun_vector, get_pos_vector and get_vel_vector. *)
Definition get_sun_vector (s : vec) : vec := ModelCwh.sun_vector s.
Definition get_pos_vector (s : vec) : vec := slice 0 3 s.
Definition get_vel_vector (s : vec) : vec := slice 3 6 s.

(** The conic keep-out zone as all inspection modules build it for the chief. *)
Definition sun_constraint (nan : R) (c : insp_cfg) (get_sun : vec -> vec) (alpha : option (R -> R)) :=
  wrap ZCone as_cone
    (conic nan get_pos_vector get_vel_vector get_sun [0; 0; i_sun_vel c] (i_a_max c) (i_fov c) alpha
       (with_bias (- (1 / 1000)))).

(** The three velocity limits, the same in all inspection modules (e.g. inspection_1v1.py
    272-299). *)
Definition vel_constraints (limit : R) : dict (constraint vec zparams) :=
  let lim := fun i => wrap ZLimit as_limit
    (magnitude_limit limit i (Some (polynomial (Some [0; 1 / 10; 0; 1 / 100]))) (with_bias (- (1 / 1000)))) in
  [ ("x_vel"%string, lim 3%Z); ("y_vel"%string, lim 4%Z); ("z_vel"%string, lim 5%Z) ].

(** inspection_1v1.py 234-316, Inspection1v1RTA._setup_constraints. *)
Definition inspection_constraints (nan : R) (use_hocbf : bool) (c : insp_cfg) : res (dict (constraint vec zparams)) :=
  let radius := i_chief c + i_deputy c in
  let base :=
    [ ("rel_vel"%string, wrap ZRv as_rv
        (rel_vel_3d (i_v0 c) (i_v1 c) (i_v0_distance c) rv_delta None (with_bias (- (1 / 1000)))));
      ("sun"%string, sun_constraint nan c get_sun_vector None);
      ("r_max"%string, wrap ZDist as_dist (max_distance (i_r_max c) (i_a_max c) None (with_bias (- (1 / 1000)))));
      ("PSM"%string, wrap ZPsm as_psm (psm radius (i_n c) 1 100 None kw_default)) ]
    ++ vel_constraints (i_vel_limit c) in
  if use_hocbf
  then
    h <-- hocbf (wrap ZRadius as_radius (hocbf_example radius None kw_default)) 2
            (inspection_f (i_n c) (i_sun_vel c)) (polynomial (Some [0; 1 / 10; 0; 1 / 10])) kw_default ;;;
    Ok (dict_set base "chief_collision_hocbf" h)
  else
    Ok (dict_set base "chief_collision" (wrap ZDist as_dist (chief_collision radius (i_a_max c) None kw_default))).

(** inspection_1v1.py 479-557, DiscreteInspection1v1RTA._setup_constraints. *)
Definition discrete_inspection_constraints (nan : R) (c : insp_cfg) : dict (constraint vec zparams) :=
  let radius := i_chief c + i_deputy c in
  let alpha := Some (polynomial (Some [0; 1 / 1000; 0; 1 / 1000])) in
  [ ("chief_collision"%string, wrap ZDist as_dist (chief_collision radius (i_a_max c) None kw_default));
    ("rel_vel"%string, wrap ZRv as_rv
      (rel_vel_3d (i_v0 c) (i_v1 c) (i_v0_distance c) rv_delta
         (Some (polynomial (Some [0; 1 / 100; 0; 1 / 1000]))) (with_bias (- (1 / 1000)))));
    ("sun"%string, sun_constraint nan c get_sun_vector alpha);
    ("r_max"%string, wrap ZDist as_dist (max_distance (i_r_max c) (i_a_max c) alpha (with_bias (- (1 / 1000)))));
    ("PSM"%string, wrap ZPsm as_psm (psm radius (i_n c) 1 100 alpha kw_default)) ]
  ++ vel_constraints (i_vel_limit c).

(** inspection_3d.py 265-267: get_sun_vector of the module for several deputies; the sun's angle
    is the last entry of the state. *)
Definition last_sun_vector (s : vec) : vec := vneg [cos (jax_get 0 s (-1)); sin (jax_get 0 s (-1)); 0].

(** inspection_3d.py 289-297: get_sign.  At distance 0 the angle is nan, and the comparison is
    false. *)
Definition deputy_sign (i : nat) (s : vec) : R :=
  let pos := vsub (slice 0 3 s) (slice (6 * i) (6 * i + 3) s) in
  let cone := last_sun_vector s in
  if Req_EM_T (norm pos) 0 then 1
  else if Rltb (PI / 2) (acos (dot (vdiv pos (norm pos)) (vdiv cone (norm cone)))) then -1 else 1.
(** inspection_3d.py 277-287: get_p1_p2 and get_v1_v2. *)
Definition get_p1_p2 (i : nat) (s : vec) : vec :=
  vscale (deputy_sign i s) (vsub (slice 0 3 s) (slice (6 * i) (6 * i + 3) s)).
Definition get_v1_v2 (i : nat) (s : vec) : vec :=
  vscale (deputy_sign i s) (vsub (slice 3 6 s) (slice (6 * i + 3) (6 * i + 6) s)).

(** The name an f-string makes from a word and a number. *)
Definition numbered (word : string) (i : nat) : string :=
  (word ++ NilZero.string_of_uint (Nat.to_uint i))%string.

(** inspection_3d.py 222-242: one round of the loop over the other deputies. *)
Definition add_deputy (nan : R) (c : insp_cfg) (d : dict (constraint vec zparams)) (i : nat)
  : dict (constraint vec zparams) :=
  let d1 := dict_set d (numbered "deputy_collision_" i)
    (wrap ZDist as_dist (deputy_collision (i_deputy c * 2) (i_a_max c) i None kw_default)) in
  let d2 := dict_set d1 (numbered "deputy_sun_" i)
    (wrap ZCone as_cone
      (conic nan (get_p1_p2 i) (get_v1_v2 i) last_sun_vector [0; 0; i_sun_vel c] (i_a_max c) (i_fov c)
         (Some (polynomial (Some [0; 0; 0; 1 / 10]))) (with_bias (- (1 / 1000))))) in
  dict_set d2 (numbered "deputy_PSM_" i)
    (wrap ZPsm as_psm (psm_deputy (i_chief c + i_deputy c) (i_n c) 1 100 i None kw_default)).

(** inspection_3d.py 148-243, InspectionRTA._setup_constraints, for [num] deputies. *)
Definition deputies_constraints (nan : R) (num : nat) (c : insp_cfg) : dict (constraint vec zparams) :=
  let radius := i_chief c + i_deputy c in
  let base :=
    [ ("chief_collision"%string, wrap ZDist as_dist (chief_collision radius (i_a_max c) None kw_default));
      ("rel_vel"%string, wrap ZRv as_rv
        (rel_vel_3d (i_v0 c) (i_v1 c) (i_v0_distance c) rv_delta
           (Some (polynomial (Some [0; 0; 0; 1 / 10]))) (with_bias (- (2 / 1000)))));
      ("chief_sun"%string, sun_constraint nan c last_sun_vector None);
      ("r_max"%string, wrap ZDist as_dist (max_distance (i_r_max c) (i_a_max c) None kw_default));
      ("PSM"%string, wrap ZPsm as_psm (psm radius (i_n c) 1 100 None kw_default)) ]
    ++ vel_constraints (i_vel_limit c) in
  fold_left (add_deputy nan c) (seq 1 (num - 1)) base.

(** The wrapper classes: the properties of each with the entry it reads (docking_2d.py 38-79,
    docking_3d.py 39-99, inspection_1v1.py 46-123, integrator_1d.py 28-51). *)
Definition wrapper_class : Type := list (string * Z).
Definition docking_2d_state : wrapper_class :=
  [("x", 0%Z); ("y", 1%Z); ("x_dot", 2%Z); ("y_dot", 3%Z)]%string.
Definition docking_3d_state : wrapper_class :=
  [("x", 0%Z); ("y", 1%Z); ("z", 2%Z); ("x_dot", 3%Z); ("y_dot", 4%Z); ("z_dot", 5%Z)]%string.
Definition inspection_3d_state : wrapper_class :=
  [("x", 0%Z); ("y", 1%Z); ("z", 2%Z); ("x_dot", 3%Z); ("y_dot", 4%Z); ("z_dot", 5%Z);
   ("sun_angle", 6%Z); ("delta_v", 7%Z)]%string.
Definition integrator_1d_state : wrapper_class := [("x", 0%Z); ("x_dot", 1%Z)]%string.

(** state.py 17-26: the attribute vector is a jax array, and is the wrapper's state here.  A
    property reads vector[i] with jax indexing; an unknown attribute raises AttributeError. *)
Definition wrapper_get (cls : wrapper_class) (name : string) : M vec R :=
  i <- lift (match dict_get cls name with Ok i => Ok i | Err _ => Err AttributeError end) ;;
  v <- get ;;
  ret (jax_get 0 v i).
(** A setter executes self.vector[i] = val; item assignment to a jax array raises TypeError.
    (Python would let an unknown name be set as an attribute of the wrapper; not modelled.) *)
Definition wrapper_set (cls : wrapper_class) (name : string) (val : R) : M vec unit :=
  i <- lift (match dict_get cls name with Ok i => Ok i | Err _ => Err AttributeError end) ;;
  raise TypeError.
(** state.py 20-26: size and __len__. *)
Definition wrapper_size : M vec nat := v <- get ;; ret (length v).
