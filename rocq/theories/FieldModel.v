(** Model of further vector fields: /repo/nonlinear_avoidance/dynamics/
    locally_rotated_linear_dynamics.py, spiral_dynamics.py, deviation_dynamics.py and
    nonlinear_deviation.py. *)
Require Import Reals List Bool.
From Verif Require Import Base Vec Angle Pow RotModel ProjModel DynModel RotAvoidModel.
Import ListNotations.
Open Scope R_scope.

(** ** dynamics/locally_rotated_linear_dynamics.py *)
(** Attributes of [LocallyRotatedFromObtacle]; [lr_gamma] is [obstacle.get_gamma] in the global
    frame.  The rotation is missing when the constructor has returned early. *)
Record local_rot := mkLocal {
  lr_gamma : vec -> R; lr_attractor : vec; lr_speed : R; lr_min : R; lr_max : R;
  lr_influence : R; lr_rotation : option rotation }.
(** locally_rotated_linear_dynamics.py:44-73 [__init__]; [center] is the center of the obstacle.
    Lines 63-65 only warn and return.  Simplified: a rotation which holds NaN (reference velocity
    opposite to the attractor) is an error here, in the code of the first evaluation. *)
Definition local_rot_init (gamma : vec -> R) (center attractor reference : vec) (gmin gmax : R)
  : res local_rot :=
  let speed := norm reference in
  if Req_EM_T speed 0 then Err EValue
  else
    let reference := vdiv reference speed in
    let attractor_dir := vsub attractor center in
    let attr_norm := norm attractor_dir in
    if Req_EM_T attr_norm 0 then Ok (mkLocal gamma attractor speed gmin gmax 3 None)
    else
      do r <- from_directions (vdiv attractor_dir attr_norm) reference;
      Ok (mkLocal gamma attractor speed gmin gmax 3 (Some r)).
(** locally_rotated_linear_dynamics.py:201-208. *)
Definition local_rot_weight (gamma gmin gmax : R) : R :=
  if Rleb gamma gmin then 1
  else if Rltb gmax gamma then 0
  else (gmax - gamma) / (gmax - gmin).
(** locally_rotated_linear_dynamics.py:200-240 [evaluate].  Without rotation the first attribute
    which is read ([min_gamma]) is missing.  Line 230: a division of numpy floats by zero gives
    infinity; the rotation of line 232 is NaN in that case. *)
Definition local_rot_evaluate (ds : local_rot) (position : vec) : res vec :=
  match lr_rotation ds with
  | None => Err EAttr
  | Some rotation =>
      let weight := local_rot_weight (lr_gamma ds position) (lr_min ds) (lr_max ds) in
      let attractor_dir := vsub (lr_attractor ds) position in
      let dist := norm attractor_dir in
      if Req_EM_T dist 0 then Ok (vzero (length position))
      else
        let attractor_dir := vdiv attractor_dir dist in
        let dot_product := dot attractor_dir (rb0 rotation) in
        if Reqb dot_product 0 || Reqb weight 0
        then Ok (vscale (Rmin dist (lr_speed ds)) attractor_dir)
        else
          let attr_weight :=
            if Rltb weight 1 then
              let tmp := 1 / (1 - weight) in
              tmp / (tmp + Rmax (lr_influence ds / dist) 0)
            else 1 in
          do e <- fdiv 2 (1 + dot_product);
          do w <- fpow weight e;
          let weight := w * attr_weight in
          do global_rotation <- from_directions (rb0 rotation) attractor_dir;
          do local_rotation <- rotate_vector_rotation global_rotation rotation 1;
          Ok (vscale (Rmin dist (lr_speed ds)) (rotate local_rotation attractor_dir weight))
  end.

(** ** dynamics/spiral_dynamics.py *)
(** A frame in space: origin and the three columns of the rotation matrix. *)
Record frame3 := mkFrame { fr_origin : vec; fr_x : vec; fr_y : vec; fr_z : vec }.
(** vartools [Pose.transform_position_to_relative], [transform_position_from_relative]. *)
Definition to_relative (f : frame3) (p : vec) : vec :=
  let d := vsub p (fr_origin f) in [dot (fr_x f) d; dot (fr_y f) d; dot (fr_z f) d].
Definition from_relative (f : frame3) (p : vec) : vec :=
  vadd (fr_origin f)
    (vadd (vscale (nth 0 p 0) (fr_x f)) (vadd (vscale (nth 1 p 0) (fr_y f)) (vscale (nth 2 p 0) (fr_z f)))).
(** spiral_dynamics.py:47-59 [SpiralingDynamics3D.evaluate]; the circular dynamics (with a trivial
    pose and maximum velocity one) have the given radius.  Line 52 transforms the velocity like a
    position. *)
Definition spiral_evaluate (pose : frame3) (direction : vec) (radius speed : R) (position : vec)
  : res vec :=
  let local_position := to_relative pose position in
  do v2 <- simple_circular radius 1 (tl local_position);
  let rotating := from_relative pose (0 :: v2) in
  let combined := vadd rotating direction in
  if Req_EM_T (norm combined) 0 then Err ENaN
  else Ok (vscale speed (vdiv combined (norm combined))).
(** spiral_dynamics.py:105-126 [SpiralingAttractorDynamics3D.evaluate]: the rotation is around the
    second axis of the global frame. *)
Definition spiral_attractor_evaluate (attractor : vec) (radius speed : R) (position : vec)
  : res vec :=
  do v2 <- simple_circular radius 1 [nth 0 position 0; nth 2 position 0];
  let rotating := [nth 0 v2 0; 0; nth 1 v2 0] in
  let to_attractor := vsub attractor position in
  let base_norm := norm to_attractor in
  let to_attractor := if Rltb speed base_norm then vscale speed (vdiv to_attractor base_norm)
                      else to_attractor in
  let combined := vadd rotating to_attractor in
  if Req_EM_T (norm combined) 0 then Err ENaN
  else Ok (vscale speed (vdiv combined (norm combined))).

(** ** dynamics/deviation_dynamics.py *)
(** deviation_dynamics.py:74-82: the name [ind_zero] is bound to the gamma values themselves. *)
Definition rotated_weights (gammas : list R) : res (list R) :=
  if existsb (fun g => Rleb g 1) gammas
  then if Req_EM_T (rsum gammas) 0 then Err ENaN
       else Ok (map (fun g => g / rsum gammas) gammas)
  else
    let w := map (fun g => 1 / (g - 1)) gammas in
    if Rleb 1 (rsum w) then Ok (map (fun x => x / rsum w) w) else Ok w.
Definition weighted_columns (n : nat) (weights : list R) (columns : list vec) : vec :=
  fold_right (fun wc acc => vadd (vscale (fst wc) (snd wc)) acc) (vzero n) (combine weights columns).
(** deviation_dynamics.py:63-160 [ObstacleRotatedDynamics.evaluate] with a fresh object and
    [update_center_dynamics]; an obstacle is its gamma value at the position and its center.
    An obstacle with gamma zero keeps zero columns (lines 87-88).  The sum of lines 154-158 is
    not used. *)
Definition obstacle_rotated (n : nat) (initial zero : vec -> vec) (velocity_scaling dotprod_factor : R)
    (obstacles : list (R * vec)) (position : vec) : res vec :=
  do weights <- rotated_weights (map fst obstacles);
  let column (f : vec -> vec) (o : R * vec) := if Req_EM_T (fst o) 0 then vzero n else f (snd o) in
  let base0 := weighted_columns n weights (map (column zero) obstacles) in
  let base1 := weighted_columns n weights (map (column initial) obstacles) in
  if Reqb (norm base0) 0 || Reqb (norm base1) 0 then Ok (initial position)
  else
    let d0 := vdiv base0 (norm base0) in
    let d1 := vdiv base1 (norm base1) in
    do r <- from_directions d0 d1;
    let weight := Rmin (Rmin (norm base0) (norm base1) / velocity_scaling) 1 in
    let dot_prod_weight := Rmin (dotprod_factor * (dot d1 d1 + 1)) 1 in
    Ok (rotate r (zero position) (weight * dot_prod_weight)).

(** ** dynamics/nonlinear_deviation.py *)
(** Coordinates in the columns of a base after the first. *)
Definition embed (n : nat) (columns : list vec) (coordinates : vec) : vec :=
  weighted_columns n coordinates columns.
(** vartools [get_angle_space_inverse(angle, null_matrix=base)]. *)
Definition angle_space_inverse (n : nat) (b0 : vec) (columns : list vec) (angle : vec) : vec :=
  vector_from_angle b0 (embed n columns angle).
(** nonlinear_deviation.py:144-145 and 297-298: an angle is limited to [maximal]. *)
Definition limit_angle (maximal : R) (angle : vec) : vec :=
  if Rltb maximal (norm angle) then vscale maximal (vdiv angle (norm angle)) else angle.
(** nonlinear_deviation.py:85-146 [DeviationOfConstantFlow.evaluate]: [columns] are the columns of
    [self.base] after the first, [predict] is the regressor. *)
Definition constant_flow_bound : R := 99 / 100 * PI / 2.
Definition constant_flow (columns : list vec) (predict : vec -> vec) (reference position : vec) : res vec :=
  let n := length reference in
  if Req_EM_T (norm reference) 0 then Err ENaN
  else
    let b0 := vdiv reference (norm reference) in
    let angle := limit_angle constant_flow_bound (predict position) in
    Ok (vscale (norm reference) (angle_space_inverse n b0 columns angle)).
(** nonlinear_deviation.py:148-153 [evaluate_without_lyapunov_check]. *)
Definition constant_flow_unchecked (columns : list vec) (predict : vec -> vec) (reference position : vec) : res vec :=
  let n := length reference in
  if Req_EM_T (norm reference) 0 then Err ENaN
  else
    let b0 := vdiv reference (norm reference) in
    Ok (vscale (norm reference) (angle_space_inverse n b0 columns (predict position))).

(** nonlinear_deviation.py:246-255 and 302: the array of the null matrices has the shape
    (dimension, dimension, 2, dimension) and is indexed with the axis and the side. *)
Definition null_matrix_slot (dimension axis side : nat) : res unit :=
  if (Nat.ltb axis 2 && Nat.ltb side dimension)%bool then Ok tt else Err EIndex.
(** nonlinear_deviation.py:240-273 [fit_from_velocities], the writes of the null matrices. *)
Definition perpendicular_fit (dimension : nat) : res unit :=
  fold_left (fun acc axis => do _ <- acc;
               do _ <- null_matrix_slot dimension axis 0; null_matrix_slot dimension axis 1)
    (seq 0 dimension) (Ok tt).
(** nonlinear_deviation.py:328-332 [get_weights]. *)
Definition axis_weights (p : vec) : res (list R) :=
  let w := map Rabs p in
  if Req_EM_T (rsum w) 0 then Err ENaN else Ok (map (fun x => x / rsum w) w).
(** nonlinear_deviation.py:317-318 [get_velocity_factor]. *)
Definition velocity_factor (prox max_velocity distance : R) : R := Rmin 1 (distance / prox) * max_velocity.
(** nonlinear_deviation.py:214-225, 284-315 [PerpendicularDeviatoinOfLinearDS.evaluate] in the
    plane (the only dimension in which the fit succeeds).  [orth] is the second column of
    [get_orthogonal_basis], [predict axis positive] the regressor of the axis and the side. *)
Definition perpendicular_axis (axis : nat) (positive : bool) : vec :=
  let s := if positive then -1 else 1 in if Nat.eqb axis 0 then [s; 0] else [0; s].
Definition perpendicular_max_angle : R := PI * (49 / 100).
Definition perpendicular_prediction (orth : vec -> vec) (predict : nat -> bool -> vec -> vec)
    (relative : vec) (axis : nat) : vec :=
  let positive := negb (Rltb (nth axis relative 0) 0) in
  let null := perpendicular_axis axis positive in
  angle_space_inverse 2 null [orth null]
    (limit_angle perpendicular_max_angle (predict axis positive relative)).
Definition perpendicular_evaluate (orth : vec -> vec) (predict : nat -> bool -> vec -> vec)
    (prox max_velocity : R) (attractor position : vec) : res vec :=
  let relative := vsub position attractor in
  let distance := norm relative in
  if Req_EM_T distance 0 then Ok (vzero (length position))
  else
    let null := vscale (-1) (vdiv relative distance) in
    do weights <- axis_weights relative;
    do d <- directional_weighted_sum (mkBase null (orth null)) weights
              (map (perpendicular_prediction orth predict relative) [0%nat; 1%nat]);
    Ok (vscale (velocity_factor prox max_velocity distance) d).
(** nonlinear_deviation.py:320-326 [evaluate_convergence_velocity]: the limited velocity is
    assigned to the name of the norm. *)
Definition perpendicular_convergence (attractor position : vec) : vec := vsub attractor position.
