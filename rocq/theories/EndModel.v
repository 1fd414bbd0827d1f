(** Model of the end points of the Gaussians,
    /repo/nonlinear_avoidance/gmm_learner/graph.py, and of the gradients and the rotation of the
    modulation, /repo/nonlinear_avoidance/dynamics/projected_rotation_dynamics.py. *)
Require Import Reals List Bool.
From Verif Require Import Base Vec Angle Pow RotModel TreeModel DynModel.
Import ListNotations.
Open Scope R_scope.

(** ** gmm_learner/graph.py *)
(** What [np.linalg.eigh] gives for a matrix of two rows: the eigenvalues and the rows of the
    matrix whose columns are the eigenvectors. *)
Record eig2 := mkEig { e_val0 : R; e_val1 : R; e_row0 : vec; e_row1 : vec }.
(** graph.py:213-243: the rotation matrix of the line 234, row by row, and its transpose. *)
Definition turn (angle : R) (x : vec) : vec :=
  [cos angle * nth 0 x 0 + sin angle * nth 1 x 0; - sin angle * nth 0 x 0 + cos angle * nth 1 x 0].
Definition turn_back (angle : R) (x : vec) : vec :=
  [cos angle * nth 0 x 0 - sin angle * nth 1 x 0; sin angle * nth 0 x 0 + cos angle * nth 1 x 0].
(** graph.py:203-256 [get_end_point] in the plane; [dir] is the direction of the velocity at the
    center.  The end point of line 245 is overwritten and left out. *)
Definition get_end_point (mean dir : vec) (e : eig2) : res vec :=
  let w0 := e_row0 e in
  if Req_EM_T (norm w0) 0 then Err ENaN
  else
    let u := vdiv w0 (norm w0) in
    let angle := - atan2 (nth 1 u 0) (nth 0 u 0) in
    let v0 := sqrt 2 * sqrt (e_val0 e) in
    let v1 := sqrt 2 * sqrt (e_val1 e) in
    let local := turn_back angle dir in
    do q0 <- fdiv (nth 0 local 0 * nth 0 local 0) (v0 * v0);
    do q1 <- fdiv (nth 1 local 0 * nth 1 local 0) (v1 * v1);
    let fac := q0 + q1 in
    do s <- fdiv 1 (sqrt fac);
    Ok (vadd mean (turn angle (vscale s local))).

(** ** dynamics/projected_rotation_dynamics.py *)
(** 399-408 [_get_lyapunov_gradient]; 410-419 [_get_projected_lyapunov_gradient] is the same at
    the reference point of the obstacle; 441-447 [get_base_convergence] gives the same values. *)
Definition lyapunov_gradient (attractor position : vec) : vec :=
  let attractor_dir := vsub attractor position in
  if Req_EM_T (norm attractor_dir) 0 then vzero (length position)
  else vdiv attractor_dir (norm attractor_dir).
Definition projected_lyapunov_gradient (attractor reference position : vec) : vec :=
  lyapunov_gradient attractor reference.

(** The rotation of the base [np.eye(dimension, 2)] by the angle zero, two or more dimensions. *)
Definition no_rotation (dimension : nat) : rotation :=
  mkRot (1 :: vzero (dimension - 1)) (0 :: 1 :: vzero (dimension - 2)) 0.
(** 421-439 [_get_vector_rotation_of_modulation]; [modulated] is [obstacle_avoidance_rotational]
    around the obstacle. *)
Definition rotation_of_modulation (modulated : vec -> vec -> vec) (dimension : nat)
    (position velocity : vec) : res rotation :=
  if Req_EM_T (norm velocity) 0 then Ok (no_rotation dimension)
  else
    let modulated_velocity := modulated position velocity in
    if Req_EM_T (norm modulated_velocity) 0 then Ok (no_rotation dimension)
    else from_directions (vdiv velocity (norm velocity))
                         (vdiv modulated_velocity (norm modulated_velocity)).

(** 93-118 [get_projected_gamma] of the gamma at the position: the attribute [rotation] does not
    exist, and nothing is returned below the largest gamma. *)
Definition get_projected_gamma (min_gamma max_gamma gamma : R) (attractor position : vec)
  : res (option R) :=
  if Rleb max_gamma gamma then Ok (Some max_gamma)
  else if Rleb min_gamma gamma
  then if Req_EM_T (norm (vsub attractor position)) 0 then Ok None else Err EAttr
  else Ok None.

(** 500-548 [compute_obstacle_convergence_sequence] of the two gamma values: line 517 calls
    [evaluate_rotation_position_to_transform] without the obstacle. *)
Definition compute_obstacle_convergence_sequence {A} (proj_gamma gamma : R) (initial : A) : res A :=
  do weight <- projected_weight proj_gamma gamma (1/2);
  if Rleb weight 0 then Ok initial else Err EType.
