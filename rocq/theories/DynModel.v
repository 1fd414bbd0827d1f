(** Model of the utilities and dynamical systems,
    /repo/nonlinear_avoidance/utils.py, dynamics/*.py and gmm_learner/math_tools.py. *)
Require Import Reals List Bool.
From Verif Require Import Base Vec Angle Pow RotModel.
Import ListNotations.
Open Scope R_scope.

(** utils.py:93-111 [project_point_onto_ray]; [r0], [r1] are the columns of [ray]. *)
Definition project_point_onto_ray (point r0 r1 : vec) : vec :=
  let d := vsub r1 r0 in
  if Req_EM_T (norm d) 0 then r0
  else
    let d := vdiv d (norm d) in
    let p := dot d (vsub point r0) in
    if Rleb p 0 then r0 else vadd (vscale p d) r0.

(** utils.py:73-90 [get_orthonormal_spanning_basis]: the columns of the result.
    The branch for |dot| < 1 divides by the norm of the perpendicular part. *)
Definition get_orthonormal_spanning_basis (v1 v2 : vec) : res (vec * vec) :=
  let d := dot v1 v2 in
  if Rltb (Rabs d) 1 then
    let p := vsub v2 (vscale d v1) in
    if Req_EM_T (norm p) 0 then Err ENaN else Ok (v1, vdiv p (norm p))
  else do p <- perp_first_two v1; Ok (v1, p).

(** ** dynamics/segmented_dynamics.py *)
Record segment := mkSeg { s_start : vec; s_end : vec; s_dir : vec; s_len : R }.
(** segmented_dynamics.py:24-44 [DynamicsSegment]; the orientation reads two coordinates. *)
Definition create_segment (start end_ : vec) : res segment :=
  let d := vsub end_ start in
  let l := norm d in
  if Req_EM_T l 0 then Err EValue
  else match d with
       | _ :: _ :: _ => Ok (mkSeg start end_ (vdiv d l) l)
       | _ => Err EIndex
       end.
(** segmented_dynamics.py:46-51 [get_distance]. *)
Definition get_distance (s : segment) (position : vec) : R :=
  let tt := dot (vsub position (s_start s)) (s_dir s) in
  let tt := Rmin (s_len s) (Rmax tt 0) in
  let projection := vadd (s_start s) (vscale tt (s_dir s)) in
  norm (vsub position projection).
(** segmented_dynamics.py:53-61 [evaluate], [perpendicular_factor = 3]. *)
Definition segment_evaluate (s : segment) (position : vec) : res vec :=
  let tt := dot (vsub position (s_start s)) (s_dir s) in
  let projection := vadd (s_start s) (vscale tt (s_dir s)) in
  let dir_perp := vsub projection position in
  let v := vadd (vscale 3 dir_perp) (s_dir s) in
  if Req_EM_T (norm v) 0 then Err ENaN else Ok (vdiv v (norm v)).

(** segmented_dynamics.py:77-87 [WavyPathFollowing], attractor = end of the last segment. *)
Definition path_attractor (segs : list segment) : vec := s_end (last segs (mkSeg [] [] [] 0)).
(** segmented_dynamics.py:97-102 [evaluate_global_dynamics]. *)
Definition global_direction (segs : list segment) (position : vec) : vec :=
  let d := vsub (path_attractor segs) position in
  if Req_EM_T (norm d) 0 then d else vdiv d (norm d).
(** segmented_dynamics.py:104-134 [get_weights]. *)
Definition path_weights (segs : list segment) (position : vec) (weight_power weight_factor dotprod_power : R)
  : res (list R) :=
  match segs with
  | [] => Err EIndex
  | _ =>
      let distances := map (fun s => get_distance s position) segs in
      if existsb (fun d => Reqb d 0) distances
      then Ok (map (fun d => if Reqb d 0 then 1 else 0) distances ++ [0])
      else
        do ws <- mapM (fun d => fpow (weight_factor / d) weight_power) distances;
        let dp := dot (global_direction segs position) (s_dir (last segs (mkSeg [] [] [] 0))) in
        do ws <- (if Rltb dp 0 then do f <- fpow (1 + dp) dotprod_power; Ok (map (fun w => w * f) ws)
                  else Ok ws);
        if Rltb (rsum ws) 1 then Ok (ws ++ [1 - rsum ws])
        else Ok (map (fun w => w / rsum ws) ws ++ [0])
  end.
(** segmented_dynamics.py:172-178 [evaluate_magnitude]; maximum velocity and slow down distance
    are one. *)
Definition path_magnitude (segs : list segment) (position : vec) (maximum_velocity slowdown : R) : R :=
  let d := norm (vsub position (path_attractor segs)) in
  if Rltb slowdown d then maximum_velocity else d / slowdown * maximum_velocity.
(** segmented_dynamics.py:189-205 [create_segment_from_points]. *)
Fixpoint segments_from_points (points : list vec) (margin : R) : res (list segment) :=
  match points with
  | p :: ((q :: _) as points') =>
      let d := vsub q p in
      if Req_EM_T (norm d) 0 then Err EValue
      else
        let d := vdiv d (norm d) in
        do s <- create_segment (vadd p (vscale margin d)) (vsub q (vscale margin d));
        do ss <- segments_from_points points' margin;
        Ok (s :: ss)
  | _ => Ok []
  end.

(** ** dynamics/circular_dynamics.py *)
(** circular_dynamics.py:243-246 [get_phi]; copysign of a zero difference is zero. *)
Definition get_phi (radius x y : R) : R :=
  let difference := (x * x + y * y) - radius * radius in
  if Rltb difference 0 then - sqrt (Rabs difference) else sqrt (Rabs difference).
(** circular_dynamics.py:248-254 [get_grad]. *)
Definition get_grad (x y : R) : R * R :=
  let n := norm [x; y] in if Req_EM_T n 0 then (0, 0) else (x / n, y / n).
(** circular_dynamics.py:256-283 [SimpleCircularDynamics.evaluate], relative position to relative
    velocity ([k1 = k2 = 1/radius], lines 226-227). *)
Definition simple_circular (radius maximum_velocity : R) (p : vec) : res vec :=
  match p with
  | x :: y :: rest =>
      let pos_norm := norm p in
      if Req_EM_T pos_norm 0 then Ok (vzero (length p))
      else
        let g := get_grad x y in
        let phi := get_phi radius x y in
        let k := 1 / radius in
        let direction := (- snd g - k * phi * fst g) :: (fst g - k * phi * snd g)
                         :: map (fun z => (-1) * z * k) rest in
        let dir_norm := norm direction in
        if Req_EM_T dir_norm 0 then Ok direction
        else
          let nd := vdiv direction dir_norm in
          let slow := 1 / 3 * radius in
          Ok (if Rltb pos_norm slow
              then vscale maximum_velocity (vscale (pos_norm / slow) nd)
              else nd)
  | _ => Err EValue
  end.

(** circular_dynamics.py:145-162 [sigmoid]. *)
Definition sigmoid (x logistic_growth max_exponent margin : R) : R :=
  let e := logistic_growth * x in
  if Rltb max_exponent e then 1 - margin
  else if Rltb e ((-1) * max_exponent) then margin
  else Rmax (Rmin (1 / (1 + exp ((-1) * e))) (1 - margin)) margin.
(** circular_dynamics.py:164-175 [get_rotation_weight], at a nonzero position. *)
Definition circular_weight (radius inside outside : R) (p : vec) : res R :=
  let n := norm p in
  do d <- (if Rltb n radius then do q <- fdiv radius n; Ok ((1 - q) * inside)
           else do q <- fdiv 1 radius; Ok ((n - radius) * q * outside));
  Ok (2 * sigmoid d 1 50 (/ 1000000000)).
(** circular_dynamics.py:92-132, 177-189 [CircularRotationDynamics.evaluate] in the plane,
    [direction] is the sign of the rotation; [base_matrix] (and its transpose) are arguments. *)
Definition circular_rotation (base base_t : vec -> vec)
    (radius velocity inside outside direction : R) (position : vec) : res vec :=
  do rot <- from_directions [1; 0] [0; if Rltb direction 0 then -1 else 1];
  if Req_EM_T (norm position) 0 then Ok position
  else
    let p := base_t position in
    do w <- circular_weight radius inside outside p;
    let init := if Req_EM_T (norm p) 0 then p else vdiv p (norm p) in
    Ok (base (vscale velocity (rotate rot init w))).

(** ** dynamics/wavy_attractor_dynamics.py *)
(** wavy_attractor_dynamics.py:20-49 [WavyLinearDynamics]; the linear system is an argument. *)
Definition wavy (linear : vec -> vec) (attractor : vec) (stretch max_deviation : R) (position : vec) : res vec :=
  match attractor with
  | [_; _] =>
      let distance := norm (vsub position attractor) in
      let a := sin (distance * stretch) * max_deviation in
      match linear position with
      | [vx; vy] => Ok [cos a * vx - sin a * vy; sin a * vx + cos a * vy]
      | _ => Err EValue
      end
  | _ => Err ENotImpl
  end.

(** ** dynamics/projected_rotation_dynamics.py *)
Section Projected.
(** [radius p] is [obstacle.get_local_radius], [reference] the reference point (zero in the
    obstacle frame). *)
Variable radius : vec -> R.
Variable reference : vec.
(** projected_rotation_dynamics.py:126-161 [_get_position_after_deflating_obstacle]. *)
Definition deflate (weight : R) (position : vec) : res vec :=
  let r := radius position in
  let rel := vsub position reference in
  let n := norm rel in
  if Rltb n r then Ok reference
  else do q <- fdiv (n - r * weight) n; Ok (vadd (vscale q rel) reference).
(** projected_rotation_dynamics.py:164-196 [_get_position_after_inflating_obstacle]: a position
    at the reference point is moved by 1e-6 along the first axis. *)
Definition inflate (weight : R) (position : vec) : res vec :=
  let r := radius position in
  let rel := vsub position reference in
  let '(rel, n) := if Req_EM_T (norm rel) 0
                   then (match rel with [] => [] | _ :: l => / 1000000 :: l end, / 1000000)
                   else (rel, norm rel) in
  do q <- fdiv (n + r * weight) n; Ok (vadd (vscale q rel) reference).
End Projected.
(** projected_rotation_dynamics.py:583-598 [evaluate_projected_weight] of the two gamma values. *)
Definition projected_weight (proj_gamma gamma weight_power : R) : res R :=
  if Rleb proj_gamma 1 || Rleb gamma 1 then Ok 1
  else do q <- fdiv 1 ((proj_gamma - 1) * (gamma - 1) + 1);
       do w <- fpow q weight_power; Ok (Rmin w 1).

(** ** gmm_learner/math_tools.py *)
(** math_tools.py:60-83 [rk4]; [rk4_pos_vel] (24-57) is the same with a field which reads the
    fixed velocity. *)
Definition rk4 (dt : R) (x : vec) (ds : vec -> vec) (k_f : R) : vec :=
  let k1 := vscale dt (vscale k_f (ds x)) in
  let k2 := vscale dt (vscale k_f (ds (vadd x (vscale (1/2) k1)))) in
  let k3 := vscale dt (vscale k_f (ds (vadd x (vscale (1/2) k2)))) in
  let k4 := vscale dt (vscale k_f (ds (vadd x k3))) in
  vadd x (vscale (1/6) (vadd (vadd (vadd k1 (vscale 2 k2)) (vscale 2 k3)) k4)).
Definition rk4_pos_vel (dt : R) (pos0 vel0 : vec) (ds : vec -> vec) (k_f : R) : vec * vec :=
  let f := fun pos => ds (pos ++ vel0) in
  let k1 := vscale dt (vscale k_f (f pos0)) in
  let k2 := vscale dt (vscale k_f (f (vadd pos0 (vscale (1/2) k1)))) in
  let k3 := vscale dt (vscale k_f (f (vadd pos0 (vscale (1/2) k2)))) in
  let k4 := vscale dt (vscale k_f (f (vadd pos0 k3))) in
  let xd := vscale (1/6) (vadd (vadd (vadd k1 (vscale 2 k2)) (vscale 2 k3)) k4) in
  (vadd pos0 xd, xd).
(** math_tools.py:15-21 [mag_linear_maximum], per column. *)
Definition mag_linear_maximum (k max_mag : R) (x : vec) : R :=
  let m := norm x * k in if Rltb max_mag m then max_mag else m.
