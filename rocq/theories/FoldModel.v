(** Model of the projection around an obstacle,
    /repo/nonlinear_avoidance/dynamics/projected_rotation_dynamics.py lines 198-392 and 583-598.
    A matrix is the list of its columns. *)
Require Import Reals List Bool.
From Verif Require Import Base Vec Angle RotModel Pow DynModel.
Import ListNotations.
Open Scope R_scope.

(** [basis.T @ v] and [basis @ x] for vectors of dimension [n]. *)
Definition mat_t_vec (columns : list vec) (v : vec) : vec := map (fun c => dot c v) columns.
Fixpoint mat_vec (n : nat) (columns : list vec) (x : vec) : vec :=
  match columns, x with
  | c :: cs, a :: xs => vadd (vscale a c) (mat_vec n cs xs)
  | _, _ => vzero n
  end.
(** Multiplication of the entry [v[0]]. *)
Definition scale_first (c : R) (v : vec) : vec :=
  match v with [] => [] | x :: l => x * c :: l end.

Section Fold.
(** [vartools.linalg.get_orthogonal_basis] (not part of the repository),
    [dotprod_projection_power] (line 74, two by default) and [sys.float_info.max]. *)
Variable basis : vec -> list vec.
Variables power huge : R.

(** projected_rotation_dynamics.py:198-262 [_get_folded_position_opposite_kernel_point];
    [reference] is the reference point of the obstacle, the zero vector in the obstacle frame.
    At the attractor lines 237 divides zero by zero: the comparisons with NaN are false.
    Simplified: no overflow of [huge * dist]. *)
Definition fold_position (reference position attractor : vec) : res vec :=
  let vec_attr_obs := vsub reference attractor in
  let dist_obs := norm vec_attr_obs in
  if Req_EM_T dist_obs 0 then Ok position
  else
    let d := vdiv vec_attr_obs dist_obs in
    let vec_attr_pos := vsub position attractor in
    let columns := basis d in
    let dist_pos := norm vec_attr_pos in
    let back x lateral :=
      vadd (scale_first dist_obs (mat_vec (length position) columns (x :: lateral))) reference in
    match mat_t_vec columns vec_attr_pos with
    | [] => Err EIndex
    | _ :: lateral =>
        if Req_EM_T dist_pos 0 then Ok (back (- huge) lateral)
        else
          let x := dist_obs * ln (dist_pos / dist_obs) in
          let dot_prod := dot (vdiv vec_attr_pos dist_pos) d in
          do lateral <-
            (if Rleb dot_prod (-1)
             then match lateral with [] => Err EIndex | _ :: l => Ok (huge :: l) end
             else if Rltb dot_prod 1 then
               if Req_EM_T (norm lateral) 0 then Ok lateral
               else do f <- fpow (2 / (1 + dot_prod) - 1) (1 / power);
                    Ok (vscale f (vdiv lateral (norm lateral)))
             else Ok lateral);
          Ok (back x lateral)
    end.

(** projected_rotation_dynamics.py:264-341 [_get_unfolded_position_opposite_kernel_point]: the
    result and the argument [transformed_position] after the call.  In the obstacle frame
    line 295 only aliases the argument, which line 302 overwrites. *)
Definition unfold_position (in_obstacle_frame : bool) (reference transformed attractor : vec)
  : res (vec * vec) :=
  let vec_attr_obs := vsub reference attractor in
  let dist_obs := norm vec_attr_obs in
  if Req_EM_T dist_obs 0 then Ok (transformed, transformed)
  else
    let d := vdiv vec_attr_obs dist_obs in
    let rel := scale_first (/ dist_obs) (vsub transformed reference) in
    let argument := if in_obstacle_frame then rel else transformed in
    let pos_norm := norm rel in
    if Req_EM_T pos_norm 0 then Ok (argument, argument)
    else
      let dir := vdiv rel pos_norm in
      let radius := dot d dir * pos_norm in
      let factor := sqrt (Rmax (pos_norm * pos_norm - radius * radius) 0) in
      do fp <- fpow factor power;
      let dot_prod := 2 / (fp + 1) - 1 in
      do uniform <-
        (if Rltb dot_prod 1 then
           let dir_perp := vsub dir (vscale dot_prod d) in
           if Req_EM_T (norm dir_perp) 0 then Err ENaN
           else do r <- from_directions d (vdiv dir_perp (norm dir_perp));
                Ok (rotate (mkRot (rb0 r) (rb1 r) (acos dot_prod)) d 1)
         else Ok d);
      Ok (vadd (vscale (exp (radius / dist_obs) * dist_obs) uniform) attractor, argument).

(** The pose of the obstacle ([transform_position_to_relative] and its inverse), its gamma and
    its local radius in its own frame. *)
Variables to_relative from_relative : vec -> vec.
Variables gamma radius : vec -> R.
Variable attractor : vec.

(** projected_rotation_dynamics.py:348-392 [get_projected_position]; the deflation weight
    (120-124) is one.  Lines 377-379 return the folded position in the obstacle frame. *)
Definition get_projected_position (position : vec) : res vec :=
  let rel := to_relative position in
  let rel_attractor := to_relative attractor in
  if Rltb (gamma rel_attractor) 1 then Ok position
  else if Rleb (gamma rel) 1 then Ok position
  else
    let zero := vzero (length rel) in
    do p <- deflate radius zero 1 rel;
    do a <- deflate radius zero 1 rel_attractor;
    do f <- fold_position zero p a;
    if Rltb (10 ^ 10) (norm f) then Ok f
    else do i <- inflate radius zero 1 f; Ok (from_relative i).

(** projected_rotation_dynamics.py:583-598 [evaluate_projected_weight]. *)
Definition evaluate_projected_weight (weight_power : R) (position : vec) : res R :=
  do q <- get_projected_position position;
  projected_weight (gamma (to_relative q)) (gamma (to_relative position)) weight_power.
End Fold.
