(** Model of the rotation of a converging direction and of the projection of a nonlinear direction,
    /repo/nonlinear_avoidance/avoidance/rotational_avoider.py:575-725 and 886-926.

    Directions in a base are given by their angles, see [ProjModel.v] and [RotAvoidModel.v]; sums
    and multiples of directions with a common base are those of their angles. *)
Require Import Reals List Bool.
From Verif Require Import Base Vec Angle Pow RotModel TreeModel ProjModel RotAvoidModel DescentModel.
Import ListNotations.
Open Scope R_scope.

(** rotational_avoider.py:886-926 [_get_rotated_convergence_direction]; [None] is the returned
    None. *)
Definition rotated_convergence (weight radius : R) (convergence_vector reference_vector : vec)
    (base : dbase) : res (option vec) :=
  do dir_reference <- angle_in base reference_vector;
  do dir_convergence <- angle_in base convergence_vector;
  if Rleb radius (norm dir_convergence) then Ok (Some dir_convergence)
  else
    let delta := vsub dir_convergence dir_reference in
    if Req_EM_T (norm delta) 0 then Ok None
    else
      match circle_far dir_reference delta radius with
      | None => Err EType
      | Some tangent =>
          do weight_deviation <- fdiv (norm delta) (norm (vsub tangent dir_reference));
          do w_conv <- directional_deviation_weight weight weight_deviation 3;
          Ok (Some (vadd (vscale w_conv tangent) (vscale (1 - w_conv) dir_convergence)))
      end.

(** vartools [get_intersection_with_circle], [only_positive=False]: both points, that of the
    smaller parameter first; without a direction the coordinates are not numbers. *)
Definition circle_both (start direction : vec) (radius : R) : res (option (vec * vec)) :=
  let A := dot direction direction in
  let B := 2 * dot direction start in
  let C := dot start start - radius * radius in
  let D := B * B - 4 * A * C in
  if Req_EM_T A 0 then Err ENaN
  else if Rltb D 0 then Ok None
  else Ok (Some (vadd start (vscale ((- B - sqrt D) / (2 * A)) direction),
                 vadd start (vscale ((- B + sqrt D) / (2 * A)) direction))).

(** rotational_avoider.py:575-674 [_get_projection_of_inverted_convergence_direction].  The
    breakpoint of line 656 is left out, it does not change the values. *)
Definition projection_of_inverted (inv_conv inv_nonlinear : vec) (radius : R) : res vec :=
  if Rleb (norm inv_nonlinear) radius then Ok inv_conv
  else
    let direction := vsub inv_conv inv_nonlinear in
    if Rleb (norm inv_conv) radius
    then match circle_far inv_conv direction radius with
         | None => Err EType
         | Some point => Ok point
         end
    else
      do points <- circle_both inv_conv direction radius;
      match points with
      | None => Ok inv_conv
      | Some (p0, p1) =>
          do w_cp <- fdiv (norm (vsub p0 p1)) (norm (vsub inv_conv p0));
          let angle := vadd (vscale (1 - w_cp) p0) (vscale w_cp inv_conv) in
          if Rltb PI (norm angle) then Err ENotImpl else Ok angle
      end.

(** rotational_avoider.py:676-725 [_get_projected_nonlinear_velocity], for two unit vectors; inverting
    the normal takes the angles around the opposite direction. *)
Definition projected_nonlinear (conv_rotated nonlinear : vec) (weight radius : R) (base : dbase)
  : res vec :=
  let inverted := base_opp base in
  do inv_nonlinear <- angle_in inverted nonlinear;
  let inv_radius := PI - radius in
  if Rleb (norm inv_nonlinear) inv_radius then Ok nonlinear
  else
    do inv_conv <- angle_in inverted conv_rotated;
    let weight_nonl :=
      nonlinear_inverted_weight (norm inv_conv) (norm inv_nonlinear) inv_radius weight in
    if Req_EM_T weight_nonl 0 then Ok nonlinear
    else
      do inv_proj <- projection_of_inverted inv_conv inv_nonlinear inv_radius;
      Ok (vector_from_angle (bs0 inverted)
            (vadd (vscale weight_nonl inv_proj) (vscale (1 - weight_nonl) inv_nonlinear))).
