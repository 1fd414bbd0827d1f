(** Model of the projected tangent,
    /repo/nonlinear_avoidance/avoidance/rotational_avoider.py:778-818.

    The functions of the package vartools it calls are modelled from their documented interface,
    without coordinates: an angle vector is an element of the orthogonal complement of the base
    direction (the code holds its coordinates in the other base vectors, an isometry). *)
Require Import Reals List Bool.
From Verif Require Import Base Vec Angle RotModel.
Import ListNotations.
Open Scope R_scope.

Section Angles.
(** [pick d]: the second vector of [get_orthogonal_basis(d)]. *)
Variable pick : vec -> vec.
(** vartools [get_angle_from_vector(v, base=get_orthogonal_basis(d))] of unit vectors. *)
Definition angle_space (d v : vec) : vec :=
  let c := dot d v in
  let p := vsub v (vscale c d) in
  if Req_EM_T (norm p) 0
  then if Rltb c 0 then vscale PI (pick d) else vzero (length d)
  else vscale (acos c / norm p) p.
(** vartools [get_vector_from_angle(a, base=get_orthogonal_basis(d))]. *)
Definition vector_from_angle (d a : vec) : vec :=
  if Req_EM_T (norm a) 0 then d
  else vadd (vscale (cos (norm a)) d) (vscale (sin (norm a) / norm a) a).
(** vartools [get_intersection_with_circle], [IntersectionType.FAR]: the point
    start + t direction of norm [radius] with the larger [t]. *)
Definition circle_far (start direction : vec) (radius : R) : option vec :=
  let A := dot direction direction in
  let B := 2 * dot direction start in
  let C := dot start start - radius * radius in
  let D := B * B - 4 * A * C in
  if Rltb D 0 then None
  else Some (vadd start (vscale ((- B + sqrt D) / (2 * A)) direction)).

(** rotational_avoider.py:801-818 with the base direction [d], the reference and the radius
    chosen before. *)
Definition tangent_around (d initial reference : vec) (radius : R) : res vec :=
  let angle_ref := angle_space d reference in
  let angle_init := angle_space d initial in
  if Req_EM_T (norm (vsub angle_init angle_ref)) 0 then Ok initial
  else
    match circle_far angle_ref (vsub angle_init angle_ref) radius with
    | None => Err EValue
    | Some a => Ok (vector_from_angle d a)
    end.
(** rotational_avoider.py:778-818 [get_projected_tangent_from_vectors]. *)
Definition get_projected_tangent (initial normal reference : vec) (radius : R) : res vec :=
  if Rltb (cos radius) (dot initial (vscale (-1) normal))
  then tangent_around (vscale (-1) normal) initial reference radius
  else tangent_around normal initial (vscale (-1) reference) (PI - radius).
End Angles.
