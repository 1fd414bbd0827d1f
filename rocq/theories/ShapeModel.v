(** Model of the obstacles which are made of components: /repo/nonlinear_avoidance/arch_obstacle.py,
    multi_ellipse_obstacle.py and rotation_container.py. *)
Require Import Reals List Bool Arith ZArith.
From Verif Require Import Base Vec RotModel WeightModel ContainerModel.
Import ListNotations.
Open Scope R_scope.

(** ** arch_obstacle.py *)
(** Orientations in the plane are angles; [Pose] of vartools. *)
Definition turn (a : R) (v : vec) : vec :=
  [cos a * nth 0 v 0 - sin a * nth 1 v 0; sin a * nth 0 v 0 + cos a * nth 1 v 0].
Definition planar_to_relative (p : pose R) (x : vec) : vec := turn (- p_rot p) (vsub x (p_pos p)).
Definition no_intersection (o p : @cobs R) : option vec := None.
Definition arch_add (m : @multi R) (o : cobs) (reference : vec) : multi :=
  fst (add_component turn Rplus planar_to_relative no_intersection m o 0 (Some reference)).
(** The root and both arms, with the distance of the reference points from the centers of the
    arms. *)
Definition arch (wall_width a0 a1 ref_dist : R) (p : pose R) : multi :=
  let m := set_root turn Rplus (new_multi p) (mkCObs (mkPose [0; 0] 0) [wall_width; a1] [0; 0]) in
  let d0 := (a0 - wall_width) * 0.5 in
  let d1 := (a1 - wall_width) * 0.5 in
  let m := arch_add m (mkCObs (mkPose [d0; d1] 0) [a0; wall_width] [0; 0]) [- ref_dist; 0] in
  arch_add m (mkCObs (mkPose [d0; - d1] 0) [a0; wall_width] [0; 0]) [- ref_dist; 0].
(** arch_obstacle.py:185-229 [create_arch_obstacle]. *)
Definition create_arch (wall_width a0 a1 : R) (p : pose R) : multi :=
  arch wall_width a0 a1 (0.5 * a0 - 0.1 * wall_width) p.
(** arch_obstacle.py:29-74 [BlockArchObstacle.__init__]. *)
Definition block_arch (wall_width a0 a1 : R) (p : pose R) : multi :=
  arch wall_width a0 a1 ((a0 - wall_width) * 0.5) p.
(** arch_obstacle.py:98-103 [is_collision_free]. *)
Definition block_collision_free (gamma : @cobs R -> vec -> R) (m : @multi R) (x : vec) : bool :=
  forallb (fun o => negb (Rleb (gamma o x) 1)) (m_list m).
(** arch_obstacle.py:179-182 [update_obstacles] after an assignment to [pose]: the new pose of a component is
    stored in its attribute [shape], the pose is kept. *)
Definition block_update (m : @multi R) (new : pose R) : multi :=
  mkMulti new (m_locals m) (m_list m) (m_rootid m) (m_graph m) (m_rate m).

(** ** multi_ellipse_obstacle.py *)
(** multi_ellipse_obstacle.py:74-79: the parents and children of the components. *)
Record ellipses := mkEl { el_root : option Z; el_parent : list (option Z); el_children : list (list Z) }.
Definition el_empty := mkEl None [] [].
(** A python object in a condition: [None] and 0 are false. *)
Definition truthy (x : option Z) : bool := match x with Some z => negb (Z.eqb z 0) | None => false end.
(** multi_ellipse_obstacle.py:124-127 [append]. *)
Definition el_append (s : ellipses) : ellipses :=
  mkEl (el_root s) (el_parent s ++ [None]) (el_children s ++ [[]]).
(** multi_ellipse_obstacle.py:101-105 [set_root]: new state and outcome. *)
Definition el_set_root (s : ellipses) (i : Z) : ellipses * res unit :=
  if truthy (el_root s) then (s, Err ENotImpl)
  else
    let s1 := mkEl (Some i) (el_parent s) (el_children s) in
    match py_index (length (el_parent s)) i with
    | None => (s1, Err EIndex)
    | Some k => (mkEl (Some i) (update (el_parent s) k (Some (-1)%Z)) (el_children s), Ok tt)
    end.
(** multi_ellipse_obstacle.py:107-122 [set_parent]; whether the components intersect is an
    argument, without an intersection [set_reference_point] fails. *)
Definition el_set_parent (intersect : Z -> Z -> bool) (s : ellipses) (i p : Z) : ellipses * res unit :=
  match py_index (length (el_parent s)) i with
  | None => (s, Err EIndex)
  | Some k =>
    if truthy (nth k (el_parent s) None) then (s, Err ENotImpl)
    else
      let s1 := mkEl (el_root s) (update (el_parent s) k (Some p)) (el_children s) in
      match py_index (length (el_children s)) p with
      | None => (s1, Err EIndex)
      | Some j =>
        let s2 := mkEl (el_root s) (el_parent s1) (update (el_children s) j (nth j (el_children s) [] ++ [i])) in
        if intersect i p then (s2, Ok tt) else (s2, Err EType)
      end
  end.
(** multi_ellipse_obstacle.py:132-133 [get_parent_idx]. *)
Definition el_get_parent (s : ellipses) (i : Z) : res (option Z) := py_nth (el_parent s) i.
(** The way from a component to the root in multi_obstacle_avoider.py:586-616: the visited components
    and whether the way ended at a component without parent, within [fuel] steps. *)
Fixpoint way_up (parent : Z -> res (option Z)) (i : Z) (fuel : nat) : res (list Z * bool) :=
  match fuel with
  | O => Ok ([], false)
  | S fuel =>
    do p <- parent i;
    match p with
    | None => Ok ([i], true)
    | Some p => do r <- way_up parent p fuel; Ok (i :: fst r, snd r)
    end
  end.
(** multi_ellipse_obstacle.py:156-167 [get_gamma], [is_inside]. *)
Definition el_gamma (gammas : list (vec -> R)) (x : vec) : res R := min_of (map (fun g => g x) gammas).
Definition el_is_inside (gammas : list (vec -> R)) (x : vec) : res bool :=
  do g <- el_gamma gammas x; Ok (Rleb g 1).

(** multi_ellipse_obstacle.py:138-154 [get_normalized_tangent_component]: the columns of
    [get_orthogonal_basis(normal)] after the first, and the product of the pseudo inverse with the vector. *)
Definition tangent_component (pinv_times : list vec -> vec -> list R) (tail : list vec) (v reference : vec) : res vec :=
  match pinv_times (reference :: tail) v with
  | [] => Err EValue
  | _ :: coefs =>
    let tangent := fold_right vadd (vzero (length v)) (map (fun p => vscale (fst p) (snd p)) (combine (0 :: coefs) (reference :: tail))) in
    if Req_EM_T (norm tangent) 0 then Err EExc else Ok (vdiv tangent (norm tangent))
  end.

(** Products and quotients of the coordinates. *)
Fixpoint ctimes (u v : vec) : vec :=
  match u, v with a :: u', b :: v' => a * b :: ctimes u' v' | _, _ => [] end.
Fixpoint cquot (u v : vec) : vec :=
  match u, v with a :: u', b :: v' => a / b :: cquot u' v' | _, _ => [] end.
(** multi_ellipse_obstacle.py:35-69 [get_intersection_with_ellipse] in the frame of the ellipse;
    the intersection with a circle around the origin is an argument. *)
Definition ellipse_intersection (circle : vec -> vec -> R -> option vec) (axes position direction : vec) : option vec :=
  match circle (cquot position axes) (cquot direction axes) 0.5 with
  | None => None
  | Some q => Some (ctimes q axes)
  end.
(** The same in the global frame (lines 45-48, 66-67), for an ellipse in the plane. *)
Definition ellipse_intersection_global (circle : vec -> vec -> R -> option vec) (p : pose R) (axes position direction : vec) : option vec :=
  match ellipse_intersection circle axes (planar_to_relative p position) (turn (- p_rot p) direction) with
  | None => None
  | Some q => Some (from_relative turn p q)
  end.

(** ** rotation_container.py *)
(** Dynamics of the convergence: [LinearSystem], [ConstantValue], [LocallyRotated] of vartools or
    given ones. *)
Inductive conv_dynamics :=
| DLinear (attractor : vec)
| DConstant (velocity : vec)
| DRotated (velocity position attractor : vec) (radius : R)
| DGiven (f : vec -> vec).
(** rotation_container.py:24-32: centers and lengths of the obstacles, the dynamics, the radiuses. *)
Record rot_container := mkRC { rc_obs : list (vec * R); rc_conv : list (option conv_dynamics); rc_radius : list R }.
Definition rc_empty := mkRC [] [] [].
Definition rc_append (c : rot_container) (o : vec * R) (convergence_radius : option R) : rot_container :=
  mkRC (rc_obs c ++ [o]) (rc_conv c ++ [None]) (rc_radius c).
(** The choice for one obstacle, rotation_container.py:82-121.  A velocity of zero gives NaN, and then a rotated system
    with an undefined direction. *)
Definition choose_dynamics (evaluate : vec -> vec) (attractor : vec) (o : vec * R) : res conv_dynamics :=
  let '(position, length_) := o in
  if Req_EM_T (norm position) 0 then Ok (DLinear attractor)
  else
    let v := evaluate position in
    if Req_EM_T (norm v) 0 then Err ENaN
    else if Req_EM_T (dot position v / (norm position * norm v)) (-1) then Ok (DLinear attractor)
    else Ok (DRotated v position attractor length_).
(** Without attractor, rotation_container.py:62-77. *)
Definition choose_constant (evaluate : vec -> vec) (o : vec * R) : conv_dynamics :=
  let v := evaluate (fst o) in
  if Req_EM_T (norm v) 0 then DLinear (fst o) else DConstant v.
(** rotation_container.py:44-121 [set_convergence_directions]. *)
Definition set_convergence (c : rot_container) (given : option (vec -> vec)) (evaluate : vec -> vec) (attractor : option vec)
  : res rot_container :=
  match given with
  | Some f => Ok (mkRC (rc_obs c) (map (fun _ => Some (DGiven f)) (rc_obs c)) (rc_radius c))
  | None =>
    match attractor with
    | None => Ok (mkRC (rc_obs c) (map (fun o => Some (choose_constant evaluate o)) (rc_obs c)) (rc_radius c))
    | Some a =>
      do ds <- mapM (choose_dynamics evaluate a) (rc_obs c);
      Ok (mkRC (rc_obs c) (map Some ds) (rc_radius c))
    end
  end.
(** rotation_container.py:123-128 [get_convergence_direction]; the evaluation of [LocallyRotated] is an
    argument. *)
Definition evaluate_conv (rotated : vec -> vec -> vec -> R -> vec -> vec) (d : conv_dynamics) (x : vec) : vec :=
  match d with
  | DLinear a => vsub a x
  | DConstant v => v
  | DRotated v p a r => rotated v p a r x
  | DGiven f => f x
  end.
Definition convergence_direction (rotated : vec -> vec -> vec -> R -> vec -> vec) (c : rot_container) (x : vec) (i : nat) : res vec :=
  match nth_error (rc_conv c) i with
  | None => Err EIndex
  | Some None => Err EAttr
  | Some (Some d) => Ok (evaluate_conv rotated d x)
  end.
