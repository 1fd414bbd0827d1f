(** Model of /repo/nonlinear_avoidance/geometry.py and of the intersections of
    /repo/nonlinear_avoidance/multiboundary_container.py.

    A shape is the list of its corners (shapely rings are closed, the first corner comes last
    again).  [circle] is the ring of [Point(0, 0).buffer(1)]; its bounding box has the center
    zero, which is the origin of [affinity.scale] and [affinity.rotate].  [intersect] is
    [shape1.intersection(shape2)]: its exterior ring, which may be empty, or [None] when the
    result is not a polygon (touching shapes, several parts).  The indices of the containers are not negative. *)
Require Import Reals List Bool Arith ZArith.
From Verif Require Import Base Vec RotModel ContainerModel.
Import ListNotations.
Open Scope R_scope.

(** Which branch of [isinstance] the obstacle takes. *)
Inductive okind := KEllipse | KAxes | KOther.
Record wall := mkWall {
  w_kind : okind;
  w_dim : nat;          (* dim and dimension *)
  w_center : vec;
  w_axes : vec;         (* axes_length *)
  w_margin : R;         (* margin_absolut *)
  w_angle : R;          (* orientation *)
  w_shape : list vec;   (* shape after create_shape *)
  w_boundary : bool
}.
Section Shapes.
Variable circle : list vec.
Variable intersect : list vec -> list vec -> option (list vec).

Definition scale2 (a b : R) (p : vec) : vec := [a * nth 0 p 0; b * nth 1 p 0].
Definition rotate2 (t : R) (p : vec) : vec :=
  [cos t * nth 0 p 0 - sin t * nth 1 p 0; sin t * nth 0 p 0 + cos t * nth 1 p 0].
Definition translate2 (c : vec) (p : vec) : vec := [nth 0 p 0 + nth 0 c 0; nth 1 p 0 + nth 1 c 0].
(** geometry.py:28-35; [None]: NotImplementedError. *)
Definition drawn_axes (o : wall) : option vec :=
  match w_kind o with
  | KEllipse => Some (map (fun a => a + w_margin o) (w_axes o))
  | KAxes => Some (map (fun a => a * (1 / 2) + w_margin o) (w_axes o))
  | KOther => None
  end.
(** geometry.py:17-45 [create_shapely_ellipse]. *)
Definition create_shapely (o : wall) : res (list vec) :=
  if negb (Nat.eqb (w_dim o) 2) then Err ENotImpl
  else match drawn_axes o with
       | None => Err ENotImpl
       | Some a => Ok (map (fun p => translate2 (w_center o) (rotate2 (w_angle o) (scale2 (nth 0 a 0) (nth 1 a 0) p))) circle)
       end.
(** [numpy.mean(intersections, axis=1)] of a ring which is not empty. *)
Definition ring_mean (l : list vec) : vec := vdiv (fold_right vadd (vzero 2) l) (INR (length l)).
(** geometry.py:48-81 [get_intersection_of_obstacles]: lines 61 tests the first obstacle. *)
Definition get_intersection_of_obstacles (o1 o2 : wall) : res (option vec) :=
  let ellipse := match w_kind o1 with KOther => false | _ => true end in
  do s1 <- (if ellipse then create_shapely o1 else Ok (w_shape o1));
  do s2 <- (if ellipse then create_shapely o2 else Ok (w_shape o2));
  match intersect s1 s2 with
  | None => Err EAttr
  | Some [] => Ok None
  | Some l => Ok (Some (ring_mean l))
  end.

(** multiboundary_container.py:22-39: the shape is not moved to the position of the ellipse. *)
Definition create_shapely_at_zero (o : wall) : res (list vec) :=
  if negb (Nat.eqb (w_dim o) 2) then Err ENotImpl
  else let a := map (fun a => a + w_margin o) (w_axes o) in
       Ok (map (fun p => rotate2 (w_angle o) (scale2 (nth 0 a 0) (nth 1 a 0) p)) circle).
Definition wall_shape (o : wall) : res (list vec) :=
  match w_kind o with KEllipse => create_shapely_at_zero o | _ => Ok (w_shape o) end.
(** An entry of [_parent_intersection_point]; the mean of no points is NaN. *)
Inductive entry := PNone | PNaN | PAt (p : vec).
(** multiboundary_container.py:141-161 [_get_intersection]. *)
Definition wall_intersection (o1 o2 : wall) : res entry :=
  do s1 <- wall_shape o1;
  do s2 <- wall_shape o2;
  match intersect s1 s2 with
  | None => Err EAttr
  | Some [] => Ok PNaN
  | Some l => Ok (PAt (ring_mean l))
  end.
Record walls := mkWalls { ws_list : list wall; ws_parent : list Z; ws_points : list entry }.
Definition new_point (c : walls) (i : nat) : res entry :=
  let parent := nth i (ws_parent c) (-1)%Z in
  if Z.ltb parent 0 then Ok PNone
  else match nth_error (ws_list c) i, nth_error (ws_list c) (Z.to_nat parent) with
       | Some o, Some q => wall_intersection o q
       | _, _ => Err EIndex
       end.
(** multiboundary_container.py:172-184 [update_intersection_graph]; the points before an
    exception are those of the loop so far. *)
Fixpoint update_points (c : walls) (ids : list nat) (points : list entry) : list entry * res unit :=
  match ids with
  | [] => (points, Ok tt)
  | i :: ids' =>
      match new_point c i with
      | Err e => (points, Err e)
      | Ok e => update_points c ids' (update points i e)
      end
  end.
Definition update_intersection_graph (c : walls) : walls * res unit :=
  let '(points, r) := update_points c (seq 0 (length (ws_list c))) (ws_points c) in
  (mkWalls (ws_list c) (ws_parent c) points, r).
(** multiboundary_container.py:59-73 [append] without a parent. *)
Definition ws_append (c : walls) (o : wall) : walls :=
  mkWalls (ws_list c ++ [o]) (ws_parent c ++ [-1]%Z) (ws_points c ++ [PNone]).
(** multiboundary_container.py:316-338 [get_parent_intersection],
    [get_convergence_boundary_point]; [surface] is [get_intersection_with_surface] of the
    obstacle for a direction. *)
Definition get_parent_intersection (c : walls) (i : nat) : res entry :=
  match nth_error (ws_points c) i with None => Err EIndex | Some e => Ok e end.
Variable surface : wall -> vec -> res vec.
Definition get_convergence_boundary_point (c : walls) (child : nat) (project_on_child : bool) (parent : option nat)
  : res vec :=
  do e <- get_parent_intersection c child;
  do k <- (if project_on_child then Ok child
           else match parent with None => Err EValue | Some p => Ok p end);
  match nth_error (ws_list c) k with
  | None => Err EIndex
  | Some o =>
      match e with
      | PNone => Err EType
      | PNaN => Err ENaN
      | PAt p => surface o (vsub p (w_center o))
      end
  end.
End Shapes.
