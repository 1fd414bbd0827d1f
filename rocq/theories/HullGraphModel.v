(** Model of the graph of hulls: /repo/nonlinear_avoidance/gmm_learner/graph.py, the relative
    reference points of multiboundary_container.py, and multihull_convergence.py. *)
Require Import Reals List Bool Arith ZArith.
From Verif Require Import Base Vec Pow RotModel TreeModel ContainerModel HullModel.
Import ListNotations.
Open Scope R_scope.

(** ** gmm_learner/graph.py *)
(** graph.py:304-306: the mixing weights of the end points, one row per end point, with -1 on the
    diagonal. *)
Definition without_self (weights : list (list R)) : list (list R) :=
  map (fun p => update (snd p) (fst p) (-1)) (combine (seq 0 (length weights)) weights).
Definition entry (weights : list (list R)) (row col : nat) : R := nth col (nth row weights []) 0.
(** [np.argmax]: the first largest entry. *)
Definition argmax (l : list R) : res nat := argmin (map Ropp l).

(** The parents and the lists of children. *)
Record hull_graph := mkHG { hg_parent : list Z; hg_children : list (list nat) }.
(** graph.py:279-280. *)
Definition hg_new (n : nat) : hull_graph := mkHG (repeat (-1)%Z n) (repeat [] n).
(** multiboundary_container.py:98-100, 113-119, the indices are in range. *)
Definition hg_extend (g : hull_graph) (child parent : nat) : hull_graph :=
  mkHG (update (hg_parent g) child (Z.of_nat parent))
       (update (hg_children g) parent (nth parent (hg_children g) [] ++ [child])).
(** graph.py:255-264 [_get_assigned_elements]. *)
Definition assigned (root : nat) (g : hull_graph) : list nat := root :: concat (hg_children g).
Definition mem (x : nat) (l : list nat) : bool := existsb (Nat.eqb x) l.
(** graph.py:326-334: parent and child, for the children whose preference is assigned. *)
Definition candidates (pref : list (list nat)) (k : nat) (ass unass : list nat) : list (nat * nat) :=
  map (fun c => (nth k (nth c pref []) 0%nat, c))
      (filter (fun c => mem (nth k (nth c pref []) 0%nat) ass) unass).
(** graph.py:325-363: the loop over the preferences, from preference [k] on. *)
Fixpoint preference_loop (ws : list (list R)) (pref : list (list nat)) (g : hull_graph)
    (ass unass : list nat) (k fuel : nat) : res hull_graph :=
  match fuel with
  | O => Ok g
  | S fuel =>
    match candidates pref k ass unass with
    | [] => preference_loop ws pref g ass unass (S k) fuel
    | pc =>
      if negb (Nat.eqb k 0) && Nat.ltb 1 (length pc) then
        do i <- argmax (map (fun p => entry ws (snd p) k) pc);
        let c := snd (nth i pc (0%nat, 0%nat)) in
        Ok (hg_extend g c (nth k (nth c pref []) 0%nat))
      else Ok (fold_left (fun g p => hg_extend g (snd p) (fst p)) pc g)
    end
  end.
(** graph.py:312-363: the while loop, one round per unit of fuel; the graph and the count of
    rounds, [None] when the fuel runs out.  The break point of line 317, after more than 100
    rounds, is passed over. *)
Fixpoint graph_loop (n root : nat) (ws : list (list R)) (pref : list (list nat)) (g : hull_graph)
    (count fuel : nat) : option (res (hull_graph * nat)) :=
  match fuel with
  | O => None
  | S fuel =>
    let ass := assigned root g in
    if Nat.eqb (length ass) n then Some (Ok (g, S count))
    else
      let unass := filter (fun i => negb (mem i ass)) (seq 0 n) in
      match preference_loop ws pref g ass unass 0 (n - 1) with
      | Err e => Some (Err e)
      | Ok g => graph_loop n root ws pref g (S count) fuel
      end
  end.
(** graph.py:276-363 [create_graph_from_gaussians]: end points, attractor, mixing weights of the
    end points and the order of the preferences (argsort, flipped). *)
Definition create_graph (end_points : list vec) (attractor : vec) (weights : list (list R))
    (pref : list (list nat)) (fuel : nat) : option (res (nat * hull_graph * nat)) :=
  match argmin (map (fun p => norm (vsub p attractor)) end_points) with
  | Err e => Some (Err e)
  | Ok root =>
    match graph_loop (length end_points) root (without_self weights) pref
            (hg_new (length end_points)) 0 fuel with
    | None => None
    | Some (Err e) => Some (Err e)
    | Some (Ok (g, k)) => Some (Ok (root, g, k))
    end
  end.

(** graph.py:156-180 [_get_local_attractor]: gamma of the attractor, centers, parents, end points
    and the intersection of a line (edge point, direction) with the surface. *)
Definition local_attractor (gamma_attractor : nat -> R) (intersect : nat -> vec -> vec -> vec)
    (centers : list vec) (parents : list Z) (end_points : list vec) (attractor : vec) (it : nat)
  : res vec :=
  if Rleb 1 (gamma_attractor it) then Ok attractor
  else
    do parent <- py_nth parents (Z.of_nat it);
    do center <- py_nth centers (Z.of_nat it);
    do center_parent <- py_nth centers parent;
    do end_point <- py_nth end_points (Z.of_nat it);
    Ok (intersect it end_point (vscale (-1) (vsub center center_parent))).

(** ** multiboundary_container.py: relative reference points *)
(** A wall: center, reference point, gamma (not relative) and the point of the surface in the
    direction of a position. *)
Record wall := mkWall {
  w_center : vec;
  w_reference : vec;
  w_boundary : bool;
  w_gamma : vec -> R;
  w_surface : vec -> vec
}.
Definition ndiv (a b : R) : res R := if Req_EM_T b 0 then Err ENaN else Ok (a / b).
(** multiboundary_container.py:234-259: weight of a wall with value [gamma] at the boundary
    point, for the distances of the position and of the boundary point from the center. *)
Definition reference_weight (d D gamma : R) : res R :=
  if Rltb gamma 1 then Ok 0
  else
    let weight_2 := Rmin ((gamma - 1) * 3) 5 in
    do f_gap <- ndiv D (D - d);
    do f_gamma <- ndiv D d;
    do p <- fpow f_gap weight_2;
    let ff := p * f_gamma in
    do x_hat <- ndiv (D - d * ff) (1 - ff);
    ndiv x_hat d.
(** multiboundary_container.py:209-287: relative reference point and relative gamma of the wall
    [i]; the break points at weights out of range are passed over, a weight above one raises. *)
Definition relative_reference (walls : list wall) (close : list nat) (position : vec) (i : nat) (w : wall)
  : res (vec * R) :=
  let b := w_surface w position in
  let D := norm (vsub b (w_center w)) in
  let d := norm (vsub position (w_center w)) in
  do ws <- mapM (fun j => if Nat.eqb i j then Ok 0
                          else match nth_error walls j with
                               | Some v => reference_weight d D (w_gamma v b)
                               | None => Err EIndex
                               end) close;
  match ws with
  | [] => Err EValue
  | x :: t =>
    let weight := fold_left Rmax t x in
    if Rltb 1 weight then Err EValue
    else
      let ref := vadd (vscale weight position) (vscale (1 - weight) (w_reference w)) in
      let dist_ref := norm (vsub ref (w_center w)) in
      do g <- ndiv (D - dist_ref) (d - dist_ref);
      Ok (ref, g)
  end.
Definition wall_indices (test : wall -> bool) (walls : list wall) : list nat :=
  filter (fun i => match nth_error walls i with Some w => test w | None => false end)
         (seq 0 (length walls)).
(** multiboundary_container.py:193-291 [update_relative_reference_point]: for each wall the
    relative reference and gamma, [None] when they are reset. *)
Definition update_relative (walls : list wall) (margin : R) (position : vec)
  : res (list (option (vec * R))) :=
  let inside w := Rltb 1 (w_gamma w position) && w_boundary w in
  let close := wall_indices (fun w => Rltb margin (w_gamma w position) && w_boundary w) walls in
  mapM (fun p => if inside (snd p)
                 then do r <- relative_reference walls close position (fst p) (snd p); Ok (Some r)
                 else Ok None)
       (combine (seq 0 (length walls)) walls).

(** ** multihull_convergence.py *)
(** multihull_convergence.py:33-43 [get_weight_gamma_for_hulls]. *)
Definition hull_gamma_weights (gammas : list R) (power_value : R) : list R :=
  let ws := map (fun g => Rmax (g - 1) 0) gammas in
  if Req_EM_T (rsum ws) 0 then ws else map (fun w => w / rsum ws) ws.
(** multihull_convergence.py:92-117: the weight of the intersection point [q] and one other hull
    with value [gamma] at the projection; an intersection point which is not set raises.  0/0 is NaN,
    and the minimum of a number and NaN, in this order, is the number. *)
Definition intersection_weight (dotprod_weight gamma_weight : R) (center position : vec) (q : option vec)
    (gamma : R) (w : R) : res R :=
  if Rleb gamma 1 then Ok w
  else
    match q with
    | None => Err EType
    | Some q =>
      let delta_pos := vsub position center in
      let delta_int := vsub q center in
      let norms := norm delta_pos * norm delta_int in
      let dotprod_hat := (1 - dot delta_pos delta_int / norms) * dotprod_weight in
      let gamma_hat := (gamma - 1) * gamma_weight in
      if Req_EM_T norms 0 then Ok w
      else if Req_EM_T (dotprod_hat + gamma_hat) 0 then
        if Req_EM_T dotprod_hat 0 then Ok w else Err ENaN
      else Ok (Rmin w (dotprod_hat / (dotprod_hat + gamma_hat)))
    end.
(** multihull_convergence.py:46-119 [get_desired_radius]: center of the hull, the intersection
    points with parent and children, and the gamma values of the other hulls at the projection of
    the position on the surface. *)
Definition desired_radius (dotprod_weight gamma_weight : R) (center position : vec) (gamma_value : R)
    (points : list (option vec)) (others : list R) : res R :=
  do w <- foldM (fun w q => foldM (fun w g => intersection_weight dotprod_weight gamma_weight center position q g w) w others)
            1 points;
  Ok (PI * Rpower 2 (- gamma_value) * w).
(** multihull_convergence.py:122-242 [multihull_attraction]: the gamma values and, per hull, the
    evaluation of its directions and radius.  [directional_convergence_summing] is called with an
    argument [weight] which it does not have (rotational_avoider.py:1061-1069). *)
Definition multihull_attraction (velocity : vec) (gammas : list R) (low high : R) (evaluation : nat -> res unit)
  : res vec :=
  match gammas with
  | [] => Ok velocity
  | _ =>
    match filter (fun i => Rltb (nth i gammas 0) high && Rltb low (nth i gammas 0)) (seq 0 (length gammas)) with
    | [] => Ok velocity
    | i :: _ => do _ <- evaluation i; Err EType
    end
  end.
