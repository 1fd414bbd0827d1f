(** Model of the remaining parts of
    /repo/nonlinear_avoidance/kmeans_learner/kmeans_motion_learner.py: the radius of the regions,
    the prediction inside and outside of them, the direction of the local dynamics, and repeated
    fits. *)
Require Import Reals List Bool Arith ZArith.
From Verif Require Import Base Vec Pow RotModel RotAvoidModel KMeansModel.
Import ListNotations.
Open Scope R_scope.

(** ** Radius *)
(** kmeans_motion_learner.py:296, 319, 336 [distances_parent] in the order of the hierarchy. *)
Fixpoint distances_loop (centers : list vec) (parent : nat) (order : list nat) : list R :=
  match order with
  | [] => []
  | v :: t => norm (vsub (cluster centers v) (cluster centers parent)) :: distances_loop centers v t
  end.
Definition distances_parent (centers : list vec) (attractor : vec) (order : list nat) : list R :=
  match order with
  | [] => []
  | v :: t => norm (vsub (cluster centers v) attractor) * 2 :: distances_loop centers v t
  end.
(** [np.max] and [np.min] of an array; an empty one raises. *)
Definition np_max (l : list R) : res R :=
  match l with [] => Err EValue | x :: t => Ok (fold_left Rmax t x) end.
Definition np_min (l : list R) : res R :=
  match l with [] => Err EValue | x :: t => Ok (fold_left Rmin t x) end.
(** kmeans_motion_learner.py:185-202 [_fit_region_radius]. *)
Definition fit_region_radius (radius_factor : R) (centers : list vec) (attractor : vec)
    (order : list nat) (positions : list vec) : res R :=
  do m <- np_max (distances_parent centers attractor order);
  let max_dist_clusters := radius_factor * m in
  do mins <- mapM (fun p => np_min (map (fun c => norm (vsub c p)) centers)) positions;
  do m' <- np_max mins;
  let max_dist_data := 2 * radius_factor * m' in
  Ok (Rmax max_dist_data max_dist_clusters).

(** kmeans_motion_learner.py:346-362 [compute_distances_to_neighbours], in the order of the
    nodes of the graph. *)
Definition distance_to_neighbour (centers : list vec) (attractor : vec) (g : hgraph) (v : nat) : res R :=
  match node_data g v with
  | None => Err EKey
  | Some (level, _) =>
    if Nat.eqb level 0 then Ok (norm (vsub (cluster centers v) attractor))
    else match successors g v with
         | [] => Err EIndex
         | s :: _ => Ok (norm (vsub (cluster centers v) (cluster centers s)))
         end
  end.
Definition compute_distances_to_neighbours (centers : list vec) (attractor : vec) (g : hgraph)
  : res (list R) :=
  mapM (distance_to_neighbour centers attractor g) (map fst (h_nodes g)).

(** ** Repeated fits *)
(** networkx: adding an existing node updates its data, an existing edge stays. *)
Definition add_node (g : hgraph) (v : nat) (d : nat * vec) : hgraph :=
  if existsb (Nat.eqb v) (map fst (h_nodes g)) then
    mkH (map (fun p => if Nat.eqb (fst p) v then (v, d) else p) (h_nodes g)) (h_edges g)
  else mkH (h_nodes g ++ [(v, d)]) (h_edges g).
Definition add_edge (g : hgraph) (u v : nat) : hgraph :=
  if existsb (fun e => Nat.eqb (fst e) u && Nat.eqb (snd e) v) (h_edges g) then g
  else mkH (h_nodes g) (h_edges g ++ [(u, v)]).
(** kmeans_motion_learner.py:307-344 on the graph the learner already has (line 76 creates it,
    no fit clears it). *)
Fixpoint refit_loop (centers : list vec) (g : hgraph) (parent : nat) (order : list nat) : res hgraph :=
  match order with
  | [] => Ok g
  | v :: t =>
    let d := vsub (cluster centers v) (cluster centers parent) in
    if Req_EM_T (norm d) 0 then Err EValue
    else
      match node_data g parent with
      | None => Err EKey
      | Some (level, _) =>
        refit_loop centers (add_edge (add_node g v ((level + 1)%nat, vdiv d (norm d))) v parent) v t
      end
  end.
Definition refit (g : hgraph) (centers : list vec) (attractor : vec) (order : list nat) : res hgraph :=
  match order with
  | [] => Err EIndex
  | v :: t =>
    let d := vsub (cluster centers v) attractor in
    if Req_EM_T (norm d) 0 then Err ENotImpl
    else refit_loop centers (add_node g v (0%nat, vdiv d (norm d))) v t
  end.

(** ** The learner *)
(** The fields which are read; [kl_outside] is the velocity of [outside_dynamics], if the attribute
    exists (line 170, in [fit] only). *)
Record klearner := mkL {
  kl_centers : list vec;
  kl_radius : R;
  kl_graph : hgraph;
  kl_outside : option (vec -> vec)
}.
(** kmeans_motion_learner.py:175-183, 952-967 [_fit_region_obstacles] (the regions are
    boundaries). *)
Definition region_obstacle (l : klearner) (i : nat) : kobs :=
  mkKobs (kl_centers l) (kl_radius l) i true (successors (kl_graph l) i).

(** ** Outside of the regions *)
Section Outside.
(** Second column of [get_orthogonal_basis]. *)
Variable orth1 : vec -> vec.
Definition mean_around (null : vec) (weights : list R) (directions : list vec) : res vec :=
  if Req_EM_T (norm null) 0 then Err ENaN
  else directional_weighted_sum (mkBase (vdiv null (norm null)) (orth1 null)) weights directions.
(** kmeans_motion_learner.py:743-747. *)
Definition all_weights (ws : list R) : list R :=
  if Rltb 10 (rsum ws) then map (fun w => w / rsum ws) ws ++ [0]
  else map (fun w => w / 10) (ws ++ [1 - rsum ws]).
(** kmeans_motion_learner.py:668-721 for the clusters closer than the cut-off: unit direction to
    the center and weight; [None] when the velocity of the outside is returned.  The convergence
    radius is pi (line 87).  At distance zero from a sphere the weight is infinite, at a center
    the direction is NaN.  At rest the scalar products are NaN and no comparison holds. *)
Definition surface_weights (radius : R) (velocity : vec) (position : vec) (rel : list vec)
  : res (option (list (vec * R))) :=
  let max_dist := radius * 4 - radius in
  let dist c := norm (vsub position c) - radius in
  if existsb (fun c => Reqb (dist c) 0) rel then Err ENaN
  else if forallb (fun c => Rleb (max_dist / dist c) 0) rel then Ok None
  else if Req_EM_T (norm velocity) 0 then Ok None
  else if existsb (fun c => Reqb (norm (vsub c position)) 0) rel then Err ENaN
  else
    let dir c := vdiv (vsub c position) (norm (vsub c position)) in
    let pow_weight c := dot (dir c) (vdiv velocity (norm velocity)) - cos PI in
    match filter (fun c => Rltb 0 (pow_weight c)) rel with
    | [] => Ok None
    | kept =>
      do ws <- mapM (fun c => fpow (max_dist / dist c) (pow_weight c / (1 - cos PI))) kept;
      Ok (Some (combine (map dir kept) ws))
    end.
(** kmeans_motion_learner.py:646-756 [_predict_outside_of_obstacle]. *)
Definition predict_outside (centers : list vec) (radius : R) (outside : vec -> vec) (position : vec)
  : res vec :=
  match filter (fun c => Rltb (norm (vsub position c)) (radius * 4)) centers with
  | [] => Ok (outside position)
  | rel =>
    do s <- surface_weights radius (outside position) position rel;
    match s with
    | None => Ok (outside position)
    | Some l => mean_around (outside position) (all_weights (map snd l))
                  (map fst l ++ [outside position])
    end
  end.

(** ** Direction of the local dynamics *)
(** kmeans_motion_learner.py:491-504 [_is_pointing_towards_parent]. *)
Definition is_pointing (o : kobs) (parent : nat) (direction : vec) : res bool :=
  do s <- get_point_on_surface o (vadd (k_center o) direction);
  Ok (isclose (norm (vsub s (k_center o))) (norm (vsub s (cluster (k_centers o) parent)))).
(** kmeans_motion_learner.py:478-489: the loop, with the test as argument. *)
Fixpoint direction_loop (points : vec -> res bool) (direction parent : vec) (it : nat) : res vec :=
  match it with
  | O => Ok direction
  | S it =>
    do m <- mean_around direction [1 / 2; 1 / 2] [direction; parent];
    do b <- points parent;
    if b then direction_loop points direction m it else direction_loop points m parent it
  end.
(** kmeans_motion_learner.py:432-489, from the normalized direction on; [to_parent] is the
    difference of the centers. *)
Definition enforce_direction (points : vec -> res bool) (to_parent direction : vec) (it_max : nat)
  : res vec :=
  do b <- points direction;
  if b : bool then Ok direction
  else if Req_EM_T (norm to_parent) 0 then Err EValue
  else
    let parent := vdiv to_parent (norm to_parent) in
    do bp <- points parent;
    if isclose (dot parent direction) (-1) then
      if bp : bool then Ok parent else Err ENotImpl
    else
      do m <- mean_around direction [1 / 2; 1 / 2] [direction; parent];
      if bp : bool then direction_loop points m parent it_max
      else
        do bm <- points m;
        if bm : bool then direction_loop points direction m it_max else Ok direction.
(** kmeans_motion_learner.py:416-489 [_enforces_direction_is_towards_parent] (the break point of
    line 428 for a cluster without a single parent is passed over). *)
Definition enforces_direction (l : klearner) (node : nat) (direction : vec) (it_max : nat) : res vec :=
  do d <- (if Req_EM_T (norm direction) 0 then
             match node_data (kl_graph l) node with Some (_, d) => Ok d | None => Err EKey end
           else Ok (vdiv direction (norm direction)));
  match successors (kl_graph l) node with
  | [] => Err EIndex
  | parent :: _ =>
    enforce_direction (is_pointing (region_obstacle l node) parent)
      (vsub (cluster (kl_centers l) parent) (cluster (kl_centers l) node)) d it_max
  end.

(** ** Prediction *)
(** The prediction of the k-means object, the local dynamics with and without the check of the
    Lyapunov direction, that direction, and [obstacle_avoidance_rotational] for the region of a
    cluster (position, velocity, cluster, convergence velocity, convergence radius). *)
Variable label : vec -> nat.
Variables (evaluate evaluate_unchecked lyapunov : nat -> vec -> res vec).
Variable avoid : vec -> vec -> nat -> vec -> R -> res vec.
Definition positive_indices (w : list R) : list nat :=
  filter (fun i => Rltb 0 (nth i w 0)) (seq 0 (length w)).
(** kmeans_motion_learner.py:566-619 [predict_averaged_lyapunov], [_predict_initial_direction]. *)
Definition averaged_velocities (position : vec) (w : list R) (ind : list nat) : res (vec * vec) :=
  do lyaps <- mapM (fun i => lyapunov i position) ind;
  let ws := map (fun i => nth i w 0) ind in
  do averaged <- mean_around (nth 0 lyaps []) ws lyaps;
  do vels <- mapM (fun i => evaluate_unchecked i position) ind;
  do initial <- mean_around averaged ws vels;
  Ok (initial, averaged).
(** kmeans_motion_learner.py:522-564: a position in the region of its cluster. *)
Definition predict_inside (l : klearner) (position : vec) (c : nat) : res vec :=
  let o := region_obstacle l c in
  do w <- predict_sequence_weights (kl_centers l) (predecessors (kl_graph l) c)
            (fun t => get_gamma o position (Some (Z.of_nat t))) position c (1 / 2) 2;
  let ind := positive_indices w in
  do vl <- (if Nat.ltb 1 (length ind) then averaged_velocities position w ind
            else do v <- evaluate c position; do ly <- lyapunov c position; Ok (v, ly));
  do rotated <- avoid position (fst vl) c (snd vl) (PI * nth c w 0);
  if Rltb (rsum w) 1 then Err ENotImpl else Ok rotated.
(** kmeans_motion_learner.py:509-564 [predict]. *)
Definition predict (l : klearner) (position : vec) : res vec :=
  let c := label position in
  do g <- get_gamma (region_obstacle l c) position None;
  do outside <- match g with
                | GMax => Ok false
                | GVal x => Ok (Rltb x 1)
                | GNone => Err EType
                end;
  if outside : bool then
    match kl_outside l with
    | None => Err EAttr
    | Some f => predict_outside (kl_centers l) (kl_radius l) f position
    end
  else predict_inside l position c.
End Outside.

(** kmeans_motion_learner.py:152-173 [fit] and 90-107 [from_centers], after the clustering: the
    graph of the learner, the centers, the order of the clusters and the data; [linear] is the
    velocity of the linear system with its maximum velocity. *)
Definition fit (g : hgraph) (factor : R) (centers : list vec) (attractor : vec) (order : list nat)
    (positions : list vec) (linear : vec -> vec) : res klearner :=
  do g' <- refit g centers attractor order;
  do r <- fit_region_radius factor centers attractor order positions;
  Ok (mkL centers r g' (Some linear)).
Definition from_centers (factor : R) (centers : list vec) (attractor : vec) (order : list nat)
    (positions : list vec) : res klearner :=
  do g' <- refit (mkH [] []) centers attractor order;
  do r <- fit_region_radius factor centers attractor order positions;
  Ok (mkL centers r g' None).
