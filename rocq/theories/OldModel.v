(** Model of the earlier evaluation which the avoider keeps for the tangent direction,
    /repo/nonlinear_avoidance/multi_obstacle_avoider.py: [get_tangent_direction],
    [evaluate_avoidance_direction], [evaluate_avoidance_sequence], [populate_tangent_tree],
    [_update_tangent_branch], [evaluate_old]. *)
Require Import Reals List Bool ZArith.
From Verif Require Import Base Vec RotModel TreeModel WeightModel AvoidModel DescentModel.
Import ListNotations.
Open Scope R_scope.

Section Old.
Variable orth0 : vec -> vec.
Variable angle_of : vec -> vec -> vec.
(** [get_projected_tangent_from_vectors] velocity normal reference radius. *)
Variable projected_tangent : vec -> vec -> vec -> R -> res vec.
(** Outcome of the sorting of a tree's nodes by level. *)
Variable sort : tree -> list nid.
(** Attributes smooth_continuation_power and convergence_radius. *)
Variables (power radius : R).
(** [compute_weights] of the package dynamic_obstacle_avoidance. *)
Variable weights_of : list R -> list R.

(** multi_obstacle_avoider.py:1425-1463: tangents from the root of the obstacle tree down to the
    component, one step for each (normal, reference, id).  The first step uses the radius pi/2,
    all others the radius of the avoider; the tests for NaN (lines 1442, 1461) cannot fire. *)
Fixpoint old_branch (tt : tree) (obs comp : Z) (velocity : vec) (parent : nid) (rad : R)
    (steps : list (vec * vec * nat)) : res tree :=
  match steps with
  | [] => Ok tt
  | (normal, reference, id) :: steps' =>
      do tangent <- projected_tangent velocity normal reference rad;
      let node := node_key obs comp (Z.of_nat id) in
      do tt <- lift (add_node tt node tangent (Some parent) None None);
      old_branch tt obs comp tangent node radius steps'
  end.
Definition old_steps (w : walk) : list (vec * vec * nat) :=
  rev (combine (combine (w_normals w) (w_refs w)) (w_ids w)).
(** multi_obstacle_avoider.py:1393-1463 [_update_tangent_branch]. *)
Definition update_tangent_branch (tt : tree) (position base_velocity : vec) (t : btree) (obs : Z)
    (comp_id : nat) : res tree :=
  do w <- branch_walk position comp_id t;
  old_branch tt obs (Z.of_nat comp_id) base_velocity (node_key obs (-1) (-1)) (PI * / 2) (old_steps w).

(** multi_obstacle_avoider.py:1059-1088 [populate_tangent_tree]. *)
Fixpoint old_components (tt : tree) (position base_velocity : vec) (t : btree) (obs : Z)
    (weights : list R) (comp_ids : list nat) : res (tree * list nid) :=
  match comp_ids with
  | [] => Ok (tt, [])
  | i :: comp_ids' =>
      if Rle_dec (nth i weights 0) 0
      then old_components tt position base_velocity t obs weights comp_ids'
      else
        do tt <- update_tangent_branch tt position base_velocity t obs i;
        do '(tt, nodes) <- old_components tt position base_velocity t obs weights comp_ids';
        Ok (tt, node_key obs (Z.of_nat i) (Z.of_nat i) :: nodes)
  end.
Definition populate_tangent_tree (tt : tree) (position base_velocity : vec) (t : btree) (obs : Z)
    (weights : list R) : res (tree * list nid) :=
  do tt <- lift (add_node tt (node_key obs (-1) (-1)) base_velocity (Some base_vel_id) None None);
  old_components tt position base_velocity t obs weights (seq 0 (length (bt_comps t))).

(** multi_obstacle_avoider.py:849-904: the loop over the obstacles.  [recorded] tells whether the
    lists [_rotation_weights] and [_convergence_reference_proximity] exist: they are annotated in
    [__init__] but created by [evaluate_avoidance_from_sequence] only (lines 742-747), so that
    [compute_gamma_and_weights] (line 952) raises AttributeError before.  [local_of] is the local
    velocity of lines 850-858. *)
Fixpoint old_trees (recorded : bool) (tt : tree) (position : vec) (local_of : btree -> res vec)
    (obs : Z) (trees : list btree) : res (tree * list nid * list (list R) * list R) :=
  match trees with
  | [] => Ok (tt, [], [], [])
  | t :: trees' =>
      do local <- local_of t;
      do '(gammas, ws) <- tree_gamma_and_weights angle_of position local power (mtree_of t);
      if negb recorded then Err EAttr
      else
        do '(tt, nodes) <- populate_tangent_tree tt position local t obs ws;
        let positive := filter (fun w => Rltb 0 w) ws in
        let cw := match positive with [] => [0] | _ => positive end in
        if Rltb (1 + / 1000000) (rsum cw) then Err EValue
        else
          do '(tt, nodes', cws, gs) <- old_trees recorded tt position local_of (obs + 1) trees';
          Ok (tt, nodes ++ nodes', cw :: cws, rmin_list gammas :: gs)
  end.
(** multi_obstacle_avoider.py:832-913 [evaluate_avoidance_sequence]: the sequence and
    [final_weights].  [np.concatenate] of nothing is a ValueError. *)
Definition old_sequence (recorded : bool) (position initial_velocity : vec)
    (local_of : btree -> res vec) (trees : list btree) : res (sequence * list R) :=
  do tt <- set_root empty_tree base_vel_id initial_velocity;
  do '(tt, nodes, cws, gammas) <- old_trees recorded tt position local_of 0 trees;
  match combine (weights_of gammas) cws with
  | [] => Err EValue
  | weighted =>
      let weights := concat (map (fun wc => map (fun c => fst wc * c) (snd wc)) weighted) in
      let final_weights := weights ++ [1 - rsum weights] in
      do s <- reduce_weighted_to_sequence orth0 tt (fun _ => mkSlot 0 None None None) (sort tt)
                (nodes ++ [base_vel_id]) final_weights;
      Ok (s, final_weights)
  end.
(** multi_obstacle_avoider.py:453-471 [get_tangent_direction], [evaluate_avoidance_direction]. *)
Definition get_tangent_direction (recorded : bool) (position initial_velocity : vec)
    (local_of : btree -> res vec) (trees : list btree) : res vec :=
  if Req_EM_T (norm initial_velocity) 0 then Ok initial_velocity
  else
    do '(s, _) <- old_sequence recorded position initial_velocity local_of trees;
    get_end_vector s.

(** multi_obstacle_avoider.py:379-419 [evaluate_old]; [components] are gamma and normal of every
    component at the position. *)
Definition evaluate_old (recorded : bool) (position initial_velocity : vec)
    (local_of : btree -> res vec) (env : list mobs) (components : list (R * vec))
    (trees : list btree) : res vec :=
  do relative <- compute_multiobstacle_relative_velocity position env;
  do final <- get_tangent_direction recorded position initial_velocity local_of trees;
  let final := vadd final relative in
  do '(normal, gamma) <- averaged_normal_and_gamma (length position) components 2;
  compute_safe_magnitude final (norm initial_velocity) normal gamma (8/10) 3.
End Old.
