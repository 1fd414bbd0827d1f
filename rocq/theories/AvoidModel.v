(** Model of the speed scaling and of the velocity evaluation,
    /repo/nonlinear_avoidance/avoidance/rotational_avoider.py and
    /repo/nonlinear_avoidance/multi_obstacle_avoider.py. *)
Require Import Reals List Bool ZArith.
From Verif Require Import Base Vec Pow RotModel TreeModel WeightModel.
Import ListNotations.
Open Scope R_scope.

(** ** rotational_avoider.py *)

(** rotational_avoider.py:471-496 [compute_safe_scaling]. *)
Definition compute_safe_scaling (velocity averaged_normal : vec) (gamma dot_scaling power_root : R)
  : res R :=
  if Req_EM_T (norm velocity) 0 then Ok 1
  else
    let dot_product := dot velocity averaged_normal in
    let normal_norm := norm averaged_normal in
    if Rltb 0 dot_product || isclose normal_norm 0 then Ok 1
    else if Rle_dec gamma 1 then
      if Rltb dot_product (-1/1000) then Ok 0 else Ok 1
    else
      do e <- fdiv 1 power_root;
      do power_factor <- fpow (1 / (gamma - 1) * normal_norm) e;
      fpow (1 + dot_scaling * dot_product) power_factor.

(** rotational_avoider.py:498-536 [compute_safe_magnitude]; a NaN scaling raises ValueError
    (line 531), a NaN exponent leads to a NaN scaling. *)
Definition compute_safe_magnitude (rotated_velocity : vec) (initial_norm : R)
    (averaged_normal : vec) (gamma dot_scaling power_root : R) : res vec :=
  let rotated_norm := norm rotated_velocity in
  if Req_EM_T rotated_norm 0 then Ok rotated_velocity
  else
    let dot_product := dot rotated_velocity averaged_normal in
    let normal_norm := norm averaged_normal in
    let finish (scaling : res R) :=
      match scaling with
      | Err _ => Err EValue
      | Ok s => if Rltb 1 s then Err EValue
                else Ok (vscale s (vscale initial_norm (vdiv rotated_velocity rotated_norm)))
      end in
    if Rltb 0 dot_product || Reqb normal_norm 0 then finish (Ok 1)
    else if Rle_dec gamma 1 then
      if Rltb dot_product (-1/1000) then Ok (vzero (length rotated_velocity)) else finish (Ok 1)
    else
      finish (do e <- fdiv 1 power_root;
              do power_factor <- fpow (1 / (gamma - 1) * normal_norm) e;
              fpow (1 + dot_scaling * dot_product) power_factor).

(** rotational_avoider.py:444-469 [_limit_magnitude]: the loop keeps the smallest negative dot
    product and the gamma of that obstacle. *)
Definition limit_loop (v : vec) (gammas : list R) (normals : list vec) : option (R * R) :=
  fold_left (fun acc gn =>
               let d := dot v (snd gn) in
               let m := match acc with Some (m, _) => m | None => 0 end in
               if Rltb d m then Some (d, fst gn) else acc)
            (combine gammas normals) None.
Definition limit_magnitude (modulated_velocity : vec) (initial_magnitude : R)
    (gammas : list R) (normals : list vec) : res vec :=
  match limit_loop modulated_velocity gammas normals with
  | None => Ok (vscale initial_magnitude modulated_velocity)
  | Some (min_dot_prod, gamma) =>
      do inv <- fdiv 1 gamma;
      Ok (vscale (1 + inv * min_dot_prod) (vscale initial_magnitude modulated_velocity))
  end.

(** rotational_avoider.py:256-442 [avoid].  Obstacles are given by their values at the position:
    gamma, is_boundary, the first two columns of [compute_normal_tensor] (the first is the normal),
    the reference direction, and the entry of [convergence_radiuses] if the environment has
    them.  Arguments of the model: [weights_of] = [compute_weights], [relative_of] =
    [get_relative_obstacle_velocity] (both of the package dynamic_obstacle_avoidance),
    [rotated_sum v0 close] = lines 347-407: the rotated directions of all close obstacles
    combined by [get_directional_weighted_sum] (modelled in [RotAvoidModel.v]). *)
Record aobs := mkAObs {
  ao_gamma : R; ao_boundary : bool; ao_normal : vec; ao_second : vec; ao_ref : vec;
  ao_radius : option R }.
(** rotational_avoider.py:96-114 [compute_obstacle_gamma]. *)
Definition clamp_obstacle (o : aobs) : aobs :=
  if Rltb (ao_gamma o) 1 && negb (ao_boundary o)
  then mkAObs 1 (ao_boundary o) (ao_normal o) (ao_second o) (ao_ref o) (ao_radius o) else o.
Section Avoid.
Variable weights_of : list R -> list R.
Variable relative_of : list aobs -> list R -> vec.
Variable rotated_sum : vec -> list aobs -> res vec.
Definition avoid (cut_off_gamma : R) (sticky_surface : bool) (initial_velocity : vec)
    (obstacles : list aobs) : res vec :=
  match obstacles with
  | [] => Ok initial_velocity
  | _ =>
      let norm_initial := norm initial_velocity in
      let close := filter (fun o => Rltb (ao_gamma o) cut_off_gamma && Rleb 1 (ao_gamma o))
                          (map clamp_obstacle obstacles) in
      match close with
      | [] => Ok initial_velocity
      | _ =>
          let gammas := map ao_gamma close in
          let weights := weights_of gammas in
          let relative := relative_of close weights in
          let v0 := vsub initial_velocity relative in
          if Req_EM_T (norm v0) 0 then Ok (vadd v0 relative)
          else
            do rotated <- rotated_sum v0 close;
            if sticky_surface then
              do v <- limit_magnitude rotated (norm v0) gammas (map ao_normal close);
              Ok (vadd v relative)
            else
              let averaged_normal :=
                fold_right (fun wn acc => vadd (vscale (fst wn) (snd wn)) acc)
                           (vzero (length initial_velocity))
                           (combine weights (map ao_normal close)) in
              do v <- compute_safe_magnitude rotated (norm v0) averaged_normal
                        (rmin_list gammas) (8/10) 3;
              let v := vadd v relative in
              if Req_EM_T (norm v) 0 then Ok v
              else Ok (vscale norm_initial (vdiv v (norm v)))
      end
  end.
End Avoid.

(** rotational_avoider.py:538-551 [_get_directional_deviation_weight]. *)
Definition get_directional_deviation_weight (weight weight_deviation power_factor : R) : res R :=
  if Rle_dec weight_deviation 0 then Ok 0
  else if Rle_dec 1 weight_deviation then Ok 1
  else if Rle_dec 1 weight then Ok 1
  else do e <- fdiv 1 (weight_deviation * power_factor); fpow weight e.

(** rotational_avoider.py:553-572 [_get_nonlinear_inverted_weight]. *)
Definition get_nonlinear_inverted_weight (conv_rotated_norm nonlinear_norm radius weight : R)
  : res R :=
  if Rle_dec nonlinear_norm radius then Ok 0
  else if Rle_dec conv_rotated_norm radius then Ok weight
  else
    let delta_nonl := nonlinear_norm - radius in
    let delta_conv := conv_rotated_norm - radius in
    fdiv (weight * delta_nonl) (delta_nonl + delta_conv).

(** ** Relative velocity, multi_obstacle_avoider.py:105-154 *)
(** [twist.angular] is None, a number, or an array; [deformation_rate] may be missing. *)
Inductive angular := AngNone | AngNum (w : R) | AngArray (v : vec).
Record mobs := mkMObs {
  mo_gamma : R;
  mo_position : vec;
  mo_twist : option (vec * angular);
  mo_deformation : option R
}.
(** Line 133-141: a number: cross product in the plane (z-component dropped); in space
    [np.cross] of a scalar raises ValueError; elsewhere the name is unbound.  Testing the
    truth of an array of more than one entry raises ValueError. *)
Definition angular_part (position : vec) (o : mobs) (a : angular) (f : R) : res vec :=
  match a with
  | AngNone => Ok (vzero (length position))
  | AngArray _ => Err EValue
  | AngNum w =>
      if Req_EM_T w 0 then Ok (vzero (length position))
      else if Nat.eqb (length position) 2 then
        let x := nth 0 position 0 - nth 0 (mo_position o) 0 in
        let y := nth 1 position 0 - nth 1 (mo_position o) 0 in
        Ok (vscale f [- w * y; w * x])
      else if Nat.eqb (length position) 3 then Err EValue
      else Err EName
  end.
Definition relative_step (position : vec) (acc : res vec) (wo : R * mobs) : res vec :=
  let '(w, o) := wo in
  do rel <- acc;
  if Rle_dec w 0 then Ok rel
  else
    do rel <- match mo_twist o with
              | None => Ok rel
              | Some (lin, ang) =>
                  do a <- angular_part position o ang (w * exp (-1 * (Rmax (mo_gamma o) 1 - 1)));
                  Ok (vadd (vadd rel (vscale w lin)) a)
              end;
    match mo_deformation o with
    | None => Ok rel
    | Some rate => Ok (vadd rel (vscale rate (vscale w (vsub position (mo_position o)))))
    end.
Definition compute_multiobstacle_relative_velocity (position : vec) (env : list mobs) : res vec :=
  do weights <- compute_gamma_weights (map mo_gamma env) 1 1;
  fold_left (relative_step position) (combine weights env) (Ok (vzero (length position))).

(** ** Tangent tree, multi_obstacle_avoider.py *)
(** NodeKey(obstacle, component, relative_level). *)
Definition node_key (obs comp rel : Z) : nid := NTriple (NInt obs) (NInt comp) (NInt rel).
Definition base_vel_id : nid := node_key (-1) (-1) (-1).

(** Components as used by the branch walk. *)
Record bcomp := mkB {
  b_comp : component;
  b_cuboid : bool    (* isinstance(obs, Cuboid) *)
}.
Record btree := mkBTree { bt_comps : list bcomp; bt_root : nat; bt_parent : nat -> option nat }.
Definition mtree_of (t : btree) : mtree := mkMTree (map b_comp (bt_comps t)) (bt_root t) (bt_parent t).
Definition get_bcomp (t : btree) (i : nat) : res bcomp :=
  match nth_error (bt_comps t) i with Some c => Ok c | None => Err EIndex end.

(** multi_obstacle_avoider.py:1465-1478 [get_normal_at_distance]. *)
Definition get_normal_at_distance (c : bcomp) (surface_point : vec) (distance : R) : res vec :=
  if b_cuboid c then
    let direction := vsub surface_point (c_center (b_comp c)) in
    if Req_EM_T (norm direction) 0 then Err EValue
    else Ok (c_normal (b_comp c)
               (vadd surface_point (vscale distance (vdiv direction (norm direction)))))
  else Ok (c_normal (b_comp c) surface_point).

(** One entry of the walk: component id, normal, reference direction, surface point. *)
Record walk := mkWalk { w_ids : list nat; w_normals : list vec; w_refs : list vec; w_surf : vec }.

(** multi_obstacle_avoider.py:1251-1292: the loop, [fuel] = level_max; the lists are kept in
    python's order.  Leaving the loop through the bound of [range] returns normally.  A parent
    [None] makes [get_component(None)] raise TypeError. *)
Fixpoint walk_up (t : btree) (distance : R) (fuel : nat) (last : nat) (w : walk) : res walk :=
  match fuel with
  | O => Ok w
  | S fuel' =>
      if Nat.eqb last (bt_root t) then Ok w
      else
        do obs <- get_bcomp t last;
        match bt_parent t last with
        | None => Err EType
        | Some new_id =>
            do parent <- get_bcomp t new_id;
            if Nat.ltb 10 (S (length (w_ids w))) then Err EExc
            else
              let ref_point := c_refpoint (b_comp obs) in
              match c_intersect (b_comp parent) ref_point (vsub (w_surf w) ref_point) with
              | None => Err EExc
              | Some intersection =>
                  do n <- get_normal_at_distance parent intersection distance;
                  walk_up t distance fuel' new_id
                    (mkWalk (w_ids w ++ [new_id]) (w_normals w ++ [n])
                            (w_refs w ++ [c_refdir (b_comp parent) intersection]) intersection)
              end
        end
  end.
(** multi_obstacle_avoider.py:1216-1298 [_compute_normal_and_reference_of_branch]. *)
Definition branch_walk_upto (level_max : nat) (position : vec) (comp_id : nat) (t : btree) : res walk :=
  do obs <- get_bcomp t comp_id;
  let c := b_comp obs in
  let refdir := c_refdir c position in
  do '(surf, distance) <-
     (if Rltb 1 (c_gamma c position) then
        match c_intersect c (c_refpoint c) (vscale (-1) refdir) with
        | None => Err EType
        | Some i => Ok (i, norm (vsub position i))
        end
      else
        match c_intersect c position (vscale (-1) refdir) with
        | None => Err EType
        | Some i => Ok (i, 0)
        end);
  do n <- get_normal_at_distance obs surf distance;
  walk_up t distance level_max comp_id (mkWalk [comp_id] [n] [refdir] surf).
Definition branch_walk := branch_walk_upto 100.

Section TangentTree.
(** [get_projected_tangent_from_vectors] velocity normal reference radius. *)
Variable projected_tangent : vec -> vec -> vec -> R -> res vec.

Definition lift (m : tree * res unit) : res tree :=
  match m with (t, Ok _) => Ok t | (_, Err e) => Err e end.

(** multi_obstacle_avoider.py:1318-1333: the rotated velocities from the root of the obstacle
    tree down to the component; [steps] is the list of (ref[ii], ref[ii-1], parents_tree[ii])
    for ii = len-1 .. 1. *)
Fixpoint branch_nodes (tt : tree) (obs comp : Z) (velocity : vec) (parent : nid)
    (steps : list (vec * vec * nat)) : res (tree * vec * nid) :=
  match steps with
  | [] => Ok (tt, velocity, parent)
  | (ref_i, ref_prev, id) :: steps' =>
      do rotation <- from_directions ref_i ref_prev;
      let velocity := rotate rotation velocity 1 in
      let node := node_key obs comp (Z.of_nat id) in
      do tt <- lift (add_node tt node velocity (Some parent) None None);
      branch_nodes tt obs comp velocity node steps'
  end.
Definition branch_steps (w : walk) : list (vec * vec * nat) :=
  rev (combine (combine (tl (w_refs w)) (w_refs w)) (tl (w_ids w))).
(** multi_obstacle_avoider.py:1300-1391 [_simple_tangent_branch_update]; returns the tree and
    the normal appended to [_normal_vectors]. *)
Definition branch_update (tt : tree) (position base_velocity : vec) (t : btree)
    (obs : Z) (comp_id : nat) (convergence_radius : R) : res (tree * vec) :=
  do w <- branch_walk position comp_id t;
  let comp := Z.of_nat comp_id in
  do '(tt, velocity, parent) <-
     branch_nodes tt obs comp base_velocity (node_key obs (-1) (-1)) (branch_steps w);
  do c <- get_bcomp t comp_id;
  let normal := nth 0 (w_normals w) [] in
  let reference := nth 0 (w_refs w) [] in
  do '(tt, parent, avoidance_direction) <-
     (if c_tail (b_comp c) || Rltb (dot normal velocity) 0 then
        do '(tt, parent) <-
           (if Rltb (PI * / 2) convergence_radius then
              do tangent <- projected_tangent velocity normal reference (PI * / 2);
              let node := node_key obs comp (-1) in
              do tt <- lift (add_node tt node tangent (Some parent) None None);
              Ok (tt, node)
            else Ok (tt, parent));
        do d <- projected_tangent velocity normal reference convergence_radius;
        Ok (tt, parent, d)
      else Ok (tt, parent, velocity));
  do tt <- lift (add_node tt (node_key obs comp (Z.of_nat comp_id)) avoidance_direction
                   (Some parent) None None);
  Ok (tt, normal).

(** multi_obstacle_avoider.py:991-1006: the components with positive weight. *)
Fixpoint populate_components (tt : tree) (position base_velocity : vec) (t : btree) (obs : Z)
    (weights radiuses : list R) (comp_ids : list nat)
    : res (tree * list nid * list vec) :=
  match comp_ids with
  | [] => Ok (tt, [], [])
  | i :: comp_ids' =>
      if Rle_dec (nth i weights 0) 0
      then populate_components tt position base_velocity t obs weights radiuses comp_ids'
      else
        do '(tt, normal) <- branch_update tt position base_velocity t obs i (nth i radiuses 0);
        do '(tt, nodes, normals) <-
           populate_components tt position base_velocity t obs weights radiuses comp_ids';
        Ok (tt, node_key obs (Z.of_nat i) (Z.of_nat i) :: nodes, normal :: normals)
  end.
(** multi_obstacle_avoider.py:967-1006 [simple_population_tangent_tree]; [radiuses] is the
    result of [compute_convergence_radiuses]. *)
Definition populate_tree (tt : tree) (position base_velocity : vec) (t : btree) (obs : Z)
    (weights radiuses : list R) : res (tree * list nid * list vec) :=
  do tt <- lift (add_node tt (node_key obs (-1) (-1)) base_velocity (Some base_vel_id) None None);
  populate_components tt position base_velocity t obs weights radiuses
    (seq 0 (length (bt_comps t))).
Fixpoint populate_all (tt : tree) (position base_velocity : vec) (obs : Z)
    (trees : list (btree * list R * list R)) : res (tree * list nid * list vec) :=
  match trees with
  | [] => Ok (tt, [], [])
  | (t, weights, radiuses) :: trees' =>
      do '(tt, nodes, normals) <- populate_tree tt position base_velocity t obs weights radiuses;
      do '(tt, nodes', normals') <- populate_all tt position base_velocity (obs + 1) trees';
      Ok (tt, nodes ++ nodes', normals ++ normals')
  end.
End TangentTree.

(** ** Velocity, multi_obstacle_avoider.py:293-364 [evaluate_sequence] *)
(** [avg] (lines 333-337). *)
Definition averaged_normal (n : nat) (normals : list vec) (weights : list R) : vec :=
  fold_right (fun nw acc => vadd (vscale (snd nw) (fst nw)) acc) (vzero n) (combine normals weights).
(** Lines 329-364.  [max] of the weights; python's [min(a, b)] keeps [a] when [b] is NaN. *)
Definition scaled_velocity (magnitude : R) (relative final_velocity : vec) (normals : list vec)
    (cluster_weights : list R) (records : list (R * R)) : res vec :=
  match cluster_weights with
  | [] => Ok (vadd final_velocity relative)
  | _ =>
      let avg := averaged_normal (length final_velocity) normals cluster_weights in
      do gamma <- fdiv 1 (rmax_list cluster_weights);
      do scaling_convergence <- slowfactor_from_convergence records (2/10);
      let scaling :=
        match compute_safe_scaling final_velocity avg gamma (8/10) 3 with
        | Ok p => if Rltb p scaling_convergence then p else scaling_convergence
        | Err _ => scaling_convergence
        end in
      if Req_EM_T (norm final_velocity) 0 then Err ENaN
      else Ok (vadd (vscale scaling (vscale magnitude (vdiv final_velocity (norm final_velocity))))
                    relative)
  end.

Section Evaluate.
Variable orth0 : vec -> vec.
Variable angle_of : vec -> vec -> vec.
Variable projected_tangent : vec -> vec -> vec -> R -> res vec.
(** Outcome of the (unstable) sorting of a tree's nodes by level. *)
Variable sort : tree -> list nid.
(** Attributes of the avoider: smooth_continuation_power, convergence_radius,
    gamma_maximum_repulsion. *)
Variables (power radius : R) (max_repulsion : option R).

(** multi_obstacle_avoider.py:1027-1043: relative depth of an inner position. *)
Definition depth_of (position : vec) (c : component) : res (option R) :=
  if allclose position (c_center c) then Ok None
  else
    match c_intersect c (c_center c) (vsub position (c_center c)) with
    | None => Err EType
    | Some surf =>
        do d <- fdiv (norm (vsub position (c_center c))) (norm (vsub surf (c_center c)));
        Ok (Some d)
    end.
(** multi_obstacle_avoider.py:1008-1057 with the gammas handed over by the caller. *)
Definition tree_radiuses (position : vec) (t : btree) (gammas : list R) : res (list R) :=
  do comps <- mapM (fun gc : R * bcomp =>
                      let (g, c) := gc in
                      match max_repulsion with
                      | None => Ok (g, None)
                      | Some _ => if Rltb g 1 then do d <- depth_of position (b_comp c); Ok (g, d)
                                  else Ok (g, None)
                      end) (combine gammas (bt_comps t));
  compute_convergence_radiuses radius max_repulsion PI comps.
(** Proximity recorded for the slow-down (lines 952-954). *)
Definition convergence_record (position base_velocity : vec) (t : btree) : res (R * R) :=
  let m := mtree_of t in
  do root <- get_component m (m_root m);
  match tree_gammas position m with
  | [] => Err EValue
  | gammas =>
      do rw <- get_rotation_weight angle_of (c_normal root position) (c_refdir root position)
                 base_velocity (rmin_list gammas) (PI * / 2) power (PI * / 2);
      if Req_EM_T (norm base_velocity) 0 then Err ENaN
      else Ok (rw, dot (vdiv base_velocity (norm base_velocity)) (c_refdir root position))
  end.
Definition tree_data (position base_velocity : vec) (t : btree)
  : res (btree * list R * list R * (R * R)) :=
  do rec <- convergence_record position base_velocity t;
  do '(gammas, _) <- tree_gamma_and_weights angle_of position base_velocity power (mtree_of t);
  do weights <- tree_obstacle_weights angle_of position base_velocity power (mtree_of t);
  do radiuses <- tree_radiuses position t gammas;
  Ok (t, weights, radiuses, rec).

(** multi_obstacle_avoider.py:727-813 [evaluate_avoidance_from_sequence]: the sequence, the
    stored normals, cluster weights and slow-down records. *)
Definition evaluate_avoidance (position : vec) (initial_sequence : sequence) (trees : list btree)
  : res (sequence * list vec * list R * list (R * R)) :=
  do base <- get_end_vector initial_sequence;
  do tt <- set_root empty_tree base_vel_id base;
  do data <- mapM (tree_data position base) trees;
  do '(tt, nodes, normals) <- populate_all projected_tangent tt position base 0 (map fst data);
  do cw <- cluster_weights (map (fun d => snd (fst (fst d))) data);
  do seq <- reduce_weighted_to_sequence orth0 tt (fun _ => mkSlot 0 None None None) (sort tt)
              (nodes ++ [base_vel_id]) (cw ++ [1 - rsum cw]);
  Ok (seq, normals, cw, map snd data).

(** multi_obstacle_avoider.py:290-364 [evaluate] / [evaluate_sequence].  [initial] is the
    sequence of the initial dynamics (None where it vanishes), [convergence_of] is
    [compute_convergence_sequence]. *)
Definition evaluate_sequence (dimension : nat) (magnitude : R) (initial : option sequence)
    (convergence_of : sequence -> res sequence) (position : vec)
    (env : list mobs) (trees : list btree) : res vec :=
  match initial with
  | None => Ok (vzero dimension)
  | Some s =>
      match trees with
      | [] => do v <- get_end_vector s; Ok (vscale magnitude v)
      | _ =>
          do relative <- compute_multiobstacle_relative_velocity position env;
          do conv <- convergence_of s;
          do '(final, normals, cw, records) <- evaluate_avoidance position conv trees;
          do final_velocity <- get_end_vector final;
          scaled_velocity magnitude relative final_velocity normals cw records
      end
  end.
End Evaluate.
