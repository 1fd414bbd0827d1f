(** Model of the weight functions,
    /repo/nonlinear_avoidance/multi_obstacle_avoider.py and
    /repo/nonlinear_avoidance/avoidance/rotational_avoider.py. *)
Require Import Reals List Bool ZArith.
From Verif Require Import Base Vec Pow RotModel.
Import ListNotations.
Open Scope R_scope.

(** multi_obstacle_avoider.py:57-75 [get_limited_weights_to_max_sum]. *)
Definition get_limited_weights_to_max_sum (weights : list R) : res (list R * R) :=
  if Rltb (rsum weights) 1 then Ok (weights, rsum weights)
  else if existsb (Rleb 1) weights then
    Ok (map (fun w => if Rleb 1 w then 1 else 0) weights, 1)
  else
    let new := map (fun w => 1 / (1 - w) - 1) weights in
    if Req_EM_T (rsum new) 0 then Err ENaN
    else Ok (map (fun w => w / rsum new) new, 1).

Definition count_le (m : R) (l : list R) : nat := length (filter (fun d => Rleb d m) l).

(** multi_obstacle_avoider.py:78-102 [compute_gamma_weights]. *)
Definition compute_gamma_weights (distances : list R) (min_distance power_factor : R)
  : res (list R) :=
  let k := count_le min_distance distances in
  if Nat.ltb 0 k then
    if Nat.leb 2 k then Ok (map (fun d => (if Rleb d min_distance then 1 else 0) / INR k) distances)
    else Ok (map (fun d => if Rleb d min_distance then 1 else 0) distances)
  else
    do weights <- mapM (fun d => do q <- fdiv 1 (d - min_distance); fpow q power_factor) distances;
    if Rle_dec (rsum weights) 1 then Ok weights
    else Ok (map (fun w => w / rsum weights) weights).

(** multi_obstacle_avoider.py:815-830 [compute_weights_from_distances].  [inf] (line 827) is
    impossible behind the test of line 819. *)
Definition compute_weights_from_distances (distances : list R) (distance_min : R)
    (normalize : bool) : res (list R) :=
  let k := count_le distance_min distances in
  if Nat.ltb 0 k then
    Ok (map (fun d => (if Rleb d distance_min then 1 else 0) / INR k) distances)
  else
    do weights <- mapM (fun d => fdiv 1 (d - distance_min)) distances;
    if normalize && Rltb 1 (rsum weights)
    then Ok (map (fun w => w / rsum weights) weights)
    else Ok weights.

(** multi_obstacle_avoider.py:478-500 [compute_tree_weight]: argument is the gamma of the tree
    at the singularity, [None] without singularity. *)
Definition compute_tree_weight (singularity_gamma : option R) (gamma_decreasing_influence : R)
  : res R :=
  match singularity_gamma with
  | None => Ok 1
  | Some tree_gamma =>
      if Rle_dec tree_gamma 1 then Ok 0
      else if Rle_dec gamma_decreasing_influence tree_gamma then Ok 1
      else fdiv (tree_gamma - 1) (gamma_decreasing_influence - 1)
  end.

(** rotational_avoider.py:928-975 [get_rotation_weight].  [angle_of d v] stands for
    [get_angle_from_vector(v, base=get_orthogonal_basis(d))] of vartools.  A zero difference of
    angles makes the quotient of line 967 inf (both are numpy or python floats with a numpy
    numerator); inf ** 0 = 1, otherwise the weight is (1/gamma) ** inf = 0 as gamma > 1. *)
Section RotationWeight.
Variable angle_of : vec -> vec -> vec.
Definition get_rotation_weight (normal reference convergence : vec) (gamma : R)
    (convergence_radius power radius_base : R) : res R :=
  if Rle_dec gamma 1 then Ok 1
  else
    let outward := Rltb (cos convergence_radius) (dot convergence normal) in
    let n := if outward then normal else vscale (-1) normal in
    let ref := if outward then vscale (-1) reference else reference in
    let angle_ref := angle_of n ref in
    let angle_conv := angle_of n convergence in
    let delta_angle := norm (vsub angle_ref angle_conv) in
    let ref_radius := Rmin radius_base convergence_radius - norm angle_ref in
    if Rle_dec ref_radius delta_angle then Ok (1 / gamma)
    else if Req_EM_T delta_angle 0 then
      if Req_EM_T power 0 then Ok (1 / gamma)
      else if Rlt_dec 0 power then Ok 0 else Err ENaN
    else
      do rotation_power <- fpow (ref_radius / delta_angle) power;
      fpow (1 / gamma) rotation_power.
End RotationWeight.

(** multi_obstacle_avoider.py:916-965 [compute_gamma_and_weights] after the gammas and the
    rotation weight are known (lines 926-929 and 940-949 query the obstacles).  The values
    which lines 952-954 record for the slow-down are arguments of [slowfactor]. *)
Definition compute_gamma_and_weights (gammas : list R) (rotation_weight : R)
  : res (list R * list R) :=
  do gw <- compute_weights_from_distances gammas 1 false;
  if Reqb (rsum gw) 0 || Reqb rotation_weight 0
  then Ok (map (fun _ => 1) gw, map (fun _ => 0) gw)
  else Ok (gammas, map (fun g => g / rsum gw * rotation_weight) gw).

(** multi_obstacle_avoider.py:778-799: influence of each tree, normalised component weights,
    the cluster weights and the final weights handed to the direction tree. *)
Definition positive_normalised (ws : list R) : list R :=
  let pos := filter (fun w => Rltb 0 w) ws in
  map (fun w => w / rsum pos) pos.
Definition cluster_weights (trees : list (list R)) : res (list R) :=
  if (length trees =? 0)%nat then Err EValue (* np.concatenate of nothing *) else
  do '(nw, _) <- get_limited_weights_to_max_sum (map rsum trees);
  Ok (concat (map (fun wc => map (fun w => fst wc * w) (snd wc))
                  (combine nw (map positive_normalised trees)))).
Definition final_weights (trees : list (list R)) : res (list R) :=
  do cw <- cluster_weights trees;
  Ok (cw ++ [1 - rsum cw]).

(** multi_obstacle_avoider.py:1194-1214 [evaluate_occlusion_array].  The loop of line 1209 has
    an empty range. *)
Definition evaluate_occlusion_array (ws : list R) : res (list R) :=
  if existsb (Rltb 0) ws then
    let s := rsum (filter (Rltb 0) ws) in
    Ok (map (fun w => if Rltb 0 w then w / s else 0) ws)
  else
    match ws with
    | [] => Err EIndex
    | _ => let final := repeat 0 (length ws - 1) ++ [1] in
           Ok (map (fun w => w / rsum final) final)
    end.

(** multi_obstacle_avoider.py:1186-1192 [compute_single_occlusion_weight]. *)
Definition compute_single_occlusion_weight (gamma power_factor : R) : res R :=
  if Rle_dec gamma 1 then Ok (gamma - 1) else fpow ((gamma - 1) / gamma) power_factor.

(** multi_obstacle_avoider.py:1166-1183: the weights of [compute_occlusion_weights] from the
    gammas at the surface points. [np.maximum] (line 1167) is a lower bound. *)
Definition rmax_list (l : list R) : R :=
  match l with [] => 0 | x :: l' => fold_left Rmax l' x end.
Definition occlusion_weights (gammas : list R) (gamma_margin : R) (max_gamma : option R)
  : res (list R) :=
  let gs := match max_gamma with Some m => map (fun g => Rmax g m) gammas | None => gammas end in
  if existsb (Rltb (1 + gamma_margin)) gs then
    let ws := map (fun g => if Rltb 1 g then (g - 1) / g else 0) gs in
    if Req_EM_T (rsum ws) 0 then Err ENaN else Ok (map (fun w => w / rsum ws) ws)
  else
    match gs with
    | [] => Err EValue
    | _ => let m := rmax_list gs in
           let ws := map (fun g => Rmax (g - m + gamma_margin) 0) gs in
           if Req_EM_T (rsum ws) 0 then Err ENaN else Ok (map (fun w => w / rsum ws) ws)
    end.

(** multi_obstacle_avoider.py:1115-1126: weight of one non-root component. *)
Definition parent_occlusion (occlusion_gamma : R) (vec_parent vec_pos : vec) : res R :=
  if Rle_dec 1 occlusion_gamma then Ok 1
  else
    do dot_prod <- fdiv (dot vec_parent vec_pos) (norm vec_pos * norm vec_parent);
    if Rle_dec 1 dot_prod then Ok 0
    else fpow occlusion_gamma (1 / (1 - dot_prod)).

(** multi_obstacle_avoider.py:194-197: range check of the constructor. *)
Definition init_convergence_radius (r : R) : res R :=
  if Rle_dec (PI * / 2) r then (if Rle_dec r PI then Ok r else Err EValue) else Err EValue.

(** multi_obstacle_avoider.py:1008-1057 [compute_convergence_radiuses], one component:
    [depth] is [None] when the position is numerically at the centre (line 1032), else
    |position - centre| / |surface point - centre|. *)
Definition convergence_radius_of (radius : R) (max_repulsion : option R) (inside : R)
    (gamma : R) (depth : option R) : res R :=
  match max_repulsion with
  | None => Ok radius
  | Some m =>
      if Rltb gamma 1 then
        match depth with
        | None => Ok inside
        | Some g =>
            if Rltb g m then Ok inside
            else do w <- fdiv (g - m) (1 - m);
                 Ok (radius * w + inside * (1 - w))
        end
      else Ok radius
  end.
Definition compute_convergence_radiuses (radius : R) (max_repulsion : option R) (inside : R)
    (comps : list (R * option R)) : res (list R) :=
  mapM (fun c => convergence_radius_of radius max_repulsion inside (fst c) (snd c)) comps.

(** multi_obstacle_avoider.py:366-377 [slowfactor_from_convergence]; the third argument of
    [np.logical_and] is its output buffer, so only the first two conditions count.  The minimum
    of an empty array is a ValueError. *)
Definition rmin_list (l : list R) : R :=
  match l with [] => 0 | x :: l' => fold_left Rmin l' x end.
Definition slowfactor_from_convergence (records : list (R * R)) (power_factor : R) : res R :=
  do scaling <- mapM (fun rc => let '(rot_weight, conv_prox) := rc in
                        if Rltb 0 rot_weight && Rltb 0 conv_prox
                        then fpow ((1 - conv_prox) / rot_weight) power_factor
                        else Ok 1) records;
  match scaling with
  | [] => Err EValue
  | _ => Ok (Rmin (rmin_list scaling) 1)
  end.

(** Components of an obstacle tree: the queries are arbitrary functions. *)
Record component := mkComp {
  c_gamma : vec -> R;                       (* get_gamma, global frame *)
  c_normal : vec -> vec;                    (* get_normal_direction *)
  c_refdir : vec -> vec;                    (* get_reference_direction *)
  c_refpoint : vec;                         (* get_reference_point *)
  c_center : vec;                           (* center_position *)
  c_intersect : vec -> vec -> option vec;   (* get_intersection_with_surface *)
  c_tail : bool                             (* has_tail_effect *)
}.
(** An obstacle tree (MultiObstacle): components, root index, [get_parent_idx]. *)
Record mtree := mkMTree {
  m_comps : list component;
  m_root : nat;
  m_parent : nat -> option nat
}.
Definition get_component (t : mtree) (i : nat) : res component :=
  match nth_error (m_comps t) i with Some c => Ok c | None => Err EIndex end.
Definition get_parent_idx (t : mtree) (i : nat) : res nat :=
  match m_parent t i with Some p => Ok p | None => Err EIndex end.

(** multi_obstacle_avoider.py:1090-1130 [compute_parent_occlusion_weight]. *)
Definition component_occlusion (position : vec) (t : mtree) (i : nat) : res R :=
  if (i =? m_root t)%nat then Ok 1
  else
    do c <- get_component t i;
    let refdir := if Rltb (c_gamma c position) 1 then vscale (-1) (c_refdir c position)
                  else c_refdir c position in
    do p <- get_parent_idx t i;
    do parent <- get_component t p;
    match c_intersect c position refdir with
    | None => Err EType
    | Some surf_point =>
        parent_occlusion (c_gamma parent surf_point)
          (vsub (c_refpoint parent) (c_refpoint c)) (vsub position (c_refpoint c))
    end.
Definition compute_parent_occlusion_weight (position : vec) (t : mtree) : res (list R) :=
  mapM (component_occlusion position t) (seq 0 (length (m_comps t))).

(** The rotation weight of the tree used by [compute_gamma_and_weights] (lines 934-950) and the
    gammas (926-929); an empty tree makes [min] raise. *)
Definition tree_gammas (position : vec) (t : mtree) : list R :=
  map (fun c => c_gamma c position) (m_comps t).
Section TreeWeights.
Variable angle_of : vec -> vec -> vec.
Definition tree_gamma_and_weights (position base_velocity : vec) (power : R) (t : mtree)
  : res (list R * list R) :=
  let gammas := tree_gammas position t in
  do _ <- compute_weights_from_distances gammas 1 false;
  do root <- get_component t (m_root t);
  match gammas with
  | [] => Err EValue
  | _ =>
      do rw <- get_rotation_weight angle_of (c_normal root position) (c_refdir root position)
                 base_velocity (rmin_list gammas) (PI * / 2) power (PI * / 2);
      compute_gamma_and_weights gammas rw
  end.
(** multi_obstacle_avoider.py:752-783: the component weights of every tree and the weights
    handed to the direction tree. *)
Definition tree_obstacle_weights (position base_velocity : vec) (power : R) (t : mtree)
  : res (list R) :=
  do '(_, ws) <- tree_gamma_and_weights position base_velocity power t;
  do occ <- compute_parent_occlusion_weight position t;
  Ok (map (fun wo => fst wo * snd wo) (combine ws occ)).
Definition avoidance_weights (position base_velocity : vec) (power : R) (trees : list mtree)
  : res (list R) :=
  do ws <- mapM (tree_obstacle_weights position base_velocity power) trees;
  final_weights ws.
End TreeWeights.
