(** Model of the obstacle of several Gaussians, /repo/nonlinear_avoidance/gmm_obstacle.py.

    The fitted mixture (sklearn) is given by its components.  The axes (eigenvectors of the
    covariance, the columns of [_axes_directions]) and the lengths of the axes are given with the
    component; [transform_to_analytic_ellipses], [plot_obstacle], [from_container] and the
    functions which fail at once ([avoid], [get_relative_orientation_of_ellipses],
    [_get_gauss_derivative]) are not modelled. *)
Require Import Reals List Bool Arith.
From Verif Require Import Base Vec Pow RotModel TreeModel ProjModel FoldModel GmmModel GraphModel HullModel HullGraphModel.
Import ListNotations.
Open Scope R_scope.

(** Mean, rows of [precisions_cholesky_], axes (one vector per axis) and their lengths. *)
Record component := mkComp { c_mean : vec; c_prec : list vec; c_axes : list vec; c_lengths : vec }.

(** gmm_obstacle.py:496-497. *)
Definition quad (c : component) (x : vec) : R :=
  let d := vsub x (c_mean c) in dot d (mat_vec (c_prec c) d).
(** gmm_obstacle.py:495-498 [get_gamma_proportional]. *)
Definition gamma_proportional (factor : R) (c : component) (x : vec) : res R :=
  if Rltb (quad c x) 0 then Err ENaN else fdiv (sqrt (quad c x)) factor.
(** gmm_obstacle.py:500-516 [get_gamma_derivative]. *)
Definition gamma_derivative (factor : R) (c : component) (power : R) (x : vec) : res vec :=
  let d := vsub x (c_mean c) in
  do p <- fpow (quad c x) (power / 2 - 1);
  do f <- fpow factor (- power);
  Ok (vscale (power / 2 * p * f) (mat_vec (c_prec c) d)).
(** gmm_obstacle.py:518-524 [get_gamma]. *)
Definition gamma_absolute (factor : R) (c : component) (x : vec) : res R :=
  do g <- gamma_proportional factor c x;
  if Req_EM_T g 0 then Ok 0 else Ok (norm (vsub x (c_mean c)) * (1 - 1 / g) + 1).
(** gmm_obstacle.py:526-530 [project_point_on_surface]. *)
Definition project_on_surface (factor : R) (c : component) (x : vec) : res vec :=
  do g <- gamma_proportional factor c x;
  if Req_EM_T g 0 then Err ENaN else Ok (vadd (vdiv (vsub x (c_mean c)) g) (c_mean c)).

(** Products and quotients of the entries; a length of zero gives NaN (or inf) entries and is
    excluded where it matters. *)
Fixpoint ctimes (u v : vec) : vec :=
  match u, v with x :: u', y :: v' => x * y :: ctimes u' v' | _, _ => [] end.
Definition cquot (u v : vec) : vec := ctimes u (map Rinv v).
(** gmm_obstacle.py:532-543 [transform_position_to_unitcircle_frame]. *)
Definition to_circle (c : component) (x : vec) : vec :=
  cquot (FoldModel.mat_t_vec (c_axes c) (vsub x (c_mean c))) (c_lengths c).
(** gmm_obstacle.py:545-557 [transform_position_from_unitcircle_frame]. *)
Definition from_circle (c : component) (y : vec) : vec :=
  vadd (FoldModel.mat_vec (length (c_mean c)) (c_axes c) (ctimes y (c_lengths c))) (c_mean c).
(** gmm_obstacle.py:559-569 [project_point_on_surface_with_offcenter_point]; the intersection is
    missing ([None]) when the line passes the circle. *)
Definition project_offcenter (c : component) (x offcenter : vec) : res vec :=
  let rel_pos := to_circle c x in
  let rel_offset := to_circle c offcenter in
  if Req_EM_T (norm (vsub rel_pos rel_offset)) 0 then Err ENaN
  else
    match circle_far rel_offset (vsub rel_pos rel_offset) (/ 2) with
    | None => Err EType
    | Some y => Ok (from_circle c y)
    end.

(** [v[0] = 1]. *)
Definition set_first (v : vec) : vec := match v with [] => [] | _ :: t => 1 :: t end.
(** gmm_obstacle.py:571-579 [get_reference_direction]. *)
Definition reference_direction (c : component) (x : vec) : vec :=
  let d := vsub x (c_mean c) in
  if Req_EM_T (norm d) 0 then set_first d else vdiv d (norm d).
(** gmm_obstacle.py:581-600 [get_normal_direction]: infinite factors at zero. *)
Definition normal_direction (factor : R) (c : component) (x : vec) : res vec :=
  let d := vsub x (c_mean c) in
  do p <- fpow (quad c x) (1 / 2 - 1);
  do f <- fpow factor (-1);
  let dg := vscale (p * f) (mat_vec (c_prec c) d) in
  if Req_EM_T (norm dg) 0 then Ok (set_first dg) else Ok (vdiv dg (norm dg)).

(** gmm_obstacle.py:363-405 [get_obstacle_occlusion_factor] of one component, with its reference
    point and its parent. *)
Definition occlusion_factor (factor : R) (x : vec) (c : component) (reference : vec)
    (parent : option component) : res R :=
  let surface := project_offcenter c x reference in
  match parent with
  | None => match surface with Err EType => Err EType | _ => Ok 1 end
  | Some p =>
    do s <- surface;
    do g <- gamma_proportional factor p s;
    if Rleb 1 g then Ok 1
    else
      let u := vsub x reference in
      let v := vsub (c_mean p) reference in
      do dp <- fdiv (dot u v) (norm u * norm v);
      if Rleb dp 0 then Ok 1
      else if Rleb 1 dp then Ok 0
      else fpow g (1 / (1 - dp))
  end.

(** The obstacle: components, reference points and the graph of the indices. *)
Record gobstacle := mkGO {
  o_factor : R;
  o_comps : list component;
  o_refs : list vec;
  o_graph : graph
}.
Definition no_comp : component := mkComp [] [] [] [].
Definition comp (o : gobstacle) (i : nat) : component := nth i (o_comps o) no_comp.
(** gmm_obstacle.py:363-405, all components. *)
Definition occlusion_factors (o : gobstacle) (x : vec) : res (list R) :=
  mapM (fun i =>
    do p <- get_parent (o_graph o) i;
    occlusion_factor (o_factor o) x (comp o i) (nth i (o_refs o) [])
      (match p with None => None | Some j => Some (comp o j) end))
    (seq 0 (length (o_comps o))).
(** gmm_obstacle.py:326-359 [evaluate_gamma_weights]: the attribute [relative_weights]. *)
Definition gamma_weights (o : gobstacle) (x : vec) (gamma_min_factor gamma_min_summand : R) : res (list R) :=
  do gammas <- mapM (fun c => gamma_proportional (o_factor o) c x) (o_comps o);
  let inside := map (fun g => Rleb (g - 1) 0) gammas in
  if existsb (fun b => b) inside then
    let n := length (filter (fun b => b) inside) in
    Ok (map (fun b : bool => if b then 1 / INR n else 0) inside)
  else
    do factors <- occlusion_factors o x;
    let w := ctimes (map (fun g => 1 / (g - 1)) gammas) factors in
    if Req_EM_T (rsum w) 0 then Ok w else Ok (map (fun a => a / rsum w) w).

(** gmm_obstacle.py:112-116 [get_kernel_point], [set_kernel_point]: the latter reads only. *)
Definition get_kernel_point (o : gobstacle) (i : nat) : vec := nth i (o_refs o) [].
Definition set_kernel_point (o : gobstacle) (value : vec) (i : nat) : gobstacle := o.

(** gmm_obstacle.py:211-228 [get_root_rotation_direction]: [basis d] are the vectors of
    [get_orthogonal_basis(d)] after the first. *)
Section Root.
Variable basis : vec -> list vec.
Definition root_rotation_direction (o : gobstacle) (x velocity : vec) : res vec :=
  match root_indices (o_graph o) with
  | [] => Err EIndex
  | i :: _ =>
    let k := vsub x (get_kernel_point o i) in
    if Req_EM_T (norm k) 0 then Ok velocity
    else
      let k := vdiv k (norm k) in
      if Rltb (dot k velocity) 1 then Ok velocity
      else Ok (FoldModel.mat_vec (length k) (k :: basis k) (0 :: FoldModel.mat_t_vec (basis k) velocity))
  end.
End Root.

(** gmm_obstacle.py:281-293: the sum of the offsets of the normals, over the components with a weight
    which is not zero. *)
Definition delta_normal (factor : R) (n : nat) (comps : list component) (weights : list R) (x : vec) : res vec :=
  foldM (fun s cw =>
    if Req_EM_T (snd cw) 0 then Ok s
    else do nv <- normal_direction factor (fst cw) x;
         Ok (vadd s (vsub nv (reference_direction (fst cw) x))))
    (vzero n) (combine comps weights).
(** gmm_obstacle.py:310-324: the mean normal of [evalute_weighted_reference_and_normal_offset]
    from the mean reference and the sum of the offsets of the normals (the trivial case is
    overwritten). *)
Definition mean_normal (mean_reference delta_normal : vec) : res vec :=
  do dp <- fdiv (dot delta_normal mean_reference) (norm delta_normal);
  let dot_prod := -1 * dp in
  let scaling := if Rltb dot_prod (sqrt 2 / 2) then 1 else sqrt 2 * dot_prod in
  let m := vadd (vscale scaling mean_reference) delta_normal in
  if Req_EM_T (norm m) 0 then Err ENaN else Ok (vdiv m (norm m)).

(** ** Intersection and hierarchy *)
(** gmm_obstacle.py:631-647: [it_max] rounds of the descent. *)
Fixpoint descend (factor : R) (a b : component) (power abs_tol step_size : R) (it_max : nat) (x : vec)
  : res vec :=
  match it_max with
  | O => Ok x
  | S it_max =>
    do ga <- gamma_derivative factor a power x;
    do gb <- gamma_derivative factor b power x;
    let g := vadd ga gb in
    do s <- fpow (norm g) (1 / power);
    if Rltb s abs_tol then Ok x
    else
      if Req_EM_T (norm g) 0 then Err ENaN
      else descend factor a b power abs_tol step_size it_max
             (vsub x (vscale step_size (vscale s (vdiv g (norm g)))))
  end.
(** gmm_obstacle.py:602-649 [get_intersection_of_ellipses] of two components. *)
Definition intersection_of_ellipses (factor : R) (a b : component) (power : R) (it_max : nat)
    (rtol step_size : R) : res vec :=
  let abs_tol := rtol * norm (vsub (c_mean a) (c_mean b)) in
  if Req_EM_T abs_tol 0 then Ok (c_mean a)
  else descend factor a b power abs_tol step_size it_max (vscale (/ 2) (vadd (c_mean a) (c_mean b))).

(** gmm_obstacle.py:132-136: one value per dimension ([axis=0]) of the deviations from the mean of
    the [n] means. *)
Definition vmean (n : nat) (l : list vec) : vec := vdiv (fold_right vadd (vzero n) l) (INR (length l)).
Definition column (k : nat) (l : list vec) : vec := map (fun v => nth k v 0) l.
Definition closest_index (n : nat) (means : list vec) : res nat :=
  let center := vmean n means in
  argmin (map (fun k => norm (column k (map (fun m => vsub m center) means))) (seq 0 n)).
(** [del l[i]]. *)
Definition remove_at {A} (i : nat) (l : list A) : list A := firstn i l ++ skipn (S i) l.
(** gmm_obstacle.py:152-167: the loop over the remaining components; [proba i j] is the value
    [predict_proba] of the component [j] at the mean of the component [i]; the operations on
    the graph, the latest first. *)
Fixpoint hierarchy_loop (proba : nat -> nat -> R) (assigned remaining : list nat) (ops : list gop)
    (fuel : nat) : res (list gop * list nat) :=
  match remaining, fuel with
  | [], _ | _, O => Ok (ops, assigned)
  | _, S fuel =>
    let m := length assigned in
    do k <- argmax (concat (map (fun i => map (proba i) assigned) remaining));
    let value := nth (k / m) remaining 0%nat in
    let parent := nth (k mod m) assigned 0%nat in
    hierarchy_loop proba (assigned ++ [value]) (remove_at (k / m) remaining) (OAdd value parent :: ops) fuel
  end.
(** gmm_obstacle.py:126-167: the graph of [evaluate_hirarchy_and_reference_points]. *)
Definition evaluate_hierarchy (dim : nat) (means : list vec) (proba : nat -> nat -> R)
  : res (nat * list gop * list nat) :=
  let n := length means in
  do r <- closest_index dim means;
  if Nat.ltb r n then
    do l <- hierarchy_loop proba [r] (remove_at r (seq 0 n)) [ORoot r] n;
    Ok (r, fst l, snd l)
  else Err EIndex.
(** gmm_obstacle.py:169-172: the reference point of a component below [parent]. *)
Definition reference_point (factor : R) (a parent : component) : res vec :=
  intersection_of_ellipses factor a parent 5 100 (/ 10) (5 / 100).
