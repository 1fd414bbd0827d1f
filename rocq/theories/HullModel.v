(** Model of the obstacle which can be entered,
    /repo/nonlinear_avoidance/multi_hull_and_obstacle.py.

    The obstacles (hulls and outer obstacle) are given by what the module reads from them: center,
    axes and the functions [get_gamma], [get_normal_direction], [get_reference_direction],
    [get_point_on_surface] in the frame of the object; [is_inside] of the package is gamma <= 1
    (for a hull, a boundary, gamma is larger than one in the free space).  Operations return the
    new state together with the outcome, since an exception keeps the assignments made before. *)
Require Import Reals List Bool Arith.
From Verif Require Import Base Vec Pow RotModel ProjModel RotAvoidModel.
Import ListNotations.
Open Scope R_scope.

Record region := mkReg {
  rg_center : vec; rg_axes : vec;
  rg_gamma : vec -> R; rg_normal : vec -> vec; rg_ref : vec -> vec; rg_surface : vec -> vec
}.
Definition reg_inside (g : region) (x : vec) : bool := Rleb (rg_gamma g x) 1.

(** Nodes of the graph: the hull objects (distinct, by position in the list) and the entrances
    (integers). *)
Inductive hnode := Hull (i : nat) | Gate (k : nat).
Definition hnode_eqb (a b : hnode) : bool :=
  match a, b with
  | Hull i, Hull j => Nat.eqb i j
  | Gate i, Gate j => Nat.eqb i j
  | _, _ => false
  end.
Record edge := mkEdge { e_fst : hnode; e_snd : hnode; e_dist : R; e_point : vec }.

(** The object.  [hl_graph] is [None] before [evaluate_hirarchy_and_reference_points]; [hl_attr]
    are the node attributes [local_attractor], [contains_attractor] of the hulls, empty in a new
    graph.  [hl_to], [hl_dir_to]: [transform_global2relative], [transform_global2relative_dir]. *)
Record hull := mkHull {
  hl_inner : list region; hl_outer : region;
  hl_to : vec -> vec; hl_dir_to : vec -> vec;
  hl_graph : option (list edge);
  hl_attr : list (option vec * bool);
  hl_out : option vec;             (* _local_outside_attractor *)
  hl_isout : bool;                 (* _attractor_is_outside *)
  hl_gates : nat                   (* _entrance_counter *)
}.
(** multi_hull_and_obstacle.py:64-91 [__init__]. *)
Definition new_hull (inner : list region) (outer : region) (to dir_to : vec -> vec) : hull :=
  mkHull inner outer to dir_to None [] None false 0.
Definition with_attr (h : hull) (l : list (option vec * bool)) : hull :=
  mkHull (hl_inner h) (hl_outer h) (hl_to h) (hl_dir_to h) (hl_graph h) l (hl_out h) (hl_isout h) (hl_gates h).
Definition with_out (h : hull) (a : option vec) (b : bool) : hull :=
  mkHull (hl_inner h) (hl_outer h) (hl_to h) (hl_dir_to h) (hl_graph h) (hl_attr h) a b (hl_gates h).
Fixpoint set_at {A} (l : list A) (k : nat) (a : A) : list A :=
  match l, k with
  | [], _ => []
  | _ :: l', O => a :: l'
  | x :: l', S k' => x :: set_at l' k' a
  end.

(** [numpy.argmin]: the first smallest entry. *)
Fixpoint argmin_from (l : list R) (k best : nat) (m : R) : nat :=
  match l with
  | [] => best
  | x :: l' => if Rltb x m then argmin_from l' (S k) k x else argmin_from l' (S k) best m
  end.
Definition argmin (l : list R) : res nat :=
  match l with [] => Err EValue | x :: l' => Ok (argmin_from l' 1 0 x) end.

(** multi_hull_and_obstacle.py:406-425 [_evaluate_weights]: gammas and weights, the outer obstacle
    last. *)
Definition hull_gammas (h : hull) (x : vec) : list R :=
  map (fun g => rg_gamma g x) (hl_inner h ++ [hl_outer h]).
Definition hull_weights (gammas : list R) : list R :=
  let ws := map (fun g => Rmax (g - 1) 0) gammas in
  if Rltb 0 (rsum ws) then map (fun w => w / rsum ws) ws else ws.

(** multi_hull_and_obstacle.py:172-183 [is_inside]: the frame is not used. *)
Definition hull_is_inside (h : hull) (x : vec) : bool :=
  negb (negb (reg_inside (hl_outer h) x) || existsb (fun g => negb (reg_inside g x)) (hl_inner h)).

(** multi_hull_and_obstacle.py:118-170 [set_attractor]. *)
Definition set_attractor (h : hull) (position : vec) (global : bool) : hull * res unit :=
  let x := if global then hl_to h position else position in
  let inside := reg_inside (hl_outer h) x in
  let h1 := if inside then with_out h None false else with_out h (Some x) true in
  match hl_inner h, hl_graph h with
  | _ :: _, None => (h1, Err EAttr)
  | _, _ =>
    let h2 := with_attr h1 (map (fun g => if reg_inside g x then (None, false) else (Some x, true))
                                (hl_inner h)) in
    if inside && forallb (fun g => reg_inside g x) (hl_inner h) then
      (* attractor in the wall *)
      match argmin (hull_weights (hull_gammas h x)) with
      | Err e => (h2, Err e)
      | Ok k => if Nat.eqb k (length (hl_inner h)) then (with_out h2 (Some x) true, Ok tt)
                else (with_attr h2 (set_at (hl_attr h2) k (Some x, true)), Ok tt)
      end
    else (h2, Ok tt)
  end.

Section Routes.
(** networkx [shortest_path_length] and [shortest_path] in the graph ([None]: not connected). *)
Variable sp_dist : list edge -> hnode -> hnode -> option R.
Variable sp_path : list edge -> hnode -> hnode -> option (list hnode).

Definition find_edge (es : list edge) (a b : hnode) : option edge :=
  find (fun e => (hnode_eqb (e_fst e) a && hnode_eqb (e_snd e) b)
              || (hnode_eqb (e_fst e) b && hnode_eqb (e_snd e) a)) es.
(** multi_hull_and_obstacle.py:43-49 [get_property_of_node_edge(graph, node, "intersection")]. *)
Definition gate_point (es : list edge) (k : nat) : res vec :=
  match find (fun e => hnode_eqb (e_fst e) (Gate k) || hnode_eqb (e_snd e) (Gate k)) es with
  | None => Err EIndex
  | Some e => Ok (e_point e)
  end.
Definition edges_of (h : hull) : res (list edge) :=
  match hl_graph h with None => Err EAttr | Some es => Ok es end.

(** multi_hull_and_obstacle.py:374-404 [_assign_local_attractors_along_path]: an entrance is looked
    up as entrance 0. *)
Definition gate_zero (a : hnode) : hnode := match a with Gate _ => Gate 0 | _ => a end.
Definition attractor_of (h : hull) (a : hnode) : res (option vec) :=
  match a with
  | Gate _ => Ok (hl_out h)
  | Hull i => match nth_error (hl_attr h) i with None => Err EKey | Some (o, _) => Ok o end
  end.
Definition region_of (h : hull) (a : hnode) : option region :=
  match a with Gate _ => Some (hl_outer h) | Hull i => nth_error (hl_inner h) i end.
Definition set_local (h : hull) (a : hnode) (p : vec) : hull :=
  match a with
  | Gate _ => with_out h (Some p) (hl_isout h)
  | Hull i => match nth_error (hl_attr h) i with
              | None => h
              | Some (_, c) => with_attr h (set_at (hl_attr h) i (Some p, c))
              end
  end.
Fixpoint assign_path (es : list edge) (h : hull) (path : list hnode) : hull * res unit :=
  match path with
  | a :: ((b :: _) as rest) =>
    match attractor_of h a with
    | Err e => (h, Err e)
    | Ok (Some _) => (h, Ok tt)
    | Ok None =>
      match find_edge es (gate_zero a) (gate_zero b), region_of h a with
      | Some e, Some g => assign_path es (set_local h a (rg_surface g (e_point e))) rest
      | _, _ => (h, Err EKey)
      end
    end
  | _ => (h, Ok tt)
  end.

(** multi_hull_and_obstacle.py:333-372 [update_shortest_attractor_path].  Line 349 collects the
    dictionary of all distances in place of the distance of the hull: [argmin] returns the only
    entry, or compares a dictionary and raises. *)
Inductive cand := CDict | CNum (d : R).
Definition cand_argmin (l : list cand) : res nat :=
  match l with
  | [] => Err EValue
  | [_] => Ok 0%nat
  | _ => if forallb (fun c => match c with CDict => false | _ => true end) l
         then argmin (map (fun c => match c with CDict => 0 | CNum d => d end) l)
         else Err EType
  end.
Definition containing (h : hull) : res (list nat) :=
  if Nat.eqb (length (hl_attr h)) (length (hl_inner h))
  then Ok (map fst (filter (fun p => snd (snd p)) (combine (seq 0 (length (hl_attr h))) (hl_attr h))))
  else Err EKey.
Definition gate_candidates (es : list edge) (h : hull) (src : hnode) : res (list (R * hnode)) :=
  if hl_isout h then
    mapM (fun k =>
      do p <- gate_point es k;
      match hl_out h, sp_dist es src (Gate k) with
      | None, _ => Err EType
      | _, None => Err EKey
      | Some a, Some d => Ok (d + norm (vsub p a), Gate k)
      end) (seq 0 (hl_gates h))
  else Ok [].
Definition update_path (h : hull) (i : nat) : hull * res unit :=
  match edges_of h with
  | Err e => (h, Err e)
  | Ok es =>
    match containing h with
    | Err e => (h, Err e)
    | Ok cs =>
      match gate_candidates es h (Hull i) with
      | Err e => (h, Err e)
      | Ok gs =>
        let elems := map Hull cs ++ map snd gs in
        match cand_argmin (map (fun _ => CDict) cs ++ map (fun p => CNum (fst p)) gs) with
        | Err e => (h, Err e)
        | Ok k =>
          match nth_error elems k with
          | None => (h, Err EIndex)
          | Some target =>
            match sp_path es (Hull i) target with
            | None => (h, Err EExc)
            | Some path => assign_path es h path
            end
          end
        end
      end
    end
  end.

(** multi_hull_and_obstacle.py:301-331 [update_shortest_attractor_path_starting_from_outside].
    [path_dist[ii]] is the distance of the entrance to itself; without entrance or hull the index
    is not bound. *)
Definition outside_candidates (es : list edge) (h : hull) (x : vec) : res (list (R * (nat * nat))) :=
  do per_gate <- mapM (fun k => do p <- gate_point es k; Ok (0 + norm (vsub x p), k)) (seq 0 (hl_gates h));
  Ok (flat_map (fun dk => map (fun i => (fst dk, (snd dk, i))) (seq 0 (length (hl_inner h)))) per_gate).
Definition update_outside (h : hull) (x : vec) : hull * res unit :=
  match edges_of h with
  | Err e => (h, if Nat.eqb (hl_gates h) 0 then Err EName else Err e)
  | Ok es =>
    match outside_candidates es h x with
    | Err e => (h, Err e)
    | Ok cands =>
      match argmin (map fst cands) with
      | Err _ => (h, Err EName)
      | Ok k =>
        match nth_error (map snd cands) k with
        | None => (h, Err EIndex)
        | Some (gate, i) =>
          match sp_path es (Gate gate) (Hull i) with
          | None => (h, Err EExc)
          | Some path => assign_path es h path
          end
        end
      end
    end
  end.

(** Second column of [get_orthogonal_basis] of the null direction (vartools). *)
Variable orth1 : vec -> vec.

(** multi_hull_and_obstacle.py:254-299 [_get_local_dynamics].  With n r <> 0 the coordinates in
    the base (reference, tangents) are unique, the first one is n v / n r; the other case is
    outside of the model.  Lines 294-297 change a local variable, the direction of the weighted
    sum is returned. *)
Definition local_dynamics (g : region) (attractor : option vec) (x : vec) (gamma : R) : res vec :=
  match attractor with
  | None => Err EType
  | Some a =>
    let linear := vsub a x in
    let n := rg_normal g x in
    let r := rg_ref g x in
    if Req_EM_T (dot n r) 0 then Err EExc
    else
      let tangent := vsub linear (vscale (dot n linear / dot n r) r) in
      let weight := 1 / gamma in
      directional_weighted_sum (mkBase r (orth1 r)) [1 - weight; weight] [linear; tangent]
  end.

(** multi_hull_and_obstacle.py:185-252 [evaluate]: loop over the hulls, the outer obstacle, mean. *)
Fixpoint inner_loop (h : hull) (x : vec) (i : nat) (todo : list (region * (R * R)))
  : hull * res (list (R * vec)) :=
  match todo with
  | [] => (h, Ok [])
  | (g, (gamma, w)) :: todo' =>
    if Req_EM_T w 0 then inner_loop h x (S i) todo'
    else
      let (h1, r) :=
        match attractor_of h (Hull i) with
        | Err e => (h, Err (match hl_graph h with None => EAttr | Some _ => e end))
        | Ok None => update_path h i
        | Ok (Some _) => (h, Ok tt)
        end in
      match r with
      | Err e => (h1, Err e)
      | Ok _ =>
        match (do a <- attractor_of h1 (Hull i); local_dynamics g a x gamma) with
        | Err e => (h1, Err e)
        | Ok v =>
          let (h2, r2) := inner_loop h1 x (S i) todo' in
          (h2, do l <- r2; Ok ((w, v) :: l))
        end
      end
  end.
Definition outer_step (h : hull) (x : vec) (gamma w : R) : hull * res (list (R * vec)) :=
  if Req_EM_T w 0 then (h, Ok [])
  else
    let (h1, r) := match hl_out h with None => update_outside h x | Some _ => (h, Ok tt) end in
    match r with
    | Err e => (h1, Err e)
    | Ok _ => (h1, do v <- local_dynamics (hl_outer h) (hl_out h1) x gamma; Ok [(w, v)])
    end.
Definition weighted_mean (l : list (R * vec)) : vec :=
  fold_right (fun wv acc => vadd (vscale (fst wv) (snd wv)) acc) [] l.
Definition mean_velocity (l : list (R * vec)) : res vec :=
  let mean := weighted_mean l in
  let magnitude := rsum (map (fun wv => fst wv * norm (snd wv)) l) in
  if Req_EM_T (norm mean) 0
  then if Req_EM_T magnitude 0 then Err ENaN else Err EValue
  else Ok (vscale magnitude (vdiv mean (norm mean))).
(** The position in the frame of the object; [dim] is the dimension of the outer obstacle. *)
Definition evaluate_local (dim : nat) (h : hull) (x : vec) : hull * res vec :=
  let gammas := hull_gammas h x in
  let ws := hull_weights gammas in
  if Req_EM_T (rsum ws) 0 then (h, Ok (vzero dim))
  else
    let n := length (hl_inner h) in
    let (h1, r1) := inner_loop h x 0 (combine (hl_inner h) (combine gammas ws)) in
    match r1 with
    | Err e => (h1, Err e)
    | Ok l1 =>
      let (h2, r2) := outer_step h1 x (nth n gammas 0) (nth n ws 0) in
      (h2, do l2 <- r2; mean_velocity (l1 ++ l2))
    end.
(** Line 250 returns to the global frame with [transform_global2relative_dir]. *)
Definition evaluate_global (dim : nat) (h : hull) (p : vec) : hull * res vec :=
  let (h', r) := evaluate_local dim h (hl_to h p) in
  (h', do v <- r;
       if Req_EM_T (rsum (hull_weights (hull_gammas h (hl_to h p)))) 0 then Ok v else Ok (hl_dir_to h v)).

(** multi_hull_and_obstacle.py:526-606 [_update_intersections_with_outer_obstacle] and
    [evaluate_hirarchy_and_reference_points].  [meet_outer], [meet] are the results of
    [gamma_normal_gradient_descent]. *)
Variables meet_outer meet : region -> region -> vec.
Definition axes_max (g : region) : R := fold_right Rmax (hd 0 (rg_axes g)) (tl (rg_axes g)).
Definition axes_min (g : region) : R := fold_right Rmin (hd 0 (rg_axes g)) (tl (rg_axes g)).
Fixpoint gates_from (outer : region) (k i : nat) (l : list region) : list edge :=
  match l with
  | [] => []
  | g :: l' =>
    if Rltb (norm (vsub (rg_center g) (rg_center outer))) (axes_min outer - axes_max g)
    then gates_from outer k (S i) l'
    else
      let p := meet_outer g outer in
      if reg_inside g p then gates_from outer k (S i) l'
      else mkEdge (Gate k) (Hull i) (norm (vsub p (rg_center g))) p :: gates_from outer (S k) (S i) l'
  end.
Fixpoint links_with (i j : nat) (g : region) (l : list region) : list edge :=
  match l with
  | [] => []
  | g' :: l' =>
    if Rltb (axes_max g + axes_max g') (norm (vsub (rg_center g) (rg_center g')))
    then links_with i (S j) g l'
    else
      let p := meet g g' in
      if negb (reg_inside g p) && negb (reg_inside g' p)
      then mkEdge (Hull i) (Hull j) (norm (vsub (rg_center g) p) + norm (vsub (rg_center g') p)) p
           :: links_with i (S j) g l'
      else links_with i (S j) g l'
  end.
Fixpoint links_from (i : nat) (l : list region) : list edge :=
  match l with [] => [] | g :: l' => links_with i (S i) g l' ++ links_from (S i) l' end.
Definition evaluate_hierarchy (h : hull) : hull :=
  let gates := gates_from (hl_outer h) 0 0 (hl_inner h) in
  mkHull (hl_inner h) (hl_outer h) (hl_to h) (hl_dir_to h)
         (Some (gates ++ links_from 0 (hl_inner h))) [] (hl_out h) (hl_isout h) (length gates).

(** multi_hull_and_obstacle.py:640-680 [MultiRotationalContainer]. *)
Record hcontainer := mkHC { hc_list : list hull; hc_attractor : option vec }.
Definition hc_append (c : hcontainer) (h : hull) : hcontainer := mkHC (hc_list c ++ [h]) (hc_attractor c).
Fixpoint prepare_all (l : list hull) (a : vec) : list hull * res unit :=
  match l with
  | [] => ([], Ok tt)
  | h :: l' =>
    let (h1, r) := set_attractor (evaluate_hierarchy h) a true in
    match r with
    | Err e => (h1 :: l', Err e)
    | Ok _ => let (l2, r2) := prepare_all l' a in (h1 :: l2, r2)
    end
  end.
Definition hc_set_attractor (c : hcontainer) (a : vec) : hcontainer * res unit :=
  match hc_attractor c with
  | Some b => if allclose b a then (c, Ok tt)
              else let (l, r) := prepare_all (hc_list c) a in (mkHC l (Some a), r)
  | None => let (l, r) := prepare_all (hc_list c) a in (mkHC l (Some a), r)
  end.
Fixpoint evaluate_all (dim : nat) (l : list hull) (p : vec) : list hull * res (list vec) :=
  match l with
  | [] => ([], Ok [])
  | h :: l' =>
    let (h1, r) := evaluate_global dim h p in
    match r with
    | Err e => (h1 :: l', Err e)
    | Ok v => let (l2, r2) := evaluate_all dim l' p in (h1 :: l2, do vs <- r2; Ok (v :: vs))
    end
  end.
Definition hc_evaluate (dim : nat) (c : hcontainer) (p : vec) : hcontainer * res vec :=
  let (l, r) := evaluate_all dim (hc_list c) p in
  (mkHC l (hc_attractor c),
   do vs <- r;
   match vs with
   | [] => Err ENaN
   | _ => Ok (vdiv (fold_right vadd (vzero dim) vs) (INR (length vs)))
   end).
End Routes.

(** multi_hull_and_obstacle.py:609-637 [get_boundary_intersection_weight]. *)
Definition boundary_intersection_weight (x : vec) (inner outer : region) (power : R) : res R :=
  let gamma_outer := rg_gamma outer x in
  let gamma_inner := rg_gamma inner x in
  if Rleb gamma_inner 1 || Rleb 1 gamma_outer then Ok 0
  else
    let projected := rg_gamma inner (rg_surface outer x) in
    if Rleb projected 1 then Ok 1
    else fpow (1 / projected) (gamma_outer * power).

(** multi_hull_and_obstacle.py:683-702 [create_u_shape_obstacle]; [cuboid center axes_length
    is_boundary] is the obstacle of the package. *)
Definition u_shape (cuboid : vec -> vec -> bool -> region) (length height wallwidth : R) : hull :=
  new_hull [cuboid [0; wallwidth] [length - 2 * wallwidth; height] true]
           (cuboid [0; 0] [length; height] false) (fun x => x) (fun x => x).
