(** Model of the obstacle containers,
    /repo/nonlinear_avoidance/multi_obstacle.py, multi_obstacle_container.py,
    multiboundary_container.py and multi_body_human.py. *)
Require Import Reals List Bool ZArith.
From Verif Require Import Base Vec RotModel WeightModel.
Import ListNotations.
Open Scope R_scope.

(** Indexing of a python list: negative indices count from the end. *)
Definition py_index (len : nat) (i : Z) : option nat :=
  (if (0 <=? i) && (i <? Z.of_nat len) then Some (Z.to_nat i)
   else if (- Z.of_nat len <=? i) && (i <? 0) then Some (Z.to_nat (Z.of_nat len + i))
   else None)%Z.
Definition py_nth {A} (l : list A) (i : Z) : res A :=
  match py_index (length l) i with
  | Some k => match nth_error l k with Some a => Ok a | None => Err EIndex end
  | None => Err EIndex
  end.
Fixpoint update {A} (l : list A) (k : nat) (a : A) : list A :=
  match l, k with
  | [], _ => []
  | _ :: l', O => a :: l'
  | x :: l', S k' => x :: update l' k' a
  end.

(** ** networkx.DiGraph of integer nodes with a list [indeces_children] per node.
    Insertion order is kept. *)
Record digraph := mkG { g_nodes : list (Z * list Z); g_edges : list (Z * Z) }.
Definition g_empty := mkG [] [].
Fixpoint set_attr (l : list (Z * list Z)) (x : Z) (cs : list Z) : list (Z * list Z) :=
  match l with
  | [] => [(x, cs)]
  | (y, c) :: l' => if Z.eqb x y then (x, cs) :: l' else (y, c) :: set_attr l' x cs
  end.
Definition g_attr (g : digraph) (x : Z) : option (list Z) :=
  option_map snd (find (fun n => Z.eqb x (fst n)) (g_nodes g)).
(** [add_node(x, indeces_children=[], ...)]: resets the attribute of an existing node. *)
Definition g_add_node (g : digraph) (x : Z) : digraph := mkG (set_attr (g_nodes g) x []) (g_edges g).
Definition g_has_edge (g : digraph) (p x : Z) : bool :=
  existsb (fun e => Z.eqb p (fst e) && Z.eqb x (snd e)) (g_edges g).
Definition g_add_edge (g : digraph) (p x : Z) : digraph :=
  if g_has_edge g p x then g else mkG (g_nodes g) (g_edges g ++ [(p, x)]).
(** [self._graph.nodes[p]["indeces_children"].append(x)]. *)
Definition g_append_child (g : digraph) (p x : Z) : option digraph :=
  match g_attr g p with
  | None => None
  | Some cs => Some (mkG (set_attr (g_nodes g) p (cs ++ [x])) (g_edges g))
  end.
(** [predecessors], [successors] of a node which is in the graph. *)
Definition predecessors (g : digraph) (x : Z) : res (list Z) :=
  match g_attr g x with
  | None => Err EExc
  | Some _ => Ok (map fst (filter (fun e => Z.eqb x (snd e)) (g_edges g)))
  end.
Definition successors (g : digraph) (x : Z) : res (list Z) :=
  match g_attr g x with
  | None => Err EExc
  | Some _ => Ok (map snd (filter (fun e => Z.eqb x (fst e)) (g_edges g)))
  end.

(** ** Poses of vartools: position and orientation.  [act g] applies an orientation to a
    vector, [mul] composes orientations ([Pose.transform_position_from_relative],
    [Pose.transform_pose_from_relative] of the package). *)
Record pose (G : Type) := mkPose { p_pos : vec; p_rot : G }.
Arguments mkPose {G} p_pos p_rot.
Arguments p_pos {G} p.
Arguments p_rot {G} p.

Section Poses.
Context {G : Type}.
Variable act : G -> vec -> vec.
Variable mul : G -> G -> G.

Definition from_relative (p : pose G) (x : vec) : vec := vadd (act (p_rot p) x) (p_pos p).
Definition pose_from_relative (p q : pose G) : pose G :=
  mkPose (from_relative p (p_pos q)) (mul (p_rot p) (p_rot q)).

(** ** multi_obstacle.py *)
(** An obstacle (component): pose, axes and local reference point. *)
Record cobs := mkCObs { o_pose : pose G; o_axes : vec; o_ref : vec }.
Definition with_pose (o : cobs) (p : pose G) : cobs := mkCObs p (o_axes o) (o_ref o).

(** multi_obstacle.py:15-27 [MultiObstacle]; [deformation_rate] is an attribute set from
    outside. *)
Record multi := mkMulti {
  m_pose : pose G;
  m_locals : list (pose G);
  m_list : list cobs;
  m_rootid : Z;
  m_graph : digraph;
  m_rate : option R
}.
Definition new_multi (p : pose G) : multi := mkMulti p [] [] 0 g_empty None.
Definition n_components (m : multi) : nat := length (m_list m).

(** multi_obstacle.py:127-136 [set_root]. *)
Definition set_root (m : multi) (o : cobs) : multi :=
  mkMulti (m_pose m) (m_locals m ++ [o_pose o])
          (m_list m ++ [with_pose o (pose_from_relative (m_pose m) (o_pose o))])
          0 (g_add_node (m_graph m) 0) (m_rate m).

(** multi_obstacle.py:138-182 [add_component]: new state and outcome.  The reference is given,
    or the result of [get_intersection_of_obstacles(obstacle, parent)] moved to the frame of
    the obstacle, [inter] with [to_relative] (line 151-159). *)
Variable to_relative : pose G -> vec -> vec.
Variable inter : cobs -> cobs -> option vec.
Definition add_component (m : multi) (o : cobs) (parent : Z) (reference : option vec)
  : multi * res Z :=
  let ref :=
    match reference with
    | Some r => Ok r
    | None =>
        do p <- py_nth (m_list m) parent;
        match inter o p with
        | None => Err EValue
        | Some x => Ok (to_relative (o_pose o) x)
        end
    end in
  match ref with
  | Err e => (m, Err e)
  | Ok r =>
      let o := mkCObs (o_pose o) (o_axes o) r in
      let new_id := Z.of_nat (length (m_list m)) in
      let m1 := mkMulti (m_pose m) (m_locals m ++ [o_pose o])
                  (m_list m ++ [with_pose o (pose_from_relative (m_pose m) (o_pose o))])
                  (m_rootid m) (g_add_node (m_graph m) new_id) (m_rate m) in
      match g_append_child (m_graph m1) parent new_id with
      | None => (m1, Err EKey)
      | Some g => (mkMulti (m_pose m1) (m_locals m1) (m_list m1) (m_rootid m1)
                           (g_add_edge g parent new_id) (m_rate m1), Ok new_id)
      end
  end.

(** multi_obstacle.py:115-119 [get_parent_idx]. *)
Definition get_parent_idx (m : multi) (i : Z) : res (option Z) :=
  if Z.eqb i (m_rootid m) then Ok None
  else do l <- predecessors (m_graph m) i;
       match l with [] => Err EIndex | p :: _ => Ok (Some p) end.

(** Components of [zip(self._local_poses, self._obstacle_list)] replaced; components beyond
    the shorter list are kept. *)
Fixpoint zip_with (f : pose G -> cobs -> cobs) (ps : list (pose G)) (os : list cobs) : list cobs :=
  match ps, os with
  | p :: ps', o :: os' => f p o :: zip_with f ps' os'
  | _, _ => os
  end.
(** multi_obstacle.py:72-75 [update_pose]. *)
Definition update_pose (m : multi) (new : pose G) : multi :=
  mkMulti new (m_locals m)
          (zip_with (fun p o => with_pose o (pose_from_relative new p)) (m_locals m) (m_list m))
          (m_rootid m) (m_graph m) (m_rate m).
(** multi_obstacle.py:77-87 [update_deformation]. *)
Fixpoint scale_locals (f : R) (ps : list (pose G)) (os : list cobs) : list (pose G) :=
  match ps, os with
  | p :: ps', o :: os' => mkPose (vscale f (p_pos p)) (p_rot p) :: scale_locals f ps' os'
  | _, _ => ps
  end.
Definition update_deformation (m : multi) (step_size : R) : multi :=
  match m_rate m with
  | None => m
  | Some rate =>
      let factor := 1 + rate * step_size in
      let locals := scale_locals factor (m_locals m) (m_list m) in
      mkMulti (m_pose m) locals
        (zip_with (fun p o => mkCObs (pose_from_relative (m_pose m) p) (vscale factor (o_axes o)) (o_ref o))
                  locals (m_list m))
        (m_rootid m) (m_graph m) (m_rate m)
  end.

(** Gamma of a component at a global position. *)
Variable gamma : cobs -> vec -> R.
(** multi_obstacle.py:92-99 [get_gamma]: the minimum of an empty list raises. *)
Definition min_of (l : list R) : res R := match l with [] => Err EValue | _ => Ok (rmin_list l) end.
Definition get_gamma (m : multi) (x : vec) : res R := min_of (map (fun o => gamma o x) (m_list m)).
(** multi_obstacle.py:89-90 [is_collision_free]. *)
Definition is_collision_free (m : multi) (x : vec) : res bool :=
  do g <- get_gamma m x; Ok (Rltb 1 g).
(** multi_obstacle.py:101-121 [get_gamma_except_components]. *)
Definition get_gamma_except (m : multi) (x : vec) (excluded : list Z) : res R :=
  min_of (map (fun io => gamma (snd io) x)
              (filter (fun io => negb (existsb (Z.eqb (Z.of_nat (fst io))) excluded))
                      (combine (seq 0 (length (m_list m))) (m_list m)))).

(** ** multi_obstacle_container.py *)
(** multi_obstacle_container.py:31-37 [is_collision_free]. *)
Fixpoint container_collision_free (l : list multi) (x : vec) : res bool :=
  match l with
  | [] => Ok true
  | m :: l' => do b <- is_collision_free m x; if b then container_collision_free l' x else Ok false
  end.
(** multi_obstacle_container.py:39-47 [get_gamma]. *)
Definition container_gamma (l : list multi) (x : vec) : res R :=
  do gs <- mapM (fun m => get_gamma m x) l; min_of gs.
End Poses.

(** ** multiboundary_container.py *)
(** multiboundary_container.py:45-57: parents (-1 without), children; obstacles are their gamma
    functions. *)
Record mboundary := mkMB {
  mb_gammas : list (vec -> R);
  mb_parent : list Z;
  mb_children : list (list Z)
}.
Definition mb_empty := mkMB [] [] [].
(** multiboundary_container.py:98-100, 113-119 [extend_graph], [set_parent], [add_children];
    IndexError for an index out of range, after the earlier assignments. *)
Definition extend_graph (c : mboundary) (child parent : Z) : mboundary * res unit :=
  match py_index (length (mb_parent c)) child with
  | None => (c, Err EIndex)
  | Some k =>
      let c1 := mkMB (mb_gammas c) (update (mb_parent c) k parent) (mb_children c) in
      match py_index (length (mb_children c)) parent with
      | None => (c1, Err EIndex)
      | Some j => (mkMB (mb_gammas c1) (mb_parent c1)
                     (update (mb_children c) j (nth j (mb_children c) [] ++ [child])), Ok tt)
      end
  end.
(** multiboundary_container.py:59-73 [append]; a parent other than -1 is ignored. *)
Definition mb_append (c : mboundary) (g : vec -> R) (parent : option Z) : mboundary * res unit :=
  let c1 := mkMB (mb_gammas c ++ [g]) (mb_parent c ++ [-1]%Z) (mb_children c ++ [[]]) in
  match parent with
  | Some p => if Z.eqb p (-1)
              then extend_graph c1 (Z.of_nat (length (mb_gammas c1)) - 1) (Z.of_nat (length (mb_gammas c1)) - 2)
              else (c1, Ok tt)
  | None => (c1, Ok tt)
  end.
(** multiboundary_container.py:83-89 [is_collision_free]. *)
Definition mb_collision_free (c : mboundary) (x : vec) : bool :=
  existsb (fun g => Rltb 1 (g x)) (mb_gammas c).
(** multiboundary_container.py:102-105 [get_root] with all roots. *)
Definition mb_roots (c : mboundary) : list Z :=
  filter (fun i => Z.ltb (nth (Z.to_nat i) (mb_parent c) 0%Z) 0)
         (map Z.of_nat (seq 0 (length (mb_parent c)))).
(** multiboundary_container.py:123-139 [get_level_numbers]: one round of the while loop per unit
    of [fuel]; [None] when it runs out. *)
Fixpoint level_round (c : mboundary) (level : Z) (ps : list Z) (levels : list Z)
  : list Z * list Z :=
  match ps with
  | [] => (levels, [])
  | p :: ps' =>
      let levels := update levels (Z.to_nat p) level in
      let '(levels, cs) := level_round c level ps' levels in
      (levels, nth (Z.to_nat p) (mb_children c) [] ++ cs)
  end.
Fixpoint level_loop (c : mboundary) (fuel : nat) (level : Z) (ps : list Z) (levels : list Z)
  : option (list Z) :=
  match ps with
  | [] => Some levels
  | _ =>
      match fuel with
      | O => None
      | S f => let '(levels, cs) := level_round c level ps levels in
               level_loop c f (level + 1) cs levels
      end
  end.
Definition get_level_numbers (c : mboundary) (fuel : nat) : option (list Z) :=
  level_loop c fuel 0 (mb_roots c) (repeat (-1)%Z (length (mb_gammas c))).

(** ** multi_body_human.py *)
Section Body.
Context {G : Type}.
Variable act : G -> vec -> vec.
(** A graph node: name, local reference (missing for the root), children indices and anchor
    points. Names are integers. *)
Record bnode := mkBN {
  bn_name : Z; bn_ref : option vec; bn_children : list Z; bn_refs : list vec }.
(** multi_body_human.py:96-124; nodes by id in insertion order, [b_count] = [_id_counter]. *)
Record body := mkBody {
  b_poses : list (pose G);          (* of [_obstacle_list] *)
  b_nodes : list bnode;             (* node ids are the positions *)
  b_edges : list (Z * Z);
  b_count : nat
}.
Definition body_empty := mkBody [] [] [] 0.
(** multi_body_human.py:159-180 [set_root], first call. *)
Definition body_set_root (b : body) (p : pose G) (name : Z) : body :=
  mkBody (b_poses b ++ [p]) (b_nodes b ++ [mkBN name None [] []]) (b_edges b) (S (b_count b)).
(** multi_body_human.py:135-136 [get_obstacle_id_from_name]. *)
Fixpoint find_name (l : list bnode) (k : nat) (name : Z) : option nat :=
  match l with
  | [] => None
  | x :: l' => if Z.eqb (bn_name x) name then Some k else find_name l' (S k) name
  end.
(** multi_body_human.py:211-248 [add_component]; the list grows before the parent is looked up. *)
Definition body_add (b : body) (p : pose G) (name : Z) (ref : vec) (parent_name : Z) (parent_ref : vec)
  : body * res unit :=
  let b1 := mkBody (b_poses b ++ [p]) (b_nodes b) (b_edges b) (b_count b) in
  match find_name (b_nodes b) 0 parent_name with
  | None => (b1, Err EIndex)
  | Some k =>
      let id := Z.of_nat (b_count b) in
      let nodes := b_nodes b ++ [mkBN name (Some ref) [] []] in
      let par := nth k nodes (mkBN 0 None [] []) in
      (mkBody (b_poses b1)
              (update nodes k (mkBN (bn_name par) (bn_ref par) (bn_children par ++ [id])
                                    (bn_refs par ++ [parent_ref])))
              (b_edges b ++ [(Z.of_nat k, id)]) (S (b_count b)), Ok tt)
  end.
Definition b_preds (b : body) (x : Z) : list Z :=
  map fst (filter (fun e => Z.eqb x (snd e)) (b_edges b)).
Definition b_succs (b : body) (x : Z) : list Z :=
  map snd (filter (fun e => Z.eqb x (fst e)) (b_edges b)).
Fixpoint index_of (x : Z) (l : list Z) : option nat :=
  match l with
  | [] => None
  | y :: l' => if Z.eqb x y then Some O else option_map S (index_of x l')
  end.
Definition get_pose (poses : list (pose G)) (i : Z) : res (pose G) :=
  match nth_error poses (Z.to_nat i) with Some p => Ok p | None => Err EIndex end.
Definition get_node (b : body) (i : Z) : res bnode :=
  match nth_error (b_nodes b) (Z.to_nat i) with Some p => Ok p | None => Err EKey end.
(** Anchor point of component [i] on its parent (global), and its own reference point. *)
Definition anchor (b : body) (poses : list (pose G)) (i : Z) : res vec :=
  match b_preds b i with
  | [] => Err EIndex
  | parent :: _ =>
      do pn <- get_node b parent;
      match index_of i (bn_children pn) with
      | None => Err EValue
      | Some k =>
          match nth_error (bn_refs pn) k with
          | None => Err EIndex
          | Some r => do pp <- get_pose poses parent; Ok (from_relative act pp r)
          end
      end
  end.
Definition own_reference (b : body) (poses : list (pose G)) (i : Z) : res vec :=
  do nd <- get_node b i;
  match bn_ref nd with
  | None => Err EKey
  | Some r => do p <- get_pose poses i; Ok (from_relative act p r)
  end.
(** multi_body_human.py:442-467 [align_position_with_parent]. *)
Definition align_position (b : body) (poses : list (pose G)) (i : Z) : res (list (pose G)) :=
  do ro <- own_reference b poses i;
  do rp <- anchor b poses i;
  do p <- get_pose poses i;
  Ok (update poses (Z.to_nat i) (mkPose (vadd (p_pos p) (vsub rp ro)) (p_rot p))).
(** multi_body_human.py:362-372 [align_obstacle_tree] and the loop 329-354 of
    [update_using_optitrack]: breadth first, [adjust i] is what happens to a component before it
    is aligned (nothing, or new pose / orientation). [None]: [fuel] ran out. *)
Variable adjust : list (pose G) -> Z -> res (pose G).
Fixpoint align_loop (b : body) (fuel : nat) (todo : list Z) (poses : list (pose G))
  : option (res (list (pose G))) :=
  match todo with
  | [] => Some (Ok poses)
  | i :: todo' =>
      match fuel with
      | O => None
      | S f =>
          match (do p <- adjust poses i;
                 align_position b (update poses (Z.to_nat i) p) i) with
          | Err e => Some (Err e)
          | Ok poses => align_loop b f (todo' ++ b_succs b i) poses
          end
      end
  end.
Definition align_tree (b : body) (fuel : nat) : option (res (list (pose G))) :=
  align_loop b fuel (b_succs b 0) (b_poses b).
End Body.
