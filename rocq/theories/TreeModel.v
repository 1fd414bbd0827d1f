(** Model of [VectorRotationTree], /repo/nonlinear_avoidance/vector_rotation.py lines 378-913.

    The networkx digraph is a list of nodes in insertion order (with optional attributes: a
    node created by [add_edge] only has none) and a list of edges in insertion order.  The
    attributes which every reduction recomputes ([weight], [orientation], [part_direction],
    [part_orientation]) live in a separate store, so that left-overs of earlier calls are
    visible in the model. *)
Require Import Reals List Bool ZArith.
From Verif Require Import Base Vec Angle RotModel.
Import ListNotations.
Open Scope R_scope.

(** Hashable node ids used by the package: integers and tuples (pairs, triples). *)
Inductive nid : Type :=
| NInt (z : Z)
| NPair (a b : nid)
| NTriple (a b c : nid).
Definition nid_eq_dec (x y : nid) : {x = y} + {x <> y}.
Proof. decide equality; apply Z.eq_dec. Defined.
Definition nid_eqb (x y : nid) : bool := if nid_eq_dec x y then true else false.

Record attrs := mkAttrs { a_level : nat; a_dir : vec }.
Record tree := mkTree {
  t_nodes : list (nid * option attrs);
  t_edges : list (nid * nid);
  t_root : option nid }.

Definition empty_tree : tree := mkTree [] [] None.

Definition ids (t : tree) : list nid := map fst (t_nodes t).
Definition mem (x : nid) (l : list nid) : bool := existsb (nid_eqb x) l.
(** [node_id in self.graph.nodes()] *)
Definition has_node (t : tree) (x : nid) : bool := mem x (ids t).
Fixpoint assoc (x : nid) (l : list (nid * option attrs)) : option attrs :=
  match l with
  | [] => None
  | (y, a) :: l' => if nid_eqb x y then a else assoc x l'
  end.
(** [self._graph.nodes[x]["level"]] etc.; KeyError on a missing node or missing attributes. *)
Definition get_attrs (t : tree) (x : nid) : res attrs :=
  match assoc x (t_nodes t) with Some a => Ok a | None => Err EKey end.

Definition successors (t : tree) (x : nid) : list nid :=
  map snd (filter (fun e => nid_eqb (fst e) x) (t_edges t)).
Definition predecessors (t : tree) (x : nid) : list nid :=
  map fst (filter (fun e => nid_eqb (snd e) x) (t_edges t)).

(** networkx [add_node(x, **attrs)]: creates the node or overwrites its attributes. *)
Fixpoint set_assoc (x : nid) (a : attrs) (l : list (nid * option attrs)) :=
  match l with
  | [] => [(x, Some a)]
  | (y, b) :: l' => if nid_eqb x y then (y, Some a) :: l' else (y, b) :: set_assoc x a l'
  end.
Definition nx_add_node (t : tree) (x : nid) (a : attrs) : tree :=
  mkTree (set_assoc x a (t_nodes t)) (t_edges t) (t_root t).
Definition nx_touch (t : tree) (x : nid) : tree :=
  if has_node t x then t else mkTree (t_nodes t ++ [(x, None)]) (t_edges t) (t_root t).
Definition edge_eqb (e f : nid * nid) : bool := nid_eqb (fst e) (fst f) && nid_eqb (snd e) (snd f).
(** networkx [add_edge(u, v)]: creates missing end points without attributes. *)
Definition nx_add_edge (t : tree) (u v : nid) : tree :=
  let t := nx_touch (nx_touch t u) v in
  if existsb (edge_eqb (u, v)) (t_edges t) then t
  else mkTree (t_nodes t) (t_edges t ++ [(u, v)]) (t_root t).

(** vector_rotation.py:407-419 [set_root_orientation]. *)
Definition set_root_orientation (t : tree) (x : nid) (r : rotation) : tree :=
  let t := nx_add_node t x (mkAttrs 0 (rb0 r)) in
  mkTree (t_nodes t) (t_edges t) (Some x).
(** vector_rotation.py:421-424 [set_root]. *)
Definition set_root (t : tree) (x : nid) (d : vec) : res tree :=
  do r <- from_directions d d; Ok (set_root_orientation t x r).

(** vector_rotation.py:396 [maximum_level]. *)
Definition maximum_level : nat := 100.

(** vector_rotation.py:454-502 [add_node]: the new state (also after an exception) and the
    outcome.  The [child_id] branch calls [set_direction(direction, node_id)] with swapped
    arguments: an array is not hashable, TypeError after the edge was added.  Levels are
    natural numbers.  The NaN test of line 496 cannot fire on reals. *)
Definition add_node (t : tree) (x : nid) (direction : vec)
    (parent child : option nid) (level : option nat) : tree * res unit :=
  if Req_EM_T (norm direction) 0 then (t, Err EValue)
  else
    let d := vdiv direction (norm direction) in
    if has_node t x then (t, Err EValue)
    else
      match parent, child, level with
      | Some p, _, _ =>
          let t1 := nx_add_edge t p x in
          match get_attrs t1 p with
          | Err e => (t1, Err e)
          | Ok a =>
              if Nat.leb maximum_level (S (a_level a)) then (t1, Err EValue)
              else (nx_add_node t1 x (mkAttrs (S (a_level a)) d), Ok tt)
          end
      | None, Some c, _ => (nx_add_edge t x c, Err EType)
      | None, None, Some l =>
          if Nat.leb maximum_level l then (t, Err EValue)
          else (nx_add_node t x (mkAttrs l d), Ok tt)
      | None, None, None => (t, Err EValue)
      end.

(** vector_rotation.py:541-547: the intermediate nodes of a sequence. *)
Fixpoint add_inter (t : tree) (node_id parent : nid) (ii : nat) (s : sequence)
  : tree * res nid :=
  match s with
  | [] => (t, Ok parent)
  | r :: s' =>
      let x := NPair node_id (NInt (Z.of_nat ii)) in
      match add_node t x (rb0 r) (Some parent) None None with
      | (t', Ok _) => add_inter t' node_id x (S ii) s'
      | (t', Err e) => (t', Err e)
      end
  end.
(** vector_rotation.py:527-539: first index and the rotations whose first base vector becomes
    an intermediate node. *)
Definition seq_start (t : tree) (s : sequence) (parent : nid) (common_parent : bool)
  : res (nat * sequence) :=
  if common_parent then
    match s with
    | [] => Err EIndex
    | r :: s' =>
        match get_attrs t parent with
        | Err e => Err e
        | Ok a => if allclose (rb0 r) (a_dir a) then Ok (1%nat, s') else Err EValue
        end
    end
  else Ok (0%nat, s).
(** vector_rotation.py:520-555 [add_sequence]. *)
Definition add_sequence (t : tree) (node_id : nid) (s : sequence) (parent : nid)
    (common_parent : bool) : tree * res unit :=
  match seq_start t s parent common_parent with
  | Err e => (t, Err e)
  | Ok (it_start, tail) =>
      match add_inter t node_id parent it_start tail with
      | (t', Err e) => (t', Err e)
      | (t', Ok p) =>
          match get_end_vector s with
          | Err e => (t', Err e)
          | Ok v => add_node t' node_id v (Some p) None None
          end
      end
  end.

(** vector_rotation.py:504-518 [from_sequence]. *)
Definition from_sequence (root_id node_id : nid) (s : sequence) : res tree :=
  match s with
  | [] => Err EIndex
  | r :: _ =>
      do t <- set_root empty_tree root_id (rb0 r);
      match add_sequence t node_id s root_id true with
      | (t', Ok _) => Ok t'
      | (_, Err e) => Err e
      end
  end.

(** vector_rotation.py:447-452 [add_node_orientation]. *)
Definition add_node_orientation (t : tree) (x : nid) (r : rotation) (parent : nid)
  : tree * res unit :=
  add_node t x (rotate r (rb0 r) 1) (Some parent) None None.

(** vector_rotation.py:640-650 [get_all_childs_children]: the list grows while it is walked.
    [fuel] bounds the number of steps; [None] means that it ran out. *)
Fixpoint bfs (t : tree) (fuel : nat) (done todo : list nid) : option (list nid) :=
  match todo with
  | [] => Some done
  | x :: todo' =>
      match fuel with
      | O => None
      | S f => bfs t f (done ++ [x]) (todo' ++ successors t x)
      end
  end.
Definition get_all_childs_children (t : tree) (fuel : nat) (x : nid) : option (list nid) :=
  bfs t fuel [] (successors t x).
(** In the reductions the fuel is the number of nodes, enough for every tree (proved). *)
Definition descendants (t : tree) (x : nid) : res (list nid) :=
  match get_all_childs_children t (length (t_nodes t)) x with
  | Some l => Ok l
  | None => Err EExc
  end.

(** ** Reduction *)
Record slot := mkSlot {
  s_w : R; s_orient : option rotation; s_pdir : option vec; s_part : option rotation }.
Definition store := nid -> slot.
Definition upd {A} (f : nid -> A) (x : nid) (v : A) : nid -> A :=
  fun y => if nid_eq_dec y x then v else f y.
Definition set_w (st : store) x w :=
  upd st x (mkSlot w (s_orient (st x)) (s_pdir (st x)) (s_part (st x))).
Definition set_part (st : store) x p :=
  upd st x (mkSlot (s_w (st x)) (s_orient (st x)) (s_pdir (st x)) (Some p)).
Definition set_orient_pdir (st : store) x o d :=
  upd st x (mkSlot (s_w (st x)) (Some o) (Some d) (s_part (st x))).
Definition get_orient (st : store) x : res rotation :=
  match s_orient (st x) with Some r => Ok r | None => Err EAttr end.
Definition get_pdir (st : store) x : res vec :=
  match s_pdir (st x) with Some r => Ok r | None => Err EKey end.
Definition get_part (st : store) x : res rotation :=
  match s_part (st x) with Some r => Ok r | None => Err EKey end.

Fixpoint foldM {A S} (f : S -> A -> res S) (s : S) (l : list A) : res S :=
  match l with
  | [] => Ok s
  | a :: l' => do s' <- f s a; foldM f s' l'
  end.

(** vector_rotation.py:624-626. *)
Definition reset_node_weights (t : tree) (st : store) : store :=
  fold_left (fun st x => set_w st x 0) (ids t) st.
(** vector_rotation.py:684-686. *)
Definition assign_weights (t : tree) (st : store) (l : list (nid * R)) : res store :=
  foldM (fun st '(x, w) => if has_node t x then Ok (set_w st x w) else Err EKey) st l.

(** vector_rotation.py:566-622 [evaluate_all_orientations] with [pi_margin=None] (the only way
    it is called in the package). *)
Definition orient_child (t : tree) (n : nid) (st : store) (c : nid) : res store :=
  do pd <- get_pdir st n;
  do a <- get_attrs t c;
  do r <- from_directions pd (a_dir a);
  Ok (set_orient_pdir st c r (a_dir a)).
Definition evaluate_all_orientations (t : tree) (st : store) (sorted_list : list nid)
  : res store :=
  match sorted_list with
  | [] => Err EIndex
  | x0 :: _ =>
      do a <- get_attrs t x0;
      do r <- from_directions (a_dir a) (a_dir a);
      let st := set_orient_pdir st x0 r (a_dir a) in
      foldM (fun st n => foldM (orient_child t n) st (successors t n)) st (ids t)
  end.

(** vector_rotation.py:703-756: one node of the reversed sorted list. *)
Definition rotate_part (b0 b1 : vec) (a : R) (st : store) (y : nid) : res store :=
  do p <- get_part st y;
  do p' <- rotate_base b0 b1 a p;
  Ok (set_part st y p').
Definition add_to_pred (x : nid) (st : store) (p : nid) : store :=
  set_w st p (s_w (st p) + s_w (st x)).
Definition partial_step (t : tree) (st : store) (x : nid) : res store :=
  let st := fold_left (add_to_pred x) (predecessors t x) st in
  do o <- get_orient st x;
  let w := s_w (st x) in
  let st := set_part st x (mkRot (rb0 o) (rb1 o) (rangle o * w)) in
  if Rle_dec w 0 then Ok st
  else if Rle_dec 1 w then Ok st
  else
    do succ <- descendants t x;
    foldM (rotate_part (rb0 o) (rb1 o) (rangle o * w - rangle o)) st succ.

(** vector_rotation.py:674-756 [update_partial_rotations].  Lines 677 and 690-692 only warn /
    break on NaN; reading [orientation.base] of a node without orientation is an
    AttributeError. *)
Definition update_partial_rotations (t : tree) (st : store) (l : list (nid * R))
    (sorted_list : list nid) : res store :=
  let st := reset_node_weights t st in
  do st <- assign_weights t st l;
  do st <- evaluate_all_orientations t st sorted_list;
  do _ <- foldM (fun _ x => do _ <- get_orient st x; Ok tt) tt (ids t);
  foldM (partial_step t) st (rev sorted_list).

(** vector_rotation.py:758-872 [evaluate_graph_summing]. *)
Section GraphSumming.
(** First column of [vartools.linalg.get_orthogonal_basis(v)] (not part of the repository). *)
Variable orth0 : vec -> vec.

Record sumstate := mkSum { g_st : store; g_seq : sequence; g_last : option rotation }.

(** Lines 817-840: all descendants of one node of the level, rotated back (the new bases are
    collected first and written at the end of the level). *)
Definition collect_back (t : tree) (st : store) (acc : list (nid * rotation)) (x : nid)
  : res (list (nid * rotation)) :=
  do succ <- descendants t x;
  do px <- get_part st x;
  do new <- mapM (fun y => do p <- get_part st y;
                           do p' <- rotate_base (rb0 px) (rb1 px) ((-1) * rangle px) p;
                           Ok (y, p')) succ;
  Ok (acc ++ new).

(** Lines 773-862: one level. *)
Definition level_step (t : tree) (sorted_list : list nid) (g : sumstate) (level : nat)
  : res sumstate :=
  let st := g_st g in
  do lev <- mapM (fun x => do a <- get_attrs t x; Ok (x, a_level a)) sorted_list;
  let nodelevel :=
    map fst (filter (fun xl => Nat.eqb (snd xl) level && negb (Reqb (s_w (st (fst xl))) 0)) lev) in
  match nodelevel with
  | [] => Ok g
  | x0 :: _ =>
      do p0 <- get_part st x0;
      let shared := rb0 p0 in
      do parts <- mapM (get_part st) nodelevel;
      let s := fold_right (fun p acc => vadd (vscale (rangle p) (rb1 p)) acc) [] parts in
      let new_angle := norm s in
      let averaged :=
        if Req_EM_T new_angle 0 then orth0 shared else vdiv s new_angle in
      let new := mkRot shared averaged new_angle in
      do all <- foldM (collect_back t st) [] nodelevel;
      match all with
      | [] => Ok (mkSum st (g_seq g) (Some new))
      | _ =>
          if Req_EM_T new_angle 0 then
            Ok (mkSum (fold_left (fun st yp => set_part st (fst yp) (snd yp)) all st)
                      (g_seq g) (Some new))
          else
            do all' <- mapM (fun yp => do p' <- rotate_base shared averaged new_angle (snd yp);
                                       Ok (fst yp, p')) all;
            Ok (mkSum (fold_left (fun st yp => set_part st (fst yp) (snd yp)) all' st)
                      (append_from_base_and_angle (g_seq g) new) (Some new))
      end
  end.

(** Lines 765-872.  [set(level_list)] of small natural numbers iterates in ascending order;
    levels without nodes change nothing.  Without any node of nonzero weight the variables of
    line 865 are unbound (UnboundLocalError, a NameError). *)
Definition max_level (l : list nat) : nat := fold_right Nat.max 0%nat l.
Definition evaluate_graph_summing (t : tree) (st : store) (sorted_list : list nid)
  : res sequence :=
  do lev <- mapM (fun x => do a <- get_attrs t x; Ok (a_level a)) sorted_list;
  do g <- foldM (level_step t sorted_list) (mkSum st create_empty None)
            (seq 0 (S (max_level lev)));
  match g_last g with
  | None => Err EName
  | Some r => Ok (append_from_base_and_angle (g_seq g) r)
  end.

(** vector_rotation.py:634-638 [get_nodes_ascending]: [np.argsort] is not stable, so the
    sorted list is any permutation of the nodes with ascending levels; reading the level of a node without
    attributes is a KeyError. *)
Definition all_levels (t : tree) : res (list nat) :=
  mapM (fun x => do a <- get_attrs t x; Ok (a_level a)) (ids t).

(** vector_rotation.py:662-672 [reduce_weighted_to_sequence], with the outcome [sorted_list] of the
    sorting as argument. *)
Definition reduce_weighted_to_sequence (t : tree) (st : store) (sorted_list : list nid)
    (node_list : list nid) (weights : list R) : res sequence :=
  if negb (Nat.eqb (length node_list) (length weights)) then Err EValue
  else
    do _ <- all_levels t;
    do st <- update_partial_rotations t st (combine node_list weights) sorted_list;
    evaluate_graph_summing t st sorted_list.

(** vector_rotation.py:652-660 [get_weighted_mean]. *)
Definition get_weighted_mean (t : tree) (st : store) (sorted_list : list nid)
    (node_list : list nid) (weights : list R) : res vec :=
  do s <- reduce_weighted_to_sequence t st sorted_list node_list weights;
  get_end_vector s.
End GraphSumming.
