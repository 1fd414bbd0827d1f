(** Model of the convergence sequence: the initial dynamics seen as a sequence of rotations, the
    transport of the dynamics at an obstacle's reference point, and their weighted reduction.
    /repo/nonlinear_avoidance/dynamics/sequenced_dynamics.py,
    /repo/nonlinear_avoidance/dynamics/projected_rotation_dynamics.py,
    /repo/nonlinear_avoidance/multi_obstacle_avoider.py:473-685. *)
Require Import Reals List Bool ZArith.
From Verif Require Import Base Vec Angle Pow RotModel TreeModel WeightModel AvoidModel DynModel.
Import ListNotations.
Open Scope R_scope.

(** A dynamical system: [evaluate], the optional attribute [attractor_position] and the optional
    own method [evaluate_dynamics_sequence]. *)
Record dynamics := mkDyn {
  dy_eval : vec -> vec;
  dy_attractor : option vec;
  dy_own : option (vec -> res (option sequence)) }.

(** sequenced_dynamics.py:9-40 [evaluate_dynamics_sequence]; [None] where one of the two vectors
    vanishes.  The NaN test of line 38 cannot fire on reals. *)
Definition evaluate_dynamics_sequence (position : vec) (d : dynamics) (default : option dynamics)
  : res (option sequence) :=
  match dy_own d with
  | Some f => f position
  | None =>
      let final := dy_eval d position in
      let base :=
        match default, dy_attractor d with
        | Some b, _ => dy_eval b position
        | None, Some a => vsub a position
        | None, None => final
        end in
      if Req_EM_T (norm base) 0 then Ok None
      else if Req_EM_T (norm final) 0 then Ok None
      else do s <- create_from_vector_array [base; final]; Ok (Some s)
  end.

(** projected_rotation_dynamics.py:449-473 [evaluate_rotation_start_to_end] and 475-498
    [evaluate_rotation_position_to_transform] (the same with [center] the attractor and [end] the
    reference point of the obstacle). *)
Definition evaluate_rotation_start_to_end (start stop center : vec) : res (option rotation) :=
  let to_pos := vsub center start in
  if Req_EM_T (norm to_pos) 0 then Ok None
  else
    let to_pos := vdiv to_pos (norm to_pos) in
    let to_obs := vsub center stop in
    if Req_EM_T (norm to_obs) 0 then Err ENotImpl
    else
      let to_obs := vdiv to_obs (norm to_obs) in
      if Rleb (dot to_pos to_obs) (-1) then Ok None
      else do r <- from_directions to_pos to_obs; Ok (Some r).

Definition blank : store := fun _ => mkSlot 0 None None None.

Section Convergence.
(** First column of [get_orthogonal_basis] and the outcome of the sorting by level. *)
Variable orth0 : vec -> vec.
Variable sort : tree -> list nid.

(** multi_obstacle_avoider.py:659-685 [vector_rotation_reduction]. A missing [sequence2] has no
    attribute [basis_array]. *)
Definition vector_rotation_reduction (sequence1 : sequence) (trafo : option rotation)
    (sequence2 : option sequence) (weight2 : R) : res sequence :=
  if Rleb weight2 0 then Ok sequence1
  else
    match trafo with
    | None => Ok sequence1
    | Some r =>
        do t <- from_sequence (NInt 0) (NInt 1) sequence1;
        do t <- lift (add_node_orientation t (NInt (-1)) r (NInt 0));
        match sequence2 with
        | None => Err EAttr
        | Some s2 =>
            do t <- lift (add_sequence t (NInt 2) s2 (NInt (-1)) true);
            reduce_weighted_to_sequence orth0 t blank (sort t) [NInt 1; NInt 2]
              [1 - weight2; weight2]
        end
    end.

(** Attributes of the avoider. *)
Variable initial_dynamics : dynamics.
Variable default_dynamics : option dynamics.
(** [convergence_dynamics.attractor_position] and its [evaluate_projected_weight]. *)
Variable conv_attractor : vec.
Variable weight_of : vec -> component -> res R.

(** multi_obstacle_avoider.py:223-228 [singularity]. *)
Definition singularity : option vec := dy_attractor initial_dynamics.

Definition conv_root_id : nid := NInt (-10).
Definition conv_init_id : nid := NInt (-1).
Definition conv_id (ii_tree ii_com : nat) : nid := NPair (NInt (Z.of_nat ii_tree)) (NInt (Z.of_nat ii_com)).
Definition conv_step_id (ii_tree ii_com pp : nat) : nid :=
  NTriple (NInt (Z.of_nat ii_tree)) (NInt (Z.of_nat ii_com)) (NInt (Z.of_nat pp)).

(** multi_obstacle_avoider.py:583-616: the reference points from a component to the root.
    Without singularity [None - array] is a TypeError; a missing rotation stops in the debugger
    (line 600) and has no attributes. *)
Fixpoint chain_up (t : tree) (mt : mtree) (ii_tree ii_com pp fuel ii_obs : nat)
    (pred_id : nid) (pred_point : vec) : res (tree * nid) :=
  match fuel with
  | O => Ok (t, pred_id)
  | S fuel' =>
      do c <- get_component mt ii_obs;
      do center <- match singularity with Some a => Ok a | None => Err EType end;
      do tr <- evaluate_rotation_start_to_end pred_point (c_refpoint c) center;
      match tr with
      | None => Err EAttr
      | Some r =>
          let id := conv_step_id ii_tree ii_com pp in
          do t <- lift (add_node_orientation t id r pred_id);
          if (ii_obs =? m_root mt)%nat then Ok (t, id)
          else do p <- get_parent_idx mt ii_obs;
               chain_up t mt ii_tree ii_com (S pp) fuel' p id (c_refpoint c)
      end
  end.

Record conv_state := mkConv { cv_tree : tree; cv_nodes : list nid; cv_weights : list R }.

(** multi_obstacle_avoider.py:569-630: one component of a tree. A missing convergence sequence
    has no attributes. *)
Definition component_step (position : vec) (mt : mtree) (ii_tree : nat) (tree_weight : R)
    (conv : option sequence) (st : conv_state) (ii_com : nat) : res conv_state :=
  if (ii_com =? m_root mt)%nat then Ok st
  else
    do c <- get_component mt ii_com;
    do weight <- weight_of position c;
    if Rleb weight (1 / 100) then Ok st
    else
      do '(t, pred) <- chain_up (cv_tree st) mt ii_tree ii_com 0 maximum_level ii_com
                         conv_root_id position;
      match conv with
      | None => Err EAttr
      | Some s =>
          do t <- lift (add_sequence t (conv_id ii_tree ii_com) s pred true);
          Ok (mkConv t (cv_nodes st ++ [conv_id ii_tree ii_com])
                     (cv_weights st ++ [weight * tree_weight]))
      end.

(** [MultiObstacle.get_gamma] of the tree at the singularity. *)
Definition tree_gamma_at (mt : mtree) : res (option R) :=
  match singularity with
  | None => Ok None
  | Some a => match tree_gammas a mt with [] => Err EValue | gs => Ok (Some (rmin_list gs)) end
  end.

(** multi_obstacle_avoider.py:520-630: one obstacle tree.  The handlers of lines 552 and 626 only
    open the debugger; they are modelled as the exception itself. *)
Definition tree_step (position : vec) (initial_sequence : sequence) (mt : mtree) (ii_tree : nat)
    (st : conv_state) : res conv_state :=
  do g <- tree_gamma_at mt;
  do tree_weight <- compute_tree_weight g 2;
  if Rleb tree_weight (1 / 1000000) then Ok st
  else
    do root <- get_component mt (m_root mt);
    do weight <- weight_of position root;
    do trafo <- evaluate_rotation_start_to_end position (c_refpoint root) conv_attractor;
    do conv <- evaluate_dynamics_sequence (c_refpoint root)
                 (match default_dynamics with None => initial_dynamics | Some d => d end) None;
    do continuous <- vector_rotation_reduction initial_sequence trafo conv weight;
    do t <- lift (add_sequence (cv_tree st) (conv_id ii_tree (m_root mt)) continuous conv_root_id true);
    let st :=
      if Rltb (1 / 1000000) weight
      then mkConv t (cv_nodes st ++ [conv_id ii_tree (m_root mt)])
                    (cv_weights st ++ [weight * tree_weight])
      else mkConv t (cv_nodes st) (cv_weights st) in
    foldM (component_step position mt ii_tree tree_weight conv) st (seq 0 (length (m_comps mt))).

Fixpoint tree_steps (position : vec) (initial_sequence : sequence) (ii_tree : nat)
    (trees : list mtree) (st : conv_state) : res conv_state :=
  match trees with
  | [] => Ok st
  | mt :: trees' =>
      do st <- tree_step position initial_sequence mt ii_tree st;
      tree_steps position initial_sequence (S ii_tree) trees' st
  end.

(** Line 648: the rest of the weight goes to the last entry. *)
Fixpoint add_to_last (l : list R) (x : R) : list R :=
  match l with
  | [] => []
  | [w] => [w + x]
  | w :: l' => w :: add_to_last l' x
  end.

(** multi_obstacle_avoider.py:502-657 [compute_convergence_sequence]. *)
Definition compute_convergence_sequence (position : vec) (initial_sequence : sequence)
    (trees : list mtree) : res sequence :=
  do t0 <- from_sequence conv_root_id conv_init_id initial_sequence;
  do st <- tree_steps position initial_sequence 0 trees (mkConv t0 [] []);
  do '(ws, total) <- get_limited_weights_to_max_sum (cv_weights st ++ [0]);
  reduce_weighted_to_sequence orth0 (cv_tree st) blank (sort (cv_tree st))
    (cv_nodes st ++ [conv_init_id]) (add_to_last ws (1 - total)).

(** multi_obstacle_avoider.py:473-476 [compute_convergence_direction]; at a position without
    initial sequence [from_sequence(None)] fails on its attribute. *)
Definition compute_convergence_direction (position : vec) (trees : list mtree) : res vec :=
  do init <- evaluate_dynamics_sequence position initial_dynamics None;
  match init with
  | None => Err EAttr
  | Some s => do c <- compute_convergence_sequence position s trees; get_end_vector c
  end.
End Convergence.

(** multi_obstacle_avoider.py:290-364 [evaluate] with all its parts: the magnitude (own method
    [evaluate_magnitude] or norm of the velocity), the initial sequence, the convergence
    sequence and the avoidance. *)
Definition avoider_evaluate (orth0 : vec -> vec) (angle_of : vec -> vec -> vec)
    (projected_tangent : vec -> vec -> vec -> R -> res vec) (sort : tree -> list nid)
    (power radius : R) (max_repulsion : option R) (dimension : nat)
    (initial : dynamics) (own_magnitude : option (vec -> R)) (default : option dynamics)
    (conv_attractor : vec) (weight_of : vec -> component -> res R)
    (env : list mobs) (trees : list btree) (position : vec) : res vec :=
  let magnitude := match own_magnitude with
                   | Some f => f position
                   | None => norm (dy_eval initial position)
                   end in
  do init <- evaluate_dynamics_sequence position initial None;
  evaluate_sequence orth0 angle_of projected_tangent sort power radius max_repulsion dimension
    magnitude init
    (fun s => compute_convergence_sequence orth0 sort initial default conv_attractor weight_of
                position s (map mtree_of trees))
    position env trees.
