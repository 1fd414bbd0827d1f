(** Model of the convergence dynamics of an avoider and of the convergence sequence for both kinds.
    /repo/nonlinear_avoidance/nonlinear_rotation_avoider.py:68-121,
    /repo/nonlinear_avoidance/multi_obstacle_avoider.py:165-228, 239-289, 502-657. *)
Require Import Reals List Bool ZArith.
From Verif Require Import Base Vec Angle RotModel TreeModel WeightModel AvoidModel DynModel ConvModel SingularModel.
Import ListNotations.
Open Scope R_scope.

(** The convergence dynamics: a ProjectedRotationDynamics with its [attractor_position] (its
    argument [reference_velocity] is not stored) or a ConvergenceDynamicsWithoutSingularity
    (nonlinear_rotation_avoider.py:68-74). *)
Inductive convergence :=
| Projected (attractor_position : vec)
| Free (convergence_dynamics initial_dynamics : dynamics).

(** multi_obstacle_avoider.py:257-284 [create_local_convergence_dynamics].  [has]: the dynamics has
    an attribute [attractor_position]; the value None stops in the debugger and has no [shape].
    The arguments of line 282 are positional: the initial dynamics become the convergence dynamics,
    the reference dynamics the initial ones. *)
Definition create_local_convergence_dynamics (has : bool) (initial : dynamics)
    (reference : option dynamics) : res convergence :=
  if has then
    match dy_attractor initial with
    | Some a => Ok (Projected a)
    | None => Err EAttr
    end
  else
    match reference with
    | None => Err EValue
    | Some d => Ok (Free initial d)
    end.

(** multi_obstacle_avoider.py:239-254 [create_with_convergence_dynamics] and 184-190: with the
    keyword [create_convergence_dynamics] the convergence dynamics are created again, without the
    reference dynamics. *)
Definition avoider_convergence (again has : bool) (initial : dynamics) (reference : option dynamics)
  : res convergence :=
  do c <- create_local_convergence_dynamics has initial reference;
  if again then create_local_convergence_dynamics has initial None else Ok c.

(** nonlinear_rotation_avoider.py:88, 95: the rotation of a velocity onto itself. *)
Definition rotation_of_velocity (velocity : vec) : res (option rotation) :=
  do r <- from_directions velocity velocity; Ok (Some r).

Section Convergence.
Variable orth0 : vec -> vec.
Variable sort : tree -> list nid.
Variable initial_dynamics : dynamics.
Variable default_dynamics : option dynamics.
(** [evaluate_projected_weight] of the projected dynamics. *)
Variable projected_weight_of : vec -> component -> res R.
Variable cv : convergence.

(** projected_rotation_dynamics.py:475-498, nonlinear_rotation_avoider.py:83-88
    [evaluate_rotation_position_to_transform]. *)
Definition position_to_transform (position : vec) (c : component) : res (option rotation) :=
  match cv with
  | Projected a => evaluate_rotation_start_to_end position (c_refpoint c) a
  | Free conv _ => rotation_of_velocity (dy_eval conv position)
  end.
(** projected_rotation_dynamics.py:449-473, nonlinear_rotation_avoider.py:90-95
    [evaluate_rotation_start_to_end]; [None - array] is a TypeError. *)
Definition start_to_end (start stop : vec) (center : option vec) : res (option rotation) :=
  match cv with
  | Projected _ =>
      do a <- match center with Some a => Ok a | None => Err EType end;
      evaluate_rotation_start_to_end start stop a
  | Free _ init => rotation_of_velocity (dy_eval init start)
  end.
(** nonlinear_rotation_avoider.py:97-105 [evaluate_projected_weight]. *)
Definition weight_at (position : vec) (c : component) : res R :=
  match cv with
  | Projected _ => projected_weight_of position c
  | Free _ _ => Ok (plain_projected_weight (c_gamma c position))
  end.

(** multi_obstacle_avoider.py:583-616, as [ConvModel.chain_up]. *)
Fixpoint any_chain_up (t : tree) (mt : mtree) (ii_tree ii_com pp fuel ii_obs : nat)
    (pred_id : nid) (pred_point : vec) : res (tree * nid) :=
  match fuel with
  | O => Ok (t, pred_id)
  | S fuel' =>
      do c <- get_component mt ii_obs;
      do tr <- start_to_end pred_point (c_refpoint c) (singularity initial_dynamics);
      match tr with
      | None => Err EAttr
      | Some r =>
          let id := conv_step_id ii_tree ii_com pp in
          do t <- lift (add_node_orientation t id r pred_id);
          if (ii_obs =? m_root mt)%nat then Ok (t, id)
          else do p <- get_parent_idx mt ii_obs;
               any_chain_up t mt ii_tree ii_com (S pp) fuel' p id (c_refpoint c)
      end
  end.

(** multi_obstacle_avoider.py:569-630. *)
Definition any_component_step (position : vec) (mt : mtree) (ii_tree : nat) (tree_weight : R)
    (conv : option sequence) (st : conv_state) (ii_com : nat) : res conv_state :=
  if (ii_com =? m_root mt)%nat then Ok st
  else
    do c <- get_component mt ii_com;
    do weight <- weight_at position c;
    if Rleb weight (1 / 100) then Ok st
    else
      do '(t, pred) <- any_chain_up (cv_tree st) mt ii_tree ii_com 0 maximum_level ii_com
                         conv_root_id position;
      match conv with
      | None => Err EAttr
      | Some s =>
          do t <- lift (add_sequence t (conv_id ii_tree ii_com) s pred true);
          Ok (mkConv t (cv_nodes st ++ [conv_id ii_tree ii_com])
                     (cv_weights st ++ [weight * tree_weight]))
      end.

(** multi_obstacle_avoider.py:520-630. *)
Definition any_tree_step (position : vec) (initial_sequence : sequence) (mt : mtree) (ii_tree : nat)
    (st : conv_state) : res conv_state :=
  do g <- tree_gamma_at initial_dynamics mt;
  do tree_weight <- compute_tree_weight g 2;
  if Rleb tree_weight (1 / 1000000) then Ok st
  else
    do root <- get_component mt (m_root mt);
    do weight <- weight_at position root;
    do trafo <- position_to_transform position root;
    do conv <- evaluate_dynamics_sequence (c_refpoint root)
                 (match default_dynamics with None => initial_dynamics | Some d => d end) None;
    do continuous <- vector_rotation_reduction orth0 sort initial_sequence trafo conv weight;
    do t <- lift (add_sequence (cv_tree st) (conv_id ii_tree (m_root mt)) continuous conv_root_id true);
    let st :=
      if Rltb (1 / 1000000) weight
      then mkConv t (cv_nodes st ++ [conv_id ii_tree (m_root mt)])
                    (cv_weights st ++ [weight * tree_weight])
      else mkConv t (cv_nodes st) (cv_weights st) in
    foldM (any_component_step position mt ii_tree tree_weight conv) st (seq 0 (length (m_comps mt))).

Fixpoint any_tree_steps (position : vec) (initial_sequence : sequence) (ii_tree : nat)
    (trees : list mtree) (st : conv_state) : res conv_state :=
  match trees with
  | [] => Ok st
  | mt :: trees' =>
      do st <- any_tree_step position initial_sequence mt ii_tree st;
      any_tree_steps position initial_sequence (S ii_tree) trees' st
  end.

(** multi_obstacle_avoider.py:502-657 [compute_convergence_sequence] for both kinds. *)
Definition any_convergence_sequence (position : vec) (initial_sequence : sequence)
    (trees : list mtree) : res sequence :=
  do t0 <- from_sequence conv_root_id conv_init_id initial_sequence;
  do st <- any_tree_steps position initial_sequence 0 trees (mkConv t0 [] []);
  do '(ws, total) <- get_limited_weights_to_max_sum (cv_weights st ++ [0]);
  reduce_weighted_to_sequence orth0 (cv_tree st) blank (sort (cv_tree st))
    (cv_nodes st ++ [conv_init_id]) (add_to_last ws (1 - total)).

(** multi_obstacle_avoider.py:473-476 [compute_convergence_direction]. *)
Definition any_convergence_direction (position : vec) (trees : list mtree) : res vec :=
  do init <- evaluate_dynamics_sequence position initial_dynamics None;
  match init with
  | None => Err EAttr
  | Some s => do c <- any_convergence_sequence position s trees; get_end_vector c
  end.
End Convergence.
