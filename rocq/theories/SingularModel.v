(** Model of [SingularityConvergenceDynamics] and [ConvergenceDynamicsWithoutSingularity]
    (nonlinear_rotation_avoider.py) and of the convergence around one obstacle
    (dynamics/projected_rotation_dynamics.py). *)
Require Import Reals List ZArith Bool.
From Verif Require Import Base Vec RotModel TreeModel AvoidModel ConvModel RotAvoidModel.
Import ListNotations.
Open Scope R_scope.

(** nonlinear_rotation_avoider.py:52-55 [get_convergence_weight] ([math.isclose(gamma, 0)] is
    equality with zero: the default absolute tolerance is zero). *)
Definition get_convergence_weight (gamma : R) : R :=
  if Req_EM_T gamma 0 then 1 else Rmin (1 / gamma) 1.

(** nonlinear_rotation_avoider.py:97-105 [evaluate_projected_weight] without a singularity. *)
Definition plain_projected_weight (gamma : R) : R := if Rleb 1 gamma then 1 / gamma else 1.

(** nonlinear_rotation_avoider.py:75-81 [evaluate_convergence_around_obstacle] and 107-118
    [evaluate_convergence_sequence_around_obstacle] without a singularity: the initial dynamics at
    the reference point of the obstacle. A missing sequence is returned as [None] and fails where
    it is added to the tree ([AttributeError]). *)
Definition plain_around (initial : dynamics) (position reference : vec) : res vec :=
  Ok (dy_eval initial reference).
Definition plain_sequence_around (initial : dynamics) (position reference : vec)
    (initial_sequence : sequence) : res sequence :=
  do s <- evaluate_dynamics_sequence reference initial None;
  match s with None => Err EAttr | Some s => Ok s end.

(** dynamics/projected_rotation_dynamics.py:600-623 [evaluate_convergence_sequence_around_obstacle]. *)
Definition projected_sequence_around (initial : dynamics) (attractor position reference : vec)
    (initial_sequence : sequence) : res sequence :=
  do r <- evaluate_rotation_start_to_end position reference attractor;
  match r with
  | None => Ok initial_sequence
  | Some r =>
      do s <- evaluate_dynamics_sequence reference initial None;
      match s with
      | None => Err EAttr
      | Some s => Ok (push_root_from_base_and_angle s r)
      end
  end.

(** dynamics/projected_rotation_dynamics.py:625-676 [evaluate_convergence_around_obstacle]; the
    projected weight ([ProjModel.v]) is an argument. A vanishing null direction gives NaN. *)
Definition projected_around (orth1 : vec -> vec) (initial : dynamics) (weight : R)
    (attractor position reference : vec) : res vec :=
  let initial_velocity := dy_eval initial position in
  let obstacle_velocity := dy_eval initial reference in
  do r <- evaluate_rotation_start_to_end position reference attractor;
  match r with
  | None => Ok initial_velocity
  | Some r =>
      let transformed := rotate r initial_velocity 1 in
      if Req_EM_T (norm transformed) 0 then Err ENaN
      else
        do averaged <- directional_weighted_sum
                         (mkBase (vdiv transformed (norm transformed)) (orth1 transformed))
                         [weight; 1 - weight] [obstacle_velocity; transformed];
        Ok (vscale (norm initial_velocity) (rotate r averaged ((-1) * (1 - weight))))
  end.

(** nonlinear_rotation_avoider.py:257-300 [compute_gamma_weights]: the mask of the relevant
    obstacles with their weights in order, [None] for the empty array of line 279. With
    [gamma_min < gamma < cut_off] no divisor vanishes. *)
Definition mask_select {A} (mask : list bool) (l : list A) : list A :=
  map snd (filter fst (combine mask l)).
Definition compute_gamma_weights (cut_off gamma_min : R) (power : nat) (gammas : list R)
  : option (list bool * list R) :=
  let close := map (fun g => Rleb g gamma_min) gammas in
  let k := length (filter (fun b => b) close) in
  if (0 <? k)%nat then Some (close, repeat (1 / INR k) k)
  else
    let near := map (fun g => Rltb g cut_off) gammas in
    match mask_select near gammas with
    | [] => None
    | gs =>
        let w := map (fun g => (1 / (g - gamma_min) - 1 / (cut_off - gamma_min)) ^ power) gs in
        Some (near, if Rltb 0 (rsum w) then map (fun x => x / rsum w) w else w)
    end.

(** nonlinear_rotation_avoider.py:267, 299: the attribute [weights] afterwards. *)
Fixpoint stored_weights (mask : list bool) (weights : list R) : list R :=
  match mask with
  | [] => []
  | true :: m => match weights with w :: ws => w :: stored_weights m ws | [] => 0 :: stored_weights m [] end
  | false :: m => 0 :: stored_weights m weights
  end.

Section Singular.
(** First column of [get_orthogonal_basis] and the outcome of the sorting by level. *)
Variable orth0 : vec -> vec.
Variable sort : tree -> list nid.

(** nonlinear_rotation_avoider.py:362-413 [evaluate_weighted_dynamics]. [arounds] has the outcome
    of [evaluate_convergence_around_obstacle] for each obstacle. The loop takes the obstacle with
    the number [ii] of the pass (line 388) for the node [it_obs]. [add_node] raises for a
    vanishing velocity, so line 398 is never reached. *)
Definition weighted_step (arounds : list (res vec)) (t : tree) (p : nat * nat) : res tree :=
  let '(ii, it_obs) := p in
  do v <- nth ii arounds (Err EIndex);
  lift (add_node t (NInt (Z.of_nat it_obs)) v (Some (NInt (-1))) None None).
Definition evaluate_weighted_dynamics (cut_off gamma_min : R) (power : nat) (gammas : list R)
    (arounds : list (res vec)) (initial_velocity : vec) : res vec :=
  match compute_gamma_weights cut_off gamma_min power gammas with
  | None => Ok initial_velocity
  | Some (mask, weights) =>
      let chosen := mask_select mask (seq 0 (length gammas)) in
      do t <- set_root empty_tree (NInt (-1)) initial_velocity;
      do t <- foldM (weighted_step arounds) t (combine (seq 0 (length chosen)) chosen);
      get_weighted_mean orth0 t blank (sort t) (map (fun i => NInt (Z.of_nat i)) chosen) weights
  end.

(** nonlinear_rotation_avoider.py:302-360 [evaluate_weighted_dynamics_sequence]. Per obstacle: the
    projected weight and the outcome of [evaluate_convergence_sequence_around_obstacle]. *)
Definition sequence_step (st : tree * list nid * list R) (p : nat * (res R * res sequence))
  : res (tree * list nid * list R) :=
  let '(t, nodes, weights) := st in
  let '(it_obs, (pw, seq_of)) := p in
  do w <- pw;
  if Rleb w 0 then Ok st
  else
    do s <- seq_of;
    do t <- lift (add_sequence t (NInt (Z.of_nat it_obs)) s (NInt (-10)) true);
    Ok (t, nodes ++ [NInt (Z.of_nat it_obs)], weights ++ [w]).
Definition evaluate_weighted_dynamics_sequence (obstacles : list (res R * res sequence))
    (initial_sequence : sequence) : res sequence :=
  do t <- from_sequence (NInt (-10)) (NInt (-1)) initial_sequence;
  do '(t, nodes, weights) <-
    foldM sequence_step (t, [], []) (combine (seq 0 (length obstacles)) obstacles);
  let total := rsum weights in
  if Rleb 1 total
  then reduce_weighted_to_sequence orth0 t blank (sort t) nodes (map (fun w => w / total) weights)
  else reduce_weighted_to_sequence orth0 t blank (sort t) (nodes ++ [NInt (-1)])
         (weights ++ [1 - total]).

(** nonlinear_rotation_avoider.py:199-217 [evaluate]; [avoid] is the method of the rotational
    avoider (initial velocity, convergence velocity). *)
Definition singular_evaluate (avoid : vec -> vec -> res vec) (cut_off gamma_min : R) (power : nat)
    (gammas : list R) (arounds : list (res vec)) (initial_velocity : vec) : res vec :=
  let initial_norm := norm initial_velocity in
  if Req_EM_T initial_norm 0 then Ok initial_velocity
  else
    let unit_velocity := vdiv initial_velocity initial_norm in
    do conv <- evaluate_weighted_dynamics cut_off gamma_min power gammas arounds unit_velocity;
    do rotated <- avoid unit_velocity (vscale initial_norm conv);
    Ok (vscale initial_norm rotated).

(** nonlinear_rotation_avoider.py:219-248 [evaluate_sequence]; [avoid_sequence] is the method of
    the rotational avoider (initial sequence, convergence sequence). *)
Definition singular_evaluate_sequence (avoid_sequence : sequence -> sequence -> res sequence)
    (dimension : nat) (magnitude : R) (initial : res (option sequence))
    (obstacles : sequence -> list (res R * res sequence)) : res vec :=
  if Req_EM_T magnitude 0 then Ok (vzero dimension)
  else
    do s <- initial;
    match s with
    | None => Ok (vzero dimension)
    | Some s =>
        do c <- evaluate_weighted_dynamics_sequence (obstacles s) s;
        do r <- avoid_sequence s c;
        do e <- get_end_vector r;
        Ok (vscale magnitude e)
    end.
End Singular.
