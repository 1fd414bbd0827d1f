(** Model of helpers around obstacles: /repo/nonlinear_avoidance/utils.py lines 22-72,
    /repo/nonlinear_avoidance/avoidance/rotational_avoider.py lines 538-577 and 728-771,
    /repo/nonlinear_avoidance/multi_obstacle_avoider.py lines 421-451. *)
Require Import Reals List Bool.
From Verif Require Import Base Vec Pow RotModel TreeModel.
Import ListNotations.
Open Scope R_scope.

(** An obstacle as seen by these functions; positions are in the global frame. *)
Record shape := mkShape { sh_center : vec; sh_gamma : vec -> R; sh_normal : vec -> vec }.

(** utils.py:57-63: the contribution of one obstacle; short lists of powers or factors raise. *)
Definition add_pull (position : vec) (powers factors : list R) (step : vec) (p : nat * shape) : res vec :=
  let '(ii, obs) := p in
  match nth_error powers ii with
  | None => Err EIndex
  | Some power =>
      do stepsize <- fpow (sh_gamma obs position) power;
      match nth_error factors ii with
      | None => Err EIndex
      | Some factor => Ok (vadd step (vscale (stepsize * factor) (sh_normal obs position)))
      end
  end.
Definition pull (dimension : nat) (obstacles : list shape) (powers factors : list R) (position : vec) : res vec :=
  foldM (add_pull position powers factors) (vzero dimension) (combine (seq 0 (length obstacles)) obstacles).
(** utils.py:54-70: the loop. *)
Fixpoint descend (dimension : nat) (obstacles : list shape) (powers factors : list R) (step_factor convergence_error : R)
    (it_max : nat) (position : vec) : res vec :=
  match it_max with
  | O => Ok position
  | S it =>
      do step <- pull dimension obstacles powers factors position;
      if Rltb (norm step) convergence_error then Ok position
      else descend dimension obstacles powers factors step_factor convergence_error it
             (vadd position (vscale step_factor step))
  end.
(** utils.py:22-72 [gamma_normal_gradient_descent]. *)
Definition gradient_descent (dimension : nat) (obstacles : list shape) (factors powers : option (list R))
    (it_max : nat) (step_factor convergence_error : R) : res vec :=
  match obstacles with
  | o1 :: o2 :: _ =>
      let position := vscale (/ 2) (vadd (sh_center o1) (sh_center o2)) in
      let powers := match powers with Some l => l | None => repeat 2 (length obstacles) end in
      let factors := match factors with Some l => l | None => repeat 1 (length obstacles) end in
      descend dimension obstacles powers factors step_factor convergence_error it_max position
  | _ => Err EIndex
  end.

(** rotational_avoider.py:538-551 [_get_directional_deviation_weight]. *)
Definition directional_deviation_weight (weight weight_deviation power_factor : R) : res R :=
  if Rleb weight_deviation 0 then Ok 0
  else if Rleb 1 weight_deviation || Rleb 1 weight then Ok 1
  else do e <- fdiv 1 (weight_deviation * power_factor); fpow weight e.
(** rotational_avoider.py:553-574 [_get_nonlinear_inverted_weight]. *)
Definition nonlinear_inverted_weight (conv_norm nonl_norm radius weight : R) : R :=
  if Rleb nonl_norm radius then 0
  else if Rleb conv_norm radius then weight
  else
    let delta_nonl := nonl_norm - radius in
    let delta_conv := conv_norm - radius in
    weight * delta_nonl / (delta_nonl + delta_conv).
(** rotational_avoider.py:728-771 [_get_projected_velocity]; unit directions are given by their
    angles with respect to a common base. *)
Definition projected_velocity (tangent initial : vec) (weight radius : R) : res vec :=
  do tangent <- (if Req_EM_T radius (norm tangent) then Ok tangent
                 else if Req_EM_T (norm tangent) 0 then Err ENaN
                 else Ok (vscale (radius / norm tangent) tangent));
  let delta := vsub initial tangent in
  if Req_EM_T (norm delta) 0 then Ok initial
  else
    do dot_prod <- fdiv (dot tangent delta) (norm tangent * norm delta);
    let weight := if Rltb 0 dot_prod then weight * (1 - dot_prod) else weight in
    if Rltb weight 0 || Rltb 1 weight then Err EValue
    else Ok (vadd (vscale weight tangent) (vscale (1 - weight) initial)).

(** multi_obstacle_avoider.py:421-451 [compute_averaged_normal_and_gamma]: gamma and normal of all
    components; [min] of an empty list is a ValueError. *)
Definition min_of (l : list R) : R := match l with [] => 0 | x :: l => fold_left Rmin l x end.
Definition averaged_weights (gammas : list R) (weight_power : R) : res (list R) :=
  if Rleb (min_of gammas) 1 then
    let weights := map (fun g => if Rleb g 1 then 1 else 0) gammas in
    Ok (map (fun w => w / rsum weights) weights)
  else
    do weights <- mapM (fun g => do p <- fpow g weight_power; fdiv 1 p) gammas;
    Ok (if Rltb 1 (rsum weights) then map (fun w => w / rsum weights) weights else weights).
Definition weighted_vectors (n : nat) (weights : list R) (vectors : list vec) : vec :=
  fold_right (fun wv acc => vadd (vscale (fst wv) (snd wv)) acc) (vzero n) (combine weights vectors).
Definition averaged_normal_and_gamma (n : nat) (components : list (R * vec)) (weight_power : R) : res (vec * R) :=
  match components with
  | [] => Err EValue
  | _ =>
      let gammas := map fst components in
      do weights <- averaged_weights gammas weight_power;
      Ok (weighted_vectors n weights (map snd components), min_of gammas)
  end.
