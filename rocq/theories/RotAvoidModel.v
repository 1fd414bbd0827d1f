(** Model of the rotation around single obstacles,
    /repo/nonlinear_avoidance/avoidance/rotational_avoider.py: the continuation weight, the pseudo
    tangent, the directional summing, the loop of [avoid] and [avoid_sequence].

    A base is given by its first two columns (the other ones are coordinates of the angle space,
    see [ProjModel.v]). *)
Require Import Reals List Bool ZArith.
From Verif Require Import Base Vec Angle Pow RotModel TreeModel WeightModel AvoidModel ProjModel ConvModel.
Import ListNotations.
Open Scope R_scope.

Record dbase := mkBase { bs0 : vec; bs1 : vec }.
Definition base_opp (b : dbase) : dbase := mkBase (vscale (-1) (bs0 b)) (vscale (-1) (bs1 b)).
(** vartools [UnitDirection(base).from_vector(v).as_angle()]. *)
Definition angle_in (b : dbase) (v : vec) : res vec :=
  if Req_EM_T (norm v) 0 then Err ENaN
  else Ok (angle_space (fun _ => bs1 b) (bs0 b) (vdiv v (norm v))).

(** rotational_avoider.py:977-1014 [get_smooth_continuation_weight].  The numbers are numpy
    floats: division by zero gives infinity, which line 1009 limits to one. *)
Definition get_smooth_continuation_weight (radius power gamma : R)
    (vector_reference vector_convergence : vec) (base : dbase) : res R :=
  do dir_reference <- angle_in base vector_reference;
  do dir_convergence <- angle_in base vector_convergence;
  if Req_EM_T gamma 0 then Ok 1
  else
    let weight := 1 / gamma in
    if Rleb weight 0 then Ok 0
    else if Rleb 1 weight then Ok 1
    else if Rleb radius (norm dir_convergence) then Ok weight
    else
      let distance := norm (vsub dir_convergence dir_reference) in
      let radius_factor := Rmin (radius - norm dir_reference) (PI * / 2) in
      do limited <-
        (if Req_EM_T radius_factor 0
         then if Req_EM_T distance 0 then Err ENaN else Ok 1
         else let c := distance / radius_factor in
              if Rleb c 0 then Ok 0 else Ok (Rmin c 1));
      if Rleb limited 0 then Ok 0
      else
        do c <- fpow limited power;
        do e <- fdiv 1 c;
        fpow weight e.

(** rotational_avoider.py:854-884 [get_tangent_convergence_direction]; [e] is the first axis of
    the angle space. *)
Definition get_tangent_convergence_direction (e dir_convergence dir_reference : vec) (radius : R)
  : res vec :=
  if Req_EM_T (norm (vsub dir_convergence dir_reference)) 0 then Ok (vscale radius e)
  else
    match circle_far dir_reference (vsub dir_convergence dir_reference) radius with
    | None => Err EValue
    | Some a => Ok a
    end.

(** rotational_avoider.py:1016-1041 [get_pseudo_tangent]. *)
Definition get_pseudo_tangent (radius : R) (tail_rotation : bool)
    (vector_convergence vector_reference : vec) (base : dbase) : res vec :=
  do dir_convergence <- angle_in base vector_convergence;
  if Rleb radius (norm dir_convergence) && negb tail_rotation then Ok vector_convergence
  else
    do dir_reference <- angle_in base vector_reference;
    do a <- get_tangent_convergence_direction (bs1 base) dir_convergence dir_reference radius;
    Ok (vector_from_angle (bs0 base) a).

(** rotational_avoider.py:1043-1063 [get_intermediate_convergence_direction]. *)
Definition get_intermediate_convergence_direction (vector_convergence vector_reference : vec)
    (base : dbase) : res vec :=
  do dir_convergence <- angle_in base vector_convergence;
  do dir_reference <- angle_in base vector_reference;
  do a <- get_tangent_convergence_direction (bs1 base) dir_convergence dir_reference (PI * / 2);
  Ok (vector_from_angle (bs0 base) a).

(** vartools [get_directional_weighted_sum]: the mean of the angle vectors around the null
    direction. *)
Definition directional_weighted_sum (base : dbase) (weights : list R) (directions : list vec)
  : res vec :=
  do angles <- mapM (angle_in base) directions;
  Ok (vector_from_angle (bs0 base)
        (fold_right (fun wa acc => vadd (vscale (fst wa) (snd wa)) acc)
                    (vzero (length (bs0 base))) (combine weights angles))).

Section Rotation.
(** First column of [get_orthogonal_basis] in the tree, its second column, and the outcome of
    the sorting by level. *)
Variables (orth0 orth1 : vec -> vec).
Variable sort : tree -> list nid.
(** Attributes of the avoider. *)
Variables (radius power : R) (tail_rotation : bool).

(** rotational_avoider.py:1065-1148 [directional_convergence_summing].  Line 1092 passes the
    convergence vector as [vector_reference] and the reference as [vector_convergence].
    [convergence_radius] is the argument, which need not be the attribute [radius]. *)
Definition directional_convergence_summing (convergence_vector reference_vector : vec)
    (base : dbase) (gamma : R) (nonlinear_velocity : vec) (convergence_radius : R) : res vec :=
  do weight <- get_smooth_continuation_weight radius power gamma convergence_vector
                 reference_vector base;
  if Rleb weight 0 then Ok nonlinear_velocity
  else
    do tangent <- get_pseudo_tangent radius tail_rotation convergence_vector reference_vector base;
    do t <- set_root empty_tree (NInt (-1)) convergence_vector;
    do t <- lift (add_node t (NInt 0) nonlinear_velocity (Some (NInt (-1))) None None);
    do t <- lift (add_node t (NInt 1) (bs0 base) (Some (NInt (-1))) None None);
    do '(t, parent) <-
      (if Rltb (PI * / 2) convergence_radius then
         do inter <- get_intermediate_convergence_direction convergence_vector reference_vector base;
         do t <- lift (add_node t (NInt 2) inter (Some (NInt 1)) None None);
         Ok (t, NInt 2)
       else Ok (t, NInt 1));
    do t <- lift (add_node t (NInt 3) tangent (Some parent) None None);
    get_weighted_mean orth0 t blank (sort t) [NInt 0; NInt 3] [1 - weight; weight].

(** rotational_avoider.py:353-376: reference direction and null matrix of an obstacle. *)
Definition null_base (o : aobs) : vec * dbase :=
  let b := mkBase (ao_normal o) (ao_second o) in
  let '(ref, b) := if ao_boundary o then (vscale (-1) (ao_ref o), b)
                   else (ao_ref o, base_opp b) in
  if Rltb (dot ref (bs0 b)) 0 then (ref, base_opp b) else (ref, b).

(** rotational_avoider.py:347-407: the loop over the close obstacles and the weighted sum around
    the initial velocity.  One convergence velocity is used for all obstacles: it is set in the
    first pass of the loop (lines 380-386) or given. *)
Definition rotated_direction (convergence_velocity v0 : vec) (o : aobs) : res vec :=
  let '(ref, base) := null_base o in
  if Req_EM_T (norm convergence_velocity) 0 then Ok v0
  else directional_convergence_summing convergence_velocity ref base (ao_gamma o) v0
         (match ao_radius o with Some r => r | None => radius end).
Definition rotated_sum (weights_of : list R -> list R) (convergence_velocity v0 : vec)
    (close : list aobs) : res vec :=
  do directions <- mapM (rotated_direction convergence_velocity v0) close;
  directional_weighted_sum (mkBase (vdiv v0 (norm v0)) (orth1 v0))
    (weights_of (map ao_gamma close)) directions.

(** rotational_avoider.py:256-442 [avoid] with its loop; the convergence radius given as argument
    has become the attribute [radius] (lines 282-285). *)
Definition avoid_velocity (weights_of : list R -> list R) (relative_of : list aobs -> list R -> vec)
    (cut_off_gamma : R) (sticky_surface : bool) (initial_velocity convergence_velocity : vec)
    (obstacles : list aobs) : res vec :=
  avoid weights_of relative_of (rotated_sum weights_of convergence_velocity)
    cut_off_gamma sticky_surface initial_velocity obstacles.

(** rotational_avoider.py:144-254 [avoid_sequence]. *)
Record avoid_state := mkAvoid { av_tree : tree; av_nodes : list nid; av_weights : list R }.
Definition av_root_id : nid := NInt (-10).
Definition av_init_id : nid := NInt (-2).
Definition av_conv_id : nid := NInt (-1).
(** One pass of the loop, lines 178-234. *)
Definition avoid_step (conv : vec) (st : avoid_state) (iow : nat * (aobs * R)) : res avoid_state :=
  let '(ii, (o, importance)) := iow in
  let b := mkBase (ao_normal o) (ao_second o) in
  let '(ref, base) := if ao_boundary o then (vscale (-1) (ao_ref o), b)
                      else (ao_ref o, base_opp b) in
  do w <- get_smooth_continuation_weight radius power (ao_gamma o) ref conv base;
  if Rleb w 0 then Ok st
  else
    do tangent <- get_pseudo_tangent radius tail_rotation conv ref base;
    do '(t, parent) <-
      (if Rltb (PI * / 2) radius then
         do inter <- get_intermediate_convergence_direction conv ref base;
         let id := NPair (NInt 2) (NInt (Z.of_nat ii)) in
         do t <- lift (add_node (av_tree st) id inter (Some av_conv_id) None None);
         Ok (t, id)
       else Ok (av_tree st, av_conv_id));
    do t <- lift (add_node t (NInt (Z.of_nat ii)) tangent (Some parent) None None);
    Ok (mkAvoid t (av_nodes st ++ [NInt (Z.of_nat ii)]) (av_weights st ++ [w * importance])).
Definition avoid_sequence (weights_of : list R -> list R) (convergence_default : bool)
    (obstacles : list aobs) (initial_sequence convergence_sequence : sequence) : res sequence :=
  match obstacles with
  | [] => Ok initial_sequence
  | _ =>
      let obstacles := map clamp_obstacle obstacles in
      let importance := weights_of (map ao_gamma obstacles) in
      do t <- from_sequence av_root_id av_init_id initial_sequence;
      do t <- lift (add_sequence t av_conv_id convergence_sequence av_root_id true);
      do conv <- get_end_vector convergence_sequence;
      do st <- foldM (avoid_step conv) (mkAvoid t [] [])
                 (combine (seq 0 (length obstacles)) (combine obstacles importance));
      let '(nodes, weights) :=
        if convergence_default
        then (av_nodes st ++ [av_conv_id], av_weights st ++ [rsum importance - rsum (av_weights st)])
        else (av_nodes st, av_weights st) in
      reduce_weighted_to_sequence orth0 (av_tree st) blank (sort (av_tree st))
        (nodes ++ [av_init_id]) (weights ++ [1 - rsum weights])
  end.
End Rotation.
