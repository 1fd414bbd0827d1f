(** Model of the evaluation of a path of segments, and of dynamics with a moving base:
    /repo/nonlinear_avoidance/dynamics/segmented_dynamics.py lines 136-187 and
    /repo/nonlinear_avoidance/dynamics/circular_dynamics.py lines 19-89. *)
Require Import Reals List Bool ZArith.
From Verif Require Import Base Vec Angle RotModel TreeModel AvoidModel DynModel ConvModel.
Import ListNotations.
Open Scope R_scope.

(** The identifier [(1, ii)] of the direction of a segment, and [ii] of the direction at the
    position; [(1, n_segments)] is the direction to the attractor. *)
Definition gid (i : nat) : nid := NPair (NInt 1) (NInt (Z.of_nat i)).
Definition sid (i : nat) : nid := NInt (Z.of_nat i).

(** A number is returned instead of an array at the attractor. *)
Inductive velocity := Vector (v : vec) | Number (x : R).

Section Path.
Variables (orth0 : vec -> vec) (sort : tree -> list nid).

(** segmented_dynamics.py:150-163: the two nodes of a segment. *)
Definition add_segment (position : vec) (t : tree) (p : nat * segment) : res tree :=
  let '(ii, s) := p in
  do direction <- segment_evaluate s position;
  do t <- lift (add_node t (gid ii) (s_dir s) (Some (gid (S ii))) None None);
  lift (add_node t (sid ii) direction (Some (gid ii)) None None).
(** segmented_dynamics.py:141-163: the segments from the last to the first one. *)
Definition path_tree (segs : list segment) (position : vec) : res tree :=
  do t <- set_root empty_tree (gid (length segs)) (global_direction segs position);
  foldM (add_segment position) t (rev (combine (seq 0 (length segs)) segs)).
(** segmented_dynamics.py:136-169 [evaluate_dynamics_sequence]. *)
Definition path_sequence (segs : list segment) (position : vec) : res sequence :=
  do weights <- path_weights segs position 2 3 1;
  do t <- path_tree segs position;
  reduce_weighted_to_sequence orth0 t blank (sort t)
    (map sid (seq 0 (length segs)) ++ [gid (length segs)]) weights.
(** segmented_dynamics.py:180-187 [evaluate]; maximum velocity and slow down distance are one. *)
Definition path_evaluate (segs : list segment) (position : vec) : res velocity :=
  let magnitude := path_magnitude segs position 1 1 in
  if Req_EM_T magnitude 0 then Ok (Number magnitude)
  else
    do s <- path_sequence segs position;
    do e <- get_end_vector s;
    Ok (Vector (vscale magnitude e)).
End Path.

(** circular_dynamics.py:36-48 [DynamicDynamics]: the position of the pose of the main dynamics,
    the influence radius and the time step; [decent_factor] is two.  The main dynamics is a function
    of the position of its pose and of the evaluated position. *)
Record moving := mkMoving { mv_base : vec; mv_radius : R; mv_step : R }.
Definition decent_factor : R := 2.
(** circular_dynamics.py:58-73: [None] is the early return. *)
Definition base_weight (radius dist_center : R) : option R :=
  if Rltb dist_center radius then Some 1
  else if Rltb dist_center (radius * decent_factor)
  then Some ((decent_factor * radius - dist_center) / ((decent_factor - 1) * radius))
  else None.
(** circular_dynamics.py:58-81 [update_base], up to the debugger call at its end. *)
Definition update_base (base_field : vec -> vec) (d : moving) (position : vec) : moving :=
  match base_weight (mv_radius d) (norm (vsub position (mv_base d))) with
  | None => d
  | Some w =>
      mkMoving (vadd (vscale (mv_step d) (vscale w (base_field (mv_base d)))) (mv_base d))
        (mv_radius d) (mv_step d)
  end.
(** circular_dynamics.py:83-89 [evaluate]: the call of [update_base] is commented out. *)
Definition moving_evaluate (main : vec -> vec -> vec) (d : moving) (position : vec) : moving * vec :=
  (d, main (mv_base d) position).
(** Calls of a user: an evaluation or an update, each at a position. *)
Inductive call := Evaluate (p : vec) | UpdateBase (p : vec).
Fixpoint run_calls (base_field : vec -> vec) (main : vec -> vec -> vec) (d : moving) (l : list call) : moving :=
  match l with
  | [] => d
  | Evaluate p :: l => run_calls base_field main (fst (moving_evaluate main d p)) l
  | UpdateBase p :: l => run_calls base_field main (update_base base_field d p) l
  end.
