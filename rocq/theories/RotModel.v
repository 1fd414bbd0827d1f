(** Model of the vector rotations, /repo/nonlinear_avoidance/vector_rotation.py lines 31-375.
    A base (array of shape [dimension x 2]) is the pair of its columns. *)
Require Import Reals List Bool.
From Verif Require Import Base Vec Angle.
Import ListNotations.
Open Scope R_scope.

(** vector_rotation.py:48-67 [rotate_direction]. *)
Definition rotate_direction (direction b0 b1 : vec) (rotation_angle : R) : vec :=
  let dir_norm := norm direction in
  if Req_EM_T dir_norm 0 then direction
  else
    let d := vdiv direction dir_norm in
    let p0 := dot b0 d in
    let p1 := dot b1 d in
    let angle := atan2 p1 p0 + rotation_angle in
    let out := vadd (vscale (cos angle) b0) (vscale (sin angle) b1) in
    let out := vscale (sqrt (p0 * p0 + p1 * p1)) out in
    let out := vadd out (vsub d (vadd (vscale p0 b0) (vscale p1 b1))) in
    vscale dir_norm out.

(** vector_rotation.py:70-93 [rotate_array], one column.  A zero column is divided by zero
    (NaN column in numpy). *)
Definition rotate_column (b0 b1 : vec) (rotation_angle : R) (direction : vec) : res vec :=
  let dir_norm := norm direction in
  if Req_EM_T dir_norm 0 then Err ENaN
  else
    let d := vdiv direction dir_norm in
    let p0 := dot b0 d in
    let p1 := dot b1 d in
    let angle := atan2 p1 p0 + rotation_angle in
    let out := vadd (vscale (cos angle) b0) (vscale (sin angle) b1) in
    let out := vscale (sqrt (p0 * p0 + p1 * p1)) out in
    Ok (vadd out (vsub d (vadd (vscale p0 b0) (vscale p1 b1)))).

Fixpoint mapM {A B} (f : A -> res B) (l : list A) : res (list B) :=
  match l with
  | [] => Ok []
  | a :: l' => do b <- f a; do bs <- mapM f l'; Ok (b :: bs)
  end.

(** vector_rotation.py:70-93 [rotate_array].  Simplified: one NaN column makes the whole
    result [Err ENaN] (numpy keeps the other columns). *)
Definition rotate_array (directions : list vec) (b0 b1 : vec) (rotation_angle : R)
  : res (list vec) :=
  mapM (rotate_column b0 b1 rotation_angle) directions.

(** vector_rotation.py:96-108 [VectorRotationXd] (dataclass): columns of [base] and angle. *)
Record rotation := mkRot { rb0 : vec; rb1 : vec; rangle : R }.

(** vector_rotation.py:125-132 and 276-286: a vector perpendicular to [v] in the plane of the
    first two axes.  A one-dimensional vector fails when index 1 is read. *)
Definition perp_first_two (v : vec) : res vec :=
  match v with
  | x :: y :: rest =>
      if Req_EM_T (norm [x; y]) 0
      then Ok (1 :: 0 :: vzero (length rest))
      else let n := norm [y; x * (-1)] in
           Ok (y / n :: (x * (-1)) / n :: vzero (length rest))
  | _ => Err EIndex
  end.

(** vector_rotation.py:109-137 [VectorRotationXd.from_directions].  Line 119 only warns.
    Zero vectors and exactly antiparallel vectors divide zero by zero. *)
Definition from_directions (vec_init vec_rot : vec) : res rotation :=
  if Req_EM_T (norm vec_init) 0 then Err ENaN
  else if Req_EM_T (norm vec_rot) 0 then Err ENaN
  else
    let u := vdiv vec_init (norm vec_init) in
    let v := vdiv vec_rot (norm vec_rot) in
    let dot_prod := dot u v in
    do perp <-
      (if allclose u v then perp_first_two u
       else
         let p := vsub v (vscale dot_prod u) in
         if Req_EM_T (norm p) 0 then Err ENaN else Ok (vdiv p (norm p)));
    Ok (mkRot u perp (acos (clamp1 dot_prod))).

(** vector_rotation.py:156-160 [inv]. *)
Definition inv (r : rotation) : rotation := mkRot (rb0 r) (rb1 r) ((-1) * rangle r).
(** vector_rotation.py:162-163. *)
Definition get_first_vector (r : rotation) : vec := rb0 r.
(** vector_rotation.py:165-171. *)
Definition get_second_vector (r : rotation) : vec :=
  rotate_direction (rb0 r) (rb0 r) (rb1 r) (rangle r).
(** vector_rotation.py:173-180. *)
Definition rotate (r : rotation) (direction : vec) (rot_factor : R) : vec :=
  rotate_direction direction (rb0 r) (rb1 r) (rot_factor * rangle r).
(** vector_rotation.py:208-213. *)
Definition inverse_rotate (r : rotation) (direction : vec) : vec :=
  rotate_direction direction (rb0 r) (rb1 r) ((-1) * rangle r).

(** vector_rotation.py:31-45 [directional_vector_addition]. *)
Definition directional_vector_addition (vector1 vector2 : vec) (weight : R) : res vec :=
  let norm1 := norm vector1 in
  if Req_EM_T norm1 0 then Ok (vscale weight vector2)
  else
    let norm2 := norm vector2 in
    if Req_EM_T norm2 0 then Ok (vscale (1 - weight) vector1)
    else
      let v1 := vdiv vector1 norm1 in
      let v2 := vdiv vector2 norm2 in
      do r <- from_directions v1 v2;
      Ok (vscale ((1 - weight) * norm1 + weight * norm2) (rotate r v1 weight)).

(** vector_rotation.py:216-248 [VectorRotationSequence]: [basis_array] of shape
    [dimension x n x 2] together with [rotation_angles] of length n is the list of its n
    rotations. *)
Definition sequence := list rotation.

(** vector_rotation.py:197-206 [rotate_vector_rotation]; the base handed to [rotate_array] is
    the base of the argument, not of [self] (as in the code). *)
Definition rotate_vector_rotation (self r : rotation) (rot_factor : R) : res rotation :=
  do c0 <- rotate_column (rb0 r) (rb1 r) (rot_factor * rangle self) (rb0 r);
  do c1 <- rotate_column (rb0 r) (rb1 r) (rot_factor * rangle self) (rb1 r);
  Ok (mkRot c0 c1 (rangle r)).

(** Both columns of one base through [rotate_array] (the reshape to [dimension x 2n] and back
    pairs the columns of each rotation again). *)
Definition rotate_base (b0 b1 : vec) (a : R) (r : rotation) : res rotation :=
  do c0 <- rotate_column b0 b1 a (rb0 r);
  do c1 <- rotate_column b0 b1 a (rb1 r);
  Ok (mkRot c0 c1 (rangle r)).

(** vector_rotation.py:182-195 [rotate_sequence]. *)
Definition rotate_sequence (self : rotation) (s : sequence) (rotation_factor : R)
  : res sequence :=
  mapM (rotate_base (rb0 self) (rb1 self) (rangle self * rotation_factor)) s.

(** vector_rotation.py:250-252. *)
Definition create_empty : sequence := [].

(** vector_rotation.py:254-293 [create_from_vector_array], one pair of normalised neighbours
    (lines 268-290): numerically close pairs get a perpendicular vector and angle 0.  The
    argument of [arccos] is only clamped from below; it is <= 1 in exact arithmetic. *)
Definition pair_rotation (u v : vec) : res rotation :=
  let d := dot v u in
  if allclose u v
  then do p <- perp_first_two u; Ok (mkRot u p 0)
  else
    let p := vsub v (vscale d u) in
    if Req_EM_T (norm p) 0 then Err ENaN
    else Ok (mkRot u (vdiv p (norm p)) (acos (Rmax d (-1)))).
Fixpoint pair_rotations (l : list vec) : res sequence :=
  match l with
  | u :: ((v :: _) as l') =>
      do r <- pair_rotation u v; do rs <- pair_rotations l'; Ok (r :: rs)
  | _ => Ok []
  end.
Fixpoint has_antiparallel (l : list vec) : bool :=
  match l with
  | u :: ((v :: _) as l') => Reqb (dot v u) (-1) || has_antiparallel l'
  | _ => false
  end.
(** vector_rotation.py:254-293. *)
Definition create_from_vector_array (vectors : list vec) : res sequence :=
  if existsb (fun v => isclose (norm v) 0) vectors then Err EValue
  else
    let l := map (fun v => vdiv v (norm v)) vectors in
    if has_antiparallel l then Err EValue
    else pair_rotations l.

(** vector_rotation.py:312-316, 318-322. *)
Definition append_from_base_and_angle (s : sequence) (r : rotation) : sequence := s ++ [r].
Definition push_root_from_base_and_angle (s : sequence) (r : rotation) : sequence := r :: s.

(** vector_rotation.py:306-310 [append_from_direction]: starts at [basis_array[:, -1, -1]],
    the *second* base vector of the last rotation (as in the code). *)
Definition append_from_direction (s : sequence) (direction : vec) : res sequence :=
  match s with
  | [] => Err EIndex
  | _ => let l := last s (mkRot [] [] 0) in
         do r <- from_directions (rb1 l) direction;
         Ok (append_from_base_and_angle s r)
  end.

(** vector_rotation.py:327-332 [get_end_vector]. *)
Definition get_end_vector (s : sequence) : res vec :=
  match s with
  | [] => Err EIndex
  | _ => let l := last s (mkRot [] [] 0) in Ok (rotate l (rb0 l) 1)
  end.

(** vector_rotation.py:351 [np.cumsum(weights[::-1])[::-1]]: suffix sums. *)
Fixpoint suffix_sums (w : list R) : list R :=
  match w with
  | [] => []
  | x :: w' => rsum (x :: w') :: suffix_sums w'
  end.

(** vector_rotation.py:359-366: for ii from the last but one rotation down to 0 all later bases are rotated by
    base ii.  Written as a recursion from the front: the tail is processed first. *)
Fixpoint back_rotate (s : sequence) (cum : list R) : res sequence :=
  match s, cum with
  | r :: s', c :: cum' =>
      do tl <- back_rotate s' cum';
      do tl' <- mapM (rotate_base (rb0 r) (rb1 r) (rangle r * (1 - c))) tl;
      Ok (r :: tl')
  | _, _ => Ok s
  end.

(** vector_rotation.py:369-374: rotate bottom-to-top by [rotation_angles * cumulated_weights]. *)
Fixpoint forward_rotate (s : sequence) (cum : list R) (direction : vec) : vec :=
  match s, cum with
  | r :: s', c :: cum' =>
      forward_rotate s' cum' (rotate_direction direction (rb0 r) (rb1 r) (rangle r * c))
  | _, _ => direction
  end.

(** vector_rotation.py:340-375 [rotate_weighted].  Line 353 reads [cumulated_weights[0]]
    (IndexError on an empty sequence) and only warns.  A weight list of another length is a
    numpy shape error. *)
Definition rotate_weighted (s : sequence) (direction : vec) (weights : list R) : res vec :=
  match weights with
  | [] => Err EIndex
  | _ =>
      if Nat.eqb (length weights) (length s) then
        let cum := suffix_sums weights in
        do s' <- back_rotate s cum;
        Ok (forward_rotate s' cum direction)
      else Err EValue
  end.

(** vector_rotation.py:334-338 [VectorRotationSequence.rotate]. *)
Definition seq_rotate (s : sequence) (direction : vec) (rot_factor : R) : res vec :=
  match s with
  | [] => Err EIndex
  | _ => rotate_weighted s direction (repeat 0 (length s - 1) ++ [rot_factor])
  end.
