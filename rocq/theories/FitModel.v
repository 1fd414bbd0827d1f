(** Model of the fits of dynamics/nonlinear_deviation.py.  The regressors are those of sklearn:
    [learn xs ys] is the prediction after [fit(xs, ys)].  [get_angle_space] of a zero vector is not
    defined (NaN). *)
Require Import Reals List Bool Arith.
From Verif Require Import Base Vec Pow RotModel ProjModel RotAvoidModel FieldModel.
Import ListNotations.
Open Scope R_scope.

Section Fit.
Variable learn : list vec -> list vec -> vec -> vec.
(** vartools [get_angle_space(v, null_matrix=base)]: [b0] is the first column of the base. *)
Definition angle_coordinates (b0 : vec) (columns : list vec) (v : vec) : res vec :=
  if Nat.eqb (length v) (length b0) then
    do a <- angle_in (mkBase b0 (hd [] columns)) v;
    Ok (map (fun c => dot c a) columns)
  else Err EValue.
(** nonlinear_deviation.py:126-131 [_clean_input_data], 275-279 [velocity_to_direction]. *)
Definition clean_data (b0 : vec) (columns : list vec) (data : list vec) : res (list vec) :=
  mapM (angle_coordinates b0 columns) data.
(** nonlinear_deviation.py:107-124 [fit_from_velocities], [fit] of [DeviationOfConstantFlow]:
    [width] is the number of columns of the data. *)
Definition fit_constant_flow (columns : list vec) (reference : vec) (xs : list vec) (width : nat) (data : list vec)
  : res (vec -> vec) :=
  if Req_EM_T (norm reference) 0 then Err ENaN
  else
    do ys <- clean_data (vdiv reference (norm reference)) columns data;
    if negb (Nat.eqb (length ys) (length xs)) then Err EValue
    else if negb (Nat.eqb (width - 1) (length reference - 1)) then Err EValue
    else Ok (learn xs ys).

(** nonlinear_deviation.py:236-273 [fit_from_velocities] of [PerpendicularDeviatoinOfLinearDS] in the
    plane: the regressor of an axis and a side is fitted to the samples of the side; without
    samples it predicts zero. *)
Definition on_side (axis : nat) (positive : bool) (x : vec) : bool :=
  Rleb 0 (nth axis x 0 * (if positive then 1 else -1)).
Variable orth : vec -> vec.
Definition fit_side (attractor : vec) (xs data : list vec) (axis : nat) (positive : bool) : res (vec -> vec) :=
  let relative := map (fun x => vsub x attractor) xs in
  if negb (Nat.eqb (length xs) (length data)) then Err EIndex
  else
    let samples := filter (fun p => on_side axis positive (fst p)) (combine relative data) in
    match samples with
    | [] => Ok (fun _ => [0])
    | _ =>
      let null := perpendicular_axis axis positive in
      do ys <- clean_data null [orth null] (map snd samples);
      Ok (learn (map fst samples) ys)
    end.
(** The prediction of [evaluate] after the fit (FieldModel [perpendicular_evaluate]). *)
Definition fitted (attractor : vec) (xs data : list vec) (axis : nat) (positive : bool) (q : vec) : vec :=
  match fit_side attractor xs data axis positive with Ok f => f q | Err _ => [0] end.
(** nonlinear_deviation.py:337-350 [predict] in the plane: the deviation at one position, with the
    velocity of [evaluate] there. *)
Definition deviation_at (position : vec) (velocity : res vec) : res R :=
  if Req_EM_T (norm position) 0 then Ok 0
  else
    do v <- velocity;
    fdiv (nth 0 position 0 * nth 1 v 0 - nth 1 position 0 * nth 0 v 0) (norm position * norm v).
Definition predict_deviations (evaluate : vec -> res vec) (positions : list vec) : res (list R) :=
  mapM (fun p => deviation_at p (evaluate p)) positions.
End Fit.
