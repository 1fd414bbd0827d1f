(** Model of the learned mixture of Gaussians over positions and directions,
    /repo/nonlinear_avoidance/gmm_learner/learner/directional_gmm.py, base.py and the attractor of
    gpr_directional.py, svr_directional.py.

    The fitted mixture (sklearn) is given by weights, means and covariances.  The attributes
    [mean_x] and [scale_x] are never set and [crop_vel] is one. *)
Require Import Reals List Bool Arith.
From Verif Require Import Base Vec Angle Pow RotModel ProjModel DynModel FieldModel.
Import ListNotations.
Open Scope R_scope.

Record gauss := mkG { g_weight : R; g_mean : vec; g_cov : list vec }.
Definition select (idx : list nat) (v : vec) : vec := map (fun i => nth i v 0) idx.
Definition submatrix (rows cols : list nat) (m : list vec) : list vec :=
  map (fun i => select cols (nth i m [])) rows.
Definition mat_vec (m : list vec) (v : vec) : vec := map (fun r => dot r v) m.

Section Mixture.
(** [numpy.linalg.det] and [numpy.linalg.pinv]. *)
Variable det : list vec -> R.
Variable pinv : list vec -> list vec.

(** directional_gmm.py:447-495 [get_gaussian_probability] of one sample and one component. *)
Definition gaussian_probability (feat_in : list nat) (x : vec) (g : gauss) : res R :=
  let c := submatrix feat_in feat_in (g_cov g) in
  let d := vsub x (select feat_in (g_mean g)) in
  if Rleb (det c) 0 then Err ENaN
  else Ok (1 / (Rpower (2 * PI) (INR (length x) * / 2) * sqrt (det c)) * exp (- dot d (mat_vec (pinv c) d))).

(** [numpy.max] of a nonempty list of weights. *)
Definition max_weight (gs : list gauss) : res R :=
  match gs with
  | [] => Err EValue
  | g :: gs' => Ok (fold_right (fun h m => Rmax (g_weight h) m) (g_weight g) gs')
  end.
(** directional_gmm.py:407-445 [get_mixing_weights] of one sample. *)
Definition mixing_weights (gs : list gauss) (feat_in : list nat) (normalize : bool) (weight_factor : R)
    (x : vec) : res (list R) :=
  do probs <- mapM (gaussian_probability feat_in x) gs;
  let alpha := map (fun gp => g_weight (fst gp) * snd gp) (combine gs probs) in
  if normalize then
    if Req_EM_T (rsum alpha) 0 then Err ENaN else Ok (map (fun a => a / rsum alpha) alpha)
  else
    do m <- max_weight gs;
    if Req_EM_T m 0 then Err ENaN
    else
      let beta := map (fun a => a / m * weight_factor ^ length feat_in) alpha in
      if Rltb 1 (rsum beta) then Ok (map (fun b => b / rsum beta) beta) else Ok beta.

(** directional_gmm.py:525-573 [get_mean_yx] of one sample and one component. *)
Definition conditional_mean (feat_in feat_out : list nat) (x : vec) (g : gauss) : vec :=
  let c := submatrix feat_in feat_in (g_cov g) in
  vadd (select feat_out (g_mean g))
       (mat_vec (submatrix feat_out feat_in (g_cov g))
                (mat_vec (pinv c) (vsub x (select feat_in (g_mean g))))).

(** directional_gmm.py:107-130 [transform_initial_to_normalized]: the rows (samples) from
    [dim_space] to [2 dim_space] are limited, not the columns. *)
Definition crop_row (r : vec) : vec := if Rltb 1 (norm r) then vdiv r (norm r) else r.
Definition crop (dim_space : nat) (rows : list vec) : list vec :=
  firstn dim_space rows ++ map crop_row (firstn dim_space (skipn dim_space rows)) ++
  skipn dim_space (skipn dim_space rows).

(** directional_gmm.py:364-391: the weights when the convergence to the attractor is asked for;
    [d] is the distance to the attractor. *)
Definition beta_r : R := 3 / 10.
Definition beta_min : R := 1 / 2.
Definition attracted_weights (d : R) (beta : list R) : list R :=
  if Req_EM_T d 0 then map (fun _ => 0) beta ++ [1]
  else let b := beta ++ [/ ((d / beta_r) ^ 2) + beta_min] in vdiv b (norm b).

Record gmm := mkGmm {
  gm_gauss : list gauss;
  gm_space : nat;        (* dim_space *)
  gm_total : nat;        (* dim_gmm *)
  gm_attractor : vec;    (* pos_attractor *)
  gm_power : R;          (* beta_power *)
  gm_converge : bool     (* convergence_attractor *)
}.
Definition set_converge (m : gmm) (b : bool) : gmm :=
  mkGmm (gm_gauss m) (gm_space m) (gm_total m) (gm_attractor m) (gm_power m) b.
(** The state after lines 361-362; the default of the argument is [False] (line 330). *)
Definition default_argument : option bool := Some false.
Definition with_argument (m : gmm) (arg : option bool) : gmm :=
  match arg with None => m | Some b => set_converge m b end.
Definition feat_out (m : gmm) : list nat :=
  map (fun i => (gm_total m - 1 - i)%nat) (seq 0 (gm_space m - 1)).

(** directional_gmm.py:324-405 [_predict]; the rows of [xs] are the samples.  Line 395 adds the
    weights of all samples. *)
Definition sample_weights (m : gmm) (feat_in : list nat) (x : vec) : res (list R) :=
  do beta <- mixing_weights (gm_gauss m) feat_in false 4 x;
  if gm_converge m then
    let attractor := if Nat.eqb (length x) (gm_space m) then gm_attractor m
                     else gm_attractor m ++ vzero (gm_space m) in
    Ok (attracted_weights (norm (vsub x attractor)) beta)
  else Ok beta.
Definition sample_means (m : gmm) (feat_in : list nat) (x : vec) : list vec :=
  map (conditional_mean feat_in (feat_out m) x) (gm_gauss m) ++
  (if gm_converge m then [vzero (length (feat_out m))] else []).
Definition predict_rows (m : gmm) (rows : list vec) : res (list vec) :=
  match rows with
  | [] => Err EIndex
  | r0 :: _ =>
    let feat_in := seq 0 (length r0) in
    let rows := crop (gm_space m) rows in
    do betas <- mapM (sample_weights m feat_in) rows;
    let beta_norm := rsum (map rsum betas) in
    if Req_EM_T beta_norm 0 then Err ENaN
    else
      do p <- fpow beta_norm (gm_power m);
      let scaled := map (map (fun b => b / beta_norm * p)) betas in
      Ok (map (fun bx => weighted_columns (length (feat_out m)) (fst bx) (sample_means m feat_in (snd bx)))
              (combine scaled rows))
  end.

(** Columns of [get_orthogonal_basis] of the null direction after the first (vartools). *)
Variable columns : vec -> list vec.
(** vartools [get_angle_space_inverse] around the direction of the linear system; the attractor
    itself is outside of the model. *)
Definition turned (m : gmm) (position angle : vec) : res vec :=
  let null := vsub (gm_attractor m) position in
  if Req_EM_T (norm null) 0 then Err ENaN
  else Ok (angle_space_inverse (length null) (vdiv null (norm null)) (columns null) angle).
(** base.py:59-88 [predict]: the new state and the velocity. *)
Definition predict (m : gmm) (x : vec) (arg : option bool) : gmm * res vec :=
  let m := with_argument m arg in
  (m, do angles <- predict_rows m [x];
      match angles with
      | [] => Err EIndex
      | a :: _ => turned m (firstn (gm_space m) x) (firstn (gm_space m - 1) a)
      end).
(** base.py:90-120 [predict_array] for samples which are positions: the new state, the array of
    the caller afterwards and the velocities.  The view of line 118 of directional_gmm.py is the
    array of the caller. *)
Definition predict_array (m : gmm) (xs : list vec) (arg : option bool) : gmm * list vec * res (list vec) :=
  let m := with_argument m arg in
  let xs' := crop (gm_space m) xs in
  (m, xs', do angles <- predict_rows m xs;
           mapM (fun xa => turned m (fst xa) (snd xa)) (combine xs' angles)).
End Mixture.

(** directional_gmm.py:144-170 [normalize_velocity], the velocities of the rows. *)
Definition normalize_velocities (crop_vel : R) (vels : list vec) : res (list vec) :=
  match vels with
  | [] => Err ENaN
  | _ =>
    let mean := rsum (map norm vels) / INR (length vels) in
    mapM (fun v => let m := Rmax (mean * crop_vel) (norm v) in
                   if Req_EM_T m 0 then Err ENaN else Ok (vdiv v m)) vels
  end.

(** directional_gmm.py:213-241, 268-272 [load_data_from_mat]: the attractor.  [ends] are the end points of
    the demonstrations; with an attractor given, line 272 reads an unbound variable. *)
Definition mean_end (n : nat) (total : nat) (ends : list vec) : vec :=
  fold_left (fun acc e => vadd acc (vdiv e (INR total))) ends (vzero n).
Definition gmm_attractor (n : nat) (ends : list vec) (given : option vec) : res vec :=
  match given with
  | Some _ => Err EName
  | None => Ok (mean_end n (length ends) ends)
  end.
(** gpr_directional.py:83-102 and svr_directional.py:101-112: the loop starts at the second
    demonstration. *)
Definition gpr_attractor (n : nat) (ends : list vec) : vec := mean_end n (length ends) (tl ends).
Definition svr_attractor (n : nat) (ends : list vec) (given : option vec) : vec :=
  match given with Some a => a | None => mean_end n (length ends) (tl ends) end.
(** directional_gmm.py:198-202 and gpr_directional.py:120-138: the angle which is learned for a
    demonstrated velocity (vartools [get_angle_space], coordinates in the columns of the base) is
    taken around the linear system with the attractor zero. *)
Definition learned_angle (columns : vec -> list vec) (position velocity : vec) : res vec :=
  let null := vscale (-1) position in
  if Req_EM_T (norm null) 0 then Err ENaN
  else if Req_EM_T (norm velocity) 0 then Err ENaN
  else
    let a := angle_space (fun _ => hd [] (columns null)) (vdiv null (norm null)) (vdiv velocity (norm velocity)) in
    Ok (map (fun c => dot c a) (columns null)).

(** base.py:122-164 [integrate_trajectory]; [ds] is [predict].  The array is filled with zeros,
    given starting points are only counted, a loop which stops leaves the zeros. *)
Fixpoint integrate_steps (ds : vec -> vec) (dt margin : R) (dim k : nat) (x : vec) : list vec :=
  match k with
  | O => []
  | S k' => let y := rk4 dt x ds 1 in
            y :: (if Rltb (norm y) margin then repeat (vzero dim) k' else integrate_steps ds dt margin dim k' y)
  end.
Definition trajectory (ds : vec -> vec) (dt margin : R) (dim n_steps : nat) (start : vec) : list vec :=
  start :: integrate_steps ds dt margin dim (n_steps - 1) start.
Definition integrate_trajectory (ds : vec -> vec) (dt margin : R) (dim n_steps n_trajectories : nat)
    (recorded : list vec) (starting_points : option (list vec)) : res (list (list vec)) :=
  match starting_points with
  | Some pts => Ok (map (fun _ => trajectory ds dt margin dim n_steps (vzero dim)) pts)
  | None => if Nat.ltb (length recorded) n_trajectories then Err EIndex
            else Ok (map (trajectory ds dt margin dim n_steps) (firstn n_trajectories recorded))
  end.
(** directional_gmm.py:575-633 [integrate_trajectory]: the attribute [predict2] does not exist. *)
Definition gmm_integrate_trajectory (n_trajectories : nat) (starting_points : option (list vec)) : res unit :=
  let k := match starting_points with Some pts => length pts | None => n_trajectories end in
  if Nat.ltb 0 k then Err EAttr else Ok tt.
