(** Model of the regression of a mixture of Gaussians,
    /repo/nonlinear_avoidance/gmm_learner/direction_space.py, and of the conditional covariance,
    /repo/nonlinear_avoidance/gmm_learner/learner/directional_gmm.py.

    The fitted mixture is given by weights, means and covariances; one sample is evaluated (the
    loops over the samples are independent).  The list of the inputs is not empty. *)
Require Import Reals List Bool Arith.
From Verif Require Import Base Vec Angle Pow RotModel FieldModel GmmModel.
Import ListNotations.
Open Scope R_scope.

Section Regression.
(** [numpy.linalg.det] and [numpy.linalg.pinv]. *)
Variable det : list vec -> R.
Variable pinv : list vec -> list vec.

(** direction_space.py:255 (also 190). *)
Definition outputs (dim : nat) (dims_input : list nat) : list nat :=
  filter (fun g => negb (existsb (Nat.eqb g) dims_input)) (seq 0 dim).
(** Products and quotients of the entries of two vectors. *)
Definition entry_div (v s : vec) : vec := map (fun p => fst p / snd p) (combine v s).
Definition entry_mul (v s : vec) : vec := map (fun p => fst p * snd p) (combine v s).
(** direction_space.py:270-285: the weights with the one of the attractor at distance [d]. *)
Definition regress_weights (p_beta b_min b_r d : R) (beta : list R) : res (list R) :=
  if Req_EM_T d 0 then Ok (map (fun _ => 0) beta ++ [1])
  else
    do q <- fpow (d / b_r) (- p_beta);
    let b := beta ++ [q + b_min] in
    if Req_EM_T (norm b) 0 then Err ENaN else Ok (vdiv b (norm b)).
(** direction_space.py:236-294 [regress_gmm]; the weights of lines 220-233 [get_mixing_weights]
    and 297-328 [get_gaussianProbability] and the means of lines 185-217 [get_mean_yx] have the
    formulas of directional_gmm.py with normalization.  [None]: an empty list. *)
Definition regress_gmm (gs : list gauss) (dim : nat) (dims_input : list nat) (mu var : option vec)
    (convergence_attractor : bool) (attractor : option vec) (p_beta b_min b_r : R) (x : vec) : res vec :=
  let dims_output := outputs dim dims_input in
  let x := match mu with Some m => vsub x (select dims_input m) | None => x end in
  if match var with Some v => existsb (fun i => Reqb (nth i v 0) 0) dims_input | None => false end then Err ENaN
  else
  let x := match var with Some v => entry_div x (select dims_input v) | None => x end in
  do beta <- mixing_weights det pinv gs dims_input true 1 x;
  let means := map (conditional_mean pinv dims_input dims_output x) gs in
  do bm <- (if convergence_attractor then
              let d := match attractor with Some a => norm (vsub x a) | None => norm x end in
              do b <- regress_weights p_beta b_min b_r d beta;
              Ok (b, means ++ [vzero (length dims_output)])
            else Ok (beta, means));
  let value := weighted_columns (length dims_output) (fst bm) (snd bm) in
  let value := match var with Some v => entry_mul value (select dims_output v) | None => value end in
  Ok (match mu with Some m => vadd value (select dims_output m) | None => value end).

(** Product and difference of matrices given by their rows. *)
Definition mat_mul (cols : nat) (m n : list vec) : list vec := map (fun r => weighted_columns cols r n) m.
Definition mat_sub (m n : list vec) : list vec := map (fun p => vsub (fst p) (snd p)) (combine m n).
(** directional_gmm.py:497-523 [get_covariance_out] of one component ([stretch_input_values] is
    not used). *)
Definition covariance_out (feat_in feat_out : list nat) (g : gauss) : list vec :=
  let c := g_cov g in
  mat_sub (submatrix feat_out feat_out c)
          (mat_mul (length feat_out)
                   (mat_mul (length feat_in) (submatrix feat_out feat_in c) (pinv (submatrix feat_in feat_in c)))
                   (submatrix feat_in feat_out c)).
End Regression.
