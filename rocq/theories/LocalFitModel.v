(** Model of the local dynamics of kmeans_learner/kmeans_motion_learner.py: their fit to the data of a
    cluster and its neighbours, and their use in the prediction.  The regressors are those of
    [FitModel]; [basis d] are the columns of [get_orthogonal_basis(d)] after the first. *)
Require Import Reals List Bool Arith ZArith.
From Verif Require Import Base Vec Pow RotModel ProjModel RotAvoidModel KMeansModel KLearnModel FieldModel FitModel.
Import ListNotations.
Open Scope R_scope.

Section LocalFit.
Variable orth1 : vec -> vec.
Variable basis : vec -> list vec.
Variable learn : list vec -> list vec -> vec -> vec.
(** [DeviationOfConstantFlow] with its reference velocity, [PerpendicularDeviatoinOfLinearDS] (in
    the plane) with its attractor, and their regressors. *)
Inductive local_dynamics :=
| LFlow (reference : vec) (predict : vec -> vec)
| LLinear (attractor : vec) (predict : nat -> bool -> vec -> vec).
(** The data: labels, positions and velocities of the samples. *)
Definition samples : Type := list (nat * (vec * vec)).
(** kmeans_motion_learner.py:402-413: the samples of a cluster, its predecessors and its
    successors. *)
Definition local_samples (g : hgraph) (data : samples) (c : nat) : list (vec * vec) :=
  map snd (filter (fun s => existsb (Nat.eqb (fst s)) (c :: predecessors g c ++ successors g c)) data).
(** kmeans_motion_learner.py:380-384: the mean velocity of a cluster (NaN if it is empty); [n] is the
    dimension of the data. *)
Definition mean_velocity (n : nat) (data : samples) (c : nat) : res vec :=
  match filter (fun s => Nat.eqb (fst s) c) data with
  | [] => Err ENaN
  | l => Ok (vdiv (fold_right (fun s acc => vadd (snd (snd s)) acc) (vzero n) l) (INR (length l)))
  end.
(** kmeans_motion_learner.py:364-414 [_fit_local_dynamics], one cluster. *)
Definition fit_local (l : klearner) (n : nat) (attractor : vec) (data : samples) (c : nat) : res local_dynamics :=
  let local := local_samples (kl_graph l) data c in
  match node_data (kl_graph l) c with
  | None => Err EKey
  | Some (O, _) =>
    do _ <- mapM (fun s => fit_side learn orth1 attractor (map fst local) (map snd local) (fst s) (snd s))
              [(0%nat, false); (0%nat, true); (1%nat, false); (1%nat, true)];
    Ok (LLinear attractor (fitted learn orth1 attractor (map fst local) (map snd local)))
  | Some _ =>
    do m <- mean_velocity n data c;
    do d <- enforces_direction orth1 l c m 10;
    if Req_EM_T (norm d) 0 then Err ENaN
    else
      do f <- fit_constant_flow learn (basis (vdiv d (norm d))) d (map fst local) n (map snd local);
      Ok (LFlow d f)
  end.
Definition fit_local_dynamics (l : klearner) (n : nat) (attractor : vec) (data : samples) : res (list local_dynamics) :=
  mapM (fit_local l n attractor data) (seq 0 (length (kl_centers l))).
(** [evaluate] (and [evaluate_without_lyapunov_check]), [get_lyapunov_gradient_direction] of the local
    dynamics (nonlinear_deviation.py:98-101, 133-146, 227-234, 284-315). *)
Definition local_evaluate (d : local_dynamics) (position : vec) : res vec :=
  match d with
  | LFlow r f => constant_flow (basis (vdiv r (norm r))) f r position
  | LLinear a f => perpendicular_evaluate orth1 f 1 1 a position
  end.
Definition local_gradient (d : local_dynamics) (position : vec) : res vec :=
  match d with
  | LFlow r _ => Ok r
  | LLinear a _ =>
    let d := vsub a position in
    Ok (if Req_EM_T (norm d) 0 then vzero (length position) else vdiv d (norm d))
  end.
(** [self._dynamics[i]]. *)
Definition dynamics_at {A} (ds : list local_dynamics) (i : nat) (f : local_dynamics -> res A) : res A :=
  match nth_error ds i with Some d => f d | None => Err EIndex end.
End LocalFit.
(** kmeans_motion_learner.py:509-564 [predict] with the fitted local dynamics. *)
Definition learned_predict (orth1 : vec -> vec) (basis : vec -> list vec) (label : vec -> nat)
    (avoid : vec -> vec -> nat -> vec -> R -> res vec) (ds : list local_dynamics) (l : klearner) (position : vec) : res vec :=
  let evaluate i p := dynamics_at ds i (fun d => local_evaluate orth1 basis d p) in
  predict orth1 label evaluate evaluate (fun i p => dynamics_at ds i (fun d => local_gradient d p)) avoid l position.
