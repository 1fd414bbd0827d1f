(** Model of the normals and of the sampled surface of the regions of k-means:
    /repo/nonlinear_avoidance/kmeans_learner/kmeans_obstacle.py lines 165-177, 187-211, 370-505,
    607-627. *)
Require Import Reals List Bool Arith.
From Verif Require Import Base Vec RotModel ProjModel RotAvoidModel KMeansModel.
Import ListNotations.
Open Scope R_scope.

(** kmeans_obstacle.py:165-175 [get_reference_direction]; the flag is [in_global_frame]. *)
Definition get_reference_direction (o : kobs) (position : vec) (global : bool) : vec :=
  let d := if global then vsub (k_center o) position else vscale (-1) position in
  if Req_EM_T (norm d) 0 then d else vdiv d (norm d).

(** kmeans_obstacle.py:187-211 [_get_gamma_without_transition], global frame. *)
Definition gamma_without_transition (o : kobs) (position : vec) : res gval :=
  if kobs_nan o then Err ENaN
  else
    let dp := norm (vsub position (k_center o)) in
    if Req_EM_T dp 0 then Ok (if k_boundary o then GMax else GVal 0)
    else
      do surf <- get_point_on_surface o position;
      let ds := norm (vsub surf (k_center o)) in
      if k_boundary o then Ok (GVal (ds / dp))
      else if Rltb ds dp then Ok (GVal (dp - ds)) else Ok (GVal (ds / dp)).

Section Normal.
(** Second column of [get_orthogonal_basis], and the outcome of [np.argsort]. *)
Variable orth1 : vec -> vec.
Variable argsort : list R -> list nat.

Definition oriented (o : kobs) (v : vec) : vec := if k_boundary o then vscale (-1) v else v.

(** kmeans_obstacle.py:397-428: on the surface.  The norms along [axis=0] are those of the
    coordinates, not those of the centers. *)
Definition column_norms (o : kobs) : list R :=
  map (fun i => norm (map (fun j => nth i (vsub (cluster (k_centers o) j) (k_center o)) 0) (ind_relevant o)))
      (seq 0 (k_dim o)).
Definition relevant_at (o : kobs) (k : nat) : res nat :=
  match nth_error (argsort (column_norms o)) k with
  | None => Err EIndex
  | Some i => match nth_error (ind_relevant o) i with None => Err EIndex | Some j => Ok j end
  end.
Definition normal_on_surface (o : kobs) (rel : vec) : res vec :=
  do j0 <- relevant_at o 0;
  if Rleb (k_radius o) (norm (vsub (cluster (k_centers o) j0) (k_center o)))
  then Ok (oriented o (vdiv rel (norm rel)))
  else
    do j1 <- relevant_at o 1;
    let plane := vsub (cluster (k_centers o) j0) (cluster (k_centers o) j1) in
    if Req_EM_T (norm plane) 0 then Err ENaN else Ok (oriented o (vdiv plane (norm plane))).

(** kmeans_obstacle.py:436-444, 492-499: the faces in front of the projected position, with their
    weights; [get_directional_weighted_sum] (vartools) leaves out weights of zero and scales the
    others to [total_weight], their sum. *)
Definition faces (o : kobs) (proj : vec) (projnorm : R) : list (R * vec) :=
  let wpos := map (fun x => Rmax x 0) (surface_distances o proj projnorm) in
  let w := map (fun x => x / rsum wpos) wpos in
  filter (fun f => Rltb 0 (fst f))
    (combine (update_nth (k_index o) 0 w) (map (knormal o) (seq 0 (length (k_centers o))))).
Definition normal_off_surface (o : kobs) (position : vec) (snorm : R) : res vec :=
  let rel := vsub position (k_center o) in
  let pnorm := norm rel in
  let inside := Rltb pnorm snorm in
  let proj_rel := if inside then vscale ((snorm / pnorm) ^ 2) rel else rel in
  let proj := if inside then vadd proj_rel (k_center o) else position in
  let projnorm := if inside then norm proj_rel else pnorm in
  if Req_EM_T (rsum (map (fun x => Rmax x 0) (surface_distances o proj projnorm))) 0 then Err ENaN
  else
    let fs := faces o proj projnorm in
    let null := vdiv rel pnorm in
    do d <- directional_weighted_sum (mkBase null (orth1 null)) (map fst fs) (map snd fs);
    Ok (oriented o d).

(** kmeans_obstacle.py:370-507 [get_normal_direction]: the normal and the array of the caller after
    the call.  At the center the first entry of the array is overwritten; in the local frame the
    array is a copy. *)
Definition get_normal_direction (o : kobs) (given : vec) (global : bool) : res (vec * vec) :=
  let position := if global then given else vadd given (k_center o) in
  let rel := vsub position (k_center o) in
  if kobs_nan o then Err ENaN
  else if Req_EM_T (norm rel) 0 then
    let position := match position with [] => [] | _ :: t => 1 :: t end in
    Ok (oriented o position, if global then position else given)
  else
    do surf <- get_point_on_surface o position;
    let snorm := norm (vsub surf (k_center o)) in
    do u <- (if Req_EM_T (norm rel) snorm then normal_on_surface o rel else normal_off_surface o position snorm);
    Ok (u, given).
End Normal.

(** kmeans_obstacle.py:607-627 [evaluate_surface_points]; [np.linspace] includes both ends. *)
Definition linspace_angle (n_points i : nat) : R :=
  if Nat.eqb n_points 1 then 0 else 2 * PI * INR i / INR (n_points - 1).
Definition evaluate_surface_points (o : kobs) (n_points : nat) : res (list vec) :=
  if negb (Nat.eqb (k_dim o) 2) then Err ENotImpl
  else mapM (fun i => let a := linspace_angle n_points i in
                      get_point_on_surface o (vadd [cos a; sin a] (k_center o))) (seq 0 n_points).
