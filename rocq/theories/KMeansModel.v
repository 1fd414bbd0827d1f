(** Model of the clusters learned by k-means,
    /repo/nonlinear_avoidance/kmeans_learner/kmeans_obstacle.py and kmeans_motion_learner.py. *)
Require Import Reals List Bool Arith ZArith.
From Verif Require Import Base Vec RotModel.
Import ListNotations.
Open Scope R_scope.

(** ** kmeans_obstacle.py *)
(** Values of [get_gamma]: [GMax] is [sys.float_info.max], [GNone] the value of a function which
    ends without [return]. *)
Inductive gval : Type := GMax | GVal (g : R) | GNone.

(** The fields which are read; [k_centers] is [kmeans.cluster_centers_]. *)
Record kobs := mkKobs {
  k_centers : list vec;
  k_radius : R;
  k_index : nat;
  k_boundary : bool;
  k_successors : list nat
}.
Definition cluster (centers : list vec) (j : nat) : vec := nth j centers [].
Definition k_center (o : kobs) : vec := cluster (k_centers o) (k_index o).
Definition k_dim (o : kobs) : nat := length (k_center o).
(** kmeans_obstacle.py:47-62 [ind_relevant]. *)
Definition relevant (o : kobs) (j : nat) : bool :=
  negb (Nat.eqb j (k_index o)) &&
  Rltb (norm (vsub (k_center o) (cluster (k_centers o) j))) (2 * k_radius o).
Definition ind_relevant (o : kobs) : list nat :=
  filter (relevant o) (seq 0 (length (k_centers o))).
(** kmeans_obstacle.py:64-70, 120-124 [inbetween_points]; zero rows for other clusters. *)
Definition inbetween (o : kobs) (j : nat) : vec :=
  if relevant o j then vscale (1 / 2) (vadd (k_center o) (cluster (k_centers o) j))
  else vzero (k_dim o).
(** kmeans_obstacle.py:78-97, 112-118 [normal_directions]; a relevant cluster with the same
    center has a NaN normal, see [kobs_nan]. *)
Definition knormal (o : kobs) (j : nat) : vec :=
  if relevant o j then
    let d := vsub (cluster (k_centers o) j) (k_center o) in vdiv d (norm d)
  else vzero (k_dim o).
Definition kobs_nan (o : kobs) : bool :=
  existsb (fun j => Reqb (norm (vsub (cluster (k_centers o) j) (k_center o))) 0) (ind_relevant o).

(** vartools [get_intersection_between_line_and_plane] with [positive_only] (not in /repo): the
    point of the line on the plane, if any, in the positive direction. *)
Definition line_plane (p d q n : vec) : option vec :=
  let dn := dot n d in
  if Req_EM_T dn 0 then None
  else let t := dot n (vsub q p) / dn in
       if Rltb t 0 then None else Some (vadd p (vscale t d)).

(** kmeans_obstacle.py:545-553: the direction of the ray; the first axis at the center. *)
Definition surface_direction (v : vec) : vec :=
  if Req_EM_T (norm v) 0 then match v with [] => [] | _ :: t => 1 :: t end
  else vdiv v (norm v).
Definition surface_step (o : kobs) (d : vec) (s : R * vec) (j : nat) : R * vec :=
  match line_plane (k_center o) d (inbetween o j) (knormal o j) with
  | None => s
  | Some x => let l := norm (vsub (k_center o) x) in if Rltb l (fst s) then (l, x) else s
  end.
(** kmeans_obstacle.py:539-586 [get_point_on_surface], global frame; returns the tuple
    (surface_distance, boundary_position). *)
Definition surface_loop (o : kobs) (d : vec) : R * vec :=
  fold_left (surface_step o d)
    (filter (fun j => Rltb (1 / 10 ^ 9) (Rabs (dot (knormal o j) d))) (ind_relevant o))
    (k_radius o, vadd (k_center o) (vscale (k_radius o) d)).
Definition get_point_on_surface (o : kobs) (position : vec) : res vec :=
  if kobs_nan o then Err ENaN
  else Ok (snd (surface_loop o (surface_direction (vsub position (k_center o))))).
(** The same in the local frame. *)
Definition get_point_on_surface_local (o : kobs) (position : vec) : res vec :=
  if kobs_nan o then Err ENaN
  else Ok (vsub (snd (surface_loop o (surface_direction position))) (k_center o)).

(** kmeans_obstacle.py:588-605 [_get_normal_distances] with [is_boundary=False], and the entry of
    the own index set as in lines 267-268. *)
Definition surface_distances (o : kobs) (p : vec) (pnorm : R) : list R :=
  map (fun j => if Nat.eqb j (k_index o) then pnorm - k_radius o
                else dot (knormal o j) (vsub p (inbetween o j)))
      (seq 0 (length (k_centers o))).
Definition update_nth (i : nat) (x : R) (l : list R) : list R :=
  firstn i l ++ match skipn i l with _ :: t => x :: t | [] => [] end.
(** Python index, negative from the end. *)
Definition py_index (n : nat) (z : Z) : res nat :=
  if (z <? - Z.of_nat n)%Z then Err EIndex
  else if (z <? 0)%Z then Ok (Z.to_nat (z + Z.of_nat n))
  else if (z <? Z.of_nat n)%Z then Ok (Z.to_nat z) else Err EIndex.

(** kmeans_obstacle.py:343-356: the weights when a face is transparent. *)
Definition gamma_transparent (w r : list R) (t : nat) (pnorm : R) : gval :=
  if Rltb 0 (nth t w 0) then
    let w1 := map (fun x => Rmax (x - nth t w 0) 0) w in
    let w2 := update_nth t (1 - rsum w1) w1 in
    if Rleb 1 (nth t w2 0) then GMax
    else
      let r2 := update_nth t (nth t r 0 / (1 - nth t w2 0)) r in
      GVal (dot w2 r2 / pnorm)
  else GVal (dot w r / pnorm).

(** kmeans_obstacle.py:221-368 [get_gamma], global frame. *)
Definition get_gamma (o : kobs) (position : vec) (transparent : option Z) : res gval :=
  if kobs_nan o then Err ENaN
  else
  let n := length (k_centers o) in
  let rel := vsub position (k_center o) in
  let pnorm := norm rel in
  if Req_EM_T pnorm 0 then Ok (if k_boundary o then GMax else GVal 0)
  else
    do surf <- get_point_on_surface o position;
    let snorm := norm (vsub surf (k_center o)) in
    if Req_EM_T pnorm snorm then
      let on_face (z : Z) :=
        do t <- py_index n z;
        if Req_EM_T (dot (vsub surf (inbetween o t)) (knormal o t)) 0 then Ok GMax
        else Ok (GVal 1) in
      match transparent with
      | Some z => on_face z
      | None => match k_successors o with
                | [t] => on_face (Z.of_nat t)
                | _ => Ok (GVal 1)
                end
      end
    else
      let inside := Rltb pnorm snorm in
      let proj_rel := if inside then vscale ((snorm / pnorm) ^ 2) rel else rel in
      let proj := if inside then vadd proj_rel (k_center o) else position in
      let projnorm := if inside then norm proj_rel else pnorm in
      let dists := surface_distances o proj projnorm in
      let wpos := map (fun x => Rmax x 0) dists in
      if Req_EM_T (rsum wpos) 0 then Err ENaN
      else
        let w := map (fun x => x / rsum wpos) wpos in
        if k_boundary o then
          let r := map (fun x => projnorm - x) dists in
          match transparent with
          | None =>
            match k_successors o with
            | [] => Ok (GVal (dot w r / pnorm))
            | [t] => if Nat.ltb t n then Ok (gamma_transparent w r t pnorm) else Err EIndex
            | _ => Err ENotImpl
            end
          | Some z =>
            if (z <? 0)%Z then Ok (GVal (dot w r / pnorm))
            else do t <- py_index n z; Ok (gamma_transparent w r t pnorm)
          end
        else
          match k_successors o with
          | _ :: _ => Err ENotImpl
          | [] =>
            let mean := dot w dists in
            if Rltb 0 mean then Ok GNone   (* line 364: the value is not returned *)
            else Ok (GVal (pnorm / (pnorm - mean)))
          end.
(** kmeans_obstacle.py:181-185 [is_inside]; comparing [None] with a number raises. *)
Definition is_inside (o : kobs) (position : vec) : res bool :=
  do g <- get_gamma o position (Some (-1)%Z);
  match g with
  | GMax => Ok true
  | GVal x => Ok (Rltb 1 x)
  | GNone => Err EType
  end.

(** ** kmeans_motion_learner.py *)
(** kmeans_motion_learner.py:873-942 [_predict_sequence_weights].  [parents] are the predecessors
    of the cluster, [gamma] the value of [get_gamma] of the region of the cluster, transparent
    towards the parent; for [float_info.max] the quotient is below every float and the factor
    is one. *)
Definition predict_sequence_weights (centers : list vec) (parents : list nat)
    (gamma : nat -> res gval) (position : vec) (label : nat) (parent_factor cutoff : R)
  : res (list R) :=
  let zeros := repeat 0 (length centers) in
  match parents with
  | _ :: _ :: _ => Err ENotImpl
  | [] => Ok (update_nth label 1 zeros)
  | [parent] =>
    let center := vscale (1 / 2) (vadd (cluster centers label) (cluster centers parent)) in
    let d := vsub (cluster centers label) (cluster centers parent) in
    if Req_EM_T (norm d) 0 then Err ENaN
    else
      let nd := vdiv d (norm d) in
      let pos_dist := dot nd (vsub position center) in
      let center_dist := dot nd (vsub (cluster centers label) center) in
      if Req_EM_T (center_dist * parent_factor) 0 then Err ENaN
      else
        let tmp := Rmax (1 - Rmax pos_dist 0 / (center_dist * parent_factor)) 0 in
        do tmp <- (if Rltb 0 tmp then
                     do g <- gamma parent;
                     match g with
                     | GMax => Ok tmp
                     | GVal g => Ok (tmp * (1 - 1 / (1 + Rmax (g - cutoff) 0)))
                     | GNone => Err EType
                     end
                   else Ok tmp);
        let w := update_nth parent tmp zeros in
        Ok (update_nth label (1 - rsum w) w)
  end.

(** The hierarchy as a directed networkx graph: nodes in order of insertion with their level and
    direction, and edges. *)
Record hgraph := mkH { h_nodes : list (nat * (nat * vec)); h_edges : list (nat * nat) }.
Definition successors (g : hgraph) (v : nat) : list nat :=
  map snd (filter (fun e => Nat.eqb (fst e) v) (h_edges g)).
Definition predecessors (g : hgraph) (v : nat) : list nat :=
  map fst (filter (fun e => Nat.eqb (snd e) v) (h_edges g)).
Definition node_data (g : hgraph) (v : nat) : option (nat * vec) :=
  option_map snd (find (fun p => Nat.eqb (fst p) v) (h_nodes g)).
(** kmeans_motion_learner.py:325-344: the remaining nodes of the order. *)
Fixpoint hierarchy_loop (centers : list vec) (g : hgraph) (parent : nat) (order : list nat)
  : res hgraph :=
  match order with
  | [] => Ok g
  | v :: t =>
    let d := vsub (cluster centers v) (cluster centers parent) in
    if Req_EM_T (norm d) 0 then Err EValue
    else
      match node_data g parent with
      | None => Err EKey
      | Some (level, _) =>
        hierarchy_loop centers
          (mkH (h_nodes g ++ [(v, ((level + 1)%nat, vdiv d (norm d)))]) (h_edges g ++ [(v, parent)])) v t
      end
  end.
(** kmeans_motion_learner.py:291-344 [_fit_cluster_hierarchy] from the sorted list (the reversed
    [argsort] of the mean sequence values) on. *)
Definition fit_hierarchy (centers : list vec) (attractor : vec) (order : list nat) : res hgraph :=
  match order with
  | [] => Err EIndex
  | v :: t =>
    let d := vsub (cluster centers v) attractor in
    if Req_EM_T (norm d) 0 then Err ENotImpl
    else hierarchy_loop centers (mkH [(v, (0%nat, vdiv d (norm d)))] []) v t
  end.
(** kmeans_motion_learner.py:299-302: the mean sequence value of a label (NaN if unused). *)
Definition mean_sequence (labels : list nat) (values : list R) (j : nat) : res R :=
  let l := map snd (filter (fun p => Nat.eqb (fst p) j) (combine labels values)) in
  match l with [] => Err ENaN | _ => Ok (rsum l / INR (length l)) end.

(** kmeans_motion_learner.py:228-258 [_fit_remove_sparse_clusters].  [predict] is the prediction
    of the k-means object for its present centers. *)
Definition delete_nth {A} (i : nat) (l : list A) : list A := firstn i l ++ skipn (S i) l.
Record kstate := mkK { ks_n : nat; ks_centers : list vec; ks_delta : nat; ks_labels : list nat }.
Definition relabel (labels : list nat) (data : list vec) (f : nat -> vec -> nat) : list nat :=
  map (fun p => f (fst p) (snd p)) (combine labels data).
Definition sparse_step (predict : list vec -> vec -> nat) (data : list vec) (minimum : R)
    (s : kstate) (ii : nat) : res kstate :=
  let members := length (filter (Nat.eqb ii) (ks_labels s)) in
  if Rltb (INR members) minimum then
    let centers := delete_nth (ii - ks_delta s) (ks_centers s) in
    if Nat.eqb members 0 then Err EValue   (* predict of an empty array *)
    else Ok (mkK (ks_n s - 1) centers (ks_delta s + 1)
               (relabel (ks_labels s) data
                  (fun l x => if Nat.eqb l ii then predict centers x else l)))
  else if Nat.eqb (ks_delta s) 0 then Ok s
  else Ok (mkK (ks_n s) (ks_centers s) (ks_delta s)
             (map (fun l => if Nat.eqb l ii then (l - ks_delta s)%nat else l) (ks_labels s))).
Fixpoint sparse_loop (predict : list vec -> vec -> nat) (data : list vec) (minimum : R)
    (s : kstate) (is : list nat) : res kstate :=
  match is with
  | [] => Ok s
  | ii :: t => do s' <- sparse_step predict data minimum s ii; sparse_loop predict data minimum s' t
  end.
Definition remove_sparse (predict : list vec -> vec -> nat) (data : list vec) (centers : list vec)
    (labels : list nat) (factor : R) : res kstate :=
  let n := length centers in
  sparse_loop predict data (factor * INR (length data) / INR n) (mkK n centers 0 labels) (seq 0 n).
