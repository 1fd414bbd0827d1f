(** Model of the tracking of an articulated body and of its conversion to an obstacle of several
    components: /repo/nonlinear_avoidance/multi_body_human.py lines 126-157, 250-360, 400-440,
    484-497, 615-643. *)
Require Import Reals List Bool Arith ZArith.
From Verif Require Import Base Vec RotModel TreeModel WeightModel ContainerModel.
Import ListNotations.
Open Scope R_scope.

(** ** Orientation of a limb *)
(** Quaternions of [scipy.spatial.transform.Rotation]: vector part, then scalar part. *)
Record quaternion := mkQ { q_x : R; q_y : R; q_z : R; q_w : R }.
Definition cross (u v : vec) : vec :=
  [nth 1 u 0 * nth 2 v 0 - nth 2 u 0 * nth 1 v 0;
   nth 2 u 0 * nth 0 v 0 - nth 0 u 0 * nth 2 v 0;
   nth 0 u 0 * nth 1 v 0 - nth 1 u 0 * nth 0 v 0].
(** [Rotation.from_quat(q).apply(v)] for a quaternion of length one. *)
Definition quat_apply (q : quaternion) (v : vec) : vec :=
  let u := [q_x q; q_y q; q_z q] in
  let t := vscale 2 (cross u v) in
  vadd v (vadd (vscale (q_w q) t) (cross u t)).
(** multi_body_human.py:419-437: the quaternion of the direction [d], which is not zero. *)
Definition limb_quaternion (d : vec) : quaternion :=
  let axes_direction := vdiv d (norm d) in
  let rot_vec := cross [0; 0; 1] axes_direction in
  let rotvec_norm := norm rot_vec in
  if Req_EM_T rotvec_norm 0 then mkQ 0 0 0 1
  else
    let rot_vec := vdiv rot_vec rotvec_norm in
    let theta := asin rotvec_norm in
    let v := vscale (cos (theta / 2)) rot_vec in
    mkQ (nth 0 v 0) (nth 1 v 0) (nth 2 v 0) (sin (theta / 2)).

(** ** Tracking *)
Section Tracking.
Context {G FP FO : Type}.
Variable act : G -> vec -> vec.
(** [Rotation.from_quat], and the rotation around z by the first angle of [as_euler("zyx")]. *)
Variable of_quat : quaternion -> G.
Variable yaw : G -> G.
(** Filters of vartools: one run with a new value, and the present value. *)
Variables (run_position : FP -> vec -> FP) (position_of : FP -> vec).
Variables (run_orientation : FO -> G -> FO) (rotation_of : FO -> G).
(** [transform_position_to_relative], [transform_orientation_to_relative] of the pose of the robot. *)
Variables (to_relative : pose G -> vec -> vec) (rot_to_relative : pose G -> G -> G).

(** rigid_body.py: a measurement. *)
Record message := mkMsg { ms_id : Z; ms_position : vec; ms_rotation : G }.
(** The body with the tracking id and the filters of each node, and the robot (id and pose). *)
Record tracked := mkTracked {
  t_body : body (G := G);
  t_ids : list (option Z);
  t_filters : list (option (FP * FO));
  t_robot : option (Z * pose G)
}.
(** multi_body_human.py:250-257 [optitrack_indeces]: an obstacle without node raises. *)
Definition optitrack_indices (t : tracked) : res (list Z) :=
  if Nat.ltb (length (t_ids t)) (length (b_poses (t_body t))) then Err EKey
  else Ok (map (fun o => match o with Some i => i | None => (-1)%Z end) (firstn (length (b_poses (t_body t))) (t_ids t))).
(** multi_body_human.py:267-280: the pose of the robot, of the first measurement with its id. *)
Definition update_robot (robot : option (Z * pose G)) (msgs : list message) : option (Z * pose G) :=
  match robot with
  | None => None
  | Some (id, p) =>
    match find (fun m => Z.eqb (ms_id m) id) msgs with
    | Some m => Some (id, mkPose (ms_position m) (ms_rotation m))
    | None => Some (id, p)
    end
  end.
(** multi_body_human.py:284-310: one measurement; state: filters and new poses. *)
Definition filter_message (indices : list Z) (robot : option (Z * pose G)) (transform : bool)
    (st : list (option (FP * FO)) * list (option (pose G))) (m : message)
  : res (list (option (FP * FO)) * list (option (pose G))) :=
  match index_of (ms_id m) indices with
  | None => Ok st
  | Some k =>
    match nth_error (fst st) k with
    | None => Err EIndex
    | Some None => Err EAttr
    | Some (Some (fp, fo)) =>
      let fp := run_position fp (ms_position m) in
      let fo := run_orientation fo (ms_rotation m) in
      let p := mkPose (position_of fp) (rotation_of fo) in
      let p := match robot with
               | Some (_, rp) => if transform then mkPose (to_relative rp (p_pos p)) (rot_to_relative rp (p_rot p)) else p
               | None => p
               end in
      Ok (update (fst st) k (Some (fp, fo)), update (snd st) k (Some p))
    end
  end.
(** multi_body_human.py:330-338: the root, at a fixed height and turned around z only. *)
Definition root_pose (p : pose G) : res (pose G) :=
  match p_pos p with
  | x :: y :: _ :: l => Ok (mkPose (x :: y :: 0.2 :: l) (yaw (p_rot p)))
  | _ => Err EIndex
  end.
(** multi_body_human.py:400-440 [update_orientation_based_on_position] after line 354. *)
Definition limb_pose (b : body (G := G)) (poses : list (pose G)) (i : Z) (p : pose G) : res (pose G) :=
  do a <- anchor act b poses i;
  let d := vsub (p_pos p) a in
  if Req_EM_T (norm d) 0 then Ok p else Ok (mkPose (p_pos p) (of_quat (limb_quaternion d))).
(** multi_body_human.py:347-358: what happens to a component before it is aligned. *)
Definition adjust (b : body (G := G)) (filtered : list (option (pose G))) (poses : list (pose G)) (i : Z) : res (pose G) :=
  match nth (Z.to_nat i) filtered None with
  | None =>
    match b_preds b i with
    | [] => Err EIndex
    | parent :: _ => do q <- get_pose poses parent; do p <- get_pose poses i; Ok (mkPose (p_pos p) (p_rot q))
    end
  | Some p => limb_pose b poses i p
  end.
(** multi_body_human.py:259-360 [update_using_optitrack]; [fuel] bounds the loop over the tree. *)
Definition update_tracking (t : tracked) (msgs : list message) (transform : bool) (fuel : nat) : option (res tracked) :=
  let b := t_body t in
  match (do indices <- optitrack_indices t;
         let robot := update_robot (t_robot t) msgs in
         do st <- foldM (filter_message indices robot transform) (t_filters t, repeat None (length (b_poses b))) msgs;
         do poses <- match nth 0 (snd st) None with
                     | None => Ok (b_poses b)
                     | Some p => do p <- root_pose p; Ok (update (b_poses b) 0 p)
                     end;
         Ok (robot, st, poses)) with
  | Err e => Some (Err e)
  | Ok (robot, (filters, filtered), poses) =>
    let b := mkBody poses (b_nodes b) (b_edges b) (b_count b) in
    match align_tree act (adjust b filtered) b fuel with
    | None => None
    | Some (Err e) => Some (Err e)
    | Some (Ok poses) => Some (Ok (mkTracked (mkBody poses (b_nodes b) (b_edges b) (b_count b)) (t_ids t) filters robot))
    end
  end.
End Tracking.

(** ** Gamma and conversion *)
Section Conversion.
Context {G : Type}.
Variable act : G -> vec -> vec.
Variable mul : G -> G -> G.
Variable to_relative : pose G -> vec -> vec.
Variable inter : cobs (G := G) -> cobs (G := G) -> option vec.
(** multi_body_human.py:484-497 [get_gamma]. *)
Definition body_gamma (gamma : cobs (G := G) -> vec -> R) (comps : list cobs) (x : vec) : res R :=
  min_of (map (fun o => gamma o x) comps).
(** multi_body_human.py:147-151 [get_parent_idx]; the index of the root is 0. *)
Definition body_parent (b : body (G := G)) (i : Z) : res (option Z) :=
  if Z.eqb i 0 then Ok None
  else match b_preds b i with [] => Err EIndex | p :: _ => Ok (Some p) end.
(** multi_body_human.py:626-640: one component. *)
Definition convert_step (b : body (G := G)) (comps : list cobs) (m : multi) (i : nat) : res multi :=
  do parent <- body_parent b (Z.of_nat i);
  match parent with
  | None => Ok m
  | Some p =>
    match nth_error comps i with
    | None => Err EIndex
    | Some o =>
      match add_component act mul to_relative inter m o p (Some (o_ref o)) with
      | (m, Ok _) => Ok m
      | (_, Err e) => Err e
      end
    end
  end.
(** multi_body_human.py:615-643 [transform_from_multibodyobstacle_to_multiobstacle].  The components of
    the result are the objects of the body: afterwards the body has the poses of the result. *)
Definition convert (b : body (G := G)) (comps : list cobs) (base : pose G) : res multi :=
  match comps with
  | [] => Err EIndex
  | root :: _ => foldM (convert_step b comps) (set_root act mul (new_multi base) root) (seq 0 (length comps))
  end.
Definition body_after (m : multi (G := G)) : list (pose G) := map o_pose (m_list m).
End Conversion.
