(** Model of the comparison of trajectories (comparison/).  A trajectory, an array with one column
    for each point, is the list of its points. *)
Require Import Reals List Bool Arith Lra Lia.
From Verif Require Import Base Vec Pow RotModel.
Import ListNotations.
Open Scope R_scope.

(** ** comparison/comparison_multiobstacle_vectorfield.py *)
(** comparison_multiobstacle_vectorfield.py:65-82: the loop of [integrate_trajectory].  [history] holds
    the columns before [ii], [last] is the last of them; [k] iterations are left. *)
Fixpoint integrate_loop (evaluate : vec -> res vec) (collision : option (vec -> bool)) (dt margin : R)
    (k : nat) (history : list vec) (last : vec) : res (list vec) :=
  match k with
  | O => Ok history
  | S k' =>
      do velocity <- evaluate last;
      if Rltb (norm velocity) margin then Ok (removelast history)
      else if Req_EM_T (norm velocity) 0 then Err ENaN
      else
        let position := vadd (vscale dt (vdiv velocity (norm velocity))) last in
        if match collision with Some f => f position | None => false end then Ok history
        else integrate_loop evaluate collision dt margin k' (history ++ [position]) position
  end.
(** comparison_multiobstacle_vectorfield.py:54-84.  Without column the start cannot be stored; with one
    column the loop variable of the last message is not bound. *)
Definition integrate_run (evaluate : vec -> res vec) (start : vec) (it_max : nat) (dt margin : R)
    (collision : option (vec -> bool)) : res (list vec) :=
  match it_max with
  | O => Err EIndex
  | S O => Err EName
  | S k => integrate_loop evaluate collision dt margin k [start] start
  end.

(** ** comparison/evaluation_trajectories.py and evaluation_trajectories_with_std.py *)
(** [np.mean]; of an empty array it is NaN. *)
Definition np_mean (l : list R) : res R :=
  match l with [] => Err ENaN | _ => Ok (rsum l / INR (length l)) end.
(** [a[:, 1:] - a[:, :-1]]. *)
Definition diffs (l : list vec) : list vec := map (fun pq => vsub (snd pq) (fst pq)) (combine l (tl l)).
(** [(a[:, 1:] - a[:, :-1]) / delta_time]. *)
Definition velocities (l : list vec) (dt : R) : res (list vec) :=
  mapM (fun d => if Req_EM_T dt 0 then Err ENaN else Ok (vdiv d dt)) (diffs l).
(** evaluation_trajectories.py:34-44 [normalize_velocities]. *)
Definition normalize_velocities (vs : list vec) : res (list vec) :=
  match filter (fun v => Rltb 0 (norm v)) vs with
  | [] => Err EValue
  | nonzero => Ok (map (fun v => vdiv v (norm v)) nonzero)
  end.
(** evaluation_trajectories.py:47-52 [mean_squared_error_to_path]. *)
Definition error_to_path (trajectory : list vec) (center : vec) (radius : R) : res R :=
  np_mean (map (fun p => dot (vsub p center) (vsub p center) - radius * radius) trajectory).
(** evaluation_trajectories_with_std.py:48-53, with the absolute value. *)
Definition error_to_path_std (trajectory : list vec) (center : vec) (radius : R) : res R :=
  np_mean (map (fun p => Rabs (dot (vsub p center) (vsub p center) - radius * radius)) trajectory).
(** evaluation_trajectories.py:55-60 [mean_squared_acceleration]. *)
Definition squared_acceleration (trajectory : list vec) (dt : R) : res R :=
  do vs <- velocities trajectory dt;
  do accelerations <- velocities vs dt;
  np_mean (map (fun a => dot a a) accelerations).
(** evaluation_trajectories.py:63-71 [dot_product_acceleration]. *)
Definition dot_acceleration (trajectory : list vec) (dt : R) : res R :=
  do vs <- velocities trajectory dt;
  do ns <- normalize_velocities vs;
  np_mean (map (fun pq => dot (fst pq) (snd pq)) (combine (tl ns) ns)).
(** evaluation_trajectories.py:74-85 [mean_squared_velocity_deviation]: the velocities are normalized
    (standing steps are removed), the values of the functor are not. *)
Definition squared_deviation (trajectory : list vec) (functor : vec -> res vec) (dt : R) : res R :=
  do vs <- velocities trajectory dt;
  do ns <- normalize_velocities vs;
  do init <- mapM functor (firstn (length ns) trajectory);
  np_mean (map (fun pq => dot (vsub (fst pq) (snd pq)) (vsub (fst pq) (snd pq))) (combine ns init)).
(** evaluation_trajectories.py:88-103 [dot_product_velocity_deviation]. *)
Definition normalize_init (v : vec) : vec := if Req_EM_T (norm v) 0 then vzero (length v) else vdiv v (norm v).
Definition dot_deviation (trajectory : list vec) (functor : vec -> res vec) (dt : R) : res R :=
  do vs <- velocities trajectory dt;
  do ns <- normalize_velocities vs;
  do init <- mapM (fun p => do v <- functor p; Ok (normalize_init v)) (firstn (length ns) trajectory);
  np_mean (map (fun pq => dot (fst pq) (snd pq)) (combine ns init)).
(** evaluation_trajectories.py:156-159: a trajectory with less than [it_max] points is counted as
    stuck in a local minimum, the others as converged. *)
Definition counts_as_local_minimum (it_max : nat) (trajectory : list vec) : bool :=
  Nat.ltb (length trajectory) it_max.

(** ** comparison/evaluation_path_following.py *)
(** One row of the table: converged, distance, free fraction, gamma. *)
Record row := mkRow { r_converged : R; r_distance : R; r_free : R; r_gamma : R }.
(** evaluation_path_following.py:18-20 and 47-52 [get_converged]; tables of the same length. *)
Definition table_converged (table : list row) : list bool := map (fun r => Rltb 0 (r_converged r)) table.
Definition common_converged (tables : list (list row)) : res (list bool) :=
  match tables with
  | [] => Err EIndex
  | first :: _ =>
      Ok (fold_left (fun mask table => map (fun bc => andb (fst bc) (snd bc)) (combine mask (table_converged table)))
            tables (table_converged first))
  end.
(** The population standard deviation [np.std] of a list, and of one number. *)
Definition np_std (l : list R) : res R :=
  do m <- np_mean l;
  do s <- np_mean (map (fun x => (x - m) * (x - m)) l);
  Ok (sqrt s).
Record summary := mkSummary { s_fraction : R; s_distance : R; s_occupied : R; s_occupied_std : R; s_gamma : R }.
(** evaluation_path_following.py:22-44 [run], after [get_converged]; line 40 takes the deviation of the
    mean.  The variances of the distance and of gamma (pandas) are not modelled. *)
Definition select (table : list row) (mask : list bool) : list row :=
  map fst (filter snd (combine table mask)).
Definition path_summary (table : list row) (mask : list bool) : res summary :=
  if Nat.eqb (length table) 0 then Err EZeroDiv
  else
    let fraction := INR (length (filter (fun b => b) (table_converged table))) / INR (length table) in
    let rows := select table mask in
    do distance <- np_mean (map r_distance rows);
    do occupied <- np_mean (map (fun r => 1 - r_free r) rows);
    do occupied_std <- np_std [occupied];
    do gamma <- np_mean (map r_gamma rows);
    Ok (mkSummary fraction distance occupied occupied_std gamma).
