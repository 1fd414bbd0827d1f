(** Removal and replacement of obstacles, intersection positions and free space: rotation_container.py and
    multi_obstacle_container.py. *)
Require Import Reals List Bool Arith ZArith.
From Verif Require Import Base Vec ContainerModel ShapeModel.
Import ListNotations.
Open Scope R_scope.

(** Position of a Python index in a list of [n] items: negative indices count from the end. *)
Definition py_index (n : nat) (key : Z) : option nat :=
  if (0 <=? key)%Z then if (key <? Z.of_nat n)%Z then Some (Z.to_nat key) else None
  else if (- Z.of_nat n <=? key)%Z then Some (Z.to_nat (Z.of_nat n + key)) else None.

(** What can be passed as an index of the base container. *)
Inductive item_key := KInt (z : Z) | KObstacle (o : vec * R).
Definition without {A} (i : nat) (l : list A) : list A := firstn i l ++ skipn (S i) l.
(** [BaseContainer.__delitem__] of dynamic_obstacle_avoidance, by contract [del self._obstacle_list[key]] of a Python list:
    an index which is not an integer raises TypeError. *)
Definition base_delete (l : list (vec * R)) (key : item_key) : res (list (vec * R)) :=
  match key with
  | KObstacle _ => Err EType
  | KInt z => match py_index (length l) z with Some i => Ok (without i l) | None => Err EIndex end
  end.
(** State after a call (an exception can leave a changed container), and its result.  The attribute [_convergence_dynamics] is
    [None] once it is deleted. *)
Record held := mkHeld { h_obs : list (vec * R); h_conv : option (list (option conv_dynamics)); h_radius : list R }.
Definition hold (c : rot_container) : held := mkHeld (rc_obs c) (Some (rc_conv c)) (rc_radius c).
(** rotation_container.py:34-37 [__delitem__]: the obstacle, not its index, is passed on. *)
Definition rc_delete (c : held) (key : Z) : held * res unit :=
  match py_index (length (h_obs c)) key with
  | None => (c, Err EIndex)
  | Some i =>
    match nth_error (h_obs c) i with
    | None => (c, Err EIndex)
    | Some o =>
      match base_delete (h_obs c) (KObstacle o) with
      | Err e => (c, Err e)
      | Ok l => let c := mkHeld l (h_conv c) (h_radius c) in
        match h_conv c with
        | None => (c, Err EAttr)
        | Some _ => (mkHeld l None (h_radius c), Ok tt)
        end
      end
    end
  end.
(** [BaseContainer.__setitem__], by contract [self._obstacle_list[key] = value]; called without value it raises TypeError. *)
Definition base_assign (l : list (vec * R)) (key : item_key) (value : option (vec * R)) : res (list (vec * R)) :=
  match value, key with
  | None, _ => Err EType
  | Some _, KObstacle _ => Err EType
  | Some v, KInt z => match py_index (length l) z with Some i => Ok (firstn i l ++ v :: skipn (S i) l) | None => Err EIndex end
  end.
(** rotation_container.py:39-41 [__setitem__]. *)
Definition rc_assign (c : held) (key : Z) (value : vec * R) : held * res unit :=
  match py_index (length (h_obs c)) key with
  | None => (c, Err EIndex)
  | Some i =>
    match nth_error (h_obs c) i with
    | None => (c, Err EIndex)
    | Some o =>
      match base_assign (h_obs c) (KObstacle o) None with
      | Err e => (c, Err e)
      | Ok l => let c := mkHeld l (h_conv c) (h_radius c) in
        match h_conv c with
        | None => (c, Err EAttr)
        | Some ds => match py_index (length ds) key with
                     | None => (c, Err EIndex)
                     | Some j => (mkHeld l (Some (firstn j ds ++ None :: skipn (S j) ds)) (h_radius c), Ok tt)
                     end
        end
      end
    end
  end.

(** rotation_container.py:130-138 [get_intersection_position]: the systems of vartools have an attractor or not; [known] is the attractor
    of a given system if it has one.  [None] has no attractor. *)
Definition conv_attractor (known : (vec -> vec) -> option vec) (d : option conv_dynamics) : option vec :=
  match d with
  | Some (DLinear a) => Some a
  | Some (DRotated _ _ a _) => Some a
  | Some (DConstant _) => None
  | Some (DGiven f) => known f
  | None => None
  end.
Definition intersection_position (known : (vec -> vec) -> option vec) (c : rot_container) (key : Z) : res vec :=
  match py_index (length (rc_conv c)) key with
  | None => Err EIndex
  | Some i => match conv_attractor known (nth i (rc_conv c) None) with Some a => Ok a | None => Err ENotImpl end
  end.

(** multi_obstacle_container.py:66-77 [is_in_free_space]; [member] is the method of a tree with the same name, if its class has one. *)
Fixpoint all_free {T} (member : T -> option (vec -> res bool)) (l : list T) (x : vec) : res bool :=
  match l with
  | [] => Ok true
  | t :: l' =>
    match member t with
    | None => Err EAttr
    | Some f => do b <- f x; if b then all_free member l' x else Ok false
    end
  end.
Definition container_free_space {T} (member : T -> option (vec -> res bool)) (l : list T) (x : vec) (in_global_frame : bool) : res bool :=
  if in_global_frame then all_free member l x else Err ENotImpl.
(** The trees of the package (multi_obstacle.py, hierarchy_obstacle.py, the classes of multi_body_human.py and of gmm_learner) have no such method. *)
Definition tree_free_space {T} (t : T) : option (vec -> res bool) := None.
