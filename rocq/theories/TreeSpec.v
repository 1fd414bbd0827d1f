(** Specification of direction trees: what a well-formed tree is, descendants, histories. *)
Require Import Reals List ZArith Permutation.
From Verif Require Import Base Vec RotModel Spec TreeModel.
Import ListNotations.
Open Scope R_scope.

Definition edge (t : tree) (p x : nid) : Prop := In (p, x) (t_edges t).
Definition node (t : tree) (x : nid) (a : attrs) : Prop := In (x, Some a) (t_nodes t).

(** [a] occurs before [b] in [l]. *)
Definition before {A} (l : list A) (a b : A) : Prop :=
  exists l1 l2 l3, l = l1 ++ a :: l2 ++ b :: l3.

(** A rooted tree of n-dimensional unit directions. *)
Record rooted_tree (n : nat) (t : tree) (r : nid) : Prop := {
  rt_unique : NoDup (map fst (t_nodes t));
  rt_root : exists a rest, t_nodes t = (r, Some a) :: rest /\ a_level a = 0%nat;
  rt_node : forall x oa, In (x, oa) (t_nodes t) ->
      exists a, oa = Some a /\ length (a_dir a) = n /\ unitv (a_dir a) /\ (a_level a < 100)%nat;
  rt_edges_unique : NoDup (t_edges t);
  rt_parent : forall x a, node t x a -> x <> r -> exists p, edge t p x;
  rt_one_parent : forall p q x, edge t p x -> edge t q x -> p = q;
  rt_before : forall p x, edge t p x -> before (map fst (t_nodes t)) p x;
  rt_level : forall p x a b, edge t p x -> node t p a -> node t x b ->
      a_level b = S (a_level a)
}.

(** Strict descendants. *)
Inductive desc (t : tree) (x : nid) : nid -> Prop :=
| desc_child y : edge t x y -> desc t x y
| desc_step y z : desc t x y -> edge t y z -> desc t x z.

(** Calls that build a tree. *)
Inductive op : Type :=
| OpNode (x : nid) (d : vec) (p : nid)
| OpSeq (x : nid) (s : sequence) (p : nid) (common : bool).
Definition run_op (t : tree) (o : op) : tree * res Datatypes.unit :=
  match o with
  | OpNode x d p => add_node t x d (Some p) None None
  | OpSeq x s p c => add_sequence t x s p c
  end.
Definition op_dim (n : nat) (o : op) : Prop :=
  match o with
  | OpNode _ d _ => length d = n
  | OpSeq _ s _ _ => Forall (proper n) s
  end.
(** The trees reached from [t] by successful calls. *)
Inductive reached (n : nat) (t : tree) : tree -> Prop :=
| reached_refl : reached n t t
| reached_op t1 o t2 : reached n t t1 -> op_dim n o -> run_op t1 o = (t2, Ok tt) ->
    reached n t t2.

(** A list of all nodes by ascending level (any order inside a level). *)
Definition level_sorted (t : tree) (sl : list nid) : Prop :=
  Permutation sl (map fst (t_nodes t)) /\
  forall x y a b, before sl x y -> node t x a -> node t y b -> (a_level a <= a_level b)%nat.

(** No child direction is opposite to its parent's direction. *)
Definition no_opposite (t : tree) : Prop :=
  forall p x a b, edge t p x -> node t p a -> node t x b -> dot (a_dir a) (a_dir b) <> -1.
(** Directions of a parent and its child are equal or differ by more than the tolerance of
    [np.allclose]. *)
Definition distinguishable (t : tree) : Prop :=
  forall p x a b, edge t p x -> node t p a -> node t x b ->
  a_dir a = a_dir b \/ allclose (a_dir a) (a_dir b) = false.

(** [own] is the weight of each node after the assignment of [ws] to the distinct nodes [l]. *)
Definition assigned (t : tree) (l : list nid) (ws : list R) (own : nid -> R) : Prop :=
  NoDup l /\ length l = length ws /\ (forall x, In x l -> In x (map fst (t_nodes t))) /\
  (forall x w, In (x, w) (combine l ws) -> own x = w) /\
  (forall x, ~ In x l -> own x = 0).
(** [w] is the sum of [own] over the node [y] and all its descendants. *)
Definition subtree_sum (t : tree) (own : nid -> R) (y : nid) (w : R) : Prop :=
  exists l, NoDup l /\ (forall z, In z l <-> z = y \/ desc t y z) /\ w = rsum (map own l).

(** Logarithmic and exponential map of the unit sphere. *)
Definition log_map (r d : vec) : vec :=
  let p := vsub d (vscale (dot r d) r) in
  if Req_EM_T (norm p) 0 then vzero (length r) else vscale (acos (dot r d) / norm p) p.
Definition exp_map (r s : vec) : vec :=
  if Req_EM_T (norm s) 0 then r
  else vadd (vscale (cos (norm s)) r) (vscale (sin (norm s) / norm s) s).
