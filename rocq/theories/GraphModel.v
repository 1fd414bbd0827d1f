(** Model of the index based graph, /repo/nonlinear_avoidance/graph_handler.py.

    Node values are natural numbers (any type with a decidable equality works the same way).
    An operation returns the new state of the object together with its outcome, since a Python
    exception keeps the assignments made before it was raised. *)
Require Import List Arith Bool.
From Verif Require Import Base.
Import ListNotations.

Record graph := mkGraph {
  g_values : list nat;              (* _node_values *)
  g_parent : list (option nat);     (* _parent_index *)
  g_children : list (list nat)      (* _children_indices *)
}.

(** [list.index]: the first occurrence. *)
Fixpoint index_of (v : nat) (l : list nat) : option nat :=
  match l with
  | [] => None
  | x :: t => if Nat.eqb x v then Some 0 else option_map S (index_of v t)
  end.
Definition list_update {A} (i : nat) (f : A -> A) (l : list A) : list A :=
  firstn i l ++ match skipn i l with x :: t => f x :: t | [] => [] end.

(** graph_handler.py:73-83 [__init__] (the node values, or the numbers below [n_nodes]). *)
Definition graph_init (values : list nat) : graph :=
  mkGraph values (map (fun _ => None) values) (map (fun _ => []) values).
(** graph_handler.py:89-91 [roots]: collects the parent entries, not the values. *)
Definition graph_roots (g : graph) : list (option nat) :=
  filter (fun o => match o with None => true | _ => false end) (g_parent g).
(** graph_handler.py:93-94 [get_root_indices]. *)
Definition root_indices (g : graph) : list nat :=
  map fst (filter (fun io => match snd io with None => true | _ => false end)
             (combine (seq 0 (length (g_parent g))) (g_parent g))).
(** graph_handler.py:96-99 [set_root]. *)
Definition set_root (g : graph) (v : nat) : graph * res unit :=
  (mkGraph (g_values g ++ [v]) (g_parent g ++ [None]) (g_children g ++ [[]]), Ok tt).
(** graph_handler.py:101-105 [get_parent]. *)
Definition get_parent (g : graph) (v : nat) : res (option nat) :=
  match index_of v (g_values g) with
  | None => Err EValue
  | Some i =>
    match nth_error (g_parent g) i with
    | None => Err EIndex
    | Some None => Ok None
    | Some (Some p) =>
      match nth_error (g_values g) p with None => Err EIndex | Some w => Ok (Some w) end
    end
  end.
Fixpoint values_at (l : list nat) (idx : list nat) : res (list nat) :=
  match idx with
  | [] => Ok []
  | i :: t => match nth_error l i with
              | None => Err EIndex
              | Some v => do r <- values_at l t; Ok (v :: r)
              end
  end.
(** graph_handler.py:107-109 [get_children]. *)
Definition get_children (g : graph) (v : nat) : res (list nat) :=
  match index_of v (g_values g) with
  | None => Err EValue
  | Some i => match nth_error (g_children g) i with
              | None => Err EIndex
              | Some l => values_at (g_values g) l
              end
  end.
(** graph_handler.py:111-120 [add_element_with_parent]: value and children are appended before
    the parent is looked up. *)
Definition add_element (g : graph) (v p : nat) : graph * res unit :=
  let values := g_values g ++ [v] in
  let children := g_children g ++ [[]] in
  let ind := length values - 1 in
  match index_of p values with
  | None => (mkGraph values (g_parent g) children, Err EValue)
  | Some ip =>
    if Nat.ltb ip (length children) then
      (mkGraph values (g_parent g ++ [Some ip]) (list_update ip (fun l => l ++ [ind]) children), Ok tt)
    else (mkGraph values (g_parent g) children, Err EIndex)
  end.
(** graph_handler.py:122-128 [set_parent_of_element]: the old parent keeps the child. *)
Definition set_parent (g : graph) (v p : nat) : graph * res unit :=
  match index_of v (g_values g), index_of p (g_values g) with
  | Some iv, Some ip =>
    if Nat.ltb ip (length (g_children g)) then
      let children := list_update ip (fun l => l ++ [iv]) (g_children g) in
      if Nat.ltb iv (length (g_parent g)) then
        (mkGraph (g_values g) (list_update iv (fun _ => Some ip) (g_parent g)) children, Ok tt)
      else (mkGraph (g_values g) (g_parent g) children, Err EIndex)
    else (g, Err EIndex)
  | _, _ => (g, Err EValue)
  end.
(** graph_handler.py:130-138 [get_nodes_hirarchy_descending]: with a root the loop reads the
    attribute [children_indices], which does not exist; without one a list is indexed by a
    list. *)
Definition nodes_descending (g : graph) : res (list nat) :=
  match root_indices g with
  | _ :: _ => Err EAttr
  | [] => Err EType
  end.

(** Operations of a history, and the object after a history (latest operation first); the
    outcomes are collected. *)
Inductive gop : Type := ORoot (v : nat) | OAdd (v p : nat) | OSet (v p : nat).
Definition step (g : graph) (o : gop) : graph * res unit :=
  match o with
  | ORoot v => set_root g v
  | OAdd v p => add_element g v p
  | OSet v p => set_parent g v p
  end.
Fixpoint run (g : graph) (h : list gop) : graph * list (res unit) :=
  match h with
  | [] => (g, [])
  | o :: t => let (g1, rs) := run g t in let (g2, r) := step g1 o in (g2, r :: rs)
  end.
