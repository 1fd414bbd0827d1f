(** Model of the linked elements of /repo/nonlinear_avoidance/graph_handler.py:16-69 ([GraphElement],
    [BasicGraphHandler]).  An element is its number in a heap; values are numbers.  Elements are
    dataclasses: [==] compares value, parent and children, with identical objects being equal at
    once; [limit] is the recursion limit of the interpreter. *)
Require Import List Bool Arith.
From Verif Require Import Base.
Import ListNotations.

Record element := mkEl { el_value : nat; el_parent : option nat; el_children : list nat }.
Record handler := mkHandler {
  h_el : nat -> element;     (* the heap *)
  h_size : nat;              (* number of elements created *)
  h_root : option nat;       (* _root *)
  h_graph : list nat }.      (* _graph *)
Definition empty_handler : handler := mkHandler (fun _ => mkEl 0 None []) 0 None [].
Definition put (h : handler) (x : nat) (e : element) : handler :=
  mkHandler (fun y => if y =? x then e else h_el h y) (h_size h) (h_root h) (h_graph h).

(** Comparison of lists: the lengths, then the first entries which differ. *)
Fixpoint same_entries (same : nat -> nat -> res bool) (l1 l2 : list nat) : res bool :=
  match l1, l2 with
  | a :: l1', b :: l2' => do s <- same a b; if s then same_entries same l1' l2' else Ok false
  | _, _ => Ok true
  end.
Definition same_list (same : nat -> nat -> res bool) (l1 l2 : list nat) : res bool :=
  if length l1 =? length l2 then same_entries same l1 l2 else Ok false.
Definition same_option (same : nat -> nat -> res bool) (a b : option nat) : res bool :=
  match a, b with
  | Some x, Some y => same x y
  | None, None => Ok true
  | _, _ => Ok false
  end.
(** The generated [__eq__]. *)
Fixpoint eq_element (limit : nat) (h : handler) (a b : nat) : res bool :=
  match limit with
  | O => Err EExc
  | S limit' =>
      let same x y := if x =? y then Ok true else eq_element limit' h x y in
      if el_value (h_el h a) =? el_value (h_el h b) then
        do s <- same_option same (el_parent (h_el h a)) (el_parent (h_el h b));
        if s then same_list same (el_children (h_el h a)) (el_children (h_el h b)) else Ok false
      else Ok false
  end.
(** [list.remove]: the first entry which is, or is equal to, the argument. *)
Fixpoint list_remove (limit : nat) (h : handler) (l : list nat) (x : nat) : res (list nat) :=
  match l with
  | [] => Err EValue
  | y :: l' =>
      do s <- (if y =? x then Ok true else eq_element limit h y x);
      if s then Ok l' else do r <- list_remove limit h l' x; Ok (y :: r)
  end.

(** graph_handler.py:30-32, 34-36 [add_child], [set_parent]: the same two effects. *)
Definition add_child (h : handler) (p c : nat) : handler :=
  let h := put h p (mkEl (el_value (h_el h p)) (el_parent (h_el h p)) (el_children (h_el h p) ++ [c])) in
  put h c (mkEl (el_value (h_el h c)) (Some p) (el_children (h_el h c))).
Definition set_parent (h : handler) (c p : nat) : handler :=
  let h := put h c (mkEl (el_value (h_el h c)) (Some p) (el_children (h_el h c))) in
  put h p (mkEl (el_value (h_el h p)) (el_parent (h_el h p)) (el_children (h_el h p) ++ [c])).
(** graph_handler.py:38-46 [expel]; the parents of the children are cleared before the own parent is
    looked at. *)
Definition clear_parent (h : handler) (c : nat) : handler :=
  put h c (mkEl (el_value (h_el h c)) None (el_children (h_el h c))).
Definition expel (limit : nat) (h : handler) (x : nat) : handler * res unit :=
  let h := fold_left clear_parent (el_children (h_el h x)) h in
  match el_parent (h_el h x) with
  | None => (h, Ok tt)
  | Some p =>
      match list_remove limit h (el_children (h_el h p)) x with
      | Err e => (h, Err e)
      | Ok l => (put h p (mkEl (el_value (h_el h p)) (el_parent (h_el h p)) l), Ok tt)
      end
  end.

(** graph_handler.py:58-61 setter of [root]; 63-64 [add_element_with_parent] (the parent is not
    told); the number of the new element is [h_size h]. *)
Definition new_element (h : handler) (v : nat) (p : option nat) : handler :=
  let x := h_size h in
  mkHandler (fun y => if y =? x then mkEl v p [] else h_el h y) (S x) (h_root h) (h_graph h ++ [x]).
Definition set_root (h : handler) (v : nat) : handler :=
  let h' := new_element h v None in mkHandler (h_el h') (h_size h') (Some (h_size h)) (h_graph h').
Definition add_element_with_parent (h : handler) (v : nat) (p : option nat) : handler := new_element h v p.
(** graph_handler.py:66-69 [delete_element]. *)
Definition delete_element (limit : nat) (h : handler) (x : nat) : handler * res unit :=
  match expel limit h x with
  | (h, Err e) => (h, Err e)
  | (h, Ok _) =>
      match list_remove limit h (h_graph h) x with
      | Err e => (h, Err e)
      | Ok l => (mkHandler (h_el h) (h_size h) (h_root h) l, Ok tt)
      end
  end.
