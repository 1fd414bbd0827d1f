(** A concrete direction tree: 0 -> 1 -> 2 with directions e0, e1, e2. *)
Require Import Reals List Lra Lia Bool ZArith Permutation.
From Verif Require Import Base Vec Angle RotModel Spec RotProofs SeqProofs TreeModel TreeSpec TreeProofs.
Import ListNotations.
Open Scope R_scope.

Definition e0 : vec := [1; 0; 0].
Definition e1 : vec := [0; 1; 0].
Definition e2 : vec := [0; 0; 1].
Definition n0 := NInt 0. Definition n1 := NInt 1. Definition n2 := NInt 2. Definition n3 := NInt 3.
Definition extree0 : tree := mkTree [(n0, Some (mkAttrs 0 e0))] [] (Some n0).
Definition extree1 : tree :=
  mkTree [(n0, Some (mkAttrs 0 e0)); (n1, Some (mkAttrs 1 e1))] [(n0, n1)] (Some n0).
Definition extree : tree :=
  mkTree [(n0, Some (mkAttrs 0 e0)); (n1, Some (mkAttrs 1 e1)); (n2, Some (mkAttrs 2 e2))]
         [(n0, n1); (n1, n2)] (Some n0).

Lemma norm_e0 : norm e0 = 1. Proof. apply unit_norm; unfold unitv; simpl; lra. Qed.
Lemma norm_e1 : norm e1 = 1. Proof. apply unit_norm; unfold unitv; simpl; lra. Qed.
Lemma norm_e2 : norm e2 = 1. Proof. apply unit_norm; unfold unitv; simpl; lra. Qed.

Lemma extree0_root : set_root empty_tree n0 e0 = Ok extree0.
Proof.
  unfold set_root.
  destruct (from_directions_spec 3 e0 e0) as (q & -> & _ & R0 & _);
    try reflexivity; try lia; try (rewrite norm_e0; lra).
  { unfold dirof. rewrite norm_e0, vdiv_1. simpl. lra. }
  cbn [bind]. unfold set_root_orientation. rewrite R0.
  unfold dirof. rewrite norm_e0, vdiv_1.
  reflexivity.
Qed.
Lemma extree1_add : add_node extree0 n1 e1 (Some n0) None None = (extree1, Ok tt).
Proof.
  unfold add_node. rewrite norm_e1. destruct (Req_EM_T 1 0); [lra|]. rewrite vdiv_1. reflexivity.
Qed.
Lemma extree_add : add_node extree1 n2 e2 (Some n1) None None = (extree, Ok tt).
Proof.
  unfold add_node. rewrite norm_e2. destruct (Req_EM_T 1 0); [lra|]. rewrite vdiv_1. reflexivity.
Qed.
Lemma extree_reached : reached 3 extree0 extree.
Proof.
  eapply reached_op with (o := OpNode n2 e2 n1); [|reflexivity|exact extree_add].
  eapply reached_op with (o := OpNode n1 e1 n0); [|reflexivity|exact extree1_add].
  constructor.
Qed.
Lemma extree_rooted : rooted_tree 3 extree n0.
Proof.
  apply (history_rooted 3 n0 e0 extree0); try lia; auto; [apply extree0_root|apply extree_reached].
Qed.
Lemma extree1_rooted : rooted_tree 3 extree1 n0.
Proof.
  apply (history_rooted 3 n0 e0 extree0); try lia; auto; [apply extree0_root|].
  eapply reached_op with (o := OpNode n1 e1 n0); [|reflexivity|exact extree1_add]. constructor.
Qed.
Lemma before_cases {A} (x y : A) l : before l x y ->
  match l with [] => False | a :: l' => (x = a /\ In y l') \/ before l' x y end.
Proof.
  intros (l1 & l2 & l3 & E). destruct l1 as [|b l1]; simpl in E; subst l.
  - left. split; auto. apply in_or_app. simpl. auto.
  - right. exists l1, l2, l3. reflexivity.
Qed.
Lemma extree_sorted : level_sorted extree [n0; n1; n2].
Proof.
  split; [apply Permutation_refl|].
  intros x y a b B Ha Hb. simpl in *.
  apply before_cases in B as [[-> B]|B].
  - destruct Ha as [E|[E|[E|[]]]]; try discriminate. injection E as <-. simpl. lia.
  - apply before_cases in B as [[-> B]|B].
    + destruct B as [<-|[]]. destruct Ha as [E|[E|[E|[]]]]; try discriminate. injection E as <-.
      destruct Hb as [E|[E|[E|[]]]]; try discriminate. injection E as <-. simpl. lia.
    + apply before_cases in B as [[-> []]|B]. apply before_cases in B. destruct B.
Qed.
Lemma extree_dirs : no_opposite extree /\ distinguishable extree.
Proof.
  assert (F : isclose 1 0 = false /\ isclose 0 0 = true).
  { split; unfold isclose.
    - apply Rleb_false. rewrite Rabs_R0. replace (1 - 0) with 1 by ring. rewrite Rabs_R1. lra.
    - apply Rleb_true. rewrite Rminus_0_r, !Rabs_R0. lra. }
  destruct F as [F1 F2].
  split; intros p x a b E Ha Hb; simpl in *;
    (destruct E as [E|[E|[]]]; injection E as <- <-;
     destruct Ha as [A|[A|[A|[]]]]; try discriminate; injection A as <-;
     destruct Hb as [A|[A|[A|[]]]]; try discriminate; injection A as <-; simpl).
  - lra.
  - lra.
  - right. rewrite F1. reflexivity.
  - right. rewrite F2, F1. reflexivity.
Qed.
Lemma extree_assigned : assigned extree [n1; n2] [1/4; 1/2]
  (fun x => if nid_eq_dec x n1 then 1/4 else if nid_eq_dec x n2 then 1/2 else 0).
Proof.
  split; [repeat constructor; simpl; intuition discriminate|]. split; [reflexivity|].
  split; [intros x [<-|[<-|[]]]; simpl; auto|]. split.
  - intros x w [E|[E|[]]]; injection E as <- <-; reflexivity.
  - intros x Hx. simpl in Hx. destruct (nid_eq_dec x n1) as [->|]; [tauto|].
    destruct (nid_eq_dec x n2) as [->|]; tauto.
Qed.
