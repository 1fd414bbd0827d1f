(** Accumulated weights: subtree sums. *)
Require Import Reals List Lra Lia Bool ZArith Permutation.
From Verif Require Import Base Vec Angle RotModel Spec RotProofs SeqProofs TreeModel TreeSpec TreeProofs.
Import ListNotations.
Open Scope R_scope.

Definition dlist (t : tree) (x : nid) : list nid :=
  match descendants t x with Ok l => l | Err _ => [] end.
Definition wsub (t : tree) (own : nid -> R) (x : nid) : R :=
  own x + rsum (map own (dlist t x)).

Lemma rsum_flat_map {A} (f : A -> list nid) (own : nid -> R) l :
  rsum (map own (flat_map f l)) = rsum (map (fun x => rsum (map own (f x))) l).
Proof.
  induction l; simpl; auto. rewrite map_app, rsum_app, IHl. reflexivity.
Qed.
Lemma NoDup_app_intro {A} (l l' : list A) :
  NoDup l -> NoDup l' -> (forall x, In x l -> ~ In x l') -> NoDup (l ++ l').
Proof.
  induction l; simpl; intros H1 H2 H; auto. inversion H1; subst. constructor.
  - intro Hi. apply in_app_or in Hi as [Hi|Hi]; auto. apply (H a); auto.
  - apply IHl; auto.
Qed.
Lemma NoDup_flat_map {A B} (f : A -> list B) l :
  NoDup l -> (forall x, In x l -> NoDup (f x)) ->
  (forall x y z, In x l -> In y l -> In z (f x) -> In z (f y) -> x = y) ->
  NoDup (flat_map f l).
Proof.
  induction l; simpl; intros Hl Hf Hd; [constructor|]. inversion Hl; subst.
  apply NoDup_app_intro; auto.
  - apply IHl; auto. intros; eapply Hd; eauto.
  - intros z Hz Hi. apply in_flat_map in Hi as (y & Hy & Hi).
    assert (a = y) by (eapply Hd; eauto). subst. auto.
Qed.

Section W.
Variables (n : nat) (t : tree) (r : nid).
Hypothesis W : rooted_tree n t r.

Lemma dlist_spec x : descendants t x = Ok (dlist t x) /\ NoDup (dlist t x) /\
  forall y, In y (dlist t x) <-> desc t x y.
Proof.
  unfold dlist. destruct (descendants_spec n t r W x) as (l & E & Hn & H). rewrite E. auto.
Qed.
Lemma dlist_in x y : In y (dlist t x) <-> desc t x y.
Proof. apply dlist_spec. Qed.

(** Two nodes of the same level above the same node are equal. *)
Lemma same_level_above c c' y :
  (c = y \/ desc t c y) -> (c' = y \/ desc t c' y) -> lvl t c = lvl t c' -> c = c'.
Proof.
  intros H H' L.
  destruct H as [->|H].
  { destruct H' as [->|H']; auto. apply (desc_lvl n t r W) in H'. lia. }
  revert c' H' L. induction H as [y E|y z H IH E]; intros c' H' L.
  - destruct H' as [->|H'].
    + apply (edge_lvl n t r W) in E. lia.
    + destruct (desc_parent n t r W c' c y H' E) as [->|H2]; auto.
      apply (desc_lvl n t r W) in H2. lia.
  - destruct H' as [->|H'].
    + apply (edge_lvl n t r W) in E. apply (desc_lvl n t r W) in H. lia.
    + destruct (desc_parent n t r W c' y z H' E) as [->|H2]; apply IH; auto.
Qed.

Lemma dlist_split x :
  Permutation (dlist t x) (successors t x ++ flat_map (dlist t) (successors t x)).
Proof.
  pose proof (NoDup_successors t x (rt_edges_unique _ _ _ W)) as Hs.
  assert (CH : forall c, In c (successors t x) -> lvl t c = S (lvl t x)).
  { intros c Hc. apply in_successors in Hc. apply (edge_lvl n t r W); auto. }
  apply NoDup_Permutation.
  - apply dlist_spec.
  - apply NoDup_app_intro; auto.
    + apply NoDup_flat_map; auto.
      * intros; apply dlist_spec.
      * intros a b z Ha Hb Hza Hzb. apply dlist_in in Hza, Hzb.
        apply (same_level_above a b z); auto. rewrite (CH a Ha), (CH b Hb). reflexivity.
    + intros c Hc Hi. apply in_flat_map in Hi as (c' & Hc' & Hi). apply dlist_in in Hi.
      apply (desc_lvl n t r W) in Hi. rewrite (CH c Hc), (CH c' Hc') in Hi. lia.
  - intros y. rewrite dlist_in, in_app_iff, in_flat_map. split.
    + intros H. destruct (desc_inv_child t x y H) as (c & Hc & [->|Hd]).
      * left. apply in_successors; auto.
      * right. exists c. split; [apply in_successors; auto | apply dlist_in; auto].
    + intros [H|(c & Hc & Hi)].
      * apply in_successors in H. constructor; auto.
      * apply in_successors in Hc. apply dlist_in in Hi.
        apply (desc_trans t x c y); auto. constructor; auto.
Qed.

Lemma wsub_rec own x : wsub t own x = own x + rsum (map (wsub t own) (successors t x)).
Proof.
  unfold wsub at 1. rewrite (rsum_perm _ _ (Permutation_map own (dlist_split x))).
  rewrite map_app, rsum_app, rsum_flat_map. rewrite <- rsum_map_plus. reflexivity.
Qed.

Lemma wsub_nonneg own x :
  (forall y, In y (ids t) -> 0 <= own y) -> In x (ids t) -> 0 <= wsub t own x.
Proof.
  intros H Hx. unfold wsub.
  assert (0 <= rsum (map own (dlist t x))).
  { apply rsum_nonneg. intros w Hw. apply in_map_iff in Hw as (y & <- & Hy). apply H.
    apply dlist_in in Hy. apply (desc_ids n t r W) in Hy. tauto. }
  specialize (H x Hx). lra.
Qed.
Lemma wsub_mono own p c :
  (forall y, In y (ids t) -> 0 <= own y) -> edge t p c -> wsub t own c <= wsub t own p.
Proof.
  intros H E. pose proof (edge_ids n t r W p c E) as [Hp Hc].
  rewrite (wsub_rec own p).
  assert (wsub t own c <= rsum (map (wsub t own) (successors t p))).
  { apply rsum_ge_elem.
    - intros w Hw. apply in_map_iff in Hw as (y & <- & Hy). apply wsub_nonneg; auto.
      apply in_successors in Hy. apply (edge_ids n t r W) in Hy. tauto.
    - apply in_map. apply in_successors. auto. }
  specialize (H p Hp). lra.
Qed.
Lemma desc_root y : In y (ids t) -> y = r \/ desc t r y.
Proof.
  remember (lvl t y) as k. revert y Heqk. induction k; intros y E Hy.
  - left. destruct (nid_eq_dec y r); auto. exfalso.
    destruct (wf_attrs n t r W y Hy) as (a & _ & Na & _).
    destruct (rt_parent _ _ _ W y a Na n0) as (p & Hp). apply (edge_lvl n t r W) in Hp. lia.
  - destruct (nid_eq_dec y r); auto. right.
    destruct (wf_attrs n t r W y Hy) as (a & _ & Na & _).
    destruct (rt_parent _ _ _ W y a Na n0) as (p & Hp).
    destruct (IHk p) as [->|H].
    + apply (edge_lvl n t r W) in Hp. lia.
    + apply (edge_ids n t r W) in Hp. tauto.
    + constructor; auto.
    + eapply desc_step; eauto.
Qed.
Lemma wsub_root own : wsub t own r = rsum (map own (ids t)).
Proof.
  unfold wsub. change (own r + rsum (map own (dlist t r))) with (rsum (map own (r :: dlist t r))).
  apply rsum_perm, Permutation_map. apply NoDup_Permutation.
  - constructor; [|apply dlist_spec]. intros H. apply dlist_in in H.
    apply (desc_lvl n t r W) in H. lia.
  - apply (rt_unique _ _ _ W).
  - intros y. simpl. rewrite dlist_in. split.
    + intros [<-|H]; [apply (root_in n t r W)|]. apply (desc_ids n t r W) in H. tauto.
    + intros H. destruct (desc_root y H); auto.
Qed.
Lemma wsub_le_total own x :
  (forall y, In y (ids t) -> 0 <= own y) -> In x (ids t) -> wsub t own x <= wsub t own r.
Proof.
  intros H Hx. destruct (desc_root x Hx) as [->|D]; [lra|].
  induction D.
  - apply wsub_mono; auto.
  - assert (wsub t own z <= wsub t own y) by (apply wsub_mono; auto).
    assert (In y (ids t)) by (eapply desc_ids; eauto). specialize (IHD H2). lra.
Qed.
End W.
