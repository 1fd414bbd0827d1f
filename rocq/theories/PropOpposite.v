(** Property C73: a node opposite to its parent breaks every weighted mean of the tree. *)
Require Import Reals List Bool Lra Lia ZArith.
From Verif Require Import Base Vec Angle RotModel Spec RotProofs SeqProofs TreeModel TreeSpec TreeProofs TreeWeights TreeReduce TreeCases PropTree.
Import ListNotations.
Open Scope R_scope.

Lemma foldM_either {A S} (f : S -> A -> res S) (I : list A -> S -> Prop) (e : err) l s :
  (forall l1 a l2 s, l = l1 ++ a :: l2 -> I l1 s -> f s a = Err e \/ exists s', f s a = Ok s' /\ I (l1 ++ [a]) s') ->
  I [] s -> foldM f s l = Err e \/ exists s', foldM f s l = Ok s' /\ I l s'.
Proof.
  intros H H0.
  assert (G : forall l2 l1 s, l = l1 ++ l2 -> I l1 s -> foldM f s l2 = Err e \/ exists s', foldM f s l2 = Ok s' /\ I l s').
  { induction l2 as [|a l2 IH]; intros l1 s1 E I1.
    - right. exists s1. rewrite app_nil_r in E. subst l1. auto.
    - simpl. destruct (H l1 a l2 s1 E I1) as [->|(s2 & -> & I2)]; [left; auto|]. cbn [bind].
      apply (IH (l1 ++ [a])); auto. rewrite <- app_assoc. auto. }
  apply (G l [] s); auto.
Qed.

Section Opposite.
Variables (n : nat) (t : tree) (r : nid).
Hypothesis W : rooted_tree n t r.
Hypothesis Hn : (2 <= n)%nat.
Hypothesis Small : INR n < 10 ^ 16.
Variable sl : list nid.
Hypothesis SL : level_sorted t sl.

Lemma orient_pair x y : In x (ids t) -> In y (ids t) ->
  from_directions (dirn t x) (dirn t y) = Err ENaN /\ dot (dirn t x) (dirn t y) = -1 \/
  (exists o, from_directions (dirn t x) (dirn t y) = Ok o) /\ dot (dirn t x) (dirn t y) <> -1.
Proof.
  intros Hx Hy. pose proof (dirn_unit n t r W x Hx) as Ux. pose proof (dirn_unit n t r W y Hy) as Uy.
  pose proof (dirn_length n t r W x Hx) as Lx. pose proof (dirn_length n t r W y Hy) as Ly.
  destruct (Req_dec (dot (dirn t x) (dirn t y)) (-1)) as [E|E].
  - left. split; auto. apply from_directions_antiparallel; try apply unit_norm_neq; auto; try congruence.
    rewrite !dirof_of_unit by auto. auto.
  - right. split; auto. destruct (from_directions_spec n (dirn t x) (dirn t y)) as (o & Eo & _); auto using unit_norm_neq.
    + rewrite !dirof_of_unit by auto. auto.
    + eauto.
Qed.
(** Lines 596-621: the children of one node. *)
Lemma children_either x st : In x (ids t) -> s_pdir (st x) = Some (dirn t x) ->
  foldM (orient_child t x) st (successors t x) = Err ENaN \/
  exists st', foldM (orient_child t x) st (successors t x) = Ok st' /\
    (forall y, s_pdir (st' y) = if mem y (successors t x) then Some (dirn t y) else s_pdir (st y)) /\
    forall y, edge t x y -> dot (dirn t x) (dirn t y) <> -1.
Proof.
  intros Hx Hd.
  destruct (foldM_either (orient_child t x) (fun l1 st' =>
     (forall y, s_pdir (st' y) = if mem y l1 then Some (dirn t y) else s_pdir (st y)) /\
     forall y, In y l1 -> dot (dirn t x) (dirn t y) <> -1) ENaN (successors t x) st) as [E|(st' & E & P & Q)].
  - intros l1 c l2 s E (IP & IQ).
    assert (Ec : edge t x c) by (apply in_successors; rewrite E; apply in_or_app; simpl; auto).
    pose proof (edge_ids n t r W x c Ec) as [_ Hc].
    unfold orient_child, get_pdir. rewrite IP.
    assert (Hx1 : mem x l1 = false).
    { apply mem_false. intros Hi. assert (E2 : edge t x x).
      { apply in_successors. rewrite E. apply in_or_app; auto. }
      apply (edge_lvl n t r W) in E2. lia. }
    rewrite Hx1, Hd. cbn [bind]. destruct (get_dirn n t r W c Hc) as (a & Ea & Da & _). rewrite Ea. cbn [bind]. rewrite Da.
    destruct (orient_pair x c Hx Hc) as [[-> _]|((o & ->) & N)]; [left; auto|]. cbn [bind].
    right. eexists. split; [reflexivity|]. split.
    + intros y. unfold set_orient_pdir, upd. destruct (nid_eq_dec y c) as [->|Ny].
      * replace (mem c (l1 ++ [c])) with true; auto. symmetry. apply mem_In. apply in_or_app; simpl; auto.
      * rewrite IP. replace (mem y (l1 ++ [c])) with (mem y l1); auto.
        unfold mem. rewrite existsb_app. simpl. apply nid_eqb_false in Ny. rewrite Ny, !orb_false_r. auto.
    + intros y Hy. apply in_app_or in Hy as [Hy|[<-|[]]]; auto.
  - split; [intros y; reflexivity|intros y []].
  - left; auto.
  - right. exists st'. split; auto. split; auto. intros y Ey. apply Q. apply in_successors. auto.
Qed.
Lemma orientations_either st0 :
  evaluate_all_orientations t st0 sl = Err ENaN \/
  (exists st', evaluate_all_orientations t st0 sl = Ok st') /\
    forall p y, edge t p y -> dot (dirn t p) (dirn t y) <> -1.
Proof.
  destruct (sl_head n t r W Hn sl SL) as (rest & E). unfold evaluate_all_orientations. rewrite E.
  pose proof (root_in n t r W) as Hr.
  destruct (get_dirn n t r W r Hr) as (a & Ea & Da & _). rewrite Ea. simpl. rewrite Da.
  destruct (orient_pair r r Hr Hr) as [[_ X]|((o & ->) & _)].
  { pose proof (dirn_unit n t r W r Hr) as U. unfold unitv in U. rewrite U in X. lra. }
  cbn [bind].
  match goal with |- foldM ?f ?s ?l = _ \/ _ =>
    destruct (foldM_either f (fun l1 st' =>
       (forall y, In y (ids t) -> y = r \/ In (par t y) l1 -> s_pdir (st' y) = Some (dirn t y)) /\
       (forall p y, In p l1 -> edge t p y -> dot (dirn t p) (dirn t y) <> -1)) ENaN l s)
      as [F|(st' & F & _ & Q)] end.
  - intros l1 x l2 s El (Hp & Hq).
    assert (Hx : In x (ids t)) by (rewrite El; apply in_or_app; simpl; auto).
    assert (Hpx : x = r \/ In (par t x) l1).
    { destruct (par_cases n t r W x Hx) as [->|Ex]; auto. right.
      pose proof (rt_before _ _ _ W _ _ Ex) as (m1 & m2 & m3 & Em).
      fold (ids t) in Em. pose proof (rt_unique _ _ _ W) as ND. fold (ids t) in ND.
      assert (l1 = m1 ++ par t x :: m2).
      { rewrite app_comm_cons, app_assoc in Em. rewrite El in Em, ND.
        clear - Em ND. remember (m1 ++ par t x :: m2) as q. clear Heqq. revert q Em ND.
        induction l1 as [|b l1 IH]; intros [|c q] Em ND; simpl in *; auto.
        - injection Em as -> ->. inversion ND; subst. exfalso. apply H1. apply in_or_app; simpl; auto.
        - injection Em as -> <-. inversion ND; subst. exfalso. apply H1. apply in_or_app; simpl; auto.
        - injection Em as -> Em. inversion ND; subst. f_equal. apply IH; auto. }
      subst l1. apply in_or_app; simpl; auto. }
    destruct (children_either x s Hx (Hp x Hx Hpx)) as [F|(s' & F & P' & Q')]; [left; exact F|].
    right. exists s'. split; [exact F|]. split.
    + intros y Hy Hc. rewrite P'. destruct (mem y (successors t x)) eqn:Em; auto.
      apply Hp; auto. destruct Hc as [Hc|Hc]; auto. apply in_app_or in Hc as [Hc|[Hc|[]]]; auto.
      left. destruct (par_cases n t r W y Hy) as [->|Ey]; auto.
      exfalso. apply mem_false in Em. apply Em. apply in_successors. rewrite Hc. auto.
    + intros p y Hi Ey. apply in_app_or in Hi as [Hi|[<-|[]]]; eauto.
  - split.
    + intros y Hy [->|[]]. unfold set_orient_pdir. rewrite upd_same. auto.
    + intros p y [].
  - left. exact F.
  - right. split; [exists st'; exact F|]. intros p y Ey. apply Q; auto. apply (edge_ids n t r W p y Ey).
Qed.
End Opposite.

(** * C73 *)
Theorem C73_opposite_neighbours_break_every_mean : forall n t r sl orth0 st l ws p x a b,
  rooted_tree n t r -> (2 <= n)%nat -> INR n < 10 ^ 16 -> level_sorted t sl ->
  length l = length ws -> (forall y, In y l -> In y (map fst (t_nodes t))) ->
  edge t p x -> node t p a -> node t x b -> dot (a_dir a) (a_dir b) = -1 ->
  reduce_weighted_to_sequence orth0 t st sl l ws = Err ENaN /\ get_weighted_mean orth0 t st sl l ws = Err ENaN.
Proof.
  intros n t r sl orth0 st l ws p x a b W Hn Sm SL HL HI Ep Na Nb D.
  assert (Da : dirn t p = a_dir a) by (unfold dirn; rewrite (proj2 (get_attrs_node n t r W p a) Na); auto).
  assert (Db : dirn t x = a_dir b) by (unfold dirn; rewrite (proj2 (get_attrs_node n t r W x b) Nb); auto).
  assert (E : reduce_weighted_to_sequence orth0 t st sl l ws = Err ENaN).
  { unfold reduce_weighted_to_sequence. rewrite HL, Nat.eqb_refl. cbn [negb].
    assert (AL : all_levels t = Ok (map (lvl t) (ids t))).
    { apply mapM_ok. intros y Hy. destruct (get_dirn n t r W y Hy) as (c & -> & _ & <- & _). reflexivity. }
    rewrite AL. cbn [bind]. unfold update_partial_rotations.
    destruct (assign_ok t (reset_node_weights t st) (combine l ws)) as (st1 & E1 & _).
    { intros; apply reset_w; auto. }
    { intros y w H. apply in_combine_l in H. apply HI. auto. }
    rewrite E1. cbn [bind].
    destruct (orientations_either n t r W Hn Sm sl SL st1) as [->|[_ Q]]; auto.
    exfalso. apply (Q p x Ep). rewrite Da, Db. auto. }
  split; auto. unfold get_weighted_mean. rewrite E. auto.
Qed.

(** Insertion, without a condition on the directions. *)
Lemma add_node_plain n t r x d p a : rooted_tree n t r -> node t p a -> (S (a_level a) < 100)%nat ->
  norm d <> 0 -> ~ In x (ids t) -> length d = n ->
  exists t', add_node t x d (Some p) None None = (t', Ok tt) /\ rooted_tree n t' r /\ ids t' = ids t ++ [x] /\
    (forall y b, node t y b -> node t' y b) /\ node t' x (mkAttrs (S (a_level a)) (direction d)) /\
    (forall u v, edge t' u v <-> edge t u v \/ (u = p /\ v = x)).
Proof.
  intros W Hp Hl Hd Hx Ld.
  destruct (C10_insertion_accepted n t r x d p a W Hp Hl Hd) as (t' & E); auto.
  { intros b Hb. apply Hx. apply (node_in_ids t x b Hb). }
  destruct (C10_insertion_effect n t r x d p a t' W Hp E) as (N & ED & _).
  destruct (add_node_success n t r x d p None None t' W E) as (a0 & _ & _ & _ & _ & Et').
  exists t'. split; auto. split; [eapply add_node_rooted; eauto|].
  split; [rewrite Et'; unfold ids; simpl; rewrite map_app; auto|].
  split; [intros y b H; apply N; auto|]. split; [apply N; auto|]. auto.
Qed.
(** The opposite node need not have any weight. *)
Example C73_case : forall orth0 st, exists t, rooted_tree 2 t (NInt 0) /\
  (exists l, node t (NInt 1) (mkAttrs l [0; 1])) /\ (exists l, node t (NInt 2) (mkAttrs l [-1; 0])) /\
  forall sl, level_sorted t sl -> get_weighted_mean orth0 t st sl [NInt 1] [1] = Err ENaN.
Proof.
  intros orth0 st.
  assert (U1 : unitv [1; 0]) by (unfold unitv, dot; simpl; ring).
  assert (U2 : unitv [0; 1]) by (unfold unitv, dot; simpl; ring).
  assert (U3 : unitv [-1; 0]) by (unfold unitv, dot; simpl; ring).
  assert (D : forall v, unitv v -> direction v = v) by apply dirof_of_unit.
  destruct (from_directions_spec 2 [1; 0] [1; 0]) as (q & Eq & _); auto using unit_norm_neq.
  { rewrite dirof_of_unit by auto. unfold unitv in U1. lra. }
  assert (E0 : exists t, set_root empty_tree (NInt 0) [1; 0] = Ok t) by (unfold set_root; rewrite Eq; eexists; reflexivity).
  destruct E0 as (t0 & E0). destruct (set_root_rooted 2 (NInt 0) [1; 0] t0 ltac:(lia) eq_refl E0) as (W0 & N0 & ED0).
  assert (I0 : ids t0 = [NInt 0]) by (unfold ids; rewrite N0; auto).
  assert (A0 : node t0 (NInt 0) (mkAttrs 0 [1; 0])) by (unfold node; rewrite N0; left; f_equal; f_equal; f_equal; exact (D [1; 0] U1)).
  destruct (add_node_plain 2 t0 (NInt 0) (NInt 1) [0; 1] (NInt 0) _ W0 A0) as (t1 & _ & W1 & I1 & K1 & A1 & _); auto using unit_norm_neq.
  { simpl; lia. } { rewrite I0. intros [F|[]]; discriminate. }
  destruct (add_node_plain 2 t1 (NInt 0) (NInt 2) [-1; 0] (NInt 0) _ W1 (K1 _ _ A0)) as (t2 & _ & W2 & I2 & K2 & A2 & ED2); auto using unit_norm_neq.
  { simpl; lia. } { rewrite I1, I0. intros [F|[F|[]]]; discriminate. }
  rewrite D in A1, A2 by auto.
  exists t2. split; auto. split; [eauto|]. split; [eauto|]. intros sl SL.
  eapply (proj2 (C73_opposite_neighbours_break_every_mean 2 t2 (NInt 0) sl orth0 st [NInt 1] [1] (NInt 0) (NInt 2) _ _
    W2 ltac:(lia) ltac:(simpl; lra) SL eq_refl _ _ (K2 _ _ (K1 _ _ A0)) A2 _)).
  Unshelve.
  - intros y [<-|[]]. apply (node_in_ids t2 _ _ (K2 _ _ A1)).
  - apply ED2. auto.
  - unfold dot. simpl. ring.
Qed.
Print Assumptions C73_opposite_neighbours_break_every_mean.
