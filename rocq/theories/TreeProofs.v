(** Structure of direction trees: invariant of insertions, descendants. *)
Require Import Reals List Lra Lia Bool ZArith Permutation.
From Verif Require Import Base Vec Angle RotModel Spec RotProofs SeqProofs TreeModel TreeSpec.
Import ListNotations.
Open Scope R_scope.

Lemma nid_eqb_true x y : nid_eqb x y = true <-> x = y.
Proof. unfold nid_eqb. destruct (nid_eq_dec x y); split; intros; auto; discriminate. Qed.
Lemma nid_eqb_refl x : nid_eqb x x = true.
Proof. apply nid_eqb_true; auto. Qed.
Lemma nid_eqb_false x y : nid_eqb x y = false <-> x <> y.
Proof. unfold nid_eqb. destruct (nid_eq_dec x y); split; intros; auto; try discriminate; contradiction. Qed.
Lemma mem_In x l : mem x l = true <-> In x l.
Proof.
  unfold mem. rewrite existsb_exists. split.
  - intros (y & Hy & E). apply nid_eqb_true in E. subst; auto.
  - intros H. exists x. split; auto. apply nid_eqb_refl.
Qed.
Lemma mem_false x l : mem x l = false <-> ~ In x l.
Proof. rewrite <- mem_In. destruct (mem x l); split; intros; auto; try discriminate; try tauto. Qed.

Lemma in_ids t x : In x (ids t) <-> exists oa, In (x, oa) (t_nodes t).
Proof.
  unfold ids. rewrite in_map_iff. split.
  - intros ((y & oa) & E & H). simpl in E. subst. eauto.
  - intros (oa & H). exists (x, oa). auto.
Qed.
Lemma assoc_in x l oa : NoDup (map fst l) -> In (x, oa) l -> assoc x l = oa.
Proof.
  induction l as [|[y b] l IH]; simpl; intros Hn Hi; [contradiction|].
  inversion Hn as [|? ? Hy Hn']; subst.
  destruct Hi as [E|Hi].
  - injection E as -> ->. rewrite nid_eqb_refl. auto.
  - destruct (nid_eqb x y) eqn:E; auto. apply nid_eqb_true in E. subst.
    exfalso. apply Hy. apply in_map_iff. exists (y, oa). auto.
Qed.
Lemma assoc_none x l : ~ In x (map fst l) -> assoc x l = None.
Proof.
  induction l as [|[y b] l IH]; simpl; intros H; auto.
  destruct (nid_eqb x y) eqn:E; [apply nid_eqb_true in E; subst; tauto|]. apply IH. tauto.
Qed.
Lemma assoc_app_fresh x l l' : ~ In x (map fst l) -> assoc x (l ++ l') = assoc x l'.
Proof.
  induction l as [|[y b] l IH]; simpl; intros H; auto.
  destruct (nid_eqb x y) eqn:E; [apply nid_eqb_true in E; subst; tauto|]. apply IH. tauto.
Qed.
Lemma assoc_app_old x l l' : In x (map fst l) -> assoc x (l ++ l') = assoc x l.
Proof.
  induction l as [|[y b] l IH]; simpl; intros H; [contradiction|].
  destruct (nid_eqb x y) eqn:E; auto. apply IH. destruct H; auto.
  subst. rewrite nid_eqb_refl in E. discriminate.
Qed.
Lemma set_assoc_last x a l b : ~ In x (map fst l) -> set_assoc x a (l ++ [(x, b)]) = l ++ [(x, Some a)].
Proof.
  induction l as [|[y c] l IH]; simpl; intros H.
  - rewrite nid_eqb_refl. auto.
  - destruct (nid_eqb x y) eqn:E; [apply nid_eqb_true in E; subst; tauto|].
    rewrite IH by tauto. auto.
Qed.

Lemma in_successors t x y : In y (successors t x) <-> edge t x y.
Proof.
  unfold successors, edge. rewrite in_map_iff. split.
  - intros ((a & b) & E & H). apply filter_In in H as [H F]. simpl in *.
    apply nid_eqb_true in F. subst; auto.
  - intros H. exists (x, y). split; auto. apply filter_In. split; auto. apply nid_eqb_refl.
Qed.
Lemma in_predecessors t x p : In p (predecessors t x) <-> edge t p x.
Proof.
  unfold predecessors, edge. rewrite in_map_iff. split.
  - intros ((a & b) & E & H). apply filter_In in H as [H F]. simpl in *.
    apply nid_eqb_true in F. subst; auto.
  - intros H. exists (p, x). split; auto. apply filter_In. split; auto. simpl. apply nid_eqb_refl.
Qed.
Lemma NoDup_successors t x : NoDup (t_edges t) -> NoDup (successors t x).
Proof.
  unfold successors. generalize (t_edges t). induction l as [|[a b] l IH]; simpl; intros H; [constructor|].
  inversion H as [|? ? Hn Hd]; subst. destruct (nid_eqb a x) eqn:E; simpl; auto.
  constructor; auto. intros Hi. apply in_map_iff in Hi as ((c & d) & Ec & Hi).
  apply filter_In in Hi as [Hi F]. simpl in *. apply nid_eqb_true in E, F. subst. auto.
Qed.

Section WF.
Variables (n : nat) (t : tree) (r : nid).
Hypothesis W : rooted_tree n t r.

Lemma wf_attrs x : In x (ids t) ->
  exists a, get_attrs t x = Ok a /\ node t x a /\ length (a_dir a) = n /\ unitv (a_dir a) /\
            (a_level a < 100)%nat.
Proof.
  intros H. apply in_ids in H as (oa & H).
  destruct (rt_node _ _ _ W x oa H) as (a & -> & L & U & V).
  exists a. split; auto. unfold get_attrs.
  rewrite (assoc_in x _ (Some a)); auto. apply (rt_unique _ _ _ W).
Qed.
Lemma get_attrs_node x a : get_attrs t x = Ok a <-> node t x a.
Proof.
  split; intros H.
  - unfold get_attrs in H. destruct (assoc x (t_nodes t)) as [b|] eqn:E; [|discriminate].
    injection H as ->.
    destruct (in_dec nid_eq_dec x (ids t)) as [Hi|Hi].
    + destruct (wf_attrs x Hi) as (b & E2 & Hb & _). unfold get_attrs in E2. rewrite E in E2.
      injection E2 as ->. auto.
    + unfold ids in Hi. rewrite assoc_none in E by auto. discriminate.
  - unfold get_attrs. rewrite (assoc_in x _ (Some a)); auto. apply (rt_unique _ _ _ W).
Qed.
Lemma node_in_ids x a : node t x a -> In x (ids t).
Proof. intros. apply in_ids. eauto. Qed.
Lemma node_unique x a b : node t x a -> node t x b -> a = b.
Proof.
  intros Ha Hb. apply get_attrs_node in Ha, Hb. congruence.
Qed.
Lemma edge_ids p x : edge t p x -> In p (ids t) /\ In x (ids t).
Proof.
  intros H. apply (rt_before _ _ _ W) in H as (l1 & l2 & l3 & E). fold (ids t) in E.
  rewrite E. split; apply in_or_app; right; simpl; auto.
  right. apply in_or_app. right. simpl. auto.
Qed.
Lemma root_in : In r (ids t).
Proof. destruct (rt_root _ _ _ W) as (a & l & E & _). unfold ids. rewrite E. simpl. auto. Qed.
Lemma edge_level p x : edge t p x ->
  exists a b, get_attrs t p = Ok a /\ get_attrs t x = Ok b /\ a_level b = S (a_level a).
Proof.
  intros H. destruct (edge_ids p x H) as [Hp Hx].
  destruct (wf_attrs p Hp) as (a & Ea & Na & _). destruct (wf_attrs x Hx) as (b & Eb & Nb & _).
  exists a, b. repeat split; auto. apply (rt_level _ _ _ W p x); auto.
Qed.
Definition lvl (x : nid) : nat := match get_attrs t x with Ok a => a_level a | Err _ => 0 end.
Lemma edge_lvl p x : edge t p x -> lvl x = S (lvl p).
Proof. intros H. destruct (edge_level p x H) as (a & b & Ea & Eb & E). unfold lvl. rewrite Ea, Eb. auto. Qed.
Lemma root_lvl : lvl r = 0%nat.
Proof.
  destruct (rt_root _ _ _ W) as (a & l & E & H). unfold lvl.
  replace (get_attrs t r) with (Ok a); auto. symmetry. apply get_attrs_node.
  unfold node. rewrite E. simpl; auto.
Qed.
Lemma no_edge_root p : ~ edge t p r.
Proof. intros H. apply edge_lvl in H. rewrite root_lvl in H. discriminate. Qed.
Lemma desc_lvl x y : desc t x y -> (lvl x < lvl y)%nat.
Proof. induction 1; [apply edge_lvl in H; lia|]. apply edge_lvl in H0. lia. Qed.
Lemma desc_ids x y : desc t x y -> In x (ids t) /\ In y (ids t).
Proof.
  induction 1; [apply edge_ids; auto|]. split; [tauto|]. eapply edge_ids; eauto.
Qed.
Lemma desc_parent x y z : desc t x z -> edge t y z -> x = y \/ desc t x y.
Proof.
  intros H E. inversion H; subst.
  - left. eapply rt_one_parent; eauto.
  - assert (y0 = y) by (eapply rt_one_parent; eauto). subst. auto.
Qed.
Lemma desc_trans x y z : desc t x y -> desc t y z -> desc t x z.
Proof. intros H1 H2. induction H2; eauto using desc. Qed.
Lemma desc_inv_child x z : desc t x z -> exists c, edge t x c /\ (c = z \/ desc t c z).
Proof.
  induction 1; [eauto|]. destruct IHdesc as (c & Hc & [<-|Hd]); eauto using desc.
Qed.

(** [get_all_childs_children] *)
Lemma bfs_correct x fuel done todo :
  NoDup (done ++ todo) ->
  (forall y, In y (done ++ todo) -> desc t x y) ->
  (forall y, In y (done ++ todo) -> exists p, edge t p y /\ (p = x \/ In p done)) ->
  (forall y, edge t x y -> In y (done ++ todo)) ->
  (forall y z, In y done -> edge t y z -> In z (done ++ todo)) ->
  (length (t_nodes t) <= fuel + length done)%nat ->
  exists l, bfs t fuel done todo = Some l /\ NoDup l /\ forall y, In y l <-> desc t x y.
Proof.
  revert done todo. induction fuel as [|f IH]; intros done todo Hn Hd Hp Hx Hc Hf.
  - destruct todo as [|z todo].
    + simpl. exists done. rewrite app_nil_r in *. repeat split; auto.
      induction 1; auto. eapply Hc; eauto.
    + exfalso.
      assert (L : (length (done ++ z :: todo) <= length (ids t))%nat).
      { apply NoDup_incl_length; auto. intros y Hy. eapply desc_ids; eauto. }
      rewrite app_length in L. unfold ids in L. rewrite map_length in L. simpl in L. lia.
  - destruct todo as [|z todo].
    + simpl. exists done. rewrite app_nil_r in *. repeat split; auto.
      induction 1; auto. eapply Hc; eauto.
    + simpl. assert (Hz : desc t x z) by (apply Hd; apply in_or_app; simpl; auto).
      assert (Nz : ~ In z done).
      { intro. apply NoDup_remove_2 in Hn. apply Hn. apply in_or_app. auto. }
      assert (zx : z <> x) by (intro; subst; apply desc_lvl in Hz; lia).
      assert (E : (done ++ [z]) ++ todo ++ successors t z
                  = (done ++ z :: todo) ++ successors t z) by (rewrite <- !app_assoc; reflexivity).
      apply IH; rewrite ?E; clear IH.
      * (* NoDup *)
        assert (forall y, In y (successors t z) -> ~ In y (done ++ z :: todo)).
        { intros y Hy Hi. apply in_successors in Hy. destruct (Hp y Hi) as (p & Ep & Hp').
          assert (p = z) by (eapply rt_one_parent; eauto). subst. tauto. }
        revert Hn H. clear - W. generalize (done ++ z :: todo). intros l Hn H.
        pose proof (NoDup_successors t z (rt_edges_unique _ _ _ W)) as Hs.
        revert Hs H. generalize (successors t z) as l2. intros l2 Hs H.
        induction l as [|a l IHl]; simpl; auto. inversion Hn; subst.
        constructor.
        { intro Hi. apply in_app_or in Hi as [Hi|Hi]; [auto|]. apply (H a Hi). simpl; auto. }
        apply IHl; auto. intros y Hy Hi. apply (H y Hy). simpl; auto.
      * intros y Hi. apply in_app_or in Hi as [Hi|Hi]; auto.
        apply in_successors in Hi. eapply desc_step; eauto.
      * intros y Hi. apply in_app_or in Hi as [Hi|Hi].
        { destruct (Hp y Hi) as (p & Ep & [->|Hq]); exists p || exists x; split; auto.
          right. apply in_or_app; auto. }
        { apply in_successors in Hi. exists z. split; auto. right. apply in_or_app. simpl; auto. }
      * intros y Hy. apply in_or_app. left. auto.
      * intros y u Hy Hu. apply in_app_or in Hy as [Hy|[<-|[]]].
        { apply in_or_app. left. eapply Hc; eauto. }
        { apply in_or_app. right. apply in_successors. auto. }
      * rewrite app_length. simpl. lia.
Qed.

Lemma get_all_spec x fuel : (length (t_nodes t) <= fuel)%nat ->
  exists l, get_all_childs_children t fuel x = Some l /\ NoDup l /\
            forall y, In y l <-> desc t x y.
Proof.
  intros Hf. unfold get_all_childs_children. apply bfs_correct; simpl.
  - apply NoDup_successors, (rt_edges_unique _ _ _ W).
  - intros y Hy. apply in_successors in Hy. constructor; auto.
  - intros y Hy. apply in_successors in Hy. eauto.
  - intros y Hy. apply in_successors. auto.
  - contradiction.
  - lia.
Qed.
Lemma descendants_spec x :
  exists l, descendants t x = Ok l /\ NoDup l /\ forall y, In y l <-> desc t x y.
Proof.
  unfold descendants. destruct (get_all_spec x (length (t_nodes t))) as (l & E & H); auto.
  rewrite E. eauto.
Qed.
End WF.

(** The order of the list: parents first. *)
Lemma bfs_prefix t fuel done todo l :
  bfs t fuel done todo = Some l -> exists l', l = done ++ todo ++ l'.
Proof.
  revert done todo. induction fuel; intros done todo H; destruct todo as [|z todo]; simpl in H;
    try discriminate.
  - injection H as <-. exists []. rewrite app_nil_r; auto.
  - injection H as <-. exists []. rewrite app_nil_r; auto.
  - apply IHfuel in H as (l' & ->). exists (successors t z ++ l').
    rewrite <- !app_assoc. reflexivity.
Qed.
Lemma bfs_order t fuel done todo l :
  bfs t fuel done todo = Some l ->
  forall y, In y l -> In y done \/ forall z, edge t y z -> before l y z.
Proof.
  revert done todo. induction fuel; intros done todo H y Hy; destruct todo as [|u todo];
    simpl in H; try discriminate; try (injection H as <-; auto).
  destruct (IHfuel _ _ H y Hy) as [B|B]; auto.
  apply in_app_or in B as [B|[<-|[]]]; auto. right. intros z E.
  pose proof (bfs_prefix _ _ _ _ _ H) as (l' & ->).
  apply in_successors in E. apply in_split in E as (a & b & ->).
  exists done, (todo ++ a), (b ++ l'). rewrite <- !app_assoc. simpl. reflexivity.
Qed.

(** ** Insertions *)
Lemma nx_add_edge_new t p x :
  In p (ids t) -> ~ In x (ids t) -> (forall e, In e (t_edges t) -> snd e <> x) ->
  nx_add_edge t p x = mkTree (t_nodes t ++ [(x, None)]) (t_edges t ++ [(p, x)]) (t_root t).
Proof.
  intros Hp Hx He. unfold nx_add_edge.
  replace (nx_touch t p) with t.
  2:{ unfold nx_touch, has_node. rewrite (proj2 (mem_In _ _) Hp). auto. }
  replace (nx_touch t x) with (mkTree (t_nodes t ++ [(x, None)]) (t_edges t) (t_root t)).
  2:{ unfold nx_touch, has_node. rewrite (proj2 (mem_false _ _) Hx). auto. }
  cbn [t_edges t_nodes t_root].
  replace (existsb (edge_eqb (p, x)) (t_edges t)) with false; auto.
  symmetry. destruct (existsb (edge_eqb (p, x)) (t_edges t)) eqn:E; auto.
  apply existsb_exists in E as (e & Hi & E). unfold edge_eqb in E. simpl in E.
  apply andb_prop in E as [_ E]. apply nid_eqb_true in E. exfalso. apply (He e); auto.
Qed.

Lemma add_node_success n t r x d p c l t' :
  rooted_tree n t r -> add_node t x d (Some p) c l = (t', Ok tt) ->
  exists a, norm d <> 0 /\ ~ In x (ids t) /\ node t p a /\ (S (a_level a) < 100)%nat /\
    t' = mkTree (t_nodes t ++ [(x, Some (mkAttrs (S (a_level a)) (vdiv d (norm d))))])
                (t_edges t ++ [(p, x)]) (t_root t).
Proof.
  intros W H. unfold add_node in H.
  destruct (Req_EM_T (norm d) 0) as [|Hd]; [discriminate|].
  destruct (has_node t x) eqn:Hx; [discriminate|]. apply mem_false in Hx.
  assert (He : forall e, In e (t_edges t) -> snd e <> x).
  { intros [u v] Hi E. simpl in E. subst. apply Hx. eapply (edge_ids n t r W u x). exact Hi. }
  destruct (in_dec nid_eq_dec p (ids t)) as [Hp|Hp].
  - rewrite nx_add_edge_new in H by auto.
    destruct (wf_attrs n t r W p Hp) as (a & Ea & Na & _).
    assert (Ea' : get_attrs (mkTree (t_nodes t ++ [(x, None)]) (t_edges t ++ [(p, x)]) (t_root t)) p
                  = Ok a).
    { unfold get_attrs in *. simpl. rewrite assoc_app_old by auto. exact Ea. }
    rewrite Ea' in H.
    destruct (Nat.leb maximum_level (S (a_level a))) eqn:El; [discriminate|].
    apply Nat.leb_gt in El. unfold maximum_level in El.
    injection H as <-. exists a. repeat split; auto.
    unfold nx_add_node. simpl. rewrite set_assoc_last by auto. reflexivity.
  - exfalso. unfold nx_add_edge in H.
    set (t1 := mkTree (t_nodes t ++ [(p, None)]) (t_edges t) (t_root t)) in *.
    replace (nx_touch t p) with t1 in H.
    2:{ unfold nx_touch, has_node. rewrite (proj2 (mem_false _ _) Hp). auto. }
    assert (G : forall t2, t_nodes t2 = t_nodes (nx_touch t1 x) ->
                get_attrs t2 p = Err EKey).
    { intros t2 E. unfold get_attrs. rewrite E. unfold nx_touch.
      destruct (has_node t1 x); simpl.
      - rewrite assoc_app_fresh by auto. simpl. rewrite nid_eqb_refl. auto.
      - rewrite <- app_assoc, assoc_app_fresh by auto. simpl. rewrite nid_eqb_refl. auto. }
    assert (N : forall b : bool, t_nodes (if b then nx_touch t1 x else
        mkTree (t_nodes (nx_touch t1 x)) (t_edges (nx_touch t1 x) ++ [(p, x)]) (t_root (nx_touch t1 x)))
        = t_nodes (nx_touch t1 x)) by (intros []; auto).
    rewrite G in H by apply N. discriminate.
Qed.

Lemma before_app {A} (l l' : list A) a b : before l a b -> before (l ++ l') a b.
Proof.
  intros (l1 & l2 & l3 & ->). exists l1, l2, (l3 ++ l').
  rewrite <- !app_assoc. simpl. rewrite <- app_assoc. reflexivity.
Qed.
Lemma before_last {A} (l : list A) a b : In a l -> before (l ++ [b]) a b.
Proof.
  intros H. apply in_split in H as (l1 & l2 & ->). exists l1, l2, [].
  rewrite <- app_assoc. reflexivity.
Qed.
Lemma NoDup_snoc {A} (l : list A) x : NoDup l -> ~ In x l -> NoDup (l ++ [x]).
Proof.
  intros Hn Hx. apply NoDup_rev in Hn. rewrite <- (rev_involutive (l ++ [x])).
  apply NoDup_rev. rewrite rev_app_distr. simpl. constructor; auto. rewrite <- in_rev. auto.
Qed.

Lemma rooted_extend n t r x d p a :
  rooted_tree n t r -> ~ In x (ids t) -> node t p a -> (S (a_level a) < 100)%nat ->
  length d = n -> unitv d ->
  rooted_tree n (mkTree (t_nodes t ++ [(x, Some (mkAttrs (S (a_level a)) d))])
                        (t_edges t ++ [(p, x)]) (t_root t)) r.
Proof.
  intros W Hx Hp Hl Ld Ud.
  assert (NE : forall u v, edge t u v -> u <> x /\ v <> x).
  { intros u v E. destruct (edge_ids n t r W u v E). split; intros ->; tauto. }
  assert (OLD : forall y b, node (mkTree (t_nodes t ++ [(x, Some (mkAttrs (S (a_level a)) d))])
                        (t_edges t ++ [(p, x)]) (t_root t)) y b ->
                 node t y b \/ y = x /\ b = mkAttrs (S (a_level a)) d).
  { unfold node. simpl. intros y b Hi. apply in_app_or in Hi as [Hi|[E|[]]]; auto.
    injection E as <- <-. auto. }
  assert (OE : forall u v, edge (mkTree (t_nodes t ++ [(x, Some (mkAttrs (S (a_level a)) d))])
                        (t_edges t ++ [(p, x)]) (t_root t)) u v ->
                 edge t u v \/ u = p /\ v = x).
  { unfold edge. simpl. intros u v Hi. apply in_app_or in Hi as [Hi|[E|[]]]; auto.
    injection E as <- <-. auto. }
  assert (Hpx : p <> x) by (intros ->; apply Hx; apply in_ids; eauto).
  constructor; simpl.
  - rewrite map_app. simpl. apply NoDup_snoc; [apply (rt_unique _ _ _ W)|exact Hx].
  - destruct (rt_root _ _ _ W) as (b & l & E & L). rewrite E. exists b.
    eexists. split; [reflexivity|auto].
  - intros y oa Hi. apply in_app_or in Hi as [Hi|[E|[]]].
    + apply (rt_node _ _ _ W y oa Hi).
    + injection E as <- <-. eexists. split; [reflexivity|]. simpl. auto.
  - apply NoDup_snoc; [apply (rt_edges_unique _ _ _ W)|]. intros Hi.
    apply (NE p x) in Hi. tauto.
  - intros y b Hi Hr. apply OLD in Hi as [Hi|[-> _]].
    + destruct (rt_parent _ _ _ W y b Hi Hr) as (q & Hq). exists q. unfold edge; simpl.
      apply in_or_app; auto.
    + exists p. unfold edge; simpl. apply in_or_app. simpl. auto.
  - intros u v y Hu Hv. apply OE in Hu, Hv.
    destruct Hu as [Hu|[-> ->]]; destruct Hv as [Hv|[-> Ev]]; auto.
    + eapply rt_one_parent; eauto.
    + subst. apply NE in Hu. tauto.
    + apply NE in Hv. tauto.
  - intros u v Hu. rewrite map_app. simpl. apply OE in Hu as [Hu|[-> ->]].
    + apply before_app. apply (rt_before _ _ _ W); auto.
    + apply before_last. apply (node_in_ids t p a Hp).
  - intros u v au av Hu Hau Hav. apply OE in Hu. apply OLD in Hau, Hav.
    destruct Hu as [Hu|[-> ->]].
    + destruct (NE u v Hu). destruct Hau as [Hau|[? _]]; [|tauto].
      destruct Hav as [Hav|[? _]]; [|tauto]. eapply rt_level; eauto.
    + destruct Hau as [Hau|[? _]]; [|tauto].
      destruct Hav as [Hav|[_ ->]]; [exfalso; apply Hx; apply in_ids; eauto|].
      simpl. f_equal. rewrite (node_unique n t r W p a au); auto.
Qed.

Lemma add_node_rooted n t r x d p c l t' :
  rooted_tree n t r -> length d = n -> add_node t x d (Some p) c l = (t', Ok tt) ->
  rooted_tree n t' r.
Proof.
  intros W Ld H. destruct (add_node_success n t r x d p c l t' W H) as (a & Hd & Hx & Hp & Hl & ->).
  apply rooted_extend; auto.
  - rewrite length_vdiv; auto.
  - apply unit_vdiv; auto.
Qed.

Lemma add_inter_rooted n t r id p ii s t' q :
  rooted_tree n t r -> Forall (proper n) s -> add_inter t id p ii s = (t', Ok q) ->
  rooted_tree n t' r.
Proof.
  intros W Hs. revert t p ii W. induction Hs as [|rt s Hr Hs IH]; simpl; intros t p ii W H.
  - injection H as <- _. auto.
  - destruct (add_node t _ (rb0 rt) (Some p) None None) as [t1 [[]|e]] eqn:E; [|discriminate].
    apply IH in H; auto. eapply add_node_rooted; eauto. apply Hr.
Qed.
Lemma get_end_vector_length n s v : Forall (proper n) s -> get_end_vector s = Ok v -> length v = n.
Proof.
  intros Hs H. destruct s as [|r0 s]; [discriminate|].
  rewrite (get_end_vector_nth n) in H by (auto; discriminate). injection H as <-.
  apply end_of_length. rewrite Forall_forall in Hs. 
  refine (Hs _ (nth_In _ _ _)). simpl. lia.
Qed.
Lemma add_sequence_rooted n t r id s p c t' :
  rooted_tree n t r -> Forall (proper n) s -> add_sequence t id s p c = (t', Ok tt) ->
  rooted_tree n t' r.
Proof.
  intros W Hs H. unfold add_sequence in H.
  destruct (seq_start t s p c) as [[it tail]|e] eqn:Est; [|discriminate].
  assert (Ht : Forall (proper n) tail).
  { unfold seq_start in Est. destruct c.
    - destruct s as [|r0 s]; [discriminate|]. destruct (get_attrs t p); [|discriminate].
      destruct (allclose _ _); [|discriminate]. injection Est as <- <-.
      inversion Hs; auto.
    - injection Est as <- <-. auto. }
  destruct (add_inter t id p it tail) as [t1 [q|e]] eqn:Ei; [|discriminate].
  destruct (get_end_vector s) as [v|e] eqn:Ev; [|discriminate].
  apply (add_node_rooted n t1 r id v q None None t'); auto.
  - eapply add_inter_rooted; eauto.
  - apply (get_end_vector_length n s); auto.
Qed.

Lemma set_root_rooted n r d t :
  (2 <= n)%nat -> length d = n -> set_root empty_tree r d = Ok t ->
  rooted_tree n t r /\ t_nodes t = [(r, Some (mkAttrs 0 (vdiv d (norm d))))] /\ t_edges t = [].
Proof.
  intros Hn Ld H. unfold set_root in H.
  destruct (Req_EM_T (norm d) 0) as [E|E].
  { rewrite from_directions_zero in H by auto. discriminate. }
  assert (Hd : dot (dirof d) (dirof d) <> -1).
  { pose proof (dirof_unit d E) as U. unfold unitv in U. lra. }
  destruct (from_directions_spec n d d) as (rt & Ef & Ho & E0 & _); auto.
  rewrite Ef in H. cbn [bind] in H. injection H as <-.
  split; [|simpl; rewrite E0; auto].
  unfold set_root_orientation. simpl. constructor; simpl.
  - repeat constructor. simpl. tauto.
  - eexists _, []. split; [reflexivity|]. auto.
  - intros x oa [H|[]]. injection H as <- <-. eexists; split; [reflexivity|]. simpl.
    rewrite E0. rewrite dirof_length. repeat split; auto; [apply dirof_unit; auto|lia].
  - constructor.
  - intros x a [H|[]] Hx. injection H as <- _. contradiction.
  - intros p q x [].
  - intros p x [].
  - intros p x a b [].
Qed.

Theorem history_rooted n r d t0 t :
  (2 <= n)%nat -> length d = n -> set_root empty_tree r d = Ok t0 -> reached n t0 t ->
  rooted_tree n t r.
Proof.
  intros Hn Ld H0 H. induction H as [|t1 o t2 H IH Ho Hr].
  - eapply set_root_rooted; eauto.
  - destruct o; simpl in *.
    + eapply add_node_rooted; eauto.
    + eapply add_sequence_rooted; eauto.
Qed.

(** Earlier nodes keep their attributes. *)
Lemma add_node_keeps n t r x d p c l t' :
  rooted_tree n t r -> add_node t x d (Some p) c l = (t', Ok tt) ->
  (forall y a, node t y a -> node t' y a) /\
  node t' x (mkAttrs (S (lvl t p)) (direction d)) /\ edge t' p x.
Proof.
  intros W H. destruct (add_node_success n t r x d p c l t' W H) as (a & Hd & Hx & Hp & Hl & ->).
  split; [|split].
  - intros y b Hi. unfold node in *; simpl. apply in_or_app; auto.
  - unfold node; simpl. apply in_or_app. right. left. f_equal. f_equal. f_equal.
    unfold lvl. rewrite (proj2 (get_attrs_node n t r W p a) Hp). auto.
  - unfold edge; simpl. apply in_or_app. simpl; auto.
Qed.
