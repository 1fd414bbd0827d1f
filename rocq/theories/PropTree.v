(** Properties C10-C17: direction trees. *)
Require Import Reals List Lra Lia Bool ZArith Permutation.
From Verif Require Import Base Vec Angle RotModel Spec RotProofs SeqProofs TreeModel TreeSpec
  TreeProofs TreeWeights TreeReduce TreeGeom TreeCases TreeIndep TreeExample.
Import ListNotations.
Open Scope R_scope.

(** C10 *)
Theorem C10_history_is_rooted_tree :
  forall n r d t0 t, (2 <= n)%nat -> length d = n ->
  set_root empty_tree r d = Ok t0 -> reached n t0 t ->
  rooted_tree n t r /\ forall x a, node t x a -> a_level a = 0%nat -> x = r.
Proof.
  intros n r d t0 t Hn Ld H0 H. pose proof (history_rooted n r d t0 t Hn Ld H0 H) as W.
  split; auto. intros x a Hx La. apply (lvl0_root n t r W Hn).
  - eapply node_in_ids; eauto.
  - unfold lvl. rewrite (proj2 (get_attrs_node n t r W x a) Hx). auto.
Qed.
Theorem C10_insertion_effect :
  forall n t r x d p a t', rooted_tree n t r -> node t p a ->
  add_node t x d (Some p) None None = (t', Ok tt) ->
  (forall y b, node t' y b <-> node t y b \/ (y = x /\ b = mkAttrs (S (a_level a)) (direction d))) /\
  (forall q y, edge t' q y <-> edge t q y \/ (q = p /\ y = x)) /\
  ~ (exists b, node t x b).
Proof.
  intros n t r x d p a t' W Hp H.
  destruct (add_node_success n t r x d p None None t' W H) as (a' & Hd & Hx & Hp' & Hl & ->).
  pose proof (node_unique n t r W p a a' Hp Hp') as <-. split; [|split].
  - intros y b. unfold node; simpl. rewrite in_app_iff. simpl. split.
    + intros [?|[E|[]]]; auto. injection E as <- <-. auto.
    + intros [?|[-> ->]]; auto.
  - intros q y. unfold edge; simpl. rewrite in_app_iff. simpl. split.
    + intros [?|[E|[]]]; auto. injection E as <- <-. auto.
    + intros [?|[-> ->]]; auto.
  - intros [b Hb]. apply Hx. eapply node_in_ids; eauto.
Qed.
Theorem C10_insertion_accepted :
  forall n t r x d p a, rooted_tree n t r -> node t p a -> (S (a_level a) < 100)%nat ->
  norm d <> 0 -> (forall b, ~ node t x b) -> length d = n ->
  exists t', add_node t x d (Some p) None None = (t', Ok tt).
Proof.
  intros n t r x d p a W Hp Hl Hd Hx Ld. unfold add_node.
  destruct (Req_EM_T (norm d) 0); [contradiction|].
  assert (Hxi : ~ In x (ids t)).
  { intros Hi. destruct (wf_attrs n t r W x Hi) as (b & _ & Nb & _). apply (Hx b Nb). }
  unfold has_node. rewrite (proj2 (mem_false x (ids t)) Hxi).
  pose proof (node_in_ids t p a Hp) as Hpi.
  rewrite (nx_add_edge_new t p x Hpi Hxi).
  2:{ intros [q y] He E. simpl in E. subst y. apply Hxi. eapply edge_ids; eauto. }
  unfold get_attrs; cbn [t_nodes]. rewrite assoc_app_old by exact Hpi.
  pose proof (proj2 (get_attrs_node n t r W p a) Hp) as Ga. unfold get_attrs in Ga.
  destruct (assoc p (t_nodes t)) as [b|]; [|discriminate]. injection Ga as ->.
  assert (Nat.leb maximum_level (S (a_level a)) = false) as -> by (apply Nat.leb_gt; exact Hl).
  eauto.
Qed.
Example C10_case : set_root empty_tree n0 e0 = Ok extree0 /\ reached 3 extree0 extree.
Proof. split; [exact extree0_root | exact extree_reached]. Qed.
Print Assumptions C10_history_is_rooted_tree.
Print Assumptions C10_insertion_effect.
Print Assumptions C10_insertion_accepted.

(** C11: some rejections leave the tree as it was ... *)
Theorem C11_atomic_rejections_partial :
  forall t x d p c l,
  (norm d = 0 -> add_node t x d p c l = (t, Err EValue)) /\
  (norm d <> 0 -> In x (map fst (t_nodes t)) -> add_node t x d p c l = (t, Err EValue)) /\
  (norm d <> 0 -> add_node t x d None None None = (t, Err EValue)) /\
  (norm d <> 0 -> forall k, (100 <= k)%nat -> add_node t x d None None (Some k) = (t, Err EValue)).
Proof.
  intros. unfold add_node. destruct (Req_EM_T (norm d) 0).
  - repeat split; intros; auto; contradiction.
  - split; [intros; contradiction|]. split; [|split].
    + intros _ Hi. apply mem_In in Hi. unfold has_node, ids. rewrite Hi. auto.
    + intros _. destruct (has_node t x); auto.
    + intros _ k Hk. destruct (has_node t x); auto.
      replace (Nat.leb maximum_level k) with true; auto. symmetry. apply Nat.leb_le. exact Hk.
Qed.
(** ... but an unknown parent leaves two nodes without attributes behind: the id can no longer
    be inserted and every later reduction fails. *)
Theorem C11_unknown_parent_refuted :
  exists t r x d p t', rooted_tree 3 t r /\ norm d <> 0 /\ ~ In x (map fst (t_nodes t)) /\
    add_node t x d (Some p) None None = (t', Err EKey) /\
    In x (map fst (t_nodes t')) /\
    add_node t' x d (Some r) None None = (t', Err EValue) /\
    forall orth0 st sl l ws, length l = length ws ->
      reduce_weighted_to_sequence orth0 t' st sl l ws = Err EKey.
Proof.
  exists extree, n0, n3, e0, (NInt 7).
  exists (mkTree (t_nodes extree ++ [(NInt 7, None); (n3, None)])
                 (t_edges extree ++ [(NInt 7, n3)]) (Some n0)).
  split; [exact extree_rooted|]. split; [rewrite norm_e0; lra|].
  split; [simpl; intuition discriminate|].
  split; [unfold add_node; rewrite norm_e0; destruct (Req_EM_T 1 0); [lra|reflexivity]|].
  split; [simpl; auto 10|].
  split; [unfold add_node; rewrite norm_e0; destruct (Req_EM_T 1 0); [lra|reflexivity]|].
  intros. unfold reduce_weighted_to_sequence. rewrite H, Nat.eqb_refl. reflexivity.
Qed.
Example C11_case : norm (vzero 3) = 0 /\ In n1 (map fst (t_nodes extree)).
Proof. split; [apply norm_vzero|simpl; auto]. Qed.
Print Assumptions C11_atomic_rejections_partial.
Print Assumptions C11_unknown_parent_refuted.

(** C12 *)
Theorem C12_descendants :
  forall n t r x fuel, rooted_tree n t r -> (length (t_nodes t) <= fuel)%nat ->
  exists l, get_all_childs_children t fuel x = Some l /\ NoDup l /\
    (forall y, In y l <-> desc t x y) /\
    (forall y z, In y l -> edge t y z -> before l y z).
Proof.
  intros n t r x fuel W Hf.
  destruct (get_all_spec n t r W x fuel Hf) as (l & E & ND & HI).
  exists l. split; auto. split; auto. split; auto. intros y z Hy Ez.
  destruct (bfs_order t fuel [] (successors t x) l E y Hy) as [[]|H]. auto.
Qed.
Example C12_case : rooted_tree 3 extree n0 /\ get_all_childs_children extree 3 n0 = Some [n1; n2].
Proof. split; [exact extree_rooted|reflexivity]. Qed.
Print Assumptions C12_descendants.

(** C13 *)
Lemma wsub_spec n t r own y : rooted_tree n t r -> subtree_sum t own y (wsub t own y).
Proof.
  intros W. exists (y :: dlist t y). split; [|split].
  - constructor; [|apply (dlist_spec n t r W)]. intros Hi. apply (dlist_in n t r W) in Hi.
    apply (desc_lvl n t r W) in Hi. lia.
  - intros z. simpl. rewrite (dlist_in n t r W). split; intros [<-|]; auto.
  - reflexivity.
Qed.
Lemma subtree_sum_unique t own y w w' : subtree_sum t own y w -> subtree_sum t own y w' -> w = w'.
Proof.
  intros (l & N1 & H1 & ->) (l' & N2 & H2 & ->). apply rsum_perm, Permutation_map.
  apply NoDup_Permutation; auto. intros x. rewrite H1, H2. tauto.
Qed.
Lemma chain_app_inv s s' : forall v w, chain v (s ++ s') w -> exists u, chain v s u /\ chain u s' w.
Proof.
  induction s; simpl; intros v w H; [eauto|]. destruct H as [H0 H].
  destruct (IHs _ _ H) as (u & A & B). exists u. auto.
Qed.
Lemma assigned_len t l ws own : assigned t l ws own ->
  length l = length ws /\ forall x, In x l -> In x (ids t).
Proof. intros (_ & A & B & _). auto. Qed.

Theorem C13_node_weights_are_subtree_sums :
  forall n t r sl st l ws own, rooted_tree n t r -> (2 <= n)%nat -> no_opposite t ->
  level_sorted t sl -> assigned t l ws own ->
  exists st', update_partial_rotations t st (combine l ws) sl = Ok st' /\
    (forall y, In y (map fst (t_nodes t)) -> subtree_sum t own y (s_w (st' y))) /\
    s_w (st' r) = rsum ws.
Proof.
  intros n t r sl st l ws own W Hn NO SL A.
  destruct (assigned_len _ _ _ _ A) as [HL HI].
  destruct (update_ok n t r W Hn (no_opposite_dirn n t r W NO) sl SL own st l ws HL HI
    (assigned_own t l ws own A)) as (st' & E & I).
  assert (WE : forall y, In y (ids t) -> s_w (st' y) = wsub t own y).
  { intros y Hy. destruct (p1_all_ok n t r W sl SL own y Hy st' I) as (_ & _ & ->). auto. }
  exists st'. split; auto. split.
  - intros y Hy. rewrite WE by exact Hy. apply (wsub_spec n t r); auto.
  - rewrite WE by (apply (root_in n t r W)). rewrite (wsub_root n t r W).
    destruct A as (ND & _ & _ & A1 & A2).
    assert (P : exists rest, Permutation (ids t) (l ++ rest) /\ forall x, In x rest -> ~ In x l).
    { pose proof (rt_unique _ _ _ W) as NDi. fold (ids t) in NDi. clear - ND HI NDi.
      exists (filter (fun x => negb (mem x l)) (ids t)). split.
      - apply NoDup_Permutation; auto.
        + apply NoDup_app_intro; auto; [apply NoDup_filter; auto|].
          intros x Hx Hf. apply filter_In in Hf as [_ Hf]. apply mem_In in Hx. rewrite Hx in Hf. discriminate.
        + intros x. rewrite in_app_iff, filter_In. split.
          * intros Hx. destruct (mem x l) eqn:Em; [left; apply mem_In; auto|right; auto].
          * intros [Hx|[Hx _]]; auto.
      - intros x Hx. apply filter_In in Hx as [_ Hf]. intros Hi. apply mem_In in Hi.
        rewrite Hi in Hf. discriminate. }
    destruct P as (rest & P & Hrest).
    rewrite (rsum_perm _ _ (Permutation_map own P)). rewrite map_app, rsum_app.
    assert (R0 : rsum (map own rest) = 0).
    { clear - Hrest A2. induction rest as [|a rest IH]; [reflexivity|].
      cbn [map rsum fold_right]. fold (rsum (map own rest)).
      rewrite A2 by (apply Hrest; simpl; auto). rewrite IH; [lra|]. intros; apply Hrest; simpl; auto. }
    rewrite R0, Rplus_0_r. f_equal. clear - HL A1. revert ws HL A1.
    induction l as [|a l IH]; intros [|w ws] HL A1; simpl in *; try discriminate; auto.
    f_equal; [apply A1; auto|apply IH; auto].
Qed.
Theorem C13_independent_of_history_and_entry_order :
  forall n t r sl orth0 st1 st2 l1 ws1 l2 ws2 own,
  rooted_tree n t r -> (2 <= n)%nat -> no_opposite t -> level_sorted t sl ->
  assigned t l1 ws1 own -> assigned t l2 ws2 own ->
  reduce_weighted_to_sequence orth0 t st1 sl l1 ws1 =
  reduce_weighted_to_sequence orth0 t st2 sl l2 ws2.
Proof.
  intros n t r sl orth0 st1 st2 l1 ws1 l2 ws2 own W Hn NO SL A1 A2.
  destruct (assigned_len _ _ _ _ A1), (assigned_len _ _ _ _ A2).
  apply (reduce_agree n t r W Hn (no_opposite_dirn n t r W NO) sl SL orth0 own); auto;
    apply assigned_own with t; auto.
Qed.
Theorem C13_independent_of_order_within_levels :
  forall n t r sl1 sl2 orth0 st1 st2 l ws own,
  rooted_tree n t r -> (2 <= n)%nat -> no_opposite t -> distinguishable t ->
  level_sorted t sl1 -> level_sorted t sl2 -> assigned t l ws own ->
  (forall x, 0 <= own x) -> rsum ws <= 1 ->
  reduce_weighted_to_sequence orth0 t st1 sl1 l ws =
  reduce_weighted_to_sequence orth0 t st2 sl2 l ws.
Proof.
  intros n t r sl1 sl2 orth0 st1 st2 l ws own W Hn NO DI SL1 SL2 A OW TOT.
  destruct (assigned_len _ _ _ _ A) as [HL HI].
  destruct (C13_node_weights_are_subtree_sums n t r sl1 st1 l ws own W Hn NO SL1 A) as (st' & E & S1 & S2).
  assert (TT : wsub t own r <= 1).
  { destruct (update_ok n t r W Hn (no_opposite_dirn n t r W NO) sl1 SL1 own st1 l ws HL HI
      (assigned_own t l ws own A)) as (st'' & E' & I).
    rewrite E in E'. injection E' as <-.
    destruct (p1_all_ok n t r W sl1 SL1 own r (root_in n t r W) st' I) as (_ & _ & <-). rewrite S2. auto. }
  apply (reduce_sort_independent n t r W Hn (no_opposite_dirn n t r W NO) sl1 sl2 SL1 SL2 own); auto.
  - intros p x Ep _. apply (distinguishable_dirn n t r W DI); auto.
  - apply assigned_own with t; auto.
Qed.
Theorem C13_length_mismatch :
  forall orth0 t st sl l ws, length l <> length ws ->
  reduce_weighted_to_sequence orth0 t st sl l ws = Err EValue.
Proof.
  intros. unfold reduce_weighted_to_sequence. destruct (Nat.eqb (length l) (length ws)) eqn:E; auto.
  apply Nat.eqb_eq in E. contradiction.
Qed.
Example C13_case :
  rooted_tree 3 extree n0 /\ no_opposite extree /\ distinguishable extree /\
  level_sorted extree [n0; n1; n2] /\
  assigned extree [n1; n2] [1/4; 1/2]
    (fun x => if nid_eq_dec x n1 then 1/4 else if nid_eq_dec x n2 then 1/2 else 0) /\
  rsum [1/4; 1/2] <= 1.
Proof.
  destruct extree_dirs. split; [exact extree_rooted|]. split; [auto|]. split; [auto|].
  split; [exact extree_sorted|]. split; [exact extree_assigned|simpl; lra].
Qed.
Print Assumptions C13_node_weights_are_subtree_sums.
Print Assumptions C13_independent_of_history_and_entry_order.
Print Assumptions C13_independent_of_order_within_levels.
Print Assumptions C13_length_mismatch.

(** C14 *)
Lemma total_root n t r l ws own : rooted_tree n t r -> (2 <= n)%nat -> no_opposite t ->
  assigned t l ws own -> (exists sl, level_sorted t sl) -> wsub t own r = rsum ws.
Proof.
  intros W Hn NO A (sl & SL). destruct (assigned_len _ _ _ _ A) as [HL HI].
  set (st := (fun _ => mkSlot 0 None None None) : store).
  destruct (C13_node_weights_are_subtree_sums n t r sl st l ws own W Hn NO SL A) as (st' & E & _ & S2).
  destruct (update_ok n t r W Hn (no_opposite_dirn n t r W NO) sl SL own st l ws HL HI
      (assigned_own t l ws own A)) as (st'' & E' & I).
  rewrite E in E'. injection E' as <-.
  destruct (p1_all_ok n t r W sl SL own r (root_in n t r W) st' I) as (_ & _ & <-). auto.
Qed.
Lemma root_dirn n t r a : rooted_tree n t r -> node t r a -> dirn t r = a_dir a.
Proof. intros W H. unfold dirn. rewrite (proj2 (get_attrs_node n t r W r a) H). auto. Qed.

Theorem C14_reduction_geometry :
  forall n t r a sl orth0 st l ws own,
  rooted_tree n t r -> (2 <= n)%nat -> no_opposite t -> distinguishable t -> node t r a ->
  level_sorted t sl -> assigned t l ws own ->
  (forall v, length (orth0 v) = length v) ->
  (forall x, 0 <= own x) -> 0 < rsum ws <= 1 ->
  exists first rest mean,
    reduce_weighted_to_sequence orth0 t st sl l ws = Ok (first :: rest) /\
    rb0 first = a_dir a /\
    (forall q, In q (first :: rest) -> rangle q <> 0 -> proper n q) /\
    get_weighted_mean orth0 t st sl l ws = Ok mean /\ unitv mean /\ length mean = n.
Proof.
  intros n t r a sl orth0 st l ws own W Hn NO DI Ha SL A OL OW [T0 T1].
  destruct (assigned_len _ _ _ _ A) as [HL HI].
  pose proof (total_root n t r l ws own W Hn NO A (ex_intro _ sl SL)) as TR.
  destruct (reduce_geometry n t r W Hn (no_opposite_dirn n t r W NO) sl SL own) with (orth0 := orth0)
    (st0 := st) (l := l) (ws := ws) as (s & new & E & Er & Fs & Ch & UE & LE & On & Last); auto.
  { rewrite TR; auto. }
  { intros p x Ep _. apply (distinguishable_dirn n t r W DI); auto. }
  { apply assigned_own with t; auto. }
  { rewrite TR. lra. }
  rewrite (root_dirn n t r a W Ha) in Ch.
  assert (M : exists mean, get_weighted_mean orth0 t st sl l ws = Ok mean /\ unitv mean /\ length mean = n).
  { unfold get_weighted_mean. rewrite Er. cbn [bind]. rewrite get_end_snoc. eexists; split; [reflexivity|].
    destruct (Req_EM_T (rangle new) 0) as [Z|NZ].
    - destruct Last as [(E0 & E1)|(NZ & _)]; [|contradiction].
      assert (G : get_second_vector new = E).
      { unfold get_second_vector. rewrite Z, E0, (E1 Z).
        rewrite (rotate_direction_eq n) by (rewrite ?OL; auto).
        apply (plane_rot_zero n); rewrite ?OL; auto. }
      rewrite G. auto.
    - pose proof (On NZ) as P. rewrite (end_of_second n) by auto. split; [apply (end_of_unit n); auto|].
      apply end_of_length; apply P. }
  destruct M as (mean & M1 & M2 & M3).
  destruct s as [|q s].
  - exists new, [], mean. simpl in Er. split; [exact Er|].
    split; [|split; [|auto]].
    + simpl in Ch. destruct Last as [(E0 & _)|(_ & (s' & Es) & _)]; [congruence|].
      destruct s'; discriminate.
    + intros q [<-|[]] NZ. exact (On NZ).
  - exists q, (s ++ [new]), mean. split; [exact Er|]. simpl in Ch. destruct Ch as [Q0 Ch].
    split; [exact Q0|]. split; [|auto]. intros q' Hq NZ.
    change (q :: s ++ [new]) with ((q :: s) ++ [new]) in Hq.
    apply in_app_or in Hq as [Hq|[<-|[]]]; [|exact (On NZ)].
    rewrite Forall_forall in Fs. exact (Fs q' Hq).
Qed.
Theorem C14_no_weight_is_an_error :
  forall n t r sl orth0 st l ws own,
  rooted_tree n t r -> (2 <= n)%nat -> no_opposite t -> level_sorted t sl -> assigned t l ws own ->
  (forall x, own x = 0) -> get_weighted_mean orth0 t st sl l ws = Err EName.
Proof.
  intros n t r sl orth0 st l ws own W Hn NO SL A Z. destruct (assigned_len _ _ _ _ A) as [HL HI].
  unfold get_weighted_mean.
  rewrite (all_zero_err n t r W Hn (no_opposite_dirn n t r W NO) sl SL orth0 own st l ws HL HI); auto.
  apply assigned_own with t; auto.
Qed.
Example C14_case :
  node extree n0 (mkAttrs 0 e0) /\ 0 < rsum [1/4; 1/2] <= 1 /\
  forall x, 0 <= if nid_eq_dec x n1 then 1/4 else if nid_eq_dec x n2 then 1/2 else 0.
Proof.
  split; [left; reflexivity|]. split; [simpl; lra|]. intros x.
  destruct (nid_eq_dec x n1); [lra|]. destruct (nid_eq_dec x n2); lra.
Qed.
Print Assumptions C14_reduction_geometry.
Print Assumptions C14_no_weight_is_an_error.

(** C15 *)
Theorem C15_full_weight_on_one_node :
  forall n t r sl orth0 st m a, rooted_tree n t r -> (2 <= n)%nat -> no_opposite t ->
  level_sorted t sl -> (forall v, length (orth0 v) = length v) -> node t m a ->
  (forall p b, edge t p m -> node t p b -> a_dir b = a_dir a \/ allclose (a_dir b) (a_dir a) = false) ->
  get_weighted_mean orth0 t st sl [m] [1] = Ok (a_dir a).
Proof.
  intros n t r sl orth0 st m a W Hn NO SL OL Hm HE.
  pose proof (node_in_ids t m a Hm) as Hmi.
  assert (Da : dirn t m = a_dir a) by (unfold dirn; rewrite (proj2 (get_attrs_node n t r W m a) Hm); auto).
  rewrite <- Da.
  apply (mean_single n t r W Hn (no_opposite_dirn n t r W NO) sl SL orth0 OL
    (fun y => if nid_eq_dec y m then 1 else 0) m Hmi); auto.
  - intros x [<-|[]]; auto.
  - intros p Ep. destruct (edge_ids n t r W p m Ep) as [Hp _].
    destruct (wf_attrs n t r W p Hp) as (b & Gb & Nb & _).
    assert (Db : dirn t p = a_dir b) by (unfold dirn; rewrite Gb; auto).
    rewrite Da, Db. unfold exact_pair. eauto.
Qed.
Example C15_case : node extree n2 (mkAttrs 2 e2) /\
  forall p b, edge extree p n2 -> node extree p b ->
    a_dir b = e2 \/ allclose (a_dir b) e2 = false.
Proof.
  split; [right; right; left; reflexivity|]. intros p b E Hb. destruct extree_dirs as [_ D].
  apply (D p n2 b (mkAttrs 2 e2)); auto. right; right; left; reflexivity.
Qed.
Print Assumptions C15_full_weight_on_one_node.

(** C16 *)
Definition weighted_log_sum (n : nat) (d : vec) (own : nid -> R) (kids : list (nid * vec)) : vec :=
  fold_right (fun kd acc => vadd (vscale (own (fst kd)) (log_map d (snd kd))) acc) (vzero n) kids.
Lemma wls_perm n d own k1 k2 : Permutation k1 k2 ->
  weighted_log_sum n d own k1 = weighted_log_sum n d own k2.
Proof.
  unfold weighted_log_sum. induction 1; simpl; auto; try congruence. vext. ring.
Qed.
Theorem C16_mean_around_root :
  forall n t r a sl orth0 st l ws own kids,
  rooted_tree n t r -> (2 <= n)%nat -> no_opposite t -> distinguishable t -> node t r a ->
  level_sorted t sl -> (forall v, length (orth0 v) = length v) -> assigned t l ws own ->
  (forall x b, node t x b -> x <> r -> edge t r x) ->
  NoDup (map fst kids) ->
  (forall x d, In (x, d) kids <-> x <> r /\ exists b, node t x b /\ d = a_dir b) ->
  (exists x, own x <> 0) ->
  get_weighted_mean orth0 t st sl l ws =
    Ok (exp_map (a_dir a) (weighted_log_sum n (a_dir a) own kids)).
Proof.
  intros n t r a sl orth0 st l ws own kids W Hn NO DI Ha SL OL A ST NDk Hk NZ.
  destruct (assigned_len _ _ _ _ A) as [HL HI].
  rewrite (mean_star n t r W Hn (no_opposite_dirn n t r W NO) sl SL orth0 OL own) with (l := l) (ws := ws); auto.
  - rewrite (root_dirn n t r a W Ha). f_equal. f_equal.
    unfold star_sum. rewrite (root_dirn n t r a W Ha).
    set (ks := filter (fun x => negb (nid_eqb x r)) sl).
    transitivity (weighted_log_sum n (a_dir a) own (map (fun x => (x, dirn t x)) ks)).
    { unfold weighted_log_sum. clear. induction ks; simpl; auto. rewrite IHks. auto. }
    apply wls_perm. apply NoDup_Permutation.
    + apply FinFun.Injective_map_NoDup; [intros x y E; congruence|].
      apply NoDup_filter, (sl_nodup n t r W sl SL).
    + clear - NDk. induction kids as [|[x d] k IH]; constructor; simpl in *; inversion NDk; subst.
      * intros Hi. apply H1. apply in_map_iff. exists (x, d). auto.
      * apply IH; auto.
    + intros [x d]. rewrite in_map_iff, Hk. split.
      * intros (y & E & Hy). injection E as <- <-. apply filter_In in Hy as [Hy Hr].
        apply negb_true_iff, nid_eqb_false in Hr. split; auto. apply (sl_in t sl SL) in Hy.
        destruct (wf_attrs n t r W y Hy) as (b & Gb & Nb & _). exists b. split; auto.
        unfold dirn. rewrite Gb. auto.
      * intros (Hr & b & Nb & ->). exists x. split.
        -- f_equal. unfold dirn. rewrite (proj2 (get_attrs_node n t r W x b) Nb). auto.
        -- apply filter_In. split; [apply (sl_in t sl SL); eapply node_in_ids; eauto|].
           apply negb_true_iff, nid_eqb_false; auto.
  - intros x Hx N. destruct (wf_attrs n t r W x Hx) as (b & _ & Nb & _). eauto.
  - intros x Ex. apply (distinguishable_dirn n t r W DI); auto.
  - apply assigned_own with t; auto.
  - destruct NZ as (x & Hx). exists x. split; auto.
    destruct (in_dec nid_eq_dec x l) as [Hi|Hi]; [auto|]. exfalso. apply Hx. apply A; auto.
Qed.
Example C16_case :
  rooted_tree 3 extree1 n0 /\ (forall x b, node extree1 x b -> x <> n0 -> edge extree1 n0 x) /\
  weighted_log_sum 3 e0 (fun x => if nid_eq_dec x n1 then 1/2 else 0) [(n1, e1)] = [0; PI / 4; 0].
Proof.
  split; [exact extree1_rooted|]. split.
  - intros x b [E|[E|[]]] N; injection E as <- <-; [contradiction|left; reflexivity].
  - unfold weighted_log_sum; cbn [fold_right fst snd]. unfold log_map.
    replace (dot e0 e1) with 0 by (simpl; ring).
    replace (vsub e1 (vscale 0 e0)) with e1 by (unfold e1, e0, vsub, vscale; simpl; repeat f_equal; ring).
    rewrite norm_e1. destruct (Req_EM_T 1 0); [lra|]. rewrite acos_0.
    unfold e1, vscale; simpl. repeat (apply f_equal2; [field|]). reflexivity.
Qed.
Print Assumptions C16_mean_around_root.

(** C17: the sequence is contiguous if every weighted node either has a weighted child or no child ... *)
Theorem C17_contiguous_partial :
  forall n t r a sl orth0 st l ws own,
  rooted_tree n t r -> (2 <= n)%nat -> no_opposite t -> distinguishable t -> node t r a ->
  level_sorted t sl -> assigned t l ws own ->
  (forall v, length (orth0 v) = length v) ->
  (forall x, 0 <= own x) -> 0 < rsum ws <= 1 ->
  (forall x c w, edge t x c -> subtree_sum t own x w -> w <> 0 ->
     exists y wy, edge t x y /\ subtree_sum t own y wy /\ wy <> 0) ->
  exists s mean, reduce_weighted_to_sequence orth0 t st sl l ws = Ok s /\
    get_weighted_mean orth0 t st sl l ws = Ok mean /\ chain (a_dir a) s mean.
Proof.
  intros n t r a sl orth0 st l ws own W Hn NO DI Ha SL A OL OW [T0 T1] HC.
  destruct (assigned_len _ _ _ _ A) as [HL HI].
  pose proof (total_root n t r l ws own W Hn NO A (ex_intro _ sl SL)) as TR.
  destruct (reduce_geometry n t r W Hn (no_opposite_dirn n t r W NO) sl SL own) with (orth0 := orth0)
    (st0 := st) (l := l) (ws := ws) as (s & new & E & Er & Fs & Ch & UE & LE & On & Last); auto.
  { rewrite TR; auto. }
  { intros p x Ep _. apply (distinguishable_dirn n t r W DI); auto. }
  { apply assigned_own with t; auto. }
  { rewrite TR. lra. }
  rewrite (root_dirn n t r a W Ha) in Ch.
  exists (s ++ [new]), (get_second_vector new). split; [exact Er|].
  split; [unfold get_weighted_mean; rewrite Er; cbn [bind]; apply get_end_snoc|].
  destruct Last as [(E0 & E1)|(_ & _ & x & c & k & Ec & Wx & Lx & Hz)].
  - apply chain_app with E; [exact Ch|]. simpl. split; [exact E0|].
    destruct (Req_EM_T (rangle new) 0) as [Z|NZ]; [|symmetry; apply (end_of_second n); auto].
    unfold get_second_vector, end_of. rewrite Z, E0, (E1 Z).
    rewrite (rotate_direction_eq n) by (rewrite ?OL; auto).
    rewrite (plane_rot_zero n) by (rewrite ?OL; auto). rewrite cos_0, sin_0.
    pose proof (OL E). vext; try lia; ring.
  - exfalso. destruct (HC x c (wsub t own x) Ec (wsub_spec n t r own x W) Wx) as (y & wy & Ey & Sy & Ny).
    apply Ny. rewrite (subtree_sum_unique t own y wy (wsub t own y) Sy (wsub_spec n t r own y W)).
    apply Hz; [eapply edge_ids; eauto|]. rewrite (edge_lvl n t r W x y Ey). lia.
Qed.
(** ... but all weight on a node with children gives its rotation twice. *)
Theorem C17_repeated_rotation :
  forall n t r sl orth0 st m p c a b,
  rooted_tree n t r -> (2 <= n)%nat -> no_opposite t -> level_sorted t sl ->
  edge t p m -> edge t m c -> node t p a -> node t m b ->
  a_dir a <> a_dir b -> allclose (a_dir a) (a_dir b) = false ->
  exists s new, reduce_weighted_to_sequence orth0 t st sl [m] [1] = Ok (s ++ [new; new]) /\
    rb0 new <> end_of new.
Proof.
  intros n t r sl orth0 st m p c a b W Hn NO SL Ep Ec Na Nb ND AC.
  pose proof (node_in_ids t m b Nb) as Hmi.
  assert (Da : dirn t p = a_dir a) by (unfold dirn; rewrite (proj2 (get_attrs_node n t r W p a) Na); auto).
  assert (Db : dirn t m = a_dir b) by (unfold dirn; rewrite (proj2 (get_attrs_node n t r W m b) Nb); auto).
  apply (single_repeats n t r W Hn (no_opposite_dirn n t r W NO) sl SL orth0
    (fun y => if nid_eq_dec y m then 1 else 0) m Hmi) with (c := c) (p := p); auto.
  - intros x [<-|[]]; auto.
  - congruence.
  - rewrite Da, Db. right. auto.
Qed.
Theorem C17_contiguous_refuted :
  exists t r a sl m, rooted_tree 3 t r /\ node t r a /\ no_opposite t /\ distinguishable t /\
    level_sorted t sl /\
    forall orth0 st, exists s, reduce_weighted_to_sequence orth0 t st sl [m] [1] = Ok s /\
      forall v, ~ chain (a_dir a) s v.
Proof.
  destruct extree_dirs as [NO DI].
  exists extree, n0, (mkAttrs 0 e0), [n0; n1; n2], n1.
  split; [exact extree_rooted|]. split; [left; reflexivity|]. split; [auto|]. split; [auto|].
  split; [exact extree_sorted|]. intros orth0 st.
  assert (ND : e0 <> e1) by (intros E; injection E; intros; lra).
  destruct (C17_repeated_rotation 3 extree n0 [n0; n1; n2] orth0 st n1 n0 n2 (mkAttrs 0 e0) (mkAttrs 1 e1)
    extree_rooted) as (s & new & E & H); auto.
  - exact extree_sorted.
  - left; reflexivity.
  - right; left; reflexivity.
  - left; reflexivity.
  - right; left; reflexivity.
  - destruct (DI n0 n1 (mkAttrs 0 e0) (mkAttrs 1 e1)) as [E|E]; auto;
      [left; reflexivity|left; reflexivity|right; left; reflexivity|]. simpl in E. contradiction.
  - exists (s ++ [new; new]). split; auto. intros v Ch. apply H.
    apply chain_app_inv in Ch as (w & _ & Ch). simpl in Ch. destruct Ch as (_ & Ch & _). auto.
Qed.
Example C17_case :
  forall w, subtree_sum extree (fun x => if nid_eq_dec x n1 then 1/4 else if nid_eq_dec x n2 then 1/2 else 0) n1 w -> w = 3/4.
Proof.
  intros w H.
  rewrite (subtree_sum_unique extree _ n1 w _ H (wsub_spec 3 extree n0 _ n1 extree_rooted)).
  unfold wsub, dlist. simpl. lra.
Qed.
Print Assumptions C17_contiguous_partial.
Print Assumptions C17_repeated_rotation.
Print Assumptions C17_contiguous_refuted.
