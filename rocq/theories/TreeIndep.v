(** The reduction depends on neither left-overs, nor the order of the entries, nor the order of
    the nodes inside a level. *)
Require Import Reals List Lra Lia Bool ZArith Permutation.
From Verif Require Import Base Vec Angle RotModel Spec RotProofs SeqProofs TreeModel TreeSpec
  TreeProofs TreeWeights TreeReduce TreeGeom TreeCases.
Import ListNotations.
Open Scope R_scope.

Lemma mapM_ext {A B} (f g : A -> res B) l : (forall x, In x l -> f x = g x) -> mapM f l = mapM g l.
Proof.
  induction l; simpl; intros H; auto. rewrite H by auto. rewrite IHl by auto. reflexivity.
Qed.
Lemma foldM_ext {A S} (f g : S -> A -> res S) l : forall s,
  (forall s x, In x l -> f s x = g s x) -> foldM f s l = foldM g s l.
Proof.
  induction l; simpl; intros s H; auto. rewrite H by auto. destruct (g s a); simpl; auto.
Qed.

Section Indep.
Variables (n : nat) (t : tree) (r : nid).
Hypothesis W : rooted_tree n t r.
Hypothesis Hn : (2 <= n)%nat.
Hypothesis NA : forall p x, edge t p x -> dot (dirn t p) (dirn t x) <> -1.

Section OneList.
Variable sl : list nid.
Hypothesis SL : level_sorted t sl.

(** *** Weights after the first pass *)
Lemma update_ok own st0 l ws :
  length l = length ws -> (forall x, In x l -> In x (ids t)) ->
  (forall y, own y = own_of (combine l ws) y) ->
  exists st, update_partial_rotations t st0 (combine l ws) sl = Ok st /\
    pass1_inv n t own (rev sl) st.
Proof.
  intros Hlen Hin Hown. unfold update_partial_rotations.
  destruct (assign_ok t (reset_node_weights t st0) (combine l ws)) as (st1 & E1 & W1).
  { intros; apply reset_w; auto. }
  { intros x w H. apply in_combine_l in H. auto. }
  rewrite E1. cbn [bind].
  destruct (orientations_ok n t r W Hn NA sl SL st1) as (st2 & E2 & W2 & O2). rewrite E2. cbn [bind].
  assert (CK : foldM (fun _ x => do _ <- get_orient st2 x; Ok tt) tt (ids t) = Ok tt).
  { assert (G : forall m, (forall x, In x m -> In x (ids t)) ->
       foldM (fun _ x => do _ <- get_orient st2 x; Ok tt) tt m = Ok tt).
    { induction m as [|x m IH]; intros Hm; simpl; auto. unfold get_orient.
      rewrite O2 by (apply Hm; simpl; auto). simpl. apply IH. intros; apply Hm; simpl; auto. }
    apply G. auto. }
  rewrite CK. cbn [bind].
  destruct (foldM_inv (partial_step t) (pass1_inv n t own) (rev sl) st2) as (st3 & E3 & P3).
  { intros. eapply (partial_step_ok n t r W Hn NA sl SL own); eauto. }
  { split; [auto|]. split; [|intros y []]. intros y Hy. rewrite W2, W1 by auto. unfold wpartial.
    simpl. rewrite rsum_map_const. rewrite Hown. lra. }
  eauto.
Qed.

(** *** Congruence of the second pass *)
Definition agree (st st' : store) : Prop :=
  forall y, In y (ids t) -> s_part (st y) = s_part (st' y) /\ s_w (st y) = s_w (st' y).
Definition agree_sum (g g' : sumstate) : Prop :=
  agree (g_st g) (g_st g') /\ g_seq g = g_seq g' /\ g_last g = g_last g'.
Definition agree_res (a b : res sumstate) : Prop :=
  match a, b with
  | Ok g, Ok g' => agree_sum g g'
  | Err e, Err e' => e = e'
  | _, _ => False
  end.
Lemma agree_set st st' l : agree st st' ->
  agree (fold_left (fun st (yp : nid * rotation) => set_part st (fst yp) (snd yp)) l st)
        (fold_left (fun st yp => set_part st (fst yp) (snd yp)) l st').
Proof.
  revert st st'. induction l as [|[x p] l IH]; simpl; intros st st' H; auto.
  apply IH. intros y Hy. destruct (H y Hy). rewrite !set_part_w. split; auto.
  destruct (nid_eq_dec y x) as [->|N]; [rewrite !set_part_same; auto|].
  rewrite !set_part_other; auto.
Qed.
Lemma get_part_agree st st' y : agree st st' -> In y (ids t) -> get_part st y = get_part st' y.
Proof. intros H Hy. unfold get_part. destruct (H y Hy) as [-> _]. auto. Qed.

Lemma level_step_agree orth0 g g' k : agree_sum g g' ->
  agree_res (level_step orth0 t sl g k) (level_step orth0 t sl g' k).
Proof.
  intros (A & S & L). unfold level_step. rewrite (level_step_lev n t r W sl SL). cbn [bind].
  rewrite (filter_ext_in
    (fun xl : nid * nat => Nat.eqb (snd xl) k && negb (Reqb (s_w (g_st g (fst xl))) 0))
    (fun xl => Nat.eqb (snd xl) k && negb (Reqb (s_w (g_st g' (fst xl))) 0))).
  2:{ intros [x l] Hx. apply in_map_iff in Hx as (x' & E & Hx). injection E as <- <-. cbn [fst snd].
      apply (sl_in t sl SL) in Hx. destruct (A x' Hx) as [_ ->]. auto. }
  match goal with |- context [match map fst ?F with _ => _ end] => set (nl := map fst F) end.
  assert (Hnl : forall x, In x nl -> In x (ids t)).
  { intros x Hx. unfold nl in Hx. apply in_map_iff in Hx as ([x' l] & E & Hx). simpl in E. subst.
    apply filter_In in Hx as [Hx _]. apply in_map_iff in Hx as (x' & E & Hx). injection E as <- _.
    apply (sl_in t sl SL). auto. }
  clearbody nl. destruct nl as [|x0 nl']; [simpl; split; auto|].
  set (nl := x0 :: nl') in *.
  rewrite (get_part_agree _ _ x0 A) by (apply Hnl; simpl; auto).
  destruct (get_part (g_st g') x0) as [p0|e]; [|reflexivity]. cbn [bind].
  rewrite (mapM_ext (get_part (g_st g)) (get_part (g_st g')) nl)
    by (intros; apply get_part_agree; auto).
  destruct (mapM (get_part (g_st g')) nl) as [parts|e]; [|reflexivity]. cbn [bind].
  rewrite (foldM_ext (collect_back t (g_st g)) (collect_back t (g_st g')) nl []).
  2:{ intros acc x Hx. unfold collect_back. destruct (dlist_spec n t r W x) as (-> & _ & Hd). cbn [bind].
      rewrite (get_part_agree _ _ x A) by auto. destruct (get_part (g_st g') x); [|reflexivity].
      cbn [bind]. erewrite mapM_ext; [reflexivity|]. intros y Hy. cbn beta.
      rewrite (get_part_agree _ _ y A); auto. apply Hd, (desc_ids n t r W) in Hy. tauto. }
  destruct (foldM (collect_back t (g_st g')) [] nl) as [all|e]; [|reflexivity]. cbn [bind].
  rewrite S. destruct all as [|a0 all']; [simpl; split; auto|].
  match goal with |- context [if Req_EM_T ?x 0 then Ok _ else _] => destruct (Req_EM_T x 0) end.
  - cbn [agree_res]. split; [|split; reflexivity]. apply (agree_set _ _ (a0 :: all') A).
  - match goal with |- context [mapM ?f (a0 :: all')] => destruct (mapM f (a0 :: all')) end;
      [|reflexivity]. cbn [bind agree_res]. split; [|split; reflexivity]. apply agree_set. auto.
Qed.

Lemma foldM_agree orth0 l g g' : agree_sum g g' ->
  agree_res (foldM (level_step orth0 t sl) g l) (foldM (level_step orth0 t sl) g' l).
Proof.
  revert g g'. induction l as [|k l IH]; simpl; intros g g' H; auto.
  pose proof (level_step_agree orth0 g g' k H) as HA.
  destruct (level_step orth0 t sl g k), (level_step orth0 t sl g' k); simpl in *; auto; contradiction.
Qed.

Lemma reduce_agree orth0 own st0 st0' l ws l' ws' :
  length l = length ws -> (forall x, In x l -> In x (ids t)) ->
  (forall y, own y = own_of (combine l ws) y) ->
  length l' = length ws' -> (forall x, In x l' -> In x (ids t)) ->
  (forall y, own y = own_of (combine l' ws') y) ->
  reduce_weighted_to_sequence orth0 t st0 sl l ws = reduce_weighted_to_sequence orth0 t st0' sl l' ws'.
Proof.
  intros H1 H2 H3 H1' H2' H3'. unfold reduce_weighted_to_sequence.
  rewrite H1, H1', !Nat.eqb_refl. cbn [negb].
  destruct (all_levels t); [|reflexivity]. cbn [bind].
  destruct (update_ok own st0 l ws H1 H2 H3) as (st & -> & I).
  destruct (update_ok own st0' l' ws' H1' H2' H3') as (st' & -> & I'). cbn [bind].
  unfold evaluate_graph_summing.
  destruct (mapM (fun x => do a0 <- get_attrs t x; Ok (a_level a0)) sl) as [lev|]; [|reflexivity].
  cbn [bind].
  assert (A : agree_sum (mkSum st create_empty None) (mkSum st' create_empty None)).
  { split; [|split; reflexivity]. intros y Hy. simpl.
    destruct (p1_all_ok n t r W sl SL own y Hy st I) as (-> & _ & ->).
    destruct (p1_all_ok n t r W sl SL own y Hy st' I') as (-> & _ & ->). auto. }
  pose proof (foldM_agree orth0 (seq 0 (S (max_level lev))) _ _ A) as HA.
  destruct (foldM (level_step orth0 t sl) (mkSum st create_empty None) (seq 0 (S (max_level lev)))),
    (foldM (level_step orth0 t sl) (mkSum st' create_empty None) (seq 0 (S (max_level lev))));
    simpl in *; try contradiction; [|congruence].
  destruct HA as (_ & -> & ->). reflexivity.
Qed.

(** *** Pass 1 in closed form: a node is pulled by its ancestors, nearest first *)
Fixpoint anc (k : nat) (y : nid) : list nid :=
  match k with O => [] | S k' => par t y :: anc k' (par t y) end.

Lemma anc_split k : forall y x, In y (ids t) -> lvl t y = k -> desc t x y ->
  exists a1 a2, anc k y = a1 ++ x :: a2 /\
    (forall z, In z a1 -> In z (ids t) /\ (lvl t x < lvl t z)%nat) /\
    (forall z, In z a2 -> (lvl t z < lvl t x)%nat).
Proof.
  induction k; intros y x Hy L D; [apply (desc_lvl n t r W) in D; lia|].
  destruct (par_cases n t r W y Hy) as [->|Ep]; [rewrite (root_lvl n t r W) in L; lia|].
  pose proof (edge_lvl n t r W _ _ Ep) as Lp. pose proof (par_in n t r W y Hy) as Hp.
  assert (Lt : forall k z q, In z (ids t) -> lvl t z = k -> In q (anc k z) -> (lvl t q < lvl t z)%nat).
  { clear - W. induction k; simpl; intros z q Hz Lz Hq; [destruct Hq|].
    destruct (par_cases n t r W z Hz) as [->|Ez]; [rewrite (root_lvl n t r W) in Lz; lia|].
    pose proof (edge_lvl n t r W _ _ Ez). destruct Hq as [<-|Hq]; [lia|].
    assert (lvl t q < lvl t (par t z))%nat; [|lia]. apply (IHk (par t z) q); auto; [|lia].
    apply (par_in n t r W); auto. }
  simpl. destruct (desc_parent n t r W x (par t y) y D Ep) as [->|Dx].
  - exists [], (anc k (par t y)). split; [reflexivity|]. split; [intros z []|].
    intros z Hz. apply (Lt k); auto. lia.
  - destruct (IHk (par t y) x Hp) as (a1 & a2 & E & H1 & H2); auto; [lia|].
    exists (par t y :: a1), a2. rewrite E. split; [reflexivity|]. split; auto.
    intros z [<-|Hz]; auto. split; auto. apply (desc_lvl n t r W); auto.
Qed.
Lemma anc_desc k : forall y x, In y (ids t) -> lvl t y = k -> In x (anc k y) -> desc t x y.
Proof.
  induction k; simpl; intros y x Hy L H; [destruct H|].
  destruct (par_cases n t r W y Hy) as [->|Ep]; [rewrite (root_lvl n t r W) in L; lia|].
  pose proof (edge_lvl n t r W _ _ Ep) as Lp. pose proof (par_in n t r W y Hy) as Hp.
  destruct H as [<-|H]; [constructor; auto|].
  eapply desc_step; eauto. apply IHk; auto. lia.
Qed.

Variable own : nid -> R.
Notation wt := (wsub t own).
Definition pulled (y : nid) : rotation :=
  fold_left (fun p x => pull t own x p) (anc (lvl t y) y) (scaled t own y).

Lemma filter_all {A} (f : A -> bool) l : (forall x, In x l -> f x = true) -> filter f l = l.
Proof. induction l; simpl; intros H; auto. rewrite H by auto. f_equal. auto. Qed.
Lemma filter_none {A} (f : A -> bool) l : (forall x, In x l -> f x = false) -> filter f l = [].
Proof. induction l; simpl; intros H; auto. rewrite H by auto. auto. Qed.

Lemma p1_closed y : In y (ids t) -> p1 t own (rev sl) y = pulled y.
Proof.
  assert (R : forall y, In y (ids t) -> In y (rev sl)).
  { intros z Hz. apply -> in_rev. apply (sl_in t sl SL). auto. }
  assert (G : forall y, In y (rev sl) -> p1 t own (rev sl) y =
     fold_left (fun p x => pull t own x p) (filter (fun x => mem x (rev sl)) (anc (lvl t y) y)) (scaled t own y)).
  { unfold p1. apply (fold_left_inv (p1step t own) (fun l pt => forall y, In y l -> pt y =
      fold_left (fun p x => pull t own x p) (filter (fun x => mem x l) (anc (lvl t y) y)) (scaled t own y))).
    2:{ intros z []. }
    intros l1 x l2 pt E IH. destruct (prefix_lvl n t r W Hn sl SL l1 x l2 E) as (Hx & Nx & Hl & Hd).
    intros z Hz. rewrite p1step_eq.
    assert (Hzi : In z (ids t)).
    { apply in_app_or in Hz as [Hz|[->|[]]]; auto. apply Hl; auto. }
    destruct (nid_eq_dec z x) as [->|N].
    - rewrite upd_same. replace (mem x (dlist t x)) with false.
      2:{ symmetry. apply mem_false. intros Hi. apply (dlist_in n t r W) in Hi.
          apply (desc_lvl n t r W) in Hi. lia. }
      rewrite filter_none; auto. intros q Hq. apply (anc_desc _ x q Hx eq_refl) in Hq.
      apply (desc_lvl n t r W) in Hq. apply mem_false. intros Hi.
      apply in_app_or in Hi as [Hi|[->|[]]]; [|lia]. apply Hl in Hi. lia.
    - rewrite upd_other by auto.
      assert (Hz1 : In z l1) by (apply in_app_or in Hz as [|[->|[]]]; auto; congruence).
      rewrite (IH z Hz1).
      destruct (mem z (dlist t x)) eqn:Em.
      + apply mem_In, (dlist_in n t r W) in Em.
        destruct (anc_split _ z x Hzi eq_refl Em) as (a1 & a2 & Ea & H1 & H2). rewrite Ea.
        assert (F1 : filter (fun q => mem q l1) (a1 ++ x :: a2) = a1).
        { rewrite filter_app. rewrite filter_all.
          2:{ intros q Hq. apply mem_In. apply Hd; apply H1; auto. }
          simpl. replace (mem x l1) with false by (symmetry; apply mem_false; auto).
          rewrite filter_none; [apply app_nil_r|]. intros q Hq. apply mem_false. intros Hi.
          apply H2 in Hq. apply Hl in Hi. lia. }
        assert (F2 : filter (fun q => mem q (l1 ++ [x])) (a1 ++ x :: a2) = a1 ++ [x]).
        { rewrite filter_app. rewrite filter_all.
          2:{ intros q Hq. apply mem_In. apply in_or_app. left. apply Hd; apply H1; auto. }
          simpl. replace (mem x (l1 ++ [x])) with true
            by (symmetry; apply mem_In, in_or_app; simpl; auto).
          rewrite filter_none; auto. intros q Hq. apply mem_false. intros Hi.
          apply H2 in Hq. apply in_app_or in Hi as [Hi|[->|[]]]; [apply Hl in Hi|]; lia. }
        rewrite F1, F2, fold_left_snoc. auto.
      + f_equal. apply filter_ext_in. intros q Hq. rewrite mem_snoc.
        replace (nid_eqb q x) with false; [rewrite orb_false_r; auto|].
        symmetry. apply nid_eqb_false. intros ->. apply mem_false in Em. apply Em.
        apply (dlist_in n t r W). apply (anc_desc (lvl t z)); auto. }
  intros Hy. rewrite G by auto. unfold pulled. f_equal. apply filter_all.
  intros q Hq. apply mem_In, R. apply (anc_desc (lvl t y) y q) in Hq; auto.
  apply (desc_ids n t r W) in Hq. tauto.
Qed.
End OneList.

(** *** Order inside the levels *)
Section TwoLists.
Variables sl sl' : list nid.
Hypothesis SL : level_sorted t sl.
Hypothesis SL' : level_sorted t sl'.
Variable own : nid -> R.
Notation wt := (wsub t own).
Hypothesis OW : forall y, In y (ids t) -> 0 <= own y.
Hypothesis TOT : wt r <= 1.
Hypothesis EX : forall p x, edge t p x -> wt x <> 0 -> exact_pair (dirn t p) (dirn t x).
Variable orth0 : vec -> vec.

Lemma level_sum_perm pt nl nl' : Permutation nl nl' -> level_sum pt nl = level_sum pt nl'.
Proof.
  unfold level_sum. induction 1; simpl; auto.
  - rewrite IHPermutation. auto.
  - vext. ring.
  - congruence.
Qed.
Lemma level_sum_ext pt pt' nl : (forall x, In x nl -> pt x = pt' x) -> level_sum pt nl = level_sum pt' nl.
Proof.
  intros H. unfold level_sum. f_equal. apply map_ext_in. auto.
Qed.
Lemma nl_perm k : Permutation (nodelevel t own sl k) (nodelevel t own sl' k).
Proof.
  apply NoDup_Permutation.
  - apply (nodelevel_nodup n t r W sl SL).
  - apply (nodelevel_nodup n t r W sl' SL').
  - intros x. rewrite (nodelevel_in t sl SL), (nodelevel_in t sl' SL'). tauto.
Qed.

Definition agree_p (g g' : pstate) : Prop :=
  (forall y, In y (ids t) -> ps_pt g y = ps_pt g' y) /\ ps_seq g = ps_seq g' /\ ps_last g = ps_last g'.

Lemma p2_agree k : agree_p (p2 t sl own orth0 (seq 0 k)) (p2 t sl' own orth0 (seq 0 k)).
Proof.
  induction k.
  - unfold p2; simpl. split; [|auto]. intros y Hy. simpl.
    rewrite (p1_closed sl SL own y Hy), (p1_closed sl' SL' own y Hy). auto.
  - rewrite seq_S. unfold p2. rewrite !fold_left_snoc.
    fold (p2 t sl own orth0 (seq 0 k)) (p2 t sl' own orth0 (seq 0 k)).
    pose proof (p2_inv_all n t r W Hn NA sl SL own OW TOT EX orth0 k) as (K1 & _ & _ & K4 & _).
    set (g := p2 t sl own orth0 (seq 0 k)) in *. set (g' := p2 t sl' own orth0 (seq 0 k)) in *.
    destruct IHk as (A1 & A2 & A3). simpl. unfold p2step.
    pose proof (nl_perm k) as P.
    pose proof (nodelevel_in t sl SL own k) as NI.
    pose proof (moved_some n t r W sl SL own k) as MS. pose proof (moved_some n t r W sl' SL' own k) as MS'.
    set (nl := nodelevel t own sl k) in *. set (nl' := nodelevel t own sl' k) in *.
    destruct nl as [|x0 l] eqn:En.
    { apply Permutation_nil in P. rewrite P. unfold agree_p. auto. }
    destruct nl' as [|x0' l'] eqn:En'.
    { apply Permutation_sym, Permutation_nil in P. discriminate. }
    rewrite <- En, <- En' in *.
    assert (C4 : exists E, forall y, In y nl -> rb0 (ps_pt g y) = E).
    { destruct K4 as [(E & _ & _ & _ & HE & _)|(E & new & _ & _ & _ & Hz & _)].
      - exists E. intros y Hy. apply NI in Hy as (Hy & L & Wy). auto.
      - exists E. intros y Hy. apply NI in Hy as (Hy & L & Wy). exfalso. apply Wy, Hz; auto. lia. }
    destruct C4 as (E & HE).
    assert (Hids : forall x, In x nl -> In x (ids t)) by (intros x Hx; apply NI in Hx; tauto).
    assert (ER : level_rot orth0 (ps_pt g) nl = level_rot orth0 (ps_pt g') nl').
    { unfold level_rot.
      assert (H1 : In (hd (NInt 0) nl) nl) by (rewrite En; simpl; auto).
      assert (H2 : In (hd (NInt 0) nl') nl).
      { apply Permutation_in with nl'; [apply Permutation_sym; auto|]. rewrite En'. simpl; auto. }
      rewrite <- (A1 (hd (NInt 0) nl')) by auto. rewrite (HE _ H1), (HE _ H2).
      rewrite (level_sum_perm (ps_pt g') nl' nl) by (apply Permutation_sym; auto).
      rewrite (level_sum_ext (ps_pt g') (ps_pt g) nl); auto.
      intros x Hx. symmetry. auto. }
    rewrite <- ER. set (new := level_rot orth0 (ps_pt g) nl) in *.
    assert (Pf : Permutation (flat_map (dlist t) nl) (flat_map (dlist t) nl')).
    { apply Permutation_flat_map. auto. }
    destruct (flat_map (dlist t) nl) as [|d dl].
    { apply Permutation_nil in Pf. rewrite Pf. unfold agree_p; simpl. auto. }
    destruct (flat_map (dlist t) nl') as [|d' dl'].
    { apply Permutation_sym, Permutation_nil in Pf. discriminate. }
    unfold agree_p; cbn [ps_pt ps_seq ps_last]. rewrite A2. split; [|auto].
    intros y Hy.
    assert (Em : moved t nl y = moved t nl' y).
    { destruct (moved t nl y) as [x|] eqn:E1.
      - apply MS in E1 as [H1 H2]. symmetry. apply MS'. split; auto. eapply Permutation_in; eauto.
      - destruct (moved t nl' y) as [x|] eqn:E2; auto. apply MS' in E2 as [H1 H2].
        rewrite <- E1. apply MS. split; auto.
        eapply Permutation_in; [apply Permutation_sym; eauto|auto]. }
    rewrite <- Em. destruct (moved t nl y) as [x|] eqn:E1; auto.
    apply MS in E1 as [H1 H2]. rewrite (A1 x), (A1 y); auto.
Qed.

Lemma maxlvl_perm : maxlvl t sl = maxlvl t sl'.
Proof.
  unfold maxlvl. assert (P : Permutation sl sl').
  { destruct SL as [P _], SL' as [P' _]. eapply perm_trans; [exact P|apply Permutation_sym; exact P']. }
  clear - P. unfold max_level. induction P; simpl; auto; try lia.
Qed.

Lemma reduce_sort_independent st0 st0' l ws :
  length l = length ws -> (forall x, In x l -> In x (ids t)) ->
  (forall y, own y = own_of (combine l ws) y) ->
  reduce_weighted_to_sequence orth0 t st0 sl l ws = reduce_weighted_to_sequence orth0 t st0' sl' l ws.
Proof.
  intros H1 H2 H3.
  destruct (reduce_pure n t r W Hn NA sl SL own orth0 st0 l ws H1 H2 H3) as [-> _].
  { intros k Hk _. apply (p2_inv_fine n t r Hn sl SL own orth0).
    apply (p2_inv_all n t r W Hn NA sl SL own OW TOT EX orth0). }
  destruct (reduce_pure n t r W Hn NA sl' SL' own orth0 st0' l ws H1 H2 H3) as [-> _].
  { intros k Hk _. apply (p2_inv_fine n t r Hn sl' SL' own orth0).
    apply (p2_inv_all n t r W Hn NA sl' SL' own OW TOT EX orth0). }
  rewrite maxlvl_perm. destruct (p2_agree (S (maxlvl t sl'))) as (_ & -> & ->). auto.
Qed.
End TwoLists.
End Indep.
