(** Properties C61: the commanded velocity at the surface of an obstacle. *)
Require Import Reals List Bool Lra Lia ZArith Classical_Prop Permutation.
From Verif Require Import Base Vec Angle Pow RotModel Spec RotProofs SeqProofs TreeModel TreeSpec
  TreeProofs TreeWeights TreeReduce TreeGeom TreeCases PropTree WeightModel WeightProofs PropWeights
  AvoidModel PropAvoid ProjModel PropProject TangentProofs PropTangent.
Import ListNotations.
Open Scope R_scope.

(** A list which is one at [i] and zero elsewhere. *)
Definition one_at (i : nat) (l : list R) : Prop :=
  (i < length l)%nat /\ nth i l 0 = 1 /\ forall j, j <> i -> nth j l 0 = 0.
Lemma zero_list l : (forall j, nth j l 0 = 0) -> rsum l = 0 /\ filter (fun w => Rltb 0 w) l = [].
Proof.
  induction l as [|a l IH]; intros H; simpl; auto. destruct (IH (fun j => H (S j))) as [A B].
  specialize (H 0%nat). simpl in H. subst a. rewrite (proj2 (Rltb_false 0 0)) by lra. split; [lra|auto].
Qed.
Lemma one_at_sum : forall l i, one_at i l -> rsum l = 1 /\ filter (fun w => Rltb 0 w) l = [1].
Proof.
  induction l as [|a l IH]; intros [|i] (L & O & Z); simpl in *; try lia.
  - subst a. destruct (zero_list l) as [A B]; [intros j; apply (Z (S j)); lia|].
    rewrite (proj2 (Rltb_true 0 1)) by lra. rewrite A, B. split; [lra|auto].
  - pose proof (Z 0%nat ltac:(lia)) as Z0. simpl in Z0. subst a.
    destruct (IH i) as [A B]; [split; [lia|]; split; [auto|]; intros j Hj; apply (Z (S j)); lia|].
    rewrite (proj2 (Rltb_false 0 0)) by lra. split; [lra|auto].
Qed.
Lemma filter_seq_one f i : forall n s, (s <= i < s + n)%nat -> (forall j, f j = (j =? i)%nat) -> filter f (seq s n) = [i].
Proof.
  assert (Q : forall n s, (i < s)%nat -> (forall j, f j = (j =? i)%nat) -> filter f (seq s n) = []).
  { induction n as [|n IH]; intros s Hs H; cbn [seq filter]; auto. rewrite H.
    destruct (Nat.eqb_spec s i); [lia|]. apply IH; auto. }
  induction n as [|n IH]; intros s Hs H; cbn [seq filter]; [lia|]. rewrite H.
  destruct (Nat.eqb_spec s i).
  - subst s. rewrite Q; auto.
  - apply IH; auto. lia.
Qed.
Lemma one_at_weighted ws i : one_at i ws -> weighted ws (seq 0 (length ws)) = [i].
Proof.
  intros (L & O & Z). apply filter_seq_one; [lia|]. intros j. destruct (Nat.eqb_spec j i) as [->|N].
  - rewrite O. apply Rltb_true. lra.
  - rewrite Z by auto. apply Rltb_false. lra.
Qed.

(** Weights of the tree with the component in contact. *)
Lemma contact_weights angle_of position base power t ws i c : 0 <= power -> well_defined position t ->
  tree_obstacle_weights angle_of position base power t = Ok ws ->
  nth_error (m_comps t) i = Some c -> c_gamma c position <= 1 ->
  (forall j c', nth_error (m_comps t) j = Some c' -> c_gamma c' position <= 1 -> j = i) ->
  component_occlusion position t i = Ok 1 -> one_at i ws.
Proof.
  intros Hp (Hr & Ho) Ew Ec Hc Uc Hocc. unfold tree_obstacle_weights, tree_gamma_and_weights in Ew.
  set (gs := tree_gammas position t) in *.
  assert (Lg : length gs = length (m_comps t)) by (unfold gs, tree_gammas; apply map_length).
  assert (Li : (i < length (m_comps t))%nat) by (apply nth_error_Some; congruence).
  assert (Gn : forall j c', nth_error (m_comps t) j = Some c' -> nth j gs 0 = c_gamma c' position).
  { intros j c' E. unfold gs, tree_gammas. apply nth_error_nth with (d := 0). rewrite nth_error_map, E. auto. }
  destruct (compute_weights_from_distances gs 1 false) as [dw|]; [|discriminate]. cbn [bind] in Ew.
  destruct (get_component t (m_root t)) as [root|]; [|discriminate]. cbn [bind] in Ew.
  destruct gs as [|g0 gl] eqn:Eg; [simpl in Lg; lia|]. rewrite <- Eg in *.
  assert (Ing : In (c_gamma c position) gs) by (rewrite <- (Gn i c Ec); apply nth_In; lia).
  destruct (C22_rotation_weight angle_of (c_normal root position) (c_refdir root position) base
              (PI * / 2) power (PI * / 2) Hp) as (f & Ef & F1 & _).
  rewrite Ef in Ew. cbn [bind] in Ew. rewrite F1 in Ew by (pose proof (rmin_list_le gs _ Ing); lra).
  destruct (C23_component_weights gs 1) as (gs' & w & E & Lw & _ & Sw & Hw & _); [congruence|lra|].
  rewrite E in Ew. cbn [bind] in Ew.
  destruct (compute_parent_occlusion_weight position t) as [occ|] eqn:Eo; [|discriminate].
  cbn [bind] in Ew. injection Ew as <-. specialize (Hw (ex_intro _ _ (conj Ing Hc))).
  assert (Z : forall j, j <> i -> nth j w 0 = 0).
  { intros j Hj. destruct (le_lt_dec (length gs) j) as [Lj|Lj]; [apply nth_overflow; lia|].
    apply (Hw j Lj). destruct (nth_error (m_comps t) j) as [c'|] eqn:Ej; [|apply nth_error_None in Ej; lia].
    rewrite (Gn j c' Ej). destruct (Rlt_le_dec 1 (c_gamma c' position)) as [|Q]; auto.
    exfalso. apply Hj. eapply Uc; eauto. }
  assert (O : nth i w 0 = 1).
  { rewrite <- Sw. clear - Z Li Lg Lw. assert (L : (i < length w)%nat) by lia. clear Li Lg Lw.
    revert i Z L. induction w as [|a w IH]; intros [|i] Z L; simpl in *; try lia.
    - destruct (zero_list w) as [A _]; [intros j; apply (Z (S j)); lia|]. lra.
    - pose proof (Z 0%nat ltac:(lia)) as Z0. simpl in Z0. rewrite (IH i); [lra| |lia].
      intros j Hj. apply (Z (S j)). lia. }
  unfold compute_parent_occlusion_weight in Eo.
  assert (Lo : length occ = length (m_comps t) /\ forall j, (j < length (m_comps t))%nat ->
             component_occlusion position t j = Ok (nth j occ 0)).
  { assert (K : forall l os, mapM (component_occlusion position t) l = Ok os -> length os = length l /\
       forall j, (j < length l)%nat -> component_occlusion position t (nth j l 0%nat) = Ok (nth j os 0)).
    { induction l as [|x l IH]; intros os Em; simpl in Em.
      - injection Em as <-. split; auto. simpl. intros; lia.
      - destruct (component_occlusion position t x) as [o|] eqn:Ex; [|discriminate]. cbn [bind] in Em.
        destruct (mapM _ l) as [os'|]; [|discriminate]. cbn [bind] in Em. injection Em as <-.
        destruct (IH os' eq_refl) as [A B]. split; [simpl; lia|].
        intros [|j] Hj; simpl in *; [auto|apply B; lia]. }
    destruct (K _ _ Eo) as [A B]. rewrite seq_length in *. split; auto.
    intros j Hj. specialize (B j Hj). rewrite seq_nth in B by auto. exact B. }
  destruct Lo as [Lo No]. pose proof (No i Li) as Oi. rewrite Hocc in Oi. injection Oi as Oi.
  assert (P : forall j, nth j (map (fun wo : R * R => fst wo * snd wo) (combine w occ)) 0 = nth j w 0 * nth j occ 0).
  { clear - Lw Lg Lo. assert (L : length w = length occ) by lia. clear - L. revert occ L.
    induction w as [|a w IH]; intros [|b occ] L [|j]; simpl in *; try lia; try ring. apply IH. lia. }
  split; [rewrite map_length, combine_length; lia|]. split.
  - rewrite P, O, <- Oi. ring.
  - intros j Hj. rewrite P, (Z j Hj). ring.
Qed.

(** Cluster weights when one tree is saturated by one component. *)
Lemma zero_clusters l : (forall ws, In ws l -> rsum ws < 1) ->
  Forall (fun w => w = 0) (concat (map (fun wc : R * list R => map (fun w => fst wc * w) (snd wc))
     (combine (map (fun w => if Rleb 1 w then 1 else 0) (map rsum l)) (map positive_normalised l)))).
Proof.
  induction l as [|ws l IH]; intros H; simpl; [constructor|]. apply Forall_app. split; [|apply IH; intros; apply H; right; auto].
  rewrite (proj2 (Rleb_false 1 (rsum ws))) by (apply H; left; auto). apply Forall_forall. intros x I.
  apply in_map_iff in I. destruct I as (y & <- & _). ring.
Qed.
Lemma cluster_length l : length (concat (map (fun wc : R * list R => map (fun w => fst wc * w) (snd wc))
     (combine (map (fun w => if Rleb 1 w then 1 else 0) (map rsum l)) (map positive_normalised l))))
  = length (concat (map (filter (fun w => Rltb 0 w)) l)).
Proof.
  induction l as [|ws l IH]; simpl; auto. rewrite !app_length, IH. f_equal.
  unfold positive_normalised. rewrite !map_length. auto.
Qed.
Lemma combine_app {A B} (a b : list A) (c d : list B) : length a = length c ->
  combine (a ++ b) (c ++ d) = combine a c ++ combine b d.
Proof. revert c. induction a as [|x a IH]; intros [|y c] L; simpl in *; try lia; auto. f_equal. apply IH. lia. Qed.
Lemma saturated_cluster l1 ws l2 i cw : one_at i ws ->
  (forall w, In w (l1 ++ l2) -> nonneg w /\ rsum w < 1) -> cluster_weights (l1 ++ ws :: l2) = Ok cw ->
  exists A B, cw = A ++ 1 :: B /\ length A = length (concat (map (filter (fun w => Rltb 0 w)) l1)) /\
    Forall (fun w => w = 0) A /\ Forall (fun w => w = 0) B.
Proof.
  intros O H E. destruct (one_at_sum ws i O) as [S1 F1].
  unfold cluster_weights in E. rewrite app_length in E. simpl length in E. rewrite Nat.add_succ_r in E. cbn [Nat.eqb] in E.
  rewrite map_app in E. cbn [map] in E.
  assert (Nn : forall l, (forall w, In w l -> nonneg w) -> 0 <= rsum (map rsum l)).
  { clear. induction l as [|w l IH]; intros Hl; simpl; [lra|].
    pose proof (rsum_nonneg w (Hl w (or_introl eq_refl))). specialize (IH ltac:(intros; apply Hl; right; auto)). lra. }
  rewrite limited_saturated in E.
  - cbn [bind] in E. injection E as <-.
    rewrite !map_app. cbn [map]. rewrite combine_app by (rewrite !map_length; auto).
    cbn [combine]. rewrite map_app, concat_app. cbn [map concat].
    rewrite S1, (proj2 (Rleb_true 1 1)) by lra.
    assert (PN : map (fun w => fst (1, positive_normalised ws) * w) (snd (1, positive_normalised ws)) = [1]).
    { cbn [fst snd]. unfold positive_normalised. rewrite F1. simpl. f_equal. field. }
    rewrite PN. eexists _, _. split; [reflexivity|]. split; [apply cluster_length|].
    split; apply zero_clusters; intros w I; apply H; apply in_app_iff; auto.
  - rewrite rsum_app. simpl. rewrite S1.
    pose proof (Nn l1 ltac:(intros; apply H; apply in_app_iff; auto)).
    pose proof (Nn l2 ltac:(intros; apply H; apply in_app_iff; auto)). lra.
  - exists 1. split; [|lra]. apply in_app_iff. right. left. auto.
Qed.
Lemma dot_averaged_zero n v : forall normals cw, Forall (fun w => w = 0) cw ->
  dot v (averaged_normal n normals cw) = 0.
Proof.
  induction normals as [|a normals IH]; intros [|w cw] F; unfold averaged_normal; cbn [combine fold_right];
    try apply dot_vzero_r. inversion F; subst. rewrite dot_vadd_r, dot_vscale_r. simpl.
  change (fold_right _ _ _) with (averaged_normal n normals cw). rewrite IH by auto. ring.
Qed.
Lemma dot_averaged_one n v : forall N1 A nn N2 B, length N1 = length A -> Forall (fun w => w = 0) A -> Forall (fun w => w = 0) B ->
  dot v (averaged_normal n (N1 ++ nn :: N2) (A ++ 1 :: B)) = dot v nn.
Proof.
  induction N1 as [|a N1 IH]; intros [|w A] nn N2 B L FA FB; simpl in L; try lia; unfold averaged_normal;
    cbn [app combine fold_right fst snd].
  - change (fold_right _ _ _) with (averaged_normal n N2 B). rewrite dot_vadd_r, dot_vscale_r, dot_averaged_zero by auto. ring.
  - inversion FA; subst.
    change (fold_right _ _ _) with (averaged_normal n (N1 ++ nn :: N2) (A ++ 1 :: B)).
    rewrite dot_vadd_r, dot_vscale_r, IH by (auto; lia). ring.
Qed.
Lemma end_items_app a b : forall obs, end_items obs (a ++ b) = end_items obs a ++ end_items (obs + Z.of_nat (length a)) b.
Proof.
  induction a as [|((t, ws), rs) a IH]; intros obs.
  - cbn [app end_items length]. rewrite Z.add_0_r. auto.
  - cbn [app end_items length]. rewrite IH, <- app_assoc. do 3 f_equal. lia.
Qed.
Lemma Forall2_split {A B} (P : A -> B -> Prop) : forall l1 x l2 m, Forall2 P (l1 ++ x :: l2) m ->
  exists m1 y m2, m = m1 ++ y :: m2 /\ length m1 = length l1 /\ P x y.
Proof.
  induction l1 as [|a l1 IH]; intros x l2 m F; simpl in F; inversion F as [|a0 b0 la lb Hab F']; subst.
  - exists [], b0, lb. auto.
  - destruct (IH x l2 lb F') as (m1 & y & m2 & -> & L & Hy). exists (b0 :: m1), y, m2. simpl. auto.
Qed.
(** The mean direction when the whole weight is on one of the nodes. *)
Lemma mean_on_one n tt sl orth0 st K1 m K2 A B a : rooted_tree n tt base_vel_id -> (2 <= n)%nat ->
  no_opposite tt -> distinguishable tt -> level_sorted tt sl -> (forall v, length (orth0 v) = length v) ->
  NoDup (K1 ++ m :: K2) -> (forall x, In x (K1 ++ m :: K2) -> In x (map fst (t_nodes tt))) -> node tt m a ->
  length K1 = length A -> length K2 = length B -> Forall (fun w => w = 0) A -> Forall (fun w => w = 0) B ->
  get_weighted_mean orth0 tt st sl (K1 ++ m :: K2) (A ++ 1 :: B) = Ok (a_dir a).
Proof.
  intros W Hn NO DI SL OL ND IN Na LA LB FA FB.
  pose proof (node_in_ids tt m a Na) as Hmi.
  assert (Da : dirn tt m = a_dir a) by (unfold dirn; rewrite (proj2 (get_attrs_node n tt base_vel_id W m a) Na); auto).
  rewrite <- Da.
  apply (mean_single n tt base_vel_id W Hn (no_opposite_dirn n tt base_vel_id W NO) sl SL orth0 OL
    (fun y => if nid_eq_dec y m then 1 else 0) m Hmi); auto.
  - rewrite !app_length. simpl. lia.
  - intros y. rewrite combine_app by auto. cbn [combine].
    assert (Z : forall (K : list nid) (A : list R), length K = length A -> Forall (fun w => w = 0) A -> forall x w, In (x, w) (combine K A) -> w = 0).
    { clear. intros K A _ F x w I. apply in_combine_r in I. rewrite Forall_forall in F. auto. }
    set (l := combine K1 A ++ (m, 1) :: combine K2 B).
    assert (NDl : NoDup (map fst l)).
    { unfold l. rewrite map_app. cbn [map fst]. rewrite !combine_fst by auto. auto. }
    destruct (nid_eq_dec y m) as [->|Ny].
    + symmetry. apply own_of_in; auto. apply in_app_iff. right. left. auto.
    + destruct (in_dec nid_eq_dec y (map fst l)) as [I|I].
      * apply in_map_iff in I. destruct I as ((y', w) & E & I). simpl in E. subst y'.
        rewrite (own_of_in l y w NDl I). unfold l in I. apply in_app_iff in I. destruct I as [I|[I|I]].
        -- symmetry. eapply (Z K1 A); eauto.
        -- congruence.
        -- symmetry. eapply (Z K2 B); eauto.
      * rewrite own_of_out; auto.
  - intros p Ep. destruct (edge_ids n tt base_vel_id W p m Ep) as [Hp _].
    destruct (wf_attrs n tt base_vel_id W p Hp) as (b & Gb & Nb & _).
    assert (Db : dirn tt p = a_dir b) by (unfold dirn; rewrite Gb; auto).
    rewrite Da, Db. unfold exact_pair. destruct (DI p m b a Ep Nb Na); eauto.
Qed.

Section C61.
Variable orth0 : vec -> vec.
Variable angle_of : vec -> vec -> vec.
Variable pick : vec -> vec.
Variable sort : tree -> list nid.
Variables (power radius : R) (max_repulsion : option R).

(** In contact (or inside) with exactly one component which is not occluded by its parent: the
    commanded velocity in the frame of the obstacles does not point into that component. *)
Theorem C61_no_penetration :
  forall n dim magnitude s conv_of conv position env rel base trees k t i c surf,
  0 <= magnitude -> conv_of s = Ok conv -> get_end_vector conv = Ok base ->
  scene orth0 angle_of pick sort power radius max_repulsion n position base trees ->
  compute_multiobstacle_relative_velocity position env = Ok rel ->
  nth_error trees k = Some t -> nth_error (bt_comps t) i = Some c ->
  c_gamma (b_comp c) position <= 1 ->
  (forall k' t' i' c', nth_error trees k' = Some t' -> nth_error (bt_comps t') i' = Some c' ->
     c_gamma (b_comp c') position <= 1 -> k' = k /\ i' = i) ->
  component_occlusion position (mtree_of t) i = Ok 1 ->
  c_intersect (b_comp c) position (vscale (-1) (c_refdir (b_comp c) position)) = Some surf ->
  length surf = n -> length (c_center (b_comp c)) = n ->
  dot (c_refdir (b_comp c) position) (c_normal (b_comp c) surf) < -1/1000 ->
  exists v m, evaluate_sequence orth0 angle_of (get_projected_tangent pick) sort power radius max_repulsion
      dim magnitude (Some s) conv_of position env trees = Ok v /\ v = vadd m rel /\
    0 <= dot m (c_normal (b_comp c) surf) /\ norm m <= magnitude /\ length m = n.
Proof.
  intros n dim magnitude s conv_of conv position env rel base trees k t i c surf
    Hm Ec Eb S Er Ek Ei Hg Hu Hocc Hsurf Lsurf Lcen Href.
  destruct (evaluate_avoidance_ok orth0 angle_of pick sort power radius max_repulsion n position conv base trees S Eb)
    as (tt & data & final & normals & cw & fv & Ed & Ea & W & NO & DI & Fi & ND & IN & Ecl & Em & Ef & Uf & Lf & Nc & Sc & Pc & Ln & Un & Nd & Rr).
  assert (It : In t trees) by (eapply nth_error_In; eauto).
  (* the data of the tree in contact *)
  assert (F2 : Forall2 (fun t d => exists ws rs rec, d = (t, ws, rs, rec) /\
        tree_obstacle_weights angle_of position base power (mtree_of t) = Ok ws) trees data).
  { clear - Ed. revert data Ed. induction trees as [|t trees IH]; intros data Ed; simpl in *.
    - injection Ed as <-. constructor.
    - destruct (tree_data _ _ _ _ _ _ t) as [d|] eqn:Et; [|discriminate]. cbn [bind] in Ed.
      destruct (mapM _ trees) as [ds|] eqn:Em; [|discriminate]. cbn [bind] in Ed. injection Ed as <-.
      constructor; [|auto].
      unfold tree_data in Et. destruct (convergence_record _ _ _ _ _); [|discriminate]. cbn [bind] in Et.
      destruct (tree_gamma_and_weights _ _ _ _ _) as [(?, ?)|]; [|discriminate]. cbn [bind] in Et.
      destruct (tree_obstacle_weights _ _ _ _ (mtree_of t)) as [ws|]; [|discriminate]. cbn [bind] in Et.
      destruct (tree_radiuses _ _ _ _ _) as [rs|]; [|discriminate]. cbn [bind] in Et. injection Et as <-. eauto. }
  destruct (nth_error_split trees k Ek) as (t1 & t2 & Etr & Lt1).
  assert (F2' := F2). rewrite Etr in F2'.
  destruct (Forall2_app_inv_l t1 (t :: t2) F2') as (d1 & d2' & Fd1 & Fd2' & Edata).
  inversion Fd2' as [|t0 d t2' d2 (ws & rs & rec & -> & Ew) Fd2]; subst t0 t2' d2'.
  (* its weights *)
  assert (Ow : one_at i ws).
  { eapply (contact_weights angle_of position base power (mtree_of t) ws i (b_comp c)); eauto.
    - apply (sc_power _ _ _ _ _ _ _ _ _ _ _ S).
    - apply (sc_well _ _ _ _ _ _ _ _ _ _ _ S); auto.
    - simpl. rewrite nth_error_map, Ei. auto.
    - simpl. intros j c' Ej Gj. rewrite nth_error_map in Ej.
      destruct (nth_error (bt_comps t) j) as [bc|] eqn:Ebj; [|discriminate]. injection Ej as <-.
      apply (Hu k t j bc Ek Ebj Gj). }
  assert (Lws : forall t ws, In t trees -> tree_obstacle_weights angle_of position base power (mtree_of t) = Ok ws ->
             length ws = length (bt_comps t) /\ nonneg ws /\ (~ in_contact position (mtree_of t) -> rsum ws < 1)).
  { intros t' ws' I E. destruct (tree_obstacle_weights_spec angle_of position base power (mtree_of t')
        (sc_power _ _ _ _ _ _ _ _ _ _ _ S) (sc_well _ _ _ _ _ _ _ _ _ _ _ S t' I)) as (w & Ew' & L & N & _ & C).
    rewrite E in Ew'. injection Ew' as <-. split; auto. rewrite L. simpl. apply map_length. }
  set (wsof := fun d : btree * list R * list R * (R * R) => snd (fst (fst d))) in *.
  assert (Other : forall w, In w (map wsof d1 ++ map wsof d2) -> nonneg w /\ rsum w < 1).
  { intros w I. rewrite <- map_app in I. apply in_map_iff in I. destruct I as (d & <- & I).
    assert (Q : exists k' t', nth_error trees k' = Some t' /\ k' <> k /\ In t' trees /\
                tree_obstacle_weights angle_of position base power (mtree_of t') = Ok (wsof d)).
    { apply in_app_iff in I. destruct I as [I|I].
      - destruct (In_nth_error _ _ I) as (j & Ej).
        assert (Lj : (j < length d1)%nat) by (apply nth_error_Some; congruence).
        clear - Fd1 Ej Etr Lt1 Lj It.
        assert (L1 : length t1 = length d1) by (clear - Fd1; induction Fd1; simpl; auto).
        assert (Q : exists t', nth_error t1 j = Some t' /\ tree_obstacle_weights angle_of position base power (mtree_of t') = Ok (wsof d)).
        { clear - Fd1 Ej. revert j Ej. induction Fd1 as [|a b la lb (w & r & e & -> & E) F IH]; intros [|j] Ej; simpl in *; try discriminate.
          - injection Ej as <-. exists a. auto.
          - apply IH; auto. }
        destruct Q as (t' & Et' & E'). exists j, t'.
        assert (E2 : nth_error trees j = Some t') by (rewrite Etr, nth_error_app1 by lia; auto).
        split; auto. split; [lia|]. split; [eapply nth_error_In; eauto|auto].
      - destruct (In_nth_error _ _ I) as (j & Ej).
        clear - Fd2 Ej Etr Lt1 It.
        assert (Q : exists t', nth_error t2 j = Some t' /\ tree_obstacle_weights angle_of position base power (mtree_of t') = Ok (wsof d)).
        { clear - Fd2 Ej. revert j Ej. induction Fd2 as [|a b la lb (w & r & e & -> & E) F IH]; intros [|j] Ej; simpl in *; try discriminate.
          - injection Ej as <-. exists a. auto.
          - apply IH; auto. }
        destruct Q as (t' & Et' & E'). exists (length t1 + S j)%nat, t'.
        assert (E2 : nth_error trees (length t1 + S j) = Some t').
        { rewrite Etr, nth_error_app2 by lia. replace (length t1 + S j - length t1)%nat with (S j) by lia. auto. }
        split; auto. split; [lia|]. split; [eapply nth_error_In; eauto|auto]. }
    destruct Q as (k' & t' & Ek' & Nk & It' & E'). destruct (Lws t' _ It' E') as (_ & N & C).
    split; auto. apply C. intros (cm & Icm & Gcm). simpl in Icm. apply in_map_iff in Icm. destruct Icm as (bc & <- & Ibc).
    destruct (In_nth_error _ _ Ibc) as (j & Ej). apply Nk. apply (Hu k' t' j bc Ek' Ej Gcm). }
  assert (Ell : map wsof data = map wsof d1 ++ ws :: map wsof d2) by (rewrite Edata, map_app; reflexivity).
  rewrite Ell in Ecl.
  destruct (saturated_cluster _ _ _ i cw Ow Other Ecl) as (A & B & Ecw & LA & FA & FB).
  (* the end node of the component in contact *)
  destruct (Lws t ws It Ew) as (Lw & _).
  assert (Eit : end_items 0 (map fst data) = end_items 0 (map fst d1) ++ (Z.of_nat k, t, i) :: end_items (Z.of_nat k + 1) (map fst d2)).
  { rewrite Edata, map_app, end_items_app. cbn [map fst end_items].
    rewrite <- Lw, (one_at_weighted ws i Ow). cbn [map app]. rewrite map_length.
    replace (length d1) with k by (rewrite <- Lt1; clear - Fd1; induction Fd1; simpl; auto). reflexivity. }
  rewrite Eit in Fi. destruct (Forall2_split _ _ _ _ _ Fi) as (N1 & nn & N2 & En & LN1 & Hitem).
  assert (LIA : length (end_items 0 (map fst d1)) = length A).
  { rewrite LA. pose proof (end_keys_length (map fst d1) 0) as Q. unfold end_keys in Q. rewrite map_length in Q. rewrite Q.
    - rewrite !map_map. reflexivity.
    - apply Forall_forall. intros ((t', w'), r') I. apply in_map_iff in I. destruct I as (d & Ed' & I). simpl.
      assert (Q2 : In t' trees /\ tree_obstacle_weights angle_of position base power (mtree_of t') = Ok w').
      { assert (I2 : In d data) by (rewrite Edata; apply in_app_iff; auto).
        clear - F2 I2 Ed'. induction F2 as [|a b la lb (w & r & e & -> & E) F IH]; [contradiction|].
        destruct I2 as [<-|I2]; [simpl in Ed'; injection Ed' as -> -> ->; split; [left|]; auto|].
        destruct (IH I2). split; [right|]; auto. }
      destruct Q2 as [I' E']. apply (Lws t' w' I' E'). }
  unfold item_dir in Hitem. destruct Hitem as (a & d & Na & Da & w & Ewalk & Enn & Nd0 & Uda & Haway).
  assert (Dd : a_dir a = d).
  { rewrite Da, (proj1 (unit_norm _) Uda). vext. field. }
  destruct (walk_first_normal _ _ _ _ Ewalk) as (c0 & surf0 & d0 & Ec0 & En0 & Er0 & Hc0).
  assert (c0 = c) by (unfold get_bcomp in Ec0; rewrite Ei in Ec0; congruence). subst c0.
  destruct (Hc0 Hg) as [Es0 ->]. rewrite Hsurf in Es0. injection Es0 as <-.
  assert (Nn : nn = c_normal (b_comp c) surf).
  { rewrite <- Enn in En0. unfold get_normal_at_distance in En0. destruct (b_cuboid c); [|injection En0 as <-; auto].
    destruct (Req_EM_T _ 0); [discriminate|]. injection En0 as <-. f_equal. vext. ring. }
  rewrite Er0 in Haway.
  (* the mean *)
  assert (Scw : rsum cw = 1).
  { assert (Z : forall l, Forall (fun w => w = 0) l -> rsum l = 0).
    { clear. induction 1 as [|x l Hx F IH]; simpl; [auto|]. rewrite Hx, IH. ring. }
    rewrite Ecw, rsum_app. simpl. rewrite (Z A FA), (Z B FB). ring. }
  assert (Fv : fv = d).
  { rewrite <- Dd. unfold end_keys in Em, ND, IN. rewrite Eit, map_app in Em, ND, IN. cbn [map item_key] in Em, ND, IN.
    rewrite Ecw, <- !app_assoc in Em. cbn [app] in Em. rewrite <- app_assoc in ND, IN. cbn [app] in ND, IN.
    erewrite (mean_on_one n tt (sort tt) orth0 _ _ _ _ _ _ a W (sc_dim _ _ _ _ _ _ _ _ _ _ _ S) NO DI) in Em.
    - injection Em as <-. auto.
    - apply (sc_sort _ _ _ _ _ _ _ _ _ _ _ S tt base_vel_id W).
    - apply (sc_orth _ _ _ _ _ _ _ _ _ _ _ S).
    - exact ND.
    - exact IN.
    - exact Na.
    - rewrite map_length. auto.
    - rewrite !app_length, map_length. simpl. f_equal.
      apply f_equal with (f := @length vec) in En. rewrite Ln, Ecw in En. apply Forall2_len in Fi.
      rewrite Ln, Ecw, !app_length in Fi. simpl in Fi. lia.
    - exact FA.
    - apply Forall_app. split; auto. constructor; [|constructor]. rewrite <- Ecw, Scw. ring. }
  (* the scaling *)
  unfold evaluate_sequence. destruct trees as [|t0 tl] eqn:Et; [contradiction It|]. rewrite <- Et in *.
  rewrite Er. cbn [bind]. rewrite Ec. cbn [bind]. rewrite Ea. cbn [bind]. rewrite Ef. cbn [bind].
  unfold scaled_velocity. assert (NE : cw <> []) by (rewrite Ecw; destruct A; discriminate).
  destruct cw as [|w0 cws] eqn:Ecw0; [contradiction|]. rewrite <- Ecw0 in *.
  rewrite Lf. pose proof (rmax_ge cw 1 ltac:(rewrite Ecw; apply in_app_iff; right; left; auto)) as Mx.
  unfold fdiv. destruct (Req_EM_T (rmax_list cw) 0); [lra|]. cbn [bind].
  set (records := map snd data) in *.
  assert (Nr : records <> []) by (unfold records; rewrite Edata; destruct d1; discriminate).
  destruct (C28_slowfactor records (2/10) Nr ltac:(lra) Rr) as (sc & -> & Hs & _). cbn [bind].
  set (avg := averaged_normal n normals cw).
  assert (An : norm avg <= 1).
  { pose proof (averaged_normal_bound n normals cw Ln Nc ltac:(intros v0 I0; apply (Un v0 I0))). fold avg in H. lra. }
  assert (Dav : dot fv avg = dot fv nn).
  { unfold avg. rewrite En, Ecw. apply dot_averaged_one; auto. congruence. }
  assert (G1 : 1 / rmax_list cw <= 1).
  { apply Rmult_le_reg_r with (rmax_list cw); [lra|]. unfold Rdiv. rewrite Rmult_assoc, Rinv_l; lra. }
  destruct (C29_safe_scaling fv avg (1 / rmax_list cw) (8/10) 3 Uf An ltac:(lra) ltac:(lra)) as (p & Ep & Hp & _ & Hstop & _).
  rewrite Ep. pose proof (proj1 (unit_norm _) Uf) as Nf. rewrite Nf. destruct (Req_EM_T 1 0); [lra|].
  set (sk := if Rltb p sc then p else sc).
  assert (Hk : 0 <= sk <= 1) by (unfold sk; destruct (Rltb p sc); auto).
  replace (vdiv fv 1) with fv by (vext; field).
  eexists _, _. split; [reflexivity|]. split; [reflexivity|]. split.
  - rewrite !dot_vscale_l, <- Nn. destruct Haway as [Haw|Haw].
    + rewrite Fv. apply Rmult_le_pos; [apply Hk|]. apply Rmult_le_pos; auto.
    + assert (Z : sk = 0).
      { assert (p = 0). { apply Hstop; auto. rewrite Dav, Fv, Haw, Nn. exact Href. }
        unfold sk. subst p. destruct (Rltb 0 sc) eqn:Q; auto. apply Rltb_false in Q. lra. }
      rewrite Z. lra.
  - split.
    + rewrite !norm_vscale, Nf, !Rabs_pos_eq by (auto; apply Hk). nra.
    + rewrite !length_vscale. auto.
Qed.
End C61.
Print Assumptions C61_no_penetration.

(** The half plane x <= 1, touched at [1; 0]. *)
Definition wall : bcomp :=
  mkB (mkComp (fun p => nth 0 p 0) (fun _ => [1; 0]) (fun _ => [-1; 0]) [0; 0] [0; 0]
              (fun p _ => Some [1; nth 1 p 0]) false) false.
Definition wall_tree : btree := mkBTree [wall] 0 (fun _ => None).
Definition within (S : vec -> Prop) (t : tree) : Prop :=
  rooted_tree 2 t base_vel_id /\ forall x a, node t x a -> S (a_dir a).
Lemma within_add (S : vec -> Prop) t x p d t' : length d = 2%nat -> unitv d -> S d -> within S t ->
  lift (add_node t x d (Some p) None None) = Ok t' -> within S t'.
Proof.
  intros L U Sd [W C] E. unfold lift in E. destruct (add_node t x d (Some p) None None) as (t1, [u|]) eqn:Ea; [|discriminate].
  injection E as <-. destruct u. split; [eapply add_node_rooted; eauto|].
  destruct (add_node_success 2 t base_vel_id x d p None None t1 W Ea) as (a & _ & _ & _ & _ & ->).
  intros y b N. unfold node in N. simpl in N. apply in_app_iff in N. destruct N as [N|[N|[]]]; [eapply C; eauto|].
  injection N as <- <-. simpl. rewrite (proj1 (unit_norm _) U). replace (vdiv d 1) with d; auto. vext. field.
Qed.
Lemma wall_walk : branch_walk [1; 0] 0 wall_tree = Ok (mkWalk [0%nat] [[1; 0]] [[-1; 0]] [1; 0]).
Proof.
  unfold branch_walk, branch_walk_upto. simpl. destruct (Rltb 1 1) eqn:E; [|reflexivity].
  apply Rltb_true in E. lra.
Qed.
Definition slanted : vec := [-3/5; 4/5].
Lemma slanted_unit : unitv slanted.
Proof. unfold unitv, slanted, dot. simpl. lra. Qed.
Lemma wall_scene orth0 angle_of power : (forall v, length (orth0 v) = length v) -> 0 <= power ->
  scene orth0 angle_of left_of sort_by_level power (PI * / 2) None 2 [1; 0] slanted [wall_tree].
Proof.
  intros Ho Hp. pose proof PI_RGT_0 as HP. pose proof slanted_unit as U. constructor; auto.
  - apply sort_by_level_sorted.
  - discriminate.
  - apply picks_2d.
  - intros t [<-|[]]. split; [simpl; lia|]. simpl. intros i Hi Ni. lia.
  - intros i j d Hi Hj _ _. simpl in *. lia.
  - intros t c [<-|[]] [<-|[]]. split; auto. unfold unitv, dot. simpl. ring.
  - intros t c p [<-|[]] [<-|[]]. split; auto. unfold unitv, dot. simpl. ring.
  - intros t i [<-|[]] Hi. simpl in Hi. replace i with 0%nat by lia. eexists. split; [apply wall_walk|].
    simpl. split; auto. split; auto. apply norm_neq_0_dot. unfold dot. simpl. lra.
  - lra.
  - discriminate.
  - intros t c _ _ _ N. contradiction.
  - intros tt0 tt data nodes normals E0 Ed Ep.
    set (S := fun d : vec => d = slanted \/ d = [0; 1]).
    assert (Dd : exists ws rs rec, data = [(wall_tree, ws, rs, rec)] /\ nth 0 rs 0 = PI / 2).
    { cbn [mapM] in Ed. unfold tree_data in Ed. destruct (convergence_record _ _ _ _ _) as [rec|]; [|discriminate]. cbn [bind] in Ed.
      destruct (tree_gamma_and_weights _ _ _ _ _) as [(g, w)|] eqn:Eg; [|discriminate]. cbn [bind] in Ed.
      apply (gammas_ok orth0 angle_of left_of) in Eg. destruct Eg as [Lg _].
      destruct (tree_obstacle_weights _ _ _ _ _) as [ws|]; [|discriminate]. cbn [bind] in Ed.
      destruct (tree_radiuses _ _ _ _ _) as [rs|] eqn:Er; [|discriminate]. cbn [bind] in Ed. injection Ed as <-.
      exists ws, rs, rec. split; auto. unfold tree_radiuses in Er.
      simpl in Lg. destruct g as [|g0 [|g1 gl]]; simpl in Lg; try lia. cbn [combine mapM bind bt_comps wall_tree] in Er.
      rewrite C27_repulsion_disabled in Er. injection Er as <-. simpl. lra. }
    destruct Dd as (ws & rs & rec & -> & Hrs). cbn [map fst] in Ep.
    assert (C0 : within S tt0).
    { destruct (set_root_rooted 2 base_vel_id slanted tt0 ltac:(lia) eq_refl E0) as (W0 & N0 & _). split; auto.
      intros x a N. unfold node in N. rewrite N0 in N. destruct N as [N|[]]. injection N as <- <-.
      simpl. rewrite (proj1 (unit_norm _) U). left. unfold slanted, vdiv, vscale. simpl. f_equal; [field|f_equal; field]. }
    assert (C : within S tt).
    { cbn [populate_all] in Ep. unfold populate_tree in Ep.
      destruct (lift (add_node tt0 (node_key 0 (-1) (-1)) slanted (Some base_vel_id) None None)) as [t1|] eqn:E1; [|discriminate].
      pose proof (within_add S tt0 _ _ slanted t1 eq_refl U (or_introl eq_refl) C0 E1) as C1. cbn [bind] in Ep.
      simpl length in Ep. cbn [seq populate_components] in Ep.
      destruct (Rle_dec (nth 0 ws 0) 0).
      - cbn [bind] in Ep. injection Ep as <- _ _. auto.
      - unfold branch_update in Ep. rewrite wall_walk in Ep. cbn [bind branch_steps branch_nodes w_refs w_ids tl combine rev w_normals] in Ep.
        change (get_bcomp wall_tree 0) with (Ok wall) in Ep. cbn [bind nth] in Ep.
        assert (Q : c_tail (b_comp wall) || Rltb (dot [1; 0] slanted) 0 = true).
        { apply Rltb_true. unfold dot, slanted. simpl. lra. }
        rewrite Q, Hrs in Ep. rewrite (proj2 (Rltb_false (PI * / 2) (PI / 2))) in Ep by lra.
        assert (T : get_projected_tangent left_of slanted [1; 0] [-1; 0] (PI / 2) = Ok [0; 1]) by exact C60_case.
        cbn [bind] in Ep. rewrite T in Ep. cbn [bind] in Ep.
        destruct (lift (add_node t1 _ [0; 1] _ None None)) as [t3|] eqn:E3; [|discriminate].
        assert (U1 : unitv [0; 1]) by (unfold unitv, dot; simpl; ring).
        pose proof (within_add S t1 _ _ [0; 1] t3 eq_refl U1 (or_intror eq_refl) C1 E3) as C3.
        cbn [bind] in Ep. injection Ep as <- _ _. auto. }
    destruct C as [W C]. split.
    + intros p x a b _ Na Nb. destruct (C p a Na) as [-> | ->], (C x b Nb) as [-> | ->];
        unfold slanted, dot; simpl; lra.
    + intros p x a b _ Na Nb. destruct (C p a Na) as [-> | ->], (C x b Nb) as [-> | ->]; auto; right.
      * unfold slanted, allclose. cbn [combine map forallb length Nat.eqb andb fst snd].
        assert (Q : isclose (-3/5) 0 = false).
        { unfold isclose. apply Rleb_false. rewrite Rabs_R0, Rabs_left by lra. lra. }
        simpl. rewrite Q. auto.
      * assert (Q : isclose 0 (-3/5) = false).
        { unfold isclose. apply Rleb_false. rewrite (Rabs_left (-3/5)), (Rabs_pos_eq (0 - -3/5)) by lra. lra. }
        unfold slanted, allclose. simpl. rewrite Q. auto.
Qed.
(** Facing the wall at 53 degrees from its inward normal with speed three. *)
Example C61_case : forall orth0 angle_of, (forall v, length (orth0 v) = length v) ->
  exists s v, create_from_vector_array [slanted; slanted] = Ok s /\ dot slanted [1; 0] = -3/5 /\
    evaluate_sequence orth0 angle_of (get_projected_tangent left_of) sort_by_level 1 (PI * / 2) None 2 3 (Some s)
      (fun s => Ok s) [1; 0] [] [wall_tree] = Ok v /\ 0 <= dot v [1; 0].
Proof.
  intros orth0 angle_of Ho.
  destruct (constant_sequence slanted eq_refl slanted_unit) as (s & Es & End).
  assert (Rel : compute_multiobstacle_relative_velocity [1; 0] [] = Ok (vzero 2)).
  { unfold compute_multiobstacle_relative_velocity, compute_gamma_weights. simpl.
    destruct (Rle_dec 0 1); reflexivity. }
  destruct (C61_no_penetration orth0 angle_of left_of sort_by_level 1 (PI * / 2) None
              2 2 3 s (fun s => Ok s) s [1; 0] [] (vzero 2) slanted [wall_tree] 0 wall_tree 0 wall [1; 0])
    as (v & m & Ev & Vm & D & _); auto; try lra.
  - apply wall_scene; auto. lra.
  - simpl. lra.
  - intros [|[|k]] t' [|[|i]] c' Et Ei _; simpl in *; try discriminate; auto; injection Et as <-; discriminate.
  - unfold dot. simpl. lra.
  - exists s, v. split; auto. split; [unfold slanted, dot; simpl; lra|]. split; auto.
    rewrite Vm, dot_vadd_l, dot_vzero_l. simpl in D. lra.
Qed.
