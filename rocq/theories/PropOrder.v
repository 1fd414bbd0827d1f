(** C166: the order of the obstacles and obstacles without weight do not matter for the avoidance. *)
Require Import Reals List Bool Lra Lia ZArith Classical_Prop Permutation.
From Verif Require Import Base Vec Angle Pow RotModel Spec RotProofs SeqProofs TreeModel TreeSpec
  TreeProofs TreeWeights TreeReduce TreeGeom TreeCases TreeIndep PropRotation PropTree WeightModel WeightProofs PropWeights
  AvoidModel PropAvoid ProjModel PropProject TangentProofs PropTangent PropContact ContProofs PropContinuity PropEmbed.
Import ListNotations.
Open Scope R_scope.

(** ** Insertions *)
Lemma add_ok t x d p t' : lift (add_node t x d (Some p) None None) = Ok t' ->
  exists a, get_attrs t p = Ok a /\ ~ In x (ids t) /\
    (forall y, get_attrs t' y = if nid_eq_dec y x then Ok (mkAttrs (S (a_level a)) (vdiv d (norm d))) else get_attrs t y) /\
    (forall q y, edge t' q y <-> edge t q y \/ (q = p /\ y = x)).
Proof.
  intros H. unfold lift in H. destruct (add_node t x d (Some p) None None) as [t1 [u|]] eqn:E; [|discriminate].
  injection H as <-. unfold add_node in E.
  destruct (Req_EM_T (norm d) 0) as [|Hd]; [discriminate|].
  destruct (has_node t x) eqn:Hx; [discriminate|]. apply mem_false in Hx.
  assert (ED : forall q y, In (q, y) (t_edges (nx_add_edge t p x)) <-> edge t q y \/ (q = p /\ y = x)).
  { intros q y. unfold nx_add_edge.
    assert (T : t_edges (nx_touch (nx_touch t p) x) = t_edges t).
    { assert (T1 : forall s z, t_edges (nx_touch s z) = t_edges s) by (intros s z; unfold nx_touch; destruct (has_node s z); auto).
      rewrite !T1. auto. }
    rewrite T. destruct (existsb (edge_eqb (p, x)) (t_edges t)) eqn:Q.
    - rewrite T. split; auto. intros [H|[-> ->]]; auto. apply existsb_exists in Q as ([u1 u2] & Hi & Q).
      unfold edge_eqb in Q. cbn [fst snd] in Q. apply andb_prop in Q as [Q1 Q2]. apply nid_eqb_true in Q1, Q2. subst. auto.
    - cbn [t_edges]. rewrite in_app_iff. unfold edge. cbn [In]. intuition congruence. }
  destruct (in_dec nid_eq_dec p (ids t)) as [Hp|Hp].
  - assert (NE : p <> x) by (intros ->; auto).
    assert (NN : t_nodes (nx_add_edge t p x) = t_nodes t ++ [(x, None)]).
    { unfold nx_add_edge.
      replace (nx_touch t p) with t.
      2:{ unfold nx_touch, has_node. rewrite (proj2 (mem_In _ _) Hp). auto. }
      assert (T : t_nodes (nx_touch t x) = t_nodes t ++ [(x, None)])
        by (unfold nx_touch, has_node; rewrite (proj2 (mem_false _ _) Hx); auto).
      destruct (existsb (edge_eqb (p, x)) (t_edges (nx_touch t x))); cbn [t_nodes]; auto. }
    destruct (get_attrs (nx_add_edge t p x) p) as [a|] eqn:Ea; [|discriminate].
    destruct (Nat.leb maximum_level (S (a_level a))); [discriminate|]. injection E as <- _.
    exists a. split.
    { unfold get_attrs in *. rewrite NN, assoc_app_old in Ea by auto. auto. }
    split; auto. split; [|exact ED].
    intros y. unfold get_attrs, nx_add_node. cbn [t_nodes]. rewrite NN, set_assoc_last by auto.
    destruct (nid_eq_dec y x) as [->|N].
    + rewrite assoc_app_fresh by auto. cbn [assoc]. rewrite nid_eqb_refl. auto.
    + destruct (in_dec nid_eq_dec y (ids t)) as [Iy|Iy].
      * rewrite assoc_app_old by auto. auto.
      * rewrite assoc_app_fresh by auto. cbn [assoc].
        assert (Q : nid_eqb y x = false) by (unfold nid_eqb; destruct (nid_eq_dec y x); [contradiction|auto]).
        rewrite Q. assert (Q2 : assoc y (t_nodes t) = None).
        { pose proof (assoc_app_fresh y (t_nodes t) []) as A. rewrite app_nil_r in A. rewrite A; auto. }
        rewrite Q2. auto.
  - exfalso. unfold nx_add_edge in E.
    set (t2 := mkTree (t_nodes t ++ [(p, None)]) (t_edges t) (t_root t)) in *.
    replace (nx_touch t p) with t2 in E.
    2:{ unfold nx_touch, has_node. rewrite (proj2 (mem_false _ _) Hp). auto. }
    assert (G : forall t3, t_nodes t3 = t_nodes (nx_touch t2 x) -> get_attrs t3 p = Err EKey).
    { intros t3 E3. unfold get_attrs. rewrite E3. unfold nx_touch.
      destruct (has_node t2 x); cbn [t_nodes t2].
      - rewrite assoc_app_fresh by auto. simpl. rewrite nid_eqb_refl. auto.
      - rewrite <- app_assoc, assoc_app_fresh by auto. simpl. rewrite nid_eqb_refl. auto. }
    assert (N : forall b : bool, t_nodes (if b then nx_touch t2 x else
        mkTree (t_nodes (nx_touch t2 x)) (t_edges (nx_touch t2 x) ++ [(p, x)]) (t_root (nx_touch t2 x)))
        = t_nodes (nx_touch t2 x)) by (intros []; auto).
    rewrite G in E by apply N. discriminate.
Qed.

(** The nodes of one obstacle. *)
Definition key (k : Z) (x : nid) : Prop := exists c i, x = node_key k c i.
Lemma key_inj k k' x : key k x -> key k' x -> k = k'.
Proof. intros (c & i & ->) (c' & i' & E). unfold node_key in E. injection E as E _ _. auto. Qed.
Lemma key_base k : (0 <= k)%Z -> ~ key k base_vel_id.
Proof. intros H (c & i & E). unfold base_vel_id, node_key in E. injection E as E _ _. lia. Qed.
Lemma key_node k c i : key k (node_key k c i).
Proof. exists c, i. auto. Qed.
Lemma key_dec k x : key k x \/ ~ key k x.
Proof. apply classic. Qed.

(** What an insertion of nodes of obstacle [k] leaves unchanged. *)
Record frame (k : Z) (t t' : tree) : Prop := {
  fr_other : forall y, ~ key k y -> get_attrs t' y = get_attrs t y;
  fr_edge : forall q y, edge t q y -> edge t' q y;
  fr_new : forall q y, edge t' q y -> edge t q y \/ (key k y /\ (q = base_vel_id \/ key k q)) }.
Lemma frame_refl k t : frame k t t.
Proof. constructor; auto. Qed.
Lemma frame_trans k t1 t2 t3 : frame k t1 t2 -> frame k t2 t3 -> frame k t1 t3.
Proof.
  intros [A B C] [A' B' C']. constructor.
  - intros y N. rewrite A', A; auto.
  - auto.
  - intros q y E. destruct (C' q y E) as [E1|E1]; auto.
Qed.
Lemma frame_add k t x d p t' : lift (add_node t x d (Some p) None None) = Ok t' -> key k x ->
  p = base_vel_id \/ key k p -> frame k t t'.
Proof.
  intros H K P. destruct (add_ok _ _ _ _ _ H) as (a & _ & _ & G & E). constructor.
  - intros y N. rewrite G. destruct (nid_eq_dec y x) as [->|]; [contradiction|auto].
  - intros q y Q. apply E. auto.
  - intros q y Q. apply E in Q as [Q|[-> ->]]; auto.
Qed.

(** *** The same obstacle under two numbers *)
Section Sim.
Variables (k k' : Z) (f : nid -> nid).
Hypothesis Hk' : (0 <= k')%Z.
Hypothesis F0 : f base_vel_id = base_vel_id.
Hypothesis Fk : forall c i, f (node_key k c i) = node_key k' c i.
Variable pt : vec -> vec -> vec -> R -> res vec.
Variables position base : vec.

Definition mine (x : nid) : Prop := x = base_vel_id \/ key k x.
Record sim (t1 t2 : tree) : Prop := {
  si_attr : forall x a, mine x -> get_attrs t1 x = Ok a -> get_attrs t2 (f x) = Ok a;
  si_edge : forall p x, key k x -> edge t1 p x -> edge t2 (f p) (f x) }.
Lemma f_inj x y : mine x -> mine y -> f x = f y -> x = y.
Proof.
  intros [->|(c & i & ->)] [->|(c' & i' & ->)]; rewrite ?F0, ?Fk; auto.
  - intros E. unfold base_vel_id, node_key in E. injection E as E _ _. lia.
  - intros E. unfold base_vel_id, node_key in E. injection E as E _ _. lia.
  - intros E. unfold node_key in E. injection E as -> ->. auto.
Qed.
Lemma sim_add t1 t2 x d p t1' t2' : sim t1 t2 -> key k x -> mine p ->
  lift (add_node t1 x d (Some p) None None) = Ok t1' ->
  lift (add_node t2 (f x) d (Some (f p)) None None) = Ok t2' -> sim t1' t2'.
Proof.
  intros [A B] K P H1 H2.
  destruct (add_ok _ _ _ _ _ H1) as (a1 & G1 & _ & A1 & E1).
  destruct (add_ok _ _ _ _ _ H2) as (a2 & G2 & _ & A2 & E2).
  assert (a2 = a1) as -> by (rewrite (A p a1 P G1) in G2; congruence).
  constructor.
  - intros y a M G. rewrite A1 in G. rewrite A2. destruct (nid_eq_dec y x) as [->|N].
    + destruct (nid_eq_dec (f x) (f x)); [auto|contradiction].
    + destruct (nid_eq_dec (f y) (f x)) as [Q|_]; [|auto].
      exfalso. apply N. apply f_inj; auto. right. auto.
  - intros q y M Q. apply E1 in Q. apply E2. destruct Q as [Q|[-> ->]]; auto.
Qed.

Lemma sim_nodes comp : forall steps t1 t2 v p1 r1 r2 v1 v2 q1 q2, sim t1 t2 -> mine p1 ->
  branch_nodes t1 k comp v p1 steps = Ok (r1, v1, q1) ->
  branch_nodes t2 k' comp v (f p1) steps = Ok (r2, v2, q2) ->
  sim r1 r2 /\ v1 = v2 /\ q2 = f q1 /\ mine q1.
Proof.
  induction steps as [|((ri, rp), id) steps IH]; intros t1 t2 v p1 r1 r2 v1 v2 q1 q2 S M H1 H2; cbn [branch_nodes] in H1, H2.
  - injection H1 as <- <- <-. injection H2 as <- <- <-. auto.
  - destruct (from_directions ri rp) as [rot|]; [|discriminate]. cbn [bind] in H1, H2.
    destruct (lift (add_node t1 _ _ _ None None)) as [t1'|] eqn:L1; [|discriminate].
    destruct (lift (add_node t2 _ _ _ None None)) as [t2'|] eqn:L2; [|discriminate]. cbn [bind] in H1, H2.
    rewrite <- Fk in L2, H2. eapply IH; [|right; apply key_node| exact H1|exact H2].
    eapply sim_add; eauto using key_node.
Qed.
Lemma sim_branch t1 t2 t i rad r1 r2 n1 n2 : sim t1 t2 ->
  branch_update pt t1 position base t k i rad = Ok (r1, n1) ->
  branch_update pt t2 position base t k' i rad = Ok (r2, n2) -> sim r1 r2 /\ n1 = n2.
Proof.
  intros S H1 H2. unfold branch_update in H1, H2.
  destruct (branch_walk position i t) as [w|]; [|discriminate]. cbn [bind] in H1, H2.
  destruct (branch_nodes t1 _ _ _ _ _) as [((s1, v1), q1)|] eqn:B1; [|discriminate].
  destruct (branch_nodes t2 _ _ _ _ _) as [((s2, v2), q2)|] eqn:B2; [|discriminate]. cbn [bind] in H1, H2.
  rewrite <- Fk in B2.
  destruct (sim_nodes _ _ _ _ _ _ _ _ _ _ _ _ S (or_intror (key_node k _ _)) B1 B2) as (S1 & <- & -> & M1).
  destruct (get_bcomp t i) as [c|]; [|discriminate]. cbn [bind] in H1, H2.
  destruct (c_tail (b_comp c) || Rltb (dot (nth 0 (w_normals w) []) v1) 0).
  - destruct (Rltb (PI * / 2) rad).
    + destruct (pt v1 (nth 0 (w_normals w) []) (nth 0 (w_refs w) []) (PI * / 2)) as [tg|]; [|discriminate]. cbn [bind] in H1, H2.
      destruct (lift (add_node s1 _ _ _ None None)) as [t1'|] eqn:L1; [|discriminate].
      destruct (lift (add_node s2 _ _ _ None None)) as [t2'|] eqn:L2; [|discriminate]. cbn [bind] in H1, H2.
      rewrite <- Fk in L2, H2.
      assert (S2 : sim t1' t2') by (eapply (sim_add s1 s2); eauto using key_node).
      destruct (pt v1 (nth 0 (w_normals w) []) (nth 0 (w_refs w) []) rad) as [dd|]; [|discriminate]. cbn [bind] in H1, H2.
      destruct (lift (add_node t1' _ _ _ None None)) as [u1|] eqn:L3; [|discriminate].
      destruct (lift (add_node t2' _ _ _ None None)) as [u2|] eqn:L4; [|discriminate]. cbn [bind] in H1, H2.
      injection H1 as <- <-. injection H2 as <- <-. split; auto. rewrite <- Fk in L4.
      eapply (sim_add t1' t2'); [exact S2|apply key_node|right; apply key_node|exact L3|exact L4].
    + cbn [bind] in H1, H2.
      destruct (pt v1 (nth 0 (w_normals w) []) (nth 0 (w_refs w) []) rad) as [dd|]; [|discriminate]. cbn [bind] in H1, H2.
      destruct (lift (add_node s1 _ _ _ None None)) as [u1|] eqn:L3; [|discriminate].
      destruct (lift (add_node s2 _ _ _ None None)) as [u2|] eqn:L4; [|discriminate]. cbn [bind] in H1, H2.
      injection H1 as <- <-. injection H2 as <- <-. split; auto. rewrite <- Fk in L4.
      eapply (sim_add s1 s2); eauto using key_node.
  - cbn [bind] in H1, H2.
    destruct (lift (add_node s1 _ _ _ None None)) as [u1|] eqn:L3; [|discriminate].
    destruct (lift (add_node s2 _ _ _ None None)) as [u2|] eqn:L4; [|discriminate]. cbn [bind] in H1, H2.
    injection H1 as <- <-. injection H2 as <- <-. split; auto. rewrite <- Fk in L4.
    eapply (sim_add s1 s2); eauto using key_node.
Qed.
Lemma sim_components t ws rs : forall l t1 t2 r1 r2 k1 k2 n1 n2, sim t1 t2 ->
  populate_components pt t1 position base t k ws rs l = Ok (r1, k1, n1) ->
  populate_components pt t2 position base t k' ws rs l = Ok (r2, k2, n2) -> sim r1 r2 /\ n1 = n2.
Proof.
  induction l as [|i l IH]; intros t1 t2 r1 r2 k1 k2 n1 n2 S H1 H2; cbn [populate_components] in H1, H2.
  - injection H1 as <- <- <-. injection H2 as <- <- <-. auto.
  - destruct (Rle_dec (nth i ws 0) 0).
    + eapply IH; eauto.
    + destruct (branch_update pt t1 _ _ _ _ _ _) as [(s1, m1)|] eqn:B1; [|discriminate].
      destruct (branch_update pt t2 _ _ _ _ _ _) as [(s2, m2)|] eqn:B2; [|discriminate]. cbn [bind] in H1, H2.
      destruct (sim_branch _ _ _ _ _ _ _ _ _ S B1 B2) as [S1 <-].
      destruct (populate_components pt s1 _ _ _ _ _ _ _) as [((u1, a1), b1)|] eqn:C1; [|discriminate].
      destruct (populate_components pt s2 _ _ _ _ _ _ _) as [((u2, a2), b2)|] eqn:C2; [|discriminate]. cbn [bind] in H1, H2.
      injection H1 as <- <- <-. injection H2 as <- <- <-.
      destruct (IH _ _ _ _ _ _ _ _ S1 C1 C2) as [S2 <-]. auto.
Qed.
Lemma sim_tree t1 t2 t ws rs r1 r2 k1 k2 n1 n2 : sim t1 t2 ->
  populate_tree pt t1 position base t k ws rs = Ok (r1, k1, n1) ->
  populate_tree pt t2 position base t k' ws rs = Ok (r2, k2, n2) -> sim r1 r2 /\ n1 = n2.
Proof.
  intros S H1 H2. unfold populate_tree in H1, H2.
  destruct (lift (add_node t1 _ _ _ None None)) as [t1'|] eqn:L1; [|discriminate].
  destruct (lift (add_node t2 _ _ _ None None)) as [t2'|] eqn:L2; [|discriminate]. cbn [bind] in H1, H2.
  eapply sim_components; [|exact H1|exact H2].
  rewrite <- Fk in L2. rewrite <- F0 in L2. eapply (sim_add t1 t2); [exact S|apply key_node|left; reflexivity|exact L1|exact L2].
Qed.

(** The nodes are those of obstacle [k]. *)
Lemma frame_nodes comp : forall steps t v p r v1 q, mine p ->
  branch_nodes t k comp v p steps = Ok (r, v1, q) -> frame k t r /\ mine q.
Proof.
  induction steps as [|((ri, rp), id) steps IH]; intros t v p r v1 q M H; cbn [branch_nodes] in H.
  - injection H as <- <- <-. auto using frame_refl.
  - destruct (from_directions ri rp) as [rot|]; [|discriminate]. cbn [bind] in H.
    destruct (lift (add_node t _ _ _ None None)) as [t'|] eqn:L1; [|discriminate]. cbn [bind] in H.
    destruct (IH _ _ _ _ _ _ (or_intror (key_node k _ _)) H) as [A B]. split; auto.
    eapply frame_trans; [|exact A]. eapply frame_add; eauto using key_node.
Qed.
Lemma frame_branch t1 t i rad r nn : branch_update pt t1 position base t k i rad = Ok (r, nn) -> frame k t1 r.
Proof.
  intros H. unfold branch_update in H.
  destruct (branch_walk position i t) as [w|]; [|discriminate]. cbn [bind] in H.
  destruct (branch_nodes t1 _ _ _ _ _) as [((s1, v1), q1)|] eqn:B1; [|discriminate]. cbn [bind] in H.
  destruct (frame_nodes _ _ _ _ _ _ _ _ (or_intror (key_node k _ _)) B1) as [A M].
  destruct (get_bcomp t i) as [c|]; [|discriminate]. cbn [bind] in H.
  eapply frame_trans; [exact A|]. clear A B1.
  destruct (c_tail (b_comp c) || Rltb (dot (nth 0 (w_normals w) []) v1) 0).
  - destruct (Rltb (PI * / 2) rad).
    + destruct (pt v1 (nth 0 (w_normals w) []) (nth 0 (w_refs w) []) (PI * / 2)) as [tg|]; [|discriminate]. cbn [bind] in H.
      destruct (lift (add_node s1 _ _ _ None None)) as [t1'|] eqn:L1; [|discriminate]. cbn [bind] in H.
      destruct (pt v1 (nth 0 (w_normals w) []) (nth 0 (w_refs w) []) rad) as [dd|]; [|discriminate]. cbn [bind] in H.
      destruct (lift (add_node t1' _ _ _ None None)) as [u1|] eqn:L3; [|discriminate]. cbn [bind] in H.
      injection H as <- <-. eapply frame_trans; eapply frame_add; eauto using key_node.
    + cbn [bind] in H.
      destruct (pt v1 (nth 0 (w_normals w) []) (nth 0 (w_refs w) []) rad) as [dd|]; [|discriminate]. cbn [bind] in H.
      destruct (lift (add_node s1 _ _ _ None None)) as [u1|] eqn:L3; [|discriminate]. cbn [bind] in H.
      injection H as <- <-. eapply frame_add; eauto using key_node.
  - cbn [bind] in H.
    destruct (lift (add_node s1 _ _ _ None None)) as [u1|] eqn:L3; [|discriminate]. cbn [bind] in H.
    injection H as <- <-. eapply frame_add; eauto using key_node.
Qed.
Lemma frame_components t ws rs : forall l t1 r ks ns,
  populate_components pt t1 position base t k ws rs l = Ok (r, ks, ns) ->
  frame k t1 r /\ length ns = length (weighted ws l).
Proof.
  induction l as [|i l IH]; intros t1 r ks ns H; cbn [populate_components] in H.
  - injection H as <- <- <-. auto using frame_refl.
  - unfold weighted in *. cbn [filter]. destruct (Rle_dec (nth i ws 0) 0) as [L|L].
    + rewrite (proj2 (Rltb_false _ _) L). eapply IH; eauto.
    + rewrite (proj2 (Rltb_true _ _) (Rnot_le_lt _ _ L)).
      destruct (branch_update pt t1 _ _ _ _ _ _) as [(s1, m1)|] eqn:B1; [|discriminate]. cbn [bind] in H.
      destruct (populate_components pt s1 _ _ _ _ _ _ _) as [((u1, a1), b1)|] eqn:C1; [|discriminate]. cbn [bind] in H.
      injection H as <- <- <-. destruct (IH _ _ _ _ C1) as [A B]. split.
      * eapply frame_trans; [eapply frame_branch; eauto|exact A].
      * cbn [length]. rewrite B. auto.
Qed.
Lemma frame_tree t1 t ws rs r ks ns :
  populate_tree pt t1 position base t k ws rs = Ok (r, ks, ns) ->
  frame k t1 r /\ length ns = length (weighted ws (seq 0 (length (bt_comps t)))).
Proof.
  intros H. unfold populate_tree in H.
  destruct (lift (add_node t1 _ _ _ None None)) as [t1'|] eqn:L1; [|discriminate]. cbn [bind] in H.
  destruct (frame_components _ _ _ _ _ _ _ _ H) as [A B]. split; auto.
  eapply frame_trans; [eapply frame_add; eauto using key_node|exact A].
Qed.
End Sim.

(** ** The population of the tangent tree, obstacle by obstacle *)
Notation entry := (Z * (btree * list R * list R) * list vec)%type.
Definition zseq (obs : Z) (m : nat) : list Z := map (fun i => (obs + Z.of_nat i)%Z) (seq 0 m).
Lemma zseq_S obs m : zseq obs (S m) = obs :: zseq (obs + 1) m.
Proof.
  unfold zseq. cbn [seq map]. f_equal; [lia|]. rewrite <- seq_shift, map_map. apply map_ext. intros i. lia.
Qed.
Lemma in_zseq obs m k : In k (zseq obs m) <-> (obs <= k < obs + Z.of_nat m)%Z.
Proof.
  unfold zseq. rewrite in_map_iff. split.
  - intros (i & <- & Hi). apply in_seq in Hi. lia.
  - intros H. exists (Z.to_nat (k - obs)). split; [lia|]. apply in_seq. lia.
Qed.
Lemma NoDup_zseq obs m : NoDup (zseq obs m).
Proof.
  revert obs. induction m as [|m IH]; intros obs; [constructor|]. rewrite zseq_S. constructor; auto.
  rewrite in_zseq. lia.
Qed.
Definition comps_of (d : btree * list R * list R) : list nat :=
  weighted (snd (fst d)) (seq 0 (length (bt_comps (fst (fst d))))).
Definition keys_of (o : entry) : list nid := map (end_key (fst (fst o))) (comps_of (snd (fst o))).

Section Runs.
Variable pt : vec -> vec -> vec -> R -> res vec.
Variables position base : vec.
Definition free (k : Z) (t : tree) : Prop :=
  (forall x a, key k x -> get_attrs t x <> Ok a) /\ (forall p x, key k x -> ~ edge t p x).
(** The subtree of entry [o] in [t]. *)
Definition placed (a0 : attrs) (t : tree) (o : entry) : Prop :=
  let '(k, (b, ws, rs), nm) := o in
  exists ta tb ks, populate_tree pt ta position base b k ws rs = Ok (tb, ks, nm) /\
    get_attrs ta base_vel_id = Ok a0 /\ free k ta /\
    (forall x, key k x -> get_attrs t x = get_attrs tb x) /\
    (forall p x, key k x -> (edge t p x <-> edge tb p x)).
Lemma runs D : forall obs t t' ns nm a0, (0 <= obs)%Z ->
  populate_all pt t position base obs D = Ok (t', ns, nm) ->
  (forall k, (obs <= k)%Z -> free k t) -> get_attrs t base_vel_id = Ok a0 ->
  exists out : list entry, map (fun o => snd (fst o)) out = D /\ map (fun o => fst (fst o)) out = zseq obs (length D) /\
    end_keys obs D = flat_map keys_of out /\ nm = flat_map snd out /\
    (forall o, In o out -> placed a0 t' o /\ length (snd o) = length (keys_of o)) /\
    get_attrs t' base_vel_id = Ok a0 /\
    (forall x a, get_attrs t' x = Ok a -> get_attrs t x = Ok a \/ exists k, In k (zseq obs (length D)) /\ key k x) /\
    (forall x, (forall k, (obs <= k)%Z -> ~ key k x) -> get_attrs t' x = get_attrs t x /\ forall p, edge t' p x <-> edge t p x) /\
    (forall p x, edge t' p x -> edge t p x \/ exists k, In k (zseq obs (length D)) /\ key k x /\ (p = base_vel_id \/ key k p)).
Proof.
  induction D as [|((b, ws), rs) D IH]; intros obs t t' ns nm a0 Ho H FR B; cbn [populate_all] in H.
  - injection H as <- <- <-. exists []. split; auto. split; auto. split; auto. split; auto. split; [intros o []|].
    split; auto. split; auto. split; [|auto]. intros x _. split; [auto|]. intros p. split; auto.
  - destruct (populate_tree pt t position base b obs ws rs) as [((t1, k1), n1)|] eqn:E1; [|discriminate]. cbn [bind] in H.
    destruct (populate_all pt t1 position base (obs + 1) D) as [((t2, k2), n2)|] eqn:E2; [|discriminate]. cbn [bind] in H.
    injection H as <- <- <-.
    destruct (frame_tree obs pt position base _ _ _ _ _ _ _ E1) as [[F1 F2 F3] L1].
    assert (B1 : get_attrs t1 base_vel_id = Ok a0) by (rewrite F1; auto using key_base).
    assert (FR1 : forall k, (obs + 1 <= k)%Z -> free k t1).
    { intros k Hk. destruct (FR k ltac:(lia)) as [P Q]. split.
      - intros x a Kx. rewrite F1; [auto|]. intros K2. pose proof (key_inj _ _ _ Kx K2). lia.
      - intros p x Kx E. destruct (F3 p x E) as [E'|[K2 _]]; [eapply Q; eauto|]. pose proof (key_inj _ _ _ Kx K2). lia. }
    destruct (IH (obs + 1)%Z t1 t2 k2 n2 a0 ltac:(lia) E2 FR1 B1) as (out & O1 & O2 & O3 & O4 & O5 & O6 & O7 & O8 & O9).
    assert (OT : forall x, key obs x -> get_attrs t2 x = get_attrs t1 x /\ forall p, edge t2 p x <-> edge t1 p x).
    { intros x Kx. apply O8. intros k Hk K2. pose proof (key_inj _ _ _ Kx K2). lia. }
    exists ((obs, (b, ws, rs), n1) :: out). cbn [map fst snd length flat_map]. rewrite zseq_S, O1, O2, O4.
    split; [auto|]. split; [auto|]. split.
    { rewrite <- O3. unfold keys_of, comps_of, end_keys. cbn [end_items fst snd]. rewrite map_app, map_map. auto. }
    split; [auto|]. split.
    { intros o [<-|I]; [|apply O5; auto]. split.
      - cbn. exists t, t1, k1. split; auto. split; auto. split; [apply FR; lia|]. split; intros; apply OT; auto.
      - unfold keys_of, comps_of. cbn [fst snd]. rewrite map_length. auto. }
    split; auto. split.
    { intros x a G. destruct (O7 x a G) as [G1|(k & Ik & K)].
      - destruct (key_dec obs x) as [K|K]; [right; exists obs; split; [left; auto|auto]|]. left. rewrite <- F1; auto.
      - right. exists k. split; [right; auto|auto]. }
    split.
    { intros x N. destruct (O8 x) as [G1 G2]; [intros k Hk; apply N; lia|].
      split; [rewrite G1, F1; auto; apply N; lia|]. intros p. rewrite G2. split; [|apply F2].
      intros E. destruct (F3 p x E) as [|[K _]]; auto. exfalso. apply (N obs); auto. lia. }
    { intros p x E. destruct (O9 p x E) as [E1'|(k & Ik & K & P)].
      - destruct (F3 p x E1') as [|[K P]]; auto. right. exists obs. split; [left; auto|auto].
      - right. exists k. split; [right; auto|auto]. }
Qed.
End Runs.

Lemma Forall2_nth {A B} (P : A -> B -> Prop) (da : A) (db : B) : forall l l', length l = length l' ->
  (forall j, (j < length l)%nat -> P (nth j l da) (nth j l' db)) -> Forall2 P l l'.
Proof.
  induction l as [|a l IH]; intros [|b l'] L H; cbn [length] in L; try discriminate; constructor.
  - apply (H 0%nat). cbn [length]. lia.
  - apply IH; [lia|]. intros j Hj. apply (H (S j)). cbn [length]. lia.
Qed.
Definition rename (sigma : Z -> Z) (x : nid) : nid :=
  match x with NTriple (NInt o) b c => NTriple (NInt (sigma o)) b c | _ => x end.
Definition linked (f : nid -> nid) (o o' : entry) : Prop :=
  snd (fst o) = snd (fst o') /\ snd o = snd o' /\
  forall c i, f (node_key (fst (fst o)) c i) = node_key (fst (fst o')) c i.

Section Two.
Variable pt : vec -> vec -> vec -> R -> res vec.
Variables position base : vec.
Variables (n : nat) (tt0 t t' : tree) (a0 : attrs).
Variables (D S D' : list (btree * list R * list R)) (ns ns' : list nid) (nm nm' : list vec).
Hypothesis T0 : t_nodes tt0 = [(base_vel_id, Some a0)].
Hypothesis T1 : t_edges tt0 = [].
Hypothesis E : populate_all pt tt0 position base 0 D = Ok (t, ns, nm).
Hypothesis E' : populate_all pt tt0 position base 0 D' = Ok (t', ns', nm').
Hypothesis W : rooted_tree n t base_vel_id.
Hypothesis W' : rooted_tree n t' base_vel_id.
Hypothesis PD : Permutation (D ++ S) D'.

Lemma start_free k : (0 <= k)%Z -> free k tt0.
Proof.
  intros Hk. split.
  - intros x a Kx G. unfold get_attrs in G. rewrite T0 in G. cbn [assoc] in G.
    destruct (nid_eqb x base_vel_id) eqn:Q; [|discriminate]. apply nid_eqb_true in Q. subst. apply (key_base k Hk Kx).
  - intros p x _ Q. unfold edge in Q. rewrite T1 in Q. destruct Q.
Qed.
Lemma start_base : get_attrs tt0 base_vel_id = Ok a0.
Proof. unfold get_attrs. rewrite T0. cbn [assoc]. rewrite nid_eqb_refl. auto. Qed.

Lemma two_runs : exists f out outa outb out',
  embedded f t t' /\ f base_vel_id = base_vel_id /\ Forall2 (linked f) out outa /\ Permutation out' (outa ++ outb) /\
  map (fun o => snd (fst o)) out = D /\ map (fun o => snd (fst o)) out' = D' /\ map (fun o => snd (fst o)) outb = S /\
  end_keys 0 D = flat_map keys_of out /\ end_keys 0 D' = flat_map keys_of out' /\
  nm = flat_map snd out /\ nm' = flat_map snd out' /\
  (forall o, In o out \/ In o out' -> length (snd o) = length (keys_of o)).
Proof.
  destruct (runs pt position base D 0 tt0 t ns nm a0 ltac:(lia) E start_free start_base)
    as (out & O1 & O2 & O3 & O4 & O5 & O6 & O7 & _ & O9).
  destruct (runs pt position base D' 0 tt0 t' ns' nm' a0 ltac:(lia) E' start_free start_base)
    as (out' & P1 & P2 & P3 & P4 & P5 & P6 & _ & _ & _).
  assert (PD2 := PD). rewrite <- P1 in PD2. apply Permutation_map_inv in PD2 as (l3 & M3 & PP).
  symmetry in M3. apply map_eq_app in M3 as (outa & outb & -> & MA & MB).
  set (d0 := (0%Z, (mkBTree [] 0 (fun _ => None), [], []), []) : entry).
  set (sigma := fun z => if (z <? 0)%Z then z else fst (fst (nth (Z.to_nat z) outa d0))).
  set (f := rename sigma).
  assert (LD : length out = length D) by (rewrite <- O1, map_length; auto).
  assert (LA : length outa = length D) by (rewrite <- MA, map_length; auto).
  assert (KEY : forall j, (j < length D)%nat -> fst (fst (nth j out d0)) = Z.of_nat j).
  { intros j Hj. rewrite <- (map_nth (fun o : entry => fst (fst o))), O2. unfold zseq.
    rewrite nth_indep with (d' := (0 + Z.of_nat 0)%Z) by (rewrite map_length, seq_length; auto).
    rewrite (map_nth (fun i => (0 + Z.of_nat i)%Z)), seq_nth by auto. lia. }
  assert (SIG : forall j, (j < length D)%nat -> sigma (Z.of_nat j) = fst (fst (nth j outa d0))).
  { intros j Hj. unfold sigma. destruct (Z.ltb_spec (Z.of_nat j) 0); [lia|]. rewrite Nat2Z.id. auto. }
  assert (INA : forall j, (j < length D)%nat -> In (nth j outa d0) out').
  { intros j Hj. apply (Permutation_in _ (Permutation_sym PP)). apply in_or_app. left. apply nth_In. lia. }
  assert (POS : forall o, In o out' -> (0 <= fst (fst o))%Z).
  { intros o I. assert (In (fst (fst o)) (zseq 0 (length D'))) by (rewrite <- P2; apply (in_map (fun o : entry => fst (fst o))); auto).
    apply in_zseq in H. lia. }
  assert (SINJ : forall i j, (i < length D)%nat -> (j < length D)%nat -> sigma (Z.of_nat i) = sigma (Z.of_nat j) -> i = j).
  { intros i j Hi Hj Q. rewrite !SIG in Q by auto.
    assert (ND : NoDup (map (fun o : entry => fst (fst o)) outa)).
    { assert (N1 : NoDup (map (fun o : entry => fst (fst o)) (outa ++ outb))).
      { apply (Permutation_NoDup (l := map (fun o : entry => fst (fst o)) out')); [apply Permutation_map; auto|].
        rewrite P2. apply NoDup_zseq. }
      rewrite map_app in N1. revert N1. clear. induction (map (fun o : entry => fst (fst o)) outa) as [|x l IH]; intros N; [constructor|].
      cbn [app] in N. inversion N; subst. constructor; auto. intros I. apply H1. apply in_or_app. auto. }
    rewrite NoDup_nth with (d := fst (fst d0)) in ND. apply ND; rewrite ?map_length; try lia.
    rewrite !(map_nth (fun o : entry => fst (fst o))). auto. }
  assert (F0 : f base_vel_id = base_vel_id) by reflexivity.
  assert (FK : forall z c i, f (node_key z c i) = node_key (sigma z) c i) by reflexivity.
  assert (DATA : forall j, (j < length D)%nat -> snd (fst (nth j out d0)) = snd (fst (nth j outa d0))).
  { intros j Hj. rewrite <- !(map_nth (fun o : entry => snd (fst o))). rewrite O1, MA. auto. }
  assert (SIM : forall j, (j < length D)%nat ->
     snd (nth j out d0) = snd (nth j outa d0) /\ sim (Z.of_nat j) f t t').
  { intros j Hj.
    assert (I1 : In (nth j out d0) out) by (apply nth_In; lia). pose proof (INA j Hj) as I2.
    destruct (O5 _ I1) as [PL1 _]. destruct (P5 _ I2) as [PL2 _]. pose proof (POS _ I2) as PZ.
    pose proof (KEY j Hj) as K1. pose proof (SIG j Hj) as K2. pose proof (DATA j Hj) as K3.
    destruct (nth j out d0) as [[k [[b ws] rs]] m1]. destruct (nth j outa d0) as [[k' [[b' ws'] rs']] m2].
    cbn [fst snd] in *. injection K3 as <- <- <-. subst k k'.
    destruct PL1 as (ta & tb & ks & Q1 & Q2 & Q3 & Q4 & Q5).
    destruct PL2 as (ta' & tb' & ks' & R1 & R2 & R3 & R4 & R5).
    assert (S0 : sim (Z.of_nat j) f ta ta').
    { constructor.
      - intros x a [->|Kx] G; [rewrite F0; congruence|]. exfalso. apply (proj1 Q3 x a); auto.
      - intros p x Kx Ex. exfalso. apply (proj2 Q3 p x); auto. }
    destruct (sim_tree (Z.of_nat j) (sigma (Z.of_nat j)) f PZ F0 (FK _) pt position base
      ta ta' b ws rs tb tb' ks ks' m1 m2 S0 Q1 R1) as [[A B] Em].
    split; auto. constructor.
    - intros x a [->|Kx] G; [rewrite F0; congruence|]. rewrite Q4 in G by auto.
      rewrite R4; [apply A; [right|]; auto|]. destruct Kx as (c & i & ->). rewrite FK. apply key_node.
    - intros p x Kx Ex. apply Q5 in Ex; auto. apply R5; [destruct Kx as (c & i & ->); rewrite FK; apply key_node|].
      apply B; auto. }
  assert (WHERE : forall x a, get_attrs t x = Ok a -> x = base_vel_id \/ exists j, (j < length D)%nat /\ key (Z.of_nat j) x).
  { intros x a G. destruct (O7 x a G) as [G0|(k & Ik & K)].
    - left. unfold get_attrs in G0. rewrite T0 in G0. cbn [assoc] in G0.
      destruct (nid_eqb x base_vel_id) eqn:Q; [|discriminate]. apply nid_eqb_true in Q. auto.
    - right. apply in_zseq in Ik. exists (Z.to_nat k). split; [lia|]. rewrite Z2Nat.id by lia. auto. }
  exists f, out, outa, outb, out'. split; [|repeat split; auto].
  - constructor.
    + intros x y Hx Hy Q.
      destruct (wf_attrs n t base_vel_id W x Hx) as (a & Ga & _). destruct (wf_attrs n t base_vel_id W y Hy) as (b & Gb & _).
      assert (NEG : forall j, (j < length D)%nat -> sigma (Z.of_nat j) <> (-1)%Z).
      { intros j Hj. rewrite SIG by auto. pose proof (POS _ (INA j Hj)). lia. }
      destruct (WHERE x a Ga) as [->|(i & Hi & (c & r & ->))]; destruct (WHERE y b Gb) as [->|(j & Hj & (c' & r' & ->))]; auto.
      * exfalso. rewrite F0, FK in Q. unfold base_vel_id, node_key in Q. injection Q as Q _ _. apply (NEG j Hj). auto.
      * exfalso. rewrite F0, FK in Q. unfold base_vel_id, node_key in Q. injection Q as Q _ _. apply (NEG i Hi). auto.
      * rewrite !FK in Q. unfold node_key in Q. injection Q as Q -> ->. rewrite (SINJ i j Hi Hj Q). auto.
    + intros x a N. apply (get_attrs_node n t base_vel_id W) in N. apply (get_attrs_node n t' base_vel_id W').
      destruct (WHERE x a N) as [->|(j & Hj & K)]; [rewrite F0; congruence|].
      destruct (SIM j Hj) as [_ [A _]]. apply A; [right|]; auto.
    + intros p x Q. destruct (O9 p x Q) as [Q0|(k & Ik & K & P)].
      * exfalso. unfold edge in Q0. rewrite T1 in Q0. destruct Q0.
      * apply in_zseq in Ik. destruct (SIM (Z.to_nat k)) as [_ [_ B]]; [lia|].
        rewrite Z2Nat.id in B by lia. apply B; auto.
  - apply Forall2_nth with (da := d0) (db := d0); [lia|]. intros j Hj. rewrite LD in Hj. split; [apply DATA; auto|].
    split; [apply SIM; auto|]. intros c i. rewrite FK, KEY, SIG by auto. auto.
  - intros o [I|I]; [apply O5|apply P5]; auto.
Qed.
End Two.

(** ** The weights *)
Definition phi (L : list R) (s : R) : R :=
  if Rltb (rsum L) 1 then s
  else if existsb (Rleb 1) L then (if Rleb 1 s then 1 else 0)
  else (1 / (1 - s) - 1) / rsum (map (fun w => 1 / (1 - w) - 1) L).
Definition seg (g : R -> R) (ws : list R) : list R := map (fun w => g (rsum ws) * w) (positive_normalised ws).
Lemma rsum_perm l l' : Permutation l l' -> rsum l = rsum l'.
Proof. induction 1; simpl; lra. Qed.
Lemma existsb_perm {A} (p : A -> bool) l l' : Permutation l l' -> existsb p l = existsb p l'.
Proof.
  induction 1; cbn [existsb]; auto; try congruence. destruct (p x), (p y); auto.
Qed.
Lemma phi_perm L L' s : Permutation L L' -> phi L s = phi L' s.
Proof.
  intros P. unfold phi. rewrite (rsum_perm _ _ P), (existsb_perm _ _ _ P).
  rewrite (rsum_perm _ _ (Permutation_map (fun w => 1 / (1 - w) - 1) P)). auto.
Qed.
Lemma phi_zeros L Z s : (forall z, In z Z -> z = 0) -> phi (L ++ Z) s = phi L s.
Proof.
  intros HZ. assert (Z0 : rsum Z = 0) by (clear - HZ; induction Z as [|z Z IH]; cbn [rsum fold_right]; auto;
    change (z + rsum Z = 0); rewrite (HZ z (or_introl eq_refl)), IH; [ring|intros; apply HZ; right; auto]).
  assert (Z1 : rsum (map (fun w => 1 / (1 - w) - 1) Z) = 0).
  { clear Z0. induction Z as [|z Z IH]; cbn [map]; auto. change (1 / (1 - z) - 1 + rsum (map (fun w => 1 / (1 - w) - 1) Z) = 0).
    rewrite (HZ z (or_introl eq_refl)), IH; [field|intros; apply HZ; right; auto]. }
  assert (Z2 : existsb (Rleb 1) Z = false).
  { clear Z0 Z1. induction Z as [|z Z IH]; cbn [existsb]; auto. rewrite (HZ z (or_introl eq_refl)), IH; [|intros; apply HZ; right; auto].
    rewrite (proj2 (Rleb_false 1 0)); [auto|lra]. }
  unfold phi. rewrite map_app, !rsum_app, existsb_app, Z0, Z1, Z2, orb_false_r, !Rplus_0_r. auto.
Qed.
Lemma cluster_form lls cw : cluster_weights lls = Ok cw -> cw = flat_map (seg (phi (map rsum lls))) lls.
Proof.
  unfold cluster_weights. destruct (length lls =? 0)%nat; [discriminate|].
  destruct (get_limited_weights_to_max_sum (map rsum lls)) as [[nw tot]|] eqn:G; [|discriminate].
  cbn [bind]. intros H. injection H as <-.
  assert (N : nw = map (phi (map rsum lls)) (map rsum lls)).
  { unfold get_limited_weights_to_max_sum in G. unfold phi. destruct (Rltb (rsum (map rsum lls)) 1).
    - injection G as <- _. rewrite map_id. auto.
    - destruct (existsb (Rleb 1) (map rsum lls)).
      + injection G as <- _. auto.
      + destruct (Req_EM_T _ 0); [discriminate|]. injection G as <- _. rewrite !map_map. auto. }
  rewrite N. generalize (phi (map rsum lls)). intros g. clear. rewrite map_map. induction lls as [|ws lls IH]; auto.
  cbn [map combine concat flat_map fst snd]. rewrite IH. auto.
Qed.
Lemma seg_zero g ws : (forall w, In w ws -> w = 0) -> seg g ws = [].
Proof.
  intros H. unfold seg, positive_normalised. replace (filter (fun w => Rltb 0 w) ws) with (@nil R); auto.
  symmetry. induction ws as [|w ws IH]; cbn [filter]; auto. rewrite (H w (or_introl eq_refl)), (proj2 (Rltb_false 0 0)) by lra.
  apply IH. intros; apply H; right; auto.
Qed.
Lemma seg_length g ws : length (seg g ws) = length (weighted ws (seq 0 (length ws))).
Proof. unfold seg, positive_normalised. rewrite !map_length, weighted_length. auto. Qed.
Lemma combine_flat {A B C} (a : A -> list B) (b : A -> list C) l : (forall x, In x l -> length (a x) = length (b x)) ->
  combine (flat_map a l) (flat_map b l) = flat_map (fun x => combine (a x) (b x)) l.
Proof.
  induction l as [|x l IH]; intros H; auto. cbn [flat_map]. rewrite combine_app, IH; auto.
  - intros; apply H; right; auto.
  - apply H. left. auto.
Qed.
Lemma flat_map_nil {A B} (g : A -> list B) l : (forall x, In x l -> g x = []) -> flat_map g l = [].
Proof.
  induction l as [|x l IH]; intros H; auto. cbn [flat_map]. rewrite (H x (or_introl eq_refl)), IH; auto.
  intros; apply H; right; auto.
Qed.

Section Pairs.
Variables (f : nid -> nid) (out outa outb out' : list entry).
Hypothesis LK : Forall2 (linked f) out outa.
Hypothesis PP : Permutation out' (outa ++ outb).
Hypothesis LEN : forall o, In o out \/ In o out' -> length (snd o) = length (keys_of o).
Definition wsof (o : entry) : list R := snd (fst (snd (fst o))).
Hypothesis WL : forall o, In o out' -> length (wsof o) = length (bt_comps (fst (fst (snd (fst o))))).
Hypothesis SIL : forall o, In o outb -> forall w, In w (wsof o) -> w = 0.

Lemma in_a o : In o outa -> In o out'.
Proof. intros I. apply (Permutation_in _ (Permutation_sym PP)), in_or_app. auto. Qed.
Lemma in_b o : In o outb -> In o out'.
Proof. intros I. apply (Permutation_in _ (Permutation_sym PP)), in_or_app. auto. Qed.
Lemma keys_linked : map f (flat_map keys_of out) = flat_map keys_of outa.
Proof.
  clear - LK. induction LK as [|o o' l l' (A & B & C) F IH]; auto. cbn [flat_map]. rewrite map_app, IH by auto. f_equal.
  unfold keys_of. rewrite map_map, A. apply map_ext. intros i. unfold end_key. apply C.
Qed.
Lemma ws_linked : map wsof out = map wsof outa.
Proof. clear - LK. induction LK as [|o o' l l' (A & B & C) F IH]; auto. cbn [map]. rewrite IH by auto. unfold wsof at 1. rewrite A. auto. Qed.
Lemma nm_linked : flat_map snd out = flat_map snd outa.
Proof. clear - LK. induction LK as [|o o' l l' (A & B & C) F IH]; auto. cbn [flat_map]. rewrite IH, B by auto. auto. Qed.
Definition weights_in (l : list entry) : list R := flat_map (fun o => seg (phi (map rsum (map wsof l))) (wsof o)) l.
Lemma phi_same s : phi (map rsum (map wsof out)) s = phi (map rsum (map wsof out')) s.
Proof.
  rewrite ws_linked. rewrite (phi_perm _ _ s (Permutation_map rsum (Permutation_map wsof PP))), !map_app. symmetry.
  apply phi_zeros. intros z I. apply in_map_iff in I as (ws & <- & I). apply in_map_iff in I as (o & <- & I).
  pose proof (SIL o I) as H. clear - H. induction (wsof o) as [|w l IH]; auto. change (w + rsum l = 0).
  rewrite (H w (or_introl eq_refl)), IH; [ring|intros; apply H; right; auto].
Qed.
Notation g' := (phi (map rsum (map wsof out'))).
Lemma weights_a : weights_in out = flat_map (fun o => seg g' (wsof o)) outa.
Proof.
  unfold weights_in.
  assert (Q : forall l, flat_map (fun o => seg (phi (map rsum (map wsof out))) (wsof o)) l = flat_map (seg g') (map wsof l)).
  { induction l as [|o l IH]; auto. cbn [flat_map map]. rewrite IH. f_equal. unfold seg. rewrite phi_same. auto. }
  rewrite Q, ws_linked, flat_map_concat_map, map_map, <- flat_map_concat_map. auto.
Qed.
Lemma key_len o : In o out' -> length (keys_of o) = length (seg g' (wsof o)).
Proof.
  intros I. unfold keys_of, comps_of. rewrite map_length, seg_length, (WL o I). auto.
Qed.
Lemma pairs_keys : Permutation (combine (map f (flat_map keys_of out)) (weights_in out)) (combine (flat_map keys_of out') (weights_in out')).
Proof.
  rewrite keys_linked, weights_a, combine_flat by (intros; apply key_len, in_a; auto).
  unfold weights_in. rewrite combine_flat by (intros; apply key_len; auto).
  symmetry. rewrite PP, flat_map_app, (flat_map_nil _ outb), app_nil_r; auto.
  intros o I. rewrite seg_zero by (apply SIL; auto). destruct (keys_of o); auto.
Qed.
Lemma pairs_normals : Permutation (combine (flat_map snd out) (weights_in out)) (combine (flat_map snd out') (weights_in out')).
Proof.
  assert (L : forall o, In o out' -> length (snd o) = length (seg g' (wsof o))) by (intros; rewrite LEN, key_len; auto).
  rewrite nm_linked, weights_a, combine_flat by (intros; apply L, in_a; auto).
  unfold weights_in. rewrite combine_flat by auto.
  symmetry. rewrite PP, flat_map_app, (flat_map_nil _ outb), app_nil_r; auto.
  intros o I. rewrite seg_zero by (apply SIL; auto). destruct (snd o); auto.
Qed.
Lemma weights_perm : Permutation (weights_in out) (weights_in out').
Proof.
  rewrite weights_a. unfold weights_in. symmetry. rewrite PP, flat_map_app, (flat_map_nil _ outb), app_nil_r; auto.
  intros o I. rewrite seg_zero by (apply SIL; auto). auto.
Qed.
Lemma keys_weights_length : length (flat_map keys_of out) = length (weights_in out) /\
  length (flat_map keys_of out') = length (weights_in out').
Proof.
  split.
  - rewrite <- (map_length f), keys_linked, weights_a.
    assert (Q : forall l, (forall o, In o l -> In o out') -> length (flat_map keys_of l) = length (flat_map (fun o => seg g' (wsof o)) l)).
    { induction l as [|o l IH]; intros I; auto. cbn [flat_map]. rewrite !app_length, IH, key_len; auto; intros; apply I; [left|right]; auto. }
    apply Q. apply in_a.
  - unfold weights_in.
    assert (Q : forall l, (forall o, In o l -> In o out') -> length (flat_map keys_of l) = length (flat_map (fun o => seg g' (wsof o)) l)).
    { induction l as [|o l IH]; intros I; auto. cbn [flat_map]. rewrite !app_length, IH, key_len; auto; intros; apply I; [left|right]; auto. }
    apply Q. auto.
Qed.
End Pairs.

(** The mean depends on the assignment, not on the order of the nodes. *)
Lemma mean_perm n t r sl orth0 st l1 w1 l2 w2 own : rooted_tree n t r -> (2 <= n)%nat -> no_opposite t -> distinguishable t ->
  level_sorted t sl -> (forall v, length (orth0 v) = length v) ->
  assigned t l1 w1 own -> assigned t l2 w2 own -> (forall x, 0 <= own x) -> 0 < rsum w1 <= 1 ->
  get_weighted_mean orth0 t st sl l1 w1 = get_weighted_mean orth0 t st sl l2 w2.
Proof.
  intros W Hn NO DI SL O0 A1 A2 OW T.
  pose proof (no_opposite_dirn n t r W NO) as NA.
  assert (EX : forall p x, edge t p x -> exact_pair (dirn t p) (dirn t x)).
  { intros p x Ep. apply (distinguishable_dirn n t r W DI); auto. }
  pose proof (total_root n t r l1 w1 own W Hn NO A1 (ex_intro _ sl SL)) as TR.
  destruct (assigned_len _ _ _ _ A1) as [HL1 HI1]. destruct (assigned_len _ _ _ _ A2) as [HL2 HI2].
  rewrite (mean_endk n t r W Hn NA EX sl SL orth0 O0 own) with (l := l1); auto;
    try (apply (assigned_own t); auto); try (rewrite TR; lra).
  rewrite (mean_endk n t r W Hn NA EX sl SL orth0 O0 own) with (l := l2); auto;
    try (apply (assigned_own t); auto); try (rewrite TR; lra).
Qed.

(** ** The avoidance *)
Section Order.
Variable orth0 : vec -> vec.
Variable angle_of : vec -> vec -> vec.
Variable pick : vec -> vec.
Variable sort : tree -> list nid.
Variables (power radius : R) (max_repulsion : option R).
Notation projected_tangent := (get_projected_tangent pick).
Notation scene := (scene orth0 angle_of pick sort power radius max_repulsion).
Notation data_of := (tree_data angle_of power radius max_repulsion).

Definition h (position base : vec) (t : btree) : btree * list R * list R * (R * R) :=
  match data_of position base t with Ok d => d | Err _ => (t, [], [], (0, 0)) end.
Lemma mapM_h position base : forall l, (forall t, In t l -> exists d, data_of position base t = Ok d) ->
  mapM (data_of position base) l = Ok (map (h position base) l).
Proof.
  induction l as [|t l IH]; intros H; auto. cbn [mapM map]. unfold h at 1.
  destruct (H t (or_introl eq_refl)) as (d & ->). cbn [bind]. rewrite IH; auto. intros; apply H; right; auto.
Qed.
Section Scene.
Variables (n : nat) (position base : vec) (big : list btree).
Hypothesis SC : scene n position base big.
Notation hh := (h position base).
Lemma h_ok t : In t big -> exists ws rs rec, data_of position base t = Ok (t, ws, rs, rec) /\ hh t = (t, ws, rs, rec) /\
    tree_obstacle_weights angle_of position base power (mtree_of t) = Ok ws /\
    length ws = length (bt_comps t) /\ nonneg ws /\ 0 <= fst rec <= 1 /\ -1 <= snd rec <= 1 /\
    (forall i, (i < length (bt_comps t))%nat -> PI / 2 <= nth i rs 0 <= PI).
Proof.
  intros I. destruct (tree_data_ok _ _ _ _ _ _ _ _ _ _ _ _ SC I) as (ws & rs & rec & E & H).
  exists ws, rs, rec. split; auto. split; auto. unfold h. rewrite E. auto.
Qed.
Lemma root_tree : exists tt0, set_root empty_tree base_vel_id base = Ok tt0 /\
  t_nodes tt0 = [(base_vel_id, Some (mkAttrs 0 (vdiv base (norm base))))] /\ t_edges tt0 = [].
Proof.
  destruct (sc_base _ _ _ _ _ _ _ _ _ _ _ SC) as [Lb Ub]. pose proof (proj1 (unit_norm _) Ub) as Nb.
  assert (Nb' : norm base <> 0) by lra. pose proof (sc_dim _ _ _ _ _ _ _ _ _ _ _ SC) as Hn.
  assert (R0 : exists tt0, set_root empty_tree base_vel_id base = Ok tt0).
  { unfold set_root. destruct (from_directions_spec n base base) as (r & Er & _); auto.
    - pose proof (dirof_unit base Nb') as U. unfold unitv in U. lra.
    - rewrite Er. cbn [bind]. eauto. }
  destruct R0 as (tt0 & E0). exists tt0. split; auto.
  destruct (set_root_rooted n base_vel_id base tt0 Hn Lb E0) as (_ & N0 & N1). auto.
Qed.
Lemma population_run trees tt0 : (forall t, In t trees -> In t big) -> set_root empty_tree base_vel_id base = Ok tt0 ->
  exists tt normals, mapM (data_of position base) trees = Ok (map hh trees) /\
    populate_all projected_tangent tt0 position base 0 (map fst (map hh trees)) = Ok (tt, end_keys 0 (map fst (map hh trees)), normals) /\
    rooted_tree n tt base_vel_id /\ NoDup (end_keys 0 (map fst (map hh trees)) ++ [base_vel_id]) /\
    (forall x, In x (end_keys 0 (map fst (map hh trees)) ++ [base_vel_id]) -> In x (map fst (t_nodes tt))).
Proof.
  intros IN E0.
  destruct (sc_base _ _ _ _ _ _ _ _ _ _ _ SC) as [Lb Ub]. pose proof (proj1 (unit_norm _) Ub) as Nb.
  assert (Nb' : norm base <> 0) by lra. pose proof (sc_dim _ _ _ _ _ _ _ _ _ _ _ SC) as Hn.
  assert (M : mapM (data_of position base) trees = Ok (map hh trees)).
  { apply mapM_h. intros t I. destruct (h_ok t (IN t I)) as (ws & rs & rec & E & _). eauto. }
  destruct (C35_population projected_tangent (unit_args n) n position base (map fst (map hh trees)) tt0 Hn Lb Nb')
    as (tt & nodes & normals & Ep & W & -> & ND & IDS & _); auto.
  { intros v nn r rad Lv Nv (L1 & U1 & L2 & U2 & Hrad). rewrite Nb in Nv.
    assert (Uv : unitv v) by (apply unit_norm; auto).
    destruct (C60_not_inward n pick v nn r rad (sc_pick _ _ _ _ _ _ _ _ _ _ _ SC) Lv L1 L2 Uv U1 U2 Hrad) as (d & Edd & Ldd & Udd & K).
    exists d. split; auto. split; auto. rewrite (proj1 (unit_norm _) Udd). lra. }
  { intros t ws rs i I Hi _. rewrite map_map in I. apply in_map_iff in I as (t' & E & I).
    destruct (h_ok t' (IN t' I)) as (ws' & rs' & rec & _ & Eh & _ & _ & _ & _ & _ & Hrs). rewrite Eh in E.
    cbn [fst] in E. injection E as <- <- <-.
    split; [apply (sc_branch _ _ _ _ _ _ _ _ _ _ _ SC); auto|].
    apply branch_good_intro; auto; intros; [eapply (sc_normal _ _ _ _ _ _ _ _ _ _ _ SC)|eapply (sc_refdir _ _ _ _ _ _ _ _ _ _ _ SC)]; eauto. }
  exists tt, normals. auto.
Qed.

(** Two lists of obstacles of which one contains the other, in any order. *)
Variables (trees silent : list btree).
Hypothesis PT : Permutation (trees ++ silent) big.
Lemma in_trees t : In t trees -> In t big.
Proof. intros I. apply (Permutation_in _ PT), in_or_app. auto. Qed.
Lemma in_silent t : In t silent -> In t big.
Proof. intros I. apply (Permutation_in _ PT), in_or_app. auto. Qed.
Lemma data_perm : Permutation (map fst (map hh trees) ++ map fst (map hh silent)) (map fst (map hh big)).
Proof. rewrite <- !map_app. apply Permutation_map, Permutation_map. auto. Qed.

Lemma sub_scene : trees <> [] -> scene n position base trees.
Proof.
  intros NE. pose proof SC as SC'. destruct SC' as [A1 A2 A3 A4 A5 A6 A7 A8 A9 A10 A11 A12 A13 A14 A15 A16].
  constructor; auto.
  - intros t I. apply A8, in_trees; auto.
  - intros i j d Hi Hj Ci Cj.
    pose proof (Permutation_nth_error big (trees ++ silent)) as [PN _]. destruct (PN (Permutation_sym PT)) as (_ & g2 & GI2 & G2).
    assert (X : forall k, (k < length trees)%nat -> (g2 k < length big)%nat /\ nth (g2 k) big d = nth k trees d).
    { intros k Hk. pose proof (G2 k) as E. rewrite nth_error_app1 in E by auto.
      rewrite (nth_error_nth' trees d Hk) in E. symmetry in E. split.
      - apply nth_error_Some. rewrite E. discriminate.
      - apply nth_error_nth with (d := d) in E. auto. }
    destruct (X i Hi) as [Li Ei]. destruct (X j Hj) as [Lj Ej]. rewrite <- Ei in Ci. rewrite <- Ej in Cj.
    apply GI2. exact (A9 (g2 i) (g2 j) d Li Lj Ci Cj).
  - intros t c I. apply A10, in_trees; auto.
  - intros t c q I. apply A11, in_trees; auto.
  - intros t i I. apply A12, in_trees; auto.
  - intros t c I. apply A15, in_trees; auto.
  - intros tt0 tt data nodes normals E0 Ed Ep.
    destruct (root_tree) as (tt1 & E1 & N0 & N1). rewrite E0 in E1. injection E1 as <-.
    destruct (population_run trees tt0 in_trees E0) as (u & nm & M & P & W & _).
    rewrite Ed in M. injection M as ->. rewrite Ep in P. injection P as -> _ _.
    destruct (population_run big tt0 (fun t I => I) E0) as (u' & nm' & M' & P' & W' & _).
    destruct (A16 tt0 u' _ _ _ E0 M' P') as [NO DI].
    destruct (two_runs projected_tangent position base n tt0 u u' _ _ _ _ _ _ _ _ N0 N1 Ep P' W W' data_perm)
      as (f & _ & _ & _ & _ & EM & _). split.
    + intros p x a b Ee Na Nb. apply (NO (f p) (f x)); [apply (em_edge f u u' EM)|apply (em_node f u u' EM)|apply (em_node f u u' EM)]; auto.
    + intros p x a b Ee Na Nb. apply (DI (f p) (f x)); [apply (em_edge f u u' EM)|apply (em_node f u u' EM)|apply (em_node f u u' EM)]; auto.
Qed.

Hypothesis SIL : forall t ws, In t silent -> tree_obstacle_weights angle_of position base power (mtree_of t) = Ok ws -> forall w, In w ws -> w = 0.
Hypothesis NE : trees <> [].
Notation evaluate := (evaluate_avoidance orth0 angle_of projected_tangent sort power radius max_repulsion).
Lemma avoidance_same s : get_end_vector s = Ok base ->
  exists final final' normals normals' cw cw' fv,
    evaluate position s trees = Ok (final, normals, cw, map snd (map hh trees)) /\
    evaluate position s big = Ok (final', normals', cw', map snd (map hh big)) /\
    get_end_vector final = Ok fv /\ get_end_vector final' = Ok fv /\ unitv fv /\ length fv = n /\
    Permutation (combine normals cw) (combine normals' cw') /\ Permutation cw cw'.
Proof.
  intros Eb. pose proof (sub_scene NE) as SC2.
  destruct (evaluate_avoidance_ok _ _ _ _ _ _ _ n position s base trees SC2 Eb)
    as (_ & data & final & normals & cw & fv & Ed & Ea & _ & _ & _ & _ & _ & _ & Ec & _ & Ef & Uf & Lf & Nc & Sc & _).
  destruct (evaluate_avoidance_ok _ _ _ _ _ _ _ n position s base big SC Eb)
    as (_ & data' & final' & normals' & cw' & fv' & Ed' & Ea' & _ & _ & _ & _ & _ & _ & Ec' & _ & Ef' & Uf' & Lf' & Nc' & Sc' & _).
  destruct (root_tree) as (tt0 & E0 & N0 & N1).
  destruct (population_run trees tt0 in_trees E0) as (u & nm & M & P & W & ND & IDS).
  destruct (population_run big tt0 (fun t I => I) E0) as (u' & nm' & M' & P' & W' & ND' & IDS').
  rewrite Ed in M. injection M as ->. rewrite Ed' in M'. injection M' as ->.
  destruct (sc_tangent_tree _ _ _ _ _ _ _ _ _ _ _ SC tt0 u' _ _ _ E0 Ed' P') as [NO' DI'].
  destruct (two_runs projected_tangent position base n tt0 u u' _ _ _ _ _ _ _ _ N0 N1 P P' W W' data_perm)
    as (f & out & outa & outb & out' & EM & F0 & LK & PP & O1 & O2 & O3 & K1 & K2 & Q1 & Q2 & LEN).
  assert (R1 := Ea). unfold evaluate_avoidance in R1. rewrite Eb in R1. cbn [bind] in R1. rewrite E0 in R1. cbn [bind] in R1.
  rewrite Ed in R1. cbn [bind] in R1. rewrite P in R1. cbn [bind] in R1. rewrite Ec in R1. cbn [bind] in R1.
  destruct (reduce_weighted_to_sequence orth0 u _ _ _ _) as [sq|] eqn:Er; [|discriminate]. cbn [bind] in R1.
  injection R1 as -> ->.
  assert (R2 := Ea'). unfold evaluate_avoidance in R2. rewrite Eb in R2. cbn [bind] in R2. rewrite E0 in R2. cbn [bind] in R2.
  rewrite Ed' in R2. cbn [bind] in R2. rewrite P' in R2. cbn [bind] in R2. rewrite Ec' in R2. cbn [bind] in R2.
  destruct (reduce_weighted_to_sequence orth0 u' _ _ _ _) as [sq'|] eqn:Er'; [|discriminate]. cbn [bind] in R2.
  injection R2 as -> ->.
  assert (WS : map (fun d : btree * list R * list R * (R * R) => snd (fst (fst d))) (map hh trees) = map wsof out).
  { transitivity (map (fun d : btree * list R * list R => snd (fst d)) (map fst (map hh trees))); [rewrite (map_map fst); auto|].
    rewrite <- O1, map_map. auto. }
  assert (WS' : map (fun d : btree * list R * list R * (R * R) => snd (fst (fst d))) (map hh big) = map wsof out').
  { transitivity (map (fun d : btree * list R * list R => snd (fst d)) (map fst (map hh big))); [rewrite (map_map fst); auto|].
    rewrite <- O2, map_map. auto. }
  rewrite WS in Ec. rewrite WS' in Ec'. apply cluster_form in Ec. apply cluster_form in Ec'.
  assert (CW : cw = weights_in out) by (rewrite Ec; unfold weights_in; rewrite flat_map_concat_map, (map_map wsof), <- flat_map_concat_map; auto).
  assert (CW' : cw' = weights_in out') by (rewrite Ec'; unfold weights_in; rewrite flat_map_concat_map, (map_map wsof), <- flat_map_concat_map; auto).
  assert (WL : forall o, In o out' -> length (wsof o) = length (bt_comps (fst (fst (snd (fst o)))))).
  { intros o I. assert (I2 : In (snd (fst o)) (map fst (map hh big))) by (rewrite <- O2; apply (in_map (fun o : entry => snd (fst o))); auto).
    rewrite map_map in I2. apply in_map_iff in I2 as (t & Et & It). destruct (h_ok t It) as (ws & rs & rec & _ & Eh & _ & L & _).
    unfold wsof. rewrite <- Et, Eh. auto. }
  assert (SI : forall o, In o outb -> forall w, In w (wsof o) -> w = 0).
  { intros o I. assert (I2 : In (snd (fst o)) (map fst (map hh silent))) by (rewrite <- O3; apply (in_map (fun o : entry => snd (fst o))); auto).
    rewrite map_map in I2. apply in_map_iff in I2 as (t & Et & It). destruct (h_ok t (in_silent t It)) as (ws & rs & rec & _ & Eh & Ew & _).
    unfold wsof. rewrite <- Et, Eh. exact (SIL t ws It Ew). }
  pose proof (pairs_keys f out outa outb out' LK PP WL SI) as PK.
  pose proof (pairs_normals f out outa outb out' LK PP LEN WL SI) as PN.
  pose proof (weights_perm f out outa outb out' LK PP SI) as PW.
  destruct (keys_weights_length f out outa outb out' LK PP WL SI) as [L1 L2].
  rewrite <- CW, <- K1 in L1. rewrite <- CW', <- K2 in L2. rewrite <- CW, <- CW', <- K1, <- K2 in PK.
  rewrite <- CW, <- CW', <- Q1, <- Q2 in PN. rewrite <- CW, <- CW' in PW.
  set (K := end_keys 0 (map fst (map hh trees))) in *. set (K' := end_keys 0 (map fst (map hh big))) in *.
  set (l := K ++ [base_vel_id]) in *. set (l' := K' ++ [base_vel_id]) in *.
  set (fw := cw ++ [1 - rsum cw]) in *. set (fw' := cw' ++ [1 - rsum cw']) in *.
  assert (LL : length l = length fw) by (unfold l, fw; rewrite !app_length; cbn [length]; lia).
  assert (LL' : length l' = length fw') by (unfold l', fw'; rewrite !app_length; cbn [length]; lia).
  assert (PL : Permutation (combine (map f l) fw) (combine l' fw')).
  { unfold l, fw, l', fw'. rewrite map_app, !combine_app; auto; [|rewrite map_length; auto].
    cbn [map combine]. rewrite F0, (rsum_perm _ _ PW). apply Permutation_app_tail. auto. }
  assert (PM : Permutation (map f l) l').
  { rewrite <- (combine_fst (map f l) fw), <- (combine_fst l' fw') by (rewrite ?map_length; auto). apply Permutation_map. auto. }
  assert (S1 : rsum fw = 1) by (unfold fw; rewrite rsum_app; simpl; ring).
  assert (Nf : nonneg fw) by (intros x I; apply in_app_iff in I; destruct I as [I|[<-|[]]]; [auto|lra]).
  assert (Nf' : nonneg fw') by (intros x I; apply in_app_iff in I; destruct I as [I|[<-|[]]]; [auto|lra]).
  assert (AS : assigned u l fw (own_of l fw)) by (apply own_of_assigned; auto).
  assert (AS' : assigned u' l' fw' (own_of l' fw')) by (apply own_of_assigned; auto).
  assert (AS2 : assigned u' (map f l) fw (own_of l' fw')).
  { destruct AS' as (B1 & B2 & B3 & B4 & B5). split; [apply (Permutation_NoDup (Permutation_sym PM)); auto|].
    split; [rewrite map_length; auto|]. split; [intros x I; apply B3; apply (Permutation_in _ PM); auto|]. split.
    - intros x w I. apply B4. apply (Permutation_in _ PL). auto.
    - intros x N. apply B5. intros I. apply N. apply (Permutation_in _ (Permutation_sym PM)). auto. }
  set (st := fun _ : nid => mkSlot 0 None None None) in *.
  pose proof (sc_sort _ _ _ _ _ _ _ _ _ _ _ SC u base_vel_id W) as SL.
  pose proof (sc_sort _ _ _ _ _ _ _ _ _ _ _ SC u' base_vel_id W') as SL'.
  pose proof (sc_orth _ _ _ _ _ _ _ _ _ _ _ SC) as OL. pose proof (sc_dim _ _ _ _ _ _ _ _ _ _ _ SC) as Hn.
  destruct (C164_embedded n u u' base_vel_id base_vel_id f (sort u) (sort u') orth0 orth0 st st l fw (own_of l fw))
    as (mean & G1 & G2); auto; [apply own_of_nonneg; auto|rewrite S1; lra|].
  rewrite (mean_perm n u' base_vel_id (sort u') orth0 st (map f l) fw l' fw' (own_of l' fw')) in G2; auto;
    [|apply own_of_nonneg; auto|rewrite S1; lra].
  unfold get_weighted_mean in G1, G2. rewrite Er in G1. rewrite Er' in G2. cbn [bind] in G1, G2.
  rewrite Ef in G1. rewrite Ef' in G2. injection G1 as ->. injection G2 as ->.
  exists final, final', normals, normals', cw, cw', mean. repeat split; auto.
Qed.
End Scene.
End Order.

(** ** The speed *)
Lemma averaged_perm n l1 w1 l2 w2 : Permutation (combine l1 w1) (combine l2 w2) ->
  averaged_normal n l1 w1 = averaged_normal n l2 w2.
Proof.
  unfold averaged_normal. generalize (combine l1 w1) (combine l2 w2). intros a b P.
  induction P; cbn [fold_right]; auto; try congruence. vext. ring.
Qed.
Lemma rmax_in l : l <> [] -> In (rmax_list l) l.
Proof.
  destruct l as [|x l]; [contradiction|]. intros _. unfold rmax_list. revert x. induction l as [|y l IH]; intros x; cbn [fold_left].
  - left. auto.
  - destruct (IH (Rmax x y)) as [E|I].
    + rewrite <- E. unfold Rmax. destruct (Rle_dec x y); [right; left|left]; auto.
    + right. right. auto.
Qed.
Lemma rmax_perm l l' : Permutation l l' -> rmax_list l = rmax_list l'.
Proof.
  intros P. destruct l as [|x l]; [apply Permutation_nil in P; subst; auto|].
  assert (N' : l' <> []) by (intros ->; apply Permutation_sym, Permutation_nil in P; discriminate).
  apply Rle_antisym; apply rmax_ge.
  - apply (Permutation_in _ P). apply rmax_in. discriminate.
  - apply (Permutation_in _ (Permutation_sym P)). apply rmax_in. auto.
Qed.
Definition least (l : list R) : R := fold_right Rmin 1 l.
Lemma least_rmin l : l <> [] -> Rmin (rmin_list l) 1 = least l.
Proof.
  destruct l as [|x l]; [contradiction|]. intros _. unfold rmin_list, least. revert x.
  induction l as [|y l IH]; intros x; cbn [fold_left fold_right]; auto.
  rewrite IH. cbn [fold_right]. rewrite Rmin_assoc. auto.
Qed.
Lemma least_perm l l' : Permutation l l' -> least l = least l'.
Proof.
  unfold least. induction 1; cbn [fold_right]; auto; try congruence.
  rewrite !Rmin_assoc. f_equal. apply Rmin_comm.
Qed.
Lemma least_ones l z : (forall x, In x z -> x = 1) -> least (l ++ z) = least l.
Proof.
  intros H. unfold least. rewrite fold_right_app. f_equal. induction z as [|x z IH]; cbn [fold_right]; auto.
  rewrite (H x (or_introl eq_refl)), IH by (intros; apply H; right; auto). apply Rmin_left. lra.
Qed.
Definition slow1 (p : R) (rc : R * R) : res R :=
  let '(rot_weight, conv_prox) := rc in
  if Rltb 0 rot_weight && Rltb 0 conv_prox then fpow ((1 - conv_prox) / rot_weight) p else Ok 1.
Definition slowv (p : R) (rc : R * R) : R := match slow1 p rc with Ok x => x | Err _ => 0 end.
Lemma slow_form records p s : slowfactor_from_convergence records p = Ok s -> s = least (map (slowv p) records).
Proof.
  unfold slowfactor_from_convergence. change (fun rc : R * R => let '(rot_weight, conv_prox) := rc in
     if Rltb 0 rot_weight && Rltb 0 conv_prox then fpow ((1 - conv_prox) / rot_weight) p else Ok 1) with (slow1 p).
  destruct (mapM (slow1 p) records) as [sc|] eqn:M; [|discriminate]. cbn [bind].
  assert (Q : sc = map (slowv p) records).
  { revert sc M. induction records as [|r records IH]; intros sc M; cbn [mapM] in M; [injection M as <-; auto|].
    destruct (slow1 p r) as [x|] eqn:E; [|discriminate]. cbn [bind] in M.
    destruct (mapM (slow1 p) records) as [xs|]; [|discriminate]. cbn [bind] in M. injection M as <-.
    cbn [map]. unfold slowv at 1. rewrite E, (IH xs eq_refl). auto. }
  rewrite <- Q. destruct sc as [|x sc]; [discriminate|]. intros H. injection H as <-.
  change (Rmin (rmin_list (x :: sc)) 1 = least (x :: sc)). apply least_rmin. discriminate.
Qed.

Section Velocity.
Variable orth0 : vec -> vec.
Variable angle_of : vec -> vec -> vec.
Variable pick : vec -> vec.
Variable sort : tree -> list nid.
Variables (power radius : R) (max_repulsion : option R).
Notation projected_tangent := (get_projected_tangent pick).
Notation scene := (scene orth0 angle_of pick sort power radius max_repulsion).
Notation avoidance := (evaluate_avoidance orth0 angle_of projected_tangent sort power radius max_repulsion).
Notation evaluate := (evaluate_sequence orth0 angle_of projected_tangent sort power radius max_repulsion).

(** Obstacles whose components have no weight, and the order of the obstacles, do not matter for the
    direction of the avoidance. *)
Theorem C166_direction : forall n position s base trees silent trees',
  scene n position base trees' -> get_end_vector s = Ok base ->
  Permutation (trees ++ silent) trees' -> trees <> [] ->
  (forall t ws, In t silent -> tree_obstacle_weights angle_of position base power (mtree_of t) = Ok ws ->
     forall w, In w ws -> w = 0) ->
  exists final final' normals normals' weights weights' records records' direction,
    avoidance position s trees = Ok (final, normals, weights, records) /\
    avoidance position s trees' = Ok (final', normals', weights', records') /\
    get_end_vector final = Ok direction /\ get_end_vector final' = Ok direction /\ unitv direction /\
    Permutation (combine normals weights) (combine normals' weights') /\ Permutation weights weights'.
Proof.
  intros n position s base trees silent trees' SC Eb PT NE SIL.
  destruct (avoidance_same orth0 angle_of pick sort power radius max_repulsion n position base trees' SC trees silent PT SIL NE s Eb)
    as (final & final' & normals & normals' & cw & cw' & fv & E1 & E2 & G1 & G2 & U & _ & P1 & P2).
  exists final, final', normals, normals', cw, cw'. eexists _, _, fv. repeat split; eauto.
Qed.

(** An obstacle of rotation weight zero gives its components no weight. *)
Lemma record_silent position base t c ws : convergence_record angle_of power position base t = Ok (0, c) ->
  tree_obstacle_weights angle_of position base power (mtree_of t) = Ok ws -> forall w, In w ws -> w = 0.
Proof.
  unfold convergence_record, tree_obstacle_weights, tree_gamma_and_weights. intros H1 H2.
  destruct (get_component (mtree_of t) (m_root (mtree_of t))) as [root|]; [|discriminate]. cbn [bind] in H1, H2.
  destruct (tree_gammas position (mtree_of t)) as [|g0 gs] eqn:Eg; [discriminate|].
  destruct (get_rotation_weight _ _ _ _ _ _ _ _) as [rw|]; [|discriminate]. cbn [bind] in H1.
  destruct (Req_EM_T (norm base) 0); [discriminate|]. injection H1 as -> _.
  destruct (compute_weights_from_distances (g0 :: gs) 1 false) as [gw|] eqn:Ew; [|discriminate]. cbn [bind] in H2.
  unfold compute_gamma_and_weights in H2. rewrite Ew in H2. cbn [bind] in H2.
  assert (Z : Reqb 0 0 = true) by (apply Reqb_true; auto). rewrite Z, orb_true_r in H2. cbn [bind] in H2.
  destruct (compute_parent_occlusion_weight position (mtree_of t)) as [occ|]; [|discriminate]. cbn [bind] in H2.
  injection H2 as <-. intros w I. apply in_map_iff in I as ([a b] & <- & I). cbn [fst snd].
  apply in_combine_l in I. apply in_map_iff in I as (x & <- & _). ring.
Qed.

(** Obstacles without need to turn and the order of the obstacles do not matter for the velocity. *)
Theorem C166_velocity : forall n dim magnitude s conv_of conv position env base trees silent trees',
  conv_of s = Ok conv -> get_end_vector conv = Ok base -> scene n position base trees' ->
  Permutation (trees ++ silent) trees' -> trees <> [] ->
  (forall t, In t silent -> exists c, convergence_record angle_of power position base t = Ok (0, c)) ->
  evaluate dim magnitude (Some s) conv_of position env trees = evaluate dim magnitude (Some s) conv_of position env trees'.
Proof.
  intros n dim magnitude s conv_of conv position env base trees silent trees' Ec Eb SC PT NE SIL.
  assert (NE' : trees' <> []) by (apply (sc_trees _ _ _ _ _ _ _ _ _ _ _ SC)).
  destruct (avoidance_same orth0 angle_of pick sort power radius max_repulsion n position base trees' SC trees silent PT) with (s := conv)
    as (final & final' & normals & normals' & cw & cw' & fv & E1 & E2 & G1 & G2 & U & L & P1 & P2); auto.
  { intros t ws I Ew. destruct (SIL t I) as (c & Er). eapply record_silent; eauto. }
  unfold evaluate_sequence. destruct trees as [|t1 tl1] eqn:Q1; [contradiction|]. rewrite <- Q1 in *. clear NE.
  destruct trees' as [|t2 tl2] eqn:Q2; [contradiction|]. rewrite <- Q2 in *.
  destruct (compute_multiobstacle_relative_velocity position env) as [rel|]; [|auto]. cbn [bind].
  rewrite Ec. cbn [bind]. rewrite E1, E2. cbn [bind]. rewrite G1, G2. cbn [bind].
  unfold scaled_velocity. destruct cw as [|w0 cw0] eqn:Qc.
  - apply Permutation_nil in P2. subst cw'. auto.
  - rewrite <- Qc in *. destruct cw' as [|w0' cw0'] eqn:Qc'.
    { apply Permutation_sym, Permutation_nil in P2. congruence. }
    rewrite <- Qc' in *. rewrite (averaged_perm _ _ _ _ _ P1), (rmax_perm _ _ P2).
    destruct (fdiv 1 (rmax_list cw')) as [gamma|]; [|auto]. cbn [bind].
    set (hh := h angle_of power radius max_repulsion position base) in *.
    assert (HR : forall t, In t trees' -> exists r c, snd (hh t) = (r, c) /\ (0 <= r <= 1 /\ -1 <= c <= 1) /\
       convergence_record angle_of power position base t = Ok (r, c)).
    { intros t I. destruct (h_ok orth0 angle_of pick sort power radius max_repulsion n position base trees' SC t I)
        as (ws & rs & (r, c) & Ed & Eh & _ & _ & _ & B1 & B2 & _). exists r, c. unfold hh. rewrite Eh. split; auto. split; auto.
      unfold tree_data in Ed. destruct (convergence_record _ _ _ _ _) as [rec|]; [|discriminate]. cbn [bind] in Ed.
      destruct (tree_gamma_and_weights _ _ _ _ _) as [(?, ?)|]; [|discriminate]. cbn [bind] in Ed.
      destruct (tree_obstacle_weights _ _ _ _ (mtree_of t)) as [ws1|]; [|discriminate]. cbn [bind] in Ed.
      destruct (tree_radiuses _ _ _ _ _); [|discriminate]. cbn [bind] in Ed. injection Ed as _ _ <-. auto. }
    assert (SF : forall l, l <> [] -> (forall t, In t l -> In t trees') ->
       slowfactor_from_convergence (map snd (map hh l)) (2/10) = Ok (least (map (slowv (2/10)) (map snd (map hh l))))).
    { intros l Nl Il. destruct (C28_slowfactor (map snd (map hh l)) (2/10)) as (sf & Es & _).
      - destruct l; [contradiction|discriminate].
      - lra.
      - intros r c I. rewrite map_map in I. apply in_map_iff in I as (t & Et & It).
        destruct (HR t (Il t It)) as (r' & c' & Et' & B & _). rewrite Et in Et'. injection Et' as -> ->. auto.
      - rewrite Es. f_equal. apply slow_form. auto. }
    rewrite !SF; auto; [|rewrite Q1; discriminate|intros t I; apply (Permutation_in _ PT), in_or_app; auto].
    replace (least (map (slowv (2/10)) (map snd (map hh trees')))) with (least (map (slowv (2/10)) (map snd (map hh trees)))); auto.
    rewrite <- (least_perm _ _ (Permutation_map (slowv (2/10)) (Permutation_map snd (Permutation_map hh PT)))).
    rewrite !map_app. symmetry. apply least_ones. intros x I. rewrite !map_map in I. apply in_map_iff in I as (t & <- & It).
    destruct (SIL t It) as (c & Er).
    destruct (HR t) as (r' & c' & Et & _ & Er'); [apply (Permutation_in _ PT), in_or_app; auto|].
    rewrite Er in Er'. injection Er' as <- <-. rewrite Et. unfold slowv, slow1. rewrite (proj2 (Rltb_false 0 0)) by lra. auto.
Qed.
End Velocity.

(** ** Moving obstacles in any order *)
Definition gweight (L : list R) (m p d : R) : R :=
  let k := count_le m L in
  let v d := match (do q <- fdiv 1 (d - m); fpow q p) with Ok x => x | Err _ => 0 end in
  if Nat.ltb 0 k then
    if Nat.leb 2 k then (if Rleb d m then 1 else 0) / INR k else (if Rleb d m then 1 else 0)
  else if Rle_dec (rsum (map v L)) 1 then v d else v d / rsum (map v L).
Lemma gamma_weights_form L m p ws : compute_gamma_weights L m p = Ok ws -> ws = map (gweight L m p) L.
Proof.
  unfold compute_gamma_weights, gweight. destruct (Nat.ltb 0 (count_le m L)).
  - destruct (Nat.leb 2 (count_le m L)); intros H; injection H as <-; auto.
  - set (v := fun d => match (do q <- fdiv 1 (d - m); fpow q p) with Ok x => x | Err _ => 0 end).
    destruct (mapM _ L) as [vs|] eqn:M; [|discriminate]. cbn [bind].
    assert (Q : vs = map v L).
    { revert vs M. clear. induction L as [|d L IH]; intros vs M; cbn [mapM] in M; [injection M as <-; auto|].
      cbn [map]. unfold v at 1. destruct (do q <- fdiv 1 (d - m); fpow q p) as [x|]; [|discriminate]. cbn [bind] in M.
      destruct (mapM _ L) as [xs|]; [|discriminate]. cbn [bind] in M. injection M as <-. rewrite (IH xs eq_refl). auto. }
    rewrite Q. destruct (Rle_dec (rsum (map v L)) 1); intros H; injection H as <-; auto. rewrite map_map. auto.
Qed.
Lemma count_le_perm m L L' : Permutation L L' -> count_le m L = count_le m L'.
Proof.
  unfold count_le. induction 1; cbn [filter]; auto; try congruence.
  - destruct (Rleb x m); cbn [length]; congruence.
  - destruct (Rleb y m), (Rleb x m); cbn [length]; auto.
Qed.
Lemma gweight_perm L L' m p d : Permutation L L' -> gweight L m p d = gweight L' m p d.
Proof.
  intros P. unfold gweight. rewrite (count_le_perm m _ _ P).
  set (v := fun d => match (do q <- fdiv 1 (d - m); fpow q p) with Ok x => x | Err _ => 0 end).
  rewrite (rsum_perm _ _ (Permutation_map v P)). auto.
Qed.
Lemma relative_perm position env env' : length position = 2%nat -> (forall o, In o env -> planar o) -> Permutation env env' ->
  compute_multiobstacle_relative_velocity position env = compute_multiobstacle_relative_velocity position env'.
Proof.
  intros L PL P.
  destruct (C34_weighted_mean position env L PL) as (ws & E & _ & _ & _ & ->).
  destruct (C34_weighted_mean position env' L) as (ws' & E' & _ & _ & _ & ->).
  { intros o I. apply PL. apply (Permutation_in _ (Permutation_sym P)). auto. }
  apply gamma_weights_form in E. apply gamma_weights_form in E'. f_equal.
  assert (PM := Permutation_map mo_gamma P).
  assert (Q : forall e (g : R -> R), combine (map g (map mo_gamma e)) (map (obstacle_velocity position) e)
     = map (fun o => (g (mo_gamma o), obstacle_velocity position o)) e).
  { induction e as [|o e IH]; intros g; auto. cbn [map combine]. rewrite IH. auto. }
  rewrite E, E', !Q.
  rewrite (map_ext _ (fun o => (gweight (map mo_gamma env') 1 1 (mo_gamma o), obstacle_velocity position o)))
    by (intros o; rewrite (gweight_perm _ _ 1 1 _ PM); auto).
  generalize (Permutation_map (fun o => (gweight (map mo_gamma env') 1 1 (mo_gamma o), obstacle_velocity position o)) P).
  generalize (map (fun o => (gweight (map mo_gamma env') 1 1 (mo_gamma o), obstacle_velocity position o)) env)
    (map (fun o => (gweight (map mo_gamma env') 1 1 (mo_gamma o), obstacle_velocity position o)) env').
  clear. intros a b P. unfold wsum2. induction P; cbn [fold_right]; auto; try congruence. vext. ring.
Qed.

(** The commanded velocity does not depend on the order in which the obstacles are listed. *)
Theorem C166_order : forall orth0 angle_of pick sort power radius max_repulsion
    n dim magnitude s conv_of conv position env env' base trees trees',
  conv_of s = Ok conv -> get_end_vector conv = Ok base ->
  scene orth0 angle_of pick sort power radius max_repulsion n position base trees ->
  length position = 2%nat -> (forall o, In o env -> planar o) ->
  Permutation trees trees' -> Permutation env env' ->
  evaluate_sequence orth0 angle_of (get_projected_tangent pick) sort power radius max_repulsion
    dim magnitude (Some s) conv_of position env trees
  = evaluate_sequence orth0 angle_of (get_projected_tangent pick) sort power radius max_repulsion
    dim magnitude (Some s) conv_of position env' trees'.
Proof.
  intros orth0 angle_of pick sort power radius max_repulsion n dim magnitude s conv_of conv position env env' base trees trees'
    Ec Eb SC L PL PT PE.
  assert (NE : trees' <> []).
  { intros ->. apply Permutation_sym, Permutation_nil in PT. apply (sc_trees _ _ _ _ _ _ _ _ _ _ _ SC). auto. }
  transitivity (evaluate_sequence orth0 angle_of (get_projected_tangent pick) sort power radius max_repulsion
    dim magnitude (Some s) conv_of position env trees').
  - symmetry. apply (C166_velocity orth0 angle_of pick sort power radius max_repulsion n dim magnitude s conv_of conv position env base trees' [] trees); auto.
    + rewrite app_nil_r. apply Permutation_sym. auto.
    + intros t [].
  - unfold evaluate_sequence. destruct trees'; auto. rewrite (relative_perm position env env' L PL PE). auto.
Qed.

(** *** Several obstacles to the left, at different relative distances *)
Definition side_comp (g : R) : bcomp :=
  mkB (mkComp (fun _ => g) (fun _ => [1; 0]) (fun _ => [-1; 0]) [0; 0] [0; 0] (fun _ _ => Some [1; 0]) false) false.
Definition side_tree (g : R) : btree := mkBTree [side_comp g] 0 (fun _ => None).
Lemma side_walk g : 1 < g -> branch_walk [3; 0] 0 (side_tree g) = Ok (mkWalk [0%nat] [[1; 0]] [[-1; 0]] [1; 0]).
Proof.
  intros H. unfold branch_walk, branch_walk_upto. simpl. rewrite (proj2 (Rltb_true 1 g) H). reflexivity.
Qed.
Lemma side_populate base D : length base = 2%nat -> unitv base -> 0 <= dot [1; 0] base ->
  (forall d, In d D -> exists g ws rs, 1 < g /\ d = (side_tree g, ws, rs)) ->
  forall pt obs tt0 tt nodes normals, constant base tt0 ->
  populate_all pt tt0 [3; 0] base obs D = Ok (tt, nodes, normals) -> constant base tt.
Proof.
  intros L U Hb HD pt. induction D as [|d D IH]; intros obs tt0 tt nodes normals C0 Ep; cbn [populate_all] in Ep.
  - injection Ep as <- _ _. auto.
  - destruct (HD d (or_introl eq_refl)) as (g & ws & rs & Hg & ->).
    destruct (populate_tree pt tt0 [3; 0] base (side_tree g) obs ws rs) as [((t1, k1), n1)|] eqn:E1; [|discriminate]. cbn [bind] in Ep.
    destruct (populate_all pt t1 [3; 0] base (obs + 1) D) as [((t2, k2), n2)|] eqn:E2; [|discriminate]. cbn [bind] in Ep.
    injection Ep as <- _ _. eapply IH; [intros; apply HD; right; auto| |exact E2]. clear E2 IH.
    unfold populate_tree in E1.
    destruct (lift (add_node tt0 _ base _ None None)) as [t3|] eqn:A1; [|discriminate].
    pose proof (constant_add base tt0 _ _ t3 L U C0 A1) as C1. cbn [bind] in E1.
    change (seq 0 (length (bt_comps (side_tree g)))) with [0%nat] in E1. cbn [populate_components] in E1.
    destruct (Rle_dec (nth 0 ws 0) 0).
    + injection E1 as <- _ _. auto.
    + unfold branch_update in E1. rewrite side_walk in E1 by auto.
      cbn [bind branch_steps branch_nodes w_refs w_ids tl combine rev w_normals] in E1.
      change (get_bcomp (side_tree g) 0) with (Ok (side_comp g)) in E1. cbn [bind nth] in E1.
      change (c_tail (b_comp (side_comp g))) with false in E1. rewrite (proj2 (Rltb_false (dot [1; 0] base) 0) Hb) in E1. cbn [orb bind] in E1.
      destruct (lift (add_node t3 _ base _ None None)) as [t4|] eqn:A2; [|discriminate].
      pose proof (constant_add base t3 _ _ t4 L U C1 A2) as C2. cbn [bind] in E1. injection E1 as <- _ _. auto.
Qed.
Lemma side_scene orth0 angle_of power base gs : (forall v, length (orth0 v) = length v) -> 0 <= power ->
  length base = 2%nat -> unitv base -> 0 <= dot [1; 0] base -> gs <> [] -> (forall g, In g gs -> 1 < g) ->
  scene orth0 angle_of left_of sort_by_level power (PI * / 2) None 2 [3; 0] base (map side_tree gs).
Proof.
  intros Ho Hp L U Hb NE HG. pose proof PI_RGT_0 as HP.
  assert (IN : forall t, In t (map side_tree gs) -> exists g, 1 < g /\ t = side_tree g).
  { intros t I. apply in_map_iff in I as (g & <- & I). eauto. }
  constructor; auto.
  - apply sort_by_level_sorted.
  - destruct gs; [contradiction|discriminate].
  - apply picks_2d.
  - intros t I. destruct (IN t I) as (g & Hg & ->). split; [simpl; lia|]. simpl. intros i Hi Ni. lia.
  - intros i j d Hi Hj Ci _. exfalso. destruct (IN _ (nth_In _ d Hi)) as (g & Hg & E). rewrite E in Ci.
    unfold in_contact, tree_gammas in Ci. destruct Ci as (x & [<-|[]] & Hx). cbn in Hx. lra.
  - intros t c I Ic. destruct (IN t I) as (g & Hg & ->). destruct Ic as [<-|[]]. split; auto. unfold unitv, dot. simpl. ring.
  - intros t c p I Ic. destruct (IN t I) as (g & Hg & ->). destruct Ic as [<-|[]]. split; auto. unfold unitv, dot. simpl. ring.
  - intros t i I Hi. destruct (IN t I) as (g & Hg & ->). simpl in Hi. replace i with 0%nat by lia. eexists. split; [apply side_walk; auto|].
    simpl. split; auto. split; auto. apply norm_neq_0_dot. unfold dot. simpl. lra.
  - lra.
  - discriminate.
  - intros t c _ _ _ N. contradiction.
  - intros tt0 tt data nodes normals E0 Ed Ep.
    assert (C0 : constant base tt0).
    { destruct (set_root_rooted 2 base_vel_id base tt0 ltac:(lia) L E0) as (W0 & N0 & _). split; auto.
      intros x a N. unfold node in N. rewrite N0 in N. destruct N as [N|[]]. injection N as <- <-.
      simpl. rewrite (proj1 (unit_norm _) U). vext. field. }
    destruct (side_populate base (map fst data) L U Hb) with (pt := get_projected_tangent left_of) (obs := 0%Z) (tt0 := tt0)
      (tt := tt) (nodes := nodes) (normals := normals) as [W C]; auto.
    { revert data Ed Ep IN. generalize (map side_tree gs) as ts. clear. intros ts data Ed _ IN. revert data Ed.
      induction ts as [|t ts IH]; intros data Ed; cbn [mapM] in Ed; [injection Ed as <-; intros d []|].
      destruct (tree_data angle_of power (PI * / 2) None [3; 0] base t) as [d1|] eqn:E1; [|discriminate]. cbn [bind] in Ed.
      destruct (mapM _ ts) as [ds|] eqn:E2; [|discriminate]. cbn [bind] in Ed. injection Ed as <-.
      intros d [<-|I]; [|apply (IH (fun t' I' => IN t' (or_intror I')) ds eq_refl d I)].
      destruct (IN t (or_introl eq_refl)) as (g & Hg & ->). unfold tree_data in E1.
      destruct (convergence_record _ _ _ _ _) as [rec|]; [|discriminate]. cbn [bind] in E1.
      destruct (tree_gamma_and_weights _ _ _ _ _) as [(?, ?)|]; [|discriminate]. cbn [bind] in E1.
      destruct (tree_obstacle_weights _ _ _ _ _) as [ws|]; [|discriminate]. cbn [bind] in E1.
      destruct (tree_radiuses _ _ _ _ _) as [rs|]; [|discriminate]. cbn [bind] in E1. injection E1 as <-.
      exists g, ws, rs. auto. }
    split.
    + intros p x a b _ Na Nb. rewrite (C p a Na), (C x b Nb), U. lra.
    + intros p x a b _ Na Nb. left. rewrite (C p a Na), (C x b Nb). auto.
Qed.
Example C166_case : forall angle_of dim magnitude, exists s,
  get_end_vector s = Ok [3/5; 4/5] /\
  let evaluate := evaluate_sequence (fun v => v) angle_of (get_projected_tangent left_of) sort_by_level 1 (PI * / 2) None
    dim magnitude (Some s) (fun s => Ok s) [3; 0] in
  let o g x := mkMObs g [x; 0] (Some ([0; 1], AngNum 1)) None in
  evaluate [o 2 0; o 3 1] [side_tree 2; side_tree 3; side_tree 4] = evaluate [o 3 1; o 2 0] [side_tree 4; side_tree 2; side_tree 3].
Proof.
  intros angle_of dim magnitude.
  assert (U : unitv [3/5; 4/5]) by (unfold unitv, dot; simpl; lra).
  destruct (constant_sequence [3/5; 4/5] eq_refl U) as (s & _ & End). exists s. split; auto. intros evaluate o. unfold evaluate.
  apply (C166_order (fun v => v) angle_of left_of sort_by_level 1 (PI * / 2) None 2 dim magnitude s (fun s => Ok s) s [3; 0] _ _ [3/5; 4/5]); auto.
  - change [side_tree 2; side_tree 3; side_tree 4] with (map side_tree [2; 3; 4]). apply side_scene; auto; try lra.
    + unfold dot. simpl. lra.
    + discriminate.
    + intros g [<-|[<-|[<-|[]]]]; lra.
  - intros x [<-|[<-|[]]]; split; auto; cbn; auto.
  - apply Permutation_sym. eapply perm_trans; [apply perm_swap|]. apply perm_skip. apply perm_swap.
  - apply perm_swap.
Qed.
(** Moving straight away from an obstacle it has no rotation weight. *)
Example C166_silent_case : forall angle_of, norm (angle_of [1; 0] [1; 0]) = 0 ->
  exists c, convergence_record angle_of 1 [3; 0] [1; 0] (side_tree 2) = Ok (0, c).
Proof.
  intros angle_of Ha. unfold convergence_record.
  change (get_component (mtree_of (side_tree 2)) (m_root (mtree_of (side_tree 2)))) with (Ok (b_comp (side_comp 2))). cbn [bind].
  change (tree_gammas [3; 0] (mtree_of (side_tree 2))) with [2]. change (rmin_list [2]) with 2.
  change (c_normal (b_comp (side_comp 2)) [3; 0]) with [1; 0]. change (c_refdir (b_comp (side_comp 2)) [3; 0]) with [-1; 0].
  unfold get_rotation_weight. destruct (Rle_dec 2 1); [lra|].
  replace (cos (PI * / 2)) with 0 by (symmetry; apply cos_PI2).
  replace (dot [1; 0] [1; 0]) with 1 by (unfold dot; simpl; ring). rewrite (proj2 (Rltb_true 0 1)) by lra.
  replace (vscale (-1) [-1; 0]) with [1; 0] by (unfold vscale; simpl; v2).
  assert (Z : norm (vsub (angle_of [1; 0] [1; 0]) (angle_of [1; 0] [1; 0])) = 0).
  { apply norm_eq_0_dot. rewrite dot_vsub_l, dot_vsub_r. ring. }
  rewrite Z, Ha. pose proof PI_RGT_0. destruct (Rle_dec _ 0) as [L|L].
  - rewrite Rmin_left in L by lra. lra.
  - destruct (Req_EM_T 0 0); [|lra]. destruct (Req_EM_T 1 0); [lra|]. destruct (Rlt_dec 0 1); [|lra]. change (rmin_list [2]) with 2.
    destruct (Rle_dec 2 1); [lra|]. cbn [bind].
    destruct (Req_EM_T (norm [1; 0]) 0) as [Q|_]; [|eexists; reflexivity].
    exfalso. assert (N : norm [1; 0] = 1) by (apply unit_norm; unfold unitv, dot; simpl; ring). lra.
Qed.
Print Assumptions C166_direction.
Print Assumptions C166_velocity.
Print Assumptions C166_order.
