(** Property C174: continuity of the command where weights of components die. *)
Require Import Reals List Bool Lra Lia ZArith Classical_Prop.
From Verif Require Import Base Vec Angle Pow RotModel Spec RotProofs SeqProofs TreeModel TreeSpec
  TreeProofs TreeWeights TreeReduce TreeGeom TreeCases TreeIndep PropRotation PropTree WeightModel WeightProofs PropWeights
  AvoidModel PropAvoid ProjModel PropProject TangentProofs PropTangent PropContact ContProofs PropContinuity PropEmbed PropJoint PropOrder PropLimits PropSteady PropFade PropPace.
Import ListNotations.
Open Scope R_scope.

(** ** Selected entries of a list *)
Fixpoint select {A} (m : list bool) (l : list A) : list A :=
  match m, l with
  | b :: m', x :: l' => if b then x :: select m' l' else select m' l'
  | _, _ => []
  end.
Lemma select_app {A} m m' (l l' : list A) : length m = length l -> select (m ++ m') (l ++ l') = select m l ++ select m' l'.
Proof.
  revert l. induction m as [|b m IH]; intros [|x l] L; try discriminate; auto. cbn [app select]. simpl in L. destruct b; rewrite IH by lia; auto.
Qed.
Lemma select_map {A B} (p : A -> bool) (g : A -> B) l : select (map p l) (map g l) = map g (filter p l).
Proof. induction l as [|x l IH]; auto. cbn [map select filter]. destruct (p x); cbn [map]; rewrite IH; auto. Qed.
Lemma select_combine {A B} : forall m (a : list A) (b : list B), length a = length b -> combine (select m a) (select m b) = select m (combine a b).
Proof.
  induction m as [|c m IH]; intros [|x a] [|y b] L; try discriminate; auto. cbn [select combine]. simpl in L. destruct c; cbn [combine]; rewrite IH by lia; auto.
Qed.
Lemma select_in {A} m : forall (l : list A) x, In x (select m l) -> In x l.
Proof.
  induction m as [|b m IH]; intros [|y l] x; try contradiction. cbn [select]. destruct b; [intros [<-|I]; [left|right]; auto|right; auto].
Qed.
Lemma select_length {A B} m : forall (a : list A) (b : list B), length a = length b -> length (select m a) = length (select m b).
Proof.
  induction m as [|c m IH]; intros [|x a] [|y b] L; try discriminate; auto. cbn [select]. simpl in L. destruct c; cbn [length]; rewrite (IH a b) by lia; auto.
Qed.
(** The entries that are not selected vanish. *)
Definition rest_zero (m : list bool) (ws : list R) : Prop := length m = length ws /\ forall i, nth i m true = false -> nth i ws 0 = 0.
Lemma rest_tail b m x ws : rest_zero (b :: m) (x :: ws) -> rest_zero m ws /\ (b = false -> x = 0).
Proof.
  intros [L H]. split; [|intros ->; apply (H 0%nat); auto]. split; [simpl in L; lia|]. intros i Hi. apply (H (S i)). auto.
Qed.
Lemma rest_app m ws m' ws' : rest_zero m ws -> rest_zero m' ws' -> rest_zero (m ++ m') (ws ++ ws').
Proof.
  intros [L H] [L' H']. split; [rewrite !app_length; lia|]. intros i. destruct (Nat.lt_ge_cases i (length m)) as [Q|Q].
  - rewrite !app_nth1 by lia. auto.
  - rewrite !app_nth2 by lia. rewrite <- L. auto.
Qed.
Lemma select_sum m : forall ws, rest_zero m ws -> rsum (select m ws) = rsum ws.
Proof.
  induction m as [|b m IH]; intros [|x ws] Z; auto; [destruct Z as [L _]; discriminate|]. apply rest_tail in Z as [Z X]. cbn [select].
  destruct b; [cbn [rsum fold_right]; change (x + rsum (select m ws) = x + rsum ws); rewrite IH; auto|]. rewrite IH by auto. rewrite X by auto. simpl. unfold rsum. ring.
Qed.
Lemma select_zero m : forall l (ws : list R), rest_zero m ws -> length l = length ws -> forall (x : nid) w, In (x, w) (combine l ws) -> ~ In (x, w) (combine (select m l) (select m ws)) -> w = 0.
Proof.
  induction m as [|b m IH]; intros [|y l] [|v ws] Z L x w I N; try contradiction; try discriminate; [destruct Z as [Q _]; discriminate|].
  apply rest_tail in Z as [Z X]. simpl in L. cbn [combine] in I. cbn [select] in N. destruct I as [I|I].
  - injection I as <- <-. destruct b; [exfalso; apply N; left; auto|auto].
  - apply (IH l ws Z ltac:(lia) x w I). intros Q. apply N. destruct b; [right|]; auto.
Qed.
Lemma select_average n m : forall ns ws, rest_zero m ws -> length ns = length ws -> (forall v, In v ns -> length v = n) ->
  averaged_normal n (select m ns) (select m ws) = averaged_normal n ns ws.
Proof.
  assert (LA : forall ns ws, (forall v, In v ns -> length v = n) -> length (averaged_normal n ns ws) = n).
  { induction ns as [|v ns IH]; intros ws Hv; unfold averaged_normal; [cbn; apply repeat_length|]. destruct ws as [|w ws]; [cbn; apply repeat_length|]. cbn [combine fold_right fst snd].
    fold (averaged_normal n ns ws). autorewrite with vlen. rewrite (Hv v (or_introl eq_refl)), (IH ws) by (intros; apply Hv; right; auto). lia. }
  induction m as [|b m IH]; intros [|v ns] [|w ws] Z L U; try discriminate; auto; [destruct Z as [Q _]; discriminate|].
  apply rest_tail in Z as [Z X]. simpl in L. assert (Uv := U v (or_introl eq_refl)). assert (Un : forall x, In x ns -> length x = n) by (intros; apply U; right; auto).
  cbn [select]. unfold averaged_normal at 2. cbn [combine fold_right fst snd]. fold (averaged_normal n ns ws). destruct b.
  - unfold averaged_normal at 1. cbn [combine fold_right fst snd]. fold (averaged_normal n (select m ns) (select m ws)). rewrite IH by (auto; lia). auto.
  - rewrite IH by (auto; lia). rewrite X by auto. apply vec_ext; [autorewrite with vlen; rewrite Uv, (LA ns ws Un); lia|]. intros i. rewrite nth_vadd, nth_vscale. ring.
Qed.
Lemma select_max m : forall ws, rest_zero m ws -> nonneg ws -> select m ws <> [] -> rmax_list (select m ws) = rmax_list ws.
Proof.
  intros ws Z N NE. apply Rle_antisym.
  - apply rmax_ge. apply (select_in m). apply rmax_in. auto.
  - assert (NEw : ws <> []) by (intros ->; apply NE; destruct m; auto). pose proof (rmax_in ws NEw) as I.
    destruct (In_nth ws _ 0 I) as (i & Hi & E). assert (Q : In (rmax_list ws) (select m ws) \/ rmax_list ws = 0).
    { rewrite <- E. clear -Z Hi. revert ws i Z Hi. induction m as [|b m IH]; intros [|x ws] i Z Hi; simpl in Hi; try lia; [destruct Z as [Q _]; discriminate|].
      apply rest_tail in Z as [Z X]. cbn [select]. destruct i as [|i]; cbn [nth].
      - destruct b; [left; left; auto|right; auto].
      - destruct (IH ws i Z ltac:(lia)) as [Q|Q]; [left; destruct b; [right|]; auto|right; auto]. }
    destruct Q as [Q| ->]; [apply rmax_ge; auto|]. pose proof (rmax_in _ NE) as J. apply (N _ (select_in _ _ _ J)).
Qed.

(** ** A tree inside another *)
Record sub (t1 t2 : tree) : Prop := {
  su_attr : forall x a, get_attrs t1 x = Ok a -> get_attrs t2 x = Ok a;
  su_edge : forall p x, edge t1 p x -> edge t2 p x }.
Lemma sub_refl t : sub t t.
Proof. constructor; auto. Qed.
Lemma sub_trans t1 t2 t3 : sub t1 t2 -> sub t2 t3 -> sub t1 t3.
Proof. intros [A B] [C D]. constructor; auto. Qed.
Lemma attr_id t x a : get_attrs t x = Ok a -> In x (ids t).
Proof.
  unfold get_attrs, ids. induction (t_nodes t) as [|[y b] l IH]; cbn [assoc map fst]; [discriminate|]. destruct (nid_eqb x y) eqn:E; [apply nid_eqb_true in E; left; auto|right; auto].
Qed.
Lemma sub_grow t x d p t' : lift (add_node t x d (Some p) None None) = Ok t' -> sub t t'.
Proof.
  intros E. destruct (add_ok _ _ _ _ _ E) as (a & _ & NI & G & H). constructor.
  - intros y b Gy. rewrite G. destruct (nid_eq_dec y x) as [->|]; auto. exfalso. apply NI. eapply attr_id; eauto.
  - intros q y Q. apply H. auto.
Qed.
Lemma sub_add t1 t2 x d p t1' t2' : sub t1 t2 -> lift (add_node t1 x d (Some p) None None) = Ok t1' -> lift (add_node t2 x d (Some p) None None) = Ok t2' -> sub t1' t2'.
Proof.
  intros [A B] H1 H2. destruct (add_ok _ _ _ _ _ H1) as (a1 & G1 & _ & A1 & E1). destruct (add_ok _ _ _ _ _ H2) as (a2 & G2 & _ & A2 & E2).
  rewrite (A _ _ G1) in G2. injection G2 as <-. constructor.
  - intros y a. rewrite A1, A2. destruct (nid_eq_dec y x); auto.
  - intros q y Q. apply E1 in Q. apply E2. destruct Q; auto.
Qed.
Section Sub.
Variable pt : vec -> vec -> vec -> R -> res vec.
Variables position base : vec.
Lemma grow_nodes k comp : forall steps t v p r v1 q, branch_nodes t k comp v p steps = Ok (r, v1, q) -> sub t r.
Proof.
  induction steps as [|((ri, rp), id) steps IH]; intros t v p r v1 q H; cbn [branch_nodes] in H.
  - injection H as <- <- <-. apply sub_refl.
  - destruct (from_directions ri rp) as [rot|]; [|discriminate]. cbn [bind] in H.
    destruct (lift (add_node t _ _ _ None None)) as [t'|] eqn:L1; [|discriminate]. cbn [bind] in H. eapply sub_trans; [eapply sub_grow; eauto|eauto].
Qed.
Lemma grow_branch k t1 t i rad r nn : branch_update pt t1 position base t k i rad = Ok (r, nn) -> sub t1 r.
Proof.
  intros H. unfold branch_update in H.
  destruct (branch_walk position i t) as [w|]; [|discriminate]. cbn [bind] in H.
  destruct (branch_nodes t1 _ _ _ _ _) as [((s1, v1), q1)|] eqn:B1; [|discriminate]. cbn [bind] in H.
  destruct (get_bcomp t i) as [c|]; [|discriminate]. cbn [bind] in H.
  eapply sub_trans; [eapply grow_nodes; eauto|]. clear B1.
  destruct (c_tail (b_comp c) || Rltb (dot (nth 0 (w_normals w) []) v1) 0).
  - destruct (Rltb (PI * / 2) rad).
    + destruct (pt v1 (nth 0 (w_normals w) []) (nth 0 (w_refs w) []) (PI * / 2)) as [tg|]; [|discriminate]. cbn [bind] in H.
      destruct (lift (add_node s1 _ _ _ None None)) as [t1'|] eqn:L1; [|discriminate]. cbn [bind] in H.
      destruct (pt v1 (nth 0 (w_normals w) []) (nth 0 (w_refs w) []) rad) as [dd|]; [|discriminate]. cbn [bind] in H.
      destruct (lift (add_node t1' _ _ _ None None)) as [u1|] eqn:L3; [|discriminate]. cbn [bind] in H.
      injection H as <- <-. eapply sub_trans; eapply sub_grow; eauto.
    + cbn [bind] in H.
      destruct (pt v1 (nth 0 (w_normals w) []) (nth 0 (w_refs w) []) rad) as [dd|]; [|discriminate]. cbn [bind] in H.
      destruct (lift (add_node s1 _ _ _ None None)) as [u1|] eqn:L3; [|discriminate]. cbn [bind] in H.
      injection H as <- <-. eapply sub_grow; eauto.
  - cbn [bind] in H.
    destruct (lift (add_node s1 _ _ _ None None)) as [u1|] eqn:L3; [|discriminate]. cbn [bind] in H.
    injection H as <- <-. eapply sub_grow; eauto.
Qed.
Lemma sub_nodes k comp : forall steps t1 t2 v p r1 r2 v1 v2 q1 q2, sub t1 t2 ->
  branch_nodes t1 k comp v p steps = Ok (r1, v1, q1) -> branch_nodes t2 k comp v p steps = Ok (r2, v2, q2) -> sub r1 r2 /\ v1 = v2 /\ q1 = q2.
Proof.
  induction steps as [|((ri, rp), id) steps IH]; intros t1 t2 v p r1 r2 v1 v2 q1 q2 S H1 H2; cbn [branch_nodes] in H1, H2.
  - injection H1 as <- <- <-. injection H2 as <- <- <-. auto.
  - destruct (from_directions ri rp) as [rot|]; [|discriminate]. cbn [bind] in H1, H2.
    destruct (lift (add_node t1 _ _ _ None None)) as [t1'|] eqn:L1; [|discriminate].
    destruct (lift (add_node t2 _ _ _ None None)) as [t2'|] eqn:L2; [|discriminate]. cbn [bind] in H1, H2.
    eapply IH; [|exact H1|exact H2]. eapply sub_add; eauto.
Qed.
Lemma sub_branch k t1 t2 t i rad r1 r2 n1 n2 : sub t1 t2 ->
  branch_update pt t1 position base t k i rad = Ok (r1, n1) ->
  branch_update pt t2 position base t k i rad = Ok (r2, n2) -> sub r1 r2 /\ n1 = n2.
Proof.
  intros S H1 H2. unfold branch_update in H1, H2.
  destruct (branch_walk position i t) as [w|]; [|discriminate]. cbn [bind] in H1, H2.
  destruct (branch_nodes t1 _ _ _ _ _) as [((s1, v1), q1)|] eqn:B1; [|discriminate].
  destruct (branch_nodes t2 _ _ _ _ _) as [((s2, v2), q2)|] eqn:B2; [|discriminate]. cbn [bind] in H1, H2.
  destruct (sub_nodes _ _ _ _ _ _ _ _ _ _ _ _ _ S B1 B2) as (S1 & <- & <-).
  destruct (get_bcomp t i) as [c|]; [|discriminate]. cbn [bind] in H1, H2.
  destruct (c_tail (b_comp c) || Rltb (dot (nth 0 (w_normals w) []) v1) 0).
  - destruct (Rltb (PI * / 2) rad).
    + destruct (pt v1 (nth 0 (w_normals w) []) (nth 0 (w_refs w) []) (PI * / 2)) as [tg|]; [|discriminate]. cbn [bind] in H1, H2.
      destruct (lift (add_node s1 _ _ _ None None)) as [t1'|] eqn:L1; [|discriminate].
      destruct (lift (add_node s2 _ _ _ None None)) as [t2'|] eqn:L2; [|discriminate]. cbn [bind] in H1, H2.
      assert (S2 : sub t1' t2') by (eapply (sub_add s1 s2); eauto).
      destruct (pt v1 (nth 0 (w_normals w) []) (nth 0 (w_refs w) []) rad) as [dd|]; [|discriminate]. cbn [bind] in H1, H2.
      destruct (lift (add_node t1' _ _ _ None None)) as [u1|] eqn:L3; [|discriminate].
      destruct (lift (add_node t2' _ _ _ None None)) as [u2|] eqn:L4; [|discriminate]. cbn [bind] in H1, H2.
      injection H1 as <- <-. injection H2 as <- <-. split; auto. eapply (sub_add t1' t2'); eauto.
    + cbn [bind] in H1, H2.
      destruct (pt v1 (nth 0 (w_normals w) []) (nth 0 (w_refs w) []) rad) as [dd|]; [|discriminate]. cbn [bind] in H1, H2.
      destruct (lift (add_node s1 _ _ _ None None)) as [u1|] eqn:L3; [|discriminate].
      destruct (lift (add_node s2 _ _ _ None None)) as [u2|] eqn:L4; [|discriminate]. cbn [bind] in H1, H2.
      injection H1 as <- <-. injection H2 as <- <-. split; auto. eapply (sub_add s1 s2); eauto.
  - cbn [bind] in H1, H2.
    destruct (lift (add_node s1 _ _ _ None None)) as [u1|] eqn:L3; [|discriminate].
    destruct (lift (add_node s2 _ _ _ None None)) as [u2|] eqn:L4; [|discriminate]. cbn [bind] in H1, H2.
    injection H1 as <- <-. injection H2 as <- <-. split; auto. eapply (sub_add s1 s2); eauto.
Qed.
Definition mask (ws wp : list R) (l : list nat) : list bool := map (fun i => Rltb 0 (nth i ws 0)) (weighted wp l).
Lemma sub_components k t ws wp rs : (forall i, 0 < nth i ws 0 -> 0 < nth i wp 0) -> forall l t1 t2 r1 r2 k1 k2 n1 n2, sub t1 t2 ->
  populate_components pt t1 position base t k ws rs l = Ok (r1, k1, n1) ->
  populate_components pt t2 position base t k wp rs l = Ok (r2, k2, n2) ->
  sub r1 r2 /\ n1 = select (mask ws wp l) n2 /\ k1 = select (mask ws wp l) k2 /\ length n2 = length (mask ws wp l) /\ length k2 = length (mask ws wp l).
Proof.
  intros H. induction l as [|i l IH]; intros t1 t2 r1 r2 k1 k2 n1 n2 S H1 H2; cbn [populate_components] in H1, H2; unfold mask, weighted in *; cbn [filter].
  - injection H1 as <- <- <-. injection H2 as <- <- <-. auto.
  - destruct (Rle_dec (nth i wp 0) 0) as [Zp|Pp].
    + destruct (Rle_dec (nth i ws 0) 0) as [Z|P]; [|exfalso; specialize (H i ltac:(lra)); lra].
      rewrite (proj2 (Rltb_false _ _) Zp). eapply IH; eauto.
    + rewrite (proj2 (Rltb_true 0 (nth i wp 0))) by lra. cbn [map select].
      destruct (branch_update pt t2 _ _ _ _ _ _) as [(s2, m2)|] eqn:B2; [|discriminate]. cbn [bind] in H2.
      destruct (populate_components pt s2 _ _ _ _ _ _ _) as [((u2, a2), b2)|] eqn:C2; [|discriminate]. cbn [bind] in H2. injection H2 as <- <- <-.
      destruct (Rle_dec (nth i ws 0) 0) as [Z|P].
      * rewrite (proj2 (Rltb_false _ _) Z). destruct (IH t1 s2 r1 u2 k1 a2 n1 b2 (sub_trans _ _ _ S (grow_branch _ _ _ _ _ _ _ B2)) H1 C2) as (A & -> & -> & L1 & L2).
        cbn [select length]. rewrite L1, L2. auto.
      * rewrite (proj2 (Rltb_true 0 (nth i ws 0))) by lra.
        destruct (branch_update pt t1 _ _ _ _ _ _) as [(s1, m1)|] eqn:B1; [|discriminate]. cbn [bind] in H1.
        destruct (populate_components pt s1 _ _ _ _ _ _ _) as [((u1, a1), b1)|] eqn:C1; [|discriminate]. cbn [bind] in H1. injection H1 as <- <- <-.
        destruct (sub_branch _ _ _ _ _ _ _ _ _ _ S B1 B2) as [S1 <-]. destruct (IH _ _ _ _ _ _ _ _ S1 C1 C2) as (A & -> & -> & L1 & L2). cbn [select length]. rewrite L1, L2. auto.
Qed.
Lemma sub_all (f g r : btree -> list R) : forall trees, (forall t, In t trees -> forall i, 0 < nth i (f t) 0 -> 0 < nth i (g t) 0) -> forall k t1 t2 r1 r2 k1 k2 n1 n2, sub t1 t2 ->
  populate_all pt t1 position base k (map (fun t => (t, f t, r t)) trees) = Ok (r1, k1, n1) ->
  populate_all pt t2 position base k (map (fun t => (t, g t, r t)) trees) = Ok (r2, k2, n2) ->
  let m := flat_map (fun t => mask (f t) (g t) (seq 0 (length (bt_comps t)))) trees in
  sub r1 r2 /\ n1 = select m n2 /\ k1 = select m k2 /\ length n2 = length m /\ length k2 = length m.
Proof.
  cbv zeta. induction trees as [|t trees IH]; intros H k t1 t2 r1 r2 k1 k2 n1 n2 S H1 H2; cbn [map populate_all flat_map] in *.
  - injection H1 as <- <- <-. injection H2 as <- <- <-. auto.
  - unfold populate_tree in H1, H2.
    destruct (lift (add_node t1 _ _ _ None None)) as [t1'|] eqn:L1; [|discriminate].
    destruct (lift (add_node t2 _ _ _ None None)) as [t2'|] eqn:L2; [|discriminate]. cbn [bind] in H1, H2.
    destruct (populate_components pt t1' _ _ _ _ _ _ _) as [((s1, a1), b1)|] eqn:C1; [|discriminate].
    destruct (populate_components pt t2' _ _ _ _ _ _ _) as [((s2, a2), b2)|] eqn:C2; [|discriminate]. cbn [bind] in H1, H2.
    destruct (populate_all pt s1 _ _ _ _) as [((u1, c1), d1)|] eqn:D1; [|discriminate].
    destruct (populate_all pt s2 _ _ _ _) as [((u2, c2), d2)|] eqn:D2; [|discriminate]. cbn [bind] in H1, H2.
    injection H1 as <- <- <-. injection H2 as <- <- <-.
    destruct (sub_components k t (f t) (g t) (r t) (H t (or_introl eq_refl)) _ _ _ _ _ _ _ _ _ (sub_add _ _ _ _ _ _ _ S L1 L2) C1 C2) as (A & -> & -> & N1 & N2).
    destruct (IH (fun t I => H t (or_intror I)) _ _ _ _ _ _ _ _ _ A D1 D2) as (B & -> & -> & M1 & M2).
    rewrite !select_app, !app_length by auto. rewrite N1, N2, M1, M2. auto.
Qed.
End Sub.

(** ** The weights of all components that are approached *)
(** The share of the component of an obstacle, for the components with a positive entry in [wp]. *)
Definition part (L ws wp : list R) : list R := map (fun i => phi L (rsum ws) * (nth i ws 0 / rsum ws)) (weighted wp (seq 0 (length ws))).
Lemma phi_zero L : phi L 0 = 0.
Proof.
  unfold phi. destruct (Rltb (rsum L) 1); auto. destruct (existsb (Rleb 1) L).
  - rewrite (proj2 (Rleb_false 1 0)) by lra. auto.
  - unfold Rdiv. rewrite Rminus_0_r, Rinv_1. ring.
Qed.
Lemma rsum_positive ws : nonneg ws -> rsum (filter (fun w => Rltb 0 w) ws) = rsum ws.
Proof.
  induction ws as [|w ws IH]; intros N; auto. cbn [filter]. assert (N' : nonneg ws) by (intros x I; apply N; right; auto). specialize (IH N').
  destruct (Rle_dec w 0) as [Z|P].
  - rewrite (proj2 (Rltb_false _ _) Z), IH. pose proof (N w (or_introl eq_refl)). change (rsum ws = w + rsum ws). lra.
  - rewrite (proj2 (Rltb_true 0 w)) by lra. change (w + rsum (filter (fun w => Rltb 0 w) ws) = w + rsum ws). rewrite IH. auto.
Qed.
Lemma seg_part L ws : nonneg ws -> seg (phi L) ws = part L ws ws.
Proof.
  intros N. unfold seg, positive_normalised, part. rewrite rsum_positive by auto. rewrite filter_index, !map_map. auto.
Qed.
Lemma filter_filter {A} (p q : A -> bool) l : (forall x, p x = true -> q x = true) -> filter p (filter q l) = filter p l.
Proof.
  intros H. induction l as [|x l IH]; auto. cbn [filter]. destruct (q x) eqn:E; cbn [filter].
  - rewrite IH. auto.
  - rewrite IH. destruct (p x) eqn:F; auto. apply H in F. congruence.
Qed.
Lemma part_select L ws wp : (forall i, 0 < nth i ws 0 -> 0 < nth i wp 0) -> nonneg ws ->
  select (mask ws wp (seq 0 (length ws))) (part L ws wp) = seg (phi L) ws /\ rest_zero (mask ws wp (seq 0 (length ws))) (part L ws wp).
Proof.
  intros H N. split.
  - rewrite seg_part by auto. unfold mask, part. rewrite select_map. f_equal. unfold weighted. rewrite filter_filter; auto.
    intros i E. apply Rltb_true. apply H. apply Rltb_true. auto.
  - unfold mask, part. split; [rewrite !map_length; auto|]. generalize (weighted wp (seq 0 (length ws))) as l. intros l i.
    revert i. induction l as [|x l IH]; intros [|i] E; cbn [map nth] in *; try discriminate; auto.
    apply Rltb_false in E. pose proof (nonneg_nth ws x N). replace (nth x ws 0) with 0 by lra. unfold Rdiv. ring.
Qed.
Lemma phi_nonneg L s : nonneg L -> In s L -> 0 <= phi L s.
Proof.
  intros N I. pose proof (N s I) as Hs. unfold phi. destruct (Rltb (rsum L) 1); auto. destruct (existsb (Rleb 1) L) eqn:E.
  - destruct (Rleb 1 s); lra.
  - assert (B : forall x, In x L -> 0 <= 1 / (1 - x) - 1).
    { intros x Ix. pose proof (N x Ix). assert (x < 1).
      { destruct (Rlt_le_dec x 1) as [|G]; auto. assert (Q : existsb (Rleb 1) L = true) by (apply existsb_exists; exists x; split; auto; apply Rleb_true; auto). congruence. }
      replace (1 / (1 - x) - 1) with (x / (1 - x)) by (field; lra). apply Rmult_le_pos; auto. left. apply Rinv_0_lt_compat. lra. }
    assert (P : 0 <= rsum (map (fun w => 1 / (1 - w) - 1) L)) by (apply rsum_nonneg; intros x Ix; apply in_map_iff in Ix as (y & <- & Iy); auto).
    destruct (Req_dec (rsum (map (fun w => 1 / (1 - w) - 1) L)) 0) as [->|NZ].
    + unfold Rdiv. rewrite Rinv_0. lra.
    + apply Rmult_le_pos; [auto|]. left. apply Rinv_0_lt_compat. lra.
Qed.
Lemma part_nonneg L ws wp : nonneg L -> In (rsum ws) L -> nonneg ws -> nonneg (part L ws wp).
Proof.
  intros NL I N x Ix. apply in_map_iff in Ix as (i & <- & _). apply Rmult_le_pos; [apply phi_nonneg; auto|].
  pose proof (nonneg_nth ws i N). pose proof (rsum_nonneg ws N). destruct (Req_dec (rsum ws) 0) as [->|NZ]; [unfold Rdiv; rewrite Rinv_0; lra|].
  apply Rmult_le_pos; auto. left. apply Rinv_0_lt_compat. lra.
Qed.
Lemma nth_le_sum ws i : nonneg ws -> nth i ws 0 <= rsum ws.
Proof.
  revert i. induction ws as [|w ws IH]; intros [|i] N; try (simpl; lra); assert (N' : nonneg ws) by (intros x I; apply N; right; auto).
  - pose proof (rsum_nonneg ws N'). cbn [nth]. change (w <= w + rsum ws). lra.
  - specialize (IH i N'). pose proof (N w (or_introl eq_refl)). cbn [nth]. change (nth i ws 0 <= w + rsum ws). lra.
Qed.
Lemma part_cv L_ L ws_ ws wp : (forall j, length (ws_ j) = length ws) -> cvv ws_ ws -> (forall j, nonneg (ws_ j)) -> nonneg ws ->
  Un_cv (fun j => phi (L_ j) (rsum (ws_ j))) (phi L (rsum ws)) ->
  (forall j, length (part (L_ j) (ws_ j) wp) = length (part L ws wp)) /\ cvv (fun j => part (L_ j) (ws_ j) wp) (part L ws wp).
Proof.
  intros Ln C N_ N CP. split; [intros j; unfold part; rewrite !map_length, Ln; auto|].
  pose proof (cv_rsum (length ws) ws_ ws Ln eq_refl C) as CS.
  assert (K : forall i, Un_cv (fun j => phi (L_ j) (rsum (ws_ j)) * (nth i (ws_ j) 0 / rsum (ws_ j))) (phi L (rsum ws) * (nth i ws 0 / rsum ws))).
  { intros i. destruct (Req_dec (rsum ws) 0) as [Z|NZ].
    - rewrite Z in *. rewrite phi_zero in *. rewrite Rmult_0_l. apply cv_bounded with 1; auto. intros j.
      pose proof (nonneg_nth (ws_ j) i (N_ j)). pose proof (nth_le_sum (ws_ j) i (N_ j)). pose proof (rsum_nonneg (ws_ j) (N_ j)).
      destruct (Req_dec (rsum (ws_ j)) 0) as [Q|Q]; [rewrite Q; unfold Rdiv; rewrite Rinv_0, Rmult_0_r, Rabs_R0; lra|].
      assert (D : 0 <= nth i (ws_ j) 0 / rsum (ws_ j)) by (apply Rmult_le_pos; auto; left; apply Rinv_0_lt_compat; lra).
      rewrite Rabs_right by lra. apply Rmult_le_reg_r with (rsum (ws_ j)); [lra|]. unfold Rdiv. rewrite Rmult_assoc, Rinv_l, Rmult_1_r, Rmult_1_l by auto. auto.
    - apply cv_mul; auto. apply cv_div; auto. }
  intros i. unfold part. rewrite <- (Ln 0%nat) at 1.
  apply cv_ext with (fun j => nth i (map (fun i => phi (L_ j) (rsum (ws_ j)) * (nth i (ws_ j) 0 / rsum (ws_ j))) (weighted wp (seq 0 (length ws)))) 0); [intros j; rewrite Ln; auto|].
  rewrite Ln. generalize (weighted wp (seq 0 (length ws))) as l. intros l. revert i. induction l as [|x l IH]; intros [|i]; cbn [map nth]; try apply cv_const; [apply K|apply IH].
Qed.

Section Cluster.
Variables (A : Type) (f_ : nat -> A -> list R) (f g : A -> list R) (trees : list A) (cw_ : nat -> list R) (cw : list R).
Hypothesis LEN : forall t, In t trees -> forall j, length (f_ j t) = length (f t).
Hypothesis N_ : forall j t, In t trees -> nonneg (f_ j t).
Hypothesis N : forall t, In t trees -> nonneg (f t).
Hypothesis C : forall t, In t trees -> cvv (fun j => f_ j t) (f t).
Hypothesis SG : forall t, In t trees -> same_sign (fun j => f_ j t) (g t).
Hypothesis OS : one_saturated_at_most (map rsum (map f trees)).
Hypothesis SU : (forall k, nth k (map rsum (map f trees)) 0 < 1) -> rsum (map rsum (map f trees)) <> 1.
Hypothesis E_ : forall j, cluster_weights (map (f_ j) trees) = Ok (cw_ j).
Hypothesis E : cluster_weights (map f trees) = Ok cw.
Notation L_ j := (map rsum (map (f_ j) trees)).
Notation L := (map rsum (map f trees)).
Definition full : list R := flat_map (fun t => part L (f t) (g t)) trees.
Definition alive : list bool := flat_map (fun t => mask (f t) (g t) (seq 0 (length (f t)))) trees.
Lemma signs t : In t trees -> forall i, 0 < nth i (f t) 0 -> 0 < nth i (g t) 0.
Proof.
  intros I i P. destruct (cv_lt _ _ _ _ (cv_const 0) (C t I i) P) as (M & HM). apply (SG t I M i). apply (HM M). lia.
Qed.
Lemma sums_nonneg (k : A -> list R) : (forall t, In t trees -> nonneg (k t)) -> nonneg (map rsum (map k trees)).
Proof. intros H x I. apply in_map_iff in I as (ws & <- & I). apply in_map_iff in I as (t & <- & I). apply rsum_nonneg. apply H. auto. Qed.
Lemma phis t : In t trees -> Un_cv (fun j => phi (L_ j) (rsum (f_ j t))) (phi L (rsum (f t))).
Proof.
  intros I. destruct (C170_shares (length trees) (fun j => L_ j) L) as (out_ & out & t_ & t0 & O1 & O2 & O3 & _); auto.
  - intros j. rewrite !map_length. split; auto. apply sums_nonneg. auto.
  - rewrite !map_length. auto.
  - intros k. rewrite !map_map. destruct (nth_error trees k) as [t'|] eqn:Et.
    + assert (I' : In t' trees) by (eapply nth_error_In; eauto). rewrite (nth_error_nth (map _ trees) k 0 (x := rsum (f t'))) by (rewrite nth_error_map, Et; auto).
      apply cv_ext with (fun j => rsum (f_ j t')); [intros j; rewrite map_map; symmetry; apply nth_error_nth; rewrite nth_error_map, Et; auto|].
      apply (cv_rsum (length (f t'))); auto. intros j. apply LEN. auto.
    + apply nth_error_None in Et. rewrite nth_overflow by (rewrite map_length; auto). apply cv_ext with (fun _ => 0); [|apply cv_const].
      intros j. rewrite nth_overflow; auto. rewrite !map_length. auto.
  - intros k l Hk Hl. apply OS; auto.
    + destruct (Nat.lt_ge_cases k (length L)) as [|G]; auto. rewrite nth_overflow in Hk by auto. lra.
    + destruct (Nat.lt_ge_cases l (length L)) as [|G]; auto. rewrite nth_overflow in Hl by auto. lra.
  - assert (S : forall l o x, get_limited_weights_to_max_sum l = Ok (o, x) -> o = map (phi l) l).
    { intros l o x G. unfold get_limited_weights_to_max_sum in G. unfold phi. destruct (Rltb (rsum l) 1).
      - injection G as <- _. rewrite map_id. auto.
      - destruct (existsb (Rleb 1) l).
        + injection G as <- _. auto.
        + destruct (Req_EM_T _ 0); [discriminate|]. injection G as <- _. rewrite map_map. auto. }
    apply In_nth_error in I as (k & Et). specialize (O3 k). rewrite (S _ _ _ O2) in O3.
    rewrite (nth_error_nth (map (phi L) L) k 0 (x := phi L (rsum (f t)))) in O3 by (rewrite !nth_error_map, Et; auto).
    apply (cv_ext (fun j => nth k (out_ j) 0)); auto. intros j. rewrite (S _ _ _ (O1 j)). apply nth_error_nth. rewrite !nth_error_map, Et. auto.
Qed.
Lemma cluster_dying : (forall j, length (cw_ j) = length full) /\ cvv cw_ full /\ select alive full = cw /\ rest_zero alive full /\ nonneg full.
Proof.
  assert (Q_ : forall j, cw_ j = flat_map (fun t => part (L_ j) (f_ j t) (g t)) trees).
  { intros j. rewrite (cluster_form _ _ (E_ j)). rewrite (flat_map_concat_map (seg _)), map_map, <- flat_map_concat_map.
    assert (K : forall l, (forall t, In t l -> In t trees) -> flat_map (fun t => seg (phi (L_ j)) (f_ j t)) l = flat_map (fun t => part (L_ j) (f_ j t) (g t)) l).
    { induction l as [|t l IH]; intros H; auto. cbn [flat_map]. rewrite IH by (intros; apply H; right; auto). f_equal.
      assert (I : In t trees) by (apply H; left; auto). rewrite seg_part by auto. unfold part. rewrite (weighted_same _ _ (seq 0 (length (f_ j t))) (SG t I) j). auto. }
    apply K. auto. }
  assert (P : forall l, (forall t, In t l -> In t trees) ->
    (forall j, length (flat_map (fun t => part (L_ j) (f_ j t) (g t)) l) = length (flat_map (fun t => part L (f t) (g t)) l)) /\
    cvv (fun j => flat_map (fun t => part (L_ j) (f_ j t) (g t)) l) (flat_map (fun t => part L (f t) (g t)) l) /\
    select (flat_map (fun t => mask (f t) (g t) (seq 0 (length (f t)))) l) (flat_map (fun t => part L (f t) (g t)) l) = flat_map (seg (phi L)) (map f l) /\
    rest_zero (flat_map (fun t => mask (f t) (g t) (seq 0 (length (f t)))) l) (flat_map (fun t => part L (f t) (g t)) l) /\
    nonneg (flat_map (fun t => part L (f t) (g t)) l)).
  { induction l as [|t l IH]; intros H; cbn [flat_map map].
    - split; [auto|]. split; [intros i; apply cv_const|]. split; [auto|]. split; [split; [auto|intros [|i]; cbn; discriminate]|intros x []].
    - assert (I : In t trees) by (apply H; left; auto). destruct (IH (fun t I => H t (or_intror I))) as (A1 & A2 & A3 & A4 & A5).
      destruct (part_cv (fun j => L_ j) L (fun j => f_ j t) (f t) (g t) (LEN t I) (C t I) (fun j => N_ j t I) (N t I) (phis t I)) as [B1 B2].
      destruct (part_select L (f t) (g t) (signs t I) (N t I)) as [B3 B4].
      split; [intros j; rewrite !app_length, A1, B1; auto|]. split; [apply cvv_app; auto|].
      split; [rewrite select_app, A3, B3 by apply B4; auto|]. split; [apply rest_app; auto|].
      intros x J. apply in_app_iff in J as [J|J]; auto. revert J. apply part_nonneg; auto; [apply sums_nonneg; auto|]. apply in_map, in_map. auto. }
  destruct (P trees (fun t I => I)) as (A1 & A2 & A3 & A4 & A5). fold full in *. fold alive in *.
  split; [intros j; rewrite Q_; auto|]. split; [apply cvv_ext with (fun j => flat_map (fun t => part (L_ j) (f_ j t) (g t)) trees); auto|].
  split; [|auto]. rewrite A3. symmetry. apply cluster_form. auto.
Qed.
End Cluster.

(** ** The assignment of the weights *)
Lemma select_nodup {A} m : forall l : list A, NoDup l -> NoDup (select m l).
Proof.
  induction m as [|b m IH]; intros [|x l] ND; try constructor. inversion ND as [|? ? NI ND']; subst. cbn [select]. destruct b; auto. constructor; auto.
  intros I. apply NI. eapply select_in; eauto.
Qed.
Lemma assigned_select t m l ws own : assigned t l ws own -> rest_zero m ws -> assigned t (select m l) (select m ws) own.
Proof.
  intros (ND & L & I & V & O) Z. split; [apply select_nodup; auto|]. split; [apply select_length; auto|].
  split; [intros x J; apply I; eapply select_in; eauto|]. split.
  - intros x w J. apply V. rewrite select_combine in J by auto. eapply select_in; eauto.
  - intros x NI. destruct (in_dec nid_eq_dec x l) as [J|J]; [|apply O; auto].
    assert (Q : exists w, In (x, w) (combine l ws)).
    { clear - J L. revert ws L. induction l as [|y l IH]; intros [|w ws] L; try contradiction; try discriminate. destruct J as [->|J]; [exists w; left; auto|].
      destruct (IH J ws) as (v & Q); [simpl in L; lia|]. exists v. right. auto. }
    destruct Q as (w & Q). rewrite (V x w Q). apply (select_zero m l ws Z L x w Q). intros P. apply NI. apply (in_combine_l _ _ _ _ P).
Qed.
Lemma sub_embedded n u v r r' : rooted_tree n u r -> rooted_tree n v r' -> sub u v -> embedded (fun x => x) u v.
Proof.
  intros W W' [A B]. constructor; auto. intros x a Nx. apply (get_attrs_node n v r' W'). apply A. apply (get_attrs_node n u r W). auto.
Qed.

(** ** C174 *)
Section Dying.
Variables (orth0 pick : vec -> vec) (sort : tree -> list nid) (power radius : R) (max_repulsion : option R) (n : nat).
Variables (position_ base_ : nat -> vec) (position base : vec) (trees : list btree).
Notation angle_of := (angle_space pick).
Notation SCENE := (scene orth0 angle_of pick sort power radius max_repulsion n).
Notation data_of := (tree_data angle_of power radius max_repulsion).
Notation hh_ j := (h angle_of power radius max_repulsion (position_ j) (base_ j)).
Notation hh := (h angle_of power radius max_repulsion position base).
Hypothesis SC_ : forall j, SCENE (position_ j) (base_ j) trees.
Hypothesis SC : SCENE position base trees.
Hypothesis Cb : cvv base_ base.
Hypothesis DATA : forall t ws_ rs_ rec_ ws rs rec, In t trees -> (forall j, data_of (position_ j) (base_ j) t = Ok (t, ws_ j, rs_ j, rec_ j)) ->
  data_of position base t = Ok (t, ws, rs, rec) ->
  cvv ws_ ws /\ same_sign ws_ (ws_ 0%nat) /\
  forall i, (i < length (bt_comps t))%nat -> 0 < nth i (ws_ 0%nat) 0 -> calm position_ base_ position base t i (fun j => nth i (rs_ j) 0) (nth i rs 0).
Hypothesis SUM : forall wss, Forall2 (fun t ws => tree_obstacle_weights angle_of position base power (mtree_of t) = Ok ws) trees wss ->
  (forall k, nth k (map rsum wss) 0 < 1) -> rsum (map rsum wss) <> 1.
Hypothesis FULL : forall data tt0 u keys ns,
  Forall2 (fun t d => exists ws0 rs0 rec0 ws rs rec, data_of (position_ 0%nat) (base_ 0%nat) t = Ok (t, ws0, rs0, rec0) /\ data_of position base t = Ok (t, ws, rs, rec) /\ d = (t, ws0, rs)) trees data ->
  set_root empty_tree base_vel_id base = Ok tt0 -> populate_all (get_projected_tangent pick) tt0 position base 0 data = Ok (u, keys, ns) ->
  no_opposite u /\ distinguishable u.
Notation f_ := (fun j t => ws_of (hh_ j t)).
Notation f := (fun t => ws_of (hh t)).
Notation g := (fun t => ws_of (hh_ 0%nat t)).
Notation D := (map (fun t => (t, ws_of (hh t), rs_of (hh t))) trees).
Notation Dp := (map (fun t => (t, ws_of (hh_ 0%nat t), rs_of (hh t))) trees).
Lemma dying_facts t : In t trees ->
  (forall j, data_of (position_ j) (base_ j) t = Ok (t, ws_of (hh_ j t), rs_of (hh_ j t), snd (hh_ j t)) /\ hh_ j t = (t, ws_of (hh_ j t), rs_of (hh_ j t), snd (hh_ j t)) /\ length (ws_of (hh_ j t)) = length (bt_comps t) /\ nonneg (ws_of (hh_ j t)) /\
     tree_obstacle_weights angle_of (position_ j) (base_ j) power (mtree_of t) = Ok (ws_of (hh_ j t))) /\
  data_of position base t = Ok (t, ws_of (hh t), rs_of (hh t), snd (hh t)) /\ hh t = (t, ws_of (hh t), rs_of (hh t), snd (hh t)) /\ length (ws_of (hh t)) = length (bt_comps t) /\ nonneg (ws_of (hh t)) /\
     tree_obstacle_weights angle_of position base power (mtree_of t) = Ok (ws_of (hh t)) /\
  (forall i, (i < length (bt_comps t))%nat -> PI / 2 <= nth i (rs_of (hh t)) 0 <= PI) /\
  cvv (fun j => ws_of (hh_ j t)) (ws_of (hh t)) /\ same_sign (fun j => ws_of (hh_ j t)) (ws_of (hh_ 0%nat t)) /\
  forall i, (i < length (bt_comps t))%nat -> 0 < nth i (ws_of (hh_ 0%nat t)) 0 -> comp_calm n position_ base_ position base t (fun j => rs_of (hh_ j t)) (rs_of (hh t)) i.
Proof.
  intros I.
  assert (A : forall p b, SCENE p b trees -> let d := h angle_of power radius max_repulsion p b t in data_of p b t = Ok (t, ws_of d, rs_of d, snd d) /\ d = (t, ws_of d, rs_of d, snd d) /\
    length (ws_of d) = length (bt_comps t) /\ nonneg (ws_of d) /\ tree_obstacle_weights angle_of p b power (mtree_of t) = Ok (ws_of d) /\
    (forall i, (i < length (bt_comps t))%nat -> PI / 2 <= nth i (rs_of d) 0 <= PI)).
  { intros p b S. cbv zeta. destruct (h_ok _ _ _ _ _ _ _ _ _ _ _ S t I) as (ws & rs & rec & E & Eh & Ew & L & N & _ & _ & HR).
    rewrite Eh. unfold ws_of, rs_of. cbn [fst snd]. auto 10. }
  pose proof (fun j => A _ _ (SC_ j)) as A_. pose proof (A _ _ SC) as A0. cbv zeta in A_, A0. clear A.
  destruct A0 as (E & Eh & L & N & Ew & HR).
  destruct (DATA t (fun j => ws_of (hh_ j t)) (fun j => rs_of (hh_ j t)) (fun j => snd (hh_ j t)) _ _ _ I (fun j => proj1 (A_ j)) E) as (C & S & K).
  split; [intros j; destruct (A_ j) as (B0 & B1 & B2 & B3 & B4 & _); auto|].
  do 8 (split; [auto|]).
  intros i Hi P. split; [apply K; auto|]. split; [intros j; eapply scene_walk_fine; eauto|]. split; [eapply scene_walk_fine; eauto|].
  split; [intros j; apply (A_ j); auto|apply HR; auto].
Qed.
Lemma dying_sat : one_saturated_at_most (map rsum (map f trees)).
Proof.
  intros i j Hi Hj Si Sj. rewrite !map_length in Hi, Hj. destruct trees as [|t0 ts] eqn:Et; [cbn in Hi; lia|]. rewrite <- Et in *.
  assert (K : forall k, (k < length trees)%nat -> 1 <= nth k (map rsum (map f trees)) 0 -> in_contact position (mtree_of (nth k trees t0))).
  { intros k Hk Sk. rewrite nth_rsum in Sk.
    assert (X : nth k (map f trees) [] = ws_of (hh (nth k trees t0))).
    { rewrite (nth_indep _ [] (ws_of (hh t0))) by (rewrite map_length; auto). apply (map_nth (fun x => ws_of (hh x))). }
    rewrite X in Sk. destruct (classic (in_contact position (mtree_of (nth k trees t0)))) as [|NC]; auto.
    assert (I : In (nth k trees t0) trees) by (apply nth_In; auto).
    destruct (tree_obstacle_weights_spec angle_of position base power (mtree_of (nth k trees t0)) (sc_power _ _ _ _ _ _ _ _ _ _ _ SC)) as (ws' & Q' & _ & _ & _ & C).
    { apply (sc_well _ _ _ _ _ _ _ _ _ _ _ SC). auto. }
    destruct (dying_facts _ I) as (_ & _ & _ & _ & _ & Q & _). rewrite Q in Q'. injection Q' as <-. specialize (C NC). lra. }
  apply (sc_contact _ _ _ _ _ _ _ _ _ _ _ SC i j t0); auto.
Qed.
Lemma population_full tt0 : set_root empty_tree base_vel_id base = Ok tt0 ->
  exists u ns, populate_all (get_projected_tangent pick) tt0 position base 0 Dp = Ok (u, end_keys 0 Dp, ns) /\
    rooted_tree n u base_vel_id /\ NoDup (end_keys 0 Dp ++ [base_vel_id]) /\
    (forall x, In x (end_keys 0 Dp ++ [base_vel_id]) -> In x (map fst (t_nodes u))) /\ no_opposite u /\ distinguishable u.
Proof.
  intros E0. destruct (sc_base _ _ _ _ _ _ _ _ _ _ _ SC) as [Lb Ub]. pose proof (proj1 (unit_norm _) Ub) as Nb.
  assert (Nb' : norm base <> 0) by lra. pose proof (sc_dim _ _ _ _ _ _ _ _ _ _ _ SC) as Hn.
  destruct (C35_population (get_projected_tangent pick) (unit_args n) n position base Dp tt0 Hn Lb Nb')
    as (u & nodes & ns & Ep & W & -> & ND & IDS & _); auto.
  { intros v nn r rad Lv Nv (L1 & U1 & L2 & U2 & Hrad). rewrite Nb in Nv.
    assert (Uv : unitv v) by (apply unit_norm; auto).
    destruct (C60_not_inward n pick v nn r rad (sc_pick _ _ _ _ _ _ _ _ _ _ _ SC) Lv L1 L2 Uv U1 U2 Hrad) as (d & Edd & Ldd & Udd & K).
    exists d. split; auto. split; auto. rewrite (proj1 (unit_norm _) Udd). lra. }
  { intros t ws rs i I Hi _. apply in_map_iff in I as (t' & E & I). injection E as <- <- <-.
    destruct (dying_facts t' I) as (_ & _ & _ & _ & _ & _ & HR & _).
    split; [apply (sc_branch _ _ _ _ _ _ _ _ _ _ _ SC); auto|].
    apply branch_good_intro; auto; intros; [eapply (sc_normal _ _ _ _ _ _ _ _ _ _ _ SC)|eapply (sc_refdir _ _ _ _ _ _ _ _ _ _ _ SC)]; eauto. }
  exists u, ns. do 4 (split; auto). apply (FULL Dp tt0 u (end_keys 0 Dp) ns); auto.
  assert (G : forall l, (forall t, In t l -> In t trees) -> Forall2 (fun t d => exists ws0 rs0 rec0 ws rs rec, data_of (position_ 0%nat) (base_ 0%nat) t = Ok (t, ws0, rs0, rec0) /\ data_of position base t = Ok (t, ws, rs, rec) /\ d = (t, ws0, rs)) l
    (map (fun t => (t, ws_of (hh_ 0%nat t), rs_of (hh t))) l)).
  { induction l as [|t l IH]; intros H; cbn [map]; constructor; [|apply IH; intros; apply H; right; auto].
    destruct (dying_facts t (H t (or_introl eq_refl))) as (A & B & _). do 6 eexists. split; [apply (A 0%nat)|]. split; [exact B|auto]. }
  apply G. auto.
Qed.
Notation evaluate := (evaluate_avoidance orth0 angle_of (get_projected_tangent pick) sort power radius max_repulsion).
Lemma dying_follow s_ s : (forall j, get_end_vector (s_ j) = Ok (base_ j)) -> get_end_vector s = Ok base ->
  exists final_ normals_ cw_ records_ fv_ final normals cw records fv all weights m,
    (forall j, evaluate (position_ j) (s_ j) trees = Ok (final_ j, normals_ j, cw_ j, records_ j) /\ get_end_vector (final_ j) = Ok (fv_ j)) /\
    evaluate position s trees = Ok (final, normals, cw, records) /\ get_end_vector final = Ok fv /\
    cvv fv_ fv /\ normals_follow n normals_ all /\ normals = select m all /\ length all = length weights /\
    (forall j, length (cw_ j) = length weights) /\ cvv cw_ weights /\ cw = select m weights /\ rest_zero m weights /\ nonneg weights.
Proof.
  intros Eb_ Eb. pose proof (sc_dim _ _ _ _ _ _ _ _ _ _ _ SC) as Hn. destruct (sc_base _ _ _ _ _ _ _ _ _ _ _ SC) as [Lb Ub].
  assert (Ub_ : units n base_) by (intros j; apply (sc_base _ _ _ _ _ _ _ _ _ _ _ (SC_ j))).
  destruct (evaluate_avoidance_ok _ _ _ _ _ _ _ n position s base trees SC Eb)
    as (tx & data & final & normals & cw & fv & Ed & Ea & _ & _ & _ & FI & _ & _ & Ec & _ & Ef & Uf & Lf & Nc & Sc & _ & Lcw & _).
  destruct (root_follow orth0 pick sort power radius max_repulsion n position_ base_ position base trees SC_ SC Cb) as (tt0 & d0_ & E0 & E0_ & F0).
  destruct (population_run _ _ _ _ _ _ _ _ _ _ _ SC trees tt0 (fun t I => I) E0) as (u & nm & M & P & W & ND & IDS).
  rewrite Ed in M. injection M as ->.
  assert (DE : map fst (map hh trees) = D).
  { rewrite map_map. apply map_ext_in. intros t I. destruct (dying_facts t I) as (_ & _ & Q & _). rewrite Q at 1. auto. }
  rewrite DE in *.
  destruct (population_full tt0 E0) as (up & nmp & Pp & Wp & NDp & IDSp & NOp & DIp).
  destruct (all_follow n Hn pick (sc_pick _ _ _ _ _ _ _ _ _ _ _ SC) position_ base_ position base Ub_ Lb Cb Dp (fun j => map fst (map (hh_ j) trees)) 0%Z tt0 d0_ up (end_keys 0 Dp) nmp F0)
    as (d_ & nm_ & P_ & F & NF); [| |exact Pp|].
  { intros j. rewrite !map_length. auto. }
  { intros k x Hk. rewrite !map_length in Hk. destruct (nth_error trees k) as [t|] eqn:Et; [|apply nth_error_None in Et; lia].
    assert (I : In t trees) by (eapply nth_error_In; eauto).
    assert (X : forall f : btree -> btree * list R * list R, nth k (map f trees) x = f t).
    { intros f. apply nth_error_nth. rewrite nth_error_map, Et. auto. }
    destruct (dying_facts t I) as (A & _ & _ & _ & _ & _ & _ & C & S & K). rewrite X. unfold data_calm.
    exists (fun j => ws_of (hh_ j t)), (fun j => rs_of (hh_ j t)). split; [|auto]. intros j. rewrite map_map, (X (fun t => fst (hh_ j t))). destruct (A j) as (_ & Q & _). rewrite Q at 1. auto. }
  destruct (sub_all (get_projected_tangent pick) position base f g (fun t => rs_of (hh t)) trees) with (k := 0%Z) (t1 := tt0) (t2 := tt0) (r1 := u) (r2 := up) (k1 := end_keys 0 D) (k2 := end_keys 0 Dp) (n1 := nm) (n2 := nmp)
    as (SU & EN & EK & LN & LKp); auto.
  { intros t I. destruct (dying_facts t I) as (_ & _ & _ & _ & _ & _ & _ & C & S & _). intros i Pi. destruct (cv_lt _ _ _ _ (cv_const 0) (C i) Pi) as (M & HM). apply (S M i). apply (HM M). lia. }
  { apply sub_refl. }
  set (K := end_keys 0 D) in *. set (Kp := end_keys 0 Dp) in *.
  assert (KE : forall j, end_keys 0 (map fst (map (hh_ j) trees)) = Kp).
  { intros j. destruct (population_run _ _ _ _ _ _ _ _ _ _ _ (SC_ j) trees _ (fun t I => I) (E0_ j)) as (u' & nm' & _ & P' & _). rewrite P_ in P'. injection P' as _ <- _. auto. }
  set (ev := fun j => evaluate (position_ j) (s_ j) trees).
  set (cw_ := fun j => match ev j with Ok (_, _, c, _) => c | Err _ => [] end).
  set (fi_ := fun j => match ev j with Ok (f, _, _, _) => f | Err _ => [] end).
  set (re_ := fun j => match ev j with Ok (_, _, _, r) => r | Err _ => [] end).
  assert (RW : forall h0 : btree -> btree * list R * list R * (R * R), map (fun d : btree * list R * list R * (R * R) => snd (fst (fst d))) (map h0 trees) = map (fun t => ws_of (h0 t)) trees) by (intros h0; rewrite map_map; auto).
  assert (J : forall j, evaluate (position_ j) (s_ j) trees = Ok (fi_ j, nm_ j, cw_ j, re_ j) /\ (exists x, get_end_vector (fi_ j) = Ok x) /\
     cluster_weights (map (f_ j) trees) = Ok (cw_ j) /\ nonneg (cw_ j) /\ rsum (cw_ j) <= 1 /\
     reduce_weighted_to_sequence orth0 (redirected (d_ j) up) (fun _ => mkSlot 0 None None None) (sort (redirected (d_ j) up)) (Kp ++ [base_vel_id]) (cw_ j ++ [1 - rsum (cw_ j)]) = Ok (fi_ j)).
  { intros j. destruct (evaluate_avoidance_ok _ _ _ _ _ _ _ n (position_ j) (s_ j) (base_ j) trees (SC_ j) (Eb_ j))
      as (tx' & data' & final' & normals' & cw' & fv' & Ed' & Ea' & _ & _ & _ & _ & _ & _ & Ec' & _ & Ef' & _ & _ & Nc' & Sc' & _).
    destruct (population_run _ _ _ _ _ _ _ _ _ _ _ (SC_ j) trees _ (fun t I => I) (E0_ j)) as (u' & nm' & M' & P' & _).
    rewrite Ed' in M'. injection M' as ->. rewrite P_ in P'. injection P' as <- _ <-.
    assert (Q1 : cw_ j = cw') by (unfold cw_, ev; rewrite Ea'; auto). assert (Q2 : fi_ j = final') by (unfold fi_, ev; rewrite Ea'; auto).
    assert (Q3 : re_ j = map snd (map (hh_ j) trees)) by (unfold re_, ev; rewrite Ea'; auto). rewrite Q1, Q2, Q3.
    assert (R1 := Ea'). unfold evaluate_avoidance in R1. rewrite Eb_ in R1. cbn [bind] in R1. rewrite E0_ in R1. cbn [bind] in R1.
    rewrite Ed' in R1. cbn [bind] in R1. rewrite P_ in R1. cbn [bind] in R1. rewrite Ec' in R1. cbn [bind] in R1.
    destruct (reduce_weighted_to_sequence orth0 _ _ _ _ _) as [sq|] eqn:Er; [|discriminate]. cbn [bind] in R1. injection R1 as <- <-.
    split; [exact Ea'|]. split; [eauto|]. split; [rewrite <- RW; exact Ec'|]. auto. }
  assert (R1 := Ea). unfold evaluate_avoidance in R1. rewrite Eb in R1. cbn [bind] in R1. rewrite E0 in R1. cbn [bind] in R1.
  rewrite Ed in R1. cbn [bind] in R1. rewrite DE in R1. rewrite P in R1. cbn [bind] in R1. rewrite Ec in R1. cbn [bind] in R1.
  destruct (reduce_weighted_to_sequence orth0 u _ _ _ _) as [sq|] eqn:Er; [|discriminate]. cbn [bind] in R1. injection R1 as <- <-.
  rewrite RW in Ec.
  destruct (cluster_dying btree f_ f g trees cw_ cw) as (LC & CC & SW & RZ & NW); auto.
  { intros t I j. destruct (dying_facts t I) as (A & _ & _ & L & _). rewrite L. apply (A j). }
  { intros j t I. apply (dying_facts t I). }
  { intros t I. apply (dying_facts t I). }
  { intros t I. apply (dying_facts t I). }
  { intros t I. apply (dying_facts t I). }
  { apply dying_sat. }
  { apply SUM. assert (G : forall l, (forall t, In t l -> In t trees) -> Forall2 (fun t ws => tree_obstacle_weights angle_of position base power (mtree_of t) = Ok ws) l (map f l)).
    { induction l as [|t l IH]; intros H; cbn [map]; constructor; [apply (dying_facts t); apply H; left; auto|apply IH; intros; apply H; right; auto]. }
    apply G; auto. }
  { intros j. apply J. }
  assert (MM : flat_map (fun t => mask (f t) (g t) (seq 0 (length (bt_comps t)))) trees = alive btree f g trees).
  { unfold alive. assert (G : forall l, (forall t, In t l -> In t trees) -> flat_map (fun t => mask (f t) (g t) (seq 0 (length (bt_comps t)))) l = flat_map (fun t => mask (f t) (g t) (seq 0 (length (f t)))) l).
    { induction l as [|t l IH]; intros H; auto. cbn [flat_map]. rewrite IH by (intros; apply H; right; auto). destruct (dying_facts t (H t (or_introl eq_refl))) as (_ & _ & _ & L & _). rewrite L. auto. }
    apply G. auto. }
  rewrite MM in *. set (m := alive btree f g trees) in *. set (ww := full btree f g trees) in *. destruct (RZ) as [LM _].
  assert (SWW : rsum cw = rsum ww) by (rewrite <- SW; apply select_sum; auto).
  set (l := K ++ [base_vel_id]) in *. set (fw := cw ++ [1 - rsum cw]) in *.
  set (lp := Kp ++ [base_vel_id]) in *. set (fwp := ww ++ [1 - rsum ww]) in *. set (fw_ := fun j => cw_ j ++ [1 - rsum (cw_ j)]) in *.
  assert (El : l = select (m ++ [true]) lp) by (unfold l, lp; rewrite select_app by lia; rewrite EK; auto).
  assert (Efw : fw = select (m ++ [true]) fwp) by (unfold fw, fwp; rewrite select_app by lia; rewrite SW, SWW; auto).
  assert (RZ' : rest_zero (m ++ [true]) fwp) by (apply rest_app; auto; split; [auto|intros [|[|i]]; cbn; discriminate]).
  assert (S1 : rsum fw = 1) by (unfold fw; rewrite rsum_app; simpl; ring).
  assert (S1p : rsum fwp = 1) by (unfold fwp; rewrite rsum_app; simpl; ring).
  assert (S1_ : forall j, rsum (fw_ j) = 1) by (intros j; unfold fw_; rewrite rsum_app; simpl; ring).
  assert (Nf : nonneg fw) by (intros x I; apply in_app_iff in I; destruct I as [I|[<-|[]]]; [auto|lra]).
  assert (Nfp : nonneg fwp) by (intros x I; apply in_app_iff in I; destruct I as [I|[<-|[]]]; [auto|lra]).
  assert (Nf_ : forall j, nonneg (fw_ j)).
  { intros j x I. destruct (J j) as (_ & _ & _ & A & B & _). apply in_app_iff in I. destruct I as [I|[<-|[]]]; [auto|lra]. }
  assert (LLp : length lp = length fwp) by (unfold lp, fwp; rewrite !app_length; cbn [length]; lia).
  assert (LL_ : forall j, length lp = length (fw_ j)) by (intros j; unfold lp, fw_; rewrite !app_length, LC; cbn [length]; lia).
  assert (ND_ : forall j, no_opposite (redirected (d_ j) up) /\ distinguishable (redirected (d_ j) up) /\ rooted_tree n (redirected (d_ j) up) base_vel_id).
  { intros j. destruct (population_run _ _ _ _ _ _ _ _ _ _ _ (SC_ j) trees _ (fun t I => I) (E0_ j)) as (u' & nm' & M' & P' & W' & _).
    destruct (sc_tangent_tree _ _ _ _ _ _ _ _ _ _ _ (SC_ j) _ u' _ _ _ (E0_ j) M' P') as [A B]. rewrite P_ in P'. injection P' as <- _ _. auto. }
  set (st := fun _ : nid => mkSlot 0 None None None) in *.
  assert (SLp : level_sorted up (sort up)) by apply (sc_sort _ _ _ _ _ _ _ _ _ _ _ SC up base_vel_id Wp).
  assert (SL : level_sorted u (sort u)) by apply (sc_sort _ _ _ _ _ _ _ _ _ _ _ SC u base_vel_id W).
  assert (OO : forall v, length (orth0 v) = length v) by apply (sc_orth _ _ _ _ _ _ _ _ _ _ _ SC).
  assert (ASp : assigned up lp fwp (own_of lp fwp)) by (apply own_of_assigned; auto).
  destruct (C165_continuous n up base_vel_id d_ (sort up) orth0 (fun _ => st) st lp fw_ fwp (fun j => own_of lp (fw_ j)) (own_of lp fwp)) as (mean_ & mean & G1 & G2 & _ & _ & G3); auto.
  { intros j x a Nx. apply (get_attrs_node n up _ Wp) in Nx. apply (F x a Nx). }
  { intros j. split; apply (ND_ j). }
  { intros x a i Nx. apply (get_attrs_node n up _ Wp) in Nx. apply (F x a Nx). }
  { intros j. apply own_of_assigned; auto. }
  { intros j. apply own_of_nonneg; auto. }
  { apply own_of_nonneg; auto. }
  { intros j. rewrite S1_. lra. }
  { rewrite S1p. lra. }
  { change (cvv fw_ fwp). apply cvv_app; auto. intros [|i]; cbn [nth]; [|destruct i; apply cv_const]. apply cv_sub; [apply cv_const|]. apply (cv_rsum (length ww)); auto. }
  assert (LL : length l = length fw) by (rewrite El, Efw; apply select_length; auto).
  assert (GM : get_weighted_mean orth0 u st (sort u) l fw = Ok mean).
  { destruct (C164_embedded n u up base_vel_id base_vel_id (fun x => x) (sort u) (sort up) orth0 orth0 st st l fw (own_of l fw)) as (mean' & H1 & H2); auto.
    - apply (sub_embedded n u up base_vel_id base_vel_id); auto.
    - apply own_of_assigned; auto.
    - apply own_of_nonneg; auto.
    - rewrite S1. lra.
    - rewrite map_id in H2. rewrite H1. rewrite <- H2, <- G2. rewrite El, Efw. symmetry.
      apply (mean_perm n up base_vel_id (sort up) orth0 st lp fwp (select (m ++ [true]) lp) (select (m ++ [true]) fwp) (own_of lp fwp)); auto.
      + apply assigned_select; auto.
      + apply own_of_nonneg; auto.
      + rewrite S1p. lra. }
  exists fi_, nm_, cw_, re_, mean_, sq, nm, cw, (map snd (map hh trees)), mean, nmp, ww, m.
  split; [|split; [exact Ea|split; [|do 8 (split; [auto; lia|]); auto]]].
  - intros j. destruct (J j) as (A1 & (x & A2) & _ & _ & _ & A6). split; [exact A1|]. rewrite A2.
    destruct (ND_ j) as (NOj & DIj & Wj). specialize (G1 j). unfold get_weighted_mean in G1.
    pose proof (no_opposite_dirn n _ _ Wj NOj) as NAj.
    assert (AS : assigned (redirected (d_ j) up) lp (fw_ j) (own_of lp (fw_ j))).
    { apply own_of_assigned; auto. intros y Iy. change (In y (ids (redirected (d_ j) up))). rewrite red_ids. apply IDSp. auto. }
    assert (SLj : level_sorted (redirected (d_ j) up) (sort (redirected (d_ j) up))) by apply (sc_sort _ _ _ _ _ _ _ _ _ _ _ SC _ base_vel_id Wj).
    pose proof (total_root n _ _ lp (fw_ j) _ Wj Hn NOj AS (ex_intro _ _ SLj)) as TR.
    destruct (assigned_len _ _ _ _ AS) as [HL HI].
    rewrite (reduce_sort_independent n (redirected (d_ j) up) base_vel_id Wj Hn NAj (sort up) (sort (redirected (d_ j) up))) with (own := own_of lp (fw_ j)) (st0' := st) in G1; auto.
    + fold st in A6. fold (fw_ j) in A6. rewrite A6 in G1. cbn [bind] in G1. rewrite A2 in G1. exact G1.
    + apply red_sorted. auto.
    + intros y _. apply own_of_nonneg; auto.
    + rewrite TR, S1_. lra.
    + intros p x0 Ep _. apply (distinguishable_dirn n _ _ Wj DIj). auto.
    + apply (assigned_own (redirected (d_ j) up)); auto.
  - unfold get_weighted_mean in GM. fold st in Er. rewrite Er in GM. cbn [bind] in GM. exact GM.
Qed.
End Dying.
(** C174: the direction of the avoidance, the averaged normal and the greatest weight follow the
    state of the robot also where weights of components die out, in the limit only. *)
Theorem C174_direction : forall orth0 pick sort power radius max_repulsion n position_ base_ position base trees s_ s,
  let angle_of := angle_space pick in
  let data_of := tree_data angle_of power radius max_repulsion in
  let evaluate := evaluate_avoidance orth0 angle_of (get_projected_tangent pick) sort power radius max_repulsion in
  (forall j, scene orth0 angle_of pick sort power radius max_repulsion n (position_ j) (base_ j) trees) ->
  scene orth0 angle_of pick sort power radius max_repulsion n position base trees ->
  cvv base_ base ->
  (forall t ws_ rs_ rec_ ws rs rec, In t trees ->
     (forall j, data_of (position_ j) (base_ j) t = Ok (t, ws_ j, rs_ j, rec_ j)) -> data_of position base t = Ok (t, ws, rs, rec) ->
     cvv ws_ ws /\ same_sign ws_ (ws_ 0%nat) /\
     forall i, (i < length (bt_comps t))%nat -> 0 < nth i (ws_ 0%nat) 0 -> calm position_ base_ position base t i (fun j => nth i (rs_ j) 0) (nth i rs 0)) ->
  (forall wss, Forall2 (fun t ws => tree_obstacle_weights angle_of position base power (mtree_of t) = Ok ws) trees wss ->
     (forall k, nth k (map rsum wss) 0 < 1) -> rsum (map rsum wss) <> 1) ->
  (forall data tt0 u keys ns,
     Forall2 (fun t d => exists ws0 rs0 rec0 ws rs rec, data_of (position_ 0%nat) (base_ 0%nat) t = Ok (t, ws0, rs0, rec0) /\ data_of position base t = Ok (t, ws, rs, rec) /\ d = (t, ws0, rs)) trees data ->
     set_root empty_tree base_vel_id base = Ok tt0 -> populate_all (get_projected_tangent pick) tt0 position base 0 data = Ok (u, keys, ns) ->
     no_opposite u /\ distinguishable u) ->
  (forall j, get_end_vector (s_ j) = Ok (base_ j)) -> get_end_vector s = Ok base ->
  exists final_ normals_ cw_ records_ fv_ final normals cw records fv,
    (forall j, evaluate (position_ j) (s_ j) trees = Ok (final_ j, normals_ j, cw_ j, records_ j) /\ get_end_vector (final_ j) = Ok (fv_ j)) /\
    evaluate position s trees = Ok (final, normals, cw, records) /\ get_end_vector final = Ok fv /\
    cvv fv_ fv /\ cvv (fun j => averaged_normal n (normals_ j) (cw_ j)) (averaged_normal n normals cw) /\
    Un_cv (fun j => rsum (cw_ j)) (rsum cw) /\ (cw <> [] -> Un_cv (fun j => rmax_list (cw_ j)) (rmax_list cw)).
Proof.
  cbv zeta. intros orth0 pick sort power radius max_repulsion n position_ base_ position base trees s_ s SC_ SC CB DATA SUM FULL Eb_ Eb.
  destruct (dying_follow orth0 pick sort power radius max_repulsion n position_ base_ position base trees SC_ SC CB DATA SUM FULL s_ s Eb_ Eb)
    as (final_ & normals_ & cw_ & records_ & fv_ & final & normals & cw & records & fv & all & weights & m & E_ & E & EF & CF & NF & EN & LA & LC & CC & EW & RZ & NW).
  exists final_, normals_, cw_, records_, fv_, final, normals, cw, records, fv.
  split; [exact E_|]. split; [exact E|]. split; [exact EF|]. split; [exact CF|]. destruct (NF) as [LN FN].
  assert (UN : forall v, In v all -> length v = n).
  { intros v I. apply In_nth with (d := []) in I as (k & Hk & <-). apply (FN k Hk). }
  split; [|split].
  - rewrite EN, EW, select_average by auto. apply cv_average; auto. intros j. rewrite LC. auto.
  - rewrite EW, select_sum by auto. apply (cv_rsum (length weights)); auto.
  - intros NE. rewrite EW in *. rewrite select_max by auto. apply cv_rmax_list; auto. intros Z. apply NE. rewrite Z. destruct m; auto.
Qed.
Lemma scaled_select magnitude relative fv m ns ws records : rest_zero m ws -> nonneg ws -> length ns = length ws -> (forall v, In v ns -> length v = length fv) -> select m ws <> [] ->
  scaled_velocity magnitude relative fv (select m ns) (select m ws) records = scaled_velocity magnitude relative fv ns ws records.
Proof.
  intros Z N L U NE. pose proof (select_average (length fv) m ns ws Z L U) as A. pose proof (select_max m ws Z N NE) as M. unfold scaled_velocity.
  assert (NEw : ws <> []) by (intros Q; apply NE; rewrite Q; destruct m; auto).
  destruct (select m ws) as [|a l] eqn:E1; [contradiction|]. destruct ws as [|b k] eqn:E2; [contradiction|]. rewrite A, M. auto.
Qed.
(** C174: the commanded velocity is continuous there as long as some weight remains. *)
Theorem C174_velocity : forall orth0 pick sort power radius max_repulsion n position_ base_ position base trees s_ s conv_of conv_ conv
    magnitude_ magnitude env_ env relative_ relative,
  let angle_of := angle_space pick in
  let data_of := tree_data angle_of power radius max_repulsion in
  let evaluate := evaluate_avoidance orth0 angle_of (get_projected_tangent pick) sort power radius max_repulsion in
  let command := evaluate_sequence orth0 angle_of (get_projected_tangent pick) sort power radius max_repulsion n in
  (forall j, scene orth0 angle_of pick sort power radius max_repulsion n (position_ j) (base_ j) trees) ->
  scene orth0 angle_of pick sort power radius max_repulsion n position base trees ->
  cvv base_ base ->
  (forall t ws_ rs_ rec_ ws rs rec, In t trees ->
     (forall j, data_of (position_ j) (base_ j) t = Ok (t, ws_ j, rs_ j, rec_ j)) -> data_of position base t = Ok (t, ws, rs, rec) ->
     cvv ws_ ws /\ same_sign ws_ (ws_ 0%nat) /\
     (forall i, (i < length (bt_comps t))%nat -> 0 < nth i (ws_ 0%nat) 0 -> calm position_ base_ position base t i (fun j => nth i (rs_ j) 0) (nth i rs 0)) /\
     Un_cv (fun j => fst (rec_ j)) (fst rec) /\ Un_cv (fun j => snd (rec_ j)) (snd rec) /\ rec <> (0, 1)) ->
  (forall wss, Forall2 (fun t ws => tree_obstacle_weights angle_of position base power (mtree_of t) = Ok ws) trees wss ->
     (forall k, nth k (map rsum wss) 0 < 1) -> rsum (map rsum wss) <> 1) ->
  (forall data tt0 u keys ns,
     Forall2 (fun t d => exists ws0 rs0 rec0 ws rs rec, data_of (position_ 0%nat) (base_ 0%nat) t = Ok (t, ws0, rs0, rec0) /\ data_of position base t = Ok (t, ws, rs, rec) /\ d = (t, ws0, rs)) trees data ->
     set_root empty_tree base_vel_id base = Ok tt0 -> populate_all (get_projected_tangent pick) tt0 position base 0 data = Ok (u, keys, ns) ->
     no_opposite u /\ distinguishable u) ->
  (forall j, conv_of (s_ j) = Ok (conv_ j) /\ get_end_vector (conv_ j) = Ok (base_ j)) -> conv_of s = Ok conv -> get_end_vector conv = Ok base ->
  Un_cv magnitude_ magnitude -> cvv relative_ relative ->
  (forall j, compute_multiobstacle_relative_velocity (position_ j) (env_ j) = Ok (relative_ j)) -> compute_multiobstacle_relative_velocity position env = Ok relative ->
  (forall cw_ final normals cw records fv, (forall j, exists f ns rs, evaluate (position_ j) (conv_ j) trees = Ok (f, ns, cw_ j, rs)) ->
     evaluate position conv trees = Ok (final, normals, cw, records) -> get_end_vector final = Ok fv ->
     cw <> [] /\ steady_pace fv (averaged_normal n normals cw) (fun j => 1 / rmax_list (cw_ j)) (1 / rmax_list cw)) ->
  exists out_ out,
    (forall j, command (magnitude_ j) (Some (s_ j)) conv_of (position_ j) (env_ j) trees = Ok (out_ j)) /\
    command magnitude (Some s) conv_of position env trees = Ok out /\ cvv out_ out.
Proof.
  cbv zeta. intros orth0 pick sort power radius max_repulsion n position_ base_ position base trees s_ s conv_of conv_ conv
    magnitude_ magnitude env_ env relative_ relative SC_ SC CB CT CW FULL CV_ CV EB CM CR RL_ RL SP.
  set (angle_of := angle_space pick) in *.
  destruct (dying_follow orth0 pick sort power radius max_repulsion n position_ base_ position base trees SC_ SC CB) with (s_ := conv_) (s := conv) as
    (final_ & normals_ & cw_ & records_ & fv_ & final & normals & cw & records & fv & all & weights & m & E_ & E & EF & Cf & NF & EN & LA & LC & CC & EW & RZ & NW); auto.
  { intros t ws_ rs_ rec_ ws rs rec I D_ D. destruct (CT t ws_ rs_ rec_ ws rs rec I D_ D) as (A & B & C & _). auto. }
  { intros j. apply CV_. }
  fold angle_of in E_, E.
  set (hj := fun j => h angle_of power radius max_repulsion (position_ j) (base_ j)). set (h0 := h angle_of power radius max_repulsion position base).
  assert (FACT : forall p b c, scene orth0 angle_of pick sort power radius max_repulsion n p b trees -> get_end_vector c = Ok b ->
    forall f ns w rs v, evaluate_avoidance orth0 angle_of (get_projected_tangent pick) sort power radius max_repulsion p c trees = Ok (f, ns, w, rs) -> get_end_vector f = Ok v ->
    length v = n /\ unitv v /\ nonneg w /\ rsum w <= 1 /\ (w <> [] -> 0 < rsum w) /\ length ns = length w /\ rs <> [] /\
    (forall r c, In (r, c) rs -> 0 <= r <= 1 /\ -1 <= c <= 1) /\ rs = map (fun t => snd (h angle_of power radius max_repulsion p b t)) trees).
  { intros p b c S Eb f ns w rs v Ev Ef.
    destruct (evaluate_avoidance_ok _ _ _ _ _ _ _ _ _ _ _ _ S Eb) as (tt & data & f' & ns' & w' & v' & Ed & Ev' & _ & _ & _ & _ & _ & _ & _ & _ & Ef' & Uv & Lv & Nw & Sw & Pw & Ln & _ & Nd & Rr).
    rewrite Ev' in Ev. injection Ev as <- <- <- <-. rewrite Ef' in Ef. injection Ef as <-.
    do 6 (split; auto). split; [|split; auto].
    - intros Z. apply Nd. destruct data; [auto|discriminate].
    - rewrite (mapM_h angle_of power radius max_repulsion p b trees) in Ed.
      + injection Ed as <-. apply map_map.
      + intros t I. destruct (h_ok _ _ _ _ _ _ _ _ _ _ _ S t I) as (ws & rs & rec & D & _). eauto. }
  pose proof (fun j => FACT (position_ j) (base_ j) (conv_ j) (SC_ j) (proj2 (CV_ j)) _ _ _ _ _ (proj1 (E_ j)) (proj2 (E_ j))) as F_.
  pose proof (FACT position base conv SC EB _ _ _ _ _ E EF) as F.
  destruct F as (Lf & Uf & Nw & Sw & Pw & Ln & NR & Rr & ER). destruct (NF) as [LN FN].
  destruct (SP cw_ final normals cw records fv) as [NE PACE]; auto; [intros j; exists (final_ j), (normals_ j), (records_ j); apply E_|]. clear SP.
  assert (UN : forall v, In v all -> length v = n).
  { intros v I. apply In_nth with (d := []) in I as (k & Hk & <-). apply (FN k Hk). }
  assert (AV : averaged_normal n normals cw = averaged_normal n all weights) by (rewrite EN, EW; apply select_average; auto).
  assert (MX : rmax_list cw = rmax_list weights) by (rewrite EW; apply select_max; auto; rewrite <- EW; auto).
  assert (TR : forall t, In t trees -> Un_cv (fun j => fst (snd (hj j t))) (fst (snd (h0 t))) /\ Un_cv (fun j => snd (snd (hj j t))) (snd (snd (h0 t))) /\ snd (h0 t) <> (0, 1)).
  { intros t I. destruct (h_ok _ _ _ _ _ _ _ _ _ _ _ SC t I) as (ws & rs & rec & D & D' & _).
    assert (Q : forall j, tree_data angle_of power radius max_repulsion (position_ j) (base_ j) t = Ok (t, snd (fst (fst (hj j t))), snd (fst (hj j t)), snd (hj j t))).
    { intros j. destruct (h_ok _ _ _ _ _ _ _ _ _ _ _ (SC_ j) t I) as (ws' & rs' & rec' & D1 & D2 & _). unfold hj. rewrite D2. auto. }
    destruct (CT t _ _ _ ws rs rec I Q D) as (_ & _ & _ & A & B & C). unfold h0. rewrite D'. auto. }
  destruct (C173_scaled_velocity n magnitude_ relative_ fv_ normals_ cw_ records_ magnitude relative fv all weights records) as (out_ & out & O_ & O & CO); auto.
  - intros j. destruct (F_ j) as (A & B & _). auto.
  - intros j. destruct (F_ j) as (_ & _ & A & B & _ & C & _). rewrite <- C, LN. auto.
  - intros _. replace (rsum weights) with (rsum cw) by (rewrite EW; apply select_sum; auto). auto.
  - intros j. apply (F_ j).
  - intros j. destruct (F_ j) as (_ & _ & _ & _ & _ & _ & _ & _ & ->). rewrite ER, !map_length. auto.
  - intros j. apply (F_ j).
  - intros k Hk. rewrite ER, map_length in Hk. destruct trees as [|t0 ts] eqn:Et; [simpl in Hk; lia|]. rewrite <- Et in *.
    assert (X : forall p b, nth k (map (fun t => snd (h angle_of power radius max_repulsion p b t)) trees) (0, 0) = snd (h angle_of power radius max_repulsion p b (nth k trees t0))).
    { intros p b. rewrite (nth_indep _ _ (snd (h angle_of power radius max_repulsion p b t0))) by (rewrite map_length; auto). rewrite (map_nth (fun t => snd (h angle_of power radius max_repulsion p b t))). auto. }
    destruct (TR (nth k trees t0)) as (A & B & _); [apply nth_In; auto|]. rewrite ER, X. split.
    + apply cv_ext with (2 := A). intros j. destruct (F_ j) as (_ & _ & _ & _ & _ & _ & _ & _ & ->). rewrite X. reflexivity.
    + apply cv_ext with (2 := B). intros j. destruct (F_ j) as (_ & _ & _ & _ & _ & _ & _ & _ & ->). rewrite X. reflexivity.
  - rewrite ER. intros I. apply in_map_iff in I as (t & Q & I). destruct (TR t I) as (_ & _ & N). contradiction.
  - rewrite <- AV, <- MX. auto.
  - exists out_, out. split; [|split; auto].
    + intros j. unfold evaluate_sequence. destruct trees; [exfalso; apply NR; rewrite ER; auto|]. rewrite (RL_ j), (proj1 (CV_ j)). cbn [bind]. rewrite (proj1 (E_ j)). cbn [bind]. rewrite (proj2 (E_ j)). cbn [bind]. apply O_.
    + unfold evaluate_sequence. destruct trees; [exfalso; apply NR; rewrite ER; auto|]. rewrite RL, CV. cbn [bind]. rewrite E. cbn [bind]. rewrite EF. cbn [bind].
      rewrite EN, EW, scaled_select; auto; [rewrite Lf; auto|rewrite <- EW; auto].
Qed.

(** ** Banks to the left and below: the robot turns until it moves straight away from the left one *)
Definition bank_comp (nn : vec) (g : R) : bcomp :=
  mkB (mkComp (fun _ => g) (fun _ => nn) (fun _ => vscale (-1) nn) [0; 0] [0; 0] (fun _ _ => Some [1; 0]) false) false.
Definition bank (nn : vec) (g : R) : btree := mkBTree [bank_comp nn g] 0 (fun _ => None).
Lemma bank_walk nn g : 1 < g -> exists s, branch_walk [3; 3] 0 (bank nn g) = Ok (mkWalk [0%nat] [nn] [vscale (-1) nn] s).
Proof.
  intros H. eexists. unfold branch_walk, branch_walk_upto. simpl. rewrite (proj2 (Rltb_true 1 g) H). reflexivity.
Qed.
Lemma bank_populate base D : length base = 2%nat -> unitv base ->
  (forall d, In d D -> exists nn g ws rs, 1 < g /\ 0 <= dot nn base /\ d = (bank nn g, ws, rs)) ->
  forall pt obs tt0 tt nodes normals, constant base tt0 ->
  populate_all pt tt0 [3; 3] base obs D = Ok (tt, nodes, normals) -> constant base tt.
Proof.
  intros L U HD pt. induction D as [|d D IH]; intros obs tt0 tt nodes normals C0 Ep; cbn [populate_all] in Ep.
  - injection Ep as <- _ _. auto.
  - destruct (HD d (or_introl eq_refl)) as (nn & g & ws & rs & Hg & Hb & ->).
    destruct (populate_tree pt tt0 [3; 3] base (bank nn g) obs ws rs) as [((t1, k1), n1)|] eqn:E1; [|discriminate]. cbn [bind] in Ep.
    destruct (populate_all pt t1 [3; 3] base (obs + 1) D) as [((t2, k2), n2)|] eqn:E2; [|discriminate]. cbn [bind] in Ep.
    injection Ep as <- _ _. eapply IH; [intros; apply HD; right; auto| |exact E2]. clear E2 IH.
    unfold populate_tree in E1.
    destruct (lift (add_node tt0 _ base _ None None)) as [t3|] eqn:A1; [|discriminate].
    pose proof (constant_add base tt0 _ _ t3 L U C0 A1) as C1. cbn [bind] in E1.
    change (seq 0 (length (bt_comps (bank nn g)))) with [0%nat] in E1. cbn [populate_components] in E1.
    destruct (Rle_dec (nth 0 ws 0) 0).
    + injection E1 as <- _ _. auto.
    + unfold branch_update in E1. destruct (bank_walk nn g Hg) as (s & W). rewrite W in E1.
      cbn [bind branch_steps branch_nodes w_refs w_ids tl combine rev w_normals] in E1.
      change (get_bcomp (bank nn g) 0) with (Ok (bank_comp nn g)) in E1. cbn [bind nth] in E1.
      change (c_tail (b_comp (bank_comp nn g))) with false in E1. rewrite (proj2 (Rltb_false (dot nn base) 0) Hb) in E1. cbn [orb bind] in E1.
      destruct (lift (add_node t3 _ base _ None None)) as [t4|] eqn:A2; [|discriminate].
      pose proof (constant_add base t3 _ _ t4 L U C1 A2) as C2. cbn [bind] in E1. injection E1 as <- _ _. auto.
Qed.
Lemma bank_tree_fine base tt0 D tt nodes normals : length base = 2%nat -> unitv base -> set_root empty_tree base_vel_id base = Ok tt0 ->
  (forall d, In d D -> exists nn g ws rs, 1 < g /\ 0 <= dot nn base /\ d = (bank nn g, ws, rs)) ->
  populate_all (get_projected_tangent left_of) tt0 [3; 3] base 0 D = Ok (tt, nodes, normals) -> no_opposite tt /\ distinguishable tt.
Proof.
  intros L U E0 HD Ep. assert (C0 : constant base tt0).
  { destruct (set_root_rooted 2 base_vel_id base tt0 ltac:(lia) L E0) as (W0 & N0 & _). split; auto.
    intros x a N. unfold node in N. rewrite N0 in N. destruct N as [N|[]]. injection N as <- <-.
    simpl. rewrite (proj1 (unit_norm _) U). vext. field. }
  destruct (bank_populate base D L U HD (get_projected_tangent left_of) 0%Z tt0 tt nodes normals C0 Ep) as [W C]. split.
  - intros p x a b _ Na Nb. rewrite (C p a Na), (C x b Nb), U. lra.
  - intros p x a b _ Na Nb. left. rewrite (C p a Na), (C x b Nb). auto.
Qed.
Lemma tree_data_tree angle_of power radius mr p b t d : tree_data angle_of power radius mr p b t = Ok d -> exists ws rs rec, d = (t, ws, rs, rec).
Proof.
  unfold tree_data. destruct (convergence_record _ _ _ _ _) as [rec|]; [|discriminate]. cbn [bind].
  destruct (tree_gamma_and_weights _ _ _ _ _) as [(?, ?)|]; [|discriminate]. cbn [bind].
  destruct (tree_obstacle_weights _ _ _ _ _) as [ws|]; [|discriminate]. cbn [bind].
  destruct (tree_radiuses _ _ _ _ _) as [rs|]; [|discriminate]. cbn [bind]. intros H. injection H as <-. eauto.
Qed.
Lemma bank_scene orth0 angle_of power base bs : (forall v, length (orth0 v) = length v) -> 0 <= power ->
  length base = 2%nat -> unitv base -> bs <> [] -> (forall b, In b bs -> length (fst b) = 2%nat /\ unitv (fst b) /\ 1 < snd b /\ 0 <= dot (fst b) base) ->
  scene orth0 angle_of left_of sort_by_level power (PI * / 2) None 2 [3; 3] base (map (fun b => bank (fst b) (snd b)) bs).
Proof.
  intros Ho Hp L U NE HG. pose proof PI_RGT_0 as HP.
  assert (IN : forall t, In t (map (fun b => bank (fst b) (snd b)) bs) -> exists nn g, length nn = 2%nat /\ unitv nn /\ 1 < g /\ 0 <= dot nn base /\ t = bank nn g).
  { intros t I. apply in_map_iff in I as (b & <- & I). destruct (HG b I) as (A & B & C & D). exists (fst b), (snd b). auto 10. }
  assert (UV : forall nn, unitv nn -> unitv (vscale (-1) nn)) by (intros nn Q; unfold unitv in *; rewrite dot_vscale_l, dot_vscale_r, Q; ring).
  constructor; auto.
  - apply sort_by_level_sorted.
  - destruct bs; [contradiction|discriminate].
  - apply picks_2d.
  - intros t I. destruct (IN t I) as (nn & g & _ & _ & Hg & _ & ->). split; [simpl; lia|]. simpl. intros i Hi Ni. lia.
  - intros i j d Hi Hj Ci _. exfalso. destruct (IN _ (nth_In _ d Hi)) as (nn & g & _ & _ & Hg & _ & E). rewrite E in Ci.
    unfold in_contact, tree_gammas in Ci. destruct Ci as (x & [<-|[]] & Hx). cbn in Hx. lra.
  - intros t c I Ic. destruct (IN t I) as (nn & g & Ln & Un & Hg & _ & ->). destruct Ic as [<-|[]]. cbn [b_comp bank_comp c_refdir]. split; [rewrite length_vscale; auto|apply (UV nn Un)].
  - intros t c p I Ic. destruct (IN t I) as (nn & g & Ln & Un & Hg & _ & ->). destruct Ic as [<-|[]]. auto.
  - intros t i I Hi. destruct (IN t I) as (nn & g & Ln & Un & Hg & _ & ->). simpl in Hi. replace i with 0%nat by lia. destruct (bank_walk nn g Hg) as (s & W). eexists. split; [exact W|].
    cbn [w_refs linkable]. split; [rewrite length_vscale; auto|]. split; [|auto]. change (norm (vscale (-1) nn) <> 0). rewrite (proj1 (unit_norm _) (UV nn Un)). lra.
  - lra.
  - discriminate.
  - intros t c _ _ _ N. contradiction.
  - intros tt0 tt data nodes normals E0 Ed Ep. apply (bank_tree_fine base tt0 (map fst data) tt nodes normals); auto.
    revert data Ed Ep IN. generalize (map (fun b => bank (fst b) (snd b)) bs) as ts. clear. intros ts data Ed _ IN. revert data Ed.
    induction ts as [|t ts IH]; intros data Ed; cbn [mapM] in Ed; [injection Ed as <-; intros d []|].
    destruct (tree_data angle_of power (PI * / 2) None [3; 3] base t) as [d1|] eqn:E1; [|discriminate]. cbn [bind] in Ed.
    destruct (mapM _ ts) as [ds|] eqn:E2; [|discriminate]. cbn [bind] in Ed. injection Ed as <-.
    intros d [<-|I]; [|apply (IH (fun t' I' => IN t' (or_intror I')) ds eq_refl d I)].
    destruct (IN t (or_introl eq_refl)) as (nn & g & _ & _ & Hg & Hb & ->). destruct (tree_data_tree _ _ _ _ _ _ _ _ E1) as (ws & rs & rec & ->).
    exists nn, g, ws, rs. auto.
Qed.
Notation turn_weight nn g base := (get_rotation_weight (angle_space left_of) nn (vscale (-1) nn) base g (PI * / 2) 1 (PI * / 2)).
Lemma bank_data nn g base d : unitv base -> 1 < g ->
  tree_data (angle_space left_of) 1 (PI * / 2) None [3; 3] base (bank nn g) = Ok d ->
  exists w, turn_weight nn g base = Ok w /\ d = (bank nn g, [w], [PI * / 2], (w, dot base (vscale (-1) nn))) /\
    tree_obstacle_weights (angle_space left_of) [3; 3] base 1 (mtree_of (bank nn g)) = Ok [w].
Proof.
  intros U Hg E. unfold tree_data in E. destruct (convergence_record _ _ _ _ _) as [rec|] eqn:Erec; [|discriminate]. cbn [bind] in E.
  unfold convergence_record in Erec. change (get_component (mtree_of (bank nn g)) (m_root (mtree_of (bank nn g)))) with (Ok (b_comp (bank_comp nn g))) in Erec. cbn [bind] in Erec.
  change (tree_gammas [3; 3] (mtree_of (bank nn g))) with [g] in Erec. cbv iota in Erec. change (rmin_list [g]) with g in Erec.
  change (c_normal (b_comp (bank_comp nn g)) [3; 3]) with nn in Erec. change (c_refdir (b_comp (bank_comp nn g)) [3; 3]) with (vscale (-1) nn) in Erec.
  destruct (turn_weight nn g base) as [w|] eqn:Ew; [|discriminate]. cbn [bind] in Erec. rewrite (proj1 (unit_norm _) U) in Erec. destruct (Req_EM_T 1 0); [lra|]. injection Erec as <-.
  replace (vdiv base 1) with base in E by (vext; field). exists w. split; auto.
  assert (D : compute_weights_from_distances [g] 1 false = Ok [1 / (g - 1)]).
  { unfold compute_weights_from_distances, count_le. cbn [filter]. rewrite (proj2 (Rleb_false g 1)) by lra. cbn [length Nat.ltb Nat.leb mapM]. unfold fdiv. destruct (Req_EM_T (g - 1) 0); [lra|]. reflexivity. }
  assert (G : exists g', tree_gamma_and_weights (angle_space left_of) [3; 3] base 1 (mtree_of (bank nn g)) = Ok ([g'], [w])).
  { unfold tree_gamma_and_weights. change (tree_gammas [3; 3] (mtree_of (bank nn g))) with [g]. rewrite D. cbn [bind].
    change (get_component (mtree_of (bank nn g)) (m_root (mtree_of (bank nn g)))) with (Ok (b_comp (bank_comp nn g))). cbn [bind]. change (rmin_list [g]) with g.
    change (c_normal (b_comp (bank_comp nn g)) [3; 3]) with nn. change (c_refdir (b_comp (bank_comp nn g)) [3; 3]) with (vscale (-1) nn). rewrite Ew. cbn [bind].
    unfold compute_gamma_and_weights. rewrite D. cbn [bind]. assert (P : 0 < 1 / (g - 1)) by (apply Rdiv_lt_0_compat; lra).
    replace (rsum [1 / (g - 1)]) with (1 / (g - 1)) by (simpl; ring). rewrite (proj2 (Reqb_false (1 / (g - 1)) 0)) by lra. cbn [orb].
    destruct (Reqb w 0) eqn:Z; [apply Reqb_true in Z; subst w; exists 1; auto|]. exists g. cbn [map]. do 3 f_equal. field. lra. }
  destruct G as (g' & G). rewrite G in E. cbn [bind] in E.
  assert (T : tree_obstacle_weights (angle_space left_of) [3; 3] base 1 (mtree_of (bank nn g)) = Ok [w]).
  { unfold tree_obstacle_weights. rewrite G. cbn [bind]. change (compute_parent_occlusion_weight [3; 3] (mtree_of (bank nn g))) with (Ok [1]). cbn [bind combine map fst snd]. do 2 f_equal. ring. }
  rewrite T in E. cbn [bind] in E. unfold tree_radiuses in E. cbn [combine mapM bind bt_comps bank] in E.
  rewrite C27_repulsion_disabled in E. cbn [bind map] in E. injection E as <-. auto.
Qed.
Lemma bank_weight nn g base : length nn = 2%nat -> length base = 2%nat -> unitv nn -> unitv base -> 1 < g -> 0 <= dot base nn ->
  exists w, turn_weight nn g base = Ok w /\ (dot base nn < 1 -> 0 < w) /\ (dot base nn = 1 -> w = 0) /\ (dot base nn = 0 -> w = 1 / g).
Proof.
  intros Ln Lb Un Ub Hg H. pose proof PI_RGT_0 as HP.
  assert (UV : unitv (vscale (-1) nn)) by (unfold unitv in *; rewrite dot_vscale_l, dot_vscale_r, Un; ring).
  unfold get_rotation_weight. destruct (Rle_dec g 1); [lra|]. replace (cos (PI * / 2)) with 0 by (symmetry; apply cos_PI2). cbv zeta.
  replace (vscale (-1) (vscale (-1) nn)) with nn by (vext; ring). rewrite Rmin_left by lra.
  assert (Z : forall m, length m = 2%nat -> unitv m -> norm (angle_space left_of m m) = 0 /\ norm (vsub (angle_space left_of m m) (angle_space left_of m base)) = acos (dot m base)).
  { intros m Lm Um. destruct (angle_space_spec 2 left_of picks_2d m m Lm Lm Um Um) as (L1 & _ & N1). destruct (angle_space_spec 2 left_of picks_2d m base Lm Lb Um Ub) as (L2 & _ & N2).
    rewrite Um, acos_1 in N1. split; auto. rewrite <- N2. assert (E0 : forall i, nth i (angle_space left_of m m) 0 = 0).
    { intros i. apply norm_eq_0_dot in N1. apply dot_self_zero in N1. rewrite N1. apply nth_vzero. }
    replace (vsub (angle_space left_of m m) (angle_space left_of m base)) with (vscale (-1) (angle_space left_of m base)).
    - rewrite norm_vscale. replace (Rabs (-1)) with 1 by (rewrite Rabs_left; lra). ring.
    - apply vec_ext; [autorewrite with vlen; lia|]. intros i. rewrite nth_vscale, nth_vsub, E0. ring. }
  assert (B1 : -1 <= dot base nn <= 1) by (apply unit_dot_bounds; auto).
  destruct (Rltb 0 (dot base nn)) eqn:E.
  - apply Rltb_true in E. destruct (Z nn Ln Un) as [-> ->]. rewrite (dot_comm nn base), Rminus_0_r. assert (A : acos (dot base nn) < PI / 2) by (apply acos_lt_of_cos; [lra|lra|rewrite cos_PI2; lra]).
    destruct (Rle_dec _ _); [lra|]. destruct (Req_EM_T (acos (dot base nn)) 0) as [Q|Q].
    + destruct (Req_EM_T 1 0); [lra|]. destruct (Rlt_dec 0 1); [|lra]. exists 0. split; auto. split; [|split; auto; lra].
      intros K. exfalso. assert (C : cos (acos (dot base nn)) = 1) by (rewrite Q; apply cos_0). rewrite cos_acos in C by lra. lra.
    + assert (A0 : 0 <= acos (dot base nn)) by apply acos_bound. unfold fpow at 1.
      destruct (Rlt_dec 0 (PI * / 2 / acos (dot base nn))) as [_|K]; [|exfalso; apply K; apply Rdiv_lt_0_compat; lra]. cbn [bind]. unfold fpow.
      destruct (Rlt_dec 0 (1 / g)) as [_|K]; [|exfalso; apply K; apply Rdiv_lt_0_compat; lra]. eexists. split; [reflexivity|]. split; [intros _; apply Rpower_pos|]. split; [|lra].
      intros K. exfalso. apply Q. rewrite K. apply acos_1.
  - apply Rltb_false in E. assert (Q : dot base nn = 0) by lra. destruct (Z (vscale (-1) nn)) as [-> ->]; auto; [rewrite length_vscale; auto|].
    rewrite dot_vscale_l, (dot_comm nn base), Q. replace (-1 * 0) with 0 by ring. rewrite acos_0, Rminus_0_r. destruct (Rle_dec _ _) as [_|K]; [|exfalso; apply K; lra].
    exists (1 / g). split; auto. split; [intros _; apply Rdiv_lt_0_compat; lra|]. split; [lra|auto].
Qed.
Lemma bank_follow nn g base_ base : length nn = 2%nat -> unitv nn -> 1 < g -> (forall j, length (base_ j) = 2%nat /\ unitv (base_ j)) -> length base = 2%nat -> unitv base ->
  cvv base_ base -> (forall j, 0 <= dot (base_ j) nn) -> 0 <= dot base nn ->
  forall ws_ rs_ rec_ ws rs rec,
  (forall j, tree_data (angle_space left_of) 1 (PI * / 2) None [3; 3] (base_ j) (bank nn g) = Ok (bank nn g, ws_ j, rs_ j, rec_ j)) ->
  tree_data (angle_space left_of) 1 (PI * / 2) None [3; 3] base (bank nn g) = Ok (bank nn g, ws, rs, rec) ->
  cvv ws_ ws /\ ((forall j, dot (base_ j) nn < 1) -> same_sign ws_ (ws_ 0%nat)) /\
  (forall i, (i < length (bt_comps (bank nn g)))%nat -> calm (fun _ => [3; 3]) base_ [3; 3] base (bank nn g) i (fun j => nth i (rs_ j) 0) (nth i rs 0)) /\
  Un_cv (fun j => fst (rec_ j)) (fst rec) /\ Un_cv (fun j => snd (rec_ j)) (snd rec) /\ rec <> (0, 1).
Proof.
  intros Ln Un Hg Ub_ Lb Ub Cb P_ P ws_ rs_ rec_ ws rs rec D_ D.
  apply bank_data in D as (w & Ew & Q & _); auto. injection Q as -> -> ->.
  assert (Lr : length (vscale (-1) nn) = 2%nat) by (rewrite length_vscale; auto).
  assert (Ur : unitv (vscale (-1) nn)) by (unfold unitv in *; rewrite dot_vscale_l, dot_vscale_r, Un; ring).
  destruct (C172_rotation_weight 2 left_of 1 (fun _ => nn) (fun _ => vscale (-1) nn) base_ (fun _ => g) nn (vscale (-1) nn) base g) as (w_ & w' & W_ & W & CW); auto; try apply cvv_const; try apply cv_const; try lra.
  { apply picks_2d. }
  { rewrite dot_vscale_l, Un. lra. }
  rewrite Ew in W. injection W as <-.
  assert (F : forall j, ws_ j = [w_ j] /\ rs_ j = [PI * / 2] /\ rec_ j = (w_ j, dot (base_ j) (vscale (-1) nn)) /\ (dot (base_ j) nn < 1 -> 0 < w_ j)).
  { intros j. specialize (D_ j). destruct (Ub_ j) as [A B]. apply bank_data in D_ as (v & Ev & Q & _); auto. rewrite W_ in Ev. injection Ev as <-. injection Q as -> -> ->.
    do 3 (split; auto). destruct (bank_weight nn g (base_ j) Ln A Un B Hg (P_ j)) as (v & Ev & K & _). rewrite W_ in Ev. injection Ev as <-. auto. }
  split; [apply cvv_ext with (fun j => [w_ j]); [intros j; symmetry; apply F|]; intros [|[|i]]; cbn [nth]; auto; apply cv_const|].
  split; [intros P1 j i; destruct (F j) as (-> & _ & _ & A), (F 0%nat) as (-> & _ & _ & B); specialize (A (P1 j)); specialize (B (P1 0%nat)); destruct i as [|[|i]]; cbn [nth]; tauto|].
  split; [|split; [|split]].
  - intros i Hi. simpl in Hi. replace i with 0%nat by lia. destruct (bank_walk nn g Hg) as (s & Wk).
    exists (fun _ => mkWalk [0%nat] [nn] [vscale (-1) nn] s), (mkWalk [0%nat] [nn] [vscale (-1) nn] s), (bank_comp nn g).
    split; [auto|]. split; [auto|]. split; [reflexivity|]. cbn [w_refs w_normals nth]. split; [intros k; apply cvv_const|]. split; [apply cvv_const|].
    split; [intros j k Hk; simpl in Hk; lia|]. split; [intros k Hk; simpl in Hk; lia|].
    split; [apply cv_ext with (fun _ => PI * / 2); [intros j; destruct (F j) as (_ & -> & _); auto|apply cv_const]|].
    split; [intros j; destruct (F j) as (_ & -> & _); cbn [nth]; tauto|].
    unfold brought, branch_steps. cbn [w_refs tl w_ids combine rev fold_left]. rewrite (dot_comm nn base).
    split; [right; intros j; rewrite (dot_comm nn (base_ j)); pose proof (P_ j); split; intros; lra|].
    intros [Q|Q]; [discriminate|lra].
  - cbn [fst]. apply cv_ext with w_; auto. intros j. destruct (F j) as (_ & _ & -> & _). auto.
  - cbn [snd]. apply cv_ext with (fun j => dot (base_ j) (vscale (-1) nn)); [intros j; destruct (F j) as (_ & _ & -> & _); auto|].
    apply (cv_dot 2); auto; [intros j; rewrite (proj1 (Ub_ j)); lia|lia|apply cvv_const].
  - intros Q. injection Q as _ Q. rewrite dot_vscale_r in Q. lra.
Qed.
Lemma seg_one g w : 0 < w -> seg g [w] = [g w].
Proof.
  intros H. unfold seg, positive_normalised. cbn [filter]. rewrite (proj2 (Rltb_true 0 w) H). cbn [map]. replace (rsum [w]) with w by (simpl; ring). f_equal. field. lra.
Qed.
(** The direction at the angle [a]. *)
Definition heading (a : R) : vec := [cos a; sin a].
Lemma heading_facts a : 0 < a <= 1 -> length (heading a) = 2%nat /\ unitv (heading a) /\ 0 < cos a < 1 /\ 0 < sin a < 1.
Proof.
  intros H. pose proof PI2_1 as HP. split; auto. pose proof (sin2_cos2 a) as Q. unfold Rsqr in Q.
  split; [unfold unitv, heading, dot; simpl; lra|]. assert (C : 0 < cos a) by (apply cos_gt_0; lra). assert (S : 0 < sin a) by (apply sin_gt_0; lra). nra.
Qed.
Lemma heading_cv : cvv (fun j => heading (dying j)) [1; 0].
Proof.
  unfold heading. intros [|[|i]]; cbn [nth]; [| |destruct i; apply cv_const].
  - pose proof (cv_cos _ _ dying_cv) as Q. rewrite cos_0 in Q. exact Q.
  - pose proof (cv_sin _ _ dying_cv) as Q. rewrite sin_0 in Q. exact Q.
Qed.
Lemma far_relative : compute_multiobstacle_relative_velocity [3; 3] [] = Ok (vzero 2).
Proof. unfold compute_multiobstacle_relative_velocity, compute_gamma_weights. simpl. destruct (Rle_dec 0 1); reflexivity. Qed.
Lemma bank_full base data tt0 u keys ns bs base0 : length base = 2%nat -> unitv base -> (forall b, In b bs -> 1 < snd b /\ 0 <= dot (fst b) base) ->
  Forall2 (fun t d => exists ws0 rs0 rec0 ws rs rec, tree_data (angle_space left_of) 1 (PI * / 2) None [3; 3] base0 t = Ok (t, ws0, rs0, rec0) /\
    tree_data (angle_space left_of) 1 (PI * / 2) None [3; 3] base t = Ok (t, ws, rs, rec) /\ d = (t, ws0, rs)) (map (fun b => bank (fst b) (snd b)) bs) data ->
  set_root empty_tree base_vel_id base = Ok tt0 -> populate_all (get_projected_tangent left_of) tt0 [3; 3] base 0 data = Ok (u, keys, ns) ->
  no_opposite u /\ distinguishable u.
Proof.
  intros L U H F E0 P. apply (bank_tree_fine base tt0 data u keys ns); auto. clear P E0 tt0 u keys ns. revert data F. induction bs as [|b bs IH]; intros data F; inversion F as [|t d ts ds Q F' E1 E2]; subst; [intros d []|].
  intros x [<-|I].
  - destruct Q as (ws0 & rs0 & rec0 & ws & rs & rec & _ & _ & ->). destruct (H b (or_introl eq_refl)) as [A B]. exists (fst b), (snd b), ws0, rs. auto.
  - apply (IH (fun b I => H b (or_intror I)) ds F' x I).
Qed.
(** At the limit the lower bank has the weight 1/2 and the left one none. *)
Lemma bank_pace orth0 s : (forall v, length (orth0 v) = length v) -> get_end_vector s = Ok [1; 0] -> forall g_ final normals cw records fv,
  evaluate_avoidance orth0 (angle_space left_of) (get_projected_tangent left_of) sort_by_level 1 (PI * / 2) None [3; 3] s [bank [1; 0] 2; bank [0; 1] 2] = Ok (final, normals, cw, records) ->
  get_end_vector final = Ok fv -> cw <> [] /\ steady_pace fv (averaged_normal 2 normals cw) g_ (1 / rmax_list cw).
Proof.
  intros Ho Es g_ final normals cw records fv Ev Ef. set (bs := [([1; 0], 2); ([0; 1], 2)]).
  assert (U1 : unitv [1; 0]) by (unfold unitv, dot; simpl; ring). assert (U2 : unitv [0; 1]) by (unfold unitv, dot; simpl; ring).
  assert (Z1 : dot [1; 0] [1; 0] = 1) by (unfold dot; simpl; ring). assert (Z2 : dot [1; 0] [0; 1] = 0) by (unfold dot; simpl; ring). assert (Z3 : dot [0; 1] [1; 0] = 0) by (unfold dot; simpl; ring).
  destruct (bank_weight [1; 0] 2 [1; 0]) as (wa & Ea & _ & Ka & _); auto; try lra. rewrite Ka in Ea by auto.
  destruct (bank_weight [0; 1] 2 [1; 0]) as (wb & Eb & _ & _ & Kb); auto; try lra. rewrite Kb in Eb by auto.
  assert (SC : scene orth0 (angle_space left_of) left_of sort_by_level 1 (PI * / 2) None 2 [3; 3] [1; 0] (map (fun b => bank (fst b) (snd b)) bs)).
  { apply bank_scene; auto; try lra; [discriminate|]. intros b [<-|[<-|[]]]; cbn [fst snd]; rewrite ?Z1, ?Z3; do 2 (split; auto); lra. }
  assert (W1 : forall d, tree_data (angle_space left_of) 1 (PI * / 2) None [3; 3] [1; 0] (bank [1; 0] 2) = Ok d -> snd (fst (fst d)) = [0] /\ tree_obstacle_weights (angle_space left_of) [3; 3] [1; 0] 1 (mtree_of (bank [1; 0] 2)) = Ok [0]).
  { intros d Ed. apply bank_data in Ed as (w & Ew & -> & Et); auto; try lra. rewrite Ea in Ew. injection Ew as <-. auto. }
  assert (W2 : forall d, tree_data (angle_space left_of) 1 (PI * / 2) None [3; 3] [1; 0] (bank [0; 1] 2) = Ok d -> snd (fst (fst d)) = [1 / 2] /\ tree_obstacle_weights (angle_space left_of) [3; 3] [1; 0] 1 (mtree_of (bank [0; 1] 2)) = Ok [1 / 2]).
  { intros d Ed. apply bank_data in Ed as (w & Ew & -> & Et); auto; try lra. rewrite Eb in Ew. injection Ew as <-. auto. }
  destruct (evaluate_avoidance_ok _ _ _ _ _ _ _ _ _ _ _ _ SC Es) as (tt & data & f' & ns' & w' & v' & Ed & Ev' & _ & _ & _ & _ & _ & _ & Ecl & _ & Ef' & Uv & Lv & Nw & Sw & Pw & Lnn & Unn & _).
  change [bank [1; 0] 2; bank [0; 1] 2] with (map (fun b => bank (fst b) (snd b)) bs) in Ev. rewrite Ev' in Ev. injection Ev as <- <- <- _. rewrite Ef' in Ef. injection Ef as <-.
  unfold bs in Ed. cbn [map mapM fst snd] in Ed.
  destruct (tree_data_ok _ _ _ _ _ _ _ _ _ _ (bank [1; 0] 2) _ SC) as (x1 & y1 & z1 & X1 & _); [left; auto|]. destruct (tree_data_ok _ _ _ _ _ _ _ _ _ _ (bank [0; 1] 2) _ SC) as (x2 & y2 & z2 & X2 & _); [right; left; auto|].
  rewrite X1 in Ed. cbn [bind] in Ed. rewrite X2 in Ed. cbn [bind] in Ed. injection Ed as <-. pose proof (proj1 (W1 _ X1)) as V1. pose proof (proj1 (W2 _ X2)) as V2. cbn [fst snd] in V1, V2. subst x1 x2.
  cbn [map fst snd] in Ecl. apply cluster_form in Ecl. cbn [flat_map map] in Ecl.
  rewrite seg_zero in Ecl by (intros x [<-|[]]; auto). rewrite seg_one in Ecl by lra. cbn [app] in Ecl.
  assert (Ph : phi [rsum [0]; rsum [1 / 2]] (1 / 2) = 1 / 2) by (unfold phi; rewrite (proj2 (Rltb_true _ 1)) by (simpl; lra); auto).
  rewrite Ph in Ecl. subst w'. destruct ns' as [|nv [|? ?]]; try discriminate. destruct (Unn nv (or_introl eq_refl)) as [Lnv Unv].
  split; [discriminate|]. right. right. assert (A : norm (averaged_normal 2 [nv] [1 / 2]) = 1 / 2).
  { unfold averaged_normal. cbn [combine fold_right fst snd]. replace (vadd (vscale (1 / 2) nv) (vzero 2)) with (vscale (1 / 2) nv).
    - rewrite norm_vscale, (proj1 (unit_norm _) Unv), Rabs_right by lra. ring.
    - apply vec_ext; [rewrite length_vadd, length_vscale; unfold vzero; rewrite ?repeat_length; lia|]. intros i. rewrite nth_vadd, nth_vzero. ring. }
  rewrite A. split; [lra|]. left. change (rmax_list [1 / 2]) with (1 / 2). lra.
Qed.
(** Two banks: the weight of the left one dies, the command is continuous. *)
Example C174_case : forall orth0 s_ s, (forall v, length (orth0 v) = length v) ->
  (forall j, get_end_vector (s_ j) = Ok (heading (dying j))) -> get_end_vector s = Ok [1; 0] ->
  let command := evaluate_sequence orth0 (angle_space left_of) (get_projected_tangent left_of) sort_by_level 1 (PI * / 2) None 2 in
  (forall j, exists w, turn_weight [1; 0] 2 (heading (dying j)) = Ok w /\ 0 < w) /\ turn_weight [1; 0] 2 [1; 0] = Ok 0 /\
  exists out_ out, (forall j, command 2 (Some (s_ j)) (fun s => Ok s) [3; 3] [] [bank [1; 0] 2; bank [0; 1] 2] = Ok (out_ j)) /\
    command 2 (Some s) (fun s => Ok s) [3; 3] [] [bank [1; 0] 2; bank [0; 1] 2] = Ok out /\ cvv out_ out.
Proof.
  intros orth0 s_ s Ho Es_ Es. cbv zeta. set (bs := [([1; 0], 2); ([0; 1], 2)]).
  assert (U1 : unitv [1; 0]) by (unfold unitv, dot; simpl; ring). assert (U2 : unitv [0; 1]) by (unfold unitv, dot; simpl; ring).
  pose proof (fun j => heading_facts (dying j) (dying_range j)) as H.
  assert (D1 : forall a, dot (heading a) [1; 0] = cos a) by (intros a; unfold heading, dot; simpl; ring). assert (D2 : forall a, dot (heading a) [0; 1] = sin a) by (intros a; unfold heading, dot; simpl; ring).
  assert (Z1 : dot [1; 0] [1; 0] = 1) by (unfold dot; simpl; ring). assert (Z2 : dot [1; 0] [0; 1] = 0) by (unfold dot; simpl; ring). assert (Z3 : dot [0; 1] [1; 0] = 0) by (unfold dot; simpl; ring).
  destruct (bank_weight [1; 0] 2 [1; 0]) as (wa & Ea & _ & Ka & _); auto; try lra. rewrite Ka in Ea by auto.
  destruct (bank_weight [0; 1] 2 [1; 0]) as (wb & Eb & _ & _ & Kb); auto; try lra. rewrite Kb in Eb by auto.
  split; [|split; [exact Ea|]].
  { intros j. destruct (H j) as (A & B & C & _). destruct (bank_weight [1; 0] 2 (heading (dying j))) as (w & E & K & _); auto; try lra; [rewrite D1; lra|]. exists w. split; auto. apply K. rewrite D1. lra. }
  assert (SC_ : forall j, scene orth0 (angle_space left_of) left_of sort_by_level 1 (PI * / 2) None 2 [3; 3] (heading (dying j)) (map (fun b => bank (fst b) (snd b)) bs)).
  { intros j. destruct (H j) as (A & B & C & C'). apply bank_scene; auto; try lra; [discriminate|]. intros b [<-|[<-|[]]]; cbn [fst snd]; rewrite dot_comm, ?D1, ?D2; do 2 (split; auto); lra. }
  assert (SC : scene orth0 (angle_space left_of) left_of sort_by_level 1 (PI * / 2) None 2 [3; 3] [1; 0] (map (fun b => bank (fst b) (snd b)) bs)).
  { apply bank_scene; auto; try lra; [discriminate|]. intros b [<-|[<-|[]]]; cbn [fst snd]; rewrite ?Z1, ?Z3; do 2 (split; auto); lra. }
  assert (W1 : forall d, tree_data (angle_space left_of) 1 (PI * / 2) None [3; 3] [1; 0] (bank [1; 0] 2) = Ok d -> snd (fst (fst d)) = [0] /\ tree_obstacle_weights (angle_space left_of) [3; 3] [1; 0] 1 (mtree_of (bank [1; 0] 2)) = Ok [0]).
  { intros d Ed. apply bank_data in Ed as (w & Ew & -> & Et); auto; try lra. rewrite Ea in Ew. injection Ew as <-. auto. }
  assert (W2 : forall d, tree_data (angle_space left_of) 1 (PI * / 2) None [3; 3] [1; 0] (bank [0; 1] 2) = Ok d -> snd (fst (fst d)) = [1 / 2] /\ tree_obstacle_weights (angle_space left_of) [3; 3] [1; 0] 1 (mtree_of (bank [0; 1] 2)) = Ok [1 / 2]).
  { intros d Ed. apply bank_data in Ed as (w & Ew & -> & Et); auto; try lra. rewrite Eb in Ew. injection Ew as <-. auto. }
  apply (C174_velocity orth0 left_of sort_by_level 1 (PI * / 2) None 2 (fun _ => [3; 3]) (fun j => heading (dying j)) [3; 3] [1; 0] (map (fun b => bank (fst b) (snd b)) bs) s_ s
    (fun s => Ok s) s_ s (fun _ => 2) 2 (fun _ => []) [] (fun _ => vzero 2) (vzero 2)); auto.
  - apply heading_cv.
  - intros t ws_ rs_ rec_ ws rs rec I D_ D. assert (K : exists nn, unitv nn /\ t = bank nn 2 /\ length nn = 2%nat /\ (forall j, 0 <= dot (heading (dying j)) nn < 1) /\ 0 <= dot [1; 0] nn).
    { destruct I as [<-|[<-|[]]]; [exists [1; 0]|exists [0; 1]]; cbn [fst snd]; do 3 (split; auto); (split; [intros j; destruct (H j) as (A & B & C & C'); rewrite ?D1, ?D2|]; lra). }
    destruct K as (nn & Un & -> & Ln & P_ & P).
    destruct (bank_follow nn 2 (fun j => heading (dying j)) [1; 0]) with (ws_ := ws_) (rs_ := rs_) (rec_ := rec_) (ws := ws) (rs := rs) (rec := rec) as (A & B & C & E); auto; try lra.
    + intros j. destruct (H j) as (A & B & _). auto.
    + apply heading_cv.
    + intros j. apply P_.
    + split; [auto|]. split; [apply B; intros j; apply P_|]. split; [auto|exact E].
  - intros wss F _. inversion F as [|t1 ws1 ts1 wss1 Q1 F1]; subst. inversion F1 as [|t2 ws2 ts2 wss2 Q2 F2]; subst. inversion F2; subst. cbn [fst snd] in *.
    destruct (tree_data_ok _ _ _ _ _ _ _ _ _ _ (bank [1; 0] 2) _ SC) as (x1 & y1 & z1 & X1 & _); [left; auto|]. destruct (tree_data_ok _ _ _ _ _ _ _ _ _ _ (bank [0; 1] 2) _ SC) as (x2 & y2 & z2 & X2 & _); [right; left; auto|].
    rewrite (proj2 (W1 _ X1)) in Q1. injection Q1 as <-. rewrite (proj2 (W2 _ X2)) in Q2. injection Q2 as <-. simpl. lra.
  - intros data tt0 u keys ns F E0 P. apply (bank_full [1; 0] data tt0 u keys ns bs (heading (dying 0%nat))); auto.
    intros b [<-|[<-|[]]]; cbn [fst snd]; rewrite ?Z1, ?Z3; lra.
  - apply cv_const.
  - apply cvv_const.
  - intros j. apply far_relative.
  - apply far_relative.
  - intros cw_ final normals cw records fv _ Ev Ef. apply (bank_pace orth0 s Ho Es _ final normals cw records fv); auto.
Qed.
(** The weights of the command between a single bank. *)
Lemma bank_cluster nn g base cw : length nn = 2%nat -> unitv nn -> 1 < g -> length base = 2%nat -> unitv base -> 0 <= dot base nn ->
  avoidance_weights (angle_space left_of) [3; 3] base 1 (map mtree_of [bank nn g]) = Ok (cw ++ [1 - rsum cw]) ->
  (dot base nn < 1 -> cw <> []) /\ (dot base nn = 1 -> cw = []).
Proof.
  intros Ln Un Hg Lb Ub P E. destruct (bank_weight nn g base) as (w & Ew & K1 & K2 & _); auto.
  assert (T : tree_obstacle_weights (angle_space left_of) [3; 3] base 1 (mtree_of (bank nn g)) = Ok [w]).
  { destruct (tree_data (angle_space left_of) 1 (PI * / 2) None [3; 3] base (bank nn g)) as [d|] eqn:D.
    - apply bank_data in D as (v & Ev & _ & T); auto. rewrite Ew in Ev. injection Ev as <-. auto.
    - assert (SC : scene (fun v => v) (angle_space left_of) left_of sort_by_level 1 (PI * / 2) None 2 [3; 3] base (map (fun b => bank (fst b) (snd b)) [(nn, g)])).
      { apply bank_scene; auto; try lra; [discriminate|]. intros b [<-|[]]. cbn [fst snd]. rewrite dot_comm. auto. }
      destruct (tree_data_ok _ _ _ _ _ _ _ _ _ _ (bank nn g) _ SC) as (x1 & y1 & z1 & X1 & _); [left; auto|]. rewrite D in X1. discriminate. }
  unfold avoidance_weights, final_weights in E. cbn [map mapM] in E. rewrite T in E. cbn [bind] in E.
  destruct (cluster_weights [[w]]) as [c|] eqn:C; [|discriminate]. cbn [bind] in E. injection E as E. apply app_inj_tail in E as [-> _].
  apply cluster_form in C. cbn [flat_map map] in C. rewrite app_nil_r in C. subst cw. split; intros H.
  - rewrite seg_one by auto. discriminate.
  - rewrite (K2 H). apply seg_zero. intros x [<-|[]]. auto.
Qed.
Lemma scaled_length magnitude relative fv ns cw records v : scaled_velocity magnitude relative fv ns cw records = Ok v -> length v = Nat.max (length fv) (length relative).
Proof.
  unfold scaled_velocity. destruct cw as [|w ws]; [intros E; injection E as <-; apply length_vadd|].
  destruct (fdiv 1 _) as [g|]; [|discriminate]. cbn [bind]. destruct (slowfactor_from_convergence _ _) as [sc|]; [|discriminate]. cbn [bind].
  destruct (Req_EM_T _ _); [discriminate|]. intros E. injection E as <-. rewrite length_vadd, !length_vscale, length_vdiv. auto.
Qed.
(** C174: where the last weight dies the commanded velocity jumps: the scenes and data follow
    as in C174_velocity, the command keeps below half the unit speed along the way and has unit
    speed at the limit. *)
Theorem C174_velocity_refuted : forall orth0, (forall v, length (orth0 v) = length v) ->
  exists base_ base trees s_ s out_ out, cvv base_ base /\
    (forall j, get_end_vector (s_ j) = Ok (base_ j)) /\ get_end_vector s = Ok base /\
    (forall j, scene orth0 (angle_space left_of) left_of sort_by_level 1 (PI * / 2) None 2 [3; 3] (base_ j) trees) /\
    scene orth0 (angle_space left_of) left_of sort_by_level 1 (PI * / 2) None 2 [3; 3] base trees /\
    let command c := evaluate_sequence orth0 (angle_space left_of) (get_projected_tangent left_of) sort_by_level 1 (PI * / 2) None 2
      (1 / 2) (Some c) (fun s => Ok s) [3; 3] [] trees in
    (forall j, command (s_ j) = Ok (out_ j) /\ norm (out_ j) <= 1 / 2) /\ command s = Ok out /\ norm out = 1 /\ ~ cvv out_ out /\
    (forall t ws_ rs_ rec_ ws rs rec, In t trees -> (forall j, tree_data (angle_space left_of) 1 (PI * / 2) None [3; 3] (base_ j) t = Ok (t, ws_ j, rs_ j, rec_ j)) ->
       tree_data (angle_space left_of) 1 (PI * / 2) None [3; 3] base t = Ok (t, ws, rs, rec) ->
       cvv ws_ ws /\ same_sign ws_ (ws_ 0%nat) /\ Un_cv (fun j => fst (rec_ j)) (fst rec) /\ Un_cv (fun j => snd (rec_ j)) (snd rec)).
Proof.
  intros orth0 Ho.
  assert (U1 : unitv [1; 0]) by (unfold unitv, dot; simpl; ring). assert (Z1 : dot [1; 0] [1; 0] = 1) by (unfold dot; simpl; ring).
  pose proof (fun j => heading_facts (dying j) (dying_range j)) as H.
  assert (D1 : forall a, dot (heading a) [1; 0] = cos a) by (intros a; unfold heading, dot; simpl; ring).
  set (trees := map (fun b => bank (fst b) (snd b)) [([1; 0], 2)]).
  assert (SCE : forall base, length base = 2%nat -> unitv base -> 0 <= dot base [1; 0] -> scene orth0 (angle_space left_of) left_of sort_by_level 1 (PI * / 2) None 2 [3; 3] base trees).
  { intros base L U P. apply bank_scene; auto; try lra; [discriminate|]. intros b [<-|[]]. cbn [fst snd]. rewrite dot_comm. do 2 (split; auto). lra. }
  set (command c := evaluate_sequence orth0 (angle_space left_of) (get_projected_tangent left_of) sort_by_level 1 (PI * / 2) None 2 (1 / 2) (Some c) (fun s => Ok s) [3; 3] [] trees).
  assert (OUT : forall base c, length base = 2%nat -> unitv base -> 0 <= dot base [1; 0] -> get_end_vector c = Ok base ->
    exists v, command c = Ok v /\ (dot base [1; 0] < 1 -> norm v <= 1 / 2) /\ (dot base [1; 0] = 1 -> norm v = 1) /\ length v = 2%nat).
  { intros base c L U P E. destruct (C32_speed_bound_partial orth0 (angle_space left_of) left_of sort_by_level 1 (PI * / 2) None 2 2 (1 / 2) c (fun s => Ok s) c [3; 3] [] (vzero 2) base trees)
      as (v & m & cw & Ev & -> & Ea & B1 & B2); auto; [lra|apply far_relative|]. exists (vadd m (vzero 2)). split; auto.
    apply (bank_cluster [1; 0] 2) in Ea as [K1 K2]; auto; try lra.
    assert (Nv : norm (vadd m (vzero 2)) = norm m) by (unfold norm; autorewrite with vdot; f_equal; ring). rewrite Nv. do 2 (split; [auto|]).
    destruct (evaluate_avoidance_ok _ _ _ _ _ _ _ _ _ _ _ _ (SCE base L U P) E) as (tt & data & f' & ns' & w' & v' & _ & Ev' & _ & _ & _ & _ & _ & _ & _ & _ & Ef' & _ & Lv & _).
    unfold evaluate_sequence in Ev. change trees with [bank [1; 0] 2] in *. rewrite far_relative in Ev. cbn [bind] in Ev. rewrite Ev' in Ev. cbn [bind] in Ev. rewrite Ef' in Ev. cbn [bind] in Ev.
    apply scaled_length in Ev. rewrite Ev, Lv, length_vzero. auto. }
  assert (Q_ : forall j, exists c, create_from_vector_array [heading (dying j); heading (dying j)] = Ok c /\ get_end_vector c = Ok (heading (dying j))) by (intros j; destruct (H j) as (A & B & _); apply constant_sequence; auto).
  destruct (constant_sequence [1; 0] eq_refl U1) as (s & _ & Es).
  set (s_ j := match create_from_vector_array [heading (dying j); heading (dying j)] with Ok c => c | Err _ => [] end).
  assert (Es_ : forall j, get_end_vector (s_ j) = Ok (heading (dying j))) by (intros j; destruct (Q_ j) as (c & E1 & E2); unfold s_; rewrite E1; auto).
  destruct (OUT [1; 0] s) as (out & Eo & _ & No & Lo); auto; [lra|]. specialize (No Z1).
  set (out_ j := match command (s_ j) with Ok v => v | Err _ => [] end).
  assert (O_ : forall j, command (s_ j) = Ok (out_ j) /\ norm (out_ j) <= 1 / 2 /\ length (out_ j) = 2%nat).
  { intros j. destruct (H j) as (A & B & C & _). destruct (OUT (heading (dying j)) (s_ j)) as (v & Ev & Nv & _ & Lv); auto; [rewrite D1; lra|].
    unfold out_. rewrite Ev. split; auto. split; auto. apply Nv. rewrite D1. lra. }
  exists (fun j => heading (dying j)), [1; 0], trees, s_, s, out_, out.
  split; [apply heading_cv|]. split; auto. split; auto.
  split; [intros j; destruct (H j) as (A & B & C & _); apply SCE; auto; rewrite D1; lra|]. split; [apply SCE; auto; lra|].
  split; [intros j; destruct (O_ j) as (A & B & _); auto|]. split; auto. split; auto. split.
  - intros CV. apply (cv_norm 2) in CV; [|intros j; destruct (O_ j) as (_ & _ & ->); auto|rewrite Lo; auto]. rewrite No in CV.
    destruct (CV (1 / 4) ltac:(lra)) as (N & HN). specialize (HN N (le_n N)). unfold R_dist in HN. apply Rabs_def2 in HN. destruct (O_ N) as (_ & B & _). lra.
  - intros t ws_ rs_ rec_ ws rs rec [<-|[]] D_ D. cbn [fst snd] in *. destruct (bank_follow [1; 0] 2 (fun j => heading (dying j)) [1; 0]) with (ws_ := ws_) (rs_ := rs_) (rec_ := rec_) (ws := ws) (rs := rs) (rec := rec) as (A & B & _ & C & E & _); auto; try lra.
    + intros j. destruct (H j) as (A & B & _). auto.
    + apply heading_cv.
    + intros j. destruct (H j) as (A & B & C & _). rewrite D1. lra.
    + split; [auto|]. split; [|auto]. apply B. intros j. destruct (H j) as (_ & _ & Cj & _). rewrite D1. lra.
Qed.
Print Assumptions C174_direction.
Print Assumptions C174_velocity.
Print Assumptions C174_velocity_refuted.
