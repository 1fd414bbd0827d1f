(** Property C171: the direction of the avoidance follows the state of the robot continuously. *)
Require Import Reals List Bool Lra Lia ZArith Classical_Prop.
From Verif Require Import Base Vec Angle Pow RotModel Spec RotProofs SeqProofs TreeModel TreeSpec
  TreeProofs TreeWeights TreeReduce TreeGeom TreeCases TreeIndep PropRotation PropTree WeightModel WeightProofs PropWeights
  AvoidModel PropAvoid ProjModel PropProject TangentProofs PropTangent PropContact ContProofs PropContinuity PropEmbed PropJoint PropOrder PropLimits.
Import ListNotations.
Open Scope R_scope.

(** ** Specification *)
(** The velocity brought along the reference directions of a walk, from the root to the component. *)
Definition brought (base : vec) (w : walk) : vec :=
  fold_left (fun v (s : vec * vec * nat) => carried (direction (fst (fst s))) (direction (snd (fst s))) v) (branch_steps w) base.
(** Consecutive directions of a walk are equal or further apart than the tolerance of the code. *)
Definition exact_refs (refs : list vec) : Prop :=
  forall k, (S k < length refs)%nat -> exact_pair (direction (nth (S k) refs [])) (direction (nth k refs [])).
(** Where the tangent is a continuous function (C170). *)
Definition smooth_at (v nn r : vec) (rad : R) : Prop :=
  dot r nn <> 1 /\ (cos rad <= - dot v nn -> v <> r) /\ (- dot v nn <= cos rad -> v <> vscale (-1) r) /\ (- dot v nn = cos rad -> dot r nn <= cos rad).
(** Positions and velocities for which the walk from component [i] of [t] changes continuously, the velocity stays on one side of
    the surface and the tangents exist continuously. *)
Definition calm (position_ base_ : nat -> vec) (position base : vec) (t : btree) (i : nat) (rad_ : nat -> R) (rad : R) : Prop :=
  exists w_ w c, (forall j, branch_walk (position_ j) i t = Ok (w_ j)) /\ branch_walk position i t = Ok w /\ get_bcomp t i = Ok c /\
    (forall k, cvv (fun j => nth k (w_refs (w_ j)) []) (nth k (w_refs w) [])) /\
    cvv (fun j => nth 0 (w_normals (w_ j)) []) (nth 0 (w_normals w) []) /\
    (forall j, exact_refs (w_refs (w_ j))) /\ exact_refs (w_refs w) /\
    Un_cv rad_ rad /\ (forall j, PI / 2 < rad_ j <-> PI / 2 < rad) /\
    (c_tail (b_comp c) = true \/
     forall j, dot (nth 0 (w_normals (w_ j)) []) (brought (base_ j) (w_ j)) < 0 <-> dot (nth 0 (w_normals w) []) (brought base w) < 0) /\
    (c_tail (b_comp c) = true \/ dot (nth 0 (w_normals w) []) (brought base w) < 0 ->
     forall r, r = rad \/ r = PI / 2 -> smooth_at (brought base w) (nth 0 (w_normals w) []) (nth 0 (w_refs w) []) r).

(** ** Insertions *)
Lemma red_none d t x : ~ In x (ids t) -> forall v, redirected (fun y => if nid_eq_dec y x then v else d y) t = redirected d t.
Proof.
  intros H v. unfold redirected. f_equal. unfold ids in H. induction (t_nodes t) as [|[y oa] l IH]; cbn [map fst snd] in *; auto.
  rewrite IH by (intros I; apply H; right; auto). f_equal. destruct (nid_eq_dec y x) as [->|]; auto. exfalso. apply H. left. auto.
Qed.
Lemma red_has d t x : has_node (redirected d t) x = has_node t x.
Proof. unfold has_node. change (map fst (t_nodes (redirected d t))) with (ids (redirected d t)). rewrite red_ids. auto. Qed.
Lemma red_touch d t x : nx_touch (redirected d t) x = redirected d (nx_touch t x).
Proof.
  unfold nx_touch. rewrite red_has. destruct (has_node t x); auto. unfold redirected. cbn [t_nodes t_edges t_root]. rewrite map_app. auto.
Qed.
Lemma red_add_edge d t p x : nx_add_edge (redirected d t) p x = redirected d (nx_add_edge t p x).
Proof.
  unfold nx_add_edge. rewrite !red_touch. cbv zeta. set (u := nx_touch (nx_touch t p) x). change (t_edges (redirected d u)) with (t_edges u).
  destruct (existsb _ _); auto.
Qed.
Lemma red_add d t x l v : nx_add_node (redirected d t) x (mkAttrs l (d x)) = redirected d (nx_add_node t x (mkAttrs l v)).
Proof.
  unfold nx_add_node, redirected. cbn [t_nodes t_edges t_root]. f_equal. induction (t_nodes t) as [|[y oa] tl IH]; cbn [map set_assoc fst snd option_map a_level]; auto.
  destruct (nid_eqb x y) eqn:E; cbn [map fst snd option_map a_level].
  - apply nid_eqb_true in E. subst. auto.
  - rewrite IH. auto.
Qed.

Section Steady.
Variable n : nat.
Hypothesis Hn : (2 <= n)%nat.
Definition follows (d_ : nat -> nid -> vec) (tt : tree) : Prop :=
  forall x a, get_attrs tt x = Ok a -> units n (fun j => d_ j x) /\ cvv (fun j => d_ j x) (a_dir a).
Lemma add_follow tt x v p tt' d_ v_ : lift (add_node tt x v (Some p) None None) = Ok tt' -> follows d_ tt ->
  lenn n v_ -> length v = n -> (forall j, norm (v_ j) <> 0) -> cvv v_ v ->
  exists d'_, (forall j, lift (add_node (redirected (d_ j) tt) x (v_ j) (Some p) None None) = Ok (redirected (d'_ j) tt')) /\ follows d'_ tt'.
Proof.
  intros E F L Lv N C. destruct (add_ok _ _ _ _ _ E) as (a & Ea & NI & GA & _).
  exists (fun j y => if nid_eq_dec y x then direction (v_ j) else d_ j y).
  assert (Nv : norm v <> 0) by (intros Z; unfold add_node in E; destruct (Req_EM_T (norm v) 0); [discriminate|contradiction]).
  split.
  - intros j. unfold add_node in *. destruct (Req_EM_T (norm v) 0); [contradiction|]. destruct (Req_EM_T (norm (v_ j)) 0) as [Z|_]; [destruct (N j Z)|].
    rewrite red_has. destruct (has_node tt x); [discriminate|].
    set (dd := fun y => if nid_eq_dec y x then direction (v_ j) else d_ j y).
    rewrite <- (red_none (d_ j) tt x NI (direction (v_ j))). fold dd. rewrite red_add_edge, red_attrs.
    destruct (get_attrs (nx_add_edge tt p x) p) as [b|]; [|discriminate]. cbn [a_level]. destruct (Nat.leb _ _); [discriminate|].
    cbn [lift] in *. injection E as <-. f_equal. rewrite <- red_add. f_equal. f_equal. unfold dd. destruct (nid_eq_dec x x); [auto|contradiction].
  - intros y b Eb. rewrite GA in Eb. destruct (nid_eq_dec y x) as [->|].
    + injection Eb as <-. cbn [a_dir]. split.
      * intros j. split; [rewrite dirof_length; apply L|apply dirof_unit; auto].
      * apply (cvv_direction n); auto.
    + apply F; auto.
Qed.

(** ** Walks *)
Fixpoint steps_follow (steps : list (vec * vec * nat)) (steps_ : nat -> list (vec * vec * nat)) : Prop :=
  match steps with
  | [] => forall j, steps_ j = []
  | (a, b, k) :: steps' =>
      exists a_ b_ s_, (forall j, steps_ j = (a_ j, b_ j, k) :: s_ j) /\
        (forall j, step_ok n (a_ j, b_ j, k) /\ exact_pair (direction (a_ j)) (direction (b_ j))) /\
        step_ok n (a, b, k) /\ exact_pair (direction a) (direction b) /\ cvv a_ a /\ cvv b_ b /\ steps_follow steps' s_
  end.
Lemma steps_ext s : forall f g, (forall j, f j = g j) -> steps_follow s f -> steps_follow s g.
Proof.
  destruct s as [|[[a b] k] s]; intros f g E; cbn [steps_follow].
  - intros H j. rewrite <- E. auto.
  - intros (a_ & b_ & s_ & H & K). exists a_, b_, s_. split; auto. intros j. rewrite <- E. auto.
Qed.
Lemma steps_app s1 s2 : forall f g, steps_follow s1 f -> steps_follow s2 g -> steps_follow (s1 ++ s2) (fun j => f j ++ g j).
Proof.
  induction s1 as [|[[a b] k] s1 IH]; intros f g F G.
  - apply steps_ext with g; auto. intros j. cbn [steps_follow] in F. rewrite F. auto.
  - destruct F as (a_ & b_ & s_ & H & K1 & K2 & K3 & K4 & K5 & K6). cbn [steps_follow app]. exists a_, b_, (fun j => s_ j ++ g j).
    split; [intros j; rewrite H; auto|]. repeat (split; [assumption|]). apply IH; auto.
Qed.
Lemma steps_rev s : forall f, steps_follow s f -> steps_follow (rev s) (fun j => rev (f j)).
Proof.
  induction s as [|[[a b] k] s IH]; intros f F.
  - cbn [rev steps_follow] in *. intros j. rewrite F. auto.
  - destruct F as (a_ & b_ & s_ & H & K1 & K2 & K3 & K4 & K5 & K6). cbn [rev].
    apply steps_ext with (fun j => rev (s_ j) ++ [(a_ j, b_ j, k)]); [intros j; rewrite H; auto|].
    apply steps_app; [apply IH; auto|]. cbn [steps_follow]. exists a_, b_, (fun _ => []). auto 10.
Qed.
Lemma refs_follow : forall refs refs_ ids, (forall j, length (refs_ j) = length refs) ->
  (forall k, cvv (fun j => nth k (refs_ j) []) (nth k refs [])) -> linkable n refs -> (forall j, linkable n (refs_ j)) ->
  exact_refs refs -> (forall j, exact_refs (refs_ j)) ->
  steps_follow (combine (combine (tl refs) refs) ids) (fun j => combine (combine (tl (refs_ j)) (refs_ j)) ids).
Proof.
  induction refs as [|b refs IH]; intros refs_ ids L C K K_ X X_.
  { cbn. intros j. specialize (L j). destruct (refs_ j); [auto|discriminate]. }
  assert (SS : forall j, refs_ j = nth 0 (refs_ j) [] :: tl (refs_ j)) by (intros j; specialize (L j); destruct (refs_ j); [discriminate|auto]).
  destruct refs as [|a refs].
  { cbn. intros j. rewrite SS. specialize (L j). destruct (refs_ j) as [|x [|y l]]; try discriminate. auto. }
  assert (S2 : forall j, refs_ j = nth 0 (refs_ j) [] :: nth 1 (refs_ j) [] :: tl (tl (refs_ j))).
  { intros j. specialize (L j). destruct (refs_ j) as [|x [|y l]]; try discriminate. auto. }
  destruct ids as [|k ids].
  { cbn. intros j. rewrite S2. auto. }
  cbn [tl combine steps_follow].
  exists (fun j => nth 1 (refs_ j) []), (fun j => nth 0 (refs_ j) []), (fun j => combine (combine (tl (tl (refs_ j))) (tl (refs_ j))) ids).
  split. { intros j. rewrite S2. cbn [tl combine nth]. auto. }
  split.
  { intros j. split.
    - apply (linkable_steps n (refs_ j) (K_ j) (k :: ids)). rewrite S2. cbn [tl combine nth]. left. auto.
    - apply (X_ j 0%nat). rewrite L. cbn. lia. }
  split. { apply (linkable_steps n _ K (k :: ids)). left. auto. }
  split. { apply (X 0%nat). cbn. lia. }
  split; [apply (C 1%nat)|]. split; [apply (C 0%nat)|].
  apply (IH (fun j => tl (refs_ j)) ids).
  - intros j. specialize (L j). destruct (refs_ j); cbn in *; lia.
  - intros i. apply cvv_ext with (fun j => nth (S i) (refs_ j) []); [|apply (C (S i))]. intros j. rewrite SS. auto.
  - apply K.
  - intros j. specialize (K_ j). rewrite SS in K_. apply K_.
  - intros i Hi. apply (X (S i)). cbn in *. lia.
  - intros j i Hi. specialize (X_ j (S i)). rewrite SS in X_. apply X_. cbn [length]. lia.
Qed.
Lemma nodes_follow obs comp : forall steps steps_ tt d_ v v_ p tt' u q, follows d_ tt -> steps_follow steps steps_ ->
  units n v_ -> length v = n -> cvv v_ v -> branch_nodes tt obs comp v p steps = Ok (tt', u, q) ->
  exists d'_ u_, (forall j, branch_nodes (redirected (d_ j) tt) obs comp (v_ j) p (steps_ j) = Ok (redirected (d'_ j) tt', u_ j, q)) /\
    follows d'_ tt' /\ units n u_ /\ length u = n /\ cvv u_ u /\
    (forall j, u_ j = fold_left (fun v (s : vec * vec * nat) => carried (direction (fst (fst s))) (direction (snd (fst s))) v) (steps_ j) (v_ j)) /\
    u = fold_left (fun v (s : vec * vec * nat) => carried (direction (fst (fst s))) (direction (snd (fst s))) v) steps v.
Proof.
  induction steps as [|[[a b] k] steps IH]; intros steps_ tt d_ v v_ p tt' u q F S Uv Lv Cv E; cbn [branch_nodes] in E.
  - injection E as <- <- <-. cbn [steps_follow] in S. exists d_, v_. split; [intros j; rewrite S; auto|].
    split; [auto|]. split; [auto|]. split; [auto|]. split; [auto|]. split; [intros j; rewrite S; auto|auto].
  - destruct S as (a_ & b_ & s_ & H & K1 & (La & Lb & Na & Nb & D) & X & Ca & Cb & K6).
    destruct (C170_turn n a_ b_ v_ a b v Hn) as (rot_ & rot & R1 & R2 & R3 & R4 & R5 & R6); auto.
    { intros j. destruct (K1 j) as [(A & B & _) _], (Uv j). auto. }
    { intros j. destruct (K1 j) as [(A & B & C & D' & G) X']. auto. }
    rewrite R2 in E. cbn [bind] in E. destruct (lift (add_node tt _ (rotate rot v 1) _ None None)) as [t1|] eqn:A1; [|discriminate]. cbn [bind] in E.
    assert (Nj : forall j, norm (rotate (rot_ j) (v_ j) 1) = 1) by (intros j; rewrite (proj2 (R3 j)); apply unit_norm; apply Uv).
    destruct (add_follow tt _ _ _ t1 d_ (fun j => rotate (rot_ j) (v_ j) 1) A1 F) as (d1_ & B1 & F1); auto.
    { intros j. apply R3. }
    { intros j. rewrite Nj. lra. }
    destruct (IH s_ t1 d1_ (rotate rot v 1) (fun j => rotate (rot_ j) (v_ j) 1) (node_key obs comp (Z.of_nat k)) tt' u q) as (d2_ & u_ & G1 & G2 & G3 & G4 & G5 & G6 & G7); auto.
    { intros j. split; [apply R3|apply unit_norm; auto]. }
    exists d2_, u_. split; [intros j; rewrite H; cbn [branch_nodes]; rewrite R1; cbn [bind]; rewrite B1; cbn [bind]; apply G1|].
    split; [auto|]. split; [auto|]. split; [auto|]. split; [auto|]. split.
    + intros j. rewrite G6, H. cbn [fold_left fst snd]. f_equal. destruct (K1 j) as [(A & B & C & D' & G) X'], (Uv j).
      destruct (turn_formula n (a_ j) (b_ j) (v_ j) (rot_ j)) as [-> _]; auto.
    + rewrite G7. cbn [fold_left fst snd]. f_equal. destruct (turn_formula n a b v rot) as [-> _]; auto.
Qed.

(** ** One component *)
Variable pick : vec -> vec.
Hypothesis Hpick : picks n pick.
Variables (position_ base_ : nat -> vec) (position base : vec).
Hypothesis Ub_ : units n base_.
Hypothesis Lb : length base = n.
Hypothesis Cb : cvv base_ base.
Notation pt := (get_projected_tangent pick).
Definition walk_fine (p : vec) (t : btree) (i : nat) : Prop :=
  forall w, branch_walk p i t = Ok w -> linkable n (w_refs w) /\ length (nth 0 (w_normals w) []) = n /\ unitv (nth 0 (w_normals w) []) /\
    length (nth 0 (w_refs w) []) = n /\ unitv (nth 0 (w_refs w) []).
Lemma Rltb_iff a b c d : (a < b <-> c < d) -> Rltb a b = Rltb c d.
Proof.
  intros [H K]. destruct (Rltb c d) eqn:E.
  - apply Rltb_true. apply Rltb_true in E. auto.
  - apply Rltb_false. apply Rltb_false in E. destruct (Rlt_le_dec a b) as [X|X]; auto. apply H in X. lra.
Qed.
Lemma update_follow tt d_ t obs i rad_ rad tt' nn : follows d_ tt -> calm position_ base_ position base t i rad_ rad ->
  (forall j, walk_fine (position_ j) t i) -> walk_fine position t i -> (forall j, PI / 2 <= rad_ j <= PI) -> PI / 2 <= rad <= PI ->
  branch_update pt tt position base t obs i rad = Ok (tt', nn) ->
  exists d'_ nn_, (forall j, branch_update pt (redirected (d_ j) tt) (position_ j) (base_ j) t obs i (rad_ j) = Ok (redirected (d'_ j) tt', nn_ j)) /\
    follows d'_ tt' /\ units n nn_ /\ length nn = n /\ cvv nn_ nn.
Proof.
  intros F (w_ & w & c & W_ & W & Ec & CR & CN & X_ & X & Crad & Hrad & Hside & Hsm) WF_ WF Hr_ Hr E. pose proof PI_RGT_0 as HP.
  assert (ID : forall j, w_ids (w_ j) = w_ids w).
  { intros j. destruct (C35_walk_is_parent_chain _ _ _ _ (W_ j)) as (B & _). destruct (C35_walk_is_parent_chain _ _ _ _ W) as (B' & _). eapply branch_unique; eauto. }
  assert (LR : forall j, length (w_refs (w_ j)) = length (w_refs w)).
  { intros j. destruct (C35_walk_is_parent_chain _ _ _ _ (W_ j)) as (_ & _ & _ & _ & _ & ->). destruct (C35_walk_is_parent_chain _ _ _ _ W) as (_ & _ & _ & _ & _ & ->). rewrite ID. auto. }
  destruct (WF w W) as (K & Ln & Un & Lr & Ur).
  assert (SF : steps_follow (branch_steps w) (fun j => branch_steps (w_ j))).
  { unfold branch_steps. apply (steps_rev _ (fun j => combine (combine (tl (w_refs (w_ j))) (w_refs (w_ j))) (tl (w_ids (w_ j))))).
    apply steps_ext with (fun j => combine (combine (tl (w_refs (w_ j))) (w_refs (w_ j))) (tl (w_ids w))); [intros j; rewrite ID; auto|].
    apply refs_follow; auto. intros j. apply (WF_ j _ (W_ j)). }
  unfold branch_update in E. rewrite W in E. cbn [bind] in E.
  destruct (branch_nodes tt obs (Z.of_nat i) base (node_key obs (-1) (-1)) (branch_steps w)) as [[[t1 v] p]|] eqn:E1; [|discriminate]. cbn [bind] in E.
  destruct (nodes_follow obs (Z.of_nat i) (branch_steps w) (fun j => branch_steps (w_ j)) tt d_ base base_ _ t1 v p F SF Ub_ Lb Cb E1)
    as (d1_ & v_ & N1 & F1 & Uv & Lv & Cv & V_ & V).
  change (v = brought base w) in V. assert (V2 : forall j, v_ j = brought (base_ j) (w_ j)) by (intros j; apply V_). clear V_.
  rewrite Ec in E. cbn [bind] in E. rewrite <- V in Hside, Hsm.
  set (nw := nth 0 (w_normals w) []) in *. set (rw := nth 0 (w_refs w) []) in *.
  set (nw_ := fun j => nth 0 (w_normals (w_ j)) []) in *. set (rw_ := fun j => nth 0 (w_refs (w_ j)) []).
  assert (Unw : units n nw_) by (intros j; destruct (WF_ j _ (W_ j)) as (_ & A & B & _); auto).
  assert (Urw : units n rw_) by (intros j; destruct (WF_ j _ (W_ j)) as (_ & _ & _ & A & B); auto).
  assert (Crw : cvv rw_ rw) by (apply (CR 0%nat)).
  assert (SD : forall j, c_tail (b_comp c) || Rltb (dot (nw_ j) (v_ j)) 0 = c_tail (b_comp c) || Rltb (dot nw v) 0).
  { intros j. destruct Hside as [->|H]; auto. f_equal. apply Rltb_iff. rewrite V2. apply H. }
  assert (RD : forall j, Rltb (PI * / 2) (rad_ j) = Rltb (PI * / 2) rad) by (intros j; apply Rltb_iff; apply Hrad).
  assert (UP : forall j, branch_update pt (redirected (d_ j) tt) (position_ j) (base_ j) t obs i (rad_ j) =
    (do '(u, parent, avoidance_direction) <-
     (if c_tail (b_comp c) || Rltb (dot nw v) 0 then
        do '(u, parent) <-
           (if Rltb (PI * / 2) rad then
              do tangent <- pt (v_ j) (nw_ j) (rw_ j) (PI * / 2);
              let node := node_key obs (Z.of_nat i) (-1) in
              do u <- lift (add_node (redirected (d1_ j) t1) node tangent (Some p) None None);
              Ok (u, node)
            else Ok (redirected (d1_ j) t1, p));
        do d <- pt (v_ j) (nw_ j) (rw_ j) (rad_ j);
        Ok (u, parent, d)
      else Ok (redirected (d1_ j) t1, p, v_ j));
    do u <- lift (add_node u (node_key obs (Z.of_nat i) (Z.of_nat i)) avoidance_direction (Some parent) None None);
    Ok (u, nw_ j))).
  { intros j. unfold branch_update. rewrite W_. cbn [bind]. rewrite N1. cbn [bind]. rewrite Ec. cbn [bind].
    fold (nw_ j) (rw_ j). rewrite SD, RD. auto. }
  assert (TG : c_tail (b_comp c) || Rltb (dot nw v) 0 = true -> forall r_ r, Un_cv r_ r -> (forall j, PI / 2 <= r_ j <= PI) -> PI / 2 <= r <= PI -> r = rad \/ r = PI / 2 ->
    exists g_ g, (forall j, pt (v_ j) (nw_ j) (rw_ j) (r_ j) = Ok (g_ j)) /\ pt v nw rw r = Ok g /\ units n g_ /\ length g = n /\ unitv g /\ cvv g_ g).
  { intros Q r_ r C1 H1 H2 H3. apply orb_prop in Q. rewrite Rltb_true in Q. destruct (Hsm Q r H3) as (S1 & S2 & S3 & S4).
    exact (C170_tangent n pick v_ nw_ rw_ r_ v nw rw r Hpick Uv Unw Urw Lv Ln Lr Cv CN Crw C1 H1 H2 S1 S2 S3 S4). }
  assert (UN : forall g_, units n g_ -> forall j, norm (g_ j) <> 0) by (intros g_ U j; rewrite (proj1 (unit_norm _) (proj2 (U j))); lra).
  destruct (c_tail (b_comp c) || Rltb (dot nw v) 0) eqn:Q.
  - destruct (TG eq_refl rad_ rad Crad Hr_ Hr (or_introl eq_refl)) as (g_ & g & G1 & G2 & G3 & G4 & G5 & G6).
    destruct (TG eq_refl (fun _ => PI / 2) (PI / 2) (cv_const _)) as (k_ & k & K1 & K2 & K3 & K4 & K5 & K6); [intros _; lra|lra|auto|].
    change (PI / 2) with (PI * / 2) in K1, K2.
    destruct (Rltb (PI * / 2) rad).
    + rewrite K2 in E. cbn [bind] in E. destruct (lift (add_node t1 _ k _ None None)) as [t2|] eqn:A2; [|discriminate]. cbn [bind] in E.
      rewrite G2 in E. cbn [bind] in E. destruct (lift (add_node t2 _ g _ None None)) as [t3|] eqn:A3; [|discriminate]. cbn [bind] in E. injection E as <- <-.
      destruct (add_follow t1 _ _ _ t2 d1_ k_ A2 F1) as (d2_ & B2 & F2); auto; [apply units_len; auto|].
      destruct (add_follow t2 _ _ _ t3 d2_ g_ A3 F2) as (d3_ & B3 & F3); auto; [apply units_len; auto|].
      exists d3_, nw_. split; auto. intros j. rewrite UP, K1. cbn [bind]. rewrite B2. cbn [bind]. rewrite G1. cbn [bind]. rewrite B3. auto.
    + cbn [bind] in E. rewrite G2 in E. cbn [bind] in E. destruct (lift (add_node t1 _ g _ None None)) as [t3|] eqn:A3; [|discriminate]. cbn [bind] in E. injection E as <- <-.
      destruct (add_follow t1 _ _ _ t3 d1_ g_ A3 F1) as (d3_ & B3 & F3); auto; [apply units_len; auto|].
      exists d3_, nw_. split; auto. intros j. rewrite UP. cbn [bind]. rewrite G1. cbn [bind]. rewrite B3. auto.
  - cbn [bind] in E. destruct (lift (add_node t1 _ v _ None None)) as [t3|] eqn:A3; [|discriminate]. cbn [bind] in E. injection E as <- <-.
    destruct (add_follow t1 _ _ _ t3 d1_ v_ A3 F1) as (d3_ & B3 & F3); auto; [apply units_len; auto|].
    exists d3_, nw_. split; auto. intros j. rewrite UP. cbn [bind]. rewrite B3. auto.
Qed.

(** ** All obstacles *)
Definition same_sign (ws_ : nat -> list R) (ws : list R) : Prop := forall j i, 0 < nth i (ws_ j) 0 <-> 0 < nth i ws 0.
Definition comp_calm (t : btree) (rs_ : nat -> list R) (rs : list R) (i : nat) : Prop :=
  calm position_ base_ position base t i (fun j => nth i (rs_ j) 0) (nth i rs 0) /\
  (forall j, walk_fine (position_ j) t i) /\ walk_fine position t i /\ (forall j, PI / 2 <= nth i (rs_ j) 0 <= PI) /\ PI / 2 <= nth i rs 0 <= PI.
Definition normals_follow (ns_ : nat -> list vec) (ns : list vec) : Prop :=
  (forall j, length (ns_ j) = length ns) /\ forall k, (k < length ns)%nat -> units n (fun j => nth k (ns_ j) []) /\ length (nth k ns []) = n /\ cvv (fun j => nth k (ns_ j) []) (nth k ns []).
Lemma normals_cons x_ x ns_ ns : units n x_ -> length x = n -> cvv x_ x -> normals_follow ns_ ns -> normals_follow (fun j => x_ j :: ns_ j) (x :: ns).
Proof.
  intros U L C [A B]. split; [intros j; cbn; rewrite A; auto|]. intros [|k] H; cbn [nth]; auto. apply B. cbn in H. lia.
Qed.
Lemma normals_app a_ a b_ b : normals_follow a_ a -> normals_follow b_ b -> normals_follow (fun j => a_ j ++ b_ j) (a ++ b).
Proof.
  intros [A1 A2] [B1 B2]. split; [intros j; rewrite !app_length, A1, B1; auto|]. intros k Hk. rewrite app_length in Hk.
  destruct (Nat.lt_ge_cases k (length a)) as [H|H].
  - rewrite app_nth1 by auto. destruct (A2 k H) as (U & L & C). split; [|split; auto].
    + intros j. rewrite app_nth1 by (rewrite A1; auto). apply U.
    + apply cvv_ext with (fun j => nth k (a_ j) []); auto. intros j. rewrite app_nth1; auto. rewrite A1. auto.
  - rewrite app_nth2 by auto. destruct (B2 (k - length a)%nat ltac:(lia)) as (U & L & C). split; [|split; auto].
    + intros j. rewrite app_nth2 by (rewrite A1; auto). rewrite A1. apply U.
    + apply cvv_ext with (fun j => nth (k - length a) (b_ j) []); auto. intros j. rewrite app_nth2, A1 by (rewrite A1; auto). auto.
Qed.
Lemma components_follow t obs ws_ ws rs_ rs : same_sign ws_ ws -> forall l tt d_ tt' ks ns, follows d_ tt ->
  (forall i, In i l -> 0 < nth i ws 0 -> comp_calm t rs_ rs i) ->
  populate_components pt tt position base t obs ws rs l = Ok (tt', ks, ns) ->
  exists d'_ ns_, (forall j, populate_components pt (redirected (d_ j) tt) (position_ j) (base_ j) t obs (ws_ j) (rs_ j) l = Ok (redirected (d'_ j) tt', ks, ns_ j)) /\
    follows d'_ tt' /\ normals_follow ns_ ns.
Proof.
  intros SS. induction l as [|i l IH]; intros tt d_ tt' ks ns F H E; cbn [populate_components] in *.
  - injection E as <- <- <-. exists d_, (fun _ => []). split; [auto|]. split; [auto|]. split; [auto|]. intros k Hk. cbn in Hk. lia.
  - assert (IHl : forall j, In j l -> 0 < nth j ws 0 -> comp_calm t rs_ rs j) by (intros j J; apply H; right; auto).
    destruct (Rle_dec (nth i ws 0) 0) as [Z|P].
    + destruct (IH tt d_ tt' ks ns F IHl E) as (d'_ & ns_ & A & B). exists d'_, ns_. split; auto. intros j.
      destruct (Rle_dec (nth i (ws_ j) 0) 0) as [_|P]; [apply A|]. exfalso. assert (0 < nth i ws 0) by (apply (SS j); lra). lra.
    + destruct (H i (or_introl eq_refl) ltac:(lra)) as (CA & WF_ & WF & Hr_ & Hr).
      destruct (branch_update pt tt position base t obs i (nth i rs 0)) as [[t1 nn]|] eqn:E1; [|discriminate]. cbn [bind] in E.
      destruct (populate_components pt t1 position base t obs ws rs l) as [[[t2 k2] n2]|] eqn:E2; [|discriminate]. cbn [bind] in E. injection E as <- <- <-.
      destruct (update_follow tt d_ t obs i (fun j => nth i (rs_ j) 0) (nth i rs 0) t1 nn F CA WF_ WF Hr_ Hr E1) as (d1_ & nn_ & A1 & F1 & U1 & L1 & C1).
      destruct (IH t1 d1_ t2 k2 n2 F1 IHl E2) as (d2_ & ns_ & A2 & F2 & N2).
      exists d2_, (fun j => nn_ j :: ns_ j). split; [|split; auto using normals_cons]. intros j.
      destruct (Rle_dec (nth i (ws_ j) 0) 0) as [Z|_]; [exfalso; assert (0 < nth i (ws_ j) 0) by (apply SS; lra); lra|].
      rewrite A1. cbn [bind]. rewrite A2. auto.
Qed.
Definition data_calm (d_ : nat -> btree * list R * list R) (d : btree * list R * list R) : Prop :=
  let '(t, ws, rs) := d in exists ws_ rs_, (forall j, d_ j = (t, ws_ j, rs_ j)) /\ same_sign ws_ ws /\
    forall i, (i < length (bt_comps t))%nat -> 0 < nth i ws 0 -> comp_calm t rs_ rs i.
Lemma tree_follow t obs ws_ ws rs_ rs tt d_ tt' ks ns : same_sign ws_ ws -> follows d_ tt ->
  (forall i, (i < length (bt_comps t))%nat -> 0 < nth i ws 0 -> comp_calm t rs_ rs i) ->
  populate_tree pt tt position base t obs ws rs = Ok (tt', ks, ns) ->
  exists d'_ ns_, (forall j, populate_tree pt (redirected (d_ j) tt) (position_ j) (base_ j) t obs (ws_ j) (rs_ j) = Ok (redirected (d'_ j) tt', ks, ns_ j)) /\
    follows d'_ tt' /\ normals_follow ns_ ns.
Proof.
  intros SS F H E. unfold populate_tree in *. destruct (lift (add_node tt _ base _ None None)) as [t1|] eqn:A1; [|discriminate]. cbn [bind] in E.
  destruct (add_follow tt _ _ _ t1 d_ base_ A1 F) as (d1_ & B1 & F1); auto; [apply units_len; auto| |].
  { intros j. rewrite (proj1 (unit_norm _) (proj2 (Ub_ j))). lra. }
  destruct (components_follow t obs ws_ ws rs_ rs SS (seq 0 (length (bt_comps t))) t1 d1_ tt' ks ns F1) as (d2_ & ns_ & A2 & F2); [|exact E|].
  { intros i I. apply H. apply in_seq in I. lia. }
  exists d2_, ns_. split; auto. intros j. rewrite B1. cbn [bind]. auto.
Qed.
Lemma all_follow : forall (D : list (btree * list R * list R)) (D_ : nat -> list (btree * list R * list R)) obs tt d_ tt' ks ns, follows d_ tt ->
  (forall j, length (D_ j) = length D) -> (forall k x, (k < length D)%nat -> data_calm (fun j => nth k (D_ j) x) (nth k D x)) ->
  populate_all pt tt position base obs D = Ok (tt', ks, ns) ->
  exists d'_ ns_, (forall j, populate_all pt (redirected (d_ j) tt) (position_ j) (base_ j) obs (D_ j) = Ok (redirected (d'_ j) tt', ks, ns_ j)) /\
    follows d'_ tt' /\ normals_follow ns_ ns.
Proof.
  induction D as [|[[t ws] rs] D IH]; intros D_ obs tt d_ tt' ks ns F L H E; cbn [populate_all] in E.
  - injection E as <- <- <-. exists d_, (fun _ => []). split; [intros j; specialize (L j); destruct (D_ j); [auto|discriminate]|]. split; [auto|]. split; [auto|]. intros k Hk. cbn in Hk. lia.
  - destruct (populate_tree pt tt position base t obs ws rs) as [[[t1 k1] n1]|] eqn:E1; [|discriminate]. cbn [bind] in E.
    destruct (populate_all pt t1 position base (obs + 1) D) as [[[t2 k2] n2]|] eqn:E2; [|discriminate]. cbn [bind] in E. injection E as <- <- <-.
    pose proof (H 0%nat (t, ws, rs) ltac:(cbn; lia)) as H0. cbn [nth data_calm] in H0. destruct H0 as (ws_ & rs_ & Q & SS & CC).
    destruct (tree_follow t obs ws_ ws rs_ rs tt d_ t1 k1 n1 SS F CC E1) as (d1_ & n1_ & A1 & F1 & N1).
    destruct (IH (fun j => tl (D_ j)) (obs + 1)%Z t1 d1_ t2 k2 n2 F1) as (d2_ & n2_ & A2 & F2 & N2); auto.
    { intros j. specialize (L j). destruct (D_ j); cbn in *; lia. }
    { intros k x Hk. specialize (H (S k) x ltac:(cbn; lia)). unfold data_calm in *. cbn [nth] in H.
      destruct (nth k D x) as [[tk wk] rk]. destruct H as (w1 & r1 & Q1 & Q2). exists w1, r1. split; auto. intros j. rewrite <- Q1.
      specialize (L j). destruct (D_ j); [discriminate|auto]. }
    exists d2_, (fun j => n1_ j ++ n2_ j). split; [|split; auto using normals_app]. intros j.
    assert (ED : D_ j = (t, ws_ j, rs_ j) :: tl (D_ j)).
    { specialize (Q j). specialize (L j). destruct (D_ j); [discriminate|]. cbn [nth tl] in *. rewrite Q. auto. }
    rewrite ED. cbn [populate_all]. rewrite A1. cbn [bind]. rewrite A2. auto.
Qed.
End Steady.

(** ** The shares *)
Lemma cvv_app a_ a b_ b : (forall j, length (a_ j : vec) = length (a : vec)) -> cvv a_ a -> cvv b_ b -> cvv (fun j => a_ j ++ b_ j) (a ++ b).
Proof.
  intros L A B i. destruct (Nat.lt_ge_cases i (length a)) as [H|H].
  - rewrite app_nth1 by auto. apply cv_ext with (fun j => nth i (a_ j) 0); [|apply A]. intros j. rewrite app_nth1; auto. rewrite L. auto.
  - rewrite app_nth2 by auto. apply cv_ext with (fun j => nth (i - length a) (b_ j) 0); [|apply B]. intros j. rewrite app_nth2, L; auto. rewrite L. auto.
Qed.
Lemma cvv_index ws_ (ws : vec) l : cvv ws_ ws -> cvv (fun j => map (fun i => nth i (ws_ j) 0) l) (map (fun i => nth i ws 0) l).
Proof.
  intros C. induction l as [|x l IH]; [apply cvv_const|]. intros [|i]; cbn [map nth]; [apply C|apply IH].
Qed.
Lemma filter_index ws : filter (fun w => Rltb 0 w) ws = map (fun i => nth i ws 0) (TangentProofs.weighted ws (seq 0 (length ws))).
Proof.
  unfold TangentProofs.weighted.
  assert (K : forall ws pre, filter (fun w => Rltb 0 w) ws = map (fun i => nth i (pre ++ ws) 0) (filter (fun i => Rltb 0 (nth i (pre ++ ws) 0)) (seq (length pre) (length ws)))).
  { clear ws. induction ws as [|w ws IH]; intros pre; auto. cbn [length seq filter].
    assert (N : nth (length pre) (pre ++ w :: ws) 0 = w) by (rewrite app_nth2, Nat.sub_diag by lia; auto). rewrite N.
    specialize (IH (pre ++ [w])). rewrite <- app_assoc in IH. cbn [app] in IH. rewrite app_length in IH. cbn [length] in IH. rewrite Nat.add_1_r in IH.
    destruct (Rltb 0 w); cbn [map]; rewrite IH; [rewrite N|]; auto. }
  apply (K ws []).
Qed.
Lemma weighted_same ws_ ws l : same_sign ws_ ws -> forall j, TangentProofs.weighted (ws_ j) l = TangentProofs.weighted ws l.
Proof.
  intros S j. unfold TangentProofs.weighted. induction l as [|i l IH]; auto. cbn [filter]. rewrite IH, (Rltb_iff 0 (nth i (ws_ j) 0) 0 (nth i ws 0)); [auto|apply S].
Qed.
Lemma positive_follow ws_ ws : (forall j, length (ws_ j) = length ws) -> same_sign ws_ ws -> cvv ws_ ws ->
  (forall j, length (positive_normalised (ws_ j)) = length (positive_normalised ws)) /\
  cvv (fun j => positive_normalised (ws_ j)) (positive_normalised ws).
Proof.
  intros L S C. set (l := TangentProofs.weighted ws (seq 0 (length ws))).
  assert (P : positive_normalised ws = vscale (/ rsum (map (fun i => nth i ws 0) l)) (map (fun i => nth i ws 0) l)).
  { unfold positive_normalised. cbv zeta. rewrite filter_index. fold l. unfold vscale. apply map_ext. intros w. unfold Rdiv. ring. }
  assert (P_ : forall j, positive_normalised (ws_ j) = vscale (/ rsum (map (fun i => nth i (ws_ j) 0) l)) (map (fun i => nth i (ws_ j) 0) l)).
  { intros j. unfold positive_normalised. cbv zeta. rewrite filter_index, L, (weighted_same ws_ ws _ S j). fold l. unfold vscale. apply map_ext. intros w. unfold Rdiv. ring. }
  split; [intros j; rewrite P, P_, !length_vscale, !map_length; auto|].
  apply cvv_ext with (fun j => vscale (/ rsum (map (fun i => nth i (ws_ j) 0) l)) (map (fun i => nth i (ws_ j) 0) l)); [auto|]. rewrite P.
  assert (CI : cvv (fun j => map (fun i => nth i (ws_ j) 0) l) (map (fun i => nth i ws 0) l)) by (apply cvv_index; auto).
  assert (PP : forall k, In k l -> 0 < nth k ws 0) by (intros k I; unfold l in I; apply filter_In in I as [_ I]; apply Rltb_true; auto).
  clearbody l. destruct l as [|i0 l']; [apply (cvv_const [])|]. set (l := i0 :: l') in *.
  apply cvv_scale; auto. apply cv_inv.
  - apply (cv_rsum (length l)); auto; [intros j; rewrite map_length; auto|rewrite map_length; auto].
  - assert (G : forall m, m <> [] -> (forall k, In k m -> 0 < nth k ws 0) -> 0 < rsum (map (fun i => nth i ws 0) m)).
    { induction m as [|k m IH]; intros NE H; [contradiction|]. cbn [map rsum fold_right]. fold (rsum (map (fun i => nth i ws 0) m)).
      pose proof (H k (or_introl eq_refl)). destruct m as [|k' m]; [cbn; lra|].
      assert (0 < rsum (map (fun i => nth i ws 0) (k' :: m))) by (apply IH; [discriminate|intros; apply H; right; auto]). lra. }
    assert (0 < rsum (map (fun i => nth i ws 0) l)) by (apply G; auto; discriminate). lra.
Qed.
Definition spread (nw : list R) (ll : list (list R)) : list R :=
  concat (map (fun wc => map (fun w => fst wc * w) (snd wc)) (combine nw (map positive_normalised ll))).
Definition lists_follow (ll_ : nat -> list (list R)) (ll : list (list R)) : Prop :=
  (forall j, length (ll_ j) = length ll) /\ forall k, (k < length ll)%nat ->
    (forall j, length (nth k (ll_ j) []) = length (nth k ll [])) /\ same_sign (fun j => nth k (ll_ j) []) (nth k ll []) /\ cvv (fun j => nth k (ll_ j) []) (nth k ll []).
Lemma spread_follow : forall ll ll_ nw nw_, lists_follow ll_ ll -> length nw = length ll -> (forall j, length (nw_ j) = length ll) -> cvv nw_ nw ->
  (forall j, length (spread (nw_ j) (ll_ j)) = length (spread nw ll)) /\ cvv (fun j => spread (nw_ j) (ll_ j)) (spread nw ll).
Proof.
  induction ll as [|ws ll IH]; intros ll_ nw nw_ [L H] Ln Ln_ C.
  - assert (E : forall j, spread (nw_ j) (ll_ j) = []) by (intros j; specialize (L j); specialize (Ln_ j); destruct (ll_ j), (nw_ j); try discriminate; auto).
    destruct nw; [|discriminate]. split; [intros j; rewrite E; auto|]. apply cvv_ext with (fun _ => []); [auto|apply cvv_const].
  - destruct nw as [|x nw]; [discriminate|].
    assert (E1 : forall j, ll_ j = nth 0 (ll_ j) [] :: tl (ll_ j)) by (intros j; specialize (L j); destruct (ll_ j); [discriminate|auto]).
    assert (E2 : forall j, nw_ j = nth 0 (nw_ j) 0 :: tl (nw_ j)) by (intros j; specialize (Ln_ j); destruct (nw_ j); [discriminate|auto]).
    destruct (H 0%nat ltac:(cbn; lia)) as (A1 & A2 & A3). cbn [nth] in A1, A2, A3. destruct (positive_follow _ _ A1 A2 A3) as [P1 P2].
    destruct (IH (fun j => tl (ll_ j)) nw (fun j => tl (nw_ j))) as [I1 I2].
    { split; [intros j; specialize (L j); destruct (ll_ j); cbn in *; lia|]. intros k Hk. specialize (H (S k) ltac:(cbn; lia)). cbn [nth] in H.
      assert (T : forall j, nth (S k) (ll_ j) [] = nth k (tl (ll_ j)) []) by (intros j; rewrite E1; auto).
      destruct H as (B1 & B2 & B3). split; [intros j; rewrite <- T; auto|]. split; [intros j i; rewrite <- T; apply B2|].
      apply cvv_ext with (fun j => nth (S k) (ll_ j) []); auto. }
    { cbn in Ln. lia. }
    { intros j. specialize (Ln_ j). destruct (nw_ j); cbn in *; lia. }
    { intros i. apply cv_ext with (fun j => nth (S i) (nw_ j) 0); [|apply (C (S i))]. intros j. rewrite E2. auto. }
    assert (SP : forall y nw ws ll, spread (y :: nw) (ws :: ll) = vscale y (positive_normalised ws) ++ spread nw ll) by reflexivity.
    assert (SJ : forall j, spread (nw_ j) (ll_ j) = vscale (nth 0 (nw_ j) 0) (positive_normalised (nth 0 (ll_ j) [])) ++ spread (tl (nw_ j)) (tl (ll_ j))).
    { intros j. rewrite <- SP, <- E1, <- E2. auto. }
    rewrite SP. split.
    + intros j. rewrite SJ, !app_length, !length_vscale, I1, P1. auto.
    + apply cvv_ext with (fun j => vscale (nth 0 (nw_ j) 0) (positive_normalised (nth 0 (ll_ j) [])) ++ spread (tl (nw_ j)) (tl (ll_ j))); [auto|].
      apply cvv_app; auto; [intros j; rewrite !length_vscale; auto|]. apply cvv_scale; auto. apply (C 0%nat).
Qed.
Lemma nth_rsum ll k : nth k (map rsum ll) 0 = rsum (nth k ll []).
Proof. exact (map_nth rsum ll [] k). Qed.
Lemma cluster_follow ll_ ll cw_ cw : lists_follow ll_ ll -> (forall ws, In ws ll -> nonneg ws) -> (forall j ws, In ws (ll_ j) -> nonneg ws) ->
  one_saturated_at_most (map rsum ll) -> ((forall k, nth k (map rsum ll) 0 < 1) -> rsum (map rsum ll) <> 1) ->
  (forall j, cluster_weights (ll_ j) = Ok (cw_ j)) -> cluster_weights ll = Ok cw ->
  (forall j, length (cw_ j) = length cw) /\ cvv cw_ cw.
Proof.
  intros LF N N_ OS SU E_ E. destruct LF as [L H].
  assert (SN : forall l, (forall ws, In ws l -> nonneg ws) -> nonneg (map rsum l)).
  { intros l Hl x I. apply in_map_iff in I as (ws & <- & I). apply rsum_nonneg. apply Hl. auto. }
  destruct (C170_shares (length ll) (fun j => map rsum (ll_ j)) (map rsum ll)) as (out_ & out & t_ & t & O1 & O2 & O3 & _); auto.
  - intros j. rewrite map_length. split; [auto|]. apply SN. apply N_.
  - apply map_length.
  - intros k. rewrite nth_rsum. apply cv_ext with (fun j => rsum (nth k (ll_ j) [])); [intros j; rewrite nth_rsum; auto|].
    destruct (Nat.lt_ge_cases k (length ll)) as [Hk|Hk].
    + destruct (H k Hk) as (A & _ & B). apply (cv_rsum (length (nth k ll []))); auto.
    + rewrite nth_overflow by auto. apply cv_ext with (fun _ => rsum []); [|apply cv_const]. intros j. rewrite nth_overflow; auto. rewrite L. auto.
  - intros k l Hk Hl. apply OS; auto.
    + destruct (Nat.lt_ge_cases k (length (map rsum ll))) as [|G]; auto. rewrite nth_overflow in Hk by auto. lra.
    + destruct (Nat.lt_ge_cases l (length (map rsum ll))) as [|G]; auto. rewrite nth_overflow in Hl by auto. lra.
  - assert (Q : cw = spread out ll).
    { unfold cluster_weights in E. destruct (length ll =? 0)%nat; [discriminate|]. rewrite O2 in E. cbn [bind] in E. injection E as <-. auto. }
    assert (Q_ : forall j, cw_ j = spread (out_ j) (ll_ j)).
    { intros j. specialize (E_ j). unfold cluster_weights in E_. destruct (length (ll_ j) =? 0)%nat; [discriminate|]. rewrite O1 in E_. cbn [bind] in E_. injection E_ as <-. auto. }
    destruct (spread_follow ll ll_ out out_) as [R1 R2]; auto.
    + split; auto.
    + destruct (C18_limited_weights_partial (map rsum ll) (SN _ N)) as (o & t' & O & Lo & _). rewrite O2 in O. injection O as <- _. rewrite Lo. apply map_length.
    + intros j. destruct (C18_limited_weights_partial (map rsum (ll_ j)) (SN _ (N_ j))) as (o & t' & O & Lo & _). rewrite O1 in O. injection O as <- _. rewrite Lo, map_length. auto.
    + rewrite Q. split; [intros j; rewrite Q_; auto|]. apply cvv_ext with (fun j => spread (out_ j) (ll_ j)); auto.
Qed.

(** ** C171 *)
Section Whole.
Variables (orth0 pick : vec -> vec) (sort : tree -> list nid) (power radius : R) (max_repulsion : option R) (n : nat).
Variables (position_ base_ : nat -> vec) (position base : vec) (trees : list btree).
Notation angle_of := (angle_space pick).
Notation SCENE := (scene orth0 angle_of pick sort power radius max_repulsion n).
Notation data_of := (tree_data angle_of power radius max_repulsion).
Notation hh_ j := (h angle_of power radius max_repulsion (position_ j) (base_ j)).
Notation hh := (h angle_of power radius max_repulsion position base).
Hypothesis SC_ : forall j, SCENE (position_ j) (base_ j) trees.
Hypothesis SC : SCENE position base trees.
Hypothesis Cb : cvv base_ base.
Hypothesis DATA : forall t ws_ rs_ rec_ ws rs rec, In t trees -> (forall j, data_of (position_ j) (base_ j) t = Ok (t, ws_ j, rs_ j, rec_ j)) ->
  data_of position base t = Ok (t, ws, rs, rec) ->
  cvv ws_ ws /\ same_sign ws_ ws /\
  forall i, (i < length (bt_comps t))%nat -> 0 < nth i ws 0 -> calm position_ base_ position base t i (fun j => nth i (rs_ j) 0) (nth i rs 0).
Hypothesis SUM : forall wss, Forall2 (fun t ws => tree_obstacle_weights angle_of position base power (mtree_of t) = Ok ws) trees wss ->
  (forall k, nth k (map rsum wss) 0 < 1) -> rsum (map rsum wss) <> 1.

Lemma scene_walk_fine p b t i : SCENE p b trees -> In t trees -> (i < length (bt_comps t))%nat -> walk_fine n p t i.
Proof.
  intros S I Hi w Ew. destruct (sc_branch _ _ _ _ _ _ _ _ _ _ _ S t i I Hi) as (w' & Ew' & LK). rewrite Ew in Ew'. injection Ew' as <-.
  destruct (walk_first_normal _ _ _ _ Ew) as (c & surf & d & Ec & En & Rf & _).
  destruct (normal_at_distance_form _ _ _ _ En) as (q & Eq). rewrite Rf, Eq in *. apply get_bcomp_in in Ec.
  destruct (sc_normal _ _ _ _ _ _ _ _ _ _ _ S t c q I Ec), (sc_refdir _ _ _ _ _ _ _ _ _ _ _ S t c I Ec). auto 10.
Qed.
Definition ws_of (d : btree * list R * list R * (R * R)) : list R := snd (fst (fst d)).
Definition rs_of (d : btree * list R * list R * (R * R)) : list R := snd (fst d).
Lemma tree_facts t : In t trees ->
  (forall j, hh_ j t = (t, ws_of (hh_ j t), rs_of (hh_ j t), snd (hh_ j t)) /\ length (ws_of (hh_ j t)) = length (bt_comps t) /\ nonneg (ws_of (hh_ j t)) /\
     tree_obstacle_weights angle_of (position_ j) (base_ j) power (mtree_of t) = Ok (ws_of (hh_ j t))) /\
  hh t = (t, ws_of (hh t), rs_of (hh t), snd (hh t)) /\ length (ws_of (hh t)) = length (bt_comps t) /\ nonneg (ws_of (hh t)) /\
     tree_obstacle_weights angle_of position base power (mtree_of t) = Ok (ws_of (hh t)) /\
  cvv (fun j => ws_of (hh_ j t)) (ws_of (hh t)) /\ same_sign (fun j => ws_of (hh_ j t)) (ws_of (hh t)) /\
  forall i, (i < length (bt_comps t))%nat -> 0 < nth i (ws_of (hh t)) 0 -> comp_calm n position_ base_ position base t (fun j => rs_of (hh_ j t)) (rs_of (hh t)) i.
Proof.
  intros I.
  assert (A : forall p b, SCENE p b trees -> let d := h angle_of power radius max_repulsion p b t in data_of p b t = Ok (t, ws_of d, rs_of d, snd d) /\ d = (t, ws_of d, rs_of d, snd d) /\
    length (ws_of d) = length (bt_comps t) /\ nonneg (ws_of d) /\ tree_obstacle_weights angle_of p b power (mtree_of t) = Ok (ws_of d) /\
    (forall i, (i < length (bt_comps t))%nat -> PI / 2 <= nth i (rs_of d) 0 <= PI)).
  { intros p b S. cbv zeta. destruct (h_ok _ _ _ _ _ _ _ _ _ _ _ S t I) as (ws & rs & rec & E & Eh & Ew & L & N & _ & _ & HR).
    rewrite Eh. unfold ws_of, rs_of. cbn [fst snd]. auto 10. }
  pose proof (fun j => A _ _ (SC_ j)) as A_. pose proof (A _ _ SC) as A0. cbv zeta in A_, A0. clear A.
  destruct A0 as (E & Eh & L & N & Ew & HR).
  destruct (DATA t (fun j => ws_of (hh_ j t)) (fun j => rs_of (hh_ j t)) (fun j => snd (hh_ j t)) _ _ _ I (fun j => proj1 (A_ j)) E) as (C & S & K).
  split; [intros j; destruct (A_ j) as (_ & B1 & B2 & B3 & B4 & _); auto|].
  split; [auto|]. split; [auto|]. split; [auto|]. split; [auto|]. split; [auto|]. split; [auto|].
  intros i Hi P. split; [apply K; auto|]. split; [intros j; eapply scene_walk_fine; eauto|]. split; [eapply scene_walk_fine; eauto|].
  split; [intros j; apply (A_ j); auto|apply HR; auto].
Qed.
Lemma lists_scene : lists_follow (fun j => map ws_of (map (hh_ j) trees)) (map ws_of (map hh trees)).
Proof.
  split; [intros j; rewrite !map_length; auto|]. intros k Hk. rewrite !map_length in Hk.
  destruct (nth_error trees k) as [t|] eqn:Et; [|apply nth_error_None in Et; lia].
  assert (I : In t trees) by (eapply nth_error_In; eauto).
  assert (X : forall f : btree -> btree * list R * list R * (R * R), nth k (map ws_of (map f trees)) [] = ws_of (f t)).
  { intros f. rewrite map_map. apply nth_error_nth. rewrite nth_error_map, Et. auto. }
  destruct (tree_facts t I) as (A & _ & L & _ & _ & C & S & _). rewrite (X hh).
  split; [intros j; rewrite (X (hh_ j)), L; apply A|]. split; [intros j i; rewrite (X (hh_ j)); apply S|].
  apply cvv_ext with (fun j => ws_of (hh_ j t)); auto.
Qed.
Lemma sat_scene : one_saturated_at_most (map rsum (map ws_of (map hh trees))).
Proof.
  intros i j Hi Hj Si Sj. rewrite !map_length in Hi, Hj. destruct trees as [|t0 ts] eqn:Et; [cbn in Hi; lia|]. rewrite <- Et in *.
  assert (K : forall k, (k < length trees)%nat -> 1 <= nth k (map rsum (map ws_of (map hh trees))) 0 -> in_contact position (mtree_of (nth k trees t0))).
  { intros k Hk Sk. rewrite nth_rsum in Sk. rewrite map_map in Sk.
    assert (X : nth k (map (fun x => ws_of (hh x)) trees) [] = ws_of (hh (nth k trees t0))).
    { rewrite (nth_indep _ [] (ws_of (hh t0))) by (rewrite map_length; auto). apply (map_nth (fun x => ws_of (hh x))). }
    rewrite X in Sk. destruct (classic (in_contact position (mtree_of (nth k trees t0)))) as [|NC]; auto.
    assert (I : In (nth k trees t0) trees) by (apply nth_In; auto).
    destruct (tree_obstacle_weights_spec angle_of position base power (mtree_of (nth k trees t0)) (sc_power _ _ _ _ _ _ _ _ _ _ _ SC)) as (ws' & Q' & _ & _ & _ & C).
    { apply (sc_well _ _ _ _ _ _ _ _ _ _ _ SC). auto. }
    destruct (tree_facts _ I) as (_ & _ & _ & _ & Q & _). rewrite Q in Q'. injection Q' as <-. specialize (C NC). lra. }
  apply (sc_contact _ _ _ _ _ _ _ _ _ _ _ SC i j t0); auto.
Qed.
Lemma root_follow : exists tt0 d_, set_root empty_tree base_vel_id base = Ok tt0 /\
  (forall j, set_root empty_tree base_vel_id (base_ j) = Ok (redirected (d_ j) tt0)) /\ follows n d_ tt0.
Proof.
  pose proof (sc_dim _ _ _ _ _ _ _ _ _ _ _ SC) as Hn. destruct (sc_base _ _ _ _ _ _ _ _ _ _ _ SC) as [Lb Ub].
  destruct (root_tree _ _ _ _ _ _ _ _ _ _ _ SC) as (tt0 & E0 & N0 & N1).
  assert (RT : forall b t, set_root empty_tree base_vel_id b = Ok t -> t_root t = Some base_vel_id).
  { intros b t E. unfold set_root in E. destruct (from_directions b b); [|discriminate]. cbn [bind] in E. injection E as <-. auto. }
  exists tt0, (fun j _ => direction (base_ j)). split; [auto|]. split.
  - intros j. destruct (root_tree _ _ _ _ _ _ _ _ _ _ _ (SC_ j)) as (t1 & E1 & M0 & M1). rewrite E1. f_equal.
    pose proof (RT _ _ E0) as R0. pose proof (RT _ _ E1) as R1. destruct tt0 as [a b c], t1 as [a' b' c']. cbn [t_nodes t_edges t_root] in *. subst.
    unfold redirected. cbn [t_nodes t_edges t_root map fst snd option_map a_level]. auto.
  - intros x a E. assert (Ea : a = mkAttrs 0 (direction base)).
    { unfold get_attrs in E. rewrite N0 in E. cbn [assoc] in E. destruct (nid_eqb x base_vel_id); [|discriminate]. injection E as <-. auto. }
    subst a. cbn [a_dir].
    assert (Nj : forall j, norm (base_ j) <> 0) by (intros j; destruct (sc_base _ _ _ _ _ _ _ _ _ _ _ (SC_ j)) as [_ U]; rewrite (proj1 (unit_norm _) U); lra).
    assert (Lj : lenn n base_) by (intros j; apply (sc_base _ _ _ _ _ _ _ _ _ _ _ (SC_ j))). split.
    + intros j. split; [rewrite dirof_length; apply Lj|apply dirof_unit; auto].
    + apply (cvv_direction n); auto. rewrite (proj1 (unit_norm _) Ub). lra.
Qed.
Notation evaluate := (evaluate_avoidance orth0 angle_of (get_projected_tangent pick) sort power radius max_repulsion).
Lemma whole_follow s_ s : (forall j, get_end_vector (s_ j) = Ok (base_ j)) -> get_end_vector s = Ok base ->
  exists final_ normals_ cw_ records_ fv_ final normals cw records fv,
    (forall j, evaluate (position_ j) (s_ j) trees = Ok (final_ j, normals_ j, cw_ j, records_ j) /\ get_end_vector (final_ j) = Ok (fv_ j)) /\
    evaluate position s trees = Ok (final, normals, cw, records) /\ get_end_vector final = Ok fv /\
    cvv fv_ fv /\ cvv cw_ cw /\ normals_follow n normals_ normals.
Proof.
  intros Eb_ Eb. pose proof (sc_dim _ _ _ _ _ _ _ _ _ _ _ SC) as Hn. destruct (sc_base _ _ _ _ _ _ _ _ _ _ _ SC) as [Lb Ub].
  assert (Ub_ : units n base_) by (intros j; apply (sc_base _ _ _ _ _ _ _ _ _ _ _ (SC_ j))).
  destruct (evaluate_avoidance_ok _ _ _ _ _ _ _ n position s base trees SC Eb)
    as (tx & data & final & normals & cw & fv & Ed & Ea & _ & _ & _ & FI & _ & _ & Ec & _ & Ef & Uf & Lf & Nc & Sc & _ & Lcw & _).
  destruct root_follow as (tt0 & d0_ & E0 & E0_ & F0).
  destruct (population_run _ _ _ _ _ _ _ _ _ _ _ SC trees tt0 (fun t I => I) E0) as (u & nm & M & P & W & ND & IDS).
  rewrite Ed in M. injection M as ->. set (D := map fst (map hh trees)) in *.
  destruct (all_follow n Hn pick (sc_pick _ _ _ _ _ _ _ _ _ _ _ SC) position_ base_ position base Ub_ Lb Cb D (fun j => map fst (map (hh_ j) trees)) 0%Z tt0 d0_ u (end_keys 0 D) nm F0)
    as (d_ & nm_ & P_ & F & NF); [| |exact P|].
  { intros j. unfold D. rewrite !map_length. auto. }
  { intros k x Hk. unfold D in *. rewrite !map_length in Hk. destruct (nth_error trees k) as [t|] eqn:Et; [|apply nth_error_None in Et; lia].
    assert (I : In t trees) by (eapply nth_error_In; eauto).
    assert (X : forall f : btree -> btree * list R * list R * (R * R), nth k (map fst (map f trees)) x = fst (f t)).
    { intros f. rewrite map_map. apply nth_error_nth. rewrite nth_error_map, Et. auto. }
    destruct (tree_facts t I) as (A & B & _ & _ & _ & C & S & K). rewrite (X hh), B. cbn [fst]. unfold data_calm.
    exists (fun j => ws_of (hh_ j t)), (fun j => rs_of (hh_ j t)). split; [|auto]. intros j. rewrite (X (hh_ j)). destruct (A j) as [-> _]. auto. }
  set (K := end_keys 0 D) in *.
  assert (KE : forall j, end_keys 0 (map fst (map (hh_ j) trees)) = K).
  { intros j. destruct (population_run _ _ _ _ _ _ _ _ _ _ _ (SC_ j) trees _ (fun t I => I) (E0_ j)) as (u' & nm' & _ & P' & _). rewrite P_ in P'. injection P' as _ <- _. auto. }
  set (ev := fun j => evaluate (position_ j) (s_ j) trees).
  set (cw_ := fun j => match ev j with Ok (_, _, c, _) => c | Err _ => [] end).
  set (fi_ := fun j => match ev j with Ok (f, _, _, _) => f | Err _ => [] end).
  set (re_ := fun j => match ev j with Ok (_, _, _, r) => r | Err _ => [] end).
  assert (RW : map (fun d : btree * list R * list R * (R * R) => snd (fst (fst d))) (map hh trees) = map ws_of (map hh trees)) by reflexivity.
  assert (J : forall j, evaluate (position_ j) (s_ j) trees = Ok (fi_ j, nm_ j, cw_ j, re_ j) /\ (exists x, get_end_vector (fi_ j) = Ok x) /\
     cluster_weights (map ws_of (map (hh_ j) trees)) = Ok (cw_ j) /\ nonneg (cw_ j) /\ rsum (cw_ j) <= 1 /\
     reduce_weighted_to_sequence orth0 (redirected (d_ j) u) (fun _ => mkSlot 0 None None None) (sort (redirected (d_ j) u)) (K ++ [base_vel_id]) (cw_ j ++ [1 - rsum (cw_ j)]) = Ok (fi_ j)).
  { intros j. destruct (evaluate_avoidance_ok _ _ _ _ _ _ _ n (position_ j) (s_ j) (base_ j) trees (SC_ j) (Eb_ j))
      as (tx' & data' & final' & normals' & cw' & fv' & Ed' & Ea' & _ & _ & _ & _ & _ & _ & Ec' & _ & Ef' & _ & _ & Nc' & Sc' & _).
    destruct (population_run _ _ _ _ _ _ _ _ _ _ _ (SC_ j) trees _ (fun t I => I) (E0_ j)) as (u' & nm' & M' & P' & _).
    rewrite Ed' in M'. injection M' as ->. rewrite P_ in P'. injection P' as <- _ <-.
    assert (Q1 : cw_ j = cw') by (unfold cw_, ev; rewrite Ea'; auto). assert (Q2 : fi_ j = final') by (unfold fi_, ev; rewrite Ea'; auto).
    assert (Q3 : re_ j = map snd (map (hh_ j) trees)) by (unfold re_, ev; rewrite Ea'; auto). rewrite Q1, Q2, Q3.
    assert (R1 := Ea'). unfold evaluate_avoidance in R1. rewrite Eb_ in R1. cbn [bind] in R1. rewrite E0_ in R1. cbn [bind] in R1.
    rewrite Ed' in R1. cbn [bind] in R1. rewrite P_ in R1. cbn [bind] in R1. rewrite Ec' in R1. cbn [bind] in R1.
    destruct (reduce_weighted_to_sequence orth0 _ _ _ _ _) as [sq|] eqn:Er; [|discriminate]. cbn [bind] in R1. injection R1 as <- <-.
    split; [exact Ea'|]. split; [eauto|]. split; [exact Ec'|]. auto. }
  assert (R1 := Ea). unfold evaluate_avoidance in R1. rewrite Eb in R1. cbn [bind] in R1. rewrite E0 in R1. cbn [bind] in R1.
  rewrite Ed in R1. cbn [bind] in R1. fold D in R1. rewrite P in R1. cbn [bind] in R1. rewrite Ec in R1. cbn [bind] in R1.
  destruct (reduce_weighted_to_sequence orth0 u _ _ _ _) as [sq|] eqn:Er; [|discriminate]. cbn [bind] in R1. injection R1 as <- <-.
  assert (NN : forall ws, In ws (map ws_of (map hh trees)) -> nonneg ws).
  { intros ws I. rewrite map_map in I. apply in_map_iff in I as (t & <- & I). apply (tree_facts t I). }
  assert (NN_ : forall j ws, In ws (map ws_of (map (hh_ j) trees)) -> nonneg ws).
  { intros j ws I. rewrite map_map in I. apply in_map_iff in I as (t & <- & I). destruct (tree_facts t I) as (A & _). apply (A j). }
  rewrite RW in Ec.
  destruct (cluster_follow (fun j => map ws_of (map (hh_ j) trees)) (map ws_of (map hh trees)) cw_ cw lists_scene NN NN_ sat_scene) as [LC CC]; auto.
  { apply SUM. assert (G : forall l, (forall t, In t l -> In t trees) -> Forall2 (fun t ws => tree_obstacle_weights angle_of position base power (mtree_of t) = Ok ws) l (map ws_of (map hh l))).
    { induction l as [|t l IH]; intros H; cbn [map]; constructor; [apply (tree_facts t); apply H; left; auto|apply IH; intros; apply H; right; auto]. }
    apply G; auto. }
  { intros j. apply J. }
  set (l := K ++ [base_vel_id]) in *. set (fw := cw ++ [1 - rsum cw]) in *. set (fw_ := fun j => cw_ j ++ [1 - rsum (cw_ j)]) in *.
  assert (S1 : rsum fw = 1) by (unfold fw; rewrite rsum_app; simpl; ring).
  assert (S1_ : forall j, rsum (fw_ j) = 1) by (intros j; unfold fw_; rewrite rsum_app; simpl; ring).
  assert (Nf : nonneg fw) by (intros x I; apply in_app_iff in I; destruct I as [I|[<-|[]]]; [auto|lra]).
  assert (Nf_ : forall j, nonneg (fw_ j)).
  { intros j x I. destruct (J j) as (_ & _ & _ & A & B & _). apply in_app_iff in I. destruct I as [I|[<-|[]]]; [auto|lra]. }
  assert (LK : length K = length cw) by (unfold K, end_keys; rewrite map_length, <- Lcw; apply (Forall2_len _ _ _ FI)).
  assert (LL : length l = length fw) by (unfold l, fw; rewrite !app_length; cbn [length]; lia).
  assert (LL_ : forall j, length l = length (fw_ j)) by (intros j; unfold l, fw_; rewrite !app_length, LC; cbn [length]; lia).
  destruct (sc_tangent_tree _ _ _ _ _ _ _ _ _ _ _ SC tt0 u _ _ _ E0 Ed P) as [NO DI].
  assert (ND_ : forall j, no_opposite (redirected (d_ j) u) /\ distinguishable (redirected (d_ j) u) /\ rooted_tree n (redirected (d_ j) u) base_vel_id).
  { intros j. destruct (population_run _ _ _ _ _ _ _ _ _ _ _ (SC_ j) trees _ (fun t I => I) (E0_ j)) as (u' & nm' & M' & P' & W' & _).
    destruct (sc_tangent_tree _ _ _ _ _ _ _ _ _ _ _ (SC_ j) _ u' _ _ _ (E0_ j) M' P') as [A B]. rewrite P_ in P'. injection P' as <- _ _. auto. }
  set (st := fun _ : nid => mkSlot 0 None None None) in *.
  destruct (C165_continuous n u base_vel_id d_ (sort u) orth0 (fun _ => st) st l fw_ fw (fun j => own_of l (fw_ j)) (own_of l fw)) as (mean_ & mean & G1 & G2 & _ & _ & G3); auto.
  { apply (sc_sort _ _ _ _ _ _ _ _ _ _ _ SC u base_vel_id W). }
  { intros j x a Nx. apply (get_attrs_node n u _ W) in Nx. apply (F x a Nx). }
  { intros j. split; apply (ND_ j). }
  { intros x a i Nx. apply (get_attrs_node n u _ W) in Nx. apply (F x a Nx). }
  { apply (sc_orth _ _ _ _ _ _ _ _ _ _ _ SC). }
  { intros j. apply own_of_assigned; auto. }
  { apply own_of_assigned; auto. }
  { intros j. apply own_of_nonneg; auto. }
  { apply own_of_nonneg; auto. }
  { intros j. rewrite S1_. lra. }
  { rewrite S1. lra. }
  { change (cvv fw_ fw). apply cvv_app; auto. intros [|i]; cbn [nth]; [|destruct i; apply cv_const]. apply cv_sub; [apply cv_const|]. apply (cv_rsum (length cw)); auto. }
  exists fi_, nm_, cw_, re_, mean_, sq, nm, cw, (map snd (map hh trees)), mean.
  split; [|split; [exact Ea|split; [|split; [exact G3|split; [exact CC|exact NF]]]]].
  - intros j. destruct (J j) as (A1 & (x & A2) & _ & _ & _ & A6). split; [exact A1|]. rewrite A2.
    destruct (ND_ j) as (NOj & DIj & Wj). specialize (G1 j). unfold get_weighted_mean in G1.
    pose proof (no_opposite_dirn n _ _ Wj NOj) as NAj.
    assert (AS : assigned (redirected (d_ j) u) l (fw_ j) (own_of l (fw_ j))).
    { apply own_of_assigned; auto. intros y Iy. change (In y (ids (redirected (d_ j) u))). rewrite red_ids. apply IDS. auto. }
    assert (SLj : level_sorted (redirected (d_ j) u) (sort (redirected (d_ j) u))) by apply (sc_sort _ _ _ _ _ _ _ _ _ _ _ SC _ base_vel_id Wj).
    pose proof (total_root n _ _ l (fw_ j) _ Wj Hn NOj AS (ex_intro _ _ SLj)) as TR.
    destruct (assigned_len _ _ _ _ AS) as [HL HI].
    rewrite (reduce_sort_independent n (redirected (d_ j) u) base_vel_id Wj Hn NAj (sort u) (sort (redirected (d_ j) u))) with (own := own_of l (fw_ j)) (st0' := st) in G1; auto.
    + fold st in A6. fold (fw_ j) in A6. rewrite A6 in G1. cbn [bind] in G1. rewrite A2 in G1. exact G1.
    + apply red_sorted. apply (sc_sort _ _ _ _ _ _ _ _ _ _ _ SC u base_vel_id W).
    + intros y _. apply own_of_nonneg; auto.
    + rewrite TR, S1_. lra.
    + intros p x0 Ep _. apply (distinguishable_dirn n _ _ Wj DIj). auto.
    + apply (assigned_own (redirected (d_ j) u)); auto.
  - unfold get_weighted_mean in G2. fold st in Er. rewrite Er in G2. cbn [bind] in G2. exact G2.
Qed.
End Whole.
Theorem C171_direction : forall orth0 pick sort power radius max_repulsion n position_ base_ position base trees s_ s,
  let angle_of := angle_space pick in
  let evaluate := evaluate_avoidance orth0 angle_of (get_projected_tangent pick) sort power radius max_repulsion in
  (forall j, scene orth0 angle_of pick sort power radius max_repulsion n (position_ j) (base_ j) trees) ->
  scene orth0 angle_of pick sort power radius max_repulsion n position base trees ->
  cvv base_ base ->
  (forall t ws_ rs_ rec_ ws rs rec, In t trees ->
     (forall j, tree_data angle_of power radius max_repulsion (position_ j) (base_ j) t = Ok (t, ws_ j, rs_ j, rec_ j)) ->
     tree_data angle_of power radius max_repulsion position base t = Ok (t, ws, rs, rec) ->
     cvv ws_ ws /\ same_sign ws_ ws /\
     forall i, (i < length (bt_comps t))%nat -> 0 < nth i ws 0 -> calm position_ base_ position base t i (fun j => nth i (rs_ j) 0) (nth i rs 0)) ->
  (forall wss, Forall2 (fun t ws => tree_obstacle_weights angle_of position base power (mtree_of t) = Ok ws) trees wss ->
     (forall k, nth k (map rsum wss) 0 < 1) -> rsum (map rsum wss) <> 1) ->
  (forall j, get_end_vector (s_ j) = Ok (base_ j)) -> get_end_vector s = Ok base ->
  exists final_ normals_ cw_ records_ fv_ final normals cw records fv,
    (forall j, evaluate (position_ j) (s_ j) trees = Ok (final_ j, normals_ j, cw_ j, records_ j) /\ get_end_vector (final_ j) = Ok (fv_ j)) /\
    evaluate position s trees = Ok (final, normals, cw, records) /\ get_end_vector final = Ok fv /\
    cvv fv_ fv /\ cvv cw_ cw /\ normals_follow n normals_ normals.
Proof. cbv zeta. intros. eapply whole_follow; eauto. Qed.

(** ** Sliding along a wall while the wanted velocity turns *)
Lemma wall_walk_at y : branch_walk [1; y] 0 wall_tree = Ok (mkWalk [0%nat] [[1; 0]] [[-1; 0]] [1; y]).
Proof.
  unfold branch_walk, branch_walk_upto. simpl. destruct (Rltb 1 1) eqn:E; [|reflexivity].
  apply Rltb_true in E. lra.
Qed.
Lemma wall_tangent x y : unitv [x; y] -> x < 0 -> y <> 0 ->
  exists t, get_projected_tangent left_of [x; y] [1; 0] [-1; 0] (PI / 2) = Ok t /\ (t = [0; 1] \/ t = [0; -1]).
Proof.
  intros U Hx Hy. pose proof PI_RGT_0 as HP.
  destruct (C60_projected_tangent 2 left_of [x; y] [1; 0] [-1; 0] (PI / 2)) as (t & s & a & E & L & Ut & A & _); auto; try (unfold unitv, dot; simpl; lra).
  - apply picks_2d.
  - intros _ Q. injection Q as _ Q. auto.
  - intros _ Q. unfold vscale in Q. simpl in Q. injection Q as _ Q. apply Hy. rewrite Q. ring.
  - exists t. split; auto. destruct t as [|p [|q [|]]]; simpl in L; try lia.
    assert (U1 : unitv [1; 0]) by (unfold unitv, dot; simpl; ring).
    pose proof (unit_dot_bounds _ _ Ut U1). assert (D : dot [p; q] [1; 0] = 0).
    { assert (C : cos (acos (- dot [p; q] [1; 0])) = 0) by (rewrite A; apply cos_PI2). rewrite cos_acos in C by lra. lra. }
    unfold unitv, dot in *. simpl in *. assert (p = 0) by lra. subst p. assert (Q : (q - 1) * (q + 1) = 0) by lra.
    apply Rmult_integral in Q as [Q|Q]; [left|right]; do 2 f_equal; lra.
Qed.
Lemma wall_data angle_of power x y b d : 0 <= power -> tree_data angle_of power (PI * / 2) None [1; y] [x; b] wall_tree = Ok d ->
  exists rec, d = (wall_tree, [1], [PI * / 2], rec).
Proof.
  intros Hp E. unfold tree_data in E. destruct (convergence_record _ _ _ _ _) as [rec|]; [|discriminate]. cbn [bind] in E.
  assert (G : tree_gamma_and_weights angle_of [1; y] [x; b] power (mtree_of wall_tree) = Ok ([1], [1])).
  { unfold tree_gamma_and_weights. change (tree_gammas [1; y] (mtree_of wall_tree)) with [1].
    assert (D : compute_weights_from_distances [1] 1 false = Ok [1]).
    { unfold compute_weights_from_distances, count_le. cbn [filter length map]. rewrite (proj2 (Rleb_true 1 1)) by lra. cbn [length Nat.ltb Nat.leb map]. simpl. repeat f_equal. field. }
    rewrite D. cbn [bind]. change (get_component (mtree_of wall_tree) (m_root (mtree_of wall_tree))) with (Ok (b_comp wall)). cbn [bind].
    change (rmin_list [1]) with 1. unfold get_rotation_weight. destruct (Rle_dec 1 1); [|lra]. cbn [bind].
    unfold compute_gamma_and_weights. rewrite D. cbn [bind]. replace (rsum [1]) with 1 by (simpl; ring).
    rewrite (proj2 (Reqb_false 1 0)) by lra. cbn [orb map]. repeat f_equal. field. }
  rewrite G in E. cbn [bind] in E. unfold tree_obstacle_weights in E. rewrite G in E. cbn [bind] in E.
  assert (O : compute_parent_occlusion_weight [1; y] (mtree_of wall_tree) = Ok [1]) by reflexivity.
  rewrite O in E. cbn [bind combine map fst snd] in E. unfold tree_radiuses in E. cbn [combine mapM bind bt_comps wall_tree] in E.
  rewrite C27_repulsion_disabled in E. cbn [bind map] in E. injection E as <-. exists rec. do 3 f_equal. f_equal. ring.
Qed.
Lemma wall_scene_at orth0 angle_of power x y b : (forall v, length (orth0 v) = length v) -> 0 <= power ->
  unitv [x; b] -> x <= - (1 / 4) -> b <> 0 ->
  scene orth0 angle_of left_of sort_by_level power (PI * / 2) None 2 [1; y] [x; b] [wall_tree].
Proof.
  intros Ho Hp U Hx Hb. pose proof PI_RGT_0 as HP. constructor; auto.
  - apply sort_by_level_sorted.
  - discriminate.
  - apply picks_2d.
  - intros t [<-|[]]. split; [simpl; lia|]. simpl. intros i Hi Ni. lia.
  - intros i j d Hi Hj _ _. simpl in *. lia.
  - intros t c [<-|[]] [<-|[]]. split; auto. unfold unitv, dot. simpl. ring.
  - intros t c p [<-|[]] [<-|[]]. split; auto. unfold unitv, dot. simpl. ring.
  - intros t i [<-|[]] Hi. simpl in Hi. replace i with 0%nat by lia. eexists. split; [apply wall_walk_at|].
    simpl. split; auto. split; auto. apply norm_neq_0_dot. unfold dot. simpl. lra.
  - lra.
  - discriminate.
  - intros t c _ _ _ N. contradiction.
  - intros tt0 tt data nodes normals E0 Ed Ep.
    destruct (wall_tangent x b U ltac:(lra) Hb) as (t & Et & Vt).
    set (P := fun d : vec => d = [x; b] \/ d = t).
    assert (Dd : exists rec, data = [(wall_tree, [1], [PI * / 2], rec)]).
    { cbn [mapM] in Ed. destruct (tree_data _ _ _ _ _ _ _) as [d|] eqn:Q; [|discriminate]. apply wall_data in Q as (rec & ->); auto.
      cbn [bind] in Ed. injection Ed as <-. eauto. }
    destruct Dd as (rec & ->). cbn [map fst] in Ep.
    assert (Ut : unitv t) by (destruct Vt as [-> | ->]; unfold unitv, dot; simpl; ring).
    assert (Lt : length t = 2%nat) by (destruct Vt as [-> | ->]; auto).
    assert (C0 : within P tt0).
    { destruct (set_root_rooted 2 base_vel_id [x; b] tt0 ltac:(lia) eq_refl E0) as (W0 & N0 & _). split; auto.
      intros z a N. unfold node in N. rewrite N0 in N. destruct N as [N|[]]. injection N as <- <-.
      simpl. rewrite (proj1 (unit_norm _) U). left. unfold vdiv, vscale. simpl. f_equal; [field|f_equal; field]. }
    assert (C : within P tt).
    { cbn [populate_all] in Ep. unfold populate_tree in Ep.
      destruct (lift (add_node tt0 (node_key 0 (-1) (-1)) [x; b] (Some base_vel_id) None None)) as [t1|] eqn:E1; [|discriminate].
      pose proof (within_add P tt0 _ _ [x; b] t1 eq_refl U (or_introl eq_refl) C0 E1) as C1. cbn [bind] in Ep.
      simpl length in Ep. cbn [seq populate_components] in Ep. cbn [nth] in Ep.
      destruct (Rle_dec 1 0); [lra|].
      unfold branch_update in Ep. rewrite wall_walk_at in Ep. cbn [bind branch_steps branch_nodes w_refs w_ids tl combine rev w_normals] in Ep.
      change (get_bcomp wall_tree 0) with (Ok wall) in Ep. cbn [bind nth] in Ep.
      assert (Q : c_tail (b_comp wall) || Rltb (dot [1; 0] [x; b]) 0 = true) by (apply Rltb_true; unfold dot; simpl; lra).
      rewrite Q in Ep. rewrite (proj2 (Rltb_false (PI * / 2) (PI * / 2))) in Ep by lra.
      change (PI * / 2) with (PI / 2) in Ep. cbn [bind] in Ep. rewrite Et in Ep. cbn [bind] in Ep.
      destruct (lift (add_node t1 _ t _ None None)) as [t3|] eqn:E3; [|discriminate].
      pose proof (within_add P t1 _ _ t t3 Lt Ut (or_intror eq_refl) C1 E3) as C3.
      cbn [bind] in Ep. injection Ep as <- _ _. auto. }
    destruct C as [W C]. unfold unitv, dot in U. simpl in U.
    assert (N1 : isclose x 0 = false) by (unfold isclose; apply Rleb_false; rewrite Rabs_R0, Rabs_left by lra; lra).
    assert (N2 : isclose 0 x = false) by (unfold isclose; apply Rleb_false; rewrite (Rabs_left x), (Rabs_pos_eq (0 - x)) by lra; assert (x >= -1) by nra; lra).
    split.
    + intros p z a b' _ Na Nb. destruct (C p a Na) as [-> | ->], (C z b' Nb) as [-> | ->]; destruct Vt as [-> | ->];
        unfold dot; simpl; intros Q; nra.
    + intros p z a b' _ Na Nb. destruct (C p a Na) as [-> | ->], (C z b' Nb) as [-> | ->]; auto; right;
        destruct Vt as [-> | ->]; unfold allclose; simpl; rewrite ?N1, ?N2; auto.
Qed.
(** The wanted velocity turns towards [-3/5; 4/5] while the robot slides along the wall: the avoidance is continuous there. *)
Definition turning (a : R) : vec := [- ((1 - a * a) / (1 + a * a)); 2 * a / (1 + a * a)].
Lemma turning_facts a : 1 / 2 <= a <= 3 / 4 -> unitv (turning a) /\ - ((1 - a * a) / (1 + a * a)) <= - (1 / 4) /\ 2 * a / (1 + a * a) <> 0.
Proof.
  intros Ha. assert (0 < 1 + a * a) by nra. split; [|split].
  - unfold unitv, turning, dot. simpl. field. lra.
  - apply Ropp_le_contravar. apply Rmult_le_reg_r with (1 + a * a); auto. replace ((1 - a * a) / (1 + a * a) * (1 + a * a)) with (1 - a * a) by (field; lra). nra.
  - apply Rgt_not_eq. apply Rdiv_lt_0_compat; lra.
Qed.
Example C171_case : forall orth0 s_ s, (forall v, length (orth0 v) = length v) ->
  (forall j, get_end_vector (s_ j) = Ok (turning (1 / 2 + dying j / 4))) -> get_end_vector s = Ok [-3 / 5; 4 / 5] ->
  let evaluate := evaluate_avoidance orth0 (angle_space left_of) (get_projected_tangent left_of) sort_by_level 1 (PI * / 2) None in
  exists final_ normals_ cw_ records_ fv_ final normals cw records fv,
    (forall j, evaluate [1; dying j] (s_ j) [wall_tree] = Ok (final_ j, normals_ j, cw_ j, records_ j) /\ get_end_vector (final_ j) = Ok (fv_ j)) /\
    evaluate [1; 0] s [wall_tree] = Ok (final, normals, cw, records) /\ get_end_vector final = Ok fv /\
    cvv fv_ fv /\ cvv cw_ cw /\ normals_follow 2 normals_ normals.
Proof.
  intros orth0 s_ s Ho Es_ Es. cbv zeta. pose proof PI_RGT_0 as HP.
  assert (Rg : forall j, 1 / 2 <= 1 / 2 + dying j / 4 <= 3 / 4) by (intros j; pose proof (dying_range j); lra).
  assert (E0 : turning (1 / 2) = [-3 / 5; 4 / 5]) by (unfold turning; f_equal; [lra|f_equal; lra]).
  rewrite <- E0 in Es.
  assert (Ca : Un_cv (fun j => 1 / 2 + dying j / 4) (1 / 2)).
  { pose proof (cv_add _ _ _ _ (cv_const (1 / 2)) (cv_mul dying (fun _ => / 4) 0 (/ 4) dying_cv (cv_const (/ 4)))) as Q.
    replace (1 / 2 + 0 * / 4) with (1 / 2) in Q by lra. exact Q. }
  assert (Cq : Un_cv (fun j => (1 / 2 + dying j / 4) * (1 / 2 + dying j / 4)) (1 / 2 * (1 / 2))) by (apply cv_mul; auto).
  assert (CB : cvv (fun j => turning (1 / 2 + dying j / 4)) (turning (1 / 2))).
  { unfold turning. intros [|[|i]]; cbn [nth]; [| |destruct i; apply cv_const].
    - apply cv_opp. apply cv_div; [apply cv_sub; auto; apply cv_const|apply cv_add; auto; apply cv_const|lra].
    - apply cv_div; [apply cv_mul; auto; apply cv_const|apply cv_add; auto; apply cv_const|lra]. }
  apply (C171_direction orth0 left_of sort_by_level 1 (PI * / 2) None 2 (fun j => [1; dying j]) (fun j => turning (1 / 2 + dying j / 4)) [1; 0] (turning (1 / 2)) [wall_tree] s_ s); auto.
  - intros j. destruct (turning_facts _ (Rg j)) as (A & B & C). apply wall_scene_at; auto. lra.
  - destruct (turning_facts (1 / 2) ltac:(lra)) as (A & B & C). apply wall_scene_at; auto. lra.
  - intros t ws_ rs_ rec_ ws rs rec [<-|[]] D_ D.
    apply wall_data in D as (r & Q); [|lra]. injection Q as -> -> _.
    assert (Q : forall j, ws_ j = [1] /\ rs_ j = [PI * / 2]).
    { intros j. specialize (D_ j). apply wall_data in D_ as (r' & Q); [|lra]. injection Q as -> -> _. auto. }
    split; [apply cvv_ext with (fun _ => [1]); [intros j; symmetry; apply Q|apply cvv_const]|].
    split; [intros j i; destruct (Q j) as [-> _]; tauto|].
    intros i Hi _. simpl in Hi. replace i with 0%nat by lia.
    exists (fun j => mkWalk [0%nat] [[1; 0]] [[-1; 0]] [1; dying j]), (mkWalk [0%nat] [[1; 0]] [[-1; 0]] [1; 0]), wall.
    split; [intros j; apply wall_walk_at|]. split; [apply wall_walk_at|]. split; [reflexivity|].
    cbn [w_refs w_normals nth]. split; [intros k; apply cvv_const|]. split; [apply cvv_const|].
    split; [intros j k Hk; simpl in Hk; lia|]. split; [intros k Hk; simpl in Hk; lia|].
    split; [apply cv_ext with (fun _ => PI * / 2); [intros j; destruct (Q j) as [_ ->]; auto|apply cv_const]|].
    split; [intros j; destruct (Q j) as [_ ->]; cbn [nth]; tauto|].
    unfold brought, branch_steps. cbn [w_refs tl w_ids combine rev fold_left].
    assert (Ng : forall a, 1 / 2 <= a <= 3 / 4 -> dot [1; 0] (turning a) < 0).
    { intros a Ha. destruct (turning_facts a Ha) as (_ & B & _). unfold turning, dot. simpl. lra. }
    split; [right; intros j; split; intros _; apply Ng; [lra|apply Rg]|].
    intros _ r0 Hr. rewrite E0. assert (r0 = PI / 2) by (destruct Hr; lra). subst r0. unfold smooth_at. rewrite cos_PI2.
    split; [unfold dot; simpl; lra|]. split; [intros _ X; injection X; lra|]. split; [intros _ X; unfold vscale in X; simpl in X; injection X; lra|].
    intros X. unfold dot in X. simpl in X. lra.
  - intros wss F Hk. inversion F as [|t ws ts wss' _ F' ]; subst. inversion F'; subst. specialize (Hk 0%nat). simpl in *. lra.
Qed.
Print Assumptions C171_direction.
