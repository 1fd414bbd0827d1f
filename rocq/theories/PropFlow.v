(** Property C176: the command is continuous when the queries of the obstacles are. *)
Require Import Reals List Bool Lra Lia ZArith Classical_Prop.
From Verif Require Import Base Vec Angle Pow RotModel Spec RotProofs SeqProofs TreeModel TreeSpec
  TreeProofs TreeWeights TreeReduce TreeGeom TreeCases TreeIndep PropRotation PropTree WeightModel WeightProofs PropWeights
  AvoidModel PropAvoid ProjModel PropProject TangentProofs PropTangent PropContact ContProofs PropContinuity PropEmbed PropJoint PropOrder PropLimits PropSteady PropFade PropPace PropDying PropMixed.
Import ListNotations.
Open Scope R_scope.

(** ** The state of a tree of obstacles changes continuously *)
(** What is asked of the queries of a tree along the states [position_ j], [base_ j] and at their
    limit. *)
Record gentle (position_ base_ : nat -> vec) (position base : vec) (radius : R) (t : btree) : Prop := {
  ge_gamma : forall c, In c (bt_comps t) -> Un_cv (fun j => c_gamma (b_comp c) (position_ j)) (c_gamma (b_comp c) position);
  ge_root : forall root, nth_error (bt_comps t) (bt_root t) = Some root ->
    cvv (fun j => c_normal (b_comp root) (position_ j)) (c_normal (b_comp root) position) /\
    cvv (fun j => c_refdir (b_comp root) (position_ j)) (c_refdir (b_comp root) position) /\
    dot (c_refdir (b_comp root) position) (c_normal (b_comp root) position) < 0 /\
    base <> c_refdir (b_comp root) position /\
    ~ (rmin_list (tree_gammas position (mtree_of t)) = 1 /\ base = vscale (-1) (c_refdir (b_comp root) position));
  ge_occlusion : forall occ_ occ, (forall j, compute_parent_occlusion_weight (position_ j) (mtree_of t) = Ok (occ_ j)) ->
    compute_parent_occlusion_weight position (mtree_of t) = Ok occ -> cvv occ_ occ;
  ge_reached : exists k, (k < length (bt_comps t))%nat /\ forall i c, nth_error (bt_comps t) i = Some c -> i <> k -> 1 < c_gamma (b_comp c) position;
  ge_walk : forall i w_ w c, (forall j, branch_walk (position_ j) i t = Ok (w_ j)) -> branch_walk position i t = Ok w -> nth_error (bt_comps t) i = Some c ->
    (forall k, cvv (fun j => nth k (w_refs (w_ j)) []) (nth k (w_refs w) [])) /\
    cvv (fun j => nth 0 (w_normals (w_ j)) []) (nth 0 (w_normals w) []) /\
    (forall j, exact_refs (w_refs (w_ j))) /\ exact_refs (w_refs w) /\
    (c_tail (b_comp c) = true \/ dot (nth 0 (w_normals w) []) (brought base w) <> 0) /\
    (c_tail (b_comp c) = true \/ dot (nth 0 (w_normals w) []) (brought base w) < 0 ->
     forall r, r = radius \/ r = PI / 2 -> smooth_at (brought base w) (nth 0 (w_normals w) []) (nth 0 (w_refs w) []) r) }.

Lemma all_later {A} (P : A -> nat -> Prop) : forall l, (forall x, In x l -> exists N, forall j, (N <= j)%nat -> P x j) ->
  exists N, forall j, (N <= j)%nat -> forall x, In x l -> P x j.
Proof.
  induction l as [|a l IH]; intros H; [exists 0%nat; intros j _ x []|].
  destruct IH as (N & HN); [intros x I; apply H; right; auto|]. destruct (H a) as (M & HM); [left; auto|].
  exists (Nat.max N M). intros j Hj x [<-|I]; [apply HM|apply HN]; auto; lia.
Qed.
Lemma carry_follow n : (2 <= n)%nat -> forall steps steps_ v v_, steps_follow n steps steps_ -> units n v_ -> length v = n -> cvv v_ v ->
  let carry := fold_left (fun v (s : vec * vec * nat) => carried (direction (fst (fst s))) (direction (snd (fst s))) v) in
  units n (fun j => carry (steps_ j) (v_ j)) /\ length (carry steps v) = n /\ cvv (fun j => carry (steps_ j) (v_ j)) (carry steps v).
Proof.
  cbv zeta. intros Hn. induction steps as [|[[a b] k] steps IH]; intros steps_ v v_ S U L C.
  - cbn [steps_follow fold_left] in *. split; [intros j; rewrite S; apply U|]. split; auto. apply cvv_ext with v_; auto. intros j. rewrite S. auto.
  - destruct S as (a_ & b_ & s_ & H & K1 & (La & Lb & Na & Nb & D) & X & Ca & Cb & K6).
    destruct (C170_turn n a_ b_ v_ a b v Hn) as (rot_ & rot & R1 & R2 & R3 & R4 & R5 & R6); auto.
    { intros j. destruct (K1 j) as [(A & B & _) _], (U j). auto. }
    { intros j. destruct (K1 j) as [(A & B & C' & D' & G) X']. auto. }
    assert (Q_ : forall j, rotate (rot_ j) (v_ j) 1 = carried (direction (a_ j)) (direction (b_ j)) (v_ j)).
    { intros j. destruct (K1 j) as [(A & B & C' & D' & G) X'], (U j). destruct (turn_formula n (a_ j) (b_ j) (v_ j) (rot_ j)) as [-> _]; auto. }
    assert (Q : rotate rot v 1 = carried (direction a) (direction b) v) by (destruct (turn_formula n a b v rot) as [-> _]; auto).
    destruct (IH s_ (rotate rot v 1) (fun j => rotate (rot_ j) (v_ j) 1)) as (A & B & E); auto.
    { intros j. split; [apply R3|]. apply unit_norm. rewrite (proj2 (R3 j)). apply unit_norm. apply U. }
    split; [|split].
    + intros j. rewrite H. cbn [fold_left fst snd]. rewrite <- Q_. apply A.
    + cbn [fold_left fst snd]. rewrite <- Q. auto.
    + cbn [fold_left fst snd]. rewrite <- Q. apply cvv_ext with (2 := E). intros j. rewrite H. cbn [fold_left fst snd]. rewrite <- Q_. auto.
Qed.
Lemma brought_follow n position_ base_ position base t i w_ w : (2 <= n)%nat -> units n base_ -> length base = n -> cvv base_ base ->
  (forall j, branch_walk (position_ j) i t = Ok (w_ j)) -> branch_walk position i t = Ok w ->
  (forall j, linkable n (w_refs (w_ j))) -> linkable n (w_refs w) ->
  (forall k, cvv (fun j => nth k (w_refs (w_ j)) []) (nth k (w_refs w) [])) -> (forall j, exact_refs (w_refs (w_ j))) -> exact_refs (w_refs w) ->
  units n (fun j => brought (base_ j) (w_ j)) /\ length (brought base w) = n /\ cvv (fun j => brought (base_ j) (w_ j)) (brought base w).
Proof.
  intros Hn Ub Lb Cb W_ W K_ K CR X_ X.
  assert (ID : forall j, w_ids (w_ j) = w_ids w).
  { intros j. destruct (C35_walk_is_parent_chain _ _ _ _ (W_ j)) as (B & _). destruct (C35_walk_is_parent_chain _ _ _ _ W) as (B' & _). eapply branch_unique; eauto. }
  assert (LR : forall j, length (w_refs (w_ j)) = length (w_refs w)).
  { intros j. destruct (C35_walk_is_parent_chain _ _ _ _ (W_ j)) as (_ & _ & _ & _ & _ & ->). destruct (C35_walk_is_parent_chain _ _ _ _ W) as (_ & _ & _ & _ & _ & ->). rewrite ID. auto. }
  assert (SF : steps_follow n (branch_steps w) (fun j => branch_steps (w_ j))).
  { unfold branch_steps. apply (steps_rev n _ (fun j => combine (combine (tl (w_refs (w_ j))) (w_refs (w_ j))) (tl (w_ids (w_ j))))).
    apply steps_ext with (fun j => combine (combine (tl (w_refs (w_ j))) (w_refs (w_ j))) (tl (w_ids w))); [intros j; rewrite ID; auto|].
    apply refs_follow; auto. }
  apply carry_follow; auto.
Qed.
Section Flow.
Variables (orth0 pick : vec -> vec) (sort : tree -> list nid) (power radius : R) (n : nat).
Variables (position_ base_ : nat -> vec) (position base : vec) (trees : list btree).
Notation angle_of := (angle_space pick).
Notation SCENE := (scene orth0 angle_of pick sort power radius None n).
Notation data_of := (tree_data angle_of power radius None).
Hypothesis SC_ : forall j, SCENE (position_ j) (base_ j) trees.
Hypothesis SC : SCENE position base trees.
Hypothesis Cb : cvv base_ base.
Lemma data_radius p b t t' ws rs rec : data_of p b t = Ok (t', ws, rs, rec) -> forall x, In x rs -> x = radius.
Proof.
  intros E x I. unfold tree_data in E. destruct (convergence_record _ _ _ _ _); [|discriminate]. cbn [bind] in E.
  destruct (tree_gamma_and_weights _ _ _ _ _) as [[gs ws']|]; [|discriminate]. cbn [bind] in E. destruct (tree_obstacle_weights _ _ _ _ _); [|discriminate]. cbn [bind] in E.
  destruct (tree_radiuses _ _ _ _ _) as [rs'|] eqn:Er; [|discriminate]. cbn [bind] in E. injection E as _ _ <- _.
  unfold tree_radiuses in Er. destruct (mapM _ _) as [cs|]; [|discriminate]. cbn [bind] in Er. rewrite C27_repulsion_disabled in Er. injection Er as <-.
  apply in_map_iff in I as (y & <- & _). auto.
Qed.
Lemma data_parts p b t t' ws rs rec : data_of p b t = Ok (t', ws, rs, rec) -> tree_obstacle_weights angle_of p b power (mtree_of t) = Ok ws /\ convergence_record angle_of power p b t = Ok rec.
Proof.
  intros E. unfold tree_data in E. destruct (convergence_record _ _ _ _ _); [|discriminate]. cbn [bind] in E.
  destruct (tree_gamma_and_weights _ _ _ _ _) as [[gs ws']|]; [|discriminate]. cbn [bind] in E. destruct (tree_obstacle_weights _ _ _ _ _); [|discriminate]. cbn [bind] in E.
  destruct (tree_radiuses _ _ _ _ _) as [rs'|] eqn:Er; [|discriminate]. cbn [bind] in E. injection E as _ <- _ <-. auto.
Qed.
Lemma flow_radius p b t ws rs rec i : SCENE p b trees -> In t trees -> data_of p b t = Ok (t, ws, rs, rec) -> (i < length (bt_comps t))%nat -> nth i rs 0 = radius.
Proof.
  intros S I E Hi. destruct (tree_data_ok _ _ _ _ _ _ _ _ _ _ t _ S I) as (ws' & rs' & rec' & E' & _ & _ & _ & _ & _ & B). rewrite E in E'. injection E' as <- <- <-.
  specialize (B i Hi). pose proof PI_RGT_0. destruct (lt_dec i (length rs)) as [L|L]; [apply (data_radius _ _ _ _ _ _ _ E); apply nth_In; auto|rewrite nth_overflow in B by lia; lra].
Qed.
(** Weights and records. *)
Lemma flow_data t ws_ rs_ rec_ ws rs rec : In t trees -> gentle position_ base_ position base radius t ->
  (forall j, data_of (position_ j) (base_ j) t = Ok (t, ws_ j, rs_ j, rec_ j)) -> data_of position base t = Ok (t, ws, rs, rec) ->
  cvv ws_ ws /\ Un_cv (fun j => fst (rec_ j)) (fst rec) /\ Un_cv (fun j => snd (rec_ j)) (snd rec) /\ rec <> (0, 1).
Proof.
  intros I G D_ D. pose proof (sc_well _ _ _ _ _ _ _ _ _ _ _ SC t I) as (Hroot & _). cbn [mtree_of m_root m_comps] in Hroot. rewrite map_length in Hroot.
  destruct (nth_error (bt_comps t) (bt_root t)) as [root|] eqn:Er; [|apply nth_error_None in Er; lia].
  pose proof (nth_error_In _ _ Er) as Ir. destruct (ge_root _ _ _ _ _ _ G root Er) as (CN & CR & Neg & NB & NC). destruct (ge_reached _ _ _ _ _ _ G) as (k & Hk & Rk).
  pose proof (sc_base _ _ _ _ _ _ _ _ _ _ _ SC) as (Lb & Ub). pose proof (fun j => sc_base _ _ _ _ _ _ _ _ _ _ _ (SC_ j)) as Ub_.
  pose proof (fun p => sc_normal _ _ _ _ _ _ _ _ _ _ _ SC t root p I Ir) as Nr. pose proof (sc_refdir _ _ _ _ _ _ _ _ _ _ _ SC t root I Ir) as (Lr & Ur).
  pose proof (fun j => sc_refdir _ _ _ _ _ _ _ _ _ _ _ (SC_ j) t root I Ir) as Rr_.
  assert (Em : nth_error (m_comps (mtree_of t)) (m_root (mtree_of t)) = Some (b_comp root)) by (cbn [mtree_of m_comps m_root]; apply map_nth_error; auto).
  assert (GA : forall c, In c (m_comps (mtree_of t)) -> Un_cv (fun j => c_gamma c (position_ j)) (c_gamma c position)).
  { intros c Ic. cbn [mtree_of m_comps] in Ic. apply in_map_iff in Ic as (x & <- & Ix). apply (ge_gamma _ _ _ _ _ _ G x Ix). }
  assert (NC' : ~ (rmin_list (tree_gammas position (mtree_of t)) = 1 /\ (base = c_refdir (b_comp root) position \/ base = vscale (-1) (c_refdir (b_comp root) position)))) by tauto.
  set (m := mtree_of t) in *.
  assert (OC : forall p b w, tree_obstacle_weights angle_of p b power m = Ok w -> compute_parent_occlusion_weight p m = Ok (match compute_parent_occlusion_weight p m with Ok o => o | Err _ => [] end)).
  { intros p b w E. unfold tree_obstacle_weights in E. destruct (tree_gamma_and_weights _ _ _ _ _) as [[? ?]|]; [|discriminate]. cbn [bind] in E. destruct (compute_parent_occlusion_weight p m); [auto|discriminate]. }
  pose proof (fun j => proj1 (data_parts _ _ _ _ _ _ _ (D_ j))) as W_. pose proof (proj1 (data_parts _ _ _ _ _ _ _ D)) as W.
  pose proof (fun j => OC _ _ _ (W_ j)) as O_. pose proof (OC _ _ _ W) as O. cbv beta in O_.
  assert (Lm : length (m_comps m) = length (bt_comps t)) by (unfold m; cbn [mtree_of m_comps]; apply map_length).
  split.
  { destruct (C172_tree_weights n pick power position_ base_ position base m (b_comp root)
      (fun j => match compute_parent_occlusion_weight (position_ j) m with Ok o => o | Err _ => [] end) (match compute_parent_occlusion_weight position m with Ok o => o | Err _ => [] end) k
      (sc_pick _ _ _ _ _ _ _ _ _ _ _ SC) (sc_power _ _ _ _ _ _ _ _ _ _ _ SC) Em GA)
      as (v_ & v & E_ & E & _ & C); auto; try (intros j; apply Nr); try apply Nr; try lia.
    - apply (ge_occlusion _ _ _ _ _ _ G); auto.
    - intros i c Ei Ni. unfold m in Ei. cbn [mtree_of m_comps] in Ei. rewrite nth_error_map in Ei. destruct (nth_error (bt_comps t) i) as [x|] eqn:Ex; [|discriminate]. injection Ei as <-. eapply Rk; eauto.
    - assert (Q : Ok ws = Ok v) by (rewrite <- E; symmetry; apply W). injection Q as ->. apply cvv_ext with v_; auto. intros j. assert (Q : Ok (ws_ j) = Ok (v_ j)) by (rewrite <- E_; symmetry; apply W_). injection Q as ->. auto. }
  assert (Lg : forall p, length (tree_gammas p m) = length (m_comps m)) by (intros p; unfold tree_gammas; apply map_length).
  assert (NT : forall p i c, nth_error (m_comps m) i = Some c -> nth i (tree_gammas p m) 0 = c_gamma c p).
  { intros p i c E. apply nth_error_nth. unfold tree_gammas. rewrite nth_error_map, E. auto. }
  assert (CG : cvv (fun j => tree_gammas (position_ j) m) (tree_gammas position m)).
  { intros i. destruct (nth_error (m_comps m) i) as [c|] eqn:E.
    - apply cv_ext with (fun j => c_gamma c (position_ j)); [intros j; symmetry; apply NT; auto|]. rewrite (NT position i c E). apply GA. eapply nth_error_In; eauto.
    - apply nth_error_None in E. rewrite nth_overflow by (rewrite Lg; auto). apply cv_ext with (fun _ => 0); [|apply cv_const].
      intros j. rewrite nth_overflow; auto. rewrite Lg. auto. }
  assert (NE : forall p, tree_gammas p m <> []) by (intros p Z; specialize (Lg p); rewrite Z, Lm in Lg; cbn [length] in Lg; lia).
  assert (CM : Un_cv (fun j => rmin_list (tree_gammas (position_ j) m)) (rmin_list (tree_gammas position m))) by (apply cv_rmin_list; auto; intros j; rewrite !Lg; auto).
  destruct (C172_rotation_weight n pick power (fun j => c_normal (b_comp root) (position_ j)) (fun j => c_refdir (b_comp root) (position_ j)) base_ (fun j => rmin_list (tree_gammas (position_ j) m))
    (c_normal (b_comp root) position) (c_refdir (b_comp root) position) base (rmin_list (tree_gammas position m)) (sc_pick _ _ _ _ _ _ _ _ _ _ _ SC) (sc_power _ _ _ _ _ _ _ _ _ _ _ SC)) as (rw_ & rw & E_ & E & CW); auto; try (intros j; apply Nr); try apply Nr.
  assert (RC : forall p b r rc, unitv b -> get_rotation_weight angle_of (c_normal (b_comp root) p) (c_refdir (b_comp root) p) b (rmin_list (tree_gammas p m)) (PI * / 2) power (PI * / 2) = Ok r ->
    convergence_record angle_of power p b t = Ok rc -> rc = (r, dot b (c_refdir (b_comp root) p))).
  { intros p b r rc U E1 E2. unfold convergence_record in E2. fold m in E2. unfold get_component in E2. rewrite Em in E2. cbn [bind] in E2.
    destruct (tree_gammas p m) as [|g0 gl] eqn:Eg; [destruct (NE p Eg)|]. rewrite <- Eg in *. rewrite E1 in E2. cbn [bind] in E2. rewrite (proj1 (unit_norm _) U) in E2. destruct (Req_EM_T 1 0); [lra|].
    injection E2 as <-. f_equal. f_equal. vext. field. }
  assert (R_ : forall j, rec_ j = (rw_ j, dot (base_ j) (c_refdir (b_comp root) (position_ j)))) by (intros j; apply RC; [apply Ub_|apply E_|apply (data_parts _ _ _ _ _ _ _ (D_ j))]).
  assert (Rc : rec = (rw, dot base (c_refdir (b_comp root) position))) by (apply RC; [auto|auto|apply (data_parts _ _ _ _ _ _ _ D)]).
  rewrite Rc. cbn [fst snd].
  split; [apply cv_ext with rw_; auto; intros j; rewrite R_; auto|].
  split; [apply cv_ext with (fun j => dot (base_ j) (c_refdir (b_comp root) (position_ j))); [intros j; rewrite R_; auto|]; apply (cv_dot n); auto; [intros j; rewrite (proj1 (Ub_ j)); lia|lia]|].
  intros Q. injection Q as _ Q. apply NB. apply unit_dot_1; auto. congruence.
Qed.
(** Branches. *)
Lemma flow_calm t : In t trees -> gentle position_ base_ position base radius t ->
  exists N, forall i rad_ rad phi, (i < length (bt_comps t))%nat -> (forall j, rad_ j = radius) -> rad = radius -> (forall j, (N + j <= phi j)%nat) ->
    calm (fun j => position_ (phi j)) (fun j => base_ (phi j)) position base t i rad_ rad.
Proof.
  intros I G. pose proof (sc_base _ _ _ _ _ _ _ _ _ _ _ SC) as (Lb & Ub). pose proof (fun j => sc_base _ _ _ _ _ _ _ _ _ _ _ (SC_ j)) as Ub_.
  set (w_ i j := match branch_walk (position_ j) i t with Ok w => w | Err _ => mkWalk [] [] [] [] end). set (w i := match branch_walk position i t with Ok w => w | Err _ => mkWalk [] [] [] [] end).
  assert (W_ : forall i j, (i < length (bt_comps t))%nat -> branch_walk (position_ j) i t = Ok (w_ i j)).
  { intros i j Hi. destruct (sc_branch _ _ _ _ _ _ _ _ _ _ _ (SC_ j) t i I Hi) as (x & E & _). unfold w_. rewrite E. auto. }
  assert (W : forall i, (i < length (bt_comps t))%nat -> branch_walk position i t = Ok (w i)).
  { intros i Hi. destruct (sc_branch _ _ _ _ _ _ _ _ _ _ _ SC t i I Hi) as (x & E & _). unfold w. rewrite E. auto. }
  clearbody w_ w.
  destruct (all_later (fun i j => forall c, nth_error (bt_comps t) i = Some c -> c_tail (b_comp c) = true \/
    (dot (nth 0 (w_normals (w_ i j)) []) (brought (base_ j) (w_ i j)) < 0 <-> dot (nth 0 (w_normals (w i)) []) (brought base (w i)) < 0)) (seq 0 (length (bt_comps t)))) as (N & HN).
  { intros i Ii. apply in_seq in Ii. assert (Hi : (i < length (bt_comps t))%nat) by lia.
    destruct (nth_error (bt_comps t) i) as [c|] eqn:Ec; [|apply nth_error_None in Ec; lia].
    destruct (ge_walk _ _ _ _ _ _ G i (w_ i) (w i) c (fun j => W_ i j Hi) (W i Hi) Ec) as (CR & CN & X_ & X & T & _).
    destruct T as [T|T]; [exists 0%nat; intros j _ c' E; injection E as <-; auto|].
    pose proof (fun j => scene_walk_fine _ _ _ _ _ _ _ _ _ _ t i (SC_ j) I Hi _ (W_ i j Hi)) as F_. pose proof (scene_walk_fine _ _ _ _ _ _ _ _ _ _ t i SC I Hi _ (W i Hi)) as F.
    destruct (brought_follow n position_ base_ position base t i (w_ i) (w i)) as (_ & LB & CB); auto; [apply (sc_dim _ _ _ _ _ _ _ _ _ _ _ SC)|intros j; apply F_|apply F|].
    assert (CD : Un_cv (fun j => dot (nth 0 (w_normals (w_ i j)) []) (brought (base_ j) (w_ i j))) (dot (nth 0 (w_normals (w i)) []) (brought base (w i)))).
    { apply (cv_dot n); auto; [intros j; destruct (F_ j) as (_ & -> & _); lia|destruct F as (_ & -> & _); lia]. }
    destruct (Rtotal_order (dot (nth 0 (w_normals (w i)) []) (brought base (w i))) 0) as [L|[L|L]]; [|contradiction|].
    - destruct (cv_lt _ (fun _ => 0) _ 0 CD (cv_const 0) L) as (N & HN). exists N. intros j Hj c' _. right. specialize (HN j Hj). cbv beta in HN. split; intros _; [exact L|exact HN].
    - destruct (cv_lt (fun _ => 0) _ 0 _ (cv_const 0) CD L) as (N & HN). exists N. intros j Hj c' _. right. specialize (HN j Hj). cbv beta in HN. split; intros Z; exfalso; [apply (Rlt_asym _ _ HN Z)|apply (Rlt_asym _ _ L Z)]. }
  exists N. intros i rad_ rad phi Hi Er_ -> P. destruct (nth_error (bt_comps t) i) as [c|] eqn:Ec; [|apply nth_error_None in Ec; lia].
  destruct (ge_walk _ _ _ _ _ _ G i (w_ i) (w i) c (fun j => W_ i j Hi) (W i Hi) Ec) as (CR & CN & X_ & X & T & SM).
  assert (O : onward phi) by (intros j; specialize (P j); lia).
  exists (fun j => w_ i (phi j)), (w i), c. split; [auto|]. split; [auto|]. split; [unfold get_bcomp; rewrite Ec; auto|].
  split; [intros k; apply (cvv_onward (fun j => nth k (w_refs (w_ i j)) [])); auto|]. split; [apply (cvv_onward (fun j => nth 0 (w_normals (w_ i j)) [])); auto|].
  split; [auto|]. split; [auto|]. split; [apply cv_ext with (fun _ => radius); [auto|apply cv_const]|]. split; [intros j; rewrite Er_; tauto|]. split; [|exact SM].
  destruct T as [T|T]; [left; auto|]. destruct (c_tail (b_comp c)) eqn:Et; [left; auto|]. right. intros j.
  destruct (HN (phi j) ltac:(specialize (P j); lia) i ltac:(apply in_seq; lia) c Ec) as [Q|Q]; [rewrite Et in Q; discriminate|exact Q].
Qed.
End Flow.
(** C176: the commanded velocity is continuous when the queries of the obstacles are: gammas,
    normals, reference directions, occlusions and branches follow the position, the branches are in
    general position at the limit, and some component has a weight there.  Repulsion disabled. *)
Lemma cv_tail u l N : Un_cv (fun j => u (N + j)%nat) l -> Un_cv u l.
Proof.
  intros H e He. destruct (H e He) as (M & HM). exists (N + M)%nat. intros j Hj. specialize (HM (j - N)%nat ltac:(lia)). replace (N + (j - N))%nat with j in HM by lia. exact HM.
Qed.
Theorem C176_direction_partial : forall orth0 pick sort power radius n position_ base_ position base trees s_ s,
  let angle_of := angle_space pick in
  let evaluate := evaluate_avoidance orth0 angle_of (get_projected_tangent pick) sort power radius None in
  (forall j, scene orth0 angle_of pick sort power radius None n (position_ j) (base_ j) trees) ->
  scene orth0 angle_of pick sort power radius None n position base trees ->
  cvv base_ base ->
  (forall t, In t trees -> gentle position_ base_ position base radius t) ->
  (forall wss, Forall2 (fun t ws => tree_obstacle_weights angle_of position base power (mtree_of t) = Ok ws) trees wss ->
     (forall k, nth k (map rsum wss) 0 < 1) -> rsum (map rsum wss) <> 1) ->
  (forall data tt0 u keys ns,
     Forall2 (fun t d => exists ws rs, length ws = length (bt_comps t) /\ (forall i, (i < length (bt_comps t))%nat -> nth i rs 0 = radius) /\ d = (t, ws, rs)) trees data ->
     set_root empty_tree base_vel_id base = Ok tt0 -> populate_all (get_projected_tangent pick) tt0 position base 0 data = Ok (u, keys, ns) ->
     no_opposite u /\ distinguishable u) ->
  (forall j, get_end_vector (s_ j) = Ok (base_ j)) -> get_end_vector s = Ok base ->
  exists final_ normals_ cw_ records_ fv_ final normals cw records fv,
    (forall j, evaluate (position_ j) (s_ j) trees = Ok (final_ j, normals_ j, cw_ j, records_ j) /\ get_end_vector (final_ j) = Ok (fv_ j)) /\
    evaluate position s trees = Ok (final, normals, cw, records) /\ get_end_vector final = Ok fv /\
    cvv fv_ fv /\ cvv (fun j => averaged_normal n (normals_ j) (cw_ j)) (averaged_normal n normals cw) /\
    Un_cv (fun j => rsum (cw_ j)) (rsum cw).
Proof.
  cbv zeta. intros orth0 pick sort power radius n position_ base_ position base trees s_ s SC_ SC CB GE SUM FULL Eb_ Eb.
  set (out_ j := match evaluate_avoidance orth0 (angle_space pick) (get_projected_tangent pick) sort power radius None (position_ j) (s_ j) trees with
    Ok (f, ns, cw, rs) => (f, ns, cw, rs) | Err _ => ([], [], [], []) end).
  set (final_ j := fst (fst (fst (out_ j)))). set (normals_ j := snd (fst (fst (out_ j)))). set (cw_ j := snd (fst (out_ j))). set (records_ j := snd (out_ j)).
  set (fv_ j := match get_end_vector (final_ j) with Ok v => v | Err _ => [] end).
  assert (E_ : forall j, evaluate_avoidance orth0 (angle_space pick) (get_projected_tangent pick) sort power radius None (position_ j) (s_ j) trees = Ok (final_ j, normals_ j, cw_ j, records_ j) /\
    get_end_vector (final_ j) = Ok (fv_ j)).
  { intros j. destruct (evaluate_avoidance_ok _ _ _ _ _ _ _ _ _ _ _ _ (SC_ j) (Eb_ j)) as (tt & data & f' & ns' & w' & v' & _ & Ev' & _ & _ & _ & _ & _ & _ & _ & _ & Ef' & _).
    unfold fv_, final_, normals_, cw_, records_, out_. rewrite Ev'. cbn [fst snd]. rewrite Ef'. auto. }
  destruct (evaluate_avoidance_ok _ _ _ _ _ _ _ _ _ _ _ _ SC Eb) as (tt & data & final & normals & cw & fv & _ & E & _ & _ & _ & _ & _ & _ & _ & _ & Ef & _).
  exists final_, normals_, cw_, records_, fv_, final, normals, cw, (map snd data), fv. split; [exact E_|]. split; [exact E|]. split; [exact Ef|].
  clearbody fv_ records_ cw_ normals_ final_. clear out_.
  destruct (all_later (fun t N => forall i rad_ rad phi, (i < length (bt_comps t))%nat -> (forall j, rad_ j = radius) -> rad = radius -> (forall j, (N + j <= phi j)%nat) ->
    calm (fun j => position_ (phi j)) (fun j => base_ (phi j)) position base t i rad_ rad) trees) as (N & HN).
  { intros t I. destruct (flow_calm orth0 pick sort power radius n position_ base_ position base trees SC_ SC CB t I (GE t I)) as (N & HN). exists N. intros M HM i rad_ rad phi Hi E1 E2 P.
    apply HN; auto. intros j. specialize (P j). lia. }
  specialize (HN N (le_n N)). set (phi j := (N + j)%nat). assert (O : onward phi) by (intros j; unfold phi; lia).
  destruct (C175_direction_partial orth0 pick sort power radius None n (fun j => position_ (phi j)) (fun j => base_ (phi j)) position base trees (fun j => s_ (phi j)) s)
    as (f'_ & ns'_ & w'_ & r'_ & v'_ & f' & ns' & w' & r' & v' & H_ & H1 & H2 & A & B & C & _); auto.
  - apply (cvv_onward base_); auto.
  - intros t ws_ rs_ rec_ ws rs rec I D_ D.
    pose proof (fun j => data_at_ok orth0 pick sort power radius None n position_ base_ trees SC_ t j I) as K.
    destruct (flow_data orth0 pick sort power radius n position_ base_ position base trees SC_ SC CB t _ _ _ ws rs rec I (GE t I) (fun j => proj1 (K j)) D) as (C & _).
    assert (Q : forall j, ws_ j = ws_at pick power radius None position_ base_ t (phi j)).
    { intros j. specialize (D_ j). rewrite (proj1 (K (phi j))) in D_. injection D_ as <- _ X. auto. }
    split; [apply cvv_ext with (fun j => ws_at pick power radius None position_ base_ t (phi j)); [intros j; symmetry; apply Q|apply (cvv_onward (ws_at pick power radius None position_ base_ t)); auto]|].
    intros i Hi _. apply (HN t I); auto.
    + intros j. apply (flow_radius orth0 pick sort power radius n trees (position_ (phi j)) (base_ (phi j)) t (ws_ j) (rs_ j) (rec_ j)); auto.
    + apply (flow_radius orth0 pick sort power radius n trees position base t ws rs rec); auto.
  - intros k data' tt0 u keys ns F. apply FULL.
    assert (A : forall l ds, (forall t, In t l -> In t trees) ->
      Forall2 (fun t d => exists ws0 rs0 rec0 ws rs rec, tree_data (angle_space pick) power radius None (position_ (phi k)) (base_ (phi k)) t = Ok (t, ws0, rs0, rec0) /\
        tree_data (angle_space pick) power radius None position base t = Ok (t, ws, rs, rec) /\ d = (t, ws0, rs)) l ds ->
      Forall2 (fun t d => exists ws rs, length ws = length (bt_comps t) /\ (forall i, (i < length (bt_comps t))%nat -> nth i rs 0 = radius) /\ d = (t, ws, rs)) l ds).
    { intros l ds A G. induction G as [|t d l' ds Q G IH]; constructor; [|apply IH; intros x Ix; apply A; right; auto].
      destruct Q as (ws0 & rs0 & rec0 & ws & rs & rec & D0 & D & ->). exists ws0, rs. assert (I : In t trees) by (apply A; left; auto).
      split; [|split; [|auto]].
      - destruct (tree_data_ok _ _ _ _ _ _ _ _ _ _ t _ (SC_ (phi k)) I) as (x & y & z & E' & _ & L & _). rewrite D0 in E'. injection E' as <- _ _. auto.
      - intros i Hi. apply (flow_radius orth0 pick sort power radius n trees position base t ws rs rec); auto. }
    apply A; auto.
  - rewrite E in H1. injection H1 as <- <- <- _. rewrite Ef in H2. injection H2 as <-.
    assert (Q : forall j, v'_ j = fv_ (phi j) /\ ns'_ j = normals_ (phi j) /\ w'_ j = cw_ (phi j)).
    { intros j. destruct (H_ j) as [X Y]. destruct (E_ (phi j)) as [X' Y']. rewrite X' in X. injection X as X1 X2 X3 _. rewrite <- X1, Y' in Y. injection Y as Y. auto. }
    split; [|split].
    + intros i. apply cv_tail with N. apply (cv_ext (fun j => nth i (v'_ j) 0)); [|apply A]. intros j. rewrite (proj1 (Q j)). auto.
    + intros i. apply cv_tail with N. apply (cv_ext (fun j => nth i (averaged_normal n (ns'_ j) (w'_ j)) 0)); [|apply B]. intros j. destruct (Q j) as (_ & -> & ->). auto.
    + apply cv_tail with N. apply (cv_ext (fun j => rsum (w'_ j))); auto. intros j. destruct (Q j) as (_ & _ & ->). auto.
Qed.
Theorem C176_velocity_partial : forall orth0 pick sort power radius n position_ base_ position base trees s_ s conv_of conv_ conv
    magnitude_ magnitude env_ env relative_ relative,
  let angle_of := angle_space pick in
  let evaluate := evaluate_avoidance orth0 angle_of (get_projected_tangent pick) sort power radius None in
  let command := evaluate_sequence orth0 angle_of (get_projected_tangent pick) sort power radius None n in
  (forall j, scene orth0 angle_of pick sort power radius None n (position_ j) (base_ j) trees) ->
  scene orth0 angle_of pick sort power radius None n position base trees ->
  cvv base_ base ->
  (forall t, In t trees -> gentle position_ base_ position base radius t) ->
  (forall wss, Forall2 (fun t ws => tree_obstacle_weights angle_of position base power (mtree_of t) = Ok ws) trees wss ->
     (forall k, nth k (map rsum wss) 0 < 1) -> rsum (map rsum wss) <> 1) ->
  (forall data tt0 u keys ns,
     Forall2 (fun t d => exists ws rs, length ws = length (bt_comps t) /\ (forall i, (i < length (bt_comps t))%nat -> nth i rs 0 = radius) /\ d = (t, ws, rs)) trees data ->
     set_root empty_tree base_vel_id base = Ok tt0 -> populate_all (get_projected_tangent pick) tt0 position base 0 data = Ok (u, keys, ns) ->
     no_opposite u /\ distinguishable u) ->
  (forall j, conv_of (s_ j) = Ok (conv_ j) /\ get_end_vector (conv_ j) = Ok (base_ j)) -> conv_of s = Ok conv -> get_end_vector conv = Ok base ->
  Un_cv magnitude_ magnitude -> cvv relative_ relative ->
  (forall j, compute_multiobstacle_relative_velocity (position_ j) (env_ j) = Ok (relative_ j)) -> compute_multiobstacle_relative_velocity position env = Ok relative ->
  (forall cw_ final normals cw records fv, (forall j, exists f ns rs, evaluate (position_ j) (conv_ j) trees = Ok (f, ns, cw_ j, rs)) ->
     evaluate position conv trees = Ok (final, normals, cw, records) -> get_end_vector final = Ok fv ->
     cw <> [] /\ steady_pace fv (averaged_normal n normals cw) (fun j => 1 / rmax_list (cw_ j)) (1 / rmax_list cw)) ->
  exists out_ out,
    (forall j, command (magnitude_ j) (Some (s_ j)) conv_of (position_ j) (env_ j) trees = Ok (out_ j)) /\
    command magnitude (Some s) conv_of position env trees = Ok out /\ cvv out_ out.
Proof.
  cbv zeta. intros orth0 pick sort power radius n position_ base_ position base trees s_ s conv_of conv_ conv magnitude_ magnitude env_ env relative_ relative
    SC_ SC CB GE SUM FULL EC_ EC EB CM CR ER_ ER PACE.
  set (out_ j := match evaluate_sequence orth0 (angle_space pick) (get_projected_tangent pick) sort power radius None n (magnitude_ j) (Some (s_ j)) conv_of (position_ j) (env_ j) trees with
    Ok v => v | Err _ => [] end).
  assert (O_ : forall j, evaluate_sequence orth0 (angle_space pick) (get_projected_tangent pick) sort power radius None n (magnitude_ j) (Some (s_ j)) conv_of (position_ j) (env_ j) trees = Ok (out_ j)).
  { intros j. destruct (EC_ j) as [X Y]. destruct (command_ok _ _ _ _ _ _ _ _ _ _ _ _ _ (magnitude_ j) _ _ (SC_ j) X Y (ER_ j)) as (v & E). unfold out_. rewrite E. auto. }
  destruct (command_ok _ _ _ _ _ _ _ _ _ _ _ _ _ magnitude _ _ SC EC EB ER) as (out & EO). exists out_, out. split; [exact O_|]. split; [exact EO|].
  set (cw_ j := match evaluate_avoidance orth0 (angle_space pick) (get_projected_tangent pick) sort power radius None (position_ j) (conv_ j) trees with
    Ok (_, _, cw, _) => cw | Err _ => [] end).
  assert (W_ : forall j, exists f ns rs, evaluate_avoidance orth0 (angle_space pick) (get_projected_tangent pick) sort power radius None (position_ j) (conv_ j) trees = Ok (f, ns, cw_ j, rs)).
  { intros j. destruct (evaluate_avoidance_ok _ _ _ _ _ _ _ _ _ _ _ _ (SC_ j) (proj2 (EC_ j))) as (tt & data & f & ns & w & v & _ & E & _). exists f, ns, (map snd data). unfold cw_. rewrite E. auto. }
  clearbody out_ cw_.
  destruct (all_later (fun t N => forall i rad_ rad phi, (i < length (bt_comps t))%nat -> (forall j, rad_ j = radius) -> rad = radius -> (forall j, (N + j <= phi j)%nat) ->
    calm (fun j => position_ (phi j)) (fun j => base_ (phi j)) position base t i rad_ rad) trees) as (N & HN).
  { intros t I. destruct (flow_calm orth0 pick sort power radius n position_ base_ position base trees SC_ SC CB t I (GE t I)) as (N & HN). exists N. intros M HM i rad_ rad phi Hi E1 E2 P.
    apply HN; auto. intros j. specialize (P j). lia. }
  specialize (HN N (le_n N)). set (phi j := (N + j)%nat). assert (O : onward phi) by (intros j; unfold phi; lia).
  assert (SH : cvv (fun j => out_ (phi j)) out).
  { destruct (C175_velocity_partial orth0 pick sort power radius None n (fun j => position_ (phi j)) (fun j => base_ (phi j)) position base trees (fun j => s_ (phi j)) s conv_of (fun j => conv_ (phi j)) conv
      (fun j => magnitude_ (phi j)) magnitude (fun j => env_ (phi j)) env (fun j => relative_ (phi j)) relative) as (o'_ & o' & H_ & H & C); auto.
    - apply (cvv_onward base_); auto.
    - intros t ws_ rs_ rec_ ws rs rec I D_ D.
      pose proof (fun j => data_at_ok orth0 pick sort power radius None n position_ base_ trees SC_ t j I) as K.
      destruct (flow_data orth0 pick sort power radius n position_ base_ position base trees SC_ SC CB t _ _ _ ws rs rec I (GE t I) (fun j => proj1 (K j)) D) as (C & R1 & R2 & R3).
      assert (Q : forall j, ws_ j = ws_at pick power radius None position_ base_ t (phi j) /\ rec_ j = rec_at pick power radius None position_ base_ t (phi j)).
      { intros j. specialize (D_ j). rewrite (proj1 (K (phi j))) in D_. injection D_ as <- _ X. auto. }
      split; [apply cvv_ext with (fun j => ws_at pick power radius None position_ base_ t (phi j)); [intros j; symmetry; apply Q|apply (cvv_onward (ws_at pick power radius None position_ base_ t)); auto]|].
      split.
      { intros i Hi _. apply (HN t I); auto.
        - intros j. apply (flow_radius orth0 pick sort power radius n trees (position_ (phi j)) (base_ (phi j)) t (ws_ j) (rs_ j) (rec_ j)); auto.
        - apply (flow_radius orth0 pick sort power radius n trees position base t ws rs rec); auto. }
      split; [apply cv_ext with (fun j => fst (rec_at pick power radius None position_ base_ t (phi j))); [intros j; rewrite (proj2 (Q j)); auto|apply (cv_onward (fun j => fst (rec_at pick power radius None position_ base_ t j))); auto]|].
      split; [apply cv_ext with (fun j => snd (rec_at pick power radius None position_ base_ t (phi j))); [intros j; rewrite (proj2 (Q j)); auto|apply (cv_onward (fun j => snd (rec_at pick power radius None position_ base_ t j))); auto]|auto].
    - intros k data tt0 u keys ns F. apply FULL.
      assert (A : forall l ds, (forall t, In t l -> In t trees) ->
        Forall2 (fun t d => exists ws0 rs0 rec0 ws rs rec, tree_data (angle_space pick) power radius None (position_ (phi k)) (base_ (phi k)) t = Ok (t, ws0, rs0, rec0) /\
          tree_data (angle_space pick) power radius None position base t = Ok (t, ws, rs, rec) /\ d = (t, ws0, rs)) l ds ->
        Forall2 (fun t d => exists ws rs, length ws = length (bt_comps t) /\ (forall i, (i < length (bt_comps t))%nat -> nth i rs 0 = radius) /\ d = (t, ws, rs)) l ds).
      { intros l ds A G. induction G as [|t d l' ds Q G IH]; constructor; [|apply IH; intros x Ix; apply A; right; auto].
        destruct Q as (ws0 & rs0 & rec0 & ws & rs & rec & D0 & D & ->). exists ws0, rs. assert (I : In t trees) by (apply A; left; auto).
        split; [|split; [|auto]].
        - destruct (tree_data_ok _ _ _ _ _ _ _ _ _ _ t _ (SC_ (phi k)) I) as (x & y & z & E & _ & L & _). rewrite D0 in E. injection E as <- _ _. auto.
        - intros i Hi. apply (flow_radius orth0 pick sort power radius n trees position base t ws rs rec); auto. }
      apply A; auto.
    - apply (cv_onward magnitude_); auto.
    - apply (cvv_onward relative_); auto.
    - intros w'_ final normals cw records fv E_ E Ef. destruct (PACE cw_ final normals cw records fv W_ E Ef) as [NE P]. split; auto.
      assert (Q : forall j, w'_ j = cw_ (phi j)).
      { intros j. destruct (E_ j) as (f & ns & rs & X). destruct (W_ (phi j)) as (f' & ns' & rs' & Y). rewrite X in Y. injection Y as _ _ Z _. auto. }
      apply (steady_onward _ _ _ _ phi O) in P. destruct P as [P|[P|[P K]]]; [left; auto|right; left; auto|]. right. right. split; auto. destruct K as [K|[K|[(M & K) L]]]; auto.
      right. right. split; auto. exists M. intros j Hj. rewrite Q. auto.
    - rewrite EO in H. injection H as <-. apply cvv_ext with o'_; auto. intros j. specialize (H_ j). rewrite O_ in H_. injection H_ as ->. auto. }
  intros i e He. destruct (SH i e He) as (M & HM). exists (N + M)%nat. intros j Hj. specialize (HM (j - N)%nat ltac:(lia)). unfold phi in HM. replace (N + (j - N))%nat with j in HM by lia. exact HM.
Qed.

(** ** The command in contact with the wall *)
Lemma wall_full x y b ws rs tt0 tt keys ns : unitv [x; b] -> x <= - (1 / 4) -> b <> 0 -> nth 0 rs 0 = PI * / 2 ->
  set_root empty_tree base_vel_id [x; b] = Ok tt0 ->
  populate_all (get_projected_tangent left_of) tt0 [1; y] [x; b] 0 [(wall_tree, ws, rs)] = Ok (tt, keys, ns) -> no_opposite tt /\ distinguishable tt.
Proof.
    intros U Hx Hb Hr E0 Ep. pose proof PI_RGT_0 as HP. destruct rs as [|r rs]; [simpl in Hr; lra|]. simpl in Hr. subst r. destruct (wall_tangent x b U ltac:(lra) Hb) as (t & Et & Vt).
    set (P := fun d : vec => d = [x; b] \/ d = t).
    assert (Ut : unitv t) by (destruct Vt as [-> | ->]; unfold unitv, dot; simpl; ring).
    assert (Lt : length t = 2%nat) by (destruct Vt as [-> | ->]; auto).
    assert (C0 : within P tt0).
    { destruct (set_root_rooted 2 base_vel_id [x; b] tt0 ltac:(lia) eq_refl E0) as (W0 & N0 & _). split; auto.
      intros z a N. unfold node in N. rewrite N0 in N. destruct N as [N|[]]. injection N as <- <-.
      simpl. rewrite (proj1 (unit_norm _) U). left. unfold vdiv, vscale. simpl. f_equal; [field|f_equal; field]. }
    assert (C : within P tt).
    { cbn [populate_all] in Ep. unfold populate_tree in Ep.
      destruct (lift (add_node tt0 (node_key 0 (-1) (-1)) [x; b] (Some base_vel_id) None None)) as [t1|] eqn:E1; [|discriminate].
      pose proof (within_add P tt0 _ _ [x; b] t1 eq_refl U (or_introl eq_refl) C0 E1) as C1. cbn [bind] in Ep.
      simpl length in Ep. cbn [seq populate_components] in Ep.
      destruct (Rle_dec (nth 0 ws 0) 0); [injection Ep as <- _ _; auto|].
      unfold branch_update in Ep. rewrite wall_walk_at in Ep. cbn [bind branch_steps branch_nodes w_refs w_ids tl combine rev w_normals] in Ep.
      change (get_bcomp wall_tree 0) with (Ok wall) in Ep. cbn [bind nth] in Ep.
      assert (Q : c_tail (b_comp wall) || Rltb (dot [1; 0] [x; b]) 0 = true) by (apply Rltb_true; unfold dot; simpl; lra).
      rewrite Q in Ep. rewrite (proj2 (Rltb_false (PI * / 2) (PI * / 2))) in Ep by lra.
      change (PI * / 2) with (PI / 2) in Ep. cbn [bind] in Ep. rewrite Et in Ep. cbn [bind] in Ep.
      destruct (lift (add_node t1 _ t _ None None)) as [t3|] eqn:E3; [|discriminate].
      pose proof (within_add P t1 _ _ t t3 Lt Ut (or_intror eq_refl) C1 E3) as C3.
      cbn [bind] in Ep. injection Ep as <- _ _. auto. }
    destruct C as [W C]. unfold unitv, dot in U. simpl in U.
    assert (N1 : isclose x 0 = false) by (unfold isclose; apply Rleb_false; rewrite Rabs_R0, Rabs_left by lra; lra).
    assert (N2 : isclose 0 x = false) by (unfold isclose; apply Rleb_false; rewrite (Rabs_left x), (Rabs_pos_eq (0 - x)) by lra; assert (x >= -1) by nra; lra).
    split.
    + intros p z a b' _ Na Nb. destruct (C p a Na) as [-> | ->], (C z b' Nb) as [-> | ->]; destruct Vt as [-> | ->];
        unfold dot; simpl; intros Q; nra.
    + intros p z a b' _ Na Nb. destruct (C p a Na) as [-> | ->], (C z b' Nb) as [-> | ->]; auto; right;
        destruct Vt as [-> | ->]; unfold allclose; simpl; rewrite ?N1, ?N2; auto.
Qed.
Lemma turning_cv : cvv (fun j => turning (1 / 2 + dying j / 4)) (turning (1 / 2)).
Proof.
  assert (Ca : Un_cv (fun j => 1 / 2 + dying j / 4) (1 / 2)).
  { pose proof (cv_add _ _ _ _ (cv_const (1 / 2)) (cv_mul dying (fun _ => / 4) 0 (/ 4) dying_cv (cv_const (/ 4)))) as Q.
    replace (1 / 2 + 0 * / 4) with (1 / 2) in Q by lra. exact Q. }
  assert (Cq : Un_cv (fun j => (1 / 2 + dying j / 4) * (1 / 2 + dying j / 4)) (1 / 2 * (1 / 2))) by (apply cv_mul; auto).
  assert (C0 : Un_cv (fun j => - ((1 - (1 / 2 + dying j / 4) * (1 / 2 + dying j / 4)) / (1 + (1 / 2 + dying j / 4) * (1 / 2 + dying j / 4)))) (- ((1 - 1 / 2 * (1 / 2)) / (1 + 1 / 2 * (1 / 2))))).
  { apply cv_opp. apply cv_div; [apply cv_sub; auto; apply cv_const|apply cv_add; auto; apply cv_const|lra]. }
  unfold turning. intros [|[|i]]; cbn [nth]; [exact C0| |destruct i; apply cv_const].
    apply cv_div; [apply cv_mul; auto; apply cv_const|apply cv_add; auto; apply cv_const|lra].
Qed.
Lemma wall_gentle : gentle (fun j => [1; dying j]) (fun j => turning (1 / 2 + dying j / 4)) [1; 0] (turning (1 / 2)) (PI * / 2) wall_tree.
Proof.
  pose proof PI_RGT_0 as HP. assert (E0 : turning (1 / 2) = [-3 / 5; 4 / 5]) by (unfold turning; f_equal; [lra|f_equal; lra]).
  constructor.
  - intros c [<-|[]]. simpl. apply cv_const.
  - intros root E. injection E as <-. cbn [c_normal c_refdir b_comp wall]. split; [apply cvv_const|]. split; [apply cvv_const|]. rewrite E0.
    split; [unfold dot; simpl; lra|]. split; [intros X; injection X; lra|]. intros [_ X]. unfold vscale in X. simpl in X. injection X. lra.
  - intros occ_ occ H_ H. injection H as <-. apply cvv_ext with (fun _ => [1]); [|apply cvv_const]. intros j. specialize (H_ j). injection H_ as <-. auto.
  - exists 0%nat. split; [simpl; lia|]. intros [|[|i]] c E N; try discriminate. contradiction.
  - intros i w_ w c H_ H E. assert (i = 0%nat) by (destruct i as [|[|i]]; [auto|discriminate|discriminate]). subst i. injection E as <-.
    rewrite wall_walk_at in H. injection H as <-.
    assert (Ew : forall j, w_ j = mkWalk [0%nat] [[1; 0]] [[-1; 0]] [1; dying j]) by (intros j; specialize (H_ j); rewrite wall_walk_at in H_; injection H_ as <-; auto).
    cbn [w_refs w_normals nth].
    split; [intros k; apply cvv_ext with (fun _ => nth k [[-1; 0]] []); [intros j; rewrite Ew; auto|apply cvv_const]|].
    split; [apply cvv_ext with (fun _ => [1; 0]); [intros j; rewrite Ew; auto|apply cvv_const]|].
    split; [intros j; rewrite Ew; intros k Hk; simpl in Hk; lia|]. split; [intros k Hk; simpl in Hk; lia|].
    unfold brought, branch_steps. cbn [w_refs tl w_ids combine rev fold_left]. rewrite E0.
    split; [right; unfold dot; simpl; lra|].
    intros _ r0 Hr. assert (r0 = PI / 2) by (destruct Hr; lra). subst r0. unfold smooth_at. rewrite cos_PI2.
    split; [unfold dot; simpl; lra|]. split; [intros _ X; injection X; lra|]. split; [intros _ X; unfold vscale in X; simpl in X; injection X; lra|].
    intros X. unfold dot in X. simpl in X. lra.
Qed.
Example C176_direction_case : forall orth0 s_ s, (forall v, length (orth0 v) = length v) ->
  (forall j, get_end_vector (s_ j) = Ok (turning (1 / 2 + dying j / 4))) -> get_end_vector s = Ok [-3 / 5; 4 / 5] ->
  let evaluate := evaluate_avoidance orth0 (angle_space left_of) (get_projected_tangent left_of) sort_by_level 1 (PI * / 2) None in
  exists final_ normals_ cw_ records_ fv_ final normals cw records fv,
    (forall j, evaluate [1; dying j] (s_ j) [wall_tree] = Ok (final_ j, normals_ j, cw_ j, records_ j) /\ get_end_vector (final_ j) = Ok (fv_ j)) /\
    evaluate [1; 0] s [wall_tree] = Ok (final, normals, cw, records) /\ get_end_vector final = Ok fv /\
    cvv fv_ fv /\ cvv (fun j => averaged_normal 2 (normals_ j) (cw_ j)) (averaged_normal 2 normals cw) /\
    Un_cv (fun j => rsum (cw_ j)) (rsum cw).
Proof.
  intros orth0 s_ s Ho Es_ Es. cbv zeta.
  assert (Rg : forall j, 1 / 2 <= 1 / 2 + dying j / 4 <= 3 / 4) by (intros j; pose proof (dying_range j); lra).
  assert (E0 : turning (1 / 2) = [-3 / 5; 4 / 5]) by (unfold turning; f_equal; [lra|f_equal; lra]). rewrite <- E0 in Es.
  apply (C176_direction_partial orth0 left_of sort_by_level 1 (PI * / 2) 2 (fun j => [1; dying j]) (fun j => turning (1 / 2 + dying j / 4)) [1; 0] (turning (1 / 2)) [wall_tree] s_ s); auto.
  - intros j. destruct (turning_facts _ (Rg j)) as (A & B & C). apply wall_scene_at; auto. lra.
  - destruct (turning_facts (1 / 2) ltac:(lra)) as (A & B & C). apply wall_scene_at; auto. lra.
  - apply turning_cv.
  - intros t [<-|[]]. apply wall_gentle.
  - intros wss F Hk. inversion F as [|t ws ts wss' _ F' ]; subst. inversion F'; subst. specialize (Hk 0%nat). simpl in *. lra.
  - intros data tt0 u keys ns F ER EP. inversion F as [|t d ts ds (ws & rs & _ & Hr & ->) F']; subst. inversion F'; subst.
    destruct (turning_facts (1 / 2) ltac:(lra)) as (A & B & C). apply (wall_full _ 0 _ ws rs tt0 u keys ns A B C); auto.
Qed.
Example C176_case : forall orth0 s_ s, (forall v, length (orth0 v) = length v) ->
  (forall j, get_end_vector (s_ j) = Ok (turning (1 / 2 + dying j / 4))) -> get_end_vector s = Ok [-3 / 5; 4 / 5] ->
  let command := evaluate_sequence orth0 (angle_space left_of) (get_projected_tangent left_of) sort_by_level 1 (PI * / 2) None 2 in
  exists out_ out, (forall j, command (2 + dying j) (Some (s_ j)) (fun s => Ok s) [1; dying j] [] [wall_tree] = Ok (out_ j)) /\
    command 2 (Some s) (fun s => Ok s) [1; 0] [] [wall_tree] = Ok out /\ cvv out_ out.
Proof.
  intros orth0 s_ s Ho Es_ Es. cbv zeta. pose proof PI_RGT_0 as HP.
  assert (Rg : forall j, 1 / 2 <= 1 / 2 + dying j / 4 <= 3 / 4) by (intros j; pose proof (dying_range j); lra).
  assert (E0 : turning (1 / 2) = [-3 / 5; 4 / 5]) by (unfold turning; f_equal; [lra|f_equal; lra]).
  rewrite <- E0 in Es.
  pose proof turning_cv as CB.
  assert (Rel : forall y, compute_multiobstacle_relative_velocity [1; y] [] = Ok (vzero 2)).
  { intros y. unfold compute_multiobstacle_relative_velocity, compute_gamma_weights. simpl. destruct (Rle_dec 0 1); reflexivity. }
  apply (C176_velocity_partial orth0 left_of sort_by_level 1 (PI * / 2) 2 (fun j => [1; dying j]) (fun j => turning (1 / 2 + dying j / 4)) [1; 0] (turning (1 / 2)) [wall_tree] s_ s
    (fun s => Ok s) s_ s (fun j => 2 + dying j) 2 (fun _ => []) [] (fun _ => vzero 2) (vzero 2)); auto.
  - intros j. destruct (turning_facts _ (Rg j)) as (A & B & C). apply wall_scene_at; auto. lra.
  - destruct (turning_facts (1 / 2) ltac:(lra)) as (A & B & C). apply wall_scene_at; auto. lra.
  - intros t [<-|[]]. apply wall_gentle.
  - intros wss F Hk. inversion F as [|t ws ts wss' _ F' ]; subst. inversion F'; subst. specialize (Hk 0%nat). simpl in *. lra.
  - intros data tt0 u keys ns F ER EP. inversion F as [|t d ts ds (ws & rs & _ & Hr & ->) F']; subst. inversion F'; subst.
    destruct (turning_facts (1 / 2) ltac:(lra)) as (A & B & C). apply (wall_full _ 0 _ ws rs tt0 u keys ns A B C); auto.
  - pose proof (cv_add _ _ _ _ (cv_const 2) dying_cv) as Q. replace (2 + 0) with 2 in Q by ring. exact Q.
  - apply cvv_const.
  - intros cw_ final normals cw records fv E_ E EF.
    destruct (turning_facts (1 / 2) ltac:(lra)) as (A & B & C).
    destruct (wall_outcome orth0 (angle_space left_of) 0 _ _ s Ho A B C Es _ _ _ _ _ E EF) as (-> & -> & V).
    assert (G : forall j, cw_ j = [1]).
    { intros j. destruct (E_ j) as (f & ns & rs & Ej). destruct (turning_facts _ (Rg j)) as (A' & B' & C').
      pose proof (wall_scene_at orth0 (angle_space left_of) 1 _ (dying j) _ Ho ltac:(lra) A' B' C') as Sj.
      destruct (evaluate_avoidance_ok _ _ _ _ _ _ _ _ _ _ _ _ Sj (Es_ j)) as (tt & data & f' & ns' & w' & v' & _ & Ev' & _ & _ & _ & _ & _ & _ & _ & _ & Ef' & _).
      rewrite Ev' in Ej. injection Ej as <- <- <- <-. apply (wall_outcome orth0 (angle_space left_of) (dying j) _ _ (s_ j) Ho A' B' C' (Es_ j) _ _ _ _ _ Ev' Ef'). }
    replace (averaged_normal 2 [[1; 0]] [1]) with [1; 0] by (unfold averaged_normal, vscale, vadd, vzero; simpl; f_equal; [ring|f_equal; ring]).
    split; [discriminate|]. right. right. assert (Ua : unitv [1; 0]) by (unfold unitv, dot; simpl; ring). rewrite (proj1 (unit_norm _) Ua). split.
    { rewrite <- Rinv_1. apply Rinv_lt_contravar; [rewrite Rmult_1_l; apply pow_lt; lra|apply Rlt_pow_R1; [lra|lia]]. }
    right. right. split.
    + exists 0%nat. intros j _. rewrite G. change (rmax_list [1]) with 1. lra.
    + destruct V as [V| ->]; [lra|unfold dot; simpl; lra].
Qed.
Print Assumptions C176_velocity_partial.
Print Assumptions C176_direction_partial.
