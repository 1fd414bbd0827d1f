(** C142-C145: conversion of an articulated body, its tracking, the orientation of a limb, gamma. *)
Require Import Reals List Bool Lra Lia ZArith.
From Verif Require Import Base Vec RotModel TreeModel WeightModel ContainerModel ContainerProofs PropContainer BodyModel.
Import ListNotations.
Open Scope R_scope.

Lemma nth_error_ext {A} (l l' : list A) : (forall i, nth_error l i = nth_error l' i) -> l = l'.
Proof.
  revert l'. induction l as [|a l IH]; intros [|b l'] H; auto.
  - specialize (H O). discriminate.
  - specialize (H O). discriminate.
  - pose proof (H O) as H0. injection H0 as ->. f_equal. apply IH. intros i. apply (H (S i)).
Qed.
(** ** C142: conversion *)
Section Conversion.
Context {G : Type}.
Variable act : G -> vec -> vec.
Variable mul : G -> G -> G.
Variable to_relative : pose G -> vec -> vec.
Variable inter : cobs (G := G) -> cobs (G := G) -> option vec.
Variable n : nat.
Notation built := (built act mul to_relative inter).
Notation convert := (convert act mul to_relative inter).
Notation add_component := (add_component act mul to_relative inter).

Lemma add_known m o parent r : built m -> (0 <= parent < Z.of_nat (n_components m))%Z ->
  exists m', add_component m o parent (Some r) = (m', Ok (Z.of_nat (n_components m))) /\
    m_list m' = m_list m ++ [mkCObs (pose_from_relative act mul (m_pose m) (o_pose o)) (o_axes o) r].
Proof.
  intros B H. destruct (built_tree _ _ _ _ m B) as [T _]. unfold ContainerModel.add_component. cbn [m_graph m_list m_pose m_locals m_rootid m_rate].
  unfold g_append_child. destruct (g_attr _ parent) eqn:Ea.
  - eexists. split; reflexivity.
  - exfalso. apply g_attr_none in Ea. apply Ea. unfold g_add_node. cbn [g_nodes].
    rewrite set_attr_fst_new.
    + rewrite map_app, in_app_iff. left. rewrite (ct_nodes _ T), in_zseq. lia.
    + rewrite (ct_nodes _ T), in_zseq. unfold n_components. lia.
Qed.
Lemma body_parent_spec (b : body (G := G)) js k j : body_tree n b js -> nth_error js k = Some j ->
  body_parent b (Z.of_nat (S k)) = Ok (Some (Z.of_nat (j_parent j))).
Proof.
  intros T E. unfold body_parent. destruct (Z.eqb_spec (Z.of_nat (S k)) 0); [lia|]. unfold b_preds.
  rewrite (filter_unique _ (Z.of_nat (j_parent j)) (Z.of_nat (S k)) (edges_nodup n b js T)); [reflexivity|].
  apply (edge_spec n b js T). eauto.
Qed.
(** A component of the body in the obstacle. *)
Definition placed (base : pose G) (o : cobs) : cobs :=
  mkCObs (mkPose (vadd (act (p_rot base) (p_pos (o_pose o))) (p_pos base)) (mul (p_rot base) (p_rot (o_pose o)))) (o_axes o) (o_ref o).
Lemma convert_prefix (b : body (G := G)) js comps base root rest : body_tree n b js -> length comps = b_count b -> comps = root :: rest ->
  forall i, (1 <= i <= length comps)%nat ->
  exists m, foldM (convert_step act mul to_relative inter b comps) (set_root act mul (new_multi base) root) (seq 0 i) = Ok m /\
    built m /\ m_pose m = base /\ m_locals m = map o_pose (firstn i comps) /\ m_list m = map (placed base) (firstn i comps) /\
    forall k j, (S k < i)%nat -> nth_error js k = Some j -> get_parent_idx m (Z.of_nat (S k)) = Ok (Some (Z.of_nat (j_parent j))).
Proof.
  intros T L Ec. assert (Fapp : forall f (s : multi (G := G)) (l l' : list nat), foldM f s (l ++ l') = (do s' <- foldM f s l; foldM f s' l')).
  { intros f s l. revert s. induction l as [|a l IH]; intros s l'; simpl; auto. destruct (f s a); simpl; auto. }
  intros i. induction i as [|i IH]; intros Hi; [lia|]. destruct i as [|i].
  - exists (set_root act mul (new_multi base) root). split; [reflexivity|]. split; [constructor|]. split; [reflexivity|].
    rewrite Ec. split; [reflexivity|]. split; [|intros; lia]. simpl. unfold with_pose, placed, pose_from_relative, from_relative. reflexivity.
  - destruct IH as (m & E & B & Ep & El & Eo & Pa); [lia|].
    assert (N : n_components m = S i) by (unfold n_components; rewrite Eo, map_length, firstn_length; lia).
    rewrite seq_S, Fapp, E. cbn [bind foldM plus]. unfold convert_step.
    destruct (nth_error js i) as [j|] eqn:Ej.
    2:{ apply nth_error_None in Ej. pose proof (bt_count _ _ _ T). lia. }
    rewrite (body_parent_spec b js i j T Ej). cbn [bind].
    destruct (nth_error comps (S i)) as [o|] eqn:Eo'; [|apply nth_error_None in Eo'; lia].
    pose proof (bt_smaller _ _ _ T i j Ej) as Sm.
    destruct (add_known m o (Z.of_nat (j_parent j)) (o_ref o) B) as (m' & Ea & Em); [lia|].
    rewrite Ea. exists m'. split; [reflexivity|].
    assert (Np : Z.of_nat (j_parent j) <> Z.of_nat (n_components m)) by lia.
    pose proof (built_add _ _ _ _ _ _ _ _ _ _ B Ea Np) as B'. split; [exact B'|].
    destruct (built_tree _ _ _ _ m B) as [Tm _].
    destruct (tree_add _ _ _ _ _ _ _ _ _ _ Tm Ea Np) as (_ & _ & _ & _ & _ & r & El' & Ep' & _).
    assert (Fi : firstn (S (S i)) comps = firstn (S i) comps ++ [o]).
    { clear - Eo'. revert Eo'. generalize (S i). intros k. revert comps. induction k as [|k IHk]; intros [|c comps] E; simpl in *; try discriminate.
      - injection E as <-. auto.
      - f_equal. apply IHk; auto. }
    rewrite Fi, !map_app, El', Em, Ep', El, Eo, Ep. split; [reflexivity|]. split; [reflexivity|]. split; [reflexivity|].
    destruct (C36_add_parent _ _ _ _ _ _ _ _ _ _ B Ea Np) as (_ & Ei & Pn & Po).
    intros k j' Hk Ej'. destruct (Nat.eq_dec k i) as [->|].
    + assert (j' = j) by congruence. subst. rewrite <- N. exact Pn.
    + rewrite Po by lia. apply Pa; [lia|auto].
Qed.
(** The obstacle has the components of the body in the same order, each placed by the base and its pose
    in the body, with the same shape, reference point and parent. *)
Theorem C142_conversion b js comps base : body_history n b js -> map o_pose comps = b_poses b ->
  exists m, convert b comps base = Ok m /\ built m /\ m_pose m = base /\ m_locals m = b_poses b /\
    n_components m = S (length js) /\
    (forall i o, nth_error comps i = Some o -> nth_error (m_list m) i = Some (placed base o)) /\
    get_parent_idx m 0 = Ok None /\
    (forall k j, nth_error js k = Some j -> get_parent_idx m (Z.of_nat (S k)) = Ok (Some (Z.of_nat (j_parent j)))).
Proof.
  intros H Ep. pose proof (history_tree n b js H) as T. destruct (bt_poses _ _ _ T) as [Lp _].
  assert (L : length comps = b_count b) by (rewrite <- Lp, <- Ep, map_length; auto).
  pose proof (bt_count _ _ _ T) as Lc. destruct comps as [|root rest] eqn:Ec; [simpl in L; lia|]. rewrite <- Ec in *.
  destruct (convert_prefix b js comps base root rest T L Ec (length comps)) as (m & E & B & Em & El & Eo & Pa); [lia|].
  rewrite firstn_all in El, Eo. exists m. split; [unfold BodyModel.convert; rewrite Ec at 1; exact E|].
  split; [auto|]. split; [auto|]. split; [congruence|]. split; [unfold n_components; rewrite Eo, map_length; lia|]. split.
  - intros i o Ei. rewrite Eo, nth_error_map, Ei. reflexivity.
  - destruct (C36_component_tree_partial _ _ _ _ m B) as (_ & _ & _ & Rt & _). split; [exact Rt|].
    intros k j Ek. apply Pa; auto. assert (k < length js)%nat by (apply nth_error_Some; congruence). lia.
Qed.
(** With a base which does nothing (the default) the body stays where it is. *)
Theorem C142_neutral_base_partial b js comps base m : body_history n b js -> map o_pose comps = b_poses b ->
  p_pos base = vzero n -> (forall v, length v = n -> act (p_rot base) v = v) -> (forall g, mul (p_rot base) g = g) ->
  convert b comps base = Ok m -> m_list m = comps /\ body_after m = b_poses b.
Proof.
  intros H Ep Pz An Mn E. destruct (C142_conversion b js comps base H Ep) as (m' & E' & B & Em & El & Nc & Co & _).
  assert (m' = m) by congruence. subst m'. pose proof (history_tree n b js H) as T. destruct (bt_poses _ _ _ T) as [Lp Dp].
  assert (A : m_list m = comps).
  { apply nth_error_ext. intros i. destruct (nth_error comps i) as [o|] eqn:Eo.
    - rewrite (Co i o Eo). f_equal. unfold placed. rewrite Pz, Mn.
      assert (Lo : length (p_pos (o_pose o)) = n).
      { apply Dp. rewrite <- Ep. apply in_map_iff. exists o. split; auto. apply nth_error_In with (1 := Eo). }
      rewrite An by auto. replace (vadd (p_pos (o_pose o)) (vzero n)) with (p_pos (o_pose o)) by (vext; ring).
      destruct o as [[pp pr] ax rf]; reflexivity.
    - apply nth_error_None. apply nth_error_None in Eo. unfold n_components in Nc. rewrite Nc.
      pose proof (bt_count _ _ _ T). rewrite <- (map_length o_pose), Ep in Eo. lia. }
  split; auto. unfold body_after. rewrite A. auto.
Qed.
(** ** C145: gamma of the body *)
Theorem C145_gamma (gamma : cobs (G := G) -> vec -> R) comps x : comps <> [] ->
  exists g, body_gamma gamma comps x = Ok g /\ (exists o, In o comps /\ gamma o x = g) /\ (forall o, In o comps -> g <= gamma o x) /\
    (g <= 1 <-> exists o, In o comps /\ gamma o x <= 1).
Proof.
  intros H. unfold body_gamma. destruct (min_of_spec (map (fun o => gamma o x) comps)) as (g & E & I & L).
  { destruct comps; [easy|discriminate]. }
  apply in_map_iff in I. destruct I as (o & Eo & I). exists g. split; [auto|]. split; [eauto|].
  assert (A : forall o', In o' comps -> g <= gamma o' x) by (intros o' I'; apply L; apply in_map_iff; eauto).
  split; [auto|]. split.
  - intros Hg. exists o. rewrite Eo. auto.
  - intros (o' & I' & Ho'). specialize (A o' I'). lra.
Qed.
(** Converting with the neutral base does not change gamma. *)
Theorem C145_conversion_keeps_gamma (gamma : cobs (G := G) -> vec -> R) b js comps base m x : body_history n b js -> map o_pose comps = b_poses b ->
  p_pos base = vzero n -> (forall v, length v = n -> act (p_rot base) v = v) -> (forall g, mul (p_rot base) g = g) ->
  convert b comps base = Ok m -> get_gamma gamma m x = body_gamma gamma comps x.
Proof.
  intros H Ep Pz An Mn E. destruct (C142_neutral_base_partial b js comps base m) as [A _]; auto.
  unfold get_gamma, body_gamma. rewrite A. reflexivity.
Qed.
(** [get_obstacle_id_from_name]: the first component with the name; none: IndexError. *)
Theorem C145_lookup (b : body (G := G)) name :
  (forall k, find_name (b_nodes b) 0 name = Some k <->
     option_map bn_name (nth_error (b_nodes b) k) = Some name /\
     forall j, (j < k)%nat -> option_map bn_name (nth_error (b_nodes b) j) <> Some name).
Proof.
  intros k. split.
  - intros E. destruct (find_name_spec _ _ _ _ E) as (L & A & F). rewrite Nat.sub_0_r in A. split; auto.
    intros j Hj. specialize (F j ltac:(lia)). rewrite Nat.sub_0_r in F. auto.
  - intros [A F]. apply (first_name (b_nodes b) name k 0); auto.
Qed.
End Conversion.
(** Moving the obstacle moves the body: the components are the same objects. *)
Theorem C142_conversion_refuted : exists b js comps base m, body_history (G := R * R) 2 b js /\ map o_pose comps = b_poses b /\
  convert rot2 mul2 to_rel2 centre_inter b comps base = Ok m /\ body_after m <> b_poses b.
Proof.
  exists (body_set_root body_empty (mkPose [0; 0] (1, 0)) 10), [], [disc 0 0], (mkPose [1; 0] (1, 0)). eexists.
  split; [apply bo_root; auto|]. split; [reflexivity|]. split; [reflexivity|].
  unfold body_after. simpl. unfold pose_from_relative, from_relative. simpl. intros E. injection E as E _. lra.
Qed.
(** Torso, arm and hand. *)
Example C142_case : exists b comps m, body_history (G := R * R) 2 b [mkJ 0 [0; -1] [1; 2]; mkJ 1 [0; -1] [0; 1]] /\
  map o_pose comps = b_poses b /\
  convert rot2 mul2 to_rel2 centre_inter b comps (mkPose [5; 5] (0, 1)) = Ok m /\
  get_parent_idx m 2 = Ok (Some 1%Z) /\ map (fun o => p_pos (o_pose o)) (m_list m) = [[5; 5]; [-4; 14]; [-2; 13]].
Proof.
  set (b0 := body_set_root body_empty (mkPose [0; 0] (1, 0)) 10).
  set (b1 := fst (body_add b0 (mkPose [9; 9] (1, 0)) 11 [0; -1] 10 [1; 2])).
  set (b2 := fst (body_add b1 (mkPose [8; 7] (1, 0)) 12 [0; -1] 11 [0; 1])).
  exists b2, [disc 0 0; disc 9 9; disc 8 7]. eexists. split; [|split; [reflexivity|split; [reflexivity|split; [reflexivity|]]]].
  - change [mkJ 0 [0; -1] [1; 2]; mkJ 1 [0; -1] [0; 1]] with ([mkJ 0 [0; -1] [1; 2]] ++ [mkJ 1 [0; -1] [0; 1]]).
    eapply (bo_add 2 b1 _ (mkPose [8; 7] (1, 0)) 12 [0; -1] 11 [0; 1] 1); auto.
    + change [mkJ 0 [0; -1] [1; 2]] with ([] ++ [mkJ 0 [0; -1] [1; 2]]).
      eapply (bo_add 2 b0 _ (mkPose [9; 9] (1, 0)) 11 [0; -1] 10 [1; 2] 0); auto; [apply bo_root; auto|]. intros; lia.
    + intros [|j] Hj; [simpl; discriminate|lia].
  - simpl. unfold from_relative. simpl.
    apply f_equal2; [|apply f_equal2; [|apply f_equal2; auto]]; apply f_equal2; try lra; apply f_equal2; auto; lra.
Qed.
Example C145_case : body_gamma disc_gamma [disc 0 0; disc 4 0] [3; 0] = Ok 1 /\
  body_gamma disc_gamma [] [3; 0] = Err EValue.
Proof.
  split; [|reflexivity]. unfold body_gamma, disc_gamma, vsub, min_of, rmin_list. simpl. f_equal.
  unfold Rmin. destruct (Rle_dec _ _); lra.
Qed.

(** ** C144: orientation of a limb *)
Lemma vec3 (v : vec) : length v = 3%nat -> exists x y z, v = [x; y; z].
Proof. destruct v as [|x [|y [|z [|w v]]]]; try discriminate. eauto. Qed.
Lemma norm3 x y z : norm [x; y; z] = sqrt (x * x + y * y + z * z).
Proof. unfold norm. simpl. f_equal. ring. Qed.
(** The axis of the limb lies along z in its own frame. Its direction after the rotation: that of [d]
    mirrored to point downwards; straight up for vertical directions. *)
Theorem C144_limb_axis_partial x y z : [x; y; z] <> [0; 0; 0] ->
  let d := [x; y; z] in
  let q := limb_quaternion d in
  q_x q * q_x q + q_y q * q_y q + q_z q * q_z q + q_w q * q_w q = 1 /\
  (x <> 0 \/ y <> 0 -> quat_apply q [0; 0; 1] = [x / norm d; y / norm d; - Rabs z / norm d]) /\
  (x = 0 -> y = 0 -> quat_apply q [0; 0; 1] = [0; 0; 1]) /\
  (quat_apply q [0; 0; 1] = vdiv d (norm d) <-> (x <> 0 \/ y <> 0) /\ z <= 0 \/ (x = 0 /\ y = 0 /\ 0 < z)).
Proof.
  intros Nz d q. set (N := norm d).
  assert (HN : N = sqrt (x * x + y * y + z * z)) by apply norm3.
  assert (Sp : 0 < x * x + y * y + z * z).
  { destruct (Req_dec x 0) as [->|]; [destruct (Req_dec y 0) as [->|]; [destruct (Req_dec z 0) as [->|]|]|]; [exfalso; auto| | |]; nra. }
  assert (Np : 0 < N) by (rewrite HN; apply sqrt_lt_R0; auto).
  assert (NN : N * N = x * x + y * y + z * z) by (rewrite HN; apply sqrt_sqrt; lra).
  assert (Ec : cross [0; 0; 1] (vdiv d N) = [- (y / N); x / N; 0]).
  { unfold cross, vdiv, vscale, d. simpl. apply f_equal2; [field; lra|]. apply f_equal2; [field; lra|]. apply f_equal2; auto. field; lra. }
  set (s := norm [- (y / N); x / N; 0]).
  assert (Hs : s = sqrt (x / N * (x / N) + y / N * (y / N))).
  { unfold s. rewrite norm3. f_equal. ring. }
  assert (Sq : x / N * (x / N) + y / N * (y / N) = 1 - z / N * (z / N)).
  { assert (E : x / N * (x / N) + y / N * (y / N) + z / N * (z / N) = (x * x + y * y + z * z) / (N * N)) by (field; lra).
    rewrite <- NN in E. unfold Rdiv in E at 7. rewrite Rinv_r in E by nra. lra. }
  assert (Sn : 0 <= x / N * (x / N) + y / N * (y / N)) by nra.
  assert (Ss : s * s = x / N * (x / N) + y / N * (y / N)) by (rewrite Hs; apply sqrt_sqrt; auto).
  assert (S0 : 0 <= s) by (rewrite Hs; apply sqrt_pos).
  assert (S1 : s <= 1) by nra.
  assert (V0 : s = 0 <-> x = 0 /\ y = 0).
  { split.
    - intros E. rewrite E in Ss.
      assert (Hx : x = x / N * N) by (field; lra). assert (Hy : y = y / N * N) by (field; lra).
      assert (x / N = 0) by nra. assert (y / N = 0) by nra. rewrite Hx, Hy. nra.
    - intros [-> ->]. rewrite Hs. replace (0 / N * (0 / N) + 0 / N * (0 / N)) with 0 by (field; lra). apply sqrt_0. }
  assert (Ax : s <> 0 -> q_x q * q_x q + q_y q * q_y q + q_z q * q_z q + q_w q * q_w q = 1 /\
                quat_apply q [0; 0; 1] = [x / N; y / N; - Rabs z / N]).
  { intros Hs0. unfold q, limb_quaternion. cbv zeta. fold N. rewrite Ec. fold s. destruct (Req_EM_T s 0) as [|_]; [contradiction|].
    set (t := asin s). assert (St : sin t = s) by (apply sin_asin; lra).
    assert (Ct : cos t = Rabs z / N).
    { unfold t. rewrite cos_asin by lra. replace (1 - Rsqr s) with (Rsqr (z / N)) by (unfold Rsqr; lra).
      rewrite sqrt_Rsqr_abs. unfold Rdiv. rewrite Rabs_mult, (Rabs_right (/ N)); auto. apply Rle_ge. left. apply Rinv_0_lt_compat. auto. }
    set (c := cos (t / 2)). set (h := sin (t / 2)).
    assert (Hch : c * c + h * h = 1) by (pose proof (sin2_cos2 (t / 2)) as E; unfold Rsqr in E; unfold c, h; lra).
    assert (Hs2 : 2 * h * c = s) by (rewrite <- St; replace t with (2 * (t / 2)) at 1 by field; rewrite sin_2a; reflexivity).
    assert (Hc2 : c * c - h * h = Rabs z / N) by (rewrite <- Ct; replace t with (2 * (t / 2)) at 1 by field; rewrite cos_2a; reflexivity).
    unfold vdiv, vscale. cbn [map nth q_x q_y q_z q_w].
    assert (U : y / N / s * (y / N / s) + x / N / s * (x / N / s) = 1).
    { replace (y / N / s * (y / N / s) + x / N / s * (x / N / s)) with ((x / N * (x / N) + y / N * (y / N)) / (s * s)) by (field; lra).
      rewrite <- Ss. field. lra. }
    replace (/ s * - (y / N)) with (- (y / N / s)) by (field; lra). replace (/ s * (x / N)) with (x / N / s) by (field; lra).
    replace (/ s * 0) with 0 by ring.
    set (a := x / N / s) in *. set (b := y / N / s) in *.
    assert (Ea : x / N = a * s) by (unfold a; field; lra). assert (Eb : y / N = b * s) by (unfold b; field; lra).
    split.
    { match goal with |- ?l = _ => replace l with (c * c * (b * b + a * a) + h * h) by ring end. rewrite U. lra. }
    unfold quat_apply, cross, vscale, vadd. cbn [q_x q_y q_z q_w map nth length]. simpl.
    rewrite Ea, Eb, <- Hs2. replace (- Rabs z / N) with (- (Rabs z / N)) by (field; lra). rewrite <- Hc2.
    apply f_equal2; [ring|]. apply f_equal2; [ring|]. apply f_equal2; auto.
    replace 1 with (c * c + h * h) at 1 by auto.
    assert (a * a = 1 - b * b) by lra.
    match goal with |- ?l = _ => replace l with (c * c + h * h - 2 * (c * c) * (a * a + b * b)) by ring end. rewrite H. ring. }
  assert (Av : s = 0 -> q = mkQ 0 0 0 1).
  { intros E. unfold q, limb_quaternion. cbv zeta. fold N. rewrite Ec. fold s. destruct (Req_EM_T s 0); [auto|contradiction]. }
  assert (Qi : quat_apply (mkQ 0 0 0 1) [0; 0; 1] = [0; 0; 1]).
  { unfold quat_apply, cross, vscale, vadd. simpl. repeat (apply f_equal2; [ring|]). auto. }
  assert (Vd : vdiv d N = [x / N; y / N; z / N]).
  { unfold d, vdiv, vscale. simpl. repeat (apply f_equal2; [field; lra|]). auto. }
  split; [|split; [|split]].
  - destruct (Req_dec s 0) as [E|E]; [rewrite (Av E); simpl; ring|apply Ax; auto].
  - intros H. apply Ax. intros E. apply V0 in E. lra.
  - intros -> ->. rewrite Av; [exact Qi|]. apply V0. auto.
  - rewrite Vd. destruct (Req_dec s 0) as [E|E].
    + rewrite (Av E), Qi. apply V0 in E. destruct E as [-> ->]. split.
      * intros A. right. split; [auto|split; [auto|]]. injection A as _ _ A.
        assert (z = N) by (apply (Rmult_eq_reg_r (/ N)); [rewrite Rinv_r by lra; unfold Rdiv in A; lra|apply Rinv_neq_0_compat; lra]). lra.
      * intros [[[A|A] _]|(_ & _ & A)]; try (exfalso; apply A; reflexivity).
        assert (Ez : N = z) by nra. rewrite Ez. repeat (apply f_equal2; [field; lra|]). auto.
    + destruct (Ax E) as [_ ->]. assert (Nv : x <> 0 \/ y <> 0).
      { destruct (Req_dec x 0); auto. destruct (Req_dec y 0); auto. exfalso. apply E, V0. auto. }
      split.
      * intros A. left. split; auto. injection A as A.
        assert (B : - Rabs z = z) by (apply (Rmult_eq_reg_r (/ N)); [exact A|apply Rinv_neq_0_compat; lra]).
        pose proof (Rabs_pos z). lra.
      * intros [[_ A]|(A & B & _)]; [|lra]. rewrite Rabs_left1 by auto. repeat (apply f_equal2; [field; lra|]). auto.
Qed.
(** A limb which points upwards and sideways is drawn downwards. *)
Theorem C144_limb_axis_refuted : exists d, d <> [0; 0; 0] /\ quat_apply (limb_quaternion d) [0; 0; 1] <> vdiv d (norm d).
Proof.
  exists [1; 0; 1]. assert (Nz : [1; 0; 1] <> [0; 0; 0]) by (intros E; injection E as E; lra). split; auto.
  destruct (C144_limb_axis_partial 1 0 1 Nz) as (_ & _ & _ & A). intros E. apply A in E. lra.
Qed.
(** Straight down is drawn upwards. *)
Theorem C144_downwards_refuted : quat_apply (limb_quaternion [0; 0; -1]) [0; 0; 1] = [0; 0; 1].
Proof.
  assert (Nz : [0; 0; -1] <> [0; 0; 0]) by (intros E; injection E as E; lra).
  destruct (C144_limb_axis_partial 0 0 (-1) Nz) as (_ & _ & A & _). apply A; reflexivity.
Qed.
Example C144_case : quat_apply (limb_quaternion [3; 0; -4]) [0; 0; 1] = [3 / 5; 0 / 5; - 4 / 5].
Proof.
  assert (Nz : [3; 0; -4] <> [0; 0; 0]) by (intros E; injection E as E; lra).
  destruct (C144_limb_axis_partial 3 0 (-4) Nz) as (_ & A & _). rewrite A by (left; lra). rewrite norm3.
  replace (3 * 3 + 0 * 0 + -4 * -4) with (5 * 5) by ring. rewrite sqrt_square by lra. rewrite Rabs_left by lra.
  repeat (apply f_equal2; [field|]). auto.
Qed.

(** ** C143: tracking *)
Section Tracking.
Context {G FP FO : Type}.
Variable act : G -> vec -> vec.
Variable of_quat : quaternion -> G.
Variable yaw : G -> G.
Variables (run_position : FP -> vec -> FP) (position_of : FP -> vec).
Variables (run_orientation : FO -> G -> FO) (rotation_of : FO -> G).
Variables (to_relative : pose G -> vec -> vec) (rot_to_relative : pose G -> G -> G).
Hypothesis act_length : forall g v, length v = 3%nat -> length (act g v) = 3%nat.
Hypothesis filter_length : forall f v, length v = 3%nat -> length (position_of (run_position f v)) = 3%nat.
Hypothesis relative_length : forall p v, length v = 3%nat -> length (to_relative p v) = 3%nat.
Notation message := (message (G := G)).
Notation tracked := (tracked (G := G) (FP := FP) (FO := FO)).
Notation filter_message := (filter_message run_position position_of run_orientation rotation_of to_relative rot_to_relative).
Notation update_tracking := (update_tracking act of_quat yaw run_position position_of run_orientation rotation_of to_relative rot_to_relative).

(** The measurements with the id [d], the filters after them, and the pose they show. *)
Definition own (d : Z) (msgs : list message) : list message := filter (fun m => Z.eqb (ms_id m) d) msgs.
Definition advanced (f : FP * FO) (msgs : list message) : FP * FO :=
  fold_left (fun f m => (run_position (fst f) (ms_position m), run_orientation (snd f) (ms_rotation m))) msgs f.
Definition seen (robot : option (Z * pose G)) (transform : bool) (f : FP * FO) : pose G :=
  match robot, transform with
  | Some (_, rp), true => mkPose (to_relative rp (position_of (fst f))) (rot_to_relative rp (rotation_of (snd f)))
  | _, _ => mkPose (position_of (fst f)) (rotation_of (snd f))
  end.
(** The pose measured for node [i] in this cycle. *)
Definition measured (t : tracked) (robot : option (Z * pose G)) (msgs : list message) (transform : bool) (i : nat) : option (pose G) :=
  match nth_error (t_ids t) i, nth_error (t_filters t) i with
  | Some (Some d), Some (Some f) =>
    match own d msgs with [] => None | l => Some (seen robot transform (advanced f l)) end
  | _, _ => None
  end.
Definition ids_unique (ids : list (option Z)) : Prop :=
  forall i j d, nth_error ids i = Some (Some d) -> nth_error ids j = Some (Some d) -> i = j.
Definition proper (msgs : list message) : Prop := forall m, In m msgs -> ms_id m <> (-1)%Z /\ length (ms_position m) = 3%nat.

Lemma index_of_spec x l k : index_of x l = Some k -> nth_error l k = Some x.
Proof.
  revert k. induction l as [|y l IH]; intros k; simpl; [discriminate|]. destruct (Z.eqb_spec x y) as [->|].
  - intros E. injection E as <-. auto.
  - destruct (index_of x l) as [k'|] eqn:Ek; simpl; [|discriminate]. intros E. injection E as <-. simpl. auto.
Qed.
Lemma index_of_none x l k : index_of x l = None -> nth_error l k <> Some x.
Proof.
  revert k. induction l as [|y l IH]; intros k; simpl; [destruct k; discriminate|]. destruct (Z.eqb_spec x y) as [->|Ne]; [discriminate|].
  destruct (index_of x l); [discriminate|]. intros _. destruct k; simpl; [congruence|auto].
Qed.
Definition id_number (o : option Z) : Z := match o with Some i => i | None => (-1)%Z end.
Lemma index_id ids x k : ids_unique ids -> x <> (-1)%Z -> index_of x (map id_number ids) = Some k <-> nth_error ids k = Some (Some x).
Proof.
  intros U Nx. assert (F : forall k, index_of x (map id_number ids) = Some k -> nth_error ids k = Some (Some x)).
  { intros k' E. apply index_of_spec in E. rewrite nth_error_map in E. destruct (nth_error ids k') as [[d|]|]; simpl in E; congruence. }
  split; [apply F|]. intros E. destruct (index_of x (map id_number ids)) as [k'|] eqn:Ek.
  - f_equal. apply (U k' k x); auto.
  - exfalso. apply (index_of_none _ _ k Ek). rewrite nth_error_map, E. auto.
Qed.
Lemma filter_loop ids robot transform : ids_unique ids -> forall msgs fs ps,
  proper msgs -> length fs = length ids -> length ps = length ids ->
  (forall i d, nth_error ids i = Some (Some d) -> exists f, nth_error fs i = Some (Some f)) ->
  exists fs' ps', foldM (filter_message (map id_number ids) robot transform) (fs, ps) msgs = Ok (fs', ps') /\
    length fs' = length ids /\ length ps' = length ids /\
    (forall i d f, nth_error ids i = Some (Some d) -> nth_error fs i = Some (Some f) ->
       nth_error fs' i = Some (Some (advanced f (own d msgs))) /\
       nth_error ps' i = match own d msgs with [] => nth_error ps i | l => Some (Some (seen robot transform (advanced f l))) end) /\
    (forall i, nth_error ids i = Some None -> nth_error fs' i = nth_error fs i /\ nth_error ps' i = nth_error ps i).
Proof.
  intros U. induction msgs as [|m msgs IH]; intros fs ps Pm Lf Lp Hf.
  - exists fs, ps. cbn [foldM own filter advanced fold_left]. split; [auto|]. split; [auto|]. split; [auto|]. split; auto.
  - cbn [foldM]. destruct (Pm m (or_introl eq_refl)) as [Ni Lm].
    assert (Pm' : proper msgs) by (intros m' I; apply Pm; right; auto).
    unfold BodyModel.filter_message at 1. cbn [fst snd]. destruct (index_of (ms_id m) (map id_number ids)) as [k|] eqn:Ek.
    + apply index_id in Ek; auto. destruct (Hf k _ Ek) as ((fp, fo) & Efk). rewrite Efk. cbn [bind].
      assert (Lk : (k < length ids)%nat) by (apply nth_error_Some; congruence).
      set (f1 := (run_position fp (ms_position m), run_orientation fo (ms_rotation m))).
      match goal with |- context [update ps k (Some ?p)] => set (p1 := p) end.
      assert (Ep1 : p1 = seen robot transform f1).
      { unfold p1, seen. destruct robot as [(rid, rp)|]; [destruct transform|]; reflexivity. }
      destruct (IH (update fs k (Some f1)) (update ps k (Some p1))) as (fs' & ps' & E & Lf' & Lp' & A & B); auto.
      { rewrite update_length; auto. } { rewrite update_length; auto. }
      { intros i d Ei. rewrite nth_error_update by lia. destruct (Nat.eqb_spec i k); eauto. }
      exists fs', ps'. split; [exact E|]. split; [auto|]. split; [auto|]. split.
      * intros i d f Ei Ef. destruct (Nat.eq_dec i k) as [->|Nk].
        -- assert (d = ms_id m) by congruence. subst d. assert (f = (fp, fo)) by congruence. subst f.
           destruct (A k (ms_id m) f1 Ek) as [A1 A2].
           { rewrite nth_error_update, Nat.eqb_refl by lia. auto. }
           cbn [own filter]. rewrite Z.eqb_refl. fold (own (ms_id m) msgs). cbn [advanced fold_left fst snd].
           split; [exact A1|]. rewrite A2. destruct (own (ms_id m) msgs) as [|m1 l] eqn:Eo.
           ++ rewrite nth_error_update, Nat.eqb_refl by lia. rewrite Ep1. reflexivity.
           ++ reflexivity.
        -- assert (Nd : d <> ms_id m) by (intros ->; apply Nk; eapply U; eauto).
           destruct (A i d f Ei) as [A1 A2].
           { rewrite nth_error_update by lia. destruct (Nat.eqb_spec i k); [contradiction|auto]. }
           cbn [own filter]. destruct (Z.eqb_spec (ms_id m) d) as [|_]; [congruence|]. fold (own d msgs).
           split; [exact A1|]. rewrite A2. destruct (own d msgs); auto. rewrite nth_error_update by lia. destruct (Nat.eqb_spec i k); [contradiction|auto].
      * intros i Ei. destruct (B i Ei) as [B1 B2]. rewrite B1, B2, !nth_error_update by lia.
        destruct (Nat.eqb_spec i k); [congruence|auto].
    + cbn [bind]. destruct (IH fs ps) as (fs' & ps' & E & Lf' & Lp' & A & B); auto.
      exists fs', ps'. split; [exact E|]. split; [auto|]. split; [auto|]. split; [|auto].
      intros i d f Ei Ef. assert (Nd : d <> ms_id m).
      { intros ->. apply index_id in Ei; auto. congruence. }
      cbn [own filter]. destruct (Z.eqb_spec (ms_id m) d) as [|_]; [congruence|]. apply A; auto.
Qed.
(** Cycles: a body with tracking ids and filters, then any number of updates. *)
Inductive tracking_run : tracked -> list joint -> Prop :=
| tr_start t js : body_history 3 (t_body t) js -> length (t_ids t) = S (length js) -> length (t_filters t) = S (length js) ->
    ids_unique (t_ids t) ->
    (forall i d, nth_error (t_ids t) i = Some (Some d) -> exists f, nth_error (t_filters t) i = Some (Some f)) ->
    tracking_run t js
| tr_cycle t js msgs transform fuel t' : tracking_run t js -> proper msgs -> (length js <= fuel)%nat ->
    update_tracking t msgs transform fuel = Some (Ok t') -> tracking_run t' js.
Record trackable (t : tracked) (js : list joint) : Prop := {
  tk_tree : body_tree 3 (t_body t) js;
  tk_ids : length (t_ids t) = S (length js);
  tk_filters : length (t_filters t) = S (length js);
  tk_unique : ids_unique (t_ids t);
  tk_some : forall i d, nth_error (t_ids t) i = Some (Some d) -> exists f, nth_error (t_filters t) i = Some (Some f)
}.
Lemma tree_poses (b : body (G := G)) js poses : body_tree 3 b js -> good 3 b poses -> body_tree 3 (mkBody poses (b_nodes b) (b_edges b) (b_count b)) js.
Proof. intros T Gd. destruct T. constructor; auto. Qed.
Lemma seen_length robot transform f m l : (forall x, In x (m :: l) -> length (ms_position x) = 3%nat) ->
  length (p_pos (seen robot transform (advanced f (m :: l)))) = 3%nat.
Proof.
  intros H. assert (L : length (position_of (fst (advanced f (m :: l)))) = 3%nat).
  { revert f m H. induction l as [|m' l IH]; intros f m H.
    - cbn [advanced fold_left fst]. apply filter_length. apply H. left. auto.
    - change (advanced f (m :: m' :: l)) with (advanced (run_position (fst f) (ms_position m), run_orientation (snd f) (ms_rotation m)) (m' :: l)).
      apply IH. intros x I. apply H. right. auto. }
  unfold seen. destruct robot as [(rid, rp)|]; [destruct transform|]; cbn [p_pos]; auto.
Qed.
Definition direction_from (q : pose G) (j : joint) (p : pose G) : vec :=
  vsub (p_pos p) (vadd (act (p_rot q) (j_anchor j)) (p_pos q)).
(** The orientation of a limb after a cycle, from the pose [q] of its parent. *)
Definition limb_rotation (q : pose G) (j : joint) (m : option (pose G)) : G :=
  match m with
  | None => p_rot q
  | Some p => if Req_EM_T (norm (direction_from q j p)) 0 then p_rot p else of_quat (limb_quaternion (direction_from q j p))
  end.
Lemma cycle_spec t js msgs transform fuel : trackable t js -> proper msgs -> (length js <= fuel)%nat ->
  let robot := update_robot (t_robot t) msgs in
  exists t', update_tracking t msgs transform fuel = Some (Ok t') /\ trackable t' js /\ t_ids t' = t_ids t /\ t_robot t' = robot /\
    b_nodes (t_body t') = b_nodes (t_body t) /\
    (forall i d f, nth_error (t_ids t) i = Some (Some d) -> nth_error (t_filters t) i = Some (Some f) ->
       nth_error (t_filters t') i = Some (Some (advanced f (own d msgs)))) /\
    (forall i, nth_error (t_ids t) i = Some None -> nth_error (t_filters t') i = nth_error (t_filters t) i) /\
    nth_error (b_poses (t_body t')) 0 =
      match measured t robot msgs transform 0 with
      | None => nth_error (b_poses (t_body t)) 0
      | Some p => Some (mkPose [nth 0 (p_pos p) 0; nth 1 (p_pos p) 0; 0.2] (yaw (p_rot p)))
      end /\
    (forall k j, nth_error js k = Some j -> exists p q,
       nth_error (b_poses (t_body t')) (S k) = Some p /\ nth_error (b_poses (t_body t')) (j_parent j) = Some q /\
       vadd (act (p_rot p) (j_ref j)) (p_pos p) = vadd (act (p_rot q) (j_anchor j)) (p_pos q) /\
       p_rot p = limb_rotation q j (measured t robot msgs transform (S k))).
Proof.
  intros [T Li Lf Un So] Pm Fu robot. set (b := t_body t). destruct (bt_poses _ _ _ T) as [Lp Dp]. pose proof (bt_count _ _ _ T) as Lc. fold b in T, Lp, Dp, Lc.
  destruct (filter_loop (t_ids t) robot transform Un msgs (t_filters t) (repeat None (length (b_poses b)))) as (fs & ps & Ef & Lfs & Lps & A & B); auto.
  { lia. } { rewrite repeat_length. lia. }
  assert (Hm : forall i, (i < S (length js))%nat -> nth i ps None = measured t robot msgs transform i).
  { intros i Hi. unfold measured. assert (Ei : nth_error (repeat (@None (pose G)) (length (b_poses b))) i = Some None).
    { rewrite nth_error_repeat by lia. reflexivity. }
    destruct (nth_error (t_ids t) i) as [[d|]|] eqn:Ed.
    - destruct (So i d Ed) as (f & Efi). rewrite Efi. destruct (A i d f Ed Efi) as [_ A2]. destruct (own d msgs) as [|m l].
      + rewrite Ei in A2. apply nth_error_nth with (d := None) in A2. auto.
      + apply nth_error_nth with (d := None) in A2. auto.
    - destruct (B i Ed) as [_ B2]. rewrite Ei in B2. apply nth_error_nth with (d := None) in B2. auto.
    - apply nth_error_None in Ed. lia. }
  assert (Ml : forall i p, measured t robot msgs transform i = Some p -> length (p_pos p) = 3%nat).
  { intros i p. unfold measured. destruct (nth_error (t_ids t) i) as [[d|]|]; try discriminate.
    destruct (nth_error (t_filters t) i) as [[f|]|]; try discriminate. destruct (own d msgs) as [|m l] eqn:Eo; [discriminate|].
    intros E. injection E as <-. apply seen_length. intros x I. rewrite <- Eo in I. apply filter_In in I. apply Pm. apply I. }
  set (poses := match measured t robot msgs transform 0 with
                | None => b_poses b
                | Some p => update (b_poses b) 0 (mkPose [nth 0 (p_pos p) 0; nth 1 (p_pos p) 0; 0.2] (yaw (p_rot p)))
                end).
  assert (Ep : (match nth 0 ps None with
                | None => Ok (b_poses b)
                | Some p => do p <- root_pose yaw p; Ok (update (b_poses b) 0 p)
                end) = Ok poses).
  { rewrite Hm by lia. unfold poses. destruct (measured t robot msgs transform 0) as [p|] eqn:Em; auto.
    unfold root_pose. pose proof (Ml 0%nat p Em) as L3. destruct (p_pos p) as [|x [|y [|z [|w v]]]]; try discriminate. reflexivity. }
  assert (Gp : good 3 b poses).
  { unfold poses. destruct (measured t robot msgs transform 0) as [p|]; [|split; auto]. apply good_update; [split; auto|reflexivity]. }
  set (b' := mkBody poses (b_nodes b) (b_edges b) (b_count b)).
  pose proof (tree_poses b js poses T Gp) as T'. fold b' in T'.
  destruct (align_tree_closes act 3 act_length b' js T' (adjust act of_quat b' ps)) with
    (K := fun q => nth_error q 0 = nth_error poses 0)
    (Q := fun k q r => forall j, nth_error js k = Some j -> r = limb_rotation q j (measured t robot msgs transform (S k)))
    (fuel := fuel) as (out & E & Gd & K0 & C).
  - intros qs i Gq Hi. cbn [b_count b'] in Hi. unfold adjust. rewrite Nat2Z.id, Hm by lia.
    destruct i as [|k]; [lia|]. destruct (nth_error js k) as [j|] eqn:Ej; [|apply nth_error_None in Ej; lia].
    pose proof (bt_smaller _ _ _ T' k j Ej) as Sm.
    destruct (nth_error_good 3 b' qs (j_parent j) Gq) as (q & Eq & Lq); [cbn [b_count b']; lia|].
    destruct (nth_error_good 3 b' qs (S k) Gq) as (p & Epk & Lpk); [cbn [b_count b']; lia|].
    destruct (measured t robot msgs transform (S k)) as [mp|] eqn:Em.
    + unfold limb_pose. rewrite (anchor_spec act 3 b' js T' qs k j q Ej Eq). cbn [bind].
      destruct (Req_EM_T _ 0); eexists; (split; [reflexivity|]); cbn [p_pos]; apply (Ml _ _ Em).
    + unfold b_preds. rewrite (filter_unique _ (Z.of_nat (j_parent j)) (Z.of_nat (S k)) (edges_nodup 3 b' js T')).
      2:{ apply (edge_spec 3 b' js T'). eauto. }
      cbn [map fst]. unfold get_pose. rewrite !Nat2Z.id, Eq, Epk. cbn [bind]. eexists. split; [reflexivity|]. auto.
  - intros qs i p v [Gl _] Hi K0 _ _. cbn [b_count b'] in *. rewrite nth_error_update by lia. destruct (Nat.eqb_spec 0 i); [lia|auto].
  - intros qs k j p q Gq Ej Eq Ea j' Ej'. assert (j' = j) by congruence. subst j'.
    assert (Lk : (k < length js)%nat) by (apply nth_error_Some; congruence).
    unfold adjust in Ea. rewrite Nat2Z.id, Hm in Ea by lia.
    destruct (measured t robot msgs transform (S k)) as [mp|] eqn:Em.
    + unfold limb_pose in Ea. rewrite (anchor_spec act 3 b' js T' qs k j q Ej Eq) in Ea. cbn [bind] in Ea.
      unfold limb_rotation, direction_from. change (from_relative act q (j_anchor j)) with (vadd (act (p_rot q) (j_anchor j)) (p_pos q)) in Ea.
      destruct (Req_EM_T _ 0); injection Ea as <-; reflexivity.
    + unfold b_preds in Ea. rewrite (filter_unique _ (Z.of_nat (j_parent j)) (Z.of_nat (S k)) (edges_nodup 3 b' js T')) in Ea.
      2:{ apply (edge_spec 3 b' js T'). eauto. }
      cbn [map fst] in Ea. unfold get_pose in Ea. rewrite !Nat2Z.id, Eq in Ea. cbn [bind] in Ea.
      destruct (nth_error qs (S k)); cbn [bind] in Ea; [|discriminate]. injection Ea as <-. reflexivity.
  - reflexivity.
  - cbn [b_count b']. lia.
  - exists (mkTracked (mkBody out (b_nodes b) (b_edges b) (b_count b)) (t_ids t) fs robot).
    assert (Eu : update_tracking t msgs transform fuel = Some (Ok (mkTracked (mkBody out (b_nodes b) (b_edges b) (b_count b)) (t_ids t) fs robot))).
    { unfold BodyModel.update_tracking, optitrack_indices. fold b.
      destruct (Nat.ltb_spec (length (t_ids t)) (length (b_poses b))) as [Lt|_]; [lia|]. cbn [bind].
      replace (length (b_poses b)) with (length (t_ids t)) at 1 by lia. rewrite firstn_all. fold robot.
      change (map (fun o => match o with Some i => i | None => (-1)%Z end) (t_ids t)) with (map id_number (t_ids t)).
      rewrite Ef. cbn [bind snd]. rewrite Ep. cbn [bind b_nodes b_edges b_count]. fold b'. rewrite E. reflexivity. }
    split; [exact Eu|]. cbn [t_ids t_filters t_robot t_body b_nodes b_poses]. split.
    { constructor; cbn [t_ids t_filters t_robot t_body]; auto.
      - apply tree_poses; auto.
      - lia.
      - intros i d Ei. destruct (So i d Ei) as (f & Ef'). destruct (A i d f Ei Ef') as [-> _]. eauto. }
    split; [auto|]. split; [auto|]. split; [auto|]. split.
    { intros i d f Ei Efi. apply (A i d f Ei Efi). }
    split; [intros i Ei; apply (B i Ei)|]. split.
    + rewrite K0. unfold poses. destruct (measured t robot msgs transform 0); auto. rewrite nth_error_update by lia. reflexivity.
    + intros k j Ej. assert (Lk : (k < length js)%nat) by (apply nth_error_Some; congruence).
      destruct (C k Lk) as ((j' & p & q & E1 & E2 & E3 & E4) & Rl). assert (j' = j) by congruence. subst j'.
      exists p, q. split; [auto|]. split; [auto|]. split; [auto|]. apply (Rl j p q Ej E2 E3 j Ej).
Qed.
Lemma run_trackable t js : tracking_run t js -> trackable t js.
Proof.
  induction 1 as [t js H Li Lf U S0|t js msgs transform fuel t' H IH Pm Fu E].
  - constructor; auto. apply history_tree. auto.
  - destruct (cycle_spec t js msgs transform fuel IH Pm Fu) as (t'' & E' & Tk & _). assert (t'' = t') by congruence. subst. auto.
Qed.
(** One more cycle after any number of cycles: it succeeds, every filter has run over the measurements of
    its own id only, every joint is closed, the root stands where it was measured (at its fixed height and
    turned around z), every limb has the orientation of its measured position or that of its parent. *)
Theorem C143_tracking t js msgs transform fuel : tracking_run t js -> proper msgs -> (length js <= fuel)%nat ->
  let robot := update_robot (t_robot t) msgs in
  exists t', update_tracking t msgs transform fuel = Some (Ok t') /\ tracking_run t' js /\ t_ids t' = t_ids t /\ t_robot t' = robot /\
    (forall i d f, nth_error (t_ids t) i = Some (Some d) -> nth_error (t_filters t) i = Some (Some f) ->
       nth_error (t_filters t') i = Some (Some (advanced f (own d msgs)))) /\
    (forall i, nth_error (t_ids t) i = Some None -> nth_error (t_filters t') i = nth_error (t_filters t) i) /\
    nth_error (b_poses (t_body t')) 0 =
      match measured t robot msgs transform 0 with
      | None => nth_error (b_poses (t_body t)) 0
      | Some p => Some (mkPose [nth 0 (p_pos p) 0; nth 1 (p_pos p) 0; 0.2] (yaw (p_rot p)))
      end /\
    (forall k j, nth_error js k = Some j -> joint_closed act (b_poses (t_body t')) k j /\
       exists p q, nth_error (b_poses (t_body t')) (S k) = Some p /\ nth_error (b_poses (t_body t')) (j_parent j) = Some q /\
         p_rot p = limb_rotation q j (measured t robot msgs transform (S k))).
Proof.
  intros H Pm Fu robot. destruct (cycle_spec t js msgs transform fuel (run_trackable t js H) Pm Fu) as (t' & E & _ & Ei & Er & _ & Fa & Fb & Ro & Li).
  exists t'. split; [auto|]. split; [eapply tr_cycle; eauto|]. split; [auto|]. split; [auto|]. split; [auto|]. split; [auto|]. split; [auto|].
  intros k j Ej. destruct (Li k j Ej) as (p & q & E1 & E2 & E3 & E4). split; [exists p, q; auto|exists p, q; auto].
Qed.
(** The robot stands where its own first measurement puts it, otherwise where it was. *)
Theorem C143_robot robot msgs :
  match robot with
  | None => update_robot robot msgs = None
  | Some (id, p) =>
    (own id msgs = [] /\ update_robot robot msgs = Some (id, p)) \/
    (exists m l, own id msgs = m :: l /\ update_robot robot msgs = Some (id, mkPose (ms_position m) (ms_rotation m)))
  end.
Proof.
  destruct robot as [(id, p)|]; [|reflexivity]. cbn [update_robot]. unfold own. induction msgs as [|m msgs IH]; cbn [find filter].
  - left. auto.
  - destruct (Z.eqb (ms_id m) id); [right; eauto|]. exact IH.
Qed.
(** A measurement without id (-1) stops the cycle when some node has none either. *)
Theorem C143_message_without_id t msgs m transform fuel i : (length (b_poses (t_body t)) <= length (t_ids t))%nat ->
  (i < length (b_poses (t_body t)))%nat -> nth_error (t_ids t) i = Some None ->
  (forall j, nth_error (t_ids t) j <> Some (Some (-1)%Z)) ->
  (forall j, nth_error (t_ids t) j = Some None -> nth_error (t_filters t) j = Some None) ->
  ms_id m = (-1)%Z -> update_tracking t (m :: msgs) transform fuel = Some (Err EAttr).
Proof.
  intros Lb Li Ei No Nf Em. unfold BodyModel.update_tracking, optitrack_indices.
  destruct (Nat.ltb_spec (length (t_ids t)) (length (b_poses (t_body t)))) as [|_]; [lia|]. cbn [bind foldM].
  unfold BodyModel.filter_message at 1. cbn [fst snd]. rewrite Em.
  change (fun o : option Z => match o with Some i0 => i0 | None => (-1)%Z end) with id_number.
  destruct (index_of (-1) _) as [k|] eqn:Ek.
  - apply index_of_spec in Ek. rewrite nth_error_map in Ek.
    assert (Ek' : nth_error (t_ids t) k = Some None).
    { destruct (nth_error (firstn _ (t_ids t)) k) as [o|] eqn:Eo; [|discriminate].
      assert (Eo' : nth_error (t_ids t) k = Some o).
      { rewrite <- (firstn_skipn (length (b_poses (t_body t))) (t_ids t)). rewrite nth_error_app1; auto. apply nth_error_Some. congruence. }
      destruct o as [d|]; auto. exfalso. apply (No k). rewrite Eo'. cbn [id_number option_map] in Ek. congruence. }
    rewrite (Nf k Ek'). reflexivity.
  - exfalso. apply (index_of_none _ _ i Ek). rewrite nth_error_map.
    assert (Eo : nth_error (firstn (length (b_poses (t_body t))) (t_ids t)) i = Some None); [|rewrite Eo; reflexivity].
    rewrite <- Ei. rewrite <- (firstn_skipn (length (b_poses (t_body t))) (t_ids t)) at 2. rewrite nth_error_app1; auto. rewrite firstn_length. lia.
Qed.
End Tracking.
(** A cycle without any measurement does not keep the body: every limb takes the orientation of its
    parent.  Turning around z by a number of degrees, filters which keep the last value. *)
Definition keep_act (g : Z) (v : vec) : vec := if Z.eqb g 180 then [- nth 0 v 0; - nth 1 v 0; nth 2 v 0] else v.
Definition keep_cycle := update_tracking (FP := vec) (FO := Z) keep_act (fun _ => 180%Z) (fun g => g) (fun _ v => v) (fun v => v) (fun _ g => g) (fun g => g)
  (fun _ v => v) (fun _ g => g).
Definition arm_body : body (G := Z) :=
  fst (body_add (body_set_root body_empty (mkPose [0; 0; 0.2] 0%Z) 10) (mkPose [0; 0; 2.2] 0%Z) 11 [0; 0; -1] 10 [0; 0; 1]).
Definition arm : tracked (G := Z) (FP := vec) (FO := Z) := mkTracked arm_body [None; Some 7%Z] [None; Some ([], 0%Z)] None.
Lemma arm_run : tracking_run keep_act (fun _ => 180%Z) (fun g => g) (fun _ v => v) (fun v => v) (fun _ g => g) (fun g => g)
  (fun _ v => v) (fun _ g => g) arm [mkJ 0 [0; 0; -1] [0; 0; 1]].
Proof.
  apply tr_start; auto.
  - change [mkJ 0 [0; 0; -1] [0; 0; 1]] with ([] ++ [mkJ 0 [0; 0; -1] [0; 0; 1]]).
    eapply (bo_add 3 (body_set_root body_empty (mkPose [0; 0; 0.2] 0%Z) 10) [] (mkPose [0; 0; 2.2] 0%Z) 11 [0; 0; -1] 10 [0; 0; 1] 0); auto.
    + apply bo_root. auto.
    + intros; lia.
  - intros i j d Hi Hj. destruct i as [|[|[|i]]]; simpl in Hi; try discriminate. destruct j as [|[|[|j]]]; simpl in Hj; try discriminate. auto.
  - intros i d Hi. destruct i as [|[|[|i]]]; simpl in Hi; try discriminate. simpl. eauto.
Qed.
Theorem C143_unmeasured_limb_refuted : exists t js t1 t2,
  tracking_run keep_act (fun _ => 180%Z) (fun g => g) (fun _ v => v) (fun v => v) (fun _ g => g) (fun g => g)
    (fun _ v => v) (fun _ g => g) t js /\
  keep_cycle t [mkMsg 7 [1; 0; 1] 0%Z] true 5 = Some (Ok t1) /\ keep_cycle t1 [] true 5 = Some (Ok t2) /\
  map p_rot (b_poses (t_body t1)) = [0; 180]%Z /\ map p_rot (b_poses (t_body t2)) = [0; 0]%Z.
Proof.
  exists arm, [mkJ 0 [0; 0; -1] [0; 0; 1]].
  assert (Al : forall (g : Z) (v : vec), length v = 3%nat -> length (keep_act g v) = 3%nat).
  { intros g v L. unfold keep_act. destruct (Z.eqb g 180); auto. }
  assert (P1 : proper [mkMsg 7 [1; 0; 1] 0%Z]) by (intros m [<-|[]]; split; [discriminate|reflexivity]).
  assert (P2 : proper (G := Z) []) by (intros m []).
  pose proof arm_run as Ra.
  destruct (C143_tracking keep_act (fun _ => 180%Z) (fun g => g) (fun _ v => v) (fun v => v) (fun _ g => g) (fun g => g) (fun _ v => v) (fun _ g => g)
    Al (fun _ _ L => L) (fun _ _ L => L) arm _ _ true 5 Ra P1 ltac:(simpl; lia)) as (t1 & E1 & R1 & _ & Rb1 & F1 & _ & Ro1 & L1).
  destruct (C143_tracking keep_act (fun _ => 180%Z) (fun g => g) (fun _ v => v) (fun v => v) (fun _ g => g) (fun g => g) (fun _ v => v) (fun _ g => g)
    Al (fun _ _ L => L) (fun _ _ L => L) t1 _ _ true 5 R1 P2 ltac:(simpl; lia)) as (t2 & E2 & R2 & _ & _ & _ & _ & Ro2 & L2).
  assert (Len : forall t, tracking_run keep_act (fun _ => 180%Z) (fun g => g) (fun _ v => v) (fun v => v) (fun _ g => g) (fun g => g)
    (fun _ v => v) (fun _ g => g) t [mkJ 0 [0; 0; -1] [0; 0; 1]] -> exists p q, b_poses (t_body t) = [p; q]).
  { intros t Rt. apply run_trackable in Rt; auto. destruct (tk_tree _ _ Rt) as [Lc _ [Lp _] _ _ _ _ _].
    rewrite Lc in Lp. simpl in Lp. destruct (b_poses (t_body t)) as [|p [|q [|r l]]]; try discriminate. eauto. }
  destruct (Len t1 R1) as (a1 & b1 & Ep1). destruct (Len t2 R2) as (a2 & b2 & Ep2).
  exists t1, t2. split; [exact Ra|]. split; [exact E1|]. split; [exact E2|].
  destruct (L1 O _ eq_refl) as (_ & p & q & X1 & X2 & X3). rewrite Ep1 in *. cbn [nth_error j_parent] in X1, X2. injection X1 as <-. injection X2 as <-.
  destruct (L2 O _ eq_refl) as (_ & p & q & Y1 & Y2 & Y3). rewrite Ep2 in *. cbn [nth_error j_parent] in Y1, Y2. injection Y1 as <-. injection Y2 as <-.
  assert (A1 : a1 = mkPose [0; 0; 0.2] 0%Z) by (simpl in Ro1; congruence).
  assert (B1 : p_rot b1 = 180%Z).
  { rewrite X3, A1. unfold limb_rotation, measured. cbn [t_ids t_filters arm nth_error own filter ms_id Z.eqb Pos.eqb].
    destruct (Req_EM_T _ 0) as [Ez|]; [|reflexivity]. exfalso. apply norm_zero_iff in Ez. revert Ez. simpl. intros Ez. injection Ez as Ez _. lra. }
  assert (M2 : forall i, measured (fun (_ v : vec) => v) (fun v => v) (fun (_ : Z) (g : Z) => g) (fun g => g) (fun _ v => v) (fun _ g => g) t1 (update_robot (t_robot t1) []) [] true i = None).
  { intros i. unfold measured. destruct (nth_error (t_ids t1) i) as [[d|]|]; auto. destruct (nth_error (t_filters t1) i) as [[f|]|]; auto. }
  rewrite M2 in Ro2, Y3. simpl in Ro2, Y3. simpl. rewrite B1, Y3. assert (a2 = a1) by congruence. subst a2. rewrite A1. split; reflexivity.
Qed.
Example C143_case : exists t js, tracking_run keep_act (fun _ => 180%Z) (fun g => g) (fun _ v => v) (fun v => v) (fun _ g => g) (fun g => g)
    (fun _ v => v) (fun _ g => g) t js /\ length js = 1%nat /\
  measured (fun (_ v : vec) => v) (fun v => v) (fun (_ : Z) (g : Z) => g) (fun g => g) (fun _ v => v) (fun _ g => g) t None
    [mkMsg 7 [1; 0; 1] 0%Z; mkMsg 3 [9; 9; 9] 0%Z; mkMsg 7 [2; 0; 1] 90%Z] true 1 = Some (mkPose [2; 0; 1] 90%Z).
Proof. exists arm, [mkJ 0 [0; 0; -1] [0; 0; 1]]. split; [exact arm_run|]. split; reflexivity. Qed.
Print Assumptions C142_conversion.
Print Assumptions C142_neutral_base_partial.
Print Assumptions C145_gamma.
Print Assumptions C145_conversion_keeps_gamma.
Print Assumptions C145_lookup.
Print Assumptions C142_conversion_refuted.
Print Assumptions C144_limb_axis_partial.
Print Assumptions C144_limb_axis_refuted.
Print Assumptions C144_downwards_refuted.
Print Assumptions C143_tracking.
Print Assumptions C143_robot.
Print Assumptions C143_message_without_id.
Print Assumptions C143_unmeasured_limb_refuted.
