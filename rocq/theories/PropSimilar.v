(** C167: the commanded velocity follows every change of the frame and of the unit of length. *)
Require Import Reals List Lra Lia Bool ZArith Permutation.
From Verif Require Import Base Vec Angle Pow RotModel Spec RotProofs SeqProofs TreeModel TreeSpec
  TreeProofs TreeWeights TreeReduce TreeGeom TreeCases TreeIndep TreeExample PropTree PropRotation WeightModel WeightProofs PropWeights
  AvoidModel PropAvoid TangentProofs ProjModel PropProject PropTangent PropFrame PropEmbed PropOrder.
Import ListNotations.
Open Scope R_scope.

Definition rmap {A B} (f : A -> B) (x : res A) : res B := match x with Ok a => Ok (f a) | Err e => Err e end.
Lemma rmap_bind {A B C} (f : B -> C) (m : res A) (k : A -> res B) : rmap f (bind m k) = bind m (fun a => rmap f (k a)).
Proof. destruct m; auto. Qed.

Lemma F2_length {A B} (P : A -> B -> Prop) l l' : Forall2 P l l' -> length l = length l'.
Proof. induction 1; cbn; auto. Qed.

(** *** The tree *)
Section Tree.
Variable Q : vec -> vec.
Notation F := (in_frame Q).
Definition fr_attrs (a : attrs) : attrs := mkAttrs (a_level a) (Q (a_dir a)).
Notation fn := (fun xa : nid * option attrs => (fst xa, option_map fr_attrs (snd xa))).
Lemma F_form t : F t = mkTree (map fn (t_nodes t)) (t_edges t) (t_root t).
Proof. reflexivity. Qed.
Lemma F_ids t : ids (F t) = ids t.
Proof. unfold ids. rewrite F_form. cbn [t_nodes]. rewrite map_map. auto. Qed.
Lemma F_has t x : has_node (F t) x = has_node t x.
Proof. unfold has_node. rewrite F_ids. auto. Qed.
Lemma F_get t x : get_attrs (F t) x = rmap fr_attrs (get_attrs t x).
Proof.
  unfold get_attrs. rewrite F_form. cbn [t_nodes]. induction (t_nodes t) as [|[y b] l IH]; cbn [map assoc fst snd]; auto.
  destruct (nid_eqb x y); auto. destruct b; auto.
Qed.
Lemma F_touch t x : nx_touch (F t) x = F (nx_touch t x).
Proof.
  unfold nx_touch. rewrite F_has. destruct (has_node t x); auto. rewrite !F_form. cbn [t_nodes t_edges t_root].
  rewrite map_app. auto.
Qed.
Lemma F_edge t u v : nx_add_edge (F t) u v = F (nx_add_edge t u v).
Proof.
  unfold nx_add_edge. cbv zeta. rewrite !F_touch. set (s := nx_touch (nx_touch t u) v).
  change (t_edges (F s)) with (t_edges s). destruct (existsb _ _); auto.
Qed.
Lemma F_add t x a : nx_add_node (F t) x (fr_attrs a) = F (nx_add_node t x a).
Proof.
  unfold nx_add_node. rewrite !F_form. cbn [t_nodes t_edges t_root]. f_equal.
  induction (t_nodes t) as [|[y b] l IH]; cbn [map set_assoc fst snd]; auto.
  destruct (nid_eqb x y); cbn [map fst snd]; auto. rewrite IH. auto.
Qed.
Variable n : nat.
Hypothesis FQ : frame_change n Q.
Lemma Q_len u : length u = n -> length (Q u) = n.
Proof. apply (fc_len n Q FQ). Qed.
Lemma Q_div u c : length u = n -> vdiv (Q u) c = Q (vdiv u c).
Proof. intros L. unfold vdiv. rewrite (fc_scale n Q FQ); auto. Qed.
Lemma Q_sub u v : length u = n -> length v = n -> Q (vsub u v) = vsub (Q u) (Q v).
Proof. intros L M. unfold vsub. rewrite (fc_add n Q FQ), !(fc_scale n Q FQ); auto. rewrite length_vscale. auto. Qed.
Lemma Q_nrm u : length u = n -> norm (Q u) = norm u.
Proof. intros L. unfold norm. rewrite (fc_dot n Q FQ) by auto. auto. Qed.
Lemma Q_zero : Q (vzero n) = vzero n.
Proof.
  assert (L : length (vzero n) = n) by apply length_vzero.
  assert (E : vzero n = vscale 0 (vzero n)) by (vext; ring).
  rewrite E, (fc_scale n Q FQ) by auto. rewrite <- E. pose proof (Q_len _ L) as L'.
  vext. ring.
Qed.
Lemma Q_unit u : length u = n -> unitv u -> unitv (Q u).
Proof. intros L U. unfold unitv. rewrite (fc_dot n Q FQ) by auto. auto. Qed.
Lemma Q_inj u v : length u = n -> length v = n -> unitv u -> unitv v -> Q u = Q v -> u = v.
Proof.
  intros L M U V E. apply unit_dot_1; auto; [congruence|]. rewrite <- (fc_dot n Q FQ) by auto. rewrite E, (fc_dot n Q FQ); auto.
Qed.
Lemma F_add_node t x d p : length d = n ->
  lift (add_node (F t) x (Q d) (Some p) None None) = rmap F (lift (add_node t x d (Some p) None None)).
Proof.
  intros L. unfold add_node. rewrite Q_nrm by auto. destruct (Req_EM_T (norm d) 0); [auto|].
  rewrite F_has. destruct (has_node t x); [auto|]. rewrite F_edge, F_get.
  destruct (get_attrs (nx_add_edge t p x) p) as [a|e]; [|auto]. cbn [rmap fr_attrs a_level].
  destruct (Nat.leb _ _); [auto|]. cbn [lift rmap]. rewrite Q_div by auto. rewrite <- F_add. auto.
Qed.
Hypothesis Hn : (2 <= n)%nat.
(** *** Rotations *)
Lemma F_turn a b v : length a = n -> length b = n -> length v = n -> norm a <> 0 -> norm b <> 0 ->
  dot (direction a) (direction b) <> -1 ->
  exact_pair (direction a) (direction b) -> exact_pair (direction (Q a)) (direction (Q b)) ->
  exists r r', from_directions a b = Ok r /\ from_directions (Q a) (Q b) = Ok r' /\
    rotate r' (Q v) 1 = Q (rotate r v 1) /\ length (rotate r v 1) = n /\ norm (rotate r v 1) = norm v.
Proof.
  intros La Lb Lv Na Nb D X X'.
  assert (DA : direction (Q a) = Q (direction a)) by (unfold direction; rewrite Q_nrm by auto; apply Q_div; auto).
  assert (DB : direction (Q b) = Q (direction b)) by (unfold direction; rewrite Q_nrm by auto; apply Q_div; auto).
  assert (Lda : length (direction a) = n) by (rewrite <- La; apply dirof_length).
  assert (Ldb : length (direction b) = n) by (rewrite <- Lb; apply dirof_length).
  destruct (from_directions_spec n a b) as (r & E & Ho & E0 & Ea & _); auto.
  destruct (from_directions_spec n (Q a) (Q b)) as (r' & E' & Ho' & E0' & Ea' & _); auto using Q_len; try (rewrite Q_nrm; auto).
  { change (dirof (Q a)) with (direction (Q a)). change (dirof (Q b)) with (direction (Q b)). rewrite DA, DB, (fc_dot n Q FQ) by auto. auto. }
  exists r, r'. split; auto. split; auto. destruct (rotate_keeps n r v Ho Lv) as [L1 N1]. split; auto.
  pose proof Ho as (O0 & O1 & _). pose proof Ho' as (O0' & O1' & _).
  unfold rotate. rewrite !(rotate_direction_eq n) by auto using Q_len.
  destruct X as [X|C].
  - assert (Z : rangle r = 0).
    { rewrite Ea. change (dirof a) with (direction a). change (dirof b) with (direction b). rewrite X.
      pose proof (dirof_unit b Nb) as U. unfold unitv in U. change (dirof b) with (direction b) in U. rewrite U. apply acos_1. }
    assert (Z' : rangle r' = 0).
    { rewrite Ea', <- Z, Ea. change (dirof (Q a)) with (direction (Q a)). change (dirof (Q b)) with (direction (Q b)).
      rewrite DA, DB, (fc_dot n Q FQ) by auto. auto. }
    rewrite Z, Z', Rmult_0_r, !(plane_rot_zero n) by auto using Q_len. auto.
  - assert (C' : allclose (direction (Q a)) (direction (Q b)) = false).
    { destruct X' as [X'|]; auto. rewrite DA, DB in X'. apply Q_inj in X'; auto; try (apply dirof_unit; auto).
      rewrite X', allclose_refl in C. discriminate. }
    assert (B1 : rb1 r' = Q (rb1 r)).
    { unfold from_directions in E, E'. rewrite !Q_nrm in E' by auto.
      destruct (Req_EM_T (norm a) 0); [contradiction|]. destruct (Req_EM_T (norm b) 0); [contradiction|].
      rewrite !Q_div in E' by auto.
      rewrite DA, DB in C'. change (vdiv a (norm a)) with (direction a) in *. change (vdiv b (norm b)) with (direction b) in *.
      rewrite C in E. rewrite C', (fc_dot n Q FQ) in E' by auto.
      rewrite <- (fc_scale n Q FQ), <- Q_sub, Q_nrm in E' by (rewrite ?length_vsub, ?length_vscale; lia).
      destruct (Req_EM_T _ 0); [discriminate|]. cbn [bind] in E, E'. injection E as <-. injection E' as <-. cbn [rb1].
      apply Q_div. rewrite length_vsub, length_vscale. lia. }
    assert (B0 : rb0 r' = Q (rb0 r)) by (rewrite E0', E0; exact DA).
    assert (BA : rangle r' = rangle r).
    { rewrite Ea', Ea. change (dirof (Q a)) with (direction (Q a)). change (dirof (Q b)) with (direction (Q b)).
      rewrite DA, DB, (fc_dot n Q FQ) by auto. auto. }
    rewrite B0, B1, BA. apply (Q_plane_rot n Q FQ); auto.
Qed.

(** *** Angles and tangents *)
Lemma Q_angle pick pick' d v : length d = n -> length v = n -> unitv d -> unitv v -> dot d v <> -1 ->
  angle_space pick' (Q d) (Q v) = Q (angle_space pick d v) /\ length (angle_space pick d v) = n.
Proof.
  intros Ld Lv Ud Uv D. unfold angle_space. rewrite (fc_dot n Q FQ) by auto. set (c := dot d v) in *.
  assert (Lp : length (vsub v (vscale c d)) = n) by (rewrite length_vsub, length_vscale; lia).
  rewrite <- (fc_scale n Q FQ), <- Q_sub, Q_nrm by (rewrite ?length_vscale; auto).
  destruct (Req_EM_T _ 0) as [Z|Z].
  - assert (C0 : Rltb c 0 = false).
    { apply Rltb_false. pose proof (RotProofs.perp_norm_sq d v Ud Uv) as P. fold c in P. apply norm_eq_0_dot in Z. rewrite Z in P.
      pose proof (unit_dot_bounds d v Ud Uv) as B. fold c in B. destruct (Rle_dec 0 c); auto. exfalso. apply D.
      assert (K : (1 - c) * (1 + c) = 0) by lra. apply Rmult_integral in K. destruct K; lra. }
    rewrite C0, Q_len, Ld by auto. split; [rewrite Q_zero; auto|apply length_vzero].
  - split; [rewrite (fc_scale n Q FQ) by auto; auto|rewrite length_vscale; auto].
Qed.
Lemma Q_vector d a : length d = n -> length a = n -> vector_from_angle (Q d) (Q a) = Q (vector_from_angle d a).
Proof.
  intros L M. unfold vector_from_angle. rewrite Q_nrm by auto. destruct (Req_EM_T _ 0); auto.
  rewrite (fc_add n Q FQ), !(fc_scale n Q FQ); auto; rewrite length_vscale; auto.
Qed.
Lemma Q_circle a d rad : length a = n -> length d = n ->
  circle_far (Q a) (Q d) rad = option_map Q (circle_far a d rad) /\
  (forall x, circle_far a d rad = Some x -> length x = n).
Proof.
  intros L M. unfold circle_far. rewrite !(fc_dot n Q FQ) by auto. destruct (Rltb _ 0); [split; [auto|discriminate]|].
  split; [cbn [option_map]; rewrite (fc_add n Q FQ), (fc_scale n Q FQ); auto; rewrite length_vscale; auto|].
  intros x E. injection E as <-. rewrite length_vadd, length_vscale. lia.
Qed.
Lemma Q_around pick pick' d v r rad : length d = n -> length v = n -> length r = n -> unitv d -> unitv v -> unitv r ->
  dot d v <> -1 -> dot d r <> -1 ->
  tangent_around pick' (Q d) (Q v) (Q r) rad = rmap Q (tangent_around pick d v r rad).
Proof.
  intros Ld Lv Lr Ud Uv Ur Dv Dr. unfold tangent_around. cbv zeta.
  destruct (Q_angle pick pick' d v Ld Lv Ud Uv Dv) as [Av Lav]. destruct (Q_angle pick pick' d r Ld Lr Ud Ur Dr) as [Ar Lar].
  rewrite Av, Ar, <- Q_sub, Q_nrm by (rewrite ?length_vsub; lia). destruct (Req_EM_T _ 0); [auto|].
  destruct (Q_circle (angle_space pick d r) (vsub (angle_space pick d v) (angle_space pick d r)) rad) as [C LC]; auto;
    [rewrite length_vsub; lia|]. rewrite C.
  destruct (circle_far (angle_space pick d r) (vsub (angle_space pick d v) (angle_space pick d r)) rad) as [x|]; [|auto]. cbn [option_map rmap]. rewrite Q_vector; auto.
Qed.
Lemma Q_opp u : length u = n -> vscale (-1) (Q u) = Q (vscale (-1) u).
Proof. intros L. rewrite (fc_scale n Q FQ); auto. Qed.
Lemma unit_neg u : unitv u -> unitv (vscale (-1) u).
Proof. unfold unitv. intros U. rewrite dot_vscale_l, dot_vscale_r, U. ring. Qed.
Lemma Q_tangent pick pick' v nn r rad : length v = n -> length nn = n -> length r = n -> unitv v -> unitv nn -> unitv r ->
  dot r nn <> 1 -> PI / 2 <= rad <= PI ->
  get_projected_tangent pick' (Q v) (Q nn) (Q r) rad = rmap Q (get_projected_tangent pick v nn r rad).
Proof.
  intros Lv Ln Lr Uv Un Ur D Hr. unfold get_projected_tangent.
  pose proof PI_RGT_0. assert (C0 : cos rad <= 0) by (apply cos_le_0; lra). pose proof (COS_bound rad) as [CB _].
  rewrite !Q_opp, (fc_dot n Q FQ) by (rewrite ?length_vscale; auto).
  destruct (Rltb _ _) eqn:E.
  - apply Rltb_true in E. apply Q_around; rewrite ?length_vscale; auto using unit_neg.
    + rewrite dot_comm. lra.
    + rewrite dot_vscale_l, dot_comm. lra.
  - apply Rltb_false in E. apply Q_around; rewrite ?length_vscale; auto using unit_neg.
    + rewrite dot_vscale_r, dot_comm in E. lra.
    + rewrite dot_vscale_r, dot_comm. lra.
Qed.
Lemma Q_rotation_weight pick pick' nn r v g power : length v = n -> length nn = n -> length r = n -> unitv v -> unitv nn -> unitv r ->
  dot r nn <> 1 ->
  get_rotation_weight (angle_space pick') (Q nn) (Q r) (Q v) g (PI * / 2) power (PI * / 2) =
  get_rotation_weight (angle_space pick) nn r v g (PI * / 2) power (PI * / 2).
Proof.
  intros Lv Ln Lr Uv Un Ur D. unfold get_rotation_weight. destruct (Rle_dec g 1); [auto|]. cbv zeta.
  rewrite (fc_dot n Q FQ) by auto. change (PI * / 2) with (PI / 2). rewrite cos_PI2.
  destruct (Rltb 0 (dot v nn)) eqn:E.
  - apply Rltb_true in E. rewrite !Q_opp by auto.
    destruct (Q_angle pick pick' nn v Ln Lv Un Uv) as [Av Lav]; [rewrite dot_comm; lra|].
    destruct (Q_angle pick pick' nn (vscale (-1) r) Ln) as [Ar Lar]; auto using unit_neg; [rewrite length_vscale; auto|rewrite dot_vscale_r, dot_comm; lra|].
    rewrite Av, Ar, <- Q_sub, !Q_nrm; auto. rewrite length_vsub. lia.
  - apply Rltb_false in E. rewrite !Q_opp by auto.
    assert (Lo : length (vscale (-1) nn) = n) by (rewrite length_vscale; auto).
    destruct (Q_angle pick pick' (vscale (-1) nn) v Lo Lv) as [Av Lav]; auto using unit_neg; [rewrite dot_vscale_l, dot_comm; lra|].
    destruct (Q_angle pick pick' (vscale (-1) nn) r Lo Lr) as [Ar Lar]; auto using unit_neg; [rewrite dot_vscale_l, dot_comm; lra|].
    rewrite Av, Ar, <- Q_sub, !Q_nrm; auto. rewrite length_vsub. lia.
Qed.
End Tree.

(** *** Specification: the scene in another frame *)
(** [Q] turns or reflects, [lam] changes the unit of length, [shift] moves the origin. *)
Definition place (lam : R) (Q : vec -> vec) (shift p : vec) : vec := vadd (vscale lam (Q p)) shift.
(** A component which answers all queries in the new frame as the old one in the old frame. *)
Record moved_comp (n : nat) (lam : R) (Q : vec -> vec) (shift : vec) (c c' : bcomp) : Prop := {
  mc_gamma : forall p, length p = n -> c_gamma (b_comp c') (place lam Q shift p) = c_gamma (b_comp c) p;
  mc_normal : forall p, length p = n -> length (c_normal (b_comp c) p) = n /\
    c_normal (b_comp c') (place lam Q shift p) = Q (c_normal (b_comp c) p);
  mc_refdir : forall p, length p = n -> length (c_refdir (b_comp c) p) = n /\
    c_refdir (b_comp c') (place lam Q shift p) = Q (c_refdir (b_comp c) p);
  mc_refpoint : length (c_refpoint (b_comp c)) = n /\ c_refpoint (b_comp c') = place lam Q shift (c_refpoint (b_comp c));
  mc_center : length (c_center (b_comp c)) = n /\ c_center (b_comp c') = place lam Q shift (c_center (b_comp c));
  mc_intersect : forall p d s, length p = n -> length d = n -> 0 < s ->
    (forall x, c_intersect (b_comp c) p d = Some x -> length x = n) /\
    c_intersect (b_comp c') (place lam Q shift p) (vscale s (Q d)) = option_map (place lam Q shift) (c_intersect (b_comp c) p d);
  mc_tail : c_tail (b_comp c') = c_tail (b_comp c);
  mc_cuboid : b_cuboid c' = b_cuboid c
}.
Definition moved_tree (n : nat) (lam : R) (Q : vec -> vec) (shift : vec) (t t' : btree) : Prop :=
  Forall2 (moved_comp n lam Q shift) (bt_comps t) (bt_comps t') /\ bt_root t' = bt_root t /\
  forall i, bt_parent t' i = bt_parent t i.

Section Similar.
Variables (n : nat) (Q : vec -> vec) (lam : R) (shift : vec).
Hypothesis FQ : frame_change n Q.
Hypothesis Hn : (2 <= n)%nat.
Hypothesis Hlam : 0 < lam.
Hypothesis Lshift : length shift = n.
Notation F := (in_frame Q).
Notation T := (place lam Q shift).
Lemma T_len p : length p = n -> length (T p) = n.
Proof. intros L. unfold place. rewrite length_vadd, length_vscale, (fc_len n Q FQ) by auto. lia. Qed.
Lemma T_sub p q : length p = n -> length q = n -> vsub (T p) (T q) = vscale lam (Q (vsub p q)).
Proof.
  intros L M. rewrite (Q_sub Q n FQ) by auto. pose proof (fc_len n Q FQ p L). pose proof (fc_len n Q FQ q M). unfold place. vext. ring.
Qed.
Lemma T_add p d : length p = n -> length d = n -> T (vadd p d) = vadd (T p) (vscale lam (Q d)).
Proof.
  intros L M. unfold place. rewrite (fc_add n Q FQ) by auto. pose proof (fc_len n Q FQ p L). pose proof (fc_len n Q FQ d M). vext. ring.
Qed.
Lemma T_dist p q : length p = n -> length q = n -> norm (vsub (T p) (T q)) = lam * norm (vsub p q).
Proof. intros L M. rewrite T_sub, norm_vscale, (Q_nrm Q n FQ), Rabs_pos_eq by (rewrite ?length_vsub; auto; lra || lia). auto. Qed.
Lemma one_Q d : length d = n -> vscale 1 (Q d) = Q d.
Proof. intros L. pose proof (fc_len n Q FQ d L). vext. ring. Qed.

(** *** The walk *)
Definition mwalk (w : walk) : walk := mkWalk (w_ids w) (map Q (w_normals w)) (map Q (w_refs w)) (T (w_surf w)).
Lemma get_moved t t' i : moved_tree n lam Q shift t t' ->
  match get_bcomp t i with
  | Ok c => exists c', get_bcomp t' i = Ok c' /\ moved_comp n lam Q shift c c'
  | Err e => get_bcomp t' i = Err e
  end.
Proof.
  intros (M & _). unfold get_bcomp. revert i. induction M as [|c c' l l' H M IH]; intros [|i]; cbn [nth_error]; eauto. apply IH.
Qed.
Lemma normal_moved c c' s dist : moved_comp n lam Q shift c c' -> length s = n ->
  get_normal_at_distance c' (T s) (lam * dist) = rmap Q (get_normal_at_distance c s dist).
Proof.
  intros M L. unfold get_normal_at_distance. rewrite (mc_cuboid _ _ _ _ _ _ M). destruct (b_cuboid c).
  - destruct (mc_center _ _ _ _ _ _ M) as [Lc ->]. rewrite T_dist, T_sub by auto.
    assert (Ld : length (vsub s (c_center (b_comp c))) = n) by (rewrite length_vsub; lia).
    set (d := vsub s (c_center (b_comp c))) in *. destruct (Req_EM_T (norm d) 0) as [Z|Z].
    + rewrite Z, Rmult_0_r. destruct (Req_EM_T 0 0); [auto|lra].
    + destruct (Req_EM_T (lam * norm d) 0) as [Z'|_]; [apply Rmult_integral in Z'; destruct Z'; [lra|contradiction]|].
      cbn [rmap]. f_equal.
      assert (Lx : length (vscale dist (vdiv d (norm d))) = n) by (unfold vdiv; rewrite !length_vscale; auto).
      assert (Ly : length (vadd s (vscale dist (vdiv d (norm d)))) = n) by (rewrite length_vadd, Lx; lia).
      rewrite <- (proj2 (mc_normal _ _ _ _ _ _ M _ Ly)). f_equal. rewrite T_add by auto. f_equal.
      unfold vdiv. rewrite !(fc_scale n Q FQ) by (rewrite ?length_vscale; auto). pose proof (fc_len n Q FQ d Ld). vext. field. lra.
  - cbn [rmap]. rewrite (proj2 (mc_normal _ _ _ _ _ _ M s L)). auto.
Qed.
Lemma walk_moved t t' dist : moved_tree n lam Q shift t t' -> forall fuel last w, length (w_surf w) = n ->
  walk_up t' (lam * dist) fuel last (mwalk w) = rmap mwalk (walk_up t dist fuel last w).
Proof.
  intros M. induction fuel as [|fuel IH]; intros last w L; cbn [walk_up]; [auto|].
  pose proof M as (_ & Rt & Pa). rewrite Rt, Pa. destruct (Nat.eqb last (bt_root t)); [auto|].
  pose proof (get_moved t t' last M) as G. destruct (get_bcomp t last) as [c|e]; [|rewrite G; auto].
  destruct G as (c' & -> & Mc). cbn [bind]. destruct (bt_parent t last) as [p|]; [|auto].
  pose proof (get_moved t t' p M) as G. destruct (get_bcomp t p) as [q|e]; [|rewrite G; auto].
  destruct G as (q' & -> & Mq). cbn [bind]. change (w_ids (mwalk w)) with (w_ids w). destruct (Nat.ltb _ _); [auto|].
  destruct (mc_refpoint _ _ _ _ _ _ Mc) as [Lr ->]. change (w_surf (mwalk w)) with (T (w_surf w)). rewrite T_sub by auto.
  destruct (mc_intersect _ _ _ _ _ _ Mq (c_refpoint (b_comp c)) (vsub (w_surf w) (c_refpoint (b_comp c))) lam Lr) as [LX ->]; auto;
    [rewrite length_vsub; lia|].
  destruct (c_intersect _ _ _) as [x|] eqn:EI; [|auto]. cbn [option_map]. specialize (LX x eq_refl).
  rewrite (normal_moved q q' x dist Mq LX). destruct (get_normal_at_distance q x dist) as [nn|]; [|auto]. cbn [rmap bind].
  rewrite <- IH by auto. f_equal. unfold mwalk. cbn [w_ids w_normals w_refs w_surf]. rewrite !map_app. cbn [map].
  rewrite (proj2 (mc_refdir _ _ _ _ _ _ Mq x LX)). auto.
Qed.
Lemma branch_moved t t' position i : moved_tree n lam Q shift t t' -> length position = n ->
  branch_walk (T position) i t' = rmap mwalk (branch_walk position i t).
Proof.
  intros M L. unfold branch_walk. generalize 100%nat as fuel. intros fuel. unfold branch_walk_upto.
  pose proof (get_moved t t' i M) as G. destruct (get_bcomp t i) as [c|e]; [|rewrite G; auto].
  destruct G as (c' & -> & Mc). cbn [bind]. cbv zeta. rewrite (mc_gamma _ _ _ _ _ _ Mc) by auto.
  destruct (mc_refdir _ _ _ _ _ _ Mc position L) as [Lr ->]. rewrite (Q_opp Q n FQ) by auto.
  assert (Lo : length (vscale (-1) (c_refdir (b_comp c) position)) = n) by (rewrite length_vscale; auto).
  assert (G : forall s dist, length s = n ->
    (do nn <- get_normal_at_distance c' (T s) (lam * dist); walk_up t' (lam * dist) fuel i
       (mkWalk [i] [nn] [Q (c_refdir (b_comp c) position)] (T s))) =
    rmap mwalk (do nn <- get_normal_at_distance c s dist; walk_up t dist fuel i (mkWalk [i] [nn] [c_refdir (b_comp c) position] s))).
  { intros s dist Ls. rewrite (normal_moved c c' s dist Mc Ls). destruct (get_normal_at_distance c s dist) as [nn|]; [|auto]. cbn [rmap bind].
    rewrite <- (walk_moved t t' dist M) by auto. auto. }
  destruct (mc_refpoint _ _ _ _ _ _ Mc) as [Lp ->].
  destruct (Rltb 1 _).
  - destruct (mc_intersect _ _ _ _ _ _ Mc (c_refpoint (b_comp c)) _ 1 Lp Lo Rlt_0_1) as [LX E]. rewrite one_Q in E by auto. rewrite E.
    destruct (c_intersect _ _ _) as [x|]; [|auto]. cbn [option_map bind]. specialize (LX x eq_refl). rewrite T_dist by auto. apply G. auto.
  - destruct (mc_intersect _ _ _ _ _ _ Mc position _ 1 L Lo Rlt_0_1) as [LX E]. rewrite one_Q in E by auto. rewrite E.
    destruct (c_intersect _ _ _) as [x|]; [|auto]. cbn [option_map bind]. specialize (LX x eq_refl).
    pose proof (G x 0 LX) as G0. rewrite Rmult_0_r in G0. exact G0.
Qed.

(** *** The tangent tree *)
Definition qstep (s : vec * vec * nat) : vec * vec * nat := let '(a, b, k) := s in (Q a, Q b, k).
Lemma steps_moved w : branch_steps (mwalk w) = map qstep (branch_steps w).
Proof.
  unfold branch_steps, mwalk. cbn [w_refs w_ids]. rewrite map_rev. f_equal.
  assert (E : tl (map Q (w_refs w)) = map Q (tl (w_refs w))) by (destruct (w_refs w); auto). rewrite E.
  assert (G : forall a b l, combine (combine (map Q a) (map Q b)) l = map qstep (combine (combine a b) l)); [|apply G].
  induction a as [|x a IH]; intros [|y b] [|k l]; cbn [map combine qstep]; auto. f_equal. apply IH.
Qed.
(** A step of the walk along which directions can be turned in both frames without tolerance. *)
Definition exact_step (s : vec * vec * nat) : Prop :=
  let '(a, b, _) := s in exact_pair (direction a) (direction b) /\ exact_pair (direction (Q a)) (direction (Q b)).
Lemma nodes_moved obs comp : forall steps tt v p, length v = n -> (forall s, In s steps -> step_ok n s /\ exact_step s) ->
  branch_nodes (F tt) obs comp (Q v) p (map qstep steps) =
    rmap (fun r => let '(t, u, q) := r in (F t, Q u, q)) (branch_nodes tt obs comp v p steps) /\
  (forall t u q, branch_nodes tt obs comp v p steps = Ok (t, u, q) -> length u = n /\ norm u = norm v).
Proof.
  induction steps as [|[[a b] k] steps IH]; intros tt v p L H; cbn [branch_nodes map qstep].
  - split; auto. intros t u q E. injection E as <- <- <-. auto.
  - destruct (H _ (or_introl eq_refl)) as [(La & Lb & Na & Nb & D) [X X']].
    destruct (F_turn Q n FQ Hn a b v La Lb L Na Nb D X X') as (r & r' & E & E' & Er & Lr & Nr). rewrite E, E'. cbn [bind]. rewrite Er.
    rewrite (F_add_node Q n FQ) by auto. destruct (lift (add_node tt _ (rotate r v 1) _ None None)) as [t1|e]; [|split; [auto|discriminate]].
    cbn [rmap bind]. destruct (IH t1 (rotate r v 1) (node_key obs comp (Z.of_nat k)) Lr) as [I1 I2]; [intros s I; apply H; right; auto|].
    split; [exact I1|]. intros t u q Eq. destruct (I2 t u q Eq) as [A B]. split; auto. congruence.
Qed.

Section Scene.
Variables (pick pick' : vec -> vec) (position base : vec).
Hypothesis Hpick : picks n pick.
Hypothesis Lpos : length position = n.
Hypothesis Lbase : length base = n.
Hypothesis Ubase : unitv base.
Notation pt := (get_projected_tangent pick).
Notation pt' := (get_projected_tangent pick').
(** What is asked of component [i] of an obstacle: unit normal and reference direction, which does not
    point straight out of the obstacle. *)
Definition branch_fine (t : btree) (i : nat) : Prop :=
  exists w, branch_walk position i t = Ok w /\ (forall s, In s (branch_steps w) -> step_ok n s /\ exact_step s) /\
    length (nth 0 (w_normals w) []) = n /\ unitv (nth 0 (w_normals w) []) /\
    length (nth 0 (w_refs w) []) = n /\ unitv (nth 0 (w_refs w) []) /\
    dot (nth 0 (w_refs w) []) (nth 0 (w_normals w) []) <> 1.
Lemma nth0_map (l : list vec) : length (nth 0 l []) = n -> nth 0 (map Q l) [] = Q (nth 0 l []).
Proof. intros L. destruct l; cbn in *; auto. lia. Qed.
Lemma update_moved tt t t' obs i rad : moved_tree n lam Q shift t t' -> branch_fine t i -> PI / 2 <= rad <= PI ->
  branch_update pt' (F tt) (T position) (Q base) t' obs i rad =
    rmap (fun r => (F (fst r), Q (snd r))) (branch_update pt tt position base t obs i rad) /\
  (forall r nn, branch_update pt tt position base t obs i rad = Ok (r, nn) -> length nn = n).
Proof.
  intros M (w & Ew & ST & Ln & Un & Lr & Ur & D) HR. unfold branch_update. rewrite (branch_moved t t' position i M Lpos), Ew. cbn [rmap bind].
  rewrite steps_moved. destruct (nodes_moved obs (Z.of_nat i) (branch_steps w) tt base (node_key obs (-1) (-1)) Lbase ST) as [-> K].
  destruct (branch_nodes tt obs (Z.of_nat i) base (node_key obs (-1) (-1)) (branch_steps w)) as [[[t1 v] p]|e]; [|split; [auto|discriminate]].
  destruct (K t1 v p eq_refl) as [Lv Nv]. cbn [rmap bind].
  assert (Uv : unitv v) by (apply unit_norm; rewrite Nv; apply unit_norm; auto).
  pose proof (get_moved t t' i M) as G. destruct (get_bcomp t i) as [c|e]; [|rewrite G; split; [auto|discriminate]].
  destruct G as (c' & -> & Mc). cbn [bind]. unfold mwalk. cbn [w_normals w_refs]. rewrite !nth0_map by auto.
  set (nn := nth 0 (w_normals w) []) in *. set (rf := nth 0 (w_refs w) []) in *.
  rewrite (mc_tail _ _ _ _ _ _ Mc), (fc_dot n Q FQ) by auto. pose proof PI_RGT_0 as HP.
  assert (TG : forall rd, PI / 2 <= rd <= PI -> exists d, pt v nn rf rd = Ok d /\ pt' (Q v) (Q nn) (Q rf) rd = Ok (Q d) /\ length d = n).
  { intros rd Hd. destruct (C60_never_raises n pick v nn rf rd Hpick Lv Ln Lr Uv Un Ur) as (d & Ed & Ld & _); [lra|]. exists d.
    rewrite (Q_tangent Q n FQ Hn pick pick') by auto. rewrite Ed. auto. }
  destruct (c_tail (b_comp c) || Rltb (dot nn v) 0).
  - destruct (TG (PI * / 2)) as (d0 & A0 & B0 & L0); [lra|]. destruct (TG rad HR) as (d1 & A1 & B1 & L1). rewrite A0, A1, B0, B1. cbn [bind].
    destruct (Rltb (PI * / 2) rad).
    + rewrite (F_add_node Q n FQ) by auto. destruct (lift (add_node t1 (node_key obs (Z.of_nat i) (-1)) d0 (Some p) None None)) as [t2|]; [|split; [auto|discriminate]]. cbn [rmap bind].
      rewrite (F_add_node Q n FQ) by auto. destruct (lift (add_node t2 _ d1 _ None None)) as [t3|]; [|split; [auto|discriminate]]. cbn [rmap bind].
      split; auto. intros r x E. injection E as <- <-. auto.
    + cbn [bind]. rewrite (F_add_node Q n FQ) by auto. destruct (lift (add_node t1 _ d1 _ None None)) as [t3|]; [|split; [auto|discriminate]]. cbn [rmap bind].
      split; auto. intros r x E. injection E as <- <-. auto.
  - cbn [bind]. rewrite (F_add_node Q n FQ) by auto. destruct (lift (add_node t1 _ v _ None None)) as [t3|]; [|split; [auto|discriminate]]. cbn [rmap bind].
    split; auto. intros r x E. injection E as <- <-. auto.
Qed.
Definition fr_out (r : tree * list nid * list vec) : tree * list nid * list vec := let '(t, k, ns) := r in (F t, k, map Q ns).
Lemma components_moved t t' obs ws rs : moved_tree n lam Q shift t t' -> forall l tt,
  (forall i, In i l -> 0 < nth i ws 0 -> branch_fine t i /\ PI / 2 <= nth i rs 0 <= PI) ->
  populate_components pt' (F tt) (T position) (Q base) t' obs ws rs l =
    rmap fr_out (populate_components pt tt position base t obs ws rs l) /\
  (forall r k ns, populate_components pt tt position base t obs ws rs l = Ok (r, k, ns) -> Forall (fun u => length u = n) ns).
Proof.
  intros M. induction l as [|i l IH]; intros tt H; cbn [populate_components].
  - split; auto. intros r k ns E. injection E as <- <- <-. constructor.
  - destruct (Rle_dec (nth i ws 0) 0) as [|P]; [apply IH; intros j J; apply H; right; auto|].
    destruct (H i (or_introl eq_refl) ltac:(lra)) as [BF HR]. destruct (update_moved tt t t' obs i (nth i rs 0) M BF HR) as [-> K].
    destruct (branch_update pt tt position base t obs i (nth i rs 0)) as [[t1 nn]|e]; [|split; [auto|discriminate]]. cbn [rmap bind fst snd].
    destruct (IH t1) as [-> I2]; [intros j J; apply H; right; auto|].
    destruct (populate_components pt t1 position base t obs ws rs l) as [[[t2 ks] ns]|e]; [|split; [auto|discriminate]]. cbn [rmap bind fr_out].
    split; [auto|]. intros r k ms E. injection E as <- <- <-. constructor; [apply (K t1); auto|apply (I2 t2 ks); auto].
Qed.
Lemma tree_moved t t' obs ws rs tt : moved_tree n lam Q shift t t' ->
  (forall i, (i < length (bt_comps t))%nat -> 0 < nth i ws 0 -> branch_fine t i /\ PI / 2 <= nth i rs 0 <= PI) ->
  populate_tree pt' (F tt) (T position) (Q base) t' obs ws rs = rmap fr_out (populate_tree pt tt position base t obs ws rs) /\
  (forall r k ns, populate_tree pt tt position base t obs ws rs = Ok (r, k, ns) -> Forall (fun u => length u = n) ns).
Proof.
  intros M H. unfold populate_tree. rewrite (F_add_node Q n FQ) by auto.
  destruct (lift (add_node tt _ base _ None None)) as [t1|e]; [|split; [auto|discriminate]]. cbn [rmap bind].
  rewrite <- (F2_length _ _ _ (proj1 M)). apply components_moved; auto. intros i I. apply in_seq in I. apply H. lia.
Qed.
Lemma all_moved : forall D D' obs tt, Forall2 (fun d d' => moved_tree n lam Q shift (fst (fst d)) (fst (fst d')) /\ snd (fst d') = snd (fst d) /\ snd d' = snd d) D D' ->
  (forall t ws rs i, In (t, ws, rs) D -> (i < length (bt_comps t))%nat -> 0 < nth i ws 0 -> branch_fine t i /\ PI / 2 <= nth i rs 0 <= PI) ->
  populate_all pt' (F tt) (T position) (Q base) obs D' = rmap fr_out (populate_all pt tt position base obs D) /\
  (forall r k ns, populate_all pt tt position base obs D = Ok (r, k, ns) -> Forall (fun u => length u = n) ns).
Proof.
  intros D D' obs tt M. revert obs tt. induction M as [|[[t ws] rs] [[t' ws'] rs'] D D' (Mt & E1 & E2) M IH]; intros obs tt H; cbn [populate_all].
  - split; auto. intros r k ns E. injection E as <- <- <-. constructor.
  - cbn [fst snd] in *. subst ws' rs'. destruct (tree_moved t t' obs ws rs tt Mt) as [-> K]; [intros i; apply (H t ws rs i); left; auto|].
    destruct (populate_tree pt tt position base t obs ws rs) as [[[t1 k1] n1]|e]; [|split; [auto|discriminate]]. cbn [rmap bind fr_out].
    destruct (IH (obs + 1)%Z t1) as [-> I2]; [intros ? ? ? ? J; apply H; right; auto|].
    destruct (populate_all pt t1 position base (obs + 1) D) as [[[t2 k2] n2]|e]; [|split; [auto|discriminate]]. cbn [rmap bind fr_out]. rewrite map_app.
    split; [auto|]. intros r k ms E. injection E as <- <- <-. apply Forall_app. split; [apply (K t1 k1); auto|apply (I2 t2 k2); auto].
Qed.
End Scene.

(** *** Weights, radiuses and records *)
Lemma fdiv_scale k x y : 0 < k -> fdiv (k * x) (k * y) = fdiv x y.
Proof.
  intros K. unfold fdiv. destruct (Req_EM_T y 0) as [->|Y].
  - rewrite Rmult_0_r. destruct (Req_EM_T 0 0); [auto|lra].
  - destruct (Req_EM_T (k * y) 0) as [Z|_]; [apply Rmult_integral in Z; destruct Z; [lra|contradiction]|]. f_equal. field. lra.
Qed.
Lemma comp_moved t t' i : moved_tree n lam Q shift t t' ->
  match get_component (mtree_of t) i with
  | Ok c => exists b b', c = b_comp b /\ In b (bt_comps t) /\ get_component (mtree_of t') i = Ok (b_comp b') /\ moved_comp n lam Q shift b b'
  | Err e => get_component (mtree_of t') i = Err e
  end.
Proof.
  intros M. pose proof (get_moved t t' i M) as G. unfold get_component, get_bcomp in *. cbn [mtree_of m_comps]. rewrite !nth_error_map.
  destruct (nth_error (bt_comps t) i) as [b|] eqn:E.
  - cbn [option_map]. destruct G as (b' & E' & Mb). exists b, b'. split; auto. split; [eapply nth_error_In; eauto|]. split; auto.
    destruct (nth_error (bt_comps t') i); [|discriminate]. injection E' as ->. auto.
  - cbn [option_map]. destruct (nth_error (bt_comps t') i); [discriminate|auto].
Qed.
Section Data.
Variables (pick pick' : vec -> vec) (power radius : R) (max_repulsion : option R) (position base : vec) (t t' : btree).
Hypothesis Lpos : length position = n.
Hypothesis Lbase : length base = n.
Hypothesis Ubase : unitv base.
Hypothesis M : moved_tree n lam Q shift t t'.
Hypothesis RF : forall c, get_component (mtree_of t) (bt_root t) = Ok c ->
  unitv (c_normal c position) /\ unitv (c_refdir c position) /\ dot (c_refdir c position) (c_normal c position) <> 1.
Hypothesis DP : forall c, In c (bt_comps t) -> max_repulsion <> None ->
  allclose (T position) (T (c_center (b_comp c))) = allclose position (c_center (b_comp c)).
Lemma gammas_moved : tree_gammas (T position) (mtree_of t') = tree_gammas position (mtree_of t).
Proof.
  unfold tree_gammas. cbn [mtree_of m_comps]. rewrite !map_map. destruct M as (Mc & _). clear - Mc Lpos.
  induction Mc as [|c c' l l' H Mc IH]; cbn [map]; auto. rewrite (mc_gamma _ _ _ _ _ _ H) by auto. rewrite IH. auto.
Qed.
Lemma root_moved : bt_root t' = bt_root t.
Proof. apply M. Qed.
Lemma weight_moved g c c' : get_component (mtree_of t) (bt_root t) = Ok (b_comp c) -> moved_comp n lam Q shift c c' ->
  get_rotation_weight (angle_space pick') (c_normal (b_comp c') (T position)) (c_refdir (b_comp c') (T position)) (Q base) g (PI * / 2) power (PI * / 2) =
  get_rotation_weight (angle_space pick) (c_normal (b_comp c) position) (c_refdir (b_comp c) position) base g (PI * / 2) power (PI * / 2).
Proof.
  intros E Mc. destruct (RF _ E) as (U1 & U2 & D). destruct (mc_normal _ _ _ _ _ _ Mc position Lpos) as [L1 ->].
  destruct (mc_refdir _ _ _ _ _ _ Mc position Lpos) as [L2 ->]. apply (Q_rotation_weight Q n FQ); auto.
Qed.
Lemma record_moved : convergence_record (angle_space pick') power (T position) (Q base) t' = convergence_record (angle_space pick) power position base t.
Proof.
  unfold convergence_record. rewrite gammas_moved. cbn [mtree_of m_root]. rewrite root_moved.
  pose proof (comp_moved t t' (bt_root t) M) as G. pose proof weight_moved as WM. cbn [mtree_of] in G, WM.
  destruct (get_component _ (bt_root t)) as [c|e]; [|rewrite G; auto].
  destruct G as (b & b' & -> & Ib & -> & Mb). cbn [bind]. destruct (tree_gammas position (mtree_of t)) as [|g gs]; [auto|].
  rewrite (WM _ b b' eq_refl Mb). destruct (get_rotation_weight _ _ _ _ _ _ _ _) as [rw|]; [|auto]. cbn [bind].
  destruct (mc_refdir _ _ _ _ _ _ Mb position Lpos) as [L2 ->]. rewrite (Q_nrm Q n FQ) by auto. destruct (Req_EM_T _ 0); [auto|].
  rewrite (Q_div Q n FQ), (fc_dot n Q FQ) by (auto; unfold vdiv; rewrite length_vscale; auto). auto.
Qed.
Lemma gw_moved : tree_gamma_and_weights (angle_space pick') (T position) (Q base) power (mtree_of t') =
  tree_gamma_and_weights (angle_space pick) position base power (mtree_of t).
Proof.
  unfold tree_gamma_and_weights. rewrite gammas_moved. cbv zeta. destruct (compute_weights_from_distances _ 1 false); [|auto]. cbn [bind].
  cbn [mtree_of m_root]. rewrite root_moved.
  pose proof (comp_moved t t' (bt_root t) M) as G. pose proof weight_moved as WM. cbn [mtree_of] in G, WM.
  destruct (get_component _ (bt_root t)) as [c|e]; [|rewrite G; auto].
  destruct G as (b & b' & -> & Ib & -> & Mb). cbn [bind]. destruct (tree_gammas position (mtree_of t)) as [|g gs]; [auto|].
  rewrite (WM _ b b' eq_refl Mb). auto.
Qed.
Lemma occlusion_moved i : component_occlusion (T position) (mtree_of t') i = component_occlusion position (mtree_of t) i.
Proof.
  unfold component_occlusion, get_parent_idx. cbn [mtree_of m_root m_parent]. pose proof M as (_ & Rt & Pa). rewrite Rt, Pa. destruct (Nat.eqb i (bt_root t)); [auto|].
  pose proof (comp_moved t t' i M) as G. cbn [mtree_of] in G. destruct (get_component _ i) as [c|e]; [|rewrite G; auto].
  destruct G as (b & b' & -> & Ib & -> & Mb). cbn [bind]. destruct (bt_parent t i) as [p|]; [|auto]. cbn [bind].
  pose proof (comp_moved t t' p M) as G. cbn [mtree_of] in G. destruct (get_component _ p) as [q|e]; [|rewrite G; auto].
  destruct G as (e & e' & -> & _ & -> & Me). cbn [bind]. rewrite (mc_gamma _ _ _ _ _ _ Mb) by auto.
  destruct (mc_refdir _ _ _ _ _ _ Mb position Lpos) as [L2 ->]. rewrite (Q_opp Q n FQ) by auto.
  set (d := if Rltb _ 1 then vscale (-1) (c_refdir (b_comp b) position) else c_refdir (b_comp b) position).
  assert (Ld : length d = n) by (unfold d; destruct (Rltb _ 1); rewrite ?length_vscale; auto).
  replace (if Rltb (c_gamma (b_comp b) position) 1 then Q (vscale (-1) (c_refdir (b_comp b) position)) else Q (c_refdir (b_comp b) position)) with (Q d)
    by (unfold d; destruct (Rltb _ 1); auto).
  destruct (mc_intersect _ _ _ _ _ _ Mb position d 1 Lpos Ld Rlt_0_1) as [LX EI]. rewrite one_Q in EI by auto. rewrite EI.
  destruct (c_intersect (b_comp b) position d) as [x|]; [|auto]. cbn [option_map]. rewrite (mc_gamma _ _ _ _ _ _ Me) by auto.
  destruct (mc_refpoint _ _ _ _ _ _ Mb) as [Lb ->]. destruct (mc_refpoint _ _ _ _ _ _ Me) as [Le ->].
  rewrite !T_sub by auto. unfold parent_occlusion. destruct (Rle_dec 1 _); [auto|].
  assert (L1 : length (vsub (c_refpoint (b_comp e)) (c_refpoint (b_comp b))) = n) by (rewrite length_vsub; lia).
  assert (L3 : length (vsub position (c_refpoint (b_comp b))) = n) by (rewrite length_vsub; lia).
  rewrite dot_vscale_l, dot_vscale_r, (fc_dot n Q FQ), !norm_vscale, !(Q_nrm Q n FQ), (Rabs_pos_eq lam) by (auto; lra).
  set (u := vsub (c_refpoint (b_comp e)) (c_refpoint (b_comp b))). set (v := vsub position (c_refpoint (b_comp b))).
  replace (lam * (lam * dot u v)) with (lam * lam * dot u v) by ring. replace (lam * norm v * (lam * norm u)) with (lam * lam * (norm v * norm u)) by ring.
  rewrite fdiv_scale by nra. auto.
Qed.
Lemma obstacle_weights_moved : tree_obstacle_weights (angle_space pick') (T position) (Q base) power (mtree_of t') =
  tree_obstacle_weights (angle_space pick) position base power (mtree_of t).
Proof.
  unfold tree_obstacle_weights. rewrite gw_moved. destruct (tree_gamma_and_weights _ position base power _) as [[gs ws]|]; [|auto]. cbn [bind].
  unfold compute_parent_occlusion_weight. assert (E : length (m_comps (mtree_of t')) = length (m_comps (mtree_of t))).
  { cbn [mtree_of m_comps]. rewrite !map_length. symmetry. apply (F2_length _ _ _ (proj1 M)). }
  rewrite E. assert (G : forall l, mapM (component_occlusion (T position) (mtree_of t')) l = mapM (component_occlusion position (mtree_of t)) l).
  { induction l as [|i l IH]; cbn [mapM]; auto. rewrite occlusion_moved, IH. auto. }
  rewrite G. auto.
Qed.
Lemma depth_moved c c' : In c (bt_comps t) -> max_repulsion <> None -> moved_comp n lam Q shift c c' ->
  depth_of (T position) (b_comp c') = depth_of position (b_comp c).
Proof.
  intros I NN Mc. unfold depth_of. destruct (mc_center _ _ _ _ _ _ Mc) as [Lc ->]. rewrite (DP c I NN). destruct (allclose _ _); [auto|].
  rewrite T_sub by auto.
  assert (Ld : length (vsub position (c_center (b_comp c))) = n) by (rewrite length_vsub; lia).
  destruct (mc_intersect _ _ _ _ _ _ Mc (c_center (b_comp c)) _ lam Lc Ld Hlam) as [LX ->].
  destruct (c_intersect _ _ _) as [x|]; [|auto]. cbn [option_map]. specialize (LX x eq_refl). rewrite T_dist by auto.
  rewrite norm_vscale, (Q_nrm Q n FQ), (Rabs_pos_eq lam) by (auto; lra). rewrite fdiv_scale by auto. auto.
Qed.
Lemma radiuses_moved gs : tree_radiuses radius max_repulsion (T position) t' gs = tree_radiuses radius max_repulsion position t gs.
Proof.
  unfold tree_radiuses. f_equal. pose proof M as (Mc & _). pose proof depth_moved as DM.
  assert (G : forall l l', Forall2 (moved_comp n lam Q shift) l l' -> (forall c, In c l -> In c (bt_comps t)) -> forall gs,
    mapM (fun gc : R * bcomp => let (g, c) := gc in match max_repulsion with
       | None => Ok (g, None) | Some _ => if Rltb g 1 then do d <- depth_of (T position) (b_comp c); Ok (g, d) else Ok (g, None) end) (combine gs l') =
    mapM (fun gc : R * bcomp => let (g, c) := gc in match max_repulsion with
       | None => Ok (g, None) | Some _ => if Rltb g 1 then do d <- depth_of position (b_comp c); Ok (g, d) else Ok (g, None) end) (combine gs l)).
  { induction 1 as [|c c' l l' H FF IH]; intros IN [|g gs']; cbn [combine mapM]; auto.
    rewrite (IH (fun c I => IN c (or_intror I)) gs'). destruct max_repulsion as [m|]; [|auto].
    rewrite (DM c c'); auto; [apply IN; left; auto|discriminate]. }
  apply G; auto.
Qed.
Lemma data_moved : tree_data (angle_space pick') power radius max_repulsion (T position) (Q base) t' =
  rmap (fun d => let '(_, ws, rs, rc) := d in (t', ws, rs, rc)) (tree_data (angle_space pick) power radius max_repulsion position base t).
Proof.
  unfold tree_data. rewrite record_moved, gw_moved, obstacle_weights_moved.
  destruct (convergence_record _ _ _ _ _); [|auto]. cbn [bind]. destruct (tree_gamma_and_weights _ _ _ _ _) as [[gs ?]|]; [|auto]. cbn [bind].
  destruct (tree_obstacle_weights _ _ _ _ _); [|auto]. cbn [bind]. rewrite radiuses_moved. destruct (tree_radiuses _ _ _ _ _); auto.
Qed.
End Data.

(** *** Speed *)
Definition scaled (v : vec) : vec := vscale lam (Q v).
Lemma averaged_moved : forall normals ws, Forall (fun u => length u = n) normals ->
  averaged_normal n (map Q normals) ws = Q (averaged_normal n normals ws) /\ length (averaged_normal n normals ws) = n.
Proof.
  unfold averaged_normal. induction normals as [|u l IH]; intros [|w ws] H; cbn [map combine fold_right];
    try (split; [symmetry; apply (Q_zero Q n FQ)|apply length_vzero]).
  pose proof (Forall_inv H) as Lu. pose proof (Forall_inv_tail H) as Hl. cbn beta in Lu. destruct (IH ws Hl) as [E L]. cbn [fst snd]. rewrite E.
  assert (LS : length (vscale w u) = n) by (rewrite length_vscale; auto).
  split; [rewrite (fc_add n Q FQ), (fc_scale n Q FQ) by auto; auto|rewrite length_vadd, L, LS; lia].
Qed.
Lemma safe_moved v a g ds pr : length v = n -> length a = n -> compute_safe_scaling (Q v) (Q a) g ds pr = compute_safe_scaling v a g ds pr.
Proof. intros L M. unfold compute_safe_scaling. rewrite !(Q_nrm Q n FQ), (fc_dot n Q FQ) by auto. auto. Qed.
Lemma velocity_moved magnitude relative final normals cw records : length relative = n -> length final = n ->
  Forall (fun u => length u = n) normals ->
  scaled_velocity (lam * magnitude) (scaled relative) (Q final) (map Q normals) cw records =
    match cw with
    | [] => Ok (vadd (Q final) (scaled relative))
    | _ => rmap scaled (scaled_velocity magnitude relative final normals cw records)
    end.
Proof.
  intros Lr Lf Ln. unfold scaled_velocity. destruct cw as [|w ws]; [auto|]. rewrite (fc_len n Q FQ), Lf by auto.
  destruct (averaged_moved normals (w :: ws) Ln) as [-> La]. destruct (fdiv 1 _) as [g|]; [|auto]. cbn [bind].
  destruct (slowfactor_from_convergence records _) as [sc|]; [|auto]. cbn [bind].
  rewrite safe_moved by auto. rewrite (Q_nrm Q n FQ) by auto. destruct (Req_EM_T _ 0); [auto|]. cbn [rmap].
  set (k := match compute_safe_scaling _ _ _ _ _ with Ok p => if Rltb p sc then p else sc | Err _ => sc end). f_equal. unfold scaled.
  rewrite (Q_div Q n FQ) by auto. assert (L1 : length (vdiv final (norm final)) = n) by (unfold vdiv; rewrite length_vscale; auto).
  rewrite (fc_add n Q FQ), !(fc_scale n Q FQ) by (rewrite ?length_vscale; auto). pose proof (fc_len n Q FQ _ L1). pose proof (fc_len n Q FQ _ Lr). vext. ring.
Qed.
(** *** Moving obstacles *)
Definition quarter_turn (u : vec) : vec := [- nth 1 u 0; nth 0 u 0].
Record moved_body (sg : R) (o o' : mobs) : Prop := {
  mb_gamma : mo_gamma o' = mo_gamma o;
  mb_position : length (mo_position o) = n /\ mo_position o' = T (mo_position o);
  mb_twist : match mo_twist o with
             | None => mo_twist o' = None
             | Some (lin, a) => length lin = n /\ exists a', mo_twist o' = Some (scaled lin, a') /\
                 match a with AngNone => a' = AngNone | AngNum w => a' = AngNum (sg * w) | AngArray _ => exists v, a' = AngArray v end
             end;
  mb_deformation : mo_deformation o' = mo_deformation o }.
Section Bodies.
Variable sg : R.
(** [sg] is 1 for a rotation of the plane and -1 for a reflection. *)
Hypothesis SG : sg * sg = 1 /\ (n = 2%nat -> forall u, length u = 2%nat -> quarter_turn (Q u) = vscale sg (Q (quarter_turn u))).
Lemma scaled_len v : length v = n -> length (scaled v) = n.
Proof. intros L. unfold scaled. rewrite length_vscale. apply (fc_len n Q FQ). auto. Qed.
Lemma scaled_add u v : length u = n -> length v = n -> scaled (vadd u v) = vadd (scaled u) (scaled v).
Proof. intros L M. unfold scaled. rewrite (fc_add n Q FQ) by auto. pose proof (fc_len n Q FQ u L). pose proof (fc_len n Q FQ v M). vext. ring. Qed.
Lemma scaled_scale c v : length v = n -> scaled (vscale c v) = vscale c (scaled v).
Proof. intros L. unfold scaled. rewrite (fc_scale n Q FQ) by auto. pose proof (fc_len n Q FQ v L). vext. ring. Qed.
Lemma scaled_zero : scaled (vzero n) = vzero n.
Proof. unfold scaled. rewrite (Q_zero Q n FQ). vext. ring. Qed.
Lemma angular_moved p o o' a a' f : length p = n -> length (mo_position o) = n -> mo_position o' = T (mo_position o) ->
  match a with AngNone => a' = AngNone | AngNum w => a' = AngNum (sg * w) | AngArray _ => exists v, a' = AngArray v end ->
  angular_part (T p) o' a' f = rmap scaled (angular_part p o a f) /\ (forall v, angular_part p o a f = Ok v -> length v = n).
Proof.
  intros Lp Lo Ep H. destruct SG as [S1 S2]. destruct a as [|w|v].
  - subst a'. cbn [angular_part rmap]. rewrite T_len, Lp by auto. rewrite scaled_zero. split; auto. intros v E. injection E as <-. apply length_vzero.
  - subst a'. cbn [angular_part]. rewrite T_len, Lp by auto. destruct (Req_EM_T w 0) as [->|W].
    + rewrite Rmult_0_r. destruct (Req_EM_T 0 0); [|lra]. cbn [rmap]. rewrite scaled_zero. split; auto. intros v E. injection E as <-. apply length_vzero.
    + destruct (Req_EM_T (sg * w) 0) as [Z|_]; [apply Rmult_integral in Z; destruct Z; [subst sg; lra|contradiction]|].
      destruct (Nat.eqb n 2) eqn:E2; [|destruct (Nat.eqb n 3); split; auto; discriminate]. apply Nat.eqb_eq in E2. cbn [rmap].
      split; [|intros v E; injection E as <-; auto]. f_equal. rewrite Ep.
      set (u := vsub p (mo_position o)). assert (Lu : length u = n) by (unfold u; rewrite length_vsub; lia).
      assert (N : forall k, nth k (T p) 0 - nth k (T (mo_position o)) 0 = nth k (scaled u) 0).
      { intros k. unfold scaled, u. rewrite <- T_sub by auto. autorewrite with vnth. ring. }
      assert (N' : forall k, nth k p 0 - nth k (mo_position o) 0 = nth k u 0) by (intros k; unfold u; autorewrite with vnth; ring).
      rewrite !N, !N'. pose proof (fc_len n Q FQ u Lu) as LQ. assert (L2 : length u = 2%nat) by lia. specialize (S2 E2 u L2).
      replace [- w * nth 1 u 0; w * nth 0 u 0] with (vscale w (quarter_turn u)) by (unfold quarter_turn; cbn [vscale map]; f_equal; ring).
      assert (Lt : length (quarter_turn u) = n) by (rewrite E2; auto).
      unfold scaled. rewrite !(fc_scale n Q FQ) by (rewrite ?length_vscale; auto). rewrite !nth_vscale.
      replace [- (sg * w) * (lam * nth 1 (Q u) 0); sg * w * (lam * nth 0 (Q u) 0)] with (vscale (sg * w * lam) (quarter_turn (Q u)))
        by (unfold quarter_turn; cbn [vscale map]; repeat (apply f_equal2; [ring|]); auto).
      rewrite S2. pose proof (fc_len n Q FQ _ Lt). vext. replace (f * (sg * w * lam * (sg * nth i (Q (quarter_turn u)) 0))) with (sg * sg * (f * w * lam * nth i (Q (quarter_turn u)) 0)) by ring.
      rewrite S1. ring.
  - destruct H as (v' & ->). split; [auto|discriminate].
Qed.
Lemma relative_step_moved p w o o' rel : length p = n -> moved_body sg o o' -> length rel = n ->
  relative_step (T p) (Ok (scaled rel)) (w, o') = rmap scaled (relative_step p (Ok rel) (w, o)) /\
  (forall v, relative_step p (Ok rel) (w, o) = Ok v -> length v = n).
Proof.
  intros Lp M Lr. unfold relative_step. cbn [bind]. destruct (Rle_dec w 0); [split; [auto|intros v E; injection E as <-; auto]|].
  destruct (mb_position _ _ _ M) as [Lo Eo]. pose proof (mb_twist _ _ _ M) as TW. rewrite (mb_gamma _ _ _ M), (mb_deformation _ _ _ M).
  assert (G : forall r, length r = n ->
    (match mo_deformation o with None => Ok (scaled r) | Some rate => Ok (vadd (scaled r) (vscale rate (vscale w (vsub (T p) (mo_position o'))))) end) =
    rmap scaled (match mo_deformation o with None => Ok r | Some rate => Ok (vadd r (vscale rate (vscale w (vsub p (mo_position o))))) end) /\
    (forall v, (match mo_deformation o with None => Ok r | Some rate => Ok (vadd r (vscale rate (vscale w (vsub p (mo_position o))))) end) = Ok v -> length v = n)).
  { intros r L. destruct (mo_deformation o) as [rate|]; [|split; [auto|intros v E; injection E as <-; auto]].
    assert (Lv : length (vsub p (mo_position o)) = n) by (rewrite length_vsub; lia).
    split; [|intros v E; injection E as <-; rewrite length_vadd, !length_vscale, Lv; lia].
    cbn [rmap]. rewrite Eo, T_sub by auto. fold (scaled (vsub p (mo_position o))).
    rewrite scaled_add, !scaled_scale by (rewrite ?length_vscale; auto). auto. }
  destruct (mo_twist o) as [[lin a]|].
  - destruct TW as (Ll & a' & -> & Ha). destruct (angular_moved p o o' a a' (w * exp (-1 * (Rmax (mo_gamma o) 1 - 1))) Lp Lo Eo Ha) as [-> LA].
    destruct (angular_part p o a _) as [av|]; [|split; [auto|discriminate]]. cbn [rmap bind]. specialize (LA av eq_refl).
    rewrite <- scaled_scale, <- !scaled_add by (rewrite ?length_vadd, ?length_vscale; auto; lia).
    apply G. rewrite !length_vadd, length_vscale, LA. lia.
  - rewrite TW. cbn [bind]. apply G. auto.
Qed.
Lemma relative_moved p env env' : length p = n -> Forall2 (moved_body sg) env env' ->
  compute_multiobstacle_relative_velocity (T p) env' = rmap scaled (compute_multiobstacle_relative_velocity p env) /\
  (forall v, compute_multiobstacle_relative_velocity p env = Ok v -> length v = n).
Proof.
  intros Lp M. unfold compute_multiobstacle_relative_velocity.
  assert (EG : map mo_gamma env' = map mo_gamma env).
  { induction M as [|o o' l l' H M IH]; cbn [map]; auto. rewrite IH, (mb_gamma _ _ _ H). auto. }
  rewrite EG. destruct (compute_gamma_weights _ 1 1) as [ws|]; [|split; [auto|discriminate]]. cbn [bind]. rewrite T_len, Lp by auto.
  assert (G : forall ws rel, length rel = n ->
    fold_left (relative_step (T p)) (combine ws env') (Ok (scaled rel)) = rmap scaled (fold_left (relative_step p) (combine ws env) (Ok rel)) /\
    (forall v, fold_left (relative_step p) (combine ws env) (Ok rel) = Ok v -> length v = n)).
  { clear EG ws. induction M as [|o o' l l' H M IH]; intros [|w ws] rel L; cbn [combine fold_left];
      try (split; [auto|intros v E; injection E as <-; auto]).
    destruct (relative_step_moved p w o o' rel Lp H L) as [-> K]. destruct (relative_step p (Ok rel) (w, o)) as [r1|e]; [apply IH; apply K; auto|].
    cbn [rmap]. assert (FE : forall q l, fold_left (relative_step q) l (Err e) = Err e).
    { induction l0 as [|[w0 o0] l0 I0]; cbn [fold_left relative_step bind]; auto. }
    rewrite !FE. split; [auto|discriminate]. }
  pose proof (G ws (vzero n) (length_vzero n)) as K. rewrite scaled_zero in K. exact K.
Qed.
End Bodies.

(** *** The avoidance *)
Section Avoid.
Variables (orth0 orth0' : vec -> vec) (pick pick' : vec -> vec) (sort sort' : tree -> list nid).
Variables (power radius : R) (max_repulsion : option R) (position base : vec) (trees trees' : list btree).
Notation SCENE := (scene orth0 (angle_space pick) pick sort power radius max_repulsion n position base trees).
Notation SCENE' := (scene orth0' (angle_space pick') pick' sort' power radius max_repulsion n (T position) (Q base) trees').
Hypothesis SC : SCENE.
Hypothesis SC' : SCENE'.
Hypothesis Lpos : length position = n.
Hypothesis MT : Forall2 (moved_tree n lam Q shift) trees trees'.
(** The directions along a walk are far enough apart to be told apart in both frames. *)
Hypothesis EXA : forall t i w st, In t trees -> (i < length (bt_comps t))%nat -> branch_walk position i t = Ok w ->
  In st (branch_steps w) -> exact_step st.
(** No reference direction points straight out of its component. *)
Hypothesis OUT : forall t i w, In t trees -> (i < length (bt_comps t))%nat -> branch_walk position i t = Ok w ->
  dot (nth 0 (w_refs w) []) (nth 0 (w_normals w) []) <> 1.
Hypothesis ROOT : forall t c, In t trees -> get_component (mtree_of t) (bt_root t) = Ok c ->
  dot (c_refdir c position) (c_normal c position) <> 1.
(** The tolerance of the test for the centre decides the same way in both frames. *)
Hypothesis CEN : forall t c, In t trees -> In c (bt_comps t) -> max_repulsion <> None ->
  allclose (T position) (T (c_center (b_comp c))) = allclose position (c_center (b_comp c)).
Notation hh := (h (angle_space pick) power radius max_repulsion position base).
Notation hh' := (h (angle_space pick') power radius max_repulsion (T position) (Q base)).

Lemma scene_fine t i : In t trees -> (i < length (bt_comps t))%nat -> branch_fine position t i.
Proof.
  intros I Hi. destruct (sc_branch _ _ _ _ _ _ _ _ _ _ _ SC t i I Hi) as (w & Ew & LK). exists w. split; auto. split.
  { intros st J. split; [|eapply EXA; eauto]. unfold branch_steps in J. apply in_rev in J. apply (linkable_steps n _ LK _ _ J). }
  destruct (walk_first_normal _ _ _ _ Ew) as (c & surf & d & Ec & En & Rf & _).
  destruct (normal_at_distance_form _ _ _ _ En) as (p & Ep). pose proof (OUT t i w I Hi Ew) as O. rewrite Rf, Ep in *. apply get_bcomp_in in Ec.
  destruct (sc_normal _ _ _ _ _ _ _ _ _ _ _ SC t c p I Ec), (sc_refdir _ _ _ _ _ _ _ _ _ _ _ SC t c I Ec). auto 10.
Qed.
Lemma base_ok : length base = n /\ unitv base.
Proof. apply (sc_base _ _ _ _ _ _ _ _ _ _ _ SC). Qed.
Lemma h_moved t t' : In t trees -> moved_tree n lam Q shift t t' -> exists ws rs rc, hh t = (t, ws, rs, rc) /\ hh' t' = (t', ws, rs, rc) /\
  (forall i, (i < length (bt_comps t))%nat -> PI / 2 <= nth i rs 0 <= PI).
Proof.
  intros I M. destruct base_ok as [Lb Ub]. destruct (h_ok _ _ _ _ _ _ _ _ _ _ _ SC t I) as (ws & rs & rc & Ed & Eh & _ & _ & _ & _ & _ & HR).
  exists ws, rs, rc. split; [exact Eh|]. split; [|exact HR]. unfold h. rewrite (data_moved pick pick' power radius max_repulsion position base t t'); auto.
  - rewrite Ed. auto.
  - intros c Ec. assert (Ic : exists b, In b (bt_comps t) /\ b_comp b = c).
    { unfold get_component in Ec. cbn [mtree_of m_comps] in Ec. rewrite nth_error_map in Ec.
      destruct (nth_error (bt_comps t) (bt_root t)) as [b|] eqn:Eb; [|discriminate]. injection Ec as <-. exists b. split; auto. eapply nth_error_In; eauto. }
    destruct Ic as (b & Ib & <-). split; [apply (sc_normal _ _ _ _ _ _ _ _ _ _ _ SC t b position I Ib)|].
    split; [apply (sc_refdir _ _ _ _ _ _ _ _ _ _ _ SC t b I Ib)|]. apply (ROOT t); auto.
  - intros c Ic. apply (CEN t); auto.
Qed.
Lemma all_data : Forall2 (fun d d' => moved_tree n lam Q shift (fst (fst d)) (fst (fst d')) /\ snd (fst d') = snd (fst d) /\ snd d' = snd d)
    (map fst (map hh trees)) (map fst (map hh' trees')) /\ map snd (map hh' trees') = map snd (map hh trees) /\
  map (fun d => snd (fst (fst d))) (map hh' trees') = map (fun d => snd (fst (fst d))) (map hh trees).
Proof.
  assert (G : forall l l', Forall2 (moved_tree n lam Q shift) l l' -> (forall t, In t l -> In t trees) ->
    Forall2 (fun d d' => moved_tree n lam Q shift (fst (fst d)) (fst (fst d')) /\ snd (fst d') = snd (fst d) /\ snd d' = snd d)
    (map fst (map hh l)) (map fst (map hh' l')) /\ map snd (map hh' l') = map snd (map hh l) /\
    map (fun d => snd (fst (fst d))) (map hh' l') = map (fun d => snd (fst (fst d))) (map hh l)).
  { induction 1 as [|t t' l l' M FF IH]; intros IN; cbn [map]; [repeat split; constructor|].
    destruct (h_moved t t') as (ws & rs & rc & E & E' & _); auto; [apply IN; left; auto|]. rewrite E, E'.
    destruct IH as (A & B & C); [intros; apply IN; right; auto|]. rewrite B, C. cbn [fst snd]. split; [constructor; auto|]. auto. }
  apply G; auto.
Qed.
Lemma end_keys_moved : forall D D' obs, Forall2 (fun d d' => moved_tree n lam Q shift (fst (fst d)) (fst (fst d')) /\ snd (fst d') = snd (fst d) /\ snd d' = snd d) D D' ->
  end_keys obs D' = end_keys obs D.
Proof.
  intros D D' obs M. revert obs. induction M as [|[[t ws] rs] [[t' ws'] rs'] D D' (Mt & E1 & E2) M IH]; intros obs; auto.
  cbn [fst snd] in *. subst. unfold end_keys in *. cbn [end_items]. rewrite !map_app, IH, !map_map, (F2_length _ _ _ (proj1 Mt)). auto.
Qed.
Lemma F_root tt0 tt0' : set_root empty_tree base_vel_id base = Ok tt0 -> set_root empty_tree base_vel_id (Q base) = Ok tt0' -> tt0' = F tt0.
Proof.
  destruct base_ok as [Lb Ub]. pose proof (proj1 (unit_norm _) Ub) as Nb. intros E E'.
  pose proof (fc_len n Q FQ base Lb) as Lb'.
  destruct (set_root_rooted n base_vel_id base tt0 Hn Lb E) as (_ & N0 & N1).
  destruct (set_root_rooted n base_vel_id (Q base) tt0' Hn Lb' E') as (_ & N0' & N1').
  assert (RT : t_root tt0 = Some base_vel_id /\ t_root tt0' = Some base_vel_id).
  { unfold set_root in E, E'. destruct (from_directions base base); [|discriminate]. destruct (from_directions (Q base) (Q base)); [|discriminate].
    cbn [bind] in E, E'. injection E as <-. injection E' as <-. auto. }
  destruct RT as [R0 R0']. destruct tt0 as [a b c], tt0' as [a' b' c']. cbn [t_nodes t_edges t_root] in *. subst a b c a' b' c'. unfold in_frame. cbn [t_nodes t_edges t_root map fst snd option_map a_dir a_level].
  rewrite (Q_div Q n FQ) by auto. rewrite (Q_nrm Q n FQ) by auto. auto.
Qed.
Notation evaluate := (evaluate_avoidance orth0 (angle_space pick) (get_projected_tangent pick) sort power radius max_repulsion).
Notation evaluate' := (evaluate_avoidance orth0' (angle_space pick') (get_projected_tangent pick') sort' power radius max_repulsion).
Lemma avoidance_moved s s' : get_end_vector s = Ok base -> get_end_vector s' = Ok (Q base) ->
  exists final final' normals cw records fv,
    evaluate position s trees = Ok (final, normals, cw, records) /\
    evaluate' (T position) s' trees' = Ok (final', map Q normals, cw, records) /\
    get_end_vector final = Ok fv /\ get_end_vector final' = Ok (Q fv) /\ unitv fv /\ length fv = n /\
    Forall (fun u => length u = n) normals.
Proof.
  intros Eb Eb'. destruct base_ok as [Lb Ub].
  destruct (evaluate_avoidance_ok _ _ _ _ _ _ _ n position s base trees SC Eb)
    as (tx & data & final & normals & cw & fv & Ed & Ea & _ & _ & _ & FI & _ & _ & Ec & _ & Ef & Uf & Lf & Nc & Sc & _ & Lcw & Nn & _).
  destruct (evaluate_avoidance_ok _ _ _ _ _ _ _ n (T position) s' (Q base) trees' SC' Eb')
    as (_ & data' & final' & normals' & cw' & fv' & Ed' & Ea' & _ & _ & _ & _ & _ & _ & Ec' & _ & Ef' & Uf' & Lf' & _).
  destruct (root_tree _ _ _ _ _ _ _ _ _ _ _ SC) as (tt0 & E0 & N0 & N1).
  destruct (root_tree _ _ _ _ _ _ _ _ _ _ _ SC') as (tt0' & E0' & N0' & N1').
  pose proof (F_root _ _ E0 E0') as ->.
  destruct (population_run _ _ _ _ _ _ _ _ _ _ _ SC trees tt0 (fun t I => I) E0) as (u & nm & M & P & W & ND & IDS).
  destruct (population_run _ _ _ _ _ _ _ _ _ _ _ SC' trees' _ (fun t I => I) E0') as (u' & nm' & M' & P' & W' & ND' & IDS').
  rewrite Ed in M. injection M as ->. rewrite Ed' in M'. injection M' as ->.
  destruct (sc_tangent_tree _ _ _ _ _ _ _ _ _ _ _ SC _ u _ _ _ E0 Ed P) as [NO DI].
  destruct (sc_tangent_tree _ _ _ _ _ _ _ _ _ _ _ SC' _ u' _ _ _ E0' Ed' P') as [_ DI'].
  destruct all_data as (AD & AR & AW).
  assert (AM := P'). rewrite (proj1 (all_moved pick pick' position base (sc_pick _ _ _ _ _ _ _ _ _ _ _ SC) Lpos Lb Ub _ _ 0%Z tt0 AD
    ltac:(intros t ws rs i I Hi _; rewrite map_map in I; apply in_map_iff in I as (t1 & E & I);
      assert (X : exists t1', In t1' trees' /\ moved_tree n lam Q shift t1 t1') by
        (clear - MT I; induction MT as [|a b l l' Hab FF IH]; [contradiction|]; destruct I as [<-|I]; [exists b; split; [left; auto|auto]|destruct (IH FF I) as (x & A & B); exists x; split; [right; auto|auto]]);
      destruct X as (t1' & _ & Mt1); destruct (h_moved t1 t1' I Mt1) as (ws1 & rs1 & rc1 & Eh & _ & HR); rewrite Eh in E; cbn [fst] in E; injection E as <- <- <-;
      split; [apply scene_fine; auto|apply HR; auto]))) in AM.
  rewrite P in AM. cbn [rmap fr_out] in AM. injection AM as <- Ek <-.
  assert (R1 := Ea). unfold evaluate_avoidance in R1. rewrite Eb in R1. cbn [bind] in R1. rewrite E0 in R1. cbn [bind] in R1.
  rewrite Ed in R1. cbn [bind] in R1. rewrite P in R1. cbn [bind] in R1. rewrite Ec in R1. cbn [bind] in R1.
  destruct (reduce_weighted_to_sequence orth0 u _ _ _ _) as [sq|] eqn:Er; [|discriminate]. cbn [bind] in R1.
  injection R1 as -> ->.
  rewrite AW, Ec in Ec'. injection Ec' as <-.
  assert (R2 := Ea'). unfold evaluate_avoidance in R2. rewrite Eb' in R2. cbn [bind] in R2. rewrite E0' in R2. cbn [bind] in R2.
  rewrite Ed' in R2. cbn [bind] in R2. rewrite P' in R2. cbn [bind] in R2. rewrite AW, Ec in R2. cbn [bind] in R2.
  destruct (reduce_weighted_to_sequence orth0' (F u) _ _ _ _) as [sq'|] eqn:Er'; [|discriminate]. cbn [bind] in R2.
  injection R2 as -> <-. rewrite <- Ek in *.
  set (K := end_keys 0 (map fst (map hh trees))) in *. set (l := K ++ [base_vel_id]) in *. set (fw := cw ++ [1 - rsum cw]) in *.
  assert (S1 : rsum fw = 1) by (unfold fw; rewrite rsum_app; simpl; ring).
  assert (Nf : nonneg fw) by (intros x I; apply in_app_iff in I; destruct I as [I|[<-|[]]]; [auto|lra]).
  assert (LK : length K = length cw).
  { unfold K, end_keys. rewrite map_length, <- Lcw. apply (F2_length _ _ _ FI). }
  assert (LL : length l = length fw) by (unfold l, fw; rewrite !app_length; cbn [length]; lia).
  assert (AS : assigned u l fw (own_of l fw)) by (apply own_of_assigned; auto).
  set (st := fun _ : nid => mkSlot 0 None None None) in *.
  destruct (C162_frame n u base_vel_id Q (sort u) (sort' (F u)) orth0 orth0' st st l fw (own_of l fw)) as (mean & G1 & G2); auto.
  { apply (sc_sort _ _ _ _ _ _ _ _ _ _ _ SC u base_vel_id W). }
  { apply (sc_sort _ _ _ _ _ _ _ _ _ _ _ SC' (F u) base_vel_id W'). }
  { apply (sc_orth _ _ _ _ _ _ _ _ _ _ _ SC). }
  { apply (sc_orth _ _ _ _ _ _ _ _ _ _ _ SC'). }
  { apply own_of_nonneg; auto. }
  { rewrite S1. lra. }
  unfold get_weighted_mean in G1, G2. rewrite Er in G1. rewrite Er' in G2. cbn [bind] in G1, G2.
  rewrite Ef in G1. injection G1 as ->.
  exists final, final', normals, cw. eexists _, mean. split; [exact Ea|]. split; [rewrite Ea', AR; auto|]. split; auto. split; auto. split; auto. split; auto.
  apply Forall_forall. intros v I. apply Nn; auto.
Qed.
End Avoid.
End Similar.

(** What is asked of a scene besides being ready: a reference direction never points straight out of its
    component, and the tolerances of the tests for equal directions and for the centre decide alike. *)
Record similar_scene (n : nat) (Q : vec -> vec) (lam : R) (shift : vec) (max_repulsion : option R) (position : vec)
    (trees trees' : list btree) : Prop := {
  ss_position : length position = n;
  ss_trees : Forall2 (moved_tree n lam Q shift) trees trees';
  ss_out : forall t i w, In t trees -> (i < length (bt_comps t))%nat -> branch_walk position i t = Ok w ->
    dot (nth 0 (w_refs w) []) (nth 0 (w_normals w) []) <> 1;
  ss_root : forall t c, In t trees -> get_component (mtree_of t) (bt_root t) = Ok c ->
    dot (c_refdir c position) (c_normal c position) <> 1;
  ss_exact : forall t i w a b k, In t trees -> (i < length (bt_comps t))%nat -> branch_walk position i t = Ok w ->
    In (a, b, k) (branch_steps w) -> exact_pair (direction a) (direction b) /\ exact_pair (direction (Q a)) (direction (Q b));
  ss_center : forall t c, In t trees -> In c (bt_comps t) -> max_repulsion <> None ->
    allclose (place lam Q shift position) (place lam Q shift (c_center (b_comp c))) = allclose position (c_center (b_comp c)) }.

Section Theorems.
Variables (orth0 orth0' : vec -> vec) (pick pick' : vec -> vec) (sort sort' : tree -> list nid).
Variables (power radius : R) (max_repulsion : option R).
Notation avoidance := (evaluate_avoidance orth0 (angle_space pick) (get_projected_tangent pick) sort power radius max_repulsion).
Notation avoidance' := (evaluate_avoidance orth0' (angle_space pick') (get_projected_tangent pick') sort' power radius max_repulsion).
Notation evaluate := (evaluate_sequence orth0 (angle_space pick) (get_projected_tangent pick) sort power radius max_repulsion).
Notation evaluate' := (evaluate_sequence orth0' (angle_space pick') (get_projected_tangent pick') sort' power radius max_repulsion).

(** C167: with the scene given in another frame and another unit of length, the avoidance gives the same
    direction in that frame, the same normals in that frame, and the same weights and records; the arbitrary
    choices of base vectors, of the order inside the levels and of the tangent straight ahead do not matter. *)
Theorem C167_direction : forall n Q lam shift position base trees trees' s s',
  frame_change n Q -> 0 < lam -> length shift = n ->
  scene orth0 (angle_space pick) pick sort power radius max_repulsion n position base trees ->
  scene orth0' (angle_space pick') pick' sort' power radius max_repulsion n (place lam Q shift position) (Q base) trees' ->
  similar_scene n Q lam shift max_repulsion position trees trees' ->
  get_end_vector s = Ok base -> get_end_vector s' = Ok (Q base) ->
  exists final final' normals weights records direction,
    avoidance position s trees = Ok (final, normals, weights, records) /\
    avoidance' (place lam Q shift position) s' trees' = Ok (final', map Q normals, weights, records) /\
    get_end_vector final = Ok direction /\ get_end_vector final' = Ok (Q direction) /\ unitv direction.
Proof.
  intros n Q lam shift position base trees trees' s s' FQ Hl Ls SC SC' [SP ST SO SR SE SX] Eb Eb'.
  destruct (avoidance_moved n Q lam shift FQ (sc_dim _ _ _ _ _ _ _ _ _ _ _ SC) Hl Ls orth0 orth0' pick pick' sort sort' power radius max_repulsion
    position base trees trees' SC SC' SP ST) with (s := s) (s' := s') as (final & final' & normals & cw & records & fv & A & B & C & D & U & _); auto.
  - intros t i w [[a b] k] It Hi Ew I. apply (SE t i w a b k); auto.
  - exists final, final', normals, cw, records, fv. auto.
Qed.

Lemma flat_nil {A B} (g : A -> list B) : forall l x, [] = flat_map g l -> In x l -> g x = [].
Proof.
  induction l as [|y l IH]; intros x E I; [contradiction|]. cbn [flat_map] in E. symmetry in E. apply app_eq_nil in E as [E1 E2].
  destruct I as [<-|I]; auto.
Qed.
Lemma weights_exist n position base trees s final normals cw records :
  scene orth0 (angle_space pick) pick sort power radius max_repulsion n position base trees -> get_end_vector s = Ok base ->
  avoidance position s trees = Ok (final, normals, cw, records) -> cw = [] ->
  forall t ws w, In t trees -> tree_obstacle_weights (angle_space pick) position base power (mtree_of t) = Ok ws -> In w ws -> w <= 0.
Proof.
  intros SC Eb Ea -> t ws w It Ew Iw.
  destruct (evaluate_avoidance_ok _ _ _ _ _ _ _ n position s base trees SC Eb)
    as (tx & data & final' & normals' & cw' & fv & Ed & Ea' & _ & _ & _ & _ & _ & _ & Ec & _).
  rewrite Ea in Ea'. injection Ea' as _ _ <- _.
  assert (M : mapM (tree_data (angle_space pick) power radius max_repulsion position base) trees =
     Ok (map (h (angle_space pick) power radius max_repulsion position base) trees)).
  { apply mapM_h. intros t1 I1. destruct (h_ok _ _ _ _ _ _ _ _ _ _ _ SC t1 I1) as (ws1 & rs1 & rc1 & E1 & _). eauto. }
  rewrite Ed in M. injection M as ->. apply cluster_form in Ec.
  destruct (h_ok _ _ _ _ _ _ _ _ _ _ _ SC t It) as (ws1 & rs1 & rc1 & _ & Eh & Ew1 & _). rewrite Ew in Ew1. injection Ew1 as <-.
  match type of Ec with [] = flat_map ?g ?l => assert (Z : g ws = []) end.
  { assert (I : In ws (map (fun d : btree * list R * list R * (R * R) => snd (fst (fst d))) (map (h (angle_space pick) power radius max_repulsion position base) trees))).
    { rewrite map_map. apply in_map_iff. exists t. rewrite Eh. auto. }
    apply (flat_nil _ _ _ Ec I). }
  assert (Z2 : length (seg (phi (map rsum (map (fun d : btree * list R * list R * (R * R) => snd (fst (fst d))) (map (h (angle_space pick) power radius max_repulsion position base) trees)))) ws) = 0%nat)
    by (rewrite Z; auto).
  rewrite seg_length, weighted_length in Z2. destruct (Rle_dec w 0) as [|P]; auto. exfalso.
  apply length_zero_iff_nil in Z2. assert (I : In w (filter (fun w => Rltb 0 w) ws)) by (apply filter_In; split; auto; apply Rltb_true; lra).
  rewrite Z2 in I. contradiction.
Qed.

(** C167: the velocity of the scene in another frame, with lengths, speeds and the speed limit in the new unit,
    is the velocity of the old scene in the new frame and unit.  When only the frame changes this always
    holds, with the same errors; a change of unit needs a component with an influence. *)
Theorem C167_velocity : forall n Q lam shift sg dim magnitude position base trees trees' env env' s s' conv_of conv_of' conv conv',
  frame_change n Q -> 0 < lam -> length shift = n -> sg * sg = 1 ->
  (n = 2%nat -> forall u, length u = 2%nat -> quarter_turn (Q u) = vscale sg (Q (quarter_turn u))) ->
  conv_of s = Ok conv -> get_end_vector conv = Ok base -> conv_of' s' = Ok conv' -> get_end_vector conv' = Ok (Q base) ->
  scene orth0 (angle_space pick) pick sort power radius max_repulsion n position base trees ->
  scene orth0' (angle_space pick') pick' sort' power radius max_repulsion n (place lam Q shift position) (Q base) trees' ->
  similar_scene n Q lam shift max_repulsion position trees trees' ->
  Forall2 (moved_body n Q lam shift sg) env env' ->
  (lam = 1 \/ exists t ws w, In t trees /\ tree_obstacle_weights (angle_space pick) position base power (mtree_of t) = Ok ws /\ In w ws /\ 0 < w) ->
  evaluate' dim (lam * magnitude) (Some s') conv_of' (place lam Q shift position) env' trees' =
    rmap (fun v => vscale lam (Q v)) (evaluate dim magnitude (Some s) conv_of position env trees).
Proof.
  intros n Q lam shift sg dim magnitude position base trees trees' env env' s s' conv_of conv_of' conv conv' FQ Hl Ls S1 S2 Cv Eb Cv' Eb' SC SC' SS ME HW.
  pose proof SS as [SP ST SO SR SE SX]. pose proof (sc_dim _ _ _ _ _ _ _ _ _ _ _ SC) as Hn.
  destruct (avoidance_moved n Q lam shift FQ Hn Hl Ls orth0 orth0' pick pick' sort sort' power radius max_repulsion
    position base trees trees' SC SC' SP ST) with (s := conv) (s' := conv') as (final & final' & normals & cw & records & fv & A & B & C & D & U & Lf & Ln); auto.
  { intros t i w [[a b] k] It Hi Ew I. apply (SE t i w a b k); auto. }
  destruct (relative_moved n Q lam shift FQ Hn Ls sg (conj S1 S2) position env env' SP ME) as [RM RL].
  unfold evaluate_sequence. pose proof (sc_trees _ _ _ _ _ _ _ _ _ _ _ SC) as N1. pose proof (sc_trees _ _ _ _ _ _ _ _ _ _ _ SC') as N2.
  destruct trees as [|t0 tl0] eqn:Q1; [contradiction|]. rewrite <- Q1 in *. destruct trees' as [|t0' tl0'] eqn:Q2; [contradiction|]. rewrite <- Q2 in *.
  rewrite RM. destruct (compute_multiobstacle_relative_velocity position env) as [rel|]; [|auto]. cbn [rmap bind]. specialize (RL rel eq_refl).
  rewrite Cv, Cv'. cbn [bind]. rewrite A, B. cbn [bind]. rewrite C, D. cbn [bind].
  rewrite (velocity_moved n Q lam shift FQ Hn Ls) by auto. destruct cw as [|w0 ws0] eqn:EC; [|auto].
  destruct HW as [->|(t & ws & w & It & Ew & Iw & Pw)].
  - unfold scaled_velocity, scaled. cbn [rmap]. f_equal. rewrite (fc_add n Q FQ) by auto.
    pose proof (fc_len n Q FQ rel RL). pose proof (fc_len n Q FQ fv Lf). vext. ring.
  - pose proof (weights_exist n position base trees conv final normals [] records SC Eb A eq_refl t ws w It Ew Iw). lra.
Qed.
End Theorems.

(** *** A mirrored scene in another unit and with another origin *)
Definition mirror (v : vec) : vec := [nth 0 v 0; - nth 1 v 0].
Ltac two v := let L := fresh in let x := fresh "x" in let y := fresh "y" in
  destruct v as [|x [|y [|? ?]]]; try discriminate.
Lemma mirror_frame : frame_change 2 mirror.
Proof.
  constructor.
  - auto.
  - intros u v L M. two u. two v. unfold mirror. cbn. f_equal. f_equal. ring.
  - intros c u L. two u. unfold mirror. cbn. f_equal. f_equal. ring.
  - intros u v L M. two u. two v. unfold mirror, dot. cbn. ring.
Qed.
Lemma mirror_turn u : length u = 2%nat -> quarter_turn (mirror u) = vscale (-1) (mirror (quarter_turn u)).
Proof. intros L. two u. unfold quarter_turn, mirror. cbn. f_equal; [ring|]. f_equal. ring. Qed.
(** A component with its surface next to the agent, given by a reference point and a point of its surface. *)
Definition spot_comp (g : R) (r s : vec) : bcomp :=
  mkB (mkComp (fun _ => g) (fun _ => [1; 0]) (fun _ => [-1; 0]) r r (fun _ _ => Some s) false) false.
Definition spot_tree (g : R) (r s : vec) : btree := mkBTree [spot_comp g r s] 0 (fun _ => None).
Lemma spot_walk g r s p : branch_walk p 0 (spot_tree g r s) = Ok (mkWalk [0%nat] [[1; 0]] [[-1; 0]] s).
Proof. unfold branch_walk, branch_walk_upto. simpl. destruct (Rltb 1 g); reflexivity. Qed.
Lemma spot_populate base p g r s ws rs : length base = 2%nat -> unitv base -> 0 <= dot [1; 0] base ->
  forall pt tt0 tt nodes normals, constant base tt0 ->
  populate_all pt tt0 p base 0 [(spot_tree g r s, ws, rs)] = Ok (tt, nodes, normals) -> constant base tt.
Proof.
  intros L U Hb pt tt0 tt nodes normals C0 Ep. cbn [populate_all] in Ep.
  destruct (populate_tree pt tt0 p base (spot_tree g r s) 0 ws rs) as [((t1, k1), n1)|] eqn:E1; [|discriminate]. cbn [bind] in Ep.
  injection Ep as <- _ _. unfold populate_tree in E1.
  destruct (lift (add_node tt0 _ base _ None None)) as [t3|] eqn:A1; [|discriminate].
  pose proof (constant_add base tt0 _ _ t3 L U C0 A1) as C1. cbn [bind] in E1.
  change (seq 0 (length (bt_comps (spot_tree g r s)))) with [0%nat] in E1. cbn [populate_components] in E1.
  destruct (Rle_dec (nth 0 ws 0) 0).
  - injection E1 as <- _ _. auto.
  - unfold branch_update in E1. rewrite spot_walk in E1 by auto.
    cbn [bind branch_steps branch_nodes w_refs w_ids tl combine rev w_normals] in E1.
    change (get_bcomp (spot_tree g r s) 0) with (Ok (spot_comp g r s)) in E1. cbn [bind nth] in E1.
    change (c_tail (b_comp (spot_comp g r s))) with false in E1. rewrite (proj2 (Rltb_false (dot [1; 0] base) 0) Hb) in E1. cbn [orb bind] in E1.
    destruct (lift (add_node t3 _ base _ None None)) as [t4|] eqn:A2; [|discriminate].
    pose proof (constant_add base t3 _ _ t4 L U C1 A2) as C2. cbn [bind] in E1. injection E1 as <- _ _. auto.
Qed.
Lemma spot_scene orth0 angle_of power base p g r s : (forall v, length (orth0 v) = length v) -> 0 <= power ->
  length base = 2%nat -> unitv base -> 0 <= dot [1; 0] base ->
  scene orth0 angle_of left_of sort_by_level power (PI * / 2) None 2 p base [spot_tree g r s].
Proof.
  intros Ho Hp L U Hb. pose proof PI_RGT_0 as HP. constructor; auto.
  - apply sort_by_level_sorted.
  - discriminate.
  - apply picks_2d.
  - intros t [<-|[]]. split; [simpl; lia|]. simpl. intros i Hi Ni. lia.
  - intros i j d Hi Hj _ _. simpl in Hi, Hj. lia.
  - intros t c [<-|[]] [<-|[]]. split; auto. unfold unitv, dot. simpl. ring.
  - intros t c q [<-|[]] [<-|[]]. split; auto. unfold unitv, dot. simpl. ring.
  - intros t i [<-|[]] Hi. simpl in Hi. replace i with 0%nat by lia. eexists. split; [apply spot_walk; auto|].
    simpl. split; auto. split; auto. apply norm_neq_0_dot. unfold dot. simpl. lra.
  - lra.
  - discriminate.
  - intros t c _ _ _ N. contradiction.
  - intros tt0 tt data nodes normals E0 Ed Ep.
    assert (C0 : constant base tt0).
    { destruct (set_root_rooted 2 base_vel_id base tt0 ltac:(lia) L E0) as (W0 & N0 & _). split; auto.
      intros x a N. unfold node in N. rewrite N0 in N. destruct N as [N|[]]. injection N as <- <-.
      simpl. rewrite (proj1 (unit_norm _) U). vext. field. }
    cbn [mapM] in Ed. destruct (tree_data angle_of power (PI * / 2) None p base (spot_tree g r s)) as [d1|] eqn:E1; [|discriminate]. cbn [bind] in Ed. injection Ed as <-.
    unfold tree_data in E1. destruct (convergence_record _ _ _ _ _) as [rec|]; [|discriminate]. cbn [bind] in E1.
    destruct (tree_gamma_and_weights _ _ _ _ _) as [(?, ?)|]; [|discriminate]. cbn [bind] in E1.
    destruct (tree_obstacle_weights _ _ _ _ _) as [ws|]; [|discriminate]. cbn [bind] in E1.
    destruct (tree_radiuses _ _ _ _ _) as [rs|]; [|discriminate]. cbn [bind] in E1. injection E1 as <-.
    destruct (spot_populate base p g r s ws rs L U Hb) with (pt := get_projected_tangent left_of) (tt0 := tt0)
      (tt := tt) (nodes := nodes) (normals := normals) as [W C]; auto.
    split.
    + intros q x a b _ Na Nb. rewrite (C q a Na), (C x b Nb), U. lra.
    + intros q x a b _ Na Nb. left. rewrite (C q a Na), (C x b Nb). auto.
Qed.
Lemma spot_moved lam shift g r s : length shift = 2%nat -> length r = 2%nat -> length s = 2%nat ->
  moved_tree 2 lam mirror shift (spot_tree g r s) (spot_tree g (place lam mirror shift r) (place lam mirror shift s)).
Proof.
  intros L1 L2 L3. split; [|split; auto]. constructor; [|constructor].
  assert (E : mirror [1; 0] = [1; 0] /\ mirror [-1; 0] = [-1; 0]) by (unfold mirror; cbn; rewrite Ropp_0; auto). destruct E as [E1 E2].
  constructor; intros; cbn [spot_comp b_comp c_gamma c_normal c_refdir c_refpoint c_center c_intersect c_tail b_cuboid]; auto.
  split; auto. intros x X. injection X as <-. auto.
Qed.
Lemma spot_similar lam shift g r s p : length shift = 2%nat -> length r = 2%nat -> length s = 2%nat -> length p = 2%nat ->
  similar_scene 2 mirror lam shift None p [spot_tree g r s] [spot_tree g (place lam mirror shift r) (place lam mirror shift s)].
Proof.
  intros L1 L2 L3 L4. assert (D : dot [-1; 0] [1; 0] <> 1) by (unfold dot; simpl; lra). constructor; auto.
  - constructor; [apply spot_moved; auto|constructor].
  - intros t i w [<-|[]] Hi Ew. simpl in Hi. replace i with 0%nat in Ew by lia. rewrite spot_walk in Ew. injection Ew as <-. exact D.
  - intros t c [<-|[]] Ec. injection Ec as <-. exact D.
  - intros t i w a b k [<-|[]] Hi Ew I. simpl in Hi. replace i with 0%nat in Ew by lia. rewrite spot_walk in Ew. injection Ew as <-. contradiction.
  - intros t c _ _ N. contradiction.
Qed.
(** Mirrored, in half the unit of length and with another origin: next to an obstacle, and two moving obstacles. *)
Example C167_case : forall magnitude, exists s s',
  get_end_vector s = Ok [3/5; 4/5] /\ get_end_vector s' = Ok [3/5; - (4/5)] /\
  let evaluate s m := evaluate_sequence (fun v => v) (angle_space left_of) (get_projected_tangent left_of) sort_by_level 1 (PI * / 2) None
    2 m (Some s) (fun s => Ok s) in
  evaluate s' (2 * magnitude) [11; 7] [mkMObs 2 [5; 7] (Some ([0; -2], AngNum (-1))) None; mkMObs 3 [7; 3] None (Some 1)] [spot_tree 1 [5; 7] [11; 7]] =
  rmap (fun v => [2 * nth 0 v 0; - 2 * nth 1 v 0])
    (evaluate s magnitude [3; 0] [mkMObs 2 [0; 0] (Some ([0; 1], AngNum 1)) None; mkMObs 3 [1; 2] None (Some 1)] [spot_tree 1 [0; 0] [3; 0]]).
Proof.
  intros magnitude.
  assert (U : unitv [3/5; 4/5]) by (unfold unitv, dot; simpl; lra).
  assert (U' : unitv [3/5; - (4/5)]) by (unfold unitv, dot; simpl; lra).
  destruct (constant_sequence [3/5; 4/5] eq_refl U) as (s & _ & End).
  destruct (constant_sequence [3/5; - (4/5)] eq_refl U') as (s' & _ & End'). exists s, s'. split; auto. split; auto. intros evaluate. unfold evaluate.
  assert (D : 0 <= dot [1; 0] [3/5; 4/5]) by (unfold dot; simpl; lra).
  assert (D' : 0 <= dot [1; 0] [3/5; - (4/5)]) by (unfold dot; simpl; lra).
  assert (PL : forall x y, place 2 mirror [5; 7] [x; y] = [2 * x + 5; -2 * y + 7]) by (intros; unfold place, mirror, vadd, vscale; simpl; v2).
  assert (P1 : place 2 mirror [5; 7] [3; 0] = [11; 7]) by (rewrite PL; v2).
  assert (P2 : place 2 mirror [5; 7] [0; 0] = [5; 7]) by (rewrite PL; v2).
  assert (P3 : place 2 mirror [5; 7] [1; 2] = [7; 3]) by (rewrite PL; v2).
  pose proof (C167_velocity (fun v => v) (fun v => v) left_of left_of sort_by_level sort_by_level 1 (PI * / 2) None
    2 mirror 2 [5; 7] (-1) 2 magnitude [3; 0] [3/5; 4/5] [spot_tree 1 [0; 0] [3; 0]] [spot_tree 1 [5; 7] [11; 7]]
    [mkMObs 2 [0; 0] (Some ([0; 1], AngNum 1)) None; mkMObs 3 [1; 2] None (Some 1)]
    [mkMObs 2 [5; 7] (Some ([0; -2], AngNum (-1))) None; mkMObs 3 [7; 3] None (Some 1)] s s' (fun s => Ok s) (fun s => Ok s) s s') as K.
  rewrite P1 in K. rewrite K; auto.
  - match goal with |- rmap _ ?x = _ => destruct x as [v|] eqn:EV; [|auto] end. cbn [rmap]. f_equal. unfold mirror, vscale. simpl. v2.
  - apply mirror_frame.
  - lra.
  - lra.
  - intros _. apply mirror_turn.
  - apply spot_scene; auto; lra.
  - apply spot_scene; auto; lra.
  - pose proof (spot_similar 2 [5; 7] 1 [0; 0] [3; 0] [3; 0] eq_refl eq_refl eq_refl eq_refl) as S. rewrite P1, P2 in S. exact S.
  - constructor; [|constructor; [|constructor]].
    + constructor; cbn; auto. split; auto. exists (AngNum (-1)). split; [|f_equal; ring].
      f_equal. f_equal. unfold scaled, mirror, vscale. simpl. v2.
    + constructor; cbn; auto.
  - right. exists (spot_tree 1 [0; 0] [3; 0]), [1], 1. split; [left; auto|]. split; [|split; [left; auto|lra]].
    unfold tree_obstacle_weights, tree_gamma_and_weights. change (tree_gammas [3; 0] (mtree_of (spot_tree 1 [0; 0] [3; 0]))) with [1]. cbv zeta.
    assert (W : compute_weights_from_distances [1] 1 false = Ok [1]).
    { unfold compute_weights_from_distances, count_le. cbn [filter length map]. rewrite (proj2 (Rleb_true 1 1)) by lra. cbn. f_equal. f_equal. field. }
    rewrite W. cbn [bind].
    change (get_component (mtree_of (spot_tree 1 [0; 0] [3; 0])) (m_root (mtree_of (spot_tree 1 [0; 0] [3; 0])))) with (Ok (b_comp (spot_comp 1 [0; 0] [3; 0]))).
    cbn [bind]. change (rmin_list [1]) with 1. unfold get_rotation_weight. destruct (Rle_dec 1 1); [|lra]. cbn [bind].
    unfold compute_gamma_and_weights. rewrite W. cbn [bind]. change (rsum [1]) with (1 + 0).
    rewrite (proj2 (Reqb_false (1 + 0) 0)), (proj2 (Reqb_false 1 0)) by lra. cbn [orb bind].
    unfold compute_parent_occlusion_weight. change (length (m_comps (mtree_of (spot_tree 1 [0; 0] [3; 0])))) with 1%nat. cbn [seq mapM].
    unfold component_occlusion. cbn. f_equal. f_equal. field.
Qed.
(** Going straight away from the only obstacle, no component has an influence, and the commanded speed is one in
    every unit of length, whatever the speed limit. *)
Theorem C167_unit_refuted : exists base s s' trees trees' env env',
  let position := [3; 0] in let shift := [5; 7] in
  get_end_vector s = Ok base /\ get_end_vector s' = Ok (mirror base) /\
  scene (fun v => v) (angle_space left_of) left_of sort_by_level 1 (PI * / 2) None 2 position base trees /\
  scene (fun v => v) (angle_space left_of) left_of sort_by_level 1 (PI * / 2) None 2 (place 2 mirror shift position) (mirror base) trees' /\
  similar_scene 2 mirror 2 shift None position trees trees' /\ Forall2 (moved_body 2 mirror 2 shift (-1)) env env' /\
  let evaluate m s p := evaluate_sequence (fun v => v) (angle_space left_of) (get_projected_tangent left_of) sort_by_level 1 (PI * / 2) None
    2 m (Some s) (fun s => Ok s) p in
  forall magnitude, exists v v', evaluate magnitude s position env trees = Ok v /\
    evaluate (2 * magnitude) s' (place 2 mirror shift position) env' trees' = Ok v' /\ norm v = 1 /\ norm v' = 1.
Proof.
  assert (U : unitv [1; 0]) by (unfold unitv, dot; simpl; ring).
  assert (U' : unitv (mirror [1; 0])) by (unfold unitv, dot, mirror; simpl; ring).
  destruct (constant_sequence [1; 0] eq_refl U) as (s & _ & End).
  destruct (constant_sequence (mirror [1; 0]) eq_refl U') as (s' & _ & End').
  set (tr := spot_tree 2 [0; 0] [1; 0]). set (tr' := spot_tree 2 (place 2 mirror [5; 7] [0; 0]) (place 2 mirror [5; 7] [1; 0])).
  assert (SC : scene (fun v => v) (angle_space left_of) left_of sort_by_level 1 (PI * / 2) None 2 [3; 0] [1; 0] [tr]).
  { apply spot_scene; auto; try lra. unfold dot. simpl. lra. }
  assert (SC' : scene (fun v => v) (angle_space left_of) left_of sort_by_level 1 (PI * / 2) None 2 (place 2 mirror [5; 7] [3; 0]) (mirror [1; 0]) [tr']).
  { apply spot_scene; auto; try lra. unfold dot, mirror. simpl. lra. }
  assert (SS : similar_scene 2 mirror 2 [5; 7] None [3; 0] [tr] [tr']) by (apply spot_similar; auto).
  set (o := mkMObs 1 [0; 0] None None). set (o' := mkMObs 1 (place 2 mirror [5; 7] [0; 0]) None None).
  assert (ME : Forall2 (moved_body 2 mirror 2 [5; 7] (-1)) [o] [o']).
  { constructor; [|constructor]. constructor; cbn; auto. }
  exists [1; 0], s, s', [tr], [tr'], [o], [o']. cbv zeta. do 6 (split; [auto|]). intros magnitude.
  destruct (C167_direction (fun v => v) (fun v => v) left_of left_of sort_by_level sort_by_level 1 (PI * / 2) None 2 mirror 2 [5; 7] [3; 0] [1; 0] [tr] [tr'] s s')
    as (final & final' & normals & cw & records & d & A & B & C & D & Ud); auto; [apply mirror_frame|lra|].
  assert (Z : cw = []).
  { destruct (evaluate_avoidance_ok _ _ _ _ _ _ _ 2 [3; 0] s [1; 0] [tr] SC End)
      as (tx & data & final2 & normals2 & cw2 & fv & Ed & Ea & _ & _ & _ & _ & _ & _ & Ec & _).
    rewrite A in Ea. injection Ea as _ _ <- _.
    destruct (h_ok _ _ _ _ _ _ _ _ _ _ _ SC tr (or_introl eq_refl)) as (ws & rs & rc & Ed1 & _ & Ew & _).
    cbn [mapM] in Ed. rewrite Ed1 in Ed. cbn [bind] in Ed. injection Ed as <-. apply cluster_form in Ec. cbn [map fst snd flat_map] in Ec.
    rewrite seg_zero in Ec; [auto|].
    assert (R : exists c, convergence_record (angle_space left_of) 1 [3; 0] [1; 0] tr = Ok (0, c)).
    { apply (C166_silent_case (angle_space left_of)). unfold angle_space.
      replace (vsub [1; 0] (vscale (dot [1; 0] [1; 0]) [1; 0])) with [0; 0] by (unfold vsub, vadd, vscale, dot; simpl; v2).
      assert (N0 : norm [0; 0] = 0) by (apply norm_eq_0_dot; unfold dot; simpl; ring). rewrite N0. destruct (Req_EM_T 0 0); [|lra].
      rewrite (proj2 (Rltb_false (dot [1; 0] [1; 0]) 0)) by (unfold dot; simpl; lra). exact N0. }
    destruct R as (c & R). apply (record_silent _ _ _ _ _ _ _ R Ew). }
  assert (RV : forall p q, length p = 2%nat -> compute_multiobstacle_relative_velocity p [mkMObs 1 q None None] = Ok (vzero 2)).
  { intros p q L. unfold compute_multiobstacle_relative_velocity. cbn [map mo_gamma].
    assert (W : compute_gamma_weights [1] 1 1 = Ok [1]).
    { unfold compute_gamma_weights, count_le. cbn [filter map length]. rewrite (proj2 (Rleb_true 1 1)) by lra. cbn. auto. }
    rewrite W. cbn [bind combine fold_left relative_step]. rewrite L. destruct (Rle_dec 1 0); [lra|]. cbn. auto. }
  assert (Lf : length d = 2%nat).
  { destruct (evaluate_avoidance_ok _ _ _ _ _ _ _ 2 [3; 0] s [1; 0] [tr] SC End)
      as (tx & data & final2 & normals2 & cw2 & fv & _ & Ea & _ & _ & _ & _ & _ & _ & _ & _ & Ef & _ & Lf & _).
    rewrite A in Ea. injection Ea as <- _ _ _. rewrite C in Ef. injection Ef as <-. auto. }
  assert (Nd : norm d = 1) by (apply unit_norm; auto).
  assert (Nm : norm (mirror d) = 1) by (rewrite (Q_nrm mirror 2 mirror_frame) by auto; auto).
  assert (VZ : forall v, length v = 2%nat -> vadd v (vzero 2) = v) by (intros v L; vext; ring).
  subst cw. exists d, (mirror d). unfold evaluate_sequence. unfold o, o'. rewrite !RV by auto. cbn [bind]. rewrite A, B. cbn [bind]. rewrite C, D. cbn [bind].
  unfold scaled_velocity. rewrite !VZ by auto. auto.
Qed.
Print Assumptions C167_direction.
Print Assumptions C167_velocity.
Print Assumptions C167_unit_refuted.
