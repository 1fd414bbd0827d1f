(** Property C177: in front of balls the avoidance direction is continuous. *)
Require Import Reals List Bool Lra Lia ZArith Classical_Prop.
From Verif Require Import Base Vec Angle Pow RotModel Spec RotProofs SeqProofs TreeModel TreeSpec
  TreeProofs TreeWeights TreeReduce TreeGeom TreeCases TreeIndep PropRotation PropTree WeightModel WeightProofs PropWeights
  AvoidModel PropAvoid ProjModel PropProject TangentProofs PropTangent PropContact ContProofs PropContinuity PropEmbed PropJoint PropOrder PropLimits PropSteady PropFade PropPace PropDying PropMixed PropFlow.
From Verif Require RotAvoidProofs.
Import ListNotations.
Open Scope R_scope.

(** ** Balls *)
(** A ball with center [c] and radius [r]; the reference point is the center.  At the center the normal is an arbitrary fixed
    direction. *)
Definition axis (n : nat) : vec := 1 :: vzero (n - 1).
Definition outward (n : nat) (c p : vec) : vec :=
  if Nat.eqb (length p) n then if Req_EM_T (norm (vsub p c)) 0 then axis n else direction (vsub p c) else axis n.
Definition ball (n : nat) (c : vec) (r : R) : bcomp :=
  mkB (mkComp (fun p => norm (vsub p c) / r) (outward n c) (fun p => vscale (-1) (outward n c p)) c c
              (fun _ d => Some (vadd c (vscale r (direction d)))) false) false.
Definition alone (b : bcomp) : btree := mkBTree [b] 0 (fun _ => None).
Definition ball_tree (n : nat) (b : vec * R) : btree := alone (ball n (fst b) (snd b)).

Lemma axis_facts n : (1 <= n)%nat -> length (axis n) = n /\ unitv (axis n).
Proof.
  intros H. unfold axis, unitv. split; [simpl; rewrite length_vzero; lia|]. simpl. rewrite (proj2 (dot_self_zero_iff (vzero (n - 1)))); [ring|]. rewrite length_vzero. auto.
Qed.
Lemma outward_facts n c p : (1 <= n)%nat -> length c = n -> length (outward n c p) = n /\ unitv (outward n c p).
Proof.
  intros H L. destruct (axis_facts n H) as [A B]. unfold outward. destruct (Nat.eqb_spec (length p) n) as [E|]; auto.
  destruct (Req_EM_T (norm (vsub p c)) 0) as [|Z]; auto. split.
  - unfold direction. autorewrite with vlen. lia.
  - unfold unitv, direction. rewrite dot_vscale_l, dot_vscale_r, <- norm_sq. field. auto.
Qed.
Lemma outward_surface n c p r : (1 <= n)%nat -> length c = n -> 0 < r ->
  outward n c (vadd c (vscale r (direction (vscale (-1) (vscale (-1) (outward n c p)))))) = outward n c p.
Proof.
  intros H L Hr. destruct (outward_facts n c p H L) as [A B]. set (d := outward n c p) in *. clearbody d.
  replace (vscale (-1) (vscale (-1) d)) with d by (vext; ring).
  assert (D : direction d = d) by (unfold direction; rewrite (proj1 (unit_norm _) B); vext; field). rewrite D.
  unfold outward. replace (length (vadd c (vscale r d)) =? n) with true by (symmetry; apply Nat.eqb_eq; autorewrite with vlen; lia).
  replace (vsub (vadd c (vscale r d)) c) with (vscale r d) by (vext; ring).
  assert (N : norm (vscale r d) = r) by (rewrite norm_vscale, (proj1 (unit_norm _) B), Rabs_pos_eq by lra; ring).
  rewrite N. destruct (Req_EM_T r 0); [lra|]. unfold direction. rewrite N. vext. field. lra.
Qed.
Lemma ball_walk n c r p : (1 <= n)%nat -> length c = n -> 0 < r ->
  exists s, branch_walk p 0 (alone (ball n c r)) = Ok (mkWalk [0%nat] [outward n c p] [vscale (-1) (outward n c p)] s).
Proof.
  intros H L Hr. pose proof (outward_surface n c p r H L Hr) as S0. eexists. unfold branch_walk, branch_walk_upto.
  change (get_bcomp (alone (ball n c r)) 0) with (Ok (ball n c r)). cbn [bind b_comp ball c_refdir c_gamma c_intersect c_refpoint].
  destruct (Rltb 1 (norm (vsub p c) / r)); cbn [bind]; unfold get_normal_at_distance; cbn [b_cuboid ball b_comp c_normal bind]; rewrite S0; reflexivity.
Qed.
Lemma outward_cv n c p_ p : (1 <= n)%nat -> length c = n -> (forall j, length (p_ j) = n) -> length p = n -> p <> c -> cvv p_ p ->
  cvv (fun j => outward n c (p_ j)) (outward n c p).
Proof.
  intros H L L_ Lp NE C. assert (Z : norm (vsub p c) <> 0) by (rewrite RotAvoidProofs.norm_vsub_0 by lia; auto).
  assert (Cs : cvv (fun j => vsub (p_ j) c) (vsub p c)) by (apply cvv_sub; auto; apply cvv_const).
  assert (Cn : Un_cv (fun j => norm (vsub (p_ j) c)) (norm (vsub p c))).
  { apply (cv_norm n); auto; intros; autorewrite with vlen; rewrite ?L_; lia. }
  destruct (cv_nonzero _ _ Cn Z) as (N & HN).
  apply cvv_eventually with (f := fun j => direction (vsub (p_ j) c)) (N := N).
  - intros j Hj. unfold outward. rewrite L_, Nat.eqb_refl. destruct (Req_EM_T (norm (vsub (p_ j) c)) 0) as [Q|]; auto. destruct (HN j Hj Q).
  - unfold outward. rewrite Lp, Nat.eqb_refl. destruct (Req_EM_T (norm (vsub p c)) 0); [contradiction|]. unfold direction. apply cvv_scale; auto. apply cv_inv; auto.
Qed.

(** ** The tree of directions *)
(** Whatever weights the obstacles have, the tree of directions around them has no opposite neighbours and none closer than the
    tolerance of [np.allclose]. *)
Definition tame (pick : vec -> vec) (radius : R) (position base : vec) (trees : list btree) : Prop :=
  forall data tt0 u keys ns,
    Forall2 (fun t d => exists ws rs, length ws = length (bt_comps t) /\ (forall i, (i < length (bt_comps t))%nat -> nth i rs 0 = radius) /\ d = (t, ws, rs)) trees data ->
    set_root empty_tree base_vel_id base = Ok tt0 -> populate_all (get_projected_tangent pick) tt0 position base 0 data = Ok (u, keys, ns) ->
    no_opposite u /\ distinguishable u.

(** What is asked of balls, position and velocity. *)
Record in_front (n : nat) (balls : list (vec * R)) (position base : vec) : Prop := {
  if_balls : balls <> [] /\ forall c r, In (c, r) balls -> length c = n /\ 0 < r;
  if_position : length position = n;
  if_base : length base = n /\ unitv base;
  if_contact : forall i j d, (i < length balls)%nat -> (j < length balls)%nat ->
    norm (vsub position (fst (nth i balls d))) <= snd (nth i balls d) -> norm (vsub position (fst (nth j balls d))) <= snd (nth j balls d) -> i = j }.

Lemma balls_data angle_of power radius n position base : 0 <= power -> forall ts data,
  (forall t, In t ts -> exists c r, length c = n /\ 0 < r /\ t = alone (ball n c r)) -> mapM (tree_data angle_of power radius None position base) ts = Ok data ->
  Forall2 (fun t d => exists ws rs, length ws = length (bt_comps t) /\ (forall i, (i < length (bt_comps t))%nat -> nth i rs 0 = radius) /\ d = (t, ws, rs)) ts (map fst data).
Proof.
  intros Hp. induction ts as [|t ts IH]; intros data IN Ed; cbn [mapM] in Ed.
    + injection Ed as <-. constructor.
    + destruct (tree_data angle_of power radius None position base t) as [d|] eqn:D; [|discriminate]. cbn [bind] in Ed.
      destruct (mapM (tree_data angle_of power radius None position base) ts) as [ds|] eqn:Ds; [|discriminate]. cbn [bind] in Ed. injection Ed as <-. cbn [map]. constructor; [|apply IH; auto; intros x Ix; apply IN; right; auto].
      destruct (IN t (or_introl eq_refl)) as (c & r & L & P & ->). unfold tree_data in D.
      destruct (convergence_record _ _ _ _ _) as [rec|]; [|discriminate]. cbn [bind] in D.
      destruct (tree_gamma_and_weights _ _ _ _ _) as [(gs, wg)|] eqn:EG; [|discriminate]. cbn [bind] in D.
      destruct (tree_obstacle_weights _ _ _ _ _) as [ws|] eqn:EW; [|discriminate]. cbn [bind] in D.
      destruct (tree_radiuses _ _ _ _ _) as [rs|] eqn:ER; [|discriminate]. cbn [bind] in D. injection D as <-. exists ws, rs.
      destruct (tree_obstacle_weights_spec angle_of position base power (mtree_of (alone (ball n c r))) Hp) as (ws' & EW' & LW & _); [split; [simpl; lia|simpl; intros i Hi Ni; lia]|].
      rewrite EW in EW'. injection EW' as <-. split; [exact LW|]. split; [|auto].
      assert (NG : gs <> []).
      { intros ->. unfold tree_obstacle_weights in EW. rewrite EG in EW. cbn [bind] in EW.
        assert (wg = []) as ->.
        { unfold tree_gamma_and_weights in EG. destruct (compute_weights_from_distances _ _ _) as [?|]; [|discriminate]. cbn [bind] in EG.
          destruct (get_component _ _) as [root|]; [|discriminate]. cbn [bind] in EG. change (tree_gammas position (mtree_of (alone (ball n c r)))) with [norm (vsub position c) / r] in EG. cbv iota in EG.
          destruct (get_rotation_weight _ _ _ _ _ _ _ _) as [rw|]; [|discriminate]. cbn [bind] in EG. unfold compute_gamma_and_weights in EG.
          destruct (compute_weights_from_distances _ _ _) as [gw|]; [|discriminate]. cbn [bind] in EG.
          destruct (_ || _); [|discriminate]. injection EG as X <-. apply map_eq_nil in X as ->. reflexivity. }
        destruct (compute_parent_occlusion_weight _ _) as [occ|]; [|discriminate]. cbn [bind combine map] in EW. injection EW as <-. simpl in LW. lia. }
      destruct gs as [|g gs]; [contradiction|]. unfold tree_radiuses in ER. cbn [bt_comps alone combine] in ER.
      destruct gs as [|g' gs]; cbn [combine mapM bind] in ER; rewrite C27_repulsion_disabled in ER; injection ER as <-; intros [|i] Hi; simpl in *; auto; lia.
Qed.
Lemma balls_scene orth0 angle_of pick sort power radius n position base balls : (2 <= n)%nat -> (forall v, length (orth0 v) = length v) ->
  (forall t r, rooted_tree n t r -> level_sorted t (sort t)) -> 0 <= power -> picks n pick -> PI / 2 <= radius <= PI ->
  in_front n balls position base -> tame pick radius position base (map (ball_tree n) balls) ->
  scene orth0 angle_of pick sort power radius None n position base (map (ball_tree n) balls).
Proof.
  intros Hn Ho Hs Hp Hk Hr F T. destruct (if_balls _ _ _ _ F) as [NE B].
  assert (IN : forall t, In t (map (ball_tree n) balls) -> exists c r, length c = n /\ 0 < r /\ t = alone (ball n c r)).
  { intros t I. apply in_map_iff in I as ((c, r) & <- & I). destruct (B c r I). exists c, r. auto. }
  assert (W : forall t, In t (map (ball_tree n) balls) -> exists c r, length c = n /\ 0 < r /\ t = alone (ball n c r)) by exact IN.
  constructor; auto; try discriminate.
  - intros E. apply map_eq_nil in E. auto.
  - apply (if_base _ _ _ _ F).
  - intros t I. destruct (IN t I) as (c & r & _ & _ & ->). split; [simpl; lia|]. simpl. intros i Hi Ni. lia.
  - intros i j d Hi Hj Ci Cj. rewrite map_length in Hi, Hj.
    assert (CO : forall i, (i < length balls)%nat -> in_contact position (mtree_of (nth i (map (ball_tree n) balls) d)) ->
      norm (vsub position (fst (nth i balls ([], 0)))) <= snd (nth i balls ([], 0))).
    { intros k Hk' (c & I & G). rewrite (nth_indep _ d (ball_tree n ([], 0))) in I by (rewrite map_length; auto). rewrite map_nth in I.
      destruct (nth k balls ([], 0)) as (ck, rk) eqn:E. pose proof (nth_In balls ([], 0) Hk') as J. rewrite E in J. destruct (B ck rk J) as [_ P].
      destruct I as [<-|[]]. simpl in G |- *. apply Rmult_le_reg_r with (/ rk); [apply Rinv_0_lt_compat; auto|]. replace (rk * / rk) with 1 by (field; lra). exact G. }
    apply (if_contact _ _ _ _ F i j ([], 0) Hi Hj); auto.
  - intros t c I J. destruct (IN t I) as (cc & r & L & _ & ->). destruct J as [<-|[]]. destruct (outward_facts n cc position ltac:(lia) L) as [X Y]. cbn [c_refdir b_comp ball].
    split; [rewrite length_vscale; auto|]. unfold unitv. rewrite dot_vscale_l, dot_vscale_r, Y. ring.
  - intros t c p I J. destruct (IN t I) as (cc & r & L & _ & ->). destruct J as [<-|[]]. apply (outward_facts n cc p ltac:(lia) L).
  - intros t i I Hi. destruct (IN t I) as (c & r & L & P & ->). simpl in Hi. replace i with 0%nat by lia.
    destruct (ball_walk n c r position ltac:(lia) L P) as (s & E). exists (mkWalk [0%nat] [outward n c position] [vscale (-1) (outward n c position)] s). split; [exact E|].
    destruct (outward_facts n c position ltac:(lia) L) as [X Y]. cbn [w_refs linkable]. split; [rewrite length_vscale; auto|]. split; [|auto].
    change (norm (vscale (-1) (outward n c position)) <> 0). rewrite norm_vscale, (proj1 (unit_norm _) Y), Rabs_left by lra. lra.
  - intros t c I J G Q. contradiction.
  - intros tt0 tt data nodes normals E0 Ed Ep. refine (T (map fst data) tt0 tt nodes normals _ E0 Ep). apply (balls_data angle_of power radius n position base Hp _ data IN Ed).
Qed.

Lemma balls_gentle n position_ base_ position base radius c r : (2 <= n)%nat -> length c = n -> 0 < r ->
  (forall j, length (position_ j) = n) -> length position = n -> position <> c -> cvv position_ position ->
  base <> outward n c position -> base <> vscale (-1) (outward n c position) -> dot (vsub position c) base <> 0 -> -1 <= cos radius ->
  gentle position_ base_ position base radius (alone (ball n c r)).
Proof.
  intros Hn L Hr L_ Lp NC C N1 N2 N3 Hc. destruct (outward_facts n c position ltac:(lia) L) as [X Y].
  pose proof (outward_cv n c position_ position ltac:(lia) L L_ Lp NC C) as CO.
  assert (CR : cvv (fun j => vscale (-1) (outward n c (position_ j))) (vscale (-1) (outward n c position))) by (apply cvv_scale; auto; apply cv_const).
  assert (DN : dot (vscale (-1) (outward n c position)) (outward n c position) = -1) by (rewrite dot_vscale_l, Y; ring).
  constructor.
  - intros b [<-|[]]. simpl. apply cv_div; [|apply cv_const|lra]. apply (cv_norm n).
    + intros j. autorewrite with vlen. rewrite L_. lia.
    + autorewrite with vlen. lia.
    + apply cvv_sub; auto. apply cvv_const.
  - intros root E. injection E as <-. cbn [c_normal c_refdir b_comp ball]. split; [exact CO|]. split; [exact CR|]. rewrite DN. split; [lra|]. split; [exact N2|].
    intros [_ Q]. apply N1. rewrite Q. vext. ring.
  - intros occ_ occ H_ H. injection H as <-. apply cvv_ext with (fun _ => [1]); [|apply cvv_const]. intros j. specialize (H_ j). injection H_ as <-. auto.
  - exists 0%nat. split; [simpl; lia|]. intros [|[|i]] b E N; try discriminate. contradiction.
  - intros i w_ w b H_ H E. assert (i = 0%nat) by (destruct i as [|[|i]]; [auto|discriminate|discriminate]). subst i. injection E as <-.
    destruct (ball_walk n c r position ltac:(lia) L Hr) as (s & Ew). rewrite Ew in H. injection H as <-.
    assert (Ew_ : forall j, exists s, w_ j = mkWalk [0%nat] [outward n c (position_ j)] [vscale (-1) (outward n c (position_ j))] s).
    { intros j. destruct (ball_walk n c r (position_ j) ltac:(lia) L Hr) as (sj & Ej). specialize (H_ j). rewrite Ej in H_. injection H_ as <-. eauto. }
    cbn [w_refs w_normals].
    split; [intros k; apply cvv_ext with (fun j => nth k [vscale (-1) (outward n c (position_ j))] []); [intros j; destruct (Ew_ j) as (sj & ->); auto|destruct k as [|[|k]]; [exact CR|apply cvv_const|apply cvv_const]]|].
    split; [apply cvv_ext with (fun j => outward n c (position_ j)); [intros j; destruct (Ew_ j) as (sj & ->); auto|exact CO]|].
    split; [intros j; destruct (Ew_ j) as (sj & ->); intros k Hk; simpl in Hk; lia|]. split; [intros k Hk; simpl in Hk; lia|].
    unfold brought, branch_steps. cbn [w_refs tl w_ids combine rev fold_left nth].
    split.
    + right. unfold outward. rewrite Lp, Nat.eqb_refl. assert (Z : norm (vsub position c) <> 0) by (rewrite RotAvoidProofs.norm_vsub_0 by lia; auto).
      destruct (Req_EM_T (norm (vsub position c)) 0); [contradiction|]. unfold direction. rewrite dot_vscale_l. intros Q. apply Rmult_integral in Q as [Q|Q]; auto. revert Q. apply Rinv_neq_0_compat. auto.
    + intros _ r0 Hr0. unfold smooth_at. rewrite DN. split; [lra|]. split; [intros _; exact N2|]. split; [intros _ Q; apply N1; rewrite Q; vext; ring|].
      intros _. destruct Hr0 as [-> | ->]; [lra|rewrite cos_PI2; lra].
Qed.


Lemma balls_free n balls position_ base_ position base radius c r : (2 <= n)%nat ->
  (forall j, in_front n balls (position_ j) (base_ j)) -> in_front n balls position base -> cvv position_ position ->
  (forall c r, In (c, r) balls -> 0 < Rabs (dot (vsub position c) base) < norm (vsub position c)) -> In (c, r) balls ->
  gentle position_ base_ position base radius (alone (ball n c r)).
Proof.
  intros Hn F_ F CP GP I. destruct (proj2 (if_balls _ _ _ _ F) c r I) as [L P]. destruct (if_base _ _ _ _ F) as [Lb Ub].
  destruct (GP c r I) as [G1 G2]. pose proof (norm_nonneg (vsub position c)) as G0. assert (Z : norm (vsub position c) <> 0) by lra.
  assert (OD : dot (vsub position c) (outward n c position) = norm (vsub position c)).
  { unfold outward. rewrite (if_position _ _ _ _ F), Nat.eqb_refl. destruct (Req_EM_T (norm (vsub position c)) 0); [contradiction|]. unfold direction. rewrite dot_vscale_r, <- norm_sq. field. auto. }
  apply balls_gentle; auto.
  - intros j. apply (if_position _ _ _ _ (F_ j)).
  - apply (if_position _ _ _ _ F).
  - intros Q. apply Z. rewrite Q. apply RotAvoidProofs.norm_vsub_0; auto.
  - intros Q. rewrite Q, OD, Rabs_pos_eq in G2 by lra. lra.
  - intros Q. rewrite Q, dot_vscale_r, OD, Rabs_mult, (Rabs_left (-1)), Rabs_pos_eq in G2 by lra. lra.
  - intros Q. rewrite Q, Rabs_R0 in G1. lra.
  - destruct (COS_bound radius). lra.
Qed.
Theorem C177_direction_partial : forall orth0 pick sort power radius n position_ base_ position base balls s_ s,
  let angle_of := angle_space pick in
  let trees := map (ball_tree n) balls in
  let evaluate := evaluate_avoidance orth0 angle_of (get_projected_tangent pick) sort power radius None in
  (2 <= n)%nat -> (forall v, length (orth0 v) = length v) -> (forall t r, rooted_tree n t r -> level_sorted t (sort t)) -> 0 <= power -> picks n pick -> PI / 2 <= radius <= PI ->
  (forall j, in_front n balls (position_ j) (base_ j)) -> in_front n balls position base -> cvv position_ position -> cvv base_ base ->
  (* neither straight towards or away from a center nor tangent to a sphere around it *)
  (forall c r, In (c, r) balls -> 0 < Rabs (dot (vsub position c) base) < norm (vsub position c)) ->
  (forall j, tame pick radius (position_ j) (base_ j) trees) -> tame pick radius position base trees ->
  (forall wss, Forall2 (fun t ws => tree_obstacle_weights angle_of position base power (mtree_of t) = Ok ws) trees wss ->
     (forall k, nth k (map rsum wss) 0 < 1) -> rsum (map rsum wss) <> 1) ->
  (forall j, get_end_vector (s_ j) = Ok (base_ j)) -> get_end_vector s = Ok base ->
  exists final_ normals_ cw_ records_ fv_ final normals cw records fv,
    (forall j, evaluate (position_ j) (s_ j) trees = Ok (final_ j, normals_ j, cw_ j, records_ j) /\ get_end_vector (final_ j) = Ok (fv_ j)) /\
    evaluate position s trees = Ok (final, normals, cw, records) /\ get_end_vector final = Ok fv /\
    cvv fv_ fv /\ cvv (fun j => averaged_normal n (normals_ j) (cw_ j)) (averaged_normal n normals cw) /\
    Un_cv (fun j => rsum (cw_ j)) (rsum cw).
Proof.
  cbv zeta. intros orth0 pick sort power radius n position_ base_ position base balls s_ s Hn Ho Hs Hp Hk Hr F_ F CP CB GP T_ T SUM E_ E.
  apply (C176_direction_partial orth0 pick sort power radius n position_ base_ position base (map (ball_tree n) balls) s_ s); auto.
  - intros j. apply balls_scene; auto.
  - apply balls_scene; auto.
  - intros t I. apply in_map_iff in I as ((c, r) & <- & I). apply (balls_free n balls position_ base_ position base radius c r); auto.
Qed.
Theorem C177_velocity_partial : forall orth0 pick sort power radius n position_ base_ position base balls s_ s conv_of conv_ conv
    magnitude_ magnitude env_ env relative_ relative,
  let angle_of := angle_space pick in
  let trees := map (ball_tree n) balls in
  let evaluate := evaluate_avoidance orth0 angle_of (get_projected_tangent pick) sort power radius None in
  let command := evaluate_sequence orth0 angle_of (get_projected_tangent pick) sort power radius None n in
  (2 <= n)%nat -> (forall v, length (orth0 v) = length v) -> (forall t r, rooted_tree n t r -> level_sorted t (sort t)) -> 0 <= power -> picks n pick -> PI / 2 <= radius <= PI ->
  (forall j, in_front n balls (position_ j) (base_ j)) -> in_front n balls position base -> cvv position_ position -> cvv base_ base ->
  (forall c r, In (c, r) balls -> 0 < Rabs (dot (vsub position c) base) < norm (vsub position c)) ->
  (forall j, tame pick radius (position_ j) (base_ j) trees) -> tame pick radius position base trees ->
  (forall wss, Forall2 (fun t ws => tree_obstacle_weights angle_of position base power (mtree_of t) = Ok ws) trees wss ->
     (forall k, nth k (map rsum wss) 0 < 1) -> rsum (map rsum wss) <> 1) ->
  (forall j, conv_of (s_ j) = Ok (conv_ j) /\ get_end_vector (conv_ j) = Ok (base_ j)) -> conv_of s = Ok conv -> get_end_vector conv = Ok base ->
  Un_cv magnitude_ magnitude -> cvv relative_ relative ->
  (forall j, compute_multiobstacle_relative_velocity (position_ j) (env_ j) = Ok (relative_ j)) -> compute_multiobstacle_relative_velocity position env = Ok relative ->
  (forall cw_ final normals cw records fv, (forall j, exists f ns rs, evaluate (position_ j) (conv_ j) trees = Ok (f, ns, cw_ j, rs)) ->
     evaluate position conv trees = Ok (final, normals, cw, records) -> get_end_vector final = Ok fv ->
     cw <> [] /\ steady_pace fv (averaged_normal n normals cw) (fun j => 1 / rmax_list (cw_ j)) (1 / rmax_list cw)) ->
  exists out_ out,
    (forall j, command (magnitude_ j) (Some (s_ j)) conv_of (position_ j) (env_ j) trees = Ok (out_ j)) /\
    command magnitude (Some s) conv_of position env trees = Ok out /\ cvv out_ out.
Proof.
  cbv zeta. intros orth0 pick sort power radius n position_ base_ position base balls s_ s conv_of conv_ conv magnitude_ magnitude env_ env relative_ relative
    Hn Ho Hs Hp Hk Hr F_ F CP CB GP T_ T SUM EC_ EC EB CM CR ER_ ER PACE.
  apply (C176_velocity_partial orth0 pick sort power radius n position_ base_ position base (map (ball_tree n) balls) s_ s conv_of conv_ conv magnitude_ magnitude env_ env relative_ relative); auto.
  - intros j. apply balls_scene; auto.
  - apply balls_scene; auto.
  - intros t I. apply in_map_iff in I as ((c, r) & <- & I). apply (balls_free n balls position_ base_ position base radius c r); auto.
Qed.

(** ** The tree of directions for the radius of a right angle *)
(** The part of a velocity along the surface. *)
Definition sliding (o v : vec) : vec := direction (vsub v (vscale (dot o v) o)).
Lemma ball_tangent n pick v o : picks n pick -> length v = n -> length o = n -> unitv v -> unitv o -> dot o v < 0 -> v <> vscale (-1) o ->
  get_projected_tangent pick v o (vscale (-1) o) (PI / 2) = Ok (sliding o v) /\ length (sliding o v) = n /\ unitv (sliding o v) /\ 0 < dot v (sliding o v).
Proof.
  intros P Lv Lo Uv Uo D N. pose proof PI_RGT_0 as HP.
  assert (Ur : unitv (vscale (-1) o)) by (unfold unitv; rewrite dot_vscale_l, dot_vscale_r, Uo; ring).
  destruct (C60_projected_tangent n pick v o (vscale (-1) o) (PI / 2) P Lv Lo) as (t & s & a & E & L & Ut & A & Hs & [(_ & Et & Na & Ea)|(Q & _)]); auto.
  - rewrite length_vscale. auto.
  - lra.
  - rewrite dot_vscale_l, Uo. lra.
  - intros Q. rewrite cos_PI2, dot_comm in Q. lra.
  - change (opp o) with (vscale (-1) o) in *.
    assert (LR : log_map (vscale (-1) o) (vscale (-1) o) = vzero n).
    { unfold log_map. rewrite Ur. replace (vsub (vscale (-1) o) (vscale 1 (vscale (-1) o))) with (vzero n) by (vext; ring).
      destruct (Req_EM_T (norm (vzero n)) 0) as [|B]; [rewrite length_vscale, Lo; auto|]. destruct B. apply norm_vzero. }
    set (q := vsub v (vscale (dot o v) o)). assert (Lq : length q = n) by (unfold q; autorewrite with vlen; lia).
    assert (LV : log_map (vscale (-1) o) v = if Req_EM_T (norm q) 0 then vzero n else vscale (acos (dot (vscale (-1) o) v) / norm q) q).
    { unfold log_map. replace (vsub v (vscale (dot (vscale (-1) o) v) (vscale (-1) o))) with q by (unfold q; rewrite dot_vscale_l; vext; ring). rewrite length_vscale, Lo. auto. }
    rewrite LR, LV in Ea. clear LR LV. destruct (Req_EM_T (norm q) 0) as [Z|Z].
    { replace a with (vzero n) in Na by (rewrite Ea; vext; ring). rewrite norm_vzero in Na. lra. }
    set (k := (1 + s) * (acos (dot (vscale (-1) o) v) / norm q)).
    assert (Ek : a = vscale k q) by (rewrite Ea; unfold k; vext; ring).
    pose proof (norm_pos q Z) as Pq. assert (Pk : 0 <= k).
    { unfold k. apply Rmult_le_pos; [lra|]. apply Rmult_le_pos; [apply acos_bound|left; apply Rinv_0_lt_compat; auto]. }
    assert (Nk : k * norm q = PI / 2) by (rewrite Ek, norm_vscale, Rabs_pos_eq in Na by auto; exact Na).
    assert (T : t = sliding o v).
    { rewrite Et. unfold exp_map. rewrite Na. destruct (Req_EM_T (PI / 2) 0); [lra|]. rewrite cos_PI2, sin_PI2, Ek. unfold sliding. fold q. unfold direction.
      vext. rewrite <- Nk. field. split; auto. intros K. rewrite K in Nk. lra. }
    rewrite T in *. split; [exact E|]. split; [exact L|]. split; [exact Ut|].
    unfold sliding. fold q. unfold direction. rewrite dot_vscale_r. apply Rmult_lt_0_compat; [apply Rinv_0_lt_compat; auto|].
    replace (dot v q) with (dot q q); [rewrite <- norm_sq; nra|]. unfold q. unfold unitv in *. rewrite dot_vsub_l, !dot_vsub_r, !dot_vscale_l, !dot_vscale_r, Uo, Uv, (dot_comm v o). ring.
  - rewrite cos_PI2, dot_comm in Q. lra.
Qed.

Definition fine_dir (base d : vec) : Prop := 0 < dot base d /\ (base = d \/ allclose base d = false).
Definition shallow (n : nat) (base : vec) (t : tree) : Prop :=
  rooted_tree n t base_vel_id /\ (forall p x, edge t p x -> exists a, node t p a /\ a_dir a = base) /\ (forall x a, node t x a -> fine_dir base (a_dir a)).
Lemma shallow_add n base t x p d t' : length d = n -> unitv d -> fine_dir base d -> shallow n base t -> (exists a, node t p a /\ a_dir a = base) ->
  lift (add_node t x d (Some p) None None) = Ok t' -> shallow n base t' /\ (forall y a, node t y a -> node t' y a) /\ exists a, node t' x a /\ a_dir a = d.
Proof.
  intros L U Fd (W & EP & FI) PA E. unfold lift in E. destruct (add_node t x d (Some p) None None) as (t1, [u|]) eqn:Ea; [|discriminate].
  injection E as <-. destruct u. pose proof (add_node_rooted n t base_vel_id x d p None None t1 W L Ea) as W1.
  destruct (add_node_success n t base_vel_id x d p None None t1 W Ea) as (a & _ & _ & _ & _ & ->).
  assert (D : vdiv d (norm d) = d) by (rewrite (proj1 (unit_norm _) U); vext; field).
  assert (K : forall y b, node t y b -> node (mkTree (t_nodes t ++ [(x, Some (mkAttrs (S (a_level a)) (vdiv d (norm d))))]) (t_edges t ++ [(p, x)]) (t_root t)) y b)
    by (intros y b N; unfold node; simpl; apply in_app_iff; auto).
  split; [split; [exact W1|split]|split; [exact K|]].
  - intros q y I. unfold edge in I. simpl in I. apply in_app_iff in I as [I|[I|[]]].
    + destruct (EP q y I) as (b & Nb & Db). exists b. auto.
    + injection I as <- <-. destruct PA as (b & Nb & Db). exists b. auto.
  - intros y b N. unfold node in N. simpl in N. apply in_app_iff in N as [N|[N|[]]]; [eapply FI; eauto|]. injection N as <- <-. simpl. rewrite D. auto.
  - eexists. split; [unfold node; simpl; apply in_app_iff; right; left; reflexivity|]. exact D.
Qed.
(** Velocities towards a ball are told apart from the directions along its surface. *)
Definition apart (n : nat) (balls : list (vec * R)) (position base : vec) : Prop :=
  forall c r, In (c, r) balls -> dot (outward n c position) base < 0 ->
    base <> vscale (-1) (outward n c position) /\ allclose base (sliding (outward n c position) base) = false.
Lemma balls_populate n pick position base : (2 <= n)%nat -> picks n pick -> length base = n -> unitv base ->
  forall balls data obs tt0 tt keys ns, (forall c r, In (c, r) balls -> length c = n /\ 0 < r) -> apart n balls position base ->
  Forall2 (fun t d => exists ws rs, length ws = length (bt_comps t) /\ (forall i, (i < length (bt_comps t))%nat -> nth i rs 0 = PI * / 2) /\ d = (t, ws, rs)) (map (ball_tree n) balls) data ->
  shallow n base tt0 -> (exists a, node tt0 base_vel_id a /\ a_dir a = base) -> populate_all (get_projected_tangent pick) tt0 position base obs data = Ok (tt, keys, ns) -> shallow n base tt /\ (exists a, node tt base_vel_id a /\ a_dir a = base).
Proof.
  intros Hn Hp Lb Ub. assert (FB : fine_dir base base) by (split; [rewrite Ub; lra|auto]).
  induction balls as [|(c, r) balls IH]; intros data obs tt0 tt keys ns HB AP F S0 R0 EP.
  - assert (data = []) as -> by (inversion F; auto). cbn [populate_all] in EP. injection EP as <- _ _. auto.
  - assert (FF : exists ws rs ds, data = (ball_tree n (c, r), ws, rs) :: ds /\ (forall i, (i < 1)%nat -> nth i rs 0 = PI * / 2) /\
      Forall2 (fun t d => exists ws rs, length ws = length (bt_comps t) /\ (forall i, (i < length (bt_comps t))%nat -> nth i rs 0 = PI * / 2) /\ d = (t, ws, rs)) (map (ball_tree n) balls) ds).
    { cbn [map] in F. inversion F as [|t d ts ds (ws & rs & _ & Hr & Ed) F' X1 X2]. exists ws, rs, ds. rewrite Ed. auto. }
    destruct FF as (ws & rs & ds & -> & Hr & F'). cbn [populate_all] in EP.
    destruct (populate_tree _ _ _ _ _ _ _ _) as [((t1, k1), n1)|] eqn:E1; [|discriminate]. cbn [bind] in EP.
    destruct (populate_all _ _ _ _ _ _) as [((t2, k2), n2)|] eqn:E2; [|discriminate]. cbn [bind] in EP. injection EP as <- _ _.
    assert (Q : shallow n base t1 /\ (exists a, node t1 base_vel_id a /\ a_dir a = base)).
    2:{ destruct Q as [Q1 Q2]. eapply IH; [| |exact F'|exact Q1|exact Q2|exact E2]; [intros; apply HB; right; auto|intros c' r' I; apply (AP c' r'); right; auto]. }
    clear E2 IH F' F. destruct (HB c r (or_introl eq_refl)) as [Lc Pr]. specialize (AP c r (or_introl eq_refl)). specialize (Hr 0%nat ltac:(simpl; lia)).
    unfold populate_tree in E1. destruct (lift (add_node tt0 _ base _ None None)) as [t3|] eqn:A1; [|discriminate].
    destruct (shallow_add n base tt0 _ _ base t3 Lb Ub FB S0 R0 A1) as (S3 & K3 & N3). cbn [bind] in E1.
    assert (R3 : exists a, node t3 base_vel_id a /\ a_dir a = base) by (destruct R0 as (a & X & Y); exists a; auto).
    change (seq 0 (length (bt_comps (ball_tree n (c, r))))) with [0%nat] in E1. cbn [populate_components] in E1.
    destruct (Rle_dec (nth 0 ws 0) 0); [injection E1 as <- _ _; auto|].
    unfold branch_update in E1. destruct (ball_walk n c r position ltac:(lia) Lc Pr) as (s & W). change (alone (ball n c r)) with (ball_tree n (c, r)) in W. rewrite W in E1.
    cbn [bind branch_steps branch_nodes w_refs w_ids tl combine rev w_normals] in E1.
    change (get_bcomp (ball_tree n (c, r)) 0) with (Ok (ball n c r)) in E1. rewrite Hr in E1. cbn [bind nth] in E1.
    change (c_tail (b_comp (ball n c r))) with false in E1. cbn [orb] in E1. rewrite (proj2 (Rltb_false (PI * / 2) (PI * / 2))) in E1 by lra. cbn [bind] in E1.
    destruct (outward_facts n c position ltac:(lia) Lc) as [Lo Uo].
    destruct (Rltb (dot (outward n c position) base) 0) eqn:D.
    + apply Rltb_true in D. destruct (AP D) as [ND AC]. destruct (ball_tangent n pick base (outward n c position) Hp Lb Lo Ub Uo D ND) as (T & Lt & Ut & Pt).
      change (PI * / 2) with (PI / 2) in E1. rewrite T in E1. cbn [bind] in E1.
      destruct (lift (add_node t3 _ _ _ None None)) as [t4|] eqn:A2; [|discriminate]. cbn [bind] in E1. injection E1 as <- _ _.
      assert (FT : fine_dir base (sliding (outward n c position) base)) by (split; [lra|auto]).
      destruct (shallow_add n base t3 _ _ _ t4 Lt Ut FT S3 N3 A2) as (S4 & K4 & _). split; [exact S4|]. destruct R3 as (a & X & Y). exists a. auto.
    + cbn [bind] in E1. destruct (lift (add_node t3 _ _ _ None None)) as [t4|] eqn:A2; [|discriminate]. cbn [bind] in E1. injection E1 as <- _ _.
      destruct (shallow_add n base t3 _ _ _ t4 Lb Ub FB S3 N3 A2) as (S4 & K4 & _). split; [exact S4|]. destruct R3 as (a & X & Y). exists a. auto.
Qed.
Theorem C177_tame : forall n pick position base balls, (2 <= n)%nat -> picks n pick -> in_front n balls position base -> apart n balls position base ->
  tame pick (PI * / 2) position base (map (ball_tree n) balls).
Proof.
  intros n pick position base balls Hn Hp F AP data tt0 u keys ns FD E0 EP. destruct (if_base _ _ _ _ F) as [Lb Ub].
  assert (FB : fine_dir base base) by (split; [rewrite Ub; lra|auto]).
  destruct (set_root_rooted n base_vel_id base tt0 Hn Lb E0) as (W0 & N0 & ED).
  assert (D : vdiv base (norm base) = base) by (rewrite (proj1 (unit_norm _) Ub); vext; field).
  assert (S0 : shallow n base tt0).
  { split; [exact W0|]. split; [intros p x I; unfold edge in I; rewrite ED in I; destruct I|]. intros x a N. unfold node in N. rewrite N0 in N. destruct N as [N|[]]. injection N as <- <-. simpl. rewrite D. auto. }
  assert (R0 : exists a, node tt0 base_vel_id a /\ a_dir a = base) by (eexists; split; [unfold node; rewrite N0; left; reflexivity|exact D]).
  destruct (balls_populate n pick position base Hn Hp Lb Ub balls data 0%Z tt0 u keys ns (proj2 (if_balls _ _ _ _ F)) AP FD S0 R0 EP) as ((W & EP' & FI) & _).
  split; intros p x a b I Na Nb; destruct (EP' p x I) as (a' & Na' & Da); rewrite (node_unique n u base_vel_id W p a a' Na Na'), Da; pose proof (FI x b Nb) as [FP FA]; [lra|exact FA].
Qed.
Theorem C177_right_angle_partial : forall orth0 pick sort power n position_ base_ position base balls s_ s,
  let angle_of := angle_space pick in
  let trees := map (ball_tree n) balls in
  let evaluate := evaluate_avoidance orth0 angle_of (get_projected_tangent pick) sort power (PI * / 2) None in
  (2 <= n)%nat -> (forall v, length (orth0 v) = length v) -> (forall t r, rooted_tree n t r -> level_sorted t (sort t)) -> 0 <= power -> picks n pick ->
  (forall j, in_front n balls (position_ j) (base_ j)) -> in_front n balls position base -> cvv position_ position -> cvv base_ base ->
  (forall c r, In (c, r) balls -> 0 < Rabs (dot (vsub position c) base) < norm (vsub position c)) ->
  (forall j, apart n balls (position_ j) (base_ j)) -> apart n balls position base ->
  (forall wss, Forall2 (fun t ws => tree_obstacle_weights angle_of position base power (mtree_of t) = Ok ws) trees wss ->
     (forall k, nth k (map rsum wss) 0 < 1) -> rsum (map rsum wss) <> 1) ->
  (forall j, get_end_vector (s_ j) = Ok (base_ j)) -> get_end_vector s = Ok base ->
  exists final_ normals_ cw_ records_ fv_ final normals cw records fv,
    (forall j, evaluate (position_ j) (s_ j) trees = Ok (final_ j, normals_ j, cw_ j, records_ j) /\ get_end_vector (final_ j) = Ok (fv_ j)) /\
    evaluate position s trees = Ok (final, normals, cw, records) /\ get_end_vector final = Ok fv /\
    cvv fv_ fv /\ cvv (fun j => averaged_normal n (normals_ j) (cw_ j)) (averaged_normal n normals cw) /\
    Un_cv (fun j => rsum (cw_ j)) (rsum cw).
Proof.
  cbv zeta. intros orth0 pick sort power n position_ base_ position base balls s_ s Hn Ho Hs Hp Hk F_ F CP CB GP A_ A SUM E_ E. pose proof PI_RGT_0 as HP.
  apply (C177_direction_partial orth0 pick sort power (PI * / 2) n position_ base_ position base balls s_ s); auto; try lra.
  - intros j. apply C177_tame; auto.
  - apply C177_tame; auto.
Qed.

(** ** A disc in the plane *)
Definition disc_tree : btree := ball_tree 2 ([0; 0], 1).
Lemma disc_outward x : 0 < x -> outward 2 [0; 0] [x; 0] = [1; 0].
Proof.
  intros Hx. unfold outward. cbn [length Nat.eqb]. assert (V : vsub [x; 0] [0; 0] = [x; 0]) by (unfold vsub, vscale; simpl; f_equal; [ring|f_equal; ring]). rewrite V.
  assert (N : norm [x; 0] = x) by (unfold norm, dot; replace (x * x + (0 * 0 + 0)) with (x * x) by ring; apply sqrt_square; lra).
  rewrite N. destruct (Req_EM_T x 0); [lra|]. unfold direction. rewrite N. unfold vscale. simpl. f_equal; [field; lra|f_equal; ring].
Qed.
Lemma disc_gamma x : 0 < x -> c_gamma (b_comp (ball 2 [0; 0] 1)) [x; 0] = x.
Proof.
  intros Hx. simpl. replace (vsub [x; 0] [0; 0]) with [x; 0] by (unfold vsub, vscale; simpl; f_equal; [ring|f_equal; ring]).
  unfold norm, dot. replace (x * x + (0 * 0 + 0)) with (x * x) by ring. rewrite sqrt_square by lra. field.
Qed.
Lemma disc_walk x : 0 < x -> exists s, branch_walk [x; 0] 0 disc_tree = Ok (mkWalk [0%nat] [[1; 0]] [[-1; 0]] s).
Proof.
  intros Hx. destruct (ball_walk 2 [0; 0] 1 [x; 0] ltac:(lia) eq_refl ltac:(lra)) as (s & E). exists s. unfold disc_tree, ball_tree. cbn [fst snd].
  rewrite E, disc_outward by auto. repeat f_equal; try ring. replace (vscale (-1) [1; 0]) with [-1; 0] by (unfold vscale; simpl; f_equal; [ring|f_equal; ring]). reflexivity.
Qed.
Lemma disc_full x y b ws rs tt0 tt keys ns : unitv [x; b] -> x <= - (1 / 4) -> b <> 0 -> 0 < y -> nth 0 rs 0 = PI * / 2 ->
  set_root empty_tree base_vel_id [x; b] = Ok tt0 ->
  populate_all (get_projected_tangent left_of) tt0 [y; 0] [x; b] 0 [(disc_tree, ws, rs)] = Ok (tt, keys, ns) -> no_opposite tt /\ distinguishable tt.
Proof.
    intros U Hx Hb Hy Hr E0 Ep. pose proof PI_RGT_0 as HP. destruct rs as [|r rs]; [simpl in Hr; lra|]. simpl in Hr. subst r. destruct (wall_tangent x b U ltac:(lra) Hb) as (t & Et & Vt).
    set (P := fun d : vec => d = [x; b] \/ d = t).
    assert (Ut : unitv t) by (destruct Vt as [-> | ->]; unfold unitv, dot; simpl; ring).
    assert (Lt : length t = 2%nat) by (destruct Vt as [-> | ->]; auto).
    assert (C0 : within P tt0).
    { destruct (set_root_rooted 2 base_vel_id [x; b] tt0 ltac:(lia) eq_refl E0) as (W0 & N0 & _). split; auto.
      intros z a N. unfold node in N. rewrite N0 in N. destruct N as [N|[]]. injection N as <- <-.
      simpl. rewrite (proj1 (unit_norm _) U). left. unfold vdiv, vscale. simpl. f_equal; [field|f_equal; field]. }
    assert (C : within P tt).
    { cbn [populate_all] in Ep. unfold populate_tree in Ep.
      destruct (lift (add_node tt0 (node_key 0 (-1) (-1)) [x; b] (Some base_vel_id) None None)) as [t1|] eqn:E1; [|discriminate].
      pose proof (within_add P tt0 _ _ [x; b] t1 eq_refl U (or_introl eq_refl) C0 E1) as C1. cbn [bind] in Ep.
      simpl length in Ep. cbn [seq populate_components] in Ep.
      destruct (Rle_dec (nth 0 ws 0) 0); [injection Ep as <- _ _; auto|].
      unfold branch_update in Ep. destruct (disc_walk y Hy) as (sf & Wk). rewrite Wk in Ep. cbn [bind branch_steps branch_nodes w_refs w_ids tl combine rev w_normals] in Ep.
      change (get_bcomp disc_tree 0) with (Ok (ball 2 [0; 0] 1)) in Ep. cbn [bind nth] in Ep.
      assert (Q : c_tail (b_comp (ball 2 [0; 0] 1)) || Rltb (dot [1; 0] [x; b]) 0 = true) by (apply Rltb_true; unfold dot; simpl; lra).
      rewrite Q in Ep. rewrite (proj2 (Rltb_false (PI * / 2) (PI * / 2))) in Ep by lra.
      change (PI * / 2) with (PI / 2) in Ep. cbn [bind] in Ep. rewrite Et in Ep. cbn [bind] in Ep.
      destruct (lift (add_node t1 _ t _ None None)) as [t3|] eqn:E3; [|discriminate].
      pose proof (within_add P t1 _ _ t t3 Lt Ut (or_intror eq_refl) C1 E3) as C3.
      cbn [bind] in Ep. injection Ep as <- _ _. auto. }
    destruct C as [W C]. unfold unitv, dot in U. simpl in U.
    assert (N1 : isclose x 0 = false) by (unfold isclose; apply Rleb_false; rewrite Rabs_R0, Rabs_left by lra; lra).
    assert (N2 : isclose 0 x = false) by (unfold isclose; apply Rleb_false; rewrite (Rabs_left x), (Rabs_pos_eq (0 - x)) by lra; assert (x >= -1) by nra; lra).
    split.
    + intros p z a b' _ Na Nb. destruct (C p a Na) as [-> | ->], (C z b' Nb) as [-> | ->]; destruct Vt as [-> | ->];
        unfold dot; simpl; intros Q; nra.
    + intros p z a b' _ Na Nb. destruct (C p a Na) as [-> | ->], (C z b' Nb) as [-> | ->]; auto; right;
        destruct Vt as [-> | ->]; unfold allclose; simpl; rewrite ?N1, ?N2; auto.
Qed.
Lemma disc_front y base : length base = 2%nat -> unitv base -> in_front 2 [([0; 0], 1)] [y; 0] base.
Proof.
  intros L U. constructor; auto.
  - split; [discriminate|]. intros c r [E|[]]. injection E as <- <-. split; [auto|lra].
  - intros i j d Hi Hj _ _. simpl in *. lia.
Qed.
Lemma disc_tame y x b : unitv [x; b] -> x <= - (1 / 4) -> b <> 0 -> 0 < y -> tame left_of (PI * / 2) [y; 0] [x; b] [disc_tree].
Proof.
  intros U Hx Hb Hy data tt0 u keys ns F E0 EP. inversion F as [|t d ts ds (ws & rs & _ & Hr & ->) F']; subst. inversion F'; subst.
  apply (disc_full x y b ws rs tt0 u keys ns U Hx Hb Hy); auto; try (apply Hr; simpl; lia).
Qed.
Lemma disc_free : forall c r, In (c, r) [([0; 0], 1)] -> 0 < Rabs (dot (vsub [2; 0] c) (turning (1 / 2))) < norm (vsub [2; 0] c).
Proof.
  intros c r [E|[]]. injection E as <- <-. replace (vsub [2; 0] [0; 0]) with [2; 0] by (unfold vsub, vscale; simpl; f_equal; [ring|f_equal; ring]).
  assert (N : norm [2; 0] = 2) by (unfold norm, dot; replace (2 * 2 + (0 * 0 + 0)) with (2 * 2) by ring; apply sqrt_square; lra). rewrite N.
  replace (dot [2; 0] (turning (1 / 2))) with (- (6 / 5)) by (unfold turning, dot; simpl; lra). rewrite Rabs_left by lra. lra.
Qed.
Example C177_direction_case : forall orth0 s_ s, (forall v, length (orth0 v) = length v) ->
  (forall j, get_end_vector (s_ j) = Ok (turning (1 / 2 + dying j / 4))) -> get_end_vector s = Ok [-3 / 5; 4 / 5] ->
  let evaluate := evaluate_avoidance orth0 (angle_space left_of) (get_projected_tangent left_of) sort_by_level 1 (PI * / 2) None in
  exists final_ normals_ cw_ records_ fv_ final normals cw records fv,
    (forall j, evaluate [2 + dying j; 0] (s_ j) [disc_tree] = Ok (final_ j, normals_ j, cw_ j, records_ j) /\ get_end_vector (final_ j) = Ok (fv_ j)) /\
    evaluate [2; 0] s [disc_tree] = Ok (final, normals, cw, records) /\ get_end_vector final = Ok fv /\
    cvv fv_ fv /\ cvv (fun j => averaged_normal 2 (normals_ j) (cw_ j)) (averaged_normal 2 normals cw) /\
    Un_cv (fun j => rsum (cw_ j)) (rsum cw).
Proof.
  intros orth0 s_ s Ho Es_ Es. cbv zeta. pose proof PI_RGT_0 as HP.
  assert (Rg : forall j, 1 / 2 <= 1 / 2 + dying j / 4 <= 3 / 4) by (intros j; pose proof (dying_range j); lra).
  assert (E0 : turning (1 / 2) = [-3 / 5; 4 / 5]) by (unfold turning; f_equal; [lra|f_equal; lra]). rewrite <- E0 in Es.
  destruct (turning_facts (1 / 2) ltac:(lra)) as (A & B & C).
  apply (C177_direction_partial orth0 left_of sort_by_level 1 (PI * / 2) 2 (fun j => [2 + dying j; 0]) (fun j => turning (1 / 2 + dying j / 4)) [2; 0] (turning (1 / 2)) [([0; 0], 1)] s_ s); auto; try lra.
  - intros t r W. eapply sort_by_level_sorted; eauto.
  - apply picks_2d.
  - intros j. destruct (turning_facts _ (Rg j)) as (A' & _). apply disc_front; auto.
  - apply disc_front; auto.
  - intros [|[|i]]; cbn [nth]; [|apply cv_const|destruct i; apply cv_const].
    pose proof (cv_add _ _ _ _ (cv_const 2) dying_cv) as Q. replace (2 + 0) with 2 in Q by ring. exact Q.
  - apply turning_cv.
  - apply disc_free.
  - intros j. destruct (turning_facts _ (Rg j)) as (A' & B' & C'). apply disc_tame; auto. pose proof (dying_range j). lra.
  - apply disc_tame; auto. lra.
  - intros wss F Hk. inversion F as [|t ws ts wss' _ F' ]; subst. inversion F'; subst. specialize (Hk 0%nat). simpl in *. lra.
Qed.
Lemma disc_data angle_of power x b d : 0 <= power -> tree_data angle_of power (PI * / 2) None [1; 0] [x; b] disc_tree = Ok d ->
  exists rec, d = (disc_tree, [1], [PI * / 2], rec).
Proof.
  intros Hp E. unfold tree_data in E. destruct (convergence_record _ _ _ _ _) as [rec|]; [|discriminate]. cbn [bind] in E.
  assert (G : tree_gamma_and_weights angle_of [1; 0] [x; b] power (mtree_of disc_tree) = Ok ([1], [1])).
  { unfold tree_gamma_and_weights. change (tree_gammas [1; 0] (mtree_of disc_tree)) with [c_gamma (b_comp (ball 2 [0; 0] 1)) [1; 0]]. rewrite (disc_gamma 1) by lra.
    assert (D : compute_weights_from_distances [1] 1 false = Ok [1]).
    { unfold compute_weights_from_distances, count_le. cbn [filter length map]. rewrite (proj2 (Rleb_true 1 1)) by lra. cbn [length Nat.ltb Nat.leb map]. simpl. repeat f_equal. field. }
    rewrite D. cbn [bind]. change (get_component (mtree_of disc_tree) (m_root (mtree_of disc_tree))) with (Ok (b_comp (ball 2 [0; 0] 1))). cbn [bind].
    change (rmin_list [1]) with 1. unfold get_rotation_weight. destruct (Rle_dec 1 1); [|lra]. cbn [bind].
    unfold compute_gamma_and_weights. rewrite D. cbn [bind]. replace (rsum [1]) with 1 by (simpl; ring).
    rewrite (proj2 (Reqb_false 1 0)) by lra. cbn [orb map]. repeat f_equal. field. }
  rewrite G in E. cbn [bind] in E. unfold tree_obstacle_weights in E. rewrite G in E. cbn [bind] in E.
  assert (O : compute_parent_occlusion_weight [1; 0] (mtree_of disc_tree) = Ok [1]) by reflexivity.
  rewrite O in E. cbn [bind combine map fst snd] in E. unfold tree_radiuses in E. cbn [combine mapM bind bt_comps disc_tree ball_tree alone] in E.
  rewrite C27_repulsion_disabled in E. cbn [bind map] in E. injection E as <-. exists rec. do 3 f_equal. f_equal. ring.
Qed.
Lemma disc_outcome orth0 x b c : (forall v, length (orth0 v) = length v) -> unitv [x; b] -> x <= - (1 / 4) -> b <> 0 -> get_end_vector c = Ok [x; b] ->
  forall f ns w rs v, evaluate_avoidance orth0 (angle_space left_of) (get_projected_tangent left_of) sort_by_level 1 (PI * / 2) None [1; 0] c [disc_tree] = Ok (f, ns, w, rs) -> get_end_vector f = Ok v ->
  w = [1] /\ ns = [[1; 0]] /\ (0 <= dot v [1; 0] \/ v = [-1; 0]).
Proof.
  intros Ho U Hx Hb Ec f ns w rs v Ev Ef. pose proof PI_RGT_0 as HP. pose proof (balls_scene orth0 (angle_space left_of) left_of sort_by_level 1 (PI * / 2) 2 [1; 0] [x; b] [([0; 0], 1)] ltac:(lia) Ho (fun t r => sort_by_level_sorted 2 t r) ltac:(lra) picks_2d ltac:(lra)
    (disc_front 1 [x; b] eq_refl U) (disc_tame 1 x b U Hx Hb ltac:(lra))) as S. change (map (ball_tree 2) [([0; 0], 1)]) with [disc_tree] in S.
  destruct (evaluate_avoidance_ok _ _ _ _ _ _ _ _ _ _ _ _ S Ec) as (tt & data & f' & ns' & w' & v' & Ed & Ev' & W & NO & DI & Fi & ND & IN & Ecl & Em & Ef' & Uv & Lv & Nw & Sw & Pw & Ln & Un & Nd & Rr).
  rewrite Ev' in Ev. injection Ev as <- <- <- _. rewrite Ef' in Ef. injection Ef as <-.
  cbn [mapM] in Ed. destruct (tree_data _ _ _ _ _ _ _) as [d|] eqn:Q; [|discriminate]. apply disc_data in Q as (rec & ->); [|lra]. cbn [bind] in Ed. injection Ed as <-.
  cbn [map fst snd] in *.
  assert (O : one_at 0 [1]) by (split; [simpl; lia|split; [reflexivity|intros [|[|j]] H; simpl; auto; lia]]).
  assert (Eit : end_items 0 [(disc_tree, [1], [PI * / 2])] = [(0%Z, disc_tree, 0%nat)]).
  { cbn [end_items]. change (length (bt_comps disc_tree)) with (length [1]). rewrite (one_at_weighted [1] 0 O). reflexivity. }
  rewrite Eit in Fi. inversion Fi as [|x0 nn l0 ns0 Hitem F0]; subst. inversion F0; subst.
  destruct (saturated_cluster [] [1] [] 0 w' O) as (A & B & Ecw & LA & FA & FB); auto; [intros z []|].
  assert (A = []) by (destruct A; [auto|discriminate]). subst A. cbn [app] in Ecw. subst w'. assert (B = []) by (destruct B; [auto|discriminate]). subst B. clear LA FA FB.
  unfold item_dir in Hitem. destruct Hitem as (a & d & Na & Da & wk & Ewalk & Enn & Nd0 & Uda & Haway).
  destruct (disc_walk 1 ltac:(lra)) as (sf & Wk). rewrite Wk in Ewalk. injection Ewalk as <-. cbn [w_normals w_refs nth] in *. subst nn.
  assert (Dd : a_dir a = d) by (rewrite Da, (proj1 (unit_norm _) Uda); vext; field).
  split; auto. split; auto.
  unfold end_keys in Em, ND, IN. rewrite Eit in Em, ND, IN. cbn [map app] in Em, ND, IN.
  assert (FZ : Forall (fun w => w = 0) [1 - rsum [1]]) by (constructor; [simpl; ring|constructor]).
  pose proof (mean_on_one 2 tt (sort_by_level tt) orth0 (fun _ => mkSlot 0 None None None) [] _ [base_vel_id] [] [1 - rsum [1]] a W (sc_dim _ _ _ _ _ _ _ _ _ _ _ S) NO DI
    (sc_sort _ _ _ _ _ _ _ _ _ _ _ S tt base_vel_id W) (sc_orth _ _ _ _ _ _ _ _ _ _ _ S) ND IN Na eq_refl eq_refl (Forall_nil _) FZ) as M.
  cbn [app] in M. rewrite M in Em. injection Em as <-. rewrite Dd. exact Haway.
Qed.
Example C177_velocity_case : forall orth0 s_ s, (forall v, length (orth0 v) = length v) ->
  (forall j, get_end_vector (s_ j) = Ok (turning (1 / 2 + dying j / 4))) -> get_end_vector s = Ok [-3 / 5; 4 / 5] ->
  let command := evaluate_sequence orth0 (angle_space left_of) (get_projected_tangent left_of) sort_by_level 1 (PI * / 2) None 2 in
  exists out_ out, (forall j, command (2 + dying j) (Some (s_ j)) (fun s => Ok s) [1; 0] [] [disc_tree] = Ok (out_ j)) /\
    command 2 (Some s) (fun s => Ok s) [1; 0] [] [disc_tree] = Ok out /\ cvv out_ out.
Proof.
  intros orth0 s_ s Ho Es_ Es. cbv zeta. pose proof PI_RGT_0 as HP.
  assert (Rg : forall j, 1 / 2 <= 1 / 2 + dying j / 4 <= 3 / 4) by (intros j; pose proof (dying_range j); lra).
  assert (E0 : turning (1 / 2) = [-3 / 5; 4 / 5]) by (unfold turning; f_equal; [lra|f_equal; lra]). rewrite <- E0 in Es.
  destruct (turning_facts (1 / 2) ltac:(lra)) as (A & B & C).
  assert (Rel : compute_multiobstacle_relative_velocity [1; 0] [] = Ok (vzero 2)).
  { unfold compute_multiobstacle_relative_velocity, compute_gamma_weights. simpl. destruct (Rle_dec 0 1); reflexivity. }
  apply (C177_velocity_partial orth0 left_of sort_by_level 1 (PI * / 2) 2 (fun _ => [1; 0]) (fun j => turning (1 / 2 + dying j / 4)) [1; 0] (turning (1 / 2)) [([0; 0], 1)] s_ s
    (fun s => Ok s) s_ s (fun j => 2 + dying j) 2 (fun _ => []) [] (fun _ => vzero 2) (vzero 2)); auto; try lra.
  - intros t r W. eapply sort_by_level_sorted; eauto.
  - apply picks_2d.
  - intros j. destruct (turning_facts _ (Rg j)) as (A' & _). apply disc_front; auto.
  - apply disc_front; auto.
  - apply cvv_const.
  - apply turning_cv.
  - intros c r [E|[]]. injection E as <- <-. replace (vsub [1; 0] [0; 0]) with [1; 0] by (unfold vsub, vscale; simpl; f_equal; [ring|f_equal; ring]).
    assert (N : norm [1; 0] = 1) by (unfold norm, dot; replace (1 * 1 + (0 * 0 + 0)) with (1 * 1) by ring; apply sqrt_square; lra). rewrite N.
    replace (dot [1; 0] (turning (1 / 2))) with (- (3 / 5)) by (unfold turning, dot; simpl; lra). rewrite Rabs_left by lra. lra.
  - intros j. destruct (turning_facts _ (Rg j)) as (A' & B' & C'). apply disc_tame; auto. lra.
  - apply disc_tame; auto. lra.
  - intros wss F Hk. inversion F as [|t ws ts wss' _ F' ]; subst. inversion F'; subst. specialize (Hk 0%nat). simpl in *. lra.
  - pose proof (cv_add _ _ _ _ (cv_const 2) dying_cv) as Q. replace (2 + 0) with 2 in Q by ring. exact Q.
  - apply cvv_const.
  - intros cw_ final normals cw records fv E_ E EF. change (map (ball_tree 2) [([0; 0], 1)]) with [disc_tree] in E, E_.
    destruct (disc_outcome orth0 _ _ s Ho A B C Es _ _ _ _ _ E EF) as (-> & -> & V).
    assert (G : forall j, cw_ j = [1]).
    { intros j. destruct (E_ j) as (f & ns & rs & Ej). destruct (turning_facts _ (Rg j)) as (A' & B' & C').
      pose proof (balls_scene orth0 (angle_space left_of) left_of sort_by_level 1 (PI * / 2) 2 [1; 0] _ [([0; 0], 1)] ltac:(lia) Ho (fun t r => sort_by_level_sorted 2 t r) ltac:(lra) picks_2d ltac:(lra)
        (disc_front 1 (turning (1 / 2 + dying j / 4)) eq_refl A') (disc_tame 1 _ _ A' B' C' ltac:(lra))) as Sj. change (map (ball_tree 2) [([0; 0], 1)]) with [disc_tree] in Sj.
      destruct (evaluate_avoidance_ok _ _ _ _ _ _ _ _ _ _ _ _ Sj (Es_ j)) as (tt & data & f' & ns' & w' & v' & _ & Ev' & _ & _ & _ & _ & _ & _ & _ & _ & Ef' & _).
      rewrite Ev' in Ej. injection Ej as <- <- <- <-. apply (disc_outcome orth0 _ _ (s_ j) Ho A' B' C' (Es_ j) _ _ _ _ _ Ev' Ef'). }
    replace (averaged_normal 2 [[1; 0]] [1]) with [1; 0] by (unfold averaged_normal, vscale, vadd, vzero; simpl; f_equal; [ring|f_equal; ring]).
    split; [discriminate|]. right. right. assert (Ua : unitv [1; 0]) by (unfold unitv, dot; simpl; ring). rewrite (proj1 (unit_norm _) Ua). split.
    { rewrite <- Rinv_1. apply Rinv_lt_contravar; [rewrite Rmult_1_l; apply pow_lt; lra|apply Rlt_pow_R1; [lra|lia]]. }
    right. right. split.
    + exists 0%nat. intros j _. rewrite G. change (rmax_list [1]) with 1. lra.
    + destruct V as [V| ->]; [lra|unfold dot; simpl; lra].
Qed.
Lemma apart_2 x b y c r : unitv [x; b] -> x <= - (1 / 4) -> 1 / 4 <= b -> 0 < y -> In (c, r) [([0; 0], 1); ([y; 5], 2)] -> dot (outward 2 c [y; 0]) [x; b] < 0 ->
  [x; b] <> vscale (-1) (outward 2 c [y; 0]) /\ allclose [x; b] (sliding (outward 2 c [y; 0]) [x; b]) = false.
Proof.
  intros U Hx Hb Hy I _. unfold unitv, dot in U. simpl in U.
  assert (N1 : isclose x 0 = false) by (unfold isclose; apply Rleb_false; rewrite Rabs_R0, Rabs_left by lra; lra).
  assert (N2 : isclose b 0 = false) by (unfold isclose; apply Rleb_false; rewrite Rabs_R0, Rabs_pos_eq by lra; lra).
  destruct I as [E|[E|[]]]; injection E as <- <-.
  - rewrite disc_outward by auto. split; [unfold vscale; simpl; intros Q; injection Q as _ Q; lra|].
    unfold sliding. replace (vsub [x; b] (vscale (dot [1; 0] [x; b]) [1; 0])) with [0; b] by (unfold vsub, vscale, dot; simpl; f_equal; [ring|f_equal; ring]).
    unfold direction, vscale. cbn [map]. rewrite Rmult_0_r. unfold allclose. simpl. rewrite N1. auto.
  - assert (O : outward 2 [y; 5] [y; 0] = [0; -1]).
    { unfold outward. cbn [length Nat.eqb]. replace (vsub [y; 0] [y; 5]) with [0; -5] by (unfold vsub, vscale; simpl; f_equal; [ring|f_equal; ring]).
      assert (N : norm [0; -5] = 5) by (unfold norm, dot; replace (0 * 0 + (-5 * -5 + 0)) with (5 * 5) by ring; apply sqrt_square; lra).
      rewrite N. destruct (Req_EM_T 5 0); [lra|]. unfold direction. rewrite N. unfold vscale. simpl. f_equal; [ring|f_equal; field]. }
    rewrite O. split; [unfold vscale; simpl; intros Q; injection Q as Q _; lra|].
    unfold sliding. replace (vsub [x; b] (vscale (dot [0; -1] [x; b]) [0; -1])) with [x; 0] by (unfold vsub, vscale, dot; simpl; f_equal; [ring|f_equal; ring]).
    unfold direction, vscale. cbn [map]. rewrite Rmult_0_r. unfold allclose. simpl. rewrite N2. apply andb_false_iff. auto.
Qed.
(** Two discs ahead. *)
Example C177_tame_case : tame left_of (PI * / 2) [2; 0] [-3 / 5; 4 / 5] (map (ball_tree 2) [([0; 0], 1); ([2; 5], 2)]).
Proof.
  assert (U : unitv [-3 / 5; 4 / 5]) by (unfold unitv, dot; simpl; lra). apply C177_tame; auto; [apply picks_2d| |].
  - constructor; auto.
    + split; [discriminate|]. intros c r [E|[E|[]]]; injection E as <- <-; split; auto; lra.
    + intros i j d Hi Hj. simpl in Hi, Hj.
      assert (G1 : ~ norm (vsub [2; 0] [0; 0]) <= 1).
      { replace (vsub [2; 0] [0; 0]) with [2; 0] by (unfold vsub, vscale; simpl; f_equal; [ring|f_equal; ring]).
        unfold norm, dot. replace (2 * 2 + (0 * 0 + 0)) with (2 * 2) by ring. rewrite sqrt_square by lra. lra. }
      destruct i as [|[|i]], j as [|[|j]]; try lia; cbn [nth fst snd]; intros; try contradiction; auto.
  - intros c r I D. apply (apart_2 _ _ 2 c r); auto; lra.
Qed.
Example C177_right_angle_case : forall orth0 s_ s, (forall v, length (orth0 v) = length v) ->
  (forall j, get_end_vector (s_ j) = Ok (turning (1 / 2 + dying j / 4))) -> get_end_vector s = Ok [-3 / 5; 4 / 5] ->
  let evaluate := evaluate_avoidance orth0 (angle_space left_of) (get_projected_tangent left_of) sort_by_level 1 (PI * / 2) None in
  exists final_ normals_ cw_ records_ fv_ final normals cw records fv,
    (forall j, evaluate [2 + dying j; 0] (s_ j) [disc_tree] = Ok (final_ j, normals_ j, cw_ j, records_ j) /\ get_end_vector (final_ j) = Ok (fv_ j)) /\
    evaluate [2; 0] s [disc_tree] = Ok (final, normals, cw, records) /\ get_end_vector final = Ok fv /\
    cvv fv_ fv /\ cvv (fun j => averaged_normal 2 (normals_ j) (cw_ j)) (averaged_normal 2 normals cw) /\
    Un_cv (fun j => rsum (cw_ j)) (rsum cw).
Proof.
  intros orth0 s_ s Ho Es_ Es. cbv zeta. pose proof PI_RGT_0 as HP.
  assert (Rg : forall j, 1 / 2 <= 1 / 2 + dying j / 4 <= 3 / 4) by (intros j; pose proof (dying_range j); lra).
  assert (E0 : turning (1 / 2) = [-3 / 5; 4 / 5]) by (unfold turning; f_equal; [lra|f_equal; lra]). rewrite <- E0 in Es.
  destruct (turning_facts (1 / 2) ltac:(lra)) as (A & B & C).
  assert (Hi : forall a, 1 / 2 <= a <= 3 / 4 -> 1 / 4 <= 2 * a / (1 + a * a)).
  { intros a Ha. apply Rmult_le_reg_r with (1 + a * a); [nra|]. replace (2 * a / (1 + a * a) * (1 + a * a)) with (2 * a) by (field; nra). nra. }
  assert (AP : forall a y, 1 / 2 <= a <= 3 / 4 -> 0 < y -> apart 2 [([0; 0], 1)] [y; 0] (turning a)).
  { intros a y Ha Hy c r [I|[]] D. destruct (turning_facts a Ha) as (A' & B' & C'). apply (apart_2 _ _ y c r); auto. left. auto. }
  apply (C177_right_angle_partial orth0 left_of sort_by_level 1 2 (fun j => [2 + dying j; 0]) (fun j => turning (1 / 2 + dying j / 4)) [2; 0] (turning (1 / 2)) [([0; 0], 1)] s_ s); auto; try lra.
  - intros t r W. eapply sort_by_level_sorted; eauto.
  - apply picks_2d.
  - intros j. destruct (turning_facts _ (Rg j)) as (A' & _). apply disc_front; auto.
  - apply disc_front; auto.
  - intros [|[|i]]; cbn [nth]; [|apply cv_const|destruct i; apply cv_const].
    pose proof (cv_add _ _ _ _ (cv_const 2) dying_cv) as Q. replace (2 + 0) with 2 in Q by ring. exact Q.
  - apply turning_cv.
  - apply disc_free.
  - intros j. apply AP; auto. pose proof (dying_range j). lra.
  - apply AP; lra.
  - intros wss F Hk. inversion F as [|t ws ts wss' _ F' ]; subst. inversion F'; subst. specialize (Hk 0%nat). simpl in *. lra.
Qed.
Print Assumptions C177_direction_partial.
Print Assumptions C177_velocity_partial.
Print Assumptions C177_tame.
Print Assumptions C177_right_angle_partial.
