(** Property C66: the velocity command of the avoider, from the position to the velocity. *)
Require Import Reals List Lia Lra Bool ZArith.
From Verif Require Import Base Vec Angle RotModel Spec RotProofs SeqProofs TreeModel TreeSpec TreeProofs
  TreeWeights TreeReduce TreeGeom TreeCases PropRotation PropTree Pow WeightModel WeightProofs PropWeights AvoidModel
  ProjModel PropProject TangentProofs PropTangent PropContact ConvModel ConvProofs PropConverge PropConvSeq.
Import ListNotations.
Open Scope R_scope.

Section C66.
Variable orth0 : vec -> vec.
Variable angle_of : vec -> vec -> vec.
Variable pick : vec -> vec.
Variable sort : tree -> list nid.
Variables (power radius : R) (max_repulsion : option R).
Variables (initial : dynamics) (default : option dynamics) (A : vec).
Variable weight_of : vec -> component -> res R.
Let evaluate := avoider_evaluate orth0 angle_of (get_projected_tangent pick) sort power radius max_repulsion.

(** At rest (and exactly at the attractor) the command is zero. *)
Theorem C66_at_rest : forall n own env trees position, dy_own initial = None ->
  dy_attractor initial = Some A ->
  norm (dy_eval initial position) = 0 \/ norm (vsub A position) = 0 ->
  evaluate n initial own default A weight_of env trees position = Ok (vzero n).
Proof.
  intros n own env trees position Ho Ha H. unfold evaluate, avoider_evaluate, evaluate_dynamics_sequence.
  rewrite Ho, Ha. destruct (Req_EM_T (norm (vsub A position)) 0); [auto|].
  destruct (Req_EM_T (norm (dy_eval initial position)) 0); [auto|]. destruct H; lra.
Qed.

(** Without obstacles the velocity of the initial dynamics is commanded unchanged. *)
Theorem C66_no_obstacles : forall n env position, (2 <= n)%nat -> dy_own initial = None ->
  dy_attractor initial = Some A -> length A = n -> length position = n ->
  length (dy_eval initial position) = n ->
  / 10 ^ 8 < norm (vsub A position) -> / 10 ^ 8 < norm (dy_eval initial position) ->
  related (direction (vsub A position)) (direction (dy_eval initial position)) ->
  evaluate n initial None default A weight_of env [] position = Ok (dy_eval initial position).
Proof.
  intros n env position Hn Ho Ha La Lp Lv N1 N2 [R1 R2].
  destruct (C62_dynamics_sequence_partial n initial position A Hn Ho Ha La Lp Lv) as (_ & _ & X).
  destruct (X N1 N2 R1) as (r & e & E & _ & _ & Ee & _ & He & _).
  unfold evaluate, avoider_evaluate. rewrite E. cbn [bind evaluate_sequence]. rewrite Ee. cbn [bind].
  rewrite (He R2). f_equal. set (v := dy_eval initial position) in *.
  assert (norm v <> 0) by (assert (0 < / 10 ^ 8) by (apply Rinv_0_lt_compat; lra); lra).
  unfold direction. vext. field. auto.
Qed.

(** Around obstacles: a velocity is always commanded; it is the velocity of the environment plus
    a part [m] not faster than the initial velocity, unless no component takes part; in contact
    with one component [m] does not point into it. *)
Theorem C66_around_obstacles_partial : forall n env trees rel position s0 e0,
  evaluate_dynamics_sequence position initial None = Ok (Some s0) ->
  conv_ready orth0 sort initial default A weight_of n position s0 e0 (map mtree_of trees) ->
  (forall j c j' c', full_share A weight_of position (map mtree_of trees) j c ->
     full_share A weight_of position (map mtree_of trees) j' c' -> j = j' /\ c = c') ->
  (forall conv base, compute_convergence_sequence orth0 sort initial default A weight_of position s0
       (map mtree_of trees) = Ok conv -> get_end_vector conv = Ok base ->
     scene orth0 angle_of pick sort power radius max_repulsion n position base trees) ->
  compute_multiobstacle_relative_velocity position env = Ok rel ->
  exists v m cw base, evaluate n initial None default A weight_of env trees position = Ok v /\
    v = vadd m rel /\
    avoidance_weights angle_of position base power (map mtree_of trees) = Ok (cw ++ [1 - rsum cw]) /\
    (cw <> [] -> norm m <= norm (dy_eval initial position)) /\ (cw = [] -> norm m = 1) /\
    (* the direction handed to the avoidance *)
    ((forall j c w, ~ share weight_of A position (map mtree_of trees) j c w) -> base = e0) /\
    (forall j c mt root cs ej, full_share A weight_of position (map mtree_of trees) j c ->
       nth_error (map mtree_of trees) j = Some mt -> root_dynamics initial default mt root cs ej ->
       (c = m_root mt -> dot (direction (vsub A position)) (direction (vsub A (c_refpoint root))) <> -1) ->
       base = ej) /\
    (* contact *)
    (forall k t i c surf, nth_error trees k = Some t -> nth_error (bt_comps t) i = Some c ->
       c_gamma (b_comp c) position <= 1 ->
       (forall k' t' i' c', nth_error trees k' = Some t' -> nth_error (bt_comps t') i' = Some c' ->
          c_gamma (b_comp c') position <= 1 -> k' = k /\ i' = i) ->
       component_occlusion position (mtree_of t) i = Ok 1 ->
       c_intersect (b_comp c) position (vscale (-1) (c_refdir (b_comp c) position)) = Some surf ->
       length surf = n -> length (c_center (b_comp c)) = n ->
       dot (c_refdir (b_comp c) position) (c_normal (b_comp c) surf) < -1/1000 ->
       0 <= dot m (c_normal (b_comp c) surf)).
Proof.
  intros n env trees rel position s0 e0 Es RD ONE SC Er.
  destruct (C65_convergence_sequence _ _ _ _ _ _ _ _ _ _ _ RD ONE) as (conv & base & Ec & Pc & Hb & Hf).
  pose proof (ps_end _ _ _ _ Pc) as Eb. pose proof (SC conv base Ec Eb) as S.
  set (conv_of := fun s => compute_convergence_sequence orth0 sort initial default A weight_of position s (map mtree_of trees)).
  set (magnitude := norm (dy_eval initial position)).
  assert (Hm : 0 <= magnitude) by apply norm_nonneg.
  destruct (C32_speed_bound_partial orth0 angle_of pick sort power radius max_repulsion n n magnitude s0 conv_of conv
     position env rel base trees Hm Ec Eb S Er) as (v & m & cw & Ev & Vm & Ew & B1 & B2).
  exists v, m, cw, base. split.
  { unfold evaluate, avoider_evaluate. rewrite Es. cbn [bind]. exact Ev. }
  split; auto. split; auto. split; auto. split; auto. split; auto. split; [exact Hf|].
  intros k t i c surf Ek Ei Hg Hu Hocc Hs Ls Lc Hr.
  destruct (C61_no_penetration orth0 angle_of pick sort power radius max_repulsion n n magnitude s0 conv_of conv
     position env rel base trees k t i c surf) as (v' & m' & Ev' & Vm' & D & _ & Lm'); auto.
  rewrite Ev in Ev'. injection Ev' as <-. rewrite Vm in Vm'.
  assert (E : dot (vadd m rel) (c_normal (b_comp c) surf) = dot (vadd m' rel) (c_normal (b_comp c) surf)) by congruence.
  rewrite !dot_vadd_l in E. lra.
Qed.
(** It raises, whatever the obstacles: where the initial dynamics point away from their attractor
    exactly, and close to the attractor of a linear system. *)
Theorem C66_away_raises : forall n env trees position, (2 <= n)%nat -> dy_own initial = None ->
  dy_attractor initial = Some A -> length A = n -> length position = n -> length (dy_eval initial position) = n ->
  norm (vsub A position) <> 0 -> norm (dy_eval initial position) <> 0 ->
  dot (direction (vsub A position)) (direction (dy_eval initial position)) = -1 ->
  evaluate n initial None default A weight_of env trees position = Err EValue.
Proof.
  intros n env trees position Hn Ho Ha La Lp Lv N1 N2 D.
  destruct (C62_dynamics_sequence_partial n initial position A Hn Ho Ha La Lp Lv) as (_ & X & _).
  unfold evaluate, avoider_evaluate. rewrite (X N1 N2 D). auto.
Qed.
Theorem C66_raises_refuted : exists a x, length a = 2%nat /\ length x = 2%nat /\ norm (vsub a x) <> 0 /\
  forall env trees, evaluate 2 (linear_system a) None default a weight_of env trees x = Err EValue.
Proof.
  destruct C62_near_attractor_refuted as (a & x & La & Lx & N & E). exists a, x.
  repeat (split; auto). intros env trees. unfold evaluate, avoider_evaluate. rewrite E. auto.
Qed.
End C66.

(** Straight at the wall of C61 with speed three; the attractor lies inside the wall. *)
Definition into_wall : dynamics := mkDyn (fun _ => vscale 3 slanted) (Some [-3; 0]) None.
Lemma slanted_scaled : norm (vscale 3 slanted) = 3 /\ direction (vscale 3 slanted) = slanted.
Proof.
  unfold slanted, vscale. simpl. destruct (dir_scaled 3 (-3/5) (4/5)) as [D N]; try lra. auto.
Qed.
Example C66_case : forall orth0 angle_of, (forall v, length (orth0 v) = length v) ->
  exists v, avoider_evaluate orth0 angle_of (get_projected_tangent left_of) sort_by_level 1 (PI * / 2) None 2
      into_wall None None [-3; 0] given_weight [] [wall_tree] [1; 0] = Ok v /\
    dot (dy_eval into_wall [1; 0]) [1; 0] < 0 /\ 0 <= dot v [1; 0].
Proof.
  intros orth0 angle_of Ho.
  assert (Vp : vsub [-3; 0] [1; 0] = [4 * -1; 4 * 0]) by (apply vsub2; lra).
  destruct (dir_scaled 4 (-1) 0) as [Dp Np]; try lra. rewrite <- Vp in Dp, Np.
  destruct slanted_scaled as [Ns Ds]. pose proof tiny_1 as T1.
  assert (NC : allclose [-1; 0] slanted = false).
  { unfold slanted. simpl. replace (isclose (-1) (-3/5)) with false; auto. symmetry. apply Rleb_false.
    rewrite !Rabs_left by lra. assert (/ 10 ^ 8 <= / 10) by (apply Rinv_le_contravar; lra).
    assert (/ 10 ^ 5 <= / 10) by (apply Rinv_le_contravar; lra). lra. }
  assert (NO : dot [-1; 0] slanted <> -1) by (unfold slanted; simpl; lra).
  destruct (pair_sequence 2 (vsub [-3; 0] [1; 0]) (vscale 3 slanted)) as (r & E & Pr & E0 & Ee & X & _); auto; try lra.
  { rewrite Dp, Ds. auto. }
  rewrite X in Ee by (rewrite Dp, Ds; auto). rewrite Ds in Ee. rewrite Dp in E0.
  assert (Es : evaluate_dynamics_sequence [1; 0] into_wall None = Ok (Some [r])).
  { unfold evaluate_dynamics_sequence, into_wall. cbn [dy_own dy_eval dy_attractor].
    destruct (Req_EM_T _ 0); [lra|]. destruct (Req_EM_T _ 0); [lra|]. rewrite E. auto. }
  assert (Rp : related_path [-1; 0] (stops [r] slanted)).
  { unfold stops. simpl map. simpl app. split; [split; auto|]. simpl. auto. }
  assert (G : forall g, attractor_gamma [-3; 0] (mtree_of wall_tree) g -> tree_share g = 0).
  { intros g [(c & [<-|[]] & ->) _]. simpl. unfold tree_share. rewrite Rmin_right by lra. apply Rmax_left. lra. }
  assert (RD : conv_ready orth0 sort_by_level into_wall None [-3; 0] given_weight 2 [1; 0] [r] slanted (map mtree_of [wall_tree])).
  { constructor; auto.
    - apply sort_by_level_sorted.
    - split; auto. split; auto. lra.
    - rewrite Dp. constructor.
      + exists r, []. auto.
      + constructor; auto. rewrite E0. split; auto. unfold unitv; simpl; lra.
      + exact Ee.
      + split; auto. apply slanted_unit.
    - rewrite Dp. auto.
    - simpl. lia.
    - intros mt [<-|[]]. constructor.
      + simpl. lia.
      + intros c [<-|[]]. exists 0. split; auto. lra.
      + intros g root Hg Tg. rewrite (G g Hg) in Tg. lra.
      + intros g root Hg Tg. rewrite (G g Hg) in Tg. lra.
      + intros root r' cs w s e Er Ew _ _ Ev Eend. injection Er as <-. unfold given_weight in Ew. simpl in Ew.
        injection Ew as <-. rewrite C64_no_influence in Ev by (left; lra). injection Ev as <-.
        rewrite Ee in Eend. injection Eend as <-. rewrite Dp. auto.
      + intros i c w Ni E1. destruct i as [|i]; [contradiction|destruct i; discriminate]. }
  assert (NS : forall j c w, ~ share given_weight [-3; 0] [1; 0] (map mtree_of [wall_tree]) j c w).
  { intros j c w (mt & g & comp & wc & E1 & Hg & _ & _ & _ & Tg & _). apply nth_error_In in E1. destruct E1 as [<-|[]].
    rewrite (G g Hg) in Tg. lra. }
  assert (ONE : forall j c j' c', full_share [-3; 0] given_weight [1; 0] (map mtree_of [wall_tree]) j c ->
     full_share [-3; 0] given_weight [1; 0] (map mtree_of [wall_tree]) j' c' -> j = j' /\ c = c').
  { intros j c j' c' F. destruct (NS _ _ _ F). }
  destruct (C65_convergence_sequence _ _ _ _ _ _ _ _ _ _ _ RD ONE) as (conv & base & Ec & Pc & Hb & _).
  specialize (Hb NS). subst base.
  assert (Rel : compute_multiobstacle_relative_velocity [1; 0] [] = Ok (vzero 2)).
  { unfold compute_multiobstacle_relative_velocity, compute_gamma_weights. simpl.
    destruct (Rle_dec 0 1); reflexivity. }
  destruct (C66_around_obstacles_partial orth0 angle_of left_of sort_by_level 1 (PI * / 2) None into_wall None [-3; 0] given_weight
     2 [] [wall_tree] (vzero 2) [1; 0] [r] slanted Es RD ONE) as (v & m & cw & base & Ev & Vm & _ & _ & _ & _ & _ & CT); auto.
  { intros conv' base' E1 E2. rewrite Ec in E1. injection E1 as <-. rewrite (ps_end _ _ _ _ Pc) in E2. injection E2 as <-.
    apply wall_scene; auto. lra. }
  exists v. split; auto. split; [unfold into_wall, slanted, vscale; simpl; lra|].
  rewrite Vm, dot_vadd_l, dot_vzero_l.
  assert (0 <= dot m [1; 0]); [|lra].
  apply (CT 0%nat wall_tree 0%nat wall [1; 0]); auto.
  - simpl. lra.
  - intros [|[|k]] t' [|[|i]] c' Et Ei _; simpl in *; try discriminate; auto; injection Et as <-; discriminate.
  - simpl. lra.
Qed.
Print Assumptions C66_at_rest.
Print Assumptions C66_no_obstacles.
Print Assumptions C66_around_obstacles_partial.
Print Assumptions C66_away_raises.
Print Assumptions C66_raises_refuted.
