(** Properties C62-C65: the dynamics as a sequence of rotations, the rotation towards an
    obstacle's reference point, the transport of the dynamics and the convergence sequence. *)
Require Import Reals List Lia Lra Bool ZArith.
From Verif Require Import Base Vec Angle RotModel Spec RotProofs SeqProofs TreeModel TreeSpec TreeProofs
  TreeWeights TreeReduce TreeGeom TreeCases PropRotation PropTree WeightModel WeightProofs PropWeights AvoidModel
  PropTangent PropContact ConvModel ConvProofs.
Import ListNotations.
Open Scope R_scope.

(** * C62 *)
Lemma isclose_0 x : 0 <= x -> (isclose x 0 = true <-> x <= / 10 ^ 8).
Proof.
  intros H. unfold isclose. rewrite Rleb_true, Rminus_0_r, Rabs_R0, Rabs_pos_eq by auto. lra.
Qed.
Lemma isclose_0_false x : / 10 ^ 8 < x -> isclose x 0 = false.
Proof.
  intros H. assert (0 < / 10 ^ 8) by (apply Rinv_0_lt_compat; lra).
  destruct (isclose x 0) eqn:E; auto. apply isclose_0 in E; lra.
Qed.
Lemma pair_sequence n u v : (2 <= n)%nat -> length u = n -> length v = n ->
  / 10 ^ 8 < norm u -> / 10 ^ 8 < norm v -> dot (direction u) (direction v) <> -1 ->
  exists r, create_from_vector_array [u; v] = Ok [r] /\ proper n r /\ rb0 r = direction u /\
    get_end_vector [r] = Ok (end_of r) /\
    (direction u = direction v \/ allclose (direction u) (direction v) = false -> end_of r = direction v) /\
    (allclose (direction u) (direction v) = true -> end_of r = direction u).
Proof.
  intros Hn Lu Lv Nu Nv D.
  destruct (create_spec n [u; v]) as (s & E & Ls & Fs & Hs); auto.
  { intros w [<-|[<-|[]]]; apply isclose_0_false; auto. }
  { intros i Hi. simpl in Hi. replace i with 0%nat by lia. exact D. }
  destruct s as [|r [|]]; simpl in Ls; try lia. exists r. inversion Fs as [|? ? Pr _]; subst.
  destruct (Hs 0%nat ltac:(simpl; lia)) as (H0 & H1 & H2). simpl in H0, H1, H2.
  split; auto. split; auto. split; auto. split; auto.
  rewrite (get_end_vector_nth (length u)); [reflexivity|auto|discriminate].
Qed.

Theorem C62_dynamics_sequence_partial : forall n d position a, (2 <= n)%nat -> dy_own d = None ->
  dy_attractor d = Some a -> length a = n -> length position = n -> length (dy_eval d position) = n ->
  let base := vsub a position in let v := dy_eval d position in
  (norm base = 0 \/ norm v = 0 -> evaluate_dynamics_sequence position d None = Ok None) /\
  (norm base <> 0 -> norm v <> 0 -> dot (direction base) (direction v) = -1 ->
     evaluate_dynamics_sequence position d None = Err EValue) /\
  (/ 10 ^ 8 < norm base -> / 10 ^ 8 < norm v -> dot (direction base) (direction v) <> -1 ->
     exists r e, evaluate_dynamics_sequence position d None = Ok (Some [r]) /\ proper n r /\
       get_first_vector r = direction base /\ get_end_vector [r] = Ok e /\ unitv e /\
       (direction base = direction v \/ allclose (direction base) (direction v) = false -> e = direction v) /\
       norm (vsub e (direction v)) <= 2 * norm (vsub (direction base) (direction v))).
Proof.
  intros n d position a Hn Ho Ha La Lp Lv base v. unfold evaluate_dynamics_sequence. rewrite Ho, Ha.
  fold base v. assert (Lb : length base = n) by (unfold base; autorewrite with vlen; lia).
  split; [|split].
  - intros [H|H]; destruct (Req_EM_T (norm base) 0); auto; [contradiction|].
    destruct (Req_EM_T (norm v) 0); [auto|contradiction].
  - intros Hb Hv D. destruct (Req_EM_T (norm base) 0); [contradiction|].
    destruct (Req_EM_T (norm v) 0); [contradiction|].
    rewrite (proj2 C07_invalid_vectors_rejected [base; v] 0%nat); auto.
  - intros Hb Hv D. assert (0 < / 10 ^ 8) by (apply Rinv_0_lt_compat; lra).
    destruct (Req_EM_T (norm base) 0); [lra|]. destruct (Req_EM_T (norm v) 0); [lra|].
    destruct (pair_sequence n base v) as (r & E & P & E0 & Ee & X1 & X2); auto.
    rewrite E. cbn [bind]. exists r, (end_of r). split; auto. split; auto. split; auto. split; auto.
    assert (Ub : unitv (direction base)) by (apply dirof_unit; auto).
    assert (Uv : unitv (direction v)) by (apply dirof_unit; auto).
    assert (C : exact_pair (direction base) (direction v) \/ allclose (direction base) (direction v) = true).
    { unfold exact_pair. destruct (allclose (direction base) (direction v)); auto. }
    split; [|split; auto].
    + destruct C as [C|C]; [rewrite X1 by auto|rewrite X2 by auto]; auto.
    + assert (N : forall u w, 0 <= norm (vsub u w)) by (intros; apply norm_nonneg).
      destruct C as [C|C]; [rewrite X1 by auto|rewrite X2 by auto].
      * replace (norm (vsub (direction v) (direction v))) with 0.
        -- specialize (N (direction base) (direction v)). lra.
        -- symmetry. apply norm_eq_0_dot. rewrite dot_vsub_l, !dot_vsub_r. ring.
      * specialize (N (direction base) (direction v)). lra.
Qed.
(** Without an attractor the sequence stays at the direction of the dynamics. *)
Theorem C62_without_attractor : forall n d position, (2 <= n)%nat -> dy_own d = None ->
  dy_attractor d = None -> length (dy_eval d position) = n -> / 10 ^ 8 < norm (dy_eval d position) ->
  exists r, evaluate_dynamics_sequence position d None = Ok (Some [r]) /\ proper n r /\
    get_first_vector r = direction (dy_eval d position) /\
    get_end_vector [r] = Ok (direction (dy_eval d position)).
Proof.
  intros n d position Hn Ho Ha L N. unfold evaluate_dynamics_sequence. rewrite Ho, Ha.
  set (v := dy_eval d position) in *. assert (0 < / 10 ^ 8) by (apply Rinv_0_lt_compat; lra).
  destruct (Req_EM_T (norm v) 0); [lra|].
  assert (U : unitv (direction v)) by (apply dirof_unit; auto).
  destruct (pair_sequence n v v) as (r & E & P & E0 & Ee & X1 & _); auto.
  { unfold unitv in U. lra. }
  rewrite E. cbn [bind]. exists r. rewrite Ee, X1; auto.
Qed.
(** Close to the attractor of a linear system the evaluation raises instead of returning a
    sequence or None. *)
Definition linear_system (a : vec) : dynamics := mkDyn (fun x => vsub a x) (Some a) None.
Theorem C62_tiny_velocity_raises : forall a x, 0 < norm (vsub a x) <= / 10 ^ 8 ->
  evaluate_dynamics_sequence x (linear_system a) None = Err EValue.
Proof.
  intros a x H. unfold evaluate_dynamics_sequence, linear_system. cbn [dy_own dy_eval dy_attractor].
  destruct (Req_EM_T (norm (vsub a x)) 0); [lra|].
  unfold create_from_vector_array. cbn [existsb].
  replace (isclose (norm (vsub a x)) 0) with true; auto.
  symmetry. apply isclose_0; lra.
Qed.
Example C62_case :
  let d := mkDyn (fun x => [- nth 1 x 0; nth 0 x 0]) (Some [0; 0]) None in
  / 10 ^ 8 < norm (vsub [0; 0] [-2; 0]) /\ / 10 ^ 8 < norm (dy_eval d [-2; 0]) /\
  dot (direction (vsub [0; 0] [-2; 0])) (direction (dy_eval d [-2; 0])) <> -1 /\
  0 < norm (vsub [0; 0] [/ 10 ^ 9; 0]) <= / 10 ^ 8.
Proof.
  assert (S : sqrt 4 = 2) by (replace 4 with (2 * 2) by ring; apply sqrt_square; lra).
  assert (P : 0 < / 10 ^ 8 < 1).
  { split; [apply Rinv_0_lt_compat; lra|]. rewrite <- Rinv_1. apply Rinv_lt_contravar; lra. }
  assert (N1 : norm (vsub [0; 0] [-2; 0]) = 2).
  { unfold norm. replace (dot _ _) with 4 by (simpl; ring). auto. }
  assert (N2 : norm [-0; -2] = 2).
  { unfold norm. replace (dot _ _) with 4 by (simpl; ring). auto. }
  simpl nth. cbn [dy_eval]. simpl nth. rewrite N1, N2. split; [lra|]. split; [lra|]. split.
  - unfold direction. rewrite N1, N2. simpl. lra.
  - assert (E : norm (vsub [0; 0] [/ 10 ^ 9; 0]) = / 10 ^ 9).
    { unfold norm. replace (dot _ _) with (/ 10 ^ 9 * / 10 ^ 9) by (simpl; ring).
      apply sqrt_square. left. apply Rinv_0_lt_compat; lra. }
    rewrite E. split; [apply Rinv_0_lt_compat; lra|]. apply Rinv_le_contravar; lra.
Qed.
Theorem C62_near_attractor_refuted : exists a x, length a = 2%nat /\ length x = 2%nat /\
  norm (vsub a x) <> 0 /\ evaluate_dynamics_sequence x (linear_system a) None = Err EValue.
Proof.
  exists [0; 0], [/ 10 ^ 9; 0]. destruct C62_case as (_ & _ & _ & H). split; [auto|]. split; [auto|].
  split; [lra|]. apply C62_tiny_velocity_raises. auto.
Qed.

(** * C63 *)
Theorem C63_rotation_to_reference : forall n start stop center, (2 <= n)%nat ->
  length start = n -> length stop = n -> length center = n ->
  let u := vsub center start in let v := vsub center stop in
  (norm u = 0 -> evaluate_rotation_start_to_end start stop center = Ok None) /\
  (norm u <> 0 -> norm v = 0 -> evaluate_rotation_start_to_end start stop center = Err ENotImpl) /\
  (norm u <> 0 -> norm v <> 0 -> dot (direction u) (direction v) = -1 ->
     evaluate_rotation_start_to_end start stop center = Ok None) /\
  (norm u <> 0 -> norm v <> 0 -> dot (direction u) (direction v) <> -1 ->
     exists r, evaluate_rotation_start_to_end start stop center = Ok (Some r) /\ proper n r /\
       get_first_vector r = direction u /\ 0 <= rangle r < PI /\
       cos (rangle r) = dot (direction u) (direction v) /\
       (direction u = direction v \/ allclose (direction u) (direction v) = false ->
          rotate r (rb0 r) 1 = direction v)).
Proof.
  intros n start stop center Hn Ls Lt Lc u v.
  assert (Lu : length u = n) by (unfold u; autorewrite with vlen; lia).
  assert (Lv : length v = n) by (unfold v; autorewrite with vlen; lia).
  unfold evaluate_rotation_start_to_end. fold u v.
  split; [|split; [|split]].
  - intros H. destruct (Req_EM_T (norm u) 0); [auto|contradiction].
  - intros H H'. destruct (Req_EM_T (norm u) 0); [contradiction|].
    destruct (Req_EM_T (norm v) 0); [auto|contradiction].
  - intros H H' D. destruct (Req_EM_T (norm u) 0); [contradiction|].
    destruct (Req_EM_T (norm v) 0); [contradiction|].
    change (vdiv u (norm u)) with (direction u). change (vdiv v (norm v)) with (direction v).
    rewrite (proj2 (Rleb_true _ _)); auto. lra.
  - intros H H' D. destruct (Req_EM_T (norm u) 0); [contradiction|].
    destruct (Req_EM_T (norm v) 0); [contradiction|].
    change (vdiv u (norm u)) with (direction u). change (vdiv v (norm v)) with (direction v).
    assert (U : unitv (direction u)) by (apply dirof_unit; auto).
    assert (V : unitv (direction v)) by (apply dirof_unit; auto).
    pose proof (unit_dot_bounds _ _ U V) as B.
    rewrite (proj2 (Rleb_false _ _)) by lra.
    assert (LU : length (direction u) = n) by (unfold direction; autorewrite with vlen; auto).
    assert (LV : length (direction v) = n) by (unfold direction; autorewrite with vlen; auto).
    assert (DU : dirof (direction u) = direction u) by (apply dirof_of_unit; auto).
    assert (DV : dirof (direction v) = direction v) by (apply dirof_of_unit; auto).
    destruct (from_directions_spec n (direction u) (direction v)) as (r & E & O & E0 & Ea & Es); auto.
    { apply norm_neq_0_dot. unfold unitv in U. lra. }
    { apply norm_neq_0_dot. unfold unitv in V. lra. }
    { rewrite DU, DV. auto. }
    rewrite DU in E0; rewrite DU, DV in Ea, Es.
    rewrite E. cbn [bind]. exists r. split; auto. split; auto. split; auto. split.
    { rewrite Ea. split; [apply acos_bound|apply acos_lt_PI; lra]. }
    split; [rewrite Ea; apply cos_acos; auto|].
    intros C. assert (S : get_second_vector r = dirof (direction v)).
    { apply (exact_second n (direction u) (direction v) r); auto.
      - apply norm_neq_0_dot. unfold unitv in U. lra.
      - apply norm_neq_0_dot. unfold unitv in V. lra.
      - rewrite DU, DV. auto.
      - rewrite DU, DV. exact C. }
    rewrite DV in S. rewrite <- S.
    unfold rotate, get_second_vector. rewrite Rmult_1_l. auto.
Qed.

Example C63_case : norm (vsub [0; 0] [-2; 0]) <> 0 /\ norm (vsub [0; 0] [0; -2]) <> 0 /\
  dot (direction (vsub [0; 0] [-2; 0])) (direction (vsub [0; 0] [0; -2])) <> -1 /\
  allclose (direction (vsub [0; 0] [-2; 0])) (direction (vsub [0; 0] [0; -2])) = false.
Proof.
  assert (S : sqrt 4 = 2) by (replace 4 with (2 * 2) by ring; apply sqrt_square; lra).
  assert (N1 : norm (vsub [0; 0] [-2; 0]) = 2).
  { unfold norm. replace (dot _ _) with 4 by (simpl; ring). auto. }
  assert (N2 : norm (vsub [0; 0] [0; -2]) = 2).
  { unfold norm. replace (dot _ _) with 4 by (simpl; ring). auto. }
  assert (D1 : direction (vsub [0; 0] [-2; 0]) = [1; 0]).
  { unfold direction. rewrite N1. unfold vscale; simpl. f_equal; [|f_equal]; field. }
  assert (D2 : direction (vsub [0; 0] [0; -2]) = [0; 1]).
  { unfold direction. rewrite N2. unfold vscale; simpl. f_equal; [|f_equal]; field. }
  rewrite N1, N2, D1, D2. split; [lra|]. split; [lra|]. split; [simpl; lra|].
  simpl. replace (isclose 1 0) with false; auto. symmetry. apply isclose_0_false.
  rewrite <- Rinv_1. apply Rinv_lt_contravar; lra.
Qed.

(** * C64 *)
Section Reduction.
Variable orth0 : vec -> vec.
Variable sort : tree -> list nid.

Theorem C64_no_influence : forall s1 trafo s2 w, w <= 0 \/ trafo = None ->
  vector_rotation_reduction orth0 sort s1 trafo s2 w = Ok s1.
Proof.
  intros s1 trafo s2 w H. unfold vector_rotation_reduction.
  destruct (Rleb w 0) eqn:E; auto. apply Rleb_false in E. destruct H as [H| ->]; [lra|auto].
Qed.

Lemma vrr_tree n s1 b e1 r c s2 e2 : (2 <= n)%nat ->
  passes n s1 b e1 -> related_path b (stops s1 e1) -> (length s1 < 100)%nat ->
  rotate r (rb0 r) 1 = c -> length c = n -> unitv c -> related b c ->
  passes n s2 c e2 -> related_path c (stops s2 e2) -> (1 + length s2 < 100)%nat ->
  exists t t1 t2 l1 l2, from_sequence (NInt 0) (NInt 1) s1 = Ok t /\
    lift (add_node_orientation t (NInt (-1)) r (NInt 0)) = Ok t1 /\
    lift (add_sequence t1 (NInt 2) s2 (NInt (-1)) true) = Ok t2 /\ sound n t2 (NInt 0) /\
    node t2 (NInt 0) (mkAttrs 0 b) /\ node t2 (NInt 1) (mkAttrs l1 e1) /\ node t2 (NInt 2) (mkAttrs l2 e2) /\
    level_le (Nat.max (length s1) (1 + length s2)) t2 /\
    node t2 (NInt (-1)) (mkAttrs 1 c) /\
    (length s1 = 1%nat -> length s2 = 1%nat -> ids t2 = [NInt 0; NInt 1; NInt (-1); NInt 2] /\
       forall u v, edge t2 u v <-> (u = NInt 0 /\ v = NInt 1) \/ (u = NInt 0 /\ v = NInt (-1)) \/ (u = NInt (-1) /\ v = NInt 2)).
Proof.
  intros Hn P1 R1 L1 Er Lc Uc Rc P2 R2 L2.
  destruct (from_sequence_sound n (NInt 0) (NInt 1) s1 b e1) as (t & l1 & E & S & I & N0 & N1 & Hl1 & ED & V); auto; try discriminate.
  exists t.
  assert (Dc : direction c = c) by (apply direction_unitv; auto).
  destruct (add_node_sound n t (NInt 0) (NInt (-1)) c (NInt 0) (mkAttrs 0 b)) as (t1 & E1 & S1 & I1 & K1 & N1' & ED1 & V1); auto.
  { simpl. lia. }
  { apply norm_neq_0_dot. unfold unitv in Uc. lra. }
  { rewrite I. unfold inter_ids. simpl. rewrite in_app_iff, in_map_iff. intros [H|[(i & H & _)|[H|[]]]]; discriminate. }
  { rewrite Dc. auto. }
  exists t1. rewrite Dc in N1'.
  destruct (add_sequence_sound n t1 (NInt 0) (NInt 2) s2 (NInt (-1)) _ e2 S1 N1') as (t2 & l2 & E2 & S2 & I2 & K2 & N2 & Hl2 & ED2 & V2); auto.
  { rewrite I1, I. unfold inter_ids. rewrite in_app_iff. simpl. rewrite in_app_iff, in_map_iff.
    intros [[H|[(i & H & _)|[H|[]]]]|[H|[]]]; discriminate. }
  { intros i _. rewrite I1, I. unfold inter_ids. rewrite in_app_iff. simpl. rewrite in_app_iff, in_map_iff.
    intros [[H|[(k & H & _)|[H|[]]]]|[H|[]]]; discriminate. }
  exists t2, l1, l2. split; auto. unfold add_node_orientation. rewrite Er, E1, E2. repeat split; auto; try apply S2.
  - apply V2; [apply V1|simpl; lia].
    + intros x a Hx. apply V in Hx. lia.
    + simpl. lia.
  - rewrite I2, I1, I, H, H0. simpl. auto.
  - intros He. apply (ED2 H0) in He. rewrite ED1, (ED H) in He. tauto.
  - intros He. apply (ED2 H0). rewrite ED1, (ED H). tauto.
Qed.

Lemma two_assigned t w : In (NInt 1) (ids t) -> In (NInt 2) (ids t) ->
  assigned t [NInt 1; NInt 2] [1 - w; w]
    (fun x => if nid_eq_dec x (NInt 1) then 1 - w else if nid_eq_dec x (NInt 2) then w else 0).
Proof.
  intros I1 I2. split; [repeat constructor; simpl; intuition discriminate|]. split; auto. split.
  { intros x [<-|[<-|[]]]; auto. }
  split.
  - intros x v [H|[H|[]]]; injection H as <- <-; reflexivity.
  - intros x H. destruct (nid_eq_dec x (NInt 1)) as [->|]; [exfalso; apply H; left; auto|].
    destruct (nid_eq_dec x (NInt 2)) as [->|]; [exfalso; apply H; right; left; auto|]. auto.
Qed.

Hypothesis orth_len : forall v, length (orth0 v) = length v.

Lemma mean_weight_on n t r l ws own sl m a st : sound n t r -> (2 <= n)%nat -> level_sorted t sl ->
  assigned t l ws own -> (forall y, own y = if nid_eq_dec y m then 1 else 0) -> node t m a ->
  get_weighted_mean orth0 t st sl l ws = Ok (a_dir a).
Proof.
  intros [W NO DI] Hn SL A O Na. pose proof (node_in_ids t m a Na) as Hmi.
  destruct (assigned_len _ _ _ _ A) as [HL HI].
  assert (Da : dirn t m = a_dir a) by (unfold dirn; rewrite (proj2 (get_attrs_node n t r W m a) Na); auto).
  rewrite <- Da.
  apply (mean_single n t r W Hn (no_opposite_dirn n t r W NO) sl SL orth0 orth_len own m Hmi); auto.
  - apply (assigned_own t l ws own A).
  - intros p Ep. destruct (edge_ids n t r W p m Ep) as [Hp _].
    destruct (wf_attrs n t r W p Hp) as (b & Gb & Nb & _).
    assert (Db : dirn t p = a_dir b) by (unfold dirn; rewrite Gb; auto).
    rewrite Da, Db. unfold exact_pair. destruct (DI p m b a Ep Nb Na); eauto.
Qed.

Hypothesis sort_ok : forall n t r, rooted_tree n t r -> level_sorted t (sort t).

Theorem C64_transported_sequence : forall n s1 b e1 r c s2 e2 w, (2 <= n)%nat ->
  passes n s1 b e1 -> related_path b (stops s1 e1) -> (length s1 <= 50)%nat ->
  rotate r (rb0 r) 1 = c -> length c = n -> unitv c -> related b c ->
  passes n s2 c e2 -> related_path c (stops s2 e2) -> (length s2 <= 50)%nat -> 0 < w <= 1 ->
  exists s e, vector_rotation_reduction orth0 sort s1 (Some r) (Some s2) w = Ok s /\
    passes n s b e /\ (length s < 100)%nat /\ (w = 1 -> e = e2).
Proof.
  intros n s1 b e1 r c s2 e2 w Hn P1 R1 L1 Er Lc Uc Rc P2 R2 L2 Hw.
  destruct (vrr_tree n s1 b e1 r c s2 e2) as (t & t1 & t2 & l1 & l2 & E & E1 & E2 & S & N0 & N1 & N2 & V & _); auto; try lia.
  unfold vector_rotation_reduction. rewrite (proj2 (Rleb_false _ _)) by lra.
  rewrite E. cbn [bind]. rewrite E1. cbn [bind]. rewrite E2. cbn [bind].
  pose proof (node_in_ids _ _ _ N1) as I1. pose proof (node_in_ids _ _ _ N2) as I2.
  pose proof (two_assigned t2 w I1 I2) as A.
  destruct (reduce_passes n t2 (NInt 0) (mkAttrs 0 b) (sort t2) orth0 blank [NInt 1; NInt 2] [1 - w; w] _ S Hn N0
             (sort_ok n t2 _ (so_rooted _ _ _ S)) A orth_len) as (s & e & Es & Em & Ps).
  { intros x. destruct (nid_eq_dec x (NInt 1)); [lra|]. destruct (nid_eq_dec x (NInt 2)); lra. }
  { simpl. lra. }
  exists s, e. split; auto. split; auto. split.
  - assert (Lv : (length s <= Nat.max (length s1) (1 + length s2) + 2)%nat); [|lia].
    eapply reduce_length; [apply S|exact Es|exact V].
  - intros ->. rewrite (mean_weight_on n t2 (NInt 0) _ _ _ (sort t2) (NInt 2) (mkAttrs l2 e2) blank S Hn
        (sort_ok n t2 _ (so_rooted _ _ _ S)) A) in Em; auto.
    + injection Em as <-. auto.
    + intros y. destruct (nid_eq_dec y (NInt 1)) as [->|]; [destruct (nid_eq_dec _ _); [discriminate|lra]|]. auto.
Qed.
End Reduction.
Print Assumptions C62_dynamics_sequence_partial.
Print Assumptions C62_without_attractor.
Print Assumptions C62_tiny_velocity_raises.
Print Assumptions C62_near_attractor_refuted.
Print Assumptions C63_rotation_to_reference.
Print Assumptions C64_no_influence.
Print Assumptions C64_transported_sequence.
