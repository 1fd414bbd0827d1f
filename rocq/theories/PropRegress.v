(** Properties C81 and C82: fields turned by the angles of a regressor. *)
Require Import Reals List Lra Lia Psatz Bool.
From Verif Require Import Base Vec Angle Pow RotModel Spec RotProofs ProjModel PropProject PropFold DynModel RotAvoidModel RotAvoidProofs FieldModel PropLocalRot PropDeviation.
Import ListNotations.
Open Scope R_scope.

(** An orthonormal list of columns which are perpendicular to [b]. *)
Fixpoint ortho (n : nat) (b : vec) (l : list vec) : Prop :=
  match l with
  | [] => True
  | c :: r => length c = n /\ unitv c /\ dot b c = 0 /\ Forall (fun d => dot c d = 0) r /\ ortho n b r
  end.
Lemma ortho_facts n b l : ortho n b l -> Forall (fun c => length c = n) l /\ Forall (fun c => dot b c = 0) l.
Proof. induction l; simpl; intros H; [split; constructor|]. destruct H as (A & _ & B & _ & C). destruct (IHl C). split; constructor; auto. Qed.
Lemma embed_norm n b cols a : ortho n b cols -> length a = length cols -> norm (embed n cols a) = norm a.
Proof.
  intros H L. unfold norm. f_equal. revert a L. unfold embed. induction cols as [|c cols IH]; intros [|x a] L; simpl in L; try discriminate.
  - unfold weighted_columns. simpl. apply dot_vzero_l.
  - destruct H as (Lc & U & B & F & O). injection L as L. unfold weighted_columns. simpl. fold (weighted_columns n a cols).
    autorewrite with vdot. rewrite (IH O _ L). rewrite (dot_comm (weighted_columns n a cols) c), (weighted_columns_dot n c a cols F).
    unfold unitv in U. rewrite U. ring.
Qed.
Lemma embed_ok n b cols a : ortho n b cols -> length (embed n cols a) = n /\ dot b (embed n cols a) = 0.
Proof. intros H. destruct (ortho_facts _ _ _ H). split; [apply weighted_columns_ok|apply weighted_columns_dot]; auto. Qed.
Lemma limit_angle_ok m a : 0 < m -> norm (limit_angle m a) = Rmin m (norm a) /\ length (limit_angle m a) = length a.
Proof.
  intros H. unfold limit_angle. destruct (Rltb m (norm a)) eqn:E.
  - apply Rltb_true in E. pose proof (norm_nonneg a). rewrite norm_vscale, norm_vdiv, Rabs_right, Rmin_left by lra.
    split; [ring|]. unfold vdiv. rewrite !length_vscale. auto.
  - apply Rltb_false in E. rewrite Rmin_right; auto.
Qed.

(** ** C81: deviation of a constant flow *)
Lemma cfb : 0 < constant_flow_bound < PI / 2.
Proof. unfold constant_flow_bound. pose proof PI_RGT_0. lra. Qed.
(** Full speed, and a positive share of progress along the flow, for every regressor. *)
Theorem C81_speed_and_progress : forall n columns predict reference p,
  length reference = n -> norm reference <> 0 -> ortho n (direction reference) columns ->
  length (predict p) = length columns ->
  exists v, constant_flow columns predict reference p = Ok v /\ length v = n /\ norm v = norm reference /\
    dot reference v = norm reference * norm reference * cos (Rmin constant_flow_bound (norm (predict p))) /\
    0 < cos constant_flow_bound /\
    norm reference * norm reference * cos constant_flow_bound <= dot reference v.
Proof.
  intros n columns predict reference p L N O La. unfold constant_flow. rewrite L.
  destruct (Req_EM_T _ 0); [contradiction|]. cbv zeta. fold (dirof reference). eexists. split; [reflexivity|].
  unfold angle_space_inverse. set (a := limit_angle _ _).
  destruct (limit_angle_ok constant_flow_bound (predict p)) as [Na Ll]; [apply cfb|]. fold a in Na, Ll.
  change (direction reference) with (dirof reference) in O.
  destruct (embed_ok n (dirof reference) columns a O) as [Le Oe].
  pose proof (embed_norm n (dirof reference) columns a O ltac:(congruence)) as Ne.
  pose proof (dirof_unit _ N) as U.
  destruct (vector_from_angle_spec n (dirof reference) (embed n columns a)) as (A1 & A2 & A3); auto.
  { rewrite dirof_length; auto. }
  pose proof (norm_pos _ N) as P. split; [rewrite length_vscale; auto|].
  split; [rewrite norm_vscale, (proj1 (unit_norm _) A2), Rabs_right; lra|].
  assert (D : dot reference (vscale (norm reference) (vector_from_angle (dirof reference) (embed n columns a))) =
      norm reference * norm reference * cos (Rmin constant_flow_bound (norm (predict p)))).
  { rewrite <- Na, <- Ne, <- A3. unfold dirof at 2. autorewrite with vdot. field. auto. }
  pose proof cfb as CF. pose proof PI_RGT_0.
  split; auto. split; [apply cos_gt_0; lra|]. rewrite D. apply Rmult_le_compat_l; [nra|].
  pose proof (norm_nonneg (predict p)).
  assert (M : 0 <= Rmin constant_flow_bound (norm (predict p)) <= constant_flow_bound) by (split; [apply Rmin_glb; lra|apply Rmin_l]).
  destruct (Req_dec (Rmin constant_flow_bound (norm (predict p))) constant_flow_bound) as [->|]; [lra|].
  left. apply cos_decreasing_1; lra.
Qed.
(** Within the limit the deviation is the predicted one. *)
Theorem C81_exact_deviation : forall n columns predict reference p,
  length reference = n -> norm reference <> 0 -> ortho n (direction reference) columns ->
  length (predict p) = length columns -> norm (predict p) <= constant_flow_bound ->
  exists v, constant_flow columns predict reference p = Ok v /\
    acos (dot (direction reference) (direction v)) = norm (predict p) /\
    forall i, (i < length columns)%nat ->
      exists k, 0 <= k /\ dot (nth i columns []) v = k * nth i (predict p) 0 /\ (norm (predict p) <> 0 -> 0 < k).
Proof.
  intros n columns predict reference p L N O La B. unfold constant_flow. rewrite L.
  destruct (Req_EM_T _ 0); [contradiction|]. cbv zeta. fold (dirof reference). eexists. split; [reflexivity|].
  unfold limit_angle. rewrite (proj2 (Rltb_false _ _)) by lra. unfold angle_space_inverse.
  change (direction reference) with (dirof reference) in *.
  destruct (embed_ok n (dirof reference) columns (predict p) O) as [Le Oe].
  pose proof (embed_norm n (dirof reference) columns (predict p) O La) as Ne.
  pose proof (dirof_unit _ N) as U. pose proof (norm_pos _ N) as P.
  destruct (vector_from_angle_spec n (dirof reference) (embed n columns (predict p))) as (A1 & A2 & A3); auto.
  { rewrite dirof_length; auto. }
  pose proof cfb. pose proof (norm_nonneg (predict p)). pose proof PI_RGT_0. split.
  - set (d := vector_from_angle _ _) in *.
    assert (E : direction (vscale (norm reference) d) = d).
    { unfold direction. rewrite norm_vscale, (proj1 (unit_norm _) A2), Rabs_right by lra. vext. field. auto. }
    rewrite E, A3, Ne. apply acos_cos; lra.
  - assert (C : forall i, (i < length columns)%nat -> dot (nth i columns []) (dirof reference) = 0 /\
               dot (nth i columns []) (embed n columns (predict p)) = nth i (predict p) 0).
    { revert La O. clear. generalize (predict p). unfold embed. induction columns as [|c cols IH]; simpl; intros [|x a] La H i Hi; try lia; simpl in La; try discriminate.
      destruct H as (Lc & Uc & Bc & F & H). injection La as La. unfold weighted_columns. simpl. fold (weighted_columns n a cols).
      destruct i as [|i].
      - split; [rewrite dot_comm; auto|]. autorewrite with vdot. rewrite (weighted_columns_dot n c a cols F). unfold unitv in Uc. rewrite Uc. ring.
      - destruct (IH a La H i) as [I1 I2]; [lia|]. split; auto. autorewrite with vdot. rewrite I2.
        rewrite Forall_forall in F. rewrite (dot_comm _ c), (F (nth i cols [])); [ring|]. apply nth_In. lia. }
    intros i Hi. destruct (C i Hi) as [C1 C2].
    unfold vector_from_angle. rewrite Ne. destruct (Req_EM_T (norm (predict p)) 0) as [Z|NZ].
    + exists 0. split; [lra|]. split; [autorewrite with vdot; rewrite C1; ring|contradiction].
    + exists (norm reference * (sin (norm (predict p)) / norm (predict p))).
      assert (0 < sin (norm (predict p))) by (apply sin_gt_0; lra).
      assert (0 < norm reference * (sin (norm (predict p)) / norm (predict p))).
      { apply Rmult_lt_0_compat; auto. apply Rdiv_lt_0_compat; lra. }
      split; [lra|]. split; [|auto]. autorewrite with vdot. rewrite C1, C2. ring.
Qed.
(** Every execution advances along the flow without bound. *)
Theorem C81_executions : forall n columns predict reference dt x,
  length reference = n -> norm reference <> 0 -> ortho n (direction reference) columns ->
  (forall q, length (predict q) = length columns) -> 0 < dt ->
  (forall k, exists v, constant_flow columns predict reference (x k) = Ok v /\ x (S k) = vadd (x k) (vscale dt v)) ->
  forall k, dot reference (x O) + INR k * (dt * (norm reference * norm reference * cos constant_flow_bound)) <= dot reference (x k).
Proof.
  intros n columns predict reference dt x L N O La Hdt X. induction k.
  - simpl. lra.
  - destruct (X k) as (v & E & Ex). destruct (C81_speed_and_progress n columns predict reference (x k) L N O (La _)) as (v' & E' & _ & _ & _ & _ & P).
    rewrite E in E'. injection E' as <-. rewrite S_INR, Ex. autorewrite with vdot. apply (Rmult_le_compat_l dt) in P; lra.
Qed.
(** The unchecked evaluation can go against the flow. *)
Theorem C81_check_needed : exists columns predict reference p v,
  ortho 2 (direction reference) columns /\ norm reference <> 0 /\
  constant_flow_unchecked columns predict reference p = Ok v /\ dot reference v < 0.
Proof.
  exists [[0; 1]], (fun _ => [PI]), [1; 0], [0; 0].
  assert (U : unitv [1; 0]) by (unfold unitv; simpl; ring). pose proof (proj1 (unit_norm _) U) as N.
  pose proof PI_RGT_0. assert (NP : norm [0; PI] = PI) by (apply norm2_is; lra).
  eexists. split; [|split; [rewrite N; lra|split]].
  - change (direction [1; 0]) with (dirof [1; 0]). rewrite (dirof_of_unit _ U). simpl. unfold unitv. simpl. repeat split; auto; ring.
  - unfold constant_flow_unchecked. rewrite N. destruct (Req_EM_T 1 0); [lra|]. reflexivity.
  - assert (EM : embed 2 [[0; 1]] [PI] = [0; PI]) by (unfold embed, weighted_columns, vscale, vzero; simpl; f_equal; [|f_equal]; ring).
    unfold angle_space_inverse. change (length [1; 0]) with 2%nat. rewrite EM.
    unfold vector_from_angle. rewrite NP. destruct (Req_EM_T PI 0); [lra|]. rewrite cos_PI, sin_PI. unfold vdiv, vscale. simpl. lra.
Qed.
Example C81_case : exists v, constant_flow [[0; 1]] (fun _ => [7]) [2; 0] [3; 4] = Ok v /\ norm v = 2 /\ 0 < dot [2; 0] v.
Proof.
  assert (N : norm [2; 0] = 2) by (apply norm2_is; lra).
  destruct (C81_speed_and_progress 2 [[0; 1]] (fun _ => [7]) [2; 0] [3; 4]) as (v & E & _ & Nv & _ & C & P); auto.
  - rewrite N. lra.
  - rewrite (direction2 2 0 2) by lra. simpl. unfold unitv. simpl. repeat split; auto; lra.
  - exists v. rewrite N in *. split; auto. split; auto. nra.
Qed.

(** ** C82: perpendicular deviation of a linear field *)
Lemma pmax : 0 < perpendicular_max_angle < PI / 2.
Proof. unfold perpendicular_max_angle. pose proof PI_RGT_0. lra. Qed.
Definition regressor (predict : nat -> bool -> vec -> vec) : Prop := forall a s q, length (predict a s q) = 1%nat.
Lemma axis_unit a s : length (perpendicular_axis a s) = 2%nat /\ unitv (perpendicular_axis a s).
Proof. unfold perpendicular_axis, unitv. destruct s, (Nat.eqb a 0); simpl; split; auto; ring. Qed.
Lemma prediction_ok orth predict rel axis : picks 2 orth -> regressor predict ->
  let pred := perpendicular_prediction orth predict rel axis in
  let null := perpendicular_axis axis (negb (Rltb (nth axis rel 0) 0)) in
  length pred = 2%nat /\ unitv pred /\
  dot null pred = cos (Rmin perpendicular_max_angle (norm (predict axis (negb (Rltb (nth axis rel 0) 0)) rel))).
Proof.
  intros HO HP. cbv zeta. unfold perpendicular_prediction. set (s := negb _). destruct (axis_unit axis s) as [L U].
  destruct (HO _ L U) as (LO & UO & OO).
  assert (O : ortho 2 (perpendicular_axis axis s) [orth (perpendicular_axis axis s)]) by (simpl; repeat split; auto).
  unfold angle_space_inverse. set (a := limit_angle _ _).
  destruct (limit_angle_ok perpendicular_max_angle (predict axis s rel)) as [Na Ll]; [apply pmax|]. fold a in Na, Ll.
  destruct (embed_ok _ _ _ a O) as [Le Oe]. pose proof (embed_norm _ _ _ a O) as Ne. rewrite Ll, HP in Ne. specialize (Ne eq_refl).
  destruct (vector_from_angle_spec 2 (perpendicular_axis axis s) (embed 2 [orth (perpendicular_axis axis s)] a)) as (A1 & A2 & A3); auto.
  split; auto. split; auto. rewrite A3, Ne, Na. reflexivity.
Qed.
(** Each predicted direction brings its coordinate closer to zero. *)
Theorem C82_predictions : forall orth predict rel axis, picks 2 orth -> regressor predict -> (axis < 2)%nat -> length rel = 2%nat ->
  let pred := perpendicular_prediction orth predict rel axis in
  nth axis rel 0 <> 0 -> nth axis rel 0 * nth axis pred 0 < 0 /\ cos perpendicular_max_angle <= Rabs (nth axis pred 0).
Proof.
  intros orth predict rel axis HO HP Ha Lr. cbv zeta. intros NZ.
  destruct (prediction_ok orth predict rel axis HO HP) as (L & U & D). cbv zeta in *.
  set (pred := perpendicular_prediction _ _ _ _) in *. set (s := negb _) in *.
  pose proof pmax as PM. pose proof PI_RGT_0. pose proof (norm_nonneg (predict axis s rel)).
  set (m := Rmin _ _) in D.
  assert (M : 0 <= m <= perpendicular_max_angle) by (split; [apply Rmin_glb; lra|apply Rmin_l]).
  assert (C : cos perpendicular_max_angle <= cos m).
  { destruct (Req_dec m perpendicular_max_angle) as [->|]; [lra|]. left. apply cos_decreasing_1; lra. }
  assert (CP : 0 < cos perpendicular_max_angle) by (apply cos_gt_0; lra).
  assert (E : dot (perpendicular_axis axis s) pred = (if s then -1 else 1) * nth axis pred 0).
  { destruct pred as [|x [|y [|? ?]]]; simpl in L; try lia. unfold perpendicular_axis.
    destruct axis as [|[|?]]; [| |lia]; simpl; ring. }
  rewrite E in D. unfold s in *. destruct (Rltb (nth axis rel 0) 0) eqn:Q; cbn [negb] in D.
  - apply Rltb_true in Q. rewrite Rabs_right by lra. split; [nra|lra].
  - apply Rltb_false in Q. rewrite Rabs_left by lra. split; [|lra]. assert (0 < nth axis rel 0) by lra. nra.
Qed.
Lemma weights2 x y : [x; y] <> [0; 0] -> exists w0 w1, axis_weights [x; y] = Ok [w0; w1] /\ 0 <= w0 /\ 0 <= w1 /\ w0 + w1 = 1 /\
  (x = 0 -> w0 = 0) /\ (y = 0 -> w1 = 0) /\ w0 = Rabs x / (Rabs x + Rabs y) /\ w1 = Rabs y / (Rabs x + Rabs y).
Proof.
  intros N. unfold axis_weights, rsum. cbn [map fold_right].
  assert (P : 0 < Rabs x + Rabs y).
  { pose proof (Rabs_pos x). pose proof (Rabs_pos y). destruct (Req_dec x 0) as [->|]; [|pose proof (Rabs_pos_lt x); lra].
    destruct (Req_dec y 0) as [->|]; [contradiction|]. pose proof (Rabs_pos_lt y). lra. }
  destruct (Req_EM_T _ 0); [lra|]. rewrite Rplus_0_r. do 2 eexists. split; [reflexivity|].
  assert (I : 0 < / (Rabs x + Rabs y)) by (apply Rinv_0_lt_compat; auto).
  split; [apply Rmult_le_pos; [apply Rabs_pos|lra]|]. split; [apply Rmult_le_pos; [apply Rabs_pos|lra]|].
  split; [field; lra|]. split; [intros ->; rewrite Rabs_R0; unfold Rdiv; ring|].
  split; [intros ->; rewrite Rabs_R0; unfold Rdiv; ring|]. auto.
Qed.
Lemma perpendicular_form orth predict prox vmax ax ay x y : picks 2 orth -> regressor predict -> [x; y] <> [ax; ay] ->
  let rel := [x - ax; y - ay] in
  let null := vscale (-1) (direction rel) in
  exists w0 w1 a0 a1, axis_weights rel = Ok [w0; w1] /\
  angle_of_dir 2 (mkBase null (orth null)) (perpendicular_prediction orth predict rel 0) a0 /\
  angle_of_dir 2 (mkBase null (orth null)) (perpendicular_prediction orth predict rel 1) a1 /\
  norm rel <> 0 /\ unitv null /\
  perpendicular_evaluate orth predict prox vmax [ax; ay] [x; y] =
    Ok (vscale (velocity_factor prox vmax (norm rel)) (vector_from_angle null (vadd (vscale w0 a0) (vscale w1 a1)))).
Proof.
  intros HO HP NE rel null.
  assert (NZ : norm rel <> 0).
  { intros Z. apply norm_zero_iff in Z. unfold rel, vzero in Z. simpl in Z. injection Z as Z1 Z2. apply NE. f_equal; [lra|f_equal; lra]. }
  assert (NZ' : rel <> [0; 0]) by (intros Z; apply NZ; rewrite Z; apply (norm_vzero 2)).
  destruct (weights2 (x - ax) (y - ay) NZ') as (w0 & w1 & W & _). fold rel in W.
  assert (Un : unitv null) by (apply unit_opp; apply (dirof_unit _ NZ)).
  assert (Ln : length null = 2%nat) by reflexivity.
  destruct (HO null Ln Un) as (LO & UO & OO).
  assert (B : base_ok 2 (mkBase null (orth null))) by (repeat split; auto).
  destruct (prediction_ok orth predict rel 0 HO HP) as (L0 & U0 & _). destruct (prediction_ok orth predict rel 1 HO HP) as (L1 & U1 & _).
  cbv zeta in *. set (p0 := perpendicular_prediction orth predict rel 0) in *. set (p1 := perpendicular_prediction orth predict rel 1) in *.
  destruct (angle_in_ok 2 _ p0 ltac:(lia) B L0 (unit_norm_neq _ U0)) as (a0 & A0 & D0).
  destruct (angle_in_ok 2 _ p1 ltac:(lia) B L1 (unit_norm_neq _ U1)) as (a1 & A1 & D1).
  rewrite (dirof_of_unit _ U0) in D0. rewrite (dirof_of_unit _ U1) in D1.
  exists w0, w1, a0, a1. split; auto. split; auto. split; auto. split; auto. split; auto.
  unfold perpendicular_evaluate. rewrite vsub2. fold rel. cbv zeta. destruct (Req_EM_T (norm rel) 0); [contradiction|].
  rewrite W. cbn [bind]. change (vscale (-1) (vdiv rel (norm rel))) with null. unfold directional_weighted_sum. cbn [map mapM].
  fold p0 p1. rewrite A0, A1. cbn [bind mapM]. cbn [bs0 combine fold_right fst snd]. rewrite Ln.
  replace (vadd (vscale w1 a1) (vzero 2)) with (vscale w1 a1); [reflexivity|].
  destruct D1. vext. ring.
Qed.
(** Defined everywhere, with the requested speed. *)
Theorem C82_speed : forall orth predict prox vmax ax ay x y, picks 2 orth -> regressor predict -> 0 < prox -> 0 < vmax ->
  exists v, perpendicular_evaluate orth predict prox vmax [ax; ay] [x; y] = Ok v /\
    norm v = Rmin 1 (norm [x - ax; y - ay] / prox) * vmax.
Proof.
  intros orth predict prox vmax ax ay x y HO HP Hp Hv.
  destruct (list_eq_dec Req_EM_T [x; y] [ax; ay]) as [E|NE].
  - injection E as -> ->. eexists. assert (Z : norm [ax - ax; ay - ay] = 0) by (apply norm2_is; [lra|ring]).
    unfold perpendicular_evaluate. rewrite vsub2, Z. destruct (Req_EM_T 0 0); [|contradiction]. split; [reflexivity|].
    rewrite norm_vzero. unfold Rdiv. rewrite Rmult_0_l, Rmin_right; lra.
  - destruct (perpendicular_form orth predict prox vmax ax ay x y HO HP NE) as (w0 & w1 & a0 & a1 & W & D0 & D1 & NZ & Un & E).
    cbv zeta in *. set (rel := [x - ax; y - ay]) in *. set (null := vscale (-1) (direction rel)) in *. eexists. split; [exact E|].
    destruct (vector_from_angle_spec 2 null (vadd (vscale w0 a0) (vscale w1 a1))) as (A1 & A2 & A3).
    + reflexivity.
    + destruct D0, D1. autorewrite with vlen. lia.
    + auto.
    + pose proof (ad_perp _ _ _ _ D0) as Q0. pose proof (ad_perp _ _ _ _ D1) as Q1. cbn [bs0] in Q0, Q1.
      autorewrite with vdot. rewrite Q0, Q1. ring.
    + rewrite norm_vscale, (proj1 (unit_norm _) A2). unfold velocity_factor. rewrite Rabs_right; [ring|].
      apply Rle_ge, Rmult_le_pos; [|lra]. apply Rmin_glb; [lra|]. apply Rmult_le_pos; [apply norm_nonneg|].
      left. apply Rinv_0_lt_compat. auto.
Qed.
(** Where the predictions of the axes in use approach the attractor, so does the velocity. *)
Theorem C82_approach : forall orth predict prox vmax ax ay x y, picks 2 orth -> regressor predict -> 0 < prox -> 0 < vmax ->
  [x; y] <> [ax; ay] ->
  (forall axis, (axis < 2)%nat -> nth axis [x - ax; y - ay] 0 <> 0 ->
     dot [x - ax; y - ay] (perpendicular_prediction orth predict [x - ax; y - ay] axis) < 0) ->
  exists v, perpendicular_evaluate orth predict prox vmax [ax; ay] [x; y] = Ok v /\ dot [x - ax; y - ay] v < 0.
Proof.
  intros orth predict prox vmax ax ay x y HO HP Hp Hv NE H.
  destruct (perpendicular_form orth predict prox vmax ax ay x y HO HP NE) as (w0 & w1 & a0 & a1 & W & D0 & D1 & NZ & Un & E).
  cbv zeta in *. set (rel := [x - ax; y - ay]) in *. set (null := vscale (-1) (direction rel)) in *.
  assert (NZ' : rel <> [0; 0]) by (intros Z; apply NZ; rewrite Z; apply (norm_vzero 2)).
  destruct (weights2 _ _ NZ') as (w0' & w1' & W' & P0 & P1 & SUM & Z0 & Z1 & _). fold rel in W'.
  rewrite W in W'. injection W' as <- <-.
  destruct (vector_from_angle_spec 2 null (vadd (vscale w0 a0) (vscale w1 a1))) as (A1 & A2 & A3).
  - reflexivity.
  - destruct D0, D1. autorewrite with vlen. lia.
  - auto.
  - pose proof (ad_perp _ _ _ _ D0) as Q0. pose proof (ad_perp _ _ _ _ D1) as Q1. cbn [bs0] in Q0, Q1.
      autorewrite with vdot. rewrite Q0, Q1. ring.
  - eexists. split; [exact E|]. pose proof (norm_pos _ NZ) as P. pose proof PI_RGT_0 as PP.
    assert (R : rel = vscale (- norm rel) null) by (unfold null, direction; vext; field; auto).
    assert (DN : forall u, dot null u = - (dot rel u / norm rel)) by (intros u; unfold null, direction; autorewrite with vdot; field; auto).
    assert (SM : forall axis a, (axis < 2)%nat -> angle_of_dir 2 (mkBase null (orth null)) (perpendicular_prediction orth predict rel axis) a ->
              nth axis rel 0 <> 0 -> norm a < PI / 2).
    { intros axis a Ha D Q. destruct (prediction_ok orth predict rel axis HO HP) as (_ & UU & _).
      rewrite (ad_norm _ _ _ _ D). cbn [bs0]. specialize (H axis Ha Q).
      apply acos_lt_of_cos; [apply unit_dot_bounds; auto|lra|]. rewrite cos_PI2, DN.
      assert (0 < / norm rel) by (apply Rinv_0_lt_compat; auto). unfold Rdiv. nra. }
    assert (TOT : norm (vadd (vscale w0 a0) (vscale w1 a1)) < PI / 2).
    { eapply Rle_lt_trans; [apply norm_triangle|]. rewrite !norm_vscale, !Rabs_right by lra.
      pose proof (norm_nonneg a0). pose proof (norm_nonneg a1).
      destruct (Req_dec (x - ax) 0) as [X|X].
      - rewrite (Z0 X) in *. assert (w1 = 1) by lra. subst w1.
        assert (Y : nth 1 rel 0 <> 0) by (simpl; intros Y; apply NZ'; unfold rel; rewrite X, Y; auto).
        pose proof (SM 1%nat a1 ltac:(lia) D1 Y). lra.
      - pose proof (SM 0%nat a0 ltac:(lia) D0 X) as S0.
        destruct (Req_dec (y - ay) 0) as [Y|Y].
        + rewrite (Z1 Y) in *. assert (w0 = 1) by lra. subst w0. lra.
        + pose proof (SM 1%nat a1 ltac:(lia) D1 Y) as S1. destruct (Req_dec w0 0) as [->|]; [assert (w1 = 1) by lra; subst; lra|]. nra. }
    set (t := norm (vadd (vscale w0 a0) (vscale w1 a1))) in *.
    assert (C : 0 < cos t) by (pose proof (norm_nonneg (vadd (vscale w0 a0) (vscale w1 a1))); fold t in H0; apply cos_gt_0; lra).
    assert (VF : 0 < velocity_factor prox vmax (norm rel)).
    { unfold velocity_factor. apply Rmult_lt_0_compat; auto. apply Rmin_glb_lt; [lra|]. apply Rdiv_lt_0_compat; auto. }
    rewrite R at 1. rewrite dot_vscale_r, dot_vscale_l, A3.
    pose proof (Rmult_lt_0_compat _ _ VF (Rmult_lt_0_compat _ _ P C)). lra.
Qed.
(** A regressor which predicts no deviation: the distance to the attractor decreases. *)
Theorem C82_untrained : forall orth prox vmax ax ay x y, picks 2 orth -> 0 < prox -> 0 < vmax -> [x; y] <> [ax; ay] ->
  exists v, perpendicular_evaluate orth (fun _ _ _ => [0]) prox vmax [ax; ay] [x; y] = Ok v /\ dot [x - ax; y - ay] v < 0.
Proof.
  intros orth prox vmax ax ay x y HO Hp Hv NE. apply C82_approach; auto; [intros ? ? ?; reflexivity|].
  intros axis Ha NZ. set (rel := [x - ax; y - ay]) in *.
  assert (HP : regressor (fun _ _ _ => [0])) by (intros ? ? ?; reflexivity).
  assert (N0 : norm [0] = 0) by (apply (norm_vzero 1)).
  assert (E : perpendicular_prediction orth (fun _ _ _ => [0]) rel axis = perpendicular_axis axis (negb (Rltb (nth axis rel 0) 0))).
  { unfold perpendicular_prediction, limit_angle. rewrite N0. pose proof pmax. rewrite (proj2 (Rltb_false perpendicular_max_angle 0)) by lra.
    set (d := perpendicular_axis _ _). destruct (axis_unit axis (negb (Rltb (nth axis rel 0) 0))) as [L U]. fold d in L, U.
    destruct (HO d L U) as (LO & UO & OO).
    unfold angle_space_inverse, vector_from_angle. rewrite (embed_norm 2 d); [|simpl; repeat split; auto|auto].
    rewrite N0. destruct (Req_EM_T 0 0); [reflexivity|contradiction]. }
  rewrite E. unfold rel in *. destruct axis as [|[|?]]; [| |lia]; cbn [nth] in *; unfold perpendicular_axis;
    destruct (Rltb _ 0) eqn:Q; [apply Rltb_true in Q|apply Rltb_false in Q|apply Rltb_true in Q|apply Rltb_false in Q]; simpl; lra.
Qed.

(** The quarter turn. *)
Definition quarter (d : vec) : vec := match d with [a; b] => [- b; a] | _ => [] end.
Lemma quarter_angle orth null phi : length null = 2%nat -> unitv null -> 0 < phi < PI ->
  angle_in (mkBase null orth) (vadd (vscale (cos phi) null) (vscale (sin phi) (quarter null))) = Ok (vscale phi (quarter null)).
Proof.
  intros L U H. destruct null as [|a [|b [|? ?]]]; simpl in L; try lia. unfold unitv in U. simpl in U.
  set (u := vadd _ _). assert (S0 : 0 < sin phi) by (apply sin_gt_0; lra).
  assert (Eu : u = [cos phi * a + sin phi * - b; cos phi * b + sin phi * a]) by reflexivity.
  assert (AB : a * a + b * b = 1) by lra. pose proof (cos_sin_sq phi) as CS.
  assert (Uu : unitv u).
  { unfold unitv. rewrite Eu. simpl. replace 1 with ((a * a + b * b) * (cos phi * cos phi + sin phi * sin phi)) by (rewrite AB; lra). ring. }
  unfold angle_in. destruct (Req_EM_T (norm u) 0) as [Z|_]; [exfalso; apply (unit_norm_neq _ Uu); auto|].
  f_equal. rewrite (proj1 (unit_norm _) Uu). cbn [bs0 bs1]. rewrite vdiv_1. unfold angle_space.
  assert (D : dot [a; b] u = cos phi).
  { rewrite Eu. simpl. replace (cos phi) with ((a * a + b * b) * cos phi) at 3 by (rewrite AB; ring). ring. }
  rewrite D.
  assert (P : vsub u (vscale (cos phi) [a; b]) = vscale (sin phi) [- b; a]).
  { rewrite Eu. unfold vsub, vscale. simpl. f_equal; [|f_equal]; ring. }
  assert (N : norm (vscale (sin phi) [- b; a]) = sin phi).
  { rewrite norm_vscale, (norm2_is (- b) a 1) by lra. rewrite Rabs_right; lra. }
  rewrite P, N. destruct (Req_EM_T (sin phi) 0); [lra|]. rewrite acos_cos by lra.
  cbn [quarter]. unfold vscale. simpl. f_equal; [|f_equal]; field; lra.
Qed.
(** There are regressors, for every choice of the bases, with which the distance to the attractor
    grows although each prediction is limited. *)
Theorem C82_lyapunov_refuted : exists x y, forall orth, picks 2 orth ->
  exists predict v, regressor predict /\ perpendicular_evaluate orth predict 1 1 [0; 0] [x; y] = Ok v /\
    0 < dot (vsub [x; y] [0; 0]) v.
Proof.
  exists (sqrt 3 / 2), (1 / 2). intros orth HO.
  set (b := perpendicular_max_angle).
  exists (fun a s _ => [b * dot (quarter (perpendicular_axis a s)) (orth (perpendicular_axis a s))]).
  set (predict := fun (a : nat) (s : bool) (_ : vec) => [b * dot (quarter (perpendicular_axis a s)) (orth (perpendicular_axis a s))]).
  assert (HP : regressor predict) by (intros ? ? ?; reflexivity).
  assert (S3 : sqrt 3 * sqrt 3 = 3) by (apply sqrt_sqrt; lra).
  assert (S3p : 0 < sqrt 3) by (apply sqrt_lt_R0; lra).
  assert (S3u : sqrt 3 < 174 / 100).
  { apply Rnot_le_lt. intros Q. assert (174 / 100 * (174 / 100) <= sqrt 3 * sqrt 3) by (apply Rmult_le_compat; lra). lra. }
  pose proof PI_RGT_0 as PP. assert (Hb : b = PI * (49 / 100)) by reflexivity.
  (* the predictions *)
  assert (PR : forall rel axis, perpendicular_prediction orth predict rel axis =
     let d := perpendicular_axis axis (negb (Rltb (nth axis rel 0) 0)) in vadd (vscale (cos b) d) (vscale (sin b) (quarter d))).
  { intros rel axis. cbv zeta. unfold perpendicular_prediction. cbv zeta. set (s := negb _). set (d := perpendicular_axis axis s).
    destruct (axis_unit axis s) as [L U]. fold d in L, U. destruct (HO d L U) as (LO & UO & OO).
    unfold predict. fold d.
    assert (Q : exists e, (e = 1 \/ e = -1) /\ orth d = vscale e (quarter d)).
    { unfold unitv in *. destruct d as [|p [|q [|? ?]]]; simpl in L; try lia.
      destruct (orth [p; q]) as [|m [|k [|? ?]]]; simpl in LO; try lia. simpl in *.
      assert (E1 : p * m + q * k = 0) by lra. assert (E2 : p * p + q * q = 1) by lra. assert (E3 : m * m + k * k = 1) by lra.
      exists (p * k - q * m). split.
      - assert ((p * k - q * m) * (p * k - q * m) = 1).
        { replace 1 with ((p * p + q * q) * (m * m + k * k) - (p * m + q * k) * (p * m + q * k)) by (rewrite E1, E2, E3; ring). ring. }
        assert ((p * k - q * m - 1) * (p * k - q * m + 1) = 0) by lra.
        apply Rmult_integral in H0. lra.
      - assert (M : m = - (q * (p * k - q * m))).
        { replace m with (m * (p * p + q * q) - p * (p * m + q * k)) at 1 by (rewrite E1, E2; ring). ring. }
        assert (K : k = p * (p * k - q * m)).
        { replace k with (k * (p * p + q * q) - q * (p * m + q * k)) at 1 by (rewrite E1, E2; ring). ring. }
        unfold vscale. simpl. f_equal; [|f_equal]; lra. }
    destruct Q as (e & He & Oe). rewrite Oe.
    assert (QQ : dot (quarter d) (quarter d) = 1).
    { unfold unitv in U. destruct d as [|p [|q [|? ?]]]; simpl in L; try lia. simpl in *. lra. }
    assert (LQ : length (quarter d) = 2%nat) by (destruct d as [|p [|q [|? ?]]]; simpl in L; try lia; reflexivity).
    autorewrite with vdot. rewrite QQ.
    assert (NA : norm [b * (e * 1)] = b).
    { unfold norm. simpl. replace (b * (e * 1) * (b * (e * 1)) + 0) with (b * b) by (destruct He as [-> | ->]; ring).
      apply sqrt_square. lra. }
    unfold limit_angle. rewrite NA. rewrite (proj2 (Rltb_false _ _)) by (fold b; lra).
    assert (EM : embed 2 [vscale e (quarter d)] [b * (e * 1)] = vscale b (quarter d)).
    { unfold embed, weighted_columns. simpl fold_right. destruct He as [-> | ->]; vext; ring. }
    unfold angle_space_inverse. rewrite EM. unfold vector_from_angle.
    assert (NB : norm (vscale b (quarter d)) = b).
    { rewrite norm_vscale, (proj1 (unit_norm _) QQ), Rabs_right; lra. }
    rewrite NB. destruct (Req_EM_T b 0); [lra|]. f_equal. vext. field. lra. }
  set (rel := [sqrt 3 / 2; 1 / 2]).
  assert (NR : norm rel = 1) by (apply norm2_is; [lra|]; field_simplify_eq; replace (sqrt 3 ^ 2) with 3 by (simpl; lra); lra).
  set (null := [- (sqrt 3 / 2); - (1 / 2)]).
  assert (Ln : length null = 2%nat) by reflexivity.
  assert (Un : unitv null) by (unfold unitv, null; simpl; field_simplify_eq; replace (sqrt 3 ^ 2) with 3 by (simpl; lra); lra).
  set (w1 := 1 / (sqrt 3 + 1)).
  assert (P0 : perpendicular_prediction orth predict rel 0 =
     vadd (vscale (cos (b - PI / 6)) null) (vscale (sin (b - PI / 6)) (quarter null))).
  { rewrite PR. cbv zeta. unfold rel. cbn [nth]. rewrite (proj2 (Rltb_false _ _)) by lra. cbn [negb]. unfold perpendicular_axis, null. simpl.
    rewrite cos_minus, sin_minus, cos_PI6, sin_PI6. unfold vscale. simpl.
    f_equal; [|f_equal]; field_simplify_eq; replace (sqrt 3 ^ 2) with 3 by (simpl; lra); ring. }
  assert (P1 : perpendicular_prediction orth predict rel 1 =
     vadd (vscale (cos (b + PI / 3)) null) (vscale (sin (b + PI / 3)) (quarter null))).
  { rewrite PR. cbv zeta. unfold rel. cbn [nth]. rewrite (proj2 (Rltb_false _ _)) by lra. cbn [negb]. unfold perpendicular_axis, null. simpl.
    rewrite cos_plus, sin_plus, cos_PI3, sin_PI3. unfold vscale. simpl.
    f_equal; [|f_equal]; field_simplify_eq; replace (sqrt 3 ^ 2) with 3 by (simpl; lra); ring. }
  set (t := b - PI / 6 + w1 * (PI / 2)).
  assert (W1 : 36 / 100 < w1 < 1).
  { unfold w1, Rdiv. rewrite Rmult_1_l. split.
    - apply Rmult_lt_reg_r with (sqrt 3 + 1); [lra|]. rewrite Rinv_l; lra.
    - apply Rmult_lt_reg_r with (sqrt 3 + 1); [lra|]. rewrite Rinv_l; lra. }
  assert (T : PI / 2 < t < PI) by (unfold t; rewrite Hb; nra).
  assert (LQ : length (quarter null) = 2%nat) by reflexivity.
  assert (UQ : norm (quarter null) = 1).
  { unfold quarter, null. apply norm2_is; [lra|]. field_simplify_eq. replace (sqrt 3 ^ 2) with 3 by (simpl; lra). lra. }
  assert (RV : vsub rel [0; 0] = rel) by (unfold rel; rewrite vsub2; f_equal; [|f_equal]; ring).
  exists (vscale 1 (vadd (vscale (cos t) null) (vscale (sin t) (quarter null)))).
  split; auto. split.
  - unfold perpendicular_evaluate. rewrite RV, NR. destruct (Req_EM_T 1 0); [lra|]. cbv zeta.
    replace (vscale (-1) (vdiv rel 1)) with null by (unfold null, rel, vdiv, vscale; simpl; f_equal; [|f_equal]; field).
    assert (W : axis_weights rel = Ok [1 - w1; w1]).
    { unfold axis_weights, rel, rsum. cbn [map fold_right]. rewrite !Rabs_right by lra.
      destruct (Req_EM_T _ 0); [lra|]. f_equal. unfold w1. f_equal; [|f_equal]; field; lra. }
    rewrite W. cbn [bind]. unfold directional_weighted_sum. cbn [map mapM]. rewrite P0, P1.
    rewrite !quarter_angle by (auto; rewrite Hb; lra). cbn [bind mapM]. cbn [bs0 combine fold_right fst snd]. rewrite Ln.
    assert (SUM : vadd (vscale (1 - w1) (vscale (b - PI / 6) (quarter null)))
                    (vadd (vscale w1 (vscale (b + PI / 3) (quarter null))) (vzero 2)) = vscale t (quarter null)).
    { unfold t. vext. field. }
    rewrite SUM. unfold vector_from_angle. rewrite norm_vscale, UQ, Rabs_right by lra.
    destruct (Req_EM_T (t * 1) 0); [lra|]. f_equal. unfold velocity_factor.
    replace (Rmin 1 (1 / 1) * 1) with 1 by (rewrite Rmin_left; lra). f_equal. rewrite Rmult_1_r. f_equal. vext. field. lra.
  - rewrite RV. replace rel with (vscale (-1) null) by (unfold null, rel, vscale; simpl; f_equal; [|f_equal]; ring).
    autorewrite with vdot. unfold unitv in Un. rewrite Un.
    replace (dot null (quarter null)) with 0 by (unfold null; simpl; ring).
    assert (cos t < 0) by (apply cos_lt_0; lra). lra.
Qed.
(** The fit fails in every dimension other than two. *)
Theorem C82_fit_dimension : forall dimension, (1 <= dimension)%nat ->
  perpendicular_fit dimension = (if Nat.eqb dimension 2 then Ok tt else Err EIndex).
Proof.
  intros d Hd. unfold perpendicular_fit.
  assert (FE : forall l e, fold_left (fun (acc : res unit) axis => do _ <- acc; do _ <- null_matrix_slot d axis 0; null_matrix_slot d axis 1) l (Err e) = Err e).
  { induction l; intros; simpl; auto. }
  destruct d as [|[|[|d]]]; [lia|reflexivity|reflexivity|].
  exact (FE (seq 3 d) EIndex).
Qed.
(** The limit of the speed is not applied to the convergence velocity. *)
Theorem C82_convergence_limit_refuted : exists attractor position, forall prox vmax, 0 < prox -> 0 < vmax < 1 ->
  velocity_factor prox vmax (norm (vsub position attractor)) < norm (perpendicular_convergence attractor position).
Proof.
  exists [0; 0], [5; 0]. intros prox vmax Hp Hv. unfold perpendicular_convergence, velocity_factor. rewrite !vsub2.
  rewrite (norm2_is (0 - 5) (0 - 0) 5) by lra. rewrite (norm2_is (5 - 0) (0 - 0) 5) by lra.
  pose proof (Rmin_l 1 (5 / prox)). nra.
Qed.
Example C82_case : exists v, perpendicular_evaluate (fun d => quarter d) (fun _ _ _ => [3]) 1 2 [0; 0] [3; 4] = Ok v /\ norm v = 2.
Proof.
  assert (PQ : picks 2 (fun d => quarter d)).
  { intros d L U. destruct d as [|p [|q [|? ?]]]; simpl in L; try lia. unfold unitv in *. simpl in *. repeat split; lra. }
  destruct (C82_speed (fun d => quarter d) (fun _ _ _ => [3]) 1 2 0 0 3 4) as (v & E & N); auto; try lra.
  - intros ? ? ?. reflexivity.
  - exists v. split; auto. rewrite N, (norm2_is (3 - 0) (4 - 0) 5) by lra. rewrite Rmin_left; lra.
Qed.
Print Assumptions C81_speed_and_progress.
Print Assumptions C81_exact_deviation.
Print Assumptions C81_executions.
Print Assumptions C81_check_needed.
Print Assumptions C82_predictions.
Print Assumptions C82_speed.
Print Assumptions C82_approach.
Print Assumptions C82_untrained.
Print Assumptions C82_lyapunov_refuted.
Print Assumptions C82_fit_dimension.
Print Assumptions C82_convergence_limit_refuted.
