(** Properties C100-C104: the learned mixture on batches of samples, the demonstrations, the
    integration, the Gaussian of a component and the velocities used for the training. *)
Require Import Reals List Lra Lia Psatz Bool.
From Verif Require Import Base Vec Angle Pow RotModel Spec RotProofs ProjModel PropProject DynModel RotAvoidModel RotAvoidProofs
  FoldModel FoldProofs FieldModel PropDeviation PropRegress GmmModel PropGmm.
Import ListNotations.
Open Scope R_scope.

(** ** C100: batches of samples *)
Lemma nth_firstn_lt {A} (l : list A) : forall k i d, (i < k)%nat -> nth i (firstn k l) d = nth i l d.
Proof. induction l as [|a l IH]; intros [|k] [|i] d H; try lia; auto. simpl. apply IH. lia. Qed.
Lemma nth_skipn_plus {A} (l : list A) : forall k i d, nth i (skipn k l) d = nth (k + i) l d.
Proof. induction l as [|a l IH]; intros [|k] i d; auto. { destruct i; auto. } simpl. apply IH. Qed.
Lemma crop_nth k rows i : (i < length rows)%nat ->
  nth i (crop k rows) [] = if andb (Nat.leb k i) (Nat.ltb i (2 * k)) then crop_row (nth i rows []) else nth i rows [].
Proof.
  intros L. unfold crop. destruct (Nat.ltb i k) eqn:C.
  - apply Nat.ltb_lt in C. rewrite app_nth1 by (rewrite firstn_length; lia). rewrite nth_firstn_lt by auto.
    replace (Nat.leb k i) with false by (symmetry; apply Nat.leb_gt; auto). auto.
  - apply Nat.ltb_ge in C. rewrite (proj2 (Nat.leb_le k i)) by auto. rewrite app_nth2 by (rewrite firstn_length; lia).
    rewrite firstn_length, Nat.min_l by lia. cbn [andb]. destruct (Nat.ltb i (2 * k)) eqn:C2.
    + apply Nat.ltb_lt in C2. rewrite app_nth1 by (rewrite map_length, firstn_length, skipn_length; lia).
      rewrite (nth_indep _ [] (crop_row [])) by (rewrite map_length, firstn_length, skipn_length; lia).
      rewrite map_nth, nth_firstn_lt by lia. rewrite nth_skipn_plus. f_equal. f_equal. lia.
    + apply Nat.ltb_ge in C2. rewrite app_nth2 by (rewrite map_length, firstn_length, skipn_length; lia).
      rewrite map_length, firstn_length, skipn_length, Nat.min_l by lia. rewrite !nth_skipn_plus. f_equal. lia.
Qed.
Lemma crop_length k rows : length (crop k rows) = length rows.
Proof. unfold crop. rewrite !app_length, map_length, !firstn_length, !skipn_length. lia. Qed.
Lemma crop_short k rows : (forall r, In r rows -> norm r <= 1) -> crop k rows = rows.
Proof.
  intros H. apply (nth_ext _ _ [] []); [apply crop_length|]. intros i L. rewrite crop_length in L. rewrite crop_nth by auto.
  destruct (andb _ _); auto. unfold crop_row. rewrite (proj2 (Rltb_false _ _)); auto. apply H, nth_In. auto.
Qed.
Lemma mapM_repeat {A B} (f : A -> res B) x y k : f x = Ok y -> mapM f (repeat x k) = Ok (repeat y k).
Proof. intros E. induction k as [|k IH]; auto. cbn [repeat mapM]. rewrite E, IH. auto. Qed.
Lemma rsum_repeat x k : rsum (repeat x k) = INR k * x.
Proof. induction k as [|k IH]; [simpl; ring|]. cbn [repeat]. rewrite S_INR. change (rsum (x :: repeat x k)) with (x + rsum (repeat x k)). rewrite IH. ring. Qed.
Lemma map_repeat' {A B} (f : A -> B) x k : map f (repeat x k) = repeat (f x) k.
Proof. induction k; simpl; congruence. Qed.
Lemma combine_repeat {A B} (x : A) (y : B) k : combine (repeat x k) (repeat y k) = repeat (x, y) k.
Proof. induction k; simpl; congruence. Qed.
Lemma weighted_columns_scale n c ws cs : Forall (fun x => length x = n) cs ->
  weighted_columns n (map (fun w => c * w) ws) cs = vscale c (weighted_columns n ws cs).
Proof.
  unfold weighted_columns. intros F. revert ws. induction F as [|x cs L F IH]; intros [|w ws]; cbn [map combine fold_right fst snd];
    try (symmetry; apply vscale_vzero). rewrite IH. vext. ring.
Qed.

Section Batch.
Variable det : list vec -> R.
Variable pinv : list vec -> list vec.
Variable columns : vec -> list vec.
Lemma predict_rows_length m rows angles a : predict_rows det pinv m rows = Ok angles -> In a angles -> length a = (gm_space m - 1)%nat.
Proof.
  unfold predict_rows. destruct rows as [|r0 rows]; [discriminate|]. destruct (mapM _ _) as [betas|] eqn:E; [|discriminate]. cbn [bind].
  destruct (Req_EM_T _ 0); [discriminate|]. destruct (fpow _ _); [|discriminate]. cbn [bind]. intros H I. injection H as <-.
  apply in_map_iff in I. destruct I as (bx & <- & _). rewrite feat_out_length. apply weighted_columns_ok.
  unfold sample_means. apply Forall_app. split.
  - apply Forall_forall. intros v J. apply in_map_iff in J. destruct J as (g & <- & _). rewrite conditional_length. apply feat_out_length.
  - destruct (gm_converge m); auto. constructor; auto. rewrite length_vzero. apply feat_out_length.
Qed.
(** A batch of one sample is predicted like the sample. *)
Theorem C100_one_sample : forall m x arg, (1 <= gm_space m)%nat -> length x = gm_space m ->
  predict_array det pinv columns m [x] arg =
  (fst (predict det pinv columns m x arg), [x], do v <- snd (predict det pinv columns m x arg); Ok [v]).
Proof.
  intros m x arg D LX. unfold predict_array, predict. cbn [fst snd]. set (m' := with_argument m arg).
  assert (SP : gm_space m' = gm_space m) by (unfold m'; destruct arg; auto). rewrite SP.
  rewrite crop_few by (simpl; auto). f_equal. destruct (predict_rows det pinv m' [x]) as [angles|e] eqn:E; auto. cbn [bind].
  assert (L1 : length angles = 1%nat).
  { revert E. unfold predict_rows. rewrite crop_few by (rewrite SP; auto). cbn [mapM]. destruct (sample_weights _ _ _ _ _); [|discriminate]. cbn [bind].
    destruct (Req_EM_T _ 0); [discriminate|]. destruct (fpow _ _); [|discriminate]. cbn [bind]. intros H. injection H as <-. auto. }
  destruct angles as [|a [|]]; try discriminate. cbn [combine mapM fst snd].
  pose proof (predict_rows_length m' [x] [a] a E ltac:(left; auto)) as La. rewrite SP in La.
  rewrite (firstn_all2 x) by lia. rewrite (firstn_all2 a) by lia. destruct (turned _ _ _ _); auto.
Qed.
(** The weights are divided by their sum over all samples: in a batch of [k] equal samples the
    learned angle is scaled by k^(power-1). *)
Theorem C100_equal_samples : forall m x k a, mixture_ok det m (length x) -> gm_converge m = false -> (1 <= k)%nat ->
  norm x <= 1 -> predict_rows det pinv m [x] = Ok [a] ->
  predict_rows det pinv m (repeat x k) = Ok (repeat (vscale (Rpower (INR k) (gm_power m - 1)) a) k).
Proof.
  intros m x k a [F D] C K N E. destruct (C97_mixing_weights det pinv (gm_gauss m) (seq 0 (length x)) false 4 x F ltac:(lra)) as (w & c & Ew & _ & _ & _ & [S0 _] & _).
  assert (EW : sample_weights det pinv m (seq 0 (length x)) x = Ok w). { unfold sample_weights. rewrite Ew. cbn [bind]. rewrite C. auto. }
  rewrite (predict_one det pinv m x w D EW S0) in E. injection E as <-.
  destruct k as [|k]; [lia|]. unfold predict_rows. cbn [repeat]. change (x :: repeat x k) with (repeat x (S k)).
  rewrite crop_short. 2: { intros r I. apply repeat_spec in I. subst. auto. }
  rewrite (mapM_repeat _ x w) by auto. cbn [bind]. rewrite map_repeat', rsum_repeat. set (K1 := INR (S k)).
  assert (PK : 0 < K1) by (apply lt_0_INR; lia). assert (PS : 0 < K1 * rsum w) by nra.
  destruct (Req_EM_T (K1 * rsum w) 0); [lra|]. rewrite fpow_pos by auto. cbn [bind].
  rewrite map_repeat', combine_repeat, map_repeat'. cbn [fst snd]. rewrite feat_out_length.
  match goal with |- Ok (repeat ?a _) = Ok (?b :: _) => replace b with a; [reflexivity|] end.
  rewrite <- weighted_columns_scale.
  - f_equal. rewrite map_map. apply map_ext. intros b. rewrite <- Rpower_mult_distr by auto.
    replace (Rpower K1 (gm_power m - 1)) with (Rpower K1 (gm_power m) / K1).
    + field. lra.
    + unfold Rminus. rewrite Rpower_plus, Rpower_Ropp, Rpower_1 by auto. auto.
  - unfold sample_means. rewrite C, app_nil_r. apply Forall_forall. intros v J. apply in_map_iff in J. destruct J as (g & <- & _).
    rewrite conditional_length. apply feat_out_length.
Qed.
(** Hence the samples of a batch are not predicted on their own: the same sample twice. *)
Theorem C100_independent_refuted : 0 < det [[1; 0]; [0; 1]] -> bases columns 2 ->
  exists m x v w, mixture_ok det m 2 /\ length x = 2%nat /\
    snd (predict det pinv columns m x default_argument) = Ok v /\
    snd (predict_array det pinv columns m [x; x] default_argument) = Ok [w; w] /\
    dot (vsub (gm_attractor m) x) v < 0 < dot (vsub (gm_attractor m) x) w.
Proof.
  intros HD HB. pose proof (turning_ok det HD) as F. set (m := set_converge turning_mixture false) in *. set (x := [1; 0]).
  assert (N1 : norm x = 1). { unfold norm, x. cbn. replace (1 * 1 + (0 * 0 + 0)) with 1 by ring. apply sqrt_1. }
  assert (ND : norm (vsub [0; 0] x) = 1).
  { unfold norm, x, vsub. cbn. replace ((0 + -1 * 1) * (0 + -1 * 1) + ((0 + -1 * 0) * (0 + -1 * 0) + 0)) with 1 by ring. apply sqrt_1. }
  pose proof (turning_predict det pinv x HD eq_refl) as P1. fold m in P1.
  pose proof (C100_equal_samples m x 2 [3] F eq_refl ltac:(lia) ltac:(lra) P1) as P2. cbn [repeat] in P2.
  change (gm_power m) with 0 in P2. replace (Rpower (INR 2) (0 - 1)) with (1 / 2) in P2.
  2: { replace (0 - 1) with (- (1)) by ring. simpl INR. rewrite Rpower_Ropp, Rpower_1 by lra. field. }
  replace (vscale (1 / 2) [3]) with [3 / 2] in P2 by (cbn; f_equal; field).
  assert (T : forall t, exists v, turned columns m x [t] = Ok v /\ dot (direction (vsub [0; 0] x)) v = cos (norm [t])).
  { intros t. destruct (turned_spec columns m x [t]) as (v & Ev & _ & _ & C); auto.
    { change (gm_attractor m) with [0; 0]. lra. } exists v. auto. }
  destruct (T 3) as (v & Ev & Cv). destruct (T (3 / 2)) as (w & Ew & Cw). rewrite norm_one in Cv, Cw by lra.
  unfold direction in Cv, Cw. rewrite ND, Rinv_1, dot_vscale_l, Rmult_1_l in Cv, Cw.
  exists m, x, v, w. split; auto. split; auto. unfold predict, predict_array, default_argument. cbn [with_argument snd].
  change (set_converge m false) with m. rewrite P1, P2. cbn [bind]. split; [exact Ev|]. split.
  { rewrite crop_few by (simpl; auto). cbn [combine mapM fst snd]. rewrite Ew. auto. }
  change (gm_attractor m) with [0; 0]. rewrite Cv, Cw. split; [apply cos_3_neg|]. apply cos_gt_0; [pose proof PI_RGT_0; lra|].
  pose proof PI2_3_2. lra.
Qed.
(** The array of the caller is changed: of the samples [dim_space] to [2 dim_space], the ones
    further than one from the origin are replaced by their direction. *)
Theorem C100_overwritten_refuted : forall m xs arg i, (gm_space m <= i < 2 * gm_space m)%nat -> (i < length xs)%nat ->
  1 < norm (nth i xs []) ->
  nth i (snd (fst (predict_array det pinv columns m xs arg))) [] = direction (nth i xs []) /\
  nth i (snd (fst (predict_array det pinv columns m xs arg))) [] <> nth i xs [].
Proof.
  intros m xs arg i D L N. unfold predict_array. cbn [fst snd].
  replace (gm_space (with_argument m arg)) with (gm_space m) by (destruct arg; auto). rewrite crop_nth by auto.
  rewrite (proj2 (Nat.leb_le _ _)), (proj2 (Nat.ltb_lt _ _)) by lia. cbn [andb]. unfold crop_row. rewrite (proj2 (Rltb_true _ _)) by auto.
  split; auto. intros E. set (r := nth i xs []) in *. assert (H : norm (vdiv r (norm r)) = norm r) by congruence.
  rewrite norm_vdiv in H by lra. lra.
Qed.
(** The other samples are left alone. *)
Theorem C100_kept : forall m xs arg i, (i < length xs)%nat -> (i < gm_space m \/ 2 * gm_space m <= i)%nat \/ norm (nth i xs []) <= 1 ->
  nth i (snd (fst (predict_array det pinv columns m xs arg))) [] = nth i xs [].
Proof.
  intros m xs arg i L H. unfold predict_array. cbn [fst snd].
  replace (gm_space (with_argument m arg)) with (gm_space m) by (destruct arg; auto). rewrite crop_nth by auto.
  destruct (andb _ _) eqn:E; auto. apply andb_prop in E. destruct E as [E1 E2]. apply Nat.leb_le in E1. apply Nat.ltb_lt in E2.
  destruct H as [H|H]; [lia|]. unfold crop_row. rewrite (proj2 (Rltb_false _ _)) by auto. auto.
Qed.
End Batch.

(** ** C101: the demonstrations *)
Lemma ortho_columns n b cols : ortho n b cols -> orthonormal_columns cols.
Proof. induction cols as [|c cols IH]; cbn [ortho orthonormal_columns]; auto. intros (_ & U & _ & F & O). auto. Qed.
Lemma frame_complete n b cols a : (1 <= n)%nat -> length b = n -> unitv b -> ortho n b cols -> length cols = (n - 1)%nat ->
  length a = n -> dot b a = 0 -> embed n cols (map (fun c => dot c a) cols) = a.
Proof.
  intros Hn Lb Ub O Lc La P. destruct (ortho_facts _ _ _ O) as [FL FP].
  assert (OM : orthogonal_matrix n (b :: cols)).
  { split; [simpl; lia|]. split; [constructor; auto|]. cbn [orthonormal_columns]. split; auto. split; auto. apply (ortho_columns n b); auto. }
  pose proof (orthogonal_complete n (b :: cols) OM a La) as K. unfold mat_t_vec in K. cbn [map FoldModel.mat_vec] in K. rewrite P in K.
  assert (Z : forall cs ws, weighted_columns n ws cs = FoldModel.mat_vec n cs ws).
  { clear. induction cs as [|c cs IH]; intros [|w ws]; auto. cbn [FoldModel.mat_vec]. rewrite <- IH. auto. }
  unfold embed. rewrite Z. etransitivity; [|exact K]. assert (L2 : length (FoldModel.mat_vec n cols (map (fun c => dot c a) cols)) = n) by (apply mat_vec_len; auto).
  vext. ring.
Qed.
Lemma embed_zero n k (c1 c2 : list vec) : norm (embed n c2 (map (fun c => dot c (vzero k)) c1)) = 0.
Proof.
  unfold embed, weighted_columns. revert c2. induction c1 as [|c c1 IH]; intros [|c' c2]; cbn [map combine fold_right fst snd]; try apply norm_vzero.
  rewrite dot_vzero_r. specialize (IH c2). revert IH. set (z := fold_right _ _ _). intros IH.
  pose proof (norm_triangle (vscale 0 c') z) as T. rewrite IH, norm_vscale, Rabs_R0 in T. pose proof (norm_nonneg (vadd (vscale 0 c') z)). lra.
Qed.
Section Demonstration.
Variable columns : vec -> list vec.
Lemma bases_pick n : (2 <= n)%nat -> bases columns n -> picks n (fun d => hd [] (columns d)).
Proof.
  intros Hn HB d Ld Ud. destruct (HB d Ld) as [O L]. { rewrite (proj1 (unit_norm d) Ud). lra. }
  destruct (columns d) as [|c cs]; [simpl in L; lia|]. destruct O as (A & B & C & _). cbn [hd]. split; auto. split; auto.
  unfold direction in C. rewrite dot_vscale_l in C. rewrite (proj1 (unit_norm d) Ud), Rinv_1, Rmult_1_l in C. auto.
Qed.
Lemma angle_any_pick p1 p2 d v : unitv d -> unitv v -> dot d v <> -1 -> angle_space p1 d v = angle_space p2 d v.
Proof. intros. rewrite !angle_space_log; auto. Qed.
(** With the attractor at the origin, the angle learned for a demonstrated velocity gives back the
    direction of the velocity (unless the demonstration moves exactly away from the attractor). *)
Theorem C101_reproduced : forall m x v, (2 <= gm_space m)%nat -> bases columns (gm_space m) ->
  gm_attractor m = vzero (gm_space m) -> length x = gm_space m -> length v = gm_space m -> norm x <> 0 -> norm v <> 0 ->
  dot (direction (vscale (-1) x)) (direction v) <> -1 ->
  exists a, learned_angle columns x v = Ok a /\ turned columns m x a = Ok (direction v).
Proof.
  intros m x v Hn HB HA Lx Lv Nx Nv NO. set (n := gm_space m) in *. set (d := vscale (-1) x) in *.
  assert (Nd : norm d <> 0) by (unfold d; rewrite norm_vscale, Rabs_left by lra; lra).
  assert (Ld : length d = n) by (unfold d; rewrite length_vscale; auto).
  unfold learned_angle. cbv zeta. fold d. destruct (Req_EM_T (norm d) 0); [contradiction|]. destruct (Req_EM_T (norm v) 0); [contradiction|].
  eexists. split; [reflexivity|]. unfold turned. cbv zeta. rewrite HA.
  replace (vsub (vzero n) x) with d. 2: { unfold d. vext. ring. }
  destruct (Req_EM_T (norm d) 0); [contradiction|]. f_equal. rewrite Ld. unfold angle_space_inverse.
  change (vdiv d (norm d)) with (dirof d). change (vdiv v (norm v)) with (dirof v). change (direction v) with (dirof v) in *.
  change (direction d) with (dirof d) in NO.
  assert (Ud : unitv (dirof d)) by (apply dirof_unit; auto). assert (Uv : unitv (dirof v)) by (apply dirof_unit; auto).
  assert (L1 : length (dirof d) = n) by (rewrite dirof_length; auto). assert (L2 : length (dirof v) = n) by (rewrite dirof_length; auto).
  rewrite (angle_any_pick _ (fun d => hd [] (columns d))) by auto. pose proof (bases_pick n Hn HB) as PK.
  destruct (angle_space_spec n _ PK (dirof d) (dirof v) L1 L2 Ud Uv) as (A1 & A2 & A3). destruct (HB d Ld Nd) as [O LC].
  rewrite (frame_complete n (dirof d)); auto; [|lia]. apply (vector_of_angle_of n _ PK); auto.
Qed.
(** With another attractor it does not: the demonstration which moves straight to the origin. *)
Theorem C101_other_attractor_refuted : forall m x, (2 <= gm_space m)%nat -> bases columns (gm_space m) ->
  length (gm_attractor m) = gm_space m -> length x = gm_space m -> norm x <> 0 -> x <> gm_attractor m ->
  direction (vsub (gm_attractor m) x) <> direction (vscale (-1) x) ->
  exists a w, learned_angle columns x (vscale (-1) x) = Ok a /\ turned columns m x a = Ok w /\ w <> direction (vscale (-1) x).
Proof.
  intros m x Hn HB LA Lx Nx NA NE. set (n := gm_space m) in *. set (d := vscale (-1) x) in *.
  assert (Nd : norm d <> 0) by (unfold d; rewrite norm_vscale, Rabs_left by lra; lra).
  assert (Ld : length d = n) by (unfold d; rewrite length_vscale; auto).
  assert (N0 : norm (vsub (gm_attractor m) x) <> 0). { intros Z. apply norm_vsub_0 in Z; [congruence|lia]. }
  unfold learned_angle. cbv zeta. fold d. destruct (Req_EM_T (norm d) 0); [contradiction|].
  assert (Ud : unitv (dirof d)) by (apply dirof_unit; auto). change (vdiv d (norm d)) with (dirof d).
  assert (Z : angle_space (fun _ => hd [] (columns d)) (dirof d) (dirof d) = vzero n).
  { unfold angle_space. unfold unitv in Ud. rewrite Ud. replace (vsub (dirof d) (vscale 1 (dirof d))) with (vzero n).
    2: { assert (length (dirof d) = n) by (rewrite dirof_length; auto). vext. ring. }
    rewrite norm_vzero. destruct (Req_EM_T 0 0); [|contradiction]. rewrite (proj2 (Rltb_false _ _)) by lra. rewrite dirof_length. congruence. }
  rewrite Z. eexists. exists (direction (vsub (gm_attractor m) x)). split; [reflexivity|]. split; auto.
  unfold turned. cbv zeta. destruct (Req_EM_T _ 0); [contradiction|]. f_equal. unfold angle_space_inverse, vector_from_angle.
  set (e := embed _ _ _). assert (Ze : norm e = 0).
  { apply embed_zero. }
  destruct (Req_EM_T (norm e) 0); [reflexivity|contradiction].
Qed.
End Demonstration.

(** The attractor of the mixture is the mean of the end points; a given one is refused. *)
Lemma mean_end_sum n total ends : Forall (fun e => length e = n) ends ->
  length (mean_end n total ends) = n /\
  forall i, nth i (mean_end n total ends) 0 = rsum (map (fun e => nth i e 0) ends) / INR total.
Proof.
  unfold mean_end. intros F. assert (G : forall acc, length acc = n ->
    length (fold_left (fun acc e => vadd acc (vdiv e (INR total))) ends acc) = n /\
    forall i, nth i (fold_left (fun acc e => vadd acc (vdiv e (INR total))) ends acc) 0 =
      nth i acc 0 + rsum (map (fun e => nth i e 0) ends) / INR total).
  { induction F as [|e ends Le F IH]; intros acc La; cbn [fold_left].
    - split; auto. intros i. simpl. unfold Rdiv. ring.
    - destruct (IH (vadd acc (vdiv e (INR total)))) as [A B]. { unfold vdiv. autorewrite with vlen. lia. }
      split; auto. intros i. rewrite B. unfold vdiv. autorewrite with vnth. simpl. unfold Rdiv, rsum. ring. }
  destruct (G (vzero n)) as [A B]; [apply length_vzero|]. split; auto. intros i. rewrite B, nth_vzero. ring.
Qed.
Theorem C101_attractor : forall n ends, Forall (fun e => length e = n) ends ->
  (exists a, gmm_attractor n ends None = Ok a /\ length a = n /\
    forall i, nth i a 0 = rsum (map (fun e => nth i e 0) ends) / INR (length ends)) /\
  forall given, gmm_attractor n ends (Some given) = Err EName.
Proof.
  intros n ends F. split; auto. eexists. split; [reflexivity|]. apply mean_end_sum. auto.
Qed.
(** Gaussian process and support vector learners leave the first demonstration out of the sum, not
    out of the number: if all demonstrations end at [e], the attractor is closer to the origin. *)
Theorem C101_first_left_out_refuted : forall n e k, length e = n -> norm e <> 0 -> (1 <= k)%nat ->
  gpr_attractor n (repeat e k) = vscale ((INR k - 1) / INR k) e /\
  svr_attractor n (repeat e k) None = gpr_attractor n (repeat e k) /\ gpr_attractor n (repeat e k) <> e.
Proof.
  intros n e k Le Ne Hk. assert (PK : 0 < INR k) by (apply lt_0_INR; lia).
  assert (E : gpr_attractor n (repeat e k) = vscale ((INR k - 1) / INR k) e).
  { unfold gpr_attractor. rewrite repeat_length. destruct k as [|k]; [lia|]. cbn [repeat tl].
    destruct (mean_end_sum n (S k) (repeat e k)) as [A B]. { apply Forall_forall. intros y I. apply repeat_spec in I. subst. auto. }
    apply vec_ext; [rewrite length_vscale; congruence|]. intros i. rewrite B, map_repeat', rsum_repeat. autorewrite with vnth. rewrite S_INR. field.
    rewrite <- S_INR. lra. }
  split; auto. split; auto. rewrite E. intros H. assert (N : norm (vscale ((INR k - 1) / INR k) e) = norm e) by congruence.
  rewrite norm_vscale in N. assert (Rabs ((INR k - 1) / INR k) = 1) by (apply Rmult_eq_reg_r with (norm e); lra).
  assert (0 <= (INR k - 1) / INR k). { apply Rmult_le_pos; [|left; apply Rinv_0_lt_compat; auto]. assert (1 <= INR k) by (apply (le_INR 1); auto). lra. }
  rewrite Rabs_right in H0 by lra. assert ((INR k - 1) / INR k * INR k = INR k) by (rewrite H0; ring).
  unfold Rdiv in H2. rewrite Rmult_assoc, Rinv_l in H2 by lra. lra.
Qed.

(** ** C102: the integration of trajectories *)
Lemma integrate_steps_spec ds dt margin dim k : forall x,
  length (integrate_steps ds dt margin dim k x) = k /\
  exists s, (s <= k)%nat /\
    (forall j, (j < s)%nat -> nth (S j) (x :: integrate_steps ds dt margin dim k x) [] =
                              rk4 dt (nth j (x :: integrate_steps ds dt margin dim k x) []) ds 1) /\
    (forall j, (1 <= j < s)%nat -> margin <= norm (nth j (x :: integrate_steps ds dt margin dim k x) [])) /\
    ((s < k)%nat -> (1 <= s)%nat /\ norm (nth s (x :: integrate_steps ds dt margin dim k x) []) < margin) /\
    (forall j, (s < j <= k)%nat -> nth j (x :: integrate_steps ds dt margin dim k x) [] = vzero dim).
Proof.
  induction k as [|k IH]; intros x.
  - split; auto. exists 0%nat. split; auto. repeat split; intros; lia.
  - cbn [integrate_steps]. set (y := rk4 dt x ds 1). destruct (Rltb (norm y) margin) eqn:E.
    + apply Rltb_true in E. split; [simpl; rewrite repeat_length; auto|]. exists 1%nat. split; [lia|]. split; [|split; [|split]].
      * intros j H. assert (j = 0)%nat by lia. subst. reflexivity.
      * intros; lia.
      * intros _. split; auto.
      * intros j H. destruct j as [|[|j]]; try lia. cbn [nth]. destruct (Nat.lt_ge_cases j k) as [L|L]; [|lia].
        assert (I : In (nth j (repeat (vzero dim) k) []) (repeat (vzero dim) k)) by (apply nth_In; rewrite repeat_length; auto).
        apply repeat_spec in I. auto.
    + apply Rltb_false in E. destruct (IH y) as (L & s & S1 & S2 & S3 & S4 & S5). split; [simpl; auto|].
      exists (S s). split; [lia|]. split; [|split; [|split]].
      * intros [|j] H; [reflexivity|]. change (nth (S (S j)) (x :: y :: integrate_steps ds dt margin dim k y) []) with (nth (S j) (y :: integrate_steps ds dt margin dim k y) []).
        change (nth (S j) (x :: y :: integrate_steps ds dt margin dim k y) []) with (nth j (y :: integrate_steps ds dt margin dim k y) []). apply S2. lia.
      * intros [|j] H; [lia|]. cbn [nth]. destruct j as [|j]; [cbn; lra|]. apply (S3 (S j)). lia.
      * intros H. split; [lia|]. apply S4. lia.
      * intros [|j] H; [lia|]. apply (S5 j). lia.
Qed.
(** From the recorded starting points: Runge-Kutta steps up to the first point within the margin of
    the origin, then zeros. *)
Theorem C102_trajectories : forall ds dt margin dim n_steps k recorded, (1 <= n_steps)%nat -> (k <= length recorded)%nat ->
  exists ts, integrate_trajectory ds dt margin dim n_steps k recorded None = Ok ts /\ length ts = k /\
    forall i, (i < k)%nat -> let t := nth i ts [] in
      length t = n_steps /\ nth 0 t [] = nth i recorded [] /\
      exists s, (s < n_steps)%nat /\
        (forall j, (j < s)%nat -> nth (S j) t [] = rk4 dt (nth j t []) ds 1) /\
        (forall j, (1 <= j < s)%nat -> margin <= norm (nth j t [])) /\
        ((s < n_steps - 1)%nat -> (1 <= s)%nat /\ norm (nth s t []) < margin) /\
        (forall j, (s < j < n_steps)%nat -> nth j t [] = vzero dim).
Proof.
  intros ds dt margin dim n_steps k recorded Hn Hk. unfold integrate_trajectory.
  rewrite (proj2 (Nat.ltb_ge _ _)) by auto. eexists. split; [reflexivity|]. split. { rewrite map_length, firstn_length. lia. }
  intros i Hi. set (t := nth i (map (trajectory ds dt margin dim n_steps) (firstn k recorded)) []). assert (T : t = trajectory ds dt margin dim n_steps (nth i recorded [])).
  { unfold t. rewrite (nth_indep _ [] (trajectory ds dt margin dim n_steps [])) by (rewrite map_length, firstn_length; lia).
    rewrite map_nth, nth_firstn_lt by auto. auto. }
  rewrite T. unfold trajectory. destruct (integrate_steps_spec ds dt margin dim (n_steps - 1) (nth i recorded [])) as (L & s & S1 & S2 & S3 & S4 & S5).
  split; [simpl; lia|]. split; auto. exists s. split; [lia|]. split; auto. split; auto. split; auto.
  intros j H. apply S5. lia.
Qed.
(** Given starting points are only counted: the trajectories start at the origin. *)
Theorem C102_starting_points_refuted : forall ds dt margin dim n_steps k recorded points, exists ts,
  integrate_trajectory ds dt margin dim n_steps k recorded (Some points) = Ok ts /\ length ts = length points /\
  (forall i, (i < length points)%nat -> nth 0 (nth i ts []) [] = vzero dim /\
     (norm (nth i points []) <> 0 -> nth 0 (nth i ts []) [] <> nth i points [])) /\
  forall points', length points' = length points ->
    integrate_trajectory ds dt margin dim n_steps k recorded (Some points') = Ok ts.
Proof.
  intros. eexists. split; [reflexivity|]. split; [apply map_length|]. split.
  - intros i Hi. assert (E : nth 0 (nth i (map (fun _ => trajectory ds dt margin dim n_steps (vzero dim)) points) []) [] = vzero dim).
    { revert i Hi. induction points as [|p ps IH]; intros i Hi; [simpl in Hi; lia|]. destruct i as [|i]; [reflexivity|].
      cbn [map nth]. apply IH. simpl in Hi. lia. }
    split; auto. intros N H. apply N. rewrite <- H, E. apply norm_vzero.
  - intros points' L. unfold integrate_trajectory. f_equal. revert points' L. induction points as [|p ps IH]; intros [|q qs] L; try discriminate; auto.
    simpl in L. cbn [map]. f_equal. apply IH. lia.
Qed.
(** The trajectories of the mixture itself are never computed. *)
Theorem C102_mixture_refuted : forall k, (1 <= k)%nat -> gmm_integrate_trajectory k None = Err EAttr.
Proof. intros k H. unfold gmm_integrate_trajectory. rewrite (proj2 (Nat.ltb_lt _ _)) by lia. auto. Qed.

(** ** C103: the Gaussian of a component *)
Section Gaussian.
Variable det : list vec -> R.
Variable pinv : list vec -> list vec.
Theorem C103_gaussian : forall feat_in g, 0 < det (submatrix feat_in feat_in (g_cov g)) ->
  (forall d, 0 <= dot d (mat_vec (pinv (submatrix feat_in feat_in (g_cov g))) d)) ->
  let mean := select feat_in (g_mean g) in
  forall u, length u = length feat_in ->
  exists p q, gaussian_probability det pinv feat_in (vadd mean u) g = Ok p /\
    gaussian_probability det pinv feat_in (vsub mean u) g = Ok p /\
    gaussian_probability det pinv feat_in mean g = Ok q /\ 0 < p <= q.
Proof.
  intros feat_in g HD HP mean u Lu. set (c := submatrix feat_in feat_in (g_cov g)) in *.
  assert (Lm : length mean = length feat_in) by (apply map_length).
  assert (E : forall x, gaussian_probability det pinv feat_in x g =
    Ok (1 / (Rpower (2 * PI) (INR (length x) * / 2) * sqrt (det c)) * exp (- dot (vsub x mean) (mat_vec (pinv c) (vsub x mean))))).
  { intros x. unfold gaussian_probability. cbv zeta. fold c mean. rewrite (proj2 (Rleb_false _ _)) by auto. auto. }
  rewrite !E. replace (vsub (vadd mean u) mean) with u. 2: { vext. ring. }
  replace (vsub (vsub mean u) mean) with (vscale (-1) u). 2: { vext. ring. }
  replace (vsub mean mean) with (vzero (length mean)). 2: { vext. ring. }
  replace (length (vadd mean u)) with (length mean) by (autorewrite with vlen; lia).
  replace (length (vsub mean u)) with (length mean) by (autorewrite with vlen; lia).
  assert (M : mat_vec (pinv c) (vscale (-1) u) = vscale (-1) (mat_vec (pinv c) u)).
  { unfold mat_vec, vscale at 2. rewrite map_map. apply map_ext. intros r. apply dot_vscale_r. }
  rewrite M, dot_vscale_l, dot_vscale_r, dot_vzero_l. eexists. eexists. split; [reflexivity|]. split. { do 4 f_equal. ring. }
  split; [reflexivity|]. set (k := 1 / _). assert (PK : 0 < k).
  { unfold k. apply Rdiv_lt_0_compat; [lra|]. apply Rmult_lt_0_compat; [apply Rpower_pos|apply sqrt_lt_R0; auto]. }
  split; [apply Rmult_lt_0_compat; auto; apply exp_pos|]. apply Rmult_le_compat_l; [lra|].
  specialize (HP u). destruct (Req_dec (dot u (mat_vec (pinv c) u)) 0) as [Z|Z]; [rewrite Z; lra|]. left. apply exp_increasing. lra.
Qed.
(** The mean of the outputs moves along the covariance of outputs and inputs. *)
Theorem C103_conditional : forall feat_in feat_out g u,
  let c := submatrix feat_in feat_in (g_cov g) in length u = length feat_in ->
  mat_vec (pinv c) (mat_vec c u) = u ->
  conditional_mean pinv feat_in feat_out (vadd (select feat_in (g_mean g)) (mat_vec c u)) g =
  vadd (select feat_out (g_mean g)) (mat_vec (submatrix feat_out feat_in (g_cov g)) u).
Proof.
  intros feat_in feat_out g u c Lu H. unfold conditional_mean. cbv zeta. fold c.
  assert (Lc : length (mat_vec c u) = length feat_in) by (unfold mat_vec, c, submatrix; rewrite !map_length; auto).
  assert (Lm : length (select feat_in (g_mean g)) = length feat_in) by (apply map_length).
  replace (vsub (vadd (select feat_in (g_mean g)) (mat_vec c u)) (select feat_in (g_mean g))) with (mat_vec c u). 2: { vext. ring. }
  rewrite H. auto.
Qed.
(** The value is not the density of the normal distribution with the fitted variance: the factor
    one half of the exponent is missing. *)
Definition normal_density (mu var x : R) : R := / sqrt (2 * PI * var) * exp (- ((x - mu) * (x - mu) / (2 * var))).
Theorem C103_density_refuted : forall w mu var x, (forall a, 0 < a -> det [[a]] = a /\ pinv [[a]] = [[/ a]]) -> 0 < var -> x <> mu ->
  exists p, gaussian_probability det pinv [0%nat] [x] (mkG w [mu] [[var]]) = Ok p /\
    p < normal_density mu var x /\ p = normal_density mu (var / 2) x / sqrt 2.
Proof.
  intros w mu var x HD V N. destruct (HD var V) as [D I]. eexists.
  unfold gaussian_probability. cbn [submatrix select map nth g_cov g_mean]. rewrite D, I.
  rewrite (proj2 (Rleb_false _ _)) by auto. split; [reflexivity|].
  cbn [length]. replace (INR 1 * / 2) with (/ 2) by (simpl; ring). rewrite Rpower_sqrt by (pose proof PI_RGT_0; lra).
  cbn. set (d := x + -1 * mu). replace (d * (/ var * d + 0) + 0) with (d * d / var) by (unfold Rdiv; ring).
  pose proof PI_RGT_0 as PP. unfold normal_density. replace (x - mu) with d by (unfold d; ring).
  assert (Nd : 0 < d * d). { assert (d <> 0) by (unfold d; lra). nra. }
  assert (S1 : 0 < sqrt (2 * PI)) by (apply sqrt_lt_R0; lra). assert (S2 : 0 < sqrt var) by (apply sqrt_lt_R0; auto).
  rewrite <- sqrt_mult by lra. assert (S3 : 0 < sqrt (2 * PI * var)) by (apply sqrt_lt_R0; nra). split.
  - unfold Rdiv at 1. rewrite Rmult_1_l. apply Rmult_lt_compat_l; [apply Rinv_0_lt_compat; auto|].
    apply exp_increasing. replace (d * d / var) with (2 * (d * d / (2 * var))) by (field; lra).
    assert (0 < d * d / (2 * var)) by (apply Rdiv_lt_0_compat; lra). lra.
  - replace (2 * (var / 2)) with var by field. replace (2 * PI * (var / 2)) with (PI * var) by field.
    replace (2 * PI * var) with (2 * (PI * var)) by ring. rewrite (sqrt_mult 2 (PI * var)) by nra.
    assert (0 < sqrt 2) by (apply sqrt_lt_R0; lra). assert (0 < sqrt (PI * var)) by (apply sqrt_lt_R0; nra). field. split; lra.
Qed.
End Gaussian.

(** ** C104: the velocities for the training *)
Theorem C104_normalized : forall vels, (exists v, In v vels /\ norm v <> 0) ->
  let mean := rsum (map norm vels) / INR (length vels) in
  exists out, normalize_velocities 1 vels = Ok out /\ length out = length vels /\ 0 < mean /\
    forall i, (i < length vels)%nat -> let v := nth i vels [] in let w := nth i out [] in
      (exists c, 0 < c /\ w = vscale c v) /\ norm w <= 1 /\
      (mean <= norm v -> norm w = 1) /\ (norm v <= mean -> norm w = norm v / mean).
Proof.
  intros vels (v0 & I0 & N0) mean. assert (PM : 0 < mean).
  { apply Rdiv_lt_0_compat.
    - apply rsum_pos_ex; [intros y I; apply in_map_iff in I; destruct I as (? & <- & _); apply norm_nonneg|].
      exists (norm v0). split; [apply in_map; auto|]. pose proof (norm_nonneg v0). lra.
    - apply lt_0_INR. destruct vels; [destruct I0|simpl; lia]. }
  assert (NE : vels <> []) by (intros Z; subst; destruct I0).
  assert (EM : normalize_velocities 1 vels = mapM (fun v => Ok (vdiv v (Rmax mean (norm v)))) vels).
  { unfold normalize_velocities. destruct vels as [|a l] eqn:EV; [contradiction|]. cbv zeta. fold mean. rewrite Rmult_1_r.
    generalize (a :: l) as z. induction z as [|b z IH]; auto. cbn [mapM]. pose proof (Rmax_l mean (norm b)). destruct (Req_EM_T _ 0); [lra|].
    cbn [bind]. rewrite IH. auto. }
  assert (EO : mapM (fun v => Ok (vdiv v (Rmax mean (norm v)))) vels = Ok (map (fun v => vdiv v (Rmax mean (norm v))) vels)).
  { generalize vels as z. induction z as [|b z IH]; auto. cbn [mapM bind]. rewrite IH. auto. }
  rewrite EO in EM. eexists. split; [apply EM|]. split; [apply map_length|]. split; auto. intros i Hi v w.
  assert (W : w = vdiv v (Rmax mean (norm v))).
  { unfold w. rewrite (nth_indep _ [] (vdiv [] (Rmax mean (norm [])))) by (rewrite map_length; auto).
    rewrite (map_nth (fun v => vdiv v (Rmax mean (norm v)))). auto. }
  pose proof (Rmax_l mean (norm v)) as M1. pose proof (Rmax_r mean (norm v)) as M2. set (mx := Rmax mean (norm v)) in *.
  assert (IM : 0 < / mx) by (apply Rinv_0_lt_compat; lra).
  split. { exists (/ mx). auto. }
  assert (NW : norm w = norm v / mx). { rewrite W. unfold vdiv. rewrite norm_vscale, Rabs_right by lra. unfold Rdiv. ring. }
  rewrite NW. split.
  { apply Rmult_le_reg_r with mx; [lra|]. unfold Rdiv. rewrite Rmult_assoc, Rinv_l by lra. lra. }
  split; intros H.
  - unfold mx. rewrite Rmax_right by auto. field. lra.
  - unfold mx. rewrite Rmax_left by auto. auto.
Qed.
(** Demonstrations at rest are not numbers. *)
Theorem C104_at_rest : forall vels, (forall v, In v vels -> norm v = 0) -> normalize_velocities 1 vels = Err ENaN.
Proof.
  intros vels H. unfold normalize_velocities. destruct vels as [|a l]; auto. cbv zeta.
  assert (Z : rsum (map norm (a :: l)) = 0).
  { clear - H. induction (a :: l) as [|b z IH]; auto. cbn [map rsum fold_right]. rewrite (H b) by (left; auto). fold (rsum (map norm z)).
    rewrite IH; [ring|]. intros; apply H; right; auto. }
  rewrite Z. cbn [mapM]. rewrite (H a) by (left; auto). replace (Rmax (0 / INR (length (a :: l)) * 1) 0) with 0.
  - destruct (Req_EM_T 0 0); [auto|contradiction].
  - unfold Rdiv. rewrite !Rmult_0_l. rewrite Rmax_left; lra.
Qed.

(** ** Examples *)
Definition det2 (m : list vec) : R :=
  match m with [[a]] => a | [[a; b]; [c; d]] => a * d - b * c | _ => 0 end.
Definition pinv2 (m : list vec) : list vec :=
  match m with
  | [[a]] => [[/ a]]
  | [[a; b]; [c; d]] => let k := / (a * d - b * c) in [[k * d; - k * b]; [- k * c; k * a]]
  | _ => []
  end.
Definition planar_columns (d : vec) : list vec :=
  match d with [x; y] => [vdiv [- y; x] (norm d)] | _ => [] end.
Lemma norm2 x y : norm [x; y] = sqrt (x * x + y * y).
Proof. unfold norm. cbn. f_equal. ring. Qed.
Example planar_bases : bases planar_columns 2.
Proof.
  intros d L N. destruct d as [|x [|y [|]]]; try discriminate. cbn [planar_columns length]. split; auto.
  assert (N2 : norm [x; y] * norm [x; y] = x * x + y * y) by (rewrite norm_sq; cbn; ring).
  set (k := norm [x; y]) in *. cbn [ortho]. split; [reflexivity|]. split.
  - unfold unitv. cbn. replace (/ k * - y * (/ k * - y) + (/ k * x * (/ k * x) + 0)) with ((x * x + y * y) * / (k * k)) by (field; auto).
    rewrite N2. apply Rinv_r. rewrite <- N2. nra.
  - split; auto. unfold direction. fold k. cbn. ring.
Qed.
Example gmm_regular : 0 < det2 [[1; 0]; [0; 1]].
Proof. cbn. lra. Qed.
Example C97_example : exists w, mixing_weights det2 pinv2 [mkG (1/2) [-1] [[1]]; mkG (1/2) [1] [[1]]] [0%nat] true 4 [0] = Ok w /\ w = [1/2; 1/2].
Proof.
  destruct (C97_mixing_weights det2 pinv2 [mkG (1/2) [-1] [[1]]; mkG (1/2) [1] [[1]]] [0%nat] true 4 [0]) as (w & c & E & Pc & Q & _ & _ & S1).
  - split; [intros g [<-|[<-|[]]]; cbn; lra|]. eexists. split; [left; reflexivity|cbn; lra].
  - lra.
  - exists w. split; auto. specialize (S1 eq_refl). rewrite Q in *. unfold likelihood in *. cbn in S1 |- *.
    replace ((0 + -1 * -1) * (/ 1 * (0 + -1 * -1) + 0) + 0) with 1 in * by field. replace ((0 + -1 * 1) * (/ 1 * (0 + -1 * 1) + 0) + 0) with 1 in * by field.
    set (z := c * _) in *. f_equal; [lra|f_equal; lra].
Qed.
Example C98_example : exists v, snd (predict det2 pinv2 planar_columns turning_mixture [1; 0] default_argument) = Ok v /\
  norm v = 1 /\ cos 3 <= dot (direction [-1; 0]) v.
Proof.
  destruct (C98_velocity det2 pinv2 planar_columns turning_mixture [1; 0] 3) as (v & E & _ & N & C); auto.
  - apply (turning_ok det2 gmm_regular).
  - cbn. lra.
  - apply planar_bases.
  - cbn [gm_attractor turning_mixture gm_space firstn]. unfold vsub. cbn. rewrite norm2. replace ((0 + -1 * 1) * (0 + -1 * 1) + (0 + -1 * 0) * (0 + -1 * 0)) with 1 by ring. rewrite sqrt_1. lra.
  - split; [lra|]. pose proof PI2_3_2. lra.
  - intros g [<-|[]]. unfold conditional_mean. cbn. replace (_ + _) with 3 by ring. rewrite norm_one; lra.
  - exists v. split; auto. split; auto. revert C. cbn [gm_attractor turning_mixture gm_space firstn].
    replace (vsub [0; 0] [1; 0]) with [-1; 0]; auto. unfold vsub. cbn. f_equal; [ring|f_equal; ring].
Qed.
Example C99_example : exists eps, 0 < eps /\ forall x, length x = 2%nat -> 0 < norm (vsub [0; 0] x) < eps ->
  exists v, snd (predict det2 pinv2 planar_columns turning_mixture x (Some true)) = Ok v /\ norm v = 1 /\ 0 < dot (vsub [0; 0] x) v.
Proof.
  apply (C99_attraction det2 pinv2 planar_columns turning_mixture); auto.
  - apply (turning_ok det2 gmm_regular).
  - cbn. lra.
  - apply planar_bases.
Qed.
Example C100_example : snd (fst (predict_array det2 pinv2 planar_columns turning_mixture [[3; 4]; [0; 1]; [3; 4]; [1; 0]; [3; 4]] default_argument)) =
  [[3; 4]; [0; 1]; [3 / 5; 4 / 5]; [1; 0]; [3; 4]].
Proof.
  unfold predict_array, default_argument, crop. cbn [fst snd with_argument set_converge turning_mixture gm_space firstn skipn map app].
  unfold crop_row. rewrite !norm2. replace (3 * 3 + 4 * 4) with (5 * 5) by ring. replace (1 * 1 + 0 * 0) with (1 * 1) by ring. rewrite !sqrt_square by lra.
  rewrite (proj2 (Rltb_true 1 5)), (proj2 (Rltb_false 1 1)) by lra. unfold vdiv, vscale. cbn. do 3 f_equal. f_equal; [field|f_equal; field].
Qed.
Example C101_example : gmm_attractor 2 [[1; 0]; [3; 2]] None = Ok [2; 1] /\ gpr_attractor 2 [[1; 0]; [3; 2]] = [3 / 2; 1] /\
  exists a, learned_angle planar_columns [2; 0] [0; 5] = Ok a /\
    turned planar_columns turning_mixture [2; 0] a = Ok (direction [0; 5]).
Proof.
  split; [cbn; f_equal; f_equal; [field|f_equal; field]|]. split; [cbn; f_equal; [field|f_equal; field]|].
  assert (N5 : norm [0; 5] = 5). { rewrite norm2. replace (0 * 0 + 5 * 5) with (5 * 5) by ring. apply sqrt_square. lra. }
  apply (C101_reproduced planar_columns turning_mixture); auto.
  - apply planar_bases.
  - rewrite norm2. replace (2 * 2 + 0 * 0) with (2 * 2) by ring. rewrite sqrt_square; lra.
  - lra.
  - unfold direction. rewrite dot_vscale_l, dot_vscale_r. cbn. match goal with |- ?a <> _ => replace a with 0 by ring end. lra.
Qed.
Example C102_example : integrate_trajectory (fun _ => [1; 0]) 1 (1 / 100) 2 3 1 [[5; 0]] None = Ok [[[5; 0]; [6; 0]; [7; 0]]] /\
  integrate_trajectory (fun _ => [1; 0]) 1 (1 / 100) 2 2 1 [[5; 0]] (Some [[5; 0]]) = Ok [[[0; 0]; [1; 0]]].
Proof.
  assert (K : forall a b, 0 <= a -> norm [a; b * 0] = a).
  { intros a b H. rewrite norm2. replace (a * a + b * 0 * (b * 0)) with (a * a) by ring. apply sqrt_square. auto. }
  assert (S5 : forall a, rk4 1 [a; 0] (fun _ => [1; 0]) 1 = [a + 1; 0]).
  { intros a. unfold rk4. cbn. f_equal; [field|f_equal; field]. }
  assert (N : forall a, 0 <= a -> norm [a; 0] = a). { intros a H. rewrite <- (K a 0 H) at 2. do 3 f_equal. ring. }
  unfold integrate_trajectory, trajectory. cbn [length Nat.ltb Nat.leb firstn map Nat.sub integrate_steps]. change (vzero 2) with [0; 0].
  rewrite !S5, !N by lra. rewrite (proj2 (Rltb_false (5 + 1) (1 / 100))) by lra.
  split; [|destruct (Rltb (0 + 1) (1 / 100)); do 3 f_equal; f_equal; f_equal; ring].
  replace (if Rltb (5 + 1 + 1) (1 / 100) then repeat [0; 0] 0 else []) with (@nil vec) by (destruct (Rltb _ _); auto).
  f_equal. f_equal. replace (5 + 1 + 1) with 7 by ring. replace (5 + 1) with 6 by ring. auto.
Qed.
Example C103_example : exists p, gaussian_probability det2 pinv2 [0%nat] [1] (mkG 1 [0] [[1]]) = Ok p /\ p < normal_density 0 1 1.
Proof.
  destruct (C103_density_refuted det2 pinv2 1 0 1 1) as (p & E & L & _); [intros a H; split; auto|lra|lra|]. exists p. auto.
Qed.
Example C104_example : normalize_velocities 1 [[3; 0]; [0; 1]] = Ok [[1; 0]; [0; 1 / 2]].
Proof.
  unfold normalize_velocities. cbv zeta. cbn [map rsum fold_right length INR]. rewrite !norm2.
  replace (3 * 3 + 0 * 0) with (3 * 3) by ring. replace (0 * 0 + 1 * 1) with (1 * 1) by ring. rewrite !sqrt_square by lra.
  replace ((3 + (1 + 0)) / (1 + 1) * 1) with 2 by field. cbn [mapM]. rewrite !norm2.
  replace (3 * 3 + 0 * 0) with (3 * 3) by ring. replace (0 * 0 + 1 * 1) with (1 * 1) by ring. rewrite !sqrt_square by lra.
  rewrite Rmax_right, Rmax_left by lra. destruct (Req_EM_T 3 0); [lra|]. destruct (Req_EM_T 2 0); [lra|]. cbn. do 2 f_equal.
  - f_equal; [field|f_equal; field].
  - f_equal. f_equal; [field|f_equal; field].
Qed.
Print Assumptions C100_one_sample.
Print Assumptions C100_equal_samples.
Print Assumptions C100_independent_refuted.
Print Assumptions C100_overwritten_refuted.
Print Assumptions C100_kept.
Print Assumptions C101_reproduced.
Print Assumptions C101_other_attractor_refuted.
Print Assumptions C101_attractor.
Print Assumptions C101_first_left_out_refuted.
Print Assumptions C102_trajectories.
Print Assumptions C102_starting_points_refuted.
Print Assumptions C102_mixture_refuted.
Print Assumptions C103_gaussian.
Print Assumptions C103_conditional.
Print Assumptions C103_density_refuted.
Print Assumptions C104_normalized.
Print Assumptions C104_at_rest.
