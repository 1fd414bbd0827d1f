(** Properties C97, C98, C99 and C103: the learned mixture of Gaussians. *)
Require Import Reals List Lra Lia Psatz Bool.
From Verif Require Import Base Vec Angle Pow RotModel Spec RotProofs ProjModel PropProject PropFold DynModel RotAvoidModel RotAvoidProofs FieldModel PropLocalRot PropDeviation PropRegress GmmModel.
Import ListNotations.
Open Scope R_scope.

(** ** Lemmas on lists *)
Lemma mapM_ok {A B} (f : A -> res B) l : (forall x, In x l -> exists y, f x = Ok y) ->
  exists r, mapM f l = Ok r /\ length r = length l /\ forall k x y, nth_error l k = Some x -> nth_error r k = Some y -> f x = Ok y.
Proof.
  induction l as [|a l IH]; intros H.
  - exists []. split; auto. split; auto. intros [|k]; discriminate.
  - destruct (H a) as [y Hy]; [left; auto|]. destruct IH as (r & E & L & N); [intros x Hx; apply H; right; auto|].
    exists (y :: r). cbn [mapM]. rewrite Hy. cbn [bind]. rewrite E. cbn [bind]. split; auto. split; [simpl; auto|].
    intros [|k] x z; simpl; intros A1 A2; [congruence|eauto].
Qed.
Lemma combine_map_in {A B} (f : A -> B) l p : In p (combine l (map f l)) -> In (fst p) l /\ snd p = f (fst p).
Proof. induction l as [|a l IH]; simpl; [tauto|]. intros [<-|H]; simpl; [auto|]. destruct (IH H). auto. Qed.
Lemma rsum_pos_ex l : (forall x, In x l -> 0 <= x) -> (exists x, In x l /\ 0 < x) -> 0 < rsum l.
Proof. intros H (x & I & P). pose proof (rsum_ge_elem l x H I). lra. Qed.
Lemma rsum_map_mult c l : rsum (map (fun a => a * c) l) = rsum l * c.
Proof. induction l; simpl; [lra|]. rewrite IHl. lra. Qed.
Lemma rsum_map_divr c l : rsum (map (fun a => a / c) l) = rsum l / c.
Proof. unfold Rdiv. apply rsum_map_mult. Qed.

(** ** C97: weights of the components *)
Section Weights.
Variable det : list vec -> R.
Variable pinv : list vec -> list vec.
(** A fitted mixture: weights which are not negative, at least one is positive, and regular
    covariances of the inputs. *)
Definition fitted (gs : list gauss) (feat_in : list nat) : Prop :=
  (forall g, In g gs -> 0 <= g_weight g /\ 0 < det (submatrix feat_in feat_in (g_cov g))) /\
  exists g, In g gs /\ 0 < g_weight g.
(** The likelihood of a component, up to a factor common to all of them. *)
Definition likelihood (feat_in : list nat) (x : vec) (g : gauss) : R :=
  let c := submatrix feat_in feat_in (g_cov g) in
  let d := vsub x (select feat_in (g_mean g)) in
  g_weight g * (exp (- dot d (mat_vec (pinv c) d)) / sqrt (det c)).
Definition two_pi_factor (x : vec) : R := / Rpower (2 * PI) (INR (length x) * / 2).
Lemma two_pi_pos x : 0 < two_pi_factor x.
Proof. apply Rinv_0_lt_compat, Rpower_pos. Qed.
Lemma probability_ok gs feat_in x : (forall g, In g gs -> 0 < det (submatrix feat_in feat_in (g_cov g))) ->
  exists probs, mapM (gaussian_probability det pinv feat_in x) gs = Ok probs /\
    map (fun gp => g_weight (fst gp) * snd gp) (combine gs probs) =
    map (fun g => two_pi_factor x * likelihood feat_in x g) gs.
Proof.
  induction gs as [|g gs IH]; intros H.
  - exists []. auto.
  - destruct IH as (probs & E & M); [intros h I; apply H; right; auto|].
    pose proof (H g ltac:(left; auto)) as D.
    exists (1 / (Rpower (2 * PI) (INR (length x) * / 2) * sqrt (det (submatrix feat_in feat_in (g_cov g)))) *
            exp (- dot (vsub x (select feat_in (g_mean g))) (mat_vec (pinv (submatrix feat_in feat_in (g_cov g))) (vsub x (select feat_in (g_mean g))))) :: probs).
    cbn [mapM]. unfold gaussian_probability at 1. cbv zeta. rewrite (proj2 (Rleb_false _ _)) by lra. cbn [bind].
    rewrite E. cbn [bind]. split; auto. cbn [combine map fst snd]. rewrite M. f_equal.
    unfold likelihood, two_pi_factor. cbv zeta. pose proof (sqrt_lt_R0 _ D). pose proof (Rpower_pos (2 * PI) (INR (length x) * / 2)).
    field. split; lra.
Qed.
Lemma likelihood_nonneg gs feat_in x g : fitted gs feat_in -> In g gs -> 0 <= likelihood feat_in x g /\ (0 < g_weight g -> 0 < likelihood feat_in x g).
Proof.
  intros [F _] I. destruct (F g I) as [W D]. unfold likelihood. cbv zeta.
  assert (P : 0 < exp (- dot (vsub x (select feat_in (g_mean g))) (mat_vec (pinv (submatrix feat_in feat_in (g_cov g))) (vsub x (select feat_in (g_mean g))))) / sqrt (det (submatrix feat_in feat_in (g_cov g)))).
  { apply Rdiv_lt_0_compat; [apply exp_pos|apply sqrt_lt_R0; auto]. }
  split; [apply Rmult_le_pos; lra|]. intros. apply Rmult_lt_0_compat; auto.
Qed.
Lemma max_weight_ok gs feat_in : fitted gs feat_in -> exists m, max_weight gs = Ok m /\ 0 < m.
Proof.
  intros [F (g & I & P)]. destruct gs as [|g0 gs]; [destruct I|]. simpl. eexists. split; [reflexivity|].
  assert (B : forall l, g_weight g0 <= fold_right (fun h m => Rmax (g_weight h) m) (g_weight g0) l).
  { induction l as [|h l IH]; simpl; [lra|]. eapply Rle_trans; [apply IH|apply Rmax_r]. }
  destruct I as [->|I].
  - pose proof (B gs). lra.
  - clear F. induction gs as [|h gs IH]; [destruct I|]. simpl. destruct I as [->|I].
    + pose proof (Rmax_l (g_weight g) (fold_right (fun h m => Rmax (g_weight h) m) (g_weight g0) gs)). lra.
    + specialize (IH I). pose proof (Rmax_r (g_weight h) (fold_right (fun h m => Rmax (g_weight h) m) (g_weight g0) gs)). lra.
Qed.

(** The weights of the components are never negative, they are proportional to prior times
    likelihood, and their sum is at most one; it is one when they are normalized. *)
Theorem C97_mixing_weights : forall gs feat_in normalize factor x, fitted gs feat_in -> 0 < factor ->
  exists w c, mixing_weights det pinv gs feat_in normalize factor x = Ok w /\
    0 < c /\ w = map (fun g => c * likelihood feat_in x g) gs /\
    (forall y, In y w -> 0 <= y) /\ 0 < rsum w <= 1 /\ (normalize = true -> rsum w = 1).
Proof.
  intros gs feat_in normalize factor x F P. unfold mixing_weights.
  destruct (probability_ok gs feat_in x) as (probs & E & M). { intros g I. apply (proj1 F g I). }
  rewrite E. cbn [bind]. rewrite M. cbv zeta. pose proof (two_pi_pos x) as TP.
  set (alpha := map (fun g => two_pi_factor x * likelihood feat_in x g) gs).
  assert (NN : forall a, In a alpha -> 0 <= a).
  { intros a I. unfold alpha in I. apply in_map_iff in I. destruct I as (g & <- & I).
    destruct (likelihood_nonneg gs feat_in x g F I). apply Rmult_le_pos; lra. }
  assert (SP : 0 < rsum alpha).
  { apply rsum_pos_ex; auto. destruct F as [F (g & I & W)]. exists (two_pi_factor x * likelihood feat_in x g). split.
    - unfold alpha. apply in_map_iff. exists g. auto.
    - destruct (likelihood_nonneg gs feat_in x g (conj F (ex_intro _ g (conj I W))) I) as [_ K]. apply Rmult_lt_0_compat; auto. }
  assert (SC : forall k, 0 < k -> forall y, In y (map (fun g => k * likelihood feat_in x g) gs) -> 0 <= y).
  { intros k K y I. apply in_map_iff in I. destruct I as (g & <- & I). destruct (likelihood_nonneg gs feat_in x g F I). apply Rmult_le_pos; lra. }
  assert (Q : forall k, map (fun a => a * k) alpha = map (fun g => two_pi_factor x * k * likelihood feat_in x g) gs).
  { intros k. unfold alpha. rewrite map_map. apply map_ext. intros; ring. }
  destruct normalize.
  - destruct (Req_EM_T (rsum alpha) 0); [lra|].
    assert (Q1 : map (fun a => a / rsum alpha) alpha = map (fun g => two_pi_factor x * / rsum alpha * likelihood feat_in x g) gs) by apply (Q (/ rsum alpha)).
    eexists _, (two_pi_factor x * / rsum alpha). split; [reflexivity|].
    assert (0 < two_pi_factor x * / rsum alpha) by (apply Rmult_lt_0_compat; auto; apply Rinv_0_lt_compat; auto).
    split; auto. split; auto. split; [rewrite Q1; apply SC; auto|]. rewrite rsum_map_divr. split; [|intros _; field; lra].
    replace (rsum alpha / rsum alpha) with 1 by (field; lra). lra.
  - destruct (max_weight_ok gs feat_in F) as (m & Em & Pm). rewrite Em. cbn [bind]. destruct (Req_EM_T m 0); [lra|].
    set (f := factor ^ length feat_in). assert (Pf : 0 < f) by (apply pow_lt; auto).
    assert (Q1 : map (fun a => a / m * f) alpha = map (fun g => two_pi_factor x * (/ m * f) * likelihood feat_in x g) gs).
    { rewrite <- Q. apply map_ext. intros; field; auto. }
    assert (K0 : 0 < / m * f) by (apply Rmult_lt_0_compat; auto; apply Rinv_0_lt_compat; auto).
    assert (K1 : 0 < two_pi_factor x * (/ m * f)) by (apply Rmult_lt_0_compat; auto).
    assert (RS : rsum (map (fun a => a / m * f) alpha) = rsum alpha * (/ m * f)).
    { rewrite <- rsum_map_mult. f_equal. apply map_ext. intros; field; auto. }
    assert (K2 : 0 < rsum alpha * (/ m * f)) by (apply Rmult_lt_0_compat; auto).
    set (beta := map (fun a => a / m * f) alpha) in *.
    destruct (Rltb 1 (rsum beta)) eqn:B; [apply Rltb_true in B|apply Rltb_false in B].
    + assert (Q2 : map (fun b => b / rsum beta) beta = map (fun g => two_pi_factor x * (/ m * f) * / rsum beta * likelihood feat_in x g) gs).
      { assert (Z : rsum beta <> 0) by lra. revert Z. generalize (rsum beta) as r. intros r Z. rewrite Q1, map_map. apply map_ext. intros; field; lra. }
      eexists _, (two_pi_factor x * (/ m * f) * / rsum beta). split; [reflexivity|].
      assert (0 < two_pi_factor x * (/ m * f) * / rsum beta) by (apply Rmult_lt_0_compat; auto; apply Rinv_0_lt_compat; lra).
      split; auto. split; auto. split; [rewrite Q2; apply SC; auto|]. rewrite rsum_map_divr.
      replace (rsum beta / rsum beta) with 1 by (field; lra). split; [lra|discriminate].
    + eexists _, (two_pi_factor x * (/ m * f)). split; [reflexivity|].
      split; auto. split; auto. split; [rewrite Q1; apply SC; auto|]. rewrite RS. rewrite RS in B. split; [lra|discriminate].
Qed.
(** A mixture without components or without any weight raises. *)
Theorem C97_degenerate : forall feat_in factor x,
  mixing_weights det pinv [] feat_in false factor x = Err EValue /\
  forall gs, gs <> [] -> (forall g, In g gs -> g_weight g = 0 /\ 0 < det (submatrix feat_in feat_in (g_cov g))) ->
    forall b, mixing_weights det pinv gs feat_in b factor x = Err ENaN.
Proof.
  intros feat_in factor x. split; [reflexivity|]. intros gs NE H b. unfold mixing_weights.
  destruct (probability_ok gs feat_in x) as (probs & E & M). { intros g I. apply (H g I). }
  rewrite E. cbn [bind]. rewrite M. cbv zeta. destruct b.
  - destruct (Req_EM_T _ 0) as [|N]; auto. exfalso. apply N.
    rewrite (map_ext_in _ (fun _ => 0)).
    + rewrite rsum_map_const. ring.
    + intros g I. unfold likelihood. cbv zeta. rewrite (proj1 (H g I)). ring.
  - destruct gs as [|g gs]; [contradiction|]. cbn [max_weight bind].
    assert (Z : fold_right (fun h m => Rmax (g_weight h) m) (g_weight g) gs = 0).
    { assert (G : g_weight g = 0) by (apply H; left; auto). assert (Gs : forall h, In h gs -> g_weight h = 0) by (intros h I; apply H; right; auto).
      clear -G Gs. induction gs as [|h gs IH]; simpl; auto. rewrite IH by (intros k I; apply Gs; right; auto).
      rewrite (Gs h) by (left; auto). apply Rmax_left. lra. }
    rewrite Z. destruct (Req_EM_T 0 0); [auto|lra].
Qed.
End Weights.

(** ** C98: the learned deviation from the way to the attractor *)
Lemma weighted_columns_norm n ws cs B : Forall (fun w => 0 <= w) ws -> Forall (fun c => norm c <= B) cs -> 0 <= B ->
  norm (weighted_columns n ws cs) <= rsum ws * B.
Proof.
  unfold weighted_columns. intros Hw. revert cs. induction Hw as [|w ws W Hw IH]; intros cs Hc HB.
  - simpl. rewrite norm_vzero. lra.
  - destruct cs as [|c cs]; cbn [combine fold_right].
    + rewrite norm_vzero. apply Rmult_le_pos; auto. apply rsum_nonneg. intros y [<-|I]; auto. rewrite Forall_forall in Hw. auto.
    + inversion Hc; subst. specialize (IH cs H2 HB). eapply Rle_trans; [apply norm_triangle|]. cbn [fst snd]. rewrite norm_vscale, Rabs_right by lra.
      simpl rsum. rewrite Rmult_plus_distr_r. apply Rplus_le_compat; auto. cbn [fst snd]. apply Rmult_le_compat_l; auto.
Qed.
Lemma weighted_columns_len n ws cs : Forall (fun c => length c = n) cs -> length (weighted_columns n ws cs) = n.
Proof. apply weighted_columns_ok. Qed.
Lemma crop_few k rows : (length rows <= k)%nat -> crop k rows = rows.
Proof.
  intros L. unfold crop. rewrite (firstn_all2 rows L), (skipn_all2 rows L), skipn_nil, firstn_nil. simpl. apply app_nil_r.
Qed.
Lemma feat_out_length m : length (feat_out m) = (gm_space m - 1)%nat.
Proof. unfold feat_out. rewrite map_length, seq_length. auto. Qed.
Lemma conditional_length pinv fi fo x g : length (conditional_mean pinv fi fo x g) = length fo.
Proof. unfold conditional_mean. rewrite length_vadd. unfold select, mat_vec, submatrix. rewrite !map_length. lia. Qed.
Lemma rsum_scaled s p w : rsum (map (fun b => b / s * p) w) = rsum w / s * p.
Proof. rewrite (map_ext _ (fun b => b * (/ s * p))) by (intros; unfold Rdiv; ring). rewrite rsum_map_mult. unfold Rdiv. ring. Qed.

Section Deviation.
Variable det : list vec -> R.
Variable pinv : list vec -> list vec.
Definition mixture_ok (m : gmm) (k : nat) : Prop :=
  fitted det (gm_gauss m) (seq 0 k) /\ (1 <= gm_space m)%nat.
Lemma predict_one m x w : (1 <= gm_space m)%nat -> sample_weights det pinv m (seq 0 (length x)) x = Ok w -> 0 < rsum w ->
  predict_rows det pinv m [x] =
  Ok [weighted_columns (gm_space m - 1) (map (fun b => b / rsum w * Rpower (rsum w) (gm_power m)) w)
                       (sample_means pinv m (seq 0 (length x)) x)].
Proof.
  intros D E P. unfold predict_rows. rewrite crop_few by auto. cbn [mapM]. rewrite E. cbn [bind map rsum fold_right].
  replace (rsum w + 0) with (rsum w) by ring. change (fold_right Rplus 0 w) with (rsum w). replace (rsum w + 0) with (rsum w) by ring.
  destruct (Req_EM_T (rsum w) 0); [lra|]. rewrite fpow_pos by auto. cbn [bind combine map fst snd]. rewrite feat_out_length. reflexivity.
Qed.
(** The angle is a mean of the angles of the components with a total weight which is a power of
    the sum of the weights: at most one, so the angle is never larger than the largest one. *)
Theorem C98_deviation : forall m x, mixture_ok m (length x) -> gm_converge m = false -> 0 <= gm_power m ->
  exists w a, mixing_weights det pinv (gm_gauss m) (seq 0 (length x)) false 4 x = Ok w /\
    predict_rows det pinv m [x] = Ok [a] /\ length a = (gm_space m - 1)%nat /\
    a = weighted_columns (gm_space m - 1) (map (fun b => b / rsum w * Rpower (rsum w) (gm_power m)) w)
          (map (conditional_mean pinv (seq 0 (length x)) (feat_out m) x) (gm_gauss m)) /\
    rsum (map (fun b => b / rsum w * Rpower (rsum w) (gm_power m)) w) = Rpower (rsum w) (gm_power m) /\
    Rpower (rsum w) (gm_power m) <= 1 /\
    forall B, 0 <= B -> (forall g, In g (gm_gauss m) -> norm (conditional_mean pinv (seq 0 (length x)) (feat_out m) x g) <= B) ->
      norm a <= Rpower (rsum w) (gm_power m) * B.
Proof.
  intros m x [F D] C P. destruct (C97_mixing_weights det pinv (gm_gauss m) (seq 0 (length x)) false 4 x F ltac:(lra)) as (w & c & E & Pc & Q & NN & [S0 S1] & _).
  assert (EW : sample_weights det pinv m (seq 0 (length x)) x = Ok w).
  { unfold sample_weights. rewrite E. cbn [bind]. rewrite C. auto. }
  pose proof (predict_one m x w D EW S0) as PR.
  assert (SM : sample_means pinv m (seq 0 (length x)) x = map (conditional_mean pinv (seq 0 (length x)) (feat_out m) x) (gm_gauss m)).
  { unfold sample_means. rewrite C. apply app_nil_r. }
  rewrite SM in PR. pose proof (Rpower_pos (rsum w) (gm_power m)) as PP.
  exists w. eexists. split; auto. split; [apply PR|]. split.
  { apply weighted_columns_ok, Forall_forall. intros v I. apply in_map_iff in I. destruct I as (g & <- & _). rewrite conditional_length. apply feat_out_length. }
  split; auto. assert (RS : rsum (map (fun b => b / rsum w * Rpower (rsum w) (gm_power m)) w) = Rpower (rsum w) (gm_power m)).
  { rewrite rsum_scaled. field. lra. }
  split; auto. split; [apply Rpower_le_1; lra|]. intros B HB HM. eapply Rle_trans; [apply (weighted_columns_norm _ _ _ B)|rewrite RS; lra]; auto.
  - apply Forall_forall. intros y I. apply in_map_iff in I. destruct I as (b & <- & I). apply Rmult_le_pos; [|lra].
    apply Rmult_le_pos; [auto|]. left. apply Rinv_0_lt_compat. lra.
  - apply Forall_forall. intros v I. apply in_map_iff in I. destruct I as (g & <- & I). auto.
Qed.

Variable columns : vec -> list vec.
(** The base of a direction: its other columns are orthonormal and perpendicular to it. *)
Definition bases (n : nat) : Prop := forall d, length d = n -> norm d <> 0 ->
  ortho n (direction d) (columns d) /\ length (columns d) = (n - 1)%nat.
Lemma turned_spec m p a : bases (gm_space m) -> length (gm_attractor m) = gm_space m -> length p = gm_space m ->
  length a = (gm_space m - 1)%nat -> norm (vsub (gm_attractor m) p) <> 0 ->
  exists v, turned columns m p a = Ok v /\ length v = gm_space m /\ unitv v /\
    dot (direction (vsub (gm_attractor m) p)) v = cos (norm a).
Proof.
  intros HB LA LP La N. unfold turned. cbv zeta. destruct (Req_EM_T _ 0); [contradiction|].
  set (d := vsub (gm_attractor m) p) in *. assert (Ld : length d = gm_space m) by (unfold d; rewrite length_vsub; lia).
  destruct (HB d Ld N) as [O Lc]. rewrite Ld. eexists. split; [reflexivity|]. unfold angle_space_inverse.
  change (direction d) with (dirof d) in *. fold (dirof d).
  destruct (embed_ok (gm_space m) (dirof d) (columns d) a O) as [Le Oe].
  pose proof (embed_norm (gm_space m) (dirof d) (columns d) a O ltac:(congruence)) as Ne.
  destruct (vector_from_angle_spec (gm_space m) (dirof d) (embed (gm_space m) (columns d) a)) as (A1 & A2 & A3); auto.
  { rewrite dirof_length; auto. } { apply dirof_unit; auto. }
  split; auto. split; auto. rewrite A3, Ne. auto.
Qed.
Lemma cos_mono a b : 0 <= a -> a <= b -> b <= PI -> cos b <= cos a.
Proof. intros. destruct (Req_dec a b) as [->|]; [lra|]. left. apply cos_decreasing_1; lra. Qed.
(** The predicted velocity has unit length; it turns away from the way to the attractor by the
    learned angle, by at most [B] when no component asks for more. *)
Theorem C98_velocity : forall m x B, mixture_ok m (length x) -> 0 <= gm_power m ->
  bases (gm_space m) -> length (gm_attractor m) = gm_space m -> (gm_space m <= length x)%nat ->
  norm (vsub (gm_attractor m) (firstn (gm_space m) x)) <> 0 -> 0 <= B <= PI ->
  (forall g, In g (gm_gauss m) -> norm (conditional_mean pinv (seq 0 (length x)) (feat_out m) x g) <= B) ->
  exists v, snd (predict det pinv columns m x (Some false)) = Ok v /\ length v = gm_space m /\ norm v = 1 /\
    cos B <= dot (direction (vsub (gm_attractor m) (firstn (gm_space m) x))) v.
Proof.
  intros m x B [F D] P HB LA LX N HBB HM. set (m' := set_converge m false).
  destruct (C98_deviation m' x) as (w & a & _ & PR & La & _ & _ & R1 & BD); auto. { split; auto. }
  unfold predict. cbn [with_argument snd]. fold m'. rewrite PR. cbn [bind]. change (gm_space m') with (gm_space m) in *.
  rewrite <- La, firstn_all.
  destruct (turned_spec m' (firstn (gm_space m) x) a) as (v & E & Lv & U & C); auto.
  { rewrite firstn_length. change (gm_space m') with (gm_space m). lia. }
  exists v. split; auto. split; auto. split; [apply unit_norm; auto|].
  change (gm_attractor m') with (gm_attractor m) in C. rewrite C. apply cos_mono; [apply norm_nonneg| |lra].
  specialize (BD B (proj1 HBB) HM). pose proof (Rpower_pos (rsum w) (gm_power m')). nra.
Qed.
End Deviation.

(** ** C99: the convergence to the attractor *)
Lemma rsum_sq l : Forall (fun b => 0 <= b) l -> 0 <= rsum l /\ dot l l <= rsum l * rsum l.
Proof.
  induction 1 as [|b l Hb Hl IH]; [simpl; lra|]. cbn [dot rsum fold_right]. fold (rsum l). nra.
Qed.
Lemma rsum_ge_norm l : Forall (fun b => 0 <= b) l -> norm l <= rsum l.
Proof.
  intros H. destruct (rsum_sq l H) as [A B]. apply Rsqr_incr_0_var; auto. unfold Rsqr. rewrite norm_sq. auto.
Qed.
Lemma dot_snoc l q : dot (l ++ [q]) (l ++ [q]) = dot l l + q * q.
Proof. induction l as [|a l IH]; cbn [app dot]; [ring|rewrite IH; ring]. Qed.
Lemma norm_snoc_ge l q : 0 <= q -> q <= norm (l ++ [q]).
Proof.
  intros H. apply Rsqr_incr_0_var; [|apply norm_nonneg]. unfold Rsqr. rewrite norm_sq, dot_snoc.
  pose proof (dot_self_nonneg l). lra.
Qed.
Lemma weighted_columns_last n ws w cs : length ws = length cs -> Forall (fun c => length c = n) cs ->
  weighted_columns n (ws ++ [w]) (cs ++ [vzero n]) = weighted_columns n ws cs.
Proof.
  unfold weighted_columns. revert cs. induction ws as [|a ws IH]; intros [|c cs] L F; try discriminate.
  - cbn [app combine fold_right fst snd]. vext; rewrite ?nth_vzero; ring.
  - cbn [app combine fold_right]. rewrite IH; auto. inversion F; auto.
Qed.
Lemma mat_vec_norm M v : norm (mat_vec M v) <= rsum (map norm M) * norm v.
Proof.
  unfold mat_vec. induction M as [|r M IH]; cbn [map rsum fold_right]. { change (norm []) with (norm (vzero 0)). rewrite norm_vzero. lra. }
  fold (rsum (map norm M)). assert (E : norm (dot r v :: map (fun r => dot r v) M) <= Rabs (dot r v) + norm (map (fun r => dot r v) M)).
  { set (z := norm (map (fun r0 => dot r0 v) M)) in *. assert (0 <= z) by apply norm_nonneg.
    apply Rsqr_incr_0_var; [|pose proof (Rabs_pos (dot r v)); lra]. unfold Rsqr. rewrite norm_sq. cbn [dot].
    rewrite <- (norm_sq (map _ M)). fold z. pose proof (Rabs_pos (dot r v)).
    assert (Rabs (dot r v) * Rabs (dot r v) = dot r v * dot r v) by (rewrite <- Rabs_mult; apply Rabs_right; nra). nra. }
  pose proof (cauchy_schwarz r v). nra.
Qed.

Section Convergence.
Variable det : list vec -> R.
Variable pinv : list vec -> list vec.
(** Close to the attractor the angle shrinks with the square of the distance; at the attractor it
    is zero. *)
Theorem C99_shrinks : forall m x B, mixture_ok det m (length x) -> 0 <= gm_power m <= 1 -> length x = gm_space m -> 0 <= B ->
  (forall g, In g (gm_gauss m) -> norm (conditional_mean pinv (seq 0 (length x)) (feat_out m) x g) <= B) ->
  exists a, predict_rows det pinv (set_converge m true) [x] = Ok [a] /\ length a = (gm_space m - 1)%nat /\
    norm a <= (norm (vsub x (gm_attractor m)) / (3 / 10)) ^ 2 * B.
Proof.
  intros m x B [F D] P LX HB HM. set (m' := set_converge m true).
  destruct (C97_mixing_weights det pinv (gm_gauss m) (seq 0 (length x)) false 4 x F ltac:(lra)) as (w & c & E & Pc & Q & NN & [S0 S1] & _).
  set (d := norm (vsub x (gm_attractor m))). assert (Hd : 0 <= d) by apply norm_nonneg.
  assert (EW : sample_weights det pinv m' (seq 0 (length x)) x = Ok (attracted_weights d w)).
  { unfold sample_weights. change (gm_gauss m') with (gm_gauss m). rewrite E. cbn [bind]. change (gm_converge m') with true. cbv iota.
    change (gm_space m') with (gm_space m). rewrite (proj2 (Nat.eqb_eq _ _) LX). reflexivity. }
  assert (NW : Forall (fun b => 0 <= b) w). { apply Forall_forall. auto. }
  assert (LW : length w = length (gm_gauss m)) by (rewrite Q, map_length; auto).
  set (cs := map (conditional_mean pinv (seq 0 (length x)) (feat_out m) x) (gm_gauss m)).
  assert (LC : Forall (fun c => length c = (gm_space m - 1)%nat) cs).
  { apply Forall_forall. intros v I. apply in_map_iff in I. destruct I as (g & <- & _). rewrite conditional_length. apply feat_out_length. }
  assert (SM : sample_means pinv m' (seq 0 (length x)) x = cs ++ [vzero (gm_space m - 1)]).
  { unfold sample_means. change (gm_converge m') with true. cbv iota. rewrite feat_out_length. reflexivity. }
  assert (BC : Forall (fun c => norm c <= B) cs).
  { apply Forall_forall. intros v I. apply in_map_iff in I. destruct I as (g & <- & I). auto. }
  assert (KEY : exists v q0 : R, exists l, attracted_weights d w = l ++ [v] /\ length l = length w /\ Forall (fun b => 0 <= b) l /\ 0 <= v /\
    1 <= rsum (l ++ [v]) /\ rsum l <= (d / (3 / 10)) ^ 2).
  { unfold attracted_weights. destruct (Req_EM_T d 0) as [Z|Z].
    - exists 1, 0, (map (fun _ => 0) w). rewrite rsum_app, map_length, rsum_map_const, Z. split; auto. split; auto. split.
      { apply Forall_forall. intros y I. apply in_map_iff in I. destruct I as (? & <- & _). lra. }
      simpl. split; [lra|]. split; [lra|]. unfold Rdiv. rewrite !Rmult_0_l. lra.
    - set (q := / ((d / beta_r) ^ 2) + beta_min). set (b := w ++ [q]).
      assert (Pd : 0 < (d / beta_r) ^ 2). { assert (0 < d / beta_r); [apply Rdiv_lt_0_compat; unfold beta_r; lra|nra]. }
      assert (Pq : / ((d / beta_r) ^ 2) < q) by (unfold q, beta_min; lra).
      assert (Pi : 0 < / ((d / beta_r) ^ 2)) by (apply Rinv_0_lt_compat; auto).
      assert (NB : q <= norm b) by (apply norm_snoc_ge; lra).
      assert (FB : Forall (fun b => 0 <= b) b). { apply Forall_app. split; auto. constructor; [lra|auto]. }
      pose proof (rsum_ge_norm b FB) as RB. set (L := norm b) in *. assert (PL : 0 < L) by lra.
      assert (IL : 0 < / L) by (apply Rinv_0_lt_compat; auto).
      exists (/ L * q), 0, (vscale (/ L) w). unfold vdiv, vscale. unfold b at 1. rewrite map_app. split; auto.
      rewrite map_length. split; auto. split.
      { apply Forall_forall. intros y I. apply in_map_iff in I. destruct I as (z & <- & I). apply Rmult_le_pos; [lra|auto]. }
      split; [apply Rmult_le_pos; lra|]. assert (SE : forall z l, rsum (map (Rmult z) l) = z * rsum l).
      { intros z l. rewrite (map_ext _ (fun y => y * z)) by (intros; ring). rewrite rsum_map_mult. ring. }
      split.
      { rewrite rsum_app. replace (rsum [/ L * q]) with (/ L * rsum [q]) by (simpl; ring).
        rewrite SE, <- Rmult_plus_distr_l, <- rsum_app. fold b. apply Rmult_le_reg_l with L; auto. rewrite <- Rmult_assoc, Rinv_r by lra. lra. }
      rewrite SE. change (3 / 10) with beta_r. apply Rle_trans with (/ L * 1); [apply Rmult_le_compat_l; lra|].
      rewrite Rmult_1_r. rewrite <- (Rinv_inv ((d / beta_r) ^ 2)). apply Rinv_le_contravar; lra. }
  destruct KEY as (v & _ & l & EA & Ll & Fl & Pv & R1 & R2). rewrite EA in EW.
  pose proof (predict_one det pinv m' x (l ++ [v]) D EW ltac:(lra)) as PR. rewrite SM in PR.
  set (T := rsum (l ++ [v])) in *. change (gm_space m') with (gm_space m) in PR. change (gm_power m') with (gm_power m) in PR.
  rewrite map_app in PR. cbn [map] in PR. rewrite weighted_columns_last in PR.
  2: { rewrite map_length. unfold cs. rewrite map_length. lia. }
  2: { auto. }
  eexists. split; [apply PR|]. split. { apply weighted_columns_ok. auto. }
  set (p := gm_power m) in *. assert (TP : Rpower T p <= T).
  { rewrite <- (Rpower_1 T) at 2 by lra. apply Rle_Rpower; lra. }
  pose proof (Rpower_pos T p) as PP. assert (K1 : / T * Rpower T p <= 1).
  { apply Rmult_le_reg_l with T; [lra|]. rewrite <- Rmult_assoc, Rinv_r by lra. lra. }
  assert (IT : 0 < / T) by (apply Rinv_0_lt_compat; lra).
  assert (Rl : 0 <= rsum l) by (apply rsum_nonneg; rewrite Forall_forall in Fl; auto).
  eapply Rle_trans; [apply (weighted_columns_norm _ _ _ B); auto|].
  { apply Forall_forall. intros y I. apply in_map_iff in I. destruct I as (z & <- & I). rewrite Forall_forall in Fl.
    apply Rmult_le_pos; [|lra]. apply Rmult_le_pos; [auto|lra]. }
  apply Rmult_le_compat_r; auto. rewrite rsum_scaled. unfold Rdiv at 1. rewrite Rmult_assoc.
  apply Rle_trans with (rsum l * 1); [apply Rmult_le_compat_l; auto|lra].
Qed.

Variable columns : vec -> list vec.
(** The conditional means are bounded close to the attractor. *)
Lemma conditional_bound m : exists B, 0 <= B /\ forall x g, In g (gm_gauss m) -> norm (vsub x (gm_attractor m)) <= 1 ->
  length x = gm_space m -> length (gm_attractor m) = gm_space m ->
  norm (conditional_mean pinv (seq 0 (length x)) (feat_out m) x g) <= B.
Proof.
  set (n := gm_space m). set (A := gm_attractor m). induction (gm_gauss m) as [|g gs IH].
  - exists 0. split; [lra|]. intros x g [].
  - destruct IH as (B & HB & IH). set (mu := select (seq 0 n) (g_mean g)).
    set (K1 := rsum (map norm (submatrix (feat_out m) (seq 0 n) (g_cov g)))).
    set (K2 := rsum (map norm (pinv (submatrix (seq 0 n) (seq 0 n) (g_cov g))))).
    assert (P1 : 0 <= K1). { apply rsum_nonneg. intros y I. apply in_map_iff in I. destruct I as (? & <- & _). apply norm_nonneg. }
    assert (P2 : 0 <= K2). { apply rsum_nonneg. intros y I. apply in_map_iff in I. destruct I as (? & <- & _). apply norm_nonneg. }
    set (C := norm (select (feat_out m) (g_mean g)) + K1 * (K2 * (1 + norm (vsub A mu)))).
    assert (PC : 0 <= C).
    { unfold C. pose proof (norm_nonneg (select (feat_out m) (g_mean g))). pose proof (norm_nonneg (vsub A mu)).
      assert (0 <= K1 * (K2 * (1 + norm (vsub A mu)))); [|lra]. repeat apply Rmult_le_pos; lra. }
    exists (B + C). split; [lra|]. intros x h [<-|I] Hx Lx LA.
    2: { specialize (IH x h I Hx Lx LA). lra. }
    apply Rle_trans with C; [|lra]. unfold conditional_mean. rewrite Lx. fold mu.
    eapply Rle_trans; [apply norm_triangle|]. unfold C. apply Rplus_le_compat_l.
    eapply Rle_trans; [apply mat_vec_norm|]. fold K1. apply Rmult_le_compat_l; auto.
    eapply Rle_trans; [apply mat_vec_norm|]. fold K2. apply Rmult_le_compat_l; auto.
    assert (Lmu : length mu = n) by (unfold mu, select; rewrite map_length, seq_length; auto).
    replace (vsub x mu) with (vadd (vsub x A) (vsub A mu)) by (vext; ring).
    eapply Rle_trans; [apply norm_triangle|]. lra.
Qed.
(** With the convergence asked for, there is a neighbourhood of the attractor in which every
    predicted velocity is a unit vector towards it. *)
Theorem C99_attraction : forall m, mixture_ok det m (gm_space m) -> 0 <= gm_power m <= 1 ->
  bases columns (gm_space m) -> length (gm_attractor m) = gm_space m ->
  exists eps, 0 < eps /\ forall x, length x = gm_space m -> 0 < norm (vsub (gm_attractor m) x) < eps ->
    exists v, snd (predict det pinv columns m x (Some true)) = Ok v /\ norm v = 1 /\
      0 < dot (vsub (gm_attractor m) x) v.
Proof.
  intros m F P HB LA. destruct (conditional_bound m) as (B & PB & BD).
  set (eps := Rmin 1 (3 / 10 / (1 + B))). assert (Pe : 0 < 3 / 10 / (1 + B)) by (apply Rdiv_lt_0_compat; lra).
  exists eps. split. { apply Rmin_pos; lra. } intros x LX [D0 D1]. set (A := gm_attractor m) in *. set (m' := set_converge m true).
  assert (ND : norm (vsub x A) = norm (vsub A x)) by (replace (vsub x A) with (vscale (-1) (vsub A x)) by (vext; ring); rewrite norm_vscale, Rabs_left by lra; ring).
  assert (E1 : eps <= 1) by apply Rmin_l. assert (E2 : eps <= 3 / 10 / (1 + B)) by apply Rmin_r.
  destruct (C99_shrinks m x B) as (a & PR & La & Na); auto. { rewrite LX. auto. }
  { intros g I. apply BD; auto. fold A. lra. }
  unfold predict. cbn [with_argument snd]. fold m'. fold m' in PR. rewrite PR. cbn [bind].
  change (gm_space m') with (gm_space m). rewrite <- La, firstn_all. rewrite (firstn_all2 x) by lia.
  destruct (turned_spec columns m' x a) as (v & E & Lv & U & C); auto. { change (gm_attractor m') with A. lra. }
  change (gm_attractor m') with A in *. exists v. split; auto. split; [apply unit_norm; auto|].
  assert (CP : 0 < cos (norm a)).
  { apply cos_gt_0. { pose proof (norm_nonneg a). pose proof PI_RGT_0. lra. }
    apply Rle_lt_trans with 1; [|pose proof PI_ineq 0; pose proof PI2_1; lra].
    fold A in Na. rewrite ND in Na. set (d := norm (vsub A x)) in *. eapply Rle_trans; [apply Na|].
    assert (Q : d / (3 / 10) * (1 + B) <= 1).
    { apply Rmult_le_reg_r with (3 / 10); [lra|]. replace (d / (3 / 10) * (1 + B) * (3 / 10)) with (d * (1 + B)) by (field).
      apply Rmult_le_reg_r with (/ (1 + B)); [apply Rinv_0_lt_compat; lra|]. rewrite Rmult_assoc, Rinv_r by lra. unfold Rdiv in E2. lra. }
    assert (Q0 : 0 <= d / (3 / 10)) by (apply Rmult_le_pos; lra). nra. }
  rewrite <- C in CP. unfold direction in CP. rewrite dot_vscale_l in CP.
  apply Rmult_lt_reg_l with (/ norm (vsub A x)); [apply Rinv_0_lt_compat; lra|]. rewrite Rmult_0_r. auto.
Qed.

(** The argument with its default value resets the option of the learner: after it was switched
    on, a prediction without the argument switches it off and is the one without convergence. *)
Definition turning_mixture : gmm := mkGmm [mkG 1 [0; 0; 3] [[1; 0; 0]; [0; 1; 0]; [0; 0; 1]]] 2 3 [0; 0] 0 false.
Lemma turning_ok : 0 < det [[1; 0]; [0; 1]] -> mixture_ok det (set_converge turning_mixture false) 2.
Proof.
  intros HD. split; [|simpl; lia]. split.
  - intros g [<-|[]]. cbn. split; [lra|auto].
  - eexists. split; [left; reflexivity|]. simpl. lra.
Qed.
Lemma turning_predict x : 0 < det [[1; 0]; [0; 1]] -> length x = 2%nat ->
  predict_rows det pinv (set_converge turning_mixture false) [x] = Ok [[3]].
Proof.
  intros HD LX. pose proof (turning_ok HD) as F.
  destruct (C98_deviation det pinv (set_converge turning_mixture false) x) as (w & a & E & PR & La & Ea & _); auto.
  { rewrite LX. auto. } { simpl. lra. }
  rewrite PR. do 2 f_equal.
  destruct (C97_mixing_weights det pinv (gm_gauss turning_mixture) (seq 0 (length x)) false 4 x) as (w' & c & E' & _ & Q & _ & [W0 _] & _).
  { rewrite LX. apply F. } { lra. }
  change (gm_gauss (set_converge turning_mixture false)) with (gm_gauss turning_mixture) in E. assert (EW : w' = w) by congruence. rewrite EW in Q, W0.
  assert (LW : length w = 1%nat) by (rewrite Q; reflexivity).
  clear Q E E' EW w'. destruct w as [|b [|]]; try discriminate LW. rewrite LX in *. change (gm_power (set_converge turning_mixture false)) with 0 in *.
  change (gm_space (set_converge turning_mixture false)) with 2%nat in *.
  assert (Pb : 0 < b) by (simpl in W0; lra). rewrite Ea. cbn [rsum fold_right map].
  rewrite Rpower_O by lra. replace (b / (b + 0) * 1) with 1 by (field; lra).
  assert (CM : conditional_mean pinv (seq 0 2) (feat_out (set_converge turning_mixture false)) x
                 (mkG 1 [0; 0; 3] [[1; 0; 0]; [0; 1; 0]; [0; 0; 1]]) = [3]).
  { unfold conditional_mean, feat_out, mat_vec at 1. cbn. destruct (mat_vec _ _) as [|y0 [|y1 ?]]; cbn; f_equal; ring. }
  cbn [gm_gauss set_converge turning_mixture map]. rewrite CM. unfold weighted_columns. cbn. f_equal. ring.
Qed.
Lemma norm_one a : 0 <= a -> norm [a] = a.
Proof. intros. unfold norm. cbn. replace (a * a + 0) with (a * a) by ring. apply sqrt_square. auto. Qed.
Lemma cos_3_neg : cos 3 < 0.
Proof. pose proof PI_4. pose proof PI2_1. apply cos_lt_0; lra. Qed.
Theorem C99_option_lost_refuted : 0 < det [[1; 0]; [0; 1]] -> bases columns 2 ->
  exists m, mixture_ok det m (gm_space m) /\ 0 <= gm_power m <= 1 /\ gm_converge m = true /\
    forall x, length x = gm_space m -> x <> gm_attractor m ->
      gm_converge (fst (predict det pinv columns m x default_argument)) = false /\
      exists v, snd (predict det pinv columns m x default_argument) = Ok v /\ norm v = 1 /\
        dot (vsub (gm_attractor m) x) v < 0.
Proof.
  intros HD HB. set (m := set_converge turning_mixture true). exists m. pose proof (turning_ok HD) as F.
  split; auto. split; [simpl; lra|]. split; auto. intros x LX NX. simpl in LX, NX. split; auto.
  assert (N0 : norm (vsub [0; 0] x) <> 0). { intros Z. apply norm_vsub_0 in Z; auto. }
  unfold predict, default_argument. cbn [with_argument snd].
  change (set_converge m false) with (set_converge turning_mixture false). rewrite (turning_predict x HD LX). cbn [bind].
  change (gm_space (set_converge turning_mixture false)) with 2%nat in *. rewrite (firstn_all2 x) by lia. cbn [firstn Nat.sub].
  destruct (turned_spec columns (set_converge turning_mixture false) x [3]) as (v & Ev & Lv & U & C); auto.
  exists v. split; auto. split; [apply unit_norm; auto|]. change (gm_attractor (set_converge turning_mixture false)) with [0; 0] in C.
  change (gm_attractor m) with [0; 0]. set (d := vsub [0; 0] x) in *.
  rewrite norm_one in C by lra. pose proof cos_3_neg as CN.
  unfold direction in C. rewrite dot_vscale_l in C. assert (0 < norm d) by (pose proof (norm_nonneg d); lra).
  apply Rmult_lt_reg_l with (/ norm d); [apply Rinv_0_lt_compat; auto|]. rewrite Rmult_0_r, C. auto.
Qed.
End Convergence.
Print Assumptions C97_mixing_weights.
Print Assumptions C97_degenerate.
Print Assumptions C98_deviation.
Print Assumptions C98_velocity.
Print Assumptions C99_shrinks.
Print Assumptions C99_attraction.
Print Assumptions C99_option_lost_refuted.
