(** Properties C152 and C153: regression of a mixture of Gaussians and its remaining uncertainty. *)
Require Import Reals List Bool Arith ZArith Lra Lia Psatz.
From Verif Require Import Base Vec Angle Pow RotModel Spec RotProofs FieldModel GmmModel PropGmm CondModel.
Import ListNotations.
Open Scope R_scope.

(** * C152 *)
Section Regress.
Variable det : list vec -> R.
Variable pinv : list vec -> list vec.
Notation regress := (regress_gmm det pinv).

Lemma weighted_dot n ws cs u B : Forall (fun w => 0 <= w) ws -> (forall c, In c cs -> dot u c <= B) -> length ws = length cs ->
  dot u (weighted_columns n ws cs) <= rsum ws * B.
Proof.
  unfold weighted_columns, rsum. revert cs. induction ws as [|w ws IH]; intros [|c cs] Hw Hc L; try discriminate.
  - cbn [combine fold_right]. rewrite dot_vzero_r. lra.
  - cbn [combine fold_right fst snd]. rewrite dot_vadd_r, dot_vscale_r. inversion Hw; subst.
    specialize (IH cs H2 ltac:(intros; apply Hc; right; auto) ltac:(cbn in L; lia)).
    assert (w * dot u c <= w * B) by (apply Rmult_le_compat_l; auto; apply Hc; left; auto). lra.
Qed.
Lemma weighted_zero n (w : list R) : forall ms, Forall (fun c => length c = n) ms -> weighted_columns n (map (fun _ => 0) w) ms = vzero n.
Proof.
  unfold weighted_columns. induction w as [|a w IH]; intros [|m ms] LM; auto. cbn [map combine fold_right fst snd].
  rewrite IH by (inversion LM; auto). assert (length m = n) by (inversion LM; auto). vext. rewrite ?nth_vzero. ring.
Qed.
(** Without convergence to an attractor, the value lies in the convex hull of the conditional
    means: on the same side of every hyperplane as all of them. *)
Theorem C152_between : forall gs dim dims_input attractor p b r x, fitted det gs dims_input ->
  exists y, regress gs dim dims_input None None false attractor p b r x = Ok y /\
    length y = length (outputs dim dims_input) /\
    forall u B, (forall g, In g gs -> dot u (conditional_mean pinv dims_input (outputs dim dims_input) x g) <= B) -> dot u y <= B.
Proof.
  intros gs dim di att p b r x F. destruct (C97_mixing_weights det pinv gs di true 1 x F ltac:(lra)) as (w & c & E & _ & Ew & NN & _ & S).
  unfold regress_gmm. rewrite E. cbn [bind fst snd]. eexists. split; [reflexivity|]. split.
  - apply weighted_columns_len. apply Forall_forall. intros m Hm. apply in_map_iff in Hm as (g & <- & _). apply conditional_length.
  - intros u B H. eapply Rle_trans; [apply (weighted_dot _ _ _ _ B)|rewrite (S eq_refl); lra].
    + apply Forall_forall. auto.
    + intros m Hm. apply in_map_iff in Hm as (g & <- & Hg). auto.
    + rewrite Ew, !map_length. auto.
Qed.

(** The value at the attractor is zero, and close to it at most the norm of the conditional means
    times a power of the distance. *)
Theorem C152_attractor : forall gs dim dims_input attractor p b r x, fitted det gs dims_input -> 0 < p -> 0 <= b -> 0 < r ->
  exists y, regress gs dim dims_input None None true (Some attractor) p b r x = Ok y /\ length y = length (outputs dim dims_input) /\
    forall B, 0 <= B -> (forall g, In g gs -> norm (conditional_mean pinv dims_input (outputs dim dims_input) x g) <= B) ->
    let d := norm (vsub x attractor) in
    norm y <= if Req_EM_T d 0 then 0 else B * Rpower (d / r) p.
Proof.
  intros gs dim di att p b r x F P Pb Pr. destruct (C97_mixing_weights det pinv gs di true 1 x F ltac:(lra)) as (w & c & E & _ & Ew & NN & _ & S).
  specialize (S eq_refl). unfold regress_gmm. rewrite E. cbn [bind]. set (d := norm (vsub x att)). unfold regress_weights.
  set (ms := map _ gs). assert (Lw : length w = length ms) by (unfold ms; rewrite Ew, !map_length; auto).
  assert (LM : Forall (fun c => length c = length (outputs dim di)) ms).
  { apply Forall_forall. intros m Hm. apply in_map_iff in Hm as (g & <- & _). apply conditional_length. }
  assert (LM' : Forall (fun c => length c = length (outputs dim di)) (ms ++ [vzero (length (outputs dim di))])).
  { apply Forall_app. split; auto. constructor; auto. apply length_vzero. }
  destruct (Req_EM_T d 0) as [Z|Z].
  - cbn [bind fst snd]. eexists. split; [reflexivity|]. split; [apply weighted_columns_len; auto|]. intros B HB HM. cbv zeta.
    destruct (Req_EM_T d 0); [|contradiction].
    rewrite weighted_columns_last; [|rewrite map_length; auto|exact LM].
    eapply Rle_trans; [apply (weighted_columns_norm _ _ _ B)|].
    + apply Forall_forall. intros y Hy. apply in_map_iff in Hy as (? & <- & _). lra.
    + apply Forall_forall. intros m Hm. apply in_map_iff in Hm as (g & <- & Hg). auto.
    + auto.
    + replace (rsum (map (fun _ : R => 0) w)) with 0; [lra|]. clear. unfold rsum. induction w; cbn [map fold_right]; lra.
  - assert (Pd : 0 < d) by (assert (0 <= d) by apply norm_nonneg; lra).
    assert (Pq : 0 < d / r) by (apply Rdiv_lt_0_compat; auto). unfold fpow. destruct (Rlt_dec 0 (d / r)); [|contradiction]. cbn [bind].
    set (q := Rpower (d / r) (- p) + b). assert (Q0 : 0 < Rpower (d / r) (- p)) by apply Rpower_pos.
    assert (Qp : 0 < q) by (unfold q; lra). pose proof (norm_snoc_ge w q ltac:(lra)) as NS.
    destruct (Req_EM_T (norm (w ++ [q])) 0); [lra|]. cbn [bind fst snd]. eexists. split; [reflexivity|]. split; [apply weighted_columns_len; auto|].
    intros B HB HM. cbv zeta. destruct (Req_EM_T d 0); [contradiction|]. unfold vdiv, vscale. rewrite map_app. cbn [map].
    rewrite weighted_columns_last; [|rewrite map_length; auto|exact LM].
    set (N := norm (w ++ [q])) in *.
    assert (IN : 0 < / N <= Rpower (d / r) p).
    { split; [apply Rinv_0_lt_compat; lra|]. assert (Rpower (d / r) (- p) <= N) by (unfold q in NS; lra).
      rewrite Rpower_Ropp in H. rewrite <- (Rinv_inv (Rpower (d / r) p)). apply Rinv_le_contravar; auto.
      apply Rinv_0_lt_compat, Rpower_pos. }
    eapply Rle_trans; [apply (weighted_columns_norm _ _ _ B)|].
    + apply Forall_forall. intros y Hy. apply in_map_iff in Hy as (z & <- & Hz). apply Rmult_le_pos; [lra|auto].
    + apply Forall_forall. intros m Hm. apply in_map_iff in Hm as (g & <- & Hg). auto.
    + auto.
    + replace (rsum (map (Rmult (/ N)) w)) with (/ N * rsum w).
      2: { clear. generalize (/ N). intros k. clear. unfold rsum. induction w; cbn [map fold_right]; [ring|]. rewrite <- IHw. ring. }
      rewrite S, Rmult_1_r. rewrite Rmult_comm. apply Rmult_le_compat_l; lra.
Qed.

(** The weights are divided by their Euclidean norm and do not sum up to one: two components of
    equal mean predict more than this mean. *)
Theorem C152_hull_refuted : forall cov m attractor x, let fi := [0%nat] in
  0 < det (submatrix fi fi cov) -> norm (vsub [x] attractor) = 3 -> 0 < m ->
  submatrix [1%nat] fi cov = [[0]] ->
  let gs := [mkG (1 / 2) [0; m] cov; mkG (1 / 2) [0; m] cov] in
  (forall g, In g gs -> conditional_mean pinv fi (outputs 2 fi) [x] g = [m]) /\
  exists y, regress gs 2 fi None None true (Some attractor) 2 (1 / 2) (3 / 10) [x] = Ok [y] /\ m < y.
Proof.
  intros cov m att x fi D Nd Pm C0 gs. assert (EO : outputs 2 fi = [1%nat]) by reflexivity.
  assert (CM : forall g, In g gs -> conditional_mean pinv fi (outputs 2 fi) [x] g = [m]).
  { intros g Hg. assert (G : g = mkG (1 / 2) [0; m] cov) by (destruct Hg as [<-|[<-|[]]]; auto). rewrite G, EO.
    unfold conditional_mean. cbn [g_mean g_cov]. rewrite C0. unfold select. cbn [map nth].
    set (v := mat_vec (pinv _) _). unfold mat_vec. cbn [map]. assert (Z : dot [0] v = 0) by (destruct v; cbn; lra). rewrite Z. cbn. f_equal. lra. }
  split; auto.
  assert (F : fitted det gs fi).
  { split; [|exists (mkG (1 / 2) [0; m] cov); split; [left; auto|cbn; lra]]. intros g Hg.
    assert (G : g = mkG (1 / 2) [0; m] cov) by (destruct Hg as [<-|[<-|[]]]; auto). rewrite G. cbn [g_weight g_cov]. split; [lra|auto]. }
  destruct (C97_mixing_weights det pinv gs fi true 1 [x] F ltac:(lra)) as (w & c & E & _ & Ew & NN & _ & S). specialize (S eq_refl).
  assert (W : w = [1 / 2; 1 / 2]).
  { rewrite Ew in S |- *. unfold gs in *. cbn [map] in *. set (l := likelihood _ _ _ _ _) in *. unfold rsum in S. cbn [fold_right] in S. assert (H : c * l = 1 / 2) by lra. rewrite H. auto. }
  unfold regress_gmm. rewrite E, W. cbn [bind]. rewrite Nd. unfold regress_weights. destruct (Req_EM_T 3 0); [lra|].
  unfold fpow. destruct (Rlt_dec 0 (3 / (3 / 10))); [|lra]. cbn [bind].
  assert (Q : Rpower (3 / (3 / 10)) (Ropp 2) = 1 / 100).
  { replace (3 / (3 / 10)) with 10 by field. rewrite Rpower_Ropp. replace 2 with (INR 2) by (cbn; ring). rewrite Rpower_pow by lra. field. }
  rewrite Q. set (N := norm _). assert (NN2 : N * N = 76010 / 100000). { unfold N. rewrite norm_sq. cbn. lra. }
  assert (N0 : 0 <= N) by apply norm_nonneg. assert (N1 : 0 < N < 9 / 10) by nra. destruct (Req_EM_T N 0); [lra|]. cbn [bind fst snd].
  assert (EM : map (conditional_mean pinv fi (outputs 2 fi) [x]) gs = [[m]; [m]]).
  { unfold gs in *. cbn [map]. rewrite !CM by (cbn; auto). auto. }
  rewrite EM, EO. exists (m / N). split.
  - unfold weighted_columns, vdiv. cbn. f_equal. f_equal. field. lra.
  - apply (Rmult_lt_reg_r N); [lra|]. replace (m / N * N) with m by (field; lra). nra.
Qed.

(** With normalized data the position is normalized, but not the attractor: the weights are those of
    the attractor where the normalized position is the attractor, and the value there is the
    mean of the outputs. *)
Theorem C152_normalized_refuted : forall gs dim dims_input mu attractor p b r x, fitted det gs dims_input ->
  vsub x (select dims_input mu) = attractor ->
  regress gs dim dims_input (Some mu) None true (Some attractor) p b r x =
    Ok (select (outputs dim dims_input) mu).
Proof.
  intros gs dim di mu att p b r x F EX. destruct (C97_mixing_weights det pinv gs di true 1 att F ltac:(lra)) as (w & c & E & _ & Ew & NN & _ & S).
  unfold regress_gmm. rewrite EX, E. cbn [bind].
  assert (Z : norm (vsub att att) = 0) by (apply norm_eq_0_dot; autorewrite with vdot; ring). rewrite Z. unfold regress_weights.
  destruct (Req_EM_T 0 0); [|contradiction]. cbn [bind fst snd]. f_equal. set (ms := map (conditional_mean _ _ _ _) gs).
  assert (Lw : length w = length ms) by (unfold ms; rewrite Ew, !map_length; auto).
  assert (LM : Forall (fun c => length c = length (outputs dim di)) ms).
  { apply Forall_forall. intros m Hm. apply in_map_iff in Hm as (g & <- & _). apply conditional_length. }
  rewrite weighted_columns_last; [|rewrite map_length; auto|exact LM].
  assert (WZ : weighted_columns (length (outputs dim di)) (map (fun _ => 0) w) ms = vzero (length (outputs dim di))).
  { apply weighted_zero; auto. }
  rewrite WZ. assert (length (select (outputs dim di) mu) = length (outputs dim di)) by apply map_length. vext. rewrite ?nth_vzero. ring.
Qed.
End Regress.

(** One component with a covariance between input and output: half of the input deviation. *)
Example C152_case : forall det pinv, 0 < det [[2]] -> pinv [[2]] = [[1 / 2]] ->
  regress_gmm det pinv [mkG 1 [0; 5] [[2; 1]; [1; 1]]] 2 [0%nat] None None false None 2 (1 / 2) (3 / 10) [4] = Ok [7].
Proof.
  intros det pinv D P.
  assert (F : fitted det [mkG 1 [0; 5] [[2; 1]; [1; 1]]] [0%nat]).
  { split; [|exists (mkG 1 [0; 5] [[2; 1]; [1; 1]]); split; [left; auto|cbn; lra]]. intros g [<-|[]]. cbn. split; [lra|auto]. }
  destruct (C97_mixing_weights det pinv _ [0%nat] true 1 [4] F ltac:(lra)) as (w & c & E & _ & Ew & NN & _ & S). specialize (S eq_refl).
  cbn [map] in Ew. unfold regress_gmm. rewrite E. cbn [bind fst snd]. rewrite Ew in S |- *. unfold rsum in S. cbn [fold_right] in S.
  set (l := c * _) in *. assert (L : l = 1) by lra. rewrite L. unfold conditional_mean, submatrix, select, outputs.
  cbn [map nth g_cov g_mean seq filter existsb Nat.eqb orb negb length]. rewrite P. unfold weighted_columns. cbn. f_equal. f_equal. field.
Qed.

(** * C153 *)
(** Quadratic form of a matrix. *)
Definition form (m : list vec) (v : vec) : R := dot v (mat_vec m v).
(** A covariance matrix: square, symmetric and positive semi-definite. *)
Definition covariance (dim : nat) (c : list vec) : Prop :=
  length c = dim /\ (forall r, In r c -> length r = dim) /\
  (forall i j, nth j (nth i c []) 0 = nth i (nth j c []) 0) /\
  forall v, length v = dim -> 0 <= form c v.
(** What [numpy.linalg.pinv] promises for a symmetric matrix: symmetric, and P A P = P. *)
Definition pseudo_inverse (k : nat) (a p : list vec) : Prop :=
  length p = k /\ (forall r, In r p -> length r = k) /\
  (forall u v, length u = k -> length v = k -> dot u (mat_vec p v) = dot (mat_vec p u) v) /\
  forall u, length u = k -> mat_vec p (mat_vec a (mat_vec p u)) = mat_vec p u.

Lemma mat_vec_len m v : length (mat_vec m v) = length m.
Proof. apply map_length. Qed.
Lemma weighted_dot_eq n r m y : dot (weighted_columns n r m) y = dot r (mat_vec m y).
Proof.
  unfold weighted_columns. revert m. induction r as [|a r IH]; intros [|x m]; cbn [combine fold_right mat_vec map dot];
    try apply dot_vzero_l; try reflexivity.
  cbn [fst snd]. rewrite dot_vadd_l, dot_vscale_l, IH. auto.
Qed.
Lemma mat_mul_vec n m k y : mat_vec (mat_mul n m k) y = mat_vec m (mat_vec k y).
Proof. unfold mat_mul, mat_vec. rewrite map_map. apply map_ext. intros r. apply weighted_dot_eq. Qed.
Lemma mat_sub_vec m : forall k y, length m = length k -> mat_vec (mat_sub m k) y = vsub (mat_vec m y) (mat_vec k y).
Proof.
  induction m as [|r m IH]; intros [|s k] y L; try discriminate; auto.
  unfold mat_sub. cbn [combine map fst snd mat_vec]. fold (mat_sub m k). change (map (fun r0 => dot r0 y) (mat_sub m k)) with (mat_vec (mat_sub m k) y).
  rewrite IH by (cbn in L; lia). transitivity (dot r y + -1 * dot s y :: vsub (mat_vec m y) (mat_vec k y)); [|reflexivity]. rewrite dot_vsub_l. f_equal. ring.
Qed.
Lemma nth_map_idx (f : nat -> R) idx k i : nth_error idx k = Some i -> nth k (map f idx) 0 = f i.
Proof. intros H. apply nth_error_nth. rewrite nth_error_map, H. auto. Qed.
(** A vector with the entries of [x] at the indices [idx]. *)
Definition unit_at (dim i : nat) : vec := map (fun k => if Nat.eqb k i then 1 else 0) (seq 0 dim).
Definition put (dim : nat) (idx : list nat) (x : vec) : vec := weighted_columns dim x (map (unit_at dim) idx).
Lemma unit_at_len dim i : length (unit_at dim i) = dim.
Proof. unfold unit_at. rewrite map_length, seq_length. auto. Qed.
Lemma put_len dim idx x : length (put dim idx x) = dim.
Proof. apply weighted_columns_len. apply Forall_forall. intros c Hc. apply in_map_iff in Hc as (i & <- & _). apply unit_at_len. Qed.
Lemma unit_at_dot_gen : forall v k i, (k <= i)%nat -> 
  dot (map (fun j => if Nat.eqb j i then 1 else 0) (seq k (length v))) v = nth (i - k) v 0.
Proof.
  induction v as [|a v IH]; intros k i H; [destruct (i - k)%nat; auto|]. cbn [length seq map dot]. destruct (Nat.eqb_spec k i) as [->|N].
  - rewrite Nat.sub_diag. cbn [nth]. replace (dot _ v) with 0; [ring|]. symmetry.
    assert (Z : forall m s, (i < s)%nat -> dot (map (fun j => if Nat.eqb j i then 1 else 0) (seq s (length m))) m = 0).
    { induction m as [|b m IHm]; intros s Hs; auto. cbn [length seq map dot]. destruct (Nat.eqb_spec s i); [lia|]. rewrite IHm by lia. ring. }
    apply Z. lia.
  - rewrite IH by lia. replace (i - k)%nat with (S (i - S k)) by lia. cbn [nth]. ring.
Qed.
Lemma unit_at_dot dim v i : length v = dim -> dot (unit_at dim i) v = nth i v 0.
Proof. intros <-. unfold unit_at. rewrite unit_at_dot_gen by lia. f_equal. lia. Qed.
Lemma put_dot dim idx x v : length v = dim -> dot (put dim idx x) v = dot x (select idx v).
Proof.
  intros L. unfold put. rewrite weighted_dot_eq. f_equal. unfold mat_vec, select. rewrite map_map. apply map_ext. intros i. apply unit_at_dot. auto.
Qed.
Lemma put_put c dim I J x y : length c = dim -> (forall r, In r c -> length r = dim) -> (forall i, In i I -> (i < dim)%nat) ->
  dot (put dim I x) (mat_vec c (put dim J y)) = dot x (mat_vec (submatrix I J c) y).
Proof.
  intros Lc Lr HI. rewrite put_dot by (rewrite mat_vec_len; auto). f_equal. unfold select, mat_vec, submatrix. rewrite map_map.
  apply map_ext_in. intros i Hi. specialize (HI i Hi).
  rewrite (nth_indep _ 0 (dot [] (put dim J y))) by (rewrite map_length; lia).
  rewrite (map_nth (fun r => dot r (put dim J y))). rewrite dot_comm, put_dot; [apply dot_comm|]. apply Lr. apply nth_In. lia.
Qed.
Lemma sub_transpose c dim I J x y : covariance dim c -> (forall i, In i I -> (i < dim)%nat) -> (forall j, In j J -> (j < dim)%nat) ->
  dot x (mat_vec (submatrix I J c) y) = dot (mat_vec (submatrix J I c) x) y.
Proof.
  intros (Lc & Lr & Sy & _) HI HJ. unfold mat_vec, submatrix, select. rewrite !map_map. revert x y HI. 
  assert (G : forall I x y, dot x (map (fun i => dot (map (fun j => nth j (nth i c []) 0) J) y) I) = dot (map (fun j => dot (map (fun i => nth i (nth j c []) 0) I) x) J) y).
  { clear -Sy. intros I. induction I as [|i I IH]; intros x y.
    - destruct x; cbn [map dot].
      + induction J in y |- *; destruct y; cbn; auto. rewrite <- IHJ. ring.
      + induction J in y |- *; destruct y; cbn; auto. rewrite <- IHJ. ring.
    - destruct x as [|a x]; cbn [map dot].
      + clear IH. induction J in y |- *; destruct y; cbn; auto. rewrite <- IHJ. ring.
      + rewrite IH. clear IH. induction J as [|j J IHJ] in y |- *; destruct y as [|b y]; cbn [map dot]; try ring.
        rewrite <- IHJ. rewrite (Sy i j). ring. }
  intros. apply G.
Qed.
Lemma mat_vec_add m u v : mat_vec m (vadd u v) = vadd (mat_vec m u) (mat_vec m v).
Proof. induction m as [|r m IH]; auto. cbn [mat_vec map vadd]. rewrite dot_vadd_r. f_equal. apply IH. Qed.
Lemma mat_vec_scale m c v : mat_vec m (vscale c v) = vscale c (mat_vec m v).
Proof. induction m as [|r m IH]; auto. cbn [mat_vec map vscale]. rewrite dot_vscale_r. f_equal. apply IH. Qed.

(** The covariance of the outputs for given inputs is positive semi-definite, and not larger than
    the covariance of the outputs: knowing the inputs never adds uncertainty.  For every
    selection of inputs and outputs, also for singular covariances. *)
Theorem C153_conditional_covariance : forall pinv dim g feat_in feat_out, covariance dim (g_cov g) ->
  (forall i, In i feat_in -> (i < dim)%nat) -> (forall i, In i feat_out -> (i < dim)%nat) ->
  pseudo_inverse (length feat_in) (submatrix feat_in feat_in (g_cov g)) (pinv (submatrix feat_in feat_in (g_cov g))) ->
  forall y, length y = length feat_out ->
  0 <= form (covariance_out pinv feat_in feat_out g) y <= form (submatrix feat_out feat_out (g_cov g)) y.
Proof.
  intros pinv dim g fi fo C HI HO (Lp & Lr & SyP & PAP) y Ly. set (c := g_cov g) in *. set (A := submatrix fi fi c) in *. set (P := pinv A) in *.
  set (B := submatrix fi fo c). set (BT := submatrix fo fi c). set (D := submatrix fo fo c).
  assert (ES : mat_vec (covariance_out pinv fi fo g) y = vsub (mat_vec D y) (mat_vec BT (mat_vec P (mat_vec B y)))).
  { unfold covariance_out. cbv zeta. fold c. fold A. fold P. fold D. fold BT. fold B. rewrite mat_sub_vec.
    - rewrite !mat_mul_vec. auto.
    - unfold mat_mul, D, BT, submatrix. rewrite !map_length. auto. }
  assert (LB : length (mat_vec B y) = length fi) by (rewrite mat_vec_len; apply map_length).
  set (b := mat_vec B y) in *. assert (LPb : length (mat_vec P b) = length fi) by (rewrite mat_vec_len; auto).
  assert (EB : dot y (mat_vec BT (mat_vec P b)) = dot b (mat_vec P b)).
  { unfold BT. rewrite (sub_transpose c dim fo fi y (mat_vec P b) C HO HI). fold B. auto. }
  assert (EA : dot b (mat_vec P b) = dot (mat_vec P b) (mat_vec A (mat_vec P b))).
  { rewrite <- (PAP b LB) at 1. apply SyP; auto. rewrite mat_vec_len. unfold A, submatrix. apply map_length. }
  destruct C as (Lc & Lrow & Sy & PSD).
  assert (QF : forall x, length x = length fi -> 0 <= dot x (mat_vec A x) + 2 * dot x b + dot y (mat_vec D y)).
  { intros x Lx. pose proof (PSD (vadd (put dim fi x) (put dim fo y))) as Q. unfold form in Q.
    rewrite mat_vec_add, dot_vadd_l, !dot_vadd_r in Q. rewrite !(put_put c dim) in Q by auto. fold A in Q. fold D in Q.
    rewrite (sub_transpose c dim fo fi y x (conj Lc (conj Lrow (conj Sy PSD))) HO HI) in Q. fold B in Q. fold b in Q.
    rewrite (dot_comm b x) in Q. rewrite length_vadd, !put_len, Nat.max_id in Q. specialize (Q eq_refl). lra. }
  unfold form. rewrite ES, dot_vsub_r, EB. split.
  - pose proof (QF (vscale (-1) (mat_vec P b)) ltac:(rewrite length_vscale; auto)) as Q.
    rewrite mat_vec_scale, !dot_vscale_l, dot_vscale_r in Q. rewrite <- EA in Q. rewrite (dot_comm (mat_vec P b) b) in Q. fold D. lra.
  - pose proof (PSD (put dim fi (mat_vec P b)) ltac:(apply put_len)) as Q. unfold form in Q. rewrite (put_put c dim) in Q by auto. fold A in Q.
    fold D. lra.
Qed.
(** It is zero in the directions of the outputs which the inputs determine: an output which is one of the
    inputs has no remaining variance, for a covariance of the inputs which can be inverted. *)
Theorem C153_known : forall pinv dim g feat_in i k, covariance dim (g_cov g) ->
  (forall i, In i feat_in -> (i < dim)%nat) -> nth_error feat_in k = Some i ->
  pseudo_inverse (length feat_in) (submatrix feat_in feat_in (g_cov g)) (pinv (submatrix feat_in feat_in (g_cov g))) ->
  (forall u, length u = length feat_in -> mat_vec (pinv (submatrix feat_in feat_in (g_cov g))) (mat_vec (submatrix feat_in feat_in (g_cov g)) u) = u) ->
  forall a, form (covariance_out pinv feat_in [i] g) [a] = 0.
Proof.
  intros pinv dim g fi i k C HI HK (Lp & Lr & SyP & PAP) INV a. set (c := g_cov g) in *. set (A := submatrix fi fi c) in *. set (P := pinv A) in *.
  assert (Hi : (i < dim)%nat) by (apply HI; eapply nth_error_In; eauto).
  assert (HO : forall j, In j [i] -> (j < dim)%nat) by (intros j [<-|[]]; auto).
  set (B := submatrix fi [i] c). set (BT := submatrix [i] fi c). set (D := submatrix [i] [i] c).
  assert (ES : mat_vec (covariance_out pinv fi [i] g) [a] = vsub (mat_vec D [a]) (mat_vec BT (mat_vec P (mat_vec B [a])))).
  { unfold covariance_out. cbv zeta. fold c. fold A. fold P. fold D. fold BT. fold B. rewrite mat_sub_vec.
    - rewrite !mat_mul_vec. auto.
    - unfold mat_mul, D, BT, submatrix. rewrite !map_length. auto. }
  assert (Hk : (k < length fi)%nat) by (apply nth_error_Some; congruence).
  assert (EB : mat_vec B [a] = mat_vec A (vscale a (unit_at (length fi) k))).
  { unfold mat_vec, A, B, submatrix. rewrite !map_map. apply map_ext_in. intros j Hj. rewrite dot_vscale_r, dot_comm.
    rewrite (dot_comm _ (unit_at _ _)), unit_at_dot by apply map_length. unfold select at 1. cbn [map dot].
    unfold select. rewrite (nth_map_idx _ _ _ _ HK). ring. }
  assert (LU : length (vscale a (unit_at (length fi) k)) = length fi) by (rewrite length_vscale; apply unit_at_len).
  unfold form. rewrite ES, EB, (INV _ LU). rewrite dot_vsub_r. unfold BT.
  rewrite (sub_transpose c dim [i] fi [a] _ C HO HI). fold B. rewrite (dot_comm (mat_vec B [a])).
  assert (E2 : dot (vscale a (unit_at (length fi) k)) (mat_vec B [a]) = dot [a] (mat_vec D [a])).
  { rewrite dot_vscale_l, unit_at_dot by (rewrite mat_vec_len; apply map_length). unfold B, D, submatrix, mat_vec. rewrite map_map. cbn [map dot].
    rewrite (nth_map_idx _ _ _ _ HK). ring. }
  rewrite E2. ring.
Qed.

(** A variance of one of the output, of which half is explained by the input. *)
Example C153_case : forall pinv, pinv [[2]] = [[1 / 2]] ->
  covariance_out pinv [0%nat] [1%nat] (mkG 1 [0; 5] [[2; 1]; [1; 1]]) = [[1 / 2]] /\ form [[1 / 2]] [2] = 2.
Proof.
  intros pinv P. unfold covariance_out, submatrix, select. cbn [map nth g_cov length]. rewrite P. unfold form. cbn. split; [f_equal; f_equal|]; lra.
Qed.
Example C153_hypotheses : covariance 2 [[2; 1]; [1; 1]] /\ pseudo_inverse 1 [[2]] [[1 / 2]].
Proof.
  split.
  - split; [auto|]. split; [intros r [<-|[<-|[]]]; auto|]. split.
    + intros [|[|i]] [|[|j]]; cbn; auto; destruct i || destruct j; auto; destruct j; auto.
    + intros [|a [|b [|]]] L; try discriminate. unfold form. cbn. nra.
  - split; [auto|]. split; [intros r [<-|[]]; auto|]. split.
    + intros [|a [|]] [|b [|]] L1 L2; try discriminate. cbn. ring.
    + intros [|a [|]] L; try discriminate. cbn. f_equal. field.
Qed.
Print Assumptions C152_between.
Print Assumptions C152_attractor.
Print Assumptions C152_hull_refuted.
Print Assumptions C152_normalized_refuted.
Print Assumptions C153_conditional_covariance.
Print Assumptions C153_known.
