(** Vectors as lists of reals.  Addition pads the shorter list with zeros and the dot product
    truncates: this keeps both total and bilinear.  numpy raises on unequal shapes; theorems
    about vectors therefore quantify over vectors of equal length. *)
Require Import Reals List Lra Lia Psatz.
From Verif Require Import Base.
Import ListNotations.
Open Scope R_scope.

Notation vec := (list R).

Fixpoint vadd (u v : vec) : vec :=
  match u, v with
  | [], _ => v
  | _, [] => u
  | a :: u', b :: v' => (a + b) :: vadd u' v'
  end.
Definition vscale (c : R) (v : vec) : vec := map (Rmult c) v.
Definition vsub (u v : vec) : vec := vadd u (vscale (-1) v).
Fixpoint dot (u v : vec) : R :=
  match u, v with
  | a :: u', b :: v' => a * b + dot u' v'
  | _, _ => 0
  end.
Definition norm (v : vec) : R := sqrt (dot v v).
Definition vzero (n : nat) : vec := repeat 0 n.
(** [v / c], only used where [c] has been tested to be nonzero. *)
Definition vdiv (v : vec) (c : R) : vec := vscale (/ c) v.
Definition unitv (v : vec) : Prop := dot v v = 1.

(** ** Coordinates *)
Lemma nth_vadd i u v : nth i (vadd u v) 0 = nth i u 0 + nth i v 0.
Proof.
  revert u v. induction i; destruct u, v; simpl; try lra.
  apply IHi.
Qed.
Lemma nth_vscale i c v : nth i (vscale c v) 0 = c * nth i v 0.
Proof.
  revert v. induction i; destruct v; simpl; try lra. apply IHi.
Qed.
Lemma nth_vsub i u v : nth i (vsub u v) 0 = nth i u 0 - nth i v 0.
Proof. unfold vsub. rewrite nth_vadd, nth_vscale. lra. Qed.
Lemma nth_vdiv i c v : nth i (vdiv v c) 0 = nth i v 0 / c.
Proof. unfold vdiv. rewrite nth_vscale. unfold Rdiv. lra. Qed.
Lemma nth_vzero i n : nth i (vzero n) 0 = 0.
Proof. unfold vzero. revert i; induction n; destruct i; simpl; auto. Qed.

Lemma length_vadd u v : length (vadd u v) = Nat.max (length u) (length v).
Proof. revert v; induction u; destruct v; simpl; auto. Qed.
Lemma length_vscale c v : length (vscale c v) = length v.
Proof. apply map_length. Qed.
Lemma length_vsub u v : length (vsub u v) = Nat.max (length u) (length v).
Proof. unfold vsub. rewrite length_vadd, length_vscale; auto. Qed.
Lemma length_vdiv c v : length (vdiv v c) = length v.
Proof. apply length_vscale. Qed.
Lemma length_vzero n : length (vzero n) = n.
Proof. apply repeat_length. Qed.

#[global] Hint Rewrite nth_vadd nth_vscale nth_vsub nth_vdiv nth_vzero : vnth.
#[global] Hint Rewrite length_vadd length_vscale length_vsub length_vdiv length_vzero : vlen.

Lemma vec_ext u v : length u = length v -> (forall i, nth i u 0 = nth i v 0) -> u = v.
Proof. intros H1 H2. apply nth_ext with 0 0; auto. Qed.

(** Prove an equation between vector expressions coordinate by coordinate. *)
Ltac vext :=
  apply vec_ext; [ autorewrite with vlen; try lia | intros ?i; autorewrite with vnth ].

(** ** Bilinearity *)
Lemma dot_nil_r u : dot u [] = 0.
Proof. destruct u; auto. Qed.
Lemma dot_comm u v : dot u v = dot v u.
Proof. revert v; induction u; destruct v; simpl; auto. rewrite IHu; lra. Qed.
Lemma dot_vadd_l u v w : dot (vadd u v) w = dot u w + dot v w.
Proof.
  revert v w. induction u; destruct v, w; simpl; try lra.
  rewrite IHu. lra.
Qed.
Lemma dot_vscale_l c u v : dot (vscale c u) v = c * dot u v.
Proof.
  revert v; induction u; destruct v; simpl; try lra.
  fold (vscale c u). rewrite IHu. lra.
Qed.
Lemma dot_vadd_r u v w : dot w (vadd u v) = dot w u + dot w v.
Proof. rewrite dot_comm, dot_vadd_l, (dot_comm u), (dot_comm v); lra. Qed.
Lemma dot_vscale_r c u v : dot u (vscale c v) = c * dot u v.
Proof. rewrite dot_comm, dot_vscale_l, dot_comm; lra. Qed.
Lemma dot_vsub_l u v w : dot (vsub u v) w = dot u w - dot v w.
Proof. unfold vsub. rewrite dot_vadd_l, dot_vscale_l; lra. Qed.
Lemma dot_vsub_r u v w : dot w (vsub u v) = dot w u - dot w v.
Proof. unfold vsub. rewrite dot_vadd_r, dot_vscale_r; lra. Qed.
Lemma dot_vdiv_l c u v : dot (vdiv u c) v = dot u v / c.
Proof. unfold vdiv. rewrite dot_vscale_l. unfold Rdiv; lra. Qed.
Lemma dot_vdiv_r c u v : dot u (vdiv v c) = dot u v / c.
Proof. unfold vdiv. rewrite dot_vscale_r. unfold Rdiv; lra. Qed.
Lemma dot_vzero_l n v : dot (vzero n) v = 0.
Proof. unfold vzero. revert v; induction n; destruct v; simpl; auto. rewrite IHn; lra. Qed.
Lemma dot_vzero_r n v : dot v (vzero n) = 0.
Proof. rewrite dot_comm. apply dot_vzero_l. Qed.
#[global] Hint Rewrite dot_vadd_l dot_vadd_r dot_vscale_l dot_vscale_r dot_vsub_l dot_vsub_r
  dot_vdiv_l dot_vdiv_r dot_vzero_l dot_vzero_r : vdot.

Lemma dot_self_nonneg v : 0 <= dot v v.
Proof. induction v; simpl; [lra | nra]. Qed.
Lemma dot_self_zero v : dot v v = 0 -> v = vzero (length v).
Proof.
  induction v; simpl; intros H; auto.
  pose proof (dot_self_nonneg v).
  assert (a * a = 0) by nra.
  assert (a = 0) by nra. subst. unfold vzero in *. simpl. f_equal. apply IHv. lra.
Qed.
Lemma dot_self_zero_iff v : dot v v = 0 <-> v = vzero (length v).
Proof.
  split; [apply dot_self_zero|]. intros ->. apply dot_vzero_l.
Qed.

Lemma norm_nonneg v : 0 <= norm v.
Proof. apply sqrt_pos. Qed.
Lemma norm_sq v : norm v * norm v = dot v v.
Proof. apply sqrt_sqrt, dot_self_nonneg. Qed.
Lemma norm_zero_iff v : norm v = 0 <-> v = vzero (length v).
Proof.
  rewrite <- dot_self_zero_iff. rewrite <- norm_sq. split; intros; [rewrite H; lra | nra].
Qed.
Lemma norm_eq_0_dot v : norm v = 0 <-> dot v v = 0.
Proof. rewrite <- norm_sq. split; intros; [rewrite H; lra | nra]. Qed.
Lemma norm_neq_0_dot v : norm v <> 0 <-> dot v v <> 0.
Proof. rewrite norm_eq_0_dot; tauto. Qed.
Lemma norm_pos v : norm v <> 0 -> 0 < norm v.
Proof. pose proof (norm_nonneg v). lra. Qed.
Lemma norm_vzero n : norm (vzero n) = 0.
Proof. unfold norm. rewrite dot_vzero_l. apply sqrt_0. Qed.
Lemma norm_vscale c v : norm (vscale c v) = Rabs c * norm v.
Proof.
  unfold norm. autorewrite with vdot.
  replace (c * (c * dot v v)) with ((c * c) * dot v v) by ring.
  rewrite sqrt_mult; [| nra | apply dot_self_nonneg].
  f_equal. replace (c * c) with (Rsqr c) by reflexivity. apply sqrt_Rsqr_abs.
Qed.
Lemma unit_norm v : unitv v <-> norm v = 1.
Proof.
  unfold unitv. rewrite <- norm_sq. pose proof (norm_nonneg v). split; intros; nra.
Qed.
Lemma unit_vdiv v : norm v <> 0 -> unitv (vdiv v (norm v)).
Proof.
  intros H. unfold unitv. autorewrite with vdot. rewrite <- norm_sq. field; auto.
Qed.
Lemma norm_vdiv v : norm v <> 0 -> norm (vdiv v (norm v)) = 1.
Proof. intros. apply unit_norm, unit_vdiv; auto. Qed.
Lemma vscale_norm_vdiv v : norm v <> 0 -> vscale (norm v) (vdiv v (norm v)) = v.
Proof. intros. vext. field; auto. Qed.

Lemma cauchy_schwarz_sq u v : dot u v * dot u v <= dot u u * dot v v.
Proof.
  pose proof (dot_self_nonneg (vsub (vscale (dot v v) u) (vscale (dot u v) v))) as H.
  autorewrite with vdot in H. rewrite (dot_comm v u) in H.
  pose proof (dot_self_nonneg v). pose proof (dot_self_nonneg u).
  destruct (Req_dec (dot v v) 0) as [E|E].
  - apply dot_self_zero in E. rewrite E. rewrite !dot_vzero_r. lra.
  - nra.
Qed.
Lemma cauchy_schwarz u v : Rabs (dot u v) <= norm u * norm v.
Proof.
  pose proof (cauchy_schwarz_sq u v). rewrite <- !norm_sq in H.
  pose proof (norm_nonneg u). pose proof (norm_nonneg v).
  assert (0 <= norm u * norm v) by nra.
  apply Rsqr_le_abs_0 in H || idtac.
  unfold Rabs. destruct (Rcase_abs (dot u v)); nra.
Qed.
Lemma dot_le_norms u v : dot u v <= norm u * norm v.
Proof. pose proof (cauchy_schwarz u v). pose proof (Rle_abs (dot u v)). lra. Qed.
Lemma dot_ge_norms u v : - (norm u * norm v) <= dot u v.
Proof.
  pose proof (cauchy_schwarz u v). pose proof (Rle_abs (- dot u v)).
  rewrite Rabs_Ropp in H0. lra.
Qed.
Lemma unit_dot_bounds u v : unitv u -> unitv v -> -1 <= dot u v <= 1.
Proof.
  rewrite !unit_norm. intros Hu Hv.
  pose proof (dot_le_norms u v). pose proof (dot_ge_norms u v).
  rewrite Hu, Hv in *. lra.
Qed.
Lemma norm_triangle u v : norm (vadd u v) <= norm u + norm v.
Proof.
  pose proof (norm_nonneg u). pose proof (norm_nonneg v). pose proof (norm_nonneg (vadd u v)).
  pose proof (norm_sq (vadd u v)). autorewrite with vdot in H2. rewrite (dot_comm v u) in H2.
  pose proof (dot_le_norms u v). rewrite <- !norm_sq in H2.
  apply Rnot_lt_le. intro. nra.
Qed.
Lemma dot_vsub_self_eq u v : length u = length v -> dot (vsub u v) (vsub u v) = 0 -> u = v.
Proof.
  intros HL H. apply dot_self_zero in H.
  apply vec_ext; auto. intros i.
  assert (nth i (vsub u v) 0 = 0) by (rewrite H; apply nth_vzero).
  rewrite nth_vsub in H0. lra.
Qed.
(** Two unit vectors with dot product 1 are equal. *)
Lemma unit_dot_1 u v : length u = length v -> unitv u -> unitv v -> dot u v = 1 -> u = v.
Proof.
  intros HL Hu Hv H. apply dot_vsub_self_eq; auto.
  autorewrite with vdot. rewrite (dot_comm v u). unfold unitv in *. lra.
Qed.
Lemma unit_dot_m1 u v : length u = length v -> unitv u -> unitv v -> dot u v = -1 -> v = vscale (-1) u.
Proof.
  intros HL Hu Hv H. symmetry. apply unit_dot_1; auto.
  - autorewrite with vlen; auto.
  - unfold unitv in *. autorewrite with vdot. lra.
  - autorewrite with vdot. lra.
Qed.

(** ** numpy closeness, [np.isclose(a, b)]: |a - b| <= 1e-8 + 1e-5 |b| *)
Definition isclose (a b : R) : bool :=
  Rleb (Rabs (a - b)) (/ 10^8 + / 10^5 * Rabs b).
Fixpoint allclose (u v : vec) : bool :=
  match u, v with
  | a :: u', b :: v' => isclose a b && allclose u' v'
  | _, _ => true
  end%bool.
Lemma isclose_refl a : isclose a a = true.
Proof.
  unfold isclose. apply Rleb_true. replace (a - a) with 0 by ring. rewrite Rabs_R0.
  pose proof (Rabs_pos a). assert (0 < / 10^8) by (apply Rinv_0_lt_compat; lra).
  assert (0 < / 10^5) by (apply Rinv_0_lt_compat; lra). nra.
Qed.
Lemma allclose_refl u : allclose u u = true.
Proof. induction u; simpl; auto. rewrite isclose_refl, IHu; auto. Qed.

(** Orthonormal pair of vectors of dimension [n]. *)
Definition orthonormal (n : nat) (b0 b1 : vec) : Prop :=
  length b0 = n /\ length b1 = n /\ unitv b0 /\ unitv b1 /\ dot b0 b1 = 0.
