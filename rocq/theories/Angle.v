(** [math.atan2] and facts on inverse trigonometric functions. *)
Require Import Reals List Lra Lia Psatz.
From Verif Require Import Base.
Open Scope R_scope.

(** C library [atan2(y, x)] for finite arguments (signed zeros are not distinguished). *)
Definition atan2 (y x : R) : R :=
  if Rlt_dec 0 x then atan (y / x)
  else if Rlt_dec x 0 then
         if Rle_dec 0 y then atan (y / x) + PI else atan (y / x) - PI
       else if Rlt_dec 0 y then PI / 2
            else if Rlt_dec y 0 then - (PI / 2) else 0.

Lemma sqrt_1_sq_pos x : 0 < sqrt (1 + x²).
Proof. apply sqrt_lt_R0. unfold Rsqr. nra. Qed.

Lemma sqrt_xy_scale x y : x <> 0 -> sqrt (x * x + y * y) = Rabs x * sqrt (1 + (y / x)²).
Proof.
  intros H.
  rewrite <- sqrt_Rsqr_abs.
  rewrite <- sqrt_mult; [| unfold Rsqr; nra | unfold Rsqr; nra].
  f_equal. unfold Rsqr. field. auto.
Qed.

Lemma atan2_polar x y :
  sqrt (x * x + y * y) * cos (atan2 y x) = x /\
  sqrt (x * x + y * y) * sin (atan2 y x) = y.
Proof.
  unfold atan2.
  destruct (Rlt_dec 0 x) as [Hp|Hp].
  { rewrite sqrt_xy_scale by lra. rewrite cos_atan, sin_atan, Rabs_right by lra.
    pose proof (sqrt_1_sq_pos (y / x)). split; field; lra. }
  destruct (Rlt_dec x 0) as [Hn|Hn].
  { rewrite sqrt_xy_scale by lra. rewrite Rabs_left by lra.
    pose proof (sqrt_1_sq_pos (y / x)).
    destruct (Rle_dec 0 y).
    - rewrite neg_cos, neg_sin, cos_atan, sin_atan. split; field; lra.
    - replace (atan (y / x) - PI) with (- (PI - atan (y/x))) by ring.
      rewrite cos_neg, sin_neg.
      rewrite Rtrigo_facts.cos_pi_minus, Rtrigo_facts.sin_pi_minus.
      rewrite cos_atan, sin_atan. split; field; lra. }
  assert (x = 0) by lra. subst.
  replace (0 * 0 + y * y) with (Rsqr y) by (unfold Rsqr; ring).
  rewrite sqrt_Rsqr_abs.
  destruct (Rlt_dec 0 y).
  { rewrite cos_PI2, sin_PI2, Rabs_right by lra. lra. }
  destruct (Rlt_dec y 0).
  { rewrite cos_neg, sin_neg, cos_PI2, sin_PI2, Rabs_left by lra. lra. }
  assert (y = 0) by lra. subst. rewrite Rabs_R0. lra.
Qed.

Lemma atan2_bound y x : - PI < atan2 y x <= PI.
Proof.
  unfold atan2. pose proof PI_RGT_0.
  pose proof (atan_bound (y / x)).
  destruct (Rlt_dec 0 x); [lra|].
  destruct (Rlt_dec x 0) as [Hx|Hx].
  - destruct (Rle_dec 0 y).
    + split; [lra|]. destruct (Req_dec y 0) as [->|Hy].
      * unfold Rdiv. rewrite Rmult_0_l, atan_0. lra.
      * assert (y / x < 0).
        { unfold Rdiv. apply Ropp_lt_cancel. rewrite Ropp_0.
          replace (- (y * / x)) with (y * / - x) by (field; lra).
          apply Rmult_lt_0_compat; [lra|]. apply Rinv_0_lt_compat; lra. }
        assert (atan (y / x) < atan 0) by (apply atan_increasing; auto).
        rewrite atan_0 in H2. lra.
    + split; [|lra].
      assert (0 < y / x).
      { replace (y / x) with (- y * / - x) by (field; lra).
        apply Rmult_lt_0_compat; [lra|]. apply Rinv_0_lt_compat; lra. }
      assert (atan 0 < atan (y / x)) by (apply atan_increasing; auto).
      rewrite atan_0 in H2. lra.
  - destruct (Rlt_dec 0 y); [lra|]. destruct (Rlt_dec y 0); lra.
Qed.

(** [np.arccos(min(max(d, -1), 1))] *)
Definition clamp1 (d : R) : R := Rmin (Rmax d (-1)) 1.
Lemma clamp1_id d : -1 <= d <= 1 -> clamp1 d = d.
Proof.
  intros. unfold clamp1, Rmin, Rmax.
  destruct (Rle_dec d (-1)); destruct (Rle_dec _ 1); lra.
Qed.
Lemma clamp1_bounds d : -1 <= clamp1 d <= 1.
Proof.
  unfold clamp1, Rmin, Rmax.
  destruct (Rle_dec d (-1)); destruct (Rle_dec _ 1); lra.
Qed.

Lemma sin_acos_sqrt d : -1 <= d <= 1 -> sin (acos d) = sqrt (1 - d * d).
Proof. intros. rewrite sin_acos; auto. Qed.
Lemma acos_eq_0 d : -1 <= d <= 1 -> acos d = 0 -> d = 1.
Proof. intros H E. rewrite <- (cos_acos d H), E. apply cos_0. Qed.
Lemma acos_lt_PI d : -1 < d <= 1 -> acos d < PI.
Proof.
  intros H. pose proof (acos_bound d). destruct (Req_dec (acos d) PI) as [E|E]; [|lra].
  assert (d = -1) by (rewrite <- (cos_acos d), E by lra; apply cos_PI). lra.
Qed.

Lemma cos_sin_sq a : cos a * cos a + sin a * sin a = 1.
Proof. pose proof (sin2_cos2 a). unfold Rsqr in *. lra. Qed.

(** |1 - cos a| and |sin a| bounded through the chord. *)
Lemma sin_le_id a : 0 <= a -> sin a <= a.
Proof. intros. destruct (Req_dec a 0) as [->|]; [rewrite sin_0; lra|]. left; apply sin_lt_x; lra. Qed.
