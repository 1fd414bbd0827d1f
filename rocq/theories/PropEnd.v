(** C148, C149: end points of Gaussians; gradients and the rotation of the modulation. *)
Require Import Reals List Bool Lra Lia.
From Verif Require Import Base Vec Angle Pow RotModel Spec RotProofs PropRotation TreeModel DynModel PropDynamics EndModel.
Import ListNotations.
Open Scope R_scope.

(** ** C148 *)
(** The matrix with rows [p q] and [q t] and what [eigh] promises. *)
Definition matvec (p q t : R) (x : vec) : vec := [p * nth 0 x 0 + q * nth 1 x 0; q * nth 0 x 0 + t * nth 1 x 0].
Record eigh_of (p q t : R) (e : eig2) : Prop := {
  eg_len0 : length (e_row0 e) = 2%nat;
  eg_len1 : length (e_row1 e) = 2%nat;
  eg_u0 : nth 0 (e_row0 e) 0 * nth 0 (e_row0 e) 0 + nth 0 (e_row1 e) 0 * nth 0 (e_row1 e) 0 = 1;
  eg_u1 : nth 1 (e_row0 e) 0 * nth 1 (e_row0 e) 0 + nth 1 (e_row1 e) 0 * nth 1 (e_row1 e) 0 = 1;
  eg_o : nth 0 (e_row0 e) 0 * nth 1 (e_row0 e) 0 + nth 0 (e_row1 e) 0 * nth 1 (e_row1 e) 0 = 0;
  eg_v0 : matvec p q t [nth 0 (e_row0 e) 0; nth 0 (e_row1 e) 0] = vscale (e_val0 e) [nth 0 (e_row0 e) 0; nth 0 (e_row1 e) 0];
  eg_v1 : matvec p q t [nth 1 (e_row0 e) 0; nth 1 (e_row1 e) 0] = vscale (e_val1 e) [nth 1 (e_row0 e) 0; nth 1 (e_row1 e) 0] }.

(** The length of the step, with [a] and [b] the first row of the eigenvectors. *)
Definition step_quotient (e : eig2) (a b x y : R) : R :=
  (a * x + b * y) * (a * x + b * y) / (2 * e_val0 e) + (a * y - b * x) * (a * y - b * x) / (2 * e_val1 e).
Lemma end_point_eq mx my x y e a b : e_row0 e = [a; b] -> a * a + b * b = 1 -> 0 < e_val0 e -> 0 < e_val1 e -> x * x + y * y = 1 ->
  0 < step_quotient e a b x y /\
  get_end_point [mx; my] [x; y] e =
    Ok [mx + x / sqrt (step_quotient e a b x y); my + y / sqrt (step_quotient e a b x y)].
Proof.
  intros E U P0 P1 Ud. unfold get_end_point. rewrite E.
  assert (N : norm [a; b] = 1) by (apply unit_norm; unfold unitv, dot; simpl; lra).
  rewrite N. destruct (Req_EM_T 1 0); [lra|].
  replace (vdiv [a; b] 1) with [a; b] by (unfold vdiv, vscale; simpl; f_equal; [field|f_equal; field]). cbn [nth].
  destruct (atan2_polar a b) as (Ca & Sa). rewrite U, sqrt_1, Rmult_1_l in Ca, Sa.
  set (t := atan2 b a) in *. unfold turn_back, turn. rewrite cos_neg, sin_neg, Ca, Sa. cbn [nth].
  assert (Q : forall z, 0 < z -> sqrt 2 * sqrt z * (sqrt 2 * sqrt z) = 2 * z).
  { intros z Hz. replace (sqrt 2 * sqrt z * (sqrt 2 * sqrt z)) with ((sqrt 2 * sqrt 2) * (sqrt z * sqrt z)) by ring. rewrite !sqrt_sqrt; lra. }
  rewrite (Q _ P0), (Q _ P1). unfold fdiv. destruct (Req_EM_T (2 * e_val0 e) 0); [lra|]. destruct (Req_EM_T (2 * e_val1 e) 0); [lra|]. cbn [bind].
  replace ((a * x - - b * y) * (a * x - - b * y) / (2 * e_val0 e) + (- b * x + a * y) * (- b * x + a * y) / (2 * e_val1 e))
    with (step_quotient e a b x y) by (unfold step_quotient; field; lra).
  set (f := step_quotient e a b x y).
  assert (Pf : 0 < f).
  { unfold f, step_quotient. set (k := a * x + b * y). set (m := a * y - b * x).
    assert (K : k * k + m * m = 1) by (unfold k, m; replace ((a * x + b * y) * (a * x + b * y) + (a * y - b * x) * (a * y - b * x)) with ((a * a + b * b) * (x * x + y * y)) by ring; rewrite U, Ud; ring).
    pose proof (Rinv_0_lt_compat (2 * e_val0 e) ltac:(lra)) as I0. pose proof (Rinv_0_lt_compat (2 * e_val1 e) ltac:(lra)) as I1.
    unfold Rdiv. pose proof (Rle_0_sqr k) as K0. pose proof (Rle_0_sqr m) as M0. unfold Rsqr in *.
    destruct (Req_dec (k * k) 0) as [Z|NZ].
    - rewrite Z in *. assert (m * m = 1) by lra. rewrite H. lra.
    - assert (0 < k * k * / (2 * e_val0 e)) by (apply Rmult_lt_0_compat; lra).
      assert (0 <= m * m * / (2 * e_val1 e)) by (apply Rmult_le_pos; lra). lra. }
  split; auto. pose proof (sqrt_lt_R0 f Pf) as Ps. destruct (Req_EM_T (sqrt f) 0); [lra|]. cbn [bind]. f_equal.
  unfold vscale, vadd. cbn [map nth].
  assert (X : a * (1 / sqrt f * (a * x - - b * y)) + - b * (1 / sqrt f * (- b * x + a * y)) = x / sqrt f).
  { replace (a * (1 / sqrt f * (a * x - - b * y)) + - b * (1 / sqrt f * (- b * x + a * y))) with ((a * a + b * b) * x / sqrt f) by (field; lra). rewrite U. field. lra. }
  assert (Y : - - b * (1 / sqrt f * (a * x - - b * y)) + a * (1 / sqrt f * (- b * x + a * y)) = y / sqrt f).
  { replace (- - b * (1 / sqrt f * (a * x - - b * y)) + a * (1 / sqrt f * (- b * x + a * y))) with ((a * a + b * b) * y / sqrt f) by (field; lra). rewrite U. field. lra. }
  cbv [vadd]. simpl. rewrite X, Y. auto.
Qed.

Lemma eigh_rows p q t e : eigh_of p q t e -> exists a b c d, e_row0 e = [a; b] /\ e_row1 e = [c; d] /\ a * a + b * b = 1 /\
  (b = c /\ d = - a \/ b = - c /\ d = a).
Proof.
  intros G. pose proof (eg_len0 _ _ _ _ G) as L0. pose proof (eg_len1 _ _ _ _ G) as L1.
  destruct (e_row0 e) as [|a [|b [|]]] eqn:E0; try discriminate. destruct (e_row1 e) as [|c [|d [|]]] eqn:E1; try discriminate.
  pose proof (eg_u0 _ _ _ _ G) as U0. pose proof (eg_u1 _ _ _ _ G) as U1. pose proof (eg_o _ _ _ _ G) as O.
  rewrite E0, E1 in U0, U1, O. cbn [nth] in *. exists a, b, c, d. do 2 (split; auto).
  assert (B2 : b * b = c * c).
  { assert (H : a * a * (b * b) = c * c * (d * d)).
    { replace (a * a * (b * b)) with (a * b * (a * b)) by ring. replace (a * b) with (- (c * d)) by lra. ring. }
    replace (a * a) with (1 - c * c) in H by lra. replace (d * d) with (1 - b * b) in H by lra. lra. }
  split; [lra|]. assert (D : (b - c) * (b + c) = 0) by lra. assert (A2 : (d - a) * (d + a) = 0) by lra.
  apply Rmult_integral in D. apply Rmult_integral in A2.
  destruct D as [D|D], A2 as [A|A].
  - assert (b = c) by lra. assert (d = a) by lra. subst b d. assert (a * c = 0) by lra. apply Rmult_integral in H. destruct H; subst; [left|right]; lra.
  - left. lra.
  - right. lra.
  - assert (b = - c) by lra. assert (d = - a) by lra. subst b d. assert (a * c = 0) by lra. apply Rmult_integral in H. destruct H; subst; [right|left]; lra.
Qed.

(** The end point lies from the mean in the direction of the velocity, between the half axes. *)
Theorem C148_along : forall p q t e mx my x y, eigh_of p q t e -> 0 < e_val0 e -> 0 < e_val1 e -> x * x + y * y = 1 ->
  exists s, 0 < s /\ get_end_point [mx; my] [x; y] e = Ok [mx + s * x; my + s * y] /\
    2 * Rmin (e_val0 e) (e_val1 e) <= s * s <= 2 * Rmax (e_val0 e) (e_val1 e).
Proof.
  intros p q t e mx my x y G P0 P1 U. destruct (eigh_rows p q t e G) as (a & b & c & d & E0 & E1 & Ua & _).
  destruct (end_point_eq mx my x y e a b E0 Ua P0 P1 U) as (Pf & E). set (f := step_quotient e a b x y) in *.
  pose proof (sqrt_lt_R0 f Pf) as Ps. exists (/ sqrt f). split; [apply Rinv_0_lt_compat; auto|]. split.
  { rewrite E. f_equal. f_equal; [|f_equal]; field; lra. }
  assert (S2 : / sqrt f * / sqrt f = / f) by (rewrite <- Rinv_mult, sqrt_sqrt by lra; auto). rewrite S2.
  assert (Mn : 0 < Rmin (e_val0 e) (e_val1 e)) by (apply Rmin_glb_lt; auto).
  pose proof (Rmin_l (e_val0 e) (e_val1 e)) as m0. pose proof (Rmin_r (e_val0 e) (e_val1 e)) as m1.
  pose proof (Rmax_l (e_val0 e) (e_val1 e)) as M0. pose proof (Rmax_r (e_val0 e) (e_val1 e)) as M1.
  set (lo := Rmin (e_val0 e) (e_val1 e)) in *. set (hi := Rmax (e_val0 e) (e_val1 e)) in *. clearbody lo hi.
  assert (B : / (2 * hi) <= f <= / (2 * lo)).
  { unfold f, step_quotient. set (k := a * x + b * y). set (m := a * y - b * x).
    assert (K : k * k + m * m = 1) by (unfold k, m; replace ((a * x + b * y) * (a * x + b * y) + (a * y - b * x) * (a * y - b * x)) with ((a * a + b * b) * (x * x + y * y)) by ring; rewrite Ua, U; ring).
    pose proof (Rle_0_sqr k) as K0. pose proof (Rle_0_sqr m) as N0. unfold Rsqr in *.
    assert (I0 : / (2 * hi) <= / (2 * e_val0 e) <= / (2 * lo)) by (split; apply Rinv_le_contravar; lra).
    assert (I1 : / (2 * hi) <= / (2 * e_val1 e) <= / (2 * lo)) by (split; apply Rinv_le_contravar; lra).
    unfold Rdiv. split.
    - assert (k * k * / (2 * hi) <= k * k * / (2 * e_val0 e)) by (apply Rmult_le_compat_l; lra).
      assert (m * m * / (2 * hi) <= m * m * / (2 * e_val1 e)) by (apply Rmult_le_compat_l; lra).
      assert ((k * k + m * m) * / (2 * hi) = / (2 * hi)) by (rewrite K; ring). lra.
    - assert (k * k * / (2 * e_val0 e) <= k * k * / (2 * lo)) by (apply Rmult_le_compat_l; lra).
      assert (m * m * / (2 * e_val1 e) <= m * m * / (2 * lo)) by (apply Rmult_le_compat_l; lra).
      assert ((k * k + m * m) * / (2 * lo) = / (2 * lo)) by (rewrite K; ring). lra. }
  rewrite <- (Rinv_inv (2 * lo)), <- (Rinv_inv (2 * hi)).
  split; apply Rinv_le_contravar; try lra. apply Rinv_0_lt_compat; lra.
Qed.

(** On the ellipse of the covariance, where the squared Mahalanobis distance is two. *)
Definition on_ellipse (p q t : R) (x : vec) : Prop := forall z, length z = 2%nat -> matvec p q t z = x -> dot z x = 2.

(** It is on the ellipse if the matrix of the eigenvectors is a reflection. *)
Theorem C148_on_ellipse_partial : forall p q t e mx my x y g, eigh_of p q t e -> 0 < e_val0 e -> 0 < e_val1 e -> x * x + y * y = 1 ->
  nth 1 (e_row0 e) 0 = nth 0 (e_row1 e) 0 -> get_end_point [mx; my] [x; y] e = Ok g -> on_ellipse p q t (vsub g [mx; my]).
Proof.
  intros p q t e mx my x y g G P0 P1 U Sy Eg. destruct (eigh_rows p q t e G) as (a & b & c & d & E0 & E1 & Ua & Or).
  destruct (end_point_eq mx my x y e a b E0 Ua P0 P1 U) as (Pf & E). rewrite E in Eg. injection Eg as <-.
  set (f := step_quotient e a b x y) in *. pose proof (sqrt_lt_R0 f Pf) as Ps.
  rewrite E0, E1 in Sy. cbn [nth] in Sy. subst c.
  pose proof (eg_v0 _ _ _ _ G) as V0. pose proof (eg_v1 _ _ _ _ G) as V1. rewrite E0, E1 in V0, V1. cbn [nth] in V0, V1.
  unfold matvec, vscale in V0, V1. cbn [nth map] in V0, V1. injection V0 as V00 V01. injection V1 as V10 V11.
  intros z Lz Hz. destruct z as [|z0 [|z1 [|]]]; try discriminate.
  unfold matvec, vsub, vscale, vadd in Hz. simpl in Hz. injection Hz as H0 H1.
  assert (X0 : p * z0 + q * z1 = x / sqrt f) by lra. assert (X1 : q * z0 + t * z1 = y / sqrt f) by lra.
  replace (vsub [mx + x / sqrt f; my + y / sqrt f] [mx; my]) with [x / sqrt f; y / sqrt f] by (unfold vsub, vscale, vadd; simpl; f_equal; [ring|f_equal; ring]).
  (* components of z along the eigenvectors *)
  set (l0 := e_val0 e) in *. set (l1 := e_val1 e) in *.
  assert (Y0 : l0 * (a * z0 + b * z1) = (a * x + b * y) / sqrt f).
  { replace ((a * x + b * y) / sqrt f) with (a * (x / sqrt f) + b * (y / sqrt f)) by (field; lra). rewrite <- X0, <- X1.
    replace (a * (p * z0 + q * z1) + b * (q * z0 + t * z1)) with ((p * a + q * b) * z0 + (q * a + t * b) * z1) by ring. rewrite V00, V01. ring. }
  assert (Dd : d = - a /\ (b = 0 \/ True) \/ d = a /\ b = 0).
  { destruct Or as [[_ D]|[D1 D2]]; [left; auto|right; split; auto; lra]. }
  assert (Y1 : l1 * (a * z1 - b * z0) = (a * y - b * x) / sqrt f).
  { replace ((a * y - b * x) / sqrt f) with (a * (y / sqrt f) - b * (x / sqrt f)) by (field; lra). rewrite <- X0, <- X1.
    replace (a * (q * z0 + t * z1) - b * (p * z0 + q * z1)) with ((q * a - p * b) * z0 + (t * a - q * b) * z1) by ring.
    destruct Dd as [[-> _]|[-> ->]].
    - replace (q * a - p * b) with (- (p * b + q * - a)) by ring. replace (t * a - q * b) with (- (q * b + t * - a)) by ring. rewrite V10, V11. ring.
    - replace (q * a - p * 0) with (p * 0 + q * a) by ring. replace (t * a - q * 0) with (q * 0 + t * a) by ring. rewrite V10, V11. ring. }
  assert (Fe : f = ((a * x + b * y) * (a * x + b * y) / l0 + (a * y - b * x) * (a * y - b * x) / l1) / 2) by (unfold f, step_quotient; fold l0 l1; field; lra).
  assert (Sf : sqrt f * sqrt f = f) by (apply sqrt_sqrt; lra).
  unfold dot. simpl.
  replace (z0 * (x / sqrt f) + (z1 * (y / sqrt f) + 0)) with
    ((a * z0 + b * z1) * ((a * x + b * y) / sqrt f) + (a * z1 - b * z0) * ((a * y - b * x) / sqrt f)).
  2:{ replace ((a * z0 + b * z1) * ((a * x + b * y) / sqrt f) + (a * z1 - b * z0) * ((a * y - b * x) / sqrt f))
        with ((a * a + b * b) * (z0 * (x / sqrt f) + z1 * (y / sqrt f))) by (field; lra). rewrite Ua. ring. }
  replace (a * z0 + b * z1) with ((a * x + b * y) / sqrt f / l0) by (apply Rmult_eq_reg_l with l0; [rewrite Y0; field|]; lra).
  replace (a * z1 - b * z0) with ((a * y - b * x) / sqrt f / l1) by (apply Rmult_eq_reg_l with l1; [rewrite Y1; field|]; lra).
  replace ((a * x + b * y) / sqrt f / l0 * ((a * x + b * y) / sqrt f) + (a * y - b * x) / sqrt f / l1 * ((a * y - b * x) / sqrt f))
    with (((a * x + b * y) * (a * x + b * y) / l0 + (a * y - b * x) * (a * y - b * x) / l1) / (sqrt f * sqrt f)) by (field; lra).
  rewrite Sf. apply Rmult_eq_reg_r with f; [|lra]. unfold Rdiv at 1. rewrite Rmult_assoc, Rinv_l, Rmult_1_r by lra. lra.
Qed.

(** Eigenvectors which form a rotation are as good for [eigh]: the ellipse is mirrored. *)
Theorem C148_on_ellipse_refuted : exists p q t e g, eigh_of p q t e /\ 0 < e_val0 e < e_val1 e /\
  get_end_point [0; 0] [3/5; 4/5] e = Ok g /\ ~ on_ellipse p q t g.
Proof.
  (* eigenvectors (3/5, 4/5) and (-4/5, 3/5) with the values 1/2 and 2 *)
  set (e := mkEig (1/2) 2 [3/5; -4/5] [4/5; 3/5]).
  exists (73/50), (-18/25), (26/25), e.
  assert (Q : step_quotient e (3/5) (-4/5) (3/5) (4/5) = 49/625 + 144/625).
  { unfold step_quotient, e. cbn [e_val0 e_val1]. field. }
  destruct (end_point_eq 0 0 (3/5) (4/5) e (3/5) (-4/5) eq_refl ltac:(lra) ltac:(unfold e; simpl; lra) ltac:(unfold e; simpl; lra) ltac:(lra)) as (Pf & E).
  eexists. split; [|split; [unfold e; simpl; lra|]]. 2: split; [exact E|].
  - constructor; unfold e, matvec, vscale; simpl; try reflexivity; try lra; (f_equal; [lra|f_equal; lra]).
  - rewrite Q in *. set (f := 49/625 + 144/625) in *. intros H.
    pose proof (sqrt_lt_R0 f Pf) as Ps. assert (Sf : sqrt f * sqrt f = f) by (apply sqrt_sqrt; lra).
    specialize (H [2 * (3/5 / sqrt f); 2 * (4/5 / sqrt f)] eq_refl).
    assert (X : dot [2 * (3/5 / sqrt f); 2 * (4/5 / sqrt f)] [0 + 3/5 / sqrt f; 0 + 4/5 / sqrt f] = 2).
    { apply H. unfold matvec. cbn [nth]. f_equal; [field; lra|f_equal; field; lra]. }
    unfold dot in X. simpl in X.
    replace (2 * (3 / 5 / sqrt f) * (0 + 3 / 5 / sqrt f) + (2 * (4 / 5 / sqrt f) * (0 + 4 / 5 / sqrt f) + 0)) with (2 / (sqrt f * sqrt f)) in X by (field; lra).
    rewrite Sf in X. assert (f = 1); [|unfold f in *; lra].
    apply Rmult_eq_reg_l with (2 / f); [|apply Rmult_integral_contrapositive_currified; [lra|apply Rinv_neq_0_compat; lra]].
    rewrite X at 2. field. lra.
Qed.
Example C148_case : eigh_of 2 0 8 (mkEig 2 8 [1; 0] [0; 1]) /\
  get_end_point [1; 1] [0; 1] (mkEig 2 8 [1; 0] [0; 1]) = Ok [1; 5].
Proof.
  split.
  - constructor; unfold matvec, vscale; simpl; try reflexivity; try lra; (f_equal; [lra|f_equal; lra]).
  - destruct (end_point_eq 1 1 0 1 (mkEig 2 8 [1; 0] [0; 1]) 1 0 eq_refl ltac:(lra) ltac:(simpl; lra) ltac:(simpl; lra) ltac:(lra)) as (_ & ->).
    replace (step_quotient (mkEig 2 8 [1; 0] [0; 1]) 1 0 0 1) with (1/4 * (1/4)) by (unfold step_quotient; cbn [e_val0 e_val1]; field).
    rewrite sqrt_square by lra. f_equal. f_equal; [field|f_equal; field].
Qed.

(** ** C149 *)
(** Along the gradient the distance to the attractor shrinks by the length of the step. *)
Theorem C149_gradient : forall n attractor x, length attractor = n -> length x = n ->
  let g := lyapunov_gradient attractor x in
  length g = n /\ (x = attractor -> g = vzero n) /\ (x <> attractor -> norm g = 1) /\
  (forall h, 0 <= h <= dist x attractor -> dist (vadd x (vscale h g)) attractor = dist x attractor - h) /\
  forall r y, projected_lyapunov_gradient attractor x r = projected_lyapunov_gradient attractor x y.
Proof.
  intros n attractor x La Lx. cbv zeta. unfold lyapunov_gradient. set (d := vsub attractor x).
  assert (Ld : length d = n) by (unfold d; autorewrite with vlen; lia).
  assert (Ed : dist x attractor = norm d).
  { unfold dist, d. replace (vsub x attractor) with (vscale (-1) (vsub attractor x)) by (vext; ring).
    rewrite norm_vscale. replace (Rabs (-1)) with 1; [ring|]. rewrite Rabs_left; lra. }
  destruct (Req_EM_T (norm d) 0) as [Z|NZ].
  - assert (Eq : x = attractor).
    { symmetry. apply dot_vsub_self_eq; [congruence|]. apply norm_eq_0_dot. auto. }
    split; [rewrite length_vzero; auto|]. split; [rewrite Lx; auto|]. split; [intros; contradiction|]. split; auto.
    intros h Hh. assert (h = 0) by lra. subst h. replace (vadd x (vscale 0 (vzero (length x)))) with x by (vext; ring). ring.
  - split; [unfold vdiv; autorewrite with vlen; auto|]. split.
    { intros ->. exfalso. apply NZ. unfold d. apply norm_eq_0_dot. rewrite dot_vsub_l, !dot_vsub_r. ring. }
    split; [intros _; apply unit_norm, dirof_unit; auto|]. split; auto.
    intros h Hh. rewrite Ed in *. unfold dist.
    replace (vsub (vadd x (vscale h (vdiv d (norm d)))) attractor) with (vscale (h / norm d - 1) d).
    2:{ unfold vdiv, d. vext. unfold Rdiv. ring. }
    pose proof (norm_nonneg d). assert (P : 0 < norm d) by lra.
    rewrite norm_vscale, Rabs_left1.
    + field. lra.
    + apply Rmult_le_reg_r with (norm d); auto. replace ((h / norm d - 1) * norm d) with (h - norm d) by (field; lra). lra.
Qed.

Lemma no_rotation_ok n : (2 <= n)%nat -> proper n (no_rotation n).
Proof.
  intros Hn. unfold proper, orthonormal, no_rotation. cbn [rb0 rb1]. repeat split.
  - simpl. rewrite length_vzero. lia.
  - simpl. rewrite length_vzero. lia.
  - unfold unitv. simpl. rewrite dot_vzero_l. ring.
  - unfold unitv. simpl. rewrite dot_vzero_l. ring.
  - simpl. rewrite dot_vzero_l. ring.
Qed.
(** A standing or stopped agent is not turned; otherwise the rotation takes the velocity to the
    direction of the modulated one. *)
Theorem C149_modulation : forall n (modulated : vec -> vec -> vec) x v, (2 <= n)%nat -> length v = n -> length (modulated x v) = n ->
  (norm v = 0 \/ norm (modulated x v) = 0 -> exists r, rotation_of_modulation modulated n x v = Ok r /\
     forall y s, length y = n -> rotate r y s = y) /\
  (norm v <> 0 -> norm (modulated x v) <> 0 -> dot (direction v) (direction (modulated x v)) <> -1 ->
     exists r, rotation_of_modulation modulated n x v = Ok r /\ proper n r /\ norm (rotate r v 1) = norm v /\
       norm (vsub (direction (rotate r v 1)) (direction (modulated x v))) <= 2 * norm (vsub (direction v) (direction (modulated x v))) /\
       (allclose (direction v) (direction (modulated x v)) = false -> direction (rotate r v 1) = direction (modulated x v))).
Proof.
  intros n modulated x v Hn Lv Lm. unfold rotation_of_modulation. set (m := modulated x v) in *. clearbody m. split.
  - intros H. exists (no_rotation n). split.
    + destruct (Req_EM_T (norm v) 0); auto. destruct (Req_EM_T (norm m) 0); auto. destruct H; contradiction.
    + intros y s Ly. pose proof (no_rotation_ok n Hn) as P. pose proof P as (L0 & L1 & _). unfold rotate.
      rewrite (rotate_direction_eq n) by auto. replace (s * rangle (no_rotation n)) with 0 by (unfold no_rotation; simpl; ring).
      apply (plane_rot_zero n); auto.
  - intros Nv Nm Hd. destruct (Req_EM_T (norm v) 0); [contradiction|]. destruct (Req_EM_T (norm m) 0); [contradiction|].
    change (vdiv v (norm v)) with (direction v). change (vdiv m (norm m)) with (direction m).
    assert (Uv : unitv (direction v)) by (apply (dirof_unit v); auto). assert (Um : unitv (direction m)) by (apply (dirof_unit m); auto).
    assert (Dv : direction (direction v) = direction v) by apply (dirof_of_unit _ Uv).
    assert (Dm : direction (direction m) = direction m) by apply (dirof_of_unit _ Um).
    assert (Lv' : length (direction v) = n) by (unfold direction; autorewrite with vlen; auto).
    assert (Lm' : length (direction m) = n) by (unfold direction; autorewrite with vlen; auto).
    pose proof (unit_norm_neq _ Uv) as Nv'. pose proof (unit_norm_neq _ Um) as Nm'.
    assert (Hd' : dot (direction (direction v)) (direction (direction m)) <> -1) by (rewrite Dv, Dm; auto).
    destruct (from_directions_spec n (direction v) (direction m)) as (r & E & Ho & E0 & Ea & Es); auto.
    exists r. split; auto. split; auto.
    change (dirof (direction v)) with (direction (direction v)) in E0. rewrite Dv in E0.
    pose proof Ho as (L0 & L1 & _).
    assert (Ev : v = vscale (norm v) (direction v)) by (unfold direction; vext; field; auto).
    assert (Er : rotate r v 1 = vscale (norm v) (get_second_vector r)).
    { unfold rotate, get_second_vector. rewrite !(rotate_direction_eq n) by auto. rewrite Ev at 1. rewrite Rmult_1_l, E0.
      symmetry. apply (plane_rot_scale n); auto. }
    assert (Us : unitv (get_second_vector r)).
    { unfold get_second_vector. rewrite (rotate_direction_eq n) by auto. apply (plane_rot_unit n); auto. rewrite E0. auto. }
    pose proof (norm_nonneg v) as Pv.
    assert (Nr : norm (rotate r v 1) = norm v) by (rewrite Er, norm_vscale, (proj1 (unit_norm _) Us), Rabs_pos_eq by auto; ring).
    assert (Dr : direction (rotate r v 1) = get_second_vector r).
    { unfold direction. rewrite Nr, Er. set (g := get_second_vector r). vext. field. auto. }
    split; auto. rewrite Dr. split.
    + destruct (C04_close_pair_error_bound n (direction v) (direction m) r) as (_ & Bd); auto. rewrite Dv, Dm in Bd. auto.
    + intros Hc. destruct (C03_from_directions_exact n (direction v) (direction m)) as (r' & E' & _ & _ & _ & _ & S2); auto.
      { rewrite Dv, Dm. auto. }
      rewrite E in E'. injection E' as <-. rewrite S2. auto.
Qed.
(** A modulation which turns the velocity around gives no rotation, but numbers which are none. *)
Theorem C149_opposite_refuted : forall (modulated : vec -> vec -> vec) x v, length v = length (modulated x v) -> INR (length v) < 10 ^ 16 ->
  norm v <> 0 -> norm (modulated x v) <> 0 -> dot (direction v) (direction (modulated x v)) = -1 ->
  rotation_of_modulation modulated (length v) x v = Err ENaN.
Proof.
  intros modulated x v L Hl Nv Nm Hd. unfold rotation_of_modulation. set (m := modulated x v) in *. clearbody m.
  destruct (Req_EM_T (norm v) 0); [contradiction|]. destruct (Req_EM_T (norm m) 0); [contradiction|].
  change (vdiv v (norm v)) with (direction v). change (vdiv m (norm m)) with (direction m).
  assert (Uv : unitv (direction v)) by (apply (dirof_unit v); auto). assert (Um : unitv (direction m)) by (apply (dirof_unit m); auto).
  assert (Dv : direction (direction v) = direction v) by apply (dirof_of_unit _ Uv).
  assert (Dm : direction (direction m) = direction m) by apply (dirof_of_unit _ Um).
  apply from_directions_antiparallel; try (apply unit_norm_neq; auto).
  - unfold direction. autorewrite with vlen. auto.
  - unfold direction. autorewrite with vlen. auto.
  - change (dot (direction (direction v)) (direction (direction m)) = -1). rewrite Dv, Dm. auto.
Qed.
(** The projected gamma exists only beyond the largest gamma. *)
Theorem C149_projected_gamma_refuted : forall lo hi g attractor x, lo <= hi ->
  (hi <= g -> get_projected_gamma lo hi g attractor x = Ok (Some hi)) /\
  (g < hi -> forall v, get_projected_gamma lo hi g attractor x <> Ok (Some v)).
Proof.
  intros lo hi g attractor x H. unfold get_projected_gamma. split.
  - intros Hg. rewrite (proj2 (Rleb_true _ _)) by auto. auto.
  - intros Hg v. rewrite (proj2 (Rleb_false _ _)) by auto. destruct (Rleb lo g); [|discriminate].
    destruct (Req_EM_T _ 0); discriminate.
Qed.
(** The sequence around an obstacle is never computed. *)
Theorem C149_sequence_refuted : forall pg g (initial : list rotation),
  compute_obstacle_convergence_sequence pg g initial = Err EType.
Proof.
  intros pg g initial. unfold compute_obstacle_convergence_sequence.
  destruct (C47_projected_weight pg g (1/2) ltac:(lra)) as (w & -> & Hw & _). cbn [bind].
  rewrite (proj2 (Rleb_false _ _)) by lra. auto.
Qed.
Example C149_case : lyapunov_gradient [4; 6] [1; 2] = [3/5; 4/5] /\
  exists r, rotation_of_modulation (fun _ v => [- nth 1 v 0; nth 0 v 0]) 2 [0; 0] [2; 0] = Ok r /\ direction (rotate r [2; 0] 1) = [0; 1].
Proof.
  split.
  - unfold lyapunov_gradient. replace (vsub [4; 6] [1; 2]) with [3; 4] by (unfold vsub, vscale, vadd; simpl; f_equal; [ring|f_equal; ring]).
    assert (N : norm [3; 4] = 5) by (unfold norm, dot; simpl; replace (3 * 3 + (4 * 4 + 0)) with (5 * 5) by ring; apply sqrt_square; lra).
    rewrite N. destruct (Req_EM_T 5 0); [lra|]. unfold vdiv, vscale. simpl. f_equal; [field|f_equal; field].
  - assert (N : norm [2; 0] = 2) by (unfold norm, dot; simpl; replace (2 * 2 + (0 * 0 + 0)) with (2 * 2) by ring; apply sqrt_square; lra).
    assert (M : norm [- 0; 2] = 2) by (unfold norm, dot; simpl; replace (- 0 * - 0 + (2 * 2 + 0)) with (2 * 2) by ring; apply sqrt_square; lra).
    assert (Dv : direction [2; 0] = [1; 0]) by (unfold direction, vscale; rewrite N; simpl; f_equal; [field|f_equal; field]).
    assert (Dm : direction [- 0; 2] = [0; 1]) by (unfold direction, vscale; rewrite M; simpl; f_equal; [field|f_equal; field]).
    destruct (C149_modulation 2 (fun _ v => [- nth 1 v 0; nth 0 v 0]) [0; 0] [2; 0] ltac:(lia) eq_refl eq_refl) as (_ & T).
    cbn [nth] in T. rewrite N, M, Dv, Dm in T. destruct T as (r & E & _ & _ & _ & X); try lra.
    { unfold dot. simpl. lra. }
    exists r. split; auto. apply X. apply not_true_is_false. intros A.
    apply (allclose_nth [1; 0] [0; 1] 0 eq_refl) in A. cbn [nth] in A. unfold isclose in A. apply Rleb_true in A.
    rewrite Rminus_0_r, Rabs_R0, Rabs_R1 in A. lra.
Qed.
Print Assumptions C148_along.
Print Assumptions C148_on_ellipse_partial.
Print Assumptions C148_on_ellipse_refuted.
Print Assumptions C149_gradient.
Print Assumptions C149_modulation.
Print Assumptions C149_opposite_refuted.
Print Assumptions C149_projected_gamma_refuted.
Print Assumptions C149_sequence_refuted.
