(** Proofs about the vector rotations. *)
Require Import Reals List Lra Lia Psatz Bool.
From Verif Require Import Base Vec Angle Spec RotModel.
Import ListNotations.
Open Scope R_scope.

(** The algebraic form of [rotate_direction]. *)
Definition plane_rot (d b0 b1 : vec) (a : R) : vec :=
  vadd d (vadd
    (vscale (dot b0 d * (cos a - 1) - dot b1 d * sin a) b0)
    (vscale (dot b0 d * sin a + dot b1 d * (cos a - 1)) b1)).

Lemma rotate_core_eq n u b0 b1 a :
  length u = n -> length b0 = n -> length b1 = n ->
  vadd (vscale (sqrt (dot b0 u * dot b0 u + dot b1 u * dot b1 u))
          (vadd (vscale (cos (atan2 (dot b1 u) (dot b0 u) + a)) b0)
                (vscale (sin (atan2 (dot b1 u) (dot b0 u) + a)) b1)))
       (vsub u (vadd (vscale (dot b0 u) b0) (vscale (dot b1 u) b1)))
  = plane_rot u b0 b1 a.
Proof.
  intros Hu H0 H1. unfold plane_rot.
  destruct (atan2_polar (dot b0 u) (dot b1 u)) as [Hc Hs].
  set (p0 := dot b0 u) in *. set (p1 := dot b1 u) in *.
  set (r := sqrt (p0 * p0 + p1 * p1)) in *.
  rewrite cos_plus, sin_plus.
  set (ca := cos (atan2 p1 p0)) in *. set (sa := sin (atan2 p1 p0)) in *.
  vext. ring [Hc Hs].
Qed.

Lemma plane_rot_scale n d b0 b1 a c :
  length d = n -> length b0 = n -> length b1 = n ->
  vscale c (plane_rot d b0 b1 a) = plane_rot (vscale c d) b0 b1 a.
Proof. intros. unfold plane_rot. autorewrite with vdot. vext. ring. Qed.

Lemma rotate_direction_eq n d b0 b1 a :
  length d = n -> length b0 = n -> length b1 = n ->
  rotate_direction d b0 b1 a = plane_rot d b0 b1 a.
Proof.
  intros Hd H0 H1. unfold rotate_direction.
  destruct (Req_EM_T (norm d) 0) as [E|E].
  - apply norm_zero_iff in E. rewrite E. unfold plane_rot.
    rewrite !dot_vzero_r. vext. ring.
  - rewrite (rotate_core_eq n); auto; [|autorewrite with vlen; auto].
    rewrite (plane_rot_scale n); auto; [|autorewrite with vlen; auto].
    rewrite vscale_norm_vdiv; auto.
Qed.

Lemma rotate_column_eq n d b0 b1 a :
  length d = n -> length b0 = n -> length b1 = n -> norm d <> 0 ->
  rotate_column b0 b1 a d = Ok (plane_rot (vdiv d (norm d)) b0 b1 a).
Proof.
  intros. unfold rotate_column. destruct (Req_EM_T (norm d) 0); [contradiction|].
  rewrite (rotate_core_eq n); auto. autorewrite with vlen; auto.
Qed.
Lemma vdiv_1 v : vdiv v 1 = v.
Proof. vext. field. Qed.
Lemma rotate_column_unit n d b0 b1 a :
  length d = n -> length b0 = n -> length b1 = n -> unitv d ->
  rotate_column b0 b1 a d = Ok (plane_rot d b0 b1 a).
Proof.
  intros. apply unit_norm in H2. rewrite (rotate_column_eq n) by (auto; lra).
  rewrite H2, vdiv_1. auto.
Qed.

(** ** Geometry of [plane_rot] *)
Lemma plane_rot_length n d b0 b1 a :
  length d = n -> length b0 = n -> length b1 = n -> length (plane_rot d b0 b1 a) = n.
Proof. intros. unfold plane_rot. autorewrite with vlen. lia. Qed.

Lemma plane_rot_linear n c d u v b0 b1 a :
  length u = n -> length v = n -> length b0 = n -> length b1 = n ->
  plane_rot (vadd (vscale c u) (vscale d v)) b0 b1 a =
  vadd (vscale c (plane_rot u b0 b1 a)) (vscale d (plane_rot v b0 b1 a)).
Proof. intros. unfold plane_rot. autorewrite with vdot. vext. ring. Qed.

Lemma plane_rot_add n u v b0 b1 a :
  length u = n -> length v = n -> length b0 = n -> length b1 = n ->
  plane_rot (vadd u v) b0 b1 a = vadd (plane_rot u b0 b1 a) (plane_rot v b0 b1 a).
Proof. intros. unfold plane_rot. autorewrite with vdot. vext. ring. Qed.

Lemma plane_rot_isometry n u v b0 b1 a :
  orthonormal n b0 b1 ->
  dot (plane_rot u b0 b1 a) (plane_rot v b0 b1 a) = dot u v.
Proof.
  intros (_ & _ & H0 & H1 & H01). unfold plane_rot, unitv in *.
  autorewrite with vdot.
  rewrite (dot_comm b1 b0), H0, H1, H01.
  rewrite (dot_comm u b0), (dot_comm u b1).
  pose proof (cos_sin_sq a).
  assert (sin a * sin a = 1 - cos a * cos a) by lra.
  ring [H2].
Qed.

Lemma plane_rot_complement n v b0 b1 a :
  length v = n -> length b0 = n -> length b1 = n ->
  dot v b0 = 0 -> dot v b1 = 0 -> plane_rot v b0 b1 a = v.
Proof.
  intros. unfold plane_rot. rewrite (dot_comm b0), (dot_comm b1), H2, H3. vext. ring.
Qed.

Lemma plane_rot_first n b0 b1 a :
  orthonormal n b0 b1 ->
  plane_rot b0 b0 b1 a = vadd (vscale (cos a) b0) (vscale (sin a) b1).
Proof.
  intros (L0 & L1 & H0 & H1 & H01). unfold plane_rot, unitv in *.
  rewrite (dot_comm b1 b0), H0, H01. vext. ring.
Qed.
Lemma plane_rot_second n b0 b1 a :
  orthonormal n b0 b1 ->
  plane_rot b1 b0 b1 a = vadd (vscale (- sin a) b0) (vscale (cos a) b1).
Proof.
  intros (L0 & L1 & H0 & H1 & H01). unfold plane_rot, unitv in *.
  rewrite H1, H01. vext. ring.
Qed.

Lemma plane_rot_compose n v b0 b1 a b :
  orthonormal n b0 b1 -> length v = n ->
  plane_rot (plane_rot v b0 b1 a) b0 b1 b = plane_rot v b0 b1 (a + b).
Proof.
  intros (L0 & L1 & H0 & H1 & H01) Hv. unfold plane_rot, unitv in *.
  autorewrite with vdot.
  rewrite (dot_comm b1 b0), H0, H1, H01. rewrite cos_plus, sin_plus.
  vext. ring.
Qed.
Lemma plane_rot_zero n v b0 b1 :
  length v = n -> length b0 = n -> length b1 = n -> plane_rot v b0 b1 0 = v.
Proof. intros. unfold plane_rot. rewrite cos_0, sin_0. vext. ring. Qed.
Lemma plane_rot_inverse n v b0 b1 a :
  orthonormal n b0 b1 -> length v = n ->
  plane_rot (plane_rot v b0 b1 a) b0 b1 (- a) = v.
Proof.
  intros. rewrite (plane_rot_compose n); auto.
  replace (a + - a) with 0 by ring. destruct H as (? & ? & ?).
  apply (plane_rot_zero n); auto.
Qed.
Lemma plane_rot_unit n v b0 b1 a :
  orthonormal n b0 b1 -> unitv v -> unitv (plane_rot v b0 b1 a).
Proof. intros. unfold unitv. rewrite (plane_rot_isometry n); auto. Qed.
Lemma plane_rot_norm n v b0 b1 a :
  orthonormal n b0 b1 -> norm (plane_rot v b0 b1 a) = norm v.
Proof. intros. unfold norm. rewrite (plane_rot_isometry n); auto. Qed.
Lemma plane_rot_orthonormal n b0 b1 a c0 c1 :
  orthonormal n b0 b1 -> orthonormal n c0 c1 ->
  orthonormal n (plane_rot c0 b0 b1 a) (plane_rot c1 b0 b1 a).
Proof.
  intros H (L0 & L1 & H0 & H1 & H01).
  pose proof H as (K0 & K1 & _).
  repeat split.
  - apply (plane_rot_length n); auto.
  - apply (plane_rot_length n); auto.
  - apply (plane_rot_unit n); auto.
  - apply (plane_rot_unit n); auto.
  - rewrite (plane_rot_isometry n); auto.
Qed.
(** Rotations are natural: an isometry-linear map carries a rotation to the rotation of the
    carried base. *)
Lemma plane_rot_conj n v c0 c1 b0 b1 a t :
  orthonormal n b0 b1 -> length v = n -> length c0 = n -> length c1 = n ->
  plane_rot (plane_rot v b0 b1 t) (plane_rot c0 b0 b1 t) (plane_rot c1 b0 b1 t) a
  = plane_rot (plane_rot v c0 c1 a) b0 b1 t.
Proof.
  intros O Hv H0 H1. pose proof O as (K0 & K1 & _).
  unfold plane_rot at 1. rewrite !(plane_rot_isometry n) by auto.
  unfold plane_rot at 5.
  rewrite (plane_rot_add n), (plane_rot_linear n); auto; autorewrite with vlen; lia.
Qed.

Theorem rotate_direction_is_rotation n b0 b1 a :
  orthonormal n b0 b1 ->
  IsPlaneRotation n b0 b1 a (fun v => rotate_direction v b0 b1 a).
Proof.
  intros O. pose proof O as (K0 & K1 & _).
  constructor.
  - intros. rewrite (rotate_direction_eq n) by auto. apply (plane_rot_length n); auto.
  - intros. rewrite !(rotate_direction_eq n) by (auto; autorewrite with vlen; lia).
    apply (plane_rot_linear n); auto.
  - intros. rewrite !(rotate_direction_eq n) by auto. apply (plane_rot_isometry n); auto.
  - intros. rewrite !(rotate_direction_eq n) by auto. apply (plane_rot_complement n); auto.
  - rewrite !(rotate_direction_eq n) by auto. apply (plane_rot_first n); auto.
  - rewrite !(rotate_direction_eq n) by auto. apply (plane_rot_second n); auto.
Qed.

(** ** [from_directions] *)
Definition rot_ok (n : nat) (r : rotation) : Prop := orthonormal n (rb0 r) (rb1 r).
Definition dirof (v : vec) : vec := vdiv v (norm v).
(** Pairs on which the construction is exact: equal, or not numerically close. *)
Definition exact_pair (u v : vec) : Prop := u = v \/ allclose u v = false.

Lemma dirof_unit v : norm v <> 0 -> unitv (dirof v).
Proof. apply unit_vdiv. Qed.
Lemma dirof_length v : length (dirof v) = length v.
Proof. apply length_vdiv. Qed.
Lemma dirof_of_unit v : unitv v -> dirof v = v.
Proof. intros H. apply unit_norm in H. unfold dirof. rewrite H. apply vdiv_1. Qed.
Lemma unit_norm_neq v : unitv v -> norm v <> 0.
Proof. intros H. apply unit_norm in H. lra. Qed.

Lemma perp_first_two_ok n v :
  length v = n -> (2 <= n)%nat ->
  exists p, perp_first_two v = Ok p /\ length p = n /\ unitv p /\ dot v p = 0.
Proof.
  intros Hl Hn. destruct v as [|x [|y rest]]; simpl in Hl; try lia.
  unfold perp_first_two.
  destruct (Req_EM_T (norm [x; y]) 0) as [E|E].
  - apply norm_eq_0_dot in E. simpl in E.
    assert (x = 0) by nra. assert (y = 0) by nra. subst.
    eexists; split; [reflexivity|]. simpl. rewrite length_vzero.
    split; [lia|]. unfold unitv; simpl. rewrite dot_vzero_l, dot_vzero_r. lra.
  - assert (E2 : norm [y; x * -1] <> 0).
    { apply norm_neq_0_dot. apply norm_neq_0_dot in E. simpl in *. lra. }
    pose proof (norm_sq [y; x * -1]) as Hs. simpl in Hs.
    eexists; split; [reflexivity|]. simpl. rewrite length_vzero.
    split; [lia|]. unfold unitv; simpl. rewrite dot_vzero_l, dot_vzero_r.
    set (m := norm [y; x * -1]) in *. split.
    + replace (y / m * (y / m) + (x * -1 / m * (x * -1 / m) + 0))
        with ((y * y + (x * -1 * (x * -1) + 0)) / (m * m)) by (field; auto).
      rewrite <- Hs. field; auto.
    + field; auto.
Qed.

Lemma perp_norm_sq u v : unitv u -> unitv v ->
  dot (vsub v (vscale (dot u v) u)) (vsub v (vscale (dot u v) u)) = 1 - dot u v * dot u v.
Proof.
  unfold unitv. intros Hu Hv. autorewrite with vdot. rewrite Hu, Hv, (dot_comm v u). ring.
Qed.

(** Construction from unit vectors: the common part of [from_directions] and
    [create_from_vector_array]. *)
Lemma gram_schmidt_exact n u v :
  length u = n -> length v = n -> unitv u -> unitv v ->
  dot u v <> -1 -> allclose u v = false ->
  let p := vsub v (vscale (dot u v) u) in
  norm p <> 0 /\ orthonormal n u (vdiv p (norm p)) /\
  vadd (vscale (cos (acos (dot u v))) u) (vscale (sin (acos (dot u v))) (vdiv p (norm p))) = v.
Proof.
  intros Lu Lv Hu Hv Hd Hc p.
  pose proof (unit_dot_bounds u v Hu Hv) as Hb.
  assert (Hd1 : dot u v <> 1).
  { intro E. apply unit_dot_1 in E; auto; [|congruence]. subst v.
    rewrite allclose_refl in Hc. discriminate. }
  pose proof (perp_norm_sq u v Hu Hv) as Hp. fold p in Hp.
  assert (Hn : norm p <> 0).
  { apply norm_neq_0_dot. rewrite Hp. nra. }
  split; auto. split.
  - repeat split; auto.
    + unfold p. autorewrite with vlen. lia.
    + apply unit_vdiv; auto.
    + unfold p at 1. autorewrite with vdot. unfold unitv in Hu. rewrite Hu. field. auto.
  - rewrite cos_acos by auto. rewrite sin_acos by auto.
    assert (Hs : norm p = sqrt (1 - (dot u v)²)).
    { unfold norm. rewrite Hp. reflexivity. }
    assert (Lp : length p = n) by (unfold p; autorewrite with vlen; lia).
    rewrite <- Hs. vext. unfold p at 2. autorewrite with vnth. field. auto.
Qed.

Lemma from_directions_spec n vi vr :
  length vi = n -> length vr = n -> (2 <= n)%nat ->
  norm vi <> 0 -> norm vr <> 0 -> dot (dirof vi) (dirof vr) <> -1 ->
  exists r, from_directions vi vr = Ok r /\ rot_ok n r /\ rb0 r = dirof vi /\
    rangle r = acos (dot (dirof vi) (dirof vr)) /\
    (allclose (dirof vi) (dirof vr) = false -> get_second_vector r = dirof vr).
Proof.
  intros Li Lr Hn Hi Hr Hd. unfold from_directions.
  destruct (Req_EM_T (norm vi) 0); [contradiction|].
  destruct (Req_EM_T (norm vr) 0); [contradiction|].
  fold (dirof vi) (dirof vr).
  set (u := dirof vi) in *. set (v := dirof vr) in *.
  assert (Lu : length u = n) by (unfold u; rewrite dirof_length; auto).
  assert (Lv : length v = n) by (unfold v; rewrite dirof_length; auto).
  assert (Hu : unitv u) by (apply dirof_unit; auto).
  assert (Hv : unitv v) by (apply dirof_unit; auto).
  pose proof (unit_dot_bounds u v Hu Hv) as Hb.
  rewrite clamp1_id by auto.
  destruct (allclose u v) eqn:Ec.
  - destruct (perp_first_two_ok n u Lu Hn) as (p & E & Lp & Hp & Hup).
    rewrite E. simpl. eexists; split; [reflexivity|].
    unfold rot_ok, orthonormal; simpl. repeat split; auto. discriminate.
  - destruct (gram_schmidt_exact n u v Lu Lv Hu Hv Hd Ec) as (Hp & Ho & Heq).
    set (p := vsub v (vscale (dot u v) u)) in *.
    destruct (Req_EM_T (norm p) 0); [contradiction|].
    simpl. eexists; split; [reflexivity|]. unfold rot_ok; simpl. repeat split; auto.
    + apply Ho.
    + apply Ho.
    + apply Ho.
    + intros _. unfold get_second_vector; simpl.
      rewrite (rotate_direction_eq n) by (auto; apply Ho).
      rewrite (plane_rot_first n) by auto. auto.
Qed.

Lemma exact_second n vi vr r :
  length vi = n -> length vr = n -> (2 <= n)%nat ->
  norm vi <> 0 -> norm vr <> 0 -> dot (dirof vi) (dirof vr) <> -1 ->
  exact_pair (dirof vi) (dirof vr) -> from_directions vi vr = Ok r ->
  get_second_vector r = dirof vr.
Proof.
  intros Li Lr Hn Hi Hr Hd He Hf.
  destruct (from_directions_spec n vi vr) as (r' & E & Ho & E0 & Ea & Es); auto.
  rewrite Hf in E. injection E as <-.
  destruct He as [He|He]; [|auto].
  unfold get_second_vector. pose proof Ho as (L0 & L1 & H0 & _).
  rewrite (rotate_direction_eq n) by auto. rewrite (plane_rot_first n) by auto.
  rewrite Ea, <- He. pose proof (dirof_unit vi Hi) as Hu. unfold unitv in Hu.
  rewrite Hu, acos_1, cos_0, sin_0, E0. vext.
  - unfold rot_ok in Ho. rewrite <- E0. lia.
  - ring.
Qed.

(** The chord between a vector and its rotated image. *)
Lemma second_chord n r :
  rot_ok n r ->
  dot (vsub (get_second_vector r) (rb0 r)) (vsub (get_second_vector r) (rb0 r))
  = 2 - 2 * cos (rangle r).
Proof.
  intros Ho. pose proof Ho as (L0 & L1 & H0 & H1 & H01). unfold get_second_vector.
  rewrite (rotate_direction_eq n) by auto. rewrite (plane_rot_first n) by auto.
  autorewrite with vdot. unfold unitv in *. rewrite (dot_comm (rb1 r) (rb0 r)), H0, H1, H01.
  pose proof (cos_sin_sq (rangle r)).
  assert (sin (rangle r) * sin (rangle r) = 1 - cos (rangle r) * cos (rangle r)) by lra.
  ring [H2].
Qed.

Lemma second_error_bound n vi vr r :
  length vi = n -> length vr = n -> (2 <= n)%nat ->
  norm vi <> 0 -> norm vr <> 0 -> dot (dirof vi) (dirof vr) <> -1 ->
  from_directions vi vr = Ok r ->
  norm (vsub (get_second_vector r) (dirof vr)) <= 2 * norm (vsub (dirof vi) (dirof vr)).
Proof.
  intros Li Lr Hn Hi Hr Hd Hf.
  destruct (from_directions_spec n vi vr) as (r' & E & Ho & E0 & Ea & Es); auto.
  rewrite Hf in E. injection E as <-.
  pose proof (dirof_unit vi Hi) as Hu. pose proof (dirof_unit vr Hr) as Hv.
  pose proof (unit_dot_bounds _ _ Hu Hv) as Hb.
  set (u := dirof vi) in *. set (v := dirof vr) in *.
  assert (N : norm (vsub (get_second_vector r) u) = norm (vsub u v)).
  { unfold norm. f_equal. rewrite <- E0. rewrite (second_chord n) by auto.
    rewrite Ea, cos_acos, E0 by auto. autorewrite with vdot.
    rewrite (dot_comm v u). unfold unitv in *. rewrite Hu, Hv. ring. }
  assert (EQ : vsub (get_second_vector r) v
               = vadd (vsub (get_second_vector r) u) (vsub u v)).
  { assert (length u = n) by (unfold u; rewrite dirof_length; auto).
    assert (length v = n) by (unfold v; rewrite dirof_length; auto).
    vext. ring. }
  rewrite EQ. pose proof (norm_triangle (vsub (get_second_vector r) u) (vsub u v)). lra.
Qed.

Lemma from_directions_zero vi vr :
  norm vi = 0 \/ norm vr = 0 -> from_directions vi vr = Err ENaN.
Proof.
  unfold from_directions. intros H.
  destruct (Req_EM_T (norm vi) 0); auto. destruct (Req_EM_T (norm vr) 0); auto.
  destruct H; contradiction.
Qed.

Lemma allclose_nth u v i :
  length u = length v -> allclose u v = true -> isclose (nth i u 0) (nth i v 0) = true.
Proof.
  revert v i. induction u; destruct v; simpl; intros i HL H; try discriminate.
  - destruct i; apply isclose_refl.
  - apply andb_prop in H as [Ha Hb]. destruct i; auto.
Qed.

Lemma allclose_opp_small u : allclose u (vscale (-1) u) = true -> dot u u <= INR (length u) / 10^16.
Proof.
  induction u; [simpl; lra|].
  cbn [vscale map allclose dot length]. intros H. apply andb_prop in H as [Ha Hb].
  specialize (IHu Hb). rewrite S_INR.
  apply Rleb_true in Ha.
  replace (a - -1 * a) with (2 * a) in Ha by ring.
  rewrite Rabs_mult in Ha. rewrite (Rabs_right 2) in Ha by lra.
  replace (-1 * a) with (- a) in Ha by ring. rewrite Rabs_Ropp in Ha.
  assert (Rabs a <= / 10^8).
  { assert (Rabs a * (2 - / 10^5) <= / 10^8) by lra.
    pose proof (Rabs_pos a).
    assert (1 <= 2 - / 10^5) by (simpl; lra). nra. }
  assert (a * a <= / 10^16).
  { replace (a * a) with (Rabs a * Rabs a).
    - pose proof (Rabs_pos a).
      replace (/ 10^16) with (/ 10^8 * / 10^8) by (simpl; lra). nra.
    - rewrite <- Rabs_mult. apply Rabs_right. nra. }
  unfold Rdiv in *. lra.
Qed.

Lemma from_directions_antiparallel vi vr :
  length vi = length vr -> INR (length vi) < 10^16 ->
  norm vi <> 0 -> norm vr <> 0 -> dot (dirof vi) (dirof vr) = -1 ->
  from_directions vi vr = Err ENaN.
Proof.
  intros HL Hsmall Hi Hr Hd. unfold from_directions.
  destruct (Req_EM_T (norm vi) 0); [contradiction|].
  destruct (Req_EM_T (norm vr) 0); [contradiction|].
  fold (dirof vi) (dirof vr).
  set (u := dirof vi) in *. set (v := dirof vr) in *.
  assert (Hu : unitv u) by (apply dirof_unit; auto).
  assert (Hv : unitv v) by (apply dirof_unit; auto).
  assert (Lu : length u = length v) by (unfold u, v; rewrite !dirof_length; auto).
  destruct (allclose u v) eqn:Ec.
  - exfalso. apply unit_dot_m1 in Hd; auto. rewrite Hd in Ec.
    apply allclose_opp_small in Ec. unfold unitv in Hu. rewrite Hu in Ec.
    replace (length u) with (length vi) in Ec by (unfold u; rewrite dirof_length; auto).
    assert (INR (length vi) / 10^16 < 1); [|lra].
    apply Rmult_lt_reg_r with (10^16); [simpl; lra|].
    unfold Rdiv. rewrite Rmult_assoc, Rinv_l by (simpl; lra). lra.
  - pose proof (perp_norm_sq u v Hu Hv) as Hp.
    destruct (Req_EM_T (norm (vsub v (vscale (dot u v) u))) 0) as [|N]; auto.
    exfalso. apply N. apply norm_eq_0_dot. rewrite Hp, Hd. ring.
Qed.

(** Partial rotations stay at constant speed on the great circle. *)
Lemma rotate_partial_cos n vi r w :
  length vi = n -> rot_ok n r -> norm vi <> 0 -> rb0 r = dirof vi ->
  norm (rotate r vi w) = norm vi /\
  dot (rotate r vi w) vi = cos (w * rangle r) * (norm vi * norm vi).
Proof.
  intros Li Ho Hi E. pose proof Ho as (L0 & L1 & H0 & H1 & H01). unfold rotate.
  rewrite (rotate_direction_eq n) by auto. split; [apply (plane_rot_norm n); auto|].
  assert (EV : vi = vscale (norm vi) (rb0 r)).
  { rewrite E. unfold dirof. rewrite vscale_norm_vdiv; auto. }
  set (m := norm vi) in *. unfold unitv in *.
  assert (D0 : dot (rb0 r) vi = m) by (rewrite EV; autorewrite with vdot; rewrite H0; ring).
  assert (D1 : dot (rb1 r) vi = 0)
    by (rewrite EV; autorewrite with vdot; rewrite (dot_comm (rb1 r)), H01; ring).
  unfold plane_rot. autorewrite with vdot. rewrite D0, D1, <- norm_sq. fold m. ring.
Qed.

(** ** [directional_vector_addition] *)
Lemma dva_spec n v1 v2 w :
  length v1 = n -> length v2 = n -> (2 <= n)%nat -> 0 <= w <= 1 ->
  norm v1 <> 0 -> norm v2 <> 0 -> dot (dirof v1) (dirof v2) <> -1 ->
  exists v, directional_vector_addition v1 v2 w = Ok v /\ length v = n /\
    norm v = (1 - w) * norm v1 + w * norm v2 /\
    (w = 0 -> v = v1) /\
    (w = 1 -> exact_pair (dirof v1) (dirof v2) -> v = v2).
Proof.
  intros L1 L2 Hn Hw H1 H2 Hd. unfold directional_vector_addition.
  destruct (Req_EM_T (norm v1) 0); [contradiction|].
  destruct (Req_EM_T (norm v2) 0); [contradiction|].
  fold (dirof v1) (dirof v2).
  pose proof (dirof_unit v1 H1) as U1. pose proof (dirof_unit v2 H2) as U2.
  assert (Ld1 : length (dirof v1) = n) by (rewrite dirof_length; auto).
  assert (Ld2 : length (dirof v2) = n) by (rewrite dirof_length; auto).
  assert (Hd' : dot (dirof (dirof v1)) (dirof (dirof v2)) <> -1)
    by (rewrite !(dirof_of_unit (dirof _)); auto).
  destruct (from_directions_spec n (dirof v1) (dirof v2)) as (r & E & Ho & E0 & Ea & Es);
    auto using unit_norm_neq.
  pose proof (exact_second n (dirof v1) (dirof v2) r) as Hex.
  rewrite !(dirof_of_unit (dirof v1)), !(dirof_of_unit (dirof v2)) in * by auto.
  rewrite E. simpl. eexists; split; [reflexivity|].
  pose proof Ho as (M0 & M1 & M).
  assert (HR : rotate r (dirof v1) w = plane_rot (dirof v1) (rb0 r) (rb1 r) (w * rangle r)).
  { unfold rotate. apply (rotate_direction_eq n); auto. }
  rewrite HR. pose proof (norm_nonneg v1). pose proof (norm_nonneg v2).
  split.
  { rewrite length_vscale. apply (plane_rot_length n); auto. }
  split.
  { rewrite norm_vscale, (plane_rot_norm n) by auto.
    apply unit_norm in U1. rewrite U1, Rabs_right by nra. ring. }
  split.
  - intros ->. rewrite (Rmult_0_l (rangle r)). rewrite (plane_rot_zero n) by auto.
    replace ((1 - 0) * norm v1 + 0 * norm v2) with (norm v1) by ring.
    apply vscale_norm_vdiv; auto.
  - intros -> He. rewrite (Rmult_1_l (rangle r)).
    assert (S : get_second_vector r = dirof v2) by (apply Hex; auto using unit_norm_neq).
    unfold get_second_vector in S. rewrite (rotate_direction_eq n) in S by auto.
    rewrite E0 in S. rewrite E0. rewrite S.
    replace ((1 - 1) * norm v1 + 1 * norm v2) with (norm v2) by ring.
    apply vscale_norm_vdiv; auto.
Qed.

Lemma rotate_direction_length n d b0 b1 a :
  length d = n -> length b0 = n -> length b1 = n -> length (rotate_direction d b0 b1 a) = n.
Proof. intros. rewrite (rotate_direction_eq n) by auto. apply (plane_rot_length n); auto. Qed.
