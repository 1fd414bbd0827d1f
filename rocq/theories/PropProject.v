(** Property C60: the projected tangent. *)
Require Import Reals List Bool Lra Lia.
From Verif Require Import Base Vec Angle RotModel RotProofs TreeSpec ProjModel.
Import ListNotations.
Open Scope R_scope.

(** A choice of a unit vector orthogonal to a unit vector. *)
Definition picks (n : nat) (pick : vec -> vec) : Prop :=
  forall d, length d = n -> unitv d -> length (pick d) = n /\ unitv (pick d) /\ dot d (pick d) = 0.

Section Angles.
Variables (n : nat) (pick : vec -> vec).
Hypothesis Hpick : picks n pick.

Lemma perp_part d v : unitv d -> dot d (vsub v (vscale (dot d v) d)) = 0.
Proof. intros U. unfold unitv in U. rewrite dot_vsub_r, dot_vscale_r, U. ring. Qed.
Lemma perp_norm_sq d v : unitv d -> unitv v ->
  norm (vsub v (vscale (dot d v) d)) * norm (vsub v (vscale (dot d v) d)) = 1 - dot d v * dot d v.
Proof.
  intros Ud Uv. rewrite norm_sq. unfold unitv in *. rewrite dot_vsub_l, !dot_vsub_r, !dot_vscale_l, !dot_vscale_r, Ud, Uv.
  rewrite (dot_comm v d). ring.
Qed.
Lemma angle_space_spec d v : length d = n -> length v = n -> unitv d -> unitv v ->
  length (angle_space pick d v) = n /\ dot d (angle_space pick d v) = 0 /\
  norm (angle_space pick d v) = acos (dot d v).
Proof.
  intros Ld Lv Ud Uv. unfold angle_space. set (c := dot d v). set (p := vsub v (vscale c d)).
  pose proof (unit_dot_bounds d v Ud Uv) as Hc. fold c in Hc.
  pose proof (perp_norm_sq d v Ud Uv) as Q. fold c p in Q.
  destruct (Req_EM_T (norm p) 0) as [Z|NZ].
  - rewrite Z in Q. destruct (Rltb c 0) eqn:E.
    + apply Rltb_true in E. assert (Ec : c = -1) by nra.
      destruct (Hpick d Ld Ud) as (L & U & O). split; [rewrite length_vscale; auto|].
      split; [rewrite dot_vscale_r, O; ring|].
      rewrite norm_vscale, (proj1 (unit_norm _) U), Ec.
      replace (-1) with (- (1)) by ring. rewrite acos_opp, acos_1.
      rewrite Rabs_pos_eq by (pose proof PI_RGT_0; lra). ring.
    + apply Rltb_false in E. assert (Ec : c = 1) by nra. split; [unfold vzero; rewrite repeat_length; auto|].
      split; [apply dot_vzero_r|]. rewrite norm_vzero, Ec, acos_1. auto.
  - split; [unfold p; autorewrite with vlen; lia|].
    split.
    + rewrite dot_vscale_r. unfold p, c. rewrite perp_part by auto. ring.
    + rewrite norm_vscale, Rabs_pos_eq.
      * field. auto.
      * apply Rmult_le_pos; [apply acos_bound|]. left. apply Rinv_0_lt_compat. pose proof (norm_nonneg p). lra.
Qed.
(** Away from the antipode the angle vector is the logarithmic map. *)
Lemma angle_space_log d v : unitv d -> unitv v -> dot d v <> -1 -> angle_space pick d v = log_map d v.
Proof.
  intros Ud Uv N. unfold angle_space, log_map. destruct (Req_EM_T _ 0) as [Z|]; auto.
  pose proof (perp_norm_sq d v Ud Uv) as Q. rewrite Z in Q.
  destruct (Rltb (dot d v) 0) eqn:E; auto. apply Rltb_true in E. exfalso. apply N. nra.
Qed.
Lemma vector_from_angle_spec d a : length d = n -> length a = n -> unitv d -> dot d a = 0 ->
  length (vector_from_angle d a) = n /\ unitv (vector_from_angle d a) /\
  dot d (vector_from_angle d a) = cos (norm a).
Proof.
  intros Ld La Ud O. unfold vector_from_angle. destruct (Req_EM_T (norm a) 0) as [Z|NZ].
  - rewrite Z, cos_0. auto.
  - split; [autorewrite with vlen; lia|].
    pose proof (norm_sq a) as Q. unfold unitv in *. split.
    + rewrite dot_vadd_l, !dot_vadd_r, !dot_vscale_l, !dot_vscale_r, (dot_comm a d), O, Ud, <- Q.
      pose proof (cos_sin_sq (norm a)).
      replace (sin (norm a) / norm a * (sin (norm a) / norm a * (norm a * norm a))) with (sin (norm a) * sin (norm a)) by (field; auto).
      lra.
    + rewrite dot_vadd_r, !dot_vscale_r, O, Ud. ring.
Qed.
(** The two maps are inverse to each other. *)
Lemma vector_of_angle_of d v : length d = n -> length v = n -> unitv d -> unitv v -> dot d v <> -1 ->
  vector_from_angle d (angle_space pick d v) = v.
Proof.
  intros Ld Lv Ud Uv N. destruct (angle_space_spec d v Ld Lv Ud Uv) as (La & _ & Na).
  unfold vector_from_angle. rewrite Na. unfold angle_space in *. set (c := dot d v) in *.
  set (p := vsub v (vscale c d)) in *.
  pose proof (unit_dot_bounds d v Ud Uv) as Hc. fold c in Hc.
  pose proof (perp_norm_sq d v Ud Uv) as Q. fold c p in Q.
  destruct (Req_EM_T (norm p) 0) as [Z|NZ].
  - rewrite Z in Q. assert (Ec : c = 1) by nra. rewrite Ec, acos_1.
    destruct (Req_EM_T 0 0); [|lra]. apply unit_dot_1; auto. lia.
  - assert (P : 0 < norm p) by (pose proof (norm_nonneg p); lra).
    destruct (Req_EM_T (acos c) 0) as [Z|NA].
    { apply acos_eq_0 in Z; auto. rewrite Z in Q. nra. }
    rewrite cos_acos, sin_acos_sqrt by auto.
    replace (sqrt (1 - c * c)) with (norm p).
    + assert (Lp : length p = n) by (unfold p; autorewrite with vlen; lia).
      assert (E : v = vadd (vscale c d) p) by (unfold p; vext; ring).
      rewrite E at 1. vext. field. auto.
    + rewrite <- Q. rewrite sqrt_square; auto. lra.
Qed.
Lemma acos_lt_of_cos x a : -1 <= x <= 1 -> 0 <= a <= PI -> cos a < x -> acos x < a.
Proof.
  intros Hx Ha H. pose proof (acos_bound x). destruct (Rlt_le_dec (acos x) a) as [|L]; auto. exfalso.
  assert (x <= cos a); [|lra]. rewrite <- (cos_acos x) by auto.
  destruct (Req_dec a (acos x)) as [->|]; [lra|]. left. apply cos_decreasing_1; lra.
Qed.
Lemma acos_le_of_cos x a : -1 <= x <= 1 -> 0 <= a <= PI -> cos a <= x -> acos x <= a.
Proof.
  intros Hx Ha [H|H]; [left; apply acos_lt_of_cos; auto|]. rewrite <- H, acos_cos by auto. lra.
Qed.

(** The larger root: the end point lies on the circle, beyond the point at [t = 1] which is
    inside. *)
Lemma circle_far_spec a0 ar tmp : length a0 = n -> length ar = n -> norm (vsub a0 ar) <> 0 ->
  0 <= tmp -> norm a0 <= tmp ->
  exists s, 0 <= s /\
    circle_far ar (vsub a0 ar) tmp = Some (vadd a0 (vscale s (vsub a0 ar))) /\
    norm (vadd a0 (vscale s (vsub a0 ar))) = tmp /\
    (norm a0 = tmp -> norm ar <= tmp -> s = 0).
Proof.
  intros L0 Lr Nd Ht H0. unfold circle_far. set (d := vsub a0 ar) in *.
  set (A := dot d d). set (B := 2 * dot d ar). set (C := dot ar ar - tmp * tmp).
  assert (PA : 0 < A).
  { unfold A. apply norm_neq_0_dot in Nd. pose proof (dot_self_nonneg d). lra. }
  assert (E0 : dot a0 a0 = A + B + dot ar ar).
  { unfold A, B, d. rewrite !dot_vsub_l, !dot_vsub_r, (dot_comm ar a0). ring. }
  assert (S0 : dot a0 a0 <= tmp * tmp).
  { rewrite <- norm_sq. pose proof (norm_nonneg a0). nra. }
  assert (F1 : A + B + C <= 0) by (unfold C; lra).
  assert (HD : (2 * A + B) * (2 * A + B) <= B * B - 4 * A * C) by nra.
  set (D := B * B - 4 * A * C) in *.
  assert (PD : 0 <= D) by (pose proof (Rle_0_sqr (2 * A + B)) as K; unfold Rsqr in K; lra).
  rewrite (proj2 (Rltb_false D 0)) by lra.
  assert (RD : 2 * A + B <= sqrt D).
  { destruct (Rle_dec (2 * A + B) 0) as [L|L]; [pose proof (sqrt_pos D); lra|].
    rewrite <- (sqrt_square (2 * A + B)) by lra. apply sqrt_le_1; auto. apply Rle_0_sqr. }
  set (t := (- B + sqrt D) / (2 * A)).
  assert (T1 : 1 <= t).
  { unfold t. apply Rmult_le_reg_r with (2 * A); [lra|]. unfold Rdiv. rewrite Rmult_assoc, Rinv_l by lra. lra. }
  assert (Root : A * t * t + B * t + C = 0).
  { assert (Q : sqrt D * sqrt D = D) by (apply sqrt_sqrt; auto).
    assert (ST : sqrt D = 2 * A * t + B) by (unfold t; field; lra).
    rewrite ST in Q. unfold D in Q. nra. }
  assert (Ev : vadd ar (vscale t d) = vadd a0 (vscale (t - 1) d)) by (unfold d; vext; ring).
  exists (t - 1). split; [lra|]. rewrite Ev. split; auto.
  assert (N2 : dot (vadd ar (vscale t d)) (vadd ar (vscale t d)) = tmp * tmp).
  { rewrite dot_vadd_l, !dot_vadd_r, !dot_vscale_l, !dot_vscale_r, (dot_comm ar d).
    unfold A, B, C in Root. nra. }
  split.
  - rewrite <- Ev. unfold norm. rewrite N2. apply sqrt_square. auto.
  - intros Eq Hr. assert (Eq2 : dot a0 a0 = tmp * tmp) by (rewrite <- norm_sq, Eq; auto).
    assert (Rr : dot ar ar <= tmp * tmp) by (rewrite <- norm_sq; pose proof (norm_nonneg ar); nra).
    assert (F0 : A + B + C = 0) by (unfold C; lra).
    assert (C0 : C <= 0) by (unfold C; lra).
    assert ((t - 1) * (A * t - C) = 0) by nra.
    assert (0 < A * t - C) by nra. nra.
Qed.

Lemma tangent_around_spec d v ref tmp : length d = n -> length v = n -> length ref = n ->
  unitv d -> unitv v -> unitv ref -> 0 <= tmp <= PI -> acos (dot d v) <= tmp ->
  (angle_space pick d v = angle_space pick d ref -> tangent_around pick d v ref tmp = Ok v) /\
  (angle_space pick d v <> angle_space pick d ref ->
   exists t s a, tangent_around pick d v ref tmp = Ok t /\ length t = n /\ unitv t /\ dot d t = cos tmp /\ 0 <= s /\
     (t = exp_map d a /\ norm a = tmp /\
      a = vadd (angle_space pick d v) (vscale s (vsub (angle_space pick d v) (angle_space pick d ref)))) /\
     (acos (dot d v) = tmp -> acos (dot d ref) <= tmp -> s = 0)).
Proof.
  intros Ld Lv Lr Ud Uv Ur Ht Ha.
  destruct (angle_space_spec d v Ld Lv Ud Uv) as (L0 & O0 & N0).
  destruct (angle_space_spec d ref Ld Lr Ud Ur) as (L1 & O1 & N1).
  unfold tangent_around. set (a0 := angle_space pick d v) in *. set (ar := angle_space pick d ref) in *.
  split.
  - intros E. rewrite E. destruct (Req_EM_T _ 0) as [|N]; auto. exfalso. apply N. apply norm_eq_0_dot.
    rewrite dot_vsub_l, !dot_vsub_r. ring.
  - intros NE. destruct (Req_EM_T (norm (vsub a0 ar)) 0) as [Z|NZ].
    { exfalso. apply NE. apply dot_vsub_self_eq; [lia|]. apply norm_eq_0_dot. auto. }
    destruct (circle_far_spec a0 ar tmp L0 L1 NZ (proj1 Ht)) as (s & Hs & Ec & Nc & K); [rewrite N0; auto|].
    rewrite Ec. set (a := vadd a0 (vscale s (vsub a0 ar))) in *.
    assert (La : length a = n) by (unfold a; autorewrite with vlen; lia).
    assert (Oa : dot d a = 0) by (unfold a; rewrite dot_vadd_r, dot_vscale_r, dot_vsub_r, O0, O1; ring).
    destruct (vector_from_angle_spec d a Ld La Ud Oa) as (A1 & A2 & A3).
    exists (vector_from_angle d a), s, a. split; auto. split; auto. split; auto. split; [rewrite A3, Nc; auto|].
    split; auto. split; [split; [reflexivity|auto]|]. intros E1 E2. apply K; [congruence|]. rewrite N1. auto.
Qed.

Lemma angle_space_inj d v w : length d = n -> length v = n -> length w = n ->
  unitv d -> unitv v -> unitv w -> angle_space pick d v = angle_space pick d w -> v = w.
Proof.
  intros Ld Lv Lw Ud Uv Uw E.
  destruct (angle_space_spec d v Ld Lv Ud Uv) as (_ & _ & N0).
  destruct (angle_space_spec d w Ld Lw Ud Uw) as (_ & _ & N1).
  assert (Ed : dot d v = dot d w).
  { rewrite <- (cos_acos (dot d v)), <- (cos_acos (dot d w)) by (apply unit_dot_bounds; auto). congruence. }
  destruct (Req_dec (dot d v) (-1)) as [M|M].
  - rewrite (unit_dot_m1 d v), (unit_dot_m1 d w) by (auto; try lia; congruence). auto.
  - rewrite <- (vector_of_angle_of d v), <- (vector_of_angle_of d w), E by (auto; congruence). auto.
Qed.
End Angles.

Notation opp v := (vscale (-1) v).
Lemma unit_opp v : unitv v -> unitv (opp v).
Proof. unfold unitv. intros U. rewrite dot_vscale_l, dot_vscale_r, U. ring. Qed.
Lemma opp_opp v : opp (opp v) = v.
Proof. vext. ring. Qed.

(** * C60 *)
(** The projected tangent exists, is a unit vector at the angle [rad] from the inward normal,
    and lies on the ray (in angle space) that leaves the reference direction through the initial
    direction, not before the initial direction. *)
Theorem C60_projected_tangent : forall n pick v nn r rad, picks n pick ->
  length v = n -> length nn = n -> length r = n -> unitv v -> unitv nn -> unitv r ->
  0 < rad <= PI -> dot r nn <> 1 ->
  (cos rad < - dot v nn -> v <> r) -> (- dot v nn <= cos rad -> v <> opp r) ->
  exists t s a, get_projected_tangent pick v nn r rad = Ok t /\ length t = n /\ unitv t /\
    acos (- dot t nn) = rad /\ 0 <= s /\
    ((cos rad < - dot v nn /\ t = exp_map (opp nn) a /\ norm a = rad /\
      a = vadd (log_map (opp nn) v) (vscale s (vsub (log_map (opp nn) v) (log_map (opp nn) r)))) \/
     (- dot v nn <= cos rad /\ t = exp_map nn a /\ norm a = PI - rad /\
      a = vadd (log_map nn v) (vscale s (vsub (log_map nn v) (log_map nn (opp r)))))).
Proof.
  intros n pick v nn r rad P Lv Ln Lr Uv Un Ur Hr Star NB1 NB2.
  pose proof (unit_opp _ Un) as Un'. pose proof (unit_opp _ Ur) as Ur'.
  assert (Ln' : length (opp nn) = n) by (rewrite length_vscale; auto).
  assert (Lr' : length (opp r) = n) by (rewrite length_vscale; auto).
  pose proof (unit_dot_bounds v nn Uv Un) as Bv.
  assert (Em : dot v (opp nn) = - dot v nn) by (rewrite dot_vscale_r; ring).
  assert (Em' : dot (opp nn) v = - dot v nn) by (rewrite dot_comm; auto).
  assert (Er' : dot (opp nn) r = - dot r nn) by (rewrite dot_vscale_l, dot_comm; ring).
  assert (Er2 : dot nn (opp r) = - dot r nn) by (rewrite dot_vscale_r, (dot_comm nn r); ring).
  unfold get_projected_tangent. rewrite Em.
  destruct (Rltb (cos rad) (- dot v nn)) eqn:E.
  - apply Rltb_true in E.
    assert (Ha : acos (dot (opp nn) v) <= rad).
    { rewrite Em'. left. apply acos_lt_of_cos; lra. }
    destruct (tangent_around_spec n pick P (opp nn) v r rad Ln' Lv Lr Un' Uv Ur ltac:(lra) Ha) as (_ & K).
    destruct K as (t & s & a & Et & Lt & Ut & Dt & Hs & (Ex & Na & Ea) & _).
    { intros Q. apply (angle_space_inj n pick P) in Q; auto. apply NB1; auto. }
    exists t, s, a. split; auto. split; auto. split; auto. split.
    + replace (- dot t nn) with (dot (opp nn) t) by (rewrite dot_vscale_l, (dot_comm nn t); ring).
      rewrite Dt. apply acos_cos. lra.
    + split; auto. left. split; auto. split; auto. split; auto. rewrite Ea.
      rewrite !angle_space_log; auto.
      * rewrite Er'. lra.
      * rewrite Em'. pose proof (COS_bound rad). lra.
  - apply Rltb_false in E.
    assert (Ha : acos (dot nn v) <= PI - rad).
    { rewrite dot_comm. apply acos_le_of_cos; try lra. rewrite Rtrigo_facts.cos_pi_minus. lra. }
    destruct (tangent_around_spec n pick P nn v (opp r) (PI - rad) Ln Lv Lr' Un Uv Ur' ltac:(lra) Ha) as (_ & K).
    destruct K as (t & s & a & Et & Lt & Ut & Dt & Hs & (Ex & Na & Ea) & _).
    { intros Q. apply (angle_space_inj n pick P) in Q; auto. apply NB2; auto. }
    exists t, s, a. split; auto. split; auto. split; auto. split.
    + rewrite dot_comm, Dt, Rtrigo_facts.cos_pi_minus, Ropp_involutive. apply acos_cos. lra.
    + split; auto. right. split; [lra|]. split; auto. split; auto. rewrite Ea. rewrite !angle_space_log; auto.
      * rewrite Er2. lra.
      * rewrite dot_comm. intros Q. rewrite Q in E.
        assert (cos rad < 1); [|lra]. rewrite <- cos_0. apply cos_decreasing_1; lra.
Qed.
Theorem C60_never_raises : forall n pick v nn r rad, picks n pick ->
  length v = n -> length nn = n -> length r = n -> unitv v -> unitv nn -> unitv r ->
  0 <= rad <= PI ->
  exists t, get_projected_tangent pick v nn r rad = Ok t /\ length t = n /\ unitv t /\
    (t = v \/ acos (- dot t nn) = rad).
Proof.
  intros n pick v nn r rad P Lv Ln Lr Uv Un Ur Hr.
  pose proof (unit_opp _ Un) as Un'. pose proof (unit_opp _ Ur) as Ur'.
  assert (Ln' : length (opp nn) = n) by (rewrite length_vscale; auto).
  assert (Lr' : length (opp r) = n) by (rewrite length_vscale; auto).
  pose proof (unit_dot_bounds v nn Uv Un) as Bv.
  assert (Em : dot v (opp nn) = - dot v nn) by (rewrite dot_vscale_r; ring).
  assert (Em' : dot (opp nn) v = - dot v nn) by (rewrite dot_comm; auto).
  unfold get_projected_tangent. rewrite Em.
  destruct (Rltb (cos rad) (- dot v nn)) eqn:E.
  - apply Rltb_true in E.
    assert (Ha : acos (dot (opp nn) v) <= rad).
    { rewrite Em'. left. apply acos_lt_of_cos; lra. }
    destruct (tangent_around_spec n pick P (opp nn) v r rad Ln' Lv Lr Un' Uv Ur ltac:(lra) Ha) as (K0 & K).
    destruct (list_eq_dec Req_EM_T (angle_space pick (opp nn) v) (angle_space pick (opp nn) r)) as [Q|Q].
    { exists v. auto. }
    destruct (K Q) as (t & s & a & Et & Lt & Ut & Dt & _).
    exists t. split; auto. split; auto. split; auto. right.
    replace (- dot t nn) with (dot (opp nn) t) by (rewrite dot_vscale_l, (dot_comm nn t); ring).
    rewrite Dt. apply acos_cos. lra.
  - apply Rltb_false in E.
    assert (Ha : acos (dot nn v) <= PI - rad).
    { rewrite dot_comm. apply acos_le_of_cos; try lra. rewrite Rtrigo_facts.cos_pi_minus. lra. }
    destruct (tangent_around_spec n pick P nn v (opp r) (PI - rad) Ln Lv Lr' Un Uv Ur' ltac:(lra) Ha) as (K0 & K).
    destruct (list_eq_dec Req_EM_T (angle_space pick nn v) (angle_space pick nn (opp r))) as [Q|Q].
    { exists v. auto. }
    destruct (K Q) as (t & s & a & Et & Lt & Ut & Dt & _).
    exists t. split; auto. split; auto. split; auto. right.
    rewrite dot_comm, Dt, Rtrigo_facts.cos_pi_minus, Ropp_involutive. apply acos_cos. lra.
Qed.
(** For radiuses of at least a right angle the tangent never points into the obstacle, unless the
    initial direction is the reference direction itself. *)
Theorem C60_not_inward : forall n pick v nn r rad, picks n pick ->
  length v = n -> length nn = n -> length r = n -> unitv v -> unitv nn -> unitv r ->
  PI / 2 <= rad <= PI ->
  exists t, get_projected_tangent pick v nn r rad = Ok t /\ length t = n /\ unitv t /\
    (0 <= dot t nn \/ v = r /\ t = r).
Proof.
  intros n pick v nn r rad P Lv Ln Lr Uv Un Ur Hr. pose proof PI_RGT_0 as HP.
  assert (Cr : cos rad <= 0).
  { rewrite <- cos_PI2. destruct (Req_dec rad (PI / 2)) as [->|]; [lra|]. left. apply cos_decreasing_1; lra. }
  destruct (C60_never_raises n pick v nn r rad P Lv Ln Lr Uv Un Ur ltac:(lra)) as (t & Et & Lt & Ut & K).
  exists t. split; auto. split; auto. split; auto.
  assert (Dir : acos (- dot t nn) = rad -> 0 <= dot t nn).
  { intros Q. pose proof (unit_dot_bounds t nn Ut Un). rewrite <- Q, cos_acos in Cr; lra. }
  destruct K as [->|K]; [|auto].
  destruct (Rle_dec 0 (dot v nn)) as [L|L]; [auto|]. right.
  destruct (list_eq_dec Req_EM_T v r) as [->|NE]; [auto|]. exfalso.
  unfold get_projected_tangent in Et.
  assert (Em : dot v (opp nn) = - dot v nn) by (rewrite dot_vscale_r; ring).
  rewrite Em in Et. rewrite (proj2 (Rltb_true (cos rad) (- dot v nn))) in Et by lra.
  pose proof (unit_opp _ Un) as Un'.
  assert (Ln' : length (opp nn) = n) by (rewrite length_vscale; auto).
  pose proof (unit_dot_bounds v nn Uv Un) as Bv.
  assert (Em' : dot (opp nn) v = - dot v nn) by (rewrite dot_comm; auto).
  assert (Ha : acos (dot (opp nn) v) <= rad).
  { rewrite Em'. left. apply acos_lt_of_cos; lra. }
  destruct (tangent_around_spec n pick P (opp nn) v r rad Ln' Lv Lr Un' Uv Ur ltac:(lra) Ha) as (_ & K).
  destruct K as (t & s & a & Et' & _ & _ & Dt & _).
  { intros Q. apply (angle_space_inj n pick P) in Q; auto. }
  rewrite Et in Et'. injection Et' as <-. rewrite Em' in Dt. lra.
Qed.
(** A direction at the convergence angle is kept, as long as the reference direction is no
    farther than that from the normal. *)
Theorem C60_boundary_kept_partial : forall n pick v nn r rad, picks n pick ->
  length v = n -> length nn = n -> length r = n -> unitv v -> unitv nn -> unitv r ->
  0 < rad <= PI -> dot v nn = - cos rad -> dot r nn <= cos rad ->
  get_projected_tangent pick v nn r rad = Ok v.
Proof.
  intros n pick v nn r rad P Lv Ln Lr Uv Un Ur Hr Hv Href.
  pose proof (unit_opp _ Ur) as Ur'.
  assert (Lr' : length (opp r) = n) by (rewrite length_vscale; auto).
  pose proof (unit_dot_bounds v nn Uv Un) as Bv. pose proof (unit_dot_bounds r nn Ur Un) as Br.
  assert (Em : dot v (opp nn) = - dot v nn) by (rewrite dot_vscale_r; ring).
  unfold get_projected_tangent. rewrite Em, (proj2 (Rltb_false _ _)) by lra.
  assert (Ea : acos (dot nn v) = PI - rad).
  { rewrite dot_comm, Hv, <- Rtrigo_facts.cos_pi_minus. apply acos_cos. lra. }
  destruct (tangent_around_spec n pick P nn v (opp r) (PI - rad) Ln Lv Lr' Un Uv Ur' ltac:(lra) ltac:(lra)) as (K0 & K).
  destruct (list_eq_dec Req_EM_T (angle_space pick nn v) (angle_space pick nn (opp r))) as [Q|Q]; auto.
  destruct (K Q) as (t & s & a & Et & Lt & Ut & Dt & _ & (Ex & _ & Ea') & S0). rewrite Et. f_equal.
  rewrite Ex, Ea', S0; auto.
  - change exp_map with vector_from_angle.
    destruct (angle_space_spec n pick P nn v Ln Lv Un Uv) as (L0 & _).
    destruct (angle_space_spec n pick P nn (opp r) Ln Lr' Un Ur') as (L1 & _).
    replace (vadd _ _) with (angle_space pick nn v) by (vext; ring).
    apply (vector_of_angle_of n pick P); auto.
    rewrite dot_comm, Hv. assert (cos rad < 1); [|lra]. rewrite <- cos_0. apply cos_decreasing_1; lra.
  - apply acos_le_of_cos; try lra.
    + rewrite dot_vscale_r, dot_comm. lra.
    + rewrite Rtrigo_facts.cos_pi_minus, dot_vscale_r, dot_comm. lra.
Qed.

(** In the plane: the angle vectors around (1, 0). *)
Lemma angle_space_e1 pick x y : y <> 0 -> x * x + y * y = 1 ->
  angle_space pick [1; 0] [x; y] = [0; acos x * (y / Rabs y)].
Proof.
  intros Hy H. unfold angle_space.
  replace (dot [1; 0] [x; y]) with x by (unfold dot; simpl; ring).
  replace (vsub [x; y] (vscale x [1; 0])) with [0; y] by (unfold vsub, vscale; simpl; f_equal; [ring|f_equal; ring]).
  assert (N : norm [0; y] = Rabs y).
  { unfold norm, dot. simpl. replace (0 * 0 + (y * y + 0)) with (Rsqr y) by (unfold Rsqr; ring). apply sqrt_Rsqr_abs. }
  rewrite N. pose proof (Rabs_no_R0 y Hy). destruct (Req_EM_T (Rabs y) 0); [contradiction|].
  unfold vscale. simpl. f_equal; [ring|f_equal; field; auto].
Qed.
Lemma picks_2d : picks 2 (fun d => [- nth 1 d 0; nth 0 d 0]).
Proof.
  intros d L U. destruct d as [|x [|y [|]]]; try discriminate. simpl. split; auto.
  unfold unitv, dot in *. simpl in *. split; lra.
Qed.
(** A direction at the convergence angle can be mirrored: around the outward normal the
    reference direction lies outside the circle of radius pi - rad, the larger root is the far
    side.  Directions just inside are projected to (almost) themselves, so the switch of the base
    (lines 795-799) is not continuous. *)
Theorem C60_boundary_kept_refuted : exists v nn r rad, unitv v /\ unitv nn /\ unitv r /\
  PI / 2 < rad < PI /\ dot r nn = -3/5 /\ dot v nn = - cos rad /\
  forall pick, exists t, get_projected_tangent pick v nn r rad = Ok t /\ t <> v /\
    t = vsub (vscale (2 * dot v nn) nn) v.
Proof.
  set (q := sqrt 2 / 2).
  assert (Q2 : q * q = 1 / 2).
  { unfold q. replace (sqrt 2 / 2 * (sqrt 2 / 2)) with (sqrt 2 * sqrt 2 / 4) by field. rewrite sqrt_sqrt; lra. }
  assert (Pq : 0 < q) by (unfold q; pose proof (sqrt_lt_R0 2 ltac:(lra)); lra).
  assert (Cq : cos (PI / 4) = q) by (rewrite cos_PI4; unfold q; pose proof (sqrt_lt_R0 2 ltac:(lra)) as K;
    pose proof (sqrt_sqrt 2 ltac:(lra)); apply Rmult_eq_reg_r with (sqrt 2); [field_simplify; lra|lra]).
  assert (Sq : sin (PI / 4) = q) by (rewrite <- Cq; rewrite cos_PI4, sin_PI4; auto).
  pose proof PI_RGT_0 as HP.
  exists [q; q], [1; 0], [-3/5; -4/5], (3 * PI / 4).
  assert (C3 : cos (3 * PI / 4) = - q).
  { replace (3 * PI / 4) with (PI - PI / 4) by field. rewrite Rtrigo_facts.cos_pi_minus, Cq. auto. }
  split; [unfold unitv, dot; simpl; lra|]. split; [unfold unitv, dot; simpl; lra|].
  split; [unfold unitv, dot; simpl; lra|]. split; [lra|]. split; [unfold dot; simpl; lra|].
  split; [rewrite C3; unfold dot; simpl; lra|]. intros pick.
  set (b := acos (3/5)).
  assert (Hb : PI / 4 < b <= PI).
  { pose proof (acos_bound (3/5)). split; [|unfold b; lra].
    destruct (Rlt_le_dec (PI / 4) b) as [|L]; auto. exfalso.
    assert (q <= 3 / 5); [|nra]. rewrite <- Cq. replace (3/5) with (cos b) by (apply cos_acos; lra).
    destruct (Req_dec b (PI / 4)) as [->|]; [lra|]. left. apply cos_decreasing_1; unfold b in *; lra. }
  unfold get_projected_tangent. rewrite C3, (proj2 (Rltb_false _ _)).
  2:{ unfold dot, vscale. simpl. lra. }
  unfold tangent_around.
  replace (vscale (-1) [-3/5; -4/5]) with [3/5; 4/5] by (unfold vscale; simpl; f_equal; [lra|f_equal; lra]).
  rewrite (angle_space_e1 pick q q), (angle_space_e1 pick (3/5) (4/5)) by lra.
  rewrite !Rabs_pos_eq by lra.
  replace (acos q) with (PI / 4) by (rewrite <- Cq; symmetry; apply acos_cos; lra). fold b.
  replace (PI / 4 * (q / q)) with (PI / 4) by (field; lra).
  replace (b * (4 / 5 / (4 / 5))) with b by field.
  set (p := PI / 4) in *. replace (PI - 3 * PI / 4) with p by (unfold p; field).
  replace (vsub [0; p] [0; b]) with [0; p - b] by (unfold vsub, vscale; simpl; f_equal; [ring|f_equal; ring]).
  destruct (Req_EM_T (norm [0; p - b]) 0) as [Z|NZ].
  { apply norm_eq_0_dot in Z. unfold dot in Z. simpl in Z. nra. }
  unfold circle_far.
  replace (dot [0; p - b] [0; p - b]) with ((b - p) * (b - p)) by (unfold dot; simpl; ring).
  replace (dot [0; p - b] [0; b]) with (- (b - p) * b) by (unfold dot; simpl; ring).
  replace (dot [0; b] [0; b]) with (b * b) by (unfold dot; simpl; ring).
  set (x := b - p) in *. assert (Px : 0 < x) by (unfold x; lra).
  replace (2 * (- x * b) * (2 * (- x * b)) - 4 * (x * x) * (b * b - p * p)) with ((2 * x * p) * (2 * x * p)) by ring.
  assert (Pp : 0 < p) by (unfold p; lra).
  rewrite (proj2 (Rltb_false _ 0)) by nra. rewrite sqrt_square by nra.
  replace (vadd [0; b] (vscale ((- (2 * (- x * b)) + 2 * x * p) / (2 * (x * x))) [0; p - b])) with [0; - p].
  2:{ unfold vadd, vscale. simpl. f_equal; [ring|]. f_equal. unfold x in *. field. lra. }
  exists [q; - q]. split.
  - f_equal. unfold vector_from_angle.
    assert (N : norm [0; - p] = p).
    { unfold norm, dot. simpl. replace (0 * 0 + (- p * - p + 0)) with (p * p) by ring. apply sqrt_square. lra. }
    rewrite N. destruct (Req_EM_T p 0); [lra|]. rewrite Cq, Sq.
    unfold vadd, vscale. simpl. f_equal; [ring|]. f_equal. field. auto.
  - split; [intros E; injection E as E; lra|]. unfold vsub, vscale, dot. simpl. f_equal; [ring|f_equal; ring].
Qed.
(** Heading exactly along the reference direction the vector is returned unchanged, whatever the
    radius: it points into the obstacle. *)
Theorem C60_aligned_unchanged : forall pick nn r rad, cos rad < - dot r nn ->
  get_projected_tangent pick r nn r rad = Ok r.
Proof.
  intros pick nn r rad C. unfold get_projected_tangent.
  rewrite dot_vscale_r, (proj2 (Rltb_true _ _)) by lra. unfold tangent_around.
  destruct (Req_EM_T _ 0) as [|N]; auto. exfalso. apply N. apply norm_eq_0_dot.
  rewrite dot_vsub_l, !dot_vsub_r. ring.
Qed.
Theorem C60_aligned_refuted : exists v nn r t, unitv v /\ unitv nn /\ unitv r /\ dot r nn = -1 /\
  forall pick, get_projected_tangent pick v nn r (PI / 2) = Ok t /\ dot t nn = -1.
Proof.
  exists [-1; 0], [1; 0], [-1; 0], [-1; 0]. unfold unitv, dot. simpl.
  split; [lra|]. split; [lra|]. split; [lra|]. split; [lra|]. intros pick. split; [|lra].
  apply C60_aligned_unchanged. rewrite cos_PI2. unfold dot. simpl. lra.
Qed.
(** Facing the obstacle at 53 degrees from the inward normal: turned to the tangent. *)
Example C60_case : get_projected_tangent (fun d => [- nth 1 d 0; nth 0 d 0]) [-3/5; 4/5] [1; 0] [-1; 0] (PI / 2)
  = Ok [0; 1].
Proof.
  pose proof PI_RGT_0 as HP.
  destruct (C60_projected_tangent 2 (fun d => [- nth 1 d 0; nth 0 d 0]) [-3/5; 4/5] [1; 0] [-1; 0] (PI / 2))
    as (t & s & a & E & L & U & A & Hs & K); auto; try (unfold unitv, dot; simpl; lra).
  - apply picks_2d.
  - intros _ Q. injection Q as Q. lra.
  - intros _ Q. unfold vscale in Q. simpl in Q. injection Q as Q. lra.
  - rewrite E. f_equal.
    destruct K as [(_ & Et & Na & Ea)|(C & _)]; [|rewrite cos_PI2 in C; unfold dot in C; simpl in C; lra].
    unfold log_map in Ea.
    replace (vscale (-1) [1; 0]) with [-1; 0] in * by (unfold vscale; simpl; f_equal; [ring|f_equal; ring]).
    replace (dot [-1; 0] [-3/5; 4/5]) with (3/5) in Ea by (unfold dot; simpl; lra).
    replace (dot [-1; 0] [-1; 0]) with 1 in Ea by (unfold dot; simpl; lra).
    replace (vsub [-3/5; 4/5] (vscale (3/5) [-1; 0])) with [0; 4/5] in Ea by (unfold vsub, vscale; simpl; f_equal; [lra|f_equal; lra]).
    replace (vsub [-1; 0] (vscale 1 [-1; 0])) with [0; 0] in Ea by (unfold vsub, vscale; simpl; f_equal; [lra|f_equal; lra]).
    assert (N1 : norm [0; 4/5] = 4/5).
    { unfold norm, dot. simpl. replace (0 * 0 + (4 / 5 * (4 / 5) + 0)) with (4 / 5 * (4 / 5)) by ring. apply sqrt_square. lra. }
    assert (N0 : norm [0; 0] = 0) by (apply norm_eq_0_dot; unfold dot; simpl; ring).
    rewrite N1, N0 in Ea. destruct (Req_EM_T (4/5) 0); [lra|]. destruct (Req_EM_T 0 0); [|lra].
    set (b := acos (3/5)) in *.
    assert (Pb : 0 <= b) by (apply acos_bound).
    replace (vadd (vscale (b / (4 / 5)) [0; 4 / 5]) (vscale s (vsub (vscale (b / (4 / 5)) [0; 4 / 5]) (vzero (length [-1; 0])))))
      with [0; b * (1 + s)] in Ea by (unfold vadd, vsub, vscale, vzero; simpl; f_equal; [ring|f_equal; field]).
    assert (N2 : norm [0; b * (1 + s)] = b * (1 + s)).
    { unfold norm, dot. simpl. replace (0 * 0 + (b * (1 + s) * (b * (1 + s)) + 0)) with (b * (1 + s) * (b * (1 + s))) by ring.
      apply sqrt_square. nra. }
    rewrite Ea, N2 in Na. rewrite Ea, Na in Et. rewrite Et. unfold exp_map.
    replace (norm [0; PI / 2]) with (PI / 2) by (rewrite <- Na, N2; auto).
    destruct (Req_EM_T (PI / 2) 0); [lra|]. rewrite cos_PI2, sin_PI2.
    unfold vadd, vscale. simpl. f_equal; [ring|f_equal; field; lra].
Qed.
Print Assumptions C60_projected_tangent.
Print Assumptions C60_never_raises.
Print Assumptions C60_not_inward.
Print Assumptions C60_boundary_kept_partial.
Print Assumptions C60_boundary_kept_refuted.
Print Assumptions C60_aligned_unchanged.
Print Assumptions C60_aligned_refuted.
