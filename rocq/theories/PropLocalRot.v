(** Property C77: the linear field which is rotated around an obstacle. *)
Require Import Reals List Lra Lia Psatz Bool ZArith.
From Verif Require Import Base Vec Angle Pow RotModel Spec RotProofs ProjModel FieldModel.
Import ListNotations.
Open Scope R_scope.

(** ** Lemmas *)
Lemma direction_dirof v : direction v = dirof v.
Proof. reflexivity. Qed.
(** A rotation in a plane does not depend on the orthonormal base of the plane. *)
Lemma plane_rot_rebase n d b0 b1 t a : length d = n -> length b0 = n -> length b1 = n ->
  plane_rot d (vadd (vscale (cos t) b0) (vscale (sin t) b1))
              (vadd (vscale (- sin t) b0) (vscale (cos t) b1)) a
  = plane_rot d b0 b1 a.
Proof.
  intros Hd H0 H1. unfold plane_rot. autorewrite with vdot.
  pose proof (cos_sin_sq t) as Q.
  set (p := dot b0 d). set (q := dot b1 d). set (c := cos t) in *. set (s := sin t) in *.
  set (ca := cos a). set (sa := sin a).
  vext. set (x := nth i b0 0). set (y := nth i b1 0).
  apply Rplus_eq_compat_l.
  assert (Q' : c * c = 1 - s * s) by lra.
  ring_simplify.
  replace (c ^ 2) with (1 - s * s) by (rewrite <- Q'; ring). ring.
Qed.
Lemma bessel n d b0 b1 : orthonormal n b0 b1 -> length d = n -> unitv d ->
  dot b0 d * dot b0 d + dot b1 d * dot b1 d <= 1.
Proof.
  intros (L0 & L1 & U0 & U1 & O) Hd Ud. unfold unitv in *.
  pose proof (dot_self_nonneg (vsub d (vadd (vscale (dot b0 d) b0) (vscale (dot b1 d) b1)))) as H.
  autorewrite with vdot in H. rewrite U0, U1, Ud, (dot_comm b1 b0), O, (dot_comm d b0), (dot_comm d b1) in H.
  lra.
Qed.
Lemma plane_rot_dot_ge n d b0 b1 a : orthonormal n b0 b1 -> length d = n -> unitv d ->
  cos a <= dot (plane_rot d b0 b1 a) d.
Proof.
  intros O Hd Ud. pose proof (bessel n d b0 b1 O Hd Ud) as B.
  unfold plane_rot. autorewrite with vdot. unfold unitv in Ud. rewrite Ud.
  pose proof (COS_bound a). set (p := dot b0 d) in *. set (q := dot b1 d) in *.
  replace (1 + ((p * (cos a - 1) - q * sin a) * p + (p * sin a + q * (cos a - 1)) * q))
    with (1 + (p * p + q * q) * (cos a - 1)) by ring. nra.
Qed.

Lemma weight_range g gmin gmax : 0 <= local_rot_weight g gmin gmax <= 1.
Proof.
  unfold local_rot_weight. destruct (Rleb g gmin) eqn:E1; [lra|]. apply Rleb_false in E1.
  destruct (Rltb gmax g) eqn:E2; [lra|]. apply Rltb_false in E2.
  assert (0 < gmax - gmin) by lra. split.
  - apply Rmult_le_pos; [lra|]. left. apply Rinv_0_lt_compat. auto.
  - apply Rmult_le_reg_r with (gmax - gmin); auto. unfold Rdiv. rewrite Rmult_assoc, Rinv_l by lra. lra.
Qed.

(** What the constructor provides. *)
Lemma init_spec n gamma center attractor reference gmin gmax ds : (2 <= n)%nat ->
  length center = n -> length attractor = n -> length reference = n ->
  norm (vsub attractor center) <> 0 ->
  dot (direction (vsub attractor center)) (direction reference) <> -1 ->
  local_rot_init gamma center attractor reference gmin gmax = Ok ds ->
  norm reference <> 0 /\
  exists r, ds = mkLocal gamma attractor (norm reference) gmin gmax 3 (Some r) /\ rot_ok n r /\
    rb0 r = direction (vsub attractor center) /\
    rangle r = acos (dot (direction (vsub attractor center)) (direction reference)) /\
    (exact_pair (direction (vsub attractor center)) (direction reference) ->
     get_second_vector r = direction reference).
Proof.
  intros Hn Lc La Lr Hd Hop E. unfold local_rot_init in E.
  destruct (Req_EM_T (norm reference) 0) as [|Hr]; [discriminate|]. split; auto.
  destruct (Req_EM_T (norm (vsub attractor center)) 0); [contradiction|].
  set (u := vsub attractor center) in *.
  assert (Lu : length u = n) by (unfold u; autorewrite with vlen; lia).
  fold (dirof u) (dirof reference) in E.
  pose proof (dirof_unit u Hd) as U1. pose proof (dirof_unit reference Hr) as U2.
  destruct (from_directions_spec n (dirof u) (dirof reference)) as (r & Er & Ho & E0 & Ea & Es);
    auto using unit_norm_neq; try (rewrite dirof_length; auto).
  { rewrite !(dirof_of_unit (dirof _)) by auto. exact Hop. }
  pose proof (exact_second n (dirof u) (dirof reference) r) as Hex.
  rewrite !(dirof_of_unit (dirof u)), !(dirof_of_unit (dirof reference)) in * by auto.
  rewrite Er in E. simpl in E. injection E as <-.
  exists r. repeat split; auto; try apply Ho.
  intros He. apply Hex; auto using unit_norm_neq; rewrite dirof_length; auto.
Qed.

(** The result of one evaluation away from the attractor. *)
Lemma evaluate_cases n gamma attractor speed gmin gmax r position : (2 <= n)%nat ->
  rot_ok n r -> length attractor = n -> length position = n ->
  norm (vsub attractor position) <> 0 ->
  let ds := mkLocal gamma attractor speed gmin gmax 3 (Some r) in
  let d := direction (vsub attractor position) in
  let s := Rmin (norm (vsub attractor position)) speed in
  (dot d (rb0 r) = -1 /\ local_rot_weight (gamma position) gmin gmax <> 0 /\
   local_rot_evaluate ds position = Err ENaN) \/
  (exists w, 0 <= w <= 1 /\
     local_rot_evaluate ds position = Ok (vscale s (plane_rot d (rb0 r) (rb1 r) (w * rangle r))) /\
     (gmin < gamma position -> gmax < gamma position -> w = 0) /\
     (dot d (rb0 r) = 0 -> w = 0) /\
     (gamma position <= gmin -> dot d (rb0 r) <> 0 -> w = 1) /\
     (dot d (rb0 r) = -1 -> local_rot_weight (gamma position) gmin gmax = 0)).
Proof.
  intros Hn Ho La Lp Hdist ds d s.
  set (v := vsub attractor position) in *.
  assert (Lv : length v = n) by (unfold v; autorewrite with vlen; lia).
  assert (Ud : unitv d) by (apply (dirof_unit v); auto).
  assert (Ld : length d = n) by (unfold d; rewrite direction_dirof, dirof_length; auto).
  pose proof Ho as (L0 & L1 & U0 & U1 & O01).
  pose proof (weight_range (gamma position) gmin gmax) as Hw.
  set (wt := local_rot_weight (gamma position) gmin gmax) in *.
  pose proof (unit_dot_bounds d (rb0 r) Ud U0) as Hb.
  assert (Wfar : gmin < gamma position -> gmax < gamma position -> wt = 0).
  { intros A B. unfold wt, local_rot_weight. rewrite (proj2 (Rleb_false _ _) A), (proj2 (Rltb_true _ _) B). auto. }
  assert (Wnear : gamma position <= gmin -> wt = 1).
  { intros A. unfold wt, local_rot_weight. rewrite (proj2 (Rleb_true _ _) A). auto. }
  assert (EV : local_rot_evaluate ds position =
     if Reqb (dot d (rb0 r)) 0 || Reqb wt 0 then Ok (vscale s d)
     else
       let attr_weight := if Rltb wt 1 then let tmp := 1 / (1 - wt) in tmp / (tmp + Rmax (3 / norm v) 0) else 1 in
       do e <- fdiv 2 (1 + dot d (rb0 r));
       do w <- fpow wt e;
       do g <- from_directions (rb0 r) d;
       do l <- rotate_vector_rotation g r 1;
       Ok (vscale s (rotate l d (w * attr_weight)))).
  { unfold local_rot_evaluate. cbn [lr_rotation lr_gamma lr_attractor lr_speed lr_min lr_max lr_influence ds].
    fold v. destruct (Req_EM_T (norm v) 0); [contradiction|]. reflexivity. }
  destruct (Reqb (dot d (rb0 r)) 0) eqn:E0.
  { right. exists 0. apply Reqb_true in E0. rewrite EV. cbn [orb].
    rewrite Rmult_0_l, (plane_rot_zero n) by auto. repeat split; auto; try lra; intros; contradiction. }
  apply Reqb_false in E0.
  destruct (Reqb wt 0) eqn:E1.
  { right. exists 0. apply Reqb_true in E1. rewrite EV. cbn [orb].
    rewrite Rmult_0_l, (plane_rot_zero n) by auto. repeat split; auto; try lra.
    all: intros A; rewrite (Wnear A) in E1; lra. }
  apply Reqb_false in E1. cbn [orb] in EV.
  set (aw := if Rltb wt 1 then let tmp := 1 / (1 - wt) in tmp / (tmp + Rmax (3 / norm v) 0) else 1) in *.
  cbv zeta in EV.
  assert (Haw : 0 <= aw <= 1 /\ (wt = 1 -> aw = 1)).
  { unfold aw. destruct (Rltb wt 1) eqn:E2; [|split; [lra|auto]].
    apply Rltb_true in E2. split; [|lra]. cbv zeta.
    assert (T : 0 < 1 / (1 - wt)) by (apply Rdiv_lt_0_compat; lra).
    pose proof (Rmax_r (3 / norm v) 0) as M.
    set (t := 1 / (1 - wt)) in *. set (m := Rmax (3 / norm v) 0) in *. split.
    - apply Rmult_le_pos; [lra|]. left. apply Rinv_0_lt_compat. lra.
    - apply Rmult_le_reg_r with (t + m); [lra|]. unfold Rdiv. rewrite Rmult_assoc, Rinv_l by lra. lra. }
  destruct (Req_dec (dot d (rb0 r)) (-1)) as [Em|Em].
  { left. split; auto. split; auto. rewrite EV. unfold fdiv. rewrite Em.
    destruct (Req_EM_T (1 + -1) 0); [reflexivity|lra]. }
  right. set (e := 2 / (1 + dot d (rb0 r))).
  assert (He : 0 < e) by (apply Rdiv_lt_0_compat; lra).
  exists (Rpower wt e * aw).
  pose proof (Rpower_pos wt e) as P1. pose proof (Rpower_le_1 wt e) as P2.
  split; [|split; [|repeat split]].
  - destruct Haw as [Haw _]. assert (Rpower wt e <= 1) by (apply P2; lra). nra.
  - rewrite EV. unfold fdiv at 1. destruct (Req_EM_T (1 + dot d (rb0 r)) 0); [lra|]. cbn [bind]. fold e.
    rewrite fpow_pos by lra. cbn [bind].
    destruct (from_directions_spec n (rb0 r) d) as (g & Eg & _); auto using unit_norm_neq.
    { rewrite !dirof_of_unit by auto. rewrite dot_comm. auto. }
    rewrite Eg. cbn [bind]. unfold rotate_vector_rotation.
    rewrite !(rotate_column_unit n) by auto. cbn [bind]. unfold rotate. cbn [rb0 rb1 rangle].
    rewrite (plane_rot_first n) by auto. rewrite (plane_rot_second n) by auto.
    rewrite (rotate_direction_eq n) by (auto; autorewrite with vlen; lia).
    rewrite (plane_rot_rebase n) by auto. reflexivity.
  - intros A B. exfalso. auto.
  - intros A. contradiction.
  - intros A _. rewrite (Wnear A), Rpower_base_1. destruct Haw as [_ Haw]. rewrite (Haw (Wnear A)). lra.
  - intros A. contradiction.
Qed.

(** ** Specification *)
(** Cosine of the angle between the reference velocity and the direction from the center of the
    obstacle to the attractor. *)
Definition deviation_cos (center attractor reference : vec) : R :=
  dot (direction (vsub attractor center)) (direction reference).
(** Behind the attractor, on the line through the center of the obstacle and the attractor. *)
Definition behind (center attractor position : vec) : Prop :=
  dot (direction (vsub attractor position)) (direction (vsub attractor center)) = -1.
(** The field of one obstacle, as the constructor makes it. *)
Record field_of (n : nat) (center attractor reference : vec) (ds : local_rot) : Prop := {
  fo_dim : (2 <= n)%nat;
  fo_center : length center = n; fo_attractor : length attractor = n; fo_reference : length reference = n;
  fo_apart : norm (vsub attractor center) <> 0;
  fo_not_opposite : deviation_cos center attractor reference <> -1;
  fo_built : exists gamma gmin gmax, local_rot_init gamma center attractor reference gmin gmax = Ok ds }.

Lemma field_cases n center attractor reference ds position : field_of n center attractor reference ds ->
  length position = n -> norm (vsub attractor position) <> 0 ->
  norm reference <> 0 /\ lr_attractor ds = attractor /\ lr_speed ds = norm reference /\
  exists r, lr_rotation ds = Some r /\ rot_ok n r /\ rb0 r = direction (vsub attractor center) /\
    rangle r = acos (deviation_cos center attractor reference) /\
    (exact_pair (direction (vsub attractor center)) (direction reference) ->
     get_second_vector r = direction reference) /\
    let d := direction (vsub attractor position) in
    let s := Rmin (norm (vsub attractor position)) (norm reference) in
    let wt := local_rot_weight (lr_gamma ds position) (lr_min ds) (lr_max ds) in
    (behind center attractor position /\ wt <> 0 /\ local_rot_evaluate ds position = Err ENaN) \/
    (exists w, 0 <= w <= 1 /\
       local_rot_evaluate ds position = Ok (vscale s (plane_rot d (rb0 r) (rb1 r) (w * rangle r))) /\
       (lr_min ds < lr_gamma ds position -> lr_max ds < lr_gamma ds position -> w = 0) /\
       (dot d (rb0 r) = 0 -> w = 0) /\
       (lr_gamma ds position <= lr_min ds -> dot d (rb0 r) <> 0 -> w = 1) /\
       (behind center attractor position -> wt = 0)).
Proof.
  intros F Lp Hd. destruct F as [Hn Lc La Lr Ha Ho (gamma & gmin & gmax & E)].
  destruct (init_spec n gamma center attractor reference gmin gmax ds) as (Hr & r & -> & R1 & R2 & R3 & R4); auto.
  split; auto. split; auto. split; auto. exists r. split; auto. split; auto. split; auto. split; auto. split; auto.
  cbv zeta. unfold behind. rewrite <- R2.
  exact (evaluate_cases n gamma attractor (norm reference) gmin gmax r position Hn R1 La Lp Hd).
Qed.

Lemma cos_part c w : -1 <= c <= 1 -> 0 <= w <= 1 -> c <= cos (w * acos c).
Proof.
  intros Hc Hw. pose proof (acos_bound c) as B. rewrite <- (cos_acos c Hc) at 1.
  apply cos_decr_1; nra.
Qed.

(** The result has the speed of the limited linear field and turns away from the attractor by no
    more than the reference velocity does. *)
Theorem C77_speed_and_angle : forall n center attractor reference ds position v,
  field_of n center attractor reference ds -> length position = n ->
  local_rot_evaluate ds position = Ok v ->
  length v = n /\
  norm v = Rmin (norm (vsub attractor position)) (norm reference) /\
  deviation_cos center attractor reference * (norm v * norm (vsub attractor position))
    <= dot v (vsub attractor position).
Proof.
  intros n center attractor reference ds position v F Lp E.
  pose proof F as [Hn Lc La Lr Ha Hop Hb].
  destruct (Req_dec (norm (vsub attractor position)) 0) as [Hz|Hd].
  - destruct Hb as (gamma & gmin & gmax & Ei).
    destruct (init_spec n gamma center attractor reference gmin gmax ds) as (Hr & r & -> & _); auto.
    unfold local_rot_evaluate in E. cbn [lr_rotation lr_attractor] in E.
    destruct (Req_EM_T (norm (vsub attractor position)) 0); [|contradiction]. injection E as <-.
    rewrite length_vzero, norm_vzero, dot_vzero_l, Hz. split; auto. split; [|lra].
    pose proof (norm_nonneg reference). rewrite Rmin_left; auto.
  - destruct (field_cases n center attractor reference ds position F Lp Hd)
      as (Hr & _ & _ & r & _ & R1 & R2 & R3 & _ & [(_ & _ & Q)|(w & Hw & Q & _)]); [congruence|].
    rewrite Q in E. injection E as <-.
    set (t := vsub attractor position) in *. set (d := direction t) in *.
    assert (Lt : length t = n) by (unfold t; autorewrite with vlen; lia).
    assert (Ud : unitv d) by (apply (dirof_unit t); auto).
    assert (Ld : length d = n) by (unfold d; rewrite direction_dirof, dirof_length; auto).
    pose proof R1 as (L0 & L1 & U0 & U1 & O01).
    assert (Hs : 0 < Rmin (norm t) (norm reference)).
    { pose proof (norm_pos _ Hd). pose proof (norm_pos _ Hr). apply Rmin_glb_lt; auto. }
    set (s := Rmin (norm t) (norm reference)) in *.
    assert (NP : norm (plane_rot d (rb0 r) (rb1 r) (w * rangle r)) = 1).
    { rewrite (plane_rot_norm n) by auto. apply unit_norm. auto. }
    split; [rewrite length_vscale; apply (plane_rot_length n); auto|].
    rewrite norm_vscale, NP, Rabs_right by lra. split; [lra|].
    assert (ET : t = vscale (norm t) d).
    { unfold d, direction. symmetry. apply (vscale_norm_vdiv t). auto. }
    assert (DT : dot (vscale s (plane_rot d (rb0 r) (rb1 r) (w * rangle r))) t =
                 s * (norm t * dot (plane_rot d (rb0 r) (rb1 r) (w * rangle r)) d)).
    { rewrite ET at 1. autorewrite with vdot. ring. }
    rewrite DT. clear DT ET.
    pose proof (plane_rot_dot_ge n d (rb0 r) (rb1 r) (w * rangle r) R1 Ld Ud) as G.
    assert (C : -1 <= deviation_cos center attractor reference <= 1).
    { apply unit_dot_bounds; apply dirof_unit; auto. }
    pose proof (cos_part _ w C Hw) as K. rewrite <- R3 in K.
    pose proof (norm_pos _ Hd). assert (0 < s * norm t) by nra. nra.
Qed.

Lemma nat_above r : exists N, r < INR N.
Proof.
  destruct (archimed r) as [A _]. exists (Z.to_nat (Z.max 0 (up r))). rewrite INR_IZR_INZ, Z2Nat.id by lia.
  apply Rlt_le_trans with (IZR (up r)); [lra|]. apply IZR_le. lia.
Qed.
(** Every execution of the explicit Euler scheme reaches the attractor when the reference velocity
    has a component towards it. *)
Definition execution (ds : local_rot) (dt : R) (x : nat -> vec) : Prop :=
  forall k, exists v, local_rot_evaluate ds (x k) = Ok v /\ x (S k) = vadd (x k) (vscale dt v).
Lemma execution_step n center attractor reference ds dt x k : field_of n center attractor reference ds ->
  0 < dt < 2 * deviation_cos center attractor reference -> execution ds dt x -> (forall k, length (x k) = n) ->
  let c := deviation_cos center attractor reference in
  let dist k := norm (vsub attractor (x k)) in
  dist (S k) * dist (S k) <= dist k * dist k - dt * (2 * c - dt) * (Rmin (dist k) (norm reference) * dist k).
Proof.
  intros F Hdt X Lx c dist. destruct (X k) as (v & E & Ex).
  destruct (C77_speed_and_angle n center attractor reference ds (x k) v F (Lx k) E) as (Lv & Nv & Dv).
  fold c in Dv. unfold dist. rewrite !norm_sq, Ex.
  set (t := vsub attractor (x k)) in *.
  replace (vsub attractor (vadd (x k) (vscale dt v))) with (vsub t (vscale dt v)).
  2:{ unfold t. vext. ring. }
  autorewrite with vdot. rewrite (dot_comm t v). rewrite <- (norm_sq v).
  fold (norm t) in *. rewrite <- Nv. pose proof (norm_nonneg v). pose proof (norm_nonneg t).
  assert (norm v <= norm t) by (rewrite Nv; apply Rmin_l).
  set (N := norm v) in *. set (T := norm t) in *. set (D := dot v t) in *.
  assert (N * N <= N * T) by nra.
  assert (dt * (c * (N * T)) <= dt * D) by (apply Rmult_le_compat_l; lra).
  assert (dt * dt * (N * N) <= dt * dt * (N * T)) by (apply Rmult_le_compat_l; nra).
  lra.
Qed.
Theorem C77_executions_converge : forall n center attractor reference ds dt x,
  field_of n center attractor reference ds ->
  0 < dt < 2 * deviation_cos center attractor reference ->
  execution ds dt x -> (forall k, length (x k) = n) ->
  (forall k, norm (vsub attractor (x k)) <> 0 ->
     norm (vsub attractor (x (S k))) < norm (vsub attractor (x k))) /\
  (forall eps, 0 < eps -> exists N, forall k, (N <= k)%nat -> norm (vsub attractor (x k)) < eps).
Proof.
  intros n center attractor reference ds dt x F Hdt X Lx.
  set (c := deviation_cos center attractor reference) in *.
  set (dist := fun k => norm (vsub attractor (x k))).
  assert (ST : forall k, dist (S k) * dist (S k) <=
     dist k * dist k - dt * (2 * c - dt) * (Rmin (dist k) (norm reference) * dist k)).
  { intros k. exact (execution_step n center attractor reference ds dt x k F Hdt X Lx). }
  assert (P : forall k, 0 <= dist k) by (intros; apply norm_nonneg).
  assert (K : 0 < dt * (2 * c - dt)) by (apply Rmult_lt_0_compat; lra).
  set (q := dt * (2 * c - dt)) in *.
  assert (V : 0 < norm reference).
  { pose proof F as [Hn Lc La Lr Ha Hop (gamma & gmin & gmax & Ei)].
    destruct (init_spec n gamma center attractor reference gmin gmax ds) as (Hr & _); auto. apply norm_pos; auto. }
  assert (SD : forall k, dist k <> 0 -> dist (S k) < dist k).
  { intros k Hk. pose proof (ST k) as S1. pose proof (P k) as P1. pose proof (P (S k)) as P2.
    assert (0 < Rmin (dist k) (norm reference)) by (apply Rmin_glb_lt; lra).
    assert (0 < q * (Rmin (dist k) (norm reference) * dist k)).
    { apply Rmult_lt_0_compat; auto. apply Rmult_lt_0_compat; lra. }
    assert (dist (S k) * dist (S k) < dist k * dist k) by lra. nra. }
  split; [exact SD|].
  assert (MO : forall k, dist (S k) <= dist k).
  { intros k. destruct (Req_dec (dist k) 0) as [Z|Z]; [|left; auto].
    pose proof (ST k) as S1. rewrite Z in S1. pose proof (P (S k)). rewrite Z. nra. }
  assert (MN : forall a b, (a <= b)%nat -> dist b <= dist a).
  { intros a b H. induction H; [lra|]. pose proof (MO m). lra. }
  intros eps He.
  set (m := q * (Rmin eps (norm reference) * eps)).
  assert (M0 : 0 < Rmin eps (norm reference)) by (apply Rmin_glb_lt; lra).
  assert (M : 0 < m) by (unfold m; apply Rmult_lt_0_compat; [auto|apply Rmult_lt_0_compat; auto]).
  assert (G : forall N, (exists k, (k <= N)%nat /\ dist k < eps) \/ dist N * dist N <= dist O * dist O - INR N * m).
  { induction N.
    - right. simpl. lra.
    - destruct IHN as [(k & H1 & H2)|IHN]; [left; exists k; split; [lia|auto]|].
      destruct (Rlt_le_dec (dist N) eps) as [L|L]; [left; exists N; split; [lia|auto]|].
      right. pose proof (ST N) as S1. rewrite S_INR.
      assert (Rmin eps (norm reference) <= Rmin (dist N) (norm reference)) by (apply Rle_min_compat_r; auto).
      assert (m <= q * (Rmin (dist N) (norm reference) * dist N)).
      { unfold m. apply Rmult_le_compat_l; [lra|]. apply Rmult_le_compat; lra. }
      lra. }
  destruct (nat_above (dist O * dist O / m)) as (N & HN).
  destruct (G N) as [(k & H1 & H2)|H].
  - exists k. intros j Hj. pose proof (MN k j Hj). fold (dist j). lra.
  - exfalso. assert (dist O * dist O < INR N * m).
    { apply Rmult_lt_reg_r with (/ m); [apply Rinv_0_lt_compat; auto|].
      rewrite (Rmult_assoc (INR N)), Rinv_r by lra. unfold Rdiv in HN. lra. }
    pose proof (P N). nra.
Qed.

(** Out of reach of the obstacle, at the attractor and at the center of the obstacle. *)
Theorem C77_far_and_center : forall n center attractor reference ds position,
  field_of n center attractor reference ds -> length position = n ->
  (norm (vsub attractor position) = 0 -> local_rot_evaluate ds position = Ok (vzero n)) /\
  (norm (vsub attractor position) <> 0 -> lr_min ds < lr_gamma ds position -> lr_max ds < lr_gamma ds position ->
   local_rot_evaluate ds position =
     Ok (vscale (Rmin (norm (vsub attractor position)) (norm reference)) (direction (vsub attractor position)))) /\
  (exact_pair (direction (vsub attractor center)) (direction reference) ->
   lr_gamma ds center <= lr_min ds ->
   local_rot_evaluate ds center =
     Ok (vscale (Rmin (norm (vsub attractor center)) (norm reference)) (direction reference))).
Proof.
  intros n center attractor reference ds position F Lp.
  pose proof F as [Hn Lc La Lr Ha Hop Hb]. split; [|split].
  - intros Hz. destruct Hb as (gamma & gmin & gmax & Ei).
    destruct (init_spec n gamma center attractor reference gmin gmax ds) as (Hr & r & -> & _); auto.
    unfold local_rot_evaluate. cbn [lr_rotation lr_attractor].
    destruct (Req_EM_T (norm (vsub attractor position)) 0); [|contradiction]. rewrite Lp. auto.
  - intros Hd G1 G2.
    destruct (field_cases n center attractor reference ds position F Lp Hd)
      as (Hr & _ & _ & r & _ & R1 & R2 & R3 & _ & [(_ & Q & _)|(w & Hw & Q & W & _)]).
    + exfalso. apply Q. unfold local_rot_weight.
      rewrite (proj2 (Rleb_false _ _) G1), (proj2 (Rltb_true _ _) G2). auto.
    + rewrite Q, (W G1 G2), Rmult_0_l.
      rewrite (plane_rot_zero n); auto; try apply R1.
      rewrite direction_dirof, dirof_length. autorewrite with vlen. lia.
  - intros He G.
    destruct (field_cases n center attractor reference ds center F Lc Ha)
      as (Hr & _ & _ & r & _ & R1 & R2 & R3 & R4 & [(Q & _)|(w & Hw & Q & _ & _ & W & _)]).
    + exfalso. unfold behind in Q. pose proof (dirof_unit _ Ha) as U. unfold unitv in U.
      unfold direction in Q. unfold dirof, vdiv in U. lra.
    + assert (U : unitv (rb0 r)) by apply R1. rewrite <- R2 in Q, W. rewrite Q.
      unfold unitv in U. rewrite W by (auto; rewrite U; lra). rewrite Rmult_1_l.
      specialize (R4 He). unfold get_second_vector in R4.
      rewrite (rotate_direction_eq n) in R4 by apply R1. rewrite R4. auto.
Qed.

Theorem C77_defined : forall n center attractor reference ds position,
  field_of n center attractor reference ds -> length position = n ->
  norm (vsub attractor position) = 0 \/ ~ behind center attractor position \/
    (lr_min ds < lr_gamma ds position /\ lr_max ds < lr_gamma ds position) ->
  exists v, local_rot_evaluate ds position = Ok v.
Proof.
  intros n center attractor reference ds position F Lp H.
  destruct (Req_dec (norm (vsub attractor position)) 0) as [Hz|Hd].
  - exists (vzero n). apply (C77_far_and_center n center attractor reference ds position F Lp). auto.
  - destruct (field_cases n center attractor reference ds position F Lp Hd)
      as (Hr & _ & _ & r & _ & R1 & R2 & R3 & _ & [(B & Q & E)|(w & Hw & Q & W & _)]); [|eauto].
    exfalso. destruct H as [H|[H|[H1 H2]]]; [contradiction|contradiction|].
    apply Q. unfold local_rot_weight.
    rewrite (proj2 (Rleb_false _ _) H1), (proj2 (Rltb_true _ _) H2). auto.
Qed.

(** The part of the rotation which is applied, as a function of the weight of the obstacle. *)
Definition turn_part (dist c wt : R) : R :=
  if Reqb c 0 || Reqb wt 0 then 0
  else Rpower wt (2 / (1 + c)) * (if Rltb wt 1 then let tmp := 1 / (1 - wt) in tmp / (tmp + Rmax (3 / dist) 0) else 1).
Lemma evaluate_explicit n gamma attractor speed gmin gmax r position v : (2 <= n)%nat ->
  rot_ok n r -> length attractor = n -> length position = n ->
  norm (vsub attractor position) <> 0 ->
  let d := direction (vsub attractor position) in
  local_rot_evaluate (mkLocal gamma attractor speed gmin gmax 3 (Some r)) position = Ok v ->
  -1 <= dot d (rb0 r) <= 1 /\
  (dot d (rb0 r) = -1 -> local_rot_weight (gamma position) gmin gmax = 0) /\
  v = vscale (Rmin (norm (vsub attractor position)) speed)
        (plane_rot d (rb0 r) (rb1 r)
           (turn_part (norm (vsub attractor position)) (dot d (rb0 r)) (local_rot_weight (gamma position) gmin gmax)
            * rangle r)).
Proof.
  intros Hn Ho La Lp Hdist d E.
  set (t := vsub attractor position) in *.
  assert (Lv : length t = n) by (unfold t; autorewrite with vlen; lia).
  assert (Ud : unitv d) by (apply (dirof_unit t); auto).
  assert (Ld : length d = n) by (unfold d; rewrite direction_dirof, dirof_length; auto).
  pose proof Ho as (L0 & L1 & U0 & U1 & O01).
  pose proof (unit_dot_bounds d (rb0 r) Ud U0) as Hb. split; auto.
  pose proof (weight_range (gamma position) gmin gmax) as Hw.
  unfold local_rot_evaluate in E. cbn [lr_rotation lr_gamma lr_attractor lr_speed lr_min lr_max lr_influence] in E.
  fold t in E. destruct (Req_EM_T (norm t) 0); [contradiction|]. change (vdiv t (norm t)) with d in E.
  set (wt := local_rot_weight (gamma position) gmin gmax) in *. cbv zeta in E. unfold turn_part. cbv zeta.
  destruct (Reqb (dot d (rb0 r)) 0) eqn:E0.
  { cbn [orb] in E |- *. injection E as <-. apply Reqb_true in E0. split; [lra|].
    rewrite Rmult_0_l, (plane_rot_zero n) by auto. auto. }
  apply Reqb_false in E0.
  destruct (Reqb wt 0) eqn:E1.
  { cbn [orb] in E |- *. injection E as <-. apply Reqb_true in E1. split; [auto|].
    rewrite Rmult_0_l, (plane_rot_zero n) by auto. auto. }
  apply Reqb_false in E1. cbn [orb] in E |- *.
  unfold fdiv in E. destruct (Req_EM_T (1 + dot d (rb0 r)) 0) as [|Em]; [discriminate|].
  cbn [bind] in E. rewrite fpow_pos in E by lra. cbn [bind] in E. split; [lra|].
  destruct (from_directions_spec n (rb0 r) d) as (g & Eg & _); auto using unit_norm_neq.
  { rewrite !dirof_of_unit by auto. rewrite dot_comm. intros A. lra. }
  rewrite Eg in E. cbn [bind] in E. unfold rotate_vector_rotation in E.
  rewrite !(rotate_column_unit n) in E by auto. cbn [bind] in E. injection E as <-.
  unfold rotate. cbn [rb0 rb1 rangle].
  rewrite (plane_rot_first n) by auto. rewrite (plane_rot_second n) by auto.
  rewrite (rotate_direction_eq n) by (auto; autorewrite with vlen; lia).
  rewrite (plane_rot_rebase n) by auto. reflexivity.
Qed.
Lemma weight_fades g g' gmin gmax : g <= g' -> local_rot_weight g' gmin gmax <= local_rot_weight g gmin gmax.
Proof.
  intros H. pose proof (weight_range g gmin gmax) as B. pose proof (weight_range g' gmin gmax) as B'. revert B B'.
  unfold local_rot_weight. destruct (Rleb g gmin) eqn:E1; [intros; lra|]. apply Rleb_false in E1.
  rewrite (proj2 (Rleb_false g' gmin)) by lra. intros B B'.
  destruct (Rltb gmax g') eqn:E2; [apply B|]. apply Rltb_false in E2.
  rewrite (proj2 (Rltb_false gmax g)) by lra. unfold Rdiv. apply Rmult_le_compat_r; [|lra].
  left. apply Rinv_0_lt_compat. lra.
Qed.
Lemma attraction_rises a b m : 0 <= a <= b -> b < 1 -> 0 <= m ->
  0 < 1 / (1 - a) / (1 / (1 - a) + m) <= 1 / (1 - b) / (1 / (1 - b) + m) /\ 1 / (1 - b) / (1 / (1 - b) + m) <= 1.
Proof.
  intros Ha Hb Hm.
  assert (EQ : forall x, x < 1 -> 1 / (1 - x) / (1 / (1 - x) + m) = / (1 + m * (1 - x))).
  { intros x Hx. field. split; [|lra]. assert (0 <= m * (1 - x)) by nra. lra. }
  rewrite !EQ by lra. assert (0 <= m * (1 - b)) by nra. assert (m * (1 - b) <= m * (1 - a)) by nra.
  split; [split|].
  - apply Rinv_0_lt_compat. lra.
  - apply Rinv_le_contravar; lra.
  - replace 1 with (/ 1) at 3 by apply Rinv_1. apply Rinv_le_contravar; lra.
Qed.
Lemma turn_part_rises dist c a b : -1 < c <= 1 -> 0 <= a <= b -> b <= 1 ->
  0 <= turn_part dist c a <= turn_part dist c b /\ turn_part dist c b <= 1.
Proof.
  intros Hc Ha Hb. unfold turn_part. destruct (Reqb c 0); [cbn [orb]; lra|]. cbn [orb].
  assert (He : 0 < 2 / (1 + c)) by (apply Rdiv_lt_0_compat; lra). set (e := 2 / (1 + c)) in *.
  set (m := Rmax (3 / dist) 0). assert (Hm : 0 <= m) by apply Rmax_r. cbv zeta.
  assert (K : forall x, 0 < x <= 1 ->
    0 < (if Rltb x 1 then 1 / (1 - x) / (1 / (1 - x) + m) else 1) <= 1).
  { intros x Hx. destruct (Rltb x 1) eqn:L; [|lra]. apply Rltb_true in L.
    destruct (attraction_rises x x m) as ((P & _) & Q); lra. }
  destruct (Reqb b 0) eqn:Eb.
  { apply Reqb_true in Eb. rewrite (proj2 (Reqb_true a 0)) by lra. lra. }
  apply Reqb_false in Eb. pose proof (K b) as Kb.
  pose proof (Rpower_pos b e) as Pb. pose proof (Rpower_le_1 b e) as Qb.
  assert (Rpower b e <= 1) by (apply Qb; lra). specialize (Kb ltac:(lra)).
  split; [|nra].
  destruct (Reqb a 0) eqn:Ea; [nra|]. apply Reqb_false in Ea.
  pose proof (K a ltac:(lra)) as Ka. pose proof (Rpower_pos a e) as Pa.
  assert (Rpower a e <= Rpower b e).
  { unfold Rpower. destruct (Rle_lt_or_eq_dec a b) as [L|L]; [lra| |rewrite L; lra].
    left. apply exp_increasing. apply Rmult_lt_compat_l; auto. apply ln_increasing; lra. }
  split; [nra|]. apply Rmult_le_compat; try lra.
  destruct (Rltb a 1) eqn:L1; destruct (Rltb b 1) eqn:L2;
    rewrite ?Rltb_true, ?Rltb_false in *; try lra.
  destruct (attraction_rises a b m) as ((P & Q) & _); lra.
Qed.
(** The influence of the obstacle fades: at one position, the field of the obstacle which is further
    away (in terms of gamma) turns away from the attractor by no more than the field of the closer one. *)
Theorem C77_fades : forall n gamma gamma' center attractor reference gmin gmax ds ds' position v v',
  (2 <= n)%nat -> length center = n -> length attractor = n -> length reference = n -> length position = n ->
  norm (vsub attractor center) <> 0 -> deviation_cos center attractor reference <> -1 ->
  local_rot_init gamma center attractor reference gmin gmax = Ok ds ->
  local_rot_init gamma' center attractor reference gmin gmax = Ok ds' ->
  gamma position <= gamma' position ->
  local_rot_evaluate ds position = Ok v -> local_rot_evaluate ds' position = Ok v' ->
  dot v (vsub attractor position) <= dot v' (vsub attractor position).
Proof.
  intros n gamma gamma' center attractor reference gmin gmax ds ds' position v v' Hn Lc La Lr Lp Ha Hop I I' G E E'.
  destruct (init_spec n gamma center attractor reference gmin gmax ds) as (Hr & r & -> & R1 & R2 & R3 & _); auto.
  destruct (init_spec n gamma' center attractor reference gmin gmax ds') as (_ & r' & -> & _); auto.
  assert (r' = r) as ->.
  { unfold local_rot_init in I, I'. destruct (Req_EM_T (norm reference) 0); [contradiction|].
    destruct (Req_EM_T (norm (vsub attractor center)) 0); [contradiction|].
    destruct (from_directions _ _); [|discriminate]. cbn [bind] in I, I'. congruence. }
  destruct (Req_dec (norm (vsub attractor position)) 0) as [Hz|Hd].
  { unfold local_rot_evaluate in E, E'. cbn [lr_rotation lr_attractor] in E, E'.
    destruct (Req_EM_T (norm (vsub attractor position)) 0); [|contradiction].
    injection E as <-. injection E' as <-. lra. }
  destruct (evaluate_explicit n gamma attractor (norm reference) gmin gmax r position v) as (B & W & ->); auto.
  destruct (evaluate_explicit n gamma' attractor (norm reference) gmin gmax r position v') as (_ & W' & ->); auto.
  set (t := vsub attractor position) in *. set (d := direction t) in *.
  assert (Lt : length t = n) by (unfold t; autorewrite with vlen; lia).
  assert (Ud : unitv d) by (apply (dirof_unit t); auto).
  assert (Ld : length d = n) by (unfold d; rewrite direction_dirof, dirof_length; auto).
  pose proof R1 as (L0 & L1 & U0 & U1 & O01).
  set (wt := local_rot_weight (gamma position) gmin gmax) in *.
  set (wt' := local_rot_weight (gamma' position) gmin gmax) in *.
  assert (WW : wt' <= wt) by (apply weight_fades; auto).
  pose proof (weight_range (gamma position) gmin gmax) as Hw. fold wt in Hw.
  pose proof (weight_range (gamma' position) gmin gmax) as Hw'. fold wt' in Hw'.
  set (c := dot d (rb0 r)) in *.
  assert (T : 0 <= turn_part (norm t) c wt' <= turn_part (norm t) c wt /\ turn_part (norm t) c wt <= 1).
  { destruct (Req_dec c (-1)) as [Ec|Ec]; [|apply turn_part_rises; lra].
    rewrite (W Ec), (W' Ec). unfold turn_part. rewrite (proj2 (Reqb_true 0 0)), orb_true_r by auto. lra. }
  set (k := turn_part (norm t) c wt) in *. set (k' := turn_part (norm t) c wt') in *.
  assert (ET : t = vscale (norm t) d).
  { unfold d, direction. symmetry. apply (vscale_norm_vdiv t). auto. }
  assert (Hs : 0 < Rmin (norm t) (norm reference)).
  { pose proof (norm_pos _ Hd). pose proof (norm_pos _ Hr). apply Rmin_glb_lt; auto. }
  set (s := Rmin (norm t) (norm reference)) in *.
  assert (DT : forall a, dot (vscale s (plane_rot d (rb0 r) (rb1 r) a)) t =
     s * norm t * (1 + (dot (rb0 r) d * dot (rb0 r) d + dot (rb1 r) d * dot (rb1 r) d) * (cos a - 1))).
  { intros a. rewrite ET at 1. unfold plane_rot. autorewrite with vdot. unfold unitv in Ud. rewrite Ud. ring. }
  rewrite !DT. pose proof (norm_pos _ Hd).
  apply Rmult_le_compat_l; [apply Rmult_le_pos; lra|]. apply Rplus_le_compat_l.
  apply Rmult_le_compat_l; [apply Rplus_le_le_0_compat; apply Rle_0_sqr|].
  unfold Rminus. apply Rplus_le_compat_r.
  pose proof (acos_bound (deviation_cos center attractor reference)) as AB. unfold deviation_cos in AB.
  rewrite R3. set (al := acos _) in *.
  assert (0 <= k' * al) by (apply Rmult_le_pos; lra).
  assert (k' * al <= k * al) by (apply Rmult_le_compat_r; lra).
  assert (k * al <= 1 * al) by (apply Rmult_le_compat_r; lra).
  apply cos_decr_1; lra.
Qed.

(** ** Refutations *)
Definition circle_gamma (center : vec) (radius : R) (p : vec) : R := norm (vsub p center) / radius.
Lemma norm2 x y : norm [x; y] = sqrt (x * x + y * y).
Proof. unfold norm. simpl. f_equal. ring. Qed.
Lemma norm2_is x y z : 0 <= z -> x * x + y * y = z * z -> norm [x; y] = z.
Proof. intros H E. rewrite norm2, E. apply sqrt_square. auto. Qed.
Lemma direction2 x y z : 0 < z -> x * x + y * y = z * z -> direction [x; y] = [x / z; y / z].
Proof. intros H E. unfold direction. rewrite (norm2_is x y z) by (auto; lra). unfold vscale. simpl. f_equal; [|f_equal]; field; lra. Qed.
Definition turned (radius : R) : res local_rot :=
  local_rot_init (circle_gamma [-2; 0] radius) [-2; 0] [0; 0] [0; 1] 1 10.
Lemma vsub2 a b c d : vsub [a; b] [c; d] = [a - c; b - d].
Proof. unfold vsub, vscale. simpl. f_equal; [|f_equal]; ring. Qed.
Lemma turned_field radius : exists ds, turned radius = Ok ds /\ field_of 2 [-2; 0] [0; 0] [0; 1] ds /\
  lr_gamma ds = circle_gamma [-2; 0] radius /\ lr_min ds = 1 /\ lr_max ds = 10 /\
  exists r, lr_rotation ds = Some r /\ rb0 r = [1; 0] /\ rb1 r = [0; 1] /\ rangle r = PI / 2.
Proof.
  assert (N1 : norm [0; 1] = 1) by (apply norm2_is; lra).
  assert (N2 : norm (vsub [0; 0] [-2; 0]) = 2) by (rewrite vsub2; apply norm2_is; lra).
  assert (D1 : vdiv (vsub [0; 0] [-2; 0]) 2 = [1; 0]).
  { rewrite vsub2. unfold vdiv, vscale. simpl. f_equal; [|f_equal]; field. }
  assert (D2 : vdiv [0; 1] 1 = [0; 1]) by apply vdiv_1.
  assert (N3 : norm [1; 0] = 1) by (apply norm2_is; lra).
  assert (E : turned radius = Ok (mkLocal (circle_gamma [-2; 0] radius) [0; 0] 1 1 10 3 (Some (mkRot [1; 0] [0; 1] (PI / 2))))).
  { unfold turned, local_rot_init. rewrite N1, N2, D1, D2.
    destruct (Req_EM_T 1 0); [lra|]. destruct (Req_EM_T 2 0); [lra|].
    unfold from_directions. rewrite N1, N3. destruct (Req_EM_T 1 0); [lra|].
    rewrite !vdiv_1.
    assert (A : allclose [1; 0] [0; 1] = false).
    { simpl. apply andb_false_iff. left. unfold isclose. apply Rleb_false. rewrite Rminus_0_r, Rabs_R0, Rabs_R1. simpl. lra. }
    rewrite A. replace (dot [1; 0] [0; 1]) with 0 by (simpl; ring).
    replace (vsub [0; 1] (vscale 0 [1; 0])) with [0; 1] by (unfold vsub, vscale; simpl; f_equal; [|f_equal]; ring).
    rewrite N1. destruct (Req_EM_T 1 0); [lra|]. cbn [bind]. rewrite clamp1_id by lra. rewrite acos_0, vdiv_1. reflexivity. }
  eexists. split; [exact E|]. split; [|cbn; repeat split; auto; eexists; split; [reflexivity|auto]].
  constructor; auto.
  - rewrite N2. lra.
  - unfold deviation_cos. rewrite vsub2, (direction2 _ _ 2), (direction2 _ _ 1) by lra. simpl. lra.
  - do 3 eexists. exact E.
Qed.

(** Behind the attractor the result is NaN, within reach of the obstacle. *)
Theorem C77_defined_refuted : exists ds position,
  field_of 2 [-2; 0] [0; 0] [0; 1] ds /\ length position = 2%nat /\
  lr_gamma ds = circle_gamma [-2; 0] 1 /\ 1 < lr_gamma ds position /\
  local_rot_evaluate ds position = Err ENaN.
Proof.
  destruct (turned_field 1) as (ds & _ & F & G & M1 & M2 & _). exists ds, [1; 0].
  assert (N : norm (vsub [1; 0] [-2; 0]) = 3) by (rewrite vsub2; apply norm2_is; lra).
  assert (Nd : norm (vsub [0; 0] [1; 0]) = 1) by (rewrite vsub2; apply norm2_is; lra).
  assert (G3 : lr_gamma ds [1; 0] = 3) by (rewrite G; unfold circle_gamma; rewrite N; lra).
  split; [exact F|]. split; [reflexivity|]. split; [exact G|]. split; [rewrite G3; lra|].
  destruct (field_cases 2 [-2; 0] [0; 0] [0; 1] ds [1; 0] F eq_refl) as
    (_ & _ & _ & r & _ & _ & _ & _ & _ & [(_ & _ & E)|(w & _ & _ & _ & _ & _ & B)]); [rewrite Nd; lra|exact E|].
  exfalso. assert (W : local_rot_weight (lr_gamma ds [1; 0]) (lr_min ds) (lr_max ds) = 0).
  { apply B. unfold behind. rewrite !vsub2, (direction2 _ _ 1), (direction2 _ _ 2) by lra. simpl. lra. }
  rewrite G3, M1, M2 in W. unfold local_rot_weight in W.
  rewrite (proj2 (Rleb_false 3 1)) in W by lra. rewrite (proj2 (Rltb_false 10 3)) in W by lra. lra.
Qed.
(** An obstacle at the attractor is accepted ("zero deviation"); no evaluation succeeds. *)
Theorem C77_at_attractor_error : forall gamma attractor reference gmin gmax, norm reference <> 0 ->
  exists ds, local_rot_init gamma attractor attractor reference gmin gmax = Ok ds /\
  forall position, local_rot_evaluate ds position = Err EAttr.
Proof.
  intros gamma attractor reference gmin gmax H. unfold local_rot_init.
  destruct (Req_EM_T (norm reference) 0); [contradiction|].
  destruct (Req_EM_T (norm (vsub attractor attractor)) 0) as [|N].
  - eexists. split; [reflexivity|]. intros. reflexivity.
  - exfalso. apply N. apply norm_eq_0_dot. autorewrite with vdot. ring.
Qed.
(** The field jumps where the direction to the attractor is perpendicular to the axis. *)
Theorem C77_continuity_refuted : exists ds p v0,
  field_of 2 [-2; 0] [0; 0] [0; 1] ds /\ lr_gamma ds = circle_gamma [-2; 0] 4 /\
  local_rot_evaluate ds p = Ok v0 /\
  forall delta, 0 < delta -> exists q v, norm (vsub q p) < delta /\
    local_rot_evaluate ds q = Ok v /\ 1 <= norm (vsub v v0).
Proof.
  destruct (turned_field 4) as (ds & _ & F & G & M1 & M2 & r0 & Hr0 & B0 & B1 & An). exists ds, [0; -1], [0; 1].
  assert (N1 : norm [0; 1] = 1) by (apply norm2_is; lra).
  split; [exact F|]. split; [exact G|]. split.
  - assert (Nd : norm (vsub [0; 0] [0; -1]) = 1) by (rewrite vsub2; apply norm2_is; lra).
    assert (Dd : direction (vsub [0; 0] [0; -1]) = [0; 1]).
    { rewrite vsub2, (direction2 _ _ 1) by lra. f_equal; [|f_equal]; lra. }
    destruct (field_cases 2 [-2; 0] [0; 0] [0; 1] ds [0; -1] F eq_refl) as
      (_ & _ & _ & r & Hr & _ & _ & _ & _ & [(B & _)|(w & _ & E & _ & W & _)]); [rewrite Nd; lra| |].
    + exfalso. unfold behind in B. rewrite Dd, vsub2, (direction2 _ _ 2) in B by lra. simpl in B. lra.
    + rewrite Hr0 in Hr. injection Hr as <-. rewrite Nd, N1, Dd in E. rewrite Dd in W.
      rewrite E, W by (rewrite B0; simpl; lra). rewrite Rmult_0_l, (plane_rot_zero 2) by (rewrite ?B0, ?B1; reflexivity).
      rewrite Rmin_left by lra. f_equal. unfold vscale. simpl. f_equal; [|f_equal]; ring.
  - intros delta Hdelta. set (t := Rmin (delta / 2) (1 / 2)).
    assert (Ht : 0 < t <= 1 / 2 /\ t < delta).
    { pose proof (Rmin_l (delta / 2) (1 / 2)). pose proof (Rmin_r (delta / 2) (1 / 2)). fold t in H, H0.
      assert (0 < t) by (apply Rmin_glb_lt; lra). lra. }
    clearbody t. destruct Ht as [Ht Htd].
    set (z := sqrt (1 + t * t)). assert (Hz : z * z = 1 + t * t) by (apply sqrt_sqrt; nra).
    assert (Z1 : 1 <= z) by (rewrite <- sqrt_1; apply sqrt_le_1_alt; nra).
    assert (Nq : norm (vsub [0; 0] [- t; -1]) = z).
    { rewrite vsub2. apply norm2_is; [lra|]. rewrite Hz. ring. }
    assert (Dq : direction (vsub [0; 0] [- t; -1]) = [t / z; 1 / z]).
    { rewrite vsub2. rewrite (direction2 _ _ z); [|lra|rewrite Hz; ring]. f_equal; [|f_equal]; field; lra. }
    exists [- t; -1], [- (1 / z); t / z]. split; [|split].
    + rewrite vsub2. rewrite (norm2_is _ _ t); [auto|lra|ring].
    + destruct (field_cases 2 [-2; 0] [0; 0] [0; 1] ds [- t; -1] F eq_refl) as
        (_ & _ & _ & r & Hr & _ & _ & _ & _ & [(B & _)|(w & _ & E & _ & _ & W & _)]); [rewrite Nq; lra| |].
      * exfalso. unfold behind in B. rewrite Dq, vsub2, (direction2 _ _ 2) in B by lra. simpl in B.
        assert (0 < t / z) by (apply Rdiv_lt_0_compat; lra). lra.
      * rewrite Hr0 in Hr. injection Hr as <-. rewrite Nq, N1, Dq in E. rewrite Dq in W.
        assert (P : 0 < t / z) by (apply Rdiv_lt_0_compat; lra).
        rewrite E, W.
        2:{ rewrite G, M1. unfold circle_gamma. rewrite vsub2, norm2.
            apply Rmult_le_reg_r with 4; [lra|]. unfold Rdiv. rewrite Rmult_assoc, Rinv_l, Rmult_1_r, Rmult_1_l by lra.
            replace 4 with (sqrt (4 * 4)) at 1 by (apply sqrt_square; lra). apply sqrt_le_1_alt. nra. }
        2:{ rewrite B0. simpl. lra. }
        rewrite Rmin_right by lra. unfold plane_rot. rewrite B0, B1, An, Rmult_1_l, cos_PI2, sin_PI2.
        f_equal. unfold vscale. simpl. f_equal; [|f_equal]; ring.
    + rewrite vsub2, norm2.
      rewrite <- sqrt_1 at 1. apply sqrt_le_1_alt.
      assert (I : 0 < / z) by (apply Rinv_0_lt_compat; lra).
      assert (Iz : / z * z = 1) by (apply Rinv_l; lra).
      assert (I1 : / z <= 1) by (rewrite <- Rinv_1; apply Rinv_le_contravar; lra).
      assert (t / z <= 1 / 2) by (unfold Rdiv; nra).
      assert ((1 / z) * (1 / z) + (t / z) * (t / z) = 1).
      { unfold Rdiv. replace (1 * / z * (1 * / z) + t * / z * (t * / z)) with (/ z * / z * (1 + t * t)) by ring.
        rewrite <- Hz. field. lra. }
      nra.
Qed.

(** The velocity two units behind the center of a large obstacle and of a small obstacle. *)
Example C77_fades_case : exists ds ds', turned 4 = Ok ds /\ turned (1 / 10) = Ok ds' /\
  lr_gamma ds [-4; 0] < lr_gamma ds' [-4; 0] /\
  local_rot_evaluate ds [-4; 0] = Ok [0; 1] /\ local_rot_evaluate ds' [-4; 0] = Ok [1; 0].
Proof.
  destruct (turned_field 4) as (ds & T & F & G & M1 & M2 & r & Er & B0 & B1 & An).
  destruct (turned_field (1 / 10)) as (ds' & T' & F' & G' & M1' & M2' & _). exists ds, ds'.
  assert (N : norm (vsub [-4; 0] [-2; 0]) = 2) by (rewrite vsub2; apply norm2_is; lra).
  assert (Nd : norm (vsub [0; 0] [-4; 0]) = 4) by (rewrite vsub2; apply norm2_is; lra).
  assert (N1 : norm [0; 1] = 1) by (apply norm2_is; lra).
  assert (D : direction (vsub [0; 0] [-4; 0]) = [1; 0]).
  { rewrite vsub2, (direction2 _ _ 4) by lra. f_equal; [|f_equal]; lra. }
  split; [exact T|]. split; [exact T'|]. rewrite G, G'. unfold circle_gamma. rewrite N. split; [lra|]. split.
  - destruct (field_cases 2 [-2; 0] [0; 0] [0; 1] ds [-4; 0] F eq_refl) as
      (_ & _ & _ & r' & Er' & _ & _ & _ & _ & [(Q & _)|(w & _ & E & _ & _ & W & _)]); [rewrite Nd; lra| |].
    + exfalso. unfold behind in Q. rewrite D, vsub2, (direction2 _ _ 2) in Q by lra. simpl in Q. lra.
    + assert (r' = r) as -> by congruence. rewrite E.
      rewrite W by (rewrite ?G, ?M1, ?D, ?B0; unfold circle_gamma; rewrite ?N; simpl; lra).
      rewrite D, Nd, N1, B0, B1, An, Rmult_1_l, Rmin_right by lra. unfold plane_rot. rewrite cos_PI2, sin_PI2.
      f_equal. unfold vscale. simpl. f_equal; [|f_equal]; ring.
  - destruct (C77_far_and_center 2 [-2; 0] [0; 0] [0; 1] ds' [-4; 0] F' eq_refl) as (_ & H & _).
    rewrite H by (rewrite ?G', ?M1', ?M2', ?Nd; unfold circle_gamma; rewrite ?N; lra).
    rewrite D, Nd, N1, Rmin_right by lra. f_equal. unfold vscale. simpl. f_equal; [|f_equal]; ring.
Qed.

Example C77_case : exists ds, field_of 2 [-2; 0] [0; 0] [3 / 5; 4 / 5] ds /\
  deviation_cos [-2; 0] [0; 0] [3 / 5; 4 / 5] = 3 / 5 /\
  local_rot_evaluate ds [-2; 0] = Ok [3 / 5; 4 / 5] /\ ~ behind [-2; 0] [0; 0] [-1; 1].
Proof.
  assert (DC : direction (vsub [0; 0] [-2; 0]) = [1; 0]).
  { rewrite vsub2, (direction2 _ _ 2) by lra. f_equal; [|f_equal]; lra. }
  assert (DR : direction [3 / 5; 4 / 5] = [3 / 5; 4 / 5]).
  { rewrite (direction2 _ _ 1) by lra. f_equal; [|f_equal]; lra. }
  assert (N1 : norm [3 / 5; 4 / 5] = 1) by (apply norm2_is; lra).
  assert (N2 : norm (vsub [0; 0] [-2; 0]) = 2) by (rewrite vsub2; apply norm2_is; lra).
  assert (DD : deviation_cos [-2; 0] [0; 0] [3 / 5; 4 / 5] = 3 / 5).
  { unfold deviation_cos. rewrite DC, DR. simpl. lra. }
  assert (X : exists ds, local_rot_init (circle_gamma [-2; 0] 1) [-2; 0] [0; 0] [3 / 5; 4 / 5] 1 10 = Ok ds).
  { unfold local_rot_init. rewrite N1, N2. destruct (Req_EM_T 1 0); [lra|]. destruct (Req_EM_T 2 0); [lra|].
    replace (vdiv (vsub [0; 0] [-2; 0]) 2) with (direction (vsub [0; 0] [-2; 0])) by (unfold direction; rewrite N2; auto).
    rewrite DC, vdiv_1.
    destruct (from_directions_spec 2 [1; 0] [3 / 5; 4 / 5]) as (r & E & _); auto.
    - rewrite (norm2_is _ _ 1); lra.
    - lra.
    - rewrite !dirof_of_unit by (unfold unitv; simpl; lra). simpl. lra.
    - rewrite E. simpl. eauto. }
  destruct X as (ds & E). exists ds.
  assert (F : field_of 2 [-2; 0] [0; 0] [3 / 5; 4 / 5] ds).
  { constructor; auto; [rewrite N2; lra|rewrite DD; lra|]. do 3 eexists. exact E. }
  split; [exact F|]. split; [exact DD|]. split.
  - destruct (C77_far_and_center 2 [-2; 0] [0; 0] [3 / 5; 4 / 5] ds [-2; 0] F eq_refl) as (_ & _ & H).
    rewrite H, N1, N2, DR.
    + rewrite Rmin_right by lra. f_equal. unfold vscale. simpl. f_equal; [|f_equal]; ring.
    + right. rewrite DC, DR. simpl. apply andb_false_iff. left. unfold isclose. apply Rleb_false.
      rewrite !Rabs_right by lra. simpl. lra.
    + destruct (init_spec 2 (circle_gamma [-2; 0] 1) [-2; 0] [0; 0] [3 / 5; 4 / 5] 1 10 ds) as (_ & r & -> & _); auto.
      * rewrite N2. lra.
      * change (deviation_cos [-2; 0] [0; 0] [3 / 5; 4 / 5] <> -1). rewrite DD. lra.
      * cbn. unfold circle_gamma. rewrite vsub2. rewrite (norm2_is _ _ 0); lra.
  - unfold behind. rewrite DC, vsub2, (direction2 _ _ (sqrt 2)).
    + simpl. assert (0 < sqrt 2) by (apply sqrt_lt_R0; lra). assert (0 < (0 - -1) / sqrt 2) by (apply Rdiv_lt_0_compat; lra). lra.
    + apply sqrt_lt_R0. lra.
    + rewrite sqrt_sqrt by lra. ring.
Qed.
Print Assumptions C77_speed_and_angle.
Print Assumptions C77_executions_converge.
Print Assumptions C77_far_and_center.
Print Assumptions C77_defined.
Print Assumptions C77_defined_refuted.
Print Assumptions C77_at_attractor_error.
Print Assumptions C77_continuity_refuted.
Print Assumptions C77_fades.
