(** Properties C85 and C86: the convergence around one obstacle, as velocity and as sequence. *)
Require Import Reals List Bool Lra Lia ZArith.
From Verif Require Import Base Vec Angle Pow RotModel Spec RotProofs SeqProofs TreeModel TreeSpec TreeProofs TreeReduce TreeCases PropTree
  WeightModel WeightProofs AvoidModel ProjModel PropProject PropTangent PropContact ConvModel ConvProofs PropConverge
  RotAvoidModel RotAvoidProofs SummingProofs PropConvSeq PropAround PropLocalRot SingularModel.
Import ListNotations.
Open Scope R_scope.

(** ** C85 *)
Section Around.
Variables (n : nat) (orth1 : vec -> vec) (initial : dynamics).
Hypothesis Hn : (2 <= n)%nat.
Hypothesis O1 : forall v, length v = n -> norm v <> 0 ->
  length (orth1 v) = n /\ unitv (orth1 v) /\ dot (direction v) (orth1 v) = 0.
Hypothesis LD : forall x, length x = n -> length (dy_eval initial x) = n.

Lemma angle_self b v a : base_ok n b -> direction v = bs0 b -> length v = n -> norm v <> 0 -> angle_in b v = Ok a -> a = vzero n.
Proof.
  intros B E L N A. destruct (angle_in_ok n b v Hn B L N) as (a' & A' & D). rewrite A in A'. assert (a = a') by congruence. subst a'.
  pose proof (ad_norm _ _ _ _ D) as Q. change (dirof v) with (direction v) in Q. rewrite E in Q. destruct B as (_ & _ & U0 & _).
  rewrite U0, acos_1 in Q. apply norm_zero_iff in Q. rewrite Q, (ad_len _ _ _ _ D). auto.
Qed.

(** The form of the result where the attractor sees position and obstacle in directions that are
    not opposite. *)
Lemma around_form w A x r0 : length A = n -> length x = n -> length r0 = n ->
  norm (vsub A x) <> 0 -> norm (vsub A r0) <> 0 -> dot (direction (vsub A x)) (direction (vsub A r0)) <> -1 ->
  norm (dy_eval initial x) <> 0 -> norm (dy_eval initial r0) <> 0 ->
  exists r vt a, evaluate_rotation_start_to_end x r0 A = Ok (Some r) /\ rot_ok n r /\ rb0 r = direction (vsub A x) /\
    rangle r = acos (dot (direction (vsub A x)) (direction (vsub A r0))) /\
    vt = plane_rot (dy_eval initial x) (rb0 r) (rb1 r) (rangle r) /\
    base_ok n (mkBase (direction vt) (orth1 vt)) /\
    angle_of_dir n (mkBase (direction vt) (orth1 vt)) (direction (dy_eval initial r0)) a /\
    projected_around orth1 initial w A x r0 =
      Ok (vscale (norm (dy_eval initial x))
            (plane_rot (vector_from_angle (direction vt) (vscale w a)) (rb0 r) (rb1 r) (- ((1 - w) * rangle r)))).
Proof.
  intros LA Lx Lr Nx Nr ND Nv No. set (v := dy_eval initial x) in *. set (vo := dy_eval initial r0) in *.
  destruct (from_directions_spec n (direction (vsub A x)) (direction (vsub A r0))) as (r & Er & Ok_r & B0 & AN & _); auto.
  { unfold direction. autorewrite with vlen. lia. }
  { unfold direction. autorewrite with vlen. lia. }
  { apply unit_norm_neq, (dirof_unit _ Nx). } { apply unit_norm_neq, (dirof_unit _ Nr). }
  { rewrite (dirof_of_unit (direction (vsub A x)) (dirof_unit _ Nx)), (dirof_of_unit (direction (vsub A r0)) (dirof_unit _ Nr)). auto. }
  rewrite (dirof_of_unit (direction (vsub A x)) (dirof_unit _ Nx)) in B0, AN.
  rewrite (dirof_of_unit (direction (vsub A r0)) (dirof_unit _ Nr)) in AN.
  assert (EV : evaluate_rotation_start_to_end x r0 A = Ok (Some r)).
  { unfold evaluate_rotation_start_to_end. destruct (Req_EM_T (norm (vsub A x)) 0); [contradiction|].
    destruct (Req_EM_T (norm (vsub A r0)) 0); [contradiction|].
    change (vdiv (vsub A x) (norm (vsub A x))) with (direction (vsub A x)). change (vdiv (vsub A r0) (norm (vsub A r0))) with (direction (vsub A r0)).
    rewrite (proj2 (Rleb_false _ _)). { rewrite Er. auto. }
    pose proof (unit_dot_bounds _ _ (dirof_unit _ Nx) (dirof_unit _ Nr)) as Q. unfold dirof, direction in *.
    destruct Q as [[Q|Q] _]; [exact Q|exfalso; auto]. }
  pose proof Ok_r as (L0 & L1 & _).
  assert (Lv : length v = n) by (apply LD; auto). assert (Lvo : length vo = n) by (apply LD; auto).
  set (vt := plane_rot v (rb0 r) (rb1 r) (rangle r)).
  assert (Lt : length vt = n) by (apply plane_rot_length; auto).
  assert (Nt : norm vt = norm v) by (apply (plane_rot_norm n); auto).
  destruct (O1 vt Lt ltac:(rewrite Nt; auto)) as (P1 & P2 & P3).
  assert (B : base_ok n (mkBase (direction vt) (orth1 vt))).
  { repeat split; cbn [bs0 bs1]; auto; [rewrite <- Lt; apply dirof_length|apply dirof_unit; rewrite Nt; auto]. }
  destruct (angle_in_ok n _ vo Hn B Lvo No) as (a & Ea & Da).
  destruct (angle_in_ok n _ vt Hn B Lt ltac:(rewrite Nt; auto)) as (a2 & Ea2 & _).
  pose proof (angle_self _ vt a2 B eq_refl Lt ltac:(rewrite Nt; auto) Ea2) as Z. subst a2.
  exists r, vt, a. repeat (split; auto). unfold projected_around. rewrite EV. cbn [bind]. fold v vo.
  assert (RT : rotate r v 1 = vt) by (unfold rotate; rewrite (rotate_direction_eq n), Rmult_1_l by auto; reflexivity).
  cbv zeta. rewrite RT.
  destruct (Req_EM_T (norm vt) 0) as [Z|Z]; [exfalso; rewrite Nt in Z; auto|].
  change (vdiv vt (norm vt)) with (direction vt). unfold directional_weighted_sum. cbn [mapM]. 
  rewrite Ea, Ea2. cbn [bind mapM combine fold_right fst snd bs0].
  f_equal. f_equal. unfold rotate.
  replace (vadd (vscale w a) (vadd (vscale (1 - w) (vzero n)) (vzero (length (direction vt))))) with (vscale w a).
  - rewrite (rotate_direction_eq n); auto; [f_equal; ring|].
    apply vector_from_angle_spec; [rewrite <- Lt; apply dirof_length|rewrite length_vscale; apply (ad_len _ _ _ _ Da)| |].
    + apply dirof_unit. rewrite Nt. auto.
    + rewrite dot_vscale_r. pose proof (ad_perp _ _ _ _ Da) as Q. cbn [bs0] in Q. rewrite Q. ring.
  - pose proof (ad_len _ _ _ _ Da) as La. assert (length (direction vt) = n) by (rewrite <- Lt; apply dirof_length). vext. ring.
Qed.
(** Position and obstacle as seen from the attractor. *)
Definition sees (A x r0 : vec) : Prop := length A = n /\ length x = n /\ length r0 = n /\
  norm (vsub A x) <> 0 /\ norm (vsub A r0) <> 0 /\ dot (direction (vsub A x)) (direction (vsub A r0)) <> -1.
Definition moving (x : vec) : Prop := norm (dy_eval initial x) <> 0.
Lemma around_unit w vt o a b0 b1 f : length vt = n -> norm vt <> 0 -> orthonormal n b0 b1 ->
  angle_of_dir n (mkBase (direction vt) o) (direction (dy_eval initial f)) a ->
  length (vector_from_angle (direction vt) (vscale w a)) = n /\ unitv (vector_from_angle (direction vt) (vscale w a)) /\
  dot (direction vt) (vector_from_angle (direction vt) (vscale w a)) = cos (norm (vscale w a)).
Proof.
  intros L N O D. apply vector_from_angle_spec; [rewrite <- L; apply dirof_length|rewrite length_vscale; apply (ad_len _ _ _ _ D)|apply dirof_unit; auto|].
  rewrite dot_vscale_r. pose proof (ad_perp _ _ _ _ D) as Q. cbn [bs0] in Q. rewrite Q. ring.
Qed.
(** Defined, with the speed of the initial dynamics at the position. *)
Theorem C85_speed : forall w A x r0, sees A x r0 -> moving x -> moving r0 ->
  exists u, projected_around orth1 initial w A x r0 = Ok u /\ length u = n /\ norm u = norm (dy_eval initial x).
Proof.
  intros w A x r0 (LA & Lx & Lr & Nx & Nr & ND) Mx Mr.
  destruct (around_form w A x r0) as (r & vt & a & _ & RO & _ & _ & Evt & B & D & E); auto.
  eexists. split; [exact E|]. pose proof RO as (L0 & L1 & _).
  assert (Lt : length vt = n) by (rewrite Evt; apply plane_rot_length; auto).
  assert (Nt : norm vt <> 0) by (rewrite Evt, (plane_rot_norm n); auto).
  destruct (around_unit w vt (orth1 vt) a (rb0 r) (rb1 r) r0 Lt Nt RO D) as (A1 & A2 & _).
  split; [rewrite length_vscale; apply plane_rot_length; auto|].
  rewrite norm_vscale, (plane_rot_norm n), (proj1 (unit_norm _) A2) by auto. rewrite Rabs_right; [ring|apply Rle_ge, norm_nonneg].
Qed.
(** Full weight: the direction of the dynamics at the reference point. *)
Theorem C85_full_weight : forall A x r0, sees A x r0 -> moving x -> moving r0 ->
  projected_around orth1 initial 1 A x r0 = Ok (vscale (norm (dy_eval initial x)) (direction (dy_eval initial r0))).
Proof.
  intros A x r0 (LA & Lx & Lr & Nx & Nr & ND) Mx Mr.
  destruct (around_form 1 A x r0) as (r & vt & a & _ & RO & _ & _ & Evt & B & D & E); auto.
  rewrite E. f_equal. f_equal. pose proof RO as (L0 & L1 & _).
  replace (vscale 1 a) with a by (pose proof (ad_len _ _ _ _ D); vext; ring).
  pose proof (ad_back _ _ _ _ D) as Q. cbn [bs0] in Q. rewrite Q.
  replace (- ((1 - 1) * rangle r)) with 0 by ring. apply (plane_rot_zero n); auto. rewrite <- (LD r0 Lr). apply dirof_length.
Qed.
(** No weight: the initial velocity. *)
Theorem C85_no_weight : forall A x r0, sees A x r0 -> moving x -> moving r0 ->
  projected_around orth1 initial 0 A x r0 = Ok (dy_eval initial x).
Proof.
  intros A x r0 (LA & Lx & Lr & Nx & Nr & ND) Mx Mr.
  destruct (around_form 0 A x r0) as (r & vt & a & _ & RO & _ & _ & Evt & B & D & E); auto.
  rewrite E. f_equal. pose proof RO as (L0 & L1 & _). set (v := dy_eval initial x) in *.
  assert (Lv : length v = n) by (apply LD; auto).
  unfold vector_from_angle. rewrite norm_vscale, Rabs_R0, Rmult_0_l. destruct (Req_EM_T 0 0); [|contradiction].
  replace (- ((1 - 0) * rangle r)) with (- rangle r) by ring.
  assert (Nt : norm vt = norm v) by (rewrite Evt; apply (plane_rot_norm n); auto).
  assert (Lt : length vt = n) by (rewrite Evt; apply plane_rot_length; auto).
  rewrite (plane_rot_scale n) by (auto; rewrite <- Lt; apply dirof_length).
  replace (vscale (norm v) (direction vt)) with vt by (rewrite <- Nt; unfold direction; vext; field; rewrite Nt; auto).
  rewrite Evt. apply (plane_rot_inverse n); auto.
Qed.
(** Dynamics straight to the attractor at both points: on the arc from the direction at the
    position to the direction at the reference point, at the fraction [w]. *)
Theorem C85_arc : forall w A x r0, sees A x r0 -> moving x -> moving r0 -> 0 <= w <= 1 ->
  let b := direction (vsub A x) in let c := direction (vsub A r0) in
  direction (dy_eval initial x) = b -> direction (dy_eval initial r0) = c -> b = c \/ allclose b c = false ->
  exists u, projected_around orth1 initial w A x r0 = Ok u /\ norm u = norm (dy_eval initial x) /\
    acos (dot b (direction u)) = w * acos (dot b c) /\ acos (dot (direction u) c) = (1 - w) * acos (dot b c).
Proof.
  intros w A x r0 S Mx Mr Hw b c Eb Ec X. pose proof S as (LA & Lx & Lr & Nx & Nr & ND).
  destruct (around_form w A x r0) as (r & vt & a & Er & RO & B0 & AN & Evt & B & D & E); auto.
  destruct (C85_speed w A x r0 S Mx Mr) as (u & Eu & Lu & Nu). rewrite E in Eu.
  exists u. split; [rewrite E; exact Eu|]. split; auto. assert (EU : u = vscale (norm (dy_eval initial x))
    (plane_rot (vector_from_angle (direction vt) (vscale w a)) (rb0 r) (rb1 r) (- ((1 - w) * rangle r)))) by congruence. clear Eu.
  fold b c in B0, AN. set (v := dy_eval initial x) in *. pose proof RO as (L0 & L1 & U0 & U1 & O01).
  assert (Lv : length v = n) by (apply LD; auto). fold b c in ND.
  assert (Ub : unitv b) by (apply (dirof_unit _ Nx)). assert (Uc : unitv c) by (apply (dirof_unit _ Nr)).
  assert (Lb : length b = n) by (rewrite <- B0; auto).
  assert (Lc : length c = n) by (unfold c, direction; autorewrite with vlen; lia).
  assert (RC : plane_rot b (rb0 r) (rb1 r) (rangle r) = c).
  { destruct (C63_rotation_to_reference n x r0 A Hn Lx Lr LA) as (_ & _ & _ & Q). destruct (Q Nx Nr ND) as (r' & Er' & _ & _ & _ & _ & Z).
    rewrite Er in Er'. assert (r = r') by congruence. subst r'. transitivity (rotate r (rb0 r) 1); [|exact (Z X)]. unfold rotate. rewrite (rotate_direction_eq n) by auto.
    rewrite Rmult_1_l, B0. auto. }
  assert (DT : direction vt = c).
  { rewrite <- RC. unfold direction. rewrite Evt, (plane_rot_norm n) by auto. unfold vdiv.
    rewrite (plane_rot_scale n) by auto. f_equal. exact Eb. }
  assert (Za : a = vzero n).
  { pose proof (ad_norm _ _ _ _ D) as Q. cbn [bs0] in Q. rewrite DT, Ec, Uc, acos_1 in Q. apply norm_zero_iff in Q.
    rewrite Q, (ad_len _ _ _ _ D). auto. }
  assert (VF : vector_from_angle (direction vt) (vscale w a) = c).
  { unfold vector_from_angle. rewrite norm_vscale, Za, norm_vzero, Rmult_0_r. destruct (Req_EM_T 0 0); [auto|contradiction]. }
  assert (DU : direction u = plane_rot b (rb0 r) (rb1 r) (w * rangle r)).
  { rewrite EU, VF, <- RC, (plane_rot_compose n) by auto.
    replace (rangle r + - ((1 - w) * rangle r)) with (w * rangle r) by ring.
    unfold direction. rewrite norm_vscale, (plane_rot_norm n), (proj1 (unit_norm _) Ub) by auto.
    rewrite Rabs_right by (apply Rle_ge, norm_nonneg). vext. field. auto. }
  assert (PB : forall t, dot b (plane_rot b (rb0 r) (rb1 r) t) = cos t).
  { intros t. rewrite <- B0. rewrite (plane_rot_first n) by auto. autorewrite with vdot. rewrite O01, U0. ring. }
  assert (TH : 0 <= rangle r <= PI) by (rewrite AN; apply acos_bound).
  rewrite DU, <- AN. split.
  - rewrite PB. apply acos_cos. nra.
  - replace (dot (plane_rot b (rb0 r) (rb1 r) (w * rangle r)) c) with (cos ((1 - w) * rangle r)); [apply acos_cos; nra|].
    rewrite <- (PB ((1 - w) * rangle r)), <- RC at 1.
    replace (rangle r) with ((1 - w) * rangle r + w * rangle r) at 3 by ring.
    rewrite <- (plane_rot_compose n b _ _ ((1 - w) * rangle r) (w * rangle r)) by auto. symmetry. apply (plane_rot_isometry n); auto.
Qed.
Lemma fraction w x m : 0 <= w <= 1 -> 0 <= x <= m -> 0 <= w * x <= m.
Proof.
  intros [W0 W1] [X0 X1]. split; [apply Rmult_le_pos; auto|]. apply Rle_trans with (1 * x); [apply Rmult_le_compat_r; auto|lra].
Qed.
(** Triangle inequality of angles. *)
Lemma sphere_triangle u v w : unitv u -> unitv v -> unitv w -> acos (dot u w) <= acos (dot u v) + acos (dot v w).
Proof.
  intros Uu Uv Uw. pose proof (acos_bound (dot u v)) as A. pose proof (acos_bound (dot v w)) as B. pose proof (acos_bound (dot u w)) as C.
  destruct (Rle_dec PI (acos (dot u v) + acos (dot v w))) as [P|P]; [lra|].
  pose proof (unit_dot_bounds u v Uu Uv) as Buv. pose proof (unit_dot_bounds v w Uv Uw) as Bvw. pose proof (unit_dot_bounds u w Uu Uw) as Buw.
  apply acos_le_of_cos; [auto|lra|]. rewrite cos_plus, !cos_acos, !sin_acos by auto.
  set (p := vsub u (vscale (dot u v) v)). set (q := vsub w (vscale (dot v w) v)).
  assert (E : dot u w = dot u v * dot v w + dot p q).
  { unfold p, q. autorewrite with vdot. rewrite Uv. ring. }
  assert (Np : norm p = sqrt (1 - Rsqr (dot u v))).
  { unfold norm, p. rewrite (dot_comm u v). rewrite (RotProofs.perp_norm_sq v u Uv Uu). auto. }
  assert (Nq : norm q = sqrt (1 - Rsqr (dot v w))).
  { unfold norm, q. rewrite (RotProofs.perp_norm_sq v w Uv Uw). auto. }
  rewrite E, <- Np, <- Nq. pose proof (dot_ge_norms p q). lra.
Qed.
(** The deviation from the initial velocity is at most proportional to the weight. *)
Theorem C85_deviation : forall w A x r0, sees A x r0 -> moving x -> moving r0 -> 0 <= w <= 1 ->
  exists u, projected_around orth1 initial w A x r0 = Ok u /\
    acos (dot (direction (dy_eval initial x)) (direction u)) <=
      w * (2 * acos (dot (direction (vsub A x)) (direction (vsub A r0))) +
           acos (dot (direction (dy_eval initial x)) (direction (dy_eval initial r0)))).
Proof.
  intros w A x r0 S Mx Mr Hw. pose proof S as (LA & Lx & Lr & Nx & Nr & ND).
  destruct (around_form w A x r0) as (r & vt & a & Er & RO & B0 & AN & Evt & B & D & E); auto.
  destruct (C85_speed w A x r0 S Mx Mr) as (u & Eu & Lu & Nu). rewrite E in Eu.
  exists u. split; [rewrite E; exact Eu|]. assert (EU : u = vscale (norm (dy_eval initial x))
    (plane_rot (vector_from_angle (direction vt) (vscale w a)) (rb0 r) (rb1 r) (- ((1 - w) * rangle r)))) by congruence. clear Eu.
  rewrite <- AN. set (v := dy_eval initial x) in *. set (vo := dy_eval initial r0) in *. pose proof RO as (L0 & L1 & U0 & U1 & O01).
  assert (Lv : length v = n) by (apply LD; auto). unfold moving in *. fold v in Mx. fold vo in Mr.
  assert (Ld : length (direction v) = n) by (rewrite <- Lv; apply dirof_length).
  assert (Ud : unitv (direction v)) by (apply (dirof_unit _ Mx)). assert (Uo : unitv (direction vo)) by (apply (dirof_unit _ Mr)).
  assert (Lt : length vt = n) by (rewrite Evt; apply plane_rot_length; auto).
  assert (Nt : norm vt <> 0) by (rewrite Evt, (plane_rot_norm n); auto).
  assert (DT : direction vt = plane_rot (direction v) (rb0 r) (rb1 r) (rangle r)).
  { unfold direction. rewrite Evt, (plane_rot_norm n) by auto. unfold vdiv. apply (plane_rot_scale n); auto. }
  assert (Ut : unitv (direction vt)) by (apply (dirof_unit _ Nt)).
  destruct (around_unit w vt (orth1 vt) a (rb0 r) (rb1 r) r0 Lt Nt RO D) as (F1 & F2 & F3).
  set (e := vector_from_angle (direction vt) (vscale w a)) in *.
  assert (TH : 0 <= rangle r <= PI) by (rewrite AN; apply acos_bound).
  assert (DU : direction u = plane_rot e (rb0 r) (rb1 r) (- ((1 - w) * rangle r))).
  { rewrite EU. unfold direction. rewrite norm_vscale, (plane_rot_norm n), (proj1 (unit_norm _) F2) by auto.
    assert (Lp : length (plane_rot e (rb0 r) (rb1 r) (- ((1 - w) * rangle r))) = n) by (apply plane_rot_length; auto).
    rewrite Rabs_right by (apply Rle_ge, norm_nonneg). vext. field. auto. }
  (* the intermediate direction: the initial velocity turned by w of the angle *)
  set (m := plane_rot (direction v) (rb0 r) (rb1 r) (w * rangle r)).
  assert (Um : unitv m) by (apply (plane_rot_unit n); auto).
  assert (Uu : unitv (direction u)) by (rewrite DU; apply (plane_rot_unit n); auto).
  assert (Em : m = plane_rot (direction vt) (rb0 r) (rb1 r) (- ((1 - w) * rangle r))).
  { rewrite DT, (plane_rot_compose n) by auto. unfold m. f_equal. ring. }
  assert (T1 : acos (dot (direction v) m) <= w * rangle r).
  { apply acos_le_of_cos; [apply unit_dot_bounds; auto|apply fraction; auto|]. rewrite dot_comm. apply (plane_rot_dot_ge n); auto. }
  assert (NA : norm a = acos (dot (direction vt) (direction vo))).
  { pose proof (ad_norm _ _ _ _ D) as Q. cbn [bs0] in Q. exact Q. }
  assert (T2 : acos (dot m (direction u)) = w * norm a).
  { rewrite Em, DU, (plane_rot_isometry n) by auto. rewrite F3, norm_vscale, (Rabs_right w) by lra. apply acos_cos.
    pose proof (acos_bound (dot (direction vt) (direction vo))). rewrite <- NA in H. apply fraction; auto. }
  assert (T3 : acos (dot (direction vt) (direction v)) <= rangle r).
  { apply acos_le_of_cos; [apply unit_dot_bounds; auto|auto|]. rewrite DT. apply (plane_rot_dot_ge n); auto. }
  pose proof (sphere_triangle (direction vt) (direction v) (direction vo) Ut Ud Uo) as T4. rewrite <- NA in T4.
  pose proof (sphere_triangle (direction v) m (direction u) Ud Um Uu) as T5. rewrite T2 in T5.
  assert (w * norm a <= w * (rangle r + acos (dot (direction v) (direction vo)))) by (apply Rmult_le_compat_l; lra).
  lra.
Qed.
(** At the attractor, or with the obstacle exactly behind it: the initial velocity. *)
Theorem C85_behind : forall w A x r0, length A = n -> length x = n -> length r0 = n ->
  norm (vsub A x) = 0 \/ (norm (vsub A x) <> 0 /\ norm (vsub A r0) <> 0 /\ dot (direction (vsub A x)) (direction (vsub A r0)) = -1) ->
  projected_around orth1 initial w A x r0 = Ok (dy_eval initial x).
Proof.
  intros w A x r0 LA Lx Lr H. destruct (C63_rotation_to_reference n x r0 A Hn Lx Lr LA) as (Q1 & _ & Q2 & _).
  unfold projected_around. destruct H as [H|(H1 & H2 & H3)]; [rewrite (Q1 H)|rewrite (Q2 H1 H2 H3)]; auto.
Qed.
(** No result: the obstacle on the attractor, or dynamics at rest in one of the two points. *)
Theorem C85_rejected : forall w A x r0, length A = n -> length x = n -> length r0 = n -> norm (vsub A x) <> 0 ->
  (norm (vsub A r0) = 0 -> projected_around orth1 initial w A x r0 = Err ENotImpl) /\
  (sees A x r0 -> ~ (moving x /\ moving r0) -> projected_around orth1 initial w A x r0 = Err ENaN).
Proof.
  intros w A x r0 LA Lx Lr Nx. destruct (C63_rotation_to_reference n x r0 A Hn Lx Lr LA) as (_ & Q1 & _ & Q2).
  split.
  - intros H. unfold projected_around. rewrite (Q1 Nx H). auto.
  - intros (_ & _ & _ & _ & Nr & ND) H. destruct (Q2 Nx Nr ND) as (r & Er & P & _). unfold projected_around. rewrite Er. cbn [bind].
    pose proof P as (L0 & L1 & _). assert (Lv : length (dy_eval initial x) = n) by (apply LD; auto).
    assert (NT : norm (rotate r (dy_eval initial x) 1) = norm (dy_eval initial x)).
    { unfold rotate. rewrite (rotate_direction_eq n) by auto. apply (plane_rot_norm n); auto. }
    destruct (Req_EM_T _ 0) as [Z|Z]; auto. rewrite NT in Z. unfold directional_weighted_sum. cbn [mapM].
    unfold angle_in at 1. destruct (Req_EM_T (norm (dy_eval initial r0)) 0) as [Z'|Z']; [auto|].
    exfalso. apply H. split; auto.
Qed.
End Around.

(** Non-vacuity: straight dynamics, obstacle at a right angle, half the weight. *)
Definition straight : dynamics := mkDyn (fun x => vscale (-1) x) (Some [0; 0]) None.
Lemma straight_scene : sees 2 [0; 0] [-1; 0] [0; -1] /\ moving straight [-1; 0] /\ moving straight [0; -1] /\
  direction (vsub [0; 0] [-1; 0]) = [1; 0] /\ direction (vsub [0; 0] [0; -1]) = [0; 1] /\
  direction (dy_eval straight [-1; 0]) = [1; 0] /\ direction (dy_eval straight [0; -1]) = [0; 1].
Proof.
  assert (E1 : vsub [0; 0] [-1; 0] = [1; 0]) by (unfold vsub; simpl; f_equal; [|f_equal]; ring).
  assert (E2 : vsub [0; 0] [0; -1] = [0; 1]) by (unfold vsub; simpl; f_equal; [|f_equal]; ring).
  assert (E3 : dy_eval straight [-1; 0] = [1; 0]) by (unfold vscale; simpl; f_equal; [|f_equal]; ring).
  assert (E4 : dy_eval straight [0; -1] = [0; 1]) by (unfold vscale; simpl; f_equal; [|f_equal]; ring).
  assert (U1 : unitv [1; 0]) by (unfold unitv; simpl; ring). assert (U2 : unitv [0; 1]) by (unfold unitv; simpl; ring).
  unfold sees, moving. rewrite E1, E2, E3, E4, !direction_unitv by auto. repeat (split; auto using unit_norm_neq). simpl. lra.
Qed.
Example C85_example : exists u, projected_around left_unit straight (1/2) [0; 0] [-1; 0] [0; -1] = Ok u /\ norm u = 1 /\
  acos (dot [1; 0] (direction u)) = PI / 4 /\ acos (dot (direction u) [0; 1]) = PI / 4.
Proof.
  destruct straight_scene as (S & M1 & M2 & D1 & D2 & D3 & D4).
  destruct (C85_arc 2 left_unit straight ltac:(lia) left_unit_ok ltac:(intros; simpl; rewrite length_vscale; auto) (1/2) [0; 0] [-1; 0] [0; -1])
    as (u & E & N & P & Q); auto; try lra; try congruence.
  - right. rewrite D1, D2. apply not_close_axis. right. split; [apply Rabs_R1|auto].
  - exists u. rewrite D1, D2 in *. assert (Z : dot [1; 0] [0; 1] = 0) by (simpl; ring). rewrite Z, acos_0 in *.
    split; auto. split; [|split; [rewrite P|rewrite Q]; field].
    rewrite N. replace (dy_eval straight [-1; 0]) with [1; 0] by (unfold vscale; simpl; f_equal; [|f_equal]; ring).
    apply unit_norm. unfold unitv; simpl; ring.
Qed.

(** ** C86 *)
Section Sequence.
Variables (n : nat) (initial : dynamics) (A : vec).
Hypothesis Hn : (2 <= n)%nat.
Hypothesis LD : forall x, length x = n -> length (dy_eval initial x) = n.
Hypothesis HA : dy_attractor initial = Some A.
Hypothesis HW : dy_own initial = None.
(** The obstacle is visible from the attractor and the dynamics there are not at rest. *)
Definition clear_of (r0 : vec) : Prop := / 10 ^ 8 < norm (vsub A r0) /\ / 10 ^ 8 < norm (dy_eval initial r0) /\
  related (direction (vsub A r0)) (direction (dy_eval initial r0)).

Lemma reference_sequence r0 : length A = n -> length r0 = n -> clear_of r0 ->
  exists q, evaluate_dynamics_sequence r0 initial None = Ok (Some [q]) /\ proper n q /\ rb0 q = direction (vsub A r0) /\
    get_end_vector [q] = Ok (direction (dy_eval initial r0)).
Proof.
  intros LA Lr (N1 & N2 & [R1 R2]). unfold evaluate_dynamics_sequence. rewrite HW, HA.
  assert (0 < / 10 ^ 8) by (apply Rinv_0_lt_compat; lra).
  destruct (Req_EM_T (norm (vsub A r0)) 0); [lra|]. destruct (Req_EM_T (norm (dy_eval initial r0)) 0); [lra|].
  destruct (pair_sequence n (vsub A r0) (dy_eval initial r0)) as (q & E & P & E0 & Ee & X & _); auto.
  { autorewrite with vlen. lia. }
  exists q. rewrite E. cbn [bind]. rewrite X in Ee by auto. auto.
Qed.
(** The sequence around the obstacle starts towards the attractor, passes the direction from the
    reference point to the attractor and ends with the dynamics at the reference point. *)
Theorem C86_sequence : forall x r0 init, sees n A x r0 -> clear_of r0 ->
  related (direction (vsub A x)) (direction (vsub A r0)) ->
  exists s, projected_sequence_around initial A x r0 init = Ok s /\ length s = 2%nat /\
    passes n s (direction (vsub A x)) (direction (dy_eval initial r0)) /\
    stops s (direction (dy_eval initial r0)) = [direction (vsub A r0); direction (dy_eval initial r0)] /\
    related_path (direction (vsub A x)) (stops s (direction (dy_eval initial r0))).
Proof.
  intros x r0 init (LA & Lx & Lr & Nx & Nr & ND) C R. pose proof C as (C1 & C2 & C3).
  destruct (C63_rotation_to_reference n x r0 A Hn Lx Lr LA) as (_ & _ & _ & Q). destruct (Q Nx Nr ND) as (r & Er & P & F & _).
  destruct (reference_sequence r0 LA Lr C) as (q & Eq & Pq & E0 & Ee).
  unfold projected_sequence_around. rewrite Er. cbn [bind]. rewrite Eq. cbn [bind]. unfold push_root_from_base_and_angle.
  exists [r; q]. split; auto. split; auto.
  assert (F0 : rb0 r = direction (vsub A x)) by (rewrite <- F; reflexivity).
  assert (Nv : norm (dy_eval initial r0) <> 0) by (assert (0 < / 10 ^ 8) by (apply Rinv_0_lt_compat; lra); lra).
  assert (ST : stops [r; q] (direction (dy_eval initial r0)) = [direction (vsub A r0); direction (dy_eval initial r0)]).
  { unfold stops. simpl. rewrite E0. auto. }
  split; [|split; [auto|rewrite ST; simpl; auto]].
  constructor.
  - exists r, [q]. auto.
  - assert (G : forall z, norm z <> 0 -> length z = n -> length (direction z) = n /\ unitv (direction z)).
    { intros z Nz Lz. split; [rewrite <- Lz; apply dirof_length|apply (dirof_unit _ Nz)]. }
    repeat constructor; rewrite ?F0, ?E0; apply G; auto; autorewrite with vlen; lia.
  - exact Ee.
  - split; [rewrite <- (LD r0 Lr); apply dirof_length|apply (dirof_unit _ Nv)].
Qed.
(** At the attractor or with the obstacle exactly behind it: the given sequence; otherwise a
    reference point on the attractor or with the dynamics at rest raises. *)
Theorem C86_other : forall x r0 init, length A = n -> length x = n -> length r0 = n ->
  (norm (vsub A x) = 0 \/ (norm (vsub A x) <> 0 /\ norm (vsub A r0) <> 0 /\ dot (direction (vsub A x)) (direction (vsub A r0)) = -1) ->
     projected_sequence_around initial A x r0 init = Ok init) /\
  (norm (vsub A x) <> 0 -> norm (vsub A r0) = 0 -> projected_sequence_around initial A x r0 init = Err ENotImpl) /\
  (sees n A x r0 -> norm (dy_eval initial r0) = 0 -> projected_sequence_around initial A x r0 init = Err EAttr).
Proof.
  intros x r0 init LA Lx Lr. destruct (C63_rotation_to_reference n x r0 A Hn Lx Lr LA) as (Q1 & Q2 & Q3 & Q4).
  unfold projected_sequence_around. split; [|split].
  - intros [H|(H1 & H2 & H3)]; [rewrite (Q1 H)|rewrite (Q3 H1 H2 H3)]; auto.
  - intros H1 H2. rewrite (Q2 H1 H2). auto.
  - intros (_ & _ & _ & Nx & Nr & ND) Z. destruct (Q4 Nx Nr ND) as (r & -> & _). cbn [bind].
    unfold evaluate_dynamics_sequence. rewrite HW, HA. destruct (Req_EM_T (norm (vsub A r0)) 0); [contradiction|].
    destruct (Req_EM_T (norm (dy_eval initial r0)) 0); [auto|contradiction].
Qed.
(** Without a singularity the sequence starts at the direction from the reference point to the
    attractor. *)
Theorem C86_plain : forall x r0 init, length A = n -> length r0 = n -> clear_of r0 ->
  exists s, plain_sequence_around initial x r0 init = Ok s /\ length s = 1%nat /\
    passes n s (direction (vsub A r0)) (direction (dy_eval initial r0)).
Proof.
  intros x r0 init LA Lr C. destruct (reference_sequence r0 LA Lr C) as (q & Eq & Pq & E0 & Ee).
  unfold plain_sequence_around. rewrite Eq. cbn [bind]. exists [q]. split; auto. split; auto. destruct C as (C1 & C2 & _).
  assert (0 < / 10 ^ 8) by (apply Rinv_0_lt_compat; lra).
  constructor; auto.
  - exists q, []. auto.
  - repeat constructor; rewrite E0; [unfold direction; autorewrite with vlen; lia|apply dirof_unit; lra].
  - split; [rewrite <- (LD r0 Lr); apply dirof_length|apply dirof_unit; lra].
Qed.
End Sequence.
(** Non-vacuity: dynamics crossing the straight direction. *)
Definition crossing : dynamics := mkDyn (fun x => match x with [a; b] => [b; - a] | _ => x end) (Some [0; 0]) None.
Example C86_example : exists s, projected_sequence_around crossing [0; 0] [-1; 0] [0; -1] [] = Ok s /\
  passes 2 s [1; 0] [-1; 0] /\ stops s [-1; 0] = [[0; 1]; [-1; 0]].
Proof.
  destruct straight_scene as (S & _ & _ & D1 & D2 & _).
  assert (E2 : vsub [0; 0] [0; -1] = [0; 1]) by (unfold vsub; simpl; f_equal; [|f_equal]; ring).
  assert (E : dy_eval crossing [0; -1] = [-1; 0]) by (simpl; f_equal; f_equal; ring).
  assert (U0 : unitv [-1; 0]) by (unfold unitv; simpl; ring). assert (U2 : unitv [0; 1]) by (unfold unitv; simpl; ring).
  assert (D : direction (dy_eval crossing [0; -1]) = [-1; 0]) by (rewrite E; apply direction_unitv; auto).
  assert (R1 : related [1; 0] [0; 1]) by (apply related_right; [right; split; [apply Rabs_R1|auto]|ring]).
  assert (R2 : related [0; 1] [-1; 0]).
  { apply related_right; [left; split; [auto|rewrite Rabs_left; lra]|ring]. }
  pose proof tiny_1.
  destruct (C86_sequence 2 crossing [0; 0] ltac:(lia)) with (x := [-1; 0]) (r0 := [0; -1]) (init := @nil rotation) as (s & Es & _ & P & T & _); auto.
  - intros y Ly. destruct y as [|a [|b [|]]]; simpl in *; lia.
  - split; [rewrite E2; rewrite (proj1 (unit_norm _) U2); auto|]. split; [rewrite E, (proj1 (unit_norm _) U0); auto|]. rewrite D2, D. auto.
  - rewrite D1, D2. auto.
  - exists s. rewrite D, D1, D2 in *. auto.
Qed.
Print Assumptions C85_speed.
Print Assumptions C85_full_weight.
Print Assumptions C85_no_weight.
Print Assumptions C85_arc.
Print Assumptions C85_deviation.
Print Assumptions C85_behind.
Print Assumptions C85_rejected.
Print Assumptions C86_sequence.
Print Assumptions C86_other.
Print Assumptions C86_plain.
