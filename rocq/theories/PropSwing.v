(** C146, C147: the rotation of a converging direction away from an obstacle and the projection of
    a nonlinear direction. *)
Require Import Reals List Bool Lra Lia.
From Verif Require Import Base Vec Angle Pow RotModel Spec RotProofs TreeModel TreeSpec ProjModel PropProject PropTangent
  RotAvoidModel RotAvoidProofs DescentModel PropDescent SwingModel.
Import ListNotations.
Open Scope R_scope.

(** ** C146 *)
Lemma deviation_pos w dev : 0 < w -> 0 < dev < 1 -> exists u, directional_deviation_weight w dev 3 = Ok u /\ 0 < u <= 1.
Proof.
  intros Hw Hd. unfold directional_deviation_weight. rewrite (proj2 (Rleb_false dev 0)) by lra.
  rewrite (proj2 (Rleb_false 1 dev)) by lra. destruct (Rleb 1 w) eqn:E; cbn [orb]; [exists 1; split; auto; lra|].
  apply Rleb_false in E. unfold fdiv. destruct (Req_EM_T (dev * 3) 0); [lra|]. cbn [bind].
  assert (P : 0 < 1 / (dev * 3)) by (apply Rdiv_lt_0_compat; lra).
  destruct (fpow_unit w (1 / (dev * 3)) ltac:(lra) P) as (u & Eu & Hu). exists u. split; auto. split; [|lra].
  rewrite fpow_pos in Eu by lra. injection Eu as <-. apply exp_pos.
Qed.

Lemma rotated_form n b conv ref rad : (2 <= n)%nat -> base_ok n b -> length conv = n -> length ref = n ->
  norm conv <> 0 -> norm ref <> 0 -> 0 < rad <= PI -> acos (dot (bs0 b) (dirof conv)) < rad -> dirof conv <> dirof ref ->
  exists ac ar s, angle_of_dir n b (dirof conv) ac /\ angle_of_dir n b (dirof ref) ar /\ ac <> ar /\ 0 < s /\
    norm (vadd ac (vscale s (vsub ac ar))) = rad /\
    forall w, 0 <= w -> exists u, directional_deviation_weight w (/ (1 + s)) 3 = Ok u /\
      rotated_convergence w rad conv ref b = Ok (Some (vadd ac (vscale (u * s) (vsub ac ar)))).
Proof.
  intros Hn B Lc Lr Nc Nr Hr Hin NE.
  destruct (angle_in_ok n b conv Hn B Lc Nc) as (ac & Ec & Ac). destruct (angle_in_ok n b ref Hn B Lr Nr) as (ar & Er & Ar).
  pose proof (ad_len _ _ _ _ Ac) as L1. pose proof (ad_len _ _ _ _ Ar) as L2. pose proof (ad_norm _ _ _ _ Ac) as N1.
  assert (D : ac <> ar) by (intros ->; apply NE, (angle_of_dir_inj n b _ _ ar Ac Ar)).
  assert (ND : norm (vsub ac ar) <> 0) by (intros Z; apply D, norm_vsub_0; [congruence|auto]).
  destruct (circle_far_spec n ac ar rad L1 L2 ND ltac:(lra) ltac:(lra)) as (s & Hs & Ef & Nf & _).
  assert (Ps : 0 < s).
  { destruct Hs as [|<-]; auto. exfalso. replace (vadd ac (vscale 0 (vsub ac ar))) with ac in Nf by (vext; ring). lra. }
  exists ac, ar, s. do 5 (split; auto). intros w Hw.
  destruct (C138_deviation w (/ (1 + s)) 3 Hw ltac:(lra)) as (u & Eu & _). exists u. split; auto.
  unfold rotated_convergence. rewrite Er, Ec. cbn [bind]. rewrite (proj2 (Rleb_false _ _)) by lra.
  destruct (Req_EM_T (norm (vsub ac ar)) 0); [contradiction|]. rewrite Ef.
  replace (vsub (vadd ac (vscale s (vsub ac ar))) ar) with (vscale (1 + s) (vsub ac ar)) by (vext; ring).
  rewrite norm_vscale, Rabs_pos_eq by lra. unfold fdiv.
  assert (NZ : (1 + s) * norm (vsub ac ar) <> 0) by (apply Rmult_integral_contrapositive_currified; [lra|auto]).
  destruct (Req_EM_T ((1 + s) * norm (vsub ac ar)) 0); [contradiction|]. cbn [bind].
  replace (norm (vsub ac ar) / ((1 + s) * norm (vsub ac ar))) with (/ (1 + s)) by (field; split; [auto|lra]).
  rewrite Eu. cbn [bind]. do 2 f_equal. vext. ring.
Qed.

Lemma inv_1s s : 0 < s -> 0 < / (1 + s) < 1.
Proof.
  intros H. split; [apply Rinv_0_lt_compat; lra|]. rewrite <- Rinv_1. apply Rinv_lt_contravar; lra.
Qed.

(** Directions which do not point at the obstacle are kept; a direction along the reference
    direction has no side to turn to; every other one moves away from the reference direction, as
    far as the circle at most. *)
Theorem C146_rotated : forall n b conv ref w rad, (2 <= n)%nat -> base_ok n b -> length conv = n -> length ref = n ->
  norm conv <> 0 -> norm ref <> 0 -> 0 <= w -> 0 < rad <= PI -> dot (bs0 b) (dirof ref) <> -1 ->
  let c := log_map (bs0 b) (dirof conv) in
  let r := log_map (bs0 b) (dirof ref) in
  (dot (bs0 b) (dirof conv) <= cos rad ->
     exists a, rotated_convergence w rad conv ref b = Ok (Some a) /\ vector_from_angle (bs0 b) a = dirof conv) /\
  (cos rad < dot (bs0 b) (dirof conv) -> dirof conv = dirof ref -> rotated_convergence w rad conv ref b = Ok None) /\
  (cos rad < dot (bs0 b) (dirof conv) -> dirof conv <> dirof ref ->
     exists s, 0 <= s /\ rotated_convergence w rad conv ref b = Ok (Some (vadd c (vscale s (vsub c r)))) /\
       let out := vector_from_angle (bs0 b) (vadd c (vscale s (vsub c r))) in
       unitv out /\ cos rad <= dot (bs0 b) out /\
       (w = 0 -> out = dirof conv) /\ (1 <= w -> dot (bs0 b) out = cos rad) /\ (0 < w -> 0 < s) /\
       (0 < w -> dot (bs0 b) (dirof conv) <= dot (bs0 b) (dirof ref) -> dot (bs0 b) out < dot (bs0 b) (dirof conv))).
Proof.
  intros n b conv ref w rad Hn B Lc Lr Nc Nr Hw Hr Hm c r.
  pose proof B as (L0 & L1 & U0 & U1 & O).
  pose proof (dirof_unit conv Nc) as Uc. pose proof (dirof_unit ref Nr) as Ur.
  pose proof (unit_dot_bounds _ _ U0 Uc) as Bc. pose proof (unit_dot_bounds _ _ U0 Ur) as Br.
  split; [|split].
  - intros H. destruct (angle_in_ok n b conv Hn B Lc Nc) as (ac & Ec & Ac). destruct (angle_in_ok n b ref Hn B Lr Nr) as (ar & Er & Ar).
    exists ac. split; [|apply (ad_back _ _ _ _ Ac)]. unfold rotated_convergence. rewrite Er, Ec. cbn [bind].
    rewrite (proj2 (Rleb_true _ _)); auto. rewrite (ad_norm _ _ _ _ Ac).
    destruct (Rle_dec rad (acos (dot (bs0 b) (dirof conv)))) as [|K]; auto. exfalso.
    apply Rnot_le_lt in K. apply (angle_lt b _ rad U0 Uc) in K; [|lra]. lra.
  - intros H E. destruct (angle_in_ok n b conv Hn B Lc Nc) as (ac & Ec & Ac). destruct (angle_in_ok n b ref Hn B Lr Nr) as (ar & Er & Ar).
    unfold rotated_convergence. rewrite Er, Ec. cbn [bind]. apply (angle_lt b _ rad U0 Uc) in H; [|lra].
    rewrite (proj2 (Rleb_false _ _)) by (rewrite (ad_norm _ _ _ _ Ac); auto).
    assert (ac = ar) by (rewrite (ad_def _ _ _ _ Ac), (ad_def _ _ _ _ Ar), E; auto). subst ar.
    destruct (Req_EM_T (norm (vsub ac ac)) 0) as [|NZ]; auto. exfalso. apply NZ, norm_vsub_0; auto.
  - intros H NE. assert (H' := H). apply (angle_lt b _ rad U0 Uc) in H'; [|lra].
    destruct (rotated_form n b conv ref rad Hn B Lc Lr Nc Nr Hr H' NE) as (ac & ar & s & Ac & Ar & D & Ps & Nf & K).
    assert (Mc : dot (bs0 b) (dirof conv) <> -1).
    { pose proof (COS_bound rad). lra. }
    assert (ac = c) by apply (ad_log _ _ _ _ Ac Mc). assert (ar = r) by apply (ad_log _ _ _ _ Ar Hm).
    pose proof (ad_len _ _ _ _ Ac) as La. pose proof (ad_len _ _ _ _ Ar) as Lb.
    pose proof (ad_perp _ _ _ _ Ac) as Oa. pose proof (ad_perp _ _ _ _ Ar) as Ob.
    pose proof (ad_norm _ _ _ _ Ac) as Na. pose proof (ad_norm _ _ _ _ Ar) as Nb. pose proof (ad_back _ _ _ _ Ac) as Ba.
    subst ac ar. clearbody c r.
    destruct (C138_deviation w (/ (1 + s)) 3 Hw ltac:(lra)) as (u' & Eu' & Hu' & _ & H1 & H0 & _).
    destruct (K w Hw) as (u & Eu & Eout). assert (u' = u) by congruence. subst u'.
    pose proof (inv_1s s Ps) as Hi.
    exists (u * s). split; [apply Rmult_le_pos; lra|]. split; auto.
    set (a := vadd c (vscale (u * s) (vsub c r))).
    assert (Pa : length a = n) by (unfold a; autorewrite with vlen; lia).
    assert (Oo : dot (bs0 b) a = 0) by (unfold a; rewrite dot_vadd_r, dot_vscale_r, dot_vsub_r, Oa, Ob; ring).
    destruct (vector_from_angle_ok n b a B Pa Oo) as (_ & Uo & Co). cbv zeta.
    assert (Ale : norm a <= rad).
    { replace a with (vadd (vscale (1 - u) c) (vscale u (vadd c (vscale s (vsub c r))))) by (unfold a; vext; ring).
      eapply Rle_trans; [apply norm_triangle|]. rewrite !norm_vscale, !Rabs_pos_eq by lra. rewrite Nf.
      assert ((1 - u) * norm c <= (1 - u) * rad) by (apply Rmult_le_compat_l; lra). lra. }
    pose proof (norm_nonneg a) as Pn.
    split; auto. split.
    { rewrite Co. destruct Ale as [A|A]; [left; apply cos_decreasing_1; lra|rewrite A; lra]. }
    split.
    { intros Z. replace a with c; auto. unfold a. rewrite (H0 ltac:(lra) Z). vext. ring. }
    split.
    { intros Z. rewrite Co. f_equal. rewrite <- Nf. unfold a. rewrite (H1 ltac:(lra) (or_intror Z)), Rmult_1_l. auto. }
    assert (Pu : 0 < w -> 0 < u).
    { intros Z. destruct (deviation_pos w (/ (1 + s)) Z Hi) as (u2 & E2 & P2). assert (u2 = u) by congruence. subst. lra. }
    split; [intros Z; apply Rmult_lt_0_compat; auto|].
    intros Z Hle. specialize (Pu Z). rewrite Co.
    replace (dot (bs0 b) (dirof conv)) with (cos (norm c)) by (rewrite Na; apply cos_acos; auto).
    assert (Nc2 : 0 <= norm c <= PI) by (rewrite Na; apply acos_bound).
    cut (norm c < norm a); [intros; apply cos_decreasing_1; lra|].
    assert (Nle : norm r <= norm c).
    { rewrite Na, Nb. pose proof (acos_bound (dot (bs0 b) (dirof conv))).
      apply acos_le_of_cos; auto. rewrite cos_acos; auto. }
    pose proof (cauchy_schwarz c r) as CS. pose proof (Rle_abs (dot c r)) as AB. pose proof (norm_nonneg r) as Pr. pose proof (norm_nonneg c) as Pc.
    assert (Dn : 0 <= dot c (vsub c r)).
    { rewrite dot_vsub_r, <- norm_sq. assert (norm c * norm r <= norm c * norm c) by (apply Rmult_le_compat_l; lra). lra. }
    assert (Sq : norm c * norm c < norm a * norm a).
    { rewrite !norm_sq. unfold a. rewrite dot_vadd_l, !dot_vadd_r, !dot_vscale_l, !dot_vscale_r, (dot_comm (vsub c r) c).
      assert (0 < dot (vsub c r) (vsub c r)).
      { rewrite <- norm_sq. assert (norm (vsub c r) <> 0) by (intros Y; apply D, norm_vsub_0; [congruence|auto]).
        pose proof (norm_nonneg (vsub c r)). assert (0 < norm (vsub c r)) by lra. apply Rmult_lt_0_compat; auto. }
      assert (Pq : 0 < u * s) by (apply Rmult_lt_0_compat; auto).
      assert (0 <= u * s * dot c (vsub c r)) by (apply Rmult_le_pos; lra).
      assert (0 < u * s * (u * s * dot (vsub c r) (vsub c r))) by (apply Rmult_lt_0_compat; [|apply Rmult_lt_0_compat]; auto). lra. }
    destruct (Rlt_le_dec (norm c) (norm a)) as [|Y]; auto. exfalso.
    assert (norm a * norm a <= norm c * norm c) by (apply Rmult_le_compat; lra). lra.
Qed.

(** A larger weight turns farther. *)
Theorem C146_monotone : forall n b conv ref w w' rad a a', (2 <= n)%nat -> base_ok n b -> length conv = n -> length ref = n ->
  norm conv <> 0 -> norm ref <> 0 -> 0 <= w <= w' -> 0 < rad <= PI -> dot (bs0 b) (dirof ref) <> -1 ->
  rotated_convergence w rad conv ref b = Ok (Some a) -> rotated_convergence w' rad conv ref b = Ok (Some a') ->
  let r := log_map (bs0 b) (dirof ref) in norm (vsub a r) <= norm (vsub a' r).
Proof.
  intros n b conv ref w w' rad a a' Hn B Lc Lr Nc Nr Hw Hr Hm E E' r.
  pose proof B as (L0 & L1 & U0 & U1 & O).
  pose proof (dirof_unit conv Nc) as Uc.
  destruct (Rlt_le_dec (acos (dot (bs0 b) (dirof conv))) rad) as [H|H].
  - destruct (list_eq_dec Req_EM_T (dirof conv) (dirof ref)) as [Q|NE].
    { exfalso. pose proof (C146_rotated n b conv ref w rad Hn B Lc Lr Nc Nr ltac:(lra) Hr Hm) as (_ & T & _).
      apply (angle_lt b _ rad U0 Uc) in H; [|lra]. rewrite (T H Q) in E. discriminate. }
    destruct (rotated_form n b conv ref rad Hn B Lc Lr Nc Nr Hr H NE) as (ac & ar & s & Ac & Ar & D & Ps & Nf & K).
    assert (ar = r) by apply (ad_log _ _ _ _ Ar Hm). subst ar. clearbody r.
    pose proof (ad_len _ _ _ _ Ac) as La. pose proof (ad_len _ _ _ _ Ar) as Lb.
    destruct (K w ltac:(lra)) as (u & Eu & Eo). destruct (K w' ltac:(lra)) as (u' & Eu' & Eo').
    destruct (C138_deviation w (/ (1 + s)) 3 ltac:(lra) ltac:(lra)) as (v & Ev & Hv & _ & _ & _ & Mo).
    assert (v = u) by congruence. subst v. pose proof (Mo w' _ u' ltac:(lra) (Rle_refl _) Eu') as Le.
    rewrite E in Eo. injection Eo as ->. rewrite E' in Eo'. injection Eo' as ->.
    assert (F : forall k, vsub (vadd ac (vscale k (vsub ac r))) r = vscale (1 + k) (vsub ac r)) by (intros k; vext; ring).
    assert (P0 : 0 <= u * s) by (apply Rmult_le_pos; lra). assert (P1 : u * s <= u' * s) by (apply Rmult_le_compat_r; lra).
    rewrite !F, !norm_vscale, !Rabs_pos_eq by lra. apply Rmult_le_compat_r; [apply norm_nonneg|lra].
  - assert (Q : a = a'); [|subst; lra].
    unfold rotated_convergence in *. destruct (angle_in b ref); [|discriminate].
    destruct (angle_in_ok n b conv Hn B Lc Nc) as (ac & Ec & Ac). rewrite Ec in *. cbn [bind] in *.
    rewrite (proj2 (Rleb_true _ _)) in * by (rewrite (ad_norm _ _ _ _ Ac); auto). congruence.
Qed.

(** The angles in the plane. *)
Definition plane : dbase := mkBase [1; 0] [0; 1].
Lemma plane_ok : base_ok 2 plane.
Proof. unfold base_ok, plane, unitv, dot. simpl. repeat split; try ring. Qed.
Lemma sin_side t : t <> 0 -> - PI < t < PI -> 0 < sin t * t.
Proof.
  intros N H. destruct (Rlt_le_dec t 0) as [L|L].
  - assert (0 < sin (- t)) by (apply sin_gt_0; lra). rewrite sin_neg in *. nra.
  - assert (0 < sin t) by (apply sin_gt_0; lra). apply Rmult_lt_0_compat; lra.
Qed.
Lemma plane_unit t : norm [cos t; sin t] = 1.
Proof. apply unit_norm. unfold unitv, dot. simpl. pose proof (sin2_cos2 t) as S. unfold Rsqr in S. lra. Qed.
Lemma plane_angle t : - PI < t < PI -> angle_in plane [cos t; sin t] = Ok [0; t].
Proof.
  intros H. unfold angle_in. rewrite plane_unit. destruct (Req_EM_T 1 0); [lra|]. f_equal.
  replace (vdiv [cos t; sin t] 1) with [cos t; sin t] by (unfold vdiv, vscale; simpl; f_equal; [field|f_equal; field]).
  cbn [bs0 bs1 plane]. destruct (Req_dec t 0) as [->|N].
  - rewrite cos_0, sin_0. unfold angle_space. replace (vsub [1; 0] (vscale (dot [1; 0] [1; 0]) [1; 0])) with (vzero 2).
    2:{ unfold vsub, vscale, dot, vzero. simpl. f_equal; [ring|f_equal; ring]. }
    rewrite norm_vzero. destruct (Req_EM_T 0 0); [|lra]. rewrite (proj2 (Rltb_false _ _)); auto. unfold dot. simpl. lra.
  - pose proof (sin_side t N H) as Ps. rewrite angle_space_e1.
    + f_equal. f_equal. destruct (Rlt_le_dec t 0) as [L|L].
      * rewrite <- cos_neg, acos_cos by lra. assert (sin t < 0) by nra. rewrite Rabs_left by auto. field. lra.
      * rewrite acos_cos by lra. assert (0 < sin t) by nra. rewrite Rabs_pos_eq by lra. field. lra.
    + intros Z. rewrite Z in Ps. lra.
    + pose proof (sin2_cos2 t) as S. unfold Rsqr in S. lra.
Qed.
Lemma norm_0t t : norm [0; t] = Rabs t.
Proof. unfold norm, dot. simpl. replace (0 * 0 + (t * t + 0)) with (Rsqr t) by (unfold Rsqr; ring). apply sqrt_Rsqr_abs. Qed.
(** On a line through the middle, the far point of the circle. *)
Lemma circle_far_line x d r : d <> 0 -> 0 <= r -> circle_far [0; x] [0; d] r = Some [0; r * (Rabs d / d)].
Proof.
  intros Nd Hr. unfold circle_far.
  replace (dot [0; d] [0; d]) with (d * d) by (unfold dot; simpl; ring).
  replace (dot [0; d] [0; x]) with (d * x) by (unfold dot; simpl; ring).
  replace (dot [0; x] [0; x]) with (x * x) by (unfold dot; simpl; ring).
  replace (2 * (d * x) * (2 * (d * x)) - 4 * (d * d) * (x * x - r * r)) with (Rsqr (2 * d * r)) by (unfold Rsqr; ring).
  rewrite (proj2 (Rltb_false _ 0)) by apply Rle_0_sqr. rewrite sqrt_Rsqr_abs.
  rewrite !Rabs_mult, (Rabs_pos_eq 2), (Rabs_pos_eq r) by lra. f_equal. unfold vadd, vscale. simpl. f_equal; [ring|]. f_equal. field. auto.
Qed.

(** From a reference direction farther away from the normal, the first part of the turn leads
    towards the obstacle. *)
Theorem C146_away_refuted : exists (w : R) (a : vec), 0 < w < 1 /\
  rotated_convergence w (PI / 2) [cos (PI / 12); sin (PI / 12)] [cos (PI / 4); sin (PI / 4)] plane = Ok (Some a) /\
  norm a < PI / 12.
Proof.
  pose proof PI_RGT_0 as HP. exists (1/4), [0; PI / 96]. split; [lra|]. split.
  - unfold rotated_convergence. rewrite !plane_angle by lra. cbn [bind]. rewrite norm_0t, Rabs_pos_eq, (proj2 (Rleb_false _ _)) by lra.
    replace (vsub [0; PI / 12] [0; PI / 4]) with [0; - (PI / 6)] by (unfold vsub, vscale; simpl; f_equal; [ring|f_equal; field]).
    rewrite norm_0t, Rabs_left by lra. destruct (Req_EM_T _ 0); [lra|]. rewrite circle_far_line, Rabs_left by lra.
    replace (PI / 2 * (- - (PI / 6) / - (PI / 6))) with (- (PI / 2)) by (field; lra).
    replace (vsub [0; - (PI / 2)] [0; PI / 4]) with [0; - (3 * PI / 4)] by (unfold vsub, vscale; simpl; f_equal; [ring|f_equal; field]).
    rewrite norm_0t, Rabs_left by lra. unfold fdiv. destruct (Req_EM_T _ 0); [lra|]. cbn [bind].
    replace (- - (PI / 6) / - - (3 * PI / 4)) with (2 / 9) by (field; lra).
    unfold directional_deviation_weight. rewrite (proj2 (Rleb_false (2/9) 0)), (proj2 (Rleb_false 1 (2/9))), (proj2 (Rleb_false 1 (1/4))) by lra.
    cbn [orb]. unfold fdiv. destruct (Req_EM_T _ 0); [lra|]. cbn [bind]. rewrite fpow_pos by lra.
    replace (Rpower (1/4) (1 / (2 / 9 * 3))) with (1/8).
    + cbn [bind]. do 2 f_equal. unfold vadd, vscale. simpl. f_equal; [ring|]. f_equal. field.
    + replace (1/4) with (Rpower (1/2) 2).
      * rewrite Rpower_mult. replace (2 * (1 / (2 / 9 * 3))) with (1 + 1 + 1) by field.
        rewrite !Rpower_plus, Rpower_1 by lra. field.
      * replace 2 with (1 + 1) at 2 by ring. rewrite Rpower_plus, Rpower_1 by lra. field.
  - rewrite norm_0t, Rabs_pos_eq; lra.
Qed.
Example C146_case : rotated_convergence 1 (PI / 2) [cos (PI / 3); sin (PI / 3)] [cos (PI / 6); sin (PI / 6)] plane = Ok (Some [0; PI / 2]) /\
  rotated_convergence (1/2) (PI / 2) [cos (2 * PI / 3); sin (2 * PI / 3)] [cos (PI / 6); sin (PI / 6)] plane = Ok (Some [0; 2 * PI / 3]) /\
  rotated_convergence 1 (PI / 2) [cos (PI / 6); sin (PI / 6)] [cos (PI / 6); sin (PI / 6)] plane = Ok None.
Proof.
  pose proof PI_RGT_0 as HP. unfold rotated_convergence. rewrite !plane_angle by lra. cbn [bind].
  repeat match goal with |- context [norm [0; ?t]] => rewrite (norm_0t t), (Rabs_pos_eq t) by lra end.
  rewrite (proj2 (Rleb_false (PI / 2) (PI / 3))), (proj2 (Rleb_true (PI / 2) (2 * PI / 3))), (proj2 (Rleb_false (PI / 2) (PI / 6))) by lra.
  replace (vsub [0; PI / 3] [0; PI / 6]) with [0; PI / 6] by (unfold vsub, vscale; simpl; f_equal; [ring|f_equal; field]).
  replace (vsub [0; PI / 6] [0; PI / 6]) with [0; 0] by (unfold vsub, vscale; simpl; f_equal; [ring|f_equal; field]).
  rewrite !norm_0t, Rabs_R0, (Rabs_pos_eq (PI / 6)) by lra. destruct (Req_EM_T 0 0); [|lra].
  destruct (Req_EM_T (PI / 6) 0); [lra|]. split; [|auto]. rewrite circle_far_line, Rabs_pos_eq by lra.
  replace (PI / 2 * (PI / 6 / (PI / 6))) with (PI / 2) by (field; lra).
  replace (vsub [0; PI / 2] [0; PI / 6]) with [0; PI / 3] by (unfold vsub, vscale; simpl; f_equal; [ring|f_equal; field]).
  rewrite norm_0t, Rabs_pos_eq by lra. unfold fdiv. destruct (Req_EM_T _ 0); [lra|]. cbn [bind].
  unfold directional_deviation_weight. replace (PI / 6 / (PI / 3)) with (1/2) by (field; lra).
  rewrite (proj2 (Rleb_false (1/2) 0)), (proj2 (Rleb_false 1 (1/2))), (proj2 (Rleb_true 1 1)) by lra. cbn [orb bind].
  do 2 f_equal. unfold vadd, vscale. simpl. f_equal; [ring|]. f_equal. field.
Qed.

(** ** C147 *)
Lemma along_sq c d t : length c = length d ->
  dot (vadd c (vscale t d)) (vadd c (vscale t d)) = dot d d * t * t + 2 * dot d c * t + dot c c.
Proof. intros L. rewrite dot_vadd_l, !dot_vadd_r, !dot_vscale_l, !dot_vscale_r, (dot_comm c d). ring. Qed.
Lemma norm_lt_sq a r : 0 <= r -> (norm a < r <-> dot a a < r * r).
Proof.
  intros Hr. rewrite <- norm_sq. pose proof (norm_nonneg a). split; intros H0.
  - apply Rmult_le_0_lt_compat; auto.
  - destruct (Rlt_le_dec (norm a) r); auto. assert (r * r <= norm a * norm a) by (apply Rmult_le_compat; auto). lra.
Qed.
Lemma norm_gt_sq a r : 0 <= r -> (r < norm a <-> r * r < dot a a).
Proof.
  intros Hr. rewrite <- norm_sq. pose proof (norm_nonneg a). split; intros H0.
  - apply Rmult_le_0_lt_compat; auto.
  - destruct (Rlt_le_dec r (norm a)); auto. assert (norm a * norm a <= r * r) by (apply Rmult_le_compat; auto). lra.
Qed.
Lemma norm_eq_sq a r : 0 <= r -> dot a a = r * r -> norm a = r.
Proof. intros Hr E. unfold norm. rewrite E. apply sqrt_square. auto. Qed.

(** A line through the inside of the circle meets it twice, around every inside point. *)
Lemma circle_both_meets c d r t : length c = length d -> 0 <= r -> dot d d <> 0 -> norm (vadd c (vscale t d)) < r ->
  exists t0 t1, circle_both c d r = Ok (Some (vadd c (vscale t0 d), vadd c (vscale t1 d))) /\ t0 < t < t1 /\
    forall x, dot (vadd c (vscale x d)) (vadd c (vscale x d)) - r * r = dot d d * ((x - t0) * (x - t1)).
Proof.
  intros L Hr Nd H. apply norm_lt_sq in H; auto. rewrite along_sq in H by auto. unfold circle_both.
  set (A := dot d d) in *. set (B := 2 * dot d c) in *. set (C := dot c c - r * r). set (D := B * B - 4 * A * C).
  assert (PA : 0 < A) by (pose proof (dot_self_nonneg d); unfold A in *; lra).
  destruct (Req_EM_T A 0); [contradiction|].
  assert (Q : (2 * A * t + B) * (2 * A * t + B) < D).
  { unfold D. assert (A * (A * t * t + B * t + C) < 0) by (assert (A * t * t + B * t + C < 0) by (unfold C; lra); nra). nra. }
  pose proof (Rle_0_sqr (2 * A * t + B)) as S0. unfold Rsqr in S0.
  rewrite (proj2 (Rltb_false D 0)) by lra.
  assert (RD : Rabs (2 * A * t + B) < sqrt D).
  { rewrite <- sqrt_Rsqr_abs. apply sqrt_lt_1; unfold Rsqr; lra. }
  apply Rabs_def2 in RD. assert (SS : sqrt D * sqrt D = D) by (apply sqrt_sqrt; lra).
  exists ((- B - sqrt D) / (2 * A)), ((- B + sqrt D) / (2 * A)). split; auto. split.
  - split; apply Rmult_lt_reg_r with (2 * A); try lra; unfold Rdiv; rewrite Rmult_assoc, Rinv_l by lra; lra.
  - intros x. rewrite along_sq by auto. fold A B.
    replace (A * ((x - (- B - sqrt D) / (2 * A)) * (x - (- B + sqrt D) / (2 * A))))
      with (A * x * x + B * x + (B * B - sqrt D * sqrt D) / (4 * A)) by (field; lra).
    rewrite SS. unfold D, C. field. lra.
Qed.
(** A line outside of the circle does not meet it. *)
Lemma circle_both_misses c d r : length c = length d -> dot d d <> 0 ->
  (forall t, r * r < dot (vadd c (vscale t d)) (vadd c (vscale t d))) -> circle_both c d r = Ok None.
Proof.
  intros L Nd H. unfold circle_both.
  set (A := dot d d) in *. set (B := 2 * dot d c). set (C := dot c c - r * r). set (D := B * B - 4 * A * C).
  assert (PA : 0 < A) by (pose proof (dot_self_nonneg d); unfold A in *; lra).
  destruct (Req_EM_T A 0); [contradiction|]. rewrite (proj2 (Rltb_true D 0)); auto.
  specialize (H (- B / (2 * A))). rewrite along_sq in H by auto. fold A B in H.
  replace (A * (- B / (2 * A)) * (- B / (2 * A)) + B * (- B / (2 * A)) + dot c c) with (dot c c - B * B / (4 * A)) in H by (field; lra).
  unfold D, C. apply Rmult_lt_reg_r with (/ (4 * A)); [apply Rinv_0_lt_compat; lra|].
  replace ((B * B - 4 * A * (dot c c - r * r)) * / (4 * A)) with (B * B / (4 * A) - (dot c c - r * r)) by (field; lra). lra.
Qed.

(** The way between two outside directions crosses the circle: the crossing next to the
    convergence. *)
Theorem C147_crossing : forall c v r k, length c = length v -> 0 <= r <= PI -> r < norm c -> r < norm v -> 0 <= k <= 1 ->
  norm (vadd v (vscale k (vsub c v))) < r ->
  exists m, 0 < m < 1 /\ projection_of_inverted c v r = Ok (vadd v (vscale m (vsub c v))) /\
    norm (vadd v (vscale m (vsub c v))) = r /\
    forall m', m < m' <= 1 -> r < norm (vadd v (vscale m' (vsub c v))).
Proof.
  intros c v r k L Hr Hc Hv Hk Hin. set (d := vsub c v).
  assert (Ld : length c = length d) by (unfold d; autorewrite with vlen; lia).
  assert (Sh : forall t, vadd c (vscale (t - 1) d) = vadd v (vscale t d)) by (intros t; unfold d; vext; ring).
  fold d in Hin. rewrite <- Sh in Hin.
  assert (Nd : dot d d <> 0).
  { intros Z. assert (E : c = v) by (apply dot_vsub_self_eq; auto). subst v.
    replace (vadd c (vscale (k - 1) d)) with c in Hin by (unfold d; vext; ring). lra. }
  pose proof (dot_self_nonneg d) as Pd. assert (PA : 0 < dot d d) by lra.
  destruct (circle_both_meets c d r (k - 1) Ld ltac:(lra) Nd Hin) as (t0 & t1 & E & Ht & F).
  assert (F0 := F 0). assert (F1 := F (-1)).
  replace (vadd c (vscale 0 d)) with c in F0 by (vext; ring).
  replace (vadd c (vscale (-1) d)) with v in F1 by (unfold d; vext; ring).
  apply norm_gt_sq in Hc; [|lra]. apply norm_gt_sq in Hv; [|lra].
  assert (G0 : 0 < (0 - t0) * (0 - t1)).
  { apply Rmult_lt_reg_l with (dot d d); auto. rewrite Rmult_0_r. lra. }
  assert (G1 : 0 < (-1 - t0) * (-1 - t1)).
  { apply Rmult_lt_reg_l with (dot d d); auto. rewrite Rmult_0_r. lra. }
  assert (K1 : t1 < 0) by (destruct (Rlt_le_dec t1 0); auto; nra).
  assert (K0 : -1 < t0) by (destruct (Rlt_le_dec (-1) t0); auto; nra).
  assert (Nt : forall x, (x - t0) * (x - t1) = 0 -> norm (vadd c (vscale x d)) = r).
  { intros x Z. apply norm_eq_sq; [lra|]. pose proof (F x) as Fx. rewrite Z in Fx. lra. }
  exists (t1 + 1). split; [lra|].
  assert (N1 : norm (vadd v (vscale (t1 + 1) d)) = r).
  { rewrite <- Sh. replace (t1 + 1 - 1) with t1 by ring. apply Nt. ring. }
  split; [|split; auto].
  - unfold projection_of_inverted. rewrite <- norm_gt_sq in Hc, Hv by lra.
    rewrite !(proj2 (Rleb_false _ _)) by lra. fold d. rewrite E. cbn [bind].
    replace (vsub (vadd c (vscale t0 d)) (vadd c (vscale t1 d))) with (vscale (t0 - t1) d) by (vext; ring).
    replace (vsub c (vadd c (vscale t0 d))) with (vscale (- t0) d) by (vext; ring).
    rewrite !norm_vscale, (Rabs_left (t0 - t1)), (Rabs_pos_eq (- t0)) by lra.
    assert (Nn : norm d <> 0) by (intros Z; apply Nd, norm_eq_0_dot; auto).
    unfold fdiv. destruct (Req_EM_T (- t0 * norm d) 0) as [Z|_].
    { exfalso. apply Rmult_integral in Z. destruct Z; [lra|contradiction]. }
    cbn [bind]. replace (- (t0 - t1) * norm d / (- t0 * norm d)) with ((t0 - t1) / t0) by (field; split; auto; lra).
    replace (vadd (vscale (1 - (t0 - t1) / t0) (vadd c (vscale t0 d))) (vscale ((t0 - t1) / t0) c)) with (vadd v (vscale (t1 + 1) d)).
    2:{ unfold d. vext. field. lra. }
    rewrite N1, (proj2 (Rltb_false _ _)) by lra. auto.
  - intros m' Hm. rewrite <- Sh. apply norm_gt_sq; [lra|]. pose proof (F (m' - 1)) as Fx.
    assert (0 < (m' - 1 - t0) * (m' - 1 - t1)) by (apply Rmult_lt_0_compat; lra).
    assert (0 < dot d d * ((m' - 1 - t0) * (m' - 1 - t1))) by (apply Rmult_lt_0_compat; auto). lra.
Qed.
(** The way misses the circle: the convergence itself. *)
Theorem C147_missing : forall c v r, length c = length v -> 0 <= r -> c <> v ->
  (forall k, r < norm (vadd v (vscale k (vsub c v)))) -> projection_of_inverted c v r = Ok c.
Proof.
  intros c v r L Hr N H. unfold projection_of_inverted.
  assert (Hv := H 0). replace (vadd v (vscale 0 (vsub c v))) with v in Hv by (vext; ring).
  assert (Hc := H 1). replace (vadd v (vscale 1 (vsub c v))) with c in Hc by (vext; ring).
  rewrite !(proj2 (Rleb_false _ _)) by lra. rewrite circle_both_misses; auto; [autorewrite with vlen; lia| |].
  - intros Z. apply N, dot_vsub_self_eq; auto.
  - intros t. apply norm_gt_sq; auto. replace (vadd c (vscale t (vsub c v))) with (vadd v (vscale (t + 1) (vsub c v))) by (vext; ring). auto.
Qed.

(** The far point of a line does not depend on where the line starts. *)
Lemma circle_far_shift n c v r : length c = n -> length v = n ->
  circle_far c (vsub c v) r = circle_far v (vsub c v) r.
Proof.
  intros L1 L2. unfold circle_far. set (d := vsub c v).
  assert (E1 : dot d c = dot d d + dot d v) by (unfold d; rewrite !dot_vsub_l, !dot_vsub_r; ring).
  assert (E2 : dot c c = dot d d + 2 * dot d v + dot v v) by (unfold d; rewrite !dot_vsub_l, !dot_vsub_r, (dot_comm v c); ring).
  replace (2 * dot d c * (2 * dot d c) - 4 * dot d d * (dot c c - r * r))
    with (2 * dot d v * (2 * dot d v) - 4 * dot d d * (dot v v - r * r)) by (rewrite E1, E2; ring).
  destruct (Rltb _ 0) eqn:ED; auto. f_equal. apply Rltb_false in ED.
  destruct (Req_dec (dot d d) 0) as [Z|NZ].
  - assert (c = v) by (apply dot_vsub_self_eq; [congruence|auto]). subst v. auto.
  - rewrite E1. set (q := sqrt _).
    replace ((- (2 * (dot d d + dot d v)) + q) / (2 * dot d d)) with ((- (2 * dot d v) + q) / (2 * dot d d) - 1) by (field; auto).
    set (t := (- (2 * dot d v) + q) / (2 * dot d d)). clearbody t. unfold d. vext. ring.
Qed.
(** With the nonlinear direction inside the circle the convergence is kept; with only the convergence
    inside, the result is the point of the circle behind it. *)
Theorem C147_inside : forall n c v r, length c = n -> length v = n -> 0 <= r ->
  (norm v <= r -> projection_of_inverted c v r = Ok c) /\
  (r < norm v -> norm c <= r -> exists m, 1 <= m /\ projection_of_inverted c v r = Ok (vadd v (vscale m (vsub c v))) /\
     norm (vadd v (vscale m (vsub c v))) = r).
Proof.
  intros n c v r La Lb Hr. unfold projection_of_inverted. split.
  - intros H. rewrite (proj2 (Rleb_true _ _)) by auto. auto.
  - intros Hv Hc. assert (Nd : norm (vsub c v) <> 0).
    { intros Z. apply norm_vsub_0 in Z; [|congruence]. subst v. lra. }
    destruct (circle_far_spec n c v r La Lb Nd Hr Hc) as (s & Hs & Ef & Nf & _).
    assert (Ff : circle_far c (vsub c v) r = Some (vadd c (vscale s (vsub c v)))).
    { rewrite <- Ef. apply (circle_far_shift n); auto. }
    assert (Sh : vadd c (vscale s (vsub c v)) = vadd v (vscale (1 + s) (vsub c v))) by (vext; ring).
    exists (1 + s). split; [lra|]. rewrite (proj2 (Rleb_false _ _)), (proj2 (Rleb_true _ _)) by auto. rewrite Ff, <- Sh. auto.
Qed.
Lemma combine_norm u p v : 0 <= u <= 1 -> norm p < norm v -> 0 < u -> norm (vadd (vscale u p) (vscale (1 - u) v)) < norm v.
Proof.
  intros Hu Hp P. eapply Rle_lt_trans; [apply norm_triangle|]. rewrite !norm_vscale, !Rabs_pos_eq by lra.
  assert (u * norm p < u * norm v) by (apply Rmult_lt_compat_l; lra). lra.
Qed.
Lemma inverted_out n b a : base_ok n b -> length a = n -> dot (bs0 (base_opp b)) a = 0 ->
  unitv (vector_from_angle (bs0 (base_opp b)) a) /\ dot (bs0 b) (vector_from_angle (bs0 (base_opp b)) a) = - cos (norm a).
Proof.
  intros B La O. destruct (vector_from_angle_ok n (base_opp b) a (base_opp_ok n b B) La O) as (_ & U & E). split; auto.
  rewrite <- E. cbn [bs0 base_opp]. rewrite dot_vscale_l. ring.
Qed.
Lemma inverted_share c v r w : 0 <= r -> r < v -> 0 < w <= 1 -> 0 < nonlinear_inverted_weight c v r w <= w.
Proof.
  intros Hr Hv Hw. destruct (C138_inverted c v r w ltac:(lra)) as (A & _ & B & C & _).
  destruct (Rle_dec c r) as [L|L]; [rewrite (B Hv L); lra|]. apply Rnot_le_lt in L. specialize (C Hv L).
  split; [|lra]. destruct A as [[A|A] _]; auto. exfalso. rewrite <- A in C. assert (0 < w * (v - r)) by (apply Rmult_lt_0_compat; lra). lra.
Qed.

(** Directions turned away far enough are kept, and without weight all.  Otherwise the result lies
    on the line through both, is turned farther from the base direction, and with a full weight
    and a convergence on the other side of the circle as far as the circle. *)
Theorem C147_projected : forall n b conv nonl w rad c v, (2 <= n)%nat -> base_ok n b -> length conv = n -> length nonl = n ->
  unitv conv -> unitv nonl -> 0 <= w <= 1 -> 0 <= rad <= PI ->
  angle_of_dir n (base_opp b) conv c -> angle_of_dir n (base_opp b) nonl v ->
  (dot (bs0 b) nonl <= cos rad \/ w = 0 -> projected_nonlinear conv nonl w rad b = Ok nonl) /\
  (cos rad < dot (bs0 b) nonl -> 0 < w ->
     dot (bs0 b) conv <= cos rad \/ (exists k, 0 <= k <= 1 /\ norm (vadd v (vscale k (vsub c v))) < PI - rad) ->
     exists m, 0 < m /\ let out := vector_from_angle (bs0 (base_opp b)) (vadd v (vscale m (vsub c v))) in
       projected_nonlinear conv nonl w rad b = Ok out /\ unitv out /\
       dot (bs0 b) out < dot (bs0 b) nonl /\
       (cos rad < dot (bs0 b) conv -> m < 1) /\
       (dot (bs0 b) conv <= cos rad -> w = 1 -> dot (bs0 b) out = cos rad)).
Proof.
  intros n b conv nonl w rad c v Hn B Lc Lv Uc Uv Hw Hr Ac Av.
  pose proof (base_opp_ok n b B) as B'. pose proof B as (L0 & L1 & U0 & U1 & O). pose proof B' as (L0' & L1' & U0' & U1' & O').
  assert (Nc : norm conv <> 0) by (rewrite (proj1 (unit_norm _) Uc); lra).
  assert (Nv : norm nonl <> 0) by (rewrite (proj1 (unit_norm _) Uv); lra).
  assert (Ein : forall x a, length x = n -> unitv x -> angle_of_dir n (base_opp b) x a -> angle_in (base_opp b) x = Ok a).
  { intros x a Lx Ux Aa. assert (Nx : norm x <> 0) by (rewrite (proj1 (unit_norm _) Ux); lra).
    destruct (angle_in_ok n (base_opp b) x Hn B' Lx Nx) as (a' & E & Aa'). rewrite (dirof_of_unit x Ux) in Aa'.
    rewrite E, (ad_def _ _ _ _ Aa), (ad_def _ _ _ _ Aa'). auto. }
  assert (Ev := Ein nonl v Lv Uv Av). assert (Ec := Ein conv c Lc Uc Ac). clear Ein.
  assert (Side : forall x a, length x = n -> unitv x -> angle_of_dir n (base_opp b) x a -> dot (bs0 b) x = - cos (norm a) /\ 0 <= norm a <= PI).
  { intros x a Lx Ux Aa. rewrite (ad_norm _ _ _ _ Aa). pose proof (unit_dot_bounds _ _ U0' Ux) as Bx. rewrite cos_acos by auto.
    split; [cbn [bs0 base_opp]; rewrite dot_vscale_l; ring|apply acos_bound]. }
  destruct (Side nonl v Lv Uv Av) as (Sv & Pv). destruct (Side conv c Lc Uc Ac) as (Sc & Pc). clear Side.
  assert (Cr : cos rad = - cos (PI - rad)) by (rewrite Rtrigo_facts.cos_pi_minus; ring).
  set (r := PI - rad) in *. assert (Pr : 0 <= r <= PI) by (unfold r; lra).
  assert (Iff : forall x, 0 <= x <= PI -> (- cos x <= - cos r <-> x <= r)).
  { intros x Hx. split; intros H.
    - destruct (Rle_dec x r); auto. exfalso. assert (cos x < cos r) by (apply cos_decreasing_1; lra). lra.
    - destruct H as [H| ->]; [|lra]. assert (cos r < cos x) by (apply cos_decreasing_1; lra). lra. }
  rewrite Cr, Sv, Sc. unfold projected_nonlinear. rewrite Ev, Ec. cbn [bind]. fold r. split.
  - intros H. destruct (Rleb (norm v) r) eqn:E; auto. apply Rleb_false in E. destruct H as [H| ->].
    { apply Iff in H; auto. lra. }
    destruct (C138_inverted (norm c) (norm v) r 0 ltac:(lra)) as ([Q1 Q2] & _).
    destruct (Req_EM_T (nonlinear_inverted_weight (norm c) (norm v) r 0) 0); auto. lra.
  - intros Hv Pw H. assert (Hv' : r < norm v).
    { destruct (Rlt_le_dec r (norm v)) as [|X]; auto. apply Iff in X; auto. lra. }
    rewrite (proj2 (Rleb_false _ _)) by auto. pose proof (inverted_share (norm c) (norm v) r w (proj1 Pr) Hv' ltac:(lra)) as Hu.
    destruct (C138_inverted (norm c) (norm v) r w ltac:(lra)) as (_ & _ & Full & _).
    set (u := nonlinear_inverted_weight (norm c) (norm v) r w) in *.
    destruct (Req_EM_T u 0); [lra|].
    pose proof (ad_len _ _ _ _ Ac) as La. pose proof (ad_len _ _ _ _ Av) as Lb.
    pose proof (ad_perp _ _ _ _ Ac) as Oa. pose proof (ad_perp _ _ _ _ Av) as Ob.
    assert (Fin : forall m, length (vadd v (vscale m (vsub c v))) = n /\ dot (bs0 (base_opp b)) (vadd v (vscale m (vsub c v))) = 0).
    { intros m. split; [autorewrite with vlen; lia|]. rewrite dot_vadd_r, dot_vscale_r, dot_vsub_r, Oa, Ob. ring. }
    assert (Main : forall k, 0 < k -> projection_of_inverted c v r = Ok (vadd v (vscale k (vsub c v))) ->
        norm (vadd v (vscale k (vsub c v))) = r -> (r < norm c -> k < 1) ->
        exists m, 0 < m /\ let out := vector_from_angle (bs0 (base_opp b)) (vadd v (vscale m (vsub c v))) in
          (do inv_proj <- projection_of_inverted c v r;
           Ok (vector_from_angle (bs0 (base_opp b)) (vadd (vscale u inv_proj) (vscale (1 - u) v)))) = Ok out /\ unitv out /\
          dot (bs0 b) out < - cos (norm v) /\ (- cos r < - cos (norm c) -> m < 1) /\
          (- cos (norm c) <= - cos r -> w = 1 -> dot (bs0 b) out = - cos r)).
    { intros k Hk Ep Np Hk1. exists (u * k). split; [apply Rmult_lt_0_compat; lra|]. cbv zeta. rewrite Ep. cbn [bind].
      assert (Em : vadd (vscale u (vadd v (vscale k (vsub c v)))) (vscale (1 - u) v) = vadd v (vscale (u * k) (vsub c v))) by (vext; ring).
      rewrite Em. split; auto. destruct (Fin (u * k)) as (Lm & Om). destruct (inverted_out n b _ B Lm Om) as (Uo & Eo).
      split; auto. rewrite Eo.
      assert (Lt : norm (vadd v (vscale (u * k) (vsub c v))) < norm v).
      { rewrite <- Em. apply combine_norm; lra. }
      pose proof (norm_nonneg (vadd v (vscale (u * k) (vsub c v)))) as Pm.
      split; [assert (cos (norm v) < cos (norm (vadd v (vscale (u * k) (vsub c v))))) by (apply cos_decreasing_1; lra); lra|].
      split.
      - intros X. assert (r < norm c).
        { destruct (Rlt_le_dec r (norm c)) as [|Y]; auto. apply Iff in Y; auto. lra. }
        specialize (Hk1 H0). assert (u * k <= 1 * k) by (apply Rmult_le_compat_r; lra). lra.
      - intros X ->. apply Iff in X; auto. replace u with 1 by (symmetry; apply Full; auto). rewrite Rmult_1_l, Np. auto. }
    assert (Ncv : norm v <= r -> False) by lra.
    destruct (Rle_dec (norm c) r) as [Ic|Oc].
    + assert (Nd : norm (vsub c v) <> 0).
      { intros Z. apply norm_vsub_0 in Z; [|congruence]. subst v. lra. }
      destruct (circle_far_spec n c v r La Lb Nd (proj1 Pr) Ic) as (s & Hs & Ef & Nf & _).
      assert (Ff : circle_far c (vsub c v) r = Some (vadd c (vscale s (vsub c v)))).
      { rewrite <- Ef. apply (circle_far_shift n); auto. }
      assert (Sh : vadd c (vscale s (vsub c v)) = vadd v (vscale (1 + s) (vsub c v))) by (vext; ring).
      apply (Main (1 + s)); [lra| |rewrite <- Sh; auto|intros; lra].
      unfold projection_of_inverted. rewrite (proj2 (Rleb_false _ _)), (proj2 (Rleb_true _ _)) by auto. rewrite Ff, Sh. auto.
    + apply Rnot_le_lt in Oc. destruct H as [H|(k & Hk & Hin)].
      { apply Iff in H; auto. lra. }
      destruct (C147_crossing c v r k ltac:(congruence) Pr Oc Hv' Hk Hin) as (m & Hm & Em & Nm & _).
      apply (Main m); auto; lra.
Qed.

Lemma plane_opp_angle t : - PI < t < PI -> angle_in (base_opp plane) [- cos t; sin t] = Ok [0; t].
Proof.
  intros H. assert (E := plane_angle t H). unfold angle_in in *. rewrite plane_unit in E.
  assert (N : norm [- cos t; sin t] = 1).
  { apply unit_norm. unfold unitv, dot. simpl. pose proof (sin2_cos2 t) as S. unfold Rsqr in S. lra. }
  rewrite N. destruct (Req_EM_T 1 0); [lra|]. injection E as E. f_equal. rewrite <- E. cbn [bs0 bs1 base_opp plane].
  unfold angle_space.
  replace (dot (vscale (-1) [1; 0]) (vdiv [- cos t; sin t] 1)) with (dot [1; 0] (vdiv [cos t; sin t] 1)) by (unfold dot, vdiv, vscale; simpl; field).
  replace (vsub (vdiv [- cos t; sin t] 1) (vscale (dot [1; 0] (vdiv [cos t; sin t] 1)) (vscale (-1) [1; 0])))
    with (vsub (vdiv [cos t; sin t] 1) (vscale (dot [1; 0] (vdiv [cos t; sin t] 1)) [1; 0])).
  2:{ unfold dot, vsub, vdiv, vscale. simpl. f_equal; [field|f_equal; field]. }
  set (p := vsub _ _). destruct (Req_EM_T (norm p) 0) as [Z|]; auto.
  destruct (Rltb (dot [1; 0] (vdiv [cos t; sin t] 1)) 0) eqn:S.
  2:{ change (Rltb (dot [1; 0] [/ 1 * cos t; / 1 * sin t]) 0 = false) in S. rewrite S. auto. }
  exfalso. apply Rltb_true in S. unfold p, dot, vsub, vdiv, vscale in Z, S. simpl in Z, S.
  apply norm_eq_0_dot in Z. unfold dot in Z. simpl in Z.
  assert (St : sin t = 0) by nra. pose proof (sin2_cos2 t) as Q. unfold Rsqr in Q.
  destruct (Req_dec t 0) as [->|Nt]; [rewrite cos_0 in S; lra|]. pose proof (sin_side t Nt H). rewrite St in *. lra.
Qed.
Lemma vector_from_0t t : vector_from_angle (bs0 (base_opp plane)) [0; t] = [- cos t; sin t].
Proof.
  unfold vector_from_angle. rewrite norm_0t. cbn [bs0 base_opp plane]. destruct (Req_EM_T (Rabs t) 0) as [Z|N].
  - assert (t = 0) by (destruct (Req_dec t 0); auto; exfalso; apply (Rabs_no_R0 t); auto). subst. rewrite cos_0, sin_0.
    unfold vscale. simpl. f_equal; [ring|f_equal; ring].
  - unfold vadd, vscale. simpl. assert (Nt : t <> 0) by (intros ->; apply N, Rabs_R0).
    f_equal; [|f_equal].
    + unfold Rabs. destruct (Rcase_abs t); [rewrite cos_neg|]; ring.
    + unfold Rabs. destruct (Rcase_abs t); [rewrite sin_neg|]; field; auto.
Qed.
(** Two directions on a line through the middle, the convergence inside of the circle. *)
Lemma plane_projected w x y : 0 < w -> PI / 2 < y < PI -> 0 <= x <= PI / 2 ->
  projected_nonlinear [- cos x; sin x] [- cos y; sin y] w (PI / 2) plane =
    Ok [- cos (y - w * (y + PI / 2)); sin (y - w * (y + PI / 2))].
Proof.
  intros Hw Hy Hx. pose proof PI_RGT_0 as HP. unfold projected_nonlinear. rewrite !plane_opp_angle by lra. cbn [bind].
  rewrite !norm_0t, !Rabs_pos_eq by lra. replace (PI - PI / 2) with (PI / 2) by field.
  rewrite (proj2 (Rleb_false y (PI / 2))) by lra. unfold nonlinear_inverted_weight.
  rewrite (proj2 (Rleb_false y (PI / 2))), (proj2 (Rleb_true x (PI / 2))) by lra. destruct (Req_EM_T w 0); [lra|].
  unfold projection_of_inverted. rewrite !norm_0t, !Rabs_pos_eq by lra.
  rewrite (proj2 (Rleb_false y (PI / 2))), (proj2 (Rleb_true x (PI / 2))) by lra.
  replace (vsub [0; x] [0; y]) with [0; x - y] by (unfold vsub, vscale; simpl; f_equal; [ring|f_equal; ring]).
  rewrite circle_far_line, Rabs_left by lra. cbn [bind]. f_equal. rewrite <- vector_from_0t. f_equal.
  unfold vadd, vscale. simpl. f_equal; [ring|]. f_equal. field. lra.
Qed.
(** A full weight turns the direction beyond the convergence to the opposite side, a smaller one
    farther away from the base direction than a full one. *)
Theorem C147_between_refuted : exists x y, PI / 2 < y < PI /\ 0 < x < PI / 2 /\
  projected_nonlinear [- cos x; sin x] [- cos y; sin y] 1 (PI / 2) plane = Ok [- cos (- (PI / 2)); sin (- (PI / 2))] /\
  projected_nonlinear [- cos x; sin x] [- cos y; sin y] (1/2) (PI / 2) plane = Ok [- cos (PI / 8); sin (PI / 8)] /\
  - cos (PI / 8) < - cos (- (PI / 2)).
Proof.
  pose proof PI_RGT_0 as HP. exists (PI / 4), (3 * PI / 4). split; [lra|]. split; [lra|]. rewrite !plane_projected by lra.
  replace (3 * PI / 4 - 1 * (3 * PI / 4 + PI / 2)) with (- (PI / 2)) by field.
  replace (3 * PI / 4 - 1 / 2 * (3 * PI / 4 + PI / 2)) with (PI / 8) by field. split; auto. split; auto.
  rewrite cos_neg, cos_PI2. assert (0 < cos (PI / 8)) by (apply cos_gt_0; lra). lra.
Qed.
(** With the circle behind the convergence, the projection raises. *)
Theorem C147_raises_refuted : exists x y, PI / 2 < x < y /\ y < PI /\
  projected_nonlinear [- cos x; sin x] [- cos y; sin y] 1 (PI / 2) plane = Err ENotImpl.
Proof.
  pose proof PI_RGT_0 as HP. exists (3 * PI / 5), (4 * PI / 5). split; [lra|]. split; [lra|].
  unfold projected_nonlinear. rewrite !plane_opp_angle by lra. cbn [bind].
  rewrite !norm_0t, !Rabs_pos_eq by lra. replace (PI - PI / 2) with (PI / 2) by field.
  rewrite (proj2 (Rleb_false _ (PI / 2))) by lra. unfold nonlinear_inverted_weight.
  rewrite (proj2 (Rleb_false (4 * PI / 5) (PI / 2))), (proj2 (Rleb_false (3 * PI / 5) (PI / 2))) by lra.
  destruct (Req_EM_T _ 0) as [Z|_].
  { exfalso. replace (1 * (4 * PI / 5 - PI / 2) / (4 * PI / 5 - PI / 2 + (3 * PI / 5 - PI / 2))) with (3/4) in Z by (field; lra). lra. }
  unfold projection_of_inverted. rewrite !norm_0t, !Rabs_pos_eq by lra.
  rewrite !(proj2 (Rleb_false _ (PI / 2))) by lra.
  replace (vsub [0; 3 * PI / 5] [0; 4 * PI / 5]) with [0; - (PI / 5)] by (unfold vsub, vscale; simpl; f_equal; [ring|f_equal; field]).
  unfold circle_both.
  replace (dot [0; - (PI / 5)] [0; - (PI / 5)]) with (PI / 5 * (PI / 5)) by (unfold dot; simpl; ring).
  replace (dot [0; - (PI / 5)] [0; 3 * PI / 5]) with (- (3 * (PI / 5) * (PI / 5))) by (unfold dot; simpl; field).
  replace (dot [0; 3 * PI / 5] [0; 3 * PI / 5]) with (9 * (PI / 5) * (PI / 5)) by (unfold dot; simpl; field).
  set (p := PI / 5). assert (Pp : 0 < p) by (unfold p; lra). replace PI with (5 * p) by (unfold p; field).
  replace (2 * - (3 * p * p) * (2 * - (3 * p * p)) - 4 * (p * p) * (9 * p * p - 5 * p / 2 * (5 * p / 2))) with ((5 * p * p) * (5 * p * p)) by field.
  destruct (Req_EM_T (p * p) 0) as [Z|_]; [exfalso; nra|].
  assert (P2 : 0 <= 5 * p * p) by nra. rewrite (proj2 (Rltb_false _ 0)) by (apply Rle_0_sqr). rewrite sqrt_square by auto.
  cbn [bind].
  replace (vadd [0; 3 * (5 * p) / 5] (vscale ((- (2 * - (3 * p * p)) - 5 * p * p) / (2 * (p * p))) [0; - p])) with [0; 5 / 2 * p].
  2:{ unfold vadd, vscale. simpl. f_equal; [ring|f_equal; field; lra]. }
  replace (vadd [0; 3 * (5 * p) / 5] (vscale ((- (2 * - (3 * p * p)) + 5 * p * p) / (2 * (p * p))) [0; - p])) with [0; - (5 / 2) * p].
  2:{ unfold vadd, vscale. simpl. f_equal; [ring|f_equal; field; lra]. }
  replace (vsub [0; 5 / 2 * p] [0; - (5 / 2) * p]) with [0; 5 * p] by (unfold vsub, vscale; simpl; f_equal; [ring|f_equal; field]).
  replace (vsub [0; 3 * (5 * p) / 5] [0; 5 / 2 * p]) with [0; p / 2] by (unfold vsub, vscale; simpl; f_equal; [ring|f_equal; field]).
  rewrite !norm_0t, !Rabs_pos_eq by lra. unfold fdiv. destruct (Req_EM_T (p / 2) 0); [lra|]. cbn [bind].
  replace (vadd (vscale (1 - 5 * p / (p / 2)) [0; 5 / 2 * p]) (vscale (5 * p / (p / 2)) [0; 3 * (5 * p) / 5])) with [0; 15 / 2 * p].
  2:{ unfold vadd, vscale. simpl. f_equal; [ring|f_equal; field; lra]. }
  rewrite norm_0t, Rabs_pos_eq, (proj2 (Rltb_true _ _)) by lra. auto.
Qed.
Example C147_case :
  projected_nonlinear [- cos 0; sin 0] [- cos (3 * PI / 4); sin (3 * PI / 4)] (1/5) (PI / 2) plane = Ok [- cos (PI / 2); sin (PI / 2)] /\
  projected_nonlinear [- cos 0; sin 0] [- cos (PI / 3); sin (PI / 3)] 1 (PI / 2) plane = Ok [- cos (PI / 3); sin (PI / 3)].
Proof.
  pose proof PI_RGT_0 as HP. split.
  - rewrite plane_projected by lra. replace (3 * PI / 4 - 1 / 5 * (3 * PI / 4 + PI / 2)) with (PI / 2) by field. auto.
  - unfold projected_nonlinear. rewrite plane_opp_angle by lra. cbn [bind]. rewrite norm_0t, Rabs_pos_eq, (proj2 (Rleb_true _ _)) by lra. auto.
Qed.
Print Assumptions C146_rotated.
Print Assumptions C146_monotone.
Print Assumptions C146_away_refuted.
Print Assumptions C147_crossing.
Print Assumptions C147_missing.
Print Assumptions C147_projected.
Print Assumptions C147_between_refuted.
Print Assumptions C147_raises_refuted.
Print Assumptions C147_inside.
