(** Property C172: the weights of the obstacles change continuously. *)
Require Import Reals List Bool Lra Lia ZArith Classical_Prop.
From Verif Require Import Base Vec Angle Pow RotModel Spec RotProofs SeqProofs WeightModel WeightProofs PropWeights TreeSpec
  ProjModel PropProject AvoidModel PropTangent PropContact ContProofs PropContinuity PropJoint PropLimits.
Import ListNotations.
Open Scope R_scope.

(** ** Powers *)
Lemma cv_rpower f g a b : Un_cv f a -> Un_cv g b -> 0 < a -> Un_cv (fun j => Rpower (f j) (g j)) (Rpower a b).
Proof.
  intros A B P. unfold Rpower. apply (cv_comp exp); [apply derivable_continuous_pt, derivable_pt_exp|]. apply cv_mul; auto.
  apply (cv_comp ln); auto. apply derivable_continuous_pt. exists (/ a). apply derivable_pt_lim_ln. auto.
Qed.
Lemma cv_max1 f a : Un_cv f a -> Un_cv (fun j => Rmax 1 (f j)) (Rmax 1 a).
Proof.
  intros A e He. destruct (A e He) as (N & H). exists N. intros j Hj. specialize (H j Hj). unfold R_dist in *.
  apply Rabs_def2 in H as [H1 H2]. apply Rabs_def1; unfold Rmax; destruct (Rle_dec 1 (f j)), (Rle_dec 1 a); lra.
Qed.
(** A vanishing exponent base drives the weight to zero. *)
Lemma small_power x p e : 0 < x -> 0 < p -> 0 < e -> x < Rpower e (/ p) -> Rpower x p < e.
Proof.
  intros Hx Hp He H. apply Rlt_le_trans with (Rpower (Rpower e (/ p)) p).
  - unfold Rpower at 1. unfold Rpower at 1. apply exp_increasing. apply Rmult_lt_compat_l; auto. apply ln_increasing; auto.
  - rewrite Rpower_mult, Rinv_l, Rpower_1 by lra. lra.
Qed.
Lemma power_bound g q p : 1 < g -> 0 < q -> Rpower (/ g) (Rpower q p) <= Rpower (/ q) p / ln g.
Proof.
  intros Hg Hq. assert (L : 0 < ln g) by (rewrite <- ln_1; apply ln_increasing; lra).
  assert (E : Rpower (/ q) p = / Rpower q p).
  { unfold Rpower. rewrite ln_Rinv by auto. rewrite <- exp_Ropp. f_equal. ring. }
  rewrite E. set (z := Rpower q p). assert (Z : 0 < z) by apply exp_pos.
  unfold Rpower. rewrite ln_Rinv by lra. replace (z * - ln g) with (- (z * ln g)) by ring. rewrite exp_Ropp.
  replace (/ z / ln g) with (/ (z * ln g)) by (field; lra). apply Rinv_le_contravar; [nra|].
  pose proof (exp_ineq1_le (z * ln g)). lra.
Qed.

Lemma norm_vsub_swap a b : norm (vsub a b) = norm (vsub b a).
Proof. unfold norm. f_equal. rewrite !dot_vsub_l, !dot_vsub_r, (dot_comm a b). ring. Qed.

(** ** The weight on one side *)
Section Side.
Variables (n : nat) (pick : vec -> vec) (power : R).
Hypothesis Hpick : picks n pick.
Hypothesis Hpow : 0 <= power.
Definition gap (d r c : vec) : R := norm (vsub (angle_space pick d r) (angle_space pick d c)).
Definition room (d r : vec) : R := PI / 2 - norm (angle_space pick d r).
Definition side_weight (d r c : vec) (g : R) : R :=
  if Rle_dec g 1 then 1
  else if Rle_dec (room d r) (gap d r c) then / g
  else if Req_EM_T (gap d r c) 0 then (if Req_EM_T power 0 then / g else 0)
  else Rpower (/ g) (Rpower (room d r / gap d r c) power).
Lemma rpower_0 x : Rpower x 0 = 1.
Proof. unfold Rpower. rewrite Rmult_0_l, exp_0. auto. Qed.
Lemma gap_nonneg d r c : 0 <= gap d r c. Proof. apply norm_nonneg. Qed.
(** One formula, as long as the velocity does not point along the reference direction. *)
Lemma side_formula d r c g : gap d r c <> 0 ->
  side_weight d r c g = Rpower (/ Rmax 1 g) (Rpower (Rmax 1 (room d r / gap d r c)) power).
Proof.
  intros N. pose proof (gap_nonneg d r c). unfold side_weight. destruct (Rle_dec g 1).
  { rewrite Rmax_left by auto. rewrite Rinv_1, Rpower_base_1. auto. }
  rewrite (Rmax_right 1 g) by lra. destruct (Rle_dec (room d r) (gap d r c)) as [L|L].
  - rewrite (Rmax_left 1). { rewrite Rpower_base_1, Rpower_1; auto. apply Rinv_0_lt_compat. lra. }
    apply Rmult_le_reg_r with (gap d r c); [lra|]. unfold Rdiv. rewrite Rmult_assoc, Rinv_l; lra.
  - destruct (Req_EM_T (gap d r c) 0); [contradiction|]. rewrite (Rmax_right 1); auto.
    apply Rmult_le_reg_r with (gap d r c); [lra|]. unfold Rdiv. rewrite Rmult_assoc, Rinv_l; lra.
Qed.
Lemma side_continuous d_ r_ c_ g_ d r c g : units n d_ -> units n r_ -> units n c_ -> length d = n -> length r = n -> length c = n ->
  cvv d_ d -> cvv r_ r -> cvv c_ c -> Un_cv g_ g -> 0 < dot d r -> 0 <= dot d c -> ~ (g = 1 /\ c = r) ->
  Un_cv (fun j => side_weight (d_ j) (r_ j) (c_ j) (g_ j)) (side_weight d r c g).
Proof.
  intros Ud Ur Uc Ld Lr Lc Cd Cr Cc Cg Dr Dc NN.
  pose proof (cvv_unit n d_ d Ud Ld Cd) as U1. pose proof (cvv_unit n r_ r Ur Lr Cr) as U2. pose proof (cvv_unit n c_ c Uc Lc Cc) as U3.
  pose proof (cvv_angle n pick Hpick d_ r_ d r Ud Ur Ld Lr Cd Cr ltac:(lra)) as Ar.
  pose proof (cvv_angle n pick Hpick d_ c_ d c Ud Uc Ld Lc Cd Cc ltac:(lra)) as Ac.
  destruct (angle_space_spec n pick Hpick d r Ld Lr U1 U2) as (L1 & _ & N1). destruct (angle_space_spec n pick Hpick d c Ld Lc U1 U3) as (L2 & _).
  assert (L1_ : lenn n (fun j => angle_space pick (d_ j) (r_ j))) by (intros j; apply (angle_space_spec n pick Hpick); apply Ud || apply Ur).
  assert (L2_ : lenn n (fun j => angle_space pick (d_ j) (c_ j))) by (intros j; apply (angle_space_spec n pick Hpick); apply Ud || apply Uc).
  assert (Cgap : Un_cv (fun j => gap (d_ j) (r_ j) (c_ j)) (gap d r c)).
  { unfold gap. apply (cv_norm n); [|autorewrite with vlen; lia|apply cvv_sub; auto].
    intros j. specialize (L1_ j). specialize (L2_ j). cbv beta in *. autorewrite with vlen. lia. }
  assert (Croom : Un_cv (fun j => room (d_ j) (r_ j)) (room d r)).
  { unfold room. apply cv_sub; [apply cv_const|]. apply (cv_norm n); [intros j; rewrite (L1_ j); lia|lia|auto]. }
  assert (Rm : 0 < room d r).
  { unfold room. rewrite N1. pose proof (unit_dot_bounds d r U1 U2). pose proof (acos_bound (dot d r)).
    assert (acos (dot d r) < PI / 2); [|lra]. apply Rnot_le_lt. intros K. assert (cos (acos (dot d r)) <= cos (PI / 2)) as X.
    { destruct K as [K|K]; [left; apply cos_decreasing_1; pose proof PI_RGT_0; lra|rewrite K; lra]. }
    rewrite cos_acos, cos_PI2 in X; lra. }
  pose proof (gap_nonneg d r c) as G0.
  destruct (Req_dec (gap d r c) 0) as [Z|NZ].
  - assert (E : c = r).
    { symmetry. apply (angle_space_inj n pick Hpick d); auto. apply dot_vsub_self_eq; [lia|]. apply norm_eq_0_dot. exact Z. }
    destruct (Rtotal_order g 1) as [Hg|[Hg|Hg]]; [|tauto|].
    + destruct (cv_lt g_ (fun _ => 1) g 1 Cg (cv_const 1) Hg) as (N & HN).
      apply cv_eventually with (fun _ => 1) N; [|unfold side_weight; destruct (Rle_dec g 1); [apply cv_const|lra]].
      intros j Hj. specialize (HN j Hj). cbv beta in HN. unfold side_weight. destruct (Rle_dec (g_ j) 1); [auto|lra].
    + destruct (cv_lt (fun _ => 1) g_ 1 g (cv_const 1) Cg Hg) as (N & HN).
      destruct (cv_lt _ _ _ _ Cgap Croom ltac:(lra)) as (M & HM).
      destruct (Req_EM_T power 0) as [P0|P0].
      * apply cv_eventually with (fun j => / g_ j) (Nat.max N M).
        { intros j Hj. specialize (HN j ltac:(lia)). specialize (HM j ltac:(lia)). cbv beta in *. unfold side_weight.
          destruct (Rle_dec (g_ j) 1); [lra|]. destruct (Rle_dec _ _); [auto|]. destruct (Req_EM_T power 0); [|contradiction].
          destruct (Req_EM_T _ 0); auto. rewrite P0, rpower_0, Rpower_1; auto. apply Rinv_0_lt_compat. lra. }
        unfold side_weight. destruct (Rle_dec g 1); [lra|]. destruct (Rle_dec _ _); [apply cv_inv; auto; lra|].
        destruct (Req_EM_T _ 0); [|contradiction]. destruct (Req_EM_T power 0); [apply cv_inv; auto; lra|contradiction].
      * assert (E0 : side_weight d r c g = 0).
        { unfold side_weight. destruct (Rle_dec g 1); [lra|]. destruct (Rle_dec _ _); [lra|]. destruct (Req_EM_T _ 0); [|contradiction].
          destruct (Req_EM_T power 0); [contradiction|auto]. }
        rewrite E0.
        assert (LG : 0 < ln g) by (rewrite <- ln_1; apply ln_increasing; lra).
        assert (Cln : Un_cv (fun j => ln (g_ j)) (ln g)).
        { apply (cv_comp ln); auto. apply derivable_continuous_pt. exists (/ g). apply derivable_pt_lim_ln. lra. }
        destruct (cv_lt (fun _ => ln g / 2) _ _ _ (cv_const _) Cln ltac:(lra)) as (K & HK).
        assert (Cq : Un_cv (fun j => gap (d_ j) (r_ j) (c_ j) / room (d_ j) (r_ j)) 0).
        { replace 0 with (gap d r c / room d r) by (rewrite Z; field; lra). apply cv_div; auto. lra. }
        intros e He. set (e' := e * (ln g / 2)). assert (He' : 0 < e') by (unfold e'; nra).
        destruct (Cq (Rpower e' (/ power)) (exp_pos _)) as (Q & HQ).
        exists (Nat.max (Nat.max N M) (Nat.max K Q)). intros j Hj. specialize (HN j ltac:(lia)). specialize (HM j ltac:(lia)). specialize (HK j ltac:(lia)).
        specialize (HQ j ltac:(lia)). cbv beta in *. pose proof (gap_nonneg (d_ j) (r_ j) (c_ j)) as G1.
        unfold R_dist in *. rewrite Rminus_0_r in *. unfold side_weight. destruct (Rle_dec (g_ j) 1); [lra|]. destruct (Rle_dec _ _); [lra|].
        destruct (Req_EM_T _ 0) as [|NZj]; [destruct (Req_EM_T power 0); [contradiction|]; rewrite Rabs_R0; lra|].
        rewrite Rabs_pos_eq by (left; apply exp_pos). set (q := room (d_ j) (r_ j) / gap (d_ j) (r_ j) (c_ j)).
        assert (Hq : 0 < q) by (apply Rdiv_lt_0_compat; lra).
        apply Rle_lt_trans with (Rpower (/ q) power / ln (g_ j)); [apply power_bound; auto|].
        assert (Eq : / q = gap (d_ j) (r_ j) (c_ j) / room (d_ j) (r_ j)) by (unfold q; field; lra).
        rewrite Rabs_pos_eq in HQ by (rewrite <- Eq; left; apply Rinv_0_lt_compat; auto). rewrite <- Eq in HQ.
        pose proof (small_power (/ q) power e' (Rinv_0_lt_compat _ Hq) ltac:(lra) He' HQ) as X.
        apply Rmult_lt_reg_r with (ln (g_ j)); [lra|]. unfold Rdiv. rewrite Rmult_assoc, Rinv_l, Rmult_1_r by lra. unfold e' in X. nra.
  - destruct (cv_nonzero _ _ Cgap NZ) as (N & HN). rewrite side_formula by auto.
    apply cv_eventually with (fun j => Rpower (/ Rmax 1 (g_ j)) (Rpower (Rmax 1 (room (d_ j) (r_ j) / gap (d_ j) (r_ j) (c_ j))) power)) N.
    { intros j Hj. symmetry. apply side_formula. apply (HN j Hj). }
    apply cv_rpower.
    + apply cv_inv; [apply cv_max1; auto|]. pose proof (Rmax_l 1 g). lra.
    + apply cv_rpower; [|apply cv_const|pose proof (Rmax_l 1 (room d r / gap d r c)); lra]. apply cv_max1. apply cv_div; auto.
    + apply Rinv_0_lt_compat. pose proof (Rmax_l 1 g). lra.
Qed.
(** A velocity along the surface: the full weight of the distance. *)
Lemma side_edge d r c g : length d = n -> length r = n -> length c = n -> unitv d -> unitv r -> unitv c -> dot d c = 0 ->
  side_weight d r c g = / Rmax 1 g.
Proof.
  intros Ld Lr Lc Ud Ur Uc D. destruct (angle_space_spec n pick Hpick d r Ld Lr Ud Ur) as (L1 & _ & N1).
  destruct (angle_space_spec n pick Hpick d c Ld Lc Ud Uc) as (L2 & _ & N2). rewrite D, acos_0 in N2.
  assert (T : room d r <= gap d r c).
  { unfold room, gap. rewrite <- N2. pose proof (norm_triangle (angle_space pick d r) (vsub (angle_space pick d c) (angle_space pick d r))) as T.
    rewrite norm_vsub_swap. replace (vadd (angle_space pick d r) (vsub (angle_space pick d c) (angle_space pick d r))) with (angle_space pick d c) in T; [lra|].
    apply vec_ext; [autorewrite with vlen; lia|]. intros i. autorewrite with vnth. ring. }
  unfold side_weight. destruct (Rle_dec g 1); [rewrite Rmax_left, Rinv_1 by auto; auto|]. rewrite Rmax_right by lra.
  destruct (Rle_dec _ _); [auto|contradiction].
Qed.
Lemma weight_side nn r c g : get_rotation_weight (angle_space pick) nn r c g (PI * / 2) power (PI * / 2) =
  Ok (if Rltb 0 (dot c nn) then side_weight nn (opp r) c g else side_weight (opp nn) r c g).
Proof.
  unfold get_rotation_weight, side_weight, room, gap. replace (cos (PI * / 2)) with 0 by (symmetry; apply cos_PI2).
  rewrite Rmin_left by lra. change (PI * / 2) with (PI / 2). destruct (Rle_dec g 1); [destruct (Rltb 0 _); auto|].
  assert (Hg : 0 < 1 / g) by (apply Rdiv_lt_0_compat; lra).
  destruct (Rltb 0 (dot c nn)).
  - destruct (Rle_dec _ _) as [|L]; [f_equal; field; lra|]. destruct (Req_EM_T (norm _) 0) as [Z|NZ].
    + destruct (Req_EM_T power 0); [f_equal; field; lra|]. destruct (Rlt_dec 0 power); [auto|lra].
    + pose proof (norm_nonneg (vsub (angle_space pick nn (opp r)) (angle_space pick nn c))).
      rewrite fpow_pos by (apply Rdiv_lt_0_compat; lra). cbn [bind]. rewrite fpow_pos by auto. f_equal. f_equal. field. lra.
  - destruct (Rle_dec _ _) as [|L]; [f_equal; field; lra|]. destruct (Req_EM_T (norm _) 0) as [Z|NZ].
    + destruct (Req_EM_T power 0); [f_equal; field; lra|]. destruct (Rlt_dec 0 power); [auto|lra].
    + pose proof (norm_nonneg (vsub (angle_space pick (opp nn) r) (angle_space pick (opp nn) c))).
      rewrite fpow_pos by (apply Rdiv_lt_0_compat; lra). cbn [bind]. rewrite fpow_pos by auto. f_equal. f_equal. field. lra.
Qed.
End Side.

(** ** C172: the rotation weight *)
Theorem C172_rotation_weight : forall n pick power nn_ r_ c_ g_ nn r c g, picks n pick -> 0 <= power ->
  (forall j, length (nn_ j) = n /\ unitv (nn_ j)) -> (forall j, length (r_ j) = n /\ unitv (r_ j)) -> (forall j, length (c_ j) = n /\ unitv (c_ j)) ->
  length nn = n -> length r = n -> length c = n -> cvv nn_ nn -> cvv r_ r -> cvv c_ c -> Un_cv g_ g ->
  dot r nn < 0 -> ~ (g = 1 /\ (c = r \/ c = vscale (-1) r)) ->
  exists w_ w, (forall j, get_rotation_weight (angle_space pick) (nn_ j) (r_ j) (c_ j) (g_ j) (PI * / 2) power (PI * / 2) = Ok (w_ j)) /\
    get_rotation_weight (angle_space pick) nn r c g (PI * / 2) power (PI * / 2) = Ok w /\ Un_cv w_ w.
Proof.
  intros n pick power nn_ r_ c_ g_ nn r c g Pk Hp Un Ur Uc Ln Lr Lc Cn Cr Cc Cg Star NN.
  assert (Ln' : length (opp nn) = n) by (rewrite length_vscale; auto). assert (Lr' : length (opp r) = n) by (rewrite length_vscale; auto).
  pose proof (cvv_unit n nn_ nn Un Ln Cn) as U1. pose proof (cvv_unit n r_ r Ur Lr Cr) as U2. pose proof (cvv_unit n c_ c Uc Lc Cc) as U3.
  exists (fun j => if Rltb 0 (dot (c_ j) (nn_ j)) then side_weight pick power (nn_ j) (opp (r_ j)) (c_ j) (g_ j) else side_weight pick power (opp (nn_ j)) (r_ j) (c_ j) (g_ j)).
  exists (if Rltb 0 (dot c nn) then side_weight pick power nn (opp r) c g else side_weight pick power (opp nn) r c g).
  split; [intros j; apply weight_side; auto|]. split; [apply weight_side; auto|].
  assert (Cd : Un_cv (fun j => dot (c_ j) (nn_ j)) (dot c nn)) by (apply (cv_dot n); auto; [intros j; rewrite (proj1 (Uc j)); lia|lia]).
  assert (Out : 0 <= dot c nn -> Un_cv (fun j => side_weight pick power (nn_ j) (opp (r_ j)) (c_ j) (g_ j)) (side_weight pick power nn (opp r) c g)).
  { intros H. apply (side_continuous n pick power Pk Hp nn_ (fun j => opp (r_ j)) c_ g_ nn (opp r) c g); auto.
    - apply units_neg. auto.
    - apply cvv_neg. auto.
    - rewrite dot_vscale_r, dot_comm. lra.
    - rewrite dot_comm. auto.
    - tauto. }
  assert (Inn : dot c nn <= 0 -> Un_cv (fun j => side_weight pick power (opp (nn_ j)) (r_ j) (c_ j) (g_ j)) (side_weight pick power (opp nn) r c g)).
  { intros H. apply (side_continuous n pick power Pk Hp (fun j => opp (nn_ j)) r_ c_ g_ (opp nn) r c g); auto.
    - apply units_neg. auto.
    - apply cvv_neg. auto.
    - rewrite dot_vscale_l, dot_comm. lra.
    - rewrite dot_vscale_l, dot_comm. lra.
    - tauto. }
  destruct (Rtotal_order (dot c nn) 0) as [H|[H|H]].
  - rewrite (proj2 (Rltb_false 0 (dot c nn))) by lra. destruct (cv_lt _ (fun _ => 0) _ _ Cd (cv_const 0) H) as (N & HN).
    eapply cv_eventually with (N := N); [|apply Inn; lra]. intros j Hj. specialize (HN j Hj). cbv beta in HN. rewrite (proj2 (Rltb_false 0 _)) by lra. auto.
  - rewrite (proj2 (Rltb_false 0 (dot c nn))) by lra.
    assert (E1 : side_weight pick power (opp nn) r c g = / Rmax 1 g).
    { apply (side_edge n); auto; [apply unit_opp; auto|]. rewrite dot_vscale_l, dot_comm, H. ring. }
    assert (E2 : side_weight pick power nn (opp r) c g = / Rmax 1 g).
    { apply (side_edge n); auto; [apply unit_opp; auto|]. rewrite dot_comm, H. ring. }
    specialize (Out ltac:(lra)). specialize (Inn ltac:(lra)). rewrite E1 in *. rewrite E2 in Out.
    eapply (cv_split (fun j => 0 < dot (c_ j) (nn_ j))); [intros j; apply classic|exact Out|exact Inn|].
    exists 0%nat. intros j _. split; intros Q; [rewrite (proj2 (Rltb_true 0 _)); auto|rewrite (proj2 (Rltb_false 0 _)); auto; lra].
  - rewrite (proj2 (Rltb_true 0 (dot c nn))) by lra. destruct (cv_lt (fun _ => 0) _ _ _ (cv_const 0) Cd H) as (N & HN).
    eapply cv_eventually with (N := N); [|apply Out; lra]. intros j Hj. specialize (HN j Hj). cbv beta in HN. rewrite (proj2 (Rltb_true 0 _)) by lra. auto.
Qed.
(** Head-on against the surface: no weight at any distance, the full weight in contact. *)
Theorem C172_rotation_weight_refuted : exists nn r c, unitv nn /\ unitv r /\ unitv c /\ dot r nn < 0 /\
  forall pick, (forall j, get_rotation_weight (angle_space pick) nn r c (1 + dying j) (PI * / 2) 1 (PI * / 2) = Ok 0) /\
    get_rotation_weight (angle_space pick) nn r c 1 (PI * / 2) 1 (PI * / 2) = Ok 1 /\ Un_cv (fun j => 1 + dying j) 1.
Proof.
  exists [1; 0], [-1; 0], [-1; 0]. unfold unitv, dot. simpl. split; [ring|]. split; [ring|]. split; [ring|]. split; [lra|].
  intros pick. split; [|split].
  - intros j. pose proof (dying_range j). pose proof PI_RGT_0. rewrite weight_side by lra. rewrite (proj2 (Rltb_false 0 _)) by (unfold dot; simpl; lra).
    unfold side_weight. destruct (Rle_dec _ 1); [lra|].
    assert (G : gap pick (opp [1; 0]) [-1; 0] [-1; 0] = 0).
    { unfold gap. apply norm_eq_0_dot. rewrite dot_vsub_l, dot_vsub_r. ring. }
    rewrite G. assert (A : angle_space pick (opp [1; 0]) [-1; 0] = vzero 2).
    { unfold angle_space. cbv zeta. replace (dot (opp [1; 0]) [-1; 0]) with 1 by (unfold dot, vscale; simpl; ring).
      destruct (Req_EM_T _ 0) as [_|K]; [rewrite (proj2 (Rltb_false 1 0)) by lra; reflexivity|].
      exfalso. apply K. apply norm_eq_0_dot. unfold dot, vsub, vscale. simpl. ring. }
    unfold room. rewrite A, norm_vzero. destruct (Rle_dec _ 0); [lra|]. destruct (Req_EM_T 0 0); [|lra]. destruct (Req_EM_T 1 0); [lra|auto].
  - unfold get_rotation_weight. destruct (Rle_dec 1 1); [auto|lra].
  - pose proof (cv_add _ _ _ _ (cv_const 1) dying_cv) as Q. replace (1 + 0) with 1 in Q by ring. exact Q.
Qed.

(** ** C172: the weights of the components *)
Section Components.
Definition term (gs : list R) (k i : nat) : R := if (i =? k)%nat then 1 else Rmax 0 (nth k gs 0 - 1) / (nth i gs 0 - 1).
Definition terms (gs : list R) (k : nat) : list R := map (term gs k) (seq 0 (length gs)).
Definition others_out (gs : list R) (k : nat) : Prop := forall i, (i < length gs)%nat -> i <> k -> 1 < nth i gs 0.
Lemma terms_nth gs k i : (i < length gs)%nat -> nth i (terms gs k) 0 = term gs k i.
Proof.
  intros H. unfold terms. rewrite (nth_indep _ 0 (term gs k 0)) by (rewrite map_length, seq_length; auto).
  rewrite (map_nth (term gs k) (seq 0 (length gs)) 0%nat i), seq_nth by auto. auto.
Qed.
Lemma rsum_scale a l : rsum (map (fun x => a * x) l) = a * rsum l.
Proof. induction l as [|x l IH]; simpl; [ring|]. rewrite IH. ring. Qed.
Lemma terms_sum gs k : (k < length gs)%nat -> others_out gs k -> 1 <= rsum (terms gs k).
Proof.
  intros Hk O. assert (N : forall x, In x (terms gs k) -> 0 <= x).
  { intros x I. unfold terms in I. apply in_map_iff in I as (i & <- & I). apply in_seq in I. unfold term. destruct (Nat.eqb_spec i k); [lra|].
    apply Rmult_le_pos; [apply Rmax_l|]. left. apply Rinv_0_lt_compat. specialize (O i ltac:(lia) n). lra. }
  assert (I : In 1 (terms gs k)).
  { unfold terms. apply in_map_iff. exists k. split; [unfold term; rewrite Nat.eqb_refl; auto|]. apply in_seq. lia. }
  clear -N I. induction (terms gs k) as [|x l IH]; [contradiction|]. simpl. assert (P : 0 <= rsum l) by (apply rsum_nonneg; intros y Iy; apply N; right; auto).
  destruct I as [->|I]; [lra|]. pose proof (N x (or_introl eq_refl)). specialize (IH (fun y Iy => N y (or_intror Iy)) I). lra.
Qed.
Lemma mapM_div_ok gs : (forall g, In g gs -> 1 < g) -> mapM (fun d => fdiv 1 (d - 1)) gs = Ok (map (fun g => / (g - 1)) gs).
Proof.
  intros H. apply (mapM_ok (fun d => fdiv 1 (d - 1)) (fun g => / (g - 1))).
  intros g I. specialize (H g I). unfold fdiv. destruct (Req_EM_T (g - 1) 0); [lra|]. f_equal. field. lra.
Qed.
(** The weights before the division by their sum, up to a factor. *)
Lemma raw_weights gs k : (k < length gs)%nat -> others_out gs k ->
  exists gw f, compute_weights_from_distances gs 1 false = Ok gw /\ 0 < f /\ terms gs k = map (fun x => f * x) gw /\ length gw = length gs.
Proof.
  intros Hk O. unfold compute_weights_from_distances. destruct (Rle_dec (nth k gs 0) 1) as [L|L].
  - assert (C : (0 < count_le 1 gs)%nat) by (apply count_le_pos; exists (nth k gs 0); split; auto; apply nth_In; auto).
    rewrite (proj2 (Nat.ltb_lt _ _) C). eexists _, (INR (count_le 1 gs)). split; [reflexivity|]. split; [apply lt_0_INR; auto|]. split; [|apply map_length].
    assert (NZ : INR (count_le 1 gs) <> 0) by (apply not_0_INR; lia).
    set (cnt := INR (count_le 1 gs)) in *. clearbody cnt. clear C.
    apply nth_ext with 0 0; [unfold terms; rewrite !map_length, seq_length; auto|]. intros i Hi. unfold terms in Hi. rewrite map_length, seq_length in Hi.
    rewrite terms_nth by auto. rewrite map_map. set (F := fun d => cnt * ((if Rleb d 1 then 1 else 0) / cnt)).
    rewrite (nth_indep _ 0 (F 0)) by (rewrite map_length; auto). change (term gs k i = nth i (map F gs) (F 0)). rewrite (map_nth F gs 0 i). unfold F, term.
    destruct (Nat.eqb_spec i k) as [->|NE].
    + rewrite (proj2 (Rleb_true _ _) L). field. auto.
    + rewrite (proj2 (Rleb_false _ _)) by (apply O; auto). rewrite Rmax_left by lra. specialize (O i Hi NE). field. split; lra.
  - assert (A : forall g, In g gs -> 1 < g).
    { intros g I. apply In_nth with (d := 0) in I as (i & Hi & <-). destruct (Nat.eq_dec i k) as [->|]; [lra|apply O; auto]. }
    rewrite count_le_zero by auto. cbn [Nat.ltb Nat.leb]. rewrite mapM_div_ok by auto. cbn [bind andb].
    eexists _, (nth k gs 0 - 1). split; [reflexivity|]. split; [lra|]. split; [|apply map_length].
    apply nth_ext with 0 0; [unfold terms; rewrite !map_length, seq_length; auto|]. intros i Hi. unfold terms in Hi. rewrite map_length, seq_length in Hi.
    rewrite terms_nth by auto. rewrite map_map. set (F := fun d => (nth k gs 0 - 1) * / (d - 1)).
    rewrite (nth_indep _ 0 (F 0)) by (rewrite map_length; auto). change (term gs k i = nth i (map F gs) (F 0)). rewrite (map_nth F gs 0 i). unfold F, term.
    destruct (Nat.eqb_spec i k) as [->|NE]; [field; lra|]. rewrite Rmax_right by lra. auto.
Qed.
Lemma weights_formula gs k rw : (k < length gs)%nat -> others_out gs k ->
  exists out, compute_gamma_and_weights gs rw = Ok (out, map (fun x => x / rsum (terms gs k) * rw) (terms gs k)).
Proof.
  intros Hk O. destruct (raw_weights gs k Hk O) as (gw & f & E & Hf & T & L). pose proof (terms_sum gs k Hk O) as S1. unfold compute_gamma_and_weights. rewrite E. cbn [bind].
  rewrite T in *. rewrite rsum_scale in *. assert (NZ : rsum gw <> 0) by (intros Z; rewrite Z in S1; lra).
  rewrite (proj2 (Reqb_false _ _) NZ). cbn [orb]. rewrite map_map. destruct (Reqb rw 0) eqn:Q.
  - apply Reqb_true in Q. subst. eexists. do 2 f_equal. apply map_ext. intros x. ring.
  - eexists. do 2 f_equal. apply map_ext. intros x. field. split; lra.
Qed.
Lemma cv_max0 f a : Un_cv f a -> Un_cv (fun j => Rmax 0 (f j)) (Rmax 0 a).
Proof.
  intros A e He. destruct (A e He) as (N & H). exists N. intros j Hj. specialize (H j Hj). unfold R_dist in *.
  apply Rabs_def2 in H as [H1 H2]. apply Rabs_def1; unfold Rmax; destruct (Rle_dec 0 (f j)), (Rle_dec 0 a); lra.
Qed.
Lemma eventually_out gs_ gs k : (forall j, length (gs_ j) = length gs) -> cvv gs_ gs -> others_out gs k ->
  exists N, forall j, (N <= j)%nat -> others_out (gs_ j) k.
Proof.
  intros L C O. assert (X : forall m, (m <= length gs)%nat -> exists N, forall j, (N <= j)%nat -> forall i, (i < m)%nat -> i <> k -> 1 < nth i (gs_ j) 0).
  { induction m as [|m IH]; intros Hm; [exists 0%nat; intros; lia|]. destruct IH as (N & HN); [lia|].
    destruct (Nat.eq_dec m k) as [->|NE].
    - exists N. intros j Hj i Hi Ni. apply HN; auto. lia.
    - destruct (cv_lt (fun _ => 1) _ _ _ (cv_const 1) (C m) (O m ltac:(lia) NE)) as (M & HM). exists (Nat.max N M). intros j Hj i Hi Ni.
      destruct (Nat.eq_dec i m) as [->|]; [apply HM; lia|apply HN; auto; lia]. }
  destruct (X (length gs) (Nat.le_refl _)) as (N & HN). exists N. intros j Hj i Hi Ni. rewrite L in Hi. apply HN; auto.
Qed.
Lemma terms_cv gs_ gs k : (forall j, length (gs_ j) = length gs) -> cvv gs_ gs -> others_out gs k -> cvv (fun j => terms (gs_ j) k) (terms gs k).
Proof.
  intros L C O i. destruct (Nat.ltb_spec i (length gs)) as [Hi|Hi].
  - rewrite terms_nth by auto. apply cv_ext with (fun j => term (gs_ j) k i); [intros j; rewrite terms_nth; auto; rewrite L; auto|].
    unfold term. destruct (Nat.eqb_spec i k) as [|NE]; [apply cv_const|]. apply cv_div; [apply cv_max0|apply cv_sub; [apply C|apply cv_const]|specialize (O i Hi NE); lra].
    apply cv_sub; [apply C|apply cv_const].
  - rewrite nth_overflow by (unfold terms; rewrite map_length, seq_length; auto). apply cv_ext with (fun _ => 0); [|apply cv_const].
    intros j. rewrite nth_overflow; auto. unfold terms. rewrite map_length, seq_length, L. auto.
Qed.
End Components.
Definition weights_out (r : res (list R * list R)) : list R := match r with Ok (_, ws) => ws | Err _ => [] end.
(** With at most one component in contact the weights of the components follow the relative distances. *)
Theorem C172_component_weights : forall gs_ gs rw_ rw k, (forall j, length (gs_ j) = length gs) -> cvv gs_ gs -> Un_cv rw_ rw ->
  (k < length gs)%nat -> (forall i, (i < length gs)%nat -> i <> k -> 1 < nth i gs 0) -> (forall j, 0 <= rw_ j <= 1) ->
  exists out_ ws_ out ws, (forall j, compute_gamma_and_weights (gs_ j) (rw_ j) = Ok (out_ j, ws_ j) /\ length (ws_ j) = length gs) /\
    compute_gamma_and_weights gs rw = Ok (out, ws) /\ length ws = length gs /\ cvv ws_ ws.
Proof.
  intros gs_ gs rw_ rw k L C CR Hk O HR. destruct (weights_formula gs k rw Hk O) as (out & E).
  assert (OKj : forall j, exists out ws, compute_gamma_and_weights (gs_ j) (rw_ j) = Ok (out, ws) /\ length ws = length gs).
  { intros j. assert (NE : gs_ j <> []) by (intros Z; specialize (L j); rewrite Z in L; simpl in L; lia).
    destruct (C23_component_weights (gs_ j) (rw_ j) NE (HR j)) as (o & w & Ew & Lw & _). rewrite <- (L j). eauto. }
  exists (fun j => match compute_gamma_and_weights (gs_ j) (rw_ j) with Ok (o, _) => o | Err _ => [] end), (fun j => weights_out (compute_gamma_and_weights (gs_ j) (rw_ j))), out,
    (map (fun x => x / rsum (terms gs k) * rw) (terms gs k)).
  split; [intros j; destruct (OKj j) as (o & w & -> & Lw); split; auto|]. split; [auto|].
  split; [unfold terms; rewrite !map_length, seq_length; auto|].
  destruct (eventually_out gs_ gs k L C O) as (N & HN).
  apply cvv_eventually with (fun j => map (fun x => x / rsum (terms (gs_ j) k) * rw_ j) (terms (gs_ j) k)) N.
  { intros j Hj. destruct (weights_formula (gs_ j) k (rw_ j)) as (o & ->); auto. rewrite L. auto. }
  pose proof (terms_cv gs_ gs k L C O) as CT. pose proof (terms_sum gs k Hk O) as S1.
  assert (LT : forall x, length (terms x k) = length x) by (intros x; unfold terms; rewrite map_length, seq_length; auto).
  assert (CS : Un_cv (fun j => rsum (terms (gs_ j) k)) (rsum (terms gs k))).
  { apply (cv_rsum (length gs)); auto. intros j. rewrite LT. auto. }
  intros i. destruct (Nat.ltb_spec i (length gs)) as [Hi|Hi].
  - assert (X : forall a b l, (i < length l)%nat -> nth i (map (fun x => x / a * b) l) 0 = nth i l 0 / a * b).
    { intros a b l Hl. rewrite (nth_indep _ 0 (0 / a * b)) by (rewrite map_length; auto). apply (map_nth (fun x => x / a * b)). }
    rewrite X by (rewrite LT; auto). apply cv_ext with (fun j => nth i (terms (gs_ j) k) 0 / rsum (terms (gs_ j) k) * rw_ j); [intros j; rewrite X; auto; rewrite LT, L; auto|].
    apply cv_mul; auto. apply cv_div; auto. lra.
  - rewrite nth_overflow by (rewrite map_length, LT; auto). apply cv_ext with (fun _ => 0); [|apply cv_const]. intros j. rewrite nth_overflow; auto. rewrite map_length, LT, L. auto.
Qed.
(** Two components reached together: at any distance the nearer one has twice the weight, in contact both have the same. *)
Theorem C172_component_weights_refuted : exists gs_ gs, cvv gs_ gs /\
  (forall j, exists out, compute_gamma_and_weights (gs_ j) 1 = Ok (out, [2 / 3; 1 / 3])) /\
  exists out, compute_gamma_and_weights gs 1 = Ok (out, [1 / 2; 1 / 2]).
Proof.
  exists (fun j => [1 + dying j; 1 + 2 * dying j]), [1; 1]. split; [|split].
  - assert (Q : forall c, Un_cv (fun j => 1 + c * dying j) 1).
    { intros c. pose proof (cv_add _ _ _ _ (cv_const 1) (cv_mul _ _ _ _ (cv_const c) dying_cv)) as Q. replace (1 + c * 0) with 1 in Q by ring. exact Q. }
    intros [|[|i]]; cbn [nth]; [|apply Q|destruct i; apply cv_const]. apply cv_ext with (fun j => 1 + 1 * dying j); [intros; ring|apply Q].
  - intros j. pose proof (dying_range j) as D. destruct (weights_formula [1 + dying j; 1 + 2 * dying j] 0 1) as (out & E); [simpl; lia| |].
    { intros [|[|i]] Hi Ni; simpl in *; try lia; lra. }
    exists out. rewrite E. unfold terms, term. cbn [length seq map Nat.eqb nth rsum fold_right]. rewrite Rmax_right by lra.
    do 2 f_equal. f_equal; [simpl; field; lra|]. f_equal. simpl. field. lra.
  - unfold compute_gamma_and_weights, compute_weights_from_distances, count_le. cbn [filter]. rewrite (proj2 (Rleb_true 1 1)) by lra.
    cbn [length Nat.ltb Nat.leb map bind]. rewrite !(proj2 (Rleb_true 1 1)) by lra. replace (rsum [1 / INR 2; 1 / INR 2]) with 1 by (simpl; field).
    rewrite !(proj2 (Reqb_false 1 0)) by lra. cbn [orb map]. eexists. do 2 f_equal. f_equal; [simpl; field|]. f_equal. simpl. field.
Qed.

(** ** C172: the weights of a tree *)
Lemma cv_rmin2 f g a b : Un_cv f a -> Un_cv g b -> Un_cv (fun j => Rmin (f j) (g j)) (Rmin a b).
Proof.
  intros A B e He. destruct (A e He) as (N & H). destruct (B e He) as (M & K). exists (Nat.max N M). intros j Hj. specialize (H j ltac:(lia)). specialize (K j ltac:(lia)).
  unfold R_dist in *. apply Rabs_def2 in H as [H1 H2]. apply Rabs_def2 in K as [K1 K2]. apply Rabs_def1; unfold Rmin; destruct (Rle_dec (f j) (g j)), (Rle_dec a b); lra.
Qed.
Lemma cv_fold_min : forall l l_ a_ a, (forall j, length (l_ j) = length l) -> cvv l_ l -> Un_cv a_ a -> Un_cv (fun j => fold_left Rmin (l_ j) (a_ j)) (fold_left Rmin l a).
Proof.
  induction l as [|x l IH]; intros l_ a_ a L C A; cbn [fold_left].
  - apply cv_ext with a_; auto. intros j. specialize (L j). destruct (l_ j); [auto|discriminate].
  - apply cv_ext with (fun j => fold_left Rmin (tl (l_ j)) (Rmin (a_ j) (nth 0 (l_ j) 0))).
    { intros j. specialize (L j). destruct (l_ j); [discriminate|auto]. }
    apply IH.
    + intros j. specialize (L j). destruct (l_ j); [discriminate|]. simpl in *. lia.
    + intros i. apply cv_ext with (fun j => nth (S i) (l_ j) 0); [|apply (C (S i))]. intros j. specialize (L j). destruct (l_ j); [discriminate|auto].
    + apply cv_rmin2; auto. apply (C 0%nat).
Qed.
Lemma cv_rmin_list l_ l : l <> [] -> (forall j, length (l_ j) = length l) -> cvv l_ l -> Un_cv (fun j => rmin_list (l_ j)) (rmin_list l).
Proof.
  intros NE L C. destruct l as [|x l]; [contradiction|]. cbn [rmin_list].
  apply cv_ext with (fun j => fold_left Rmin (tl (l_ j)) (nth 0 (l_ j) 0)); [intros j; specialize (L j); destruct (l_ j); [discriminate|auto]|].
  apply cv_fold_min.
  - intros j. specialize (L j). destruct (l_ j); [discriminate|]. simpl in *. lia.
  - intros i. apply cv_ext with (fun j => nth (S i) (l_ j) 0); [|apply (C (S i))]. intros j. specialize (L j). destruct (l_ j); [discriminate|auto].
  - apply (C 0%nat).
Qed.
(** The weights of the components of an obstacle tree follow the position and the velocity where the relative distances, the normal and the reference direction of
    the root and the occlusions do, at most one component is in contact and the robot does not touch the obstacle head-on. *)
Theorem C172_tree_weights : forall n pick power position_ base_ position base t root occ_ occ k, picks n pick -> 0 <= power ->
  nth_error (m_comps t) (m_root t) = Some root ->
  (forall c, In c (m_comps t) -> Un_cv (fun j => c_gamma c (position_ j)) (c_gamma c position)) ->
  (forall j, length (c_normal root (position_ j)) = n /\ unitv (c_normal root (position_ j))) -> length (c_normal root position) = n ->
  (forall j, length (c_refdir root (position_ j)) = n /\ unitv (c_refdir root (position_ j))) -> length (c_refdir root position) = n ->
  (forall j, length (base_ j) = n /\ unitv (base_ j)) -> length base = n ->
  cvv (fun j => c_normal root (position_ j)) (c_normal root position) -> cvv (fun j => c_refdir root (position_ j)) (c_refdir root position) -> cvv base_ base ->
  dot (c_refdir root position) (c_normal root position) < 0 ->
  (forall j, compute_parent_occlusion_weight (position_ j) t = Ok (occ_ j)) -> compute_parent_occlusion_weight position t = Ok occ -> cvv occ_ occ ->
  (k < length (m_comps t))%nat -> (forall i c, nth_error (m_comps t) i = Some c -> i <> k -> 1 < c_gamma c position) ->
  ~ (rmin_list (tree_gammas position t) = 1 /\ (base = c_refdir root position \/ base = vscale (-1) (c_refdir root position))) ->
  exists ws_ ws, (forall j, tree_obstacle_weights (angle_space pick) (position_ j) (base_ j) power t = Ok (ws_ j)) /\
    tree_obstacle_weights (angle_space pick) position base power t = Ok ws /\ length ws = length (m_comps t) /\ cvv ws_ ws.
Proof.
  intros n pick power position_ base_ position base t root occ_ occ k Pk Hp Er Cg Un Ln Ur Lr Ub Lb Cn Cr Cb Star Eo_ Eo Co Hk O NH.
  set (gs_ := fun j => tree_gammas (position_ j) t). set (gs := tree_gammas position t) in *.
  assert (Lg : forall p, length (tree_gammas p t) = length (m_comps t)) by (intros p; unfold tree_gammas; apply map_length).
  assert (NE : gs <> []) by (intros Z; specialize (Lg position); fold gs in Lg; rewrite Z in Lg; simpl in Lg; lia).
  assert (NEj : forall j, gs_ j <> []) by (intros j Z; specialize (Lg (position_ j)); fold (gs_ j) in Lg; rewrite Z in Lg; simpl in Lg; lia).
  assert (NT : forall p i c, nth_error (m_comps t) i = Some c -> nth i (tree_gammas p t) 0 = c_gamma c p).
  { intros p i c E. apply nth_error_nth. unfold tree_gammas. rewrite nth_error_map, E. auto. }
  assert (CG : cvv gs_ gs).
  { intros i. destruct (nth_error (m_comps t) i) as [c|] eqn:E.
    - apply cv_ext with (fun j => c_gamma c (position_ j)); [intros j; symmetry; apply NT; auto|]. unfold gs. rewrite (NT position i c E). apply Cg. eapply nth_error_In; eauto.
    - apply nth_error_None in E. unfold gs. rewrite nth_overflow by (rewrite Lg; auto). apply cv_ext with (fun _ => 0); [|apply cv_const].
      intros j. unfold gs_. rewrite nth_overflow; auto. rewrite Lg. auto. }
  assert (CM : Un_cv (fun j => rmin_list (gs_ j)) (rmin_list gs)) by (apply cv_rmin_list; auto; intros j; unfold gs_, gs; rewrite !Lg; auto).
  destruct (C172_rotation_weight n pick power (fun j => c_normal root (position_ j)) (fun j => c_refdir root (position_ j)) base_ (fun j => rmin_list (gs_ j))
    (c_normal root position) (c_refdir root position) base (rmin_list gs)) as (rw_ & rw & E_ & E & CW); auto.
  assert (HR : forall j, 0 <= rw_ j <= 1).
  { intros j. destruct (C22_rotation_weight (angle_space pick) (c_normal root (position_ j)) (c_refdir root (position_ j)) (base_ j) (PI * / 2) power (PI * / 2) Hp) as (f & Ef & F1 & F2 & _).
    specialize (E_ j). rewrite Ef in E_. injection E_ as <-. set (m := rmin_list (gs_ j)). destruct (Rle_dec m 1) as [L|L]; [rewrite F1 by auto; lra|].
    destruct (F2 m ltac:(lra)) as (A & B). assert (/ m <= 1) by (rewrite <- Rinv_1; apply Rinv_le_contravar; lra). lra. }
  destruct (C172_component_weights gs_ gs rw_ rw k) as (o_ & cw_ & o & cw & W_ & W & Lw & CC); auto.
  { intros j. unfold gs_, gs. rewrite !Lg. auto. }
  { unfold gs. rewrite Lg. auto. }
  { intros i Hi Ni. unfold gs in *. rewrite Lg in Hi. destruct (nth_error (m_comps t) i) as [c|] eqn:Ec; [|apply nth_error_None in Ec; lia].
    rewrite (NT position i c Ec). eapply O; eauto. }
  assert (TW : forall p b r og w oc, tree_gammas p t <> [] ->
    get_rotation_weight (angle_space pick) (c_normal root p) (c_refdir root p) b (rmin_list (tree_gammas p t)) (PI * / 2) power (PI * / 2) = Ok r ->
    compute_gamma_and_weights (tree_gammas p t) r = Ok (og, w) -> compute_parent_occlusion_weight p t = Ok oc ->
    tree_obstacle_weights (angle_space pick) p b power t = Ok (map (fun wo => fst wo * snd wo) (combine w oc))).
  { intros p b r og w oc Ne E1 E2 E3. unfold tree_obstacle_weights, tree_gamma_and_weights.
    destruct (C20_weights_from_distances (tree_gammas p t) 1 false) as (dw & -> & _). cbn [bind]. unfold get_component. rewrite Er. cbn [bind].
    destruct (tree_gammas p t) as [|g0 gl] eqn:Eg; [contradiction|]. rewrite <- Eg in *. rewrite E1. cbn [bind]. rewrite E2. cbn [bind]. rewrite E3. reflexivity. }
  assert (LO : forall p oc, compute_parent_occlusion_weight p t = Ok oc -> length oc = length (m_comps t)).
  { intros p oc E1. unfold compute_parent_occlusion_weight in E1. apply mapM_length in E1. rewrite seq_length in E1. auto. }
  exists (fun j => map (fun wo => fst wo * snd wo) (combine (cw_ j) (occ_ j))), (map (fun wo => fst wo * snd wo) (combine cw occ)).
  assert (LG : length gs = length (m_comps t)) by apply Lg.
  split; [intros j; eapply TW; [apply NEj|apply E_|apply W_|apply Eo_]|]. split; [eapply TW; eauto|].
  split; [rewrite map_length, combine_length, (LO _ _ Eo), Lw, LG; lia|].
  assert (PR : forall a b i, length a = length b -> nth i (map (fun wo : R * R => fst wo * snd wo) (combine a b)) 0 = nth i a 0 * nth i b 0).
  { induction a as [|x a IH]; intros [|y b] i L; simpl in L; try lia; destruct i; simpl; try ring. apply IH. lia. }
  intros i. rewrite PR by (rewrite Lw, (LO _ _ Eo); auto). apply cv_ext with (fun j => nth i (cw_ j) 0 * nth i (occ_ j) 0).
  { intros j. rewrite PR; auto. rewrite (proj2 (W_ j)), (LO _ _ (Eo_ j)). auto. }
  apply cv_mul; auto.
Qed.
(** The velocity turns from outwards to along the surface, the reference direction is slanted: half the weight at relative distance two. *)
Example C172_rotation_weight_case : forall pick, picks 2 pick -> exists w_,
  (forall j, get_rotation_weight (angle_space pick) [1; 0] [-4 / 5; -3 / 5] [sin (dying j); cos (dying j)] 2 (PI * / 2) 1 (PI * / 2) = Ok (w_ j)) /\ Un_cv w_ (1 / 2).
Proof.
  intros pick Pk.
  assert (U1 : unitv [1; 0]) by (unfold unitv, dot; simpl; ring). assert (U2 : unitv [-4 / 5; -3 / 5]) by (unfold unitv, dot; simpl; lra).
  assert (U3 : unitv [0; 1]) by (unfold unitv, dot; simpl; ring).
  destruct (C172_rotation_weight 2 pick 1 (fun _ => [1; 0]) (fun _ => [-4 / 5; -3 / 5]) (fun j => [sin (dying j); cos (dying j)]) (fun _ => 2) [1; 0] [-4 / 5; -3 / 5] [0; 1] 2)
    as (w_ & w & A & B & C); auto; try apply cvv_const; try apply cv_const; try lra.
  - intros j. split; auto. unfold unitv, dot. simpl. pose proof (sin2_cos2 (dying j)) as Q. unfold Rsqr in Q. lra.
  - intros [|[|i]]; cbn [nth]; [| |destruct i; apply cv_const].
    + pose proof (cv_sin _ _ dying_cv) as Q. rewrite sin_0 in Q. exact Q.
    + pose proof (cv_cos _ _ dying_cv) as Q. rewrite cos_0 in Q. exact Q.
  - unfold dot. simpl. lra.
  - exists w_. split; auto. replace (1 / 2) with w; auto. rewrite weight_side in B by lra. rewrite (proj2 (Rltb_false 0 _)) in B by (unfold dot; simpl; lra).
    injection B as <-. rewrite (side_edge 2 pick 1 Pk); auto; [rewrite Rmax_right by lra; lra|unfold unitv, dot; simpl; ring|unfold dot; simpl; ring].
Qed.
(** Approaching a wall at an angle until contact. *)
Example C172_tree_weights_case : exists ws_ ws,
  (forall j, tree_obstacle_weights (angle_space left_of) [1 + dying j; 0] slanted 1 (mtree_of wall_tree) = Ok (ws_ j)) /\
  tree_obstacle_weights (angle_space left_of) [1; 0] slanted 1 (mtree_of wall_tree) = Ok ws /\ length ws = 1%nat /\ cvv ws_ ws.
Proof.
  pose proof slanted_unit as U. assert (U1 : unitv [1; 0]) by (unfold unitv, dot; simpl; ring). assert (U2 : unitv [-1; 0]) by (unfold unitv, dot; simpl; ring).
  apply (C172_tree_weights 2 left_of 1 (fun j => [1 + dying j; 0]) (fun _ => slanted) [1; 0] slanted (mtree_of wall_tree) (b_comp wall) (fun _ => [1]) [1] 0%nat); auto; try lra; try apply cvv_const.
  - apply picks_2d.
  - intros c [<-|[]]. cbn. pose proof (cv_add _ _ _ _ (cv_const 1) dying_cv) as Q. replace (1 + 0) with 1 in Q by ring. exact Q.
  - apply (cvv_const [1; 0]).
  - apply (cvv_const [-1; 0]).
  - unfold dot. simpl. lra.
  - intros [|i] c Ec Ni; [contradiction|]. destruct i; discriminate.
  - intros (_ & [Q|Q]); unfold slanted, vscale in Q; simpl in Q; injection Q; lra.
Qed.
(** The first of two components is reached: it takes the whole weight. *)
Example C172_component_weights_case : exists ws_, (forall j, exists out, compute_gamma_and_weights [1 + dying j; 3] 1 = Ok (out, ws_ j)) /\ cvv ws_ [1; 0].
Proof.
  assert (Q : cvv (fun j => [1 + dying j; 3]) [1; 3]).
  { intros [|[|i]]; cbn [nth]; [|apply cv_const|destruct i; apply cv_const]. pose proof (cv_add _ _ _ _ (cv_const 1) dying_cv) as Q. replace (1 + 0) with 1 in Q by ring. exact Q. }
  assert (O : forall i, (i < length [1; 3])%nat -> i <> 0%nat -> 1 < nth i [1; 3] 0) by (intros [|[|i]] Hi Ni; simpl in *; try lia; lra).
  destruct (C172_component_weights (fun j => [1 + dying j; 3]) [1; 3] (fun _ => 1) 1 0%nat) as (o_ & ws_ & o & ws & A & B & _ & C); auto; try apply cv_const; try (simpl; lia); try (intros; lra).
  exists ws_. split; [intros j; exists (o_ j); apply A|]. replace [1; 0] with ws; auto.
  destruct (weights_formula [1; 3] 0 1) as (o' & E); [simpl; lia|exact O|]. rewrite E in B. injection B as _ <-.
  unfold terms, term. cbn [length seq map Nat.eqb nth]. rewrite Rmax_left by lra. f_equal; [simpl; lra|]. f_equal. simpl. lra.
Qed.
Print Assumptions C172_rotation_weight.
Print Assumptions C172_rotation_weight_refuted.
Print Assumptions C172_component_weights.
Print Assumptions C172_component_weights_refuted.
Print Assumptions C172_tree_weights.
