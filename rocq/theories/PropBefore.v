(** Property C74: the influence of an obstacle on the direction before contact. *)
Require Import Reals List Bool Lra Lia ZArith.
From Verif Require Import Base Vec Angle Pow RotModel Spec RotProofs SeqProofs TreeModel TreeSpec TreeProofs PropTree
  WeightModel WeightProofs AvoidModel PropAvoid ProjModel PropProject PropTangent PropContact ConvModel ConvProofs
  RotAvoidModel RotAvoidProofs PropSmooth SummingProofs PropOpposite PropAround.
Import ListNotations.
Open Scope R_scope.

(** * C74 *)
(** Outside of contact the summing keeps the initial velocity exactly as it is, at every distance, if the
    convergence velocity points further away than the convergence radius or along the reference
    direction; otherwise the weight of the obstacle is positive and tends to one at the surface. *)
Theorem C74_influence_partial : forall n orth0 sort rad power tail conv ref b g v0 crad, (2 <= n)%nat -> base_ok n b ->
  0 <= power -> length conv = n -> length ref = n -> norm conv <> 0 -> norm ref <> 0 -> 1 < g ->
  angle_to (bs0 b) ref < rad ->
  (rad < angle_to (bs0 b) conv \/ direction conv = direction ref ->
   directional_convergence_summing orth0 sort rad power tail conv ref b g v0 crad = Ok v0) /\
  (angle_to (bs0 b) conv <= rad -> direction conv <> direction ref ->
   exists w q, get_smooth_continuation_weight rad power g conv ref b = Ok w /\ 0 < w <= / g /\
     1 <= q /\ 1 - q * (g - 1) <= w).
Proof.
  intros n orth0 sort rad power tail conv ref b g v0 crad Hn B Hpw Lc Lr Nc Nr Hg Hr.
  destruct (C70_continuation_weight n rad power conv ref b Hn B Lc Lr Nc Nr Hpw) as (f & Ef & _ & F1 & _ & _ & F & L).
  split; [intros H|intros Hc NE].
  2:{ assert (NZ : forall h, 1 < h -> f h <> 0).
      { intros h Hh Z. apply (F Hr h Hh) in Z. destruct Z as [Z|Z]; [auto|lra]. }
      destruct L as [Z|(q & Hq & L)]; [exfalso; apply (NZ g Hg); auto|].
      exists (f g), q. pose proof (F1 g Hg). pose proof (NZ g Hg). split; [apply Ef; lra|]. split; [lra|]. auto. }
  unfold directional_convergence_summing. rewrite Ef by lra. cbn [bind].
  rewrite (proj2 (F Hr g Hg)) by (destruct H; auto). rewrite (proj2 (Rleb_true 0 0)) by lra. auto.
Qed.

(** At full speed straight into an obstacle, at any distance from its surface: the convergence
    velocity points away. *)
Theorem C74_into_obstacle_refuted : exists conv v, unitv conv /\ unitv v /\
  forall g, well_posed 2 (floor_obstacle g) /\ dot v (ao_normal (floor_obstacle g)) = -1 /\
  (1 < g < 10 -> forall orth0 sort,
    avoid_velocity orth0 left_unit sort (PI / 2) 1 false (map (fun _ => 1)) (fun _ _ => [0; 0]) 10 false v conv [floor_obstacle g] = Ok v).
Proof.
  destruct norm_345 as (N1 & _ & N3 & N4 & _). pose proof PI_RGT_0 as HP.
  assert (Uc : unitv [3/5; 4/5]) by (apply unit_norm; auto). assert (Uv : unitv [0; -1]) by (apply unit_norm; auto).
  exists [3/5; 4/5], [0; -1]. split; auto. split; auto. intros g. split; [apply floor_posed|].
  split; [unfold dot; simpl; ring|]. intros Hg orth0 sort.
  assert (T : taken 10 [floor_obstacle g] = [floor_obstacle g]).
  { unfold taken. cbn [map]. unfold clamp_obstacle, floor_obstacle. cbn [ao_gamma ao_boundary negb]. rewrite (proj2 (Rltb_false g 1)) by lra.
    cbn [andb filter ao_gamma]. rewrite (proj2 (Rltb_true g 10)) by lra. rewrite (proj2 (Rleb_true 1 g)) by lra. auto. }
  unfold avoid_velocity. rewrite avoid_taken by (rewrite T; discriminate). cbv zeta. rewrite T. cbn [map].
  rewrite vsub_zero2, N3. destruct (Req_EM_T 1 0); [lra|].
  destruct (null_base_spec 2 (floor_obstacle g) (floor_posed g)) as (b & Eb & B & B0 & Ni & Li & Pi). rewrite floor_toward in B0.
  assert (Ei : into (floor_obstacle g) = [0; -1]) by reflexivity. rewrite Ei in *.
  assert (DR : dirof [0; -1] = [0; -1]) by (apply dirof_of_unit; auto).
  assert (DC : dirof [3/5; 4/5] = [3/5; 4/5]) by (apply dirof_of_unit; auto).
  unfold rotated_sum. cbn [mapM]. unfold rotated_direction. rewrite Eb. rewrite N1. destruct (Req_EM_T 1 0); [lra|].
  cbn [floor_obstacle ao_radius ao_gamma].
  destruct (C74_influence_partial 2 orth0 sort (PI / 2) 1 false [3/5; 4/5] [0; -1] b g [0; -1] (PI / 2)) as [K _]; auto; try lra; try lia.
  { rewrite B0. unfold angle_to. change direction with dirof. rewrite DR. replace (dot [0; -1] [0; -1]) with 1 by (unfold dot; simpl; ring).
    rewrite acos_1. lra. }
  rewrite K; clear K.
  2:{ left. rewrite B0. unfold angle_to. change direction with dirof. rewrite DC. replace (dot [0; -1] [3/5; 4/5]) with (-(4/5)) by (unfold dot; simpl; field).
      rewrite acos_opp. pose proof (acos_pos_lt (4/5) ltac:(lra)). lra. }
  cbn [bind map].
  assert (BO : base_ok 2 (mkBase (vdiv [0; -1] 1) (left_unit [0; -1]))).
  { destruct (left_unit_ok [0; -1] eq_refl ltac:(lra)) as (A1 & A2 & A3). unfold base_ok. cbn [bs0 bs1].
    assert (E : vdiv [0; -1] 1 = direction [0; -1]) by (unfold direction; rewrite N3; auto). rewrite E.
    split; auto. split; auto. split; auto. apply dirof_unit. lra. }
  rewrite N3.
  rewrite (weighted_sum_one 2 _ [1] [[0; -1]] 0 [0; -1]); auto.
  2:{ split; [simpl; lia|]. split; auto. intros [|[|j]] Hj; simpl; auto; lia. }
  2:{ intros x [<-|[]]. split; [auto|lra]. }
  cbn [bind]. rewrite DR. cbn [combine]. unfold wsum. cbn [fold_right fst snd length ao_normal floor_obstacle rmin_list fold_left].
  assert (EN : vadd (vscale 1 [0; 1]) (vzero 2) = [0; 1]) by (unfold vadd, vscale, vzero; simpl; f_equal; [|f_equal]; ring).
  rewrite EN. unfold compute_safe_magnitude. rewrite N3, N4. destruct (Req_EM_T 1 0); [lra|].
  replace (dot [0; -1] [0; 1]) with (-1) by (unfold dot; simpl; ring).
  rewrite (proj2 (Rltb_false 0 (-1))) by lra. rewrite (proj2 (Reqb_false 1 0)) by lra. cbn [orb].
  assert (RM : rmin_list [g] = g) by reflexivity.
  destruct (Rle_dec g 1); [lra|]. unfold fdiv. destruct (Req_EM_T 3 0); [lra|]. cbn [bind].
  assert (G0 : 0 < 1 / (g - 1) * 1).
  { rewrite Rmult_1_r. apply Rdiv_lt_0_compat; lra. }
  rewrite (fpow_pos (1 / (g - 1) * 1)) by auto. cbn [bind]. rewrite fpow_pos by lra.
  set (s := Rpower (1 + 8 / 10 * -1) (Rpower (1 / (g - 1) * 1) (1 / 3))).
  assert (S0 : 0 < s) by apply Rpower_pos.
  assert (S1 : s <= 1) by (apply Rpower_le_1; [lra|]; left; apply Rpower_pos).
  rewrite (proj2 (Rltb_false 1 s)) by lra. cbn [bind].
  assert (EV : vadd (vscale s (vscale 1 (vdiv [0; -1] 1))) [0; 0] = vscale s [0; -1]).
  { unfold vdiv, vadd, vscale. simpl. f_equal; [|f_equal]; field. }
  rewrite EV. assert (NV : norm (vscale s [0; -1]) = s) by (rewrite norm_vscale, N3, Rabs_pos_eq; lra). rewrite NV.
  destruct (Req_EM_T s 0); [lra|]. f_equal. unfold vdiv, vscale. simpl. f_equal; [|f_equal]; field; auto.
Qed.
(** In contact with the same obstacle and for the same velocities the surface is not crossed. *)
Example C74_case : exists w,
  avoid_velocity (fun v => v) left_unit sort_by_level (PI / 2) 1 false (map (fun _ => 1)) (fun _ _ => [0; 0]) 10 false
    [0; -1] [3/5; 4/5] [floor_obstacle (1/2)] = Ok w /\ 0 <= dot w [0; 1] /\ norm w = 1.
Proof.
  destruct norm_345 as (N1 & _ & N3 & _). pose proof PI_RGT_0.
  assert (T : taken 10 [floor_obstacle (1/2)] = [floor_obstacle 1]) by (apply floor_taken; lra).
  assert (DC : direction [3/5; 4/5] = [3/5; 4/5]) by (apply (dirof_of_unit _ (proj2 (unit_norm _) N1))).
  assert (DV : direction [0; -1] = [0; -1]) by (apply (dirof_of_unit _ (proj2 (unit_norm _) N3))).
  destruct (C72_contact_full_speed_partial 2 (fun v => v) left_unit sort_by_level (PI / 2) 1 false (map (fun _ => 1)) (fun _ _ => [0; 0])
    ltac:(lia) ltac:(auto) left_unit_ok ltac:(intros n t r; apply sort_by_level_sorted) ltac:(lra) ltac:(lra)
    10 [3/5; 4/5] [0; -1] [floor_obstacle (1/2)] 0%nat (floor_obstacle 1)) as (w & E & D & B & _);
    rewrite ?T, ?N1, ?N3, ?DC, ?DV; auto; try lra.
  - split; [simpl; lia|]. split; auto. intros [|[|j]] Hj; simpl; auto; lia.
  - unfold dot. simpl. lra.
  - unfold dot. simpl. lra.
  - intros o' [<-|[]]. split; [apply floor_posed|]. rewrite floor_toward, DC. split; [unfold dot; simpl; lra|]. left. simpl. lra.
  - intros o' [<-|[]] G. exfalso. apply G. auto.
  - exists w. rewrite N3 in B. auto.
Qed.
Print Assumptions C74_influence_partial.
Print Assumptions C74_into_obstacle_refuted.
