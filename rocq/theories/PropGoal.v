(** Property C181: among balls a robot which heads for an attractor approaches it all the time. *)
Require Import Reals List Bool Lra Lia ZArith Classical_Prop.
From Verif Require Import Base Vec Angle Pow RotModel Spec RotProofs SeqProofs TreeModel TreeSpec
  TreeProofs TreeWeights TreeReduce TreeGeom TreeCases TreeIndep PropRotation PropTree WeightModel WeightProofs PropWeights
  AvoidModel PropAvoid ProjModel PropProject TangentProofs PropTangent PropContact ContProofs PropContinuity PropEmbed PropJoint PropOrder PropLimits PropSteady PropFade PropPace PropDying PropMixed PropFlow PropSpread PropBalls PropTouch PropAhead PropMoves.
From Verif Require RotAvoidProofs.
Import ListNotations.
Open Scope R_scope.

(** The direction of a linear system. *)
Definition to_goal (goal p : vec) : vec := direction (vsub goal p).
Lemma to_goal_facts n goal p : length goal = n -> length p = n -> p <> goal -> length (to_goal goal p) = n /\ unitv (to_goal goal p) /\
  0 < norm (vsub goal p) /\ vsub goal p = vscale (norm (vsub goal p)) (to_goal goal p).
Proof.
  intros Lg Lp NE. assert (Z : norm (vsub goal p) <> 0) by (rewrite RotAvoidProofs.norm_vsub_0 by lia; auto). pose proof (norm_pos _ Z) as P.
  unfold to_goal, direction. split; [rewrite length_vscale, length_vsub; lia|]. split; [|split; [auto|]].
  - unfold unitv. rewrite dot_vscale_l, dot_vscale_r, <- norm_sq. field. auto.
  - vext. field. auto.
Qed.
Lemma nearer n goal p m dt : length goal = n -> length p = n -> length m = n -> 0 < dt -> dt * dot m m < 2 * dot m (vsub goal p) ->
  norm (vsub goal (vadd p (vscale dt m))) < norm (vsub goal p).
Proof.
  intros Lg Lp Lm Hd H. replace (vsub goal (vadd p (vscale dt m))) with (vadd (vsub goal p) (vscale (- dt) m)) by (vext; ring).
  apply Rsqr_incrst_0; try apply norm_nonneg. unfold Rsqr. rewrite !norm_sq.
  rewrite dot_vadd_l, !dot_vadd_r, !dot_vscale_l, !dot_vscale_r. rewrite (dot_comm (vsub goal p) m). nra.
Qed.
Theorem C181_approach_partial : forall orth0 angle_of pick sort power n dim magnitude s conv_of conv position env rel goal balls,
  (2 <= n)%nat -> (forall v, length (orth0 v) = length v) -> (forall t x, rooted_tree n t x -> level_sorted t (sort t)) -> 0 <= power -> picks n pick ->
  length goal = n -> position <> goal ->
  in_front n balls position (to_goal goal position) -> apart n balls position (to_goal goal position) ->
  0 < magnitude -> conv_of s = Ok conv -> get_end_vector conv = Ok (to_goal goal position) -> compute_multiobstacle_relative_velocity position env = Ok rel ->
  exists v m, evaluate_sequence orth0 angle_of (get_projected_tangent pick) sort power (PI * / 2) None
      dim magnitude (Some s) conv_of position env (map (ball_tree n) balls) = Ok v /\ v = vadd m rel /\ length m = n /\
    0 < dot m (vsub goal position) /\
    exists short, 0 < short /\ forall dt, 0 < dt < short -> norm (vsub goal (vadd position (vscale dt m))) < norm (vsub goal position).
Proof.
  intros orth0 angle_of pick sort power n dim magnitude s conv_of conv position env rel goal balls Hn Ho Hs Hp Hk Lg NE F AP Hm EC EB ER.
  pose proof (if_position _ _ _ _ F) as Lp. destruct (to_goal_facts n goal position Lg Lp NE) as (Lt & Ut & P & Q).
  destruct (C180_moves_partial orth0 angle_of pick sort power n dim magnitude s conv_of conv position env rel (to_goal goal position) balls) as (v & m & E & Ev & Lm & D); auto.
  assert (D' : 0 < dot m (vsub goal position)) by (rewrite Q, dot_vscale_r, dot_comm; apply Rmult_lt_0_compat; auto).
  exists v, m. do 4 (split; [auto|]). assert (Pm : 0 < dot m m).
  { pose proof (dot_self_nonneg m) as N. destruct (Req_EM_T (dot m m) 0) as [Z|Z]; [|lra]. exfalso. apply norm_eq_0_dot in Z.
    pose proof (cauchy_schwarz m (vsub goal position)) as C. rewrite Z, Rmult_0_l in C. pose proof (Rle_abs (dot m (vsub goal position))). lra. }
  exists (2 * dot m (vsub goal position) / dot m m). split; [apply Rdiv_lt_0_compat; lra|].
  intros dt [H1 H2]. apply (nearer n); auto. apply Rmult_lt_compat_r with (r := dot m m) in H2; auto. replace (2 * dot m (vsub goal position) / dot m m * dot m m) with (2 * dot m (vsub goal position)) in H2 by (field; lra). exact H2.
Qed.

(* the robot at [1; 0] touches the unit disc and heads for the attractor [-2; 4] behind it *)
Lemma goal_case : to_goal [-2; 4] [1; 0] = [-3 / 5; 4 / 5].
Proof.
  unfold to_goal, direction. replace (vsub [-2; 4] [1; 0]) with [-3; 4] by (unfold vsub, vscale; simpl; f_equal; [ring|f_equal; ring]).
  assert (N : norm [-3; 4] = 5) by (unfold norm, dot; simpl; replace (-3 * -3 + (4 * 4 + 0)) with (5 * 5) by ring; apply sqrt_square; lra).
  rewrite N. unfold vscale. simpl. f_equal; [field|f_equal; field].
Qed.
Example C181_approach_case : forall orth0, (forall v, length (orth0 v) = length v) ->
  exists s v m, create_from_vector_array [[-3 / 5; 4 / 5]; [-3 / 5; 4 / 5]] = Ok s /\
    evaluate_sequence orth0 (angle_space left_of) (get_projected_tangent left_of) sort_by_level 1 (PI * / 2) None 2 3 (Some s) (fun s => Ok s) [1; 0] []
      (map (ball_tree 2) [([0; 0], 1); ([1; 5], 2)]) = Ok v /\ v = vadd m (vzero 2) /\ 0 < dot m (vsub [-2; 4] [1; 0]) /\
    exists short, 0 < short /\ forall dt, 0 < dt < short -> norm (vsub [-2; 4] (vadd [1; 0] (vscale dt m))) < norm (vsub [-2; 4] [1; 0]).
Proof.
  intros orth0 Ho. assert (U : unitv [-3 / 5; 4 / 5]) by (unfold unitv, dot; simpl; lra). destruct (constant_sequence [-3 / 5; 4 / 5] eq_refl U) as (s & E1 & E2).
  assert (G2 : ~ norm (vsub [1; 0] [1; 5]) <= 2).
  { replace (vsub [1; 0] [1; 5]) with [0; -5] by (unfold vsub, vscale; simpl; f_equal; [ring|f_equal; ring]).
    unfold norm, dot. simpl. replace (0 * 0 + (-5 * -5 + 0)) with (5 * 5) by ring. rewrite sqrt_square by lra. lra. }
  destruct (C181_approach_partial orth0 (angle_space left_of) left_of sort_by_level 1 2 2 3 s (fun s => Ok s) s [1; 0] [] (vzero 2) [-2; 4] [([0; 0], 1); ([1; 5], 2)])
    as (v & m & Ev & Em & Lm & Dm & Sh); rewrite ?goal_case; auto; try lra; try lia.
  - intros t x W. eapply sort_by_level_sorted; eauto.
  - apply picks_2d.
  - intros Q. injection Q. lra.
  - constructor; auto.
    + split; [discriminate|]. intros c r [E|[E|[]]]; injection E as <- <-; split; auto; lra.
    + intros i j d Hi Hj. simpl in Hi, Hj.
      destruct i as [|[|i]], j as [|[|j]]; try lia; cbn [nth fst snd]; intros; try contradiction; auto.
  - intros c r I D. apply (apart_2 _ _ 1 c r); auto; lra.
  - apply (no_motion [1; 0]).
  - exists s, v, m. auto 10.
Qed.
Print Assumptions C181_approach_partial.
