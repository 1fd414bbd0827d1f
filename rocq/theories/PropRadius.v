(** Property C76: convergence radiuses of single obstacles. *)
Require Import Reals List Bool Lra Lia ZArith.
From Verif Require Import Base Vec Angle Pow RotModel Spec RotProofs SeqProofs TreeModel TreeSpec TreeProofs PropTree
  WeightModel WeightProofs AvoidModel PropAvoid ProjModel PropProject PropTangent PropContact ConvModel ConvProofs
  RotAvoidModel RotAvoidProofs PropSmooth SummingProofs PropOpposite PropAround.
Import ListNotations.
Open Scope R_scope.

(** * C76 *)
(** The floor with a convergence radius of its own. *)
Definition radius_floor (r : R) : aobs := mkAObs 1 false [0; 1] [1; 0] [0; -1] (Some r).

(** The floor asks for a right angle, the avoider was built with 3/4 pi: the velocity leaves the
    floor under 3/4 pi. *)
Theorem C76_own_radius_refuted : exists rad r conv v w,
  well_posed 2 (radius_floor r) /\ ao_radius (radius_floor r) = Some r /\ angle_to [0; -1] conv < r /\ r < rad /\
  avoid_velocity (fun v => v) left_unit sort_by_level rad 1 false (map (fun _ => 1)) (fun _ _ => [0; 0]) 10 false v conv [radius_floor r] = Ok w /\
  angle_to [0; -1] w = rad.
Proof.
  destruct norm_345 as (_ & N & _). pose proof PI_RGT_0 as HP.
  assert (U : unitv [4/5; -3/5]) by (apply unit_norm; auto).
  assert (DV : direction [4/5; -3/5] = [4/5; -3/5]) by (apply (dirof_of_unit _ U)).
  assert (C : cos (3 * (PI / 4)) = -1 / sqrt 2) by (apply cos_3PI4).
  assert (S2 : 1 < sqrt 2 < 2).
  { split; [rewrite <- sqrt_1 at 1; apply sqrt_lt_1; lra|].
    replace 2 with (sqrt (2 * 2)) at 2 by (apply sqrt_square; lra). apply sqrt_lt_1; lra. }
  assert (CB : -1 < -1 / sqrt 2 <= -1/1000).
  { assert (1 / 2 < / sqrt 2 < 1).
    { split; [unfold Rdiv; rewrite Rmult_1_l; apply Rinv_lt_contravar; lra|]. rewrite <- Rinv_1. apply Rinv_lt_contravar; lra. }
    unfold Rdiv. lra. }
  set (o := radius_floor (PI / 2)).
  assert (T : taken 10 [o] = [o]).
  { unfold taken, o, radius_floor. cbn [map]. unfold clamp_obstacle.
    cbn [ao_gamma ao_boundary negb]. rewrite (proj2 (Rltb_false 1 1)) by lra. cbn [andb filter ao_gamma].
    rewrite (proj2 (Rltb_true 1 10)) by lra. rewrite (proj2 (Rleb_true 1 1)) by lra. auto. }
  assert (TW : toward o = [0; -1]).
  { unfold toward, into. cbn [o radius_floor ao_boundary ao_normal ao_ref]. replace (dot [0; 1] [0; -1]) with (-1) by (unfold dot; simpl; ring).
    destruct (Rlt_dec (-1) 0); [|lra]. unfold vscale. simpl. repeat f_equal; ring. }
  assert (WP : well_posed 2 o) by (repeat split; unfold unitv, dot; simpl; lra).
  destruct (C72_contact_full_speed_partial 2 (fun v => v) left_unit sort_by_level (3 * (PI / 4)) 1 false (map (fun _ => 1)) (fun _ _ => [0; 0])
    ltac:(lia) ltac:(auto) left_unit_ok ltac:(intros n t r; apply sort_by_level_sorted) ltac:(lra) ltac:(lra)
    10 [4/5; -3/5] [4/5; -3/5] [o] 0%nat o) as (w & E & D & B & X);
    rewrite ?T, ?N, ?DV, ?TW; auto; try lra.
  - split; [simpl; lia|]. split; auto. intros [|[|j]] Hj; simpl; auto; lia.
  - unfold dot, o. simpl. lra.
  - unfold dot. simpl. lra.
  - intros o' [<-|[]]. split; auto. rewrite TW, DV. split; [unfold dot; simpl; lra|]. left. simpl. lra.
  - intros o' [<-|[]] G. exfalso. apply G. auto.
  - exists (3 * (PI / 4)), (PI / 2), [4/5; -3/5], [4/5; -3/5], w. fold o. split; auto. split; auto.
    split.
    { unfold angle_to. rewrite DV. apply acos_pos_lt. unfold dot. simpl. lra. }
    split; [lra|]. split; auto.
    rewrite DV, TW, N, C in X. assert (X' : dot w [0; -1] = -1 / sqrt 2) by (rewrite X; [ring|unfold dot; simpl; lra]).
    rewrite N in B.
    unfold angle_to. change (direction w) with (vscale (/ norm w) w). rewrite dot_vscale_r, (dot_comm [0; -1]), X', B, <- C.
    rewrite Rinv_1, Rmult_1_l. apply acos_cos. lra.
Qed.
Print Assumptions C76_own_radius_refuted.
