(** Concrete cases for the rotation properties: witnesses and counterexamples. *)
Require Import Reals List Lra Lia Psatz Bool.
From Verif Require Import Base Vec Angle RotModel Spec RotProofs SeqProofs.
Import ListNotations.
Open Scope R_scope.

Lemma norm_2 x y : norm [x; y] = sqrt (x * x + y * y).
Proof. unfold norm. simpl. f_equal. ring. Qed.
Lemma unit_of_dot v : dot v v = 1 -> norm v = 1.
Proof. intros. apply unit_norm. auto. Qed.

Lemma orthonormal_e01_3 : orthonormal 3 [1; 0; 0] [0; 1; 0].
Proof. repeat split; unfold unitv; simpl; lra. Qed.
Lemma orthonormal_35 : orthonormal 2 [3/5; 4/5] [-(4/5); 3/5].
Proof. repeat split; unfold unitv; simpl; lra. Qed.

(** Two unit vectors that differ by about 2e-9. *)
Definition tt : R := / 10^9.
Definition close_v : vec := [(1 - tt * tt) / (1 + tt * tt); 2 * tt / (1 + tt * tt)].

Lemma tt_pos : 0 < tt /\ tt <= / 10^9.
Proof. unfold tt. split; [apply Rinv_0_lt_compat|]; simpl; lra. Qed.
Lemma close_v_unit : unitv close_v.
Proof.
  unfold unitv, close_v. simpl. pose proof tt_pos. field. nra.
Qed.
Lemma close_v_allclose : allclose [1; 0] close_v = true.
Proof.
  pose proof tt_pos as [Hp Hl]. unfold close_v, allclose.
  assert (Hpos : 1 <= 1 + tt * tt) by nra.
  assert (Hinv : 0 < / (1 + tt * tt) <= 1).
  { split; [apply Rinv_0_lt_compat; lra|].
    rewrite <- Rinv_1. apply Rinv_le_contravar; lra. }
  assert (H8 : 0 < / 10^5) by (apply Rinv_0_lt_compat; simpl; lra).
  assert (Hl2 : 2 * tt <= / 10^8).
  { assert (2 * / 10^9 <= / 10^8) by (simpl; lra). lra. }
  repeat (apply andb_true_intro; split); auto; unfold isclose; apply Rleb_true.
  - replace (1 - (1 - tt * tt) / (1 + tt * tt)) with (2 * tt * tt * / (1 + tt * tt)) by (field; lra).
    rewrite Rabs_right by nra.
    assert (2 * tt * tt * / (1 + tt * tt) <= 2 * tt * 1 * 1).
    { assert (tt <= 1) by (simpl in Hl; lra). apply Rmult_le_compat; nra. }
    pose proof (Rabs_pos ((1 - tt * tt) / (1 + tt * tt))). nra.
  - replace (0 - 2 * tt / (1 + tt * tt)) with (- (2 * tt * / (1 + tt * tt))) by (field; lra).
    rewrite Rabs_Ropp, Rabs_right by nra.
    assert (2 * tt * / (1 + tt * tt) <= 2 * tt * 1) by (apply Rmult_le_compat; nra).
    pose proof (Rabs_pos (2 * tt / (1 + tt * tt))). nra.
Qed.

Lemma close_pair_not_exact :
  exists r, from_directions [1; 0] close_v = Ok r /\ get_second_vector r <> close_v.
Proof.
  pose proof close_v_unit as Hv. pose proof close_v_allclose as Hc.
  assert (Hu : unitv [1; 0]) by (unfold unitv; simpl; lra).
  pose proof (unit_dot_bounds _ _ Hu Hv) as Hb.
  unfold from_directions. rewrite (unit_of_dot _ Hu), (unit_of_dot _ Hv).
  destruct (Req_EM_T 1 0); [lra|]. rewrite !vdiv_1, Hc.
  unfold perp_first_two. rewrite (unit_of_dot _ Hu). destruct (Req_EM_T 1 0); [lra|].
  assert (N : norm [0; 1 * -1] = 1) by (apply unit_of_dot; simpl; lra).
  rewrite N. cbn [bind length vzero repeat]. eexists; split; [reflexivity|].
  rewrite clamp1_id by auto.
  set (th := acos _). intros E.
  assert (Ho : rot_ok 2 (mkRot [1; 0] [0 / 1; 1 * -1 / 1] th)).
  { repeat split; unfold unitv; simpl; lra. }
  rewrite (end_of_second 2) in E by auto. unfold end_of in E. simpl in E.
  unfold close_v in E. injection E as E1 E2.
  assert (0 <= sin th) by (apply sin_ge_0; unfold th; apply acos_bound).
  pose proof tt_pos.
  assert (0 < 2 * tt / (1 + tt * tt)).
  { apply Rmult_lt_0_compat; [lra|]. apply Rinv_0_lt_compat. nra. }
  lra.
Qed.

(** Appending a direction starts a new rotation at the wrong vector. *)
Definition quarter : rotation := mkRot [1; 0] [0; 1] (PI / 4).
Lemma quarter_ok : rot_ok 2 quarter.
Proof. repeat split; unfold unitv; simpl; lra. Qed.

Lemma append_not_contiguous :
  exists s', append_from_direction [quarter] [-1; 0] = Ok s' /\
    (forall w, ~ chain [1; 0] s' w).
Proof.
  assert (A : allclose [0; 1] [-1; 0] = false).
  { unfold allclose. apply andb_false_iff. left. unfold isclose. apply Rleb_false.
    replace (0 - -1) with 1 by ring. replace (-1) with (- (1)) by ring.
    rewrite Rabs_Ropp, !Rabs_R1. simpl. lra. }
  destruct (from_directions_spec 2 [0; 1] [-1; 0]) as (r & E & Ho & E0 & _ & _); auto.
  - rewrite unit_of_dot; simpl; lra.
  - rewrite unit_of_dot; simpl; lra.
  - rewrite !dirof_of_unit by (unfold unitv; simpl; lra). simpl. lra.
  - unfold append_from_direction. cbn [last quarter rb1]. rewrite E. cbn [bind].
    eexists; split; [reflexivity|]. intros w H. cbn [app append_from_base_and_angle chain] in H.
    destruct H as (_ & H & _). rewrite E0 in H. rewrite dirof_of_unit in H by (unfold unitv; simpl; lra).
    unfold end_of, quarter in H. simpl in H. injection H as H1 H2.
    rewrite cos_PI4 in H1. assert (0 < 1 / sqrt 2); [|lra].
    apply Rmult_lt_0_compat; [lra|]. apply Rinv_0_lt_compat, sqrt_lt_R0; lra.
Qed.
