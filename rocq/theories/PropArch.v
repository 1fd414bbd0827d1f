(** Properties C115, C116: the arch obstacle. *)
Require Import Reals List Bool Arith ZArith Lra Lia Psatz.
From Verif Require Import Base Vec RotModel WeightModel WeightProofs ContainerModel ShapeModel.
Import ListNotations.
Open Scope R_scope.

(** ** Specification *)
(** A position within a block: in the frame of the block, at most half of the length from the center along each axis. *)
Definition in_block (o : @cobs R) (x : vec) : Prop :=
  Rabs (nth 0 (planar_to_relative (o_pose o) x) 0) <= nth 0 (o_axes o) 0 / 2 /\
  Rabs (nth 1 (planar_to_relative (o_pose o) x) 0) <= nth 1 (o_axes o) 0 / 2.
Definition strictly_in_block (o : @cobs R) (x : vec) : Prop :=
  Rabs (nth 0 (planar_to_relative (o_pose o) x) 0) < nth 0 (o_axes o) 0 / 2 /\
  Rabs (nth 1 (planar_to_relative (o_pose o) x) 0) < nth 1 (o_axes o) 0 / 2.
(** The arch: a rectangle of the lengths [a0] and [a1] with a gap which is open on the right. *)
Definition in_arch (w a0 a1 : R) (y : vec) : Prop :=
  - w / 2 <= nth 0 y 0 <= a0 - w / 2 /\ Rabs (nth 1 y 0) <= a1 / 2 /\
  ~ (w / 2 < nth 0 y 0 /\ Rabs (nth 1 y 0) < a1 / 2 - w).

(** ** Frames *)
Lemma turn_pair a v : turn a v = [cos a * nth 0 v 0 - sin a * nth 1 v 0; sin a * nth 0 v 0 + cos a * nth 1 v 0].
Proof. auto. Qed.
Lemma cs a : sin a * sin a + cos a * cos a = 1.
Proof. pose proof (sin2_cos2 a) as H. unfold Rsqr in H. lra. Qed.
Lemma pair_of (v : vec) : length v = 2%nat -> v = [nth 0 v 0; nth 1 v 0].
Proof. destruct v as [|x [|y [|z v]]]; try discriminate. auto. Qed.
(** A local pose without rotation. *)
Definition moved (p : pose R) (l : vec) : pose R := pose_from_relative turn Rplus p (mkPose l 0).
Lemma relative_moved p l0 l1 x0 x1 : length (p_pos p) = 2%nat -> exists y0 y1,
  planar_to_relative p [x0; x1] = [y0; y1] /\ planar_to_relative (moved p [l0; l1]) [x0; x1] = [y0 - l0; y1 - l1].
Proof.
  intros L. destruct p as [[|p0 [|p1 [|? ?]]] a]; try discriminate. clear L. unfold planar_to_relative, moved, pose_from_relative, from_relative. cbn [p_pos p_rot].
  rewrite Rplus_0_r. pose proof (cs a) as C. unfold turn, vsub. cbn. rewrite !cos_neg, !sin_neg.
  eexists _, _. split; [reflexivity|]. apply f_equal2; [|apply f_equal2; auto].
  - match goal with |- ?x = ?y => enough (x - y = (1 - (sin a * sin a + cos a * cos a)) * l0) as E; [rewrite C in E; lra|ring] end.
  - match goal with |- ?x = ?y => enough (x - y = (1 - (sin a * sin a + cos a * cos a)) * l1) as E; [rewrite C in E; lra|ring] end.
Qed.
Lemma to_relative_from p v0 v1 : length (p_pos p) = 2%nat -> planar_to_relative p (from_relative turn p [v0; v1]) = [v0; v1].
Proof.
  intros L. destruct p as [[|p0 [|p1 [|? ?]]] a]; try discriminate. clear L. unfold planar_to_relative, from_relative. cbn [p_pos p_rot].
  pose proof (cs a) as C. unfold turn, vsub. cbn. rewrite !cos_neg, !sin_neg. apply f_equal2; [|apply f_equal2; auto].
  - match goal with |- ?x = ?y => enough (x - y = ((sin a * sin a + cos a * cos a) - 1) * v0) as E; [rewrite C in E; lra|ring] end.
  - match goal with |- ?x = ?y => enough (x - y = ((sin a * sin a + cos a * cos a) - 1) * v1) as E; [rewrite C in E; lra|ring] end.
Qed.
Lemma from_relative_moved p l0 l1 v0 v1 : length (p_pos p) = 2%nat ->
  from_relative turn (moved p [l0; l1]) [v0; v1] = from_relative turn p [l0 + v0; l1 + v1].
Proof.
  intros L. destruct p as [[|p0 [|p1 [|? ?]]] a]; try discriminate. clear L. unfold moved, pose_from_relative, from_relative. cbn [p_pos p_rot]. rewrite Rplus_0_r. unfold turn. cbn.
  apply f_equal2; [ring|apply f_equal2; [ring|auto]].
Qed.
(** The components of the arch. *)
Lemma arch_list w a0 a1 r p : m_list (arch w a0 a1 r p) =
  [mkCObs (moved p [0; 0]) [w; a1] [0; 0];
   mkCObs (moved p [(a0 - w) * 0.5; (a1 - w) * 0.5]) [a0; w] [- r; 0];
   mkCObs (moved p [(a0 - w) * 0.5; - ((a1 - w) * 0.5)]) [a0; w] [- r; 0]].
Proof. reflexivity. Qed.
Lemma abs_le a b : Rabs a <= b <-> - b <= a <= b.
Proof. unfold Rabs. destruct (Rcase_abs a); lra. Qed.
Lemma abs_lt a b : Rabs a < b <-> - b < a < b.
Proof. unfold Rabs. destruct (Rcase_abs a); lra. Qed.
Lemma arch_blocks w a0 a1 r p x : 0 < w <= a0 -> w <= a1 -> length (p_pos p) = 2%nat -> length x = 2%nat ->
  (exists o, In o (m_list (arch w a0 a1 r p)) /\ in_block o x) <-> in_arch w a0 a1 (planar_to_relative p x).
Proof.
  intros H0 H1 L Lx. rewrite (pair_of x Lx), arch_list.
  destruct (relative_moved p 0 0 (nth 0 x 0) (nth 1 x 0) L) as (y0 & y1 & E0 & E1).
  destruct (relative_moved p ((a0 - w) * 0.5) ((a1 - w) * 0.5) (nth 0 x 0) (nth 1 x 0) L) as (z0 & z1 & F0 & F1).
  destruct (relative_moved p ((a0 - w) * 0.5) (- ((a1 - w) * 0.5)) (nth 0 x 0) (nth 1 x 0) L) as (u0 & u1 & G0 & G1).
  rewrite E0 in F0, G0. injection F0 as <- <-. injection G0 as <- <-. rewrite E0.
  unfold in_arch, in_block. cbn [nth].
  rewrite abs_le, abs_lt. split.
  - intros (o & [<-|[<-|[<-|[]]]] & B); cbn [o_pose o_axes nth] in B; rewrite ?E1, ?F1, ?G1 in B; cbn [nth] in B; rewrite !abs_le in B; split; try lra; (split; [lra|]); intros K; lra.
  - intros (A & B & C). destruct (Rle_lt_dec y0 (w / 2)) as [D|D].
    + eexists. split; [left; reflexivity|]. cbn [o_pose o_axes]. rewrite E1. cbn [nth]. rewrite !abs_le. lra.
    + destruct (Rle_lt_dec 0 y1) as [S0|S0].
      * assert (K : a1 / 2 - w <= y1) by (apply Rnot_lt_le; intros K; apply C; split; [auto|]; split; lra).
        eexists. split; [right; left; reflexivity|]. cbn [o_pose o_axes]. rewrite F1. cbn [nth]. rewrite !abs_le. lra.
      * assert (K : y1 <= - (a1 / 2 - w)) by (apply Rnot_lt_le; intros K; apply C; split; [auto|]; split; lra).
        eexists. split; [right; right; left; reflexivity|]. cbn [o_pose o_axes]. rewrite G1. cbn [nth]. rewrite !abs_le. lra.
Qed.

(** ** C115 *)
Section Gamma.
Variable gamma : @cobs R -> vec -> R.
Hypothesis Hgamma : forall o x, length x = 2%nat -> (gamma o x <= 1 <-> in_block o x).

Lemma rmin_below l : l <> [] -> (rmin_list l <= 1 <-> exists g, In g l /\ g <= 1).
Proof.
  intros N. split; [intros H; exists (rmin_list l); split; auto; apply rmin_list_in; auto|].
  intros (g & G & B). pose proof (rmin_list_le l g G). lra.
Qed.
(** The arch has the given lengths, and a gap between the arms: exactly the positions of the shape are in collision, in each pose. *)
Theorem C115_shape w a0 a1 p x : 0 < w <= a0 -> w <= a1 -> length (p_pos p) = 2%nat -> length x = 2%nat ->
  exists b, is_collision_free gamma (create_arch w a0 a1 p) x = Ok b /\
    (b = true <-> ~ in_arch w a0 a1 (planar_to_relative p x)) /\
    block_collision_free gamma (block_arch w a0 a1 p) x = b.
Proof.
  intros H0 H1 L Lx.
  pose proof (arch_blocks w a0 a1 (0.5 * a0 - 0.1 * w) p x H0 H1 L Lx) as A.
  pose proof (arch_blocks w a0 a1 ((a0 - w) * 0.5) p x H0 H1 L Lx) as B.
  unfold is_collision_free, get_gamma, min_of. fold (create_arch w a0 a1 p) in A. fold (block_arch w a0 a1 p) in B.
  set (l := map (fun o => gamma o x) (m_list (create_arch w a0 a1 p))).
  assert (N : l <> []) by (unfold l, create_arch; rewrite arch_list; discriminate).
  assert (M : rmin_list l <= 1 <-> in_arch w a0 a1 (planar_to_relative p x)).
  { rewrite rmin_below by auto. rewrite <- A. split.
    - intros (g & G & K). apply in_map_iff in G as (o & <- & O). exists o. split; auto. apply Hgamma; auto.
    - intros (o & O & K). exists (gamma o x). split; [apply (in_map (fun o => gamma o x)); auto|]. apply Hgamma; auto. }
  destruct l as [|g l'] eqn:E; [congruence|]. rewrite <- E in *. cbn [bind]. eexists. split; [reflexivity|]. split.
  - rewrite Rltb_true, <- M. lra.
  - destruct (Rltb 1 (rmin_list l)) eqn:F.
    + apply Rltb_true in F. apply forallb_forall. intros o O. apply negb_true_iff, Rleb_false.
      apply Rnot_le_lt. intros K. assert (in_arch w a0 a1 (planar_to_relative p x)) as I by (apply B; exists o; split; auto; apply Hgamma; auto).
      apply M in I. lra.
    + apply Rltb_false in F. apply M in F. apply B in F as (o & O & K).
      destruct (block_collision_free gamma (block_arch w a0 a1 p) x) eqn:Q; auto.
      unfold block_collision_free in Q. rewrite forallb_forall in Q. specialize (Q o O). apply negb_true_iff, Rleb_false in Q.
      apply Hgamma in K; auto. lra.
Qed.
End Gamma.
(** A block has the value which is one on its surface. *)
Definition block_gamma (o : @cobs R) (x : vec) : R :=
  if Rle_dec (Rabs (nth 0 (planar_to_relative (o_pose o) x) 0)) (nth 0 (o_axes o) 0 / 2)
  then if Rle_dec (Rabs (nth 1 (planar_to_relative (o_pose o) x) 0)) (nth 1 (o_axes o) 0 / 2) then 1 else 2 else 2.
Lemma block_gamma_ok o x : length x = 2%nat -> (block_gamma o x <= 1 <-> in_block o x).
Proof.
  intros _. unfold block_gamma, in_block. destruct (Rle_dec _ _); [destruct (Rle_dec _ _)|]; split; intros; try lra; try (destruct H; lra); auto.
Qed.
Lemma relative_zero x0 x1 : planar_to_relative (mkPose [0; 0] 0) [x0; x1] = [x0; x1].
Proof. unfold planar_to_relative, turn, vsub. cbn. rewrite Ropp_0, cos_0, sin_0. apply f_equal2; [ring|apply f_equal2; [ring|auto]]. Qed.
Example C115_shape_example :
  is_collision_free block_gamma (create_arch 1 4 6 (mkPose [0; 0] 0)) [2; 0] = Ok true /\
  is_collision_free block_gamma (create_arch 1 4 6 (mkPose [0; 0] 0)) [2; 2.5] = Ok false.
Proof.
  split.
  - destruct (C115_shape block_gamma block_gamma_ok 1 4 6 (mkPose [0; 0] 0) [2; 0] ltac:(lra) ltac:(lra) eq_refl eq_refl) as (b & A & B & _).
    rewrite A. f_equal. apply B. rewrite relative_zero. unfold in_arch. cbn [nth]. rewrite !abs_le, abs_lt. intros (_ & _ & C). apply C. lra.
  - destruct (C115_shape block_gamma block_gamma_ok 1 4 6 (mkPose [0; 0] 0) [2; 2.5] ltac:(lra) ltac:(lra) eq_refl eq_refl) as (b & A & B & _).
    rewrite A. f_equal. destruct b; auto. exfalso. apply (proj1 B); auto. rewrite relative_zero. unfold in_arch. cbn [nth]. rewrite !abs_le, abs_lt. lra.
Qed.
(** The arch moves as a whole: after a move it is the arch which is created at the new pose. *)
Theorem C115_moved w a0 a1 p new : update_pose turn Rplus (create_arch w a0 a1 p) new = create_arch w a0 a1 new.
Proof. reflexivity. Qed.
(** The older class does not move: its components stay where they were created. *)
Theorem C115_block_moved_refuted : exists new x,
  in_arch 1 4 6 (planar_to_relative new x) /\
  block_collision_free block_gamma (block_update (block_arch 1 4 6 (mkPose [0; 0] 0)) new) x = true /\
  m_pose (block_update (block_arch 1 4 6 (mkPose [0; 0] 0)) new) = new.
Proof.
  exists (mkPose [10; 0] 0), [10; 0]. split; [|split; auto].
  - unfold planar_to_relative, turn, vsub. cbn. rewrite Ropp_0, cos_0, sin_0. unfold in_arch. cbn [nth]. rewrite !abs_le, abs_lt. lra.
  - change (block_collision_free block_gamma (block_update (block_arch 1 4 6 (mkPose [0; 0] 0)) (mkPose [10; 0] 0)) [10; 0])
      with (block_collision_free block_gamma (block_arch 1 4 6 (mkPose [0; 0] 0)) [10; 0]).
    destruct (C115_shape block_gamma block_gamma_ok 1 4 6 (mkPose [0; 0] 0) [10; 0] ltac:(lra) ltac:(lra) eq_refl eq_refl) as (b & _ & B & C).
    rewrite C. apply B. rewrite relative_zero. unfold in_arch. cbn [nth]. lra.
Qed.

(** ** C116: reference points *)
(** The reference point of each arm is inside of the arm and of the root, so that the arms can be left through the root; the tree is the root with
    two children. *)
Definition reference_point (o : @cobs R) : vec := from_relative turn (o_pose o) (o_ref o).
Lemma arch_references w a0 a1 r p : length (p_pos p) = 2%nat -> 0 < w <= a1 -> - a0 < 2 * r < a0 -> - w < a0 - w - 2 * r < w ->
  exists root arm1 arm2, m_list (arch w a0 a1 r p) = [root; arm1; arm2] /\
    get_parent_idx (arch w a0 a1 r p) 0 = Ok None /\ get_parent_idx (arch w a0 a1 r p) 1 = Ok (Some 0%Z) /\ get_parent_idx (arch w a0 a1 r p) 2 = Ok (Some 0%Z) /\
    forall arm, In arm [arm1; arm2] -> strictly_in_block arm (reference_point arm) /\ strictly_in_block root (reference_point arm).
Proof.
  intros L H0 H1 H2. rewrite arch_list. eexists _, _, _. split; [reflexivity|]. split; auto. split; auto. split; auto.
  assert (LM : forall l0 l1, length (p_pos (moved p [l0; l1])) = 2%nat) by (intros l0 l1; destruct p as [[|p0 [|p1 [|? ?]]] a]; try discriminate; reflexivity).
  assert (K : forall l1, Rabs l1 < a1 / 2 -> forall arm, arm = mkCObs (moved p [(a0 - w) * 0.5; l1]) [a0; w] [- r; 0] ->
    strictly_in_block arm (reference_point arm) /\ strictly_in_block (mkCObs (moved p [0; 0]) [w; a1] [0; 0]) (reference_point arm)).
  { intros l1 B arm ->. unfold strictly_in_block, reference_point. cbn [o_pose o_axes o_ref nth]. split.
    - rewrite to_relative_from by apply LM. cbn [nth]. rewrite !abs_lt. lra.
    - rewrite from_relative_moved by auto.
      replace (from_relative turn p [(a0 - w) * 0.5 + - r; l1 + 0]) with (from_relative turn (moved p [0; 0]) [(a0 - w) * 0.5 - r; l1]).
      + rewrite to_relative_from by apply LM. cbn [nth]. rewrite abs_lt. split; [lra|auto].
      + rewrite from_relative_moved by auto. f_equal. apply f_equal2; [ring|apply f_equal2; [ring|auto]]. }
  intros arm [<-|[<-|[]]]; eapply K; try reflexivity; rewrite abs_lt; lra.
Qed.
Theorem C116_references w a0 a1 p : length (p_pos p) = 2%nat -> 0 < w <= a0 -> w <= a1 ->
  forall m, m = create_arch w a0 a1 p \/ m = block_arch w a0 a1 p ->
  exists root arm1 arm2, m_list m = [root; arm1; arm2] /\
    get_parent_idx m 0 = Ok None /\ get_parent_idx m 1 = Ok (Some 0%Z) /\ get_parent_idx m 2 = Ok (Some 0%Z) /\
    forall arm, In arm [arm1; arm2] -> strictly_in_block arm (reference_point arm) /\ strictly_in_block root (reference_point arm).
Proof.
  intros L H0 H1 m [->| ->]; [apply (arch_references w a0 a1 (0.5 * a0 - 0.1 * w) p)|apply (arch_references w a0 a1 ((a0 - w) * 0.5) p)]; auto; lra.
Qed.
Example C116_references_example : exists root arm1 arm2, m_list (create_arch 1 4 6 (mkPose [2; 3] 1)) = [root; arm1; arm2] /\
  strictly_in_block root (reference_point arm1) /\ strictly_in_block root (reference_point arm2).
Proof.
  destruct (C116_references 1 4 6 (mkPose [2; 3] 1) eq_refl ltac:(lra) ltac:(lra) _ (or_introl eq_refl)) as (r & b & c & A & _ & _ & _ & B).
  exists r, b, c. split; auto. split; [apply (B b)|apply (B c)]; cbn; auto.
Qed.
Print Assumptions C115_shape.
Print Assumptions C115_moved.
Print Assumptions C115_block_moved_refuted.
Print Assumptions C116_references.
