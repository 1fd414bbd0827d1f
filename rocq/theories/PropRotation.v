(** Properties C01 - C09: vector rotations and rotation sequences. *)
Require Import Reals List Lra Lia.
From Verif Require Import Base Vec Angle RotModel Spec RotProofs SeqProofs RotRefute.
Import ListNotations.
Open Scope R_scope.

(** C01 *)
Theorem C01_rotate_direction_is_plane_rotation :
  forall n b0 b1 a, orthonormal n b0 b1 ->
  IsPlaneRotation n b0 b1 a (fun v => rotate_direction v b0 b1 a).
Proof. exact rotate_direction_is_rotation. Qed.
Theorem C01_zero_vector_unchanged :
  forall n b0 b1 a, rotate_direction (vzero n) b0 b1 a = vzero n.
Proof.
  intros. unfold rotate_direction. rewrite norm_vzero. destruct (Req_EM_T 0 0); [auto|lra].
Qed.
Example C01_case :
  orthonormal 3 [1; 0; 0] [0; 1; 0] /\ orthonormal 2 [3/5; 4/5] [-(4/5); 3/5].
Proof. split; [exact orthonormal_e01_3 | exact orthonormal_35]. Qed.
Print Assumptions C01_rotate_direction_is_plane_rotation.
Print Assumptions C01_zero_vector_unchanged.

(** C02 *)
Theorem C02_rotations_add :
  forall n r v s t, proper n r -> length v = n ->
  rotate r (rotate r v s) t = rotate r v (s + t).
Proof.
  intros n r v s t Hr Hv. pose proof Hr as (L0 & L1 & _). unfold rotate.
  rewrite !(rotate_direction_eq n) by
    (auto; first [apply (rotate_direction_length n) | apply (plane_rot_length n)]; auto).
  rewrite (plane_rot_compose n) by auto. f_equal. ring.
Qed.
Theorem C02_inverse_undoes_rotate :
  forall n r v, proper n r -> length v = n ->
  inverse_rotate r (rotate r v 1) = v /\ rotate r (inverse_rotate r v) 1 = v /\
  rotate (inv r) (rotate r v 1) 1 = v.
Proof.
  intros n r v Hr Hv. pose proof Hr as (L0 & L1 & _). unfold rotate, inverse_rotate, inv; simpl.
  rewrite !(rotate_direction_eq n) by
    (auto; first [apply (rotate_direction_length n) | apply (plane_rot_length n)]; auto).
  rewrite !(plane_rot_compose n) by auto.
  split; [|split].
  all: match goal with |- plane_rot _ _ _ ?a = _ => replace a with 0 by ring end;
    apply (plane_rot_zero n); auto.
Qed.
Example C02_case : proper 2 (mkRot [3/5; 4/5] [-(4/5); 3/5] 5) /\ length [7; -2] = 2%nat.
Proof. split; [exact orthonormal_35 | reflexivity]. Qed.
Print Assumptions C02_rotations_add.
Print Assumptions C02_inverse_undoes_rotate.

(** C03 *)
Theorem C03_from_directions_exact :
  forall n u v, length u = n -> length v = n -> (2 <= n)%nat ->
  norm u <> 0 -> norm v <> 0 -> dot (direction u) (direction v) <> -1 ->
  allclose (direction u) (direction v) = false ->
  exists r, from_directions u v = Ok r /\ proper n r /\ get_first_vector r = direction u /\
    0 <= rangle r < PI /\ cos (rangle r) = dot (direction u) (direction v) /\
    get_second_vector r = direction v.
Proof.
  intros n u v Lu Lv Hn Hu Hv Hd Hc.
  destruct (from_directions_spec n u v) as (r & E & Ho & E0 & Ea & Es); auto.
  pose proof (unit_dot_bounds _ _ (dirof_unit u Hu) (dirof_unit v Hv)) as Hb.
  exists r. repeat split; auto; try apply Ho.
  - rewrite Ea. apply acos_bound.
  - rewrite Ea. apply acos_lt_PI. unfold dirof in *. unfold direction in Hd. fold (vdiv u (norm u)) in Hd.
    fold (vdiv v (norm v)) in Hd. lra.
  - rewrite Ea. rewrite cos_acos; auto.
Qed.
Theorem C03_partial_rotation_angle :
  forall n u v r w, length u = n -> length v = n -> (2 <= n)%nat ->
  norm u <> 0 -> norm v <> 0 -> dot (direction u) (direction v) <> -1 ->
  from_directions u v = Ok r ->
  norm (rotate r u w) = norm u /\
  dot (rotate r u w) u = cos (w * rangle r) * (norm u * norm u).
Proof.
  intros n u v r w Lu Lv Hn Hu Hv Hd E.
  destruct (from_directions_spec n u v) as (r' & E' & Ho & E0 & _); auto.
  rewrite E in E'. injection E' as <-. apply (rotate_partial_cos n); auto.
Qed.
Example C03_case :
  let u := [1; 0; 0] in let v := [0; 1; 0] in
  norm u <> 0 /\ norm v <> 0 /\ dot (direction u) (direction v) <> -1 /\
  allclose (direction u) (direction v) = false.
Proof.
  assert (N1 : norm [1; 0; 0] = 1) by (apply unit_of_dot; simpl; lra).
  assert (N2 : norm [0; 1; 0] = 1) by (apply unit_of_dot; simpl; lra).
  cbv zeta. unfold direction. rewrite N1, N2, Rinv_1. repeat split; try lra.
  - simpl. lra.
  - simpl. apply Bool.andb_false_iff. left. unfold isclose. apply Rleb_false.
    rewrite !Rmult_1_l. replace (1 - 1 * 0) with 1 by ring. replace (1 * 0) with 0 by ring.
    rewrite Rabs_R0. replace (1 - 0) with 1 by ring. rewrite Rabs_R1. simpl. lra.
Qed.
Print Assumptions C03_from_directions_exact.
Print Assumptions C03_partial_rotation_angle.

(** C04 *)
Theorem C04_close_pair_error_bound :
  forall n u v r, length u = n -> length v = n -> (2 <= n)%nat ->
  norm u <> 0 -> norm v <> 0 -> dot (direction u) (direction v) <> -1 ->
  from_directions u v = Ok r ->
  proper n r /\
  norm (vsub (get_second_vector r) (direction v)) <= 2 * norm (vsub (direction u) (direction v)).
Proof.
  intros n u v r Lu Lv Hn Hu Hv Hd E. split.
  - destruct (from_directions_spec n u v) as (r' & E' & Ho & _); auto.
    rewrite E in E'. injection E' as <-. exact Ho.
  - apply (second_error_bound n); auto.
Qed.
Theorem C04_same_direction_exact :
  forall n u v r, length u = n -> length v = n -> (2 <= n)%nat ->
  norm u <> 0 -> norm v <> 0 -> direction u = direction v ->
  from_directions u v = Ok r -> get_second_vector r = direction v.
Proof.
  intros n u v r Lu Lv Hn Hu Hv He E. apply (exact_second n u v r); auto; [|left; exact He].
  change (dot (direction u) (direction v) <> -1). rewrite He.
  pose proof (dirof_unit v Hv) as H. unfold unitv in H. change (dot (dirof v) (dirof v) <> -1). lra.
Qed.
Theorem C04_degenerate_is_an_error :
  (forall u v, norm u = 0 \/ norm v = 0 -> from_directions u v = Err ENaN) /\
  (forall u v, length u = length v -> INR (length u) < 10^16 -> norm u <> 0 -> norm v <> 0 ->
     dot (direction u) (direction v) = -1 -> from_directions u v = Err ENaN).
Proof. split; [exact from_directions_zero | exact from_directions_antiparallel]. Qed.
(** The second vector is not the requested direction for numerically close vectors. *)
Theorem C04_close_pair_exactness_refuted :
  exists u v r, unitv u /\ unitv v /\ from_directions u v = Ok r /\ get_second_vector r <> v.
Proof.
  destruct close_pair_not_exact as (r & E & H).
  exists [1; 0], close_v, r. split; [unfold unitv; simpl; lra|]. split; [exact close_v_unit|]. auto.
Qed.
Example C04_case :
  length [1; 0] = 2%nat /\ norm [1; 0] <> 0 /\ norm [-1; 0] <> 0 /\
  dot (direction [1; 0]) (direction [-1; 0]) = -1.
Proof.
  assert (N1 : norm [1; 0] = 1) by (apply unit_of_dot; simpl; lra).
  assert (N2 : norm [-1; 0] = 1) by (apply unit_of_dot; simpl; lra).
  unfold direction. rewrite N1, N2. simpl. repeat split; lra.
Qed.
Print Assumptions C04_close_pair_error_bound.
Print Assumptions C04_same_direction_exact.
Print Assumptions C04_degenerate_is_an_error.
Print Assumptions C04_close_pair_exactness_refuted.

(** C05 *)
Theorem C05_rotate_array_columnwise :
  forall n b0 b1 a cols, length b0 = n -> length b1 = n ->
  Forall (fun c => length c = n /\ unitv c) cols ->
  rotate_array cols b0 b1 a = Ok (map (fun c => rotate_direction c b0 b1 a) cols).
Proof.
  intros n b0 b1 a cols L0 L1 H. apply mapM_ok. intros c Hc.
  rewrite Forall_forall in H. destruct (H c Hc) as [Lc Uc].
  rewrite (rotate_column_unit n), (rotate_direction_eq n); auto.
Qed.
Theorem C05_rotate_array_normalises :
  forall n b0 b1 a cols, length b0 = n -> length b1 = n ->
  Forall (fun c => length c = n /\ norm c <> 0) cols ->
  rotate_array cols b0 b1 a = Ok (map (fun c => rotate_direction (direction c) b0 b1 a) cols).
Proof.
  intros n b0 b1 a cols L0 L1 H. apply mapM_ok. intros c Hc.
  rewrite Forall_forall in H. destruct (H c Hc) as [Lc Uc].
  rewrite (rotate_column_eq n) by auto. change (direction c) with (dirof c).
  rewrite (rotate_direction_eq n); auto. rewrite dirof_length; auto.
Qed.
Theorem C05_rotate_sequence :
  forall n self s f v w, proper n self -> Forall (proper n) s -> length v = n -> chain v s w ->
  exists s', rotate_sequence self s f = Ok s' /\ Forall (proper n) s' /\
    map rangle s' = map rangle s /\ chain (rotate self v f) s' (rotate self w f).
Proof. intros. apply (rotate_sequence_spec n); auto. Qed.
Example C05_case :
  proper 2 quarter /\ Forall (proper 2) [quarter] /\ chain [1; 0] [quarter] (end_of quarter).
Proof.
  split; [exact quarter_ok|]. split; [|split; reflexivity].
  constructor; [exact quarter_ok | constructor].
Qed.
Print Assumptions C05_rotate_array_columnwise.
Print Assumptions C05_rotate_array_normalises.
Print Assumptions C05_rotate_sequence.

(** C06 *)
Theorem C06_directional_addition :
  forall n v1 v2 w, length v1 = n -> length v2 = n -> (2 <= n)%nat -> 0 <= w <= 1 ->
  norm v1 <> 0 -> norm v2 <> 0 -> dot (direction v1) (direction v2) <> -1 ->
  exists v, directional_vector_addition v1 v2 w = Ok v /\ length v = n /\
    norm v = (1 - w) * norm v1 + w * norm v2 /\
    (w = 0 -> v = v1) /\
    (w = 1 -> direction v1 = direction v2 \/ allclose (direction v1) (direction v2) = false ->
     v = v2).
Proof. exact dva_spec. Qed.
Theorem C06_zero_operand :
  forall v1 v2 w,
  (norm v1 = 0 -> directional_vector_addition v1 v2 w = Ok (vscale w v2)) /\
  (norm v1 <> 0 -> norm v2 = 0 -> directional_vector_addition v1 v2 w = Ok (vscale (1 - w) v1)).
Proof.
  intros. unfold directional_vector_addition. split; intros.
  - destruct (Req_EM_T (norm v1) 0); [auto|contradiction].
  - destruct (Req_EM_T (norm v1) 0); [contradiction|].
    destruct (Req_EM_T (norm v2) 0); [auto|contradiction].
Qed.
Example C06_case :
  norm [1; 0; 0] <> 0 /\ norm [0; 1; 0] <> 0 /\ dot (direction [1; 0; 0]) (direction [0; 1; 0]) <> -1.
Proof.
  destruct C03_case as (A & B & C & _). auto.
Qed.
Print Assumptions C06_directional_addition.
Print Assumptions C06_zero_operand.

(** C07 *)
Theorem C07_sequence_from_vectors :
  forall n l, (2 <= n)%nat -> Forall (fun v => length v = n) l ->
  (forall v, In v l -> isclose (norm v) 0 = false) ->
  (forall i, (S i < length l)%nat ->
     dot (direction (nth i l [])) (direction (nth (S i) l [])) <> -1) ->
  exists s, create_from_vector_array l = Ok s /\ length s = (length l - 1)%nat /\
    Forall (proper n) s /\
    forall i, (S i < length l)%nat ->
      let u := direction (nth i l []) in
      let v := direction (nth (S i) l []) in
      let r := nth i s (mkRot [] [] 0) in
      rb0 r = u /\ (u = v \/ allclose u v = false -> end_of r = v) /\
      (allclose u v = true -> end_of r = u).
Proof. exact create_spec. Qed.
Theorem C07_end_vector :
  forall n l u v, (2 <= n)%nat -> Forall (fun v => length v = n) (l ++ [u; v]) ->
  (forall x, In x (l ++ [u; v]) -> isclose (norm x) 0 = false) ->
  (forall i, (S i < length (l ++ [u; v]))%nat ->
     dot (direction (nth i (l ++ [u; v]) [])) (direction (nth (S i) (l ++ [u; v]) [])) <> -1) ->
  direction u = direction v \/ allclose (direction u) (direction v) = false ->
  exists s, create_from_vector_array (l ++ [u; v]) = Ok s /\ get_end_vector s = Ok (direction v).
Proof.
  intros n l u v Hn Hl Hz Ha He.
  destruct (create_spec n (l ++ [u; v])) as (s & E & Ls & Os & Hs); auto.
  exists s. split; auto. rewrite app_length in *. simpl in *.
  assert (s <> []) by (intros ->; simpl in Ls; lia).
  rewrite (get_end_vector_nth n) by auto. f_equal.
  destruct (Hs (length l)) as (_ & H1 & _); [lia|].
  rewrite nth_middle in H1.
  replace (S (length l)) with (length (l ++ [u])) in H1 by (rewrite app_length; simpl; lia).
  replace (l ++ [u; v]) with ((l ++ [u]) ++ [v]) in H1 by (rewrite <- app_assoc; reflexivity).
  rewrite nth_middle in H1. rewrite <- H1 by auto. f_equal. f_equal. lia.
Qed.
Theorem C07_invalid_vectors_rejected :
  (forall l, (exists v, In v l /\ norm v = 0) -> create_from_vector_array l = Err EValue) /\
  (forall l i, (S i < length l)%nat ->
     dot (direction (nth i l [])) (direction (nth (S i) l [])) = -1 ->
     create_from_vector_array l = Err EValue).
Proof. split; [exact create_errors | exact create_antiparallel]. Qed.
Example C07_case :
  let l := [[1; 0; 0]; [0; 1; 0]] in
  Forall (fun v => length v = 3%nat) l /\
  (forall v, In v l -> isclose (norm v) 0 = false) /\
  (forall i, (S i < length l)%nat ->
     dot (direction (nth i l [])) (direction (nth (S i) l [])) <> -1).
Proof.
  destruct C03_case as (_ & _ & A & _).
  assert (N1 : norm [1; 0; 0] = 1) by (apply unit_of_dot; simpl; lra).
  assert (N2 : norm [0; 1; 0] = 1) by (apply unit_of_dot; simpl; lra).
  cbv zeta. split; [repeat constructor|]. split.
  - intros v [<-|[<-|[]]]; [rewrite N1|rewrite N2]; unfold isclose; apply Rleb_false;
      rewrite Rabs_R0; replace (1 - 0) with 1 by ring; rewrite Rabs_R1; simpl; lra.
  - intros [|i] Hi; [exact A | simpl in Hi; lia].
Qed.
Print Assumptions C07_sequence_from_vectors.
Print Assumptions C07_end_vector.
Print Assumptions C07_invalid_vectors_rejected.

(** C08 *)
Theorem C08_weighted_rotation_is_isometry :
  forall n s w u v, Forall (proper n) s -> length w = length s -> s <> [] ->
  length u = n -> length v = n ->
  exists u' v', rotate_weighted s u w = Ok u' /\ rotate_weighted s v w = Ok v' /\
    length u' = n /\ length v' = n /\ dot u' v' = dot u v.
Proof. exact rotate_weighted_isometry. Qed.
Theorem C08_reaches_each_vector :
  forall n s k m v w, Forall (proper n) s -> length s = (k + 1 + m)%nat -> length v = n ->
  chain v s w ->
  rotate_weighted s v (one_hot k m) = Ok (end_of (nth k s (mkRot [] [] 0))).
Proof. exact rotate_weighted_one_hot. Qed.
Theorem C08_zero_weights_identity :
  forall n s v, Forall (proper n) s -> s <> [] -> length v = n ->
  rotate_weighted s v (repeat 0 (length s)) = Ok v.
Proof. exact rotate_weighted_zero. Qed.
Theorem C08_full_rotation_reaches_end :
  forall n s v w, Forall (proper n) s -> s <> [] -> length v = n -> chain v s w ->
  seq_rotate s v 1 = Ok w /\ get_end_vector s = Ok w.
Proof.
  intros. split; [apply (seq_rotate_full n); auto | apply (chain_end n v); auto].
Qed.
Example C08_case :
  Forall (proper 2) [quarter] /\ [quarter] <> [] /\ chain [1; 0] [quarter] (end_of quarter) /\
  length [quarter] = (0 + 1 + 0)%nat.
Proof.
  split; [constructor; [exact quarter_ok | constructor]|].
  split; [discriminate|]. split; [split; reflexivity | reflexivity].
Qed.
Print Assumptions C08_weighted_rotation_is_isometry.
Print Assumptions C08_reaches_each_vector.
Print Assumptions C08_zero_weights_identity.
Print Assumptions C08_full_rotation_reaches_end.

(** C09.  The end vector is right ... *)
Theorem C09_append_direction_partial :
  forall n s l d, (2 <= n)%nat -> proper n l -> length d = n -> norm d <> 0 ->
  dot (rb1 l) (direction d) <> -1 ->
  rb1 l = direction d \/ allclose (rb1 l) (direction d) = false ->
  exists s', append_from_direction (s ++ [l]) d = Ok s' /\ length s' = S (length (s ++ [l])) /\
    get_end_vector s' = Ok (direction d).
Proof. exact append_from_direction_end. Qed.
(** ... but the new rotation does not start at the end of the sequence. *)
Theorem C09_append_direction_refuted :
  exists s d w s', Forall (proper 2) s /\ chain [1; 0] s w /\ norm d <> 0 /\
    append_from_direction s d = Ok s' /\ forall w', ~ chain [1; 0] s' w'.
Proof.
  destruct append_not_contiguous as (s' & E & H).
  exists [quarter], [-1; 0], (end_of quarter), s'.
  split; [constructor; [exact quarter_ok | constructor]|].
  split; [split; reflexivity|]. split; [rewrite unit_of_dot; simpl; lra|]. auto.
Qed.
Example C09_case :
  proper 2 quarter /\ norm [1; 0] <> 0 /\ dot (rb1 quarter) (direction [1; 0]) <> -1.
Proof.
  assert (N1 : norm [1; 0] = 1) by (apply unit_of_dot; simpl; lra).
  unfold direction. rewrite N1. split; [exact quarter_ok|]. simpl. lra.
Qed.
Print Assumptions C09_append_direction_partial.
Print Assumptions C09_append_direction_refuted.
