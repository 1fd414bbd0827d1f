(** Properties C80, C81 and C82: fields which turn a reference by learned or averaged angles. *)
Require Import Reals List Lra Lia Psatz Bool.
From Verif Require Import Base Vec Angle Pow RotModel Spec RotProofs ProjModel PropProject PropFold DynModel RotAvoidModel RotAvoidProofs FieldModel PropLocalRot.
Import ListNotations.
Open Scope R_scope.

Lemma weighted_columns_ok n ws cs : Forall (fun c => length c = n) cs -> length (weighted_columns n ws cs) = n.
Proof.
  unfold weighted_columns. intros H. revert ws. induction H as [|c cs Hc H IH]; intros [|w ws]; simpl; try apply repeat_length.
  rewrite length_vadd, length_vscale, IH. lia.
Qed.
Lemma weighted_columns_dot n b ws cs : Forall (fun c => dot b c = 0) cs -> dot b (weighted_columns n ws cs) = 0.
Proof.
  unfold weighted_columns. intros H. revert ws. induction H as [|c cs Hc H IH]; intros [|w ws]; simpl; try apply dot_vzero_r.
  rewrite dot_vadd_r, dot_vscale_r, IH, Hc. ring.
Qed.

Lemma nth_map_R (f : R -> R) l i : (i < length l)%nat -> nth i (map f l) 0 = f (nth i l 0).
Proof. intros H. rewrite (nth_indep _ 0 (f 0)) by (rewrite map_length; auto). apply map_nth. Qed.

(** ** C80: dynamics rotated by obstacles *)
(** The two averages. *)
Definition average (n : nat) (ws : list R) (f : vec -> vec) (obs : list (R * vec)) : vec :=
  weighted_columns n ws (map (fun o => if Req_EM_T (fst o) 0 then vzero n else f (snd o)) obs).
Lemma average_length n ws f obs : (forall x, length (f x) = n) -> length (average n ws f obs) = n.
Proof.
  intros H. apply weighted_columns_ok. apply Forall_forall. intros c Hc. apply in_map_iff in Hc.
  destruct Hc as (o & <- & _). destruct (Req_EM_T _ _); [apply repeat_length|auto].
Qed.
Lemma plane_rot_dot_ge' n z b0 b1 a : orthonormal n b0 b1 -> length z = n ->
  cos a * (norm z * norm z) <= dot z (plane_rot z b0 b1 a).
Proof.
  intros O L. pose proof O as (L0 & L1 & _). destruct (Req_dec (norm z) 0) as [Z|Z].
  - rewrite Z. apply norm_zero_iff in Z. rewrite Z, dot_vzero_l. lra.
  - pose proof (plane_rot_dot_ge n (dirof z) b0 b1 a O) as H.
    rewrite dirof_length in H. specialize (H L (dirof_unit _ Z)).
    assert (E : z = vscale (norm z) (dirof z)) by (unfold dirof; vext; field; auto).
    rewrite E at 3 4. rewrite <- (plane_rot_scale n) by (auto; rewrite dirof_length; auto).
    autorewrite with vdot. rewrite dot_comm. pose proof (norm_pos _ Z).
    apply (Rmult_le_compat_l (norm z * norm z)) in H; [|nra]. lra.
Qed.
Definition speedy (n : nat) (f : vec -> vec) : Prop := forall x, length (f x) = n.
(** The result is the initial field or the linear field turned, at its speed, by at most the angle
    between the two averages. *)
Theorem C80_speed_and_angle : forall n initial zero scaling factor obs p v,
  (2 <= n)%nat -> INR n < 10 ^ 16 -> speedy n initial -> speedy n zero -> 0 < scaling -> 0 < factor ->
  obstacle_rotated n initial zero scaling factor obs p = Ok v ->
  (v = initial p /\ exists ws, rotated_weights (map fst obs) = Ok ws /\
     (norm (average n ws zero obs) = 0 \/ norm (average n ws initial obs) = 0)) \/
  (norm v = norm (zero p) /\ exists ws, rotated_weights (map fst obs) = Ok ws /\
     dot (direction (average n ws zero obs)) (direction (average n ws initial obs)) * (norm (zero p) * norm (zero p))
     <= dot (zero p) v).
Proof.
  intros n initial zero scaling factor obs p v Hn Hbig Hi Hz Hs Hf. unfold obstacle_rotated.
  destruct (rotated_weights _) as [ws|] eqn:W; [|discriminate]. cbn [bind]. cbv zeta.
  fold (average n ws zero obs). fold (average n ws initial obs).
  set (B0 := average n ws zero obs). set (B1 := average n ws initial obs).
  assert (L0 : length B0 = n) by (apply average_length; auto). assert (L1 : length B1 = n) by (apply average_length; auto).
  destruct (Reqb (norm B0) 0) eqn:E0; cbn [orb].
  { intros E. injection E as <-. left. split; auto. exists ws. split; auto. left. apply Reqb_true in E0. auto. }
  destruct (Reqb (norm B1) 0) eqn:E1; cbn [orb].
  { intros E. injection E as <-. left. split; auto. exists ws. split; auto. right. apply Reqb_true in E1. auto. }
  apply Reqb_false in E0. apply Reqb_false in E1. fold (dirof B0). fold (dirof B1).
  pose proof (dirof_unit _ E0) as U0. pose proof (dirof_unit _ E1) as U1.
  destruct (Req_dec (dot (dirof B0) (dirof B1)) (-1)) as [A|A].
  { rewrite from_directions_antiparallel; try discriminate; rewrite ?(dirof_of_unit _ U0), ?(dirof_of_unit _ U1); auto.
    - rewrite !dirof_length. congruence.
    - rewrite dirof_length, L0. auto.
    - apply unit_norm_neq; auto.
    - apply unit_norm_neq; auto. }
  destruct (from_directions_spec n (dirof B0) (dirof B1)) as (r & R & O & R0 & RA & _);
    rewrite ?dirof_length, ?(dirof_of_unit _ U0), ?(dirof_of_unit _ U1); auto; try (apply unit_norm_neq; auto).
  rewrite R. cbn [bind]. intros E. injection E as <-. right.
  rewrite (dirof_of_unit _ U0), (dirof_of_unit _ U1) in RA.
  unfold rotate. rewrite RA. pose proof O as (M0 & M1 & _). rewrite (rotate_direction_eq n) by auto.
  split; [apply (plane_rot_norm n); auto|]. exists ws. split; auto.
  set (w := Rmin _ 1 * Rmin _ 1).
  assert (Hw : 0 <= w <= 1).
  { assert (A1 : 0 <= Rmin (Rmin (norm B0) (norm B1) / scaling) 1 <= 1).
    { split; [apply Rmin_glb; [|lra]|apply Rmin_r]. apply Rmult_le_pos; [apply Rmin_glb; apply norm_nonneg|]. left. apply Rinv_0_lt_compat. auto. }
    assert (A2 : 0 <= Rmin (factor * (dot (dirof B1) (dirof B1) + 1)) 1 <= 1).
    { split; [apply Rmin_glb; [|lra]|apply Rmin_r]. unfold unitv in U1. rewrite U1. lra. }
    assert (G : forall x y, 0 <= x <= 1 -> 0 <= y <= 1 -> 0 <= x * y <= 1) by (intros x y ? ?; nra).
    apply G; auto. }
  eapply Rle_trans; [|apply (plane_rot_dot_ge' n); auto].
  apply Rmult_le_compat_r; [pose proof (norm_nonneg (zero p)); nra|].
  pose proof (unit_dot_bounds _ _ U0 U1) as BD. pose proof (cos_acos (dot (dirof B0) (dirof B1)) BD) as CA.
  pose proof (acos_bound (dot (dirof B0) (dirof B1))) as AB.
  set (t := acos _) in *. change (dot (dirof B0) (dirof B1) <= cos (w * t)). apply Rle_trans with (cos t); [lra|].
  destruct (Req_dec (w * t) t) as [Q|NE]; [rewrite Q; lra|]. left. apply cos_decreasing_1; nra.
Qed.
(** Without obstacles: the initial field. *)
Theorem C80_no_obstacle : forall n initial zero scaling factor p,
  obstacle_rotated n initial zero scaling factor [] p = Ok (initial p).
Proof.
  intros. unfold obstacle_rotated, rotated_weights. simpl. destruct (Rleb 1 0) eqn:E; [apply Rleb_true in E; lra|].
  cbn [bind]. unfold weighted_columns. simpl. rewrite norm_vzero.
  replace (Reqb 0 0) with true by (symmetry; apply Reqb_true; auto). reflexivity.
Qed.
(** In contact with a single obstacle, where the linear field has the direction it has in the
    center of the obstacle, the result has the direction of the initial field in the center. *)
Theorem C80_contact : forall n initial zero scaling factor g c p k,
  (2 <= n)%nat -> speedy n initial -> speedy n zero -> 0 < scaling -> 1 <= factor ->
  0 < g <= 1 -> scaling <= norm (zero c) -> scaling <= norm (initial c) ->
  dot (direction (zero c)) (direction (initial c)) <> -1 ->
  exact_pair (direction (zero c)) (direction (initial c)) ->
  0 < k -> zero p = vscale k (zero c) ->
  obstacle_rotated n initial zero scaling factor [(g, c)] p = Ok (vscale (norm (zero p)) (direction (initial c))).
Proof.
  intros n initial zero scaling factor g c p k Hn Hi Hz Hs Hf Hg N0 N1 A X Hk P.
  change (direction (zero c)) with (dirof (zero c)) in *. change (direction (initial c)) with (dirof (initial c)) in *.
  unfold obstacle_rotated, rotated_weights. cbn [map fst snd existsb].
  replace (Rleb g 1) with true by (symmetry; apply Rleb_true; lra). cbn [orb]. cbn [rsum fold_right].
  unfold rsum. cbn [fold_right]. destruct (Req_EM_T (g + 0) 0); [lra|]. cbn [bind map]. cbv zeta.
  destruct (Req_EM_T g 0); [lra|]. unfold weighted_columns. cbn [combine fold_right fst snd].
  replace (g / (g + 0)) with 1 by (field; lra).
  pose proof (Hz c) as Lz. pose proof (Hi c) as Li. unfold speedy in *.
  replace (vadd (vscale 1 (zero c)) (vzero n)) with (zero c) by (vext; ring).
  replace (vadd (vscale 1 (initial c)) (vzero n)) with (initial c) by (vext; ring).
  assert (Z0 : norm (zero c) <> 0) by lra. assert (Z1 : norm (initial c) <> 0) by lra.
  rewrite (proj2 (Reqb_false _ _) Z0), (proj2 (Reqb_false _ _) Z1). cbn [orb].
  fold (dirof (zero c)). fold (dirof (initial c)).
  pose proof (dirof_unit _ Z0) as U0. pose proof (dirof_unit _ Z1) as U1.
  assert (Y0 : norm (dirof (zero c)) <> 0) by (apply unit_norm_neq; auto).
  assert (Y1 : norm (dirof (initial c)) <> 0) by (apply unit_norm_neq; auto).
  destruct (from_directions_spec n (dirof (zero c)) (dirof (initial c))) as (r & R & O & R0 & RA & _);
    rewrite ?dirof_length, ?(dirof_of_unit _ U0), ?(dirof_of_unit _ U1); auto.
  assert (SEC : get_second_vector r = dirof (initial c)).
  { rewrite <- (dirof_of_unit _ U1). apply (exact_second n (dirof (zero c)) (dirof (initial c)) r); auto;
      rewrite ?dirof_length, ?(dirof_of_unit _ U0), ?(dirof_of_unit _ U1); auto. }
  rewrite R. cbn [bind]. f_equal.
  replace (Rmin (Rmin (norm (zero c)) (norm (initial c)) / scaling) 1) with 1.
  2:{ symmetry. apply Rmin_right. apply Rmult_le_reg_r with scaling; auto. unfold Rdiv. rewrite Rmult_assoc, Rinv_l by lra.
      rewrite Rmult_1_l, Rmult_1_r. apply Rmin_glb; auto. }
  replace (Rmin (factor * (dot (dirof (initial c)) (dirof (initial c)) + 1)) 1) with 1.
  2:{ symmetry. apply Rmin_right. unfold unitv in U1. rewrite U1. lra. }
  unfold rotate. rewrite P. pose proof O as (M0 & M1 & _).
  rewrite (rotate_direction_eq n) by (auto; rewrite length_vscale; auto).
  rewrite norm_vscale, (Rabs_right k) by lra.
  assert (E : vscale k (zero c) = vscale (k * norm (zero c)) (dirof (zero c))) by (unfold dirof; vext; field; auto).
  rewrite E, <- (plane_rot_scale n) by (auto; rewrite dirof_length; auto). f_equal.
  rewrite <- SEC. unfold get_second_vector. rewrite (rotate_direction_eq n) by auto.
  rewrite R0, (dirof_of_unit _ U0). f_equal. ring.
Qed.
(** Out of contact the nearer obstacle has the larger weight, and the weights sum to at most one. *)
Theorem C80_weights : forall gammas, (forall g, In g gammas -> 1 < g) -> exists ws, rotated_weights gammas = Ok ws /\
  length ws = length gammas /\ rsum ws <= 1 /\ (forall w, In w ws -> 0 < w) /\
  forall i j, (i < length gammas)%nat -> (j < length gammas)%nat ->
    nth i gammas 0 < nth j gammas 0 -> nth j ws 0 < nth i ws 0.
Proof.
  intros gammas H. unfold rotated_weights.
  replace (existsb (fun g => Rleb g 1) gammas) with false.
  2:{ symmetry. apply not_true_is_false. intros E. apply existsb_exists in E. destruct E as (g & I & E).
      apply Rleb_true in E. specialize (H g I). lra. }
  cbv zeta. set (w := map (fun g => 1 / (g - 1)) gammas).
  assert (Pw : forall x, In x w -> 0 < x).
  { intros x Ix. apply in_map_iff in Ix. destruct Ix as (g & <- & Ig). specialize (H g Ig). apply Rdiv_lt_0_compat; lra. }
  assert (Dw : forall i j, (i < length gammas)%nat -> (j < length gammas)%nat ->
            nth i gammas 0 < nth j gammas 0 -> nth j w 0 < nth i w 0).
  { intros i j Li Lj Q. unfold w. pose proof (H _ (nth_In gammas 0 Li)). pose proof (H _ (nth_In gammas 0 Lj)).
    rewrite !nth_map_R by auto.
    unfold Rdiv. rewrite !Rmult_1_l. apply Rinv_lt_contravar; [apply Rmult_lt_0_compat|]; lra. }
  assert (Lw : length w = length gammas) by (unfold w; rewrite map_length; auto).
  destruct (Rleb 1 (rsum w)) eqn:E.
  - apply Rleb_true in E. eexists. split; [reflexivity|]. split; [rewrite map_length; auto|].
    assert (SUM : forall l, rsum (map (fun x => x / rsum w) l) = rsum l / rsum w).
    { unfold rsum at 1 3. induction l as [|a l IH]; simpl; [unfold Rdiv; ring|]. rewrite IH. field. lra. }
    split; [rewrite SUM; unfold Rdiv; rewrite Rinv_r; lra|]. split.
    + intros x Ix. apply in_map_iff in Ix. destruct Ix as (y & <- & Iy). apply Rdiv_lt_0_compat; [apply Pw; auto|lra].
    + intros i j Li Lj Q.
      rewrite !nth_map_R by (rewrite Lw; auto).
      apply Rmult_lt_compat_r; [apply Rinv_0_lt_compat; lra|]. apply Dw; auto.
  - apply Rleb_false in E. eexists. split; [reflexivity|]. split; auto. split; [lra|]. auto.
Qed.
(** In contact the weights grow with the distance: the farther obstacle decides. *)
Theorem C80_contact_weights_refuted : exists g0 g1 w0 w1, 0 < g0 <= 1 /\ 1 < g1 /\
  rotated_weights [g0; g1] = Ok [w0; w1] /\ w0 < w1 /\ 99 / 100 <= w1.
Proof.
  exists 1, 99, (1 / 100), (99 / 100). split; [lra|]. split; [lra|]. split; [|lra].
  unfold rotated_weights, rsum. simpl. replace (Rleb 1 1) with true by (symmetry; apply Rleb_true; lra). simpl.
  destruct (Req_EM_T _ 0); [lra|]. f_equal. f_equal; [|f_equal]; field.
Qed.
(** Far away the field is the linear one and not the initial one. *)
Definition unit_linear (x : vec) : vec := if Rltb 1 (norm x) then vscale (-1) (vdiv x (norm x)) else vscale (-1) x.
Theorem C80_fallback_refuted : exists (initial : vec -> vec) (c p : vec), norm (initial p) = 1 /\
  forall g, 3 <= g -> exists v, obstacle_rotated 2 initial unit_linear 1 5 [(g, c)] p = Ok v /\
    norm v = 1 /\ dot v (initial p) <= sqrt 2 / 2.
Proof.
  exists (fun _ => [0; 1]), [-5; 0], [-50; 0]. split; [apply unit_norm; unfold unitv; simpl; ring|]. intros g Hg.
  unfold obstacle_rotated, rotated_weights. cbn [map fst snd existsb].
  replace (Rleb g 1) with false by (symmetry; apply Rleb_false; lra). cbn [orb]. cbv zeta.
  assert (Pw : 0 < 1 / (g - 1)) by (apply Rdiv_lt_0_compat; lra).
  assert (Qw : 1 / (g - 1) <= 1 / 2).
  { unfold Rdiv. rewrite !Rmult_1_l. apply Rinv_le_contravar; lra. }
  set (w := 1 / (g - 1)) in *. unfold rsum. cbn [fold_right].
  replace (Rleb 1 (w + 0)) with false by (symmetry; apply Rleb_false; lra). cbn [bind].
  destruct (Req_EM_T g 0); [lra|]. unfold weighted_columns. cbn [combine fold_right fst snd].
  assert (UL : forall x, 1 < x -> unit_linear [- x; 0] = [1; 0]).
  { intros x Hx. unfold unit_linear. assert (N : norm [- x; 0] = x) by (apply norm2_is; lra).
    rewrite N, (proj2 (Rltb_true _ _) Hx). unfold vdiv, vscale. simpl. f_equal; [|f_equal]; field; lra. }
  assert (U5 : unit_linear [-5; 0] = [1; 0]) by (replace (-5) with (- (5)) by ring; apply UL; lra).
  assert (U50 : unit_linear [-50; 0] = [1; 0]) by (replace (-50) with (- (50)) by ring; apply UL; lra).
  rewrite U5, U50.
  replace (vadd (vscale w [1; 0]) (vzero 2)) with [w; 0] by (unfold vscale, vzero; simpl; f_equal; [|f_equal]; ring).
  replace (vadd (vscale w [0; 1]) (vzero 2)) with [0; w] by (unfold vscale, vzero; simpl; f_equal; [|f_equal]; ring).
  assert (N0 : norm [w; 0] = w) by (apply norm2_is; lra). assert (N1 : norm [0; w] = w) by (apply norm2_is; lra).
  rewrite N0, N1. rewrite (proj2 (Reqb_false w 0)) by lra. cbn [orb].
  replace (vdiv [w; 0] w) with [1; 0] by (unfold vdiv, vscale; simpl; f_equal; [|f_equal]; field; lra).
  replace (vdiv [0; w] w) with [0; 1] by (unfold vdiv, vscale; simpl; f_equal; [|f_equal]; field; lra).
  assert (Ux : unitv [1; 0]) by (unfold unitv; simpl; ring). assert (Uy : unitv [0; 1]) by (unfold unitv; simpl; ring).
  destruct (from_directions_spec 2 [1; 0] [0; 1]) as (r & R & O & R0 & RA & SEC);
    rewrite ?(dirof_of_unit _ Ux), ?(dirof_of_unit _ Uy) in *; auto; try (apply unit_norm_neq; auto).
  { simpl. lra. }
  assert (D0 : dot [1; 0] [0; 1] = 0) by (simpl; ring). rewrite D0, acos_0 in RA.
  rewrite R. cbn [bind]. eexists. split; [reflexivity|].
  replace (Rmin (Rmin w w / 1) 1) with w.
  2:{ rewrite (Rmin_left w w) by lra. unfold Rdiv. rewrite Rinv_1, Rmult_1_r, Rmin_left; lra. }
  assert (DD : dot [0; 1] [0; 1] = 1) by (simpl; ring). rewrite DD, (Rmin_right (5 * (1 + 1)) 1) by lra.
  unfold rotate. rewrite R0, RA. pose proof O as (M0 & M1 & V0 & V1 & OO). rewrite R0 in *.
  rewrite (rotate_direction_eq 2) by auto.
  assert (ON : orthonormal 2 [1; 0] (rb1 r)) by (repeat split; auto).
  split; [rewrite (plane_rot_norm 2) by auto; apply unit_norm; auto|].
  rewrite (plane_rot_first 2) by auto. autorewrite with vdot. rewrite D0.
  assert (S1 : dot (rb1 r) [0; 1] <= 1) by (pose proof (unit_dot_bounds _ _ V1 Uy); lra).
  assert (SIN : 0 <= sin (w * 1 * (PI / 2)) <= sqrt 2 / 2).
  { pose proof PI_RGT_0. split; [apply sin_ge_0; nra|].
    replace (sqrt 2 / 2) with (sin (PI / 4)) by (rewrite sin_PI4; field_simplify_eq; [rewrite pow2_sqrt; lra|]; pose proof (sqrt_lt_R0 2); lra).
    destruct (Req_dec w (1 / 2)) as [->|]; [right; f_equal; field|]. left. apply sin_increasing_1; nra. }
  nra.
Qed.
Example C80_case : exists v, obstacle_rotated 2 (fun _ => [0; 1]) unit_linear (1 / 2) 5 [(1, [-1; 0])] [-1 / 2; 0] = Ok v /\
  v = vscale (1 / 2) [0; 1].
Proof.
  assert (N1 : norm [-1; 0] = 1) by (apply norm2_is; lra).
  assert (Nh : norm [-1 / 2; 0] = 1 / 2) by (apply norm2_is; lra).
  assert (Z1 : unit_linear [-1; 0] = [1; 0]).
  { unfold unit_linear. rewrite N1, (proj2 (Rltb_false 1 1)) by lra. unfold vscale. simpl. f_equal; [|f_equal]; ring. }
  assert (Zh : unit_linear [-1 / 2; 0] = vscale (1 / 2) [1; 0]).
  { unfold unit_linear. rewrite Nh, (proj2 (Rltb_false 1 (1 / 2))) by lra. unfold vscale. simpl. f_equal; [|f_equal]; field. }
  assert (Ux : unitv [1; 0]) by (unfold unitv; simpl; ring). assert (Uy : unitv [0; 1]) by (unfold unitv; simpl; ring).
  assert (LEN : speedy 2 (fun x => if Nat.eqb (length x) 2 then unit_linear x else [0; 0])).
  { intros x. destruct (Nat.eqb (length x) 2) eqn:E; [|reflexivity]. apply Nat.eqb_eq in E.
    unfold unit_linear. destruct (Rltb _ _); unfold vdiv; rewrite ?length_vscale; auto. }
  pose proof (C80_contact 2 (fun _ => [0; 1]) (fun x => if Nat.eqb (length x) 2 then unit_linear x else [0; 0])
                (1 / 2) 5 1 [-1; 0] [-1 / 2; 0] (1 / 2)) as H.
  cbn [length Nat.eqb] in H. rewrite Z1, Zh in H.
  change (direction [1; 0]) with (dirof [1; 0]) in H. change (direction [0; 1]) with (dirof [0; 1]) in H.
  rewrite (dirof_of_unit _ Ux), (dirof_of_unit _ Uy), (proj1 (unit_norm _) Ux), (proj1 (unit_norm _) Uy) in H.
  rewrite norm_vscale, (proj1 (unit_norm _) Ux), Rabs_right, Rmult_1_r in H by lra.
  eexists. split; [|reflexivity].
  assert (E : obstacle_rotated 2 (fun _ => [0; 1]) unit_linear (1 / 2) 5 [(1, [-1; 0])] [-1 / 2; 0] =
    obstacle_rotated 2 (fun _ => [0; 1]) (fun x => if Nat.eqb (length x) 2 then unit_linear x else [0; 0])
      (1 / 2) 5 [(1, [-1; 0])] [-1 / 2; 0]) by reflexivity.
  rewrite E. apply H; auto; try lra.
  - intros x. reflexivity.
  - simpl. lra.
  - right. apply (far_not_close 2); auto; try lia. simpl. lra.
Qed.
Print Assumptions C80_speed_and_angle.
Print Assumptions C80_no_obstacle.
Print Assumptions C80_contact.
Print Assumptions C80_weights.
Print Assumptions C80_contact_weights_refuted.
Print Assumptions C80_fallback_refuted.
