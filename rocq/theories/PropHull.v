(** C90, C92: region and velocity of the obstacle which can be entered,
    multi_hull_and_obstacle.py [MultiHullAndObstacle.is_inside], [evaluate]. *)
Require Import Reals List Bool Arith Lia Lra Psatz.
From Verif Require Import Base Vec Angle Pow RotModel ProjModel RotAvoidModel HullModel HullProofs Spec.
Import ListNotations.
Open Scope R_scope.

(** ** Weighted sum in a plane *)
Section Plane.
Variable n : nat.
Variables r e : vec.
Hypothesis Lr : length r = n.
Hypothesis Le : length e = n.
Hypothesis Ur : unitv r.
Hypothesis Ue : unitv e.
Hypothesis Ore : dot r e = 0.

Definition in_plane (A B : R) : vec := vadd (vscale A r) (vscale B e).
Lemma plane_length A B : length (in_plane A B) = n.
Proof. unfold in_plane. autorewrite with vlen. lia. Qed.
Lemma plane_dot_r A B : dot r (in_plane A B) = A.
Proof. unfold in_plane. rewrite dot_vadd_r, !dot_vscale_r, Ore, Ur. ring. Qed.
Lemma plane_dot_e A B : dot e (in_plane A B) = B.
Proof. unfold in_plane. rewrite dot_vadd_r, !dot_vscale_r, (dot_comm e r), Ore, Ue. ring. Qed.
Lemma plane_sq A B : dot (in_plane A B) (in_plane A B) = A * A + B * B.
Proof.
  unfold in_plane at 1. rewrite dot_vadd_l, !dot_vscale_l, plane_dot_r, plane_dot_e. ring.
Qed.
Lemma plane_norm_pos A B : 0 < B -> 0 < norm (in_plane A B).
Proof. intros. unfold norm. rewrite plane_sq. apply sqrt_lt_R0. nra. Qed.

Definition angle_to (A B : R) : R := acos (A / norm (in_plane A B)).
Lemma plane_cos A B : 0 < B -> -1 < A / norm (in_plane A B) < 1.
Proof.
  intros HB. pose proof (plane_norm_pos A B HB) as P. pose proof (norm_sq (in_plane A B)) as S1.
  rewrite plane_sq in S1. split.
  - apply Rmult_lt_reg_r with (norm (in_plane A B)); auto. unfold Rdiv.
    rewrite Rmult_assoc, Rinv_l, Rmult_1_r by lra. nra.
  - apply Rmult_lt_reg_r with (norm (in_plane A B)); auto. unfold Rdiv.
    rewrite Rmult_assoc, Rinv_l, Rmult_1_r by lra. nra.
Qed.
Lemma angle_to_bounds A B : 0 < B -> 0 < angle_to A B < PI.
Proof.
  intros HB. pose proof (plane_cos A B HB) as C. unfold angle_to.
  pose proof (acos_bound (A / norm (in_plane A B))) as [H1 H2]. split.
  - destruct H1; auto. exfalso. symmetry in H. apply acos_eq_0 in H; lra.
  - apply acos_lt_PI. lra.
Qed.
Lemma angle_to_cos A B : 0 < B -> cos (angle_to A B) = A / norm (in_plane A B).
Proof. intros HB. pose proof (plane_cos A B HB). apply cos_acos. lra. Qed.
Lemma angle_to_sin A B : 0 < B -> sin (angle_to A B) = B / norm (in_plane A B).
Proof.
  intros HB. pose proof (plane_cos A B HB) as C. pose proof (plane_norm_pos A B HB) as P.
  pose proof (norm_sq (in_plane A B)) as S1. rewrite plane_sq in S1. set (m := norm (in_plane A B)) in *.
  unfold angle_to. fold m. rewrite sin_acos_sqrt by lra.
  replace (1 - A / m * (A / m)) with ((B / m) * (B / m)).
  - apply sqrt_square. apply Rlt_le, Rdiv_lt_0_compat; auto.
  - apply Rmult_eq_reg_r with (m * m); [|nra]. field_simplify; [|lra|lra]. nra.
Qed.

Lemma angle_plane e1 A B : 0 < B -> angle_in (mkBase r e1) (in_plane A B) = Ok (vscale (angle_to A B) e).
Proof.
  intros HB. pose proof (plane_norm_pos A B HB) as P. unfold angle_in. cbn [bs0 bs1].
  destruct (Req_EM_T (norm (in_plane A B)) 0) as [Z|_]; [lra|]. f_equal. unfold angle_space.
  rewrite dot_vdiv_r, plane_dot_r. set (m := norm (in_plane A B)) in *.
  assert (EP : vsub (vdiv (in_plane A B) m) (vscale (A / m) r) = vscale (B / m) e).
  { unfold in_plane. vext. field. lra. }
  rewrite EP, norm_vscale. assert (NE : norm e = 1) by (apply unit_norm; auto). rewrite NE.
  assert (Q : 0 < B / m) by (apply Rdiv_lt_0_compat; auto). rewrite Rabs_pos_eq, Rmult_1_r by lra.
  destruct (Req_EM_T (B / m) 0) as [Z|_]; [lra|].
  change (angle_to A B) with (acos (A / m)). vext. field. split; lra.
Qed.

Lemma sum_plane e1 w A A' B : 0 < B -> 0 <= w <= 1 ->
  let psi := (1 - w) * angle_to A B + w * angle_to A' B in
  0 < psi < PI /\
  directional_weighted_sum (mkBase r e1) [1 - w; w] [in_plane A B; in_plane A' B]
    = Ok (in_plane (cos psi) (sin psi)).
Proof.
  intros HB Hw psi. pose proof (angle_to_bounds A B HB) as T1. pose proof (angle_to_bounds A' B HB) as T2.
  assert (HP : 0 < psi < PI).
  { unfold psi. set (t1 := angle_to A B) in *. set (t2 := angle_to A' B) in *.
    pose proof (Rmult_le_pos (1 - w) t1). pose proof (Rmult_le_pos w t2).
    pose proof (Rmult_le_pos (1 - w) (PI - t1)). pose proof (Rmult_le_pos w (PI - t2)).
    destruct (Req_dec w 0) as [->|Nw]; [split; lra|]. assert (Pw : 0 < w) by lra.
    pose proof (Rmult_lt_0_compat w t2 Pw). pose proof (Rmult_lt_0_compat w (PI - t2) Pw). split; nra. }
  split; auto.
  unfold directional_weighted_sum. cbn [mapM]. rewrite (angle_plane e1 A B HB). cbn [bind].
  rewrite (angle_plane e1 A' B HB). cbn [bind combine fold_right fst snd bs0].
  assert (E : vadd (vscale (1 - w) (vscale (angle_to A B) e))
                (vadd (vscale w (vscale (angle_to A' B) e)) (vzero (length r))) = vscale psi e).
  { unfold psi. vext. ring. }
  rewrite E. unfold vector_from_angle. rewrite norm_vscale. assert (NE : norm e = 1) by (apply unit_norm; auto).
  rewrite NE, Rabs_pos_eq, Rmult_1_r by lra. destruct (Req_EM_T psi 0) as [Z|_]; [lra|].
  f_equal. unfold in_plane. vext. field. lra.
Qed.
End Plane.

(** ** Walls *)
Definition all_regions (h : hull) : list region := hl_inner h ++ [hl_outer h].

Lemma weights_sum_wall gammas : (forall g, In g gammas -> g <= 1) -> rsum (hull_weights gammas) = 0.
Proof.
  intros H. unfold hull_weights. set (ws := map _ gammas).
  assert (Z : rsum ws = 0).
  { unfold ws. rewrite (rsum_ext (fun g => Rmax (g - 1) 0) (fun _ => 0)).
    - rewrite rsum_map_const. ring.
    - intros g Hg. apply H in Hg. rewrite Rmax_right; lra. }
  rewrite Z. destruct (Rltb 0 0) eqn:E; [apply Rltb_true in E; lra|auto].
Qed.
Lemma weights_sum_free gammas : (exists g, In g gammas /\ 1 < g) -> rsum (hull_weights gammas) = 1.
Proof.
  intros (g & Hg & H1). unfold hull_weights. set (ws := map _ gammas).
  assert (P : 0 < rsum ws).
  { apply Rlt_le_trans with (Rmax (g - 1) 0).
    - pose proof (Rmax_l (g - 1) 0). lra.
    - apply rsum_ge_elem; [|apply (in_map (fun g => Rmax (g - 1) 0)); auto].
      intros y Hy. apply in_map_iff in Hy as (z & <- & _). apply Rmax_r. }
  destruct (Rltb 0 (rsum ws)) eqn:E; [|apply Rltb_false in E; lra].
  rewrite (rsum_map_div (rsum ws) (fun w => w) ws), map_id. field. lra.
Qed.
Lemma weights_nonneg gammas w : In w (hull_weights gammas) -> 0 <= w.
Proof.
  unfold hull_weights. set (ws := map _ gammas).
  assert (P : forall y, In y ws -> 0 <= y).
  { intros y Hy. apply in_map_iff in Hy as (z & <- & _). apply Rmax_r. }
  destruct (Rltb 0 (rsum ws)) eqn:E; auto. apply Rltb_true in E. intros H.
  apply in_map_iff in H as (y & <- & Hy). apply Rle_mult_inv_pos; auto.
Qed.
Lemma weights_length gammas : length (hull_weights gammas) = length gammas.
Proof. unfold hull_weights. destruct (Rltb _ _); rewrite !map_length; auto. Qed.
Lemma weights_nth gammas i : nth i gammas 0 <= 1 -> nth i (hull_weights gammas) 0 = 0.
Proof.
  intros H. unfold hull_weights. set (ws := map _ gammas).
  assert (Z : nth i ws 0 = 0).
  { destruct (Nat.lt_ge_cases i (length gammas)) as [L|L].
    - unfold ws. rewrite (nth_indep _ 0 (Rmax (0 - 1) 0)) by (rewrite map_length; auto).
      rewrite (map_nth (fun g => Rmax (g - 1) 0)). rewrite Rmax_right; lra.
    - apply nth_overflow. unfold ws. rewrite map_length. auto. }
  destruct (Rltb _ _); auto.
  destruct (Nat.lt_ge_cases i (length ws)) as [L|L].
  - rewrite (nth_indep _ 0 (0 / rsum ws)) by (rewrite map_length; auto).
    rewrite (map_nth (fun w => w / rsum ws)), Z. unfold Rdiv. ring.
  - apply nth_overflow. rewrite map_length. auto.
Qed.

Lemma inside_iff h x : hull_is_inside h x = true <-> forall g, In g (all_regions h) -> rg_gamma g x <= 1.
Proof.
  unfold hull_is_inside, all_regions. rewrite negb_true_iff, orb_false_iff, negb_false_iff. unfold reg_inside.
  rewrite Rleb_true. split.
  - intros [H1 H2] g Hg. apply in_app_or in Hg as [Hg|[<-|[]]]; auto.
    destruct (Rle_dec (rg_gamma g x) 1) as [|N]; auto. exfalso.
    assert (existsb (fun g => negb (Rleb (rg_gamma g x) 1)) (hl_inner h) = true).
    { apply existsb_exists. exists g. split; auto. apply negb_true_iff, Rleb_false. lra. }
    congruence.
  - intros H. split; [apply H, in_or_app; right; left; auto|].
    destruct (existsb _ _) eqn:E; auto. apply existsb_exists in E as (g & Hg & E).
    apply negb_true_iff, Rleb_false in E. assert (rg_gamma g x <= 1) by (apply H, in_or_app; auto). lra.
Qed.

(** ** Local velocities *)
(** What is read of a region at a position: unit reference direction, normal not orthogonal to it. *)
Definition regular (n : nat) (g : region) (x : vec) : Prop :=
  length (rg_ref g x) = n /\ unitv (rg_ref g x) /\ dot (rg_normal g x) (rg_ref g x) <> 0.

Section Local.
Variable n : nat.
Variable orth1 : vec -> vec.
Variables (g : region) (x a : vec) (gamma : R).
Hypothesis Rg : regular n g x.
Hypothesis Lx : length x = n.
Hypothesis La : length a = n.
Hypothesis G1 : 1 <= gamma.

Let r := rg_ref g x.
Let nm := rg_normal g x.
Let l := vsub a x.
Let q := vsub l (vscale (dot r l) r).
Definition tangent_at : vec := vsub (vsub a x) (vscale (dot (rg_normal g x) (vsub a x) / dot (rg_normal g x) (rg_ref g x)) (rg_ref g x)).
Let e := vdiv q (norm q).

Lemma local_weight : 0 <= 1 / gamma <= 1.
Proof.
  split.
  - apply Rle_mult_inv_pos; lra.
  - apply Rmult_le_reg_r with gamma; [lra|]. unfold Rdiv. rewrite Rmult_assoc, Rinv_l by lra. lra.
Qed.
Lemma Ll : length l = n.
Proof. unfold l. autorewrite with vlen. lia. Qed.
Lemma aligned_zero : norm q = 0 -> norm tangent_at = 0.
Proof.
  intros Z. destruct Rg as (L & U & D). fold r nm in L, U, D. apply norm_zero_iff in Z.
  assert (Lq : length q = n) by (unfold q; autorewrite with vlen; rewrite Ll; lia). rewrite Lq in Z.
  assert (El : l = vscale (dot r l) r).
  { assert (Q : forall i, nth i q 0 = 0) by (intros i; rewrite Z; apply nth_vzero). unfold q in Q.
    apply vec_ext; [rewrite length_vscale, Ll; auto|]. intros i. specialize (Q i). autorewrite with vnth in Q |- *. lra. }
  unfold tangent_at. fold l r nm. apply norm_zero_iff. vext. rewrite El. rewrite dot_vscale_r. autorewrite with vnth. field. auto.
Qed.
Section NotAligned.
Hypothesis NA : norm q <> 0.
Let B := norm q.
Let A := dot r l.
Let A' := A - dot nm l / dot nm r.
Lemma Bpos : 0 < B.
Proof. apply norm_pos. auto. Qed.
Lemma le : length e = n.
Proof. unfold e, q. destruct Rg as (L & _). fold r in L. autorewrite with vlen. rewrite Ll, L. lia. Qed.
Lemma ue : unitv e.
Proof. apply unit_vdiv. auto. Qed.
Lemma ore : dot r e = 0.
Proof.
  unfold e. rewrite dot_vdiv_r. unfold q. rewrite dot_vsub_r, dot_vscale_r. destruct Rg as (_ & U & _). fold r in U.
  unfold unitv in U. rewrite U. unfold Rdiv. ring.
Qed.
Lemma l_plane : l = in_plane r e A B.
Proof.
  unfold in_plane, e. pose proof Bpos as P. fold B. assert (Lq : length q = n).
  { unfold q. destruct Rg as (L & _). fold r in L. autorewrite with vlen. rewrite Ll, L. lia. }
  destruct Rg as (L & _). fold r in L. pose proof Ll as L2.
  apply vec_ext; [autorewrite with vlen; rewrite Lq; lia|]. intros i. autorewrite with vnth. unfold q, A at 1.
  autorewrite with vnth. field. lra.
Qed.
Lemma t_plane : tangent_at = in_plane r e A' B.
Proof.
  unfold tangent_at. fold l nm r. rewrite l_plane at 1. unfold in_plane, A'. destruct Rg as (L & _). fold r in L. pose proof le.
  vext. ring.
Qed.
Let psi := (1 - 1 / gamma) * angle_to r e A B + 1 / gamma * angle_to r e A' B.
Lemma local_ok : local_dynamics orth1 g (Some a) x gamma = Ok (in_plane r e (cos psi) (sin psi)) /\ 0 < psi < PI.
Proof.
  destruct Rg as (L & U & D). fold r nm in L, U, D.
  destruct (sum_plane n r e L le U ue ore (orth1 r) (1 / gamma) A A' B Bpos local_weight) as [P1 P2]. split; [|exact P1].
  unfold local_dynamics. fold nm r l. destruct (Req_EM_T (dot nm r) 0) as [Z|_]; [contradiction|].
  change (vsub l (vscale (dot nm l / dot nm r) r)) with tangent_at. rewrite t_plane. rewrite l_plane at 1. exact P2.
Qed.
Lemma local_dir (C : R) : 0 < norm (in_plane r e C B) -> dot r (direction (in_plane r e C B)) = C / norm (in_plane r e C B).
Proof. intros H. destruct Rg as (L & U & _). unfold direction. rewrite dot_vscale_r, plane_dot_r by (auto; apply ore). unfold Rdiv. ring. Qed.
(** The angle, the side and the component along the normal of the local velocity. *)
Lemma local_facts : let u := in_plane r e (cos psi) (sin psi) in
  length u = n /\ unitv u /\
  acos (dot r u) = (1 - 1 / gamma) * acos (dot r (direction l)) + 1 / gamma * acos (dot r (direction tangent_at)) /\
  0 <= dot nm u * dot nm l /\
  Rabs (dot nm u) <= (1 - 1 / gamma) * PI * (Rabs (dot nm r) * norm tangent_at / norm q) /\
  exists c k, 0 < c /\ u = vadd (vscale c l) (vscale k r).
Proof.
  intros u. destruct Rg as (L & U & D). fold r nm in L, U, D. pose proof le as Lee. pose proof ue as Ue. pose proof ore as Oe.
  pose proof Bpos as PB. pose proof (proj2 local_ok) as HP. pose proof local_weight as HW.
  pose proof (plane_norm_pos r e U Ue Oe A B PB) as NA1.
  pose proof (plane_norm_pos r e U Ue Oe A' B PB) as NA2.
  pose proof (angle_to_bounds r e U Ue Oe A B PB) as TB1.
  pose proof (angle_to_bounds r e U Ue Oe A' B PB) as TB2.
  pose proof (angle_to_cos r e U Ue Oe A B PB) as C1.
  pose proof (angle_to_cos r e U Ue Oe A' B PB) as C2.
  pose proof (angle_to_sin r e U Ue Oe A B PB) as S1.
  pose proof (angle_to_sin r e U Ue Oe A' B PB) as S2.
  split; [apply plane_length; auto|]. split; [unfold unitv, u; rewrite plane_sq by auto; apply cos_sin_sq|].
  split.
  { unfold u. rewrite plane_dot_r by auto. rewrite acos_cos by lra.
    rewrite l_plane, t_plane. rewrite !local_dir by auto. reflexivity. }
  (* the component along the normal *)
  set (th := angle_to r e A B) in *. set (ph := angle_to r e A' B) in *.
  set (m1 := norm (in_plane r e A B)) in *. set (m2 := norm (in_plane r e A' B)) in *.
  assert (SP : 0 < sin ph) by (rewrite S2; apply Rdiv_lt_0_compat; auto).
  assert (NT : dot nm (in_plane r e A' B) = 0).
  { rewrite <- t_plane. unfold tangent_at. fold l nm r. rewrite dot_vsub_r, dot_vscale_r. field. auto. }
  assert (NE : dot nm e = - (cos ph / sin ph) * dot nm r).
  { unfold in_plane in NT. rewrite dot_vadd_r, !dot_vscale_r in NT. rewrite C2, S2. fold m2.
    apply Rmult_eq_reg_l with B; [|lra]. replace (B * (- (A' / m2 / (B / m2)) * dot nm r)) with (- (A' * dot nm r)) by (field; split; lra).
    lra. }
  assert (NG : forall C S', dot nm (in_plane r e C S') = dot nm r * ((C * sin ph - S' * cos ph) / sin ph)).
  { intros C S'. unfold in_plane. rewrite dot_vadd_r, !dot_vscale_r, NE. field. lra. }
  assert (NU : dot nm u = dot nm r * (sin (ph - psi) / sin ph)).
  { unfold u. rewrite NG, sin_minus. f_equal. f_equal. ring. }
  assert (NL : dot nm l = m1 * (dot nm r * (sin (ph - th) / sin ph))).
  { rewrite l_plane, NG, sin_minus, C1, S1. field. split; lra. }
  assert (DP : ph - psi = (1 - 1 / gamma) * (ph - th)) by (unfold psi; ring).
  assert (SS : 0 <= sin (ph - psi) * sin (ph - th)).
  { rewrite DP. set (w := 1 - 1 / gamma). assert (Hw : 0 <= w <= 1) by (unfold w; lra). set (d := ph - th).
    assert (Hd : - PI < d < PI) by (unfold d; lra).
    destruct (Rle_dec 0 d) as [P|P].
    - apply Rmult_le_pos; apply sin_ge_0; nra.
    - assert (E1 : sin (w * d) = - sin (w * - d)) by (rewrite <- sin_neg; f_equal; ring).
      assert (E2 : sin d = - sin (- d)) by (rewrite <- sin_neg; f_equal; ring).
      rewrite E1, E2. replace (- sin (w * - d) * - sin (- d)) with (sin (w * - d) * sin (- d)) by ring.
      apply Rmult_le_pos; apply sin_ge_0; nra. }
  split.
  { rewrite NU, NL. replace (dot nm r * (sin (ph - psi) / sin ph) * (m1 * (dot nm r * (sin (ph - th) / sin ph)))) with
      (m1 * (dot nm r * dot nm r) * (sin (ph - psi) * sin (ph - th)) / (sin ph * sin ph)) by (field; lra).
    apply Rle_mult_inv_pos; [|nra]. apply Rmult_le_pos; auto. apply Rmult_le_pos; [lra|nra]. }
  split.
  { rewrite NU, Rabs_mult. unfold Rdiv at 1. rewrite Rabs_mult, Rabs_inv, (Rabs_pos_eq (sin ph)) by lra.
    rewrite t_plane. fold m2 B. rewrite S2. fold m2.
    assert (SB : Rabs (sin (ph - psi)) <= (1 - 1 / gamma) * PI).
    { assert (G : forall z, 0 <= z -> Rabs (sin z) <= z).
      { intros z Hz. destruct (Rle_dec z 1) as [Z1|Z1].
        - pose proof PI2_1. rewrite Rabs_pos_eq; [apply sin_le_id; auto|apply sin_ge_0; lra].
        - apply Rle_trans with 1; [|lra]. apply Rabs_le. pose proof (SIN_bound z). lra. }
      rewrite DP. set (w := 1 - 1 / gamma). assert (Hw : 0 <= w <= 1) by (unfold w; lra).
      destruct (Rle_dec 0 (ph - th)) as [P|P].
      - apply Rle_trans with (w * (ph - th)); [apply G; nra|]. apply Rmult_le_compat_l; lra.
      - replace (w * (ph - th)) with (- (w * (th - ph))) by ring. rewrite sin_neg, Rabs_Ropp.
        apply Rle_trans with (w * (th - ph)); [apply G; nra|]. apply Rmult_le_compat_l; lra. }
    replace (Rabs (dot nm r) * (Rabs (sin (ph - psi)) * / (B / m2))) with
      (Rabs (sin (ph - psi)) * (Rabs (dot nm r) * m2 / B)) by (field; split; lra).
    apply Rmult_le_compat_r; auto. apply Rle_mult_inv_pos; [|auto]. apply Rmult_le_pos; [apply Rabs_pos|lra]. }
  exists (sin psi / B), (cos psi - A * (sin psi / B)). split.
  - apply Rdiv_lt_0_compat; auto. apply sin_gt_0; lra.
  - unfold u. rewrite l_plane. unfold in_plane. vext. field. lra.
Qed.
End NotAligned.
Lemma local_some v : local_dynamics orth1 g (Some a) x gamma = Ok v -> norm q <> 0.
Proof.
  intros H Z. apply aligned_zero in Z. revert H. unfold local_dynamics. fold r nm l.
  destruct (Req_EM_T (dot nm r) 0); [congruence|].
  change (vsub l (vscale (dot nm l / dot nm r) r)) with tangent_at.
  unfold directional_weighted_sum. cbn [mapM]. destruct (angle_in _ l); [|discriminate]. cbn [bind].
  unfold angle_in. destruct (Req_EM_T (norm tangent_at) 0); [discriminate|contradiction].
Qed.
Lemma local_unit v : local_dynamics orth1 g (Some a) x gamma = Ok v -> unitv v /\ length v = n.
Proof.
  intros H. pose proof (local_some v H) as NA. destruct (local_ok NA) as [E _]. destruct (local_facts NA) as (F1 & F2 & _).
  rewrite E in H. assert (v = in_plane r e (cos ((1 - 1 / gamma) * angle_to r e (dot r l) (norm q) +
    1 / gamma * angle_to r e (dot r l - dot nm l / dot nm r) (norm q))) (sin ((1 - 1 / gamma) * angle_to r e (dot r l) (norm q) +
    1 / gamma * angle_to r e (dot r l - dot nm l / dot nm r) (norm q)))) by congruence. subst v. split; auto.
Qed.
End Local.

(** ** Loops *)
Section Loops.
Variable sp_dist : list edge -> hnode -> hnode -> option R.
Variable sp_path : list edge -> hnode -> hnode -> option (list hnode).
Variable orth1 : vec -> vec.
Variable n : nat.

Lemma attractor_length h i a : sane n h -> attractor_of h (Hull i) = Ok (Some a) -> length a = n.
Proof.
  intros (_ & S2 & _) H. cbn [attractor_of] in H. destruct (nth_error (hl_attr h) i) as [[o c]|] eqn:E; [|discriminate].
  apply (S2 i a c). congruence.
Qed.
Lemma inner_loop_units x : length x = n -> forall todo h i h' l, sane n h ->
  (forall g gam w, In (g, (gam, w)) todo -> w <> 0 -> regular n g x /\ 1 <= gam) ->
  inner_loop sp_dist sp_path orth1 h x i todo = (h', Ok l) ->
  (forall wv, In wv l -> unitv (snd wv) /\ length (snd wv) = n) /\
  rsum (map fst l) = rsum (map (fun t => snd (snd t)) todo).
Proof.
  intros Lx. induction todo as [|[g [gam w]] todo IH]; intros h i h' l Sn HT H; cbn [inner_loop] in H.
  - assert (l = []) by congruence. subst. split; [intros wv []|auto].
  - destruct (Req_EM_T w 0) as [->|Nw].
    + destruct (IH _ _ _ _ Sn (fun g0 a b I => HT g0 a b (or_intror I)) H) as [A1 A2]. split; auto.
      cbn [map snd]. unfold rsum in *. cbn [fold_right]. rewrite A2. ring.
    + destruct (match attractor_of h (Hull i) with
            | Err e => (h, Err match hl_graph h with None => EAttr | Some _ => e end)
            | Ok None => update_path sp_dist sp_path h i
            | Ok (Some _) => (h, Ok tt) end) as [h1 r1] eqn:E1.
      assert (K1 : kept h h1).
      { destruct (attractor_of h (Hull i)) as [[a|]|e]; try (assert (h1 = h) by congruence; subst; apply kept_refl).
        eapply update_path_keeps; eauto. }
      destruct r1 as [u|]; [|discriminate].
      destruct (attractor_of h1 (Hull i)) as [o|] eqn:EA; cbn [bind] in H; [|discriminate].
      destruct (local_dynamics orth1 g o x gam) as [v|] eqn:EL; [|discriminate].
      destruct (inner_loop sp_dist sp_path orth1 h1 x (S i) todo) as [h2 r2] eqn:E2.
      destruct r2 as [l2|]; cbn [bind] in H; [|discriminate].
      assert (Sn1 : sane n h1) by (apply K1; auto).
      destruct (IH _ _ _ _ Sn1 (fun g0 a b I => HT g0 a b (or_intror I)) E2) as [A1 A2].
      assert (El : l = (w, v) :: l2) by congruence. subst l.
      destruct (HT g gam w (or_introl eq_refl) Nw) as [RG GG].
      destruct o as [a|]; [|discriminate EL].
      split.
      * intros wv [<-|I]; auto. cbn [snd]. apply (local_unit n orth1 g x a gam); auto. apply (attractor_length h1 i); auto.
      * cbn [map snd fst]. unfold rsum in *. cbn [fold_right]. rewrite A2. ring.
Qed.
Lemma outer_step_units x h gam w h' l : length x = n -> sane n h -> (w <> 0 -> regular n (hl_outer h) x /\ 1 <= gam) ->
  outer_step sp_path orth1 h x gam w = (h', Ok l) ->
  (forall wv, In wv l -> unitv (snd wv) /\ length (snd wv) = n) /\ rsum (map fst l) = w.
Proof.
  intros Lx Sn HT H. unfold outer_step in H. destruct (Req_EM_T w 0) as [->|Nw].
  - assert (l = []) by congruence. subst. split; [intros wv []|auto].
  - destruct (match hl_out h with None => update_outside sp_path h x | Some _ => (h, Ok tt) end) as [h1 r1] eqn:E1.
    assert (K1 : kept h h1).
    { destruct (hl_out h); [assert (h1 = h) by congruence; subst; apply kept_refl|eapply update_outside_keeps; eauto]. }
    destruct r1 as [u|]; [|discriminate]. destruct (local_dynamics orth1 (hl_outer h) (hl_out h1) x gam) as [v|] eqn:EL;
      cbn [bind] in H; [|discriminate].
    assert (El : l = [(w, v)]) by congruence. subst l. destruct (HT Nw) as [RG GG].
    assert (Sn1 : sane n h1) by (apply K1; auto).
    destruct (hl_out h1) as [a|] eqn:EO; [|discriminate EL]. split.
    + intros wv [<-|[]]. cbn [snd]. destruct Sn1 as (_ & _ & S3). apply (local_unit n orth1 (hl_outer h) x a gam); auto.
    + cbn. ring.
Qed.
Lemma split_sum {A} (inner : list A) : forall gammas ws, length gammas = S (length inner) -> length ws = S (length inner) ->
  rsum ws = rsum (map (fun t : A * (R * R) => snd (snd t)) (combine inner (combine gammas ws))) + nth (length inner) ws 0.
Proof.
  induction inner as [|y inner IH]; intros [|g gammas] [|w ws] L1 L2; try discriminate.
  - destruct ws; [|discriminate]. cbn. ring.
  - cbn [combine map snd length nth]. unfold rsum in *. cbn [fold_right].
    rewrite (IH gammas ws) by (simpl in *; lia). ring.
Qed.
Lemma nth_regions h j g : nth_error (all_regions h) j = Some g ->
  ((j < length (hl_inner h))%nat /\ nth_error (hl_inner h) j = Some g) \/ (j = length (hl_inner h) /\ g = hl_outer h).
Proof.
  unfold all_regions. intros H. destruct (Nat.lt_ge_cases j (length (hl_inner h))) as [L|L].
  - left. split; auto. rewrite nth_error_app1 in H; auto.
  - right. rewrite nth_error_app2 in H by auto. destruct (j - length (hl_inner h))%nat as [|k] eqn:E.
    + split; [lia|]. cbn in H. congruence.
    + destruct k; discriminate.
Qed.
Lemma gammas_nth h x j : nth j (hull_gammas h x) 0 <= 1 \/ exists g, nth_error (all_regions h) j = Some g /\ 1 < rg_gamma g x.
Proof.
  unfold hull_gammas. fold (all_regions h). destruct (nth_error (all_regions h) j) as [g|] eqn:E.
  - assert (N : nth j (map (fun g => rg_gamma g x) (all_regions h)) 0 = rg_gamma g x).
    { apply nth_error_nth. rewrite nth_error_map, E. auto. }
    rewrite N. destruct (Rle_dec (rg_gamma g x) 1); [left; auto|right; exists g; split; auto; lra].
  - left. rewrite nth_overflow; [lra|]. rewrite map_length. apply nth_error_None. auto.
Qed.
Lemma in_combine3 {A} (l : list A) : forall (gs ws : list R) g gam w, In (g, (gam, w)) (combine l (combine gs ws)) ->
  exists j, nth_error l j = Some g /\ nth_error gs j = Some gam /\ nth_error ws j = Some w.
Proof.
  induction l as [|y l IH]; intros [|a gs] [|b ws] g gam w H; cbn in H; try contradiction.
  destruct H as [H|H].
  - exists 0%nat. cbn. repeat split; congruence.
  - destruct (IH _ _ _ _ _ H) as (j & H1 & H2 & H3). exists (S j). auto.
Qed.
Lemma weight_gamma h x j w : nth_error (hull_weights (hull_gammas h x)) j = Some w -> w <> 0 ->
  exists g, nth_error (all_regions h) j = Some g /\ 1 < rg_gamma g x.
Proof.
  intros E N. destruct (gammas_nth h x j) as [H|H]; auto. exfalso. apply N.
  apply weights_nth in H. apply nth_error_nth with (d := 0) in E. congruence.
Qed.
Lemma in_todo h x g gam w : In (g, (gam, w)) (combine (hl_inner h) (combine (hull_gammas h x) (hull_weights (hull_gammas h x)))) ->
  gam = rg_gamma g x /\ In g (all_regions h) /\ (w <> 0 -> 1 < rg_gamma g x).
Proof.
  intros H. apply in_combine3 in H as (j & H1 & H2 & H3).
  assert (Hj : nth_error (all_regions h) j = Some g).
  { unfold all_regions. rewrite nth_error_app1; auto. apply nth_error_Some. congruence. }
  split; [|split].
  - unfold hull_gammas in H2. fold (all_regions h) in H2. rewrite nth_error_map, Hj in H2. cbn in H2. congruence.
  - eapply nth_error_In; eauto.
  - intros Nw. destruct (weight_gamma _ _ _ _ H3 Nw) as (g' & E & G). congruence.
Qed.
Lemma mean_unit l v : (forall wv, In wv l -> unitv (snd wv) /\ length (snd wv) = n) -> rsum (map fst l) = 1 ->
  mean_velocity l = Ok v -> norm v = 1.
Proof.
  intros HU HS. unfold mean_velocity.
  assert (M : rsum (map (fun wv => fst wv * norm (snd wv)) l) = 1).
  { rewrite <- HS. apply rsum_ext. intros wv I. destruct (HU wv I) as [U _]. apply unit_norm in U. rewrite U. ring. }
  rewrite M. destruct (Req_EM_T (norm (weighted_mean l)) 0); [destruct (Req_EM_T 1 0); discriminate|].
  intros H. assert (E : v = vscale 1 (vdiv (weighted_mean l) (norm (weighted_mean l)))) by congruence.
  rewrite E, norm_vscale, norm_vdiv, Rabs_R1 by auto. ring.
Qed.
Lemma gammas_length h x : length (hull_gammas h x) = S (length (hl_inner h)).
Proof. unfold hull_gammas. rewrite map_length, app_length. simpl. lia. Qed.
Lemma weights_total h x : hull_is_inside h x = false -> rsum (hull_weights (hull_gammas h x)) = 1.
Proof.
  intros H. apply weights_sum_free.
  destruct (Rlt_dec 1 (fold_right Rmax 0 (hull_gammas h x))) as [P|P].
  - clear H. unfold hull_gammas in *. fold (all_regions h) in *. induction (all_regions h) as [|g l IH]; cbn in *; [lra|].
    destruct (Rlt_dec 1 (rg_gamma g x)) as [Q|Q]; [exists (rg_gamma g x); auto|].
    destruct IH as (y & I & Y); [|exists y; auto]. revert P. unfold Rmax. destruct (Rle_dec _ _); lra.
  - exfalso. assert (hull_is_inside h x = true); [|congruence]. apply inside_iff. intros g Hg.
    unfold hull_gammas in P. fold (all_regions h) in P. clear H. induction (all_regions h) as [|g' l IH]; [contradiction|]. cbn in P.
    pose proof (Rmax_l (rg_gamma g' x) (fold_right Rmax 0 (map (fun g => rg_gamma g x) l))).
    pose proof (Rmax_r (rg_gamma g' x) (fold_right Rmax 0 (map (fun g => rg_gamma g x) l))).
    destruct Hg as [<-|Hg]; [lra|]. apply IH; auto. lra.
Qed.

(** In the wall (in the outer obstacle and in no hull) the velocity is zero. *)
Theorem C90_wall : forall dim h x, (forall g, In g (all_regions h) -> rg_gamma g x <= 1) ->
  hull_is_inside h x = true /\ evaluate_local sp_dist sp_path orth1 dim h x = (h, Ok (vzero dim)).
Proof.
  intros dim h x H. split; [apply inside_iff; auto|]. unfold evaluate_local. rewrite weights_sum_wall.
  - destruct (Req_EM_T 0 0); [auto|congruence].
  - intros y Hy. unfold hull_gammas in Hy. apply in_map_iff in Hy as (g & <- & Hg). auto.
Qed.
(** In the free space every velocity has speed one. *)
Theorem C90_free : forall dim h x g, In g (all_regions h) -> 1 < rg_gamma g x ->
  hull_is_inside h x = false /\
  (sane n h -> length x = n -> (forall g', In g' (all_regions h) -> 1 < rg_gamma g' x -> regular n g' x) ->
   forall h' v, evaluate_local sp_dist sp_path orth1 dim h x = (h', Ok v) -> norm v = 1).
Proof.
  intros dim h x g Hg G1. assert (HI : hull_is_inside h x = false).
  { destruct (hull_is_inside h x) eqn:E; auto. rewrite inside_iff in E. apply E in Hg. lra. }
  split; auto. intros Sn Lx RG h' v H. unfold evaluate_local in H. pose proof (weights_total h x HI) as T. rewrite T in H.
  destruct (Req_EM_T 1 0); [lra|].
  set (todo := combine _ _) in H. destruct (inner_loop sp_dist sp_path orth1 h x 0 todo) as [h1 r1] eqn:E1.
  destruct r1 as [l1|]; [|discriminate]. 
  set (gn := nth (length (hl_inner h)) (hull_gammas h x) 0) in H. set (wn := nth (length (hl_inner h)) (hull_weights (hull_gammas h x)) 0) in H.
  destruct (outer_step sp_path orth1 h1 x gn wn) as [h2 r2] eqn:E2. destruct r2 as [l2|]; [|discriminate]. cbn [bind] in H.
  pose proof (inner_loop_keeps _ _ _ _ _ _ _ _ _ E1) as [X1 K1].
  destruct (inner_loop_units x Lx todo h 0 h1 l1 Sn) as [A1 A2]; auto.
  { intros g' gam w I Nw. apply in_todo in I as (-> & Ig & W). specialize (W Nw). split; [auto|lra]. }
  destruct (outer_step_units x h1 gn wn h2 l2 Lx (K1 n Sn)) as [B1 B2]; auto.
  { intros Nw. rewrite (ex_outer _ _ X1).
    assert (EW : nth_error (hull_weights (hull_gammas h x)) (length (hl_inner h)) = Some wn).
    { apply nth_error_nth'. rewrite weights_length, gammas_length. lia. }
    destruct (weight_gamma _ _ _ _ EW Nw) as (g' & Eg & Gg).
    assert (EG : gn = rg_gamma g' x).
    { unfold gn, hull_gammas. fold (all_regions h). apply nth_error_nth. rewrite nth_error_map, Eg. auto. }
    destruct (nth_regions _ _ _ Eg) as [[Lj _]|[_ ->]]; [lia|].
    split; [|lra]. apply RG; auto. eapply nth_error_In; eauto. }
  apply (mean_unit (l1 ++ l2)); [intros wv I; apply in_app_or in I as [I|I]; auto| |congruence].
  rewrite map_app, rsum_app, A2, B2. unfold todo, wn. rewrite <- split_sum; auto using gammas_length.
  rewrite weights_length. apply gammas_length.
Qed.

(** ** One active region *)
Lemma inner_loop_none h x : forall todo k, (forall t, In t todo -> snd (snd t) = 0) ->
  inner_loop sp_dist sp_path orth1 h x k todo = (h, Ok []).
Proof.
  induction todo as [|[g [gam w]] todo IH]; intros k H; cbn [inner_loop]; auto.
  destruct (Req_EM_T w 0) as [_|N]; [apply IH; intros t I; apply H; right; auto|].
  exfalso. apply N. apply (H (g, (gam, w))). left. auto.
Qed.
Lemma inner_loop_one h x a v : forall todo k i g gam w, nth_error todo i = Some (g, (gam, w)) -> w <> 0 ->
  (forall j t, nth_error todo j = Some t -> j <> i -> snd (snd t) = 0) ->
  attractor_of h (Hull (k + i)) = Ok (Some a) -> local_dynamics orth1 g (Some a) x gam = Ok v ->
  inner_loop sp_dist sp_path orth1 h x k todo = (h, Ok [(w, v)]).
Proof.
  induction todo as [|[g0 [gam0 w0]] todo IH]; intros k i g gam w E Nw HZ EA EL; [destruct i; discriminate|].
  cbn [inner_loop]. destruct i as [|i].
  - cbn in E. assert (g0 = g /\ gam0 = gam /\ w0 = w) as (-> & -> & ->) by (repeat split; congruence).
    rewrite Nat.add_0_r in EA. destruct (Req_EM_T w 0); [contradiction|]. rewrite EA. cbn [bind]. rewrite EA. cbn [bind]. rewrite EL.
    rewrite inner_loop_none; auto. intros t I. apply In_nth_error in I as (j & Ej). apply (HZ (S j) t); auto.
  - cbn in E. assert (w0 = 0) as -> by (apply (HZ 0%nat (g0, (gam0, w0))); auto).
    destruct (Req_EM_T 0 0); [|congruence]. apply IH with i g gam; auto.
    + intros j t Hj N. apply (HZ (S j) t); auto.
    + rewrite Nat.add_succ_comm. auto.
Qed.
Lemma rsum_one l i : (forall j, j <> i -> nth j l 0 = 0) -> rsum l = nth i l 0.
Proof.
  revert i. induction l as [|y l IH]; intros i H; [destruct i; auto|]. unfold rsum in *. cbn [fold_right]. destruct i as [|i].
  - cbn [nth]. rewrite (IH (length l)).
    + rewrite nth_overflow by auto. ring.
    + intros j _. apply (H (S j)). lia.
  - cbn [nth]. rewrite (IH i); [pose proof (H 0%nat ltac:(lia)) as Z; cbn in Z; rewrite Z; ring|].
    intros j N. apply (H (S j)). lia.
Qed.

Lemma todo_nth : forall (inner : list region) (gs ws : list R) j t, nth_error (combine inner (combine gs ws)) j = Some t ->
  nth j ws 0 = snd (snd t) /\ nth j gs 0 = fst (snd t) /\ nth_error inner j = Some (fst t).
Proof.
  induction inner as [|y l' IH]; intros gs ws j t Ej.
  - destruct j; discriminate.
  - destruct gs as [|g1 gs]; [destruct j; discriminate|]. destruct ws as [|w1 ws]; [destruct j; discriminate|]. cbn [combine] in Ej.
    destruct j as [|j]; cbn [nth_error] in Ej.
    + assert (t = (y, (g1, w1))) by congruence. subst. auto.
    + cbn [nth nth_error]. apply IH. auto.
Qed.

(** The local attractor of a region of the object. *)
Definition assigned (h : hull) (i : nat) (a : vec) : Prop :=
  if Nat.ltb i (length (hl_inner h)) then exists c, nth_error (hl_attr h) i = Some (Some a, c) else hl_out h = Some a.

(** Where one region contains the position, the velocity is turned from the direction of its local
    attractor towards the tangent, in the plane of the reference direction; the component along
    the normal keeps its sign and vanishes at the surface. *)
Theorem C92_single : forall dim h x i g a, nth_error (all_regions h) i = Some g -> regular n g x ->
  length x = n -> length a = n -> assigned h i a -> 1 < rg_gamma g x ->
  (forall j g', nth_error (all_regions h) j = Some g' -> j <> i -> rg_gamma g' x <= 1) ->
  let r := rg_ref g x in let l := vsub a x in let gamma := rg_gamma g x in
  norm (vsub l (vscale (dot r l) r)) <> 0 ->
  forall t k, t = vsub l (vscale k r) -> dot (rg_normal g x) t = 0 ->
  exists u, evaluate_local sp_dist sp_path orth1 dim h x = (h, Ok u) /\ unitv u /\
    acos (dot r u) = (1 - 1 / gamma) * acos (dot r (direction l)) + 1 / gamma * acos (dot r (direction t)) /\
    0 <= dot (rg_normal g x) u * dot (rg_normal g x) l /\
    Rabs (dot (rg_normal g x) u) <=
      (1 - 1 / gamma) * PI * (Rabs (dot (rg_normal g x) r) * norm t / norm (vsub l (vscale (dot r l) r))) /\
    exists c k', 0 < c /\ u = vadd (vscale c l) (vscale k' r).
Proof.
  intros dim h x i g a Ei RG Lx La HA G1 HO r l gamma NA t k Et Dt.
  pose proof RG as (_ & _ & Dn). fold r in Dn.
  assert (Ek : k = dot (rg_normal g x) l / dot (rg_normal g x) r).
  { rewrite Et, dot_vsub_r, dot_vscale_r in Dt. apply Rmult_eq_reg_r with (dot (rg_normal g x) r); auto. field_simplify; auto. lra. }
  assert (ET : t = tangent_at g x a) by (rewrite Et, Ek; reflexivity). rewrite ET. clear t Et Dt ET k Ek.
  assert (GG : 1 <= rg_gamma g x) by lra.
  destruct (local_ok n orth1 g x a (rg_gamma g x) RG Lx La GG NA) as [EL _].
  destruct (local_facts n orth1 g x a (rg_gamma g x) RG Lx La GG NA) as (Lu & Uu & F).
  set (u := in_plane _ _ _ _) in EL, Lu, Uu, F. exists u. split; [|split; auto].
  assert (HI : hull_is_inside h x = false).
  { destruct (hull_is_inside h x) eqn:E; auto. rewrite inside_iff in E. apply nth_error_In in Ei. apply E in Ei. lra. }
  pose proof (weights_total h x HI) as T.
  assert (Z : forall j, j <> i -> nth j (hull_weights (hull_gammas h x)) 0 = 0).
  { intros j N. apply weights_nth. destruct (gammas_nth h x j) as [|(g' & E' & G')]; auto. specialize (HO j g' E' N). lra. }
  assert (W : nth i (hull_weights (hull_gammas h x)) 0 = 1) by (rewrite <- (rsum_one _ i Z); auto).
  assert (GI : nth i (hull_gammas h x) 0 = rg_gamma g x).
  { unfold hull_gammas. fold (all_regions h). apply nth_error_nth. rewrite nth_error_map, Ei. auto. }
  assert (MU : mean_velocity [(1, u)] = Ok u).
  { assert (E1 : weighted_mean [(1, u)] = u).
    { change (vadd (vscale 1 u) [] = u). apply vec_ext; [rewrite length_vadd, length_vscale; cbn [length]; lia|].
      intros j. rewrite nth_vadd, nth_vscale. destruct j; cbn [nth]; ring. }
    assert (N1 : norm u = 1) by (apply unit_norm; auto).
    unfold mean_velocity. rewrite E1. cbn [map rsum fold_right fst snd]. unfold rsum. cbn [fold_right].
    rewrite N1. destruct (Req_EM_T 1 0); [lra|].
    f_equal. vext. field. }
  assert (LG := gammas_length h x). assert (LW := weights_length (hull_gammas h x)).
  unfold evaluate_local. rewrite T. destruct (Req_EM_T 1 0); [lra|].
  assert (TD : forall j t, nth_error (combine (hl_inner h) (combine (hull_gammas h x) (hull_weights (hull_gammas h x)))) j = Some t ->
     nth j (hull_weights (hull_gammas h x)) 0 = snd (snd t) /\ nth j (hull_gammas h x) 0 = fst (snd t) /\ nth_error (hl_inner h) j = Some (fst t)).
  { intros j t. apply todo_nth. }
  destruct (nth_regions _ _ _ Ei) as [[Li Ein]|[-> ->]].
  - (* a hull *)
    unfold assigned in HA. assert (EB : Nat.ltb i (length (hl_inner h)) = true) by (apply Nat.ltb_lt; auto). rewrite EB in HA.
    destruct HA as (c & HA).
    assert (ET : exists t, nth_error (combine (hl_inner h) (combine (hull_gammas h x) (hull_weights (hull_gammas h x)))) i = Some t).
    { destruct (nth_error (combine (hl_inner h) (combine (hull_gammas h x) (hull_weights (hull_gammas h x)))) i) as [t|] eqn:E; eauto.
      apply nth_error_None in E. rewrite !combine_length in E. rewrite LW, LG in E. lia. }
    destruct ET as ((g1 & g2 & w1) & ET). destruct (TD _ _ ET) as (T1 & T2 & T3). cbn [fst snd] in T1, T2, T3.
    rewrite W in T1. rewrite GI in T2. assert (g1 = g) by congruence. subst g1 g2 w1.
    rewrite (inner_loop_one h x a u _ 0 i g (rg_gamma g x) 1 ET); auto.
    + unfold outer_step. rewrite (Z (length (hl_inner h))) by lia. destruct (Req_EM_T 0 0); [|congruence]. cbn [bind app]. rewrite MU. auto.
    + intros j t Ej N. destruct (TD _ _ Ej) as (Q & _). rewrite <- Q. auto.
    + cbn [attractor_of]. rewrite Nat.add_0_l, HA. auto.
  - (* the outer obstacle *)
    unfold assigned in HA. rewrite Nat.ltb_irrefl in HA.
    rewrite inner_loop_none.
    + unfold outer_step. rewrite W, GI. destruct (Req_EM_T 1 0); [lra|]. rewrite HA. rewrite HA, EL. cbn [bind app]. rewrite MU. auto.
    + intros t I. apply In_nth_error in I as (j & Ej). destruct (TD _ _ Ej) as (Q & _ & Q3). rewrite <- Q. apply Z.
      assert (j < length (hl_inner h))%nat by (apply nth_error_Some; congruence). lia.
Qed.
End Loops.

(** ** Cases *)
(** A disc of radius one around the origin. *)
Definition disc : region := mkReg [0; 0] [2; 2] (fun x => dot x x) direction direction direction.
Lemma disc_regular x : length x = 2%nat -> norm x <> 0 -> regular 2 disc x.
Proof.
  intros L N. unfold regular, disc. cbn [rg_ref rg_normal].
  assert (U : unitv (direction x)) by (apply (unit_vdiv x N)). repeat split; auto.
  - unfold direction. rewrite length_vscale. auto.
  - unfold unitv in U. rewrite U. lra.
Qed.
Lemma norm_axis_y y : 0 <= y -> norm [0; y] = y.
Proof. intros H. unfold norm. cbn. replace (0 * 0 + (y * y + 0)) with (y * y) by ring. apply sqrt_square. auto. Qed.

(** Outside of the disc at (2, 0) with the attractor at (2, 2). *)
Lemma disc_tangential sp_dist sp_path orth1 h : hl_inner h = [] -> hl_outer h = disc -> hl_out h = Some [2; 2] ->
  evaluate_local sp_dist sp_path orth1 2 h [2; 0] = (h, Ok [0; 1]).
Proof.
  intros HI HO HA. assert (N2 : norm [2; 0] = 2).
  { unfold norm. cbn. replace (2 * 2 + (0 * 0 + 0)) with (2 * 2) by ring. apply sqrt_square. lra. }
  assert (DR : direction [2; 0] = [1; 0]).
  { unfold direction. rewrite N2. unfold vscale. cbn. f_equal; [lra|]. f_equal. ring. }
  assert (EL : vsub [2; 2] [2; 0] = [0; 2]) by (unfold vsub, vscale; cbn; f_equal; [ring|f_equal; ring]).
  assert (EQ : vsub [0; 2] (vscale (dot [1; 0] [0; 2]) [1; 0]) = [0; 2]).
  { unfold vsub, vscale. cbn. f_equal; [ring|f_equal; ring]. }
  assert (DL : direction [0; 2] = [0; 1]).
  { unfold direction. rewrite norm_axis_y by lra. unfold vscale. cbn. f_equal; [lra|]. f_equal. lra. }
  destruct (C92_single sp_dist sp_path orth1 2 2 h [2; 0] 0 disc [2; 2]) with (t := [0; 2]) (k := 0) as (u & EV & Uu & AN & _ & _ & c & k' & Pc & Eu); auto.
  - unfold all_regions. rewrite HI, HO. auto.
  - apply disc_regular; auto. rewrite N2. lra.
  - unfold assigned. rewrite HI. auto.
  - cbn. lra.
  - intros j g' Hj Nj. unfold all_regions in Hj. rewrite HI in Hj. destruct j; [congruence|]. destruct j; discriminate.
  - cbn [disc rg_ref]. rewrite DR, EL, EQ, norm_axis_y by lra. lra.
  - cbn [disc rg_ref]. rewrite DR, EL. unfold vsub, vscale. cbn. f_equal; [ring|f_equal; ring].
  - cbn [disc rg_normal]. rewrite DR. cbn. ring.
  - rewrite EV. f_equal. f_equal. cbn [disc rg_ref] in AN, Eu. rewrite DR, EL in Eu. rewrite DR, EL, DL in AN.
    assert (Z0 : dot [1; 0] [0; 1] = 0) by (cbn; ring). rewrite Z0, acos_0 in AN.
    replace ((1 - 1 / rg_gamma disc [2; 0]) * (PI / 2) + 1 / rg_gamma disc [2; 0] * (PI / 2)) with (PI / 2) in AN by ring.
    assert (UB : -1 <= dot [1; 0] u <= 1).
    { apply unit_dot_bounds; auto. unfold unitv. cbn. ring. }
    assert (DU : dot [1; 0] u = 0).
    { transitivity (cos (acos (dot [1; 0] u))); [symmetry; apply cos_acos; auto|]. rewrite AN. apply cos_PI2. }
    assert (Eu2 : u = [k'; 2 * c]).
    { rewrite Eu. unfold vscale. cbn. f_equal; [ring|f_equal; ring]. }
    rewrite Eu2 in DU, Uu. unfold unitv in Uu. cbn in DU, Uu. rewrite Eu2. assert (K0 : k' = 0) by lra. subst k'.
    f_equal. f_equal. nra.
Qed.

Section Cases.
Variable sp_dist : list edge -> hnode -> hnode -> option R.
Variable sp_path : list edge -> hnode -> hnode -> option (list hnode).
Variable orth1 : vec -> vec.

(** A hull around the origin, in a larger obstacle. *)
Definition room : region := mkReg [0; 0] [4; 4] (fun x => 5 - dot x x) direction direction direction.
Definition wall : region := mkReg [0; 0] [6; 6] (fun x => dot x x / 9) direction direction direction.
Definition house : hull := mkHull [room] wall (fun p => p) (fun p => p) (Some []) [(Some [1; 1], true)] None false 0.
Example C90_case :
  (* in the wall, in the room and outside *)
  hull_is_inside house [5 / 2; 0] = true /\ evaluate_local sp_dist sp_path orth1 2 house [5 / 2; 0] = (house, Ok [0; 0]) /\
  hull_is_inside house [1; 0] = false /\ hull_is_inside house [4; 0] = false.
Proof.
  assert (A : forall g, In g (all_regions house) -> rg_gamma g [5 / 2; 0] <= 1).
  { intros g [<-|[<-|[]]]; cbn; lra. }
  destruct (C90_wall sp_dist sp_path orth1 2 house [5 / 2; 0] A) as [A1 A2]. split; auto. split; [exact A2|]. split.
  - apply (C90_free sp_dist sp_path orth1 2 2 house [1; 0] room); [left; auto|cbn; lra].
  - apply (C90_free sp_dist sp_path orth1 2 2 house [4; 0] wall); [right; left; auto|cbn; lra].
Qed.
Example C92_case : exists u, evaluate_local sp_dist sp_path orth1 2 house [1; 0] = (house, Ok u) /\ unitv u /\ dot [1; 0] u = 0.
Proof.
  assert (N1 : norm [1; 0] = 1) by (unfold norm; cbn; replace (1 * 1 + (0 * 0 + 0)) with 1 by ring; apply sqrt_1).
  assert (DR : direction [1; 0] = [1; 0]).
  { unfold direction. rewrite N1. unfold vscale. cbn. f_equal; [lra|]. f_equal. ring. }
  assert (EL : vsub [1; 1] [1; 0] = [0; 1]) by (unfold vsub, vscale; cbn; f_equal; [ring|f_equal; ring]).
  assert (EQ : vsub [0; 1] (vscale (dot [1; 0] [0; 1]) [1; 0]) = [0; 1]).
  { unfold vsub, vscale. cbn. f_equal; [ring|f_equal; ring]. }
  assert (DL : direction [0; 1] = [0; 1]).
  { unfold direction. rewrite norm_axis_y by lra. unfold vscale. cbn. f_equal; [lra|]. f_equal. lra. }
  destruct (C92_single sp_dist sp_path orth1 2 2 house [1; 0] 0 room [1; 1]) with (t := [0; 1]) (k := 0) as (u & EV & Uu & AN & _); auto.
  - unfold regular. cbn [room rg_ref rg_normal]. rewrite DR. repeat split; auto; [unfold unitv; cbn; ring|cbn; lra].
  - unfold assigned. cbn. eauto.
  - cbn. lra.
  - intros [|[|[|j]]] g' Hj Nj; cbn in Hj; try congruence. assert (g' = wall) by congruence. subst g'. cbn. lra.
  - cbn [room rg_ref]. rewrite DR, EL, EQ, norm_axis_y by lra. lra.
  - cbn [room rg_ref]. rewrite DR, EL. unfold vsub, vscale. cbn. f_equal; [ring|f_equal; ring].
  - cbn [room rg_normal]. rewrite DR. cbn. ring.
  - exists u. split; auto. split; auto. cbn [room rg_ref] in AN. rewrite DR, EL, DL in AN.
    assert (Z0 : dot [1; 0] [0; 1] = 0) by (cbn; ring). rewrite Z0, acos_0 in AN.
    replace ((1 - 1 / rg_gamma room [1; 0]) * (PI / 2) + 1 / rg_gamma room [1; 0] * (PI / 2)) with (PI / 2) in AN by ring.
    assert (UB : -1 <= dot [1; 0] u <= 1) by (apply unit_dot_bounds; auto; unfold unitv; cbn; ring).
    transitivity (cos (acos (dot [1; 0] u))); [symmetry; apply cos_acos; auto|]. rewrite AN. apply cos_PI2.
Qed.

(** [is_inside] ignores the pose of the object, [evaluate] does not: next to a disc at (5, 0) the
    first takes the middle of the disc for free space. *)
Theorem C90_frame_refuted : exists h c p, (forall q, hl_to h q = vsub q c) /\
  hull_is_inside h p = false /\ snd (evaluate_global sp_dist sp_path orth1 2 h p) = Ok [0; 0] /\
  hull_is_inside h [0; 0] = true /\ 1 < rg_gamma (hl_outer h) (hl_to h [0; 0]).
Proof.
  exists (new_hull [] disc (fun q => vsub q [5; 0]) (fun v => v)), [5; 0], [5; 0]. split; [auto|].
  assert (Z : vsub [5; 0] [5; 0] = [0; 0]) by (unfold vsub, vscale; cbn; f_equal; [ring|f_equal; ring]).
  split.
  { apply (C90_free sp_dist sp_path orth1 2 2 _ _ disc); [left; auto|cbn; lra]. }
  split.
  { unfold evaluate_global. cbn [new_hull hl_to].
    rewrite Z. destruct (C90_wall sp_dist sp_path orth1 2 (new_hull [] disc (fun q => vsub q [5; 0]) (fun v => v)) [0; 0]) as [_ E].
    - intros g [<-|[]]. cbn. lra.
    - rewrite E. cbn [snd bind]. rewrite weights_sum_wall; [destruct (Req_EM_T 0 0); [auto|congruence]|].
      intros y [<-|[]]. cbn. lra. }
  split.
  - apply inside_iff. intros g [<-|[]]. cbn. lra.
  - cbn. lra.
Qed.

(** A turned object returns its velocity in the wrong frame: beside a disc turned by a quarter,
    the velocity points away from the attractor; with the untouched disc it points there. *)
Definition quarter_back (p : vec) : vec := match p with [x; y] => [y; - x] | _ => p end.
Theorem C92_frame_refuted : exists a p h v, let turned := new_hull [] disc quarter_back quarter_back in
  set_attractor turned a true = (h, Ok tt) /\ snd (evaluate_global sp_dist sp_path orth1 2 h p) = Ok v /\
  dot v (vsub a p) < 0 /\
  exists h0 v0, set_attractor (new_hull [] disc (fun q => q) (fun q => q)) (quarter_back a) true = (h0, Ok tt) /\
    snd (evaluate_global sp_dist sp_path orth1 2 h0 (quarter_back p)) = Ok v0 /\
    0 < dot v0 (vsub (quarter_back a) (quarter_back p)).
Proof.
  assert (EA : quarter_back [-2; 2] = [2; 2]) by (cbn; f_equal; f_equal; ring).
  assert (EP : quarter_back [0; 2] = [2; 0]) by (cbn; f_equal; f_equal; ring).
  assert (IA : reg_inside disc [2; 2] = false) by (apply Rleb_false; cbn; lra).
  exists [-2; 2], [0; 2]. eexists. exists [1; -0]. cbv zeta. split.
  { unfold set_attractor. cbn [new_hull hl_to hl_outer hl_inner hl_graph]. rewrite EA, IA. cbn. reflexivity. }
  split.
  { unfold evaluate_global. cbn [with_attr with_out new_hull hl_to hl_dir_to]. rewrite EP.
    rewrite disc_tangential by auto. cbn [snd bind]. rewrite weights_sum_free.
    - destruct (Req_EM_T 1 0); [lra|]. reflexivity.
    - exists (rg_gamma disc [2; 0]). split; [left; auto|]. cbn. lra. }
  split; [unfold vsub, vscale; cbn; lra|].
  eexists. exists [0; 1]. split.
  { unfold set_attractor. cbn [new_hull hl_to hl_outer hl_inner hl_graph]. rewrite EA, IA. cbn. reflexivity. }
  split.
  { unfold evaluate_global. cbn [with_attr with_out new_hull hl_to hl_dir_to]. rewrite EP.
    rewrite disc_tangential by auto. cbn [snd bind]. rewrite weights_sum_free.
    - destruct (Req_EM_T 1 0); [lra|]. reflexivity.
    - exists (rg_gamma disc [2; 0]). split; [left; auto|]. cbn. lra. }
  rewrite EA, EP. unfold vsub, vscale. cbn. lra.
Qed.

(** The object never slows down: arbitrarily near to the attractor it moves with speed one. *)
Theorem C92_rest_refuted : exists a h, set_attractor (new_hull [] disc (fun q => q) (fun q => q)) a true = (h, Ok tt) /\
  hull_is_inside h a = false /\
  forall eps, 0 < eps -> exists x v, norm (vsub a x) < eps /\
    evaluate_local sp_dist sp_path orth1 2 h x = (h, Ok v) /\ norm v = 1.
Proof.
  exists [2; 0], (mkHull [] disc (fun q => q) (fun q => q) None [] (Some [2; 0]) true 0).
  assert (IA : reg_inside disc [2; 0] = false) by (apply Rleb_false; cbn; lra).
  split. { unfold set_attractor. cbn [new_hull hl_to hl_outer hl_inner hl_graph]. rewrite IA. cbn. reflexivity. }
  split. { apply (C90_free sp_dist sp_path orth1 2 2 _ _ disc); [left; auto|cbn; lra]. }
  intros eps He. set (d := Rmin (eps / 2) 1). assert (Hd : 0 < d <= 1 /\ d < eps).
  { unfold d. pose proof (Rmin_l (eps / 2) 1). pose proof (Rmin_r (eps / 2) 1). split; [split; [|lra]|lra].
    apply Rmin_glb_lt; lra. }
  set (x := [2; - d]). assert (EL : vsub [2; 0] x = [0; d]) by (unfold x, vsub, vscale; cbn; f_equal; [ring|f_equal; ring]).
  assert (NX : norm x <> 0) by (apply norm_neq_0_dot; unfold x; cbn; nra).
  assert (PX := norm_pos x NX). assert (SX := norm_sq x).
  assert (RX := disc_regular x eq_refl NX). destruct RX as (R1 & R2 & R3).
  set (h := mkHull _ _ _ _ _ _ _ _ _). cbn [disc rg_ref rg_normal] in R1, R2, R3.
  set (r := direction x) in *. set (l := [0; d]) in *.
  destruct (C92_single sp_dist sp_path orth1 2 2 h x 0 disc [2; 0]) with (t := vsub l (vscale (dot r l) r)) (k := dot r l)
    as (u & EV & Uu & _); auto.
  - repeat split; auto.
  - unfold assigned. cbn. auto.
  - unfold x. cbn. nra.
  - intros [|[|j]] g' Hj Nj; cbn in Hj; congruence.
  - cbn [disc rg_ref]. rewrite EL. fold r l. apply norm_neq_0_dot.
    assert (E : dot (vsub l (vscale (dot r l) r)) (vsub l (vscale (dot r l) r)) = dot l l - dot r l * dot r l).
    { rewrite dot_vsub_l, !dot_vsub_r, !dot_vscale_l, !dot_vscale_r, (dot_comm l r). unfold unitv in R2. rewrite R2. ring. }
    rewrite E. assert (D1 : dot r l = / norm x * - (d * d)).
    { unfold r, direction. rewrite dot_vscale_l. f_equal. unfold x, l. cbn. ring. }
    assert (D2 : dot l l = d * d) by (unfold l; cbn; ring).
    assert (D3 : norm x * norm x = 4 + d * d) by (rewrite SX; unfold x; cbn; ring).
    rewrite D1, D2. replace (d * d - / norm x * - (d * d) * (/ norm x * - (d * d))) with (d * d * (1 - d * d / (norm x * norm x))) by (field; lra).
    rewrite D3. replace (1 - d * d / (4 + d * d)) with (4 / (4 + d * d)) by (field; nra).
    apply Rgt_not_eq. apply Rmult_lt_0_compat; [nra|]. apply Rdiv_lt_0_compat; nra.
  - cbn [disc rg_ref]. rewrite EL. auto.
  - cbn [disc rg_normal]. fold r. rewrite dot_vsub_r, dot_vscale_r. unfold unitv in R2. rewrite R2. ring.
  - exists x, u. rewrite EL. unfold l. rewrite norm_axis_y by lra. split; [lra|]. split; auto. apply unit_norm. auto.
Qed.
End Cases.
Print Assumptions C90_wall.
Print Assumptions C90_free.
Print Assumptions C92_single.
Print Assumptions C90_frame_refuted.
Print Assumptions C92_frame_refuted.
Print Assumptions C92_rest_refuted.
