(** Property C173: the speed of the command changes continuously. *)
Require Import Reals List Bool Lra Lia ZArith Classical_Prop.
From Verif Require Import Base Vec Angle Pow RotModel Spec RotProofs SeqProofs TreeModel TreeSpec WeightModel WeightProofs PropWeights
  AvoidModel PropAvoid ProjModel PropProject TangentProofs PropTangent PropContact ContProofs PropContinuity PropJoint PropOrder PropLimits PropSteady PropFade.
Import ListNotations.
Open Scope R_scope.

(** ** The slow-down before a velocity along the reference direction *)
Section Slow.
Variable p : R.
Hypothesis Hp : 0 < p.
Definition pow0 (x : R) : R := if Rlt_dec 0 x then Rpower x p else 0.
Lemma pow0_fpow x : 0 <= x -> fpow x p = Ok (pow0 x).
Proof.
  intros H. unfold fpow, pow0. destruct (Rlt_dec 0 x); auto. destruct (Req_EM_T p 0); [lra|]. destruct (Req_EM_T x 0); [|lra]. destruct (Rlt_dec 0 p); [auto|lra].
Qed.
Lemma pow0_1 : pow0 1 = 1.
Proof. unfold pow0. destruct (Rlt_dec 0 1); [apply Rpower_base_1|lra]. Qed.
Lemma pow0_min x : 0 <= x -> Rmin 1 (pow0 x) = pow0 (Rmin 1 x).
Proof.
  intros H. destruct (Rle_dec 1 x) as [L|L].
  - rewrite (Rmin_left 1 x) by auto. rewrite pow0_1. apply Rmin_left. unfold pow0. destruct (Rlt_dec 0 x); [|lra]. apply Rpower_ge_1; lra.
  - rewrite (Rmin_right 1 x) by lra. apply Rmin_right. unfold pow0. destruct (Rlt_dec 0 x); [|lra]. apply Rpower_le_1; lra.
Qed.
Lemma cv_pow0 f a : Un_cv f a -> (forall j, 0 <= f j) -> Un_cv (fun j => pow0 (f j)) (pow0 a).
Proof.
  intros C P. pose proof (cv_nonneg f a C P) as Pa. destruct (Req_dec a 0) as [->|NZ].
  - unfold pow0 at 2. destruct (Rlt_dec 0 0); [lra|]. intros e He. destruct (C (Rpower e (/ p)) (exp_pos _)) as (N & H). exists N. intros j Hj. specialize (H j Hj).
    unfold R_dist in *. rewrite Rminus_0_r in *. rewrite Rabs_pos_eq in H by auto. unfold pow0. destruct (Rlt_dec 0 (f j)) as [Q|Q]; [|rewrite Rabs_R0; auto].
    rewrite Rabs_pos_eq by (left; apply exp_pos). apply small_power; auto.
  - destruct (cv_lt (fun _ => 0) f 0 a (cv_const 0) C ltac:(lra)) as (N & HN). apply cv_eventually with (fun j => Rpower (f j) p) N.
    + intros j Hj. specialize (HN j Hj). cbv beta in HN. unfold pow0. destruct (Rlt_dec 0 (f j)); [auto|lra].
    + unfold pow0. destruct (Rlt_dec 0 a); [|lra]. apply cv_rpower; auto. apply cv_const.
Qed.
Definition factor (rc : R * R) : R := if Rlt_dec 0 (fst rc) then pow0 (Rmin 1 ((1 - snd rc) / fst rc)) else 1.
Definition fine_record (rc : R * R) : Prop := 0 <= fst rc <= 1 /\ -1 <= snd rc <= 1.
Lemma min_fold : forall l x, Rmin (fold_left Rmin l x) 1 = fold_left Rmin (map (Rmin 1) l) (Rmin 1 x).
Proof.
  induction l as [|y l IH]; intros x; cbn [fold_left map]; [apply Rmin_comm|]. rewrite IH. f_equal.
  unfold Rmin. repeat destruct (Rle_dec _ _); lra.
Qed.
Lemma slow_formula records : records <> [] -> (forall rc, In rc records -> fine_record rc) ->
  slowfactor_from_convergence records p = Ok (rmin_list (map factor records)).
Proof.
  intros NE F. unfold slowfactor_from_convergence.
  set (v := fun rc : R * R => if Rltb 0 (fst rc) && Rltb 0 (snd rc) then pow0 ((1 - snd rc) / fst rc) else 1).
  rewrite (mapM_ok _ v).
  2: { intros (r, c) I. destruct (F _ I) as [A B]. unfold v. cbn [fst snd] in *. destruct (Rltb 0 r) eqn:Q; [|auto]. apply Rltb_true in Q. cbn [andb].
       destruct (Rltb 0 c); auto. apply pow0_fpow. apply Rmult_le_pos; [lra|]. left. apply Rinv_0_lt_compat. auto. }
  cbn [bind]. destruct records as [|rc l]; [contradiction|]. cbn [map]. f_equal. cbn [rmin_list]. rewrite min_fold. f_equal.
  - rewrite map_map. apply map_ext_in. intros (r, c) I. destruct (F _ (or_intror I)) as [A B]. unfold v, factor. cbn [fst snd] in *.
    destruct (Rlt_dec 0 r) as [P|P]; [|rewrite (proj2 (Rltb_false 0 r)) by lra; cbn [andb]; apply Rmin_left; lra]. rewrite (proj2 (Rltb_true 0 r) P). cbn [andb].
    assert (X : 0 <= (1 - c) / r) by (apply Rmult_le_pos; [lra|left; apply Rinv_0_lt_compat; auto]).
    destruct (Rltb 0 c) eqn:Q; [apply pow0_min; auto|]. apply Rltb_false in Q. rewrite (Rmin_left 1 ((1 - c) / r)).
    + rewrite pow0_1. apply Rmin_left. lra.
    + apply Rmult_le_reg_r with r; auto. unfold Rdiv. rewrite Rmult_assoc, Rinv_l; lra.
  - destruct rc as (r, c). destruct (F _ (or_introl eq_refl)) as [A B]. unfold v, factor. cbn [fst snd] in *.
    destruct (Rlt_dec 0 r) as [P|P]; [|rewrite (proj2 (Rltb_false 0 r)) by lra; cbn [andb]; apply Rmin_left; lra]. rewrite (proj2 (Rltb_true 0 r) P). cbn [andb].
    assert (X : 0 <= (1 - c) / r) by (apply Rmult_le_pos; [lra|left; apply Rinv_0_lt_compat; auto]).
    destruct (Rltb 0 c) eqn:Q; [apply pow0_min; auto|]. apply Rltb_false in Q. rewrite (Rmin_left 1 ((1 - c) / r)).
    + rewrite pow0_1. apply Rmin_left. lra.
    + apply Rmult_le_reg_r with r; auto. unfold Rdiv. rewrite Rmult_assoc, Rinv_l; lra.
Qed.
Lemma cv_factor r_ c_ r c : (forall j, fine_record (r_ j, c_ j)) -> fine_record (r, c) -> Un_cv r_ r -> Un_cv c_ c -> ~ (r = 0 /\ c = 1) ->
  Un_cv (fun j => factor (r_ j, c_ j)) (factor (r, c)).
Proof.
  intros F_ F Cr Cc N. unfold fine_record in *. cbn [fst snd] in *. destruct (Req_dec r 0) as [->|NZ].
  - destruct (cv_lt r_ (fun j => 1 - c_ j) 0 (1 - c) Cr (cv_sub _ _ _ _ (cv_const 1) Cc) ltac:(lra)) as (M & HM).
    unfold factor at 2. cbn [fst snd]. destruct (Rlt_dec 0 0); [lra|]. apply cv_eventually with (fun _ => 1) M; [|apply cv_const]. intros j Hj. specialize (HM j Hj). cbv beta in HM.
    unfold factor. cbn [fst snd]. destruct (Rlt_dec 0 (r_ j)); auto. rewrite (Rmin_left 1); [symmetry; apply pow0_1|].
    apply Rmult_le_reg_r with (r_ j); auto. unfold Rdiv. rewrite Rmult_assoc, Rinv_l; lra.
  - destruct (cv_lt (fun _ => 0) r_ 0 r (cv_const 0) Cr ltac:(lra)) as (M & HM). unfold factor at 2. cbn [fst snd]. destruct (Rlt_dec 0 r); [|lra].
    set (h := fun j => Rmin 1 (Rmax 0 ((1 - c_ j) / r_ j))).
    assert (X : 0 <= (1 - c) / r) by (apply Rmult_le_pos; [lra|left; apply Rinv_0_lt_compat; auto]).
    apply cv_eventually with (fun j => pow0 (h j)) M.
    + intros j Hj. specialize (HM j Hj). cbv beta in HM. unfold factor, h. cbn [fst snd]. destruct (Rlt_dec 0 (r_ j)); [|lra]. rewrite (Rmax_right 0); auto.
      apply Rmult_le_pos; [specialize (F_ j); lra|left; apply Rinv_0_lt_compat; auto].
    + apply cv_pow0; [|intros j; unfold h; apply Rmin_glb; [lra|apply Rmax_l]]. unfold h. rewrite <- (Rmax_right 0 ((1 - c) / r)) by auto. apply cv_min. apply cv_max0.
      apply cv_div; auto. apply cv_sub; auto. apply cv_const.
Qed.
End Slow.
(** The slow-down of a tree with neither rotation weight nor distance from its reference direction may jump, all others are continuous. *)
Theorem C173_slowfactor : forall p records_ records, 0 < p -> records <> [] -> (forall j, length (records_ j) = length records) ->
  (forall j r c, In (r, c) (records_ j) -> 0 <= r <= 1 /\ -1 <= c <= 1) -> (forall r c, In (r, c) records -> 0 <= r <= 1 /\ -1 <= c <= 1) ->
  (forall k, (k < length records)%nat -> Un_cv (fun j => fst (nth k (records_ j) (0, 0))) (fst (nth k records (0, 0))) /\ Un_cv (fun j => snd (nth k (records_ j) (0, 0))) (snd (nth k records (0, 0)))) ->
  ~ In (0, 1) records ->
  exists s_ s, (forall j, slowfactor_from_convergence (records_ j) p = Ok (s_ j)) /\ slowfactor_from_convergence records p = Ok s /\ Un_cv s_ s.
Proof.
  intros p records_ records Hp NE L F_ F C N.
  exists (fun j => rmin_list (map (factor p) (records_ j))), (rmin_list (map (factor p) records)).
  split; [intros j; apply slow_formula; auto|split; [apply slow_formula; auto|]].
  { intros Z. specialize (L j). rewrite Z in L. destruct records; [contradiction|discriminate]. }
  { intros (r, c) I. apply (F_ j r c I). }
  { intros (r, c) I. apply (F r c I). }
  apply cv_rmin_list.
  - destruct records; [contradiction|discriminate].
  - intros j. rewrite !map_length. auto.
  - intros k. destruct (Nat.ltb_spec k (length records)) as [Hk|Hk].
    + assert (X : forall l, (k < length l)%nat -> nth k (map (factor p) l) 0 = factor p (nth k l (0, 0))).
      { intros l Hl. rewrite (nth_indep _ 0 (factor p (0, 0))) by (rewrite map_length; auto). apply map_nth. }
      rewrite X by auto. apply cv_ext with (fun j => factor p (fst (nth k (records_ j) (0, 0)), snd (nth k (records_ j) (0, 0)))).
      { intros j. rewrite X by (rewrite L; auto). destruct (nth k (records_ j) (0, 0)); auto. }
      destruct (C k Hk) as [C1 C2]. pose proof (nth_In records (0, 0) Hk) as I. destruct (nth k records (0, 0)) as (r, c) eqn:E. cbn [fst snd] in C1, C2.
      apply cv_factor; auto.
      * intros j. assert (Hj : (k < length (records_ j))%nat) by (rewrite L; auto). pose proof (nth_In (records_ j) (0, 0) Hj) as Ij. destruct (nth k (records_ j) (0, 0)) as (rj, cj). apply (F_ j rj cj Ij).
      * apply (F r c I).
      * intros [-> ->]. auto.
    + rewrite nth_overflow by (rewrite map_length; auto). apply cv_ext with (fun _ => 0); [|apply cv_const]. intros j. rewrite nth_overflow; auto. rewrite map_length, L. auto.
Qed.

(** ** The slow-down towards the surface *)
Definition tolerance : R := / 10 ^ 8.
Lemma close_zero x : 0 <= x -> isclose x 0 = Rleb x tolerance.
Proof. intros H. unfold isclose, tolerance. rewrite Rminus_0_r, Rabs_R0, Rabs_pos_eq by auto. f_equal. ring. Qed.
Lemma third : fdiv 1 3 = Ok (1 / 3).
Proof. unfold fdiv. destruct (Req_EM_T 3 0); [lra|auto]. Qed.
Lemma dot_ge_m1 v a : unitv v -> norm a <= 1 -> -1 <= dot v a.
Proof. intros U N. pose proof (cauchy_schwarz v a) as Q. rewrite (proj1 (unit_norm v) U) in Q. unfold Rabs in Q. destruct (Rcase_abs _); lra. Qed.
Lemma safe_free v a g : unitv v -> 0 < dot v a \/ norm a <= tolerance -> compute_safe_scaling v a g (8/10) 3 = Ok 1.
Proof.
  intros U H. unfold compute_safe_scaling. rewrite (proj1 (unit_norm v) U). destruct (Req_EM_T 1 0); [auto|]. rewrite close_zero by apply norm_nonneg.
  destruct H as [H|H]; [rewrite (proj2 (Rltb_true _ _) H); auto|]. rewrite (proj2 (Rleb_true _ _) H), orb_true_r. auto.
Qed.
Lemma safe_contact v a g : unitv v -> tolerance < norm a -> g <= 1 -> compute_safe_scaling v a g (8/10) 3 = Ok (if Rltb (dot v a) (-1/1000) then 0 else 1).
Proof.
  intros U H G. unfold compute_safe_scaling. rewrite (proj1 (unit_norm v) U). destruct (Req_EM_T 1 0); [lra|]. rewrite close_zero by apply norm_nonneg.
  rewrite (proj2 (Rleb_false _ _) H), orb_false_r. destruct (Rltb 0 (dot v a)) eqn:Q.
  - apply Rltb_true in Q. rewrite (proj2 (Rltb_false _ _)) by lra. auto.
  - destruct (Rle_dec g 1); [|lra]. destruct (Rltb (dot v a) (-1/1000)); auto.
Qed.
Lemma safe_outside v a g : unitv v -> norm a <= 1 -> tolerance < norm a -> 1 < g ->
  compute_safe_scaling v a g (8/10) 3 = Ok (Rpower (Rmin 1 (1 + 8 / 10 * dot v a)) (Rpower (1 / (g - 1) * norm a) (1 / 3))).
Proof.
  intros U N1 H G. unfold compute_safe_scaling. rewrite (proj1 (unit_norm v) U). destruct (Req_EM_T 1 0); [lra|]. rewrite close_zero by apply norm_nonneg.
  rewrite (proj2 (Rleb_false _ _) H), orb_false_r. destruct (Rltb 0 (dot v a)) eqn:Q.
  - apply Rltb_true in Q. rewrite Rmin_left by lra. rewrite Rpower_base_1. auto.
  - apply Rltb_false in Q. destruct (Rle_dec g 1); [lra|]. rewrite third. cbn [bind]. assert (T : 0 < tolerance) by (unfold tolerance; apply Rinv_0_lt_compat; apply pow_lt; lra).
    rewrite fpow_pos by (apply Rmult_lt_0_compat; [apply Rdiv_lt_0_compat; lra|lra]). cbn [bind].
    pose proof (dot_ge_m1 v a U N1). rewrite fpow_pos by lra. rewrite (Rmin_right 1) by lra. auto.
Qed.
Definition value (r : res R) : R := match r with Ok x => x | Err _ => 0 end.
(** Where the scaling towards the surfaces is continuous: away from the surface, or no direction of the surface,
    or out of contact, or into the surface, or staying in contact. *)
Definition steady_pace (v a : vec) (g_ : nat -> R) (g : R) : Prop :=
  0 < dot v a \/ norm a < / 10 ^ 8 \/
  (/ 10 ^ 8 < norm a /\ (1 < g \/ dot v a < -1/1000 \/ ((exists N, forall j, (N <= j)%nat -> g_ j <= 1) /\ dot v a <> -1/1000))).
Theorem C173_safe_scaling : forall n v_ a_ g_ v a g, (forall j, length (v_ j) = n /\ unitv (v_ j)) -> (forall j, length (a_ j) = n /\ norm (a_ j) <= 1) ->
  length v = n -> length a = n -> cvv v_ v -> cvv a_ a -> Un_cv g_ g ->
  steady_pace v a g_ g ->
  exists s_ s, (forall j, compute_safe_scaling (v_ j) (a_ j) (g_ j) (8/10) 3 = Ok (s_ j)) /\ compute_safe_scaling v a g (8/10) 3 = Ok s /\ Un_cv s_ s.
Proof.
  intros n v_ a_ g_ v a g Uv Ua Lv La Cv Ca Cg H. unfold steady_pace in H. fold tolerance in H.
  pose proof (cvv_unit n v_ v Uv Lv Cv) as U.
  assert (Lv_ : lenn n v_) by (intros j; apply Uv). assert (La_ : lenn n a_) by (intros j; apply Ua).
  assert (CN : Un_cv (fun j => norm (a_ j)) (norm a)) by (apply (cv_norm n); auto; [intros j; rewrite La_; lia|lia]).
  assert (CD : Un_cv (fun j => dot (v_ j) (a_ j)) (dot v a)) by (apply (cv_dot n); auto; [intros j; rewrite Lv_; lia|lia]).
  assert (N1 : norm a <= 1).
  { apply Rnot_lt_le. intros Q. destruct (cv_lt (fun _ => 1) _ _ _ (cv_const 1) CN Q) as (M & HM). specialize (HM M (Nat.le_refl _)). cbv beta in HM. destruct (Ua M). lra. }
  assert (EX : forall v a g, unitv v -> norm a <= 1 -> exists s, compute_safe_scaling v a g (8/10) 3 = Ok s).
  { intros v0 a0 g0 U0 N0. destruct (C29_safe_scaling v0 a0 g0 (8/10) 3 U0 N0) as (s & E & _); try lra. eauto. }
  destruct (EX v a g U N1) as (s & Es).
  exists (fun j => value (compute_safe_scaling (v_ j) (a_ j) (g_ j) (8/10) 3)), s.
  split; [intros j; destruct (EX (v_ j) (a_ j) (g_ j)) as (q & ->); [apply Uv|apply Ua|auto]|]. split; auto.
  destruct H as [H|[H|(H & K)]].
  - rewrite safe_free in Es by auto. injection Es as <-. destruct (cv_lt (fun _ => 0) _ _ _ (cv_const 0) CD H) as (M & HM).
    apply cv_eventually with (fun _ => 1) M; [|apply cv_const]. intros j Hj. specialize (HM j Hj). cbv beta in HM. rewrite safe_free; auto. apply Uv.
  - rewrite safe_free in Es by (auto; right; lra). injection Es as <-. destruct (cv_lt _ (fun _ => tolerance) _ _ CN (cv_const _) H) as (M & HM).
    apply cv_eventually with (fun _ => 1) M; [|apply cv_const]. intros j Hj. specialize (HM j Hj). cbv beta in HM. rewrite safe_free; auto; [apply Uv|right; lra].
  - destruct (cv_lt (fun _ => tolerance) _ _ _ (cv_const _) CN H) as (M & HM). assert (T : 0 < tolerance) by (unfold tolerance; apply Rinv_0_lt_compat; apply pow_lt; lra).
    destruct (Rlt_dec 1 g) as [G|G].
    + rewrite safe_outside in Es by auto. injection Es as <-. destruct (cv_lt (fun _ => 1) _ _ _ (cv_const 1) Cg G) as (M' & HM').
      apply cv_eventually with (fun j => Rpower (Rmin 1 (1 + 8 / 10 * dot (v_ j) (a_ j))) (Rpower (1 / (g_ j - 1) * norm (a_ j)) (1 / 3))) (Nat.max M M').
      { intros j Hj. specialize (HM j ltac:(lia)). specialize (HM' j ltac:(lia)). cbv beta in *. rewrite safe_outside; auto; [apply Uv|apply Ua]. }
      apply cv_rpower.
      * apply cv_min. apply cv_add; [apply cv_const|]. apply cv_mul; auto. apply cv_const.
      * apply cv_rpower; [|apply cv_const|apply Rmult_lt_0_compat; [apply Rdiv_lt_0_compat|]; lra].
        apply cv_mul; auto. apply cv_div; [apply cv_const|apply cv_sub; auto; apply cv_const|lra].
      * pose proof (dot_ge_m1 v a U N1). apply Rmin_glb_lt; lra.
    + destruct (Rlt_dec (dot v a) (-1/1000)) as [D|D].
      * rewrite safe_contact in Es by (auto; lra). rewrite (proj2 (Rltb_true _ _) D) in Es. injection Es as <-.
        destruct (cv_lt _ (fun _ => -1/1000) _ _ CD (cv_const _) D) as (M1 & HM1).
        (* in contact no speed, outside a speed that dies with the distance *)
        set (b := - ln (1 - 8 / 10000)). assert (B : 0 < b).
        { unfold b. assert (ln (1 - 8 / 10000) < ln 1) by (apply ln_increasing; lra). rewrite ln_1 in *. lra. }
        assert (Cq : Un_cv (fun j => Rmax 0 (g_ j - 1) / tolerance) 0).
        { pose proof (cv_div _ _ _ _ (cv_max0 _ _ (cv_sub _ _ _ _ Cg (cv_const 1))) (cv_const tolerance) ltac:(lra)) as Q. rewrite Rmax_left in Q by lra.
          replace (0 / tolerance) with 0 in Q by (field; lra). exact Q. }
        intros e He. set (e' := e * b). assert (He' : 0 < e') by (unfold e'; nra). destruct (Cq (Rpower e' (/ (1 / 3))) (exp_pos _)) as (Q & HQ).
        exists (Nat.max (Nat.max M M1) Q). intros j Hj. specialize (HM j ltac:(lia)). specialize (HM1 j ltac:(lia)). specialize (HQ j ltac:(lia)). cbv beta in *.
        unfold R_dist in *. rewrite Rminus_0_r in *. destruct (Rle_dec (g_ j) 1) as [Gj|Gj].
        { rewrite safe_contact by (auto; apply Uv). rewrite (proj2 (Rltb_true _ _) HM1). cbn [value]. rewrite Rabs_R0. auto. }
        rewrite safe_outside by (auto; try lra; try apply Uv; try apply Ua). cbn [value]. rewrite Rabs_pos_eq by (left; apply exp_pos).
        pose proof (dot_ge_m1 _ _ (proj2 (Uv j)) (proj2 (Ua j))) as Dm. set (x := 1 + 8 / 10 * dot (v_ j) (a_ j)). assert (X : 0 < x <= 1 - 8 / 10000) by (unfold x; lra).
        rewrite Rmin_right by lra. set (q := 1 / (g_ j - 1) * norm (a_ j)). assert (Pq : 0 < q) by (apply Rmult_lt_0_compat; [apply Rdiv_lt_0_compat|]; lra).
        pose proof (power_bound (/ x) q (1 / 3) ltac:(rewrite <- Rinv_1; apply Rinv_lt_contravar; lra) Pq) as PB. rewrite Rinv_inv in PB.
        apply Rle_lt_trans with (1 := PB). rewrite ln_Rinv by lra.
        assert (LB : b <= - ln x).
        { unfold b. apply Ropp_le_contravar. destruct (proj2 X) as [Y|Y]; [left; apply ln_increasing; lra|rewrite Y; lra]. }
        assert (IQ : / q < Rpower e' (/ (1 / 3))).
        { rewrite Rabs_pos_eq in HQ by (apply Rmult_le_pos; [apply Rmax_l|left; apply Rinv_0_lt_compat; auto]). rewrite Rmax_right in HQ by lra.
          apply Rle_lt_trans with (2 := HQ). replace (/ q) with ((g_ j - 1) / norm (a_ j)) by (unfold q; field; lra).
          apply Rmult_le_compat_l; [lra|]. apply Rinv_le_contravar; lra. }
        pose proof (small_power (/ q) (1 / 3) e' (Rinv_0_lt_compat _ Pq) ltac:(lra) He' IQ) as SP. unfold e' in SP.
        apply Rmult_lt_reg_r with (- ln x); [lra|]. unfold Rdiv at 1. rewrite Rmult_assoc, Rinv_l, Rmult_1_r by lra. nra.
      * destruct K as [K|[K|(K & D')]]; [contradiction|contradiction|].
        rewrite safe_contact in Es by (auto; lra). rewrite (proj2 (Rltb_false _ _)) in Es by lra. injection Es as <-.
        destruct K as (M1 & HM1). destruct (cv_lt (fun _ => -1/1000) _ _ _ (cv_const _) CD ltac:(lra)) as (M2 & HM2).
        apply cv_eventually with (fun _ => 1) (Nat.max M (Nat.max M1 M2)); [|apply cv_const]. intros j Hj. specialize (HM j ltac:(lia)). specialize (HM1 j ltac:(lia)). specialize (HM2 j ltac:(lia)).
        cbv beta in *. rewrite safe_contact by (auto; try lra; apply Uv). rewrite (proj2 (Rltb_false _ _)) by lra. auto.
Qed.

(** Nearly along the surface the speed dies on the way to contact and is the full one in contact. *)
Theorem C173_safe_scaling_refuted : exists v a s_, unitv v /\ unitv a /\ -1/1000 < dot v a < 0 /\
  (forall j, compute_safe_scaling v a (1 + dying j) (8/10) 3 = Ok (s_ j)) /\ Un_cv s_ 0 /\ compute_safe_scaling v a 1 (8/10) 3 = Ok 1.
Proof.
  set (d := 1 / 2000). set (y := sqrt (1 - d * d)). assert (Y : y * y = 1 - d * d) by (apply sqrt_sqrt; unfold d; lra).
  assert (U : unitv [- d; y]) by (unfold unitv, dot; simpl; lra). assert (Ua : unitv [1; 0]) by (unfold unitv, dot; simpl; ring).
  assert (D : dot [- d; y] [1; 0] = - d) by (unfold dot; simpl; ring). pose proof (proj1 (unit_norm _) Ua) as Na.
  assert (T : tolerance < 1) by (unfold tolerance; rewrite <- Rinv_1; apply Rinv_lt_contravar; [rewrite Rmult_1_l; apply pow_lt; lra|apply Rlt_pow_R1; [lra|lia]]).
  exists [- d; y], [1; 0], (fun j => Rpower (1 - 8 / 10 * d) (Rpower (1 / dying j) (1 / 3))).
  split; auto. split; auto. split; [rewrite D; unfold d; lra|]. split; [|split].
  - intros j. pose proof (dying_range j). rewrite safe_outside by (auto; try lra; rewrite Na; lra). rewrite D, Na. rewrite Rmin_right by (unfold d; lra).
    do 2 f_equal; [ring|]. f_equal. field. lra.
  - set (x := 1 - 8 / 10 * d). assert (X : 0 < x < 1) by (unfold x, d; lra). assert (L : 0 < ln (/ x)).
    { rewrite <- ln_1. apply ln_increasing; [lra|]. rewrite <- Rinv_1. apply Rinv_lt_contravar; lra. }
    intros e He. destruct (dying_cv (Rpower (e * ln (/ x)) (/ (1 / 3))) (exp_pos _)) as (N & HN). exists N. intros j Hj. specialize (HN j Hj). pose proof (dying_range j) as R0.
    unfold R_dist in *. rewrite Rminus_0_r in *. rewrite Rabs_pos_eq in HN by lra. rewrite Rabs_pos_eq by (left; apply exp_pos).
    assert (Pq : 0 < 1 / dying j) by (apply Rdiv_lt_0_compat; lra).
    pose proof (power_bound (/ x) (1 / dying j) (1 / 3) ltac:(rewrite <- Rinv_1; apply Rinv_lt_contravar; lra) Pq) as PB. rewrite Rinv_inv in PB.
    apply Rle_lt_trans with (1 := PB). replace (/ (1 / dying j)) with (dying j) by (field; lra).
    pose proof (small_power (dying j) (1 / 3) (e * ln (/ x)) ltac:(lra) ltac:(lra) ltac:(nra) HN) as SP.
    apply Rmult_lt_reg_r with (ln (/ x)); auto. unfold Rdiv at 1. rewrite Rmult_assoc, Rinv_l, Rmult_1_r by lra. auto.
  - rewrite safe_contact by (auto; try lra; rewrite Na; lra). rewrite D, (proj2 (Rltb_false _ _)) by (unfold d; lra). auto.
Qed.

(** ** The velocity command *)
Lemma cv_rmax2 f g a b : Un_cv f a -> Un_cv g b -> Un_cv (fun j => Rmax (f j) (g j)) (Rmax a b).
Proof.
  intros A B e He. destruct (A e He) as (N & H). destruct (B e He) as (M & K). exists (Nat.max N M). intros j Hj. specialize (H j ltac:(lia)). specialize (K j ltac:(lia)).
  unfold R_dist in *. apply Rabs_def2 in H as [H1 H2]. apply Rabs_def2 in K as [K1 K2]. apply Rabs_def1; unfold Rmax; destruct (Rle_dec (f j) (g j)), (Rle_dec a b); lra.
Qed.
Lemma cv_fold_max : forall l l_ a_ a, (forall j, length (l_ j) = length l) -> cvv l_ l -> Un_cv a_ a -> Un_cv (fun j => fold_left Rmax (l_ j) (a_ j)) (fold_left Rmax l a).
Proof.
  induction l as [|x l IH]; intros l_ a_ a L C A; cbn [fold_left].
  - apply cv_ext with a_; auto. intros j. specialize (L j). destruct (l_ j); [auto|discriminate].
  - apply cv_ext with (fun j => fold_left Rmax (tl (l_ j)) (Rmax (a_ j) (nth 0 (l_ j) 0))).
    { intros j. specialize (L j). destruct (l_ j); [discriminate|auto]. }
    apply IH.
    + intros j. specialize (L j). destruct (l_ j); [discriminate|]. simpl in *. lia.
    + intros i. apply cv_ext with (fun j => nth (S i) (l_ j) 0); [|apply (C (S i))]. intros j. specialize (L j). destruct (l_ j); [discriminate|auto].
    + apply cv_rmax2; auto. apply (C 0%nat).
Qed.
Lemma cv_rmax_list l_ l : l <> [] -> (forall j, length (l_ j) = length l) -> cvv l_ l -> Un_cv (fun j => rmax_list (l_ j)) (rmax_list l).
Proof.
  intros NE L C. destruct l as [|x l]; [contradiction|]. cbn [rmax_list].
  apply cv_ext with (fun j => fold_left Rmax (tl (l_ j)) (nth 0 (l_ j) 0)); [intros j; specialize (L j); destruct (l_ j); [discriminate|auto]|].
  apply cv_fold_max.
  - intros j. specialize (L j). destruct (l_ j); [discriminate|]. simpl in *. lia.
  - intros i. apply cv_ext with (fun j => nth (S i) (l_ j) 0); [|apply (C (S i))]. intros j. specialize (L j). destruct (l_ j); [discriminate|auto].
  - apply (C 0%nat).
Qed.
Lemma cv_average n : forall ns ns_ ws_ ws, normals_follow n ns_ ns -> (forall j, length (ws_ j) = length ns) -> length ws = length ns -> cvv ws_ ws ->
  cvv (fun j => averaged_normal n (ns_ j) (ws_ j)) (averaged_normal n ns ws).
Proof.
  induction ns as [|x ns IH]; intros ns_ ws_ ws [L F] Lw_ Lw C.
  - apply cvv_ext with (fun _ => vzero n); [|apply cvv_const]. intros j. specialize (L j). destruct (ns_ j); [auto|discriminate].
  - destruct ws as [|w ws]; [discriminate|]. unfold averaged_normal. cbn [combine fold_right fst snd].
    apply cvv_ext with (fun j => vadd (vscale (nth 0 (ws_ j) 0) (nth 0 (ns_ j) [])) (averaged_normal n (tl (ns_ j)) (tl (ws_ j)))).
    { intros j. specialize (L j). specialize (Lw_ j). destruct (ns_ j); [discriminate|]. destruct (ws_ j); [discriminate|]. auto. }
    apply cvv_add.
    + apply cvv_scale; [apply (C 0%nat)|]. apply (F 0%nat). simpl. lia.
    + apply IH.
      * split; [intros j; specialize (L j); destruct (ns_ j); [discriminate|]; simpl in *; lia|]. intros k Hk. destruct (F (S k) ltac:(simpl; lia)) as (A & B & D).
        assert (X : forall j, nth (S k) (ns_ j) [] = nth k (tl (ns_ j)) []) by (intros j; specialize (L j); destruct (ns_ j); [discriminate|auto]).
        split; [intros j; rewrite <- X; apply A|]. split; auto. apply cvv_ext with (fun j => nth (S k) (ns_ j) []); auto.
      * intros j. specialize (Lw_ j). destruct (ws_ j); [discriminate|]. simpl in *. lia.
      * simpl in Lw. lia.
      * intros i. apply cv_ext with (fun j => nth (S i) (ws_ j) 0); [|apply (C (S i))]. intros j. specialize (Lw_ j). destruct (ws_ j); [discriminate|auto].
Qed.
Lemma rmax_pos ws : nonneg ws -> 0 < rsum ws -> 0 < rmax_list ws.
Proof.
  intros N S. apply Rnot_le_lt. intros L. assert (Z : rsum ws <= 0); [|lra]. assert (A : forall x, In x ws -> x <= 0) by (intros x I; pose proof (rmax_ge ws x I); lra).
  clear -A. induction ws as [|x ws IH]; simpl; [lra|]. pose proof (A x (or_introl eq_refl)). specialize (IH (fun y I => A y (or_intror I))). lra.
Qed.
Theorem C173_scaled_velocity : forall n magnitude_ relative_ fv_ normals_ cw_ records_ magnitude relative fv normals cw records,
  (forall j, length (fv_ j) = n /\ unitv (fv_ j)) -> length fv = n -> cvv fv_ fv -> normals_follow n normals_ normals ->
  (forall j, length (cw_ j) = length normals /\ nonneg (cw_ j) /\ rsum (cw_ j) <= 1) -> length cw = length normals -> cvv cw_ cw -> (cw <> [] -> 0 < rsum cw) -> (forall j, cw_ j <> [] -> 0 < rsum (cw_ j)) ->
  Un_cv magnitude_ magnitude -> cvv relative_ relative ->
  records <> [] -> (forall j, length (records_ j) = length records) ->
  (forall j r c, In (r, c) (records_ j) -> 0 <= r <= 1 /\ -1 <= c <= 1) -> (forall r c, In (r, c) records -> 0 <= r <= 1 /\ -1 <= c <= 1) ->
  (forall k, (k < length records)%nat -> Un_cv (fun j => fst (nth k (records_ j) (0, 0))) (fst (nth k records (0, 0))) /\ Un_cv (fun j => snd (nth k (records_ j) (0, 0))) (snd (nth k records (0, 0)))) ->
  ~ In (0, 1) records -> steady_pace fv (averaged_normal n normals cw) (fun j => 1 / rmax_list (cw_ j)) (1 / rmax_list cw) ->
  exists out_ out, (forall j, scaled_velocity (magnitude_ j) (relative_ j) (fv_ j) (normals_ j) (cw_ j) (records_ j) = Ok (out_ j)) /\
    scaled_velocity magnitude relative fv normals cw records = Ok out /\ cvv out_ out.
Proof.
  intros n magnitude_ relative_ fv_ normals_ cw_ records_ magnitude relative fv normals cw records Uf Lf Cf NF W_ Lw Cw Pw Pw_ Cm Cr NR LR F_ F CR N01 SP.
  pose proof (cvv_unit n fv_ fv Uf Lf Cf) as U. destruct (NF) as [LN FN].
  destruct cw as [|w0 cw'] eqn:Ecw.
  { exists (fun j => vadd (fv_ j) (relative_ j)), (vadd fv relative). split; [|split; [auto|apply cvv_add; auto]]. intros j. destruct (W_ j) as (A & _). rewrite <- Lw in A.
    unfold scaled_velocity. destruct (cw_ j); [auto|discriminate]. }
  rewrite <- Ecw in *. assert (NE : cw <> []) by (rewrite Ecw; discriminate). clear Ecw w0 cw'. specialize (Pw NE).
  assert (NEj : forall j, cw_ j <> []) by (intros j Z; destruct (W_ j) as (A & _); rewrite Z, <- Lw in A; destruct cw; [contradiction|discriminate]).
  assert (LCj : forall j, length (cw_ j) = length cw) by (intros j; rewrite Lw; apply W_).
  assert (NN : nonneg cw).
  { intros x I. apply In_nth with (d := 0) in I as (i & Hi & <-). apply (cv_nonneg (fun j => nth i (cw_ j) 0)); [apply Cw|]. intros j. apply (W_ j). apply nth_In. rewrite LCj. auto. }
  pose proof (rmax_pos cw NN Pw) as PM. assert (PMj : forall j, 0 < rmax_list (cw_ j)) by (intros j; apply rmax_pos; [apply W_|apply Pw_; auto]).
  pose proof (cv_rmax_list cw_ cw NE LCj Cw) as CM.
  assert (CA : cvv (fun j => averaged_normal n (normals_ j) (cw_ j)) (averaged_normal n normals cw)) by (apply cv_average; auto; intros j; apply W_).
  assert (LA : forall ns ws, (forall v, In v ns -> length v = n) -> length (averaged_normal n ns ws) = n).
  { induction ns as [|v ns IH]; intros ws Hv; unfold averaged_normal; [cbn; apply repeat_length|]. destruct ws as [|w ws]; [cbn; apply repeat_length|]. cbn [combine fold_right fst snd].
    fold (averaged_normal n ns ws). autorewrite with vlen. rewrite (Hv v (or_introl eq_refl)), (IH ws) by (intros; apply Hv; right; auto). lia. }
  assert (UNj : forall j v, In v (normals_ j) -> length v = n /\ unitv v).
  { intros j v I. apply In_nth with (d := []) in I as (k & Hk & <-). rewrite LN in Hk. destruct (FN k Hk) as (A & _). apply A. }
  assert (UN : forall v, In v normals -> length v = n).
  { intros v I. apply In_nth with (d := []) in I as (k & Hk & <-). apply (FN k Hk). }
  assert (Bj : forall j, norm (averaged_normal n (normals_ j) (cw_ j)) <= 1).
  { intros j. destruct (W_ j) as (A & B & C). pose proof (averaged_normal_bound n (normals_ j) (cw_ j)) as Q. rewrite LN, A in Q. specialize (Q eq_refl B (fun v I => proj2 (UNj j v I))). lra. }
  destruct (C173_slowfactor (2/10) records_ records) as (s_ & s & S_ & S0 & CS); auto; [lra|].
  destruct (C173_safe_scaling n fv_ (fun j => averaged_normal n (normals_ j) (cw_ j)) (fun j => 1 / rmax_list (cw_ j)) fv (averaged_normal n normals cw) (1 / rmax_list cw)) as (q_ & q & Q_ & Q & CQ); auto.
  { intros j. split; [apply LA; intros v I; apply (UNj j v I)|apply Bj]. }
  { apply cv_div; [apply cv_const|auto|lra]. }
  assert (FORM : forall m rel f ns ws rs sl sc, length f = n -> unitv f -> ws <> [] -> 0 < rmax_list ws -> slowfactor_from_convergence rs (2/10) = Ok sl ->
    compute_safe_scaling f (averaged_normal n ns ws) (1 / rmax_list ws) (8/10) 3 = Ok sc ->
    scaled_velocity m rel f ns ws rs = Ok (vadd (vscale (Rmin sc sl) (vscale m f)) rel)).
  { intros m rel f ns ws rs sl sc L1 U1 N1 P1 E1 E2. unfold scaled_velocity. destruct ws as [|w ws'] eqn:Ew; [contradiction|]. rewrite <- Ew in *. rewrite L1.
    unfold fdiv. destruct (Req_EM_T (rmax_list ws) 0); [lra|]. cbn [bind]. rewrite E1. cbn [bind]. rewrite E2. rewrite (proj1 (unit_norm f) U1). destruct (Req_EM_T 1 0); [lra|].
    replace (vdiv f 1) with f by (vext; field). do 3 f_equal. unfold Rmin. destruct (Rltb sc sl) eqn:X, (Rle_dec sc sl); auto; [apply Rltb_true in X; lra|apply Rltb_false in X; lra]. }
  exists (fun j => vadd (vscale (Rmin (q_ j) (s_ j)) (vscale (magnitude_ j) (fv_ j))) (relative_ j)), (vadd (vscale (Rmin q s) (vscale magnitude fv)) relative).
  split; [intros j; apply FORM; auto; apply Uf|]. split; [apply FORM; auto|].
  apply cvv_add; auto. apply cvv_scale; [apply cv_rmin2; auto|]. apply cvv_scale; auto.
Qed.

(** ** The whole command *)
Theorem C173_velocity : forall orth0 pick sort power radius max_repulsion n position_ base_ position base trees s_ s conv_of conv_ conv
    magnitude_ magnitude env_ env relative_ relative,
  let angle_of := angle_space pick in
  let data_of := tree_data angle_of power radius max_repulsion in
  let evaluate := evaluate_avoidance orth0 angle_of (get_projected_tangent pick) sort power radius max_repulsion in
  let command := evaluate_sequence orth0 angle_of (get_projected_tangent pick) sort power radius max_repulsion n in
  (forall j, scene orth0 angle_of pick sort power radius max_repulsion n (position_ j) (base_ j) trees) ->
  scene orth0 angle_of pick sort power radius max_repulsion n position base trees ->
  cvv base_ base ->
  (forall t ws_ rs_ rec_ ws rs rec, In t trees ->
     (forall j, data_of (position_ j) (base_ j) t = Ok (t, ws_ j, rs_ j, rec_ j)) -> data_of position base t = Ok (t, ws, rs, rec) ->
     cvv ws_ ws /\ same_sign ws_ ws /\
     (forall i, (i < length (bt_comps t))%nat -> 0 < nth i ws 0 -> calm position_ base_ position base t i (fun j => nth i (rs_ j) 0) (nth i rs 0)) /\
     Un_cv (fun j => fst (rec_ j)) (fst rec) /\ Un_cv (fun j => snd (rec_ j)) (snd rec) /\ rec <> (0, 1)) ->
  (forall wss, Forall2 (fun t ws => tree_obstacle_weights angle_of position base power (mtree_of t) = Ok ws) trees wss ->
     (forall k, nth k (map rsum wss) 0 < 1) -> rsum (map rsum wss) <> 1) ->
  (forall j, conv_of (s_ j) = Ok (conv_ j) /\ get_end_vector (conv_ j) = Ok (base_ j)) -> conv_of s = Ok conv -> get_end_vector conv = Ok base ->
  Un_cv magnitude_ magnitude -> cvv relative_ relative ->
  (forall j, compute_multiobstacle_relative_velocity (position_ j) (env_ j) = Ok (relative_ j)) -> compute_multiobstacle_relative_velocity position env = Ok relative ->
  (forall cw_ final normals cw records fv, (forall j, exists f ns rs, evaluate (position_ j) (conv_ j) trees = Ok (f, ns, cw_ j, rs)) ->
     evaluate position conv trees = Ok (final, normals, cw, records) -> get_end_vector final = Ok fv ->
     steady_pace fv (averaged_normal n normals cw) (fun j => 1 / rmax_list (cw_ j)) (1 / rmax_list cw)) ->
  exists out_ out,
    (forall j, command (magnitude_ j) (Some (s_ j)) conv_of (position_ j) (env_ j) trees = Ok (out_ j)) /\
    command magnitude (Some s) conv_of position env trees = Ok out /\ cvv out_ out.
Proof.
  cbv zeta. intros orth0 pick sort power radius max_repulsion n position_ base_ position base trees s_ s conv_of conv_ conv
    magnitude_ magnitude env_ env relative_ relative SC_ SC CB CT CW CV_ CV EB CM CR RL_ RL SP.
  set (angle_of := angle_space pick) in *.
  destruct (C171_direction orth0 pick sort power radius max_repulsion n position_ base_ position base trees conv_ conv SC_ SC CB) as
    (final_ & normals_ & cw_ & records_ & fv_ & final & normals & cw & records & fv & E_ & E & EF & Cf & Cw & NF); auto.
  { intros t ws_ rs_ rec_ ws rs rec I D_ D. destruct (CT t ws_ rs_ rec_ ws rs rec I D_ D) as (A & B & C & _). auto. }
  { intros j. apply CV_. }
  fold angle_of in E_, E.
  set (hj := fun j => h angle_of power radius max_repulsion (position_ j) (base_ j)). set (h0 := h angle_of power radius max_repulsion position base).
  assert (FACT : forall p b c, scene orth0 angle_of pick sort power radius max_repulsion n p b trees -> get_end_vector c = Ok b ->
    forall f ns w rs v, evaluate_avoidance orth0 angle_of (get_projected_tangent pick) sort power radius max_repulsion p c trees = Ok (f, ns, w, rs) -> get_end_vector f = Ok v ->
    length v = n /\ unitv v /\ nonneg w /\ rsum w <= 1 /\ (w <> [] -> 0 < rsum w) /\ length ns = length w /\ rs <> [] /\
    (forall r c, In (r, c) rs -> 0 <= r <= 1 /\ -1 <= c <= 1) /\ rs = map (fun t => snd (h angle_of power radius max_repulsion p b t)) trees).
  { intros p b c S Eb f ns w rs v Ev Ef.
    destruct (evaluate_avoidance_ok _ _ _ _ _ _ _ _ _ _ _ _ S Eb) as (tt & data & f' & ns' & w' & v' & Ed & Ev' & _ & _ & _ & _ & _ & _ & _ & _ & Ef' & Uv & Lv & Nw & Sw & Pw & Ln & _ & Nd & Rr).
    rewrite Ev' in Ev. injection Ev as <- <- <- <-. rewrite Ef' in Ef. injection Ef as <-.
    do 6 (split; auto). split; [|split; auto].
    - intros Z. apply Nd. destruct data; [auto|discriminate].
    - rewrite (mapM_h angle_of power radius max_repulsion p b trees) in Ed.
      + injection Ed as <-. apply map_map.
      + intros t I. destruct (h_ok _ _ _ _ _ _ _ _ _ _ _ S t I) as (ws & rs & rec & D & _). eauto. }
  pose proof (fun j => FACT (position_ j) (base_ j) (conv_ j) (SC_ j) (proj2 (CV_ j)) _ _ _ _ _ (proj1 (E_ j)) (proj2 (E_ j))) as F_.
  pose proof (FACT position base conv SC EB _ _ _ _ _ E EF) as F.
  destruct F as (Lf & Uf & Nw & Sw & Pw & Ln & NR & Rr & ER). destruct (NF) as [LN FN].
  assert (TR : forall t, In t trees -> Un_cv (fun j => fst (snd (hj j t))) (fst (snd (h0 t))) /\ Un_cv (fun j => snd (snd (hj j t))) (snd (snd (h0 t))) /\ snd (h0 t) <> (0, 1)).
  { intros t I. destruct (h_ok _ _ _ _ _ _ _ _ _ _ _ SC t I) as (ws & rs & rec & D & D' & _).
    assert (Q : forall j, tree_data angle_of power radius max_repulsion (position_ j) (base_ j) t = Ok (t, snd (fst (fst (hj j t))), snd (fst (hj j t)), snd (hj j t))).
    { intros j. destruct (h_ok _ _ _ _ _ _ _ _ _ _ _ (SC_ j) t I) as (ws' & rs' & rec' & D1 & D2 & _). unfold hj. rewrite D2. auto. }
    destruct (CT t _ _ _ ws rs rec I Q D) as (_ & _ & _ & A & B & C). unfold h0. rewrite D'. auto. }
  destruct (C173_scaled_velocity n magnitude_ relative_ fv_ normals_ cw_ records_ magnitude relative fv normals cw records) as (out_ & out & O_ & O & CO); auto.
  - intros j. destruct (F_ j) as (A & B & _). auto.
  - intros j. destruct (F_ j) as (_ & _ & A & B & _ & C & _). rewrite <- C, LN. auto.
  - intros j. apply (F_ j).
  - intros j. destruct (F_ j) as (_ & _ & _ & _ & _ & _ & _ & _ & ->). rewrite ER, !map_length. auto.
  - intros j. apply (F_ j).
  - intros k Hk. rewrite ER, map_length in Hk. destruct trees as [|t0 ts] eqn:Et; [simpl in Hk; lia|]. rewrite <- Et in *.
    assert (X : forall p b, nth k (map (fun t => snd (h angle_of power radius max_repulsion p b t)) trees) (0, 0) = snd (h angle_of power radius max_repulsion p b (nth k trees t0))).
    { intros p b. rewrite (nth_indep _ _ (snd (h angle_of power radius max_repulsion p b t0))) by (rewrite map_length; auto). rewrite (map_nth (fun t => snd (h angle_of power radius max_repulsion p b t))). auto. }
    destruct (TR (nth k trees t0)) as (A & B & _); [apply nth_In; auto|]. rewrite ER, X. split.
    + apply cv_ext with (2 := A). intros j. destruct (F_ j) as (_ & _ & _ & _ & _ & _ & _ & _ & ->). rewrite X. reflexivity.
    + apply cv_ext with (2 := B). intros j. destruct (F_ j) as (_ & _ & _ & _ & _ & _ & _ & _ & ->). rewrite X. reflexivity.
  - rewrite ER. intros I. apply in_map_iff in I as (t & Q & I). destruct (TR t I) as (_ & _ & N). contradiction.
  - apply (SP cw_ final normals cw records fv); auto. intros j. exists (final_ j), (normals_ j), (records_ j). apply E_.
  - exists out_, out. split; [|split; auto].
    + intros j. unfold evaluate_sequence. destruct trees; [exfalso; apply NR; rewrite ER; auto|]. rewrite (RL_ j), (proj1 (CV_ j)). cbn [bind]. rewrite (proj1 (E_ j)). cbn [bind]. rewrite (proj2 (E_ j)). cbn [bind]. apply O_.
    + unfold evaluate_sequence. destruct trees; [exfalso; apply NR; rewrite ER; auto|]. rewrite RL, CV. cbn [bind]. rewrite E. cbn [bind]. rewrite EF. cbn [bind]. auto.
Qed.

(** ** Cases *)
(** One obstacle far to the side, one ahead that is approached: the slow-down follows. *)
Example C173_slowfactor_case : exists s_ s,
  (forall j, slowfactor_from_convergence [(1 / 2 + dying j / 4, 3 / 5); (dying j / 2, 1 / 4)] (2/10) = Ok (s_ j)) /\
  slowfactor_from_convergence [(1 / 2, 3 / 5); (0, 1 / 4)] (2/10) = Ok s /\ Un_cv s_ s.
Proof.
  assert (C : forall a b, Un_cv (fun j => a + dying j * b) a).
  { intros a b. pose proof (cv_add _ _ _ _ (cv_const a) (cv_mul dying (fun _ => b) 0 b dying_cv (cv_const b))) as Q. replace (a + 0 * b) with a in Q by ring. exact Q. }
  apply (C173_slowfactor (2/10) (fun j => [(1 / 2 + dying j / 4, 3 / 5); (dying j / 2, 1 / 4)])); auto; try lra; try discriminate.
  - intros j r c [Q|[Q|[]]]; injection Q as <- <-; pose proof (dying_range j); lra.
  - intros r c [Q|[Q|[]]]; injection Q as <- <-; lra.
  - intros [|[|k]] Hk; cbn [nth fst snd]; [split; [apply (C (1 / 2) (/ 4))|apply cv_const]| |simpl in Hk; lia].
    split; [|apply cv_const]. apply cv_ext with (fun j => 0 + dying j * / 2); [intros j; unfold Rdiv; ring|apply C].
  - intros [Q|[Q|[]]]; injection Q; lra.
Qed.
(** Driving at the surface of an obstacle: the speed dies on the way to contact. *)
Example C173_safe_scaling_case : exists s_, (forall j, compute_safe_scaling [-3 / 5; 4 / 5] [1; 0] (1 + dying j) (8/10) 3 = Ok (s_ j)) /\
  compute_safe_scaling [-3 / 5; 4 / 5] [1; 0] 1 (8/10) 3 = Ok 0 /\ Un_cv s_ 0.
Proof.
  assert (U : unitv [-3 / 5; 4 / 5]) by (unfold unitv, dot; simpl; lra). assert (Ua : unitv [1; 0]) by (unfold unitv, dot; simpl; ring).
  pose proof (proj1 (unit_norm _) Ua) as Na. assert (D : dot [-3 / 5; 4 / 5] [1; 0] = -3 / 5) by (unfold dot; simpl; lra).
  assert (T : tolerance < 1) by (unfold tolerance; rewrite <- Rinv_1; apply Rinv_lt_contravar; [rewrite Rmult_1_l; apply pow_lt; lra|apply Rlt_pow_R1; [lra|lia]]).
  destruct (C173_safe_scaling 2 (fun _ => [-3 / 5; 4 / 5]) (fun _ => [1; 0]) (fun j => 1 + dying j) [-3 / 5; 4 / 5] [1; 0] 1) as (s_ & s & A & B & C); auto; try apply cvv_const.
  - intros j. rewrite Na. split; [auto|lra].
  - pose proof (cv_add _ _ _ _ (cv_const 1) dying_cv) as Q. replace (1 + 0) with 1 in Q by ring. exact Q.
  - right. right. fold tolerance. rewrite Na, D. split; [auto|]. right. left. lra.
  - exists s_. split; auto. rewrite safe_contact, D in B by (auto; try lra; rewrite Na; auto). rewrite (proj2 (Rltb_true _ _)) in B by lra. injection B as <-.
    split; auto. rewrite safe_contact, D by (auto; try lra; rewrite Na; auto). rewrite (proj2 (Rltb_true _ _)) by lra. auto.
Qed.
(** In contact with the wall: the weight, the normal and the direction. *)
Lemma wall_outcome orth0 angle_of y x b c : (forall v, length (orth0 v) = length v) -> unitv [x; b] -> x <= - (1 / 4) -> b <> 0 -> get_end_vector c = Ok [x; b] ->
  forall f ns w rs v, evaluate_avoidance orth0 angle_of (get_projected_tangent left_of) sort_by_level 1 (PI * / 2) None [1; y] c [wall_tree] = Ok (f, ns, w, rs) -> get_end_vector f = Ok v ->
  w = [1] /\ ns = [[1; 0]] /\ (0 <= dot v [1; 0] \/ v = [-1; 0]).
Proof.
  intros Ho U Hx Hb Ec f ns w rs v Ev Ef. pose proof (wall_scene_at orth0 angle_of 1 x y b Ho ltac:(lra) U Hx Hb) as S.
  destruct (evaluate_avoidance_ok _ _ _ _ _ _ _ _ _ _ _ _ S Ec) as (tt & data & f' & ns' & w' & v' & Ed & Ev' & W & NO & DI & Fi & ND & IN & Ecl & Em & Ef' & Uv & Lv & Nw & Sw & Pw & Ln & Un & Nd & Rr).
  rewrite Ev' in Ev. injection Ev as <- <- <- _. rewrite Ef' in Ef. injection Ef as <-.
  cbn [mapM] in Ed. destruct (tree_data _ _ _ _ _ _ _) as [d|] eqn:Q; [|discriminate]. apply wall_data in Q as (rec & ->); [|lra]. cbn [bind] in Ed. injection Ed as <-.
  cbn [map fst snd] in *.
  assert (O : one_at 0 [1]) by (split; [simpl; lia|split; [reflexivity|intros [|[|j]] H; simpl; auto; lia]]).
  assert (Eit : end_items 0 [(wall_tree, [1], [PI * / 2])] = [(0%Z, wall_tree, 0%nat)]).
  { cbn [end_items]. change (length (bt_comps wall_tree)) with (length [1]). rewrite (one_at_weighted [1] 0 O). reflexivity. }
  rewrite Eit in Fi. inversion Fi as [|x0 nn l0 ns0 Hitem F0]; subst. inversion F0; subst.
  destruct (saturated_cluster [] [1] [] 0 w' O) as (A & B & Ecw & LA & FA & FB); auto; [intros z []|].
  assert (A = []) by (destruct A; [auto|discriminate]). subst A. cbn [app] in Ecw. subst w'. assert (B = []) by (destruct B; [auto|discriminate]). subst B. clear LA FA FB.
  unfold item_dir in Hitem. destruct Hitem as (a & d & Na & Da & wk & Ewalk & Enn & Nd0 & Uda & Haway).
  rewrite wall_walk_at in Ewalk. injection Ewalk as <-. cbn [w_normals w_refs nth] in *. subst nn.
  assert (Dd : a_dir a = d) by (rewrite Da, (proj1 (unit_norm _) Uda); vext; field).
  split; auto. split; auto.
  unfold end_keys in Em, ND, IN. rewrite Eit in Em, ND, IN. cbn [map app] in Em, ND, IN.
  assert (FZ : Forall (fun w => w = 0) [1 - rsum [1]]) by (constructor; [simpl; ring|constructor]).
  pose proof (mean_on_one 2 tt (sort_by_level tt) orth0 (fun _ => mkSlot 0 None None None) [] _ [base_vel_id] [] [1 - rsum [1]] a W (sc_dim _ _ _ _ _ _ _ _ _ _ _ S) NO DI
    (sc_sort _ _ _ _ _ _ _ _ _ _ _ S tt base_vel_id W) (sc_orth _ _ _ _ _ _ _ _ _ _ _ S) ND IN Na eq_refl eq_refl (Forall_nil _) FZ) as M.
  cbn [app] in M. rewrite M in Em. injection Em as <-. rewrite Dd. exact Haway.
Qed.
(** The wanted velocity turns and grows while the robot slides along the wall: the velocity command is continuous there. *)
Example C173_case : forall orth0 s_ s, (forall v, length (orth0 v) = length v) ->
  (forall j, get_end_vector (s_ j) = Ok (turning (1 / 2 + dying j / 4))) -> get_end_vector s = Ok [-3 / 5; 4 / 5] ->
  let command := evaluate_sequence orth0 (angle_space left_of) (get_projected_tangent left_of) sort_by_level 1 (PI * / 2) None 2 in
  exists out_ out, (forall j, command (2 + dying j) (Some (s_ j)) (fun s => Ok s) [1; dying j] [] [wall_tree] = Ok (out_ j)) /\
    command 2 (Some s) (fun s => Ok s) [1; 0] [] [wall_tree] = Ok out /\ cvv out_ out.
Proof.
  intros orth0 s_ s Ho Es_ Es. cbv zeta. pose proof PI_RGT_0 as HP.
  assert (Rg : forall j, 1 / 2 <= 1 / 2 + dying j / 4 <= 3 / 4) by (intros j; pose proof (dying_range j); lra).
  assert (E0 : turning (1 / 2) = [-3 / 5; 4 / 5]) by (unfold turning; f_equal; [lra|f_equal; lra]).
  rewrite <- E0 in Es.
  assert (Ca : Un_cv (fun j => 1 / 2 + dying j / 4) (1 / 2)).
  { pose proof (cv_add _ _ _ _ (cv_const (1 / 2)) (cv_mul dying (fun _ => / 4) 0 (/ 4) dying_cv (cv_const (/ 4)))) as Q.
    replace (1 / 2 + 0 * / 4) with (1 / 2) in Q by lra. exact Q. }
  assert (Cq : Un_cv (fun j => (1 / 2 + dying j / 4) * (1 / 2 + dying j / 4)) (1 / 2 * (1 / 2))) by (apply cv_mul; auto).
  assert (C0 : Un_cv (fun j => - ((1 - (1 / 2 + dying j / 4) * (1 / 2 + dying j / 4)) / (1 + (1 / 2 + dying j / 4) * (1 / 2 + dying j / 4)))) (- ((1 - 1 / 2 * (1 / 2)) / (1 + 1 / 2 * (1 / 2))))).
  { apply cv_opp. apply cv_div; [apply cv_sub; auto; apply cv_const|apply cv_add; auto; apply cv_const|lra]. }
  assert (CB : cvv (fun j => turning (1 / 2 + dying j / 4)) (turning (1 / 2))).
  { unfold turning. intros [|[|i]]; cbn [nth]; [exact C0| |destruct i; apply cv_const].
    apply cv_div; [apply cv_mul; auto; apply cv_const|apply cv_add; auto; apply cv_const|lra]. }
  assert (REC : forall a y ws rs rec, 1 / 2 <= a <= 3 / 4 -> tree_data (angle_space left_of) 1 (PI * / 2) None [1; y] (turning a) wall_tree = Ok (wall_tree, ws, rs, rec) -> rec = (1, - nth 0 (turning a) 0)).
  { intros a y ws rs rec Ha E. destruct (turning_facts a Ha) as (U & _). unfold tree_data, convergence_record in E.
    cbv zeta in E. change (get_component (mtree_of wall_tree) (m_root (mtree_of wall_tree))) with (Ok (b_comp wall)) in E. cbn [bind] in E.
    change (tree_gammas [1; y] (mtree_of wall_tree)) with [1] in E. cbv iota in E. change (rmin_list [1]) with 1 in E.
    unfold get_rotation_weight in E. destruct (Rle_dec 1 1); [|lra]. cbn [bind] in E. rewrite (proj1 (unit_norm _) U) in E. destruct (Req_EM_T 1 0); [lra|]. cbn [bind] in E.
    destruct (tree_gamma_and_weights _ _ _ _ _) as [(?, ?)|]; [|discriminate]. cbn [bind] in E. destruct (tree_obstacle_weights _ _ _ _ _); [|discriminate]. cbn [bind] in E.
    destruct (tree_radiuses _ _ _ _ _); [|discriminate]. cbn [bind] in E. injection E as _ _ <-. f_equal. unfold turning, dot, vdiv, vscale. simpl. field. nra. }
  assert (Rel : forall y, compute_multiobstacle_relative_velocity [1; y] [] = Ok (vzero 2)).
  { intros y. unfold compute_multiobstacle_relative_velocity, compute_gamma_weights. simpl. destruct (Rle_dec 0 1); reflexivity. }
  apply (C173_velocity orth0 left_of sort_by_level 1 (PI * / 2) None 2 (fun j => [1; dying j]) (fun j => turning (1 / 2 + dying j / 4)) [1; 0] (turning (1 / 2)) [wall_tree] s_ s
    (fun s => Ok s) s_ s (fun j => 2 + dying j) 2 (fun _ => []) [] (fun _ => vzero 2) (vzero 2)); auto.
  - intros j. destruct (turning_facts _ (Rg j)) as (A & B & C). apply wall_scene_at; auto. lra.
  - destruct (turning_facts (1 / 2) ltac:(lra)) as (A & B & C). apply wall_scene_at; auto. lra.
  - intros t ws_ rs_ rec_ ws rs rec [<-|[]] D_ D.
    pose proof (REC (1 / 2) _ _ _ _ ltac:(lra) D) as Er. assert (Er_ : forall j, rec_ j = (1, - nth 0 (turning (1 / 2 + dying j / 4)) 0)) by (intros j; apply (REC _ _ _ _ _ (Rg j) (D_ j))).
    apply wall_data in D as (r & Q); [|lra]. injection Q as -> -> _.
    assert (Q : forall j, ws_ j = [1] /\ rs_ j = [PI * / 2]).
    { intros j. specialize (D_ j). apply wall_data in D_ as (r' & Q); [|lra]. injection Q as -> -> _. auto. }
    split; [apply cvv_ext with (fun _ => [1]); [intros j; symmetry; apply Q|apply cvv_const]|].
    split; [intros j i; destruct (Q j) as [-> _]; tauto|]. split.
    { intros i Hi _. simpl in Hi. replace i with 0%nat by lia.
      exists (fun j => mkWalk [0%nat] [[1; 0]] [[-1; 0]] [1; dying j]), (mkWalk [0%nat] [[1; 0]] [[-1; 0]] [1; 0]), wall.
      split; [intros j; apply wall_walk_at|]. split; [apply wall_walk_at|]. split; [reflexivity|].
      cbn [w_refs w_normals nth]. split; [intros k; apply cvv_const|]. split; [apply cvv_const|].
      split; [intros j k Hk; simpl in Hk; lia|]. split; [intros k Hk; simpl in Hk; lia|].
      split; [apply cv_ext with (fun _ => PI * / 2); [intros j; destruct (Q j) as [_ ->]; auto|apply cv_const]|].
      split; [intros j; destruct (Q j) as [_ ->]; cbn [nth]; tauto|].
      unfold brought, branch_steps. cbn [w_refs tl w_ids combine rev fold_left].
      assert (Ng : forall a, 1 / 2 <= a <= 3 / 4 -> dot [1; 0] (turning a) < 0).
      { intros a Ha. destruct (turning_facts a Ha) as (_ & B & _). unfold turning, dot. simpl. lra. }
      split; [right; intros j; split; intros _; apply Ng; [lra|apply Rg]|].
      intros _ r0 Hr. rewrite E0. assert (r0 = PI / 2) by (destruct Hr; lra). subst r0. unfold smooth_at. rewrite cos_PI2.
      split; [unfold dot; simpl; lra|]. split; [intros _ X; injection X; lra|]. split; [intros _ X; unfold vscale in X; simpl in X; injection X; lra|].
      intros X. unfold dot in X. simpl in X. lra. }
    rewrite Er. cbn [fst snd]. split; [apply cv_ext with (fun _ => 1); [intros j; rewrite Er_; auto|apply cv_const]|]. split; [|intros X; unfold turning in X; simpl in X; injection X; lra].
    apply cv_ext with (fun j => - nth 0 (turning (1 / 2 + dying j / 4)) 0); [intros j; rewrite Er_; auto|]. apply cv_opp. exact C0.
  - intros wss F Hk. inversion F as [|t ws ts wss' _ F' ]; subst. inversion F'; subst. specialize (Hk 0%nat). simpl in *. lra.
  - pose proof (cv_add _ _ _ _ (cv_const 2) dying_cv) as Q. replace (2 + 0) with 2 in Q by ring. exact Q.
  - apply cvv_const.
  - intros cw_ final normals cw records fv E_ E EF.
    destruct (turning_facts (1 / 2) ltac:(lra)) as (A & B & C).
    destruct (wall_outcome orth0 (angle_space left_of) 0 _ _ s Ho A B C Es _ _ _ _ _ E EF) as (-> & -> & V).
    assert (G : forall j, cw_ j = [1]).
    { intros j. destruct (E_ j) as (f & ns & rs & Ej). destruct (turning_facts _ (Rg j)) as (A' & B' & C').
      pose proof (wall_scene_at orth0 (angle_space left_of) 1 _ (dying j) _ Ho ltac:(lra) A' B' C') as Sj.
      destruct (evaluate_avoidance_ok _ _ _ _ _ _ _ _ _ _ _ _ Sj (Es_ j)) as (tt & data & f' & ns' & w' & v' & _ & Ev' & _ & _ & _ & _ & _ & _ & _ & _ & Ef' & _).
      rewrite Ev' in Ej. injection Ej as <- <- <- <-. apply (wall_outcome orth0 (angle_space left_of) (dying j) _ _ (s_ j) Ho A' B' C' (Es_ j) _ _ _ _ _ Ev' Ef'). }
    replace (averaged_normal 2 [[1; 0]] [1]) with [1; 0] by (unfold averaged_normal, vscale, vadd, vzero; simpl; f_equal; [ring|f_equal; ring]).
    right. right. assert (Ua : unitv [1; 0]) by (unfold unitv, dot; simpl; ring). rewrite (proj1 (unit_norm _) Ua). split.
    { rewrite <- Rinv_1. apply Rinv_lt_contravar; [rewrite Rmult_1_l; apply pow_lt; lra|apply Rlt_pow_R1; [lra|lia]]. }
    right. right. split.
    + exists 0%nat. intros j _. rewrite G. change (rmax_list [1]) with 1. lra.
    + destruct V as [V| ->]; [lra|unfold dot; simpl; lra].
Qed.
Print Assumptions C173_slowfactor.
Print Assumptions C173_safe_scaling.
Print Assumptions C173_safe_scaling_refuted.
Print Assumptions C173_scaled_velocity.
Print Assumptions C173_velocity.
