(** Property C170: the tangents, the turned velocities and the shares of the obstacles change continuously. *)
Require Import Reals List Bool Lra Lia.
From Verif Require Import Base Vec Angle RotModel Spec RotProofs TreeModel PropTree WeightModel WeightProofs PropWeights AvoidModel TangentProofs ProjModel ContProofs PropProject PropTangent PropFrame PropEmbed PropJoint.
Import ListNotations.
Open Scope R_scope.

(** ** Tools *)
Lemma cvv_ext (f g : nat -> vec) u : (forall j, f j = g j) -> cvv f u -> cvv g u.
Proof. intros E C. apply cvv_eventually with f 0%nat; auto. Qed.
Lemma cvv_sub f g u v : cvv f u -> cvv g v -> cvv (fun j => vsub (f j) (g j)) (vsub u v).
Proof. intros A B. unfold vsub. apply cvv_add; auto. apply cvv_scale; auto. apply cv_const. Qed.
Lemma cv_inv f a : Un_cv f a -> a <> 0 -> Un_cv (fun j => / f j) (/ a).
Proof. intros C H. apply (cv_comp Rinv); auto. apply (continuity_pt_inv id); auto. apply derivable_continuous_pt, derivable_pt_id. Qed.
Lemma cv_div f g a b : Un_cv f a -> Un_cv g b -> b <> 0 -> Un_cv (fun j => f j / g j) (a / b).
Proof. intros A B H. unfold Rdiv. apply cv_mul; auto. apply cv_inv; auto. Qed.
Lemma cv_sqrt f a : Un_cv f a -> 0 <= a -> Un_cv (fun j => sqrt (f j)) (sqrt a).
Proof. intros A H. apply (cv_comp sqrt); auto. apply continuity_pt_sqrt. auto. Qed.
Lemma cv_opp f a : Un_cv f a -> Un_cv (fun j => - f j) (- a).
Proof. intros A. apply cv_ext with (fun j => -1 * f j); [intros; ring|]. replace (- a) with (-1 * a) by ring. apply cv_mul; auto. apply cv_const. Qed.
(** What holds strictly in the limit holds in the end. *)
Lemma cv_lt f g a b : Un_cv f a -> Un_cv g b -> a < b -> exists N, forall j, (N <= j)%nat -> f j < g j.
Proof.
  intros A B H. destruct (A ((b - a) / 2)) as (N & HN); [lra|]. destruct (B ((b - a) / 2)) as (M & HM); [lra|].
  exists (Nat.max N M). intros j Hj. specialize (HN j ltac:(lia)). specialize (HM j ltac:(lia)). unfold R_dist in *.
  apply Rabs_def2 in HN. apply Rabs_def2 in HM. lra.
Qed.
Lemma cv_split (P : nat -> Prop) (f g h : nat -> R) l : (forall j, P j \/ ~ P j) -> Un_cv f l -> Un_cv g l ->
  (exists N, forall j, (N <= j)%nat -> (P j -> h j = f j) /\ (~ P j -> h j = g j)) -> Un_cv h l.
Proof.
  intros D A B (N & H) e He. destruct (A e He) as (N1 & H1). destruct (B e He) as (N2 & H2). exists (Nat.max N (Nat.max N1 N2)).
  intros j Hj. destruct (H j ltac:(lia)) as [X Y]. destruct (D j) as [Pj|Pj]; [rewrite X by auto; apply H1; lia|rewrite Y by auto; apply H2; lia].
Qed.
Lemma cvv_split (P : nat -> Prop) (f g h : nat -> vec) l : (forall j, P j \/ ~ P j) -> cvv f l -> cvv g l ->
  (exists N, forall j, (N <= j)%nat -> (P j -> h j = f j) /\ (~ P j -> h j = g j)) -> cvv h l.
Proof.
  intros D A B (N & H) i. apply (cv_split P (fun j => nth i (f j) 0) (fun j => nth i (g j) 0)); auto.
  exists N. intros j Hj. destruct (H j Hj) as [X Y]. split; intros Q; [rewrite X|rewrite Y]; auto.
Qed.
Lemma cv_acos_1 f : (forall j, -1 <= f j <= 1) -> Un_cv f 1 -> Un_cv (fun j => acos (f j)) 0.
Proof.
  intros B C e He. pose proof PI_RGT_0. set (a := Rmin e (PI / 2)). assert (Ha : 0 < a <= PI / 2 /\ a <= e).
  { unfold a. split; [split; [apply Rmin_glb_lt; lra|apply Rmin_r]|apply Rmin_l]. }
  assert (K : cos a < 1) by (rewrite <- cos_0; apply cos_decreasing_1; lra).
  destruct (C (1 - cos a)) as (N & HN); [lra|]. exists N. intros j Hj. specialize (HN j Hj). unfold R_dist in *. apply Rabs_def2 in HN.
  rewrite Rminus_0_r, Rabs_pos_eq by apply acos_bound. assert (acos (f j) < a) by (apply acos_lt_of_cos; auto; lra). lra.
Qed.
Lemma nth_norm (v : vec) : forall i, Rabs (nth i v 0) <= norm v.
Proof.
  intros i. rewrite <- sqrt_Rsqr_abs. unfold norm. apply sqrt_le_1; [apply Rle_0_sqr|apply dot_self_nonneg|].
  revert i. induction v as [|a v IH]; intros [|i]; cbn [nth dot]; unfold Rsqr; try lra.
  - pose proof (dot_self_nonneg v). lra.
  - specialize (IH i). unfold Rsqr in IH. nra.
Qed.
Lemma cvv_to_zero n f : Un_cv (fun j => norm (f j)) 0 -> cvv f (vzero n).
Proof.
  intros C i. rewrite nth_vzero. intros e He. destruct (C e He) as (N & HN). exists N. intros j Hj. specialize (HN j Hj). unfold R_dist in *.
  rewrite Rminus_0_r in *. pose proof (nth_norm (f j) i). pose proof (Rle_abs (norm (f j))). lra.
Qed.
Lemma cvv_shift f u N : cvv f u -> cvv (fun j => f (N + j)%nat) u.
Proof. intros C i e He. destruct (C i e He) as (M & HM). exists M. intros j Hj. apply HM. lia. Qed.

Section Tangent.
Variables (n : nat) (pick : vec -> vec).
Hypothesis Hpick : picks n pick.
Lemma len_le (f : nat -> vec) : lenn n f -> forall j, (length (f j) <= n)%nat.
Proof. intros L j. rewrite L. auto. Qed.
Definition units (f : nat -> vec) : Prop := forall j, length (f j) = n /\ unitv (f j).
Lemma units_len f : units f -> lenn n f. Proof. intros U j. apply U. Qed.
Lemma cvv_unit f u : units f -> length u = n -> cvv f u -> unitv u.
Proof.
  intros U L C. unfold unitv. apply (UL_sequence (fun j => dot (f j) (f j))); [apply (cv_dot n); auto using len_le, units_len; lia|].
  apply cv_ext with (fun _ => 1); [intros j; symmetry; apply U|apply cv_const].
Qed.
Lemma cvv_neg f u : cvv f u -> cvv (fun j => opp (f j)) (opp u).
Proof. intros C. apply cvv_scale; auto. apply cv_const. Qed.
Lemma units_neg f : units f -> units (fun j => opp (f j)).
Proof. intros U j. destruct (U j). split; [rewrite length_vscale; auto|apply unit_opp; auto]. Qed.

(** *** Angles *)
Lemma cvv_angle d_ v_ d v : units d_ -> units v_ -> length d = n -> length v = n -> cvv d_ d -> cvv v_ v -> dot d v <> -1 ->
  cvv (fun j => angle_space pick (d_ j) (v_ j)) (angle_space pick d v).
Proof.
  intros Ud Uv Ld Lv Cd Cv D. pose proof (cvv_unit d_ d Ud Ld Cd) as U1. pose proof (cvv_unit v_ v Uv Lv Cv) as U2.
  assert (CC : Un_cv (fun j => dot (d_ j) (v_ j)) (dot d v)) by (apply (cv_dot n); auto using len_le, units_len; lia).
  pose proof (unit_dot_bounds d v U1 U2) as B.
  assert (Bj : forall j, -1 <= dot (d_ j) (v_ j) <= 1) by (intros j; apply unit_dot_bounds; [apply Ud|apply Uv]).
  destruct (Req_dec (dot d v) 1) as [E1|N1].
  - assert (Z : angle_space pick d v = vzero n).
    { destruct (angle_space_spec n pick Hpick d v Ld Lv U1 U2) as (La & _ & Na). rewrite E1, acos_1 in Na. apply norm_zero_iff in Na. rewrite La in Na. auto. }
    rewrite Z. apply cvv_to_zero. apply cv_ext with (fun j => acos (dot (d_ j) (v_ j))).
    { intros j. symmetry. apply (angle_space_spec n pick Hpick); [apply Ud|apply Uv|apply Ud|apply Uv]. }
    apply cv_acos_1; auto. rewrite <- E1. auto.
  - assert (CP : cvv (fun j => vsub (v_ j) (vscale (dot (d_ j) (v_ j)) (d_ j))) (vsub v (vscale (dot d v) d))) by (apply cvv_sub; auto; apply cvv_scale; auto).
    assert (Lp : lenn n (fun j => vsub (v_ j) (vscale (dot (d_ j) (v_ j)) (d_ j)))).
    { intros j. destruct (Ud j), (Uv j). autorewrite with vlen. lia. }
    assert (CN : Un_cv (fun j => norm (vsub (v_ j) (vscale (dot (d_ j) (v_ j)) (d_ j)))) (norm (vsub v (vscale (dot d v) d)))).
    { apply (cv_norm n); auto; [apply len_le; auto|]. autorewrite with vlen. lia. }
    assert (NZ : norm (vsub v (vscale (dot d v) d)) <> 0).
    { intros Z. pose proof (perp_norm_sq d v U1 U2) as Q. rewrite Z in Q.
      assert (K : (1 - dot d v) * (1 + dot d v) = 0) by lra. apply Rmult_integral in K. destruct K; lra. }
    destruct (cv_nonzero _ _ CN NZ) as (N & HN). unfold angle_space at 2. cbv zeta. destruct (Req_EM_T _ 0); [contradiction|].
    apply cvv_eventually with (fun j => vscale (acos (dot (d_ j) (v_ j)) / norm (vsub (v_ j) (vscale (dot (d_ j) (v_ j)) (d_ j)))) (vsub (v_ j) (vscale (dot (d_ j) (v_ j)) (d_ j)))) N.
    + intros j Hj. specialize (HN j Hj). cbv beta in HN. unfold angle_space. cbv zeta. destruct (Req_EM_T _ 0); [contradiction|reflexivity].
    + apply cvv_scale; auto. apply cv_div; auto. apply cv_acos; auto. lra.
Qed.
Lemma vector_sinc d a : length d = n -> length a = n -> vector_from_angle d a = vadd (vscale (cos (norm a)) d) (vscale (sinc (norm a)) a).
Proof.
  intros Ld La. unfold vector_from_angle, sinc. destruct (Req_EM_T (norm a) 0) as [Z|]; auto. rewrite Z, cos_0. apply norm_zero_iff in Z. rewrite Z. vext. ring.
Qed.
Lemma cvv_vector d_ a_ d a : lenn n d_ -> lenn n a_ -> length d = n -> length a = n -> cvv d_ d -> cvv a_ a ->
  cvv (fun j => vector_from_angle (d_ j) (a_ j)) (vector_from_angle d a).
Proof.
  intros Ld La Md Ma Cd Ca. rewrite vector_sinc by auto. apply cvv_ext with (fun j => vadd (vscale (cos (norm (a_ j))) (d_ j)) (vscale (sinc (norm (a_ j))) (a_ j))).
  { intros j. rewrite vector_sinc; auto. }
  assert (CN : Un_cv (fun j => norm (a_ j)) (norm a)) by (apply (cv_norm n); auto using len_le; lia).
  apply cvv_add; apply cvv_scale; auto; [apply cv_cos; auto|apply cv_sinc; auto].
Qed.

(** *** The tangent on one side, as a formula *)
Definition far_point (start dir : vec) (rad : R) : vec :=
  vadd start (vscale ((- (2 * dot dir start) + sqrt (2 * dot dir start * (2 * dot dir start) - 4 * dot dir dir * (dot start start - rad * rad))) / (2 * dot dir dir)) dir).
Definition around (d v r : vec) (rad : R) : vec :=
  vector_from_angle d (far_point (angle_space pick d r) (vsub (angle_space pick d v) (angle_space pick d r)) rad).
Lemma around_formula d v r rad t : length d = n -> length v = n -> length r = n -> unitv d -> unitv v -> unitv r -> v <> r ->
  tangent_around pick d v r rad = Ok t -> t = around d v r rad.
Proof.
  intros Ld Lv Lr Ud Uv Ur NE. unfold tangent_around, around, far_point. cbv zeta. destruct (Req_EM_T _ 0) as [Z|NZ].
  { exfalso. apply NE. apply (angle_space_inj n pick Hpick d); auto.
    destruct (angle_space_spec n pick Hpick d v Ld Lv Ud Uv) as (L0 & _). destruct (angle_space_spec n pick Hpick d r Ld Lr Ud Ur) as (L1 & _).
    apply dot_vsub_self_eq; [lia|]. apply norm_eq_0_dot. auto. }
  unfold circle_far. destruct (Rltb _ 0); [discriminate|]. intros E. injection E as <-. reflexivity.
Qed.
Lemma cvv_around d_ v_ r_ rad_ d v r rad : units d_ -> units v_ -> units r_ -> length d = n -> length v = n -> length r = n ->
  cvv d_ d -> cvv v_ v -> cvv r_ r -> Un_cv rad_ rad -> dot d v <> -1 -> dot d r <> -1 -> v <> r -> acos (dot d v) <= rad ->
  cvv (fun j => around (d_ j) (v_ j) (r_ j) (rad_ j)) (around d v r rad).
Proof.
  intros Ud Uv Ur Ld Lv Lr Cd Cv Cr CR Dv Dr NE HA.
  pose proof (cvv_unit d_ d Ud Ld Cd) as U1. pose proof (cvv_unit v_ v Uv Lv Cv) as U2. pose proof (cvv_unit r_ r Ur Lr Cr) as U3.
  pose proof (cvv_angle d_ v_ d v Ud Uv Ld Lv Cd Cv Dv) as A0. pose proof (cvv_angle d_ r_ d r Ud Ur Ld Lr Cd Cr Dr) as A1.
  destruct (angle_space_spec n pick Hpick d v Ld Lv U1 U2) as (L0 & _ & N0). destruct (angle_space_spec n pick Hpick d r Ld Lr U1 U3) as (L1 & _).
  assert (L0_ : lenn n (fun j => angle_space pick (d_ j) (v_ j))) by (intros j; apply (angle_space_spec n pick Hpick); apply Ud || apply Uv).
  assert (L1_ : lenn n (fun j => angle_space pick (d_ j) (r_ j))) by (intros j; apply (angle_space_spec n pick Hpick); apply Ud || apply Ur).
  unfold around. set (a0 := angle_space pick d v) in *. set (ar := angle_space pick d r) in *.
  assert (NZ : norm (vsub a0 ar) <> 0).
  { intros Z. apply NE. apply (angle_space_inj n pick Hpick d); auto. apply dot_vsub_self_eq; [fold a0 ar; lia|]. apply norm_eq_0_dot. auto. }
  pose proof (cvv_sub _ _ _ _ A0 A1) as CD. set (dj := fun j => vsub (angle_space pick (d_ j) (v_ j)) (angle_space pick (d_ j) (r_ j))) in *.
  assert (LD : lenn n dj) by (intros j; unfold dj; autorewrite with vlen; specialize (L0_ j); specialize (L1_ j); cbv beta in *; lia).
  assert (LDl : length (vsub a0 ar) = n) by (autorewrite with vlen; lia).
  set (aj := fun j => angle_space pick (d_ j) (r_ j)) in *.
  assert (C1 : Un_cv (fun j => dot (dj j) (aj j)) (dot (vsub a0 ar) ar)) by (apply (cv_dot n); auto using len_le; lia).
  assert (C2 : Un_cv (fun j => dot (dj j) (dj j)) (dot (vsub a0 ar) (vsub a0 ar))) by (apply (cv_dot n); auto using len_le; lia).
  assert (C3 : Un_cv (fun j => dot (aj j) (aj j)) (dot ar ar)) by (apply (cv_dot n); auto using len_le; lia).
  assert (PD : 0 <= 2 * dot (vsub a0 ar) ar * (2 * dot (vsub a0 ar) ar) - 4 * dot (vsub a0 ar) (vsub a0 ar) * (dot ar ar - rad * rad)).
  { assert (R0 : 0 <= rad) by (pose proof (acos_bound (dot d v)); lra). destruct (circle_far_spec n a0 ar rad L0 L1 NZ R0) as (s & _ & E & _); [lra|]. unfold circle_far in E.
    destruct (Rltb _ 0) eqn:T; [discriminate|]. apply Rltb_false in T. auto. }
  assert (PA : dot (vsub a0 ar) (vsub a0 ar) <> 0) by (apply norm_neq_0_dot; auto).
  assert (CF : cvv (fun j => far_point (aj j) (dj j) (rad_ j)) (far_point ar (vsub a0 ar) rad)).
  { unfold far_point. apply cvv_add; auto. apply cvv_scale; auto. apply cv_div; [|apply cv_mul; auto; apply cv_const|lra].
    assert (C4 : Un_cv (fun j => 2 * dot (dj j) (aj j)) (2 * dot (vsub a0 ar) ar)) by (apply cv_mul; auto; apply cv_const).
    apply cv_add; [apply cv_opp; auto|]. apply cv_sqrt; auto. apply cv_sub; [apply cv_mul; auto|]. apply cv_mul; [apply cv_mul; auto; apply cv_const|].
    apply cv_sub; auto. apply cv_mul; auto. }
  apply (cvv_vector d_ (fun j => far_point (aj j) (dj j) (rad_ j))); auto using units_len.
  - intros j. unfold far_point. specialize (LD j). specialize (L1_ j). autorewrite with vlen. unfold aj in *. lia.
  - unfold far_point. autorewrite with vlen. lia.
Qed.
End Tangent.

Lemma zero_step (a b : vec) : (length b <= length a)%nat -> vadd a (vscale 0 b) = a.
Proof. intros L. apply vec_ext; [autorewrite with vlen; lia|]. intros i. autorewrite with vnth. ring. Qed.

(** ** C170: the projected tangent *)
(** Where the velocity does not point along the reference direction, the tangent of limits is the limit of the tangents.  Where the velocity
    is just at the convergence angle, the reference direction has to point into the obstacle. *)
Theorem C170_tangent : forall n pick v_ nn_ r_ rad_ v nn r rad, picks n pick ->
  (forall j, length (v_ j) = n /\ unitv (v_ j)) -> (forall j, length (nn_ j) = n /\ unitv (nn_ j)) -> (forall j, length (r_ j) = n /\ unitv (r_ j)) ->
  length v = n -> length nn = n -> length r = n ->
  (forall i, Un_cv (fun j => nth i (v_ j) 0) (nth i v 0)) -> (forall i, Un_cv (fun j => nth i (nn_ j) 0) (nth i nn 0)) ->
  (forall i, Un_cv (fun j => nth i (r_ j) 0) (nth i r 0)) -> Un_cv rad_ rad ->
  (forall j, PI / 2 <= rad_ j <= PI) -> PI / 2 <= rad <= PI ->
  dot r nn <> 1 -> (cos rad <= - dot v nn -> v <> r) -> (- dot v nn <= cos rad -> v <> vscale (-1) r) ->
  (- dot v nn = cos rad -> dot r nn <= cos rad) ->
  exists t_ t, (forall j, get_projected_tangent pick (v_ j) (nn_ j) (r_ j) (rad_ j) = Ok (t_ j)) /\
    get_projected_tangent pick v nn r rad = Ok t /\
    (forall j, length (t_ j) = n /\ unitv (t_ j)) /\ length t = n /\ unitv t /\
    (forall i, Un_cv (fun j => nth i (t_ j) 0) (nth i t 0)).
Proof.
  intros n pick v_ nn_ r_ rad_ v nn r rad P Uv Un Ur Lv Ln Lr Cv Cn Cr CR HR_ HR Hrn Hr1 Hr2 Hb. pose proof PI_RGT_0.
  change (cvv v_ v) in Cv. change (cvv nn_ nn) in Cn. change (cvv r_ r) in Cr.
  pose proof (cvv_unit n v_ v Uv Lv Cv) as U1. pose proof (cvv_unit n nn_ nn Un Ln Cn) as U2. pose proof (cvv_unit n r_ r Ur Lr Cr) as U3.
  destruct (C60_never_raises n pick v nn r rad P Lv Ln Lr U1 U2 U3) as (t & Et & Lt & Ut & _); [lra|].
  assert (Ej : forall j, exists x, get_projected_tangent pick (v_ j) (nn_ j) (r_ j) (rad_ j) = Ok x /\ length x = n /\ unitv x).
  { intros j. destruct (Uv j), (Un j), (Ur j). destruct (C60_never_raises n pick (v_ j) (nn_ j) (r_ j) (rad_ j)) as (x & E & L & U & _); auto; [specialize (HR_ j); lra|eauto]. }
  set (t_ := fun j => match get_projected_tangent pick (v_ j) (nn_ j) (r_ j) (rad_ j) with Ok x => x | Err _ => [] end).
  assert (Tj : forall j, get_projected_tangent pick (v_ j) (nn_ j) (r_ j) (rad_ j) = Ok (t_ j) /\ length (t_ j) = n /\ unitv (t_ j)).
  { intros j. unfold t_. destruct (Ej j) as (x & -> & L & U). auto. }
  exists t_, t. split; [intros j; apply Tj|]. split; [auto|]. split; [intros j; apply Tj|]. split; [auto|]. split; [auto|].
  change (cvv t_ t).
  assert (CC : Un_cv (fun j => dot (v_ j) (opp (nn_ j))) (dot v (opp nn))).
  { apply (cv_dot n); auto using cvv_neg; [intros j; destruct (Uv j); lia|lia]. }
  assert (CK : Un_cv (fun j => cos (rad_ j)) (cos rad)) by (apply cv_cos; auto).
  assert (KB : -1 <= cos rad <= 0) by (split; [apply COS_bound|apply cos_le_0; lra]).
  assert (Dn : dot v (opp nn) = - dot v nn) by (rewrite dot_vscale_r; ring).
  pose proof (unit_dot_bounds v nn U1 U2) as BV.
  (* the two formulas *)
  assert (F1 : cos rad <= - dot v nn -> cvv (fun j => around pick (opp (nn_ j)) (v_ j) (r_ j) (rad_ j)) (around pick (opp nn) v r rad)).
  { intros K. apply (cvv_around n pick P); auto using units_neg, cvv_neg.
    - rewrite length_vscale. auto.
    - rewrite dot_vscale_l, dot_comm. intros X. assert (dot v nn = 1) by lra. assert (cos rad = -1) by lra.
      assert (v = nn) by (apply unit_dot_1; auto; congruence). subst nn.
      assert (dot r v <= cos rad) by (apply Hb; lra). apply (Hr2 ltac:(lra)).
      pose proof (unit_dot_bounds r v U3 U1). assert (Y : dot r v = -1) by lra.
      apply unit_dot_1; auto using unit_opp; [rewrite length_vscale; congruence|]. rewrite dot_vscale_r, dot_comm. lra.
    - rewrite dot_vscale_l, dot_comm. lra.
    - apply acos_le_of_cos; [|lra|]; rewrite dot_vscale_l, dot_comm; lra. }
  assert (F2 : - dot v nn <= cos rad -> cvv (fun j => around pick (nn_ j) (v_ j) (opp (r_ j)) (PI - rad_ j)) (around pick nn v (opp r) (PI - rad))).
  { intros K. apply (cvv_around n pick P); auto using units_neg, cvv_neg.
    - rewrite length_vscale. auto.
    - apply cv_sub; auto. apply cv_const.
    - rewrite dot_comm. lra.
    - rewrite dot_vscale_r, dot_comm. lra.
    - apply acos_le_of_cos; [rewrite dot_comm; lra|lra|]. rewrite Rtrigo_facts.cos_pi_minus, dot_comm. lra. }
  (* the sequences *)
  assert (VR : v <> r -> exists N, forall j, (N <= j)%nat -> v_ j <> r_ j).
  { intros NE. assert (Z : norm (vsub v r) <> 0) by (intros Z; apply NE; apply dot_vsub_self_eq; [congruence|apply norm_eq_0_dot; auto]).
    assert (CZ : Un_cv (fun j => norm (vsub (v_ j) (r_ j))) (norm (vsub v r))).
    { apply (cv_norm n); [intros j; destruct (Uv j), (Ur j); autorewrite with vlen; lia|autorewrite with vlen; lia|]. apply cvv_sub; auto. }
    destruct (cv_nonzero _ _ CZ Z) as (N & HN).
    exists N. intros j Hj E. apply (HN j Hj). rewrite E. apply norm_eq_0_dot. rewrite dot_vsub_l, !dot_vsub_r. ring. }
  assert (VO : v <> opp r -> exists N, forall j, (N <= j)%nat -> v_ j <> opp (r_ j)).
  { intros NE. assert (Lo : length (opp r) = n) by (rewrite length_vscale; auto).
    assert (Z : norm (vsub v (opp r)) <> 0) by (intros Z; apply NE; apply dot_vsub_self_eq; [congruence|apply norm_eq_0_dot; auto]).
    assert (CZ : Un_cv (fun j => norm (vsub (v_ j) (opp (r_ j)))) (norm (vsub v (opp r)))).
    { apply (cv_norm n); [intros j; destruct (Uv j), (Ur j); autorewrite with vlen; lia|autorewrite with vlen; lia|]. apply cvv_sub; auto using cvv_neg. }
    destruct (cv_nonzero _ _ CZ Z) as (N & HN).
    exists N. intros j Hj E. apply (HN j Hj). rewrite E. apply norm_eq_0_dot. rewrite dot_vsub_l, !dot_vsub_r. ring. }
  assert (T1 : forall j, v_ j <> r_ j -> cos (rad_ j) < dot (v_ j) (opp (nn_ j)) -> t_ j = around pick (opp (nn_ j)) (v_ j) (r_ j) (rad_ j)).
  { intros j NE K. destruct (Tj j) as (E & _). unfold get_projected_tangent in E. rewrite (proj2 (Rltb_true _ _) K) in E. destruct (Uv j), (Un j), (Ur j).
    apply (around_formula n pick P); auto using unit_opp. rewrite length_vscale. auto. }
  assert (T2 : forall j, v_ j <> opp (r_ j) -> ~ cos (rad_ j) < dot (v_ j) (opp (nn_ j)) -> t_ j = around pick (nn_ j) (v_ j) (opp (r_ j)) (PI - rad_ j)).
  { intros j NE K. destruct (Tj j) as (E & _). unfold get_projected_tangent in E. rewrite (proj2 (Rltb_false _ _)) in E by lra. destruct (Uv j), (Un j), (Ur j).
    apply (around_formula n pick P); auto using unit_opp. rewrite length_vscale. auto. }
  destruct (Rtotal_order (cos rad) (dot v (opp nn))) as [K|[K|K]].
  - (* into the obstacle *)
    assert (Tl : t = around pick (opp nn) v r rad).
    { unfold get_projected_tangent in Et. rewrite (proj2 (Rltb_true _ _) K) in Et. apply (around_formula n pick P); auto using unit_opp; [rewrite length_vscale; auto|]. apply Hr1. lra. }
    rewrite Tl. destruct (cv_lt _ _ _ _ CK CC K) as (N1 & H1). destruct (VR (Hr1 ltac:(lra))) as (N2 & H2).
    apply cvv_eventually with (fun j => around pick (opp (nn_ j)) (v_ j) (r_ j) (rad_ j)) (Nat.max N1 N2); [|apply F1; lra].
    intros j Hj. symmetry. apply T1; [apply H2; lia|apply H1; lia].
  - (* just at the angle *)
    assert (E1 : around pick (opp nn) v r rad = v).
    { assert (Lo : length (opp nn) = n) by (rewrite length_vscale; auto). assert (Uo : unitv (opp nn)) by (apply unit_opp; auto).
      assert (DV : dot (opp nn) v = cos rad) by (rewrite dot_comm; auto).
      destruct (tangent_around_spec n pick P (opp nn) v r rad) as [_ S]; auto; [lra|rewrite DV, acos_cos by lra; lra|].
      destruct S as (x & s & a & Ex & _ & _ & _ & _ & (X1 & _ & X3) & Zs).
      { intros E. apply (Hr1 ltac:(lra)). apply (angle_space_inj n pick P (opp nn)); auto. }
      assert (s = 0) as ->.
      { apply Zs; [rewrite DV, acos_cos by lra; auto|]. pose proof (unit_dot_bounds r nn U3 U2). specialize (Hb ltac:(lra)).
        apply acos_le_of_cos; [|lra|]; rewrite dot_vscale_l, dot_comm; lra. }
      rewrite <- (around_formula n pick P (opp nn) v r rad x) by (auto; apply Hr1; lra). rewrite X1.
      assert (a = angle_space pick (opp nn) v) as -> by (rewrite X3; apply zero_step; autorewrite with vlen;
        rewrite (proj1 (angle_space_spec n pick P (opp nn) v Lo Lv Uo U1)), (proj1 (angle_space_spec n pick P (opp nn) r Lo Lr Uo U3)); lia).
      destruct (Req_dec (cos rad) (-1)) as [M|M].
      - exfalso. specialize (Hb ltac:(lra)). pose proof (unit_dot_bounds r nn U3 U2). assert (dot v nn = 1) by lra. assert (dot r nn = -1) by lra.
        assert (v = nn) by (apply unit_dot_1; auto; congruence). subst nn. apply (Hr2 ltac:(lra)).
        apply unit_dot_1; auto using unit_opp; [rewrite length_vscale; congruence|]. rewrite dot_vscale_r, dot_comm. lra.
      - apply (vector_of_angle_of n pick P (opp nn) v); auto. lra. }
    assert (E2 : around pick nn v (opp r) (PI - rad) = v).
    { assert (Lo : length (opp r) = n) by (rewrite length_vscale; auto). assert (Uo : unitv (opp r)) by (apply unit_opp; auto).
      assert (DV : dot nn v = cos (PI - rad)) by (rewrite Rtrigo_facts.cos_pi_minus, dot_comm; lra).
      destruct (tangent_around_spec n pick P nn v (opp r) (PI - rad)) as [_ S]; auto; [lra|rewrite DV, acos_cos by lra; lra|].
      destruct S as (x & s & a & Ex & _ & _ & _ & _ & (X1 & _ & X3) & Zs).
      { intros E. apply (Hr2 ltac:(lra)). apply (angle_space_inj n pick P nn); auto. }
      assert (s = 0) as ->.
      { apply Zs; [rewrite DV, acos_cos by lra; auto|]. pose proof (unit_dot_bounds r nn U3 U2). specialize (Hb ltac:(lra)).
        apply acos_le_of_cos; [rewrite dot_vscale_r, dot_comm; lra|lra|]. rewrite Rtrigo_facts.cos_pi_minus, dot_vscale_r, dot_comm. lra. }
      rewrite <- (around_formula n pick P nn v (opp r) (PI - rad) x) by (auto; apply Hr2; lra). rewrite X1.
      assert (a = angle_space pick nn v) as -> by (rewrite X3; apply zero_step; autorewrite with vlen;
        rewrite (proj1 (angle_space_spec n pick P nn v Ln Lv U2 U1)), (proj1 (angle_space_spec n pick P nn (opp r) Ln Lo U2 Uo)); lia).
      apply (vector_of_angle_of n pick P nn v); auto. rewrite dot_comm. lra. }
    assert (Tl : t = v).
    { assert (X : get_projected_tangent pick v nn r rad = Ok v) by (apply (C60_boundary_kept_partial n); auto; try lra; apply Hb; lra). congruence. }
    rewrite Tl. destruct (VR (Hr1 ltac:(lra))) as (N1 & H1). destruct (VO (Hr2 ltac:(lra))) as (N2 & H2).
    apply (cvv_split (fun j => cos (rad_ j) < dot (v_ j) (opp (nn_ j))) (fun j => around pick (opp (nn_ j)) (v_ j) (r_ j) (rad_ j))
      (fun j => around pick (nn_ j) (v_ j) (opp (r_ j)) (PI - rad_ j))).
    { intros j. destruct (Rlt_dec (cos (rad_ j)) (dot (v_ j) (opp (nn_ j)))); auto. }
    { rewrite <- E1. apply F1. lra. }
    { rewrite <- E2. apply F2. lra. }
    exists (Nat.max N1 N2). intros j Hj. split; [apply T1; apply H1; lia|apply T2; apply H2; lia].
  - (* away *)
    assert (Tl : t = around pick nn v (opp r) (PI - rad)).
    { unfold get_projected_tangent in Et. rewrite (proj2 (Rltb_false _ _)) in Et by lra. apply (around_formula n pick P); auto using unit_opp; [rewrite length_vscale; auto|]. apply Hr2. lra. }
    rewrite Tl. destruct (cv_lt _ _ _ _ CC CK K) as (N1 & H1). destruct (VO (Hr2 ltac:(lra))) as (N2 & H2).
    apply cvv_eventually with (fun j => around pick (nn_ j) (v_ j) (opp (r_ j)) (PI - rad_ j)) (Nat.max N1 N2); [|apply F2; lra].
    intros j Hj. symmetry. apply T2; [apply H2; lia|]. specialize (H1 j ltac:(lia)). cbv beta in H1. lra.
Qed.

(** ** C170: the velocity turned along with the reference directions *)
Section Turn.
Variable n : nat.
(** The rotation which carries the unit vector [a] to [b] and keeps what is orthogonal to both. *)
Definition carried (a b v : vec) : vec :=
  vadd v (vadd (vscale (- (dot a v + dot b v) / (1 + dot a b)) (vadd a b)) (vscale (2 * dot a v) b)).
Lemma turn_formula a b v r : (2 <= n)%nat -> length a = n -> length b = n -> length v = n -> norm a <> 0 -> norm b <> 0 ->
  dot (direction a) (direction b) <> -1 -> exact_pair (direction a) (direction b) -> from_directions a b = Ok r ->
  rotate r v 1 = carried (direction a) (direction b) v /\ length (rotate r v 1) = n /\ norm (rotate r v 1) = norm v.
Proof.
  intros Hn La Lb Lv Na Nb D X E.
  destruct (from_directions_spec n a b) as (r0 & E' & Ho & E0 & Ea & _); auto. rewrite E in E'. injection E' as <-.
  destruct (rotate_keeps n r v Ho Lv) as [L1 N1]. split; auto. pose proof Ho as (O0 & O1 & _).
  unfold rotate. rewrite (rotate_direction_eq n) by auto. rewrite Rmult_1_l || rewrite Rmult_1_r || idtac.
  change (dirof a) with (direction a) in *. change (dirof b) with (direction b) in *.
  assert (Ua : unitv (direction a)) by (apply dirof_unit; auto). assert (Ub : unitv (direction b)) by (apply dirof_unit; auto).
  assert (Lda : length (direction a) = n) by (rewrite <- La; apply dirof_length).
  assert (Ldb : length (direction b) = n) by (rewrite <- Lb; apply dirof_length).
  pose proof (unit_dot_bounds _ _ Ua Ub) as BB.
  destruct X as [X|C].
  - rewrite Ea, E0, X. unfold unitv in Ub. rewrite Ub, acos_1. unfold carried. rewrite Ub. unfold plane_rot. rewrite cos_0, sin_0 || rewrite Rmult_0_r, cos_0, sin_0.
    vext. field.
  - unfold from_directions in E. destruct (Req_EM_T (norm a) 0); [contradiction|]. destruct (Req_EM_T (norm b) 0); [contradiction|].
    change (vdiv a (norm a)) with (direction a) in *. change (vdiv b (norm b)) with (direction b) in *. rewrite C in E.
    set (p := vsub (direction b) (vscale (dot (direction a) (direction b)) (direction a))) in *. destruct (Req_EM_T (norm p) 0) as [|NZ]; [discriminate|]. cbn [bind] in E.
    assert (B1 : rb1 r = vdiv p (norm p)) by (injection E as <-; reflexivity).
    rewrite B1, E0, Ea. set (u := direction a) in *. set (w := direction b) in *. set (c := dot u w) in *.
    assert (S2 : norm p * norm p = 1 - c * c) by (apply perp_norm_sq; auto).
    pose proof (norm_nonneg p) as NP. assert (SN : sin (acos c) = norm p).
    { rewrite sin_acos by lra. replace (1 - c²) with (norm p * norm p) by (rewrite S2; unfold Rsqr; ring). apply sqrt_square. auto. }
    unfold plane_rot, carried. rewrite ?Rmult_1_l, ?Rmult_1_r, SN, cos_acos by lra. fold c.
    assert (DP : dot (vdiv p (norm p)) v = (dot w v - c * dot u v) / norm p).
    { unfold vdiv, p. rewrite dot_vscale_l, dot_vsub_l, dot_vscale_l. field. auto. }
    rewrite DP. assert (K1 : 1 + c <> 0) by lra. assert (K2 : 1 - c <> 0) by (intros Z; apply NZ; assert (1 - c * c = 0) by nra; nra).
    assert (LP : length p = n) by (unfold p; autorewrite with vlen; lia).
    apply vec_ext; [autorewrite with vlen; lia|]. intros i. unfold vdiv, p. autorewrite with vnth. fold p.
    assert (IE : / norm p * / norm p = / ((1 + c) * (1 - c))) by (rewrite <- Rinv_mult; f_equal; lra).
    set (q := norm p) in *. set (x := dot u v). set (y := dot w v). set (ui := nth i u 0). set (wi := nth i w 0).
    replace ((x * (c - 1) - (y - c * x) / q * q) * ui) with ((x * (c - 1) - (y - c * x)) * ui) by (field; auto).
    replace ((x * q + (y - c * x) / q * (c - 1)) * (/ q * (wi - c * ui))) with ((x + (y - c * x) * (c - 1) * (/ q * / q)) * (wi - c * ui)) by (field; auto).
    rewrite IE. field. auto.
Qed.
Lemma cvv_direction a_ a : lenn n a_ -> length a = n -> cvv a_ a -> norm a <> 0 -> cvv (fun j => direction (a_ j)) (direction a).
Proof.
  intros L La C N. unfold direction, vdiv. apply cvv_scale; auto. apply cv_inv; auto. apply (cv_norm n); auto; [intros j; rewrite L; auto|lia].
Qed.
Lemma cvv_carried a_ b_ v_ a b v : lenn n a_ -> lenn n b_ -> length a = n -> length b = n -> cvv a_ a -> cvv b_ b -> cvv v_ v -> dot a b <> -1 ->
  cvv (fun j => carried (a_ j) (b_ j) (v_ j)) (carried a b v).
Proof.
  intros LA LB La Lb CA CB CV D. unfold carried.
  assert (D1 : Un_cv (fun j => dot (a_ j) (v_ j)) (dot a v)) by (apply (cv_dot n); auto; [intros j; rewrite LA; auto|lia]).
  assert (D2 : Un_cv (fun j => dot (b_ j) (v_ j)) (dot b v)) by (apply (cv_dot n); auto; [intros j; rewrite LB; auto|lia]).
  assert (D3 : Un_cv (fun j => dot (a_ j) (b_ j)) (dot a b)) by (apply (cv_dot n); auto; [intros j; rewrite LA; auto|lia]).
  apply cvv_add; auto. apply cvv_add; [|apply cvv_scale; auto; apply cv_mul; auto; apply cv_const].
  apply cvv_scale; [|apply cvv_add; auto]. apply cv_div; [apply cv_opp; apply cv_add; auto|apply cv_add; auto; apply cv_const|lra].
Qed.
End Turn.
(** The velocity which is turned from one reference direction to the next follows them continuously, where they are not opposite and
    each pair is told apart. *)
Theorem C170_turn : forall n a_ b_ v_ a b v, (2 <= n)%nat ->
  (forall j, length (a_ j) = n /\ length (b_ j) = n /\ length (v_ j) = n) -> length a = n -> length b = n -> length v = n ->
  (forall j, norm (a_ j) <> 0 /\ norm (b_ j) <> 0 /\ dot (direction (a_ j)) (direction (b_ j)) <> -1 /\ exact_pair (direction (a_ j)) (direction (b_ j))) ->
  norm a <> 0 -> norm b <> 0 -> dot (direction a) (direction b) <> -1 -> exact_pair (direction a) (direction b) ->
  (forall i, Un_cv (fun j => nth i (a_ j) 0) (nth i a 0)) -> (forall i, Un_cv (fun j => nth i (b_ j) 0) (nth i b 0)) ->
  (forall i, Un_cv (fun j => nth i (v_ j) 0) (nth i v 0)) ->
  exists rot_ rot, (forall j, from_directions (a_ j) (b_ j) = Ok (rot_ j)) /\ from_directions a b = Ok rot /\
    (forall j, length (rotate (rot_ j) (v_ j) 1) = n /\ norm (rotate (rot_ j) (v_ j) 1) = norm (v_ j)) /\
    length (rotate rot v 1) = n /\ norm (rotate rot v 1) = norm v /\
    (forall i, Un_cv (fun j => nth i (rotate (rot_ j) (v_ j) 1) 0) (nth i (rotate rot v 1) 0)).
Proof.
  intros n a_ b_ v_ a b v Hn L_ La Lb Lv H_ Na Nb D X CA CB CV.
  destruct (from_directions_spec n a b) as (rot & E & _); auto.
  assert (Ej : forall j, exists r, from_directions (a_ j) (b_ j) = Ok r).
  { intros j. destruct (L_ j) as (L1 & L2 & _), (H_ j) as (H1 & H2 & H3 & _). destruct (from_directions_spec n (a_ j) (b_ j)) as (r & Er & _); eauto. }
  set (rot_ := fun j => match from_directions (a_ j) (b_ j) with Ok r => r | Err _ => mkRot [] [] 0 end).
  assert (Rj : forall j, from_directions (a_ j) (b_ j) = Ok (rot_ j)) by (intros j; unfold rot_; destruct (Ej j) as (r & ->); auto).
  exists rot_, rot. destruct (turn_formula n a b v rot) as (F & L & N); auto.
  assert (Fj : forall j, rotate (rot_ j) (v_ j) 1 = carried (direction (a_ j)) (direction (b_ j)) (v_ j) /\ length (rotate (rot_ j) (v_ j) 1) = n /\ norm (rotate (rot_ j) (v_ j) 1) = norm (v_ j)).
  { intros j. destruct (L_ j) as (L1 & L2 & L3), (H_ j) as (H1 & H2 & H3 & H4). apply turn_formula; auto. }
  split; [auto|]. split; [auto|]. split; [intros j; apply Fj|]. split; [auto|]. split; [auto|].
  change (cvv (fun j => rotate (rot_ j) (v_ j) 1) (rotate rot v 1)). rewrite F.
  apply cvv_ext with (fun j => carried (direction (a_ j)) (direction (b_ j)) (v_ j)); [intros j; symmetry; apply Fj|].
  assert (LA : lenn n a_) by (intros j; apply L_). assert (LB : lenn n b_) by (intros j; apply L_).
  apply (cvv_carried n); auto.
  - intros j. unfold direction, vdiv. rewrite length_vscale. auto.
  - intros j. unfold direction, vdiv. rewrite length_vscale. auto.
  - unfold direction, vdiv. rewrite length_vscale. auto.
  - unfold direction, vdiv. rewrite length_vscale. auto.
  - apply (cvv_direction n); auto.
  - apply (cvv_direction n); auto.
Qed.

(** ** C170: the shares of the obstacles *)
Lemma rsum_dot (v : vec) : rsum v = dot v (repeat 1 (length v)).
Proof. induction v as [|a v IH]; cbn [rsum fold_right dot repeat length]; auto. fold (rsum v). rewrite IH. ring. Qed.
Lemma cv_rsum n f u : lenn n f -> length u = n -> cvv f u -> Un_cv (fun j => rsum (f j)) (rsum u).
Proof.
  intros L Lu C. rewrite rsum_dot, Lu. apply cv_ext with (fun j => dot (f j) (repeat 1 n)); [intros j; rewrite rsum_dot, L; auto|].
  apply (cv_dot n); auto; [intros j; rewrite L; auto|lia|apply cvv_const].
Qed.
Lemma cv_nonneg f a : Un_cv f a -> (forall j, 0 <= f j) -> 0 <= a.
Proof. intros C H. destruct (Rle_lt_dec 0 a) as [|L]; auto. destruct (cv_lt f (fun _ => 0) a 0 C (cv_const 0) L) as (N & HN). specialize (HN N (Nat.le_refl N)). specialize (H N). lra. Qed.
Lemma nth_map_0 (f : R -> R) (l : list R) i : f 0 = 0 -> nth i (map f l) 0 = f (nth i l 0).
Proof. intros E. transitivity (nth i (map f l) (f 0)); [rewrite E; auto|apply map_nth]. Qed.
Lemma nonneg_nth (l : list R) i : nonneg l -> 0 <= nth i l 0.
Proof. intros H. destruct (Nat.lt_ge_cases i (length l)); [apply H, nth_In; auto|rewrite nth_overflow by auto; lra]. Qed.
Lemma all_below n f u : lenn n f -> cvv f u -> (forall i, nth i u 0 < 1) -> exists N, forall j i, (N <= j)%nat -> nth i (f j) 0 < 1.
Proof.
  intros L C H. assert (K : forall m, exists N, forall j i, (N <= j)%nat -> (i < m)%nat -> nth i (f j) 0 < 1).
  { induction m as [|m (N & HN)]; [exists 0%nat; lia|]. destruct (cv_lt _ _ _ _ (C m) (cv_const 1) (H m)) as (M & HM).
    exists (Nat.max N M). intros j i Hj Hi. destruct (Nat.eq_dec i m) as [->|]; [apply HM; lia|apply HN; lia]. }
  destruct (K n) as (N & HN). exists N. intros j i Hj. destruct (Nat.lt_ge_cases i n); [apply HN; auto|rewrite nth_overflow by (rewrite L; auto); lra].
Qed.
Lemma nth_seq_map (f : nat -> R) m i : (i < m)%nat -> nth i (map f (seq 0 m)) 0 = f i.
Proof. intros H. rewrite (nth_indep _ 0 (f 0%nat)) by (rewrite map_length, seq_length; auto). rewrite map_nth, seq_nth; auto. Qed.
Definition shared (ws : list R) : list R := match get_limited_weights_to_max_sum ws with Ok (l, _) => l | Err _ => [] end.
Lemma shared_cases ws : nonneg ws ->
  get_limited_weights_to_max_sum ws = Ok (shared ws, Rmin 1 (rsum ws)) /\
  ((rsum ws < 1 /\ shared ws = ws) \/
   (1 <= rsum ws /\ (exists k, 1 <= nth k ws 0) /\ forall i, nth i (shared ws) 0 = if Rleb 1 (nth i ws 0) then 1 else 0) \/
   (1 <= rsum ws /\ (forall k, nth k ws 0 < 1) /\ 0 < rsum (map inflate_weight ws) /\ forall i, nth i (shared ws) 0 = inflate_weight (nth i ws 0) / rsum (map inflate_weight ws))).
Proof.
  intros H. unfold shared. destruct (Rlt_le_dec (rsum ws) 1) as [L|L].
  - rewrite limited_below by auto. rewrite Rmin_right by lra. auto.
  - rewrite Rmin_left by auto. destruct (existsb (Rleb 1) ws) eqn:X.
    + apply existsb_exists in X. destruct X as (w & I & W). apply Rleb_true in W. rewrite limited_saturated by eauto. split; auto. right. left.
      split; auto. split; [destruct (In_nth ws w 0 I) as (k & _ & <-); eauto|]. intros i. rewrite nth_map_0; auto. rewrite (proj2 (Rleb_false 1 0)) by lra. auto.
    + assert (B : forall w, In w ws -> 0 <= w < 1).
      { intros w I. split; [apply H; auto|]. destruct (Rlt_le_dec w 1); auto. assert (existsb (Rleb 1) ws = true) by (apply existsb_exists; exists w; split; auto; apply Rleb_true; auto). congruence. }
      destruct (limited_scaled ws B L) as (P & E). rewrite E. split; auto. right. right. split; auto.
      split; [intros k; destruct (Nat.lt_ge_cases k (length ws)); [apply B, nth_In; auto|rewrite nth_overflow by auto; lra]|]. split; auto.
      intros i. rewrite (nth_map_0 (fun w => inflate_weight w / rsum (map inflate_weight ws))); auto. unfold inflate_weight at 1. field. lra.
Qed.
Lemma cv_min f a : Un_cv f a -> Un_cv (fun j => Rmin 1 (f j)) (Rmin 1 a).
Proof.
  intros C e He. destruct (C e He) as (N & HN). exists N. intros j Hj. specialize (HN j Hj). unfold R_dist in *. apply Rabs_def2 in HN. apply Rabs_def1;
  unfold Rmin; destruct (Rle_dec 1 (f j)), (Rle_dec 1 a); lra.
Qed.
Lemma cv_inflate f a : Un_cv f a -> a < 1 -> Un_cv (fun j => inflate_weight (f j)) (inflate_weight a).
Proof. intros C H. unfold inflate_weight. apply cv_sub; [|apply cv_const]. apply cv_div; [apply cv_const|apply cv_sub; auto; apply cv_const|lra]. Qed.

(** The shares given to the obstacles follow their weights continuously where the total of weights below one is not one and where at
    most one of them has reached one. *)
Theorem C170_shares : forall m ws_ ws, (forall j, length (ws_ j) = m /\ nonneg (ws_ j)) -> length ws = m ->
  (forall i, Un_cv (fun j => nth i (ws_ j) 0) (nth i ws 0)) ->
  (forall k l, 1 <= nth k ws 0 -> 1 <= nth l ws 0 -> k = l) -> ((forall i, nth i ws 0 < 1) -> rsum ws <> 1) ->
  exists out_ out t_ t, (forall j, get_limited_weights_to_max_sum (ws_ j) = Ok (out_ j, t_ j)) /\ get_limited_weights_to_max_sum ws = Ok (out, t) /\
    (forall i, Un_cv (fun j => nth i (out_ j) 0) (nth i out 0)) /\ Un_cv t_ t.
Proof.
  intros m ws_ ws H_ L C U S. change (cvv ws_ ws) in C. assert (L_ : lenn m ws_) by (intros j; apply H_).
  assert (H : nonneg ws).
  { intros w I. destruct (In_nth ws w 0 I) as (k & _ & <-). apply (cv_nonneg _ _ (C k)). intros j. apply nonneg_nth, H_. }
  exists (fun j => shared (ws_ j)), (shared ws), (fun j => Rmin 1 (rsum (ws_ j))), (Rmin 1 (rsum ws)).
  pose proof (cv_rsum m ws_ ws L_ L C) as CS.
  assert (D : forall j, _) by (intros j; exact (shared_cases (ws_ j) (proj2 (H_ j)))). destruct (shared_cases ws H) as [E K].
  split; [intros j; apply D|]. split; [auto|]. split; [|apply cv_min; auto].
  destruct K as [(S1 & E1)|[(S1 & (k & Hk) & E1)|(S1 & B1 & P1 & E1)]].
  - destruct (cv_lt _ _ _ _ CS (cv_const 1) S1) as (N & HN). rewrite E1.
    change (cvv (fun j => shared (ws_ j)) ws). apply cvv_eventually with ws_ N; auto. intros j Hj. specialize (HN j Hj).
    destruct (D j) as [_ [(_ & ->)|[(X & _)|(X & _)]]]; auto; lra.
  - (* one weight has reached one *)
    assert (OT : forall i, i <> k -> nth i ws 0 < 1) by (intros i Hi; destruct (Rlt_le_dec (nth i ws 0) 1); auto; exfalso; auto).
    assert (EL : forall i, nth i (shared ws) 0 = if Nat.eq_dec i k then 1 else 0).
    { intros i. rewrite E1. destruct (Nat.eq_dec i k) as [->|N]; [rewrite (proj2 (Rleb_true _ _)) by auto|rewrite (proj2 (Rleb_false _ _)) by auto]; auto. }
    (* the others stay below one *)
    set (f := fun j => map (fun i => if Nat.eq_dec i k then 0 else nth i (ws_ j) 0) (seq 0 m)).
    assert (NF : forall j i, (i < m)%nat -> nth i (f j) 0 = if Nat.eq_dec i k then 0 else nth i (ws_ j) 0).
    { intros j i Hi. unfold f. rewrite (nth_seq_map (fun i => if Nat.eq_dec i k then 0 else nth i (ws_ j) 0)) by auto. auto. }
    destruct (all_below m f (map (fun i => if Nat.eq_dec i k then 0 else nth i ws 0) (seq 0 m))) as (N & HN).
    { intros j. unfold f. rewrite map_length, seq_length. auto. }
    { intros i. destruct (Nat.lt_ge_cases i m) as [Hi|Hi].
      - rewrite (nth_seq_map (fun i => if Nat.eq_dec i k then 0 else nth i ws 0)) by auto. cbn [plus].
        apply cv_ext with (fun j => if Nat.eq_dec i k then 0 else nth i (ws_ j) 0); [intros j; rewrite NF; auto|]. destruct (Nat.eq_dec i k); [apply cv_const|apply C].
      - rewrite nth_overflow by (rewrite map_length, seq_length; auto). apply cv_ext with (fun _ => 0); [|apply cv_const].
        intros j. unfold f. rewrite nth_overflow; auto. rewrite map_length, seq_length. auto. }
    { intros i. destruct (Nat.lt_ge_cases i m) as [Hi|Hi].
      - rewrite (nth_seq_map (fun i => if Nat.eq_dec i k then 0 else nth i ws 0)) by auto. cbn [plus]. destruct (Nat.eq_dec i k); [lra|auto].
      - rewrite nth_overflow by (rewrite map_length, seq_length; auto). lra. }
    assert (BO : forall j i, (N <= j)%nat -> i <> k -> nth i (ws_ j) 0 < 1).
    { intros j i Hj Hi. destruct (Nat.lt_ge_cases i m) as [Q|Q]; [|rewrite nth_overflow by (rewrite L_; auto); lra].
      specialize (HN j i Hj). rewrite NF in HN by auto. destruct (Nat.eq_dec i k); [contradiction|auto]. }
    destruct (Req_dec (nth k ws 0) 1) as [K1|K1].
    2:{ destruct (cv_lt _ _ _ _ (cv_const 1) (C k)) as (M & HM); [lra|]. intros i.
        apply cv_eventually with (fun _ => nth i (shared ws) 0) (Nat.max N M); [|apply cv_const]. intros j Hj. rewrite EL.
        assert (G : 1 < nth k (ws_ j) 0) by (apply HM; lia).
        destruct (D j) as [_ [(X & _)|[(_ & _ & ->)|(_ & X & _)]]].
        - pose proof (rsum_ge_elem (ws_ j) (nth k (ws_ j) 0) (proj2 (H_ j))) as Y.
          assert (In (nth k (ws_ j) 0) (ws_ j)) by (apply nth_In; destruct (Nat.lt_ge_cases k (length (ws_ j))); auto; rewrite nth_overflow in G by auto; lra). specialize (Y ltac:(auto)). lra.
        - destruct (Nat.eq_dec i k) as [->|Q]; [rewrite (proj2 (Rleb_true _ _)) by lra|rewrite (proj2 (Rleb_false _ _)) by (apply BO; auto; lia)]; auto.
        - specialize (X k). lra. }
    intros i.
    (* below one in total *)
    apply (cv_split (fun j => rsum (ws_ j) < 1) (fun j => if Rlt_dec (rsum ws) (1 + 1) then (if Req_EM_T (rsum ws) 1 then nth i (ws_ j) 0 else nth i (shared ws) 0) else nth i (shared ws) 0)
      (fun j => if Rltb (nth k (ws_ j) 0) 1 then (if Nat.eq_dec i k then nth k (ws_ j) 0 else inflate_weight (nth i (ws_ j) 0) * (1 - nth k (ws_ j) 0)) /
         rsum (vadd (vscale (1 - nth k (ws_ j) 0) (map inflate_weight (f j))) (map (fun l => if Nat.eq_dec l k then nth k (ws_ j) 0 else 0) (seq 0 m))) else nth i (shared ws) 0)).
    + intros j. destruct (Rlt_le_dec (rsum (ws_ j)) 1); [left; auto|right; lra].
    + destruct (Rlt_dec (rsum ws) (1 + 1)); [|apply cv_const]. destruct (Req_EM_T (rsum ws) 1) as [T|]; [|apply cv_const].
      assert (X : nth i (shared ws) 0 = nth i ws 0); [|rewrite X; apply C]. rewrite EL. destruct (Nat.eq_dec i k) as [->|Q]; [auto|].
      pose proof (nonneg_nth ws i H) as NN. destruct (Req_dec (nth i ws 0) 0) as [|NZ]; [auto|exfalso].
      assert (Y : nth k ws 0 + nth i ws 0 <= rsum ws).
      { assert (G : forall l (a b : nat), nonneg l -> a <> b -> nth a l 0 + nth b l 0 <= rsum l).
        { induction l as [|x l IH]; intros a b Hl Hab.
          - destruct a, b; cbn; lra.
          - cbn [rsum fold_right]; fold (rsum l). assert (Hl' : nonneg l) by (intros y I; apply Hl; right; auto). pose proof (Hl x (or_introl eq_refl)).
            assert (GE : forall c, nth c l 0 <= rsum l).
            { intros c. destruct (Nat.lt_ge_cases c (length l)); [apply rsum_ge_elem; [exact Hl'|apply nth_In; auto]|rewrite nth_overflow by auto; apply rsum_nonneg; auto]. }
            destruct a as [|a], b as [|b]; cbn [nth]; [lia|specialize (GE b); lra|specialize (GE a); lra|]. specialize (IH a b Hl' ltac:(lia)). lra. }
        apply G; auto. }
      lra.
    + assert (CI : cvv (fun j => map inflate_weight (f j)) (map (fun l => if Nat.eq_dec l k then 0 else inflate_weight (nth l ws 0)) (seq 0 m))).
      { intros l. destruct (Nat.lt_ge_cases l m) as [Q|Q].
        - rewrite (nth_seq_map (fun l => if Nat.eq_dec l k then 0 else inflate_weight (nth l ws 0))) by auto. cbn [plus].
          apply cv_ext with (fun j => inflate_weight (if Nat.eq_dec l k then 0 else nth l (ws_ j) 0)).
          + intros j. rewrite nth_map_0, NF; auto. unfold inflate_weight. field.
          + destruct (Nat.eq_dec l k) as [|Z]; [apply cv_ext with (fun _ => 0); [intros; unfold inflate_weight; field|apply cv_const]|]. apply cv_inflate; [apply C|auto].
        - rewrite nth_overflow by (rewrite map_length, seq_length; auto). apply cv_ext with (fun _ => 0); [|apply cv_const].
          intros j. rewrite nth_overflow; auto. unfold f. rewrite !map_length, seq_length. auto. }
      assert (Mk : (k < m)%nat) by (destruct (Nat.lt_ge_cases k m); auto; rewrite nth_overflow in K1 by lia; lra).
      set (V := map (fun l => if Nat.eq_dec l k then 1 else 0) (seq 0 m)).
      assert (CV : cvv (fun j => map (fun l => if Nat.eq_dec l k then nth k (ws_ j) 0 else 0) (seq 0 m)) V).
      { intros l. unfold V. destruct (Nat.lt_ge_cases l m) as [Q|Q].
        - rewrite (nth_seq_map (fun l => if Nat.eq_dec l k then 1 else 0)) by auto. cbn [plus].
          apply cv_ext with (fun j => if Nat.eq_dec l k then nth k (ws_ j) 0 else 0).
          + intros j. rewrite (nth_seq_map (fun l => if Nat.eq_dec l k then nth k (ws_ j) 0 else 0)) by auto. auto.
          + destruct (Nat.eq_dec l k); [rewrite <- K1; apply C|apply cv_const].
        - rewrite nth_overflow by (rewrite map_length, seq_length; auto). apply cv_ext with (fun _ => 0); [|apply cv_const].
          intros j. rewrite nth_overflow; auto. rewrite map_length, seq_length. auto. }
      assert (CK : Un_cv (fun j => 1 - nth k (ws_ j) 0) 0) by (assert (Z : Un_cv (fun j => 1 - nth k (ws_ j) 0) (1 - nth k ws 0)) by (apply cv_sub; [apply cv_const|apply C]); rewrite K1, Rminus_diag_eq in Z by auto; exact Z).
      assert (RV : rsum V = 1).
      { unfold V. clear - Mk. assert (G : forall m a, (a <= k)%nat -> (k < a + m)%nat -> rsum (map (fun l => if Nat.eq_dec l k then 1 else 0) (seq a m)) = 1).
        { assert (Z : forall m a, (k < a)%nat -> rsum (map (fun l => if Nat.eq_dec l k then 1 else 0) (seq a m)) = 0).
          { induction m0 as [|p IH]; intros a Ha; cbn [seq map rsum fold_right]; auto. fold (rsum (map (fun l => if Nat.eq_dec l k then 1 else 0) (seq (S a) p))). rewrite IH by lia. destruct (Nat.eq_dec a k); [lia|ring]. }
          induction m0 as [|p IH]; intros a Ha Hb; [lia|]. cbn [seq map rsum fold_right]. fold (rsum (map (fun l => if Nat.eq_dec l k then 1 else 0) (seq (S a) p))).
          destruct (Nat.eq_dec a k); [rewrite Z by lia; ring|rewrite IH by lia; ring]. }
        apply G; lia. }
      assert (CD : Un_cv (fun j => rsum (vadd (vscale (1 - nth k (ws_ j) 0) (map inflate_weight (f j))) (map (fun l => if Nat.eq_dec l k then nth k (ws_ j) 0 else 0) (seq 0 m)))) 1).
      { assert (Z : rsum (vadd (vscale 0 (map (fun l => if Nat.eq_dec l k then 0 else inflate_weight (nth l ws 0)) (seq 0 m))) V) = 1).
        { rewrite <- RV at 1. f_equal. apply vec_ext; [autorewrite with vlen; unfold V; rewrite !map_length, seq_length; lia|]. intros l. autorewrite with vnth. ring. }
        refine (eq_ind _ (Un_cv _) _ _ Z). apply (cv_rsum m).
        - intros j. autorewrite with vlen. unfold f. rewrite !map_length, seq_length. lia.
        - autorewrite with vlen. unfold V. rewrite !map_length, seq_length. lia.
        - apply cvv_add; [apply cvv_scale; [exact CK|exact CI]|exact CV]. }
      apply (cv_split (fun j => nth k (ws_ j) 0 < 1) (fun j => (if Nat.eq_dec i k then nth k (ws_ j) 0 else inflate_weight (nth i (ws_ j) 0) * (1 - nth k (ws_ j) 0)) /
         rsum (vadd (vscale (1 - nth k (ws_ j) 0) (map inflate_weight (f j))) (map (fun l => if Nat.eq_dec l k then nth k (ws_ j) 0 else 0) (seq 0 m)))) (fun _ => nth i (shared ws) 0)).
      * intros j. destruct (Rlt_le_dec (nth k (ws_ j) 0) 1); [left; auto|right; lra].
      * replace (nth i (shared ws) 0) with ((if Nat.eq_dec i k then 1 else inflate_weight (nth i ws 0) * 0) / 1).
        -- apply cv_div; [|exact CD|lra]. destruct (Nat.eq_dec i k) as [|Z]; [rewrite <- K1; apply C|]. apply cv_mul; [apply cv_inflate; auto; apply C|auto].
        -- rewrite EL. destruct (Nat.eq_dec i k); field.
      * apply cv_const.
      * exists 0%nat. intros j _. split; intros Q; [rewrite (proj2 (Rltb_true _ _)) by auto; auto|rewrite (proj2 (Rltb_false _ _)) by lra; auto].
    + assert (exists M, forall j, (M <= j)%nat -> rsum (ws_ j) < 1 -> rsum ws = 1) as (M & HM).
      { destruct (Req_dec (rsum ws) 1) as [T|T]; [exists 0%nat; auto|]. destruct (cv_lt _ _ _ _ (cv_const 1) CS) as (M & HM); [lra|]. exists M. intros j Hj Q. specialize (HM j Hj). cbv beta in HM. lra. }
      exists (Nat.max N M). intros j Hj. split; intros Q.
      * rewrite (HM j ltac:(lia) Q). destruct (Rlt_dec 1 (1 + 1)); [|lra]. destruct (Req_EM_T 1 1); [|lra]. destruct (D j) as [_ [(_ & ->)|[(X & _)|(X & _)]]]; auto; lra.
      * destruct (D j) as [_ [(X & _)|[(_ & (k' & X) & ->)|(_ & X & PP & ->)]]]; [lra| |].
        -- assert (k' = k) as -> by (destruct (Nat.eq_dec k' k) as [|Z]; auto; specialize (BO j k' ltac:(lia) Z); lra). rewrite (proj2 (Rltb_false _ _)) by auto. rewrite EL.
           destruct (Nat.eq_dec i k) as [->|Z]; [rewrite (proj2 (Rleb_true _ _)) by lra|rewrite (proj2 (Rleb_false _ _)) by (apply BO; auto; lia)]; auto.
        -- pose proof (X k) as Xk. rewrite (proj2 (Rltb_true _ _)) by auto.
           set (c := 1 - nth k (ws_ j) 0). assert (Hc : c <> 0) by (unfold c; lra).
           assert (W : vadd (vscale c (map inflate_weight (f j))) (map (fun l => if Nat.eq_dec l k then nth k (ws_ j) 0 else 0) (seq 0 m)) = vscale c (map inflate_weight (ws_ j))).
           { apply vec_ext; [autorewrite with vlen; unfold f; rewrite !map_length, seq_length, L_; lia|]. intros l. autorewrite with vnth. rewrite !nth_map_0 by (unfold inflate_weight; field).
             destruct (Nat.lt_ge_cases l m) as [Z|Z].
             - rewrite (nth_seq_map (fun l => if Nat.eq_dec l k then nth k (ws_ j) 0 else 0)) by auto. cbn [plus]. rewrite NF by auto.
               destruct (Nat.eq_dec l k) as [->|]; [|ring]. unfold c, inflate_weight. field. lra.
             - rewrite !nth_overflow; [unfold inflate_weight; field| | |]; unfold f; rewrite ?map_length, ?seq_length, ?L_; auto. }
           rewrite W. unfold vscale. rewrite rsum_map_scale. rewrite map_id.
           destruct (Nat.eq_dec i k) as [->|Z]; [|field; split; auto; lra]. unfold inflate_weight at 1. unfold c. unfold c in Hc. field. repeat split; lra.
  - (* all below one, more than one in total *)
    assert (S2 : 1 < rsum ws) by (specialize (S B1); lra).
    destruct (all_below m ws_ ws L_ C B1) as (N & HN). destruct (cv_lt _ _ _ _ (cv_const 1) CS S2) as (M & HM).
    intros i. rewrite E1. apply cv_eventually with (fun j => inflate_weight (nth i (ws_ j) 0) / rsum (map inflate_weight (ws_ j))) (Nat.max N M).
    + intros j Hj. assert (1 < rsum (ws_ j)) by (apply HM; lia). destruct (D j) as [_ [(X & _)|[(_ & (k' & X) & _)|(_ & _ & _ & ->)]]]; auto; [lra|]. specialize (HN j k' ltac:(lia)). lra.
    + apply cv_div; [apply cv_inflate; [apply C|apply B1]| |lra]. apply (cv_rsum m).
      * intros j. rewrite map_length. apply L_.
      * rewrite map_length. auto.
      * intros l. rewrite nth_map_0 by (unfold inflate_weight; field). apply cv_ext with (fun j => inflate_weight (nth l (ws_ j) 0)); [intros j; rewrite nth_map_0; auto; unfold inflate_weight; field|].
        apply cv_inflate; [apply C|apply B1].
Qed.

Definition dying (j : nat) : R := / (INR j + 1).
Lemma dying_cv : Un_cv dying 0.
Proof. apply (cv_ext (fun j => pos (RinvN j))); [reflexivity|]. exact RinvN_cv. Qed.
Lemma dying_range j : 0 < dying j <= 1.
Proof.
  unfold dying. pose proof (pos_INR j). split; [apply Rinv_0_lt_compat; lra|]. rewrite <- Rinv_1. apply Rinv_le_contravar; lra.
Qed.
(** They jump where the total of the weights reaches one, and where two weights reach one together. *)
Theorem C170_shares_refuted :
  (exists ws_ ws out_ out t_ t, (forall j, length (ws_ j) = 2%nat /\ nonneg (ws_ j) /\ (forall i, nth i (ws_ j) 0 < 1)) /\
     (forall i, Un_cv (fun j => nth i (ws_ j) 0) (nth i ws 0)) /\ (forall i, nth i ws 0 < 1) /\ rsum ws = 1 /\
     (forall j, get_limited_weights_to_max_sum (ws_ j) = Ok (out_ j, t_ j)) /\ get_limited_weights_to_max_sum ws = Ok (out, t) /\
     ~ Un_cv (fun j => nth 0 (out_ j) 0) (nth 0 out 0)) /\
  (exists ws_ ws out_ out t_ t, (forall j, length (ws_ j) = 2%nat /\ nonneg (ws_ j) /\ 1 < rsum (ws_ j)) /\
     (forall i, Un_cv (fun j => nth i (ws_ j) 0) (nth i ws 0)) /\
     (forall j, get_limited_weights_to_max_sum (ws_ j) = Ok (out_ j, t_ j)) /\ get_limited_weights_to_max_sum ws = Ok (out, t) /\
     ~ Un_cv (fun j => nth 0 (out_ j) 0) (nth 0 out 0)).
Proof.
  assert (NJ : forall a b, a <> b -> ~ Un_cv (fun _ => a) b) by (intros a b N C; apply N; exact (UL_sequence _ _ _ (cv_const a) C)).
  split.
  - set (ws_ := fun j => [9 / 10; 1 / 10 * (1 - dying j)]). set (ws := [9 / 10; 1 / 10]).
    assert (NN : forall j, nonneg (ws_ j)) by (intros j x [<-|[<-|[]]]; pose proof (dying_range j); lra).
    assert (Hw : nonneg ws) by (intros x [<-|[<-|[]]]; lra).
    destruct (shared_cases ws Hw) as [E K].
    exists ws_, ws, (fun j => shared (ws_ j)), (shared ws), (fun j => Rmin 1 (rsum (ws_ j))), (Rmin 1 (rsum ws)).
    split. { intros j. split; auto. split; auto. intros [|[|i]]; cbn; [lra|pose proof (dying_range j); lra|destruct i; lra]. }
    split. { intros [|[|i]]; cbn; try apply cv_const.
      assert (Z : Un_cv (fun j => 1 / 10 * (1 - dying j)) (1 / 10 * (1 - 0))) by (apply cv_mul; [apply cv_const|]; apply cv_sub; [apply cv_const|apply dying_cv]). rewrite Rminus_0_r, Rmult_1_r in Z. exact Z. }
    split. { intros [|[|i]]; cbn; try lra. destruct i; lra. }
    split; [cbn; lra|]. split; [intros j; apply (shared_cases (ws_ j) (NN j))|]. split; [exact E|].
    intros C. assert (Q : Un_cv (fun _ => 9 / 10) (nth 0 (shared ws) 0)).
    { apply cv_ext with (fun j => nth 0 (shared (ws_ j)) 0); auto. intros j. pose proof (dying_range j).
      destruct (shared_cases (ws_ j) (NN j)) as [_ [(_ & ->)|[(X & _)|(X & _)]]]; auto; cbn in X; lra. }
    revert Q. apply NJ. destruct K as [(X & _)|[(_ & (k & X) & _)|(_ & _ & _ & ->)]]; [cbn in X; lra|destruct k as [|[|k]]; cbn in X; try lra; destruct k; lra|].
    cbn. unfold inflate_weight. intros X. assert (Y : (1 / (1 - 9 / 10) - 1) / (1 / (1 - 9 / 10) - 1 + (1 / (1 - 1 / 10) - 1 + 0)) = 81 / 82) by field. rewrite Y in X. lra.
  - set (ws_ := fun j => [1 - dying j / 3; 1 - dying j / 3]). set (ws := [1; 1]).
    assert (NN : forall j, nonneg (ws_ j)) by (intros j x [<-|[<-|[]]]; pose proof (dying_range j); lra).
    assert (Hw : nonneg ws) by (intros x [<-|[<-|[]]]; lra).
    destruct (shared_cases ws Hw) as [E K].
    exists ws_, ws, (fun j => shared (ws_ j)), (shared ws), (fun j => Rmin 1 (rsum (ws_ j))), (Rmin 1 (rsum ws)).
    split. { intros j. split; auto. split; auto. cbn. pose proof (dying_range j); lra. }
    split. { assert (G : Un_cv (fun j => 1 - dying j / 3) 1).
      { assert (Z : Un_cv (fun j => 1 - dying j / 3) (1 - 0 / 3)) by (apply cv_sub; [apply cv_const|]; apply cv_div; [apply dying_cv|apply cv_const|lra]).
        replace (1 - 0 / 3) with 1 in Z by field. exact Z. }
      intros [|[|i]]; cbn; auto. destruct i; apply cv_const. }
    split; [intros j; apply (shared_cases (ws_ j) (NN j))|]. split; [exact E|].
    intros C. assert (Q : Un_cv (fun _ => 1 / 2) (nth 0 (shared ws) 0)).
    { apply cv_ext with (fun j => nth 0 (shared (ws_ j)) 0); auto. intros j. pose proof (dying_range j).
      destruct (shared_cases (ws_ j) (NN j)) as [_ [(X & _)|[(_ & (k & X) & _)|(_ & _ & X & ->)]]]; [cbn in X; lra|destruct k as [|[|k]]; cbn in X; try lra; destruct k; lra|].
      cbn in *. unfold inflate_weight in *. field. lra. }
    revert Q. apply NJ. destruct K as [(X & _)|[(_ & _ & ->)|(_ & X & _)]]; [cbn in X; lra| |specialize (X 0%nat); cbn in X; lra].
    cbn. rewrite (proj2 (Rleb_true 1 1)) by lra. lra.
Qed.

(** ** Concrete cases *)
(** A velocity which swings onto the tangent of a wall straight ahead. *)
Example C170_tangent_case : forall pick, picks 2 pick ->
  exists t_ t, (forall j, get_projected_tangent pick [- sin (dying j); cos (dying j)] [1; 0] [-1; 0] (PI / 2) = Ok (t_ j)) /\
    get_projected_tangent pick [0; 1] [1; 0] [-1; 0] (PI / 2) = Ok t /\ forall i, Un_cv (fun j => nth i (t_ j) 0) (nth i t 0).
Proof.
  intros pick P. pose proof PI_RGT_0.
  destruct (C170_tangent 2 pick (fun j => [- sin (dying j); cos (dying j)]) (fun _ => [1; 0]) (fun _ => [-1; 0]) (fun _ => PI / 2) [0; 1] [1; 0] [-1; 0] (PI / 2))
    as (t_ & t & A & B & _ & _ & _ & C); auto; try (unfold unitv; split; cbn; auto; ring); try lra.
  - intros j. split; auto. unfold unitv. cbn. pose proof (sin2_cos2 (dying j)) as Q. unfold Rsqr in Q. lra.
  - intros [|[|i]]; cbn [nth].
    + assert (Z : Un_cv (fun j => - sin (dying j)) (- sin 0)) by apply cv_opp, cv_sin, dying_cv. rewrite sin_0, Ropp_0 in Z. exact Z.
    + rewrite <- cos_0. apply cv_cos, dying_cv.
    + destruct i; apply cv_const.
  - intros i. apply cv_const.
  - intros i. apply cv_const.
  - apply cv_const.
  - intros _. lra.
  - cbn. lra.
  - intros _ X. injection X. lra.
  - intros _ X. cbn in X. injection X. lra.
  - intros _. rewrite cos_PI2. cbn. lra.
  - eauto.
Qed.
(** A turn by a quarter carries the converging velocities to the turned limit. *)
Example C170_turn_case : exists rot_ rot, (forall j, from_directions [1; 0] [0; 1 + dying j] = Ok (rot_ j)) /\ from_directions [1; 0] [0; 1] = Ok rot /\
  rotate rot [1; 2] 1 = [-2; 1] /\ Un_cv (fun j => nth 0 (rotate (rot_ j) [1 + dying j; 2] 1) 0) (-2).
Proof.
  assert (NC : allclose [1; 0] [0; 1] = false).
  { simpl. apply andb_false_iff. left. unfold isclose. apply Rleb_false. rewrite Rminus_0_r, Rabs_R0, Rabs_R1. simpl. lra. }
  assert (NY : forall y, 0 < y -> norm [0; y] = y).
  { intros y Hy. unfold norm. cbn. replace (0 * 0 + (y * y + 0)) with (y * y) by ring. apply sqrt_square. lra. }
  assert (DY : forall y, 0 < y -> direction [0; y] = [0; 1]).
  { intros y Hy. unfold direction, vdiv, vscale. rewrite NY by auto. cbn. f_equal; [ring|]. f_equal. field. lra. }
  assert (N1 : norm [1; 0] = 1) by (unfold norm; cbn; replace (1 * 1 + (0 * 0 + 0)) with 1 by ring; apply sqrt_1).
  assert (D1 : direction [1; 0] = [1; 0]) by (unfold direction, vdiv, vscale; rewrite N1; cbn; f_equal; [field|f_equal; field]).
  assert (PJ : forall j, 0 < 1 + dying j) by (intros j; pose proof (dying_range j); lra).
  destruct (C170_turn 2 (fun _ => [1; 0]) (fun j => [0; 1 + dying j]) (fun j => [1 + dying j; 2]) [1; 0] [0; 1] [1; 2]) as (rot_ & rot & A & B & _ & _ & _ & C); auto.
  - intros j. rewrite D1, DY, N1, NY by auto. pose proof (PJ j). repeat split; try lra; [cbn; lra|right; auto].
  - lra.
  - rewrite NY; lra.
  - rewrite D1, DY by lra. cbn. lra.
  - rewrite D1, DY by lra. right. auto.
  - intros i. apply cv_const.
  - intros [|[|i]]; cbn [nth]; [apply cv_const| |destruct i; apply cv_const]. assert (Z : Un_cv (fun j => 1 + dying j) (1 + 0)) by (apply cv_add; [apply cv_const|apply dying_cv]). rewrite Rplus_0_r in Z. exact Z.
  - intros [|[|i]]; cbn [nth]; [|apply cv_const|destruct i; apply cv_const]. assert (Z : Un_cv (fun j => 1 + dying j) (1 + 0)) by (apply cv_add; [apply cv_const|apply dying_cv]). rewrite Rplus_0_r in Z. exact Z.
  - exists rot_, rot. assert (E : rotate rot [1; 2] 1 = [-2; 1]).
    { destruct (turn_formula 2 [1; 0] [0; 1] [1; 2] rot) as (F & _); auto; rewrite ?D1, ?DY, ?N1, ?NY by lra; try lra; [cbn; lra|right; auto|].
      rewrite F, D1, DY by lra. unfold carried. cbn. f_equal; [field|f_equal; field]. }
    split; auto. split; auto. split; auto. specialize (C 0%nat). rewrite E in C. exact C.
Qed.
(** Three weights, one of which reaches one: the shares converge to the single one. *)
Example C170_shares_case : exists out_ t_, (forall j, get_limited_weights_to_max_sum [1 - dying j; 1 / 2; 1 / 4] = Ok (out_ j, t_ j)) /\
  Un_cv (fun j => nth 0 (out_ j) 0) 1 /\ Un_cv (fun j => nth 1 (out_ j) 0) 0 /\ Un_cv (fun j => nth 2 (out_ j) 0) 0.
Proof.
  destruct (C170_shares 3 (fun j => [1 - dying j; 1 / 2; 1 / 4]) [1; 1 / 2; 1 / 4]) as (out_ & out & t_ & t & A & B & C & _); auto.
  - intros j. split; auto. intros x [<-|[<-|[<-|[]]]]; pose proof (dying_range j); lra.
  - intros [|[|[|i]]]; cbn [nth]; try apply cv_const.
    assert (Z : Un_cv (fun j => 1 - dying j) (1 - 0)) by (apply cv_sub; [apply cv_const|apply dying_cv]). rewrite Rminus_0_r in Z. exact Z.
  - intros [|[|[|k]]] [|[|[|l]]]; cbn; try lra; auto; try (destruct k; lra); try (destruct l; lra).
  - intros X. specialize (X 0%nat). cbn in X. lra.
  - exists out_, t_. rewrite limited_saturated in B; [|cbn; lra|exists 1; split; [left; auto|lra]]. injection B as <- <-.
    split; auto. pose proof (C 0%nat) as C0. pose proof (C 1%nat) as C1. pose proof (C 2%nat) as C2. cbn [nth map] in C0, C1, C2.
    rewrite (proj2 (Rleb_true 1 1)) in C0 by lra. rewrite (proj2 (Rleb_false 1 (1 / 2))) in C1 by lra. rewrite (proj2 (Rleb_false 1 (1 / 4))) in C2 by lra. auto.
Qed.
Print Assumptions C170_tangent.
Print Assumptions C170_turn.
Print Assumptions C170_shares.
Print Assumptions C170_shares_refuted.
