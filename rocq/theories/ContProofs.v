(** Convergence of sequences of vectors and of the rotations of the reductions. *)
Require Import Reals List Lra Lia Bool.
From Verif Require Import Base Vec Angle RotModel Spec RotProofs SeqProofs.
Import ListNotations.
Open Scope R_scope.

(** Componentwise convergence. *)
Definition cvv (u : nat -> vec) (v : vec) : Prop :=
  forall i, Un_cv (fun j => nth i (u j) 0) (nth i v 0).

Lemma cv_const c : Un_cv (fun _ => c) c.
Proof. intros e He. exists 0%nat. intros. rewrite R_dist_eq. auto. Qed.
Lemma cv_ext (f g : nat -> R) l : (forall j, f j = g j) -> Un_cv f l -> Un_cv g l.
Proof. intros E H e He. destruct (H e He) as (N & HN). exists N. intros j Hj. rewrite <- E. auto. Qed.
Lemma cv_eventually (f g : nat -> R) l N : (forall j, (N <= j)%nat -> f j = g j) -> Un_cv f l -> Un_cv g l.
Proof.
  intros E H e He. destruct (H e He) as (M & HM). exists (max N M). intros j Hj.
  rewrite <- E by lia. apply HM. lia.
Qed.
Lemma cv_add f g a b : Un_cv f a -> Un_cv g b -> Un_cv (fun j => f j + g j) (a + b).
Proof. apply CV_plus. Qed.
Lemma cv_mul f g a b : Un_cv f a -> Un_cv g b -> Un_cv (fun j => f j * g j) (a * b).
Proof. apply CV_mult. Qed.
Lemma cv_sub f g a b : Un_cv f a -> Un_cv g b -> Un_cv (fun j => f j - g j) (a - b).
Proof. apply CV_minus. Qed.
Lemma cv_comp (h : R -> R) f a : continuity_pt h a -> Un_cv f a -> Un_cv (fun j => h (f j)) (h a).
Proof. intros C H. apply continuity_seq; auto. Qed.
(** A product of a sequence which vanishes with a bounded one vanishes. *)
Lemma cv_bounded f g M : Un_cv f 0 -> (forall j, Rabs (g j) <= M) -> Un_cv (fun j => f j * g j) 0.
Proof.
  intros H B e He. assert (M0 : 0 <= M) by (eapply Rle_trans; [apply Rabs_pos|apply (B 0%nat)]).
  destruct (H (e / (M + 1))) as (N & HN); [apply Rdiv_lt_0_compat; lra|].
  exists N. intros j Hj. specialize (HN j Hj). unfold R_dist in *. rewrite Rminus_0_r in *. rewrite Rabs_mult.
  specialize (B j). pose proof (Rabs_pos (g j)).
  apply Rle_lt_trans with (Rabs (f j) * (M + 1)); [apply Rmult_le_compat_l; [apply Rabs_pos|lra]|].
  apply Rmult_lt_compat_r with (r := M + 1) in HN; [|lra]. unfold Rdiv in HN.
  rewrite Rmult_assoc, Rinv_l, Rmult_1_r in HN by lra. exact HN.
Qed.
Lemma cv_nonzero f a : Un_cv f a -> a <> 0 -> exists N, forall j, (N <= j)%nat -> f j <> 0.
Proof.
  intros H NZ. destruct (H (Rabs a)) as (N & HN); [apply Rabs_pos_lt; auto|].
  exists N. intros j Hj Z. specialize (HN j Hj). unfold R_dist in HN. rewrite Z in HN.
  replace (0 - a) with (- a) in HN by ring. rewrite Rabs_Ropp in HN. lra.
Qed.

Lemma cvv_const v : cvv (fun _ => v) v.
Proof. intros i. apply cv_const. Qed.
Lemma cvv_eventually (f g : nat -> vec) l N : (forall j, (N <= j)%nat -> f j = g j) -> cvv f l -> cvv g l.
Proof. intros E H i. apply cv_eventually with (fun j => nth i (f j) 0) N; auto. intros j Hj. rewrite E; auto. Qed.
Lemma cvv_add f g u v : cvv f u -> cvv g v -> cvv (fun j => vadd (f j) (g j)) (vadd u v).
Proof.
  intros A B i. autorewrite with vnth. eapply cv_ext; [|apply cv_add; [apply A|apply B]].
  intros j. cbv beta. autorewrite with vnth. reflexivity.
Qed.
Lemma cvv_scale c f a u : Un_cv c a -> cvv f u -> cvv (fun j => vscale (c j) (f j)) (vscale a u).
Proof.
  intros A B i. autorewrite with vnth. eapply cv_ext; [|apply cv_mul; [apply A|apply B]].
  intros j. cbv beta. autorewrite with vnth. reflexivity.
Qed.
Lemma dot_hd_tl (u v : vec) : dot u v = nth 0 u 0 * nth 0 v 0 + dot (tl u) (tl v).
Proof. destruct u, v; cbn [dot nth tl]; rewrite ?dot_nil_r; cbn [dot]; try ring. Qed.
Lemma cv_dot n : forall f g u v, (forall j, (length (f j) <= n)%nat) -> (length u <= n)%nat ->
  cvv f u -> cvv g v -> Un_cv (fun j => dot (f j) (g j)) (dot u v).
Proof.
  induction n; intros f g u v Lf Lu A B.
  - destruct u; [|simpl in Lu; lia]. apply cv_ext with (fun _ => 0); [|apply cv_const].
    intros j. specialize (Lf j). destruct (f j); [reflexivity|simpl in Lf; lia].
  - rewrite dot_hd_tl. eapply cv_ext; [intros j; symmetry; apply dot_hd_tl|].
    apply cv_add.
    + apply cv_mul; [apply (A 0%nat)|apply (B 0%nat)].
    + assert (T : forall w : vec, forall i, nth i (tl w) 0 = nth (S i) w 0) by (intros [|a w] [|i]; reflexivity).
      apply IHn.
      * intros j. specialize (Lf j). destruct (f j); simpl in *; lia.
      * destruct u; simpl in *; lia.
      * intros i. rewrite T. eapply cv_ext; [|apply (A (S i))]. intros j. cbv beta. rewrite T. reflexivity.
      * intros i. rewrite T. eapply cv_ext; [|apply (B (S i))]. intros j. cbv beta. rewrite T. reflexivity.
Qed.
Lemma cv_norm n f u : (forall j, (length (f j) <= n)%nat) -> (length u <= n)%nat ->
  cvv f u -> Un_cv (fun j => norm (f j)) (norm u).
Proof.
  intros Lf Lu A. unfold norm. apply (cv_comp sqrt (fun j => dot (f j) (f j))).
  - apply sqrt_continuity_pt_alt || (apply continuity_pt_sqrt; apply dot_self_nonneg).
  - apply (cv_dot n); auto.
Qed.

(** *** The cardinal sine *)
Definition sinc (x : R) : R := if Req_EM_T x 0 then 1 else sin x / x.
Definition cosc (x : R) : R := - (1 / 2) * (sinc (x / 2) * sinc (x / 2)).
Lemma sinc_mul x : sinc x * x = sin x.
Proof. unfold sinc. destruct (Req_EM_T x 0) as [->|N]; [rewrite sin_0; ring|field; auto]. Qed.
Lemma cosc_mul x : cosc x * (x * x) = cos x - 1.
Proof.
  unfold cosc. replace (- (1 / 2) * (sinc (x / 2) * sinc (x / 2)) * (x * x))
    with (- 2 * (sinc (x / 2) * (x / 2)) * (sinc (x / 2) * (x / 2))) by field.
  rewrite sinc_mul. replace (cos x) with (cos (2 * (x / 2))) by (f_equal; field).
  rewrite cos_2a_sin. ring.
Qed.
Lemma sinc_continuous x : continuity_pt sinc x.
Proof.
  destruct (Req_EM_T x 0) as [->|N].
  - intros e He. destruct (derivable_pt_lim_sin 0 e He) as (d & Hd).
    exists d. split; [apply cond_pos|]. intros y [_ Hy]. simpl in *. unfold R_dist in *.
    rewrite Rminus_0_r in Hy. unfold sinc. destruct (Req_EM_T 0 0) as [_|]; [|lra].
    destruct (Req_EM_T y 0) as [->|Ny]; [rewrite Rminus_eq_0, Rabs_R0; auto|].
    specialize (Hd y Ny Hy). rewrite Rplus_0_l, sin_0, cos_0, Rminus_0_r in Hd. exact Hd.
  - assert (C : continuity_pt (fun y => sin y / y) x).
    { apply (continuity_pt_div sin (fun y => y)); [apply continuity_sin|apply derivable_continuous_pt, derivable_pt_id|auto]. }
    intros e He. destruct (C e He) as (d & Hd & Hc). exists (Rmin d (Rabs x)).
    split; [apply Rmin_glb_lt; [auto|apply Rabs_pos_lt; auto]|]. intros y [Hy1 Hy2]. simpl in *.
    unfold R_dist in *. assert (Ny : y <> 0).
    { intros ->. pose proof (Rmin_r d (Rabs x)). replace (0 - x) with (- x) in Hy2 by ring.
      rewrite Rabs_Ropp in Hy2. lra. }
    unfold sinc. destruct (Req_EM_T y 0); [contradiction|]. destruct (Req_EM_T x 0); [contradiction|].
    apply Hc. split; auto. pose proof (Rmin_l d (Rabs x)). lra.
Qed.
Lemma cv_sinc f a : Un_cv f a -> Un_cv (fun j => sinc (f j)) (sinc a).
Proof. apply cv_comp. apply sinc_continuous. Qed.
Lemma cv_cosc f a : Un_cv f a -> Un_cv (fun j => cosc (f j)) (cosc a).
Proof.
  intros H. unfold cosc. apply cv_mul; [apply cv_const|].
  assert (G : Un_cv (fun j => f j / 2) (a / 2)) by (unfold Rdiv; apply cv_mul; [auto|apply cv_const]).
  apply cv_mul; apply cv_sinc; auto.
Qed.
Lemma cv_cos f a : Un_cv f a -> Un_cv (fun j => cos (f j)) (cos a).
Proof. apply cv_comp. apply continuity_cos. Qed.
Lemma cv_sin f a : Un_cv f a -> Un_cv (fun j => sin (f j)) (sin a).
Proof. apply cv_comp. apply continuity_sin. Qed.

(** *** Rotations *)
Section Rot.
Variable n : nat.
Definition lenn (f : nat -> vec) : Prop := forall j, length (f j) = n.

Lemma cvv_plane_rot d b0 b1 a d' b0' b1' a' :
  lenn b0 -> lenn b1 -> length b0' = n -> length b1' = n ->
  cvv d d' -> cvv b0 b0' -> cvv b1 b1' -> Un_cv a a' ->
  cvv (fun j => plane_rot (d j) (b0 j) (b1 j) (a j)) (plane_rot d' b0' b1' a').
Proof.
  intros L0 L1 M0 M1 D B0 B1 A. unfold plane_rot.
  assert (D0 : Un_cv (fun j => dot (b0 j) (d j)) (dot b0' d')).
  { apply (cv_dot n); auto; [intros j; rewrite L0; lia|lia]. }
  assert (D1 : Un_cv (fun j => dot (b1 j) (d j)) (dot b1' d')).
  { apply (cv_dot n); auto; [intros j; rewrite L1; lia|lia]. }
  assert (C : Un_cv (fun j => cos (a j) - 1) (cos a' - 1)) by (apply cv_sub; [apply cv_cos; auto|apply cv_const]).
  assert (S : Un_cv (fun j => sin (a j)) (sin a')) by (apply cv_sin; auto).
  apply cvv_add; [auto|]. apply cvv_add; apply cvv_scale; auto.
  - apply cv_sub; apply cv_mul; auto.
  - apply cv_add; apply cv_mul; auto.
Qed.

(** The rotation by the angle |s| in the plane of E and s, also for s = 0. *)
Definition turn_by (E s d : vec) : vec :=
  vadd d (vadd
    (vscale (dot E d * (cos (norm s) - 1) - dot s d * sinc (norm s)) E)
    (vscale (dot E d * sinc (norm s) + dot s d * cosc (norm s)) s)).
Lemma turn_by_plane E s d : norm s <> 0 -> turn_by E s d = plane_rot d E (vdiv s (norm s)) (norm s).
Proof.
  intros N. unfold turn_by, plane_rot, vdiv. rewrite dot_vscale_l.
  f_equal. f_equal.
  - f_equal. rewrite <- (sinc_mul (norm s)). field. auto.
  - pose proof (sinc_mul (norm s)) as S. pose proof (cosc_mul (norm s)) as C.
    apply vec_ext; [autorewrite with vlen; auto|]. intros i. autorewrite with vnth.
    rewrite <- S, <- C. field. auto.
Qed.
Lemma turn_by_zero E s d : length E = n -> length s = n -> length d = n -> norm s = 0 -> turn_by E s d = d.
Proof.
  intros LE Ls Ld Z. apply norm_zero_iff in Z as Zs. unfold turn_by. rewrite Z, cos_0, Zs.
  rewrite dot_vzero_l. vext. rewrite ?nth_vzero. ring.
Qed.
Lemma cvv_turn_by E s d E' s' d' : lenn E -> lenn s -> length E' = n -> length s' = n ->
  cvv E E' -> cvv s s' -> cvv d d' -> cvv (fun j => turn_by (E j) (s j) (d j)) (turn_by E' s' d').
Proof.
  intros LE Ls ME Ms CE Cs Cd. unfold turn_by.
  assert (NS : Un_cv (fun j => norm (s j)) (norm s')) by (apply (cv_norm n); auto; [intros j; rewrite Ls; lia|lia]).
  assert (D0 : Un_cv (fun j => dot (E j) (d j)) (dot E' d')).
  { apply (cv_dot n); auto; [intros j; rewrite LE; lia|lia]. }
  assert (D1 : Un_cv (fun j => dot (s j) (d j)) (dot s' d')).
  { apply (cv_dot n); auto; [intros j; rewrite Ls; lia|lia]. }
  assert (C : Un_cv (fun j => cos (norm (s j)) - 1) (cos (norm s') - 1)) by (apply cv_sub; [apply cv_cos; auto|apply cv_const]).
  pose proof (cv_sinc _ _ NS) as S1. pose proof (cv_cosc _ _ NS) as S2.
  apply cvv_add; [auto|]. apply cvv_add; apply cvv_scale; auto.
  - apply cv_sub; apply cv_mul; auto.
  - apply cv_add; apply cv_mul; auto.
Qed.
End Rot.
