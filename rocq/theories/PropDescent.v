(** C137-C139: the search of a common point of obstacles, weights of the deviation, averaged normal. *)
Require Import Reals List Lia Lra Bool.
From Verif Require Import Base Vec Pow Spec RotModel TreeModel SeqProofs PropDynamics AvoidModel DescentModel.
Import ListNotations.
Open Scope R_scope.

(** ** C137 *)
Lemma pull_two n o1 o2 p1 p2 f1 f2 x s1 s2 : length (sh_normal o1 x) = n -> length (sh_normal o2 x) = n ->
  fpow (sh_gamma o1 x) p1 = Ok s1 -> fpow (sh_gamma o2 x) p2 = Ok s2 ->
  pull n [o1; o2] [p1; p2] [f1; f2] x = Ok (vadd (vscale (s1 * f1) (sh_normal o1 x)) (vscale (s2 * f2) (sh_normal o2 x))).
Proof.
  intros L1 L2 E1 E2. unfold pull. cbn [length seq combine foldM]. unfold add_pull. cbn [nth_error].
  rewrite E1. cbn [bind]. rewrite E2. cbn [bind]. f_equal. vext. ring.
Qed.

(** A run of the search: positions, each one step along the pull behind the previous one. *)
Definition search_run (n : nat) (obs : list shape) (powers factors : list R) (h err : R) (path : nat -> vec) (m : nat) : Prop :=
  forall k, (k < m)%nat -> exists s, pull n obs powers factors (path k) = Ok s /\ err <= norm s /\
    path (S k) = vadd (path k) (vscale h s).
Lemma descend_run n obs powers factors h err : forall it x y, descend n obs powers factors h err it x = Ok y ->
  exists path m, (m <= it)%nat /\ path 0%nat = x /\ path m = y /\ search_run n obs powers factors h err path m /\
    (m = it \/ exists s, pull n obs powers factors y = Ok s /\ norm s < err).
Proof.
  induction it as [|it IH]; intros x y H; cbn [descend] in H.
  - injection H as <-. exists (fun _ => x), 0%nat. split; [lia|]. split; auto. split; auto. split; [intros k Hk; lia|auto].
  - destruct (pull n obs powers factors x) as [s|] eqn:Es; [|discriminate]. cbn [bind] in H.
    destruct (Rltb (norm s) err) eqn:E.
    + apply Rltb_true in E. injection H as <-. exists (fun _ => x), 0%nat. split; [lia|]. split; auto. split; auto.
      split; [intros k Hk; lia|]. right. exists s. auto.
    + apply Rltb_false in E. destruct (IH _ _ H) as (path & m & Hm & P0 & Pm & Rn & Fin).
      exists (fun k => match k with O => x | S k => path k end), (S m). split; [lia|]. split; auto. split; auto. split.
      * intros [|k] Hk; [exists s; split; auto; split; auto|apply Rn; lia].
      * destruct Fin as [->|F]; auto.
Qed.

(** The search follows the pull from the middle of the two centers and ends when the pull is short or
    the iterations are used up; at a point with a short pull, the powers of the two gamma values
    differ by less than the tolerance. *)
Theorem C137_search : forall n o1 o2 f1 f2 p1 p2 it h err x,
  gradient_descent n [o1; o2] (Some [f1; f2]) (Some [p1; p2]) it h err = Ok x ->
  exists path m, (m <= it)%nat /\ path 0%nat = vscale (/ 2) (vadd (sh_center o1) (sh_center o2)) /\ path m = x /\
    search_run n [o1; o2] [p1; p2] [f1; f2] h err path m /\
    (m = it \/
     (Rabs f1 = 1 -> Rabs f2 = 1 -> length (sh_normal o1 x) = n -> length (sh_normal o2 x) = n ->
      unitv (sh_normal o1 x) -> unitv (sh_normal o2 x) -> 0 < sh_gamma o1 x -> 0 < sh_gamma o2 x ->
      Rabs (Rpower (sh_gamma o1 x) p1 - Rpower (sh_gamma o2 x) p2) < err)).
Proof.
  intros n o1 o2 f1 f2 p1 p2 it h err x H. unfold gradient_descent in H.
  destruct (descend_run _ _ _ _ _ _ _ _ _ H) as (path & m & Hm & P0 & Pm & Rn & Fin).
  exists path, m. split; auto. split; auto. split; auto. split; auto. destruct Fin as [->|(s & Es & Ns)]; auto. right.
  intros A1 A2 L1 L2 U1 U2 G1 G2.
  rewrite (pull_two n o1 o2 p1 p2 f1 f2 x (Rpower (sh_gamma o1 x) p1) (Rpower (sh_gamma o2 x) p2)) in Es by (auto; apply fpow_pos; auto).
  injection Es as Es. pose proof (Rpower_pos (sh_gamma o1 x) p1) as Q1. pose proof (Rpower_pos (sh_gamma o2 x) p2) as Q2.
  set (a := Rpower (sh_gamma o1 x) p1) in *. set (b := Rpower (sh_gamma o2 x) p2) in *.
  assert (Na : norm (vscale (a * f1) (sh_normal o1 x)) = a).
  { rewrite norm_vscale, (proj1 (unit_norm _) U1), Rabs_mult, A1, Rabs_right by lra. ring. }
  assert (Nb : norm (vscale (b * f2) (sh_normal o2 x)) = b).
  { rewrite norm_vscale, (proj1 (unit_norm _) U2), Rabs_mult, A2, Rabs_right by lra. ring. }
  assert (T1 : a <= norm s + b).
  { rewrite <- Na at 1. rewrite <- Nb. replace (vscale (a * f1) (sh_normal o1 x)) with (vadd s (vscale (-1) (vscale (b * f2) (sh_normal o2 x)))).
    - eapply Rle_trans; [apply norm_triangle|]. rewrite (norm_vscale (-1)), Rabs_left by lra. lra.
    - rewrite <- Es. vext. ring. }
  assert (T2 : b <= norm s + a).
  { rewrite <- Nb at 1. rewrite <- Na. replace (vscale (b * f2) (sh_normal o2 x)) with (vadd s (vscale (-1) (vscale (a * f1) (sh_normal o1 x)))).
    - eapply Rle_trans; [apply norm_triangle|]. rewrite (norm_vscale (-1)), Rabs_left by lra. lra.
    - rewrite <- Es. vext. ring. }
  unfold Rabs. destruct (Rcase_abs _); lra.
Qed.

(** Disks: gamma is the distance to the center in radii. *)
Definition disk (c : vec) (r : R) : shape := mkShape c (fun x => norm (vsub x c) / r) (fun x => direction (vsub x c)).
Definition big := disk [-1/2; 0] 1.
Definition small := disk [1/2; 0] (1/2).
Lemma norm_x t : norm [t; 0] = Rabs t.
Proof. unfold norm. replace (dot _ _) with (Rsqr t) by (unfold Rsqr; simpl; ring). apply sqrt_Rsqr_abs. Qed.
Lemma fpow_square a : 0 <= a -> fpow a 2 = Ok (a * a).
Proof.
  intros H. unfold fpow. destruct (Rlt_dec 0 a) as [P|P].
  - f_equal. replace 2 with (1 + 1) by ring. rewrite Rpower_plus, Rpower_1 by auto. auto.
  - destruct (Req_EM_T 2 0); [lra|]. destruct (Req_EM_T a 0) as [->|]; [|lra]. destruct (Rlt_dec 0 2); [f_equal; ring|lra].
Qed.
Lemma disk_pull c0 r t : 0 < r -> exists s, fpow (sh_gamma (disk [c0; 0] r) [t; 0]) 2 = Ok s /\
  vscale (s * 1) (sh_normal (disk [c0; 0] r) [t; 0]) = [(t - c0) * Rabs (t - c0) / (r * r); 0].
Proof.
  intros P. cbn [disk sh_gamma sh_normal].
  assert (V : vsub [t; 0] [c0; 0] = [t - c0; 0]) by (unfold vsub; simpl; f_equal; [|f_equal]; ring).
  rewrite V, norm_x. set (d := t - c0). pose proof (Rabs_pos d) as Pd.
  exists (Rabs d / r * (Rabs d / r)). split.
  - apply fpow_square. apply Rmult_le_pos; [auto|left; apply Rinv_0_lt_compat; auto].
  - unfold direction. rewrite norm_x. simpl. destruct (Req_dec d 0) as [->|Nd].
    + rewrite Rabs_R0. f_equal; [|f_equal]; unfold Rdiv; ring.
    + assert (Rabs d <> 0) by (apply Rabs_no_R0; auto). f_equal; [|f_equal]; field; repeat split; lra.
Qed.
Lemma disks_step t : t <= 0 -> exists s, pull 2 [big; small] [2; 2] [1; 1] [t; 0] = Ok [s; 0] /\ s <= -3/4.
Proof.
  intros H. destruct (disk_pull (-1/2) 1 t ltac:(lra)) as (s1 & E1 & V1). destruct (disk_pull (1/2) (1/2) t ltac:(lra)) as (s2 & E2 & V2).
  fold big in E1, V1. fold small in E2, V2.
  rewrite (pull_two 2 big small 2 2 1 1 [t; 0] s1 s2) by (auto; reflexivity). rewrite V1, V2.
  eexists. split; [simpl; f_equal; f_equal; f_equal; ring|]. cbn.
  rewrite (Rabs_left (t - 1/2)) by lra. unfold Rabs. destruct (Rcase_abs _); nra.
Qed.
(** The two disks have common points; the default search ends outside of both. *)
Theorem C137_default_refuted : 
  (exists x, length x = 2%nat /\ sh_gamma big x < 1 /\ sh_gamma small x < 1) /\
  forall it, (21 <= it)%nat -> exists x, gradient_descent 2 [big; small] None None it (1/10) (1/10) = Ok x /\
    1 < sh_gamma big x /\ 1 < sh_gamma small x.
Proof.
  split.
  { exists [1/4; 0]. split; auto. cbn [big small disk sh_gamma].
    assert (V1 : vsub [1/4; 0] [-1/2; 0] = [3/4; 0]) by (unfold vsub; simpl; f_equal; [|f_equal]; field).
    assert (V2 : vsub [1/4; 0] [1/2; 0] = [-1/4; 0]) by (unfold vsub; simpl; f_equal; [|f_equal]; field).
    rewrite V1, V2, !norm_x, Rabs_right, Rabs_left by lra. lra. }
  assert (M : forall it t, t <= 0 -> exists u, descend 2 [big; small] [2; 2] [1; 1] (1/10) (1/10) it [t; 0] = Ok [u; 0] /\ u <= t - 3/40 * INR it).
  { induction it as [|it IH]; intros t Ht; cbn [descend].
    - exists t. split; auto. simpl. lra.
    - destruct (disks_step t Ht) as (s & -> & Hs). cbn [bind]. rewrite norm_x, (proj2 (Rltb_false _ _)) by (rewrite Rabs_left; lra).
      replace (vadd [t; 0] (vscale (1/10) [s; 0])) with [t + s / 10; 0] by (simpl; f_equal; [|f_equal]; field).
      destruct (IH (t + s / 10) ltac:(lra)) as (u & -> & Hu). exists u. split; auto. rewrite S_INR. lra. }
  intros it Hit. unfold gradient_descent. cbn [length repeat].
  replace (vscale (/ 2) (vadd (sh_center big) (sh_center small))) with [0; 0] by (cbn [big small disk sh_center]; simpl; f_equal; [|f_equal]; field).
  destruct (M it 0 ltac:(lra)) as (u & -> & Hu). exists [u; 0]. split; auto.
  assert (Hi : 21 <= INR it) by (replace 21 with (INR 21) by (simpl; lra); apply le_INR; auto).
  cbn [big small disk sh_gamma].
  assert (V1 : vsub [u; 0] [-1/2; 0] = [u + 1/2; 0]) by (unfold vsub; simpl; f_equal; [|f_equal]; field).
  assert (V2 : vsub [u; 0] [1/2; 0] = [u - 1/2; 0]) by (unfold vsub; simpl; f_equal; [|f_equal]; field).
  rewrite V1, V2, !norm_x, !Rabs_left by lra. lra.
Qed.
(** One step with the opposite factors goes to the smaller disk. *)
Example C137_case : gradient_descent 2 [big; small] (Some [-1; -1]) (Some [2; 2]) 1 (1/10) (1/10) = Ok [3/40; 0].
Proof.
  unfold gradient_descent. replace (vscale (/ 2) (vadd (sh_center big) (sh_center small))) with [0; 0] by (cbn [big small disk sh_center]; simpl; f_equal; [|f_equal]; field).
  cbn [descend].
  destruct (disk_pull (-1/2) 1 0 ltac:(lra)) as (s1 & E1 & V1). destruct (disk_pull (1/2) (1/2) 0 ltac:(lra)) as (s2 & E2 & V2).
  fold big in E1, V1. fold small in E2, V2.
  rewrite (pull_two 2 big small 2 2 (-1) (-1) [0; 0] s1 s2) by (auto; reflexivity). cbn [bind].
  replace (vscale (s1 * -1) (sh_normal big [0; 0])) with (vscale (-1) (vscale (s1 * 1) (sh_normal big [0; 0]))) by (vext; ring).
  replace (vscale (s2 * -1) (sh_normal small [0; 0])) with (vscale (-1) (vscale (s2 * 1) (sh_normal small [0; 0]))) by (vext; ring).
  rewrite V1, V2, (Rabs_right (0 - -1/2)), (Rabs_left (0 - 1/2)) by lra.
  assert (Q : vadd (vscale (-1) [(0 - -1 / 2) * (0 - -1 / 2) / (1 * 1); 0]) (vscale (-1) [(0 - 1 / 2) * - (0 - 1 / 2) / (1 / 2 * (1 / 2)); 0]) = [3/4; 0]).
  { simpl. f_equal; [|f_equal]; field. }
  rewrite Q, norm_x, Rabs_right, (proj2 (Rltb_false _ _)) by lra. f_equal. simpl. f_equal; [|f_equal]; field.
Qed.

(** ** C138 *)
(** Between nothing and everything, larger for larger weights and larger deviations. *)
Theorem C138_deviation : forall w dev p, 0 <= w -> 0 < p ->
  exists u, directional_deviation_weight w dev p = Ok u /\ 0 <= u <= 1 /\
    (dev <= 0 -> u = 0) /\ (0 < dev -> 1 <= dev \/ 1 <= w -> u = 1) /\ (dev < 1 -> w = 0 -> u = 0) /\
    (forall w' dev' u', w <= w' -> dev <= dev' -> directional_deviation_weight w' dev' p = Ok u' -> u <= u').
Proof.
  intros w dev p Hw Hp.
  assert (V : forall w dev, 0 <= w -> exists u, directional_deviation_weight w dev p = Ok u /\ 0 <= u <= 1 /\
    (dev <= 0 -> u = 0) /\ (0 < dev -> 1 <= dev \/ 1 <= w -> u = 1) /\
    (0 < dev < 1 -> 0 < w < 1 -> u = Rpower w (1 / (dev * p))) /\ (dev < 1 -> w = 0 -> u = 0)).
  { clear w dev Hw. intros w dev Hw. unfold directional_deviation_weight. destruct (Rleb dev 0) eqn:E1.
    - apply Rleb_true in E1. exists 0. repeat split; auto; try lra.
    - apply Rleb_false in E1. destruct (Rleb 1 dev || Rleb 1 w) eqn:E2.
      + apply orb_true_iff in E2. rewrite !Rleb_true in E2. exists 1. repeat split; auto; try lra; intros; destruct E2; lra.
      + apply orb_false_iff in E2. rewrite !Rleb_false in E2. destruct E2 as [E2 E3].
        assert (Pd : 0 < dev * p) by (apply Rmult_lt_0_compat; auto).
        unfold fdiv. destruct (Req_EM_T (dev * p) 0); [lra|]. cbn [bind].
        assert (Pe : 0 < 1 / (dev * p)) by (apply Rdiv_lt_0_compat; lra).
        destruct (fpow_unit w (1 / (dev * p)) ltac:(lra) Pe) as (u & Eu & Hu). exists u. split; auto. split; auto.
        split; [lra|]. split; [lra|]. split.
        * intros _ Hw'. rewrite fpow_pos in Eu by lra. congruence.
        * intros _ ->. unfold fpow in Eu. destruct (Rlt_dec 0 0); [lra|]. destruct (Req_EM_T _ 0); [lra|].
          destruct (Req_EM_T 0 0); [|lra]. destruct (Rlt_dec 0 _); [congruence|lra]. }
  destruct (V w dev Hw) as (u & Eu & Hu & H0 & H1 & Hp' & Hz). exists u. do 5 (split; auto).
  intros w' dev' u' Ww Dd Eu'. destruct (V w' dev' ltac:(lra)) as (u2 & Eu2 & Hu2 & H02 & H12 & Hp2 & Hz2).
  assert (u2 = u') by congruence. subst u2.
  destruct (Rle_dec dev 0) as [A|A]; [rewrite (H0 A); lra|].
  destruct (Rle_dec 1 dev') as [B|B]; [rewrite (H12 ltac:(lra) (or_introl B)); lra|].
  destruct (Rle_dec 1 w') as [C|C]; [rewrite (H12 ltac:(lra) (or_intror C)); lra|].
  destruct (Req_dec w 0) as [D|D]; [rewrite (Hz ltac:(lra) D); lra|].
  rewrite (Hp' ltac:(lra) ltac:(lra)), (Hp2 ltac:(lra) ltac:(lra)).
  assert (Q1 : 0 < dev * p) by (apply Rmult_lt_0_compat; lra). assert (Q2 : dev * p <= dev' * p) by (apply Rmult_le_compat_r; lra).
  assert (Q3 : 1 / (dev' * p) <= 1 / (dev * p)) by (apply Rmult_le_compat_l; [lra|]; apply Rinv_le_contravar; auto).
  assert (Q4 : 0 < 1 / (dev' * p)) by (apply Rdiv_lt_0_compat; lra).
  eapply Rle_trans; [apply Rpower_exp_anti; [lra|exact Q3]|]. apply Rpower_base_mono; lra.
Qed.
(** The weight jumps at a full deviation: it is at most one half right before it. *)
Theorem C138_deviation_jump_refuted : directional_deviation_weight (1/8) 1 3 = Ok 1 /\
  forall dev, 0 < dev < 1 -> exists u, directional_deviation_weight (1/8) dev 3 = Ok u /\ u <= 1/2.
Proof.
  assert (R3 : Rpower (1/8) (1/3) = 1/2).
  { replace (1/8) with (Rpower (1/2) 3).
    - rewrite Rpower_mult. replace (3 * (1/3)) with 1 by field. apply Rpower_1. lra.
    - replace 3 with (1 + 1 + 1) by ring. rewrite !Rpower_plus, Rpower_1 by lra. field. }
  split.
  - unfold directional_deviation_weight. rewrite (proj2 (Rleb_false 1 0)), (proj2 (Rleb_true 1 1)) by lra. auto.
  - intros dev H. unfold directional_deviation_weight. rewrite (proj2 (Rleb_false dev 0)), (proj2 (Rleb_false 1 dev)), (proj2 (Rleb_false 1 (1/8))) by lra.
    cbn [orb]. unfold fdiv. destruct (Req_EM_T _ 0); [lra|]. cbn [bind]. rewrite fpow_pos by lra. eexists. split; [reflexivity|].
    rewrite <- R3. apply Rpower_exp_anti; [lra|]. apply Rmult_le_compat_l; [lra|]. apply Rinv_le_contravar; lra.
Qed.

(** The share of the weight: nothing inside of the radius, the full weight if only the nonlinear
    direction is outside, monotone in both. *)
Theorem C138_inverted : forall c d r w, 0 <= w ->
  let u := nonlinear_inverted_weight c d r w in
  0 <= u <= w /\ (d <= r -> u = 0) /\ (r < d -> c <= r -> u = w) /\ (r < d -> r < c -> u * (d - r + (c - r)) = w * (d - r)) /\
  (forall c' d', c' <= c -> d <= d' -> u <= nonlinear_inverted_weight c' d' r w).
Proof.
  intros c d r w Hw. cbv zeta.
  assert (V : forall c d, 0 <= nonlinear_inverted_weight c d r w <= w /\ (d <= r -> nonlinear_inverted_weight c d r w = 0) /\
     (r < d -> c <= r -> nonlinear_inverted_weight c d r w = w) /\ (r < d -> r < c -> nonlinear_inverted_weight c d r w = w * (d - r) / (d - r + (c - r)))).
  { clear c d. intros c d. unfold nonlinear_inverted_weight. destruct (Rleb d r) eqn:E1; [apply Rleb_true in E1; repeat split; try lra; auto|].
    apply Rleb_false in E1. destruct (Rleb c r) eqn:E2; [apply Rleb_true in E2; repeat split; try lra; auto|]. apply Rleb_false in E2. cbv zeta.
    assert (P : 0 < d - r + (c - r)) by lra. split; [|repeat split; try lra; auto]. split.
    - apply Rmult_le_pos; [apply Rmult_le_pos; lra|left; apply Rinv_0_lt_compat; auto].
    - apply (Rmult_le_reg_r (d - r + (c - r))); auto. unfold Rdiv. rewrite Rmult_assoc, Rinv_l by lra. rewrite Rmult_1_r. apply Rmult_le_compat_l; lra. }
  destruct (V c d) as (H1 & H2 & H3 & H4). split; auto. split; auto. split; auto. split.
  { intros A B. rewrite (H4 A B). field. lra. }
  intros c' d' Hc Hd. destruct (V c' d') as (K1 & K2 & K3 & K4).
  destruct (Rle_dec d r) as [A|A]; [rewrite (H2 A); lra|]. destruct (Rle_dec c' r) as [B|B]; [rewrite (K3 ltac:(lra) B); lra|].
  rewrite (H4 ltac:(lra) ltac:(lra)), (K4 ltac:(lra) ltac:(lra)).
  set (a := d - r). set (a' := d' - r). set (b := c - r). set (b' := c' - r). assert (0 < a <= a' /\ 0 < b' <= b) as [[P1 P2] [P3 P4]] by (unfold a, a', b, b'; lra).
  unfold Rdiv. rewrite !Rmult_assoc. apply Rmult_le_compat_l; auto.
  apply (Rmult_le_reg_r (a + b)); [lra|]. rewrite Rmult_assoc, Rinv_l, Rmult_1_r by lra.
  apply (Rmult_le_reg_r (a' + b')); [lra|]. replace (a' * / (a' + b') * (a + b) * (a' + b')) with (a' * (a + b)) by (field; lra).
  assert (a * b' <= a' * b) by (apply Rmult_le_compat; lra). nra.
Qed.
(** Arbitrarily close inputs whose shares differ by half of the weight. *)
Theorem C138_inverted_jump_refuted : forall r w e, 0 < e ->
  nonlinear_inverted_weight (r + e) (r + e) r w = w / 2 /\ nonlinear_inverted_weight (r + e) r r w = 0 /\
  nonlinear_inverted_weight r (r + e) r w = w.
Proof.
  intros r w e P. unfold nonlinear_inverted_weight. rewrite (proj2 (Rleb_false (r + e) r)), (proj2 (Rleb_true r r)) by lra.
  split; [|auto]. cbv zeta. field. lra.
Qed.

Definition scaled_to (radius : R) (t : vec) : vec := vscale (radius / norm t) t.
(** The direction is moved towards the tangent, by at most the weight; not at all if it already lies
    beyond the tangent. *)
Theorem C138_projected : forall n t v w radius, length t = n -> length v = n -> norm t <> 0 -> 0 < radius -> 0 <= w <= 1 ->
  let s := scaled_to radius t in
  exists u w', projected_velocity t v w radius = Ok u /\ 0 <= w' <= w /\ norm s = radius /\
    u = vadd (vscale w' s) (vscale (1 - w') v) /\
    (dot s (vsub v s) <= 0 -> w' = w) /\ (forall c, 1 <= c -> v = vscale c s -> u = v).
Proof.
  intros n t v w radius Lt Lv Nt Pr Hw s. pose proof (norm_pos t Nt) as Pt.
  assert (Ns : norm s = radius).
  { unfold s, scaled_to. rewrite norm_vscale, Rabs_right; [field; lra|]. apply Rle_ge. left. apply Rdiv_lt_0_compat; auto. }
  assert (Ls : length s = n) by (unfold s, scaled_to; autorewrite with vlen; auto).
  assert (E : (if Req_EM_T radius (norm t) then Ok t else if Req_EM_T (norm t) 0 then Err ENaN else Ok (vscale (radius / norm t) t)) = Ok s).
  { destruct (Req_EM_T radius (norm t)) as [Q|Q].
    - f_equal. unfold s, scaled_to. rewrite Q. vext. field. auto.
    - destruct (Req_EM_T (norm t) 0); [contradiction|auto]. }
  unfold projected_velocity. rewrite E. cbn [bind]. cbv zeta. destruct (Req_EM_T (norm (vsub v s)) 0) as [Z|Z].
  - assert (Ev : v = s).
    { apply norm_zero_iff in Z. apply vec_ext; [lia|]. intros i. assert (Q : nth i (vsub v s) 0 = 0) by (rewrite Z; apply nth_vzero).
      autorewrite with vnth in Q. lra. }
    exists v, w. split; auto. split; [lra|]. split; auto. split; [rewrite Ev; vext; ring|]. split; auto.
  - pose proof (norm_pos _ Z) as Pz. assert (Pp : 0 < norm s * norm (vsub v s)) by (apply Rmult_lt_0_compat; lra).
    unfold fdiv. destruct (Req_EM_T (norm s * norm (vsub v s)) 0); [lra|]. cbn [bind]. cbv zeta. set (dp := dot s (vsub v s) / (norm s * norm (vsub v s))).
    assert (B : dp <= 1).
    { unfold dp. apply (Rmult_le_reg_r (norm s * norm (vsub v s))); auto. unfold Rdiv. rewrite Rmult_assoc, Rinv_l by lra.
      rewrite Rmult_1_r, Rmult_1_l. eapply Rle_trans; [apply Rle_abs|apply cauchy_schwarz]. }
    set (w' := if Rltb 0 dp then w * (1 - dp) else w).
    assert (Hw' : 0 <= w' <= w).
    { unfold w'. destruct (Rltb 0 dp) eqn:Q; [apply Rltb_true in Q|lra]. split; [apply Rmult_le_pos; lra|].
      rewrite <- (Rmult_1_r w) at 2. apply Rmult_le_compat_l; lra. }
    rewrite (proj2 (Rltb_false w' 0)), (proj2 (Rltb_false 1 w')) by lra. cbn [orb].
    exists (vadd (vscale w' s) (vscale (1 - w') v)), w'. split; auto. split; auto. split; auto. split; auto. split.
    + intros H. unfold w'. rewrite (proj2 (Rltb_false 0 dp)); auto. unfold dp.
      assert (0 < / (norm s * norm (vsub v s))) by (apply Rinv_0_lt_compat; auto). unfold Rdiv. nra.
    + intros c Hc Ev. assert (D : vsub v s = vscale (c - 1) s) by (rewrite Ev; vext; ring).
      assert (Hc1 : 0 < c - 1).
      { destruct (Req_dec c 1) as [->|]; [|lra]. exfalso. apply Z. rewrite D, norm_vscale. replace (1 - 1) with 0 by ring. rewrite Rabs_R0. ring. }
      assert (D1 : dp = 1).
      { unfold dp. rewrite D, dot_vscale_r, norm_vscale, Rabs_right by lra. rewrite <- norm_sq. field. split; lra. }
      assert (W0 : w' = 0) by (unfold w'; rewrite D1, (proj2 (Rltb_true 0 1)) by lra; ring). rewrite W0. vext. ring.
Qed.
(** A direction along the surface, opposite to the tangent, is turned straight into the obstacle
    (the angles are counted from the negative normal). *)
Theorem C138_into_refuted : exists t v u, norm t = PI / 2 /\ norm v = PI / 2 /\ projected_velocity t v (1/2) (PI / 2) = Ok u /\ u = [0].
Proof.
  assert (P : 0 < PI / 2) by (pose proof PI_RGT_0; lra).
  assert (N1 : forall a, norm [a] = Rabs a).
  { intros a. unfold norm. replace (dot [a] [a]) with (Rsqr a) by (unfold Rsqr; simpl; ring). apply sqrt_Rsqr_abs. }
  assert (Nt : norm [PI / 2] = PI / 2) by (rewrite N1; apply Rabs_right; lra).
  exists [PI / 2], [- (PI / 2)], [0]. split; auto. split; [rewrite N1, Rabs_Ropp; apply Rabs_right; lra|]. split; auto.
  destruct (C138_projected 1 [PI / 2] [- (PI / 2)] (1/2) (PI / 2)) as (u & w' & E & _ & _ & U & F & _); auto; try lra.
  assert (S1 : scaled_to (PI / 2) [PI / 2] = [PI / 2]).
  { unfold scaled_to. rewrite Nt. simpl. f_equal. field. lra. }
  rewrite S1 in *. rewrite E, U, F; [simpl; f_equal; f_equal; field|]. unfold vsub. simpl. nra.
Qed.
Example C138_case : directional_deviation_weight (1/8) (1/2) (2/3) = Ok (1/512) /\ nonlinear_inverted_weight 2 4 1 1 = 3/4 /\
  projected_velocity [0; 2] [1; 0] (1/2) 1 = Ok [1/2; 1/2].
Proof.
  split; [|split].
  - unfold directional_deviation_weight. rewrite (proj2 (Rleb_false (1/2) 0)), (proj2 (Rleb_false 1 (1/2))), (proj2 (Rleb_false 1 (1/8))) by lra.
    cbn [orb]. unfold fdiv. destruct (Req_EM_T _ 0); [lra|]. cbn [bind]. rewrite fpow_pos by lra. f_equal.
    replace (1 / (1 / 2 * (2 / 3))) with (1 + 1 + 1) by field. rewrite !Rpower_plus, Rpower_1 by lra. field.
  - unfold nonlinear_inverted_weight. rewrite (proj2 (Rleb_false 4 1)), (proj2 (Rleb_false 2 1)) by lra. cbv zeta. field.
  - assert (N2 : norm [0; 2] = 2) by (apply norm_axis2; lra).
    destruct (C138_projected 2 [0; 2] [1; 0] (1/2) 1) as (u & w' & E & _ & _ & U & F & _); auto; try lra.
    assert (S1 : scaled_to 1 [0; 2] = [0; 1]).
    { unfold scaled_to. rewrite N2. simpl. f_equal; [|f_equal]; field. }
    rewrite S1 in *. rewrite E, U, F; [simpl; f_equal; f_equal; [|f_equal]; field|]. unfold vsub. simpl. lra.
Qed.

(** ** C139 *)
Definition total (n : nat) (l : list vec) : vec := fold_right vadd (vzero n) l.
Lemma total_length n l : (forall v, In v l -> length v = n) -> length (total n l) = n.
Proof.
  induction l as [|v l IH]; intros H; simpl; [apply length_vzero|]. rewrite length_vadd, IH; [|intros; apply H; right; auto].
  rewrite (H v) by (left; auto). lia.
Qed.
Definition weighted (n : nat) (f : R -> R) (components : list (R * vec)) : vec := total n (map (fun c => vscale (f (fst c)) (snd c)) components).
Lemma weighted_vectors_map n f cs : weighted_vectors n (map f (map fst cs)) (map snd cs) = weighted n f cs.
Proof.
  induction cs as [|c cs IH]; auto. unfold weighted_vectors, weighted, total in *. cbn [map combine fold_right fst snd]. rewrite IH. auto.
Qed.
Lemma weighted_norm n f cs : (forall c, In c cs -> 0 <= f (fst c) /\ unitv (snd c)) -> norm (weighted n f cs) <= rsum (map f (map fst cs)).
Proof.
  induction cs as [|c cs IH]; intros H.
  - unfold weighted, total. cbn [map fold_right rsum]. rewrite norm_vzero. apply Rle_refl.
  - unfold weighted, total in *. cbn [map fold_right]. change (rsum (f (fst c) :: map f (map fst cs))) with (f (fst c) + rsum (map f (map fst cs))). eapply Rle_trans; [apply norm_triangle|].
    destruct (H c ltac:(left; auto)) as [F U]. rewrite norm_vscale, (proj1 (unit_norm _) U), Rabs_right by lra.
    apply Rplus_le_compat; [lra|]. apply IH. intros c' I. apply H. right. auto.
Qed.
Lemma weighted_scale n f k cs : weighted n (fun g => k * f g) cs = vscale k (weighted n f cs).
Proof.
  induction cs as [|c cs IH]; unfold weighted, total in *; cbn [map fold_right]; [vext; ring|]. rewrite IH. vext. ring.
Qed.
Lemma fold_min l : forall a, (fold_left Rmin l a = a \/ In (fold_left Rmin l a) l) /\ fold_left Rmin l a <= a /\
  forall x, In x l -> fold_left Rmin l a <= x.
Proof.
  induction l as [|y l IH]; intros a; simpl; [split; [auto|split; [lra|contradiction]]|].
  destruct (IH (Rmin a y)) as (I & L & A). pose proof (Rmin_l a y). pose proof (Rmin_r a y). split; [|split].
  - destruct I as [I|I]; auto. rewrite I. unfold Rmin. destruct (Rle_dec a y); auto.
  - lra.
  - intros x [<-|J]; [lra|auto].
Qed.
Lemma min_of_le l x : In x l -> min_of l <= x.
Proof. destruct l as [|a l]; [easy|]. destruct (fold_min l a) as (_ & L & A). intros [<-|I]; simpl; auto. Qed.
Lemma min_of_in l : l <> [] -> In (min_of l) l.
Proof. destruct l as [|a l]; [easy|]. intros _. cbn [min_of]. destruct (fold_min l a) as ([E|I] & _); [rewrite E; left; auto|right; auto]. Qed.

(** The average of the normals: never longer than one; at contact the plain mean of the normals of
    the touched components, otherwise weighted by the inverse powers of gamma, limited to one in
    sum.  The gamma value is the smallest one. *)
Theorem C139_average : forall n cs p, cs <> [] -> (forall c, In c cs -> length (snd c) = n /\ unitv (snd c)) ->
  exists avg g, averaged_normal_and_gamma n cs p = Ok (avg, g) /\ norm avg <= 1 /\
    In g (map fst cs) /\ (forall c, In c cs -> g <= fst c) /\
    (g <= 1 -> let touched := filter (fun c => Rleb (fst c) 1) cs in
       (0 < length touched)%nat /\ vscale (INR (length touched)) avg = total n (map snd touched)) /\
    (1 < g -> let s := rsum (map (fun c => Rpower (fst c) (- p)) cs) in
       vscale (Rmax 1 s) avg = weighted n (fun g => Rpower g (- p)) cs).
Proof.
  intros n cs p Ne U. set (g := min_of (map fst cs)).
  assert (Ig : In g (map fst cs)) by (apply min_of_in; destruct cs; easy).
  assert (Lg : forall c, In c cs -> g <= fst c) by (intros c I; apply min_of_le, in_map; auto).
  assert (Ea : averaged_normal_and_gamma n cs p = do weights <- averaged_weights (map fst cs) p; Ok (weighted_vectors n weights (map snd cs), g)) by (destruct cs; [easy|reflexivity]).
  rewrite Ea.
  unfold averaged_weights. fold g. destruct (Rleb g 1) eqn:E.
  - apply Rleb_true in E. cbn [bind].
    set (ind := fun g => if Rleb g 1 then 1 else 0). set (S0 := rsum (map ind (map fst cs))).
    assert (PS : 1 <= S0).
    { unfold S0. replace 1 with (ind g) by (unfold ind; rewrite (proj2 (Rleb_true g 1)); auto). apply rsum_ge_elem; [|apply in_map; auto].
      intros y Iy. apply in_map_iff in Iy. destruct Iy as (z & <- & _). unfold ind. destruct (Rleb z 1); lra. }
    assert (Em : map (fun w => w / S0) (map ind (map fst cs)) = map (fun g => / S0 * ind g) (map fst cs)).
    { rewrite map_map. apply map_ext. intros a. unfold Rdiv. ring. }
    exists (weighted n (fun g => / S0 * ind g) cs), g.
    split; [f_equal; f_equal; rewrite Em; apply weighted_vectors_map|].
    rewrite weighted_scale. assert (Pi : 0 < / S0) by (apply Rinv_0_lt_compat; lra). split; [|split; [auto|split; [auto|split]]].
    + rewrite norm_vscale, Rabs_right by lra. apply (Rmult_le_reg_l S0); [lra|]. rewrite <- Rmult_assoc, Rinv_r, Rmult_1_l, Rmult_1_r by lra.
      apply weighted_norm. intros c I. split; [unfold ind; destruct (Rleb _ 1); lra|apply U; auto].
    + intros _. cbv zeta.
      assert (Q : INR (length (filter (fun c => Rleb (fst c) 1) cs)) = S0 /\
                  weighted n ind cs = total n (map snd (filter (fun c => Rleb (fst c) 1) cs))).
      { unfold S0. clear -U. induction cs as [|c cs IH]; [split; auto|].
        destruct IH as [IH1 IH2]; [intros; apply U; right; auto|]. destruct (U c ltac:(left; auto)) as [Lc _].
        assert (Lt : length (total n (map snd (filter (fun c => Rleb (fst c) 1) cs))) = n).
        { apply total_length. intros v Iv. apply in_map_iff in Iv. destruct Iv as (c' & <- & Ic). apply filter_In in Ic. apply U. right. apply Ic. }
        cbn [filter map]. unfold weighted in *. cbn [map total fold_right]. fold (total n (map (fun c => vscale (ind (fst c)) (snd c)) cs)).
        rewrite IH2. rewrite <- IH1 || idtac. change (rsum (ind (fst c) :: map ind (map fst cs))) with (ind (fst c) + rsum (map ind (map fst cs))).
        rewrite <- IH1. unfold ind. destruct (Rleb (fst c) 1) eqn:E.
        - cbn [length map total fold_right]. split; [rewrite S_INR; ring|]. fold (total n (map snd (filter (fun c => Rleb (fst c) 1) cs))). f_equal. vext. ring.
        - split; [ring|]. vext. ring. }
      destruct Q as [Q1 Q2]. split.
      * apply INR_lt. rewrite Q1. simpl. lra.
      * rewrite Q1, Q2. vext. field. lra.
    + intros. lra.
  - apply Rleb_false in E.
    set (f := fun g => Rpower g (- p)).
    assert (M : mapM (fun g => do q <- fpow g p; fdiv 1 q) (map fst cs) = Ok (map f (map fst cs))).
    { apply mapM_ok. intros a I. apply in_map_iff in I. destruct I as (c & <- & I). specialize (Lg c I).
      rewrite fpow_pos by lra. cbn [bind]. unfold fdiv. pose proof (Rpower_pos (fst c) p). destruct (Req_EM_T _ 0); [lra|].
      f_equal. unfold f. rewrite Rpower_Ropp. field. lra. }
    rewrite M. cbn [bind]. set (S0 := rsum (map f (map fst cs))).
    assert (ES : rsum (map (fun c => Rpower (fst c) (- p)) cs) = S0) by (unfold S0; rewrite map_map; auto).
    assert (Wn : norm (weighted n f cs) <= S0) by (apply weighted_norm; intros c I; split; [left; apply Rpower_pos|apply U; auto]).
    destruct (Rltb 1 S0) eqn:E1.
    + apply Rltb_true in E1. assert (Pi : 0 < / S0) by (apply Rinv_0_lt_compat; lra).
      assert (Em : map (fun w => w / S0) (map f (map fst cs)) = map (fun g => / S0 * f g) (map fst cs)).
      { rewrite map_map. apply map_ext. intros a. unfold Rdiv. ring. }
      exists (weighted n (fun g => / S0 * f g) cs), g.
      split; [f_equal; f_equal; rewrite Em; apply weighted_vectors_map|]. rewrite weighted_scale. split; [|split; [auto|split; [auto|split]]].
      * rewrite norm_vscale, Rabs_right by lra. apply (Rmult_le_reg_l S0); [lra|]. rewrite <- Rmult_assoc, Rinv_r, Rmult_1_l, Rmult_1_r by lra. auto.
      * intros. lra.
      * intros _. cbv zeta. rewrite ES, Rmax_right by lra. vext. field. lra.
    + apply Rltb_false in E1. exists (weighted n f cs), g.
      split; [f_equal; f_equal; apply weighted_vectors_map|]. split; [lra|]. split; auto. split; auto. split; [intros; lra|].
      intros _. cbv zeta. rewrite ES, Rmax_left by lra. vext. ring.
Qed.

(** Between two touched walls with opposite normals the average vanishes and the velocity into one
    of the walls is not reduced. *)
Theorem C139_opposite_refuted : exists cs v avg g, (forall c, In c cs -> fst c <= 1 /\ unitv (snd c)) /\
  averaged_normal_and_gamma 2 cs 2 = Ok (avg, g) /\
  (exists c, In c cs /\ dot v (snd c) = -1) /\ forall scaling root, compute_safe_magnitude v 1 avg g scaling root = Ok v.
Proof.
  set (cs := [(1, [0; 1]); (1, [0; -1])]).
  assert (U : forall c, In c cs -> length (snd c) = 2%nat /\ unitv (snd c)).
  { intros c [<-|[<-|[]]]; split; auto; unfold unitv; simpl; lra. }
  destruct (C139_average 2 cs 2 ltac:(easy) U) as (avg & g & E & _ & Ig & _ & T & _).
  assert (G1 : g = 1) by (destruct Ig as [<-|[<-|[]]]; auto). specialize (T ltac:(lra)). cbv zeta in T. destruct T as [_ T].
  assert (F : filter (fun c => Rleb (fst c) 1) cs = cs).
  { cbn [cs filter fst]. rewrite (proj2 (Rleb_true 1 1)) by lra. auto. }
  rewrite F in T. exists cs, [0; 1], avg, g. split; [|split; [auto|split]].
  - intros c I. split; [|apply U; auto]. destruct I as [<-|[<-|[]]]; simpl; lra.
  - exists (1, [0; -1]). split; [right; left; auto|]. simpl. lra.
  - intros scaling root.
    assert (Z : norm avg = 0).
    { assert (Q : norm (vscale (INR (length cs)) avg) = 0).
      { rewrite T. replace (total 2 (map snd cs)) with (vzero 2); [apply norm_vzero|]. simpl. unfold vzero. simpl. f_equal; [|f_equal]; ring. }
      rewrite norm_vscale in Q. apply Rmult_integral in Q. destruct Q as [Q|Q]; auto. exfalso. simpl in Q. rewrite Rabs_right in Q; lra. }
    assert (N1 : norm [0; 1] = 1) by (apply unit_norm; unfold unitv; simpl; lra).
    unfold compute_safe_magnitude. cbv zeta. rewrite N1, Z. destruct (Req_EM_T 1 0); [lra|].
    rewrite (proj2 (Reqb_true 0 0)) by auto. rewrite orb_true_r, (proj2 (Rltb_false 1 1)) by lra. f_equal. simpl. f_equal; [|f_equal]; field.
Qed.
Example C139_case : exists avg, averaged_normal_and_gamma 2 [(2, [1; 0]); (4, [0; 1])] 1 = Ok (avg, 2) /\ avg = [1/2; 1/4].
Proof.
  eexists. split; [|reflexivity]. unfold averaged_normal_and_gamma, averaged_weights. cbn [map fst snd min_of fold_left].
  rewrite Rmin_left, (proj2 (Rleb_false 2 1)) by lra. cbn [mapM]. rewrite !fpow_pos, !Rpower_1 by lra. cbn [bind]. unfold fdiv.
  destruct (Req_EM_T 2 0); [lra|]. cbn [bind]. destruct (Req_EM_T 4 0); [lra|]. cbn [bind].
  rewrite (proj2 (Rltb_false _ _)) by (simpl; lra). f_equal. f_equal. unfold weighted_vectors. simpl. f_equal; [|f_equal]; field.
Qed.
Print Assumptions C137_search.
Print Assumptions C137_default_refuted.
Print Assumptions C138_deviation.
Print Assumptions C138_deviation_jump_refuted.
Print Assumptions C138_inverted.
Print Assumptions C138_inverted_jump_refuted.
Print Assumptions C138_projected.
Print Assumptions C138_into_refuted.
Print Assumptions C139_average.
Print Assumptions C139_opposite_refuted.
