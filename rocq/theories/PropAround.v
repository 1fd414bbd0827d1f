(** Property C72: the velocity of the rotational avoider at the surface of an obstacle. *)
Require Import Reals List Bool Lra Lia ZArith.
From Verif Require Import Base Vec Angle Pow RotModel Spec RotProofs SeqProofs TreeModel TreeSpec TreeProofs TreeCases PropTree
  WeightModel WeightProofs PropWeights AvoidModel PropAvoid ProjModel PropProject PropTangent PropContact PropFold ConvModel ConvProofs
  RotAvoidModel RotAvoidProofs PropSmooth SummingProofs PropOpposite.
Import ListNotations.
Open Scope R_scope.

(** The side of the surface on which the obstacle lies: the reference direction points to the
    reference point, which is inside of an obstacle and, for a boundary, in the free space. *)
Definition into (o : aobs) : vec := if ao_boundary o then vscale (-1) (ao_ref o) else ao_ref o.
Definition toward (o : aobs) : vec :=
  if Rlt_dec (dot (ao_normal o) (into o)) 0 then vscale (-1) (ao_normal o) else ao_normal o.
(** An obstacle with unit normal and tangent, and a reference direction which does not graze the surface. *)
Definition well_posed (n : nat) (o : aobs) : Prop :=
  length (ao_normal o) = n /\ length (ao_second o) = n /\ length (ao_ref o) = n /\
  unitv (ao_normal o) /\ unitv (ao_second o) /\ dot (ao_normal o) (ao_second o) = 0 /\
  dot (ao_normal o) (ao_ref o) <> 0.

Lemma vscale_m1_m1 v : vscale (-1) (vscale (-1) v) = v.
Proof. vext. ring. Qed.
Lemma dot_pos_norm u v : dot u v <> 0 -> norm v <> 0.
Proof.
  intros H Z. apply H. apply norm_zero_iff in Z. rewrite Z. apply dot_vzero_r.
Qed.
Lemma dot_dirof u v : norm v <> 0 -> dot u (dirof v) = dot u v / norm v.
Proof. intros N. unfold dirof, vdiv. rewrite dot_vscale_r. unfold Rdiv. ring. Qed.

Lemma null_base_spec n o : well_posed n o ->
  exists b, null_base o = (into o, b) /\ base_ok n b /\ bs0 b = toward o /\ norm (into o) <> 0 /\
    length (into o) = n /\ 0 < dot (bs0 b) (dirof (into o)).
Proof.
  intros (L0 & L1 & L2 & U0 & U1 & O & G). unfold null_base, toward.
  set (b := mkBase (ao_normal o) (ao_second o)).
  assert (Bb : base_ok n b) by (repeat split; auto).
  assert (Li : length (into o) = n) by (unfold into; destruct (ao_boundary o); rewrite ?length_vscale; auto).
  assert (Gi : dot (ao_normal o) (into o) <> 0).
  { unfold into. destruct (ao_boundary o); auto. rewrite dot_vscale_r. intros E. apply G. lra. }
  pose proof (dot_pos_norm _ _ Gi) as Ni. pose proof (norm_nonneg (into o)) as Np.
  assert (P : forall b', base_ok n b' -> 0 < dot (bs0 b') (into o) -> 0 < dot (bs0 b') (dirof (into o))).
  { intros b' _ H. rewrite dot_dirof by auto. apply Rdiv_lt_0_compat; lra. }
  assert (PO : bs0 (base_opp b) = vscale (-1) (ao_normal o)) by reflexivity.
  pose proof (base_opp_ok n b Bb) as Bo.
  assert (Q : base_opp (base_opp b) = b).
  { unfold base_opp, b. cbn [bs0 bs1]. rewrite !vscale_m1_m1. auto. }
  set (i := into o) in *. destruct (ao_boundary o) eqn:Eb.
  - assert (Ei : vscale (-1) (ao_ref o) = i) by (unfold i, into; rewrite Eb; auto). rewrite Ei.
    destruct (Rltb (dot i (bs0 b)) 0) eqn:F; [apply Rltb_true in F|apply Rltb_false in F]; cbn [bs0 b] in F;
      rewrite dot_comm in F; change (bs0 b) with (ao_normal o) in F; destruct (Rlt_dec (dot (ao_normal o) i) 0); try lra.
    + exists (base_opp b). do 5 (split; auto). apply P; auto. rewrite PO, dot_vscale_l. lra.
    + exists b. do 5 (split; auto). apply P; auto. change (bs0 b) with (ao_normal o). lra.
  - assert (Ei : ao_ref o = i) by (unfold i, into; rewrite Eb; auto). rewrite Ei.
    rewrite PO, dot_vscale_r, (dot_comm i).
    destruct (Rltb (-1 * dot (ao_normal o) i) 0) eqn:F; [apply Rltb_true in F|apply Rltb_false in F];
      destruct (Rlt_dec (dot (ao_normal o) i) 0); try lra.
    + rewrite Q. exists b. do 5 (split; auto). apply P; auto. change (bs0 b) with (ao_normal o). lra.
    + exists (base_opp b). do 5 (split; auto). apply P; auto. rewrite PO, dot_vscale_l. lra.
Qed.

(** ** The weighted sum with all weight on one direction *)
Lemma mapM_rel {A B} (f : A -> res B) (P : A -> B -> Prop) l :
  (forall x, In x l -> exists y, f x = Ok y /\ P x y) -> exists ys, mapM f l = Ok ys /\ Forall2 P l ys.
Proof.
  induction l as [|x l IH]; intros H; [exists []; auto|].
  destruct (H x (or_introl eq_refl)) as (y & E & Py). destruct IH as (ys & Es & F); [intros z Hz; apply H; right; auto|].
  exists (y :: ys). simpl. rewrite E. cbn [bind]. rewrite Es. auto.
Qed.
Definition wsum (n : nat) (l : list (R * vec)) : vec :=
  fold_right (fun wa acc => vadd (vscale (fst wa) (snd wa)) acc) (vzero n) l.
Lemma wsum_zero n ws xs : (forall j, nth j ws 0 = 0) -> (forall x, In x xs -> length x = n) ->
  wsum n (combine ws xs) = vzero n.
Proof.
  revert xs. induction ws as [|w ws IH]; intros [|x xs] Z L; auto. cbn [combine wsum fold_right fst snd].
  change (vadd (vscale w x) (wsum n (combine ws xs)) = vzero n).
  rewrite IH; [|intros j; apply (Z (S j))|intros y Hy; apply L; right; auto].
  specialize (Z 0%nat). simpl in Z. rewrite Z. assert (length x = n) by (apply L; left; auto). vext. ring.
Qed.
Lemma wsum_one n : forall ws xs i x, one_at i ws -> nth_error xs i = Some x -> (forall x, In x xs -> length x = n) ->
  wsum n (combine ws xs) = x.
Proof.
  induction ws as [|w ws IH]; intros [|y xs] i x (L & O & Z) E LX; simpl in L; try lia; try (destruct i; discriminate).
  change (vadd (vscale w y) (wsum n (combine ws xs)) = x).
  destruct i as [|i]; simpl in E, O.
  - injection E as <-. subst w. rewrite wsum_zero; [|intros j; apply (Z (S j)); lia|intros z Hz; apply LX; right; auto].
    assert (length y = n) by (apply LX; left; auto). vext. ring.
  - rewrite (IH xs i x); auto.
    + assert (W : w = 0) by apply (Z 0%nat ltac:(lia)). subst w. assert (length y = n) by (apply LX; left; auto).
      assert (length x = n) by (apply LX; right; eapply nth_error_In; eauto). vext. ring.
    + split; [lia|]. split; auto. intros j Hj. apply (Z (S j)). lia.
    + intros z Hz; apply LX; right; auto.
Qed.
Lemma Forall2_nth_error {A B} (P : A -> B -> Prop) l m i x : Forall2 P l m -> nth_error l i = Some x ->
  exists y, nth_error m i = Some y /\ P x y.
Proof.
  intros F. revert i. induction F as [|a b l m Pab F IH]; intros [|i] E; simpl in *; try discriminate; eauto.
  injection E as <-. eauto.
Qed.
Lemma Forall2_in_r {A B} (P : A -> B -> Prop) l m y : Forall2 P l m -> In y m -> exists x, In x l /\ P x y.
Proof.
  intros F. induction F as [|a b l m Pab F IH]; intros I; [contradiction|].
  destruct I as [<-|I]; [exists a; simpl; auto|]. destruct (IH I) as (x & ? & ?). exists x; simpl; auto.
Qed.
Lemma weighted_sum_one n b ws dirs i d : (2 <= n)%nat -> base_ok n b -> one_at i ws -> nth_error dirs i = Some d ->
  (forall x, In x dirs -> length x = n /\ norm x <> 0) ->
  directional_weighted_sum b ws dirs = Ok (dirof d).
Proof.
  intros Hn B O E H. unfold directional_weighted_sum. pose proof B as (L0 & _).
  destruct (mapM_rel (angle_in b) (fun x a => angle_of_dir n b (dirof x) a) dirs) as (angles & -> & F).
  { intros x Hx. destruct (H x Hx). apply angle_in_ok; auto. }
  cbn [bind]. destruct (Forall2_nth_error _ _ _ _ _ F E) as (a & Ea & Aa).
  rewrite L0. change (Ok (vector_from_angle (bs0 b) (wsum n (combine ws angles))) = Ok (dirof d)).
  rewrite (wsum_one n ws angles i a O Ea).
  - rewrite (ad_back _ _ _ _ Aa). auto.
  - intros x Hx. destruct (Forall2_in_r _ _ _ _ F Hx) as (y & _ & Ay). apply (ad_len _ _ _ _ Ay).
Qed.

(** ** C72 *)
Section Around.
Variables (n : nat) (orth0 orth1 : vec -> vec) (sort : tree -> list nid).
Variables (rad power : R) (tail : bool).
Variables (weights_of : list R -> list R) (relative_of : list aobs -> list R -> vec).
Hypothesis Hn : (2 <= n <= 1000)%nat.
Hypothesis OL : forall v, length (orth0 v) = length v.
Hypothesis O1 : forall v, length v = n -> norm v <> 0 ->
  length (orth1 v) = n /\ unitv (orth1 v) /\ dot (direction v) (orth1 v) = 0.
Hypothesis SS : sorts sort.
Hypothesis Hr : PI / 2 <= rad < PI.
Hypothesis Hpw : 0 <= power.

(** The convergence direction is admissible for an obstacle: not straight away from it; its own
    convergence radius asks for no intermediate direction unless [rad] is clearly above a right angle. *)
Definition admissible (conv : vec) (o : aobs) : Prop :=
  well_posed n o /\ dot (toward o) (direction conv) <> -1 /\
  (match ao_radius o with Some r => r | None => rad end <= PI / 2 \/ cos rad <= -1/1000).

Lemma rotated_contact conv v0 o : admissible conv o -> ao_gamma o = 1 ->
  length conv = n -> norm conv <> 0 -> length v0 = n -> norm v0 <> 0 -> dot (dirof conv) (dirof v0) <> -1 ->
  exists u, rotated_direction orth0 sort rad power tail conv v0 o = Ok u /\ length u = n /\ unitv u /\
    dot (toward o) u <= cos rad /\ (cos rad < dot (toward o) (dirof conv) -> dot (toward o) u = cos rad).
Proof.
  intros (WP & Hc & Hcr) Hg Lc Nc Lv Nv Hv.
  destruct (null_base_spec n o WP) as (b & Eb & B & B0 & Ni & Li & Pi).
  unfold rotated_direction. rewrite Eb. destruct (Req_EM_T (norm conv) 0); [contradiction|].
  rewrite Hg. rewrite <- B0 in *.
  destruct (summing_contact n orth0 sort rad power tail conv (into o) b 1 v0
    (match ao_radius o with Some r => r | None => rad end)) as (tg & Et & Lt & Nt & Dt & ->); auto; [lra|].
  exists (dirof tg). split; auto. split; [rewrite dirof_length; auto|]. split; [apply dirof_unit; auto|]. split; auto.
  intros Hin. pose proof B as (_ & _ & U0 & _). pose proof (dirof_unit conv Nc) as Uc.
  destruct (pseudo_tangent_ok n rad tail conv (into o) b ltac:(lia) B ltac:(lra) Lc Li Nc Ni) as [_ K2].
  destruct K2 as (t & Et' & _ & Ut & Dt'); [left; apply angle_lt; auto; lra|].
  rewrite Et in Et'. injection Et' as <-. rewrite (dirof_of_unit tg Ut). auto.
Qed.
Lemma rotated_some conv v0 o : admissible conv o -> 0 < ao_gamma o ->
  apart (dirof conv) (dirof v0) -> apart (dirof conv) (toward o) ->
  length conv = n -> norm conv <> 0 -> length v0 = n -> norm v0 <> 0 -> dot (dirof conv) (dirof v0) <> -1 ->
  exists u, rotated_direction orth0 sort rad power tail conv v0 o = Ok u /\ length u = n /\ norm u <> 0.
Proof.
  intros (WP & Hc & Hcr) Hg A1 A2 Lc Nc Lv Nv Hv.
  destruct (null_base_spec n o WP) as (b & Eb & B & B0 & Ni & Li & Pi).
  unfold rotated_direction. rewrite Eb. destruct (Req_EM_T (norm conv) 0); [contradiction|].
  rewrite <- B0 in *. apply (summing_some n); auto.
Qed.

(** The obstacles taken into account. *)
Definition taken (cut : R) (obs : list aobs) : list aobs :=
  filter (fun o => Rltb (ao_gamma o) cut && Rleb 1 (ao_gamma o)) (map clamp_obstacle obs).
Lemma taken_gamma cut obs o : In o (taken cut obs) -> 1 <= ao_gamma o.
Proof. unfold taken. rewrite filter_In. intros [_ H]. apply andb_true_iff in H. apply Rleb_true. tauto. Qed.

Lemma avoid_taken W Rl Sm cut sticky v obs : taken cut obs <> [] -> avoid W Rl Sm cut sticky v obs =
  (let gammas := map ao_gamma (taken cut obs) in
   let weights := W gammas in
   let relative := Rl (taken cut obs) weights in
   let v0 := vsub v relative in
   if Req_EM_T (norm v0) 0 then Ok (vadd v0 relative)
   else
     do rotated <- Sm v0 (taken cut obs);
     if sticky then
       do w <- limit_magnitude rotated (norm v0) gammas (map ao_normal (taken cut obs));
       Ok (vadd w relative)
     else
       let averaged_normal := wsum (length v) (combine weights (map ao_normal (taken cut obs))) in
       do w <- compute_safe_magnitude rotated (norm v0) averaged_normal (rmin_list gammas) (8/10) 3;
       let w := vadd w relative in
       if Req_EM_T (norm w) 0 then Ok w else Ok (vscale (norm v) (vdiv w (norm w)))).
Proof.
  intros NE. unfold avoid. destruct obs as [|o0 obs]; [exfalso; apply NE; reflexivity|].
  unfold taken in *. destruct (filter _ _) as [|c cs]; [contradiction|]. reflexivity.
Qed.

(** The direction chosen in contact with the obstacle [o] does not point into it. *)
Lemma sum_contact cut conv v0 obs i o : let close := taken cut obs in
  one_at i (weights_of (map ao_gamma close)) -> nth_error close i = Some o -> ao_gamma o = 1 ->
  length conv = n -> norm conv <> 0 -> length v0 = n -> norm v0 <> 0 -> dot (dirof conv) (dirof v0) <> -1 ->
  (forall o', In o' close -> admissible conv o') ->
  (forall o', In o' close -> ao_gamma o' <> 1 -> apart (dirof conv) (dirof v0) /\ apart (dirof conv) (toward o')) ->
  exists u, rotated_sum orth0 orth1 sort rad power tail weights_of conv v0 close = Ok u /\ length u = n /\ unitv u /\
    dot (toward o) u <= cos rad /\ (cos rad < dot (toward o) (dirof conv) -> dot (toward o) u = cos rad).
Proof.
  intros close OA Ei Hg Lc Nc Lv Nv Hv AD AP. unfold rotated_sum.
  destruct (mapM_rel (rotated_direction orth0 sort rad power tail conv v0) (fun o' u => length u = n /\ norm u <> 0 /\
     (ao_gamma o' = 1 -> unitv u /\ dot (toward o') u <= cos rad /\ (cos rad < dot (toward o') (dirof conv) -> dot (toward o') u = cos rad))) close) as (dirs & -> & F).
  { intros o' Ho. destruct (Req_dec (ao_gamma o') 1) as [G|G].
    - destruct (rotated_contact conv v0 o' (AD o' Ho) G Lc Nc Lv Nv Hv) as (u & E & Lu & Uu & Du & Xu).
      exists u. split; auto. split; auto. split; auto. apply unit_norm_neq; auto.
    - destruct (AP o' Ho G) as [A1 A2]. pose proof (taken_gamma cut obs o' Ho).
      destruct (rotated_some conv v0 o' (AD o' Ho) ltac:(lra) A1 A2 Lc Nc Lv Nv Hv) as (u & E & Lu & Nu).
      exists u. split; auto. split; auto. split; auto. intros; contradiction. }
  cbn [bind]. destruct (Forall2_nth_error _ _ _ _ _ F Ei) as (u & Eu & Lu & Nu & Ku). destruct (Ku Hg) as (Uu & Du & Xu).
  destruct (O1 v0 Lv Nv) as (Lo & Uo & Oo).
  rewrite (weighted_sum_one n _ _ dirs i u).
  - exists u. rewrite (dirof_of_unit u Uu). auto.
  - lia.
  - unfold base_ok. cbn [bs0 bs1]. fold (dirof v0). split; [rewrite dirof_length; auto|]. split; auto.
    split; [apply dirof_unit; auto|]. auto.
  - auto.
  - auto.
  - intros x Hx. destruct (Forall2_in_r _ _ _ _ F Hx) as (y & _ & A & B & _). auto.
Qed.

(** Sticky surface: relative to the obstacle, the velocity does not point into the touched
    obstacle and is at most as fast as the initial one. *)
Theorem C72_contact_partial : forall cut conv v obs i o, let close := taken cut obs in
  let relative := relative_of close (weights_of (map ao_gamma close)) in
  let v0 := vsub v relative in
  length v = n -> length relative = n -> norm v0 <> 0 -> length conv = n -> norm conv <> 0 ->
  one_at i (weights_of (map ao_gamma close)) -> nth_error close i = Some o -> ao_gamma o = 1 ->
  dot (direction conv) (direction v0) <> -1 ->
  (forall o', In o' close -> admissible conv o') ->
  (forall o', In o' close -> ao_gamma o' <> 1 -> apart (direction conv) (direction v0) /\ apart (direction conv) (toward o')) ->
  exists w, avoid_velocity orth0 orth1 sort rad power tail weights_of relative_of cut true v conv obs = Ok w /\
    dot (vsub w relative) (toward o) <= 0 /\ norm (vsub w relative) <= norm v0 /\
    (cos rad < dot (toward o) (direction conv) -> dot (vsub w relative) (toward o) = norm (vsub w relative) * cos rad).
Proof.
  intros cut conv v obs i o close rel v0 Lv Lrel N0 Lc Nc OA Ei Hg Hv AD AP.
  assert (L0 : length v0 = n) by (unfold v0; autorewrite with vlen; lia).
  destruct (sum_contact cut conv v0 obs i o OA Ei Hg Lc Nc L0 N0 Hv AD AP) as (u & Eu & Lu & Uu & Du & Xu).
  assert (NE : close <> []) by (intros E; rewrite E in Ei; destruct i; discriminate).
  unfold avoid_velocity. rewrite avoid_taken by auto. cbv zeta. fold close.
  fold rel. fold v0. destruct (Req_EM_T (norm v0) 0); [contradiction|]. fold close in Eu. rewrite Eu. cbn [bind].
  destruct (C31_limit_magnitude_partial u (norm v0) (map ao_gamma close) (map ao_normal close)) as (k & -> & Kb & Kn & _); auto.
  - apply norm_nonneg.
  - rewrite !map_length. auto.
  - intros m I. apply in_map_iff in I. destruct I as (o' & <- & I). apply (AD o' I).
  - intros g I. apply in_map_iff in I. destruct I as (o' & <- & I). apply (taken_gamma cut obs). exact I.
  - cbn [bind]. eexists. split; [reflexivity|].
    assert (E : vsub (vadd (vscale (k * norm v0) u) rel) rel = vscale (k * norm v0) u) by (vext; ring).
    rewrite E. rewrite dot_vscale_l, (dot_comm u).
    pose proof (cos_le_0 rad ltac:(lra)). pose proof (norm_nonneg v0). assert (0 <= k * norm v0) by nra.
    split; [nra|]. split; auto. intros Hin. rewrite norm_vscale, (proj1 (unit_norm u) Uu), Rabs_pos_eq by auto.
    rewrite (Xu Hin). ring.
Qed.

(** Without sticky surface, in a static environment and with normals that point away from the obstacle: the full
    speed, not into the touched obstacle. *)
Theorem C72_contact_full_speed_partial : forall cut conv v obs i o, let close := taken cut obs in
  relative_of close (weights_of (map ao_gamma close)) = vzero n ->
  length v = n -> norm v <> 0 -> length conv = n -> norm conv <> 0 ->
  one_at i (weights_of (map ao_gamma close)) -> nth_error close i = Some o -> ao_gamma o = 1 ->
  dot (ao_normal o) (into o) < 0 ->
  dot (direction conv) (direction v) <> -1 ->
  (forall o', In o' close -> admissible conv o') ->
  (forall o', In o' close -> ao_gamma o' <> 1 -> apart (direction conv) (direction v) /\ apart (direction conv) (toward o')) ->
  exists w, avoid_velocity orth0 orth1 sort rad power tail weights_of relative_of cut false v conv obs = Ok w /\
    0 <= dot w (ao_normal o) /\ norm w = norm v /\
    (cos rad < dot (toward o) (direction conv) -> dot w (toward o) = norm v * cos rad).
Proof.
  intros cut conv v obs i o close Rel Lv Nv Lc Nc OA Ei Hg Hin Hv AD AP.
  destruct (sum_contact cut conv v obs i o OA Ei Hg Lc Nc Lv Nv Hv AD AP) as (u & Eu & Lu & Uu & Du & Xu).
  pose proof (nth_error_In _ _ Ei) as Io. destruct (AD o Io) as (WP & _). pose proof WP as (Ln & _ & _ & Un & _).
  assert (Et : toward o = vscale (-1) (ao_normal o)) by (unfold toward; destruct (Rlt_dec (dot (ao_normal o) (into o)) 0); [auto|lra]).
  rewrite Et in Du.
  rewrite dot_vscale_l in Du. pose proof (cos_le_0 rad ltac:(lra)) as C0.
  assert (NE : close <> []) by (intros E; rewrite E in Ei; destruct i; discriminate).
  unfold avoid_velocity. rewrite avoid_taken by auto. cbv zeta. fold close.
  rewrite Rel. assert (E0 : vsub v (vzero n) = v) by (vext; ring). rewrite E0.
  destruct (Req_EM_T (norm v) 0); [contradiction|]. fold close in Eu. rewrite Eu. cbn [bind].
  rewrite Lv.
  rewrite (wsum_one n _ _ i (ao_normal o) OA).
  2:{ apply map_nth_error. auto. }
  2:{ intros x I. apply in_map_iff in I. destruct I as (o' & <- & I). apply (AD o' I). }
  assert (RM : rmin_list (map ao_gamma close) = 1).
  { assert (NM : map ao_gamma close <> []) by (intros E; apply map_eq_nil in E; auto).
    pose proof (rmin_list_in _ NM) as I1.
    assert (I2 : rmin_list (map ao_gamma close) <= 1) by (apply rmin_list_le; rewrite <- Hg; apply in_map; auto).
    apply in_map_iff in I1. destruct I1 as (o' & E' & I'). pose proof (taken_gamma cut obs o' I'). lra. }
  rewrite RM. unfold compute_safe_magnitude. pose proof (proj1 (unit_norm u) Uu) as Nu. rewrite Nu.
  destruct (Req_EM_T 1 0); [lra|].
  assert (D : 0 <= dot u (ao_normal o)) by (rewrite dot_comm; lra).
  rewrite (proj2 (Rltb_false 1 1)) by lra.
  match goal with |- exists w, bind ?X _ = _ /\ _ => assert (EX : X = Ok (vscale 1 (vscale (norm v) (vdiv u 1)))) end.
  { destruct (Rltb 0 (dot u (ao_normal o)) || Reqb (norm (ao_normal o)) 0); auto.
    destruct (Rle_dec 1 1); [|lra]. rewrite (proj2 (Rltb_false (dot u (ao_normal o)) (-1/1000))) by lra. auto. }
  rewrite EX. cbn [bind].
  assert (EV : vadd (vscale 1 (vscale (norm v) (vdiv u 1))) (vzero n) = vscale (norm v) u).
  { unfold vdiv. vext. rewrite Rinv_1. ring. }
  rewrite EV. pose proof (norm_nonneg v) as NN.
  assert (NV : norm (vscale (norm v) u) = norm v) by (rewrite norm_vscale, Nu, Rabs_pos_eq; lra).
  rewrite NV. destruct (Req_EM_T (norm v) 0); [contradiction|].
  assert (EW : vscale (norm v) (vdiv (vscale (norm v) u) (norm v)) = vscale (norm v) u).
  { unfold vdiv. vext. field. auto. }
  rewrite EW. eexists. split; [reflexivity|]. rewrite !dot_vscale_l. split; [nra|]. split; auto.
  intros Hi2. rewrite (dot_comm u), (Xu Hi2). auto.
Qed.
End Around.

(** A convergence velocity straight away from the touched obstacle, or straight against the
    initial velocity, makes the summing fail. *)
Lemma summing_opposite n orth0 sort rad power conv ref b g v0 crad : (2 <= n)%nat -> INR n < 10 ^ 16 -> base_ok n b ->
  0 <= rad <= PI -> crad <= PI / 2 -> 0 <= power -> 0 < g <= 1 ->
  length conv = n -> length ref = n -> length v0 = n -> norm conv <> 0 -> norm ref <> 0 -> norm v0 <> 0 ->
  sorts sort -> dot (dirof conv) (bs0 b) = -1 \/ dot (dirof conv) (dirof v0) = -1 ->
  directional_convergence_summing orth0 sort rad power false conv ref b g v0 crad = Err ENaN.
Proof.
  intros Hn Sm B Hr Hcr Hpw Hg Lc Lr Lv Nc Nr Nv SS Op. pose proof B as (L0 & _ & U0 & _).
  destruct (continuation_form n rad power conv ref b Hn B Lc Lr Nc Nr Hpw) as [C1 _].
  assert (T : exists tg, get_pseudo_tangent rad false conv ref b = Ok tg /\ length tg = n /\ norm tg <> 0).
  { destruct (pseudo_tangent_ok n rad false conv ref b Hn B Hr Lc Lr Nc Nr) as [K1 K2].
    destruct (Rle_dec rad (acos (dot (bs0 b) (dirof conv)))) as [H|H]; [exists conv; auto|].
    destruct K2 as (t & E & Lt & Ut & _); [left; lra|]. exists t. split; auto. split; auto. apply unit_norm_neq; auto. }
  destruct T as (tg & Et & Lt & Nt).
  unfold directional_convergence_summing. rewrite (C1 g Hg). cbn [bind]. rewrite (proj2 (Rleb_false 1 0)) by lra.
  rewrite Et. cbn [bind].
  destruct (set_root_grown n (NInt (-1)) conv Hn Lc Nc) as (t0 & -> & [W0 _] & I0 & N0 & E0). cbn [bind].
  destruct (add_node_plain n t0 (NInt (-1)) (NInt 0) v0 (NInt (-1)) _ W0 N0) as (t1 & -> & W1 & I1 & K1 & N1 & E1); auto.
  { simpl; lia. } { rewrite I0. intros [E|[]]; discriminate. }
  cbn [lift bind fst snd].
  destruct (add_node_plain n t1 (NInt (-1)) (NInt 1) (bs0 b) (NInt (-1)) _ W1 (K1 _ _ N0)) as (t2 & -> & W2 & I2 & K2 & N2 & E2); auto.
  { simpl; lia. } { apply unit_norm_neq; auto. } { rewrite I1, I0. intros [E|[E|[]]]; discriminate. }
  cbn [lift bind fst snd]. pose proof PI_RGT_0. rewrite (proj2 (Rltb_false (PI * / 2) crad)) by lra. cbn [bind].
  destruct (add_node_plain n t2 (NInt (-1)) (NInt 3) tg (NInt 1) _ W2 N2) as (t4 & -> & W4 & I4 & K4 & N4 & E4); auto.
  { simpl; lia. } { rewrite I2, I1, I0. intros [E|[E|[E|[]]]]; discriminate. }
  cbn [lift bind fst snd].
  assert (IN : forall y, In y [NInt 0; NInt 3] -> In y (ids t4)).
  { intros y [<-|[<-|[]]]; [apply (node_in_ids t4 _ _ (K4 _ _ (K2 _ _ N1)))|apply (node_in_ids t4 _ _ N4)]. }
  destruct Op as [Op|Op].
  - apply (proj2 (C73_opposite_neighbours_break_every_mean n t4 (NInt (-1)) (sort t4) orth0 blank [NInt 0; NInt 3] [1 - 1; 1]
      (NInt (-1)) (NInt 1) _ _ W4 Hn Sm (SS n t4 _ W4) eq_refl IN
      (proj2 (E4 _ _) (or_introl (proj2 (E2 _ _) (or_intror (conj eq_refl eq_refl))))) (K4 _ _ (K2 _ _ (K1 _ _ N0))) (K4 _ _ N2)
      (eq_trans (f_equal (dot (dirof conv)) (dirof_of_unit (bs0 b) U0)) Op))).
  - apply (proj2 (C73_opposite_neighbours_break_every_mean n t4 (NInt (-1)) (sort t4) orth0 blank [NInt 0; NInt 3] [1 - 1; 1]
      (NInt (-1)) (NInt 0) _ _ W4 Hn Sm (SS n t4 _ W4) eq_refl IN
      (proj2 (E4 _ _) (or_introl (proj2 (E2 _ _) (or_introl (proj2 (E1 _ _) (or_intror (conj eq_refl eq_refl)))))))
      (K4 _ _ (K2 _ _ (K1 _ _ N0))) (K4 _ _ (K2 _ _ N1)) Op)).
Qed.
Theorem C72_opposite_convergence_fails : forall n orth0 orth1 sort rad power weights_of relative_of cut sticky conv v o,
  (2 <= n)%nat -> INR n < 10 ^ 16 -> sorts sort -> 0 <= rad <= PI / 2 -> 0 <= power ->
  let close := taken cut [o] in
  let v0 := vsub v (relative_of close (weights_of (map ao_gamma close))) in
  length v0 = n -> norm v0 <> 0 -> length conv = n -> norm conv <> 0 ->
  well_posed n o -> ao_radius o = None -> ao_boundary o = false -> ao_gamma o <= 1 < cut ->
  dot (direction conv) (toward o) = -1 \/ dot (direction conv) (direction v0) = -1 ->
  avoid_velocity orth0 orth1 sort rad power false weights_of relative_of cut sticky v conv [o] = Err ENaN.
Proof.
  intros n orth0 orth1 sort rad power weights_of relative_of cut sticky conv v o Hn Sm SS Hr Hpw close v0
    L0 N0 Lc Nc WP Ra Bo Hg Op. pose proof PI_RGT_0 as HP.
  assert (Ec : close = [mkAObs 1 false (ao_normal o) (ao_second o) (ao_ref o) None]).
  { unfold close, taken. cbn [map filter]. destruct o as [g bo nm sc rf ra]. simpl in *. subst bo ra.
    unfold clamp_obstacle. cbn [ao_gamma ao_boundary negb ao_normal ao_second ao_ref ao_radius]. rewrite andb_true_r.
    destruct (Rltb g 1) eqn:Q; [|apply Rltb_false in Q; replace g with 1 by lra];
      cbn [ao_gamma]; rewrite (proj2 (Rltb_true 1 cut)) by lra; rewrite (proj2 (Rleb_true 1 1)) by lra; auto. }
  set (o1 := mkAObs 1 false (ao_normal o) (ao_second o) (ao_ref o) None) in *.
  assert (WP1 : well_posed n o1) by (destruct WP as (A & B & C & D & E & F & G); repeat split; auto).
  assert (T1 : toward o1 = toward o) by (unfold toward, into, o1; cbn [ao_normal ao_ref ao_boundary]; rewrite Bo; auto).
  destruct (null_base_spec n o1 WP1) as (b & Eb & B & B0 & Ni & Li & Pi).
  assert (NE : taken cut [o] <> []) by (fold close; rewrite Ec; discriminate).
  unfold avoid_velocity. rewrite avoid_taken by auto. cbv zeta. fold close. fold v0.
  destruct (Req_EM_T (norm v0) 0); [contradiction|]. rewrite Ec. unfold rotated_sum. cbn [mapM].
  unfold rotated_direction at 1. rewrite Eb. destruct (Req_EM_T (norm conv) 0); [contradiction|].
  cbn [o1 ao_radius ao_gamma]. rewrite (summing_opposite n); auto; try lra. rewrite B0, T1. auto.
Qed.

(** The plane, rotated by a right angle. *)
Definition left_unit (v : vec) : vec := [- nth 1 (direction v) 0; nth 0 (direction v) 0].
Lemma left_unit_ok v : length v = 2%nat -> norm v <> 0 ->
  length (left_unit v) = 2%nat /\ unitv (left_unit v) /\ dot (direction v) (left_unit v) = 0.
Proof.
  intros L N. pose proof (dirof_unit v N) as U. assert (Ld : length (dirof v) = 2%nat) by (rewrite dirof_length; auto).
  unfold left_unit. change (direction v) with (dirof v). destruct (dirof v) as [|x [|y [|]]]; simpl in Ld; try lia.
  unfold unitv, dot in *. simpl in *. split; auto. split; lra.
Qed.
Definition floor_obstacle (g : R) : aobs := mkAObs g false [0; 1] [1; 0] [0; -1] None.
Lemma floor_posed g : well_posed 2 (floor_obstacle g).
Proof. repeat split; unfold unitv, dot; simpl; lra. Qed.
Lemma floor_toward g : toward (floor_obstacle g) = [0; -1].
Proof.
  unfold toward, into. cbn [floor_obstacle ao_boundary ao_normal ao_ref]. replace (dot [0; 1] [0; -1]) with (-1) by (unfold dot; simpl; ring).
  destruct (Rlt_dec (-1) 0); [|lra]. unfold vscale. simpl. repeat f_equal; ring.
Qed.
Lemma floor_taken g : g < 1 -> taken 10 [floor_obstacle g] = [floor_obstacle 1].
Proof.
  intros H. unfold taken, floor_obstacle. cbn [map]. unfold clamp_obstacle.
  cbn [ao_gamma ao_boundary negb ao_normal ao_second ao_ref ao_radius]. rewrite (proj2 (Rltb_true g 1)) by auto. cbn [andb filter ao_gamma].
  rewrite (proj2 (Rltb_true 1 10)) by lra. rewrite (proj2 (Rleb_true 1 1)) by lra. auto.
Qed.
Lemma vsub_zero2 x y : vsub [x; y] [0; 0] = [x; y].
Proof. unfold vsub, vscale. simpl. f_equal; [|f_equal]; ring. Qed.

(** Leaving the surface straight away: an error instead of a velocity. *)
Theorem C72_contact_refuted : exists o conv v, well_posed 2 o /\ ao_gamma o <= 1 /\ dot v (ao_normal o) > 0 /\
  (forall orth0 orth1 weights_of sticky,
    avoid_velocity orth0 orth1 sort_by_level (PI / 2) 1 false weights_of (fun _ _ => [0; 0]) 10 sticky v conv [o] = Err ENaN).
Proof.
  exists (floor_obstacle (1/2)), [0; 1], [0; 1]. destruct norm_345 as (_ & _ & _ & N & _). pose proof PI_RGT_0.
  split; [apply floor_posed|]. split; [simpl; lra|]. split; [unfold dot; simpl; lra|]. intros orth0 orth1 weights_of sticky.
  apply (C72_opposite_convergence_fails 2); auto; try lra; rewrite ?vsub_zero2, ?N; auto; try lra.
  - simpl. lra.
  - intros n t r. apply sort_by_level_sorted.
  - apply floor_posed.
  - simpl. lra.
  - left. change (direction [0; 1]) with (dirof [0; 1]). rewrite dirof_of_unit by (apply unit_norm; auto).
    rewrite floor_toward. unfold dot. simpl. ring.
Qed.
Example C72_case : exists w,
  avoid_velocity (fun v => v) left_unit sort_by_level (PI / 2) 1 false (map (fun _ => 1)) (fun _ _ => [0; 0]) 10 true
    [4/5; -3/5] [4/5; -3/5] [floor_obstacle (1/2)] = Ok w /\ 0 <= dot w [0; 1] /\ norm w <= 1.
Proof.
  destruct norm_345 as (_ & N & _). pose proof PI_RGT_0.
  assert (T : taken 10 [floor_obstacle (1/2)] = [floor_obstacle 1]) by (apply floor_taken; lra).
  assert (U : unitv [4/5; -3/5]) by (apply unit_norm; auto).
  assert (DV : direction [4/5; -3/5] = [4/5; -3/5]) by (apply (dirof_of_unit _ U)).
  destruct (C72_contact_partial 2 (fun v => v) left_unit sort_by_level (PI / 2) 1 false (map (fun _ => 1)) (fun _ _ => [0; 0])
    ltac:(lia) ltac:(auto) left_unit_ok ltac:(intros n t r; apply sort_by_level_sorted) ltac:(lra) ltac:(lra)
    10 [4/5; -3/5] [4/5; -3/5] [floor_obstacle (1/2)] 0%nat (floor_obstacle 1)) as (w & E & D & B & _);
    rewrite ?T, ?vsub_zero2, ?N, ?DV; auto; try lra.
  - split; [simpl; lia|]. split; auto. intros [|[|j]] Hj; simpl; auto; lia.
  - unfold dot. simpl. lra.
  - intros o' [<-|[]]. split; [apply floor_posed|]. rewrite floor_toward, DV. split; [unfold dot; simpl; lra|]. left. simpl. lra.
  - intros o' [<-|[]] G. exfalso. apply G. auto.
  - exists w. split; auto. rewrite vsub_zero2, N in B. rewrite floor_toward in D. cbv beta in D, B.
    assert (Q : forall u : vec, dot (vsub u [0; 0]) [0; -1] = - dot u [0; 1] /\ norm (vsub u [0; 0]) = norm u).
    { intros u. assert (Z : forall x, dot [0; 0] x = 0) by (intros x; change [0; 0] with (vzero 2); apply dot_vzero_l).
      split; [rewrite dot_vsub_l, Z; replace [0; -1] with (vscale (-1) [0; 1]) by (unfold vscale; simpl; f_equal; [|f_equal]; ring); rewrite dot_vscale_r; ring|].
      unfold norm. f_equal. rewrite dot_vsub_l, !dot_vsub_r, (dot_comm u [0; 0]), !Z. ring. }
    destruct (Q w) as [Q1 Q2]. rewrite Q1 in D. rewrite Q2 in B. split; lra.
Qed.
Print Assumptions C72_contact_partial.
Print Assumptions C72_contact_full_speed_partial.
Print Assumptions C72_opposite_convergence_fails.
Print Assumptions C72_contact_refuted.
