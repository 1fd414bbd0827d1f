(** Properties C106 and C107: the velocity outside of the regions of the k-means learner and the
    direction of its local dynamics. *)
Require Import Reals List Bool Arith ZArith Lra Lia Psatz Permutation.
From Verif Require Import Base Vec Angle Pow RotModel Spec RotProofs ProjModel PropProject ConvProofs RotAvoidModel RotAvoidProofs
  PropDynamics KMeansModel KMeansProofs PropKMeans KLearnModel PropKLearn.
Import ListNotations.
Open Scope R_scope.

(** The second basis vector of a direction is a unit vector perpendicular to it. *)
Definition frames (n : nat) (orth1 : vec -> vec) : Prop :=
  forall v, length v = n -> norm v <> 0 -> length (orth1 v) = n /\ unitv (orth1 v) /\ dot v (orth1 v) = 0.
Lemma frames_base n orth1 v : frames n orth1 -> length v = n -> norm v <> 0 -> base_ok n (mkBase (direction v) (orth1 v)).
Proof.
  intros F L N. destruct (F v L N) as (A & B & C). unfold base_ok. cbn [bs0 bs1]. repeat split; auto.
  - unfold direction. rewrite length_vscale. auto.
  - apply unit_vdiv; auto.
  - unfold direction. rewrite dot_vscale_l, C. ring.
Qed.

(** ** A turn by a part of the angle *)
Lemma turn_part n b t a w : base_ok n b -> length t = n -> unitv t -> angle_of_dir n b t a -> 0 <= w <= 1 ->
  let u := vector_from_angle (bs0 b) (vscale w a) in
  unitv u /\ acos (dot u t) = (1 - w) * acos (dot (bs0 b) t).
Proof.
  intros (L0 & L1 & U0 & U1 & O) Lt Ut A Hw u. set (th := acos (dot (bs0 b) t)).
  pose proof (acos_bound (dot (bs0 b) t)) as Bt. fold th in Bt.
  assert (Na : norm a = th) by apply A.
  assert (Nw : norm (vscale w a) = w * th) by (rewrite norm_vscale, Na, Rabs_pos_eq by lra; auto).
  assert (P : dot (bs0 b) (vscale w a) = 0) by (rewrite dot_vscale_r, (ad_perp _ _ _ _ A); ring).
  assert (La : length a = n) by apply A.
  split.
  - unfold u, vector_from_angle. destruct (Req_EM_T (norm (vscale w a)) 0) as [Z|Z]; auto. unfold unitv in *.
    set (x := vscale w a) in *. autorewrite with vdot. rewrite (dot_comm x (bs0 b)), P, U0.
    pose proof (norm_sq x) as Q. rewrite <- Q. pose proof (sin2_cos2 (norm x)) as S2. unfold Rsqr in S2.
    transitivity (cos (norm x) * cos (norm x) + sin (norm x) * sin (norm x)); [field; auto|lra].
  - assert (D : dot u t = cos ((1 - w) * th)).
    { pose proof (ad_back _ _ _ _ A) as Bk. destruct (Req_dec th 0) as [Z|Z].
      - rewrite Z, Rmult_0_r, cos_0. unfold u, vector_from_angle. rewrite Nw, Z, Rmult_0_r.
        unfold vector_from_angle in Bk. rewrite Na, Z in Bk.
        destruct (Req_EM_T 0 0) in Bk |- *; [|congruence]. rewrite Bk. apply Ut.
      - assert (Et : t = vadd (vscale (cos th) (bs0 b)) (vscale (sin th / th) a)).
        { rewrite <- Bk at 1. unfold vector_from_angle. rewrite Na. destruct (Req_EM_T th 0); [contradiction|auto]. }
        assert (D0 : dot (bs0 b) t = cos th) by (unfold th; rewrite cos_acos; auto; apply unit_dot_bounds; auto).
        assert (Da : dot a t = th * sin th).
        { rewrite Et. autorewrite with vdot. rewrite (dot_comm a (bs0 b)), (ad_perp _ _ _ _ A), <- norm_sq, Na. field. auto. }
        unfold u, vector_from_angle. rewrite Nw. destruct (Req_EM_T (w * th) 0) as [Zw|Zw].
        + rewrite D0. assert (w = 0) by nra. subst w. f_equal. ring.
        + autorewrite with vdot. rewrite D0, Da. replace ((1 - w) * th) with (th - w * th) by ring.
          rewrite cos_minus. assert (w <> 0) by (intros ->; apply Zw; ring). field. auto. }
    rewrite D. apply acos_cos. split; [apply Rmult_le_pos; lra|]. assert (w * th >= 0) by (apply Rle_ge, Rmult_le_pos; lra).
    rewrite Rmult_minus_distr_r. lra.
Qed.
(** The null direction itself has the angle zero. *)
Lemma angle_null n b v : (2 <= n)%nat -> base_ok n b -> length v = n -> norm v <> 0 -> direction v = bs0 b ->
  angle_in b v = Ok (vzero n).
Proof.
  intros Hn B L N E. destruct (angle_in_ok n b v Hn B L N) as (a & Ea & A). rewrite Ea. f_equal.
  assert (Na : norm a = 0).
  { rewrite (ad_norm _ _ _ _ A). change (dirof v) with (direction v). rewrite E.
    destruct B as (_ & _ & U & _). unfold unitv in U. rewrite U. apply acos_1. }
  apply norm_zero_iff in Na. rewrite (ad_len _ _ _ _ A) in Na. auto.
Qed.

(** * C106 *)
Definition towards (p c : vec) : vec := direction (vsub c p).
(** The weight of a cluster: its size grows with the inverse of the distance from the sphere, and
    is less the more the direction of the outside points away. *)
Definition pull (r : R) (p c v : vec) : R :=
  Rpower (3 * r / (dist p c - r)) ((1 + dot (towards p c) (direction v)) / 2).

Lemma pull_gt_1 r p c v : 0 < r -> r < dist p c < 4 * r -> dot (towards p c) (direction v) > -1 -> 1 < pull r p c v.
Proof.
  intros R0 D H. unfold pull. rewrite <- (Rpower_O (3 * r / (dist p c - r))) at 1 by (apply Rdiv_lt_0_compat; lra).
  apply Rpower_lt; [|lra]. apply (Rmult_lt_reg_r (dist p c - r)); [lra|]. unfold Rdiv. rewrite Rmult_assoc, Rinv_l by lra. lra.
Qed.
Lemma surface_weights_ok r v p rel : 0 < r -> (forall c, In c rel -> r < dist p c < 4 * r) -> norm v <> 0 ->
  (exists c, In c rel /\ dot (towards p c) (direction v) > -1) ->
  exists kept, kept <> [] /\ (forall c, In c kept <-> In c rel /\ dot (towards p c) (direction v) > -1) /\
    kept = filter (fun c => Rltb 0 (dot (towards p c) (direction v) - cos PI)) rel /\
    surface_weights r v p rel = Ok (Some (combine (map (towards p) kept) (map (fun c => pull r p c v) kept))).
Proof.
  intros R0 HR Nv (c0 & I0 & H0). set (kept := filter (fun c => Rltb 0 (dot (towards p c) (direction v) - cos PI)) rel).
  assert (HK : forall c, In c kept <-> In c rel /\ dot (towards p c) (direction v) > -1).
  { intros c. unfold kept. rewrite filter_In, Rltb_true, cos_PI. split; intros [A B]; (split; [auto|lra]). }
  exists kept. split; [intros E; assert (Q : In c0 kept) by (apply HK; auto); rewrite E in Q; destruct Q|]. split; auto. split; auto.
  unfold surface_weights. rewrite (existsb_no _ rel).
  2: { intros c Hc. apply HR in Hc. apply Reqb_false. unfold dist in Hc. lra. }
  replace (forallb _ rel) with false.
  2: { symmetry. destruct (forallb _ rel) eqn:Q; auto. rewrite forallb_forall in Q. specialize (Q c0 I0). apply Rleb_true in Q.
       apply HR in I0. unfold dist in I0. assert (0 < (r * 4 - r) / (norm (vsub p c0) - r)) by (apply Rdiv_lt_0_compat; lra). lra. }
  destruct (Req_EM_T (norm v) 0); [contradiction|]. rewrite (existsb_no _ rel).
  2: { intros c Hc. apply HR in Hc. apply Reqb_false. rewrite dist_sym in Hc. unfold dist in Hc. lra. }
  change (filter _ rel) with kept. destruct kept as [|k0 ks] eqn:EK.
  { assert (Q : In c0 []) by (apply HK; auto). destruct Q. }
  rewrite <- EK in *. assert (M : mapM (fun c => fpow ((r * 4 - r) / (norm (vsub p c) - r))
      ((dot (vdiv (vsub c p) (norm (vsub c p))) (vdiv v (norm v)) - cos PI) / (1 - cos PI))) kept = Ok (map (fun c => pull r p c v) kept)).
  { assert (HK' : forall c, In c kept -> In c rel) by (intros c Hc; apply HK; auto). clear - HR HK' R0.
    induction kept as [|c l IH]; auto. cbn [mapM map].
    assert (D : r < dist p c < 4 * r) by (apply HR, HK'; left; auto). unfold dist in D.
    rewrite fpow_pos by (apply Rdiv_lt_0_compat; lra). cbn [bind]. rewrite IH by (intros; apply HK'; right; auto). cbn [bind].
    f_equal. f_equal. unfold pull, dist. rewrite cos_PI. f_equal; [field; lra|].
    change (vdiv (vsub c p) (norm (vsub c p))) with (towards p c). change (vdiv v (norm v)) with (direction v). field. }
  rewrite M. reflexivity.
Qed.
Lemma all_weights_cases ws : (forall w, In w ws -> 1 < w) -> ws <> [] ->
  exists ms w0, all_weights ws = ms ++ [w0] /\ length ms = length ws /\ (forall m, In m ms -> 0 < m) /\ w0 <= 0 /\
    (10 < rsum ws -> rsum (ms ++ [w0]) = 1 /\ w0 = 0) /\ (rsum ws <= 10 -> rsum (ms ++ [w0]) = 1 / 10 /\ w0 < 0).
Proof.
  intros H NE. assert (G : 1 < rsum ws).
  { destruct ws as [|w ws]; [congruence|]. cbn [rsum fold_right]. assert (1 < w) by (apply H; left; auto).
    assert (0 <= rsum ws) by (apply rsum_nonneg; intros x Hx; assert (1 < x) by (apply H; right; auto); lra).
    unfold rsum in *. cbn [fold_right]. lra. }
  unfold all_weights. destruct (Rltb 10 (rsum ws)) eqn:Q.
  - apply Rltb_true in Q. exists (map (fun w => w / rsum ws) ws), 0. split; auto. split; [apply map_length|]. repeat split; try lra.
    + intros m Hm. apply in_map_iff in Hm as (w & <- & Hw). apply H in Hw. apply Rdiv_lt_0_compat; lra.
    + rewrite rsum_app. rewrite (rsum_div ws). cbn. field. lra.
  - apply Rltb_false in Q. exists (map (fun w => w / 10) ws), ((1 - rsum ws) / 10). rewrite map_app. split; auto. split; [apply map_length|].
    repeat split; try lra.
    + intros m Hm. apply in_map_iff in Hm as (w & <- & Hw). apply H in Hw. lra.
    + rewrite rsum_app, (rsum_div ws). cbn. field.
Qed.
(** Outside of the balls, the clusters closer than the cut-off which are not exactly behind get
    weights above one.  The velocity of the outside therefore never has a positive weight, and the
    weights handed to the mean sum to one only when the clusters together exceed ten; below they
    sum to a tenth. *)
Theorem C106_weights_refuted r v p rel : 0 < r -> (forall c, In c rel -> r < dist p c < 4 * r) -> norm v <> 0 ->
  (exists c, In c rel /\ dot (towards p c) (direction v) > -1) ->
  exists l, surface_weights r v p rel = Ok (Some l) /\
    (forall u w, In (u, w) l -> 1 < w /\ exists c, In c rel /\ u = towards p c) /\
    exists ms w0, all_weights (map snd l) = ms ++ [w0] /\ length ms = length l /\ w0 <= 0 /\
      (10 < rsum (map snd l) -> rsum (ms ++ [w0]) = 1) /\ (rsum (map snd l) <= 10 -> rsum (ms ++ [w0]) = 1 / 10).
Proof.
  intros R0 HR Nv HB. destruct (surface_weights_ok r v p rel R0 HR Nv HB) as (kept & NE & HK & _ & E).
  eexists. split; [exact E|]. split.
  - intros u w Hin. assert (G : forall l, (forall c, In c l -> In c kept) -> In (u, w) (combine (map (towards p) l) (map (fun c => pull r p c v) l)) ->
      1 < w /\ exists c, In c rel /\ u = towards p c).
    { induction l as [|c l IH]; [intros _ []|]. intros Hl [Q|Q]; [|apply IH; auto; intros; apply Hl; right; auto].
      injection Q as Q1 Q2. assert (Ic : In c kept) by (apply Hl; left; auto). apply HK in Ic as [Ic Dc]. split.
      - rewrite <- Q2. apply pull_gt_1; auto.
      - exists c. auto. }
    apply (G kept); auto.
  - assert (ES : map snd (combine (map (towards p) kept) (map (fun c => pull r p c v) kept)) = map (fun c => pull r p c v) kept).
    { clear. induction kept as [|c l IH]; auto. cbn. rewrite IH. auto. }
    rewrite ES. destruct (all_weights_cases (map (fun c => pull r p c v) kept)) as (ms & w0 & A & B & C & D & F1 & F2).
    + intros w Hw. apply in_map_iff in Hw as (c & <- & Hc). apply HK in Hc as [Ic Dc]. apply pull_gt_1; auto.
    + destruct kept; [congruence|discriminate].
    + exists ms, w0. split; auto. rewrite combine_length, !map_length, Nat.min_id in *. repeat split; auto; intros H; [apply F1|apply F2]; auto.
Qed.

Section Out.
Variables (orth1 : vec -> vec) (n : nat).
Hypothesis Hn : (2 <= n)%nat.
Hypothesis HF : frames n orth1.

(** One cluster closer than the cut-off: the velocity is turned from the direction of the outside
    to the one of the center, by more than a tenth of the angle between them, and completely when
    the weight reaches ten; it has speed one. *)
Theorem C106_single r outside p l1 c l2 : 0 < r -> length p = n -> length c = n ->
  length (outside p) = n -> norm (outside p) <> 0 -> r < dist p c < 4 * r ->
  (forall c', In c' (l1 ++ l2) -> 4 * r <= dist p c') ->
  dot (towards p c) (direction (outside p)) > -1 ->
  let w := Rmin 1 (pull r p c (outside p) / 10) in
  1 / 10 < w <= 1 /\
  exists u, predict_outside orth1 (l1 ++ c :: l2) r outside p = Ok u /\ unitv u /\ length u = n /\
    acos (dot u (towards p c)) = (1 - w) * acos (dot (direction (outside p)) (towards p c)) /\
    (10 <= pull r p c (outside p) -> u = towards p c).
Proof.
  intros R0 Lp Lc Lv Nv D HO HB w. pose proof (pull_gt_1 r p c (outside p) R0 D HB) as G1.
  assert (Hw : 1 / 10 < w <= 1).
  { unfold w. pose proof (Rmin_l 1 (pull r p c (outside p) / 10)). split; auto. apply Rmin_glb_lt; lra. }
  split; auto. unfold predict_outside.
  assert (EF : filter (fun c => Rltb (norm (vsub p c)) (r * 4)) (l1 ++ c :: l2) = [c]).
  { rewrite filter_app. cbn [filter]. fold (dist p c). rewrite (proj2 (Rltb_true (dist p c) (r * 4))) by lra.
    rewrite !filter_none; auto; intros x Hx; apply Rltb_false; fold (dist p x); rewrite Rmult_comm; apply HO; apply in_or_app; auto. }
  rewrite EF. destruct (surface_weights_ok r (outside p) p [c]) as (kept & NE & HK & Ek & E); auto.
  { intros x [<-|[]]. auto. }
  { exists c. split; [left; auto|auto]. }
  assert (EK : kept = [c]).
  { rewrite Ek. cbn [filter]. rewrite (proj2 (Rltb_true _ _)); auto. rewrite cos_PI. lra. }
  rewrite EK in E. cbn [map combine] in E. rewrite E. cbn [bind map fst snd app]. set (s := pull r p c (outside p)) in *.
  unfold mean_around. destruct (Req_EM_T (norm (outside p)) 0); [contradiction|].
  change (vdiv (outside p) (norm (outside p))) with (direction (outside p)).
  set (b := mkBase (direction (outside p)) (orth1 (outside p))).
  assert (B : base_ok n b) by (apply frames_base; auto).
  assert (Nc : norm (vsub c p) <> 0) by (rewrite dist_sym in D; unfold dist in D; lra).
  assert (Ut : unitv (towards p c)) by (apply unit_vdiv; auto).
  assert (Lt : length (towards p c) = n) by (unfold towards, direction; autorewrite with vlen; lia).
  assert (Nt : norm (towards p c) = 1) by (apply unit_norm; auto).
  destruct (angle_in_ok n b (towards p c) Hn B Lt ltac:(lra)) as (a & Ea & A).
  assert (Ed : dirof (towards p c) = towards p c).
  { unfold dirof. rewrite Nt. vext. field. }
  rewrite Ed in A.
  assert (EW : all_weights [s] = [w; if Rltb 10 s then 0 else (1 - s) / 10]).
  { unfold all_weights. assert (E1 : rsum [s] = s) by (cbn; ring). rewrite E1. unfold w. destruct (Rltb 10 s) eqn:Q.
    - apply Rltb_true in Q. rewrite Rmin_left by lra. cbn [map app]. replace (s / s) with 1 by (field; lra). auto.
    - apply Rltb_false in Q. rewrite Rmin_right by lra. cbn. auto. }
  rewrite EW. unfold directional_weighted_sum. cbn [mapM]. rewrite Ea. cbn [bind].
  rewrite (angle_null n b (outside p) Hn B Lv Nv eq_refl). cbn [bind combine fold_right fst snd].
  set (w0 := if Rltb 10 s then 0 else (1 - s) / 10).
  assert (L0 : length (bs0 b) = n) by apply B. pose proof (ad_len _ _ _ _ A) as La.
  replace (vadd (vscale w a) (vadd (vscale w0 (vzero n)) (vzero (length (bs0 b))))) with (vscale w a).
  2: { rewrite L0. vext. rewrite ?nth_vzero. ring. }
  destruct (turn_part n b (towards p c) a w B Lt Ut A ltac:(lra)) as (Uu & Au).
  eexists. split; [reflexivity|]. split; auto. split.
  { destruct B as (_ & _ & U0 & _). apply (fun x y => vector_from_angle_spec n (bs0 b) (vscale w a) L0 x U0 y);
      [autorewrite with vlen; auto|rewrite dot_vscale_r, (ad_perp _ _ _ _ A); ring]. }
  split; auto. intros H. assert (Ew : w = 1) by (unfold w; apply Rmin_left; lra). rewrite Ew.
  replace (vscale 1 a) with a by (vext; ring). apply (ad_back _ _ _ _ A).
Qed.

(** Crossing the cut-off: outside of it the velocity is the one of the outside; inside, where that
    one is perpendicular to the direction of the center, it points to the center by at least a
    twentieth of half a turn.  So the velocity jumps. *)
Theorem C106_cutoff_refuted r outside l1 c l2 : 0 < r -> length c = n ->
  (forall p, 4 * r <= dist p c -> (forall c', In c' (l1 ++ l2) -> 4 * r <= dist p c') ->
     predict_outside orth1 (l1 ++ c :: l2) r outside p = Ok (outside p)) /\
  (forall q, length q = n -> length (outside q) = n -> norm (outside q) <> 0 -> r < dist q c < 4 * r ->
     (forall c', In c' (l1 ++ l2) -> 4 * r <= dist q c') -> dot (towards q c) (outside q) = 0 ->
     exists u, predict_outside orth1 (l1 ++ c :: l2) r outside q = Ok u /\ sin (PI / 20) <= dot u (towards q c)).
Proof.
  intros R0 Lc. split.
  - intros p D HO. unfold predict_outside. rewrite filter_none; auto. intros x Hx. apply Rltb_false. fold (dist p x). rewrite Rmult_comm.
    apply in_app_or in Hx as [Hx|[<-|Hx]]; auto; apply HO, in_or_app; auto.
  - intros q Lq Lv Nv D HO P. assert (Dz : dot (towards q c) (direction (outside q)) = 0) by (unfold direction; rewrite dot_vscale_r, P; ring).
    destruct (C106_single r outside q l1 c l2 R0 Lq Lc Lv Nv D HO ltac:(lra)) as (Hw & u & E & Uu & Lu & A & _).
    set (w := Rmin 1 _) in *. exists u. split; auto. rewrite (dot_comm (direction (outside q))), Dz, acos_0 in A.
    assert (Nc : norm (vsub c q) <> 0) by (rewrite dist_sym in D; unfold dist in D; lra).
    assert (Ut : unitv (towards q c)) by (apply unit_vdiv; auto).
    rewrite <- (cos_acos (dot u (towards q c))) by (apply unit_dot_bounds; auto). rewrite A.
    replace (PI / 20) with (PI / 2 - 9 / 10 * (PI / 2)) by field. rewrite sin_shift.
    pose proof PI_RGT_0 as PP. apply cos_decr_1; try nra.
Qed.
(** A cluster exactly behind is ignored, however close: the velocity leads straight away. *)
Theorem C106_behind r outside p l1 c l2 : 0 < r -> norm (outside p) <> 0 -> r < dist p c < 4 * r ->
  (forall c', In c' (l1 ++ l2) -> 4 * r <= dist p c') -> dot (towards p c) (direction (outside p)) = -1 ->
  predict_outside orth1 (l1 ++ c :: l2) r outside p = Ok (outside p).
Proof.
  intros R0 Nv D HO HB. unfold predict_outside.
  assert (EF : filter (fun c => Rltb (norm (vsub p c)) (r * 4)) (l1 ++ c :: l2) = [c]).
  { rewrite filter_app. cbn [filter]. fold (dist p c). rewrite (proj2 (Rltb_true (dist p c) (r * 4))) by lra.
    rewrite !filter_none; auto; intros x Hx; apply Rltb_false; fold (dist p x); rewrite Rmult_comm; apply HO; apply in_or_app; auto. }
  rewrite EF. unfold surface_weights. cbn [existsb forallb filter].
  fold (dist p c). rewrite (proj2 (Reqb_false (dist p c - r) 0)) by lra. cbn [orb].
  rewrite (proj2 (Rleb_false ((r * 4 - r) / (dist p c - r)) 0)) by (apply Rdiv_lt_0_compat; lra). cbn [andb].
  destruct (Req_EM_T (norm (outside p)) 0); [contradiction|].
  rewrite (proj2 (Reqb_false (norm (vsub c p)) 0)) by (rewrite dist_sym in D; unfold dist in D; lra). cbn [orb].
  change (vdiv (vsub c p) (norm (vsub c p))) with (towards p c). change (vdiv (outside p) (norm (outside p))) with (direction (outside p)).
  rewrite HB, cos_PI. rewrite (proj2 (Rltb_false 0 (-1 - -1))) by lra. reflexivity.
Qed.
(** Every other velocity has speed one, whatever the one of the outside has. *)
Lemma mean_unit null ws ds u : length null = n -> (forall d, In d ds -> length d = n) ->
  mean_around orth1 null ws ds = Ok u -> unitv u /\ length u = n.
Proof.
  intros Ln Ld E. unfold mean_around in E. destruct (Req_EM_T (norm null) 0); [discriminate|].
  set (b := mkBase _ _) in E. assert (B : base_ok n b) by (apply frames_base; auto). unfold directional_weighted_sum in E.
  destruct (mapM (angle_in b) ds) as [angles|] eqn:EA; [|discriminate]. cbn [bind] in E. injection E as E. rewrite <- E.
  destruct B as (L0 & L1 & U0 & U1 & O).
  assert (HA : forall a, In a angles -> length a = n /\ dot (bs0 b) a = 0).
  { intros a Ha. destruct (mapM_In_inv _ _ _ EA a Ha) as (d & Hd & Ed). unfold angle_in in Ed.
    destruct (Req_EM_T (norm d) 0) as [|Nd]; [discriminate|]. 
    destruct (angle_in_ok n b d Hn (conj L0 (conj L1 (conj U0 (conj U1 O)))) (Ld d Hd) Nd) as (a' & Ea' & A').
    unfold angle_in in Ea'. destruct (Req_EM_T (norm d) 0); [contradiction|]. assert (a' = a) by congruence. subst a'.
    split; apply A'. }
  set (sum := fold_right _ _ _). assert (HS : length sum = n /\ dot (bs0 b) sum = 0).
  { unfold sum. clear sum E EA. revert angles HA. induction ws as [|w ws IH]; intros angles HA.
    - cbn. split; [rewrite length_vzero; auto|apply dot_vzero_r].
    - destruct angles as [|a angles]; [cbn; split; [rewrite length_vzero; auto|apply dot_vzero_r]|]. cbn [combine fold_right fst snd].
      destruct (IH angles) as (A1 & A2); [intros; apply HA; right; auto|]. destruct (HA a ltac:(left; auto)) as (B1 & B2).
      split; [rewrite length_vadd, A1, length_vscale; lia|]. rewrite dot_vadd_r, dot_vscale_r, A2, B2. ring. }
  destruct (vector_from_angle_spec n (bs0 b) sum L0 (proj1 HS) U0 (proj2 HS)) as (V1 & V2 & _). auto.
Qed.
Theorem C106_speed centers r outside p u : (forall c, In c centers -> length c = n) -> length p = n -> length (outside p) = n ->
  predict_outside orth1 centers r outside p = Ok u -> u = outside p \/ norm u = 1.
Proof.
  intros HC Lp Lv E. unfold predict_outside in E. destruct (filter _ centers) as [|c0 cs] eqn:EF; [left; congruence|]. rewrite <- EF in E.
  set (rel := filter _ centers) in E. destruct (surface_weights _ _ _ rel) as [[l|]|] eqn:ES; [|left; cbn in E; congruence|discriminate].
  right. cbn [bind] in E. apply unit_norm. apply (mean_unit _ _ _ _ Lv) in E; [apply E|]. intros d Hd. apply in_app_or in Hd as [Hd|[<-|[]]]; auto.
  apply in_map_iff in Hd as ([d' w] & Ed & Hd). cbn [fst] in Ed. subst d'. unfold surface_weights in ES.
  destruct (existsb _ rel); [discriminate|]. destruct (forallb _ rel); [discriminate|]. destruct (Req_EM_T _ 0); [discriminate|].
  destruct (existsb _ rel); [discriminate|]. destruct (filter _ rel) as [|k ks] eqn:EK; [discriminate|]. rewrite <- EK in ES.
  set (kept := filter _ rel) in ES. destruct (mapM _ kept) as [ws|]; [|discriminate]. cbn [bind] in ES. injection ES as ES. rewrite <- ES in Hd.
  apply in_combine_l in Hd. apply in_map_iff in Hd as (c & Ed & Hc). unfold kept in Hc. apply filter_In in Hc as [Hc _].
  apply filter_In in Hc as [Hc _]. apply HC in Hc. rewrite <- Ed. autorewrite with vlen. lia.
Qed.
End Out.

(** * C107 *)
(** Directions in the plane of the direction of the parent and another one. *)
Section Arc.
Variables (orth1 : vec -> vec) (n : nat) (e1 e2 : vec).
Hypothesis L1 : length e1 = n.
Hypothesis L2 : length e2 = n.
Hypothesis U1 : unitv e1.
Hypothesis U2 : unitv e2.
Hypothesis OE : dot e1 e2 = 0.
Definition arc (t : R) : vec := vadd (vscale (cos t) e1) (vscale (sin t) e2).
Definition arc' (t : R) : vec := vadd (vscale (- sin t) e1) (vscale (cos t) e2).
Lemma arc_len t : length (arc t) = n.
Proof. unfold arc. autorewrite with vlen. lia. Qed.
Lemma arc'_len t : length (arc' t) = n.
Proof. unfold arc'. autorewrite with vlen. lia. Qed.
Lemma arc_dot a b : dot (arc a) (arc b) = cos (a - b).
Proof.
  unfold arc. unfold unitv in *. autorewrite with vdot. rewrite (dot_comm e2 e1), OE, U1, U2, cos_minus. ring.
Qed.
Lemma arc'_dot t : dot (arc' t) (arc' t) = 1.
Proof.
  unfold arc'. unfold unitv in *. autorewrite with vdot. rewrite (dot_comm e2 e1), OE, U1, U2.
  pose proof (sin2_cos2 t) as S. unfold Rsqr in S. lra.
Qed.
Lemma arc_unit t : unitv (arc t).
Proof. unfold unitv. rewrite arc_dot. replace (t - t) with 0 by ring. apply cos_0. Qed.
Lemma arc_step a h : arc (a + h) = vadd (vscale (cos h) (arc a)) (vscale (sin h) (arc' a)).
Proof. unfold arc, arc'. rewrite cos_plus, sin_plus. vext. ring. Qed.
Lemma arc_zero : arc 0 = e1.
Proof. unfold arc. rewrite cos_0, sin_0. vext. ring. Qed.

Lemma mean_arc a b : - PI < b - a < PI -> mean_around orth1 (arc a) [1 / 2; 1 / 2] [arc a; arc b] = Ok (arc ((a + b) / 2)).
Proof.
  intros H. assert (Na : forall t, norm (arc t) = 1) by (intros t; apply unit_norm, arc_unit).
  assert (Ni : forall t, vdiv (arc t) 1 = arc t) by (intros t; vext; field).
  assert (N' : norm (arc' a) = 1) by (apply unit_norm; apply arc'_dot).
  unfold mean_around. rewrite Na. destruct (Req_EM_T 1 0); [lra|]. rewrite Ni. unfold directional_weighted_sum. cbn [mapM].
  set (base := mkBase (arc a) (orth1 (arc a))).
  assert (ANG : forall t, - PI < t - a < PI -> angle_in base (arc t) = Ok (vscale (t - a) (arc' a))).
  { intros t Ht. unfold angle_in. rewrite Na. destruct (Req_EM_T 1 0); [lra|]. rewrite Ni. f_equal. unfold angle_space. cbn [bs0 bs1 base].
    rewrite arc_dot. set (h := t - a) in *. replace (a - t) with (- h) by (unfold h; ring). rewrite cos_neg.
    assert (EP : vsub (arc t) (vscale (cos h) (arc a)) = vscale (sin h) (arc' a)).
    { replace t with (a + h) by (unfold h; ring). rewrite arc_step. pose proof (arc_len a). pose proof (arc'_len a). vext. ring. }
    rewrite EP, norm_vscale, N', Rmult_1_r. destruct (Req_EM_T (Rabs (sin h)) 0) as [Z|Z].
    - assert (Sz : sin h = 0) by (destruct (Req_dec (sin h) 0); auto; exfalso; apply (Rabs_no_R0 (sin h)); auto).
      assert (Hz : h = 0).
      { destruct (Rtotal_order h 0) as [Q|[Q|Q]]; auto; exfalso.
        - assert (0 < sin (- h)) by (apply sin_gt_0; lra). rewrite sin_neg in H0. lra.
        - assert (0 < sin h) by (apply sin_gt_0; lra). lra. }
      rewrite Hz, cos_0. destruct (Rltb 1 0) eqn:Q; [apply Rltb_true in Q; lra|]. rewrite arc_len. pose proof (arc'_len a). vext. rewrite ?nth_vzero. ring.
    - assert (Sn : sin h <> 0) by (intros E; apply Z; rewrite E; apply Rabs_R0).
      assert (AC : acos (cos h) * sin h = h * Rabs (sin h)).
      { destruct (Rle_dec 0 h) as [P|P].
        - rewrite acos_cos by lra. assert (0 <= sin h) by (apply sin_ge_0; lra). rewrite Rabs_pos_eq by auto. auto.
        - rewrite <- (cos_neg h). rewrite acos_cos by lra. assert (0 <= sin (- h)) by (apply sin_ge_0; lra). rewrite sin_neg in H0.
          rewrite Rabs_left1 by lra. ring. }
      pose proof (arc'_len a). vext.
      replace (acos (cos h) / Rabs (sin h) * (sin h * nth i (arc' a) 0)) with (acos (cos h) * sin h / Rabs (sin h) * nth i (arc' a) 0) by (field; auto).
      rewrite AC. field. auto. }
  rewrite (ANG a) by lra. cbn [bind]. rewrite (ANG b) by auto. cbn [bind combine fold_right fst snd bs0 base]. f_equal.
  set (h := (b - a) / 2).
  replace (vadd _ _) with (vscale h (arc' a)).
  2: { unfold h. rewrite arc_len. pose proof (arc'_len a). vext. rewrite ?nth_vzero. field. }
  unfold vector_from_angle. rewrite norm_vscale, N', Rmult_1_r. replace ((a + b) / 2) with (a + h) by (unfold h; field). rewrite arc_step.
  destruct (Req_EM_T (Rabs h) 0) as [Z|Z].
  - assert (Hz : h = 0) by (destruct (Req_dec h 0); auto; exfalso; apply (Rabs_no_R0 h); auto). rewrite Hz, cos_0, sin_0.
    pose proof (arc_len a). pose proof (arc'_len a). vext. ring.
  - pose proof (arc_len a). pose proof (arc'_len a). assert (CE : cos (Rabs h) = cos h) by (unfold Rabs; destruct (Rcase_abs h); [apply cos_neg|auto]).
    assert (SE : sin (Rabs h) * h = sin h * Rabs h) by (unfold Rabs; destruct (Rcase_abs h); [rewrite sin_neg; ring|auto]).
    rewrite CE. vext. replace (sin (Rabs h) / Rabs h * (h * nth i (arc' a) 0)) with (sin (Rabs h) * h / Rabs h * nth i (arc' a) 0) by (field; auto).
    rewrite SE. field. auto.
Qed.

(** The test along the arc. *)
Variables (points : vec -> res bool) (pt : R -> bool).
Hypothesis HP : forall t, 0 <= t < PI -> points (arc t) = Ok (pt t).

(** When the first mean does not point to the parent, no later direction does. *)
Lemma loop_never it : forall D P m, (forall t t', m <= t <= t' -> t' < PI -> pt t' = true -> pt t = true) ->
  0 <= m <= P -> P < D < PI -> pt D = false ->
  exists D', direction_loop orth1 points (arc D) (arc P) it = Ok (arc D') /\ m <= D' < PI /\ D' <= D /\ pt D' = false.
Proof.
  induction it as [|it IH]; intros D P m MO HPm HD ND; cbn [direction_loop].
  - exists D. repeat split; auto; lra.
  - rewrite mean_arc by lra. cbn [bind]. rewrite HP by lra. cbn [bind]. destruct (pt P) eqn:EP.
    + apply IH; auto; lra.
    + destruct (IH ((D + P) / 2) P m) as (D' & E & A1 & A2 & A3); auto; try lra.
      * destruct (pt ((D + P) / 2)) eqn:Q; auto. rewrite (MO P ((D + P) / 2)) in EP; auto; lra.
      * exists D'. repeat split; auto; lra.
Qed.
Lemma loop_stays it : forall D P, (forall t, 0 <= t <= D -> pt t = true) -> 0 <= P <= D -> D < PI ->
  direction_loop orth1 points (arc D) (arc P) it = Ok (arc D).
Proof.
  induction it as [|it IH]; intros D P MO H HD; auto. cbn [direction_loop]. rewrite mean_arc by lra. cbn [bind].
  rewrite HP by lra. cbn [bind]. rewrite MO by lra. apply IH; auto. lra.
Qed.
(** The direction which is returned, when the set of directions along the arc which point to the
    parent is an interval from the direction of the parent on: half way between the direction and
    the one of the parent if that points to the parent, and else one which does not. *)
Lemma enforce_arc to_parent theta it : norm to_parent <> 0 -> direction to_parent = e1 ->
  0 < theta < PI -> isclose (cos theta) (-1) = false -> pt theta = false -> pt 0 = true ->
  (forall t t', 0 <= t <= t' -> t' < PI -> pt t' = true -> pt t = true) ->
  exists tau, enforce_direction orth1 points to_parent (arc theta) it = Ok (arc tau) /\ 0 <= tau <= theta / 2 /\
    (pt tau = true <-> pt (theta / 2) = true) /\ (pt (theta / 2) = true -> tau = theta / 2).
Proof.
  intros NP EP HT NC ND N0 MO. unfold enforce_direction. rewrite HP by lra. rewrite ND. cbn [bind]. destruct (Req_EM_T (norm to_parent) 0); [contradiction|].
  change (vdiv to_parent (norm to_parent)) with (direction to_parent). rewrite EP. rewrite <- arc_zero. rewrite HP by lra. cbn [bind]. rewrite N0.
  rewrite arc_dot. replace (0 - theta) with (- theta) by ring. rewrite cos_neg, NC. rewrite mean_arc by lra. cbn [bind].
  replace ((theta + 0) / 2) with (theta / 2) by field.
  destruct (pt (theta / 2)) eqn:EH.
  - exists (theta / 2). rewrite loop_stays; try lra.
    + repeat split; auto; lra.
    + intros t Ht. apply (MO t (theta / 2)); auto; lra.
  - destruct (loop_never it (theta / 2) 0 0 MO) as (tau & E & A1 & A2 & A3); auto; try lra. exists tau. rewrite A3. repeat split; auto; lra || discriminate.
Qed.
(** When the direction of the parent does not point to it, the direction returned never does. *)
Lemma enforce_arc_parent to_parent theta it : norm to_parent <> 0 -> direction to_parent = e1 ->
  0 < theta < PI -> isclose (cos theta) (-1) = false -> pt theta = false -> pt 0 = false ->
  (forall t t', theta / 2 <= t <= t' -> t' < PI -> pt t' = true -> pt t = true) ->
  exists tau, enforce_direction orth1 points to_parent (arc theta) it = Ok (arc tau) /\ theta / 2 <= tau <= theta /\ pt tau = false.
Proof.
  intros NP EP HT NC ND N0 MO. unfold enforce_direction. rewrite HP by lra. rewrite ND. cbn [bind]. destruct (Req_EM_T (norm to_parent) 0); [contradiction|].
  change (vdiv to_parent (norm to_parent)) with (direction to_parent). rewrite EP. rewrite <- arc_zero. rewrite HP by lra. cbn [bind]. rewrite N0.
  rewrite arc_dot. replace (0 - theta) with (- theta) by ring. rewrite cos_neg, NC. rewrite mean_arc by lra. cbn [bind].
  replace ((theta + 0) / 2) with (theta / 2) by field. rewrite HP by lra. cbn [bind].
  destruct (pt (theta / 2)) eqn:EH.
  - destruct (loop_never it theta (theta / 2) (theta / 2) MO) as (tau & E & A1 & A2 & A3); auto; try lra. exists tau. repeat split; auto; lra.
  - exists theta. repeat split; auto; lra.
Qed.
End Arc.

Lemma pointing_value o n parent d : kwf o n -> (parent < length (k_centers o))%nat -> parent <> k_index o ->
  length d = n -> unitv d ->
  exists s, extent o d s /\
    is_pointing o parent d = Ok (isclose s (sqrt (s * s + 4 * gap o parent * (gap o parent - s * slope o parent d)))).
Proof.
  intros W A B Ld U. assert (Lc : length (k_center o) = n) by (apply (kw_len o n W); apply W).
  assert (Lp : length (vadd (k_center o) d) = n) by (autorewrite with vlen; lia).
  assert (ER : ray o (vadd (k_center o) d) = d).
  { unfold ray, surface_direction. replace (vsub (vadd (k_center o) d) (k_center o)) with d by (vext; ring).
    pose proof (proj1 (unit_norm d) U) as N1. rewrite N1. destruct (Req_EM_T 1 0); [lra|]. vext. field. }
  destruct (surface_point o n _ W Lp) as [s [X [F D]]]. rewrite ER in *. exists s. split; auto.
  unfold is_pointing. rewrite F. cbn [bind]. f_equal. fold (dist (on_line o d s) (k_center o)). rewrite D. f_equal.
  unfold norm. f_equal. pose proof (ex_pos _ _ _ X) as Ps. pose proof (gap_pos o n W parent A B) as G0.
  set (v := vsub (cluster (k_centers o) parent) (k_center o)).
  assert (Lj : length (cluster (k_centers o) parent) = n) by (apply (kw_len o n W); auto).
  assert (EV : vsub (on_line o d s) (cluster (k_centers o) parent) = vsub (vscale s d) v).
  { unfold on_line, v. vext. ring. }
  assert (Nv : norm v = 2 * gap o parent) by apply nrm_gap.
  assert (Sv : dot v d = 2 * gap o parent * slope o parent d).
  { unfold slope. fold v. rewrite dot_vdiv_l, Nv. field. lra. }
  rewrite EV. unfold unitv in U. autorewrite with vdot. rewrite (dot_comm d v), Sv, U, <- norm_sq, Nv. ring.
Qed.
(** The directions pointing to the parent: with two clusters, a cone around its direction. *)
Lemma pointing_mono o n parent d1 d2 : kwf o n -> length (k_centers o) = 2%nat ->
  (parent < length (k_centers o))%nat -> parent <> k_index o -> length d1 = n -> unitv d1 -> length d2 = n -> unitv d2 ->
  slope o parent d2 <= slope o parent d1 -> is_pointing o parent d2 = Ok true -> is_pointing o parent d1 = Ok true.
Proof.
  intros W L2 A B Ld1 U1 Ld2 U2 HS H2.
  destruct (pointing_value o n parent d1 W A B Ld1 U1) as (s1 & X1 & E1). destruct (pointing_value o n parent d2 W A B Ld2 U2) as (s2 & X2 & E2).
  rewrite E1. rewrite E2 in H2. injection H2 as H2. f_equal. pose proof (gap_pos o n W parent A B) as G0. set (g := gap o parent) in *.
  pose proof (ex_pos _ _ _ X1) as P1. pose proof (ex_pos _ _ _ X2) as P2. pose proof (ex_gap _ _ _ X1 parent A B) as Q1. fold g in Q1.
  assert (IDX : forall j, In j (ind_relevant o) -> j = parent).
  { intros j Hj. apply relevant_spec in Hj as (J1 & J2 & _). pose proof (kw_idx o n W). lia. }
  destruct (ex_hit _ _ _ X1) as [Z1|(j & Hj & Sj & Z1)].
  - destruct (ex_hit _ _ _ X2) as [Z2|(j & Hj & Sj & Z2)].
    + rewrite Z1 in *. rewrite Z2 in *. set (r := k_radius o) in *. unfold isclose in *. apply Rleb_true in H2. apply Rleb_true.
      set (b1 := sqrt (r * r + 4 * g * (g - r * slope o parent d1))). set (b2 := sqrt (r * r + 4 * g * (g - r * slope o parent d2))) in *.
      assert (LB : r <= b1).
      { unfold b1. rewrite <- (sqrt_square r) at 1 by lra. apply sqrt_le_1_alt. nra. }
      assert (LB2 : b1 <= b2) by (apply sqrt_le_1_alt; assert (0 < g * r) by nra; nra).
      rewrite (Rabs_left1 (r - b2)) in H2 by lra. rewrite (Rabs_pos_eq b2) in H2 by lra.
      rewrite (Rabs_left1 (r - b1)) by lra. rewrite (Rabs_pos_eq b1) by lra.
      pose proof (Rinv_0_lt_compat (10 ^ 8) ltac:(lra)). pose proof (Rinv_0_lt_compat (10 ^ 5) ltac:(lra)).
      assert (/ 10 ^ 5 <= 1) by (rewrite <- Rinv_1; apply Rinv_le_contravar; lra). nra.
    + apply IDX in Hj. subst j. unfold stop in Z2. fold g in Z2. pose proof (ex_rad _ _ _ X2) as R2.
      assert (E : s2 * slope o parent d2 = g) by (rewrite Z2; field; lra).
      assert (E' : s1 * slope o parent d1 = g) by (rewrite Z1 in *; nra).
      rewrite E'. replace (s1 * s1 + 4 * g * (g - g)) with (s1 * s1) by ring. rewrite sqrt_square by lra. apply isclose_refl.
  - apply IDX in Hj. subst j. unfold stop in Z1. fold g in Z1. assert (E : s1 * slope o parent d1 = g) by (rewrite Z1; field; lra).
    rewrite E. replace (s1 * s1 + 4 * g * (g - g)) with (s1 * s1) by ring. rewrite sqrt_square by lra. apply isclose_refl.
Qed.

(** With two clusters in any dimension: the direction returned points to the parent exactly when
    the one half way to the direction of the parent does; the iterations change nothing. *)
Theorem C107_two_clusters orth1 o n parent e2 theta it : kwf o n -> length (k_centers o) = 2%nat ->
  (parent < 2)%nat -> parent <> k_index o -> dist (k_center o) (cluster (k_centers o) parent) < 2 * k_radius o ->
  let to_parent := vsub (cluster (k_centers o) parent) (k_center o) in
  let e1 := direction to_parent in
  length e2 = n -> unitv e2 -> dot e1 e2 = 0 -> 0 < theta < PI -> isclose (cos theta) (-1) = false ->
  let at_angle t := vadd (vscale (cos t) e1) (vscale (sin t) e2) in
  is_pointing o parent (at_angle theta) = Ok false ->
  is_pointing o parent e1 = Ok true /\
  exists u b, enforce_direction orth1 (is_pointing o parent) to_parent (at_angle theta) it = Ok u /\
    is_pointing o parent u = Ok b /\ is_pointing o parent (at_angle (theta / 2)) = Ok b /\
    (b = true -> u = at_angle (theta / 2)).
Proof.
  intros W L2 A B Hr to_parent e1 Le U2 OE HT NC at_angle ND. rewrite <- L2 in A.
  assert (Lc : length (k_center o) = n) by (apply (kw_len o n W); apply W).
  assert (Lj : length (cluster (k_centers o) parent) = n) by (apply (kw_len o n W); auto).
  pose proof (gap_pos o n W parent A B) as G0.
  assert (NP : norm to_parent <> 0) by (unfold to_parent; rewrite nrm_gap; lra).
  assert (U1 : unitv e1) by (apply unit_vdiv; auto).
  assert (L1 : length e1 = n) by (unfold e1, direction, to_parent; autorewrite with vlen; lia).
  change at_angle with (arc e1 e2) in *.
  pose proof (arc_len n e1 e2 L1 Le) as LA. pose proof (arc_unit e1 e2 U1 U2 OE) as UA.
  assert (SL : forall t, slope o parent (arc e1 e2 t) = cos t).
  { intros t. unfold slope. fold to_parent. change (vdiv to_parent (norm to_parent)) with e1. unfold arc. rewrite dot_vadd_r, !dot_vscale_r, OE.
    unfold unitv in U1. rewrite U1. ring. }
  set (pt := fun t => match is_pointing o parent (arc e1 e2 t) with Ok b => b | Err _ => false end).
  assert (HP : forall t, 0 <= t < PI -> is_pointing o parent (arc e1 e2 t) = Ok (pt t)).
  { intros t _. unfold pt. destruct (pointing_value o n parent (arc e1 e2 t) W A B (LA t) (UA t)) as (s & _ & E). rewrite E. auto. }
  assert (P0 : pt 0 = true).
  { unfold pt. destruct (pointing_value o n parent (arc e1 e2 0) W A B (LA 0) (UA 0)) as (s & X & E). rewrite E. rewrite (SL 0), cos_0.
    assert (Es : s = gap o parent).
    { pose proof (ex_gap _ _ _ X parent A B) as Q. rewrite (SL 0), cos_0 in Q.
      assert (GR : gap o parent < k_radius o) by (unfold gap; rewrite dist_sym; lra).
      destruct (ex_hit _ _ _ X) as [Z|(j & Hj & _ & Z)]; [lra|].
      apply relevant_spec in Hj as (J1 & J2 & _). assert (j = parent) by (pose proof (kw_idx o n W); lia). subst j.
      unfold stop in Z. rewrite (SL 0), cos_0 in Z. rewrite Z. field. }
    rewrite Es. replace (gap o parent * gap o parent + _) with (gap o parent * gap o parent) by ring.
    rewrite sqrt_square by lra. apply isclose_refl. }
  split; [rewrite <- (arc_zero n e1 e2 L1 Le); rewrite HP, P0 by (pose proof PI_RGT_0; lra); auto|].
  assert (MO : forall t t', 0 <= t <= t' -> t' < PI -> pt t' = true -> pt t = true).
  { intros t t' H1 H2 H3. assert (Q : is_pointing o parent (arc e1 e2 t) = Ok true).
    { apply (pointing_mono o n parent (arc e1 e2 t) (arc e1 e2 t')); auto.
      - rewrite !SL. apply cos_decr_1; lra.
      - rewrite HP, H3 by lra. auto. }
    unfold pt. rewrite Q. auto. }
  assert (PT : pt theta = false) by (unfold pt; rewrite ND; auto).
  destruct (enforce_arc orth1 n e1 e2 L1 Le U1 U2 OE (is_pointing o parent) pt HP to_parent theta it NP eq_refl HT NC PT P0 MO)
    as (tau & E & Ht & IFF & EQ).
  exists (arc e1 e2 tau), (pt tau). split; auto. split; [apply HP; lra|]. split.
  - rewrite HP by lra. f_equal. destruct (pt tau), (pt (theta / 2)); auto; [|symmetry]; (symmetry; apply IFF; reflexivity) || (apply IFF; reflexivity).
  - intros H. f_equal. apply EQ. apply IFF. auto.
Qed.

(** The learner of the two clusters of [ex_l]: the direction of the parent points to it, and the
    direction returned for a demonstration which moves sideways does not, for any number of
    iterations. *)
Lemma pointing_false o n parent d : kwf o n -> (parent < length (k_centers o))%nat -> parent <> k_index o ->
  length d = n -> unitv d -> length (k_centers o) = 2%nat ->
  (0 < slope o parent d -> k_radius o < stop o d parent) ->
  let r := k_radius o in
  isclose r (sqrt (r * r + 4 * gap o parent * (gap o parent - r * slope o parent d))) = false ->
  is_pointing o parent d = Ok false.
Proof.
  intros W A B Ld U L2 HS r NC. destruct (pointing_value o n parent d W A B Ld U) as (s & X & E). rewrite E. f_equal.
  assert (Es : s = r).
  { pose proof (ex_rad _ _ _ X). destruct (ex_hit _ _ _ X) as [Z|(j & Hj & S0 & Z)]; auto.
    apply relevant_spec in Hj as (J1 & J2 & _). assert (j = parent) by (pose proof (kw_idx o n W); lia). subst j. specialize (HS S0). unfold r. lra. }
  rewrite Es. exact NC.
Qed.

Lemma ex_kwf i : (i < 2)%nat -> kwf (region_obstacle ex_l i) 2.
Proof. intros H. apply (clusters_kwf ex_centers [3 / 2; 0] [1%nat; 0%nat] 2 (7 / 10) ex_graph (Some ex_linear) i ex_clusters). auto. Qed.
Lemma ex_unit_d : direction (vsub (cluster (k_centers (region_obstacle ex_l 0)) 1) (k_center (region_obstacle ex_l 0))) = [1; 0].
Proof.
  change (cluster (k_centers (region_obstacle ex_l 0)) 1) with [1; 0]. change (k_center (region_obstacle ex_l 0)) with [0; 0].
  unfold direction. fold (dist [1; 0] [0; 0]). rewrite dist_axis. absolve. unfold vsub. cbn [vscale map vadd].
  f_equal; [field|f_equal; field].
Qed.
Lemma ex_slope d : slope (region_obstacle ex_l 0) 1 d = dot [1; 0] d.
Proof. unfold slope. rewrite <- ex_unit_d at 1. reflexivity. Qed.
Lemma ex_gap_half : gap (region_obstacle ex_l 0) 1 = 1 / 2.
Proof.
  unfold gap. change (cluster (k_centers (region_obstacle ex_l 0)) 1) with [1; 0]. change (k_center (region_obstacle ex_l 0)) with [0; 0].
  rewrite dist_axis. absolve. lra.
Qed.
Lemma isclose_far a b : 0 <= a -> a + / 10 ^ 4 * a + / 10 ^ 7 <= b -> isclose a b = false.
Proof.
  intros A H. unfold isclose. apply Rleb_false. rewrite (Rabs_left1 (a - b)), (Rabs_pos_eq b) by lra. lra.
Qed.
Theorem C107_refuted orth1 : exists l factor attractor order positions node parent direction,
  fitted l factor attractor order positions 2 /\ factor = 7 / 10 /\
  successors (kl_graph l) node = [parent] /\ unitv direction /\
  is_pointing (region_obstacle l node) parent (vsub (cluster (kl_centers l) parent) (cluster (kl_centers l) node)) = Ok true /\
  forall it_max, exists u, enforces_direction orth1 l node direction it_max = Ok u /\
    is_pointing (region_obstacle l node) parent u = Ok false.
Proof.
  exists ex_l, (7 / 10), [3 / 2; 0], [1%nat; 0%nat], ex_centers, 0%nat, 1%nat, [0; 1].
  split; [exact (proj1 C105_case)|]. split; auto. split; auto. assert (U2 : unitv [0; 1]) by (unfold unitv; cbn [dot]; lra). split; auto.
  set (o := region_obstacle ex_l 0). pose proof (ex_kwf 0 ltac:(lia)) as W. fold o in W.
  assert (CP : cos (PI / 2) = 0) by apply cos_PI2. assert (SP : sin (PI / 2) = 1) by apply sin_PI2.
  assert (S2 : 0 < sqrt 2) by (apply sqrt_lt_R0; lra). assert (SQ : sqrt 2 * sqrt 2 = 2) by (apply sqrt_sqrt; lra).
  assert (B2 : sqrt 2 < 1415 / 1000) by nra.
  pose proof ex_unit_d as ED. fold o in ED.
  assert (A2 : vadd (vscale (cos (PI / 2)) [1; 0]) (vscale (sin (PI / 2)) [0; 1]) = [0; 1]).
  { rewrite CP, SP. cbn [vscale map vadd]. f_equal; [ring|f_equal; ring]. }
  assert (N0 : is_pointing o 1 [0; 1] = Ok false).
  { apply (pointing_false o 2); auto; try (cbn; lia). 
    - unfold o. rewrite ex_slope. cbn [dot]. lra.
    - unfold o. rewrite ex_slope, ex_gap_half. change (k_radius (region_obstacle ex_l 0)) with (7 / 10).
      apply isclose_far; [lra|]. apply Rle_trans with (sqrt (8 / 10 * (8 / 10))); [rewrite sqrt_square; lra|]. apply sqrt_le_1_alt. cbn [dot]. lra. }
  assert (D1 : dist (k_center o) (cluster (k_centers o) 1) < 2 * k_radius o).
  { change (k_center o) with [0; 0]. change (cluster (k_centers o) 1) with [1; 0]. change (k_radius o) with (7 / 10). rewrite dist_axis. absolve. lra. }
  assert (HC : isclose (cos (PI / 2)) (-1) = false).
  { rewrite CP. unfold isclose. apply Rleb_false. rewrite (Rabs_pos_eq (0 - -1)), (Rabs_left1 (-1)) by lra. lra. }
  pose proof PI_RGT_0 as PP.
  pose proof (fun it => C107_two_clusters orth1 o 2 1 [0; 1] (PI / 2) it W eq_refl ltac:(lia) ltac:(cbn; lia) D1) as T. cbv zeta in T. rewrite ED in T.
  assert (OE : dot [1; 0] [0; 1] = 0) by (cbn [dot]; lra).
  specialize (fun it => T it eq_refl U2 OE ltac:(lra) HC). rewrite A2 in T. specialize (fun it => T it N0).
  split.
  - destruct (T 0%nat) as (P & _). unfold is_pointing in *. change (cluster (kl_centers ex_l) 1) with [1; 0]. change (cluster (kl_centers ex_l) 0) with [0; 0].
    replace (vsub [1; 0] [0; 0]) with [1; 0] by (unfold vsub; cbn [vscale map vadd]; f_equal; [ring|f_equal; ring]). exact P.
  - intros it. destruct (T it) as (_ & u & b & E & Pu & Ph & _). exists u.
    assert (F : b = false).
    { assert (Q : is_pointing o 1 (vadd (vscale (cos (PI / 2 / 2)) [1; 0]) (vscale (sin (PI / 2 / 2)) [0; 1])) = Ok false); [|congruence].
      replace (PI / 2 / 2) with (PI / 4) by field.
      assert (C4 : cos (PI / 4) * sqrt 2 = 1) by (rewrite cos_PI4; field; lra). assert (E4 : sin (PI / 4) = cos (PI / 4)) by (rewrite sin_PI4, cos_PI4; auto).
      rewrite E4. set (c := cos (PI / 4)) in *. assert (C0 : 0 < c) by nra. assert (Cc : c * c = 1 / 2) by nra.
      apply (pointing_false o 2); auto; try (cbn; lia).
      - cbn [vscale map vadd]. unfold unitv. cbn [dot]. lra.
      - intros _. unfold stop, o. rewrite ex_slope, ex_gap_half. cbn [vscale map vadd dot]. change (k_radius (region_obstacle ex_l 0)) with (7 / 10).
        apply (Rmult_lt_reg_r c); auto. replace (1 / 2 / (1 * (c * 1 + c * 0) + (0 * (c * 0 + c * 1) + 0)) * c) with (1 / 2) by (field; lra). nra.
      - unfold o. rewrite ex_slope, ex_gap_half. change (k_radius (region_obstacle ex_l 0)) with (7 / 10). cbn [vscale map vadd dot].
        apply isclose_far; [lra|]. apply Rle_trans with (sqrt (701 / 1000 * (701 / 1000))); [rewrite sqrt_square; lra|]. apply sqrt_le_1_alt. nra. }
    subst b. split; auto. unfold enforces_direction.
    assert (N1 : norm [0; 1] = 1) by (apply unit_norm; auto). rewrite N1. destruct (Req_EM_T 1 0); [lra|]. cbn [bind].
    change (successors (kl_graph ex_l) 0) with [1%nat]. cbv iota.
    replace (vdiv [0; 1] 1) with [0; 1] by (unfold vdiv; cbn [vscale map]; f_equal; [field|f_equal; field]). exact E.
Qed.

(** * Examples *)
(** The frames of the plane. *)
Definition turn_left (v : vec) : vec := match v with [a; b] => vdiv [- b; a] (norm v) | _ => [] end.
Example frames_plane : frames 2 turn_left.
Proof.
  intros [|a [|b [|c v]]] L N; try discriminate. unfold turn_left.
  assert (NN : norm [- b; a] = norm [a; b]) by (unfold norm; cbn [dot]; f_equal; ring).
  split; auto. split.
  - rewrite <- NN. apply unit_vdiv. rewrite NN. auto.
  - unfold vdiv. rewrite dot_vscale_r. cbn [dot]. ring.
Qed.
(** Outside of the two regions: the velocity of the outside is upwards, the clusters are to the
    left; only the closer one is within the cut-off. *)
Definition ex_up (p : vec) : vec := [0; 2].
Example C106_case :
  (forall c, In c ex_centers -> length c = 2%nat) /\
  7 / 10 < dist [3; 0] [1; 0] < 4 * (7 / 10) /\ 4 * (7 / 10) <= dist [3; 0] [0; 0] /\ dot (towards [3; 0] [1; 0]) (ex_up [3; 0]) = 0 /\
  (exists u, predict_outside turn_left ex_centers (7 / 10) ex_up [3; 0] = Ok u /\ unitv u /\ sin (PI / 20) <= dot u (towards [3; 0] [1; 0])) /\
  predict_outside turn_left ex_centers (7 / 10) ex_up [4; 0] = Ok [0; 2] /\
  predict_outside turn_left ex_centers (7 / 10) (fun _ => [2; 0]) [3; 0] = Ok [2; 0].
Proof.
  split; [intros c [<-|[<-|[]]]; auto|].
  assert (D1 : dist [3; 0] [1; 0] = 2) by (rewrite dist_axis; absolve; lra). assert (D0 : dist [3; 0] [0; 0] = 3) by (rewrite dist_axis; absolve; lra).
  assert (T : towards [3; 0] [1; 0] = [-1; 0]).
  { unfold towards, direction. fold (dist [1; 0] [3; 0]). rewrite dist_axis. absolve. unfold vsub. cbn [vscale map vadd]. f_equal; [field|f_equal; field]. }
  assert (NU : norm [0; 2] = 2) by (unfold norm; cbn [dot]; transitivity (sqrt (2 * 2)); [f_equal; ring|apply sqrt_square; lra]).
  assert (NV : norm [2; 0] = 2) by (unfold norm; cbn [dot]; transitivity (sqrt (2 * 2)); [f_equal; ring|apply sqrt_square; lra]).
  assert (O : forall c', In c' ([[0; 0]] ++ []) -> 4 * (7 / 10) <= dist [3; 0] c') by (intros c' [<-|[]]; rewrite D0; lra).
  assert (Z : dot (towards [3; 0] [1; 0]) (ex_up [3; 0]) = 0) by (rewrite T; unfold ex_up; cbn [dot]; lra).
  destruct (C106_cutoff_refuted turn_left 2 ltac:(lia) frames_plane (7 / 10) ex_up [[0; 0]] [1; 0] [] ltac:(lra) eq_refl) as (H1 & H2).
  split; [rewrite D1; lra|]. split; [rewrite D0; lra|]. split; auto. split; [|split].
  - destruct (H2 [3; 0]) as (u & E & Hu); auto; [unfold ex_up; rewrite NU; lra|rewrite D1; lra|]. exists u. split; [exact E|]. split; [|exact Hu].
    destruct (C106_speed turn_left 2 ltac:(lia) frames_plane ex_centers (7 / 10) ex_up [3; 0] u) as [A|A]; auto.
    + intros c [<-|[<-|[]]]; auto.
    + exfalso. rewrite A, T in Hu. unfold ex_up in Hu. cbn [dot] in Hu. pose proof PI_RGT_0. assert (0 < sin (PI / 20)) by (apply sin_gt_0; lra). lra.
    + apply unit_norm. auto.
  - apply H1; [rewrite dist_axis; absolve; lra|]. intros c' [<-|[]]. rewrite dist_axis. absolve. lra.
  - apply (C106_behind turn_left (7 / 10) (fun _ => [2; 0]) [3; 0] [[0; 0]] [1; 0] []); auto; try (rewrite ?NV, ?D1; lra).
    rewrite T. unfold direction. rewrite NV, dot_vscale_r. cbn [dot]. lra.
Qed.
Print Assumptions C106_weights_refuted.
Print Assumptions C106_single.
Print Assumptions C106_cutoff_refuted.
Print Assumptions C106_behind.
Print Assumptions C106_speed.
Print Assumptions C107_two_clusters.
Print Assumptions C107_refuted.
