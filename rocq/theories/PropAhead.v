(** Property C179: among balls the robot never moves against the initial velocity. *)
Require Import Reals List Bool Lra Lia ZArith Classical_Prop.
From Verif Require Import Base Vec Angle Pow RotModel Spec RotProofs SeqProofs TreeModel TreeSpec
  TreeProofs TreeWeights TreeReduce TreeGeom TreeCases TreeIndep PropRotation PropTree WeightModel WeightProofs PropWeights
  AvoidModel PropAvoid ProjModel PropProject TangentProofs PropTangent PropContact ContProofs PropContinuity PropEmbed PropJoint PropOrder PropLimits PropSteady PropFade PropPace PropDying PropMixed PropFlow PropSpread PropBalls PropTouch.
From Verif Require RotAvoidProofs.
Import ListNotations.
Open Scope R_scope.

(** ** Means of directions ahead are ahead *)
Lemma mean_below B : forall (ws ls : list R), length ws = length ls -> nonneg ws -> (forall x, In x ls -> x < B) -> 0 < rsum ws ->
  rsum (map (fun p => fst p * snd p) (combine ws ls)) < B * rsum ws.
Proof.
  induction ws as [|w ws IH]; intros [|x ls] L N H P; simpl in *; try lia; try lra.
  assert (Nw : 0 <= w) by (apply N; left; auto). assert (Hx : x < B) by (apply H; left; auto).
  destruct (Req_EM_T (rsum ws) 0) as [Z|Z].
  - assert (G : forall ws ls, nonneg ws -> rsum ws = 0 -> rsum (map (fun p : R * R => fst p * snd p) (combine ws ls)) = 0).
    { clear. induction ws as [|w ws IH]; intros ls N Z; [auto|]. destruct ls as [|x ls]; [auto|]. simpl in *.
      assert (0 <= w) by (apply N; left; auto). assert (0 <= rsum ws) by (apply rsum_nonneg; intros y I; apply N; right; auto).
      rewrite IH; [|intros y I; apply N; right; auto|lra]. assert (w = 0) by lra. subst w. ring. }
    rewrite (G ws ls); [|intros y I; apply N; right; auto|auto]. nra.
  - assert (N' : nonneg ws) by (intros y I; apply N; right; auto). assert (0 <= rsum ws) by (apply rsum_nonneg; auto).
    specialize (IH ls ltac:(lia) N' ltac:(intros y I; apply H; right; auto) ltac:(lra)). nra.
Qed.
Lemma shallow_mean n base t sl orth0 st l ws : (2 <= n)%nat -> length base = n -> unitv base -> shallow n base t -> (exists a, node t base_vel_id a /\ a_dir a = base) ->
  level_sorted t sl -> (forall v, length (orth0 v) = length v) -> NoDup l -> length l = length ws -> (forall x, In x l -> In x (map fst (t_nodes t))) ->
  nonneg ws -> rsum ws = 1 ->
  exists mean, get_weighted_mean orth0 t st sl l ws = Ok mean /\ unitv mean /\ length mean = n /\ 0 < dot base mean.
Proof.
  intros Hn Lb Ub (W & EP & FI) (a & Na & Da) SL OL ND LL IN NN S1. pose proof PI_RGT_0 as HP.
  assert (NO : no_opposite t /\ distinguishable t).
  { split; intros p x b c I Nb Nc; destruct (EP p x I) as (b' & Nb' & Db); rewrite (node_unique n t base_vel_id W p b b' Nb Nb'), Db; pose proof (FI x c Nc) as [FP FA]; [lra|exact FA]. }
  set (len := fun x => acos (dot base (dirn t x))).
  assert (DN : forall x b, node t x b -> dirn t x = a_dir b) by (intros x b N; unfold dirn; rewrite (proj2 (get_attrs_node n t base_vel_id W x b) N); auto).
  destruct (C159_spread n t base_vel_id a sl orth0 st l ws (own_of l ws) len) as (mean & E & Um & Lm & B); auto; try tauto.
  - apply own_of_assigned; auto.
  - apply own_of_nonneg. auto.
  - lra.
  - unfold len. rewrite (DN _ _ Na), Da. apply acos_self. auto.
  - intros p x b c I Nb Nc. destruct (EP p x I) as (b' & Nb' & Db). pose proof (node_unique n t base_vel_id W p b b' Nb Nb') as Q. unfold len.
    rewrite (DN _ _ Nb), (DN _ _ Nc), Q, Db, acos_self by auto. lra.
  - exists mean. do 3 (split; [auto|]). rewrite Da in B.
    assert (LT : forall x, In x (map len l) -> x < PI / 2).
    { intros y I. apply in_map_iff in I as (x & <- & I). unfold len. apply IN in I. destruct (wf_attrs n t base_vel_id W x I) as (b & _ & Nb & _).
      rewrite (DN _ _ Nb). destruct (FI x b Nb) as [FP _]. rewrite <- acos_0.
      assert (Bd : -1 <= dot base (a_dir b) <= 1) by (apply unit_dot_bounds; [auto|rewrite <- (DN _ _ Nb); apply (dirn_unit n t base_vel_id W); auto]).
      rewrite acos_0. apply acos_lt_of_cos; [auto|lra|]. rewrite cos_PI2. lra. }
    assert (EQ : rsum (map (fun xw => snd xw * len (fst xw)) (combine l ws)) = rsum (map (fun p => fst p * snd p) (combine ws (map len l)))).
    { clear. revert ws. induction l as [|x l IH]; intros [|w ws]; simpl; auto. rewrite IH. auto. }
    rewrite EQ in B. pose proof (mean_below (PI / 2) ws (map len l) ltac:(rewrite map_length; lia) NN LT ltac:(lra)) as M. rewrite S1 in M.
    assert (Bm : -1 <= dot base mean <= 1) by (apply unit_dot_bounds; auto).
    destruct (Rlt_dec 0 (dot base mean)) as [|NP]; auto. exfalso.
    rewrite <- (cos_acos (dot base mean)) in NP by auto. apply NP. pose proof (acos_bound (dot base mean)). apply cos_gt_0; lra.
Qed.
(** ** The direction of avoidance *)
Lemma balls_ahead orth0 angle_of pick sort power n position base balls s : (2 <= n)%nat -> (forall v, length (orth0 v) = length v) ->
  (forall t x, rooted_tree n t x -> level_sorted t (sort t)) -> 0 <= power -> picks n pick -> in_front n balls position base -> apart n balls position base ->
  get_end_vector s = Ok base -> forall final normals cw records fv,
  evaluate_avoidance orth0 angle_of (get_projected_tangent pick) sort power (PI * / 2) None position s (map (ball_tree n) balls) = Ok (final, normals, cw, records) ->
  get_end_vector final = Ok fv -> 0 < dot base fv.
Proof.
  intros Hn Ho Hs Hp Hk F AP Es final normals cw records fv Ea Ef. pose proof PI_RGT_0 as HP.
  pose proof (balls_scene orth0 angle_of pick sort power (PI * / 2) n position base balls Hn Ho Hs Hp Hk ltac:(lra) F (C177_tame n pick position base balls Hn Hk F AP)) as SC.
  destruct (evaluate_avoidance_ok _ _ _ _ _ _ _ _ _ _ _ _ SC Es) as (tt' & data & final' & normals' & cw' & fv' & Ed & Ea' & _ & _ & _ & _ & _ & _ & Ecl & _ & Ef' & _ & _ & Nc & Sc & _ & _ & _ & _ & _).
  rewrite Ea in Ea'. injection Ea' as <- <- <- _. rewrite Ef in Ef'. injection Ef' as <-.
  destruct (if_base _ _ _ _ F) as [Lb Ub]. pose proof (proj1 (unit_norm _) Ub) as Nb. assert (Nb' : norm base <> 0) by lra.
  unfold evaluate_avoidance in Ea. rewrite Es in Ea. cbn [bind] in Ea.
  destruct (set_root empty_tree base_vel_id base) as [tt0|] eqn:E0; [|discriminate]. cbn [bind] in Ea. rewrite Ed in Ea. cbn [bind] in Ea.
  assert (INB : forall t, In t (map (ball_tree n) balls) -> exists c r, length c = n /\ 0 < r /\ t = alone (ball n c r)).
  { intros t I. apply in_map_iff in I as ((c, r) & <- & I). destruct (proj2 (if_balls _ _ _ _ F) c r I). exists c, r. auto. }
  pose proof (balls_data angle_of power (PI * / 2) n position base Hp _ data INB Ed) as FD.
  assert (Din : forall t ws rs, In (t, ws, rs) (map fst data) -> In t (map (ball_tree n) balls) /\ (forall i, (i < length (bt_comps t))%nat -> PI / 2 <= nth i rs 0 <= PI)).
  { intros t ws rs I. clear - FD I HP. induction FD as [|t0 d0 ts ds (ws0 & rs0 & _ & Hr & ->) FD IH]; [contradiction|].
    destruct I as [E|I]; [injection E as -> -> ->; split; [left; auto|intros i Hi; rewrite Hr by auto; lra]|]. destruct (IH I) as [A B]. split; [right|]; auto. }
  destruct (population_ok (get_projected_tangent pick) n position base (unit_args n) not_inward (map fst data) tt0 Hn Lb Nb') as (tt & ns & Ep & W & ND & IN & _); auto.
  { intros v nn r rad Lv Nv (L1 & U1 & L2 & U2 & Hrad). rewrite Nb in Nv. assert (Uv : unitv v) by (apply unit_norm; auto).
    destruct (C60_not_inward n pick v nn r rad Hk Lv L1 L2 Uv U1 U2 Hrad) as (d & Edd & Ldd & Udd & K).
    exists d. split; auto. split; auto. split; [rewrite (proj1 (unit_norm _) Udd); lra|]. split; auto. destruct K as [K|(_ & K)]; auto. }
  { intros v nn r rad Lv Nv G K. rewrite Nb in Nv. split; [apply unit_norm; auto|]. left. rewrite dot_comm. auto. }
  { intros t ws rs i I Hi _. destruct (Din _ _ _ I) as (It & Hrs). split; [apply (sc_branch _ _ _ _ _ _ _ _ _ _ _ SC); auto|].
    apply branch_good_intro; auto; intros; [eapply (sc_normal _ _ _ _ _ _ _ _ _ _ _ SC)|eapply (sc_refdir _ _ _ _ _ _ _ _ _ _ _ SC)]; eauto. }
  rewrite Ep in Ea. cbn [bind] in Ea. rewrite Ecl in Ea. cbn [bind] in Ea.
  destruct (reduce_weighted_to_sequence _ _ _ _ _ _) as [sq|] eqn:Er; [|discriminate]. cbn [bind] in Ea. injection Ea as <- _ _.
  (* the tree is shallow *)
  destruct (set_root_rooted n base_vel_id base tt0 Hn Lb E0) as (W0 & N0 & ED).
  assert (D : vdiv base (norm base) = base) by (rewrite Nb; vext; field).
  assert (FB : fine_dir base base) by (split; [rewrite Ub; lra|auto]).
  assert (S0 : shallow n base tt0).
  { split; [exact W0|]. split; [intros p x I; unfold edge in I; rewrite ED in I; destruct I|]. intros x a N. unfold node in N. rewrite N0 in N. destruct N as [N|[]]. injection N as <- <-. simpl. rewrite D. auto. }
  assert (R0 : exists a, node tt0 base_vel_id a /\ a_dir a = base) by (eexists; split; [unfold node; rewrite N0; left; reflexivity|exact D]).
  pose proof (balls_populate n pick position base Hn Hk Lb Ub balls (map fst data) 0%Z tt0 tt _ ns (proj2 (if_balls _ _ _ _ F)) AP FD S0 R0 Ep) as [SH RT].
  assert (LK : length (end_keys 0 (map fst data)) = length cw).
  { destruct (Nat.eq_dec (length (end_keys 0 (map fst data) ++ [base_vel_id])) (length (cw ++ [1 - rsum cw]))) as [Q|Q].
    - rewrite !app_length in Q. simpl in Q. lia.
    - rewrite C13_length_mismatch in Er by exact Q. discriminate. }
  destruct (shallow_mean n base tt (sort tt) orth0 (fun _ => mkSlot 0 None None None) (end_keys 0 (map fst data) ++ [base_vel_id]) (cw ++ [1 - rsum cw]) Hn Lb Ub SH RT)
    as (mean & Em & _ & _ & P); auto.
  - eapply Hs. exact W.
  - rewrite !app_length. simpl. lia.
  - intros x I. apply in_app_iff in I. destruct I as [I|[<-|[]]]; [auto|lra].
  - rewrite rsum_app. simpl. ring.
  - unfold get_weighted_mean in Em. rewrite Er in Em. cbn [bind] in Em. rewrite Ef in Em. injection Em as <-. exact P.
Qed.

(** ** The command *)
Theorem C179_forward_partial : forall orth0 angle_of pick sort power n dim magnitude s conv_of conv position env rel base balls,
  (2 <= n)%nat -> (forall v, length (orth0 v) = length v) -> (forall t x, rooted_tree n t x -> level_sorted t (sort t)) -> 0 <= power -> picks n pick ->
  in_front n balls position base -> apart n balls position base ->
  0 <= magnitude -> conv_of s = Ok conv -> get_end_vector conv = Ok base -> compute_multiobstacle_relative_velocity position env = Ok rel ->
  exists v m, evaluate_sequence orth0 angle_of (get_projected_tangent pick) sort power (PI * / 2) None
      dim magnitude (Some s) conv_of position env (map (ball_tree n) balls) = Ok v /\ v = vadd m rel /\ length m = n /\
    0 <= dot base m /\ (norm m <> 0 -> 0 < dot base m).
Proof.
  intros orth0 angle_of pick sort power n dim magnitude s conv_of conv position env rel base balls Hn Ho Hs Hp Hk F AP Hm EC EB ER. pose proof PI_RGT_0 as HP.
  pose proof (balls_scene orth0 angle_of pick sort power (PI * / 2) n position base balls Hn Ho Hs Hp Hk ltac:(lra) F (C177_tame n pick position base balls Hn Hk F AP)) as SC.
  destruct (evaluate_avoidance_ok _ _ _ _ _ _ _ _ _ _ _ _ SC EB) as (tt & data & final & normals & cw & fv & Ed & Ea & _ & _ & _ & _ & _ & _ & Ecl & _ & Ef & Uf & Lf & Nc & Sc & Pc & Ln & Un & Nd & Rr).
  pose proof (balls_ahead orth0 angle_of pick sort power n position base balls conv Hn Ho Hs Hp Hk F AP EB _ _ _ _ _ Ea Ef) as PF.
  destruct (C32_speed_bound_partial orth0 angle_of pick sort power (PI * / 2) None n dim magnitude s conv_of conv position env rel base (map (ball_tree n) balls)) as (v & _ & _ & E & _); auto.
  assert (SF : exists k, 0 <= k /\ v = vadd (vscale k fv) rel).
  { unfold evaluate_sequence in E. destruct (map (ball_tree n) balls) as [|t0 ts] eqn:Et; [destruct (sc_trees _ _ _ _ _ _ _ _ _ _ _ SC); auto|]. rewrite <- Et in *.
    rewrite ER in E. cbn [bind] in E. rewrite EC in E. cbn [bind] in E. rewrite Ea in E. cbn [bind] in E. rewrite Ef in E. cbn [bind] in E.
    unfold scaled_velocity in E. destruct cw as [|w0 cws] eqn:Ecw.
    - injection E as <-. exists 1. split; [lra|]. f_equal. vext. ring.
    - rewrite <- Ecw in *. assert (NE : cw <> []) by (rewrite Ecw; discriminate). specialize (Pc NE).
      destruct (fdiv 1 (rmax_list cw)) as [gamma|]; [|discriminate]. cbn [bind] in E.
      assert (Nr : map snd data <> []) by (destruct data; [contradiction|discriminate]).
      destruct (C28_slowfactor (map snd data) (2/10) Nr ltac:(lra) Rr) as (sc & Esc & Hsc & _). rewrite Esc in E. cbn [bind] in E.
      set (avg := averaged_normal (length fv) normals cw) in *.
      assert (K : 0 <= match compute_safe_scaling fv avg gamma (8 / 10) 3 with Ok p => if Rltb p sc then p else sc | Err _ => sc end).
      { destruct (compute_safe_scaling fv avg gamma (8 / 10) 3) as [p|] eqn:Ep; [|lra].
        assert (An : norm avg <= 1).
        { pose proof (averaged_normal_bound (length fv) normals cw Ln Nc ltac:(intros v0 I0; apply (Un v0 I0))) as H. fold avg in H. lra. }
        destruct (C29_safe_scaling fv avg gamma (8/10) 3 Uf An ltac:(lra) ltac:(lra)) as (p' & Ep' & Hp' & _). rewrite Ep in Ep'. injection Ep' as <-. destruct (Rltb p sc); lra. }
      set (k := match compute_safe_scaling fv avg gamma (8 / 10) 3 with Ok p => if Rltb p sc then p else sc | Err _ => sc end) in *.
      rewrite (proj1 (unit_norm _) Uf) in E. destruct (Req_EM_T 1 0); [lra|]. injection E as <-. exists (k * magnitude). split; [apply Rmult_le_pos; auto|].
      f_equal. vext. field. }
  destruct SF as (k & Hk0 & Ev). exists v, (vscale k fv). split; [exact E|]. split; [exact Ev|]. split; [rewrite length_vscale; auto|].
  rewrite dot_vscale_r, norm_vscale, (proj1 (unit_norm _) Uf), Rabs_pos_eq, Rmult_1_r by auto. split; [nra|]. intros NZ. apply Rmult_lt_0_compat; [lra|auto].
Qed.
(** ** Runs with a fixed initial velocity *)
Theorem C179_run_partial : forall orth0 angle_of pick sort power n balls dt speed position base,
  (2 <= n)%nat -> (forall v, length (orth0 v) = length v) -> (forall t x, rooted_tree n t x -> level_sorted t (sort t)) -> 0 <= power -> picks n pick ->
  disjoint n balls -> 0 < dt -> run orth0 angle_of pick sort power n balls dt speed position (fun _ => base) ->
  (forall j k, (j <= k)%nat -> dot base (position j) <= dot base (position k)) /\
  (* a position is never visited again, unless the robot has stood still *)
  forall j k, (j < k)%nat -> position j = position k -> position (S j) = position j.
Proof.
  intros orth0 angle_of pick sort power n balls dt speed position base Hn Ho Hs Hp Hk DB Hd RU.
  assert (ST : forall k, dot base (position k) <= dot base (position (S k)) /\ (position (S k) <> position k -> dot base (position k) < dot base (position (S k)))).
  { intros k. destruct (ru_base _ _ _ _ _ _ _ _ _ _ _ RU k) as (Lb & Ub & AP). pose proof (ru_position _ _ _ _ _ _ _ _ _ _ _ RU k) as Lp.
    destruct (ru_step _ _ _ _ _ _ _ _ _ _ _ RU k) as (magnitude & s & conv_of & conv & v & Hm & EC & EB & E & EP).
    pose proof (disjoint_front n balls (position k) base DB Lp Lb Ub) as F. pose proof (no_motion (position k)) as ER. rewrite Lp in ER.
    destruct (C179_forward_partial orth0 angle_of pick sort power n n magnitude s conv_of conv (position k) [] (vzero n) base balls) as (v' & m & E' & Ev & Lm & D1 & D2); auto; [lra|].
    rewrite E in E'. injection E' as <-. assert (Q : v = m) by (rewrite Ev; vext; ring). rewrite Q in EP. rewrite EP, dot_vadd_r, dot_vscale_r.
    split; [nra|]. intros NE. assert (norm m <> 0); [|specialize (D2 H); nra].
    intros Z. apply NE. apply norm_zero_iff in Z. rewrite Z, Lm. vext. ring. }
  assert (MO : forall j k, (j <= k)%nat -> dot base (position j) <= dot base (position k)).
  { intros j k L. induction L as [|k L IH]; [lra|]. pose proof (proj1 (ST k)). lra. }
  split; [exact MO|]. intros j k L E. destruct (list_eq_dec Req_EM_T (position (S j)) (position j)) as [|NE]; auto. exfalso.
  pose proof (proj2 (ST j) NE). pose proof (MO (S j) k ltac:(lia)). rewrite E in *. lra.
Qed.

(** ** A robot which leaves a disc, and one which is deflected by two *)
Example C179_forward_case : forall orth0, (forall v, length (orth0 v) = length v) ->
  exists s v m, create_from_vector_array [[-3 / 5; 4 / 5]; [-3 / 5; 4 / 5]] = Ok s /\
    evaluate_sequence orth0 (angle_space left_of) (get_projected_tangent left_of) sort_by_level 1 (PI * / 2) None 2 3 (Some s) (fun s => Ok s) [2; 0] []
      (map (ball_tree 2) [([0; 0], 1); ([2; 5], 2)]) = Ok v /\ v = vadd m (vzero 2) /\ 0 <= dot [-3 / 5; 4 / 5] m /\ (norm m <> 0 -> 0 < dot [-3 / 5; 4 / 5] m).
Proof.
  intros orth0 Ho. assert (U : unitv [-3 / 5; 4 / 5]) by (unfold unitv, dot; simpl; lra). destruct (constant_sequence [-3 / 5; 4 / 5] eq_refl U) as (s & E1 & E2).
  destruct (C179_forward_partial orth0 (angle_space left_of) left_of sort_by_level 1 2 2 3 s (fun s => Ok s) s [2; 0] [] (vzero 2) [-3 / 5; 4 / 5] [([0; 0], 1); ([2; 5], 2)])
    as (v & m & Ev & Em & Lm & D1 & D2); auto; try lra; try lia.
  - intros t x W. eapply sort_by_level_sorted; eauto.
  - apply picks_2d.
  - constructor; auto.
    + split; [discriminate|]. intros c r [E|[E|[]]]; injection E as <- <-; split; auto; lra.
    + intros i j d Hi Hj. simpl in Hi, Hj.
      assert (G1 : ~ norm (vsub [2; 0] [0; 0]) <= 1).
      { replace (vsub [2; 0] [0; 0]) with [2; 0] by (unfold vsub, vscale; simpl; f_equal; [ring|f_equal; ring]).
        unfold norm, dot. replace (2 * 2 + (0 * 0 + 0)) with (2 * 2) by ring. rewrite sqrt_square by lra. lra. }
      destruct i as [|[|i]], j as [|[|j]]; try lia; cbn [nth fst snd]; intros; try contradiction; auto.
  - intros c r I D. apply (apart_2 _ _ 2 c r); auto; lra.
  - apply (no_motion [2; 0]).
  - exists s, v, m. auto 10.
Qed.
Definition aside : vec := [3 / 5; 4 / 5].
Definition aside_sequence : sequence := match create_from_vector_array [aside; aside] with Ok s => s | Err _ => create_empty end.
Definition aside_command (orth0 : vec -> vec) (p : vec) : vec :=
  match evaluate_sequence orth0 (angle_space left_of) (get_projected_tangent left_of) sort_by_level 1 (PI * / 2) None 2 1 (Some aside_sequence) (fun s => Ok s) p [] [disc_tree]
  with Ok v => v | Err _ => vzero 2 end.
Fixpoint leaving (orth0 : vec -> vec) (k : nat) : vec :=
  match k with O => [1; 0] | S k => vadd (leaving orth0 k) (vscale (1 / 10) (aside_command orth0 (leaving orth0 k))) end.
Lemma aside_facts : length aside = 2%nat /\ unitv aside /\ get_end_vector aside_sequence = Ok aside.
Proof.
  assert (U : unitv aside) by (unfold unitv, dot, aside; simpl; lra). split; [auto|]. split; [auto|].
  destruct (constant_sequence aside eq_refl U) as (s & E1 & E2). unfold aside_sequence. rewrite E1. auto.
Qed.
Lemma aside_apart p : length p = 2%nat -> 0 <= dot aside p -> apart 2 [([0; 0], 1)] p aside.
Proof.
  intros Lp H c r [I|[]] D. injection I as <- <-. exfalso. unfold outward in D. rewrite Lp, Nat.eqb_refl in D.
  destruct (Req_EM_T (norm (vsub p [0; 0])) 0) as [Z|Z].
  - unfold axis in D. unfold dot, aside in D. simpl in D. lra.
  - unfold direction in D. rewrite dot_vscale_l in D. assert (P : 0 < / norm (vsub p [0; 0])) by (apply Rinv_0_lt_compat, norm_pos; auto).
    assert (Q : dot (vsub p [0; 0]) aside = dot aside p) by (destruct p as [|x [|y [|]]]; simpl in Lp; try lia; unfold dot, vsub, vscale, aside; simpl; ring).
    rewrite Q in D. nra.
Qed.
Lemma aside_step orth0 p : (forall v, length (orth0 v) = length v) -> length p = 2%nat -> 0 <= dot aside p ->
  length (aside_command orth0 p) = 2%nat /\ 0 <= dot aside (aside_command orth0 p) /\
  evaluate_sequence orth0 (angle_space left_of) (get_projected_tangent left_of) sort_by_level 1 (PI * / 2) None 2 1 (Some aside_sequence) (fun s => Ok s) p [] [disc_tree] = Ok (aside_command orth0 p).
Proof.
  intros Ho Lp H. destruct aside_facts as (La & Ua & Ea). pose proof (aside_apart p Lp H) as AP.
  assert (HS : forall t x, rooted_tree 2 t x -> level_sorted t (sort_by_level t)) by (intros t x W; eapply sort_by_level_sorted; eauto).
  pose proof (disjoint_front 2 _ p aside one_disc Lp La Ua) as F. pose proof (no_motion p) as ER. rewrite Lp in ER.
  destruct (C179_forward_partial orth0 (angle_space left_of) left_of sort_by_level 1 2 2 1 aside_sequence (fun s => Ok s) aside_sequence p [] (vzero 2) aside [([0; 0], 1)])
    as (v & m & E & Ev & Lm & D & _); auto; [lra|apply picks_2d|lra|].
  change (map (ball_tree 2) [([0; 0], 1)]) with [disc_tree] in E. unfold aside_command. rewrite E.
  assert (Q : v = m) by (rewrite Ev; vext; ring). rewrite Q. auto.
Qed.
Example C179_run_case : forall orth0, (forall v, length (orth0 v) = length v) ->
  run orth0 (angle_space left_of) left_of sort_by_level 1 2 [([0; 0], 1)] (1 / 10) 1 (leaving orth0) (fun _ => aside) /\
  forall j k, (j <= k)%nat -> 3 / 5 <= dot aside (leaving orth0 j) <= dot aside (leaving orth0 k).
Proof.
  intros orth0 Ho. destruct aside_facts as (La & Ua & Ea).
  assert (H0 : dot aside (leaving orth0 0%nat) = 3 / 5) by (simpl; unfold dot, aside; simpl; lra).
  assert (L : forall k, length (leaving orth0 k) = 2%nat /\ 0 <= dot aside (leaving orth0 k)).
  { induction k as [|k [IH IP]]; [split; [reflexivity|rewrite H0; lra]|]. destruct (aside_step orth0 _ Ho IH IP) as (A & B & _). cbn [leaving].
    rewrite length_vadd, length_vscale, IH, A, dot_vadd_r, dot_vscale_r. split; [auto|]. nra. }
  assert (HS : forall t x, rooted_tree 2 t x -> level_sorted t (sort_by_level t)) by (intros t x W; eapply sort_by_level_sorted; eauto).
  assert (RU : run orth0 (angle_space left_of) left_of sort_by_level 1 2 [([0; 0], 1)] (1 / 10) 1 (leaving orth0) (fun _ => aside)).
  { constructor.
    - intros k. apply L.
    - intros k. split; [auto|]. split; [auto|]. apply aside_apart; apply L.
    - intros k. destruct (L k) as [Lk Pk]. destruct (aside_step orth0 _ Ho Lk Pk) as (_ & _ & E).
      exists 1, aside_sequence, (fun s => Ok s), aside_sequence, (aside_command orth0 (leaving orth0 k)).
      split; [lra|]. split; [reflexivity|]. split; [exact Ea|]. split; [exact E|reflexivity]. }
  split; [exact RU|].
  destruct (C179_run_partial orth0 (angle_space left_of) left_of sort_by_level 1 2 [([0; 0], 1)] (1 / 10) 1 (leaving orth0) aside ltac:(lia) Ho HS ltac:(lra) picks_2d one_disc ltac:(lra) RU) as [MO _].
  intros j k Hj. pose proof (MO 0%nat j ltac:(lia)). pose proof (MO j k Hj). lra.
Qed.
Print Assumptions C179_forward_partial.
Print Assumptions C179_run_partial.
