(** Property C180: among balls the robot is never brought to a stop. *)
Require Import Reals List Bool Lra Lia ZArith Classical_Prop.
From Verif Require Import Base Vec Angle Pow RotModel Spec RotProofs SeqProofs TreeModel TreeSpec
  TreeProofs TreeWeights TreeReduce TreeGeom TreeCases TreeIndep PropRotation PropTree WeightModel WeightProofs PropWeights
  AvoidModel PropAvoid ProjModel PropProject TangentProofs PropTangent PropContact ContProofs PropContinuity PropEmbed PropJoint PropOrder PropLimits PropSteady PropFade PropPace PropDying PropMixed PropFlow PropSpread PropBalls PropTouch PropAhead.
From Verif Require RotAvoidProofs.
Import ListNotations.
Open Scope R_scope.

(** ** The directions of the balls do not point into them *)
Lemma sliding_ortho o v : unitv o -> dot o (sliding o v) = 0.
Proof. intros U. unfold sliding, direction. rewrite dot_vscale_r, dot_vsub_r, dot_vscale_r, U. ring. Qed.
Lemma balls_nodes n pick position base : (2 <= n)%nat -> picks n pick -> length base = n -> unitv base ->
  forall balls data obs tt0 tt keys ns, (forall c r, In (c, r) balls -> length c = n /\ 0 < r) -> apart n balls position base ->
  Forall2 (fun t d => exists ws rs, length ws = length (bt_comps t) /\ (forall i, (i < length (bt_comps t))%nat -> nth i rs 0 = PI * / 2) /\ d = (t, ws, rs)) (map (ball_tree n) balls) data ->
  shallow n base tt0 -> (exists a, node tt0 base_vel_id a /\ a_dir a = base) -> populate_all (get_projected_tangent pick) tt0 position base obs data = Ok (tt, keys, ns) ->
  (forall y a, node tt0 y a -> node tt y a) /\ Forall2 (fun k nn => exists a, node tt k a /\ 0 <= dot nn (a_dir a)) keys ns.
Proof.
  intros Hn Hp Lb Ub. assert (FB : fine_dir base base) by (split; [rewrite Ub; lra|auto]).
  induction balls as [|(c, r) balls IH]; intros data obs tt0 tt keys ns HB AP F S0 R0 EP.
  - assert (data = []) as -> by (inversion F; auto). cbn [populate_all] in EP. injection EP as <- <- <-. auto.
  - assert (FF : exists ws rs ds, data = (ball_tree n (c, r), ws, rs) :: ds /\ (forall i, (i < 1)%nat -> nth i rs 0 = PI * / 2) /\
      Forall2 (fun t d => exists ws rs, length ws = length (bt_comps t) /\ (forall i, (i < length (bt_comps t))%nat -> nth i rs 0 = PI * / 2) /\ d = (t, ws, rs)) (map (ball_tree n) balls) ds).
    { cbn [map] in F. inversion F as [|t d ts ds (ws & rs & _ & Hr & Ed) F' X1 X2]. exists ws, rs, ds. rewrite Ed. auto. }
    destruct FF as (ws & rs & ds & -> & Hr & F'). cbn [populate_all] in EP.
    destruct (populate_tree _ _ _ _ _ _ _ _) as [((t1, k1), n1)|] eqn:E1; [|discriminate]. cbn [bind] in EP.
    destruct (populate_all _ _ _ _ _ _) as [((t2, k2), n2)|] eqn:E2; [|discriminate]. cbn [bind] in EP. injection EP as <- <- <-.
    assert (Q : shallow n base t1 /\ (exists a, node t1 base_vel_id a /\ a_dir a = base) /\ (forall y a, node tt0 y a -> node t1 y a) /\
      Forall2 (fun k nn => exists a, node t1 k a /\ 0 <= dot nn (a_dir a)) k1 n1).
    2:{ destruct Q as (Q1 & Q2 & Q3 & Q4).
        destruct (IH ds (obs + 1)%Z t1 t2 k2 n2) as [K FN]; [intros; apply HB; right; auto|intros c' r' I; apply (AP c' r'); right; auto|exact F'|exact Q1|exact Q2|exact E2|].
        split; [intros y a N; auto|]. apply Forall2_app; [|exact FN]. clear - Q4 K. induction Q4 as [|k nn ks nns (a & Na & Da) Q4 IH]; constructor; auto. exists a. auto. }
    clear E2 IH F' F. destruct (HB c r (or_introl eq_refl)) as [Lc Pr]. specialize (AP c r (or_introl eq_refl)). specialize (Hr 0%nat ltac:(simpl; lia)).
    unfold populate_tree in E1. destruct (lift (add_node tt0 _ base _ None None)) as [t3|] eqn:A1; [|discriminate].
    destruct (shallow_add n base tt0 _ _ base t3 Lb Ub FB S0 R0 A1) as (S3 & K3 & N3). cbn [bind] in E1.
    assert (R3 : exists a, node t3 base_vel_id a /\ a_dir a = base) by (destruct R0 as (a & X & Y); exists a; auto).
    change (seq 0 (length (bt_comps (ball_tree n (c, r))))) with [0%nat] in E1. cbn [populate_components] in E1.
    destruct (Rle_dec (nth 0 ws 0) 0); [injection E1 as <- <- <-; auto|].
    unfold branch_update in E1. destruct (ball_walk n c r position ltac:(lia) Lc Pr) as (s & W). change (alone (ball n c r)) with (ball_tree n (c, r)) in W. rewrite W in E1.
    cbn [bind branch_steps branch_nodes w_refs w_ids tl combine rev w_normals] in E1.
    change (get_bcomp (ball_tree n (c, r)) 0) with (Ok (ball n c r)) in E1. rewrite Hr in E1. cbn [bind nth] in E1.
    change (c_tail (b_comp (ball n c r))) with false in E1. cbn [orb] in E1. rewrite (proj2 (Rltb_false (PI * / 2) (PI * / 2))) in E1 by lra. cbn [bind] in E1.
    destruct (outward_facts n c position ltac:(lia) Lc) as [Lo Uo].
    destruct (Rltb (dot (outward n c position) base) 0) eqn:D.
    + apply Rltb_true in D. destruct (AP D) as [ND AC]. destruct (ball_tangent n pick base (outward n c position) Hp Lb Lo Ub Uo D ND) as (T & Lt & Ut & Pt).
      change (PI * / 2) with (PI / 2) in E1. rewrite T in E1. cbn [bind] in E1.
      destruct (lift (add_node t3 _ _ _ None None)) as [t4|] eqn:A2; [|discriminate]. cbn [bind] in E1. injection E1 as <- <- <-.
      assert (FT : fine_dir base (sliding (outward n c position) base)) by (split; [lra|auto]).
      destruct (shallow_add n base t3 _ _ _ t4 Lt Ut FT S3 N3 A2) as (S4 & K4 & a & Na & Da). split; [exact S4|]. split; [destruct R3 as (a' & X & Y); exists a'; auto|]. split; [auto|].
      constructor; [|constructor]. exists a. split; [exact Na|]. rewrite Da, sliding_ortho by auto. lra.
    + apply Rltb_false in D. cbn [bind] in E1. destruct (lift (add_node t3 _ _ _ None None)) as [t4|] eqn:A2; [|discriminate]. cbn [bind] in E1. injection E1 as <- <- <-.
      destruct (shallow_add n base t3 _ _ _ t4 Lb Ub FB S3 N3 A2) as (S4 & K4 & a & Na & Da). split; [exact S4|]. split; [destruct R3 as (a' & X & Y); exists a'; auto|]. split; [auto|].
      constructor; [|constructor]. exists a. split; [exact Na|]. rewrite Da. lra.
Qed.
Lemma balls_tree orth0 angle_of pick sort power n position base balls s : (2 <= n)%nat -> (forall v, length (orth0 v) = length v) ->
  (forall t x, rooted_tree n t x -> level_sorted t (sort t)) -> 0 <= power -> picks n pick -> in_front n balls position base -> apart n balls position base ->
  get_end_vector s = Ok base -> forall final normals cw records fv,
  evaluate_avoidance orth0 angle_of (get_projected_tangent pick) sort power (PI * / 2) None position s (map (ball_tree n) balls) = Ok (final, normals, cw, records) ->
  get_end_vector final = Ok fv ->
  exists tt keys, rooted_tree n tt base_vel_id /\ no_opposite tt /\ distinguishable tt /\ NoDup (keys ++ [base_vel_id]) /\
    (forall x, In x (keys ++ [base_vel_id]) -> In x (map fst (t_nodes tt))) /\ length keys = length cw /\
    get_weighted_mean orth0 tt (fun _ => mkSlot 0 None None None) (sort tt) (keys ++ [base_vel_id]) (cw ++ [1 - rsum cw]) = Ok fv /\
    Forall2 (fun k nn => exists a, node tt k a /\ 0 <= dot nn (a_dir a)) keys normals.
Proof.
  intros Hn Ho Hs Hp Hk F AP Es final normals cw records fv Ea Ef. pose proof PI_RGT_0 as HP.
  pose proof (balls_scene orth0 angle_of pick sort power (PI * / 2) n position base balls Hn Ho Hs Hp Hk ltac:(lra) F (C177_tame n pick position base balls Hn Hk F AP)) as SC.
  destruct (evaluate_avoidance_ok _ _ _ _ _ _ _ _ _ _ _ _ SC Es) as (tt' & data & final' & normals' & cw' & fv' & Ed & Ea' & _ & _ & _ & _ & _ & _ & Ecl & _ & Ef' & _ & _ & Nc & Sc & _ & _ & _ & _ & _).
  rewrite Ea in Ea'. injection Ea' as <- <- <- _. rewrite Ef in Ef'. injection Ef' as <-.
  destruct (if_base _ _ _ _ F) as [Lb Ub]. pose proof (proj1 (unit_norm _) Ub) as Nb. assert (Nb' : norm base <> 0) by lra.
  unfold evaluate_avoidance in Ea. rewrite Es in Ea. cbn [bind] in Ea.
  destruct (set_root empty_tree base_vel_id base) as [tt0|] eqn:E0; [|discriminate]. cbn [bind] in Ea. rewrite Ed in Ea. cbn [bind] in Ea.
  assert (INB : forall t, In t (map (ball_tree n) balls) -> exists c r, length c = n /\ 0 < r /\ t = alone (ball n c r)).
  { intros t I. apply in_map_iff in I as ((c, r) & <- & I). destruct (proj2 (if_balls _ _ _ _ F) c r I). exists c, r. auto. }
  pose proof (balls_data angle_of power (PI * / 2) n position base Hp _ data INB Ed) as FD.
  assert (Din : forall t ws rs, In (t, ws, rs) (map fst data) -> In t (map (ball_tree n) balls) /\ (forall i, (i < length (bt_comps t))%nat -> PI / 2 <= nth i rs 0 <= PI)).
  { intros t ws rs I. clear - FD I HP. induction FD as [|t0 d0 ts ds (ws0 & rs0 & _ & Hr & ->) FD IH]; [contradiction|].
    destruct I as [E|I]; [injection E as -> -> ->; split; [left; auto|intros i Hi; rewrite Hr by auto; lra]|]. destruct (IH I) as [A B]. split; [right|]; auto. }
  destruct (population_ok (get_projected_tangent pick) n position base (unit_args n) not_inward (map fst data) tt0 Hn Lb Nb') as (tt & ns & Ep & W & ND & IN & _); auto.
  { intros v nn r rad Lv Nv (L1 & U1 & L2 & U2 & Hrad). rewrite Nb in Nv. assert (Uv : unitv v) by (apply unit_norm; auto).
    destruct (C60_not_inward n pick v nn r rad Hk Lv L1 L2 Uv U1 U2 Hrad) as (d & Edd & Ldd & Udd & K).
    exists d. split; auto. split; auto. split; [rewrite (proj1 (unit_norm _) Udd); lra|]. split; auto. destruct K as [K|(_ & K)]; auto. }
  { intros v nn r rad Lv Nv G K. rewrite Nb in Nv. split; [apply unit_norm; auto|]. left. rewrite dot_comm. auto. }
  { intros t ws rs i I Hi _. destruct (Din _ _ _ I) as (It & Hrs). split; [apply (sc_branch _ _ _ _ _ _ _ _ _ _ _ SC); auto|].
    apply branch_good_intro; auto; intros; [eapply (sc_normal _ _ _ _ _ _ _ _ _ _ _ SC)|eapply (sc_refdir _ _ _ _ _ _ _ _ _ _ _ SC)]; eauto. }
  rewrite Ep in Ea. cbn [bind] in Ea. rewrite Ecl in Ea. cbn [bind] in Ea.
  destruct (reduce_weighted_to_sequence _ _ _ _ _ _) as [sq|] eqn:Er; [|discriminate]. cbn [bind] in Ea. injection Ea as <- <- _.
  destruct (set_root_rooted n base_vel_id base tt0 Hn Lb E0) as (W0 & N0 & ED).
  assert (D : vdiv base (norm base) = base) by (rewrite Nb; vext; field).
  assert (FB : fine_dir base base) by (split; [rewrite Ub; lra|auto]).
  assert (S0 : shallow n base tt0).
  { split; [exact W0|]. split; [intros p x I; unfold edge in I; rewrite ED in I; destruct I|]. intros x a N. unfold node in N. rewrite N0 in N. destruct N as [N|[]]. injection N as <- <-. simpl. rewrite D. auto. }
  assert (R0 : exists a, node tt0 base_vel_id a /\ a_dir a = base) by (eexists; split; [unfold node; rewrite N0; left; reflexivity|exact D]).
  destruct (balls_nodes n pick position base Hn Hk Lb Ub balls (map fst data) 0%Z tt0 tt _ ns (proj2 (if_balls _ _ _ _ F)) AP FD S0 R0 Ep) as [_ FN].
  destruct (sc_tangent_tree _ _ _ _ _ _ _ _ _ _ _ SC tt0 tt data _ _ E0 Ed Ep) as [NO DI].
  exists tt, (end_keys 0 (map fst data)). do 5 (split; [auto|]). split.
  { destruct (Nat.eq_dec (length (end_keys 0 (map fst data) ++ [base_vel_id])) (length (cw ++ [1 - rsum cw]))) as [Q|Q].
    - rewrite !app_length in Q. simpl in Q. lia.
    - rewrite C13_length_mismatch in Er by exact Q. discriminate. }
  split; [|exact FN]. unfold get_weighted_mean. rewrite Er. cbn [bind]. exact Ef.
Qed.
Lemma all_zero : forall l, nonneg l -> rsum l <= 0 -> Forall (fun w => w = 0) l.
Proof.
  induction l as [|w l IH]; intros N H; constructor; simpl in H; assert (0 <= w) by (apply N; left; auto); assert (0 <= rsum l) by (apply rsum_nonneg; intros x I; apply N; right; auto).
  - lra.
  - apply IH; [intros x I; apply N; right; auto|lra].
Qed.
(** A weight of one belongs to a direction which does not point against the averaged normal. *)
Lemma balls_saturated orth0 angle_of pick sort power n position base balls s : (2 <= n)%nat -> (forall v, length (orth0 v) = length v) ->
  (forall t x, rooted_tree n t x -> level_sorted t (sort t)) -> 0 <= power -> picks n pick -> in_front n balls position base -> apart n balls position base ->
  get_end_vector s = Ok base -> forall final normals cw records fv,
  evaluate_avoidance orth0 angle_of (get_projected_tangent pick) sort power (PI * / 2) None position s (map (ball_tree n) balls) = Ok (final, normals, cw, records) ->
  get_end_vector final = Ok fv -> nonneg cw -> rsum cw <= 1 -> forall w, In w cw -> 1 <= w -> 0 <= dot fv (averaged_normal n normals cw).
Proof.
  intros Hn Ho Hs Hp Hk F AP Es final normals cw records fv Ea Ef Nc Sc w Iw Hw.
  destruct (balls_tree orth0 angle_of pick sort power n position base balls s Hn Ho Hs Hp Hk F AP Es _ _ _ _ _ Ea Ef) as (tt & keys & W & NO & DI & ND & IN & LK & Em & FN).
  apply in_split in Iw as (A & B & Ecw). assert (NA : nonneg A) by (intros x I; apply Nc; rewrite Ecw; apply in_app_iff; auto).
  assert (NB : nonneg B) by (intros x I; apply Nc; rewrite Ecw; apply in_app_iff; right; right; auto).
  pose proof (rsum_nonneg A NA) as PA. pose proof (rsum_nonneg B NB) as PB. assert (SE : rsum cw = rsum A + (w + rsum B)) by (rewrite Ecw, rsum_app; simpl; ring).
  assert (w = 1) by lra. subst w. pose proof (all_zero A NA ltac:(lra)) as FA. pose proof (all_zero B NB ltac:(lra)) as FB.
  assert (SK : exists K1 k K2, keys = K1 ++ k :: K2 /\ length K1 = length A).
  { rewrite Ecw, app_length in LK. simpl in LK. exists (firstn (length A) keys), (nth (length A) keys base_vel_id), (skipn (S (length A)) keys). split.
    - rewrite <- (firstn_skipn (length A) keys) at 1. f_equal. clear - LK. revert keys LK. induction (length A) as [|m IH]; intros [|x keys] L; simpl in L; try lia; [reflexivity|]. simpl. apply IH. lia.
    - rewrite firstn_length. lia. }
  destruct SK as (K1 & k & K2 & -> & L1). subst cw.
  destruct (Forall2_app_inv_l K1 (k :: K2) FN) as (N1 & N' & F1 & F2' & EN). inversion F2' as [|k' nn K2' N2 (a & Na & Da) F2 X1 X2]. rewrite <- X2 in EN. rewrite EN.
  assert (LN : length N1 = length A) by (rewrite <- L1; symmetry; eapply Forall2_len; eauto).
  rewrite dot_averaged_one by auto.
  assert (Fv : fv = a_dir a).
  { replace ((K1 ++ k :: K2) ++ [base_vel_id]) with (K1 ++ k :: K2 ++ [base_vel_id]) in Em, ND, IN by (rewrite <- app_assoc; reflexivity).
    replace ((A ++ 1 :: B) ++ [1 - rsum (A ++ 1 :: B)]) with (A ++ 1 :: B ++ [1 - rsum (A ++ 1 :: B)]) in Em by (rewrite <- app_assoc; reflexivity). rewrite (mean_on_one n tt (sort tt) orth0 _ K1 k (K2 ++ [base_vel_id]) A (B ++ [1 - rsum (A ++ 1 :: B)]) a) in Em; auto.
    - injection Em as <-. auto.
    - eapply Hs. exact W.
    - rewrite !app_length in *. simpl in *. lia.
    - apply Forall_app. split; auto. constructor; [|constructor]. lra. }
  rewrite Fv, dot_comm. exact Da.
Qed.
(** No record asks for a full stop. *)
Lemma balls_records angle_of power n position base balls : (1 <= n)%nat -> length base = n -> unitv base -> (forall c r, In (c, r) balls -> length c = n /\ 0 < r) -> apart n balls position base ->
  forall data r, mapM (tree_data angle_of power (PI * / 2) None position base) (map (ball_tree n) balls) = Ok data -> ~ In (r, 1) (map snd data).
Proof.
  intros Hn Lb Ub. pose proof (proj1 (unit_norm _) Ub) as Nb. induction balls as [|(c, q) balls IH]; intros HB AP data r Ed; cbn [map mapM] in Ed.
  - injection Ed as <-. intros [].
  - destruct (tree_data _ _ _ _ _ _ _) as [d|] eqn:D; [|discriminate]. cbn [bind] in Ed. destruct (mapM _ _) as [ds|] eqn:Ds; [|discriminate]. cbn [bind] in Ed. injection Ed as <-.
    cbn [map]. intros [E|I].
    2:{ eapply IH; eauto; [intros; apply HB; right; auto|intros c' r' J; apply (AP c' r'); right; auto]. }
    unfold tree_data in D. destruct (convergence_record _ _ _ _ _) as [rec|] eqn:ER; [|discriminate]. cbn [bind] in D.
    destruct (tree_gamma_and_weights _ _ _ _ _) as [(gs, wg)|]; [|discriminate]. cbn [bind] in D.
    destruct (tree_obstacle_weights _ _ _ _ _) as [ws|]; [|discriminate]. cbn [bind] in D.
    destruct (tree_radiuses _ _ _ _ _) as [rs|]; [|discriminate]. cbn [bind] in D. injection D as <-. cbn [snd] in E. subst rec.
    unfold convergence_record in ER. change (get_component (mtree_of (ball_tree n (c, q))) (m_root (mtree_of (ball_tree n (c, q))))) with (Ok (b_comp (ball n c q))) in ER. cbn [bind] in ER.
    change (tree_gammas position (mtree_of (ball_tree n (c, q)))) with [norm (vsub position c) / q] in ER. cbv iota beta in ER.
    destruct (get_rotation_weight _ _ _ _ _ _ _ _) as [rw|]; [|discriminate]. cbn [bind] in ER. rewrite Nb in ER. destruct (Req_EM_T 1 0); [lra|]. injection ER as _ ER.
    destruct (HB c q (or_introl eq_refl)) as [Lc Pq]. destruct (outward_facts n c position Hn Lc) as [Lo Uo].
    replace (vdiv base 1) with base in ER by (vext; field). change (c_refdir (b_comp (ball n c q)) position) with (vscale (-1) (outward n c position)) in ER.
    assert (Uo' : unitv (vscale (-1) (outward n c position))) by (unfold unitv; rewrite dot_vscale_l, dot_vscale_r, Uo; ring).
    destruct (AP c q (or_introl eq_refl)) as [NE _]; [rewrite dot_vscale_r in ER; rewrite dot_comm; lra|]. apply NE. apply unit_dot_1; auto. rewrite length_vscale. lia.
Qed.
Lemma safe_positive v avg gamma : unitv v -> norm avg <= 1 -> (gamma <= 1 -> 0 <= dot v avg) -> forall p, compute_safe_scaling v avg gamma (8 / 10) 3 = Ok p -> 0 < p.
Proof.
  intros U A G p E. unfold compute_safe_scaling in E. rewrite (proj1 (unit_norm _) U) in E. destruct (Req_EM_T 1 0); [lra|].
  destruct (Rltb 0 (dot v avg) || isclose (norm avg) 0); [injection E as <-; lra|]. destruct (Rle_dec gamma 1) as [L|L].
  - specialize (G L). rewrite (proj2 (Rltb_false (dot v avg) (-1 / 1000))) in E by lra. injection E as <-. lra.
  - destruct (fdiv 1 3) as [e|]; [|discriminate]. cbn [bind] in E. destruct (fpow _ e) as [pf|]; [|discriminate]. cbn [bind] in E.
    assert (B : -1 <= dot v avg). { pose proof (cauchy_schwarz v avg) as C. rewrite (proj1 (unit_norm _) U) in C. pose proof (Rle_abs (- dot v avg)) as Q. rewrite Rabs_Ropp in Q. lra. }
    unfold fpow in E. destruct (Rlt_dec 0 (1 + 8 / 10 * dot v avg)); [|lra]. injection E as <-. apply Rpower_pos.
Qed.
(** ** The command *)
Theorem C180_moves_partial : forall orth0 angle_of pick sort power n dim magnitude s conv_of conv position env rel base balls,
  (2 <= n)%nat -> (forall v, length (orth0 v) = length v) -> (forall t x, rooted_tree n t x -> level_sorted t (sort t)) -> 0 <= power -> picks n pick ->
  in_front n balls position base -> apart n balls position base ->
  0 < magnitude -> conv_of s = Ok conv -> get_end_vector conv = Ok base -> compute_multiobstacle_relative_velocity position env = Ok rel ->
  exists v m, evaluate_sequence orth0 angle_of (get_projected_tangent pick) sort power (PI * / 2) None
      dim magnitude (Some s) conv_of position env (map (ball_tree n) balls) = Ok v /\ v = vadd m rel /\ length m = n /\ 0 < dot base m.
Proof.
  intros orth0 angle_of pick sort power n dim magnitude s conv_of conv position env rel base balls Hn Ho Hs Hp Hk F AP Hm EC EB ER. pose proof PI_RGT_0 as HP.
  pose proof (balls_scene orth0 angle_of pick sort power (PI * / 2) n position base balls Hn Ho Hs Hp Hk ltac:(lra) F (C177_tame n pick position base balls Hn Hk F AP)) as SC.
  destruct (evaluate_avoidance_ok _ _ _ _ _ _ _ _ _ _ _ _ SC EB) as (tt & data & final & normals & cw & fv & Ed & Ea & _ & _ & _ & _ & _ & _ & Ecl & _ & Ef & Uf & Lf & Nc & Sc & Pc & Ln & Un & Nd & Rr).
  pose proof (balls_ahead orth0 angle_of pick sort power n position base balls conv Hn Ho Hs Hp Hk F AP EB _ _ _ _ _ Ea Ef) as PF.
  pose proof (balls_saturated orth0 angle_of pick sort power n position base balls conv Hn Ho Hs Hp Hk F AP EB _ _ _ _ _ Ea Ef Nc Sc) as SAT.
  destruct (if_base _ _ _ _ F) as [Lb Ub].
  destruct (C32_speed_bound_partial orth0 angle_of pick sort power (PI * / 2) None n dim magnitude s conv_of conv position env rel base (map (ball_tree n) balls)) as (v & _ & _ & E & _); auto; [lra|].
  assert (SF : exists k, 0 < k /\ v = vadd (vscale k fv) rel).
  { unfold evaluate_sequence in E. destruct (map (ball_tree n) balls) as [|t0 ts] eqn:Et; [destruct (sc_trees _ _ _ _ _ _ _ _ _ _ _ SC); auto|]. rewrite <- Et in *.
    rewrite ER in E. cbn [bind] in E. rewrite EC in E. cbn [bind] in E. rewrite Ea in E. cbn [bind] in E. rewrite Ef in E. cbn [bind] in E.
    unfold scaled_velocity in E. destruct cw as [|w0 cws] eqn:Ecw.
    - injection E as <-. exists 1. split; [lra|]. f_equal. vext. ring.
    - rewrite <- Ecw in *. assert (NE : cw <> []) by (rewrite Ecw; discriminate). specialize (Pc NE). rewrite Lf in E.
      assert (MI : In (rmax_list cw) cw) by (apply rmax_in; auto).
      destruct (fdiv 1 (rmax_list cw)) as [gamma|] eqn:Eg; [|discriminate]. cbn [bind] in E.
      assert (Nr : map snd data <> []) by (destruct data; [contradiction|discriminate]).
      destruct (C28_slowfactor (map snd data) (2/10) Nr ltac:(lra) Rr) as (sc & Esc & Hsc & Hstop & _). rewrite Esc in E. cbn [bind] in E.
      assert (Psc : 0 < sc).
      { destruct (Req_EM_T sc 0) as [Z|Z]; [|lra]. exfalso. apply Hstop in Z as (r & _ & I).
        apply (balls_records angle_of power n position base balls ltac:(lia) Lb Ub (proj2 (if_balls _ _ _ _ F)) AP data r Ed I). }
      set (avg := averaged_normal n normals cw) in *.
      assert (An : norm avg <= 1).
      { pose proof (averaged_normal_bound n normals cw Ln Nc ltac:(intros v0 I0; apply (Un v0 I0))) as H. fold avg in H. lra. }
      assert (K : 0 < match compute_safe_scaling fv avg gamma (8 / 10) 3 with Ok p => if Rltb p sc then p else sc | Err _ => sc end).
      { destruct (compute_safe_scaling fv avg gamma (8 / 10) 3) as [p|] eqn:Ep; [|lra].
        assert (0 < p); [|destruct (Rltb p sc); lra]. apply (safe_positive fv avg gamma Uf An); auto. intros G. apply (SAT (rmax_list cw) MI).
        unfold fdiv in Eg. destruct (Req_EM_T (rmax_list cw) 0) as [|NZ]; [discriminate|]. injection Eg as <-. specialize (Nc _ MI).
        apply Rmult_le_reg_l with (/ rmax_list cw); [apply Rinv_0_lt_compat; lra|]. rewrite Rinv_l by auto. lra. }
      set (k := match compute_safe_scaling fv avg gamma (8 / 10) 3 with Ok p => if Rltb p sc then p else sc | Err _ => sc end) in *.
      rewrite (proj1 (unit_norm _) Uf) in E. destruct (Req_EM_T 1 0); [lra|]. injection E as <-. exists (k * magnitude). split; [apply Rmult_lt_0_compat; auto|].
      f_equal. vext. field. }
  destruct SF as (k & Hk0 & Ev). exists v, (vscale k fv). split; [exact E|]. split; [exact Ev|]. split; [rewrite length_vscale; auto|].
  rewrite dot_vscale_r. apply Rmult_lt_0_compat; auto.
Qed.
(** ** Runs *)
Record drive (orth0 : vec -> vec) (angle_of : vec -> vec -> vec) (pick : vec -> vec) (sort : tree -> list nid) (power : R) (n : nat) (balls : list (vec * R))
    (dt : R) (position base : nat -> vec) : Prop := {
  dr_position : forall k, length (position k) = n;
  dr_base : forall k, length (base k) = n /\ unitv (base k) /\ apart n balls (position k) (base k);
  dr_step : forall k, exists magnitude s conv_of conv v, 0 < magnitude /\ conv_of s = Ok conv /\ get_end_vector conv = Ok (base k) /\
    evaluate_sequence orth0 angle_of (get_projected_tangent pick) sort power (PI * / 2) None n magnitude (Some s) conv_of (position k) [] (map (ball_tree n) balls) = Ok v /\
    position (S k) = vadd (position k) (vscale dt v) }.
Theorem C180_run_partial : forall orth0 angle_of pick sort power n balls dt position base,
  (2 <= n)%nat -> (forall v, length (orth0 v) = length v) -> (forall t x, rooted_tree n t x -> level_sorted t (sort t)) -> 0 <= power -> picks n pick ->
  disjoint n balls -> 0 < dt -> drive orth0 angle_of pick sort power n balls dt position base ->
  (* every step advances along the velocity the robot is asked for *)
  (forall k, dot (base k) (position k) < dot (base k) (position (S k))) /\
  (* if this is the same all the time, no two positions coincide *)
  ((forall k, base k = base 0%nat) -> forall j k, position j = position k -> j = k).
Proof.
  intros orth0 angle_of pick sort power n balls dt position base Hn Ho Hs Hp Hk DB Hd RU.
  assert (ST : forall k, dot (base k) (position k) < dot (base k) (position (S k))).
  { intros k. destruct (dr_base _ _ _ _ _ _ _ _ _ _ RU k) as (Lb & Ub & AP). pose proof (dr_position _ _ _ _ _ _ _ _ _ _ RU k) as Lp.
    destruct (dr_step _ _ _ _ _ _ _ _ _ _ RU k) as (magnitude & s & conv_of & conv & v & Hm & EC & EB & E & EP).
    pose proof (disjoint_front n balls (position k) (base k) DB Lp Lb Ub) as F. pose proof (no_motion (position k)) as ER. rewrite Lp in ER.
    destruct (C180_moves_partial orth0 angle_of pick sort power n n magnitude s conv_of conv (position k) [] (vzero n) (base k) balls) as (v' & m & E' & Ev & Lm & D); auto.
    rewrite E in E'. injection E' as <-. assert (Q : v = m) by (rewrite Ev; vext; ring). rewrite Q in EP. rewrite EP, dot_vadd_r, dot_vscale_r.
    pose proof (Rmult_lt_0_compat _ _ Hd D). lra. }
  split; [exact ST|]. intros EB j k E.
  assert (MO : forall j k, (j < k)%nat -> dot (base 0%nat) (position j) < dot (base 0%nat) (position k)).
  { intros a b L. induction L as [|b L IH]; [pose proof (ST a) as Q; rewrite EB in Q; exact Q|]. pose proof (ST b) as Q. rewrite EB in Q. lra. }
  destruct (Nat.lt_trichotomy j k) as [L|[L|L]]; auto; pose proof (MO _ _ L) as Q; rewrite E in Q; lra.
Qed.
(** ** Examples *)
Example C180_moves_case : forall orth0, (forall v, length (orth0 v) = length v) ->
  exists s v m, create_from_vector_array [[-3 / 5; 4 / 5]; [-3 / 5; 4 / 5]] = Ok s /\
    evaluate_sequence orth0 (angle_space left_of) (get_projected_tangent left_of) sort_by_level 1 (PI * / 2) None 2 3 (Some s) (fun s => Ok s) [1; 0] []
      (map (ball_tree 2) [([0; 0], 1); ([1; 5], 2)]) = Ok v /\ v = vadd m (vzero 2) /\ 0 < dot [-3 / 5; 4 / 5] m.
Proof.
  intros orth0 Ho. assert (U : unitv [-3 / 5; 4 / 5]) by (unfold unitv, dot; simpl; lra). destruct (constant_sequence [-3 / 5; 4 / 5] eq_refl U) as (s & E1 & E2).
  assert (G2 : ~ norm (vsub [1; 0] [1; 5]) <= 2).
  { replace (vsub [1; 0] [1; 5]) with [0; -5] by (unfold vsub, vscale; simpl; f_equal; [ring|f_equal; ring]).
    unfold norm, dot. simpl. replace (0 * 0 + (-5 * -5 + 0)) with (5 * 5) by ring. rewrite sqrt_square by lra. lra. }
  destruct (C180_moves_partial orth0 (angle_space left_of) left_of sort_by_level 1 2 2 3 s (fun s => Ok s) s [1; 0] [] (vzero 2) [-3 / 5; 4 / 5] [([0; 0], 1); ([1; 5], 2)])
    as (v & m & Ev & Em & Lm & Dm); auto; try lra; try lia.
  - intros t x W. eapply sort_by_level_sorted; eauto.
  - apply picks_2d.
  - constructor; auto.
    + split; [discriminate|]. intros c r [E|[E|[]]]; injection E as <- <-; split; auto; lra.
    + intros i j d Hi Hj. simpl in Hi, Hj.
      destruct i as [|[|i]], j as [|[|j]]; try lia; cbn [nth fst snd]; intros; try contradiction; auto.
  - intros c r I D. apply (apart_2 _ _ 1 c r); auto; lra.
  - apply (no_motion [1; 0]).
  - exists s, v, m. auto 10.
Qed.
(* the robot of C178_run_case, which heads into the disc at every step, never stands still *)
Example C180_run_case : forall orth0, (forall v, length (orth0 v) = length v) ->
  forall k, dot (inward (spiral orth0 k)) (spiral orth0 k) < dot (inward (spiral orth0 k)) (spiral orth0 (S k)).
Proof.
  intros orth0 Ho.
  assert (L : forall k, length (spiral orth0 k) = 2%nat).
  { induction k as [|k IH]; [reflexivity|]. simpl. rewrite length_vadd, length_vscale, IH. rewrite (proj1 (proj2 (disc_command_ok orth0 _ Ho IH))). reflexivity. }
  assert (HS : forall t x, rooted_tree 2 t x -> level_sorted t (sort_by_level t)) by (intros t x W; eapply sort_by_level_sorted; eauto).
  apply (C180_run_partial orth0 (angle_space left_of) left_of sort_by_level 1 2 [([0; 0], 1)] (1 / 10) (spiral orth0) (fun k => inward (spiral orth0 k)) ltac:(lia) Ho HS ltac:(lra) picks_2d one_disc ltac:(lra)).
  constructor; auto.
  - intros k. destruct (inward_facts (spiral orth0 k)) as (Li & Ui & AP). split; [auto|]. split; [auto|]. apply AP; [left; reflexivity|apply L].
  - intros k. destruct (disc_command_ok orth0 _ Ho (L k)) as (E1 & _ & E2).
    exists 1, (heading (spiral orth0 k)), (fun s => Ok s), (heading (spiral orth0 k)), (disc_command orth0 (spiral orth0 k)).
    split; [lra|]. split; [reflexivity|]. split; [exact E1|]. split; [exact E2|reflexivity].
Qed.
Print Assumptions C180_moves_partial.
Print Assumptions C180_run_partial.
