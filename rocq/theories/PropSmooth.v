(** Properties C70 and C71: the continuation weight and the pseudo tangent of the rotational
    avoider. *)
Require Import Reals List Bool Lra Lia ZArith.
From Verif Require Import Base Vec Angle Pow RotModel Spec RotProofs TreeModel TreeSpec WeightModel AvoidModel
  ProjModel PropProject ConvModel RotAvoidModel RotAvoidProofs.
Import ListNotations.
Open Scope R_scope.

(** * C70 *)
(** [angle_to d v]: angle between the direction of [v] and the unit vector [d]. *)
Definition angle_to (d v : vec) : R := acos (dot d (direction v)).

(** The weight as a function of gamma: one in contact, a power (/ g) ^ q with q >= 1 or zero
    outside. *)
Lemma continuation_form n rad power ref conv b : (2 <= n)%nat -> base_ok n b ->
  length ref = n -> length conv = n -> norm ref <> 0 -> norm conv <> 0 -> 0 <= power ->
  (forall g, 0 < g <= 1 -> get_smooth_continuation_weight rad power g ref conv b = Ok 1) /\
  ((exists q, 1 <= q /\ forall g, 1 < g ->
      get_smooth_continuation_weight rad power g ref conv b = Ok (Rpower (/ g) q)) /\
    (rad <= angle_to (bs0 b) conv \/ angle_to (bs0 b) ref <= rad /\ direction conv <> direction ref) /\
    (rad <= angle_to (bs0 b) conv -> forall g, 1 < g ->
      get_smooth_continuation_weight rad power g ref conv b = Ok (/ g)) \/
   (forall g, 1 < g -> get_smooth_continuation_weight rad power g ref conv b = Ok 0) /\
    angle_to (bs0 b) conv < rad /\ (direction conv = direction ref \/ rad < angle_to (bs0 b) ref)).
Proof.
  intros Hn B Lr Lc Nr Nc Hp.
  destruct (angle_in_ok n b conv Hn B Lc Nc) as (ac & Ec & Ac). destruct (angle_in_ok n b ref Hn B Lr Nr) as (ar & Er & Ar).
  assert (Dc : norm ac = angle_to (bs0 b) conv) by apply (ad_norm _ _ _ _ Ac).
  assert (Dr : norm ar = angle_to (bs0 b) ref) by apply (ad_norm _ _ _ _ Ar).
  unfold get_smooth_continuation_weight. rewrite Ec, Er. cbn [bind]. split.
  { intros g Hg. destruct (Req_EM_T g 0); [lra|].
    assert (W : 1 <= 1 / g) by (apply Rmult_le_reg_r with g; [lra|]; unfold Rdiv; rewrite Rmult_assoc, Rinv_l; lra).
    rewrite (proj2 (Rleb_false _ _)) by lra. rewrite (proj2 (Rleb_true _ _)) by lra. auto. }
  assert (Out : forall g, 1 < g -> g <> 0 /\ 0 < 1 / g < 1 /\ 1 / g = / g).
  { intros g Hg. split; [lra|]. assert (E : 1 / g = / g) by (unfold Rdiv; ring). rewrite E. split; auto. split.
    - apply Rinv_0_lt_compat; lra.
    - rewrite <- Rinv_1. apply Rinv_lt_contravar; lra. }
  rewrite Dc, Dr. set (al := angle_to (bs0 b) conv) in *. set (be := angle_to (bs0 b) ref) in *.
  assert (Step : forall K : R -> res R, (forall g, 1 < g ->
      (if Req_EM_T g 0 then Ok 1 else if Rleb (1 / g) 0 then Ok 0 else if Rleb 1 (1 / g) then Ok 1 else K g) = K g)).
  { intros K g Hg. destruct (Out g Hg) as (N & W & _). destruct (Req_EM_T g 0); [contradiction|].
    rewrite !(proj2 (Rleb_false _ _)) by lra. auto. }
  destruct (Rle_dec rad al) as [H|H].
  - left. rewrite (proj2 (Rleb_true rad al)) by auto.
    assert (E : forall g, 1 < g -> (if Req_EM_T g 0 then Ok 1 else if Rleb (1 / g) 0 then Ok 0 else if Rleb 1 (1 / g) then Ok 1 else Ok (1 / g)) = Ok (/ g)).
    { intros g Hg. rewrite (Step (fun g => Ok (1 / g))) by auto. destruct (Out g Hg) as (_ & _ & ->). auto. }
    split; [|split; [auto|intros _; exact E]].
    exists 1. split; [lra|]. intros g Hg. rewrite E by auto. rewrite Rpower_1; auto. apply Rinv_0_lt_compat. lra.
  - rewrite (proj2 (Rleb_false rad al)) by lra.
    assert (Ldist : length ac = length ar) by (rewrite (ad_len _ _ _ _ Ac), (ad_len _ _ _ _ Ar); auto).
    set (dist := norm (vsub ac ar)) in *. set (rf := Rmin (rad - be) (PI * / 2)).
    assert (D0 : 0 <= dist) by apply norm_nonneg.
    assert (DZ : dist = 0 <-> direction conv = direction ref).
    { unfold dist. rewrite (norm_vsub_0 ac ar Ldist). split.
      - intros <-. apply (angle_of_dir_inj n b _ _ ac Ac Ar).
      - intros E. rewrite (ad_def _ _ _ _ Ac), (ad_def _ _ _ _ Ar). f_equal. exact E. }
    assert (RF0 : rf <= 0 -> rad - be <= 0).
    { unfold rf, Rmin. pose proof PI_RGT_0. destruct (Rle_dec (rad - be) (PI * / 2)); lra. }
    assert (RFle : rad - be <= 0 -> rf = rad - be).
    { intros. unfold rf. rewrite Rmin_left; auto. pose proof PI_RGT_0. lra. }
    (* a positive limited ratio *)
    assert (Pos : forall lim, 0 < lim <= 1 -> exists q, 1 <= q /\ forall g, 1 < g ->
       (if Rleb lim 0 then Ok 0 else do c <- fpow lim power; do e <- fdiv 1 c; fpow (1 / g) e) = Ok (Rpower (/ g) q)).
    { intros lim Hl. pose proof (Rpower_pos lim power) as P0. pose proof (Rpower_le_1 lim power Hl Hp) as P1.
      exists (1 / Rpower lim power). split.
      - apply Rmult_le_reg_r with (Rpower lim power); auto. unfold Rdiv. rewrite Rmult_assoc, Rinv_l; lra.
      - intros g Hg. destruct (Out g Hg) as (N & W & Ew). rewrite (proj2 (Rleb_false lim 0)) by lra.
        rewrite fpow_pos by lra. cbn [bind]. unfold fdiv. destruct (Req_EM_T (Rpower lim power) 0); [lra|]. cbn [bind].
        rewrite fpow_pos by lra. rewrite Ew. auto. }
    destruct (Req_EM_T rf 0) as [Z|NZ].
    + assert (NE : dist <> 0).
      { intros E. apply DZ in E. assert (al = be) by (unfold al, be, angle_to; rewrite E; auto).
        assert (rad - be <= 0) by (apply RF0; lra). lra. }
      destruct (Req_EM_T dist 0); [contradiction|]. cbn [bind].
      left. destruct (Pos 1 ltac:(lra)) as (q & Hq & Eq). split; [|split; [|intros; lra]].
      * exists q. split; auto. intros g Hg. rewrite <- (Eq g Hg). cbv beta.
        destruct (Out g Hg) as (N & W & _). destruct (Req_EM_T g 0); [contradiction|].
        rewrite !(proj2 (Rleb_false _ _)) by lra. auto.
      * right. split; [|intros E; apply NE, DZ; auto].
        assert (rad - be <= 0) by (apply RF0; lra). rewrite RFle in Z by auto. lra.
    + destruct (Rle_dec (dist / rf) 0) as [L|L].
      * right. split; [|split; [lra|]].
        -- intros g Hg. rewrite (proj2 (Rleb_true (dist / rf) 0)) by auto. cbn [bind].
           rewrite (proj2 (Rleb_true 0 0)) by lra. destruct (Out g Hg) as (N & W & _). destruct (Req_EM_T g 0); [contradiction|].
           rewrite !(proj2 (Rleb_false _ _)) by lra. auto.
        -- destruct (Req_dec dist 0) as [E|E]; [left; apply DZ; auto|right].
           assert (rf < 0).
           { destruct (Rlt_le_dec 0 rf); [|lra]. assert (0 < dist / rf) by (apply Rdiv_lt_0_compat; lra). lra. }
           assert (rad - be <= 0) by (apply RF0; lra). rewrite RFle in H0 by auto. lra.
      * left. rewrite (proj2 (Rleb_false (dist / rf) 0)) by lra. cbn [bind].
        assert (Hl : 0 < Rmin (dist / rf) 1 <= 1).
        { split; [apply Rmin_glb_lt; lra|apply Rmin_r]. }
        destruct (Pos _ Hl) as (q & Hq & Eq). split; [|split; [|intros; lra]].
        -- exists q. split; auto. intros g Hg. rewrite <- (Eq g Hg).
           destruct (Out g Hg) as (N & W & _). destruct (Req_EM_T g 0); [contradiction|].
           rewrite !(proj2 (Rleb_false _ (_))) by lra. auto.
        -- right. split.
           ++ assert (0 < rf).
              { destruct (Rlt_le_dec 0 rf); auto. exfalso. apply L. assert (rf < 0) by lra.
                unfold Rdiv. assert (/ rf < 0) by (apply Rinv_lt_0_compat; auto). nra. }
              assert (rf <= rad - be) by apply Rmin_l. lra.
           ++ intros E. apply L. rewrite (proj2 DZ E). unfold Rdiv. lra.
Qed.

(** The weight of an obstacle: one in contact, decreasing with the distance, at most the inverse
    of gamma, exactly that when the convergence direction points away, zero only if the convergence direction is
    the reference direction (or the reference lies outside of the circle). *)
Theorem C70_continuation_weight : forall n rad power ref conv b, (2 <= n)%nat -> base_ok n b ->
  length ref = n -> length conv = n -> norm ref <> 0 -> norm conv <> 0 -> 0 <= power ->
  exists f, (forall g, 0 < g -> get_smooth_continuation_weight rad power g ref conv b = Ok (f g)) /\
  (forall g, 0 < g <= 1 -> f g = 1) /\
  (forall g, 1 < g -> 0 <= f g <= / g) /\
  (forall g h, 0 < g -> g <= h -> f h <= f g) /\
  (rad <= angle_to (bs0 b) conv -> forall g, 1 < g -> f g = / g) /\
  (angle_to (bs0 b) conv < rad -> forall g, 1 < g ->
     (f g = 0 <-> direction conv = direction ref \/ rad < angle_to (bs0 b) ref)) /\
  (* it is zero at all distances or close to one next to the surface *)
  ((forall g, 1 < g -> f g = 0) \/ exists q, 1 <= q /\ forall g, 1 < g -> 1 - q * (g - 1) <= f g).
Proof.
  intros n rad power ref conv b Hn B Lr Lc Nr Nc Hp.
  destruct (continuation_form n rad power ref conv b Hn B Lr Lc Nr Nc Hp) as (C1 & [((q & Hq & Eq) & Hc & Away) | (E0 & Hin & Hz)]).
  - exists (fun g => if Rle_dec g 1 then 1 else Rpower (/ g) q).
    assert (I : forall g, 1 < g -> 0 < / g < 1).
    { intros g Hg. split; [apply Rinv_0_lt_compat; lra|]. rewrite <- Rinv_1. apply Rinv_lt_contravar; lra. }
    split.
    { intros g Hg. destruct (Rle_dec g 1); [apply C1; lra|apply Eq; lra]. }
    split.
    { intros g Hg. destruct (Rle_dec g 1); [auto|lra]. }
    split.
    { intros g Hg. destruct (Rle_dec g 1); [lra|]. pose proof (Rpower_pos (/ g) q). pose proof (I g Hg).
      split; [lra|]. apply Rpower_le_base; lra. }
    split.
    { intros g h Hg Hgh. destruct (Rle_dec h 1), (Rle_dec g 1); try lra.
      - apply Rpower_le_1; [|lra]. pose proof (I h ltac:(lra)). lra.
      - apply Rpower_base_mono; [apply I; lra| |lra]. apply Rinv_le_contravar; lra. }
    split.
    { intros H g Hg. destruct (Rle_dec g 1); [lra|]. pose proof (Eq g Hg) as E. rewrite (Away H g Hg) in E.
      injection E as E. auto. }
    split.
    { intros H g Hg. destruct (Rle_dec g 1); [lra|]. pose proof (Rpower_pos (/ g) q). split; [lra|].
      intros Z. exfalso. destruct Hc as [Hc|[Hc1 Hc2]]; [lra|]. destruct Z as [Z|Z]; [auto|lra]. }
    right. exists q. split; auto. intros g Hg. destruct (Rle_dec g 1); [lra|].
    unfold Rpower. rewrite ln_Rinv by lra. pose proof (exp_ineq1_le (q * - ln g)) as E1.
    pose proof (exp_ineq1_le (ln g)) as E2. rewrite exp_ln in E2 by lra. nra.
  - exists (fun g => if Rle_dec g 1 then 1 else 0). split.
    { intros g Hg. destruct (Rle_dec g 1); [apply C1; lra|apply E0; lra]. }
    split; [intros g Hg; destruct (Rle_dec g 1); [auto|lra]|].
    split.
    { intros g Hg. destruct (Rle_dec g 1); [lra|]. assert (0 < / g) by (apply Rinv_0_lt_compat; lra). lra. }
    split; [intros g h Hg Hgh; destruct (Rle_dec h 1), (Rle_dec g 1); lra|].
    split; [intros; lra|]. split; [intros _ g Hg; destruct (Rle_dec g 1); [lra|]; tauto|].
    left. intros g Hg. destruct (Rle_dec g 1); lra.
Qed.

(** * C71 *)
(** A convergence direction which already points away is kept ... *)
Theorem C71_away_kept : forall n rad conv ref b, (2 <= n)%nat -> base_ok n b -> 0 <= rad <= PI ->
  length conv = n -> length ref = n -> norm conv <> 0 -> norm ref <> 0 ->
  rad <= angle_to (bs0 b) conv -> get_pseudo_tangent rad false conv ref b = Ok conv.
Proof.
  intros n rad conv ref b Hn B Hr Lc Lr Nc Nr H.
  destruct (pseudo_tangent_ok n rad false conv ref b Hn B Hr Lc Lr Nc Nr) as [K _]. auto.
Qed.
(** ... every other one is turned, on the ray (in angle space) from the reference direction
    through it, until it has the angle [rad] to the inward direction. *)
Theorem C71_tangent : forall n rad tail conv ref b, (2 <= n)%nat -> base_ok n b -> 0 <= rad <= PI ->
  length conv = n -> length ref = n -> norm conv <> 0 -> norm ref <> 0 ->
  angle_to (bs0 b) conv < rad ->
  exists t, get_pseudo_tangent rad tail conv ref b = Ok t /\ length t = n /\ unitv t /\
    angle_to (bs0 b) t = rad /\
    (direction conv <> direction ref -> dot (bs0 b) (direction ref) <> -1 ->
     exists s a, 0 <= s /\ t = exp_map (bs0 b) a /\ norm a = rad /\
       a = vadd (log_map (bs0 b) (direction conv))
                (vscale s (vsub (log_map (bs0 b) (direction conv)) (log_map (bs0 b) (direction ref))))) /\
    (direction conv = direction ref -> t = exp_map (bs0 b) (vscale rad (bs1 b))).
Proof.
  intros n rad tail conv ref b Hn B Hr Lc Lr Nc Nr H.
  destruct (angle_in_ok n b conv Hn B Lc Nc) as (ac & Ec & Ac). destruct (angle_in_ok n b ref Hn B Lr Nr) as (ar & Er & Ar).
  unfold get_pseudo_tangent. rewrite Ec, Er. cbn [bind]. rewrite (ad_norm _ _ _ _ Ac).
  change (acos (dot (bs0 b) (dirof conv))) with (angle_to (bs0 b) conv).
  rewrite (proj2 (Rleb_false _ _)) by auto. cbn [andb].
  assert (Na0 : norm ac <= rad) by (rewrite (ad_norm _ _ _ _ Ac); unfold angle_to in H; change direction with dirof in H; lra).
  destruct (tangent_direction_ok n b _ _ ac ar rad B Hr Ac Ar (or_introl Na0)) as (a & -> & La & Oa & Na & K1 & K2).
  cbn [bind]. eexists. split; [reflexivity|].
  destruct (vector_from_angle_ok n b a B La Oa) as (A1 & A2 & A3). split; auto. split; auto. split.
  { unfold angle_to. change direction with dirof. rewrite dirof_of_unit by auto. rewrite A3, Na. apply acos_cos. auto. }
  split.
  - intros NE NA. destruct (K1 Na0 NE) as (s & Hs & -> & _).
    assert (N1 : dot (bs0 b) (dirof conv) <> -1).
    { intros E. unfold angle_to in H. change direction with dirof in H. rewrite E in H.
      replace (acos (-1)) with PI in H by (replace (-1) with (-(1)) by ring; rewrite acos_opp, acos_1; ring). lra. }
    exists s, (vadd ac (vscale s (vsub ac ar))). split; auto. split; [reflexivity|]. split; auto.
    change direction with dirof in *. rewrite <- (ad_log _ _ _ _ Ac N1), <- (ad_log _ _ _ _ Ar NA). auto.
  - intros E. rewrite (K2 E). reflexivity.
Qed.
(** For radiuses of at least a right angle the pseudo tangent never points inwards. *)
Theorem C71_not_inward : forall n rad conv ref b, (2 <= n)%nat -> base_ok n b -> PI / 2 <= rad <= PI ->
  length conv = n -> length ref = n -> norm conv <> 0 -> norm ref <> 0 ->
  exists t, get_pseudo_tangent rad false conv ref b = Ok t /\ length t = n /\ norm t <> 0 /\ dot t (bs0 b) <= 0.
Proof.
  intros n rad conv ref b Hn B Hr Lc Lr Nc Nr. pose proof PI_RGT_0 as HP.
  assert (Cr : cos rad <= 0).
  { rewrite <- cos_PI2. destruct (Req_dec rad (PI / 2)) as [->|]; [lra|]. left. apply cos_decreasing_1; lra. }
  destruct (pseudo_tangent_ok n rad false conv ref b Hn B ltac:(lra) Lc Lr Nc Nr) as [K1 K2].
  destruct (Rle_dec rad (acos (dot (bs0 b) (dirof conv)))) as [H|H].
  - exists conv. split; auto. split; auto. split; auto.
    pose proof B as (_ & _ & U0 & _). pose proof (dirof_unit conv Nc) as Uc.
    pose proof (unit_dot_bounds _ _ U0 Uc) as Bd.
    assert (Q : dot (bs0 b) (dirof conv) <= 0).
    { rewrite <- (cos_acos (dot (bs0 b) (dirof conv))) by auto. pose proof (acos_bound (dot (bs0 b) (dirof conv))).
      apply Rle_trans with (cos rad); auto.
      destruct (Req_dec rad (acos (dot (bs0 b) (dirof conv)))) as [<-|]; [lra|]. left. apply cos_decreasing_1; lra. }
    unfold dirof, vdiv in Q. rewrite dot_vscale_r in Q. rewrite dot_comm.
    pose proof (norm_nonneg conv). assert (0 < / norm conv) by (apply Rinv_0_lt_compat; lra). nra.
  - destruct K2 as (t & Et & Lt & Ut & Dt); [left; lra|]. exists t. split; auto. split; auto.
    split; [apply unit_norm_neq; auto|]. rewrite dot_comm, Dt. auto.
Qed.
(** With tail rotation the direction is also pulled back from behind, as long as the reference
    direction lies inside of the circle. *)
Theorem C71_tail_rotation : forall n rad conv ref b, (2 <= n)%nat -> base_ok n b -> 0 <= rad <= PI ->
  length conv = n -> length ref = n -> norm conv <> 0 -> norm ref <> 0 ->
  angle_to (bs0 b) ref < rad ->
  exists t, get_pseudo_tangent rad true conv ref b = Ok t /\ length t = n /\ unitv t /\ angle_to (bs0 b) t = rad.
Proof.
  intros n rad conv ref b Hn B Hr Lc Lr Nc Nr H.
  destruct (pseudo_tangent_ok n rad true conv ref b Hn B Hr Lc Lr Nc Nr) as [_ K].
  destruct K as (t & Et & Lt & Ut & Dt); [right; auto|]. exists t. split; auto. split; auto. split; auto.
  unfold angle_to. change direction with dirof. rewrite dirof_of_unit by auto. rewrite Dt. apply acos_cos. auto.
Qed.

(** A wall below: inward direction [0; -1]. *)
Definition wall_base : dbase := mkBase [0; -1] [1; 0].
Lemma wall_base_ok : base_ok 2 wall_base.
Proof. repeat split; auto; unfold unitv, dot; simpl; ring. Qed.
Lemma acos_pos_lt x : 0 < x <= 1 -> acos x < PI / 2.
Proof. intros H. pose proof PI_RGT_0. apply acos_lt_of_cos; try lra. rewrite cos_PI2. lra. Qed.
Lemma norm_345 : norm [3/5; 4/5] = 1 /\ norm [4/5; -3/5] = 1 /\ norm [0; -1] = 1 /\ norm [0; 1] = 1 /\ norm [1; 0] = 1.
Proof. repeat split; apply unit_norm; unfold unitv, dot; simpl; field. Qed.
Example C70_case : get_smooth_continuation_weight (PI / 2) 1 4 [0; -1] [3/5; 4/5] wall_base = Ok (/ 4) /\
  get_smooth_continuation_weight (PI / 2) 1 4 [0; -1] [0; -1] wall_base = Ok 0 /\
  get_smooth_continuation_weight (PI / 2) 1 (1/2) [0; -1] [0; -1] wall_base = Ok 1 /\
  exists w, get_smooth_continuation_weight (PI / 2) 1 4 [0; -1] [4/5; -3/5] wall_base = Ok w /\ 0 < w <= / 4.
Proof.
  destruct norm_345 as (N1 & N2 & N3 & _). pose proof PI_RGT_0 as HP.
  assert (D : forall v, norm v = 1 -> direction v = v) by (intros v N; apply (dirof_of_unit v); apply unit_norm; auto).
  assert (A : forall v, norm v = 1 -> angle_to [0; -1] v = acos (dot [0; -1] v)) by (intros v N; unfold angle_to; rewrite D; auto).
  assert (P : forall v, norm v = 1 -> length v = 2%nat -> exists f, (forall g, 0 < g ->
     get_smooth_continuation_weight (PI / 2) 1 g [0; -1] v wall_base = Ok (f g)) /\ (forall g, 0 < g <= 1 -> f g = 1) /\
     (PI / 2 <= acos (dot [0; -1] v) -> f 4 = / 4) /\ (acos (dot [0; -1] v) < PI / 2 -> f 4 = 0 <-> v = [0; -1]) /\ 0 <= f 4 <= / 4).
  { intros v N L. destruct (C70_continuation_weight 2 (PI / 2) 1 [0; -1] v wall_base ltac:(lia) wall_base_ok eq_refl L ltac:(lra) ltac:(lra) ltac:(lra))
      as (f & F0 & F1 & F2 & _ & F3 & F4 & _). exists f. split; auto. split; auto. change (bs0 wall_base) with [0; -1] in *.
    rewrite A in F3, F4 by auto. split; [intros; apply F3; auto; lra|]. split; [|apply F2; lra].
    intros H. rewrite (F4 H) by lra. rewrite (D v N), (D [0; -1] N3), A by auto.
    replace (dot [0; -1] [0; -1]) with 1 by (unfold dot; simpl; ring). rewrite acos_1. split; [intros [?|?]; [auto|lra]|auto]. }
  destruct (P [3/5; 4/5] N1 eq_refl) as (f & F0 & _ & F1 & _).
  destruct (P [0; -1] N3 eq_refl) as (g & G0 & G1 & _ & G2 & _).
  destruct (P [4/5; -3/5] N2 eq_refl) as (h & H0 & _ & _ & H2 & H3).
  rewrite F0, G0, G0, H0 by lra. split; [|split; [|split]].
  - rewrite F1; auto. replace (dot [0; -1] [3/5; 4/5]) with (-(4/5)) by (unfold dot; simpl; field).
    rewrite acos_opp. pose proof (acos_pos_lt (4/5) ltac:(lra)) as K. lra.
  - f_equal. apply G2; auto. replace (dot [0; -1] [0; -1]) with 1 by (unfold dot; simpl; ring). rewrite acos_1. lra.
  - rewrite G1 by lra. auto.
  - exists (h 4). split; auto. split; [|lra]. destruct H3 as [[H3|H3] _]; auto. exfalso. symmetry in H3. apply H2 in H3.
    + injection H3 as E1 E2. lra.
    + replace (dot [0; -1] [4/5; -3/5]) with (3/5) by (unfold dot; simpl; field).
      pose proof (acos_pos_lt (3/5) ltac:(lra)) as K. auto.
Qed.
Example C71_case : get_pseudo_tangent (PI / 2) false [3/5; 4/5] [0; -1] wall_base = Ok [3/5; 4/5] /\
  exists t, get_pseudo_tangent (PI / 2) false [4/5; -3/5] [0; -1] wall_base = Ok t /\ unitv t /\ dot t [0; -1] = 0.
Proof.
  destruct norm_345 as (N1 & N2 & N3 & _). pose proof PI_RGT_0 as HP.
  assert (D : forall v, norm v = 1 -> direction v = v) by (intros v N; apply (dirof_of_unit v); apply unit_norm; auto).
  split.
  - apply (C71_away_kept 2); auto; try lra; try apply wall_base_ok.
    unfold angle_to. rewrite D by auto. change (bs0 wall_base) with [0; -1].
    replace (dot [0; -1] [3/5; 4/5]) with (-(4/5)) by (unfold dot; simpl; field).
    rewrite acos_opp. pose proof (acos_pos_lt (4/5) ltac:(lra)) as K. lra.
  - destruct (C71_tangent 2 (PI / 2) false [4/5; -3/5] [0; -1] wall_base) as (t & E & L & U & At & _); auto; try lra; try apply wall_base_ok.
    + unfold angle_to. rewrite D by auto. change (bs0 wall_base) with [0; -1].
      replace (dot [0; -1] [4/5; -3/5]) with (3/5) by (unfold dot; simpl; field).
      pose proof (acos_pos_lt (3/5) ltac:(lra)) as K. auto.
    + exists t. split; auto. split; auto. unfold angle_to in At. change direction with dirof in At. rewrite dirof_of_unit in At by auto.
      rewrite dot_comm. change [0; -1] with (bs0 wall_base). pose proof (unit_dot_bounds (bs0 wall_base) t ltac:(apply wall_base_ok) U).
      rewrite <- (cos_acos (dot (bs0 wall_base) t)) by auto. rewrite At. apply cos_PI2.
Qed.
Print Assumptions C70_continuation_weight.
Print Assumptions C71_away_kept.
Print Assumptions C71_tangent.
Print Assumptions C71_not_inward.
Print Assumptions C71_tail_rotation.
