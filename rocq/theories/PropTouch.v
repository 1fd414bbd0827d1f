(** Property C178: the robot does not move into the ball it touches. *)
Require Import Reals List Bool Lra Lia ZArith Classical_Prop.
From Verif Require Import Base Vec Angle Pow RotModel Spec RotProofs SeqProofs TreeModel TreeSpec
  TreeProofs TreeWeights TreeReduce TreeGeom TreeCases TreeIndep PropRotation PropTree WeightModel WeightProofs PropWeights
  AvoidModel PropAvoid ProjModel PropProject TangentProofs PropTangent PropContact ContProofs PropContinuity PropEmbed PropJoint PropOrder PropLimits PropSteady PropFade PropPace PropDying PropMixed PropFlow PropBalls.
From Verif Require RotAvoidProofs.
Import ListNotations.
Open Scope R_scope.

Lemma step_away n (p c m : vec) dt : length p = n -> length c = n -> length m = n -> 0 <= dt -> 0 <= dot m (vsub p c) ->
  norm (vsub p c) <= norm (vsub (vadd p (vscale dt m)) c).
Proof.
  intros Lp Lc Lm Hd Hm. replace (vsub (vadd p (vscale dt m)) c) with (vadd (vsub p c) (vscale dt m)) by (vext; ring).
  apply Rsqr_incr_0; try apply norm_nonneg. unfold Rsqr. rewrite !norm_sq.
  rewrite dot_vadd_l, !dot_vadd_r, !dot_vscale_l, !dot_vscale_r. rewrite (dot_comm (vsub p c) m). pose proof (dot_self_nonneg m). nra.
Qed.
Theorem C178_touched_partial : forall orth0 angle_of pick sort power n dim magnitude s conv_of conv position env rel base balls c r,
  (2 <= n)%nat -> (forall v, length (orth0 v) = length v) -> (forall t x, rooted_tree n t x -> level_sorted t (sort t)) -> 0 <= power -> picks n pick ->
  in_front n balls position base -> apart n balls position base ->
  0 <= magnitude -> conv_of s = Ok conv -> get_end_vector conv = Ok base -> compute_multiobstacle_relative_velocity position env = Ok rel ->
  In (c, r) balls -> position <> c -> norm (vsub position c) <= r ->
  exists v m, evaluate_sequence orth0 angle_of (get_projected_tangent pick) sort power (PI * / 2) None
      dim magnitude (Some s) conv_of position env (map (ball_tree n) balls) = Ok v /\ v = vadd m rel /\ length m = n /\
    0 <= dot m (vsub position c) /\ norm m <= magnitude /\
    forall dt, 0 <= dt -> norm (vsub position c) <= norm (vsub (vadd position (vscale dt m)) c).
Proof.
  intros orth0 angle_of pick sort power n dim magnitude s conv_of conv position env rel base balls c r Hn Ho Hs Hp Hk F AP Hm EC EB ER I NC HC. pose proof PI_RGT_0 as HP.
  pose proof (balls_scene orth0 angle_of pick sort power (PI * / 2) n position base balls Hn Ho Hs Hp Hk ltac:(lra) F (C177_tame n pick position base balls Hn Hk F AP)) as SC.
  destruct (proj2 (if_balls _ _ _ _ F) c r I) as [Lc Pr]. pose proof (if_position _ _ _ _ F) as Lp.
  destruct (outward_facts n c position ltac:(lia) Lc) as [Lo Uo].
  destruct (In_nth_error _ _ I) as (k & Ek). assert (Hk' : (k < length balls)%nat) by (apply nth_error_Some; rewrite Ek; discriminate).
  assert (NK : forall k c' r', nth_error balls k = Some (c', r') -> nth k balls ([], 0) = (c', r')) by (intros; apply nth_error_nth; auto).
  destruct (C61_no_penetration orth0 angle_of pick sort power (PI * / 2) None n dim magnitude s conv_of conv position env rel base (map (ball_tree n) balls) k (ball_tree n (c, r)) 0 (ball n c r)
    (vadd c (vscale r (direction (vscale (-1) (vscale (-1) (outward n c position))))))) as (v & m & E & Ev & Dm & Nm & Lm); auto.
  - rewrite nth_error_map, Ek. reflexivity.
  - simpl. apply Rmult_le_reg_r with r; auto. replace (norm (vsub position c) / r * r) with (norm (vsub position c)) by (field; lra). lra.
  - intros k' t' i' c' Et Ec' G. rewrite nth_error_map in Et. destruct (nth_error balls k') as [(c2, r2)|] eqn:E2; [|discriminate]. injection Et as <-.
    assert (i' = 0%nat) by (destruct i' as [|[|i']]; [auto|discriminate|discriminate]). subst i'. split; [|auto]. injection Ec' as <-.
    assert (Hk2 : (k' < length balls)%nat) by (apply nth_error_Some; rewrite E2; discriminate).
    destruct (proj2 (if_balls _ _ _ _ F) c2 r2 (nth_error_In _ _ E2)) as [L2 P2].
    apply (if_contact _ _ _ _ F k' k ([], 0) Hk2 Hk'); rewrite (NK _ _ _ E2) || rewrite (NK _ _ _ Ek); cbn [fst snd]; auto.
    simpl in G. apply Rmult_le_reg_r with (/ r2); [apply Rinv_0_lt_compat; auto|]. replace (r2 * / r2) with 1 by (field; lra). exact G.
  - cbn [b_comp ball c_center]. rewrite length_vadd, length_vscale. unfold direction. rewrite !length_vscale. lia.
  - cbn [b_comp ball c_normal c_refdir]. rewrite outward_surface by (auto; lia). rewrite dot_vscale_l, Uo. lra.
  - cbn [b_comp ball c_normal] in Dm. rewrite outward_surface in Dm by (auto; lia).
    assert (Z : norm (vsub position c) <> 0) by (rewrite RotAvoidProofs.norm_vsub_0 by lia; auto). pose proof (norm_pos _ Z) as Pz.
    assert (D : 0 <= dot m (vsub position c)).
    { unfold outward in Dm. rewrite Lp, Nat.eqb_refl in Dm. destruct (Req_EM_T (norm (vsub position c)) 0); [contradiction|]. unfold direction in Dm. rewrite dot_vscale_r in Dm.
      apply Rmult_le_reg_l with (/ norm (vsub position c)); [apply Rinv_0_lt_compat; auto|]. rewrite Rmult_0_r. exact Dm. }
    exists v, m. do 5 (split; [auto|]). intros dt Hd. apply (step_away n); auto.
Qed.
(** ** Runs *)
Lemma no_motion p : compute_multiobstacle_relative_velocity p [] = Ok (vzero (length p)).
Proof. unfold compute_multiobstacle_relative_velocity, compute_gamma_weights. simpl. destruct (Rle_dec 0 1); reflexivity. Qed.
(** Balls without common points. *)
Definition disjoint (n : nat) (balls : list (vec * R)) : Prop :=
  balls <> [] /\ (forall c r, In (c, r) balls -> length c = n /\ 0 < r) /\
  forall i j d, (i < length balls)%nat -> (j < length balls)%nat -> i <> j ->
    snd (nth i balls d) + snd (nth j balls d) < norm (vsub (fst (nth i balls d)) (fst (nth j balls d))).
Lemma disjoint_front n balls p base : disjoint n balls -> length p = n -> length base = n -> unitv base -> in_front n balls p base.
Proof.
  intros (NE & HB & D) Lp Lb Ub. constructor; auto. intros i j d Hi Hj Ci Cj. destruct (Nat.eq_dec i j) as [|N]; auto. exfalso. specialize (D i j d Hi Hj N).
  assert (Li : length (fst (nth i balls d)) = n) by (destruct (nth i balls d) as (c, r) eqn:E; apply (HB c r); rewrite <- E; apply nth_In; auto).
  assert (Lj : length (fst (nth j balls d)) = n) by (destruct (nth j balls d) as (c, r) eqn:E; apply (HB c r); rewrite <- E; apply nth_In; auto).
  pose proof (norm_triangle (vsub (fst (nth i balls d)) p) (vsub p (fst (nth j balls d)))) as T.
  replace (vadd (vsub (fst (nth i balls d)) p) (vsub p (fst (nth j balls d)))) with (vsub (fst (nth i balls d)) (fst (nth j balls d))) in T by (vext; ring).
  rewrite (norm_vsub_swap (fst (nth i balls d)) p) in T. lra.
Qed.
(** A simulated run: position, initial velocity, and the command followed for the time [dt]. *)
Record run (orth0 : vec -> vec) (angle_of : vec -> vec -> vec) (pick : vec -> vec) (sort : tree -> list nid) (power : R) (n : nat) (balls : list (vec * R))
    (dt speed : R) (position base : nat -> vec) : Prop := {
  ru_position : forall k, length (position k) = n;
  ru_base : forall k, length (base k) = n /\ unitv (base k) /\ apart n balls (position k) (base k);
  ru_step : forall k, exists magnitude s conv_of conv v, 0 <= magnitude <= speed /\ conv_of s = Ok conv /\ get_end_vector conv = Ok (base k) /\
    evaluate_sequence orth0 angle_of (get_projected_tangent pick) sort power (PI * / 2) None n magnitude (Some s) conv_of (position k) [] (map (ball_tree n) balls) = Ok v /\
    position (S k) = vadd (position k) (vscale dt v) }.
Theorem C178_run_partial : forall orth0 angle_of pick sort power n balls dt speed position base,
  (2 <= n)%nat -> (forall v, length (orth0 v) = length v) -> (forall t x, rooted_tree n t x -> level_sorted t (sort t)) -> 0 <= power -> picks n pick ->
  disjoint n balls -> 0 <= dt -> run orth0 angle_of pick sort power n balls dt speed position base ->
  (* no step is as long as a radius *)
  (forall c r, In (c, r) balls -> dt * Rmax 1 speed < r) ->
  (forall c r, In (c, r) balls -> r <= norm (vsub (position 0%nat) c)) ->
  forall k c r, In (c, r) balls -> r - dt * Rmax 1 speed <= norm (vsub (position k) c).
Proof.
  intros orth0 angle_of pick sort power n balls dt speed position base Hn Ho Hs Hp Hk DB Hd RU HL H0. pose proof PI_RGT_0 as HP. pose proof (Rmax_l 1 speed) as M1. pose proof (Rmax_r 1 speed) as M2.
  pose proof (Rmult_le_pos dt (Rmax 1 speed) Hd ltac:(lra)) as PM.
  induction k as [|k IH]; intros c r I; [specialize (H0 c r I); lra|].
  destruct (ru_base _ _ _ _ _ _ _ _ _ _ _ RU k) as (Lb & Ub & AP). pose proof (ru_position _ _ _ _ _ _ _ _ _ _ _ RU k) as Lp.
  destruct (ru_step _ _ _ _ _ _ _ _ _ _ _ RU k) as (magnitude & s & conv_of & conv & v & Hm & EC & EB & E & EP).
  pose proof (ru_position _ _ _ _ _ _ _ _ _ _ _ RU (S k)) as Ls. rewrite EP in *. autorewrite with vlen in Ls.
  pose proof (disjoint_front n balls (position k) (base k) DB Lp Lb Ub) as F. pose proof (no_motion (position k)) as ER. rewrite Lp in ER.
  destruct (proj1 (proj2 DB) c r I) as [Lc Pr]. specialize (IH c r I). specialize (HL c r I).
  assert (NC : position k <> c).
  { intros Q. apply (RotAvoidProofs.norm_vsub_0 (position k) c) in Q; [|lia]. lra. }
  destruct (Rle_lt_dec (norm (vsub (position k) c)) r) as [IN|OUT].
  - destruct (C178_touched_partial orth0 angle_of pick sort power n n magnitude s conv_of conv (position k) [] (vzero n) (base k) balls c r) as (v' & m & E' & Ev & Lm & _ & _ & ST); auto; [lra|].
    rewrite E in E'. injection E' as <-. replace v with m by (rewrite Ev; vext; ring). specialize (ST dt Hd). lra.
  - pose proof (balls_scene orth0 angle_of pick sort power (PI * / 2) n (position k) (base k) balls Hn Ho Hs Hp Hk ltac:(lra) F (C177_tame n pick (position k) (base k) balls Hn Hk F AP)) as SC.
    destruct (C32_speed_bound_partial orth0 angle_of pick sort power (PI * / 2) None n n magnitude s conv_of conv (position k) [] (vzero n) (base k) (map (ball_tree n) balls)) as (v' & m & cw & E' & Ev & _ & B1 & B2); auto; [lra|].
    rewrite E in E'. injection E' as <-.
    assert (Nm : norm m <= Rmax 1 speed).
    { destruct cw as [|w cw]; [rewrite B2 by auto; lra|]. specialize (B1 ltac:(discriminate)). lra. }
    assert (Nv : norm v <= Rmax 1 speed).
    { rewrite Ev. pose proof (norm_triangle m (vzero n)) as T. rewrite norm_vzero in T. lra. }
    pose proof (norm_triangle (vsub (vadd (position k) (vscale dt v)) c) (vscale (- dt) v)) as T.
    rewrite norm_vscale, Rabs_Ropp, Rabs_pos_eq in T by auto.
    replace (vadd (vsub (vadd (position k) (vscale dt v)) c) (vscale (- dt) v)) with (vsub (position k) c) in T.
    2:{ vext. ring. }
    assert (dt * norm v <= dt * Rmax 1 speed) by (apply Rmult_le_compat_l; auto). lra.
Qed.

(** ** A robot which always heads into a disc *)
Lemma command_length orth0 pick sort power radius n position base trees s conv_of conv magnitude env rel v :
  scene orth0 (angle_space pick) pick sort power radius None n position base trees -> conv_of s = Ok conv -> get_end_vector conv = Ok base ->
  compute_multiobstacle_relative_velocity position env = Ok rel -> length rel = n ->
  evaluate_sequence orth0 (angle_space pick) (get_projected_tangent pick) sort power radius None n magnitude (Some s) conv_of position env trees = Ok v -> length v = n.
Proof.
  intros SC Ec Eb Er Lr E. destruct (evaluate_avoidance_ok _ _ _ _ _ _ _ _ _ _ _ _ SC Eb) as (tt & data & f & ns & w & u & _ & Ea & _ & _ & _ & _ & _ & _ & _ & _ & Ef & _ & Lu & _).
  unfold evaluate_sequence in E. destruct trees as [|t ts]; [destruct (sc_trees _ _ _ _ _ _ _ _ _ _ _ SC); auto|].
  rewrite Er in E. cbn [bind] in E. rewrite Ec in E. cbn [bind] in E. rewrite Ea in E. cbn [bind] in E. rewrite Ef in E. cbn [bind] in E.
  apply scaled_length in E. rewrite E. lia.
Qed.
Definition inward (p : vec) : vec := let o := outward 2 [0; 0] p in [- (3 / 5) * nth 0 o 0 - 4 / 5 * nth 1 o 0; - (3 / 5) * nth 1 o 0 + 4 / 5 * nth 0 o 0].
Lemma inward_facts p : length (inward p) = 2%nat /\ unitv (inward p) /\ forall b, In b [([0; 0], 1)] -> length p = 2%nat -> apart 2 [b] p (inward p).
Proof.
  unfold inward, apart. destruct (outward_facts 2 [0; 0] p ltac:(lia) eq_refl) as [L U].
  destruct (outward 2 [0; 0] p) as [|x [|y [|]]] eqn:O; simpl in L; try lia. cbn [nth]. unfold unitv, dot in U. simpl in U.
  assert (U2 : x * x = 1 - y * y) by lra.
  split; [reflexivity|]. split; [unfold unitv, dot; simpl; nra|]. intros b [<-|[]] Lp c r [I|[]] _. injection I as <- <-. rewrite O.
  set (u := - (3 / 5) * x - 4 / 5 * y). set (w := - (3 / 5) * y + 4 / 5 * x). split.
  - intros Q. unfold vscale in Q. simpl in Q. injection Q as Q1 Q2. unfold u, w in *. assert (x = 2 * y) by lra. assert (y = - 2 * x) by lra. nra.
  - assert (S0 : sliding [x; y] [u; w] = [- y; x]).
    { unfold sliding. replace (dot [x; y] [u; w]) with (- (3 / 5)) by (unfold dot, u, w; simpl; nra).
      replace (vsub [u; w] (vscale (- (3 / 5)) [x; y])) with (vscale (4 / 5) [- y; x]) by (unfold vsub, vscale, u, w; simpl; f_equal; [ring|f_equal; ring]).
      unfold direction. rewrite norm_vscale, Rabs_pos_eq by lra. assert (N : norm [- y; x] = 1) by (apply unit_norm; unfold unitv, dot; simpl; lra). rewrite N.
      unfold vscale. simpl. f_equal; [field|f_equal; field]. }
    rewrite S0. destruct (allclose [u; w] [- y; x]) eqn:A; auto. exfalso. simpl in A. apply andb_prop in A as [A B]. apply andb_prop in B as [B _].
    unfold isclose in A, B. apply Rleb_true in A, B.
    assert (Bx : Rabs x <= 1) by (apply Rabs_le; nra). assert (By : Rabs (- y) <= 1) by (apply Rabs_le; nra).
    assert (T : / 10 ^ 8 + / 10 ^ 5 * 1 < 1 / 10) by lra.
    assert (A' : Rabs (u - - y) <= 1 / 10) by lra. assert (B' : Rabs (w - x) <= 1 / 10) by lra. clear A B.
    assert (AB : forall t, Rabs t <= 1 / 10 -> t * t <= 1 / 100).
    { intros t Ht. rewrite <- (Rabs_pos_eq (t * t)), Rabs_mult by nra. pose proof (Rabs_pos t). nra. }
    apply AB in A'. apply AB in B'. unfold u, w in *. nra.
Qed.

(* the constant heading as a sequence, the command of the robot, and the simulated run *)
Definition heading (p : vec) : sequence := match create_from_vector_array [inward p; inward p] with Ok s => s | Err _ => create_empty end.
Definition disc_command (orth0 : vec -> vec) (p : vec) : vec :=
  match evaluate_sequence orth0 (angle_space left_of) (get_projected_tangent left_of) sort_by_level 1 (PI * / 2) None 2 1 (Some (heading p)) (fun s => Ok s) p [] [disc_tree]
  with Ok v => v | Err _ => vzero 2 end.
Fixpoint spiral (orth0 : vec -> vec) (k : nat) : vec :=
  match k with O => [2; 0] | S k => vadd (spiral orth0 k) (vscale (1 / 10) (disc_command orth0 (spiral orth0 k))) end.
Lemma one_disc : disjoint 2 [([0; 0], 1)].
Proof.
  split; [discriminate|]. split; [intros c r [I|[]]; injection I as <- <-; split; auto; lra|].
  intros i j d Hi Hj N. simpl in Hi, Hj. lia.
Qed.
Lemma disc_command_ok orth0 p : (forall v, length (orth0 v) = length v) -> length p = 2%nat ->
  get_end_vector (heading p) = Ok (inward p) /\ length (disc_command orth0 p) = 2%nat /\
  evaluate_sequence orth0 (angle_space left_of) (get_projected_tangent left_of) sort_by_level 1 (PI * / 2) None 2 1 (Some (heading p)) (fun s => Ok s) p [] [disc_tree] = Ok (disc_command orth0 p).
Proof.
  intros Ho Lp. pose proof PI_RGT_0 as HP. destruct (inward_facts p) as (Li & Ui & AP). specialize (AP _ (or_introl eq_refl) Lp).
  destruct (constant_sequence (inward p) Li Ui) as (s & E1 & E2). assert (EH : heading p = s) by (unfold heading; rewrite E1; auto). rewrite EH.
  assert (HS : forall t x, rooted_tree 2 t x -> level_sorted t (sort_by_level t)) by (intros t x W; eapply sort_by_level_sorted; eauto).
  pose proof (disjoint_front 2 _ p (inward p) one_disc Lp Li Ui) as F.
  pose proof (balls_scene orth0 (angle_space left_of) left_of sort_by_level 1 (PI * / 2) 2 p (inward p) _ ltac:(lia) Ho HS ltac:(lra) picks_2d ltac:(lra) F (C177_tame 2 left_of p (inward p) _ ltac:(lia) picks_2d F AP)) as SC.
  pose proof (no_motion p) as ER. rewrite Lp in ER.
  destruct (command_ok orth0 left_of sort_by_level 1 (PI * / 2) None 2 p (inward p) _ s (fun s => Ok s) s 1 [] (vzero 2) SC eq_refl E2 ER) as (v & E).
  pose proof (command_length orth0 left_of sort_by_level 1 (PI * / 2) 2 p (inward p) _ s (fun s => Ok s) s 1 [] (vzero 2) v SC eq_refl E2 ER eq_refl E) as L.
  change (map (ball_tree 2) [([0; 0], 1)]) with [disc_tree] in E. unfold disc_command. rewrite EH, E. auto.
Qed.
(* the robot heads into the disc at every step, at an angle of more than 120 degrees from the outward direction, for ever *)
Example C178_run_case : forall orth0, (forall v, length (orth0 v) = length v) ->
  forall k, dot (inward (spiral orth0 k)) (outward 2 [0; 0] (spiral orth0 k)) = - (3 / 5) /\ 9 / 10 <= norm (vsub (spiral orth0 k) [0; 0]).
Proof.
  intros orth0 Ho.
  assert (L : forall k, length (spiral orth0 k) = 2%nat).
  { induction k as [|k IH]; [reflexivity|]. simpl. rewrite length_vadd, length_vscale, IH. rewrite (proj1 (proj2 (disc_command_ok orth0 _ Ho IH))). reflexivity. }
  assert (HS : forall t x, rooted_tree 2 t x -> level_sorted t (sort_by_level t)) by (intros t x W; eapply sort_by_level_sorted; eauto).
  assert (M : Rmax 1 1 = 1) by (apply Rmax_left; lra).
  assert (RU : run orth0 (angle_space left_of) left_of sort_by_level 1 2 [([0; 0], 1)] (1 / 10) 1 (spiral orth0) (fun k => inward (spiral orth0 k))).
  { constructor; auto.
    - intros k. destruct (inward_facts (spiral orth0 k)) as (Li & Ui & AP). split; [auto|]. split; [auto|]. apply AP; [left; reflexivity|apply L].
    - intros k. destruct (disc_command_ok orth0 _ Ho (L k)) as (E1 & _ & E2).
      exists 1, (heading (spiral orth0 k)), (fun s => Ok s), (heading (spiral orth0 k)), (disc_command orth0 (spiral orth0 k)).
      split; [lra|]. split; [reflexivity|]. split; [exact E1|]. split; [exact E2|reflexivity]. }
  intros k. split.
  - destruct (outward_facts 2 [0; 0] (spiral orth0 k) ltac:(lia) eq_refl) as [Lo U]. unfold inward.
    destruct (outward 2 [0; 0] (spiral orth0 k)) as [|x [|y [|]]]; simpl in Lo; try lia. unfold unitv, dot in *. simpl in *. nra.
  - assert (H0 : norm (vsub (spiral orth0 0%nat) [0; 0]) = 2).
    { simpl. replace (vsub [2; 0] [0; 0]) with [2; 0] by (unfold vsub, vscale; simpl; f_equal; [ring|f_equal; ring]).
      unfold norm, dot. simpl. replace (2 * 2 + (0 * 0 + 0)) with (2 * 2) by ring. apply sqrt_square. lra. }
    pose proof (C178_run_partial orth0 (angle_space left_of) left_of sort_by_level 1 2 [([0; 0], 1)] (1 / 10) 1 (spiral orth0) _ ltac:(lia) Ho HS ltac:(lra) picks_2d one_disc ltac:(lra) RU) as G.
    rewrite M in G. specialize (G ltac:(intros c r [I|[]]; injection I as <- <-; lra) ltac:(intros c r [I|[]]; injection I as <- <-; rewrite H0; lra) k [0; 0] 1 (or_introl eq_refl)). lra.
Qed.
Example C178_touched_case : forall orth0, (forall v, length (orth0 v) = length v) ->
  exists s v m, create_from_vector_array [[-3 / 5; 4 / 5]; [-3 / 5; 4 / 5]] = Ok s /\
    evaluate_sequence orth0 (angle_space left_of) (get_projected_tangent left_of) sort_by_level 1 (PI * / 2) None 2 3 (Some s) (fun s => Ok s) [1; 0] []
      (map (ball_tree 2) [([0; 0], 1); ([1; 5], 2)]) = Ok v /\ v = vadd m (vzero 2) /\ length m = 2%nat /\ 0 <= dot m (vsub [1; 0] [0; 0]) /\ norm m <= 3.
Proof.
  intros orth0 Ho. assert (U : unitv [-3 / 5; 4 / 5]) by (unfold unitv, dot; simpl; lra). destruct (constant_sequence [-3 / 5; 4 / 5] eq_refl U) as (s & E1 & E2).
  assert (G2 : ~ norm (vsub [1; 0] [1; 5]) <= 2).
  { replace (vsub [1; 0] [1; 5]) with [0; -5] by (unfold vsub, vscale; simpl; f_equal; [ring|f_equal; ring]).
    unfold norm, dot. simpl. replace (0 * 0 + (-5 * -5 + 0)) with (5 * 5) by ring. rewrite sqrt_square by lra. lra. }
  assert (G1 : norm (vsub [1; 0] [0; 0]) = 1).
  { replace (vsub [1; 0] [0; 0]) with [1; 0] by (unfold vsub, vscale; simpl; f_equal; [ring|f_equal; ring]).
    unfold norm, dot. simpl. replace (1 * 1 + (0 * 0 + 0)) with (1 * 1) by ring. apply sqrt_square. lra. }
  destruct (C178_touched_partial orth0 (angle_space left_of) left_of sort_by_level 1 2 2 3 s (fun s => Ok s) s [1; 0] [] (vzero 2) [-3 / 5; 4 / 5] [([0; 0], 1); ([1; 5], 2)] [0; 0] 1)
    as (v & m & Ev & Em & Lm & Dm & Nm & _); auto; try lra; try lia.
  - intros t x W. eapply sort_by_level_sorted; eauto.
  - apply picks_2d.
  - constructor; auto.
    + split; [discriminate|]. intros c r [E|[E|[]]]; injection E as <- <-; split; auto; lra.
    + intros i j d Hi Hj. simpl in Hi, Hj.
      destruct i as [|[|i]], j as [|[|j]]; try lia; cbn [nth fst snd]; intros; try contradiction; auto.
  - intros c r I D. apply (apart_2 _ _ 1 c r); auto; lra.
  - apply (no_motion [1; 0]).
  - left. reflexivity.
  - intros Q. injection Q. lra.
  - exists s, v, m. auto 10.
Qed.
Print Assumptions C178_touched_partial.
Print Assumptions C178_run_partial.
