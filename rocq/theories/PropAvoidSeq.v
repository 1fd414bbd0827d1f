(** Property C75: averaging of sequences by the rotational avoider. *)
Require Import Reals List Bool Lra Lia ZArith.
From Verif Require Import Base Vec Angle Pow RotModel Spec RotProofs SeqProofs TreeModel TreeSpec TreeProofs TreeReduce TreeCases TangentProofs PropTree
  WeightModel WeightProofs AvoidModel PropAvoid ProjModel PropProject PropTangent PropContact PropFold ConvModel ConvProofs
  RotAvoidModel RotAvoidProofs PropSmooth SummingProofs PropOpposite PropAround PropConvSeq.
Import ListNotations.
Open Scope R_scope.

(** The direction into the obstacle (for a boundary: out of the free space). *)
Definition inward (o : aobs) : vec := if ao_boundary o then ao_normal o else vscale (-1) (ao_normal o).
(** Orthonormal normal and tangent; the reference direction lies on the inner side. *)
Definition faces (n : nat) (o : aobs) : Prop :=
  length (ao_normal o) = n /\ length (ao_second o) = n /\ length (ao_ref o) = n /\
  unitv (ao_normal o) /\ unitv (ao_second o) /\ dot (ao_normal o) (ao_second o) = 0 /\
  0 < dot (inward o) (into o).
(** The convergence direction lies in the surface or clearly leaves it. *)
Definition clear (conv : vec) (o : aobs) : Prop :=
  dot (inward o) conv = 0 \/ 1/1000 <= Rabs (dot (inward o) conv).

Lemma perp_far_abs d i t : unitv d -> unitv i -> unitv t -> dot d i = 0 -> 1/1000 <= Rabs (dot d t) -> dot i t <= 1 - / 10 ^ 7.
Proof.
  intros Ud Ui Ut O H. pose proof (bessel2 d i t Ud Ui Ut O) as B.
  destruct (Rle_dec (dot i t) (1 - / 10 ^ 7)); auto. exfalso.
  assert (/ 10 ^ 7 = 1 / 10000000) by lra.
  assert (1/1000 * (1/1000) <= dot d t * dot d t).
  { replace (dot d t * dot d t) with (Rabs (dot d t) * Rabs (dot d t)) by (rewrite <- Rabs_mult; apply Rabs_pos_eq; apply (Rle_0_sqr (dot d t))). pose proof (Rabs_pos (dot d t)). nra. }
  nra.
Qed.

Lemma dist_add n t t' r p x a b : rooted_tree n t r -> rooted_tree n t' r -> keeps t t' ->
  (forall u v, edge t' u v <-> edge t u v \/ (u = p /\ v = x)) -> node t p a -> node t' x b ->
  (a_dir a = a_dir b \/ allclose (a_dir a) (a_dir b) = false) -> distinguishable t -> distinguishable t'.
Proof.
  intros W W' K E Na Nb H D u v au bv Ee Nu Nv. apply E in Ee. destruct Ee as [Ee|[-> ->]].
  - destruct (edge_ids n t r W u v Ee) as [Iu Iv].
    destruct (wf_attrs n t r W u Iu) as (a0 & _ & N0 & _). destruct (wf_attrs n t r W v Iv) as (b0 & _ & N1 & _).
    rewrite (node_unique n t' r W' u au a0), (node_unique n t' r W' v bv b0); auto. apply (D u v); auto.
  - rewrite (node_unique n t' r W' p au a), (node_unique n t' r W' x bv b); auto.
Qed.

Section Loop.
Variables (n : nat) (rad power : R) (tail : bool).
Hypothesis Hn : (2 <= n <= 1000)%nat.
Hypothesis Hr : rad = PI / 2 \/ PI / 2 < rad < PI /\ cos rad <= -1/1000.
Hypothesis Hpw : 0 <= power.

Lemma rad_range : PI / 2 <= rad < PI.
Proof. pose proof PI_RGT_0. destruct Hr as [->|[? _]]; lra. Qed.

(** The tangent as neighbour of the convergence direction or of the intermediate direction. *)
Lemma turn_half conv ref b : rad = PI / 2 -> base_ok n b -> length conv = n -> length ref = n -> unitv conv -> norm ref <> 0 ->
  0 < dot (bs0 b) (dirof ref) ->
  exists tg, get_pseudo_tangent rad tail conv ref b = Ok tg /\ length tg = n /\ unitv tg /\
    dot (bs0 b) tg <= cos rad /\ dot conv tg <> -1 /\
    (dot (bs0 b) conv = 0 \/ 1/1000 <= Rabs (dot (bs0 b) conv) -> conv = tg \/ allclose conv tg = false).
Proof.
  intros Er B Lc Lr Uc Nr Hp. pose proof PI_RGT_0 as HP. pose proof B as (L0 & _ & U0 & _).
  assert (Dc : dirof conv = conv) by (apply dirof_of_unit; auto). pose proof (unit_norm_neq conv Uc) as Nc.
  assert (C0 : cos rad = 0) by (rewrite Er; apply cos_PI2).
  destruct (pseudo_tangent_ok n rad tail conv ref b ltac:(lia) B ltac:(lra) Lc Lr Nc Nr) as [K1 K2]. rewrite Dc in *.
  assert (SAME : forall tg, conv = tg -> dot (bs0 b) conv <= 0 -> get_pseudo_tangent rad tail conv ref b = Ok tg ->
    exists tg, get_pseudo_tangent rad tail conv ref b = Ok tg /\ length tg = n /\ unitv tg /\
    dot (bs0 b) tg <= cos rad /\ dot conv tg <> -1 /\
    (dot (bs0 b) conv = 0 \/ 1/1000 <= Rabs (dot (bs0 b) conv) -> conv = tg \/ allclose conv tg = false)).
  { intros tg <- H E. exists conv. repeat (split; auto); [lra|]. unfold unitv in Uc. lra. }
  assert (OTHER : dot (bs0 b) conv <> 0 -> (exists t, get_pseudo_tangent rad tail conv ref b = Ok t /\ length t = n /\ unitv t /\
     dot (bs0 b) t = cos rad) ->
    exists tg, get_pseudo_tangent rad tail conv ref b = Ok tg /\ length tg = n /\ unitv tg /\
    dot (bs0 b) tg <= cos rad /\ dot conv tg <> -1 /\
    (dot (bs0 b) conv = 0 \/ 1/1000 <= Rabs (dot (bs0 b) conv) -> conv = tg \/ allclose conv tg = false)).
  { intros NZ (t & Et & Lt & Ut & Dt). exists t. do 3 (split; auto). split; [lra|]. split.
    - rewrite dot_comm. apply (perp_not_opposite (bs0 b)); auto; congruence.
    - intros [Z|Z]; [contradiction|]. right. apply (far_not_close n); auto; [lia|].
      rewrite dot_comm. apply (perp_far_abs (bs0 b)); auto. congruence. }
  assert (In0 : acos (dot (bs0 b) conv) < rad <-> 0 < dot (bs0 b) conv).
  { rewrite <- C0. apply angle_lt; auto. lra. }
  assert (Ir : acos (dot (bs0 b) (dirof ref)) < rad).
  { apply angle_lt; auto; [apply dirof_unit; auto|lra|lra]. }
  destruct (Rlt_dec 0 (dot (bs0 b) conv)) as [H|H].
  - apply OTHER; [lra|]. apply K2. left. apply In0. auto.
  - assert (Ge : rad <= acos (dot (bs0 b) conv)).
    { destruct (Rle_dec rad (acos (dot (bs0 b) conv))); auto. exfalso. apply H. apply In0. lra. }
    destruct tail eqn:T.
    + destruct (Req_dec (dot (bs0 b) conv) 0) as [Z|NZ].
      * apply (SAME conv); auto; [lra|].
        destruct (intermediate_ok n conv ref b ltac:(lia) B Lc Lr Nc Nr Hp) as (i & Ei & _ & _ & _ & Ki).
        rewrite Dc in Ki. rewrite (Ki Z) in Ei. rewrite <- Ei. unfold get_pseudo_tangent, get_intermediate_convergence_direction.
        rewrite Er. change (PI / 2) with (PI * / 2). destruct (angle_in b conv); auto. cbn [bind]. rewrite andb_false_r. auto.
      * apply OTHER; auto.
    + apply (SAME conv); auto. lra.
Qed.
Lemma turn_wide conv ref b : PI / 2 < rad < PI -> cos rad <= -1/1000 ->
  base_ok n b -> length conv = n -> length ref = n -> unitv conv -> norm ref <> 0 ->
  0 < dot (bs0 b) (dirof ref) ->
  exists i tg, get_intermediate_convergence_direction conv ref b = Ok i /\ length i = n /\ unitv i /\ dot conv i <> -1 /\
    (dot (bs0 b) conv = 0 \/ 1/1000 <= Rabs (dot (bs0 b) conv) -> conv = i \/ allclose conv i = false) /\
    get_pseudo_tangent rad tail conv ref b = Ok tg /\ length tg = n /\ unitv tg /\
    dot (bs0 b) tg <= cos rad /\ dot i tg <> -1 /\ allclose i tg = false.
Proof.
  intros Hr1 Hc1 B Lc Lr Uc Nr Hp. pose proof PI_RGT_0 as HP. pose proof B as (L0 & _ & U0 & _).
  assert (Dc : dirof conv = conv) by (apply dirof_of_unit; auto). pose proof (unit_norm_neq conv Uc) as Nc.
  destruct (intermediate_ok n conv ref b ltac:(lia) B Lc Lr Nc Nr Hp) as (i & Ei & Li & Ui & Oi & Ki). rewrite Dc in Ki.
  assert (T : exists tg, get_pseudo_tangent rad tail conv ref b = Ok tg /\ length tg = n /\ unitv tg /\ dot (bs0 b) tg <= cos rad).
  { destruct (pseudo_tangent_ok n rad tail conv ref b ltac:(lia) B ltac:(lra) Lc Lr Nc Nr) as [K1 K2]. rewrite Dc in *.
    assert (Ir : acos (dot (bs0 b) (dirof ref)) < rad).
    { apply angle_lt; auto; [apply dirof_unit; auto|lra|lra]. }
    destruct (Rlt_dec (acos (dot (bs0 b) conv)) rad) as [H|H]; [|destruct tail].
    - destruct K2 as (t & Et & Lt & Ut & Dt); auto. exists t. repeat (split; auto). lra.
    - destruct K2 as (t & Et & Lt & Ut & Dt); auto. exists t. repeat (split; auto). lra.
    - exists conv. split; [apply K1; auto; lra|]. repeat (split; auto).
      destruct (Rle_dec (dot (bs0 b) conv) (cos rad)); auto. exfalso. apply H. apply angle_lt; auto; lra. }
  destruct T as (tg & Et & Lt & Ut & Dt). exists i, tg. do 3 (split; auto). split; [|split].
  - destruct (Req_dec (dot (bs0 b) conv) 0) as [Z|NZ].
    + rewrite (Ki Z). unfold unitv in Uc. lra.
    + rewrite dot_comm. apply (perp_not_opposite (bs0 b)); auto. congruence.
  - intros [Z|Z]; [left; symmetry; auto|]. right. apply (far_not_close n); auto; [lia|].
    rewrite dot_comm. apply (perp_far_abs (bs0 b)); auto.
  - do 4 (split; auto). split; [apply (perp_not_opposite (bs0 b)); auto; [congruence|lra]|].
    apply (far_not_close n); auto; [lia|]. apply (perp_far (bs0 b)); auto. lra.
Qed.

Definition fresh_from (k : nat) (t : tree) : Prop := forall j, (k <= j)%nat ->
  ~ In (NInt (Z.of_nat j)) (ids t) /\ ~ In (NPair (NInt 2) (NInt (Z.of_nat j))) (ids t).
Record ready (r : nid) (conv : vec) (k : nat) (t : tree) : Prop := {
  rd_grown : grown n t r;
  rd_conv : exists l, node t av_conv_id (mkAttrs l conv) /\ (l + 2 < 100)%nat;
  rd_fresh : fresh_from k t }.
(** Nodes stay; no new edge ends in an old node. *)
Definition extends (t t' : tree) : Prop :=
  keeps t t' /\ (forall x, In x (ids t) -> In x (ids t')) /\ (forall p y, In y (ids t) -> edge t' p y -> edge t p y).
Lemma extends_refl t : extends t t.
Proof. split; [apply keeps_refl|]. auto. Qed.
Lemma extends_trans t1 t2 t3 : extends t1 t2 -> extends t2 t3 -> extends t1 t3.
Proof. intros (A & B & C) (D & E & F). split; [eapply keeps_trans; eauto|]. split; auto. Qed.
Definition exact_in (t : tree) (x : nid) (u : vec) : Prop :=
  forall p b, edge t p x -> node t p b -> a_dir b = u \/ allclose (a_dir b) u = false.

Lemma step_base o : faces n o -> exists b, base_ok n b /\ bs0 b = inward o /\ length (into o) = n /\ norm (into o) <> 0 /\
  0 < dot (inward o) (dirof (into o)) /\
  (let b := mkBase (ao_normal o) (ao_second o) in
   if ao_boundary o then (vscale (-1) (ao_ref o), b) else (ao_ref o, base_opp b)) = (into o, b).
Proof.
  intros (L0 & L1 & L2 & U0 & U1 & O & P).
  assert (Ni : norm (into o) <> 0) by (apply (dot_pos_norm (inward o)); lra).
  assert (Pd : 0 < dot (inward o) (dirof (into o))).
  { rewrite dot_dirof by auto. pose proof (norm_nonneg (into o)). apply Rdiv_lt_0_compat; lra. }
  assert (Bb : base_ok n (mkBase (ao_normal o) (ao_second o))) by (repeat split; auto).
  unfold into, inward in *. destruct (ao_boundary o).
  - exists (mkBase (ao_normal o) (ao_second o)). rewrite length_vscale. repeat (split; auto).
  - exists (base_opp (mkBase (ao_normal o) (ao_second o))). split; [apply base_opp_ok; auto|]. repeat (split; auto).
Qed.

Lemma step_ok r conv st k o w : unitv conv -> length conv = n -> ready r conv k (av_tree st) -> faces n o -> 0 < ao_gamma o ->
  exists st' f, avoid_step rad power tail conv st (k, (o, w)) = Ok st' /\ ready r conv (S k) (av_tree st') /\
    extends (av_tree st) (av_tree st') /\ (clear conv o -> distinguishable (av_tree st) -> distinguishable (av_tree st')) /\
    0 <= f <= 1 /\
    ((f = 0 /\ 1 < ao_gamma o /\ st' = st) \/
     ((ao_gamma o <= 1 -> f = 1) /\ av_nodes st' = av_nodes st ++ [NInt (Z.of_nat k)] /\
      av_weights st' = av_weights st ++ [f * w] /\
      exists l u, node (av_tree st') (NInt (Z.of_nat k)) (mkAttrs l u) /\ dot (inward o) u <= cos rad /\
        (clear conv o -> exact_in (av_tree st') (NInt (Z.of_nat k)) u))).
Proof.
  intros Uc Lc [G (lc & Nc & Hl) Fr] Fo Hg. pose proof PI_RGT_0 as HP.
  destruct (step_base o Fo) as (b & B & B0 & Li & Ni & Pi & Eb).
  destruct (C70_continuation_weight n rad power (into o) conv b ltac:(lia) B Li Lc Ni (unit_norm_neq conv Uc) Hpw)
    as (f & Ef & F1 & F2 & _).
  assert (W0 : 0 <= f (ao_gamma o) <= 1).
  { destruct (Rle_dec (ao_gamma o) 1); [rewrite F1; lra|]. pose proof (F2 (ao_gamma o) ltac:(lra)).
    assert (/ ao_gamma o < 1) by (rewrite <- Rinv_1; apply Rinv_lt_contravar; lra). lra. }
  unfold avoid_step. cbv zeta in Eb. rewrite Eb. rewrite Ef by auto. cbn [bind].
  destruct (Rleb (f (ao_gamma o)) 0) eqn:Q; [apply Rleb_true in Q|apply Rleb_false in Q].
  - exists st, (f (ao_gamma o)). split; auto. split.
    { constructor; eauto. intros j Hj. apply Fr. lia. }
    split; [apply extends_refl|]. split; auto. split; auto. left. split; [lra|]. split; auto.
    destruct (Rle_dec (ao_gamma o) 1); [|lra]. rewrite F1 in Q by lra. lra.
  - destruct (Fr k (le_n k)) as [Fk Fk2].
    destruct Hr as [Er|[Hr1 Hc1]].
    + destruct (turn_half conv (into o) b Er B Lc Li Uc Ni) as (tg & -> & Lt & Ut & Dt & NO & EX); [rewrite B0; auto|].
      cbn [bind]. rewrite (proj2 (Rltb_false (PI * / 2) rad)) by lra. cbn [bind].
      destruct (add_node_grown n (av_tree st) r (NInt (Z.of_nat k)) tg av_conv_id _ G Nc) as (t & -> & G' & I' & K' & N' & E'); auto.
      { simpl; lia. } { apply unit_norm_neq; auto. } { cbn [a_dir]. rewrite dirof_of_unit; auto. }
      cbn [lift bind fst snd]. rewrite (dirof_of_unit tg Ut) in N'.
      eexists _, (f (ao_gamma o)). split; [reflexivity|]. cbn [av_tree av_nodes av_weights].
      assert (INK : ~ In (NInt (Z.of_nat k)) (ids (av_tree st))) by auto.
      split; [|split; [|split; [|split; [auto|right; split; [|split; [auto|split; [auto|]]]]]]].
      * constructor; auto; [eauto|]. intros j Hj. destruct (Fr j ltac:(lia)). rewrite I', !in_app_iff. simpl. split; intros [?|[E|[]]]; auto.
        -- injection E. lia.
        -- discriminate.
      * split; auto. split; [intros x Hx; rewrite I', in_app_iff; auto|]. intros p y Hy Ee. apply E' in Ee. destruct Ee as [?|[_ ->]]; auto. contradiction.
      * intros Cl Di. apply (dist_add n (av_tree st) t r av_conv_id (NInt (Z.of_nat k)) (mkAttrs lc conv) (mkAttrs (S lc) tg)); auto; try apply G; try apply G'.
        cbn [a_dir]. apply EX. rewrite B0. exact Cl.
      * intros Hg1. apply F1. lra.
      * eexists _, tg. split; [exact N'|]. rewrite <- B0. split; auto. intros Cl p bp Ep Np. apply E' in Ep.
        destruct Ep as [Ep|[-> _]].
        -- exfalso. apply INK. apply (edge_ids n _ r (gr_rooted _ _ _ G) p _ Ep).
        -- rewrite (node_unique n t r (gr_rooted _ _ _ G') av_conv_id bp _ Np (K' _ _ Nc)). cbn [a_dir].
           apply EX. rewrite B0. exact Cl.
    + destruct (turn_wide conv (into o) b Hr1 Hc1 B Lc Li Uc Ni) as (i & tg & -> & Lin & Ui & NO1 & EX1 & -> & Lt & Ut & Dt & NO2 & EX2); [rewrite B0; auto|].
      cbn [bind]. rewrite (proj2 (Rltb_true (PI * / 2) rad)) by lra. cbn [bind].
      destruct (add_node_grown n (av_tree st) r (NPair (NInt 2) (NInt (Z.of_nat k))) i av_conv_id _ G Nc) as (t1 & -> & G1 & I1 & K1 & N1 & E1); auto.
      { simpl; lia. } { apply unit_norm_neq; auto. } { cbn [a_dir]. rewrite dirof_of_unit; auto. }
      cbn [lift bind fst snd]. rewrite (dirof_of_unit i Ui) in N1.
      destruct (add_node_grown n t1 r (NInt (Z.of_nat k)) tg (NPair (NInt 2) (NInt (Z.of_nat k))) _ G1 N1) as (t & -> & G' & I' & K' & N' & E'); auto.
      { simpl; lia. } { apply unit_norm_neq; auto. }
      { rewrite I1, in_app_iff. intros [?|[E|[]]]; [auto|discriminate]. } { cbn [a_dir]. rewrite dirof_of_unit; auto. }
      cbn [lift bind fst snd]. rewrite (dirof_of_unit tg Ut) in N'.
      assert (INK : ~ In (NInt (Z.of_nat k)) (ids t1)).
      { rewrite I1, in_app_iff. intros [?|[E|[]]]; [auto|discriminate]. }
      eexists _, (f (ao_gamma o)). split; [reflexivity|]. cbn [av_tree av_nodes av_weights].
      split; [|split; [|split; [|split; [auto|right; split; [|split; [auto|split; [auto|]]]]]]].
      * constructor; auto; [eauto|]. intros j Hj. destruct (Fr j ltac:(lia)). rewrite I', I1, !in_app_iff. simpl.
        split; intros [[?|[E|[]]]|[E|[]]]; auto; try discriminate; injection E; lia.
      * split; [eapply keeps_trans; eauto|]. split; [intros x Hx; rewrite I', I1, !in_app_iff; auto|].
        intros p y Hy Ee. apply E' in Ee. destruct Ee as [Ee|[_ ->]]; [|contradiction]. apply E1 in Ee. destruct Ee as [?|[_ ->]]; auto. contradiction.
      * intros Cl Di. apply (dist_add n t1 t r (NPair (NInt 2) (NInt (Z.of_nat k))) (NInt (Z.of_nat k)) (mkAttrs (S lc) i) (mkAttrs (S (S lc)) tg)); auto; try apply G1; try apply G'.
        apply (dist_add n (av_tree st) t1 r av_conv_id (NPair (NInt 2) (NInt (Z.of_nat k))) (mkAttrs lc conv) (mkAttrs (S lc) i)); auto; try apply G; try apply G1.
        cbn [a_dir]. apply EX1. rewrite B0. exact Cl.
      * intros Hg1. apply F1. lra.
      * eexists _, tg. split; [exact N'|]. rewrite <- B0. split; auto. intros Cl p bp Ep Np. apply E' in Ep.
        destruct Ep as [Ep|[-> _]].
        -- exfalso. apply INK. apply (edge_ids n _ r (gr_rooted _ _ _ G1) p _ Ep).
        -- rewrite (node_unique n t r (gr_rooted _ _ _ G') _ bp _ Np (K' _ _ N1)). cbn [a_dir]. auto.
Qed.

Lemma foldM_app {A S} (f : S -> A -> res S) l1 l2 s : foldM f s (l1 ++ l2) = (do s1 <- foldM f s l1; foldM f s1 l2).
Proof. revert s. induction l1 as [|a l1 IH]; intros s; simpl; auto. destruct (f s a); simpl; auto. Qed.

Record step_list (r : nid) (conv : vec) (k : nat) (os : list aobs) (ws : list R) (st st' : avoid_state) (K : list nid) (A : list R) : Prop := {
  sl_ready : ready r conv (k + length os) (av_tree st');
  sl_ext : extends (av_tree st) (av_tree st');
  sl_dist : Forall (clear conv) os -> distinguishable (av_tree st) -> distinguishable (av_tree st');
  sl_nodes : av_nodes st' = av_nodes st ++ K;
  sl_weights : av_weights st' = av_weights st ++ A;
  sl_len : length K = length A;
  sl_nodup : NoDup K;
  sl_in : forall x, In x K -> In x (ids (av_tree st')) /\ exists j, (k <= j < k + length os)%nat /\ x = NInt (Z.of_nat j);
  sl_pos : Forall (fun w => 0 <= w) ws -> Forall (fun w => 0 <= w) A /\ rsum A <= rsum ws;
  sl_zero : Forall (fun w => w = 0) ws -> Forall (fun w => w = 0) A }.

Lemma loop_ok r conv : unitv conv -> length conv = n -> forall os ws st k, length os = length ws ->
  ready r conv k (av_tree st) -> Forall (faces n) os -> Forall (fun o => 0 < ao_gamma o) os ->
  exists st' K A, foldM (avoid_step rad power tail conv) st (combine (seq k (length os)) (combine os ws)) = Ok st' /\
    step_list r conv k os ws st st' K A.
Proof.
  intros Uc Lc. induction os as [|o os IH]; intros [|w ws] st k HL RD FO GO; simpl in HL; try lia.
  - exists st, [], []. split; auto. constructor; rewrite ?app_nil_r; auto.
    + simpl. rewrite Nat.add_0_r. auto.
    + apply extends_refl.
    + constructor.
    + intros x [].
    + intros _. split; [constructor|simpl; lra].
  - inversion FO as [|? ? F1 F2]; inversion GO as [|? ? G1 G2]; subst.
    destruct (step_ok r conv st k o w Uc Lc RD F1 G1) as (st1 & f & E1 & RD1 & X1 & D1 & Hf & C).
    destruct (IH ws st1 (S k) ltac:(lia) RD1 F2 G2) as (st2 & K & A & E2 & [R2 X2 D2 N2 W2 L2 ND I2 P2 Z2]).
    cbn [length seq combine foldM]. rewrite E1. cbn [bind].
    assert (DD : Forall (clear conv) (o :: os) -> distinguishable (av_tree st) -> distinguishable (av_tree st2)).
    { intros Fc. inversion Fc; subst. auto. }
    assert (RR : ready r conv (k + S (length os)) (av_tree st2)) by (replace (k + S (length os))%nat with (S k + length os)%nat by lia; auto).
    destruct C as [(-> & Hg & ->)|(Hf1 & N1 & W1 & l & u & Nu & _)].
    + exists st2, K, A. split; auto. constructor; auto.
      * intros x Hx. destruct (I2 x Hx) as (? & j & Hj & ->). split; auto. exists j. split; auto. simpl. lia.
      * intros Fw. inversion Fw; subst. destruct (P2 H2) as [? ?]. split; auto. simpl. lra.
      * intros Fw. inversion Fw; subst. auto.
    + exists st2, (NInt (Z.of_nat k) :: K), (f * w :: A). split; auto. constructor; auto.
      * eapply extends_trans; eauto.
      * rewrite N2, N1, <- app_assoc. auto.
      * rewrite W2, W1, <- app_assoc. auto.
      * simpl. lia.
      * constructor; auto. intros Hx. destruct (I2 _ Hx) as (_ & j & Hj & E). injection E. lia.
      * intros x [<-|Hx].
        -- split; [apply X2; apply (node_in_ids _ _ _ Nu)|]. exists k. split; auto. simpl. lia.
        -- destruct (I2 x Hx) as (? & j & Hj & ->). split; auto. exists j. split; auto. simpl. lia.
      * intros Fw. inversion Fw; subst. destruct (P2 H2) as [? ?]. split; [constructor; auto; nra|]. simpl. nra.
      * intros Fw. inversion Fw; subst. constructor; auto. ring.
Qed.

(** The tree of the two sequences. *)
Lemma start_tree init convs b e c : passes n init b e -> passes n convs b c ->
  related_path b (stops init e) -> related_path b (stops convs c) -> (length init < 100)%nat -> (length convs < 98)%nat ->
  exists t0 t, from_sequence av_root_id av_init_id init = Ok t0 /\
    add_sequence t0 av_conv_id convs av_root_id true = (t, Ok tt) /\ ready av_root_id c 0 t /\ distinguishable t /\
    node t av_root_id (mkAttrs 0 b) /\ exists l, node t av_init_id (mkAttrs l e).
Proof.
  intros Pi Pc Ri Rc Li Lc.
  destruct (from_sequence_sound n av_root_id av_init_id init b e ltac:(lia) Pi Li) as (t0 & l0 & E0 & S0 & I0 & Nr & Ne & _); auto; try discriminate.
  assert (FR : forall x, In x (ids t0) -> x = av_root_id \/ x = av_init_id \/ exists i, x = NPair av_init_id (NInt (Z.of_nat i))).
  { intros x Hx. rewrite I0 in Hx. destruct Hx as [<-|Hx]; auto. apply in_app_iff in Hx. destruct Hx as [Hx|[<-|[]]]; auto.
    unfold inter_ids in Hx. apply in_map_iff in Hx. destruct Hx as (i & <- & _). eauto. }
  destruct (add_sequence_sound n t0 av_root_id av_conv_id convs av_root_id (mkAttrs 0 b) c S0 Nr) as (t & l & E1 & S1 & I1 & K1 & N1 & L1 & _); auto; try (simpl; lia).
  { intros Hx. apply FR in Hx. destruct Hx as [H|[H|[i H]]]; discriminate. }
  { intros j _ Hx. apply FR in Hx. destruct Hx as [H|[H|[i H]]]; discriminate. }
  exists t0, t. split; auto. split; auto. split; [|split; [apply S1|split; eauto]].
  constructor; [apply sound_grown; auto|exists l; split; auto; simpl in L1; lia|].
  intros j _. rewrite I1, !in_app_iff.
  assert (NI : forall i m, ~ In (NInt (Z.of_nat j)) (inter_ids av_conv_id i m) /\ ~ In (NPair (NInt 2) (NInt (Z.of_nat j))) (inter_ids av_conv_id i m)).
  { intros i m. unfold inter_ids. split; intros H; apply in_map_iff in H; destruct H as (q & H & _); discriminate. }
  split; intros [H|[H|[H|[]]]].
  - apply FR in H. destruct H as [H|[H|[i H]]]; try discriminate; injection H; lia.
  - apply (proj1 (NI _ _)) in H. auto.
  - injection H. lia.
  - apply FR in H. destruct H as [H|[H|[i H]]]; discriminate.
  - apply (proj2 (NI _ _)) in H. auto.
  - discriminate.
Qed.
End Loop.


Section Average.
Variables (n : nat) (rad power : R) (tail : bool) (orth0 : vec -> vec) (sort : tree -> list nid).
Variables (weights_of : list R -> list R) (default : bool).
Hypothesis Hn : (2 <= n <= 1000)%nat.
Hypothesis Hr : rad = PI / 2 \/ PI / 2 < rad < PI /\ cos rad <= -1/1000.
Hypothesis Hpw : 0 <= power.
Hypothesis OL : forall v, length (orth0 v) = length v.
Hypothesis SS : sorts sort.

(** The obstacles as the avoider sees them: gamma at least one; and their importance. *)
Definition seen (obs : list aobs) : list aobs := map clamp_obstacle obs.
Definition importance_of (obs : list aobs) : list R := weights_of (map ao_gamma (seen obs)).
(** Two sequences from a common direction, without opposite or confusable steps. *)
Definition common_start (init convs : sequence) (b e c : vec) : Prop :=
  passes n init b e /\ passes n convs b c /\ related_path b (stops init e) /\ related_path b (stops convs c) /\
  (length init < 100)%nat /\ (length convs < 98)%nat.
Definition scene (obs : list aobs) : Prop :=
  obs <> [] /\ Forall (faces n) obs /\ Forall (fun o => 0 < ao_gamma o) obs /\ length (importance_of obs) = length obs.

Lemma seen_faces obs : Forall (faces n) obs -> Forall (fun o => 0 < ao_gamma o) obs ->
  Forall (faces n) (seen obs) /\ Forall (fun o => 0 < ao_gamma o) (seen obs).
Proof.
  unfold seen. induction obs as [|o obs IH]; intros F G; simpl; auto.
  inversion F as [|? ? F1 F2]; inversion G as [|? ? G1 G2]; subst. destruct (IH F2 G2) as [A B].
  split; constructor; auto; unfold clamp_obstacle; destruct (_ && _); auto. simpl. lra.
Qed.

(** The nodes and weights of the average. *)
Definition shares (K : list nid) (A imp : list R) : list nid * list R :=
  let '(K, A) := if default then (K ++ [av_conv_id], A ++ [rsum imp - rsum A]) else (K, A) in
  (K ++ [av_init_id], A ++ [1 - rsum A]).

Lemma average_form obs init convs b c t0 t st : obs <> [] -> passes n convs b c ->
  from_sequence av_root_id av_init_id init = Ok t0 -> add_sequence t0 av_conv_id convs av_root_id true = (t, Ok tt) ->
  foldM (avoid_step rad power tail c) (mkAvoid t [] [])
    (combine (seq 0 (length (seen obs))) (combine (seen obs) (importance_of obs))) = Ok st ->
  avoid_sequence orth0 sort rad power tail weights_of default obs init convs =
    reduce_weighted_to_sequence orth0 (av_tree st) blank (sort (av_tree st))
      (fst (shares (av_nodes st) (av_weights st) (importance_of obs)))
      (snd (shares (av_nodes st) (av_weights st) (importance_of obs))).
Proof.
  intros NE Pc E0 E1 E2. unfold avoid_sequence. destruct obs as [|o obs']; [contradiction|]. set (obs := o :: obs') in *.
  cbv zeta. rewrite E0. cbn [bind]. rewrite E1. cbn [lift bind fst snd]. rewrite (ps_end _ _ _ _ Pc). cbn [bind].
  unfold importance_of, seen in E2. rewrite E2. cbn [bind]. unfold shares. destruct default; reflexivity.
Qed.

Lemma reduce_of_mean t st sl l ws u : get_weighted_mean orth0 t st sl l ws = Ok u ->
  exists s, reduce_weighted_to_sequence orth0 t st sl l ws = Ok s /\ get_end_vector s = Ok u.
Proof.
  unfold get_weighted_mean. destruct (reduce_weighted_to_sequence _ _ _ _ _ _) as [s|]; [|discriminate].
  cbn [bind]. eauto.
Qed.

Lemma exact_old t t' x a : distinguishable t -> keeps t t' -> extends t t' -> forall r, rooted_tree n t r -> rooted_tree n t' r ->
  node t x a -> exact_in t' x (a_dir a).
Proof.
  intros D K (_ & _ & E) r W W' Nx p bp Ep Np. pose proof (E p x (node_in_ids t x a Nx) Ep) as Ep'.
  destruct (edge_ids n t r W p x Ep') as [Ip _]. destruct (wf_attrs n t r W p Ip) as (a0 & _ & N0 & _).
  rewrite (node_unique n t' r W' p bp a0); auto. apply (D p x); auto.
Qed.

Lemma one_at_split : forall (l : list R) i, one_at i l ->
  exists A B, l = A ++ 1 :: B /\ length A = i /\ Forall (fun w => w = 0) A /\ Forall (fun w => w = 0) B.
Proof.
  induction l as [|a l IH]; intros [|i] (L & O & Z); simpl in *; try lia.
  - exists [], l. subst a. repeat split; auto. apply Forall_forall. intros x Hx.
    destruct (In_nth l x 0 Hx) as (j & _ & <-). apply (Z (S j)). lia.
  - destruct (IH i) as (A & B & -> & LA & FA & FB).
    { split; [lia|]. split; auto. intros j Hj. apply (Z (S j)). lia. }
    exists (a :: A), B. split; auto. split; [simpl; lia|]. split; auto. constructor; auto. apply (Z 0%nat). lia.
Qed.
Lemma zeros_sum l : Forall (fun w => w = 0) l -> rsum l = 0.
Proof. induction 1; simpl; lra. Qed.

(** In contact: the end of the averaged sequence leaves the touched obstacle, or follows its surface. *)
Theorem C75_contact : forall obs init convs b e c i o, common_start init convs b e c -> scene obs ->
  one_at i (importance_of obs) -> nth_error (seen obs) i = Some o -> ao_gamma o <= 1 -> clear c o ->
  exists s u, avoid_sequence orth0 sort rad power tail weights_of default obs init convs = Ok s /\
    get_end_vector s = Ok u /\ unitv u /\ dot (inward o) u <= cos rad.
Proof.
  intros obs init convs b e c i o (Pi & Pc & Ri & Rc & Li & Lc) (NE & FO & GO & HL) OA Ei Hg Cl.
  destruct (start_tree n Hn init convs b e c Pi Pc Ri Rc Li Lc) as (t0 & t & E0 & E1 & RD & DI & Nroot & le & Ne).
  destruct (ps_unit _ _ _ _ Pc) as [Lcv Uc]. destruct (seen_faces obs FO GO) as [FO' GO'].
  assert (HL' : length (importance_of obs) = length (seen obs)) by (unfold seen; rewrite map_length; auto).
  destruct (nth_error_split _ _ Ei) as (os1 & os2 & Eo & L1).
  destruct (one_at_split _ _ OA) as (A1 & B1 & Ew & LA & ZA & ZB).
  assert (LB : length os2 = length B1).
  { rewrite Eo, Ew, !app_length in HL'. simpl in HL'. lia. }
  rewrite Eo in FO', GO'. apply Forall_app in FO'. destruct FO' as [F1 F2]. pose proof (Forall_inv F2) as Fo. pose proof (Forall_inv_tail F2) as F3.
  apply Forall_app in GO'. destruct GO' as [G1 G2]. pose proof (Forall_inv G2) as Go. pose proof (Forall_inv_tail G2) as G3. cbv beta in Go.
  destruct (loop_ok n rad power tail Hn Hr Hpw av_root_id c Uc Lcv os1 A1 (mkAvoid t [] []) 0 ltac:(lia) RD F1 G1)
    as (st1 & K1 & V1 & E2 & SL1).
  destruct (step_ok n rad power tail Hn Hr Hpw av_root_id c st1 (length os1) o 1 Uc Lcv (sl_ready _ _ _ _ _ _ _ _ _ _ SL1) Fo Go)
    as (st2 & f & E3 & RD2 & X2 & _ & Hf & C).
  destruct C as [(_ & Bad & _)|(Hf1 & N2 & W2 & l & u & Nu & Du & EX)]; [lra|].
  destruct (loop_ok n rad power tail Hn Hr Hpw av_root_id c Uc Lcv os2 B1 st2 (S (length os1)) LB RD2 F3 G3)
    as (st3 & K3 & V3 & E4 & SL3).
  assert (EF : foldM (avoid_step rad power tail c) (mkAvoid t [] [])
    (combine (seq 0 (length (seen obs))) (combine (seen obs) (importance_of obs))) = Ok st3).
  { rewrite Eo, Ew. rewrite app_length. cbn [length]. rewrite seq_app, combine_app by (simpl; lia).
    rewrite combine_app by (rewrite seq_length, combine_length; lia). rewrite foldM_app, E2. cbn [bind Nat.add].
    cbn [seq combine foldM]. rewrite E3. cbn [bind]. exact E4. }
  rewrite (average_form obs init convs b c t0 t st3 NE Pc E0 E1 EF).
  pose proof (sl_ready _ _ _ _ _ _ _ _ _ _ SL3) as RD3. pose proof (sl_ext _ _ _ _ _ _ _ _ _ _ SL1) as X1.
  pose proof (sl_ext _ _ _ _ _ _ _ _ _ _ SL3) as X3. cbn [av_tree] in X1.
  pose proof (sl_zero _ _ _ _ _ _ _ _ _ _ SL1 ZA) as Z1. pose proof (sl_zero _ _ _ _ _ _ _ _ _ _ SL3 ZB) as Z3.
  assert (NN : av_nodes st3 = K1 ++ NInt (Z.of_nat (length os1)) :: K3).
  { rewrite (sl_nodes _ _ _ _ _ _ _ _ _ _ SL3), N2, (sl_nodes _ _ _ _ _ _ _ _ _ _ SL1), <- app_assoc. auto. }
  assert (WW : av_weights st3 = V1 ++ 1 :: V3).
  { rewrite (sl_weights _ _ _ _ _ _ _ _ _ _ SL3), W2, (sl_weights _ _ _ _ _ _ _ _ _ _ SL1), <- app_assoc, (Hf1 Hg). simpl. f_equal. f_equal. ring. }
  assert (SW : rsum (av_weights st3) = 1).
  { rewrite WW, rsum_app. simpl. rewrite (zeros_sum V1 Z1), (zeros_sum V3 Z3). ring. }
  assert (SI : rsum (importance_of obs) = 1) by (apply (one_at_sum _ _ OA)).
  assert (SH : exists K B, shares (av_nodes st3) (av_weights st3) (importance_of obs) =
     (K1 ++ NInt (Z.of_nat (length os1)) :: K3 ++ K, V1 ++ 1 :: V3 ++ B) /\
     length K = length B /\ Forall (fun w => w = 0) B /\ NoDup K /\ (forall x, In x K -> x = av_conv_id \/ x = av_init_id)).
  { unfold shares. destruct default.
    - exists [av_conv_id; av_init_id], [0; 0]. rewrite SI, SW, rsum_app, SW. simpl rsum. rewrite NN, WW, <- !app_assoc. simpl.
      split; [repeat f_equal; try (rewrite <- !app_assoc; simpl); repeat f_equal; ring|]. split; auto.
      split; [repeat constructor|]. split.
      + constructor; [intros [E|[]]; discriminate|]. constructor; [intros []|constructor].
      + intros x [<-|[<-|[]]]; auto.
    - exists [av_init_id], [0]. rewrite SW. rewrite NN, WW, <- !app_assoc. simpl. split; [repeat f_equal; ring|]. split; auto.
      split; [repeat constructor|]. split; [constructor; [intros []|constructor]|]. intros x [<-|[]]; auto. }
  destruct SH as (K & B & SH & LKB & ZK & NDK & IK). rewrite SH. cbn [fst snd].
  pose proof (rd_grown _ _ _ _ _ RD3) as G3'. pose proof (rd_grown _ _ _ _ _ RD) as G0.
  pose proof (rd_grown _ _ _ _ _ RD2) as G2'.
  assert (Xall : extends t (av_tree st3)) by (eapply extends_trans; [exact X1|]; eapply extends_trans; eauto).
  assert (Nu3 : node (av_tree st3) (NInt (Z.of_nat (length os1))) (mkAttrs l u)) by (apply X3; auto).
  assert (RNG1 : forall x, In x K1 -> exists j, (j < length os1)%nat /\ x = NInt (Z.of_nat j)).
  { intros x Hx. destruct (sl_in _ _ _ _ _ _ _ _ _ _ SL1 x Hx) as (_ & j & Hj & ->). exists j. split; auto. lia. }
  assert (RNG3 : forall x, In x K3 -> exists j, (length os1 < j)%nat /\ x = NInt (Z.of_nat j)).
  { intros x Hx. destruct (sl_in _ _ _ _ _ _ _ _ _ _ SL3 x Hx) as (_ & j & Hj & ->). exists j. split; auto. lia. }
  assert (KN : forall j, ~ In (NInt (Z.of_nat j)) K).
  { intros j Hx. apply IK in Hx. destruct Hx as [E|E]; injection E; lia. }
  destruct (reduce_of_mean (av_tree st3) blank (sort (av_tree st3)) (K1 ++ NInt (Z.of_nat (length os1)) :: K3 ++ K) (V1 ++ 1 :: V3 ++ B) u)
    as (s & Es & Eu).
  { apply (mean_on_one_grown n (av_tree st3) av_root_id (sort (av_tree st3)) orth0 blank K1 (NInt (Z.of_nat (length os1))) (K3 ++ K) V1 (V3 ++ B) (mkAttrs l u)); auto; try lia.
    - apply (SS n _ av_root_id). apply G3'.
    - pose proof (sl_nodup _ _ _ _ _ _ _ _ _ _ SL1) as ND1. pose proof (sl_nodup _ _ _ _ _ _ _ _ _ _ SL3) as ND3.
      assert (ND4 : NoDup (NInt (Z.of_nat (length os1)) :: K3 ++ K)).
      { constructor.
        - rewrite in_app_iff. intros [Hx|Hx]; [|apply (KN _ Hx)]. destruct (RNG3 _ Hx) as (j & Hj & E). injection E. lia.
        - apply NoDup_app_intro; auto. intros x Hx Hy. destruct (RNG3 _ Hx) as (j & Hj & ->). apply (KN _ Hy). }
      apply NoDup_app_intro; auto. intros x Hx Hy. destruct (RNG1 x Hx) as (j & Hj & ->). destruct Hy as [E|Hy]; [injection E; lia|].
      apply in_app_iff in Hy. destruct Hy as [Hy|Hy]; [|apply (KN _ Hy)]. destruct (RNG3 _ Hy) as (j' & Hj' & E). injection E. lia.
    - intros x Hx. apply in_app_iff in Hx. destruct Hx as [Hx|[<-|Hx]].
      + apply X3, X2. apply (sl_in _ _ _ _ _ _ _ _ _ _ SL1 x Hx).
      + apply (node_in_ids _ _ _ Nu3).
      + apply in_app_iff in Hx. destruct Hx as [Hx|Hx]; [apply (sl_in _ _ _ _ _ _ _ _ _ _ SL3 x Hx)|].
        apply IK in Hx. destruct Hx as [->| ->].
        * destruct (rd_conv _ _ _ _ _ RD3) as (lc & Nc & _). apply (node_in_ids _ _ _ Nc).
        * apply Xall. apply (node_in_ids _ _ _ Ne).
    - intros p bp Ep Np. pose proof (proj2 (proj2 X3) p _ (node_in_ids _ _ _ Nu) Ep) as Ep2.
      destruct (edge_ids n _ _ (gr_rooted _ _ _ G2') p _ Ep2) as [Ip _].
      destruct (wf_attrs n _ _ (gr_rooted _ _ _ G2') p Ip) as (a0 & _ & Na0 & _).
      rewrite (node_unique n _ _ (gr_rooted _ _ _ G3') p bp a0 Np (proj1 X3 _ _ Na0)). apply (EX Cl p a0); auto.
    - apply SL1.
    - rewrite !app_length. f_equal; [apply SL3|auto].
    - apply Forall_app. auto. }
  exists s, u. split; auto. split; auto. split; auto.
  destruct (wf_attrs n _ _ (gr_rooted _ _ _ G3') _ (node_in_ids _ _ _ Nu3)) as (a0 & _ & Na0 & La0 & Ua0 & _).
  rewrite (node_unique n _ _ (gr_rooted _ _ _ G3') _ _ _ Na0 Nu3) in Ua0. exact Ua0.
Qed.

Lemma loop_all obs init convs b e c : common_start init convs b e c -> scene obs ->
  exists t0 t st K A, from_sequence av_root_id av_init_id init = Ok t0 /\ add_sequence t0 av_conv_id convs av_root_id true = (t, Ok tt) /\
    foldM (avoid_step rad power tail c) (mkAvoid t [] [])
      (combine (seq 0 (length (seen obs))) (combine (seen obs) (importance_of obs))) = Ok st /\
    step_list n av_root_id c 0 (seen obs) (importance_of obs) (mkAvoid t [] []) st K A /\
    ready n av_root_id c 0 t /\ distinguishable t /\ node t av_root_id (mkAttrs 0 b) /\ exists l, node t av_init_id (mkAttrs l e).
Proof.
  intros (Pi & Pc & Ri & Rc & Li & Lc) (NE & FO & GO & HL).
  destruct (start_tree n Hn init convs b e c Pi Pc Ri Rc Li Lc) as (t0 & t & E0 & E1 & RD & DI & Nroot & le & Ne).
  destruct (ps_unit _ _ _ _ Pc) as [Lcv Uc]. destruct (seen_faces obs FO GO) as [FO' GO'].
  assert (HL' : length (seen obs) = length (importance_of obs)) by (unfold seen; rewrite map_length; auto).
  destruct (loop_ok n rad power tail Hn Hr Hpw av_root_id c Uc Lcv (seen obs) (importance_of obs) (mkAvoid t [] []) 0 HL' RD FO' GO')
    as (st & K & A & E2 & SL).
  exists t0, t, st, K, A. split; [exact E0|]. split; [exact E1|]. split; [exact E2|]. split; [exact SL|]. split; [exact RD|].
  split; [exact DI|]. split; [exact Nroot|]. exists le. exact Ne.
Qed.

(** At every distance: a sequence from the common start. *)
Theorem C75_defined : forall obs init convs b e c, common_start init convs b e c -> scene obs ->
  Forall (fun w => 0 <= w) (importance_of obs) -> rsum (importance_of obs) <= 1 -> Forall (clear c) (seen obs) ->
  exists first rest u, avoid_sequence orth0 sort rad power tail weights_of default obs init convs = Ok (first :: rest) /\
    rb0 first = b /\ (forall q, In q (first :: rest) -> rangle q <> 0 -> proper n q) /\
    get_end_vector (first :: rest) = Ok u /\ unitv u /\ length u = n.
Proof.
  intros obs init convs b e c CS SC Pos Sum Cl.
  destruct (loop_all obs init convs b e c CS SC) as (t0 & t & st & K & A & E0 & E1 & E2 & SL & RD & DI & Nr & le & Ne).
  destruct SC as (NE & _). destruct CS as (_ & Pc & _).
  rewrite (average_form obs init convs b c t0 t st NE Pc E0 E1 E2).
  pose proof (sl_ready _ _ _ _ _ _ _ _ _ _ SL) as RD1. pose proof (rd_grown _ _ _ _ _ RD1) as G.
  pose proof (sl_ext _ _ _ _ _ _ _ _ _ _ SL) as X. cbn [av_tree] in X.
  destruct (sl_pos _ _ _ _ _ _ _ _ _ _ SL Pos) as [PA SA].
  pose proof (sl_nodes _ _ _ _ _ _ _ _ _ _ SL) as EK. pose proof (sl_weights _ _ _ _ _ _ _ _ _ _ SL) as EA.
  cbn [av_nodes av_weights app] in EK, EA. rewrite EK, EA.
  set (l := fst (shares K A (importance_of obs))). set (ws := snd (shares K A (importance_of obs))).
  assert (SA0 : 0 <= rsum A) by (apply rsum_nonneg; rewrite Forall_forall in PA; auto).
  assert (LK : length K = length A) by apply SL.
  assert (Props : length l = length ws /\ NoDup l /\ (forall x, In x l -> In x (ids (av_tree st))) /\ Forall (fun w => 0 <= w) ws /\ rsum ws = 1).
  { assert (NI : forall x, In x K -> x <> av_conv_id /\ x <> av_init_id).
    { intros x Hx. destruct (sl_in _ _ _ _ _ _ _ _ _ _ SL x Hx) as (_ & j & _ & ->). split; intros E; injection E; lia. }
    assert (IK : forall x, In x K -> In x (ids (av_tree st))) by (intros x Hx; apply (sl_in _ _ _ _ _ _ _ _ _ _ SL x Hx)).
    assert (IC : In av_conv_id (ids (av_tree st))).
    { destruct (rd_conv _ _ _ _ _ RD1) as (lc & Nc & _). apply (node_in_ids _ _ _ Nc). }
    assert (II : In av_init_id (ids (av_tree st))) by (apply X; apply (node_in_ids _ _ _ Ne)).
    pose proof (sl_nodup _ _ _ _ _ _ _ _ _ _ SL) as ND.
    unfold l, ws, shares. destruct default; cbn [fst snd].
    - split; [rewrite !app_length; simpl; lia|]. split.
      { rewrite <- app_assoc. apply NoDup_app_intro; auto.
        - constructor; [intros [E|[]]; discriminate|]. constructor; [intros []|constructor].
        - intros x Hx [E|[E|[]]]; destruct (NI x Hx); auto. }
      split; [intros x Hx; rewrite !in_app_iff in Hx; destruct Hx as [[Hx|[<-|[]]]|[<-|[]]]; auto|].
      split; [|rewrite !rsum_app; simpl; lra].
      rewrite <- app_assoc. apply Forall_app. split; auto. rewrite rsum_app. simpl rsum. apply Forall_cons; [lra|]. apply Forall_cons; [lra|apply Forall_nil].
    - split; [rewrite !app_length; simpl; lia|]. split.
      { apply NoDup_app_intro; auto.
        - constructor; [intros []|constructor].
        - intros x Hx [E|[]]; destruct (NI x Hx); auto. }
      split; [intros x Hx; rewrite !in_app_iff in Hx; destruct Hx as [Hx|[<-|[]]]; auto|].
      split; [|rewrite !rsum_app; simpl; lra]. apply Forall_app. split; auto. apply Forall_cons; [lra|apply Forall_nil]. }
  destruct Props as (Ll & NDl & Il & Pw & Sw).
  assert (F1 : map fst (combine l ws) = l) by (apply combine_fst; auto).
  destruct (C14_reduction_geometry n (av_tree st) av_root_id (mkAttrs 0 b) (sort (av_tree st)) orth0 blank l ws (TreeReduce.own_of (combine l ws)))
    as (first & rest & m & E & Eb & Pr & M & Um & Lm); auto; try lia; try lra.
  - apply G.
  - apply G.
  - apply (sl_dist _ _ _ _ _ _ _ _ _ _ SL); auto.
  - apply X; auto.
  - apply (SS n _ av_root_id). apply G.
  - split; [exact NDl|]. split; [exact Ll|]. split; [exact Il|]. split.
    + intros x w Hx. apply TreeCases.own_of_in; auto. rewrite F1. auto.
    + intros x Hx. apply TreeCases.own_of_out. rewrite F1. auto.
  - intros x. destruct (in_dec nid_eq_dec x l) as [Hx|Hx].
    + rewrite <- F1 in Hx. apply in_map_iff in Hx. destruct Hx as ((y & w) & E & Hy). simpl in E. subst y.
      rewrite (TreeCases.own_of_in (combine l ws) x w); auto; [|rewrite F1; auto].
      rewrite Forall_forall in Pw. apply Pw. apply in_combine_r in Hy. auto.
    + rewrite TreeCases.own_of_out; [lra|]. rewrite F1. auto.
  - exists first, rest, m. split; auto. split; auto. split; auto. split; auto.
    unfold get_weighted_mean in M. rewrite E in M. exact M.
Qed.

(** Obstacles without importance leave the initial sequence where it ends. *)
Theorem C75_without_importance : forall obs init convs b e c, common_start init convs b e c -> scene obs ->
  Forall (fun w => w = 0) (importance_of obs) ->
  exists s, avoid_sequence orth0 sort rad power tail weights_of default obs init convs = Ok s /\ get_end_vector s = Ok e.
Proof.
  intros obs init convs b e c CS SC Zi.
  destruct (loop_all obs init convs b e c CS SC) as (t0 & t & st & K & A & E0 & E1 & E2 & SL & RD & DI & Nr & le & Ne).
  destruct SC as (NE & _). destruct CS as (_ & Pc & _).
  rewrite (average_form obs init convs b c t0 t st NE Pc E0 E1 E2).
  pose proof (sl_ready _ _ _ _ _ _ _ _ _ _ SL) as RD1. pose proof (rd_grown _ _ _ _ _ RD1) as G.
  pose proof (sl_ext _ _ _ _ _ _ _ _ _ _ SL) as X. cbn [av_tree] in X.
  pose proof (sl_zero _ _ _ _ _ _ _ _ _ _ SL Zi) as ZA. pose proof (zeros_sum _ ZA) as SA. pose proof (zeros_sum _ Zi) as SI.
  pose proof (sl_nodes _ _ _ _ _ _ _ _ _ _ SL) as EK. pose proof (sl_weights _ _ _ _ _ _ _ _ _ _ SL) as EA.
  cbn [av_nodes av_weights app] in EK, EA. rewrite EK, EA.
  assert (LK : length K = length A) by apply SL. pose proof (sl_nodup _ _ _ _ _ _ _ _ _ _ SL) as ND.
  assert (NI : forall x, In x K -> x <> av_conv_id /\ x <> av_init_id).
  { intros x Hx. destruct (sl_in _ _ _ _ _ _ _ _ _ _ SL x Hx) as (_ & j & _ & ->). split; intros E; injection E; lia. }
  assert (SH : exists K' A', shares K A (importance_of obs) = (K' ++ [av_init_id], A' ++ [1]) /\ length K' = length A' /\
     Forall (fun w => w = 0) A' /\ NoDup (K' ++ [av_init_id]) /\ (forall x, In x K' -> In x (ids (av_tree st)))).
  { assert (IK : forall x, In x K -> In x (ids (av_tree st))) by (intros x Hx; apply (sl_in _ _ _ _ _ _ _ _ _ _ SL x Hx)).
    unfold shares. destruct default.
    - exists (K ++ [av_conv_id]), (A ++ [0]). rewrite rsum_app, SA, SI. simpl rsum. split; [repeat f_equal; ring|].
      split; [rewrite !app_length; simpl; lia|]. split; [apply Forall_app; split; auto|]. split.
      + rewrite <- app_assoc. apply NoDup_app_intro; auto.
        * constructor; [intros [E|[]]; discriminate|]. constructor; [intros []|constructor].
        * intros x Hx [E|[E|[]]]; destruct (NI x Hx); auto.
      + intros x Hx. apply in_app_iff in Hx. destruct Hx as [Hx|[<-|[]]]; auto.
        destruct (rd_conv _ _ _ _ _ RD1) as (lc & Nc & _). apply (node_in_ids _ _ _ Nc).
    - exists K, A. rewrite SA. split; [repeat f_equal; ring|]. split; auto. split; auto. split; auto.
      apply NoDup_app_intro; auto.
      + constructor; [intros []|constructor].
      + intros x Hx [E|[]]; destruct (NI x Hx); auto. }
  destruct SH as (K' & A' & SH & LK' & ZA' & ND' & IK'). rewrite SH. cbn [fst snd].
  apply reduce_of_mean.
  apply (mean_on_one_grown n (av_tree st) av_root_id (sort (av_tree st)) orth0 blank K' av_init_id [] A' [] (mkAttrs le e)); auto; try lia.
  - apply (SS n _ av_root_id). apply G.
  - intros x Hx. apply in_app_iff in Hx. destruct Hx as [Hx|[<-|[]]]; auto. apply X. apply (node_in_ids _ _ _ Ne).
  - apply X. auto.
  - apply (exact_old t (av_tree st) av_init_id (mkAttrs le e) DI (proj1 X) X av_root_id); auto; [apply (rd_grown _ _ _ _ _ RD)|apply G].
Qed.

(** A convergence sequence which ends straight towards the reference point: outside of contact the obstacle has no effect. *)
Theorem C75_head_on : forall obs init convs b e c, common_start init convs b e c -> scene obs ->
  Forall (fun o => 1 < ao_gamma o /\ c = direction (into o)) obs -> rsum (importance_of obs) = 1 ->
  exists s, avoid_sequence orth0 sort rad power tail weights_of default obs init convs = Ok s /\
    get_end_vector s = Ok (if default then c else e).
Proof.
  intros obs init convs b e c CS SC HO SI.
  destruct (loop_all obs init convs b e c CS SC) as (t0 & t & st & K & A & E0 & E1 & E2 & _ & RD & DI & Nr & le & Ne).
  destruct SC as (NE & FO & GO & HL). destruct CS as (_ & Pc & _).
  destruct (ps_unit _ _ _ _ Pc) as [Lcv Uc].
  assert (SN : seen obs = obs).
  { unfold seen. clear - HO. induction HO as [|o obs [Hg _] _ IH]; simpl; auto. rewrite IH. f_equal.
    unfold clamp_obstacle. rewrite (proj2 (Rltb_false _ _)) by lra. auto. }
  rewrite SN in E2.
  assert (ID : forall l ws k st0, Forall (faces n) l -> Forall (fun o => 1 < ao_gamma o /\ c = direction (into o)) l ->
     foldM (avoid_step rad power tail c) st0 (combine (seq k (length l)) (combine l ws)) = Ok st0).
  { induction l as [|o l IH]; intros ws k st0 F H; auto. destruct ws as [|w ws]; auto.
    pose proof (Forall_inv F) as F1. pose proof (Forall_inv_tail F) as F2. destruct (Forall_inv H) as [H1 H1']. pose proof (Forall_inv_tail H) as H2.
    cbn [length seq combine foldM].
    assert (ES : avoid_step rad power tail c st0 (k, (o, w)) = Ok st0).
    { destruct (step_base n o F1) as (bb & B & B0 & Li & Ni & Pi & Eb).
      assert (Dc : direction c = c) by (apply dirof_of_unit; auto).
      unfold avoid_step. cbv zeta in Eb. rewrite Eb.
      destruct (C70_continuation_weight n rad power (into o) c bb ltac:(lia) B Li Lcv Ni (unit_norm_neq _ Uc) Hpw)
        as (f & Ef & _ & _ & _ & _ & F2' & _).
      assert (An : angle_to (bs0 bb) c < rad).
      { unfold angle_to. rewrite Dc, H1'. change direction with dirof.
        pose proof (rad_range rad Hr). pose proof PI_RGT_0. apply (angle_lt bb); [apply B|apply dirof_unit; auto|lra|].
        rewrite B0. pose proof (cos_le_0 rad ltac:(lra)). lra. }
      rewrite Ef by lra. cbn [bind]. rewrite (proj2 (F2' An _ H1)); [|left; rewrite Dc; auto].
      rewrite (proj2 (Rleb_true 0 0)) by lra. auto. }
    rewrite ES. cbn [bind]. apply IH; auto. }
  rewrite ID in E2 by auto. injection E2 as <-.
  assert (EF : foldM (avoid_step rad power tail c) (mkAvoid t [] [])
    (combine (seq 0 (length (seen obs))) (combine (seen obs) (importance_of obs))) = Ok (mkAvoid t [] [])) by (rewrite SN; auto).
  rewrite (average_form obs init convs b c t0 t _ NE Pc E0 E1 EF). cbn [av_tree av_nodes av_weights].
  apply reduce_of_mean. destruct (rd_conv _ _ _ _ _ RD) as (lc & Nc & _). pose proof (rd_grown _ _ _ _ _ RD) as G.
  assert (EX : forall x a, node t x a -> exact_in t x (a_dir a)).
  { intros x a Hx p bp Ep Np. apply (DI p x); auto. }
  unfold shares. rewrite SI. destruct default; cbn [fst snd app rsum fold_right].
  - replace (1 - 0) with 1 by ring. replace (1 - (1 + 0)) with 0 by ring.
    apply (mean_on_one_grown n t av_root_id (sort t) orth0 blank [] av_conv_id [av_init_id] [] [0] (mkAttrs lc c)); auto; try lia.
    + apply (SS n _ av_root_id). apply G.
    + constructor; [intros [E|[]]; discriminate|]. constructor; [intros []|constructor].
    + intros x [<-|[<-|[]]]; [apply (node_in_ids _ _ _ Nc)|apply (node_in_ids _ _ _ Ne)].
    + apply EX; auto.
  - replace (1 - 0) with 1 by ring.
    apply (mean_on_one_grown n t av_root_id (sort t) orth0 blank [] av_init_id [] [] [] (mkAttrs le e)); auto; try lia.
    + apply (SS n _ av_root_id). apply G.
    + constructor; [intros []|constructor].
    + intros x [<-|[]]; apply (node_in_ids _ _ _ Ne).
    + apply EX; auto.
Qed.
End Average.

(** Converging straight down onto the floor: above it the averaged sequence ends straight down, in contact it does not
    enter the floor. *)
Example C75_case : exists init convs, common_start 2 init convs [1; 0] [0; 1] [0; -1] /\
  (exists s u, avoid_sequence (fun v => v) sort_by_level (PI / 2) 1 false (map (fun _ => 1)) true [floor_obstacle (1/2)] init convs = Ok s /\
     get_end_vector s = Ok u /\ unitv u /\ dot [0; -1] u <= 0) /\
  (exists s, avoid_sequence (fun v => v) sort_by_level (PI / 2) 1 false (map (fun _ => 1)) true [floor_obstacle 2] init convs = Ok s /\
     get_end_vector s = Ok [0; -1]) /\
  (exists s, avoid_sequence (fun v => v) sort_by_level (PI / 2) 1 false (map (fun _ => 0)) true [floor_obstacle 2] init convs = Ok s /\
     get_end_vector s = Ok [0; 1]).
Proof.
  pose proof PI_RGT_0.
  assert (V0 : norm [1; 0] = 1) by (apply vec_norm_1; lra). assert (V1 : norm [0; 1] = 1) by (apply vec_norm_1; lra).
  assert (V2 : norm [0; -1] = 1) by (apply vec_norm_1; lra).
  destruct (axis_pair [1; 0] [0; 1] 1 0 0 1) as (r0 & _ & P0); auto; try lra; try axis; try (apply dir_unit2; lra).
  destruct (axis_pair [1; 0] [0; -1] 1 0 0 (-1)) as (rc & _ & Pc); auto; try lra; try axis; try (apply dir_unit2; lra).
  exists [r0], [rc].
  assert (CS : common_start 2 [r0] [rc] [1; 0] [0; 1] [0; -1]).
  { split; auto. split; auto. unfold stops. simpl. repeat split; auto; try (apply related_right; [axis|lra]); lia. }
  assert (FF : forall g, faces 2 (floor_obstacle g)).
  { intros g. repeat split; unfold unitv, inward, into, dot; simpl; lra. }
  assert (IN : forall g, inward (floor_obstacle g) = [0; -1]).
  { intros g. unfold inward. cbn [floor_obstacle ao_boundary ao_normal]. unfold vscale. simpl. repeat f_equal; ring. }
  assert (SO : sorts sort_by_level) by (intros n t r; apply sort_by_level_sorted).
  assert (SN : seen [floor_obstacle (1/2)] = [floor_obstacle 1]).
  { unfold seen, floor_obstacle. cbn [map]. unfold clamp_obstacle. cbn [ao_gamma ao_boundary negb].
    rewrite (proj2 (Rltb_true (1/2) 1)) by lra. auto. }
  split; auto. split; [|split].
  - destruct (C75_contact 2 (PI / 2) 1 false (fun v => v) sort_by_level (map (fun _ => 1)) true ltac:(lia) (or_introl eq_refl) ltac:(lra)
      ltac:(auto) SO [floor_obstacle (1/2)] [r0] [rc] [1; 0] [0; 1] [0; -1] 0 (floor_obstacle 1) CS) as (s & u & E & Eu & Uu & Du).
    + split; [discriminate|]. split; [constructor; auto|]. split; [constructor; auto; simpl; lra|reflexivity].
    + unfold importance_of. rewrite SN. simpl. split; [simpl; lia|]. split; auto. intros [|[|j]] Hj; [lia|auto|auto].
    + rewrite SN. auto.
    + simpl. lra.
    + right. rewrite IN. replace (dot [0; -1] [0; -1]) with 1 by (unfold dot; simpl; ring). rewrite Rabs_R1. lra.
    + exists s, u. rewrite IN, cos_PI2 in Du. auto.
  - apply (C75_head_on 2 (PI / 2) 1 false (fun v => v) sort_by_level (map (fun _ => 1)) true ltac:(lia) (or_introl eq_refl) ltac:(lra)
      ltac:(auto) SO [floor_obstacle 2] [r0] [rc] [1; 0] [0; 1] [0; -1] CS).
    + split; [discriminate|]. split; [constructor; auto|]. split; [constructor; auto; simpl; lra|reflexivity].
    + constructor; auto. split; [simpl; lra|]. symmetry. unfold into. cbn [floor_obstacle ao_boundary ao_ref]. apply dir_unit2. lra.
    + unfold importance_of. simpl. lra.
  - apply (C75_without_importance 2 (PI / 2) 1 false (fun v => v) sort_by_level (map (fun _ => 0)) true ltac:(lia) (or_introl eq_refl) ltac:(lra)
      ltac:(auto) SO [floor_obstacle 2] [r0] [rc] [1; 0] [0; 1] [0; -1] CS).
    + split; [discriminate|]. split; [constructor; auto|]. split; [constructor; auto; simpl; lra|reflexivity].
    + unfold importance_of. simpl. constructor; auto.
Qed.
Print Assumptions C75_contact.
Print Assumptions C75_defined.
Print Assumptions C75_without_importance.
Print Assumptions C75_head_on.
