(** Lemmas about directions in a base and their tangents, and about trees without opposite
    neighbours. *)
Require Import Reals List Bool Lra Lia ZArith.
From Verif Require Import Base Vec Angle Pow RotModel Spec RotProofs TreeModel TreeSpec TreeProofs TreeWeights TreeReduce
  TreeGeom TreeCases PropTree WeightModel AvoidModel ProjModel PropProject PropTangent PropContact ConvModel ConvProofs RotAvoidModel.
Import ListNotations.
Open Scope R_scope.

Definition base_ok (n : nat) (b : dbase) : Prop :=
  length (bs0 b) = n /\ length (bs1 b) = n /\ unitv (bs0 b) /\ unitv (bs1 b) /\ dot (bs0 b) (bs1 b) = 0.
Lemma base_opp_ok n b : base_ok n b -> base_ok n (base_opp b).
Proof.
  intros (A & B & C & D & E). unfold base_opp. repeat split; cbn [bs0 bs1]; try (rewrite length_vscale; auto);
    try (apply unit_opp; auto). rewrite dot_vscale_l, dot_vscale_r, E. ring.
Qed.

(** The second vector of a base extends to a choice of second vectors. *)
Lemma base_pick n b : (2 <= n)%nat -> base_ok n b -> exists pick, picks n pick /\ pick (bs0 b) = bs1 b.
Proof.
  intros Hn (A & B & C & D & E).
  exists (fun d => if list_eq_dec Req_EM_T d (bs0 b) then bs1 b
                   else match perp_first_two d with Ok p => p | Err _ => [] end).
  split.
  - intros d Ld Ud. destruct (list_eq_dec Req_EM_T d (bs0 b)) as [->|]; auto.
    destruct (perp_first_two_ok n d Ld Hn) as (p & -> & K). auto.
  - destruct (list_eq_dec Req_EM_T (bs0 b) (bs0 b)); [auto|contradiction].
Qed.
Lemma angle_in_pick b pick v : pick (bs0 b) = bs1 b -> norm v <> 0 ->
  angle_in b v = Ok (angle_space pick (bs0 b) (dirof v)).
Proof.
  intros E N. unfold angle_in. destruct (Req_EM_T (norm v) 0); [contradiction|]. f_equal.
  unfold angle_space. rewrite E. reflexivity.
Qed.

(** What the angle vector of a direction is. *)
Record angle_of_dir (n : nat) (b : dbase) (u a : vec) : Prop := {
  ad_len : length a = n;
  ad_perp : dot (bs0 b) a = 0;
  ad_norm : norm a = acos (dot (bs0 b) u);
  ad_back : vector_from_angle (bs0 b) a = u;
  ad_log : dot (bs0 b) u <> -1 -> a = log_map (bs0 b) u;
  ad_def : a = angle_space (fun _ => bs1 b) (bs0 b) u }.
Lemma angle_in_ok n b v : (2 <= n)%nat -> base_ok n b -> length v = n -> norm v <> 0 ->
  exists a, angle_in b v = Ok a /\ angle_of_dir n b (dirof v) a.
Proof.
  intros Hn B Lv Nv. destruct (base_pick n b Hn B) as (pick & P & Eb).
  rewrite (angle_in_pick b pick v Eb Nv). eexists. split; [reflexivity|].
  destruct B as (L0 & L1 & U0 & U1 & O).
  pose proof (dirof_unit v Nv) as Uv. assert (Ld : length (dirof v) = n) by (rewrite dirof_length; auto).
  destruct (angle_space_spec n pick P (bs0 b) (dirof v) L0 Ld U0 Uv) as (A & D & E).
  constructor; auto.
  - destruct (Req_dec (dot (bs0 b) (dirof v)) (-1)) as [M|M].
    + rewrite (unit_dot_m1 (bs0 b) (dirof v)) by (auto; congruence).
      unfold vector_from_angle. rewrite (unit_dot_m1 (bs0 b) (dirof v)) in E by (auto; congruence).
      rewrite E. unfold angle_space.
      assert (Q : dot (bs0 b) (opp (bs0 b)) = -1).
      { rewrite dot_vscale_r. unfold unitv in U0. rewrite U0. ring. }
      rewrite Q. replace (vsub (opp (bs0 b)) (vscale (-1) (bs0 b))) with (vzero n) by (vext; try (rewrite L0; auto); ring).
      rewrite norm_vzero. destruct (Req_EM_T 0 0); [|lra].
      rewrite (proj2 (Rltb_true (-1) 0)) by lra.
      replace (acos (-1)) with PI by (replace (-1) with (-(1)) by ring; rewrite acos_opp, acos_1; ring).
      pose proof PI_RGT_0. destruct (Req_EM_T PI 0); [lra|]. rewrite cos_PI, sin_PI.
      rewrite Eb. vext. field. auto.
    + apply (vector_of_angle_of n pick P); auto.
  - intros M. apply angle_space_log; auto.
  - unfold angle_space. rewrite Eb. auto.
Qed.
Lemma angle_of_dir_inj n b u v a : angle_of_dir n b u a -> angle_of_dir n b v a -> u = v.
Proof. intros A B. rewrite <- (ad_back _ _ _ _ A). apply (ad_back _ _ _ _ B). Qed.
Lemma norm_vsub_0 a b : length a = length b -> (norm (vsub a b) = 0 <-> a = b).
Proof.
  intros L. split.
  - intros Z. apply dot_vsub_self_eq; auto. apply norm_eq_0_dot. auto.
  - intros ->. apply norm_eq_0_dot. rewrite dot_vsub_l, !dot_vsub_r. ring.
Qed.

(** From inside the circle, every ray meets it. *)
Lemma circle_far_inside n a0 ar tmp : length a0 = n -> length ar = n -> norm (vsub a0 ar) <> 0 ->
  norm ar < tmp ->
  exists t, 0 < t /\ circle_far ar (vsub a0 ar) tmp = Some (vadd ar (vscale t (vsub a0 ar))) /\
    norm (vadd ar (vscale t (vsub a0 ar))) = tmp.
Proof.
  intros L0 Lr Nd Ht. pose proof (norm_nonneg ar) as Nr. unfold circle_far. set (d := vsub a0 ar) in *.
  set (A := dot d d). set (B := 2 * dot d ar). set (C := dot ar ar - tmp * tmp).
  assert (PA : 0 < A).
  { unfold A. apply norm_neq_0_dot in Nd. pose proof (dot_self_nonneg d). lra. }
  assert (NC : C < 0) by (unfold C; rewrite <- norm_sq; nra).
  set (D := B * B - 4 * A * C).
  assert (PD : B * B < D) by (unfold D; nra).
  pose proof (Rle_0_sqr B) as SB. unfold Rsqr in SB.
  rewrite (proj2 (Rltb_false D 0)) by lra.
  assert (RD : Rabs B < sqrt D).
  { replace (Rabs B) with (sqrt (B * B)) by apply sqrt_Rsqr_abs. apply sqrt_lt_1; lra. }
  set (t := (- B + sqrt D) / (2 * A)).
  assert (T0 : 0 < t).
  { unfold t. apply Rdiv_lt_0_compat; [|lra]. pose proof (Rle_abs B). lra. }
  assert (Root : A * t * t + B * t + C = 0).
  { assert (Q : sqrt D * sqrt D = D) by (apply sqrt_sqrt; lra).
    assert (ST : sqrt D = 2 * A * t + B) by (unfold t; field; lra).
    rewrite ST in Q. unfold D in Q. nra. }
  exists t. split; auto. split; auto.
  assert (N2 : dot (vadd ar (vscale t d)) (vadd ar (vscale t d)) = tmp * tmp).
  { rewrite dot_vadd_l, !dot_vadd_r, !dot_vscale_l, !dot_vscale_r, (dot_comm ar d).
    unfold A, B, C in Root. nra. }
  unfold norm. rewrite N2. apply sqrt_square. lra.
Qed.

(** The tangent direction exists and lies on the circle. *)
Lemma tangent_direction_ok n b u v a0 ar rad : base_ok n b -> 0 <= rad <= PI ->
  angle_of_dir n b u a0 -> angle_of_dir n b v ar -> norm a0 <= rad \/ norm ar < rad ->
  exists a, get_tangent_convergence_direction (bs1 b) a0 ar rad = Ok a /\ length a = n /\
    dot (bs0 b) a = 0 /\ norm a = rad /\
    (norm a0 <= rad -> u <> v -> exists s, 0 <= s /\ a = vadd a0 (vscale s (vsub a0 ar)) /\
       (norm a0 = rad -> norm ar <= rad -> s = 0)) /\
    (u = v -> a = vscale rad (bs1 b)).
Proof.
  intros (L0 & L1 & U0 & U1 & O) Hr A0 A1 Hin.
  pose proof (ad_len _ _ _ _ A0) as La. pose proof (ad_len _ _ _ _ A1) as Lr.
  pose proof (ad_perp _ _ _ _ A0) as Oa. pose proof (ad_perp _ _ _ _ A1) as Or.
  unfold get_tangent_convergence_direction.
  destruct (Req_EM_T (norm (vsub a0 ar)) 0) as [Z|NZ].
  - apply norm_vsub_0 in Z; [|congruence]. exists (vscale rad (bs1 b)). split; auto.
    split; [rewrite length_vscale; auto|]. split; [rewrite dot_vscale_r, O; ring|].
    split; [rewrite norm_vscale, (proj1 (unit_norm _) U1), Rabs_pos_eq; lra|]. split; auto.
    intros _ NE. exfalso. apply NE. subst ar. apply (angle_of_dir_inj n b u v a0 A0 A1).
  - assert (NE : u <> v).
    { intros ->. apply NZ. apply norm_vsub_0; [congruence|]. rewrite (ad_def _ _ _ _ A0), (ad_def _ _ _ _ A1). auto. }
    destruct (Rle_dec (norm a0) rad) as [Hin0|Hout].
    + destruct (circle_far_spec n a0 ar rad La Lr NZ (proj1 Hr) Hin0) as (s & Hs & -> & Nc & K).
      exists (vadd a0 (vscale s (vsub a0 ar))). split; auto. split; [autorewrite with vlen; lia|].
      split; [rewrite dot_vadd_r, dot_vscale_r, dot_vsub_r, Oa, Or; ring|]. split; auto. split; [|intros E; contradiction].
      intros _ _. exists s. auto.
    + destruct Hin as [Hin|Hin]; [lra|].
      destruct (circle_far_inside n a0 ar rad La Lr NZ Hin) as (t & Ht & -> & Nc).
      eexists. split; [reflexivity|]. split; [autorewrite with vlen; lia|].
      split; [rewrite dot_vadd_r, dot_vscale_r, dot_vsub_r, Oa, Or; ring|]. split; auto. split; [|intros E; contradiction].
      intros; lra.
Qed.
Lemma vector_from_angle_ok n b a : base_ok n b -> length a = n -> dot (bs0 b) a = 0 ->
  length (vector_from_angle (bs0 b) a) = n /\ unitv (vector_from_angle (bs0 b) a) /\
  dot (bs0 b) (vector_from_angle (bs0 b) a) = cos (norm a).
Proof. intros (L0 & _ & U0 & _) La O. apply vector_from_angle_spec; auto. Qed.

(** Angles of directions to the first vector of the base. *)
Lemma angle_le b u r : unitv (bs0 b) -> unitv u -> 0 <= r <= PI ->
  (acos (dot (bs0 b) u) <= r <-> cos r <= dot (bs0 b) u).
Proof.
  intros U0 Uu Hr. pose proof (unit_dot_bounds _ _ U0 Uu) as B. split.
  - intros H. rewrite <- (cos_acos (dot (bs0 b) u)) by auto. pose proof (acos_bound (dot (bs0 b) u)).
    destruct (Req_dec (acos (dot (bs0 b) u)) r) as [->|]; [lra|]. left. apply cos_decreasing_1; lra.
  - intros H. apply acos_le_of_cos; auto.
Qed.
Lemma angle_lt b u r : unitv (bs0 b) -> unitv u -> 0 <= r <= PI ->
  (acos (dot (bs0 b) u) < r <-> cos r < dot (bs0 b) u).
Proof.
  intros U0 Uu Hr. pose proof (unit_dot_bounds _ _ U0 Uu) as B. split.
  - intros H. rewrite <- (cos_acos (dot (bs0 b) u)) by auto. pose proof (acos_bound (dot (bs0 b) u)).
    apply cos_decreasing_1; lra.
  - intros H. apply acos_lt_of_cos; auto.
Qed.

(** The pseudo tangent and the intermediate direction. *)
Lemma pseudo_tangent_ok n rad tail conv ref b : (2 <= n)%nat -> base_ok n b -> 0 <= rad <= PI ->
  length conv = n -> length ref = n -> norm conv <> 0 -> norm ref <> 0 ->
  (rad <= acos (dot (bs0 b) (dirof conv)) -> tail = false ->
   get_pseudo_tangent rad tail conv ref b = Ok conv) /\
  (acos (dot (bs0 b) (dirof conv)) < rad \/ tail = true /\ acos (dot (bs0 b) (dirof ref)) < rad ->
   exists t, get_pseudo_tangent rad tail conv ref b = Ok t /\ length t = n /\ unitv t /\
     dot (bs0 b) t = cos rad).
Proof.
  intros Hn B Hr Lc Lr Nc Nr.
  destruct (angle_in_ok n b conv Hn B Lc Nc) as (ac & Ec & Ac). destruct (angle_in_ok n b ref Hn B Lr Nr) as (ar & Er & Ar).
  unfold get_pseudo_tangent. rewrite Ec, Er. cbn [bind]. rewrite (ad_norm _ _ _ _ Ac). split.
  - intros H ->. rewrite (proj2 (Rleb_true _ _)) by auto. auto.
  - intros H.
    assert (Q : Rleb rad (acos (dot (bs0 b) (dirof conv))) && negb tail = false).
    { destruct H as [H|[-> _]]; [rewrite (proj2 (Rleb_false _ _)) by auto; auto|apply andb_false_r]. }
    rewrite Q.
    destruct (tangent_direction_ok n b _ _ ac ar rad B Hr Ac Ar) as (a & -> & La & Oa & Na & _).
    { rewrite (ad_norm _ _ _ _ Ac), (ad_norm _ _ _ _ Ar). destruct H as [H|[_ H]]; [left; lra|right; auto]. }
    cbn [bind]. eexists. split; [reflexivity|]. rewrite <- Na. apply vector_from_angle_ok; auto.
Qed.
Lemma intermediate_ok n conv ref b : (2 <= n)%nat -> base_ok n b ->
  length conv = n -> length ref = n -> norm conv <> 0 -> norm ref <> 0 -> 0 < dot (bs0 b) (dirof ref) ->
  exists i, get_intermediate_convergence_direction conv ref b = Ok i /\ length i = n /\ unitv i /\
    dot (bs0 b) i = 0 /\ (dot (bs0 b) (dirof conv) = 0 -> i = dirof conv).
Proof.
  intros Hn B Lc Lr Nc Nr Hp. pose proof PI_RGT_0 as HP.
  destruct (angle_in_ok n b conv Hn B Lc Nc) as (ac & Ec & Ac). destruct (angle_in_ok n b ref Hn B Lr Nr) as (ar & Er & Ar).
  pose proof B as (_ & _ & U0 & _).
  assert (Ir : norm ar < PI * / 2).
  { rewrite (ad_norm _ _ _ _ Ar). apply angle_lt; auto; [apply dirof_unit; auto|lra|].
    change (PI * / 2) with (PI / 2). rewrite cos_PI2. auto. }
  unfold get_intermediate_convergence_direction. rewrite Ec, Er. cbn [bind].
  destruct (tangent_direction_ok n b _ _ ac ar (PI * / 2) B ltac:(lra) Ac Ar (or_intror Ir)) as (a & -> & La & Oa & Na & K & _).
  cbn [bind]. eexists. split; [reflexivity|].
  destruct (vector_from_angle_ok n b a B La Oa) as (A1 & A2 & A3). split; auto. split; auto.
  split; [rewrite A3, Na; apply cos_PI2|]. intros Z.
  assert (Nac : norm ac = PI * / 2) by (rewrite (ad_norm _ _ _ _ Ac), Z; apply acos_0).
  destruct K as (s & _ & -> & Ks); [lra| |].
  { intros E. rewrite <- E in Hp. lra. }
  rewrite Ks by lra. pose proof (ad_len _ _ _ _ Ac). pose proof (ad_len _ _ _ _ Ar).
  replace (vadd ac (vscale 0 (vsub ac ar))) with ac by (vext; ring). apply (ad_back _ _ _ _ Ac).
Qed.

(** A direction orthogonal to [d] is not opposite to one which is not. *)
Lemma perp_not_opposite d u v : unitv d -> unitv u -> unitv v -> length u = length v -> dot d u = 0 -> dot d v <> 0 ->
  dot u v <> -1.
Proof.
  intros Ud Uu Uv L Z NZ E. apply NZ. rewrite (unit_dot_m1 u v L Uu Uv E), dot_vscale_r, Z. ring.
Qed.
(** Unit vectors on different sides are not equal within the tolerance. *)
Lemma vscale_m1_dot u v : dot u (opp v) = - dot u v.
Proof. rewrite dot_vscale_r. ring. Qed.

(** ** Trees without opposite neighbours *)
Record grown (n : nat) (t : tree) (r : nid) : Prop := {
  gr_rooted : rooted_tree n t r;
  gr_noopp : no_opposite t }.
Lemma sound_grown n t r : sound n t r -> grown n t r.
Proof. intros [W NO _]. constructor; auto. Qed.
Lemma add_node_grown n t r x d p a : grown n t r -> node t p a -> (S (a_level a) < 100)%nat ->
  norm d <> 0 -> ~ In x (ids t) -> length d = n -> dot (a_dir a) (dirof d) <> -1 ->
  exists t', add_node t x d (Some p) None None = (t', Ok tt) /\ grown n t' r /\ ids t' = ids t ++ [x] /\
    keeps t t' /\ node t' x (mkAttrs (S (a_level a)) (dirof d)) /\
    (forall u v, edge t' u v <-> edge t u v \/ (u = p /\ v = x)).
Proof.
  intros [W NO] Hp Hl Hd Hx Ld R1.
  destruct (C10_insertion_accepted n t r x d p a W Hp Hl Hd) as (t' & E); auto.
  { intros b Hb. apply Hx. apply (node_in_ids t x b Hb). }
  destruct (C10_insertion_effect n t r x d p a t' W Hp E) as (N & ED & _).
  destruct (add_node_success n t r x d p None None t' W E) as (a0 & _ & _ & _ & _ & Et').
  exists t'. split; auto.
  assert (W' : rooted_tree n t' r) by (eapply add_node_rooted; eauto).
  assert (OLD : forall u v b c, edge t u v -> node t' u b -> node t' v c -> node t u b /\ node t v c).
  { intros u v b c Eu Nb Nc. destruct (edge_ids n t r W u v Eu) as [Iu Iv].
    apply N in Nb. apply N in Nc. split.
    - destruct Nb as [?|[-> _]]; auto. contradiction.
    - destruct Nc as [?|[-> _]]; auto. contradiction. }
  assert (NEW : forall b c, node t' p b -> node t' x c -> b = a /\ c = mkAttrs (S (a_level a)) (direction d)).
  { intros b c Nb Nc. split.
    - apply (node_unique n t' r W' p); auto. apply N. left; auto.
    - apply (node_unique n t' r W' x); auto. apply N. right; auto. }
  split; [constructor; auto|].
  - intros u v b c Eu Nb Nc. apply ED in Eu. destruct Eu as [Eu|[-> ->]].
    + destruct (OLD u v b c Eu Nb Nc). eapply NO; eauto.
    + destruct (NEW b c Nb Nc) as [-> ->]. exact R1.
  - split; [rewrite Et'; unfold ids; simpl; rewrite map_app; auto|].
    split; [intros y b H; apply N; auto|]. split; [apply N; auto|]. auto.
Qed.
Lemma set_root_grown n x d : (2 <= n)%nat -> length d = n -> norm d <> 0 ->
  exists t, set_root empty_tree x d = Ok t /\ grown n t x /\ ids t = [x] /\ node t x (mkAttrs 0 (dirof d)) /\
    (forall u v, ~ edge t u v).
Proof.
  intros Hn Ld Nd.
  assert (E : exists t, set_root empty_tree x d = Ok t).
  { unfold set_root. pose proof (dirof_unit d Nd) as U.
    destruct (from_directions_spec n d d) as (q & Eq & _); auto.
    - unfold unitv in U. lra.
    - rewrite Eq. eexists; reflexivity. }
  destruct E as (t & E). exists t. split; auto.
  destruct (set_root_rooted n x d t Hn Ld E) as (W & N & ED).
  split; [constructor; auto; intros p y a b Ee; unfold edge in Ee; rewrite ED in Ee; contradiction|].
  split; [unfold ids; rewrite N; auto|]. split; [unfold node; rewrite N; left; auto|].
  intros u v Ee. unfold edge in Ee. rewrite ED in Ee. contradiction.
Qed.

(** All weight on one listed node, exact along its own edge only. *)
Lemma mean_on_one_grown n t r sl orth0 st K1 m K2 A B a : grown n t r -> (2 <= n)%nat ->
  level_sorted t sl -> (forall v, length (orth0 v) = length v) ->
  NoDup (K1 ++ m :: K2) -> (forall x, In x (K1 ++ m :: K2) -> In x (ids t)) -> node t m a ->
  (forall p b, edge t p m -> node t p b -> a_dir b = a_dir a \/ allclose (a_dir b) (a_dir a) = false) ->
  length K1 = length A -> length K2 = length B -> Forall (fun w => w = 0) A -> Forall (fun w => w = 0) B ->
  get_weighted_mean orth0 t st sl (K1 ++ m :: K2) (A ++ 1 :: B) = Ok (a_dir a).
Proof.
  intros [W NO] Hn SL OL ND IN Na HE LA LB FA FB.
  pose proof (node_in_ids t m a Na) as Hmi.
  assert (Da : dirn t m = a_dir a) by (unfold dirn; rewrite (proj2 (get_attrs_node n t r W m a) Na); auto).
  rewrite <- Da.
  apply (mean_single n t r W Hn (no_opposite_dirn n t r W NO) sl SL orth0 OL
    (fun y => if nid_eq_dec y m then 1 else 0) m Hmi); auto.
  - rewrite !app_length. simpl. lia.
  - intros y. rewrite combine_app by auto. cbn [combine].
    assert (Z : forall (K : list nid) (A : list R), length K = length A -> Forall (fun w => w = 0) A -> forall x w, In (x, w) (combine K A) -> w = 0).
    { clear. intros K A _ F x w I. apply in_combine_r in I. rewrite Forall_forall in F. auto. }
    set (l := combine K1 A ++ (m, 1) :: combine K2 B).
    assert (NDl : NoDup (map fst l)).
    { unfold l. rewrite map_app. cbn [map fst]. rewrite !combine_fst by auto. auto. }
    destruct (nid_eq_dec y m) as [->|Ny].
    + symmetry. apply own_of_in; auto. apply in_app_iff. right. left. auto.
    + destruct (in_dec nid_eq_dec y (map fst l)) as [I|I].
      * apply in_map_iff in I. destruct I as ((y', w) & E & I). simpl in E. subst y'.
        rewrite (own_of_in l y w NDl I). unfold l in I. apply in_app_iff in I. destruct I as [I|[I|I]].
        -- symmetry. eapply (Z K1 A); eauto.
        -- congruence.
        -- symmetry. eapply (Z K2 B); eauto.
      * rewrite own_of_out; auto.
  - intros p Ep. destruct (edge_ids n t r W p m Ep) as [Hp _].
    destruct (wf_attrs n t r W p Hp) as (b & Gb & Nb & _).
    assert (Db : dirn t p = a_dir b) by (unfold dirn; rewrite Gb; auto).
    rewrite Da, Db. unfold exact_pair. destruct (HE p b Ep Nb); eauto.
Qed.
