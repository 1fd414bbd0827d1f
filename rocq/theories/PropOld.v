(** C150, C151: the tangent direction and the earlier evaluation of the avoider. *)
Require Import Reals List Bool Lra Lia ZArith Classical_Prop.
From Verif Require Import Base Vec Angle Pow RotModel Spec RotProofs SeqProofs TreeModel TreeSpec
  TreeProofs TreeWeights TreeReduce TreeGeom TreeCases PropTree WeightModel WeightProofs PropWeights
  AvoidModel PropAvoid ProjModel PropProject TangentProofs PropTangent PropContact DescentModel PropDescent OldModel.
Import ListNotations.
Open Scope R_scope.

(** Two successive directions: not opposite, and equal or told apart by [np.allclose]. *)
Definition linked (a b : vec) : Prop :=
  dot (direction a) (direction b) <> -1 /\
  (direction a = direction b \/ allclose (direction a) (direction b) = false).

(** ** The tree *)
Definition good_tree (n : nat) (t : tree) : Prop :=
  rooted_tree n t base_vel_id /\ no_opposite t /\ distinguishable t.
Lemma good_add n t x d p a : good_tree n t -> node t p a -> (S (a_level a) < 100)%nat -> norm d <> 0 ->
  ~ In x (ids t) -> length d = n -> dot (a_dir a) (direction d) <> -1 ->
  (a_dir a = direction d \/ allclose (a_dir a) (direction d) = false) ->
  exists t', lift (add_node t x d (Some p) None None) = Ok t' /\ good_tree n t' /\ ids t' = ids t ++ [x] /\
    node t' x (mkAttrs (S (a_level a)) (direction d)) /\ (forall y b, node t y b -> node t' y b).
Proof.
  intros (W & NO & DI) Np Lv Nd Fr Ld O D.
  destruct (add_ok n t base_vel_id x d p a W Np Lv Nd Fr Ld) as (t' & E & W' & I' & N' & K').
  exists t'. split; [auto|]. change (vdiv d (norm d)) with (direction d) in N'. split; [|auto].
  unfold lift in E. destruct (add_node t x d (Some p) None None) as (t1, [u|]) eqn:Ea; [|discriminate].
  destruct u. injection E as ->. destruct (add_node_success n t base_vel_id x d p None None t' W Ea) as (a' & _ & _ & Np' & _ & Et).
  pose proof (node_unique n t base_vel_id W p a a' Np Np') as <-.
  assert (Old : forall q y, edge t' q y -> edge t q y \/ (q = p /\ y = x)).
  { intros q y Ed. rewrite Et in Ed. unfold edge in *. simpl in Ed. apply in_app_iff in Ed.
    destruct Ed as [Ed|[Ed|[]]]; [auto|]. injection Ed as <- <-. auto. }
  assert (Back : forall y b, y <> x -> node t' y b -> node t y b).
  { intros y b Ny Nb. rewrite Et in Nb. unfold node in *. simpl in Nb. apply in_app_iff in Nb.
    destruct Nb as [Nb|[Nb|[]]]; [auto|]. injection Nb as <- _. contradiction. }
  assert (Ends : forall q y, edge t q y -> q <> x /\ y <> x).
  { intros q y Ed. destruct (edge_ids n t base_vel_id W q y Ed). split; intros ->; contradiction. }
  assert (Px : p <> x) by (intros ->; apply Fr; eapply node_in_ids; eauto).
  split; [auto|]. split; intros q y b c Ed Nb Nc.
  - destruct (Old q y Ed) as [Eo|[-> ->]].
    + destruct (Ends q y Eo). eapply NO; eauto.
    + rewrite (node_unique n t' base_vel_id W' p b a Nb (K' _ _ Np)).
      rewrite (node_unique n t' base_vel_id W' x c _ Nc N'). exact O.
  - destruct (Old q y Ed) as [Eo|[-> ->]].
    + destruct (Ends q y Eo). eapply DI; eauto.
    + rewrite (node_unique n t' base_vel_id W' p b a Nb (K' _ _ Np)).
      rewrite (node_unique n t' base_vel_id W' x c _ Nc N'). exact D.
Qed.

Section Props.
Variable orth0 : vec -> vec.
Variable angle_of : vec -> vec -> vec.
Variable projected_tangent : vec -> vec -> vec -> R -> res vec.
Variable sort : tree -> list nid.
Variables (power radius : R).
Variable weights_of : list R -> list R.
Hypothesis orth_length : forall v, length (orth0 v) = length v.
Hypothesis sort_levels : forall n t r, rooted_tree n t r -> level_sorted t (sort t).
Hypothesis power_nonneg : 0 <= power.

(** The velocity [v] led through the tangents of [steps] (normal, reference, id) is [e]: the first
    with radius [rad], all others with the radius of the avoider. *)
Inductive led (n : nat) : R -> vec -> list (vec * vec * nat) -> vec -> Prop :=
| led_nil : forall rad v, led n rad v [] v
| led_cons : forall rad v nn r k steps d e, projected_tangent v nn r rad = Ok d -> length d = n -> norm d <> 0 ->
    linked v d -> led n radius d steps e -> led n rad v ((nn, r, k) :: steps) e.

Lemma led_inv n rad v nn r k steps e : led n rad v ((nn, r, k) :: steps) e ->
  exists d, projected_tangent v nn r rad = Ok d /\ length d = n /\ norm d <> 0 /\ linked v d /\ led n radius d steps e.
Proof. inversion 1. eauto 10. Qed.
Lemma led_nil_inv n rad v e : led n rad v [] e -> e = v.
Proof. inversion 1. auto. Qed.

Lemma old_branch_ok n obs comp : forall steps tt v parent a rad e, (2 <= n)%nat -> good_tree n tt ->
  node tt parent a -> a_dir a = direction v -> (a_level a + length steps < 100)%nat -> led n rad v steps e ->
  NoDup (map snd steps) -> (forall s, In s steps -> ~ In (step_key obs comp s) (ids tt)) ->
  exists tt', old_branch projected_tangent radius tt obs comp v parent rad steps = Ok tt' /\ good_tree n tt' /\
    ids tt' = ids tt ++ map (step_key obs comp) steps /\
    (forall x, node tt' (match rev steps with [] => parent | s :: _ => step_key obs comp s end) x -> a_dir x = direction e) /\
    (forall y b, node tt y b -> node tt' y b).
Proof.
  induction steps as [|((nn, r), k) steps IH]; intros tt v parent a rad e Hn G Np Da Lv L ND Fr.
  - apply led_nil_inv in L. subst e. exists tt. cbn [old_branch map rev]. rewrite app_nil_r. split; [auto|]. split; [auto|].
    split; [auto|]. split; [|auto]. intros x Nx. rewrite (node_unique n tt base_vel_id (proj1 G) parent x a Nx Np). auto.
  - destruct (led_inv _ _ _ _ _ _ _ _ L) as (d & Et & Ld & Nd & (O & D) & L'). cbn [old_branch]. rewrite Et. cbn [bind].
    cbn [length] in Lv.
    destruct (good_add n tt (node_key obs comp (Z.of_nat k)) d parent a G Np ltac:(lia) Nd) as (t1 & E1 & G1 & I1 & N1 & K1); auto.
    { apply (Fr _ (or_introl eq_refl)). }
    { rewrite Da. auto. }
    { rewrite Da. auto. }
    rewrite E1. cbn [bind]. inversion ND as [|x l Nk ND']; subst.
    destruct (IH t1 d (node_key obs comp (Z.of_nat k)) _ radius e Hn G1 N1 eq_refl) as (t2 & E2 & G2 & I2 & N2 & K2); auto.
    { cbn [a_level]. lia. }
    { intros s I J. rewrite I1 in J. apply in_app_iff in J. destruct J as [J|[J|[]]].
      - apply (Fr s (or_intror I) J).
      - unfold step_key, node_key in J. injection J as J. apply Nat2Z.inj in J. apply Nk. cbn [snd]. rewrite J. apply in_map. auto. }
    exists t2. split; [auto|]. split; [auto|]. split; [rewrite I2, I1, <- app_assoc; auto|]. split; [|auto].
    intros x Nx. apply N2. cbn [rev] in Nx. destruct (rev steps) as [|s l]; exact Nx.
Qed.

(** ** Weights *)
Lemma plain_weights position base t gs ws : well_defined position t ->
  tree_gamma_and_weights angle_of position base power t = Ok (gs, ws) ->
  length ws = length (m_comps t) /\ nonneg ws /\ 0 <= rsum ws <= 1.
Proof.
  intros (Hr & _) Ew. unfold tree_gamma_and_weights in Ew.
  destruct (compute_weights_from_distances _ 1 false) as [dw|]; [|discriminate]. cbn [bind] in Ew.
  destruct (get_component t (m_root t)) as [root|]; [|discriminate]. cbn [bind] in Ew.
  destruct (tree_gammas position t) as [|g0 gl] eqn:Eg; [discriminate|]. rewrite <- Eg in *.
  destruct (C22_rotation_weight angle_of (c_normal root position) (c_refdir root position) base
              (PI * / 2) power (PI * / 2) power_nonneg) as (f & Ef & F1 & F2 & _).
  rewrite Ef in Ew. cbn [bind] in Ew. set (rw := f (rmin_list (tree_gammas position t))) in *.
  assert (Hrw : 0 <= rw <= 1).
  { unfold rw. destruct (Rle_lt_dec (rmin_list (tree_gammas position t)) 1) as [Q|Q]; [rewrite F1; lra|].
    destruct (F2 _ Q) as [A B]. split; [auto|]. eapply Rle_trans; [exact B|]. rewrite <- Rinv_1. apply Rinv_le_contravar; lra. }
  destruct (C23_component_weights (tree_gammas position t) rw) as (gs' & w & E & Lw & Nw & Sw & _); [congruence|auto|].
  rewrite E in Ew. injection Ew as <- <-. split; [|split; [auto|rewrite Sw; auto]].
  rewrite Lw. unfold tree_gammas. apply map_length.
Qed.
Lemma plain_contact position base t gs ws i c : well_defined position t ->
  tree_gamma_and_weights angle_of position base power t = Ok (gs, ws) ->
  nth_error (m_comps t) i = Some c -> c_gamma c position <= 1 ->
  (forall j c', nth_error (m_comps t) j = Some c' -> c_gamma c' position <= 1 -> j = i) ->
  one_at i ws /\ rmin_list gs <= 1.
Proof.
  intros Wd Ew Ec Hc Uc. destruct (plain_weights position base t gs ws Wd Ew) as (Lws & _ & _).
  unfold tree_gamma_and_weights in Ew. set (gs0 := tree_gammas position t) in *.
  assert (Lg : length gs0 = length (m_comps t)) by (unfold gs0, tree_gammas; apply map_length).
  assert (Li : (i < length (m_comps t))%nat) by (apply nth_error_Some; congruence).
  assert (Gn : forall j c', nth_error (m_comps t) j = Some c' -> nth j gs0 0 = c_gamma c' position).
  { intros j c' E. unfold gs0, tree_gammas. apply nth_error_nth with (d := 0). rewrite nth_error_map, E. auto. }
  destruct (compute_weights_from_distances gs0 1 false) as [dw|]; [|discriminate]. cbn [bind] in Ew.
  destruct (get_component t (m_root t)) as [root|]; [|discriminate]. cbn [bind] in Ew.
  destruct gs0 as [|g0 gl] eqn:Eg; [simpl in Lg; lia|]. rewrite <- Eg in *.
  assert (Ing : In (c_gamma c position) gs0) by (rewrite <- (Gn i c Ec); apply nth_In; lia).
  pose proof (rmin_list_le gs0 _ Ing) as Mn.
  destruct (C22_rotation_weight angle_of (c_normal root position) (c_refdir root position) base
              (PI * / 2) power (PI * / 2) power_nonneg) as (f & Ef & F1 & _).
  rewrite Ef in Ew. cbn [bind] in Ew. rewrite F1 in Ew by lra.
  destruct (C23_component_weights gs0 1) as (gs' & w & E & Lw & _ & Sw & Hw & _ & _ & Gs); [congruence|lra|].
  rewrite E in Ew. injection Ew as <- <-. specialize (Hw (ex_intro _ _ (conj Ing Hc))).
  split; [|rewrite Gs by lra; lra].
  assert (Z : forall j, j <> i -> nth j w 0 = 0).
  { intros j Hj. destruct (le_lt_dec (length gs0) j) as [Lj|Lj]; [apply nth_overflow; lia|].
    apply (Hw j Lj). destruct (nth_error (m_comps t) j) as [c'|] eqn:Ej; [|apply nth_error_None in Ej; lia].
    rewrite (Gn j c' Ej). destruct (Rlt_le_dec 1 (c_gamma c' position)) as [|Q]; auto.
    exfalso. apply Hj. eapply Uc; eauto. }
  split; [lia|]. split; [|auto].
  rewrite <- Sw. clear - Z Li Lws. rewrite <- Lws in Li. clear Lws.
  revert i Z Li. induction w as [|a w IH]; intros [|i] Z L; simpl in *; try lia.
  - destruct (zero_list w) as [A _]; [intros j; apply (Z (S j)); lia|]. lra.
  - pose proof (Z 0%nat ltac:(lia)) as Z0. simpl in Z0. rewrite (IH i); [lra| |lia].
    intros j Hj. apply (Z (S j)). lia.
Qed.

(** ** C150 *)
(** A velocity of zero is returned as it is. *)
Theorem C150_rest : forall recorded position v local_of trees, norm v = 0 ->
  get_tangent_direction orth0 angle_of projected_tangent sort power radius weights_of recorded position v local_of trees = Ok v.
Proof. intros. unfold get_tangent_direction. destruct (Req_EM_T (norm v) 0); [auto|contradiction]. Qed.

Lemma old_trees_weights recorded position local_of : forall trees obs tt tt' nodes cws gs,
  (forall t, In t trees -> well_defined position (mtree_of t)) ->
  old_trees angle_of projected_tangent power radius recorded tt position local_of obs trees = Ok (tt', nodes, cws, gs) ->
  length gs = length trees /\ length cws = length trees /\ Forall (fun c => nonneg c /\ 0 <= rsum c <= 1) cws.
Proof.
  induction trees as [|t trees IH]; intros obs tt tt' nodes cws gs Wd E; cbn [old_trees] in E.
  - injection E as <- <- <- <-. auto.
  - destruct (local_of t) as [local|]; [|discriminate]. cbn [bind] in E.
    destruct (tree_gamma_and_weights _ _ _ _ _) as [(g, ws)|] eqn:Ew; [|discriminate]. cbn [bind] in E.
    destruct recorded; [|discriminate]. cbn [negb] in E.
    destruct (populate_tangent_tree _ _ _ _ _ _ _ _) as [(t1, n1)|]; [|discriminate]. cbn [bind] in E.
    destruct (Rltb _ _); [discriminate|].
    destruct (old_trees _ _ _ _ _ _ _ _ _ trees) as [(((t2, n2), c2), g2)|] eqn:E2; [|discriminate]. cbn [bind] in E.
    injection E as <- <- <- <-.
    destruct (IH _ _ _ _ _ _ (fun t I => Wd t (or_intror I)) E2) as (A & B & C).
    cbn [length]. split; [lia|]. split; [lia|]. constructor; [|auto].
    destruct (plain_weights position local (mtree_of t) g ws (Wd t (or_introl eq_refl)) Ew) as (_ & Nw & Sw).
    assert (Q : nonneg (filter (fun w => Rltb 0 w) ws) /\ rsum (filter (fun w => Rltb 0 w) ws) = rsum ws).
    { clear - Nw. induction ws as [|w ws IH]; [split; auto; intros x []|]. cbn [filter].
      destruct IH as [A B]; [intros x I; apply Nw; right; auto|].
      pose proof (Nw w (or_introl eq_refl)). destruct (Rltb 0 w) eqn:Q.
      - split; [intros x [<-|I]; auto|]. unfold rsum in *. cbn [fold_right]. rewrite B. auto.
      - apply Rltb_false in Q. split; [auto|]. unfold rsum in *. cbn [fold_right]. rewrite B. assert (w = 0) by lra. lra. }
    destruct Q as [Q1 Q2]. destruct (filter _ ws) as [|w0 l0].
    + split; [intros x [<-|[]]; lra|]. simpl. lra.
    + rewrite Q2. auto.
Qed.
Lemma weighted_sums : forall (ows : list R) (cws : list (list R)), nonneg ows ->
  Forall (fun c => nonneg c /\ 0 <= rsum c <= 1) cws ->
  let ws := concat (map (fun wc => map (fun c => fst wc * c) (snd wc)) (combine ows cws)) in
  nonneg ws /\ rsum ws <= rsum ows.
Proof.
  induction ows as [|w ows IH]; intros cws Nn F; cbn [combine map concat]; [split; [intros x []|simpl; lra]|].
  assert (Nn' : nonneg ows) by (intros x I; apply Nn; right; auto). pose proof (Nn w (or_introl eq_refl)) as Pw.
  destruct cws as [|c cws]; cbn [map concat].
  { split; [intros x []|]. pose proof (rsum_nonneg ows Nn'). simpl. lra. }
  inversion F as [|c0 l0 (Nc & S0) F']; subst. destruct (IH cws Nn' F') as [A B]. cbn [fst snd].
  assert (Sc : rsum (map (fun x => w * x) c) = w * rsum c).
  { clear. induction c as [|x c IH]; simpl; [ring|rewrite IH; ring]. }
  split.
  - intros x I. apply in_app_iff in I. destruct I as [I|I]; [|auto]. apply in_map_iff in I. destruct I as (y & <- & I).
    apply Rmult_le_pos; auto.
  - rewrite rsum_app, Sc. simpl. assert (w * rsum c <= w * 1) by (apply Rmult_le_compat_l; lra). lra.
Qed.
(** The weights of the branches and of the velocity are non-negative and sum to one, if those of
    the obstacles sum to at most one. *)
Theorem C150_weights : forall recorded position v local_of trees s fw,
  (forall l, nonneg (weights_of l) /\ rsum (weights_of l) <= 1) ->
  (forall t, In t trees -> well_defined position (mtree_of t)) ->
  old_sequence orth0 angle_of projected_tangent sort power radius weights_of recorded position v local_of trees = Ok (s, fw) ->
  nonneg fw /\ rsum fw = 1.
Proof.
  intros recorded position v local_of trees s fw HW Wd E. unfold old_sequence in E.
  destruct (set_root _ _ _) as [tt0|]; [|discriminate]. cbn [bind] in E.
  destruct (old_trees _ _ _ _ _ _ _ _ _ _) as [(((tt, nodes), cws), gs)|] eqn:Et; [|discriminate]. cbn [bind] in E.
  destruct (old_trees_weights _ _ _ _ _ _ _ _ _ _ Wd Et) as (_ & _ & F).
  destruct (HW gs) as [N1 S1]. destruct (weighted_sums (weights_of gs) cws N1 F) as [A B].
  destruct (combine (weights_of gs) cws) as [|p l] eqn:Ec; [discriminate|]. rewrite <- Ec in *.
  destruct (reduce_weighted_to_sequence _ _ _ _ _ _) as [s0|]; [|discriminate]. cbn [bind] in E. injection E as <- <-.
  split.
  - intros x I. apply in_app_iff in I. destruct I as [I|[<-|[]]]; [auto|]. lra.
  - rewrite rsum_app. simpl. ring.
Qed.

Lemma combine_all {A B C} (a : list A) (b : list B) (c : list C) : length a = length c -> length b = length c ->
  map snd (combine (combine a b) c) = c.
Proof.
  revert a b. induction c as [|z c IH]; intros [|x a] [|y b] La Lb; simpl in *; try lia; auto. f_equal. apply IH; lia.
Qed.
Lemma led_nonempty n rad v steps e : led n rad v steps e -> steps <> [] -> length e = n /\ norm e <> 0.
Proof. induction 1 as [|rad v nn r k steps d e Et Ld Nd Lk L IH]; intros Ne; [contradiction|]. destruct steps; [inversion L; subst; auto|apply IH; easy]. Qed.

Lemma old_components_one tt position base t obs ws i tt' : one_at i ws -> length ws = length (bt_comps t) ->
  update_tangent_branch projected_tangent radius tt position base t obs i = Ok tt' ->
  old_components projected_tangent radius tt position base t obs ws (seq 0 (length (bt_comps t))) =
    Ok (tt', [node_key obs (Z.of_nat i) (Z.of_nat i)]).
Proof.
  intros (Li & O & Z) L E. rewrite <- L.
  assert (Q : forall k s tt, (i < s)%nat -> old_components projected_tangent radius tt position base t obs ws (seq s k) = Ok (tt, [])).
  { induction k as [|k IH]; intros s tt0 Hs; cbn [seq old_components]; [auto|]. rewrite Z by lia.
    destruct (Rle_dec 0 0); [|lra]. apply IH. lia. }
  assert (P : forall k s, (s <= i < s + k)%nat -> old_components projected_tangent radius tt position base t obs ws (seq s k) =
      Ok (tt', [node_key obs (Z.of_nat i) (Z.of_nat i)])).
  { induction k as [|k IH]; intros s Hs; [lia|]. cbn [seq old_components]. destruct (Nat.eq_dec s i) as [->|Ns].
    - rewrite O. destruct (Rle_dec 1 0); [lra|]. rewrite E. cbn [bind]. rewrite Q by lia. reflexivity.
    - rewrite (Z s) by auto. destruct (Rle_dec 0 0); [|lra]. apply IH. lia. }
  apply P. lia.
Qed.

(** Touching one component of the only obstacle, the result is the local velocity led through the
    tangents of the chain from the root to this component. *)
Theorem C150_contact : forall n position v local t i c w e, (2 <= n)%nat ->
  length v = n -> norm v <> 0 -> length local = n -> norm local <> 0 -> linked v local ->
  (forall g, g <= 1 -> weights_of [g] = [1]) ->
  well_defined position (mtree_of t) ->
  nth_error (bt_comps t) i = Some c -> c_gamma (b_comp c) position <= 1 ->
  (forall j c', nth_error (bt_comps t) j = Some c' -> c_gamma (b_comp c') position <= 1 -> j = i) ->
  branch_walk position i t = Ok w -> led n (PI * / 2) local (old_steps w) e ->
  get_tangent_direction orth0 angle_of projected_tangent sort power radius weights_of true position v (fun _ => Ok local) [t]
    = Ok (direction e).
Proof.
  intros n position v local t i c w e Hn Lv Nv Ll Nl (O & D) HW Wd Ec Hc Uc Ew Hled.
  unfold get_tangent_direction. destruct (Req_EM_T (norm v) 0); [contradiction|].
  unfold old_sequence. destruct (set_root empty_tree base_vel_id v) as [tt0|] eqn:E0.
  2: { exfalso. unfold set_root in E0. destruct (from_directions_spec n v v) as (rot & Er & _); auto.
       { pose proof (dirof_unit v Nv) as U. unfold unitv in U. rewrite U. lra. }
       rewrite Er in E0. discriminate. }
  destruct (set_root_rooted n base_vel_id v tt0 Hn Lv E0) as (W0 & N0 & Ed0). change (vdiv v (norm v)) with (direction v) in N0.
  assert (G0 : good_tree n tt0).
  { split; [auto|]. split; intros p x a b Ee; unfold edge in Ee; rewrite Ed0 in Ee; contradiction. }
  assert (Nb : node tt0 base_vel_id (mkAttrs 0 (direction v))) by (unfold node; rewrite N0; left; auto).
  assert (I0 : ids tt0 = [base_vel_id]) by (unfold ids; rewrite N0; auto).
  cbn [bind old_trees].
  (* weights *)
  destruct (tree_gamma_and_weights angle_of position local power (mtree_of t)) as [(gs, ws)|] eqn:Eg.
  2: { exfalso. unfold tree_gamma_and_weights in Eg.
       destruct (C20_weights_from_distances (tree_gammas position (mtree_of t)) 1 false) as (gw & Egw & _).
       rewrite Egw in Eg. cbn [bind] in Eg. destruct Wd as (Hr & _).
       unfold get_component in Eg.
       destruct (nth_error (m_comps (mtree_of t)) (m_root (mtree_of t))) as [root|] eqn:Er; [|apply nth_error_None in Er; lia].
       cbn [bind] in Eg. destruct (tree_gammas position (mtree_of t)) as [|g0 gl] eqn:Egs.
       { unfold tree_gammas in Egs. apply map_eq_nil in Egs. rewrite Egs in Hr. simpl in Hr. lia. }
       destruct (C22_rotation_weight angle_of (c_normal root position) (c_refdir root position) local
              (PI * / 2) power (PI * / 2) power_nonneg) as (f & Ef & F1 & F2 & _).
       rewrite Ef in Eg. cbn [bind] in Eg. unfold compute_gamma_and_weights in Eg. rewrite Egw in Eg. cbn [bind] in Eg.
       destruct (_ || _); discriminate. }
  cbn [bind negb].
  destruct (plain_contact position local (mtree_of t) gs ws i (b_comp c) Wd Eg) as (Ow & Mg).
  { simpl. rewrite nth_error_map, Ec. auto. }
  { auto. }
  { intros j c' Ej Gj. simpl in Ej. rewrite nth_error_map in Ej.
    destruct (nth_error (bt_comps t) j) as [bc|] eqn:Eb; [|discriminate]. injection Ej as <-. eapply Uc; eauto. }
  assert (Lw : length ws = length (bt_comps t)).
  { destruct (plain_weights _ _ _ _ _ Wd Eg) as (L & _). rewrite L. simpl. apply map_length. }
  (* the tree *)
  unfold populate_tangent_tree.
  destruct (good_add n tt0 (node_key 0 (-1) (-1)) local base_vel_id _ G0 Nb ltac:(cbn [a_level]; lia) Nl) as (t1 & E1 & G1 & I1 & N1 & K1); auto.
  { rewrite I0. intros [Q|[]]. discriminate. }
  rewrite E1. cbn [bind].
  destruct (C35_walk_is_parent_chain _ _ _ _ Ew) as (Br & NDi & L10 & _ & Ln & Lr).
  set (steps := old_steps w) in *.
  assert (Ms : map snd steps = rev (w_ids w)).
  { unfold steps, old_steps. rewrite map_rev, combine_all by lia. auto. }
  assert (Ls : length steps = length (w_ids w)) by (rewrite <- (map_length snd), Ms, rev_length; auto).
  destruct (old_branch_ok n 0 (Z.of_nat i) steps t1 local (node_key 0 (-1) (-1)) _ (PI * / 2) e Hn G1 N1 eq_refl)
    as (t2 & E2 & G2 & I2 & N2 & K2); auto.
  { cbn [a_level]. lia. }
  { rewrite Ms. apply NoDup_rev. auto. }
  { intros s _ I. rewrite I1, I0 in I. unfold step_key, node_key, base_vel_id in I. destruct I as [Q|[Q|[]]]; injection Q as Q; lia. }
  assert (Eu : update_tangent_branch projected_tangent radius t1 position local t 0 i = Ok t2).
  { unfold update_tangent_branch. rewrite Ew. cbn [bind]. fold steps. exact E2. }
  rewrite (old_components_one _ _ _ _ _ _ _ _ Ow Lw Eu). cbn [bind].
  destruct (one_at_sum ws i Ow) as [_ F1]. rewrite F1.
  replace (Rltb (1 + / 1000000) (rsum [1])) with false by (symmetry; apply Rltb_false; simpl; lra).
  cbn [app bind]. rewrite (HW _ Mg). cbn [combine map concat fst snd app]. rewrite Rmult_1_r.
  replace (1 - rsum [1]) with 0 by (simpl; ring).
  (* the end node *)
  assert (Hd : exists l, w_ids w = i :: l).
  { destruct Br as (Hh & _). destruct (w_ids w) as [|a l]; [discriminate|]. injection Hh as ->. eauto. }
  destruct Hd as (l & El).
  assert (Rs : exists s rest, rev steps = s :: rest /\ snd s = i).
  { unfold steps, old_steps. rewrite rev_involutive.
    pose proof (combine_all (w_normals w) (w_refs w) (w_ids w) ltac:(lia) ltac:(lia)) as Q.
    destruct (combine (combine (w_normals w) (w_refs w)) (w_ids w)) as [|s rest]; [rewrite El in Q; discriminate|].
    exists s, rest. split; auto. rewrite El in Q. simpl in Q. congruence. }
  destruct Rs as (s & rest & Rs & Si). rewrite Rs in N2. unfold step_key in N2. rewrite Si in N2.
  set (key := node_key 0 (Z.of_nat i) (Z.of_nat i)) in *.
  assert (Ik : In key (ids t2)).
  { rewrite I2. apply in_app_iff. right. apply in_map_iff. exists s. split; [unfold step_key; rewrite Si; auto|].
    apply in_rev. rewrite Rs. left. auto. }
  destruct (wf_attrs n t2 base_vel_id (proj1 G2) key Ik) as (a & _ & Na & _).
  assert (Ib : In base_vel_id (ids t2)) by (rewrite I2, I1, I0; left; auto).
  assert (Kb : key <> base_vel_id) by (unfold key, node_key, base_vel_id, node_key; intros Q; injection Q; intros; lia).
  destruct G2 as (W2 & NO2 & DI2).
  pose proof (mean_on_one n t2 (sort t2) orth0 (fun _ => mkSlot 0 None None None) [] key [base_vel_id] [] [0] a W2 Hn NO2 DI2
     (sort_levels _ _ _ W2) orth_length) as M.
  cbn [app] in M. unfold get_weighted_mean in M.
  rewrite <- (N2 a Na). rewrite <- M; auto.
  - destruct (reduce_weighted_to_sequence _ _ _ _ _ _); reflexivity.
  - constructor; [intros [Q|[]]; congruence|]. constructor; [easy|constructor].
  - intros x [<-|[<-|[]]]; auto.
Qed.

(** An avoider which was not evaluated before raises for every moving agent, whatever the obstacles. *)
Theorem C150_fresh_refuted : forall position v local_of t trees, norm v <> 0 ->
  exists e, get_tangent_direction orth0 angle_of projected_tangent sort power radius weights_of false position v local_of (t :: trees) = Err e.
Proof.
  intros position v local_of t trees Nv. unfold get_tangent_direction. destruct (Req_EM_T (norm v) 0); [contradiction|].
  unfold old_sequence. destruct (set_root _ _ _) as [tt0|]; [|eexists; reflexivity]. cbn [bind old_trees].
  destruct (local_of t) as [local|]; [|eexists; reflexivity]. cbn [bind].
  destruct (tree_gamma_and_weights _ _ _ _ _) as [(g, w)|]; eexists; reflexivity.
Qed.
(** So does the avoider without obstacles. *)
Theorem C150_no_obstacles_refuted : forall recorded position v local_of, norm v <> 0 ->
  exists e, get_tangent_direction orth0 angle_of projected_tangent sort power radius weights_of recorded position v local_of [] = Err e.
Proof.
  intros recorded position v local_of Nv. unfold get_tangent_direction. destruct (Req_EM_T (norm v) 0); [contradiction|].
  unfold old_sequence. destruct (set_root _ _ _) as [tt0|]; [|eexists; reflexivity]. cbn [bind old_trees].
  destruct (weights_of []); eexists; reflexivity.
Qed.
(** So does one obstacle without influence (no component has a weight), at any distance. *)
Theorem C150_outside_refuted : forall recorded position v local_of local t gs ws, norm v <> 0 -> local_of t = Ok local ->
  length (weights_of [rmin_list gs]) = 1%nat ->
  tree_gamma_and_weights angle_of position local power (mtree_of t) = Ok (gs, ws) -> length ws = length (bt_comps t) ->
  (forall w, In w ws -> w = 0) ->
  exists e, get_tangent_direction orth0 angle_of projected_tangent sort power radius weights_of recorded position v local_of [t] = Err e.
Proof.
  intros recorded position v local_of local t gs ws Nv El Lw Eg Lws Zw. unfold get_tangent_direction.
  destruct (Req_EM_T (norm v) 0); [contradiction|].
  unfold old_sequence. destruct (set_root _ _ _) as [tt0|]; [|eexists; reflexivity]. cbn [bind old_trees].
  rewrite El. cbn [bind]. rewrite Eg. cbn [bind]. destruct recorded; [|eexists; reflexivity]. cbn [negb].
  unfold populate_tangent_tree. destruct (lift _) as [t1|]; [|eexists; reflexivity]. cbn [bind].
  assert (Q : forall k s tt, old_components projected_tangent radius tt position local t 0 ws (seq s k) = Ok (tt, [])).
  { induction k as [|k IH]; intros s tt; cbn [seq old_components]; [auto|].
    assert (Z : nth s ws 0 = 0).
    { destruct (le_lt_dec (length ws) s) as [L|L]; [apply nth_overflow; lia|]. apply Zw, nth_In. lia. }
    rewrite Z. destruct (Rle_dec 0 0); [|lra]. apply IH. }
  rewrite Q. cbn [bind].
  assert (F : filter (fun w => Rltb 0 w) ws = []).
  { clear - Zw. induction ws as [|w ws IH]; [auto|]. cbn [filter]. rewrite (Zw w (or_introl eq_refl)).
    rewrite (proj2 (Rltb_false 0 0)) by lra. apply IH. intros x I. apply Zw. right. auto. }
  rewrite F. destruct (Rltb _ _); [eexists; reflexivity|]. cbn [bind].
  destruct (weights_of [rmin_list gs]) as [|w0 [|w1 wl]]; try discriminate. cbn [combine map concat fst snd app].
  unfold reduce_weighted_to_sequence. cbn [app length Nat.eqb negb]. eexists. reflexivity.
Qed.

(** ** C151 *)
Lemma direction_unit v : norm v <> 0 -> unitv (direction v).
Proof. apply dirof_unit. Qed.
(** Without moving obstacles: the direction is kept, the speed is the one of the initial velocity
    reduced at most; not at all where the direction does not point against the mean normal, and to
    zero where it does in contact. *)
Theorem C151_speed : forall recorded position v local_of env components trees d,
  compute_multiobstacle_relative_velocity position env = Ok (vzero (length position)) ->
  get_tangent_direction orth0 angle_of projected_tangent sort power radius weights_of recorded position v local_of trees = Ok d ->
  unitv d -> length d = length position -> components <> [] ->
  (forall c, In c components -> length (snd c) = length position /\ unitv (snd c)) ->
  exists s avg g, evaluate_old orth0 angle_of projected_tangent sort power radius weights_of recorded position v local_of env components trees
      = Ok (vscale (s * norm v) d) /\ 0 <= s <= 1 /\
    averaged_normal_and_gamma (length position) components 2 = Ok (avg, g) /\
    (0 <= dot d avg -> s = 1) /\ (g <= 1 -> dot d avg < -1/1000 -> s = 0) /\ (1 < g -> 0 < s).
Proof.
  intros recorded position v local_of env components trees d Er Ed Ud Ld Ne Hc.
  destruct (C139_average (length position) components 2 Ne Hc) as (avg & g & Ea & Na & _).
  unfold evaluate_old. rewrite Er. cbn [bind]. rewrite Ed. cbn [bind]. rewrite Ea. cbn [bind].
  replace (vadd d (vzero (length position))) with d by (rewrite <- Ld; vext; ring).
  pose proof (proj1 (unit_norm _) Ud) as Nd. pose proof (norm_nonneg v) as Pv.
  assert (B : Rabs (dot d avg) <= 1).
  { pose proof (cauchy_schwarz d avg) as CS. rewrite Nd in CS. lra. }
  assert (B' : -1 <= dot d avg) by (revert B; unfold Rabs; destruct (Rcase_abs (dot d avg)); lra).
  destruct (C30_safe_magnitude_partial d (norm v) avg g (8/10) 3 Pv ltac:(lra) ltac:(lra) ltac:(lra)) as (_ & S0).
  destruct (S0 ltac:(lra)) as (s & Hs & Es & _ & S1 & S2 & S3). exists s, avg, g.
  split; [rewrite Es; f_equal; f_equal; rewrite Nd; field|]. split; [auto|]. split; [auto|]. split; [auto|]. split; [auto|].
  intros G. destruct (Rle_lt_dec 0 (dot d avg)) as [Q|Q]; [rewrite S1 by auto; lra|]. apply S3; auto. lra.
Qed.
(** The velocity of the obstacles is not followed: an agent at rest stays at rest, however fast
    the obstacle it touches. *)
Theorem C151_carried_refuted : forall recorded position local_of env components trees rel,
  compute_multiobstacle_relative_velocity position env = Ok rel -> length rel = length position -> norm rel <> 0 ->
  components <> [] -> (forall c, In c components -> length (snd c) = length position /\ unitv (snd c)) ->
  forall avg g, averaged_normal_and_gamma (length position) components 2 = Ok (avg, g) -> g <= 1 ->
  evaluate_old orth0 angle_of projected_tangent sort power radius weights_of recorded position (vzero (length position)) local_of env components trees
    = Ok (vzero (length position)).
Proof.
  intros recorded position local_of env components trees rel Er Lr Nr Ne Hc avg g Ea Hg.
  unfold evaluate_old. rewrite Er. cbn [bind].
  assert (Z : norm (vzero (length position)) = 0) by (apply norm_eq_0_dot; apply dot_vzero_r).
  rewrite C150_rest by auto. cbn [bind]. rewrite Ea. cbn [bind]. rewrite Z.
  replace (vadd (vzero (length position)) rel) with rel by (rewrite <- Lr; vext; ring).
  unfold compute_safe_magnitude. destruct (Req_EM_T (norm rel) 0); [contradiction|].
  destruct (Rle_dec g 1) as [G|]; [|contradiction].
  assert (Q : forall s, vscale s (vscale 0 (vdiv rel (norm rel))) = vzero (length position)) by (intros s; rewrite <- Lr; vext; ring).
  destruct (_ || _); [rewrite (proj2 (Rltb_false 1 1)) by lra; rewrite Q; auto|].
  destruct (Rltb _ _); [rewrite Lr; auto|]. rewrite (proj2 (Rltb_false 1 1)) by lra. rewrite Q. auto.
Qed.
End Props.

(** With the tangents of the avoider, this result does not point into the touched component, unless
    the direction arriving there points straight along the reference direction. *)
Lemma led_end n pick radius : picks n pick -> PI / 2 <= radius <= PI -> forall steps rad v e,
  led (get_projected_tangent pick) radius n rad v steps e -> PI / 2 <= rad <= PI -> length v = n -> unitv v ->
  (forall s, In s steps -> length (fst (fst s)) = n /\ unitv (fst (fst s)) /\ length (snd (fst s)) = n /\ unitv (snd (fst s))) ->
  unitv e /\ forall s rest, rev steps = s :: rest -> 0 <= dot e (fst (fst s)) \/ e = snd (fst s).
Proof.
  intros Pk Hrad. induction steps as [|((nn, r), k) steps IH]; intros rad v e L Hr Lv Uv Hs.
  - apply led_nil_inv in L. subst e. split; [auto|]. intros s rest Q. discriminate.
  - destruct (led_inv _ _ _ _ _ _ _ _ _ _ L) as (d & Et & Ld & Nd & _ & L').
    destruct (Hs _ (or_introl eq_refl)) as (A & B & C & D). cbn [fst snd] in A, B, C, D.
    destruct (C60_not_inward n pick v nn r rad Pk Lv A C Uv B D Hr) as (t & Et' & _ & Ut & Or).
    rewrite Et in Et'. injection Et' as <-.
    destruct (IH radius d e L' Hrad Ld Ut (fun s I => Hs s (or_intror I))) as (Ue & End). split; [auto|].
    intros s rest Q. cbn [rev] in Q. destruct (rev steps) as [|s0 l0] eqn:Er.
    + cbn [app] in Q. injection Q as <- _. cbn [fst snd].
      assert (steps = []) by (rewrite <- (rev_involutive steps), Er; auto). subst steps.
      apply led_nil_inv in L'. subst e. destruct Or as [|[_ ->]]; auto.
    + cbn [app] in Q. injection Q as <- _. apply (End s0 l0). auto.
Qed.
Theorem C150_not_inward : forall orth0 angle_of pick sort power radius weights_of n position v local t i c w e,
  (forall v, length (orth0 v) = length v) -> (forall n t r, rooted_tree n t r -> level_sorted t (sort t)) -> 0 <= power ->
  picks n pick -> PI / 2 <= radius <= PI -> (2 <= n)%nat ->
  length v = n -> norm v <> 0 -> length local = n -> unitv local -> linked v local ->
  (forall g, g <= 1 -> weights_of [g] = [1]) ->
  well_defined position (mtree_of t) ->
  nth_error (bt_comps t) i = Some c -> c_gamma (b_comp c) position <= 1 ->
  (forall j c', nth_error (bt_comps t) j = Some c' -> c_gamma (b_comp c') position <= 1 -> j = i) ->
  branch_walk position i t = Ok w -> led (get_projected_tangent pick) radius n (PI * / 2) local (old_steps w) e ->
  (forall nn, In nn (w_normals w ++ w_refs w) -> length nn = n /\ unitv nn) ->
  get_tangent_direction orth0 angle_of (get_projected_tangent pick) sort power radius weights_of true position v (fun _ => Ok local) [t]
    = Ok e /\ unitv e /\ (0 <= dot e (nth 0 (w_normals w) []) \/ e = nth 0 (w_refs w) []).
Proof.
  intros orth0 angle_of pick sort power radius weights_of n position v local t i c w e Ho Hs Hp Pk Hr Hn Lv Nv Ll Ul Lk HW Wd Ec Hc Uc Ew L HN.
  pose proof (proj1 (unit_norm _) Ul) as Nl.
  destruct (C35_walk_is_parent_chain _ _ _ _ Ew) as ((Hh & _) & _ & _ & _ & Ln & Lr).
  destruct (led_end n pick radius Pk Hr (old_steps w) (PI * / 2) local e L ltac:(pose proof PI_RGT_0; lra) Ll Ul) as (Ue & End).
  { intros s I. unfold old_steps in I. apply in_rev in I. destruct s as ((nn, r), k). cbn [fst snd].
    apply in_combine_l in I. pose proof (in_combine_l _ _ _ _ I) as I1. pose proof (in_combine_r _ _ _ _ I) as I2.
    destruct (HN nn) as [A B]; [apply in_app_iff; auto|]. destruct (HN r) as [C D]; [apply in_app_iff; auto|]. auto. }
  split; [|split; [auto|]].
  - rewrite (C150_contact orth0 angle_of (get_projected_tangent pick) sort power radius weights_of Ho Hs Hp n position v local t i c w e); auto; [|lra].
    f_equal. unfold direction. rewrite (proj1 (unit_norm _) Ue). vext. field.
  - unfold old_steps in End. rewrite rev_involutive in End.
    destruct (w_ids w) as [|k0 ks]; [discriminate|]. destruct (w_normals w) as [|n0 ns]; [discriminate|].
    destruct (w_refs w) as [|r0 rs]; [discriminate|]. cbn [combine] in End. apply (End _ _ eq_refl).
Qed.

(** The right side of a disc, entered at 53 degrees from its normal: turned to the tangent. *)
Definition touched_comp : bcomp :=
  mkB (mkComp (fun _ => 1) (fun _ => [1; 0]) (fun _ => [-1; 0]) [0; 0] [0; 0] (fun _ _ => Some [1; 0]) false) false.
Definition touched_tree : btree := mkBTree [touched_comp] 0 (fun _ => None).
Example C150_case : forall orth0 angle_of, (forall v, length (orth0 v) = length v) ->
  get_tangent_direction orth0 angle_of (get_projected_tangent left_of) sort_by_level 1 PI (fun l => map (fun _ => / INR (length l)) l)
    true [1; 0] [-3; 4] (fun _ => Ok [-3/5; 4/5]) [touched_tree] = Ok [0; 1].
Proof.
  intros orth0 angle_of Ho.
  assert (N5 : norm [-3; 4] = 5).
  { unfold norm, dot. simpl. replace (-3 * -3 + (4 * 4 + 0)) with (5 * 5) by ring. apply sqrt_square. lra. }
  assert (U : unitv [-3/5; 4/5]) by (unfold unitv, dot; simpl; lra).
  assert (N1 : norm [-3/5; 4/5] = 1) by (apply unit_norm; auto).
  assert (UT : unitv [0; 1]) by (unfold unitv, dot; simpl; lra).
  assert (NT : norm [0; 1] = 1) by (apply unit_norm; auto).
  assert (Ew : branch_walk [1; 0] 0 touched_tree = Ok (mkWalk [0%nat] [[1; 0]] [[-1; 0]] [1; 0])).
  { unfold branch_walk, branch_walk_upto. simpl. destruct (Rltb 1 1) eqn:E; [apply Rltb_true in E; lra|]. reflexivity. }
  assert (DT : direction [0; 1] = [0; 1]) by (unfold direction, vscale; rewrite NT; simpl; f_equal; [field|f_equal; field]).
  assert (D1 : direction [-3/5; 4/5] = [-3/5; 4/5]) by (unfold direction, vscale; rewrite N1; simpl; f_equal; [field|f_equal; field]).
  assert (D5 : direction [-3; 4] = [-3/5; 4/5]) by (unfold direction, vscale; rewrite N5; simpl; f_equal; [field|f_equal; field]).
  rewrite <- DT.
  eapply (C150_contact orth0 angle_of (get_projected_tangent left_of) sort_by_level 1 PI _ Ho sort_by_level_sorted ltac:(lra) 2
     [1; 0] [-3; 4] [-3/5; 4/5] touched_tree 0 touched_comp _ [0; 1]); auto; try lra.
  - unfold linked. rewrite D5, D1. split; [|auto]. unfold unitv in U. lra.
  - intros g _. simpl. f_equal. field.
  - split; [simpl; lia|]. simpl. intros i Hi Ni. lia.
  - simpl. lra.
  - intros [|j] c' Ej _; [auto|]. simpl in Ej. destruct j; discriminate.
  - exact Ew.
  - cbn [old_steps w_normals w_refs w_ids combine rev app].
    apply led_cons with (d := [0; 1]); auto; [exact C60_case|lra| |constructor].
    unfold linked. rewrite D1, DT. split; [unfold dot; simpl; lra|]. right.
    unfold allclose. simpl. unfold isclose. apply andb_false_iff. left. apply Rleb_false.
    rewrite Rabs_R0, Rabs_left by lra. lra.
Qed.
(** The same agent with speed five: led along the surface with full speed. *)
Example C151_case : forall orth0 angle_of, (forall v, length (orth0 v) = length v) ->
  evaluate_old orth0 angle_of (get_projected_tangent left_of) sort_by_level 1 PI (fun l => map (fun _ => / INR (length l)) l)
    true [1; 0] [-3; 4] (fun _ => Ok [-3/5; 4/5]) [] [(1, [1; 0])] [touched_tree] = Ok [0; 5].
Proof.
  intros orth0 angle_of Ho. pose proof (C150_case orth0 angle_of Ho) as E.
  assert (N5 : norm [-3; 4] = 5).
  { unfold norm, dot. simpl. replace (-3 * -3 + (4 * 4 + 0)) with (5 * 5) by ring. apply sqrt_square. lra. }
  assert (Rel : compute_multiobstacle_relative_velocity [1; 0] [] = Ok (vzero 2)).
  { unfold compute_multiobstacle_relative_velocity, compute_gamma_weights. simpl. destruct (Rle_dec 0 1); reflexivity. }
  assert (Ea : averaged_normal_and_gamma 2 [(1, [1; 0])] 2 = Ok ([1; 0], 1)).
  { unfold averaged_normal_and_gamma, averaged_weights. cbn [map fst snd min_of fold_left].
    rewrite (proj2 (Rleb_true 1 1)) by lra. cbn [bind]. unfold weighted_vectors. f_equal. f_equal.
    cbv [rsum map combine fold_right fst snd vscale vzero repeat]. cbv [vadd]. f_equal; [field|f_equal; field]. }
  destruct (C151_speed orth0 angle_of (get_projected_tangent left_of) sort_by_level 1 PI (fun l => map (fun _ => / INR (length l)) l)
     true [1; 0] [-3; 4] (fun _ => Ok [-3/5; 4/5]) [] [(1, [1; 0])] [touched_tree] [0; 1] Rel E) as (s & avg & g & -> & _ & Ea' & S1 & _).
  - unfold unitv, dot. simpl. lra.
  - reflexivity.
  - easy.
  - intros c [<-|[]]. split; [auto|]. unfold unitv, dot. simpl. lra.
  - simpl length in Ea'. rewrite Ea in Ea'. injection Ea' as <- _. rewrite S1 by (unfold dot; simpl; lra).
    rewrite N5. unfold vscale. simpl. f_equal. f_equal; [ring|f_equal; ring].
Qed.
Print Assumptions C150_rest.
Print Assumptions C150_weights.
Print Assumptions C150_contact.
Print Assumptions C150_fresh_refuted.
Print Assumptions C150_no_obstacles_refuted.
Print Assumptions C150_outside_refuted.
Print Assumptions C151_speed.
Print Assumptions C151_carried_refuted.
Print Assumptions C150_not_inward.
