(** Properties C35 and C32: branch walk, tangent tree, evaluated velocity. *)
Require Import Reals List Bool Lra Lia ZArith Classical_Prop Permutation.
From Verif Require Import Base Vec Angle Pow RotModel Spec RotProofs SeqProofs TreeModel TreeSpec
  TreeProofs PropRotation PropTree WeightModel WeightProofs PropWeights AvoidModel PropAvoid TangentProofs ProjModel PropProject.
Import ListNotations.
Open Scope R_scope.

(** * C35 *)
(** Whatever the walk returns is the parent chain of the component. *)
Theorem C35_walk_is_parent_chain : forall position i t w, branch_walk position i t = Ok w ->
  branch (bt_parent t) (bt_root t) i (w_ids w) /\ NoDup (w_ids w) /\ (length (w_ids w) <= 10)%nat /\
  (forall j, In j (w_ids w) -> (j < length (bt_comps t))%nat) /\
  length (w_normals w) = length (w_ids w) /\ length (w_refs w) = length (w_ids w).
Proof.
  intros position i t w E. destruct (branch_walk_spec _ _ _ _ E) as (B & L & [W1 W2 W3] & _).
  split; auto. split; [eapply branch_nodup; eauto|]. auto.
Qed.
(** It succeeds on every chain of at most ten components and raises beyond. *)
Theorem C35_walk_total : forall t position i l, rays_hit t position ->
  branch (bt_parent t) (bt_root t) i l -> (forall j, In j l -> (j < length (bt_comps t))%nat) ->
  ((length l <= 10)%nat -> exists w, branch_walk position i t = Ok w /\ w_ids w = l) /\
  ((10 < length l)%nat -> branch_walk position i t = Err EExc).
Proof. exact branch_walk_total. Qed.
Lemma get_bcomp_in t i c : get_bcomp t i = Ok c -> In c (bt_comps t).
Proof.
  unfold get_bcomp. destruct (nth_error (bt_comps t) i) eqn:E; [|discriminate]. intros Q. injection Q as <-.
  eapply nth_error_In; eauto.
Qed.
(** The first normal of a walk is the normal at the surface point. *)
Lemma walk_first_normal position i t w : branch_walk position i t = Ok w ->
  exists c surf d, get_bcomp t i = Ok c /\ get_normal_at_distance c surf d = Ok (nth 0 (w_normals w) []) /\
    nth 0 (w_refs w) [] = c_refdir (b_comp c) position /\
    (c_gamma (b_comp c) position <= 1 ->
       c_intersect (b_comp c) position (vscale (-1) (c_refdir (b_comp c) position)) = Some surf /\ d = 0).
Proof.
  intros Ew. destruct (branch_walk_spec _ _ _ _ Ew) as (_ & _ & _ & c' & Ec' & Rf).
  unfold branch_walk in Ew. revert Ew. generalize 100%nat as fuel. intros fuel Ew.
  unfold branch_walk_upto in Ew.
  destruct (get_bcomp t i) as [c|] eqn:Ec; [|discriminate]. injection Ec' as <-. cbn [bind] in Ew.
  match type of Ew with (bind ?m _ = _) => destruct m as [(surf, d)|] eqn:Em; [|discriminate] end. cbn [bind] in Ew.
  destruct (get_normal_at_distance c surf d) as [n0|] eqn:En; [|discriminate]. cbn [bind] in Ew.
  assert (K : forall fuel l w0 w1, walk_up t d fuel l w0 = Ok w1 -> w_normals w0 <> [] ->
            nth 0 (w_normals w1) [] = nth 0 (w_normals w0) []).
  { clear. induction fuel as [|fuel IH]; intros l w0 w1 E NE; simpl in E; [injection E as <-; auto|].
    destruct (l =? bt_root t)%nat; [injection E as <-; auto|].
    destruct (get_bcomp t l); [|discriminate]. cbn [bind] in E. destruct (bt_parent t l); [|discriminate].
    destruct (get_bcomp t n); [|discriminate]. cbn [bind] in E. destruct (Nat.ltb _ _); [discriminate|].
    destruct (c_intersect _ _ _); [|discriminate]. destruct (get_normal_at_distance _ _ _); [|discriminate].
    cbn [bind] in E. apply IH in E; simpl in *; [|destruct (w_normals w0); discriminate].
    rewrite E. destruct (w_normals w0); [contradiction|reflexivity]. }
  exists c, surf, d. split; auto. rewrite (K _ _ _ _ Ew) by (simpl; discriminate). split; [auto|]. split; auto.
  intros G. rewrite (proj2 (Rltb_false 1 (c_gamma (b_comp c) position))) in Em by auto.
  destruct (c_intersect (b_comp c) position _) as [s|]; [|discriminate]. injection Em as <- <-. auto.
Qed.
Lemma normal_at_distance_form c surf d nn : get_normal_at_distance c surf d = Ok nn ->
  exists p, nn = c_normal (b_comp c) p.
Proof.
  unfold get_normal_at_distance. intros En. destruct (b_cuboid c).
  - destruct (Req_EM_T _ 0); [discriminate|]. injection En as <-. eauto.
  - injection En as <-. eauto.
Qed.
Lemma population_ok pt n position base (good : vec -> vec -> R -> Prop) (away : vec -> vec -> vec -> Prop) trees tt0 :
  (2 <= n)%nat -> length base = n -> norm base <> 0 ->
  (forall v nn r rad, length v = n -> norm v = norm base -> good nn r rad ->
     exists d, pt v nn r rad = Ok d /\ length d = n /\ norm d <> 0 /\ away nn r d) ->
  (forall (v nn r : vec) (rad : R), length v = n -> norm v = norm base -> good nn r rad -> 0 <= dot nn v -> away nn r v) ->
  (forall t weights radiuses i, In (t, weights, radiuses) trees -> (i < length (bt_comps t))%nat ->
     0 < nth i weights 0 -> branch_ready n position t i /\ branch_good position good t i (nth i radiuses 0)) ->
  set_root empty_tree base_vel_id base = Ok tt0 ->
  exists tt normals,
    populate_all pt tt0 position base 0 trees = Ok (tt, end_keys 0 trees, normals) /\
    rooted_tree n tt base_vel_id /\ NoDup (end_keys 0 trees ++ [base_vel_id]) /\
    (forall x, In x (end_keys 0 trees ++ [base_vel_id]) -> In x (map fst (t_nodes tt))) /\
    Forall2 (item_dir position away tt) (end_items 0 trees) normals.
Proof.
  intros Hn Lb Nb HT HK HR E0.
  destruct (set_root_rooted n base_vel_id base tt0 Hn Lb E0) as (W0 & N0 & _).
  destruct (populate_all_ok pt n position (norm base) good away Hn Nb HT HK base_vel_id base Lb eq_refl trees 0 tt0
              (mkAttrs 0 (vdiv base (norm base)))) as (tt & ns & new & E & L & W & I & Of & ND & Fin & K); auto.
  - unfold node. rewrite N0. left. auto.
  - intros o x Ho (c & k & ->). unfold ids. rewrite N0. simpl. intros [J|[]].
    unfold base_vel_id, node_key in J. injection J as J. lia.
  - exists tt, ns. split; auto. split; auto.
    assert (B : forall x, In x (end_keys 0 trees) -> x <> base_vel_id).
    { intros x J ->. destruct (Of _ (Fin _ J)) as (o & Ho & c & k & Ek).
      unfold base_vel_id, node_key in Ek. injection Ek as Ek. lia. }
    split; [|split; auto].
    + apply NoDup_app_intro; auto; [constructor; auto; constructor|].
      intros x J [<-|[]]. apply (B _ J). auto.
    + intros x J. change (In x (ids tt)). rewrite I. apply in_app_iff in J.
      apply in_app_iff. destruct J as [J|[<-|[]]]; auto. left. unfold ids. rewrite N0. left. auto.
Qed.
(** The population of the tangent tree by any number of obstacle trees: no insertion is
    rejected, the result is a rooted tree that contains the end nodes.  [good] are the arguments
    of which the tangent is known to exist. *)
Theorem C35_population : forall projected_tangent (good : vec -> vec -> R -> Prop) n position base trees tt0,
  (2 <= n)%nat -> length base = n -> norm base <> 0 ->
  (forall v nn r rad, length v = n -> norm v = norm base -> good nn r rad ->
     exists d, projected_tangent v nn r rad = Ok d /\ length d = n /\ norm d <> 0) ->
  (forall t weights radiuses i, In (t, weights, radiuses) trees -> (i < length (bt_comps t))%nat ->
     0 < nth i weights 0 -> branch_ready n position t i /\ branch_good position good t i (nth i radiuses 0)) ->
  set_root empty_tree base_vel_id base = Ok tt0 ->
  exists tt nodes normals,
    populate_all projected_tangent tt0 position base 0 trees = Ok (tt, nodes, normals) /\
    rooted_tree n tt base_vel_id /\ nodes = end_keys 0 trees /\ NoDup (nodes ++ [base_vel_id]) /\
    (forall x, In x (nodes ++ [base_vel_id]) -> In x (map fst (t_nodes tt))) /\
    length normals = length nodes.
Proof.
  intros pt good n position base trees tt0 Hn Lb Nb HT HR E0.
  destruct (population_ok pt n position base good (fun _ _ _ => True) trees tt0 Hn Lb Nb) as (tt & ns & E & W & ND & I & F); auto.
  { intros v nn r rad A B C. destruct (HT v nn r rad A B C) as (d & ? & ? & ?). exists d. auto. }
  exists tt, (end_keys 0 trees), ns. split; auto. split; auto. split; auto. split; auto. split; auto.
  unfold end_keys. rewrite map_length. clear - F. induction F; simpl; auto.
Qed.
(** Unit vectors and an angle of at least a right angle. *)
Definition unit_args (n : nat) (nn r : vec) (rad : R) : Prop :=
  length nn = n /\ unitv nn /\ length r = n /\ unitv r /\ PI / 2 <= rad <= PI.
Lemma branch_good_intro n position t i rad :
  (forall c p, In c (bt_comps t) -> length (c_normal (b_comp c) p) = n /\ unitv (c_normal (b_comp c) p)) ->
  (forall c, In c (bt_comps t) -> length (c_refdir (b_comp c) position) = n /\ unitv (c_refdir (b_comp c) position)) ->
  PI / 2 <= rad <= PI -> branch_good position (unit_args n) t i rad.
Proof.
  intros HN HF Hr w Ew. pose proof PI_RGT_0 as HP.
  destruct (walk_first_normal _ _ _ _ Ew) as (c & surf & d & Ec & En & Rf & _).
  destruct (normal_at_distance_form _ _ _ _ En) as (p & ->). rewrite Rf. apply get_bcomp_in in Ec.
  destruct (HN c p Ec), (HF c Ec). unfold unit_args. split; auto. split; auto. split; auto. split; auto. split; auto. lra.
Qed.
(** With the projected tangent of C60. *)
Theorem C35_population_projected : forall pick n position base trees tt0,
  (2 <= n)%nat -> picks n pick -> length base = n -> unitv base ->
  (forall t weights radiuses i, In (t, weights, radiuses) trees -> (i < length (bt_comps t))%nat ->
     0 < nth i weights 0 -> branch_ready n position t i /\ PI / 2 <= nth i radiuses 0 <= PI) ->
  (forall t weights radiuses c p, In (t, weights, radiuses) trees -> In c (bt_comps t) ->
     length (c_normal (b_comp c) p) = n /\ unitv (c_normal (b_comp c) p)) ->
  (forall t weights radiuses c, In (t, weights, radiuses) trees -> In c (bt_comps t) ->
     length (c_refdir (b_comp c) position) = n /\ unitv (c_refdir (b_comp c) position)) ->
  set_root empty_tree base_vel_id base = Ok tt0 ->
  exists tt nodes normals,
    populate_all (get_projected_tangent pick) tt0 position base 0 trees = Ok (tt, nodes, normals) /\
    rooted_tree n tt base_vel_id /\ nodes = end_keys 0 trees /\ NoDup (nodes ++ [base_vel_id]) /\
    (forall x, In x (nodes ++ [base_vel_id]) -> In x (map fst (t_nodes tt))) /\
    length normals = length nodes.
Proof.
  intros pick n position base trees tt0 Hn Pk Lb Ub HR HN HF E0.
  pose proof (proj1 (unit_norm _) Ub) as Nb. pose proof PI_RGT_0 as HP.
  apply (C35_population _ (unit_args n)); auto; [lra| |].
  - intros v nn r rad Lv Nv (L1 & U1 & L2 & U2 & Hr).
    assert (Uv : unitv v) by (apply unit_norm; lra).
    destruct (C60_never_raises n pick v nn r rad Pk Lv L1 L2 Uv U1 U2 ltac:(lra)) as (d & Ed & Ld & Ud & _).
    exists d. split; auto. split; auto. rewrite (proj1 (unit_norm _) Ud). lra.
  - intros t ws rs i It Hi Hw. destruct (HR t ws rs i It Hi Hw) as [Br Hrad]. split; auto.
    apply branch_good_intro with (n := n); auto; intros; [eapply HN|eapply HF]; eauto.
Qed.
(** A three-component chain: 2 -> 1 -> 0. *)
Definition chain_comp : bcomp :=
  mkB (mkComp (fun _ => 2) (fun _ => [1; 0]) (fun _ => [-1; 0]) [0; 0] [0; 0]
              (fun _ _ => Some [1; 0]) false) false.
Definition chain_tree : btree :=
  mkBTree [chain_comp; chain_comp; chain_comp] 0
    (fun i => match i with 1%nat => Some 0%nat | 2%nat => Some 1%nat | _ => None end).
Example C35_case : exists w, branch_walk [3; 0] 2 chain_tree = Ok w /\ w_ids w = [2; 1; 0]%nat.
Proof.
  apply C35_walk_total.
  - assert (C : forall i c, get_bcomp chain_tree i = Ok c -> c = chain_comp).
    { intros [|[|[|i]]] c E; unfold get_bcomp in E; simpl in E; try congruence. destruct i; discriminate. }
    constructor.
    + intros i c E. rewrite (C i c E). simpl. discriminate.
    + intros i c E. rewrite (C i c E). simpl. discriminate.
    + intros i c j p E _ E'. rewrite (C i c E), (C j p E'). simpl. discriminate.
    + intros i c s d s' E. rewrite (C i c E). simpl. intros Es. injection Es as <-.
      apply norm_neq_0_dot. unfold vsub, vscale, dot. simpl. lra.
  - unfold branch. simpl. repeat split; auto. intuition discriminate.
  - simpl. intros j [<-|[<-|[<-|[]]]]; lia.
  - simpl. lia.
Qed.
Print Assumptions C35_walk_is_parent_chain.
Print Assumptions C35_walk_total.
Print Assumptions C35_population.
Print Assumptions C35_population_projected.

(** * C32 *)
Section C32.
Variable orth0 : vec -> vec.
Variable angle_of : vec -> vec -> vec.
Variable pick : vec -> vec.
Variable sort : tree -> list nid.
Variables (power radius : R) (max_repulsion : option R).
Notation projected_tangent := (get_projected_tangent pick).
Notation evaluate := (evaluate_sequence orth0 angle_of projected_tangent sort power radius max_repulsion).

(** Without velocity, without obstacles. *)
Theorem C32_no_velocity : forall dim magnitude conv position env trees,
  evaluate dim magnitude None conv position env trees = Ok (vzero dim).
Proof. reflexivity. Qed.
Theorem C32_no_obstacles : forall n dim magnitude s conv position, s <> [] -> Forall (proper n) s ->
  0 <= magnitude ->
  exists u, unitv u /\ get_end_vector s = Ok u /\
  evaluate dim magnitude (Some s) conv position [] [] = Ok (vscale magnitude u) /\
  norm (vscale magnitude u) = magnitude.
Proof.
  intros n dim magnitude s conv position NE P Hm.
  destruct s as [|r0 s0] eqn:Es; [easy|]. rewrite <- Es in *.
  assert (E : get_end_vector s = Ok (rotate (last s (mkRot [] [] 0)) (rb0 (last s (mkRot [] [] 0))) 1)).
  { unfold get_end_vector. rewrite Es. auto. }
  assert (Pl : proper n (last s (mkRot [] [] 0))).
  { rewrite Forall_forall in P. apply P. rewrite Es. clear. revert r0. induction s0 as [|a s0 IH]; intros r0.
    - left; auto.
    - right. change (last (r0 :: a :: s0) (mkRot [] [] 0)) with (last (a :: s0) (mkRot [] [] 0)). apply IH. }
  set (l := last s (mkRot [] [] 0)) in *.
  destruct (rotate_keeps n l (rb0 l) Pl ltac:(apply Pl)) as [L N].
  assert (U : unitv (rotate l (rb0 l) 1)).
  { apply unit_norm. rewrite N. apply unit_norm. apply Pl. }
  exists (rotate l (rb0 l) 1). split; auto. split; auto. split.
  - unfold evaluate_sequence. rewrite E. auto.
  - rewrite norm_vscale, (proj1 (unit_norm _) U), Rabs_pos_eq by auto. ring.
Qed.

(** What the evaluation relies on at a position. *)
Record scene (n : nat) (position base : vec) (trees : list btree) : Prop := {
  sc_dim : (2 <= n)%nat;
  sc_orth : forall v, length (orth0 v) = length v;
  sc_sort : forall t r, rooted_tree n t r -> level_sorted t (sort t);
  sc_power : 0 <= power;
  sc_trees : trees <> [];
  sc_base : length base = n /\ unitv base;
  sc_pick : picks n pick;
  sc_well : forall t, In t trees -> well_defined position (mtree_of t);
  sc_contact : forall i j d, (i < length trees)%nat -> (j < length trees)%nat ->
     in_contact position (mtree_of (nth i trees d)) -> in_contact position (mtree_of (nth j trees d)) -> i = j;
  sc_refdir : forall t c, In t trees -> In c (bt_comps t) ->
     length (c_refdir (b_comp c) position) = n /\ unitv (c_refdir (b_comp c) position);
  sc_normal : forall t c p, In t trees -> In c (bt_comps t) ->
     length (c_normal (b_comp c) p) = n /\ unitv (c_normal (b_comp c) p);
  sc_branch : forall t i, In t trees -> (i < length (bt_comps t))%nat -> branch_ready n position t i;
  sc_radius : PI / 2 <= radius <= PI;
  sc_repulsion : forall limit, max_repulsion = Some limit -> 0 < limit < 1;
  sc_depth : forall t c, In t trees -> In c (bt_comps t) -> c_gamma (b_comp c) position < 1 ->
     max_repulsion <> None ->
     exists d, depth_of position (b_comp c) = Ok d /\ forall x, d = Some x -> x <= 1;
  (* the tangent tree: no child opposite to its parent, none closer than the tolerance *)
  sc_tangent_tree : forall tt0 tt data nodes normals, set_root empty_tree base_vel_id base = Ok tt0 ->
     mapM (tree_data angle_of power radius max_repulsion position base) trees = Ok data ->
     populate_all projected_tangent tt0 position base 0 (map fst data) = Ok (tt, nodes, normals) ->
     no_opposite tt /\ distinguishable tt }.

Lemma convergence_record_ok n position base t trees : scene n position base trees -> In t trees ->
  exists r c, convergence_record angle_of power position base t = Ok (r, c) /\ 0 <= r <= 1 /\ -1 <= c <= 1.
Proof.
  intros S It. unfold convergence_record.
  destruct (sc_well _ _ _ _ S t It) as (Hr & _). unfold get_component.
  destruct (nth_error (m_comps (mtree_of t)) (m_root (mtree_of t))) as [root|] eqn:Er;
    [|apply nth_error_None in Er; lia].
  cbn [bind]. destruct (tree_gammas position (mtree_of t)) as [|g0 gs] eqn:Eg.
  { unfold tree_gammas in Eg. apply map_eq_nil in Eg. rewrite Eg in Hr. simpl in Hr. lia. }
  destruct (C22_rotation_weight angle_of (c_normal root position) (c_refdir root position) base
              (PI * / 2) power (PI * / 2) (sc_power _ _ _ _ S)) as (f & F & F1 & F2 & _).
  rewrite F. cbn [bind]. destruct (sc_base _ _ _ _ S) as [Lb Ub].
  pose proof (proj1 (unit_norm _) Ub) as Nb. rewrite Nb. destruct (Req_EM_T 1 0); [lra|].
  eexists _, _. split; [reflexivity|].
  assert (Ir : exists c, In c (bt_comps t) /\ b_comp c = root).
  { apply nth_error_In in Er. simpl in Er. apply in_map_iff in Er. destruct Er as (c & <- & I). eauto. }
  destruct Ir as (c & Ic & <-). split.
  - set (g := rmin_list (g0 :: gs)). destruct (Rle_dec g 1) as [L|L]; [rewrite F1; lra|].
    destruct (F2 g ltac:(lra)). assert (/ g <= 1). { rewrite <- Rinv_1. apply Rinv_le_contravar; lra. } lra.
  - apply unit_dot_bounds; [|eapply (sc_refdir _ _ _ _ S); eauto]. unfold unitv. rewrite dot_vdiv_l, dot_vdiv_r.
    rewrite Ub. field.
Qed.
Lemma Forall2_len {A B} (P : A -> B -> Prop) l l' : Forall2 P l l' -> length l = length l'.
Proof. induction 1; simpl; auto. Qed.
Lemma mapM_in {A B} (f : A -> res B) (P : A -> B -> Prop) : forall l,
  (forall a, In a l -> exists b, f a = Ok b /\ P a b) -> exists bs, mapM f l = Ok bs /\ Forall2 P l bs.
Proof.
  induction l as [|a l IH]; intros H; simpl.
  - exists []. split; auto.
  - destruct (H a (or_introl eq_refl)) as (b & -> & Pb). cbn [bind].
    destruct IH as (bs & -> & F); [intros; apply H; right; auto|]. cbn [bind]. exists (b :: bs). auto.
Qed.
(** The gammas handed to the radiuses: those of the components, or ones. *)
Definition gammas_of (position : vec) (t : btree) (gammas : list R) : Prop :=
  length gammas = length (bt_comps t) /\
  forall g c, In (g, c) (combine gammas (bt_comps t)) -> g < 1 -> c_gamma (b_comp c) position < 1.
Lemma gammas_ok position base t g w : tree_gamma_and_weights angle_of position base power (mtree_of t) = Ok (g, w) ->
  gammas_of position t g.
Proof.
  unfold tree_gamma_and_weights. destruct (compute_weights_from_distances _ 1 false) as [dw|] eqn:Ed; [|discriminate].
  cbn [bind]. destruct (get_component _ _); [|discriminate]. cbn [bind].
  assert (T : tree_gammas position (mtree_of t) = map (fun c => c_gamma (b_comp c) position) (bt_comps t)).
  { unfold tree_gammas. simpl. rewrite map_map. auto. }
  destruct (tree_gammas position (mtree_of t)) as [|g0 gs] eqn:Eg; [discriminate|].
  destruct (get_rotation_weight _ _ _ _ _ _ _ _) as [rw|]; [|discriminate]. cbn [bind].
  unfold compute_gamma_and_weights. rewrite Ed. cbn [bind].
  destruct (C20_weights_from_distances (g0 :: gs) 1 false) as (dw' & Ed' & L & _). rewrite Ed in Ed'. injection Ed' as <-.
  destruct (Reqb (rsum dw) 0 || Reqb rw 0); intros E; injection E as <- <-.
  - split.
    + rewrite map_length, L, T, map_length. auto.
    + intros g c I Hg. apply in_combine_l in I. apply in_map_iff in I. destruct I as (? & <- & _). lra.
  - rewrite T. split; [apply map_length|]. intros g c I Hg.
    assert (K : forall l, In (g, c) (combine (map (fun c => c_gamma (b_comp c) position) l) l) -> g = c_gamma (b_comp c) position).
    { induction l as [|c0 l IH]; simpl; [tauto|]. intros [Q|Q]; [congruence|auto]. }
    rewrite <- (K _ I). auto.
Qed.
Lemma radiuses_ok n position base t trees gammas : scene n position base trees -> In t trees ->
  gammas_of position t gammas ->
  exists rs, tree_radiuses radius max_repulsion position t gammas = Ok rs /\ length rs = length (bt_comps t) /\
    forall i, (i < length (bt_comps t))%nat -> PI / 2 <= nth i rs 0 <= PI.
Proof.
  intros S It (Lg & Hg). unfold tree_radiuses. pose proof (sc_radius _ _ _ _ S) as HR. pose proof PI_RGT_0 as HP.
  destruct (mapM_in (fun gc : R * bcomp =>
                      let (g, c) := gc in
                      match max_repulsion with
                      | None => Ok (g, None)
                      | Some _ => if Rltb g 1 then do d <- depth_of position (b_comp c); Ok (g, d)
                                  else Ok (g, None)
                      end)
     (fun gc (b : R * option R) => forall x, snd b = Some x -> x <= 1) (combine gammas (bt_comps t))) as (comps & -> & Fc).
  { intros (g, c) I. destruct max_repulsion as [limit|] eqn:Em.
    - destruct (Rltb g 1) eqn:E.
      + apply Rltb_true in E. destruct (sc_depth _ _ _ _ S t c It) as (d & Ed & Hd).
        * eapply in_combine_r; eauto.
        * eapply Hg; eauto.
        * congruence.
        * rewrite Ed. cbn [bind]. eexists. split; eauto.
      + eexists. split; [reflexivity|]. simpl. discriminate.
    - eexists. split; [reflexivity|]. simpl. discriminate. }
  cbn [bind].
  assert (Lc : length comps = length (bt_comps t)).
  { clear - Fc Lg. apply Forall2_len in Fc. rewrite combine_length in Fc. lia. }
  assert (Bd : forall g d, In (g, Some d) comps -> d <= 1).
  { intros g d I. clear - Fc I. induction Fc as [|a b l l' H F IH]; [contradiction|].
    destruct I as [->|I]; [apply H; auto|auto]. }
  destruct max_repulsion as [limit|] eqn:Em.
  - pose proof (sc_repulsion _ _ _ _ S limit Em) as HL.
    destruct (C27_convergence_radiuses radius limit comps ltac:(lra) HL) as (rs & -> & L & K).
    { intros g d I _. eauto. }
    exists rs. split; auto. split; [lia|]. intros i Hi. specialize (K i ltac:(lia)).
    destruct (nth i comps (0, None)) as (g, d). destruct K as (K & _). lra.
  - rewrite C27_repulsion_disabled. eexists. split; [reflexivity|]. split; [rewrite map_length; auto|].
    intros i Hi. rewrite nth_map_default with (d' := (0, None)) by lia. lra.
Qed.
Lemma tree_data_ok n position base t trees : scene n position base trees -> In t trees ->
  exists ws rs rec, tree_data angle_of power radius max_repulsion position base t = Ok (t, ws, rs, rec) /\
    tree_obstacle_weights angle_of position base power (mtree_of t) = Ok ws /\
    length ws = length (bt_comps t) /\ nonneg ws /\ 0 <= fst rec <= 1 /\ -1 <= snd rec <= 1 /\
    (forall i, (i < length (bt_comps t))%nat -> PI / 2 <= nth i rs 0 <= PI).
Proof.
  intros S It. unfold tree_data.
  destruct (convergence_record_ok n position base t trees S It) as (r & c & -> & Hr & Hc). cbn [bind].
  destruct (tree_obstacle_weights_spec angle_of position base power (mtree_of t) (sc_power _ _ _ _ S)
              (sc_well _ _ _ _ S t It)) as (ws & Ew & Lw & Nw & _).
  assert (Eg : exists g w, tree_gamma_and_weights angle_of position base power (mtree_of t) = Ok (g, w)).
  { unfold tree_obstacle_weights in Ew. destruct (tree_gamma_and_weights _ _ _ _ _) as [(g, w)|]; [eauto|discriminate]. }
  destruct Eg as (g & w & Eg). rewrite Eg. cbn [bind]. rewrite Ew. cbn [bind].
  destruct (radiuses_ok n position base t trees g S It (gammas_ok _ _ _ _ _ Eg)) as (rs & -> & _ & Hrs). cbn [bind].
  exists ws, rs, (r, c). split; auto. split; auto. split; [|auto].
  rewrite Lw. simpl. apply map_length.
Qed.
Lemma rmax_ge l : forall x, In x l -> x <= rmax_list l.
Proof.
  assert (F : forall l a, a <= fold_left Rmax l a /\ forall x, In x l -> x <= fold_left Rmax l a).
  { induction l0 as [|y l0 IH]; intros a; simpl; [split; [lra|intros; contradiction]|].
    destruct (IH (Rmax a y)) as [A B]. pose proof (Rmax_l a y). pose proof (Rmax_r a y). split; [lra|].
    intros x [<-|I]; [lra|auto]. }
  destruct l as [|a l]; intros x I; [contradiction|]. simpl. destruct (F l a) as [A B].
  destruct I as [<-|I]; auto.
Qed.
Lemma averaged_normal_bound n normals ws : length normals = length ws -> nonneg ws ->
  (forall v, In v normals -> unitv v) -> norm (averaged_normal n normals ws) <= rsum ws.
Proof.
  unfold averaged_normal. revert ws. induction normals as [|v l IH]; intros [|w ws] L Nn U; simpl in *; try lia.
  - rewrite norm_vzero. lra.
  - eapply Rle_trans; [apply norm_triangle|]. rewrite norm_vscale, (proj1 (unit_norm v)) by auto.
    rewrite Rabs_pos_eq by (apply Nn; left; auto).
    specialize (IH ws ltac:(lia) ltac:(intros x Hx; apply Nn; right; auto) ltac:(auto)). lra.
Qed.
(** Own weights of a list of distinct nodes. *)
Fixpoint own_of (l : list nid) (ws : list R) (x : nid) : R :=
  match l, ws with
  | y :: l', w :: ws' => if nid_eq_dec x y then w else own_of l' ws' x
  | _, _ => 0
  end.
Lemma own_of_assigned t l ws : NoDup l -> length l = length ws ->
  (forall x, In x l -> In x (map fst (t_nodes t))) -> assigned t l ws (own_of l ws).
Proof.
  intros ND L I. split; auto. split; auto. split; auto. clear I. revert ws L. induction ND as [|y l Ny ND IH]; intros [|w ws] L; simpl in *; try lia.
  - split; [intros; contradiction|auto].
  - destruct (IH ws ltac:(lia)) as [A B]. split.
    + intros x v [E|J].
      * injection E as -> ->. destruct (nid_eq_dec x x); [auto|contradiction].
      * destruct (nid_eq_dec x y) as [->|]; [|auto]. exfalso. apply Ny. eapply in_combine_l; eauto.
    + intros x N. destruct (nid_eq_dec x y) as [->|]; [exfalso; auto|]. apply B. auto.
Qed.
Lemma own_of_nonneg l ws : nonneg ws -> forall x, 0 <= own_of l ws x.
Proof.
  revert ws. induction l as [|y l IH]; intros [|w ws] N x; simpl; try lra.
  destruct (nid_eq_dec x y); [apply N; left; auto|]. apply IH. intros z Hz. apply N. right. auto.
Qed.
Lemma weighted_length ws : length (weighted ws (seq 0 (length ws))) = length (filter (fun w => Rltb 0 w) ws).
Proof.
  unfold weighted. assert (K : forall k pre, length pre = k ->
    length (filter (fun i => Rltb 0 (nth i (pre ++ ws) 0)) (seq k (length ws))) = length (filter (fun w => Rltb 0 w) ws)).
  { induction ws as [|w ws IH]; intros k pre L; simpl; auto.
    rewrite app_nth2, L, Nat.sub_diag by lia. simpl.
    specialize (IH (S k) (pre ++ [w]) ltac:(rewrite app_length; simpl; lia)). rewrite <- app_assoc in IH. simpl in IH.
    destruct (Rltb 0 w); simpl; rewrite IH; auto. }
  apply (K 0%nat []). auto.
Qed.
Definition data_ok (d : btree * list R * list R * (R * R)) (t : btree) (ws : list R) : Prop :=
  exists rs rec, d = (t, ws, rs, rec).
Lemma cluster_length nw (ll : list (list R)) : length nw = length ll ->
  length (concat (map (fun wc : R * list R => map (fun w => fst wc * w) (snd wc)) (combine nw (map positive_normalised ll))))
  = length (concat (map (filter (fun w => Rltb 0 w)) ll)).
Proof.
  revert nw. induction ll as [|ws ll IH]; intros [|w nw] L; simpl in *; try lia.
  rewrite !app_length, IH by lia. f_equal. rewrite map_length. unfold positive_normalised. apply map_length.
Qed.
Lemma end_keys_length trees obs : Forall (fun x => length (snd (fst x)) = length (bt_comps (fst (fst x)))) trees ->
  length (end_keys obs trees) = length (concat (map (filter (fun w => Rltb 0 w)) (map (fun x => snd (fst x)) trees))).
Proof.
  unfold end_keys. rewrite map_length. intros F. revert obs.
  induction F as [|((t, ws), rs) trees L F IH]; intros obs; simpl; auto. simpl in L.
  rewrite !app_length, IH, map_length. f_equal. rewrite <- L. apply weighted_length.
Qed.
Lemma cluster_ok ll : ll <> [] -> (forall ws, In ws ll -> nonneg ws) -> one_saturated_at_most (map rsum ll) ->
  exists cw, cluster_weights ll = Ok cw /\ nonneg cw /\ rsum cw <= 1 /\ (cw <> [] -> 0 < rsum cw) /\
    length cw = length (concat (map (filter (fun w => Rltb 0 w)) ll)).
Proof.
  intros NE Nn U. destruct (C24_partition_partial ll NE Nn U) as (fw & E & Nf & Sf & Lf).
  unfold final_weights in E. destruct (cluster_weights ll) as [cw|] eqn:Ec; [|discriminate]. cbn [bind] in E.
  injection E as <-. exists cw. split; auto.
  assert (Nc : nonneg cw) by (intros x Hx; apply Nf, in_app_iff; auto).
  assert (Lw : last_weight (cw ++ [1 - rsum cw]) = 1 - rsum cw) by 
    (unfold last_weight; rewrite app_length; simpl; replace (length cw + 1 - 1)%nat with (length cw) by lia;
     rewrite app_nth2, Nat.sub_diag by lia; reflexivity).
  rewrite Lw in Lf.
  assert (Len : length cw = length (concat (map (filter (fun w => Rltb 0 w)) ll))).
  { unfold cluster_weights in Ec. destruct (length ll =? 0)%nat; [discriminate|].
    destruct (C18_limited_weights_partial (map rsum ll)) as (nw & t & E' & Ln & _).
    { intros x Hx. apply in_map_iff in Hx. destruct Hx as (ws & <- & Hw). apply rsum_nonneg, Nn; auto. }
    rewrite E' in Ec. cbn [bind] in Ec. injection Ec as <-. apply cluster_length. rewrite Ln. apply map_length. }
  split; auto. pose proof (Rmax_l 0 (1 - rsum (map rsum ll))). split; [lra|]. split; auto.
  intros NC. assert (P : 0 < rsum (map rsum ll)).
  { assert (Ex : exists ws w, In ws ll /\ In w ws /\ 0 < w).
    { destruct (concat (map (filter (fun w => Rltb 0 w)) ll)) as [|w rest] eqn:Q.
      - destruct cw; [contradiction|discriminate].
      - assert (I : In w (concat (map (filter (fun w => Rltb 0 w)) ll))) by (rewrite Q; left; auto).
        apply in_concat in I. destruct I as (x & Ix & Iw). apply in_map_iff in Ix. destruct Ix as (ws & <- & Iws).
        apply filter_In in Iw. destruct Iw as [Iw Pw]. apply Rltb_true in Pw. eauto. }
    destruct Ex as (ws & w & I1 & I2 & Pw).
    pose proof (rsum_ge_elem ws w (Nn ws I1) I2).
    assert (NN : forall y, In y (map rsum ll) -> 0 <= y).
    { intros x Hx. apply in_map_iff in Hx. destruct Hx as (ws' & <- & Hw). apply rsum_nonneg, Nn; auto. }
    pose proof (rsum_ge_elem (map rsum ll) (rsum ws) NN ltac:(apply in_map; auto)). lra. }
  destruct (Rle_dec (1 - rsum (map rsum ll)) 0).
  - rewrite Rmax_left in Lf by lra. lra.
  - rewrite Rmax_right in Lf by lra. lra.
Qed.
(** What is known of the direction of an end node (normal, reference direction, direction). *)
Definition not_inward (nn r d : vec) : Prop := unitv d /\ (0 <= dot d nn \/ d = r).
Lemma evaluate_avoidance_ok n position s base trees : scene n position base trees ->
  get_end_vector s = Ok base ->
  exists tt data final normals cw fv,
    mapM (tree_data angle_of power radius max_repulsion position base) trees = Ok data /\
    evaluate_avoidance orth0 angle_of projected_tangent sort power radius max_repulsion position s trees
      = Ok (final, normals, cw, map snd data) /\
    rooted_tree n tt base_vel_id /\ no_opposite tt /\ distinguishable tt /\
    Forall2 (item_dir position not_inward tt) (end_items 0 (map fst data)) normals /\
    NoDup (end_keys 0 (map fst data) ++ [base_vel_id]) /\
    (forall x, In x (end_keys 0 (map fst data) ++ [base_vel_id]) -> In x (map fst (t_nodes tt))) /\
    cluster_weights (map (fun d => snd (fst (fst d))) data) = Ok cw /\
    get_weighted_mean orth0 tt (fun _ => mkSlot 0 None None None) (sort tt)
      (end_keys 0 (map fst data) ++ [base_vel_id]) (cw ++ [1 - rsum cw]) = Ok fv /\
    get_end_vector final = Ok fv /\ unitv fv /\ length fv = n /\
    nonneg cw /\ rsum cw <= 1 /\ (cw <> [] -> 0 < rsum cw) /\ length normals = length cw /\
    (forall v, In v normals -> length v = n /\ unitv v) /\ data <> [] /\
    (forall r c, In (r, c) (map snd data) -> 0 <= r <= 1 /\ -1 <= c <= 1).
Proof.
  intros S Eb. unfold evaluate_avoidance. rewrite Eb. cbn [bind].
  destruct (sc_base _ _ _ _ S) as [Lb Ub]. pose proof (proj1 (unit_norm _) Ub) as Nb.
  assert (Nb' : norm base <> 0) by lra. pose proof (sc_dim _ _ _ _ S) as Hn.
  assert (R0 : exists tt0, set_root empty_tree base_vel_id base = Ok tt0).
  { unfold set_root. destruct (from_directions_spec n base base) as (r & Er & _); auto.
    - pose proof (dirof_unit base Nb') as U. unfold unitv in U. lra.
    - rewrite Er. cbn [bind]. eauto. }
  destruct R0 as (tt0 & E0). rewrite E0. cbn [bind].
  destruct (mapM_in (tree_data angle_of power radius max_repulsion position base)
     (fun t d => exists ws rs rec, d = (t, ws, rs, rec) /\
        tree_obstacle_weights angle_of position base power (mtree_of t) = Ok ws /\
        length ws = length (bt_comps t) /\ nonneg ws /\ 0 <= fst rec <= 1 /\ -1 <= snd rec <= 1 /\
        (forall i, (i < length (bt_comps t))%nat -> PI / 2 <= nth i rs 0 <= PI)) trees)
    as (data & Ed & Fd).
  { intros t It. destruct (tree_data_ok n position base t trees S It) as (ws & rs & rec & E & H). eexists. split; eauto 10. }
  rewrite Ed. cbn [bind].
  assert (Din : forall t ws rs rec, In (t, ws, rs, rec) data -> In t trees /\ length ws = length (bt_comps t) /\
     nonneg ws /\ 0 <= fst rec <= 1 /\ -1 <= snd rec <= 1 /\
     (forall i, (i < length (bt_comps t))%nat -> PI / 2 <= nth i rs 0 <= PI)).
  { intros t ws rs rec I. clear - Fd I. induction Fd as [|t0 d0 trees data (ws0 & rs0 & rec0 & -> & H) Fd IH]; [contradiction|].
    destruct I as [E|I]; [injection E as -> -> -> ->; split; [left; auto|tauto]|].
    destruct (IH I) as [A B]. split; [right|]; auto. }
  destruct (population_ok projected_tangent n position base (unit_args n) not_inward (map fst data) tt0 Hn Lb Nb')
    as (tt & normals & Ep & W & ND & IN & Fn); auto.
  { intros v nn r rad Lv Nv (L1 & U1 & L2 & U2 & Hrad). rewrite Nb in Nv.
    assert (Uv : unitv v) by (apply unit_norm; auto).
    destruct (C60_not_inward n pick v nn r rad (sc_pick _ _ _ _ S) Lv L1 L2 Uv U1 U2 Hrad) as (d & Edd & Ldd & Udd & K).
    exists d. split; auto. split; auto. split; [rewrite (proj1 (unit_norm _) Udd); lra|]. split; auto.
    destruct K as [K|(_ & K)]; auto. }
  { intros v nn r rad Lv Nv G K. rewrite Nb in Nv. split; [apply unit_norm; auto|]. left. rewrite dot_comm. auto. }
  { intros t ws rs i I Hi _. apply in_map_iff in I. destruct I as ((((t', ws'), rs'), rec) & E & I).
    simpl in E. injection E as -> -> ->. destruct (Din _ _ _ _ I) as (It & _ & _ & _ & _ & Hrs).
    split; [apply (sc_branch _ _ _ _ S); auto|].
    apply branch_good_intro; auto; intros; [eapply (sc_normal _ _ _ _ S)|eapply (sc_refdir _ _ _ _ S)]; eauto. }
  rewrite Ep. cbn [bind].
  set (ll := map (fun d : btree * list R * list R * (R * R) => snd (fst (fst d))) data).
  assert (Ltd : length data = length trees).
  { clear - Fd. induction Fd; simpl; auto. }
  destruct (cluster_ok ll) as (cw & Ec & Nc & Sc & Pc & Lc).
  { unfold ll. pose proof (sc_trees _ _ _ _ S). destruct data; [destruct trees; [contradiction|discriminate]|discriminate]. }
  { intros ws I. unfold ll in I. apply in_map_iff in I. destruct I as ((((t', ws'), rs'), rec) & <- & I). apply (Din _ _ _ _ I). }
  { intros i j Hi Hj Si Sj. unfold ll in *. rewrite !map_length in Hi, Hj.
    rewrite !nth_map_default with (d' := []) in Si, Sj by (rewrite map_length; lia).
    destruct data as [|d0 data0] eqn:Edd; [simpl in Hi; lia|]. rewrite <- Edd in *.
    rewrite nth_map_default with (d' := d0) in Si, Sj by lia.
    set (tdef := fst (fst (fst d0))).
    assert (Ctc : forall k, (k < length data)%nat -> 1 <= rsum (snd (fst (fst (nth k data d0)))) ->
      in_contact position (mtree_of (nth k trees tdef))).
    { intros k Hk Sk. destruct (classic (in_contact position (mtree_of (nth k trees tdef)))) as [|NC]; auto.
      assert (Q : exists ws, tree_obstacle_weights angle_of position base power (mtree_of (nth k trees tdef)) = Ok ws /\
                 snd (fst (fst (nth k data d0))) = ws).
      { clear - Fd Hk. revert k Hk. induction Fd as [|t0 d1 trees data (ws0 & rs0 & rec0 & -> & H) Fd IH]; intros [|k] Hk; simpl in *; try lia.
        - exists ws0. split; [tauto|auto].
        - apply IH. lia. }
      destruct Q as (ws & Q & Qw). rewrite Qw in Sk.
      destruct (tree_obstacle_weights_spec angle_of position base power (mtree_of (nth k trees tdef))
         (sc_power _ _ _ _ S)) as (ws' & Q' & _ & _ & _ & C).
      { apply (sc_well _ _ _ _ S). apply nth_In. lia. }
      rewrite Q in Q'. injection Q' as <-. specialize (C NC). lra. }
    apply (sc_contact _ _ _ _ S i j tdef); try lia; apply Ctc; auto. }
  rewrite Ec. cbn [bind].
  destruct (sc_tangent_tree _ _ _ _ S tt0 tt data _ _ E0 Ed Ep) as [NO DI].
  assert (Lk : length (end_keys 0 (map fst data)) = length cw).
  { rewrite Lc, end_keys_length.
    - unfold ll. rewrite !map_map. reflexivity.
    - apply Forall_forall. intros ((t, ws), rs) I. apply in_map_iff in I. destruct I as ((((t', ws'), rs'), rec) & E & I).
      simpl in E. injection E as -> -> ->. simpl. apply (Din _ _ _ _ I). }
  set (l := end_keys 0 (map fst data) ++ [base_vel_id]) in *. set (fw := cw ++ [1 - rsum cw]).
  assert (Ra : exists ra, node tt base_vel_id ra).
  { destruct (rt_root _ _ _ W) as (a & rest & E & _). exists a. unfold node. rewrite E. left. auto. }
  destruct Ra as (ra & Nra).
  assert (Nfw : nonneg fw).
  { intros x I. apply in_app_iff in I. destruct I as [I|[<-|[]]]; [auto|lra]. }
  assert (Sfw : rsum fw = 1) by (unfold fw; rewrite rsum_app; simpl; ring).
  destruct (C14_reduction_geometry n tt base_vel_id ra (sort tt) orth0 (fun _ => mkSlot 0 None None None) l fw (own_of l fw))
    as (first & rest & mean & Er & _ & _ & Em & Um & Lm); auto.
  { apply (sc_sort _ _ _ _ S tt base_vel_id W). }
  { apply own_of_assigned; auto. unfold l, fw. rewrite !app_length. simpl. lia. }
  { apply (sc_orth _ _ _ _ S). }
  { apply own_of_nonneg. auto. }
  { rewrite Sfw. lra. }
  rewrite Er. cbn [bind]. exists tt, data, (first :: rest), normals, cw, mean. split; auto.
  split; auto. split; auto. split; auto. split; auto. split; auto. split; auto. split; auto. split; auto. split; auto.
  unfold get_weighted_mean in Em. rewrite Er in Em. cbn [bind] in Em.
  split; auto. split; auto. split; auto. split; auto. split; auto. split; auto.
  split.
  { rewrite <- Lk. unfold end_keys. rewrite map_length. symmetry. eapply Forall2_len. exact Fn. }
  split; [|split].
  - intros v Iv. clear - S Fn Iv Din.
    assert (Ii : forall o t i, In (o, t, i) (end_items 0 (map fst data)) -> In t trees).
    { clear Fn. generalize 0%Z as z. revert Din. induction data as [|(((t0, w0), r0), rec0) data IH]; intros Din z o t i I; simpl in I; [contradiction|].
      apply in_app_iff in I. destruct I as [I|I].
      - apply in_map_iff in I. destruct I as (j & E & _). injection E as _ -> _. eapply Din. left. reflexivity.
      - eapply IH with (z := (z + 1)%Z); [|exact I]. intros t1 ws1 rs1 rec1 I1. apply (Din t1 ws1 rs1 rec1). right. auto. }
    induction Fn as [|((o, t), i) nn items normals Q Fn IH]; [contradiction|].
    destruct Iv as [<-|Iv].
    + destruct Q as (a & d & _ & _ & w & Ew & -> & _).
      destruct (walk_first_normal _ _ _ _ Ew) as (c & surf & d0 & Ec & En & _).
      destruct (normal_at_distance_form _ _ _ _ En) as (p & ->). apply get_bcomp_in in Ec.
      eapply (sc_normal _ _ _ _ S); eauto. eapply Ii. left. reflexivity.
    + apply IH; auto. intros o' t' i' I'. eapply Ii. right. eauto.
  - pose proof (sc_trees _ _ _ _ S). destruct data; [destruct trees; [contradiction|discriminate]|discriminate].
  - intros r c I. apply in_map_iff in I. destruct I as ((((t', ws'), rs'), rec) & E & I).
    simpl in E. subst rec. destruct (Din _ _ _ _ I) as (_ & _ & _ & A & B & _). auto.
Qed.

(** In the frame of the obstacles the commanded velocity is at most as fast as the initial one,
    provided some component has a weight; otherwise (hypothetical speed one) see below. *)
Theorem C32_speed_bound_partial : forall n dim magnitude s conv_of conv position env rel base trees,
  0 <= magnitude -> conv_of s = Ok conv -> get_end_vector conv = Ok base ->
  scene n position base trees ->
  compute_multiobstacle_relative_velocity position env = Ok rel ->
  exists v m cw, evaluate dim magnitude (Some s) conv_of position env trees = Ok v /\ v = vadd m rel /\
    avoidance_weights angle_of position base power (map mtree_of trees) = Ok (cw ++ [1 - rsum cw]) /\
    (cw <> [] -> norm m <= magnitude) /\ (cw = [] -> norm m = 1).
Proof.
  intros n dim magnitude s conv_of conv position env rel base trees Hm Ec Eb S Er.
  destruct (evaluate_avoidance_ok n position conv base trees S Eb)
    as (tt & data & final & normals & cw & fv & Ed & Ea & _ & _ & _ & _ & _ & _ & Ecl & _ & Ef & Uf & Lf & Nc & Sc & Pc & Ln & Un & Nd & Rr).
  set (records := map snd data) in *.
  assert (Nr : records <> []) by (unfold records; destruct data; [contradiction|discriminate]).
  unfold evaluate_sequence. destruct trees as [|t0 tl] eqn:Et; [destruct (sc_trees _ _ _ _ S); auto|]. rewrite <- Et in *.
  rewrite Er. cbn [bind]. rewrite Ec. cbn [bind]. rewrite Ea. cbn [bind]. rewrite Ef. cbn [bind].
  assert (Av : avoidance_weights angle_of position base power (map mtree_of trees) = Ok (cw ++ [1 - rsum cw])).
  { unfold avoidance_weights.
    assert (M : mapM (tree_obstacle_weights angle_of position base power) (map mtree_of trees)
                = Ok (map (fun d : btree * list R * list R * (R * R) => snd (fst (fst d))) data)).
    { clear - Ed. revert data Ed. induction trees as [|t trees IH]; intros data Ed; simpl in *.
      - injection Ed as <-. auto.
      - destruct (tree_data _ _ _ _ _ _ t) as [d|] eqn:Et; [|discriminate]. cbn [bind] in Ed.
        destruct (mapM _ trees) as [ds|] eqn:Em; [|discriminate]. cbn [bind] in Ed. injection Ed as <-.
        unfold tree_data in Et. destruct (convergence_record _ _ _ _ _); [|discriminate]. cbn [bind] in Et.
        destruct (tree_gamma_and_weights _ _ _ _ _) as [(?, ?)|]; [|discriminate]. cbn [bind] in Et.
        destruct (tree_obstacle_weights _ _ _ _ (mtree_of t)) as [ws|]; [|discriminate]. cbn [bind] in Et.
        destruct (tree_radiuses _ _ _ _ _); [|discriminate]. cbn [bind] in Et. injection Et as <-.
        cbn [bind]. rewrite (IH ds eq_refl). auto. }
    rewrite M. cbn [bind]. unfold final_weights. rewrite Ecl. auto. }
  unfold scaled_velocity. destruct cw as [|w0 cws] eqn:Ecw.
  - eexists _, fv, []. split; [reflexivity|]. split; auto. split; auto. split; [contradiction|].
    intros _. apply unit_norm. auto.
  - rewrite <- Ecw in *. assert (NE : cw <> []) by (rewrite Ecw; discriminate).
    specialize (Pc NE). rewrite Lf.
    assert (Mx : 0 < rmax_list cw).
    { destruct (Rlt_dec 0 (rmax_list cw)) as [|N]; auto. exfalso.
      assert (Z : forall x, In x cw -> x = 0).
      { intros x I. pose proof (rmax_ge cw x I). specialize (Nc x I). lra. }
      assert (rsum cw = 0); [|lra]. clear - Z. induction cw as [|a l IH]; simpl; auto.
      rewrite IH, (Z a); [ring|left; auto|intros; apply Z; right; auto]. }
    unfold fdiv. destruct (Req_EM_T (rmax_list cw) 0); [lra|]. cbn [bind].
    destruct (C28_slowfactor records (2/10) Nr ltac:(lra) Rr) as (sc & -> & Hs & _). cbn [bind].
    set (avg := averaged_normal n normals cw).
    assert (An : norm avg <= 1).
    { pose proof (averaged_normal_bound n normals cw Ln Nc ltac:(intros v0 I0; apply (Un v0 I0))). fold avg in H. lra. }
    destruct (C29_safe_scaling fv avg (1 / rmax_list cw) (8/10) 3 Uf An ltac:(lra) ltac:(lra)) as (p & Ep & Hp & _).
    rewrite Ep. pose proof (proj1 (unit_norm _) Uf) as Nf. rewrite Nf. destruct (Req_EM_T 1 0); [lra|].
    eexists _, _, cw. split; [reflexivity|]. split; [reflexivity|]. split; auto. split; [|contradiction].
    intros _. set (k := if Rltb p sc then p else sc).
    assert (Hk : 0 <= k <= 1) by (unfold k; destruct (Rltb p sc); auto).
    replace (vdiv fv 1) with fv.
    + rewrite !norm_vscale, Nf, !Rabs_pos_eq by (auto; apply Hk). nra.
    + vext. field.
Qed.
End C32.
Print Assumptions C32_no_velocity.
Print Assumptions C32_no_obstacles.
Print Assumptions C32_speed_bound_partial.

(** A sort by level. *)
Definition level_of (xa : nid * option attrs) : nat :=
  match snd xa with Some a => a_level a | None => 0%nat end.
Definition sort_by_level (t : tree) : list nid :=
  map fst (flat_map (fun k => filter (fun xa => level_of xa =? k)%nat (t_nodes t)) (seq 0 100)).
Lemma level_sort_perm {A} (f : A -> nat) (l : list A) : forall K,
  Permutation (flat_map (fun k => filter (fun x => f x =? k)%nat l) (seq 0 K)) (filter (fun x => f x <? K)%nat l).
Proof.
  induction K as [|K IH].
  - simpl. induction l; simpl; auto.
  - rewrite seq_S, flat_map_app. simpl. rewrite app_nil_r, IH. clear.
    induction l as [|a l IH]; simpl; auto.
    destruct (f a =? K)%nat eqn:E.
    + apply Nat.eqb_eq in E. destruct (Nat.ltb_spec (f a) K); [lia|]. destruct (Nat.ltb_spec (f a) (S K)); [|lia].
      rewrite <- Permutation_middle. constructor. auto.
    + apply Nat.eqb_neq in E. destruct (Nat.ltb_spec (f a) K); destruct (Nat.ltb_spec (f a) (S K)); try lia; simpl; auto.
Qed.
Lemma level_sort_order {A} (f : A -> nat) (l : list A) : forall K s l1 x l2 y l3,
  flat_map (fun k => filter (fun x => f x =? k)%nat l) (seq s K) = l1 ++ x :: l2 ++ y :: l3 -> (f x <= f y)%nat.
Proof.
  induction K as [|K IH]; intros s l1 x l2 y l3 E; simpl in E; [destruct l1; discriminate|].
  set (h := filter (fun x => f x =? s)%nat l) in *.
  assert (Hh : forall z, In z h -> f z = s) by (intros z I; apply filter_In in I; apply Nat.eqb_eq; apply I).
  set (r := flat_map (fun k => filter (fun x => f x =? k)%nat l) (seq (S s) K)) in *.
  assert (Hr : forall z, In z r -> (S s <= f z)%nat).
  { intros z I. apply in_flat_map in I. destruct I as (k & Ik & I). apply in_seq in Ik. apply filter_In in I.
    destruct I as [_ I]. apply Nat.eqb_eq in I. lia. }
  clearbody h. revert h Hh E. induction l1 as [|a l1 IH1]; intros [|b h] Hh E; simpl in E.
  - rewrite E in Hr. exact (IH (S s) [] x l2 y l3 E).
  - injection E as -> E. rewrite (Hh x (or_introl eq_refl)).
    assert (I : In y (h ++ r)) by (rewrite E; apply in_app_iff; right; left; auto).
    apply in_app_iff in I. destruct I as [I|I]; [rewrite (Hh y (or_intror I)); auto|]. specialize (Hr y I). lia.
  - exact (IH (S s) (a :: l1) x l2 y l3 E).
  - injection E as _ E. apply (IH1 h); auto. intros z I. apply Hh. right. auto.
Qed.
Lemma sort_by_level_sorted n t r : rooted_tree n t r -> level_sorted t (sort_by_level t).
Proof.
  intros W. split.
  - unfold sort_by_level. apply Permutation_map. rewrite level_sort_perm.
    assert (F : filter (fun x => level_of x <? 100)%nat (t_nodes t) = t_nodes t).
    { assert (H : forall xa, In xa (t_nodes t) -> (level_of xa < 100)%nat).
      { intros (x, oa) I. destruct (rt_node _ _ _ W x oa I) as (a & -> & _ & _ & L). exact L. }
      induction (t_nodes t) as [|xa l IH]; cbn [filter]; auto.
      pose proof (H xa (or_introl eq_refl)). destruct (Nat.ltb_spec (level_of xa) 100); [|lia].
      f_equal. apply IH. intros; apply H; right; auto. }
    rewrite F. auto.
  - intros x y a b (l1 & l2 & l3 & E) Na Nb. unfold sort_by_level in E.
    apply map_eq_app in E. destruct E as (m1 & m2 & E & _ & E2).
    apply map_eq_cons in E2. destruct E2 as (xa & m3 & -> & Ex & E3).
    apply map_eq_app in E3. destruct E3 as (m4 & m5 & -> & _ & E5).
    apply map_eq_cons in E5. destruct E5 as (yb & m6 & -> & Ey & _).
    pose proof (level_sort_order _ _ _ _ _ _ _ _ _ E) as L.
    assert (In1 : In xa (t_nodes t) /\ In yb (t_nodes t)).
    { assert (H : forall z, In z (flat_map (fun k => filter (fun xa => level_of xa =? k)%nat (t_nodes t)) (seq 0 100)) -> In z (t_nodes t)).
      { intros z I. apply in_flat_map in I. destruct I as (k & _ & I). apply filter_In in I. apply I. }
      split; apply H; rewrite E; apply in_app_iff; right; [left; auto|right; apply in_app_iff; right; left; auto]. }
    destruct In1 as [Ix Iy]. destruct xa as (x', oa), yb as (y', ob). simpl in Ex, Ey. subst x' y'.
    destruct (rt_node _ _ _ W x oa Ix) as (a' & -> & _). destruct (rt_node _ _ _ W y ob Iy) as (b' & -> & _).
    rewrite (node_unique n t r W x a a' Na Ix), (node_unique n t r W y b b' Nb Iy). exact L.
Qed.

(** One obstacle of one component, at distance two to the right of it. *)
Definition single_tree : btree := mkBTree [chain_comp] 0 (fun _ => None).
Definition left_of (d : vec) : vec := [- nth 1 d 0; nth 0 d 0].
Definition constant (base : vec) (t : tree) : Prop :=
  rooted_tree 2 t base_vel_id /\ forall x a, node t x a -> a_dir a = base.
Lemma constant_add base t x p t' : length base = 2%nat -> unitv base -> constant base t ->
  lift (add_node t x base (Some p) None None) = Ok t' -> constant base t'.
Proof.
  intros L U [W C] E. unfold lift in E. destruct (add_node t x base (Some p) None None) as (t1, [u|]) eqn:Ea; [|discriminate].
  injection E as <-. destruct u. split; [eapply add_node_rooted; eauto|].
  destruct (add_node_success 2 t base_vel_id x base p None None t1 W Ea) as (a & _ & _ & _ & _ & ->).
  intros y b N. unfold node in N. simpl in N. apply in_app_iff in N. destruct N as [N|[N|[]]]; [eapply C; eauto|].
  injection N as <- <-. simpl. rewrite (proj1 (unit_norm _) U). vext. field.
Qed.
Lemma single_walk : branch_walk [3; 0] 0 single_tree = Ok (mkWalk [0%nat] [[1; 0]] [[-1; 0]] [1; 0]).
Proof.
  unfold branch_walk, branch_walk_upto. simpl. destruct (Rltb 1 2) eqn:E; [reflexivity|].
  apply Rltb_false in E. lra.
Qed.
Lemma single_scene orth0 angle_of power base : (forall v, length (orth0 v) = length v) -> 0 <= power ->
  length base = 2%nat -> unitv base -> (dot [1; 0] base < 0 -> base = [-1; 0]) ->
  scene orth0 angle_of left_of sort_by_level power (PI * / 2) None 2 [3; 0] base [single_tree].
Proof.
  intros Ho Hp L U Hb. pose proof PI_RGT_0 as HP. constructor; auto.
  - apply sort_by_level_sorted.
  - discriminate.
  - apply picks_2d.
  - intros t [<-|[]]. split; [simpl; lia|]. simpl. intros i Hi Ni. lia.
  - intros i j d Hi Hj _ _. simpl in *. lia.
  - intros t c [<-|[]] [<-|[]]. split; auto. unfold unitv, dot. simpl. ring.
  - intros t c p [<-|[]] [<-|[]]. split; auto. unfold unitv, dot. simpl. ring.
  - intros t i [<-|[]] Hi. simpl in Hi. replace i with 0%nat by lia. eexists. split; [apply single_walk|].
    simpl. split; auto. split; auto. apply norm_neq_0_dot. unfold dot. simpl. lra.
  - lra.
  - discriminate.
  - intros t c _ _ _ N. contradiction.
  - intros tt0 tt data nodes normals E0 Ed Ep.
    assert (Dd : exists ws rs rec, data = [(single_tree, ws, rs, rec)] /\ nth 0 rs 0 = PI / 2).
    { cbn [mapM] in Ed. unfold tree_data in Ed. destruct (convergence_record _ _ _ _ _) as [rec|]; [|discriminate]. cbn [bind] in Ed.
      destruct (tree_gamma_and_weights _ _ _ _ _) as [(g, w)|] eqn:Eg; [|discriminate]. cbn [bind] in Ed.
      apply (gammas_ok orth0 angle_of left_of) in Eg. destruct Eg as [Lg _].
      destruct (tree_obstacle_weights _ _ _ _ _) as [ws|]; [|discriminate]. cbn [bind] in Ed.
      destruct (tree_radiuses _ _ _ _ _) as [rs|] eqn:Er; [|discriminate]. cbn [bind] in Ed. injection Ed as <-.
      exists ws, rs, rec. split; auto. unfold tree_radiuses in Er.
      simpl in Lg. destruct g as [|g0 [|g1 gl]]; simpl in Lg; try lia. cbn [combine mapM bind bt_comps single_tree] in Er.
      rewrite C27_repulsion_disabled in Er. injection Er as <-. simpl. lra. }
    destruct Dd as (ws & rs & rec & -> & Hrs). cbn [map fst] in Ep.
    assert (C0 : constant base tt0).
    { destruct (set_root_rooted 2 base_vel_id base tt0 ltac:(lia) L E0) as (W0 & N0 & _). split; auto.
      intros x a N. unfold node in N. rewrite N0 in N. destruct N as [N|[]]. injection N as <- <-.
      simpl. rewrite (proj1 (unit_norm _) U). vext. field. }
    assert (C : constant base tt).
    { cbn [populate_all] in Ep. unfold populate_tree in Ep.
      destruct (lift (add_node tt0 (node_key 0 (-1) (-1)) base (Some base_vel_id) None None)) as [t1|] eqn:E1; [|discriminate].
      pose proof (constant_add base tt0 _ _ t1 L U C0 E1) as C1. cbn [bind] in Ep.
      simpl length in Ep. cbn [seq populate_components] in Ep.
      destruct (Rle_dec (nth 0 ws 0) 0).
      - cbn [bind] in Ep. injection Ep as <- _ _. auto.
      - unfold branch_update in Ep. rewrite single_walk in Ep. cbn [bind branch_steps branch_nodes w_refs w_ids tl combine rev w_normals] in Ep.
        change (get_bcomp single_tree 0) with (Ok chain_comp) in Ep. cbn [bind nth] in Ep.
        destruct (c_tail (b_comp chain_comp) || Rltb (dot [1; 0] base) 0) eqn:Q.
        + assert (Eb : base = [-1; 0]) by (apply Hb; apply Rltb_true; exact Q).
          destruct (Rltb (PI * / 2) (nth 0 rs 0)) eqn:Q2; [apply Rltb_true in Q2; lra|]. clear Q2.
          rewrite Eb, C60_aligned_unchanged, <- Eb in Ep.
          2: { rewrite Hrs, cos_PI2. unfold dot. simpl. lra. }
          cbn [bind] in Ep.
          destruct (lift (add_node t1 _ base _ None None)) as [t3|] eqn:E3; [|discriminate].
          pose proof (constant_add base t1 _ _ t3 L U C1 E3) as C3. cbn [bind] in Ep. injection Ep as <- _ _. auto.
        + cbn [bind] in Ep.
          destruct (lift (add_node t1 _ base _ None None)) as [t3|] eqn:E3; [|discriminate].
          pose proof (constant_add base t1 _ _ t3 L U C1 E3) as C3. cbn [bind] in Ep. injection Ep as <- _ _. auto. }
    destruct C as [W C]. split.
    + intros p x a b _ Na Nb. rewrite (C p a Na), (C x b Nb), U. lra.
    + intros p x a b _ Na Nb. left. rewrite (C p a Na), (C x b Nb). auto.
Qed.

Lemma norm_vadd_zero m k : norm (vadd m (vzero k)) = norm m.
Proof.
  unfold norm. f_equal. rewrite dot_vadd_l, !dot_vadd_r, !dot_vzero_r, dot_vzero_l. ring.
Qed.
Lemma constant_sequence base : length base = 2%nat -> unitv base ->
  exists s, create_from_vector_array [base; base] = Ok s /\ get_end_vector s = Ok base.
Proof.
  intros L U. pose proof (proj1 (unit_norm _) U) as N.
  assert (D : direction base = base) by (unfold direction; rewrite N; vext; field).
  destruct (C07_end_vector 2 [] base base) as (s & E & End); auto.
  - simpl. auto.
  - intros x [<-|[<-|[]]]; rewrite N; unfold isclose; apply Rleb_false; rewrite Rminus_0_r, Rabs_R1, Rabs_R0; lra.
  - intros i Hi. simpl in Hi. replace i with 0%nat by lia. simpl. rewrite D, U. lra.
  - exists s. split; auto. rewrite End, D. auto.
Qed.
Lemma single_weights angle_of base power rw :
  get_rotation_weight angle_of [1; 0] [-1; 0] base 2 (PI * / 2) power (PI * / 2) = Ok rw ->
  tree_obstacle_weights angle_of [3; 0] base power (mtree_of single_tree) = Ok [rw].
Proof.
  intros E. unfold tree_obstacle_weights, tree_gamma_and_weights.
  change (tree_gammas [3; 0] (mtree_of single_tree)) with [2].
  assert (K : count_le 1 [2] = 0%nat).
  { unfold count_le. cbn [filter]. destruct (Rleb 2 1) eqn:Q; [apply Rleb_true in Q; lra|]. auto. }
  assert (F : fdiv 1 (2 - 1) = Ok 1).
  { unfold fdiv. destruct (Req_EM_T (2 - 1) 0); [lra|]. f_equal. field. }
  assert (W : compute_weights_from_distances [2] 1 false = Ok [1]).
  { unfold compute_weights_from_distances. rewrite K. cbn [Nat.ltb Nat.leb mapM]. rewrite F. reflexivity. }
  rewrite W. cbn [bind].
  change (get_component (mtree_of single_tree) (m_root (mtree_of single_tree))) with (Ok (b_comp chain_comp)).
  cbn [bind]. change (c_normal (b_comp chain_comp) [3; 0]) with [1; 0].
  change (c_refdir (b_comp chain_comp) [3; 0]) with [-1; 0]. change (rmin_list [2]) with 2.
  rewrite E. cbn [bind]. unfold compute_gamma_and_weights. rewrite W. cbn [bind].
  change (compute_parent_occlusion_weight [3; 0] (mtree_of single_tree)) with (Ok [1]).
  replace (rsum [1]) with 1 by (simpl; ring).
  destruct (Reqb 1 0) eqn:Q; [apply Reqb_true in Q; lra|]. cbn [orb].
  destruct (Reqb rw 0) eqn:Q2; cbn [bind map combine fst snd]; f_equal; f_equal.
  - apply Reqb_true in Q2. rewrite Q2. ring.
  - field.
Qed.

(** The speed bound is wrong without weighted components: heading straight for the reference
    point, the obstacle has no weight and the result is a unit vector whatever the magnitude
    of the initial velocity (line 331 returns before the scaling). *)
Theorem C32_speed_bound_refuted : forall angle_of orth0 power,
  (forall v, length (orth0 v) = length v) -> (forall v, norm (angle_of v v) = 0) -> 0 < power ->
  exists position base s trees magnitude v,
    create_from_vector_array [base; base] = Ok s /\
    scene orth0 angle_of left_of sort_by_level power (PI * / 2) None 2 position base trees /\
    compute_multiobstacle_relative_velocity position [] = Ok (vzero 2) /\
    evaluate_sequence orth0 angle_of (get_projected_tangent left_of) sort_by_level power (PI * / 2) None 2 magnitude (Some s)
      (fun s => Ok s) position [] trees = Ok v /\
    0 < magnitude /\ magnitude < norm v.
Proof.
  intros angle_of orth0 power Ho Ha Hp. set (base := [-1; 0]).
  assert (U : unitv base) by (unfold unitv, base, dot; simpl; ring).
  destruct (constant_sequence base eq_refl U) as (s & Es & End).
  pose proof (single_scene orth0 angle_of power base Ho ltac:(lra) eq_refl U (fun _ => eq_refl)) as S.
  assert (Rel : compute_multiobstacle_relative_velocity [3; 0] [] = Ok (vzero 2)).
  { unfold compute_multiobstacle_relative_velocity, compute_gamma_weights. simpl.
    destruct (Rle_dec 0 1); reflexivity. }
  destruct (C32_speed_bound_partial orth0 angle_of left_of sort_by_level power (PI * / 2) None
              2 2 (1/2) s (fun s => Ok s) s [3; 0] [] (vzero 2) base [single_tree]) as (v & m & cw & Ev & Vm & Ew & _ & Hm); auto; try lra.
  exists [3; 0], base, s, [single_tree], (1/2), v.
  split; auto. split; auto. split; auto. split; auto. split; [lra|].
  assert (RW : get_rotation_weight angle_of [1; 0] [-1; 0] base 2 (PI * / 2) power (PI * / 2) = Ok 0).
  { unfold get_rotation_weight. destruct (Rle_dec 2 1); [lra|].
    replace (dot base [1; 0]) with (-1) by (unfold base, dot; simpl; ring).
    replace (cos (PI * / 2)) with 0 by (symmetry; apply cos_PI2).
    destruct (Rltb 0 (-1)) eqn:Q; [apply Rltb_true in Q; lra|].
    replace (vscale (-1) [1; 0]) with base by (unfold base, vscale; simpl; v2).
    change [-1; 0] with base. rewrite Ha.
    assert (Z : norm (vsub (angle_of base base) (angle_of base base)) = 0).
    { apply norm_eq_0_dot. rewrite dot_vsub_l, dot_vsub_r. ring. }
    rewrite Z. pose proof PI_RGT_0. destruct (Rle_dec _ 0) as [L|L].
    - rewrite Rmin_left in L by lra. lra.
    - destruct (Req_EM_T 0 0); [|lra]. destruct (Req_EM_T power 0); [lra|]. destruct (Rlt_dec 0 power); [auto|lra]. }
  pose proof (single_weights angle_of base power 0 RW) as Wt.
  assert (C : cw = []).
  { unfold avoidance_weights in Ew. simpl map in Ew. simpl mapM in Ew. rewrite Wt in Ew. cbn [bind] in Ew.
    unfold final_weights, cluster_weights in Ew. simpl length in Ew. cbn [Nat.eqb] in Ew.
    destruct (get_limited_weights_to_max_sum _) as [(nw, tot)|]; [|discriminate]. cbn [bind] in Ew.
    assert (P0 : positive_normalised [0] = []).
    { unfold positive_normalised. simpl. destruct (Rltb 0 0) eqn:Q; [apply Rltb_true in Q; lra|]. auto. }
    simpl map in Ew. rewrite P0 in Ew.
    assert (Cn : concat (map (fun wc : R * list R => map (fun w => fst wc * w) (snd wc)) (combine nw [[]])) = []).
    { destruct nw as [|? [|]]; reflexivity. }
    rewrite Cn in Ew. injection Ew as Ew. destruct cw as [|? [|]]; simpl in Ew; auto; discriminate. }
  rewrite Vm, norm_vadd_zero, (Hm C). lra.
Qed.
Print Assumptions C32_speed_bound_refuted.

(** A tangential initial velocity of speed three: the obstacle has weight one half. *)
Example C32_case : forall orth0, (forall v, length (orth0 v) = length v) ->
  exists s v, create_from_vector_array [[0; 1]; [0; 1]] = Ok s /\
    evaluate_sequence orth0 (fun d v => [acos (dot d v)]) (get_projected_tangent left_of) sort_by_level 1 (PI * / 2) None 2 3 (Some s)
      (fun s => Ok s) [3; 0] [] [single_tree] = Ok v /\ norm v <= 3.
Proof.
  intros orth0 Ho. set (base := [0; 1]).
  assert (U : unitv base) by (unfold unitv, base, dot; simpl; ring).
  destruct (constant_sequence base eq_refl U) as (s & Es & End).
  pose proof (single_scene orth0 (fun d v => [acos (dot d v)]) 1 base Ho ltac:(lra) eq_refl U ltac:(unfold dot; simpl; lra)) as S.
  assert (Rel : compute_multiobstacle_relative_velocity [3; 0] [] = Ok (vzero 2)).
  { unfold compute_multiobstacle_relative_velocity, compute_gamma_weights. simpl.
    destruct (Rle_dec 0 1); reflexivity. }
  destruct (C32_speed_bound_partial orth0 (fun d v => [acos (dot d v)]) left_of sort_by_level 1 (PI * / 2) None
              2 2 3 s (fun s => Ok s) s [3; 0] [] (vzero 2) base [single_tree]) as (v & m & cw & Ev & Vm & Ew & Hm & _); auto; try lra.
  exists s, v. split; auto. split; auto.
  assert (RW : get_rotation_weight (fun d v => [acos (dot d v)]) [1; 0] [-1; 0] base 2 (PI * / 2) 1 (PI * / 2) = Ok (1 / 2)).
  { unfold get_rotation_weight. destruct (Rle_dec 2 1); [lra|].
    replace (dot base [1; 0]) with 0 by (unfold base, dot; simpl; ring).
    replace (cos (PI * / 2)) with 0 by (symmetry; apply cos_PI2).
    destruct (Rltb 0 0) eqn:Q; [apply Rltb_true in Q; lra|].
    replace (dot (vscale (-1) [1; 0]) [-1; 0]) with 1 by (unfold vscale, dot; simpl; ring).
    replace (dot (vscale (-1) [1; 0]) base) with 0 by (unfold base, vscale, dot; simpl; ring).
    rewrite acos_1, acos_0. replace (norm [0]) with 0 by (symmetry; apply norm_eq_0_dot; unfold dot; simpl; ring).
    replace (norm (vsub [0] [PI / 2])) with (PI * / 2).
    - destruct (Rle_dec _ _) as [L|L]; [auto|]. exfalso. apply L. rewrite Rmin_left by lra. lra.
    - unfold norm. replace (dot (vsub [0] [PI / 2]) (vsub [0] [PI / 2])) with ((PI * / 2) * (PI * / 2))
        by (unfold vsub, vscale, dot; simpl; field). rewrite sqrt_square; auto. pose proof PI_RGT_0. lra. }
  pose proof (single_weights _ base 1 (1/2) RW) as Wt.
  assert (C : cw <> []).
  { intros ->. unfold avoidance_weights in Ew. simpl map in Ew. simpl mapM in Ew. rewrite Wt in Ew. cbn [bind] in Ew.
    destruct (C24_partition_partial [[1/2]]) as (fw & E & _ & _ & Lf); auto; try discriminate.
    - intros ws [<-|[]] x [<-|[]]. lra.
    - intros i j Hi Hj _ _. simpl in *. lia.
    - rewrite E in Ew. injection Ew as ->. unfold last_weight in Lf. simpl in Lf. rewrite Rmax_right in Lf; lra. }
  rewrite Vm, norm_vadd_zero. apply (Hm C).
Qed.
