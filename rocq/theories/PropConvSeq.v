(** Property C65: the convergence sequence of a scene. *)
Require Import Reals List Lia Lra Bool ZArith.
From Verif Require Import Base Vec Angle RotModel Spec RotProofs SeqProofs TreeModel TreeSpec TreeProofs
  TreeWeights TreeReduce TreeGeom TreeCases PropRotation PropTree Pow WeightModel WeightProofs PropWeights AvoidModel
  PropTangent PropContact ConvModel ConvProofs PropConverge.
Import ListNotations.
Open Scope R_scope.

(** ** Specification *)
Section Spec.
Variables (weight_of : vec -> component -> res R) (A : vec).
(** Smallest gamma of the tree's components at the attractor. *)
Definition attractor_gamma (mt : mtree) (g : R) : Prop :=
  (exists c, In c (m_comps mt) /\ g = c_gamma c A) /\ forall c, In c (m_comps mt) -> g <= c_gamma c A.
(** Influence of a tree: none when it covers the attractor, full from gamma 2 on. *)
Definition tree_share (g : R) : R := Rmax 0 (Rmin 1 (g - 1)).
(** Component [c] of tree [j] takes part with weight [w]. *)
Definition share (position : vec) (trees : list mtree) (j c : nat) (w : R) : Prop :=
  exists mt g comp wc, nth_error trees j = Some mt /\ attractor_gamma mt g /\
    nth_error (m_comps mt) c = Some comp /\ weight_of position comp = Ok wc /\ w = wc * tree_share g /\
    1 / 1000000 < tree_share g /\ (if (c =? m_root mt)%nat then 1 / 1000000 else 1 / 100) < wc.

(** One step of the way of reference points, seen from the attractor. *)
Definition hop (n : nat) (p q : vec) : Prop :=
  length p = n /\ length q = n /\ norm (vsub A p) <> 0 /\ norm (vsub A q) <> 0 /\
  related (direction (vsub A p)) (direction (vsub A q)).
(** From the point [p] over the reference points of component [i] and its ancestors. *)
Inductive leads (n : nat) (mt : mtree) : nat -> nat -> vec -> Prop :=
| leads_root i p c : i = m_root mt -> nth_error (m_comps mt) i = Some c -> hop n p (c_refpoint c) ->
    leads n mt 1 i p
| leads_parent i p c j k : i <> m_root mt -> nth_error (m_comps mt) i = Some c ->
    hop n p (c_refpoint c) -> m_parent mt i = Some j -> leads n mt k j (c_refpoint c) ->
    leads n mt (S k) i p.
End Spec.

Section Conv.
Variable orth0 : vec -> vec.
Variable sort : tree -> list nid.
Variable initial_dynamics : dynamics.
Variable default_dynamics : option dynamics.
Variable A : vec.
Variable weight_of : vec -> component -> res R.
Let reference_dynamics := match default_dynamics with None => initial_dynamics | Some d => d end.

(** The dynamics at the reference point of the tree's root: sequence and final direction. *)
Definition root_dynamics (mt : mtree) (root : component) (cs : sequence) (e : vec) : Prop :=
  nth_error (m_comps mt) (m_root mt) = Some root /\
  evaluate_dynamics_sequence (c_refpoint root) reference_dynamics None = Ok (Some cs) /\
  get_end_vector cs = Ok e.

(** What the computation relies on for one tree. *)
Record tree_ready (n : nat) (position : vec) (s0 : sequence) (mt : mtree) : Prop := {
  tr_root : (m_root mt < length (m_comps mt))%nat;
  tr_weight : forall c, In c (m_comps mt) -> exists w, weight_of position c = Ok w /\ 0 <= w <= 1;
  (* for a tree which does not cover the attractor *)
  tr_ref : forall g root, attractor_gamma A mt g -> 1 / 1000000 < tree_share g ->
     nth_error (m_comps mt) (m_root mt) = Some root ->
     length (c_refpoint root) = n /\ norm (vsub A (c_refpoint root)) <> 0 /\
     exact_pair (direction (vsub A position)) (direction (vsub A (c_refpoint root)));
  tr_conv : forall g root, attractor_gamma A mt g -> 1 / 1000000 < tree_share g ->
     nth_error (m_comps mt) (m_root mt) = Some root ->
     exists cs e, root_dynamics mt root cs e /\ (length cs <= 50)%nat /\
       passes n cs (direction (vsub A (c_refpoint root))) e /\
       related_path (direction (vsub A (c_refpoint root))) (stops cs e);
  tr_average : forall root r cs w s e, nth_error (m_comps mt) (m_root mt) = Some root ->
     weight_of position root = Ok w ->
     evaluate_rotation_start_to_end position (c_refpoint root) A = Ok (Some r) ->
     evaluate_dynamics_sequence (c_refpoint root) reference_dynamics None = Ok cs ->
     vector_rotation_reduction orth0 sort s0 (Some r) cs w = Ok s -> get_end_vector s = Ok e ->
     related_path (direction (vsub A position)) (stops s e);
  tr_way : forall i c w, i <> m_root mt -> nth_error (m_comps mt) i = Some c ->
     weight_of position c = Ok w -> 1 / 100 < w -> exists k, leads A n mt k i position /\ (k < 50)%nat }.

Record conv_ready (n : nat) (position : vec) (s0 : sequence) (e0 : vec) (trees : list mtree) : Prop := {
  cr_dim : (2 <= n)%nat;
  cr_orth : forall v, length (orth0 v) = length v;
  cr_sort : forall n t r, rooted_tree n t r -> level_sorted t (sort t);
  cr_attractor : dy_attractor initial_dynamics = Some A;
  cr_len : length A = n /\ length position = n /\ norm (vsub A position) <> 0;
  cr_start : passes n s0 (direction (vsub A position)) e0;
  cr_path : related_path (direction (vsub A position)) (stops s0 e0);
  cr_short : (length s0 <= 50)%nat;
  cr_trees : forall mt, In mt trees -> tree_ready n position s0 mt }.

(** ** Keys of the nodes *)
Definition key (x : nid) : Z * Z :=
  match x with
  | NPair (NInt j) (NInt c) => (j, c)
  | NPair (NPair (NInt j) (NInt c)) _ => (j, c)
  | NTriple (NInt j) (NInt c) _ => (j, c)
  | _ => (-1, -1)%Z
  end.
Definition owned (D : nat -> nat -> Prop) (x : nid) : Prop :=
  fst (key x) = (-1)%Z \/ exists j c, D j c /\ key x = (Z.of_nat j, Z.of_nat c).
Lemma owned_fresh D x j c : owned D x -> key x = (Z.of_nat j, Z.of_nat c) -> D j c.
Proof.
  intros [H|(j' & c' & H & E)] K; rewrite K in *; simpl in *; [lia|].
  injection E as E1 E2. apply Nat2Z.inj in E1, E2. subst. auto.
Qed.

Lemma tree_weight_eq mt g : dy_attractor initial_dynamics = Some A -> attractor_gamma A mt g ->
  exists og, tree_gamma_at initial_dynamics mt = Ok og /\ compute_tree_weight og 2 = Ok (tree_share g).
Proof.
  intros HA [(c & Ic & Eg) Hm]. unfold tree_gamma_at, singularity. rewrite HA.
  assert (G : rmin_list (tree_gammas A mt) = g).
  { assert (NE : tree_gammas A mt <> []).
    { unfold tree_gammas. destruct (m_comps mt); [contradiction|discriminate]. }
    pose proof (rmin_list_in _ NE) as I. unfold tree_gammas in I. apply in_map_iff in I.
    destruct I as (c' & E' & I'). specialize (Hm c' I').
    assert (rmin_list (tree_gammas A mt) <= g).
    { apply rmin_list_le. unfold tree_gammas. apply in_map_iff. exists c. auto. }
    unfold tree_gammas in *. lra. }
  unfold tree_gammas in *. destruct (map _ (m_comps mt)) as [|x l] eqn:E.
  { apply map_eq_nil in E. rewrite E in Ic. contradiction. }
  exists (Some g). rewrite <- G. split; auto. rewrite G.
  unfold compute_tree_weight, tree_share, Rmax, Rmin.
  destruct (Rle_dec g 1).
  - destruct (Rle_dec 1 (g - 1)); [lra|]. destruct (Rle_dec 0 (g - 1)); auto. f_equal. lra.
  - destruct (Rle_dec 2 g).
    + destruct (Rle_dec 1 (g - 1)); [|lra]. destruct (Rle_dec 0 1); auto; lra.
    + destruct (Rle_dec 1 (g - 1)); [lra|]. destruct (Rle_dec 0 (g - 1)); [|lra].
      unfold fdiv. destruct (Req_EM_T (2 - 1) 0); [lra|]. f_equal. field.
Qed.
Lemma attractor_gamma_ex mt : m_comps mt <> [] -> exists g, attractor_gamma A mt g.
Proof.
  intros NE. exists (rmin_list (map (fun c => c_gamma c A) (m_comps mt))).
  assert (NE' : map (fun c => c_gamma c A) (m_comps mt) <> []) by (destruct (m_comps mt); [contradiction|discriminate]).
  split.
  - pose proof (rmin_list_in _ NE') as I. apply in_map_iff in I. destruct I as (c & E & I). eauto.
  - intros c I. apply rmin_list_le. apply in_map_iff. eauto.
Qed.
Lemma attractor_gamma_unique mt g g' : attractor_gamma A mt g -> attractor_gamma A mt g' -> g = g'.
Proof.
  intros [(c & I & E) M] [(c' & I' & E') M']. specialize (M c' I'). specialize (M' c I). lra.
Qed.
Lemma tree_share_range g : 0 <= tree_share g <= 1.
Proof. unfold tree_share, Rmax, Rmin. destruct (Rle_dec 1 (g - 1)), (Rle_dec 0 _); lra. Qed.

(** ** Way of reference points *)
Lemma hop_rotation n p q : (2 <= n)%nat -> length A = n -> hop A n p q ->
  exists r, evaluate_rotation_start_to_end p q A = Ok (Some r) /\ rotate r (rb0 r) 1 = direction (vsub A q) /\
    length (direction (vsub A q)) = n /\ unitv (direction (vsub A q)).
Proof.
  intros Hn LA (Lp & Lq & Np & Nq & R1 & R2).
  destruct (C63_rotation_to_reference n p q A Hn Lp Lq LA) as (_ & _ & _ & H).
  destruct (H Np Nq R1) as (r & E & _ & _ & _ & _ & X). exists r. split; auto. split; auto.
  split; [unfold direction; autorewrite with vlen; lia|apply dirof_unit; auto].
Qed.

Lemma chain_up_sound n mt jt jc : (2 <= n)%nat -> length A = n -> dy_attractor initial_dynamics = Some A ->
  forall k i p, leads A n mt k i p -> forall t pred a pp fuel,
  sound n t conv_root_id -> node t pred a -> a_dir a = direction (vsub A p) ->
  (a_level a + k < 100)%nat -> (k <= fuel)%nat ->
  (forall x, In x (ids t) -> x <> conv_step_id jt jc pp /\ forall d, x <> conv_step_id jt jc (pp + d)) ->
  exists t' q b root, chain_up initial_dynamics t mt jt jc pp fuel i pred p = Ok (t', q) /\
    sound n t' conv_root_id /\ keeps t t' /\ node t' q b /\ a_level b = (a_level a + k)%nat /\
    nth_error (m_comps mt) (m_root mt) = Some root /\ a_dir b = direction (vsub A (c_refpoint root)) /\
    (forall x, In x (ids t') -> In x (ids t) \/ exists d, x = conv_step_id jt jc d).
Proof.
  intros Hn LA HA k i p L. induction L as [i p c Ei Ec Hp|i p c j k Ni Ec Hp Ej L IH];
    intros t pred a pp fuel So Na Da Hl Hf Fr.
  - destruct fuel as [|fuel]; [lia|]. cbn [chain_up].
    unfold get_component. rewrite Ec. cbn [bind]. unfold singularity. rewrite HA. cbn [bind].
    destruct (hop_rotation n p (c_refpoint c) Hn LA Hp) as (r & Er & Ed & Ld & Ud).
    rewrite Er. cbn [bind].
    destruct (add_node_sound n t conv_root_id (conv_step_id jt jc pp) (direction (vsub A (c_refpoint c))) pred a)
      as (t1 & E1 & S1 & I1 & K1 & N1 & _); auto.
    { lia. }
    { apply norm_neq_0_dot. unfold unitv in Ud. lra. }
    { intros I. apply (Fr _ I). auto. }
    { rewrite (direction_unitv _ Ud), Da. apply Hp. }
    unfold add_node_orientation. rewrite Ed, E1. cbn [lift bind].
    replace (i =? m_root mt)%nat with true by (symmetry; apply Nat.eqb_eq; auto).
    eexists t1, _, _, c. split; [reflexivity|]. split; auto. split; auto. split; [exact N1|].
    simpl. split; [lia|]. split; [subst; auto|]. split; [apply direction_unitv; auto|].
    intros x I. rewrite I1 in I. apply in_app_iff in I. destruct I as [I|[<-|[]]]; eauto.
  - destruct fuel as [|fuel]; [lia|]. cbn [chain_up].
    unfold get_component. rewrite Ec. cbn [bind]. unfold singularity. rewrite HA. cbn [bind].
    destruct (hop_rotation n p (c_refpoint c) Hn LA Hp) as (r & Er & Ed & Ld & Ud).
    rewrite Er. cbn [bind].
    destruct (add_node_sound n t conv_root_id (conv_step_id jt jc pp) (direction (vsub A (c_refpoint c))) pred a)
      as (t1 & E1 & S1 & I1 & K1 & N1 & _); auto.
    { lia. }
    { apply norm_neq_0_dot. unfold unitv in Ud. lra. }
    { intros I. apply (Fr _ I). auto. }
    { rewrite (direction_unitv _ Ud), Da. apply Hp. }
    unfold add_node_orientation. rewrite Ed, E1. cbn [lift bind].
    replace (i =? m_root mt)%nat with false by (symmetry; apply Nat.eqb_neq; auto).
    unfold get_parent_idx. rewrite Ej. cbn [bind]. rewrite (direction_unitv _ Ud) in N1.
    destruct (IH t1 _ _ (S pp) fuel S1 N1) as (t2 & q & b & root & E2 & S2 & K2 & N2 & L2 & R2 & D2 & I2); auto.
    { simpl. lia. }
    { lia. }
    { intros x I. rewrite I1 in I. apply in_app_iff in I. destruct I as [I|[<-|[]]].
      - destruct (Fr x I) as [_ F]. split; [rewrite <- Nat.add_1_r; apply F|].
        intros d. replace (S pp + d)%nat with (pp + S d)%nat by lia. apply F.
      - unfold conv_step_id. split; [|intros d]; intros E; injection E as E; lia. }
    exists t2, q, b, root. unfold singularity in E2. split; auto. split; auto. split; [eapply keeps_trans; eauto|].
    split; auto. split; [simpl in L2; lia|]. split; auto. split; auto.
    intros x I. destruct (I2 x I) as [I'|I']; auto. rewrite I1 in I'. apply in_app_iff in I'.
    destruct I' as [I'|[<-|[]]]; eauto.
Qed.

(** ** The state of the loops *)
Section Loop.
Variables (n : nat) (position : vec) (s0 : sequence) (e0 : vec) (trees : list mtree).
Hypothesis READY : conv_ready n position s0 e0 trees.
Let b0 := direction (vsub A position).

Record cinv (D : nat -> nat -> Prop) (st : conv_state) : Prop := {
  ci_sound : sound n (cv_tree st) conv_root_id;
  ci_root : node (cv_tree st) conv_root_id (mkAttrs 0 b0);
  ci_init : exists l, node (cv_tree st) conv_init_id (mkAttrs l e0);
  ci_len : length (cv_nodes st) = length (cv_weights st);
  ci_keys : forall x, In x (ids (cv_tree st)) -> owned D x;
  ci_in : forall x, In x (cv_nodes st) -> In x (ids (cv_tree st));
  ci_nodup : NoDup (cv_nodes st);
  ci_list : forall x w, In (x, w) (combine (cv_nodes st) (cv_weights st)) <->
     exists j c, x = conv_id j c /\ D j c /\ share weight_of A position trees j c w;
  ci_dir : forall j c w mt root cs e, In (conv_id j c, w) (combine (cv_nodes st) (cv_weights st)) ->
     nth_error trees j = Some mt -> root_dynamics mt root cs e ->
     (c = m_root mt -> weight_of position root = Ok 1 /\
        dot b0 (direction (vsub A (c_refpoint root))) <> -1) ->
     exists l, node (cv_tree st) (conv_id j c) (mkAttrs l e) }.

Lemma cinv_weaken (D D' : nat -> nat -> Prop) st : cinv D st -> (forall j c, D j c -> D' j c) ->
  (forall j c w, D' j c -> share weight_of A position trees j c w -> D j c) -> cinv D' st.
Proof.
  intros [C1 C2 C3 C4 C5 C6 C7 C8 C9] H1 H2. constructor; auto.
  - intros x I. destruct (C5 x I) as [?|(j & c & HD & E)]; [left; auto|right; eauto 10].
  - intros x w. rewrite C8. split; intros (j & c & E & HD & Sh); exists j, c; eauto.
Qed.

Lemma app_combine_len {X Y} (l : list X) (m : list Y) x y : length l = length m ->
  combine (l ++ [x]) (m ++ [y]) = combine l m ++ [(x, y)].
Proof.
  revert m. induction l as [|a l IH]; intros [|b m] H; simpl in *; try lia; auto. f_equal. apply IH. lia.
Qed.
Lemma conv_id_inj j c j' c' : conv_id j c = conv_id j' c' -> j = j' /\ c = c'.
Proof. unfold conv_id. intros E. injection E as E1 E2. split; apply Nat2Z.inj; auto. Qed.

Lemma component_step_inv (D : nat -> nat -> Prop) st j mt g root cs e i :
  cinv D st -> nth_error trees j = Some mt -> attractor_gamma A mt g -> 1 / 1000000 < tree_share g ->
  root_dynamics mt root cs e -> (i < length (m_comps mt))%nat ->
  (i = m_root mt -> D j i) -> (i <> m_root mt -> ~ D j i) ->
  exists st', component_step initial_dynamics weight_of position mt j (tree_share g) (Some cs) st i = Ok st' /\
    cinv (fun j' c' => D j' c' \/ (j' = j /\ c' = i)) st'.
Proof.
  intros C Ej Hg Tg (Er & Ecs & Ee) Hi Dr Dn. unfold component_step.
  destruct (i =? m_root mt)%nat eqn:Ei.
  { apply Nat.eqb_eq in Ei. exists st. split; auto. eapply cinv_weaken; [exact C|auto|].
    intros j' c' w [?|[-> ->]] _; auto. }
  pose proof Ei as Ei'. apply Nat.eqb_neq in Ei'. specialize (Dn Ei').
  pose proof READY as [Hn HO HS HA (LA & Lp & Np) P0 R0 H0 HT].
  pose proof (HT mt (nth_error_In _ _ Ej)) as [T1 T2 T3 T4 T5 T6].
  unfold get_component. destruct (nth_error (m_comps mt) i) as [c|] eqn:Ec; [|apply nth_error_None in Ec; lia].
  cbn [bind]. destruct (T2 c (nth_error_In _ _ Ec)) as (w & Ew & Hw). rewrite Ew. cbn [bind].
  destruct (Rleb w (1 / 100)) eqn:Lw.
  { apply Rleb_true in Lw. exists st. split; auto. eapply cinv_weaken; [exact C|auto|].
    intros j' c' w' [?|[-> ->]] (mt' & g' & c'' & wc & E1 & _ & E3 & E4 & _ & _ & E6); auto.
    rewrite Ej in E1. injection E1 as <-. rewrite Ec in E3. injection E3 as <-. rewrite Ew in E4.
    injection E4 as <-. rewrite Ei in E6. lra. }
  apply Rleb_false in Lw.
  pose proof C as [C1 C2 (li & C3) C4 C5 C6 C7 C8 C9].
  destruct (T6 i c w Ei' Ec Ew Lw) as (k & Lk & Hk).
  destruct (chain_up_sound n mt j i Hn LA HA k i position Lk (cv_tree st) conv_root_id _ 0 maximum_level C1 C2)
    as (t1 & q & b & root' & E1 & S1 & K1 & N1 & L1 & Er' & D1 & I1); auto.
  { simpl. lia. }
  { unfold maximum_level. lia. }
  { intros x Ix. assert (G : forall d, x <> conv_step_id j i d).
    { intros d ->. apply Dn. eapply owned_fresh; [apply C5; eauto|reflexivity]. }
    split; auto. }
  rewrite E1. cbn [bind]. rewrite Er in Er'. injection Er' as <-.
  destruct (T4 g root Hg Tg Er) as (cs' & e' & (_ & Ecs' & Ee') & Lcs & Pcs & Rcs).
  rewrite Ecs in Ecs'. injection Ecs' as <-. rewrite Ee in Ee'. injection Ee' as <-.
  assert (FR : forall x, In x (ids t1) -> x <> conv_id j i /\ forall d, x <> NPair (conv_id j i) d).
  { intros x Ix. destruct (I1 x Ix) as [Ix'|(d & ->)].
    - split; [intros ->|intros d ->]; apply Dn; (eapply owned_fresh; [apply C5; eauto|reflexivity]).
    - split; [|intros d']; discriminate. }
  destruct (add_sequence_sound n t1 conv_root_id (conv_id j i) cs q b e S1 N1) as (t2 & l2 & E2 & S2 & I2 & K2 & N2 & Hl2 & _); auto.
  { rewrite D1. auto. }
  { rewrite L1. simpl. lia. }
  { intros Ix. apply (FR _ Ix). auto. }
  { intros d _ Ix. apply (proj2 (FR _ Ix) (NInt (Z.of_nat d))). auto. }
  { rewrite D1. auto. }
  rewrite E2. cbn [lift bind]. eexists. split; [reflexivity|].
  assert (K : keeps (cv_tree st) t2) by (eapply keeps_trans; eauto).
  constructor; cbn [cv_tree cv_nodes cv_weights]; auto.
  - exists li. auto.
  - rewrite !app_length. simpl. lia.
  - intros x Ix. rewrite I2 in Ix. apply in_app_iff in Ix. destruct Ix as [Ix|Ix].
    + destruct (I1 x Ix) as [Ix'|(d & ->)].
      * destruct (C5 x Ix') as [?|(j' & c' & HD & E)]; [left; auto|right; eauto 10].
      * right. exists j, i. split; auto.
    + apply in_app_iff in Ix. right. exists j, i. split; auto.
      destruct Ix as [Ix|[<-|[]]]; [|reflexivity]. unfold inter_ids in Ix. apply in_map_iff in Ix.
      destruct Ix as (d & <- & _). reflexivity.
  - intros x Ix. apply in_app_iff in Ix. destruct Ix as [Ix|[<-|[]]].
    + apply C6 in Ix. apply in_ids in Ix. destruct Ix as (oa & Ix).
      destruct (rt_node _ _ _ (so_rooted _ _ _ C1) x oa Ix) as (a & -> & _). eapply node_in_ids. apply K. exact Ix.
    + eapply node_in_ids; eauto.
  - apply NoDup_snoc; auto. intros Ix. apply C6 in Ix. apply Dn. eapply owned_fresh; [apply C5; eauto|reflexivity].
  - intros x w'. rewrite app_combine_len by auto. rewrite in_app_iff, C8. split.
    + intros [(j' & c' & E & HD & Sh)|[E|[]]].
      * exists j', c'. auto.
      * injection E as <- <-. exists j, i. split; auto. split; auto.
        exists mt, g, c, w. rewrite Ei. do 6 (split; auto).
    + intros (j' & c' & -> & [HD|[-> ->]] & Sh).
      * left. eauto.
      * right. left. destruct Sh as (mt' & g' & c'' & wc & E1' & Hg' & E3 & E4 & -> & _).
        rewrite Ej in E1'. injection E1' as <-. rewrite Ec in E3. injection E3 as <-. rewrite Ew in E4.
        injection E4 as <-. rewrite (attractor_gamma_unique mt g' g Hg' Hg). auto.
  - intros j' c' w' mt' root' cs' e' Ix E' Rd' Hc. rewrite app_combine_len in Ix by auto.
    apply in_app_iff in Ix. destruct Ix as [Ix|[Ix|[]]].
    + destruct (C9 j' c' w' mt' root' cs' e' Ix E' Rd' Hc) as (l & Nl). exists l. auto.
    + assert (Ex' : conv_id j i = conv_id j' c') by (apply (f_equal fst) in Ix; exact Ix).
      apply conv_id_inj in Ex'. destruct Ex' as [<- <-].
      rewrite Ej in E'. injection E' as <-. destruct Rd' as (Rd1 & Rd2 & Rd3). rewrite Er in Rd1. injection Rd1 as <-.
      rewrite Ecs in Rd2. injection Rd2 as <-. rewrite Ee in Rd3. injection Rd3 as <-. exists l2. exact N2.
Qed.

Lemma components_inv j mt g root cs e (D0 : nat -> nat -> Prop) :
  nth_error trees j = Some mt -> attractor_gamma A mt g -> 1 / 1000000 < tree_share g ->
  root_dynamics mt root cs e ->
  (forall i, i <> m_root mt -> ~ D0 j i) -> D0 j (m_root mt) ->
  forall k i st, (i + k = length (m_comps mt))%nat ->
  cinv (fun j' c' => D0 j' c' \/ (j' = j /\ (c' < i)%nat)) st ->
  exists st', foldM (component_step initial_dynamics weight_of position mt j (tree_share g) (Some cs)) st (seq i k)
      = Ok st' /\ cinv (fun j' c' => D0 j' c' \/ (j' = j /\ (c' < length (m_comps mt))%nat)) st'.
Proof.
  intros Ej Hg Tg Rd H0 Hr. induction k as [|k IH]; intros i st Hk C.
  - exists st. split; auto. replace i with (length (m_comps mt)) in C by lia. auto.
  - cbn [seq foldM].
    destruct (component_step_inv _ st j mt g root cs e i C Ej Hg Tg Rd) as (st1 & E1 & C1).
    { lia. }
    { intros ->. auto. }
    { intros Ni [H|[_ H]]; [apply (H0 i); auto|lia]. }
    rewrite E1. cbn [bind]. apply IH; [lia|].
    eapply cinv_weaken; [exact C1|..].
    + intros j' c' [[?|[-> ?]]|[-> ->]]; auto; right; split; auto; lia.
    + intros j' c' w [?|[-> H]] _; auto. destruct (Nat.eq_dec c' i) as [->|]; auto.
      left. right. split; auto. lia.
Qed.

Lemma tree_step_inv j mt st : nth_error trees j = Some mt ->
  cinv (fun j' c' => (j' < j)%nat) st ->
  exists st', tree_step orth0 sort initial_dynamics default_dynamics A weight_of position s0 mt j st = Ok st' /\
    cinv (fun j' c' => (j' < S j)%nat) st'.
Proof.
  intros Ej C. pose proof READY as [Hn HO HS HA (LA & Lp & Np) P0 R0 H0 HT].
  pose proof (HT mt (nth_error_In _ _ Ej)) as [T1 T2 T3 T4 T5 T6].
  assert (NE : m_comps mt <> []) by (destruct (m_comps mt); [simpl in T1; lia|discriminate]).
  destruct (attractor_gamma_ex mt NE) as (g & Hg).
  destruct (tree_weight_eq mt g HA Hg) as (og & Eo & Et).
  unfold tree_step. rewrite Eo. cbn [bind]. rewrite Et. cbn [bind].
  destruct (Rleb (tree_share g) (1 / 1000000)) eqn:Tg.
  { apply Rleb_true in Tg. exists st. split; auto. eapply cinv_weaken; [exact C|cbv beta; intros; lia|].
    intros j' c' w H (mt' & g' & c & wc & E1 & Hg' & _ & _ & _ & Tg' & _).
    destruct (Nat.eq_dec j' j) as [->|]; [|lia]. exfalso. rewrite Ej in E1. injection E1 as <-.
    rewrite (attractor_gamma_unique mt g' g Hg' Hg) in Tg'. lra. }
  apply Rleb_false in Tg.
  unfold get_component. destruct (nth_error (m_comps mt) (m_root mt)) as [root|] eqn:Er;
    [|apply nth_error_None in Er; lia].
  cbn [bind]. destruct (T2 root (nth_error_In _ _ Er)) as (w & Ew & Hw). rewrite Ew. cbn [bind].
  destruct (T3 g root Hg Tg eq_refl) as (Lr & Nr & Xr).
  destruct (T4 g root Hg Tg eq_refl) as (cs & e & Rd & Lcs & Pcs & Rcs). pose proof Rd as (_ & Ecs & Ee).
  assert (TR : exists tr, evaluate_rotation_start_to_end position (c_refpoint root) A = Ok tr /\
    (tr = None /\ dot b0 (direction (vsub A (c_refpoint root))) = -1 \/
     exists r, tr = Some r /\ rotate r (rb0 r) 1 = direction (vsub A (c_refpoint root)) /\
       related b0 (direction (vsub A (c_refpoint root))))).
  { destruct (C63_rotation_to_reference n position (c_refpoint root) A Hn Lp Lr LA) as (_ & _ & X3 & X4).
    destruct (Req_EM_T (dot b0 (direction (vsub A (c_refpoint root)))) (-1)) as [Q|Q].
    - exists None. split; [apply X3; auto|left; auto].
    - destruct (X4 Np Nr Q) as (r & E & _ & _ & _ & _ & X). exists (Some r). split; auto. right. exists r.
      split; auto. split; auto. split; auto. }
  destruct TR as (tr & Etr & Ctr). rewrite Etr. cbn [bind].
  unfold reference_dynamics in Ecs. rewrite Ecs. cbn [bind].
  assert (Ur : unitv (direction (vsub A (c_refpoint root)))) by (apply dirof_unit; auto).
  assert (Ldr : length (direction (vsub A (c_refpoint root))) = n)
    by (unfold direction; autorewrite with vlen; lia).
  assert (VR : exists s es, vector_rotation_reduction orth0 sort s0 tr (Some cs) w = Ok s /\ passes n s b0 es /\
     (length s < 100)%nat /\ related_path b0 (stops s es) /\
     (w = 1 -> dot b0 (direction (vsub A (c_refpoint root))) <> -1 -> es = e)).
  { destruct (Rle_lt_dec w 0) as [W|W].
    { exists s0, e0. rewrite C64_no_influence by auto. split; auto. split; auto. split; [lia|].
      split; auto. intros. lra. }
    destruct Ctr as [[-> Q]|(r & -> & Rr & Re)].
    { exists s0, e0. rewrite C64_no_influence by auto. split; auto. split; auto. split; [lia|].
      split; auto. intros. lra. }
    destruct (C64_transported_sequence orth0 sort HO HS n s0 b0 e0 r _ cs e w Hn P0 R0 H0 Rr Ldr Ur Re Pcs Rcs Lcs)
      as (s & es & Es & Ps & Ls & Ws); [lra|].
    exists s, es. split; auto. split; auto. split; auto. split; auto.
    apply (T5 root r (Some cs) w s es); auto. apply Ps. }
  destruct VR as (s & es & Es & Ps & Ls & Rs & Ws). rewrite Es. cbn [bind].
  pose proof C as [C1 C2 (li & C3) C4 C5 C6 C7 C8 C9].
  assert (FR : forall x, In x (ids (cv_tree st)) -> x <> conv_id j (m_root mt) /\
            forall d, x <> NPair (conv_id j (m_root mt)) d).
  { intros x Ix. split; [intros ->|intros d ->].
    - pose proof (owned_fresh _ _ j (m_root mt) (C5 _ Ix) eq_refl). simpl in *. lia.
    - pose proof (owned_fresh _ _ j (m_root mt) (C5 _ Ix) eq_refl). simpl in *. lia. }
  destruct (add_sequence_sound n (cv_tree st) conv_root_id (conv_id j (m_root mt)) s conv_root_id _ es C1 C2)
    as (t2 & l2 & E2 & S2 & I2 & K2 & N2 & Hl2 & _); auto.
  { intros Ix. apply (FR _ Ix). auto. }
  { intros d _ Ix. apply (proj2 (FR _ Ix) (NInt (Z.of_nat d))). auto. }
  rewrite E2. cbn [lift bind].
  set (st1 := if Rltb (1 / 1000000) w then _ else _).
  assert (CI : cinv (fun j' c' => ((j' < j)%nat \/ (j' = j /\ c' = m_root mt)) \/ (j' = j /\ (c' < 0)%nat)) st1).
  { apply cinv_weaken with (D := fun j' c' => (j' < j)%nat \/ (j' = j /\ c' = m_root mt)).
    2:{ intros; auto. } 2:{ intros j' c' ww [H|[_ H]] _; auto; lia. }
    assert (T : cv_tree st1 = t2) by (unfold st1; destruct (Rltb (1 / 1000000) w); auto).
    constructor; rewrite ?T; auto.
    - exists li. auto.
    - unfold st1. destruct (Rltb (1 / 1000000) w); cbn [cv_nodes cv_weights]; auto.
      rewrite !app_length. simpl. lia.
    - intros x Ix. rewrite I2 in Ix. apply in_app_iff in Ix. destruct Ix as [Ix|Ix].
      + destruct (C5 x Ix) as [?|(j' & c' & HD & E)]; [left; auto|right; eauto 10].
      + apply in_app_iff in Ix. right. exists j, (m_root mt). split; auto.
        destruct Ix as [Ix|[<-|[]]]; [|reflexivity]. unfold inter_ids in Ix. apply in_map_iff in Ix.
        destruct Ix as (d & <- & _). reflexivity.
    - assert (G : forall x, In x (cv_nodes st) -> In x (ids t2)).
      { intros x Ix. rewrite I2. apply in_app_iff. auto. }
      unfold st1. destruct (Rltb (1 / 1000000) w); cbn [cv_nodes]; auto.
      intros x Ix. apply in_app_iff in Ix. destruct Ix as [Ix|[<-|[]]]; auto. eapply node_in_ids; eauto.
    - unfold st1. destruct (Rltb (1 / 1000000) w); cbn [cv_nodes]; auto.
      apply NoDup_snoc; auto. intros Ix. apply C6 in Ix. apply (FR _ Ix). auto.
    - assert (Other : forall j' c' ww, ((j' < j)%nat \/ j' = j /\ c' = m_root mt) ->
         share weight_of A position trees j' c' ww -> (j' < j)%nat \/ (j' = j /\ c' = m_root mt /\ ww = w * tree_share g /\ 1 / 1000000 < w)).
      { intros j' c' ww [H|[-> ->]] (mt' & g' & c'' & wc & E1' & Hg' & E3 & E4 & -> & _ & E6); auto. right.
        rewrite Ej in E1'. injection E1' as <-. rewrite Er in E3. injection E3 as <-. rewrite Ew in E4.
        injection E4 as <-. rewrite Nat.eqb_refl in E6. rewrite (attractor_gamma_unique mt g' g Hg' Hg). auto. }
      intros x ww. unfold st1. destruct (Rltb (1 / 1000000) w) eqn:Lw; cbn [cv_nodes cv_weights].
      + apply Rltb_true in Lw. rewrite app_combine_len by auto. rewrite in_app_iff, C8. split.
        * intros [(j' & c' & E & HD & Sh)|[E|[]]]; [eauto 10|]. injection E as <- <-.
          exists j, (m_root mt). split; auto. split; auto. exists mt, g, root, w. rewrite Nat.eqb_refl. do 6 (split; auto).
        * intros (j' & c' & -> & HD & Sh). destruct (Other j' c' ww HD Sh) as [H|(-> & -> & -> & _)]; [left; eauto 10|].
          right. left. auto.
      + apply Rltb_false in Lw. rewrite C8. split; intros (j' & c' & -> & HD & Sh); exists j', c'; split; auto; split; auto.
        destruct (Other j' c' ww HD Sh) as [H|(_ & _ & _ & H)]; auto. lra.
    - intros j' c' ww mt' root' cs' e' Ix E' Rd' Hc.
      assert (Old : In (conv_id j' c', ww) (combine (cv_nodes st) (cv_weights st)) -> exists l, node t2 (conv_id j' c') (mkAttrs l e')).
      { intros I. destruct (C9 j' c' ww mt' root' cs' e' I E' Rd' Hc) as (l & Nl). exists l. auto. }
      unfold st1 in Ix. destruct (Rltb (1 / 1000000) w) eqn:Lw; cbn [cv_nodes cv_weights] in Ix; auto.
      rewrite app_combine_len in Ix by auto. apply in_app_iff in Ix. destruct Ix as [Ix|[Ix|[]]]; auto.
      assert (Ex' : conv_id j (m_root mt) = conv_id j' c') by (apply (f_equal fst) in Ix; exact Ix).
      apply conv_id_inj in Ex'. destruct Ex' as [<- <-].
      rewrite Ej in E'. injection E' as <-. destruct Rd' as (Rd1 & Rd2 & Rd3). rewrite Er in Rd1. injection Rd1 as <-.
      unfold reference_dynamics in Rd2. rewrite Ecs in Rd2. injection Rd2 as <-. rewrite Ee in Rd3. injection Rd3 as <-.
      destruct (Hc eq_refl) as [W1 Q]. rewrite Ew in W1. injection W1 as W1.
      rewrite <- (Ws W1 Q). exists l2. exact N2. }
  destruct (components_inv j mt g root cs e (fun j' c' => (j' < j)%nat \/ (j' = j /\ c' = m_root mt)) Ej Hg Tg Rd)
    with (k := length (m_comps mt)) (i := 0%nat) (st := st1) as (st' & E' & C'); auto.
  { intros i Hi [H|[_ H]]; [lia|auto]. }
  rewrite E'. exists st'. split; auto. eapply cinv_weaken; [exact C'|..].
  - intros j' c' [[?|[-> ?]]|[-> ?]]; lia.
  - intros j' c' ww H (mt' & g' & c'' & wc & E1' & _ & E3 & _). destruct (Nat.eq_dec j' j) as [->|]; [|left; left; lia].
    right. split; auto. rewrite Ej in E1'. injection E1' as <-. apply nth_error_Some. congruence.
Qed.

Lemma tree_steps_inv : forall rest j st, (forall k, nth_error rest k = nth_error trees (j + k)) ->
  cinv (fun j' c' => (j' < j)%nat) st ->
  exists st', tree_steps orth0 sort initial_dynamics default_dynamics A weight_of position s0 j rest st = Ok st' /\
    cinv (fun j' c' => (j' < length rest + j)%nat) st'.
Proof.
  induction rest as [|mt rest IH]; intros j st Hr C.
  - exists st. split; auto.
  - cbn [tree_steps]. destruct (tree_step_inv j mt st) as (st1 & E1 & C1); auto.
    { rewrite <- (Nat.add_0_r j), <- Hr. auto. }
    rewrite E1. cbn [bind]. destruct (IH (S j) st1) as (st2 & E2 & C2); auto.
    { intros k. specialize (Hr (S k)). simpl in Hr. rewrite Hr. f_equal. lia. }
    exists st2. split; auto. replace (length (mt :: rest) + j)%nat with (length rest + S j)%nat by (simpl; lia). auto.
Qed.

(** ** Weights of the listed nodes *)
Fixpoint wlookup (l : list nid) (ws : list R) (x : nid) : R :=
  match l, ws with
  | y :: l', w :: ws' => if nid_eq_dec x y then w else wlookup l' ws' x
  | _, _ => 0
  end.
Lemma wlookup_out l ws x : ~ In x l -> wlookup l ws x = 0.
Proof.
  revert ws. induction l as [|y l IH]; intros [|w ws] H; auto. simpl. destruct (nid_eq_dec x y) as [->|].
  - exfalso. apply H. left; auto.
  - apply IH. intros I. apply H. right; auto.
Qed.
Lemma wlookup_in l ws x w : NoDup l -> In (x, w) (combine l ws) -> wlookup l ws x = w.
Proof.
  revert ws. induction l as [|y l IH]; intros [|v ws] ND H; try contradiction. inversion ND; subst. simpl in *.
  destruct H as [H|H].
  - injection H as -> ->. destruct (nid_eq_dec x x); [auto|contradiction].
  - destruct (nid_eq_dec x y) as [->|]; auto. apply in_combine_l in H. contradiction.
Qed.
Lemma wlookup_assigned t l ws : NoDup l -> length l = length ws -> (forall x, In x l -> In x (ids t)) ->
  assigned t l ws (wlookup l ws).
Proof.
  intros ND L I. split; auto. split; auto. split; auto. split.
  - intros. apply wlookup_in; auto.
  - intros. apply wlookup_out; auto.
Qed.
Lemma wlookup_nonneg l ws x : nonneg ws -> 0 <= wlookup l ws x.
Proof.
  revert ws. induction l as [|y l IH]; intros [|w ws] H; simpl; try lra. destruct (nid_eq_dec x y).
  - apply H. left; auto.
  - apply IH. intros v I. apply H. right; auto.
Qed.
Lemma add_to_last_snoc l a x : add_to_last (l ++ [a]) x = l ++ [a + x].
Proof.
  induction l as [|b l IH]; auto. simpl. rewrite IH. destruct l; auto.
Qed.
Lemma snoc_of_length (l : list R) k : length l = S k -> exists l' a, l = l' ++ [a].
Proof.
  intros H. destruct (exists_last (l := l)) as (l' & a & E); [intros ->; discriminate|]. eauto.
Qed.
Lemma combine_map_r' {X} (l : list X) (ws : list R) (f : R -> R) x w :
  In (x, w) (combine l ws) -> In (x, f w) (combine l (map f ws)).
Proof.
  revert ws. induction l as [|y l IH]; intros [|v ws] H; try contradiction. simpl in *. destruct H as [H|H].
  - injection H as -> ->. auto.
  - right. auto.
Qed.

Lemma in_combine_ex {X Y} (l : list X) (m : list Y) x : length l = length m -> In x l -> exists y, In (x, y) (combine l m).
Proof.
  revert m. induction l as [|a l IH]; intros [|b m] L I; simpl in *; try lia; try contradiction.
  destruct I as [->|I]; [eauto|]. destruct (IH m) as (y & H); auto. eauto.
Qed.

Definition full_share (j c : nat) : Prop := share weight_of A position trees j c 1.

Theorem C65_convergence_sequence :
  (forall j c j' c', full_share j c -> full_share j' c' -> j = j' /\ c = c') ->
  exists s e,
    compute_convergence_sequence orth0 sort initial_dynamics default_dynamics A weight_of position s0 trees = Ok s /\
    passes n s (direction (vsub A position)) e /\
    ((forall j c w, ~ share weight_of A position trees j c w) -> e = e0) /\
    (forall j c mt root cs ej, full_share j c -> nth_error trees j = Some mt -> root_dynamics mt root cs ej ->
       (c = m_root mt -> dot (direction (vsub A position)) (direction (vsub A (c_refpoint root))) <> -1) ->
       e = ej).
Proof.
  intros ONE. pose proof READY as [Hn HO HS HA (LA & Lp & Np) P0 R0 H0 HT].
  destruct (from_sequence_sound n conv_root_id conv_init_id s0 b0 e0) as (t0 & l0 & E0 & So & I0 & N0 & N1 & _); auto.
  { lia. } { discriminate. } { discriminate. }
  unfold compute_convergence_sequence. rewrite E0. cbn [bind].
  destruct (tree_steps_inv trees 0 (mkConv t0 [] [])) as (st & Est & C).
  { intros k. reflexivity. }
  { constructor; cbn [cv_tree cv_nodes cv_weights]; auto.
    - eauto.
    - intros x I. left. rewrite I0 in I. destruct I as [<-|I]; [reflexivity|].
      apply in_app_iff in I. destruct I as [I|[<-|[]]]; [|reflexivity].
      unfold inter_ids in I. apply in_map_iff in I. destruct I as (d & <- & _). reflexivity.
    - intros x [].
    - constructor.
    - simpl. intros x w. split; [contradiction|]. intros (j & c & _ & H & _). lia.
    - simpl. contradiction. }
  rewrite Est. cbn [bind]. rewrite Nat.add_0_r in C.
  assert (Sj : forall j c w, share weight_of A position trees j c w -> (j < length trees)%nat).
  { intros j c w (mt & _ & _ & _ & E & _). apply nth_error_Some. congruence. }
  pose proof C as [C1 C2 (li & C3) C4 C5 C6 C7 C8 C9].
  assert (RNG : forall j c w, share weight_of A position trees j c w -> 0 < w <= 1).
  { intros j c w (mt & g & comp & wc & E1 & _ & E3 & E4 & -> & Tg & Lw). pose proof (tree_share_range g).
    destruct (tr_weight _ _ _ _ (HT mt (nth_error_In _ _ E1)) comp (nth_error_In _ _ E3)) as (w' & Ew' & Hw').
    rewrite Ew' in E4. injection E4 as ->.
    assert (0 < wc) by (destruct (c =? m_root mt)%nat; lra). split; [apply Rmult_lt_0_compat; lra|].
    replace 1 with (1 * 1) by ring. apply Rmult_le_compat; lra. }
  set (L := cv_nodes st ++ [conv_init_id]). set (W := cv_weights st ++ [0]).
  assert (LL : length L = length W) by (unfold L, W; rewrite !app_length; simpl; lia).
  assert (WR : forall w, In w (cv_weights st) -> exists x, In (x, w) (combine (cv_nodes st) (cv_weights st))).
  { intros w I. assert (X : forall (l : list nid) m, length l = length m -> In w m -> exists x, In (x, w) (combine l m)).
    { induction l as [|a l IH]; intros [|b m] Hl Hi; simpl in *; try lia; try contradiction.
      destruct Hi as [->|Hi]; [eauto|]. destruct (IH m) as (x & Hx); auto. eauto. }
    apply X; auto. }
  assert (WU : forall w, In w (cv_weights st) -> 0 < w <= 1).
  { intros w I. destruct (WR w I) as (x & Ix). apply C8 in Ix. destruct Ix as (j & c & _ & _ & Sh). eauto. }
  assert (NW : nonneg W).
  { intros w I. unfold W in I. apply in_app_iff in I. destruct I as [I|[<-|[]]]; [|lra]. specialize (WU w I). lra. }
  assert (NI : ~ In conv_init_id (cv_nodes st)).
  { intros I. destruct (in_combine_ex _ _ _ C4 I) as (w & Iw). apply C8 in Iw.
    destruct Iw as (j & c & E & _). discriminate. }
  assert (NDL : NoDup L) by (apply NoDup_snoc; auto).
  assert (IL : forall x, In x L -> In x (ids (cv_tree st))).
  { intros x I. apply in_app_iff in I. destruct I as [I|[<-|[]]]; auto. eapply node_in_ids; eauto. }
  assert (NTH : forall i, (i < length (cv_weights st))%nat ->
     In (nth i (cv_nodes st) conv_init_id, nth i (cv_weights st) 0) (combine (cv_nodes st) (cv_weights st))).
  { intros i Hi. rewrite <- (combine_nth (cv_nodes st) (cv_weights st) i conv_init_id 0 C4). apply nth_In.
    rewrite combine_length, C4, Nat.min_id. auto. }
  assert (OS : one_saturated_at_most W).
  { intros i j Hi Hj Wi Wj. unfold W in *. rewrite app_length in Hi, Hj. simpl in Hi, Hj.
    assert (B : forall i, (i < length (cv_weights st) + 1)%nat -> 1 <= nth i (cv_weights st ++ [0]) 0 ->
       (i < length (cv_weights st))%nat /\ 1 = nth i (cv_weights st) 0).
    { intros k Hk Wk. destruct (Nat.lt_ge_cases k (length (cv_weights st))) as [Q|Q].
      - rewrite app_nth1 in Wk by auto. split; auto.
        destruct (WU (nth k (cv_weights st) 0)) as [_ U]; [apply nth_In; auto|]. lra.
      - rewrite app_nth2 in Wk by auto. replace (k - length (cv_weights st))%nat with 0%nat in Wk by lia.
        simpl in Wk. lra. }
    destruct (B i Hi Wi) as [Bi Ei]. destruct (B j Hj Wj) as [Bj Ej].
    pose proof (NTH i Bi) as Ii. pose proof (NTH j Bj) as Ij. rewrite <- Ei in Ii. rewrite <- Ej in Ij.
    apply C8 in Ii, Ij. destruct Ii as (j1 & c1 & X1 & _ & S1). destruct Ij as (j2 & c2 & X2 & _ & S2).
    destruct (ONE j1 c1 j2 c2 S1 S2) as [-> ->].
    apply (proj1 (NoDup_nth (cv_nodes st) conv_init_id) C7); try lia. congruence. }
  destruct (C18_limited_weights_partial W NW) as (W' & tot & EW & LW & UW & Ht & Hlo & Hhi & _).
  rewrite EW. cbn [bind].
  assert (SUM : rsum W' + (1 - tot) = 1).
  { destruct (Rlt_le_dec (rsum W) 1) as [Q|Q].
    - destruct (Hlo Q) as [-> ->]. ring.
    - destruct (Hhi Q) as [-> X]. rewrite (X OS). ring. }
  destruct (snoc_of_length W' (length (cv_weights st))) as (W1 & a & EW1).
  { rewrite LW. unfold W. rewrite app_length. simpl. lia. }
  set (F := add_to_last W' (1 - tot)).
  assert (EF : F = W1 ++ [a + (1 - tot)]) by (unfold F; rewrite EW1; apply add_to_last_snoc).
  assert (LF : length L = length F).
  { rewrite EF, LL, <- LW, EW1, !app_length. auto. }
  assert (NF : nonneg F).
  { intros w I. rewrite EF in I. apply in_app_iff in I. destruct I as [I|[<-|[]]].
    - apply UW. rewrite EW1. apply in_app_iff. auto.
    - assert (0 <= a) by (apply UW; rewrite EW1; apply in_app_iff; right; left; auto). lra. }
  assert (SF : rsum F = 1).
  { rewrite EF, rsum_app. rewrite EW1, rsum_app in SUM. simpl in *. lra. }
  pose proof (wlookup_assigned (cv_tree st) L F NDL LF IL) as AS.
  destruct (reduce_passes n (cv_tree st) conv_root_id (mkAttrs 0 b0) (sort (cv_tree st)) orth0 blank L F _ C1 Hn C2
     (HS n _ _ (so_rooted _ _ _ C1)) AS HO) as (s & e & Es & Em & Ps).
  { intros x. apply wlookup_nonneg; auto. }
  { lra. }
  exists s, e. split; [exact Es|]. split; [exact Ps|]. split.
  - intros NS. assert (EN : cv_nodes st = []).
    { destruct (cv_nodes st) as [|x l] eqn:E; auto. exfalso.
      destruct (in_combine_ex (x :: l) (cv_weights st) x C4) as (w & Iw); [left; auto|].
      apply C8 in Iw. destruct Iw as (j & c & _ & _ & Sh). apply (NS j c w Sh). }
    assert (EV : cv_weights st = []) by (destruct (cv_weights st); [auto|rewrite EN in C4; discriminate]).
    assert (EL : L = [conv_init_id]) by (unfold L; rewrite EN; auto).
    assert (EF1 : F = [1]).
    { rewrite EL in LF. destruct F as [|x [|y l]]; simpl in LF; try lia. simpl in SF. f_equal. lra. }
    rewrite (mean_weight_on orth0 HO n (cv_tree st) conv_root_id L F (wlookup L F) (sort (cv_tree st)) conv_init_id
       (mkAttrs li e0) blank C1 Hn (HS n _ _ (so_rooted _ _ _ C1)) AS) in Em; auto.
    { injection Em as <-. auto. }
    intros y. rewrite EL, EF1. simpl. auto.
  - intros j c mt root cs ej FS Ej Rd Hopp.
    assert (Ijc : In (conv_id j c, 1) (combine (cv_nodes st) (cv_weights st))).
    { apply C8. exists j, c. split; auto. split; auto. eapply Sj. exact FS. }
    assert (I1 : In 1 W).
    { unfold W. apply in_app_iff. left. eapply in_combine_r; eauto. }
    assert (Q : 1 <= rsum W) by (apply (rsum_ge_elem W 1 NW I1)).
    destruct (Hhi Q) as [Etot _].
    rewrite (limited_saturated W Q) in EW by (exists 1; split; auto; lra). injection EW as EW2 _.
    assert (EF2 : F = map (fun w => if Rleb 1 w then 1 else 0) W).
    { rewrite EF. rewrite Etot, EW2, EW1. f_equal. f_equal. lra. }
    assert (DIR : exists l, node (cv_tree st) (conv_id j c) (mkAttrs l ej)).
    { apply (C9 j c 1 mt root cs ej Ijc Ej Rd). intros ->. split; auto.
      destruct FS as (mt' & g & comp & wc & E1 & _ & E3 & E4 & E5 & _).
      rewrite Ej in E1. injection E1 as <-. destruct Rd as (Er & _). rewrite Er in E3. injection E3 as <-.
      rewrite E4. f_equal. pose proof (tree_share_range g).
      destruct (tr_weight _ _ _ _ (HT mt (nth_error_In _ _ Ej)) root (nth_error_In _ _ Er)) as (w' & Ew' & Hw').
      rewrite Ew' in E4. injection E4 as ->.
      assert (wc * tree_share g <= wc * 1) by (apply Rmult_le_compat_l; lra). lra. }
    destruct DIR as (l & Nl).
    rewrite (mean_weight_on orth0 HO n (cv_tree st) conv_root_id L F (wlookup L F) (sort (cv_tree st)) (conv_id j c)
       (mkAttrs l ej) blank C1 Hn (HS n _ _ (so_rooted _ _ _ C1)) AS) in Em; auto.
    { injection Em as <-. auto. }
    intros y. destruct (in_dec nid_eq_dec y L) as [Iy|Iy].
    + destruct (in_combine_ex L W y LL Iy) as (w & Iw).
      rewrite EF2. rewrite (wlookup_in L _ y (if Rleb 1 w then 1 else 0) NDL)
        by (apply (combine_map_r' L W (fun w => if Rleb 1 w then 1 else 0)); auto).
      unfold L, W in Iw. rewrite app_combine_len in Iw by auto. apply in_app_iff in Iw. destruct Iw as [Iw|[Iw|[]]].
      * destruct (Rleb 1 w) eqn:Lw.
        { apply Rleb_true in Lw. assert (w = 1) by (pose proof (WU w (in_combine_r _ _ _ _ Iw)); lra). subst w.
          apply C8 in Iw. destruct Iw as (j' & c' & -> & _ & Sh). destruct (ONE _ _ _ _ Sh FS) as [-> ->].
          destruct (nid_eq_dec _ _); [auto|contradiction]. }
        apply Rleb_false in Lw. destruct (nid_eq_dec y (conv_id j c)) as [->|]; auto.
        pose proof (wlookup_in (cv_nodes st) (cv_weights st) _ _ C7 Iw).
        pose proof (wlookup_in (cv_nodes st) (cv_weights st) _ _ C7 Ijc). lra.
      * injection Iw as <- <-. rewrite (proj2 (Rleb_false 1 0)) by lra. destruct (nid_eq_dec _ _); [discriminate|auto].
    + rewrite wlookup_out by auto. destruct (nid_eq_dec y (conv_id j c)) as [->|]; auto. exfalso. apply Iy.
      unfold L. apply in_app_iff. left. eapply in_combine_l; eauto.
Qed.
End Loop.
End Conv.

(** ** Concrete scenes (attractor at the origin, position [-1; 0]) *)
Lemma vec_norm_1 a b : a * a + b * b = 1 -> norm [a; b] = 1.
Proof. intros H. unfold norm. replace (dot _ _) with 1 by (simpl; lra). apply sqrt_1. Qed.
Lemma dir_unit2 a b : a * a + b * b = 1 -> direction [a; b] = [a; b].
Proof. intros H. apply direction_unitv. unfold unitv. simpl. lra. Qed.
Lemma dir_scaled k a b : 0 < k -> a * a + b * b = 1 -> direction [k * a; k * b] = [a; b] /\ norm [k * a; k * b] = k.
Proof.
  intros Hk H. assert (N : norm [k * a; k * b] = k).
  { unfold norm. replace (dot _ _) with (k * k) by (simpl; replace (k * k) with (k * k * (a * a + b * b)) by (rewrite H; ring); ring).
    apply sqrt_square. lra. }
  split; auto. unfold direction. rewrite N. unfold vscale; simpl. f_equal; [|f_equal]; field; lra.
Qed.
Lemma tiny_1 : / 10 ^ 8 < 1.
Proof. rewrite <- Rinv_1. apply Rinv_lt_contravar; lra. Qed.
Lemma not_close_axis a b c d : (a = 0 /\ Rabs c = 1 \/ Rabs a = 1 /\ c = 0) -> allclose [a; b] [c; d] = false.
Proof.
  intros H. assert (P : 0 < / 10 ^ 8 /\ / 10 ^ 8 <= / 100 /\ 0 < / 10 ^ 5 /\ / 10 ^ 5 <= / 100).
  { split; [apply Rinv_0_lt_compat; lra|]. split; [apply Rinv_le_contravar; lra|].
    split; [apply Rinv_0_lt_compat; lra|apply Rinv_le_contravar; lra]. }
  simpl. replace (isclose a c) with false; auto. symmetry. unfold isclose. apply Rleb_false.
  destruct H as [[-> H]|[H ->]].
  - rewrite Rminus_0_l, Rabs_Ropp, H. lra.
  - rewrite Rminus_0_r, H, Rabs_R0. lra.
Qed.
(** Unit axes at a right angle. *)
Lemma related_right a b c d : (a = 0 /\ Rabs c = 1 \/ Rabs a = 1 /\ c = 0) -> a * c + b * d = 0 ->
  related [a; b] [c; d].
Proof. intros H1 H2. split; [simpl; lra|]. right. apply not_close_axis; auto. Qed.

Lemma axis_pair u v a b c d : length u = 2%nat -> length v = 2%nat ->
  direction u = [a; b] -> direction v = [c; d] -> 1 <= norm u -> 1 <= norm v ->
  (a = 0 /\ Rabs c = 1 \/ Rabs a = 1 /\ c = 0) -> a * c + b * d = 0 -> a * a + b * b = 1 -> c * c + d * d = 1 ->
  exists r, create_from_vector_array [u; v] = Ok [r] /\ passes 2 [r] [a; b] [c; d].
Proof.
  intros Lu Lv Du Dv Nu Nv H D U V. pose proof tiny_1.
  destruct (pair_sequence 2 u v) as (r & E & P & E0 & Ee & X & _); try lra; auto.
  { rewrite Du, Dv. simpl. lra. }
  exists r. split; auto. rewrite X in Ee by (right; rewrite Du, Dv; apply not_close_axis; auto).
  constructor.
  - exists r, []. rewrite E0. auto.
  - constructor; auto. rewrite E0, Du. split; auto. unfold unitv. simpl. lra.
  - rewrite Ee, Dv. auto.
  - split; auto. unfold unitv; simpl; lra.
Qed.

(** Weight of a component: the first entry of its centre, so that scenes can prescribe it. *)
Definition given_weight (_ : vec) (c : component) : res R := Ok (nth 0 (c_center c) 0).
Definition plain_component (weight : R) (reference : vec) : component :=
  mkComp (fun _ => 3) (fun _ => [1; 0]) (fun _ => [1; 0]) reference [weight; 0] (fun _ _ => None) false.

Lemma plain_gamma mt : m_comps mt <> [] -> (forall c, In c (m_comps mt) -> forall x, c_gamma c x = 3) ->
  forall A g, attractor_gamma A mt g -> g = 3.
Proof. intros NE H A g [(c & I & ->) _]. apply H; auto. Qed.
Lemma share_3 : tree_share 3 = 1.
Proof. unfold tree_share. rewrite Rmin_left by lra. rewrite Rmax_right; lra. Qed.
Definition turning_field : dynamics :=
  mkDyn (fun x => if Rlt_dec (nth 0 x 0) 0 then [0; 1] else [0; -1]) (Some [0; 0]) None.
(** The root lies on the other side of the attractor, a second component in between. *)
Definition bent_obstacle : mtree :=
  mkMTree [plain_component 0 [1; 0]; plain_component 1 [0; -1]] 0
    (fun i => match i with 1%nat => Some 0%nat | _ => None end).
Lemma vsub2 a b c d x y : a - c = x -> b - d = y -> vsub [a; b] [c; d] = [x; y].
Proof. intros <- <-. unfold vsub, vscale. simpl. f_equal; [|f_equal]; ring. Qed.
Lemma dir_at a b c d : - a = c -> - b = d -> c * c + d * d = 1 ->
  direction (vsub [0; 0] [a; b]) = [c; d] /\ norm (vsub [0; 0] [a; b]) = 1.
Proof.
  intros H1 H2 H. rewrite (vsub2 0 0 a b c d) by lra. split; [apply dir_unit2; auto|apply vec_norm_1; auto].
Qed.
Lemma attractor_gamma_plain A mt : m_comps mt <> [] -> (forall c, In c (m_comps mt) -> c_gamma c A = 3) ->
  attractor_gamma A mt 3.
Proof.
  intros NE H. destruct (m_comps mt) as [|c l] eqn:E; [contradiction|]. unfold attractor_gamma. rewrite E. split.
  - exists c. split; [left; auto|]. symmetry. apply H. left; auto.
  - intros c' I. rewrite H; auto. lra.
Qed.

Ltac axis := unfold Rabs; repeat destruct (Rcase_abs _); first [left; split; lra|right; split; lra].
Example C65_case : exists s0 e0,
  conv_ready (fun v => v) sort_by_level turning_field None [0; 0] given_weight 2 [-1; 0] s0 e0 [bent_obstacle] /\
  evaluate_dynamics_sequence [-1; 0] turning_field None = Ok (Some s0) /\ e0 = [0; 1] /\
  full_share [0; 0] given_weight [-1; 0] [bent_obstacle] 0 1 /\
  (forall j c j' c', full_share [0; 0] given_weight [-1; 0] [bent_obstacle] j c ->
     full_share [0; 0] given_weight [-1; 0] [bent_obstacle] j' c' -> j = j' /\ c = c') /\
  exists s, compute_convergence_sequence (fun v => v) sort_by_level turning_field None [0; 0] given_weight
      [-1; 0] s0 [bent_obstacle] = Ok s /\ get_end_vector s = Ok [0; -1].
Proof.
  destruct (dir_at (-1) 0 1 0) as [Dp Np]; try lra.
  destruct (dir_at 0 (-1) 0 1) as [D1 N1]; try lra.
  destruct (dir_at 1 0 (-1) 0) as [D0 N0]; try lra.
  assert (V1 : norm [0; 1] = 1) by (apply vec_norm_1; lra).
  assert (V2 : norm [0; -1] = 1) by (apply vec_norm_1; lra).
  destruct (axis_pair (vsub [0; 0] [-1; 0]) [0; 1] 1 0 0 1) as (r0 & E0 & P0); auto; try lra; try axis.
  { apply dir_unit2; lra. }
  destruct (axis_pair (vsub [0; 0] [1; 0]) [0; -1] (-1) 0 0 (-1)) as (rc & Ec & Pc); auto; try lra; try axis.
  { apply dir_unit2; lra. }
  assert (EV0 : evaluate_dynamics_sequence [-1; 0] turning_field None = Ok (Some [r0])).
  { unfold evaluate_dynamics_sequence, turning_field. cbn [dy_own dy_eval dy_attractor nth].
    destruct (Rlt_dec (-1) 0); [|lra]. rewrite Np, V1. destruct (Req_EM_T 1 0); [lra|]. rewrite E0. auto. }
  assert (EVC : evaluate_dynamics_sequence [1; 0] turning_field None = Ok (Some [rc])).
  { unfold evaluate_dynamics_sequence, turning_field. cbn [dy_own dy_eval dy_attractor nth].
    destruct (Rlt_dec 1 0); [lra|]. rewrite N0, V2. destruct (Req_EM_T 1 0); [lra|]. rewrite Ec. auto. }
  exists [r0], [0; 1].
  assert (RD : conv_ready (fun v => v) sort_by_level turning_field None [0; 0] given_weight 2 [-1; 0] [r0] [0; 1] [bent_obstacle]).
  { constructor; auto.
    - apply sort_by_level_sorted.
    - split; auto. split; auto. lra.
    - rewrite Dp. auto.
    - rewrite Dp. unfold stops. simpl. split; auto. apply related_right; [axis|lra].
    - simpl. lia.
    - intros mt [<-|[]]. constructor.
      + simpl. lia.
      + intros c [<-|[<-|[]]]; eexists; (split; [reflexivity|]); simpl; lra.
      + intros g root _ _ E. injection E as <-. simpl. rewrite N0, Dp, D0. split; auto. split; [lra|].
        right. unfold allclose. simpl. replace (isclose 1 (-1)) with false; auto. symmetry. apply Rleb_false.
        replace (1 - -1) with 2 by ring. rewrite (Rabs_pos_eq 2), (Rabs_left (-1)) by lra.
        assert (/ 10 ^ 8 <= / 2) by (apply Rinv_le_contravar; lra).
        assert (/ 10 ^ 5 <= / 2) by (apply Rinv_le_contravar; lra). lra.
      + intros g root _ _ E. injection E as <-. cbn [c_refpoint plain_component]. exists [rc], [0; -1].
        rewrite D0. split; [|split; [simpl; lia|split; auto]].
        * split; [reflexivity|]. split; [exact EVC|]. apply Pc.
        * unfold stops. simpl. split; auto. apply related_right; [axis|lra].
      + intros root r cs w s e E Ew _ _ Es Ee. injection E as <-. unfold given_weight in Ew. simpl in Ew.
        injection Ew as <-. rewrite C64_no_influence in Es by (left; lra). injection Es as <-.
        rewrite (ps_end _ _ _ _ P0) in Ee. injection Ee as <-.
        rewrite Dp. unfold stops. simpl. split; auto. apply related_right; [axis|lra].
      + intros i c w Ni E Ew Hw. destruct i as [|[|i]]; [contradiction| |destruct i; discriminate].
        injection E as <-. exists 2%nat. split; [|lia].
        eapply leads_parent; [exact Ni|reflexivity| |reflexivity|].
        * simpl. split; auto. split; auto. rewrite Np, N1, Dp, D1. split; [lra|]. split; [lra|].
          apply related_right; [axis|lra].
        * eapply leads_root; [reflexivity|reflexivity|]. simpl. split; auto. split; auto.
          rewrite N1, N0, D1, D0. split; [lra|]. split; [lra|]. apply related_right; [axis|lra]. }
  assert (G : attractor_gamma [0; 0] bent_obstacle 3).
  { apply attractor_gamma_plain; [discriminate|]. intros c [<-|[<-|[]]]; reflexivity. }
  assert (FS : full_share [0; 0] given_weight [-1; 0] [bent_obstacle] 0 1).
  { exists bent_obstacle, 3, (plain_component 1 [0; -1]), 1. rewrite share_3. simpl.
    do 5 (split; auto; try lra). }
  assert (ON : forall j c, full_share [0; 0] given_weight [-1; 0] [bent_obstacle] j c -> j = 0%nat /\ c = 1%nat).
  { intros j c (mt & g & comp & wc & E1 & _ & E3 & E4 & E5 & _).
    destruct j as [|j]; [|destruct j; discriminate]. injection E1 as <-. split; auto.
    destruct c as [|[|c]]; auto; [|destruct c; discriminate]. injection E3 as <-. unfold given_weight in E4.
    simpl in E4. injection E4 as <-. lra. }
  assert (ONE : forall j c j' c', full_share [0; 0] given_weight [-1; 0] [bent_obstacle] j c ->
     full_share [0; 0] given_weight [-1; 0] [bent_obstacle] j' c' -> j = j' /\ c = c').
  { intros j c j' c' S1 S2. apply ON in S1, S2. lia. }
  split; auto. split; auto. split; auto. split; auto. split; auto.
  destruct (C65_convergence_sequence _ _ _ _ _ _ _ _ _ _ _ RD ONE) as (s & e & Es & Ps & _ & Hf).
  exists s. split; auto. rewrite (ps_end _ _ _ _ Ps). f_equal.
  apply (Hf 0%nat 1%nat bent_obstacle (plain_component 0 [1; 0]) [rc]); auto; [|discriminate].
  split; [reflexivity|]. split; [exact EVC|]. apply Pc.
Qed.

(** Two obstacles which both take full influence: although the initial dynamics and the dynamics
    at both reference points agree, the result points elsewhere (weights 1 and 1 double the
    angle). *)
Definition upward_field : dynamics := mkDyn (fun _ => [0; 1]) (Some [0; 0]) None.
Definition one_component : mtree := mkMTree [plain_component 1 [-2; 0]] 0 (fun _ => None).

Lemma full_reduction orth0 sort s1 r s2 : (forall v, length (orth0 v) = length v) ->
  (forall n t r, rooted_tree n t r -> level_sorted t (sort t)) ->
  length s1 = 1%nat -> length s2 = 1%nat -> passes 2 s1 [1; 0] [0; 1] -> passes 2 s2 [1; 0] [0; 1] ->
  rotate r (rb0 r) 1 = [1; 0] ->
  exists q, vector_rotation_reduction orth0 sort s1 (Some r) (Some s2) 1 = Ok [q] /\ passes 2 [q] [1; 0] [0; 1].
Proof.
  intros HO HS L1 L2 P1 P2 Er.
  assert (U : unitv [1; 0]) by (unfold unitv; simpl; lra).
  assert (R0 : related [1; 0] [1; 0]) by (split; [simpl; lra|left; auto]).
  assert (ST : forall s, length s = 1%nat -> related_path [1; 0] (stops s [0; 1])).
  { intros s Ls. destruct s as [|x [|]]; simpl in Ls; try lia. unfold stops. simpl. split; auto.
    apply related_right; [axis|lra]. }
  destruct (vrr_tree orth0 sort 2 s1 [1; 0] [0; 1] r [1; 0] s2 [0; 1])
    as (t & t1 & t2 & l1 & l2 & E & E1 & E2 & So & N0 & N1 & N2 & _ & Nm & ED); auto; try lia.
  destruct (ED L1 L2) as [I EG].
  destruct (C64_transported_sequence orth0 sort HO HS 2 s1 [1; 0] [0; 1] r [1; 0] s2 [0; 1] 1)
    as (s & e & Es & Ps & _ & He); auto; try lia; try lra.
  rewrite (He eq_refl) in Ps.
  pose proof So as [W NO DI]. pose proof (HS 2%nat t2 _ W) as SL.
  pose proof (two_assigned sort t2 1 (node_in_ids _ _ _ N1) (node_in_ids _ _ _ N2)) as As.
  destruct (assigned_len _ _ _ _ As) as [HL HI].
  destruct (one_short 2 t2 (NInt 0) W ltac:(lia) (no_opposite_dirn 2 t2 _ W NO) (sort t2) SL orth0
     (fun x => if nid_eq_dec x (NInt 1) then 1 - 1 else if nid_eq_dec x (NInt 2) then 1 else 0) (NInt 2)
     (node_in_ids _ _ _ N2)) with (st0 := blank) (l := [NInt 1; NInt 2]) (ws := [1 - 1; 1]) as (q & Eq & _); auto.
  { intros y. destruct (nid_eq_dec y (NInt 1)) as [->|]; [destruct (nid_eq_dec _ _); [discriminate|lra]|auto]. }
  { apply (assigned_own t2 _ _ _ As). }
  { intros x D. assert (X : x = NInt 0 \/ x = NInt (-1)).
    { remember (NInt 2) as z eqn:Ez. induction D as [z Hz|y z D IH Hz]; subst z.
      - apply EG in Hz. destruct Hz as [[_ H]|[[_ H]|[-> _]]]; try discriminate. auto.
      - apply EG in Hz. destruct Hz as [[_ H]|[[_ H]|[-> _]]]; try discriminate.
        left. clear - D EG. remember (NInt (-1)) as z eqn:Ez. induction D as [z Hz|y z D IH Hz]; subst z.
        + apply EG in Hz. destruct Hz as [[_ H]|[[-> _]|[_ H]]]; try discriminate. auto.
        + apply EG in Hz. destruct Hz as [[_ H]|[[-> _]|[_ H]]]; try discriminate.
          exfalso. clear - D EG. remember (NInt 0) as z eqn:Ez. induction D as [z Hz|y z D IH Hz]; subst z;
            apply EG in Hz; destruct Hz as [[_ H]|[[_ H]|[_ H]]]; discriminate. }
    assert (Dx : forall y a, node t2 y a -> dirn t2 y = a_dir a)
      by (intros y a Ny; unfold dirn; rewrite (proj2 (get_attrs_node 2 t2 _ W y a) Ny); auto).
    assert (Ix : In x (ids t2)) by (rewrite I; destruct X as [->| ->]; simpl; auto).
    destruct (orient_spec 2 t2 _ W ltac:(lia) (no_opposite_dirn 2 t2 _ W NO) x Ix) as (_ & _ & _ & Ea & _).
    assert (P : dirn t2 (par t2 x) = [1; 0] /\ dirn t2 x = [1; 0]).
    { destruct X as [->| ->].
      - rewrite (par_root 2 t2 _ W), (Dx _ _ N0). auto.
      - rewrite (par_edge 2 t2 _ W (NInt 0)) by (apply EG; auto). rewrite (Dx _ _ N0), (Dx _ _ Nm). auto. }
    rewrite Ea. destruct P as [-> ->]. replace (dot [1; 0] [1; 0]) with 1 by (simpl; ring). apply acos_1. }
  { intros c H. apply EG in H. destruct H as [[H _]|[[H _]|[H _]]]; discriminate. }
  unfold vector_rotation_reduction in *. rewrite (proj2 (Rleb_false 1 0)) in * by lra.
  rewrite E in *. cbn [bind] in *. rewrite E1 in *. cbn [bind] in *. rewrite E2 in *. cbn [bind] in *.
  rewrite Eq in *. injection Es as <-. exists q. split; auto.
Qed.

Theorem C65_overlap_refuted : exists s0 s,
  conv_ready (fun v => v) sort_by_level upward_field None [0; 0] given_weight 2 [-1; 0] s0 [0; 1]
    [one_component; one_component] /\
  evaluate_dynamics_sequence [-1; 0] upward_field None = Ok (Some s0) /\
  (forall x, dy_eval upward_field x = [0; 1]) /\
  compute_convergence_sequence (fun v => v) sort_by_level upward_field None [0; 0] given_weight [-1; 0] s0
    [one_component; one_component] = Ok s /\ get_end_vector s = Ok [-1; 0].
Proof.
  destruct (dir_at (-1) 0 1 0) as [Dp Np]; try lra.
  assert (Vr : vsub [0; 0] [-2; 0] = [2 * 1; 2 * 0]) by (apply vsub2; lra).
  destruct (dir_scaled 2 1 0) as [Dr Nr]; try lra. rewrite <- Vr in Dr, Nr.
  assert (V1 : norm [0; 1] = 1) by (apply vec_norm_1; lra).
  destruct (axis_pair (vsub [0; 0] [-1; 0]) [0; 1] 1 0 0 1) as (r0 & E0 & P0); auto; try lra; try axis.
  { apply dir_unit2; lra. }
  destruct (axis_pair (vsub [0; 0] [-2; 0]) [0; 1] 1 0 0 1) as (rc & Ec & Pc); auto; try lra; try axis.
  { apply dir_unit2; lra. }
  assert (EV0 : evaluate_dynamics_sequence [-1; 0] upward_field None = Ok (Some [r0])).
  { unfold evaluate_dynamics_sequence, upward_field. cbn [dy_own dy_eval dy_attractor].
    rewrite Np, V1. destruct (Req_EM_T 1 0); [lra|]. rewrite E0. auto. }
  assert (EVC : evaluate_dynamics_sequence [-2; 0] upward_field None = Ok (Some [rc])).
  { unfold evaluate_dynamics_sequence, upward_field. cbn [dy_own dy_eval dy_attractor].
    rewrite Nr, V1. destruct (Req_EM_T 2 0); [lra|]. destruct (Req_EM_T 1 0); [lra|]. rewrite Ec. auto. }
  assert (HO : forall v : vec, length ((fun v : vec => v) v) = length v) by auto.
  assert (TR : exists r, evaluate_rotation_start_to_end [-1; 0] [-2; 0] [0; 0] = Ok (Some r) /\ rotate r (rb0 r) 1 = [1; 0]).
  { destruct (C63_rotation_to_reference 2 [-1; 0] [-2; 0] [0; 0]) as (_ & _ & _ & X); auto.
    rewrite Np, Nr, Dp, Dr in X. destruct X as (r & E & _ & _ & _ & _ & X); try lra; [simpl; lra|].
    exists r. split; auto. }
  destruct TR as (r & Er & Rr).
  destruct (full_reduction (fun v => v) sort_by_level [r0] r [rc] HO sort_by_level_sorted) as (q & Eq & Pq); auto.
  assert (Rp : forall x : rotation, related_path [1; 0] (stops [x] [0; 1])).
  { intros x. unfold stops. simpl. split; auto. apply related_right; [axis|lra]. }
  assert (TRD : tree_ready (fun v => v) sort_by_level upward_field None [0; 0] given_weight 2 [-1; 0] [r0] one_component).
  { constructor.
    - simpl. lia.
    - intros c [<-|[]]; eexists; (split; [reflexivity|]); simpl; lra.
    - intros g root _ _ E. injection E as <-. simpl. rewrite Nr, Dp, Dr. split; auto. split; [lra|]. left; auto.
    - intros g root _ _ E. injection E as <-. cbn [c_refpoint plain_component]. exists [rc], [0; 1].
      rewrite Dr. split; [|split; [simpl; lia|split; auto]].
      split; [reflexivity|]. split; [exact EVC|]. apply Pc.
    - intros root r' cs w s e E Ew Er' Ecs Es Ee. injection E as <-. unfold given_weight in Ew. simpl in Ew.
      injection Ew as <-. cbn [c_refpoint plain_component] in *. rewrite Er in Er'. injection Er' as <-.
      rewrite EVC in Ecs. injection Ecs as <-. rewrite Eq in Es. injection Es as <-.
      rewrite (ps_end _ _ _ _ Pq) in Ee. injection Ee as <-. rewrite Dp. apply Rp.
    - intros i c w Ni E. destruct i as [|i]; [contradiction|destruct i; discriminate]. }
  assert (RD : conv_ready (fun v => v) sort_by_level upward_field None [0; 0] given_weight 2 [-1; 0] [r0] [0; 1] [one_component; one_component]).
  { constructor; auto.
    - apply sort_by_level_sorted.
    - split; auto. split; auto. lra.
    - rewrite Dp. auto.
    - rewrite Dp. apply Rp.
    - simpl. lia.
    - intros mt [<-|[<-|[]]]; auto. }
  assert (G : attractor_gamma [0; 0] one_component 3).
  { apply attractor_gamma_plain; [discriminate|]. intros c [<-|[]]; reflexivity. }
  destruct (tree_weight_eq upward_field [0; 0] one_component 3 eq_refl G) as (og & Eo & Et). rewrite share_3 in Et.
  exists [r0].
  (* the tree: three children of the root *)
  destruct (from_sequence_sound 2 conv_root_id conv_init_id [r0] [1; 0] [0; 1]) as (t0 & l0 & F0 & S0 & I0 & N0 & N1 & _ & X0 & _);
    auto; try (simpl; lia); try discriminate.
  destruct (add_sequence_sound 2 t0 conv_root_id (conv_id 0 0) [q] conv_root_id _ [0; 1] S0 N0)
    as (t1 & l1 & F1 & S1 & I1 & K1 & M1 & _ & X1 & _); auto; try (simpl; lia).
  { rewrite I0. simpl. intros [H|[H|[]]]; discriminate. }
  destruct (add_sequence_sound 2 t1 conv_root_id (conv_id 1 0) [q] conv_root_id _ [0; 1] S1 (K1 _ _ N0))
    as (t2 & l2 & F2 & S2 & I2 & K2 & M2 & _ & X2 & _); auto; try (simpl; lia).
  { rewrite I1, I0. simpl. intros [H|[H|[H|[]]]]; discriminate. }
  assert (STEP : forall j st t', add_sequence (cv_tree st) (conv_id j 0) [q] conv_root_id true = (t', Ok tt) ->
     tree_step (fun v => v) sort_by_level upward_field None [0; 0] given_weight [-1; 0] [r0] one_component j st =
       Ok (mkConv t' (cv_nodes st ++ [conv_id j 0]) (cv_weights st ++ [1]))).
  { intros j st t' Ea. unfold tree_step. rewrite Eo. cbn [bind]. rewrite Et. cbn [bind].
    rewrite (proj2 (Rleb_false 1 (1 / 1000000))) by lra.
    unfold get_component. cbn [one_component m_comps m_root nth_error bind]. unfold given_weight at 1.
    cbn [plain_component c_center c_refpoint nth bind]. rewrite Er. cbn [bind]. rewrite EVC. cbn [bind]. rewrite Eq. cbn [bind].
    rewrite Ea. cbn [lift bind]. rewrite (proj2 (Rltb_true (1 / 1000000) 1)) by lra.
    cbn [length seq foldM]. unfold component_step at 1. cbn [m_root Nat.eqb]. cbn [bind]. rewrite Rmult_1_l. auto. }
  set (L := [conv_id 0 0; conv_id 1 0; conv_init_id]).
  assert (RED : compute_convergence_sequence (fun v => v) sort_by_level upward_field None [0; 0] given_weight [-1; 0]
     [r0] [one_component; one_component] = reduce_weighted_to_sequence (fun v => v) t2 blank (sort_by_level t2) L [1; 1; 0]).
  { unfold compute_convergence_sequence. rewrite F0. cbn [bind tree_steps].
    rewrite (STEP 0%nat (mkConv t0 [] []) t1 F1). cbn [bind cv_tree cv_nodes cv_weights app].
    rewrite (STEP 1%nat (mkConv t1 [conv_id 0 0] [1]) t2 F2). cbn [bind cv_tree cv_nodes cv_weights app].
    rewrite limited_saturated; [|simpl; lra|exists 1; split; [left; auto|lra]]. cbn [bind map].
    rewrite (proj2 (Rleb_true 1 1)), (proj2 (Rleb_false 1 0)) by lra. cbn [add_to_last]. unfold L. do 2 f_equal.
    f_equal. f_equal. f_equal. ring. }
  assert (IDS : ids t2 = [conv_root_id; conv_init_id; conv_id 0 0; conv_id 1 0]) by (rewrite I2, I1, I0; reflexivity).
  assert (As : assigned t2 L [1; 1; 0] (wlookup L [1; 1; 0])).
  { apply wlookup_assigned; auto.
    - unfold L. repeat constructor; simpl; intuition discriminate.
    - intros x I. rewrite IDS. unfold L in I. simpl in *. tauto. }
  pose proof S2 as [W NO DI].
  assert (NR : node t2 conv_root_id (mkAttrs 0 [1; 0])) by auto.
  assert (ED : forall u v, edge t2 u v <-> u = conv_root_id /\ In v [conv_init_id; conv_id 0 0; conv_id 1 0]).
  { intros u v. rewrite (X2 eq_refl), (X1 eq_refl), (X0 eq_refl). simpl. intuition auto. }
  assert (MEAN : get_weighted_mean (fun v => v) t2 blank (sort_by_level t2) L [1; 1; 0] = Ok [-1; 0]).
  { rewrite (C16_mean_around_root 2 t2 conv_root_id (mkAttrs 0 [1; 0]) (sort_by_level t2) (fun v => v) blank L [1; 1; 0]
       (wlookup L [1; 1; 0]) [(conv_init_id, [0; 1]); (conv_id 0 0, [0; 1]); (conv_id 1 0, [0; 1])]); auto.
    - f_equal. cbn [a_dir].
      assert (LG : log_map [1; 0] [0; 1] = [0; PI / 2]).
      { unfold log_map. replace (dot [1; 0] [0; 1]) with 0 by (simpl; ring). rewrite acos_0.
        replace (vsub [0; 1] (vscale 0 [1; 0])) with [0; 1] by (unfold vsub, vscale; simpl; f_equal; [|f_equal]; ring).
        rewrite V1. destruct (Req_EM_T 1 0); [lra|]. unfold vscale; simpl. f_equal; [|f_equal]; field. }
      assert (WS : weighted_log_sum 2 [1; 0] (wlookup L [1; 1; 0])
         [(conv_init_id, [0; 1]); (conv_id 0 0, [0; 1]); (conv_id 1 0, [0; 1])] = [PI * 0; PI * 1]).
      { unfold weighted_log_sum, L. cbn [fold_right fst snd]. rewrite LG.
        cbn [wlookup]. repeat (destruct (nid_eq_dec _ _); [try discriminate|try (exfalso; congruence)]).
        unfold vzero, vscale. simpl. f_equal; [|f_equal]; field. }
      rewrite WS. destruct (dir_scaled PI 0 1) as [_ NP]; [apply PI_RGT_0|ring|].
      unfold exp_map. rewrite NP. pose proof PI_RGT_0. destruct (Req_EM_T PI 0); [lra|]. rewrite cos_PI, sin_PI.
      unfold vscale; simpl. f_equal; [|f_equal]; field; lra.
    - apply sort_by_level_sorted with (n := 2%nat) (r := conv_root_id). auto.
    - intros x b Nx Hx. apply ED. split; auto. apply node_in_ids in Nx. rewrite IDS in Nx.
      destruct Nx as [H|H]; [congruence|exact H].
    - simpl. repeat constructor; simpl; intuition discriminate.
    - assert (U : forall x a b, node t2 x a -> node t2 x b -> a = b).
      { intros x a b Na Nb. pose proof (proj2 (get_attrs_node 2 t2 _ W x a) Na) as G1.
        pose proof (proj2 (get_attrs_node 2 t2 _ W x b) Nb) as G2. congruence. }
      intros x d. split.
      + intros [H|[H|[H|[]]]]; injection H as <- <-; (split; [discriminate|]).
        * exists (mkAttrs l0 [0; 1]). split; auto.
        * exists (mkAttrs l1 [0; 1]). split; auto.
        * exists (mkAttrs l2 [0; 1]). split; auto.
      + intros (Hx & b & Nb & ->). pose proof (node_in_ids _ _ _ Nb) as Ix. rewrite IDS in Ix.
        destruct Ix as [H|[H|[H|[H|[]]]]]; [congruence|subst x..].
        * left. f_equal. rewrite (U _ _ _ Nb (K2 _ _ (K1 _ _ N1))). auto.
        * right. left. f_equal. rewrite (U _ _ _ Nb (K2 _ _ M1)). auto.
        * right. right. left. f_equal. rewrite (U _ _ _ Nb M2). auto.
    - exists (conv_id 0 0). unfold L. cbn [wlookup]. destruct (nid_eq_dec _ _); [lra|congruence]. }
  pose proof MEAN as MEAN'. unfold get_weighted_mean in MEAN'. rewrite RED.
  destruct (reduce_weighted_to_sequence _ t2 blank _ L [1; 1; 0]) as [s|] eqn:Es; [|discriminate].
  exists s. split; auto.
Qed.

(** The dynamics at the reference point, a quarter turn away, takes over completely. *)
Example C64_case : exists s1 r s2 s,
  passes 2 s1 [1; 0] [0; 1] /\ passes 2 s2 [0; 1] [-1; 0] /\
  evaluate_rotation_start_to_end [-1; 0] [0; -1] [0; 0] = Ok (Some r) /\
  vector_rotation_reduction (fun v => v) sort_by_level s1 (Some r) (Some s2) 1 = Ok s /\
  passes 2 s [1; 0] [-1; 0].
Proof.
  destruct (dir_at (-1) 0 1 0) as [Dp Np]; try lra.
  destruct (dir_at 0 (-1) 0 1) as [D1 N1]; try lra.
  assert (V : forall a b, a * a + b * b = 1 -> 1 <= norm [a; b]) by (intros; rewrite vec_norm_1; lra).
  destruct (axis_pair [1; 0] [0; 1] 1 0 0 1) as (r0 & _ & P0); auto; try lra; try axis; try (apply V; lra);
    try (apply dir_unit2; lra).
  destruct (axis_pair [0; 1] [-1; 0] 0 1 (-1) 0) as (rc & _ & Pc); auto; try lra; try axis; try (apply V; lra);
    try (apply dir_unit2; lra).
  destruct (hop_rotation [0; 0] 2 [-1; 0] [0; -1]) as (r & Er & Rr & Lr & Ur); auto.
  { split; auto. split; auto. rewrite Np, N1, Dp, D1. split; [lra|]. split; [lra|]. apply related_right; [axis|lra]. }
  rewrite D1 in *.
  destruct (C64_transported_sequence (fun v => v) sort_by_level (fun v => eq_refl) sort_by_level_sorted
     2 [r0] [1; 0] [0; 1] r [0; 1] [rc] [-1; 0] 1) as (s & e & Es & Ps & _ & He); auto; try lra; try (simpl; lia);
    try (unfold stops; simpl; split; auto); try (apply related_right; [axis|lra]).
  rewrite (He eq_refl) in Ps. exists [r0], r, [rc], s. auto.
Qed.
Print Assumptions C65_convergence_sequence.
Print Assumptions C65_overlap_refuted.
