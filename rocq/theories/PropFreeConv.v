(** Property C160: the two kinds of convergence dynamics of an avoider. *)
Require Import Reals List Lia Lra Bool ZArith Permutation.
From Verif Require Import Base Vec Angle RotModel Spec RotProofs SeqProofs TreeModel TreeSpec TreeProofs
  TreeWeights TreeReduce TreeGeom TreeCases PropRotation PropTree Pow WeightModel WeightProofs PropWeights AvoidModel
  PropTangent PropContact ConvModel ConvProofs PropConverge PropConvSeq PropSpread SingularModel FreeConvModel.
Import ListNotations.
Open Scope R_scope.

(** ** With an attractor *)
Lemma projected_chain_up initial a t mt j c : forall fuel pp i pred p,
  any_chain_up initial (Projected a) t mt j c pp fuel i pred p = chain_up initial t mt j c pp fuel i pred p.
Proof.
  intros fuel. revert t. induction fuel as [|fuel IH]; intros t pp i pred p; [reflexivity|].
  cbn [any_chain_up chain_up]. destruct (get_component mt i) as [comp|]; [|reflexivity]. cbn [bind start_to_end].
  destruct (singularity initial) as [A|]; [|reflexivity]. cbn [bind].
  destruct (evaluate_rotation_start_to_end p (c_refpoint comp) A) as [[r|]|]; try reflexivity. cbn [bind].
  destruct (lift _) as [t'|]; [|reflexivity]. cbn [bind]. destruct (i =? m_root mt)%nat; [reflexivity|].
  destruct (get_parent_idx mt i) as [q|]; [|reflexivity]. cbn [bind]. apply IH.
Qed.
Lemma foldM_ext {A B} (f g : A -> B -> res A) l : (forall a b, f a b = g a b) -> forall a, foldM f a l = foldM g a l.
Proof.
  intros H. induction l as [|b l IH]; intros a; [reflexivity|]. cbn [foldM]. rewrite H. destruct (g a b); [apply IH|reflexivity].
Qed.
Lemma projected_sequence orth0 sort initial default weight_of a position s trees :
  any_convergence_sequence orth0 sort initial default weight_of (Projected a) position s trees =
  compute_convergence_sequence orth0 sort initial default a weight_of position s trees.
Proof.
  unfold any_convergence_sequence, compute_convergence_sequence.
  destruct (from_sequence conv_root_id conv_init_id s) as [t0|]; [|reflexivity]. cbn [bind].
  assert (G : forall trees j st, any_tree_steps orth0 sort initial default weight_of (Projected a) position s j trees st =
    tree_steps orth0 sort initial default a weight_of position s j trees st).
  { clear. induction trees as [|mt trees IH]; intros j st; [reflexivity|]. cbn [any_tree_steps tree_steps].
    assert (E : any_tree_step orth0 sort initial default weight_of (Projected a) position s mt j st =
                tree_step orth0 sort initial default a weight_of position s mt j st).
    { unfold any_tree_step, tree_step. cbn [weight_at position_to_transform].
      destruct (tree_gamma_at initial mt); [|reflexivity]. cbn [bind].
      destruct (compute_tree_weight a0 2); [|reflexivity]. cbn [bind]. destruct (Rleb a1 (1 / 1000000)); [reflexivity|].
      destruct (get_component mt (m_root mt)); [|reflexivity]. cbn [bind].
      destruct (weight_of position a2); [|reflexivity]. cbn [bind].
      destruct (evaluate_rotation_start_to_end position (c_refpoint a2) a); [|reflexivity]. cbn [bind].
      destruct (evaluate_dynamics_sequence _ _ _); [|reflexivity]. cbn [bind].
      destruct (vector_rotation_reduction _ _ _ _ _ _); [|reflexivity]. cbn [bind].
      destruct (lift _); [|reflexivity]. cbn [bind]. apply foldM_ext. intros st' i.
      unfold any_component_step, component_step. destruct (i =? m_root mt)%nat; [reflexivity|].
      destruct (get_component mt i); [|reflexivity]. cbn [bind weight_at].
      destruct (weight_of position a8); [|reflexivity]. cbn [bind]. destruct (Rleb _ _); [reflexivity|].
      rewrite projected_chain_up. reflexivity. }
    rewrite E. destruct (tree_step _ _ _ _ _ _ _ _ _ _ _); [|reflexivity]. cbn [bind]. apply IH. }
  rewrite G. reflexivity.
Qed.
Lemma bind_ext {A B} (x : res A) (f g : A -> res B) : (forall a, f a = g a) -> bind x f = bind x g.
Proof. intros H. destruct x; [apply H|reflexivity]. Qed.
(** With an attractor the convergence is the one of the attractor; the reference dynamics and the
    repeated creation do not matter. *)
Theorem C160_attractor : forall again initial reference a, dy_attractor initial = Some a ->
  exists cv, avoider_convergence again true initial reference = Ok cv /\
    forall orth0 sort default weight_of position trees,
    any_convergence_direction orth0 sort initial default weight_of cv position trees =
    compute_convergence_direction orth0 sort initial default a weight_of position trees.
Proof.
  intros again initial reference a H. exists (Projected a). split.
  - unfold avoider_convergence, create_local_convergence_dynamics. rewrite H. cbn [bind]. destruct again; reflexivity.
  - intros. unfold any_convergence_direction, compute_convergence_direction.
    apply bind_ext. intros [s|]; [|reflexivity]. rewrite projected_sequence. reflexivity.
Qed.
(** Without an attractor a reference is needed, also when the creation is repeated. *)
Theorem C160_needs_reference : forall initial,
  (forall reference again, dy_attractor initial = None -> avoider_convergence again true initial reference = Err EAttr) /\
  (forall again, avoider_convergence again false initial None = Err EValue) /\
  (forall reference, avoider_convergence true false initial (Some reference) = Err EValue).
Proof.
  intros initial. split; [|split].
  - intros reference again H. unfold avoider_convergence, create_local_convergence_dynamics. rewrite H. reflexivity.
  - reflexivity.
  - reflexivity.
Qed.

(** ** Uniform trees *)
Definition unif (n : nat) (t : tree) (r : nid) (d : vec) : Prop :=
  sound n t r /\ node t r (mkAttrs 0 d) /\ forall x a, node t x a -> a_dir a = d.
Lemma unif_grow n t t' r d x a : unif n t r d -> sound n t' r -> keeps t t' -> ids t' = ids t ++ [x] ->
  node t' x a -> a_dir a = d -> unif n t' r d.
Proof.
  intros (So & Nr & Al) So' K I Nx Dx. split; [auto|]. split; [apply K; auto|].
  intros y b Ny. pose proof (node_in_ids t' y b Ny) as Iy. rewrite I in Iy. apply in_app_iff in Iy.
  destruct Iy as [Iy|[<-|[]]].
  - destruct (wf_attrs n t r (so_rooted _ _ _ So) y Iy) as (c & _ & Nc & _).
    rewrite (node_unique n t' r (so_rooted _ _ _ So') y b c); auto. eapply Al; eauto.
  - rewrite (node_unique n t' r (so_rooted _ _ _ So') x b a); auto.
Qed.
Lemma related_self d : unitv d -> related d d.
Proof. intros U. split; [unfold unitv in U; lra|auto]. Qed.

(** The reduction of a uniform tree is one rotation which stays at the direction. *)
Lemma uniform_reduce n t r d sl orth0 st l ws own : unif n t r d -> (2 <= n)%nat ->
  level_sorted t sl -> assigned t l ws own -> (forall v, length (orth0 v) = length v) ->
  (forall x, 0 <= own x) -> 0 < rsum ws <= 1 ->
  exists q, reduce_weighted_to_sequence orth0 t st sl l ws = Ok [q] /\ passes n [q] d d.
Proof.
  intros ([W NO DI] & Nr & Al) Hn SL A OL OW [T0 T1].
  destruct (assigned_len _ _ _ _ A) as [HL HI].
  pose proof (total_root n t r l ws own W Hn NO A (ex_intro _ sl SL)) as TR.
  pose proof (no_opposite_dirn n t r W NO) as NA.
  assert (OWi : forall y, In y (ids t) -> 0 <= own y) by auto.
  assert (TOT : wsub t own r <= 1) by (rewrite TR; auto).
  assert (EX : forall p x, edge t p x -> wsub t own x <> 0 -> exact_pair (dirn t p) (dirn t x)).
  { intros p x Ep _. apply (distinguishable_dirn n t r W DI); auto. }
  assert (OWN : forall y, own y = TreeReduce.own_of (combine l ws) y) by (apply assigned_own with t; auto).
  assert (Ud : unitv d).
  { destruct (rt_node _ _ _ W r _ Nr) as (b & E & _ & U & _). injection E as <-. exact U. }
  assert (DN : forall x, In x (ids t) -> dirn t x = d).
  { intros x Hx. destruct (get_dirn n t r W x Hx) as (b & _ & <- & _ & _ & _ & Nb). eapply Al; eauto. }
  assert (Z : forall x, In x (ids t) -> turn t own x = 0).
  { intros x Hx. unfold turn. destruct (orient_spec n t r W Hn NA x Hx) as (_ & _ & _ & -> & _).
    rewrite (DN x Hx), DN by (apply (par_in n t r W); auto). rewrite acos_self by auto. ring. }
  assert (ST : forall k, ps_seq (p2 t sl own orth0 (seq 0 k)) = []).
  { induction k; [reflexivity|]. pose proof (p2_inv_all n t r W Hn NA sl SL own OWi TOT EX orth0 k) as (K1 & _).
    rewrite seq_S. unfold p2 in *. rewrite fold_left_snoc. set (g := fold_left _ _ _) in *. unfold p2step.
    cbn [plus]. destruct (nodelevel t own sl k) as [|x0 nl'] eqn:EN; [exact IHk|]. rewrite <- EN.
    destruct (flat_map _ _); [exact IHk|]. cbn [ps_seq]. destruct (Req_EM_T _ 0) as [|NZ]; [exact IHk|]. exfalso.
    apply NZ. unfold level_rot. cbn [rangle]. apply Rle_antisym; [|apply norm_nonneg].
    eapply Rle_trans; [apply (level_sum_norm n t own)|].
    - intros x Hx. apply (nl_in t sl SL own) in Hx as (Hx & _ & _). destruct (K1 x Hx) as [A1 A2].
      split; [exact A1|]. split; [exact A2|]. rewrite (Z x Hx). lra.
    - right. assert (G : forall x, In x (nodelevel t own sl k) -> turn t own x = 0).
      { intros x Hx. apply (nl_in t sl SL own) in Hx as (Hx & _ & _). auto. }
      clear - G. induction (nodelevel t own sl k) as [|x nl IH]; [reflexivity|]. cbn [map].
      change (turn t own x + rsum (map (turn t own) nl) = 0). rewrite (G x (or_introl eq_refl)).
      rewrite IH; [ring|]. intros y Hy. apply G. right; auto. }
  destruct (reduce_pure n t r W Hn NA sl SL own orth0 st l ws HL HI OWN) as [Ep _].
  { intros k Hk _. apply p2_inv_fine with (r := r); auto. apply p2_inv_all; auto. }
  destruct (reduce_geometry n t r W Hn NA sl SL own OWi TOT EX orth0 st l ws)
    as (s & q & E & Er & Fs & Ch & UE & LE & On & Last); auto.
  { rewrite TR. lra. }
  rewrite Er in Ep. destruct (ps_last _) as [q'|]; [|discriminate]. rewrite ST in Ep. injection Ep as Ep.
  assert (Es : s = []).
  { apply (f_equal (@length rotation)) in Ep. rewrite app_length in Ep. destruct s; [auto|simpl in Ep; lia]. }
  subst s. clear Ep q'. cbn [chain] in Ch. cbn [app] in Er. exists q. split; [exact Er|].
  rewrite (DN r (root_in n t r W)) in Ch. subst E.
  destruct Last as [(E0 & E1)|(_ & (s' & Bad) & _)]; [|destruct s'; discriminate].
  constructor.
  - eauto.
  - constructor; [|constructor]. rewrite E0. split; auto.
  - pose proof (C159_common_direction n t r (mkAttrs 0 d) sl orth0 st l ws own W Hn Nr Al SL A OL OW (conj T0 T1)) as G.
    unfold get_weighted_mean in G. rewrite Er in G. exact G.
  - auto.
Qed.

(** ** A uniform field *)
(** [f] points everywhere in the direction [d]; it has no attractor and no own sequence. *)
Record uniform (n : nat) (d : vec) (f : dynamics) : Prop := {
  un_own : dy_own f = None;
  un_attractor : dy_attractor f = None;
  un_eval : forall x, length x = n ->
    length (dy_eval f x) = n /\ / 10 ^ 8 < norm (dy_eval f x) /\ direction (dy_eval f x) = d }.
(** The way from the component [i] to the root has [k] components. *)
Inductive ancestry (mt : mtree) : nat -> nat -> Prop :=
| anc_root c : nth_error (m_comps mt) (m_root mt) = Some c -> ancestry mt 1 (m_root mt)
| anc_up i c j k : i <> m_root mt -> nth_error (m_comps mt) i = Some c -> m_parent mt i = Some j ->
    ancestry mt k j -> ancestry mt (S k) i.
(** A tree with the position outside of its components. *)
Record free_tree (n : nat) (position : vec) (mt : mtree) : Prop := {
  ft_root : (m_root mt < length (m_comps mt))%nat;
  ft_outside : forall c, In c (m_comps mt) -> 1 < c_gamma c position;
  ft_ref : forall c, In c (m_comps mt) -> length (c_refpoint c) = n;
  ft_depth : forall i, (i < length (m_comps mt))%nat -> exists k, ancestry mt k i /\ (k < 99)%nat }.

Lemma tiny_pos : 0 < / 10 ^ 8.
Proof. apply Rinv_0_lt_compat. lra. Qed.
Lemma velocity_rotation n v : (2 <= n)%nat -> length v = n -> norm v <> 0 ->
  exists r, rotation_of_velocity v = Ok (Some r) /\ rotate r (rb0 r) 1 = direction v.
Proof.
  intros Hn L N. unfold rotation_of_velocity.
  assert (U : unitv (dirof v)) by (apply dirof_unit; auto).
  assert (Na : dot (dirof v) (dirof v) <> -1) by (unfold unitv in U; lra).
  destruct (from_directions_spec n v v) as (r & E & _); auto.
  rewrite E. cbn [bind]. exists r. split; [reflexivity|].
  change (direction v) with (dirof v). rewrite <- (exact_second n v v r L L Hn N N Na (or_introl eq_refl) E).
  unfold rotate, get_second_vector. rewrite Rmult_1_l. reflexivity.
Qed.

Section Uniform.
Variables (orth0 : vec -> vec) (sort : tree -> list nid) (n : nat) (d : vec).
Variables (initial conv reference : dynamics) (default : option dynamics).
Variable weight_of : vec -> component -> res R.
Hypothesis Hn : (2 <= n)%nat.
Hypothesis HO : forall v, length (orth0 v) = length v.
Hypothesis HS : forall n t r, rooted_tree n t r -> level_sorted t (sort t).
Hypothesis Ui : uniform n d initial.
Hypothesis Uc : uniform n d conv.
Hypothesis Ur : uniform n d reference.
Hypothesis Ude : forall f, default = Some f -> uniform n d f.
Variable position : vec.
Hypothesis Lp : length position = n.
Notation CV := (Free conv reference).

Lemma Ud : unitv d /\ length d = n.
Proof.
  destruct (un_eval _ _ _ Ui position Lp) as (L & N & D). pose proof tiny_pos. rewrite <- D. split.
  - apply dirof_unit. lra.
  - unfold direction. autorewrite with vlen. auto.
Qed.
Lemma uniform_sequence f x : uniform n d f -> length x = n ->
  exists q, evaluate_dynamics_sequence x f None = Ok (Some [q]) /\ passes n [q] d d.
Proof.
  intros U L. destruct U as [U1 U2 U3]. destruct (U3 x L) as (L1 & N1 & D1).
  destruct (C62_without_attractor n f x Hn U1 U2 L1 N1) as (q & E & P & F & G). exists q. split; [exact E|].
  rewrite D1 in *. destruct Ud as [Ud1 Ud2]. constructor; auto.
  - exists q, []. split; [reflexivity|]. exact F.
  - constructor; [|constructor]. unfold get_first_vector in F. rewrite F. auto.
Qed.

Record uinv (D : nat -> nat -> Prop) (st : conv_state) : Prop := {
  ui_unif : unif n (cv_tree st) conv_root_id d;
  ui_init : In conv_init_id (ids (cv_tree st));
  ui_len : length (cv_nodes st) = length (cv_weights st);
  ui_keys : forall x, In x (ids (cv_tree st)) -> owned D x;
  ui_in : forall x, In x (cv_nodes st) -> In x (ids (cv_tree st)) /\ x <> conv_init_id;
  ui_nodup : NoDup (cv_nodes st);
  ui_weights : forall w, In w (cv_weights st) -> 0 < w < 1 }.
Lemma uinv_weaken (D D' : nat -> nat -> Prop) st : uinv D st -> (forall j c, D j c -> D' j c) -> uinv D' st.
Proof.
  intros [] H. constructor; auto. intros x Hx. destruct (ui_keys0 x Hx) as [K|(j & c & K & E)]; [left; auto|right; eauto].
Qed.

Lemma uniform_chain mt jt jc : (forall c, In c (m_comps mt) -> length (c_refpoint c) = n) ->
  forall k i, ancestry mt k i -> forall t pred a pp fuel p, length p = n ->
  unif n t conv_root_id d -> node t pred a -> (a_level a + k < 100)%nat -> (k <= fuel)%nat ->
  (forall x q, In x (ids t) -> x <> conv_step_id jt jc (pp + q)) ->
  exists t' q b, any_chain_up initial CV t mt jt jc pp fuel i pred p = Ok (t', q) /\
    unif n t' conv_root_id d /\ (forall x, In x (ids t) -> In x (ids t')) /\ node t' q b /\ a_level b = (a_level a + k)%nat /\
    (forall x, In x (ids t') -> In x (ids t) \/ exists q, x = conv_step_id jt jc q).
Proof.
  intros LR k i A. induction A as [c Ec|i c j k Ni Ec Ej A IH];
    intros t pred a pp fuel p Lpp U Na Hl Hf Fr; (destruct fuel as [|fuel]; [lia|]); cbn [any_chain_up];
    unfold get_component; rewrite Ec; cbn [bind start_to_end].
  all: destruct (un_eval _ _ _ Ur p Lpp) as (L1 & N1 & D1); pose proof tiny_pos as TP;
    destruct (velocity_rotation n (dy_eval reference p) Hn L1) as (r & Er & Dr); [lra|];
    rewrite Er; cbn [bind]; rewrite D1 in Dr; destruct Ud as [Ud1 Ud2]; pose proof U as (So & Nr & Al).
  all: destruct (add_node_sound n t conv_root_id (conv_step_id jt jc pp) d pred a) as (t1 & E1 & S1 & I1 & K1 & X1 & _);
    [auto|auto|lia|apply norm_neq_0_dot; unfold unitv in Ud1; lra| |auto|rewrite (direction_unitv _ Ud1), (Al pred a Na); apply related_self; auto|].
  all: try (intros I; apply (Fr _ 0%nat I); rewrite Nat.add_0_r; reflexivity).
  all: unfold add_node_orientation; rewrite Dr, E1; cbn [lift bind]; rewrite (direction_unitv _ Ud1) in X1;
    assert (U1 : unif n t1 conv_root_id d) by (apply (unif_grow n t t1 conv_root_id d _ _ U S1 K1 I1 X1 eq_refl)).
  - rewrite Nat.eqb_refl. eexists t1, _, _. split; [reflexivity|]. split; [auto|].
    split; [intros x I; rewrite I1; apply in_app_iff; auto|]. split; [exact X1|]. split; [simpl; lia|].
    intros x I. rewrite I1 in I. apply in_app_iff in I. destruct I as [I|[<-|[]]]; eauto.
  - replace (i =? m_root mt)%nat with false by (symmetry; apply Nat.eqb_neq; auto).
    unfold get_parent_idx. rewrite Ej. cbn [bind].
    assert (Lc : length (c_refpoint c) = n) by (apply LR; eapply nth_error_In; eauto).
    destruct (IH t1 (conv_step_id jt jc pp) _ (S pp) fuel (c_refpoint c) Lc U1 X1)
      as (t2 & q & b & E2 & U2 & I2 & X2 & L2 & J2).
    + simpl. lia.
    + lia.
    + intros x q I. rewrite I1 in I. apply in_app_iff in I. destruct I as [I|[<-|[]]].
      * replace (S pp + q)%nat with (pp + S q)%nat by lia. auto.
      * unfold conv_step_id. intros E. injection E as E. lia.
    + exists t2, q, b. split; [exact E2|]. split; [auto|].
      split; [intros x I; apply I2; rewrite I1; apply in_app_iff; auto|]. split; [auto|]. split; [simpl in L2; lia|].
      intros x I. destruct (J2 x I) as [I'|I']; auto. rewrite I1 in I'. apply in_app_iff in I'.
      destruct I' as [I'|[<-|[]]]; eauto.
Qed.

Lemma plain_weight c : 1 < c_gamma c position -> 0 < plain_projected_weight (c_gamma c position) < 1.
Proof.
  intros H. unfold plain_projected_weight. rewrite (proj2 (Rleb_true _ _)) by lra. unfold Rdiv. rewrite Rmult_1_l. split.
  - apply Rinv_0_lt_compat. lra.
  - rewrite <- Rinv_1. apply Rinv_lt_contravar; lra.
Qed.

(** Adding a one-rotation sequence under a node. *)
Lemma uniform_add t id p a q D : unif n t conv_root_id d -> node t p a -> (a_level a < 98)%nat \/ (a_level a < 99)%nat ->
  passes n [q] d d -> ~ In id (ids t) -> (forall x, In x (ids t) -> owned D x) ->
  exists t', lift (add_sequence t id [q] p true) = Ok t' /\ unif n t' conv_root_id d /\ ids t' = ids t ++ [id].
Proof.
  intros U Na Hl P Fi _. pose proof U as (So & Nr & Al). destruct Ud as [Ud1 Ud2].
  destruct (add_sequence_sound n t conv_root_id id [q] p a d So Na) as (t' & l & E & S' & I & K & X & _ & _ & _).
  - rewrite (Al p a Na). auto.
  - simpl. lia.
  - auto.
  - simpl. intros i Hi. lia.
  - rewrite (Al p a Na). unfold stops. simpl. split; [apply related_self; auto|auto].
  - exists t'. rewrite E. split; [reflexivity|]. simpl in I. split; [|exact I].
    apply (unif_grow n t t' conv_root_id d id (mkAttrs l d)); auto.
Qed.

Lemma uniform_component (D : nat -> nat -> Prop) st j mt i cs : free_tree n position mt -> uinv D st ->
  passes n [cs] d d -> (i < length (m_comps mt))%nat -> (i <> m_root mt -> ~ D j i) ->
  exists st', any_component_step initial weight_of CV position mt j 1 (Some [cs]) st i = Ok st' /\
    uinv (fun j' c' => D j' c' \/ (j' = j /\ c' = i)) st'.
Proof.
  intros [F1 F2 F3 F4] U Pc Hi Dn. unfold any_component_step. destruct (i =? m_root mt)%nat eqn:Ei.
  { exists st. split; auto. apply (uinv_weaken D); auto. }
  apply Nat.eqb_neq in Ei. specialize (Dn Ei). unfold get_component.
  destruct (nth_error (m_comps mt) i) as [c|] eqn:Ec; [|apply nth_error_None in Ec; lia].
  cbn [bind weight_at]. pose proof (plain_weight c (F2 c (nth_error_In _ _ Ec))) as B.
  set (w := plain_projected_weight (c_gamma c position)) in *.
  destruct (Rleb w (1 / 100)). { exists st. split; auto. apply (uinv_weaken D); auto. }
  destruct (F4 i Hi) as (k & A & Hk). pose proof U as [U1 U2 U3 U4 U5 U6 U7]. pose proof U1 as (So & Nr & Al).
  destruct (uniform_chain mt j i F3 k i A (cv_tree st) conv_root_id _ 0 maximum_level position Lp U1 Nr)
    as (t1 & q & b & E1 & X1 & I1 & N1 & L1 & J1).
  - simpl. lia.
  - unfold maximum_level. lia.
  - intros x e I ->. apply Dn. eapply owned_fresh; [apply U4; eauto|reflexivity].
  - rewrite E1. cbn [bind].
    assert (Fid : ~ In (conv_id j i) (ids t1)).
    { intros I. destruct (J1 _ I) as [I'|(e & Bad)]; [|discriminate].
      apply Dn. eapply owned_fresh; [apply U4; eauto|reflexivity]. }
    destruct (uniform_add t1 (conv_id j i) q b cs (fun _ _ => True) X1 N1) as (t2 & E2 & X2 & I2); auto.
    { rewrite L1. simpl. lia. }
    { intros x I. destruct (J1 x I) as [I'|(e & ->)].
      - destruct (U4 x I') as [?|(j' & c' & _ & K)]; [left; auto|right; eauto].
      - right. exists j, i. auto. }
    rewrite E2. cbn [bind]. eexists. split; [reflexivity|].
    constructor; cbn [cv_tree cv_nodes cv_weights]; auto.
    + rewrite I2. apply in_app_iff. left. auto.
    + rewrite !app_length. simpl. lia.
    + intros x I. rewrite I2 in I. apply in_app_iff in I. destruct I as [I|[<-|[]]].
      * destruct (J1 x I) as [I'|(e & ->)].
        -- destruct (U4 x I') as [?|(j' & c' & HD & K)]; [left; auto|right; eauto 10].
        -- right. exists j, i. auto.
      * right. exists j, i. auto.
    + intros x I. apply in_app_iff in I. destruct I as [I|[<-|[]]].
      * destruct (U5 x I) as [I' N']. split; [|auto]. rewrite I2. apply in_app_iff. left. auto.
      * split; [rewrite I2; apply in_app_iff; right; left; auto|discriminate].
    + apply NoDup_snoc; auto. intros I. apply U5 in I as [I _]. apply Dn. eapply owned_fresh; [apply U4; eauto|reflexivity].
    + intros v I. apply in_app_iff in I. destruct I as [I|[<-|[]]]; auto. lra.
Qed.
Lemma uniform_components j mt cs (D0 : nat -> nat -> Prop) : free_tree n position mt -> passes n [cs] d d ->
  (forall i, i <> m_root mt -> ~ D0 j i) ->
  forall k i st, (i + k = length (m_comps mt))%nat -> uinv (fun j' c' => D0 j' c' \/ (j' = j /\ (c' < i)%nat)) st ->
  exists st', foldM (any_component_step initial weight_of CV position mt j 1 (Some [cs])) st (seq i k) = Ok st' /\
    uinv (fun j' c' => D0 j' c' \/ j' = j) st'.
Proof.
  intros F Pc H0. induction k as [|k IH]; intros i st Hk U.
  - exists st. split; auto. apply (uinv_weaken _ _ _ U). intros j' c' [?|[? _]]; auto.
  - cbn [seq foldM]. destruct (uniform_component _ st j mt i cs F U Pc) as (st1 & E1 & U1); [lia| |].
    { intros Ni [H|[_ H]]; [apply (H0 i); auto|lia]. }
    rewrite E1. cbn [bind]. apply IH; [lia|]. apply (uinv_weaken _ _ _ U1).
    intros j' c' [[?|[? ?]]|[? ->]]; auto; right; split; auto.
Qed.

Lemma uniform_reduction s0 w r cs : passes n [s0] d d -> rotate r (rb0 r) 1 = d -> passes n [cs] d d -> 0 < w <= 1 ->
  exists q, vector_rotation_reduction orth0 sort [s0] (Some r) (Some [cs]) w = Ok [q] /\ passes n [q] d d.
Proof.
  intros P1 Er P2 Hw. destruct Ud as [Ud1 Ud2].
  assert (RP : related_path d (stops [s0] d)) by (unfold stops; simpl; split; [apply related_self; auto|auto]).
  assert (RP2 : related_path d (stops [cs] d)) by (unfold stops; simpl; split; [apply related_self; auto|auto]).
  destruct (vrr_tree orth0 sort n [s0] d d r d [cs] d) as (t & t1 & t2 & l1 & l2 & E & E1 & E2 & S & N0 & N1 & N2 & V & Nm & Sh);
    auto using related_self; try (simpl; lia).
  destruct Sh as [I _]; auto.
  unfold vector_rotation_reduction. rewrite (proj2 (Rleb_false _ _)) by lra.
  rewrite E. cbn [bind]. rewrite E1. cbn [bind]. rewrite E2. cbn [bind].
  assert (U : unif n t2 (NInt 0) d).
  { split; [auto|]. split; [auto|]. intros x a Nx. pose proof (node_in_ids _ _ _ Nx) as Ix. rewrite I in Ix.
    pose proof (so_rooted _ _ _ S) as W.
    destruct Ix as [<-|[<-|[<-|[<-|[]]]]].
    - rewrite (node_unique n t2 _ W _ _ _ Nx N0). reflexivity.
    - rewrite (node_unique n t2 _ W _ _ _ Nx N1). reflexivity.
    - rewrite (node_unique n t2 _ W _ _ _ Nx Nm). reflexivity.
    - rewrite (node_unique n t2 _ W _ _ _ Nx N2). reflexivity. }
  eapply uniform_reduce; eauto.
  - eapply HS. apply S.
  - apply (two_assigned sort t2 w); eapply node_in_ids; eauto.
  - intros x. cbv beta. destruct (nid_eq_dec x (NInt 1)); [lra|]. destruct (nid_eq_dec x (NInt 2)); lra.
  - simpl. lra.
Qed.

Lemma uniform_tree s0 mt j st : passes n [s0] d d -> free_tree n position mt ->
  uinv (fun j' _ => (j' < j)%nat) st ->
  exists st', any_tree_step orth0 sort initial default weight_of CV position [s0] mt j st = Ok st' /\
    uinv (fun j' _ => (j' < S j)%nat) st'.
Proof.
  intros P0 F U. pose proof F as [F1 F2 F3 F4]. unfold any_tree_step, tree_gamma_at, singularity.
  rewrite (un_attractor _ _ _ Ui). cbn [bind compute_tree_weight]. rewrite (proj2 (Rleb_false _ _)) by lra.
  unfold get_component. destruct (nth_error (m_comps mt) (m_root mt)) as [root|] eqn:Er; [|apply nth_error_None in Er; lia].
  cbn [bind weight_at position_to_transform]. pose proof (plain_weight root (F2 root (nth_error_In _ _ Er))) as B.
  set (w := plain_projected_weight (c_gamma root position)) in *.
  destruct (un_eval _ _ _ Uc position Lp) as (L1 & N1 & D1). pose proof tiny_pos as TP.
  destruct (velocity_rotation n (dy_eval conv position) Hn L1) as (r & Rr & Dr); [lra|].
  rewrite Rr. cbn [bind]. rewrite D1 in Dr.
  set (f := match default with None => initial | Some f => f end).
  assert (Uf : uniform n d f) by (unfold f; destruct default; auto).
  destruct (uniform_sequence f (c_refpoint root) Uf (F3 root (nth_error_In _ _ Er))) as (cs & Ec & Pc).
  rewrite Ec. cbn [bind].
  destruct (uniform_reduction s0 w r cs P0 Dr Pc) as (q & Eq & Pq); [lra|]. rewrite Eq. cbn [bind].
  pose proof U as [U1 U2 U3 U4 U5 U6 U7]. pose proof U1 as (So & Nr & Al).
  assert (Fid : ~ In (conv_id j (m_root mt)) (ids (cv_tree st))).
  { intros I. pose proof (owned_fresh _ _ j (m_root mt) (U4 _ I) eq_refl). simpl in *. lia. }
  destruct (uniform_add (cv_tree st) (conv_id j (m_root mt)) conv_root_id _ q (fun j' _ => (j' < j)%nat) U1 Nr) as (t2 & E2 & X2 & I2); auto.
  { simpl. lia. }
  rewrite E2. cbn [bind]. set (st1 := if Rltb (1 / 1000000) w then _ else _).
  assert (V : uinv (fun j' c' => ((j' < j)%nat \/ (j' = j /\ c' = m_root mt)) \/ (j' = j /\ (c' < 0)%nat)) st1).
  { apply uinv_weaken with (D := fun j' c' => (j' < j)%nat \/ (j' = j /\ c' = m_root mt)); [|auto].
    assert (T : cv_tree st1 = t2) by (unfold st1; destruct (Rltb (1 / 1000000) w); auto).
    constructor; rewrite ?T; auto.
    - rewrite I2. apply in_app_iff. auto.
    - unfold st1. destruct (Rltb (1 / 1000000) w); cbn [cv_nodes cv_weights]; auto. rewrite !app_length. simpl. lia.
    - intros x I. rewrite I2 in I. apply in_app_iff in I. destruct I as [I|[<-|[]]].
      + destruct (U4 x I) as [?|(j' & c' & HD & K)]; [left; auto|right; eauto 10].
      + right. exists j, (m_root mt). auto.
    - assert (G : forall x, In x (cv_nodes st) -> In x (ids t2) /\ x <> conv_init_id).
      { intros x I. destruct (U5 x I). split; auto. rewrite I2. apply in_app_iff. auto. }
      unfold st1. destruct (Rltb (1 / 1000000) w); cbn [cv_nodes]; auto.
      intros x I. apply in_app_iff in I. destruct I as [I|[<-|[]]]; auto.
      split; [rewrite I2; apply in_app_iff; right; left; auto|discriminate].
    - unfold st1. destruct (Rltb (1 / 1000000) w); cbn [cv_nodes]; auto. apply NoDup_snoc; auto.
      intros I. apply U5 in I as [I _]. auto.
    - unfold st1. destruct (Rltb (1 / 1000000) w); cbn [cv_weights]; auto.
      intros v I. apply in_app_iff in I. destruct I as [I|[<-|[]]]; auto. lra. }
  destruct (uniform_components j mt cs (fun j' c' => (j' < j)%nat \/ (j' = j /\ c' = m_root mt)) F Pc)
    with (k := length (m_comps mt)) (i := 0%nat) (st := st1) as (st' & E' & V'); auto.
  { intros i Hi [H|[_ H]]; [lia|auto]. }
  rewrite E'. exists st'. split; auto. apply (uinv_weaken _ _ _ V'). intros j' c' [[?|[-> ?]]| ->]; lia.
Qed.

Lemma uniform_trees s0 : passes n [s0] d d -> forall trees j st, (forall mt, In mt trees -> free_tree n position mt) ->
  uinv (fun j' _ => (j' < j)%nat) st ->
  exists st' k, any_tree_steps orth0 sort initial default weight_of CV position [s0] j trees st = Ok st' /\
    uinv (fun j' _ => (j' < k)%nat) st'.
Proof.
  intros P0. induction trees as [|mt trees IH]; intros j st F U; [exists st, j; auto|].
  cbn [any_tree_steps]. destruct (uniform_tree s0 mt j st P0 (F mt (or_introl eq_refl)) U) as (st1 & E1 & U1).
  rewrite E1. cbn [bind]. apply IH; auto. intros m Hm. apply F. right; auto.
Qed.

Lemma uniform_direction : forall trees, (forall mt, In mt trees -> free_tree n position mt) ->
  any_convergence_direction orth0 sort initial default weight_of CV position trees = Ok d.
Proof.
  intros trees F. unfold any_convergence_direction.
  destruct (uniform_sequence initial position Ui Lp) as (s0 & E0 & P0). rewrite E0. cbn [bind].
  destruct Ud as [Ud1 Ud2]. unfold any_convergence_sequence.
  destruct (from_sequence_sound n conv_root_id conv_init_id [s0] d d) as (t0 & l0 & Et & So & I0 & N0 & N1 & _); auto.
  { simpl. lia. } { discriminate. } { discriminate. }
  { unfold stops. simpl. split; [apply related_self; auto|auto]. }
  rewrite Et. cbn [bind]. simpl in I0.
  assert (U0 : unif n t0 conv_root_id d).
  { split; [auto|]. split; [auto|]. intros x a Nx. pose proof (node_in_ids _ _ _ Nx) as Ix. rewrite I0 in Ix.
    destruct Ix as [<-|[<-|[]]].
    - rewrite (node_unique n t0 _ (so_rooted _ _ _ So) _ _ _ Nx N0). reflexivity.
    - rewrite (node_unique n t0 _ (so_rooted _ _ _ So) _ _ _ Nx N1). reflexivity. }
  destruct (uniform_trees s0 P0 trees 0 (mkConv t0 [] []) F) as (st & k & Est & [C1 C2 C3 C4 C5 C6 C7]).
  { constructor; cbn [cv_tree cv_nodes cv_weights]; auto.
    - rewrite I0. right; left; auto.
    - intros x I. left. rewrite I0 in I. destruct I as [<-|[<-|[]]]; reflexivity.
    - intros x [].
    - constructor.
    - intros w []. }
  rewrite Est. cbn [bind].
  set (L := cv_nodes st ++ [conv_init_id]). set (W := cv_weights st ++ [0]).
  assert (NW : nonneg W).
  { intros w I. unfold W in I. apply in_app_iff in I. destruct I as [I|[<-|[]]]; [|lra]. apply C7 in I. lra. }
  assert (OS : one_saturated_at_most W).
  { intros i j Hi Hj Wi _. exfalso. pose proof (nth_In W 0 Hi) as I. unfold W in I at 2. apply in_app_iff in I.
    destruct I as [I|[I|[]]]; [apply C7 in I; lra|lra]. }
  destruct (C18_limited_weights_partial W NW) as (W' & tot & EW & LW & UW & Ht & Hlo & Hhi & _).
  rewrite EW. cbn [bind].
  assert (SUM : rsum W' + (1 - tot) = 1).
  { destruct (Rlt_le_dec (rsum W) 1) as [Q|Q].
    - destruct (Hlo Q) as [-> ->]. ring.
    - destruct (Hhi Q) as [-> X]. rewrite (X OS). ring. }
  destruct (snoc_of_length W' (length (cv_weights st))) as (W1 & a & EW1).
  { rewrite LW. unfold W. rewrite app_length. simpl. lia. }
  set (G := add_to_last W' (1 - tot)).
  assert (EG : G = W1 ++ [a + (1 - tot)]) by (unfold G; rewrite EW1; apply add_to_last_snoc).
  assert (LG : length L = length G).
  { rewrite EG. assert (length W' = length W1 + 1)%nat by (rewrite EW1, app_length; reflexivity).
    rewrite LW in H. unfold L, W in *. rewrite !app_length in *. simpl in *. lia. }
  assert (NG : nonneg G).
  { intros w I. rewrite EG in I. apply in_app_iff in I. destruct I as [I|[<-|[]]].
    - apply UW. rewrite EW1. apply in_app_iff. auto.
    - assert (0 <= a) by (apply UW; rewrite EW1; apply in_app_iff; right; left; auto). lra. }
  assert (SG : rsum G = 1).
  { rewrite EG, rsum_app. rewrite EW1, rsum_app in SUM. simpl in *. lra. }
  assert (NDL : NoDup L).
  { apply NoDup_snoc; auto. intros I. apply C5 in I. tauto. }
  assert (IL : forall x, In x L -> In x (ids (cv_tree st))).
  { intros x I. apply in_app_iff in I. destruct I as [I|[<-|[]]]; auto. apply C5; auto. }
  destruct (uniform_reduce n (cv_tree st) conv_root_id d (sort (cv_tree st)) orth0 blank L G (wlookup L G) C1 Hn)
    as (q & Eq & Pq); auto.
  - eapply HS. apply C1.
  - apply wlookup_assigned; auto.
  - intros x. apply wlookup_nonneg; auto.
  - lra.
  - fold L. fold G. rewrite Eq. cbn [bind]. apply Pq.
Qed.
End Uniform.

(** In a uniform field the convergence direction of an avoider without attractor is the field's,
    whatever the obstacles. *)
Theorem C160_uniform_field : forall orth0 sort n d initial reference default weight_of position trees cv,
  (2 <= n)%nat -> (forall v, length (orth0 v) = length v) ->
  (forall n t r, rooted_tree n t r -> level_sorted t (sort t)) ->
  uniform n d initial -> uniform n d reference -> (forall f, default = Some f -> uniform n d f) ->
  length position = n -> (forall mt, In mt trees -> free_tree n position mt) ->
  avoider_convergence false false initial (Some reference) = Ok cv ->
  any_convergence_direction orth0 sort initial default weight_of cv position trees = Ok d.
Proof.
  intros orth0 sort n d initial reference default weight_of position trees cv Hn HO HS Ui Ur Ud' Lp F E.
  injection E as <-. apply uniform_direction with (n := n); auto.
Qed.

(** ** Fields which vary *)
Lemma misaligned t id s0 p a : get_attrs t p = Ok a -> allclose (rb0 s0) (a_dir a) = false ->
  lift (add_sequence t id [s0] p true) = Err EValue.
Proof. intros G C. unfold add_sequence, seq_start. rewrite G, C. reflexivity. Qed.

(** Two fields: the direction at the reference point of the first obstacle has to be the one at the
    position, otherwise the evaluation raises. *)
Theorem C160_varying_raises : forall orth0 sort n initial reference default weight_of position cv mt root trees,
  (2 <= n)%nat -> length position = n ->
  let f := match default with None => initial | Some f => f end in
  dy_own initial = None -> dy_attractor initial = None -> dy_own f = None -> dy_attractor f = None ->
  length (dy_eval initial position) = n -> / 10 ^ 8 < norm (dy_eval initial position) ->
  nth_error (m_comps mt) (m_root mt) = Some root ->
  length (dy_eval f (c_refpoint root)) = n -> / 10 ^ 8 < norm (dy_eval f (c_refpoint root)) ->
  allclose (direction (dy_eval f (c_refpoint root))) (direction (dy_eval initial position)) = false ->
  avoider_convergence false false initial (Some reference) = Ok cv ->
  any_convergence_direction orth0 sort initial default weight_of cv position (mt :: trees) = Err EValue.
Proof.
  intros orth0 sort n initial reference default weight_of position cv mt root trees Hn Lp f O1 A1 O2 A2 L1 N1 Er L2 N2 AC E.
  injection E as <-. pose proof tiny_pos as TP.
  destruct (C62_without_attractor n initial position Hn O1 A1 L1 N1) as (q & E0 & P & F & G).
  destruct (C62_without_attractor n f (c_refpoint root) Hn O2 A2 L2 N2) as (q2 & E2 & P2 & F2 & G2).
  set (d := direction (dy_eval initial position)) in *.
  assert (Ud1 : unitv d) by (apply dirof_unit; lra).
  assert (Ud2 : length d = n) by (unfold d, direction; autorewrite with vlen; auto).
  assert (P0 : passes n [q] d d).
  { constructor; auto.
    - exists q, []. split; [reflexivity|exact F].
    - constructor; [|constructor]. unfold get_first_vector in F. rewrite F. auto. }
  assert (RP : related_path d (stops [q] d)) by (unfold stops; simpl; split; [apply related_self; auto|auto]).
  unfold any_convergence_direction. rewrite E0. cbn [bind]. unfold any_convergence_sequence.
  destruct (from_sequence_sound n conv_root_id conv_init_id [q] d d) as (t0 & l0 & Et & _); auto; try discriminate.
  { simpl. lia. }
  rewrite Et. cbn [bind any_tree_steps]. unfold any_tree_step, tree_gamma_at, singularity. rewrite A1.
  cbn [bind compute_tree_weight]. rewrite (proj2 (Rleb_false _ _)) by lra.
  unfold get_component. rewrite Er. cbn [bind weight_at position_to_transform].
  destruct (velocity_rotation n (dy_eval initial position) Hn L1) as (r & Rr & Dr); [lra|].
  rewrite Rr. cbn [bind]. fold f. rewrite E2. cbn [bind]. unfold vector_rotation_reduction.
  assert (W : 0 < plain_projected_weight (c_gamma root position)).
  { unfold plain_projected_weight. destruct (Rleb 1 (c_gamma root position)) eqn:EG; [|lra].
    apply Rleb_true in EG. unfold Rdiv. rewrite Rmult_1_l. apply Rinv_0_lt_compat. lra. }
  rewrite (proj2 (Rleb_false _ _)) by lra.
  destruct (from_sequence_sound n (NInt 0) (NInt 1) [q] d d) as (t & l & Et' & So & I & M0 & M1 & _); auto; try discriminate.
  { simpl. lia. }
  rewrite Et'. cbn [bind].
  destruct (add_node_sound n t (NInt 0) (NInt (-1)) d (NInt 0) (mkAttrs 0 d)) as (t1 & E1 & S1 & I1 & K1 & X1 & _); auto.
  { simpl. lia. }
  { apply norm_neq_0_dot. unfold unitv in Ud1. lra. }
  { rewrite I. simpl. intuition discriminate. }
  { rewrite (direction_unitv _ Ud1). apply related_self; auto. }
  fold d in Dr. unfold add_node_orientation. rewrite Dr, E1. cbn [lift bind]. rewrite (direction_unitv _ Ud1) in X1.
  rewrite (misaligned t1 (NInt 2) q2 (NInt (-1)) (mkAttrs 1 d)); [reflexivity| |].
  - apply (get_attrs_node n t1 (NInt 0) (so_rooted _ _ _ S1)). exact X1.
  - cbn [a_dir]. unfold get_first_vector in F2. rewrite F2. exact AC.
Qed.

(** A second component: the reference dynamics at its reference point has to be the initial one. *)
Theorem C160_reference_raises : forall orth0 sort n d initial reference weight_of position cv mt root c comps trees,
  (2 <= n)%nat -> (forall v, length (orth0 v) = length v) ->
  (forall n t r, rooted_tree n t r -> level_sorted t (sort t)) ->
  uniform n d initial -> length position = n ->
  m_comps mt = root :: c :: comps -> m_root mt = 0%nat -> m_parent mt 1 = Some 0%nat ->
  length (c_refpoint root) = n -> 1 < c_gamma root position -> 1 < c_gamma c position < 100 ->
  (forall x, In x [position; c_refpoint c] -> length (dy_eval reference x) = n /\ / 10 ^ 8 < norm (dy_eval reference x)) ->
  related d (direction (dy_eval reference position)) ->
  related (direction (dy_eval reference position)) (direction (dy_eval reference (c_refpoint c))) ->
  allclose d (direction (dy_eval reference (c_refpoint c))) = false ->
  avoider_convergence false false initial (Some reference) = Ok cv ->
  any_convergence_direction orth0 sort initial None weight_of cv position (mt :: trees) = Err EValue.
Proof.
  intros orth0 sort n d initial reference weight_of position cv mt root c comps trees Hn HO HS Ui Lp Ec Em Ep Lr Gr Gc HR R1 R2 AC E.
  injection E as <-. pose proof tiny_pos as TP.
  destruct (Ud n d initial Ui position Lp) as [Ud1 Ud2].
  destruct (uniform_sequence n d initial Hn Ui position Lp initial position Ui Lp) as (s0 & E0 & P0).
  destruct (uniform_sequence n d initial Hn Ui position Lp initial (c_refpoint root) Ui Lr) as (cs & Es & Pc).
  assert (RP : related_path d (stops [s0] d)) by (unfold stops; simpl; split; [apply related_self; auto|auto]).
  unfold any_convergence_direction. rewrite E0. cbn [bind]. unfold any_convergence_sequence.
  destruct (from_sequence_sound n conv_root_id conv_init_id [s0] d d) as (t0 & l0 & Et & So & I0 & N0 & N1 & _); auto; try discriminate.
  { simpl. lia. }
  simpl in I0. rewrite Et. cbn [bind any_tree_steps]. unfold any_tree_step, tree_gamma_at, singularity.
  rewrite (un_attractor _ _ _ Ui). cbn [bind compute_tree_weight]. rewrite (proj2 (Rleb_false _ _)) by lra.
  unfold get_component. rewrite Em, Ec. cbn [nth_error bind weight_at position_to_transform].
  destruct (un_eval _ _ _ Ui position Lp) as (L1 & N1' & D1).
  destruct (velocity_rotation n (dy_eval initial position) Hn L1) as (r & Rr & Dr); [lra|].
  rewrite Rr. cbn [bind]. rewrite D1 in Dr. rewrite Es. cbn [bind].
  pose proof (plain_weight position root Gr) as Bw.
  destruct (uniform_reduction orth0 sort n d initial Hn HO HS Ui position Lp s0 (plain_projected_weight (c_gamma root position)) r cs)
    as (q & Eq & Pq); auto; [lra|].
  rewrite Eq. cbn [bind cv_tree cv_nodes cv_weights].
  assert (U0 : unif n t0 conv_root_id d).
  { split; [auto|]. split; [auto|]. intros x a Nx. pose proof (node_in_ids _ _ _ Nx) as Ix. rewrite I0 in Ix.
    destruct Ix as [<-|[<-|[]]].
    - rewrite (node_unique n t0 _ (so_rooted _ _ _ So) _ _ _ Nx N0). reflexivity.
    - rewrite (node_unique n t0 _ (so_rooted _ _ _ So) _ _ _ Nx N1). reflexivity. }
  destruct (uniform_add n d initial Hn Ui position Lp t0 (conv_id 0 0) conv_root_id (mkAttrs 0 d) q (fun _ _ => True) U0 N0)
    as (t2 & Ea & X2 & I2); auto.
  { simpl. lia. }
  { rewrite I0. simpl. intuition discriminate. }
  { intros x I. rewrite I0 in I. left. destruct I as [<-|[<-|[]]]; reflexivity. }
  rewrite Ea. cbn [bind]. set (st1 := if Rltb (1 / 1000000) _ then _ else _).
  assert (T : cv_tree st1 = t2) by (unfold st1; destruct (Rltb (1 / 1000000) _); auto).
  cbn [length seq foldM]. unfold any_component_step at 1. rewrite Em. cbn [Nat.eqb bind foldM].
  unfold any_component_step at 1. rewrite Em. cbn [Nat.eqb]. unfold get_component. rewrite Ec.
  cbn [nth_error bind weight_at].
  assert (Bc : 1 / 100 < plain_projected_weight (c_gamma c position)).
  { unfold plain_projected_weight. rewrite (proj2 (Rleb_true _ _)) by lra. unfold Rdiv. rewrite !Rmult_1_l.
    apply Rinv_lt_contravar; [|lra]. apply Rmult_lt_0_compat; lra. }
  rewrite (proj2 (Rleb_false _ _)) by auto. rewrite T.
  change maximum_level with (S (S 98)). generalize 98%nat as fu. intros fu.
  cbn [any_chain_up]. unfold get_component. rewrite Ec. cbn [nth_error bind start_to_end].
  destruct (HR position (or_introl eq_refl)) as [La Na]. destruct (HR (c_refpoint c)) as [Lb Nb]; [right; left; auto|].
  destruct (velocity_rotation n (dy_eval reference position) Hn La) as (ra & Ra & Da); [lra|].
  destruct (velocity_rotation n (dy_eval reference (c_refpoint c)) Hn Lb) as (rb & Rb & Db); [lra|].
  rewrite Ra. cbn [bind].
  pose proof X2 as (S2 & M2 & Al2).
  set (ea := direction (dy_eval reference position)) in *. set (eb := direction (dy_eval reference (c_refpoint c))) in *.
  assert (Ua : unitv ea) by (apply dirof_unit; lra). assert (Ub : unitv eb) by (apply dirof_unit; lra).
  assert (Lea : length ea = n) by (unfold ea, direction; autorewrite with vlen; auto).
  assert (Leb : length eb = n) by (unfold eb, direction; autorewrite with vlen; auto).
  destruct (add_node_sound n t2 conv_root_id (conv_step_id 0 1 0) ea conv_root_id (mkAttrs 0 d)) as (t3 & E3 & S3 & I3 & K3 & X3 & _); auto.
  { simpl. lia. }
  { apply norm_neq_0_dot. unfold unitv in Ua. lra. }
  { rewrite I2, I0. simpl. intuition discriminate. }
  { rewrite (direction_unitv _ Ua). exact R1. }
  unfold add_node_orientation. rewrite Da, E3. cbn [lift bind]. rewrite Em. cbn [Nat.eqb].
  unfold get_parent_idx. rewrite Ep. cbn [bind]. rewrite Rb. cbn [bind].
  rewrite (direction_unitv _ Ua) in X3.
  destruct (add_node_sound n t3 conv_root_id (conv_step_id 0 1 1) eb (conv_step_id 0 1 0) (mkAttrs 1 ea)) as (t4 & E4 & S4 & I4 & K4 & X4 & _); auto.
  { simpl. lia. }
  { apply norm_neq_0_dot. unfold unitv in Ub. lra. }
  { rewrite I3, I2, I0. simpl. intuition discriminate. }
  { rewrite (direction_unitv _ Ub). exact R2. }
  rewrite Db, E4. cbn [lift bind nth_error Nat.eqb]. rewrite (direction_unitv _ Ub) in X4.
  destruct (ps_start _ _ _ _ Pc) as (cs' & s' & Ecs & Hcs). injection Ecs as <- <-.
  rewrite (misaligned t4 (conv_id 0 1) cs (conv_step_id 0 1 1) (mkAttrs 2 eb)); [reflexivity| |].
  - apply (get_attrs_node n t4 conv_root_id (so_rooted _ _ _ S4)). exact X4.
  - cbn [a_dir]. rewrite Hcs. exact AC.
Qed.

(** ** Scenes *)
Definition right_field : dynamics := mkDyn (fun _ => [2; 0]) None None.
(** A field which turns upward left of the origin. *)
Definition bending_field : dynamics :=
  mkDyn (fun x => if Rlt_dec (nth 0 x 0) 0 then [0; 2] else [2; 0]) None None.
Lemma right_uniform : uniform 2 [1; 0] right_field.
Proof.
  constructor; auto. intros x _. cbn [dy_eval right_field]. split; [reflexivity|].
  destruct (dir_scaled 2 1 0) as [D N]; [lra|ring|].
  replace [2 * 1; 2 * 0] with [2; 0] in D, N by (f_equal; [|f_equal]; ring). rewrite N, D. split; [|reflexivity].
  assert (/ 10 ^ 8 < / 1) by (apply Rinv_lt_contravar; lra). lra.
Qed.
Lemma bent_free : free_tree 2 [1; 1] bent_obstacle.
Proof.
  constructor; cbn [bent_obstacle m_comps m_root].
  - simpl. lia.
  - intros c [<-|[<-|[]]]; cbn [plain_component c_gamma]; lra.
  - intros c [<-|[<-|[]]]; reflexivity.
  - intros i Hi. assert (A : ancestry bent_obstacle 1 0) by exact (anc_root bent_obstacle _ eq_refl).
    destruct i as [|[|i]]; [| |simpl in Hi; lia].
    + exists 1%nat. split; [exact A|lia].
    + exists 2%nat. split; [|lia]. eapply anc_up; [discriminate|reflexivity|reflexivity|exact A].
Qed.
(** Two obstacles of two components each in a uniform field. *)
Example C160_uniform_case : exists cv, avoider_convergence false false right_field (Some right_field) = Ok cv /\
  any_convergence_direction (fun v => v) sort_by_level right_field None given_weight cv [1; 1]
    [bent_obstacle; bent_obstacle] = Ok [1; 0].
Proof.
  eexists. split; [reflexivity|].
  apply C160_uniform_field with (n := 2%nat) (reference := right_field); auto using right_uniform.
  - apply sort_by_level_sorted.
  - discriminate.
  - intros mt [<-|[<-|[]]]; apply bent_free.
Qed.
Lemma field_values :
  dy_eval bending_field [1; 1] = [2; 0] /\ dy_eval bending_field [-1; 0] = [0; 2] /\ dy_eval bending_field [1; 0] = [2; 0].
Proof.
  cbn [dy_eval bending_field nth]. destruct (Rlt_dec 1 0); [lra|]. destruct (Rlt_dec (-1) 0); [|lra]. auto.
Qed.
Lemma two_dirs : direction [2; 0] = [1; 0] /\ direction [0; 2] = [0; 1] /\ / 10 ^ 8 < norm [2; 0] /\ / 10 ^ 8 < norm [0; 2].
Proof.
  assert (/ 10 ^ 8 < / 1) by (apply Rinv_lt_contravar; lra).
  destruct (dir_scaled 2 1 0) as [D N]; [lra|ring|].
  replace [2 * 1; 2 * 0] with [2; 0] in D, N by (f_equal; [|f_equal]; ring).
  destruct (dir_scaled 2 0 1) as [D' N']; [lra|ring|].
  replace [2 * 0; 2 * 1] with [0; 2] in D', N' by (f_equal; [|f_equal]; ring).
  rewrite N, N'. repeat split; auto; lra.
Qed.
Lemma far_axes : allclose [0; 1] [1; 0] = false /\ allclose [1; 0] [0; 1] = false.
Proof.
  assert (0 < / 10 ^ 8 < / 1000) by (split; [apply Rinv_0_lt_compat|apply Rinv_lt_contravar]; lra).
  assert (0 < / 10 ^ 5 < / 1000) by (split; [apply Rinv_0_lt_compat|apply Rinv_lt_contravar]; lra).
  cbn [allclose]. unfold isclose. split.
  - rewrite (proj2 (Rleb_false _ _)); [reflexivity|]. unfold Rabs. repeat destruct (Rcase_abs _); lra.
  - rewrite (proj2 (Rleb_false _ _)); [reflexivity|]. unfold Rabs. repeat destruct (Rcase_abs _); lra.
Qed.
(** The obstacle left of the origin: the field there is another one. *)
Example C160_varying_case : exists cv, avoider_convergence false false bending_field (Some right_field) = Ok cv /\
  any_convergence_direction (fun v => v) sort_by_level bending_field None given_weight cv [1; 1]
    [mkMTree [plain_component 1 [-1; 0]] 0 (fun _ => None)] = Err EValue.
Proof.
  eexists. split; [reflexivity|]. destruct field_values as (V1 & V2 & _). destruct two_dirs as (D1 & D2 & N1 & N2).
  eapply C160_varying_raises with (n := 2%nat) (reference := right_field); try reflexivity; try lia;
    cbn [plain_component c_refpoint]; rewrite ?V1, ?V2, ?D1, ?D2; auto.
  apply far_axes.
Qed.
Example C160_reference_case : exists cv, avoider_convergence false false right_field (Some bending_field) = Ok cv /\
  any_convergence_direction (fun v => v) sort_by_level right_field None given_weight cv [1; 1]
    [mkMTree [plain_component 1 [1; 0]; plain_component 1 [-1; 0]] 0
       (fun i => match i with 1%nat => Some 0%nat | _ => None end)] = Err EValue.
Proof.
  eexists. split; [reflexivity|]. destruct field_values as (V1 & V2 & _). destruct two_dirs as (D1 & D2 & N1 & N2).
  eapply C160_reference_raises with (n := 2%nat) (reference := bending_field) (d := [1; 0]); try reflexivity; try lia;
    auto using right_uniform; cbn [plain_component c_refpoint c_gamma]; rewrite ?V1, ?V2, ?D1, ?D2; try lra.
  - apply sort_by_level_sorted.
  - intros x [<-|[<-|[]]]; rewrite ?V1, ?V2; auto.
  - apply related_self. unfold unitv; simpl; lra.
  - apply related_right; [axis|lra].
  - apply far_axes.
Qed.
(** With an attractor: the scene of [C65_overlap_refuted], the dynamics created twice. *)
Example C160_attractor_case : exists cv, avoider_convergence true true upward_field None = Ok cv /\
  any_convergence_direction (fun v => v) sort_by_level upward_field None given_weight cv [-1; 0]
    [one_component; one_component] = Ok [-1; 0].
Proof.
  destruct (C160_attractor true upward_field None [0; 0] eq_refl) as (cv & E & H). exists cv. split; [exact E|].
  rewrite H. destruct C65_overlap_refuted as (s0 & s & _ & E0 & _ & Es & Ee).
  unfold compute_convergence_direction. rewrite E0. cbn [bind]. rewrite Es. exact Ee.
Qed.
Print Assumptions C160_attractor.
Print Assumptions C160_needs_reference.
Print Assumptions C160_uniform_field.
Print Assumptions C160_varying_raises.
Print Assumptions C160_reference_raises.
