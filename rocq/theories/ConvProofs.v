(** Lemmas about building direction trees from sequences, for the convergence sequence. *)
Require Import Reals List Lia Lra Bool ZArith.
From Verif Require Import Base Vec Angle RotModel Spec RotProofs SeqProofs TreeModel TreeSpec TreeProofs
  TreeWeights TreeReduce TreeGeom TreeCases PropTree WeightModel AvoidModel PropTangent PropContact ConvModel.
Import ListNotations.
Open Scope R_scope.

(** Two directions which the tree can relate: not opposite; equal or told apart by the tolerance
    of [np.allclose]. *)
Definition related (u v : vec) : Prop := dot u v <> -1 /\ (u = v \/ allclose u v = false).
(** Consecutive directions are related. *)
Fixpoint related_path (u : vec) (l : list vec) : Prop :=
  match l with [] => True | v :: l' => related u v /\ related_path v l' end.
(** The directions a sequence passes: the first vectors of its rotations, then the end. *)
Record passes (n : nat) (s : sequence) (b e : vec) : Prop := {
  ps_start : exists r s', s = r :: s' /\ rb0 r = b;
  ps_dirs : Forall (fun q => length (rb0 q) = n /\ unitv (rb0 q)) s;
  ps_end : get_end_vector s = Ok e;
  ps_unit : length e = n /\ unitv e }.
Definition stops (s : sequence) (e : vec) : list vec := map rb0 (tl s) ++ [e].

(** A rooted tree whose neighbours are related. *)
Record sound (n : nat) (t : tree) (r : nid) : Prop := {
  so_rooted : rooted_tree n t r;
  so_noopp : no_opposite t;
  so_dist : distinguishable t }.
Definition keeps (t t' : tree) : Prop := forall y b, node t y b -> node t' y b.
Definition level_le (k : nat) (t : tree) : Prop := forall x a, node t x a -> (a_level a <= k)%nat.
Lemma keeps_refl t : keeps t t.
Proof. intros y b; auto. Qed.
Lemma keeps_trans t1 t2 t3 : keeps t1 t2 -> keeps t2 t3 -> keeps t1 t3.
Proof. intros A B y b H. auto. Qed.

Lemma direction_unitv v : unitv v -> direction v = v.
Proof. exact (dirof_of_unit v). Qed.

Lemma add_node_sound n t r x d p a : sound n t r -> node t p a -> (S (a_level a) < 100)%nat ->
  norm d <> 0 -> ~ In x (ids t) -> length d = n -> related (a_dir a) (direction d) ->
  exists t', add_node t x d (Some p) None None = (t', Ok tt) /\ sound n t' r /\ ids t' = ids t ++ [x] /\
    keeps t t' /\ node t' x (mkAttrs (S (a_level a)) (direction d)) /\
    (forall u v, edge t' u v <-> edge t u v \/ (u = p /\ v = x)) /\
    (forall k, level_le k t -> (S (a_level a) <= k)%nat -> level_le k t').
Proof.
  intros [W NO DI] Hp Hl Hd Hx Ld [R1 R2].
  destruct (C10_insertion_accepted n t r x d p a W Hp Hl Hd) as (t' & E); auto.
  { intros b Hb. apply Hx. apply (node_in_ids t x b Hb). }
  destruct (C10_insertion_effect n t r x d p a t' W Hp E) as (N & ED & _).
  destruct (add_node_success n t r x d p None None t' W E) as (a0 & _ & _ & _ & _ & Et').
  exists t'. split; auto.
  assert (W' : rooted_tree n t' r) by (eapply add_node_rooted; eauto).
  assert (OLD : forall u v b c, edge t u v -> node t' u b -> node t' v c -> node t u b /\ node t v c).
  { intros u v b c Eu Nb Nc. destruct (edge_ids n t r W u v Eu) as [Iu Iv].
    apply N in Nb. apply N in Nc. split.
    - destruct Nb as [?|[-> _]]; auto. contradiction.
    - destruct Nc as [?|[-> _]]; auto. contradiction. }
  assert (NEW : forall b c, node t' p b -> node t' x c -> b = a /\ c = mkAttrs (S (a_level a)) (direction d)).
  { intros b c Nb Nc. split.
    - apply (node_unique n t' r W' p); auto. apply N. left; auto.
    - apply (node_unique n t' r W' x); auto. apply N. right; auto. }
  split; [constructor; auto|].
  - intros u v b c Eu Nb Nc. apply ED in Eu. destruct Eu as [Eu|[-> ->]].
    + destruct (OLD u v b c Eu Nb Nc). eapply NO; eauto.
    + destruct (NEW b c Nb Nc) as [-> ->]. exact R1.
  - intros u v b c Eu Nb Nc. apply ED in Eu. destruct Eu as [Eu|[-> ->]].
    + destruct (OLD u v b c Eu Nb Nc). eapply DI; eauto.
    + destruct (NEW b c Nb Nc) as [-> ->]. exact R2.
  - split; [rewrite Et'; unfold ids; simpl; rewrite map_app; auto|].
    split; [intros y b H; apply N; auto|]. split; [apply N; auto|]. split; [auto|].
    intros k Lk Hk y b Ny. apply N in Ny. destruct Ny as [Ny|[_ ->]]; [eapply Lk; eauto|auto].
Qed.

Lemma last_any {A} (x : A) l d d' : last (x :: l) d = last (x :: l) d'.
Proof. revert x. induction l as [|y l IH]; intros x; auto. exact (IH y). Qed.

Definition inter_ids (id : nid) (ii k : nat) : list nid :=
  map (fun i => NPair id (NInt (Z.of_nat i))) (seq ii k).

Lemma add_inter_sound n r id : forall s t p a ii, sound n t r -> node t p a ->
  (a_level a + length s < 100)%nat -> Forall (fun q => length (rb0 q) = n /\ unitv (rb0 q)) s ->
  (forall i, (ii <= i < ii + length s)%nat -> ~ In (NPair id (NInt (Z.of_nat i))) (ids t)) ->
  related_path (a_dir a) (map rb0 s) ->
  exists t' q b, add_inter t id p ii s = (t', Ok q) /\ sound n t' r /\
    ids t' = ids t ++ inter_ids id ii (length s) /\ keeps t t' /\ node t' q b /\
    a_level b = (a_level a + length s)%nat /\ a_dir b = last (map rb0 s) (a_dir a) /\
    (s = [] -> q = p /\ t' = t) /\
    (forall k, level_le k t -> (a_level a + length s <= k)%nat -> level_le k t').
Proof.
  induction s as [|q0 s IH]; intros t p a ii So Np Hl Fs Fr Rp.
  - exists t, p, a. simpl. rewrite app_nil_r. split; [reflexivity|]. split; [exact So|]. split; [reflexivity|].
    split; [apply keeps_refl|]. split; [exact Np|]. split; [lia|]. split; [reflexivity|]. split; auto.
  - simpl in Rp. destruct Rp as [R0 Rp]. inversion Fs as [|? ? [L0 U0] Fs']; subst.
    destruct (add_node_sound (length (rb0 q0)) t r (NPair id (NInt (Z.of_nat ii))) (rb0 q0) p a)
      as (t1 & E1 & S1 & I1 & K1 & N1 & _ & V1); auto.
    { simpl in Hl. lia. }
    { apply norm_neq_0_dot. unfold unitv in U0. lra. }
    { apply Fr. simpl. lia. }
    { rewrite direction_unitv; auto. }
    rewrite direction_unitv in N1 by auto.
    destruct (IH t1 (NPair id (NInt (Z.of_nat ii))) _ (S ii) S1 N1) as (t2 & q & b & E2 & S2 & I2 & K2 & N2 & L2 & D2 & _ & V2); auto.
    { simpl in *. lia. }
    { intros i Hi. rewrite I1. rewrite in_app_iff. intros [H|[H|[]]].
      - apply (Fr i); auto. simpl. lia.
      - injection H as H. lia. }
    exists t2, q, b. cbn [add_inter]. rewrite E1. split; [exact E2|]. split; auto.
    split.
    { rewrite I2, I1, <- app_assoc. simpl. auto. }
    split; [eapply keeps_trans; eauto|]. split; auto. split; [simpl in *; lia|].
    split.
    { rewrite D2. cbn [a_dir map]. destruct (map rb0 s) as [|w l] eqn:E; auto. exact (last_any w l _ _). }
    split; [discriminate|]. intros k Lk Hk. simpl in Hk. apply V2; [|simpl; lia]. apply V1; auto. lia.
Qed.

Lemma related_path_app u l v : related_path u (l ++ [v]) ->
  related_path u l /\ related (last l u) v.
Proof.
  revert u. induction l as [|w l IH]; intros u H; simpl in *.
  - tauto.
  - destruct H as [H1 H2]. destruct (IH w H2) as [A B]. split; auto.
    destruct l as [|w' l']; auto.
    rewrite (last_any w' l' u w). auto.
Qed.

Lemma add_sequence_sound n t r id s p a e : sound n t r -> node t p a ->
  passes n s (a_dir a) e -> (a_level a + length s < 100)%nat ->
  ~ In id (ids t) -> (forall i, (1 <= i < length s)%nat -> ~ In (NPair id (NInt (Z.of_nat i))) (ids t)) ->
  related_path (a_dir a) (stops s e) ->
  exists t' l, add_sequence t id s p true = (t', Ok tt) /\ sound n t' r /\
    ids t' = ids t ++ inter_ids id 1 (length s - 1) ++ [id] /\ keeps t t' /\
    node t' id (mkAttrs l e) /\ l = (a_level a + length s)%nat /\
    (length s = 1%nat -> forall u v, edge t' u v <-> edge t u v \/ (u = p /\ v = id)) /\
    (forall k, level_le k t -> (a_level a + length s <= k)%nat -> level_le k t').
Proof.
  intros So Np [(r0 & s' & -> & E0) Fs En [Le Ue]] Hl Fi Fr Rp. unfold stops in Rp. cbn [tl] in Rp.
  inversion Fs as [|? ? _ Fs']; subst.
  unfold add_sequence, seq_start.
  rewrite (proj2 (get_attrs_node _ t r (so_rooted _ _ _ So) p a) Np).
  rewrite E0, allclose_refl.
  destruct (related_path_app _ _ _ Rp) as [Rp1 Rp2].
  destruct (add_inter_sound (length e) r id s' t p a 1 So Np) as (t1 & q & b & E1 & S1 & I1 & K1 & N1 & L1 & D1 & X1 & V1); auto.
  { simpl in Hl. lia. }
  rewrite E1, En.
  assert (De : direction e = e) by (apply direction_unitv; auto).
  destruct (add_node_sound (length e) t1 r id e q b) as (t2 & E2 & S2 & I2 & K2 & N2 & ED & V2); auto.
  { simpl in Hl. lia. }
  { apply norm_neq_0_dot. unfold unitv in Ue. lra. }
  { rewrite I1, in_app_iff. intros [H|H]; [contradiction|]. unfold inter_ids in H.
    apply in_map_iff in H. destruct H as (i & H & _). clear - H.
    assert (G : forall x k, NPair x k <> x).
    { induction x; intros k E; try discriminate. injection E as E1 E2. subst. eapply IHx1; eauto. }
    eapply G; eauto. }
  { rewrite De, D1. auto. }
  exists t2, (a_level a + length (r0 :: s'))%nat. split; auto. split; auto. split.
  { rewrite I2, I1, <- app_assoc. simpl. rewrite Nat.sub_0_r. auto. }
  split; [eapply keeps_trans; eauto|]. split.
  { rewrite De in N2. replace (a_level a + length (r0 :: s'))%nat with (S (a_level b)); auto. simpl. lia. }
  split; auto. split.
  - intros H. simpl in H. assert (s' = []) by (destruct s'; [auto|simpl in H; lia]).
    destruct (X1 H0) as [-> ->]. auto.
  - intros k Lk Hk. simpl in Hk. apply V2; [apply V1; auto; lia|lia].
Qed.

Lemma from_sequence_sound n rid id s b e : (2 <= n)%nat -> passes n s b e -> (length s < 100)%nat ->
  id <> rid -> (forall k, NPair id k <> rid) -> related_path b (stops s e) ->
  exists t l, from_sequence rid id s = Ok t /\ sound n t rid /\
    ids t = rid :: inter_ids id 1 (length s - 1) ++ [id] /\
    node t rid (mkAttrs 0 b) /\ node t id (mkAttrs l e) /\ l = length s /\
    (length s = 1%nat -> forall u v, edge t u v <-> (u = rid /\ v = id)) /\ level_le (length s) t.
Proof.
  intros Hn P Hl Hid Hids Rp. destruct P as [(r0 & s' & -> & E0) Fs En Ue].
  pose proof Fs as Fs0. inversion Fs as [|? ? [L0 U0] _]; subst.
  unfold from_sequence.
  assert (Nz : norm (rb0 r0) <> 0) by (apply norm_neq_0_dot; unfold unitv in U0; lra).
  assert (E : exists t0, set_root empty_tree rid (rb0 r0) = Ok t0).
  { unfold set_root. destruct (from_directions_spec (length (rb0 r0)) (rb0 r0) (rb0 r0)) as (q & Eq & _); auto.
    - rewrite dirof_of_unit by auto. unfold unitv in U0. lra.
    - rewrite Eq. eexists; reflexivity. }
  destruct E as (t0 & E). rewrite E. cbn [bind].
  destruct (set_root_rooted (length (rb0 r0)) rid (rb0 r0) t0 Hn eq_refl E) as (W0 & N0 & ED0).
  change (vdiv (rb0 r0) (norm (rb0 r0))) with (dirof (rb0 r0)) in N0. rewrite dirof_of_unit in N0 by auto.
  assert (S0 : sound (length (rb0 r0)) t0 rid).
  { constructor; auto; intros p x a b Ee; unfold edge in Ee; rewrite ED0 in Ee; contradiction. }
  assert (I0 : ids t0 = [rid]) by (unfold ids; rewrite N0; auto).
  assert (Nr : node t0 rid (mkAttrs 0 (rb0 r0))) by (unfold node; rewrite N0; left; auto).
  destruct (add_sequence_sound (length (rb0 r0)) t0 rid id (r0 :: s') rid _ e S0 Nr) as (t & l & E1 & S1 & I1 & K1 & N1 & L1 & ED & V); auto.
  { constructor; eauto. }
  { rewrite I0. intros [H|[]]. congruence. }
  { intros i _. rewrite I0. intros [H|[]]. apply (Hids (NInt (Z.of_nat i))). auto. }
  exists t, l. rewrite E1. split; auto. split; auto. split; [rewrite I1, I0; auto|].
  split; auto. split; auto. split; auto.
  split.
  - intros H u v. rewrite (ED H). unfold edge. rewrite ED0. simpl. tauto.
  - apply V; [|auto]. intros x a Hx. unfold node in Hx. rewrite N0 in Hx. destruct Hx as [Hx|[]].
    injection Hx as _ <-. simpl. lia.
Qed.

(** ** The reduction of a sound tree *)
Lemma level_step_length orth0 t sl g k g' : level_step orth0 t sl g k = Ok g' ->
  (length (g_seq g') <= S (length (g_seq g)))%nat.
Proof.
  unfold level_step. intros H.
  destruct (mapM _ sl) as [lev|]; [|discriminate]. cbn [bind] in H.
  destruct (map fst _) as [|x0 nl]; [injection H as <-; lia|].
  destruct (get_part _ _) as [p0|]; [|discriminate]. cbn [bind] in H.
  destruct (mapM _ _) as [parts|]; [|discriminate]. cbn [bind] in H.
  destruct (foldM _ _ _) as [all|]; [|discriminate]. cbn [bind] in H.
  destruct all as [|y all]; [injection H as <-; simpl; lia|].
  match type of H with (if ?c then _ else _) = _ => destruct c end.
  - injection H as <-. simpl. lia.
  - destruct (mapM _ (y :: all)) as [all'|]; [|discriminate]. cbn [bind] in H.
    injection H as <-. simpl. unfold append_from_base_and_angle. rewrite app_length. simpl. lia.
Qed.
Lemma level_steps_length orth0 t sl l : forall g g', foldM (level_step orth0 t sl) g l = Ok g' ->
  (length (g_seq g') <= length (g_seq g) + length l)%nat.
Proof.
  induction l as [|k l IH]; intros g g' H; simpl in H.
  - injection H as <-. lia.
  - destruct (level_step orth0 t sl g k) as [g1|] eqn:E; [|discriminate]. cbn [bind] in H.
    apply level_step_length in E. apply IH in H. simpl. lia.
Qed.
Lemma max_level_bound l k : (forall x, In x l -> (x <= k)%nat) -> (max_level l <= k)%nat.
Proof.
  unfold max_level. induction l as [|x l IH]; simpl; intros H; [lia|].
  apply Nat.max_lub; auto.
Qed.
Lemma reduce_length orth0 n t r st sl l ws s k : rooted_tree n t r ->
  reduce_weighted_to_sequence orth0 t st sl l ws = Ok s ->
  (forall x a, node t x a -> (a_level a <= k)%nat) -> (length s <= k + 2)%nat.
Proof.
  intros W H B. unfold reduce_weighted_to_sequence in H.
  destruct (negb _); [discriminate|]. destruct (all_levels t); [|discriminate]. cbn [bind] in H.
  destruct (update_partial_rotations _ _ _ _) as [st'|]; [|discriminate]. cbn [bind] in H.
  unfold evaluate_graph_summing in H.
  destruct (mapM _ sl) as [lev|] eqn:El; [|discriminate]. cbn [bind] in H.
  destruct (foldM _ _ _) as [g|] eqn:Eg; [|discriminate]. cbn [bind] in H.
  destruct (g_last g); [|discriminate]. injection H as <-.
  unfold append_from_base_and_angle. rewrite app_length. simpl.
  apply level_steps_length in Eg. rewrite seq_length in Eg. simpl in Eg.
  assert (max_level lev <= k)%nat; [|lia].
  apply max_level_bound. clear - El W B. revert lev El. induction sl as [|x sl IH]; simpl; intros lev El.
  - injection El as <-. intros x [].
  - destruct (get_attrs t x) as [a|] eqn:Ga; [|discriminate]. cbn [bind] in El.
    destruct (mapM _ sl) as [lev'|]; [|discriminate]. cbn [bind] in El. injection El as <-.
    intros y [<-|Hy]; [|eapply IH; eauto]. apply (get_attrs_node n t r W) in Ga. eauto.
Qed.

(** The reduction starts at the direction of the root and ends in the mean direction. *)
Lemma reduce_passes n t r a sl orth0 st l ws own : sound n t r -> (2 <= n)%nat -> node t r a ->
  level_sorted t sl -> assigned t l ws own -> (forall v, length (orth0 v) = length v) ->
  (forall x, 0 <= own x) -> 0 < rsum ws <= 1 ->
  exists s e, reduce_weighted_to_sequence orth0 t st sl l ws = Ok s /\
    get_weighted_mean orth0 t st sl l ws = Ok e /\ passes n s (a_dir a) e.
Proof.
  intros [W NO DI] Hn Ha SL A OL OW [T0 T1].
  destruct (C14_reduction_geometry n t r a sl orth0 st l ws own) as (first & rest & mean & E & E0 & _ & M & U & L); auto.
  exists (first :: rest), mean. split; auto. split; auto. constructor; eauto.
  - destruct (assigned_len _ _ _ _ A) as [HL HI].
    pose proof (total_root n t r l ws own W Hn NO A (ex_intro _ sl SL)) as TR.
    destruct (reduce_geometry n t r W Hn (no_opposite_dirn n t r W NO) sl SL own) with (orth0 := orth0)
      (st0 := st) (l := l) (ws := ws) as (s & new & E' & Er & Fs & Ch & UE & LE & On & Last); auto.
    { rewrite TR; auto. }
    { intros p x Ep _. apply (distinguishable_dirn n t r W DI); auto. }
    { apply assigned_own with t; auto. }
    { rewrite TR. lra. }
    rewrite E in Er. injection Er as Er. rewrite Er.
    assert (F : Forall (fun q => length (rb0 q) = n /\ unitv (rb0 q)) s).
    { eapply Forall_impl; [|exact Fs]. intros q (Q1 & Q2 & Q3 & Q4 & Q5). auto. }
    apply Forall_app. split; auto. constructor; auto.
    destruct Last as [[-> _]|(_ & (s' & Es) & _)]; auto.
    rewrite Es in F. apply Forall_app in F. destruct F as [_ F]. inversion F; auto.
  - unfold get_weighted_mean in M. rewrite E in M. exact M.
Qed.
