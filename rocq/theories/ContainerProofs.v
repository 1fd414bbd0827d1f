(** Lemmas on containers. *)
Require Import Reals List Bool Lra Lia ZArith.
From Verif Require Import Base Vec RotModel WeightModel ContainerModel.
Import ListNotations.
Open Scope R_scope.

Lemma filter_unique {A} (l : list (A * Z)) p x : NoDup (map snd l) -> In (p, x) l ->
  filter (fun e => Z.eqb x (snd e)) l = [(p, x)].
Proof.
  induction l as [|(q, y) l IH]; intros ND I; simpl in *; [contradiction|].
  apply NoDup_cons_iff in ND. destruct ND as [Ny ND]. destruct I as [E|I].
  - injection E as -> ->. rewrite Z.eqb_refl. f_equal.
    assert (K : forall l, ~ In x (map snd l) -> filter (fun e : A * Z => Z.eqb x (snd e)) l = []).
    { induction l0 as [|(r, z) l0 IH0]; intros N; simpl in *; auto. destruct (Z.eqb_spec x z) as [->|]; [exfalso; auto|]. auto. }
    auto.
  - destruct (Z.eqb_spec x y) as [->|]; [exfalso; apply Ny; apply in_map_iff; exists (p, y); auto|]. auto.
Qed.
Lemma update_length {A} (l : list A) k a : length (update l k a) = length l.
Proof. revert k. induction l; intros [|k]; simpl; auto. Qed.
Lemma nth_update {A} (l : list A) k a d i : (k < length l)%nat ->
  nth i (update l k a) d = if Nat.eqb i k then a else nth i l d.
Proof.
  revert k i. induction l as [|x l IH]; intros k i H; simpl in H; [lia|].
  destruct k, i; simpl; auto. apply IH. lia.
Qed.
Lemma nth_error_update {A} (l : list A) k a i : (k < length l)%nat ->
  nth_error (update l k a) i = if Nat.eqb i k then Some a else nth_error l i.
Proof.
  revert k i. induction l as [|x l IH]; intros k i H; simpl in H; [lia|].
  destruct k, i; simpl; auto. apply IH. lia.
Qed.
Lemma update_same {A} (l : list A) k a : nth_error l k = Some a -> update l k a = l.
Proof.
  revert k. induction l as [|x l IH]; intros [|k] E; simpl in *; try discriminate; [congruence|]. f_equal. auto.
Qed.
Lemma min_of_spec l : l <> [] -> exists r, min_of l = Ok r /\ In r l /\ forall x, In x l -> r <= x.
Proof.
  destruct l as [|a l]; [easy|]. intros _. exists (rmin_list (a :: l)). split; auto. simpl.
  assert (F : forall l a, (fold_left Rmin l a = a \/ In (fold_left Rmin l a) l) /\ fold_left Rmin l a <= a /\
              forall x, In x l -> fold_left Rmin l a <= x).
  { clear. induction l as [|y l IH]; intros a; simpl; [split; [auto|split; [lra|contradiction]]|].
    destruct (IH (Rmin a y)) as (I & L & A). pose proof (Rmin_l a y). pose proof (Rmin_r a y). split; [|split].
    - destruct I as [I|I]; auto. rewrite I. unfold Rmin. destruct (Rle_dec a y); auto.
    - lra.
    - intros x [<-|J]; [lra|auto]. }
  destruct (F l a) as (I & L & A). split.
  - destruct I as [->|I]; auto.
  - intros x [<-|J]; auto.
Qed.

(** Attributes of graphs. *)
Lemma set_attr_fst_new l x cs : ~ In x (map fst l) -> set_attr l x cs = l ++ [(x, cs)].
Proof.
  induction l as [|(y, c) l IH]; intros N; simpl in *; auto.
  destruct (Z.eqb_spec x y) as [->|]; [exfalso; auto|]. f_equal. auto.
Qed.
Lemma set_attr_fst_old l x cs : In x (map fst l) -> map fst (set_attr l x cs) = map fst l.
Proof.
  induction l as [|(y, c) l IH]; intros I; simpl in *; [contradiction|].
  destruct (Z.eqb_spec x y) as [->|]; simpl; auto. f_equal. apply IH. destruct I; [congruence|auto].
Qed.
Lemma set_attr_in l x cs y c : NoDup (map fst l) -> In (y, c) (set_attr l x cs) ->
  (y = x /\ c = cs) \/ (y <> x /\ In (y, c) l).
Proof.
  induction l as [|(z, d) l IH]; intros ND I; simpl in *.
  - destruct I as [E|[]]. injection E as -> ->. auto.
  - apply NoDup_cons_iff in ND. destruct ND as [Nz ND]. destruct (Z.eqb_spec x z) as [->|Ne].
    + destruct I as [E|I]; [injection E as -> ->; auto|]. right. split; auto. intros ->. apply Nz. apply in_map_iff. exists (z, c). auto.
    + destruct I as [E|I]; [injection E as -> ->; auto|]. destruct (IH ND I) as [H|[A B]]; auto.
Qed.
Lemma g_attr_in g x cs : NoDup (map fst (g_nodes g)) -> (g_attr g x = Some cs <-> In (x, cs) (g_nodes g)).
Proof.
  unfold g_attr. induction (g_nodes g) as [|(y, c) l IH]; intros ND; simpl in *; [split; [discriminate|contradiction]|].
  apply NoDup_cons_iff in ND. destruct ND as [Ny ND]. destruct (Z.eqb_spec x y) as [->|Ne].
  - simpl. split; intros H.
    + injection H as ->. auto.
    + destruct H as [E|I]; [congruence|]. exfalso. apply Ny. apply in_map_iff. exists (y, cs). auto.
  - rewrite IH by auto. split; intros H; auto. destruct H as [E|I]; auto. congruence.
Qed.
Lemma g_attr_none g x : g_attr g x = None <-> ~ In x (map fst (g_nodes g)).
Proof.
  unfold g_attr. induction (g_nodes g) as [|(y, c) l IH]; simpl; [intuition|].
  destruct (Z.eqb_spec x y) as [->|Ne]; simpl.
  - split; [discriminate|intros N; exfalso; auto].
  - rewrite IH. intuition.
Qed.
Lemma in_zseq k s n : In k (map Z.of_nat (seq s n)) <-> (Z.of_nat s <= k < Z.of_nat (s + n))%Z.
Proof.
  rewrite in_map_iff. split.
  - intros (i & <- & I). apply in_seq in I. lia.
  - intros H. exists (Z.to_nat k). split; [lia|]. apply in_seq. lia.
Qed.
Lemma nodup_zseq s n : NoDup (map Z.of_nat (seq s n)).
Proof.
  apply FinFun.Injective_map_NoDup; [intros a b; lia|apply seq_NoDup].
Qed.

Section Multi.
Context {G : Type}.
Variable act : G -> vec -> vec.
Variable mul : G -> G -> G.
Variable to_relative : pose G -> vec -> vec.
Variable inter : cobs (G := G) -> cobs (G := G) -> option vec.
Notation multi := (multi (G := G)).
Notation add_component := (add_component act mul to_relative inter).

(** Every component but the root has one parent, of a smaller index. *)
Record component_tree (m : multi) : Prop := {
  ct_some : (0 < n_components m)%nat;
  ct_locals : length (m_locals m) = n_components m;
  ct_root : m_rootid m = 0%Z;
  ct_nodes : map fst (g_nodes (m_graph m)) = map Z.of_nat (seq 0 (n_components m));
  ct_edges : map snd (g_edges (m_graph m)) = map Z.of_nat (seq 1 (n_components m - 1));
  ct_smaller : forall p x, In (p, x) (g_edges (m_graph m)) -> (0 <= p < x)%Z;
  ct_children : forall p cs, In (p, cs) (g_nodes (m_graph m)) ->
      cs = map snd (filter (fun e => Z.eqb p (fst e)) (g_edges (m_graph m)))
}.
Lemma tree_root p o : component_tree (set_root act mul (new_multi p) o).
Proof.
  constructor; simpl; auto; try lia; try contradiction.
  intros q cs [E|[]]. injection E as <- <-. auto.
Qed.
Lemma tree_nodup m : component_tree m -> NoDup (map fst (g_nodes (m_graph m))).
Proof. intros T. rewrite (ct_nodes _ T). apply nodup_zseq. Qed.
Lemma tree_add m o parent ref m' id : component_tree m -> add_component m o parent ref = (m', Ok id) ->
  parent <> id -> component_tree m' /\ id = Z.of_nat (n_components m) /\ n_components m' = S (n_components m) /\
    (0 <= parent < id)%Z /\ g_edges (m_graph m') = g_edges (m_graph m) ++ [(parent, id)] /\
    exists r, m_locals m' = m_locals m ++ [o_pose o] /\ m_pose m' = m_pose m /\ m_rate m' = m_rate m /\
      m_list m' = m_list m ++ [mkCObs (pose_from_relative act mul (m_pose m) (o_pose o)) (o_axes o) r].
Proof.
  intros T E Np. pose proof (tree_nodup m T) as ND. unfold ContainerModel.add_component in E.
  match type of E with ((match ?r with _ => _ end) = _) => destruct r as [rr|]; [|discriminate] end.
  cbn [m_graph m_list m_locals m_pose m_rootid m_rate] in E.
  set (n := n_components m) in *. change (length (m_list m)) with n in E.
  set (new := Z.of_nat n) in *.
  assert (New : ~ In new (map fst (g_nodes (m_graph m)))).
  { rewrite (ct_nodes _ T). fold n. rewrite in_zseq. unfold new. lia. }
  assert (E1 : g_nodes (g_add_node (m_graph m) new) = g_nodes (m_graph m) ++ [(new, [])]).
  { unfold g_add_node. simpl. apply set_attr_fst_new. auto. }
  assert (ND1 : NoDup (map fst (g_nodes (g_add_node (m_graph m) new)))).
  { rewrite E1, map_app, (ct_nodes _ T). fold n. change (map fst [(new, @nil Z)]) with (map Z.of_nat [n]).
    rewrite <- map_app. replace (seq 0 n ++ [n]) with (seq 0 (S n)) by (rewrite seq_S; auto). apply nodup_zseq. }
  unfold g_append_child in E.
  destruct (g_attr (g_add_node (m_graph m) new) parent) as [cs|] eqn:Ea; [|discriminate].
  injection E as <- <-.
  apply (g_attr_in _ _ _ ND1) in Ea. rewrite E1 in Ea. apply in_app_iff in Ea.
  destruct Ea as [Ea|[Ea|[]]]; [|injection Ea as Ea _; exfalso; apply Np; auto].
  assert (Ip : In parent (map fst (g_nodes (m_graph m)))) by (apply in_map_iff; exists (parent, cs); auto).
  assert (Hp : (0 <= parent < new)%Z) by (rewrite (ct_nodes _ T), in_zseq in Ip; fold n in Ip; unfold new; lia).
  assert (NE : g_has_edge {| g_nodes := set_attr (g_nodes (g_add_node (m_graph m) new)) parent (cs ++ [new]);
                             g_edges := g_edges (g_add_node (m_graph m) new) |} parent new = false).
  { unfold g_has_edge. simpl. destruct (existsb _ (g_edges (m_graph m))) eqn:Q; auto. exfalso.
    apply existsb_exists in Q. destruct Q as ((q, y) & I & Q). simpl in Q. apply andb_true_iff in Q. destruct Q as [_ Q].
    apply Z.eqb_eq in Q. subst y.
    assert (J : In new (map snd (g_edges (m_graph m)))) by (apply in_map_iff; exists (q, new); auto).
    rewrite (ct_edges _ T), in_zseq in J. fold n in J. pose proof (ct_some _ T). fold n in H. unfold new in J. lia. }
  assert (GE : g_add_edge {| g_nodes := set_attr (g_nodes (g_add_node (m_graph m) new)) parent (cs ++ [new]);
                             g_edges := g_edges (g_add_node (m_graph m) new) |} parent new =
               mkG (set_attr (g_nodes (g_add_node (m_graph m) new)) parent (cs ++ [new]))
                   (g_edges (m_graph m) ++ [(parent, new)])) by (unfold g_add_edge; rewrite NE; reflexivity).
  match goal with |- context [g_add_edge ?a ?b ?c] => change (g_add_edge a b c) with
    (g_add_edge {| g_nodes := set_attr (g_nodes (g_add_node (m_graph m) new)) parent (cs ++ [new]);
                             g_edges := g_edges (g_add_node (m_graph m) new) |} parent new) end.
  rewrite GE. clear GE. simpl.
  pose proof (ct_some _ T) as Pos. fold n in Pos.
  assert (Ed : map snd (g_edges (m_graph m) ++ [(parent, new)]) = map Z.of_nat (seq 1 (S n - 1))).
  { rewrite map_app, (ct_edges _ T). fold n. replace (S n - 1)%nat with (S (n - 1)) by lia. rewrite seq_S, map_app. simpl.
    do 3 f_equal. unfold new. lia. }
  split; [|split; [auto|split; [unfold n_components; simpl; rewrite app_length; simpl; fold (n_components m); lia|
           split; [auto|split; [auto|]]]]].
  - constructor; unfold n_components; simpl; rewrite ?app_length; simpl; fold (n_components m); fold n;
      replace (n + 1)%nat with (S n) by lia.
    + lia.
    + rewrite (ct_locals _ T). fold n. lia.
    + apply (ct_root _ T).
    + rewrite set_attr_fst_old.
      * change (set_attr (g_nodes (m_graph m)) new []) with (g_nodes (g_add_node (m_graph m) new)).
        rewrite E1, map_app, (ct_nodes _ T). fold n. rewrite seq_S, map_app. auto.
      * change (set_attr (g_nodes (m_graph m)) new []) with (g_nodes (g_add_node (m_graph m) new)).
        rewrite E1, map_app, in_app_iff. auto.
    + auto.
    + intros p x I. apply in_app_iff in I. destruct I as [I|[I|[]]]; [apply (ct_smaller _ T); auto|].
      injection I as <- <-. auto.
    + intros p c I. change (set_attr (g_nodes (m_graph m)) new []) with (g_nodes (g_add_node (m_graph m) new)) in I.
      apply set_attr_in in I; auto. rewrite filter_app, map_app. simpl.
      destruct I as [[-> ->]|[Npp I]].
      * rewrite Z.eqb_refl. simpl. f_equal. apply (ct_children _ T). auto.
      * destruct (Z.eqb_spec p parent); [contradiction|]. simpl. rewrite app_nil_r.
        rewrite E1 in I. apply in_app_iff in I. destruct I as [I|[I|[]]]; [apply (ct_children _ T); auto|].
        injection I as <- <-. symmetry.
        assert (K : filter (fun e : Z * Z => Z.eqb new (fst e)) (g_edges (m_graph m)) = []).
        { assert (H : forall e, In e (g_edges (m_graph m)) -> (fst e < new)%Z).
          { intros (q, y) J. simpl. pose proof (ct_smaller _ T q y J).
            assert (J' : In y (map snd (g_edges (m_graph m)))) by (apply in_map_iff; exists (q, y); auto).
            rewrite (ct_edges _ T), in_zseq in J'. fold n in J'. unfold new. lia. }
          clear - H. induction (g_edges (m_graph m)) as [|e l IH]; simpl; auto.
          pose proof (H e (or_introl eq_refl)). destruct (Z.eqb_spec new (fst e)); [lia|]. apply IH. intros; apply H; right; auto. }
        rewrite K. auto.
  - exists rr. auto.
Qed.

Lemma tree_parent m : component_tree m -> forall p x, In (p, x) (g_edges (m_graph m)) ->
  get_parent_idx m x = Ok (Some p).
Proof.
  intros T p x I. pose proof (ct_smaller _ T p x I) as L. unfold get_parent_idx. rewrite (ct_root _ T).
  destruct (Z.eqb_spec x 0); [lia|]. unfold predecessors.
  assert (Ix : In x (map snd (g_edges (m_graph m)))) by (apply in_map_iff; exists (p, x); auto).
  destruct (g_attr (m_graph m) x) eqn:Ea.
  - simpl. rewrite (filter_unique _ p x); auto. rewrite (ct_edges _ T). apply nodup_zseq.
  - exfalso. apply g_attr_none in Ea. apply Ea. rewrite (ct_edges _ T), in_zseq in Ix.
    rewrite (ct_nodes _ T), in_zseq. pose proof (ct_some _ T). lia.
Qed.
Lemma tree_parent_inv m : component_tree m -> forall x, (0 < x < Z.of_nat (n_components m))%Z ->
  exists p, In (p, x) (g_edges (m_graph m)) /\ get_parent_idx m x = Ok (Some p) /\ (0 <= p < x)%Z.
Proof.
  intros T x L. assert (Ix : In x (map snd (g_edges (m_graph m)))).
  { rewrite (ct_edges _ T), in_zseq. lia. }
  apply in_map_iff in Ix. destruct Ix as ((p, y) & <- & I). exists p. split; auto. split; [apply tree_parent; auto|].
  apply (ct_smaller _ T); auto.
Qed.

(** Component poses are the local poses moved by the pose of the obstacle. *)
Definition follows (m : multi) : Prop :=
  Forall2 (fun l o => o_pose o = pose_from_relative act mul (m_pose m) l) (m_locals m) (m_list m).
Lemma follows_zip f p ls os : (forall l o, In l ls -> o_pose (f l o) = pose_from_relative act mul p l) ->
  length ls = length os -> Forall2 (fun l o => o_pose o = pose_from_relative act mul p l) ls (zip_with f ls os).
Proof.
  intros F. revert os. induction ls as [|l ls IH]; intros [|o os] E; simpl in *; try discriminate; constructor; auto.
Qed.
Lemma scale_locals_length f ls os : length (@scale_locals G f ls os) = length ls.
Proof. revert os. induction ls; intros [|o os]; simpl; auto. Qed.
Lemma zip_with_length f ls os : length (@zip_with G f ls os) = length os.
Proof. revert os. induction ls; intros [|o os]; simpl; auto. Qed.
Lemma scale_locals_map f ls os : length ls = length os ->
  @scale_locals G f ls os = map (fun p => mkPose (vscale f (p_pos p)) (p_rot p)) ls.
Proof. revert os. induction ls as [|l ls IH]; intros [|o os] E; simpl in *; try discriminate; auto. f_equal. auto. Qed.
End Multi.

(** ** Levels of the boundary container *)
Definition parent_of (c : mboundary) (i : Z) : Z := nth (Z.to_nat i) (mb_parent c) 0%Z.
Definition children_of (c : mboundary) (i : Z) : list Z := nth (Z.to_nat i) (mb_children c) [].
Record boundary_forest (c : mboundary) : Prop := {
  bf_parents : length (mb_parent c) = length (mb_gammas c);
  bf_lists : length (mb_children c) = length (mb_gammas c);
  bf_smaller : forall i, (0 <= i < Z.of_nat (length (mb_gammas c)))%Z ->
      (parent_of c i = -1)%Z \/ (0 <= parent_of c i < i)%Z;
  bf_children : forall p i, (0 <= p < Z.of_nat (length (mb_gammas c)))%Z ->
      (In i (children_of c p) <-> (0 <= i < Z.of_nat (length (mb_gammas c)))%Z /\ parent_of c i = p)
}.
Inductive has_level (c : mboundary) : Z -> nat -> Prop :=
| hl_root i : (0 <= i < Z.of_nat (length (mb_gammas c)))%Z -> (parent_of c i = -1)%Z -> has_level c i 0
| hl_child i k : (0 <= i < Z.of_nat (length (mb_gammas c)))%Z -> (0 <= parent_of c i)%Z ->
    has_level c (parent_of c i) k -> has_level c i (S k).
Lemma has_level_fun c i k : has_level c i k -> forall k', has_level c i k' -> k = k'.
Proof.
  induction 1; intros k' H'; inversion H'; subst; auto; try lia.
Qed.
Lemma has_level_total c : boundary_forest c -> forall i, (0 <= i < Z.of_nat (length (mb_gammas c)))%Z ->
  exists k, has_level c i k /\ (Z.of_nat k <= i)%Z.
Proof.
  intros F i Hi. remember (Z.to_nat i) as n eqn:En. revert i Hi En.
  induction n as [n IH] using lt_wf_ind. intros i Hi En.
  destruct (bf_smaller _ F i Hi) as [E|L].
  - exists O. split; [constructor; auto|lia].
  - destruct (IH (Z.to_nat (parent_of c i)) ltac:(lia) (parent_of c i) ltac:(lia) eq_refl) as (k & H & K).
    exists (S k). split; [constructor; auto; lia|lia].
Qed.
Lemma has_level_range c i k : has_level c i k -> (0 <= i < Z.of_nat (length (mb_gammas c)))%Z.
Proof. destruct 1; auto. Qed.

Lemma level_round_spec c level ps : forall levels,
  (forall p, In p ps -> (0 <= p < Z.of_nat (length levels))%Z) ->
  let r := level_round c level ps levels in
  length (fst r) = length levels /\
  (forall i, (0 <= i)%Z -> nth (Z.to_nat i) (fst r) (-1)%Z =
             if existsb (Z.eqb i) ps then level else nth (Z.to_nat i) levels (-1)%Z) /\
  (forall x, In x (snd r) <-> exists p, In p ps /\ In x (children_of c p)).
Proof.
  induction ps as [|p ps IH]; intros levels H; simpl.
  - split; auto. split; auto. intros x. split; [contradiction|intros (p & [] & _)].
  - specialize (IH (update levels (Z.to_nat p) level)). rewrite update_length in IH.
    specialize (IH (fun q I => H q (or_intror I))). simpl in IH.
    destruct (level_round c level ps (update levels (Z.to_nat p) level)) as (lv, cs). simpl in *.
    destruct IH as (A & B & C). pose proof (H p (or_introl eq_refl)) as Hp.
    split; auto. split.
    + intros i Hi. rewrite B by auto. rewrite nth_update by lia.
      destruct (Z.eqb_spec i p) as [->|Ne]; simpl.
      * rewrite Nat.eqb_refl. destruct (existsb _ ps); auto.
      * destruct (existsb _ ps); auto. destruct (Nat.eqb_spec (Z.to_nat i) (Z.to_nat p)); [lia|auto].
    + intros x. rewrite in_app_iff, C. unfold children_of at 1. split.
      * intros [I|(q & I & J)]; eauto.
      * intros (q & [->|I] & J); eauto.
Qed.

Lemma level_loop_spec c : boundary_forest c -> forall fuel k ps levels,
  (forall i, In i ps <-> has_level c i k) -> length levels = length (mb_gammas c) ->
  (forall i j, has_level c i j -> (j < k)%nat -> nth (Z.to_nat i) levels (-1)%Z = Z.of_nat j) ->
  (length (mb_gammas c) <= fuel + k)%nat ->
  exists r, level_loop c fuel (Z.of_nat k) ps levels = Some r /\ length r = length (mb_gammas c) /\
    forall i j, has_level c i j -> nth (Z.to_nat i) r (-1)%Z = Z.of_nat j.
Proof.
  intros F. induction fuel as [|f IH]; intros k ps levels Hps Len Hl Fu.
  - destruct ps as [|p ps].
    + exists levels. split; [reflexivity|]. split; auto. intros i j Hij. apply Hl; auto.
      destruct (has_level_total c F i (has_level_range _ _ _ Hij)) as (j' & Hj & B).
      rewrite (has_level_fun _ _ _ Hij _ Hj). pose proof (has_level_range _ _ _ Hij). lia.
    + exfalso. assert (Hp : has_level c p k) by (apply Hps; left; auto).
      destruct (has_level_total c F p (has_level_range _ _ _ Hp)) as (j' & Hj & B).
      rewrite <- (has_level_fun _ _ _ Hp _ Hj) in B. pose proof (has_level_range _ _ _ Hp). lia.
  - destruct ps as [|p0 ps0] eqn:Eps.
    + exists levels. split; [reflexivity|]. split; auto. intros i j Hij. apply Hl; auto.
      destruct (le_lt_dec k j) as [L|L]; auto. exfalso.
      assert (K : forall i j, has_level c i j -> (k <= j)%nat -> exists i', has_level c i' k).
      { clear - F. induction 1; intros L.
        - exists i. replace k with O by lia. constructor; auto.
        - destruct (Nat.eq_dec k (S k0)) as [->|]; [exists i; constructor; auto|]. apply IHhas_level. lia. }
      destruct (K i j Hij L) as (i' & Hi'). apply Hps in Hi'. destruct Hi'.
    + rewrite <- Eps in *. assert (R : forall p, In p ps -> (0 <= p < Z.of_nat (length levels))%Z).
      { intros p I. rewrite Len. apply (has_level_range c p k). apply Hps. auto. }
      pose proof (level_round_spec c (Z.of_nat k) ps levels R) as S.
      replace (level_loop c (Datatypes.S f) (Z.of_nat k) ps levels) with
        (let '(lv, cs) := level_round c (Z.of_nat k) ps levels in level_loop c f (Z.of_nat k + 1) cs lv)
        by (rewrite Eps; reflexivity).
      destruct (level_round c (Z.of_nat k) ps levels) as (lv, cs). simpl in S. destruct S as (A & B & C).
      replace (Z.of_nat k + 1)%Z with (Z.of_nat (Datatypes.S k)) by lia.
      apply IH; try lia.
      * intros i. rewrite C. split.
        -- intros (p & Ip & Ii). apply Hps in Ip. pose proof (has_level_range _ _ _ Ip) as Rp.
           apply (bf_children _ F p i Rp) in Ii. destruct Ii as (Ri & <-). constructor; auto; lia.
        -- intros H. inversion H; subst. exists (parent_of c i). split; [apply Hps; auto|].
           apply (bf_children _ F); auto. eapply has_level_range; eauto.
      * intros i j Hij L. rewrite B by (pose proof (has_level_range _ _ _ Hij); lia).
        destruct (existsb (Z.eqb i) ps) eqn:Ex.
        -- apply existsb_exists in Ex. destruct Ex as (q & Iq & Eq). apply Z.eqb_eq in Eq. subst q.
           apply Hps in Iq. rewrite (has_level_fun _ _ _ Hij _ Iq). auto.
        -- apply Hl; auto. destruct (Nat.eq_dec j k) as [->|]; [|lia]. exfalso.
           assert (T : existsb (Z.eqb i) ps = true); [|congruence].
           apply existsb_exists. exists i. split; [apply Hps; auto|apply Z.eqb_refl].
Qed.
Lemma mb_roots_spec c : boundary_forest c -> forall i, In i (mb_roots c) <-> has_level c i 0.
Proof.
  intros F i. unfold mb_roots. rewrite filter_In, (bf_parents _ F), in_zseq. simpl. fold (parent_of c i).
  rewrite Z.ltb_lt. split.
  - intros (R & L). constructor; auto. destruct (bf_smaller _ F i R); lia.
  - intros H. inversion H; subst. split; auto. lia.
Qed.
Lemma levels_spec c fuel : boundary_forest c -> (length (mb_gammas c) <= fuel)%nat ->
  exists r, get_level_numbers c fuel = Some r /\ length r = length (mb_gammas c) /\
    forall i j, has_level c i j -> nth (Z.to_nat i) r (-1)%Z = Z.of_nat j.
Proof.
  intros F L. unfold get_level_numbers. apply (level_loop_spec c F fuel 0); try lia.
  - apply mb_roots_spec. auto.
  - apply repeat_length.
Qed.

Lemma forest_empty : boundary_forest mb_empty.
Proof. constructor; simpl; auto; intros; lia. Qed.
Lemma py_index_ok len i k : py_index len i = Some k -> (0 <= i)%Z -> k = Z.to_nat i /\ (k < len)%nat.
Proof.
  unfold py_index. destruct (0 <=? i)%Z eqn:A; destruct (i <? Z.of_nat len)%Z eqn:B; simpl.
  - intros E _. injection E as <-. apply Z.leb_le in A. apply Z.ltb_lt in B. lia.
  - destruct (- Z.of_nat len <=? i)%Z; simpl; try discriminate. destruct (i <? 0)%Z eqn:C; try discriminate.
    intros _ H. apply Z.ltb_lt in C. lia.
  - intros _ H. apply Z.leb_gt in A. lia.
  - intros _ H. apply Z.leb_gt in A. lia.
Qed.
Lemma py_index_in len i : (0 <= i < Z.of_nat len)%Z -> py_index len i = Some (Z.to_nat i).
Proof.
  intros H. unfold py_index. replace (0 <=? i)%Z with true by (symmetry; apply Z.leb_le; lia).
  replace (i <? Z.of_nat len)%Z with true by (symmetry; apply Z.ltb_lt; lia). reflexivity.
Qed.
Lemma forest_grow c g : boundary_forest c ->
  boundary_forest (mkMB (mb_gammas c ++ [g]) (mb_parent c ++ [-1]%Z) (mb_children c ++ [[]])).
Proof.
  intros F. pose proof (bf_parents _ F) as Lp. pose proof (bf_lists _ F) as Ll.
  set (n := length (mb_gammas c)) in *.
  assert (P1 : forall i, (0 <= i < Z.of_nat n)%Z ->
     parent_of (mkMB (mb_gammas c ++ [g]) (mb_parent c ++ [-1]%Z) (mb_children c ++ [[]])) i = parent_of c i).
  { intros i H. unfold parent_of. simpl. apply app_nth1. lia. }
  assert (P2 : parent_of (mkMB (mb_gammas c ++ [g]) (mb_parent c ++ [-1]%Z) (mb_children c ++ [[]])) (Z.of_nat n) = (-1)%Z).
  { unfold parent_of. simpl. rewrite Nat2Z.id, app_nth2 by lia. rewrite Lp. fold n. rewrite Nat.sub_diag. auto. }
  constructor; simpl; rewrite ?app_length; simpl; fold n; try lia.
  - intros i H. destruct (Z.eq_dec i (Z.of_nat n)) as [->|]; [left; auto|]. rewrite P1 by lia. apply (bf_smaller _ F). fold n. lia.
  - intros p i H. destruct (Z.eq_dec p (Z.of_nat n)) as [->|].
    + unfold children_of. simpl. rewrite Nat2Z.id, app_nth2 by lia. rewrite Ll. fold n. rewrite Nat.sub_diag. simpl. split; [contradiction|].
      intros (R & E). destruct (Z.eq_dec i (Z.of_nat n)) as [->|]; [lia|]. rewrite P1 in E by lia.
      destruct (bf_smaller _ F i ltac:(fold n; lia)); lia.
    + unfold children_of. simpl. rewrite app_nth1 by lia. fold (children_of c p). rewrite (bf_children _ F) by (fold n; lia). fold n. split.
      * intros (R & E). split; [lia|]. rewrite P1; auto.
      * intros (R & E). destruct (Z.eq_dec i (Z.of_nat n)) as [->|]; [lia|]. rewrite P1 in E by lia. split; [lia|auto].
Qed.
(** Linking a root to an earlier element. *)
Lemma forest_extend c child parent c' : boundary_forest c ->
  (0 <= parent < child)%Z -> (child < Z.of_nat (length (mb_gammas c)))%Z -> parent_of c child = (-1)%Z ->
  extend_graph c child parent = (c', Ok tt) -> boundary_forest c' /\ mb_gammas c' = mb_gammas c /\
    parent_of c' child = parent.
Proof.
  intros F Hp Hc Root E. pose proof (bf_parents _ F) as Lp. pose proof (bf_lists _ F) as Ll.
  unfold extend_graph in E. rewrite Lp, Ll in E. rewrite !py_index_in in E by lia. injection E as <-. simpl.
  set (n := length (mb_gammas c)) in *.
  assert (P : forall i, (0 <= i)%Z -> parent_of (mkMB (mb_gammas c) (update (mb_parent c) (Z.to_nat child) parent)
     (update (mb_children c) (Z.to_nat parent) (nth (Z.to_nat parent) (mb_children c) [] ++ [child]))) i =
     if Z.eqb i child then parent else parent_of c i).
  { intros i H. unfold parent_of. simpl. rewrite nth_update by lia.
    destruct (Z.eqb_spec i child) as [->|]; [rewrite Nat.eqb_refl; auto|].
    destruct (Nat.eqb_spec (Z.to_nat i) (Z.to_nat child)); [lia|auto]. }
  split; [|split; [auto|rewrite P by lia; rewrite Z.eqb_refl; auto]].
  constructor; simpl; rewrite ?update_length; auto; fold n.
  - intros i H. rewrite P by lia. destruct (Z.eqb_spec i child) as [->|]; [right; lia|]. apply (bf_smaller _ F). auto.
  - intros p i H. unfold children_of. simpl. rewrite nth_update by lia.
    assert (PI : (0 <= i < Z.of_nat n)%Z /\ parent_of (mkMB (mb_gammas c) (update (mb_parent c) (Z.to_nat child) parent)
     (update (mb_children c) (Z.to_nat parent) (nth (Z.to_nat parent) (mb_children c) [] ++ [child]))) i = p <->
      ((0 <= i < Z.of_nat n)%Z /\ (if Z.eqb i child then parent else parent_of c i) = p)).
    { split; intros (A & B); split; auto; [rewrite P in B by lia|rewrite P by lia]; auto. }
    rewrite PI. fold (children_of c p). fold (children_of c parent).
    destruct (Nat.eqb_spec (Z.to_nat p) (Z.to_nat parent)) as [Ep|Ep].
    + assert (p = parent) by lia. subst p. rewrite in_app_iff, (bf_children _ F) by (fold n; lia). fold n. simpl.
      destruct (Z.eqb_spec i child) as [->|]; [intuition lia|]. intuition.
    + rewrite (bf_children _ F) by (fold n; lia). fold n.
      destruct (Z.eqb_spec i child) as [->|]; [intuition lia|]. intuition.
Qed.

(** ** Articulated bodies *)
Lemma combine_snoc {A B} (l : list A) (k : list B) a b : length l = length k ->
  combine (l ++ [a]) (k ++ [b]) = combine l k ++ [(a, b)].
Proof. revert k. induction l as [|x l IH]; intros [|y k] E; simpl in *; try discriminate; auto. f_equal. auto. Qed.
Lemma nth_error_enum {A} (l : list A) k a s :
  In (k, a) (combine (seq s (length l)) l) <-> (s <= k)%nat /\ nth_error l (k - s) = Some a.
Proof.
  revert s. induction l as [|x l IH]; intros s; simpl.
  - split; [contradiction|]. intros (_ & E). destruct (k - s)%nat; discriminate.
  - rewrite IH. split.
    + intros [E|(L & E)].
      * injection E as -> ->. split; [lia|]. rewrite Nat.sub_diag. auto.
      * split; [lia|]. replace (k - s)%nat with (S (k - S s)) by lia. auto.
    + intros (L & E). destruct (Nat.eq_dec k s) as [->|].
      * left. rewrite Nat.sub_diag in E. simpl in E. congruence.
      * right. split; [lia|]. replace (k - s)%nat with (S (k - S s)) in E by lia. auto.
Qed.
Lemma index_of_pair {A} (l : list (Z * A)) x r : NoDup (map fst l) -> In (x, r) l ->
  exists m, index_of x (map fst l) = Some m /\ nth_error (map snd l) m = Some r.
Proof.
  induction l as [|(y, s) l IH]; intros ND I; simpl in *; [contradiction|].
  apply NoDup_cons_iff in ND. destruct ND as [Ny ND]. destruct I as [E|I].
  - injection E as -> ->. rewrite Z.eqb_refl. exists O. auto.
  - destruct (Z.eqb_spec x y) as [->|]; [exfalso; apply Ny; apply in_map_iff; exists (y, r); auto|].
    destruct (IH ND I) as (m & E1 & E2). exists (S m). rewrite E1. auto.
Qed.
Lemma nodup_map_filter {A B} (g : A -> B) f (l : list A) : NoDup (map g l) -> NoDup (map g (filter f l)).
Proof.
  induction l as [|a l IH]; simpl; intros H; [constructor|]. apply NoDup_cons_iff in H. destruct H as [N H].
  destruct (f a); simpl; auto. constructor; auto. intros I. apply N. apply in_map_iff in I. destruct I as (b & E & I).
  apply filter_In in I. apply in_map_iff. exists b. tauto.
Qed.

(** A joint: parent, reference point of the component, anchor point on the parent. *)
Record joint := mkJ { j_parent : nat; j_ref : vec; j_anchor : vec }.
Section Bodies.
Context {G : Type}.
Variable act : G -> vec -> vec.
Variable n : nat.
Hypothesis act_length : forall g v, length v = n -> length (act g v) = n.
Notation body := (body (G := G)).
Notation pose := (pose G).

Definition enum (js : list joint) := combine (seq 0 (length js)) js.
Definition sel (p : nat) (js : list joint) : list (Z * vec) :=
  map (fun kj => (Z.of_nat (S (fst kj)), j_anchor (snd kj))) (filter (fun kj => Nat.eqb p (j_parent (snd kj))) (enum js)).
Definition good (b : body) (poses : list pose) :=
  length poses = b_count b /\ forall p, In p poses -> length (p_pos p) = n.
Record body_tree (b : body) (js : list joint) : Prop := {
  bt_count : b_count b = S (length js);
  bt_nodes : length (b_nodes b) = b_count b;
  bt_poses : good b (b_poses b);
  bt_edges : b_edges b = map (fun kj => (Z.of_nat (j_parent (snd kj)), Z.of_nat (S (fst kj)))) (enum js);
  bt_smaller : forall k j, nth_error js k = Some j -> (j_parent j <= k)%nat;
  bt_dim : forall k j, nth_error js k = Some j -> length (j_ref j) = n /\ length (j_anchor j) = n;
  bt_ref : forall k j, nth_error js k = Some j -> option_map bn_ref (nth_error (b_nodes b) (S k)) = Some (Some (j_ref j));
  bt_sel : forall p nd, nth_error (b_nodes b) p = Some nd -> bn_children nd = map fst (sel p js) /\ bn_refs nd = map snd (sel p js)
}.
Lemma find_name_spec l name : forall k0 k, find_name l k0 name = Some k ->
  (k0 <= k < k0 + length l)%nat /\ option_map bn_name (nth_error l (k - k0)) = Some name /\
  forall j, (k0 <= j < k)%nat -> option_map bn_name (nth_error l (j - k0)) <> Some name.
Proof.
  induction l as [|x l IH]; intros k0 k E; simpl in *; [discriminate|].
  destruct (Z.eqb_spec (bn_name x) name) as [En|Ne].
  - injection E as <-. split; [lia|]. rewrite Nat.sub_diag. simpl. split; [congruence|]. intros; lia.
  - apply IH in E. destruct E as (L & E & F). split; [lia|]. replace (k - k0)%nat with (S (k - S k0)) by lia. split; auto.
    intros j Hj. destruct (Nat.eq_dec j k0) as [->|].
    + rewrite Nat.sub_diag. simpl. congruence.
    + replace (j - k0)%nat with (S (j - S k0)) by lia. apply F. lia.
Qed.
Lemma enum_snoc js j : enum (js ++ [j]) = enum js ++ [(length js, j)].
Proof.
  unfold enum. rewrite app_length. simpl. rewrite Nat.add_1_r, seq_S. simpl. apply combine_snoc. apply seq_length.
Qed.
Lemma sel_snoc p js j : sel p (js ++ [j]) =
  sel p js ++ if Nat.eqb p (j_parent j) then [(Z.of_nat (S (length js)), j_anchor j)] else [].
Proof.
  unfold sel. rewrite enum_snoc, filter_app, map_app. f_equal. simpl. destruct (Nat.eqb p (j_parent j)); auto.
Qed.
Lemma body_root_tree p name : length (p_pos p) = n -> body_tree (body_set_root body_empty p name) [].
Proof.
  intros L. constructor; simpl; auto; try (intros [|k] j E; discriminate).
  - split; auto. simpl. intros q [<-|[]]. auto.
  - intros [|[|q]] nd E; simpl in *; try discriminate. injection E as <-. auto.
Qed.
Lemma body_add_tree b js p name ref k pname pref b' : body_tree b js -> length (p_pos p) = n -> length ref = n ->
  length pref = n -> find_name (b_nodes b) 0 pname = Some k ->
  body_add b p name ref pname pref = (b', Ok tt) -> body_tree b' (js ++ [mkJ k ref pref]).
Proof.
  intros T Lp Lr Lf Fn E. unfold body_add in E. rewrite Fn in E. injection E as <-.
  destruct (find_name_spec _ _ _ _ Fn) as (Lk & _ & _).
  pose proof (bt_nodes _ _ T) as Ln. pose proof (bt_count _ _ T) as Lc.
  assert (Lu : forall a : list bnode, (k < length (b_nodes b ++ a))%nat) by (intros; rewrite app_length; lia).
  constructor; cbn [b_poses b_nodes b_edges b_count].
  - rewrite app_length. simpl. lia.
  - rewrite update_length, app_length. simpl. lia.
  - destruct (bt_poses _ _ T) as [A B]. split; simpl.
    + rewrite app_length. simpl. lia.
    + intros q I. apply in_app_iff in I. destruct I as [I|[<-|[]]]; auto.
  - rewrite enum_snoc, map_app, (bt_edges _ _ T), Lc. reflexivity.
  - intros i j E. destruct (Nat.lt_ge_cases i (length js)) as [L|L].
    + rewrite nth_error_app1 in E by auto. apply (bt_smaller _ _ T i j E).
    + rewrite nth_error_app2 in E by auto. destruct (i - length js)%nat as [|[|]] eqn:Ei; simpl in E; try discriminate. injection E as <-. simpl. lia.
  - intros i j E. destruct (Nat.lt_ge_cases i (length js)) as [L|L].
    + rewrite nth_error_app1 in E by auto. apply (bt_dim _ _ T i j E).
    + rewrite nth_error_app2 in E by auto. destruct (i - length js)%nat as [|[|]] eqn:Ei; simpl in E; try discriminate. injection E as <-. simpl. auto.
  - intros i j E. rewrite nth_error_update by auto.
    assert (H : option_map bn_ref (nth_error (b_nodes b ++ [mkBN name (Some ref) [] []]) (S i)) = Some (Some (j_ref j))).
    { destruct (Nat.lt_ge_cases i (length js)) as [L|L].
      - rewrite nth_error_app1 in E by auto. rewrite nth_error_app1 by lia. apply (bt_ref _ _ T i j E).
      - rewrite nth_error_app2 in E by auto. destruct (i - length js)%nat as [|[|]] eqn:Ei; simpl in E; try discriminate. injection E as <-. cbn [j_ref].
        rewrite nth_error_app2 by lia. replace (S i - length (b_nodes b))%nat with O by lia. reflexivity. }
    destruct (Nat.eqb_spec (S i) k) as [Ek|]; auto. simpl. rewrite <- Ek.
    destruct (nth_error (b_nodes b ++ [mkBN name (Some ref) [] []]) (S i)) as [nd|] eqn:En; [|discriminate].
    rewrite (nth_error_nth _ _ (mkBN 0 None [] []) En). exact H.
  - intros q nd E. rewrite nth_error_update in E by auto. rewrite sel_snoc. simpl.
    destruct (Nat.eqb_spec q k) as [->|Nq].
    + injection E as <-. simpl. rewrite !map_app. simpl. rewrite app_nth1 by lia.
      destruct (nth_error (b_nodes b) k) as [nd|] eqn:En.
      * rewrite (nth_error_nth _ _ _ En). destruct (bt_sel _ _ T k nd En) as [-> ->]. rewrite Lc. auto.
      * apply nth_error_None in En. lia.
    + rewrite app_nil_r. destruct (Nat.lt_ge_cases q (length (b_nodes b))) as [L|L].
      * rewrite nth_error_app1 in E by auto. apply (bt_sel _ _ T q nd E).
      * rewrite nth_error_app2 in E by auto. destruct (q - length (b_nodes b))%nat as [|[|]] eqn:Eq; simpl in E; try discriminate.
        injection E as <-. simpl. assert (Z0 : sel q js = []); [|rewrite Z0; auto].
        unfold sel. replace (filter (fun kj => Nat.eqb q (j_parent (snd kj))) (enum js)) with (@nil (nat * joint)); auto.
        symmetry. assert (H : forall kj, In kj (enum js) -> Nat.eqb q (j_parent (snd kj)) = false).
        { intros (i, j) I. apply nth_error_enum in I. destruct I as (_ & I). rewrite Nat.sub_0_r in I. simpl.
          pose proof (bt_smaller _ _ T i j I). assert (i < length js)%nat by (apply nth_error_Some; congruence).
          apply Nat.eqb_neq. lia. }
        clear - H. induction (enum js) as [|e l IH]; simpl; auto. rewrite (H e (or_introl eq_refl)). apply IH. intros; apply H; right; auto.
Qed.

Section Tree.
Variable b : body.
Variable js : list joint.
Hypothesis T : body_tree b js.
Lemma edge_spec p x : In (p, x) (b_edges b) <->
  exists k j, nth_error js k = Some j /\ p = Z.of_nat (j_parent j) /\ x = Z.of_nat (S k).
Proof.
  rewrite (bt_edges _ _ T), in_map_iff. split.
  - intros ((k, j) & E & I). injection E as <- <-. apply nth_error_enum in I. destruct I as (_ & I).
    rewrite Nat.sub_0_r in I. exists k, j. auto.
  - intros (k & j & E & -> & ->). exists (k, j). split; auto. apply nth_error_enum. rewrite Nat.sub_0_r. split; [lia|auto].
Qed.
Lemma edges_nodup : NoDup (map snd (b_edges b)).
Proof.
  rewrite (bt_edges _ _ T), map_map. cbn [fst snd].
  rewrite <- (map_map fst (fun k => Z.of_nat (S k))).
  apply FinFun.Injective_map_NoDup; [intros x y; lia|]. unfold enum.
  assert (H : forall s (l : list joint), map fst (combine (seq s (length l)) l) = seq s (length l)).
  { intros s l. revert s. induction l; intros s; simpl; auto. f_equal. auto. }
  rewrite H. apply seq_NoDup.
Qed.
Lemma sel_nodup p : NoDup (map fst (sel p js)).
Proof.
  unfold sel. rewrite map_map. cbn [fst snd]. rewrite <- (map_map fst (fun k => Z.of_nat (S k))).
  apply FinFun.Injective_map_NoDup; [intros x y; lia|]. apply nodup_map_filter. unfold enum.
  assert (H : forall s (l : list joint), map fst (combine (seq s (length l)) l) = seq s (length l)).
  { intros s l. revert s. induction l; intros s; simpl; auto. f_equal. auto. }
  rewrite H. apply seq_NoDup.
Qed.
Lemma own_reference_spec poses k j p : nth_error js k = Some j -> nth_error poses (S k) = Some p ->
  own_reference act b poses (Z.of_nat (S k)) = Ok (from_relative act p (j_ref j)).
Proof.
  intros E P. unfold own_reference, get_node, get_pose. rewrite !Nat2Z.id.
  pose proof (bt_ref _ _ T k j E) as R. destruct (nth_error (b_nodes b) (S k)) as [nd|]; [|discriminate].
  simpl in R. injection R as R. cbn [bind]. rewrite R, P. reflexivity.
Qed.
Lemma anchor_spec poses k j p : nth_error js k = Some j -> nth_error poses (j_parent j) = Some p ->
  anchor act b poses (Z.of_nat (S k)) = Ok (from_relative act p (j_anchor j)).
Proof.
  intros E P. unfold anchor, b_preds.
  rewrite (filter_unique _ (Z.of_nat (j_parent j)) (Z.of_nat (S k)) edges_nodup).
  2:{ apply edge_spec. eauto. }
  cbn [map fst]. unfold get_node, get_pose. rewrite Nat2Z.id.
  pose proof (bt_smaller _ _ T k j E) as L. assert (Lk : (k < length js)%nat) by (apply nth_error_Some; congruence).
  pose proof (bt_nodes _ _ T) as Ln. pose proof (bt_count _ _ T) as Lc.
  destruct (nth_error (b_nodes b) (j_parent j)) as [nd|] eqn:En; [|apply nth_error_None in En; lia].
  cbn [bind]. destruct (bt_sel _ _ T _ _ En) as [-> ->].
  destruct (index_of_pair (sel (j_parent j) js) (Z.of_nat (S k)) (j_anchor j) (sel_nodup _)) as (m & -> & ->).
  - unfold sel. apply in_map_iff. exists (k, j). split; auto. apply filter_In. split.
    + apply nth_error_enum. rewrite Nat.sub_0_r. split; [lia|auto].
    + apply Nat.eqb_refl.
  - rewrite P. reflexivity.
Qed.
(** Both ends of joint [k] (of component [k+1]) coincide. *)
Definition closed (poses : list pose) (k : nat) : Prop :=
  exists j p q, nth_error js k = Some j /\ nth_error poses (S k) = Some p /\ nth_error poses (j_parent j) = Some q /\
    vadd (act (p_rot p) (j_ref j)) (p_pos p) = vadd (act (p_rot q) (j_anchor j)) (p_pos q).
Lemma closing_shift a c d : length a = n -> length c = n -> length d = n ->
  vadd a (vadd c (vsub d (vadd a c))) = d.
Proof. intros A C D. vext. ring. Qed.
Lemma nth_error_good poses i : good b poses -> (i < b_count b)%nat -> exists p, nth_error poses i = Some p /\ length (p_pos p) = n.
Proof.
  intros (L & D) H. destruct (nth_error poses i) as [p|] eqn:E; [|apply nth_error_None in E; lia].
  exists p. split; auto. apply D. apply nth_error_In with (1 := E).
Qed.
Lemma good_update poses i p : good b poses -> length (p_pos p) = n -> good b (update poses i p).
Proof.
  intros (L & D) H. split; [rewrite update_length; auto|]. intros q I. apply In_nth_error in I. destruct I as (k & E).
  destruct (Nat.lt_ge_cases i (length poses)) as [Li|Li].
  - rewrite nth_error_update in E by auto. destruct (Nat.eqb k i); [congruence|]. apply D. apply nth_error_In with (1 := E).
  - assert (U : update poses i p = poses).
    { clear - Li. revert i Li. induction poses as [|x l IH]; intros [|i] Li; simpl in *; auto; try lia. f_equal. apply IH. lia. }
    rewrite U in E. apply D. apply nth_error_In with (1 := E).
Qed.
Lemma align_spec poses k j p : good b poses -> nth_error js k = Some j -> length (p_pos p) = n ->
  exists v, align_position act b (update poses (S k) p) (Z.of_nat (S k)) = Ok (update poses (S k) (mkPose v (p_rot p))) /\
    length v = n /\ closed (update poses (S k) (mkPose v (p_rot p))) k.
Proof.
  intros Gd E Lp. assert (Lk : (k < length js)%nat) by (apply nth_error_Some; congruence).
  pose proof (bt_smaller _ _ T k j E) as L. pose proof (bt_count _ _ T) as Lc. destruct (bt_dim _ _ T k j E) as [Dr Da].
  destruct Gd as [Gl Gd0]. pose proof (conj Gl Gd0 : good b poses) as Gd.
  destruct (nth_error_good poses (j_parent j) Gd ltac:(lia)) as (q & Eq & Lq).
  assert (Q : forall x, nth_error (update poses (S k) x) (j_parent j) = Some q).
  { intros x. rewrite nth_error_update by lia. destruct (Nat.eqb_spec (j_parent j) (S k)); [lia|auto]. }
  assert (P : forall x, nth_error (update poses (S k) x) (S k) = Some x).
  { intros x. rewrite nth_error_update by lia. rewrite Nat.eqb_refl. auto. }
  unfold align_position. rewrite (own_reference_spec _ k j p E (P p)), (anchor_spec _ k j q E (Q p)). cbn [bind].
  unfold get_pose. rewrite Nat2Z.id, (P p). cbn [bind].
  set (v := vadd (p_pos p) (vsub (from_relative act q (j_anchor j)) (from_relative act p (j_ref j)))).
  assert (La : length (from_relative act q (j_anchor j)) = n).
  { unfold from_relative. rewrite length_vadd, act_length by auto. lia. }
  assert (Lo : length (from_relative act p (j_ref j)) = n).
  { unfold from_relative. rewrite length_vadd, act_length by auto. lia. }
  exists v. split; [|split].
  - f_equal. clear. generalize (mkPose v (p_rot p)) as z. intros z. revert k.
    assert (H : forall (l : list pose) i x y, update (update l i x) i y = update l i y).
    { induction l as [|a l IH]; intros [|i] x y; simpl; auto. f_equal. auto. }
    intros k. apply H.
  - unfold v. rewrite length_vadd, length_vsub. lia.
  - exists j, (mkPose v (p_rot p)), q. split; [auto|split; [auto|split; [auto|]]]. simpl. unfold v, from_relative at 2.
    apply closing_shift; auto.
Qed.

(** The breadth first loop closes every joint. *)
Variable adjust : list pose -> Z -> res pose.
Hypothesis adjust_ok : forall poses i, good b poses -> (1 <= i < b_count b)%nat ->
  exists p, adjust poses (Z.of_nat i) = Ok p /\ length (p_pos p) = n.
(** A further property of the poses kept by each step. *)
Variable K : list pose -> Prop.
Hypothesis K_step : forall poses i p v, good b poses -> (1 <= i < b_count b)%nat -> K poses ->
  adjust poses (Z.of_nat i) = Ok p -> length v = n -> K (update poses i (mkPose v (p_rot p))).
(** A relation between the pose of the parent and the new rotation of a component. *)
Variable Q : nat -> pose -> G -> Prop.
Hypothesis Q_step : forall poses k j p q, good b poses -> nth_error js k = Some j -> nth_error poses (j_parent j) = Some q ->
  adjust poses (Z.of_nat (S k)) = Ok p -> Q k q (p_rot p).
Definition follows_rule (poses : list pose) (k : nat) : Prop :=
  forall j p q, nth_error js k = Some j -> nth_error poses (S k) = Some p -> nth_error poses (j_parent j) = Some q -> Q k q (p_rot p).

Record loop_inv (don todo : list Z) (poses : list pose) : Prop := {
  li_nodup : NoDup (don ++ todo);
  li_range : forall i, In i (don ++ todo) -> (1 <= i < Z.of_nat (b_count b))%Z;
  li_closed : forall p x, p = 0%Z \/ In p don -> In (p, x) (b_edges b) -> In x (don ++ todo);
  li_parent : forall p x, In x (don ++ todo) -> In (p, x) (b_edges b) -> p = 0%Z \/ In p don;
  li_good : good b poses;
  li_joints : forall k, In (Z.of_nat (S k)) don -> closed poses k;
  li_rules : forall k, In (Z.of_nat (S k)) don -> follows_rule poses k;
  li_K : K poses
}.
Lemma succs_in p x : In x (b_succs b p) <-> In (p, x) (b_edges b).
Proof.
  unfold b_succs. rewrite in_map_iff. split.
  - intros ((q, y) & <- & I). apply filter_In in I. destruct I as [I E]. simpl in E. apply Z.eqb_eq in E. subst. auto.
  - intros I. exists (p, x). split; auto. apply filter_In. split; auto. apply Z.eqb_refl.
Qed.
Lemma succs_nodup p : NoDup (b_succs b p).
Proof. unfold b_succs. apply nodup_map_filter. apply edges_nodup. Qed.
Lemma unique_parent p q x : In (p, x) (b_edges b) -> In (q, x) (b_edges b) -> p = q.
Proof.
  rewrite !edge_spec. intros (k & j & E & -> & ->) (k' & j' & E' & -> & X). assert (k' = k) by lia. subst. congruence.
Qed.
Lemma nodup_app_intro {A} (l m : list A) : NoDup l -> NoDup m -> (forall x, In x l -> In x m -> False) -> NoDup (l ++ m).
Proof.
  induction l as [|a l IH]; simpl; intros Hl Hm H; auto. apply NoDup_cons_iff in Hl. destruct Hl as [Na Hl]. constructor.
  - rewrite in_app_iff. intros [I|I]; eauto.
  - apply IH; eauto.
Qed.
Lemma loop_step don i todo poses : loop_inv don (i :: todo) poses ->
  exists poses', (do p <- adjust poses i; align_position act b (update poses (Z.to_nat i) p) i) = Ok poses' /\
    loop_inv (don ++ [i]) (todo ++ b_succs b i) poses'.
Proof.
  intros I. assert (Ii : In i (don ++ i :: todo)) by (apply in_elt).
  pose proof (li_range _ _ _ I i Ii) as Ri.
  assert (Ek : exists k, i = Z.of_nat (S k)) by (exists (Z.to_nat i - 1)%nat; lia). destruct Ek as (k & ->).
  pose proof (bt_count _ _ T) as Lc. assert (Lk : (k < length js)%nat) by lia.
  destruct (nth_error js k) as [j|] eqn:Ej; [|apply nth_error_None in Ej; lia].
  destruct (adjust_ok poses (S k) (li_good _ _ _ I) ltac:(lia)) as (p & Ea & Lp).
  destruct (align_spec poses k j p (li_good _ _ _ I) Ej Lp) as (v & Eal & Lv & Cl).
  exists (update poses (S k) (mkPose v (p_rot p))). rewrite Ea. cbn [bind]. rewrite Nat2Z.id. split; [exact Eal|].
  pose proof (li_nodup _ _ _ I) as ND.
  assert (Nd : ~ In (Z.of_nat (S k)) don).
  { intros J. apply NoDup_remove_2 in ND. apply ND. apply in_app_iff. auto. }
  assert (Es : forall x, In x ((don ++ [Z.of_nat (S k)]) ++ todo ++ b_succs b (Z.of_nat (S k))) <->
                         In x (don ++ Z.of_nat (S k) :: todo) \/ In (Z.of_nat (S k), x) (b_edges b)).
  { intros x. rewrite !in_app_iff, succs_in. simpl. tauto. }
  assert (Ex : exists p, In (p, Z.of_nat (S k)) (b_edges b)) by (exists (Z.of_nat (j_parent j)); apply edge_spec; eauto).
  constructor.
  - replace ((don ++ [Z.of_nat (S k)]) ++ todo ++ b_succs b (Z.of_nat (S k))) with
      ((don ++ Z.of_nat (S k) :: todo) ++ b_succs b (Z.of_nat (S k))) by (rewrite <- !app_assoc; reflexivity).
    apply nodup_app_intro; auto; [apply succs_nodup|]. intros x J1 J2. apply succs_in in J2.
    destruct (li_parent _ _ _ I _ _ J1 J2) as [H|H]; [lia|contradiction].
  - intros x J. apply Es in J. destruct J as [J|J]; [apply (li_range _ _ _ I x J)|].
    apply edge_spec in J. destruct J as (k' & j' & E' & _ & ->). assert (k' < length js)%nat by (apply nth_error_Some; congruence). lia.
  - intros q x Hq Hx. apply Es. rewrite in_app_iff in Hq. simpl in Hq.
    destruct Hq as [Hq|[Hq|[Hq|[]]]]; [left; eapply (li_closed _ _ _ I); eauto|left; eapply (li_closed _ _ _ I); eauto|].
    subst q. auto.
  - intros q x J Hx. apply Es in J. rewrite in_app_iff. simpl. destruct J as [J|J].
    + destruct (li_parent _ _ _ I _ _ J Hx); auto.
    + pose proof (unique_parent _ _ _ Hx J). auto.
  - apply good_update; auto. apply (li_good _ _ _ I).
  - intros k' J. rewrite in_app_iff in J. simpl in J.
    destruct (Nat.eq_dec k' k) as [->|Nk]; [exact Cl|]. destruct J as [J|[J|[]]]; [|lia].
    destruct (li_joints _ _ _ I k' J) as (j' & p' & q' & E1 & E2 & E3 & E4).
    assert (Gl : length poses = b_count b) by apply (li_good _ _ _ I).
    assert (NotK : j_parent j' <> S k).
    { intros H. assert (Hx : In (Z.of_nat (S k), Z.of_nat (S k')) (b_edges b)) by (apply edge_spec; exists k', j'; rewrite H; auto).
      destruct (li_parent _ _ _ I (Z.of_nat (S k)) (Z.of_nat (S k'))) as [H0|H0]; auto; try lia. apply in_app_iff; auto. }
    exists j', p', q'. split; auto. rewrite !nth_error_update by lia.
    destruct (Nat.eqb_spec (S k') (S k)); [lia|]. destruct (Nat.eqb_spec (j_parent j') (S k)); [contradiction|]. auto.
  - intros k' J j' p' q' Ej' Ep' Eq'. assert (Gl : length poses = b_count b) by apply (li_good _ _ _ I).
    rewrite nth_error_update in Ep' by lia. rewrite nth_error_update in Eq' by lia. rewrite in_app_iff in J. simpl in J.
    destruct (Nat.eqb_spec (S k') (S k)) as [Ek|Nk].
    + injection Ek as ->. injection Ep' as <-. assert (j' = j) by congruence. subst j'. pose proof (bt_smaller _ _ T k j Ej) as Ls.
      destruct (Nat.eqb_spec (j_parent j) (S k)); [lia|]. apply (Q_step poses k j p q' (li_good _ _ _ I) Ej Eq' Ea).
    + destruct J as [J|[J|[]]]; [|lia].
      assert (NotK : j_parent j' <> S k).
      { intros H. assert (Hx : In (Z.of_nat (S k), Z.of_nat (S k')) (b_edges b)) by (apply edge_spec; exists k', j'; rewrite H; auto).
        destruct (li_parent _ _ _ I (Z.of_nat (S k)) (Z.of_nat (S k'))) as [H0|H0]; auto; try lia. apply in_app_iff; auto. }
      destruct (Nat.eqb_spec (j_parent j') (S k)); [contradiction|]. apply (li_rules _ _ _ I k' J j' p' q' Ej' Ep' Eq').
  - eapply K_step; eauto; [apply (li_good _ _ _ I)|lia|apply (li_K _ _ _ I)].
Qed.
Lemma loop_done don poses : loop_inv don [] poses -> forall k, (k < length js)%nat -> closed poses k /\ follows_rule poses k.
Proof.
  intros I k Lk. cut (In (Z.of_nat (S k)) don); [intros Id; split; [apply (li_joints _ _ _ I _ Id)|apply (li_rules _ _ _ I _ Id)]|].
  induction k as [k IH] using lt_wf_ind.
  destruct (nth_error js k) as [j|] eqn:Ej; [|apply nth_error_None in Ej; lia].
  pose proof (bt_smaller _ _ T k j Ej) as L.
  pose proof (li_closed _ _ _ I (Z.of_nat (j_parent j)) (Z.of_nat (S k))) as C. rewrite app_nil_r in C. apply C.
  - destruct (j_parent j) as [|p]; [left; auto|right]. apply IH; lia.
  - apply edge_spec. eauto.
Qed.
Lemma loop_closes : forall fuel don todo poses, loop_inv don todo poses -> (b_count b <= fuel + length don + 1)%nat ->
  exists poses', align_loop act adjust b fuel todo poses = Some (Ok poses') /\ good b poses' /\ K poses' /\
    forall k, (k < length js)%nat -> closed poses' k /\ follows_rule poses' k.
Proof.
  induction fuel as [|f IH]; intros don todo poses I F.
  - destruct todo as [|i todo].
    + exists poses. split; [reflexivity|]. split; [apply (li_good _ _ _ I)|split; [apply (li_K _ _ _ I)|apply (loop_done don); auto]].
    + exfalso. pose proof (li_nodup _ _ _ I) as ND.
      assert (H : (length (don ++ i :: todo) <= length (map Z.of_nat (seq 1 (b_count b - 1))))%nat).
      { apply NoDup_incl_length; auto. intros x J. apply in_zseq. pose proof (li_range _ _ _ I x J). lia. }
      rewrite map_length, seq_length, app_length in H. simpl in H. pose proof (bt_count _ _ T). lia.
  - destruct todo as [|i todo].
    + exists poses. split; [reflexivity|]. split; [apply (li_good _ _ _ I)|split; [apply (li_K _ _ _ I)|apply (loop_done don); auto]].
    + destruct (loop_step _ _ _ _ I) as (poses' & E & I').
      simpl. rewrite E. eapply IH; eauto. rewrite app_length. simpl. lia.
Qed.
Lemma align_tree_closes fuel : K (b_poses b) -> (b_count b <= fuel + 1)%nat ->
  exists poses', align_tree act adjust b fuel = Some (Ok poses') /\ good b poses' /\ K poses' /\
    forall k, (k < length js)%nat -> closed poses' k /\ follows_rule poses' k.
Proof.
  intros K0 F. apply (loop_closes fuel [] (b_succs b 0) (b_poses b)); [|simpl; lia].
  constructor; simpl; auto.
  - apply succs_nodup.
  - intros i J. apply succs_in, edge_spec in J. destruct J as (k & j & E & _ & ->).
    assert (k < length js)%nat by (apply nth_error_Some; congruence). pose proof (bt_count _ _ T). lia.
  - intros p x [->|[]] J. apply succs_in. auto.
  - intros p x J J'. apply succs_in in J. left. eapply unique_parent; eauto.
  - apply (bt_poses _ _ T).
  - intros k [].
  - intros k [].
Qed.
End Tree.
End Bodies.
