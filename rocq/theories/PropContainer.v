(** C36-C41: containers of obstacles. *)
Require Import Reals List Bool Lra Lia ZArith.
From Verif Require Import Base Vec RotModel WeightModel ContainerModel ContainerProofs.
Import ListNotations.
Open Scope R_scope.

(** ** C36, C37: bookkeeping of components *)
Section Histories.
Context {G : Type}.
Variable act : G -> vec -> vec.
Variable mul : G -> G -> G.
Variable to_relative : pose G -> vec -> vec.
Variable inter : cobs (G := G) -> cobs (G := G) -> option vec.

(** Histories: one root, then any number of accepted components (none its own parent), moves
    and deformations, the deformation rate may be set at any time. *)
Inductive built : multi (G := G) -> Prop :=
| built_root p o : built (set_root act mul (new_multi p) o)
| built_add m o parent ref m' id : built m ->
    add_component act mul to_relative inter m o parent ref = (m', Ok id) -> parent <> id -> built m'
| built_move m p : built m -> built (update_pose act mul m p)
| built_rate m r : built m ->
    built (mkMulti (m_pose m) (m_locals m) (m_list m) (m_rootid m) (m_graph m) r)
| built_deform m s : built m -> built (update_deformation act mul m s).

Lemma built_tree m : built m -> component_tree m /\ follows act mul m.
Proof.
  induction 1 as [p o|m o parent ref m' id B IH E Np|m p B IH|m r B IH|m s B IH].
  - split; [apply tree_root|]. repeat constructor.
  - destruct IH as [T F]. destruct (tree_add _ _ _ _ _ _ _ _ _ _ T E Np) as (T' & _ & _ & _ & _ & r & El & Ep & _ & Eo).
    split; auto. unfold follows in *. rewrite El, Ep, Eo. apply Forall2_app; auto.
  - destruct IH as [T F]. split.
    + destruct T. constructor; unfold update_pose, n_components in *; cbn [m_list m_locals m_rootid m_graph] in *; rewrite ?zip_with_length; auto.
    + unfold follows. cbn [update_pose m_pose m_locals m_list]. apply follows_zip; [intros l o _; reflexivity|].
      apply (ct_locals _ T).
  - destruct IH as [T F]. split; [destruct T; constructor; auto|exact F].
  - unfold update_deformation. destruct (m_rate m) as [rt|]; auto. destruct IH as [T F]. split.
    + destruct T. constructor; unfold n_components in *; cbn [m_list m_locals m_rootid m_graph] in *;
        rewrite ?zip_with_length, ?scale_locals_length; auto.
    + unfold follows. cbn [m_pose m_locals m_list]. apply follows_zip; [intros l o _; reflexivity|].
      rewrite scale_locals_length. apply (ct_locals _ T).
Qed.

(** The chain of parents of a component. *)
Inductive ancestry (m : multi (G := G)) : Z -> list Z -> Prop :=
| anc_root i : get_parent_idx m i = Ok None -> ancestry m i [i]
| anc_step i p l : get_parent_idx m i = Ok (Some p) -> ancestry m p l -> ancestry m i (i :: l).

Theorem C36_component_tree_partial m : built m ->
  let n := Z.of_nat (n_components m) in
  length (m_locals m) = n_components m /\ (0 < n)%Z /\
  (forall i, In i (map fst (g_nodes (m_graph m))) <-> (0 <= i < n)%Z) /\
  get_parent_idx m 0 = Ok None /\
  (forall i, (0 < i < n)%Z -> exists p, (0 <= p < i)%Z /\ get_parent_idx m i = Ok (Some p) /\
      (forall q, In (q, i) (g_edges (m_graph m)) <-> q = p)) /\
  (forall p cs i, In (p, cs) (g_nodes (m_graph m)) -> (0 < i < n)%Z ->
      (In i cs <-> get_parent_idx m i = Ok (Some p))) /\
  (forall i, (0 <= i < n)%Z -> exists l, ancestry m i l /\ last l 1%Z = 0%Z /\ (Z.of_nat (length l) <= i + 1)%Z).
Proof.
  intros B. destruct (built_tree m B) as [T _]. simpl. pose proof (ct_some _ T) as Pos.
  assert (R : get_parent_idx m 0 = Ok None) by (unfold get_parent_idx; rewrite (ct_root _ T); reflexivity).
  split; [apply (ct_locals _ T)|]. split; [lia|]. split; [|split; [exact R|split; [|split]]].
  - intros i. rewrite (ct_nodes _ T), in_zseq. simpl. tauto.
  - intros i Hi. destruct (tree_parent_inv m T i Hi) as (p & I & E & L). exists p. split; [auto|split; [auto|]].
    intros q. split; [|intros ->; auto]. intros Iq. pose proof (tree_parent m T q i Iq). congruence.
  - intros p cs i I Hi. rewrite (ct_children _ T p cs I). rewrite in_map_iff. split.
    + intros ((q, y) & <- & J). apply filter_In in J. destruct J as [J Q]. simpl in Q. apply Z.eqb_eq in Q. subst q.
      apply (tree_parent m T p y J).
    + intros E. destruct (tree_parent_inv m T i Hi) as (q & J & E' & _). assert (q = p) by congruence. subst q.
      exists (p, i). split; auto. apply filter_In. split; auto. apply Z.eqb_refl.
  - intros i Hi. remember (Z.to_nat i) as k eqn:Ek. revert i Hi Ek.
    induction k as [k IH] using lt_wf_ind. intros i Hi Ek.
    destruct (Z.eq_dec i 0) as [->|Ne].
    + exists [0%Z]. split; [constructor; auto|]. simpl. split; [auto|lia].
    + destruct (tree_parent_inv m T i ltac:(lia)) as (p & I & E & L).
      destruct (IH (Z.to_nat p) ltac:(lia) p ltac:(lia) eq_refl) as (l & A & La & Le).
      exists (i :: l). split; [econstructor; eauto|]. split; [|simpl length; lia].
      destruct l; [inversion A|]. exact La.
Qed.
(** The new component hangs below the given parent, earlier ones keep theirs. *)
Theorem C36_add_parent m o parent ref m' id : built m ->
  add_component act mul to_relative inter m o parent ref = (m', Ok id) -> parent <> id ->
  n_components m' = S (n_components m) /\ id = Z.of_nat (n_components m) /\
  get_parent_idx m' id = Ok (Some parent) /\
  forall i, (0 <= i < id)%Z -> get_parent_idx m' i = get_parent_idx m i.
Proof.
  intros B E Np. destruct (built_tree m B) as [T _].
  destruct (tree_add _ _ _ _ _ _ _ _ _ _ T E Np) as (T' & Ei & En & Lp & Eg & _).
  split; [auto|split; [auto|split]].
  - apply (tree_parent m' T'). rewrite Eg. apply in_app_iff. right. left. auto.
  - intros i Hi. destruct (Z.eq_dec i 0) as [->|Ne].
    + unfold get_parent_idx. rewrite (ct_root _ T), (ct_root _ T'). reflexivity.
    + destruct (tree_parent_inv m T i ltac:(lia)) as (p & I & E' & L). rewrite E'.
      apply (tree_parent m' T'). rewrite Eg. apply in_app_iff. auto.
Qed.
(** Without explicit reference point the parent is another component. *)
Theorem C36_without_reference m o parent m' id : built m ->
  add_component act mul to_relative inter m o parent None = (m', Ok id) -> parent <> id.
Proof.
  intros B E Np. unfold add_component in E. subst parent.
  destruct (py_nth (m_list m) id) as [p|] eqn:Ep; cbn [bind] in E; [|discriminate].
  destruct (inter o p); [|discriminate].
  destruct (g_append_child _ _ _); [|discriminate].
  injection E as <- <-. unfold py_nth in Ep.
  assert (Q : py_index (length (m_list m)) (Z.of_nat (length (m_list m))) = None).
  { unfold py_index. rewrite Z.ltb_irrefl, andb_false_r.
    replace (Z.of_nat (length (m_list m)) <? 0)%Z with false by (symmetry; apply Z.ltb_ge; lia). rewrite andb_false_r. auto. }
  rewrite Q in Ep. discriminate.
Qed.

(** ** C37 *)
(** Insertions refused before the obstacle is stored leave everything as it was. *)
Theorem C37_rejected_unchanged_partial m o parent m' e :
  (forall p, py_nth (m_list m) parent = Ok p -> inter o p = None) ->
  add_component act mul to_relative inter m o parent None = (m', Err e) -> m' = m.
Proof.
  intros H E. unfold add_component in E. destruct (py_nth (m_list m) parent) as [p|]; cbn [bind] in E.
  - rewrite (H p eq_refl) in E. congruence.
  - congruence.
Qed.
Lemma unknown_parent m o parent r : built m -> (parent < 0 \/ Z.of_nat (n_components m) < parent)%Z ->
  exists m', add_component act mul to_relative inter m o parent (Some r) = (m', Err EKey) /\
    n_components m' = S (n_components m) /\ length (m_locals m') = S (length (m_locals m)) /\
    get_parent_idx m' (Z.of_nat (n_components m)) = Err EIndex.
Proof.
  intros B H. destruct (built_tree m B) as [T _]. unfold add_component. cbn [m_graph m_list].
  set (new := Z.of_nat (length (m_list m))).
  assert (New : ~ In new (map fst (g_nodes (m_graph m)))).
  { rewrite (ct_nodes _ T), in_zseq. unfold new, n_components. lia. }
  assert (E1 : g_nodes (g_add_node (m_graph m) new) = g_nodes (m_graph m) ++ [(new, [])]).
  { unfold g_add_node. cbn [g_nodes]. apply set_attr_fst_new. auto. }
  assert (No : g_attr (g_add_node (m_graph m) new) parent = None).
  { apply g_attr_none. rewrite E1, map_app, in_app_iff, (ct_nodes _ T), in_zseq. simpl. unfold new, n_components in *. lia. }
  unfold g_append_child. rewrite No. eexists. split; [reflexivity|].
  unfold n_components. cbn [m_list m_locals]. rewrite !app_length. cbn [length]. split; [lia|]. split; [lia|].
  unfold get_parent_idx. cbn [m_rootid m_graph]. rewrite (ct_root _ T). pose proof (ct_some _ T) as P. unfold n_components in P.
  destruct (Z.eqb_spec (Z.of_nat (length (m_list m))) 0); [lia|]. fold new. unfold predecessors.
  assert (So : g_attr (g_add_node (m_graph m) new) new = Some []).
  { apply g_attr_in.
    - rewrite E1, map_app. simpl. apply nodup_app_intro; [apply tree_nodup; auto|repeat constructor; auto|].
      intros x I [<-|[]]. auto.
    - rewrite E1. apply in_app_iff. right. left. auto. }
  rewrite So. unfold g_add_node. cbn [g_edges bind].
  assert (Fn : filter (fun e : Z * Z => (new =? snd e)%Z) (g_edges (m_graph m)) = []); [|rewrite Fn; reflexivity].
  assert (K : forall e, In e (g_edges (m_graph m)) -> snd e <> new).
  { intros e I Q. assert (J : In new (map snd (g_edges (m_graph m)))) by (apply in_map_iff; exists e; auto).
    rewrite (ct_edges _ T), in_zseq in J. unfold new, n_components in *. lia. }
  clear - K. induction (g_edges (m_graph m)) as [|e l IH]; simpl; auto.
  pose proof (K e (or_introl eq_refl)). destruct (Z.eqb_spec new (snd e)); [exfalso; auto|]. apply IH. intros; apply K; right; auto.
Qed.
End Histories.

(** Orientations of the plane: [(c, s)] for cosine and sine. *)
Definition rot2 (g : R * R) (v : vec) : vec :=
  match v with
  | [x; y] => [fst g * x - snd g * y; snd g * x + fst g * y]
  | _ => v
  end.
Definition mul2 (g h : R * R) : R * R := (fst g * fst h - snd g * snd h, snd g * fst h + fst g * snd h).
Definition to_rel2 (p : pose (R * R)) (x : vec) : vec := rot2 (fst (p_rot p), - snd (p_rot p)) (vsub x (p_pos p)).
Definition centre_inter (o p : cobs (G := R * R)) : option vec := Some (p_pos (o_pose p)).
Definition disc (x y : R) : cobs (G := R * R) := mkCObs (mkPose [x; y] (1, 0)) [2; 2] [0; 0].

(** Unknown parents: KeyError, but the component stays, without parent. *)
Theorem C37_rejected_unchanged_refuted :
  exists m o parent r m', built rot2 mul2 to_rel2 centre_inter m /\
    add_component rot2 mul2 to_rel2 centre_inter m o parent (Some r) = (m', Err EKey) /\
    n_components m' <> n_components m /\ get_parent_idx m' (Z.of_nat (n_components m)) = Err EIndex.
Proof.
  assert (B : built rot2 mul2 to_rel2 centre_inter (set_root rot2 mul2 (new_multi (mkPose [0; 0] (1, 0))) (disc 0 0))) by constructor.
  destruct (unknown_parent rot2 mul2 to_rel2 centre_inter _ (disc 1 0) 7 [0; 0] B) as (m' & E & N & _ & P).
  - right. simpl. lia.
  - eexists _, _, _, _, m'. split; [exact B|]. split; [exact E|]. split; [rewrite N; lia|exact P].
Qed.
(** With an explicit reference point a component may become its own parent. *)
Theorem C36_component_tree_refuted :
  exists m o r m' id, built rot2 mul2 to_rel2 centre_inter m /\
    add_component rot2 mul2 to_rel2 centre_inter m o id (Some r) = (m', Ok id) /\
    get_parent_idx m' id = Ok (Some id) /\ forall l, ~ ancestry m' id l.
Proof.
  exists (set_root rot2 mul2 (new_multi (mkPose [0; 0] (1, 0))) (disc 0 0)), (disc 1 0), [0; 0].
  eexists _, 1%Z. split; [constructor|]. split; [reflexivity|]. split; [reflexivity|].
  intros l. induction l as [|a l IH]; intros H; inversion H; subst.
  - discriminate.
  - match goal with E : get_parent_idx _ _ = Ok (Some ?p) |- _ => change (Ok (Some 1%Z) = Ok (Some p)) in E; injection E as <- end. auto.
Qed.
(** Root, a child below it and a grandchild. *)
Example C36_case : exists m m1 m2, m = set_root rot2 mul2 (new_multi (mkPose [3; 1] (1, 0))) (disc 0 0) /\
  add_component rot2 mul2 to_rel2 centre_inter m (disc 1 0) 0 (Some [0; 0]) = (m1, Ok 1%Z) /\
  add_component rot2 mul2 to_rel2 centre_inter m1 (disc 2 0) 1 None = (m2, Ok 2%Z) /\
  built rot2 mul2 to_rel2 centre_inter m2 /\ ancestry m2 2 [2; 1; 0]%Z.
Proof.
  set (m := set_root rot2 mul2 (new_multi (mkPose [3; 1] (1, 0))) (disc 0 0)).
  set (m1 := fst (add_component rot2 mul2 to_rel2 centre_inter m (disc 1 0) 0 (Some [0; 0]))).
  set (m2 := fst (add_component rot2 mul2 to_rel2 centre_inter m1 (disc 2 0) 1 None)).
  exists m, m1, m2. split; [reflexivity|]. split; [reflexivity|]. split; [reflexivity|]. split.
  - apply (built_add _ _ _ _ m1 (disc 2 0) 1 None m2 2%Z); [|reflexivity|lia].
    apply (built_add _ _ _ _ m (disc 1 0) 0 (Some [0; 0]) m1 1%Z); [apply built_root|reflexivity|lia].
  - eapply anc_step; [reflexivity|]. eapply anc_step; [reflexivity|]. apply anc_root. reflexivity.
Qed.
Example C37_case : exists m, built rot2 mul2 to_rel2 (fun _ _ => None) m /\
  add_component rot2 mul2 to_rel2 (fun _ _ => None) m (disc 1 0) 0 None = (m, Err EValue).
Proof.
  exists (set_root rot2 mul2 (new_multi (mkPose [3; 1] (1, 0))) (disc 0 0)). split; [constructor|reflexivity].
Qed.

(** ** C38: gamma and collisions *)
Section Gammas.
Context {G : Type}.
Variable gamma : cobs (G := G) -> vec -> R.
Notation get_gamma := (get_gamma gamma).
Notation is_collision_free := (is_collision_free gamma).

Lemma get_gamma_spec m x : m_list m <> [] ->
  exists g, get_gamma m x = Ok g /\ (exists o, In o (m_list m) /\ gamma o x = g) /\
    forall o, In o (m_list m) -> g <= gamma o x.
Proof.
  intros H. destruct (min_of_spec (map (fun o => gamma o x) (m_list m))) as (g & E & I & L).
  - destruct (m_list m); [easy|discriminate].
  - exists g. split; auto. split.
    + apply in_map_iff in I. destruct I as (o & E' & I). eauto.
    + intros o J. apply L. apply in_map_iff. eauto.
Qed.
Theorem C38_collision_free m x : m_list m <> [] ->
  exists g b, get_gamma m x = Ok g /\ is_collision_free m x = Ok b /\ (b = true <-> 1 < g) /\
    (b = true <-> forall o, In o (m_list m) -> 1 < gamma o x).
Proof.
  intros H. destruct (get_gamma_spec m x H) as (g & E & (o & I & Eo) & L). exists g, (Rltb 1 g).
  unfold ContainerModel.is_collision_free. rewrite E. cbn [bind]. split; [auto|split; [auto|]]. rewrite Rltb_true. split; [tauto|]. split.
  - intros Lt o' J. specialize (L o' J). lra.
  - intros A. rewrite <- Eo. auto.
Qed.
(** An obstacle without components has no gamma. *)
Theorem C38_no_components m x : m_list m = [] ->
  get_gamma m x = Err EValue /\ is_collision_free m x = Err EValue.
Proof.
  intros H. unfold ContainerModel.is_collision_free, ContainerModel.get_gamma. rewrite H. auto.
Qed.
Lemma in_enumerate {A} (l : list A) k a : In (k, a) (combine (seq 0 (length l)) l) <-> nth_error l k = Some a.
Proof. rewrite nth_error_enum, Nat.sub_0_r. split; [tauto|]. intros; split; [lia|auto]. Qed.
Theorem C38_excluding_components m x ex :
  ((forall k o, nth_error (m_list m) k = Some o -> In (Z.of_nat k) ex) /\ get_gamma_except gamma m x ex = Err EValue) \/
  exists g g', get_gamma m x = Ok g /\ get_gamma_except gamma m x ex = Ok g' /\ g <= g' /\
    (exists k o, nth_error (m_list m) k = Some o /\ ~ In (Z.of_nat k) ex /\ g' = gamma o x) /\
    (forall k o, nth_error (m_list m) k = Some o -> ~ In (Z.of_nat k) ex -> g' <= gamma o x).
Proof.
  unfold get_gamma_except. set (rest := filter _ _).
  assert (S : forall k o, In (k, o) rest <-> nth_error (m_list m) k = Some o /\ ~ In (Z.of_nat k) ex).
  { intros k o. unfold rest. rewrite filter_In, in_enumerate. cbn [fst]. rewrite negb_true_iff.
    assert (X : existsb (Z.eqb (Z.of_nat k)) ex = false <-> ~ In (Z.of_nat k) ex); [|tauto].
    split.
    - intros F I. assert (existsb (Z.eqb (Z.of_nat k)) ex = true); [|congruence]. apply existsb_exists. exists (Z.of_nat k).
      split; auto. apply Z.eqb_refl.
    - intros N. destruct (existsb _ ex) eqn:Q; auto. exfalso. apply existsb_exists in Q. destruct Q as (y & I & Q).
      apply Z.eqb_eq in Q. subst. auto. }
  destruct rest as [|e rest'] eqn:Er.
  - left. split; auto. intros k o E. destruct (in_dec Z.eq_dec (Z.of_nat k) ex) as [I|N]; auto.
    exfalso. assert (J : In (k, o) []) by (apply S; auto). destruct J.
  - right. rewrite <- Er in *.
    destruct (min_of_spec (map (fun io => gamma (snd io) x) rest)) as (g' & E & I & L).
    { rewrite Er. discriminate. }
    apply in_map_iff in I. destruct I as ((k0, o0) & Eg & I). apply S in I. destruct I as [I N]. simpl in Eg.
    destruct (get_gamma_spec m x) as (g & Eg0 & _ & L0).
    { destruct (m_list m); [destruct k0; discriminate|discriminate]. }
    exists g, g'. split; [auto|split; [auto|split; [|split]]].
    + rewrite <- Eg. apply L0. apply nth_error_In with (1 := I).
    + exists k0, o0. auto.
    + intros k o E1 N1. apply L. apply in_map_iff. exists (k, o). split; auto. apply S. auto.
Qed.
Theorem C38_container l x : (forall m, In m l -> m_list m <> []) ->
  exists b, container_collision_free gamma l x = Ok b /\
    (b = true <-> forall m o, In m l -> In o (m_list m) -> 1 < gamma o x) /\
    (l <> [] -> exists g, container_gamma gamma l x = Ok g /\ (b = true <-> 1 < g)).
Proof.
  intros H.
  assert (A : exists b, container_collision_free gamma l x = Ok b /\
    (b = true <-> forall m o, In m l -> In o (m_list m) -> 1 < gamma o x)).
  { induction l as [|m l IH]; simpl.
    - exists true. split; auto. split; auto. intros _ m o [].
    - destruct (C38_collision_free m x (H m (or_introl eq_refl))) as (g & b & E1 & E2 & _ & Hb). rewrite E2. cbn [bind].
      destruct (IH (fun m' I => H m' (or_intror I))) as (b' & E3 & Hb'). destruct b.
      + exists b'. split; auto. rewrite Hb'. split.
        * intros Q m' o [<-|I] J; [apply Hb; auto|eapply Q; eauto].
        * intros Q m' o I J. eapply Q; eauto.
      + exists false. split; auto. split; [discriminate|]. intros Q. apply Hb. intros o J. eapply Q; eauto. }
  destruct A as (b & E & Hb). exists b. split; [auto|split; [auto|]]. intros Ne. unfold container_gamma.
  assert (M : exists gs, mapM (fun m => get_gamma m x) l = Ok gs /\ length gs = length l /\
     forall k m, nth_error l k = Some m -> exists g, nth_error gs k = Some g /\ get_gamma m x = Ok g).
  { clear - H. induction l as [|m l IH]; simpl.
    - exists []. split; [auto|split; [auto|]]. intros [|k] m E; discriminate.
    - destruct (get_gamma_spec m x (H m (or_introl eq_refl))) as (g & E & _). rewrite E. cbn [bind].
      destruct (IH (fun m' I => H m' (or_intror I))) as (gs & E' & L & N). rewrite E'. cbn [bind].
      exists (g :: gs). split; [auto|split; [simpl; lia|]]. intros [|k] m' Ek; simpl in *; [injection Ek as <-; eauto|auto]. }
  destruct M as (gs & E' & L & N). rewrite E'. cbn [bind].
  destruct (min_of_spec gs) as (g & Eg & I & Lo); [destruct gs; [destruct l; [easy|discriminate]|discriminate]|].
  exists g. split; auto. rewrite Hb. split.
  - intros Q. apply In_nth_error in I. destruct I as (k & Ik).
    destruct (nth_error l k) as [m|] eqn:Em; [|apply nth_error_None in Em; assert (k < length gs)%nat by (apply nth_error_Some; congruence); lia].
    destruct (N k m Em) as (g' & Eg' & Em'). assert (g' = g) by congruence. subst g'.
    destruct (get_gamma_spec m x (H m (nth_error_In _ _ Em))) as (g2 & Eq & (o & Io & Eo) & _). assert (G2 : g2 = g) by congruence.
    rewrite <- G2, <- Eo. eapply Q; [apply nth_error_In with (1 := Em)|auto].
  - intros Lt m o Im Io. apply In_nth_error in Im. destruct Im as (k & Em). destruct (N k m Em) as (g' & Eg' & Em').
    pose proof (Lo g' (nth_error_In _ _ Eg')).
    destruct (get_gamma_spec m x) as (g2 & Eq & _ & L2); [intros Z0; rewrite Z0 in Io; contradiction|].
    assert (g2 = g') by congruence. subst. specialize (L2 o Io). lra.
Qed.
(** The empty container is free everywhere, its gamma is an error. *)
Theorem C38_empty_container x : container_collision_free gamma [] x = Ok true /\ container_gamma gamma [] x = Err EValue.
Proof. split; reflexivity. Qed.
End Gammas.
(** Gamma of a disc in the plane by its squared distance. *)
Definition disc_gamma (o : cobs (G := R * R)) (x : vec) : R :=
  dot (vsub x (p_pos (o_pose o))) (vsub x (p_pos (o_pose o))).
Definition two_discs : multi (G := R * R) :=
  mkMulti (mkPose [0; 0] (1, 0)) [] [disc 0 0; disc 4 0] 0 g_empty None.
Example C38_case : is_collision_free disc_gamma two_discs [2; 0] = Ok true /\
  is_collision_free disc_gamma two_discs [7/2; 0] = Ok false /\
  get_gamma_except disc_gamma two_discs [1; 0] [0%Z] = Ok 9 /\
  get_gamma_except disc_gamma two_discs [1; 0] [0%Z; 1%Z] = Err EValue.
Proof.
  unfold is_collision_free, get_gamma, get_gamma_except, two_discs, disc_gamma, vsub, min_of, rmin_list. simpl.
  repeat split.
  - f_equal. apply Rltb_true. apply Rmin_glb_lt; lra.
  - f_equal. apply Rltb_false. unfold Rmin. destruct (Rle_dec _ _); lra.
  - f_equal. lra.
Qed.

(** ** C39: rigid motion *)
(** [act] turns vectors of dimension [n] linearly and without changing lengths. *)
Record rigid_action {G} (n : nat) (act : G -> vec -> vec) (mul : G -> G -> G) : Prop := {
  ra_length : forall g v, length v = n -> length (act g v) = n;
  ra_add : forall g u v, length u = n -> length v = n -> act g (vadd u v) = vadd (act g u) (act g v);
  ra_scale : forall g c v, length v = n -> act g (vscale c v) = vscale c (act g v);
  ra_dot : forall g u v, length u = n -> length v = n -> dot (act g u) (act g v) = dot u v;
  ra_mul : forall g h v, length v = n -> act (mul g h) v = act g (act h v)
}.
Section Rigid.
Context {G : Type}.
Variable n : nat.
Variable act : G -> vec -> vec.
Variable mul : G -> G -> G.
Variable to_relative : pose G -> vec -> vec.
Variable inter : cobs (G := G) -> cobs (G := G) -> option vec.
Hypothesis RA : rigid_action n act mul.
Notation built := (built act mul to_relative inter).

(** Every component is placed by the pose of the obstacle and its own local pose. *)
Theorem C39_component_poses m : built m -> length (m_list m) = length (m_locals m) /\
  forall k l o, nth_error (m_locals m) k = Some l -> nth_error (m_list m) k = Some o ->
    p_pos (o_pose o) = vadd (act (p_rot (m_pose m)) (p_pos l)) (p_pos (m_pose m)) /\
    p_rot (o_pose o) = mul (p_rot (m_pose m)) (p_rot l).
Proof.
  intros B. destruct (built_tree _ _ _ _ m B) as [T F]. split; [symmetry; apply (ct_locals _ T)|].
  unfold follows in F. induction F as [|l0 o0 ls os E F IH]; intros [|k] l o; simpl; try discriminate.
  - intros E1 E2. injection E1 as <-. injection E2 as <-. rewrite E. auto.
  - intros E1 E2. eapply IH; eauto.
Qed.
(** Point [x] of the frame of component [k], in global coordinates. *)
Definition body_point (m : multi (G := G)) (k : nat) (x : vec) : option vec :=
  option_map (fun o => vadd (act (p_rot (o_pose o)) x) (p_pos (o_pose o))) (nth_error (m_list m) k).
Lemma global_point (m : multi (G := G)) k x l : built m -> nth_error (m_locals m) k = Some l ->
  length x = n -> length (p_pos l) = n -> length (p_pos (m_pose m)) = n ->
  body_point m k x = Some (vadd (act (p_rot (m_pose m)) (vadd (act (p_rot l) x) (p_pos l))) (p_pos (m_pose m))).
Proof.
  intros B E Lx Ll Lp. destruct (C39_component_poses m B) as [Le C]. unfold body_point.
  destruct (nth_error (m_list m) k) as [o|] eqn:Eo.
  - destruct (C k l o E Eo) as [E1 E2]. simpl. rewrite E1, E2, (ra_mul _ _ _ RA), (ra_add _ _ _ RA) by (auto; apply (ra_length _ _ _ RA); auto).
    f_equal. pose proof (ra_length _ _ _ RA (p_rot (m_pose m)) _ Ll).
    pose proof (ra_length _ _ _ RA (p_rot (m_pose m)) _ (ra_length _ _ _ RA (p_rot l) _ Lx)). vext. ring.
  - apply nth_error_None in Eo. assert (k < length (m_locals m))%nat by (apply nth_error_Some; congruence). lia.
Qed.
Lemma placed_distance g p u v : length u = n -> length v = n -> length p = n ->
  norm (vsub (vadd (act g u) p) (vadd (act g v) p)) = norm (vsub u v).
Proof.
  intros Lu Lv Lp. pose proof (ra_length _ _ _ RA g _ Lu). pose proof (ra_length _ _ _ RA g _ Lv).
  replace (vsub (vadd (act g u) p) (vadd (act g v) p)) with (act g (vsub u v)).
  - unfold norm. rewrite (ra_dot _ _ _ RA); auto; rewrite length_vsub; lia.
  - unfold vsub. rewrite (ra_add _ _ _ RA), (ra_scale _ _ _ RA) by (auto; rewrite length_vscale; auto). vext. ring.
Qed.
(** Moving the obstacle keeps the distances between all points of all components, for any number
    of moves. *)
Inductive moved : multi (G := G) -> multi (G := G) -> Prop :=
| moved_none m : moved m m
| moved_step m m' p : moved m m' -> length (p_pos p) = n -> moved m (update_pose act mul m' p).
Theorem C39_rigid m m' : built m -> moved m m' -> length (p_pos (m_pose m)) = n ->
  (forall l, In l (m_locals m) -> length (p_pos l) = n) ->
  n_components m' = n_components m /\
  forall i j x y a b a' b', length x = n -> length y = n ->
    body_point m i x = Some a -> body_point m j y = Some b ->
    body_point m' i x = Some a' -> body_point m' j y = Some b' ->
    norm (vsub a' b') = norm (vsub a b).
Proof.
  intros B M Lp Ll.
  assert (S : built m' /\ m_locals m' = m_locals m /\ length (p_pos (m_pose m')) = n).
  { induction M as [m|m m' p M IH L]; auto. destruct (IH B Lp Ll) as (B' & E & _).
    split; [constructor; auto|]. split; auto. }
  destruct S as (B' & El & Lp'). destruct (C39_component_poses m B) as [Le _]. destruct (C39_component_poses m' B') as [Le' _].
  split; [unfold n_components; congruence|]. intros i j x y a b a' b' Lx Ly Ea Eb Ea' Eb'.
  assert (N : forall k z w, body_point m k z = Some w -> exists l, nth_error (m_locals m) k = Some l /\ length (p_pos l) = n).
  { intros k z w E. unfold body_point in E. destruct (nth_error (m_list m) k) as [o|] eqn:Eo; [|discriminate].
    destruct (nth_error (m_locals m) k) as [l|] eqn:Ek.
    - exists l. split; auto. apply Ll. apply nth_error_In with (1 := Ek).
    - apply nth_error_None in Ek. assert (k < length (m_list m))%nat by (apply nth_error_Some; congruence). lia. }
  destruct (N i x a Ea) as (li & Ei & Di). destruct (N j y b Eb) as (lj & Ej & Dj).
  assert (Pl : forall l z, length (p_pos l) = n -> length z = n -> length (vadd (act (p_rot l) z) (p_pos l)) = n).
  { intros l z L1 L2. rewrite length_vadd, (ra_length _ _ _ RA) by auto. lia. }
  rewrite (global_point m i x li) in Ea by auto. rewrite (global_point m j y lj) in Eb by auto.
  rewrite (global_point m' i x li) in Ea' by (auto; rewrite El; auto).
  rewrite (global_point m' j y lj) in Eb' by (auto; rewrite El; auto).
  injection Ea as <-. injection Eb as <-. injection Ea' as <-. injection Eb' as <-.
  rewrite !placed_distance by auto. reflexivity.
Qed.
(** A deformation step scales distances between component centres and all axes by the same
    factor. *)
Theorem C39_deformation m s r : built m -> m_rate m = Some r -> length (p_pos (m_pose m)) = n ->
  (forall l, In l (m_locals m) -> length (p_pos l) = n) ->
  let m' := update_deformation act mul m s in
  n_components m' = n_components m /\ m_pose m' = m_pose m /\
  (forall i o o', nth_error (m_list m) i = Some o -> nth_error (m_list m') i = Some o' ->
     o_axes o' = vscale (1 + r * s) (o_axes o) /\ p_rot (o_pose o') = p_rot (o_pose o)) /\
  (forall i j oi oj oi' oj', nth_error (m_list m) i = Some oi -> nth_error (m_list m) j = Some oj ->
     nth_error (m_list m') i = Some oi' -> nth_error (m_list m') j = Some oj' ->
     norm (vsub (p_pos (o_pose oi')) (p_pos (o_pose oj'))) =
     Rabs (1 + r * s) * norm (vsub (p_pos (o_pose oi)) (p_pos (o_pose oj)))).
Proof.
  intros B Er Lp Ll. simpl. pose proof (built_deform _ _ _ _ m s B) as B'.
  destruct (C39_component_poses m B) as [Le C]. destruct (C39_component_poses _ B') as [Le' C'].
  assert (El : m_locals (update_deformation act mul m s) = map (fun p => mkPose (vscale (1 + r * s) (p_pos p)) (p_rot p)) (m_locals m)).
  { unfold update_deformation. rewrite Er. cbn [m_locals]. apply scale_locals_map. auto. }
  assert (Ep : m_pose (update_deformation act mul m s) = m_pose m) by (unfold update_deformation; rewrite Er; auto).
  assert (Ln : length (m_list (update_deformation act mul m s)) = length (m_list m)).
  { rewrite Le', El, map_length. auto. }
  assert (Loc : forall k o, nth_error (m_list m) k = Some o -> exists l, nth_error (m_locals m) k = Some l /\ length (p_pos l) = n).
  { intros k o E. destruct (nth_error (m_locals m) k) as [l|] eqn:Ek.
    - exists l. split; auto. apply Ll. apply nth_error_In with (1 := Ek).
    - apply nth_error_None in Ek. assert (k < length (m_list m))%nat by (apply nth_error_Some; congruence). lia. }
  split; [exact Ln|split; [auto|split]].
  - intros i o o' E E'. destruct (Loc i o E) as (l & Ek & Dl).
    destruct (C i l o Ek E) as [_ R1]. destruct (C' i (mkPose (vscale (1 + r * s) (p_pos l)) (p_rot l)) o') as [_ R2]; auto.
    { rewrite El. rewrite nth_error_map, Ek. auto. }
    split; [|rewrite R1, R2, Ep; auto]. unfold update_deformation in E'. rewrite Er in E'. cbn [m_list] in E'.
    revert E E'. assert (Lz : length (scale_locals (1 + r * s) (m_locals m) (m_list m)) = length (m_list m)) by (rewrite scale_locals_length; auto).
    generalize dependent (scale_locals (1 + r * s) (m_locals m) (m_list m)). clear. intros ls. revert ls i.
    induction (m_list m) as [|a os IH]; intros [|l ls] [|i] L; simpl in *; try discriminate.
    + intros E1 E2. injection E1 as <-. injection E2 as <-. auto.
    + apply IH. lia.
  - intros i j oi oj oi' oj' Ei Ej Ei' Ej'. destruct (Loc i oi Ei) as (li & Ki & Di). destruct (Loc j oj Ej) as (lj & Kj & Dj).
    destruct (C i li oi Ki Ei) as [P1 _]. destruct (C j lj oj Kj Ej) as [P2 _].
    destruct (C' i (mkPose (vscale (1 + r * s) (p_pos li)) (p_rot li)) oi') as [P3 _]; auto.
    { rewrite El, nth_error_map, Ki. auto. }
    destruct (C' j (mkPose (vscale (1 + r * s) (p_pos lj)) (p_rot lj)) oj') as [P4 _]; auto.
    { rewrite El, nth_error_map, Kj. auto. }
    simpl in P3, P4. rewrite Ep in P3, P4. rewrite P1, P2, P3, P4.
    rewrite !placed_distance by (auto; rewrite length_vscale; auto).
    replace (vsub (vscale (1 + r * s) (p_pos li)) (vscale (1 + r * s) (p_pos lj))) with (vscale (1 + r * s) (vsub (p_pos li) (p_pos lj))) by (vext; ring).
    apply norm_vscale.
Qed.
End Rigid.
(** Rotations of the plane. *)
Definition rotation2 := { g : R * R | fst g * fst g + snd g * snd g = 1 }.
Lemma mul2_unit (g h : rotation2) : fst (mul2 (proj1_sig g) (proj1_sig h)) * fst (mul2 (proj1_sig g) (proj1_sig h)) +
  snd (mul2 (proj1_sig g) (proj1_sig h)) * snd (mul2 (proj1_sig g) (proj1_sig h)) = 1.
Proof.
  destruct g as ((a, b) & E), h as ((c, d) & F). unfold mul2. simpl in *.
  replace ((a * c - b * d) * (a * c - b * d) + (b * c + a * d) * (b * c + a * d)) with ((a * a + b * b) * (c * c + d * d)) by ring.
  rewrite E, F. ring.
Qed.
Example C39_plane : rigid_action 2 (fun g : rotation2 => rot2 (proj1_sig g)) (fun g h => exist _ (mul2 (proj1_sig g) (proj1_sig h)) (mul2_unit g h)).
Proof.
  assert (D : forall v : vec, length v = 2%nat -> exists x y, v = [x; y]).
  { intros [|x [|y [|z v]]] L; try discriminate. eauto. }
  constructor.
  - intros g v L. destruct (D v L) as (x & y & ->). reflexivity.
  - intros g u v Lu Lv. destruct (D u Lu) as (x & y & ->), (D v Lv) as (z & w & ->). simpl.
    apply f_equal2; [ring|apply f_equal2; [ring|auto]].
  - intros g c v L. destruct (D v L) as (x & y & ->). simpl. apply f_equal2; [ring|apply f_equal2; [ring|auto]].
  - intros ((a, b) & E) u v Lu Lv. destruct (D u Lu) as (x & y & ->), (D v Lv) as (z & w & ->). simpl in *.
    replace ((a * x - b * y) * (a * z - b * w) + ((b * x + a * y) * (b * z + a * w) + 0)) with ((a * a + b * b) * (x * z + y * w)) by ring.
    rewrite E. ring.
  - intros ((a, b) & E) ((c, d) & F) v L. destruct (D v L) as (x & y & ->). simpl. apply f_equal2; [ring|apply f_equal2; [ring|auto]].
Qed.
(** A quarter turn of an obstacle with two components. *)
Example C39_case : exists m m1, m = set_root rot2 mul2 (new_multi (mkPose [0; 0] (1, 0))) (disc 0 0) /\
  add_component rot2 mul2 to_rel2 centre_inter m (disc 1 0) 0 (Some [0; 0]) = (m1, Ok 1%Z) /\
  map (fun o => p_pos (o_pose o)) (m_list (update_pose rot2 mul2 m1 (mkPose [5; 5] (0, 1)))) = [[5; 5]; [5; 6]].
Proof.
  eexists _, _. split; [reflexivity|]. split; [reflexivity|]. simpl.
  unfold from_relative. simpl. apply f_equal2; [|apply f_equal2; auto]; (apply f_equal2; [ring|apply f_equal2; [ring|auto]]).
Qed.

(** ** C40: multi boundaries *)
(** Histories of appends; the first element is not chained. *)
Inductive boundary_history : mboundary -> Prop :=
| bh_empty : boundary_history mb_empty
| bh_append c g parent c' : boundary_history c -> (mb_gammas c = [] -> parent <> Some (-1)%Z) ->
    mb_append c g parent = (c', Ok tt) -> boundary_history c'
| bh_extend c child parent c' : boundary_history c -> (0 <= parent < child)%Z -> parent_of c child = (-1)%Z ->
    extend_graph c child parent = (c', Ok tt) -> boundary_history c'.
Lemma history_forest c : boundary_history c -> boundary_forest c.
Proof.
  induction 1 as [|c g parent c' H IH Hp E|c child parent c' H IH Hp Hr E].
  - apply forest_empty.
  - pose proof (forest_grow c g IH) as F1. unfold mb_append in E. cbn [mb_gammas] in E.
    destruct parent as [p|]; [|injection E as <-; auto].
    destruct (Z.eqb_spec p (-1)) as [->|]; [|injection E as <-; auto].
    assert (Ne : (0 < length (mb_gammas c))%nat) by (destruct (mb_gammas c) eqn:Q; [exfalso; apply (Hp eq_refl); auto|simpl; lia]).
    rewrite app_length in E. cbn [length] in E.
    eapply forest_extend in E; [apply E|exact F1|lia|cbn [mb_gammas]; rewrite app_length; cbn [length]; lia|].
    unfold parent_of. cbn [mb_parent]. pose proof (bf_parents _ IH). rewrite app_nth2 by lia.
    replace (Z.to_nat (Z.of_nat (length (mb_gammas c) + 1) - 1) - length (mb_parent c))%nat with O by lia. reflexivity.
  - eapply forest_extend in E; [apply E|auto|lia| |auto].
    unfold extend_graph in E. destruct (py_index (length (mb_parent c)) child) eqn:Q; [|discriminate].
    apply py_index_ok in Q; [|lia]. rewrite (bf_parents _ IH) in Q. lia.
Qed.
Theorem C40_boundary_graph_partial c : boundary_history c ->
  let n := Z.of_nat (length (mb_gammas c)) in
  (forall i, (0 <= i < n)%Z -> parent_of c i = (-1)%Z \/ (0 <= parent_of c i < i)%Z) /\
  (forall p i, (0 <= p < n)%Z -> (In i (children_of c p) <-> (0 <= i < n)%Z /\ parent_of c i = p)) /\
  forall fuel, (length (mb_gammas c) <= fuel)%nat ->
    exists levels, get_level_numbers c fuel = Some levels /\ length levels = length (mb_gammas c) /\
      forall i, (0 <= i < n)%Z ->
        (parent_of c i = (-1)%Z -> nth (Z.to_nat i) levels (-1)%Z = 0%Z) /\
        ((0 <= parent_of c i)%Z ->
           nth (Z.to_nat i) levels (-1)%Z = (nth (Z.to_nat (parent_of c i)) levels (-1) + 1)%Z).
Proof.
  intros H. pose proof (history_forest c H) as F. simpl. split; [apply (bf_smaller _ F)|]. split; [apply (bf_children _ F)|].
  intros fuel L. destruct (levels_spec c fuel F L) as (r & E & Lr & Lv). exists r. split; [auto|split; [auto|]].
  intros i Hi. split.
  - intros P. apply (Lv i O). constructor; auto.
  - intros P. destruct (bf_smaller _ F i Hi) as [Q|Q]; [lia|].
    destruct (has_level_total c F (parent_of c i) ltac:(lia)) as (k & Hk & _).
    rewrite (Lv _ _ Hk), (Lv i (S k)); [lia|]. constructor; auto.
Qed.
(** Chaining puts the new element below the previous one. *)
Theorem C40_chain c g c' : boundary_history c -> mb_gammas c <> [] -> mb_append c g (Some (-1)%Z) = (c', Ok tt) ->
  length (mb_gammas c') = S (length (mb_gammas c)) /\
  parent_of c' (Z.of_nat (length (mb_gammas c))) = (Z.of_nat (length (mb_gammas c)) - 1)%Z.
Proof.
  intros H Ne E. pose proof (history_forest c H) as IH. unfold mb_append in E. cbn [mb_gammas] in E.
  change (Z.eqb (-1) (-1)) with true in E. cbv iota in E.
  assert (Ln : (0 < length (mb_gammas c))%nat) by (destruct (mb_gammas c) eqn:Q; [exfalso; auto|simpl; lia]).
  rewrite app_length in E. cbn [length] in E.
  replace (Z.of_nat (length (mb_gammas c) + 1) - 1)%Z with (Z.of_nat (length (mb_gammas c))) in E by lia.
  replace (Z.of_nat (length (mb_gammas c) + 1) - 2)%Z with (Z.of_nat (length (mb_gammas c)) - 1)%Z in E by lia.
  eapply forest_extend in E; [| apply (forest_grow c g IH)|lia|cbn [mb_gammas]; rewrite app_length; cbn [length]; lia|].
  - destruct E as (_ & Eg & Ep). rewrite Eg. cbn [mb_gammas]. rewrite app_length. cbn [length]. split; [lia|auto].
  - unfold parent_of. cbn [mb_parent]. pose proof (bf_parents _ IH). rewrite app_nth2 by lia.
    rewrite Nat2Z.id. replace (length (mb_gammas c) - length (mb_parent c))%nat with O by lia. reflexivity.
Qed.
Theorem C40_collision_free c x : mb_collision_free c x = true <-> exists g, In g (mb_gammas c) /\ 1 < g x.
Proof.
  unfold mb_collision_free. rewrite existsb_exists. split; intros (g & I & H); exists g; split; auto; apply Rltb_true; auto.
Qed.
(** Chaining the first element makes it its own child; the levels are never found. *)
Theorem C40_boundary_graph_refuted : exists c, (exists g, mb_append mb_empty g (Some (-1)%Z) = (c, Ok tt)) /\
  children_of c 0 = [0%Z] /\ parent_of c 0 = (-1)%Z /\ forall fuel, get_level_numbers c fuel = None.
Proof.
  exists (mkMB [fun _ => 2] [-1]%Z [[0%Z]]). split; [exists (fun _ => 2); reflexivity|]. split; [reflexivity|]. split; [reflexivity|].
  intros fuel. unfold get_level_numbers. simpl.
  assert (K : forall f l ls, level_loop (mkMB [fun _ => 2] [-1]%Z [[0%Z]]) f l [0%Z] ls = None).
  { induction f as [|f IH]; intros l ls; auto. simpl. apply IH. }
  apply K.
Qed.
(** Giving an element a second parent leaves it in the list of the first. *)
Theorem C40_second_parent_refuted : exists c c', boundary_history c /\ extend_graph c 2 0 = (c', Ok tt) /\
  parent_of c' 2 = 0%Z /\ In 2%Z (children_of c' 1).
Proof.
  exists (mkMB [fun _ => 2; fun _ => 2; fun _ => 2] [-1; -1; 1]%Z [[]; [2%Z]; []]). eexists. split.
  - apply (bh_append (mkMB [fun _ => 2; fun _ => 2] [-1; -1]%Z [[]; []]) (fun _ => 2) (Some (-1)%Z)); [|simpl; discriminate|reflexivity].
    apply (bh_append (mkMB [fun _ => 2] [-1]%Z [[]]) (fun _ => 2) None); [|simpl; discriminate|reflexivity].
    apply (bh_append mb_empty (fun _ => 2) None); [constructor|discriminate|reflexivity].
  - split; [reflexivity|]. split; [reflexivity|]. simpl. auto.
Qed.
(** A chain of three and a second root. *)
Example C40_case : exists c, boundary_history c /\ mb_parent c = [-1; 0; 1; -1]%Z /\ get_level_numbers c 4 = Some [0; 1; 2; 0]%Z.
Proof.
  set (g := fun _ : vec => 2).
  exists (mkMB [g; g; g; g] [-1; 0; 1; -1]%Z [[1]; [2]; []; []]%Z). split; [|split; reflexivity].
  apply (bh_append (mkMB [g; g; g] [-1; 0; 1]%Z [[1]; [2]; []]%Z) g None); [|discriminate|reflexivity].
  apply (bh_append (mkMB [g; g] [-1; 0]%Z [[1]; []]%Z) g (Some (-1)%Z)); [|simpl; discriminate|reflexivity].
  apply (bh_append (mkMB [g] [-1]%Z [[]]%Z) g (Some (-1)%Z)); [|simpl; discriminate|reflexivity].
  apply (bh_append mb_empty g None); [constructor|discriminate|reflexivity].
Qed.

(** ** C41: articulated bodies *)
Section Articulated.
Context {G : Type}.
Variable act : G -> vec -> vec.
Variable n : nat.
Hypothesis act_length : forall g v, length v = n -> length (act g v) = n.

(** Bodies with their joints in order of insertion: component [k+1] hangs at joint [k]. *)
Inductive body_history : body (G := G) -> list joint -> Prop :=
| bo_root p name : length (p_pos p) = n -> body_history (body_set_root body_empty p name) []
| bo_add b js p name ref pname pref k b' : body_history b js ->
    length (p_pos p) = n -> length ref = n -> length pref = n ->
    option_map bn_name (nth_error (b_nodes b) k) = Some pname ->
    (forall j, (j < k)%nat -> option_map bn_name (nth_error (b_nodes b) j) <> Some pname) ->
    body_add b p name ref pname pref = (b', Ok tt) -> body_history b' (js ++ [mkJ k ref pref]).
Lemma first_name l name k : forall k0, option_map bn_name (nth_error l k) = Some name ->
  (forall j, (j < k)%nat -> option_map bn_name (nth_error l j) <> Some name) -> find_name l k0 name = Some (k0 + k)%nat.
Proof.
  revert k. induction l as [|x l IH]; intros k k0 E F; [destruct k; discriminate|]. simpl.
  destruct (Z.eqb_spec (bn_name x) name) as [En|Ne].
  - destruct k; [f_equal; lia|]. exfalso. apply (F O); [lia|]. simpl. congruence.
  - destruct k; [simpl in E; congruence|]. rewrite (IH k (S k0)); [f_equal; lia|exact E|].
    intros j Hj. apply (F (S j)). lia.
Qed.
Lemma history_tree b js : body_history b js -> body_tree n b js.
Proof.
  induction 1 as [p name L|b js p name ref pname pref k b' H IH Lp Lr Lf E F A].
  - apply body_root_tree. auto.
  - eapply body_add_tree; eauto. apply (first_name _ _ k O); auto.
Qed.
(** Component [k+1] touches its parent at the joint. *)
Definition joint_closed (poses : list (pose G)) (k : nat) (j : joint) : Prop :=
  exists p q, nth_error poses (S k) = Some p /\ nth_error poses (j_parent j) = Some q /\
    vadd (act (p_rot p) (j_ref j)) (p_pos p) = vadd (act (p_rot q) (j_anchor j)) (p_pos q).
(** [align_obstacle_tree]: nothing happens before the alignment. *)
Theorem C41_alignment_closes_joints b js fuel : body_history b js -> (length js <= fuel)%nat ->
  exists poses, align_tree act get_pose b fuel = Some (Ok poses) /\
    length poses = length (b_poses b) /\
    (forall k j, nth_error js k = Some j -> joint_closed poses k j) /\
    nth_error poses 0 = nth_error (b_poses b) 0 /\
    (forall i, option_map p_rot (nth_error poses i) = option_map p_rot (nth_error (b_poses b) i)).
Proof.
  intros H L. pose proof (history_tree b js H) as T. pose proof (bt_count _ _ _ T) as Lc.
  destruct (align_tree_closes act n act_length b js T get_pose) with
    (K := fun poses => nth_error poses 0 = nth_error (b_poses b) 0 /\
            forall i, option_map p_rot (nth_error poses i) = option_map p_rot (nth_error (b_poses b) i)) (Q := fun (_ : nat) (_ : pose G) (_ : G) => True) (fuel := fuel)
    as (poses & E & Gd & (K0 & K1) & C); auto; try lia.
  - intros poses i Gd Hi. destruct (nth_error_good n b poses i Gd ltac:(lia)) as (p & Ep & Lp).
    exists p. unfold get_pose. rewrite Nat2Z.id, Ep. auto.
  - intros poses i p v [Gl _] Hi [K0 K1] Ep Lv. unfold get_pose in Ep. rewrite Nat2Z.id in Ep.
    destruct (nth_error poses i) as [p'|] eqn:Ei; [|discriminate]. injection Ep as ->. split.
    + rewrite nth_error_update by lia. destruct (Nat.eqb_spec 0 i); [lia|auto].
    + intros i'. rewrite nth_error_update by lia. destruct (Nat.eqb_spec i' i) as [->|]; auto. rewrite <- K1, Ei. auto.
  - exists poses. split; [auto|]. destruct Gd as [Gl _]. destruct (bt_poses _ _ _ T) as [Gb _].
    split; [congruence|]. split; [|split; auto]. intros k j Ej.
    destruct (C k) as ((j' & p & q & E1 & E2 & E3 & E4) & _); [apply nth_error_Some; congruence|].
    assert (j' = j) by congruence. subst j'. exists p, q. auto.
Qed.
(** [update_using_optitrack]: whatever pose or orientation a component gets before it is aligned,
    all joints are closed in the end. *)
Theorem C41_tracking_closes_joints b js adjust fuel : body_history b js -> (length js <= fuel)%nat ->
  (forall poses i, length poses = length (b_poses b) -> (forall p, In p poses -> length (p_pos p) = n) ->
     (1 <= i < length (b_poses b))%nat -> exists p, adjust poses (Z.of_nat i) = Ok p /\ length (p_pos p) = n) ->
  exists poses, align_tree act adjust b fuel = Some (Ok poses) /\
    length poses = length (b_poses b) /\
    (forall k j, nth_error js k = Some j -> joint_closed poses k j) /\
    nth_error poses 0 = nth_error (b_poses b) 0.
Proof.
  intros H L Ad. pose proof (history_tree b js H) as T. pose proof (bt_count _ _ _ T) as Lc. destruct (bt_poses _ _ _ T) as [Gb _].
  destruct (align_tree_closes act n act_length b js T adjust) with
    (K := fun poses => nth_error poses 0 = nth_error (b_poses b) 0) (Q := fun (_ : nat) (_ : pose G) (_ : G) => True) (fuel := fuel)
    as (poses & E & Gd & K0 & C); auto; try lia.
  - intros poses i [Gl Gd] Hi. apply Ad; auto; lia.
  - intros poses i p v [Gl _] Hi K0 Ep Lv. rewrite nth_error_update by lia. destruct (Nat.eqb_spec 0 i); [lia|auto].
  - exists poses. split; [auto|]. destruct Gd as [Gl _].
    split; [congruence|]. split; [|auto]. intros k j Ej.
    destruct (C k) as ((j' & p & q & E1 & E2 & E3 & E4) & _); [apply nth_error_Some; congruence|].
    assert (j' = j) by congruence. subst j'. exists p, q. auto.
Qed.
End Articulated.
(** Torso with an arm and a hand below it. *)
Example C41_case : exists b poses, body_history (G := R * R) 2 b [mkJ 0 [0; -1] [1; 2]; mkJ 1 [0; -1] [0; 1]] /\
  align_tree rot2 get_pose b 2 = Some (Ok poses) /\ map p_pos poses = [[0; 0]; [1; 3]; [1; 5]].
Proof.
  set (b0 := body_set_root body_empty (mkPose [0; 0] (1, 0)) 10).
  set (b1 := fst (body_add b0 (mkPose [9; 9] (1, 0)) 11 [0; -1] 10 [1; 2])).
  set (b2 := fst (body_add b1 (mkPose [8; 7] (1, 0)) 12 [0; -1] 11 [0; 1])).
  exists b2. eexists. split; [|split; [reflexivity|]].
  - change [mkJ 0 [0; -1] [1; 2]; mkJ 1 [0; -1] [0; 1]] with ([mkJ 0 [0; -1] [1; 2]] ++ [mkJ 1 [0; -1] [0; 1]]).
    eapply (bo_add 2 b1 _ (mkPose [8; 7] (1, 0)) 12 [0; -1] 11 [0; 1] 1); auto.
    + change [mkJ 0 [0; -1] [1; 2]] with ([] ++ [mkJ 0 [0; -1] [1; 2]]).
      eapply (bo_add 2 b0 _ (mkPose [9; 9] (1, 0)) 11 [0; -1] 10 [1; 2] 0); auto; [apply bo_root; auto|]. intros; lia.
    + intros [|j] Hj; [simpl; discriminate|lia].
  - simpl. apply f_equal2; auto. apply f_equal2; [|apply f_equal2; auto]; apply f_equal2; try lra; apply f_equal2; auto; lra.
Qed.
(** A component with an unknown parent name is refused, but its obstacle stays in the list. *)
Theorem C41_rejected_component_refuted : exists b js p b', body_history (G := R * R) 2 b js /\
  body_add b p 11 [0; 0] 99 [0; 0] = (b', Err EIndex) /\
  length (b_poses b') = S (length (b_poses b)) /\ b_count b' = b_count b.
Proof.
  exists (body_set_root body_empty (mkPose [0; 0] (1, 0)) 10), [], (mkPose [9; 9] (1, 0)). eexists.
  split; [apply bo_root; auto|]. split; [reflexivity|]. split; reflexivity.
Qed.
Print Assumptions C36_component_tree_partial.
Print Assumptions C36_add_parent.
Print Assumptions C36_without_reference.
Print Assumptions C37_rejected_unchanged_partial.
Print Assumptions C37_rejected_unchanged_refuted.
Print Assumptions C36_component_tree_refuted.
Print Assumptions C38_collision_free.
Print Assumptions C38_no_components.
Print Assumptions C38_excluding_components.
Print Assumptions C38_container.
Print Assumptions C38_empty_container.
Print Assumptions C39_component_poses.
Print Assumptions C39_rigid.
Print Assumptions C39_deformation.
Print Assumptions C40_boundary_graph_partial.
Print Assumptions C40_chain.
Print Assumptions C40_collision_free.
Print Assumptions C40_boundary_graph_refuted.
Print Assumptions C40_second_parent_refuted.
Print Assumptions C41_alignment_closes_joints.
Print Assumptions C41_tracking_closes_joints.
Print Assumptions C41_rejected_component_refuted.
