(** Lemmas on the state of the obstacle which can be entered: an assigned local attractor stays. *)
Require Import Reals List Bool Arith Lia.
From Verif Require Import Base Vec RotModel RotAvoidModel HullModel.
Import ListNotations.
Open Scope R_scope.

Lemma set_at_length {A} (l : list A) k a : length (set_at l k a) = length l.
Proof. revert k. induction l; intros [|k]; simpl; auto. Qed.
Lemma set_at_same {A} (l : list A) k a : (k < length l)%nat -> nth_error (set_at l k a) k = Some a.
Proof. revert k. induction l; intros [|k]; simpl; intros; auto; try lia. apply IHl. lia. Qed.
Lemma set_at_other {A} (l : list A) k j a : j <> k -> nth_error (set_at l k a) j = nth_error l j.
Proof. revert k j. induction l; intros [|k] [|j] H; simpl; auto; congruence. Qed.

Lemma hnode_eqb_eq a b : hnode_eqb a b = true <-> a = b.
Proof.
  destruct a, b; simpl; try (split; congruence); rewrite Nat.eqb_eq; split; congruence.
Qed.

(** [h'] has the objects of [h] and all its assigned attractors. *)
Record ext (h h' : hull) : Prop := {
  ex_inner : hl_inner h' = hl_inner h;
  ex_outer : hl_outer h' = hl_outer h;
  ex_to : hl_to h' = hl_to h;
  ex_dir : hl_dir_to h' = hl_dir_to h;
  ex_graph : hl_graph h' = hl_graph h;
  ex_isout : hl_isout h' = hl_isout h;
  ex_gates : hl_gates h' = hl_gates h;
  ex_len : length (hl_attr h') = length (hl_attr h);
  ex_some : forall i a c, nth_error (hl_attr h) i = Some (Some a, c) -> nth_error (hl_attr h') i = Some (Some a, c);
  ex_none : forall i c, nth_error (hl_attr h) i = Some (None, c) -> exists o, nth_error (hl_attr h') i = Some (o, c);
  ex_out : forall a, hl_out h = Some a -> hl_out h' = Some a
}.
Lemma ext_refl h : ext h h.
Proof. constructor; auto. intros. eauto. Qed.
Lemma ext_trans h1 h2 h3 : ext h1 h2 -> ext h2 h3 -> ext h1 h3.
Proof.
  intros A B. constructor; intros.
  - rewrite (ex_inner _ _ B). apply A.
  - rewrite (ex_outer _ _ B). apply A.
  - rewrite (ex_to _ _ B). apply A.
  - rewrite (ex_dir _ _ B). apply A.
  - rewrite (ex_graph _ _ B). apply A.
  - rewrite (ex_isout _ _ B). apply A.
  - rewrite (ex_gates _ _ B). apply A.
  - rewrite (ex_len _ _ B). apply A.
  - apply B, A; auto.
  - destruct (ex_none _ _ A _ _ H) as ([a|] & H1); [exists (Some a); apply B; auto|apply (ex_none _ _ B _ _ H1)].
  - apply B, A; auto.
Qed.

(** Vectors of the dimension of the space. *)
Definition sane (n : nat) (h : hull) : Prop :=
  (forall g p, In g (hl_inner h ++ [hl_outer h]) -> length (rg_surface g p) = n) /\
  (forall i a c, nth_error (hl_attr h) i = Some (Some a, c) -> length a = n) /\
  (forall a, hl_out h = Some a -> length a = n).

Lemma set_local_ext h a p : attractor_of h a = Ok None -> ext h (set_local h a p).
Proof.
  destruct a as [i|k]; cbn [attractor_of set_local].
  - destruct (nth_error (hl_attr h) i) as [[o c]|] eqn:E; [|congruence]. intros H. assert (o = None) by congruence. subst o.
    assert (Li : (i < length (hl_attr h))%nat) by (apply nth_error_Some; congruence).
    constructor; cbn [with_attr hl_inner hl_outer hl_to hl_dir_to hl_graph hl_attr hl_out hl_isout hl_gates]; auto.
    + apply set_at_length.
    + intros j b d Hj. destruct (Nat.eq_dec j i) as [->|N]; [congruence|]. rewrite set_at_other; auto.
    + intros j d Hj. destruct (Nat.eq_dec j i) as [->|N].
      * exists (Some p). rewrite set_at_same by auto. congruence.
      * rewrite set_at_other by auto. eauto.
  - intros H. assert (E : hl_out h = None) by congruence.
    constructor; cbn [with_out hl_inner hl_outer hl_to hl_dir_to hl_graph hl_attr hl_out hl_isout hl_gates]; auto; eauto.
    intros; congruence.
Qed.
Lemma set_local_sane n h a p : length p = n -> sane n h -> sane n (set_local h a p).
Proof.
  intros Lp (S1 & S2 & S3). destruct a as [i|k]; cbn [set_local].
  - destruct (nth_error (hl_attr h) i) as [[o c]|] eqn:E; [|repeat split; auto].
    repeat split; cbn [with_attr hl_inner hl_outer hl_attr hl_out]; auto.
    intros j a d Hj. assert (Li : (i < length (hl_attr h))%nat) by (apply nth_error_Some; congruence).
    destruct (Nat.eq_dec j i) as [->|N].
    + rewrite set_at_same in Hj by auto. congruence.
    + rewrite set_at_other in Hj by auto. eauto.
  - repeat split; cbn [with_out hl_inner hl_outer hl_attr hl_out]; auto. intros; congruence.
Qed.
Lemma region_of_in h a g : region_of h a = Some g -> In g (hl_inner h ++ [hl_outer h]).
Proof.
  destruct a; cbn [region_of]; intros H.
  - apply in_or_app. left. apply nth_error_In in H. auto.
  - apply in_or_app. right. left. congruence.
Qed.

Lemma assign_path_keeps es : forall path h h' r, assign_path es h path = (h', r) ->
  ext h h' /\ forall n, sane n h -> sane n h'.
Proof.
  induction path as [|a [|b rest] IH]; intros h h' r H.
  - cbn in H. assert (h' = h) by congruence. subst. split; auto using ext_refl.
  - cbn in H. assert (h' = h) by congruence. subst. split; auto using ext_refl.
  - cbn [assign_path] in H. destruct (attractor_of h a) as [[p|]|er] eqn:EA.
    + assert (h' = h) by congruence. subst. split; auto using ext_refl.
    + destruct (find_edge es (gate_zero a) (gate_zero b)) as [e|]; [destruct (region_of h a) as [g|] eqn:EG|].
      * apply IH in H as [E1 E2]. split.
        -- eapply ext_trans; [apply set_local_ext; eauto|apply E1].
        -- intros n Sn. apply E2. apply set_local_sane; auto. destruct Sn as (S1 & _). apply S1. eapply region_of_in; eauto.
      * assert (h' = h) by congruence. subst. split; auto using ext_refl.
      * assert (h' = h) by congruence. subst. split; auto using ext_refl.
    + assert (h' = h) by congruence. subst. split; auto using ext_refl.
Qed.

Section Keeps.
Variable sp_dist : list edge -> hnode -> hnode -> option R.
Variable sp_path : list edge -> hnode -> hnode -> option (list hnode).
Variable orth1 : vec -> vec.

Definition kept (h h' : hull) : Prop := ext h h' /\ forall n, sane n h -> sane n h'.
Lemma kept_refl h : kept h h.
Proof. split; auto using ext_refl. Qed.
Lemma kept_trans h1 h2 h3 : kept h1 h2 -> kept h2 h3 -> kept h1 h3.
Proof. intros [A1 A2] [B1 B2]. split; [eapply ext_trans; eauto|auto]. Qed.

Ltac same := match goal with H : (?h, _) = (?h', _) |- kept ?h ?h' => assert (h' = h) by congruence; subst; apply kept_refl end.

Lemma update_path_keeps h i h' r : update_path sp_dist sp_path h i = (h', r) -> kept h h'.
Proof.
  unfold update_path. intros H.
  destruct (edges_of h) as [es|]; [|same]. destruct (containing h) as [cs|]; [|same].
  destruct (gate_candidates sp_dist es h (Hull i)) as [gs|]; [|same]. destruct (cand_argmin _) as [k|]; [|same].
  destruct (nth_error _ k) as [t|]; [|same]. destruct (sp_path es (Hull i) t) as [path|]; [|same].
  apply assign_path_keeps in H. auto.
Qed.
Lemma update_outside_keeps h x h' r : update_outside sp_path h x = (h', r) -> kept h h'.
Proof.
  unfold update_outside. intros H.
  destruct (edges_of h) as [es|]; [|same]. destruct (outside_candidates es h x) as [cs|]; [|same].
  destruct (argmin _) as [k|]; [|same]. destruct (nth_error _ k) as [[g i]|]; [|same].
  destruct (sp_path es (Gate g) (Hull i)) as [path|]; [|same].
  apply assign_path_keeps in H. auto.
Qed.
Lemma inner_loop_keeps x : forall todo h i h' r, inner_loop sp_dist sp_path orth1 h x i todo = (h', r) -> kept h h'.
Proof.
  induction todo as [|[g [gamma w]] todo IH]; intros h i h' r H; cbn [inner_loop] in H; [same|].
  destruct (Req_EM_T w 0); [eapply IH; eauto|].
  destruct (match attractor_of h (Hull i) with
            | Err e => (h, Err match hl_graph h with None => EAttr | Some _ => e end)
            | Ok None => update_path sp_dist sp_path h i
            | Ok (Some _) => (h, Ok tt) end) as [h1 r1] eqn:E1.
  assert (K1 : kept h h1).
  { destruct (attractor_of h (Hull i)) as [[a|]|e]; [same|eapply update_path_keeps; eauto|same]. }
  destruct r1 as [u|e]; [|assert (h' = h1) by congruence; subst; auto].
  destruct (bind _ _) as [v|e]; [|assert (h' = h1) by congruence; subst; auto].
  destruct (inner_loop sp_dist sp_path orth1 h1 x (S i) todo) as [h2 r2] eqn:E2.
  assert (h' = h2) by congruence. subst. eapply kept_trans; [apply K1|eapply IH; eauto].
Qed.
Lemma outer_step_keeps h x gamma w h' r : outer_step sp_path orth1 h x gamma w = (h', r) -> kept h h'.
Proof.
  unfold outer_step. intros H. destruct (Req_EM_T w 0); [same|].
  destruct (match hl_out h with None => update_outside sp_path h x | Some _ => (h, Ok tt) end) as [h1 r1] eqn:E1.
  assert (K1 : kept h h1).
  { destruct (hl_out h); [same|eapply update_outside_keeps; eauto]. }
  destruct r1; assert (h' = h1) by congruence; subst; auto.
Qed.
Lemma evaluate_keeps dim h x h' r : evaluate_local sp_dist sp_path orth1 dim h x = (h', r) -> kept h h'.
Proof.
  unfold evaluate_local. intros H. destruct (Req_EM_T _ 0); [same|].
  destruct (inner_loop _ _ _ h x 0 _) as [h1 r1] eqn:E1. apply inner_loop_keeps in E1.
  destruct r1 as [l1|]; [|assert (h' = h1) by congruence; subst; auto].
  destruct (outer_step _ _ h1 x _ _) as [h2 r2] eqn:E2. apply outer_step_keeps in E2.
  assert (h' = h2) by congruence. subst. eapply kept_trans; eauto.
Qed.
End Keeps.
