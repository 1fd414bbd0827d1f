(** C91, C93: local attractors and graph of the obstacle which can be entered,
    multi_hull_and_obstacle.py [set_attractor], [update_shortest_attractor_path],
    [evaluate_hirarchy_and_reference_points]. *)
Require Import Reals List Bool Arith Lia Lra Psatz.
From Verif Require Import Base Vec RotModel RotAvoidModel HullModel HullProofs PropHull Spec.
Import ListNotations.
Open Scope R_scope.

(** ** Specification *)
Definition joins (e : edge) (a b : hnode) : Prop := (e_fst e = a /\ e_snd e = b) \/ (e_fst e = b /\ e_snd e = a).
Fixpoint walk (es : list edge) (path : list hnode) : Prop :=
  match path with
  | a :: ((b :: _) as rest) => (exists e, In e es /\ joins e a b) /\ walk es rest
  | _ => True
  end.
(** A path of the graph without repetition. *)
Definition route (es : list edge) (a b : hnode) (path : list hnode) : Prop :=
  hd_error path = Some a /\ last path a = b /\ NoDup path /\ walk es path.
(** Following the local attractors leads from the node to the attractor: every one on the way is
    the point on the surface towards the common point with the next one.  The entrances are one
    node for the outer obstacle: its attractor is the goal or leads into a hull. *)
Inductive leads (es : list edge) (h : hull) : hnode -> Prop :=
| leads_goal i p : nth_error (hl_attr h) i = Some (Some p, true) -> leads es h (Hull i)
| leads_out k p : hl_isout h = true -> hl_out h = Some p -> leads es h (Gate k)
| leads_gate k e b : hl_isout h = false -> In e es -> joins e (Gate k) b ->
    hl_out h = Some (rg_surface (hl_outer h) (e_point e)) -> leads es h b -> leads es h (Gate k)
| leads_step i c g e b : nth_error (hl_inner h) i = Some g -> In e es -> joins e (Hull i) b ->
    nth_error (hl_attr h) i = Some (Some (rg_surface g (e_point e)), c) -> leads es h b -> leads es h (Hull i).

Lemma find_edge_joins es a b e : find_edge es a b = Some e -> In e es /\ joins e a b.
Proof.
  intros H. apply find_some in H as [H1 H2]. split; auto. apply orb_true_iff in H2 as [H|H];
    apply andb_true_iff in H as [A B]; apply hnode_eqb_eq in A; apply hnode_eqb_eq in B; [left|right]; auto.
Qed.
Lemma find_edge_some es a b e : In e es -> joins e a b -> exists e', find_edge es a b = Some e'.
Proof.
  intros H J. destruct (find_edge es a b) as [e'|] eqn:E; eauto. exfalso.
  apply (find_none _ _ E) in H. apply orb_false_iff in H as [H1 H2]. destruct J as [[A B]|[A B]].
  - apply andb_false_iff in H1 as [H|H].
    + apply hnode_eqb_eq in A. congruence.
    + apply hnode_eqb_eq in B. congruence.
  - apply andb_false_iff in H2 as [H|H].
    + apply hnode_eqb_eq in A. congruence.
    + apply hnode_eqb_eq in B. congruence.
Qed.
Lemma leads_ext es h h' a : ext h h' -> leads es h a -> leads es h' a.
Proof.
  intros X H. induction H as [i p H|k p H1 H2|k e b H1 H2 H3 H4 _ IH|i c g e b H1 H2 H3 H4 _ IH].
  - eapply leads_goal. apply X. eauto.
  - eapply leads_out; [rewrite (ex_isout _ _ X); auto|apply X; eauto].
  - apply (leads_gate es h' k e b); auto; [rewrite (ex_isout _ _ X); auto|].
    rewrite (ex_outer _ _ X). apply X. auto.
  - apply (leads_step es h' i c g e b); auto; [rewrite (ex_inner _ _ X); auto|apply X; auto].
Qed.

(** ** Graphs with simple entrances *)
Definition gates_ok (m : nat) (es : list edge) : Prop :=
  (forall e k a, In e es -> joins e (Gate k) a -> exists i, a = Hull i) /\
  (forall e e' k a b, In e es -> In e' es -> joins e (Gate k) a -> joins e' (Gate k) b -> a = b) /\
  (forall e i b, In e es -> joins e (Hull i) b -> (i < m)%nat).
Lemma joins_sym e a b : joins e a b -> joins e b a.
Proof. intros [H|H]; [right|left]; auto. Qed.

Lemma path_form m es : gates_ok m es -> forall path i, hd_error path = Some (Hull i) -> NoDup path -> walk es path ->
  exists is b, path = map Hull is ++ [b].
Proof.
  intros (G1 & G2 & G3). induction path as [|x [|y rest] IH]; intros i H ND W.
  - discriminate.
  - exists [], x. auto.
  - cbn in H. assert (x = Hull i) by congruence. subst x. cbn [walk] in W. destruct W as ((e & He & J) & W).
    destruct y as [j|k].
    + destruct (IH j eq_refl) as (is & b & E); auto.
      * inversion ND; auto.
      * exists (i :: is), b. cbn [map app]. rewrite E. auto.
    + destruct rest as [|z rest].
      * exists [i], (Gate k). auto.
      * destruct W as ((e' & He' & J') & _). exfalso.
        assert (Hull i = z) by (eapply G2; [apply He|apply He'|apply joins_sym; apply J|apply J']). subst z.
        inversion ND as [|u v N _]. subst. apply N. right. left. auto.
Qed.

Lemma walk_cons es a b rest : walk es (a :: b :: rest) = ((exists e, In e es /\ joins e a b) /\ walk es (b :: rest)).
Proof. auto. Qed.
Lemma assign_cons es h a b rest : assign_path es h (a :: b :: rest) =
    match attractor_of h a with
    | Err e => (h, Err e)
    | Ok (Some _) => (h, Ok tt)
    | Ok None =>
      match find_edge es (gate_zero a) (gate_zero b), region_of h a with
      | Some e, Some g => assign_path es (set_local h a (rg_surface g (e_point e))) (b :: rest)
      | _, _ => (h, Err EKey)
      end
    end.
Proof. auto. Qed.

(** ** Assignment along a path *)
Section Assign.
Variable es : list edge.
Variable m : nat.

Lemma assign_leads b : forall is h h' r, walk es (map Hull is ++ [b]) -> NoDup is -> gate_zero b = b ->
  length (hl_attr h) = m -> length (hl_inner h) = m -> (forall i, In i is -> (i < m)%nat) ->
  leads es h b ->
  (forall i p c, nth_error (hl_attr h) i = Some (Some p, c) -> In i is -> leads es h (Hull i)) ->
  assign_path es h (map Hull is ++ [b]) = (h', r) ->
  r = Ok tt /\ (forall i, In i is -> forall p c, nth_error (hl_attr h') i = Some (Some p, c) -> leads es h' (Hull i)) /\
  (forall i, hd_error is = Some i -> leads es h' (Hull i)) /\
  (forall i, ~ In i is -> nth_error (hl_attr h') i = nth_error (hl_attr h) i) /\ hl_out h' = hl_out h.
Proof.
  induction is as [|i is IH]; intros h h' r W ND GB LA LI HM LB HR H.
  - cbn in H. assert (h' = h /\ r = Ok tt) as [-> ->] by (split; congruence).
    split; auto. split; [intros j []|]. split; [intros j F; discriminate|]. split; auto.
  - assert (NE : exists y tail, map Hull is ++ [b] = y :: tail).
    { destruct is; cbn; eauto. }
    destruct NE as (y & tail & Ey). cbn [map app] in H, W. rewrite Ey in H, W.
    rewrite walk_cons in W. rewrite assign_cons in H.
    destruct W as ((e0 & He0 & J0) & W). rewrite <- Ey in W.
    assert (Li : (i < m)%nat) by (apply HM; left; auto).
    destruct (nth_error (hl_attr h) i) as [[o c]|] eqn:EA; [|apply nth_error_None in EA; lia].
    cbn [attractor_of] in H. rewrite EA in H. destruct o as [p|].
    { assert (h' = h /\ r = Ok tt) as [-> ->] by (split; congruence). split; auto. split; [|split; [|auto]].
      - intros j Ij p' c' E. eapply HR; eauto.
      - intros j E. cbn in E. assert (j = i) by congruence. subst j. eapply HR; [eauto|left; auto]. }
    assert (GZ : gate_zero y = y).
    { destruct is; cbn in Ey; [assert (y = b) by congruence; subst; auto|assert (y = Hull n) by congruence; subst; auto]. }
    cbn [gate_zero] in H. rewrite GZ in H.
    destruct (find_edge_some es (Hull i) y e0 He0 J0) as (e & Ee). rewrite Ee in H.
    destruct (nth_error (hl_inner h) i) as [g|] eqn:EG; [|apply nth_error_None in EG; lia].
    cbn [region_of] in H. rewrite EG in H. rewrite <- Ey in H.
    set (pt := rg_surface g (e_point e)) in *.
    assert (X1 : ext h (set_local h (Hull i) pt)).
    { apply set_local_ext. cbn [attractor_of]. rewrite EA. auto. }
    assert (SL : set_local h (Hull i) pt = with_attr h (set_at (hl_attr h) i (Some pt, c))).
    { cbn [set_local]. rewrite EA. auto. }
    inversion ND as [|i' is' NI ND']. subst i' is'.
    set (h1 := set_local h (Hull i) pt) in *.
    assert (A1 : hl_attr h1 = set_at (hl_attr h) i (Some pt, c)) by (rewrite SL; auto).
    destruct (IH h1 h' r) as (R1 & R2 & R3 & R4 & R5); auto.
    { rewrite A1, set_at_length. auto. }
    { rewrite (ex_inner _ _ X1). auto. }
    { intros j Ij. apply HM. right. auto. }
    { eapply leads_ext; eauto. }
    { intros j p' c' E Ij. assert (j <> i) by (intros ->; contradiction). rewrite A1, set_at_other in E by auto.
      eapply leads_ext; eauto. eapply HR; eauto. right. auto. }
    pose proof (proj1 (assign_path_keeps es _ _ _ _ H)) as X2.
    assert (LD : leads es h' (Hull i)).
    { destruct (find_edge_joins _ _ _ _ Ee) as [Ie Je].
      apply (leads_step es h' i c g e y); auto.
      - rewrite (ex_inner _ _ X2), (ex_inner _ _ X1). auto.
      - apply (ex_some _ _ X2). rewrite A1. apply set_at_same. lia.
      - destruct is as [|j is]; cbn in Ey.
        + assert (y = b) by congruence. subst y. eapply leads_ext; [apply X2|]. eapply leads_ext; eauto.
        + assert (y = Hull j) by congruence. subst y. apply R3. auto. }
    split; auto. split; [|split; [|split]].
    + intros j [<-|Ij] p' c' E; auto. eapply R2; eauto.
    + intros j E. cbn in E. assert (j = i) by congruence. subst j. auto.
    + intros j NJ. rewrite R4 by (intros F; apply NJ; right; auto). rewrite A1. apply set_at_other. intros ->. apply NJ. left. auto.
    + rewrite R5. rewrite SL. auto.
Qed.
End Assign.

Lemma walk_lt m es is b : gates_ok m es -> walk es (map Hull is ++ [b]) -> forall i, In i is -> (i < m)%nat.
Proof.
  intros (G1 & G2 & G3). induction is as [|j is IH]; intros W i Hi; [destruct Hi|].
  assert (NE : exists y tail, map Hull is ++ [b] = y :: tail) by (destruct is; cbn; eauto).
  destruct NE as (y & tail & Ey). cbn [map app] in W. rewrite Ey in W. rewrite walk_cons in W.
  destruct W as ((e & He & J) & W). destruct Hi as [<-|Hi].
  - eapply G3; eauto.
  - apply IH; auto. rewrite Ey. auto.
Qed.
Lemma NoDup_hulls is b : NoDup (map Hull is ++ [b]) -> NoDup is.
Proof.
  intros H. assert (H1 : NoDup (map Hull is)).
  { clear - H. induction (map Hull is) as [|x l IH]; [constructor|]. cbn in H. inversion H as [|u v N ND]. subst.
    constructor; auto. intros F. apply N. apply in_or_app. auto. }
  clear H. induction is as [|i is IH]; [constructor|]. inversion H1 as [|u v N ND]. subst. constructor; auto.
  intros F. apply N. apply in_map. auto.
Qed.
Lemma last_snoc {A} (l : list A) b d : last (l ++ [b]) d = b.
Proof. induction l as [|x [|y l] IH]; cbn in *; auto. Qed.

(** ** The state between evaluations *)
Section Run.
Variable sp_dist : list edge -> hnode -> hnode -> option R.
Variable sp_path : list edge -> hnode -> hnode -> option (list hnode).
Variable orth1 : vec -> vec.
Hypothesis sp_sound : forall es a b path, sp_path es a b = Some path -> route es a b path.

Definition only (h : hull) (k : nat) : Prop := forall i o c, nth_error (hl_attr h) i = Some (o, c) -> (c = true <-> i = k).
Record routed (es : list edge) (k : nat) (h : hull) : Prop := {
  rt_graph : hl_graph h = Some es;
  rt_len : length (hl_attr h) = length (hl_inner h);
  rt_ok : gates_ok (length (hl_inner h)) es;
  rt_k : (k <= length (hl_inner h))%nat;
  rt_only : only h k;
  rt_isout : hl_isout h = Nat.eqb k (length (hl_inner h));
  rt_goal : (k < length (hl_inner h))%nat -> exists p, nth_error (hl_attr h) k = Some (Some p, true);
  rt_out : hl_isout h = true -> exists p, hl_out h = Some p;
  rt_gates : hl_isout h = true -> (hl_gates h <= 1)%nat;
  rt_leads : forall i p c, nth_error (hl_attr h) i = Some (Some p, c) -> leads es h (Hull i);
  rt_outside : forall p j, hl_out h = Some p -> leads es h (Gate 0) /\ (hl_isout h = true -> leads es h (Gate j))
}.

Lemma only_ext h h' k : ext h h' -> only h k -> only h' k.
Proof.
  intros X O i o c E. destruct (nth_error (hl_attr h) i) as [[o0 c0]|] eqn:E0.
  - assert (c = c0).
    { destruct o0 as [p|].
      - rewrite (ex_some _ _ X _ _ _ E0) in E. congruence.
      - destruct (ex_none _ _ X _ _ E0) as (o1 & E1). rewrite E1 in E. congruence. }
    subst. eapply O; eauto.
  - exfalso. apply nth_error_None in E0. rewrite <- (ex_len _ _ X) in E0. apply nth_error_None in E0. congruence.
Qed.
(** A later state is routed as soon as its new attractors lead to the goal. *)
Lemma routed_ext es k h h' : routed es k h -> ext h h' ->
  (forall i p c, nth_error (hl_attr h') i = Some (Some p, c) -> leads es h' (Hull i)) ->
  (forall p, hl_isout h = false -> hl_out h' = Some p -> leads es h' (Gate 0)) -> routed es k h'.
Proof.
  intros R X L O. constructor.
  - rewrite (ex_graph _ _ X). apply R.
  - rewrite (ex_len _ _ X), (ex_inner _ _ X). apply R.
  - rewrite (ex_inner _ _ X). apply R.
  - rewrite (ex_inner _ _ X). apply R.
  - eapply only_ext; eauto. apply R.
  - rewrite (ex_isout _ _ X), (ex_inner _ _ X). apply R.
  - rewrite (ex_inner _ _ X). intros H. destruct (rt_goal _ _ _ R H) as (p & E). exists p. apply (ex_some _ _ X). auto.
  - rewrite (ex_isout _ _ X). intros H. destruct (rt_out _ _ _ R H) as (p & E). exists p. apply (ex_out _ _ X). auto.
  - rewrite (ex_isout _ _ X), (ex_gates _ _ X). apply R.
  - auto.
  - intros p j E. destruct (hl_isout h) eqn:EI.
    + split; [|intros _]; apply (leads_out es h' _ p); auto; rewrite (ex_isout _ _ X); auto.
    + split; [eapply O; eauto|]. rewrite (ex_isout _ _ X). congruence.
Qed.

Lemma containing_only h k : length (hl_attr h) = length (hl_inner h) -> only h k ->
  containing h = Ok (if Nat.ltb k (length (hl_inner h)) then [k] else []).
Proof.
  intros L O. unfold containing. rewrite L, Nat.eqb_refl, <- L. f_equal. clear L. unfold only in O. revert O.
  generalize (hl_attr h). intros l O.
  assert (G : forall s, map fst (filter (fun p => snd (snd p)) (combine (seq s (length l)) l)) =
                        if Nat.ltb k (length l) then [(s + k)%nat] else []).
  { clear h. revert k O. induction l as [|[o c] l IH]; intros k O s; [destruct k; auto|].
    cbn [length seq combine filter snd map].
    assert (Z : forall s', (forall i o c, nth_error l i = Some (o, c) -> c = false) ->
              map fst (filter (fun p : nat * (option vec * bool) => snd (snd p)) (combine (seq s' (length l)) l)) = []).
    { clear. induction l as [|[o c] l IH]; intros s' H; auto. cbn [length seq combine filter snd].
      rewrite (H 0%nat o c eq_refl). apply IH. intros i. apply (H (S i)). }
    destruct k as [|k].
    - assert (c = true) by (apply (O 0%nat o c eq_refl); auto). subst c. cbn [map fst]. rewrite Z; [rewrite Nat.add_0_r; auto|].
      intros i o' c' E. destruct c'; auto. destruct (O (S i) o' true E) as [F _]. discriminate (F eq_refl).
    - assert (c = false). { destruct c; auto. destruct (O 0%nat o true eq_refl) as [F _]. discriminate (F eq_refl). }
      subst c. rewrite (IH k).
      + change (Nat.ltb (S k) (S (length l))) with (Nat.ltb k (length l)). destruct (Nat.ltb k (length l)); auto. f_equal. lia.
      + intros i o' c' E. destruct (O (S i) o' c' E) as [F G]. split; [intros F'; apply F in F'; lia|intros ->; auto]. }
  rewrite G. auto.
Qed.

Lemma update_path_routed es k h i h' r : routed es k h -> update_path sp_dist sp_path h i = (h', r) ->
  routed es k h' /\ (r = Ok tt -> (i < length (hl_inner h))%nat -> leads es h' (Hull i)).
Proof.
  intros R H. pose proof (update_path_keeps _ _ _ _ _ _ H) as [X _].
  unfold update_path, edges_of in H. rewrite (rt_graph _ _ _ R) in H.
  rewrite (containing_only h k (rt_len _ _ _ R) (rt_only _ _ _ R)) in H.
  assert (TRIV : (h, r) = (h', r) -> r <> Ok tt -> routed es k h' /\ (r = Ok tt -> (i < length (hl_inner h))%nat -> leads es h' (Hull i))).
  { intros E N. assert (h' = h) by congruence. subst. split; auto. contradiction. }
  (* the target *)
  assert (T : forall target, leads es h target -> gate_zero target = target ->
     match sp_path es (Hull i) target with None => (h, Err EExc) | Some path => assign_path es h path end = (h', r) ->
     routed es k h' /\ (r = Ok tt -> (i < length (hl_inner h))%nat -> leads es h' (Hull i))).
  { clear H. intros target LT GZ H. destruct (sp_path es (Hull i) target) as [path|] eqn:EP.
    2: { apply TRIV; [congruence|intros F; congruence]. }
    destruct (sp_sound _ _ _ _ EP) as (P1 & P2 & P3 & P4).
    destruct (path_form _ _ (rt_ok _ _ _ R) path i P1 P3 P4) as (is & b & E). subst path.
    rewrite last_snoc in P2. subst b.
    destruct (assign_leads es (length (hl_inner h)) target is h h' r) as (R1 & R2 & R3 & R4 & R5); auto.
    - eapply NoDup_hulls; eauto.
    - apply R.
    - apply (walk_lt _ es is target); auto. apply R.
    - intros j p c E _. eapply rt_leads; eauto.
    - split.
      + apply (routed_ext es k h h'); auto.
        * intros j p c E. destruct (in_dec Nat.eq_dec j is) as [Ij|NJ]; [eapply R2; eauto|].
          rewrite R4 in E by auto. apply (leads_ext es h h'); auto. eapply rt_leads; eauto.
        * intros p _ E. rewrite R5 in E. apply (leads_ext es h h'); auto. exact (proj1 (rt_outside _ _ _ R p 0%nat E)).
      + intros _ LT'. destruct is as [|j is].
        * cbn in P1. assert (target = Hull i) by congruence. subst target. eapply leads_ext; eauto.
        * cbn in P1. assert (j = i) by congruence. subst j. apply R3. auto. }
  unfold gate_candidates in H. rewrite (rt_isout _ _ _ R) in H.
  destruct (Nat.ltb k (length (hl_inner h))) eqn:EK.
  - apply Nat.ltb_lt in EK. replace (Nat.eqb k (length (hl_inner h))) with false in H
      by (symmetry; apply Nat.eqb_neq; lia).
    cbn [map app cand_argmin nth_error] in H. apply (T (Hull k)); auto.
    destruct (rt_goal _ _ _ R EK) as (p & E). eapply leads_goal; eauto.
  - apply Nat.ltb_ge in EK. assert (k = length (hl_inner h)) by (pose proof (rt_k _ _ _ R); lia).
    assert (IO : hl_isout h = true) by (rewrite (rt_isout _ _ _ R); apply Nat.eqb_eq; auto).
    replace (Nat.eqb k (length (hl_inner h))) with true in H by (symmetry; apply Nat.eqb_eq; auto).
    pose proof (rt_gates _ _ _ R IO) as G. destruct (rt_out _ _ _ R IO) as (a & EO).
    destruct (hl_gates h) as [|[|g]]; [| |lia].
    + cbn in H. apply TRIV; [congruence|intros F; congruence].
    + cbn [seq mapM] in H. unfold bind in H. cbv beta in H. destruct (gate_point es 0) as [p|].
      2: { apply TRIV; [congruence|intros F; congruence]. }
      rewrite EO in H. destruct (sp_dist es (Hull i) (Gate 0)) as [d|].
      2: { apply TRIV; [congruence|intros F; congruence]. }
      cbn [map app cand_argmin nth_error fst snd] in H. apply (T (Gate 0)); auto. eapply leads_out; eauto.
Qed.
Lemma argmin_const x n : argmin_from (repeat x n) 1 0 x = 0%nat.
Proof.
  generalize 1%nat. induction n as [|n IH]; intros k; cbn; auto.
  unfold Rltb. destruct (Rlt_dec x x) as [F|_]; [exfalso; apply (Rlt_irrefl _ F)|auto].
Qed.
Lemma update_outside_routed es k h x h' r : routed es k h -> k = 0%nat -> hl_isout h = false -> (hl_gates h <= 1)%nat ->
  update_outside sp_path h x = (h', r) -> routed es k h'.
Proof.
  intros R K IO G H. pose proof (update_outside_keeps _ _ _ _ _ H) as [X _].
  unfold update_outside, edges_of in H. rewrite (rt_graph _ _ _ R) in H.
  assert (LM : (0 < length (hl_inner h))%nat).
  { pose proof (rt_isout _ _ _ R) as E. rewrite IO, K in E. symmetry in E. apply Nat.eqb_neq in E. lia. }
  unfold outside_candidates in H. destruct (hl_gates h) as [|[|g]]; [| |lia].
  { cbn in H. assert (h' = h) by congruence. subst. auto. }
  cbn [seq mapM] in H. unfold bind in H. cbv beta in H. destruct (gate_point es 0) as [p|].
  2: { assert (h' = h) by congruence. subst. auto. }
  cbn [flat_map fst snd] in H. rewrite app_nil_r in H.
  destruct (length (hl_inner h)) as [|m'] eqn:EM; [lia|]. cbn [seq map] in H. rewrite !map_map in H. cbn [fst snd argmin] in H.
  assert (AM : argmin_from (map (fun _ : nat => 0 + norm (vsub x p)) (seq 1 m')) 1 0 (0 + norm (vsub x p)) = 0%nat).
  { transitivity (argmin_from (repeat (0 + norm (vsub x p)) m') 1 0 (0 + norm (vsub x p))); [|apply argmin_const].
    f_equal. generalize 1%nat. clear. induction m' as [|m IH]; intros s; cbn [seq map repeat]; auto. f_equal. auto. }
  rewrite AM in H. cbn [nth_error] in H.
  destruct (sp_path es (Gate 0) (Hull 0)) as [path|] eqn:EP.
  2: { assert (h' = h) by congruence. subst. auto. }
  destruct (sp_sound _ _ _ _ EP) as (P1 & P2 & P3 & P4).
  destruct path as [|y0 [|y rest]]; [discriminate| |].
  { cbn in P1, P2. congruence. }
  cbn in P1. assert (y0 = Gate 0) by congruence. subst y0.
  rewrite walk_cons in P4. destruct P4 as ((e0 & He0 & J0) & W).
  destruct (rt_ok _ _ _ R) as (G1 & G2 & G3). destruct (G1 _ _ _ He0 J0) as (j & ->).
  rewrite assign_cons in H. cbn [attractor_of gate_zero region_of] in H. destruct (hl_out h) as [q|] eqn:EO.
  { assert (h' = h) by congruence. subst. auto. }
  destruct (find_edge_some es (Gate 0) (Hull j) e0 He0 J0) as (e & Ee). rewrite Ee in H.
  inversion P3 as [|u v NI ND]. subst u v.
  destruct (path_form _ _ (rt_ok _ _ _ R) (Hull j :: rest) j eq_refl ND W) as (is & b & E).
  set (pt := rg_surface (hl_outer h) (e_point e)) in *. set (h1 := set_local h (Gate 0) pt) in *.
  assert (X1 : ext h h1). { apply set_local_ext. cbn [attractor_of]. rewrite EO. auto. }
  assert (EB : b = Hull 0).
  { change (last (Hull j :: rest) (Gate 0) = Hull 0) in P2. rewrite E, last_snoc in P2. auto. }
  subst b. rewrite E in H, W, ND.
  assert (LG : leads es h1 (Hull 0)).
  { apply (leads_ext es h h1); auto. destruct (rt_goal _ _ _ R) as (q & Eq); [lia|]. subst k. eapply leads_goal; eauto. }
  destruct (assign_leads es (length (hl_inner h)) (Hull 0) is h1 h' r) as (R1 & R2 & R3 & R4 & R5); auto.
  - eapply NoDup_hulls; eauto.
  - rewrite (ex_len _ _ X1). apply R.
  - apply (walk_lt _ es is (Hull 0)); auto. apply R.
  - intros i p' c Ei _. apply (leads_ext es h h1); auto. eapply (rt_leads _ _ _ R i p' c). exact Ei.
  - pose proof (proj1 (assign_path_keeps es _ _ _ _ H)) as X2.
    apply (routed_ext es k h h'); auto.
    + intros i p' c Ei. destruct (in_dec Nat.eq_dec i is) as [Ij|NJ]; [eapply R2; eauto|].
      rewrite R4 in Ei by auto. apply (leads_ext es h h'); auto. eapply (rt_leads _ _ _ R i p' c). exact Ei.
    + intros p' _ Eo. destruct (find_edge_joins _ _ _ _ Ee) as [Ie Je].
      apply (leads_gate es h' 0%nat e (Hull j)); auto.
      * rewrite (ex_isout _ _ X). auto.
      * rewrite R5. rewrite (ex_outer _ _ X). auto.
      * destruct is as [|i is]; cbn in E.
        -- assert (j = 0)%nat by congruence. subst j. apply (leads_ext es h1 h'); auto.
        -- assert (i = j) by congruence. subst i. apply R3. auto.
Qed.

Lemma inner_loop_routed es k x : forall todo h i h' r, routed es k h ->
  inner_loop sp_dist sp_path orth1 h x i todo = (h', r) -> routed es k h'.
Proof.
  induction todo as [|[g [gamma w]] todo IH]; intros h i h' r R H; cbn [inner_loop] in H.
  { assert (h' = h) by congruence. subst. auto. }
  destruct (Req_EM_T w 0); [eapply IH; eauto|].
  destruct (match attractor_of h (Hull i) with
            | Err e => (h, Err match hl_graph h with None => EAttr | Some _ => e end)
            | Ok (Some _) => (h, Ok tt)
            | Ok None => update_path sp_dist sp_path h i end) as [h1 r1] eqn:E1.
  assert (R1 : routed es k h1).
  { destruct (attractor_of h (Hull i)) as [[a|]|]; try (assert (h1 = h) by congruence; subst; auto; fail).
    eapply update_path_routed; eauto. }
  destruct r1; [|assert (h' = h1) by congruence; subst; auto].
  destruct (bind _ _) as [v|]; [|assert (h' = h1) by congruence; subst; auto].
  destruct (inner_loop _ _ _ h1 x (S i) todo) as [h2 r2] eqn:E2.
  assert (h' = h2) by congruence. subst. eapply IH; eauto.
Qed.
Lemma inner_loop_assigned x : forall todo h i h' l, inner_loop sp_dist sp_path orth1 h x i todo = (h', Ok l) ->
  forall j g gamma w, nth_error todo j = Some (g, (gamma, w)) -> w <> 0 ->
  exists p, attractor_of h' (Hull (i + j)) = Ok (Some p).
Proof.
  induction todo as [|[g [gamma w]] todo IH]; intros h i h' l H j g' gamma' w' E N; [destruct j; discriminate|].
  cbn [inner_loop] in H. destruct (Req_EM_T w 0) as [Z|Z].
  - destruct j as [|j]; [cbn in E; congruence|]. replace (i + S j)%nat with (S i + j)%nat by lia. eapply IH; eauto.
  - destruct (match attractor_of h (Hull i) with
            | Err e => (h, Err match hl_graph h with None => EAttr | Some _ => e end)
            | Ok (Some _) => (h, Ok tt)
            | Ok None => update_path sp_dist sp_path h i end) as [h1 r1] eqn:E1.
    destruct r1; [|discriminate].
    destruct (bind (attractor_of h1 (Hull i)) _) as [v|] eqn:E2; [|discriminate].
    destruct (inner_loop _ _ _ h1 x (S i) todo) as [h2 r2] eqn:E3. destruct r2 as [l2|]; [|discriminate].
    assert (h' = h2) by congruence. subst h'.
    destruct j as [|j].
    + rewrite Nat.add_0_r. pose proof (proj1 (inner_loop_keeps _ _ _ _ _ _ _ _ _ E3)) as X.
      unfold bind in E2. destruct (attractor_of h1 (Hull i)) as [[q|]|] eqn:EA; try discriminate.
      exists q. cbn [attractor_of] in EA |- *. destruct (nth_error (hl_attr h1) i) as [[o c]|] eqn:En; [|discriminate].
      assert (o = Some q) by congruence. subst o. rewrite (ex_some _ _ X _ _ _ En). auto.
    + replace (i + S j)%nat with (S i + j)%nat by lia. eapply IH; eauto.
Qed.

(** The evaluations which keep the attractors right: outside only if the attractor is outside, or
    in the first hull and there is at most one entrance. *)
Definition reachable_start (h : hull) (k : nat) (x : vec) : Prop :=
  rg_gamma (hl_outer h) x <= 1 \/ k = length (hl_inner h) \/ (k = 0%nat /\ (hl_gates h <= 1)%nat).
Lemma outer_weight h x : rg_gamma (hl_outer h) x <= 1 ->
  nth (length (hl_inner h)) (hull_weights (hull_gammas h x)) 0 = 0.
Proof.
  intros H. apply weights_nth. unfold hull_gammas. rewrite map_app, app_nth2; rewrite map_length; auto.
  rewrite Nat.sub_diag. auto.
Qed.
Lemma evaluate_routed es k dim h x h' r : routed es k h -> reachable_start h k x ->
  evaluate_local sp_dist sp_path orth1 dim h x = (h', r) -> routed es k h'.
Proof.
  unfold evaluate_local. intros R A H. destruct (Req_EM_T _ 0); [assert (h' = h) by congruence; subst; auto|].
  destruct (inner_loop _ _ _ h x 0 _) as [h1 r1] eqn:E1. pose proof (proj1 (inner_loop_keeps _ _ _ _ _ _ _ _ _ E1)) as X.
  apply (inner_loop_routed es k) in E1; auto.
  destruct r1 as [l1|]; [|assert (h' = h1) by congruence; subst; auto].
  destruct (outer_step _ _ h1 x _ _) as [h2 r2] eqn:E2. assert (h' = h2) by congruence. subst h'.
  unfold outer_step in E2. destruct (Req_EM_T _ 0) as [Z|Z]; [assert (h2 = h1) by congruence; subst; auto|].
  destruct A as [A|A]; [exfalso; apply Z; apply outer_weight; auto|].
  destruct (hl_out h1) as [a|] eqn:EO.
  { assert (h2 = h1) by congruence. subst. auto. }
  destruct (update_outside sp_path h1 x) as [h3 r3] eqn:E3.
  assert (h2 = h3) by (destruct r3; congruence). subst h3.
  assert (IO : hl_isout h1 = false).
  { destruct (hl_isout h1) eqn:E; auto. destruct (rt_out _ _ _ E1 E) as (p & F). congruence. }
  assert (NK : k <> length (hl_inner h)).
  { rewrite (rt_isout _ _ _ E1), (ex_inner _ _ X) in IO. apply Nat.eqb_neq in IO. auto. }
  destruct A as [A|[A1 A2]]; [contradiction|].
  eapply update_outside_routed; eauto. rewrite (ex_gates _ _ X). auto.
Qed.

(** ** The graph *)
Section Graph.
Variables meet_outer meet : region -> region -> vec.

Lemma gates_spec outer : forall l k i e, In e (gates_from meet_outer outer k i l) ->
  exists k' j g, e_fst e = Gate k' /\ e_snd e = Hull (i + j) /\ (k <= k' < k + length (gates_from meet_outer outer k i l))%nat /\
    nth_error l j = Some g /\ e_point e = meet_outer g outer /\ 1 < rg_gamma g (e_point e) /\
    e_dist e = norm (vsub (e_point e) (rg_center g)).
Proof.
  induction l as [|g l IH]; intros k i e H; [destruct H|].
  assert (A : forall k0, In e (gates_from meet_outer outer k0 (S i) l) -> exists k' j g',
    e_fst e = Gate k' /\ e_snd e = Hull (i + j) /\ (k0 <= k' < k0 + length (gates_from meet_outer outer k0 (S i) l))%nat /\
    nth_error (g :: l) j = Some g' /\ e_point e = meet_outer g' outer /\ 1 < rg_gamma g' (e_point e) /\
    e_dist e = norm (vsub (e_point e) (rg_center g'))).
  { intros k0 H0. destruct (IH _ _ _ H0) as (k' & j & g' & E1 & E2 & E3 & E4). exists k', (S j), g'.
    replace (i + S j)%nat with (S i + j)%nat by lia. auto. }
  cbn [gates_from] in H |- *. destruct (Rltb _ _); [apply A; auto|]. destruct (reg_inside g _) eqn:EI; [apply A; auto|].
  destruct H as [<-|H].
  - exists k, 0%nat, g. cbn. rewrite Nat.add_0_r. unfold reg_inside in EI. apply Rleb_false in EI. repeat split; auto; lia.
  - destruct (A (S k) H) as (k' & j & g' & E1 & E2 & E3 & E4). exists k', j, g'. cbn [length].
    split; [auto|]. split; [auto|]. split; [lia|auto].
Qed.
Lemma gates_numbers outer : forall l k i,
  map e_fst (gates_from meet_outer outer k i l) = map Gate (seq k (length (gates_from meet_outer outer k i l))).
Proof.
  induction l as [|g l IH]; intros k i; auto. cbn [gates_from]. destruct (Rltb _ _); auto. destruct (reg_inside _ _); auto.
  cbn [map length seq]. f_equal. auto.
Qed.
Lemma gates_hulls outer : forall l k i, NoDup (map e_snd (gates_from meet_outer outer k i l)).
Proof.
  induction l as [|g l IH]; intros k i; [constructor|]. cbn [gates_from]. destruct (Rltb _ _); auto. destruct (reg_inside _ _); auto.
  cbn [map]. constructor; auto. intros F. apply in_map_iff in F as (e & E & He). cbn in E.
  destruct (gates_spec _ _ _ _ _ He) as (k' & j & g' & _ & E2 & _). rewrite E2 in E. assert (S i + j = i)%nat by congruence. lia.
Qed.
Lemma links_with_spec i g : forall l j e, In e (links_with meet i j g l) ->
  exists n g', e_fst e = Hull i /\ e_snd e = Hull (j + n) /\ nth_error l n = Some g' /\ e_point e = meet g g' /\
    1 < rg_gamma g (e_point e) /\ 1 < rg_gamma g' (e_point e) /\
    e_dist e = norm (vsub (rg_center g) (e_point e)) + norm (vsub (rg_center g') (e_point e)).
Proof.
  induction l as [|g' l IH]; intros j e H; [destruct H|]. cbn [links_with] in H.
  assert (A : In e (links_with meet i (S j) g l) -> exists n g'0, e_fst e = Hull i /\ e_snd e = Hull (j + n) /\ nth_error (g' :: l) n = Some g'0 /\ e_point e = meet g g'0 /\
    1 < rg_gamma g (e_point e) /\ 1 < rg_gamma g'0 (e_point e) /\
    e_dist e = norm (vsub (rg_center g) (e_point e)) + norm (vsub (rg_center g'0) (e_point e))).
  { intros K. destruct (IH _ _ K) as (n & g2 & E1 & E2 & E3). exists (S n), g2. replace (j + S n)%nat with (S j + n)%nat by lia. auto. }
  destruct (Rltb _ _); auto. destruct (negb _ && negb _) eqn:EI; auto. destruct H as [<-|H]; auto.
  apply andb_true_iff in EI as [I1 I2]. apply negb_true_iff in I1. apply negb_true_iff in I2.
  unfold reg_inside in *. apply Rleb_false in I1. apply Rleb_false in I2.
  exists 0%nat, g'. cbn. rewrite Nat.add_0_r. repeat split; auto.
Qed.
Lemma links_spec : forall l i e, In e (links_from meet i l) ->
  exists a b g g', (a < b)%nat /\ e_fst e = Hull (i + a) /\ e_snd e = Hull (i + b) /\ nth_error l a = Some g /\ nth_error l b = Some g' /\
    e_point e = meet g g' /\ 1 < rg_gamma g (e_point e) /\ 1 < rg_gamma g' (e_point e) /\
    e_dist e = norm (vsub (rg_center g) (e_point e)) + norm (vsub (rg_center g') (e_point e)).
Proof.
  induction l as [|g l IH]; intros i e H; [destruct H|]. cbn [links_from] in H. apply in_app_or in H as [H|H].
  - destruct (links_with_spec _ _ _ _ _ H) as (n & g' & E1 & E2 & E3 & E4). exists 0%nat, (S n), g, g'.
    rewrite Nat.add_0_r. replace (i + S n)%nat with (S i + n)%nat by lia. repeat (split; [auto; lia|]). auto.
  - destruct (IH _ _ H) as (a & b & g1 & g2 & L & E1 & E2 & E3). exists (S a), (S b), g1, g2.
    replace (i + S a)%nat with (S i + a)%nat by lia. replace (i + S b)%nat with (S i + b)%nat by lia. repeat (split; [auto; lia|]). auto.
Qed.
Lemma links_with_complete i g : forall l j n g', nth_error l n = Some g' ->
  norm (vsub (rg_center g) (rg_center g')) <= axes_max g + axes_max g' ->
  1 < rg_gamma g (meet g g') -> 1 < rg_gamma g' (meet g g') ->
  exists e, In e (links_with meet i j g l) /\ e_fst e = Hull i /\ e_snd e = Hull (j + n) /\ e_point e = meet g g'.
Proof.
  induction l as [|g0 l IH]; intros j n g' E N G1 G2; [destruct n; discriminate|]. cbn [links_with]. destruct n as [|n].
  - cbn in E. assert (g0 = g') by congruence. subst g0.
    replace (Rltb (axes_max g + axes_max g') (norm (vsub (rg_center g) (rg_center g')))) with false
      by (symmetry; apply Rltb_false; lra).
    unfold reg_inside. rewrite (proj2 (Rleb_false _ _) G1), (proj2 (Rleb_false _ _) G2). cbn [negb andb].
    eexists. split; [left; reflexivity|]. cbn. rewrite Nat.add_0_r. auto.
  - cbn in E. destruct (IH (S j) n g' E N G1 G2) as (e & H1 & H2). exists e. replace (j + S n)%nat with (S j + n)%nat by lia.
    split; auto. destruct (Rltb _ _); auto. destruct (negb _ && negb _); auto. right. auto.
Qed.
Lemma links_complete : forall l i a b g g', (a < b)%nat -> nth_error l a = Some g -> nth_error l b = Some g' ->
  norm (vsub (rg_center g) (rg_center g')) <= axes_max g + axes_max g' ->
  1 < rg_gamma g (meet g g') -> 1 < rg_gamma g' (meet g g') ->
  exists e, In e (links_from meet i l) /\ e_fst e = Hull (i + a) /\ e_snd e = Hull (i + b) /\ e_point e = meet g g'.
Proof.
  induction l as [|g0 l IH]; intros i a b g g' L Ea Eb N G1 G2; [destruct a; discriminate|]. cbn [links_from].
  destruct b as [|b]; [lia|]. cbn in Eb. destruct a as [|a].
  - cbn in Ea. assert (g0 = g) by congruence. subst g0.
    destruct (links_with_complete i g l (S i) b g' Eb N G1 G2) as (e & H1 & H2 & H3 & H4). exists e.
    rewrite Nat.add_0_r. replace (i + S b)%nat with (S i + b)%nat by lia. repeat split; auto. apply in_or_app. auto.
  - cbn in Ea. destruct (IH (S i) a b g g') as (e & H1 & H2 & H3 & H4); auto; [lia|]. exists e.
    replace (i + S a)%nat with (S i + a)%nat by lia. replace (i + S b)%nat with (S i + b)%nat by lia.
    repeat split; auto. apply in_or_app. auto.
Qed.
Lemma links_unique : forall l i e e', In e (links_from meet i l) -> In e' (links_from meet i l) ->
  e_fst e = e_fst e' -> e_snd e = e_snd e' -> e_point e = e_point e' /\ e_dist e = e_dist e'.
Proof.
  intros l i e e' H H' E1 E2.
  destruct (links_spec _ _ _ H) as (a & b & g & g' & _ & A1 & A2 & A3 & A4 & A5 & _ & _ & A6).
  destruct (links_spec _ _ _ H') as (a' & b' & g1 & g1' & _ & B1 & B2 & B3 & B4 & B5 & _ & _ & B6).
  assert (a' = a) by (assert (Hull (i + a) = Hull (i + a')) by congruence; assert (i + a = i + a')%nat by congruence; lia).
  assert (b' = b) by (assert (Hull (i + b) = Hull (i + b')) by congruence; assert (i + b = i + b')%nat by congruence; lia).
  subst. assert (g1 = g) by congruence. assert (g1' = g') by congruence. subst. split; congruence.
Qed.
Lemma gates_complete outer : forall l k i j g, nth_error l j = Some g ->
  axes_min outer - axes_max g <= norm (vsub (rg_center g) (rg_center outer)) -> 1 < rg_gamma g (meet_outer g outer) ->
  exists e n, In e (gates_from meet_outer outer k i l) /\ e_fst e = Gate n /\ e_snd e = Hull (i + j) /\ e_point e = meet_outer g outer.
Proof.
  induction l as [|g0 l IH]; intros k i j g E N G; [destruct j; discriminate|]. cbn [gates_from]. destruct j as [|j].
  - cbn in E. assert (g0 = g) by congruence. subst g0.
    replace (Rltb (norm (vsub (rg_center g) (rg_center outer))) (axes_min outer - axes_max g)) with false
      by (symmetry; apply Rltb_false; lra).
    unfold reg_inside. rewrite (proj2 (Rleb_false _ _) G). eexists. exists k. split; [left; reflexivity|].
    cbn. rewrite Nat.add_0_r. auto.
  - cbn in E. replace (i + S j)%nat with (S i + j)%nat by lia. destruct (Rltb _ _); [eapply IH; eauto|].
    destruct (reg_inside _ _); [eapply IH; eauto|].
    destruct (IH (S k) (S i) j g E N G) as (e & n & H1 & H2). exists e, n. split; auto. right. auto.
Qed.

Lemma graph_ok h : gates_ok (length (hl_inner h)) (gates_from meet_outer (hl_outer h) 0 0 (hl_inner h) ++ links_from meet 0 (hl_inner h)).
Proof.
  set (es := _ ++ _).
  assert (A : forall e, In e es -> (In e (gates_from meet_outer (hl_outer h) 0 0 (hl_inner h)) /\ exists k i, e_fst e = Gate k /\ e_snd e = Hull i /\ (i < length (hl_inner h))%nat) \/
     exists i j, e_fst e = Hull i /\ e_snd e = Hull j /\ (i < length (hl_inner h))%nat /\ (j < length (hl_inner h))%nat).
  { intros e H. apply in_app_or in H as [H|H]; [left|right].
    - split; auto. destruct (gates_spec _ _ _ _ _ H) as (k & j & g & E1 & E2 & _ & E3 & _). exists k, j.
      repeat split; auto. apply nth_error_Some. congruence.
    - destruct (links_spec _ _ _ H) as (a & b & g & g' & _ & E1 & E2 & E3 & E4 & _). exists a, b.
      repeat split; auto; apply nth_error_Some; congruence. }
  split; [|split].
  - intros e k a He J. destruct (A e He) as [(_ & k' & i & E1 & E2 & _)|(i & j & E1 & E2 & _)];
      destruct J as [[J1 J2]|[J1 J2]]; rewrite ?E1, ?E2 in *; try discriminate; eauto.
  - intros e e' k a b He He' J J'.
    destruct (A e He) as [(G & k1 & i & E1 & E2 & _)|(i & j & E1 & E2 & _)].
    2: { destruct J as [[J1 J2]|[J1 J2]]; rewrite ?E1, ?E2 in *; discriminate. }
    destruct (A e' He') as [(G' & k2 & i' & E1' & E2' & _)|(i' & j & E1' & E2' & _)].
    2: { destruct J' as [[J1 J2]|[J1 J2]]; rewrite ?E1', ?E2' in *; discriminate. }
    assert (F : e_fst e = Gate k /\ a = Hull i).
    { destruct J as [[J1 J2]|[J1 J2]]; rewrite ?E1, ?E2 in *; split; congruence. }
    assert (F' : e_fst e' = Gate k /\ b = Hull i').
    { destruct J' as [[J1 J2]|[J1 J2]]; rewrite ?E1', ?E2' in *; split; congruence. }
    assert (e = e').
    { destruct F as [F _], F' as [F' _]. apply In_nth_error in G as (u & G). apply In_nth_error in G' as (v & G').
      assert (M : forall w x, nth_error (gates_from meet_outer (hl_outer h) 0 0 (hl_inner h)) w = Some x -> e_fst x = Gate w).
      { intros w x Q. pose proof (gates_numbers (hl_outer h) (hl_inner h) 0 0) as N.
        assert (L : (w < length (gates_from meet_outer (hl_outer h) 0 0 (hl_inner h)))%nat) by (apply nth_error_Some; congruence).
        apply (f_equal (fun l => nth_error l w)) in N. rewrite nth_error_map, Q in N. rewrite nth_error_map in N. cbn in N.
        rewrite (nth_error_nth' _ 0%nat) in N by (rewrite seq_length; auto). rewrite seq_nth in N by auto. cbn in N. congruence. }
      apply M in G as G3. apply M in G' as G3'. assert (u = v) by congruence. subst v. congruence. }
    subst e'. destruct F, F'. congruence.
  - intros e i b He J. destruct (A e He) as [(_ & k' & i' & E1 & E2 & L)|(i' & j & E1 & E2 & L & L')];
      destruct J as [[J1 J2]|[J1 J2]]; rewrite ?E1, ?E2 in *; try discriminate; try (assert (i = i') by congruence; subst; auto; fail);
      assert (i = j) by congruence; subst; auto.
Qed.

(** C93: the graph of the object.  Entrances are numbered without gap and belong to one hull each;
    the points of the edges are in the free space of the hulls they join; every pair of hulls in
    reach whose common point is in both is joined, and each pair once. *)
Theorem C93_graph : forall h, exists es, hl_graph (evaluate_hierarchy meet_outer meet h) = Some es /\
  (forall e, In e es ->
     (exists k i g, e_fst e = Gate k /\ e_snd e = Hull i /\ (k < hl_gates (evaluate_hierarchy meet_outer meet h))%nat /\
        nth_error (hl_inner h) i = Some g /\ 1 < rg_gamma g (e_point e) /\ e_dist e = norm (vsub (e_point e) (rg_center g))) \/
     (exists i j g g', (i < j)%nat /\ e_fst e = Hull i /\ e_snd e = Hull j /\
        nth_error (hl_inner h) i = Some g /\ nth_error (hl_inner h) j = Some g' /\
        1 < rg_gamma g (e_point e) /\ 1 < rg_gamma g' (e_point e) /\
        e_dist e = norm (vsub (rg_center g) (e_point e)) + norm (vsub (rg_center g') (e_point e)))) /\
  (forall k, (k < hl_gates (evaluate_hierarchy meet_outer meet h))%nat -> exists e i, In e es /\ e_fst e = Gate k /\ e_snd e = Hull i) /\
  (forall e e' k k', In e es -> In e' es -> e_fst e = Gate k -> e_fst e' = Gate k' -> k = k' \/ e_snd e = e_snd e' -> e = e') /\
  (forall i j g g', (i < j)%nat -> nth_error (hl_inner h) i = Some g -> nth_error (hl_inner h) j = Some g' ->
     norm (vsub (rg_center g) (rg_center g')) <= axes_max g + axes_max g' ->
     1 < rg_gamma g (meet g g') -> 1 < rg_gamma g' (meet g g') ->
     exists e, In e es /\ e_fst e = Hull i /\ e_snd e = Hull j /\ e_point e = meet g g') /\
  (forall e e' i, In e es -> In e' es -> e_fst e = Hull i -> e_fst e' = Hull i -> e_snd e = e_snd e' ->
     e_point e = e_point e' /\ e_dist e = e_dist e').
Proof.
  intros h. cbn [evaluate_hierarchy hl_graph hl_gates]. set (gs := gates_from meet_outer (hl_outer h) 0 0 (hl_inner h)).
  set (ls := links_from meet 0 (hl_inner h)). exists (gs ++ ls). split; auto.
  assert (NTH : forall w x, nth_error gs w = Some x -> e_fst x = Gate w).
  { intros w x Q. pose proof (gates_numbers (hl_outer h) (hl_inner h) 0 0) as N. fold gs in N.
    assert (L : (w < length gs)%nat) by (apply nth_error_Some; congruence).
    apply (f_equal (fun l => nth_error l w)) in N. rewrite nth_error_map, Q in N. rewrite nth_error_map in N. cbn in N.
    rewrite (nth_error_nth' _ 0%nat) in N by (rewrite seq_length; auto). rewrite seq_nth in N by auto. cbn in N. congruence. }
  assert (ING : forall e k, In e (gs ++ ls) -> e_fst e = Gate k -> In e gs).
  { intros e k H E. apply in_app_or in H as [H|H]; auto. destruct (links_spec _ _ _ H) as (a & b & g & g' & _ & E1 & _). congruence. }
  split; [|split; [|split; [|split]]].
  - intros e H. apply in_app_or in H as [H|H]; [left|right].
    + destruct (gates_spec _ _ _ _ _ H) as (k & j & g & E1 & E2 & E3 & E4 & E5 & E6 & E7). exists k, j, g. fold gs in E3.
      repeat (split; [auto; lia|]). auto.
    + destruct (links_spec _ _ _ H) as (a & b & g & g' & L & E1 & E2 & E3 & E4 & E5 & E6 & E7 & E8). exists a, b, g, g'.
      repeat (split; [auto; lia|]). auto.
  - intros k H. destruct (nth_error gs k) as [e|] eqn:E; [|apply nth_error_None in E; lia].
    pose proof (nth_error_In _ _ E) as I. destruct (gates_spec _ _ _ _ _ I) as (k' & j & g & E1 & E2 & _).
    exists e, j. split; [apply in_or_app; auto|]. split; auto.
  - intros e e' k k' H H' E E' D. pose proof (ING e k H E) as I. pose proof (ING e' k' H' E') as I'.
    apply In_nth_error in I as (u & I). apply In_nth_error in I' as (v & I').
    assert (u = v); [|subst v; congruence].
    destruct D as [D|D].
    + apply NTH in I. apply NTH in I'. congruence.
    + pose proof (gates_hulls (hl_outer h) (hl_inner h) 0 0) as N. fold gs in N.
      apply (proj1 (NoDup_nth_error _) N).
      * rewrite map_length. apply nth_error_Some. congruence.
      * rewrite !nth_error_map, I, I'. cbn. congruence.
  - intros i j g g' L E E' N G G'. destruct (links_complete (hl_inner h) 0 i j g g' L E E' N G G') as (e & H1 & H2).
    exists e. split; [apply in_or_app; auto|auto].
  - intros e e' i H H' E E' ES.
    assert (IL : forall x, In x (gs ++ ls) -> e_fst x = Hull i -> In x ls).
    { intros x Q F. apply in_app_or in Q as [Q|Q]; auto. destruct (gates_spec _ _ _ _ _ Q) as (k' & j & g & E1 & _). congruence. }
    apply (links_unique (hl_inner h) 0); auto; try (apply IL; auto). congruence.
Qed.

(** ** The attractor is set *)
Lemma start_routed h0 a k h1 r : (k <= length (hl_inner h0))%nat ->
  (forall j g, nth_error (all_regions h0) j = Some g -> (1 < rg_gamma g a <-> j = k)) ->
  set_attractor (evaluate_hierarchy meet_outer meet h0) a false = (h1, r) ->
  (k = length (hl_inner h0) -> (hl_gates h1 <= 1)%nat) ->
  r = Ok tt /\ exists es, hl_graph h1 = Some es /\ routed es k h1.
Proof.
  intros LK ON H HG. unfold set_attractor in H. cbn [hl_inner hl_outer hl_graph evaluate_hierarchy] in H.
  set (es := gates_from meet_outer (hl_outer h0) 0 0 (hl_inner h0) ++ links_from meet 0 (hl_inner h0)) in *.
  assert (IN : forall j g, nth_error (hl_inner h0) j = Some g -> (1 < rg_gamma g a <-> j = k)).
  { intros j g E. apply ON. unfold all_regions. rewrite nth_error_app1; auto. apply nth_error_Some. congruence. }
  assert (OUT : 1 < rg_gamma (hl_outer h0) a <-> length (hl_inner h0) = k).
  { apply ON. unfold all_regions. rewrite nth_error_app2, Nat.sub_diag; auto. }
  assert (INS : reg_inside (hl_outer h0) a = negb (Nat.eqb k (length (hl_inner h0)))).
  { unfold reg_inside. destruct (Nat.eqb k (length (hl_inner h0))) eqn:E.
    - apply Nat.eqb_eq in E. apply Rleb_false. apply OUT. auto.
    - apply Nat.eqb_neq in E. apply Rleb_true. apply Rnot_lt_le. intros F. apply OUT in F. lia. }
  assert (NW : (reg_inside (hl_outer h0) a && forallb (fun g => reg_inside g a) (hl_inner h0))%bool = false).
  { rewrite INS. destruct (Nat.eqb k (length (hl_inner h0))) eqn:E; auto. cbn [negb andb]. apply Nat.eqb_neq in E.
    destruct (nth_error (hl_inner h0) k) as [g|] eqn:Ek; [|apply nth_error_None in Ek; lia].
    apply not_true_iff_false. intros F. rewrite forallb_forall in F. specialize (F g (nth_error_In _ _ Ek)).
    unfold reg_inside in F. apply Rleb_true in F. pose proof (proj2 (IN _ _ Ek) eq_refl). lra. }
  rewrite NW in H. set (hh := evaluate_hierarchy meet_outer meet h0) in *.
  set (h2 := with_attr _ _) in H.
  assert (E : h1 = h2 /\ r = Ok tt) by (destruct (hl_inner h0); split; congruence). destruct E as [-> ->]. clear H.
  split; auto. exists es.
  assert (F1 : hl_graph h2 = Some es) by (subst h2 hh; destruct (reg_inside (hl_outer h0) a); auto).
  assert (F2 : hl_inner h2 = hl_inner h0) by (subst h2 hh; destruct (reg_inside (hl_outer h0) a); auto).
  assert (F3 : hl_attr h2 = map (fun g => if reg_inside g a then (None, false) else (Some a, true)) (hl_inner h0)) by auto.
  assert (F4 : hl_isout h2 = Nat.eqb k (length (hl_inner h0)) /\ hl_out h2 = if Nat.eqb k (length (hl_inner h0)) then Some a else None).
  { subst h2 hh. rewrite INS. destruct (Nat.eqb k (length (hl_inner h0))); auto. }
  destruct F4 as [F4 F5].
  assert (NTH : forall i o c, nth_error (hl_attr h2) i = Some (o, c) -> (i < length (hl_inner h0))%nat /\
             ((c = true /\ i = k /\ o = Some a) \/ (c = false /\ i <> k /\ o = None))).
  { intros i o c E. rewrite F3, nth_error_map in E. destruct (nth_error (hl_inner h0) i) as [g|] eqn:Eg; [|discriminate].
    split; [apply nth_error_Some; congruence|]. cbn in E. unfold reg_inside in E. destruct (Rleb (rg_gamma g a) 1) eqn:ER.
    - right. apply Rleb_true in ER. repeat split; try congruence. intros ->. pose proof (proj2 (IN _ _ Eg) eq_refl). lra.
    - left. apply Rleb_false in ER. repeat split; try congruence. apply (IN _ _ Eg). auto. }
  split; auto. constructor; auto.
  - rewrite F3, map_length, F2. auto.
  - rewrite F2. apply graph_ok.
  - rewrite F2. auto.
  - intros i o c E. destruct (NTH _ _ _ E) as [_ [(A & B & _)|(A & B & _)]]; split; congruence.
  - rewrite F2. auto.
  - rewrite F2. intros L. exists a. rewrite F3, nth_error_map.
    destruct (nth_error (hl_inner h0) k) as [g|] eqn:Eg; [|apply nth_error_None in Eg; lia]. cbn.
    unfold reg_inside. rewrite (proj2 (Rleb_false _ _) (proj2 (IN _ _ Eg) eq_refl)). auto.
  - rewrite F4, F5. intros ->. eauto.
  - rewrite F4. intros E. apply HG. apply Nat.eqb_eq. auto.
  - intros i p c E. destruct (NTH _ _ _ E) as [_ [(A & B & _)|(A & B & C)]]; [|discriminate]. subst c.
    eapply leads_goal; eauto.
  - intros p j E. rewrite F5 in E. destruct (Nat.eqb k (length (hl_inner h0))) eqn:EE; [|discriminate].
    split; [|intros _]; eapply leads_out; eauto; rewrite F5; eauto.
Qed.

Lemma attractor_objects h0 a h1 r : set_attractor (evaluate_hierarchy meet_outer meet h0) a false = (h1, r) ->
  hl_inner h1 = hl_inner h0 /\ hl_outer h1 = hl_outer h0.
Proof.
  intros H. unfold set_attractor in H. destruct (reg_inside _ _ && _); cbn [hl_inner evaluate_hierarchy hl_graph hl_outer] in H.
    - destruct (argmin _) as [n|].
      + destruct (Nat.eqb n _); destruct (hl_inner h0) eqn:E; cbn [hl_inner evaluate_hierarchy with_out with_attr] in *;
        assert (Q : h1 = h1) by auto; match type of H with (?q, _) = _ => assert (h1 = q) by congruence end; subst h1;
        destruct (reg_inside (hl_outer h0) a); cbn; auto.
      + destruct (hl_inner h0) eqn:E; match type of H with (?q, _) = _ => assert (h1 = q) by congruence end; subst h1;
        destruct (reg_inside (hl_outer h0) a); cbn; auto.
    - destruct (hl_inner h0) eqn:E; match type of H with (?q, _) = _ => assert (h1 = q) by congruence end; subst h1;
        destruct (reg_inside (hl_outer h0) a); cbn; auto.
Qed.

(** A run: positions evaluated one after the other, whatever their outcome. *)
Fixpoint run (dim : nat) (h : hull) (xs : list vec) : hull :=
  match xs with [] => h | x :: xs' => run dim (fst (evaluate_local sp_dist sp_path orth1 dim h x)) xs' end.
Lemma run_app dim : forall xs h x, run dim h (xs ++ [x]) = fst (evaluate_local sp_dist sp_path orth1 dim (run dim h xs) x).
Proof. induction xs; intros; cbn; auto. Qed.
Lemma run_routed es k dim : forall xs h, routed es k h -> (forall x, In x xs -> reachable_start h k x) ->
  routed es k (run dim h xs) /\ ext h (run dim h xs).
Proof.
  induction xs as [|x xs IH]; intros h R A; cbn [run]; [split; auto using ext_refl|].
  destruct (evaluate_local sp_dist sp_path orth1 dim h x) as [h1 r] eqn:E. cbn [fst].
  pose proof (proj1 (evaluate_keeps _ _ _ _ _ _ _ _ E)) as X.
  apply (evaluate_routed es k) in E; auto; [|apply A; left; auto].
  destruct (IH h1 E) as [I1 I2].
  - intros y Hy. destruct (A y (or_intror Hy)) as [B|[B|[B1 B2]]]; unfold reachable_start;
      rewrite (ex_outer _ _ X), (ex_inner _ _ X), (ex_gates _ _ X); auto.
  - split; auto. eapply ext_trans; eauto.
Qed.

Definition node_of (h : hull) (j : nat) : hnode := if Nat.eqb j (length (hl_inner h)) then Gate 0 else Hull j.

Lemma evaluate_assigned dim h x h' v j g : evaluate_local sp_dist sp_path orth1 dim h x = (h', Ok v) ->
  nth_error (all_regions h) j = Some g -> 1 < rg_gamma g x ->
  exists p, attractor_of h' (node_of h j) = Ok (Some p).
Proof.
  intros H Eg G. unfold evaluate_local in H.
  assert (LG : length (hull_gammas h x) = S (length (hl_inner h))) by apply gammas_length.
  assert (LW : length (hull_weights (hull_gammas h x)) = S (length (hl_inner h))) by (rewrite weights_length; auto).
  assert (LJ : (j < S (length (hl_inner h)))%nat).
  { assert (j < length (all_regions h))%nat by (apply nth_error_Some; congruence). unfold all_regions in *. rewrite app_length in *. cbn in *. lia. }
  assert (EG : nth_error (hull_gammas h x) j = Some (rg_gamma g x)).
  { unfold hull_gammas. rewrite nth_error_map. unfold all_regions in Eg. rewrite Eg. auto. }
  assert (S1 : rsum (hull_weights (hull_gammas h x)) = 1).
  { apply weights_sum_free. exists (rg_gamma g x). split; auto. eapply nth_error_In; eauto. }
  assert (WJ : exists w, nth_error (hull_weights (hull_gammas h x)) j = Some w /\ w <> 0).
  { unfold hull_weights in *. set (ws := map (fun g0 => Rmax (g0 - 1) 0) (hull_gammas h x)) in *.
    assert (EW : nth_error ws j = Some (rg_gamma g x - 1)).
    { unfold ws. rewrite nth_error_map, EG. cbn. rewrite Rmax_left by lra. auto. }
    destruct (Rltb 0 (rsum ws)) eqn:ES.
    - apply Rltb_true in ES. rewrite nth_error_map, EW. exists ((rg_gamma g x - 1) / rsum ws). split; auto.
      intros F. assert (rg_gamma g x - 1 = 0); [|lra].
      replace (rg_gamma g x - 1) with ((rg_gamma g x - 1) / rsum ws * rsum ws) by (field; lra). rewrite F. ring.
    - exists (rg_gamma g x - 1). split; auto. lra. }
  destruct WJ as (w & EW & NW).
  destruct (Req_EM_T (rsum (hull_weights (hull_gammas h x))) 0) as [Z|Z]; [lra|].
  destruct (inner_loop _ _ _ h x 0 _) as [h1 r1] eqn:E1. destruct r1 as [l1|]; [|discriminate].
  destruct (outer_step _ _ h1 x _ _) as [h2 r2] eqn:E2. unfold bind in H.
  destruct r2 as [l2|]; [|discriminate]. assert (h' = h2) by congruence. subst h'.
  pose proof (proj1 (outer_step_keeps _ _ _ _ _ _ _ _ E2)) as X.
  unfold node_of. destruct (Nat.eqb j (length (hl_inner h))) eqn:EJ.
  - apply Nat.eqb_eq in EJ. subst j. unfold outer_step in E2.
    rewrite (nth_error_nth _ _ 0 EW) in E2. destruct (Req_EM_T w 0); [contradiction|].
    destruct (match hl_out h1 with None => update_outside sp_path h1 x | Some _ => (h1, Ok tt) end) as [h3 r3].
    destruct r3; [|discriminate]. unfold bind in E2. cbn [attractor_of].
    destruct (hl_out h3) as [q|] eqn:EO; [|discriminate].
    exists q. assert (h2 = h3) by congruence. subst. rewrite EO. auto.
  - apply Nat.eqb_neq in EJ. assert (LI : (j < length (hl_inner h))%nat) by lia.
    destruct (nth_error (hl_inner h) j) as [g'|] eqn:Eg'; [|apply nth_error_None in Eg'; lia].
    destruct (inner_loop_assigned _ _ _ _ _ _ E1 j g' (rg_gamma g x) w) as (p & Ep); auto.
    { clear - Eg' EG EW. revert EG EW Eg'. generalize (hull_gammas h x), (hull_weights (hull_gammas h x)), (hl_inner h).
      intros gs ws l. revert gs ws l. induction j as [|j IH]; intros [|g1 gs] [|w1 ws] [|a l]; cbn; intros; try discriminate.
      - congruence.
      - apply IH; auto. }
    exists p. cbn [attractor_of Nat.add] in Ep |- *. destruct (nth_error (hl_attr h1) j) as [[o c]|] eqn:En; [|discriminate].
    assert (o = Some p) by congruence. subst o. rewrite (ex_some _ _ X _ _ _ En). auto.
Qed.

Lemma walk_last es a b : forall l, walk es (l ++ [a; b]) -> exists e, In e es /\ joins e a b.
Proof.
  induction l as [|x l IH]; intros W.
  - cbn in W. apply W.
  - apply IH. destruct l; cbn in *; apply W.
Qed.
Lemma update_path_ok es k h i h' r :
  (forall es a b path, route es a b path -> sp_path es a b <> None /\ sp_dist es a b <> None) ->
  routed es k h -> (hl_isout h = true -> hl_gates h = 1%nat) ->
  (exists path, route es (Hull i) (node_of h k) path) ->
  update_path sp_dist sp_path h i = (h', r) -> r = Ok tt.
Proof.
  intros CO R G1 (path0 & PR) H. destruct (CO _ _ _ _ PR) as [CP CD].
  unfold update_path, edges_of in H. rewrite (rt_graph _ _ _ R) in H.
  rewrite (containing_only h k (rt_len _ _ _ R) (rt_only _ _ _ R)) in H.
  assert (T : forall target, leads es h target -> gate_zero target = target -> sp_path es (Hull i) target <> None ->
     match sp_path es (Hull i) target with None => (h, Err EExc) | Some path => assign_path es h path end = (h', r) -> r = Ok tt).
  { clear H. intros target LT GZ NN H. destruct (sp_path es (Hull i) target) as [path|] eqn:EP; [|congruence].
    destruct (sp_sound _ _ _ _ EP) as (P1 & P2 & P3 & P4).
    destruct (path_form _ _ (rt_ok _ _ _ R) path i P1 P3 P4) as (is & b & E). subst path.
    rewrite last_snoc in P2. subst b.
    destruct (assign_leads es (length (hl_inner h)) target is h h' r) as (R1 & R2 & R3 & R4 & R5); auto.
    - eapply NoDup_hulls; eauto.
    - apply R.
    - apply (walk_lt _ es is target); auto. apply R.
    - intros j p c E _. eapply rt_leads; eauto. }
  unfold gate_candidates in H. unfold node_of in *.
  destruct (Nat.ltb k (length (hl_inner h))) eqn:EK.
  - apply Nat.ltb_lt in EK. rewrite (rt_isout _ _ _ R) in H.
    assert (NE : Nat.eqb k (length (hl_inner h)) = false) by (apply Nat.eqb_neq; lia). rewrite NE in *.
    cbn [map app cand_argmin nth_error] in H. apply (T (Hull k)); auto.
    destruct (rt_goal _ _ _ R EK) as (p & E). eapply leads_goal; eauto.
  - apply Nat.ltb_ge in EK. assert (EE : k = length (hl_inner h)) by (pose proof (rt_k _ _ _ R); lia).
    assert (NE : Nat.eqb k (length (hl_inner h)) = true) by (apply Nat.eqb_eq; auto).
    assert (IO : hl_isout h = true) by (rewrite (rt_isout _ _ _ R); auto).
    rewrite IO in H. rewrite NE in *. rewrite (G1 IO) in H. destruct (rt_out _ _ _ R IO) as (a & EO).
    cbn [seq mapM] in H. unfold bind in H. cbv beta in H.
    assert (GP : exists p, gate_point es 0 = Ok p).
    { destruct PR as (P1 & P2 & P3 & P4).
      destruct (path_form _ _ (rt_ok _ _ _ R) path0 i P1 P3 P4) as (is & b & E). subst path0. rewrite last_snoc in P2. subst b.
      destruct (exists_last (l := is)) as (is' & j & ->); [intros ->; discriminate|].
      rewrite map_app in P4. cbn [map] in P4. rewrite <- app_assoc in P4. cbn [app] in P4.
      apply walk_last in P4 as (e & He & J). unfold gate_point.
      destruct (find _ es) as [e'|] eqn:EF; [eauto|]. exfalso. apply (find_none _ _ EF) in He. apply orb_false_iff in He as [F1 F2].
      destruct J as [[J1 J2]|[J1 J2]].
      - rewrite J2 in F2. discriminate.
      - rewrite J1 in F1. discriminate. }
    destruct GP as (p & Ep). rewrite Ep, EO in H. destruct (sp_dist es (Hull i) (Gate 0)) as [d|]; [|contradiction].
    cbn [map app cand_argmin nth_error fst snd] in H. apply (T (Gate 0)); auto. eapply leads_out; eauto.
Qed.

(** C91.  The attractor is in one region (hull [k], or [k] the outer obstacle with at most one
    entrance).  After any evaluations, outside only if the attractor is outside or in the first
    hull of an object with one entrance, every assigned attractor leads to the attractor, and a
    successful evaluation has assigned the attractors of all regions with a weight.  Missing:
    several entrances, evaluations outside when the attractor is in another hull, an attractor in
    several hulls or in the wall (refuted below). *)
Theorem C91_routes_partial : forall dim h0 a k h1 r xs, (k <= length (hl_inner h0))%nat ->
  (forall j g, nth_error (all_regions h0) j = Some g -> (1 < rg_gamma g a <-> j = k)) ->
  set_attractor (evaluate_hierarchy meet_outer meet h0) a false = (h1, r) ->
  (k = length (hl_inner h0) -> (hl_gates h1 <= 1)%nat) ->
  (forall x, In x xs -> reachable_start h1 k x) ->
  r = Ok tt /\ exists es, hl_graph h1 = Some es /\
  (forall j p, attractor_of (run dim h1 xs) (node_of h0 j) = Ok (Some p) -> leads es (run dim h1 xs) (node_of h0 j)) /\
  (forall x h' v j g, reachable_start h1 k x -> evaluate_local sp_dist sp_path orth1 dim (run dim h1 xs) x = (h', Ok v) ->
     nth_error (all_regions h0) j = Some g -> 1 < rg_gamma g x -> leads es h' (node_of h0 j)).
Proof.
  intros dim h0 a k h1 r xs LK ON H HG A.
  destruct (start_routed _ _ _ _ _ LK ON H HG) as (-> & es & EG & R). split; auto. exists es. split; auto.
  destruct (run_routed es k dim xs h1 R A) as [R' X].
  pose proof (attractor_objects _ _ _ _ H) as IN.
  destruct IN as [IN OU].
  assert (L : forall h j p, routed es k h -> attractor_of h (node_of h0 j) = Ok (Some p) -> leads es h (node_of h0 j)).
  { intros h j p Rh E. unfold node_of in *. destruct (Nat.eqb j _).
    - cbn in E. assert (E' : hl_out h = Some p) by congruence. exact (proj1 (rt_outside _ _ _ Rh p 0%nat E')).
    - cbn in E. destruct (nth_error (hl_attr h) j) as [[o c]|] eqn:En; [|discriminate].
      assert (o = Some p) by congruence. subst o. eapply rt_leads; eauto. }
  split; [intros; eapply L; eauto|].
  intros x h' v j g AX EV Eg G.
  destruct (evaluate_assigned dim (run dim h1 xs) x h' (v) j g EV) as (p & Ep); auto.
  { unfold all_regions in *. rewrite (ex_inner _ _ X), (ex_outer _ _ X), IN, OU. auto. }
  assert (NO : node_of (run dim h1 xs) j = node_of h0 j) by (unfold node_of; rewrite (ex_inner _ _ X), IN; auto).
  rewrite NO in Ep. eapply L; eauto. eapply evaluate_routed; eauto.
  unfold reachable_start in *. rewrite (ex_outer _ _ X), (ex_inner _ _ X), (ex_gates _ _ X). auto.
Qed.
(** C91: no hull with a route to the goal is left without attractor. *)
Theorem C91_found : forall dim h0 a k h1 r xs i es, 
  (forall es a b path, route es a b path -> sp_path es a b <> None /\ sp_dist es a b <> None) ->
  (k <= length (hl_inner h0))%nat ->
  (forall j g, nth_error (all_regions h0) j = Some g -> (1 < rg_gamma g a <-> j = k)) ->
  set_attractor (evaluate_hierarchy meet_outer meet h0) a false = (h1, r) ->
  (k = length (hl_inner h0) -> hl_gates h1 = 1%nat) ->
  (forall x, In x xs -> reachable_start h1 k x) ->
  hl_graph h1 = Some es -> (i < length (hl_inner h0))%nat ->
  (exists path, route es (Hull i) (node_of h0 k) path) ->
  exists h', update_path sp_dist sp_path (run dim h1 xs) i = (h', Ok tt) /\ leads es h' (Hull i).
Proof.
  intros dim h0 a k h1 r xs i es CO LK ON H HG A EG LI PR.
  destruct (start_routed _ _ _ _ _ LK ON H) as (-> & es' & EG' & R).
  { intros E. rewrite (HG E). auto. }
  assert (es' = es) by congruence. subst es'.
  destruct (run_routed es k dim xs h1 R A) as [R' X]. destruct (attractor_objects _ _ _ _ H) as [IN OU].
  destruct (update_path sp_dist sp_path (run dim h1 xs) i) as [h' r'] eqn:E.
  assert (r' = Ok tt).
  { apply (update_path_ok es k (run dim h1 xs) i h' r'); auto.
    - rewrite (ex_isout _ _ X), (ex_gates _ _ X), (rt_isout _ _ _ R), IN. intros F. apply HG. apply Nat.eqb_eq. auto.
    - unfold node_of in *. rewrite (ex_inner _ _ X), IN. auto. }
  subst r'. exists h'. split; auto. destruct (update_path_routed es k _ i h' _ R' E) as [_ L]. apply L; auto.
  rewrite (ex_inner _ _ X), IN. auto.
Qed.
End Graph.
End Run.
Print Assumptions C93_graph.
Print Assumptions C91_routes_partial.
Print Assumptions C91_found.
