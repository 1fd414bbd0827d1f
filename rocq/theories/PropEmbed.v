(** C164: the names of the nodes and the nodes without weight do not matter for the weighted mean. *)
Require Import Reals List Lra Lia Bool ZArith Permutation.
From Verif Require Import Base Vec Angle RotModel Spec RotProofs SeqProofs TreeModel TreeSpec
  TreeProofs TreeWeights TreeReduce TreeGeom TreeCases TreeIndep TreeExample PropTree ContProofs PropContinuity.
Import ListNotations.
Open Scope R_scope.

(** *** Specification *)
(** [t'] contains the tree [t] under the names given by [f], and possibly further nodes below it. *)
Record embedded (f : nid -> nid) (t t' : tree) : Prop := {
  em_inj : forall x y, In x (ids t) -> In y (ids t) -> f x = f y -> x = y;
  em_node : forall x a, node t x a -> node t' (f x) a;
  em_edge : forall p x, edge t p x -> edge t' (f p) (f x)
}.

Section Embed.
Variables (n : nat) (t t' : tree) (r r' : nid) (f : nid -> nid).
Hypothesis W : rooted_tree n t r.
Hypothesis W' : rooted_tree n t' r'.
Hypothesis Hn : (2 <= n)%nat.
Hypothesis EM : embedded f t t'.

Lemma em_get x : In x (ids t) -> exists a, get_attrs t x = Ok a /\ get_attrs t' (f x) = Ok a.
Proof.
  intros H. destruct (get_dirn n t r W x H) as (a & E & _). exists a. split; [auto|].
  apply (get_attrs_node n t' r' W'). apply (em_node f t t' EM). apply (get_attrs_node n t r W). auto.
Qed.
Lemma em_ids x : In x (ids t) -> In (f x) (ids t').
Proof.
  intros H. destruct (em_get x H) as (a & _ & E). apply (get_attrs_node n t' r' W') in E.
  apply (node_in_ids t') in E. auto.
Qed.
Lemma em_lvl x : In x (ids t) -> lvl t' (f x) = lvl t x.
Proof. intros H. destruct (em_get x H) as (a & E & E'). unfold lvl. rewrite E, E'. auto. Qed.
Lemma em_dirn x : In x (ids t) -> dirn t' (f x) = dirn t x.
Proof. intros H. destruct (em_get x H) as (a & E & E'). unfold dirn. rewrite E, E'. auto. Qed.
Lemma em_root : f r = r'.
Proof.
  pose proof (root_in n t r W) as Hr. pose proof (em_lvl r Hr) as L. rewrite (root_lvl n t r W) in L.
  destruct (par_cases n t' r' W' (f r) (em_ids r Hr)) as [E|E]; [auto|].
  apply (edge_lvl n t' r' W') in E. lia.
Qed.
Lemma em_par x : In x (ids t) -> par t' (f x) = f (par t x).
Proof.
  intros H. destruct (par_cases n t r W x H) as [->|E].
  - rewrite (par_root n t r W), em_root, (par_root n t' r' W'). auto.
  - apply (par_edge n t' r' W'). apply (em_edge f t t' EM). auto.
Qed.
Lemma em_orient x : In x (ids t) -> orient t' (f x) = orient t x.
Proof.
  intros H. unfold orient. rewrite em_par by auto.
  rewrite !em_dirn by (try apply (par_in n t r W); auto). auto.
Qed.
Lemma em_desc x y : desc t x y -> desc t' (f x) (f y).
Proof.
  induction 1 as [y E|y z D IH E].
  - apply desc_child, (em_edge f t t' EM); auto.
  - eapply desc_step; [exact IH|apply (em_edge f t t' EM); auto].
Qed.
(** What lies above an embedded node is embedded. *)
Lemma em_desc_inv x' : forall y', desc t' x' y' -> forall y, In y (ids t) -> y' = f y ->
  exists x, x' = f x /\ desc t x y.
Proof.
  assert (E : forall p y, edge t' p (f y) -> In y (ids t) -> p = f (par t y) /\ edge t (par t y) y).
  { intros p y Ep Hy. pose proof (par_edge n t' r' W' p (f y) Ep) as P. rewrite em_par in P by auto.
    destruct (par_cases n t r W y Hy) as [->|Ey]; [|auto].
    rewrite em_root in Ep. exfalso. exact (no_edge_root n t' r' W' p Ep). }
  induction 1 as [y' Ep|y' z' D IH Ep]; intros y Hy ->.
  - destruct (E _ _ Ep Hy) as [-> Ey]. exists (par t y). split; [auto|apply desc_child; auto].
  - destruct (E _ _ Ep Hy) as [-> Ey]. destruct (IH (par t y)) as (x & -> & Dx); [apply (par_in n t r W); auto|auto|].
    exists x. split; [auto|]. eapply desc_step; eauto.
Qed.
Lemma em_anc k : forall y, In y (ids t) -> anc t' k (f y) = map f (anc t k y).
Proof.
  induction k; intros y H; [reflexivity|]. cbn [anc map]. rewrite em_par by auto. f_equal.
  apply IHk, (par_in n t r W); auto.
Qed.

(** *** Weights *)
Variables (own own' : nid -> R).
Hypothesis OWf : forall x, In x (ids t) -> own' (f x) = own x.
Hypothesis OW0 : forall y, (forall x, In x (ids t) -> f x <> y) -> own' y = 0.
Hypothesis OW : forall y, In y (ids t) -> 0 <= own y.

Definition inimg (y : nid) : bool := existsb (fun x => nid_eqb (f x) y) (ids t).
Lemma inimg_true y : inimg y = true <-> exists x, In x (ids t) /\ f x = y.
Proof.
  unfold inimg. rewrite existsb_exists. split; intros (x & H & E); exists x; split; auto; apply nid_eqb_true; auto.
Qed.
Lemma inimg_false y : inimg y = false -> forall x, In x (ids t) -> f x <> y.
Proof. intros H x Hx E. assert (inimg y = true); [apply inimg_true; eauto|congruence]. Qed.

Lemma rsum_filter (g : nid -> bool) (o : nid -> R) l : (forall y, In y l -> g y = false -> o y = 0) ->
  rsum (map o l) = rsum (map o (filter g l)).
Proof.
  induction l as [|y l IH]; intros H; [reflexivity|]. cbn [map filter].
  assert (I := IH (fun z Hz => H z (or_intror Hz))). unfold rsum in *.
  destruct (g y) eqn:E; cbn [map fold_right]; [rewrite I; auto|].
  rewrite (H y (or_introl eq_refl) E), I. ring.
Qed.
Lemma rsum_perm_own (o : nid -> R) l l2 : Permutation l l2 -> rsum (map o l) = rsum (map o l2).
Proof.
  unfold rsum. induction 1; cbn [map fold_right]; try lra.
Qed.
Lemma NoDup_map_f l : (forall x, In x l -> In x (ids t)) -> NoDup l -> NoDup (map f l).
Proof.
  intros I N. induction N as [|x l Hx N IH]; [constructor|]. cbn [map]. constructor.
  - intros H. apply in_map_iff in H as (z & E & Hz). apply Hx.
    rewrite <- (em_inj f t t' EM z x); auto; apply I; [right|left]; auto.
  - apply IH. intros z Hz. apply I. right. auto.
Qed.
Lemma em_wsub x : In x (ids t) -> wsub t' own' (f x) = wsub t own x.
Proof.
  intros H. unfold wsub. rewrite (OWf x H). f_equal.
  destruct (dlist_spec n t r W x) as (_ & N1 & _). destruct (dlist_spec n t' r' W' (f x)) as (_ & N2 & _).
  rewrite (rsum_filter inimg own') by (intros y _ E; apply OW0, inimg_false; auto).
  assert (P : Permutation (filter inimg (dlist t' (f x))) (map f (dlist t x))).
  { apply NoDup_Permutation.
    - apply NoDup_filter; auto.
    - apply NoDup_map_f; auto. intros y Hy. apply (dlist_in n t r W) in Hy. apply (desc_ids n t r W) in Hy. tauto.
    - intros y. rewrite filter_In, in_map_iff, (dlist_in n t' r' W'), inimg_true. split.
      + intros (D & z & Hz & <-). exists z. split; [auto|]. apply (dlist_in n t r W).
        destruct (em_desc_inv _ _ D z Hz eq_refl) as (x0 & E0 & D0).
        assert (x = x0); [|subst; auto]. apply (em_inj f t t' EM); auto. apply (desc_ids n t r W) in D0. tauto.
      + intros (z & <- & Hz). apply (dlist_in n t r W) in Hz. split; [apply em_desc; auto|].
        exists z. apply (desc_ids n t r W) in Hz. tauto. }
  rewrite (rsum_perm_own own' _ _ P), map_map. unfold rsum.
  assert (I : forall y, In y (dlist t x) -> In y (ids t)).
  { intros y Hy. apply (dlist_in n t r W) in Hy. apply (desc_ids n t r W) in Hy. tauto. }
  clear - OWf I. induction (dlist t x) as [|y l IH]; [reflexivity|]. cbn [map fold_right].
  rewrite OWf by (apply I; left; auto). rewrite IH; auto. intros z Hz. apply I. right. auto.
Qed.
Lemma em_own_nonneg y : 0 <= own' y.
Proof.
  destruct (inimg y) eqn:E.
  - apply inimg_true in E as (x & Hx & <-). rewrite OWf by auto. auto.
  - rewrite OW0; [lra|]. apply inimg_false; auto.
Qed.
Lemma em_wsub_out y : In y (ids t') -> (forall x, In x (ids t) -> f x <> y) -> wsub t' own' y = 0.
Proof.
  intros H N. unfold wsub. rewrite (OW0 y N).
  assert (I : forall z, In z (dlist t' y) -> own' z = 0).
  { intros z Hz. apply (dlist_in n t' r' W') in Hz. apply OW0. intros x Hx E.
    destruct (em_desc_inv _ _ Hz x Hx (eq_sym E)) as (x0 & E0 & D). apply (N x0); [|auto].
    apply (desc_ids n t r W) in D. tauto. }
  assert (Z : rsum (map own' (dlist t' y)) = 0); [|rewrite Z; ring].
  unfold rsum. induction (dlist t' y) as [|z l IH]; [reflexivity|]. cbn [map fold_right].
  rewrite I by (left; auto). rewrite IH by (intros w Hw; apply I; right; auto). ring.
Qed.

(** *** The levels *)
Hypothesis TOT : wsub t own r <= 1.
Hypothesis NA' : forall p x, edge t' p x -> dot (dirn t' p) (dirn t' x) <> -1.
Hypothesis EX' : forall p x, edge t' p x -> exact_pair (dirn t' p) (dirn t' x).
Variables sl sl' : list nid.
Hypothesis SL : level_sorted t sl.
Hypothesis SL' : level_sorted t' sl'.
Variables orth0 orth1 : vec -> vec.
Hypothesis OL0 : forall v, length (orth0 v) = length v.
Hypothesis OL1 : forall v, length (orth1 v) = length v.

Lemma em_na p x : edge t p x -> dot (dirn t p) (dirn t x) <> -1.
Proof.
  intros E. pose proof (edge_ids n t r W p x E) as [Hp Hx]. rewrite <- (em_dirn p Hp), <- (em_dirn x Hx).
  apply NA', (em_edge f t t' EM); auto.
Qed.
Lemma em_ex p x : edge t p x -> exact_pair (dirn t p) (dirn t x).
Proof.
  intros E. pose proof (edge_ids n t r W p x E) as [Hp Hx]. rewrite <- (em_dirn p Hp), <- (em_dirn x Hx).
  apply EX', (em_edge f t t' EM); auto.
Qed.
Lemma em_tot : wsub t' own' r' <= 1.
Proof. rewrite <- em_root, em_wsub by (apply (root_in n t r W)). exact TOT. Qed.
Lemma em_ow : forall y, In y (ids t') -> 0 <= own' y.
Proof. intros y _. apply em_own_nonneg. Qed.

Notation pk := (fun k => ps_pt (p2 t sl own orth0 (seq 0 k))).
Notation pk' := (fun k => ps_pt (p2 t' sl' own' orth1 (seq 0 k))).

Lemma pk_ok k y : In y (ids t) -> rot_ok n (pk k y) /\ rangle (pk k y) = rangle (orient t y) * wsub t own y.
Proof. intros H. apply (pt_ok n t r W Hn em_na em_ex sl SL orth0 own k y); auto. Qed.
Lemma pk_ok' k y : In y (ids t') -> rot_ok n (pk' k y) /\ rangle (pk' k y) = rangle (orient t' y) * wsub t' own' y.
Proof.
  intros H. apply (pt_ok n t' r' W' Hn NA' EX' sl' SL' orth1 own' k y); auto; [apply em_ow|apply em_tot].
Qed.

Definition tsum (g : nid -> vec) (l : list nid) : vec := fold_right (fun x acc => vadd (g x) acc) (vzero n) l.
Lemma tsum_length g l : (forall x, In x l -> length (g x) = n) -> length (tsum g l) = n.
Proof.
  induction l as [|x l IH]; intros H; [apply length_vzero|]. cbn [tsum fold_right].
  rewrite length_vadd. fold (tsum g l). rewrite IH by (intros; apply H; right; auto).
  rewrite H by (left; auto). lia.
Qed.
Lemma tsum_perm g l l2 : Permutation l l2 -> tsum g l = tsum g l2.
Proof.
  induction 1 as [|x l l2 P IH|x y l|l l2 l3 P1 IH1 P2 IH2]; cbn [tsum fold_right]; auto.
  - fold (tsum g l) (tsum g l2). rewrite IH. auto.
  - vext. ring.
  - congruence.
Qed.
Lemma tsum_filter g (b : nid -> bool) l : (forall x, In x l -> length (g x) = n) ->
  (forall x, In x l -> b x = false -> g x = vzero n) -> tsum g l = tsum g (filter b l).
Proof.
  induction l as [|x l IH]; intros L H; [reflexivity|]. cbn [filter].
  assert (I := IH (fun z Hz => L z (or_intror Hz)) (fun z Hz => H z (or_intror Hz))).
  destruct (b x) eqn:E; cbn [tsum fold_right]; fold (tsum g l); [rewrite I; auto|].
  rewrite (H x (or_introl eq_refl) E), I.
  assert (LT : length (tsum g (filter b l)) = n).
  { apply tsum_length. intros z Hz. apply filter_In in Hz as [Hz _]. apply L. right. auto. }
  clear - LT. vext. ring.
Qed.
Lemma tsum_map g h l : (forall x, In x l -> g (f x) = h x) -> tsum g (map f l) = tsum h l.
Proof.
  induction l as [|x l IH]; intros H; [reflexivity|]. cbn [map tsum fold_right]. fold (tsum g (map f l)) (tsum h l).
  rewrite H by (left; auto). rewrite IH; auto. intros z Hz. apply H. right. auto.
Qed.

Lemma em_LS k :
  (forall y, In y (ids t) -> (k <= lvl t y)%nat -> wsub t own y <> 0 -> pk' k (f y) = pk k y) ->
  LS n t' sl' (pk' k) k = LS n t sl (pk k) k.
Proof.
  intros H. unfold LS.
  set (g' := fun x => vscale (rangle (pk' k x)) (rb1 (pk' k x))).
  set (g := fun x => vscale (rangle (pk k x)) (rb1 (pk k x))).
  change (tsum g' (filter (fun x => Nat.eqb (lvl t' x) k) sl') = tsum g (filter (fun x => Nat.eqb (lvl t x) k) sl)).
  assert (I : forall x, In x sl <-> In x (ids t)).
  { intros x. destruct SL as [P _]. split; apply Permutation_in; [exact P|apply Permutation_sym; exact P]. }
  assert (I' : forall x, In x sl' <-> In x (ids t')).
  { intros x. destruct SL' as [P _]. split; apply Permutation_in; [exact P|apply Permutation_sym; exact P]. }
  assert (ND : NoDup sl) by (destruct SL as [P _]; apply (Permutation_NoDup (Permutation_sym P)), (rt_unique _ _ _ W)).
  assert (ND' : NoDup sl') by (destruct SL' as [P _]; apply (Permutation_NoDup (Permutation_sym P)), (rt_unique _ _ _ W')).
  rewrite (tsum_filter g' inimg).
  2:{ intros x Hx. apply filter_In in Hx as [Hx _]. apply I' in Hx. unfold g'. rewrite length_vscale.
      destruct (pk_ok' k x Hx) as [(_ & L & _) _]. exact L. }
  2:{ intros x Hx E. apply filter_In in Hx as [Hx _]. apply I' in Hx. unfold g'.
      destruct (pk_ok' k x Hx) as [(_ & L & _) A]. rewrite A, em_wsub_out; [|auto|apply inimg_false; auto].
      cbv beta in *. vext. ring. }
  assert (P : Permutation (filter inimg (filter (fun x => Nat.eqb (lvl t' x) k) sl'))
                (map f (filter (fun x => Nat.eqb (lvl t x) k) sl))).
  { apply NoDup_Permutation.
    - apply NoDup_filter, NoDup_filter; auto.
    - apply NoDup_map_f; [|apply NoDup_filter; auto]. intros x Hx. apply filter_In in Hx as [Hx _]. apply I; auto.
    - intros y. rewrite !filter_In, in_map_iff, inimg_true, Nat.eqb_eq, I'. split.
      + intros [[Hy L] (x & Hx & <-)]. exists x. split; [auto|]. apply filter_In. rewrite I, Nat.eqb_eq.
        rewrite em_lvl in L by auto. auto.
      + intros (x & <- & Hx). apply filter_In in Hx as [Hx L]. apply I in Hx. apply Nat.eqb_eq in L.
        rewrite em_lvl by auto. split; [split; [apply em_ids|]; auto|eauto]. }
  rewrite (tsum_perm g' _ _ P). apply tsum_map.
  intros x Hx. apply filter_In in Hx as [Hx L]. apply I in Hx. apply Nat.eqb_eq in L. unfold g', g.
  destruct (Req_EM_T (wsub t own x) 0) as [Z|NZ].
  - destruct (pk_ok k x Hx) as [(_ & L1 & _) A1]. destruct (pk_ok' k (f x) (em_ids x Hx)) as [(_ & L2 & _) A2].
    rewrite A1, A2, em_wsub, Z by auto. cbv beta in *. vext. ring.
  - rewrite H by (auto; lia). auto.
Qed.

Lemma em_pull x p : In x (ids t) -> pull_pos t' own' (f x) p = pull_pos t own x p.
Proof. intros H. unfold pull_pos. rewrite em_orient, em_wsub by auto. auto. Qed.
Lemma em_p1 y : In y (ids t) -> wsub t own y <> 0 -> p1 t' own' (rev sl') (f y) = p1 t own (rev sl) y.
Proof.
  intros H NZ. rewrite (p1_pos n t r W Hn em_na sl SL own OW TOT y H NZ).
  rewrite (p1_pos n t' r' W' Hn NA' sl' SL' own' em_ow em_tot (f y)); [|apply em_ids; auto|rewrite em_wsub; auto].
  rewrite em_lvl, em_anc by auto.
  assert (S0 : scaled t' own' (f y) = scaled t own y) by (unfold scaled; rewrite em_orient, em_wsub; auto).
  rewrite S0.
  assert (A : forall x, In x (anc t (lvl t y) y) -> In x (ids t)).
  { intros x Hx. apply (anc_desc n t r W Hn (lvl t y) y x H eq_refl) in Hx. apply (desc_ids n t r W) in Hx. tauto. }
  generalize (scaled t own y). induction (anc t (lvl t y) y) as [|x l IH]; intros q; [reflexivity|].
  cbn [map fold_left]. rewrite em_pull by (apply A; left; auto). apply IH. intros z Hz. apply A. right. auto.
Qed.

Notation E_ k := (endk t r sl orth0 own k).
Notation E'_ k := (endk t' r' sl' orth1 own' k).
Lemma em_levels k : E'_ k = E_ k /\
  (forall y, In y (ids t) -> (k <= lvl t y)%nat -> wsub t own y <> 0 -> pk' k (f y) = pk k y).
Proof.
  induction k as [|k [IE IP]].
  - split; [|intros y H _ NZ; apply em_p1; auto].
    unfold endk, p2. cbn [seq fold_left ps_last]. rewrite <- em_root. apply em_dirn, (root_in n t r W).
  - pose proof (em_LS k IP) as SE.
    destruct (step_both n t r W Hn em_na em_ex sl SL orth0 OL0 own OW TOT k) as [A1 A2].
    destruct (step_both n t' r' W' Hn NA' EX' sl' SL' orth1 OL1 own' em_ow em_tot k) as [B1 B2].
    cbv zeta in A1, A2, B1, B2. cbv beta in SE. rewrite SE, IE in B1, B2. split; [congruence|].
    intros y Hy Ly NZ.
    destruct (anc_level n t r W Hn y k Hy) as (x & Hx & Lx & D); [lia|].
    destruct D as [->|D]; [lia|].
    assert (NZx : wsub t own x <> 0) by (apply (wt_desc_neq n t r W own OW TOT x y); auto).
    cbv beta. rewrite (A2 x y) by auto.
    rewrite (B2 (f x) (f y)); auto using em_ids, em_desc; [|rewrite em_lvl; auto|rewrite em_wsub; auto].
    cbv beta in IP. rewrite (IP x), (IP y); auto; lia.
Qed.
Lemma end_stays k : (S (maxlvl t sl) <= k)%nat -> E_ k = E_ (S (maxlvl t sl)).
Proof.
  intros L. induction L as [|k L IH]; [auto|]. rewrite <- IH.
  destruct (step_both n t r W Hn em_na em_ex sl SL orth0 OL0 own OW TOT k) as [-> _]. cbv zeta.
  destruct (endk_props n t r W Hn em_na em_ex sl SL orth0 OL0 own OW TOT k) as (LE & _).
  assert (Z : LS n t sl (pk k) k = vzero n).
  { unfold LS. assert (F : filter (fun x => Nat.eqb (lvl t x) k) sl = []); [|rewrite F; reflexivity].
    assert (G : forall x, In x sl -> (lvl t x <= maxlvl t sl)%nat).
    { intros x Hx. unfold maxlvl. clear - Hx. induction sl as [|y l IHl]; [destruct Hx|].
      cbn [map]. destruct Hx as [<-|Hx]; [|specialize (IHl Hx)]; unfold max_level in *; cbn [fold_right] in *; lia. }
    revert G L. generalize (maxlvl t sl). intros m G L. clear - G L.
    induction sl as [|x l IHl]; [reflexivity|]. cbn [filter].
    pose proof (G x (or_introl eq_refl)) as Gx. destruct (Nat.eqb_spec (lvl t x) k); [lia|].
    apply IHl. intros z Hz. apply G. right. auto. }
  cbv beta in Z. rewrite Z. apply (turn_by_zero n); auto; [apply length_vzero|apply norm_vzero].
Qed.
End Embed.

(** *** The weights under the new names *)
Lemma own_of_map f (ids0 : list nid) l : (forall x y, In x ids0 -> In y ids0 -> f x = f y -> x = y) ->
  forall ws x, In x ids0 -> (forall y, In y l -> In y ids0) ->
  own_of (combine (map f l) ws) (f x) = own_of (combine l ws) x.
Proof.
  intros Inj ws x Hx. unfold own_of. generalize 0 as acc. revert ws.
  induction l as [|y l IH]; intros ws acc I; [reflexivity|]. destruct ws as [|w ws]; [reflexivity|].
  cbn [map combine fold_left]. rewrite <- IH by (intros z Hz; apply I; right; auto).
  destruct (nid_eq_dec (f x) (f y)) as [E|N].
  - apply Inj in E; auto; [|apply I; left; auto]. subst. destruct (nid_eq_dec y y); [reflexivity|contradiction].
  - destruct (nid_eq_dec x y) as [->|]; [contradiction|reflexivity].
Qed.
Lemma own_of_out l : forall ws y, ~ In y l -> own_of (combine l ws) y = 0.
Proof.
  unfold own_of. generalize 0 as acc. induction l as [|x l IH]; intros acc ws y N; [reflexivity|].
  destruct ws as [|w ws]; [reflexivity|]. cbn [combine fold_left].
  destruct (nid_eq_dec y x) as [->|_]; [exfalso; apply N; left; auto|]. apply IH. intros H. apply N. right. auto.
Qed.

(** C164: a tree contained in another one, under any names, has the mean of its nodes there; the
    further nodes, the names, the orders inside the levels, left-overs in the stores and the choice
    of base vectors of vanishing rotations do not matter. *)
Theorem C164_embedded :
  forall n t t' r r' f sl sl' orth0 orth1 st st' l ws own,
  rooted_tree n t r -> rooted_tree n t' r' -> (2 <= n)%nat -> embedded f t t' ->
  no_opposite t' -> distinguishable t' -> level_sorted t sl -> level_sorted t' sl' ->
  (forall v, length (orth0 v) = length v) -> (forall v, length (orth1 v) = length v) ->
  assigned t l ws own -> (forall x, 0 <= own x) -> 0 < rsum ws <= 1 ->
  exists mean, get_weighted_mean orth0 t st sl l ws = Ok mean /\
    get_weighted_mean orth1 t' st' sl' (map f l) ws = Ok mean.
Proof.
  intros n t t' r r' f sl sl' orth0 orth1 st st' l ws own W W' Hn EM NO' DI' SL SL' O0 O1 A OW T.
  destruct (assigned_len _ _ _ _ A) as [HL HI].
  pose proof (no_opposite_dirn n t' r' W' NO') as NA'.
  assert (EX' : forall p x, edge t' p x -> exact_pair (dirn t' p) (dirn t' x)).
  { intros p x Ep. apply (distinguishable_dirn n t' r' W' DI'); auto. }
  pose proof (em_na n t t' r r' f W W' EM NA') as NA. pose proof (em_ex n t t' r r' f W W' EM EX') as EX.
  assert (NO : no_opposite t).
  { intros p x a b Ep Ha Hb. apply (NO' (f p) (f x)); [apply (em_edge f t t' EM)|apply (em_node f t t' EM)|apply (em_node f t t' EM)]; auto. }
  pose proof (total_root n t r l ws own W Hn NO A (ex_intro _ sl SL)) as TR.
  assert (OWN : forall y, own y = own_of (combine l ws) y) by (apply assigned_own with t; auto).
  assert (TOT : wsub t own r <= 1) by (rewrite TR; apply T).
  set (own' := own_of (combine (map f l) ws)).
  assert (OWf : forall x, In x (ids t) -> own' (f x) = own x).
  { intros x Hx. unfold own'. rewrite (own_of_map f (ids t)); auto. apply (em_inj f t t' EM). }
  assert (OW0 : forall y, (forall x, In x (ids t) -> f x <> y) -> own' y = 0).
  { intros y N. apply own_of_out. intros H. apply in_map_iff in H as (x & E & Hx). apply (N x); auto. }
  assert (OWi : forall y, In y (ids t) -> 0 <= own y) by auto.
  pose proof (em_wsub n t t' r r' f W W' Hn EM own own' OWf OW0 r (root_in n t r W)) as WR.
  rewrite (em_root n t t' r r' f W W' Hn EM) in WR.
  exists (endk t r sl orth0 own (S (maxlvl t sl))). split.
  - apply (mean_endk n t r W Hn NA EX sl SL orth0 O0 own); auto. rewrite TR. lra.
  - rewrite (mean_endk n t' r' W' Hn NA' EX' sl' SL' orth1 O1 own'); auto.
    + f_equal.
      destruct (em_levels n t t' r r' f W W' Hn EM own own' OWf OW0 OWi TOT NA' EX' sl sl' SL SL' orth0 orth1 O0 O1
        (S (maxlvl t' sl'))) as [-> _].
      apply (end_stays n t t' r r' f W W' Hn EM own OWi TOT NA' EX' sl SL orth0 O0).
      apply le_n_S.
      assert (G : forall x, In x sl -> (lvl t x <= maxlvl t' sl')%nat).
      { intros x Hx. assert (Hi : In x (ids t)) by (destruct SL as [P _]; revert Hx; apply Permutation_in; exact P).
        rewrite <- (em_lvl n t t' r r' f W W' EM x Hi).
        assert (Hf : In (f x) sl').
        { destruct SL' as [P _]. apply (Permutation_in _ (Permutation_sym P)).
          exact (em_ids n t t' r r' f W W' EM x Hi). }
        unfold maxlvl. clear - Hf. induction sl' as [|y l0 IH]; [destruct Hf|]. unfold max_level in *. cbn [map fold_right].
        destruct Hf as [<-|Hf]; [|specialize (IH Hf)]; lia. }
      revert G. generalize (maxlvl t' sl'). intros m G. unfold maxlvl. clear - G.
      induction sl as [|x l0 IH]; [cbn; lia|]. unfold max_level in *. cbn [map fold_right].
      pose proof (G x (or_introl eq_refl)). assert (I := IH (fun z Hz => G z (or_intror Hz))). lia.
    + intros y _. apply (em_own_nonneg t f own own' OWf OW0 OWi).
    + rewrite WR. auto.
    + rewrite map_length. auto.
    + intros y Hy. apply in_map_iff in Hy as (x & <- & Hx). apply (em_ids n t t' r r' f W W' EM); auto.
    + rewrite WR, TR. lra.
Qed.

(** Every history of further successful insertions keeps the mean of the nodes already there. *)
Lemma embedded_refl t : embedded (fun x => x) t t.
Proof. constructor; auto. Qed.
Lemma embedded_step n t t1 r x d p c l0 t2 : rooted_tree n t1 r -> embedded (fun x => x) t t1 ->
  add_node t1 x d (Some p) c l0 = (t2, Ok tt) -> embedded (fun x => x) t t2.
Proof.
  intros W [A B C] H. destruct (add_node_success n t1 r x d p c l0 t2 W H) as (a & _ & _ & _ & _ & ->).
  constructor; [auto| |].
  - intros y b Hy. unfold node. cbn [t_nodes]. apply in_or_app. left. apply B. auto.
  - intros q y Hy. unfold edge. cbn [t_edges]. apply in_or_app. left. apply C. auto.
Qed.
Lemma embedded_inter n t r id s : Forall (proper n) s -> forall t1 p ii t2 q,
  rooted_tree n t1 r -> embedded (fun x => x) t t1 -> add_inter t1 id p ii s = (t2, Ok q) -> embedded (fun x => x) t t2.
Proof.
  induction 1 as [|rt s Hr Hs IH]; intros t1 p ii t2 q W E H; cbn [add_inter] in H.
  - injection H as <- _. auto.
  - destruct (add_node t1 _ (rb0 rt) (Some p) None None) as [t3 [[]|e]] eqn:E3; [|discriminate].
    apply IH in H; auto.
    + eapply add_node_rooted; eauto. apply Hr.
    + eapply embedded_step; eauto.
Qed.
Lemma reached_embedded n t r t' : rooted_tree n t r -> reached n t t' ->
  rooted_tree n t' r /\ embedded (fun x => x) t t'.
Proof.
  intros W H. induction H as [|t1 o t2 H [W1 E1] Ho Hr]; [split; auto using embedded_refl|].
  destruct o as [x d p|x s p c]; cbn [run_op op_dim] in *.
  - split; [eapply add_node_rooted; eauto|eapply embedded_step; eauto].
  - split; [eapply add_sequence_rooted; eauto|]. unfold add_sequence in Hr.
    destruct (seq_start t1 s p c) as [[it tail]|e] eqn:Est; [|discriminate].
    assert (Ht : Forall (proper n) tail).
    { unfold seq_start in Est. destruct c.
      - destruct s as [|r0 s]; [discriminate|]. destruct (get_attrs t1 p); [|discriminate].
        destruct (allclose _ _); [|discriminate]. injection Est as <- <-. inversion Ho; auto.
      - injection Est as <- <-. auto. }
    destruct (add_inter t1 x p it tail) as [t3 [q|e]] eqn:Ei; [|discriminate].
    destruct (get_end_vector s) as [v|e] eqn:Ev; [|discriminate].
    eapply embedded_step; [eapply add_inter_rooted; eauto|eapply embedded_inter; eauto|eauto].
Qed.
Theorem C164_insertions :
  forall n t t' r sl sl' orth0 orth1 st st' l ws own,
  rooted_tree n t r -> (2 <= n)%nat -> reached n t t' ->
  no_opposite t' -> distinguishable t' -> level_sorted t sl -> level_sorted t' sl' ->
  (forall v, length (orth0 v) = length v) -> (forall v, length (orth1 v) = length v) ->
  assigned t l ws own -> (forall x, 0 <= own x) -> 0 < rsum ws <= 1 ->
  exists mean, get_weighted_mean orth0 t st sl l ws = Ok mean /\
    get_weighted_mean orth1 t' st' sl' l ws = Ok mean.
Proof.
  intros n t t' r sl sl' orth0 orth1 st st' l ws own W Hn RE NO DI SL SL' O0 O1 A OW T.
  destruct (reached_embedded n t r t' W RE) as [W' E].
  destruct (C164_embedded n t t' r r (fun x => x) sl sl' orth0 orth1 st st' l ws own) as (m & E1 & E2); auto.
  exists m. rewrite map_id in E2. auto.
Qed.

Lemma extree1_sorted : level_sorted extree1 [n0; n1].
Proof.
  split; [apply Permutation_refl|]. intros x y a b B Ha Hb.
  apply before_cases in B as [[-> B]|B].
  - destruct Ha as [Ha|[Ha|[]]]; try discriminate. injection Ha as <-. simpl. lia.
  - apply before_cases in B as [[-> []]|B]. apply before_cases in B. destruct B.
Qed.
Lemma extree1_half : assigned extree1 [n1] [1/2] (fun x => if nid_eq_dec x n1 then 1/2 else 0).
Proof.
  split; [repeat constructor; simpl; intuition|]. split; [reflexivity|].
  split; [intros x [<-|[]]; simpl; auto|]. split.
  - intros x w [Ew|[]]. injection Ew as <- <-. destruct (nid_eq_dec n1 n1); [reflexivity|contradiction].
  - intros x Hx. destruct (nid_eq_dec x n1) as [->|]; [exfalso; apply Hx; simpl; auto|reflexivity].
Qed.
(** The mean of the first two directions stays when the third one is added below. *)
Example C164_insertion_case : forall orth0 st st', (forall v, length (orth0 v) = length v) ->
  exists mean, get_weighted_mean orth0 extree1 st [n0; n1] [n1] [1/2] = Ok mean /\
    get_weighted_mean orth0 extree st' [n0; n1; n2] [n1] [1/2] = Ok mean.
Proof.
  intros orth0 st st' OL. destruct extree_dirs as [NO DI].
  apply (C164_insertions 3 extree1 extree n0) with (own := fun x => if nid_eq_dec x n1 then 1/2 else 0); auto.
  - exact extree1_rooted.
  - eapply reached_op with (o := OpNode n2 e2 n1); [constructor|reflexivity|exact extree_add].
  - exact extree1_sorted.
  - exact extree_sorted.
  - exact extree1_half.
  - intros x. destruct (nid_eq_dec x n1); lra.
  - simpl; lra.
Qed.
(** The same two directions in a tree with other names and the third direction next to the second. *)
Definition forked : tree :=
  mkTree [(n3, Some (mkAttrs 0 e0)); (n0, Some (mkAttrs 1 e2)); (n1, Some (mkAttrs 1 e1))]
         [(n3, n0); (n3, n1)] (Some n3).
Lemma forked_rooted : rooted_tree 3 forked n3.
Proof.
  assert (ND : NoDup [n3; n0; n1]) by (repeat constructor; simpl; intuition discriminate).
  constructor; unfold node, edge, forked; cbn [t_nodes t_edges map fst].
  - exact ND.
  - eexists _, _. split; reflexivity.
  - intros x oa [H|[H|[H|[]]]]; injection H as <- <-; eexists; (split; [reflexivity|]);
      cbn [a_dir a_level]; (split; [reflexivity|]); (split; [unfold unitv; simpl; ring|lia]).
  - repeat constructor; simpl; intuition discriminate.
  - intros x a [H|[H|[H|[]]]] N; injection H as <- <-; [contradiction|exists n3; simpl; auto..].
  - intros p q x [H|[H|[]]] [K|[K|[]]]; congruence.
  - intros p x [H|[H|[]]]; injection H as <- <-.
    + exists [], [], [n1]. reflexivity.
    + exists [], [n0], []. reflexivity.
  - intros p x a b [H|[H|[]]]; injection H as <- <-; intros [Ha|[Ha|[Ha|[]]]] [Hb|[Hb|[Hb|[]]]];
      try discriminate; injection Ha as <-; injection Hb as <-; reflexivity.
Qed.
Definition renamed (x : nid) : nid := if nid_eq_dec x n0 then n3 else x.
Example C164_case : forall orth0 st st', (forall v, length (orth0 v) = length v) ->
  exists mean, get_weighted_mean orth0 extree1 st [n0; n1] [n1] [1/2] = Ok mean /\
    get_weighted_mean orth0 forked st' [n3; n1; n0] [n1] [1/2] = Ok mean.
Proof.
  intros orth0 st st' OL.
  apply (C164_embedded 3 extree1 forked n0 n3 renamed [n0; n1] [n3; n1; n0] orth0 orth0 st st' [n1] [1/2])
    with (own := fun x => if nid_eq_dec x n1 then 1/2 else 0); auto.
  - exact extree1_rooted.
  - exact forked_rooted.
  - constructor.
    + intros x y [<-|[<-|[]]] [<-|[<-|[]]]; reflexivity || discriminate.
    + intros x a [H|[H|[]]]; injection H as <- <-; unfold node, forked; simpl; auto.
    + intros p x [H|[]]. injection H as <- <-. unfold edge, forked; simpl; auto.
  - intros p x a b [H|[H|[]]]; injection H as <- <-; intros [Ha|[Ha|[Ha|[]]]] [Hb|[Hb|[Hb|[]]]];
      try discriminate; injection Ha as <-; injection Hb as <-; cbn; lra.
  - intros p x a b [H|[H|[]]]; injection H as <- <-; intros [Ha|[Ha|[Ha|[]]]] [Hb|[Hb|[Hb|[]]]];
      try discriminate; injection Ha as <-; injection Hb as <-; right;
      unfold allclose, e0, e1, e2; cbn [a_dir combine forallb];
      (assert (F : isclose 1 0 = false); [|rewrite F; reflexivity]);
      unfold isclose; apply Rleb_false; rewrite Rabs_R0; replace (1 - 0) with 1 by ring; rewrite Rabs_R1; lra.
  - exact extree1_sorted.
  - split; [unfold forked; cbn [t_nodes map fst]; apply perm_skip, perm_swap|].
    intros x y a b B Ha Hb.
    assert (G : x = n3 \/ (x <> n3 /\ y <> n3)).
    { apply before_cases in B as [[-> _]|B]; [auto|]. right.
      apply before_cases in B as [[-> [<-|[]]]|B]; [split; discriminate|].
      apply before_cases in B as [[-> []]|B]. apply before_cases in B. destruct B. }
    destruct Ha as [Ha|[Ha|[Ha|[]]]]; injection Ha as <- <-;
      destruct Hb as [Hb|[Hb|[Hb|[]]]]; injection Hb as <- <-; cbn [a_level]; try lia;
      destruct G as [G|[_ G]]; try discriminate; contradiction.
  - exact extree1_half.
  - intros x. destruct (nid_eq_dec x n1); lra.
  - simpl; lra.
Qed.
Print Assumptions C164_embedded.
Print Assumptions C164_insertions.
