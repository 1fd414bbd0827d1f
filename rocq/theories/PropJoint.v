(** C165: the weighted mean of a direction tree is continuous in the directions and the weights. *)
Require Import Reals List Lra Lia Bool ZArith Permutation.
From Verif Require Import Base Vec Angle RotModel Spec RotProofs SeqProofs TreeModel TreeSpec
  TreeProofs TreeWeights TreeReduce TreeGeom TreeCases TreeIndep TreeExample PropTree ContProofs PropContinuity.
Import ListNotations.
Open Scope R_scope.

(** *** Specification *)
(** The same tree with other directions. *)
Definition redirected (d : nid -> vec) (t : tree) : tree :=
  mkTree (map (fun xa => (fst xa, option_map (fun a => mkAttrs (a_level a) (d (fst xa))) (snd xa))) (t_nodes t))
         (t_edges t) (t_root t).

(** *** The shape of the tree *)
Section Shape.
Variables (n : nat) (t : tree) (r : nid) (d : nid -> vec).
Hypothesis W : rooted_tree n t r.
Notation t' := (redirected d t).

Lemma red_ids : ids t' = ids t.
Proof. unfold ids, redirected. cbn [t_nodes]. rewrite map_map. reflexivity. Qed.
Lemma red_attrs x : get_attrs t' x =
  match get_attrs t x with Ok a => Ok (mkAttrs (a_level a) (d x)) | Err e => Err e end.
Proof.
  unfold get_attrs, redirected. cbn [t_nodes]. induction (t_nodes t) as [|[y oa] l IH]; [reflexivity|].
  cbn [map fst snd assoc]. destruct (nid_eqb x y) eqn:E; [|exact IH].
  apply nid_eqb_true in E. subst. destruct oa; reflexivity.
Qed.
Lemma red_lvl x : lvl t' x = lvl t x.
Proof. unfold lvl. rewrite red_attrs. destruct (get_attrs t x); reflexivity. Qed.
Lemma red_dirn x : In x (ids t) -> dirn t' x = d x.
Proof.
  intros H. destruct (get_dirn n t r W x H) as (a & E & _). unfold dirn. rewrite red_attrs, E. reflexivity.
Qed.
Lemma red_dlist x : dlist t' x = dlist t x.
Proof.
  unfold dlist, descendants, get_all_childs_children.
  replace (length (t_nodes t')) with (length (t_nodes t)) by (unfold redirected; cbn [t_nodes]; rewrite map_length; auto).
  assert (B : forall f a b, bfs t' f a b = bfs t f a b).
  { induction f; intros a b; [reflexivity|]. cbn [bfs]. destruct b; [reflexivity|]. auto. }
  rewrite B. reflexivity.
Qed.
Lemma red_wsub own x : wsub t' own x = wsub t own x.
Proof. unfold wsub. rewrite red_dlist. reflexivity. Qed.
Lemma red_anc k : forall y, anc t' k y = anc t k y.
Proof. induction k; intros y; [reflexivity|]. cbn [anc]. change (par t' y) with (par t y). rewrite IHk. reflexivity. Qed.
Lemma red_node x a : node t' x a -> exists b, node t x b /\ a = mkAttrs (a_level b) (d x).
Proof.
  unfold node, redirected. cbn [t_nodes]. intros H. apply in_map_iff in H as ([y [b|]] & E & H); cbn in E; [|discriminate].
  injection E as -> <-. eauto.
Qed.
Lemma red_rooted : (forall x, In x (ids t) -> length (d x) = n /\ unitv (d x)) -> rooted_tree n t' r.
Proof.
  intros D0. destruct W as [A B C D E F G H]. constructor.
  - fold (ids t'). rewrite red_ids. exact A.
  - destruct B as (a & rest & Eb & La). exists (mkAttrs (a_level a) (d r)).
    unfold redirected. cbn [t_nodes]. rewrite Eb. cbn [map fst snd option_map]. eauto.
  - intros x oa Hx. unfold redirected in Hx. cbn [t_nodes] in Hx. apply in_map_iff in Hx as ([y ob] & Ex & Hx).
    cbn in Ex. injection Ex as -> <-. destruct (C _ _ Hx) as (a & -> & L & U & V).
    assert (Hi : In x (ids t)) by (apply in_ids; eauto). destruct (D0 x Hi) as [D1 D2].
    exists (mkAttrs (a_level a) (d x)). split; [reflexivity|]. cbn [a_dir a_level]. auto.
  - exact D.
  - intros x a Ha Hx. apply red_node in Ha as (b & Hb & _). exact (E x b Hb Hx).
  - exact F.
  - intros p x Ep. fold (ids t'). rewrite red_ids. exact (G p x Ep).
  - intros p x a b Ep Ha Hb. apply red_node in Ha as (a1 & Ha & ->). apply red_node in Hb as (b1 & Hb & ->).
    cbn [a_level]. exact (H p x a1 b1 Ep Ha Hb).
Qed.
Lemma red_sorted sl : level_sorted t sl -> level_sorted t' sl.
Proof.
  intros [P B]. split; [fold (ids t'); rewrite red_ids; exact P|]. intros x y a b Bx Ha Hb.
  apply red_node in Ha as (a1 & Ha & ->). apply red_node in Hb as (b1 & Hb & ->). exact (B x y a1 b1 Bx Ha Hb).
Qed.
Lemma red_desc x y : desc t x y -> desc t' x y.
Proof. induction 1; [apply desc_child; auto|eapply desc_step; eauto]. Qed.
Lemma red_maxlvl sl : maxlvl t' sl = maxlvl t sl.
Proof. unfold maxlvl. f_equal. apply map_ext. intros x. apply red_lvl. Qed.
End Shape.

(** *** Limits *)
Lemma cvv_nth_const (f : nat -> vec) u v : cvv f u -> (forall j, f j = v) -> length u = length v -> u = v.
Proof.
  intros C E L. apply vec_ext; auto. intros i. apply (UL_sequence (fun j => nth i (f j) 0)); [apply C|].
  apply cv_ext with (fun _ => nth i v 0); [intros j; rewrite E; auto|apply cv_const].
Qed.
Lemma cv_acos f a : (forall j, -1 <= f j <= 1) -> -1 < a < 1 -> Un_cv f a -> Un_cv (fun j => acos (f j)) (acos a).
Proof. intros _ Ha. apply cv_comp. apply derivable_continuous_pt, derivable_pt_acos. auto. Qed.
(** Vectors with a common limit are numerically close in the end. *)
Lemma cv_close n : forall f g u, lenn n f -> lenn n g -> cvv f u -> cvv g u ->
  exists N, forall j, (N <= j)%nat -> allclose (f j) (g j) = true.
Proof.
  induction n; intros f g u Lf Lg Cf Cg.
  - exists 0%nat. intros j _. specialize (Lf j). destruct (f j); [reflexivity|discriminate].
  - assert (T : forall w : vec, forall i, nth i (tl w) 0 = nth (S i) w 0) by (intros [|a w] [|i]; reflexivity).
    destruct (IHn (fun j => tl (f j)) (fun j => tl (g j)) (tl u)) as (N1 & H1).
    + intros j. specialize (Lf j). destruct (f j); simpl in *; lia.
    + intros j. specialize (Lg j). destruct (g j); simpl in *; lia.
    + intros i. rewrite T. eapply cv_ext; [|apply (Cf (S i))]. intros j. cbv beta. rewrite T. reflexivity.
    + intros i. rewrite T. eapply cv_ext; [|apply (Cg (S i))]. intros j. cbv beta. rewrite T. reflexivity.
    + assert (D : Un_cv (fun j => nth 0 (f j) 0 - nth 0 (g j) 0) (nth 0 u 0 - nth 0 u 0)) by (apply cv_sub; [apply Cf|apply Cg]).
      rewrite Rminus_eq_0 in D. assert (P8 : 0 < / 10 ^ 8) by (apply Rinv_0_lt_compat; lra).
      destruct (D (/ 10 ^ 8) P8) as (N2 & H2). exists (Nat.max N1 N2). intros j Hj.
      specialize (H1 j ltac:(lia)). specialize (H2 j ltac:(lia)). cbv beta in *. unfold R_dist in H2.
      rewrite Rminus_0_r in H2. specialize (Lf j). specialize (Lg j).
      destruct (f j) as [|a u1]; [discriminate|]. destruct (g j) as [|b v1]; [discriminate|].
      cbn [tl nth] in *. cbn [allclose]. rewrite H1, andb_true_r. unfold isclose. apply Rleb_true.
      pose proof (Rabs_pos b). assert (0 < / 10 ^ 5) by (apply Rinv_0_lt_compat; lra). nra.
Qed.

(** *** Convergence of rotations; a rotation by zero has no plane *)
Definition wcv (q : nat -> rotation) (q' : rotation) : Prop :=
  cvv (fun j => rb0 (q j)) (rb0 q') /\ Un_cv (fun j => rangle (q j)) (rangle q') /\
  (rangle q' <> 0 -> cvv (fun j => rb1 (q j)) (rb1 q')) /\
  (rangle q' = 0 -> exists N, forall j, (N <= j)%nat -> rangle (q j) = 0).

Lemma wcv_eventually (f g : nat -> rotation) q N : (forall j, (N <= j)%nat -> f j = g j) -> wcv f q -> wcv g q.
Proof.
  intros E (A & B & C & D). split; [|split; [|split]].
  - apply cvv_eventually with (fun j => rb0 (f j)) N; auto. intros j Hj. rewrite E; auto.
  - apply cv_eventually with (fun j => rangle (f j)) N; auto. intros j Hj. rewrite E; auto.
  - intros NZ. apply cvv_eventually with (fun j => rb1 (f j)) N; auto. intros j Hj. rewrite E; auto.
  - intros Z. destruct (D Z) as (M & HM). exists (Nat.max N M). intros j Hj. rewrite <- E by lia. apply HM. lia.
Qed.
Lemma rrot_zero_len n b0 b1 q : length b0 = n -> length b1 = n -> length (rb0 q) = n -> length (rb1 q) = n ->
  rrot b0 b1 0 q = q.
Proof. intros. unfold rrot. rewrite !(plane_rot_zero n) by auto. destruct q; reflexivity. Qed.
Lemma wcv_rrot n b b' c c' q q' :
  (forall j, length (rb0 (b j)) = n /\ length (rb1 (b j)) = n) -> length (rb0 b') = n /\ length (rb1 b') = n ->
  (forall j, length (rb0 (q j)) = n /\ length (rb1 (q j)) = n) -> length (rb0 q') = n /\ length (rb1 q') = n ->
  wcv b b' -> Un_cv c c' -> wcv q q' ->
  wcv (fun j => rrot (rb0 (b j)) (rb1 (b j)) (rangle (b j) * c j) (q j))
      (rrot (rb0 b') (rb1 b') (rangle b' * c') q').
Proof.
  intros LB [LB0 LB1] LQ [LQ0 LQ1] (B0 & BA & B1 & BZ) C (Q0 & QA & Q1 & QZ).
  destruct (Req_EM_T (rangle b') 0) as [Z|NZ].
  - destruct (BZ Z) as (N & HN). apply wcv_eventually with q N.
    + intros j Hj. rewrite (HN j Hj), Rmult_0_l. destruct (LB j), (LQ j). symmetry. apply (rrot_zero_len n); auto.
    + rewrite Z, Rmult_0_l, (rrot_zero_len n) by auto. split; auto.
  - assert (A : Un_cv (fun j => rangle (b j) * c j) (rangle b' * c')) by (apply cv_mul; auto).
    assert (L0 : lenn n (fun j => rb0 (b j))) by (intros j; apply LB).
    assert (L1 : lenn n (fun j => rb1 (b j))) by (intros j; apply LB).
    unfold rrot, wcv. cbn [rb0 rb1 rangle]. split; [|split; [auto|split; [|auto]]].
    + apply (cvv_plane_rot n); auto.
    + intros NQ. apply (cvv_plane_rot n); auto.
Qed.

Section Joint.
Variables (n : nat) (t : tree) (r : nid) (d_ : nat -> nid -> vec).
Hypothesis W : rooted_tree n t r.
Hypothesis Hn : (2 <= n)%nat.
Hypothesis D_ : forall j x, In x (ids t) -> length (d_ j x) = n /\ unitv (d_ j x).
Notation t_ j := (redirected (d_ j) t).
Hypothesis NA : forall p x, edge t p x -> dot (dirn t p) (dirn t x) <> -1.
Hypothesis EX : forall p x, edge t p x -> exact_pair (dirn t p) (dirn t x).
Hypothesis NA_ : forall j p x, edge t p x -> dot (dirn (t_ j) p) (dirn (t_ j) x) <> -1.
Hypothesis EX_ : forall j p x, edge t p x -> exact_pair (dirn (t_ j) p) (dirn (t_ j) x).
Hypothesis CD : forall x, In x (ids t) -> cvv (fun j => d_ j x) (dirn t x).
Variable sl : list nid.
Hypothesis SL : level_sorted t sl.
Variable orth0 : vec -> vec.
Hypothesis OL : forall v, length (orth0 v) = length v.

Lemma W_ j : rooted_tree n (t_ j) r.
Proof. apply red_rooted; auto. Qed.
Lemma SL_ j : level_sorted (t_ j) sl.
Proof. apply red_sorted; auto. Qed.
Lemma in_ j x : In x (ids t) -> In x (ids (t_ j)).
Proof. rewrite red_ids. auto. Qed.

(** The rotation from the parent converges. *)
Lemma cv_orient x : In x (ids t) -> wcv (fun j => orient (t_ j) x) (orient t x).
Proof.
  intros H. pose proof (par_in n t r W x H) as Hp.
  pose proof (orient_spec n t r W Hn NA x H) as (E & O & E0 & EA & _).
  assert (S_ : forall j, from_directions (d_ j (par t x)) (d_ j x) = Ok (orient (t_ j) x) /\
    rb0 (orient (t_ j) x) = d_ j (par t x) /\ rangle (orient (t_ j) x) = acos (dot (d_ j (par t x)) (d_ j x))).
  { intros j. pose proof (orient_spec n (t_ j) r (W_ j) Hn (NA_ j) x (in_ j x H)) as (E' & O' & E0' & EA' & _).
    change (par (t_ j) x) with (par t x) in *.
    rewrite (red_dirn n t r (d_ j) W x H), (red_dirn n t r (d_ j) W _ Hp) in *. auto. }
  pose proof (CD x H) as Cx. pose proof (CD _ Hp) as Cp.
  assert (Lx : length (dirn t x) = n) by (apply (dirn_length n t r W); auto).
  assert (Lp : length (dirn t (par t x)) = n) by (apply (dirn_length n t r W); auto).
  assert (Ux : unitv (dirn t x)) by (apply (dirn_unit n t r W); auto).
  assert (Up : unitv (dirn t (par t x))) by (apply (dirn_unit n t r W); auto).
  assert (Lx_ : lenn n (fun j => d_ j x)) by (intros j; apply D_; auto).
  assert (Lp_ : lenn n (fun j => d_ j (par t x))) by (intros j; apply D_; auto).
  assert (C0 : cvv (fun j => rb0 (orient (t_ j) x)) (rb0 (orient t x))).
  { rewrite E0. apply cvv_eventually with (fun j => d_ j (par t x)) 0%nat; auto.
    intros j _. symmetry. apply S_. }
  assert (Cd : Un_cv (fun j => dot (d_ j (par t x)) (d_ j x)) (dot (dirn t (par t x)) (dirn t x))).
  { apply (cv_dot n); auto; [intros j; rewrite Lp_; lia|lia]. }
  destruct (list_eq_dec Req_EM_T (dirn t (par t x)) (dirn t x)) as [Eq|NE].
  - (* the limit directions agree: in the end the directions agree *)
    assert (EV : exists N, forall j, (N <= j)%nat -> rangle (orient (t_ j) x) = 0).
    { assert (Q : exists N, forall j, (N <= j)%nat -> d_ j (par t x) = d_ j x).
      { destruct (par_cases n t r W x H) as [->|Ep].
        - exists 0%nat. intros j _. rewrite (par_root n t r W). auto.
        - destruct (cv_close n (fun j => d_ j (par t x)) (fun j => d_ j x) (dirn t x) Lp_ Lx_) as (N & HN); auto.
          { rewrite <- Eq. auto. }
          exists N. intros j Hj. specialize (HN j Hj). cbv beta in HN.
          destruct (EX_ j (par t x) x Ep) as [Q|Q]; rewrite (red_dirn n t r (d_ j) W x H), (red_dirn n t r (d_ j) W _ Hp) in Q;
            [auto|congruence]. }
      destruct Q as (N & HN). exists N. intros j Hj. destruct (S_ j) as (_ & _ & ->). rewrite HN by auto.
      destruct (D_ j x H) as [_ U]. unfold unitv in U. rewrite U. apply acos_1. }
    assert (Z : rangle (orient t x) = 0) by (rewrite EA, Eq; unfold unitv in Ux; rewrite Ux; apply acos_1).
    split; [auto|]. rewrite Z. split; [|split; [intros; contradiction|auto]].
    destruct EV as (N & HN). apply cv_eventually with (fun _ => 0) N; [|apply cv_const].
    intros j Hj. symmetry. auto.
  - assert (Ep : edge t (par t x) x).
    { destruct (par_cases n t r W x H) as [->|Ep]; [|auto]. exfalso. apply NE. rewrite (par_root n t r W). auto. }
    assert (R1 : -1 < dot (dirn t (par t x)) (dirn t x) < 1).
    { pose proof (NA _ _ Ep) as N1.
      assert (N2 : dot (dirn t (par t x)) (dirn t x) <> 1).
      { intros D1. apply NE. apply unit_dot_1; auto; congruence. }
      pose proof (unit_dot_bounds _ _ Up Ux). lra. }
    assert (RA : rangle (orient t x) <> 0).
    { rewrite EA. intros Z. assert (cos (acos (dot (dirn t (par t x)) (dirn t x))) = 1) by (rewrite Z; apply cos_0).
      rewrite cos_acos in H0 by lra. lra. }
    split; [auto|]. split; [|split; [|contradiction]].
    + rewrite EA. apply cv_ext with (fun j => acos (dot (d_ j (par t x)) (d_ j x))).
      * intros j. symmetry. apply S_.
      * apply cv_comp; [|auto]. apply derivable_continuous_pt, derivable_pt_acos. lra.
    + intros _.
      set (perp := fun u v : vec => vsub v (vscale (dot u v) u)).
      assert (NF : forall u v : vec, norm u = 1 -> norm v = 1 -> allclose u v = false -> forall q, from_directions u v = Ok q ->
        rb1 q = vdiv (perp u v) (norm (perp u v)) /\ norm (perp u v) <> 0).
      { intros u v N1 N2 Ac q F. unfold from_directions in F. rewrite N1, N2, !vdiv_1, Ac in F.
        destruct (Req_EM_T 1 0) as [Z|_]; [lra|]. fold (perp u v) in F.
        destruct (Req_EM_T (norm (perp u v)) 0) as [Z|Z]; [discriminate|]. cbn [bind] in F. injection F as <-. auto. }
      assert (Ac : allclose (dirn t (par t x)) (dirn t x) = false) by (destruct (EX _ _ Ep); [contradiction|auto]).
      destruct (NF _ _ (proj1 (unit_norm _) Up) (proj1 (unit_norm _) Ux) Ac _ E) as [EB NP]. rewrite EB.
      assert (Cn : Un_cv (fun j => dot (d_ j (par t x)) (d_ j x) - 1) (dot (dirn t (par t x)) (dirn t x) - 1))
        by (apply cv_sub; [auto|apply cv_const]).
      destruct (cv_nonzero _ _ Cn ltac:(lra)) as (N & HN).
      assert (Cperp : cvv (fun j => perp (d_ j (par t x)) (d_ j x)) (perp (dirn t (par t x)) (dirn t x))).
      { unfold perp, vsub. apply cvv_add; [auto|]. apply cvv_scale; [apply cv_const|]. apply cvv_scale; auto. }
      assert (LP : forall j, length (perp (d_ j (par t x)) (d_ j x)) = n).
      { intros j. unfold perp. autorewrite with vlen. rewrite (Lx_ j), (Lp_ j). lia. }
      assert (LP' : length (perp (dirn t (par t x)) (dirn t x)) = n) by (unfold perp; autorewrite with vlen; lia).
      apply cvv_eventually with (fun j => vdiv (perp (d_ j (par t x)) (d_ j x)) (norm (perp (d_ j (par t x)) (d_ j x)))) N.
      * intros j Hj. symmetry. destruct (S_ j) as (F & _).
        destruct (D_ j x H) as [_ U1]. destruct (D_ j _ Hp) as [_ U2].
        apply (NF _ _ (proj1 (unit_norm _) U2) (proj1 (unit_norm _) U1)); auto.
        destruct (EX_ j _ _ Ep) as [Q|Q]; rewrite (red_dirn n t r (d_ j) W x H), (red_dirn n t r (d_ j) W _ Hp) in Q; auto.
        exfalso. apply (HN j Hj). rewrite Q. unfold unitv in U1. rewrite U1. ring.
      * unfold vdiv. apply cvv_scale; [|auto].
        apply (cv_comp Rinv (fun j => norm (perp (d_ j (par t x)) (d_ j x)))).
        -- apply continuity_pt_inv with (f := fun y => y); [apply derivable_continuous_pt, derivable_pt_id|auto].
        -- apply (cv_norm n); auto; [intros j; rewrite LP; lia|lia].
Qed.

Variables (own_ : nat -> nid -> R) (own : nid -> R).
Hypothesis OW_ : forall j y, In y (ids t) -> 0 <= own_ j y.
Hypothesis OW : forall y, In y (ids t) -> 0 <= own y.
Hypothesis TOT_ : forall j, wsub t (own_ j) r <= 1.
Hypothesis TOT : wsub t own r <= 1.
Hypothesis CV : forall y, In y (ids t) -> Un_cv (fun j => own_ j y) (own y).

Lemma jw y : In y (ids t) -> Un_cv (fun j => wsub t (own_ j) y) (wsub t own y).
Proof. apply (cv_wsub n t r W own_ own CV). Qed.
Lemma OWt j : forall y, In y (ids (t_ j)) -> 0 <= own_ j y.
Proof. intros y. rewrite red_ids. auto. Qed.
Lemma TOTt j : wsub (t_ j) (own_ j) r <= 1.
Proof. rewrite red_wsub. auto. Qed.

Notation gj := (fun j k => ps_pt (p2 (t_ j) sl (own_ j) orth0 (seq 0 k))).
Notation gl := (fun k => ps_pt (p2 t sl own orth0 (seq 0 k))).
Lemma gj_ok j k y : In y (ids t) -> rot_ok n (gj j k y) /\ rangle (gj j k y) = rangle (orient (t_ j) y) * wsub t (own_ j) y.
Proof.
  intros H. pose proof (pt_ok n (t_ j) r (W_ j) Hn (NA_ j) (EX_ j) sl (SL_ j) orth0 (own_ j) k y (OWt j) (TOTt j) (in_ j y H)) as P.
  cbv zeta in P. rewrite red_wsub in P. exact P.
Qed.
Lemma gl_ok k y : In y (ids t) -> rot_ok n (gl k y) /\ rangle (gl k y) = rangle (orient t y) * wsub t own y.
Proof. intros H. apply (pt_ok n t r W Hn NA EX sl SL orth0 own k y); auto. Qed.
Lemma ok_len q : rot_ok n q -> length (rb0 q) = n /\ length (rb1 q) = n.
Proof. intros (A & B & _). auto. Qed.
Lemma or_len x : In x (ids t) -> length (rb0 (orient t x)) = n /\ length (rb1 (orient t x)) = n.
Proof. intros H. apply ok_len. apply (orient_spec n t r W Hn NA x H). Qed.
Lemma or_len_ j x : In x (ids t) -> length (rb0 (orient (t_ j) x)) = n /\ length (rb1 (orient (t_ j) x)) = n.
Proof. intros H. apply ok_len. apply (orient_spec n (t_ j) r (W_ j) Hn (NA_ j) x (in_ j x H)). Qed.

Lemma jp1 y : In y (ids t) -> wsub t own y <> 0 ->
  wcv (fun j => p1 (t_ j) (own_ j) (rev sl) y) (p1 t own (rev sl) y).
Proof.
  intros Hy NZ. destruct (cv_nonzero _ _ (jw y Hy) NZ) as (N & HN).
  rewrite (p1_pos n t r W Hn NA sl SL own OW TOT y Hy NZ).
  apply wcv_eventually with (fun j => fold_left (fun p x => pull_pos (t_ j) (own_ j) x p) (anc t (lvl t y) y)
    (scaled (t_ j) (own_ j) y)) N.
  { intros j Hj. rewrite (p1_pos n (t_ j) r (W_ j) Hn (NA_ j) sl (SL_ j) (own_ j) (OWt j) (TOTt j) y (in_ j y Hy)).
    - rewrite red_lvl, red_anc. reflexivity.
    - rewrite red_wsub. auto. }
  assert (A : forall x, In x (anc t (lvl t y) y) -> In x (ids t)).
  { intros x Hx. apply (anc_desc n t r W Hn (lvl t y) y x Hy eq_refl) in Hx.
    apply (desc_ids n t r W) in Hx. tauto. }
  assert (S0 : wcv (fun j => scaled (t_ j) (own_ j) y) (scaled t own y)).
  { destruct (cv_orient y Hy) as (O0 & OA & O1 & OZ). unfold scaled, wcv. cbn [rb0 rb1 rangle].
    split; [auto|]. split; [|split].
    - apply cv_mul; [auto|]. apply cv_ext with (fun j => wsub t (own_ j) y); [intros j; rewrite red_wsub; auto|apply jw; auto].
    - intros NZ1. apply O1. intros Z. apply NZ1. rewrite Z. ring.
    - intros Z. destruct (Rmult_integral _ _ Z) as [Z1|Z1]; [|contradiction].
      destruct (OZ Z1) as (M & HM). exists M. intros j Hj. rewrite (HM j Hj). ring. }
  clear N HN. assert (G : forall l q f, (forall x, In x l -> In x (ids t)) ->
      (forall j, length (rb0 (f j)) = n /\ length (rb1 (f j)) = n) -> length (rb0 q) = n /\ length (rb1 q) = n -> wcv f q ->
    wcv (fun j => fold_left (fun p x => pull_pos (t_ j) (own_ j) x p) l (f j)) (fold_left (fun p x => pull_pos t own x p) l q)).
  { clear A S0. induction l as [|x l IH]; intros q f A LF LQ C; [exact C|].
    cbn [fold_left]. assert (Hx : In x (ids t)) by (apply A; left; auto).
    pose proof (or_len x Hx) as [L0 L1].
    apply (IH (pull_pos t own x q) (fun j => pull_pos (t_ j) (own_ j) x (f j))); [intros z Hz; apply A; right; auto|..].
    - intros j. pose proof (or_len_ j x Hx) as [K0 K1]. destruct (LF j).
      unfold pull_pos, rrot. cbn [rb0 rb1]. split; apply (plane_rot_length n); auto.
    - destruct LQ. unfold pull_pos, rrot. cbn [rb0 rb1]. split; apply (plane_rot_length n); auto.
    - unfold pull_pos.
      replace (rangle (orient t x) * wsub t own x - rangle (orient t x)) with (rangle (orient t x) * (wsub t own x - 1)) by ring.
      apply wcv_eventually with (fun j => rrot (rb0 (orient (t_ j) x)) (rb1 (orient (t_ j) x))
        (rangle (orient (t_ j) x) * (wsub t (own_ j) x - 1)) (f j)) 0%nat.
      { intros j _. f_equal. rewrite red_wsub. ring. }
      apply (wcv_rrot n (fun j => orient (t_ j) x) (orient t x)); auto.
      + intros j. apply or_len_; auto.
      + apply cv_orient; auto.
      + apply cv_sub; [apply jw; auto|apply cv_const]. }
  apply G; auto.
  - intros j. unfold scaled. cbn [rb0 rb1]. apply or_len_; auto.
  - unfold scaled. cbn [rb0 rb1]. apply or_len; auto.
Qed.

(** The contribution of every node of a level converges, also where its weight vanishes. *)
Lemma jLS k :
  (forall y, In y (ids t) -> (k <= lvl t y)%nat -> wsub t own y <> 0 -> wcv (fun j => gj j k y) (gl k y)) ->
  cvv (fun j => LS n (t_ j) sl (gj j k) k) (LS n t sl (gl k) k).
Proof.
  intros H. unfold LS.
  assert (FE : forall j, filter (fun x => Nat.eqb (lvl (t_ j) x) k) sl = filter (fun x => Nat.eqb (lvl t x) k) sl).
  { intros j. apply filter_ext. intros x. rewrite red_lvl. auto. }
  apply cvv_eventually with (fun j => fold_right (fun x acc => vadd (vscale (rangle (gj j k x)) (rb1 (gj j k x))) acc) (vzero n)
    (filter (fun x => Nat.eqb (lvl t x) k) sl)) 0%nat; [intros j _; rewrite FE; auto|].
  assert (I : forall x, In x (filter (fun x => Nat.eqb (lvl t x) k) sl) -> In x (ids t) /\ lvl t x = k).
  { intros x Hx. apply filter_In in Hx as [Hx E]. apply Nat.eqb_eq in E. split; [apply (sl_in t sl SL)|]; auto. }
  clear FE. induction (filter (fun x => Nat.eqb (lvl t x) k) sl) as [|x l IH]; [apply cvv_const|].
  cbn [fold_right]. apply cvv_add; [|apply IH; intros z Hz; apply I; right; auto].
  destruct (I x (or_introl eq_refl)) as [Hx Lx].
  destruct (Req_EM_T (rangle (gl k x)) 0) as [Z|NZ].
  - destruct (gl_ok k x Hx) as [_ AE].
    assert (Cw : Un_cv (fun j => rangle (gj j k x)) 0).
    { apply cv_ext with (fun j => rangle (orient (t_ j) x) * wsub t (own_ j) x).
      - intros j. symmetry. apply gj_ok; auto.
      - rewrite <- Z, AE. apply cv_mul; [apply cv_orient; auto|apply jw; auto]. }
    intros i. rewrite nth_vscale. cbv beta in Z. rewrite Z, Rmult_0_l.
    apply cv_ext with (fun j => rangle (gj j k x) * nth i (rb1 (gj j k x)) 0).
    + intros j. symmetry. apply nth_vscale.
    + apply cv_bounded with 1; [exact Cw|]. intros j.
      destruct (gj_ok j k x Hx) as [(_ & _ & _ & U & _) _]. apply unit_nth; auto.
  - destruct (H x Hx) as (_ & B & C & _); [lia| |].
    + intros Z. apply NZ. destruct (gl_ok k x Hx) as [_ AE]. rewrite AE, Z. ring.
    + apply cvv_scale; auto.
Qed.

Lemma jlevels k :
  cvv (fun j => endk (t_ j) r sl orth0 (own_ j) k) (endk t r sl orth0 own k) /\
  (forall y, In y (ids t) -> (k <= lvl t y)%nat -> wsub t own y <> 0 -> wcv (fun j => gj j k y) (gl k y)).
Proof.
  induction k as [|k [IE IP]].
  - split; [|intros y Hy _ NZ; apply jp1; auto].
    pose proof (root_in n t r W) as Hr.
    apply cvv_eventually with (fun j => d_ j r) 0%nat; [|apply (CD r Hr)].
    intros j _. symmetry. apply (red_dirn n t r (d_ j) W r Hr).
  - pose proof (jLS k IP) as CL.
    assert (LLj : lenn n (fun j => LS n (t_ j) sl (gj j k) k)).
    { intros j. apply (LS_length n (t_ j) Hn sl (SL_ j)). intros y. rewrite red_ids. intros Hy.
      apply (ok_len _ (proj1 (gj_ok j k y Hy))). }
    assert (LL : length (LS n t sl (gl k) k) = n).
    { apply (LS_length n t Hn sl SL). intros y Hy. apply (ok_len _ (proj1 (gl_ok k y Hy))). }
    assert (LEj : lenn n (fun j => endk (t_ j) r sl orth0 (own_ j) k)).
    { intros j. apply (endk_props n (t_ j) r (W_ j) Hn (NA_ j) (EX_ j) sl (SL_ j) orth0 OL (own_ j) (OWt j) (TOTt j) k). }
    assert (LE : length (endk t r sl orth0 own k) = n) by (apply (endk_props n t r W Hn NA EX sl SL orth0 OL own OW TOT k)).
    split.
    + destruct (step_both n t r W Hn NA EX sl SL orth0 OL own OW TOT k) as [-> _]. cbv zeta.
      apply cvv_eventually with (fun j => turn_by (endk (t_ j) r sl orth0 (own_ j) k) (LS n (t_ j) sl (gj j k) k)
        (endk (t_ j) r sl orth0 (own_ j) k)) 0%nat.
      * intros j _. destruct (step_both n (t_ j) r (W_ j) Hn (NA_ j) (EX_ j) sl (SL_ j) orth0 OL (own_ j) (OWt j) (TOTt j) k) as [E _].
        symmetry. exact E.
      * apply (cvv_turn_by n); auto.
    + intros y Hy Ly NZ. destruct (anc_level n t r W Hn y k Hy) as (x & Hx & Lx & D); [lia|].
      destruct D as [->|D]; [lia|].
      assert (NZx : wsub t own x <> 0) by (apply (wt_desc_neq n t r W own OW TOT x y); auto).
      destruct (cv_nonzero _ _ (jw y Hy) NZ) as (N & HN).
      destruct (step_both n t r W Hn NA EX sl SL orth0 OL own OW TOT k) as [_ S]. cbv zeta in S.
      cbv beta. rewrite (S x y) by auto. clear S.
      apply wcv_eventually with (fun j => mapr (turn_by (endk (t_ j) r sl orth0 (own_ j) k) (LS n (t_ j) sl (gj j k) k))
          (back (gj j k x) (gj j k y))) N.
      { intros j Hj. destruct (step_both n (t_ j) r (W_ j) Hn (NA_ j) (EX_ j) sl (SL_ j) orth0 OL (own_ j) (OWt j) (TOTt j) k) as [_ S].
        symmetry. apply S; auto using in_.
        - rewrite red_lvl. auto.
        - apply red_desc. auto.
        - rewrite red_wsub. auto. }
      assert (CB : wcv (fun j => back (gj j k x) (gj j k y)) (back (gl k x) (gl k y))).
      { unfold back.
        apply wcv_eventually with (fun j => rrot (rb0 (gj j k x)) (rb1 (gj j k x)) (rangle (gj j k x) * -1) (gj j k y)) 0%nat.
        { intros j _. f_equal. ring. }
        replace (-1 * rangle (gl k x)) with (rangle (gl k x) * -1) by ring.
        apply (wcv_rrot n (fun j => gj j k x) (gl k x) (fun _ => -1) (-1) (fun j => gj j k y) (gl k y)).
        - intros j. apply ok_len, gj_ok; auto.
        - apply ok_len, gl_ok; auto.
        - intros j. apply ok_len, gj_ok; auto.
        - apply ok_len, gl_ok; auto.
        - apply IP; auto. lia.
        - apply cv_const.
        - apply IP; auto. lia. }
      destruct CB as (B0 & BA & B1 & BZ). unfold mapr, wcv. cbn [rb0 rb1 rangle]. split; [|split; [auto|split; [|auto]]].
      * apply (cvv_turn_by n); auto.
      * intros NZ1. apply (cvv_turn_by n); auto.
Qed.
End Joint.

(** C165: where the directions of the nodes and their weights converge, the weighted means converge
    to the mean of the limits of the directions with the limits of the weights. *)
Theorem C165_continuous :
  forall n t r d_ sl orth0 st_ st l ws_ ws own_ own,
  rooted_tree n t r -> (2 <= n)%nat -> level_sorted t sl ->
  (forall j x a, node t x a -> length (d_ j x) = n /\ unitv (d_ j x)) ->
  no_opposite t -> distinguishable t ->
  (forall j, no_opposite (redirected (d_ j) t) /\ distinguishable (redirected (d_ j) t)) ->
  (forall x a i, node t x a -> Un_cv (fun j => nth i (d_ j x) 0) (nth i (a_dir a) 0)) ->
  (forall v, length (orth0 v) = length v) ->
  (forall j, assigned t l (ws_ j) (own_ j)) -> assigned t l ws own ->
  (forall j x, 0 <= own_ j x) -> (forall x, 0 <= own x) ->
  (forall j, 0 < rsum (ws_ j) <= 1) -> 0 < rsum ws <= 1 ->
  (forall i, Un_cv (fun j => nth i (ws_ j) 0) (nth i ws 0)) ->
  exists mean_ mean,
    (forall j : nat, get_weighted_mean orth0 (redirected (d_ j) t) (st_ j) sl l (ws_ j) = Ok (mean_ j)) /\
    get_weighted_mean orth0 t st sl l ws = Ok mean /\
    (forall j, length (mean_ j) = n) /\ length mean = n /\
    (forall i, Un_cv (fun j => nth i (mean_ j) 0) (nth i mean 0)).
Proof.
  intros n t r d_ sl orth0 st_ st l ws_ ws own_ own W Hn SL DU NO DI ND_ CD OL A_ A OW_ OW T_ T C.
  assert (D_ : forall j x, In x (ids t) -> length (d_ j x) = n /\ unitv (d_ j x)).
  { intros j x Hx. destruct (get_dirn n t r W x Hx) as (a & E & _). apply (DU j x a). apply (get_attrs_node n t r W); auto. }
  pose proof (no_opposite_dirn n t r W NO) as NA.
  assert (EX : forall p x, edge t p x -> exact_pair (dirn t p) (dirn t x)).
  { intros p x Ep. apply (distinguishable_dirn n t r W DI); auto. }
  pose proof (fun j => red_rooted n t r (d_ j) W (D_ j)) as W'.
  assert (NA_ : forall j p x, edge t p x -> dot (dirn (redirected (d_ j) t) p) (dirn (redirected (d_ j) t) x) <> -1).
  { intros j p x Ep. apply (no_opposite_dirn n _ r (W' j)); auto. apply ND_. }
  assert (EX_ : forall j p x, edge t p x -> exact_pair (dirn (redirected (d_ j) t) p) (dirn (redirected (d_ j) t) x)).
  { intros j p x Ep. apply (distinguishable_dirn n _ r (W' j)); auto. apply ND_. }
  assert (CDn : forall x, In x (ids t) -> cvv (fun j => d_ j x) (dirn t x)).
  { intros x Hx i. destruct (get_dirn n t r W x Hx) as (a & E & _). unfold dirn. rewrite E. apply (CD x a i).
    apply (get_attrs_node n t r W); auto. }
  assert (TR_ : forall j, wsub t (own_ j) r = rsum (ws_ j)).
  { intros j. apply (total_root n t r l (ws_ j) (own_ j) W Hn NO (A_ j) (ex_intro _ sl SL)). }
  pose proof (total_root n t r l ws own W Hn NO A (ex_intro _ sl SL)) as TR.
  assert (TO_ : forall j, wsub t (own_ j) r <= 1) by (intros j; rewrite TR_; apply T_).
  assert (TO : wsub t own r <= 1) by (rewrite TR; apply T).
  exists (fun j => endk (redirected (d_ j) t) r sl orth0 (own_ j) (S (maxlvl t sl))), (endk t r sl orth0 own (S (maxlvl t sl))).
  split; [|split; [|split; [|split]]].
  - intros j. destruct (assigned_len _ _ _ _ (A_ j)) as [HL HI].
    rewrite <- (red_maxlvl t (d_ j) sl).
    apply (mean_endk n _ r (W' j) Hn (NA_ j) (EX_ j) sl (red_sorted t (d_ j) sl SL) orth0 OL (own_ j)); auto.
    + rewrite red_wsub. auto.
    + rewrite red_ids. auto.
    + apply assigned_own with t; auto.
    + rewrite red_wsub, TR_. specialize (T_ j). lra.
  - destruct (assigned_len _ _ _ _ A) as [HL HI].
    apply (mean_endk n t r W Hn NA EX sl SL orth0 OL own); auto.
    + apply assigned_own with t; auto.
    + rewrite TR. lra.
  - intros j. apply (endk_props n _ r (W' j) Hn (NA_ j) (EX_ j) sl (red_sorted t (d_ j) sl SL) orth0 OL (own_ j)); auto.
    rewrite red_wsub. auto.
  - apply (endk_props n t r W Hn NA EX sl SL orth0 OL own); auto.
  - apply (jlevels n t r d_ W Hn D_ NA EX NA_ EX_ CDn sl SL orth0 OL own_ own); auto.
    intros y Hy. apply (cv_own t l ws_ ws); auto.
Qed.

(** The second direction of the tree 0 -> 1 turns to its limit. *)
Definition turning (j : nat) (x : nid) : vec :=
  if nid_eq_dec x n1 then [sin (fading j / 2); cos (fading j / 2); 0] else e0.
Lemma turning_range j : 0 < sin (fading j / 2) < 1 / 2 + / 10.
Proof.
  pose proof (fading_range j). split; [apply sin_gt_0; pose proof PI2_3_2; unfold PI2 in *; lra|].
  pose proof (sin_lt_x (fading j / 2)). lra.
Qed.
Example C165_case : forall orth0 st, (forall v, length (orth0 v) = length v) ->
  exists mean_ mean,
    (forall j, get_weighted_mean orth0 (redirected (turning j) extree1) st [n0; n1] [n1] [1/2] = Ok (mean_ j)) /\
    get_weighted_mean orth0 extree1 st [n0; n1] [n1] [1/2] = Ok mean /\
    (forall i, Un_cv (fun j => nth i (mean_ j) 0) (nth i mean 0)).
Proof.
  intros orth0 st OL. destruct extree_dirs as [NO DI].
  set (own := fun x => if nid_eq_dec x n1 then 1/2 else 0).
  assert (ND : forall x a, node extree1 x a -> node extree x a).
  { unfold node, extree1, extree. cbn [t_nodes In]. intuition. }
  assert (ED : forall p x, edge extree1 p x -> edge extree p x).
  { unfold edge, extree1, extree. cbn [t_edges In]. intuition. }
  assert (AS : assigned extree1 [n1] [1/2] own).
  { split; [repeat constructor; simpl; intuition|]. split; [reflexivity|].
    split; [intros x [<-|[]]; simpl; auto|]. unfold own. split.
    - intros x w [Ew|[]]. injection Ew as <- <-. destruct (nid_eq_dec n1 n1); [reflexivity|contradiction].
    - intros x Hx. destruct (nid_eq_dec x n1) as [->|]; [exfalso; apply Hx; simpl; auto|reflexivity]. }
  destruct (C165_continuous 3 extree1 n0 turning [n0; n1] orth0 (fun _ => st) st [n1] (fun _ => [1/2]) [1/2]
    (fun _ => own) own) as (m_ & m & A & B & _ & _ & C); auto.
  - exact extree1_rooted.
  - split; [apply Permutation_refl|]. intros x y a b B Ha Hb.
    apply before_cases in B as [[-> B]|B].
    + destruct Ha as [Ha|[Ha|[]]]; try discriminate. injection Ha as <-. simpl. lia.
    + apply before_cases in B as [[-> []]|B]. apply before_cases in B. destruct B.
  - intros j x a [Ha|[Ha|[]]]; injection Ha as <- _; (split; [reflexivity|]); unfold unitv; cbn.
    + ring.
    + pose proof (sin2_cos2 (fading j / 2)) as S. unfold Rsqr in S. lra.
  - intros p x a b Ep Ha Hb. apply (NO p x); auto.
  - intros p x a b Ep Ha Hb. apply (DI p x); auto.
  - intros j. pose proof (turning_range j) as T. split.
    + intros p x a b [Ep|[]] [Ha|[Ha|[]]] [Hb|[Hb|[]]]; injection Ep as <- <-; try discriminate;
        injection Ha as <-; injection Hb as <-; cbn. lra.
    + intros p x a b [Ep|[]] [Ha|[Ha|[]]] [Hb|[Hb|[]]]; injection Ep as <- <-; try discriminate;
        injection Ha as <-; injection Hb as <-. right. cbn [a_dir]. unfold turning.
      destruct (nid_eq_dec n1 n1) as [_|]; [|contradiction]. destruct (nid_eq_dec n0 n1) as [|_]; [discriminate|].
      unfold e0. cbn [allclose]. apply andb_false_intro1. unfold isclose. apply Rleb_false.
      rewrite (Rabs_pos_eq (sin _)) by lra. rewrite Rabs_pos_eq by lra. lra.
  - intros x a i [Ha|[Ha|[]]]; injection Ha as <- <-; unfold turning; cbn [a_dir].
    + destruct (nid_eq_dec n0 n1) as [|_]; [discriminate|]. apply cv_const.
    + destruct (nid_eq_dec n1 n1) as [_|]; [|contradiction].
      assert (Cf : Un_cv (fun j => fading j / 2) 0).
      { replace 0 with (0 * / 2) by ring. unfold Rdiv. apply cv_mul; [apply fading_cv|apply cv_const]. }
      destruct i as [|[|i]]; cbn [nth].
      * change (nth 0 e1 0) with 0. rewrite <- sin_0. apply cv_sin; auto.
      * change (nth 1 e1 0) with 1. rewrite <- cos_0. apply cv_cos; auto.
      * destruct i as [|i]; [apply cv_const|]. destruct i; apply cv_const.
  - intros _ x. unfold own. destruct (nid_eq_dec x n1); lra.
  - intros x. unfold own. destruct (nid_eq_dec x n1); lra.
  - intros _. simpl; lra.
  - simpl; lra.
  - intros i. apply cv_const.
  - eauto.
Qed.
Print Assumptions C165_continuous.
