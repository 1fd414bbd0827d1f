(** C162: the weighted mean of a direction tree follows every change of the frame. *)
Require Import Reals List Lra Lia Bool ZArith Permutation.
From Verif Require Import Base Vec Angle RotModel Spec RotProofs SeqProofs TreeModel TreeSpec
  TreeProofs TreeWeights TreeReduce TreeGeom TreeCases TreeIndep TreeExample PropTree.
Import ListNotations.
Open Scope R_scope.

(** *** Specification *)
(** A change of frame of R^n: linear and preserving inner products (rotations and reflections). *)
Record frame_change (n : nat) (Q : vec -> vec) : Prop := {
  fc_len : forall u, length u = n -> length (Q u) = n;
  fc_add : forall u v, length u = n -> length v = n -> Q (vadd u v) = vadd (Q u) (Q v);
  fc_scale : forall c u, length u = n -> Q (vscale c u) = vscale c (Q u);
  fc_dot : forall u v, length u = n -> length v = n -> dot (Q u) (Q v) = dot u v
}.
(** The same tree with all directions given in the new frame. *)
Definition in_frame (Q : vec -> vec) (t : tree) : tree :=
  mkTree (map (fun xa => (fst xa, option_map (fun a => mkAttrs (a_level a) (Q (a_dir a))) (snd xa))) (t_nodes t))
         (t_edges t) (t_root t).

(** *** The tree in the new frame *)
Section Frame.
Variables (n : nat) (Q : vec -> vec).
Hypothesis FQ : frame_change n Q.
Variables (t : tree) (r : nid).
Hypothesis W : rooted_tree n t r.
Hypothesis Hn : (2 <= n)%nat.
Notation t' := (in_frame Q t).

Lemma Q_norm u : length u = n -> norm (Q u) = norm u.
Proof. intros L. unfold norm. rewrite (fc_dot n Q FQ) by auto. auto. Qed.
Lemma frame_ids : ids t' = ids t.
Proof. unfold ids, in_frame. cbn [t_nodes]. rewrite map_map. reflexivity. Qed.
Lemma frame_attrs x : get_attrs t' x =
  match get_attrs t x with Ok a => Ok (mkAttrs (a_level a) (Q (a_dir a))) | Err e => Err e end.
Proof.
  unfold get_attrs, in_frame. cbn [t_nodes]. induction (t_nodes t) as [|[y oa] l IH]; [reflexivity|].
  cbn [map fst snd assoc]. destruct (nid_eqb x y); [|exact IH]. destruct oa; reflexivity.
Qed.
Lemma frame_lvl x : lvl t' x = lvl t x.
Proof. unfold lvl. rewrite frame_attrs. destruct (get_attrs t x); reflexivity. Qed.
Lemma frame_dirn x : In x (ids t) -> dirn t' x = Q (dirn t x).
Proof.
  intros H. destruct (get_dirn n t r W x H) as (a & E & _). unfold dirn. rewrite frame_attrs, E. reflexivity.
Qed.
Lemma frame_par x : par t' x = par t x. Proof. reflexivity. Qed.
Lemma frame_dlist x : dlist t' x = dlist t x.
Proof.
  unfold dlist, descendants, get_all_childs_children.
  replace (length (t_nodes t')) with (length (t_nodes t)) by (unfold in_frame; cbn [t_nodes]; rewrite map_length; auto).
  assert (B : forall f a b, bfs t' f a b = bfs t f a b).
  { induction f; intros a b; [reflexivity|]. cbn [bfs]. destruct b; [reflexivity|]. auto. }
  rewrite B. reflexivity.
Qed.
Lemma frame_wsub own x : wsub t' own x = wsub t own x.
Proof. unfold wsub. rewrite frame_dlist. reflexivity. Qed.
Lemma frame_nodelevel own sl k : nodelevel t' own sl k = nodelevel t own sl k.
Proof. unfold nodelevel. apply filter_ext. intros x. rewrite frame_lvl, frame_wsub. reflexivity. Qed.
Lemma frame_moved nl y : moved t' nl y = moved t nl y.
Proof.
  unfold moved. induction nl as [|x l IH]; [reflexivity|]. cbn [find]. rewrite frame_dlist, IH. reflexivity.
Qed.
Lemma frame_node x a : node t' x a -> exists b, node t x b /\ a = mkAttrs (a_level b) (Q (a_dir b)).
Proof.
  unfold node, in_frame. cbn [t_nodes]. intros H. apply in_map_iff in H as ([y [b|]] & E & H); cbn in E; [|discriminate].
  injection E as -> <-. eauto.
Qed.
Lemma frame_rooted : rooted_tree n t' r.
Proof.
  destruct W as [A B C D E F G H]. constructor.
  - fold (ids t'). rewrite frame_ids. exact A.
  - destruct B as (a & rest & Eb & La). exists (mkAttrs (a_level a) (Q (a_dir a))).
    unfold in_frame. cbn [t_nodes]. rewrite Eb. cbn [map fst snd option_map]. eauto.
  - intros x oa Hx. unfold in_frame in Hx. cbn [t_nodes] in Hx. apply in_map_iff in Hx as ([y ob] & Ex & Hx).
    cbn in Ex. injection Ex as -> <-. destruct (C _ _ Hx) as (a & -> & L & U & V).
    exists (mkAttrs (a_level a) (Q (a_dir a))). split; [reflexivity|]. cbn [a_dir a_level].
    split; [apply (fc_len n Q FQ); auto|]. split; [|auto]. unfold unitv. rewrite (fc_dot n Q FQ) by auto. exact U.
  - exact D.
  - intros x a Ha Hx. apply frame_node in Ha as (b & Hb & _). exact (E x b Hb Hx).
  - exact F.
  - intros p x Ep. fold (ids t'). rewrite frame_ids. exact (G p x Ep).
  - intros p x a b Ep Ha Hb. apply frame_node in Ha as (a1 & Ha & ->). apply frame_node in Hb as (b1 & Hb & ->).
    cbn [a_level]. exact (H p x a1 b1 Ep Ha Hb).
Qed.
Lemma frame_no_opposite : no_opposite t -> no_opposite t'.
Proof.
  intros N p x a b Ep Ha Hb. apply frame_node in Ha as (a1 & Ha & ->). apply frame_node in Hb as (b1 & Hb & ->).
  cbn [a_dir]. destruct (rt_node _ _ _ W _ _ Ha) as (a2 & Ea & La & _). injection Ea as <-.
  destruct (rt_node _ _ _ W _ _ Hb) as (b2 & Eb & Lb & _). injection Eb as <-.
  rewrite (fc_dot n Q FQ) by auto. exact (N p x a1 b1 Ep Ha Hb).
Qed.
Lemma frame_sorted sl : level_sorted t sl <-> level_sorted t' sl.
Proof.
  split; intros [P B].
  - split; [fold (ids t'); rewrite frame_ids; exact P|]. intros x y a b Bx Ha Hb.
    apply frame_node in Ha as (a1 & Ha & ->). apply frame_node in Hb as (b1 & Hb & ->). exact (B x y a1 b1 Bx Ha Hb).
  - split; [fold (ids t') in P; rewrite frame_ids in P; exact P|]. intros x y a b Bx Ha Hb.
    apply (B x y (mkAttrs (a_level a) (Q (a_dir a))) (mkAttrs (a_level b) (Q (a_dir b))) Bx);
      unfold node, in_frame; cbn [t_nodes].
    + exact (in_map (fun xa => (fst xa, option_map (fun a => mkAttrs (a_level a) (Q (a_dir a))) (snd xa))) _ _ Ha).
    + exact (in_map (fun xa => (fst xa, option_map (fun a => mkAttrs (a_level a) (Q (a_dir a))) (snd xa))) _ _ Hb).
Qed.

(** *** Rotations in the new frame *)
(** The second base vector of a rotation by the angle zero does not matter. *)
Definition rel (q q' : rotation) : Prop :=
  rb0 q' = Q (rb0 q) /\ rangle q' = rangle q /\ (rangle q <> 0 -> rb1 q' = Q (rb1 q)).

Lemma Q_plane_rot d b0 b1 a : length d = n -> length b0 = n -> length b1 = n ->
  plane_rot (Q d) (Q b0) (Q b1) a = Q (plane_rot d b0 b1 a).
Proof.
  intros. unfold plane_rot.
  rewrite !(fc_dot n Q FQ) by auto. rewrite !(fc_add n Q FQ), !(fc_scale n Q FQ); auto;
    autorewrite with vlen; lia.
Qed.
Definition lok (q : rotation) : Prop := length (rb0 q) = n /\ length (rb1 q) = n.
Lemma lok_ok q : rot_ok n q -> lok q.
Proof. intros (A & B & _). split; auto. Qed.
Lemma lok_rrot b a q : lok b -> lok q -> lok (rrot (rb0 b) (rb1 b) a q).
Proof. intros [A B] [C D]. split; apply (plane_rot_length n); auto. Qed.
Lemma rel_rrot b b' a a' q q' : lok b -> lok b' -> lok q -> lok q' ->
  rel b b' -> rel q q' -> a' = a -> (rangle b = 0 -> a = 0) ->
  rel (rrot (rb0 b) (rb1 b) a q) (rrot (rb0 b') (rb1 b') a' q').
Proof.
  intros [L0 L1] [L0' L1'] [K0 K1] [K0' K1'] (B0 & BA & B1) (Q0 & QA & Q1) -> Z.
  unfold rel, rrot. cbn [rb0 rb1 rangle].
  destruct (Req_EM_T (rangle b) 0) as [E|E].
  - rewrite (Z E). rewrite !(plane_rot_zero n) by auto. split; [auto|split; auto].
  - rewrite B0, (B1 E), Q0, QA. rewrite Q_plane_rot by auto.
    split; [auto|]. split; [auto|]. intros NZ. rewrite (Q1 NZ). apply Q_plane_rot; auto.
Qed.
Lemma rel_end q q' : lok q -> lok q' -> rel q q' -> end_of q' = Q (end_of q).
Proof.
  intros (K0 & K1) (K0' & K1') (E0 & EA & E1). unfold end_of. rewrite EA.
  destruct (Req_EM_T (rangle q) 0) as [Z|NZ].
  - rewrite Z, cos_0, sin_0.
    assert (P : forall u v, length u = n -> length v = n -> vadd (vscale 1 u) (vscale 0 v) = u) by (intros; vext; ring).
    rewrite !P by auto. exact E0.
  - rewrite E0, (E1 NZ). rewrite (fc_add n Q FQ), !(fc_scale n Q FQ); auto; autorewrite with vlen; auto.
Qed.

Section Reduce.
Hypothesis NA : forall p x, edge t p x -> dot (dirn t p) (dirn t x) <> -1.
Hypothesis NA' : forall p x, edge t' p x -> dot (dirn t' p) (dirn t' x) <> -1.
Variable sl : list nid.
Hypothesis SL : level_sorted t sl.
Variable own : nid -> R.
Notation wt := (wsub t own).
Hypothesis OW : forall y, In y (ids t) -> 0 <= own y.
Hypothesis TOT : wt r <= 1.
Hypothesis EX : forall p x, edge t p x -> exact_pair (dirn t p) (dirn t x).
Hypothesis EX' : forall p x, edge t' p x -> exact_pair (dirn t' p) (dirn t' x).
Variables orth0 orth1 : vec -> vec.
Hypothesis OL0 : forall v, length (orth0 v) = length v.
Hypothesis OL1 : forall v, length (orth1 v) = length v.

Lemma frame_orient x : In x (ids t) -> rel (orient t x) (orient t' x).
Proof.
  intros H. pose proof (orient_spec n t r W Hn NA x H) as (E & O & E0 & EA & _).
  assert (H' : In x (ids t')) by (rewrite frame_ids; auto).
  pose proof (orient_spec n t' r frame_rooted Hn NA' x H') as (E' & O' & E0' & EA' & _).
  pose proof (par_in n t r W x H) as Hp.
  assert (Lx : length (dirn t x) = n) by (apply (dirn_length n t r W); auto).
  assert (Lp : length (dirn t (par t x)) = n) by (apply (dirn_length n t r W); auto).
  assert (Ux : unitv (dirn t x)) by (apply (dirn_unit n t r W); auto).
  assert (Up : unitv (dirn t (par t x))) by (apply (dirn_unit n t r W); auto).
  change (par t' x) with (par t x) in *.
  rewrite (frame_dirn x H), (frame_dirn _ Hp) in E'. rewrite (frame_dirn _ Hp) in E0'.
  rewrite (frame_dirn x H), (frame_dirn _ Hp) in EA'.
  rewrite (fc_dot n Q FQ) in EA' by auto.
  split; [congruence|]. split; [congruence|]. intros NZ.
  destruct (par_cases n t r W x H) as [->|Ep].
  { exfalso. apply NZ. rewrite EA, (par_root n t r W). unfold unitv in Ux. rewrite Ux. apply acos_1. }
  assert (NE : dirn t (par t x) <> dirn t x).
  { intros Eq. apply NZ. rewrite EA, Eq. unfold unitv in Ux. rewrite Ux. apply acos_1. }
  assert (C1 : allclose (dirn t (par t x)) (dirn t x) = false) by (destruct (EX _ _ Ep); [contradiction|auto]).
  assert (C2 : allclose (Q (dirn t (par t x))) (Q (dirn t x)) = false).
  { destruct (EX' (par t x) x Ep) as [Eq|Ac];
      [rewrite (frame_dirn x H), (frame_dirn _ Hp) in Eq|rewrite (frame_dirn x H), (frame_dirn _ Hp) in Ac; auto].
    exfalso. apply NZ. rewrite <- EA' in EA. rewrite EA.
    rewrite EA'. rewrite <- (fc_dot n Q FQ) by auto. rewrite Eq, (fc_dot n Q FQ) by auto.
    unfold unitv in Ux. rewrite Ux. apply acos_1. }
  unfold from_directions in E, E'.
  assert (UQx : unitv (Q (dirn t x))) by (unfold unitv; rewrite (fc_dot n Q FQ) by auto; auto).
  assert (UQp : unitv (Q (dirn t (par t x)))) by (unfold unitv; rewrite (fc_dot n Q FQ) by auto; auto).
  assert (N1 : norm (dirn t x) = 1) by (apply unit_norm; auto).
  assert (N2 : norm (dirn t (par t x)) = 1) by (apply unit_norm; auto).
  assert (N3 : norm (Q (dirn t x)) = 1) by (apply unit_norm; auto).
  assert (N4 : norm (Q (dirn t (par t x))) = 1) by (apply unit_norm; auto).
  rewrite N1, N2 in E. rewrite N3, N4 in E'. rewrite !vdiv_1 in E, E'.
  destruct (Req_EM_T 1 0) as [Z|_]; [lra|]. rewrite C1 in E. rewrite C2 in E'.
  rewrite (fc_dot n Q FQ) in E' by auto.
  set (d := dot (dirn t (par t x)) (dirn t x)) in *.
  assert (EP : vsub (Q (dirn t x)) (vscale d (Q (dirn t (par t x)))) = Q (vsub (dirn t x) (vscale d (dirn t (par t x))))).
  { unfold vsub. rewrite (fc_add n Q FQ), !(fc_scale n Q FQ); auto; autorewrite with vlen; auto. }
  rewrite EP in E'. set (p := vsub (dirn t x) (vscale d (dirn t (par t x)))) in *.
  assert (LP : length p = n) by (unfold p; autorewrite with vlen; lia).
  rewrite Q_norm in E' by auto. destruct (Req_EM_T (norm p) 0) as [Z|Z]; [discriminate|].
  cbn [bind] in E, E'. injection E as E. injection E' as E'. rewrite <- E, <- E'. cbn [rb1].
  unfold vdiv. symmetry. apply (fc_scale n Q FQ); auto.
Qed.
Lemma orient_lok x : In x (ids t) -> lok (orient t x) /\ lok (orient t' x).
Proof.
  intros H. split; apply lok_ok.
  - apply (orient_spec n t r W Hn NA x H).
  - apply (orient_spec n t' r frame_rooted Hn NA' x). rewrite frame_ids; auto.
Qed.

(** *** The first pass *)
Lemma frame_scaled x : In x (ids t) -> rel (scaled t own x) (scaled t' own x).
Proof.
  intros H. destruct (frame_orient x H) as (A & B & C). unfold rel, scaled. cbn [rb0 rb1 rangle].
  rewrite frame_wsub, B. split; [auto|]. split; [auto|]. intros NZ. apply C. intros Z. apply NZ. rewrite Z. ring.
Qed.
Lemma frame_pull x p p' : In x (ids t) -> lok p -> lok p' -> rel p p' ->
  rel (pull t own x p) (pull t' own x p') /\ lok (pull t own x p) /\ lok (pull t' own x p').
Proof.
  intros H Lp Lp' Rp. destruct (orient_lok x H) as [L1 L2]. pose proof (frame_orient x H) as RO.
  unfold pull. rewrite frame_wsub. destruct (Rle_dec (wt x) 0); [auto|]. destruct (Rle_dec 1 (wt x)); [auto|].
  split; [|split; apply lok_rrot; auto].
  apply rel_rrot; auto.
  - destruct RO as (_ & -> & _). reflexivity.
  - intros ->. ring.
Qed.
Lemma frame_anc k : forall y, anc t' k y = anc t k y.
Proof. induction k; intros y; [reflexivity|]. cbn [anc]. rewrite frame_par, IHk. reflexivity. Qed.
Lemma frame_p1 y : In y (ids t) -> rel (p1 t own (rev sl) y) (p1 t' own (rev sl) y).
Proof.
  intros H. rewrite (p1_closed n t r W Hn sl SL own y H).
  rewrite (p1_closed n t' r frame_rooted Hn sl (proj1 (frame_sorted sl) SL) own y) by (rewrite frame_ids; auto).
  unfold pulled. rewrite frame_lvl, frame_anc.
  assert (I : forall x, In x (anc t (lvl t y) y) -> In x (ids t)).
  { intros x Hx. apply (anc_desc n t r W Hn (lvl t y) y x H eq_refl) in Hx. apply (desc_ids n t r W) in Hx. tauto. }
  assert (G : forall l p p', (forall x, In x l -> In x (ids t)) -> lok p -> lok p' -> rel p p' ->
    rel (fold_left (fun p x => pull t own x p) l p) (fold_left (fun p x => pull t' own x p) l p')).
  { induction l as [|x l IH]; intros p p' Hl Lp Lp' Rp; [exact Rp|]. cbn [fold_left].
    destruct (frame_pull x p p') as (A & B & C); [apply Hl; left; auto|auto|auto|auto|].
    apply IH; auto. intros z Hz. apply Hl. right. auto. }
  destruct (orient_lok y H) as [L1 L2].
  apply G; [exact I|exact L1|exact L2|]. apply frame_scaled; auto.
Qed.

(** *** The second pass *)
Lemma frame_term q q' : lok q -> lok q' -> rel q q' ->
  vscale (rangle q') (rb1 q') = Q (vscale (rangle q) (rb1 q)).
Proof.
  intros [_ L] [_ L'] (_ & A & B). rewrite A, (fc_scale n Q FQ) by auto.
  destruct (Req_EM_T (rangle q) 0) as [Z|NZ]; [|rewrite (B NZ); auto].
  rewrite Z. pose proof (fc_len n Q FQ _ L). vext. ring.
Qed.
Lemma frame_level_sum pt pt' nl : nl <> [] ->
  (forall x, In x nl -> lok (pt x) /\ lok (pt' x) /\ rel (pt x) (pt' x)) ->
  level_sum pt' nl = Q (level_sum pt nl) /\ length (level_sum pt nl) = n.
Proof.
  induction nl as [|x l IH]; intros NE H; [congruence|].
  destruct (H x (or_introl eq_refl)) as (A & B & C).
  pose proof (frame_term _ _ A B C) as T.
  assert (LT : length (vscale (rangle (pt x)) (rb1 (pt x))) = n) by (autorewrite with vlen; apply A).
  unfold level_sum in *. cbn [map fold_right].
  destruct l as [|y l].
  - cbn [map fold_right]. rewrite T. assert (Z : forall u, vadd u [] = u) by (intros u; destruct u; reflexivity).
    rewrite !Z. auto.
  - destruct IH as [E L]; [discriminate|intros z Hz; apply H; right; auto|].
    rewrite E, T. split; [|autorewrite with vlen; autorewrite with vlen in LT; lia].
    symmetry. apply (fc_add n Q FQ); auto.
Qed.
Lemma frame_level_rot pt pt' nl : nl <> [] ->
  (forall x, In x nl -> lok (pt x) /\ lok (pt' x) /\ rel (pt x) (pt' x)) ->
  rel (level_rot orth0 pt nl) (level_rot orth1 pt' nl) /\
  lok (level_rot orth0 pt nl) /\ lok (level_rot orth1 pt' nl).
Proof.
  intros NE H. destruct (frame_level_sum pt pt' nl NE H) as [E L].
  assert (Hh : In (hd (NInt 0) nl) nl) by (destruct nl; [congruence|left; auto]).
  destruct (H _ Hh) as ([A0 A1] & [B0 B1] & (C0 & _)).
  unfold level_rot, rel, lok. cbn [rb0 rb1 rangle]. rewrite E, Q_norm by auto.
  destruct (Req_EM_T (norm (level_sum pt nl)) 0) as [Z|NZ].
  - split; [split; [auto|split; [auto|contradiction]]|]. rewrite OL0, OL1. auto.
  - unfold vdiv. rewrite (fc_scale n Q FQ) by auto. split; [split; auto|].
    pose proof (fc_len n Q FQ _ L). autorewrite with vlen. auto.
Qed.

Notation g_ := (fun k => p2 t sl own orth0 (seq 0 k)).
Notation g'_ := (fun k => p2 t' sl own orth1 (seq 0 k)).
Definition rel_last (o o' : option rotation) : Prop :=
  match o, o' with None, None => True | Some q, Some q' => rel q q' /\ lok q /\ lok q' | _, _ => False end.
Definition rel_p (g g' : pstate) : Prop :=
  (forall y, In y (ids t) -> rel (ps_pt g y) (ps_pt g' y)) /\
  Forall2 rel (ps_seq g) (ps_seq g') /\ rel_last (ps_last g) (ps_last g').

Lemma inv1 k : p2_inv n t r sl own orth0 k (g_ k).
Proof. apply (p2_inv_all n t r W Hn NA sl SL own OW TOT); auto. Qed.
Lemma inv2 k : p2_inv n t' r sl own orth1 k (g'_ k).
Proof.
  apply (p2_inv_all n t' r frame_rooted Hn NA' sl (proj1 (frame_sorted sl) SL) own); auto.
  - rewrite frame_ids. auto.
  - rewrite frame_wsub. auto.
Qed.
Lemma frame_p2 k : rel_p (g_ k) (g'_ k).
Proof.
  induction k.
  - unfold p2. cbn [seq fold_left]. split; [|split; [constructor|exact I]].
    intros y Hy. cbn [ps_pt]. apply frame_p1; auto.
  - pose proof (inv1 k) as (K1 & _). pose proof (inv2 k) as (K2 & _). cbv beta in *.
    rewrite seq_S. unfold p2 in *. rewrite !fold_left_snoc.
    set (g := fold_left (p2step orth0 t own sl) (seq 0 k) (mkP (p1 t own (rev sl)) [] None)) in *.
    set (g' := fold_left (p2step orth1 t' own sl) (seq 0 k) (mkP (p1 t' own (rev sl)) [] None)) in *.
    destruct IHk as (A1 & A2 & A3).
    assert (LK : forall y, In y (ids t) -> lok (ps_pt g y) /\ lok (ps_pt g' y) /\ rel (ps_pt g y) (ps_pt g' y)).
    { intros y Hy. split; [apply lok_ok, K1; auto|]. split; [apply lok_ok, K2; rewrite frame_ids; auto|auto]. }
    simpl Nat.add. unfold p2step. rewrite frame_nodelevel.
    pose proof (nodelevel_in t sl SL own k) as NI.
    pose proof (moved_some n t r W sl SL own k) as MS.
    set (nl := nodelevel t own sl k) in *.
    assert (Eq : flat_map (dlist t') nl = flat_map (dlist t) nl).
    { clear. induction nl; [reflexivity|]. cbn [flat_map]. rewrite frame_dlist, IHnl. reflexivity. }
    rewrite Eq. destruct nl as [|x0 l0] eqn:En; [split; auto|]. rewrite <- En in *.
    assert (HN : forall x, In x nl -> In x (ids t)) by (intros x Hx; apply NI in Hx; tauto).
    assert (NE : nl <> []) by (rewrite En; discriminate).
    destruct (frame_level_rot (ps_pt g) (ps_pt g') nl NE) as (RN & L1 & L2); [intros x Hx; apply LK; auto|].
    set (new := level_rot orth0 (ps_pt g) nl) in *. set (new' := level_rot orth1 (ps_pt g') nl) in *.
    destruct (flat_map (dlist t) nl) as [|d0 dl]; [split; [auto|split; cbn; auto]|].
    unfold rel_p. cbn [ps_pt ps_seq ps_last]. pose proof RN as (_ & RA & _). rewrite RA.
    split; [|split].
    + intros y Hy. rewrite frame_moved. destruct (moved t nl y) as [x|] eqn:Em; [|auto].
      apply MS in Em as [Hx _]. apply HN in Hx.
      destruct (LK x Hx) as (Lx & Lx' & Rx). destruct (LK y Hy) as (Ly & Ly' & Ry).
      assert (RB : rel (back (ps_pt g x) (ps_pt g y)) (back (ps_pt g' x) (ps_pt g' y))).
      { unfold back. apply rel_rrot; auto.
        - destruct Rx as (_ & -> & _). auto.
        - intros ->. ring. }
      unfold fwd. rewrite RA. destruct (Req_EM_T (rangle new) 0) as [Z|NZ]; [auto|].
      apply rel_rrot; auto; try (apply lok_rrot; auto).
    + destruct (Req_EM_T (rangle new) 0); [auto|]. apply Forall2_app; auto.
    + cbn [rel_last]. auto.
Qed.

Lemma frame_mean st st' l ws : length l = length ws -> (forall x, In x l -> In x (ids t)) ->
  (forall y, own y = own_of (combine l ws) y) -> wt r <> 0 ->
  exists mean, get_weighted_mean orth0 t st sl l ws = Ok mean /\
    get_weighted_mean orth1 t' st' sl l ws = Ok (Q mean).
Proof.
  intros HL HI OWN NZ.
  destruct (reduce_pure n t r W Hn NA sl SL own orth0 st l ws HL HI OWN) as [E1 _].
  { intros k Hk _. apply p2_inv_fine with (r := r); auto. apply (inv1 k). }
  pose proof (proj1 (frame_sorted sl) SL) as SL'.
  destruct (reduce_pure n t' r frame_rooted Hn NA' sl SL' own orth1 st' l ws HL) as [E2 _].
  { rewrite frame_ids. auto. }
  { exact OWN. }
  { intros k Hk _. apply p2_inv_fine with (r := r); auto. apply (inv2 k). }
  assert (ML : maxlvl t' sl = maxlvl t sl).
  { unfold maxlvl. f_equal. apply map_ext. intros x. apply frame_lvl. }
  rewrite ML in E2.
  pose proof (frame_p2 (S (maxlvl t sl))) as (_ & _ & RL). cbv beta in RL.
  pose proof (inv1 (S (maxlvl t sl))) as (_ & _ & _ & _ & NN). cbv beta in NN.
  destruct (ps_last (p2 t sl own orth0 (seq 0 (S (maxlvl t sl))))) as [q|]; [|exfalso; apply NN; auto; lia].
  destruct (ps_last (p2 t' sl own orth1 (seq 0 (S (maxlvl t sl))))) as [q'|]; [|destruct RL].
  destruct RL as (RQ & Lq & Lq').
  exists (get_second_vector q). unfold get_weighted_mean. rewrite E1, E2. cbn [bind]. rewrite !get_end_snoc.
  split; [auto|]. f_equal.
  unfold get_second_vector. destruct Lq as [A B], Lq' as [A' B'].
  rewrite !(rotate_direction_eq n) by auto. destruct RQ as (R0 & RA & R1). rewrite RA.
  destruct (Req_EM_T (rangle q) 0) as [Z|N].
  - rewrite Z, !(plane_rot_zero n) by auto. auto.
  - rewrite R0, (R1 N). apply Q_plane_rot; auto.
Qed.
End Reduce.
End Frame.

(** C162: the mean of the directions given in another frame is the mean, given in that frame; the
    orders inside the levels, left-overs in the stores and the choice of base vectors of vanishing
    rotations do not matter. *)
Theorem C162_frame :
  forall n t r Q sl sl' orth0 orth1 st st' l ws own,
  rooted_tree n t r -> (2 <= n)%nat -> no_opposite t -> frame_change n Q ->
  distinguishable t -> distinguishable (in_frame Q t) ->
  level_sorted t sl -> level_sorted (in_frame Q t) sl' -> assigned t l ws own ->
  (forall v, length (orth0 v) = length v) -> (forall v, length (orth1 v) = length v) ->
  (forall x, 0 <= own x) -> 0 < rsum ws <= 1 ->
  exists mean, get_weighted_mean orth0 t st sl l ws = Ok mean /\
    get_weighted_mean orth1 (in_frame Q t) st' sl' l ws = Ok (Q mean).
Proof.
  intros n t r Q sl sl' orth0 orth1 st st' l ws own W Hn NO FQ DI DI' SL SL' A O0 O1 OW [T0 T1].
  destruct (assigned_len _ _ _ _ A) as [HL HI].
  pose proof (total_root n t r l ws own W Hn NO A (ex_intro _ sl SL)) as TR.
  pose proof (no_opposite_dirn n t r W NO) as NA.
  pose proof (frame_rooted n Q FQ t r W) as W'.
  pose proof (no_opposite_dirn n _ r W' (frame_no_opposite n Q FQ t r W NO)) as NA'.
  assert (OWi : forall y, In y (ids t) -> 0 <= own y) by auto.
  assert (TOT : wsub t own r <= 1) by (rewrite TR; auto).
  assert (EX : forall p x, edge t p x -> exact_pair (dirn t p) (dirn t x)).
  { intros p x Ep. apply (distinguishable_dirn n t r W DI); auto. }
  assert (EX' : forall p x, edge (in_frame Q t) p x -> exact_pair (dirn (in_frame Q t) p) (dirn (in_frame Q t) x)).
  { intros p x Ep. apply (distinguishable_dirn n _ r W' DI'); auto. }
  assert (OWN : forall y, own y = own_of (combine l ws) y) by (apply assigned_own with t; auto).
  destruct (frame_mean n Q FQ t r W Hn NA NA' sl SL own OWi TOT EX EX' orth0 orth1 O0 O1 st st' l ws HL HI OWN)
    as (m & E1 & E2); [rewrite TR; lra|].
  exists m. split; [exact E1|]. rewrite <- E2. unfold get_weighted_mean. f_equal.
  apply (reduce_sort_independent n _ r W' Hn NA' sl' sl SL'
    (proj1 (frame_sorted Q t sl) SL) own); auto.
  - rewrite (frame_wsub Q). auto.
  - rewrite (frame_ids Q). auto.
Qed.

(** The mean stays in every hyperplane through the origin that contains all directions of the tree. *)
Definition mirror (h v : vec) : vec := vadd v (vscale (-2 * dot h v) h).
Lemma mirror_frame n h : length h = n -> unitv h -> frame_change n (mirror h).
Proof.
  intros Lh Uh. unfold unitv in Uh. constructor; unfold mirror.
  - intros u L. autorewrite with vlen. lia.
  - intros u v L M. rewrite dot_vadd_r. vext. ring.
  - intros c u L. rewrite dot_vscale_r. vext. ring.
  - intros u v L M. autorewrite with vdot. rewrite Uh, (dot_comm u h). ring.
Qed.
Theorem C162_hyperplane :
  forall n t r h sl orth0 st l ws own mean,
  rooted_tree n t r -> (2 <= n)%nat -> no_opposite t -> distinguishable t ->
  length h = n -> unitv h -> (forall x a, node t x a -> dot h (a_dir a) = 0) ->
  level_sorted t sl -> assigned t l ws own ->
  (forall v, length (orth0 v) = length v) ->
  (forall x, 0 <= own x) -> 0 < rsum ws <= 1 ->
  get_weighted_mean orth0 t st sl l ws = Ok mean -> dot h mean = 0.
Proof.
  intros n t r h sl orth0 st l ws own mean W Hn NO DI Lh Uh HP SL A OL OW T E.
  assert (EQ : in_frame (mirror h) t = t).
  { unfold in_frame. destruct t as [nodes edges root]. cbn [t_nodes t_edges t_root]. f_equal.
    rewrite <- (map_id nodes) at 2. apply map_ext_in. intros [x oa] Hx. cbn [fst snd].
    destruct (rt_node _ _ _ W x oa Hx) as (a & -> & La & _). cbn [option_map]. do 2 f_equal.
    destruct a as [lv d]. cbn [a_dir a_level] in *. f_equal. unfold mirror.
    pose proof (HP x _ Hx) as Hd. cbn [a_dir] in Hd. rewrite Hd. replace (-2 * 0) with 0 by ring.
    clear - La Lh. vext. ring. }
  destruct (C162_frame n t r (mirror h) sl sl orth0 orth0 st st l ws own) as (m & E1 & E2); auto.
  - apply mirror_frame; auto.
  - rewrite EQ. auto.
  - rewrite EQ. auto.
  - rewrite EQ in E2. assert (m = mean) by congruence. subst m.
    assert (M : mean = mirror h mean) by congruence.
    assert (D : dot h mean = dot h (mirror h mean)) by congruence.
    unfold mirror in D. rewrite dot_vadd_r, dot_vscale_r in D. unfold unitv in Uh. rewrite Uh in D. lra.
Qed.

(** A quarter turn about the third axis of the tree 0 -> 1 -> 2 with the directions e0, e1, e2. *)
Definition quarter (v : vec) : vec :=
  match v with [x; y; z] => [y; - x; z] | _ => v end.
Lemma quarter_frame : frame_change 3 quarter.
Proof.
  assert (G : forall u : vec, length u = 3%nat -> exists x y z, u = [x; y; z]).
  { intros u L. destruct u as [|x [|y [|z [|w u]]]]; try discriminate. eauto. }
  constructor.
  - intros u L. destruct (G u L) as (x & y & z & ->). reflexivity.
  - intros u v L M. destruct (G u L) as (x & y & z & ->). destruct (G v M) as (a & b & c & ->).
    cbn. repeat (f_equal; try ring).
  - intros c u L. destruct (G u L) as (x & y & z & ->). cbn. repeat (f_equal; try ring).
  - intros u v L M. destruct (G u L) as (x & y & z & ->). destruct (G v M) as (a & b & c & ->).
    cbn. ring.
Qed.
Example C162_case : forall orth0 st st', (forall v, length (orth0 v) = length v) ->
  exists mean, get_weighted_mean orth0 extree st [n0; n1; n2] [n1; n2] [1/4; 1/2] = Ok mean /\
    get_weighted_mean orth0 (in_frame quarter extree) st' [n0; n1; n2] [n1; n2] [1/4; 1/2] = Ok (quarter mean).
Proof.
  intros orth0 st st' OL. destruct extree_dirs as [NO DI].
  apply (C162_frame 3 extree n0 quarter) with
    (own := fun x => if nid_eq_dec x n1 then 1/4 else if nid_eq_dec x n2 then 1/2 else 0); auto.
  - exact extree_rooted.
  - exact quarter_frame.
  - intros p x a b Ep Ha Hb. right.
    assert (F : isclose 0 1 = false /\ isclose 1 0 = false).
    { split; unfold isclose; apply Rleb_false; rewrite ?Rabs_R0, ?Rabs_R1.
      - replace (0 - 1) with (- (1)) by ring. rewrite Rabs_Ropp, Rabs_R1. lra.
      - replace (1 - 0) with 1 by ring. rewrite Rabs_R1. lra. }
    destruct F as [F1 F2].
    unfold edge, in_frame, extree in Ep. cbn [t_edges In] in Ep.
    unfold node, in_frame, extree in Ha, Hb. cbn [t_nodes map fst snd option_map In] in Ha, Hb.
    destruct Ep as [Ep|[Ep|[]]]; injection Ep as <- <-;
      repeat (destruct Ha as [Ha|Ha]; [|]); try contradiction; try discriminate;
      repeat (destruct Hb as [Hb|Hb]; [|]); try contradiction; try discriminate;
      injection Ha as <-; injection Hb as <-; unfold allclose, quarter, e0, e1, e2; cbn [a_dir a_level combine forallb];
      rewrite ?F1, ?F2; reflexivity.
  - exact extree_sorted.
  - apply (frame_sorted quarter extree). exact extree_sorted.
  - exact extree_assigned.
  - intros x. destruct (nid_eq_dec x n1); [lra|]. destruct (nid_eq_dec x n2); lra.
  - simpl; lra.
Qed.

(** The mean of the first two directions of that tree stays in their plane. *)
Example C162_plane_case : forall orth0 st mean, (forall v, length (orth0 v) = length v) ->
  get_weighted_mean orth0 extree1 st [n0; n1] [n1] [1/2] = Ok mean -> dot e2 mean = 0.
Proof.
  intros orth0 st mean OL E. destruct extree_dirs as [NO DI].
  assert (ND : forall x a, node extree1 x a -> node extree x a).
  { unfold node, extree1, extree. cbn [t_nodes In]. intuition. }
  assert (ED : forall p x, edge extree1 p x -> edge extree p x).
  { unfold edge, extree1, extree. cbn [t_edges In]. intuition. }
  apply (C162_hyperplane 3 extree1 n0 e2 [n0; n1] orth0 st [n1] [1/2]
    (fun x => if nid_eq_dec x n1 then 1/2 else 0)); auto.
  - exact extree1_rooted.
  - intros p x a b Ep Ha Hb. apply (NO p x); auto.
  - intros p x a b Ep Ha Hb. apply (DI p x); auto.
  - unfold unitv. simpl. ring.
  - intros x a [Ha|[Ha|[]]]; injection Ha as _ <-; simpl; ring.
  - split; [apply Permutation_refl|]. intros x y a b B Ha Hb.
    apply before_cases in B as [[-> B]|B].
    + destruct Ha as [Ha|[Ha|[]]]; try discriminate. injection Ha as <-. simpl. lia.
    + apply before_cases in B as [[-> []]|B]. apply before_cases in B. destruct B.
  - split; [repeat constructor; simpl; intuition|]. split; [reflexivity|].
    split; [intros x [<-|[]]; simpl; auto|]. split.
    + intros x w [Ew|[]]. injection Ew as <- <-. destruct (nid_eq_dec n1 n1); [reflexivity|contradiction].
    + intros x Hx. destruct (nid_eq_dec x n1) as [->|]; [exfalso; apply Hx; simpl; auto|reflexivity].
  - intros x. destruct (nid_eq_dec x n1); lra.
  - simpl; lra.
Qed.
Print Assumptions C162_frame.
Print Assumptions C162_hyperplane.
