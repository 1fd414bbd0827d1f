(** C163: the weighted mean of a direction tree is continuous in the weights. *)
Require Import Reals List Lra Lia Bool ZArith Permutation.
From Verif Require Import Base Vec Angle RotModel Spec RotProofs SeqProofs TreeModel TreeSpec
  TreeProofs TreeWeights TreeReduce TreeGeom TreeCases TreeIndep TreeExample PropTree ContProofs.
Import ListNotations.
Open Scope R_scope.

Section Cont.
Variables (n : nat) (t : tree) (r : nid).
Hypothesis W : rooted_tree n t r.
Hypothesis Hn : (2 <= n)%nat.
Hypothesis NA : forall p x, edge t p x -> dot (dirn t p) (dirn t x) <> -1.
Hypothesis EX : forall p x, edge t p x -> exact_pair (dirn t p) (dirn t x).
Variable sl : list nid.
Hypothesis SL : level_sorted t sl.
Variable orth0 : vec -> vec.
Hypothesis OL : forall v, length (orth0 v) = length v.

(** *** One choice of the weights *)
Definition LS (pt : nid -> rotation) (k : nat) : vec :=
  fold_right (fun x acc => vadd (vscale (rangle (pt x)) (rb1 (pt x))) acc) (vzero n)
    (filter (fun x => Nat.eqb (lvl t x) k) sl).
Definition mapr (f : vec -> vec) (q : rotation) : rotation := mkRot (f (rb0 q)) (f (rb1 q)) (rangle q).

Section One.
Variable own : nid -> R.
Notation wt := (wsub t own).
Hypothesis OW : forall y, In y (ids t) -> 0 <= own y.
Hypothesis TOT : wt r <= 1.
Notation g_ := (fun k => p2 t sl own orth0 (seq 0 k)).
Notation NL := (nodelevel t own sl).

Definition endk (k : nat) : vec :=
  match ps_last (p2 t sl own orth0 (seq 0 k)) with Some q => end_of q | None => dirn t r end.

Lemma inv_k k : p2_inv n t r sl own orth0 k (g_ k).
Proof. apply (p2_inv_all n t r W Hn NA sl SL own OW TOT); auto. Qed.

Lemma LS_sum pt k : (forall y, In y (ids t) -> rot_ok n (pt y) /\ rangle (pt y) = rangle (orient t y) * wt y) ->
  LS pt k = vadd (level_sum pt (NL k)) (vzero n).
Proof.
  intros H. unfold LS, level_sum, nodelevel.
  assert (I : forall x, In x sl -> In x (ids t)) by (intros x Hx; apply (sl_in t sl SL); auto).
  induction sl as [|x l IH] in I |- *; [reflexivity|].
  cbn [filter]. assert (IH' := IH (fun y Hy => I y (or_intror Hy))).
  destruct (Nat.eqb (lvl t x) k); cbn [andb]; [|exact IH'].
  cbn [fold_right]. rewrite IH'. destruct (H x (I x (or_introl eq_refl))) as [(_ & L & _) A].
  destruct (Reqb (wt x) 0) eqn:E; cbn [negb].
  - apply Reqb_true in E. rewrite A, E.
    vext. ring.
  - cbn [map fold_right]. vext. ring.
Qed.
Lemma LS_length pt k : (forall y, In y (ids t) -> length (rb1 (pt y)) = n) -> length (LS pt k) = n.
Proof.
  intros H. unfold LS.
  assert (I : forall x, In x (filter (fun x => Nat.eqb (lvl t x) k) sl) -> In x (ids t)).
  { intros x Hx. apply filter_In in Hx as [Hx _]. apply (sl_in t sl SL); auto. }
  induction (filter (fun x => Nat.eqb (lvl t x) k) sl) as [|x l IH]; [apply length_vzero|].
  cbn [fold_right]. rewrite length_vadd, length_vscale, IH by (intros; apply I; right; auto).
  rewrite H by (apply I; left; auto). lia.
Qed.

Lemma end_zero q E : length E = n -> rb0 q = E -> rangle q = 0 -> rb1 q = orth0 E -> end_of q = E.
Proof.
  intros L E0 Z E1. unfold end_of. rewrite Z, E0, E1, cos_0, sin_0. pose proof (OL E).
  vext. ring.
Qed.
Lemma endk_props k : length (endk k) = n /\ unitv (endk k) /\
  (forall y, In y (ids t) -> lvl t y = k -> wt y <> 0 -> rb0 (ps_pt (g_ k) y) = endk k).
Proof.
  pose proof (inv_k k) as (K1 & _ & _ & K4 & _). cbv beta in *. unfold endk.
  set (g := p2 t sl own orth0 (seq 0 k)) in *.
  pose proof (root_in n t r W) as Hr.
  destruct K4 as [(E & C1 & C2 & C3 & C4 & C5)|(E & new & C1 & C2 & C3 & C4 & C5 & C6 & C7 & C8)].
  - assert (EE : E = match ps_last g with Some q => end_of q | None => dirn t r end).
    { unfold lastrel in C5. destruct (ps_last g) as [q|]; [|tauto]. destruct C5 as (_ & [(NZ & Oq & s' & Es)|(Z & E0 & E1)]).
      - rewrite Es in C1. apply chain_app_inv in C1 as (u & _ & Cu). cbn [chain] in Cu. symmetry. tauto.
      - symmetry. apply end_zero; auto. }
    rewrite <- EE. auto.
  - rewrite C5. assert (P : length (end_of new) = n /\ unitv (end_of new)).
    { destruct (Req_EM_T (rangle new) 0) as [Z|NZ].
      - rewrite (end_zero new E) by auto. auto.
      - split; [apply (end_of_length n)|apply (end_of_unit n)]; auto. }
    split; [apply P|]. split; [apply P|]. intros y Hy L NZ. exfalso. apply NZ, C4; auto. lia.
Qed.
Lemma anc_level y k : In y (ids t) -> (k <= lvl t y)%nat ->
  exists x, In x (ids t) /\ lvl t x = k /\ (x = y \/ desc t x y).
Proof. intros. apply (anc_at n t r W Hn); auto. Qed.

Lemma endk_0 : endk 0 = dirn t r. Proof. reflexivity. Qed.
Lemma step_k k : p2 t sl own orth0 (seq 0 (S k)) = p2step orth0 t own sl (p2 t sl own orth0 (seq 0 k)) k.
Proof. rewrite seq_S. unfold p2. rewrite fold_left_snoc. reflexivity. Qed.

Lemma step_both k :
  let g := p2 t sl own orth0 (seq 0 k) in let s := LS (ps_pt g) k in
  endk (S k) = turn_by (endk k) s (endk k) /\
  (forall x y, In x (ids t) -> In y (ids t) -> lvl t x = k -> desc t x y -> wt y <> 0 ->
     ps_pt (p2 t sl own orth0 (seq 0 (S k))) y =
       mapr (turn_by (endk k) s) (back (ps_pt g x) (ps_pt g y))).
Proof.
  intros g s. pose proof (inv_k k) as (K1 & _). cbv beta in K1. fold g in K1.
  destruct (endk_props k) as (LE & UE & HE). cbv beta in HE. fold g in HE.
  pose proof (LS_sum (ps_pt g) k K1) as ES. fold s in ES.
  assert (Ls : length s = n) by (apply LS_length; intros y Hy; apply (K1 y Hy)).
  unfold endk at 1. rewrite step_k. fold g. unfold p2step.
  pose proof (nl_in t sl SL own k) as NIN. pose proof (moved_some n t r W sl SL own k) as MS.
  set (E := endk k) in *.
  assert (Bn : forall x y, In x (ids t) -> In y (ids t) -> length (rb0 (back (ps_pt g x) (ps_pt g y))) = n /\
                 length (rb1 (back (ps_pt g x) (ps_pt g y))) = n).
  { intros x y Hx Hy. destruct (K1 x Hx) as [(A0 & A1 & _) _]. destruct (K1 y Hy) as [(B0 & B1 & _) _].
    split; apply (plane_rot_length n); auto. }
  destruct (NL k) as [|x0 nl'] eqn:EN.
  - (* nothing on this level *)
    assert (Zs : norm s = 0).
    { rewrite ES. unfold level_sum. cbn [map fold_right]. apply norm_vzero. }
    split.
    + fold (endk k). fold E. rewrite (turn_by_zero n) by auto. reflexivity.
    + intros x y Hx Hy Lx D NZ. exfalso. apply (NIN x). split; [auto|]. split; [auto|].
      apply (wt_desc_neq n t r W own OW TOT x y); auto.
  - rewrite <- EN in *. set (nl := NL k) in *. assert (NE : nl <> []) by (rewrite EN; discriminate).
    assert (HR : forall x, In x nl -> rot_ok n (ps_pt g x) /\ rb0 (ps_pt g x) = E).
    { intros x Hx. apply NIN in Hx as (Hx & Lx & Wx). split; [apply K1; auto|auto]. }
    destruct (level_rot_ok n Hn orth0 (ps_pt g) nl E NE HR) as (N0 & N1 & N2).
    assert (SS : level_sum (ps_pt g) nl = s).
    { rewrite ES. assert (L : length (level_sum (ps_pt g) nl) = n).
      { apply (fold_sum_length n); auto. intros x Hx. apply (HR x Hx). }
      symmetry. vext. ring. }
    assert (NA1 : rangle (level_rot orth0 (ps_pt g) nl) = norm s) by (unfold level_rot; cbn [rangle]; rewrite SS; auto).
    assert (NB : norm s <> 0 -> rb1 (level_rot orth0 (ps_pt g) nl) = vdiv s (norm s)).
    { intros NZ. unfold level_rot. cbn [rb1]. rewrite SS. destruct (Req_EM_T (norm s) 0); [contradiction|auto]. }
    set (new := level_rot orth0 (ps_pt g) nl) in *.
    assert (EE : end_of new = turn_by E s E).
    { destruct (Req_EM_T (norm s) 0) as [Z|NZ].
      - rewrite (turn_by_zero n) by auto. apply end_zero; auto; [congruence|apply N2; congruence].
      - rewrite turn_by_plane by auto. rewrite (end_of_eq n) by (apply N1; congruence).
        rewrite N0, NB, NA1 by auto. reflexivity. }
    assert (FW : forall q, length (rb0 q) = n -> length (rb1 q) = n -> fwd new q = mapr (turn_by E s) q).
    { intros q L0 L1. unfold fwd, mapr. rewrite NA1. destruct (Req_EM_T (norm s) 0) as [Z|NZ].
      - rewrite !(turn_by_zero n) by auto. destruct q; reflexivity.
      - unfold rrot. rewrite !turn_by_plane by auto. rewrite N0, NB by auto. reflexivity. }
    assert (MV : forall x y, In x (ids t) -> lvl t x = k -> desc t x y -> wt y <> 0 -> moved t nl y = Some x).
    { intros x y Hx Lx D NZ. apply MS. split; [|auto]. apply NIN. split; [auto|]. split; [auto|].
      apply (wt_desc_neq n t r W own OW TOT x y); auto. }
    destruct (flat_map (dlist t) nl) as [|d0 dl] eqn:EF.
    + cbn [ps_last ps_pt]. split; [exact EE|]. intros x y Hx Hy Lx D NZ. exfalso.
      assert (In y (flat_map (dlist t) nl)) as Hi; [|rewrite EF in Hi; auto].
      apply in_flat_map. exists x. split; [|apply (dlist_in n t r W); auto].
      apply MS with (y := y). apply MV; auto.
    + cbn [ps_last ps_pt]. split; [exact EE|]. intros x y Hx Hy Lx D NZ. rewrite (MV x y) by auto.
      apply FW; apply Bn; auto.
Qed.

(** The first pass on the nodes with weight. *)
Definition pull_pos (x : nid) (p : rotation) : rotation :=
  rrot (rb0 (orient t x)) (rb1 (orient t x)) (rangle (orient t x) * wt x - rangle (orient t x)) p.
Lemma p1_pos y : In y (ids t) -> wt y <> 0 ->
  p1 t own (rev sl) y = fold_left (fun p x => pull_pos x p) (anc t (lvl t y) y) (scaled t own y).
Proof.
  intros Hy NZ. rewrite (p1_closed n t r W Hn sl SL own y Hy). unfold pulled.
  assert (A : forall x, In x (anc t (lvl t y) y) -> In x (ids t) /\ 0 < wt x <= 1).
  { intros x Hx. apply (anc_desc n t r W Hn (lvl t y) y x Hy eq_refl) in Hx.
    pose proof (desc_ids n t r W x y Hx) as [Hi _]. split; [auto|].
    pose proof (wt_desc_neq n t r W own OW TOT x y Hx NZ). pose proof (wt_bounds n t r W own OW TOT x Hi). lra. }
  assert (S : rot_ok n (scaled t own y)) by (apply (scaled_ok n t r W Hn NA); auto).
  revert A S. generalize (scaled t own y). generalize (anc t (lvl t y) y).
  induction l as [|x l IH]; intros q A S; [reflexivity|]. cbn [fold_left].
  destruct (A x (or_introl eq_refl)) as [Hx Bx].
  pose proof (orient_ok n t r W Hn NA x Hx) as Ox. pose proof Ox as (O0 & O1 & _).
  assert (P : pull t own x q = pull_pos x q).
  { unfold pull, pull_pos. destruct (Rle_dec (wt x) 0); [lra|]. destruct (Rle_dec 1 (wt x)); [|reflexivity].
    replace (wt x) with 1 by lra. replace (rangle (orient t x) * 1 - rangle (orient t x)) with 0 by ring.
    symmetry. apply (rrot_zero n); auto. }
  rewrite P. apply IH; [intros z Hz; apply A; right; auto|].
  apply rrot_ok; auto.
Qed.

Lemma mean_endk st l ws : length l = length ws -> (forall x, In x l -> In x (ids t)) ->
  (forall y, own y = own_of (combine l ws) y) -> wt r <> 0 ->
  get_weighted_mean orth0 t st sl l ws = Ok (endk (S (maxlvl t sl))).
Proof.
  intros HL HI OWN NZ.
  destruct (reduce_pure n t r W Hn NA sl SL own orth0 st l ws HL HI OWN) as [E1 _].
  { intros k Hk _. apply p2_inv_fine with (r := r); auto. apply (inv_k k). }
  destruct (reduce_geometry n t r W Hn NA sl SL own OW TOT (fun p x Ep _ => EX p x Ep) orth0 st l ws)
    as (s & new & E & Er & Fs & Ch & UE & LEn & On & Last); auto.
  pose proof (inv_k (S (maxlvl t sl))) as (_ & _ & _ & _ & NN). cbv beta in NN.
  unfold endk. rewrite Er in E1.
  destruct (ps_last (p2 t sl own orth0 (seq 0 (S (maxlvl t sl))))) as [q|]; [|discriminate].
  assert (Eq : s ++ [new] = ps_seq (p2 t sl own orth0 (seq 0 (S (maxlvl t sl)))) ++ [q]) by congruence.
  apply app_inj_tail in Eq as [_ ->].
  unfold get_weighted_mean. rewrite Er. cbn [bind]. rewrite get_end_snoc. f_equal.
  destruct (Req_EM_T (rangle q) 0) as [Z|N]; [|apply (end_of_second n); auto].
  destruct Last as [(E0 & E1')|(N & _)]; [|contradiction].
  rewrite (end_zero q E) by auto. unfold get_second_vector. rewrite Z, E0, (E1' Z).
  rewrite (rotate_direction_eq n) by (rewrite ?OL; auto). apply (plane_rot_zero n); rewrite ?OL; auto.
Qed.
End One.

(** *** A sequence of weights *)
Definition cvr (q : nat -> rotation) (q' : rotation) : Prop :=
  cvv (fun j => rb0 (q j)) (rb0 q') /\ cvv (fun j => rb1 (q j)) (rb1 q') /\
  Un_cv (fun j => rangle (q j)) (rangle q').
Lemma cvr_eventually (f g : nat -> rotation) q N : (forall j, (N <= j)%nat -> f j = g j) -> cvr f q -> cvr g q.
Proof.
  intros E (A & B & C). split; [|split].
  - apply cvv_eventually with (fun j => rb0 (f j)) N; auto. intros j Hj. rewrite E; auto.
  - apply cvv_eventually with (fun j => rb1 (f j)) N; auto. intros j Hj. rewrite E; auto.
  - apply cv_eventually with (fun j => rangle (f j)) N; auto. intros j Hj. rewrite E; auto.
Qed.
Lemma cvr_rrot b0 b1 a q b0' b1' a' q' : lenn n b0 -> lenn n b1 -> length b0' = n -> length b1' = n ->
  cvv b0 b0' -> cvv b1 b1' -> Un_cv a a' -> cvr q q' ->
  cvr (fun j => rrot (b0 j) (b1 j) (a j) (q j)) (rrot b0' b1' a' q').
Proof.
  intros L0 L1 M0 M1 B0 B1 A (Q0 & Q1 & QA). unfold rrot. split; [|split]; cbn [rb0 rb1 rangle]; auto;
    apply (cvv_plane_rot n); auto.
Qed.

Section Two.
Variables (own_ : nat -> nid -> R) (own : nid -> R).
Hypothesis OW_ : forall j y, In y (ids t) -> 0 <= own_ j y.
Hypothesis OW : forall y, In y (ids t) -> 0 <= own y.
Hypothesis TOT_ : forall j, wsub t (own_ j) r <= 1.
Hypothesis TOT : wsub t own r <= 1.
Hypothesis CV : forall y, In y (ids t) -> Un_cv (fun j => own_ j y) (own y).

Lemma cv_wsub y : In y (ids t) -> Un_cv (fun j => wsub t (own_ j) y) (wsub t own y).
Proof.
  intros Hy. unfold wsub. apply cv_add; [auto|].
  assert (I : forall x, In x (dlist t y) -> In x (ids t)).
  { intros x Hx. apply (dlist_in n t r W) in Hx. apply (desc_ids n t r W) in Hx. tauto. }
  induction (dlist t y) as [|x l IH]; [apply (cv_const 0)|].
  cbn [map]. unfold rsum. cbn [fold_right]. apply cv_add; [apply CV, I; left; auto|].
  apply IH. intros z Hz. apply I. right. auto.
Qed.

Notation gj := (fun j k => p2 t sl (own_ j) orth0 (seq 0 k)).
Notation gl := (fun k => p2 t sl own orth0 (seq 0 k)).

Lemma cv_p1 y : In y (ids t) -> wsub t own y <> 0 ->
  cvr (fun j => p1 t (own_ j) (rev sl) y) (p1 t own (rev sl) y).
Proof.
  intros Hy NZ. destruct (cv_nonzero _ _ (cv_wsub y Hy) NZ) as (N & HN).
  rewrite (p1_pos own OW TOT y Hy NZ).
  apply cvr_eventually with (fun j => fold_left (fun p x => pull_pos (own_ j) x p) (anc t (lvl t y) y) (scaled t (own_ j) y)) N.
  { intros j Hj. symmetry. apply p1_pos; auto. }
  assert (A : forall x, In x (anc t (lvl t y) y) -> In x (ids t)).
  { intros x Hx. apply (anc_desc n t r W Hn (lvl t y) y x Hy eq_refl) in Hx.
    apply (desc_ids n t r W) in Hx. tauto. }
  assert (S0 : cvr (fun j => scaled t (own_ j) y) (scaled t own y)).
  { split; [|split]; cbn [scaled rb0 rb1 rangle]; try apply cvv_const.
    apply cv_mul; [apply cv_const|apply cv_wsub; auto]. }
  clear N HN. assert (G : forall l q f, (forall x, In x l -> In x (ids t)) -> cvr f q ->
    cvr (fun j => fold_left (fun p x => pull_pos (own_ j) x p) l (f j)) (fold_left (fun p x => pull_pos own x p) l q));
    [|apply G; auto].
  clear A S0. induction l as [|x l IH]; intros q f A C; [exact C|].
  cbn [fold_left].
  apply (IH (pull_pos own x q) (fun j => pull_pos (own_ j) x (f j))); [intros z Hz; apply A; right; auto|].
  assert (Hx : In x (ids t)) by (apply A; left; auto).
  pose proof (orient_ok n t r W Hn NA x Hx) as (O0 & O1 & _).
  unfold pull_pos. apply cvr_rrot; auto; try apply cvv_const; try (intros j; auto).
  apply cv_sub; [|apply cv_const]. apply cv_mul; [apply cv_const|apply cv_wsub; auto].
Qed.

Lemma pt_ok own' k y : (forall y, In y (ids t) -> 0 <= own' y) -> wsub t own' r <= 1 -> In y (ids t) ->
  let q := ps_pt (p2 t sl own' orth0 (seq 0 k)) y in
  rot_ok n q /\ rangle q = rangle (orient t y) * wsub t own' y.
Proof. intros O T Hy. apply (inv_k own' O T k). auto. Qed.

Lemma unit_nth (u : vec) i : unitv u -> Rabs (nth i u 0) <= 1.
Proof.
  intros U. unfold unitv in U. assert (G : nth i u 0 * nth i u 0 <= dot u u).
  { clear U. revert i. induction u as [|a u IH]; intros [|i]; cbn [nth dot]; try lra.
    - pose proof (dot_self_nonneg u). nra.
    - specialize (IH i). pose proof (Rle_0_sqr a). unfold Rsqr in *. lra. }
  rewrite U in G. apply Rabs_le. nra.
Qed.
(** The contribution of every node of a level converges, also where its weight vanishes. *)
Lemma cv_LS k :
  (forall y, In y (ids t) -> (k <= lvl t y)%nat -> wsub t own y <> 0 ->
     cvr (fun j => ps_pt (gj j k) y) (ps_pt (gl k) y)) ->
  cvv (fun j => LS (ps_pt (gj j k)) k) (LS (ps_pt (gl k)) k).
Proof.
  intros H. unfold LS.
  assert (I : forall x, In x (filter (fun x => Nat.eqb (lvl t x) k) sl) -> In x (ids t) /\ lvl t x = k).
  { intros x Hx. apply filter_In in Hx as [Hx E]. apply Nat.eqb_eq in E. split; [apply (sl_in t sl SL)|]; auto. }
  induction (filter (fun x => Nat.eqb (lvl t x) k) sl) as [|x l IH]; [apply cvv_const|].
  cbn [fold_right]. apply cvv_add; [|apply IH; intros z Hz; apply I; right; auto].
  destruct (I x (or_introl eq_refl)) as [Hx Lx].
  destruct (Req_EM_T (wsub t own x) 0) as [Z|NZ].
  - destruct (pt_ok own k x OW TOT Hx) as [_ AE]. cbv beta zeta in AE.
    assert (Cw : Un_cv (fun j => rangle (ps_pt (gj j k) x)) 0).
    { apply cv_ext with (fun j => rangle (orient t x) * wsub t (own_ j) x).
      - intros j. destruct (pt_ok (own_ j) k x (OW_ j) (TOT_ j) Hx) as [_ Aj]. cbv beta zeta in Aj. rewrite Aj. auto.
      - replace 0 with (rangle (orient t x) * wsub t own x) by (rewrite Z; ring).
        apply cv_mul; [apply cv_const|apply cv_wsub; auto]. }
    intros i. rewrite nth_vscale, AE, Z. rewrite Rmult_0_r, Rmult_0_l.
    apply cv_ext with (fun j => rangle (ps_pt (gj j k) x) * nth i (rb1 (ps_pt (gj j k) x)) 0).
    + intros j. symmetry. apply nth_vscale.
    + apply cv_bounded with 1; [exact Cw|]. intros j.
      destruct (pt_ok (own_ j) k x (OW_ j) (TOT_ j) Hx) as [(_ & _ & _ & U & _) _]. cbv beta zeta in U.
      apply unit_nth; auto.
  - destruct (H x Hx) as (_ & B & C); [lia|auto|]. apply cvv_scale; auto.
Qed.

Lemma cv_levels k :
  cvv (fun j => endk (own_ j) k) (endk own k) /\
  (forall y, In y (ids t) -> (k <= lvl t y)%nat -> wsub t own y <> 0 ->
     cvr (fun j => ps_pt (gj j k) y) (ps_pt (gl k) y)).
Proof.
  induction k as [|k [IE IP]].
  - split; [apply (cvv_const (dirn t r))|]. intros y Hy _ NZ. apply cv_p1; auto.
  - pose proof (cv_LS k IP) as CL.
    assert (LLj : lenn n (fun j => LS (ps_pt (gj j k)) k)).
    { intros j. apply LS_length. intros y Hy. destruct (pt_ok (own_ j) k y (OW_ j) (TOT_ j) Hy) as [(_ & L & _) _]. exact L. }
    assert (LL : length (LS (ps_pt (gl k)) k) = n).
    { apply LS_length. intros y Hy. destruct (pt_ok own k y OW TOT Hy) as [(_ & L & _) _]. exact L. }
    assert (LEj : lenn n (fun j => endk (own_ j) k)) by (intros j; apply (endk_props (own_ j) (OW_ j) (TOT_ j) k)).
    assert (LE : length (endk own k) = n) by (apply (endk_props own OW TOT k)).
    split.
    + destruct (step_both own OW TOT k) as [-> _]. cbv zeta.
      apply cvv_eventually with (fun j => turn_by (endk (own_ j) k) (LS (ps_pt (gj j k)) k) (endk (own_ j) k)) 0%nat.
      * intros j _. destruct (step_both (own_ j) (OW_ j) (TOT_ j) k) as [E _]. symmetry. exact E.
      * apply (cvv_turn_by n); auto.
    + intros y Hy Ly NZ. destruct (anc_level y k Hy) as (x & Hx & Lx & D); [lia|].
      destruct D as [->|D]; [lia|].
      assert (NZx : wsub t own x <> 0) by (apply (wt_desc_neq n t r W own OW TOT x y); auto).
      destruct (cv_nonzero _ _ (cv_wsub y Hy) NZ) as (N & HN).
      destruct (step_both own OW TOT k) as [_ S]. cbv zeta in S. rewrite (S x y) by auto. clear S.
      apply cvr_eventually with (fun j => mapr (turn_by (endk (own_ j) k) (LS (ps_pt (gj j k)) k))
          (back (ps_pt (gj j k) x) (ps_pt (gj j k) y))) N.
      { intros j Hj. destruct (step_both (own_ j) (OW_ j) (TOT_ j) k) as [_ S]. symmetry. apply S; auto. }
      assert (CB : cvr (fun j => back (ps_pt (gj j k) x) (ps_pt (gj j k) y)) (back (ps_pt (gl k) x) (ps_pt (gl k) y))).
      { destruct (IP x Hx) as (X0 & X1 & XA); [lia|auto|].
        unfold back. apply cvr_rrot; auto.
        - intros j. destruct (pt_ok (own_ j) k x (OW_ j) (TOT_ j) Hx) as [(L & _) _]. exact L.
        - intros j. destruct (pt_ok (own_ j) k x (OW_ j) (TOT_ j) Hx) as [(_ & L & _) _]. exact L.
        - destruct (pt_ok own k x OW TOT Hx) as [(L & _) _]. exact L.
        - destruct (pt_ok own k x OW TOT Hx) as [(_ & L & _) _]. exact L.
        - apply cv_mul; [apply cv_const|auto].
        - apply IP; auto. lia. }
      destruct CB as (B0 & B1 & BA). unfold mapr. split; [|split]; cbn [rb0 rb1 rangle]; auto;
        apply (cvv_turn_by n); auto.
Qed.
End Two.
End Cont.

(** The weights assigned to the nodes converge with the lists of weights. *)
Lemma cv_own t l ws_ ws own_ own y :
  (forall j, assigned t l (ws_ j) (own_ j)) -> assigned t l ws own -> cvv ws_ ws ->
  Un_cv (fun j => own_ j y) (own y).
Proof.
  intros A_ A C. destruct A as (_ & L & _ & Hc & Hz).
  destruct (in_dec nid_eq_dec y l) as [Hy|Hy].
  - destruct (In_nth l y y Hy) as (i & Hi & Ei).
    assert (G : forall (w : list R), length l = length w -> In (y, nth i w 0) (combine l w)).
    { intros w Lw. rewrite <- Ei at 1. rewrite <- combine_nth by auto. apply nth_In.
      rewrite combine_length. lia. }
    rewrite (Hc y (nth i ws 0)) by auto. apply cv_ext with (fun j => nth i (ws_ j) 0); [|apply C].
    intros j. destruct (A_ j) as (_ & Lj & _ & Hj & _). symmetry. apply Hj. apply G; auto.
  - rewrite Hz by auto. apply cv_ext with (fun _ => 0); [|apply cv_const].
    intros j. destruct (A_ j) as (_ & _ & _ & _ & Hj). symmetry. apply Hj; auto.
Qed.

(** C163: where the weights converge, the weighted means converge, in every entry and to the mean
    for the limit; the number of nodes with weight may change in the limit. *)
Theorem C163_continuous :
  forall n t r sl orth0 st_ st l ws_ ws own_ own,
  rooted_tree n t r -> (2 <= n)%nat -> no_opposite t -> distinguishable t -> level_sorted t sl ->
  (forall v, length (orth0 v) = length v) ->
  (forall j, assigned t l (ws_ j) (own_ j)) -> assigned t l ws own ->
  (forall j x, 0 <= own_ j x) -> (forall x, 0 <= own x) ->
  (forall j, 0 < rsum (ws_ j) <= 1) -> 0 < rsum ws <= 1 ->
  (forall i, Un_cv (fun j => nth i (ws_ j) 0) (nth i ws 0)) ->
  exists mean_ mean,
    (forall j : nat, get_weighted_mean orth0 t (st_ j) sl l (ws_ j) = Ok (mean_ j)) /\
    get_weighted_mean orth0 t st sl l ws = Ok mean /\
    (forall j, length (mean_ j) = n) /\ length mean = n /\
    (forall i, Un_cv (fun j => nth i (mean_ j) 0) (nth i mean 0)).
Proof.
  intros n t r sl orth0 st_ st l ws_ ws own_ own W Hn NO DI SL OL A_ A OW_ OW T_ T C.
  pose proof (no_opposite_dirn n t r W NO) as NA.
  assert (EX : forall p x, edge t p x -> exact_pair (dirn t p) (dirn t x)).
  { intros p x Ep. apply (distinguishable_dirn n t r W DI); auto. }
  assert (TR_ : forall j, wsub t (own_ j) r = rsum (ws_ j)).
  { intros j. apply (total_root n t r l (ws_ j) (own_ j) W Hn NO (A_ j) (ex_intro _ sl SL)). }
  pose proof (total_root n t r l ws own W Hn NO A (ex_intro _ sl SL)) as TR.
  assert (TO_ : forall j, wsub t (own_ j) r <= 1) by (intros j; rewrite TR_; apply T_).
  assert (TO : wsub t own r <= 1) by (rewrite TR; apply T).
  exists (fun j => endk t r sl orth0 (own_ j) (S (maxlvl t sl))), (endk t r sl orth0 own (S (maxlvl t sl))).
  split; [|split; [|split; [|split]]].
  - intros j. destruct (assigned_len _ _ _ _ (A_ j)) as [HL HI].
    apply (mean_endk n t r W Hn NA EX sl SL orth0 OL (own_ j)); auto.
    + apply assigned_own with t; auto.
    + rewrite TR_. specialize (T_ j). lra.
  - destruct (assigned_len _ _ _ _ A) as [HL HI].
    apply (mean_endk n t r W Hn NA EX sl SL orth0 OL own); auto.
    + apply assigned_own with t; auto.
    + rewrite TR. lra.
  - intros j. apply (endk_props n t r W Hn NA EX sl SL orth0 OL (own_ j)); auto.
  - apply (endk_props n t r W Hn NA EX sl SL orth0 OL own); auto.
  - apply (cv_levels n t r W Hn NA EX sl SL orth0 OL own_ own); auto.
    intros y Hy. apply (cv_own t l ws_ ws); auto.
Qed.

(** The weight of the outer node of the tree 0 -> 1 -> 2 vanishes in the limit. *)
Definition exown (a b : R) (x : nid) : R := if nid_eq_dec x n1 then a else if nid_eq_dec x n2 then b else 0.
Lemma extree_assigned_any a b : assigned extree [n1; n2] [a; b] (exown a b).
Proof.
  split; [repeat constructor; simpl; intuition discriminate|]. split; [reflexivity|].
  split; [intros x [<-|[<-|[]]]; simpl; auto|]. split.
  - intros x w [E|[E|[]]]; injection E as <- <-; reflexivity.
  - intros x Hx. simpl in Hx. unfold exown. destruct (nid_eq_dec x n1) as [->|]; [tauto|].
    destruct (nid_eq_dec x n2) as [->|]; tauto.
Qed.
Definition fading (j : nat) : R := / (INR j + 1).
Lemma fading_cv : Un_cv fading 0.
Proof. apply (cv_ext (fun j => pos (RinvN j))); [reflexivity|]. exact RinvN_cv. Qed.
Lemma fading_range j : 0 < fading j <= 1.
Proof.
  unfold fading. pose proof (pos_INR j). split; [apply Rinv_0_lt_compat; lra|].
  rewrite <- Rinv_1 at 2. apply Rinv_le_contravar; lra.
Qed.
Example C163_case : forall orth0 st, (forall v, length (orth0 v) = length v) ->
  exists mean_ mean,
    (forall j, get_weighted_mean orth0 extree st [n0; n1; n2] [n1; n2] [1/4; 1/2 * fading j] = Ok (mean_ j)) /\
    get_weighted_mean orth0 extree st [n0; n1; n2] [n1; n2] [1/4; 0] = Ok mean /\
    (forall i, Un_cv (fun j => nth i (mean_ j) 0) (nth i mean 0)).
Proof.
  intros orth0 st OL. destruct extree_dirs as [NO DI].
  destruct (C163_continuous 3 extree n0 [n0; n1; n2] orth0 (fun _ => st) st [n1; n2]
    (fun j => [1/4; 1/2 * fading j]) [1/4; 0] (fun j => exown (1/4) (1/2 * fading j)) (exown (1/4) 0))
    as (m_ & m & A & B & _ & _ & C); auto.
  - exact extree_rooted.
  - exact extree_sorted.
  - intros j. apply extree_assigned_any.
  - apply extree_assigned_any.
  - intros j x. pose proof (fading_range j). unfold exown.
    destruct (nid_eq_dec x n1); [lra|]. destruct (nid_eq_dec x n2); lra.
  - intros x. unfold exown. destruct (nid_eq_dec x n1); [lra|]. destruct (nid_eq_dec x n2); lra.
  - intros j. pose proof (fading_range j). simpl. lra.
  - simpl; lra.
  - intros [|[|i]]; cbn [nth].
    + apply cv_const.
    + replace 0 with (1 / 2 * 0) by ring. apply cv_mul; [apply cv_const|apply fading_cv].
    + apply (cv_ext (fun _ => 0)); [intros j; destruct i; reflexivity|].
      destruct i; apply cv_const.
  - eauto.
Qed.
Print Assumptions C163_continuous.
