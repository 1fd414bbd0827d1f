(** Geometry of the reduction: contiguity of the partial rotations, common tangent spaces. *)
Require Import Reals List Lra Lia Bool ZArith Permutation.
From Verif Require Import Base Vec Angle RotModel Spec RotProofs SeqProofs TreeModel TreeSpec
  TreeProofs TreeWeights TreeReduce.
Import ListNotations.
Open Scope R_scope.

Section Geom.
Variables (n : nat) (t : tree) (r : nid).
Hypothesis W : rooted_tree n t r.
Hypothesis Hn : (2 <= n)%nat.
Hypothesis NA : forall p x, edge t p x -> dot (dirn t p) (dirn t x) <> -1.
Variable sl : list nid.
Hypothesis SL : level_sorted t sl.
Variable own : nid -> R.
Notation wt := (wsub t own).

Lemma orient_ok x : In x (ids t) -> rot_ok n (orient t x).
Proof. intros H. apply (orient_spec n t r W Hn NA x H). Qed.
Lemma orient_rb0 p x : edge t p x -> rb0 (orient t x) = dirn t p.
Proof.
  intros E. pose proof (edge_ids n t r W p x E) as [_ H].
  destruct (orient_spec n t r W Hn NA x H) as (_ & _ & H0 & _).
  rewrite H0, (par_edge n t r W p x E). auto.
Qed.
Lemma orient_root : rb0 (orient t r) = dirn t r /\ rangle (orient t r) = 0.
Proof.
  pose proof (root_in n t r W) as H.
  destruct (orient_spec n t r W Hn NA r H) as (_ & _ & H0 & H1 & _).
  rewrite (par_root n t r W) in *. split; auto. rewrite H1.
  pose proof (dirn_unit n t r W r H) as U. unfold unitv in U. rewrite U. apply acos_1.
Qed.

(** Rotation that the descendants of [x] undergo in pass 1. *)
Definition pull (x : nid) (p : rotation) : rotation :=
  if Rle_dec (wt x) 0 then p else if Rle_dec 1 (wt x) then p
  else rrot (rb0 (orient t x)) (rb1 (orient t x)) (rangle (orient t x) * wt x - rangle (orient t x)) p.
Lemma p1step_eq pt x y : p1step t own pt x y =
  if mem y (dlist t x) then pull x (upd pt x (scaled t own x) y) else upd pt x (scaled t own x) y.
Proof.
  unfold p1step, pull. destruct (Rle_dec (wt x) 0), (Rle_dec 1 (wt x)); destruct (mem y (dlist t x)); auto.
Qed.
Lemma pull_angle x p : rangle (pull x p) = rangle p.
Proof. unfold pull. destruct (Rle_dec (wt x) 0), (Rle_dec 1 (wt x)); auto. Qed.
Lemma pull_ok x p : In x (ids t) -> rot_ok n p -> rot_ok n (pull x p).
Proof.
  intros Hx Hp. unfold pull. destruct (Rle_dec (wt x) 0), (Rle_dec 1 (wt x)); auto.
  apply rrot_ok; auto. apply orient_ok; auto.
Qed.
Lemma pull_id x p : In x (ids t) -> rot_ok n p ->
  wt x <= 0 \/ 1 <= wt x \/ rangle (orient t x) = 0 -> pull x p = p.
Proof.
  intros Hx Hp H. unfold pull. destruct (Rle_dec (wt x) 0), (Rle_dec 1 (wt x)); auto.
  destruct H as [H|[H|H]]; try lra. rewrite H.
  replace (0 * wt x - 0) with 0 by ring. pose proof (orient_ok x Hx) as (L0 & L1 & _).
  apply (rrot_zero n); auto.
Qed.
Lemma pull_end x p q : In x (ids t) -> rot_ok n p -> rot_ok n q -> rb0 q = end_of p ->
  rb0 (pull x q) = end_of (pull x p).
Proof.
  intros Hx Hp Hq E. unfold pull. destruct (Rle_dec (wt x) 0), (Rle_dec 1 (wt x)); auto.
  pose proof (orient_ok x Hx) as (L0 & L1 & _).
  rewrite (end_of_rrot n) by auto. unfold rrot; simpl. rewrite E. auto.
Qed.

Lemma prefix_lvl l1 x l2 : rev sl = l1 ++ x :: l2 ->
  In x (ids t) /\ ~ In x l1 /\
  (forall y, In y l1 -> In y (ids t) /\ (lvl t x <= lvl t y)%nat) /\
  (forall y, In y (ids t) -> (lvl t x < lvl t y)%nat -> In y l1).
Proof.
  intros E. destruct (rev_done n t r W Hn sl SL l1 x l2 E) as [H1 H2].
  assert (I : forall y, In y (l1 ++ x :: l2) -> In y (ids t)).
  { intros y Hy. rewrite <- E in Hy. apply in_rev in Hy. apply (sl_in t sl SL); auto. }
  split; [apply I, in_or_app; simpl; auto|]. split.
  - intros Hi. pose proof (rev_nodup n t r W sl SL) as ND. rewrite E in ND.
    apply (nodup_split_neq _ _ _ _ ND Hi). auto.
  - split; auto. intros y Hy. split; auto. apply I, in_or_app; auto.
Qed.

(** Properties of every state of pass 1 that need no bounds on the weights. *)
Lemma p1_basic :
  (forall y, In y (ids t) -> rot_ok n (p1 t own (rev sl) y) /\
     rangle (p1 t own (rev sl) y) = rangle (orient t y) * wt y) /\
  (forall y, In y (ids t) ->
     (forall x, desc t x y -> wt x <= 0 \/ 1 <= wt x \/ rangle (orient t x) = 0) ->
     p1 t own (rev sl) y = scaled t own y).
Proof.
  assert (G : (forall y, In y (rev sl) -> rot_ok n (p1 t own (rev sl) y) /\
     rangle (p1 t own (rev sl) y) = rangle (orient t y) * wt y) /\
  (forall y, In y (rev sl) ->
     (forall x, In x (rev sl) -> desc t x y -> wt x <= 0 \/ 1 <= wt x \/ rangle (orient t x) = 0) ->
     p1 t own (rev sl) y = scaled t own y)).
  { unfold p1. apply (fold_left_inv (p1step t own) (fun l pt =>
      (forall y, In y l -> rot_ok n (pt y) /\ rangle (pt y) = rangle (orient t y) * wt y) /\
      (forall y, In y l ->
        (forall x, In x l -> desc t x y -> wt x <= 0 \/ 1 <= wt x \/ rangle (orient t x) = 0) ->
        pt y = scaled t own y))).
    - intros l1 x l2 pt E (Ha & Hb). destruct (prefix_lvl l1 x l2 E) as (Hx & Nx & Hl & _).
      split.
      + intros y Hy. rewrite p1step_eq.
        assert (K : rot_ok n (upd pt x (scaled t own x) y) /\
                    rangle (upd pt x (scaled t own x) y) = rangle (orient t y) * wt y).
        { destruct (nid_eq_dec y x) as [->|N].
          - rewrite upd_same. split; [apply (scaled_ok n t r W Hn NA); auto|reflexivity].
          - rewrite upd_other by auto. apply Ha. apply in_app_or in Hy as [|[->|[]]]; auto. congruence. }
        destruct (mem y (dlist t x)); auto. rewrite pull_angle. split; [apply pull_ok|]; tauto.
      + intros y Hy Hc. rewrite p1step_eq.
        destruct (nid_eq_dec y x) as [->|N].
        { rewrite upd_same. replace (mem x (dlist t x)) with false; auto.
          symmetry. apply mem_false. intros Hi. apply (dlist_in n t r W) in Hi.
          apply (desc_lvl n t r W) in Hi. lia. }
        rewrite upd_other by auto.
        assert (Hy1 : In y l1) by (apply in_app_or in Hy as [|[->|[]]]; auto; congruence).
        assert (E1 : pt y = scaled t own y).
        { apply Hb; auto. intros z Hz. apply Hc. apply in_or_app; auto. }
        rewrite E1. destruct (mem y (dlist t x)) eqn:Em; auto.
        apply pull_id; auto.
        * apply (scaled_ok n t r W Hn NA). apply Hl; auto.
        * apply Hc; [apply in_or_app; simpl; auto|]. apply (dlist_in n t r W), mem_In. auto.
    - split; intros y []. }
  destruct G as [G1 G2].
  assert (R : forall y, In y (ids t) -> In y (rev sl)).
  { intros y Hy. apply -> in_rev. apply (sl_in t sl SL). auto. }
  split; intros; auto.
Qed.

Section Nonneg.
Hypothesis OW : forall y, In y (ids t) -> 0 <= own y.
Hypothesis TOT : wt r <= 1.
Hypothesis EX : forall p x, edge t p x -> wt x <> 0 -> exact_pair (dirn t p) (dirn t x).

Lemma wt_bounds x : In x (ids t) -> 0 <= wt x <= 1.
Proof.
  intros H. pose proof (wsub_nonneg n t r W own x OW H).
  pose proof (wsub_le_total n t r W own x OW H). lra.
Qed.
Lemma wt_desc x y : desc t x y -> wt y <= wt x.
Proof.
  induction 1 as [y E|y z D IH E].
  - apply (wsub_mono n t r W); auto.
  - pose proof (wsub_mono n t r W own y z OW E). lra.
Qed.
Lemma wt_desc_neq x y : desc t x y -> wt y <> 0 -> wt x <> 0.
Proof.
  intros D H. pose proof (wt_desc x y D). pose proof (desc_ids n t r W x y D) as [Hx Hy].
  pose proof (wt_bounds x Hx). pose proof (wt_bounds y Hy). lra.
Qed.

(** After pass 1 the weighted branches are contiguous. *)
Lemma p1_contiguous : forall x c, edge t x c -> wt c <> 0 ->
  rb0 (p1 t own (rev sl) c) = end_of (p1 t own (rev sl) x).
Proof.
  assert (G : (forall y, In y (rev sl) -> rot_ok n (p1 t own (rev sl) y)) /\
    (forall y, In y (rev sl) -> (forall x, In x (rev sl) -> ~ desc t x y) ->
       p1 t own (rev sl) y = scaled t own y) /\
    (forall x c, In x (rev sl) -> edge t x c -> wt c <> 0 ->
       rb0 (p1 t own (rev sl) c) = end_of (p1 t own (rev sl) x))).
  { unfold p1. apply (fold_left_inv (p1step t own) (fun l pt =>
      (forall y, In y l -> rot_ok n (pt y)) /\
      (forall y, In y l -> (forall x, In x l -> ~ desc t x y) -> pt y = scaled t own y) /\
      (forall x c, In x l -> edge t x c -> wt c <> 0 -> rb0 (pt c) = end_of (pt x)))).
    2:{ split; [|split]; [intros y []|intros y []|intros ? ? []]. }
    intros l1 x l2 pt E (Ha & Hb & Hc). destruct (prefix_lvl l1 x l2 E) as (Hx & Nx & Hl & Hd).
    assert (Self : mem x (dlist t x) = false).
    { apply mem_false. intros Hi. apply (dlist_in n t r W) in Hi.
      apply (desc_lvl n t r W) in Hi. lia. }
    assert (In1 : forall y, In y (l1 ++ [x]) -> y <> x -> In y l1).
    { intros y Hy N. apply in_app_or in Hy as [|[->|[]]]; auto. congruence. }
    assert (Ok1 : forall y, In y (l1 ++ [x]) -> rot_ok n (upd pt x (scaled t own x) y)).
    { intros y Hy. destruct (nid_eq_dec y x) as [->|N].
      - rewrite upd_same. apply (scaled_ok n t r W Hn NA); auto.
      - rewrite upd_other by auto. auto. }
    split; [|split].
    - intros y Hy. rewrite p1step_eq. destruct (mem y (dlist t x)); auto. apply pull_ok; auto.
    - intros y Hy Hnd. rewrite p1step_eq.
      assert (Em : mem y (dlist t x) = false).
      { apply mem_false. intros Hi. apply (dlist_in n t r W) in Hi.
        apply (Hnd x); auto. apply in_or_app; simpl; auto. }
      rewrite Em. destruct (nid_eq_dec y x) as [->|N]; [apply upd_same|].
      rewrite upd_other by auto. apply Hb; auto. intros z Hz. apply Hnd. apply in_or_app; auto.
    - intros z c Hz Ez Hw. rewrite !p1step_eq.
      pose proof (edge_ids n t r W z c Ez) as [Hzi Hci].
      pose proof (edge_lvl n t r W z c Ez) as Lz.
      assert (Lxz : (lvl t x <= lvl t z)%nat).
      { apply in_app_or in Hz as [Hz|[->|[]]]; [apply Hl; auto|lia]. }
      assert (Hc1 : In c l1) by (apply Hd; auto; lia).
      assert (Ncx : c <> x) by (intros ->; auto).
      rewrite (upd_other pt x _ c) by auto.
      destruct (nid_eq_dec z x) as [->|Nzx].
      + (* the edge below x *)
        rewrite Self, upd_same.
        assert (Em : mem c (dlist t x) = true).
        { apply mem_In, (dlist_in n t r W). constructor; auto. }
        rewrite Em.
        assert (Hc0 : pt c = scaled t own c).
        { apply Hb; auto. intros q Hq Dq. destruct (desc_parent n t r W q x c Dq Ez) as [->|Dx]; auto.
          apply (desc_lvl n t r W) in Dx. apply Hl in Hq. lia. }
        rewrite Hc0.
        pose proof (wt_bounds x Hx) as Bx.
        assert (Wx : wt x <> 0) by (apply (wt_desc_neq x c); auto; constructor; auto).
        pose proof (orient_ok x Hx) as Ox. pose proof Ox as (L0 & L1 & _).
        assert (Ee : end_of (orient t x) = dirn t x).
        { destruct (orient_spec n t r W Hn NA x Hx) as (_ & _ & _ & _ & He). apply He.
          destruct (par_cases n t r W x Hx) as [->|Ep]; auto.
          rewrite (par_root n t r W). left. reflexivity. }
        unfold pull. destruct (Rle_dec (wt x) 0); [lra|].
        destruct (Rle_dec 1 (wt x)).
        * unfold scaled; simpl. rewrite (orient_rb0 x c Ez), <- Ee.
          unfold end_of; simpl. replace (wt x) with 1 by lra. rewrite Rmult_1_r. reflexivity.
        * unfold scaled, rrot; simpl. rewrite (orient_rb0 x c Ez), <- Ee.
          rewrite (end_of_eq n) by auto.
          rewrite (plane_rot_compose n) by (auto; apply Ox).
          rewrite (plane_rot_first n) by auto. unfold end_of; simpl.
          replace (rangle (orient t x) + (rangle (orient t x) * wt x - rangle (orient t x)))
            with (rangle (orient t x) * wt x) by ring. reflexivity.
      + rewrite (upd_other pt x _ z) by auto. assert (Hz1 : In z l1) by auto.
        specialize (Hc z c Hz1 Ez Hw).
        destruct (mem z (dlist t x)) eqn:Ezm.
        * assert (Em : mem c (dlist t x) = true).
          { apply mem_In, (dlist_in n t r W). apply mem_In, (dlist_in n t r W) in Ezm.
            eapply desc_step; eauto. }
          rewrite Em. apply pull_end; auto.
        * assert (Em : mem c (dlist t x) = false).
          { apply mem_false. intros Hi. apply (dlist_in n t r W) in Hi. apply mem_false in Ezm.
            destruct (desc_parent n t r W x z c Hi Ez) as [->|Dx]; [congruence|].
            apply Ezm, (dlist_in n t r W); auto. }
          rewrite Em. auto. }
  intros x c E Hc. apply G; auto. apply -> in_rev. apply (sl_in t sl SL).
  apply (edge_ids n t r W) in E. tauto.
Qed.

(** *** Pass 2 *)
Variable orth0 : vec -> vec.
Notation P2 := (p2 t sl own orth0).
Notation NL := (nodelevel t own sl).

Lemma nl_in level x : In x (NL level) <-> In x (ids t) /\ lvl t x = level /\ wt x <> 0.
Proof. apply (nodelevel_in t sl SL). Qed.

Lemma anc_at y k : In y (ids t) -> (k <= lvl t y)%nat ->
  exists x, In x (ids t) /\ lvl t x = k /\ (x = y \/ desc t x y).
Proof.
  remember (lvl t y - k)%nat as d. revert y Heqd. induction d; intros y E Hy L.
  - exists y. split; auto. split; auto. lia.
  - destruct (par_cases n t r W y Hy) as [->|Ep].
    + rewrite (root_lvl n t r W) in *. lia.
    + pose proof (edge_lvl n t r W _ _ Ep) as Le. pose proof (edge_ids n t r W _ _ Ep) as [Hp _].
      destruct (IHd (par t y)) as (x & Hx & Lx & Hd); auto; try lia.
      exists x. split; [auto|]. split; [auto|]. right.
      destruct Hd as [->|Hd]; [constructor; auto|eapply desc_step; eauto].
Qed.

Lemma fold_sum_ortho (pt : nid -> rotation) nl e :
  (forall x, In x nl -> dot e (rb1 (pt x)) = 0) -> dot e (level_sum pt nl) = 0.
Proof.
  unfold level_sum. induction nl; simpl; intros H; [apply dot_nil_r|].
  rewrite dot_vadd_r, dot_vscale_r, H by auto. rewrite IHnl by auto. ring.
Qed.
Lemma fold_sum_length (pt : nid -> rotation) nl :
  nl <> [] -> (forall x, In x nl -> length (rb1 (pt x)) = n) -> length (level_sum pt nl) = n.
Proof.
  unfold level_sum. induction nl as [|x nl IH]; intros H0 H; [congruence|]. simpl.
  rewrite length_vadd, length_vscale, H by (simpl; auto).
  destruct nl as [|x' nl]; [simpl; lia|].
  rewrite IH; [lia|discriminate|]. intros; apply H; simpl in *; auto.
Qed.

(** Common tangent space of a level: the new rotation is proper. *)
Lemma level_rot_ok pt nl E :
  nl <> [] -> (forall x, In x nl -> rot_ok n (pt x) /\ rb0 (pt x) = E) ->
  rb0 (level_rot orth0 pt nl) = E /\
  (rangle (level_rot orth0 pt nl) <> 0 -> rot_ok n (level_rot orth0 pt nl)) /\
  (rangle (level_rot orth0 pt nl) = 0 -> rb1 (level_rot orth0 pt nl) = orth0 E).
Proof.
  intros H0 H. assert (R0 : rb0 (pt (hd (NInt 0) nl)) = E).
  { destruct nl; [congruence|]. simpl. apply H. simpl; auto. }
  assert (UE : unitv E /\ length E = n).
  { destruct nl as [|x nl]; [congruence|]. destruct (H x) as [(A & _ & C & _) <-]; simpl; auto. }
  unfold level_rot; cbn [rb0 rb1 rangle]. rewrite R0. split; [auto|]. split.
  - intros NZ. destruct (Req_EM_T (norm (level_sum pt nl)) 0); [contradiction|].
    unfold rot_ok, orthonormal; cbn [rb0 rb1].
    assert (L : length (level_sum pt nl) = n).
    { apply fold_sum_length; auto. intros x Hx. destruct (H x Hx) as [(_ & B & _) _]. auto. }
    destruct UE as [UE LE]. split; [auto|]. split; [autorewrite with vlen; auto|].
    split; [exact UE|]. split; [apply unit_vdiv; auto|].
    rewrite dot_vdiv_r. rewrite fold_sum_ortho; [unfold Rdiv; ring|].
    intros x Hx. destruct (H x Hx) as [(_ & _ & _ & _ & D) <-]. auto.
  - intros Z. destruct (Req_EM_T (norm (level_sum pt nl)) 0); [auto|contradiction].
Qed.

Definition lastrel (k : nat) (g : pstate) (E : vec) : Prop :=
  match ps_last g with
  | None => ps_seq g = [] /\ E = dirn t r
  | Some new =>
      (exists k', (k' < k)%nat /\ flat_map (dlist t) (NL k') <> [] /\
                  forall j, (k' < j < k)%nat -> NL j = []) /\
      ((rangle new <> 0 /\ rot_ok n new /\ exists s', ps_seq g = s' ++ [new]) \/
       (rangle new = 0 /\ rb0 new = E /\ rb1 new = orth0 E))
  end.
Definition live (k : nat) (g : pstate) : Prop := exists E,
  chain (dirn t r) (ps_seq g) E /\ length E = n /\ unitv E /\
  (forall y, In y (ids t) -> lvl t y = k -> wt y <> 0 -> rb0 (ps_pt g y) = E) /\
  lastrel k g E.
Definition dead (k : nat) (g : pstate) : Prop := exists E new,
  chain (dirn t r) (ps_seq g) E /\ length E = n /\ unitv E /\
  (forall y, In y (ids t) -> (k <= lvl t y)%nat -> wt y = 0) /\
  ps_last g = Some new /\ rb0 new = E /\
  (rangle new <> 0 -> rot_ok n new) /\ (rangle new = 0 -> rb1 new = orth0 E).

Definition p2_inv (k : nat) (g : pstate) : Prop :=
  (forall y, In y (ids t) -> rot_ok n (ps_pt g y) /\
      rangle (ps_pt g y) = rangle (orient t y) * wt y) /\
  (forall x c, edge t x c -> (k <= lvl t x)%nat -> wt c <> 0 ->
      rb0 (ps_pt g c) = end_of (ps_pt g x)) /\
  Forall (rot_ok n) (ps_seq g) /\
  (live k g \/ dead k g) /\
  (wt r <> 0 -> (0 < k)%nat -> ps_last g <> None).

Lemma p2_inv_0 : p2_inv 0 (P2 []).
Proof.
  unfold p2_inv, p2; simpl. destruct p1_basic as [B1 B2].
  split; [exact B1|]. split; [intros; apply p1_contiguous; auto|]. split; [constructor|].
  pose proof (root_in n t r W) as Hr.
  split; [left|intros; lia]. exists (dirn t r). simpl. split; [auto|].
  split; [apply (dirn_length n t r W); auto|]. split; [apply (dirn_unit n t r W); auto|].
  split; [|split; auto].
  intros y Hy L _. apply (lvl0_root n t r W Hn) in L; auto. subst y.
  rewrite B2; auto.
  - apply orient_root.
  - intros x D. destruct (desc_ids n t r W x r D) as [Hx _]. exfalso.
    apply (desc_lvl n t r W) in D. rewrite (root_lvl n t r W) in D. lia.
Qed.

(** Two states carried along by the same level stay contiguous. *)
Lemma carry_end new px p q :
  (rangle new <> 0 -> rot_ok n new) -> rot_ok n px -> rot_ok n p -> rot_ok n q ->
  rb0 q = end_of p -> rb0 (fwd new (back px q)) = end_of (fwd new (back px p)).
Proof.
  intros Hnew Hpx Hp Hq E. pose proof Hpx as (L0 & L1 & _).
  assert (B : rb0 (back px q) = end_of (back px p)).
  { unfold back. rewrite (end_of_rrot n) by auto. unfold rrot; simpl. rewrite E. auto. }
  unfold fwd. destruct (Req_EM_T (rangle new) 0); auto.
  specialize (Hnew n0). pose proof Hnew as (M0 & M1 & _).
  rewrite (end_of_rrot n); auto.
  - change (plane_rot (rb0 (back px q)) (rb0 new) (rb1 new) (rangle new) =
      plane_rot (end_of (back px p)) (rb0 new) (rb1 new) (rangle new)). rewrite B. auto.
  - apply rrot_ok; auto.
Qed.
Lemma carry_ok new px p : (rangle new <> 0 -> rot_ok n new) -> rot_ok n px -> rot_ok n p ->
  rot_ok n (fwd new (back px p)).
Proof.
  intros Hnew Hpx Hp. assert (rot_ok n (back px p)) by (apply rrot_ok; auto).
  unfold fwd. destruct (Req_EM_T (rangle new) 0) as [|NZ]; auto.
  apply rrot_ok; [apply (Hnew NZ)|auto].
Qed.
Lemma carry_angle new px p : rangle (fwd new (back px p)) = rangle p.
Proof. unfold fwd. destruct (Req_EM_T (rangle new) 0); auto. Qed.
(** A child of the level ends up at the end of the level's rotation. *)
Lemma carry_start new px q : (rangle new <> 0 -> rot_ok n new) -> rot_ok n px ->
  rb0 px = rb0 new -> rb0 q = end_of px ->
  rb0 (fwd new (back px q)) = if Req_EM_T (rangle new) 0 then rb0 new else end_of new.
Proof.
  intros Hnew Hpx E0 E.
  assert (B : rb0 (back px q) = rb0 new).
  { unfold back, rrot; simpl. rewrite E, (end_of_eq n) by auto.
    replace (-1 * rangle px) with (- rangle px) by ring.
    rewrite (plane_rot_inverse n); auto. apply Hpx. }
  unfold fwd. destruct (Req_EM_T (rangle new) 0); auto.
  unfold rrot; cbn [rb0]. rewrite B. rewrite (end_of_eq n); auto.
Qed.

Lemma p2_inv_fine k g : p2_inv k g -> level_fine n t sl own orth0 g k.
Proof.
  intros (K1 & K2 & K3 & K4 & _) Hne Hnz.
  destruct K4 as [(E & _ & _ & _ & HE & _)|(E & new & _ & _ & _ & Hz & _)].
  - apply (level_rot_ok (ps_pt g) (NL k) E); auto.
    + intros Hc. rewrite Hc in Hne. auto.
    + intros x Hx. apply nl_in in Hx as (Hx & Lx & Wx). split; [apply K1; auto|auto].
  - exfalso. apply Hne. assert (NL k = []) as ->; auto.
    destruct (NL k) as [|x l] eqn:EN; auto.
    assert (Hx : In x (NL k)) by (rewrite EN; simpl; auto).
    apply nl_in in Hx as (Hx & Lx & Wx). exfalso. apply Wx, Hz; auto. lia.
Qed.

Lemma p2_inv_step k g : p2_inv k g -> p2_inv (S k) (p2step orth0 t own sl g k).
Proof.
  intros (K1 & K2 & K3 & K4 & K5). unfold p2step.
  pose proof (nl_in k) as NIN.
  pose proof (moved_some n t r W sl SL own k) as MS. pose proof (moved_none n t r W sl SL own k) as MN.
  destruct (NL k) as [|x0 nl'] eqn:ENL.
  { (* nothing on this level *)
    assert (Z : forall y, In y (ids t) -> (k <= lvl t y)%nat -> wt y = 0).
    { intros y Hy L. destruct (Req_EM_T (wt y) 0) as [|NZ]; auto. exfalso.
      destruct (anc_at y k Hy L) as (x & Hx & Lx & Hd). apply (NIN x). split; [auto|].
      split; [auto|]. destruct Hd as [->|Hd]; auto. apply (wt_desc_neq x y); auto. }
    split; [auto|]. split; [intros; apply K2; auto; lia|]. split; [auto|]. split.
    - destruct K4 as [(E & C1 & C2 & C3 & C4 & C5)|(E & new & C1 & C2 & C3 & C4 & C5)].
      + left. exists E. split; [auto|]. split; [auto|]. split; [auto|]. split.
        * intros y Hy L NZ. exfalso. apply NZ, Z; auto. lia.
        * unfold lastrel in *. destruct (ps_last g) as [new|]; auto.
          destruct C5 as ((k' & H1 & H2 & H3) & C5). split; auto. exists k'. split; [lia|].
          split; [auto|]. intros j Hj. destruct (Nat.eq_dec j k) as [->|]; [auto|apply H3; lia].
      + right. exists E, new. split; [auto|]. split; [auto|]. split; [auto|]. split; auto.
        intros y Hy L. apply C4; auto. lia.
    - intros NZ _. destruct (Nat.eq_dec k 0) as [->|]; [|apply K5; auto; lia].
      exfalso. apply NZ, Z; [apply (root_in n t r W)|lia]. }
  rewrite <- ENL in *. set (nl := NL k) in *.
  assert (Hnl : nl <> []) by (rewrite ENL; discriminate).
  destruct K4 as [(E & C1 & C2 & C3 & C4 & C5)|(E & new & _ & _ & _ & C4 & _)].
  2:{ exfalso. assert (Hx : In x0 nl) by (rewrite ENL; simpl; auto).
      apply NIN in Hx as (Hx & Lx & Wx). apply Wx, C4; auto. lia. }
  assert (HR : forall x, In x nl -> rot_ok n (ps_pt g x) /\ rb0 (ps_pt g x) = E).
  { intros x Hx. apply NIN in Hx as (Hx & Lx & Wx). split; [apply K1; auto|auto]. }
  destruct (level_rot_ok (ps_pt g) nl E Hnl HR) as (N0 & N1 & N2).
  set (new := level_rot orth0 (ps_pt g) nl) in *.
  destruct (flat_map (dlist t) nl) as [|d0 dl] eqn:EF.
  { (* no descendants: the summing ends here *)
    split; [exact K1|]. split; [intros; apply K2; auto; lia|]. split; [exact K3|]. split.
    - right. exists E, new. split; [auto|]. split; [auto|]. split; [auto|]. split; [|auto 6].
      intros y Hy L. destruct (Req_EM_T (wt y) 0) as [|NZ]; auto. exfalso.
      destruct (anc_at y k Hy) as (x & Hx & Lx & Hd); [lia|].
      destruct Hd as [->|Hd]; [lia|].
      assert (In y (flat_map (dlist t) nl)).
      { apply in_flat_map. exists x. split; [|apply (dlist_in n t r W); auto].
        apply NIN. split; [auto|]. split; [auto|]. apply (wt_desc_neq x y); auto. }
      rewrite EF in H. auto.
    - intros _ _. simpl. discriminate. }
  rewrite <- EF in *.
  assert (Mv : forall y, In y (ids t) -> (S k <= lvl t y)%nat -> wt y <> 0 ->
             exists x, moved t nl y = Some x /\ In x nl /\ desc t x y).
  { intros y Hy L NZ. destruct (anc_at y k Hy) as (x & Hx & Lx & Hd); [lia|].
    destruct Hd as [->|Hd]; [lia|]. exists x.
    assert (In x nl).
    { apply NIN. split; [auto|]. split; [auto|]. apply (wt_desc_neq x y); auto. }
    split; [apply MS; auto|auto]. }
  split; [|split; [|split; [|split]]]; cbn [ps_pt ps_seq ps_last].
  - intros y Hy. destruct (moved t nl y) as [x|] eqn:Em; [|apply K1; auto].
    apply MS in Em as [Hx Hd]. rewrite carry_angle. split; [|apply K1; auto].
    apply carry_ok; auto; [apply HR; auto|apply K1; auto].
  - intros x c Exc L NZ. pose proof (edge_ids n t r W x c Exc) as [Hx Hc].
    pose proof (edge_lvl n t r W x c Exc) as Le.
    assert (NZx : wt x <> 0) by (apply (wt_desc_neq x c); auto; constructor; auto).
    destruct (Mv x Hx L NZx) as (z & Ez & Hz & Dz). rewrite Ez.
    assert (Ec : moved t nl c = Some z).
    { apply MS. split; auto. eapply desc_step; eauto. }
    rewrite Ec. apply carry_end; auto; try (apply K1; auto; fail).
    + apply HR; auto.
    + apply K2; auto; lia.
  - destruct (Req_EM_T (rangle new) 0); auto. apply Forall_app. split; auto.
  - left. exists (if Req_EM_T (rangle new) 0 then E else end_of new).
    assert (LR : exists k', (k' < S k)%nat /\ flat_map (dlist t) (NL k') <> [] /\
                  forall j, (k' < j < S k)%nat -> NL j = []).
    { exists k. split; [lia|]. split; [fold nl; rewrite EF; discriminate|intros; lia]. }
    split; [|split; [|split; [|split]]].
    + cbn [ps_seq]. destruct (Req_EM_T (rangle new) 0); auto.
      eapply chain_app; eauto. simpl. split; auto.
    + destruct (Req_EM_T (rangle new) 0); auto. apply (end_of_length n); auto.
    + destruct (Req_EM_T (rangle new) 0); auto. apply (end_of_unit n); auto.
    + cbn [ps_pt]. intros y Hy L NZ.
      destruct (Mv y Hy) as (z & Ez & Hz & Dz); auto; [lia|]. rewrite Ez.
      assert (Ezy : edge t z y).
      { destruct (par_cases n t r W y Hy) as [->|Ep]; [rewrite (root_lvl n t r W) in L; lia|].
        destruct (desc_parent n t r W z (par t y) y Dz Ep) as [->|D2]; auto.
        apply (desc_lvl n t r W) in D2. apply (edge_lvl n t r W) in Ep.
        apply NIN in Hz as (_ & Lz & _). lia. }
      rewrite carry_start; auto.
      * rewrite N0. reflexivity.
      * apply HR; auto.
      * rewrite N0. apply HR; auto.
      * apply K2; auto. apply NIN in Hz as (_ & Lz & _). lia.
    + unfold lastrel; cbn [ps_last ps_seq]. split; auto.
      destruct (Req_EM_T (rangle new) 0) as [Z|NZ]; [right; auto|left]. eauto.
  - intros _ _. discriminate.
Qed.

Lemma p2_inv_all k : p2_inv k (P2 (seq 0 k)).
Proof.
  induction k; [apply p2_inv_0|].
  rewrite seq_S. unfold p2. rewrite fold_left_snoc. apply p2_inv_step. exact IHk.
Qed.

(** The outcome of the reduction. *)
Lemma reduce_geometry st0 l ws :
  length l = length ws -> (forall x, In x l -> In x (ids t)) ->
  (forall y, own y = own_of (combine l ws) y) ->
  wt r <> 0 ->
  exists s new E,
    reduce_weighted_to_sequence orth0 t st0 sl l ws = Ok (s ++ [new]) /\
    Forall (rot_ok n) s /\ chain (dirn t r) s E /\ unitv E /\ length E = n /\
    (rangle new <> 0 -> rot_ok n new) /\
    ((rb0 new = E /\ (rangle new = 0 -> rb1 new = orth0 E)) \/
     (rangle new <> 0 /\ (exists s', s = s' ++ [new]) /\
      exists x c k', edge t x c /\ wt x <> 0 /\ lvl t x = k' /\
        forall y, In y (ids t) -> (k' < lvl t y)%nat -> wt y = 0)).
Proof.
  intros Hlen Hin Hown NZ.
  destruct (reduce_pure n t r W Hn NA sl SL own orth0 st0 l ws Hlen Hin Hown) as [E A].
  { intros k Hk _. apply p2_inv_fine. apply p2_inv_all. }
  set (g := P2 (seq 0 (S (maxlvl t sl)))) in *.
  pose proof (p2_inv_all (S (maxlvl t sl))) as (K1 & K2 & K3 & K4 & K5). fold g in K1, K2, K3, K4, K5.
  assert (HL : ps_last g <> None) by (apply K5; auto; lia).
  destruct (ps_last g) as [new|] eqn:EL; [|congruence].
  destruct K4 as [(E' & C1 & C2 & C3 & C4 & C5)|(E' & new' & C1 & C2 & C3 & C4 & C5 & C6 & C7 & C8)].
  - exists (ps_seq g), new, E'. split; [exact E|]. split; [auto|]. split; [auto|]. split; [auto|].
    split; [auto|]. unfold lastrel in C5. rewrite EL in C5.
    destruct C5 as ((k' & Hk & Hf & Hj) & C5).
    destruct C5 as [(Z & Ok1 & s' & Es)|(Z & E0 & E1)].
    + split; [auto|]. right. split; [auto|]. split; [eauto|].
      destruct (flat_map (dlist t) (NL k')) as [|d dl] eqn:EF; [congruence|].
      assert (Hd : In d (flat_map (dlist t) (NL k'))) by (rewrite EF; simpl; auto).
      apply in_flat_map in Hd as (x & Hx & Hd). apply (dlist_in n t r W) in Hd.
      destruct (desc_inv_child t x d Hd) as (c & Hc & _).
      apply nl_in in Hx as (Hx & Lx & Wx). exists x, c, k'. split; [auto|]. split; [auto|].
      split; [auto|]. intros y Hy Ly. destruct (Req_EM_T (wt y) 0) as [|NZy]; auto. exfalso.
      destruct (anc_at y (S k') Hy) as (z & Hz & Lz & Hdz); [lia|].
      assert (Hzn : In z (NL (S k'))).
      { apply nl_in. split; [auto|]. split; [auto|]. destruct Hdz as [->|Hdz]; auto.
        apply (wt_desc_neq z y); auto. }
      rewrite Hj in Hzn; [destruct Hzn|]. split; [lia|].
      assert (Lm : (lvl t z <= maxlvl t sl)%nat).
      { unfold maxlvl. apply (sl_in t sl SL) in Hz. clear - Hz. unfold max_level.
        induction sl as [|a l IH]; simpl in *; [destruct Hz|].
        destruct Hz as [->|Hz]; [lia|]. specialize (IH Hz). lia. }
      lia.
    + split; [intros; contradiction|]. left. auto.
  - rewrite EL in C5. injection C5 as <-.
    exists (ps_seq g), new, E'. split; [exact E|]. split; [auto|]. split; [auto|]. split; [auto|].
    split; [auto|]. split; [auto|]. left. auto.
Qed.
End Nonneg.
End Geom.
