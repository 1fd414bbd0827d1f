(** The reduction of a well-formed tree computes a pure function of the tree and the weights. *)
Require Import Reals List Lra Lia Bool ZArith Permutation.
From Verif Require Import Base Vec Angle RotModel Spec RotProofs SeqProofs TreeModel TreeSpec
  TreeProofs TreeWeights.
Import ListNotations.
Open Scope R_scope.

(** ** Folds *)
Lemma foldM_inv {A S} (f : S -> A -> res S) (I : list A -> S -> Prop) l s :
  (forall l1 a l2 s, l = l1 ++ a :: l2 -> I l1 s -> exists s', f s a = Ok s' /\ I (l1 ++ [a]) s') ->
  I [] s -> exists s', foldM f s l = Ok s' /\ I l s'.
Proof.
  intros Hstep.
  assert (G : forall l2 l1 s, l = l1 ++ l2 -> I l1 s -> exists s', foldM f s l2 = Ok s' /\ I l s').
  { induction l2 as [|a l2 IH]; intros l1 s0 E H.
    - rewrite app_nil_r in E. subst. simpl. eauto.
    - destruct (Hstep l1 a l2 s0 E H) as (s1 & E1 & H1). simpl. rewrite E1. simpl.
      apply (IH (l1 ++ [a]) s1); auto. rewrite <- app_assoc. auto. }
  apply (G l []). reflexivity.
Qed.
Lemma fold_left_inv {A S} (f : S -> A -> S) (I : list A -> S -> Prop) l s :
  (forall l1 a l2 s, l = l1 ++ a :: l2 -> I l1 s -> I (l1 ++ [a]) (f s a)) ->
  I [] s -> I l (fold_left f l s).
Proof.
  intros Hstep.
  assert (G : forall l2 l1 s, l = l1 ++ l2 -> I l1 s -> I l (fold_left f l2 s)).
  { induction l2 as [|a l2 IH]; intros l1 s0 E H.
    - rewrite app_nil_r in E. subst. auto.
    - simpl. apply (IH (l1 ++ [a])); [rewrite <- app_assoc; auto|]. eapply Hstep; eauto. }
  apply (G l []). reflexivity.
Qed.
Lemma fold_left_snoc {A S} (f : S -> A -> S) l a s :
  fold_left f (l ++ [a]) s = f (fold_left f l s) a.
Proof. rewrite fold_left_app. reflexivity. Qed.

(** ** Store *)
Lemma upd_same {A} (f : nid -> A) x v : upd f x v x = v.
Proof. unfold upd. destruct (nid_eq_dec x x); congruence. Qed.
Lemma upd_other {A} (f : nid -> A) x v y : y <> x -> upd f x v y = f y.
Proof. unfold upd. destruct (nid_eq_dec y x); congruence. Qed.
Lemma set_part_w st x p y : s_w (set_part st x p y) = s_w (st y).
Proof. unfold set_part, upd. destruct (nid_eq_dec y x); subst; auto. Qed.
Lemma set_part_orient st x p y : s_orient (set_part st x p y) = s_orient (st y).
Proof. unfold set_part, upd. destruct (nid_eq_dec y x); subst; auto. Qed.
Lemma set_part_same st x p : s_part (set_part st x p x) = Some p.
Proof. unfold set_part. rewrite upd_same. reflexivity. Qed.
Lemma set_part_other st x p y : y <> x -> s_part (set_part st x p y) = s_part (st y).
Proof. intros. unfold set_part. rewrite upd_other; auto. Qed.
Lemma set_w_part st x w y : s_part (set_w st x w y) = s_part (st y).
Proof. unfold set_w, upd. destruct (nid_eq_dec y x); subst; auto. Qed.
Lemma set_w_orient st x w y : s_orient (set_w st x w y) = s_orient (st y).
Proof. unfold set_w, upd. destruct (nid_eq_dec y x); subst; auto. Qed.
Lemma set_w_same st x w : s_w (set_w st x w x) = w.
Proof. unfold set_w. rewrite upd_same. reflexivity. Qed.
Lemma set_w_other st x w y : y <> x -> s_w (set_w st x w y) = s_w (st y).
Proof. intros. unfold set_w. rewrite upd_other; auto. Qed.

Lemma nodup_split_neq {A} (l1 l2 : list A) a b : NoDup (l1 ++ a :: l2) -> In b l1 -> b <> a.
Proof.
  intros H Hb ->. apply NoDup_remove_2 in H. apply H. apply in_or_app; auto.
Qed.

(** The weights given by the caller: the last entry of a node wins. *)
Definition own_of (l : list (nid * R)) (y : nid) : R :=
  fold_left (fun acc '(x, w) => if nid_eq_dec y x then w else acc) l 0.

Lemma reset_w t st y : In y (ids t) -> s_w (reset_node_weights t st y) = 0.
Proof.
  intros Hy. unfold reset_node_weights.
  assert (H : forall l s, In y l \/ s_w (s y) = 0 ->
            s_w (fold_left (fun st x => set_w st x 0) l s y) = 0).
  { induction l; simpl; intros s H; [tauto|]. apply IHl.
    destruct (nid_eq_dec y a).
    - subst. right. apply set_w_same.
    - destruct H as [[H|H]|H]; [congruence|auto|]. right. rewrite set_w_other; auto. }
  apply H. auto.
Qed.
Lemma assign_ok t st l :
  (forall y, In y (ids t) -> s_w (st y) = 0) ->
  (forall x w, In (x, w) l -> In x (ids t)) ->
  exists st', assign_weights t st l = Ok st' /\ forall y, In y (ids t) -> s_w (st' y) = own_of l y.
Proof.
  intros H0 Hin. unfold assign_weights.
  apply (foldM_inv _ (fun l1 st' => forall y, In y (ids t) -> s_w (st' y) = own_of l1 y)).
  - intros l1 [x w] l2 s E IH. assert (Hx : In x (ids t)).
    { apply (Hin x w). rewrite E. apply in_or_app. simpl. auto. }
    unfold has_node. apply mem_In in Hx. rewrite Hx.
    eexists; split; [reflexivity|]. intros y Hy. unfold own_of. rewrite fold_left_snoc.
    destruct (nid_eq_dec y x) as [->|N]; [apply set_w_same|].
    rewrite set_w_other by auto. apply IH; auto.
  - intros y Hy. rewrite H0; auto.
Qed.

Definition dirn (t : tree) (x : nid) : vec :=
  match get_attrs t x with Ok a => a_dir a | Err _ => [] end.
Definition par (t : tree) (x : nid) : nid :=
  match predecessors t x with p :: _ => p | [] => x end.
Definition dummy : rotation := mkRot [] [] 0.
Definition orient (t : tree) (x : nid) : rotation :=
  match from_directions (dirn t (par t x)) (dirn t x) with Ok o => o | Err _ => dummy end.

(** Pass 1 as a pure function (lines 703-756 without the store). *)
Definition scaled (t : tree) (own : nid -> R) (x : nid) : rotation :=
  mkRot (rb0 (orient t x)) (rb1 (orient t x)) (rangle (orient t x) * wsub t own x).
Definition p1step (t : tree) (own : nid -> R) (pt : nid -> rotation) (x : nid) : nid -> rotation :=
  let o := orient t x in
  let w := wsub t own x in
  let pt := upd pt x (scaled t own x) in
  if Rle_dec w 0 then pt
  else if Rle_dec 1 w then pt
  else fun y => if mem y (dlist t x)
                then rrot (rb0 o) (rb1 o) (rangle o * w - rangle o) (pt y) else pt y.
Definition p1 (t : tree) (own : nid -> R) (l : list nid) : nid -> rotation :=
  fold_left (p1step t own) l (fun _ => dummy).

(** Pass 2 as a pure function (lines 773-862). *)
Record pstate := mkP { ps_pt : nid -> rotation; ps_seq : sequence; ps_last : option rotation }.
Definition nodelevel (t : tree) (own : nid -> R) (sl : list nid) (level : nat) : list nid :=
  filter (fun x => Nat.eqb (lvl t x) level && negb (Reqb (wsub t own x) 0)) sl.
Definition level_sum (pt : nid -> rotation) (nl : list nid) : vec :=
  fold_right (fun p acc => vadd (vscale (rangle p) (rb1 p)) acc) [] (map pt nl).
Definition level_rot (orth0 : vec -> vec) (pt : nid -> rotation) (nl : list nid) : rotation :=
  let shared := rb0 (pt (hd (NInt 0) nl)) in
  let s := level_sum pt nl in
  mkRot shared (if Req_EM_T (norm s) 0 then orth0 shared else vdiv s (norm s)) (norm s).
Definition back (px p : rotation) : rotation := rrot (rb0 px) (rb1 px) ((-1) * rangle px) p.
Definition fwd (new p : rotation) : rotation :=
  if Req_EM_T (rangle new) 0 then p else rrot (rb0 new) (rb1 new) (rangle new) p.
Definition moved (t : tree) (nl : list nid) (y : nid) : option nid :=
  find (fun x => mem y (dlist t x)) nl.
Definition p2step (orth0 : vec -> vec) (t : tree) (own : nid -> R) (sl : list nid) (g : pstate) (level : nat) : pstate :=
  let nl := nodelevel t own sl level in
  match nl with
  | [] => g
  | _ =>
      let new := level_rot orth0 (ps_pt g) nl in
      match flat_map (dlist t) nl with
      | [] => mkP (ps_pt g) (ps_seq g) (Some new)
      | _ =>
          mkP (fun y => match moved t nl y with
                        | Some x => fwd new (back (ps_pt g x) (ps_pt g y))
                        | None => ps_pt g y
                        end)
              (if Req_EM_T (rangle new) 0 then ps_seq g else ps_seq g ++ [new])
              (Some new)
      end
  end.

Section Reduce.
Variables (n : nat) (t : tree) (r : nid).
Hypothesis W : rooted_tree n t r.
Hypothesis Hn : (2 <= n)%nat.
Hypothesis NA : forall p x, edge t p x -> dot (dirn t p) (dirn t x) <> -1.
Variable sl : list nid.
Hypothesis SL : level_sorted t sl.

Lemma get_dirn x : In x (ids t) ->
  exists a, get_attrs t x = Ok a /\ a_dir a = dirn t x /\ a_level a = lvl t x /\
    length (dirn t x) = n /\ unitv (dirn t x) /\ node t x a.
Proof.
  intros H. destruct (wf_attrs n t r W x H) as (a & E & Na & L & U & _).
  exists a. unfold dirn, lvl. rewrite E. auto 10.
Qed.
Lemma dirn_unit x : In x (ids t) -> unitv (dirn t x).
Proof. intros H. destruct (get_dirn x H) as (a & ?); tauto. Qed.
Lemma dirn_length x : In x (ids t) -> length (dirn t x) = n.
Proof. intros H. destruct (get_dirn x H) as (a & ?); tauto. Qed.

Lemma par_edge p x : edge t p x -> par t x = p.
Proof.
  intros E. unfold par. pose proof (proj2 (in_predecessors t x p) E) as Hp.
  destruct (predecessors t x) as [|q l] eqn:Eq; [destruct Hp|].
  apply (rt_one_parent _ _ _ W q p x); auto.
  apply in_predecessors. rewrite Eq. simpl; auto.
Qed.
Lemma par_root : par t r = r.
Proof.
  unfold par. destruct (predecessors t r) as [|q l] eqn:Eq; auto.
  exfalso. apply (no_edge_root n t r W q). apply in_predecessors. rewrite Eq. simpl; auto.
Qed.
Lemma preds x : predecessors t x = [] \/ exists p, predecessors t x = [p] /\ edge t p x.
Proof.
  assert (ND : NoDup (predecessors t x)).
  { unfold predecessors.
    pose proof (rt_edges_unique _ _ _ W) as ND. revert ND.
    induction (t_edges t) as [|[p y] l IH]; simpl; intros ND; [constructor|].
    inversion ND; subst. destruct (nid_eqb y x) eqn:E; simpl; auto.
    apply nid_eqb_true in E. subst. constructor; auto.
    intros Hi. apply in_map_iff in Hi as ([p' y'] & Hp & Hi). simpl in Hp. subst.
    apply filter_In in Hi as [Hi Hy]. simpl in Hy. apply nid_eqb_true in Hy. subst. auto. }
  assert (H : forall p, In p (predecessors t x) -> edge t p x) by (intros; apply in_predecessors; auto).
  destruct (predecessors t x) as [|p [|q l]]; auto.
  - right. exists p. split; auto. apply H. simpl; auto.
  - exfalso. inversion ND; subst. apply H2. left. symmetry.
    apply (rt_one_parent _ _ _ W p q x); apply H; simpl; auto.
Qed.
Lemma par_cases x : In x (ids t) -> x = r \/ edge t (par t x) x.
Proof.
  intros H. destruct (nid_eq_dec x r); auto. right.
  destruct (wf_attrs n t r W x H) as (a & _ & Na & _).
  destruct (rt_parent _ _ _ W x a Na n0) as (p & Hp). rewrite (par_edge p x); auto.
Qed.
Lemma par_in x : In x (ids t) -> In (par t x) (ids t).
Proof.
  intros H. destruct (par_cases x H) as [->|E]; [rewrite par_root; auto|].
  apply (edge_ids n t r W) in E. tauto.
Qed.
Lemma par_na x : In x (ids t) -> dot (dirn t (par t x)) (dirn t x) <> -1.
Proof.
  intros H. destruct (par_cases x H) as [->|E]; auto.
  rewrite par_root. pose proof (dirn_unit r H) as U. unfold unitv in U. rewrite U. lra.
Qed.
Lemma orient_spec x : In x (ids t) ->
  from_directions (dirn t (par t x)) (dirn t x) = Ok (orient t x) /\ rot_ok n (orient t x) /\
  rb0 (orient t x) = dirn t (par t x) /\
  rangle (orient t x) = acos (dot (dirn t (par t x)) (dirn t x)) /\
  (exact_pair (dirn t (par t x)) (dirn t x) -> end_of (orient t x) = dirn t x).
Proof.
  intros H. pose proof (par_in x H) as Hp.
  pose proof (dirn_unit x H) as U. pose proof (dirn_unit _ Hp) as Up.
  pose proof (dirn_length x H) as L. pose proof (dirn_length _ Hp) as Lp.
  pose proof (par_na x H) as Na.
  destruct (from_directions_spec n (dirn t (par t x)) (dirn t x)) as (o & E & Ho & E0 & Ea & _);
    auto using unit_norm_neq.
  { rewrite !dirof_of_unit by auto. auto. }
  unfold orient. rewrite E. rewrite !dirof_of_unit in E0 by auto. rewrite !dirof_of_unit in Ea by auto.
  split; [auto|]. split; [auto|]. split; [auto|]. split; [auto|].
  intros Ex. rewrite <- (end_of_second n) by auto.
  rewrite (exact_second n (dirn t (par t x)) (dirn t x) o); auto using unit_norm_neq;
    rewrite ?dirof_of_unit by auto; auto.
Qed.

Lemma sl_in x : In x sl <-> In x (ids t).
Proof. destruct SL as [P _]. split; apply Permutation_in; auto using Permutation_sym. Qed.
Lemma sl_nodup : NoDup sl.
Proof. destruct SL as [P _]. eapply Permutation_NoDup; [apply Permutation_sym; eauto|]. apply (rt_unique _ _ _ W). Qed.
Lemma sl_lvl x y : before sl x y -> (lvl t x <= lvl t y)%nat.
Proof.
  intros B. destruct SL as [P S].
  assert (In x sl /\ In y sl) as [Hx Hy].
  { destruct B as (l1 & l2 & l3 & EB). rewrite EB. split.
    - apply in_or_app. right. simpl. auto.
    - apply in_or_app. right. right. apply in_or_app. right. simpl. auto. }
  apply sl_in in Hx, Hy.
  destruct (get_dirn x Hx) as (a & _ & _ & <- & _ & _ & Na).
  destruct (get_dirn y Hy) as (b & _ & _ & <- & _ & _ & Nb). eauto.
Qed.
Lemma lvl0_root x : In x (ids t) -> lvl t x = 0%nat -> x = r.
Proof.
  intros H L. destruct (par_cases x H) as [->|E]; auto. apply (edge_lvl n t r W) in E. lia.
Qed.
Lemma sl_head : exists rest, sl = r :: rest.
Proof.
  pose proof (proj2 (sl_in r) (root_in n t r W)) as Hr.
  assert (C : sl = [] \/ exists x0 rest, sl = x0 :: rest).
  { clear. destruct sl; eauto. }
  destruct C as [E|(x0 & rest & E)]; [rewrite E in Hr; destruct Hr|].
  exists rest. rewrite E. f_equal.
  pose proof Hr as Hr'. rewrite E in Hr'. destruct Hr' as [->|Hr']; auto.
  apply lvl0_root.
  - apply sl_in. rewrite E. simpl; auto.
  - assert (B : before sl x0 r).
    { apply in_split in Hr' as (l2 & l3 & E2). exists [], l2, l3. rewrite E, E2. reflexivity. }
    apply sl_lvl in B. rewrite (root_lvl n t r W) in B. lia.
Qed.
(** In the reversed list descendants come first. *)
Lemma rev_done l1 x l2 : rev sl = l1 ++ x :: l2 ->
  (forall y, In y l1 -> (lvl t x <= lvl t y)%nat) /\
  (forall y, In y (ids t) -> (lvl t x < lvl t y)%nat -> In y l1).
Proof.
  intros E. assert (E' : sl = rev l2 ++ x :: rev l1).
  { rewrite <- (rev_involutive sl), E, rev_app_distr. simpl. rewrite <- app_assoc. reflexivity. }
  split.
  - intros y Hy. apply sl_lvl. apply in_rev in Hy. apply in_split in Hy as (a & b & Hy).
    exists (rev l2), a, b. rewrite E', Hy. reflexivity.
  - intros y Hy L. apply sl_in in Hy. rewrite E' in Hy. apply in_app_or in Hy as [Hy|[->|Hy]].
    + apply in_split in Hy as (a & b & Hy). exfalso.
      assert (B : before sl y x).
      { exists a, b, (rev l1). rewrite E', Hy, <- app_assoc. reflexivity. }
      apply sl_lvl in B. lia.
    + lia.
    + apply in_rev. auto.
Qed.
Lemma rev_nodup : NoDup (rev sl).
Proof. apply NoDup_rev, sl_nodup. Qed.

(** *** Orientations *)
Lemma orient_children x st : In x (ids t) -> s_pdir (st x) = Some (dirn t x) ->
  exists st', foldM (orient_child t x) st (successors t x) = Ok st' /\
    forall y, st' y = if mem y (successors t x)
                      then mkSlot (s_w (st y)) (Some (orient t y)) (Some (dirn t y)) (s_part (st y))
                      else st y.
Proof.
  intros Hx Hd.
  apply (foldM_inv _ (fun l1 st' => forall y, st' y =
     if mem y l1 then mkSlot (s_w (st y)) (Some (orient t y)) (Some (dirn t y)) (s_part (st y))
     else st y)).
  - intros l1 c l2 s E IH.
    assert (Ec : edge t x c) by (apply in_successors; rewrite E; apply in_or_app; simpl; auto).
    pose proof (edge_ids n t r W x c Ec) as [_ Hc].
    assert (ND : NoDup (successors t x)) by (apply NoDup_successors, (rt_edges_unique _ _ _ W)).
    assert (Hx1 : mem x l1 = false).
    { apply mem_false. intros Hi. assert (E2 : edge t x x).
      { apply in_successors. rewrite E. apply in_or_app; auto. }
      apply (edge_lvl n t r W) in E2. lia. }
    assert (Hc1 : mem c l1 = false).
    { apply mem_false. intros Hi. rewrite E in ND. apply NoDup_remove_2 in ND.
      apply ND. apply in_or_app; auto. }
    unfold orient_child. unfold get_pdir. rewrite IH, Hx1, Hd. simpl.
    destruct (get_dirn c Hc) as (a & Ea & Da & _). rewrite Ea. simpl. rewrite Da.
    destruct (orient_spec c Hc) as (Eo & _). rewrite (par_edge x c Ec) in Eo. rewrite Eo. simpl.
    eexists; split; [reflexivity|]. intros y. unfold set_orient_pdir.
    destruct (nid_eq_dec y c) as [->|N].
    + rewrite upd_same. rewrite IH, Hc1.
      replace (mem c (l1 ++ [c])) with true; auto. symmetry. apply mem_In. apply in_or_app; simpl; auto.
    + rewrite upd_other by auto. rewrite IH.
      replace (mem y (l1 ++ [c])) with (mem y l1); auto.
      unfold mem. rewrite existsb_app. simpl. apply nid_eqb_false in N. rewrite N.
      rewrite !orb_false_r. reflexivity.
  - intros y. reflexivity.
Qed.

Lemma orientations_ok st0 :
  exists st', evaluate_all_orientations t st0 sl = Ok st' /\
    (forall y, s_w (st' y) = s_w (st0 y)) /\
    (forall y, In y (ids t) -> s_orient (st' y) = Some (orient t y)).
Proof.
  destruct sl_head as (rest & E). unfold evaluate_all_orientations. rewrite E.
  pose proof (root_in n t r W) as Hr.
  destruct (get_dirn r Hr) as (a & Ea & Da & _). rewrite Ea. simpl. rewrite Da.
  destruct (orient_spec r Hr) as (Eo & _). rewrite par_root in Eo. rewrite Eo. simpl.
  match goal with |- exists st', foldM ?f ?s ?l = _ /\ _ =>
    destruct (foldM_inv f (fun l1 st' => (forall y, s_w (st' y) = s_w (st0 y)) /\
       forall y, In y (ids t) -> y = r \/ In (par t y) l1 ->
         s_orient (st' y) = Some (orient t y) /\ s_pdir (st' y) = Some (dirn t y)) l s)
      as (st' & F & Hw & Ho) end.
  - intros l1 x l2 s El (Hw & Ho).
    assert (Hx : In x (ids t)) by (rewrite El; apply in_or_app; simpl; auto).
    assert (Hpx : x = r \/ In (par t x) l1).
    { destruct (par_cases x Hx) as [->|Ex]; auto. right.
      pose proof (rt_before _ _ _ W _ _ Ex) as (m1 & m2 & m3 & Em).
      fold (ids t) in Em. pose proof (rt_unique _ _ _ W) as ND. fold (ids t) in ND.
      assert (l1 = m1 ++ par t x :: m2).
      { rewrite app_comm_cons, app_assoc in Em. rewrite El in Em, ND.
        clear - Em ND. remember (m1 ++ par t x :: m2) as q. clear Heqq. revert q Em ND.
        induction l1 as [|b l1 IH]; intros [|c q] Em ND; simpl in *; auto.
        - injection Em as -> ->. inversion ND; subst. exfalso. apply H1. apply in_or_app; simpl; auto.
        - injection Em as -> <-. inversion ND; subst. exfalso. apply H1. apply in_or_app; simpl; auto.
        - injection Em as -> Em. inversion ND; subst. f_equal. apply IH; auto. }
      subst l1. apply in_or_app; simpl; auto. }
    destruct (Ho x Hx Hpx) as [_ Hd].
    destruct (orient_children x s Hx Hd) as (s' & Es & Hs). exists s'. split; [exact Es|]. split.
    + intros y. rewrite Hs. destruct (mem y (successors t x)); simpl; apply Hw.
    + intros y Hy Hc. rewrite Hs. destruct (mem y (successors t x)) eqn:Em; [simpl; auto|].
      destruct (nid_eq_dec y r) as [->|Nr]; [apply Ho; auto|].
      apply Ho; auto. destruct Hc as [Hc|Hc]; auto.
      apply in_app_or in Hc as [Hc|[Hc|[]]]; auto.
      exfalso. apply mem_false in Em. destruct (par_cases y Hy) as [->|Ey].
      * destruct (Nr eq_refl).
      * rewrite <- Hc in Ey. apply Em. apply in_successors. auto.
  - split.
    + intros y. unfold set_orient_pdir, upd. destruct (nid_eq_dec y r); subst; auto.
    + intros y Hy [->|[]]. unfold set_orient_pdir. rewrite upd_same. auto.
  - exists st'. split; [exact F|]. split; auto.
    intros y Hy. apply Ho; auto. destruct (par_cases y Hy) as [->|Ey]; auto. right. apply par_in; auto.
Qed.

(** *** Pass 1 *)
Lemma foldM_rotate_part b0 b1 a (pt : nid -> rotation) st ys :
  length b0 = n -> length b1 = n -> NoDup ys ->
  (forall y, In y ys -> s_part (st y) = Some (pt y) /\ rot_ok n (pt y)) ->
  exists st', foldM (rotate_part b0 b1 a) st ys = Ok st' /\
    (forall y, s_w (st' y) = s_w (st y) /\ s_orient (st' y) = s_orient (st y)) /\
    (forall y, s_part (st' y) = if mem y ys then Some (rrot b0 b1 a (pt y)) else s_part (st y)).
Proof.
  intros L0 L1 ND Hp.
  apply (foldM_inv _ (fun l1 st' =>
    (forall y, s_w (st' y) = s_w (st y) /\ s_orient (st' y) = s_orient (st y)) /\
    (forall y, s_part (st' y) = if mem y l1 then Some (rrot b0 b1 a (pt y)) else s_part (st y)))).
  - intros l1 x l2 s E (Hw & Hs).
    assert (Hx : In x ys) by (rewrite E; apply in_or_app; simpl; auto).
    assert (Hx1 : mem x l1 = false).
    { apply mem_false. intros Hi. rewrite E in ND. apply (nodup_split_neq _ _ _ _ ND Hi). auto. }
    destruct (Hp x Hx) as [Hpx Ox].
    unfold rotate_part, get_part. rewrite Hs, Hx1, Hpx. simpl.
    rewrite (rotate_base_ok n) by auto. simpl. eexists; split; [reflexivity|]. split.
    + intros y. rewrite set_part_w, set_part_orient. apply Hw.
    + intros y. destruct (nid_eq_dec y x) as [->|N].
      * rewrite set_part_same. replace (mem x (l1 ++ [x])) with true; auto.
        symmetry. apply mem_In. apply in_or_app; simpl; auto.
      * rewrite set_part_other by auto. rewrite Hs.
        unfold mem. rewrite existsb_app. simpl. apply nid_eqb_false in N. rewrite N.
        rewrite !orb_false_r. reflexivity.
  - split; auto.
Qed.

Variable own : nid -> R.
Notation wt := (wsub t own).

Definition wpartial (l1 : list nid) (y : nid) : R :=
  own y + rsum (map (fun c => if mem c l1 then wt c else 0) (successors t y)).
Definition pass1_inv (l1 : list nid) (st : store) : Prop :=
  (forall y, In y (ids t) -> s_orient (st y) = Some (orient t y)) /\
  (forall y, In y (ids t) -> s_w (st y) = wpartial l1 y) /\
  (forall y, In y l1 -> s_part (st y) = Some (p1 t own l1 y) /\ rot_ok n (p1 t own l1 y)).

Lemma mem_snoc y l x : mem y (l ++ [x]) = mem y l || nid_eqb y x.
Proof. unfold mem. rewrite existsb_app. simpl. rewrite orb_false_r. reflexivity. Qed.

Lemma wpartial_step l1 x l2 y : rev sl = l1 ++ x :: l2 -> In y (ids t) ->
  wpartial (l1 ++ [x]) y = wpartial l1 y + (if mem y (predecessors t x) then wt x else 0).
Proof.
  intros E Hy. unfold wpartial.
  assert (Hx : mem x l1 = false).
  { apply mem_false. intros Hi. pose proof rev_nodup as ND. rewrite E in ND.
    apply (nodup_split_neq _ _ _ _ ND Hi). auto. }
  assert (ND : NoDup (successors t y)) by (apply NoDup_successors, (rt_edges_unique _ _ _ W)).
  destruct (mem y (predecessors t x)) eqn:Em.
  - apply mem_In, in_predecessors, in_successors in Em.
    apply in_split in Em as (s1 & s2 & Es). rewrite Es in *.
    rewrite !map_app, !rsum_app. simpl.
    rewrite mem_snoc, Hx, nid_eqb_refl. simpl.
    assert (Hne : forall c, In c s1 \/ In c s2 -> nid_eqb c x = false).
    { intros c Hc. apply nid_eqb_false. intros ->. apply NoDup_remove_2 in ND. apply ND, in_or_app; auto. }
    rewrite (rsum_ext (fun c => if mem c (l1 ++ [x]) then wt c else 0)
                      (fun c => if mem c l1 then wt c else 0) s1).
    2:{ intros c Hc. rewrite mem_snoc, Hne, orb_false_r; auto. }
    rewrite (rsum_ext (fun c => if mem c (l1 ++ [x]) then wt c else 0)
                      (fun c => if mem c l1 then wt c else 0) s2).
    2:{ intros c Hc. rewrite mem_snoc, Hne, orb_false_r; auto. }
    lra.
  - apply mem_false in Em. rewrite Rplus_0_r. f_equal. apply rsum_ext.
    intros c Hc. rewrite mem_snoc.
    replace (nid_eqb c x) with false; [rewrite orb_false_r; auto|].
    symmetry. apply nid_eqb_false. intros ->. apply Em. apply in_predecessors, in_successors. auto.
Qed.

Lemma p1_snoc l x : p1 t own (l ++ [x]) = p1step t own (p1 t own l) x.
Proof. unfold p1. apply fold_left_snoc. Qed.

Lemma scaled_ok x : In x (ids t) -> rot_ok n (scaled t own x).
Proof. intros H. destruct (orient_spec x H) as (_ & Ho & _). exact Ho. Qed.

Lemma partial_step_ok l1 x l2 st : rev sl = l1 ++ x :: l2 -> pass1_inv l1 st ->
  exists st', partial_step t st x = Ok st' /\ pass1_inv (l1 ++ [x]) st'.
Proof.
  intros E (Ho & Hw & Hp). destruct (rev_done _ _ _ E) as [_ Hd].
  assert (Hx : In x (ids t)).
  { apply sl_in. apply in_rev. rewrite E. apply in_or_app; simpl; auto. }
  assert (Hxl : ~ In x l1).
  { intros Hi. pose proof rev_nodup as ND. rewrite E in ND.
    apply (nodup_split_neq _ _ _ _ ND Hi). auto. }
  assert (Hwx : s_w (st x) = wt x).
  { rewrite Hw by auto. rewrite (wsub_rec n t r W). unfold wpartial. f_equal. apply rsum_ext.
    intros c Hc. apply in_successors in Hc.
    replace (mem c l1) with true; auto. symmetry. apply mem_In. apply Hd.
    - apply (edge_ids n t r W) in Hc. tauto.
    - apply (edge_lvl n t r W) in Hc. lia. }
  set (st1 := fold_left (add_to_pred x) (predecessors t x) st).
  assert (S1 : forall y, s_orient (st1 y) = s_orient (st y) /\ s_part (st1 y) = s_part (st y) /\
            s_w (st1 y) = s_w (st y) + (if mem y (predecessors t x) then wt x else 0)).
  { intros y. unfold st1. destruct (preds x) as [->|(p & -> & Ep)]; simpl.
    - repeat split; auto. lra.
    - assert (p <> x) by (intros ->; apply (edge_lvl n t r W) in Ep; lia).
      unfold add_to_pred. rewrite set_w_orient, set_w_part. split; [auto|]. split; [auto|].
      rewrite orb_false_r. destruct (nid_eq_dec y p) as [->|N].
      + rewrite set_w_same, nid_eqb_refl, Hwx. auto.
      + rewrite set_w_other by auto. apply nid_eqb_false in N. rewrite N. lra. }
  assert (W1 : s_w (st1 x) = wt x).
  { destruct (S1 x) as (_ & _ & ->). rewrite Hwx.
    replace (mem x (predecessors t x)) with false; [lra|]. symmetry. apply mem_false.
    intros Hi. apply in_predecessors in Hi. apply (edge_lvl n t r W) in Hi. lia. }
  destruct (orient_spec x Hx) as (_ & Oo & _).
  unfold partial_step. fold st1. unfold get_orient.
  destruct (S1 x) as (-> & _ & _). rewrite (Ho x Hx). cbn [bind]. rewrite W1.
  fold (scaled t own x). set (st2 := set_part st1 x (scaled t own x)).
  assert (P2 : forall y, In y (l1 ++ [x]) -> s_part (st2 y) = Some (upd (p1 t own l1) x (scaled t own x) y)
            /\ rot_ok n (upd (p1 t own l1) x (scaled t own x) y)).
  { intros y Hy. unfold st2. destruct (nid_eq_dec y x) as [->|N].
    - rewrite set_part_same, upd_same. split; [reflexivity|apply scaled_ok; auto].
    - rewrite set_part_other, upd_other by auto. destruct (S1 y) as (_ & -> & _).
      apply Hp. apply in_app_or in Hy as [Hy|[->|[]]]; auto. congruence. }
  assert (O2 : forall y, In y (ids t) -> s_orient (st2 y) = Some (orient t y)).
  { intros y Hy. unfold st2. rewrite set_part_orient. destruct (S1 y) as (-> & _ & _). auto. }
  assert (V2 : forall y, In y (ids t) -> s_w (st2 y) = wpartial (l1 ++ [x]) y).
  { intros y Hy. unfold st2. rewrite set_part_w. destruct (S1 y) as (_ & _ & ->).
    rewrite (wpartial_step l1 x l2) by auto. rewrite Hw; auto. }
  unfold pass1_inv. rewrite p1_snoc. unfold p1step.
  destruct (Rle_dec (wt x) 0); [exists st2; auto|].
  destruct (Rle_dec 1 (wt x)); [exists st2; auto|].
  destruct (dlist_spec n t r W x) as (Ed & NDd & Hin). rewrite Ed. simpl.
  destruct (foldM_rotate_part (rb0 (orient t x)) (rb1 (orient t x))
     (rangle (orient t x) * wt x - rangle (orient t x)) (upd (p1 t own l1) x (scaled t own x)) st2
     (dlist t x)) as (st3 & E3 & H3 & H3p); auto; try apply Oo.
  { intros y Hy. apply P2. apply in_or_app. left. apply Hin in Hy. apply Hd.
    - apply (desc_ids n t r W) in Hy. tauto.
    - apply (desc_lvl n t r W) in Hy. auto. }
  exists st3. split; [exact E3|]. split; [|split].
  - intros y Hy. destruct (H3 y) as (_ & ->). auto.
  - intros y Hy. destruct (H3 y) as (-> & _). auto.
  - intros y Hy. rewrite H3p. destruct (P2 y Hy) as [P3 O3].
    destruct (mem y (dlist t x)) eqn:Em; [|auto].
    split; auto. apply rrot_ok; auto.
Qed.

Lemma p1_all_ok y : In y (ids t) -> forall st, pass1_inv (rev sl) st ->
  s_part (st y) = Some (p1 t own (rev sl) y) /\ rot_ok n (p1 t own (rev sl) y) /\ s_w (st y) = wt y.
Proof.
  intros Hy st (Ho & Hw & Hp). assert (Hr : In y (rev sl)) by (apply -> in_rev; apply sl_in; auto).
  destruct (Hp y Hr). split; [auto|]. split; [auto|].
  rewrite Hw by auto. rewrite (wsub_rec n t r W). unfold wpartial. f_equal. apply rsum_ext.
  intros c Hc. replace (mem c (rev sl)) with true; auto. symmetry. apply mem_In.
  apply -> in_rev. apply sl_in. apply in_successors in Hc. apply (edge_ids n t r W) in Hc. tauto.
Qed.

(** *** Pass 2 *)
Lemma level_step_lev :
  mapM (fun x => do a <- get_attrs t x; Ok (x, a_level a)) sl = Ok (map (fun x => (x, lvl t x)) sl).
Proof.
  apply mapM_ok. intros x Hx. apply sl_in in Hx. destruct (get_dirn x Hx) as (a & -> & _ & <- & _). reflexivity.
Qed.
Lemma fold_set_part st l y : 
  s_w (fold_left (fun st yp => set_part st (fst yp) (snd yp)) l st y) = s_w (st y).
Proof. revert st; induction l; simpl; intros; auto. rewrite IHl, set_part_w. auto. Qed.
Lemma fold_set_part_none st l y : ~ In y (map fst l) ->
  s_part (fold_left (fun st (yp : nid * rotation) => set_part st (fst yp) (snd yp)) l st y) = s_part (st y).
Proof.
  revert st; induction l; simpl; intros; auto. rewrite IHl by tauto. apply set_part_other. 
  intros ->. tauto.
Qed.
Lemma fold_set_part_some st l y p : NoDup (map fst l) -> In (y, p) l ->
  s_part (fold_left (fun st (yp : nid * rotation) => set_part st (fst yp) (snd yp)) l st y) = Some p.
Proof.
  revert st; induction l as [|[z q] l IH]; simpl; intros st ND H; [destruct H|].
  inversion ND; subst. destruct H as [E|H]; [|apply IH; auto].
  injection E as -> ->. rewrite fold_set_part_none by auto. apply set_part_same.
Qed.
Lemma map_fst_pair {B} (f : nid -> B) l : map fst (map (fun y => (y, f y)) l) = l.
Proof. rewrite map_map. simpl. apply map_id. Qed.
Lemma map_fst_flat (f : nid -> nid -> rotation) nl :
  map fst (flat_map (fun x => map (fun y => (y, f x y)) (dlist t x)) nl) = flat_map (dlist t) nl.
Proof.
  induction nl; simpl; auto. rewrite map_app, map_fst_pair, IHnl. reflexivity.
Qed.

Lemma nodelevel_in level x : In x (nodelevel t own sl level) <->
  In x (ids t) /\ lvl t x = level /\ wt x <> 0.
Proof.
  unfold nodelevel. rewrite filter_In, andb_true_iff, negb_true_iff, Reqb_false, Nat.eqb_eq, sl_in. tauto.
Qed.
Lemma nodelevel_nodup level : NoDup (nodelevel t own sl level).
Proof. apply NoDup_filter, sl_nodup. Qed.
Lemma level_desc_nodup level : NoDup (flat_map (dlist t) (nodelevel t own sl level)).
Proof.
  apply NoDup_flat_map.
  - apply nodelevel_nodup.
  - intros x _. apply (dlist_spec n t r W).
  - intros x y z Hx Hy Hzx Hzy. apply nodelevel_in in Hx as (_ & Lx & _), Hy as (_ & Ly & _).
    apply (dlist_in n t r W) in Hzx, Hzy.
    apply (same_level_above n t r W x y z); auto. congruence.
Qed.
Lemma moved_some level y x : moved t (nodelevel t own sl level) y = Some x <->
  In x (nodelevel t own sl level) /\ desc t x y.
Proof.
  unfold moved. split.
  - intros H. apply find_some in H as [H1 H2]. apply mem_In, (dlist_in n t r W) in H2. auto.
  - intros [H1 H2].
    destruct (find (fun x => mem y (dlist t x)) (nodelevel t own sl level)) as [x'|] eqn:E.
    + apply find_some in E as [E1 E2]. apply mem_In, (dlist_in n t r W) in E2. f_equal.
      apply nodelevel_in in H1 as (_ & Lx & _), E1 as (_ & Ly & _).
      apply (same_level_above n t r W x' x y); auto. congruence.
    + exfalso. apply find_none with (x := x) in E; auto.
      apply mem_false in E. apply E. apply (dlist_in n t r W). auto.
Qed.
Lemma moved_none level y : moved t (nodelevel t own sl level) y = None <->
  ~ In y (flat_map (dlist t) (nodelevel t own sl level)).
Proof.
  split.
  - intros H Hi. apply in_flat_map in Hi as (x & Hx & Hy). apply (dlist_in n t r W) in Hy.
    assert (moved t (nodelevel t own sl level) y = Some x) by (apply moved_some; auto). congruence.
  - intros H. destruct (moved t (nodelevel t own sl level) y) as [x|] eqn:E; auto.
    apply moved_some in E as [Hx Hd]. exfalso. apply H. apply in_flat_map. exists x. split; auto.
    apply (dlist_in n t r W); auto.
Qed.

Variable orth0 : vec -> vec.

Definition simulates (g : sumstate) (p : pstate) : Prop :=
  (forall y, In y (ids t) -> s_part (g_st g y) = Some (ps_pt p y)) /\
  (forall y, In y (ids t) -> s_w (g_st g y) = wt y) /\
  g_seq g = ps_seq p /\ g_last g = ps_last p.
Definition all_ok (p : pstate) : Prop := forall y, In y (ids t) -> rot_ok n (ps_pt p y).

(** The rotation of a level which has descendants to carry along is proper. *)
Definition level_fine (p : pstate) (level : nat) : Prop :=
  flat_map (dlist t) (nodelevel t own sl level) <> [] ->
  rangle (level_rot orth0 (ps_pt p) (nodelevel t own sl level)) <> 0 ->
  rot_ok n (level_rot orth0 (ps_pt p) (nodelevel t own sl level)).

Lemma level_step_ok g p level :
  simulates g p -> all_ok p -> level_fine p level ->
  exists g', level_step orth0 t sl g level = Ok g' /\
    simulates g' (p2step orth0 t own sl p level) /\ all_ok (p2step orth0 t own sl p level).
Proof.
  intros (Hp & Hw & Hs & Hl) Ha Hf. unfold level_step. rewrite level_step_lev. cbn [bind].
  assert (NL : map fst (filter (fun xl => Nat.eqb (snd xl) level && negb (Reqb (s_w (g_st g (fst xl))) 0))
     (map (fun x => (x, lvl t x)) sl)) = nodelevel t own sl level).
  { unfold nodelevel. assert (forall y, In y sl -> s_w (g_st g y) = wt y) by (intros; apply Hw, sl_in; auto).
    clear - H. induction sl as [|x l IH]; simpl; auto.
    rewrite (H x) by (simpl; auto).
    destruct (Nat.eqb (lvl t x) level && negb (Reqb (wt x) 0)); simpl; rewrite IH; auto;
      intros; apply H; simpl; auto. }
  rewrite NL. unfold p2step, level_fine in *. unfold all_ok in Ha.
  pose proof (nodelevel_in level) as NIN. pose proof (level_desc_nodup level) as DND.
  pose proof (moved_some level) as MS. pose proof (moved_none level) as MN.
  remember (nodelevel t own sl level) as nl eqn:Enl. clear Enl NL.
  assert (Hids : forall x, In x nl -> In x (ids t)) by (intros x Hx; apply NIN in Hx; tauto).
  assert (CN : nl = [] \/ exists x0 nl', nl = x0 :: nl') by (clear; destruct nl; eauto).
  destruct CN as [->|(x0 & nl' & Enl)].
  { exists g. split; [reflexivity|]. split; [|exact Ha]. split; [exact Hp|]. split; [exact Hw|]. auto. }
  set (step1 := level_rot orth0 (ps_pt p) nl) in *.
  assert (MM : forall (A : Type) (u : A) (v : nid -> A),
             match nl with [] => u | x :: _ => v x end = v x0) by (intros; rewrite Enl; reflexivity).
  rewrite !MM. subst step1.
  assert (Hx0 : In x0 (ids t)) by (apply Hids; rewrite Enl; simpl; auto).
  unfold get_part at 1. rewrite (Hp x0 Hx0). cbn [bind].
  rewrite (mapM_ok _ (ps_pt p)).
  2:{ intros x Hx. unfold get_part. rewrite Hp; auto. }
  cbn [bind]. fold (level_sum (ps_pt p) nl).
  replace (rb0 (ps_pt p x0)) with (rb0 (ps_pt p (hd (NInt 0) nl))) by (rewrite Enl; reflexivity).
  fold (level_rot orth0 (ps_pt p) nl). set (new := level_rot orth0 (ps_pt p) nl) in *.
  assert (CB : foldM (collect_back t (g_st g)) [] nl =
     Ok (flat_map (fun x => map (fun y => (y, back (ps_pt p x) (ps_pt p y))) (dlist t x)) nl)).
  { assert (G : forall l acc, (forall x, In x l -> In x (ids t)) ->
        foldM (collect_back t (g_st g)) acc l =
        Ok (acc ++ flat_map (fun x => map (fun y => (y, back (ps_pt p x) (ps_pt p y))) (dlist t x)) l)).
    { induction l as [|x l IH]; intros acc Hin; simpl; [rewrite app_nil_r; auto|].
      unfold collect_back at 1.
      destruct (dlist_spec n t r W x) as (-> & _ & Hd). simpl.
      assert (Hx : In x (ids t)) by (apply Hin; simpl; auto).
      unfold get_part at 1. rewrite Hp by auto. simpl.
      rewrite (mapM_ok _ (fun y => (y, back (ps_pt p x) (ps_pt p y)))).
      - simpl. rewrite IH by (intros; apply Hin; simpl; auto). rewrite app_assoc. reflexivity.
      - intros y Hy. apply Hd, (desc_ids n t r W) in Hy as [_ Hy]. unfold get_part. rewrite Hp by auto. simpl.
        pose proof (Ha x Hx) as (A0 & A1 & _).
        rewrite (rotate_base_ok n) by auto. reflexivity. }
    apply G. auto. }
  rewrite CB. cbn [bind].
  set (all := flat_map (fun x => map (fun y => (y, back (ps_pt p x) (ps_pt p y))) (dlist t x)) nl) in *.
  assert (Fst : map fst all = flat_map (dlist t) nl) by apply map_fst_flat.
  assert (Hempty : all = [] <-> flat_map (dlist t) nl = []).
  { rewrite <- Fst. destruct all; simpl; split; intros; auto; discriminate. }
  assert (Hall : forall y q, In (y, q) all <->
     exists x, moved t nl y = Some x /\ q = back (ps_pt p x) (ps_pt p y)).
  { intros y q. unfold all. rewrite in_flat_map. split.
    - intros (x & Hx & Hi). apply in_map_iff in Hi as (y' & Ey & Hy). injection Ey as -> <-.
      exists x. split; auto. apply MS. split; auto. apply (dlist_in n t r W). auto.
    - intros (x & Hm & ->). apply MS in Hm as [Hx Hd]. exists x. split; auto.
      apply in_map_iff. exists y. split; auto. apply (dlist_in n t r W). auto. }
  assert (Hback : forall x y, moved t nl y = Some x -> rot_ok n (back (ps_pt p x) (ps_pt p y))).
  { intros x y Hm. apply MS in Hm as [Hx Hd]. apply rrot_ok; apply Ha; auto.
    apply (desc_ids n t r W) in Hd. tauto. }
  destruct all as [|a0 all'] eqn:Eall.
  { rewrite (proj1 Hempty eq_refl). eexists; split; [reflexivity|].
    unfold simulates, all_ok; simpl. auto. }
  rewrite <- Eall in *.
  assert (Hne : flat_map (dlist t) nl <> []).
  { intros Hc. apply Hempty in Hc. rewrite Eall in Hc. discriminate. }
  destruct (flat_map (dlist t) nl) as [|d0 dl] eqn:Edl; [congruence|]. rewrite <- Edl in *.
  assert (Ea0 : norm (level_sum (ps_pt p) nl) = rangle new) by reflexivity.
  rewrite Ea0. unfold fwd.
  destruct (Req_EM_T (rangle new) 0) as [Z|NZ].
  - eexists; split; [reflexivity|]. unfold simulates, all_ok; cbn [g_st g_seq g_last ps_pt ps_seq ps_last].
    split; [split; [|split; [|split; auto]]|].
    + intros y Hy. destruct (moved t nl y) as [x|] eqn:Em.
      * apply fold_set_part_some; [rewrite Fst; auto|]. apply Hall. eauto.
      * rewrite fold_set_part_none; auto. rewrite Fst. apply MN. auto.
    + intros y Hy. rewrite fold_set_part. auto.
    + intros y Hy. destruct (moved t nl y) as [x|] eqn:Em; auto.
  - specialize (Hf Hne NZ).
    pose proof Hf as (F0 & F1 & _).
    rewrite (mapM_ok _ (fun yp => (fst yp, rrot (rb0 new) (rb1 new) (rangle new) (snd yp)))).
    2:{ intros [y q] Hy. apply Hall in Hy as (x & Hm & ->). simpl fst; simpl snd.
        assert (B1 : rb1 new = vdiv (level_sum (ps_pt p) nl) (rangle new)).
        { unfold new, level_rot in *; cbn [rb1 rangle] in *.
          destruct (Req_EM_T (norm (level_sum (ps_pt p) nl)) 0); [contradiction|reflexivity]. }
        match goal with |- bind (rotate_base ?a ?b ?c ?d) _ = _ =>
          change a with (rb0 new); replace b with (rb1 new) by exact B1 end.
        rewrite (rotate_base_ok n) by auto. reflexivity. }
    cbn [bind]. eexists; split; [reflexivity|].
    unfold simulates, all_ok; cbn [g_st g_seq g_last ps_pt ps_seq ps_last].
    set (all2 := map (fun yp => (fst yp, rrot (rb0 new) (rb1 new) (rangle new) (snd yp))) all).
    assert (Fst2 : map fst all2 = flat_map (dlist t) nl).
    { unfold all2. rewrite map_map. exact Fst. }
    split; [split; [|split; [|split; auto]]|].
    + intros y Hy. destruct (moved t nl y) as [x|] eqn:Em.
      * apply fold_set_part_some; [rewrite Fst2; auto|]. unfold all2. apply in_map_iff.
        exists (y, back (ps_pt p x) (ps_pt p y)). split; auto. apply Hall. eauto.
      * rewrite fold_set_part_none; auto. rewrite Fst2. apply MN. auto.
    + intros y Hy. rewrite fold_set_part. auto.
    + unfold append_from_base_and_angle. rewrite Hs. reflexivity.
    + intros y Hy. destruct (moved t nl y) as [x|] eqn:Em; auto.
      apply rrot_ok; auto.
Qed.

Definition maxlvl : nat := max_level (map (lvl t) sl).
Definition p2 (levels : list nat) : pstate :=
  fold_left (p2step orth0 t own sl) levels (mkP (p1 t own (rev sl)) [] None).

(** The whole reduction, given that every level met is fine. *)
Lemma reduce_pure st0 l ws :
  length l = length ws ->
  (forall x, In x l -> In x (ids t)) ->
  (forall y, own y = own_of (combine l ws) y) ->
  (forall k, (k <= maxlvl)%nat -> all_ok (p2 (seq 0 k)) -> level_fine (p2 (seq 0 k)) k) ->
  reduce_weighted_to_sequence orth0 t st0 sl l ws =
    match ps_last (p2 (seq 0 (S maxlvl))) with
    | None => Err EName
    | Some rl => Ok (ps_seq (p2 (seq 0 (S maxlvl))) ++ [rl])
    end /\ all_ok (p2 (seq 0 (S maxlvl))).
Proof.
  intros Hlen Hin Hown Hfine. unfold reduce_weighted_to_sequence.
  rewrite Hlen, Nat.eqb_refl. cbn [negb].
  assert (AL : all_levels t = Ok (map (lvl t) (ids t))).
  { apply mapM_ok. intros x Hx. destruct (get_dirn x Hx) as (a & -> & _ & <- & _). reflexivity. }
  rewrite AL. cbn [bind]. unfold update_partial_rotations.
  destruct (assign_ok t (reset_node_weights t st0) (combine l ws)) as (st1 & E1 & W1).
  { intros; apply reset_w; auto. }
  { intros x w H. apply in_combine_l in H. auto. }
  rewrite E1. cbn [bind].
  destruct (orientations_ok st1) as (st2 & E2 & W2 & O2). rewrite E2. cbn [bind].
  assert (CK : foldM (fun _ x => do _ <- get_orient st2 x; Ok tt) tt (ids t) = Ok tt).
  { assert (G : forall m, (forall x, In x m -> In x (ids t)) ->
       foldM (fun _ x => do _ <- get_orient st2 x; Ok tt) tt m = Ok tt).
    { induction m as [|x m IH]; intros Hm; simpl; auto. unfold get_orient.
      rewrite O2 by (apply Hm; simpl; auto). simpl. apply IH. intros; apply Hm; simpl; auto. }
    apply G. auto. }
  rewrite CK. cbn [bind].
  destruct (foldM_inv (partial_step t) pass1_inv (rev sl) st2) as (st3 & E3 & P3).
  { intros. eapply partial_step_ok; eauto. }
  { split; [auto|]. split; [|intros y []]. intros y Hy. rewrite W2, W1 by auto. unfold wpartial.
    simpl. rewrite rsum_map_const. rewrite Hown. lra. }
  rewrite E3. cbn [bind]. unfold evaluate_graph_summing.
  rewrite (mapM_ok _ (lvl t)).
  2:{ intros x Hx. apply sl_in in Hx. destruct (get_dirn x Hx) as (a & -> & _ & <- & _). reflexivity. }
  cbn [bind]. fold maxlvl.
  destruct (foldM_inv (level_step orth0 t sl) (fun l1 g => simulates g (p2 l1) /\ all_ok (p2 l1))
     (seq 0 (S maxlvl)) (mkSum st3 create_empty None)) as (g & E4 & (S1 & S2 & S3 & S4) & A4).
  - intros l1 k l2 s E (Hsim & Hok).
    assert (Hk : (k <= maxlvl)%nat /\ l1 = seq 0 k).
    { clear - E.
      assert (L : (length l1 + S (length l2) = S maxlvl)%nat).
      { pose proof (f_equal (@length nat) E) as EL. rewrite seq_length, app_length in EL. simpl in EL. lia. }
      assert (Hk : k = length l1).
      { pose proof (f_equal (fun q => nth (length l1) q 0%nat) E) as EN. cbn beta in EN.
        rewrite app_nth2, Nat.sub_diag in EN by lia. rewrite seq_nth in EN by lia. simpl in EN. lia. }
      split; [lia|]. replace (S maxlvl) with (length l1 + S (length l2))%nat in E by lia.
      rewrite seq_app in E. simpl in E.
      apply (f_equal (firstn (length l1))) in E.
      rewrite !firstn_app in E. rewrite seq_length, Nat.sub_diag in E. simpl in E.
      rewrite !app_nil_r in E. rewrite firstn_all in E.
      rewrite firstn_all2 in E by (rewrite seq_length; lia). rewrite Hk. auto. }
    destruct Hk as [Hk ->].
    destruct (level_step_ok s (p2 (seq 0 k)) k Hsim Hok (Hfine k Hk Hok)) as (s' & Es & Hs' & Ho').
    exists s'. split; auto. unfold p2. rewrite fold_left_snoc. auto.
  - split; [split; [|split; [|split; auto]]|].
    + intros y Hy. apply p1_all_ok; auto.
    + intros y Hy. apply (p1_all_ok y Hy st3 P3).
    + intros y Hy. apply (p1_all_ok y Hy st3 P3).
  - rewrite E4. cbn [bind]. rewrite S4, S3. split; auto.
Qed.
End Reduce.
