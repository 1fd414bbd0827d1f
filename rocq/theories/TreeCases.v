(** Special cases of the reduction and its independence of orders and left-overs. *)
Require Import Reals List Lra Lia Bool ZArith Permutation.
From Verif Require Import Base Vec Angle RotModel Spec RotProofs SeqProofs TreeModel TreeSpec
  TreeProofs TreeWeights TreeReduce TreeGeom.
Import ListNotations.
Open Scope R_scope.

Lemma own_of_snoc l x w y : own_of (l ++ [(x, w)]) y = if nid_eq_dec y x then w else own_of l y.
Proof. unfold own_of. rewrite fold_left_snoc. reflexivity. Qed.
Lemma own_of_in l x w : NoDup (map fst l) -> In (x, w) l -> own_of l x = w.
Proof.
  induction l as [|[y v] l IH] using rev_ind; intros ND H; [destruct H|].
  rewrite own_of_snoc. rewrite map_app in ND. simpl in ND.
  apply in_app_or in H as [H|[H|[]]].
  - destruct (nid_eq_dec x y) as [->|].
    + exfalso. apply NoDup_remove_2 in ND. apply ND. rewrite app_nil_r. apply in_map_iff. exists (y, w). auto.
    + apply IH; auto. apply NoDup_remove_1 in ND. rewrite app_nil_r in ND. auto.
  - injection H as -> ->. destruct (nid_eq_dec x x); congruence.
Qed.
Lemma own_of_out l x : ~ In x (map fst l) -> own_of l x = 0.
Proof.
  induction l as [|[y v] l IH] using rev_ind; intros H; [reflexivity|].
  rewrite own_of_snoc. rewrite map_app, in_app_iff in H. simpl in H.
  destruct (nid_eq_dec x y) as [->|]; [tauto|]. apply IH. tauto.
Qed.
Lemma combine_fst {A B} (l : list A) (ws : list B) : length l = length ws -> map fst (combine l ws) = l.
Proof. revert ws; induction l; destruct ws; simpl; intros; auto; try discriminate. f_equal. auto. Qed.
Lemma assigned_own t l ws own : assigned t l ws own -> forall y, own y = own_of (combine l ws) y.
Proof.
  intros (ND & L & Hin & H1 & H2) y.
  destruct (in_dec nid_eq_dec y l) as [Hy|Hy].
  - rewrite <- (combine_fst l ws L) in Hy. apply in_map_iff in Hy as ([y' w] & E & Hy). simpl in E. subst.
    rewrite (H1 y w Hy). symmetry. apply own_of_in; auto. rewrite combine_fst; auto.
  - rewrite H2 by auto. symmetry. apply own_of_out. rewrite combine_fst; auto.
Qed.

Lemma no_opposite_dirn n t r : rooted_tree n t r -> no_opposite t ->
  forall p x, edge t p x -> dot (dirn t p) (dirn t x) <> -1.
Proof.
  intros W H p x E. pose proof (edge_ids n t r W p x E) as [Hp Hx].
  destruct (get_dirn n t r W p Hp) as (a & _ & <- & _ & _ & _ & Na).
  destruct (get_dirn n t r W x Hx) as (b & _ & <- & _ & _ & _ & Nb). eauto.
Qed.
Lemma distinguishable_dirn n t r : rooted_tree n t r -> distinguishable t ->
  forall p x, edge t p x -> exact_pair (dirn t p) (dirn t x).
Proof.
  intros W H p x E. pose proof (edge_ids n t r W p x E) as [Hp Hx].
  destruct (get_dirn n t r W p Hp) as (a & _ & <- & _ & _ & _ & Na).
  destruct (get_dirn n t r W x Hx) as (b & _ & <- & _ & _ & _ & Nb). unfold exact_pair. eauto.
Qed.

(** Sum of an indicator. *)
Lemma rsum_indicator m (own : nid -> R) L : NoDup L ->
  (forall y, own y = if nid_eq_dec y m then 1 else 0) ->
  rsum (map own L) = if in_dec nid_eq_dec m L then 1 else 0.
Proof.
  intros ND H. induction L as [|a L IH]; [reflexivity|].
  inversion ND; subst. cbn [map rsum fold_right]. fold (rsum (map own L)). rewrite IH by auto. rewrite H.
  destruct (in_dec nid_eq_dec m L) as [Hm|Hm], (in_dec nid_eq_dec m (a :: L)) as [Ha|Ha],
    (nid_eq_dec a m) as [->|]; simpl in *; try lra; try tauto.
Qed.

Lemma vadd_nil_r u : vadd u [] = u.
Proof. destruct u; reflexivity. Qed.
Lemma level_sum_one pt x : level_sum pt [x] = vscale (rangle (pt x)) (rb1 (pt x)).
Proof. unfold level_sum; simpl. apply vadd_nil_r. Qed.
Lemma vscale_0 n v : length v = n -> vscale 0 v = vzero n.
Proof. intros. vext. ring. Qed.

Section Single.
Variables (n : nat) (t : tree) (r : nid).
Hypothesis W : rooted_tree n t r.
Hypothesis Hn : (2 <= n)%nat.
Hypothesis NA : forall p x, edge t p x -> dot (dirn t p) (dirn t x) <> -1.
Variable sl : list nid.
Hypothesis SL : level_sorted t sl.
Variable orth0 : vec -> vec.
Hypothesis OL : forall v, length (orth0 v) = length v.

(** The last rotation of a level, also with angle zero. *)
Lemma second_of_level_rot pt nl E :
  nl <> [] -> (forall x, In x nl -> rot_ok n (pt x) /\ rb0 (pt x) = E) ->
  get_second_vector (level_rot orth0 pt nl) =
  if Req_EM_T (rangle (level_rot orth0 pt nl)) 0 then E else end_of (level_rot orth0 pt nl).
Proof.
  intros H0 H. destruct (level_rot_ok n Hn orth0 pt nl E H0 H) as (N0 & N1 & N2).
  destruct (Req_EM_T (rangle (level_rot orth0 pt nl)) 0) as [Z|NZ].
  - unfold get_second_vector. rewrite N0, (N2 Z), Z.
    assert (LE : length E = n).
    { destruct nl as [|x nl]; [congruence|]. destruct (H x) as [(A & _) <-]; simpl; auto. }
    rewrite (rotate_direction_eq n) by (rewrite ?OL; auto).
    apply (plane_rot_zero n); rewrite ?OL; auto.
  - apply (end_of_second n). auto.
Qed.

Lemma get_end_snoc (s : sequence) q : get_end_vector (s ++ [q]) = Ok (get_second_vector q).
Proof.
  unfold get_end_vector. rewrite last_last. destruct (s ++ [q]) eqn:E; [destruct s; discriminate|].
  unfold rotate, get_second_vector. rewrite Rmult_1_l. reflexivity.
Qed.

(** *** One node carries all the weight *)
Variable own : nid -> R.
Notation wt := (wsub t own).
Section One.
Variable m : nid.
Hypothesis Hm : In m (ids t).
Hypothesis OWN : forall y, own y = if nid_eq_dec y m then 1 else 0.

Lemma wt_one y : (y = m \/ desc t y m) -> wt y = 1.
Proof.
  intros H. unfold wsub. change (own y + rsum (map own (dlist t y))) with (rsum (map own (y :: dlist t y))).
  rewrite (rsum_indicator m); auto.
  - destruct (in_dec nid_eq_dec m (y :: dlist t y)) as [|N]; auto. exfalso. apply N.
    destruct H as [->|H]; [simpl; auto|]. right. apply (dlist_in n t r W). auto.
  - constructor; [|apply (dlist_spec n t r W)]. intros Hi. apply (dlist_in n t r W) in Hi.
    apply (desc_lvl n t r W) in Hi. lia.
Qed.
Lemma wt_zero y : ~ (y = m \/ desc t y m) -> wt y = 0.
Proof.
  intros H. unfold wsub. change (own y + rsum (map own (dlist t y))) with (rsum (map own (y :: dlist t y))).
  rewrite (rsum_indicator m); auto.
  - destruct (in_dec nid_eq_dec m (y :: dlist t y)) as [Hi|N]; auto. exfalso. apply H.
    destruct Hi as [->|Hi]; [simpl; auto|]. right. apply (dlist_in n t r W). auto.
  - constructor; [|apply (dlist_spec n t r W)]. intros Hi. apply (dlist_in n t r W) in Hi.
    apply (desc_lvl n t r W) in Hi. lia.
Qed.
Lemma on_path_dec y : {y = m \/ desc t y m} + {~ (y = m \/ desc t y m)}.
Proof.
  destruct (nid_eq_dec y m); [left; auto|].
  destruct (in_dec nid_eq_dec m (dlist t y)) as [H|H].
  - left. right. apply (dlist_in n t r W). auto.
  - right. intros [|D]; auto. apply H, (dlist_in n t r W). auto.
Qed.
Lemma wt_cases y : wt y = 0 \/ wt y = 1.
Proof. destruct (on_path_dec y); [right; apply wt_one|left; apply wt_zero]; auto. Qed.
Lemma wt_nz y : wt y <> 0 <-> (y = m \/ desc t y m).
Proof.
  destruct (on_path_dec y) as [H|H].
  - rewrite (wt_one y H). split; auto; lra.
  - rewrite (wt_zero y H). split; [lra|tauto].
Qed.
Lemma nl_path k : nodelevel t own sl k = [] \/
  exists x, nodelevel t own sl k = [x] /\ In x (ids t) /\ lvl t x = k /\ (x = m \/ desc t x m).
Proof.
  pose proof (nodelevel_in t sl SL own k) as NI.
  pose proof (nodelevel_nodup n t r W sl SL own k) as ND.
  assert (U : forall x y, In x (nodelevel t own sl k) -> In y (nodelevel t own sl k) -> x = y).
  { intros x y Hx Hy. apply NI in Hx as (_ & Lx & Wx). apply NI in Hy as (_ & Ly & Wy).
    apply wt_nz in Wx, Wy. apply (same_level_above n t r W x y m); auto. congruence. }
  destruct (nodelevel t own sl k) as [|x [|y l]]; auto.
  - right. exists x. split; auto.
    assert (Hx : In x [x]) by (simpl; auto). apply NI in Hx as (Hx & Lx & Wx). apply wt_nz in Wx. auto.
  - exfalso. inversion ND; subst. apply H1. left. symmetry. apply U; simpl; auto.
Qed.

Lemma orient_angle_nonneg x : In x (ids t) -> 0 <= rangle (orient t x).
Proof.
  intros H. destruct (orient_spec n t r W Hn NA x H) as (_ & _ & _ & -> & _).
  apply acos_bound.
Qed.
(** The rotation of a level with one node of weight one is the orientation of that node. *)
Lemma level_rot_single pt x : In x (ids t) -> wt x = 1 -> pt x = scaled t own x ->
  rb0 (level_rot orth0 pt [x]) = rb0 (orient t x) /\
  rangle (level_rot orth0 pt [x]) = rangle (orient t x) /\
  (rangle (orient t x) <> 0 -> rb1 (level_rot orth0 pt [x]) = rb1 (orient t x)).
Proof.
  intros Hx Wx E. pose proof (orient_ok n t r W Hn NA x Hx) as (L0 & L1 & U0 & U1 & _).
  pose proof (orient_angle_nonneg x Hx) as A.
  assert (S : level_sum pt [x] = vscale (rangle (orient t x)) (rb1 (orient t x))).
  { rewrite level_sum_one, E. unfold scaled; cbn [rangle rb1]. rewrite Wx, Rmult_1_r. auto. }
  assert (N : norm (level_sum pt [x]) = rangle (orient t x)).
  { rewrite S, norm_vscale. apply unit_norm in U1. rewrite U1, Rabs_pos_eq by auto. ring. }
  unfold level_rot; cbn [rb0 rb1 rangle hd]. rewrite N. split; [rewrite E; reflexivity|].
  split; [auto|]. intros NZ. destruct (Req_EM_T (rangle (orient t x)) 0); [contradiction|].
  rewrite S. vext. field. auto.
Qed.

Definition one_inv (k : nat) (g : pstate) : Prop :=
  (forall y, In y (ids t) -> rot_ok n (ps_pt g y)) /\
  (forall y, In y (ids t) -> wt y <> 0 -> ps_pt g y = scaled t own y) /\
  ((lvl t m < k)%nat -> exists pt, pt m = scaled t own m /\ ps_last g = Some (level_rot orth0 pt [m]) /\
     (dlist t m <> [] -> rangle (level_rot orth0 pt [m]) <> 0 ->
      exists s', ps_seq g = s' ++ [level_rot orth0 pt [m]])).

Lemma scaled_fine x : In x (ids t) -> rot_ok n (scaled t own x).
Proof. apply (scaled_ok n t r W Hn NA). Qed.

Lemma one_inv_0 : one_inv 0 (p2 t sl own orth0 []).
Proof.
  destruct (p1_basic n t r W Hn NA sl SL own) as [B1 B2].
  unfold one_inv, p2; simpl. split; [intros; apply B1; auto|]. split; [|lia].
  intros y Hy _. apply B2; auto. intros x D. destruct (wt_cases x); lra.
Qed.
Lemma one_fine k g : one_inv k g -> level_fine n t sl own orth0 g k.
Proof.
  intros (K1 & K2 & _) Hne Hnz. destruct (nl_path k) as [E|(x & E & Hx & Lx & Px)].
  - destruct Hne. rewrite E. reflexivity.
  - rewrite E in *. apply (level_rot_ok n Hn orth0 (ps_pt g) [x] (rb0 (ps_pt g x))); auto; [discriminate|].
    intros y [<-|[]]. auto.
Qed.
Lemma back_fwd_id new x p : In x (ids t) -> rot_ok n p -> wt x = 1 ->
  rb0 new = rb0 (orient t x) -> rangle new = rangle (orient t x) ->
  (rangle (orient t x) <> 0 -> rb1 new = rb1 (orient t x)) ->
  fwd new (back (scaled t own x) p) = p.
Proof.
  intros Hx Hp Wx E0 Ea E1. pose proof (orient_ok n t r W Hn NA x Hx) as O. pose proof O as (L0 & L1 & _).
  unfold back, scaled; cbn [rb0 rb1 rangle]. rewrite Wx.
  replace (-1 * (rangle (orient t x) * 1)) with (- rangle (orient t x)) by ring.
  unfold fwd. rewrite Ea. destruct (Req_EM_T (rangle (orient t x)) 0) as [Z|NZ].
  - rewrite Z, Ropp_0. apply (rrot_zero n); auto.
  - rewrite E0, (E1 NZ). unfold rrot; simpl. pose proof Hp as (M0 & M1 & _).
    rewrite !(plane_rot_compose n) by auto. rewrite Rplus_opp_l, !(plane_rot_zero n) by auto.
    destruct p; auto.
Qed.
Lemma one_step k g : one_inv k g -> one_inv (S k) (p2step orth0 t own sl g k).
Proof.
  intros (K1 & K2 & K3). unfold p2step.
  pose proof (moved_some n t r W sl SL own k) as MS.
  pose proof (nodelevel_in t sl SL own k) as NI.
  destruct (nl_path k) as [E|(x & E & Hx & Lx & Px)]; rewrite E in *.
  - split; [auto|]. split; [auto|]. intros L.
    destruct (Nat.eq_dec (lvl t m) k) as [Ek|]; [|apply K3; lia].
    exfalso. apply (NI m). split; [auto|]. split; [auto|]. apply wt_nz. auto.
  - pose proof (wt_one x Px) as Wx.
    assert (Ex : ps_pt g x = scaled t own x) by (apply K2; auto; lra).
    destruct (level_rot_single (ps_pt g) x Hx Wx Ex) as (N0 & Na & N1).
    set (new := level_rot orth0 (ps_pt g) [x]) in *.
    assert (K3' : forall sq, (dlist t x <> [] -> rangle new <> 0 -> exists s', sq = s' ++ [new]) ->
               (lvl t m < S k)%nat -> exists pt, pt m = scaled t own m /\
               Some new = Some (level_rot orth0 pt [m]) /\
               (dlist t m <> [] -> rangle (level_rot orth0 pt [m]) <> 0 ->
                exists s', sq = s' ++ [level_rot orth0 pt [m]])).
    { intros sq Hsq L. destruct Px as [->|D].
      - exists (ps_pt g). auto.
      - apply (desc_lvl n t r W) in D. lia. }
    assert (EF : flat_map (dlist t) [x] = dlist t x) by (simpl; apply app_nil_r).
    rewrite EF. destruct (dlist t x) as [|d dl] eqn:Ed.
    + split; [auto|]. split; [auto|]. apply K3'. congruence.
    + assert (Id : forall y, In y (ids t) ->
        match moved t [x] y with Some z => fwd new (back (ps_pt g z) (ps_pt g y)) | None => ps_pt g y end
        = ps_pt g y).
      { intros y Hy. destruct (moved t [x] y) as [z|] eqn:Em; auto.
        apply MS in Em as [[<-|[]] D]. rewrite Ex. apply back_fwd_id; auto. }
      split; [|split]; cbn [ps_pt ps_last].
      * intros y Hy. rewrite Id; auto.
      * intros y Hy Wy. rewrite Id; auto.
      * apply K3'. intros _ NZ. cbn [ps_seq]. destruct (Req_EM_T (rangle new) 0); [contradiction|]. eauto.
Qed.
Lemma one_all k : one_inv k (p2 t sl own orth0 (seq 0 k)).
Proof.
  induction k; [apply one_inv_0|]. rewrite seq_S. unfold p2. rewrite fold_left_snoc.
  apply one_step. exact IHk.
Qed.
Lemma maxlvl_ge y : In y (ids t) -> (lvl t y <= maxlvl t sl)%nat.
Proof.
  intros H. unfold maxlvl. apply (sl_in t sl SL) in H. clear - H. unfold max_level.
  induction sl as [|a l IH]; simpl in *; [destruct H|].
  destruct H as [->|H]; [lia|]. specialize (IH H). lia.
Qed.

Lemma mean_single st0 l ws :
  length l = length ws -> (forall x, In x l -> In x (ids t)) ->
  (forall y, own y = own_of (combine l ws) y) ->
  (forall p, edge t p m -> exact_pair (dirn t p) (dirn t m)) ->
  get_weighted_mean orth0 t st0 sl l ws = Ok (dirn t m).
Proof.
  intros Hlen Hin Hown HE.
  destruct (reduce_pure n t r W Hn NA sl SL own orth0 st0 l ws Hlen Hin Hown) as [E _].
  { intros k Hk _. apply one_fine. apply one_all. }
  unfold get_weighted_mean. rewrite E.
  destruct (one_all (S (maxlvl t sl))) as (_ & _ & K3).
  destruct K3 as (pt & Epm & -> & _); [pose proof (maxlvl_ge m Hm); lia|].
  cbn [bind]. rewrite get_end_snoc. f_equal.
  assert (Wm : wt m = 1) by (apply wt_one; auto).
  destruct (level_rot_single pt m Hm Wm Epm) as (N0 & Na & N1).
  rewrite (second_of_level_rot pt [m] (rb0 (orient t m))).
  2: discriminate.
  2:{ intros y [<-|[]]. rewrite Epm. split; [apply scaled_fine; auto|reflexivity]. }
  destruct (orient_spec n t r W Hn NA m Hm) as (_ & Oo & O0 & Oa & Oe).
  assert (EX : exact_pair (dirn t (par t m)) (dirn t m)).
  { destruct (par_cases n t r W m Hm) as [->|Ep]; auto. rewrite (par_root n t r W). left; auto. }
  specialize (Oe EX).
  destruct (Req_EM_T (rangle (level_rot orth0 pt [m])) 0) as [Z|NZ].
  - rewrite Na in Z. rewrite O0, <- Oe. unfold end_of. rewrite Z, cos_0, sin_0, O0.
    pose proof Oo as (L0 & L1 & _). rewrite O0 in L0. vext. ring.
  - rewrite <- Oe. unfold end_of. rewrite N0, Na, N1; auto. rewrite <- Na. auto.
Qed.
(** The ancestors repeat the direction of the root: one rotation remains. *)
Lemma one_short st0 l ws :
  length l = length ws -> (forall x, In x l -> In x (ids t)) ->
  (forall y, own y = own_of (combine l ws) y) ->
  (forall x, desc t x m -> rangle (orient t x) = 0) -> (forall c, ~ edge t m c) ->
  exists q, reduce_weighted_to_sequence orth0 t st0 sl l ws = Ok [q] /\ rb0 q = rb0 (orient t m).
Proof.
  intros Hlen Hin Hown HZ HL.
  assert (Dm : dlist t m = []).
  { destruct (dlist t m) as [|d dl] eqn:E; auto. exfalso.
    assert (Hd : In d (dlist t m)) by (rewrite E; left; auto). apply (dlist_in n t r W) in Hd.
    assert (exists c, edge t m c) as (c & Hc); [|apply (HL c Hc)]. clear - Hd. induction Hd; eauto. }
  assert (SQ : forall k, ps_seq (p2 t sl own orth0 (seq 0 k)) = []).
  { induction k; [reflexivity|]. rewrite seq_S. unfold p2. rewrite fold_left_snoc. fold (p2 t sl own orth0 (seq 0 k)).
    set (g := p2 t sl own orth0 (seq 0 k)) in *. destruct (one_all k) as (K1 & K2 & _). fold g in K1, K2.
    unfold p2step. destruct (nl_path k) as [E|(x & E & Hx & Lx & Px)]; simpl Nat.add; rewrite E; auto.
    pose proof (wt_one x Px) as Wx.
    assert (Ex : ps_pt g x = scaled t own x) by (apply K2; auto; lra).
    destruct (level_rot_single (ps_pt g) x Hx Wx Ex) as (_ & Na & _).
    replace (flat_map (dlist t) [x]) with (dlist t x) by (simpl; rewrite app_nil_r; auto).
    destruct Px as [->|D]; [rewrite Dm; auto|].
    destruct (dlist t x); cbn [ps_seq]; auto. rewrite Na, (HZ x D). destruct (Req_EM_T 0 0); [auto|lra]. }
  destruct (reduce_pure n t r W Hn NA sl SL own orth0 st0 l ws Hlen Hin Hown) as [E _].
  { intros k Hk _. apply one_fine. apply one_all. }
  destruct (one_all (S (maxlvl t sl))) as (_ & _ & K3).
  destruct K3 as (pt & Epm & EL & _); [pose proof (maxlvl_ge m Hm); lia|].
  rewrite EL, SQ in E. eexists. split; [exact E|].
  apply (level_rot_single pt m Hm); auto. apply wt_one; auto.
Qed.
(** A weighted node with children: its rotation is appended twice. *)
Lemma single_repeats st0 l ws c p :
  length l = length ws -> (forall x, In x l -> In x (ids t)) ->
  (forall y, own y = own_of (combine l ws) y) ->
  edge t m c -> edge t p m -> dirn t p <> dirn t m -> exact_pair (dirn t p) (dirn t m) ->
  exists s new, reduce_weighted_to_sequence orth0 t st0 sl l ws = Ok (s ++ [new; new]) /\
    rb0 new <> end_of new.
Proof.
  intros Hlen Hin Hown Hc Hp ND HE.
  destruct (reduce_pure n t r W Hn NA sl SL own orth0 st0 l ws Hlen Hin Hown) as [E _].
  { intros k Hk _. apply one_fine. apply one_all. }
  destruct (one_all (S (maxlvl t sl))) as (_ & _ & K3).
  destruct K3 as (pt & Epm & EL & K3); [pose proof (maxlvl_ge m Hm); lia|].
  rewrite EL in E. assert (Wm : wt m = 1) by (apply wt_one; auto).
  destruct (level_rot_single pt m Hm Wm Epm) as (N0 & Na & N1).
  destruct (orient_spec n t r W Hn NA m Hm) as (_ & Oo & O0 & _ & Oe).
  rewrite (par_edge n t r W p m Hp) in *. specialize (Oe HE).
  set (new := level_rot orth0 pt [m]) in *.
  assert (NZ : rangle new <> 0).
  { intros Z. apply ND. rewrite Na in Z. rewrite <- Oe. unfold end_of. rewrite Z, cos_0, sin_0, O0.
    pose proof Oo as (L0 & L1 & _). rewrite O0 in L0. vext. ring. }
  destruct K3 as (s' & Es); [|auto|].
  { intros H0. assert (Hi : In c (dlist t m)) by (apply (dlist_in n t r W); constructor; auto).
    rewrite H0 in Hi. destruct Hi. }
  exists s', new. split; [rewrite E, Es, <- app_assoc; reflexivity|].
  rewrite N0, O0. replace (end_of new) with (dirn t m); auto.
  rewrite <- Oe. unfold end_of. rewrite N0, Na, N1; auto. rewrite <- Na. auto.
Qed.
End One.

(** *** No weight at all *)
Lemma all_zero_err st0 l ws :
  length l = length ws -> (forall x, In x l -> In x (ids t)) ->
  (forall y, own y = own_of (combine l ws) y) -> (forall y, In y (ids t) -> own y = 0) ->
  reduce_weighted_to_sequence orth0 t st0 sl l ws = Err EName.
Proof.
  intros Hlen Hin Hown Z.
  assert (WZ : forall y, In y (ids t) -> wt y = 0).
  { intros y Hy. unfold wsub. rewrite Z by auto.
    assert (G : forall L, (forall z, In z L -> In z (ids t)) -> rsum (map own L) = 0).
    { induction L as [|a L IH]; intros H; [reflexivity|]. cbn [map rsum fold_right].
      fold (rsum (map own L)). rewrite IH, Z; simpl; auto; [lra|apply H; simpl; auto|intros; apply H; simpl; auto]. }
    rewrite G; [lra|]. intros z Hz. apply (dlist_in n t r W) in Hz.
    apply (desc_ids n t r W) in Hz. tauto. }
  assert (NLZ : forall k, nodelevel t own sl k = []).
  { intros k. pose proof (nodelevel_in t sl SL own k) as NI.
    destruct (nodelevel t own sl k) as [|x L]; auto. exfalso.
    destruct (proj1 (NI x) (or_introl eq_refl)) as (Hx & _ & Wx). apply Wx, WZ; auto. }
  destruct (reduce_pure n t r W Hn NA sl SL own orth0 st0 l ws Hlen Hin Hown) as [E _].
  { intros k Hk _ Hne. destruct Hne. rewrite NLZ. reflexivity. }
  rewrite E. replace (p2 t sl own orth0 (seq 0 (S (maxlvl t sl)))) with (p2 t sl own orth0 []); [reflexivity|].
  generalize (seq 0 (S (maxlvl t sl))). intros L. unfold p2.
  induction L as [|a L IH] using rev_ind; [reflexivity|]. rewrite fold_left_snoc, <- IH.
  unfold p2step. rewrite NLZ. reflexivity.
Qed.

(** *** Depth one *)
Section Star.
Hypothesis STAR : forall x, In x (ids t) -> x <> r -> edge t r x.
Hypothesis EX : forall x, edge t r x -> exact_pair (dirn t r) (dirn t x).

Lemma star_succ_leaf x : In x (ids t) -> x <> r -> forall c, ~ desc t x c.
Proof.
  intros Hx N c D. destruct (desc_inv_child t x c D) as (y & Ey & _).
  pose proof (edge_ids n t r W x y Ey) as [_ Hy].
  assert (y <> r) by (intros ->; apply (no_edge_root n t r W x); auto).
  apply N. apply (rt_one_parent _ _ _ W x r y); auto.
Qed.
Lemma star_dlist x : In x (ids t) -> x <> r -> dlist t x = [].
Proof.
  intros Hx N. destruct (dlist t x) as [|c l] eqn:E; auto. exfalso.
  apply (star_succ_leaf x Hx N c). apply (dlist_in n t r W). rewrite E. simpl; auto.
Qed.
Lemma star_wt x : In x (ids t) -> x <> r -> wt x = own x.
Proof. intros Hx N. unfold wsub. rewrite star_dlist by auto. simpl. ring. Qed.
Lemma star_lvl x : In x (ids t) -> x <> r -> lvl t x = 1%nat.
Proof.
  intros Hx N. rewrite (edge_lvl n t r W r x (STAR x Hx N)), (root_lvl n t r W). auto.
Qed.
Lemma star_p1 y : In y (ids t) -> p1 t own (rev sl) y = scaled t own y.
Proof.
  intros Hy. destruct (p1_basic n t r W Hn NA sl SL own) as [_ B]. apply B; auto.
  intros x D. right; right. destruct (nid_eq_dec x r) as [->|N].
  - apply (orient_root n t r W Hn NA).
  - exfalso. apply (star_succ_leaf x) with y; auto. apply (desc_ids n t r W) in D. tauto.
Qed.
Lemma star_maxlvl : (maxlvl t sl <= 1)%nat.
Proof.
  unfold maxlvl. assert (H : forall x, In x sl -> (lvl t x <= 1)%nat).
  { intros x Hx. apply (sl_in t sl SL) in Hx. destruct (nid_eq_dec x r) as [->|N].
    - rewrite (root_lvl n t r W). lia.
    - rewrite star_lvl; auto. }
  revert H. unfold max_level. clear. induction sl as [|a l IH]; simpl; intros H; [lia|].
  pose proof (H a (or_introl eq_refl)). assert (forall x, In x l -> (lvl t x <= 1)%nat) by auto.
  specialize (IH H1). lia.
Qed.
Lemma star_nl0 : nodelevel t own sl 0 = if Req_EM_T (wt r) 0 then [] else [r].
Proof.
  pose proof (nodelevel_in t sl SL own 0) as NI.
  pose proof (nodelevel_nodup n t r W sl SL own 0) as ND.
  assert (U : forall x, In x (nodelevel t own sl 0) -> x = r).
  { intros x Hx. apply NI in Hx as (Hx & L & _). apply (lvl0_root n t r W Hn); auto. }
  destruct (Req_EM_T (wt r) 0) as [Z|NZ].
  - destruct (nodelevel t own sl 0) as [|x l]; auto. exfalso.
    assert (x = r) by (apply U; simpl; auto). subst x.
    assert (Hr : In r (r :: l)) by (simpl; auto). apply NI in Hr. tauto.
  - assert (Hr : In r (nodelevel t own sl 0)).
    { apply NI. split; [apply (root_in n t r W)|]. split; [apply (root_lvl n t r W)|auto]. }
    destruct (nodelevel t own sl 0) as [|x [|y l]]; [destruct Hr| |].
    + f_equal. apply U. simpl; auto.
    + exfalso. inversion ND; subst. apply H1. left.
      rewrite (U x), (U y); simpl; auto.
Qed.
Lemma star_nl1_in x : In x (nodelevel t own sl 1) <-> In x (ids t) /\ x <> r /\ own x <> 0.
Proof.
  rewrite (nodelevel_in t sl SL own 1). split.
  - intros (Hx & L & Wx). assert (x <> r) by (intros ->; rewrite (root_lvl n t r W) in L; lia).
    rewrite star_wt in Wx; auto.
  - intros (Hx & N & O). split; auto. split; [apply star_lvl; auto|]. rewrite star_wt; auto.
Qed.
Lemma flat_nil (l : list nid) : (forall x, In x l -> dlist t x = []) -> flat_map (dlist t) l = [].
Proof. induction l; simpl; intros H; auto. rewrite H, IHl; auto. Qed.

(** State after level 0: nothing but the last rotation changes. *)
Definition star_rot0 : option rotation :=
  if Req_EM_T (wt r) 0 then None
  else Some (mkRot (dirn t r) (orth0 (dirn t r)) 0).
Lemma star_level0 : exists pt,
  p2 t sl own orth0 (seq 0 1) = mkP pt [] star_rot0 /\
  forall y, In y (ids t) -> pt y = scaled t own y.
Proof.
  unfold p2; simpl. unfold p2step; simpl. rewrite star_nl0. unfold star_rot0.
  destruct (Req_EM_T (wt r) 0) as [Z|NZ].
  - exists (p1 t own (rev sl)). split; auto. apply star_p1.
  - pose proof (root_in n t r W) as Hr.
    destruct (orient_root n t r W Hn NA) as [O0 Oa].
    pose proof (scaled_ok n t r W Hn NA own r Hr) as (L0 & L1 & U0 & U1 & _).
    assert (A : rangle (scaled t own r) = 0) by (unfold scaled; simpl; rewrite Oa; ring).
    assert (S : level_sum (p1 t own (rev sl)) [r] = vzero n).
    { rewrite level_sum_one, star_p1 by auto. rewrite A. apply vscale_0. auto. }
    assert (E : level_rot orth0 (p1 t own (rev sl)) [r] = mkRot (dirn t r) (orth0 (dirn t r)) 0).
    { unfold level_rot. rewrite S, norm_vzero. cbn [hd]. rewrite star_p1 by auto.
      unfold scaled; cbn [rb0]. rewrite O0. destruct (Req_EM_T 0 0); [auto|lra]. }
    rewrite E. rewrite S, norm_vzero.
    destruct (flat_map (dlist t) [r]).
    + exists (p1 t own (rev sl)). split; auto. apply star_p1.
    + destruct (Req_EM_T 0 0); [|lra].
      eexists; split; [reflexivity|]. intros y Hy. cbn beta.
      destruct (moved t [r] y) as [x|] eqn:Em.
      * unfold moved in Em. simpl in Em. destruct (mem y (dlist t r)); [|discriminate].
        injection Em as <-. rewrite !star_p1 by auto. unfold fwd; cbn [rangle].
        destruct (Req_EM_T 0 0); [|lra]. unfold back. rewrite A, Rmult_0_r.
        apply (rrot_zero n); auto. apply (scaled_ok n t r W Hn NA); auto.
      * apply star_p1; auto.
Qed.

(** Sum of the weighted logarithms over all children. *)
Definition star_sum : vec :=
  fold_right (fun x acc => vadd (vscale (own x) (log_map (dirn t r) (dirn t x))) acc)
    (vzero n) (filter (fun x => negb (nid_eqb x r)) sl).

Lemma log_orient x : In x (ids t) -> x <> r ->
  vscale (rangle (orient t x)) (rb1 (orient t x)) = log_map (dirn t r) (dirn t x).
Proof.
  intros Hx N. pose proof (STAR x Hx N) as Ex.
  pose proof (root_in n t r W) as Hr.
  pose proof (dirn_unit n t r W r Hr) as Ur. pose proof (dirn_unit n t r W x Hx) as Ux.
  pose proof (dirn_length n t r W r Hr) as Lr. pose proof (dirn_length n t r W x Hx) as Lx.
  destruct (orient_spec n t r W Hn NA x Hx) as (Ef & Oo & O0 & Oa & _).
  rewrite (par_edge n t r W r x Ex) in *.
  unfold log_map. destruct (EX x Ex) as [Eq|Nc].
  - rewrite <- Eq. rewrite <- Eq in Oa. rewrite Oa.
    unfold unitv in Ur. rewrite Ur, acos_1.
    assert (Zp : vsub (dirn t r) (vscale 1 (dirn t r)) = vzero n) by (vext; ring).
    rewrite Zp, norm_vzero. destruct (Req_EM_T 0 0); [|lra].
    pose proof Oo as (_ & L1 & _). vext. ring.
  - unfold from_directions in Ef.
    destruct (Req_EM_T (norm (dirn t r)) 0) as [Z|_]; [discriminate|].
    destruct (Req_EM_T (norm (dirn t x)) 0) as [Z|_]; [discriminate|].
    apply unit_norm in Ur, Ux. rewrite Ur, Ux, !vdiv_1, Nc in Ef.
    destruct (Req_EM_T (norm (vsub (dirn t x) (vscale (dot (dirn t r) (dirn t x)) (dirn t r)))) 0) as [Z|NZ];
      [discriminate|]. simpl in Ef. injection Ef as Ef. rewrite <- Ef; cbn [rangle rb1].
    rewrite clamp1_id by (apply unit_dot_bounds; apply unit_norm; auto).
    vext. unfold Rdiv. ring.
Qed.

Lemma level_sum_app pt l1 l2 : level_sum pt (l1 ++ l2) = vadd (level_sum pt l1) (level_sum pt l2).
Proof.
  unfold level_sum. induction l1; simpl; auto. rewrite IHl1. vext. ring.
Qed.
Lemma star_level1 pt : (forall y, In y (ids t) -> pt y = scaled t own y) ->
  vadd (level_sum pt (nodelevel t own sl 1)) (vzero n) = star_sum.
Proof.
  intros Hpt. unfold star_sum, nodelevel.
  assert (Hs : forall x, In x sl -> In x (ids t)) by (intros; apply (sl_in t sl SL); auto).
  clear SL. induction sl as [|x l IH]; [simpl; vext; destruct i; ring|].
  assert (Hx : In x (ids t)) by (apply Hs; simpl; auto).
  assert (IH' := IH (fun z Hz => Hs z (or_intror Hz))). clear IH.
  cbn [filter]. destruct (nid_eqb x r) eqn:Er; cbn [negb].
  - apply nid_eqb_true in Er. subst x. rewrite (root_lvl n t r W). simpl. exact IH'.
  - apply nid_eqb_false in Er. rewrite star_lvl, star_wt by auto. simpl (Nat.eqb 1 1).
    cbn [andb fold_right]. destruct (Reqb (own x) 0) eqn:Eo; cbn [negb].
    + apply Reqb_true in Eo. rewrite IH', Eo. rewrite <- (log_orient x) by auto.
      pose proof (orient_ok n t r W Hn NA x Hx) as (_ & L1 & _).
      vext; [|ring].
      assert (H : (n <= length (fold_right (fun x0 acc => vadd (vscale (own x0) (log_map (dirn t r) (dirn t x0))) acc)
        (vzero n) (filter (fun x0 => negb (nid_eqb x0 r)) l)))%nat).
      { clear. induction (filter (fun x0 => negb (nid_eqb x0 r)) l); simpl; autorewrite with vlen; lia. }
      lia.
    + rewrite <- IH'. unfold level_sum; cbn [map fold_right]. rewrite Hpt by auto.
      unfold scaled at 1; cbn [rangle]. unfold scaled at 1; cbn [rb1].
      rewrite star_wt by auto. rewrite <- (log_orient x) by auto.
      pose proof (orient_ok n t r W Hn NA x Hx) as (_ & L1 & _). vext. ring.
Qed.

Lemma mean_star st0 l ws :
  length l = length ws -> (forall x, In x l -> In x (ids t)) ->
  (forall y, own y = own_of (combine l ws) y) ->
  (exists x, In x (ids t) /\ own x <> 0) ->
  get_weighted_mean orth0 t st0 sl l ws = Ok (exp_map (dirn t r) star_sum).
Proof.
  intros Hlen Hin Hown HNZ.
  pose proof (root_in n t r W) as Hr.
  pose proof (dirn_length n t r W r Hr) as Lr. pose proof (dirn_unit n t r W r Hr) as Ur.
  destruct star_level0 as (pt & E0 & Hpt).
  assert (Hnl1 : forall x, In x (nodelevel t own sl 1) -> dlist t x = []).
  { intros x Hx. apply star_nl1_in in Hx as (Hx & N & _). apply star_dlist; auto. }
  destruct (reduce_pure n t r W Hn NA sl SL own orth0 st0 l ws Hlen Hin Hown) as [E _].
  { intros k Hk _. assert (k = 0 \/ k = 1)%nat as [->| ->] by (pose proof star_maxlvl; lia).
    - intros Hne Hnz. exfalso. rewrite star_nl0 in *.
      destruct (Req_EM_T (wt r) 0); [apply Hne; reflexivity|]. apply Hnz.
      change (norm (level_sum (p1 t own (rev sl)) [r]) = 0). rewrite level_sum_one, star_p1 by auto.
      unfold scaled; cbn [rangle rb1]. destruct (orient_root n t r W Hn NA) as [_ Oa]. rewrite Oa.
      rewrite Rmult_0_l, norm_vscale, Rabs_R0. ring.
    - intros Hne _. exfalso. apply Hne. apply flat_nil; auto. }
  unfold get_weighted_mean. rewrite E. clear E.
  (* the final state *)
  assert (Fin : exists new, ps_last (p2 t sl own orth0 (seq 0 (S (maxlvl t sl)))) = Some new /\
      get_second_vector new = exp_map (dirn t r) star_sum).
  2:{ destruct Fin as (new & -> & <-). cbn [bind]. apply get_end_snoc. }
  pose proof (star_level1 pt Hpt) as S1.
  set (nl := nodelevel t own sl 1) in *.
  (* result of level 1 applied to the state after level 0 *)
  assert (Step1 : exists new, ps_last (p2step orth0 t own sl (mkP pt [] star_rot0) 1) = Some new /\
      get_second_vector new = exp_map (dirn t r) star_sum).
  { unfold p2step. fold nl. rewrite (flat_nil nl) by auto.
    destruct nl as [|x0 nl'] eqn:En.
    - (* no weighted child: the root carries weight *)
      assert (Hz : star_sum = vzero n).
      { rewrite <- S1. reflexivity. }
      assert (Wr : wt r <> 0).
      { destruct HNZ as (x & Hx & Ox). destruct (nid_eq_dec x r) as [->|N].
        - unfold wsub. assert (Z : rsum (map own (dlist t r)) = 0); [|rewrite Z; lra].
          rewrite (rsum_ext own (fun _ => 0)); [rewrite rsum_map_const; ring|].
          intros y Hy. apply (dlist_in n t r W) in Hy.
          destruct (Req_EM_T (own y) 0) as [|O]; auto. exfalso.
          assert (Hyn : In y nl); [|rewrite En in Hyn; destruct Hyn].
          apply star_nl1_in. split; [apply (desc_ids n t r W) in Hy; tauto|]. split; auto.
          intros ->. apply (desc_lvl n t r W) in Hy. lia.
        - exfalso. assert (Hyn : In x nl); [|rewrite En in Hyn; destruct Hyn].
          apply star_nl1_in. auto. }
      unfold star_rot0. destruct (Req_EM_T (wt r) 0); [contradiction|]. cbn [ps_last].
      eexists; split; [reflexivity|]. unfold exp_map. rewrite Hz, norm_vzero.
      destruct (Req_EM_T 0 0); [|lra]. unfold get_second_vector; cbn [rb0 rb1 rangle].
      rewrite (rotate_direction_eq n) by (rewrite ?OL; auto).
      apply (plane_rot_zero n); rewrite ?OL; auto.
    - rewrite <- En in *. cbn [ps_last ps_pt]. eexists; split; [reflexivity|].
      assert (Hnl : nl <> []) by (rewrite En; discriminate).
      assert (HR : forall x, In x nl -> rot_ok n (pt x) /\ rb0 (pt x) = dirn t r).
      { intros x Hx. apply star_nl1_in in Hx as (Hx & N & _). rewrite Hpt by auto.
        split; [apply (scaled_ok n t r W Hn NA); auto|]. unfold scaled; simpl.
        apply (orient_rb0 n t r W Hn NA). auto. }
      rewrite (second_of_level_rot pt nl (dirn t r) Hnl HR).
      assert (Ls : length (level_sum pt nl) = n).
      { apply fold_sum_length; auto. intros x Hx. destruct (HR x Hx) as [(_ & B & _) _]. auto. }
      assert (S2 : level_sum pt nl = star_sum).
      { rewrite <- S1. vext. ring. }
      destruct (level_rot_ok n Hn orth0 pt nl (dirn t r) Hnl HR) as (N0 & _ & _).
      unfold exp_map. rewrite <- S2.
      change (rangle (level_rot orth0 pt nl)) with (norm (level_sum pt nl)).
      destruct (Req_EM_T (norm (level_sum pt nl)) 0) as [Z|NZ]; [auto|].
      unfold end_of. rewrite N0. unfold level_rot; cbn [rb1 rangle].
      destruct (Req_EM_T (norm (level_sum pt nl)) 0); [contradiction|].
      vext. unfold Rdiv. ring. }
  destruct (Nat.eq_dec (maxlvl t sl) 1) as [M|M].
  - rewrite M. change (seq 0 2) with (seq 0 1 ++ [1%nat]). unfold p2. rewrite fold_left_snoc.
    fold (p2 t sl own orth0 (seq 0 1)). rewrite E0. exact Step1.
  - assert (M0 : maxlvl t sl = 0%nat) by (pose proof star_maxlvl; lia). rewrite M0. rewrite E0.
    assert (Em : nl = []).
    { destruct nl as [|x nl'] eqn:En; auto. assert (Hx : In x nl) by (rewrite En; simpl; auto).
      apply star_nl1_in in Hx as (Hx & N & _). pose proof (maxlvl_ge x Hx) as G.
      rewrite star_lvl in G by auto. lia. }
    unfold p2step in Step1. fold nl in Step1. rewrite Em in Step1. exact Step1.
Qed.
End Star.
End Single.
