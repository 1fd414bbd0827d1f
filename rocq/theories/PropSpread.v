(** C159: the weighted mean of a direction tree stays close to the direction of the root. *)
Require Import Reals List Lra Lia Bool ZArith Permutation.
From Verif Require Import Base Vec Angle RotModel Spec RotProofs SeqProofs TreeModel TreeSpec
  TreeProofs TreeWeights TreeReduce TreeGeom TreeCases TreeIndep TreeExample PropTree PropAroundObs.
Import ListNotations.
Open Scope R_scope.

(** *** The angle between the ends of a chain of rotations *)
Lemma end_of_dot n q : rot_ok n q -> dot (rb0 q) (end_of q) = cos (rangle q).
Proof.
  intros (_ & _ & U0 & _ & D). unfold end_of. rewrite dot_vadd_r, !dot_vscale_r.
  unfold unitv in U0. rewrite U0, D. ring.
Qed.
Lemma acos_cos_le x : 0 <= x -> acos (cos x) <= x.
Proof.
  intros H. destruct (Rle_dec x PI) as [L|L]; [rewrite acos_cos by lra; lra|].
  pose proof (acos_bound (cos x)). lra.
Qed.
Lemma acos_self u : unitv u -> acos (dot u u) = 0.
Proof. intros U. unfold unitv in U. rewrite U. exact acos_1. Qed.

Lemma chain_angle n s : forall u v, Forall (rot_ok n) s -> Forall (fun q => 0 <= rangle q) s ->
  unitv u -> chain u s v -> acos (dot u v) <= rsum (map rangle s).
Proof.
  induction s as [|q s IH]; intros u v F P U C.
  - cbn [chain] in C. subst v. rewrite acos_self by auto. cbn [map rsum fold_right]. simpl. lra.
  - cbn [chain] in C. destruct C as [E C]. inversion F; subst. inversion P; subst.
    assert (Ue : unitv (end_of q)) by (apply (end_of_unit n); auto).
    pose proof (IH _ _ H2 H4 Ue C) as B.
    assert (Uv : unitv v).
    { clear - C H2 Ue. revert C Ue. generalize (end_of q). clear q. revert H2.
      induction s as [|q s IH]; intros F w C U; [cbn [chain] in C; subst; auto|].
      inversion F; subst. cbn [chain] in C. destruct C as [_ C]. apply (IH H2 _ C).
      apply (end_of_unit n); auto. }
    pose proof (sphere_triangle (rb0 q) (end_of q) v U Ue Uv) as T.
    rewrite (end_of_dot n) in T by auto. pose proof (acos_cos_le _ H3).
    cbn [map]. change (rsum (rangle q :: map rangle s)) with (rangle q + rsum (map rangle s)). lra.
Qed.

Section Spread.
Variables (n : nat) (t : tree) (r : nid).
Hypothesis W : rooted_tree n t r.
Hypothesis Hn : (2 <= n)%nat.
Hypothesis NA : forall p x, edge t p x -> dot (dirn t p) (dirn t x) <> -1.
Variable sl : list nid.
Hypothesis SL : level_sorted t sl.
Variable own : nid -> R.
Notation wt := (wsub t own).
Hypothesis OW : forall y, In y (ids t) -> 0 <= own y.
Hypothesis TOT : wt r <= 1.
Hypothesis EX : forall p x, edge t p x -> wt x <> 0 -> exact_pair (dirn t p) (dirn t x).
Variable orth0 : vec -> vec.
Notation P2 := (p2 t sl own orth0).
Notation NL := (nodelevel t own sl).

Definition turn (x : nid) : R := rangle (orient t x) * wt x.
Definition below (k : nat) : R := rsum (map turn (filter (fun x => Nat.ltb (lvl t x) k) sl)).

Lemma turn_nonneg x : In x (ids t) -> 0 <= turn x.
Proof.
  intros H. unfold turn. destruct (orient_spec n t r W Hn NA x H) as (_ & _ & _ & -> & _).
  apply Rmult_le_pos; [apply acos_bound|]. apply (wsub_nonneg n t r W); auto.
Qed.
Lemma below_S k : below (S k) = below k + rsum (map turn (NL k)).
Proof.
  unfold below, nodelevel. induction sl as [|x l IH] in |- *; [simpl; lra|].
  cbn [filter]. destruct (Nat.ltb_spec (lvl t x) (S k)) as [L|L].
  - destruct (Nat.ltb_spec (lvl t x) k) as [L'|L'].
    + assert (Nat.eqb (lvl t x) k = false) as -> by (apply Nat.eqb_neq; lia). cbn [andb map].
      unfold rsum in *. cbn [fold_right]. lra.
    + assert (Nat.eqb (lvl t x) k = true) as -> by (apply Nat.eqb_eq; lia). cbn [andb].
      unfold Reqb at 1. unfold Reqb in IH. destruct (Req_EM_T (wsub t own x) 0) as [Z|Z]; cbn [negb map]; unfold Reqb, rsum in *; cbn [fold_right].
      * unfold turn at 1. rewrite Z. lra.
      * lra.
  - destruct (Nat.ltb_spec (lvl t x) k) as [L'|L']; [lia|].
    assert (Nat.eqb (lvl t x) k = false) as -> by (apply Nat.eqb_neq; lia). cbn [andb]. exact IH.
Qed.
Lemma NL_turn_nonneg k : 0 <= rsum (map turn (NL k)).
Proof.
  apply rsum_nonneg. intros w Hw. apply in_map_iff in Hw as (x & <- & Hx).
  apply turn_nonneg. apply (nl_in t sl SL own) in Hx. tauto.
Qed.

Lemma level_sum_norm (pt : nid -> rotation) nl :
  (forall x, In x nl -> rot_ok n (pt x) /\ rangle (pt x) = turn x /\ 0 <= turn x) ->
  norm (level_sum pt nl) <= rsum (map turn nl).
Proof.
  unfold level_sum. induction nl as [|x nl IH]; intros H.
  - cbn [map fold_right]. unfold norm, rsum. cbn [dot fold_right]. simpl. rewrite sqrt_0. lra.
  - cbn [map fold_right]. eapply Rle_trans; [apply norm_triangle|].
    destruct (H x) as (Ok1 & -> & P); [simpl; auto|].
    rewrite norm_vscale, Rabs_pos_eq by auto.
    assert (norm (rb1 (pt x)) = 1) as -> by (apply unit_norm; apply Ok1).
    assert (B := IH (fun y Hy => H y (or_intror Hy))).
    change (rsum (turn x :: map turn nl)) with (turn x + rsum (map turn nl)). lra.
Qed.

Definition spread (k : nat) (g : pstate) : Prop :=
  Forall (fun q => 0 <= rangle q) (ps_seq g) /\ rsum (map rangle (ps_seq g)) <= below k /\
  forall new, ps_last g = Some new ->
    0 <= rangle new /\
    (rsum (map rangle (ps_seq g)) + rangle new <= below k \/ exists s', ps_seq g = s' ++ [new]).

Lemma spread_step k g : p2_inv n t r sl own orth0 k g -> spread k g ->
  spread (S k) (p2step orth0 t own sl g k).
Proof.
  intros I (S1 & S2 & S3). pose proof (below_S k) as B. pose proof (NL_turn_nonneg k) as P.
  unfold p2step. destruct (NL k) as [|x0 nl'] eqn:EN.
  { split; [auto|]. split; [lra|]. intros new E. destruct (S3 new E) as [A [C|C]]; split; auto. left. lra. }
  rewrite <- EN in *. set (nl := NL k) in *. set (new := level_rot orth0 (ps_pt g) nl).
  assert (A : 0 <= rangle new <= rsum (map turn nl)).
  { unfold new, level_rot; cbn [rangle]. split; [apply norm_nonneg|]. apply level_sum_norm.
    intros x Hx. apply (nl_in t sl SL own) in Hx as (Hx & _ & _).
    destruct I as (K1 & _). destruct (K1 x Hx) as [A1 A2]. split; [auto|]. split; [exact A2|].
    apply turn_nonneg; auto. }
  destruct (flat_map (dlist t) nl) as [|d0 dl] eqn:EF.
  - cbn [ps_seq ps_last]. split; [auto|]. split; [cbn [ps_seq]; lra|]. cbn [ps_seq ps_last].
    intros q E. injection E as <-. split; [lra|]. left. lra.
  - unfold spread. cbn [ps_seq ps_last]. destruct (Req_EM_T (rangle new) 0) as [Z|NZ].
    + split; [auto|]. split; [lra|]. intros q E. injection E as <-. split; [lra|]. left. lra.
    + split; [apply Forall_app; split; [auto|constructor; [lra|constructor]]|].
      rewrite map_app, rsum_app. cbn [map]. change (rsum [rangle new]) with (rangle new + 0).
      split; [lra|]. intros q E. injection E as <-. split; [lra|]. right. eauto.
Qed.
Lemma spread_all k : spread k (P2 (seq 0 k)).
Proof.
  induction k.
  - unfold spread, p2. cbn [seq fold_left ps_seq ps_last]. split; [constructor|]. split.
    + unfold below. assert (filter (fun x => Nat.ltb (lvl t x) 0) sl = []) as ->; [|simpl; lra].
      clear. induction sl; [auto|]. cbn [filter]. destruct (Nat.ltb_spec (lvl t a) 0); [lia|auto].
    + intros; discriminate.
  - rewrite seq_S. unfold p2. rewrite fold_left_snoc. apply spread_step; [|exact IHk].
    apply p2_inv_all; auto.
Qed.

Lemma below_total k : below k <= rsum (map turn (ids t)).
Proof.
  unfold ids. rewrite <- (rsum_perm _ _ (Permutation_map turn (proj1 SL))). unfold below.
  assert (G : forall x, In x sl -> 0 <= turn x).
  { intros x Hx. apply turn_nonneg. apply (sl_in t sl SL); auto. }
  revert G. induction sl as [|x l IH] in |- *; intros G; [simpl; lra|].
  assert (B := IH (fun y Hy => G y (or_intror Hy))). pose proof (G x (or_introl eq_refl)).
  cbn [filter]. destruct (Nat.ltb (lvl t x) k); cbn [map]; unfold rsum in *; cbn [fold_right]; lra.
Qed.

(** *** Turns counted along the paths from the root *)
Variable L : nid -> R.
Hypothesis Lr : L r = 0.
Hypothesis Le : forall p x, edge t p x -> L x = L p + acos (dot (dirn t p) (dirn t x)).

Lemma turn_diff x : In x (ids t) -> turn x = wt x * (L x - L (par t x)).
Proof.
  intros H. unfold turn. destruct (orient_spec n t r W Hn NA x H) as (_ & _ & _ & -> & _).
  destruct (par_cases n t r W x H) as [->|E].
  - rewrite (par_root n t r W). rewrite acos_self by (apply (dirn_unit n t r W); auto). ring.
  - rewrite (Le _ _ E). ring.
Qed.
Lemma children_perm rest : ids t = r :: rest -> Permutation (flat_map (successors t) (ids t)) rest.
Proof.
  intros E. pose proof (rt_unique _ _ _ W) as ND. fold (ids t) in ND. apply NoDup_Permutation.
  - apply NoDup_flat_map; [auto| |].
    + intros x _. apply NoDup_successors. apply (rt_edges_unique _ _ _ W).
    + intros x y z _ _ Hx Hy. apply in_successors in Hx, Hy. eapply (rt_one_parent _ _ _ W); eauto.
  - rewrite E in ND. inversion ND; auto.
  - intros x. rewrite in_flat_map. split.
    + intros (p & _ & Hx). apply in_successors in Hx. pose proof (edge_ids n t r W p x Hx) as [_ Hi].
      rewrite E in Hi. destruct Hi as [<-|Hi]; auto. exfalso. apply (no_edge_root n t r W p); auto.
    + intros Hx. assert (Hi : In x (ids t)) by (rewrite E; simpl; auto).
      destruct (par_cases n t r W x Hi) as [->|Ep].
      * rewrite E in ND. inversion ND; contradiction.
      * exists (par t x). split; [apply (edge_ids n t r W) in Ep; tauto|]. apply in_successors; auto.
Qed.
Lemma rsum_map_ext {A} (f g : A -> R) l : (forall x, In x l -> f x = g x) -> rsum (map f l) = rsum (map g l).
Proof. intros H. f_equal. apply map_ext_in. auto. Qed.
Lemma rsum_map_minus {A} (f g : A -> R) l : rsum (map (fun x => f x - g x) l) = rsum (map f l) - rsum (map g l).
Proof. induction l; cbn [map]; unfold rsum in *; cbn [fold_right]; lra. Qed.
Lemma turns_along_paths : rsum (map turn (ids t)) = rsum (map (fun y => own y * L y) (ids t)).
Proof.
  rewrite (rsum_map_ext turn (fun x => wt x * L x - wt x * L (par t x))).
  2:{ intros x H. rewrite turn_diff by auto. ring. }
  rewrite (rsum_map_ext (fun y => own y * L y) (fun x => wt x * L x - rsum (map (fun c => wt c * L (par t c)) (successors t x)))).
  2:{ intros x H. rewrite (wsub_rec n t r W own x).
      rewrite (rsum_map_ext (fun c => wt c * L (par t c)) (fun c => L x * wt c)).
      - rewrite rsum_map_scale. ring.
      - intros c Hc. apply in_successors in Hc. rewrite (par_edge n t r W x c Hc). ring. }
  rewrite !rsum_map_minus. f_equal.
  rewrite <- (rsum_flat_map (successors t) (fun c => wt c * L (par t c)) (ids t)).
  destruct (rt_root _ _ _ W) as (a & rest & E & _).
  assert (Ei : ids t = r :: map fst rest) by (unfold ids; rewrite E; reflexivity).
  rewrite (rsum_perm _ _ (Permutation_map (fun c => wt c * L (par t c)) (children_perm _ Ei))).
  rewrite Ei. cbn [map]. rewrite (par_root n t r W), Lr. unfold rsum. cbn [fold_right]. ring.
Qed.
End Spread.

(** The sum of a function of the assigned nodes. *)
Lemma rsum_support {A} (dec : forall x y : A, {x = y} + {x <> y}) (f : A -> R) l : forall m,
  NoDup l -> NoDup m -> (forall x, In x l -> In x m) -> (forall x, In x m -> ~ In x l -> f x = 0) ->
  rsum (map f m) = rsum (map f l).
Proof.
  intros m Nl Nm I Z.
  set (inl := fun x => if in_dec dec x l then true else false).
  assert (P : Permutation (filter inl m) l).
  { apply NoDup_Permutation; [apply NoDup_filter; auto|auto|]. intros x. rewrite filter_In. unfold inl.
    destruct (in_dec dec x l); split; intros H; try tauto; try (split; auto; fail); destruct H; discriminate. }
  rewrite <- (rsum_perm _ _ (Permutation_map f P)). clear P Nm I.
  induction m as [|x m IH]; [reflexivity|]. cbn [filter map]. unfold inl at 1.
  assert (B := IH (fun y Hy => Z y (or_intror Hy))).
  destruct (in_dec dec x l) as [Hx|Hx]; cbn [map]; unfold rsum in *; cbn [fold_right].
  - rewrite B. reflexivity.
  - rewrite (Z x (or_introl eq_refl) Hx), B. ring.
Qed.

(** C159: the angle between the mean and the direction of the root is at most the sum of the weights
    times the lengths of the paths from the root; [len x] is the sum of the angles between
    consecutive directions on the path to [x]. *)
Theorem C159_spread :
  forall n t r a sl orth0 st l ws own len,
  rooted_tree n t r -> (2 <= n)%nat -> no_opposite t -> distinguishable t -> node t r a ->
  level_sorted t sl -> assigned t l ws own ->
  (forall v, length (orth0 v) = length v) ->
  (forall x, 0 <= own x) -> 0 < rsum ws <= 1 ->
  len r = 0 ->
  (forall p x b c, edge t p x -> node t p b -> node t x c ->
     len x = len p + acos (dot (a_dir b) (a_dir c))) ->
  exists mean, get_weighted_mean orth0 t st sl l ws = Ok mean /\ unitv mean /\ length mean = n /\
    acos (dot (a_dir a) mean) <= rsum (map (fun xw => snd xw * len (fst xw)) (combine l ws)).
Proof.
  intros n t r a sl orth0 st l ws own len W Hn NO DI Ha SL A OL OW [T0 T1] L0 LE.
  destruct (assigned_len _ _ _ _ A) as [HL HI].
  pose proof (total_root n t r l ws own W Hn NO A (ex_intro _ sl SL)) as TR.
  pose proof (no_opposite_dirn n t r W NO) as NA.
  assert (OWi : forall y, In y (ids t) -> 0 <= own y) by auto.
  assert (TOT : wsub t own r <= 1) by (rewrite TR; auto).
  assert (EX : forall p x, edge t p x -> wsub t own x <> 0 -> exact_pair (dirn t p) (dirn t x)).
  { intros p x Ep _. apply (distinguishable_dirn n t r W DI); auto. }
  assert (OWN : forall y, own y = own_of (combine l ws) y) by (apply assigned_own with t; auto).
  destruct (reduce_geometry n t r W Hn NA sl SL own OWi TOT EX orth0 st l ws)
    as (s & new & E & Er & Fs & Ch & UE & LEn & On & Last); auto.
  { rewrite TR. lra. }
  destruct (reduce_pure n t r W Hn NA sl SL own orth0 st l ws HL HI OWN) as [Ep _].
  { intros k Hk _. apply p2_inv_fine with (r := r); auto. apply p2_inv_all; auto. }
  set (g := p2 t sl own orth0 (seq 0 (S (maxlvl t sl)))) in *.
  pose proof (spread_all n t r W Hn NA sl SL own OWi TOT EX orth0 (S (maxlvl t sl))) as (S1 & S2 & S3).
  fold g in S1, S2, S3. rewrite Er in Ep. destruct (ps_last g) as [q|] eqn:EL; [|discriminate].
  assert (Eq : s ++ [new] = ps_seq g ++ [q]) by congruence.
  apply app_inj_tail in Eq as [-> ->]. destruct (S3 q eq_refl) as [Pq Bq].
  assert (Ur : unitv (a_dir a)).
  { rewrite <- (root_dirn n t r a W Ha). apply (dirn_unit n t r W). apply (root_in n t r W). }
  rewrite (root_dirn n t r a W Ha) in Ch.
  exists (get_second_vector q).
  split; [unfold get_weighted_mean; rewrite Er; cbn [bind]; apply get_end_snoc|].
  assert (Bt : below t sl own (S (maxlvl t sl)) <= rsum (map (fun xw => snd xw * len (fst xw)) (combine l ws))).
  { eapply Rle_trans; [apply (below_total n t r W Hn NA sl SL own OWi)|]. right.
    rewrite (turns_along_paths n t r W Hn NA own len L0).
    - destruct A as (Nl & _ & Hin & Hc & Hz).
      rewrite (rsum_support nid_eq_dec (fun y => own y * len y) l (ids t)); auto.
      + clear - Hc HL. revert ws HL Hc. induction l as [|x l IH]; intros ws HL Hc; [reflexivity|].
        destruct ws as [|w ws]; [discriminate|]. cbn [combine map fst snd]. unfold rsum in *. cbn [fold_right].
        rewrite (Hc x w) by (left; reflexivity). rewrite (IH ws); [reflexivity|simpl in HL; lia|].
        intros y v Hy. apply Hc. right. exact Hy.
      + apply (rt_unique _ _ _ W).
      + intros x _ Hx. rewrite Hz by auto. ring.
    - intros p x Ee. pose proof (edge_ids n t r W p x Ee) as [Hp Hx].
      destruct (get_dirn n t r W p Hp) as (b & _ & <- & _ & _ & _ & Nb).
      destruct (get_dirn n t r W x Hx) as (c & _ & <- & _ & _ & _ & Nc). eapply LE; eauto. }
  assert (BE : acos (dot (a_dir a) E) <= rsum (map rangle (ps_seq g))) by (apply (chain_angle n); auto).
  assert (Rep : (exists s', ps_seq g = s' ++ [q]) -> rot_ok n q -> get_second_vector q = E).
  { intros (s' & Es) Oq. rewrite (end_of_second n) by auto. rewrite Es in Ch.
    apply chain_app_inv in Ch as (u & _ & Cu). cbn [chain] in Cu. tauto. }
  destruct Last as [(E0 & E1)|(NZ & Rs & _)].
  - destruct (Req_EM_T (rangle q) 0) as [Z|NZ].
    + assert (get_second_vector q = E) as ->; [|split; [auto|split; [auto|lra]]].
      unfold get_second_vector. rewrite Z, E0, (E1 Z).
      rewrite (rotate_direction_eq n) by (rewrite ?OL; auto).
      apply (plane_rot_zero n); rewrite ?OL; auto.
    + destruct Bq as [Bq|Rs].
      * rewrite (end_of_second n) by auto.
        split; [apply (end_of_unit n); auto|]. split; [apply (end_of_length n); auto|].
        assert (C2 : chain (a_dir a) (ps_seq g ++ [q]) (end_of q)).
        { apply chain_app with E; [exact Ch|]. cbn [chain]. auto. }
        pose proof (chain_angle n (ps_seq g ++ [q]) (a_dir a) (end_of q)) as B.
        rewrite map_app, rsum_app in B. cbn [map] in B. change (rsum [rangle q]) with (rangle q + 0) in B.
        assert (acos (dot (a_dir a) (end_of q)) <= rsum (map rangle (ps_seq g)) + (rangle q + 0)); [|lra].
        apply B; auto; apply Forall_app; split; auto.
      * rewrite Rep by auto. split; [auto|split; [auto|lra]].
  - rewrite Rep by auto. split; [auto|split; [auto|lra]].
Qed.

(** Two branches: 1/4 of the weight a quarter turn, 1/2 of the weight half a turn from the root. *)
Definition exlen (x : nid) : R := if nid_eq_dec x n1 then PI / 2 else if nid_eq_dec x n2 then PI else 0.
Example C159_case : forall orth0 st, (forall v, length (orth0 v) = length v) ->
  exists mean, get_weighted_mean orth0 extree st [n0; n1; n2] [n1; n2] [1/4; 1/2] = Ok mean /\
    acos (dot e0 mean) <= 5 * PI / 8.
Proof.
  intros orth0 st OL. destruct extree_dirs as [NO DI].
  destruct (C159_spread 3 extree n0 (mkAttrs 0 e0) [n0; n1; n2] orth0 st [n1; n2] [1/4; 1/2]
    (fun x => if nid_eq_dec x n1 then 1/4 else if nid_eq_dec x n2 then 1/2 else 0) exlen) as (m & E & _ & _ & B); auto.
  - exact extree_rooted.
  - left; reflexivity.
  - exact extree_sorted.
  - exact extree_assigned.
  - intros x. destruct (nid_eq_dec x n1); [lra|]. destruct (nid_eq_dec x n2); lra.
  - simpl; lra.
  - intros p x b c Ee Hb Hc. unfold edge, extree in Ee. cbn [t_edges In] in Ee.
    assert (D01 : dot e0 e1 = 0) by (simpl; ring). assert (D12 : dot e1 e2 = 0) by (simpl; ring).
    destruct Ee as [Ee|[Ee|[]]]; injection Ee as <- <-; unfold node, extree in Hb, Hc; cbn [t_nodes In] in Hb, Hc;
      repeat (destruct Hb as [Hb|Hb]; [|]); try contradiction; try discriminate;
      repeat (destruct Hc as [Hc|Hc]; [|]); try contradiction; try discriminate;
      injection Hb as <-; injection Hc as <-; cbn [a_dir]; rewrite ?D01, ?D12, acos_0; unfold exlen; simpl; lra.
  - exists m. split; [exact E|]. eapply Rle_trans; [exact B|]. unfold exlen. simpl. lra.
Qed.

(** In particular the mean of directions equal to the root's is that direction. *)
Theorem C159_common_direction :
  forall n t r a sl orth0 st l ws own,
  rooted_tree n t r -> (2 <= n)%nat -> node t r a -> (forall x b, node t x b -> a_dir b = a_dir a) ->
  level_sorted t sl -> assigned t l ws own ->
  (forall v, length (orth0 v) = length v) ->
  (forall x, 0 <= own x) -> 0 < rsum ws <= 1 ->
  get_weighted_mean orth0 t st sl l ws = Ok (a_dir a).
Proof.
  intros n t r a sl orth0 st l ws own W Hn Ha SA SL A OL OW T.
  assert (Ua : unitv (a_dir a)) by (destruct (rt_node _ _ _ W r (Some a) Ha) as (b & E & _ & U & _); injection E as <-; auto).
  destruct (C159_spread n t r a sl orth0 st l ws own (fun _ => 0)) as (m & E & Um & Lm & B); auto.
  - intros p x b c _ Hb Hc Z. rewrite (SA p b Hb), (SA x c Hc) in Z. unfold unitv in Ua. lra.
  - intros p x b c _ Hb Hc. left. rewrite (SA p b Hb), (SA x c Hc). auto.
  - intros p x b c _ Hb Hc. rewrite (SA p b Hb), (SA x c Hc), acos_self by auto. lra.
  - rewrite E. f_equal.
    assert (Z : acos (dot (a_dir a) m) = 0).
    { pose proof (acos_bound (dot (a_dir a) m)).
      assert (rsum (map (fun xw : nid * R => snd xw * 0) (combine l ws)) = 0); [|lra].
      clear. induction (combine l ws); [reflexivity|]. unfold rsum in *. cbn [map fold_right]. lra. }
    assert (D : dot (a_dir a) m = 1).
    { pose proof (unit_dot_bounds (a_dir a) m Ua Um). rewrite <- (cos_acos (dot (a_dir a) m)) by lra. rewrite Z. apply cos_0. }
    destruct (rt_node _ _ _ W r (Some a) Ha) as (b & Eb & La & _). injection Eb as <-.
    assert (N : norm (vsub m (a_dir a)) = 0).
    { apply Rsqr_0_uniq. unfold Rsqr. rewrite norm_sq. autorewrite with vdot. unfold unitv in *. rewrite (dot_comm m (a_dir a)), Ua, Um, D. ring. }
    apply norm_zero_iff in N. clear - N La Lm.
    apply nth_ext with 0 0; [lia|]. intros i Hi.
    assert (nth i (vsub m (a_dir a)) 0 = 0).
    { rewrite N. apply nth_repeat. }
    rewrite nth_vsub in H. lra.
Qed.
Print Assumptions C159_spread.
Print Assumptions C159_common_direction.
