(** Properties C83 and C84: the weights of the obstacles and the weighted convergence velocity of
    [SingularityConvergenceDynamics]. *)
Require Import Reals List Bool Lra Lia ZArith.
From Verif Require Import Base Vec Angle Pow RotModel Spec RotProofs SeqProofs TreeModel TreeSpec TreeProofs TreeReduce TreeCases PropTree
  WeightModel WeightProofs AvoidModel ProjModel PropProject PropTangent PropContact ConvModel ConvProofs RotAvoidModel RotAvoidProofs SummingProofs PropConvSeq
  SingularModel.
Import ListNotations.
Open Scope R_scope.

(** ** C83: weights by gamma *)
(** Obstacle [i] counts: when some obstacle is in contact those in contact, else those below the
    cut-off. *)
Definition relevant (cut gmin : R) (gammas : list R) (i : nat) : Prop :=
  (i < length gammas)%nat /\
  ((exists j, (j < length gammas)%nat /\ nth j gammas 0 <= gmin) /\ nth i gammas 0 <= gmin \/
   (forall j, (j < length gammas)%nat -> gmin < nth j gammas 0) /\ nth i gammas 0 < cut).

Lemma select_length {A} mask (l : list A) : length mask = length l ->
  length (mask_select mask l) = length (filter (fun b => b) mask).
Proof.
  revert l. induction mask as [|[|] m IH]; intros [|x l]; simpl; intros H; try lia; unfold mask_select in *; simpl; auto;
  specialize (IH l); lia.
Qed.
Lemma stored_length mask w : length (stored_weights mask w) = length mask.
Proof. revert w. induction mask as [|[|] m IH]; intros [|x w]; simpl; auto. Qed.
Lemma stored_sum mask w : length w = length (filter (fun b => b) mask) -> rsum (stored_weights mask w) = rsum w.
Proof.
  unfold rsum. revert w. induction mask as [|[|] m IH]; intros [|x w]; simpl; intros H; auto; try lia.
  - rewrite IH by lia. auto.
  - rewrite IH by (simpl; lia). simpl. ring.
  - rewrite IH by (simpl; lia). simpl. ring.
Qed.
Lemma stored_map (f : R -> R) mask gs i : length mask = length gs -> (i < length gs)%nat ->
  nth i (stored_weights mask (map f (mask_select mask gs))) 0 = if nth i mask false then f (nth i gs 0) else 0.
Proof.
  revert gs i. induction mask as [|b m IH]; intros [|g gs]; simpl; intros i H L; try lia.
  destruct b; unfold mask_select; simpl; fold (mask_select m gs); destruct i; auto; apply IH; lia.
Qed.
Lemma filter_count_pos {A} (p : A -> bool) l : (0 < length (filter (fun b => b) (map p l)))%nat <-> exists x, In x l /\ p x = true.
Proof.
  induction l as [|a l IH]; simpl.
  - split; [lia|intros (x & [] & _)].
  - destruct (p a) eqn:E; simpl.
    + split; [intros; exists a; auto|lia].
    + rewrite IH. split; intros (x & H & Q); [exists x; auto|]. destruct H as [->|H]; [congruence|exists x; auto].
Qed.
Lemma map_const_repeat {A B} (c : B) (l : list A) : map (fun _ => c) l = repeat c (length l).
Proof. induction l; simpl; congruence. Qed.
Lemma rsum_repeat c k : rsum (repeat c k) = INR k * c.
Proof.
  rewrite <- (repeat_length c k) at 2. rewrite <- (rsum_map_const c (repeat c k)), map_const_repeat, repeat_length. auto.
Qed.
Lemma in_nth_R x (l : list R) : In x l <-> exists i, (i < length l)%nat /\ nth i l 0 = x.
Proof.
  split; [apply In_nth|]. intros (i & L & <-). apply nth_In. auto.
Qed.
Lemma nth_map_bool (p : R -> bool) l i : (i < length l)%nat -> nth i (map p l) false = p (nth i l 0).
Proof.
  intros L. rewrite nth_indep with (d' := p 0) by (rewrite map_length; auto). apply map_nth.
Qed.
Lemma select_in mask (l : list R) x : length mask = length l -> (In x (mask_select mask l) <->
  exists i, (i < length l)%nat /\ nth i mask false = true /\ nth i l 0 = x).
Proof.
  revert l. induction mask as [|b m IH]; intros [|y l]; simpl; intros H; try lia.
  - split; [intros []|intros (i & L & _); lia].
  - specialize (IH l ltac:(lia)). unfold mask_select in *. destruct b; simpl; [split|].
    + intros [->|Hx]; [exists 0%nat; simpl; split; [lia|auto]|]. apply IH in Hx. destruct Hx as (i & L & E & N). exists (S i).
      simpl. split; [lia|auto].
    + intros ([|i] & L & E & N); simpl in *; [auto|]. right. apply IH. exists i. split; [lia|auto].
    + rewrite IH. split; [intros (i & L & E & N); exists (S i); simpl; split; [lia|auto]|].
      intros ([|i] & L & E & N); simpl in *; [discriminate|]. exists i. split; [lia|auto].
Qed.

(** The raw weight outside contact. *)
Definition raw (cut gmin : R) (p : nat) (g : R) : R := (1 / (g - gmin) - 1 / (cut - gmin)) ^ p.
Lemma raw_pos cut gmin p g : gmin < g -> g < cut -> 0 < raw cut gmin p g.
Proof.
  intros A B. apply pow_lt. unfold Rdiv. rewrite !Rmult_1_l.
  assert (/ (cut - gmin) < / (g - gmin)); [|lra]. apply Rinv_lt_contravar; [apply Rmult_lt_0_compat; lra|lra].
Qed.
Lemma raw_lt cut gmin p g h : gmin < g -> g < h -> h < cut -> (0 < p)%nat -> raw cut gmin p h < raw cut gmin p g.
Proof.
  intros A B C P. unfold raw.
  assert (D : / (h - gmin) < / (g - gmin)) by (apply Rinv_lt_contravar; [apply Rmult_lt_0_compat; lra|lra]).
  assert (E : / (cut - gmin) < / (h - gmin)) by (apply Rinv_lt_contravar; [apply Rmult_lt_0_compat; lra|lra]).
  unfold Rdiv. rewrite !Rmult_1_l. clear - D E P.
  set (a := / (g - gmin) - / (cut - gmin)). set (b := / (h - gmin) - / (cut - gmin)).
  assert (0 < b) by (unfold b; lra). assert (b < a) by (unfold a, b; lra). clearbody a b. clear D E.
  induction p as [|[|p] IH]; [lia|simpl; lra|].
  assert (b ^ S p < a ^ S p) by (apply IH; lia). assert (0 < b ^ S p) by (apply pow_lt; auto).
  change (b ^ S (S p)) with (b * b ^ S p). change (a ^ S (S p)) with (a * a ^ S p).
  apply Rle_lt_trans with (a * b ^ S p); [apply Rmult_le_compat_r; lra|apply Rmult_lt_compat_l; lra].
Qed.

(** What [compute_gamma_weights] returns. *)
Lemma gamma_weights_form cut gmin p gammas : gmin < cut ->
  (compute_gamma_weights cut gmin p gammas = None /\ forall i, ~ relevant cut gmin gammas i) \/
  exists mask f, compute_gamma_weights cut gmin p gammas = Some (mask, map f (mask_select mask gammas)) /\
    length mask = length gammas /\ (forall i, nth i mask false = true <-> relevant cut gmin gammas i) /\
    (forall i, relevant cut gmin gammas i -> 0 < f (nth i gammas 0)) /\
    (exists i, relevant cut gmin gammas i) /\ rsum (map f (mask_select mask gammas)) = 1 /\
    ((exists j, (j < length gammas)%nat /\ nth j gammas 0 <= gmin) -> forall g h, f g = f h) /\
    ((forall j, (j < length gammas)%nat -> gmin < nth j gammas 0) -> exists c, 0 < c /\ forall g, f g = raw cut gmin p g / c).
Proof.
  intros HC. unfold compute_gamma_weights.
  set (close := map (fun g => Rleb g gmin) gammas). set (k := length (filter (fun b => b) close)).
  assert (Lc : length close = length gammas) by (unfold close; apply map_length).
  destruct (0 <? k)%nat eqn:K; [apply Nat.ltb_lt in K|apply Nat.ltb_ge in K].
  - right. exists close, (fun _ => 1 / INR k).
    assert (EX : exists j, (j < length gammas)%nat /\ nth j gammas 0 <= gmin).
    { apply filter_count_pos in K. destruct K as (x & Hx & Q). apply in_nth_R in Hx. destruct Hx as (j & L & <-).
      exists j. split; auto. apply Rleb_true; auto. }
    assert (RV : forall i, nth i close false = true <-> relevant cut gmin gammas i).
    { intros i. destruct (Nat.lt_ge_cases i (length gammas)) as [L|L].
      - unfold close. rewrite nth_map_bool by auto. rewrite Rleb_true. unfold relevant. split; [intros; tauto|].
        intros [_ [[_ Q]|[Q _]]]; auto. destruct EX as (j & Lj & Gj). specialize (Q j Lj). lra.
      - rewrite nth_overflow by lia. split; [discriminate|intros [Q _]; lia]. }
    rewrite map_const_repeat, select_length by auto. fold k.
    split; auto. split; auto. split; auto. assert (0 < INR k) by (apply lt_0_INR; auto).
    split; [intros; apply Rdiv_lt_0_compat; lra|].
    split; [destruct EX as (j & Lj & Gj); exists j; split; auto; left; split; auto; exists j; auto|].
    split. { rewrite rsum_repeat. field. lra. }
    split; auto. intros Q. exfalso. destruct EX as (j & Lj & Gj). specialize (Q j Lj). lra.
  - assert (NC : forall j, (j < length gammas)%nat -> gmin < nth j gammas 0).
    { intros j L. apply Rnot_le_lt. intros Q. assert (0 < k)%nat; [|lia]. apply filter_count_pos. exists (nth j gammas 0).
      split; [apply nth_In; auto|apply Rleb_true; auto]. }
    set (near := map (fun g => Rltb g cut) gammas).
    assert (Ln : length near = length gammas) by (unfold near; apply map_length).
    assert (RV : forall i, nth i near false = true <-> relevant cut gmin gammas i).
    { intros i. destruct (Nat.lt_ge_cases i (length gammas)) as [L|L].
      - unfold near. rewrite nth_map_bool by auto. rewrite Rltb_true. unfold relevant. split; [intros; tauto|].
        intros [_ [[(j & Lj & Gj) Q]|[_ Q]]]; auto. specialize (NC j Lj). lra.
      - rewrite nth_overflow by lia. split; [discriminate|intros [Q _]; lia]. }
    destruct (mask_select near gammas) as [|g0 gs] eqn:E.
    + left. split; auto. intros i H. pose proof H as H'. apply RV in H'. destruct H as [L _].
      assert (In (nth i gammas 0) []); [|contradiction]. rewrite <- E. apply select_in; auto. exists i. auto.
    + right. rewrite <- E. set (S0 := rsum (map (raw cut gmin p) (mask_select near gammas))).
      assert (RVi : forall i, relevant cut gmin gammas i -> 0 < raw cut gmin p (nth i gammas 0)).
      { intros i H. pose proof H as H'. apply RV in H'. destruct H as [L _]. unfold near in H'. rewrite nth_map_bool in H' by auto.
        apply Rltb_true in H'. apply raw_pos; auto. }
      assert (SP : 0 < S0).
      { apply rsum_all_pos; [rewrite E; discriminate|]. intros x Hx. apply in_map_iff in Hx. destruct Hx as (g & <- & Hg).
        apply select_in in Hg; auto. destruct Hg as (i & L & M & <-). apply RVi. apply RV. auto. }
      exists near, (fun g => raw cut gmin p g / S0). split.
      { f_equal. f_equal. change (map (fun g => (1 / (g - gmin) - 1 / (cut - gmin)) ^ p) (mask_select near gammas))
          with (map (raw cut gmin p) (mask_select near gammas)). fold S0.
        rewrite (proj2 (Rltb_true 0 S0)) by auto. rewrite map_map. auto. }
      split; auto. split; auto. split; [intros; apply Rdiv_lt_0_compat; auto|].
      split. { assert (I : In g0 (mask_select near gammas)) by (rewrite E; left; auto). apply select_in in I; auto.
        destruct I as (i & L & M & _). exists i. apply RV; auto. }
      split. { rewrite <- map_map with (g := fun x => x / S0). rewrite rsum_map_div_id. fold S0. field. lra. }
      split; [intros (j & Lj & Gj); specialize (NC j Lj); lra|]. intros _. exists S0. auto.
Qed.

(** One share per obstacle: none for the obstacles that do not count, all others positive with sum
    one, equal in contact. *)
Theorem C83_shares : forall cut gmin p gammas mask w, gmin < cut ->
  compute_gamma_weights cut gmin p gammas = Some (mask, w) ->
  let shares := stored_weights mask w in
  length shares = length gammas /\ rsum shares = 1 /\
  (forall i, 0 <= nth i shares 0 <= 1 /\ (0 < nth i shares 0 <-> relevant cut gmin gammas i)) /\
  (forall i j, relevant cut gmin gammas i -> relevant cut gmin gammas j -> nth i gammas 0 <= gmin ->
     nth i shares 0 = nth j shares 0).
Proof.
  intros cut gmin p gammas mask w HC E shares.
  destruct (gamma_weights_form cut gmin p gammas HC) as [[N _]|(mask' & f & E' & L & RV & FP & EX & SU & CO & NC)]; [congruence|].
  rewrite E in E'. assert (mask = mask') by congruence. assert (w = map f (mask_select mask' gammas)) by congruence.
  clear E'. subst mask' w.
  assert (SH : forall i, relevant cut gmin gammas i -> nth i shares 0 = f (nth i gammas 0)).
  { intros i H. pose proof H as H'. apply RV in H'. destruct H as [Li _]. unfold shares. rewrite stored_map by auto.
    rewrite H'. auto. }
  assert (SZ : forall i, ~ relevant cut gmin gammas i -> nth i shares 0 = 0).
  { intros i H. destruct (Nat.lt_ge_cases i (length gammas)) as [Li|Li].
    - unfold shares. rewrite stored_map by auto. destruct (nth i mask false) eqn:Q; auto. apply RV in Q. contradiction.
    - apply nth_overflow. unfold shares. rewrite stored_length. lia. }
  assert (SS : rsum shares = 1).
  { unfold shares. rewrite stored_sum; auto. rewrite map_length. apply select_length; auto. }
  assert (NN : forall i, 0 <= nth i shares 0).
  { intros i. destruct (nth i mask false) eqn:Q.
    - apply RV in Q. rewrite SH by auto. left. auto.
    - rewrite SZ; [lra|]. intros R. apply RV in R. congruence. }
  split; [unfold shares; rewrite stored_length; auto|]. split; auto. split.
  - intros i. split; [split; auto|].
    + rewrite <- SS. destruct (Nat.lt_ge_cases i (length shares)) as [Li|Li].
      * apply rsum_ge_elem; [|apply nth_In; auto]. intros y Hy. apply in_nth_R in Hy. destruct Hy as (j & _ & <-). auto.
      * rewrite nth_overflow by auto. rewrite SS. lra.
    + split; [|intros R; rewrite SH by auto; auto]. intros P. apply RV. destruct (nth i mask false) eqn:Q; auto.
      rewrite SZ in P; [lra|]. intros R. apply RV in R. congruence.
  - intros i j Ri Rj C. rewrite !SH by auto. apply CO. exists i. destruct Ri. auto.
Qed.
(** Outside contact a nearer obstacle has the larger share. *)
Theorem C83_nearer : forall cut gmin p gammas mask w i j, gmin < cut -> (0 < p)%nat ->
  compute_gamma_weights cut gmin p gammas = Some (mask, w) ->
  (forall j, (j < length gammas)%nat -> gmin < nth j gammas 0) -> (i < length gammas)%nat -> (j < length gammas)%nat ->
  nth i gammas 0 < cut -> nth i gammas 0 < nth j gammas 0 ->
  nth j (stored_weights mask w) 0 < nth i (stored_weights mask w) 0.
Proof.
  intros cut gmin p gammas mask w i j HC HP E NCO Li Lj Ci Lt.
  assert (Ri : relevant cut gmin gammas i) by (split; auto).
  destruct (C83_shares cut gmin p gammas mask w HC E) as (_ & _ & SH & _).
  destruct (gamma_weights_form cut gmin p gammas HC) as [[N _]|(mask' & f & E' & L & RV & FP & EX & SU & CO & NC)]; [congruence|].
  rewrite E in E'. assert (mask = mask') by congruence. assert (w = map f (mask_select mask' gammas)) by congruence.
  clear E'. subst mask' w. destruct (NC NCO) as (c & Pc & Fc).
  destruct (Rlt_dec (nth j gammas 0) cut) as [Cj|Cj].
  - assert (Rj : relevant cut gmin gammas j) by (split; auto).
    pose proof Ri as Mi. pose proof Rj as Mj. apply RV in Mi, Mj.
    rewrite !stored_map by auto. rewrite Mi, Mj, !Fc. unfold Rdiv. apply Rmult_lt_compat_r; [apply Rinv_0_lt_compat; auto|].
    apply raw_lt; auto.
  - assert (NR : ~ relevant cut gmin gammas j).
    { intros [_ [[(q & Lq & Gq) _]|[_ Q]]]; [specialize (NCO q Lq); lra|contradiction]. }
    destruct (SH i) as [_ [_ Q1]]. specialize (Q1 Ri). destruct (SH j) as [[P0 _] [Q2 _]].
    destruct P0 as [P0|P0]; [exfalso; auto|]. rewrite <- P0. auto.
Qed.
Lemma classic_contact gammas gmin : (exists j, (j < length gammas)%nat /\ nth j gammas 0 <= gmin) \/
  (forall j, (j < length gammas)%nat -> gmin < nth j gammas 0).
Proof.
  induction gammas as [|g l IH]; [right; simpl; intros; lia|]. destruct (Rle_dec g gmin) as [C|C].
  - left. exists 0%nat. simpl. split; [lia|auto].
  - destruct IH as [(j & L & G)|H]; [left; exists (S j); simpl; split; [lia|auto]|].
    right. intros [|j]; simpl; intros; [lra|]. apply H. lia.
Qed.
(** No weights exactly when no obstacle counts. *)
Theorem C83_none : forall cut gmin p gammas, gmin < cut ->
  (compute_gamma_weights cut gmin p gammas = None <-> forall i, (i < length gammas)%nat -> cut <= nth i gammas 0).
Proof.
  intros cut gmin p gammas HC.
  destruct (gamma_weights_form cut gmin p gammas HC) as [[N H]|(mask' & f & E' & L & RV & FP & (i & Ri) & SU & CO & NC)].
  - split; auto. intros _ i Li. apply Rnot_lt_le. intros Q.
    destruct (classic_contact gammas gmin) as [C|C].
    + destruct C as (j & Lj & Gj). apply (H j). split; auto. left. split; auto. exists j; auto.
    + apply (H i). split; auto.
  - rewrite E'. split; [discriminate|]. intros Q. destruct Ri as [Li [[_ C]|[_ C]]]; specialize (Q i Li); lra.
Qed.
(** The shares do not fade out towards the cut-off: they sum to one until the last obstacle is at
    the cut-off. *)
Theorem C83_fade_refuted : forall cut gmin p, gmin < cut ->
  ~ (forall eps, 0 < eps -> exists delta, 0 < delta /\ forall g mask w, cut - delta < g < cut ->
       compute_gamma_weights cut gmin p [g] = Some (mask, w) -> rsum (stored_weights mask w) < eps).
Proof.
  intros cut gmin p HC H. destruct (H (1/2) ltac:(lra)) as (delta & Pd & Q).
  set (g := Rmax (cut - delta / 2) ((cut + gmin) / 2)).
  assert (G : cut - delta < g < cut) by (unfold g; split; [pose proof (Rmax_l (cut - delta / 2) ((cut + gmin) / 2)); lra|apply Rmax_lub_lt; lra]).
  destruct (compute_gamma_weights cut gmin p [g]) as [[mask w]|] eqn:E.
  - specialize (Q g mask w G E). destruct (C83_shares cut gmin p [g] mask w HC E) as (_ & S1 & _). lra.
  - rewrite (C83_none cut gmin p [g] HC) in E. specialize (E 0%nat). simpl in E. specialize (E ltac:(lia)). lra.
Qed.
(** Non-vacuity: obstacles at gamma 2, 20 and 4 with the defaults of the code. *)
Example C83_example : exists w,
  compute_gamma_weights 10 1 2 [2; 20; 4] = Some ([true; false; true], w) /\ stored_weights [true; false; true] w = [16/17; 0; 1/17] /\
  compute_gamma_weights 10 1 2 [1/2; 2; 1] = Some ([true; false; true], [1/2; 1/2]).
Proof.
  unfold compute_gamma_weights. cbn [map]. rewrite (proj2 (Rleb_false 2 1)), (proj2 (Rleb_false 20 1)), (proj2 (Rleb_false 4 1)) by lra.
  cbn [filter length Nat.ltb Nat.leb map]. rewrite (proj2 (Rltb_true 2 10)), (proj2 (Rltb_false 20 10)), (proj2 (Rltb_true 4 10)) by lra.
  unfold mask_select. cbn [combine filter fst map snd]. eexists. split; [reflexivity|]. split.
  - rewrite (proj2 (Rltb_true _ _)) by (unfold rsum; simpl; lra). cbn [stored_weights]. unfold rsum. simpl. f_equal; [|f_equal; f_equal]; field.
  - rewrite (proj2 (Rleb_true (1/2) 1)), (proj2 (Rleb_true 1 1)) by lra. cbn [filter length Nat.ltb Nat.leb repeat].
    reflexivity.
Qed.

(** ** C84: weighted convergence velocity *)
(** The mean of the directions [vs] with the weights [ws] in the tangent space at [d]. *)
Definition log_mean (n : nat) (d : vec) (ws : list R) (vs : list vec) : vec :=
  exp_map d (fold_right (fun wv acc => vadd (vscale (fst wv) (log_map d (direction (snd wv)))) acc) (vzero n) (combine ws vs)).
(** Admissible next to the initial velocity [v0]. *)
Definition beside (n : nat) (v0 v : vec) : Prop :=
  length v = n /\ norm v <> 0 /\ related (direction v0) (direction v).

Lemma star_build n t r d items : sound n t r -> node t r (mkAttrs 0 d) ->
  NoDup (map fst items) -> (forall x, In x (map fst items) -> ~ In x (ids t)) ->
  (forall x v, In (x, v) items -> length v = n /\ norm v <> 0 /\ related d (direction v)) ->
  exists t', foldM (fun t p => lift (add_node t (fst p) (snd p) (Some r) None None)) t items = Ok t' /\
    sound n t' r /\ keeps t t' /\ ids t' = ids t ++ map fst items /\
    (forall x v, In (x, v) items -> node t' x (mkAttrs 1 (direction v))) /\
    (forall u x, edge t' u x <-> edge t u x \/ (u = r /\ In x (map fst items))).
Proof.
  revert t. induction items as [|[x v] items IH]; intros t So Nr ND FR OK.
  - exists t. split; [reflexivity|]. split; auto. split; [apply keeps_refl|]. split; [simpl; rewrite app_nil_r; auto|].
    split; [intros ? ? []|]. simpl. tauto.
  - cbn [map fst] in *. inversion ND as [|? ? NI ND']; subst. destruct (OK x v (or_introl eq_refl)) as (L & N & R).
    destruct (add_node_sound n t r x v r _ So Nr ltac:(simpl; lia) N (FR x (or_introl eq_refl)) L R) as (t1 & E1 & So1 & I1 & K1 & N1 & D1 & _).
    destruct (IH t1 So1 (K1 _ _ Nr) ND') as (t' & E' & So' & K' & I' & N' & D').
    { intros y Hy. rewrite I1, in_app_iff. intros [H|[H|[]]]; [apply (FR y (or_intror Hy) H)|subst; contradiction]. }
    { intros y u H. apply (OK y u). right. auto. }
    exists t'. split; [cbn [foldM fst snd]; rewrite E1; cbn [lift bind]; exact E'|]. split; auto.
    split; [eapply keeps_trans; eauto|]. split; [rewrite I', I1, <- app_assoc; auto|].
    split.
    + intros y u [H|H]; [injection H as <- <-; apply K'; exact N1|apply N'; auto].
    + intros u y. rewrite D', D1. split; [intros [[H|[H1 H2]]|[H1 H2]]; subst; simpl; auto|]. intros [H|[H1 [H2|H2]]]; subst; auto.
Qed.

(** Direct form of the mean of a star. *)
Lemma star_mean n orth0 sort v0 items ws : (2 <= n)%nat -> (forall v, length (orth0 v) = length v) -> sorts sort ->
  length v0 = n -> norm v0 <> 0 -> NoDup (map fst items) -> (forall x, In x (map fst items) -> x <> NInt (-1)) ->
  (forall x v, In (x, v) items -> beside n v0 v) -> length ws = length items -> (exists w, In w ws /\ w <> 0) ->
  exists t, (do t <- set_root empty_tree (NInt (-1)) v0;
    foldM (fun t p => lift (add_node t (fst p) (snd p) (Some (NInt (-1))) None None)) t items) = Ok t /\
    get_weighted_mean orth0 t blank (sort t) (map fst items) ws = Ok (log_mean n (direction v0) ws (map snd items)).
Proof.
  intros Hn HO HS L0 N0 ND NR OK LW NZ.
  destruct (set_root_grown n (NInt (-1)) v0 Hn L0 N0) as (t0 & E0 & [W0 NO0] & I0 & Nd0 & Ed0).
  assert (So0 : sound n t0 (NInt (-1))).
  { constructor; auto. intros p y a b Ee. exfalso. apply (Ed0 _ _ Ee). }
  destruct (star_build n t0 (NInt (-1)) (direction v0) items So0 Nd0 ND) as (t & E & So & K & I & NN & ED).
  { intros x Hx. rewrite I0. intros [H|[]]. apply (NR x); auto. }
  { intros x v H. apply (OK x v H). }
  exists t. split; [rewrite E0; exact E|]. destruct So as [W NO DI].
  assert (As : assigned t (map fst items) ws (wlookup (map fst items) ws)).
  { apply wlookup_assigned; auto; [rewrite map_length; auto|]. intros x Hx. rewrite I, in_app_iff. auto. }
  rewrite (C16_mean_around_root n t (NInt (-1)) (mkAttrs 0 (direction v0)) (sort t) orth0 blank (map fst items) ws
    (wlookup (map fst items) ws) (map (fun p => (fst p, direction (snd p))) items)); auto.
  - unfold log_mean. cbn [a_dir]. f_equal. f_equal. unfold weighted_log_sum.
    assert (G : forall l ws', NoDup (map fst l) -> length ws' = length l -> (forall x w, In (x, w) (combine (map fst l) ws') -> wlookup (map fst items) ws x = w) ->
      fold_right (fun (kd : nid * vec) acc => vadd (vscale (wlookup (map fst items) ws (fst kd)) (log_map (direction v0) (snd kd))) acc)
        (vzero n) (map (fun p => (fst p, direction (snd p))) l) =
      fold_right (fun (wv : R * vec) acc => vadd (vscale (fst wv) (log_map (direction v0) (direction (snd wv)))) acc) (vzero n) (combine ws' (map snd l))).
    { induction l as [|[x v] l IH]; intros [|w ws'] NDl Ll H; simpl in *; try lia; auto. inversion NDl; subst.
      rewrite (H x w) by auto. rewrite (IH ws') by (auto; intros; apply H; auto). auto. }
    apply G; auto. intros x w Hw. apply wlookup_in; auto.
  - apply (HS n t (NInt (-1)) W).
  - intros x b Nb Hx. pose proof (node_in_ids t x b Nb) as Hi. rewrite I, in_app_iff, I0 in Hi. apply ED.
    destruct Hi as [[H|[]]|H]; [congruence|auto].
  - rewrite map_map. simpl. auto.
  - intros x d. rewrite in_map_iff. split.
    + intros ([y v] & H & Hi). simpl in H. injection H as -> <-. split; [apply NR; apply in_map_iff; exists (x, v); auto|].
      exists (mkAttrs 1 (direction v)). split; auto.
    + intros [Hx (b & Nb & ->)]. pose proof (node_in_ids t x b Nb) as Hi. rewrite I, in_app_iff, I0 in Hi.
      destruct Hi as [[H|[]]|H]; [congruence|]. apply in_map_iff in H. destruct H as ([y v] & Hy & Hv). simpl in Hy. subst y.
      exists (x, v). split; auto. simpl. f_equal. rewrite (node_unique n t _ W x _ _ Nb (NN x v Hv)). auto.
  - destruct NZ as (w & Iw & Nw). destruct (In_nth _ _ 0 Iw) as (i & Li & Ei).
    exists (nth i (map fst items) (NInt 0)). rewrite (wlookup_in (map fst items) ws _ w); auto.
    rewrite <- Ei, <- combine_nth by (rewrite map_length; auto). apply nth_In. rewrite combine_length, map_length. lia.
Qed.

Lemma log_facts n d e : (2 <= n)%nat -> length d = n -> length e = n -> unitv d -> unitv e -> dot d e <> -1 ->
  length (log_map d e) = n /\ dot d (log_map d e) = 0 /\ norm (log_map d e) = acos (dot d e) /\ exp_map d (log_map d e) = e.
Proof.
  intros Hn Ld Le Ud Ue ND. destruct (from_directions_spec n d d) as (r & _ & P & B0 & _); auto using unit_norm_neq.
  { rewrite (dirof_of_unit _ Ud), Ud. lra. }
  rewrite (dirof_of_unit _ Ud) in B0. destruct P as (L0 & L1 & U0 & U1 & O). rewrite B0 in *.
  assert (B : base_ok n (mkBase d (rb1 r))) by (repeat split; auto).
  destruct (angle_in_ok n _ e Hn B Le (unit_norm_neq _ Ue)) as (a & _ & D). rewrite (dirof_of_unit _ Ue) in D.
  destruct D as [D1 D2 D3 D4 D5 _]. cbn [bs0] in *. rewrite (D5 ND) in *. auto.
Qed.
Lemma exp_facts n d a : length d = n -> length a = n -> unitv d -> dot d a = 0 ->
  length (exp_map d a) = n /\ unitv (exp_map d a) /\ dot d (exp_map d a) = cos (norm a).
Proof. exact (vector_from_angle_spec n d a). Qed.

Definition log_sum (n : nat) (d : vec) (ws : list R) (vs : list vec) : vec :=
  fold_right (fun wv acc => vadd (vscale (fst wv) (log_map d (direction (snd wv)))) acc) (vzero n) (combine ws vs).
Lemma log_sum_ok n d ws vs theta : (2 <= n)%nat -> length d = n -> unitv d -> length ws = length vs -> Forall (fun w => 0 <= w) ws ->
  (forall v, In v vs -> length v = n /\ norm v <> 0 /\ dot d (direction v) <> -1 /\ cos theta <= dot d (direction v)) -> 0 <= theta <= PI ->
  length (log_sum n d ws vs) = n /\ dot d (log_sum n d ws vs) = 0 /\ norm (log_sum n d ws vs) <= rsum ws * theta.
Proof.
  intros Hn Ld Ud. revert vs. induction ws as [|w ws IH]; intros [|v vs]; simpl; intros LL NN H T; try lia.
  - unfold log_sum, rsum. simpl. rewrite length_vzero, norm_vzero, dot_vzero_r. split; auto. split; auto. lra.
  - inversion NN; subst. destruct (IH vs) as (A & B & C); auto.
    destruct (H v (or_introl eq_refl)) as (Lv & Nv & ND & Cv).
    destruct (log_facts (length d) d (direction v)) as (L & O & N & _); auto; [rewrite <- Lv; apply dirof_length|apply dirof_unit; auto|].
    unfold log_sum in *. cbn [combine fold_right fst snd]. unfold rsum in *. cbn [fold_right].
    set (acc := fold_right _ _ _) in *.
    split; [autorewrite with vlen; lia|]. split; [autorewrite with vdot; rewrite O, B; ring|].
    eapply Rle_trans; [apply norm_triangle|]. rewrite norm_vscale, Rabs_right by (apply Rle_ge; auto). rewrite N.
    assert (acos (dot d (direction v)) <= theta) by (apply acos_le_of_cos; auto; apply unit_dot_bounds; auto; apply dirof_unit; auto).
    rewrite Rmult_plus_distr_r. apply Rplus_le_compat; auto. apply Rmult_le_compat_l; auto.
Qed.

Lemma chosen_nodup mask m : NoDup (mask_select mask (seq 0 m)).
Proof.
  generalize 0%nat. revert m. induction mask as [|b mask IH]; intros m s; [constructor|].
  destruct m; [destruct b; constructor|]. unfold mask_select in *. cbn [seq combine filter fst].
  assert (G : forall mask m s x, In x (map snd (filter fst (combine mask (seq s m)))) -> (s <= x)%nat).
  { clear. intros mask m s x H. apply in_map_iff in H. destruct H as ([b y] & <- & H). apply filter_In in H. destruct H as [H _].
    apply in_combine_r in H. apply in_seq in H. simpl. lia. }
  destruct b; cbn [map snd]; [|apply IH]. constructor; [|apply IH]. intros H. apply G in H. lia.
Qed.
Lemma filter_length_le {A} (f : A -> bool) l : (length (filter f l) <= length l)%nat.
Proof. induction l; simpl; auto. destruct (f a); simpl; lia. Qed.
Lemma map_fst_combine {A B} (l : list A) (m : list B) : length l = length m -> map fst (combine l m) = l.
Proof. revert m. induction l; intros [|y m]; simpl; intros; try lia; auto. f_equal. apply IHl. lia. Qed.
Lemma map_snd_combine {A B} (l : list A) (m : list B) : length l = length m -> map snd (combine l m) = m.
Proof. revert m. induction l; intros [|y m]; simpl; intros; try lia; auto. f_equal. apply IHl. lia. Qed.
Lemma loop_items arounds chosen vs s t : length vs = length chosen ->
  (forall j, (j < length vs)%nat -> nth (s + j) arounds (Err EIndex) = Ok (nth j vs [])) ->
  foldM (weighted_step arounds) t (combine (seq s (length chosen)) chosen) =
  foldM (fun t p => lift (add_node t (fst p) (snd p) (Some (NInt (-1))) None None)) t
    (combine (map (fun i => NInt (Z.of_nat i)) chosen) vs).
Proof.
  revert vs s t. induction chosen as [|c chosen IH]; intros [|v vs] s t; simpl; intros L H; try lia; auto.
  pose proof (H 0%nat ltac:(lia)) as H0. rewrite Nat.add_0_r in H0. rewrite H0. cbn [bind].
  destruct (lift _) as [t'|e]; cbn [bind]; auto. apply IH; [lia|]. intros j Hj. specialize (H (S j) ltac:(lia)).
  rewrite <- Nat.add_succ_comm in H. exact H.
Qed.

Section Weighted.
Variables (n : nat) (orth0 : vec -> vec) (sort : tree -> list nid).
Hypothesis Hn : (2 <= n)%nat.
Hypothesis HO : forall v, length (orth0 v) = length v.
Hypothesis HS : sorts sort.
Variables (cut gmin : R) (p : nat).
Hypothesis HC : gmin < cut.

Lemma weighted_form gammas mask w arounds vs v0 : compute_gamma_weights cut gmin p gammas = Some (mask, w) ->
  length v0 = n -> norm v0 <> 0 -> length vs = length w ->
  (forall j, (j < length vs)%nat -> nth j arounds (Err EIndex) = Ok (nth j vs [])) ->
  (forall v, In v vs -> beside n v0 v) ->
  evaluate_weighted_dynamics orth0 sort cut gmin p gammas arounds v0 = Ok (log_mean n (direction v0) w vs).
Proof.
  intros E L0 N0 LV HA HB. unfold evaluate_weighted_dynamics. rewrite E.
  destruct (gamma_weights_form cut gmin p gammas HC) as [[N _]|(mask' & f & E' & L & RV & FP & EX & SU & _)]; [congruence|].
  rewrite E in E'. assert (mask = mask') by congruence. assert (Ew : w = map f (mask_select mask' gammas)) by congruence.
  subst mask'. rewrite <- Ew in SU. set (chosen := mask_select mask (seq 0 (length gammas))).
  assert (LC : length chosen = length w).
  { rewrite Ew, map_length. unfold chosen. rewrite !select_length by (auto; rewrite seq_length; auto). auto. }
  set (items := combine (map (fun i => NInt (Z.of_nat i)) chosen) vs).
  assert (LI : length (map (fun i => NInt (Z.of_nat i)) chosen) = length vs) by (rewrite map_length; lia).
  assert (F1 : map fst items = map (fun i => NInt (Z.of_nat i)) chosen) by (unfold items; apply map_fst_combine; auto).
  assert (F2 : map snd items = vs) by (unfold items; apply map_snd_combine; auto).
  destruct (star_mean n orth0 sort v0 items w) as (t & Et & Em); auto.
  - rewrite F1. apply FinFun.Injective_map_NoDup; [|apply chosen_nodup]. intros x y H. injection H as H. lia.
  - intros x Hx. rewrite F1 in Hx. apply in_map_iff in Hx. destruct Hx as (i & <- & _). intros H. injection H as H. lia.
  - intros x v Hv. apply HB. rewrite <- F2. apply in_map_iff. exists (x, v). auto.
  - unfold items. rewrite combine_length. lia.
  - destruct w as [|x w']; [unfold rsum in SU; simpl in SU; lra|]. destruct (rsum_pos_elem (x :: w')) as (y & Iy & Py); [lra|].
    exists y. split; auto. lra.
  - destruct (set_root empty_tree (NInt (-1)) v0) as [t0|]; [|discriminate]. cbn [bind] in *.
    rewrite (loop_items arounds chosen vs 0 t0); [|lia|exact HA]. fold items. rewrite Et. cbn [bind].
    rewrite F1, F2 in Em. exact Em.
Qed.
Lemma stored_prefix : forall mask w, length w = length (filter (fun b => b) mask) ->
  (forall i j, nth j mask false = true -> (i <= j)%nat -> nth i mask false = true) ->
  stored_weights mask w = w ++ repeat 0 (length mask - length w).
Proof.
  induction mask as [|[|] m IH]; intros [|x w] L H; simpl in *; try lia; auto.
  - rewrite (IH w); [auto|lia|]. intros i j Hj Hi. apply (H (S i) (S j)); auto. lia.
  - specialize (IH []). rewrite Nat.sub_0_r in IH. rewrite (IH L); [auto|]. intros i j Hj Hi. apply (H (S i) (S j)); auto. lia.
  - exfalso. destruct (filter (fun b => b) m) as [|y ys] eqn:Ef; [simpl in L; lia|].
    assert (I : In y (filter (fun b => b) m)) by (rewrite Ef; left; auto). apply filter_In in I. destruct I as [I Y]. subst y.
    destruct (In_nth _ _ false I) as (j & Lj & Ej). specialize (H 0%nat (S j)). simpl in H.
    assert (false = true); [|discriminate]. apply H; [auto|lia].
Qed.
Lemma log_sum_zeros d k vs : Forall (fun v => length (log_map d (direction v)) = n) vs -> log_sum n d (repeat 0 k) vs = vzero n.
Proof.
  revert k. induction vs as [|v vs IH]; intros [|k] H; auto; inversion_clear H. unfold log_sum in *. cbn [repeat combine fold_right fst snd].
  rewrite IH by auto. rewrite (vscale_0 n) by auto. vext. ring.
Qed.

(** Far from every obstacle: the initial velocity. *)
Theorem C84_far : forall gammas arounds v0, (forall i, (i < length gammas)%nat -> cut <= nth i gammas 0) ->
  evaluate_weighted_dynamics orth0 sort cut gmin p gammas arounds v0 = Ok v0.
Proof.
  intros gammas arounds v0 H. unfold evaluate_weighted_dynamics. rewrite (proj2 (C83_none cut gmin p gammas HC) H). auto.
Qed.
(** Where the relevant obstacles come first in the environment: the mean over all obstacles of the
    convergence directions around them, each with the share of its obstacle. *)
Theorem C84_mean_partial : forall gammas mask w vs v0, compute_gamma_weights cut gmin p gammas = Some (mask, w) ->
  length v0 = n -> norm v0 <> 0 -> length vs = length gammas ->
  (forall i j, relevant cut gmin gammas j -> (i <= j)%nat -> relevant cut gmin gammas i) ->
  (forall i, relevant cut gmin gammas i -> beside n v0 (nth i vs [])) -> (forall v, In v vs -> length v = n) ->
  evaluate_weighted_dynamics orth0 sort cut gmin p gammas (map Ok vs) v0 =
    Ok (log_mean n (direction v0) (stored_weights mask w) vs).
Proof.
  intros gammas mask w vs v0 E L0 N0 LV PF HB HL.
  destruct (gamma_weights_form cut gmin p gammas HC) as [[N _]|(mask' & f & E' & L & RV & FP & EX & SU & _)]; [congruence|].
  rewrite E in E'. assert (mask = mask') by congruence. assert (Ew : w = map f (mask_select mask' gammas)) by congruence.
  subst mask'. clear E'.
  assert (LW : length w = length (filter (fun b => b) mask)) by (rewrite Ew, map_length; apply select_length; auto).
  assert (MP : forall i j, nth j mask false = true -> (i <= j)%nat -> nth i mask false = true).
  { intros i j Hj Hi. apply RV. apply RV in Hj. eapply PF; eauto. }
  pose proof (stored_prefix mask w LW MP) as SP.
  assert (LE : (length w <= length vs)%nat) by (rewrite LW, LV, <- L; apply filter_length_le).
  set (k := length w) in *.
  assert (IK : forall i, (i < k)%nat -> relevant cut gmin gammas i).
  { intros i Hi. destruct (C83_shares cut gmin p gammas mask w HC E) as (_ & _ & SH & _). apply (SH i).
    rewrite SP, app_nth1 by auto. assert (I : In (nth i w 0) w) by (apply nth_In; auto). rewrite Ew in I at 2.
    apply in_map_iff in I. destruct I as (g & <- & Ig). apply select_in in Ig; auto. destruct Ig as (j & _ & Mj & <-).
    apply FP. apply RV. auto. }
  rewrite (weighted_form gammas mask w (map Ok vs) (firstn k vs) v0); auto.
  - unfold log_mean. rewrite SP. do 2 f_equal. fold (log_sum n (direction v0) w (firstn k vs)).
    fold (log_sum n (direction v0) (w ++ repeat 0 (length mask - k)) vs).
    rewrite <- (firstn_skipn k vs) at 2.
    assert (LF : length w = length (firstn k vs)) by (rewrite firstn_length; lia).
    assert (LZ : forall v, In v vs -> length (log_map (direction v0) (direction v)) = n).
    { intros v Hv. unfold log_map. destruct (Req_EM_T _ 0); autorewrite with vlen; unfold direction; autorewrite with vlen;
      rewrite ?L0, ?(HL v Hv); auto. lia. }
    unfold log_sum at 2. rewrite combine_app by auto. rewrite fold_right_app.
    fold (log_sum n (direction v0) (repeat 0 (length mask - k)) (skipn k vs)). rewrite log_sum_zeros; auto.
    apply Forall_forall. intros v Hv. apply LZ. rewrite <- (firstn_skipn k vs), in_app_iff. auto.
  - rewrite firstn_length. fold k. lia.
  - intros j Hj. rewrite firstn_length in Hj. rewrite nth_indep with (d' := Ok []) by (rewrite map_length; lia).
    rewrite map_nth. f_equal. rewrite <- (firstn_skipn k vs) at 1. rewrite app_nth1; auto. rewrite firstn_length. lia.
  - intros v Hv. destruct (In_nth _ _ [] Hv) as (j & Lj & <-). pose proof Lj as Lj'. rewrite firstn_length in Lj'.
    replace (nth j (firstn k vs) []) with (nth j vs []); [apply HB, IK; lia|].
    rewrite <- (firstn_skipn k vs) at 1. rewrite app_nth1; auto.
Qed.
(** One obstacle below the cut-off: the direction of the convergence around it. *)
Lemma log_mean_one d v : length v = n -> length d = n -> unitv d -> norm v <> 0 -> dot d (direction v) <> -1 ->
  log_mean n d [1] [v] = direction v.
Proof.
  intros Lv Ld Ud Nv ND. unfold log_mean. cbn [combine fold_right fst snd].
  destruct (log_facts n d (direction v)) as (L & O & N & B); auto; [rewrite <- Lv; apply dirof_length|apply dirof_unit; auto|].
  rewrite <- B at 2. f_equal. vext. ring.
Qed.
Theorem C84_alone : forall g v v0, g < cut -> length v0 = n -> norm v0 <> 0 -> beside n v0 v ->
  evaluate_weighted_dynamics orth0 sort cut gmin p [g] [Ok v] v0 = Ok (direction v).
Proof.
  intros g v v0 G L0 N0 B.
  destruct (compute_gamma_weights cut gmin p [g]) as [[mask w]|] eqn:E.
  - assert (LW : length w = 1%nat /\ rsum w = 1).
    { destruct (gamma_weights_form cut gmin p [g] HC) as [[N _]|(mask' & f & E' & L & RV & FP & EX & SU & _)]; [congruence|].
      rewrite E in E'. assert (mask = mask') by congruence. assert (Ew : w = map f (mask_select mask' [g])) by congruence.
      rewrite <- Ew in SU. split; auto. assert (length w <= 1)%nat.
      { rewrite Ew, map_length, select_length by auto. eapply Nat.le_trans; [apply filter_length_le|]. rewrite L. auto. }
      destruct w as [|x [|y w]]; simpl in *; auto; [|lia]. unfold rsum in SU. simpl in SU. lra. }
    destruct LW as [LW SW]. destruct w as [|x [|y w]]; simpl in LW; try lia. assert (x = 1) by (unfold rsum in SW; simpl in SW; lra). subst x.
    rewrite (weighted_form [g] mask [1] [Ok v] [v] v0); auto.
    + f_equal. destruct B as (Lv & Nv & [R _]). apply log_mean_one; auto; [rewrite <- L0; apply dirof_length|apply dirof_unit; auto].
    + intros [|j] Hj; simpl in *; [auto|lia].
    + intros u [<-|[]]. auto.
  - exfalso. rewrite (C83_none cut gmin p [g] HC) in E. specialize (E 0%nat). simpl in E. specialize (E ltac:(lia)). lra.
Qed.
(** The mean turns at most as far as the widest of the averaged directions. *)
Theorem C84_within : forall gammas vs v0 theta, (exists i, (i < length gammas)%nat /\ nth i gammas 0 < cut) ->
  length v0 = n -> norm v0 <> 0 -> length vs = length gammas ->
  (forall i j, relevant cut gmin gammas j -> (i <= j)%nat -> relevant cut gmin gammas i) ->
  (forall v, In v vs -> beside n v0 v /\ cos theta <= dot (direction v0) (direction v)) -> 0 <= theta <= PI ->
  exists u, evaluate_weighted_dynamics orth0 sort cut gmin p gammas (map Ok vs) v0 = Ok u /\
    length u = n /\ unitv u /\ cos theta <= dot (direction v0) u.
Proof.
  intros gammas vs v0 theta (i & Li & Gi) L0 N0 LV PF HB T.
  destruct (compute_gamma_weights cut gmin p gammas) as [[mask w]|] eqn:E.
  - eexists. split; [apply (C84_mean_partial gammas mask w vs v0 E); auto|].
    + intros j [Lj _]. apply HB. apply nth_In. lia.
    + intros v Hv. apply HB. auto.
    + destruct (C83_shares cut gmin p gammas mask w HC E) as (LS & SS & SH & _).
      destruct (log_sum_ok n (direction v0) (stored_weights mask w) vs theta) as (A & B & C); auto.
      * rewrite <- L0. apply dirof_length.
      * apply dirof_unit; auto.
      * lia.
      * apply Forall_forall. intros x Hx. apply in_nth_R in Hx. destruct Hx as (j & _ & <-). apply SH.
      * intros v Hv. destruct (HB v Hv) as [(L & N & [R _]) Q]. auto.
      * rewrite SS, Rmult_1_l in C. unfold log_mean. fold (log_sum n (direction v0) (stored_weights mask w) vs).
        destruct (exp_facts n (direction v0) (log_sum n (direction v0) (stored_weights mask w) vs)) as (X1 & X2 & X3); auto.
        -- rewrite <- L0. apply dirof_length.
        -- apply dirof_unit; auto.
        -- split; auto. split; auto. rewrite X3. pose proof (norm_nonneg (log_sum n (direction v0) (stored_weights mask w) vs)).
           destruct C as [C|C]; [left; apply cos_decreasing_1; lra|rewrite C; lra].
  - exfalso. rewrite (C83_none cut gmin p gammas HC) in E. specialize (E i Li). lra.
Qed.
(** A vanishing velocity around the first obstacle is rejected. *)
Theorem C84_standstill : forall gammas arounds v v0, (exists i, (i < length gammas)%nat /\ nth i gammas 0 < cut) ->
  length v0 = n -> norm v0 <> 0 -> norm v = 0 ->
  evaluate_weighted_dynamics orth0 sort cut gmin p gammas (Ok v :: arounds) v0 = Err EValue.
Proof.
  intros gammas arounds v v0 (i & Li & Gi) L0 N0 Z. unfold evaluate_weighted_dynamics.
  destruct (gamma_weights_form cut gmin p gammas HC) as [[N _]|(mask & f & E & L & RV & FP & (j & Rj) & _)].
  - rewrite (C83_none cut gmin p gammas HC) in N. specialize (N i Li). lra.
  - rewrite E. destruct (set_root_grown n (NInt (-1)) v0 Hn L0 N0) as (t0 & E0 & _). rewrite E0. cbn [bind].
    assert (LC : (0 < length (mask_select mask (seq 0 (length gammas))))%nat).
    { rewrite select_length by (rewrite seq_length; auto). rewrite <- (map_id mask).
      apply filter_count_pos. apply RV in Rj. exists true. split; auto. rewrite <- Rj. apply nth_In.
      destruct (Nat.lt_ge_cases j (length mask)); auto. rewrite nth_overflow in Rj by lia. discriminate. }
    destruct (mask_select mask (seq 0 (length gammas))) as [|c cs]; [simpl in LC; lia|].
    cbn [length seq combine foldM]. unfold weighted_step at 1. cbn [nth bind]. unfold add_node.
    destruct (Req_EM_T (norm v) 0); [|contradiction]. auto.
Qed.
End Weighted.

(** Obstacle far, obstacle near: the velocity is the one around the far obstacle; in the other
    order it is the one around the near obstacle. *)
Theorem C84_wrong_obstacle_refuted : exists gammas vs v0, forall orth0, (forall v, length (orth0 v) = length v) ->
  relevant 10 1 gammas 1 /\ ~ relevant 10 1 gammas 0 /\ (forall i, (i < 2)%nat -> beside 2 v0 (nth i vs [])) /\
  evaluate_weighted_dynamics orth0 sort_by_level 10 1 2 gammas (map Ok vs) v0 = Ok (direction (nth 0 vs [])) /\
  evaluate_weighted_dynamics orth0 sort_by_level 10 1 2 (rev gammas) (map Ok (rev vs)) v0 = Ok (direction (nth 1 vs [])) /\
  direction (nth 0 vs []) <> direction (nth 1 vs []).
Proof.
  exists [20; 1/2], [[1; 0]; [0; 1]], [1; 0]. intros orth0 HO.
  assert (U1 : unitv [1; 0]) by (unfold unitv; simpl; ring). assert (U2 : unitv [0; 1]) by (unfold unitv; simpl; ring).
  assert (D1 : direction [1; 0] = [1; 0]) by (apply direction_unitv; auto).
  assert (D2 : direction [0; 1] = [0; 1]) by (apply direction_unitv; auto).
  assert (HS : sorts sort_by_level) by (intros n t r; apply sort_by_level_sorted).
  assert (B1 : beside 2 [1; 0] [1; 0]).
  { split; auto. split; [apply unit_norm_neq; auto|]. rewrite D1. split; [simpl; lra|auto]. }
  assert (B2 : beside 2 [1; 0] [0; 1]).
  { split; auto. split; [apply unit_norm_neq; auto|]. rewrite D1, D2. split; [simpl; lra|right]. apply not_close_axis. right. split; [apply Rabs_R1|auto]. }
  split; [split; [simpl; lia|]; left; split; [exists 1%nat; simpl; split; [lia|lra]|simpl; lra]|].
  split; [intros [_ [[_ H]|[_ H]]]; simpl in H; lra|].
  split; [intros [|[|i]] Hi; simpl; auto; lia|].
  assert (C1 : compute_gamma_weights 10 1 2 [20; 1/2] = Some ([false; true], [1])).
  { unfold compute_gamma_weights. cbn [map]. rewrite (proj2 (Rleb_false 20 1)), (proj2 (Rleb_true (1/2) 1)) by lra.
    cbn. repeat f_equal. field. }
  assert (C2 : compute_gamma_weights 10 1 2 [1/2; 20] = Some ([true; false], [1])).
  { unfold compute_gamma_weights. cbn [map]. rewrite (proj2 (Rleb_false 20 1)), (proj2 (Rleb_true (1/2) 1)) by lra.
    cbn. repeat f_equal. field. }
  split; [|split].
  - rewrite (weighted_form 2 orth0 sort_by_level ltac:(lia) HO HS 10 1 2 ltac:(lra) [20; 1/2] [false; true] [1] _ [[1; 0]] [1; 0]); auto.
    + f_equal. cbn [nth]. rewrite D1 at 1. apply log_mean_one; auto; [apply unit_norm_neq; auto|rewrite D1; simpl; lra].
    + apply unit_norm_neq; auto.
    + intros [|j] Hj; simpl in *; [auto|lia].
    + intros v [<-|[]]; auto.
  - cbn [rev app]. rewrite (weighted_form 2 orth0 sort_by_level ltac:(lia) HO HS 10 1 2 ltac:(lra) [1/2; 20] [true; false] [1] _ [[0; 1]] [1; 0]); auto.
    + f_equal. cbn [nth]. rewrite D1 at 1. apply log_mean_one; auto; [apply unit_norm_neq; auto|rewrite D2; simpl; lra].
    + apply unit_norm_neq; auto.
    + intros [|j] Hj; simpl in *; [auto|lia].
    + intros v [<-|[]]; auto.
  - cbn [nth]. rewrite D1, D2. intros H. injection H as H. lra.
Qed.

(** Two obstacles in contact and a far one: halfway between the two directions. *)
Example C84_example : forall orth0, (forall v, length (orth0 v) = length v) ->
  evaluate_weighted_dynamics orth0 sort_by_level 10 1 2 [1/2; 1/2; 20] (map Ok [[0; 1]; [1; 0]; [0; -1]]) [1; 0] =
    Ok [cos (PI / 4); sin (PI / 4)].
Proof.
  intros orth0 HO.
  assert (U1 : unitv [1; 0]) by (unfold unitv; simpl; ring). assert (U2 : unitv [0; 1]) by (unfold unitv; simpl; ring).
  assert (U3 : unitv [0; -1]) by (unfold unitv; simpl; ring).
  assert (D1 : direction [1; 0] = [1; 0]) by (apply direction_unitv; auto).
  assert (D2 : direction [0; 1] = [0; 1]) by (apply direction_unitv; auto).
  assert (D3 : direction [0; -1] = [0; -1]) by (apply direction_unitv; auto).
  assert (HS : sorts sort_by_level) by (intros n t r; apply sort_by_level_sorted).
  assert (C1 : compute_gamma_weights 10 1 2 [1/2; 1/2; 20] = Some ([true; true; false], [1/2; 1/2])).
  { unfold compute_gamma_weights. cbn [map]. rewrite (proj2 (Rleb_false 20 1)), (proj2 (Rleb_true (1/2) 1)) by lra.
    cbn. repeat f_equal; field. }
  assert (NR : forall i, relevant 10 1 [1/2; 1/2; 20] i -> (i < 2)%nat).
  { intros i [L H]. destruct i as [|[|[|i]]]; simpl in *; try lia. exfalso. destruct H as [[_ H]|[_ H]]; lra. }
  rewrite (C84_mean_partial 2 orth0 sort_by_level ltac:(lia) HO HS 10 1 2 ltac:(lra) _ _ _ _ _ C1); auto.
  - f_equal. rewrite D1. cbn [stored_weights]. unfold log_mean. cbn [combine fold_right fst snd]. rewrite D1, D2, D3.
    assert (L1 : log_map [1; 0] [1; 0] = [0; 0]).
    { unfold log_map. replace (vsub [1; 0] (vscale (dot [1; 0] [1; 0]) [1; 0])) with [0; 0] by (unfold vsub, vscale; simpl; f_equal; [|f_equal]; ring).
      destruct (Req_EM_T (norm [0; 0]) 0) as [Q|Q]; auto. exfalso. apply Q. apply (norm_vzero 2). }
    assert (N2 : norm [0; 1] = 1) by (apply unit_norm; auto). assert (N3 : norm [0; -1] = 1) by (apply unit_norm; auto).
    assert (L2 : log_map [1; 0] [0; 1] = [0; PI / 2]).
    { unfold log_map. replace (vsub [0; 1] (vscale (dot [1; 0] [0; 1]) [1; 0])) with [0; 1] by (unfold vsub, vscale; simpl; f_equal; [|f_equal]; ring).
      rewrite N2. destruct (Req_EM_T 1 0); [lra|]. replace (dot [1; 0] [0; 1]) with 0 by (simpl; ring). rewrite acos_0.
      unfold vscale; simpl; f_equal; [|f_equal]; field. }
    assert (L3 : log_map [1; 0] [0; -1] = [0; - (PI / 2)]).
    { unfold log_map. replace (vsub [0; -1] (vscale (dot [1; 0] [0; -1]) [1; 0])) with [0; -1] by (unfold vsub, vscale; simpl; f_equal; [|f_equal]; ring).
      rewrite N3. destruct (Req_EM_T 1 0); [lra|]. replace (dot [1; 0] [0; -1]) with 0 by (simpl; ring). rewrite acos_0.
      unfold vscale; simpl; f_equal; [|f_equal]; field. }
    rewrite L1, L2, L3.
    match goal with |- exp_map _ ?X = _ => replace X with [0; PI / 4] by (unfold vadd, vscale; simpl; f_equal; [|f_equal]; field) end.
    unfold exp_map. pose proof PI_RGT_0.
    assert (N4 : norm [0; PI / 4] = PI / 4).
    { replace [0; PI / 4] with (vscale (PI / 4) [0; 1]) by (unfold vscale; simpl; f_equal; [|f_equal]; ring).
      rewrite norm_vscale, N2, Rabs_pos_eq; lra. }
    rewrite N4. destruct (Req_EM_T (PI / 4) 0); [lra|]. unfold vscale; simpl; f_equal; [|f_equal]; field; lra.
  - apply unit_norm_neq; auto.
  - intros i j Rj Hij. apply NR in Rj. split; [simpl; lia|]. left. split; [exists 0%nat; simpl; split; [lia|lra]|].
    destruct i as [|[|i]]; simpl; try lra; lia.
  - intros i Ri. apply NR in Ri. destruct i as [|[|i]]; [| |lia]; cbn [nth].
    + split; auto. split; [apply unit_norm_neq; auto|]. rewrite D1, D2. split; [simpl; lra|right]. apply not_close_axis. right. split; [apply Rabs_R1|auto].
    + split; auto. split; [apply unit_norm_neq; auto|]. rewrite D1. split; [simpl; lra|auto].
  - intros v [<-|[<-|[<-|[]]]]; auto.
Qed.
(** ** C129: the weight of one obstacle *)
(** For all values of gamma from zero on the weight is positive and at most one, one up to the
    surface, not larger further away and as small as wanted far away; both functions agree. *)
Theorem C129_weight g : 0 <= g ->
  0 < get_convergence_weight g <= 1 /\ (g <= 1 -> get_convergence_weight g = 1) /\
  (1 < g -> get_convergence_weight g < 1) /\
  (forall h, g <= h -> get_convergence_weight h <= get_convergence_weight g) /\
  (forall eps, 0 < eps -> / eps < g -> get_convergence_weight g < eps) /\
  plain_projected_weight g = get_convergence_weight g.
Proof.
  intros G.
  assert (K : forall y, 0 <= y -> get_convergence_weight y = if Rleb 1 y then / y else 1).
  { intros y Y. unfold get_convergence_weight. destruct (Req_EM_T y 0) as [->|N].
    - rewrite (proj2 (Rleb_false _ _)) by lra. auto.
    - unfold Rdiv. rewrite Rmult_1_l. destruct (Rleb 1 y) eqn:E.
      + apply Rleb_true in E. apply Rmin_left. rewrite <- Rinv_1. apply Rinv_le_contravar; lra.
      + apply Rleb_false in E. apply Rmin_right. rewrite <- Rinv_1 at 1. apply Rinv_le_contravar; lra. }
  assert (I : forall y, 1 <= y -> 0 < / y <= 1).
  { intros y Y. split; [apply Rinv_0_lt_compat; lra|]. rewrite <- Rinv_1. apply Rinv_le_contravar; lra. }
  assert (B : forall y, 0 <= y -> get_convergence_weight y <= 1).
  { intros y Y. rewrite K by auto. destruct (Rleb 1 y) eqn:E; [apply I, Rleb_true; auto|lra]. }
  split; [split; [|apply B; auto]|].
  { rewrite K by auto. destruct (Rleb 1 g) eqn:E; [apply I, Rleb_true; auto|lra]. }
  split.
  { intros H. rewrite K by auto. destruct (Rleb 1 g) eqn:E; auto. apply Rleb_true in E. replace g with 1 by lra. apply Rinv_1. }
  split.
  { intros H. rewrite K by auto. rewrite (proj2 (Rleb_true _ _)) by lra. rewrite <- Rinv_1. apply Rinv_lt_contravar; lra. }
  split.
  { intros h H. destruct (Rle_lt_dec 1 g) as [H1|H1].
    - rewrite !K, !(proj2 (Rleb_true _ _)) by lra. apply Rinv_le_contravar; lra.
    - rewrite (K g), (proj2 (Rleb_false 1 g)) by lra. apply B. lra. }
  split.
  - intros eps P H. assert (PE : 0 < / eps) by (apply Rinv_0_lt_compat; auto). unfold get_convergence_weight.
    destruct (Req_EM_T g 0); [lra|]. apply Rle_lt_trans with (1 / g); [apply Rmin_l|]. unfold Rdiv. rewrite Rmult_1_l.
    rewrite <- (Rinv_inv eps). apply Rinv_lt_contravar; nra.
  - unfold plain_projected_weight. rewrite K by auto. destruct (Rleb 1 g); auto. unfold Rdiv. ring.
Qed.
(** A negative gamma (as of C123) gives a negative weight. *)
Theorem C129_negative_refuted : exists g, g < 0 /\ get_convergence_weight g < 0 /\ plain_projected_weight g = 1.
Proof.
  exists (-1). split; [lra|]. split.
  - unfold get_convergence_weight. destruct (Req_EM_T (-1) 0); [lra|]. apply Rle_lt_trans with (1 / -1); [apply Rmin_l|lra].
  - unfold plain_projected_weight. rewrite (proj2 (Rleb_false _ _)) by lra. auto.
Qed.
Example C129_example : get_convergence_weight 4 = / 4 /\ get_convergence_weight (/ 4) = 1.
Proof.
  unfold get_convergence_weight. destruct (Req_EM_T 4 0); [lra|]. destruct (Req_EM_T (/ 4) 0); [lra|]. split.
  - rewrite Rmin_left by lra. lra.
  - rewrite Rmin_right by lra. auto.
Qed.
Print Assumptions C83_shares.
Print Assumptions C83_nearer.
Print Assumptions C83_none.
Print Assumptions C83_fade_refuted.
Print Assumptions C84_far.
Print Assumptions C84_mean_partial.
Print Assumptions C84_alone.
Print Assumptions C84_within.
Print Assumptions C84_standstill.
Print Assumptions C84_wrong_obstacle_refuted.
Print Assumptions C129_weight.
Print Assumptions C129_negative_refuted.
