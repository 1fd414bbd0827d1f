(** C87-C89: the convergence sequence over the obstacles, and the velocities of
    [SingularityConvergenceDynamics]. *)
Require Import Reals List ZArith Bool Lra Lia.
From Verif Require Import Base Vec Angle Pow RotModel Spec RotProofs SeqProofs TreeModel TreeSpec TreeProofs TreeReduce TreeCases TangentProofs PropTree WeightModel WeightProofs AvoidModel PropAvoid ProjModel PropProject PropTangent PropContact PropFold ConvModel ConvProofs RotAvoidModel RotAvoidProofs PropSmooth SummingProofs PropOpposite PropAround PropConvSeq SingularModel PropAvoidSeq PropSingular PropAroundObs.
Import ListNotations.
Open Scope R_scope.

(** ** C87 *)
(** The obstacle has the weight [w]; where it is positive, its sequence leads from [b] to [e]. *)
Definition part (n : nat) (b : vec) (o : res R * res sequence) (we : R * vec) : Prop :=
  fst o = Ok (fst we) /\ (0 < fst we -> exists s, snd o = Ok s /\ passes n s b (snd we) /\
    related_path b (stops s (snd we)) /\ (length s < 92)%nat).

Fixpoint head_of (x : nid) : Z := match x with NInt z => z | NPair a _ => head_of a | NTriple a _ _ => head_of a end.
Definition oid (i : nat) : nid := NInt (Z.of_nat i).
Fixpoint chosen (k : nat) (data : list (R * vec)) : list (nid * (R * vec)) :=
  match data with
  | [] => []
  | we :: rest => if Rleb (fst we) 0 then chosen (S k) rest else (oid k, we) :: chosen (S k) rest
  end.

Lemma chosen_ids k data x : In x (map fst (chosen k data)) -> exists i, (k <= i)%nat /\ x = oid i.
Proof.
  revert k. induction data as [|we data IH]; intros k H; [destruct H|]. cbn [chosen] in H.
  destruct (Rleb (fst we) 0).
  - destruct (IH (S k) H) as (i & Hi & E). exists i. split; [lia|auto].
  - destruct H as [<-|H]; [exists k; auto|]. destruct (IH (S k) H) as (i & Hi & E). exists i. split; [lia|auto].
Qed.
Lemma chosen_nodup k data : NoDup (map fst (chosen k data)).
Proof.
  revert k. induction data as [|we data IH]; intros k; [constructor|]. cbn [chosen].
  destruct (Rleb (fst we) 0); auto. cbn [map fst]. constructor; auto. intros H. apply chosen_ids in H.
  destruct H as (i & Hi & E). injection E as E. lia.
Qed.
Lemma chosen_pos k data x we : In (x, we) (chosen k data) -> 0 < fst we.
Proof.
  revert k. induction data as [|we' data IH]; intros k H; [destruct H|]. cbn [chosen] in H.
  destruct (Rleb (fst we') 0) eqn:E; [apply (IH _ H)|]. destruct H as [H|H]; [|apply (IH _ H)].
  assert (we' = we) by congruence. subst. apply Rleb_false in E. auto.
Qed.

Section Sequence.
Variables (n : nat) (orth0 : vec -> vec) (sort : tree -> list nid).
Hypothesis Hn : (2 <= n)%nat.
Hypothesis OL : forall v, length (orth0 v) = length v.
Hypothesis SS : sorts sort.

Lemma sequence_loop b : forall obstacles data k t N W, Forall2 (part n b) obstacles data ->
  sound n t (NInt (-10)) -> node t (NInt (-10)) (mkAttrs 0 b) -> level_le 92 t ->
  (forall x, In x (ids t) -> (head_of x < Z.of_nat k)%Z) ->
  exists t', foldM sequence_step (t, N, W) (combine (seq k (length obstacles)) obstacles) =
      Ok (t', N ++ map fst (chosen k data), W ++ map (fun p => fst (snd p)) (chosen k data)) /\
    sound n t' (NInt (-10)) /\ keeps t t' /\ level_le 92 t' /\
    (forall x we, In (x, we) (chosen k data) -> exists l, node t' x (mkAttrs l (snd we))).
Proof.
  induction obstacles as [|o obstacles IH]; intros data k t N W F So Nr LL HI.
  - inversion F; subst. exists t. cbn [chosen map length seq combine foldM]. rewrite !app_nil_r.
    repeat split; auto; try apply So. intros x b'; auto. intros ? ? [].
  - inversion F as [|? we ? rest P F']; subst. destruct o as [pw sq]. destruct P as [Pw Ps]. cbn [fst snd] in Pw, Ps. subst pw.
    cbn [length seq combine foldM sequence_step bind chosen]. destruct (Rleb (fst we) 0) eqn:E.
    + destruct (IH rest (S k) t N W F' So Nr LL) as (t' & E' & X); [|exists t'; auto].
      intros x Hx. specialize (HI x Hx). lia.
    + apply Rleb_false in E. destruct (Ps E) as (s & -> & P & R & L). cbn [bind].
      destruct (add_sequence_sound n t (NInt (-10)) (oid k) s (NInt (-10)) (mkAttrs 0 b) (snd we) So Nr) as (t1 & l & E1 & So1 & I1 & K1 & N1 & El & _ & LL1); auto.
      { simpl. lia. }
      { intros H. apply HI in H. unfold oid in H. cbn [head_of] in H. lia. }
      { intros i _ H. apply HI in H. cbn [head_of oid] in H. unfold oid in H. cbn [head_of] in H. lia. }
      unfold oid in E1 at 1. rewrite E1. cbn [lift bind].
      destruct (IH rest (S k) t1 (N ++ [oid k]) (W ++ [fst we]) F' So1 (K1 _ _ Nr)) as (t' & E' & So' & K' & LL' & N').
      { apply LL1; auto. simpl. lia. }
      { intros x Hx. rewrite I1 in Hx. apply in_app_iff in Hx. destruct Hx as [Hx|Hx]; [specialize (HI x Hx); lia|].
        apply in_app_iff in Hx. destruct Hx as [Hx|[<-|[]]]; [|simpl; lia].
        unfold inter_ids in Hx. apply in_map_iff in Hx. destruct Hx as (i & <- & _). simpl. lia. }
      exists t'. split; [unfold oid in E'; rewrite E'; cbn [map fst snd]; rewrite <- !app_assoc; auto|]. split; auto.
      split; [eapply keeps_trans; eauto|]. split; auto. intros x we' [H|H]; [|eauto].
      assert (x = oid k) by congruence. assert (we' = we) by congruence. subst. eexists. apply K'. exact N1.
Qed.

(** The sum of the positive weights. *)
Definition influence (data : list (R * vec)) : R := rsum (map (fun we => Rmax 0 (fst we)) data).
Lemma chosen_sum k data : rsum (map (fun p => fst (snd p)) (chosen k data)) = influence data.
Proof.
  unfold influence. revert k. induction data as [|we data IH]; intros k; auto. cbn [chosen map].
  destruct (Rleb (fst we) 0) eqn:E.
  - apply Rleb_true in E. rewrite IH. unfold rsum. cbn [fold_right]. rewrite Rmax_left by lra. ring.
  - apply Rleb_false in E. cbn [map snd]. unfold rsum in *. cbn [fold_right]. rewrite IH, Rmax_right by lra. auto.
Qed.

(** What is averaged: the initial direction takes what the obstacles leave. *)
Definition split_weights (data : list (R * vec)) : list nid * list R :=
  let N := map fst (chosen 0 data) in
  let W := map (fun p => fst (snd p)) (chosen 0 data) in
  if Rleb 1 (influence data) then (N, map (fun w => w / influence data) W) else (N ++ [NInt (-1)], W ++ [1 - influence data]).

Lemma rsum_div c l : rsum (map (fun w => w / c) l) = rsum l / c.
Proof. induction l as [|w l IH]; unfold rsum in *; simpl; [unfold Rdiv; ring|]. rewrite IH. unfold Rdiv. ring. Qed.

Lemma sequence_form init b e obstacles data : passes n init b e -> related_path b (stops init e) -> (length init < 92)%nat ->
  Forall2 (part n b) obstacles data ->
  exists t, evaluate_weighted_dynamics_sequence orth0 sort obstacles init =
      reduce_weighted_to_sequence orth0 t blank (sort t) (fst (split_weights data)) (snd (split_weights data)) /\
    sound n t (NInt (-10)) /\ node t (NInt (-10)) (mkAttrs 0 b) /\ (exists l, node t (NInt (-1)) (mkAttrs l e)) /\ level_le 92 t /\
    (forall x we, In (x, we) (chosen 0 data) -> exists l, node t x (mkAttrs l (snd we))) /\
    NoDup (fst (split_weights data)) /\ length (fst (split_weights data)) = length (snd (split_weights data)) /\
    (forall x, In x (fst (split_weights data)) -> In x (ids t)) /\
    Forall (fun w => 0 <= w) (snd (split_weights data)) /\ rsum (snd (split_weights data)) = 1.
Proof.
  intros P R L F. unfold evaluate_weighted_dynamics_sequence.
  destruct (from_sequence_sound n (NInt (-10)) (NInt (-1)) init b e Hn P ltac:(lia) ltac:(discriminate) ltac:(discriminate) R)
    as (t0 & l0 & -> & So & I0 & Nr & Ni & El & _ & LL). cbn [bind].
  destruct (sequence_loop b obstacles data 0 t0 [] [] F So Nr) as (t & E & So' & K & LL' & Nc).
  { intros x a H. apply LL in H. lia. }
  { intros x Hx. rewrite I0 in Hx. destruct Hx as [<-|Hx]; [simpl; lia|]. apply in_app_iff in Hx.
    destruct Hx as [Hx|[<-|[]]]; [|simpl; lia]. unfold inter_ids in Hx. apply in_map_iff in Hx. destruct Hx as (i & <- & _). simpl. lia. }
  rewrite E. cbn [app bind]. rewrite chosen_sum. exists t.
  assert (IN : forall x, In x (map fst (chosen 0 data)) -> In x (ids t)).
  { intros x Hx. apply in_map_iff in Hx. destruct Hx as ([y we] & <- & Hx). destruct (Nc y we Hx) as (l & Nl). apply (node_in_ids _ _ _ Nl). }
  assert (PW : Forall (fun w => 0 < w) (map (fun p => fst (snd p)) (chosen 0 data))).
  { apply Forall_forall. intros w Hw. apply in_map_iff in Hw. destruct Hw as ([y we] & <- & Hw). apply (chosen_pos 0 data y we Hw). }
  unfold split_weights. destruct (Rleb 1 (influence data)) eqn:T; cbn [fst snd].
  - apply Rleb_true in T. split; auto. split; auto. split; auto. split; eauto. split; auto. split; auto.
    split; [apply chosen_nodup|]. split; [rewrite !map_length; auto|]. split; auto. split.
    + rewrite Forall_map. eapply Forall_impl; [|exact PW]. intros w Hw. cbv beta in *. unfold Rdiv. apply Rmult_le_pos; [lra|].
      apply Rlt_le, Rinv_0_lt_compat. lra.
    + rewrite rsum_div, chosen_sum. field. lra.
  - apply Rleb_false in T. split; auto. split; auto. split; auto. split; eauto. split; auto. split; auto.
    split.
    { apply NoDup_snoc; [apply chosen_nodup|]. intros H. apply chosen_ids in H. destruct H as (i & _ & H). injection H as H. lia. }
    split; [rewrite !app_length, !map_length; auto|]. split.
    { intros x Hx. apply in_app_iff in Hx. destruct Hx as [Hx|[<-|[]]]; auto. apply (node_in_ids _ _ _ (K _ _ Ni)). }
    split; [apply Forall_app; split; [eapply Forall_impl; [|exact PW]; intros; lra|constructor; [lra|auto]]|].
    rewrite rsum_app, chosen_sum. unfold rsum. simpl. ring.
Qed.

Lemma chosen_none k data : (forall we, In we data -> fst we <= 0) -> chosen k data = [].
Proof.
  revert k. induction data as [|we data IH]; intros k H; auto. cbn [chosen].
  rewrite (proj2 (Rleb_true (fst we) 0)) by (apply H; left; auto). apply IH. intros; apply H; right; auto.
Qed.
Lemma chosen_one data : forall i k we, nth_error data i = Some we -> 0 < fst we ->
  (forall j we', nth_error data j = Some we' -> j <> i -> fst we' <= 0) -> chosen k data = [(oid (k + i), we)].
Proof.
  induction data as [|we0 data IH]; intros i k we E P O; [destruct i; discriminate|]. destruct i as [|i]; cbn [chosen].
  - injection E as ->. rewrite (proj2 (Rleb_false (fst we) 0)) by auto. rewrite chosen_none; [rewrite Nat.add_0_r; auto|].
    intros we' I. apply In_nth_error in I. destruct I as (j & Ej). apply (O (S j) we' Ej). lia.
  - rewrite (proj2 (Rleb_true (fst we0) 0)) by (apply (O 0%nat we0 eq_refl); lia).
    rewrite (IH i (S k) we E P); [rewrite <- plus_n_Sm; auto|]. intros j we' Ej Nj. apply (O (S j) we' Ej). lia.
Qed.

(** The convergence sequence is defined, starts where all sequences start, and is a sequence of
    unit directions. Without influence it ends like the initial one; with a single obstacle of
    full weight it ends like the sequence around it. *)
Theorem C87_sequence : forall init b e obstacles data, passes n init b e -> related_path b (stops init e) -> (length init < 92)%nat ->
  Forall2 (part n b) obstacles data ->
  exists s c, evaluate_weighted_dynamics_sequence orth0 sort obstacles init = Ok s /\ passes n s b c /\ (length s <= 94)%nat /\
    ((forall we, In we data -> fst we <= 0) -> c = e) /\
    (forall i we, nth_error data i = Some we -> 1 <= fst we ->
       (forall j we', nth_error data j = Some we' -> j <> i -> fst we' <= 0) -> c = snd we).
Proof.
  intros init b e obstacles data P R L F.
  destruct (sequence_form init b e obstacles data P R L F) as (t & E & So & Nr & (li & Ni) & LL & Nc & ND & LE & IN & PW & SW).
  pose proof (wlookup_assigned t _ _ ND LE IN) as AS. pose proof (SS n t _ (so_rooted _ _ _ So)) as SL.
  destruct (reduce_passes n t (NInt (-10)) _ (sort t) orth0 blank _ _ _ So Hn Nr SL AS OL) as (s & c & Es & Ec & Ps).
  { intros x. apply wlookup_nonneg. rewrite Forall_forall in PW. exact PW. }
  { rewrite SW. lra. }
  exists s, c. rewrite E. split; auto. split; auto. split; [apply (reduce_length orth0 n t (NInt (-10)) blank (sort t) _ _ s 92 (so_rooted _ _ _ So) Es LL)|].
  assert (ONE : forall m a, node t m a -> fst (split_weights data) = [m] -> c = a_dir a).
  { intros m a Nm Ef. assert (Ew : snd (split_weights data) = [1]).
    { rewrite Ef in LE. destruct (snd (split_weights data)) as [|w [|]] eqn:Q; simpl in LE; try lia. unfold rsum in SW. simpl in SW. f_equal. lra. }
    assert (get_weighted_mean orth0 t blank (sort t) (fst (split_weights data)) (snd (split_weights data)) = Ok (a_dir a)).
    { rewrite Ef, Ew. apply (C15_full_weight_on_one_node n t (NInt (-10))); auto; try apply So.
      intros p b' Ep Np. apply (so_dist _ _ _ So p m b' a); auto. }
    congruence. }
  split.
  - intros H. apply (ONE (NInt (-1)) (mkAttrs li e) Ni). unfold split_weights. rewrite <- (chosen_sum 0), (chosen_none 0 data H). cbn [map].
    rewrite (proj2 (Rleb_false 1 (rsum []))) by (unfold rsum; simpl; lra). auto.
  - intros i we Ei W O. assert (Ch : chosen 0 data = [(oid i, we)]) by (apply (chosen_one data i 0 we Ei); auto; lra).
    destruct (Nc (oid i) we) as (l & Nl); [rewrite Ch; left; auto|].
    apply (ONE (oid i) (mkAttrs l (snd we)) Nl). unfold split_weights. rewrite <- (chosen_sum 0), Ch. cbn [map fst snd].
    rewrite (proj2 (Rleb_true 1 (rsum [fst we]))) by (unfold rsum; simpl; lra). auto.
Qed.

(** A sequence which starts elsewhere is rejected. *)
Theorem C87_unaligned : forall init b e pre data w r s post, passes n init b e -> related_path b (stops init e) -> (length init < 92)%nat ->
  Forall2 (part n b) pre data -> 0 < w -> allclose (rb0 r) b = false ->
  evaluate_weighted_dynamics_sequence orth0 sort (pre ++ (Ok w, Ok (r :: s)) :: post) init = Err EValue.
Proof.
  intros init b e pre data w r s post P R L F Hw NC. unfold evaluate_weighted_dynamics_sequence.
  destruct (from_sequence_sound n (NInt (-10)) (NInt (-1)) init b e Hn P ltac:(lia) ltac:(discriminate) ltac:(discriminate) R)
    as (t0 & l0 & -> & So & I0 & Nr & Ni & El & _ & LL). cbn [bind].
  destruct (sequence_loop b pre data 0 t0 [] [] F So Nr) as (t & E & So' & K & LL' & Nc).
  { intros x a H. apply LL in H. lia. }
  { intros x Hx. rewrite I0 in Hx. destruct Hx as [<-|Hx]; [simpl; lia|]. apply in_app_iff in Hx.
    destruct Hx as [Hx|[<-|[]]]; [|simpl; lia]. unfold inter_ids in Hx. apply in_map_iff in Hx. destruct Hx as (i & <- & _). simpl. lia. }
  rewrite app_length, seq_app, combine_app by (rewrite seq_length; auto). rewrite foldM_app, E. cbn [length seq combine foldM bind app sequence_step plus].
  rewrite (proj2 (Rleb_false w 0)) by auto. unfold add_sequence, seq_start.
  rewrite (proj2 (get_attrs_node n t _ (so_rooted _ _ _ So') _ _) (K _ _ Nr)). cbn [a_dir]. rewrite NC. auto.
Qed.

(** One obstacle of full weight with a single rotation: a single rotation. *)
Lemma single_short r0 b e w rc c : passes n [r0] b e -> related b e -> 1 <= w -> passes n [rc] b c -> related b c ->
  exists q, evaluate_weighted_dynamics_sequence orth0 sort [(Ok w, Ok [rc])] [r0] = Ok [q] /\ passes n [q] b c.
Proof.
  intros P R W Pc Rc.
  destruct (C87_sequence [r0] b e [(Ok w, Ok [rc])] [(w, c)] P (conj R I) ltac:(simpl; lia)) as (s & c' & Es & Ps & _ & _ & X).
  { constructor; [|constructor]. split; auto. intros _. exists [rc]. split; auto. split; auto. split; [split; auto; exact I|simpl; lia]. }
  assert (Ec : c' = c).
  { apply (X 0%nat (w, c) eq_refl W). intros [|[|j]] we' H Nj; [lia|discriminate|discriminate]. }
  subst c'. revert Es. unfold evaluate_weighted_dynamics_sequence.
  destruct (from_sequence_sound n (NInt (-10)) (NInt (-1)) [r0] b e Hn P ltac:(simpl; lia) ltac:(discriminate) ltac:(discriminate) (conj R I))
    as (t0 & l0 & -> & So & I0 & Nr & Ni & El & ED & LL). specialize (ED eq_refl). cbn [bind].
  destruct (add_sequence_sound n t0 (NInt (-10)) (oid 0) [rc] (NInt (-10)) (mkAttrs 0 b) c So Nr Pc) as (t1 & l & E1 & So1 & I1 & K1 & N1 & El1 & ED1 & LL1).
  { simpl. lia. } { rewrite I0. intros [H|[H|[]]]; discriminate. } { simpl. lia. } { exact (conj Rc I). }
  specialize (ED1 eq_refl).
  cbn [length seq combine foldM sequence_step bind]. rewrite (proj2 (Rleb_false w 0)) by lra. change (NInt (Z.of_nat 0)) with (oid 0). rewrite E1. cbn [lift bind app].
  assert (T : rsum [w] = w) by (unfold rsum; simpl; ring). rewrite T. rewrite (proj2 (Rleb_true 1 w)) by auto. cbn [map].
  replace (w / w) with 1 by (field; lra). intros Es.
  pose proof So1 as [W1 NO1 _]. pose proof (SS n t1 _ W1) as SL1.
  assert (ND : NoDup [oid 0]) by (constructor; [intros []|constructor]).
  assert (IN : forall x, In x [oid 0] -> In x (ids t1)) by (intros x [<-|[]]; apply (node_in_ids _ _ _ N1)).
  pose proof (wlookup_assigned t1 [oid 0] [1] ND eq_refl IN) as As.
  destruct (one_short n t1 (NInt (-10)) W1 Hn (no_opposite_dirn n t1 _ W1 NO1) (sort t1) SL1 orth0 (wlookup [oid 0] [1]) (oid 0)
     (node_in_ids _ _ _ N1)) with (st0 := blank) (l := [oid 0]) (ws := [1]) as (q & Eq & _); auto.
  { intros x D. assert (X' : x = NInt (-10)).
    { remember (oid 0) as z eqn:Ez. induction D as [z Hz|y z D IH Hz]; subst z; rewrite ED1, ED in Hz.
      - destruct Hz as [[_ H]|[-> _]]; [discriminate|auto].
      - destruct Hz as [[_ H]|[-> _]]; [discriminate|]. exfalso. clear - D W1.
        remember (NInt (-10)) as z eqn:Ez. induction D as [z Hz|y z D IH Hz]; subst z; apply (no_edge_root n t1 _ W1 _ Hz). }
    subst x. destruct (orient_spec n t1 _ W1 Hn (no_opposite_dirn n t1 _ W1 NO1) (NInt (-10)) (root_in n t1 _ W1)) as (_ & _ & _ & Ea & _).
    rewrite Ea, (par_root n t1 _ W1). unfold dirn. rewrite (proj2 (get_attrs_node n t1 _ W1 _ _) (K1 _ _ Nr)). cbn [a_dir].
    destruct (rt_node _ _ _ W1 (NInt (-10)) _ (K1 _ _ Nr)) as (a & Ea' & La & Ua & _). assert (a = mkAttrs 0 b) by congruence. subst a. cbn [a_dir] in Ua.
    rewrite Ua. apply acos_1. }
  { intros x H. rewrite ED1, ED in H. destruct H as [[H _]|[H _]]; discriminate. }
  exists q. rewrite Es in Eq. assert (s = [q]) by congruence. subst s. auto.
Qed.
End Sequence.

(** Full weight on the first obstacle; the second one has none, so its sequence is not needed. *)
Example C87_case : exists r0 rc s, passes 2 [r0] [1; 0] [0; 1] /\
  evaluate_weighted_dynamics_sequence (fun v => v) sort_by_level [(Ok 1, Ok [rc]); (Ok 0, Err ENotImpl)] [r0] = Ok s /\
  passes 2 s [1; 0] [0; -1].
Proof.
  assert (V0 : norm [1; 0] = 1) by (apply vec_norm_1; lra). assert (V1 : norm [0; 1] = 1) by (apply vec_norm_1; lra).
  assert (V2 : norm [0; -1] = 1) by (apply vec_norm_1; lra).
  destruct (axis_pair [1; 0] [0; 1] 1 0 0 1) as (r0 & _ & P0); auto; try lra; try axis; try (apply dir_unit2; lra).
  destruct (axis_pair [1; 0] [0; -1] 1 0 0 (-1)) as (rc & _ & Pc); auto; try lra; try axis; try (apply dir_unit2; lra).
  assert (SO : sorts sort_by_level) by (intros ? ? ?; apply sort_by_level_sorted).
  destruct (C87_sequence 2 (fun v => v) sort_by_level ltac:(lia) ltac:(auto) SO [r0] [1; 0] [0; 1] [(Ok 1, Ok [rc]); (Ok 0, Err ENotImpl)]
    [(1, [0; -1]); (0, [0; 0])] P0) as (s & c & E & P & _ & _ & X).
  - split; [apply related_right; [axis|lra]|exact I].
  - simpl. lia.
  - constructor; [|constructor; [|constructor]].
    + split; auto. intros _. exists [rc]. split; auto. split; auto. split; [split; [apply related_right; [axis|lra]|exact I]|simpl; lia].
    + split; auto. simpl. lra.
  - assert (Ec : c = [0; -1]).
    { apply (X 0%nat (1, [0; -1]) eq_refl); [simpl; lra|]. intros [|[|[|j]]] we' H Nj; [lia| |discriminate|discriminate].
      assert (we' = (0, [0; 0])) by (simpl in H; congruence). subst. simpl. lra. }
    subst c. exists r0, rc, s. auto.
Qed.

(** Without a singularity the sequence around an obstacle starts at its reference point, and is
    rejected even for an obstacle of tiny influence. *)
Theorem C87_plain_refuted : exists initial A x r0 init, dy_attractor initial = Some A /\ clear_of initial A r0 /\
  evaluate_dynamics_sequence x initial None = Ok (Some init) /\
  forall orth0 gamma, (forall v, length (orth0 v) = length v) -> 0 < gamma ->
  evaluate_weighted_dynamics_sequence orth0 sort_by_level [(Ok (plain_projected_weight gamma), plain_sequence_around initial x r0 init)] init = Err EValue.
Proof.
  destruct straight_scene as (S & _ & _ & D1 & D2 & _).
  assert (E1 : vsub [0; 0] [-1; 0] = [1; 0]) by (unfold vsub; simpl; f_equal; [|f_equal]; ring).
  assert (E2 : vsub [0; 0] [0; -1] = [0; 1]) by (unfold vsub; simpl; f_equal; [|f_equal]; ring).
  assert (E : dy_eval crossing [0; -1] = [-1; 0]) by (simpl; f_equal; f_equal; ring).
  assert (E' : dy_eval crossing [-1; 0] = [0; 1]) by (simpl; f_equal; f_equal; ring).
  assert (U0 : unitv [-1; 0]) by (unfold unitv; simpl; ring). assert (U2 : unitv [0; 1]) by (unfold unitv; simpl; ring).
  assert (U1 : unitv [1; 0]) by (unfold unitv; simpl; ring).
  assert (D : direction (dy_eval crossing [0; -1]) = [-1; 0]) by (rewrite E; apply direction_unitv; auto).
  assert (D' : direction (dy_eval crossing [-1; 0]) = [0; 1]) by (rewrite E'; apply direction_unitv; auto).
  assert (R1 : related [1; 0] [0; 1]) by (apply related_right; [right; split; [apply Rabs_R1|auto]|ring]).
  assert (R2 : related [0; 1] [-1; 0]).
  { apply related_right; [left; split; [auto|rewrite Rabs_left; lra]|ring]. }
  pose proof tiny_1.
  assert (LD : forall y, length y = 2%nat -> length (dy_eval crossing y) = 2%nat).
  { intros y Ly. destruct y as [|a [|b [|]]]; simpl in *; lia. }
  assert (C0 : clear_of crossing [0; 0] [0; -1]).
  { split; [rewrite E2; rewrite (proj1 (unit_norm _) U2); auto|]. split; [rewrite E, (proj1 (unit_norm _) U0); auto|]. rewrite D2, D. auto. }
  assert (C1 : clear_of crossing [0; 0] [-1; 0]).
  { split; [rewrite E1; rewrite (proj1 (unit_norm _) U1); auto|]. split; [rewrite E', (proj1 (unit_norm _) U2); auto|]. rewrite D1, D'. auto. }
  destruct (reference_sequence 2 crossing [0; 0] ltac:(lia) LD eq_refl eq_refl [-1; 0] eq_refl eq_refl C1) as (q & Eq & Pq & Q0 & Qe).
  destruct (reference_sequence 2 crossing [0; 0] ltac:(lia) LD eq_refl eq_refl [0; -1] eq_refl eq_refl C0) as (q' & Eq' & Pq' & Q0' & Qe').
  exists crossing, [0; 0], [-1; 0], [0; -1], [q]. split; auto. split; auto. split; auto.
  intros orth0 gamma HO Hg.
  assert (HS : sorts sort_by_level) by (intros ? ? ?; apply sort_by_level_sorted).
  unfold plain_sequence_around. rewrite Eq'. cbn [bind]. rewrite D1 in Q0. rewrite D2 in Q0'. rewrite D' in Qe.
  apply (C87_unaligned 2 orth0 sort_by_level ltac:(lia) [q] [1; 0] [0; 1] [] [] _ q' [] []); auto.
  - constructor; auto.
    + exists q, []. auto.
    + repeat constructor; rewrite Q0; auto.
  - split; auto. exact I.
  - simpl. lia.
  - unfold plain_projected_weight. destruct (Rleb 1 gamma); [|lra]. unfold Rdiv. rewrite Rmult_1_l. apply Rinv_0_lt_compat. auto.
  - rewrite Q0'. apply not_close_axis. left. split; auto. apply Rabs_R1.
Qed.

(** ** C88 *)
Lemma direction_scaled k v : 0 < k -> norm v <> 0 -> direction (vscale k v) = direction v.
Proof. intros K N. unfold direction, vdiv. rewrite norm_vscale, Rabs_pos_eq by lra. vext. field. split; lra. Qed.

Section Velocity.
Variables (n : nat) (orth0 orth1 : vec -> vec) (sort : tree -> list nid).
Variables (rad power : R) (tail : bool).
Variables (weights_of : list R -> list R) (relative_of : list aobs -> list R -> vec).
Variables (cut : R) (p : nat).
Hypothesis Hn : (2 <= n <= 1000)%nat.
Hypothesis OL : forall v, length (orth0 v) = length v.
Hypothesis O1 : forall v, length v = n -> norm v <> 0 ->
  length (orth1 v) = n /\ unitv (orth1 v) /\ dot (direction v) (orth1 v) = 0.
Hypothesis SS : sorts sort.
Hypothesis Hr : PI / 2 <= rad < PI.
Hypothesis Hpw : 0 <= power.
Hypothesis HC : 1 < cut.

Definition velocity (sticky : bool) (obs : list aobs) (arounds : list (res vec)) (v : vec) : res vec :=
  singular_evaluate orth0 sort (fun v0 conv => avoid_velocity orth0 orth1 sort rad power tail weights_of relative_of cut sticky v0 conv obs)
    cut 1 p (map ao_gamma obs) arounds v.

(** At rest, or far from all obstacles: the initial velocity. *)
Theorem C88_undisturbed : forall sticky obs arounds v, length v = n ->
  norm v = 0 \/ (forall o, In o obs -> cut <= ao_gamma o) -> velocity sticky obs arounds v = Ok v.
Proof.
  intros sticky obs arounds v Lv H. unfold velocity, singular_evaluate. destruct (Req_EM_T (norm v) 0) as [Z|Z]; auto.
  destruct H as [H|H]; [contradiction|].
  rewrite C84_far; auto.
  2:{ intros i Hi. rewrite map_length in Hi. rewrite (nth_indep _ 0 (ao_gamma (mkAObs 0 false [] [] [] None))) by (rewrite map_length; auto).
      rewrite map_nth. apply H. apply nth_In. auto. }
  cbn [bind]. unfold avoid_velocity, avoid.
  assert (F : filter (fun o => Rltb (ao_gamma o) cut && Rleb 1 (ao_gamma o)) (map clamp_obstacle obs) = []).
  { clear - H HC. induction obs as [|o obs IH]; auto. cbn [map filter]. pose proof (H o (or_introl eq_refl)) as Ho.
    assert (E : clamp_obstacle o = o) by (unfold clamp_obstacle; rewrite (proj2 (Rltb_false (ao_gamma o) 1)) by lra; auto).
    rewrite E, (proj2 (Rltb_false (ao_gamma o) cut)) by auto. cbn [andb]. apply IH. intros; apply H; right; auto. }
  assert (G : vscale (norm v) (vdiv v (norm v)) = v) by (unfold vdiv; vext; field; auto).
  destruct obs as [|o obs]; [cbn [bind]; rewrite G; auto|]. rewrite F. cbn [bind]. rewrite G. auto.
Qed.

Lemma contact_conv pre o rest vc arounds u : ao_gamma o <= 1 -> (forall o', In o' (pre ++ rest) -> 1 < ao_gamma o') ->
  length u = n -> norm u <> 0 -> beside n u vc ->
  evaluate_weighted_dynamics orth0 sort cut 1 p (map ao_gamma (pre ++ o :: rest)) (Ok vc :: arounds) u = Ok (direction vc).
Proof.
  intros Ho Hrest Lu Nu B. pose proof B as (Lc & Nc & [ND _]).
  assert (E : exists m, compute_gamma_weights cut 1 p (map ao_gamma (pre ++ o :: rest)) = Some (m, [1])).
  { unfold compute_gamma_weights. rewrite !map_app. cbn [map]. rewrite (proj2 (Rleb_true (ao_gamma o) 1)) by auto. rewrite filter_app. cbn [filter].
    assert (F : forall l, (forall o', In o' l -> 1 < ao_gamma o') -> filter (fun b : bool => b) (map (fun g => Rleb g 1) (map ao_gamma l)) = []).
    { clear. induction l as [|o' l IH]; intros H; auto. cbn [map filter].
      rewrite (proj2 (Rleb_false (ao_gamma o') 1)) by (apply H; left; auto). apply IH. intros; apply H; right; auto. }
    rewrite (F pre), (F rest) by (intros o' I'; apply Hrest; apply in_app_iff; auto). cbn. eexists. repeat f_equal. field. }
  destruct E as (m & E).
  rewrite (weighted_form n orth0 sort ltac:(lia) OL SS cut 1 p HC _ m [1] _ [vc] u E); auto.
  - f_equal. apply log_mean_one; auto; [lia|unfold direction; autorewrite with vlen; auto|apply dirof_unit; auto].
  - intros [|j] Hj; simpl in *; [auto|lia].
  - intros v [<-|[]]; auto.
Qed.

Lemma taken_app l m : taken cut (l ++ m) = taken cut l ++ taken cut m.
Proof. unfold taken. rewrite map_app, filter_app. auto. Qed.
Lemma taken_head o rest : ao_boundary o = false -> ao_gamma o <= 1 ->
  taken cut (o :: rest) = mkAObs 1 false (ao_normal o) (ao_second o) (ao_ref o) (ao_radius o) :: taken cut rest.
Proof.
  intros Hb Hg. unfold taken. cbn [map]. unfold clamp_obstacle at 1. rewrite Hb. destruct (Rltb (ao_gamma o) 1) eqn:E; cbn [negb andb filter ao_gamma].
  - rewrite (proj2 (Rltb_true 1 cut)), (proj2 (Rleb_true 1 1)) by lra. auto.
  - apply Rltb_false in E. assert (G : ao_gamma o = 1) by lra. rewrite G, (proj2 (Rltb_true 1 cut)), (proj2 (Rleb_true 1 1)) by lra. cbn [andb].
    destruct o as [g bd nm sc rf rd]; cbn in *. subst. auto.
Qed.
Lemma toward_clamped g b nm sc rf rd g' : toward (mkAObs g b nm sc rf rd) = toward (mkAObs g' b nm sc rf rd).
Proof. reflexivity. Qed.

(** In contact with a single obstacle in a static environment, whatever direction the first
    obstacle gives: the velocity does not point into the touched one, and keeps the speed without
    sticky surface. *)
Theorem C88_contact_partial : forall sticky pre o rest vc arounds v, let close := taken cut (pre ++ o :: rest) in
  ao_boundary o = false -> ao_gamma o <= 1 -> (forall o', In o' (pre ++ rest) -> 1 < ao_gamma o') ->
  relative_of close (weights_of (map ao_gamma close)) = vzero n ->
  length v = n -> norm v <> 0 -> beside n v vc -> one_at (length (taken cut pre)) (weights_of (map ao_gamma close)) -> dot (ao_normal o) (into o) < 0 ->
  (forall o', In o' close -> admissible n rad vc o') ->
  (forall o', In o' close -> ao_gamma o' <> 1 -> apart (direction vc) (direction v) /\ apart (direction vc) (toward o')) ->
  exists w, velocity sticky (pre ++ o :: rest) (Ok vc :: arounds) v = Ok w /\ 0 <= dot w (ao_normal o) /\
    norm w <= norm v /\ (sticky = false -> norm w = norm v).
Proof.
  intros sticky pre o rest vc arounds v close Hb Hg Hrest Rel Lv Nv B OA Hin AD AP. pose proof B as (Lc & Nc & RL).
  set (u := vdiv v (norm v)). assert (Pv : 0 < norm v) by (pose proof (norm_nonneg v); lra).
  assert (Uu : unitv u) by (apply (dirof_unit v); auto). assert (Du : direction u = direction v) by (apply (direction_unitv u); auto).
  assert (Lu : length u = n) by (unfold u, vdiv; autorewrite with vlen; auto).
  assert (Bu : beside n u vc) by (split; auto; split; auto; rewrite Du; auto).
  unfold velocity, singular_evaluate. destruct (Req_EM_T (norm v) 0); [contradiction|]. fold u.
  rewrite contact_conv by (auto using unit_norm_neq). cbn [bind].
  set (conv := vscale (norm v) (direction vc)).
  pose proof (dirof_unit vc Nc) as Uc. assert (Nd : norm (direction vc) <> 0) by (apply unit_norm_neq; auto).
  assert (Dc : direction conv = direction vc) by (unfold conv; rewrite direction_scaled by auto; apply direction_unitv; auto).
  assert (Lcv : length conv = n) by (unfold conv, direction, vdiv; autorewrite with vlen; auto).
  assert (Ncv : norm conv <> 0).
  { unfold conv. rewrite norm_vscale. apply Rmult_integral_contrapositive. split; auto. apply Rabs_no_R0. auto. }
  set (o1 := mkAObs 1 false (ao_normal o) (ao_second o) (ao_ref o) (ao_radius o)).
  assert (TK : taken cut (pre ++ o :: rest) = taken cut pre ++ o1 :: taken cut rest) by (rewrite taken_app; f_equal; apply taken_head; auto).
  assert (Ei : nth_error (taken cut (pre ++ o :: rest)) (length (taken cut pre)) = Some o1) by (rewrite TK, nth_error_app2, Nat.sub_diag by auto; auto).
  assert (ND : dot (direction conv) (direction u) <> -1) by (rewrite Dc, Du, dot_comm; apply RL).
  assert (AD' : forall o', In o' (taken cut (pre ++ o :: rest)) -> admissible n rad conv o').
  { intros o' I'. destruct (AD o' I') as (A1 & A2 & A3). split; auto. split; auto. rewrite Dc. auto. }
  assert (AP' : forall o', In o' (taken cut (pre ++ o :: rest)) -> ao_gamma o' <> 1 -> apart (direction conv) (direction u) /\ apart (direction conv) (toward o')).
  { intros o' I' G'. rewrite Dc, Du. auto. }
  assert (To : toward o1 = vscale (-1) (ao_normal o)).
  { unfold toward, o1. cbn [ao_normal]. unfold into in *. cbn [ao_boundary ao_ref]. rewrite Hb in Hin. destruct (Rlt_dec _ 0); [auto|lra]. }
  assert (NU : norm u = 1) by (apply unit_norm; auto).
  assert (E0 : vsub u (vzero n) = u) by (vext; ring).
  destruct sticky.
  - destruct (C72_contact_partial n orth0 orth1 sort rad power tail weights_of relative_of Hn OL O1 SS Hr Hpw cut conv u (pre ++ o :: rest) (length (taken cut pre)) o1)
      as (w & E & D & N & _); auto.
    { fold close. rewrite Rel. apply length_vzero. } { fold close. rewrite Rel, E0, NU. lra. } { fold close. rewrite Rel, E0. auto. }
    { fold close. rewrite Rel, E0. auto. }
    rewrite E. cbn [bind]. exists (vscale (norm v) w). split; auto. fold close in D, N. rewrite Rel in D, N. rewrite E0 in N.
    assert (Q : dot (vsub w (vzero n)) (toward o1) = dot w (toward o1) /\ norm (vsub w (vzero n)) = norm w).
    { assert (Z : forall x, dot (vzero n) x = 0) by (intros x; apply dot_vzero_l).
      split; [rewrite dot_vsub_l, Z; ring|]. unfold norm. f_equal. rewrite dot_vsub_l, !dot_vsub_r, (dot_comm w (vzero n)), !Z. ring. }
    destruct Q as [Q1 Q2]. rewrite Q1, To, dot_vscale_r in D. rewrite Q2, NU in N.
    rewrite dot_vscale_l, norm_vscale, Rabs_pos_eq by lra. split; [apply Rmult_le_pos; lra|]. split; [|discriminate].
    replace (norm v) with (norm v * 1) at 2 by ring. apply Rmult_le_compat_l; lra.
  - destruct (C72_contact_full_speed_partial n orth0 orth1 sort rad power tail weights_of relative_of Hn OL O1 SS Hr Hpw cut conv u (pre ++ o :: rest) (length (taken cut pre)) o1)
      as (w & E & D & N & _); auto.
    { lra. } { unfold into in *. cbn [ao_boundary ao_ref ao_normal o1]. rewrite Hb in Hin. auto. }
    rewrite E. cbn [bind]. exists (vscale (norm v) w). split; auto. cbn [ao_normal o1] in D. rewrite dot_vscale_l, norm_vscale, Rabs_pos_eq, N, NU by lra.
    split; [apply Rmult_le_pos; lra|]. split; [lra|]. intros _. ring.
Qed.
End Velocity.

Lemma floor_scene : beside 2 [1; 0] [0; -1] /\ direction [0; -1] = [0; -1] /\ norm [0; -1] = 1 /\
  (forall g, admissible 2 (PI / 2) [0; -1] (floor_obstacle g)) /\ one_at 0 (map (fun _ => 1) [1]).
Proof.
  assert (U : unitv [0; -1]) by (unfold unitv; simpl; ring). assert (U1 : unitv [1; 0]) by (unfold unitv; simpl; ring).
  pose proof (direction_unitv _ U) as D. pose proof (direction_unitv _ U1) as D1.
  split; [|split; [auto|split; [apply unit_norm; auto|split]]].
  - split; auto. split; [apply unit_norm_neq; auto|]. rewrite D, D1. split; [simpl; lra|right]. apply not_close_axis. right. split; [apply Rabs_R1|auto].
  - intros g. split; [apply floor_posed|]. rewrite floor_toward, D. split; [simpl; lra|]. left. simpl. lra.
  - split; [simpl; lia|]. split; auto. intros [|[|j]] Hj; simpl; auto; lia.
Qed.

(** In contact with the floor, where the dynamics around the obstacle go straight down. *)
Example C88_case : exists w, velocity (fun v => v) left_unit sort_by_level (PI / 2) 1 false (map (fun _ => 1)) (fun _ _ => [0; 0]) 10 2 false
  [floor_obstacle (1/2)] [Ok [0; -1]] [2; 0] = Ok w /\ 0 <= dot w [0; 1] /\ norm w = 2.
Proof.
  pose proof PI_RGT_0. destruct floor_scene as (B & D & N & AD & OA).
  assert (T : taken 10 [floor_obstacle (1/2)] = [floor_obstacle 1]) by (apply floor_taken; lra).
  assert (E2 : [2; 0] = vscale 2 [1; 0]) by (unfold vscale; simpl; f_equal; [|f_equal]; ring).
  assert (U1 : unitv [1; 0]) by (unfold unitv; simpl; ring).
  assert (N2 : norm [2; 0] = 2) by (rewrite E2, norm_vscale, (proj1 (unit_norm _) U1), Rabs_pos_eq; lra).
  destruct (C88_contact_partial 2 (fun v => v) left_unit sort_by_level (PI / 2) 1 false (map (fun _ => 1)) (fun _ _ => [0; 0]) 10 2 ltac:(lia) ltac:(auto)
    left_unit_ok ltac:(intros ? ? ?; apply sort_by_level_sorted) ltac:(lra) ltac:(lra) ltac:(lra) false [] (floor_obstacle (1/2)) [] [0; -1] [] [2; 0])
    as (w & E & Dw & _ & Nw); cbn [app]; rewrite ?T; auto.
  - simpl. lra.
  - intros ? [].
  - lra.
  - destruct B as (B1 & B2 & B3). split; auto. split; auto. rewrite E2, direction_scaled; auto; [lra|apply unit_norm_neq; auto].
  - unfold into. simpl. lra.
  - intros o' [<-|[]]. auto.
  - intros o' [<-|[]] G. exfalso. apply G. auto.
  - exists w. split; auto. split; auto. rewrite Nw, N2; auto.
Qed.

(** A moving obstacle: its velocity is taken off the normalized velocity, and the result is scaled
    back with it. The robot, slower than the floor which rises with the speed one, moves into it. *)
Theorem C88_moving_refuted : exists v vc r, norm v <> 0 /\ beside 2 v vc /\ exists w,
  velocity (fun v => v) left_unit sort_by_level (PI / 2) 1 false (map (fun _ => 1)) (fun _ _ => r) 10 2 true
    [floor_obstacle 1] [Ok vc] v = Ok w /\ 0 < dot (vsub w r) (toward (floor_obstacle 1)).
Proof.
  pose proof PI_RGT_0. destruct floor_scene as (B & D & N & AD & OA).
  assert (T : taken 10 [floor_obstacle 1] = [floor_obstacle 1]) by (apply (taken_head 10 ltac:(lra) (floor_obstacle 1) []); auto; simpl; lra).
  assert (E2 : [1/2; 0] = vscale (1/2) [1; 0]) by (unfold vscale; simpl; f_equal; [|f_equal]; lra).
  assert (U1 : unitv [1; 0]) by (unfold unitv; simpl; ring). assert (N1 : norm [1; 0] = 1) by (apply unit_norm; auto).
  assert (N2 : norm [1/2; 0] = 1/2) by (rewrite E2, norm_vscale, N1, Rabs_pos_eq; lra).
  assert (Dv : direction [1/2; 0] = [1; 0]) by (rewrite E2, direction_scaled; [apply direction_unitv; auto|lra|lra]).
  exists [1/2; 0], [0; -1], [0; 1]. split; [lra|]. pose proof B as (B1 & B2 & B3). split.
  { split; auto. split; auto. rewrite Dv. rewrite <- (direction_unitv _ U1). auto. }
  unfold velocity, singular_evaluate. rewrite N2. destruct (Req_EM_T (1/2) 0); [lra|].
  assert (Eu : vdiv [1/2; 0] (1/2) = [1; 0]) by (unfold vdiv, vscale; simpl; f_equal; [|f_equal]; field). rewrite Eu.
  change [floor_obstacle 1] with ([] ++ [floor_obstacle 1]) at 1.
  rewrite (contact_conv 2 (fun v => v) sort_by_level 10 2 ltac:(lia) ltac:(auto) ltac:(intros ? ? ?; apply sort_by_level_sorted) ltac:(lra)
    [] (floor_obstacle 1) [] [0; -1] [] [1; 0]); auto; [|simpl; lra|intros ? []|lra]. cbn [bind]. rewrite D.
  assert (Es : vsub [1; 0] [0; 1] = [1; -1]) by (unfold vsub; simpl; f_equal; [|f_equal]; ring).
  assert (Ns : norm [1; -1] <> 0) by (apply norm_neq_0_dot; simpl; lra).
  assert (Nc : norm (vscale (1/2) [0; -1]) <> 0) by (rewrite norm_vscale, N, Rabs_pos_eq; lra).
  assert (Dc : direction (vscale (1/2) [0; -1]) = [0; -1]) by (rewrite direction_scaled; auto; lra).
  destruct (C72_contact_partial 2 (fun v => v) left_unit sort_by_level (PI / 2) 1 false (map (fun _ => 1)) (fun _ _ => [0; 1])
    ltac:(lia) ltac:(auto) left_unit_ok ltac:(intros ? ? ?; apply sort_by_level_sorted) ltac:(lra) ltac:(lra)
    10 (vscale (1/2) [0; -1]) [1; 0] [floor_obstacle 1] 0%nat (floor_obstacle 1)) as (w & E & _ & _ & X);
    rewrite ?T, ?Es, ?Dc; auto.
  - unfold direction, vdiv. rewrite dot_vscale_r. pose proof (norm_nonneg [1; -1]).
    assert (0 < / norm [1; -1]) by (apply Rinv_0_lt_compat; lra). simpl. nra.
  - intros o' [<-|[]]. destruct (AD 1) as (A1 & A2 & A3). split; auto. split; auto. rewrite Dc. rewrite D in A2. auto.
  - intros o' [<-|[]] G. exfalso. apply G. auto.
  - rewrite E. cbn [bind]. exists (vscale (1/2) w). split; auto. rewrite floor_toward in *. rewrite Dc, cos_PI2 in X.
    specialize (X ltac:(simpl; lra)). rewrite Rmult_0_r in X. rewrite dot_vsub_l in X. rewrite dot_vsub_l, dot_vscale_l.
    replace (dot [0; 1] [0; -1]) with (-1) in * by (simpl; ring). lra.
Qed.

(** ** C89 *)
Section SequenceVelocity.
Variables (n : nat) (rad power : R) (tail : bool) (orth0 : vec -> vec) (sort : tree -> list nid).
Variables (weights_of : list R -> list R).
Hypothesis Hn : (2 <= n <= 1000)%nat.
Hypothesis Hr : rad = PI / 2 \/ PI / 2 < rad < PI /\ cos rad <= -1/1000.
Hypothesis Hpw : 0 <= power.
Hypothesis OL : forall v, length (orth0 v) = length v.
Hypothesis SS : sorts sort.

Definition sequence_velocity (magnitude : R) (init : option sequence) (parts : list (res R * res sequence)) (obs : list aobs) : res vec :=
  singular_evaluate_sequence orth0 sort (avoid_sequence orth0 sort rad power tail weights_of false obs) n magnitude (Ok init) (fun _ => parts).

(** The initial sequence leads from [b] to [e]; the sequences around the obstacles start in [b];
    the convergence sequence over them has no confusable steps and satisfies [Q]. *)
Definition prepared (init : sequence) (b e : vec) (parts : list (res R * res sequence)) (data : list (R * vec)) (Q : vec -> Prop) : Prop :=
  passes n init b e /\ related_path b (stops init e) /\ (length init < 92)%nat /\ Forall2 (part n b) parts data /\
  forall convs c, evaluate_weighted_dynamics_sequence orth0 sort parts init = Ok convs -> passes n convs b c ->
    related_path b (stops convs c) /\ Q c.

Lemma prepared_start init b e parts data Q : prepared init b e parts data Q ->
  exists convs c, evaluate_weighted_dynamics_sequence orth0 sort parts init = Ok convs /\ common_start n init convs b e c /\ Q c.
Proof.
  intros (P & R & L & F & D).
  destruct (C87_sequence n orth0 sort ltac:(lia) OL SS init b e parts data P R L F) as (convs & c & E & Pc & Lc & _).
  destruct (D convs c E Pc) as [Rc Qc]. exists convs, c. split; auto. split; auto.
  split; auto. split; auto. split; auto. split; auto. split; lia.
Qed.

Theorem C89_rest : forall magnitude init parts obs, magnitude = 0 \/ init = None ->
  sequence_velocity magnitude init parts obs = Ok (vzero n).
Proof.
  intros m init parts obs H. unfold sequence_velocity, singular_evaluate_sequence. destruct (Req_EM_T m 0); auto.
  destruct H as [H| ->]; [contradiction|auto].
Qed.
(** Without obstacles, and where no obstacle is important: the initial velocity. *)
Theorem C89_undisturbed : forall magnitude init b e parts data obs, magnitude <> 0 -> prepared init b e parts data (fun _ => True) ->
  obs = [] \/ (scene n weights_of obs /\ Forall (fun w => w = 0) (importance_of weights_of obs)) ->
  sequence_velocity magnitude (Some init) parts obs = Ok (vscale magnitude e).
Proof.
  intros m init b e parts data obs Hm PR H. destruct (prepared_start _ _ _ _ _ _ PR) as (convs & c & E & CS & _).
  unfold sequence_velocity, singular_evaluate_sequence. destruct (Req_EM_T m 0); [contradiction|]. cbn [bind]. rewrite E. cbn [bind].
  destruct H as [->|[SC Z]].
  - cbn [avoid_sequence bind]. rewrite (ps_end _ _ _ _ (proj1 PR)). auto.
  - destruct (C75_without_importance n rad power tail orth0 sort weights_of false Hn Hr Hpw OL SS obs init convs b e c CS SC Z) as (s & -> & Ee).
    cbn [bind]. rewrite Ee. auto.
Qed.
(** The speed is the magnitude. *)
Theorem C89_speed : forall magnitude init b e parts data obs, 0 < magnitude ->
  prepared init b e parts data (fun c => Forall (clear c) (seen obs)) -> scene n weights_of obs ->
  Forall (fun w => 0 <= w) (importance_of weights_of obs) -> rsum (importance_of weights_of obs) <= 1 ->
  exists w, sequence_velocity magnitude (Some init) parts obs = Ok w /\ length w = n /\ norm w = magnitude.
Proof.
  intros m init b e parts data obs Hm PR SC Pos Sum. destruct (prepared_start _ _ _ _ _ _ PR) as (convs & c & E & CS & Cl).
  unfold sequence_velocity, singular_evaluate_sequence. destruct (Req_EM_T m 0); [lra|]. cbn [bind]. rewrite E. cbn [bind].
  destruct (C75_defined n rad power tail orth0 sort weights_of false Hn Hr Hpw OL SS obs init convs b e c CS SC Pos Sum Cl)
    as (f & r & u & -> & _ & _ & Eu & Uu & Lu).
  cbn [bind]. rewrite Eu. cbn [bind]. eexists. split; [reflexivity|]. split; [rewrite length_vscale; auto|].
  rewrite norm_vscale, (proj1 (unit_norm u) Uu), Rabs_pos_eq; lra.
Qed.
(** In contact: full speed, not into the obstacle. *)
Theorem C89_contact : forall magnitude init b e parts data obs i o, 0 < magnitude ->
  prepared init b e parts data (fun c => clear c o) -> scene n weights_of obs ->
  one_at i (importance_of weights_of obs) -> nth_error (seen obs) i = Some o -> ao_gamma o <= 1 ->
  exists w, sequence_velocity magnitude (Some init) parts obs = Ok w /\ norm w = magnitude /\
    dot (inward o) w <= magnitude * cos rad /\ dot (inward o) w <= 0.
Proof.
  intros m init b e parts data obs i o Hm PR SC OA Ei Hg. destruct (prepared_start _ _ _ _ _ _ PR) as (convs & c & E & CS & Cl).
  unfold sequence_velocity, singular_evaluate_sequence. destruct (Req_EM_T m 0); [lra|]. cbn [bind]. rewrite E. cbn [bind].
  destruct (C75_contact n rad power tail orth0 sort weights_of false Hn Hr Hpw OL SS obs init convs b e c i o CS SC OA Ei Hg Cl)
    as (s & u & -> & Eu & Uu & Du).
  cbn [bind]. rewrite Eu. cbn [bind]. eexists. split; [reflexivity|].
  rewrite norm_vscale, (proj1 (unit_norm u) Uu), Rabs_pos_eq, dot_vscale_r by lra. split; [ring|].
  assert (cos rad <= 0). { destruct Hr as [->|[_ H]]; [rewrite cos_PI2|]; lra. }
  split; nra.
Qed.
End SequenceVelocity.

(** In contact with the floor, the convergence sequence goes straight down. *)
Example C89_case : exists init rc w,
  prepared 2 (fun v => v) sort_by_level init [1; 0] [0; 1] [(Ok 1, Ok [rc])] [(1, [0; -1])] (fun c => c = [0; -1]) /\
  sequence_velocity 2 (PI / 2) 1 false (fun v => v) sort_by_level (map (fun _ => 1)) 3 (Some init) [(Ok 1, Ok [rc])] [floor_obstacle (1/2)] = Ok w /\
  norm w = 3 /\ dot [0; -1] w <= 0.
Proof.
  pose proof PI_RGT_0.
  assert (V0 : norm [1; 0] = 1) by (apply vec_norm_1; lra). assert (V1 : norm [0; 1] = 1) by (apply vec_norm_1; lra).
  assert (V2 : norm [0; -1] = 1) by (apply vec_norm_1; lra).
  destruct (axis_pair [1; 0] [0; 1] 1 0 0 1) as (r0 & _ & P0); auto; try lra; try axis; try (apply dir_unit2; lra).
  destruct (axis_pair [1; 0] [0; -1] 1 0 0 (-1)) as (rc & _ & Pc); auto; try lra; try axis; try (apply dir_unit2; lra).
  assert (SO : sorts sort_by_level) by (intros ? ? ?; apply sort_by_level_sorted).
  assert (R0 : related [1; 0] [0; 1]) by (apply related_right; [axis|lra]).
  assert (Rc : related [1; 0] [0; -1]) by (apply related_right; [axis|lra]).
  destruct (single_short 2 (fun v => v) sort_by_level ltac:(lia) ltac:(auto) SO r0 [1; 0] [0; 1] 1 rc [0; -1] P0 R0 ltac:(lra) Pc Rc) as (q & Eq & Pq).
  assert (PR : forall Q : vec -> Prop, Q [0; -1] -> prepared 2 (fun v => v) sort_by_level [r0] [1; 0] [0; 1] [(Ok 1, Ok [rc])] [(1, [0; -1])] Q).
  { intros Q HQ. split; auto. split; [split; auto; exact I|]. split; [simpl; lia|]. split.
    - constructor; [|constructor]. split; auto. intros _. exists [rc]. split; auto. split; auto. split; [split; auto; exact I|simpl; lia].
    - intros convs c E P. rewrite Eq in E. assert (convs = [q]) by congruence. subst convs.
      pose proof (ps_end _ _ _ _ P) as E1. pose proof (ps_end _ _ _ _ Pq) as E2. assert (c = [0; -1]) by congruence. subst c.
      split; auto. split; auto. exact I. }
  assert (FF : forall g, faces 2 (floor_obstacle g)).
  { intros g. repeat split; unfold unitv, inward, into, dot; simpl; lra. }
  assert (IN : forall g, inward (floor_obstacle g) = [0; -1]).
  { intros g. unfold inward. cbn [floor_obstacle ao_boundary ao_normal]. unfold vscale. simpl. repeat f_equal; ring. }
  assert (SN : seen [floor_obstacle (1/2)] = [floor_obstacle 1]).
  { unfold seen, floor_obstacle. cbn [map]. unfold clamp_obstacle. cbn [ao_gamma ao_boundary negb].
    rewrite (proj2 (Rltb_true (1/2) 1)) by lra. auto. }
  destruct (C89_contact 2 (PI / 2) 1 false (fun v => v) sort_by_level (map (fun _ => 1)) ltac:(lia) (or_introl eq_refl) ltac:(lra) ltac:(auto) SO
    3 [r0] [1; 0] [0; 1] [(Ok 1, Ok [rc])] [(1, [0; -1])] [floor_obstacle (1/2)] 0 (floor_obstacle 1) ltac:(lra)) as (w & E & Nw & _ & Dw).
  - apply PR. right. rewrite IN. replace (dot [0; -1] [0; -1]) with 1 by (simpl; ring). rewrite Rabs_R1. lra.
  - split; [discriminate|]. split; [constructor; auto|]. split; [constructor; auto; simpl; lra|reflexivity].
  - unfold importance_of. rewrite SN. simpl. split; [simpl; lia|]. split; auto. intros [|[|j]] Hj; [lia|auto|auto].
  - rewrite SN. auto.
  - simpl. lra.
  - exists [r0], rc, w. split; auto. split; auto. split; auto. rewrite IN in Dw. auto.
Qed.
Print Assumptions C87_sequence.
Print Assumptions C87_unaligned.
Print Assumptions C87_plain_refuted.
Print Assumptions C88_undisturbed.
Print Assumptions C88_contact_partial.
Print Assumptions C88_moving_refuted.
Print Assumptions C89_rest.
Print Assumptions C89_undisturbed.
Print Assumptions C89_speed.
Print Assumptions C89_contact.
