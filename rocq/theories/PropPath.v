(** C135: a path of segments is followed. *)
Require Import Reals List Lia Lra Bool ZArith.
From Verif Require Import Base Vec Angle Pow RotModel Spec RotProofs SeqProofs TreeModel TreeSpec TreeProofs TreeReduce TreeCases PropTree WeightModel AvoidModel PropTangent DynModel PropDynamics ConvModel ConvProofs RotAvoidProofs PropConvSeq SummingProofs PropOpposite PropAvoidSeq PathModel.
Import ListNotations.
Open Scope R_scope.

(** ** The tree of a path *)
(** The direction of segment [j]; behind the last one it is the direction [g] to the attractor. *)
Definition dir_at (g : vec) (l : list segment) (j : nat) : vec :=
  match nth_error l j with Some s => s_dir s | None => g end.

Record built (n : nat) (x g : vec) (k : nat) (l : list segment) (t : tree) : Prop := {
  bt_rooted : rooted_tree n t (gid (k + length l));
  bt_ids : forall y, In y (ids t) -> exists j, (k <= j <= k + length l)%nat /\ (y = gid j \/ y = sid j);
  bt_gid : forall j, (j <= length l)%nat -> node t (gid (k + j)) (mkAttrs (length l - j) (dir_at g l j));
  bt_sid : forall j s, nth_error l j = Some s ->
    exists d, segment_evaluate s x = Ok d /\ node t (sid (k + j)) (mkAttrs (S (length l - j)) d);
  bt_edge : forall p y, edge t p y -> exists j, (j < length l)%nat /\
    ((p = gid (S (k + j)) /\ y = gid (k + j)) \/ (p = gid (k + j) /\ y = sid (k + j)));
  bt_chain : forall j, (j < length l)%nat -> edge t (gid (S (k + j))) (gid (k + j)) }.

Lemma gid_inj i j : gid i = gid j -> i = j.
Proof. unfold gid. intros H. injection H as H. lia. Qed.
Lemma sid_inj i j : sid i = sid j -> i = j.
Proof. unfold sid. intros H. injection H as H. lia. Qed.
Lemma gid_sid i j : gid i <> sid j.
Proof. discriminate. Qed.

Lemma build n x g k l t0 : (forall s, In s l -> seg_ok n s) -> length x = n -> (length l <= 98)%nat ->
  rooted_tree n t0 (gid (k + length l)) -> ids t0 = [gid (k + length l)] ->
  node t0 (gid (k + length l)) (mkAttrs 0 g) -> (forall u v, ~ edge t0 u v) ->
  exists t, foldM (add_segment x) t0 (rev (combine (seq k (length l)) l)) = Ok t /\ built n x g k l t.
Proof.
  intros Hs Lx Hl W0 I0 N0 E0. revert k W0 I0 N0. induction l as [|s l IH]; intros k W0 I0 N0.
  - exists t0. split; [reflexivity|]. cbn [length] in *. constructor; cbn [length].
    + exact W0.
    + intros y Hy. rewrite I0 in Hy. destruct Hy as [<-|[]]. exists (k + 0)%nat. split; [lia|]. left; auto.
    + intros j Hj. assert (j = 0)%nat by lia. subst j. exact N0.
    + intros [|j] s H; discriminate.
    + intros p y H. exfalso. apply (E0 _ _ H).
    + intros j Hj. lia.
  - cbn [length] in *. destruct (IH ltac:(intros; apply Hs; right; auto) ltac:(lia) (S k)) as (t1 & E1 & B1).
    { replace (S k + length l)%nat with (k + S (length l))%nat by lia. auto. }
    { replace (S k + length l)%nat with (k + S (length l))%nat by lia. auto. }
    { replace (S k + length l)%nat with (k + S (length l))%nat by lia. auto. }
    cbn [length seq combine rev]. rewrite foldM_app, E1. cbn [bind foldM].
    destruct B1 as [W1 I1 G1 S1 D1 C1].
    destruct (C43_segment_direction n s x (Hs s (or_introl eq_refl)) Lx) as (d & c & Ed & Ud & _ & Pc & Fd).
    destruct (seg_facts n s (Hs s (or_introl eq_refl))) as (Us & _ & Ls & _ & Hn).
    assert (Ld : length d = n).
    { pose proof (Hs s (or_introl eq_refl)) as (La & _ & _). cbv zeta in Fd. rewrite Fd. autorewrite with vlen. lia. }
    unfold add_segment at 1. rewrite Ed. cbn [bind].
    assert (G0 := G1 0%nat ltac:(lia)). replace (S k + 0)%nat with (S k) in G0 by lia.
    replace (length l - 0)%nat with (length l) in G0 by lia.
    destruct (add_node_plain n t1 (gid (S k + length l)) (gid k) (s_dir s) (gid (S k)) _ W1 G0) as (t2 & E2 & W2 & I2 & K2 & N2 & D2).
    { cbn [a_level]. lia. }
    { apply norm_neq_0_dot. unfold unitv in Us. lra. }
    { intros H. apply I1 in H. destruct H as (j & Hj & [H|H]); [apply gid_inj in H; lia|exact (gid_sid _ _ H)]. }
    { auto. }
    rewrite E2. cbn [lift bind]. rewrite direction_unitv in N2 by auto. cbn [a_level] in N2.
    destruct (add_node_plain n t2 (gid (S k + length l)) (sid k) d (gid k) _ W2 N2) as (t3 & E3 & W3 & I3 & K3 & N3 & D3).
    { cbn [a_level]. lia. }
    { apply norm_neq_0_dot. unfold unitv in Ud. lra. }
    { rewrite I2. intros H. apply in_app_iff in H. destruct H as [H|[H|[]]]; [|discriminate].
      apply I1 in H. destruct H as (j & Hj & [H|H]); [discriminate|apply sid_inj in H; lia]. }
    { auto. }
    rewrite E3. cbn [lift bind]. rewrite direction_unitv in N3 by auto. cbn [a_level] in N3.
    exists t3. split; [reflexivity|]. constructor; cbn [length].
    + replace (k + S (length l))%nat with (S k + length l)%nat by lia. exact W3.
    + intros y Hy. rewrite I3, I2, <- app_assoc in Hy. apply in_app_iff in Hy. destruct Hy as [Hy|[<-|[<-|[]]]].
      * apply I1 in Hy. destruct Hy as (j & Hj & H). exists j. split; [lia|auto].
      * exists k. split; [lia|auto].
      * exists k. split; [lia|auto].
    + intros [|j] Hj.
      * replace (k + 0)%nat with k by lia. apply K3. exact N2.
      * replace (k + S j)%nat with (S k + j)%nat by lia. apply K3, K2. exact (G1 j ltac:(lia)).
    + intros [|j] s' H.
      * cbn [nth_error] in H. injection H as <-. exists d. split; auto. replace (k + 0)%nat with k by lia. exact N3.
      * cbn [nth_error] in H. destruct (S1 j s' H) as (d' & Ed' & N'). exists d'. split; auto.
        replace (k + S j)%nat with (S k + j)%nat by lia. apply K3, K2. exact N'.
    + intros p y H. apply D3 in H. destruct H as [H|[-> ->]].
      * apply D2 in H. destruct H as [H|[-> ->]].
        -- apply D1 in H. destruct H as (j & Hj & H). exists (S j). split; [lia|].
           replace (k + S j)%nat with (S k + j)%nat by lia. exact H.
        -- exists 0%nat. split; [lia|]. replace (k + 0)%nat with k by lia. auto.
      * exists 0%nat. split; [lia|]. replace (k + 0)%nat with k by lia. auto.
    + intros [|j] Hj.
      * replace (k + 0)%nat with k by lia. apply D3. left. apply D2. auto.
      * replace (k + S j)%nat with (S k + j)%nat by lia. apply D3. left. apply D2. left. apply C1. lia.
Qed.

Lemma last_default {A} (l : list A) d d' : l <> [] -> last l d = last l d'.
Proof. destruct l as [|a l]; [contradiction|]. intros _. apply last_any. Qed.
Lemma last_in {A} (l : list A) d : l <> [] -> In (last l d) l.
Proof.
  intros H. induction l as [|a l IH]; [contradiction|]. destruct l as [|b l]; [left; auto|]. right. apply IH. discriminate.
Qed.
Lemma last_nth_error {A} (l : list A) d : l <> [] -> nth_error l (length l - 1) = Some (last l d).
Proof.
  induction l as [|a l IH]; [contradiction|]. destruct l as [|b l]; [auto|]. intros _.
  cbn [length]. replace (S (S (length l)) - 1)%nat with (S (length (b :: l) - 1)) by (cbn [length]; lia). cbn [nth_error].
  rewrite IH by discriminate. auto.
Qed.

Section Path.
Variables (n : nat) (orth0 : vec -> vec) (sort : tree -> list nid).
Hypothesis OL : forall v, length (orth0 v) = length v.
Hypothesis SS : sorts sort.

Lemma path_tree_built segs x : segs <> [] -> (forall s, In s segs -> seg_ok n s) -> length x = n -> (length segs <= 98)%nat ->
  x <> path_attractor segs ->
  let g := direction (vsub (path_attractor segs) x) in
  global_direction segs x = g /\ unitv g /\ length g = n /\
  exists t, path_tree segs x = Ok t /\ built n x g 0 segs t.
Proof.
  intros Ne Hs Lx Hl Na g.
  assert (La : length (path_attractor segs) = n).
  { apply (Hs (last segs (mkSeg [] [] [] 0))). apply last_in; auto. }
  assert (Nz : norm (vsub (path_attractor segs) x) <> 0).
  { intros H. apply Na. apply norm_zero_iff in H. assert (length (vsub (path_attractor segs) x) = n) by (autorewrite with vlen; lia).
    symmetry. apply vec_ext; [lia|]. intros i.
    assert (Q : nth i (vsub (path_attractor segs) x) 0 = 0) by (rewrite H; apply nth_vzero).
    autorewrite with vnth in Q. lra. }
  assert (G : global_direction segs x = g).
  { unfold global_direction. cbv zeta. destruct (Req_EM_T _ 0); [contradiction|]. reflexivity. }
  assert (Ug : unitv g) by (apply unit_vdiv; auto).
  assert (Lg : length g = n) by (unfold g, direction; autorewrite with vlen; lia).
  split; auto. split; auto. split; auto.
  destruct (seg_facts n _ (Hs _ (last_in segs (mkSeg [] [] [] 0) Ne))) as (_ & _ & _ & _ & Hn).
  destruct (set_root_grown n (gid (length segs)) g Hn Lg) as (t0 & E0 & [W0 _] & I0 & Nd0 & Ed0).
  { apply norm_neq_0_dot. unfold unitv in Ug. lra. }
  change (dirof g) with (direction g) in Nd0. rewrite direction_unitv in Nd0 by auto.
  destruct (build n x g 0 segs t0 Hs Lx Hl W0 I0 Nd0 Ed0) as (t & E & B).
  exists t. split; auto. unfold path_tree. rewrite G, E0. exact E.
Qed.

(** The path can be followed from [x]: consecutive segments do not turn back, the attractor is not
    straight behind the last segment, and the directions are equal or can be told apart. *)
Record regular_path (segs : list segment) (x : vec) : Prop := {
  rp_turn : forall i s s', nth_error segs i = Some s -> nth_error segs (S i) = Some s' -> related (s_dir s') (s_dir s);
  rp_goal : forall s, nth_error segs (length segs - 1) = Some s -> related (direction (vsub (path_attractor segs) x)) (s_dir s);
  rp_near : forall s d, In s segs -> segment_evaluate s x = Ok d -> s_dir s = d \/ allclose (s_dir s) d = false }.

Lemma built_sound segs x t : let g := direction (vsub (path_attractor segs) x) in
  (forall s, In s segs -> seg_ok n s) -> length x = n -> built n x g 0 segs t -> regular_path segs x -> sound n t (gid (length segs)).
Proof.
  intros g Hs Lx [W I G S1 D C] [T Go Ne]. cbn [plus] in *.
  assert (R : forall p y a b, edge t p y -> node t p a -> node t y b -> related (a_dir a) (a_dir b)).
  { intros p y a b E Na Nb. apply D in E. destruct E as (j & Hj & [[-> ->]|[-> ->]]).
    - rewrite (node_unique n t _ W _ _ _ Na (G (S j) ltac:(lia))), (node_unique n t _ W _ _ _ Nb (G j ltac:(lia))). cbn [a_dir].
      unfold dir_at. destruct (nth_error segs j) as [s|] eqn:Ej; [|apply nth_error_None in Ej; lia].
      destruct (nth_error segs (S j)) as [s'|] eqn:Ej'; [apply (T j); auto|].
      apply nth_error_None in Ej'. apply Go. replace (length segs - 1)%nat with j by lia. auto.
    - destruct (nth_error segs j) as [s|] eqn:Ej; [|apply nth_error_None in Ej; lia].
      destruct (S1 j s Ej) as (d & Ed & Nd).
      rewrite (node_unique n t _ W _ _ _ Na (G j ltac:(lia))), (node_unique n t _ W _ _ _ Nb Nd). cbn [a_dir].
      unfold dir_at. rewrite Ej.
      assert (In s segs) by (apply (nth_error_In _ _ Ej)).
      destruct (C43_segment_direction n s x (Hs s ltac:(auto)) Lx) as (d' & c & Ed' & Ud & Dp & _).
      assert (d' = d) by congruence. subst d'. split; [rewrite dot_comm; lra|]. apply (Ne s d); auto. }
  constructor; auto; intros p y a b E Na Nb; apply (R p y a b E Na Nb).
Qed.

Definition path_ids (segs : list segment) : list nid := map sid (seq 0 (length segs)) ++ [gid (length segs)].
Lemma path_ids_nodup segs : NoDup (path_ids segs).
Proof.
  apply NoDup_snoc.
  - apply FinFun.Injective_map_NoDup; [|apply seq_NoDup]. intros i j. apply sid_inj.
  - intros H. apply in_map_iff in H. destruct H as (i & H & _). discriminate.
Qed.
Lemma path_ids_in x g segs t : built n x g 0 segs t -> forall y, In y (path_ids segs) -> In y (ids t).
Proof.
  intros [W I G S1 D C] y Hy. apply in_app_iff in Hy. destruct Hy as [Hy|[<-|[]]].
  - apply in_map_iff in Hy. destruct Hy as (i & <- & Hi). apply in_seq in Hi.
    destruct (nth_error segs i) as [s|] eqn:E; [|apply nth_error_None in E; lia].
    destruct (S1 i s E) as (d & _ & N). apply (node_in_ids _ _ _ N).
  - apply (node_in_ids _ _ _ (G (length segs) (le_n _))).
Qed.

Lemma containing_one segs x i s : nth_error segs i = Some s -> get_distance s x = 0 -> (containing segs x <= 1)%nat ->
  (0 < containing segs x)%nat /\
  forall j s', nth_error segs j = Some s' -> j <> i -> get_distance s' x <> 0.
Proof.
  assert (P : forall segs i s, nth_error segs i = Some s -> get_distance s x = 0 -> (0 < containing segs x)%nat).
  { clear. induction segs as [|s0 segs IH]; intros [|i] s E D; try discriminate; cbn [containing].
    - injection E as ->. rewrite (proj2 (Reqb_true _ _) D). lia.
    - specialize (IH i s E D). destruct (Reqb _ 0); lia. }
  intros E D Hc. split; [eapply P; eauto|]. intros j s' E' Nj D'.
  revert i j E E' Nj Hc. induction segs as [|s0 segs IH]; intros i j E E' Nj Hc; [destruct i; discriminate|].
  cbn [containing] in Hc. destruct i as [|i], j as [|j]; cbn [nth_error] in *; [lia| | |].
  - injection E as ->. rewrite (proj2 (Reqb_true _ _) D) in Hc. pose proof (P segs j s' E' D'). lia.
  - injection E' as ->. rewrite (proj2 (Reqb_true _ _) D') in Hc. pose proof (P segs i s E D). lia.
  - apply (IH i j); auto. destruct (Reqb _ 0); lia.
Qed.

Lemma path_magnitude_value segs x : path_magnitude segs x 1 1 = Rmin 1 (dist x (path_attractor segs)).
Proof.
  unfold path_magnitude. cbv zeta. change (norm (vsub x (path_attractor segs))) with (dist x (path_attractor segs)).
  destruct (Rltb 1 _) eqn:E; [apply Rltb_true in E; rewrite Rmin_left; lra|]. apply Rltb_false in E. rewrite Rmin_right; [field|lra].
Qed.
Lemma on_segment_direction s x : seg_ok n s -> length x = n -> on_segment s x -> segment_evaluate s x = Ok (s_dir s).
Proof.
  intros Hs Lx (t & Ht & ->). destruct (seg_facts n s Hs) as (U & Pl & Ld & He & _). destruct Hs as (L0 & L1 & _).
  unfold segment_evaluate. cbv zeta.
  assert (Z : vadd (vscale 3 (vsub (vadd (s_start s) (vscale (dot (vsub (vadd (s_start s) (vscale t (vsub (s_end s) (s_start s)))) (s_start s)) (s_dir s)) (s_dir s)))
     (vadd (s_start s) (vscale t (vsub (s_end s) (s_start s)))))) (s_dir s) = s_dir s).
  { assert (Q : vsub (vadd (s_start s) (vscale t (vsub (s_end s) (s_start s)))) (s_start s) = vscale (t * s_len s) (s_dir s)).
    { rewrite He. vext. ring. }
    rewrite Q, dot_vscale_l. unfold unitv in U. rewrite U, Rmult_1_r, He. vext. ring. }
  rewrite Z. assert (N1 : norm (s_dir s) = 1) by (apply unit_norm; auto). rewrite N1. destruct (Req_EM_T 1 0); [lra|]. rewrite vdiv_1. auto.
Qed.

(** Off the attractor and off the joints, the command has the speed one, reduced in the last unit of
    distance; on a segment it points along the segment. *)
Theorem C135_followed : forall segs x, segs <> [] -> (forall s, In s segs -> seg_ok n s) -> length x = n ->
  (length segs <= 98)%nat -> x <> path_attractor segs -> regular_path segs x -> (containing segs x <= 1)%nat ->
  exists v, path_evaluate orth0 sort segs x = Ok (Vector v) /\ norm v = Rmin 1 (dist x (path_attractor segs)) /\
    forall s, In s segs -> on_segment s x -> v = vscale (Rmin 1 (dist x (path_attractor segs))) (s_dir s).
Proof.
  intros segs x Ne Hs Lx Hl Na Rp Hc.
  destruct (path_tree_built segs x Ne Hs Lx Hl Na) as (Eg & Ug & Lg & t & Et & B).
  set (g := direction (vsub (path_attractor segs) x)) in *.
  pose proof (built_sound segs x t Hs Lx B Rp) as So.
  destruct (seg_facts n _ (Hs _ (last_in segs (mkSeg [] [] [] 0) Ne))) as (_ & _ & _ & _ & Hn).
  destruct (C43_weights_partial n segs x 2 3 1 Ne Hs Lx ltac:(lra) ltac:(lra)) as (ws & Ew & Lw & Pw & Sw & Cw & _).
  assert (La : length (path_attractor segs) = n) by (apply (Hs (last segs (mkSeg [] [] [] 0))); apply last_in; auto).
  assert (Sw1 : rsum ws = 1).
  { rewrite Sw. apply Rmax_left. replace 1 with (INR 1) by reflexivity. apply le_INR. auto. }
  assert (LI : length (path_ids segs) = length ws).
  { unfold path_ids. rewrite app_length, map_length, seq_length. cbn [length]. lia. }
  pose proof (path_ids_nodup segs) as ND. pose proof (path_ids_in x g segs t B) as IN.
  pose proof (wlookup_assigned t _ ws ND LI IN) as AS.
  pose proof (SS n t _ (so_rooted _ _ _ So)) as SL.
  assert (Nr : node t (gid (length segs)) (mkAttrs 0 g)).
  { pose proof (bt_gid _ _ _ _ _ _ B (length segs) (le_n _)) as H. cbn [plus] in H. rewrite Nat.sub_diag in H.
    unfold dir_at in H. rewrite (proj2 (nth_error_None segs (length segs)) (le_n _)) in H. auto. }
  destruct (reduce_passes n t _ _ (sort t) orth0 blank _ _ _ So Hn Nr SL AS OL) as (s0 & e & Es & Ee & Ps).
  { intros y. apply wlookup_nonneg. intros w. apply Pw. }
  { rewrite Sw1. lra. }
  pose proof Ps as [_ _ Ep [Le Ue]].
  unfold path_evaluate. cbv zeta. rewrite path_magnitude_value.
  assert (Pm : 0 < dist x (path_attractor segs)).
  { unfold dist. apply norm_pos. intros H. apply Na. apply norm_zero_iff in H. apply vec_ext; [lia|]. intros i.
    assert (Q : nth i (vsub x (path_attractor segs)) 0 = 0) by (rewrite H; apply nth_vzero).
    autorewrite with vnth in Q. lra. }
  set (m := Rmin 1 (dist x (path_attractor segs))).
  assert (Hm : 0 < m) by (unfold m, Rmin; destruct (Rle_dec _ _); lra).
  destruct (Req_EM_T m 0); [lra|]. unfold path_sequence. rewrite Ew, Et. cbn [bind]. fold (path_ids segs). rewrite Es. cbn [bind].
  rewrite Ep. cbn [bind]. exists (vscale m e). split; auto. split.
  { rewrite norm_vscale, (proj1 (unit_norm e) Ue), Rabs_right by lra. ring. }
  intros s Is On. f_equal. destruct (In_nth_error _ _ Is) as (i & Ei).
  assert (D0 : get_distance s x = 0) by (apply (C43_segment_distance n); auto).
  destruct (containing_one segs x i s Ei D0 Hc) as [Cp Co].
  destruct (bt_sid _ _ _ _ _ _ B i s Ei) as (d & Ed & Nd). cbn [plus] in Nd.
  rewrite (on_segment_direction s x (Hs s Is) Lx On) in Ed. assert (d = s_dir s) by congruence. subst d.
  assert (M : get_weighted_mean orth0 t blank (sort t) [sid i] [1] = Ok (s_dir s)).
  { change (s_dir s) with (a_dir (mkAttrs (S (length segs - i)) (s_dir s))).
    apply (C15_full_weight_on_one_node n t (gid (length segs))); auto; try apply So.
    intros p b Ep' Np. apply (so_dist _ _ _ So p (sid i) b _ Ep' Np Nd). }
  assert (Li : (i < length segs)%nat) by (apply nth_error_Some; congruence).
  assert (AS1 : assigned t [sid i] [1] (wlookup (path_ids segs) ws)).
  { split; [constructor; [intros []|constructor]|]. split; auto. split; [intros y [<-|[]]; apply (node_in_ids _ _ _ Nd)|].
    assert (V : forall y, In y (path_ids segs) -> wlookup (path_ids segs) ws y = if nid_eq_dec y (sid i) then 1 else 0).
    { intros y Hy. destruct (In_nth _ _ (NInt 0) Hy) as (k & Lk & Ek).
      assert (Hw : wlookup (path_ids segs) ws y = nth k ws 0).
      { apply wlookup_in; auto. rewrite <- Ek, <- combine_nth by auto. apply nth_In. rewrite combine_length. lia. }
      rewrite Hw. rewrite LI in Lk.
      assert (Hk : forall j sj, nth_error segs j = Some sj -> nth j ws 0 = if Reqb (get_distance sj x) 0 then 1 else 0) by (intros; apply Cw; auto).
      destruct (lt_dec k (length segs)) as [Lk'|Lk'].
      - assert (Ey : y = sid k).
        { rewrite <- Ek. unfold path_ids. rewrite app_nth1 by (rewrite map_length, seq_length; auto).
          rewrite (nth_indep _ (NInt 0) (sid 0)) by (rewrite map_length, seq_length; auto). rewrite map_nth, seq_nth by auto. auto. }
        destruct (nth_error segs k) as [sk|] eqn:Esk; [|apply nth_error_None in Esk; lia]. rewrite (Hk k sk Esk).
        destruct (nid_eq_dec y (sid i)) as [Q|Q].
        + rewrite Ey in Q. apply sid_inj in Q. subst k. assert (sk = s) by congruence. subst sk. rewrite (proj2 (Reqb_true _ _) D0). auto.
        + assert (k <> i) by (intros ->; auto). rewrite (proj2 (Reqb_false _ _) (Co k sk Esk H)). auto.
      - assert (k = length segs) by lia. subst k.
        assert (Ey : y = gid (length segs)).
        { rewrite <- Ek. unfold path_ids. rewrite app_nth2 by (rewrite map_length, seq_length; lia).
          rewrite map_length, seq_length, Nat.sub_diag. auto. }
        destruct (nid_eq_dec y (sid i)) as [Q|Q]; [rewrite Ey in Q; discriminate|].
        (* the rest of the weights *)
        pose proof (Hk i s Ei) as Wi. rewrite (proj2 (Reqb_true _ _) D0) in Wi.
        assert (T : nth i ws 0 + nth (length segs) ws 0 <= rsum ws).
        { clear - Li Lk Pw. revert i Li. set (k := length segs) in *. clearbody k. revert k Lk.
          induction ws as [|w ws IH]; intros k Lk i Li; cbn [length] in Lk; [lia|]. unfold rsum. cbn [fold_right]. fold (rsum ws).
          destruct k as [|k]; [lia|]. destruct i as [|i]; cbn [nth].
          - assert (X : nth k ws 0 <= rsum ws).
            { clear - Pw Lk. assert (P : forall w', In w' ws -> 0 <= w') by (intros; apply Pw; right; auto). clear Pw.
              revert k Lk. induction ws as [|a ws IH]; intros [|k] Lk; cbn [length] in Lk; try lia; unfold rsum; cbn [nth fold_right]; fold (rsum ws).
              - assert (0 <= rsum ws) by (apply rsum_nonneg; intros; apply P; right; auto). lra.
              - specialize (IH ltac:(intros; apply P; right; auto) k ltac:(lia)). pose proof (P a (or_introl eq_refl)). lra. }
            lra.
          - specialize (IH ltac:(intros; apply Pw; right; auto) k ltac:(lia) i ltac:(lia)). pose proof (Pw w (or_introl eq_refl)). lra. }
        assert (0 <= nth (length segs) ws 0) by (apply Pw; apply nth_In; lia). lra. }
    split.
    - intros y w [H|[]]. injection H as <- <-. rewrite V; [destruct (nid_eq_dec (sid i) (sid i)); [auto|congruence]|].
      unfold path_ids. apply in_app_iff. left. apply in_map_iff. exists i. split; auto. apply in_seq. lia.
    - intros y Hy. destruct (in_dec nid_eq_dec y (path_ids segs)) as [H|H]; [|apply wlookup_out; auto].
      rewrite V by auto. destruct (nid_eq_dec y (sid i)); [|auto]. exfalso. apply Hy. left; auto. }
  unfold get_weighted_mean in M, Ee.
  rewrite (C13_independent_of_history_and_entry_order n t _ (sort t) orth0 blank blank _ _ _ _ _ (so_rooted _ _ _ So) Hn (so_noopp _ _ _ So) SL AS1 AS) in M.
  congruence.
Qed.

(** Straight ahead of the attractor, there is no command. *)
Theorem C135_ahead_refuted : forall segs s c, segs <> [] -> (forall s, In s segs -> seg_ok n s) -> INR n < 10 ^ 16 ->
  (length segs <= 98)%nat -> nth_error segs (length segs - 1) = Some s -> 0 < c ->
  path_evaluate orth0 sort segs (vadd (s_end s) (vscale c (s_dir s))) = Err ENaN.
Proof.
  intros segs s c Ne Hs Bn Hl El Pc. set (x := vadd (s_end s) (vscale c (s_dir s))).
  rewrite (last_nth_error segs (mkSeg [] [] [] 0) Ne) in El. injection El as El.
  assert (Is : In s segs) by (rewrite <- El; apply last_in; auto).
  destruct (seg_facts n s (Hs s Is)) as (U & Pl & Ld & He & Hn). pose proof (Hs s Is) as (L0 & L1 & _).
  assert (Lx : length x = n) by (unfold x; autorewrite with vlen; lia).
  assert (A : path_attractor segs = s_end s) by (unfold path_attractor; rewrite El; auto).
  assert (V : vsub (path_attractor segs) x = vscale (- c) (s_dir s)) by (rewrite A; unfold x; vext; ring).
  assert (Nn : norm (vscale (- c) (s_dir s)) = c).
  { rewrite norm_vscale, (proj1 (unit_norm _) U), Rabs_left by lra. ring. }
  assert (Na : x <> path_attractor segs).
  { intros H. rewrite <- H in V. assert (Z : norm (vsub x x) = 0).
    { replace (vsub x x) with (vzero (length x)) by (vext; ring). apply norm_zero_iff. rewrite length_vzero. auto. }
    rewrite V, Nn in Z. lra. }
  destruct (path_tree_built segs x Ne Hs Lx Hl Na) as (Eg & Ug & Lg & t & Et & B).
  set (g := direction (vsub (path_attractor segs) x)) in *.
  assert (Dg : dot g (s_dir s) = -1).
  { unfold g, direction. rewrite V, Nn. unfold vdiv. rewrite !dot_vscale_l. unfold unitv in U. rewrite U. field. lra. }
  destruct (C43_weights_partial n segs x 2 3 1 Ne Hs Lx ltac:(lra) ltac:(lra)) as (ws & Ew & Lw & _).
  unfold path_evaluate. cbv zeta. rewrite path_magnitude_value.
  assert (Dx : dist x (path_attractor segs) = c).
  { unfold dist. replace (vsub x (path_attractor segs)) with (vscale c (s_dir s)) by (rewrite A; unfold x; vext; ring).
    rewrite norm_vscale, (proj1 (unit_norm _) U), Rabs_right by lra. ring. }
  rewrite Dx. destruct (Req_EM_T (Rmin 1 c) 0) as [H|_]; [exfalso; revert H; unfold Rmin; destruct (Rle_dec 1 c); lra|].
  unfold path_sequence. rewrite Ew, Et. cbn [bind]. fold (path_ids segs). pose proof B as [W I G S1 D C]. cbn [plus] in *.
  set (k := (length segs - 1)%nat).
  assert (Hk : (S k = length segs)%nat) by (unfold k; destruct segs; [contradiction|cbn [length]; lia]).
  assert (N1 := G (S k) ltac:(lia)). assert (N0 := G k ltac:(lia)).
  destruct (C73_opposite_neighbours_break_every_mean n t _ (sort t) orth0 blank (path_ids segs) ws (gid (S k)) (gid k)
    (mkAttrs (length segs - S k) (dir_at g segs (S k))) (mkAttrs (length segs - k) (dir_at g segs k)) W Hn Bn (SS n t _ W)) as [Er _]; auto.
  { unfold path_ids. rewrite app_length, map_length, seq_length. cbn [length]. lia. }
  { apply (path_ids_in x g segs t B). }
  { apply C. lia. }
  { cbn [a_dir]. unfold dir_at. rewrite (proj2 (nth_error_None segs (S k))) by lia.
    unfold k. rewrite (last_nth_error segs (mkSeg [] [] [] 0) Ne), El. exact Dg. }
  rewrite Er. reflexivity.
Qed.

(** The attractor itself: a number, not an array. *)
Theorem C135_attractor_refuted : forall segs, segs <> [] -> (forall s, In s segs -> seg_ok n s) ->
  path_evaluate orth0 sort segs (path_attractor segs) = Ok (Number 0).
Proof.
  intros segs Ne Hs. unfold path_evaluate. cbv zeta. rewrite path_magnitude_value.
  assert (D : dist (path_attractor segs) (path_attractor segs) = 0).
  { unfold dist. replace (vsub _ _) with (vzero (length (path_attractor segs))) by (vext; ring). apply norm_zero_iff. rewrite length_vzero. auto. }
  rewrite D, Rmin_right by lra. destruct (Req_EM_T 0 0); [auto|contradiction].
Qed.

(** A path of more than 98 segments cannot be evaluated anywhere else. *)
Lemma build_fails x g t0 m : forall l k, (forall s, In s l -> seg_ok n s) -> length x = n -> m = (k + length l)%nat ->
  (98 < length l)%nat -> rooted_tree n t0 (gid m) -> ids t0 = [gid m] ->
  node t0 (gid m) (mkAttrs 0 g) -> (forall u v, ~ edge t0 u v) ->
  foldM (add_segment x) t0 (rev (combine (seq k (length l)) l)) = Err EValue.
Proof.
  induction l as [|s l IH]; intros k Hs Lx Em Hl W0 I0 N0 E0; [cbn [length] in Hl; lia|].
  cbn [length seq combine rev] in *. rewrite foldM_app. destruct (le_lt_dec (length l) 98) as [Ll|Ll].
  2:{ rewrite (IH (S k)); auto; try lia. intros; apply Hs; right; auto. }
  assert (El : length l = 98%nat) by lia.
  destruct (build n x g (S k) l t0) as (t1 & E1 & [W1 I1 G1 S1 D1 C1]); auto.
  { intros; apply Hs; right; auto. }
  { replace (S k + length l)%nat with m by lia. auto. }
  { replace (S k + length l)%nat with m by lia. auto. }
  { replace (S k + length l)%nat with m by lia. auto. }
  rewrite E1. cbn [bind foldM].
  destruct (C43_segment_direction n s x (Hs s (or_introl eq_refl)) Lx) as (d & c & Ed & Ud & _).
  destruct (seg_facts n s (Hs s (or_introl eq_refl))) as (Us & _ & Ls & _ & Hn).
  unfold add_segment at 1. rewrite Ed. cbn [bind].
  assert (G0 := G1 0%nat ltac:(lia)). replace (S k + 0)%nat with (S k) in G0 by lia.
  replace (length l - 0)%nat with (length l) in G0 by lia.
  destruct (add_node_plain n t1 (gid (S k + length l)) (gid k) (s_dir s) (gid (S k)) _ W1 G0) as (t2 & E2 & W2 & I2 & K2 & N2 & D2).
  { cbn [a_level]. lia. }
  { apply norm_neq_0_dot. unfold unitv in Us. lra. }
  { intros H. apply I1 in H. destruct H as (j & Hj & [H|H]); [apply gid_inj in H; lia|exact (gid_sid _ _ H)]. }
  { auto. }
  rewrite E2. cbn [lift bind]. cbn [a_level] in N2. rewrite El in N2.
  unfold add_node. destruct (Req_EM_T (norm d) 0) as [H|_].
  { exfalso. apply norm_eq_0_dot in H. unfold unitv in Ud. lra. }
  cbv zeta. destruct (has_node t2 (sid k)) eqn:Hn2.
  { reflexivity. }
  assert (Hp : get_attrs (nx_add_edge t2 (gid k) (sid k)) (gid k) = get_attrs t2 (gid k)).
  { unfold get_attrs. f_equal. unfold nx_add_edge.
    assert (Tg : nx_touch t2 (gid k) = t2).
    { unfold nx_touch. replace (has_node t2 (gid k)) with true; auto. symmetry. unfold has_node. apply mem_In. apply (node_in_ids _ _ _ N2). }
    rewrite Tg. cbv zeta.
    assert (Q : assoc (gid k) (t_nodes (nx_touch t2 (sid k))) = assoc (gid k) (t_nodes t2)).
    { unfold nx_touch. rewrite Hn2. cbn [t_nodes]. clear. induction (t_nodes t2) as [|[y a] l IH]; cbn [assoc app].
      - unfold nid_eqb. destruct (nid_eq_dec (gid k) (sid k)); [discriminate|auto].
      - destruct (nid_eqb (gid k) y); auto. }
    destruct (existsb _ _); cbn [t_nodes]; rewrite Q; auto. }
  rewrite Hp, (proj2 (get_attrs_node n t2 _ W2 _ _) N2). cbn [a_level].
  replace (maximum_level <=? _)%nat with true by (symmetry; apply Nat.leb_le; unfold maximum_level; lia). reflexivity.
Qed.
Theorem C135_long_refuted : forall segs x, (98 < length segs)%nat -> (forall s, In s segs -> seg_ok n s) -> length x = n ->
  x <> path_attractor segs -> path_evaluate orth0 sort segs x = Err EValue.
Proof.
  intros segs x Hl Hs Lx Na.
  assert (Ne : segs <> []) by (intros ->; cbn [length] in Hl; lia).
  assert (La : length (path_attractor segs) = n) by (apply (Hs (last segs (mkSeg [] [] [] 0))); apply last_in; auto).
  assert (Nz : forall u v : vec, length u = n -> length v = n -> u <> v -> norm (vsub u v) <> 0).
  { intros u v Lu Lv H Z. apply H. apply norm_zero_iff in Z. apply vec_ext; [lia|]. intros i.
    assert (Q : nth i (vsub u v) 0 = 0) by (rewrite Z; apply nth_vzero). autorewrite with vnth in Q. lra. }
  destruct (seg_facts n _ (Hs _ (last_in segs (mkSeg [] [] [] 0) Ne))) as (_ & _ & _ & _ & Hn).
  destruct (C43_weights_partial n segs x 2 3 1 Ne Hs Lx ltac:(lra) ltac:(lra)) as (ws & Ew & _).
  unfold path_evaluate. cbv zeta. rewrite path_magnitude_value.
  pose proof (norm_pos _ (Nz x (path_attractor segs) Lx La Na)) as Pd.
  destruct (Req_EM_T _ 0) as [H|_]; [exfalso; revert H; unfold Rmin, dist; destruct (Rle_dec _ _); lra|].
  unfold path_sequence. rewrite Ew. cbn [bind].
  assert (G : global_direction segs x = direction (vsub (path_attractor segs) x)).
  { unfold global_direction. cbv zeta. destruct (Req_EM_T _ 0) as [H|_]; [|reflexivity]. exfalso. apply (Nz _ _ La Lx (not_eq_sym Na) H). }
  set (g := direction (vsub (path_attractor segs) x)) in *.
  assert (Ug : unitv g) by (apply unit_vdiv; auto).
  destruct (set_root_grown n (gid (length segs)) g Hn) as (t0 & E0 & [W0 _] & I0 & Nd0 & Ed0).
  { unfold g, direction; autorewrite with vlen; lia. }
  { apply norm_neq_0_dot. unfold unitv in Ug. lra. }
  unfold path_tree. rewrite G, E0. cbn [bind]. rewrite (build_fails x (dirof g) t0 (length segs) segs 0); auto.
Qed.
End Path.

(** A path with a corner, from a position on its first segment. *)
Definition lane1 := mkSeg [0; 0] [9/8; 0] [1; 0] (9/8).
Definition lane2 := mkSeg [5/4; 1/12] [5/4; 1/3] [0; 1] (1/4).
Lemma lanes_ok s : In s [lane1; lane2] -> seg_ok 2 s.
Proof.
  intros [<-|[<-|[]]]; (split; [auto|]; split; [auto|]); unfold create_segment; cbn [s_start s_end lane1 lane2].
  - assert (E : norm (vsub [9/8; 0] [0; 0]) = 9/8) by (apply norm_is_axis; [unfold vsub; simpl; vnum|lra]).
    rewrite E. destruct (Req_EM_T (9/8) 0); [lra|]. cbn. unfold lane1. f_equal. f_equal. unfold vdiv; simpl; vnum.
  - assert (E : norm (vsub [5/4; 1/3] [5/4; 1/12]) = 1/4) by (apply norm_is_axis2; [unfold vsub; simpl; vnum|lra]).
    rewrite E. destruct (Req_EM_T (1/4) 0); [lra|]. cbn. unfold lane2. f_equal. f_equal. unfold vdiv; simpl; vnum.
Qed.
Lemma first_not_close a b c d : 1/10 <= Rabs (a - c) -> Rabs c <= 1 -> allclose [a; b] [c; d] = false.
Proof.
  intros H1 H2. assert (P : 0 < / 10 ^ 8 /\ / 10 ^ 8 <= / 100 /\ 0 < / 10 ^ 5 /\ / 10 ^ 5 <= / 100).
  { split; [apply Rinv_0_lt_compat; lra|]. split; [apply Rinv_le_contravar; lra|].
    split; [apply Rinv_0_lt_compat; lra|apply Rinv_le_contravar; lra]. }
  simpl. replace (isclose a c) with false; auto. symmetry. unfold isclose. apply Rleb_false.
  pose proof (Rabs_pos c). assert (/ 10 ^ 5 * Rabs c <= / 100 * 1) by (apply Rmult_le_compat; lra). lra.
Qed.
Lemma norm_345 c : 0 <= c -> norm [3 * c; 4 * c] = 5 * c.
Proof. intros. unfold norm. replace (dot _ _) with ((5 * c) * (5 * c)) by (simpl; ring). apply sqrt_square; lra. Qed.
Example C135_case : forall orth0 sort, (forall v, length (orth0 v) = length v) -> sorts sort ->
  path_evaluate orth0 sort [lane1; lane2] [1; 0] = Ok (Vector [5/12; 0]).
Proof.
  intros orth0 sort OL SS.
  assert (V : vsub (path_attractor [lane1; lane2]) [1; 0] = [3 * (1/12); 4 * (1/12)]).
  { unfold path_attractor, vsub. cbn [last lane2 s_end]. simpl. f_equal; [|f_equal]; field. }
  assert (G : direction (vsub (path_attractor [lane1; lane2]) [1; 0]) = [3/5; 4/5]).
  { unfold direction. rewrite V, norm_345 by lra. unfold vdiv. simpl. f_equal; [|f_equal]; field. }
  assert (On : on_segment lane1 [1; 0]).
  { exists (8/9). split; [lra|]. cbn [lane1 s_start s_end]. unfold vsub. simpl. f_equal; [|f_equal]; field. }
  assert (E2 : segment_evaluate lane2 [1; 0] = Ok [3/5; 4/5]).
  { unfold segment_evaluate. cbv zeta.
    assert (W : vadd (vscale 3 (vsub (vadd (s_start lane2) (vscale (dot (vsub [1; 0] (s_start lane2)) (s_dir lane2)) (s_dir lane2))) [1; 0])) (s_dir lane2) = [3 * (1/4); 4 * (1/4)]).
    { cbn [lane2 s_start s_dir]. unfold vsub. simpl. f_equal; [|f_equal]; field. }
    rewrite W, norm_345 by lra. destruct (Req_EM_T _ 0); [lra|]. unfold vdiv. simpl. f_equal. f_equal; [|f_equal]; field. }
  assert (D2 : get_distance lane2 [1; 0] <> 0).
  { intros H. apply (C43_segment_distance 2) in H; [|apply lanes_ok; simpl; auto|auto]. destruct H as (t & Ht & H).
    cbn [lane2 s_start s_end] in H. unfold vsub in H. simpl in H. injection H as H _. lra. }
  destruct (C135_followed 2 orth0 sort OL SS [lane1; lane2] [1; 0]) as (v & Ev & _ & Dv).
  { discriminate. } { apply lanes_ok. } { auto. } { simpl; lia. }
  { unfold path_attractor. cbn [last lane2 s_end]. intros H. injection H as H. lra. }
  { constructor.
    - intros [|[|i]] s s' H1 H2; cbn in H1, H2; try (destruct i; discriminate); try discriminate. injection H1 as <-. injection H2 as <-.
      apply related_right; [left; split; auto; apply Rabs_R1|ring].
    - intros s H. cbn in H. injection H as <-. rewrite G. cbn [lane2 s_dir]. split; [simpl; lra|]. right.
      apply first_not_close; [rewrite Rabs_right; lra|rewrite Rabs_R0; lra].
    - intros s d [<-|[<-|[]]] H.
      + left. rewrite (on_segment_direction 2 lane1 [1; 0]) in H; [congruence|apply lanes_ok; simpl; auto|auto|exact On].
      + right. rewrite E2 in H. injection H as <-. cbn [lane2 s_dir]. apply first_not_close; [rewrite Rabs_left; lra|rewrite Rabs_right; lra]. }
  { cbn [containing]. rewrite (proj2 (Reqb_false _ _) D2). destruct (Reqb _ 0); lia. }
  rewrite Ev, (Dv lane1 (or_introl eq_refl) On). do 2 f_equal.
  assert (Ds : dist [1; 0] (path_attractor [lane1; lane2]) = 5/12).
  { unfold dist. replace (vsub [1; 0] _) with (vscale (-1) (vsub (path_attractor [lane1; lane2]) [1; 0])).
    - rewrite V, norm_vscale, norm_345, Rabs_left by lra. lra.
    - unfold path_attractor. cbn [last lane2 s_end]. unfold vsub. simpl. f_equal; [|f_equal]; field. }
  rewrite Ds, Rmin_right by lra. cbn [lane1 s_dir]. simpl. f_equal; [|f_equal]; field.
Qed.
(** The same path, in the prolongation of its last segment. *)
Example C135_ahead_case : forall orth0 sort, sorts sort ->
  path_evaluate orth0 sort [lane1; lane2] [5/4; 2] = Err ENaN.
Proof.
  intros orth0 sort SS. replace [5/4; 2] with (vadd (s_end lane2) (vscale (5/3) (s_dir lane2))).
  - apply (C135_ahead_refuted 2); auto; try discriminate; try lra; [apply lanes_ok|simpl; lra|simpl; lia].
  - cbn [lane2 s_end s_dir]. simpl. f_equal; [|f_equal]; field.
Qed.
(** A path of many segments. *)
Example C135_long_case : forall orth0 sort,
  path_evaluate orth0 sort (repeat lane1 99) [0; 0] = Err EValue.
Proof.
  intros. apply (C135_long_refuted 2); [rewrite repeat_length; lia| |auto|].
  - intros s H. apply repeat_spec in H. subst. apply lanes_ok. simpl; auto.
  - unfold path_attractor. cbn. intros H. injection H as H. lra.
Qed.

(** ** C136: dynamics with a moving base *)
(** The influence on the base: full within the radius, none beyond twice the radius. *)
Definition influence_of (radius d : R) : R := Rmax 0 (Rmin 1 (2 - d / radius)).
Lemma base_weight_value radius d : 0 < radius ->
  base_weight radius d = if Rltb d (2 * radius) then Some (influence_of radius d) else None.
Proof.
  intros P. unfold base_weight, influence_of, decent_factor.
  assert (Q : forall z, d = z * radius -> d / radius = z) by (intros z ->; field; lra).
  destruct (Rltb d radius) eqn:E1.
  - apply Rltb_true in E1. rewrite (proj2 (Rltb_true _ _)) by lra. f_equal.
    assert (d / radius < 1) by (apply (Rmult_lt_reg_r radius); [lra|]; unfold Rdiv; rewrite Rmult_assoc, Rinv_l by lra; lra).
    rewrite Rmin_left, Rmax_right by lra. auto.
  - apply Rltb_false in E1. replace (radius * 2) with (2 * radius) by ring. destruct (Rltb d (2 * radius)) eqn:E2; auto.
    apply Rltb_true in E2. f_equal.
    assert (1 <= d / radius) by (apply (Rmult_le_reg_r radius); [lra|]; unfold Rdiv; rewrite Rmult_assoc, Rinv_l by lra; lra).
    assert (d / radius < 2) by (apply (Rmult_lt_reg_r radius); [lra|]; unfold Rdiv; rewrite Rmult_assoc, Rinv_l by lra; lra).
    rewrite Rmin_right, Rmax_right by lra. field. lra.
Qed.
Lemma influence_range radius d : 0 <= influence_of radius d <= 1.
Proof. unfold influence_of, Rmax, Rmin. repeat destruct (Rle_dec _ _); lra. Qed.
Lemma influence_far radius d : 0 < radius -> 2 * radius <= d -> influence_of radius d = 0.
Proof.
  intros P H. unfold influence_of. assert (2 <= d / radius) by (apply (Rmult_le_reg_r radius); [lra|]; unfold Rdiv; rewrite Rmult_assoc, Rinv_l by lra; lra).
  rewrite Rmin_right, Rmax_left by lra. auto.
Qed.
Lemma influence_lipschitz radius d1 d2 : 0 < radius -> Rabs (influence_of radius d1 - influence_of radius d2) <= Rabs (d1 - d2) / radius.
Proof.
  intros P. assert (Pi : 0 < / radius) by (apply Rinv_0_lt_compat; auto).
  replace (Rabs (d1 - d2) / radius) with (Rabs (d1 / radius - d2 / radius)).
  2:{ unfold Rdiv. rewrite <- Rmult_minus_distr_r, Rabs_mult, (Rabs_right (/ radius)) by lra. auto. }
  unfold influence_of. set (a := d1 / radius). set (b := d2 / radius). clearbody a b.
  unfold Rmax, Rmin. repeat destruct (Rle_dec _ _); unfold Rabs; repeat destruct (Rcase_abs _); lra.
Qed.
Lemma update_base_value f d p : 0 < mv_radius d -> length (f (mv_base d)) = length (mv_base d) ->
  mv_base (update_base f d p) =
    vadd (mv_base d) (vscale (mv_step d * influence_of (mv_radius d) (dist p (mv_base d))) (f (mv_base d))).
Proof.
  intros P Lf. unfold update_base. rewrite base_weight_value by auto. fold (dist p (mv_base d)).
  destruct (Rltb _ _) eqn:E; cbn [mv_base].
  - vext. ring.
  - apply Rltb_false in E. rewrite influence_far by auto. vext. ring.
Qed.

(** The base moves along its field: fully while the position is within the radius, not at all when
    it is beyond twice the radius; never by more than the step of the field; nearby positions move it
    alike. *)
Theorem C136_update : forall f d p, 0 < mv_radius d -> 0 <= mv_step d -> length (f (mv_base d)) = length (mv_base d) ->
  let b' := mv_base (update_base f d p) in
  (exists w, 0 <= w <= 1 /\ b' = vadd (mv_base d) (vscale (mv_step d * w) (f (mv_base d)))) /\
  (dist p (mv_base d) <= mv_radius d -> b' = vadd (mv_base d) (vscale (mv_step d) (f (mv_base d)))) /\
  (2 * mv_radius d <= dist p (mv_base d) -> b' = mv_base d) /\
  norm (vsub b' (mv_base d)) <= mv_step d * norm (f (mv_base d)) /\
  (forall q, length p = length (mv_base d) -> length q = length (mv_base d) ->
     norm (vsub b' (mv_base (update_base f d q))) <= mv_step d * norm (f (mv_base d)) / mv_radius d * dist p q).
Proof.
  intros f d p P St Lf. cbv zeta. pose proof (influence_range (mv_radius d) (dist p (mv_base d))) as Ri.
  rewrite update_base_value by auto. pose proof (norm_nonneg (f (mv_base d))) as Nf.
  split; [exists (influence_of (mv_radius d) (dist p (mv_base d))); split; auto|].
  split.
  { intros H. assert (I1 : influence_of (mv_radius d) (dist p (mv_base d)) = 1).
    { unfold influence_of. assert (dist p (mv_base d) / mv_radius d <= 1).
      { apply (Rmult_le_reg_r (mv_radius d)); [lra|]. unfold Rdiv. rewrite Rmult_assoc, Rinv_l by lra. lra. }
      rewrite Rmin_left, Rmax_right by lra. auto. }
    rewrite I1, Rmult_1_r. auto. }
  split.
  { intros H. rewrite influence_far by auto. vext. ring. }
  split.
  { replace (vsub (vadd _ _) _) with (vscale (mv_step d * influence_of (mv_radius d) (dist p (mv_base d))) (f (mv_base d))) by (vext; ring).
    rewrite norm_vscale, Rabs_right by (apply Rle_ge, Rmult_le_pos; lra).
    apply Rmult_le_compat_r; auto. rewrite <- (Rmult_1_r (mv_step d)) at 2. apply Rmult_le_compat_l; lra. }
  intros q Lp Lq. rewrite update_base_value by auto.
  replace (vsub (vadd _ _) (vadd _ _)) with
    (vscale (mv_step d * (influence_of (mv_radius d) (dist p (mv_base d)) - influence_of (mv_radius d) (dist q (mv_base d)))) (f (mv_base d))) by (vext; ring).
  rewrite norm_vscale, Rabs_mult, (Rabs_right (mv_step d)) by lra.
  pose proof (influence_lipschitz (mv_radius d) (dist p (mv_base d)) (dist q (mv_base d)) P) as HL.
  assert (Tr : Rabs (dist p (mv_base d) - dist q (mv_base d)) <= dist p q).
  { assert (T1 : dist p (mv_base d) <= dist p q + dist q (mv_base d)).
    { unfold dist. replace (vsub p (mv_base d)) with (vadd (vsub p q) (vsub q (mv_base d))) by (vext; ring). apply norm_triangle. }
    assert (T2 : dist q (mv_base d) <= dist p q + dist p (mv_base d)).
    { unfold dist. replace (vsub q (mv_base d)) with (vadd (vscale (-1) (vsub p q)) (vsub p (mv_base d))) by (vext; ring).
      eapply Rle_trans; [apply norm_triangle|]. rewrite norm_vscale, Rabs_left by lra. lra. }
    unfold Rabs. destruct (Rcase_abs _); lra. }
  set (D := Rabs (influence_of _ _ - influence_of _ _)) in *. set (E := Rabs (dist p _ - dist q _)) in *.
  replace (mv_step d * D * norm (f (mv_base d))) with (mv_step d * norm (f (mv_base d)) * D) by ring.
  replace (mv_step d * norm (f (mv_base d)) / mv_radius d * dist p q) with (mv_step d * norm (f (mv_base d)) * (dist p q / mv_radius d)) by (field; lra).
  apply Rmult_le_compat_l; [apply Rmult_le_pos; auto|]. eapply Rle_trans; [exact HL|].
  apply Rmult_le_compat_r; [left; apply Rinv_0_lt_compat; auto|auto].
Qed.

(** A base pulled towards a point never moves away from it, whatever is called in whatever order,
    and stays on the way between its start and the point. *)
Theorem C136_executions : forall main target gain l d, 0 < mv_radius d -> 0 <= mv_step d -> 0 <= gain ->
  mv_step d * gain <= 1 -> length target = length (mv_base d) ->
  let d' := run_calls (fun b => vscale gain (vsub target b)) main d l in
  exists c, 0 <= c <= 1 /\ vsub target (mv_base d') = vscale c (vsub target (mv_base d)) /\ length (mv_base d') = length (mv_base d).
Proof.
  intros main target gain l. induction l as [|a l IH]; intros d P St Ga SG Lt d'.
  - exists 1. split; [lra|]. split; auto. unfold d'. cbn [run_calls]. vext. ring.
  - unfold d'. cbn [run_calls]. destruct a as [p|p].
    + cbn [moving_evaluate fst]. apply IH; auto.
    + set (f := fun b => vscale gain (vsub target b)). set (d1 := update_base f d p).
      assert (Lf : length (f (mv_base d)) = length (mv_base d)) by (unfold f; autorewrite with vlen; lia).
      pose proof (update_base_value f d p P Lf) as E. fold d1 in E.
      assert (R1 : mv_radius d1 = mv_radius d /\ mv_step d1 = mv_step d) by (unfold d1, update_base; destruct (base_weight _ _); auto).
      destruct R1 as [R1 R2]. set (w := influence_of (mv_radius d) (dist p (mv_base d))) in *.
      assert (Hw : 0 <= w <= 1) by apply influence_range.
      assert (L1 : length (mv_base d1) = length (mv_base d)) by (rewrite E; autorewrite with vlen; lia).
      destruct (IH d1) as (c & Hc & Ec & Lc); rewrite ?R1, ?R2, ?L1; auto.
      assert (Hs : 0 <= mv_step d * w * gain <= 1).
      { assert (0 <= mv_step d * gain) by (apply Rmult_le_pos; auto).
        replace (mv_step d * w * gain) with (mv_step d * gain * w) by ring. split; [apply Rmult_le_pos; lra|].
        rewrite <- (Rmult_1_r 1). apply Rmult_le_compat; lra. }
      exists (c * (1 - mv_step d * w * gain)). split.
      { split; [apply Rmult_le_pos; lra|]. replace 1 with (1 * 1) at 2 by ring. apply Rmult_le_compat; lra. }
      fold f in Ec, Lc. split; [|rewrite Lc; auto]. rewrite Ec, E. unfold f. vext. ring.
Qed.

(** Evaluations never move the base, contrary to the description of [evaluate]. *)
Theorem C136_evaluate_refuted : forall f main l d, (forall a, In a l -> exists p, a = Evaluate p) ->
  run_calls f main d l = d.
Proof.
  induction l as [|a l IH]; intros d H; auto. destruct (H a (or_introl eq_refl)) as (p & ->).
  cbn [run_calls moving_evaluate fst]. apply IH. intros; apply H; right; auto.
Qed.
(** Halfway between the radius and twice the radius, half the step. *)
Example C136_case : mv_base (update_base (fun _ => [0; 1]) (mkMoving [0; 0] 2 (1/100)) [3; 0]) = [0; 1/200] /\
  run_calls (fun _ => [0; 1]) (fun _ p => p) (mkMoving [0; 0] 2 (1/100)) [Evaluate [3; 0]; UpdateBase [5; 0]] = mkMoving [0; 0] 2 (1/100).
Proof.
  assert (D1 : norm (vsub [3; 0] [0; 0]) = 3) by (apply norm_is_axis; [unfold vsub; simpl; vnum|lra]).
  assert (D2 : norm (vsub [5; 0] [0; 0]) = 5) by (apply norm_is_axis; [unfold vsub; simpl; vnum|lra]).
  split.
  - rewrite update_base_value by (cbn; auto; lra). cbn [mv_base mv_radius mv_step]. unfold dist. rewrite D1.
    unfold influence_of. replace (2 - 3 / 2) with (1/2) by field. rewrite Rmin_right, Rmax_right by lra. simpl. f_equal; [|f_equal]; field.
  - cbn [run_calls moving_evaluate fst]. unfold update_base. cbn [mv_base mv_radius mv_step]. rewrite D2. unfold base_weight, decent_factor.
    rewrite (proj2 (Rltb_false 5 2)), (proj2 (Rltb_false 5 (2 * 2))) by lra. auto.
Qed.
Print Assumptions C135_followed.
Print Assumptions C135_ahead_refuted.
Print Assumptions C135_attractor_refuted.
Print Assumptions C135_long_refuted.
Print Assumptions C136_update.
Print Assumptions C136_executions.
Print Assumptions C136_evaluate_refuted.
