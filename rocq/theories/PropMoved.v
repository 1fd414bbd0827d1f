(** C168: the whole velocity command follows every change of the frame and of the unit of length. *)
Require Import Reals List Lra Lia Bool ZArith.
From Verif Require Import Base Vec Angle Pow RotModel Spec RotProofs SeqProofs TreeModel TreeSpec
  TreeProofs TreeWeights TreeReduce TreeGeom TreeCases TreeIndep PropTree PropRotation WeightModel WeightProofs PropWeights
  AvoidModel PropAvoid TangentProofs ProjModel PropProject PropTangent ConvModel ConvProofs PropConverge PropConvSeq
  PropFrame PropSimilar DynModel FoldModel FoldProofs PropFold PropInfluence.
Import ListNotations.
Open Scope R_scope.

(** The state of the computation before the last reduction, and its weights. *)
Section Final.
Variables (orth0 : vec -> vec) (sort : tree -> list nid) (initial : dynamics) (default : option dynamics) (A : vec).
Variable weight_of : vec -> component -> res R.
Variables (n : nat) (position : vec) (s0 : sequence) (e0 : vec) (trees : list mtree).
Hypothesis READY : conv_ready orth0 sort initial default A weight_of n position s0 e0 trees.
Let b0 := direction (vsub A position).
Lemma conv_final :
  (forall j c j' c', full_share A weight_of position trees j c -> full_share A weight_of position trees j' c' -> j = j' /\ c = c') ->
  exists t0 st ws tot own, from_sequence conv_root_id conv_init_id s0 = Ok t0 /\
    tree_steps orth0 sort initial default A weight_of position s0 0 trees (mkConv t0 [] []) = Ok st /\
    get_limited_weights_to_max_sum (cv_weights st ++ [0]) = Ok (ws, tot) /\
    sound n (cv_tree st) conv_root_id /\
    assigned (cv_tree st) (cv_nodes st ++ [conv_init_id]) (add_to_last ws (1 - tot)) own /\ (forall x, 0 <= own x) /\
    rsum (add_to_last ws (1 - tot)) = 1.
Proof.
  intros ONE. pose proof READY as [Hn HO HS HA (LA & Lp & Np) P0 R0 H0 HT].
  destruct (from_sequence_sound n conv_root_id conv_init_id s0 b0 e0) as (t0 & l0 & E0 & So & I0 & N0 & N1 & _); auto.
  { lia. } { discriminate. } { discriminate. }
  
  destruct (tree_steps_inv orth0 sort initial default A weight_of n position s0 e0 trees READY trees 0 (mkConv t0 [] [])) as (st & Est & C).
  { intros k. reflexivity. }
  { constructor; cbn [cv_tree cv_nodes cv_weights]; auto.
    - eauto.
    - intros x I. left. rewrite I0 in I. destruct I as [<-|I]; [reflexivity|].
      apply in_app_iff in I. destruct I as [I|[<-|[]]]; [|reflexivity].
      unfold inter_ids in I. apply in_map_iff in I. destruct I as (d & <- & _). reflexivity.
    - intros x [].
    - constructor.
    - simpl. intros x w. split; [contradiction|]. intros (j & c & _ & H & _). lia.
    - simpl. contradiction. }
  rewrite Nat.add_0_r in C.
  assert (Sj : forall j c w, share weight_of A position trees j c w -> (j < length trees)%nat).
  { intros j c w (mt & _ & _ & _ & E & _). apply nth_error_Some. congruence. }
  pose proof C as [C1 C2 (li & C3) C4 C5 C6 C7 C8 C9].
  assert (RNG : forall j c w, share weight_of A position trees j c w -> 0 < w <= 1).
  { intros j c w (mt & g & comp & wc & E1 & _ & E3 & E4 & -> & Tg & Lw). pose proof (tree_share_range g).
    destruct (tr_weight _ _ _ _ _ _ _ _ _ _ (HT mt (nth_error_In _ _ E1)) comp (nth_error_In _ _ E3)) as (w' & Ew' & Hw').
    rewrite Ew' in E4. injection E4 as ->.
    assert (0 < wc) by (destruct (c =? m_root mt)%nat; lra). split; [apply Rmult_lt_0_compat; lra|].
    replace 1 with (1 * 1) by ring. apply Rmult_le_compat; lra. }
  set (L := cv_nodes st ++ [conv_init_id]). set (W := cv_weights st ++ [0]).
  assert (LL : length L = length W) by (unfold L, W; rewrite !app_length; simpl; lia).
  assert (WR : forall w, In w (cv_weights st) -> exists x, In (x, w) (combine (cv_nodes st) (cv_weights st))).
  { intros w I. assert (X : forall (l : list nid) m, length l = length m -> In w m -> exists x, In (x, w) (combine l m)).
    { induction l as [|a l IH]; intros [|b m] Hl Hi; simpl in *; try lia; try contradiction.
      destruct Hi as [->|Hi]; [eauto|]. destruct (IH m) as (x & Hx); auto. eauto. }
    apply X; auto. }
  assert (WU : forall w, In w (cv_weights st) -> 0 < w <= 1).
  { intros w I. destruct (WR w I) as (x & Ix). apply C8 in Ix. destruct Ix as (j & c & _ & _ & Sh). eauto. }
  assert (NW : nonneg W).
  { intros w I. unfold W in I. apply in_app_iff in I. destruct I as [I|[<-|[]]]; [|lra]. specialize (WU w I). lra. }
  assert (NI : ~ In conv_init_id (cv_nodes st)).
  { intros I. destruct (in_combine_ex _ _ _ C4 I) as (w & Iw). apply C8 in Iw.
    destruct Iw as (j & c & E & _). discriminate. }
  assert (NDL : NoDup L) by (apply NoDup_snoc; auto).
  assert (IL : forall x, In x L -> In x (ids (cv_tree st))).
  { intros x I. apply in_app_iff in I. destruct I as [I|[<-|[]]]; auto. eapply node_in_ids; eauto. }
  assert (NTH : forall i, (i < length (cv_weights st))%nat ->
     In (nth i (cv_nodes st) conv_init_id, nth i (cv_weights st) 0) (combine (cv_nodes st) (cv_weights st))).
  { intros i Hi. rewrite <- (combine_nth (cv_nodes st) (cv_weights st) i conv_init_id 0 C4). apply nth_In.
    rewrite combine_length, C4, Nat.min_id. auto. }
  assert (OS : one_saturated_at_most W).
  { intros i j Hi Hj Wi Wj. unfold W in *. rewrite app_length in Hi, Hj. simpl in Hi, Hj.
    assert (B : forall i, (i < length (cv_weights st) + 1)%nat -> 1 <= nth i (cv_weights st ++ [0]) 0 ->
       (i < length (cv_weights st))%nat /\ 1 = nth i (cv_weights st) 0).
    { intros k Hk Wk. destruct (Nat.lt_ge_cases k (length (cv_weights st))) as [Q|Q].
      - rewrite app_nth1 in Wk by auto. split; auto.
        destruct (WU (nth k (cv_weights st) 0)) as [_ U]; [apply nth_In; auto|]. lra.
      - rewrite app_nth2 in Wk by auto. replace (k - length (cv_weights st))%nat with 0%nat in Wk by lia.
        simpl in Wk. lra. }
    destruct (B i Hi Wi) as [Bi Ei]. destruct (B j Hj Wj) as [Bj Ej].
    pose proof (NTH i Bi) as Ii. pose proof (NTH j Bj) as Ij. rewrite <- Ei in Ii. rewrite <- Ej in Ij.
    apply C8 in Ii, Ij. destruct Ii as (j1 & c1 & X1 & _ & S1). destruct Ij as (j2 & c2 & X2 & _ & S2).
    destruct (ONE j1 c1 j2 c2 S1 S2) as [-> ->].
    apply (proj1 (NoDup_nth (cv_nodes st) conv_init_id) C7); try lia. congruence. }
  destruct (C18_limited_weights_partial W NW) as (W' & tot & EW & LW & UW & Ht & Hlo & Hhi & _).
  
  assert (SUM : rsum W' + (1 - tot) = 1).
  { destruct (Rlt_le_dec (rsum W) 1) as [Q|Q].
    - destruct (Hlo Q) as [-> ->]. ring.
    - destruct (Hhi Q) as [-> X]. rewrite (X OS). ring. }
  destruct (snoc_of_length W' (length (cv_weights st))) as (W1 & a & EW1).
  { rewrite LW. unfold W. rewrite app_length. simpl. lia. }
  set (F := add_to_last W' (1 - tot)).
  assert (EF : F = W1 ++ [a + (1 - tot)]) by (unfold F; rewrite EW1; apply add_to_last_snoc).
  assert (LF : length L = length F).
  { rewrite EF, LL, <- LW, EW1, !app_length. auto. }
  assert (NF : nonneg F).
  { intros w I. rewrite EF in I. apply in_app_iff in I. destruct I as [I|[<-|[]]].
    - apply UW. rewrite EW1. apply in_app_iff. auto.
    - assert (0 <= a) by (apply UW; rewrite EW1; apply in_app_iff; right; left; auto). lra. }
  assert (SF : rsum F = 1).
  { rewrite EF, rsum_app. rewrite EW1, rsum_app in SUM. simpl in *. lra. }
  pose proof (wlookup_assigned (cv_tree st) L F NDL LF IL) as AS.
  exists t0, st, W', tot, (wlookup L F). do 5 (split; auto). split; [intros x; apply wlookup_nonneg; auto|auto].
Qed.
End Final.

(** *** Sequences seen in another frame *)
Section Sequences.
Variables (n : nat) (Q : vec -> vec).
Hypothesis FQ : frame_change n Q.
Hypothesis Hn : (2 <= n)%nat.
Notation F := (in_frame Q).

(** [s'] passes the directions of [s], in the new frame. *)
Definition seen (s s' : sequence) : Prop :=
  map rb0 s' = map Q (map rb0 s) /\ exists e, get_end_vector s = Ok e /\ get_end_vector s' = Ok (Q e).

Lemma rel_map s s' : Forall2 (rel Q) s s' -> map rb0 s' = map Q (map rb0 s).
Proof. induction 1 as [|q q' s s' (E & _) H IH]; cbn [map]; auto. rewrite IH, E. auto. Qed.

Lemma reduce_seen t r sl sl' orth0 orth1 st st' l ws own :
  sound n t r -> sound n (F t) r -> level_sorted t sl -> level_sorted (F t) sl' -> assigned t l ws own ->
  (forall v, length (orth0 v) = length v) -> (forall v, length (orth1 v) = length v) ->
  (forall x, 0 <= own x) -> 0 < rsum ws <= 1 ->
  exists s s', reduce_weighted_to_sequence orth0 t st sl l ws = Ok s /\
    reduce_weighted_to_sequence orth1 (F t) st' sl' l ws = Ok s' /\ seen s s'.
Proof.
  intros [W NO DI] [W1 NO1 DI'] SL SL' A O0 O1 OW [T0 T1].
  destruct (assigned_len _ _ _ _ A) as [HL HI].
  pose proof (total_root n t r l ws own W Hn NO A (ex_intro _ sl SL)) as TR.
  pose proof (no_opposite_dirn n t r W NO) as NA.
  pose proof (frame_rooted n Q FQ t r W) as W'.
  pose proof (no_opposite_dirn n _ r W' (frame_no_opposite n Q FQ t r W NO)) as NA'.
  assert (OWi : forall y, In y (ids t) -> 0 <= own y) by auto.
  assert (TOT : wsub t own r <= 1) by (rewrite TR; auto).
  assert (EX : forall p x, edge t p x -> exact_pair (dirn t p) (dirn t x)).
  { intros p x Ep. apply (distinguishable_dirn n t r W DI); auto. }
  assert (EX' : forall p x, edge (F t) p x -> exact_pair (dirn (F t) p) (dirn (F t) x)).
  { intros p x Ep. apply (distinguishable_dirn n _ r W' DI'); auto. }
  assert (OWN : forall y, own y = TreeReduce.own_of (combine l ws) y) by (apply assigned_own with t; auto).
  pose proof (proj1 (frame_sorted Q t sl) SL) as SLF.
  destruct (reduce_pure n t r W Hn NA sl SL own orth0 st l ws HL HI OWN) as [E1 _].
  { intros k Hk _. apply p2_inv_fine with (r := r); auto. apply (inv1 n t r W Hn NA sl SL own OWi TOT EX orth0 k). }
  assert (HIF : forall x, In x l -> In x (ids (F t))) by (rewrite (frame_ids Q); auto).
  assert (TF : wsub (F t) own r <= 1) by (rewrite (frame_wsub Q); auto).
  rewrite (reduce_sort_independent n _ r W' Hn NA' sl' sl SL' SLF own) with (st0' := st'); auto.
  destruct (reduce_pure n (F t) r W' Hn NA' sl SLF own orth1 st' l ws HL HIF OWN) as [E2 _].
  { intros k Hk _. apply p2_inv_fine with (r := r); auto.
    apply (p2_inv_all n (F t) r W' Hn NA' sl SLF own); auto. }
  assert (ML : maxlvl (F t) sl = maxlvl t sl).
  { unfold maxlvl. f_equal. apply map_ext. intros x. apply frame_lvl. }
  rewrite ML in E2.
  pose proof (frame_p2 n Q FQ t r W Hn NA NA' sl SL own OWi TOT EX EX' orth0 orth1 O0 O1 (S (maxlvl t sl))) as (_ & RS & RL). cbv beta in RS, RL.
  pose proof (inv1 n t r W Hn NA sl SL own OWi TOT EX orth0 (S (maxlvl t sl))) as (_ & _ & _ & _ & NN). cbv beta in NN.
  destruct (ps_last (p2 t sl own orth0 (seq 0 (S (maxlvl t sl))))) as [q|]; [|exfalso; apply NN; auto; try lia; lra].
  destruct (ps_last (p2 (F t) sl own orth1 (seq 0 (S (maxlvl t sl))))) as [q'|]; [|destruct RL].
  destruct RL as (RQ & Lq & Lq').
  eexists _, _. split; [exact E1|]. split; [exact E2|]. split.
  - rewrite !map_app. rewrite (rel_map _ _ RS). cbn [map]. destruct RQ as (-> & _). auto.
  - exists (get_second_vector q). rewrite !get_end_snoc. split; [auto|]. f_equal.
    unfold get_second_vector. destruct Lq as [A0 B0], Lq' as [A' B'].
    rewrite !(rotate_direction_eq n) by auto. destruct RQ as (R0 & RA & R1). rewrite RA.
    destruct (Req_EM_T (rangle q) 0) as [Z|N].
    + rewrite Z, !(plane_rot_zero n) by auto. auto.
    + rewrite R0, (R1 N). apply (Q_plane_rot n Q FQ); auto.
Qed.

(** *** Trees of sequences *)
Definition both {A} (r r' : res A) (f : A -> A) : Prop := forall a a', r = Ok a -> r' = Ok a' -> a' = f a.

Lemma add_inter_F id : forall s s' t p i, map rb0 s' = map Q (map rb0 s) -> Forall (fun q => length (rb0 q) = n) s ->
  forall t1 q t1' q', add_inter t id p i s = (t1, Ok q) -> add_inter (F t) id p i s' = (t1', Ok q') -> t1' = F t1 /\ q' = q.
Proof.
  induction s as [|r s IH]; intros s' t p i E L t1 q t1' q' H H'.
  - destruct s'; [|discriminate]. cbn [add_inter] in *. injection H as <- <-. injection H' as <- <-. auto.
  - destruct s' as [|r' s']; [discriminate|]. cbn [map] in E. injection E as E0 E. pose proof (Forall_inv L) as L0. pose proof (Forall_inv_tail L) as L1. cbv beta in L0.
    cbn [add_inter] in *. rewrite E0 in H'.
    pose proof (F_add_node Q n FQ t (NPair id (NInt (Z.of_nat i))) (rb0 r) p L0) as X.
    destruct (add_node t _ _ _ _ _) as [u [|]]; [|discriminate].
    destruct (add_node (F t) _ _ _ _ _) as [u' [|]]; [|discriminate]. cbn [lift rmap] in X. injection X as ->.
    eapply IH; eauto.
Qed.

Lemma add_sequence_F t id s s' p : seen s s' -> Forall (fun q => length (rb0 q) = n) s ->
  (forall e, get_end_vector s = Ok e -> length e = n) ->
  both (lift (add_sequence t id s p true)) (lift (add_sequence (F t) id s' p true)) F.
Proof.
  intros (E & e & Ee & Ee') L Le t1 t1' H H'. specialize (Le e Ee). unfold add_sequence, seq_start in *.
  destruct s as [|r s]; [discriminate|]. destruct s' as [|r' s']; [discriminate|].
  cbn [map] in E. injection E as E0 E. pose proof (Forall_inv L) as L0. pose proof (Forall_inv_tail L) as L1. cbv beta in L0.
  destruct (get_attrs t p); [|discriminate]. destruct (allclose _ _); [|discriminate].
  destruct (get_attrs (F t) p); [|discriminate]. destruct (allclose _ _); [|discriminate].
  destruct (add_inter t id p 1 s) as [u [q|]] eqn:A1; [|discriminate].
  destruct (add_inter (F t) id p 1 s') as [u' [q'|]] eqn:A2; [|discriminate].
  destruct (add_inter_F id s s' t p 1 E L1 u q u' q' A1 A2) as [-> ->].
  rewrite Ee in H. rewrite Ee' in H'. rewrite (F_add_node Q n FQ) in H' by auto. rewrite H in H'. cbn [rmap] in H'. congruence.
Qed.

Lemma set_root_F rid d t t' : length d = n -> norm d <> 0 -> set_root empty_tree rid d = Ok t -> set_root empty_tree rid (Q d) = Ok t' -> t' = F t.
Proof.
  intros L N E E'. pose proof (fc_len n Q FQ d L) as L'.
  destruct (set_root_rooted n rid d t Hn L E) as (_ & N0 & N1).
  destruct (set_root_rooted n rid (Q d) t' Hn L' E') as (_ & N0' & N1').
  assert (RT : t_root t = Some rid /\ t_root t' = Some rid).
  { unfold set_root in E, E'. destruct (from_directions d d); [|discriminate]. destruct (from_directions (Q d) (Q d)); [|discriminate].
    cbn [bind] in E, E'. injection E as <-. injection E' as <-. auto. }
  destruct RT as [R0 R0']. destruct t as [a b c], t' as [a' b' c']. cbn [t_nodes t_edges t_root] in *. subst a b c a' b' c'.
  unfold in_frame. cbn [t_nodes t_edges t_root map fst snd option_map a_dir a_level].
  rewrite (Q_div Q n FQ) by auto. rewrite (Q_nrm Q n FQ) by auto. auto.
Qed.
Lemma from_sequence_F rid id s s' b e : passes n s b e -> seen s s' -> both (from_sequence rid id s) (from_sequence rid id s') F.
Proof.
  intros [(r0 & s1 & -> & E0) Fs En [Le Ue]] SE t t' H H'. pose proof SE as (E & _).
  destruct s' as [|r' s']; [discriminate|]. cbn [map] in E. injection E as E1 E.
  assert (FL : Forall (fun q => length (rb0 q) = n) (r0 :: s1)) by (eapply Forall_impl; [|exact Fs]; intros q [X _]; auto).
  destruct (Forall_inv Fs) as [L0 U0]. subst b.
  unfold from_sequence in *. destruct (set_root empty_tree rid (rb0 r0)) as [u|] eqn:A; [|discriminate].
  rewrite E1 in H'. destruct (set_root empty_tree rid (Q (rb0 r0))) as [u'|] eqn:A'; [|discriminate].
  assert (u' = F u) by (apply (set_root_F rid (rb0 r0)); auto; apply norm_neq_0_dot; unfold unitv in U0; lra). subst u'.
  cbn [bind] in *.
  apply (add_sequence_F u id (r0 :: s1) (r' :: s') rid); auto.
  - intros e' Ee'. rewrite En in Ee'. injection Ee' as <-. auto.
Qed.
End Sequences.

Lemma map_nth_error_ex {X Y} (f : X -> Y) l j y : nth_error (map f l) j = Some y -> exists x, nth_error l j = Some x /\ y = f x.
Proof.
  revert j. induction l as [|a l IH]; intros [|j]; cbn [map nth_error]; try discriminate; auto.
  intros E. injection E as <-. eauto.
Qed.
Lemma Forall2_inv_head {X Y} (P : X -> Y -> Prop) x y l l' : Forall2 P (x :: l) (y :: l') -> P x y /\ Forall2 P l l'.
Proof. intros H. inversion H; auto. Qed.
Lemma F2_nth {X} (P : X -> X -> Prop) l l' : Forall2 P l l' -> forall j x x', nth_error l j = Some x -> nth_error l' j = Some x' -> P x x'.
Proof.
  induction 1 as [|a a' l l' Ha H IH]; intros [|j] x x'; cbn [nth_error]; try discriminate.
  - intros E E'. injection E as <-. injection E' as <-. auto.
  - apply IH.
Qed.

(** *** Specification: dynamics in another frame *)
(** The system [d'] flows in the new frame and unit as [d] in the old one, to the moved attractor. *)
Record moved_dynamics (n : nat) (lam : R) (Q : vec -> vec) (shift A : vec) (d d' : dynamics) : Prop := {
  md_own : dy_own d = None /\ dy_own d' = None;
  md_attractor : dy_attractor d = Some A /\ dy_attractor d' = Some (place lam Q shift A);
  md_flow : forall p, length p = n -> length (dy_eval d p) = n /\
    dy_eval d' (place lam Q shift p) = vscale lam (Q (dy_eval d p)) }.
(** At [p] the system [d] can be followed: away from attractor and rest, not straight away from the attractor, and not
    within the tolerance of the straight line. *)
Definition steady (A : vec) (d : dynamics) (p : vec) : Prop :=
  / 10 ^ 8 < norm (vsub A p) /\ / 10 ^ 8 < norm (dy_eval d p) /\
  related (direction (vsub A p)) (direction (dy_eval d p)).

Lemma direction_scaled lam v : 0 < lam -> norm v <> 0 -> direction (vscale lam v) = direction v.
Proof.
  intros Hl N. unfold direction. rewrite norm_vscale, Rabs_right by lra. vext. field. split; lra.
Qed.

Section Moved.
Variables (n : nat) (Q : vec -> vec) (lam : R) (shift : vec).
Hypothesis FQ : frame_change n Q.
Hypothesis Hn : (2 <= n)%nat.
Hypothesis Hlam : 0 < lam.
Hypothesis Lshift : length shift = n.
Notation F := (in_frame Q).
Notation T := (place lam Q shift).

Lemma direction_Q u : length u = n -> direction (Q u) = Q (direction u).
Proof. intros L. unfold direction. rewrite (Q_nrm Q n FQ) by auto. apply (Q_div Q n FQ); auto. Qed.
Lemma direction_len u : length u = n -> length (direction u) = n.
Proof. intros L. unfold direction. autorewrite with vlen. auto. Qed.
Lemma away_moved p q : length p = n -> length q = n -> norm (vsub p q) <> 0 ->
  direction (vsub (T p) (T q)) = Q (direction (vsub p q)).
Proof.
  intros Lp Lq N. assert (L : length (vsub p q) = n) by (rewrite length_vsub; lia).
  rewrite (T_sub n Q lam shift FQ Hn Lshift) by auto. rewrite direction_scaled; auto.
  - apply direction_Q; auto.
  - rewrite (Q_nrm Q n FQ) by auto. auto.
Qed.

Lemma dynamics_seen A d d' p : length A = n -> length p = n -> moved_dynamics n lam Q shift A d d' ->
  steady A d p -> steady (T A) d' (T p) ->
  exists s s', evaluate_dynamics_sequence p d None = Ok (Some s) /\
    evaluate_dynamics_sequence (T p) d' None = Ok (Some s') /\ seen Q s s'.
Proof.
  intros LA Lp [[O O'] [B B'] FL] (N1 & N2 & R1 & R2) (N1' & N2' & R1' & R2'). destruct (FL p Lp) as [Lv Ev].
  assert (LTA : length (T A) = n) by (apply (T_len n Q lam shift FQ Hn Lshift); auto).
  assert (LTp : length (T p) = n) by (apply (T_len n Q lam shift FQ Hn Lshift); auto).
  assert (Lv' : length (dy_eval d' (T p)) = n) by (rewrite Ev, length_vscale; apply (Q_len Q n FQ); auto).
  destruct (C62_dynamics_sequence_partial n d p A Hn O B LA Lp Lv) as (_ & _ & X).
  destruct (C62_dynamics_sequence_partial n d' (T p) (T A) Hn O' B' LTA LTp Lv') as (_ & _ & X').
  destruct (X N1 N2 R1) as (r & e & E & _ & E0 & Ee & _ & He & _).
  destruct (X' N1' N2' R1') as (r' & e' & E' & _ & E0' & Ee' & _ & He' & _).
  exists [r], [r']. split; [exact E|]. split; [exact E'|].
  assert (P : 0 < / 10 ^ 8) by (apply Rinv_0_lt_compat; lra).
  split.
  - cbn [map]. f_equal. unfold get_first_vector in *. rewrite E0, E0'. apply away_moved; auto. lra.
  - exists e. split; auto. rewrite Ee', (He R2), (He' R2'), Ev. f_equal. rewrite direction_scaled; auto.
    + apply direction_Q; auto.
    + rewrite (Q_nrm Q n FQ) by auto. lra.
Qed.

Section Conv.
Variables (orth0 orth0' : vec -> vec) (sort sort' : tree -> list nid).
Variables (initial initial' : dynamics) (default default' : option dynamics) (A : vec).
Variables (weight_of weight_of' : vec -> component -> res R).
Variables (position : vec) (s0 s0' : sequence) (e0 e0' : vec) (trees trees' : list btree).
Notation ready := (conv_ready orth0 sort initial default A weight_of n position s0 e0 (map mtree_of trees)).
Notation ready' := (conv_ready orth0' sort' initial' default' (T A) weight_of' n (T position) s0' e0' (map mtree_of trees')).
Hypothesis RD : ready.
Hypothesis RD' : ready'.
Hypothesis MT : Forall2 (moved_tree n lam Q shift) trees trees'.
Let same_weights t t' := Forall2 (fun c c' => weight_of' (T position) (b_comp c') = weight_of position (b_comp c)) (bt_comps t) (bt_comps t').
Hypothesis WT : Forall2 same_weights trees trees'.
Hypothesis S0 : seen Q s0 s0'.
Let refd := match default with None => initial | Some d => d end.
Let refd' := match default' with None => initial' | Some d => d end.
Hypothesis SD : forall t root cs cs', In t trees -> get_component (mtree_of t) (bt_root t) = Ok root ->
  evaluate_dynamics_sequence (c_refpoint root) refd None = Ok (Some cs) ->
  evaluate_dynamics_sequence (T (c_refpoint root)) refd' None = Ok (Some cs') -> seen Q cs cs'.

Lemma LA : length A = n. Proof. apply RD. Qed.
Lemma LP : length position = n. Proof. apply RD. Qed.
Lemma LTA : length (T A) = n. Proof. apply RD'. Qed.

(** *** The way over the reference points *)
Definition Fpair (x : tree * nid) : tree * nid := (F (fst x), snd x).
Lemma nth_get mt i c : nth_error (m_comps mt) i = Some c -> get_component mt i = Ok c.
Proof. intros E. unfold get_component. rewrite E. auto. Qed.
Lemma get_nth mt i c : get_component mt i = Ok c -> nth_error (m_comps mt) i = Some c.
Proof. unfold get_component. destruct (nth_error _ _); congruence. Qed.
Lemma comp_pair t t' i c c' : moved_tree n lam Q shift t t' -> nth_error (m_comps (mtree_of t)) i = Some c ->
  nth_error (m_comps (mtree_of t')) i = Some c' -> exists b b', c = b_comp b /\ c' = b_comp b' /\ moved_comp n lam Q shift b b'.
Proof.
  intros M E E'. pose proof (comp_moved n Q lam shift t t' i M) as X. rewrite (nth_get _ _ _ E) in X.
  destruct X as (b & b' & -> & _ & X & MC). rewrite (nth_get _ _ _ E') in X. injection X as ->. eauto.
Qed.

Lemma weight_pair t t' i c c' : same_weights t t' -> get_component (mtree_of t) i = Ok c -> get_component (mtree_of t') i = Ok c' ->
  weight_of' (T position) c' = weight_of position c.
Proof.
  intros W E E'. apply get_nth in E, E'. cbn [mtree_of m_comps] in E, E'.
  apply map_nth_error_ex in E as (b & Eb & ->). apply map_nth_error_ex in E' as (b' & Eb' & ->).
  apply (F2_nth _ _ _ W i b b' Eb Eb').
Qed.

Lemma hop_step t t' i c c' p tr pred id : moved_tree n lam Q shift t t' ->
  nth_error (m_comps (mtree_of t)) i = Some c -> nth_error (m_comps (mtree_of t')) i = Some c' ->
  hop A n p (c_refpoint c) -> hop (T A) n (T p) (c_refpoint c') ->
  exists r r', evaluate_rotation_start_to_end p (c_refpoint c) A = Ok (Some r) /\
    evaluate_rotation_start_to_end (T p) (c_refpoint c') (T A) = Ok (Some r') /\
    c_refpoint c' = T (c_refpoint c) /\ length (c_refpoint c) = n /\
    rotate r (rb0 r) 1 = direction (vsub A (c_refpoint c)) /\ rotate r' (rb0 r') 1 = Q (direction (vsub A (c_refpoint c))) /\
    lift (add_node_orientation (F tr) id r' pred) = rmap F (lift (add_node_orientation tr id r pred)).
Proof.
  intros M E E' H H'. destruct (comp_pair t t' i c c' M E E') as (b & b' & -> & -> & MC).
  destruct (mc_refpoint _ _ _ _ _ _ MC) as [Lc Ec]. pose proof H as (_ & _ & _ & Nq & _).
  destruct (hop_rotation A n p (c_refpoint (b_comp b)) Hn LA H) as (r & Er & Ed & Ld & _).
  destruct (hop_rotation (T A) n (T p) (c_refpoint (b_comp b')) Hn LTA H') as (r' & Er' & Ed' & _).
  rewrite Ec in Ed'. rewrite away_moved in Ed' by (auto using LA). exists r, r'. do 6 (split; auto).
  unfold add_node_orientation. rewrite Ed, Ed'. apply (F_add_node Q n FQ). auto.
Qed.

Lemma chain_F t t' jt jc : moved_tree n lam Q shift t t' ->
  forall k i p, leads A n (mtree_of t) k i p -> forall k', leads (T A) n (mtree_of t') k' i (T p) ->
  forall tr pred pp fuel,
  chain_up initial' (F tr) (mtree_of t') jt jc pp fuel i pred (T p) =
    rmap Fpair (chain_up initial tr (mtree_of t) jt jc pp fuel i pred p).
Proof.
  intros M k i p L. pose proof (cr_attractor _ _ _ _ _ _ _ _ _ _ _ RD) as HA. pose proof (cr_attractor _ _ _ _ _ _ _ _ _ _ _ RD') as HA'.
  pose proof M as (_ & MR & MP).
  induction L as [i p c Ei Ec Hp|i p c j k Ni Ec Hp Ej L IH]; intros k' L' tr pred pp [|fuel]; try reflexivity.
  - assert (X : exists c', nth_error (m_comps (mtree_of t')) i = Some c' /\ hop (T A) n (T p) (c_refpoint c'))
      by (inversion L'; subst; eauto). destruct X as (c' & Ec' & Hp').
    destruct (hop_step t t' i c c' p tr pred (conv_step_id jt jc pp) M Ec Ec' Hp Hp') as (r & r' & Er & Er' & Eq & Lc & _ & _ & EN).
    cbn [chain_up]. rewrite (nth_get _ _ _ Ec), (nth_get _ _ _ Ec'). cbn [bind]. unfold singularity. rewrite HA, HA'. cbn [bind].
    rewrite Er, Er'. cbn [bind]. rewrite EN. destruct (lift (add_node_orientation tr _ _ _)) as [t1|]; [|auto]. cbn [rmap bind].
    change (m_root (mtree_of t')) with (bt_root t'). rewrite MR. change (m_root (mtree_of t)) with (bt_root t) in *.
    replace (i =? bt_root t)%nat with true by (symmetry; apply Nat.eqb_eq; auto). auto.
  - assert (X : exists c' j' k2, nth_error (m_comps (mtree_of t')) i = Some c' /\ hop (T A) n (T p) (c_refpoint c') /\
      m_parent (mtree_of t') i = Some j' /\ leads (T A) n (mtree_of t') k2 j' (c_refpoint c')).
    { inversion L' as [i1 p1 c1 E1|i1 p1 c1 j1 k1 N1 E1 H1 P1 L1]; [|eauto 10]. exfalso. apply Ni. rewrite E1. exact MR. }
    destruct X as (c' & j' & k2 & Ec' & Hp' & Ej' & L2).
    destruct (hop_step t t' i c c' p tr pred (conv_step_id jt jc pp) M Ec Ec' Hp Hp') as (r & r' & Er & Er' & Eq & Lc & _ & _ & EN).
    assert (EJ : j' = j).
    { change (m_parent (mtree_of t') i) with (bt_parent t' i) in Ej'. rewrite MP in Ej'.
      change (m_parent (mtree_of t) i) with (bt_parent t i) in Ej. congruence. }
    subst j'.
    cbn [chain_up]. rewrite (nth_get _ _ _ Ec), (nth_get _ _ _ Ec'). cbn [bind]. unfold singularity. rewrite HA, HA'. cbn [bind].
    rewrite Er, Er'. cbn [bind]. rewrite EN. destruct (lift (add_node_orientation tr _ _ _)) as [t1|]; [|auto]. cbn [rmap bind].
    change (m_root (mtree_of t')) with (bt_root t'). rewrite MR. change (m_root (mtree_of t)) with (bt_root t) in *.
    replace (i =? bt_root t)%nat with false by (symmetry; apply Nat.eqb_neq; auto).
    unfold get_parent_idx. rewrite Ej, Ej'. cbn [bind]. rewrite Eq in *. unfold singularity in IH. eapply IH; eauto.
Qed.

(** *** The steps *)
Definition Fst (st : conv_state) : conv_state := mkConv (F (cv_tree st)) (cv_nodes st) (cv_weights st).
Lemma component_F t t' j tw cs cs' : In t trees -> In t' trees' -> moved_tree n lam Q shift t t' -> same_weights t t' ->
  seen Q cs cs' -> Forall (fun q => length (rb0 q) = n) cs -> (forall e, get_end_vector cs = Ok e -> length e = n) ->
  forall st i, both (component_step initial weight_of position (mtree_of t) j tw (Some cs) st i)
    (component_step initial' weight_of' (T position) (mtree_of t') j tw (Some cs') (Fst st) i) Fst.
Proof.
  intros It It' M MW SE Lc Le st i a a' H H'. pose proof M as (_ & MR & MP). unfold component_step in *.
  change (m_root (mtree_of t')) with (bt_root t') in H'. rewrite MR in H'. change (m_root (mtree_of t)) with (bt_root t) in H.
  destruct (i =? bt_root t)%nat eqn:Ei; [injection H as <-; injection H' as <-; auto|]. apply Nat.eqb_neq in Ei.
  destruct (get_component (mtree_of t) i) as [c|] eqn:Ec; [|discriminate].
  destruct (get_component (mtree_of t') i) as [c'|] eqn:Ec'; [|discriminate]. cbn [bind] in *.
  destruct (comp_pair t t' i c c' M (get_nth _ _ _ Ec) (get_nth _ _ _ Ec')) as (b & b' & -> & -> & MC).
  rewrite (weight_pair t t' i _ _ MW Ec Ec') in H'. destruct (weight_of position (b_comp b)) as [w|] eqn:Ew; [|discriminate]. cbn [bind] in *.
  destruct (Rleb w (1 / 100)) eqn:Lw; [injection H as <-; injection H' as <-; auto|]. apply Rleb_false in Lw.
  pose proof (cr_trees _ _ _ _ _ _ _ _ _ _ _ RD _ (in_map mtree_of _ _ It)) as [_ _ _ _ _ T6].
  pose proof (cr_trees _ _ _ _ _ _ _ _ _ _ _ RD' _ (in_map mtree_of _ _ It')) as [_ _ _ _ _ T6'].
  destruct (T6 i (b_comp b) w Ei (get_nth _ _ _ Ec) Ew Lw) as (k & Lk & _).
  destruct (T6' i (b_comp b') w) as (k' & Lk' & _); auto.
  { change (m_root (mtree_of t')) with (bt_root t'). rewrite MR. auto. }
  { apply get_nth; auto. }
  { rewrite (weight_pair t t' i _ _ MW Ec Ec'). auto. }
  cbn [cv_tree cv_nodes cv_weights Fst] in H'.
  rewrite (chain_F t t' j i M k i position Lk k' Lk') in H'.
  destruct (chain_up initial (cv_tree st) _ _ _ _ _ _ _ _) as [[t1 q]|]; [|discriminate]. cbn [rmap bind Fpair fst snd] in *.
  destruct (lift (add_sequence t1 _ _ _ _)) as [t2|] eqn:A1; [|discriminate].
  destruct (lift (add_sequence (F t1) _ _ _ _)) as [t2'|] eqn:A2; [|discriminate]. cbn [bind] in *.
  injection H as <-. injection H' as <-. unfold Fst. cbn [cv_tree cv_nodes cv_weights].
  rewrite (add_sequence_F n Q FQ t1 _ cs cs' q SE Lc Le t2 t2' A1 A2). auto.
Qed.
Lemma components_F t t' j tw cs cs' : In t trees -> In t' trees' -> moved_tree n lam Q shift t t' -> same_weights t t' ->
  seen Q cs cs' -> Forall (fun q => length (rb0 q) = n) cs -> (forall e, get_end_vector cs = Ok e -> length e = n) ->
  forall l st, both (foldM (component_step initial weight_of position (mtree_of t) j tw (Some cs)) st l)
    (foldM (component_step initial' weight_of' (T position) (mtree_of t') j tw (Some cs')) (Fst st) l) Fst.
Proof.
  intros It It' M MW SE Lc Le. induction l as [|i l IH]; intros st a a' H H'.
  - cbn [foldM] in *. injection H as <-. injection H' as <-. auto.
  - cbn [foldM] in *. destruct (component_step initial _ _ _ _ _ _ st i) as [st1|] eqn:C1; [|discriminate].
    destruct (component_step initial' _ _ _ _ _ _ (Fst st) i) as [st1'|] eqn:C2; [|discriminate]. cbn [bind] in *.
    rewrite (component_F t t' j tw cs cs' It It' M MW SE Lc Le st i st1 st1' C1 C2) in H'. eapply IH; eauto.
Qed.

Lemma passes_len s b e : passes n s b e -> Forall (fun q => length (rb0 q) = n) s /\ (forall e', get_end_vector s = Ok e' -> length e' = n).
Proof.
  intros [_ Fs En [Le _]]. split; [eapply Forall_impl; [|exact Fs]; intros q [X _]; auto|].
  intros e' E. rewrite En in E. injection E as <-. auto.
Qed.

(** The average of the initial sequence and the transported one. *)
Lemma average_F t t' g root root' cs cs' w s s' :
  In t trees -> In t' trees' -> moved_tree n lam Q shift t t' ->
  attractor_gamma A (mtree_of t) g -> attractor_gamma (T A) (mtree_of t') g -> 1 / 1000000 < tree_share g ->
  nth_error (m_comps (mtree_of t)) (bt_root t) = Some root -> nth_error (m_comps (mtree_of t')) (bt_root t) = Some root' ->
  weight_of position root = Ok w ->
  evaluate_dynamics_sequence (c_refpoint root) refd None = Ok (Some cs) ->
  evaluate_dynamics_sequence (c_refpoint root') refd' None = Ok (Some cs') -> seen Q cs cs' ->
  forall tr tr', evaluate_rotation_start_to_end position (c_refpoint root) A = Ok tr ->
  evaluate_rotation_start_to_end (T position) (c_refpoint root') (T A) = Ok tr' ->
  vector_rotation_reduction orth0 sort s0 tr (Some cs) w = Ok s ->
  vector_rotation_reduction orth0' sort' s0' tr' (Some cs') w = Ok s' ->
  seen Q s s' /\ exists es, passes n s (direction (vsub A position)) es.
Proof.
  intros It It' M Hg Hg' Tg Er Er' Ew Ecs Ecs' SE tr tr' Etr Etr' H H'. pose proof M as (_ & MR & _).
  pose proof RD as [_ HO HS HA (LA1 & Lp & Np) P0 R0 H0 HT]. pose proof RD' as [_ HO' HS' HA' (LA1' & Lp' & Np') P0' R0' H0' HT'].
  destruct (HT _ (in_map mtree_of _ _ It)) as [T1 T2 T3 T4 T5 T6]. destruct (HT' _ (in_map mtree_of _ _ It')) as [T1' T2' T3' T4' T5' T6'].
  change (m_root (mtree_of t)) with (bt_root t) in *. change (m_root (mtree_of t')) with (bt_root t') in *. rewrite MR in *.
  destruct (T3 g root Hg Tg Er) as (Lr & Nr & Xr). destruct (T3' g root' Hg' Tg Er') as (Lr' & Nr' & Xr').
  destruct (comp_pair t t' _ root root' M Er Er') as (b & b' & -> & -> & MC). destruct (mc_refpoint _ _ _ _ _ _ MC) as [_ Eq].
  rewrite Eq in *. set (q := c_refpoint (b_comp b)) in *.
  assert (D1 : direction (vsub (T A) (T position)) = Q (direction (vsub A position))) by (apply away_moved; auto).
  assert (D2 : direction (vsub (T A) (T q)) = Q (direction (vsub A q))) by (apply away_moved; auto).
  assert (Lu : length (direction (vsub A position)) = n) by (apply direction_len; rewrite length_vsub; lia).
  assert (Lq : length (direction (vsub A q)) = n) by (apply direction_len; rewrite length_vsub; lia).
  assert (KEEP : w <= 0 \/ (tr = None /\ tr' = None) -> seen Q s s' /\ exists es, passes n s (direction (vsub A position)) es).
  { intros K. rewrite C64_no_influence in H by tauto. rewrite C64_no_influence in H' by tauto. injection H as <-. injection H' as <-. eauto. }
  destruct (Rle_lt_dec w 0) as [W|W]; [apply KEEP; auto|].
  destruct (C63_rotation_to_reference n position q A Hn Lp Lr LA1) as (_ & _ & X3 & X4).
  destruct (C63_rotation_to_reference n (T position) (T q) (T A) Hn Lp' Lr' LA1') as (_ & _ & X3' & X4').
  rewrite D1, D2, (fc_dot n Q FQ) in X3', X4' by auto.
  destruct (Req_EM_T (dot (direction (vsub A position)) (direction (vsub A q))) (-1)) as [O|O].
  { apply KEEP. right. rewrite (X3 Np Nr O) in Etr. rewrite (X3' Np' Nr' O) in Etr'. split; congruence. }
  destruct (X4 Np Nr O) as (r & E & _ & _ & _ & _ & X). destruct (X4' Np' Nr' O) as (r' & E' & _ & _ & _ & _ & X').
  rewrite E in Etr. injection Etr as <-. rewrite E' in Etr'. injection Etr' as <-.
  specialize (X Xr). rewrite D1, D2 in Xr'. specialize (X' Xr').
  destruct (T4 g (b_comp b) Hg Tg Er) as (c1 & e & (_ & E1 & _) & Lc & Pc & Rc). fold q in E1, Pc, Rc.
  destruct (T4' g (b_comp b') Hg' Tg Er') as (c1' & e' & (_ & E1' & _) & Lc' & Pc' & Rc'). rewrite Eq in E1', Pc', Rc'.
  fold refd in E1. fold refd' in E1'. rewrite Ecs in E1. injection E1 as <-. rewrite Ecs' in E1'. injection E1' as <-.
  assert (Hw : 0 < w <= 1) by (destruct (T2 (b_comp b) (nth_error_In _ _ Er)) as (w1 & Ew1 & Hw1); rewrite Ew in Ew1; injection Ew1 as <-; lra).
  assert (Uq : unitv (direction (vsub A q))) by (apply dirof_unit; auto).
  assert (Uq' : unitv (Q (direction (vsub A q)))) by (apply (Q_unit Q n FQ); auto).
  assert (Rl : related (direction (vsub A position)) (direction (vsub A q))) by (split; auto).
  assert (Rl' : related (Q (direction (vsub A position))) (Q (direction (vsub A q)))) by (split; [rewrite (fc_dot n Q FQ) by auto; auto|auto]).
  destruct (C64_transported_sequence orth0 sort HO HS n s0 _ e0 r _ cs e w Hn P0 R0 H0 X Lq Uq Rl Pc Rc Lc Hw) as (s1 & es & Es & Ps & _).
  rewrite H in Es. injection Es as <-. split; [|eauto].
  rewrite D1 in P0', R0'. rewrite D2 in Pc', Rc'.
  assert (K1 : (length s0 < 100)%nat) by lia. assert (K2 : (1 + length cs < 100)%nat) by lia.
  assert (K1' : (length s0' < 100)%nat) by lia. assert (K2' : (1 + length cs' < 100)%nat) by lia.
  assert (LqQ : length (Q (direction (vsub A q))) = n) by (apply (Q_len Q n FQ); auto).
  destruct (vrr_tree orth0 sort n s0 _ e0 r _ cs e Hn P0 R0 K1 X Lq Uq Rl Pc Rc K2) as (t0 & t1 & t2 & l1 & l2 & A0 & A1 & A2 & SO & N0 & N1 & N2 & _).
  destruct (vrr_tree orth0' sort' n s0' _ e0' r' _ cs' e' Hn P0' R0' K1' X' LqQ Uq' Rl' Pc' Rc' K2') as (t0' & t1' & t2' & l1' & l2' & A0' & A1' & A2' & SO' & N0' & N1' & N2' & _).
  assert (t0' = F t0) by (apply (from_sequence_F n Q FQ Hn (NInt 0) (NInt 1) s0 s0' _ _ P0 S0 t0 t0' A0 A0')). subst t0'.
  assert (t1' = F t1).
  { unfold add_node_orientation in A1, A1'. rewrite X in A1. rewrite X', (F_add_node Q n FQ), A1 in A1' by auto. cbn [rmap] in A1'. congruence. }
  subst t1'. destruct (passes_len cs _ _ Pc) as [Fc Ec].
  assert (t2' = F t2) by (apply (add_sequence_F n Q FQ t1 (NInt 2) cs cs' (NInt (-1)) SE Fc Ec t2 t2' A2 A2')). subst t2'.
  unfold vector_rotation_reduction in H, H'. rewrite (proj2 (Rleb_false _ _)) in H, H' by lra.
  rewrite A0 in H. rewrite A0' in H'. cbn [bind] in H, H'. rewrite A1 in H. rewrite A1' in H'. cbn [bind] in H, H'.
  rewrite A2 in H. rewrite A2' in H'. cbn [bind] in H, H'.
  pose proof (two_assigned sort t2 w (node_in_ids _ _ _ N1) (node_in_ids _ _ _ N2)) as AS.
  destruct (reduce_seen n Q FQ Hn t2 (NInt 0) (sort t2) (sort' (F t2)) orth0 orth0' blank blank [NInt 1; NInt 2] [1 - w; w] _ SO SO'
    (HS n t2 _ (so_rooted _ _ _ SO)) (HS' n _ _ (so_rooted _ _ _ SO')) AS HO HO') as (z & z' & Z & Z' & SZ).
  { intros x. destruct (nid_eq_dec x (NInt 1)); [lra|]. destruct (nid_eq_dec x (NInt 2)); lra. }
  { simpl. lra. }
  rewrite H in Z. rewrite H' in Z'. injection Z as <-. injection Z' as <-. auto.
Qed.

Lemma gamma_moved t t' g : moved_tree n lam Q shift t t' -> attractor_gamma A (mtree_of t) g -> attractor_gamma (T A) (mtree_of t') g.
Proof.
  intros M ((c & Ic & Eg) & Hg).
  assert (P : forall c, In c (m_comps (mtree_of t)) -> exists c', In c' (m_comps (mtree_of t')) /\ c_gamma c' (T A) = c_gamma c A).
  { intros c1 I1. apply In_nth_error in I1 as (i & Ei). pose proof (comp_moved n Q lam shift t t' i M) as X.
    rewrite (nth_get _ _ _ Ei) in X. destruct X as (b & b' & -> & _ & X & MC). exists (b_comp b').
    split; [eapply nth_error_In, get_nth; eauto|]. apply (mc_gamma _ _ _ _ _ _ MC). apply LA. }
  assert (P' : forall c', In c' (m_comps (mtree_of t')) -> exists c, In c (m_comps (mtree_of t)) /\ c_gamma c' (T A) = c_gamma c A).
  { intros c1 I1. apply In_nth_error in I1 as (i & Ei). pose proof (comp_moved n Q lam shift t t' i M) as X.
    destruct (get_component (mtree_of t) i) as [c2|] eqn:E2; [|rewrite (nth_get _ _ _ Ei) in X; discriminate].
    destruct X as (b & b' & -> & _ & X & MC). rewrite (nth_get _ _ _ Ei) in X. injection X as ->. exists (b_comp b).
    split; [eapply nth_error_In, get_nth; eauto|]. apply (mc_gamma _ _ _ _ _ _ MC). apply LA. }
  split.
  - destruct (P c Ic) as (c' & Ic' & E). exists c'. split; auto. congruence.
  - intros c' Ic'. destruct (P' c' Ic') as (c1 & I1 & ->). auto.
Qed.

Lemma tree_F t t' j : In t trees -> In t' trees' -> moved_tree n lam Q shift t t' -> same_weights t t' -> forall st,
  both (tree_step orth0 sort initial default A weight_of position s0 (mtree_of t) j st)
    (tree_step orth0' sort' initial' default' (T A) weight_of' (T position) s0' (mtree_of t') j (Fst st)) Fst.
Proof.
  intros It It' M MW st a a' H H'. pose proof M as (_ & MR & _).
  pose proof RD as [_ HO HS HA (LA1 & Lp & Np) P0 R0 H0 HT]. pose proof RD' as [_ HO' HS' HA' (LA1' & Lp' & Np') P0' R0' H0' HT'].
  destruct (HT _ (in_map mtree_of _ _ It)) as [T1 T2 T3 T4 T5 T6]. destruct (HT' _ (in_map mtree_of _ _ It')) as [T1' T2' T3' T4' T5' T6'].
  assert (NE : m_comps (mtree_of t) <> []) by (destruct (m_comps (mtree_of t)); [simpl in T1; lia|discriminate]).
  destruct (attractor_gamma_ex A (mtree_of t) NE) as (g & Hg). pose proof (gamma_moved t t' g M Hg) as Hg'.
  destruct (tree_weight_eq initial A (mtree_of t) g HA Hg) as (og & Eo & Et).
  destruct (tree_weight_eq initial' (T A) (mtree_of t') g HA' Hg') as (og' & Eo' & Et').
  unfold tree_step in H, H'. rewrite Eo in H. rewrite Eo' in H'. cbn [bind] in H, H'. rewrite Et in H. rewrite Et' in H'. cbn [bind] in H, H'.
  destruct (Rleb (tree_share g) (1 / 1000000)) eqn:Tg; [injection H as <-; injection H' as <-; auto|]. apply Rleb_false in Tg.
  change (m_root (mtree_of t)) with (bt_root t) in *. change (m_root (mtree_of t')) with (bt_root t') in *. rewrite MR in *.
  destruct (get_component (mtree_of t) (bt_root t)) as [root|] eqn:Er; [|discriminate].
  destruct (get_component (mtree_of t') (bt_root t)) as [root'|] eqn:Er'; [|discriminate]. cbn [bind] in H, H'.
  pose proof (get_nth _ _ _ Er) as Nr. pose proof (get_nth _ _ _ Er') as Nr'.
  destruct (comp_pair t t' _ root root' M Nr Nr') as (b & b' & -> & -> & MC). destruct (mc_refpoint _ _ _ _ _ _ MC) as [Lq Eq].
  rewrite (weight_pair t t' _ _ _ MW Er Er') in H'. destruct (weight_of position (b_comp b)) as [w|] eqn:Ew; [|discriminate]. cbn [bind] in H, H'.
  destruct (evaluate_rotation_start_to_end position _ _) as [tr|] eqn:Etr; [|discriminate].
  destruct (evaluate_rotation_start_to_end (T position) _ _) as [tr'|] eqn:Etr'; [|discriminate]. cbn [bind] in H, H'.
  destruct (T4 g (b_comp b) Hg Tg Nr) as (cs & e & (_ & Ecs & _) & Lc & Pc & Rc).
  destruct (T4' g (b_comp b') Hg' Tg Nr') as (cs' & e' & (_ & Ecs' & _) & _).
  fold refd in Ecs, H. fold refd' in Ecs', H'. rewrite Ecs in H. rewrite Ecs' in H'. cbn [bind] in H, H'.
  assert (SE : seen Q cs cs') by (rewrite Eq in Ecs'; eapply SD; eauto).
  destruct (vector_rotation_reduction orth0 sort s0 tr (Some cs) w) as [s|] eqn:V; [|discriminate].
  destruct (vector_rotation_reduction orth0' sort' s0' tr' (Some cs') w) as [s'|] eqn:V'; [|discriminate]. cbn [bind] in H, H'.
  destruct (average_F t t' g _ _ cs cs' w s s' It It' M Hg Hg' Tg Nr Nr' Ew Ecs Ecs' SE tr tr' Etr Etr' V V') as [SS (es & Ps)].
  destruct (passes_len s _ _ Ps) as [Fs Es]. destruct (passes_len cs _ _ Pc) as [Fc Ec].
  cbn [Fst cv_tree cv_nodes cv_weights] in H'.
  destruct (lift (add_sequence (cv_tree st) _ _ _ _)) as [t1|] eqn:A1; [|discriminate].
  destruct (lift (add_sequence (F (cv_tree st)) _ _ _ _)) as [t1'|] eqn:A2; [|discriminate]. cbn [bind] in H, H'.
  rewrite (add_sequence_F n Q FQ (cv_tree st) _ s s' conv_root_id SS Fs Es t1 t1' A1 A2) in H'.
  assert (LC : length (m_comps (mtree_of t')) = length (m_comps (mtree_of t))).
  { cbn [mtree_of m_comps]. rewrite !map_length. symmetry. apply (F2_length _ _ _ (proj1 M)). }
  rewrite LC in H'. destruct (Rltb (1 / 1000000) w).
  - eapply (components_F t t' j (tree_share g) cs cs' It It' M MW SE Fc Ec _ (mkConv t1 _ _)); eauto.
  - eapply (components_F t t' j (tree_share g) cs cs' It It' M MW SE Fc Ec _ (mkConv t1 _ _)); eauto.
Qed.
Lemma trees_F : forall l l', Forall2 (moved_tree n lam Q shift) l l' -> Forall2 same_weights l l' -> incl l trees -> incl l' trees' -> forall j st,
  both (tree_steps orth0 sort initial default A weight_of position s0 j (map mtree_of l) st)
    (tree_steps orth0' sort' initial' default' (T A) weight_of' (T position) s0' j (map mtree_of l') (Fst st)) Fst.
Proof.
  induction 1 as [|t t' l l' M H IH]; intros W I I' j st a a' E E'.
  - cbn [map tree_steps] in *. injection E as <-. injection E' as <-. auto.
  - pose proof (Forall2_inv_head _ _ _ _ _ W) as [MW W']. cbn [map tree_steps] in *. destruct (tree_step orth0 _ _ _ _ _ _ _ _ _ _) as [st1|] eqn:S1; [|discriminate].
    destruct (tree_step orth0' _ _ _ _ _ _ _ _ _ _) as [st1'|] eqn:S1'; [|discriminate]. cbn [bind] in *.
    rewrite (tree_F t t' j (I t (or_introl eq_refl)) (I' t' (or_introl eq_refl)) M MW st st1 st1' S1 S1') in E'.
    eapply (IH W' (fun x Hx => I x (or_intror Hx)) (fun x Hx => I' x (or_intror Hx))); eauto.
Qed.

Lemma share_moved j c w : share weight_of' (T A) (T position) (map mtree_of trees') j c w -> share weight_of A position (map mtree_of trees) j c w.
Proof.
  intros (mt' & g & comp' & wc & E1 & Hg & E3 & E4 & E5 & E6 & E7).
  apply map_nth_error_ex in E1 as (t' & Et' & ->).
  assert (X : exists t, nth_error trees j = Some t).
  { destruct (nth_error trees j) as [t|] eqn:E; eauto. exfalso. apply nth_error_None in E. rewrite (F2_length _ _ _ MT) in E.
    apply nth_error_None in E. congruence. }
  destruct X as (t & Et). pose proof (F2_nth _ _ _ MT j t t' Et Et') as M. pose proof M as (_ & MR & _).
  pose proof (comp_moved n Q lam shift t t' c M) as X.
  destruct (get_component (mtree_of t) c) as [comp|] eqn:Ec; [|rewrite (nth_get _ _ _ E3) in X; discriminate].
  destruct X as (b & b' & -> & _ & X & MC). rewrite (nth_get _ _ _ E3) in X. injection X as ->.
  assert (NE : m_comps (mtree_of t) <> []) by (apply get_nth in Ec; destruct (m_comps (mtree_of t)); [destruct c; discriminate|discriminate]).
  destruct (attractor_gamma_ex A (mtree_of t) NE) as (g1 & Hg1).
  pose proof (attractor_gamma_unique (T A) (mtree_of t') g1 g (gamma_moved t t' g1 M Hg1) Hg) as ->.
  exists (mtree_of t), g, (b_comp b), wc. rewrite (weight_pair t t' c _ _ (F2_nth _ _ _ WT j t t' Et Et') Ec (nth_get _ _ _ E3)) in E4.
  change (m_root (mtree_of t')) with (bt_root t') in E7. rewrite MR in E7.
  split; [apply map_nth_error; auto|]. split; auto. split; [apply get_nth; auto|]. auto.
Qed.

Lemma convergence_seen :
  (forall j c j' c', full_share A weight_of position (map mtree_of trees) j c -> full_share A weight_of position (map mtree_of trees) j' c' -> j = j' /\ c = c') ->
  exists s s' e, compute_convergence_sequence orth0 sort initial default A weight_of position s0 (map mtree_of trees) = Ok s /\
    compute_convergence_sequence orth0' sort' initial' default' (T A) weight_of' (T position) s0' (map mtree_of trees') = Ok s' /\
    get_end_vector s = Ok e /\ get_end_vector s' = Ok (Q e).
Proof.
  intros ONE.
  assert (ONE' : forall j c j' c', full_share (T A) weight_of' (T position) (map mtree_of trees') j c ->
    full_share (T A) weight_of' (T position) (map mtree_of trees') j' c' -> j = j' /\ c = c').
  { intros j c j' c' H H'. apply ONE; apply share_moved; auto. }
  destruct (conv_final orth0 sort initial default A weight_of n position s0 e0 _ RD ONE) as (t0 & st & ws & tot & own & E0 & Es & Ew & SO & AS & OW & SM).
  destruct (conv_final orth0' sort' initial' default' (T A) weight_of' n (T position) s0' e0' _ RD' ONE') as (t0' & st' & ws' & tot' & own' & E0' & Es' & Ew' & SO' & _).
  assert (t0' = F t0) by (apply (from_sequence_F n Q FQ Hn conv_root_id conv_init_id s0 s0' _ _ (cr_start _ _ _ _ _ _ _ _ _ _ _ RD) S0 t0 t0' E0 E0')). subst t0'.
  assert (st' = Fst st) by (apply (trees_F trees trees' MT WT (incl_refl _) (incl_refl _) 0 (mkConv t0 [] []) st st' Es Es')). subst st'.
  cbn [Fst cv_weights cv_nodes cv_tree] in *. rewrite Ew in Ew'. injection Ew' as <- <-.
  pose proof RD as [_ HO HS _ _ _ _ _ _]. pose proof RD' as [_ HO' HS' _ _ _ _ _ _].
  destruct (reduce_seen n Q FQ Hn (cv_tree st) conv_root_id (sort (cv_tree st)) (sort' (F (cv_tree st))) orth0 orth0' blank blank _ _ own SO SO'
    (HS n _ _ (so_rooted _ _ _ SO)) (HS' n _ _ (so_rooted _ _ _ SO')) AS HO HO' OW) as (z & z' & Z & Z' & (_ & e & Ee & Ee')); [lra|].
  exists z, z', e. unfold compute_convergence_sequence. rewrite E0, E0'. cbn [bind]. rewrite Es.
  cbn [Fst cv_tree cv_nodes cv_weights] in Es' |- *. rewrite Es'. cbn [bind Fst cv_tree cv_nodes cv_weights]. rewrite Ew. cbn [bind]. auto.
Qed.
End Conv.
End Moved.

(** ** C168 *)
(** The system evaluated at the reference points of the obstacles. *)
Definition followed (initial : dynamics) (default : option dynamics) : dynamics :=
  match default with None => initial | Some d => d end.
(** Both frames describe the same systems, and these can be followed at the agent and at the reference point of the
    root of every obstacle, in both frames. *)
Record same_flow (n : nat) (lam : R) (Q : vec -> vec) (shift A position : vec) (trees : list btree)
    (initial initial' : dynamics) (default default' : option dynamics) : Prop := {
  sf_initial : moved_dynamics n lam Q shift A initial initial';
  sf_followed : moved_dynamics n lam Q shift A (followed initial default) (followed initial' default');
  sf_start : steady A initial position /\ steady (place lam Q shift A) initial' (place lam Q shift position);
  sf_roots : forall t root, In t trees -> get_component (mtree_of t) (bt_root t) = Ok root ->
    length (c_refpoint root) = n /\ steady A (followed initial default) (c_refpoint root) /\
    steady (place lam Q shift A) (followed initial' default') (place lam Q shift (c_refpoint root)) }.
(** Influence of the obstacles on the convergence: the same for the same component. *)
Definition same_influence (lam : R) (Q : vec -> vec) (shift position : vec) (weight_of weight_of' : vec -> component -> res R)
    (trees trees' : list btree) : Prop :=
  Forall2 (fun t t' => Forall2 (fun c c' => weight_of' (place lam Q shift position) (b_comp c') = weight_of position (b_comp c))
    (bt_comps t) (bt_comps t')) trees trees'.

Section C168.
Variables (n : nat) (Q : vec -> vec) (lam : R) (shift : vec).
Hypothesis FQ : frame_change n Q.
Hypothesis Hlam : 0 < lam.
Hypothesis Lshift : length shift = n.
Notation T := (place lam Q shift).
Variables (orth0 orth0' : vec -> vec) (sort sort' : tree -> list nid).
Variables (initial initial' : dynamics) (default default' : option dynamics) (A : vec).
Variables (weight_of weight_of' : vec -> component -> res R).
Variables (position : vec) (s0 s0' : sequence) (e0 e0' : vec) (trees trees' : list btree).
Hypothesis FL : same_flow n lam Q shift A position trees initial initial' default default'.
Hypothesis WT : same_influence lam Q shift position weight_of weight_of' trees trees'.
Hypothesis E0 : evaluate_dynamics_sequence position initial None = Ok (Some s0).
Hypothesis E0' : evaluate_dynamics_sequence (T position) initial' None = Ok (Some s0').
Hypothesis RD : conv_ready orth0 sort initial default A weight_of n position s0 e0 (map mtree_of trees).
Hypothesis RD' : conv_ready orth0' sort' initial' default' (T A) weight_of' n (T position) s0' e0' (map mtree_of trees').
Hypothesis MT : Forall2 (moved_tree n lam Q shift) trees trees'.
Hypothesis ONE : forall j c j' c', full_share A weight_of position (map mtree_of trees) j c ->
  full_share A weight_of position (map mtree_of trees) j' c' -> j = j' /\ c = c'.

(** The direction handed to the avoidance. *)
Theorem C168_convergence_partial : exists s s' e,
  compute_convergence_sequence orth0 sort initial default A weight_of position s0 (map mtree_of trees) = Ok s /\
  compute_convergence_sequence orth0' sort' initial' default' (T A) weight_of' (T position) s0' (map mtree_of trees') = Ok s' /\
  get_end_vector s = Ok e /\ get_end_vector s' = Ok (Q e).
Proof.
  destruct FL as [M1 M2 [S1 S1'] SR]. pose proof (cr_dim _ _ _ _ _ _ _ _ _ _ _ RD) as Hn.
  destruct (cr_len _ _ _ _ _ _ _ _ _ _ _ RD) as (LA & LP & _).
  apply (convergence_seen n Q lam shift FQ Hn Hlam Lshift orth0 orth0' sort sort' initial initial' default default' A
    weight_of weight_of' position s0 s0' e0 e0' trees trees' RD RD' MT WT); auto.
  - destruct (dynamics_seen n Q lam shift FQ Hn Hlam Lshift A initial initial' position LA LP M1 S1 S1') as (s & s' & X & X' & Y).
    rewrite E0 in X. rewrite E0' in X'. injection X as <-. injection X' as <-. auto.
  - intros t root cs cs' It Er Ec Ec'. destruct (SR t root It Er) as (Lr & S2 & S2').
    destruct (dynamics_seen n Q lam shift FQ Hn Hlam Lshift A _ _ _ LA Lr M2 S2 S2') as (s & s' & X & X' & Y).
    unfold followed in X, X'. rewrite Ec in X. rewrite Ec' in X'. injection X as <-. injection X' as <-. auto.
Qed.

(** The velocity command. *)
Variables (pick pick' : vec -> vec) (power radius : R) (max_repulsion : option R) (sg : R) (env env' : list mobs).
Notation conv := (compute_convergence_sequence orth0 sort initial default A weight_of position s0 (map mtree_of trees)).
Notation conv' := (compute_convergence_sequence orth0' sort' initial' default' (T A) weight_of' (T position) s0' (map mtree_of trees')).
Theorem C168_velocity_partial :
  sg * sg = 1 -> (n = 2%nat -> forall u, length u = 2%nat -> quarter_turn (Q u) = vscale sg (Q (quarter_turn u))) ->
  (forall s base, conv = Ok s -> get_end_vector s = Ok base ->
     scene orth0 (angle_space pick) pick sort power radius max_repulsion n position base trees /\
     (lam = 1 \/ exists t ws w, In t trees /\ tree_obstacle_weights (angle_space pick) position base power (mtree_of t) = Ok ws /\ In w ws /\ 0 < w)) ->
  (forall s' base', conv' = Ok s' -> get_end_vector s' = Ok base' ->
     scene orth0' (angle_space pick') pick' sort' power radius max_repulsion n (T position) base' trees') ->
  similar_scene n Q lam shift max_repulsion position trees trees' ->
  Forall2 (moved_body n Q lam shift sg) env env' ->
  avoider_evaluate orth0' (angle_space pick') (get_projected_tangent pick') sort' power radius max_repulsion n
      initial' None default' (T A) weight_of' env' trees' (T position) =
    rmap (fun v => vscale lam (Q v))
      (avoider_evaluate orth0 (angle_space pick) (get_projected_tangent pick) sort power radius max_repulsion n
        initial None default A weight_of env trees position).
Proof.
  intros G1 G2 SC SC' SS ME. destruct C168_convergence_partial as (s & s' & e & Es & Es' & Ee & Ee').
  destruct (SC s e Es Ee) as [SC1 HW]. pose proof (SC' s' (Q e) Es' Ee') as SC2.
  unfold avoider_evaluate. rewrite E0, E0'. cbn [bind].
  destruct FL as [[_ _ M1] _ _ _]. destruct (cr_len _ _ _ _ _ _ _ _ _ _ _ RD) as (_ & LP & _).
  destruct (M1 position LP) as [Lv ->]. rewrite norm_vscale, Rabs_right by lra. rewrite (Q_nrm Q n FQ) by auto.
  apply (C167_velocity orth0 orth0' pick pick' sort sort' power radius max_repulsion n Q lam shift sg n
    (norm (dy_eval initial position)) position e trees trees' env env' s0 s0' _ _ s s'); auto.
Qed.
End C168.

(** *** The influence of the projection *)
Lemma inflate_len n radius w f i : length f = n -> inflate radius (vzero n) w f = Ok i -> length i = n.
Proof.
  intros L. unfold inflate. assert (Lz : length (vsub f (vzero n)) = n) by (autorewrite with vlen; lia).
  destruct (Req_EM_T _ 0); cbv beta iota.
  - unfold fdiv. destruct (Req_EM_T _ 0); cbn [bind]; [discriminate|]. intros E. injection E as <-.
    autorewrite with vlen. destruct (vsub f (vzero n)) as [|x l]; cbn [length] in *; lia.
  - unfold fdiv. destruct (Req_EM_T _ 0); cbn [bind]; [discriminate|]. intros E. injection E as <-.
    autorewrite with vlen. lia.
Qed.
Lemma deflate_len n radius w f i : length f = n -> deflate radius (vzero n) w f = Ok i -> length i = n.
Proof.
  intros L. unfold deflate. destruct (Rltb _ _); [intros E; injection E as <-; autorewrite with vlen; auto|].
  unfold fdiv. destruct (Req_EM_T _ 0); cbn [bind]; [discriminate|]. intros E. injection E as <-. autorewrite with vlen. lia.
Qed.
Lemma fold_len n basis power huge p a f : basis_of n basis -> length p = n -> length a = n ->
  fold_position basis power huge (vzero n) p a = Ok f -> length f = n.
Proof.
  intros HB Lp La. unfold fold_position. destruct (Req_EM_T _ 0) as [|N]; [intros E; injection E as <-; auto|].
  set (d := vdiv _ _). assert (Ud : unitv d) by (apply dirof_unit; auto).
  assert (Ld : length d = n) by (unfold d, vdiv; autorewrite with vlen; lia).
  assert (K : forall x l, length (vadd (scale_first (norm (vsub (vzero n) a)) (mat_vec (length p) (basis d) (x :: l))) (vzero n)) = n).
  { intros x l. destruct (HB d Ld Ud) as (rest & _ & _ & X & _). autorewrite with vlen.
    rewrite scale_first_len, Lp, (mat_vec_len n); [lia|]. apply X. }
  destruct (mat_t_vec _ _) as [|y l]; [discriminate|]. destruct (Req_EM_T _ 0); [intros E; injection E as <-; apply K|].
  intros E. match type of E with bind ?x _ = _ => destruct x as [lat|]; [|discriminate] end. cbn [bind] in E. injection E as <-. apply K.
Qed.
(** The weight by projection is the same number when the pose of the component moves with the component, if the folded
    position is not thrown far away (there the code mixes the frames). *)
Theorem C168_influence_partial : forall n Q shift basis power huge to_frame from_frame to_frame' from_frame' gamma radius A weight_power position,
  basis_of n basis -> length A = n -> length position = n ->
  inverse_pose n to_frame from_frame -> inverse_pose n to_frame' from_frame' ->
  (forall p, length p = n -> to_frame' (place 1 Q shift p) = to_frame p) ->
  (forall p a f, deflate radius (vzero n) 1 (to_frame position) = Ok p -> deflate radius (vzero n) 1 (to_frame A) = Ok a ->
     fold_position basis power huge (vzero n) p a = Ok f -> norm f <= 10 ^ 10) ->
  evaluate_projected_weight basis power huge to_frame' from_frame' gamma radius (place 1 Q shift A) weight_power (place 1 Q shift position) =
  evaluate_projected_weight basis power huge to_frame from_frame gamma radius A weight_power position.
Proof.
  intros n Q shift basis power huge to fr to' fr' gamma radius A wp position HB LA Lp HP HP' HT Far.
  unfold evaluate_projected_weight, get_projected_position. rewrite (HT A LA), (HT position Lp).
  destruct (Rltb (gamma (to A)) 1); [cbn [bind]; rewrite (HT position Lp); auto|].
  destruct (Rleb (gamma (to position)) 1); [cbn [bind]; rewrite (HT position Lp); auto|].
  destruct (HP A LA) as [LA' _]. destruct (HP position Lp) as [Lp' _]. rewrite Lp'.
  destruct (deflate radius (vzero n) 1 (to position)) as [p|] eqn:E1; [|auto].
  destruct (deflate radius (vzero n) 1 (to A)) as [a|] eqn:E2; [|auto]. cbn [bind].
  destruct (fold_position basis power huge (vzero n) p a) as [f|] eqn:E3; [|auto]. cbn [bind].
  rewrite (proj2 (Rltb_false _ _) (Far p a f eq_refl eq_refl E3)).
  assert (Lf : length f = n).
  { apply (fold_len n basis power huge p a f HB); auto; [eapply deflate_len; [|exact E1]|eapply deflate_len; [|exact E2]]; auto. }
  destruct (inflate radius (vzero n) 1 f) as [i|] eqn:E4; [|auto]. cbn [bind].
  pose proof (inflate_len n radius 1 f i Lf E4) as Li. destruct (HP i Li) as (_ & _ & -> & _). destruct (HP' i Li) as (_ & _ & -> & _). auto.
Qed.

(** A disc and the same disc mirrored about another centre: the same weight. *)
Example C168_influence_case : forall huge,
  evaluate_projected_weight turned 2 huge (fun v => mirror (vsub v [5; 7])) (fun v => vadd (mirror v) [5; 7]) norm unit_disc
    (place 1 mirror [5; 7] [-6; 0]) (1/2) (place 1 mirror [5; 7] [-(21/5); 28/5]) = Ok (sqrt (2/11)).
Proof.
  intros huge. destruct (polar_case 5 ltac:(lra)) as [P1 P2].
  assert (NA : norm [-6; 0] = 6) by (apply norm_is2; lra).
  assert (NP : norm [-(21/5); 28/5] = 7) by (apply norm_is2; lra).
  assert (S1 : vscale ((7 - 1) / 7) [-(21/5); 28/5] = [5 * (7/25) - 5; 5 * (24/25)]) by (unfold vscale; simpl; apply vec2; field).
  assert (S2 : vscale ((6 - 1) / 6) [-6; 0] = [- (5); 0]) by (unfold vscale; simpl; apply vec2; field).
  rewrite (C168_influence_partial 2 mirror [5; 7] turned 2 huge (fun v => v) (fun v => v)); auto using turned_basis, same_pose.
  - unfold evaluate_projected_weight.
    rewrite (disc_projection huge (fun v => v) (fun v => v) [-6; 0] [-(21/5); 28/5] [-6; 0] [-(21/5); 28/5] [0; 3/4] [1; 0] [0; 1]
       [0; 7/4] (3/4) 6 7); auto; try lra.
    + cbn [bind]. rewrite NP. assert (E : norm [0; 7/4] = 7/4) by (apply norm_is2; lra). rewrite E. apply case_weight; [lra|field].
    + rewrite S1, S2. auto.
    + unfold vscale; simpl. apply vec2; field.
    + apply norm_is2; lra.
    + unfold vscale; simpl. apply vec2; field.
  - intros p L. two p. unfold mirror, vsub, vadd, vscale. simpl. split; auto. split; auto. split; apply vec2; ring.
  - intros p L. two p. unfold place, mirror, vsub, vadd, vscale. simpl. apply vec2; ring.
  - intros p a f E1 E2 E3.
    destruct (deflate_shrunk 2 unit_disc [-(21/5); 28/5]) as (D1 & L1 & _); auto; unfold unit_disc in *; try lra.
    destruct (deflate_shrunk 2 unit_disc [-6; 0]) as (D2 & L2 & _); auto; unfold unit_disc in *; try lra.
    unfold shrunk in *. rewrite NP, S1 in D1, L1. rewrite NA, S2 in D2, L2.
    assert (X1 : p = [5 * (7/25) - 5; 5 * (24/25)]) by congruence. assert (X2 : a = [- (5); 0]) by congruence. rewrite X1, X2 in E3.
    change (vzero 2) with [0; 0] in E3.
    rewrite (C67_folded_position turned huge 2 [0; 0] _ _ [1; 0] [0; 1] 5 5 (7/25) turned_basis eq_refl L1 L2 P1) in E3. injection E3 as <-.
    replace (5 / 5) with 1 by field. rewrite ln_1, Rmult_0_r.
    replace ((1 - 7 / 25) / (1 + 7 / 25)) with (3/4 * (3/4)) by field. rewrite sqrt_square by lra.
    match goal with |- norm ?v <= _ => replace v with [0; 3/4] by (unfold scale_first, vadd, vscale; simpl; apply vec2; field) end.
    rewrite (norm_is2 0 (3/4) (3/4)) by lra. lra.
Qed.

(** *** A bent obstacle, seen mirrored in half the unit of length with another origin *)
Definition bend_tree (k sg a b : R) : btree :=
  mkBTree [spot_comp 3 [a + k; b] [a + k; b]; spot_comp 4 [a; b - sg * k] [a; b - sg * k]] 0
    (fun i => match i with 1%nat => Some 0%nat | _ => None end).
Definition bend_field (k sg a b : R) : dynamics :=
  mkDyn (fun x => if Rlt_dec (nth 0 x 0) a then [0; sg * k] else [0; - sg * k]) (Some [a; b]) None.
(** Only the second component has an influence. *)
Definition bend_weight (p : vec) (c : component) : res R := Ok (if Rlt_dec 3 (c_gamma c p) then 1 else 0).
Lemma bend_w3 p r s : bend_weight p (b_comp (spot_comp 3 r s)) = Ok 0.
Proof. unfold bend_weight. simpl. destruct (Rlt_dec 3 3); [lra|auto]. Qed.
Lemma bend_w4 p r s : bend_weight p (b_comp (spot_comp 4 r s)) = Ok 1.
Proof. unfold bend_weight. simpl. destruct (Rlt_dec 3 4); [auto|lra]. Qed.
Lemma bend_full k sg a b p j c : full_share [a; b] bend_weight p (map mtree_of [bend_tree k sg a b]) j c -> j = 0%nat /\ c = 1%nat.
Proof.
  intros (mt & g & comp & wc & E1 & _ & E3 & E4 & E5 & _).
  destruct j as [|j]; [|destruct j; discriminate]. injection E1 as <-. split; auto.
  destruct c as [|[|c]]; auto; [|destruct c; discriminate]. injection E3 as <-. change (Ok (if Rlt_dec 3 3 then 1 else 0) = Ok wc) in E4.
  destruct (Rlt_dec 3 3); [lra|]. injection E4 as <-. lra.
Qed.

Lemma bend_ready k sg a b : 1 <= k -> sg = 1 \/ sg = -1 -> exists s0,
  evaluate_dynamics_sequence [a - k; b] (bend_field k sg a b) None = Ok (Some s0) /\
  conv_ready (fun v => v) sort_by_level (bend_field k sg a b) None [a; b] bend_weight 2 [a - k; b] s0 [0; sg] (map mtree_of [bend_tree k sg a b]) /\
  steady [a; b] (bend_field k sg a b) [a - k; b] /\ steady [a; b] (bend_field k sg a b) [a + k; b] /\
  exists s, compute_convergence_sequence (fun v => v) sort_by_level (bend_field k sg a b) None [a; b] bend_weight
    [a - k; b] s0 (map mtree_of [bend_tree k sg a b]) = Ok s /\ get_end_vector s = Ok [0; - sg].
Proof.
  intros Hk Hs. assert (U : sg * sg = 1) by (destruct Hs as [-> | ->]; lra). pose proof tiny_1 as TY.
  assert (Vp : vsub [a; b] [a - k; b] = [k * 1; k * 0]) by (apply vsub2; lra).
  assert (V0 : vsub [a; b] [a + k; b] = [k * -1; k * 0]) by (apply vsub2; lra).
  assert (V1 : vsub [a; b] [a; b - sg * k] = [k * 0; k * sg]) by (apply vsub2; lra).
  destruct (dir_scaled k 1 0) as [Dp Np]; try lra. rewrite <- Vp in Dp, Np.
  destruct (dir_scaled k (-1) 0) as [D0 N0]; try lra. rewrite <- V0 in D0, N0.
  destruct (dir_scaled k 0 sg) as [D1 N1]; try lra. rewrite <- V1 in D1, N1.
  assert (F1 : dy_eval (bend_field k sg a b) [a - k; b] = [k * 0; k * sg]).
  { cbn [bend_field dy_eval nth]. destruct (Rlt_dec (a - k) a); [|lra]. v2. }
  assert (F2 : dy_eval (bend_field k sg a b) [a + k; b] = [k * 0; k * (- sg)]).
  { cbn [bend_field dy_eval nth]. destruct (Rlt_dec (a + k) a); [lra|]. v2. }
  destruct (dir_scaled k 0 sg) as [DF1 NF1]; try lra.
  destruct (dir_scaled k 0 (- sg)) as [DF2 NF2]; try lra.
  assert (K0 : vscale 1 [0; sg] = [0; sg]) by (unfold vscale; simpl; v2).
  destruct (axis_pair (vsub [a; b] [a - k; b]) [k * 0; k * sg] 1 0 0 sg) as (r0 & E0 & P0); auto; try lra; try axis.
  destruct (axis_pair (vsub [a; b] [a + k; b]) [k * 0; k * (- sg)] (-1) 0 0 (- sg)) as (rc & Ec & Pc); auto; try lra; try axis.
  assert (EV0 : evaluate_dynamics_sequence [a - k; b] (bend_field k sg a b) None = Ok (Some [r0])).
  { unfold evaluate_dynamics_sequence. change (dy_own (bend_field k sg a b)) with (@None (vec -> res (option sequence))).
    rewrite F1. change (dy_attractor (bend_field k sg a b)) with (Some [a; b]). cbv beta iota. rewrite Np, NF1.
    destruct (Req_EM_T k 0); [lra|]. rewrite E0. auto. }
  assert (EVC : evaluate_dynamics_sequence [a + k; b] (bend_field k sg a b) None = Ok (Some [rc])).
  { unfold evaluate_dynamics_sequence. change (dy_own (bend_field k sg a b)) with (@None (vec -> res (option sequence))).
    rewrite F2. change (dy_attractor (bend_field k sg a b)) with (Some [a; b]). cbv beta iota. rewrite N0, NF2.
    destruct (Req_EM_T k 0); [lra|]. rewrite Ec. auto. }
  assert (R1 : related [1; 0] [0; sg]) by (apply related_right; [axis|lra]).
  assert (R2 : related [-1; 0] [0; - sg]) by (apply related_right; [axis|lra]).
  assert (R3 : related [0; sg] [-1; 0]) by (apply related_right; [axis|lra]).
  assert (RD : conv_ready (fun v => v) sort_by_level (bend_field k sg a b) None [a; b] bend_weight 2 [a - k; b] [r0] [0; sg]
    (map mtree_of [bend_tree k sg a b])).
  { constructor; auto.
    - apply sort_by_level_sorted.
    - split; auto. split; auto. lra.
    - rewrite Dp. auto.
    - rewrite Dp. unfold stops. simpl. auto.
    - simpl. lia.
    - intros mt [<-|[]]. constructor.
      + simpl. lia.
      + intros c [<-|[<-|[]]]; [exists 0; split; [apply bend_w3|lra]|exists 1; split; [apply bend_w4|lra]].
      + intros g root _ _ E. injection E as <-. cbn [spot_comp b_comp c_refpoint]. rewrite N0, Dp, D0. split; auto. split; [lra|].
        right. unfold allclose. simpl. replace (isclose 1 (-1)) with false; auto. symmetry. apply Rleb_false.
        replace (1 - -1) with 2 by ring. rewrite (Rabs_pos_eq 2), (Rabs_left (-1)) by lra.
        assert (/ 10 ^ 8 <= / 2) by (apply Rinv_le_contravar; lra).
        assert (/ 10 ^ 5 <= / 2) by (apply Rinv_le_contravar; lra). lra.
      + intros g root _ _ E. injection E as <-. cbn [spot_comp b_comp c_refpoint]. exists [rc], [0; - sg].
        rewrite D0. split; [|split; [simpl; lia|split; auto]].
        * split; [reflexivity|]. split; [exact EVC|]. apply Pc.
        * unfold stops. simpl. auto.
      + intros root r cs w s e E Ew _ _ Es Ee. injection E as <-. change (Ok (if Rlt_dec 3 3 then 1 else 0) = Ok w) in Ew.
        destruct (Rlt_dec 3 3); [lra|]. injection Ew as <-. rewrite C64_no_influence in Es by (left; lra). injection Es as <-.
        rewrite (ps_end _ _ _ _ P0) in Ee. injection Ee as <-.
        rewrite Dp. unfold stops. simpl. auto.
      + intros i c w Ni E Ew Hw. destruct i as [|[|i]]; [contradiction| |destruct i; discriminate].
        injection E as <-. exists 2%nat. split; [|lia].
        eapply leads_parent; [exact Ni|reflexivity| |reflexivity|].
        * cbn [spot_comp b_comp c_refpoint]. split; auto. split; auto. rewrite Np, N1, Dp, D1. split; [lra|]. split; [lra|]. auto.
        * eapply leads_root; [reflexivity|reflexivity|]. cbn [spot_comp b_comp c_refpoint]. split; auto. split; auto.
          rewrite N1, N0, D1, D0. split; [lra|]. split; [lra|]. auto. }
  assert (FS : full_share [a; b] bend_weight [a - k; b] (map mtree_of [bend_tree k sg a b]) 0 1).
  { exists (mtree_of (bend_tree k sg a b)), 3, (b_comp (spot_comp 4 [a; b - sg * k] [a; b - sg * k])), 1. rewrite share_3.
    split; [reflexivity|]. split.
    { split; [eexists; split; [left; reflexivity|reflexivity]|]. intros c [<-|[<-|[]]]; simpl; lra. }
    split; [reflexivity|]. split; [apply bend_w4|]. simpl. lra. }
  exists [r0]. split; auto. split; auto. unfold steady. rewrite Dp, Np, N0, D0, F1, F2, NF1, NF2, DF1, DF2.
  split; [split; [lra|split; [lra|auto]]|]. split; [split; [lra|split; [lra|auto]]|].
  destruct (C65_convergence_sequence _ _ _ _ _ _ _ _ _ _ _ RD) as (s & e & Es & Ps & _ & Hf).
  { intros j c j' c' S1 S2. apply bend_full in S1, S2. lia. }
  exists s. split; auto. rewrite (ps_end _ _ _ _ Ps). f_equal.
  apply (Hf 0%nat 1%nat (mtree_of (bend_tree k sg a b)) (b_comp (spot_comp 3 [a + k; b] [a + k; b])) [rc]); auto; [|discriminate].
  split; [reflexivity|]. split; [exact EVC|]. apply Pc.
Qed.
Lemma mirror_place x y : place 2 mirror [5; 7] [x; y] = [2 * x + 5; -2 * y + 7].
Proof. unfold place, mirror, vadd, vscale. simpl. v2. Qed.
Lemma bend_moved : moved_tree 2 2 mirror [5; 7] (bend_tree 1 1 0 0) (bend_tree 2 (-1) 5 7).
Proof.
  split; [|split; auto].
  assert (E : forall g r s r' s', length r = 2%nat -> length s = 2%nat -> place 2 mirror [5; 7] r = r' -> place 2 mirror [5; 7] s = s' ->
    moved_comp 2 2 mirror [5; 7] (spot_comp g r s) (spot_comp g r' s')).
  { intros g r s r' s' L1 L2 <- <-. destruct (spot_moved 2 [5; 7] g r s eq_refl L1 L2) as [X _]. inversion X; auto. }
  constructor; [|constructor; [|constructor]]; apply E; auto; rewrite mirror_place; v2.
Qed.
Lemma bend_same : moved_dynamics 2 2 mirror [5; 7] [0; 0] (bend_field 1 1 0 0) (bend_field 2 (-1) 5 7).
Proof.
  constructor; auto.
  - split; auto. cbn [bend_field dy_attractor]. rewrite mirror_place. f_equal. v2.
  - intros p L. two p. rewrite mirror_place. cbn [bend_field dy_eval nth].
    destruct (Rlt_dec _ 0), (Rlt_dec _ 5); try lra; split; auto; unfold mirror, vscale; simpl; v2.
Qed.
Lemma bend_same_weight p trees trees' : length p = 2%nat -> Forall2 (moved_tree 2 2 mirror [5; 7]) trees trees' ->
  same_influence 2 mirror [5; 7] p bend_weight bend_weight trees trees'.
Proof.
  intros L. apply Forall2_impl2. intros t t' [M _]. revert M. apply Forall2_impl2. intros c c' M. unfold bend_weight.
  rewrite (mc_gamma _ _ _ _ _ _ M) by auto. auto.
Qed.

(** All that [C168_convergence_partial] asks for holds for the bent obstacle, whose second component sends the agent over both
    reference points: the direction is that of the far side, mirrored in the mirrored frame. *)
Example C168_bend : exists s0 s0' s s', let T := place 2 mirror [5; 7] in
  same_flow 2 2 mirror [5; 7] [0; 0] [-1; 0] [bend_tree 1 1 0 0] (bend_field 1 1 0 0) (bend_field 2 (-1) 5 7) None None /\
  same_influence 2 mirror [5; 7] [-1; 0] bend_weight bend_weight [bend_tree 1 1 0 0] [bend_tree 2 (-1) 5 7] /\
  evaluate_dynamics_sequence [-1; 0] (bend_field 1 1 0 0) None = Ok (Some s0) /\
  evaluate_dynamics_sequence (T [-1; 0]) (bend_field 2 (-1) 5 7) None = Ok (Some s0') /\
  conv_ready (fun v => v) sort_by_level (bend_field 1 1 0 0) None [0; 0] bend_weight 2 [-1; 0] s0 [0; 1] (map mtree_of [bend_tree 1 1 0 0]) /\
  conv_ready (fun v => v) sort_by_level (bend_field 2 (-1) 5 7) None (T [0; 0]) bend_weight 2 (T [-1; 0]) s0' [0; -1]
    (map mtree_of [bend_tree 2 (-1) 5 7]) /\
  Forall2 (moved_tree 2 2 mirror [5; 7]) [bend_tree 1 1 0 0] [bend_tree 2 (-1) 5 7] /\
  (forall j c j' c', full_share [0; 0] bend_weight [-1; 0] (map mtree_of [bend_tree 1 1 0 0]) j c ->
     full_share [0; 0] bend_weight [-1; 0] (map mtree_of [bend_tree 1 1 0 0]) j' c' -> j = j' /\ c = c') /\
  compute_convergence_sequence (fun v => v) sort_by_level (bend_field 1 1 0 0) None [0; 0] bend_weight [-1; 0] s0
    (map mtree_of [bend_tree 1 1 0 0]) = Ok s /\ get_end_vector s = Ok [0; -1] /\
  compute_convergence_sequence (fun v => v) sort_by_level (bend_field 2 (-1) 5 7) None (T [0; 0]) bend_weight (T [-1; 0]) s0'
    (map mtree_of [bend_tree 2 (-1) 5 7]) = Ok s' /\ get_end_vector s' = Ok [0; 1].
Proof.
  destruct (bend_ready 1 1 0 0) as (s0 & E0 & RD & S1 & S2 & s & Es & Ee); [lra|auto|].
  destruct (bend_ready 2 (-1) 5 7) as (s0' & E0' & RD' & S1' & S2' & s' & Es' & Ee'); [lra|auto|].
  replace (0 - 1) with (-1) in * by ring. replace (0 + 1) with 1 in * by ring.
  assert (T0 : place 2 mirror [5; 7] [0; 0] = [5; 7]) by (rewrite mirror_place; v2).
  assert (T1 : place 2 mirror [5; 7] [-1; 0] = [5 - 2; 7]) by (rewrite mirror_place; v2).
  assert (T2 : place 2 mirror [5; 7] [1; 0] = [5 + 2; 7]) by (rewrite mirror_place; v2).
  exists s0, s0', s, s'. cbv zeta. rewrite T0, T1.
  split.
  { constructor.
    - apply bend_same.
    - apply bend_same.
    - rewrite T0, T1. auto.
    - intros t root [<-|[]] Er. injection Er as <-. cbn [spot_comp b_comp c_refpoint followed]. replace (0 + 1) with 1 by ring. rewrite T0, T2. auto. }
  assert (MT : Forall2 (moved_tree 2 2 mirror [5; 7]) [bend_tree 1 1 0 0] [bend_tree 2 (-1) 5 7]) by (constructor; [apply bend_moved|constructor]).
  split; [apply bend_same_weight; auto|]. split; auto. split; auto. split; auto. split; auto. split; auto.
  split; [intros j c j' c' X Y; apply bend_full in X, Y; lia|].
  split; auto. split; auto. split; auto. rewrite Ee'. f_equal. v2.
Qed.

(** *** The whole command next to an obstacle, with an attractor within it *)
Definition calm_field (k sg a b : R) : dynamics := mkDyn (fun _ => [5 * k * (3/5); 5 * k * (sg * (4/5))]) (Some [a + 6 * k; b]) None.
Lemma calm_ready k sg a b : 1 <= k -> sg = 1 \/ sg = -1 -> exists s0,
  evaluate_dynamics_sequence [a + 3 * k; b] (calm_field k sg a b) None = Ok (Some s0) /\
  conv_ready (fun v => v) sort_by_level (calm_field k sg a b) None [a + 6 * k; b] bend_weight 2 [a + 3 * k; b] s0 [3/5; sg * (4/5)]
    (map mtree_of [spot_tree 1 [a; b] [a + 3 * k; b]]) /\
  steady [a + 6 * k; b] (calm_field k sg a b) [a + 3 * k; b] /\ steady [a + 6 * k; b] (calm_field k sg a b) [a; b] /\
  (forall j c w, ~ share bend_weight [a + 6 * k; b] [a + 3 * k; b] (map mtree_of [spot_tree 1 [a; b] [a + 3 * k; b]]) j c w).
Proof.
  intros Hk Hs. assert (U : (3/5) * (3/5) + sg * (4/5) * (sg * (4/5)) = 1) by (destruct Hs as [-> | ->]; lra). pose proof tiny_1 as TY.
  assert (Vp : vsub [a + 6 * k; b] [a + 3 * k; b] = [3 * k * 1; 3 * k * 0]) by (apply vsub2; lra).
  assert (V0 : vsub [a + 6 * k; b] [a; b] = [6 * k * 1; 6 * k * 0]) by (apply vsub2; lra).
  destruct (dir_scaled (3 * k) 1 0) as [Dp Np]; try lra. rewrite <- Vp in Dp, Np.
  destruct (dir_scaled (6 * k) 1 0) as [D0 N0]; try lra. rewrite <- V0 in D0, N0.
  destruct (dir_scaled (5 * k) (3/5) (sg * (4/5))) as [DF NF]; try lra.
  assert (NC : allclose [1; 0] [3/5; sg * (4/5)] = false).
  { simpl. replace (isclose 1 (3/5)) with false; auto. symmetry. apply Rleb_false.
    rewrite !Rabs_pos_eq by lra. assert (/ 10 ^ 8 <= / 10) by (apply Rinv_le_contravar; lra).
    assert (/ 10 ^ 5 <= / 10) by (apply Rinv_le_contravar; lra). lra. }
  assert (NO : dot [1; 0] [3/5; sg * (4/5)] <> -1) by (simpl; lra).
  assert (RL : related [1; 0] [3/5; sg * (4/5)]) by (split; auto; right; auto).
  destruct (pair_sequence 2 (vsub [a + 6 * k; b] [a + 3 * k; b]) [5 * k * (3/5); 5 * k * (sg * (4/5))]) as (r & E & Pr & E0 & Ee & X & _); auto; try lra.
  { rewrite Dp, DF. auto. }
  rewrite X in Ee by (rewrite Dp, DF; auto). rewrite DF in Ee. rewrite Dp in E0.
  assert (G : forall g, attractor_gamma [a + 6 * k; b] (mtree_of (spot_tree 1 [a; b] [a + 3 * k; b])) g -> tree_share g = 0).
  { intros g [(c & [<-|[]] & ->) _]. simpl. unfold tree_share. rewrite Rmin_right by lra. apply Rmax_left. lra. }
  exists [r]. split.
  { unfold evaluate_dynamics_sequence, calm_field. cbn [dy_own dy_eval dy_attractor]. rewrite Np, NF.
    destruct (Req_EM_T _ 0); [lra|]. destruct (Req_EM_T _ 0); [lra|]. rewrite E. auto. }
  split.
  { constructor; auto.
    - apply sort_by_level_sorted.
    - split; auto. split; auto. lra.
    - rewrite Dp. constructor.
      + exists r, []. auto.
      + constructor; auto. rewrite E0. split; auto. unfold unitv; simpl; lra.
      + exact Ee.
      + split; auto. unfold unitv; simpl; lra.
    - rewrite Dp. unfold stops. simpl. auto.
    - simpl. lia.
    - intros mt [<-|[]]. constructor.
      + simpl. lia.
      + intros c [<-|[]]. exists 0. unfold bend_weight. cbn [spot_comp b_comp c_gamma]. destruct (Rlt_dec 3 1); [lra|]. split; auto. lra.
      + intros g root Hg Tg. rewrite (G g Hg) in Tg. lra.
      + intros g root Hg Tg. rewrite (G g Hg) in Tg. lra.
      + intros root r' cs w s e Er Ew _ _ Ev Eend. injection Er as <-. change (Ok (if Rlt_dec 3 1 then 1 else 0) = Ok w) in Ew.
        destruct (Rlt_dec 3 1); [lra|]. injection Ew as <-. rewrite C64_no_influence in Ev by (left; lra). injection Ev as <-.
        rewrite Ee in Eend. injection Eend as <-. rewrite Dp. unfold stops. simpl. auto.
      + intros i c w Ni E1. destruct i as [|i]; [contradiction|destruct i; discriminate]. }
  unfold steady. cbn [calm_field dy_eval]. rewrite Np, NF, N0, Dp, D0, DF.
  split; [split; [lra|split; [lra|auto]]|]. split; [split; [lra|split; [lra|auto]]|].
  intros j c w (mt & g & comp & wc & E1 & Hg & _ & _ & _ & Tg & _). apply nth_error_In in E1. destruct E1 as [<-|[]].
  rewrite (G g Hg) in Tg. lra.
Qed.
Lemma spot_takes_part p base r s :
  tree_obstacle_weights (angle_space left_of) p base 1 (mtree_of (spot_tree 1 r s)) = Ok [1].
Proof.
  unfold tree_obstacle_weights, tree_gamma_and_weights. change (tree_gammas p (mtree_of (spot_tree 1 r s))) with [1]. cbv zeta.
  assert (W : compute_weights_from_distances [1] 1 false = Ok [1]).
  { unfold compute_weights_from_distances, count_le. cbn [filter length map]. rewrite (proj2 (Rleb_true 1 1)) by lra. cbn. f_equal. f_equal. field. }
  rewrite W. cbn [bind].
  change (get_component (mtree_of (spot_tree 1 r s)) (m_root (mtree_of (spot_tree 1 r s)))) with (Ok (b_comp (spot_comp 1 r s))).
  cbn [bind]. change (rmin_list [1]) with 1. unfold get_rotation_weight. destruct (Rle_dec 1 1); [|lra]. cbn [bind].
  unfold compute_gamma_and_weights. rewrite W. cbn [bind]. change (rsum [1]) with (1 + 0).
  rewrite (proj2 (Reqb_false (1 + 0) 0)), (proj2 (Reqb_false 1 0)) by lra. cbn [orb bind].
  unfold compute_parent_occlusion_weight. change (length (m_comps (mtree_of (spot_tree 1 r s)))) with 1%nat. cbn [seq mapM].
  unfold component_occlusion. cbn. f_equal. f_equal. field.
Qed.
(** Mirrored, in half the unit of length and with another origin, next to an obstacle and between two moving ones. *)
Example C168_case :
  let evaluate k sg a b := avoider_evaluate (fun v => v) (angle_space left_of) (get_projected_tangent left_of) sort_by_level 1 (PI * / 2) None 2
    (calm_field k sg a b) None None [a + 6 * k; b] bend_weight in
  evaluate 2 (-1) 5 7 [mkMObs 2 [5; 7] (Some ([0; -2], AngNum (-1))) None; mkMObs 3 [7; 3] None (Some 1)]
    [spot_tree 1 [5; 7] [5 + 3 * 2; 7]] [5 + 3 * 2; 7] =
  rmap (fun v => [2 * nth 0 v 0; - 2 * nth 1 v 0])
    (evaluate 1 1 0 0 [mkMObs 2 [0; 0] (Some ([0; 1], AngNum 1)) None; mkMObs 3 [1; 2] None (Some 1)]
      [spot_tree 1 [0; 0] [0 + 3 * 1; 0]] [0 + 3 * 1; 0]).
Proof.
  cbv zeta.
  destruct (calm_ready 1 1 0 0) as (s0 & E0 & RD & S1 & S2 & NS); [lra|auto|].
  destruct (calm_ready 2 (-1) 5 7) as (s0' & E0' & RD' & S1' & S2' & NS'); [lra|auto|].
  assert (T0 : place 2 mirror [5; 7] [0 + 6 * 1; 0] = [5 + 6 * 2; 7]) by (rewrite mirror_place; v2).
  assert (T1 : place 2 mirror [5; 7] [0 + 3 * 1; 0] = [5 + 3 * 2; 7]) by (rewrite mirror_place; v2).
  assert (T2 : place 2 mirror [5; 7] [0; 0] = [5; 7]) by (rewrite mirror_place; v2).
  assert (T3 : place 2 mirror [5; 7] [1; 2] = [7; 3]) by (rewrite mirror_place; v2).
  assert (MD : moved_dynamics 2 2 mirror [5; 7] [0 + 6 * 1; 0] (calm_field 1 1 0 0) (calm_field 2 (-1) 5 7)).
  { constructor; auto.
    - rewrite T0. auto.
    - intros p L. cbn [calm_field dy_eval]. split; auto. unfold mirror, vscale. simpl. v2. }
  assert (ONE : forall j c j' c', full_share [0 + 6 * 1; 0] bend_weight [0 + 3 * 1; 0] (map mtree_of [spot_tree 1 [0; 0] [0 + 3 * 1; 0]]) j c ->
    full_share [0 + 6 * 1; 0] bend_weight [0 + 3 * 1; 0] (map mtree_of [spot_tree 1 [0; 0] [0 + 3 * 1; 0]]) j' c' -> j = j' /\ c = c').
  { intros j c j' c' F. destruct (NS _ _ _ F). }
  assert (ONE' : forall j c j' c', full_share [5 + 6 * 2; 7] bend_weight [5 + 3 * 2; 7] (map mtree_of [spot_tree 1 [5; 7] [5 + 3 * 2; 7]]) j c ->
    full_share [5 + 6 * 2; 7] bend_weight [5 + 3 * 2; 7] (map mtree_of [spot_tree 1 [5; 7] [5 + 3 * 2; 7]]) j' c' -> j = j' /\ c = c').
  { intros j c j' c' F. destruct (NS' _ _ _ F). }
  destruct (C65_convergence_sequence _ _ _ _ _ _ _ _ _ _ _ RD ONE) as (s & e & Es & Ps & He & _). specialize (He NS). subst e.
  destruct (C65_convergence_sequence _ _ _ _ _ _ _ _ _ _ _ RD' ONE') as (s' & e' & Es' & Ps' & He' & _). specialize (He' NS'). subst e'.
  pose proof (C168_velocity_partial 2 mirror 2 [5; 7] mirror_frame ltac:(lra) eq_refl (fun v => v) (fun v => v) sort_by_level sort_by_level
    (calm_field 1 1 0 0) (calm_field 2 (-1) 5 7) None None [0 + 6 * 1; 0] bend_weight bend_weight [0 + 3 * 1; 0] s0 s0'
    [3/5; 1 * (4/5)] [3/5; -1 * (4/5)] [spot_tree 1 [0; 0] [0 + 3 * 1; 0]] [spot_tree 1 [5; 7] [5 + 3 * 2; 7]]) as K.
  rewrite T0, T1 in K.
  rewrite (K) with (sg := -1) (env := [mkMObs 2 [0; 0] (Some ([0; 1], AngNum 1)) None; mkMObs 3 [1; 2] None (Some 1)]) (pick := left_of); auto.
  - match goal with |- rmap _ ?x = _ => destruct x as [v|] eqn:EV; [|auto] end. cbn [rmap]. f_equal. unfold mirror, vscale. simpl. v2.
  - constructor; auto.
    + rewrite T0, T1. auto.
    + intros t root [<-|[]] Er. injection Er as <-. cbn [spot_comp b_comp c_refpoint followed]. rewrite T0, T2. auto.
  - apply bend_same_weight; auto. pose proof (spot_moved 2 [5; 7] 1 [0; 0] [0 + 3 * 1; 0] eq_refl eq_refl eq_refl) as S. rewrite T1, T2 in S. constructor; [exact S|constructor].
  - pose proof (spot_moved 2 [5; 7] 1 [0; 0] [0 + 3 * 1; 0] eq_refl eq_refl eq_refl) as S. rewrite T1, T2 in S. constructor; [exact S|constructor].
  - lra.
  - intros _. apply mirror_turn.
  - intros q base Eq Eb. rewrite Es in Eq. injection Eq as <-. rewrite (ps_end _ _ _ _ Ps) in Eb. injection Eb as <-. split.
    + apply spot_scene; auto; try lra; unfold unitv, dot; simpl; lra.
    + right. exists (spot_tree 1 [0; 0] [0 + 3 * 1; 0]), [1], 1. split; [left; auto|]. split; [apply spot_takes_part|]. split; [left; auto|lra].
  - intros q base Eq Eb. rewrite Es' in Eq. injection Eq as <-. rewrite (ps_end _ _ _ _ Ps') in Eb. injection Eb as <-.
    apply spot_scene; auto; try lra; unfold unitv, dot; simpl; lra.
  - pose proof (spot_similar 2 [5; 7] 1 [0; 0] [0 + 3 * 1; 0] [0 + 3 * 1; 0] eq_refl eq_refl eq_refl eq_refl) as S. rewrite T1, T2 in S. exact S.
  - constructor; [|constructor; [|constructor]].
    + constructor; cbn; auto. split; auto. exists (AngNum (-1)). split; [|f_equal; ring].
      f_equal. f_equal. unfold scaled, mirror, vscale. simpl. v2.
    + constructor; cbn; auto.
Qed.
Print Assumptions C168_convergence_partial.
Print Assumptions C168_velocity_partial.
Print Assumptions C168_influence_partial.
