(** Properties C18 - C28: weights of obstacles and components. *)
Require Import Reals List Bool Lra Lia.
From Verif Require Import Base Vec Pow RotModel SeqProofs WeightModel WeightProofs.
Import ListNotations.
Open Scope R_scope.

(** Equality of lists of concrete numbers. *)
Ltac rlist := repeat (apply f_equal2; [try reflexivity; try (field; lra); try field; try lra|]); reflexivity.

Definition nonneg (l : list R) : Prop := forall x, In x l -> 0 <= x.
Definition in_unit (l : list R) : Prop := forall x, In x l -> 0 <= x <= 1.

(** * C18 *)
(** At most one saturated entry: positions of entries >= 1 coincide. *)
Definition one_saturated_at_most (ws : list R) : Prop :=
  forall i j, (i < length ws)%nat -> (j < length ws)%nat ->
  1 <= nth i ws 0 -> 1 <= nth j ws 0 -> i = j.

Lemma one_saturated_count ws : one_saturated_at_most ws ->
  (exists w, In w ws /\ 1 <= w) -> length (filter (Rleb 1) ws) = 1%nat.
Proof.
  induction ws as [|a ws IH]; intros U (w & Hw & W); [easy|]. simpl.
  destruct (Rleb 1 a) eqn:E.
  - simpl. f_equal. apply Rleb_true in E.
    destruct (filter (Rleb 1) ws) as [|b l] eqn:F; auto. exfalso.
    assert (B : In b (filter (Rleb 1) ws)) by (rewrite F; left; auto).
    apply filter_In in B. destruct B as (B & W'). apply Rleb_true in W'.
    destruct (in_nth ws b 0 B) as (i & Hi & Ei).
    specialize (U 0%nat (S i)). simpl in U. specialize (U ltac:(lia) ltac:(lia) E).
    rewrite Ei in U. specialize (U W'). lia.
  - apply Rleb_false in E. apply IH.
    + intros i j Hi Hj A B. specialize (U (S i) (S j)). simpl in U.
      specialize (U ltac:(lia) ltac:(lia) A B). lia.
    + exists w. destruct Hw as [->|Hw]; [lra|auto].
Qed.

Theorem C18_limited_weights_partial : forall ws, nonneg ws ->
  exists ws' t, get_limited_weights_to_max_sum ws = Ok (ws', t) /\
  length ws' = length ws /\ in_unit ws' /\ 0 <= t <= 1 /\
  (rsum ws < 1 -> ws' = ws /\ t = rsum ws) /\
  (1 <= rsum ws -> t = 1 /\ (one_saturated_at_most ws -> rsum ws' = 1)) /\
  (forall i, (i < length ws)%nat -> nth i ws 0 = 0 -> nth i ws' 0 = 0) /\
  (forall i j, (i < length ws)%nat -> (j < length ws)%nat ->
     nth i ws 0 <= nth j ws 0 -> nth i ws' 0 <= nth j ws' 0).
Proof.
  intros ws H. pose proof (rsum_nonneg ws H) as S0.
  destruct (Rlt_le_dec (rsum ws) 1) as [L|L].
  { rewrite limited_below by auto. exists ws, (rsum ws). split; auto. split; auto.
    split; [|split; [lra|split; [auto|split; [intros; lra|split; auto]]]].
    intros x Hx. pose proof (rsum_ge_elem ws x H Hx). specialize (H x Hx). lra. }
  destruct (existsb (Rleb 1) ws) eqn:E.
  - apply existsb_exists in E. destruct E as (w & Hw & W). apply Rleb_true in W.
    rewrite limited_saturated by eauto. eexists; exists 1. split; [reflexivity|].
    split; [apply map_length|]. split.
    { intros x Hx. apply in_map_iff in Hx. destruct Hx as (y & <- & _). destruct (Rleb 1 y); lra. }
    split; [lra|]. split; [intros; lra|]. split.
    { intros _. split; auto. intros U. rewrite rsum_indicator, one_saturated_count by eauto.
      reflexivity. }
    split.
    + intros i Hi Z. rewrite nth_map0 by auto. rewrite Z.
      rewrite (proj2 (Rleb_false 1 0)) by lra. auto.
    + intros i j Hi Hj Lij. rewrite !nth_map0 by auto.
      destruct (Rleb 1 (nth i ws 0)) eqn:A; destruct (Rleb 1 (nth j ws 0)) eqn:B; try lra.
      apply Rleb_true in A. apply Rleb_false in B. lra.
  - assert (B : forall w, In w ws -> 0 <= w < 1).
    { intros w Hw. pose proof (existsb_false _ _ E w Hw) as F. apply Rleb_false in F.
      specialize (H w Hw). lra. }
    destruct (limited_scaled ws B L) as (P & ->). set (s := rsum (map inflate_weight ws)) in *.
    eexists; exists 1. split; [reflexivity|]. split; [apply map_length|].
    assert (T : rsum (map (fun w => inflate_weight w / s) ws) = 1).
    { rewrite rsum_map_div. fold s. field. lra. }
    assert (N : nonneg (map (fun w => inflate_weight w / s) ws)).
    { intros x Hx. apply in_map_iff in Hx. destruct Hx as (w & <- & Hw).
      apply div_nonneg; auto. apply inflate_nonneg; auto. }
    split; [|split; [lra|split; [intros; lra|split; [auto|split]]]].
    + intros x Hx. pose proof (rsum_ge_elem _ x N Hx). specialize (N x Hx). lra.
    + intros i Hi Z. rewrite nth_map0, Z by auto. unfold inflate_weight. field. lra.
    + intros i j Hi Hj Lij. rewrite !nth_map0 by auto. apply div_le_compat; auto.
      apply inflate_mono; auto; apply B; apply nth_In; auto.
Qed.
(** What the code does with several saturated entries: each gets a full weight. *)
Theorem C18_total_is_number_of_saturated : forall ws,
  (exists w, In w ws /\ 1 <= w) -> 1 <= rsum ws ->
  exists ws', get_limited_weights_to_max_sum ws = Ok (ws', 1) /\
  rsum ws' = INR (length (filter (Rleb 1) ws)).
Proof.
  intros ws E S. rewrite limited_saturated by auto. eexists. split; [reflexivity|].
  apply rsum_indicator.
Qed.
Theorem C18_sum_at_most_one_refuted : exists ws, nonneg ws /\
  exists ws' t, get_limited_weights_to_max_sum ws = Ok (ws', t) /\ t = 1 /\ rsum ws' = 2.
Proof.
  exists [1; 1]. split; [intros x [<-|[<-|[]]]; lra|].
  rewrite limited_saturated; [|simpl; lra|exists 1; split; [left; auto|lra]].
  eexists; exists 1. split; [reflexivity|]. split; auto.
  simpl. rewrite (proj2 (Rleb_true 1 1)) by lra. lra.
Qed.
Example C18_case : nonneg [1/2; 1/2; 0; 3/4] /\ 1 <= rsum [1/2; 1/2; 0; 3/4] /\
  one_saturated_at_most [1/2; 1/2; 0; 3/4] /\
  get_limited_weights_to_max_sum [1/2; 1/2; 0; 3/4] = Ok ([1/5; 1/5; 0; 3/5], 1).
Proof.
  assert (N : forall w, In w [1/2; 1/2; 0; 3/4] -> 0 <= w < 1).
  { intros x [<-|[<-|[<-|[<-|[]]]]]; lra. }
  split; [intros x Hx; specialize (N x Hx); lra|]. split; [simpl; lra|]. split.
  { intros i j Hi Hj A _. specialize (N _ (nth_In _ 0 Hi)). lra. }
  destruct (limited_scaled [1/2; 1/2; 0; 3/4] N) as (P & ->); [simpl; lra|].
  simpl. unfold inflate_weight. do 2 f_equal; rlist.
Qed.
Print Assumptions C18_limited_weights_partial.
Print Assumptions C18_total_is_number_of_saturated.
Print Assumptions C18_sum_at_most_one_refuted.

(** * C19 *)
Theorem C19_gamma_weights : forall ds m p, 0 < p ->
  exists ws, compute_gamma_weights ds m p = Ok ws /\
  length ws = length ds /\ nonneg ws /\ rsum ws <= 1 /\
  (* in contact: the critical ones share one equally, the others get nothing *)
  ((exists d, In d ds /\ d <= m) -> rsum ws = 1 /\
     forall i, (i < length ds)%nat ->
       (m < nth i ds 0 -> nth i ws 0 = 0) /\
       forall j, (j < length ds)%nat -> nth i ds 0 <= m -> nth j ds 0 <= m ->
         nth i ws 0 = nth j ws 0 /\ 0 < nth i ws 0) /\
  (* otherwise: a common multiple c <= 1 of 1 / distance ^ p, c = 1 when the total allows it *)
  ((forall d, In d ds -> m < d) ->
     exists c, 0 < c <= 1 /\
       (forall i, (i < length ds)%nat -> nth i ws 0 = c * Rpower (/ (nth i ds 0 - m)) p) /\
       (c = 1 \/ rsum ws = 1)) /\
  (* nearer is not lighter *)
  (forall i j, (i < length ds)%nat -> (j < length ds)%nat ->
     nth i ds 0 <= nth j ds 0 -> nth j ws 0 <= nth i ws 0).
Proof.
  intros ds m p Hp. destruct (far_or_critical m ds) as [C|F].
  - rewrite gamma_weights_critical by auto. eexists. split; [reflexivity|].
    pose proof (count_le_pos m ds C) as K. apply lt_INR in K. simpl in K.
    assert (Q : 0 < 1 / INR (count_le m ds)) by (apply div_pos; lra).
    split; [apply map_length|]. split.
    { intros x Hx. apply in_map_iff in Hx. destruct Hx as (d & <- & _). destruct (Rleb d m); lra. }
    rewrite rsum_critical by auto. split; [lra|]. split.
    { intros _. split; auto. intros i Hi. rewrite nth_map0 by auto. split.
      - intros L. rewrite (proj2 (Rleb_false _ _) L). auto.
      - intros j Hj A B. rewrite nth_map0 by auto.
        rewrite (proj2 (Rleb_true _ _) A), (proj2 (Rleb_true _ _) B). auto. }
    split.
    { intros F. destruct C as (d & Hd & L). specialize (F d Hd). lra. }
    intros i j Hi Hj L. rewrite !nth_map0 by auto.
    destruct (Rleb (nth i ds 0) m) eqn:A; destruct (Rleb (nth j ds 0) m) eqn:B; try lra.
    apply Rleb_false in A. apply Rleb_true in B. lra.
  - rewrite gamma_weights_far by auto. set (raw := map (fun d => Rpower (1 / (d - m)) p) ds).
    eexists. split; [reflexivity|].
    assert (N : forall x, In x raw -> 0 < x).
    { intros x Hx. apply in_map_iff in Hx. destruct Hx as (d & <- & _). apply Rpower_pos. }
    assert (E : exists c, 0 < c <= 1 /\ (if Rle_dec (rsum raw) 1 then raw
              else map (fun w => w / rsum raw) raw) = map (fun w => c * w) raw /\
              (c = 1 \/ rsum (map (fun w => c * w) raw) = 1) /\
              rsum (map (fun w => c * w) raw) <= 1).
    { destruct (Rle_dec (rsum raw) 1) as [L|L].
      - exists 1. split; [lra|]. rewrite (map_ext _ (fun w => w)), map_id by (intros; ring).
        repeat split; auto.
      - apply Rnot_le_lt in L. exists (/ rsum raw).
        assert (T : rsum (map (fun w => / rsum raw * w) raw) = 1).
        { rewrite (rsum_map_scale (/ rsum raw) (fun w => w)), map_id. field. lra. }
        split; [split; [apply Rinv_0_lt_compat; lra|]|].
        { rewrite <- Rinv_1. apply Rinv_le_contravar; lra. }
        split; [apply map_ext; intros; unfold Rdiv; ring|]. rewrite T. split; [auto|lra]. }
    destruct E as (c & Hc & -> & T1 & T2).
    assert (X : forall i, (i < length ds)%nat ->
              nth i (map (fun w => c * w) raw) 0 = c * Rpower (/ (nth i ds 0 - m)) p).
    { intros i Hi. rewrite nth_map0 by (unfold raw; rewrite map_length; auto).
      unfold raw. rewrite nth_map0 by auto. unfold Rdiv. rewrite Rmult_1_l. auto. }
    split; [unfold raw; rewrite !map_length; auto|]. split.
    { intros x Hx. apply in_map_iff in Hx. destruct Hx as (w & <- & Hw). specialize (N w Hw). nra. }
    split; [auto|]. split.
    { intros (d & Hd & L). specialize (F d Hd). lra. }
    split; [intros _; exists c; auto|].
    intros i j Hi Hj L. rewrite !X by auto.
    pose proof (F _ (nth_In _ 0 Hi)). pose proof (F _ (nth_In _ 0 Hj)).
    apply Rmult_le_compat_l; [lra|]. apply Rpower_base_mono; [apply Rinv_0_lt_compat; lra| |lra].
    apply Rinv_le_contravar; lra.
Qed.
Example C19_case :
  compute_gamma_weights [1; 3; 1/2] 1 2 = Ok [1/2; 0; 1/2] /\
  compute_gamma_weights [2; 3] 1 1 = Ok [2/3; 1/3].
Proof.
  split.
  - rewrite gamma_weights_critical by (exists 1; split; [left; auto|lra]).
    unfold count_le. simpl. rewrite (proj2 (Rleb_true 1 1)), (proj2 (Rleb_true (1/2) 1)),
      (proj2 (Rleb_false 3 1)) by lra. simpl. f_equal; rlist.
  - rewrite gamma_weights_far by (intros d [<-|[<-|[]]]; lra).
    cbn [map]. rewrite !Rpower_1 by lra.
    replace (1 / (2 - 1)) with 1 by field. replace (1 / (3 - 1)) with (1/2) by field.
    destruct (Rle_dec _ 1) as [L|L]; [simpl in L; lra|]. simpl. f_equal; rlist.
Qed.
Print Assumptions C19_gamma_weights.

(** * C20 *)
Theorem C20_weights_from_distances : forall ds m nz,
  exists ws, compute_weights_from_distances ds m nz = Ok ws /\
  length ws = length ds /\ nonneg ws /\
  (nz = true -> rsum ws <= 1) /\
  ((exists d, In d ds /\ d <= m) -> rsum ws = 1 /\
     forall i, (i < length ds)%nat -> (0 < nth i ws 0 <-> nth i ds 0 <= m) /\
       forall j, (j < length ds)%nat -> nth i ds 0 <= m -> nth j ds 0 <= m ->
         nth i ws 0 = nth j ws 0) /\
  ((forall d, In d ds -> m < d) ->
     exists c, 0 < c <= 1 /\ (nz = false -> c = 1) /\ (c = 1 \/ rsum ws = 1) /\
       forall i, (i < length ds)%nat -> nth i ws 0 * (nth i ds 0 - m) = c).
Proof.
  intros ds m nz. destruct (far_or_critical m ds) as [C|F].
  - rewrite distance_weights_critical by auto. eexists. split; [reflexivity|].
    pose proof (count_le_pos m ds C) as K. apply lt_INR in K. simpl in K.
    assert (Q : 0 < 1 / INR (count_le m ds)) by (apply div_pos; lra).
    split; [apply map_length|]. split.
    { intros x Hx. apply in_map_iff in Hx. destruct Hx as (d & <- & _). destruct (Rleb d m); lra. }
    rewrite rsum_critical by auto. split; [intros; lra|]. split.
    { intros _. split; auto. intros i Hi. rewrite nth_map0 by auto. split.
      - destruct (Rleb (nth i ds 0) m) eqn:A; [apply Rleb_true in A|apply Rleb_false in A]; lra.
      - intros j Hj A B. rewrite nth_map0 by auto.
        rewrite (proj2 (Rleb_true _ _) A), (proj2 (Rleb_true _ _) B). auto. }
    intros F. destruct C as (d & Hd & L). specialize (F d Hd). lra.
  - rewrite distance_weights_far by auto. set (raw := map (fun d => 1 / (d - m)) ds).
    eexists. split; [reflexivity|].
    assert (N : forall x, In x raw -> 0 < x).
    { intros x Hx. apply in_map_iff in Hx. destruct Hx as (d & <- & Hd).
      specialize (F d Hd). apply div_pos; lra. }
    assert (E : exists c, 0 < c <= 1 /\ (if nz && Rltb 1 (rsum raw)
              then map (fun w => w / rsum raw) raw else raw) = map (fun w => c * w) raw /\
              (nz = false -> c = 1) /\
              (c = 1 \/ rsum (map (fun w => c * w) raw) = 1) /\
              (nz = true -> rsum (map (fun w => c * w) raw) <= 1)).
    { destruct (Rltb 1 (rsum raw)) eqn:L; destruct nz; simpl;
        try (apply Rltb_true in L); try (apply Rltb_false in L).
      2-4: exists 1; split; [lra|]; rewrite (map_ext _ (fun w => w)), map_id by (intros; ring);
           repeat split; auto; try discriminate.
      exists (/ rsum raw).
      assert (T : rsum (map (fun w => / rsum raw * w) raw) = 1).
      { rewrite (rsum_map_scale (/ rsum raw) (fun w => w)), map_id. field. lra. }
      split; [split; [apply Rinv_0_lt_compat; lra|]|].
      { rewrite <- Rinv_1. apply Rinv_le_contravar; lra. }
      split; [apply map_ext; intros; unfold Rdiv; ring|]. rewrite T.
      split; [discriminate|]. split; [auto|lra]. }
    destruct E as (c & Hc & -> & NZ & T1 & T2).
    split; [unfold raw; rewrite !map_length; auto|]. split.
    { intros x Hx. apply in_map_iff in Hx. destruct Hx as (w & <- & Hw). specialize (N w Hw). nra. }
    split; [auto|]. split.
    { intros (d & Hd & L). specialize (F d Hd). lra. }
    intros _. exists c. repeat (split; auto).
    intros i Hi. rewrite nth_map0 by (unfold raw; rewrite map_length; auto).
    unfold raw. rewrite nth_map0 by auto. pose proof (F _ (nth_In _ 0 Hi)). field. lra.
Qed.
Example C20_case :
  compute_weights_from_distances [1; 3; 1/2] 1 false = Ok [1/2; 0; 1/2] /\
  compute_weights_from_distances [3/2; 3] 1 false = Ok [2; 1/2] /\
  compute_weights_from_distances [3/2; 3] 1 true = Ok [4/5; 1/5].
Proof.
  split; [|split].
  - rewrite distance_weights_critical by (exists 1; split; [left; auto|lra]).
    unfold count_le. simpl. rewrite (proj2 (Rleb_true 1 1)), (proj2 (Rleb_true (1/2) 1)),
      (proj2 (Rleb_false 3 1)) by lra. simpl. f_equal; rlist.
  - rewrite distance_weights_far by (intros d [<-|[<-|[]]]; lra). simpl. f_equal; rlist.
  - rewrite distance_weights_far by (intros d [<-|[<-|[]]]; lra). cbn [andb map].
    rewrite (proj2 (Rltb_true _ _)) by (simpl; lra). simpl. f_equal; rlist.
Qed.
Print Assumptions C20_weights_from_distances.

(** * C21 *)
Theorem C21_tree_weight : forall limit, 1 < limit ->
  compute_tree_weight None limit = Ok 1 /\
  exists f, (forall g, compute_tree_weight (Some g) limit = Ok (f g)) /\
  (forall g, g <= 1 -> f g = 0) /\ (forall g, limit <= g -> f g = 1) /\
  (forall g, 0 <= f g <= 1) /\
  (forall g h, g <= h -> f g <= f h) /\
  (* Lipschitz, in particular continuous *)
  (forall g h, Rabs (f g - f h) <= / (limit - 1) * Rabs (g - h)).
Proof.
  intros limit H. split; auto.
  set (k := / (limit - 1)). assert (K : 0 < k) by (apply Rinv_0_lt_compat; lra).
  assert (KL : k * (limit - 1) = 1) by (unfold k; field; lra).
  exists (fun g => if Rle_dec g 1 then 0 else if Rle_dec limit g then 1 else k * (g - 1)).
  split; [|split; [|split; [|split; [|split]]]].
  - intros g. unfold compute_tree_weight. destruct (Rle_dec g 1); auto.
    destruct (Rle_dec limit g); auto. unfold fdiv. destruct (Req_EM_T _ 0); [lra|].
    f_equal. unfold k. field. lra.
  - intros g L. destruct (Rle_dec g 1); [auto|lra].
  - intros g L. destruct (Rle_dec g 1); [lra|]. destruct (Rle_dec limit g); [auto|lra].
  - intros g. destruct (Rle_dec g 1); [lra|]. destruct (Rle_dec limit g); [lra|]. nra.
  - intros g h L. destruct (Rle_dec g 1), (Rle_dec h 1); try lra;
    destruct (Rle_dec limit g), (Rle_dec limit h); try lra; nra.
  - intros g h. unfold Rabs at 2.
    destruct (Rcase_abs (g - h)); apply Rabs_le;
    destruct (Rle_dec g 1), (Rle_dec h 1); try nra;
    destruct (Rle_dec limit g), (Rle_dec limit h); try nra; split; nra.
Qed.
Example C21_case : compute_tree_weight (Some (3/2)) 2 = Ok (1/2).
Proof.
  unfold compute_tree_weight. destruct (Rle_dec _ _); [lra|]. destruct (Rle_dec _ _); [lra|].
  unfold fdiv. destruct (Req_EM_T _ _); [lra|]. f_equal. field.
Qed.
Print Assumptions C21_tree_weight.

(** * C22 *)
Theorem C22_rotation_weight : forall angle_of n r c radius power base, 0 <= power ->
  exists f, (forall g, get_rotation_weight angle_of n r c g radius power base = Ok (f g)) /\
  (forall g, g <= 1 -> f g = 1) /\
  (forall g, 1 < g -> 0 <= f g <= / g) /\
  (forall g h, g <= h -> f h <= f g).
Proof.
  intros angle_of n r c radius power base Hp.
  set (outward := Rltb (cos radius) (dot c n)).
  set (n' := if outward then n else vscale (-1) n).
  set (r' := if outward then vscale (-1) r else r).
  set (delta := norm (vsub (angle_of n' r') (angle_of n' c))).
  set (rr := Rmin base radius - norm (angle_of n' r')).
  assert (D : 0 <= delta) by apply norm_nonneg.
  (* outside, the weight is (1/g)^q with q >= 1, or zero *)
  assert (Q : (exists q, 1 <= q /\ forall g, 1 < g ->
                get_rotation_weight angle_of n r c g radius power base = Ok (Rpower (/ g) q)) \/
              (forall g, 1 < g -> get_rotation_weight angle_of n r c g radius power base = Ok 0)).
  { destruct (Rle_dec rr delta) as [L|L].
    - left. exists 1. split; [lra|]. intros g Hg. unfold get_rotation_weight.
      destruct (Rle_dec g 1); [lra|]. fold outward. fold n' r'. fold delta rr.
      destruct (Rle_dec rr delta); [|lra]. f_equal.
      rewrite Rpower_1 by (apply Rinv_0_lt_compat; lra). unfold Rdiv. ring.
    - destruct (Req_dec delta 0) as [Z|NZ].
      + destruct (Req_dec power 0) as [P0|P0].
        * left. exists 1. split; [lra|]. intros g Hg. unfold get_rotation_weight.
          destruct (Rle_dec g 1); [lra|]. fold outward. fold n' r'. fold delta rr.
          destruct (Rle_dec rr delta); [lra|].
          destruct (Req_EM_T delta 0); [|lra]. destruct (Req_EM_T power 0); [|lra]. f_equal.
          rewrite Rpower_1 by (apply Rinv_0_lt_compat; lra). unfold Rdiv. ring.
        * right. intros g Hg. unfold get_rotation_weight.
          destruct (Rle_dec g 1); [lra|]. fold outward. fold n' r'. fold delta rr.
          destruct (Rle_dec rr delta); [lra|].
          destruct (Req_EM_T delta 0); [|lra]. destruct (Req_EM_T power 0); [lra|].
          destruct (Rlt_dec 0 power); [auto|lra].
      + assert (G : 1 <= rr / delta).
        { replace 1 with (delta / delta) by (field; auto). apply div_le_compat; lra. }
        left. exists (Rpower (rr / delta) power). split; [apply Rpower_ge_1; auto|].
        intros g Hg. unfold get_rotation_weight.
        destruct (Rle_dec g 1); [lra|]. fold outward. fold n' r'. fold delta rr.
        destruct (Rle_dec rr delta); [lra|]. destruct (Req_EM_T delta 0); [lra|].
        rewrite fpow_pos by lra. cbn [bind]. rewrite fpow_pos by (apply div_pos; lra).
        unfold Rdiv at 1. rewrite Rmult_1_l. auto. }
  assert (B : forall g, 1 < g -> 0 < / g <= 1).
  { intros g Hg. split; [apply Rinv_0_lt_compat; lra|]. rewrite <- Rinv_1.
    apply Rinv_le_contravar; lra. }
  destruct Q as [(q & Hq & Q)|Q].
  - exists (fun g => if Rle_dec g 1 then 1 else Rpower (/ g) q). split; [|split; [|split]].
    + intros g. destruct (Rle_dec g 1) as [L|L]; [|apply Q; lra].
      unfold get_rotation_weight. destruct (Rle_dec g 1); [auto|lra].
    + intros g L. destruct (Rle_dec g 1); [auto|lra].
    + intros g L. destruct (Rle_dec g 1); [lra|].
      pose proof (Rpower_pos (/ g) q). pose proof (Rpower_le_base (/ g) q (B g L) Hq). lra.
    + intros g h L. destruct (Rle_dec g 1), (Rle_dec h 1); try lra.
      * apply Rpower_le_1; [apply B; lra|lra].
      * apply Rpower_base_mono; [apply B; lra| |lra]. apply Rinv_le_contravar; lra.
  - exists (fun g => if Rle_dec g 1 then 1 else 0). split; [|split; [|split]].
    + intros g. destruct (Rle_dec g 1) as [L|L]; [|apply Q; lra].
      unfold get_rotation_weight. destruct (Rle_dec g 1); [auto|lra].
    + intros g L. destruct (Rle_dec g 1); [auto|lra].
    + intros g L. destruct (Rle_dec g 1); [lra|]. pose proof (B g L). lra.
    + intros g h L. destruct (Rle_dec g 1), (Rle_dec h 1); lra.
Qed.
(** Reference and convergence at angles 0 and pi/4, gamma 2: ratio 2, squared by the power. *)
Example C22_case : get_rotation_weight (fun _ v => [nth 0 v 0])
    [0; 1] [0; -1] [PI/4; -1] 2 (PI/2) 2 (PI/2) = Ok (Rpower (1/2) (Rpower 2 2)).
Proof.
  pose proof PI_RGT_0 as P. unfold get_rotation_weight. destruct (Rle_dec 2 1); [lra|].
  rewrite cos_PI2. replace (Rltb 0 (dot [PI/4; -1] [0; 1])) with false.
  2:{ symmetry. apply Rltb_false. unfold dot. simpl. lra. }
  cbn [nth]. rewrite Rmin_left by lra.
  assert (D : norm (vsub [0] [PI/4]) = PI/4).
  { unfold norm, vsub, vadd, vscale, dot. simpl. replace (_ + 0) with (Rsqr (PI/4)) by (unfold Rsqr; ring).
    apply sqrt_Rsqr. lra. }
  assert (Z : norm [0] = 0).
  { unfold norm, dot. simpl. replace (0 * 0 + 0) with 0 by ring. apply sqrt_0. }
  rewrite D, Z. destruct (Rle_dec _ _); [lra|]. destruct (Req_EM_T _ _); [lra|].
  replace ((PI/2 - 0) / (PI/4)) with 2 by (field; lra).
  rewrite fpow_pos by lra. cbn [bind]. rewrite fpow_pos by lra. auto.
Qed.
Print Assumptions C22_rotation_weight.

(** * C23 *)
Theorem C23_component_weights : forall gammas rw, gammas <> [] -> 0 <= rw <= 1 ->
  exists gs ws, compute_gamma_and_weights gammas rw = Ok (gs, ws) /\
  length ws = length gammas /\ nonneg ws /\ rsum ws = rw /\
  ((exists g, In g gammas /\ g <= 1) ->
     forall i, (i < length gammas)%nat ->
       (1 < nth i gammas 0 -> nth i ws 0 = 0) /\
       forall j, (j < length gammas)%nat -> nth i gammas 0 <= 1 -> nth j gammas 0 <= 1 ->
         nth i ws 0 = nth j ws 0) /\
  ((forall g, In g gammas -> 1 < g) ->
     exists c, forall i, (i < length gammas)%nat -> nth i ws 0 * (nth i gammas 0 - 1) = c) /\
  (rw = 0 -> forall w, In w ws -> w = 0) /\ (0 < rw -> gs = gammas).
Proof.
  intros gammas rw NE Hr. unfold compute_gamma_and_weights.
  destruct (C20_weights_from_distances gammas 1 false) as (gw & -> & Len & Pos & _ & Con & Far).
  cbn [bind].
  assert (S : 0 < rsum gw).
  { destruct (far_or_critical 1 gammas) as [C|F]; [rewrite (proj1 (Con C)); lra|].
    destruct (Far F) as (c & Hc & _ & _ & E). apply rsum_pos; auto.
    destruct gammas as [|g l]; [easy|]. exists (nth 0 gw 0).
    split; [apply nth_In; rewrite Len; simpl; lia|].
    specialize (E 0%nat ltac:(simpl; lia)). simpl in E. specialize (F g ltac:(left; auto)).
    apply Rnot_le_lt. intros L. nra. }
  rewrite (proj2 (Reqb_false (rsum gw) 0)) by lra. cbn [orb].
  destruct (Reqb rw 0) eqn:Z; [apply Reqb_true in Z|apply Reqb_false in Z].
  - eexists; eexists. split; [reflexivity|]. split; [rewrite map_length; auto|].
    split; [intros x Hx; apply in_map_iff in Hx; destruct Hx as (y & <- & _); lra|].
    split; [rewrite rsum_map_const; lra|].
    assert (N : forall i, (i < length gammas)%nat -> nth i (map (fun _ : R => 0) gw) 0 = 0).
    { intros i Hi. rewrite nth_map0; auto. rewrite Len; auto. }
    split; [|split; [|split; [|lra]]].
    + intros _ i Hi. rewrite N by auto. split; auto. intros j Hj _ _. rewrite N by auto. auto.
    + intros _. exists 0. intros i Hi. rewrite N by auto. ring.
    + intros _ w Hw. apply in_map_iff in Hw. destruct Hw as (y & <- & _). auto.
  - eexists; eexists. split; [reflexivity|]. split; [rewrite map_length; auto|].
    assert (K : 0 < rw / rsum gw) by (apply div_pos; lra).
    assert (M : map (fun g => g / rsum gw * rw) gw = map (fun g => rw / rsum gw * g) gw).
    { apply map_ext. intros g. field. lra. }
    rewrite M. set (k := rw / rsum gw) in *.
    split; [intros x Hx; apply in_map_iff in Hx; destruct Hx as (y & <- & Hy); specialize (Pos y Hy); nra|].
    split; [rewrite (rsum_map_scale k (fun w => w)), map_id; unfold k; field; lra|].
    assert (N : forall i, (i < length gammas)%nat -> nth i (map (fun g => k * g) gw) 0 = k * nth i gw 0).
    { intros i Hi. rewrite nth_map0; auto. rewrite Len; auto. }
    split; [|split; [|split; [lra|auto]]].
    + intros C i Hi. rewrite N by auto. destruct (Con C) as (_ & P).
      assert (W : forall i, (i < length gammas)%nat -> 0 <= nth i gw 0).
      { intros l Hl. apply Pos, nth_In. rewrite Len; auto. }
      split.
      * intros L. pose proof (proj1 (P i Hi)). pose proof (W i Hi).
        assert (nth i gw 0 = 0) by lra. nra.
      * intros j Hj A B. rewrite N by auto. f_equal.
        apply (P i Hi); auto.
    + intros F. destruct (Far F) as (c & Hc & _ & _ & E). exists (k * c). intros i Hi.
      rewrite N by auto. rewrite <- (E i Hi). ring.
Qed.
Example C23_case : compute_gamma_and_weights [2; 3] (1/2) = Ok ([2; 3], [1/3; 1/6]).
Proof.
  unfold compute_gamma_and_weights.
  rewrite distance_weights_far by (intros d [<-|[<-|[]]]; lra). simpl.
  rewrite (proj2 (Reqb_false _ 0)) by lra. rewrite (proj2 (Reqb_false (1/2) 0)) by lra.
  simpl. do 2 f_equal; rlist.
Qed.
Print Assumptions C23_component_weights.

(** * C25 *)
(** Geometric queries along one component are defined: the parent exists, the ray hits the
    surface, gammas are nonnegative, reference points are distinct from each other and from the
    position. *)
Definition occlusion_defined (position : vec) (t : mtree) (i : nat) : Prop :=
  exists c p parent surf,
    nth_error (m_comps t) i = Some c /\ m_parent t i = Some p /\
    nth_error (m_comps t) p = Some parent /\
    c_intersect c position
      (if Rltb (c_gamma c position) 1 then vscale (-1) (c_refdir c position)
       else c_refdir c position) = Some surf /\
    0 <= c_gamma parent surf /\
    norm (vsub (c_refpoint parent) (c_refpoint c)) <> 0 /\
    norm (vsub position (c_refpoint c)) <> 0.
(** The component is not hidden: its surface point is not inside the parent. *)
Definition visible (position : vec) (t : mtree) (i : nat) : Prop :=
  exists c p parent surf,
    nth_error (m_comps t) i = Some c /\ m_parent t i = Some p /\
    nth_error (m_comps t) p = Some parent /\
    c_intersect c position
      (if Rltb (c_gamma c position) 1 then vscale (-1) (c_refdir c position)
       else c_refdir c position) = Some surf /\
    1 <= c_gamma parent surf.

Lemma parent_occlusion_range g vp vx : 0 <= g -> norm vp <> 0 -> norm vx <> 0 ->
  exists w, parent_occlusion g vp vx = Ok w /\ 0 <= w <= 1 /\ (1 <= g -> w = 1) /\ (g < 1 -> w < 1).
Proof.
  intros Hg Np Nx. unfold parent_occlusion. destruct (Rle_dec 1 g) as [L|L].
  { exists 1. repeat split; try lra. }
  pose proof (norm_nonneg vp). pose proof (norm_nonneg vx).
  assert (P : 0 < norm vx * norm vp) by (apply Rmult_lt_0_compat; lra).
  unfold fdiv. destruct (Req_EM_T _ 0); [lra|]. cbn [bind].
  pose proof (dot_ge_norms vp vx) as G.
  set (d := dot vp vx / (norm vx * norm vp)).
  assert (D : -1 <= d).
  { unfold d. replace (-1) with (- (norm vx * norm vp) / (norm vx * norm vp)) by (field; lra).
    apply div_le_compat; lra. }
  destruct (Rle_dec 1 d); [exists 0; repeat split; lra|].
  assert (Q : 0 < 1 / (1 - d)) by (apply div_pos; lra).
  destruct (Req_dec g 0) as [->|G0].
  - unfold fpow. destruct (Rlt_dec 0 0); [lra|]. destruct (Req_EM_T _ 0); [lra|].
    destruct (Req_EM_T 0 0); [|lra]. destruct (Rlt_dec _ _); [|lra]. exists 0. repeat split; lra.
  - rewrite fpow_pos by lra. eexists. split; [reflexivity|].
    set (q := 1 / (1 - d)) in *. pose proof (Rpower_pos g q).
    assert (Rpower g q < 1).
    { unfold Rpower. rewrite <- exp_0. apply exp_increasing.
      assert (ln g < 0) by (rewrite <- ln_1; apply ln_increasing; lra). nra. }
    repeat split; lra.
Qed.
Lemma mapM_seq_ok {B} (f : nat -> res B) n :
  (forall i, (i < n)%nat -> exists b, f i = Ok b) ->
  exists l, mapM f (seq 0 n) = Ok l /\ length l = n /\
    forall i d, (i < n)%nat -> f i = Ok (nth i l d).
Proof.
  intros H.
  assert (G : forall k s, (forall i, (s <= i < s + k)%nat -> exists b, f i = Ok b) ->
     exists l, mapM f (seq s k) = Ok l /\ length l = k /\
       forall i d, (i < k)%nat -> f (s + i)%nat = Ok (nth i l d)).
  { induction k as [|k IH]; intros s K; simpl; [exists []; repeat split; auto; intros; lia|].
    destruct (K s) as (b & Eb); [lia|]. rewrite Eb. cbn [bind].
    destruct (IH (S s)) as (l & El & Ll & Hl); [intros; apply K; lia|]. rewrite El. cbn [bind].
    exists (b :: l). repeat split; [simpl; auto|]. intros [|i] d Hi; simpl; [rewrite Nat.add_0_r; auto|].
    rewrite <- Hl by lia. f_equal. lia. }
  destruct (G n 0%nat) as (l & A & B' & C); [intros; apply H; lia|]. exists l. auto.
Qed.
Theorem C25_parent_occlusion : forall position t,
  (forall i, (i < length (m_comps t))%nat -> i <> m_root t -> occlusion_defined position t i) ->
  exists ws, compute_parent_occlusion_weight position t = Ok ws /\
  length ws = length (m_comps t) /\ in_unit ws /\
  ((m_root t < length ws)%nat -> nth (m_root t) ws 0 = 1) /\
  (forall i, (i < length ws)%nat -> i <> m_root t -> (visible position t i <-> nth i ws 0 = 1)).
Proof.
  intros pos t H.
  assert (G : forall i, (i < length (m_comps t))%nat -> exists w,
     component_occlusion pos t i = Ok w /\ 0 <= w <= 1 /\ (i = m_root t -> w = 1) /\
     (i <> m_root t -> (visible pos t i <-> w = 1))).
  { intros i Hi. unfold component_occlusion. destruct (Nat.eqb_spec i (m_root t)) as [E|NE].
    - exists 1. repeat split; try lra; intros; contradiction.
    - destruct (H i Hi NE) as (c & p & parent & surf & Ec & Ep & Epa & Es & Gp & N1 & N2).
      unfold get_component, get_parent_idx. rewrite Ec. cbn [bind]. rewrite Ep. cbn [bind].
      rewrite Epa. cbn [bind]. rewrite Es.
      destruct (parent_occlusion_range (c_gamma parent surf) _ _ Gp N1 N2) as (w & -> & R & A & B).
      exists w. split; auto. split; auto. split; [intros; contradiction|]. intros _. split.
      + intros (c' & p' & parent' & surf' & Ec' & Ep' & Epa' & Es' & V).
        rewrite Ec in Ec'. injection Ec' as <-. rewrite Ep in Ep'. injection Ep' as <-.
        rewrite Epa in Epa'. injection Epa' as <-. rewrite Es in Es'. injection Es' as <-. auto.
      + intros W. exists c, p, parent, surf. repeat (split; auto).
        apply Rnot_lt_le. intros L. specialize (B L). lra. }
  destruct (mapM_seq_ok (component_occlusion pos t) (length (m_comps t))) as (ws & E & L & N).
  { intros i Hi. destruct (G i Hi) as (w & -> & _). eauto. }
  exists ws. split; [exact E|]. split; auto. split; [|split].
  - intros x Hx. destruct (in_nth ws x 0 Hx) as (i & Hi & <-). rewrite L in Hi.
    destruct (G i Hi) as (w & Ew & R & _). rewrite (N i 0 Hi) in Ew. injection Ew as ->. auto.
  - intros Hi. rewrite L in Hi.
    destruct (G _ Hi) as (w & Ew & _ & R & _). rewrite (N _ 0 Hi) in Ew. injection Ew as ->. auto.
  - intros i Hi NE. rewrite L in Hi.
    destruct (G _ Hi) as (w & Ew & _ & _ & R). rewrite (N _ 0 Hi) in Ew. injection Ew as ->. auto.
Qed.

(** The child's surface point is inside the parent (gamma 1/4), seen at a right angle. *)
Definition excomp (g : R) (ref : vec) : component :=
  mkComp (fun _ => g) (fun _ => [1; 0]) (fun _ => [-1; 0]) ref ref (fun p _ => Some p) true.
Definition extree2 : mtree :=
  mkMTree [excomp (1/4) [0; 1]; excomp 2 [0; 0]] 0 (fun i => if (i =? 1)%nat then Some 0%nat else None).
Example C25_case :
  (forall i, (i < length (m_comps extree2))%nat -> i <> m_root extree2 ->
     occlusion_defined [1; 0] extree2 i) /\
  compute_parent_occlusion_weight [1; 0] extree2 = Ok [1; 1/4].
Proof.
  assert (N1 : norm (vsub [0; 1] [0; 0]) = 1).
  { unfold norm, vsub, vadd, vscale, dot. simpl.
    transitivity (sqrt 1); [f_equal; ring|apply sqrt_1]. }
  assert (N2 : norm (vsub [1; 0] [0; 0]) = 1).
  { unfold norm, vsub, vadd, vscale, dot. simpl.
    transitivity (sqrt 1); [f_equal; ring|apply sqrt_1]. }
  split.
  - intros [|[|i]] Hi NE; simpl in *; try lia.
    exists (excomp 2 [0; 0]), 0%nat, (excomp (1/4) [0; 1]), [1; 0].
    repeat (split; [reflexivity|]). simpl. rewrite N1, N2. repeat split; lra.
  - unfold compute_parent_occlusion_weight. simpl. unfold component_occlusion. simpl.
    unfold parent_occlusion. destruct (Rle_dec 1 (1/4)); [lra|].
    unfold fdiv. rewrite N1, N2. destruct (Req_EM_T (1 * 1) 0); [lra|]. cbn [bind].
    replace (dot (vsub [0; 1] [0; 0]) (vsub [1; 0] [0; 0]) / (1 * 1)) with 0
      by (unfold vsub, vadd, vscale, dot; simpl; field).
    destruct (Rle_dec 1 0); [lra|]. rewrite fpow_pos by lra. cbn [bind].
    replace (1 / (1 - 0)) with 1 by field. rewrite Rpower_1 by lra. auto.
Qed.
Print Assumptions C25_parent_occlusion.

(** * C26 *)
Theorem C26_occlusion_array_partial : forall ws, ws <> [] ->
  exists ws', evaluate_occlusion_array ws = Ok ws' /\
  length ws' = length ws /\ nonneg ws' /\ rsum ws' = 1 /\
  (* positive entries share the weight in proportion, the others get nothing *)
  ((exists w, In w ws /\ 0 < w) ->
     exists k, 0 < k /\ forall i, (i < length ws)%nat -> nth i ws' 0 = k * Rmax (nth i ws 0) 0) /\
  (* no positive entry: everything on the last entry, the largest one if the list ascends *)
  ((forall w, In w ws -> w <= 0) -> nth (length ws - 1) ws' 0 = 1).
Proof.
  intros ws NE. unfold evaluate_occlusion_array. destruct (existsb (Rltb 0) ws) eqn:E.
  - apply existsb_exists in E. destruct E as (w & Hw & W). apply Rltb_true in W.
    assert (S : 0 < rsum (filter (Rltb 0) ws)).
    { apply rsum_pos.
      - intros x Hx. apply filter_In in Hx. destruct Hx as (_ & P). apply Rltb_true in P. lra.
      - exists w. split; auto. apply filter_In. split; auto. apply Rltb_true; auto. }
    set (s := rsum (filter (Rltb 0) ws)) in *.
    assert (T : forall l, rsum (map (fun w => if Rltb 0 w then w / s else 0) l) = rsum (filter (Rltb 0) l) / s).
    { induction l as [|a l IH]; simpl; [field; lra|]. rewrite IH.
      destruct (Rltb 0 a); simpl; field; lra. }
    eexists. split; [reflexivity|]. split; [apply map_length|]. split.
    { intros x Hx. apply in_map_iff in Hx. destruct Hx as (y & <- & _).
      destruct (Rltb 0 y) eqn:Y; [|lra]. apply Rltb_true in Y. apply div_nonneg; lra. }
    split; [rewrite T; fold s; field; lra|]. split.
    + intros _. exists (/ s). split; [apply Rinv_0_lt_compat; auto|]. intros i Hi.
      rewrite nth_map0 by auto. destruct (Rltb 0 (nth i ws 0)) eqn:Y.
      * apply Rltb_true in Y. rewrite Rmax_left by lra. unfold Rdiv. ring.
      * apply Rltb_false in Y. rewrite Rmax_right by lra. ring.
    + intros F. specialize (F w Hw). lra.
  - assert (F : forall w, In w ws -> w <= 0).
    { intros w Hw. pose proof (existsb_false _ _ E w Hw) as Y. apply Rltb_false in Y. auto. }
    destruct ws as [|a l]; [easy|].
    set (n := (length (a :: l) - 1)%nat).
    assert (Ln : length (a :: l) = S n) by (unfold n; simpl; lia).
    set (final := repeat 0 n ++ [1]).
    assert (S : rsum final = 1).
    { unfold final. rewrite rsum_app. simpl.
      replace (rsum (repeat 0 n)) with 0; [lra|]. clear. induction n; simpl; lra. }
    rewrite S. exists final.
    assert (M : map (fun w => w / 1) final = final).
    { rewrite (map_ext _ (fun w => w)), map_id; auto. intros; field. }
    rewrite M. split; [reflexivity|]. split.
    { unfold final. rewrite app_length, repeat_length, Ln. simpl. lia. }
    split.
    { intros x Hx. unfold final in Hx. apply in_app_iff in Hx. destruct Hx as [Hx|[<-|[]]]; [|lra].
      apply repeat_spec in Hx. lra. }
    split; auto. split.
    { intros (w & Hw & W). specialize (F w Hw). lra. }
    intros _. unfold final. rewrite app_nth2 by (rewrite repeat_length; lia).
    rewrite repeat_length, Nat.sub_diag. auto.
Qed.
(** The largest entry does not get the weight. *)
Theorem C26_largest_gets_weight_refuted : exists ws i j ws',
  evaluate_occlusion_array ws = Ok ws' /\ (i < length ws)%nat /\ (j < length ws)%nat /\
  nth i ws 0 > nth j ws 0 /\ nth i ws' 0 = 0 /\ nth j ws' 0 = 1.
Proof.
  exists [-1; -2], 0%nat, 1%nat.
  destruct (C26_occlusion_array_partial [-1; -2]) as (ws' & E & L & _ & S & _ & K); [easy|].
  specialize (K ltac:(intros w [<-|[<-|[]]]; lra)). simpl in K.
  exists ws'. split; auto. split; [simpl; lia|]. split; [simpl; lia|]. split; [simpl; lra|].
  destruct ws' as [|a [|b [|c ws']]]; simpl in *; try lia. split; lra.
Qed.
Example C26_case : evaluate_occlusion_array [1; -2; 3] = Ok [1/4; 0; 3/4].
Proof.
  unfold evaluate_occlusion_array. simpl.
  rewrite (proj2 (Rltb_true 0 1)), (proj2 (Rltb_true 0 3)), (proj2 (Rltb_false 0 (-2))) by lra.
  simpl. f_equal; rlist.
Qed.
Print Assumptions C26_occlusion_array_partial.
Print Assumptions C26_largest_gets_weight_refuted.

(** * C27 *)
Theorem C27_convergence_radiuses : forall radius limit comps, 0 < radius <= PI -> 0 < limit < 1 ->
  (* depths of inner points: at most one *)
  (forall g d, In (g, Some d) comps -> g < 1 -> d <= 1) ->
  exists rs, compute_convergence_radiuses radius (Some limit) PI comps = Ok rs /\
  length rs = length comps /\
  forall i, (i < length comps)%nat ->
    let (g, depth) := nth i comps (0, None) in let r := nth i rs 0 in
    radius <= r <= PI /\ (1 <= g -> r = radius) /\
    (g < 1 -> match depth with
              | None => r = PI
              | Some d => (d <= limit -> r = PI) /\ (d = 1 -> r = radius) /\
                  (* affine between *)
                  (limit <= d -> (r - radius) * (1 - limit) = (PI - radius) * (1 - d))
              end).
Proof.
  intros radius limit comps Hr Hl Hd. unfold compute_convergence_radiuses.
  assert (G : forall c, In c comps -> exists r,
     convergence_radius_of radius (Some limit) PI (fst c) (snd c) = Ok r /\
     let (g, depth) := c in
     radius <= r <= PI /\ (1 <= g -> r = radius) /\
     (g < 1 -> match depth with
              | None => r = PI
              | Some d => (d <= limit -> r = PI) /\ (d = 1 -> r = radius) /\
                  (limit <= d -> (r - radius) * (1 - limit) = (PI - radius) * (1 - d))
              end)).
  { intros (g, depth) Hc. simpl. destruct (Rltb g 1) eqn:L; [apply Rltb_true in L|apply Rltb_false in L].
    2:{ exists radius. repeat split; try lra. }
    destruct depth as [d|]; [|exists PI; repeat split; lra].
    specialize (Hd g d Hc L). destruct (Rltb d limit) eqn:D; [apply Rltb_true in D|apply Rltb_false in D].
    - exists PI. repeat split; intros; lra.
    - unfold fdiv. destruct (Req_EM_T (1 - limit) 0); [lra|]. cbn [bind].
      set (w := (d - limit) / (1 - limit)). eexists. split; [reflexivity|].
      assert (W : w * (1 - limit) = d - limit) by (unfold w; field; lra).
      assert (0 <= w) by (apply div_nonneg; lra).
      assert (w <= 1) by (apply div_le_1; lra).
      split; [nra|]. split; [intros; lra|]. intros _. split; [|split].
      + intros. assert (w = 0) by (unfold w; replace (d - limit) with 0 by lra; field; lra). nra.
      + intros ->. assert (w = 1) by (unfold w; field; lra). nra.
      + intros _. replace (radius * w + PI * (1 - w) - radius) with ((PI - radius) * (1 - w)) by ring.
        rewrite Rmult_assoc. f_equal. lra. }
  revert G. clear Hd. induction comps as [|c comps IH]; intros G.
  - exists []. repeat split; auto. intros i Hi. simpl in Hi. lia.
  - destruct (G c) as (r & Er & P); [left; auto|]. destruct IH as (rs & Ers & Lr & Q).
    { intros; apply G; right; auto. }
    cbn [mapM]. rewrite Er. cbn [bind]. rewrite Ers. cbn [bind]. exists (r :: rs).
    split; auto. split; [simpl; auto|]. intros [|i] Hi; simpl; [exact P|]. apply Q. simpl in Hi. lia.
Qed.
Theorem C27_repulsion_disabled : forall radius comps,
  compute_convergence_radiuses radius None PI comps = Ok (map (fun _ => radius) comps).
Proof. intros. apply mapM_ok. intros (g, d) _. reflexivity. Qed.
Theorem C27_init_range : forall r,
  (PI / 2 <= r <= PI -> init_convergence_radius r = Ok r) /\
  (~ (PI / 2 <= r <= PI) -> init_convergence_radius r = Err EValue).
Proof.
  intros r. unfold init_convergence_radius.
  destruct (Rle_dec (PI * / 2) r), (Rle_dec r PI); split; intros; auto; lra.
Qed.
Example C27_case :
  compute_convergence_radiuses (PI/2) (Some (4/5)) PI [(2, None); (1/2, Some (9/10)); (0, None)]
  = Ok [PI/2; 3*PI/4; PI].
Proof.
  unfold compute_convergence_radiuses. cbn [mapM fst snd convergence_radius_of].
  rewrite (proj2 (Rltb_false 2 1)), (proj2 (Rltb_true (1/2) 1)), (proj2 (Rltb_true 0 1)) by lra.
  rewrite (proj2 (Rltb_false (9/10) (4/5))) by lra. unfold fdiv.
  destruct (Req_EM_T (1 - 4/5) 0); [lra|]. cbn [bind]. f_equal; rlist.
Qed.
Print Assumptions C27_convergence_radiuses.
Print Assumptions C27_repulsion_disabled.
Print Assumptions C27_init_range.

(** * C28 *)
Lemma fpow_base_one x p : 1 <= x -> 0 < p -> exists y, fpow x p = Ok y /\ 1 <= y.
Proof. intros. rewrite fpow_pos by lra. eexists. split; eauto. apply Rpower_ge_1; lra. Qed.
Theorem C28_slowfactor : forall records p, records <> [] -> 0 < p ->
  (forall r c, In (r, c) records -> 0 <= r <= 1 /\ -1 <= c <= 1) ->
  exists s, slowfactor_from_convergence records p = Ok s /\ 0 <= s <= 1 /\
  (* full stop exactly when a rotated direction points straight along its reference *)
  (s = 0 <-> exists r, 0 < r /\ In (r, 1) records) /\
  (* no slow-down exactly when no proximity exceeds what its rotation weight leaves *)
  (s = 1 <-> forall r c, In (r, c) records -> 0 < r -> 0 < c -> r <= 1 - c).
Proof.
  intros records p NE Hp H. unfold slowfactor_from_convergence.
  set (f := fun rc : R * R => let '(rot_weight, conv_prox) := rc in
       if Rltb 0 rot_weight && Rltb 0 conv_prox
       then fpow ((1 - conv_prox) / rot_weight) p else Ok 1).
  assert (G : forall rc, In rc records -> exists s, f rc = Ok s /\ 0 <= s /\
     (s = 0 <-> 0 < fst rc /\ snd rc = 1) /\
     (1 <= s <-> (0 < fst rc -> 0 < snd rc -> fst rc <= 1 - snd rc))).
  { intros (r, c) Hc. destruct (H r c Hc) as (Hr & Hcc). unfold f. simpl.
    destruct (Rltb 0 r) eqn:A; [apply Rltb_true in A|apply Rltb_false in A]; simpl;
    [destruct (Rltb 0 c) eqn:B; [apply Rltb_true in B|apply Rltb_false in B]|];
    try (exists 1; repeat split; intros; lra).
    destruct (Req_dec c 1) as [->|C1].
    - replace ((1 - 1) / r) with 0 by (field; lra). unfold fpow. destruct (Rlt_dec 0 0); [lra|].
      destruct (Req_EM_T p 0); [lra|]. destruct (Req_EM_T 0 0); [|lra]. destruct (Rlt_dec 0 p); [|lra].
      exists 0. repeat split; intros; lra.
    - assert (P : 0 < (1 - c) / r) by (apply div_pos; lra).
      rewrite fpow_pos by auto. eexists. split; [reflexivity|].
      pose proof (Rpower_pos ((1 - c) / r) p) as PP. split; [lra|]. split; [lra|]. split.
      + intros L _ _. apply Rnot_lt_le. intros LT.
        assert (Q : (1 - c) / r < 1).
        { replace 1 with (r / r) at 2 by (field; lra). unfold Rdiv. apply Rmult_lt_compat_r; [|lra].
          apply Rinv_0_lt_compat; auto. }
        assert (Rpower ((1 - c) / r) p < 1); [|lra].
        apply Rpower_lt_1; lra.
      + intros L. specialize (L A B). apply Rpower_ge_1; [|lra].
        replace 1 with (r / r) at 1 by (field; lra). apply div_le_compat; lra. }
  assert (M : exists l, mapM f records = Ok l /\ length l = length records /\
     (forall s, In s l -> exists rc, In rc records /\ f rc = Ok s) /\
     (forall rc, In rc records -> exists s, In s l /\ f rc = Ok s)).
  { clear NE H. induction records as [|a l IH]; simpl.
    - exists []. repeat split; auto; intros; contradiction.
    - destruct (G a) as (s & Es & _); [left; auto|]. rewrite Es. cbn [bind].
      destruct IH as (l' & El & Ll & I1 & I2); [intros; apply G; right; auto|].
      rewrite El. cbn [bind]. exists (s :: l'). split; auto. split; [simpl; auto|]. split.
      + intros x [<-|Hx]; [exists a; auto|]. destruct (I1 x Hx) as (rc & ? & ?). eauto.
      + intros rc [<-|Hx]; [exists s; simpl; auto|]. destruct (I2 rc Hx) as (y & ? & ?).
        exists y; simpl; auto. }
  destruct M as (l & -> & Ll & I1 & I2). cbn [bind].
  assert (NL : l <> []) by (destruct records; [easy|]; destruct l; simpl in Ll; [lia|easy]).
  destruct l as [|x0 l0] eqn:El; [easy|]. rewrite <- El in *. clear El x0 l0.
  pose proof (rmin_list_in l NL) as Im. set (m := rmin_list l) in *.
  assert (Lm : forall y, In y l -> m <= y) by (intros; apply rmin_list_le; auto).
  exists (Rmin m 1). split; [destruct l; [easy|auto]|].
  destruct (I1 m Im) as ((r0, c0) & H0 & E0).
  destruct (G _ H0) as (m' & E0' & M0 & Mz & Mo). rewrite E0 in E0'. injection E0' as <-.
  simpl in Mz, Mo.
  assert (Min : Rmin m 1 = 0 <-> m = 0) by (unfold Rmin; destruct (Rle_dec m 1); lra).
  assert (Min1 : Rmin m 1 = 1 <-> 1 <= m) by (unfold Rmin; destruct (Rle_dec m 1); lra).
  split; [unfold Rmin; destruct (Rle_dec m 1); lra|]. split.
  - rewrite Min. split.
    + intros Z. apply Mz in Z. destruct Z as (A & ->). eauto.
    + intros (r & A & I). destruct (I2 _ I) as (y & Iy & Ey). destruct (G _ I) as (y' & Ey' & P & Z & _).
      rewrite Ey in Ey'. injection Ey' as <-. simpl in Z. specialize (Lm y Iy).
      assert (y = 0) by (apply Z; auto). lra.
  - rewrite Min1. split.
    + intros L r c I. destruct (I2 _ I) as (y & Iy & Ey). destruct (G _ I) as (y' & Ey' & P & _ & O).
      rewrite Ey in Ey'. injection Ey' as <-. simpl in O. specialize (Lm y Iy). apply O. lra.
    + intros A. apply Mo. intros. apply (A r0 c0); auto.
Qed.
Example C28_case : slowfactor_from_convergence [(1/2, 1/2); (1, -1); (1, 3/4)] 1 = Ok (1/4).
Proof.
  unfold slowfactor_from_convergence. cbn [mapM].
  rewrite (proj2 (Rltb_true 0 (1/2))), (proj2 (Rltb_true 0 1)), (proj2 (Rltb_true 0 (3/4))),
    (proj2 (Rltb_false 0 (-1))) by lra. cbn [andb].
  rewrite !fpow_pos by lra. rewrite !Rpower_1 by lra. cbn [bind]. f_equal. simpl.
  replace ((1 - 1 / 2) / (1 / 2)) with 1 by field. replace ((1 - 3 / 4) / 1) with (1 / 4) by field.
  rewrite (Rmin_left 1 1), (Rmin_right 1 (1/4)), (Rmin_left (1/4) 1) by lra. auto.
Qed.
Print Assumptions C28_slowfactor.

(** * C24 *)
Lemma positive_normalised_spec ws : nonneg ws ->
  nonneg (positive_normalised ws) /\
  (0 < rsum ws -> rsum (positive_normalised ws) = 1) /\
  (rsum ws = 0 -> positive_normalised ws = []).
Proof.
  intros H. unfold positive_normalised.
  set (pos := filter (fun w => Rltb 0 w) ws).
  assert (P : forall x, In x pos -> 0 < x).
  { intros x Hx. apply filter_In in Hx. destruct Hx as (_ & L). apply Rltb_true in L. auto. }
  assert (S : rsum pos = rsum ws).
  { unfold pos. clear pos P. induction ws as [|a l IH]; simpl; auto.
    rewrite <- IH by (intros x Hx; apply H; right; auto).
    destruct (Rltb 0 a) eqn:L; [reflexivity|]. apply Rltb_false in L.
    specialize (H a ltac:(left; auto)). lra. }
  split; [|split].
  - intros x Hx. apply in_map_iff in Hx. destruct Hx as (y & <- & Hy).
    apply div_nonneg; [left; auto|]. apply rsum_pos; [intros z Hz; left; auto|eauto].
  - intros L. rewrite rsum_map_div_id, S. field. lra.
  - intros Z. destruct pos as [|a l] eqn:E; auto. exfalso.
    assert (0 < rsum (a :: l)) by (apply rsum_all_pos; [easy|auto]). lra.
Qed.
Lemma rsum_concat ll : rsum (concat ll) = rsum (map rsum ll).
Proof. induction ll; simpl; auto. rewrite rsum_app, IHll. auto. Qed.
(** Total of the cluster weights. *)
Lemma cluster_total nw trees : length nw = length trees ->
  (forall ws, In ws trees -> nonneg ws) ->
  (forall i, (i < length trees)%nat -> rsum (nth i trees []) = 0 -> nth i nw 0 = 0) ->
  rsum (concat (map (fun wc => map (fun w => fst wc * w) (snd wc))
                  (combine nw (map positive_normalised trees)))) = rsum nw.
Proof.
  revert nw. induction trees as [|t trees IH]; intros [|w nw] L N Z; simpl in L; try lia; auto.
  simpl. rewrite rsum_app, IH; [|lia|intros; apply N; right; auto|].
  - f_equal. rewrite (rsum_map_scale w (fun x => x)), map_id.
    destruct (positive_normalised_spec t) as (_ & A & B); [apply N; left; auto|].
    pose proof (rsum_nonneg t (N t ltac:(left; auto))).
    destruct (Req_dec (rsum t) 0) as [E|NE].
    + specialize (Z 0%nat ltac:(simpl; lia) E). simpl in Z. rewrite B, Z by auto. simpl. ring.
    + rewrite A by lra. ring.
  - intros i Hi Ei. apply (Z (S i)); simpl; [lia|auto].
Qed.
Definition last_weight (l : list R) : R := nth (length l - 1) l 0.
Theorem C24_partition_partial : forall trees, trees <> [] ->
  (forall ws, In ws trees -> nonneg ws) ->
  one_saturated_at_most (map rsum trees) ->
  exists fw, final_weights trees = Ok fw /\
  nonneg fw /\ rsum fw = 1 /\
  (* share of the base velocity *)
  last_weight fw = Rmax 0 (1 - rsum (map rsum trees)).
Proof.
  intros trees NE H U. unfold final_weights, cluster_weights.
  assert (NN : nonneg (map rsum trees)).
  { intros x Hx. apply in_map_iff in Hx. destruct Hx as (ws & <- & Hw). apply rsum_nonneg, H; auto. }
  destruct (C18_limited_weights_partial (map rsum trees) NN)
    as (nw & t & -> & Ln & Un & Ht & Below & Above & Zer & _).
  rewrite map_length in Ln. destruct trees as [|t0 tl] eqn:Et; [easy|]. rewrite <- Et in *.
  replace (length trees =? 0)%nat with false by (rewrite Et; reflexivity). cbn [bind].
  set (cw := concat _). assert (T : rsum cw = rsum nw).
  { apply cluster_total; auto. intros i Hi Z. apply Zer; [rewrite map_length; auto|].
    rewrite nth_map_default with (d' := []) by auto. auto. }
  assert (N : nonneg cw).
  { intros x Hx. apply in_concat in Hx. destruct Hx as (l & Hl & Hx).
    apply in_map_iff in Hl. destruct Hl as ((w, c) & <- & Hc). simpl in Hx.
    apply in_map_iff in Hx. destruct Hx as (y & <- & Hy).
    pose proof (in_combine_l _ _ _ _ Hc) as A. pose proof (in_combine_r _ _ _ _ Hc) as B.
    apply in_map_iff in B. destruct B as (ws & <- & Hw).
    destruct (positive_normalised_spec ws (H ws Hw)) as (P & _). specialize (P y Hy).
    specialize (Un w A). nra. }
  assert (S : 1 - rsum nw = Rmax 0 (1 - rsum (map rsum trees))).
  { destruct (Rlt_le_dec (rsum (map rsum trees)) 1) as [L|L].
    - destruct (Below L) as (-> & _). rewrite Rmax_right by lra. auto.
    - destruct (Above L) as (_ & E). rewrite E by auto. rewrite Rmax_left by lra. lra. }
  exists (cw ++ [1 - rsum cw]). split; auto. rewrite T, S. pose proof (Rmax_l 0 (1 - rsum (map rsum trees))).
  split; [|split].
  - intros x Hx. apply in_app_iff in Hx. destruct Hx as [Hx|[<-|[]]]; auto.
  - rewrite rsum_app. simpl. rewrite T, <- S. ring.
  - unfold last_weight. rewrite app_length. simpl. rewrite app_nth2 by lia.
    replace (_ - _)%nat with 0%nat by lia. auto.
Qed.

(** From positions and obstacles: with at most one tree in contact the weights handed to the
    direction tree are a partition of one. *)
Definition in_contact (position : vec) (t : mtree) : Prop :=
  exists c, In c (m_comps t) /\ c_gamma c position <= 1.
Definition well_defined (position : vec) (t : mtree) : Prop :=
  (m_root t < length (m_comps t))%nat /\
  forall i, (i < length (m_comps t))%nat -> i <> m_root t -> occlusion_defined position t i.
Lemma combine_mult_le ws occ : length ws = length occ -> nonneg ws -> in_unit occ ->
  nonneg (map (fun wo => fst wo * snd wo) (combine ws occ)) /\
  rsum (map (fun wo => fst wo * snd wo) (combine ws occ)) <= rsum ws.
Proof.
  revert occ. induction ws as [|w ws IH]; intros [|o occ] L N U; simpl in L; try lia.
  - split; [intros x []|simpl; lra].
  - destruct (IH occ) as (A & B); [lia|intros x Hx; apply N; right; auto|intros x Hx; apply U; right; auto|].
    pose proof (N w ltac:(left; auto)). pose proof (U o ltac:(left; auto)). split.
    + intros x [<-|Hx]; [simpl; nra|auto].
    + simpl. nra.
Qed.
Lemma tree_obstacle_weights_spec angle_of position base power t : 0 <= power ->
  well_defined position t ->
  exists ws, tree_obstacle_weights angle_of position base power t = Ok ws /\
  length ws = length (m_comps t) /\ nonneg ws /\ rsum ws <= 1 /\
  (~ in_contact position t -> rsum ws < 1).
Proof.
  intros Hp (Hr & Ho). unfold tree_obstacle_weights, tree_gamma_and_weights.
  set (gs := tree_gammas position t).
  assert (Lg : length gs = length (m_comps t)) by (unfold gs, tree_gammas; apply map_length).
  assert (NE : gs <> []) by (destruct gs; simpl in *; [lia|easy]).
  destruct (C20_weights_from_distances gs 1 false) as (dw & -> & _). cbn [bind].
  unfold get_component. destruct (nth_error (m_comps t) (m_root t)) as [root|] eqn:Er;
    [|apply nth_error_None in Er; lia]. cbn [bind].
  destruct gs as [|g0 gl] eqn:Eg; [easy|]. rewrite <- Eg in *.
  destruct (C22_rotation_weight angle_of (c_normal root position) (c_refdir root position) base
              (PI * / 2) power (PI * / 2) Hp) as (f & Ef & F1 & F2 & _).
  rewrite Ef. cbn [bind]. set (m := rmin_list gs).
  assert (Fm : 0 <= f m <= 1).
  { destruct (Rle_dec m 1) as [L|L]; [rewrite F1 by auto; lra|].
    assert (1 < m) by lra. destruct (F2 m) as (A & B); auto.
    assert (/ m <= 1) by (rewrite <- Rinv_1; apply Rinv_le_contravar; lra). lra. }
  destruct (C23_component_weights gs (f m) NE Fm) as (gs' & ws & -> & Lw & Nw & Sw & _).
  cbn [bind].
  destruct (C25_parent_occlusion position t Ho) as (occ & -> & Lo & Uo & _). cbn [bind].
  destruct (combine_mult_le ws occ) as (A & B); auto; [congruence|].
  eexists. split; [reflexivity|]. split; [rewrite map_length, combine_length; lia|].
  split; auto. split; [lra|]. intros NC.
  assert (G : 1 < m).
  { apply Rnot_le_lt. intros L. apply NC. pose proof (rmin_list_in gs NE) as I.
    fold m in I. clearbody m. rewrite Eg in *. unfold tree_gammas in *. rewrite <- Eg in I.
    subst. apply in_map_iff in I. destruct I as (c & E & Hc). exists c. split; auto. lra. }
  destruct (F2 m G) as (_ & K). assert (/ m < 1).
  { rewrite <- Rinv_1. apply Rinv_lt_contravar; lra. }
  lra.
Qed.
Theorem C24_avoidance_weights_partial : forall angle_of position base power trees,
  0 <= power -> trees <> [] ->
  (forall t, In t trees -> well_defined position t) ->
  (forall i j d, (i < length trees)%nat -> (j < length trees)%nat ->
     in_contact position (nth i trees d) -> in_contact position (nth j trees d) -> i = j) ->
  exists fw, avoidance_weights angle_of position base power trees = Ok fw /\
  nonneg fw /\ rsum fw = 1.
Proof.
  intros angle_of position base power trees Hp NE W U. unfold avoidance_weights.
  assert (M : exists ll, mapM (tree_obstacle_weights angle_of position base power) trees = Ok ll /\
     length ll = length trees /\ (forall ws, In ws ll -> nonneg ws) /\
     forall i d, (i < length trees)%nat -> ~ in_contact position (nth i trees d) ->
       rsum (nth i ll []) < 1).
  { clear NE U. induction trees as [|t trees IH]; simpl.
    - exists []. repeat split; auto; intros; [contradiction|lia].
    - destruct (tree_obstacle_weights_spec angle_of position base power t Hp) as (ws & -> & _ & N & _ & C).
      { apply W; left; auto. }
      cbn [bind]. destruct IH as (ll & -> & Ll & Nl & Cl); [intros; apply W; right; auto|].
      cbn [bind]. exists (ws :: ll). split; auto. split; [simpl; auto|]. split.
      + intros x [<-|Hx]; auto.
      + intros [|i] d Hi NC; simpl; auto. apply (Cl i d); auto. lia. }
  destruct M as (ll & -> & Ll & Nl & Cl). cbn [bind].
  destruct (C24_partition_partial ll) as (fw & E & A & B & _).
  - destruct trees; [easy|]. destruct ll; simpl in Ll; [lia|easy].
  - auto.
  - intros i j Hi Hj Si Sj. rewrite map_length, Ll in Hi, Hj.
    rewrite nth_map_default with (d' := []) in Si, Sj by lia.
    destruct trees as [|t0 tl] eqn:Et; [easy|]. rewrite <- Et in *. apply (U i j t0); auto.
    + destruct (Classical_Prop.classic (in_contact position (nth i trees t0))); auto.
      specialize (Cl i t0 Hi H). lra.
    + destruct (Classical_Prop.classic (in_contact position (nth j trees t0))); auto.
      specialize (Cl j t0 Hj H). lra.
  - exists fw. auto.
Qed.

(** In contact with two obstacle trees at once the base velocity gets the weight -1. *)
Definition contact_tree : mtree := mkMTree [excomp 1 [0; 0]] 0 (fun _ => None).
Lemma contact_tree_weights angle_of power :
  tree_obstacle_weights angle_of [1; 0] [0; 1] power contact_tree = Ok [1].
Proof.
  unfold tree_obstacle_weights, tree_gamma_and_weights, tree_gammas. cbn [map m_comps contact_tree].
  cbn [c_gamma excomp].
  assert (E : compute_weights_from_distances [1] 1 false = Ok [1]).
  { rewrite distance_weights_critical by (exists 1; split; [left; auto|lra]). unfold count_le. simpl.
    rewrite (proj2 (Rleb_true 1 1)) by lra. simpl. f_equal; rlist. }
  rewrite E. cbn [bind]. unfold get_component. simpl. unfold get_rotation_weight.
  destruct (Rle_dec 1 1); [|lra]. cbn [bind]. unfold compute_gamma_and_weights. rewrite E. simpl.
  rewrite (proj2 (Reqb_false _ 0)) by lra. rewrite (proj2 (Reqb_false 1 0)) by lra. simpl.
  f_equal; rlist.
Qed.
Theorem C24_base_share_nonnegative_refuted : exists position base trees,
  (forall t, In t trees -> well_defined position t) /\
  forall angle_of power, exists fw,
  avoidance_weights angle_of position base power trees = Ok fw /\ rsum fw = 1 /\ last_weight fw = -1.
Proof.
  exists [1; 0], [0; 1], [contact_tree; contact_tree]. split.
  - intros t [<-|[<-|[]]]; (split; [simpl; lia|intros i Hi; simpl in *; lia]).
  - intros angle_of power. unfold avoidance_weights. cbn [mapM]. rewrite contact_tree_weights.
    cbn [bind]. unfold final_weights, cluster_weights. cbn [length Nat.eqb map].
    rewrite limited_saturated; [|simpl; lra|exists (rsum [1]); split; [left; auto|simpl; lra]].
    cbn [bind map combine concat]. unfold positive_normalised. cbn [filter].
    rewrite (proj2 (Rltb_true 0 1)) by lra. rewrite (proj2 (Rleb_true 1 (rsum [1]))) by (simpl; lra).
    cbn [map fst snd app]. eexists. split; [reflexivity|].
    split; unfold last_weight; simpl; field.
Qed.
Example C24_case :
  (* two trees of influence 1/2 and 3/4, base gets nothing; of influence 1/4 and 1/4, base 1/2 *)
  final_weights [[1/4; 0; 1/4]; [3/4]] = Ok [1/8; 1/8; 3/4; 0] /\
  final_weights [[1/4; 0]; [1/4]] = Ok [1/4; 1/4; 1/2].
Proof.
  assert (P : forall x, 0 < x -> Rltb 0 x = true) by (intros; apply Rltb_true; auto).
  assert (Z : Rltb 0 0 = false) by (apply Rltb_false; lra).
  split; unfold final_weights, cluster_weights; cbn [length Nat.eqb map].
  - destruct (limited_scaled [rsum [1/4; 0; 1/4]; rsum [3/4]]) as (Q & ->).
    { simpl. intros w [<-|[<-|[]]]; lra. } { simpl; lra. }
    cbn [bind map combine concat]. unfold positive_normalised. cbn [filter].
    rewrite Z, !P by lra. unfold inflate_weight. simpl. f_equal; rlist.
  - rewrite limited_below by (simpl; lra). cbn [bind map combine concat].
    unfold positive_normalised. cbn [filter]. rewrite Z, !P by lra. simpl. f_equal; rlist.
Qed.
Example C24_case2 : well_defined [1; 0] extree2 /\ in_contact [1; 0] extree2 /\ well_defined [1; 0] contact_tree.
Proof.
  split; [|split].
  - split; [simpl; lia|]. apply C25_case.
  - exists (excomp (1/4) [0; 1]). split; [left; auto|simpl; lra].
  - split; [simpl; lia|intros i Hi; simpl in *; lia].
Qed.
Print Assumptions C24_partition_partial.
Print Assumptions C24_avoidance_weights_partial.
Print Assumptions C24_base_share_nonnegative_refuted.
