(** Properties C48-C51 and C57-C59: clusters learned by k-means. *)
Require Import Reals List Bool Arith ZArith Lra Lia Psatz Permutation.
From Verif Require Import Base Vec RotModel PropDynamics KMeansModel KMeansProofs.
Import ListNotations.
Open Scope R_scope.

Lemma dist_pos p q : dist p q <> 0 -> 0 < dist p q.
Proof. apply norm_pos. Qed.

(** * C48 *)
Lemma surface_direction_unit v : (0 < length v)%nat -> unitv (surface_direction v).
Proof.
  intros L. unfold surface_direction. destruct (Req_EM_T (norm v) 0) as [E|E].
  - apply norm_zero_iff in E. destruct v as [|x t]; simpl in L; [lia|].
    simpl in E. inversion E as [[Ex Et]]. unfold unitv. simpl. rewrite Et.
    rewrite dot_vzero_l. ring.
  - apply unit_vdiv; auto.
Qed.
Lemma surface_direction_line o n p : kwf o n -> length p = n ->
  p = on_line o (surface_direction (vsub p (k_center o))) (dist p (k_center o)).
Proof.
  intros W L. assert (Lc : length (k_center o) = n) by (apply (kw_len o n W); apply W).
  unfold on_line, surface_direction, dist.
  destruct (Req_EM_T (norm (vsub p (k_center o))) 0) as [E|E].
  - rewrite E. pose proof (dist_zero p (k_center o) (eq_trans L (eq_sym Lc)) E) as Q.
    pose proof (kw_dim o n W) as D.
    rewrite Q at 1. apply vec_ext.
    + autorewrite with vlen. destruct (vsub p (k_center o)) as [|x t] eqn:X.
      * simpl. lia.
      * assert (length (x :: t) = n) by (rewrite <- X; autorewrite with vlen; lia).
        simpl in *. lia.
    + intros i. autorewrite with vnth. ring.
  - rewrite vscale_norm_vdiv by auto. vext. ring.
Qed.

(** The surface point lies on the ray, and the points of the ray up to it are exactly those of the
    region: inside of the ball and not farther from the own center than from any other one. *)
Theorem C48_surface_point_partial o n p : kwf o n -> length p = n ->
  exists b s, get_point_on_surface o p = Ok b /\
  let d := surface_direction (vsub p (k_center o)) in
  unitv d /\ p = vadd (k_center o) (vscale (dist p (k_center o)) d) /\
  b = vadd (k_center o) (vscale s d) /\ 0 < s /\
  forall t, 0 <= t -> (region o (vadd (k_center o) (vscale t d)) <-> t <= s).
Proof.
  intros W L. assert (Lc : length (k_center o) = n) by (apply (kw_len o n W); apply W).
  set (d := surface_direction (vsub p (k_center o))).
  assert (U : unitv d).
  { apply surface_direction_unit. autorewrite with vlen. pose proof (kw_dim o n W). lia. }
  destruct (surface_extent o n W d U) as [s [F X]].
  exists (on_line o d s), s. unfold get_point_on_surface.
  rewrite (not_nan o n W). fold d. rewrite F.
  split; [reflexivity|]. cbv zeta. split; [exact U|].
  split; [apply (surface_direction_line o n); auto|]. split; [reflexivity|].
  split; [apply (ex_pos o d s X)|].
  intros t H. apply (region_extent o n W d s t U X H).
Qed.
(** The local frame is the same up to the translation. *)
Theorem C48_local_frame o n q : kwf o n -> length q = n ->
  exists b bl, get_point_on_surface o (vadd (k_center o) q) = Ok b /\
  get_point_on_surface_local o q = Ok bl /\ b = vadd (k_center o) bl.
Proof.
  intros W L. assert (Lc : length (k_center o) = n) by (apply (kw_len o n W); apply W).
  unfold get_point_on_surface, get_point_on_surface_local. rewrite (not_nan o n W).
  replace (vsub (vadd (k_center o) q) (k_center o)) with q by (vext; ring).
  eexists. eexists. split; [reflexivity|]. split; [reflexivity|].
  assert (U : unitv (surface_direction q)).
  { apply surface_direction_unit. pose proof (kw_dim o n W). lia. }
  destruct (surface_extent o n W _ U) as [s [F X]]. rewrite F. simpl. unfold on_line. vext. ring.
Qed.

(** * Lists of weights *)
Lemma dot_lower w l s : length w = length l -> (forall x, In x w -> 0 <= x) ->
  (forall x, In x l -> s <= x) -> s * rsum w <= dot w l.
Proof.
  revert l; induction w as [|a w IH]; intros [|b l] L H1 H2; simpl in *; try discriminate; try lra.
  assert (s * rsum w <= dot w l) by (apply IH; auto).
  assert (0 <= a) by auto. assert (s <= b) by auto. nra.
Qed.
Lemma dot_minus_const w l P : length w = length l ->
  dot w (map (fun x => P - x) l) = P * rsum w - dot w l.
Proof.
  revert l; induction w as [|a w IH]; intros [|b l] L; simpl in *; try discriminate; try lra.
  rewrite IH by auto. lra.
Qed.
Lemma dot_div w l c : dot (map (fun x => x / c) w) l = dot w l / c.
Proof.
  revert l; induction w as [|a w IH]; intros [|b l]; simpl; try (unfold Rdiv; ring).
  rewrite IH. unfold Rdiv. ring.
Qed.
Lemma rsum_div w c : rsum (map (fun x => x / c) w) = rsum w / c.
Proof. rewrite rsum_map_div, map_id. reflexivity. Qed.
Lemma pos_part_dot l m : (forall x, In x l -> x <= m) ->
  dot (map (fun x => Rmax x 0) l) l <= m * rsum (map (fun x => Rmax x 0) l).
Proof.
  induction l as [|a l IH]; simpl; intros H; [lra|].
  assert (a <= m) by auto. assert (I := IH (fun x h => H x (or_intror h))).
  unfold Rmax at 1 3. destruct (Rle_dec a 0); nra.
Qed.
Lemma pos_part_dot_pos l : (exists x, In x l /\ 0 < x) ->
  0 < rsum (map (fun x => Rmax x 0) l) /\ 0 < dot (map (fun x => Rmax x 0) l) l.
Proof.
  intros [x [Hx P]]. induction l as [|a l IH]; simpl in *; [contradiction|].
  assert (N : 0 <= rsum (map (fun x => Rmax x 0) l) /\ 0 <= dot (map (fun x => Rmax x 0) l) l).
  { clear. induction l as [|b l IH]; simpl; [lra|]. unfold Rmax at 1 3.
    destruct (Rle_dec b 0); nra. }
  destruct Hx as [->|Hx].
  - unfold Rmax at 1 3. destruct (Rle_dec x 0); nra.
  - destruct (IH Hx). unfold Rmax at 1 3. destruct (Rle_dec a 0); nra.
Qed.
Lemma update_nth_length i x l : length (update_nth i x l) = length l.
Proof.
  revert i; induction l as [|a l IH]; intros [|i]; try reflexivity.
  change (update_nth (S i) x (a :: l)) with (a :: update_nth i x l). simpl. auto.
Qed.
Lemma update_nth_nth i x l k : (i < length l)%nat ->
  nth k (update_nth i x l) 0 = if Nat.eqb k i then x else nth k l 0.
Proof.
  revert i k; induction l as [|a l IH]; simpl length; intros i k H; [lia|].
  destruct i; destruct k; try reflexivity.
  change (update_nth (S i) x (a :: l)) with (a :: update_nth i x l). simpl. apply IH. lia.
Qed.
Lemma update_nth_sum i x l : (i < length l)%nat ->
  rsum (update_nth i x l) = rsum l - nth i l 0 + x.
Proof.
  revert i; induction l as [|a l IH]; simpl length; intros i H; [lia|].
  destruct i.
  - simpl. lra.
  - change (update_nth (S i) x (a :: l)) with (a :: update_nth i x l). simpl. rewrite IH by lia. lra.
Qed.
Lemma update_nth_in i x l y : In y (update_nth i x l) -> y = x \/ In y l.
Proof.
  revert i; induction l as [|a l IH]; intros [|i] H; simpl in H; auto.
  - destruct H; auto. right. right. auto.
  - change (update_nth (S i) x (a :: l)) with (a :: update_nth i x l) in H.
    destruct H as [H|H]; [right; left; auto|]. destruct (IH i H); auto. right; right; auto.
Qed.
Lemma rsum_repeat0 k : rsum (repeat 0 k) = 0.
Proof. induction k; simpl; lra. Qed.
Lemma nth_repeat0 k j : nth j (repeat 0 k) 0 = 0.
Proof. revert j; induction k; intros [|j]; simpl; auto. Qed.

(** * C57, C58: the distance value of a region *)
(** Distances of a point beyond the surface. *)
Lemma beyond_surface o n d s P : kwf o n -> unitv d -> extent o d s -> s < P ->
  let l := surface_distances o (on_line o d P) P in
  (forall x, In x l -> x <= P - s) /\ exists x, In x l /\ 0 < x.
Proof.
  intros W U X H l. split.
  - intros x Hx. unfold l, surface_distances in Hx. apply in_map_iff in Hx.
    destruct Hx as [j [<- Hj]]. apply in_seq in Hj.
    destruct (Nat.eqb_spec j (k_index o)) as [E|E].
    + pose proof (ex_rad o d s X). lra.
    + destruct (relevant o j) eqn:Rj.
      * assert (Ij : In j (ind_relevant o)).
        { unfold ind_relevant. apply filter_In. split; auto. apply in_seq. lia. }
        rewrite (plane_value o n W d P j Ij).
        pose proof (slope_le_1 o n W j d ltac:(lia) E U).
        pose proof (ex_gap o d s X j ltac:(lia) E). nra.
      * unfold knormal. rewrite Rj, dot_vzero_l. lra.
  - destruct (ex_hit o d s X) as [E|[j [Hj [S E]]]].
    + exists (P - k_radius o). split; [|lra]. unfold l, surface_distances. apply in_map_iff.
      exists (k_index o). rewrite Nat.eqb_refl. split; auto. apply in_seq.
      pose proof (kw_idx o n W). lia.
    + exists (P * slope o j d - gap o j).
      pose proof (proj1 (relevant_spec o j) Hj) as [A [B _]]. split.
      * unfold l, surface_distances. apply in_map_iff. exists j.
        destruct (Nat.eqb_spec j (k_index o)); [contradiction|]. split.
        -- apply (plane_value o n W d P j Hj).
        -- apply in_seq. lia.
      * subst s. unfold stop in H. apply (Rmult_lt_compat_r (slope o j d)) in H; auto.
        replace (gap o j / slope o j d * slope o j d) with (gap o j) in H by (field; lra). lra.
Qed.

(** Everything [get_gamma] computes from the projected point. *)
Record gdata (o : kobs) (P s : R) (w l : list R) : Prop := {
  gd_len : length l = length (k_centers o);
  gd_wlen : length w = length l;
  gd_sum : rsum w = 1;
  gd_wpos : forall x, In x w -> 0 <= x;
  gd_r : forall x, In x (map (fun x => P - x) l) -> s <= x;
  gd_mean : 0 < dot w l <= P - s;
  gd_gamma : dot w (map (fun x => P - x) l) = P - dot w l
}.
Lemma gamma_data o n d s P : kwf o n -> unitv d -> extent o d s -> s < P ->
  let l := surface_distances o (on_line o d P) P in
  let wp := map (fun x => Rmax x 0) l in
  rsum wp <> 0 /\ gdata o P s (map (fun x => x / rsum wp) wp) l.
Proof.
  intros W U X H l wp. destruct (beyond_surface o n d s P W U X H) as [B1 B2].
  fold l in B1, B2. destruct (pos_part_dot_pos l B2) as [S1 S2]. fold wp in S1, S2.
  split; [lra|].
  assert (Sum : rsum (map (fun x => x / rsum wp) wp) = 1) by (rewrite rsum_div; field; lra).
  constructor; auto.
  - unfold l, surface_distances. rewrite map_length, seq_length. reflexivity.
  - unfold wp. rewrite !map_length. reflexivity.
  - intros x Hx. apply in_map_iff in Hx. destruct Hx as [y [<- Hy]]. unfold wp in Hy.
    apply in_map_iff in Hy. destruct Hy as [z [<- Hz]].
    apply Rmult_le_pos; [apply Rmax_r|]. left. apply Rinv_0_lt_compat; auto.
  - intros x Hx. apply in_map_iff in Hx. destruct Hx as [y [<- Hy]]. pose proof (B1 y Hy). lra.
  - rewrite dot_div. pose proof (pos_part_dot l (P - s) B1) as Q. fold wp in Q. split.
    + apply Rdiv_lt_0_compat; auto.
    + apply (Rmult_le_reg_r (rsum wp)); auto.
      replace (dot wp l / rsum wp * rsum wp) with (dot wp l) by (field; lra). lra.
  - rewrite dot_minus_const.
    + rewrite Sum. lra.
    + unfold wp. rewrite !map_length. reflexivity.
Qed.

(** A transparent face only raises the value. *)
Lemma transparent_bound o P s w l t p : gdata o P s w l -> 0 < s -> 0 < p ->
  (t < length (k_centers o))%nat ->
  match gamma_transparent w (map (fun x => P - x) l) t p with
  | GMax => True | GVal g => s / p <= g | GNone => False
  end.
Proof.
  intros D Ps Pp Lt. unfold gamma_transparent. set (r := map (fun x => P - x) l).
  assert (Lr : length r = length w) by (unfold r; rewrite map_length; symmetry; apply D).
  assert (Lw : length w = length (k_centers o)) by (rewrite (gd_wlen _ _ _ _ _ D); apply D).
  destruct (Rltb 0 (nth t w 0)) eqn:T.
  - apply Rltb_true in T. set (w1 := map (fun x => Rmax (x - nth t w 0) 0) w).
    assert (L1 : length w1 = length w) by (unfold w1; apply map_length).
    assert (S1 : 0 <= rsum w1 <= 1).
    { split.
      - apply rsum_nonneg. intros x Hx. apply in_map_iff in Hx. destruct Hx as [y [<- _]].
        apply Rmax_r.
      - rewrite <- (gd_sum _ _ _ _ _ D). unfold w1. rewrite <- (map_id w) at 2. apply rsum_le.
        intros x Hx. pose proof (gd_wpos _ _ _ _ _ D x Hx). apply Rmax_lub; lra. }
    assert (N1 : nth t w1 0 = 0).
    { unfold w1. rewrite (nth_map_default _ w t 0 0) by lia.
      replace (nth t w 0 - nth t w 0) with 0 by ring. apply Rmax_left. lra. }
    set (w2 := update_nth t (1 - rsum w1) w1).
    assert (S2 : rsum w2 = 1) by (unfold w2; rewrite update_nth_sum by lia; lra).
    assert (N2 : nth t w2 0 = 1 - rsum w1).
    { unfold w2. rewrite update_nth_nth by lia. rewrite Nat.eqb_refl. reflexivity. }
    rewrite N2. destruct (Rleb 1 (1 - rsum w1)) eqn:F; auto.
    apply Rleb_false in F.
    assert (Q : s * rsum w2 <= dot w2 (update_nth t (nth t r 0 / (1 - (1 - rsum w1))) r)).
    { apply dot_lower.
      - unfold w2. rewrite !update_nth_length. lia.
      - intros x Hx. apply update_nth_in in Hx. destruct Hx as [->|Hx]; [lra|].
        apply in_map_iff in Hx. destruct Hx as [y [<- _]]. apply Rmax_r.
      - intros x Hx. apply update_nth_in in Hx. destruct Hx as [->|Hx].
        + assert (R0 : s <= nth t r 0).
          { apply (gd_r _ _ _ _ _ D). apply nth_In. fold r. lia. }
          apply Rle_trans with (nth t r 0); auto.
          apply (Rmult_le_reg_r (1 - (1 - rsum w1))); [lra|].
          replace (nth t r 0 / (1 - (1 - rsum w1)) * (1 - (1 - rsum w1))) with (nth t r 0)
            by (field; lra).
          nra.
        + apply (gd_r _ _ _ _ _ D); auto. }
    rewrite S2 in Q. apply Rmult_le_compat_r; [left; apply Rinv_0_lt_compat; auto|]. lra.
  - apply Rmult_le_compat_r; [left; apply Rinv_0_lt_compat; auto|].
    unfold r. rewrite (gd_gamma _ _ _ _ _ D). pose proof (gd_mean _ _ _ _ _ D). lra.
Qed.

(** The value from the projected point on. *)
Definition gamma_tail (o : kobs) (w l : list R) (P pn : R) (tr : option Z) : res gval :=
  if k_boundary o then
    let r := map (fun x => P - x) l in
    match tr with
    | None =>
      match k_successors o with
      | [] => Ok (GVal (dot w r / pn))
      | [t] => if Nat.ltb t (length (k_centers o)) then Ok (gamma_transparent w r t pn) else Err EIndex
      | _ => Err ENotImpl
      end
    | Some z =>
      if (z <? 0)%Z then Ok (GVal (dot w r / pn))
      else do t <- py_index (length (k_centers o)) z; Ok (gamma_transparent w r t pn)
    end
  else
    match k_successors o with
    | _ :: _ => Err ENotImpl
    | [] => if Rltb 0 (dot w l) then Ok GNone else Ok (GVal (pn / (pn - dot w l)))
    end.

Definition ray (o : kobs) (p : vec) : vec := surface_direction (vsub p (k_center o)).
Lemma ray_unit o n p : kwf o n -> length p = n -> unitv (ray o p).
Proof.
  intros W L. assert (Lc : length (k_center o) = n) by (apply (kw_len o n W); apply W).
  apply surface_direction_unit. autorewrite with vlen. pose proof (kw_dim o n W). lia.
Qed.
Lemma surface_point o n p : kwf o n -> length p = n ->
  exists s, extent o (ray o p) s /\ get_point_on_surface o p = Ok (on_line o (ray o p) s) /\
  dist (on_line o (ray o p) s) (k_center o) = s.
Proof.
  intros W L. pose proof (ray_unit o n p W L) as U.
  destruct (surface_extent o n W _ U) as [s [F X]]. exists s. split; auto. split.
  - unfold get_point_on_surface. rewrite (not_nan o n W). unfold ray in F. rewrite F. reflexivity.
  - apply line_dist; auto. left. apply X.
Qed.
Lemma gamma_off o n p s tr : kwf o n -> length p = n -> extent o (ray o p) s ->
  dist p (k_center o) <> 0 -> dist p (k_center o) <> s ->
  exists P w l, s < P /\ gdata o P s w l /\
  P = (if Rltb (dist p (k_center o)) s then (s / dist p (k_center o)) ^ 2 * dist p (k_center o)
       else dist p (k_center o)) /\
  get_gamma o p tr = gamma_tail o w l P (dist p (k_center o)) tr.
Proof.
  intros W L X N0 Ns. pose proof (ray_unit o n p W L) as U.
  destruct (surface_point o n p W L) as [s' [X' [F D]]].
  assert (s' = s).
  { pose proof (ex_pos _ _ _ X). pose proof (ex_pos _ _ _ X').
    apply Rle_antisym.
    - apply (region_extent o n W _ s s' U X); [lra|]. apply (region_extent o n W _ s' s' U X'); lra.
    - apply (region_extent o n W _ s' s U X'); [lra|]. apply (region_extent o n W _ s s U X); lra. }
  subst s'. clear X'.
  set (pn := dist p (k_center o)) in *. pose proof (ex_pos _ _ _ X) as Ps.
  assert (Pp : 0 < pn) by (apply dist_pos; auto).
  set (P := if Rltb pn s then (s / pn) ^ 2 * pn else pn).
  assert (PS : s < P).
  { unfold P. destruct (Rltb pn s) eqn:E.
    - apply Rltb_true in E. replace ((s / pn) ^ 2 * pn) with (s * (s / pn)) by (field; lra).
      assert (1 < s / pn).
      { apply (Rmult_lt_reg_r pn); auto. replace (s / pn * pn) with s by (field; lra). lra. }
      nra.
    - apply Rltb_false in E. lra. }
  destruct (gamma_data o n (ray o p) s P W U X PS) as [S G].
  set (l := surface_distances o (on_line o (ray o p) P) P) in *.
  set (wp := map (fun x => Rmax x 0) l) in *.
  exists P, (map (fun x => x / rsum wp) wp), l. split; auto. split; auto. split; auto.
  assert (Lp : p = on_line o (ray o p) pn) by (apply (surface_direction_line o n); auto).
  assert (Lc : length (k_center o) = n) by (apply (kw_len o n W); apply W).
  unfold get_gamma. cbv zeta. rewrite (not_nan o n W).
  change (norm (vsub p (k_center o))) with pn.
  destruct (Req_EM_T pn 0); [contradiction|].
  rewrite F. cbn [bind]. change (norm (vsub (on_line o (ray o p) s) (k_center o)))
    with (dist (on_line o (ray o p) s) (k_center o)). rewrite D.
  destruct (Req_EM_T pn s); [contradiction|].
  assert (E1 : (if Rltb pn s then norm (vscale ((s / pn) ^ 2) (vsub p (k_center o))) else pn) = P).
  { unfold P. destruct (Rltb pn s); auto. rewrite norm_vscale.
    change (norm (vsub p (k_center o))) with pn. rewrite Rabs_right; auto.
    apply Rle_ge. apply pow2_ge_0. }
  assert (E2 : (if Rltb pn s then vadd (if Rltb pn s then vscale ((s / pn) ^ 2) (vsub p (k_center o))
       else vsub p (k_center o)) (k_center o) else p) = on_line o (ray o p) P).
  { unfold P. destruct (Rltb pn s); auto.
    assert (E3 : vsub p (k_center o) = vscale pn (ray o p)).
    { unfold ray, surface_direction. change (norm (vsub p (k_center o))) with pn.
      destruct (Req_EM_T pn 0); [contradiction|]. symmetry. apply vscale_norm_vdiv; auto. }
    rewrite E3. unfold on_line.
    assert (length (ray o p) = n).
    { unfold ray, surface_direction. change (norm (vsub p (k_center o))) with pn.
      destruct (Req_EM_T pn 0); [contradiction|]. autorewrite with vlen. lia. }
    vext. ring. }
  cbv zeta. rewrite E2.
  replace (if Rltb pn s then norm (if Rltb pn s then vscale ((s / pn) ^ 2) (vsub p (k_center o))
       else vsub p (k_center o)) else pn) with P by (rewrite <- E1; destruct (Rltb pn s); auto).
  fold l. fold wp. destruct (Req_EM_T (rsum wp) 0); [contradiction|].
  unfold gamma_tail. destruct (k_boundary o); reflexivity.
Qed.

(** ** C57 *)
Lemma gamma_no_transparent o n p s : kwf o n -> k_boundary o = true -> length p = n ->
  extent o (ray o p) s -> dist p (k_center o) <> 0 -> dist p (k_center o) <> s ->
  exists g, get_gamma o p (Some (-1)%Z) = Ok (GVal g) /\
  s / dist p (k_center o) <= g /\
  (dist p (k_center o) < s -> g < (s / dist p (k_center o)) ^ 2) /\
  (s < dist p (k_center o) -> g < 1).
Proof.
  intros W B L X N0 Ns. destruct (gamma_off o n p s (Some (-1)%Z) W L X N0 Ns)
    as [P [w [l [PS [G [EP E]]]]]].
  rewrite E. unfold gamma_tail. rewrite B. change (-1 <? 0)%Z with true. cbv iota zeta.
  eexists. split; [reflexivity|]. rewrite (gd_gamma _ _ _ _ _ G).
  pose proof (gd_mean _ _ _ _ _ G) as M.
  set (pn := dist p (k_center o)) in *.
  assert (Pp : 0 < pn) by (apply dist_pos; auto).
  pose proof (Rinv_0_lt_compat _ Pp). unfold Rdiv. repeat split.
  - apply Rmult_le_compat_r; lra.
  - intros I. apply Rltb_true in I. rewrite I in EP.
    replace ((s * / pn) ^ 2) with (P * / pn) by (rewrite EP; field; lra).
    apply Rmult_lt_compat_r; lra.
  - intros I. assert (I' : s <= pn) by lra. apply Rltb_false in I'. rewrite I' in EP.
    rewrite <- (Rinv_r pn) by lra. apply Rmult_lt_compat_r; lra.
Qed.
(** Off the surface, [is_inside] answers and is right. *)
Theorem C57_is_inside_partial o n p : kwf o n -> k_boundary o = true -> length p = n ->
  exists b, get_point_on_surface o p = Ok b /\
  (dist p (k_center o) <> dist b (k_center o) ->
   exists x, is_inside o p = Ok x /\ (x = true <-> region o p)).
Proof.
  intros W B L. destruct (surface_point o n p W L) as [s [X [F D]]].
  exists (on_line o (ray o p) s). split; auto. rewrite D. intros Ns.
  pose proof (ray_unit o n p W L) as U.
  assert (Lp : p = on_line o (ray o p) (dist p (k_center o)))
    by (apply (surface_direction_line o n); auto).
  pose proof (ex_pos _ _ _ X) as Ps.
  assert (Rg : region o p <-> dist p (k_center o) <= s).
  { rewrite Lp at 1. apply (region_extent o n W _ s _ U X). apply norm_nonneg. }
  unfold is_inside.
  destruct (Req_dec (dist p (k_center o)) 0) as [E0|E0].
  - exists true. rewrite Rg, E0. unfold get_gamma. cbv zeta. rewrite (not_nan o n W).
    change (norm (vsub p (k_center o))) with (dist p (k_center o)).
    destruct (Req_EM_T (dist p (k_center o)) 0); [|contradiction]. rewrite B. simpl.
    split; auto. split; auto. intros; lra.
  - destruct (gamma_no_transparent o n p s W B L X E0 Ns) as [g [E [G1 [G2 G3]]]].
    rewrite E. simpl. exists (Rltb 1 g). split; auto. rewrite Rltb_true, Rg.
    set (pn := dist p (k_center o)) in *.
    assert (Pp : 0 < pn) by (apply dist_pos; auto).
    split.
    + intros H. destruct (Rle_or_lt pn s); auto. specialize (G3 H0). lra.
    + intros H. apply Rlt_le_trans with (s / pn); auto.
      apply (Rmult_lt_reg_r pn); auto. replace (s / pn * pn) with s by (field; lra). lra.
Qed.
(** On the surface the answer depends on the last cluster, which the index -1 selects: the
    surface counts as inside for every obstacle whose last cluster is not relevant, in
    particular for the last cluster itself. *)
Lemma on_surface_gamma o n p s z t : kwf o n -> length p = n -> extent o (ray o p) s ->
  dist p (k_center o) = s -> py_index (length (k_centers o)) z = Ok t ->
  get_gamma o p (Some z) =
  if Req_EM_T (dot (vsub p (inbetween o t)) (knormal o t)) 0 then Ok GMax else Ok (GVal 1).
Proof.
  intros W L X E T. destruct (surface_point o n p W L) as [s' [X' [F D]]].
  pose proof (ray_unit o n p W L) as U.
  assert (s' = s).
  { pose proof (ex_pos _ _ _ X). pose proof (ex_pos _ _ _ X').
    apply Rle_antisym.
    - apply (region_extent o n W _ s s' U X); [lra|]. apply (region_extent o n W _ s' s' U X'); lra.
    - apply (region_extent o n W _ s' s U X'); [lra|]. apply (region_extent o n W _ s s U X); lra. }
  subst s'. unfold get_gamma. cbv zeta. rewrite (not_nan o n W).
  change (norm (vsub p (k_center o))) with (dist p (k_center o)). rewrite E.
  pose proof (ex_pos _ _ _ X). destruct (Req_EM_T s 0); [lra|].
  rewrite F. cbn [bind]. change (norm (vsub (on_line o (ray o p) s) (k_center o)))
    with (dist (on_line o (ray o p) s) (k_center o)). rewrite D.
  destruct (Req_EM_T s s); [|congruence]. cbv zeta. rewrite T. cbn [bind].
  replace (on_line o (ray o p) s) with p; auto.
  rewrite <- E. apply (surface_direction_line o n); auto.
Qed.
Theorem C57_surface_refuted o n p b : kwf o n -> length p = n ->
  get_point_on_surface o p = Ok b -> dist p (k_center o) = dist b (k_center o) ->
  relevant o (length (k_centers o) - 1) = false -> is_inside o p = Ok true.
Proof.
  intros W L F E R. destruct (surface_point o n p W L) as [s [X [F' D]]].
  assert (b = on_line o (ray o p) s) by congruence. subst b. rewrite D in E.
  unfold is_inside.
  assert (T : py_index (length (k_centers o)) (-1)%Z = Ok (length (k_centers o) - 1)%nat).
  { unfold py_index. pose proof (kw_idx o n W).
    destruct (Z.ltb_spec (-1) (- Z.of_nat (length (k_centers o)))); [lia|].
    change (-1 <? 0)%Z with true. cbv iota. f_equal. lia. }
  rewrite (on_surface_gamma o n p s (-1)%Z _ W L X E T).
  unfold knormal. rewrite R. rewrite dot_vzero_r.
  destruct (Req_EM_T 0 0); [reflexivity|congruence].
Qed.

(** ** C58 *)
(** With a transparent face: above one inside, at least the quotient of the distances; on the
    surface infinite exactly on the face. *)
Theorem C58_transparent_face o n p t b : kwf o n -> k_boundary o = true -> length p = n ->
  (t < length (k_centers o))%nat -> get_point_on_surface o p = Ok b ->
  (dist p (k_center o) <> 0 -> dist p (k_center o) < dist b (k_center o) ->
   get_gamma o p (Some (Z.of_nat t)) = Ok GMax \/
   exists g, get_gamma o p (Some (Z.of_nat t)) = Ok (GVal g) /\
     1 < dist b (k_center o) / dist p (k_center o) <= g) /\
  (dist p (k_center o) = dist b (k_center o) -> relevant o t = true ->
   (dist p (k_center o) = dist p (cluster (k_centers o) t) ->
    get_gamma o p (Some (Z.of_nat t)) = Ok GMax) /\
   (dist p (k_center o) <> dist p (cluster (k_centers o) t) ->
    get_gamma o p (Some (Z.of_nat t)) = Ok (GVal 1))).
Proof.
  intros W B L Lt F. destruct (surface_point o n p W L) as [s [X [F' D]]].
  assert (b = on_line o (ray o p) s) by congruence. subst b. rewrite D. clear F'.
  pose proof (ex_pos _ _ _ X) as Ps. pose proof (ray_unit o n p W L) as U.
  assert (T : py_index (length (k_centers o)) (Z.of_nat t) = Ok t).
  { unfold py_index.
    destruct (Z.ltb_spec (Z.of_nat t) (- Z.of_nat (length (k_centers o)))); [lia|].
    destruct (Z.ltb_spec (Z.of_nat t) 0); [lia|].
    destruct (Z.ltb_spec (Z.of_nat t) (Z.of_nat (length (k_centers o)))); [|lia].
    rewrite Nat2Z.id. reflexivity. }
  split.
  - intros N0 I. set (pn := dist p (k_center o)) in *.
    assert (Pp : 0 < pn) by (apply dist_pos; auto).
    destruct (gamma_off o n p s (Some (Z.of_nat t)) W L X N0 ltac:(fold pn; lra))
      as [P [w [l [PS [G [EP E]]]]]].
    fold pn in E, EP. rewrite E. unfold gamma_tail. rewrite B.
    destruct (Z.ltb_spec (Z.of_nat t) 0); [lia|]. rewrite T. cbv zeta. cbn [bind].
    pose proof (transparent_bound o P s w l t pn G Ps Pp Lt) as Q.
    destruct (gamma_transparent w (map (fun x => P - x) l) t pn); auto; [|contradiction].
    right. exists g. repeat split; auto.
    apply (Rmult_lt_reg_r pn); auto. replace (s / pn * pn) with s by (field; lra). lra.
  - intros E R. rewrite (on_surface_gamma o n p s _ t W L X E T).
    assert (It : In t (ind_relevant o)).
    { unfold ind_relevant. apply filter_In. split; auto. apply in_seq. lia. }
    pose proof (proj1 (relevant_spec o t) It) as [A [I _]].
    assert (V : dot (vsub p (inbetween o t)) (knormal o t) =
                dist p (k_center o) * slope o t (ray o p) - gap o t).
    { rewrite dot_comm. rewrite (surface_direction_line o n p W L) at 1. fold (ray o p).
      apply (plane_value o n W); auto. }
    rewrite V.
    pose proof (proj2 (bisector o n W (ray o p) (dist p (k_center o)) t U
                         ltac:(apply norm_nonneg) A I)) as Q.
    rewrite <- (surface_direction_line o n p W L : p = on_line o (ray o p) (dist p (k_center o))) in Q.
    destruct (Req_EM_T _ 0) as [Z|Z]; split; intros H; auto; exfalso.
    + apply H. apply Q. lra.
    + apply Z. apply Q in H. lra.
Qed.

(** ** C59 *)
(** As an obstacle ([is_boundary=False]) the value is missing: off the surface and the center
    [get_gamma] returns [None], so [is_inside] raises. *)
Theorem C59_obstacle_gamma_refuted o n p b : kwf o n -> k_boundary o = false -> length p = n ->
  k_successors o = [] -> get_point_on_surface o p = Ok b ->
  dist p (k_center o) <> 0 -> dist p (k_center o) <> dist b (k_center o) ->
  (forall tr, get_gamma o p tr = Ok GNone) /\ is_inside o p = Err EType.
Proof.
  intros W B L S F N0 Ns. destruct (surface_point o n p W L) as [s [X [F' D]]].
  assert (b = on_line o (ray o p) s) by congruence. subst b. rewrite D in Ns.
  assert (G0 : forall tr, get_gamma o p tr = Ok GNone).
  { intros tr. destruct (gamma_off o n p s tr W L X N0 Ns) as [P [w [l [PS [G [EP E]]]]]].
    rewrite E. unfold gamma_tail. rewrite B, S. pose proof (gd_mean _ _ _ _ _ G) as M.
    destruct M as [M _]. apply Rltb_true in M. rewrite M. reflexivity. }
  split; auto. unfold is_inside. rewrite G0. reflexivity.
Qed.

(** * C49 *)
Lemma sequence_two k parent label x : (parent < k)%nat -> (label < k)%nat -> parent <> label ->
  let w := update_nth parent x (repeat 0 k) in
  let v := update_nth label (1 - rsum w) w in
  length v = k /\ rsum v = 1 /\ nth parent v 0 = x /\ nth label v 0 = 1 - x /\
  forall j, j <> parent -> j <> label -> nth j v 0 = 0.
Proof.
  intros A B D w v.
  assert (Lw : length w = k) by (unfold w; rewrite update_nth_length, repeat_length; auto).
  assert (Sw : rsum w = x).
  { unfold w. rewrite update_nth_sum by (rewrite repeat_length; auto).
    rewrite rsum_repeat0, nth_repeat0. ring. }
  assert (Nw : forall j, nth j w 0 = if Nat.eqb j parent then x else 0).
  { intros j. unfold w. rewrite update_nth_nth by (rewrite repeat_length; auto).
    rewrite nth_repeat0. reflexivity. }
  assert (Nv : forall j, nth j v 0 = if Nat.eqb j label then 1 - x else if Nat.eqb j parent then x else 0).
  { intros j. unfold v. rewrite update_nth_nth by lia. rewrite Sw, Nw. reflexivity. }
  repeat split.
  - unfold v. rewrite update_nth_length. auto.
  - unfold v. rewrite update_nth_sum by lia. rewrite Nw, Sw.
    destruct (Nat.eqb_spec label parent); [congruence|]. ring.
  - rewrite Nv. destruct (Nat.eqb_spec parent label); [congruence|].
    rewrite Nat.eqb_refl. reflexivity.
  - rewrite Nv, Nat.eqb_refl. reflexivity.
  - intros j J1 J2. rewrite Nv. destruct (Nat.eqb_spec j label); [congruence|].
    destruct (Nat.eqb_spec j parent); [congruence|]. reflexivity.
Qed.
(** The part of the weight due to the distance value. *)
Definition gamma_factor (g : gval) (cutoff : R) : R :=
  match g with GVal g => 1 - 1 / (1 + Rmax (g - cutoff) 0) | _ => 1 end.
Lemma gamma_factor_bounds g cutoff : 0 <= gamma_factor g cutoff <= 1.
Proof.
  destruct g; simpl; try lra. pose proof (Rmax_r (g - cutoff) 0) as M.
  assert (0 < 1 / (1 + Rmax (g - cutoff) 0)) by (apply Rdiv_lt_0_compat; lra).
  assert (1 / (1 + Rmax (g - cutoff) 0) <= 1).
  { apply (Rmult_le_reg_r (1 + Rmax (g - cutoff) 0)); [lra|].
    replace (1 / (1 + Rmax (g - cutoff) 0) * (1 + Rmax (g - cutoff) 0)) with 1 by (field; lra). lra. }
  lra.
Qed.

(** With one parent: the weights sum to one and are supported on the cluster and its parent.  The
    parent has the share [max (1 - depth / (factor * half distance)) 0] times the part of the
    distance value, where [depth] is how far the position is beyond the plane in the middle. *)
Theorem C49_sequence_weights centers label parent gamma position factor cutoff n g :
  (forall j, (j < length centers)%nat -> length (cluster centers j) = n) -> length position = n ->
  (label < length centers)%nat -> (parent < length centers)%nat ->
  cluster centers label <> cluster centers parent -> 0 < factor ->
  gamma parent = Ok g -> g <> GNone ->
  let half := dist (cluster centers label) (cluster centers parent) / 2 in
  let axis := vdiv (vsub (cluster centers label) (cluster centers parent))
                   (norm (vsub (cluster centers label) (cluster centers parent))) in
  let middle := vscale (1 / 2) (vadd (cluster centers label) (cluster centers parent)) in
  let share := Rmax (1 - Rmax (dot axis (vsub position middle)) 0 / (half * factor)) 0
               * gamma_factor g cutoff in
  exists w, predict_sequence_weights centers [parent] gamma position label factor cutoff = Ok w /\
  length w = length centers /\ rsum w = 1 /\ (forall j, 0 <= nth j w 0 <= 1) /\
  nth parent w 0 = share /\ nth label w 0 = 1 - share /\
  forall j, j <> parent -> j <> label -> nth j w 0 = 0.
Proof.
  intros Len Lp Hl Hp Ne F G NG half axis middle share.
  assert (PL : parent <> label) by congruence.
  assert (N0 : norm (vsub (cluster centers label) (cluster centers parent)) <> 0).
  { intros E. apply Ne. apply dist_zero; [rewrite !Len; auto|exact E]. }
  assert (H0 : 0 < half).
  { unfold half, dist. apply norm_pos in N0. lra. }
  assert (C : dot axis (vsub (cluster centers label) middle) = half).
  { unfold axis, middle, half, dist. set (u := cluster centers label) in *.
    set (v := cluster centers parent) in *.
    transitivity (dot (vsub u v) (vsub u v) / norm (vsub u v) / 2).
    - rewrite !dot_vdiv_l. autorewrite with vdot. field. auto.
    - rewrite <- norm_sq. field. auto. }
  unfold predict_sequence_weights. fold axis. fold middle. cbv zeta.
  destruct (Req_EM_T (norm (vsub (cluster centers label) (cluster centers parent))) 0); [contradiction|].
  rewrite C. assert (HF : 0 < half * factor) by (apply Rmult_lt_0_compat; auto).
  destruct (Req_EM_T (half * factor) 0); [lra|].
  set (tmp := Rmax (1 - Rmax (dot axis (vsub position middle)) 0 / (half * factor)) 0).
  assert (T : 0 <= tmp <= 1).
  { unfold tmp. split; [apply Rmax_r|]. apply Rmax_lub; [|lra].
    assert (0 <= Rmax (dot axis (vsub position middle)) 0 / (half * factor)).
    { apply Rmult_le_pos; [apply Rmax_r|]. left. apply Rinv_0_lt_compat; auto. }
    lra. }
  assert (E : (if Rltb 0 tmp then
                do g <- gamma parent;
                match g with
                | GMax => Ok tmp
                | GVal g => Ok (tmp * (1 - 1 / (1 + Rmax (g - cutoff) 0)))
                | GNone => Err EType
                end
               else Ok tmp) = Ok share).
  { unfold share. fold tmp. rewrite G. cbn [bind]. destruct (Rltb 0 tmp) eqn:Z.
    - destruct g; simpl; try congruence. f_equal. ring.
    - apply Rltb_false in Z. assert (tmp = 0) by lra. rewrite H. f_equal. ring. }
  rewrite E. cbn [bind].
  destruct (sequence_two (length centers) parent label share Hp Hl PL) as [S1 [S2 [S3 [S4 S5]]]].
  eexists. split; [reflexivity|].
  pose proof (gamma_factor_bounds g cutoff) as GB.
  assert (SB : 0 <= share <= 1) by (unfold share; fold tmp; nra).
  split; auto. split; auto. split; [|auto]. intros j.
  destruct (Nat.eq_dec j parent) as [->|J1]; [rewrite S3; auto|].
  destruct (Nat.eq_dec j label) as [->|J2]; [rewrite S4; lra|]. rewrite S5; auto. lra.
Qed.
(** Without a parent everything is on the cluster. *)
Theorem C49_no_parent centers label gamma position factor cutoff :
  (label < length centers)%nat ->
  exists w, predict_sequence_weights centers [] gamma position label factor cutoff = Ok w /\
  length w = length centers /\ rsum w = 1 /\
  forall j, nth j w 0 = if Nat.eqb j label then 1 else 0.
Proof.
  intros H. eexists. split; [reflexivity|]. rewrite update_nth_length, repeat_length.
  split; auto. rewrite update_nth_sum by (rewrite repeat_length; auto).
  rewrite rsum_repeat0, nth_repeat0. split; [lra|]. intros j.
  rewrite update_nth_nth by (rewrite repeat_length; auto). rewrite nth_repeat0. reflexivity.
Qed.
(** Consequences: no weight of the parent beyond the part of the way given by the factor or where
    the distance value is at most the cutoff; the whole weight on the common face of the
    regions, where the value is infinite. *)
Theorem C49_handover centers label parent gamma position factor cutoff n g :
  (forall j, (j < length centers)%nat -> length (cluster centers j) = n) -> length position = n ->
  (label < length centers)%nat -> (parent < length centers)%nat ->
  cluster centers label <> cluster centers parent -> 0 < factor ->
  gamma parent = Ok g -> g <> GNone ->
  exists w, predict_sequence_weights centers [parent] gamma position label factor cutoff = Ok w /\
  ((exists x, g = GVal x /\ x <= cutoff) -> nth label w 0 = 1) /\
  (factor * dist (cluster centers label) (cluster centers parent) / 2 <=
   dot (vdiv (vsub (cluster centers label) (cluster centers parent))
             (norm (vsub (cluster centers label) (cluster centers parent))))
       (vsub position (vscale (1 / 2) (vadd (cluster centers label) (cluster centers parent)))) ->
   nth label w 0 = 1) /\
  (g = GMax -> dist position (cluster centers parent) <= dist position (cluster centers label) ->
   nth parent w 0 = 1).
Proof.
  intros Len Lp Hl Hp Ne F G NG.
  destruct (C49_sequence_weights centers label parent gamma position factor cutoff n g
              Len Lp Hl Hp Ne F G NG) as [w [E [_ [_ [_ [W1 [W2 _]]]]]]].
  exists w. split; auto. rewrite W1, W2. clear W1 W2 E.
  assert (N0 : norm (vsub (cluster centers label) (cluster centers parent)) <> 0).
  { intros E. apply Ne. apply dist_zero; [rewrite !Len; auto|exact E]. }
  assert (H0 : 0 < dist (cluster centers label) (cluster centers parent)) by (apply norm_pos; auto).
  set (u := cluster centers label) in *. set (v := cluster centers parent) in *.
  set (m := vscale (1 / 2) (vadd u v)).
  set (ax := vdiv (vsub u v) (norm (vsub u v))).
  set (D := dist u v) in *. set (x := dot ax (vsub position m)).
  split; [|split].
  - intros [y [-> Hy]]. simpl gamma_factor. rewrite (Rmax_right (y - cutoff) 0) by lra. field.
  - intros H. rewrite (Rmax_left x 0).
    + rewrite Rmax_right; [ring|].
      assert (1 <= x / (D / 2 * factor)).
      { assert (0 < D / 2 * factor) by (apply Rmult_lt_0_compat; lra).
        apply (Rmult_le_reg_r (D / 2 * factor)); auto.
        replace (x / (D / 2 * factor) * (D / 2 * factor)) with x by (field; split; lra). lra. }
      lra.
    + assert (0 <= factor * D) by (apply Rmult_le_pos; lra). lra.
  - intros -> Hd. simpl gamma_factor.
    assert (X : x <= 0).
    { unfold dist in Hd. rewrite norm_le_iff in Hd.
      assert (Q : 2 * D * x = dot (vsub position v) (vsub position v) - dot (vsub position u) (vsub position u)).
      { unfold x, ax. rewrite dot_vdiv_l. fold (dist u v). fold D. unfold m.
        autorewrite with vdot.
        rewrite (dot_comm v u), (dot_comm v position), (dot_comm u position).
        field. lra. }
      assert (2 * D * x <= 0) by lra. apply Rnot_lt_le. intros P.
      assert (0 < 2 * D * x) by (repeat apply Rmult_lt_0_compat; lra). lra. }
    rewrite (Rmax_right x 0) by lra. unfold Rdiv. rewrite Rmult_0_l, Rminus_0_r, Rmult_1_r.
    apply Rmax_left. lra.
Qed.

(** * C50 *)
Inductive reaches (g : hgraph) (target : nat) : nat -> Prop :=
| reach_here : reaches g target target
| reach_step u v : successors g u = [v] -> reaches g target v -> reaches g target u.

(** No two consecutive centers of the order coincide. *)
Fixpoint apart (centers : list vec) (v : nat) (l : list nat) : Prop :=
  match l with
  | [] => True
  | u :: t => norm (vsub (cluster centers u) (cluster centers v)) <> 0 /\ apart centers u t
  end.
Fixpoint chain_nodes (centers : list vec) (v level : nat) (l : list nat) : list (nat * (nat * vec)) :=
  match l with
  | [] => []
  | u :: t =>
    let d := vsub (cluster centers u) (cluster centers v) in
    (u, (S level, vdiv d (norm d))) :: chain_nodes centers u (S level) t
  end.
Lemma find_app_l {A} (f : A -> bool) l l' x : find f l = Some x -> find f (l ++ l') = Some x.
Proof. induction l as [|a l IH]; simpl; [discriminate|]. destruct (f a); auto. Qed.
Lemma find_app_r {A} (f : A -> bool) l l' : find f l = None -> find f (l ++ l') = find f l'.
Proof. induction l as [|a l IH]; simpl; auto. destruct (f a); auto. discriminate. Qed.
Lemma find_none_nodes (l : list (nat * (nat * vec))) v :
  ~ In v (map fst l) -> find (fun p => Nat.eqb (fst p) v) l = None.
Proof.
  induction l as [|[a x] l IH]; simpl; auto. intros H.
  destruct (Nat.eqb_spec a v); [exfalso; auto|]. apply IH. auto.
Qed.
Lemma hierarchy_loop_ok centers l : forall g v level dir,
  node_data g v = Some (level, dir) -> NoDup l -> (forall u, In u l -> ~ In u (map fst (h_nodes g))) ->
  apart centers v l ->
  hierarchy_loop centers g v l =
  Ok (mkH (h_nodes g ++ chain_nodes centers v level l) (h_edges g ++ combine l (v :: l))).
Proof.
  induction l as [|u l IH]; intros g v level dir Hd ND Fr Ap.
  - simpl. rewrite !app_nil_r. destruct g; reflexivity.
  - simpl in Ap. destruct Ap as [A1 A2]. cbn [hierarchy_loop].
    destruct (Req_EM_T _ 0); [contradiction|]. rewrite Hd.
    inversion ND as [|? ? N1 N2]; subst.
    rewrite (IH _ u (level + 1)%nat (vdiv (vsub (cluster centers u) (cluster centers v))
               (norm (vsub (cluster centers u) (cluster centers v))))); auto.
    + simpl. rewrite <- !app_assoc. simpl. rewrite Nat.add_1_r. reflexivity.
    + unfold node_data. simpl. rewrite find_app_r.
      * simpl. rewrite Nat.eqb_refl. reflexivity.
      * apply find_none_nodes. apply Fr. left; auto.
    + intros w Hw. simpl. rewrite map_app, in_app_iff. simpl. intros [H|[H|[]]].
      * apply (Fr w); auto. right; auto.
      * subst w. contradiction.
Qed.
(** The hierarchy of an order: nodes and edges. *)
Lemma fit_ok centers attractor v l : NoDup (v :: l) ->
  norm (vsub (cluster centers v) attractor) <> 0 -> apart centers v l ->
  fit_hierarchy centers attractor (v :: l) =
  Ok (mkH ((v, (0%nat, vdiv (vsub (cluster centers v) attractor) (norm (vsub (cluster centers v) attractor))))
           :: chain_nodes centers v 0 l) (combine l (v :: l))).
Proof.
  intros ND N A. unfold fit_hierarchy. destruct (Req_EM_T _ 0); [contradiction|].
  inversion ND; subst.
  rewrite (hierarchy_loop_ok centers l _ v 0%nat
             (vdiv (vsub (cluster centers v) attractor) (norm (vsub (cluster centers v) attractor)))); auto.
  - unfold node_data. simpl. rewrite Nat.eqb_refl. reflexivity.
  - simpl. intros u Hu [E|[]]. subst. contradiction.
Qed.
Lemma combine_fst_in {A B} (l : list A) (l' : list B) a b : In (a, b) (combine l l') -> In a l /\ In b l'.
Proof. intros H. split; [eapply in_combine_l|eapply in_combine_r]; eauto. Qed.
Lemma filter_none {A} (f : A -> bool) l : (forall x, In x l -> f x = false) -> filter f l = [].
Proof.
  induction l as [|a l IH]; simpl; auto. intros H. rewrite H by auto. apply IH. auto.
Qed.
Lemma chain_succ l : forall v, NoDup (v :: l) ->
  (filter (fun e : nat * nat => Nat.eqb (fst e) v) (combine l (v :: l)) = []) /\
  forall i a b, nth_error (v :: l) i = Some a -> nth_error (v :: l) (S i) = Some b ->
  filter (fun e => Nat.eqb (fst e) b) (combine l (v :: l)) = [(b, a)] /\
  filter (fun e => Nat.eqb (snd e) a) (combine l (v :: l)) = [(b, a)].
Proof.
  induction l as [|u l IH]; intros v ND.
  - split; auto. intros i a b _ H. destruct i as [|[|i]]; discriminate.
  - inversion ND as [|? ? N1 N2]; subst. destruct (IH u N2) as [I1 I2].
    inversion N2 as [|? ? N3 N4]; subst.
    split.
    + apply filter_none. intros [x y] H. apply combine_fst_in in H. simpl.
      apply Nat.eqb_neq. intros ->. apply N1. tauto.
    + intros [|i] a b Ha Hb.
      * simpl in Ha, Hb. inversion Ha; inversion Hb; subst a b. simpl combine. simpl filter.
        rewrite !Nat.eqb_refl. split; f_equal; apply filter_none; intros [x y] H; simpl;
          apply combine_fst_in in H; apply Nat.eqb_neq; intros ->.
        -- apply N3. tauto.
        -- apply N1. tauto.
      * change (nth_error (u :: l) i = Some a) in Ha.
        change (nth_error (u :: l) (S i) = Some b) in Hb.
        destruct (I2 i a b Ha Hb) as [J1 J2]. simpl combine. simpl filter.
        assert (Bu : b <> u).
        { intros ->. simpl in Hb. apply N3. eapply nth_error_In; eauto. }
        assert (Av : a <> v).
        { intros ->. apply N1. eapply nth_error_In; eauto. }
        destruct (Nat.eqb_spec u b); [congruence|]. destruct (Nat.eqb_spec v a); [congruence|].
        split; auto.
Qed.
Lemma chain_last l : forall v, NoDup (v :: l) ->
  filter (fun e : nat * nat => Nat.eqb (snd e) (last (v :: l) v)) (combine l (v :: l)) = [].
Proof.
  induction l as [|u l IH]; intros v ND; auto.
  inversion ND as [|? ? N1 N2]; subst. simpl combine.
  change (last (v :: u :: l) v) with (last (u :: l) v).
  assert (E : forall d d', last (u :: l) d = last (u :: l) d').
  { clear. induction l as [|w l IH] in u |- *; intros; auto. simpl in *. auto. }
  rewrite (E v u). cbn [filter snd].
  destruct (Nat.eqb_spec v (last (u :: l) u)) as [Q|Q].
  - exfalso. apply N1. rewrite Q. destruct (exists_last (l := u :: l)) as [m [x ->]]; [discriminate|].
    rewrite last_last. apply in_or_app. right; left; auto.
  - apply IH; auto.
Qed.
Lemma chain_nodes_nth centers l : forall v level i u,
  nth_error l i = Some u -> NoDup l ->
  exists p d, nth_error (v :: l) i = Some p /\
  d = vsub (cluster centers u) (cluster centers p) /\
  find (fun q => Nat.eqb (fst q) u) (chain_nodes centers v level l) =
  Some (u, ((level + S i)%nat, vdiv d (norm d))).
Proof.
  induction l as [|w l IH]; intros v level [|i] u H ND; simpl in H; try discriminate.
  - inversion H; subst w. exists v. eexists. split; [reflexivity|]. split; [reflexivity|].
    simpl. rewrite Nat.eqb_refl. rewrite Nat.add_1_r. reflexivity.
  - inversion ND; subst. destruct (IH w (S level) i u H) as [p [d [P1 [P2 P3]]]]; auto.
    exists p, d. split; auto. split; auto. simpl.
    destruct (Nat.eqb_spec w u); [exfalso; subst; apply nth_error_In in H; contradiction|].
    replace (level + S (S i))%nat with (S level + S i)%nat by lia. exact P3.
Qed.
(** The hierarchy of [k] clusters in an order of decreasing mean sequence value ([mean]): a chain.
    The first cluster of the order has no successor and level 0; every other one has exactly one,
    the previous of the order, whose mean value is not smaller; levels count up; following the
    successors leads to the first; the direction of a cluster is the unit vector from its
    successor (the attractor for the first) to it. *)
Theorem C50_chain centers attractor order first rest mean :
  order = first :: rest -> Permutation order (seq 0 (length centers)) ->
  (forall i a b, nth_error order i = Some a -> nth_error order (S i) = Some b -> mean b <= mean a) ->
  norm (vsub (cluster centers first) attractor) <> 0 -> apart centers first rest ->
  exists g, fit_hierarchy centers attractor order = Ok g /\
  successors g first = [] /\ predecessors g (last order first) = [] /\
  (forall i a b, nth_error order i = Some a -> nth_error order (S i) = Some b ->
     successors g b = [a] /\ predecessors g a = [b] /\ mean b <= mean a) /\
  (forall i a, nth_error order i = Some a ->
     let origin := match i with
                   | O => attractor
                   | S k => cluster centers (nth k order first)
                   end in
     let d := vsub (cluster centers a) origin in
     node_data g a = Some (i, vdiv d (norm d)) /\ unitv (vdiv d (norm d))) /\
  (forall a, (a < length centers)%nat -> reaches g first a).
Proof.
  intros -> Pm Me N A.
  assert (ND : NoDup (first :: rest)).
  { apply (Permutation_NoDup (Permutation_sym Pm)). apply seq_NoDup. }
  rewrite (fit_ok centers attractor first rest ND N A). eexists. split; [reflexivity|].
  destruct (chain_succ rest first ND) as [S1 S2].
  match goal with |- context [successors ?g first] => set (gg := g) end.
  assert (SU : forall i a b, nth_error (first :: rest) i = Some a ->
             nth_error (first :: rest) (S i) = Some b ->
             successors gg b = [a] /\ predecessors gg a = [b]).
  { intros i a b Ha Hb. destruct (S2 i a b Ha Hb) as [J1 J2].
    unfold successors, predecessors, gg. simpl h_edges.
    split; [rewrite J1 | rewrite J2]; reflexivity. }
  split; [|split; [|split; [|split]]].
  - unfold successors, gg. simpl h_edges. rewrite S1. reflexivity.
  - unfold predecessors, gg. cbn [h_edges]. rewrite (chain_last rest first ND). reflexivity.
  - intros i a b Ha Hb. destruct (SU i a b Ha Hb) as [J1 J2]. repeat split; auto. apply (Me i); auto.
  - intros [|i] a Ha; cbv zeta.
    + simpl in Ha. inversion Ha; subst a. split.
      * unfold node_data, gg. simpl. rewrite Nat.eqb_refl. reflexivity.
      * apply unit_vdiv; auto.
    + change (nth_error rest i = Some a) in Ha.
      inversion ND as [|? ? N1 N2]; subst.
      destruct (chain_nodes_nth centers rest first 0 i a Ha N2) as [p [d [P1 [P2 P3]]]].
      assert (nth i (first :: rest) first = p) by (apply nth_error_nth; auto).
      rewrite H. rewrite <- P2. split.
      * unfold node_data, gg. cbn [h_nodes find]. cbn [fst].
        destruct (Nat.eqb_spec first a); [exfalso; subst; apply nth_error_In in Ha; contradiction|].
        rewrite P3. reflexivity.
      * apply unit_vdiv. subst d. clear - A Ha P1.
        revert first i A Ha P1. induction rest as [|w l IH]; intros f [|i] A Ha P1; simpl in *; try discriminate.
        -- inversion Ha; inversion P1; subst. tauto.
        -- apply (IH w i); tauto.
  - intros a La. assert (Ia : In a (first :: rest)).
    { apply (Permutation_in a (Permutation_sym Pm)). apply in_seq. lia. }
    apply In_nth_error in Ia. destruct Ia as [i Hi].
    clear - SU Hi. revert a Hi. induction i as [|i IH]; intros a Hi.
    + simpl in Hi. inversion Hi. constructor.
    + destruct (nth_error (first :: rest) i) as [b|] eqn:E.
      * apply (reach_step _ _ a b); auto. apply (SU i b a); auto.
      * exfalso. apply nth_error_None in E.
        assert (nth_error (first :: rest) (S i) <> None) by congruence.
        apply nth_error_Some in H. lia.
Qed.
(** It fails exactly if consecutive centers coincide or the first is at the attractor. *)
Lemma hierarchy_loop_err centers l : forall g v level dir,
  node_data g v = Some (level, dir) -> NoDup l -> (forall u, In u l -> ~ In u (map fst (h_nodes g))) ->
  ~ apart centers v l -> hierarchy_loop centers g v l = Err EValue.
Proof.
  induction l as [|u l IH]; intros g v level dir Hd ND Fr Ap; simpl in Ap; [tauto|].
  cbn [hierarchy_loop]. destruct (Req_EM_T _ 0) as [|Ne]; auto. rewrite Hd.
  inversion ND as [|? ? N1 N2]; subst.
  apply (IH _ u (level + 1)%nat (vdiv (vsub (cluster centers u) (cluster centers v))
               (norm (vsub (cluster centers u) (cluster centers v))))); auto.
  - unfold node_data. simpl. rewrite find_app_r.
    + simpl. rewrite Nat.eqb_refl. reflexivity.
    + apply find_none_nodes. apply Fr. left; auto.
  - intros w Hw. simpl. rewrite map_app, in_app_iff. simpl. intros [H|[H|[]]].
    + apply (Fr w); auto. right; auto.
    + subst w. contradiction.
Qed.
Theorem C50_coincident centers attractor first rest : NoDup (first :: rest) ->
  (norm (vsub (cluster centers first) attractor) = 0 ->
   fit_hierarchy centers attractor (first :: rest) = Err ENotImpl) /\
  (norm (vsub (cluster centers first) attractor) <> 0 -> ~ apart centers first rest ->
   fit_hierarchy centers attractor (first :: rest) = Err EValue).
Proof.
  intros ND. unfold fit_hierarchy.
  destruct (Req_EM_T (norm (vsub (cluster centers first) attractor)) 0); split; try contradiction; auto.
  intros _ A. inversion ND; subst. eapply hierarchy_loop_err; eauto.
  - unfold node_data. simpl. rewrite Nat.eqb_refl. reflexivity.
  - simpl. intros u Hu [E|[]]. subst. contradiction.
Qed.

(** * C51 *)
Definition members (labels : list nat) (j : nat) : nat := length (filter (Nat.eqb j) labels).
Definition kept_centers (centers : list vec) (keep : nat -> bool) (k : nat) : list vec :=
  map (cluster centers) (filter keep (seq 0 k)).

Lemma filter_sub_length (L l : list nat) j :
  length L = length l ->
  (forall k, nth_error L k = Some j -> nth_error l k = Some j) ->
  (members L j <= members l j)%nat.
Proof.
  revert l; induction L as [|a L IH]; intros [|b l] Len H; simpl in Len; try discriminate; auto.
  unfold members in *. simpl.
  assert (I : (length (filter (Nat.eqb j) L) <= length (filter (Nat.eqb j) l))%nat).
  { apply IH; auto. intros k. apply (H (S k)). }
  destruct (Nat.eqb_spec j a).
  - subst a. pose proof (H 0%nat eq_refl) as E. simpl in E. inversion E; subst.
    rewrite Nat.eqb_refl. simpl. lia.
  - destruct (Nat.eqb j b); simpl; lia.
Qed.
Lemma kept_ext centers f g k : (forall j, (j < k)%nat -> f j = g j) ->
  kept_centers centers f k = kept_centers centers g k.
Proof.
  intros H. unfold kept_centers. f_equal. apply filter_ext_in. intros j Hj. apply in_seq in Hj.
  apply H. lia.
Qed.
Lemma kept_step centers f k :
  kept_centers centers f (S k) =
  kept_centers centers f k ++ (if f k then [cluster centers k] else []).
Proof.
  unfold kept_centers. rewrite seq_S, filter_app, map_app. simpl. destruct (f k); reflexivity.
Qed.
Lemma skipn_cluster (centers : list vec) k : (k < length centers)%nat ->
  skipn k centers = cluster centers k :: skipn (S k) centers.
Proof.
  unfold cluster. revert k; induction centers as [|c l IH]; simpl length; intros k H; [lia|].
  destruct k; [reflexivity|]. simpl skipn at 1. rewrite IH by lia. reflexivity.
Qed.
Lemma delete_nth_app {A} (l l' : list A) x i : i = length l -> delete_nth i (l ++ x :: l') = l ++ l'.
Proof.
  intros ->. unfold delete_nth. rewrite firstn_app, Nat.sub_diag, firstn_all, firstn_O, app_nil_r.
  f_equal. rewrite skipn_app.
  replace (S (length l) - length l)%nat with 1%nat by lia.
  rewrite skipn_all2 by lia. reflexivity.
Qed.
Lemma relabel_nth labels data f k l x : nth_error labels k = Some l -> nth_error data k = Some x ->
  nth_error (relabel labels data f) k = Some (f l x).
Proof.
  unfold relabel. revert data k; induction labels as [|a labels IH]; intros [|b data] [|k] H1 H2;
    simpl in *; try discriminate.
  - inversion H1; inversion H2; subst. reflexivity.
  - apply IH; auto.
Qed.
Lemma relabel_length labels data f : length data = length labels ->
  length (relabel labels data f) = length labels.
Proof. intros H. unfold relabel. rewrite map_length, combine_length. lia. Qed.

(** The state before cluster [ii] is treated. *)
Record kinv (centers : list vec) (L0 : list nat) (minimum : R) (ii : nat) (keep : nat -> bool)
    (s : kstate) : Prop := {
  ki_n : ks_n s = length (ks_centers s);
  ki_c : ks_centers s = kept_centers centers keep ii ++ skipn ii centers;
  ki_d : (length (kept_centers centers keep ii) + ks_delta s = ii)%nat;
  ki_l : length (ks_labels s) = length L0;
  ki_rm : forall j, (j < ii)%nat -> keep j = false -> INR (members L0 j) < minimum;
  ki_p : forall k j l, nth_error L0 k = Some j -> nth_error (ks_labels s) k = Some l ->
    ((ii <= j)%nat -> l = j) /\
    ((j < ii)%nat -> keep j = true -> (l <= j)%nat /\
       nth_error (kept_centers centers keep ii) l = Some (cluster centers j));
  ki_one : (2 <= length centers)%nat -> (ks_delta s <= 1)%nat -> forall l, In l (ks_labels s) ->
    (l + ks_delta s < length centers)%nat \/ ((l < length centers)%nat /\ (ii <= l)%nat)
}.
Lemma nth_error_same_len {A B} (l : list A) (l' : list B) k x : length l = length l' ->
  nth_error l k = Some x -> exists y, nth_error l' k = Some y.
Proof.
  intros E H. destruct (nth_error l' k) eqn:Q; eauto. apply nth_error_None in Q.
  assert (nth_error l k <> None) by congruence. apply nth_error_Some in H0. lia.
Qed.
Lemma kinv_step predict data centers L0 minimum ii keep s s' :
  length data = length L0 -> (ii < length centers)%nat ->
  (forall cs x, cs <> [] -> (predict cs x < length cs)%nat) ->
  kinv centers L0 minimum ii keep s -> sparse_step predict data minimum s ii = Ok s' ->
  exists keep', kinv centers L0 minimum (S ii) keep' s' /\ (ks_delta s <= ks_delta s')%nat.
Proof.
  intros LD Hi Pr [In_ Ic Id Il Irm Ip Ione] St.
  assert (LK : length (ks_centers s) = (length (kept_centers centers keep ii) + (length centers - ii))%nat).
  { rewrite Ic, app_length, skipn_length. reflexivity. }
  assert (Mem : (members L0 ii <= members (ks_labels s) ii)%nat).
  { apply filter_sub_length; auto. intros k Hk.
    destruct (nth_error_same_len _ (ks_labels s) k ii (eq_sym Il) Hk) as [l Hl].
    destruct (Ip k ii l Hk Hl) as [E _]. rewrite Hl, (E (le_n _)). reflexivity. }
  unfold sparse_step in St. fold (members (ks_labels s) ii) in St. cbv zeta in St.
  destruct (Rltb (INR (members (ks_labels s) ii)) minimum) eqn:T.
  - apply Rltb_true in T. destruct (Nat.eqb_spec (members (ks_labels s) ii) 0); [discriminate|].
    inversion St; subst s'; clear St.
    set (keep' := fun j => if Nat.eqb j ii then false else keep j).
    assert (KE : kept_centers centers keep' (S ii) = kept_centers centers keep ii).
    { rewrite kept_step. unfold keep' at 2. rewrite Nat.eqb_refl, app_nil_r.
      apply kept_ext. intros j Hj. unfold keep'. destruct (Nat.eqb_spec j ii); [lia|reflexivity]. }
    assert (DE : delete_nth (ii - ks_delta s) (ks_centers s) =
                 kept_centers centers keep ii ++ skipn (S ii) centers).
    { rewrite Ic, (skipn_cluster centers ii Hi). apply delete_nth_app. lia. }
    assert (LD' : length (delete_nth (ii - ks_delta s) (ks_centers s)) = (length (ks_centers s) - 1)%nat).
    { rewrite DE, app_length, skipn_length. lia. }
    exists keep'. split; [|simpl; lia]. constructor; simpl ks_n; simpl ks_centers; simpl ks_delta; simpl ks_labels.
    + rewrite In_, LD'. reflexivity.
    + rewrite KE, DE. reflexivity.
    + rewrite KE. lia.
    + rewrite relabel_length; lia.
    + intros j Hj. unfold keep'. destruct (Nat.eqb_spec j ii) as [->|].
      * intros _. eapply Rle_lt_trans; [|exact T]. apply le_INR. auto.
      * intros Kj. apply Irm; auto. lia.
    + intros k j l Hk Hl.
      destruct (nth_error_same_len _ (ks_labels s) k j (eq_sym Il) Hk) as [l0 Hl0].
      destruct (nth_error_same_len _ data k j (eq_sym LD) Hk) as [x Hx].
      rewrite (relabel_nth _ _ _ _ _ _ Hl0 Hx) in Hl. inversion Hl as [El]. clear Hl.
      destruct (Ip k j l0 Hk Hl0) as [P1 P2]. split.
      * intros Hj. rewrite (P1 ltac:(lia)). destruct (Nat.eqb_spec j ii); [lia|reflexivity].
      * intros Hj Kj. unfold keep' in Kj. destruct (Nat.eqb_spec j ii) as [->|]; [discriminate|].
        destruct (P2 ltac:(lia) Kj) as [Q1 Q2].
        destruct (Nat.eqb_spec l0 ii); [lia|]. rewrite KE. split; auto.
    + intros N2 D l Hl. apply In_nth_error in Hl. destruct Hl as [k Hk].
      assert (D0 : ks_delta s = 0%nat) by lia.
      destruct (nth_error (ks_labels s) k) as [l0|] eqn:Hl0.
      * destruct (nth_error_same_len (ks_labels s) data k l0 ltac:(lia) Hl0) as [x Hx].
        rewrite (relabel_nth _ _ _ _ _ _ Hl0 Hx) in Hk. inversion Hk as [El]. clear Hk.
        destruct (Nat.eqb_spec l0 ii) as [E0|E0].
        -- left. set (cs := delete_nth (ii - ks_delta s) (ks_centers s)) in *.
           assert (NE : cs <> []).
           { intros Z. rewrite Z in LD'. simpl in LD'. lia. }
           pose proof (Pr cs x NE). lia.
        -- destruct (Ione N2 ltac:(lia) l0) as [Q|[Q1 Q2]].
           ++ eapply nth_error_In; eauto.
           ++ destruct (Nat.eq_dec (S l0) (length centers)).
              ** right. split; [lia|]. lia.
              ** left. lia.
           ++ destruct (Nat.eq_dec (S l0) (length centers)).
              ** right. split; lia.
              ** left. lia.
      * apply nth_error_None in Hl0. assert (NN : nth_error (relabel (ks_labels s) data
          (fun l x => if Nat.eqb l ii then predict (delete_nth (ii - ks_delta s) (ks_centers s)) x else l)) k
          <> None) by congruence.
        apply nth_error_Some in NN. rewrite relabel_length in NN by lia. lia.
  - set (keep' := fun j => if Nat.eqb j ii then true else keep j).
    assert (KE : kept_centers centers keep' (S ii) = kept_centers centers keep ii ++ [cluster centers ii]).
    { rewrite kept_step. unfold keep' at 2. rewrite Nat.eqb_refl. f_equal.
      apply kept_ext. intros j Hj. unfold keep'. destruct (Nat.eqb_spec j ii); [lia|reflexivity]. }
    assert (CE : ks_centers s = kept_centers centers keep' (S ii) ++ skipn (S ii) centers).
    { rewrite Ic, KE, (skipn_cluster centers ii Hi), <- app_assoc. reflexivity. }
    assert (S' : ks_n s' = ks_n s /\ ks_centers s' = ks_centers s /\ ks_delta s' = ks_delta s /\
      ks_labels s' = map (fun l => if Nat.eqb l ii then (l - ks_delta s)%nat else l) (ks_labels s)).
    { destruct (Nat.eqb_spec (ks_delta s) 0) as [D0|D0]; inversion St; subst s'; simpl; auto.
      repeat split; auto. rewrite D0. rewrite <- (map_id (ks_labels s)) at 1. apply map_ext.
      intros l. destruct (Nat.eqb l ii); lia. }
    destruct S' as [E1 [E2 [E3 E4]]].
    exists keep'. split; [|lia]. constructor; rewrite ?E1, ?E2, ?E3, ?E4; auto.
    + rewrite KE, app_length. simpl. lia.
    + rewrite map_length. auto.
    + intros j Hj. unfold keep'. destruct (Nat.eqb_spec j ii); [discriminate|].
      intros Kj. apply Irm; auto. lia.
    + intros k j l Hk Hl. rewrite nth_error_map in Hl.
      destruct (nth_error (ks_labels s) k) as [l0|] eqn:Hl0; simpl in Hl; [|discriminate].
      inversion Hl as [El]. clear Hl.
      destruct (Ip k j l0 Hk Hl0) as [P1 P2]. split.
      * intros Hj. rewrite (P1 ltac:(lia)). destruct (Nat.eqb_spec j ii); [lia|reflexivity].
      * intros Hj Kj. rewrite KE. unfold keep' in Kj. destruct (Nat.eqb_spec j ii) as [->|NJ].
        -- rewrite (P1 (le_n _)), Nat.eqb_refl. split; [lia|].
           rewrite nth_error_app2 by lia.
           replace (ii - ks_delta s - length (kept_centers centers keep ii))%nat with 0%nat by lia.
           reflexivity.
        -- destruct (P2 ltac:(lia) Kj) as [Q1 Q2].
           destruct (Nat.eqb_spec l0 ii); [lia|]. split; auto.
           rewrite nth_error_app1; auto. apply nth_error_Some. congruence.
    + intros N2 D l Hl. apply in_map_iff in Hl. destruct Hl as [l0 [El Hl0]].
      destruct (Ione N2 D l0 Hl0) as [Q|[Q1 Q2]];
        destruct (Nat.eqb_spec l0 ii); subst l; [left; lia|left; lia|left; lia|right; lia].
Qed.
Lemma kinv_loop predict data centers L0 minimum : length data = length L0 ->
  (forall cs x, cs <> [] -> (predict cs x < length cs)%nat) ->
  forall k ii keep s s', (ii + k = length centers)%nat ->
  kinv centers L0 minimum ii keep s ->
  sparse_loop predict data minimum s (seq ii k) = Ok s' ->
  exists keep', kinv centers L0 minimum (length centers) keep' s'.
Proof.
  intros LD Pr. induction k as [|k IH]; intros ii keep s s' Hk I H; simpl in H.
  - inversion H; subst. rewrite Nat.add_0_r in Hk. subst ii. eauto.
  - destruct (sparse_step predict data minimum s ii) as [s1|] eqn:E; simpl in H; [|discriminate].
    destruct (kinv_step predict data centers L0 minimum ii keep s s1 LD ltac:(lia) Pr I E)
      as [keep1 [I1 _]].
    apply (IH (S ii) keep1 s1 s'); auto. lia.
Qed.
Lemma kinv_init centers labels minimum : (forall l, In l labels -> (l < length centers)%nat) ->
  kinv centers labels minimum 0 (fun _ => true) (mkK (length centers) centers 0 labels).
Proof.
  intros R. constructor; simpl; auto; try lia.
  - intros k j l H1 H2. split; [congruence|lia].
  - intros _ _ l Hl. left. rewrite Nat.add_0_r. auto.
Qed.
Lemma kinv_final predict data centers labels factor s :
  length data = length labels -> (forall l, In l labels -> (l < length centers)%nat) ->
  (forall cs x, cs <> [] -> (predict cs x < length cs)%nat) ->
  remove_sparse predict data centers labels factor = Ok s ->
  exists keep, kinv centers labels (factor * INR (length data) / INR (length centers))
    (length centers) keep s.
Proof.
  intros LD R Pr H. unfold remove_sparse in H.
  apply (kinv_loop predict data centers labels _ LD Pr (length centers) 0%nat (fun _ => true)
           (mkK (length centers) centers 0 labels)); auto. apply kinv_init; auto.
Qed.
(** Some clusters are kept; all removed ones had fewer points than the minimum.  The number and the
    list of centers are those of the kept clusters in order, and every point of a kept cluster is
    labelled with the same center as before. *)
Theorem C51_kept_points predict data centers labels factor s :
  length data = length labels -> (forall l, In l labels -> (l < length centers)%nat) ->
  (forall cs x, cs <> [] -> (predict cs x < length cs)%nat) ->
  remove_sparse predict data centers labels factor = Ok s ->
  exists keep : nat -> bool,
  (forall j, (j < length centers)%nat -> keep j = false ->
     INR (members labels j) < factor * INR (length data) / INR (length centers)) /\
  ks_centers s = map (cluster centers) (filter keep (seq 0 (length centers))) /\
  ks_n s = length (ks_centers s) /\ length (ks_labels s) = length data /\
  forall k j, nth_error labels k = Some j -> keep j = true ->
    exists l, nth_error (ks_labels s) k = Some l /\
    nth_error (ks_centers s) l = Some (cluster centers j).
Proof.
  intros LD R Pr H. destruct (kinv_final _ _ _ _ _ _ LD R Pr H) as [keep I].
  destruct I as [In_ Ic Id Il Irm Ip Ione]. rewrite skipn_all, app_nil_r in Ic.
  exists keep. split; auto. split; auto. split; auto. split; [lia|].
  intros k j Hk Kj. destruct (nth_error_same_len _ (ks_labels s) k j (eq_sym Il) Hk) as [l Hl].
  exists l. split; auto. rewrite Ic.
  destruct (Ip k j l Hk Hl) as [_ P2]. apply P2; auto.
  apply R. eapply nth_error_In; eauto.
Qed.
(** Up to one removed cluster, every label is in range. *)
Theorem C51_labels_in_range_partial predict data centers labels factor s :
  length data = length labels -> (forall l, In l labels -> (l < length centers)%nat) ->
  (forall cs x, cs <> [] -> (predict cs x < length cs)%nat) ->
  (2 <= length centers)%nat ->
  remove_sparse predict data centers labels factor = Ok s ->
  (length centers <= length (ks_centers s) + 1)%nat ->
  forall l, In l (ks_labels s) -> (l < length (ks_centers s))%nat.
Proof.
  intros LD R Pr N2 H Le l Hl. destruct (kinv_final _ _ _ _ _ _ LD R Pr H) as [keep I].
  destruct I as [In_ Ic Id Il Irm Ip Ione]. rewrite skipn_all, app_nil_r in Ic.
  rewrite <- Ic in Id.
  destruct (Ione N2 ltac:(lia) l Hl) as [Q|Q]; lia.
Qed.

(** A prediction assigns the nearest of the present centers. *)
Definition nearest (predict : list vec -> vec -> nat) : Prop :=
  forall cs x, cs <> [] -> (predict cs x < length cs)%nat /\
  forall i, (i < length cs)%nat -> dist x (cluster cs (predict cs x)) <= dist x (cluster cs i).
Lemma dist1 a b : dist [a] [b] = Rabs (a - b).
Proof.
  unfold dist, norm, vsub. simpl. replace ((a + -1 * b) * (a + -1 * b) + 0) with (Rsqr (a - b)).
  - apply sqrt_Rsqr_abs.
  - unfold Rsqr. ring.
Qed.
Lemma INR_lit n : INR n = IZR (Z.of_nat n).
Proof. apply INR_IZR_INZ. Qed.
(** Two removed clusters: a label out of range.  14 points at 0, one at 10 and one at 11; the point
    of the second cluster is given to the third, which is removed next. *)
Theorem C51_out_of_range_refuted predict : nearest predict ->
  exists data centers labels s, length data = length labels /\
  (forall l, In l labels -> (l < length centers)%nat) /\
  (forall k j x, nth_error labels k = Some j -> nth_error data k = Some x -> cluster centers j = x) /\
  remove_sparse predict data centers labels (1 / 5) = Ok s /\
  exists l, In l (ks_labels s) /\ (length (ks_centers s) <= l)%nat.
Proof.
  intros Pr.
  exists (repeat [0] 14 ++ [[10]; [11]]), [[0]; [10]; [11]], (repeat 0%nat 14 ++ [1%nat; 2%nat]).
  assert (P1 : predict [[0]; [11]] [10] = 1%nat).
  { destruct (Pr [[0]; [11]] [10]) as [A B]; [discriminate|]. simpl in A.
    destruct (predict [[0]; [11]] [10]) as [|[|k]]; try lia; auto.
    specialize (B 1%nat ltac:(simpl; lia)). unfold cluster in B. cbn [nth] in B.
    rewrite !dist1 in B. rewrite (Rabs_right (10 - 0)) in B by lra.
    rewrite (Rabs_left1 (10 - 11)) in B by lra. lra. }
  assert (P2 : predict [[0]] [11] = 0%nat).
  { destruct (Pr [[0]] [11]) as [A B]; [discriminate|]. simpl in A. lia. }
  exists (mkK 1 [[0]] 2 (repeat 0%nat 14 ++ [1%nat; 0%nat])).
  split; [reflexivity|]. split.
  { intros l Hl. simpl in Hl. simpl. lia. }
  split.
  { intros k j x H1 H2. do 16 (destruct k as [|k]; [simpl in *; inversion H1; inversion H2; subst; reflexivity|]).
    destruct k; discriminate. }
  split.
  - unfold remove_sparse. cbn [length seq sparse_loop app repeat].
    assert (Mn : 1 / 5 * INR 16 / INR 3 = 16 / 15).
    { rewrite !INR_lit. simpl. field. }
    rewrite Mn.
    unfold sparse_step at 1. cbn [ks_labels ks_delta ks_centers ks_n filter Nat.eqb length].
    rewrite (proj2 (Rltb_false (INR 14) (16 / 15))) by (rewrite INR_lit; simpl; lra). cbn [bind].
    unfold sparse_step at 1. cbn [ks_labels ks_delta ks_centers ks_n filter Nat.eqb length].
    rewrite (proj2 (Rltb_true (INR 1) (16 / 15))) by (simpl; lra). cbn [bind].
    change (delete_nth (1 - 0) [[0]; [10]; [11]]) with [[0]; [11]].
    cbn [relabel combine map fst snd Nat.eqb]. unfold relabel. cbn [combine map fst snd Nat.eqb].
    rewrite P1.
    unfold sparse_step at 1. cbn [ks_labels ks_delta ks_centers ks_n filter Nat.eqb length].
    rewrite (proj2 (Rltb_true (INR 1) (16 / 15))) by (simpl; lra). cbn [bind].
    change (delete_nth (2 - (0 + 1)) [[0]; [11]]) with [[0]].
    unfold relabel. cbn [combine map fst snd Nat.eqb]. rewrite P2. reflexivity.
  - exists 1%nat. split; [simpl; tauto|]. simpl. lia.
Qed.
(** One removed cluster: its point ends at a center which is not the nearest one. *)
Theorem C51_wrong_center_refuted predict : nearest predict ->
  exists data centers labels s x l i, 
  remove_sparse predict data centers labels (1 / 5) = Ok s /\
  nth_error data 7 = Some x /\ nth_error (ks_labels s) 7 = Some l /\
  (i < length (ks_centers s))%nat /\ (l < length (ks_centers s))%nat /\
  dist x (cluster (ks_centers s) i) = 1 /\ dist x (cluster (ks_centers s) l) = 20.
Proof.
  intros Pr.
  assert (P1 : predict [[0]; [30]; [11]] [10] = 2%nat).
  { destruct (Pr [[0]; [30]; [11]] [10]) as [A B]; [discriminate|]. simpl in A.
    specialize (B 2%nat ltac:(simpl; lia)). unfold cluster in B. cbn [nth] in B.
    destruct (predict [[0]; [30]; [11]] [10]) as [|[|[|k]]]; try lia; auto; exfalso;
      cbn [nth] in B; rewrite !dist1 in B; rewrite (Rabs_left1 (10 - 11)) in B by lra.
    - rewrite (Rabs_right (10 - 0)) in B by lra. lra.
    - rewrite (Rabs_left1 (10 - 30)) in B by lra. lra. }
  exists (repeat [0] 7 ++ [[10]] ++ repeat [30] 7 ++ repeat [11] 6), [[0]; [10]; [30]; [11]],
    (repeat 0%nat 7 ++ [1%nat] ++ repeat 2%nat 7 ++ repeat 3%nat 6).
  exists (mkK 3 [[0]; [30]; [11]] 1 (repeat 0%nat 7 ++ [1%nat] ++ repeat 1%nat 7 ++ repeat 2%nat 6)).
  exists [10], 1%nat, 2%nat. split.
  - unfold remove_sparse. cbn [length seq sparse_loop app repeat].
    assert (Mn : 1 / 5 * INR 21 / INR 4 = 21 / 20).
    { rewrite !INR_lit. simpl. field. }
    rewrite Mn.
    unfold sparse_step at 1. cbn [ks_labels ks_delta ks_centers ks_n filter Nat.eqb length].
    rewrite (proj2 (Rltb_false (INR 7) (21 / 20))) by (rewrite INR_lit; simpl; lra). cbn [bind].
    unfold sparse_step at 1. cbn [ks_labels ks_delta ks_centers ks_n filter Nat.eqb length].
    rewrite (proj2 (Rltb_true (INR 1) (21 / 20))) by (simpl; lra). cbn [bind].
    change (delete_nth (1 - 0) [[0]; [10]; [30]; [11]]) with [[0]; [30]; [11]].
    unfold relabel. cbn [combine map fst snd Nat.eqb]. rewrite P1.
    unfold sparse_step at 1. cbn [ks_labels ks_delta ks_centers ks_n filter Nat.eqb length].
    rewrite (proj2 (Rltb_false (INR 8) (21 / 20))) by (rewrite INR_lit; simpl; lra). cbn [bind].
    cbn [Nat.add Nat.eqb map Nat.sub bind].
    unfold sparse_step at 1. cbn [ks_labels ks_delta ks_centers ks_n filter Nat.eqb length].
    rewrite (proj2 (Rltb_false (INR 6) (21 / 20))) by (rewrite INR_lit; simpl; lra). cbn [bind].
    reflexivity.
  - simpl. repeat split; auto; try lia; unfold cluster; cbn [nth]; rewrite dist1.
    + rewrite Rabs_left1 by lra. lra.
    + rewrite Rabs_left1 by lra. lra.
Qed.

(** * Examples *)
(** A prediction of the nearest center exists. *)
Fixpoint argmin (l : list R) : nat :=
  match l with
  | [] => 0
  | [_] => 0
  | a :: t => if Rleb a (nth (argmin t) t 0) then 0 else S (argmin t)
  end.
Lemma argmin_spec l : l <> [] -> (argmin l < length l)%nat /\
  forall i, (i < length l)%nat -> nth (argmin l) l 0 <= nth i l 0.
Proof.
  induction l as [|a [|b t] IH]; intros H; [congruence| |].
  - simpl. split; [lia|]. intros [|i] Hi; [lra|lia].
  - destruct (IH ltac:(discriminate)) as [A B].
    change (argmin (a :: b :: t)) with
      (if Rleb a (nth (argmin (b :: t)) (b :: t) 0) then 0%nat else S (argmin (b :: t))).
    destruct (Rleb a (nth (argmin (b :: t)) (b :: t) 0)) eqn:E.
    + apply Rleb_true in E. split; [simpl; lia|]. intros [|i] Hi; [simpl; lra|].
      specialize (B i ltac:(simpl in *; lia)). change (nth 0 (a :: b :: t) 0) with a.
      change (nth (S i) (a :: b :: t) 0) with (nth i (b :: t) 0). lra.
    + apply Rleb_false in E. split; [simpl in *; lia|].
      change (nth (S (argmin (b :: t))) (a :: b :: t) 0) with (nth (argmin (b :: t)) (b :: t) 0).
      intros [|i] Hi; [simpl nth at 2; lra|]. apply B. simpl in *; lia.
Qed.
Example nearest_exists : exists predict, nearest predict.
Proof.
  exists (fun cs x => argmin (map (dist x) cs)). intros cs x H.
  destruct (argmin_spec (map (dist x) cs)) as [A B].
  - destruct cs; [congruence|discriminate].
  - rewrite map_length in A, B. split; auto. intros i Hi. specialize (B i Hi).
    rewrite !(nth_map_default (dist x) cs _ 0 []) in B by auto. exact B.
Qed.

Lemma dist2 a b x y : dist [a; b] [x; y] = sqrt ((a - x) * (a - x) + (b - y) * (b - y)).
Proof. unfold dist, norm, vsub. simpl. f_equal. ring. Qed.
Definition case_obs : kobs := mkKobs [[0; 0]; [2; 0]] (3 / 2) 0 true [1%nat].
Lemma case_dist : dist [2; 0] [0; 0] = 2.
Proof.
  rewrite dist2. replace ((2 - 0) * (2 - 0) + (0 - 0) * (0 - 0)) with (2 * 2) by ring.
  apply sqrt_square; lra.
Qed.
Lemma case_wf : kwf case_obs 2.
Proof.
  constructor; simpl; try lia; try lra.
  - intros [|[|j]] H; simpl in *; auto; lia.
  - intros [|[|j]] H1 H2; try lia. unfold k_center, cluster. cbn [nth case_obs k_centers k_index].
    rewrite case_dist. lra.
Qed.
Lemma axis_dist x y : dist [x; 0] [y; 0] = Rabs (x - y).
Proof.
  rewrite dist2. replace ((x - y) * (x - y) + (0 - 0) * (0 - 0)) with (Rsqr (x - y)) by (unfold Rsqr; ring).
  apply sqrt_Rsqr_abs.
Qed.
Lemma axis_direction x : 0 < x -> surface_direction (vsub [x; 0] [0; 0]) = [1; 0].
Proof.
  intros H. unfold surface_direction. change (norm (vsub [x; 0] [0; 0])) with (dist [x; 0] [0; 0]).
  rewrite axis_dist, Rabs_right by lra. destruct (Req_EM_T (x - 0) 0); [lra|].
  unfold vdiv, vscale, vsub. simpl. f_equal; [field; lra|]. f_equal. field. lra.
Qed.
Lemma case_region t : 0 <= t -> (region case_obs [t; 0] <-> t <= 1).
Proof.
  intros T. unfold region, k_center, cluster. cbn [nth case_obs k_centers k_index k_radius length].
  rewrite axis_dist, Rabs_right by lra. split.
  - intros [_ H]. specialize (H 1%nat ltac:(lia) ltac:(lia)). cbn [nth] in H.
    rewrite axis_dist in H. unfold Rabs in H. destruct (Rcase_abs (t - 2)); lra.
  - intros H. split; [lra|]. intros [|[|j]] H1 H2; try lia. cbn [nth]. rewrite axis_dist.
    rewrite Rabs_left by lra. lra.
Qed.
(** Two clusters at distance 2, radius 3/2: the surface towards the other one is the middle. *)
Example C48_case : kwf case_obs 2 /\ get_point_on_surface case_obs [1 / 2; 0] = Ok [1; 0].
Proof.
  split; [apply case_wf|].
  destruct (C48_surface_point_partial case_obs 2 [1 / 2; 0] case_wf eq_refl) as [b [s [F [U [L [B [P Rg]]]]]]].
  rewrite F. f_equal.
  change (k_center case_obs) with [0; 0] in *. rewrite axis_direction in * by lra.
  assert (Rg' : forall t, 0 <= t -> (t <= 1 <-> t <= s)).
  { intros t T. rewrite <- (case_region t T). specialize (Rg t T).
    replace (vadd [0; 0] (vscale t [1; 0])) with [t; 0] in Rg; auto. simpl. repeat f_equal; ring. }
  assert (s = 1).
  { apply Rle_antisym; [apply Rg'; lra|]. apply Rg'; lra. }
  subst b s. simpl. repeat f_equal; ring.
Qed.
(** Below the tolerance of the code (1e-9 of the radius) the separating plane is skipped. *)
Theorem C48_tolerance_refuted : exists o p b, 
  (forall j, (j < length (k_centers o))%nat -> length (cluster (k_centers o) j) = 2%nat) /\
  (k_index o < length (k_centers o))%nat /\ 0 < k_radius o /\ length p = 2%nat /\
  (forall j, (j < length (k_centers o))%nat -> j <> k_index o ->
     0 < dist (cluster (k_centers o) j) (k_center o)) /\
  get_point_on_surface o p = Ok b /\ ~ region o b.
Proof.
  set (e := 1 / 10 ^ 9). set (y := sqrt (1 - e * e)).
  assert (E : 0 < e < 1) by (unfold e; lra).
  assert (Y : y * y = 1 - e * e) by (apply sqrt_sqrt; nra).
  set (o := mkKobs [[0; 0]; [e; 0]] 1 0 true []).
  assert (D : dist [e; 0] [0; 0] = e) by (rewrite axis_dist, Rabs_right; lra).
  exists o, [e; y], [e; y].
  assert (N1 : norm (vsub [e; y] [0; 0]) = 1).
  { apply (unit_norm (vsub [e; y] [0; 0])). unfold unitv. simpl. nra. }
  assert (Rl : ind_relevant o = [1%nat]).
  { unfold ind_relevant. cbn [o k_centers length seq filter]. unfold relevant. cbn [k_index Nat.eqb negb andb].
    replace (Rltb (norm (vsub (k_center o) (cluster (k_centers o) 1))) (2 * k_radius o)) with true; auto.
    symmetry. apply Rltb_true. change (dist [0; 0] [e; 0] < 2 * 1). rewrite dist_sym, D. lra. }
  split. { intros [|[|j]] H; simpl in H; try lia; reflexivity. }
  split; [simpl; lia|]. split; [simpl; lra|]. split; [reflexivity|]. split.
  { intros [|[|j]] H1 H2; simpl in *; try lia. unfold cluster, k_center. cbn [nth].
    change (0 < dist [e; 0] [0; 0]). rewrite D. lra. }
  split.
  - unfold get_point_on_surface.
    assert (NN : kobs_nan o = false).
    { unfold kobs_nan. rewrite Rl. cbn [existsb]. rewrite orb_false_r. apply Reqb_false.
      change (dist [e; 0] [0; 0] <> 0). rewrite D. lra. }
    rewrite NN. change (k_center o) with [0; 0].
    assert (Dr : surface_direction (vsub [e; y] [0; 0]) = [e; y]).
    { unfold surface_direction. rewrite N1. destruct (Req_EM_T 1 0); [lra|].
      unfold vdiv, vscale, vsub. simpl. repeat f_equal; field. }
    rewrite Dr. unfold surface_loop. rewrite Rl. cbn [filter].
    assert (Kn : dot (knormal o 1) [e; y] = e).
    { unfold knormal. assert (In 1%nat (ind_relevant o)) by (rewrite Rl; left; auto).
      rewrite (relevant_true o 1 H). change (cluster (k_centers o) 1) with [e; 0].
      change (k_center o) with [0; 0]. change (norm (vsub [e; 0] [0; 0])) with (dist [e; 0] [0; 0]).
      rewrite D. unfold vdiv, vscale, vsub. simpl. field. lra. }
    rewrite Kn, Rabs_right by lra. unfold Rltb. fold e.
    destruct (Rlt_dec e e); [lra|]. cbn [fold_left snd].
    change (k_center o) with [0; 0]. change (k_radius o) with 1. f_equal. simpl. repeat f_equal; ring.
  - intros [_ H]. specialize (H 1%nat ltac:(simpl; lia) ltac:(simpl; lia)).
    change (cluster (k_centers o) 1) with [e; 0] in H. change (k_center o) with [0; 0] in H.
    unfold dist in H. rewrite norm_le_iff in H. simpl in H. nra.
Qed.
Example C57_case : is_inside case_obs [1 / 2; 0] = Ok true /\ region case_obs [1 / 2; 0] /\
  is_inside (mkKobs [[0; 0]] 1 0 true []) [1; 0] = Ok true.
Proof.
  assert (Rg : region case_obs [1 / 2; 0]) by (apply case_region; lra).
  split; [|split; auto].
  - destruct (C57_is_inside_partial case_obs 2 [1 / 2; 0] case_wf eq_refl eq_refl) as [b [F H]].
    rewrite (proj2 C48_case) in F. inversion F; subst b.
    destruct H as [x [E Q]].
    + change (k_center case_obs) with [0; 0]. rewrite !axis_dist, !Rabs_right; lra.
    + rewrite E. f_equal. apply Q. auto.
  - assert (W : kwf (mkKobs [[0; 0]] 1 0 true []) 2).
    { constructor; simpl; try lia; try lra. intros [|j] H; simpl in *; auto; lia. }
    apply (C57_surface_refuted _ 2 [1; 0] [1; 0] W eq_refl); auto.
    destruct (C48_surface_point_partial _ 2 [1; 0] W eq_refl) as [b [s [F [U [L [B [P Rg']]]]]]].
    rewrite F. f_equal. change (k_center (mkKobs [[0; 0]] 1 0 true [])) with [0; 0] in *.
    rewrite axis_direction in * by lra.
    assert (Rg2 : forall t, 0 <= t -> (t <= 1 <-> t <= s)).
    { intros t T. rewrite <- (Rg' t T).
      replace (vadd [0; 0] (vscale t [1; 0])) with [t; 0] by (simpl; repeat f_equal; ring).
      unfold region. change (k_center (mkKobs [[0; 0]] 1 0 true [])) with [0; 0].
      rewrite axis_dist, Rabs_right by lra. simpl. split.
      - intros H. split; [lra|]. intros j H1 H2. lia.
      - intros [H _]. lra. }
    assert (s = 1) by (apply Rle_antisym; apply Rg2; lra).
    subst b s. simpl. repeat f_equal; ring.
Qed.
(** On the common face the value is infinite, at the half way to it at least 2. *)
Example C58_case : get_gamma case_obs [1; 0] (Some 1%Z) = Ok GMax /\
  (get_gamma case_obs [1 / 2; 0] (Some 1%Z) = Ok GMax \/
   exists g, get_gamma case_obs [1 / 2; 0] (Some 1%Z) = Ok (GVal g) /\ 2 <= g).
Proof.
  assert (F1 : get_point_on_surface case_obs [1; 0] = Ok [1; 0]).
  { rewrite <- (proj2 C48_case). unfold get_point_on_surface. do 3 f_equal.
    change (k_center case_obs) with [0; 0]. rewrite !axis_direction by lra. reflexivity. }
  split.
  - destruct (C58_transparent_face case_obs 2 [1; 0] 1 [1; 0] case_wf eq_refl eq_refl
                ltac:(simpl; lia) F1) as [_ H].
    apply H; auto.
    + unfold relevant. apply andb_true_iff. split; auto. apply Rltb_true.
      change (dist [0; 0] [2; 0] < 2 * (3 / 2)). rewrite dist_sym, case_dist. lra.
    + change (dist [1; 0] [0; 0] = dist [1; 0] [2; 0]).
      rewrite !axis_dist, Rabs_right, Rabs_left by lra. ring.
  - destruct (C58_transparent_face case_obs 2 [1 / 2; 0] 1 [1; 0] case_wf eq_refl eq_refl
                ltac:(simpl; lia) (proj2 C48_case)) as [H _].
    change (k_center case_obs) with [0; 0] in H. rewrite !axis_dist, !Rabs_right in H by lra.
    destruct H as [H|[g [G1 G2]]]; auto; try lra. right. exists g. split; auto. lra.
Qed.
Example C59_case :
  let o := mkKobs [[0; 0]; [2; 0]] (3 / 2) 0 false [] in
  kwf o 2 /\ get_gamma o [1 / 2; 0] None = Ok GNone /\ is_inside o [1 / 2; 0] = Err EType.
Proof.
  intros o. assert (W : kwf o 2).
  { destruct case_wf. constructor; auto. }
  split; auto.
  assert (F : get_point_on_surface o [1 / 2; 0] = Ok [1; 0]) by exact (proj2 C48_case).
  destruct (C59_obstacle_gamma_refuted o 2 [1 / 2; 0] [1; 0] W eq_refl eq_refl eq_refl F) as [A B].
  - change (dist [1 / 2; 0] [0; 0] <> 0). rewrite axis_dist, Rabs_right; lra.
  - change (dist [1 / 2; 0] [0; 0] <> dist [1; 0] [0; 0]). rewrite !axis_dist, !Rabs_right; lra.
  - auto.
Qed.
(** A quarter of the way to the own center: half of the weight is on the parent. *)
Example C49_case :
  predict_sequence_weights [[0]; [2]] [0%nat] (fun _ => Ok GMax) [5 / 4] 1 (1 / 2) 2 = Ok [1 / 2; 1 / 2].
Proof.
  destruct (C49_sequence_weights [[0]; [2]] 1 0 (fun _ => Ok GMax) [5 / 4] (1 / 2) 2 1 GMax)
    as [w [E [L [S [_ [W0 [W1 _]]]]]]]; auto; try (simpl; lia); try lra; try discriminate.
  - intros [|[|j]] H; simpl in *; auto; lia.
  - intros H. inversion H. lra.
  - rewrite E. f_equal.
    assert (N2 : norm (vsub [2] [0]) = 2).
    { change (dist [2] [0] = 2). rewrite dist1, Rabs_right; lra. }
    assert (X : nth 0 w 0 = 1 / 2).
    { rewrite W0. unfold cluster. cbn [nth gamma_factor]. rewrite N2, dist1, (Rabs_right (2 - 0)) by lra.
      match goal with |- context [dot ?a ?b] => assert (Q : dot a b = 1 / 4) by (simpl; field); rewrite Q end.
      rewrite (Rmax_left (1 / 4) 0) by lra. rewrite Rmax_left by lra. field. }
    rewrite <- W0 in W1. rewrite X in W1.
    destruct w as [|a [|b [|c w]]]; simpl in L; try discriminate. simpl in X, W1. f_equal; auto.
    f_equal. lra.
Qed.
Example C50_case :
  exists g, fit_hierarchy [[0]; [2]; [5]] [7] [2%nat; 1%nat; 0%nat] = Ok g /\
  successors g 0 = [1%nat] /\ successors g 1 = [2%nat] /\ successors g 2 = [] /\
  predecessors g 0 = [] /\ reaches g 2 0.
Proof.
  destruct (C50_chain [[0]; [2]; [5]] [7] [2%nat; 1%nat; 0%nat] 2%nat [1%nat; 0%nat] INR)
    as [g [E [A [B [C [_ D]]]]]]; auto.
  - simpl. apply Permutation_sym. apply (Permutation_rev [0%nat; 1%nat; 2%nat]).
  - intros i a b H1 H2. destruct i as [|[|[|i]]]; simpl in H1, H2; inversion H1; inversion H2; subst;
      simpl; lra.
  - change (dist [5] [7] <> 0). rewrite dist1, Rabs_left; lra.
  - repeat split.
    + change (dist [2] [5] <> 0). rewrite dist1, Rabs_left; lra.
    + change (dist [0] [2] <> 0). rewrite dist1, Rabs_left; lra.
  - exists g. split; auto. split; [apply (C 1%nat 1%nat 0%nat); auto|].
    split; [apply (C 0%nat 2%nat 1%nat); auto|]. split; auto. split; [exact B|].
    apply D. simpl. lia.
Qed.
(** Ten points at 0, one at 5 and ten at 9, a threshold of 7/5: the middle cluster is removed and
    the points at 9 keep their center under the new label. *)
Example C51_case predict : nearest predict ->
  exists s, remove_sparse predict (repeat [0] 10 ++ [[5]] ++ repeat [9] 10) [[0]; [5]; [9]]
    (repeat 0%nat 10 ++ [1%nat] ++ repeat 2%nat 10) (1 / 5) = Ok s /\
  ks_centers s = [[0]; [9]] /\ nth_error (ks_labels s) 15 = Some 1%nat.
Proof.
  intros Pr.
  assert (P1 : predict [[0]; [9]] [5] = 1%nat).
  { destruct (Pr [[0]; [9]] [5]) as [A B]; [discriminate|]. simpl in A.
    specialize (B 1%nat ltac:(simpl; lia)). unfold cluster in B. cbn [nth] in B.
    destruct (predict [[0]; [9]] [5]) as [|[|k]]; try lia; auto. exfalso.
    cbn [nth] in B; rewrite !dist1 in B; rewrite (Rabs_left1 (5 - 9)) in B by lra.
    rewrite (Rabs_right (5 - 0)) in B by lra. lra. }
  exists (mkK 2 [[0]; [9]] 1 (repeat 0%nat 10 ++ [1%nat] ++ repeat 1%nat 10)). split.
  - unfold remove_sparse. cbn [length seq sparse_loop app repeat].
    assert (Mn : 1 / 5 * INR 21 / INR 3 = 7 / 5).
    { rewrite !INR_lit. simpl. field. }
    rewrite Mn.
    unfold sparse_step at 1. cbn [ks_labels ks_delta ks_centers ks_n filter Nat.eqb length].
    rewrite (proj2 (Rltb_false (INR 10) (7 / 5))) by (rewrite INR_lit; simpl; lra). cbn [bind].
    unfold sparse_step at 1. cbn [ks_labels ks_delta ks_centers ks_n filter Nat.eqb length].
    rewrite (proj2 (Rltb_true (INR 1) (7 / 5))) by (simpl; lra). cbn [bind].
    change (delete_nth (1 - 0) [[0]; [5]; [9]]) with [[0]; [9]].
    unfold relabel. cbn [combine map fst snd Nat.eqb]. rewrite P1.
    unfold sparse_step at 1. cbn [ks_labels ks_delta ks_centers ks_n filter Nat.eqb length].
    rewrite (proj2 (Rltb_false (INR 10) (7 / 5))) by (rewrite INR_lit; simpl; lra). cbn [bind].
    reflexivity.
  - split; reflexivity.
Qed.
Print Assumptions C48_surface_point_partial.
Print Assumptions C48_local_frame.
Print Assumptions C57_is_inside_partial.
Print Assumptions C57_surface_refuted.
Print Assumptions C58_transparent_face.
Print Assumptions C59_obstacle_gamma_refuted.
Print Assumptions C49_sequence_weights.
Print Assumptions C49_no_parent.
Print Assumptions C49_handover.
Print Assumptions C50_chain.
Print Assumptions C50_coincident.
Print Assumptions C51_kept_points.
Print Assumptions C51_labels_in_range_partial.
Print Assumptions C51_out_of_range_refuted.
Print Assumptions C51_wrong_center_refuted.
Print Assumptions C48_tolerance_refuted.
