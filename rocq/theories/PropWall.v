(** Properties C154 and C155: intersection points of obstacles and of a chain of walls. *)
Require Import Reals List Bool Arith ZArith Lra Lia Psatz.
From Verif Require Import Base Vec RotProofs Spec FieldModel GmmModel PropGmm RotModel ContainerModel WallModel.
Import ListNotations.
Open Scope R_scope.

(** * Specification *)
(** A point of the polygon with the given corners. *)
Definition in_hull (ring : list vec) (x : vec) : Prop :=
  exists ws, length ws = length ring /\ Forall (fun w => 0 <= w) ws /\ rsum ws = 1 /\ x = weighted_columns 2 ws ring.
(** The half axes of an obstacle including its margin, and its points: in the frame of the obstacle,
    scaled with the half axes, they are in the unit circle. *)
Definition half_axis (o : wall) (k : nat) : R :=
  match w_kind o with KAxes => nth k (w_axes o) 0 / 2 | _ => nth k (w_axes o) 0 end + w_margin o.
Definition scaled_frame (o : wall) (center x : vec) : vec :=
  let dx := nth 0 x 0 - nth 0 center 0 in
  let dy := nth 1 x 0 - nth 1 center 0 in
  [(cos (w_angle o) * dx + sin (w_angle o) * dy) / half_axis o 0;
   (- sin (w_angle o) * dx + cos (w_angle o) * dy) / half_axis o 1].
Definition inside (o : wall) (x : vec) : Prop := norm (scaled_frame o (w_center o) x) <= 1.
Definition ellipse (o : wall) : Prop :=
  w_kind o <> KOther /\ w_dim o = 2%nat /\ length (w_axes o) = 2%nat /\ length (w_center o) = 2%nat /\ 0 < half_axis o 0 /\ 0 < half_axis o 1.

Section Contract.
Variable circle : list vec.
Variable intersect : list vec -> list vec -> option (list vec).
(** The corners of the drawn circle are on the circle; the corners of an intersection are
    points of both polygons. *)
Definition round : Prop := forall p, In p circle -> exists x y, p = [x; y] /\ x * x + y * y = 1.
Definition common : Prop := forall s1 s2 l p, intersect s1 s2 = Some l -> In p l -> in_hull s1 p /\ in_hull s2 p.
Hypothesis R1 : round.
Hypothesis C1 : common.
Notation get_intersection := (get_intersection_of_obstacles circle intersect).

Lemma vec2 (p : vec) : length p = 2%nat -> exists x y, p = [x; y].
Proof. destruct p as [|x [|y [|]]]; try discriminate. eauto. Qed.
Lemma weighted_len2 ws cs : Forall (fun c => length c = 2%nat) cs -> length (weighted_columns 2 ws cs) = 2%nat.
Proof. apply weighted_columns_len. Qed.
Lemma weighted_nth ws : forall cs k, Forall (fun c => length c = 2%nat) cs -> (k < 2)%nat ->
  nth k (weighted_columns 2 ws cs) 0 = rsum (map (fun wc => fst wc * nth k (snd wc) 0) (combine ws cs)).
Proof.
  unfold weighted_columns, rsum. induction ws as [|w ws IH]; intros [|c cs] k F Hk; cbn [combine fold_right map]; try (rewrite nth_vzero; auto; fail).
  assert (Lc : length c = 2%nat) by (inversion F; auto). assert (F' : Forall (fun c => length c = 2%nat) cs) by (inversion F; auto).
  cbn [fst snd]. rewrite <- (IH cs k F' Hk). 
  assert (L : length (fold_right (fun wc acc => vadd (vscale (fst wc) (snd wc)) acc) (vzero 2) (combine ws cs)) = 2%nat) by (apply weighted_len2; auto).
  rewrite nth_vadd. rewrite nth_vscale. auto.
Qed.
(** The scaled frame is affine. *)
Lemma frame_affine o c ws cs : Forall (fun c => length c = 2%nat) cs -> length ws = length cs -> rsum ws = 1 -> half_axis o 0 <> 0 -> half_axis o 1 <> 0 ->
  scaled_frame o c (weighted_columns 2 ws cs) = weighted_columns 2 ws (map (scaled_frame o c) cs).
Proof.
  intros F L S H0 H1. assert (F' : Forall (fun c => length c = 2%nat) (map (scaled_frame o c) cs)) by (apply Forall_forall; intros p Hp; apply in_map_iff in Hp as (q & <- & _); auto).
  destruct (vec2 _ (weighted_len2 ws _ F')) as (x & y & E).
  assert (E0 : x = nth 0 (weighted_columns 2 ws (map (scaled_frame o c) cs)) 0) by (rewrite E; auto).
  assert (E1 : y = nth 1 (weighted_columns 2 ws (map (scaled_frame o c) cs)) 0) by (rewrite E; auto).
  rewrite E. unfold scaled_frame at 1. rewrite E0, E1. rewrite !weighted_nth by auto.
  assert (G : forall a b k, rsum (map (fun wc => fst wc * nth 0 (snd wc) 0) (combine ws cs)) * a + rsum (map (fun wc => fst wc * nth 1 (snd wc) 0) (combine ws cs)) * b + k * rsum ws =
    rsum (map (fun wc => fst wc * (nth 0 (snd wc) 0 * a + nth 1 (snd wc) 0 * b + k)) (combine ws cs))).
  { clear -L. intros a b k. unfold rsum. revert cs L. induction ws as [|w ws IH]; intros [|c cs] L; try discriminate; cbn [combine map fold_right fst snd]; [ring|].
    rewrite <- (IH cs) by (cbn in L; lia). ring. }
  assert (M : forall (f : vec -> R) k, (forall p, nth k (scaled_frame o c p) 0 = f p) ->
    rsum (map (fun wc => fst wc * nth k (snd wc) 0) (combine ws (map (scaled_frame o c) cs))) = rsum (map (fun wc => fst wc * f (snd wc)) (combine ws cs))).
  { clear. intros f k H. unfold rsum. revert cs. induction ws as [|w ws IH]; intros [|p cs]; auto. cbn [combine map fold_right fst snd]. rewrite IH, H. auto. }
  f_equal; [|f_equal].
  - rewrite (M (fun p => nth 0 p 0 * (cos (w_angle o) / half_axis o 0) + nth 1 p 0 * (sin (w_angle o) / half_axis o 0)
        + - (cos (w_angle o) * nth 0 c 0 + sin (w_angle o) * nth 1 c 0) / half_axis o 0)).
    2: { intros p. unfold scaled_frame. cbn [nth]. field. auto. }
    rewrite <- G, S. field. auto.
  - rewrite (M (fun p => nth 0 p 0 * (- sin (w_angle o) / half_axis o 1) + nth 1 p 0 * (cos (w_angle o) / half_axis o 1)
        + - (- sin (w_angle o) * nth 0 c 0 + cos (w_angle o) * nth 1 c 0) / half_axis o 1)).
    2: { intros p. unfold scaled_frame. cbn [nth]. field. auto. }
    rewrite <- G, S. field. auto.
Qed.
Lemma frame_hull o c ws cs : Forall (fun p => length p = 2%nat /\ norm (scaled_frame o c p) <= 1) cs -> length ws = length cs ->
  Forall (fun w => 0 <= w) ws -> rsum ws = 1 -> half_axis o 0 <> 0 -> half_axis o 1 <> 0 ->
  norm (scaled_frame o c (weighted_columns 2 ws cs)) <= 1.
Proof.
  intros F L W S H0 H1. rewrite frame_affine; auto.
  2: { eapply Forall_impl; [|exact F]. cbn. tauto. }
  eapply Rle_trans; [apply (weighted_columns_norm _ _ _ 1); auto; try lra|rewrite S; lra].
  apply Forall_forall. intros p Hp. apply in_map_iff in Hp as (q & <- & Hq). rewrite Forall_forall in F. apply F; auto.
Qed.
Lemma mean_weights (l : list vec) : l <> [] -> Forall (fun p => length p = 2%nat) l ->
  ring_mean l = weighted_columns 2 (repeat (/ INR (length l)) (length l)) l /\ rsum (repeat (/ INR (length l)) (length l)) = 1.
Proof.
  intros NE F. assert (P : 0 < INR (length l)) by (apply lt_0_INR; destruct l; [congruence|cbn; lia]). split.
  - unfold ring_mean. assert (G : forall k m, Forall (fun p => length p = 2%nat) m -> vscale k (fold_right vadd (vzero 2) m) = weighted_columns 2 (repeat k (length m)) m).
    { clear. intros k m F. unfold weighted_columns. induction F as [|p m Lp F IH]; cbn [length repeat combine fold_right fst snd].
      - vext. rewrite ?nth_vzero. ring.
      - rewrite <- IH. assert (L : length (fold_right vadd (vzero 2) m) = 2%nat).
        { clear -F. induction F; cbn [fold_right]; [apply length_vzero|]. rewrite length_vadd. lia. }
        vext. ring. }
    unfold vdiv. apply G; auto.
  - assert (G : forall n x, rsum (repeat x n) = INR n * x).
    { unfold rsum. induction n; intros x; [cbn; ring|]. rewrite S_INR. cbn [repeat fold_right]. rewrite IHn. ring. }
    rewrite G. field. lra.
Qed.
Lemma mean_inside o c l : l <> [] -> Forall (fun p => length p = 2%nat /\ norm (scaled_frame o c p) <= 1) l -> half_axis o 0 <> 0 -> half_axis o 1 <> 0 ->
  norm (scaled_frame o c (ring_mean l)) <= 1.
Proof.
  intros NE F H0 H1. destruct (mean_weights l NE) as (E & S). { eapply Forall_impl; [|exact F]. cbn. tauto. }
  rewrite E. apply frame_hull; auto.
  - rewrite repeat_length. auto.
  - apply Forall_forall. intros x Hx. apply repeat_spec in Hx as ->. left. apply Rinv_0_lt_compat. apply lt_0_INR. destruct l; [congruence|cbn; lia].
Qed.
(** The corners of a drawn ellipse are on it. *)
Lemma corner_on o c p : In p circle -> half_axis o 0 <> 0 -> half_axis o 1 <> 0 ->
  let q := translate2 c (rotate2 (w_angle o) (scale2 (half_axis o 0) (half_axis o 1) p)) in
  length q = 2%nat /\ norm (scaled_frame o c q) = 1.
Proof.
  intros Hp H0 H1 q. split; auto. destruct (R1 p Hp) as (x & y & -> & E).
  assert (SF : scaled_frame o c q = [x; y]).
  { unfold q, scaled_frame, translate2, rotate2, scale2. cbn [nth]. set (a := half_axis o 0) in *. set (b := half_axis o 1) in *.
    pose proof (sin2_cos2 (w_angle o)) as SC. unfold Rsqr in SC. set (s := sin (w_angle o)) in *. set (k := cos (w_angle o)) in *.
    f_equal; [|f_equal].
    - replace ((k * _ + s * _) / a) with ((s * s + k * k) * x) by (field; auto). rewrite SC. ring.
    - replace ((- s * _ + k * _) / b) with ((s * s + k * k) * y) by (field; auto). rewrite SC. ring. }
  rewrite SF. apply unit_norm. unfold unitv. cbn. lra.
Qed.
Lemma drawn_hull o s p : ellipse o -> create_shapely circle o = Ok s -> in_hull s p -> length p = 2%nat /\ inside o p.
Proof.
  intros (K & D & LA & _ & P0 & P1) E (ws & L & W & S & ->). unfold create_shapely in E. rewrite D in E. cbn [Nat.eqb negb] in E.
  assert (A : exists a, drawn_axes o = Some a /\ nth 0 a 0 = half_axis o 0 /\ nth 1 a 0 = half_axis o 1).
  { unfold drawn_axes, half_axis. destruct (vec2 _ LA) as (x & y & ->). destruct (w_kind o); [| |congruence]; (eexists; split; [reflexivity|]; cbn [map nth]; split; lra). }
  destruct A as (a & Ea & A0 & A1). rewrite Ea, A0, A1 in E. injection E as E. rewrite <- E in *.
  assert (F : Forall (fun q => length q = 2%nat /\ norm (scaled_frame o (w_center o) q) <= 1)
    (map (fun p => translate2 (w_center o) (rotate2 (w_angle o) (scale2 (half_axis o 0) (half_axis o 1) p))) circle)).
  { apply Forall_forall. intros q Hq. apply in_map_iff in Hq as (r & <- & Hr). destruct (corner_on o (w_center o) r Hr) as (Q1 & Q2); try lra.
    split; [apply Q1|]. rewrite Q2. lra. }
  split; [apply weighted_len2; eapply Forall_impl; [|exact F]; cbn; tauto|].
  apply frame_hull; auto; lra.
Qed.

(** ** C154 *)
(** The intersection point of two ellipses lies in both, with their margins; there is none if
    their drawings have no common point. *)
Theorem C154_in_both : forall o1 o2, ellipse o1 -> ellipse o2 ->
  (exists p, get_intersection o1 o2 = Ok (Some p) /\ length p = 2%nat /\ inside o1 p /\ inside o2 p) \/
  exists s1 s2, create_shapely circle o1 = Ok s1 /\ create_shapely circle o2 = Ok s2 /\
    (intersect s1 s2 = Some [] /\ get_intersection o1 o2 = Ok None \/
     intersect s1 s2 = None /\ get_intersection o1 o2 = Err EAttr).
Proof.
  intros o1 o2 E1 E2.
  assert (D : forall o, ellipse o -> exists s, create_shapely circle o = Ok s).
  { intros o (K & Dm & _). unfold create_shapely, drawn_axes. rewrite Dm. cbn [Nat.eqb negb]. destruct (w_kind o); try congruence; eauto. }
  destruct (D o1 E1) as (s1 & S1). destruct (D o2 E2) as (s2 & S2). unfold get_intersection_of_obstacles.
  replace (match w_kind o1 with KOther => false | _ => true end) with true by (destruct E1 as (K & _); destruct (w_kind o1); congruence).
  rewrite S1, S2. cbn [bind]. destruct (intersect s1 s2) as [[|p0 l]|] eqn:EI.
  - right. exists s1, s2. rewrite EI. auto.
  - left. set (l' := p0 :: l) in *. exists (ring_mean l'). split; auto.
    assert (H : forall p, In p l' -> (length p = 2%nat /\ inside o1 p) /\ length p = 2%nat /\ inside o2 p).
    { intros p Hp. destruct (C1 _ _ _ _ EI Hp) as (A & B). split; [apply (drawn_hull o1 s1); auto|apply (drawn_hull o2 s2); auto]. }
    destruct (mean_weights l') as (EM & _); [discriminate|apply Forall_forall; intros p Hp; apply H; auto|].
    destruct E1 as (_ & _ & _ & _ & P1 & P2). destruct E2 as (_ & _ & _ & _ & P3 & P4). split.
    + rewrite EM. apply weighted_len2. apply Forall_forall. intros p Hp. apply H; auto.
    + split; apply mean_inside; try lra; try discriminate; apply Forall_forall; intros p Hp; apply H; auto.
  - right. exists s1, s2. rewrite EI. auto.
Qed.
(** The kind of the second obstacle is not tested: with an ellipse and a polygon it depends on
    the order whether there is a result. *)
Theorem C154_order_refuted : forall e o p l, ellipse e -> w_kind o = KOther ->
  intersect (w_shape o) (w_shape e) = Some (p :: l) ->
  get_intersection e o = Err ENotImpl /\ get_intersection o e = Ok (Some (ring_mean (p :: l))).
Proof.
  intros e o p l E K EI. unfold get_intersection_of_obstacles. split.
  - destruct E as (Ke & De & _). replace (match w_kind e with KOther => false | _ => true end) with true by (destruct (w_kind e); congruence).
    unfold create_shapely at 1. rewrite De. cbn [Nat.eqb negb]. destruct (drawn_axes e) as [a|] eqn:Ea; [|auto]. cbn [bind].
    unfold create_shapely, drawn_axes. rewrite K. destruct (negb _); auto.
  - rewrite K. cbn [bind]. rewrite EI. auto.
Qed.
(** The ring of a polygon ends with its first corner, which counts twice: for a polygon with the corners
    p, -p, q, -q, ... the point is not the center but lies towards the first corner. *)
Theorem C154_center_refuted : forall p rest, length p = 2%nat -> Forall (fun q => length q = 2%nat) rest ->
  let half := p :: rest in
  let ring := half ++ map (vscale (-1)) half ++ [p] in
  ring_mean ring = vscale (/ INR (length ring)) p.
Proof.
  intros p rest Lp F half ring. unfold ring_mean, vdiv. f_equal. unfold ring.
  assert (G : forall m t, Forall (fun q => length q = 2%nat) m -> length t = 2%nat ->
     fold_right vadd t m = vadd (fold_right vadd (vzero 2) m) t /\ length (fold_right vadd (vzero 2) m) = 2%nat).
  { clear. intros m t F Lt. induction F as [|q m Lq F (IH1 & IH2)]; cbn [fold_right].
    - split; [|apply length_vzero]. vext. rewrite ?nth_vzero. ring.
    - split; [|rewrite length_vadd; lia]. rewrite IH1. vext. ring. }
  assert (FH : Forall (fun q => length q = 2%nat) half) by (constructor; auto).
  assert (FM : Forall (fun q => length q = 2%nat) (map (vscale (-1)) half)).
  { apply Forall_forall. intros q Hq. apply in_map_iff in Hq as (r & <- & Hr). rewrite length_vscale. rewrite Forall_forall in FH. auto. }
  assert (LT : length (fold_right vadd (vzero 2) [p]) = 2%nat) by (cbn [fold_right]; rewrite length_vadd, length_vzero; lia).
  rewrite !fold_right_app. destruct (G _ _ FM LT) as (G1 & G2). rewrite G1.
  assert (L2 : length (vadd (fold_right vadd (vzero 2) (map (vscale (-1)) half)) (fold_right vadd (vzero 2) [p])) = 2%nat) by (rewrite length_vadd; lia).
  destruct (G _ _ FH L2) as (G3 & G4). rewrite G3.
  assert (N : fold_right vadd (vzero 2) (map (vscale (-1)) half) = vscale (-1) (fold_right vadd (vzero 2) half)).
  { clear -FH. induction FH as [|q m Lq F IH]; cbn [map fold_right]; [vext; rewrite ?nth_vzero; ring|]. rewrite IH.
    assert (L : length (fold_right vadd (vzero 2) m) = 2%nat) by (clear -F; induction F; cbn [fold_right]; [apply length_vzero|rewrite length_vadd; lia]).
    vext. ring. }
  rewrite N. cbn [fold_right]. vext. rewrite ?nth_vzero. ring.
Qed.

(** ** C155 *)
Variable surface : wall -> vec -> res vec.
Notation update_graph := (update_intersection_graph circle intersect).
Notation boundary_point := (get_convergence_boundary_point surface).
(** A container whose parents have smaller indices (as after the appends of C40). *)
Definition chained (c : walls) : Prop :=
  length (ws_parent c) = length (ws_list c) /\ length (ws_points c) = length (ws_list c) /\
  forall i, (i < length (ws_list c))%nat -> (nth i (ws_parent c) (-1) < Z.of_nat i)%Z.
Lemma update_length {A} (l : list A) k x : length (update l k x) = length l.
Proof. revert k. induction l; intros [|k]; cbn; auto. Qed.
Lemma update_points_spec c : forall n k points, length points = (k + n)%nat ->
  (forall i, (i < k + n)%nat -> exists e, new_point circle intersect c i = Ok e) ->
  exists ps, update_points circle intersect c (seq k n) points = (ps, Ok tt) /\ length ps = length points /\
    forall i, (i < k + n)%nat -> if Nat.ltb i k then nth_error ps i = nth_error points i
      else exists e, new_point circle intersect c i = Ok e /\ nth_error ps i = Some e.
Proof.
  induction n as [|n IH]; intros k points L H.
  - exists points. cbn [seq update_points]. split; auto. split; auto. intros i Hi. destruct (Nat.ltb_spec i k); [auto|lia].
  - cbn [seq update_points]. destruct (H k ltac:(lia)) as (e & E). rewrite E.
    destruct (IH (S k) (update points k e)) as (ps & EP & LP & HP).
    + rewrite update_length. lia.
    + intros i Hi. apply H. lia.
    + exists ps. split; auto. split; [rewrite LP, update_length; auto|]. intros i Hi. specialize (HP i ltac:(lia)).
      assert (UN : forall (l : list entry) j x m, (j < length l)%nat -> nth_error (update l j x) m = if Nat.eqb m j then Some x else nth_error l m).
      { clear. induction l as [|a l IH]; intros j x m Hj; [cbn in Hj; lia|]. destruct j, m; cbn; auto. apply IH. cbn in Hj. lia. }
      rewrite UN in HP by lia. destruct (Nat.ltb_spec i (S k)) as [A|A], (Nat.ltb_spec i k) as [B|B]; try lia.
      * rewrite (proj2 (Nat.eqb_neq i k)) in HP by lia. auto.
      * assert (i = k) by lia. subst i. rewrite Nat.eqb_refl in HP. eauto.
      * auto.
Qed.
(** After an update a wall without parent has no point; for polygons which are placed by the library
    the point of a wall lies in the hull of its shape and of the shape of its parent. *)
Theorem C155_points : forall c, chained c -> (forall o, In o (ws_list c) -> w_kind o = KOther) ->
  (forall s1 s2, exists p l, intersect s1 s2 = Some (p :: l)) ->
  (forall o q, In o (ws_list c) -> In q (w_shape o) -> length q = 2%nat) ->
  exists c', update_graph c = (c', Ok tt) /\ ws_list c' = ws_list c /\ ws_parent c' = ws_parent c /\
    forall i o, nth_error (ws_list c) i = Some o ->
    let parent := nth i (ws_parent c) (-1)%Z in
    if Z.ltb parent 0 then get_parent_intersection c' i = Ok PNone
    else exists q p, nth_error (ws_list c) (Z.to_nat parent) = Some q /\ get_parent_intersection c' i = Ok (PAt p) /\
      in_hull (w_shape o) p /\ in_hull (w_shape q) p.
Proof.
  intros c (LPa & LPo & CH) KO IX LS.
  assert (MH : forall s l, (forall q, In q s -> length q = 2%nat) -> l <> [] -> (forall p, In p l -> in_hull s p) -> in_hull s (ring_mean l)).
  { intros s l Ls NE H. assert (Fs : Forall (fun q => length q = 2%nat) s) by (apply Forall_forall; auto).
    assert (Fl : Forall (fun p => length p = 2%nat) l).
    { apply Forall_forall. intros p Hp. destruct (H p Hp) as (ws & _ & _ & _ & ->). apply weighted_len2; auto. }
    assert (G : forall k m, 0 <= k -> (forall p, In p m -> in_hull s p) -> exists ws, length ws = length s /\ Forall (fun w => 0 <= w) ws /\
        rsum ws = INR (length m) * k /\ weighted_columns 2 (repeat k (length m)) m = weighted_columns 2 ws s).
    { clear -Fs. intros k m Hk. induction m as [|p m IH]; intros H.
      - exists (repeat 0 (length s)). split; [apply repeat_length|]. split; [apply Forall_forall; intros x Hx; apply repeat_spec in Hx; lra|].
        split; [cbn; rewrite Rmult_0_l; clear; unfold rsum; induction (length s); cbn; lra|]. cbn [length repeat].
        unfold weighted_columns. cbn [combine fold_right]. clear H. induction Fs as [|q s' Lq F' IHs]; cbn [length repeat combine fold_right fst snd]; auto.
        rewrite <- IHs. vext. rewrite ?nth_vzero. ring.
      - destruct IH as (ws & Lw & Ww & Sw & Ew); [intros; apply H; right; auto|]. destruct (H p (or_introl eq_refl)) as (vs & Lv & Wv & Sv & Ev).
        exists (map (fun ab => k * fst ab + snd ab) (combine vs ws)).
        assert (Lc : length vs = length ws) by lia.
        split; [rewrite map_length, combine_length; lia|]. split.
        { apply Forall_forall. intros x Hx. apply in_map_iff in Hx as ((a & b) & <- & Hab). cbn [fst snd]. rewrite Forall_forall in Ww, Wv.
          pose proof (Wv a (in_combine_l _ _ _ _ Hab)). pose proof (Ww b (in_combine_r _ _ _ _ Hab)).
          assert (0 <= k * a) by (apply Rmult_le_pos; auto). lra. }
        split.
        { assert (Q : rsum (map (fun ab => k * fst ab + snd ab) (combine vs ws)) = k * rsum vs + rsum ws).
          { clear -Lc. unfold rsum. revert ws Lc. induction vs as [|a vs IH]; intros [|b ws] L; try discriminate; cbn [combine map fold_right fst snd]; [ring|].
            rewrite IH by (cbn in L; lia). ring. }
          rewrite Q, Sv, Sw. cbn [length]. rewrite S_INR. ring. }
        cbn [length repeat]. unfold weighted_columns at 1. cbn [combine fold_right fst snd].
        change (fold_right (fun wc acc => vadd (vscale (fst wc) (snd wc)) acc) (vzero 2) (combine (repeat k (length m)) m)) with (weighted_columns 2 (repeat k (length m)) m).
        rewrite Ew, Ev. clear -Fs Lc Lv. unfold weighted_columns. revert vs ws Lc Lv.
        induction Fs as [|q s' Lq F' IH]; intros [|a vs] [|b ws] L1 L2; try discriminate; cbn [combine map fold_right fst snd].
        + vext. rewrite ?nth_vzero. ring.
        + rewrite <- IH by (cbn in *; lia).
          assert (A : forall w, length (fold_right (fun wc acc => vadd (vscale (fst wc) (snd wc)) acc) (vzero 2) (combine w s')) = 2%nat) by (intros w; apply weighted_len2; auto).
          pose proof (A vs). pose proof (A ws). vext. ring. }
    destruct (mean_weights l NE Fl) as (EM & SM). assert (Pn : 0 < INR (length l)) by (apply lt_0_INR; destruct l; [congruence|cbn; lia]).
    destruct (G (/ INR (length l)) l ltac:(left; apply Rinv_0_lt_compat; auto) H) as (ws & Lw & Ww & Sw & Ew).
    exists ws. repeat split; auto; [rewrite Sw; field; lra|rewrite EM; auto]. }
  assert (WP : forall i o, nth_error (ws_list c) i = Some o ->
    if Z.ltb (nth i (ws_parent c) (-1)%Z) 0 then new_point circle intersect c i = Ok PNone
    else exists q p, nth_error (ws_list c) (Z.to_nat (nth i (ws_parent c) (-1)%Z)) = Some q /\ new_point circle intersect c i = Ok (PAt p) /\
      in_hull (w_shape o) p /\ in_hull (w_shape q) p).
  { intros i o Ho. unfold new_point. assert (Hi : (i < length (ws_list c))%nat) by (apply nth_error_Some; congruence). specialize (CH i Hi).
    destruct (Z.ltb_spec (nth i (ws_parent c) (-1)%Z) 0) as [N|N]; auto. rewrite Ho.
    destruct (nth_error (ws_list c) (Z.to_nat (nth i (ws_parent c) (-1)%Z))) as [q|] eqn:Eq.
    2: { apply nth_error_None in Eq. lia. }
    assert (Io : In o (ws_list c)) by (eapply nth_error_In; eauto). assert (Iq : In q (ws_list c)) by (eapply nth_error_In; eauto).
    unfold wall_intersection, wall_shape. rewrite (KO o Io), (KO q Iq). cbn [bind]. destruct (IX (w_shape o) (w_shape q)) as (p & l & EI). rewrite EI.
    exists q, (ring_mean (p :: l)). split; auto. split; auto.
    split; (apply MH; [intros x Hx|discriminate|intros x Hx; apply (C1 _ _ _ _ EI Hx)]).
    - apply (LS o); auto.
    - apply (LS q); auto. }
  destruct (update_points_spec c (length (ws_list c)) 0 (ws_points c)) as (ps & EP & LP & HP).
  - rewrite LPo. lia.
  - intros i Hi. destruct (nth_error (ws_list c) i) as [o|] eqn:Ho; [|apply nth_error_None in Ho; lia]. specialize (WP i o Ho).
    destruct (Z.ltb _ 0); [eauto|destruct WP as (q & p & _ & E & _); eauto].
  - exists (mkWalls (ws_list c) (ws_parent c) ps). unfold update_intersection_graph. rewrite EP. split; [auto|]. split; [auto|]. split; [auto|].
    intros i o Ho. set (parent := nth i (ws_parent c) (-1)%Z). specialize (WP i o Ho). fold parent in WP. assert (Hi : (i < length (ws_list c))%nat) by (apply nth_error_Some; congruence).
    destruct (HP i ltac:(lia)) as (e & E1 & E2). unfold get_parent_intersection. cbn [ws_points]. rewrite E2.
    destruct (Z.ltb parent 0); [congruence|]. destruct WP as (q & p & A & B & C). exists q, p. split; auto. split; [congruence|auto].
Qed.

(** Ellipses are drawn around zero: the points do not depend on their positions. *)
Definition moved (f : wall -> vec) (c : walls) : walls :=
  mkWalls (map (fun o => match w_kind o with
                         | KEllipse => mkWall KEllipse (w_dim o) (f o) (w_axes o) (w_margin o) (w_angle o) (w_shape o) (w_boundary o)
                         | _ => o end) (ws_list c)) (ws_parent c) (ws_points c).
Theorem C155_positions_refuted : forall f c, 
  snd (update_graph (moved f c)) = snd (update_graph c) /\
  ws_points (fst (update_graph (moved f c))) = ws_points (fst (update_graph c)).
Proof.
  intros f c. assert (NP : forall i, new_point circle intersect (moved f c) i = new_point circle intersect c i).
  { intros i. unfold new_point. cbn [moved ws_list ws_parent]. destruct (Z.ltb _ 0); auto. rewrite !nth_error_map.
    destruct (nth_error (ws_list c) i) as [o|]; cbn [option_map]; auto. destruct (nth_error (ws_list c) (Z.to_nat _)) as [q|]; cbn [option_map]; auto.
    assert (WS : forall o, wall_shape circle (match w_kind o with
                         | KEllipse => mkWall KEllipse (w_dim o) (f o) (w_axes o) (w_margin o) (w_angle o) (w_shape o) (w_boundary o)
                         | _ => o end) = wall_shape circle o).
    { intros x. unfold wall_shape. destruct (w_kind x) eqn:K; cbn [w_kind]; rewrite ?K; auto. }
    unfold wall_intersection. rewrite !WS. auto. }
  assert (UP : forall ids ps, update_points circle intersect (moved f c) ids ps = update_points circle intersect c ids ps).
  { induction ids as [|i ids IH]; intros ps; auto. cbn [update_points]. rewrite NP. destruct (new_point circle intersect c i); auto. }
  unfold update_intersection_graph. cbn [moved ws_list ws_points ws_parent]. rewrite map_length, UP.
  destruct (update_points _ _ _ _ _) as (ps & r). auto.
Qed.
(** The point of an ellipse lies close to zero, hence outside of an ellipse which does not. *)
Lemma frame_shift o c x : length x = 2%nat -> length c = 2%nat -> half_axis o 0 <> 0 -> half_axis o 1 <> 0 ->
  scaled_frame o c x = vsub (scaled_frame o [0; 0] x) (scaled_frame o [0; 0] c).
Proof.
  intros Lx Lc H0 H1. destruct (vec2 x Lx) as (a & b & ->). destruct (vec2 c Lc) as (p & q & ->). unfold scaled_frame. cbn [nth].
  transitivity [(cos (w_angle o) * (a - 0) + sin (w_angle o) * (b - 0)) / half_axis o 0 + -1 * ((cos (w_angle o) * (p - 0) + sin (w_angle o) * (q - 0)) / half_axis o 0);
                (- sin (w_angle o) * (a - 0) + cos (w_angle o) * (b - 0)) / half_axis o 1 + -1 * ((- sin (w_angle o) * (p - 0) + cos (w_angle o) * (q - 0)) / half_axis o 1)].
  - f_equal; [field; auto|f_equal; field; auto].
  - reflexivity.
Qed.
Theorem C155_outside_refuted : forall o q p, ellipse o -> w_kind o = KEllipse ->
  2 < norm (scaled_frame o [0; 0] (w_center o)) ->
  wall_intersection circle intersect o q = Ok (PAt p) -> ~ inside o p.
Proof.
  intros o q p (K & D & LA & LC & P0 & P1) KE FAR E IN. unfold wall_intersection, wall_shape in E. rewrite KE in E.
  unfold create_shapely_at_zero at 1 in E. rewrite D in E. cbn [Nat.eqb negb bind] in E.
  assert (A : nth 0 (map (fun a => a + w_margin o) (w_axes o)) 0 = half_axis o 0 /\ nth 1 (map (fun a => a + w_margin o) (w_axes o)) 0 = half_axis o 1).
  { unfold half_axis. rewrite KE. destruct (vec2 _ LA) as (x & y & ->). cbn. auto. }
  destruct A as (A0 & A1). rewrite A0, A1 in E. set (s1 := map _ circle) in E. destruct (match w_kind q with KEllipse => _ | _ => _ end) as [s2|] eqn:E2; [|discriminate].
  cbn [bind] in E. destruct (intersect s1 s2) as [[|p0 l]|] eqn:EI; try discriminate. injection E as E. set (l' := p0 :: l) in *.
  assert (F : Forall (fun x => length x = 2%nat /\ norm (scaled_frame o [0; 0] x) <= 1) s1).
  { apply Forall_forall. intros x Hx. unfold s1 in Hx. apply in_map_iff in Hx as (r & <- & Hr).
    destruct (corner_on o [0; 0] r Hr) as (Q1 & Q2); try lra. split; auto.
    replace (translate2 [0; 0] (rotate2 (w_angle o) (scale2 (half_axis o 0) (half_axis o 1) r))) with (rotate2 (w_angle o) (scale2 (half_axis o 0) (half_axis o 1) r)) in Q2.
    - rewrite Q2. lra.
    - unfold translate2, rotate2. cbn [nth]. f_equal; [ring|f_equal; ring]. }
  assert (H : forall x, In x l' -> length x = 2%nat /\ norm (scaled_frame o [0; 0] x) <= 1).
  { intros x Hx. destruct (C1 _ _ _ _ EI Hx) as ((ws & L & W & S & ->) & _). split; [apply weighted_len2; eapply Forall_impl; [|exact F]; cbn; tauto|].
    apply frame_hull; auto; lra. }
  assert (M : norm (scaled_frame o [0; 0] p) <= 1) by (rewrite <- E; apply mean_inside; try lra; [discriminate|apply Forall_forall; auto]).
  assert (Lp : length p = 2%nat).
  { rewrite <- E. destruct (mean_weights l') as (EM & _); [discriminate|apply Forall_forall; intros x Hx; apply H; auto|]. rewrite EM. apply weighted_len2.
    apply Forall_forall. intros x Hx. apply H; auto. }
  unfold inside in IN. rewrite frame_shift in IN by (auto; lra).
  set (u := scaled_frame o [0; 0] p) in *. set (v := scaled_frame o [0; 0] (w_center o)) in *.
  assert (T : norm v <= norm u + norm (vsub u v)).
  { assert (EV : v = vadd u (vscale (-1) (vsub u v))) by (assert (length u = 2%nat) by reflexivity; assert (length v = 2%nat) by reflexivity; vext; ring).
    rewrite EV at 1. eapply Rle_trans; [apply norm_triangle|]. rewrite norm_vscale. replace (Rabs (-1)) with 1 by (unfold Rabs; destruct (Rcase_abs (-1)); lra). lra. }
  lra.
Qed.
(** Asking for the boundary point: TypeError for a wall without parent, and for every wall which
    was appended since the last update; the index of the parent is needed for a projection on it. *)
Theorem C155_no_point : forall c i project parent, (i < length (ws_list c))%nat -> get_parent_intersection c i = Ok PNone ->
  boundary_point c i true parent = Err EType /\ boundary_point c i false None = Err EValue /\
  (forall k, (k < length (ws_list c))%nat -> boundary_point c i false (Some k) = Err EType) /\
  forall o, length (ws_points c) = length (ws_list c) -> boundary_point (ws_append c o) (length (ws_list c)) project (Some i) = Err EType.
Proof.
  intros c i project parent Hi E. unfold get_convergence_boundary_point. rewrite E. cbn [bind].
  assert (NE : forall k, (k < length (ws_list c))%nat -> exists o, nth_error (ws_list c) k = Some o).
  { intros k Hk. destruct (nth_error (ws_list c) k) as [o|] eqn:Eo; eauto. apply nth_error_None in Eo. lia. }
  split; [destruct (NE i Hi) as (o & ->); auto|]. split; auto. split; [intros k Hk; destruct (NE k Hk) as (o & ->); auto|].
  intros o L. unfold get_parent_intersection. cbn [ws_append ws_points ws_list]. rewrite nth_error_app2 by lia. rewrite L, Nat.sub_diag. cbn [nth_error bind].
  destruct project; cbn [bind].
  - rewrite nth_error_app2 by lia. rewrite Nat.sub_diag. auto.
  - rewrite nth_error_app1 by lia. destruct (NE i Hi) as (x & ->). auto.
Qed.
(** The projection asks the wall of the child, or the one of the parent, for its surface in the
    direction of the point. *)
Theorem C155_projection : forall c i p (project : bool) parent o, get_parent_intersection c i = Ok (PAt p) ->
  nth_error (ws_list c) (if project then i else parent) = Some o ->
  (forall d, exists t, 0 < t /\ surface o d = Ok (vadd (w_center o) (vscale t d))) -> length p = length (w_center o) ->
  exists x t, boundary_point c i project (Some parent) = Ok x /\ 0 < t /\
    vsub x (w_center o) = vscale t (vsub p (w_center o)).
Proof.
  intros c i p project parent o E Eo HS L. unfold get_convergence_boundary_point. rewrite E. cbn [bind].
  destruct (HS (vsub p (w_center o))) as (t & Pt & ES). exists (vadd (w_center o) (vscale t (vsub p (w_center o)))), t.
  split; [destruct project; cbn [bind]; rewrite Eo; auto|]. split; auto. vext. ring.
Qed.
End Contract.

(** Two unit circles one apart, drawn as squares: the point lies between their centers. *)
Definition square : list vec := [[1; 0]; [0; 1]; [-1; 0]; [0; -1]; [1; 0]].
Definition lens : list vec := [[1; 0]; [1 / 2; 1 / 2]; [0; 0]; [1 / 2; - (1 / 2)]; [1; 0]].
Example C154_case :
  let disc x := mkWall KEllipse 2 [x; 0] [1; 1] 0 0 [] false in
  get_intersection_of_obstacles square (fun _ _ => Some lens) (disc 0) (disc 1) = Ok (Some [3 / 5; 0]) /\
  inside (disc 0) [3 / 5; 0] /\ inside (disc 1) [3 / 5; 0] /\ round square.
Proof.
  cbn zeta. split; [|split; [|split]].
  - unfold get_intersection_of_obstacles, create_shapely, ring_mean, lens. cbn. f_equal. f_equal. f_equal; [|f_equal]; field.
  - unfold inside, scaled_frame, half_axis. cbn [w_kind w_center w_axes w_margin w_angle nth]. rewrite cos_0, sin_0.
    apply Rle_trans with (sqrt 1); [|rewrite sqrt_1; lra]. unfold norm. apply sqrt_le_1_alt. cbn. lra.
  - unfold inside, scaled_frame, half_axis. cbn [w_kind w_center w_axes w_margin w_angle nth]. rewrite cos_0, sin_0.
    apply Rle_trans with (sqrt 1); [|rewrite sqrt_1; lra]. unfold norm. apply sqrt_le_1_alt. cbn. lra.
  - intros p [<-|[<-|[<-|[<-|[<-|[]]]]]]; do 2 eexists; (split; [reflexivity|lra]).
Qed.
(** A polygon and its neighbour; the point of the second wall is the mean of their common ring. *)
Example C155_case :
  let poly := mkWall KOther 2 [0; 0] [] 0 0 square true in
  update_intersection_graph square (fun _ _ => Some lens) (mkWalls [poly; poly] [-1; 0]%Z [PNone; PNone]) =
    (mkWalls [poly; poly] [-1; 0]%Z [PNone; PAt (ring_mean lens)], Ok tt).
Proof. reflexivity. Qed.
Print Assumptions C154_in_both.
Print Assumptions C154_order_refuted.
Print Assumptions C154_center_refuted.
Print Assumptions C155_points.
Print Assumptions C155_positions_refuted.
Print Assumptions C155_outside_refuted.
Print Assumptions C155_no_point.
Print Assumptions C155_projection.
