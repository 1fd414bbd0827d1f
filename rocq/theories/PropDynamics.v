(** Properties C42-C47 and C53: projections, segments, circular and wavy dynamics, inflation,
    integration. *)
Require Import Reals List Bool Lra Lia Psatz.
From Verif Require Import Base Vec Angle Pow RotModel DynModel.
Import ListNotations.
Open Scope R_scope.

Definition dist (p q : vec) : R := norm (vsub p q).

Lemma norm_le_sq u v : dot u u <= dot v v -> norm u <= norm v.
Proof. intros. apply sqrt_le_1_alt; auto. Qed.
Lemma line_sq P A D t : unitv D ->
  dot (vsub P (vadd A (vscale t D))) (vsub P (vadd A (vscale t D))) =
  dot (vsub P A) (vsub P A) - 2 * t * dot (vsub P A) D + t * t.
Proof.
  unfold unitv. intros H. autorewrite with vdot. rewrite H.
  rewrite (dot_comm D A), (dot_comm D P), (dot_comm A P). ring.
Qed.
Lemma dist_refl p : dist p p = 0.
Proof. unfold dist. apply norm_eq_0_dot. autorewrite with vdot. ring. Qed.
Lemma dist_zero p q : length p = length q -> dist p q = 0 -> p = q.
Proof. intros L H. apply dot_vsub_self_eq; auto. apply norm_eq_0_dot; auto. Qed.
Lemma dist_sym p q : dist p q = dist q p.
Proof.
  unfold dist, norm. f_equal. autorewrite with vdot. ring.
Qed.

(** * C42 *)
(** The points of the ray from [r0] through [r1]. *)
Definition on_ray (r0 r1 y : vec) : Prop := exists t, 0 <= t /\ y = vadd r0 (vscale t (vsub r1 r0)).

Lemma vadd_zero_r v n : (n <= length v)%nat -> vadd v (vzero n) = v.
Proof. intros. vext. ring. Qed.

Theorem C42_nearest_point : forall n point r0 r1,
  length point = n -> length r0 = n -> length r1 = n ->
  let y := project_point_onto_ray point r0 r1 in
  on_ray r0 r1 y /\
  forall z, on_ray r0 r1 z -> dist point y <= dist point z /\ (dist point z = dist point y -> z = y).
Proof.
  intros n P A B LP LA LB. unfold project_point_onto_ray. cbv zeta.
  destruct (Req_EM_T (norm (vsub B A)) 0) as [E|E].
  - apply norm_zero_iff in E.
    assert (H0 : forall t, vadd A (vscale t (vsub B A)) = A).
    { intros t. rewrite E. vext. ring. }
    split; [exists 0; split; [lra|symmetry; apply H0]|].
    intros z (t & _ & ->). rewrite H0. split; [lra|auto].
  - set (D := vsub B A) in *. set (m := norm D) in *.
    assert (Hm : 0 < m) by (apply norm_pos; auto).
    set (u := vdiv D m).
    assert (Hu : unitv u) by (apply unit_vdiv; auto).
    assert (LD : length D = n) by (unfold D; autorewrite with vlen; lia).
    assert (Lu : length u = n) by (unfold u; autorewrite with vlen; auto).
    assert (HR : forall t, vadd A (vscale t D) = vadd A (vscale (t * m) u)).
    { intros t. unfold u. vext. field. lra. }
    set (p := dot u (vsub P A)).
    assert (Hp : dot (vsub P A) u = p) by apply dot_comm.
    assert (Key : forall s, 0 <= s ->
      forall z, z = vadd A (vscale s u) ->
      dot (vsub P z) (vsub P z) = dot (vsub P A) (vsub P A) - 2 * s * p + s * s).
    { intros s _ z ->. rewrite line_sq, Hp; auto. }
    destruct (Rleb p 0) eqn:Ep; [apply Rleb_true in Ep|apply Rleb_false in Ep].
    + split. { exists 0. split; [lra|]. vext. ring. }
      intros z (t & Ht & ->). rewrite HR.
      assert (Hs : 0 <= t * m) by nra.
      pose proof (Key _ Hs _ eq_refl) as K.
      split.
      * apply norm_le_sq. rewrite K. nra.
      * intros H. assert (H2 : dot (vsub P (vadd A (vscale (t * m) u))) (vsub P (vadd A (vscale (t * m) u))) = dot (vsub P A) (vsub P A)).
        { rewrite <- !norm_sq. unfold dist in H. rewrite H. auto. }
        rewrite K in H2. assert (H0 : t * m = 0).
        { apply Rsqr_0_uniq. unfold Rsqr. set (s := t * m) in *. assert (s * p <= 0) by nra. nra. }
        rewrite H0. vext. ring.
    + assert (Ecom : vadd (vscale p u) A = vadd A (vscale p u)) by (vext; ring).
      rewrite Ecom. split.
      { exists (p / m). split; [apply Rlt_le, Rdiv_lt_0_compat; lra|]. rewrite HR.
        f_equal. f_equal. field. lra. }
      intros z (t & Ht & ->). rewrite HR.
      assert (Hs : 0 <= t * m) by nra.
      pose proof (Key _ Hs _ eq_refl) as K.
      pose proof (Key p (Rlt_le _ _ Ep) _ eq_refl) as K2.
      split.
      * apply norm_le_sq. rewrite K, K2. pose proof (Rle_0_sqr (t * m - p)) as Q. unfold Rsqr in Q. lra.
      * intros H.
        assert (H2 : dot (vsub P (vadd A (vscale (t * m) u))) (vsub P (vadd A (vscale (t * m) u))) =
                     dot (vsub P (vadd A (vscale p u))) (vsub P (vadd A (vscale p u)))).
        { rewrite <- !norm_sq. unfold dist in H. rewrite H. auto. }
        rewrite K, K2 in H2. assert (H0 : t * m = p).
        { apply Rminus_diag_uniq, Rsqr_0_uniq. unfold Rsqr. lra. }
        congruence.
Qed.
Example C42_case : project_point_onto_ray [2; 1] [0; 0] [3; 0] = [2; 0].
Proof.
  unfold project_point_onto_ray.
  assert (E : norm (vsub [3; 0] [0; 0]) = 3).
  { unfold norm. replace (dot _ _) with (3 * 3) by (simpl; ring). apply sqrt_square. lra. }
  rewrite E. destruct (Req_EM_T 3 0); [lra|].
  unfold vdiv. cbn.
  replace (Rleb _ 0) with false.
  - apply f_equal2; [field|]. apply f_equal2; [field|auto].
  - symmetry. apply Rleb_false. lra.
Qed.

(** * C43 *)
Definition seg_ok (n : nat) (s : segment) : Prop :=
  length (s_start s) = n /\ length (s_end s) = n /\
  create_segment (s_start s) (s_end s) = Ok s.
(** The points of the segment. *)
Definition on_segment (s : segment) (y : vec) : Prop :=
  exists t, 0 <= t <= 1 /\ y = vadd (s_start s) (vscale t (vsub (s_end s) (s_start s))).

Lemma seg_facts n s : seg_ok n s ->
  unitv (s_dir s) /\ 0 < s_len s /\ length (s_dir s) = n /\
  s_end s = vadd (s_start s) (vscale (s_len s) (s_dir s)) /\ (2 <= n)%nat.
Proof.
  intros (L0 & L1 & H). unfold create_segment in H.
  destruct (Req_EM_T _ 0) as [|E]; [discriminate|].
  assert (Ld : length (vsub (s_end s) (s_start s)) = n) by (autorewrite with vlen; lia).
  remember (vsub (s_end s) (s_start s)) as d eqn:Ed.
  destruct d as [|d0 [|d1 d']]; try discriminate.
  assert (H2 : (2 <= n)%nat) by (simpl in Ld; lia).
  rewrite Ed in H, E, Ld. clear Ed. injection H as H.
  assert (Hd : s_dir s = vdiv (vsub (s_end s) (s_start s)) (norm (vsub (s_end s) (s_start s))))
    by (rewrite <- H at 1; auto).
  assert (Hl : s_len s = norm (vsub (s_end s) (s_start s))) by (rewrite <- H at 1; auto).
  rewrite Hd, Hl. split; [apply unit_vdiv; auto|]. split; [apply norm_pos; auto|].
  split; [rewrite length_vdiv; auto|]. split; [|exact H2].
  rewrite vscale_norm_vdiv by auto. vext. ring.
Qed.
Lemma create_segment_ok n a b s : length a = n -> length b = n -> create_segment a b = Ok s ->
  seg_ok n s /\ s_start s = a /\ s_end s = b.
Proof.
  intros La Lb H. pose proof H as H0. unfold create_segment in H.
  destruct (Req_EM_T _ 0); [discriminate|].
  destruct (vsub b a) as [|? [|? ?]]; try discriminate. injection H as <-.
  unfold seg_ok. simpl. auto.
Qed.

Lemma clamp_range a l : 0 <= l -> 0 <= Rmin l (Rmax a 0) <= l.
Proof. intros. unfold Rmin, Rmax. repeat destruct (Rle_dec _ _); lra. Qed.

Theorem C43_segment_distance : forall n s position,
  seg_ok n s -> length position = n ->
  (exists y, on_segment s y /\ get_distance s position = dist position y) /\
  (forall y, on_segment s y -> get_distance s position <= dist position y) /\
  (get_distance s position = 0 <-> on_segment s position).
Proof.
  intros n s P Hs LP. pose proof (seg_facts n s Hs) as (Hu & Hl & Lu & He & _).
  destruct Hs as (L0 & L1 & _).
  set (A := s_start s) in *. set (u := s_dir s) in *. set (l := s_len s) in *.
  assert (HR : forall t, vadd A (vscale t (vsub (s_end s) A)) = vadd A (vscale (t * l) u)).
  { intros t. rewrite He. vext. ring. }
  unfold get_distance. fold A u l.
  set (a := dot (vsub P A) u). set (c := Rmin l (Rmax a 0)).
  assert (Hc : 0 <= c <= l) by (apply clamp_range; lra).
  assert (Hy : on_segment s (vadd A (vscale c u))).
  { exists (c / l). split.
    - split; [apply Rmult_le_pos; [lra|left; apply Rinv_0_lt_compat; lra]|].
      apply (Rmult_le_reg_r l); [lra|]. field_simplify; lra.
    - fold A. rewrite HR. f_equal. f_equal. field. lra. }
  assert (Hmin : forall y, on_segment s y -> norm (vsub P (vadd A (vscale c u))) <= dist P y).
  { intros y (t & Ht & ->). fold A. rewrite HR. apply norm_le_sq. rewrite !line_sq by auto.
    fold a. assert (0 <= t * l <= l) by nra.
    set (q := t * l) in *.
    assert (K : (q - c) * (a - c) <= 0).
    { unfold c. unfold Rmin, Rmax. repeat destruct (Rle_dec _ _); nra. }
    pose proof (Rle_0_sqr (q - c)) as Q. unfold Rsqr in Q. lra. }
  split; [exists (vadd A (vscale c u)); auto|]. split; [auto|]. split.
  - intros H0. assert (E : P = vadd A (vscale c u)).
    { apply dist_zero; auto. autorewrite with vlen. lia. }
    rewrite E at 1. auto.
  - intros H. specialize (Hmin P H). rewrite dist_refl in Hmin.
    pose proof (norm_nonneg (vsub P (vadd A (vscale c u)))). lra.
Qed.

(** The direction of a segment system: unit, forward along the segment, and towards its line. *)
Theorem C43_segment_direction : forall n s position,
  seg_ok n s -> length position = n ->
  exists v c, segment_evaluate s position = Ok v /\ unitv v /\ 0 < dot v (s_dir s) /\ 0 < c /\
    let t := dot (vsub position (s_start s)) (s_dir s) in
    let foot := vadd (s_start s) (vscale t (s_dir s)) in
    v = vadd (vscale c (s_dir s)) (vscale (3 * c) (vsub foot position)).
Proof.
  intros n s P Hs LP. pose proof (seg_facts n s Hs) as (Hu & Hl & Lu & He & _).
  destruct Hs as (L0 & L1 & _). unfold segment_evaluate.
  set (A := s_start s) in *. set (u := s_dir s) in *.
  set (t := dot (vsub P A) u). set (foot := vadd A (vscale t u)).
  assert (Hperp : dot (vsub foot P) u = 0).
  { unfold foot, t. unfold unitv in Hu. autorewrite with vdot. rewrite Hu. ring. }
  set (w := vadd (vscale 3 (vsub foot P)) u).
  assert (Hw : dot w u = 1).
  { unfold w. rewrite dot_vadd_l, dot_vscale_l, Hperp. unfold unitv in Hu. rewrite Hu. ring. }
  assert (Hn : norm w <> 0).
  { intros H. apply norm_zero_iff in H. rewrite H, dot_vzero_l in Hw. lra. }
  destruct (Req_EM_T (norm w) 0); [contradiction|].
  pose proof (norm_pos w Hn) as Hp.
  exists (vdiv w (norm w)), (/ norm w). split; [auto|]. split; [apply unit_vdiv; auto|].
  split. { rewrite dot_vdiv_l, Hw. apply Rdiv_lt_0_compat; lra. }
  split; [apply Rinv_0_lt_compat; auto|]. cbv zeta. fold A u t. fold foot.
  assert (Lf : length foot = n) by (unfold foot; autorewrite with vlen; lia).
  unfold w at 1. unfold vdiv. vext. ring.
Qed.

(** Number of segments that contain the position. *)
Fixpoint containing (segs : list segment) (position : vec) : nat :=
  match segs with
  | [] => 0
  | s :: l => (if Reqb (get_distance s position) 0 then 1 else 0) + containing l position
  end.

Lemma containing_pos segs P : existsb (fun d => Reqb d 0) (map (fun s => get_distance s P) segs) = true
  <-> (0 < containing segs P)%nat.
Proof.
  induction segs as [|s l IH]; simpl; [split; [discriminate|lia]|].
  destruct (Reqb (get_distance s P) 0); simpl; [split; [lia|auto]|]. auto.
Qed.
Lemma containing_sum segs P :
  rsum (map (fun d => if Reqb d 0 then 1 else 0) (map (fun s => get_distance s P) segs)) = INR (containing segs P).
Proof.
  induction segs as [|s l IH]; [auto|].
  change (containing (s :: l) P) with ((if Reqb (get_distance s P) 0 then 1 else 0) + containing l P)%nat.
  cbn [map]. unfold rsum in *. cbn [fold_right]. rewrite IH, plus_INR.
  destruct (Reqb (get_distance s P) 0); reflexivity.
Qed.
Lemma mapM_pow wf wp ds : 0 < wf -> (forall d, In d ds -> 0 < d) ->
  mapM (fun d => fpow (wf / d) wp) ds = Ok (map (fun d => Rpower (wf / d) wp) ds).
Proof.
  intros Hw. induction ds as [|d l IH]; intros H; [auto|].
  cbn [mapM map]. rewrite fpow_pos by (apply Rdiv_lt_0_compat; [auto|apply H; left; auto]).
  simpl. rewrite IH; [auto|]. intros; apply H; right; auto.
Qed.
Lemma global_unit segs P : unitv (global_direction segs P) \/ norm (global_direction segs P) = 0.
Proof.
  unfold global_direction. destruct (Req_EM_T _ 0) as [E|E]; [right; auto|left; apply unit_vdiv; auto].
Qed.
Lemma last_in {A} (l : list A) d : l <> [] -> In (last l d) l.
Proof.
  intros H. destruct (exists_last H) as (l' & a & ->). rewrite last_last. apply in_or_app. right; left; auto.
Qed.

Theorem C43_weights_partial : forall n segs position weight_power weight_factor dotprod_power,
  segs <> [] -> (forall s, In s segs -> seg_ok n s) -> length position = n ->
  0 < weight_factor -> 0 < dotprod_power ->
  exists ws, path_weights segs position weight_power weight_factor dotprod_power = Ok ws /\
    length ws = S (length segs) /\ (forall w, In w ws -> 0 <= w) /\
    rsum ws = Rmax 1 (INR (containing segs position)) /\
    ((0 < containing segs position)%nat ->
       forall i s, nth_error segs i = Some s -> nth i ws 0 = if Reqb (get_distance s position) 0 then 1 else 0) /\
    (forall i j s s', containing segs position = 0%nat -> 0 <= weight_power ->
       nth_error segs i = Some s -> nth_error segs j = Some s' ->
       get_distance s position <= get_distance s' position -> nth j ws 0 <= nth i ws 0).
Proof.
  intros n segs P wp wf dp Hne Hok LP Hwf Hdp. unfold path_weights.
  destruct segs as [|s0 sl] eqn:Es; [contradiction|]. rewrite <- Es in *. clear Es s0 sl.
  destruct (existsb _ _) eqn:Ex.
  - apply containing_pos in Ex. eexists; split; [reflexivity|].
    split; [rewrite app_length, !map_length; simpl; lia|].
    split. { intros w Hw. apply in_app_or in Hw as [Hw|[<-|[]]]; [|lra].
      apply in_map_iff in Hw as (d & <- & _). destruct (Reqb d 0); lra. }
    split. { rewrite rsum_app, containing_sum. unfold rsum; simpl. rewrite Rmax_right; [ring|].
      apply (le_INR 1) in Ex. simpl in Ex. lra. }
    split; [|intros; lia].
    intros _ i s Hi. rewrite app_nth1 by (rewrite !map_length; apply nth_error_Some; congruence).
    rewrite map_map. apply nth_error_nth. apply (map_nth_error (fun s => if Reqb (get_distance s P) 0 then 1 else 0)). auto.
  - assert (Hz : containing segs P = 0%nat).
    { destruct (containing segs P) eqn:C; auto.
      assert (H : existsb (fun d : R => Reqb d 0) (map (fun s => get_distance s P) segs) = true)
        by (apply containing_pos; lia). congruence. }
    assert (Hd : forall s, In s segs -> 0 < get_distance s P).
    { intros s Hs. pose proof (norm_nonneg (vsub P (vadd (s_start s) (vscale (Rmin (s_len s) (Rmax (dot (vsub P (s_start s)) (s_dir s)) 0)) (s_dir s))))) as Hn.
      destruct Hn as [Hn|Hn]; [exact Hn|].
      assert (existsb (fun d : R => Reqb d 0) (map (fun s => get_distance s P) segs) = true); [|congruence].
      apply existsb_exists. exists (get_distance s P). split; [apply (in_map (fun s => get_distance s P)); auto|]. apply Reqb_true. unfold get_distance. lra. }
    rewrite mapM_pow; auto.
    2:{ intros d Hi. apply in_map_iff in Hi as (s & <- & Hi). auto. }
    rewrite map_map. cbn [bind].
    set (W := fun s => Rpower (wf / get_distance s P) wp).
    assert (HW : forall s, 0 < W s) by (intros; apply Rpower_pos).
    set (dpr := dot (global_direction segs P) (s_dir (last segs (mkSeg [] [] [] 0)))).
    assert (Hdpr : -1 <= dpr <= 1).
    { assert (Hl : unitv (s_dir (last segs (mkSeg [] [] [] 0)))).
      { apply (seg_facts n). apply Hok. apply last_in; auto. }
      destruct (global_unit segs P) as [Hg|Hg]; [apply unit_dot_bounds; auto|].
      apply norm_zero_iff in Hg. unfold dpr. rewrite Hg, dot_vzero_l. lra. }
    assert (Hf : exists f, 0 <= f /\
       (if Rltb dpr 0 then do f <- fpow (1 + dpr) dp; Ok (map (fun w => w * f) (map W segs))
        else Ok (map W segs)) = Ok (map (fun s => W s * f) segs)).
    { destruct (Rltb dpr 0) eqn:El.
      - apply Rltb_true in El. destruct (fpow_unit (1 + dpr) dp) as (f & Ef & Hf); [lra|auto|].
        exists f. split; [lra|]. rewrite Ef. cbn [bind]. rewrite map_map. auto.
      - exists 1. split; [lra|]. f_equal. apply map_ext. intros; ring. }
    destruct Hf as (f & Hf & Ef). rewrite Ef. cbn [bind].
    set (S0 := rsum (map (fun s => W s * f) segs)).
    assert (Hnn : forall w, In w (map (fun s => W s * f) segs) -> 0 <= w).
    { intros w Hw. apply in_map_iff in Hw as (s & <- & _). pose proof (HW s). nra. }
    assert (HS : 0 <= S0) by (apply rsum_nonneg; auto).
    assert (Hmono : forall i j s s', 0 <= wp -> nth_error segs i = Some s -> nth_error segs j = Some s' ->
       get_distance s P <= get_distance s' P -> W s' * f <= W s * f).
    { intros i j s s' H0 Hi Hj H. apply Rmult_le_compat_r; auto. unfold W.
      apply nth_error_In in Hi, Hj. apply Rpower_base_mono; auto.
      - apply Rdiv_lt_0_compat; auto.
      - apply Rmult_le_compat_l; [lra|]. apply Rinv_le_contravar; auto. }
    rewrite Hz. simpl INR. rewrite Rmax_left by lra.
    destruct (Rltb S0 1) eqn:E1.
    + apply Rltb_true in E1. eexists; split; [reflexivity|].
      split; [rewrite app_length, map_length; simpl; lia|].
      split. { intros w Hw. apply in_app_or in Hw as [Hw|[<-|[]]]; [auto|lra]. }
      split. { rewrite rsum_app. unfold S0. unfold rsum at 2. simpl. ring. }
      split; [intros; lia|]. intros i j s s' _ H0 Hi Hj H.
      rewrite !app_nth1 by (rewrite map_length; apply nth_error_Some; congruence).
      rewrite (nth_error_nth _ _ _ (map_nth_error (fun s => W s * f) _ _ Hi)),
              (nth_error_nth _ _ _ (map_nth_error (fun s => W s * f) _ _ Hj)). eauto.
    + apply Rltb_false in E1. eexists; split; [reflexivity|].
      split; [rewrite app_length, !map_length; simpl; lia|].
      split. { intros w Hw. apply in_app_or in Hw as [Hw|[<-|[]]]; [|lra].
        apply in_map_iff in Hw as (d & <- & Hd0). apply Rmult_le_pos; [auto|].
        left; apply Rinv_0_lt_compat; lra. }
      split. { rewrite rsum_app, map_map. rewrite (rsum_map_div S0 (fun s => W s * f)).
        fold S0. unfold rsum; simpl. field. lra. }
      split; [intros; lia|]. intros i j s s' _ H0 Hi Hj H.
      rewrite !app_nth1 by (rewrite !map_length; apply nth_error_Some; congruence).
      rewrite map_map.
      rewrite (nth_error_nth _ _ _ (map_nth_error (fun s => W s * f / S0) _ _ Hi)),
              (nth_error_nth _ _ _ (map_nth_error (fun s => W s * f / S0) _ _ Hj)).
      apply Rmult_le_compat_r; [left; apply Rinv_0_lt_compat; lra|eauto].
Qed.

(** Two segments which meet in the position get weight one each: the sum is two. *)
Lemma norm_axis a : 0 <= a -> norm [a; 0] = a.
Proof. intros. unfold norm. replace (dot _ _) with (a * a) by (simpl; ring). apply sqrt_square; auto. Qed.
Lemma norm_axis2 a : 0 <= a -> norm [0; a] = a.
Proof. intros. unfold norm. replace (dot _ _) with (a * a) by (simpl; ring). apply sqrt_square; auto. Qed.
Lemma norm_is_axis v a : v = [a; 0] -> 0 <= a -> norm v = a.
Proof. intros -> ?. apply norm_axis; auto. Qed.
Lemma norm_is_axis2 v a : v = [0; a] -> 0 <= a -> norm v = a.
Proof. intros -> ?. apply norm_axis2; auto. Qed.
Ltac vnum := repeat (apply f_equal2; [field|]); auto.
Definition corner1 := mkSeg [0; 0] [1; 0] [1; 0] 1.
Definition corner2 := mkSeg [1; 0] [1; 1] [0; 1] 1.
Lemma corner1_ok : seg_ok 2 corner1.
Proof.
  split; [auto|]. split; [auto|]. unfold create_segment. cbn [s_start s_end corner1].
  assert (E : norm (vsub [1; 0] [0; 0]) = 1).
  { apply norm_is_axis; [unfold vsub; simpl; vnum|lra]. }
  rewrite E. destruct (Req_EM_T 1 0); [lra|]. cbn. unfold corner1. f_equal. f_equal.
  unfold vdiv; simpl; vnum.
Qed.
Lemma corner2_ok : seg_ok 2 corner2.
Proof.
  split; [auto|]. split; [auto|]. unfold create_segment. cbn [s_start s_end corner2].
  assert (E : norm (vsub [1; 1] [1; 0]) = 1).
  { apply norm_is_axis2; [unfold vsub; simpl; vnum|lra]. }
  rewrite E. destruct (Req_EM_T 1 0); [lra|]. cbn. unfold corner2. f_equal. f_equal.
  unfold vdiv; simpl; vnum.
Qed.
Lemma corner_distance s : s = corner1 \/ s = corner2 -> get_distance s [1; 0] = 0.
Proof.
  intros [-> | ->].
  - apply (C43_segment_distance 2); [apply corner1_ok|auto|].
    exists 1. split; [lra|]. unfold vsub; simpl. vnum.
  - apply (C43_segment_distance 2); [apply corner2_ok|auto|].
    exists 0. split; [lra|]. unfold vsub; simpl. vnum.
Qed.
Theorem C43_weights_refuted : exists segs position ws,
  (forall s, In s segs -> seg_ok 2 s) /\ length position = 2%nat /\
  path_weights segs position 2 3 1 = Ok ws /\ rsum ws = 2.
Proof.
  exists [corner1; corner2], [1; 0].
  destruct (C43_weights_partial 2 [corner1; corner2] [1; 0] 2 3 1) as (ws & Hw & _ & _ & Hs & _);
    try lra; try discriminate; auto.
  { intros s [<-|[<-|[]]]; [apply corner1_ok|apply corner2_ok]. }
  exists ws. split; [intros s [<-|[<-|[]]]; [apply corner1_ok|apply corner2_ok]|].
  split; [auto|]. split; [auto|]. rewrite Hs. cbn [containing].
  rewrite !corner_distance by auto.
  assert (E : Reqb 0 0 = true) by (apply Reqb_true; auto). rewrite E.
  simpl. rewrite Rmax_right; lra.
Qed.
(** A position on the first segment only. *)
Example C43_case : exists ws, path_weights [corner1; corner2] [0; 0] 2 3 1 = Ok ws /\ ws = [1; 0; 0].
Proof.
  destruct (C43_weights_partial 2 [corner1; corner2] [0; 0] 2 3 1) as (ws & Hw & L & Hp & Hs & H1 & _);
    try lra; try discriminate; auto.
  { intros s [<-|[<-|[]]]; [apply corner1_ok|apply corner2_ok]. }
  exists ws. split; [auto|].
  assert (E1 : get_distance corner1 [0; 0] = 0).
  { apply (C43_segment_distance 2); [apply corner1_ok|auto|].
    exists 0. split; [lra|]. unfold vsub; simpl. vnum. }
  assert (E2 : get_distance corner2 [0; 0] <> 0).
  { intros E. apply (C43_segment_distance 2 corner2 [0; 0] corner2_ok eq_refl) in E.
    destruct E as (t & _ & E). unfold vsub in E; simpl in E. injection E as E _. lra. }
  cbn [containing] in H1, Hs. rewrite E1 in H1, Hs.
  assert (E0 : Reqb 0 0 = true) by (apply Reqb_true; auto).
  apply Reqb_false in E2. rewrite E0, E2 in Hs, H1.
  pose proof (H1 ltac:(simpl; lia) 0%nat corner1 eq_refl) as W0.
  pose proof (H1 ltac:(simpl; lia) 1%nat corner2 eq_refl) as W1.
  rewrite E1, E0 in W0. rewrite E2 in W1.
  destruct ws as [|a [|b [|c [|]]]]; try discriminate. simpl in W0, W1. subst.
  unfold rsum in Hs. simpl in Hs. rewrite Rmax_left in Hs by lra.
  apply f_equal. apply f_equal. apply f_equal2; [lra|auto].
Qed.

(** * C45 *)
Definition linear_system (attractor : vec) (k : vec -> R) (position : vec) : vec :=
  vscale (k position) (vsub attractor position).

Lemma wavy_defined k ax ay stretch dev x y :
  let p := [x; y] in
  let a := sin (norm (vsub p [ax; ay]) * stretch) * dev in
  wavy (linear_system [ax; ay] k) [ax; ay] stretch dev p =
  Ok [cos a * (k p * (ax - x)) - sin a * (k p * (ay - y));
      sin a * (k p * (ax - x)) + cos a * (k p * (ay - y))].
Proof.
  intros p a. unfold wavy, linear_system. change (vsub [ax; ay] p) with [ax + -1 * x; ay + -1 * y]. cbn [vscale map].
  fold a.
  apply f_equal. unfold a, p. vnum.
Qed.

Theorem C45_wavy : forall k ax ay stretch dev x y,
  exists v, wavy (linear_system [ax; ay] k) [ax; ay] stretch dev [x; y] = Ok v /\
    norm v = norm (linear_system [ax; ay] k [x; y]) /\
    (v = [0; 0] <-> linear_system [ax; ay] k [x; y] = [0; 0]) /\
    (0 <= k [x; y] -> Rabs dev <= PI / 2 -> 0 <= dot v (vsub [ax; ay] [x; y])) /\
    (0 < k [x; y] -> Rabs dev < PI / 2 -> [x; y] <> [ax; ay] -> 0 < dot v (vsub [ax; ay] [x; y])).
Proof.
  intros k ax ay stretch dev x y. rewrite wavy_defined. cbv zeta.
  set (th := norm (vsub [x; y] [ax; ay]) * stretch).
  set (a := sin th * dev). set (kk := k [x; y]). set (dx := ax - x). set (dy := ay - y).
  assert (Hlin : linear_system [ax; ay] k [x; y] = [kk * dx; kk * dy]).
  { unfold linear_system, vsub, dx, dy. simpl. fold kk. vnum. }
  assert (Hsub : vsub [ax; ay] [x; y] = [dx; dy]).
  { unfold vsub, dx, dy. simpl. vnum. }
  rewrite Hlin, Hsub.
  pose proof (cos_sin_sq a) as Hcs.
  set (c := cos a) in *. set (s := sin a) in *.
  set (v := [c * (kk * dx) - s * (kk * dy); s * (kk * dx) + c * (kk * dy)]).
  assert (Hsq : dot v v = dot [kk * dx; kk * dy] [kk * dx; kk * dy]).
  { unfold v. simpl. transitivity ((c * c + s * s) * ((kk * dx) * (kk * dx) + (kk * dy) * (kk * dy))); [ring|].
    rewrite Hcs. ring. }
  assert (Hdot : dot v [dx; dy] = c * (kk * (dx * dx + dy * dy))) by (unfold v; simpl; ring).
  exists v. split; [auto|]. split; [unfold norm; rewrite Hsq; auto|]. split.
  { assert (Z : forall a b, [a; b] = [0; 0] <-> dot [a; b] [a; b] = 0).
    { intros p q. split; [intros E; injection E as -> ->; simpl; ring|].
      intros E. simpl in E. assert (p = 0) by nra. assert (q = 0) by nra. congruence. }
    rewrite Z. rewrite <- Hsq. unfold v. apply Z. }
  assert (Ha : Rabs a <= Rabs dev).
  { unfold a. rewrite Rabs_mult. pose proof (SIN_bound th). pose proof (Rabs_pos dev).
    assert (Rabs (sin th) <= 1) by (apply Rabs_le; lra). nra. }
  rewrite Hdot. split.
  - intros Hk Hd. assert (0 <= c).
    { pose proof (Rle_abs a). pose proof (Rle_abs (- a)) as H2. rewrite Rabs_Ropp in H2.
      apply cos_ge_0; lra. }
    assert (0 <= kk * (dx * dx + dy * dy)) by (apply Rmult_le_pos; [auto|nra]). nra.
  - intros Hk Hd Hne. assert (0 < c).
    { pose proof (Rle_abs a). pose proof (Rle_abs (- a)) as H2. rewrite Rabs_Ropp in H2.
      apply cos_gt_0; lra. }
    assert (0 < dx * dx + dy * dy).
    { destruct (Req_dec dx 0) as [E|]; [|nra]. destruct (Req_dec dy 0) as [E'|]; [|nra].
      exfalso. apply Hne. unfold dx, dy in *. f_equal; [lra|]. f_equal. lra. }
    apply Rmult_lt_0_compat; [auto|]. apply Rmult_lt_0_compat; auto.
Qed.
(** A deviation above pi/2 can move away from the attractor. *)
Theorem C45_large_deviation : forall dev, PI / 2 < dev <= PI ->
  exists stretch position v, wavy (linear_system [0; 0] (fun _ => 1)) [0; 0] stretch dev position = Ok v /\
    dot v (vsub [0; 0] position) < 0.
Proof.
  intros dev Hd. exists (PI / 2), [1; 0].
  eexists. split; [apply wavy_defined|].
  assert (E : norm (vsub [1; 0] [0; 0]) = 1).
  { apply norm_is_axis; [unfold vsub; simpl; vnum|lra]. }
  rewrite E. replace (sin (1 * (PI / 2)) * dev) with dev by (rewrite Rmult_1_l, sin_PI2; ring).
  simpl. assert (cos dev < 0) by (apply cos_lt_0; lra). lra.
Qed.
Example C45_case : exists v, wavy (linear_system [0; 0] (fun _ => 1)) [0; 0] (PI / 2) (PI / 2) [1; 0] = Ok v /\ v = [0; -1].
Proof.
  eexists. split; [apply wavy_defined|].
  assert (E : norm (vsub [1; 0] [0; 0]) = 1).
  { apply norm_is_axis; [unfold vsub; simpl; vnum|lra]. }
  rewrite E. replace (sin (1 * (PI / 2)) * (PI / 2)) with (PI / 2) by (rewrite Rmult_1_l, sin_PI2; ring).
  rewrite cos_PI2, sin_PI2. vnum.
Qed.

(** * C46 *)
(** The local radius of a star-shaped obstacle depends on the direction only. *)
Definition radial (radius : vec -> R) (reference : vec) : Prop :=
  forall p c, length p = length reference -> 0 < c ->
    radius (vadd (vscale c (vsub p reference)) reference) = radius p.

Lemma rel_scaled c p ref : length p = length ref ->
  vsub (vadd (vscale c (vsub p ref)) ref) ref = vscale c (vsub p ref).
Proof. intros. vext. ring. Qed.
Lemma rel_scale_scale c d p ref : length p = length ref ->
  vadd (vscale d (vscale c (vsub p ref))) ref = vadd (vscale (d * c) (vsub p ref)) ref.
Proof. intros. vext. ring. Qed.
Lemma rel_id p ref : length p = length ref -> vadd (vscale 1 (vsub p ref)) ref = p.
Proof. intros. vext. ring. Qed.
Lemma fdiv_ok x y : y <> 0 -> fdiv x y = Ok (x / y).
Proof. intros. unfold fdiv. destruct (Req_EM_T y 0); [contradiction|auto]. Qed.

(** Outside: moved along the ray from the reference point by [weight * radius]. *)
Theorem C46_deflate_shift : forall radius reference weight p,
  length p = length reference -> 0 <= weight <= 1 -> 0 <= radius p ->
  radius p <= norm (vsub p reference) -> norm (vsub p reference) <> 0 ->
  exists q c, deflate radius reference weight p = Ok q /\ length q = length reference /\ 0 <= c /\
    vsub q reference = vscale c (vsub p reference) /\
    norm (vsub q reference) = norm (vsub p reference) - weight * radius p.
Proof.
  intros radius ref w p L Hw Hr Ho Hn. unfold deflate.
  set (n := norm (vsub p ref)) in *. set (r := radius p) in *.
  assert (Hp : 0 < n) by (apply norm_pos; auto).
  destruct (Rltb n r) eqn:E; [apply Rltb_true in E; lra|]. rewrite fdiv_ok by auto. cbn [bind].
  assert (Hc : 0 <= (n - r * w) / n).
  { apply Rmult_le_pos; [nra|]. left; apply Rinv_0_lt_compat; auto. }
  exists (vadd (vscale ((n - r * w) / n) (vsub p ref)) ref), ((n - r * w) / n).
  split; [auto|]. split; [autorewrite with vlen; lia|]. split; [auto|].
  split; [apply rel_scaled; auto|]. rewrite rel_scaled, norm_vscale by auto. fold n.
  rewrite Rabs_pos_eq by auto. field. auto.
Qed.
Theorem C46_inflate_shift : forall radius reference weight p,
  length p = length reference -> 0 <= weight -> 0 <= radius p -> norm (vsub p reference) <> 0 ->
  exists q c, inflate radius reference weight p = Ok q /\ length q = length reference /\ 0 < c /\
    vsub q reference = vscale c (vsub p reference) /\
    norm (vsub q reference) = norm (vsub p reference) + weight * radius p.
Proof.
  intros radius ref w p L Hw Hr Hn. unfold inflate.
  destruct (Req_EM_T (norm (vsub p ref)) 0) as [|_]; [contradiction|].
  set (n := norm (vsub p ref)) in *. set (r := radius p) in *.
  assert (Hp : 0 < n) by (apply norm_pos; auto).
  rewrite fdiv_ok by auto. cbn [bind].
  assert (Hc : 0 < (n + r * w) / n) by (apply Rdiv_lt_0_compat; nra).
  exists (vadd (vscale ((n + r * w) / n) (vsub p ref)) ref), ((n + r * w) / n).
  split; [auto|]. split; [autorewrite with vlen; lia|]. split; [auto|].
  split; [apply rel_scaled; auto|]. rewrite rel_scaled, norm_vscale by auto. fold n.
  rewrite Rabs_pos_eq by lra. field. auto.
Qed.

Theorem C46_inflate_deflate : forall radius reference weight p,
  radial radius reference -> length p = length reference -> 0 <= weight <= 1 ->
  0 <= radius p < norm (vsub p reference) ->
  exists q, deflate radius reference weight p = Ok q /\ inflate radius reference weight q = Ok p.
Proof.
  intros radius ref w p Hrad L Hw Hr.
  assert (Hn : norm (vsub p ref) <> 0) by lra.
  unfold deflate. set (n := norm (vsub p ref)) in *. set (r := radius p) in *.
  destruct (Rltb n r) eqn:E; [apply Rltb_true in E; lra|]. rewrite fdiv_ok by auto. cbn [bind].
  eexists; split; [reflexivity|].
  set (c := (n - r * w) / n).
  assert (Hc : 0 < c) by (apply Rdiv_lt_0_compat; nra).
  unfold inflate. rewrite Hrad by auto. rewrite rel_scaled, norm_vscale by auto. fold n r.
  rewrite (Rabs_pos_eq c) by lra.
  assert (Hcn : c * n = n - r * w) by (unfold c; field; auto).
  destruct (Req_EM_T (c * n) 0) as [E0|E0]; [nra|].
  rewrite fdiv_ok by auto. cbn [bind]. rewrite rel_scale_scale by auto.
  replace ((c * n + r * w) / (c * n) * c) with 1; [rewrite rel_id; auto|].
  rewrite Hcn. replace (n - r * w + r * w) with n by ring.
  unfold c. field. repeat split; first [lra | rewrite <- Hcn; auto].
Qed.
Theorem C46_deflate_inflate : forall radius reference p,
  radial radius reference -> length p = length reference -> 0 <= radius p ->
  norm (vsub p reference) <> 0 ->
  exists q, inflate radius reference 1 p = Ok q /\ deflate radius reference 1 q = Ok p.
Proof.
  intros radius ref p Hrad L Hr Hn.
  unfold inflate. destruct (Req_EM_T (norm (vsub p ref)) 0) as [|_]; [contradiction|].
  set (n := norm (vsub p ref)) in *. set (r := radius p) in *.
  assert (Hp : 0 < n) by (apply norm_pos; auto).
  rewrite fdiv_ok by auto. cbn [bind]. eexists; split; [reflexivity|].
  set (c := (n + r * 1) / n).
  assert (Hc : 0 < c) by (apply Rdiv_lt_0_compat; lra).
  unfold deflate. rewrite Hrad by auto. rewrite rel_scaled, norm_vscale by auto. fold n r.
  rewrite (Rabs_pos_eq c) by lra.
  assert (Hcn : c * n = n + r) by (unfold c; field; auto).
  rewrite Hcn. destruct (Rltb (n + r) r) eqn:E; [apply Rltb_true in E; lra|].
  rewrite fdiv_ok by lra. cbn [bind]. rewrite rel_scale_scale by auto. rewrite ?Hrad by auto. fold r.
  replace ((n + r - r * 1) / (n + r) * c) with 1; [rewrite rel_id; auto|].
  unfold c. field. lra.
Qed.
(** With a partial deflation the two are not inverse in this order: a point may be pulled inside. *)
Theorem C46_partial_deflation_refuted : exists radius reference weight p q,
  radial radius reference /\ 0 < weight < 1 /\ radius p < norm (vsub p reference) + 1 /\
  inflate radius reference weight p = Ok q /\ deflate radius reference weight q <> Ok p.
Proof.
  exists (fun _ => 1), [0; 0], (1/2), [1/4; 0].
  assert (N : norm (vsub [1/4; 0] [0; 0]) = 1/4).
  { apply norm_is_axis; [unfold vsub; simpl; vnum|lra]. }
  exists [3/4; 0]. split; [intros ? ? ? ?; auto|]. split; [lra|]. split; [rewrite N; lra|]. split.
  - unfold inflate. rewrite N. destruct (Req_EM_T (1/4) 0); [lra|]. rewrite fdiv_ok by lra. cbn.
    f_equal. vnum.
  - unfold deflate.
    assert (N2 : norm (vsub [3/4; 0] [0; 0]) = 3/4).
    { apply norm_is_axis; [unfold vsub; simpl; vnum|lra]. }
    rewrite N2. assert (E : Rltb (3/4) 1 = true) by (apply Rltb_true; lra). rewrite E.
    intros H. injection H as H. lra.
Qed.
(** On the surface full deflation reaches the reference point, from which inflation always goes
    along the first axis. *)
Theorem C46_surface_collapses : forall radius reference p,
  length p = length reference -> norm (vsub p reference) <> 0 -> radius p = norm (vsub p reference) ->
  deflate radius reference 1 p = Ok reference.
Proof.
  intros radius ref p L Hn Hr. unfold deflate. rewrite Hr.
  set (n := norm (vsub p ref)) in *.
  destruct (Rltb n n) eqn:E; [apply Rltb_true in E; lra|]. rewrite fdiv_ok by auto. cbn [bind].
  f_equal. replace ((n - n * 1) / n) with 0 by (field; auto). vext. ring.
Qed.
Example C46_case :
  deflate (fun _ => 1) [0; 0] 1 [3; 0] = Ok [2; 0] /\ inflate (fun _ => 1) [0; 0] 1 [2; 0] = Ok [3; 0].
Proof.
  unfold deflate, inflate.
  assert (N : forall a, 0 <= a -> norm (vsub [a; 0] [0; 0]) = a).
  { intros a Ha. apply norm_is_axis; [unfold vsub; simpl; vnum|lra]. }
  rewrite !N by lra. assert (E : Rltb 3 1 = false) by (apply Rltb_false; lra). rewrite E.
  destruct (Req_EM_T 2 0); [lra|]. rewrite !fdiv_ok by lra. cbn.
  split; f_equal; vnum.
Qed.

(** * C47 *)
Theorem C47_projected_weight : forall pg g power, 0 <= power ->
  exists w, projected_weight pg g power = Ok w /\ 0 < w <= 1 /\ (pg <= 1 \/ g <= 1 -> w = 1) /\
    (1 < pg -> 1 < g -> 0 < power -> w < 1).
Proof.
  intros pg g power Hp. unfold projected_weight.
  destruct (Rleb pg 1 || Rleb g 1) eqn:E.
  - exists 1. split; [auto|]. split; [lra|]. split; [auto|]. intros H1 H2.
    apply orb_true_iff in E as [E|E]; apply Rleb_true in E; lra.
  - apply orb_false_iff in E as [E1 E2]. apply Rleb_false in E1, E2.
    assert (Hq : 0 < (pg - 1) * (g - 1)) by (apply Rmult_lt_0_compat; lra).
    set (q := (pg - 1) * (g - 1)) in *. rewrite fdiv_ok by lra. cbn [bind].
    assert (H1 : 0 < 1 / (q + 1) < 1).
    { split; [apply Rdiv_lt_0_compat; lra|]. apply (Rmult_lt_reg_r (q + 1)); [lra|]. field_simplify; lra. }
    rewrite fpow_pos by lra. cbn [bind]. pose proof (Rpower_pos (1 / (q + 1)) power).
    pose proof (Rpower_le_1 (1 / (q + 1)) power ltac:(lra) Hp).
    eexists; split; [reflexivity|]. rewrite Rmin_left by auto. split; [lra|]. split; [intros; lra|].
    intros. apply Rpower_lt_1; lra.
Qed.
Theorem C47_decreasing : forall pg g pg' g' power w w', 0 <= power ->
  pg <= pg' -> g <= g' ->
  projected_weight pg g power = Ok w -> projected_weight pg' g' power = Ok w' -> w' <= w.
Proof.
  intros pg g pg' g' power w w' Hp H1 H2 Hw Hw'.
  destruct (C47_projected_weight pg' g' power Hp) as (v & Hv & Hb & _).
  rewrite Hw' in Hv. injection Hv as <-.
  unfold projected_weight in Hw, Hw'.
  destruct (Rleb pg 1 || Rleb g 1) eqn:E; [injection Hw as <-; lra|].
  apply orb_false_iff in E as [E1 E2]. apply Rleb_false in E1, E2.
  assert (E : Rleb pg' 1 || Rleb g' 1 = false).
  { apply orb_false_iff; split; apply Rleb_false; lra. }
  rewrite E in Hw'.
  assert (Hq : 0 < (pg - 1) * (g - 1)) by (apply Rmult_lt_0_compat; lra).
  assert (Hq' : (pg - 1) * (g - 1) <= (pg' - 1) * (g' - 1)) by (apply Rmult_le_compat; lra).
  set (q := (pg - 1) * (g - 1)) in *. set (q' := (pg' - 1) * (g' - 1)) in *.
  rewrite fdiv_ok in Hw, Hw' by lra. cbn [bind] in Hw, Hw'.
  assert (0 < 1 / (q + 1)) by (apply Rdiv_lt_0_compat; lra).
  assert (0 < 1 / (q' + 1)) by (apply Rdiv_lt_0_compat; lra).
  rewrite fpow_pos in Hw, Hw' by lra. cbn [bind] in Hw, Hw'. injection Hw as <-. injection Hw' as <-.
  apply Rle_min_compat_r. apply Rpower_base_mono; [lra| |auto].
  unfold Rdiv. rewrite !Rmult_1_l. apply Rinv_le_contravar; lra.
Qed.
Example C47_case : projected_weight 2 4 (1/2) = Ok (1/2).
Proof.
  unfold projected_weight.
  assert (E : Rleb 2 1 || Rleb 4 1 = false) by (apply orb_false_iff; split; apply Rleb_false; lra).
  rewrite E, fdiv_ok by lra. cbn [bind]. rewrite fpow_pos by lra. cbn [bind]. f_equal.
  replace (1 / ((2 - 1) * (4 - 1) + 1)) with (1/4) by field.
  replace (1/2) with (/2) at 1 by field. rewrite Rpower_sqrt by lra.
  replace (1/4) with ((1/2) * (1/2)) by field. rewrite sqrt_square by lra.
  apply Rmin_left. lra.
Qed.

(** * C53 *)
Theorem C53_equilibrium : forall dt x ds k_f, ds x = vzero (length x) -> rk4 dt x ds k_f = x.
Proof.
  intros dt x ds k H. unfold rk4. rewrite H.
  assert (E0 : forall c, vscale c (vzero (length x)) = vzero (length x)).
  { intros c. vext. ring. }
  rewrite !E0.
  assert (E1 : vadd x (vzero (length x)) = x) by (apply vadd_zero_r; auto).
  rewrite E1, H, !E0, E1, H, !E0, E1, H, !E0. vext. ring.
Qed.
Theorem C53_constant_field : forall dt x v k_f n, length v = length x ->
  Nat.iter n (fun y => rk4 dt y (fun _ => v) k_f) x = vadd x (vscale (INR n * dt * k_f) v).
Proof.
  intros dt x v k n L. induction n as [|n IH].
  - simpl. vext. ring.
  - rewrite S_INR. simpl Nat.iter. rewrite IH. unfold rk4. vext. field.
Qed.
(** Any linear field: the degree four Taylor polynomial of the exponential. *)
Definition linear_map (n : nat) (A : vec -> vec) : Prop :=
  (forall u, length u = n -> length (A u) = n) /\
  (forall u v, length u = n -> length v = n -> A (vadd u v) = vadd (A u) (A v)) /\
  (forall c u, length u = n -> A (vscale c u) = vscale c (A u)).
Theorem C53_linear_field : forall n A dt x k_f, linear_map n A -> length x = n ->
  let h := dt * k_f in
  rk4 dt x A k_f =
  vadd x (vadd (vscale h (A x)) (vadd (vscale (h^2 / 2) (A (A x)))
    (vadd (vscale (h^3 / 6) (A (A (A x)))) (vscale (h^4 / 24) (A (A (A (A x)))))))).
Proof.
  intros n A dt x k (HL & Ha & Hs) L h. unfold rk4.
  pose proof (HL x L) as L1. pose proof (HL _ L1) as L2. pose proof (HL _ L2) as L3. pose proof (HL _ L3) as L4.
  repeat (first [rewrite Ha by (autorewrite with vlen; lia) | rewrite Hs by (autorewrite with vlen; lia)]).
  unfold h. vext. field.
Qed.
Theorem C53_scalar_field : forall lambda dt k_f y,
  let h := dt * k_f * lambda in
  rk4 dt [y] (vscale lambda) k_f = [(1 + h + h^2/2 + h^3/6 + h^4/24) * y].
Proof. intros. unfold rk4. simpl. unfold h. f_equal. field. Qed.
(** The second result of [rk4_pos_vel] is the displacement; it is the velocity only for unit steps. *)
Theorem C53_pos_vel : forall dt pos vel ds k_f,
  rk4_pos_vel dt pos vel ds k_f =
  (rk4 dt pos (fun p => ds (p ++ vel)) k_f, snd (rk4_pos_vel dt pos vel ds k_f)) /\
  (length (snd (rk4_pos_vel dt pos vel ds k_f)) = length pos ->
   snd (rk4_pos_vel dt pos vel ds k_f) = vsub (rk4 dt pos (fun p => ds (p ++ vel)) k_f) pos).
Proof.
  intros. split; [reflexivity|]. intros H.
  change (rk4 dt pos (fun p => ds (p ++ vel)) k_f) with (vadd pos (snd (rk4_pos_vel dt pos vel ds k_f))).
  set (d := snd (rk4_pos_vel dt pos vel ds k_f)) in *. vext. ring.
Qed.
Example C53_case : rk4 1 [1; 2] (fun v => vscale (-1) v) 1 = [3/8; 3/4].
Proof. unfold rk4. simpl. vnum. Qed.
Theorem C53_speed_limit : forall k max_mag x, 0 <= k -> 0 <= max_mag ->
  mag_linear_maximum k max_mag x = Rmin (k * norm x) max_mag.
Proof.
  intros. unfold mag_linear_maximum. destruct (Rltb max_mag (norm x * k)) eqn:E.
  - apply Rltb_true in E. rewrite Rmin_right; lra.
  - apply Rltb_false in E. rewrite Rmin_left; lra.
Qed.
Print Assumptions C42_nearest_point.
Print Assumptions C43_segment_distance.
Print Assumptions C43_segment_direction.
Print Assumptions C43_weights_partial.
Print Assumptions C43_weights_refuted.
Print Assumptions C45_wavy.
Print Assumptions C45_large_deviation.
Print Assumptions C46_deflate_shift.
Print Assumptions C46_inflate_shift.
Print Assumptions C46_inflate_deflate.
Print Assumptions C46_deflate_inflate.
Print Assumptions C46_partial_deflation_refuted.
Print Assumptions C46_surface_collapses.
Print Assumptions C47_projected_weight.
Print Assumptions C47_decreasing.
Print Assumptions C53_equilibrium.
Print Assumptions C53_constant_field.
Print Assumptions C53_linear_field.
Print Assumptions C53_scalar_field.
Print Assumptions C53_pos_vel.
Print Assumptions C53_speed_limit.
