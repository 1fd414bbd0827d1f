(** C140, C141: normals and sampled surface of the regions of k-means. *)
Require Import Reals List Lia Lra Bool Arith.
From Verif Require Import Base Vec Spec RotModel RotProofs ProjModel PropProject SeqProofs PropDynamics RotAvoidModel RotAvoidProofs KMeansModel KMeansProofs PropKMeans PropKOutside KObsModel.
Import ListNotations.
Open Scope R_scope.

(** ** The mean of directions in front *)
Lemma front_mean n b fs : (2 <= n)%nat -> base_ok n b ->
  (forall f, In f fs -> 0 < fst f /\ length (snd f) = n /\ unitv (snd f) /\ 0 < dot (bs0 b) (snd f)) ->
  rsum (map fst fs) <= 1 ->
  exists u, directional_weighted_sum b (map fst fs) (map snd fs) = Ok u /\ unitv u /\ length u = n /\ 0 < dot (bs0 b) u /\
    (fs = [] -> u = bs0 b) /\ (forall v, fs = [(1, v)] -> u = v).
Proof.
  intros Hn B H Hs. pose proof B as (L0 & L1 & U0 & U1 & O). pose proof PI_RGT_0 as PP.
  assert (M : exists angles, mapM (angle_in b) (map snd fs) = Ok angles /\
     let sum := fold_right (fun wa acc => vadd (vscale (fst wa) (snd wa)) acc) (vzero (length (bs0 b))) (combine (map fst fs) angles) in
     length sum = n /\ dot (bs0 b) sum = 0 /\ (norm sum < PI / 2 * rsum (map fst fs) \/ fs = []) /\
     (fs = [] -> angles = []) /\ (forall v, fs = [(1, v)] -> exists a, angles = [a] /\ angle_of_dir n b v a)).
  { clear Hs. induction fs as [|f fs IH].
    - exists []. cbn. split; auto. split; [rewrite length_vzero; auto|]. split; [apply dot_vzero_r|]. split; auto. split; auto. discriminate.
    - destruct IH as (angles & E & S1 & S2 & S3 & S4 & _); [intros; apply H; right; auto|].
      destruct (H f ltac:(left; auto)) as (W & Lv & Uv & Dv). assert (Nv : norm (snd f) = 1) by (apply unit_norm; auto).
      destruct (angle_in_ok n b (snd f) Hn B Lv ltac:(lra)) as (a & Ea & A).
      assert (Ed : dirof (snd f) = snd f) by (unfold dirof; rewrite Nv; vext; field). rewrite Ed in A.
      exists (a :: angles). cbn [map mapM]. rewrite Ea. cbn [bind]. rewrite E. cbn [bind]. split; auto. cbv zeta. cbn [combine fold_right fst snd].
      set (sum := fold_right _ _ _) in *. pose proof (ad_len _ _ _ _ A) as La.
      split; [autorewrite with vlen; lia|]. split; [rewrite dot_vadd_r, dot_vscale_r, S2, (ad_perp _ _ _ _ A); ring|]. split.
      + left. assert (Na : norm a < PI / 2).
        { rewrite (ad_norm _ _ _ _ A). pose proof (unit_dot_bounds _ _ U0 Uv).
          apply acos_lt_of_cos; [auto|lra|]. rewrite cos_PI2. auto. }
        assert (T : norm (vadd (vscale (fst f) a) sum) <= fst f * norm a + norm sum).
        { eapply Rle_trans; [apply norm_triangle|]. rewrite norm_vscale, Rabs_right by lra. lra. }
        change (rsum (fst f :: map fst fs)) with (fst f + rsum (map fst fs)).
        assert (S3' : norm sum <= PI / 2 * rsum (map fst fs)).
        { destruct S3 as [S3|S3]; [lra|]. subst fs. unfold sum. cbn. rewrite norm_vzero. lra. }
        nra.
      + split; [discriminate|]. intros v Ef. injection Ef as Ef1 Ef2. subst f fs. exists a. cbn in E. injection E as <-. auto. }
  destruct M as (angles & E & S1 & S2 & S3 & S4 & S5). unfold directional_weighted_sum. rewrite E. cbn [bind].
  set (sum := fold_right _ _ _) in *. destruct (vector_from_angle_spec n (bs0 b) sum L0 S1 U0 S2) as (V1 & V2 & V3).
  eexists. split; [reflexivity|]. split; auto. split; auto. split.
  - rewrite V3. apply cos_gt_0; pose proof (norm_nonneg sum); [lra|]. destruct S3 as [S3|S3]; [nra|].
    subst fs. assert (Z : norm sum = 0) by (unfold sum; cbn; apply norm_vzero). lra.
  - split.
    + intros ->. unfold vector_from_angle. assert (Z : norm sum = 0) by (unfold sum; cbn; apply norm_vzero).
      destruct (Req_EM_T (norm sum) 0); [auto|contradiction].
    + intros v Ev. destruct (S5 v Ev) as (a & Ea & A). subst fs angles. unfold sum. cbn [map combine fold_right fst snd].
      replace (vadd (vscale 1 a) (vzero (length (bs0 b)))) with a; [apply (ad_back _ _ _ _ A)|].
      pose proof (ad_len _ _ _ _ A). vext. ring.
Qed.

(** ** The faces *)
Lemma update_nth_map (f : nat -> R) N k x : (k < N)%nat ->
  update_nth k x (map f (seq 0 N)) = map (fun j => if Nat.eqb j k then x else f j) (seq 0 N).
Proof.
  intros Hk. apply (nth_ext _ _ 0 0).
  - rewrite update_nth_length, !map_length. auto.
  - intros i Hi. rewrite update_nth_length, map_length, seq_length in Hi. rewrite update_nth_nth by (rewrite map_length, seq_length; auto).
    rewrite (nth_indep _ 0 (f 0%nat)) by (rewrite map_length, seq_length; auto). rewrite map_nth.
    rewrite (nth_indep (map _ _) 0 ((fun j => if Nat.eqb j k then x else f j) 0%nat)) by (rewrite map_length, seq_length; auto).
    rewrite (map_nth (fun j => if Nat.eqb j k then x else f j)), seq_nth by auto. cbn [Nat.add].
    destruct (Nat.eqb_spec i k) as [->|Q]; auto. 
Qed.
Lemma combine_map {A B C} (f : A -> B) (g : A -> C) l : combine (map f l) (map g l) = map (fun a => (f a, g a)) l.
Proof. induction l; simpl; congruence. Qed.
Lemma filter_map_only {A} (p : A -> bool) (f : nat -> A) N j : (j < N)%nat -> p (f j) = true ->
  (forall i, (i < N)%nat -> i <> j -> p (f i) = false) -> filter p (map f (seq 0 N)) = [f j].
Proof.
  intros Hj Pj Pi. assert (S1 : seq 0 N = seq 0 j ++ j :: seq (S j) (N - S j)).
  { replace N with (j + S (N - S j))%nat at 1 by lia. rewrite seq_app. reflexivity. }
  rewrite S1, map_app, filter_app. cbn [map filter]. rewrite Pj.
  rewrite !filter_none; auto; intros x Hx; apply in_map_iff in Hx; destruct Hx as (i & <- & Hi); apply in_seq in Hi; apply Pi; lia.
Qed.
Lemma nonneg_filter_sum {A} (f : nat -> R * A) l : (forall j, In j l -> 0 <= fst (f j)) ->
  rsum (map fst (filter (fun f => Rltb 0 (fst f)) (map f l))) <= rsum (map (fun j => fst (f j)) l).
Proof.
  induction l as [|j l IH]; intros H; cbn [map filter]; [apply Rle_refl|].
  specialize (IH (fun i Hi => H i (or_intror Hi))). pose proof (H j ltac:(left; auto)).
  change (rsum (fst (f j) :: map (fun j => fst (f j)) l)) with (fst (f j) + rsum (map (fun j => fst (f j)) l)).
  destruct (Rltb 0 (fst (f j))); [cbn [map]; change (rsum (fst (f j) :: ?x)) with (fst (f j) + rsum x)|]; unfold rsum in *; cbn [fold_right]; lra.
Qed.

Section Faces.
Context (o : kobs) (n : nat) (W : kwf o n) (d : vec) (s P : R).
Hypothesis U : unitv d.
Hypothesis X : extent o d s.
Hypothesis HP : s < P.
Notation N := (length (k_centers o)).
Definition face_distance (j : nat) : R := if Nat.eqb j (k_index o) then P - k_radius o else dot (knormal o j) (vsub (on_line o d P) (inbetween o j)).
Definition face_total : R := rsum (map (fun x => Rmax x 0) (surface_distances o (on_line o d P) P)).
Definition face (j : nat) : R * vec := (if Nat.eqb j (k_index o) then 0 else Rmax (face_distance j) 0 / face_total, knormal o j).
Lemma face_total_pos : 0 < face_total.
Proof.
  destruct (gamma_data o n d s P W U X HP) as [S G]. fold face_total in S.
  assert (0 <= face_total); [|lra]. apply rsum_nonneg. intros x Hx. apply in_map_iff in Hx. destruct Hx as (y & <- & _). apply Rmax_r.
Qed.
Lemma faces_map : faces o (on_line o d P) P = filter (fun f => Rltb 0 (fst f)) (map face (seq 0 N)).
Proof.
  unfold faces. fold face_total. unfold surface_distances. rewrite !map_map.
  rewrite update_nth_map by apply W. rewrite combine_map. auto.
Qed.
Lemma face_in f : In f (faces o (on_line o d P) P) -> exists j, In j (ind_relevant o) /\ f = face j /\ 0 < fst f /\ 0 < face_distance j.
Proof.
  rewrite faces_map, filter_In, in_map_iff. intros ((j & <- & Hj) & Q). apply Rltb_true in Q. apply in_seq in Hj. pose proof face_total_pos as T.
  exists j. unfold face in Q |- *. cbn [fst] in Q |- *. destruct (Nat.eqb_spec j (k_index o)) as [E|E]; [lra|].
  assert (D : 0 < face_distance j).
  { apply Rnot_le_lt. intros C. rewrite Rmax_right in Q by auto. unfold Rdiv in Q. lra. }
  split; auto. unfold face_distance in D. apply Nat.eqb_neq in E. rewrite E in D. unfold ind_relevant. apply filter_In. split; [apply in_seq; lia|].
  destruct (relevant o j) eqn:Rj; auto. exfalso. unfold knormal in D. rewrite Rj, dot_vzero_l in D. lra.
Qed.
Lemma face_ok f : In f (faces o (on_line o d P) P) -> 0 < fst f /\ length (snd f) = n /\ unitv (snd f) /\ 0 < dot d (snd f).
Proof.
  intros Hf. destruct (face_in f Hf) as (j & Ij & -> & Q & D). split; auto. cbn [face snd].
  pose proof (proj1 (relevant_spec o j) Ij) as (A & B & G). pose proof (gap_pos o n W j A B) as Pg.
  assert (Lc : length (k_center o) = n) by (apply (kw_len o n W); apply W).
  assert (Lj : length (cluster (k_centers o) j) = n) by (apply (kw_len o n W); auto).
  split; [unfold knormal; rewrite (relevant_true o j Ij); autorewrite with vlen; lia|].
  split; [unfold knormal; rewrite (relevant_true o j Ij); apply unit_vdiv; rewrite nrm_gap; lra|].
  rewrite dot_comm, (slope_normal o j d Ij). unfold face_distance in D. apply Nat.eqb_neq in B. rewrite B in D.
  rewrite (plane_value o n W d P j Ij) in D. pose proof (ex_pos _ _ _ X). nra.
Qed.
Lemma face_sum : rsum (map fst (faces o (on_line o d P) P)) <= 1.
Proof.
  pose proof face_total_pos as T. rewrite faces_map. eapply Rle_trans; [apply nonneg_filter_sum|].
  - intros j _. unfold face. cbn [fst]. destruct (Nat.eqb _ _); [lra|]. apply Rmult_le_pos; [apply Rmax_r|left; apply Rinv_0_lt_compat; auto].
  - apply Rle_trans with (rsum (map (fun j => Rmax (face_distance j) 0 / face_total) (seq 0 N))).
    + apply rsum_le. intros j _. unfold face. cbn [fst]. destruct (Nat.eqb _ _); [|lra]. apply Rmult_le_pos; [apply Rmax_r|left; apply Rinv_0_lt_compat; auto].
    + right. rewrite (rsum_map_div face_total (fun j => Rmax (face_distance j) 0)). replace (rsum (map (fun j => Rmax (face_distance j) 0) (seq 0 N))) with face_total by (unfold face_total, surface_distances; rewrite map_map; auto).
      apply Rinv_r. lra.
Qed.
Lemma faces_none : (forall j, (j < N)%nat -> j <> k_index o -> face_distance j <= 0) -> faces o (on_line o d P) P = [].
Proof.
  intros H. rewrite faces_map. apply filter_none. intros f Hf. apply in_map_iff in Hf. destruct Hf as (j & <- & Hj). apply in_seq in Hj.
  apply Rltb_false. unfold face. cbn [fst]. destruct (Nat.eqb_spec j (k_index o)) as [|E]; [lra|].
  rewrite Rmax_right by (apply H; auto; lia). unfold Rdiv. lra.
Qed.
Lemma faces_one j : (j < N)%nat -> j <> k_index o -> 0 < face_distance j -> P <= k_radius o ->
  (forall i, (i < N)%nat -> i <> k_index o -> i <> j -> face_distance i <= 0) -> faces o (on_line o d P) P = [(1, knormal o j)].
Proof.
  intros Hj Ej Dj Pr Hi.
  assert (T : face_total = face_distance j).
  { unfold face_total, surface_distances. rewrite map_map. change (rsum (map (fun i => Rmax (face_distance i) 0) (seq 0 N)) = face_distance j).
    assert (S1 : seq 0 N = seq 0 j ++ j :: seq (S j) (N - S j)).
    { replace N with (j + S (N - S j))%nat at 1 by lia. rewrite seq_app. reflexivity. }
    assert (Z : forall i, (i < N)%nat -> i <> j -> Rmax (face_distance i) 0 = 0).
    { intros i Li Ni. apply Rmax_right. destruct (Nat.eq_dec i (k_index o)) as [->|Q]; [|apply Hi; auto].
      unfold face_distance. rewrite Nat.eqb_refl. lra. }
    rewrite S1, map_app, rsum_app. cbn [map]. change (rsum (?x :: ?l)) with (x + rsum l).
    rewrite (rsum_ext _ (fun _ => 0) (seq 0 j)), (rsum_ext _ (fun _ => 0) (seq (S j) (N - S j))), !rsum_map_const, Rmax_left by (try lra; intros i Ii; apply in_seq in Ii; apply Z; lia).
    ring. }
  assert (F : face j = (1, knormal o j)).
  { unfold face. apply Nat.eqb_neq in Ej. rewrite Ej, T, Rmax_left by lra. f_equal. field. lra. }
  rewrite <- F, faces_map. apply filter_map_only; auto.
  - rewrite F. apply Rltb_true. cbn [fst]. lra.
  - intros i Li Ni. apply Rltb_false. unfold face. cbn [fst]. destruct (Nat.eqb_spec i (k_index o)) as [|E]; [lra|].
    rewrite Rmax_right by (apply Hi; auto). unfold Rdiv. lra.
Qed.
(** Signs of the distances. *)
Lemma face_distance_le j : (j < N)%nat -> j <> k_index o ->
  dist (on_line o d P) (k_center o) <= dist (on_line o d P) (cluster (k_centers o) j) -> face_distance j <= 0.
Proof.
  intros Hj Ej H. unfold face_distance. apply Nat.eqb_neq in Ej as Eb. rewrite Eb. pose proof (ex_pos _ _ _ X) as Ps.
  destruct (relevant o j) eqn:Rj.
  - assert (Ij : In j (ind_relevant o)) by (unfold ind_relevant; apply filter_In; split; auto; apply in_seq; lia).
    rewrite (plane_value o n W d P j Ij). apply (proj1 (bisector o n W d P j U ltac:(lra) Hj Ej)) in H. lra.
  - unfold knormal. rewrite Rj, dot_vzero_l. lra.
Qed.
Lemma face_distance_gt j : (j < N)%nat -> j <> k_index o -> P <= k_radius o ->
  dist (on_line o d P) (cluster (k_centers o) j) < dist (on_line o d P) (k_center o) -> 0 < face_distance j.
Proof.
  intros Hj Ej Pr H. unfold face_distance. apply Nat.eqb_neq in Ej as Eb. rewrite Eb. pose proof (ex_pos _ _ _ X) as Ps.
  assert (Ij : In j (ind_relevant o)).
  { apply relevant_spec. split; auto. split; auto. apply Rnot_le_lt. intros G.
    pose proof (irrelevant_far o (on_line o d P) j Hj Ej G) as Q. assert (Ld : dist (on_line o d P) (k_center o) = P) by (apply line_dist; [auto|lra]). rewrite Ld in Q, H. specialize (Q Pr). lra. }
  rewrite (plane_value o n W d P j Ij). apply Rnot_le_lt. intros C.
  assert (Q : P * slope o j d <= gap o j) by lra. apply (proj1 (bisector o n W d P j U ltac:(lra) Hj Ej)) in Q. lra.
Qed.
End Faces.

(** ** C140 *)
Section Normals.
Context (orth1 : vec -> vec) (argsort : list R -> list nat) (o : kobs) (n : nat).
Hypothesis Hn : (2 <= n)%nat.
Hypothesis F : frames n orth1.
Hypothesis W : kwf o n.
Notation N := (length (k_centers o)).
Notation normal := (get_normal_direction orth1 argsort o).

(** The normal at a position off the center and off the surface, from the projected position. *)
Lemma normal_off p s : length p = n -> extent o (ray o p) s -> dist p (k_center o) <> 0 -> dist p (k_center o) <> s ->
  let P := if Rltb (dist p (k_center o)) s then (s / dist p (k_center o)) ^ 2 * dist p (k_center o) else dist p (k_center o) in
  s < P /\ exists u, normal p true = Ok (oriented o u, p) /\ unitv u /\ length u = n /\ 0 < dot (ray o p) u /\
    (faces o (on_line o (ray o p) P) P = [] -> u = ray o p) /\
    (forall v, faces o (on_line o (ray o p) P) P = [(1, v)] -> u = v).
Proof.
  intros L X N0 Ns. pose proof (ray_unit o n p W L) as U.
  assert (Lc : length (k_center o) = n) by (apply (kw_len o n W); apply W).
  destruct (surface_point o n p W L) as [s' [X' [Fs D]]].
  assert (s' = s).
  { pose proof (ex_pos _ _ _ X). pose proof (ex_pos _ _ _ X').
    apply Rle_antisym.
    - apply (region_extent o n W _ s s' U X); [lra|]. apply (region_extent o n W _ s' s' U X'); lra.
    - apply (region_extent o n W _ s' s U X'); [lra|]. apply (region_extent o n W _ s s U X); lra. }
  subst s'. clear X'. cbv zeta. set (pn := dist p (k_center o)) in *. pose proof (ex_pos _ _ _ X) as Ps.
  assert (Pp : 0 < pn) by (apply dist_pos; auto). set (P := if Rltb pn s then (s / pn) ^ 2 * pn else pn).
  assert (PS : s < P).
  { unfold P. destruct (Rltb pn s) eqn:E.
    - apply Rltb_true in E. replace ((s / pn) ^ 2 * pn) with (s * (s / pn)) by (field; lra).
      assert (1 < s / pn) by (apply (Rmult_lt_reg_r pn); auto; replace (s / pn * pn) with s by (field; lra); lra). nra.
    - apply Rltb_false in E. lra. }
  split; auto.
  assert (Er : vdiv (vsub p (k_center o)) pn = ray o p).
  { unfold ray, surface_direction. change (norm (vsub p (k_center o))) with pn. destruct (Req_EM_T pn 0); [contradiction|auto]. }
  assert (Lr : length (ray o p) = n) by (rewrite <- Er; autorewrite with vlen; lia).
  assert (E3 : vsub p (k_center o) = vscale pn (ray o p)) by (rewrite <- Er; symmetry; apply vscale_norm_vdiv; auto).
  assert (E1 : (if Rltb pn s then norm (if Rltb pn s then vscale ((s / pn) ^ 2) (vsub p (k_center o)) else vsub p (k_center o)) else pn) = P).
  { unfold P. destruct (Rltb pn s); auto. rewrite norm_vscale. change (norm (vsub p (k_center o))) with pn. rewrite Rabs_right; auto.
    apply Rle_ge. apply pow2_ge_0. }
  assert (E2 : (if Rltb pn s then vadd (if Rltb pn s then vscale ((s / pn) ^ 2) (vsub p (k_center o)) else vsub p (k_center o)) (k_center o) else p) = on_line o (ray o p) P).
  { unfold P. destruct (Rltb pn s); [rewrite E3; unfold on_line; vext; ring|]. apply (surface_direction_line o n); auto. }
  assert (B : base_ok n (mkBase (ray o p) (orth1 (ray o p)))).
  { destruct (F (ray o p) Lr) as (A1 & A2 & A3); [rewrite (proj1 (unit_norm _) U); lra|]. repeat split; auto. }
  destruct (front_mean n _ (faces o (on_line o (ray o p) P) P) Hn B) as (u & Eu & Uu & Lu & Du & H0 & H1).
  { intros f Hf. cbn [bs0]. apply (face_ok o n W (ray o p) s P U X PS f Hf). }
  { apply (face_sum o n W (ray o p) s P U X PS). }
  exists u. split; [|auto]. unfold get_normal_direction. cbv zeta. rewrite (not_nan o n W).
  change (norm (vsub p (k_center o))) with pn. destruct (Req_EM_T pn 0); [contradiction|]. rewrite Fs. cbn [bind].
  change (norm (vsub (on_line o (ray o p) s) (k_center o))) with (dist (on_line o (ray o p) s) (k_center o)). rewrite D.
  destruct (Req_EM_T pn s); [contradiction|]. unfold normal_off_surface. cbv zeta. change (norm (vsub p (k_center o))) with pn.
  rewrite E1, E2. pose proof (face_total_pos o n W (ray o p) s P U X PS) as T. unfold face_total in T.
  destruct (Req_EM_T _ 0); [lra|]. rewrite Er, Eu. auto.
Qed.

Lemma surface_distance_extent p b s : length p = n -> get_point_on_surface o p = Ok b -> extent o (ray o p) s -> dist b (k_center o) = s.
Proof.
  intros L E X. pose proof (ray_unit o n p W L) as U. destruct (surface_point o n p W L) as [s' [X' [Fs D]]].
  assert (s' = s).
  { pose proof (ex_pos _ _ _ X). pose proof (ex_pos _ _ _ X').
    apply Rle_antisym.
    - apply (region_extent o n W _ s s' U X); [lra|]. apply (region_extent o n W _ s' s' U X'); lra.
    - apply (region_extent o n W _ s' s U X'); [lra|]. apply (region_extent o n W _ s s U X); lra. }
  subst s'. rewrite Fs in E. injection E as <-. auto.
Qed.
Lemma oriented_reference u p : length p = n -> length u = n -> dist p (k_center o) <> 0 -> 0 < dot (ray o p) u ->
  (k_boundary o = true -> 0 < dot (oriented o u) (get_reference_direction o p true)) /\
  (k_boundary o = false -> dot (oriented o u) (get_reference_direction o p true) < 0).
Proof.
  intros L Lu N0 D.
  assert (Lc : length (k_center o) = n) by (apply (kw_len o n W); apply W).
  assert (E : get_reference_direction o p true = vscale (-1) (ray o p)).
  { unfold get_reference_direction, ray, surface_direction. change (norm (vsub p (k_center o))) with (dist p (k_center o)).
    change (norm (vsub (k_center o) p)) with (dist (k_center o) p). rewrite (dist_sym (k_center o) p).
    destruct (Req_EM_T (dist p (k_center o)) 0); [contradiction|]. vext. field. auto. }
  rewrite E. unfold oriented. split; intros ->; autorewrite with vdot; rewrite (dot_comm u); lra.
Qed.
(** Off the center and off the surface, the normal is a unit vector on the side of the reference
    direction: into the region for a region, out of it for an obstacle.  The array of the caller is
    not changed. *)
Theorem C140_normal_partial : forall p b, length p = n -> get_point_on_surface o p = Ok b ->
  dist p (k_center o) <> 0 -> dist p (k_center o) <> dist b (k_center o) ->
  exists u, normal p true = Ok (u, p) /\ unitv u /\ length u = n /\
    (k_boundary o = true -> 0 < dot u (get_reference_direction o p true)) /\
    (k_boundary o = false -> dot u (get_reference_direction o p true) < 0).
Proof.
  intros p b L E N0 Ns. destruct (surface_point o n p W L) as [s [X _]].
  rewrite (surface_distance_extent p b s L E X) in Ns.
  destruct (normal_off p s L X N0 Ns) as (_ & u & Eu & Uu & Lu & Du & _). exists (oriented o u). split; auto.
  destruct (oriented_reference u p L Lu N0 Du) as [O1 O2].
  split; [unfold oriented; destruct (k_boundary o); auto; apply unit_opp; auto|].
  split; [unfold oriented; destruct (k_boundary o); autorewrite with vlen; auto|auto].
Qed.
(** Outside of the region: closer to the own center than to all others, the normal is radial; in
    the ball and closer to a single other center, it is the normal of the plane between the two. *)
Theorem C140_faces : forall p, length p = n -> ~ region o p ->
  ((forall j, (j < N)%nat -> j <> k_index o -> dist p (k_center o) <= dist p (cluster (k_centers o) j)) ->
   normal p true = Ok (oriented o (direction (vsub p (k_center o))), p)) /\
  (forall j, (j < N)%nat -> j <> k_index o -> dist p (k_center o) <= k_radius o ->
   dist p (cluster (k_centers o) j) < dist p (k_center o) ->
   (forall i, (i < N)%nat -> i <> k_index o -> i <> j -> dist p (k_center o) <= dist p (cluster (k_centers o) i)) ->
   normal p true = Ok (oriented o (direction (vsub (cluster (k_centers o) j) (k_center o))), p)).
Proof.
  intros p L Out. pose proof (ray_unit o n p W L) as U. destruct (surface_point o n p W L) as [s [X _]].
  pose proof (ex_pos _ _ _ X) as Ps.
  assert (Lp : p = on_line o (ray o p) (dist p (k_center o))) by (apply (surface_direction_line o n); auto).
  assert (Gt : s < dist p (k_center o)).
  { apply Rnot_le_lt. intros C. apply Out. rewrite Lp. apply (region_extent o n W _ s _ U X); auto. apply norm_nonneg. }
  destruct (normal_off p s L X ltac:(lra) ltac:(lra)) as (HP & u & Eu & _ & _ & _ & H0 & H1). cbv zeta in *.
  rewrite (proj2 (Rltb_false (dist p (k_center o)) s)) in * by lra. set (pn := dist p (k_center o)) in *.
  assert (Er : ray o p = direction (vsub p (k_center o))).
  { unfold ray, surface_direction. change (norm (vsub p (k_center o))) with pn. destruct (Req_EM_T pn 0); [lra|]. unfold vdiv, direction.
    change (norm (vsub p (k_center o))) with pn. auto. }
  split.
  - intros H. rewrite Eu. f_equal. f_equal. f_equal. rewrite <- Er. apply H0. apply (faces_none o n W (ray o p) pn).
    intros j Hj Ej. apply (face_distance_le o n W (ray o p) s pn U X HP j Hj Ej). rewrite <- Lp. apply H; auto.
  - intros j Hj Ej Pr Cl Far. rewrite Eu. f_equal. f_equal. f_equal.
    assert (Ij : In j (ind_relevant o)).
    { apply relevant_spec. split; auto. split; auto. apply Rnot_le_lt. intros G.
      pose proof (irrelevant_far o p j Hj Ej G Pr) as Q. fold pn in Q. lra. }
    replace (direction (vsub (cluster (k_centers o) j) (k_center o))) with (knormal o j) by (unfold knormal; rewrite (relevant_true o j Ij); auto).
    apply H1. apply (faces_one o n W (ray o p) pn j Hj Ej); auto.
    + apply (face_distance_gt o n W (ray o p) s pn U X HP j Hj Ej Pr). rewrite <- Lp. auto.
    + intros i Hi Ei Nij. apply (face_distance_le o n W (ray o p) s pn U X HP i Hi Ei). rewrite <- Lp. apply Far; auto.
Qed.
(** At the center: the position with its first entry set to one, which is also written to the array
    of the caller; it is a unit vector only if all other entries are zero. *)
Theorem C140_center_refuted : forall p, length p = n -> dist p (k_center o) = 0 ->
  normal p true = Ok (oriented o (1 :: tl p), 1 :: tl p) /\ (unitv (oriented o (1 :: tl p)) <-> norm (tl p) = 0).
Proof.
  intros p L Z. destruct p as [|x t]; [cbn in L; lia|]. unfold get_normal_direction. cbv zeta. rewrite (not_nan o n W).
  change (norm (vsub (x :: t) (k_center o))) with (dist (x :: t) (k_center o)). destruct (Req_EM_T _ 0); [|contradiction].
  split; auto. cbn [tl].
  assert (Q : dot (oriented o (1 :: t)) (oriented o (1 :: t)) = 1 + dot t t).
  { unfold oriented. destruct (k_boundary o); [rewrite dot_vscale_l, dot_vscale_r|]; simpl; ring. }
  unfold unitv. rewrite Q. split; intros H.
  - apply norm_eq_0_dot. lra.
  - apply norm_eq_0_dot in H. lra.
Qed.
(** On the sphere of a region without neighbours: an index error. *)
Theorem C140_sphere_refuted : forall p, length p = n -> ind_relevant o = [] -> dist p (k_center o) = k_radius o ->
  normal p true = Err EIndex.
Proof.
  intros p L No D. destruct (surface_point o n p W L) as [s [X [Fs Ds]]]. pose proof (kw_rad o n W) as Pr.
  assert (Es : s = k_radius o).
  { destruct (ex_hit _ _ _ X) as [E|(j & Ij & _)]; auto. rewrite No in Ij. destruct Ij. }
  unfold get_normal_direction. cbv zeta. rewrite (not_nan o n W). change (norm (vsub p (k_center o))) with (dist p (k_center o)).
  rewrite D. destruct (Req_EM_T (k_radius o) 0); [lra|]. rewrite Fs. cbn [bind].
  change (norm (vsub (on_line o (ray o p) s) (k_center o))) with (dist (on_line o (ray o p) s) (k_center o)). rewrite Ds, Es.
  destruct (Req_EM_T (k_radius o) (k_radius o)); [|contradiction]. unfold normal_on_surface, relevant_at. rewrite No.
  destruct (nth_error (argsort (column_norms o)) 0) as [i|]; auto. destruct i; auto.
Qed.
End Normals.

(** A region between three centers on a line. *)
Definition three : kobs := mkKobs [[0; 0]; [0; 1]; [0; 2]] (5/4) 0 true [].
Lemma axis_y x y : dist [0; x] [0; y] = Rabs (x - y).
Proof.
  unfold dist, norm. replace (dot _ _) with (Rsqr (x - y)) by (unfold Rsqr; simpl; ring). apply sqrt_Rsqr_abs.
Qed.
Lemma three_wf : kwf three 2.
Proof.
  constructor; cbn [three k_centers k_index k_radius length]; auto; try lra; try lia.
  - intros [|[|[|j]]] Hj; auto; lia.
  - intros [|[|[|j]]] Hj Ej; [lia| | |lia]; unfold k_center, cluster; cbn [k_centers k_index nth three]; rewrite axis_y, Rabs_right by lra; cbn; lra.
Qed.
Lemma three_region t : 0 <= t -> (region three [0; t] <-> t <= 1/2).
Proof.
  intros Ht. unfold region. cbn [three k_centers k_index k_radius length]. unfold k_center, cluster. cbn [three k_centers k_index nth].
  rewrite axis_y, Rabs_right by lra. split.
  - intros [_ H]. specialize (H 1%nat ltac:(lia) ltac:(lia)). cbn [nth] in H. rewrite axis_y in H. revert H. unfold Rabs. destruct (Rcase_abs _); lra.
  - intros H. split; [lra|]. intros [|[|[|j]]] Hj Ej; [lia| | |lia]; cbn [nth]; rewrite axis_y, Rabs_left by lra; lra.
Qed.
Lemma three_relevant : ind_relevant three = [1%nat; 2%nat].
Proof.
  unfold ind_relevant. cbn [three k_centers length seq filter]. unfold relevant, k_center, cluster. cbn [three k_centers k_index k_radius nth Nat.eqb negb andb].
  change (norm (vsub [0; 0] [0; 1])) with (dist [0; 0] [0; 1]). change (norm (vsub [0; 0] [0; 2])) with (dist [0; 0] [0; 2]).
  rewrite !axis_y, !Rabs_left, !(proj2 (Rltb_true _ _)) by lra. auto.
Qed.
Lemma dir_y a : 0 < a -> direction [0; a] = [0; 1].
Proof.
  intros P. unfold direction. assert (N : norm [0; a] = a).
  { unfold norm. replace (dot _ _) with (Rsqr a) by (unfold Rsqr; simpl; ring). apply sqrt_Rsqr. lra. }
  rewrite N. simpl. f_equal; [|f_equal]; field; lra.
Qed.
(** On the face between the first two centers the normal points out of the region. *)
Theorem C140_wrong_side_refuted : forall orth1 argsort, (forall a b, a < b -> argsort [a; b] = [0%nat; 1%nat]) ->
  exists o p u, kwf o 2 /\ k_boundary o = true /\ region o p /\ dist p (k_center o) = dist p (cluster (k_centers o) 1) /\
    get_normal_direction orth1 argsort o p true = Ok (u, p) /\ dot u (get_reference_direction o p true) = -1.
Proof.
  intros orth1 argsort Hs. pose proof three_wf as W. exists three, [0; 1/2], [0; 1].
  assert (Dc : dist [0; 1/2] (k_center three) = 1/2) by (unfold k_center, cluster; cbn [three k_centers k_index nth]; rewrite axis_y, Rabs_right; lra).
  split; auto. split; auto. split; [apply three_region; lra|].
  split; [rewrite Dc; unfold cluster; cbn [three k_centers nth]; rewrite axis_y, Rabs_left; lra|]. split.
  - destruct (surface_point three 2 [0; 1/2] W eq_refl) as [s [X [Fs Ds]]]. pose proof (ray_unit three 2 [0; 1/2] W eq_refl) as U.
    pose proof (ex_pos _ _ _ X) as Ps.
    assert (Er : ray three [0; 1/2] = [0; 1]).
    { unfold ray, surface_direction. change (norm (vsub [0; 1/2] (k_center three))) with (dist [0; 1/2] (k_center three)). rewrite Dc.
      destruct (Req_EM_T (1/2) 0); [lra|]. unfold k_center, cluster. cbn. f_equal; [|f_equal]; field. }
    assert (El : forall t, on_line three (ray three [0; 1/2]) t = [0; t]).
    { intros t. rewrite Er. unfold on_line, k_center, cluster. cbn. f_equal; [|f_equal]; ring. }
    assert (Es : s = 1/2).
    { apply Rle_antisym.
      - apply (three_region s ltac:(lra)). rewrite <- El. apply (region_extent three 2 W _ s s U X); lra.
      - apply (region_extent three 2 W _ s (1/2) U X); [lra|]. rewrite El. apply three_region; lra. }
    unfold get_normal_direction. cbv zeta. rewrite (not_nan three 2 W).
    change (norm (vsub [0; 1/2] (k_center three))) with (dist [0; 1/2] (k_center three)). rewrite Dc.
    destruct (Req_EM_T (1/2) 0); [lra|]. rewrite Fs. cbn [bind].
    change (norm (vsub (on_line three (ray three [0; 1/2]) s) (k_center three))) with (dist (on_line three (ray three [0; 1/2]) s) (k_center three)).
    rewrite Ds, Es. destruct (Req_EM_T (1/2) (1/2)); [|contradiction].
    assert (C : exists a b, a < b /\ column_norms three = [a; b]).
    { unfold column_norms. rewrite three_relevant. unfold k_dim, k_center, cluster. cbn [three k_centers k_index nth length seq map].
      eexists. eexists. split; [|reflexivity].
      assert (Z : norm [nth 0 (vsub [0; 1] [0; 0]) 0; nth 0 (vsub [0; 2] [0; 0]) 0] = 0) by (apply norm_eq_0_dot; simpl; ring).
      rewrite Z. apply norm_pos. intros Q. apply norm_eq_0_dot in Q. simpl in Q. lra. }
    destruct C as (a & b & Hab & C). unfold normal_on_surface, relevant_at. rewrite C, (Hs a b Hab), three_relevant. cbn [nth_error bind].
    change (norm (vsub (cluster (k_centers three) 1) (k_center three))) with (dist (cluster (k_centers three) 1) (k_center three)).
    unfold cluster, k_center, cluster. cbn [three k_centers k_index k_radius nth].
    rewrite axis_y, Rabs_right, (proj2 (Rleb_false _ _)) by lra.
    change (norm (vsub [0; 1] [0; 2])) with (dist [0; 1] [0; 2]). rewrite axis_y, Rabs_left by lra.
    destruct (Req_EM_T _ 0); [lra|]. cbn [bind]. f_equal. f_equal. unfold oriented. cbn. f_equal; [|f_equal]; field; lra.
  - unfold get_reference_direction. rewrite Rabs_left || idtac. change (norm (vsub (k_center three) [0; 1/2])) with (dist (k_center three) [0; 1/2]).
    rewrite dist_sym, Dc. destruct (Req_EM_T (1/2) 0); [lra|]. unfold k_center, cluster. cbn. field.
Qed.
(** Behind the same face the normal points into the region. *)
Example C140_case : forall orth1 argsort, frames 2 orth1 ->
  get_normal_direction orth1 argsort three [0; 3/4] true = Ok ([0; -1], [0; 3/4]).
Proof.
  intros orth1 argsort F. pose proof three_wf as W.
  destruct (C140_faces orth1 argsort three 2 (le_n 2) F W [0; 3/4] eq_refl) as [_ H].
  { rewrite three_region by lra. lra. }
  rewrite (H 1%nat); cbn [three k_centers k_index k_radius length]; unfold k_center, cluster; cbn [three k_centers k_index nth]; try lia.
  - f_equal. f_equal. unfold oriented. cbn [three k_boundary].
    replace (vsub [0; 1] [0; 0]) with [0; 1] by (unfold vsub; simpl; f_equal; [|f_equal]; ring). rewrite dir_y by lra. simpl. f_equal; [|f_equal]; ring.
  - rewrite axis_y, Rabs_right; lra.
  - rewrite !axis_y, Rabs_left, Rabs_right; lra.
  - intros [|[|[|i]]] Hi Ei Ni; try lia. cbn [nth]. rewrite !axis_y, Rabs_right, Rabs_left; lra.
Qed.

(** ** C141 *)
(** A region without transition: the value decreases along every ray from the center, it is above
    one exactly inside, one on the surface. *)
Theorem C141_gamma : forall o n p, kwf o n -> k_boundary o = true -> length p = n -> dist p (k_center o) <> 0 ->
  exists g, gamma_without_transition o p = Ok (GVal g) /\ 0 < g /\
    (1 <= g <-> region o p) /\
    (g = 1 <-> get_point_on_surface o p = Ok p) /\
    (forall c, 0 < c -> gamma_without_transition o (vadd (k_center o) (vscale c (vsub p (k_center o)))) = Ok (GVal (g / c))).
Proof.
  intros o n p W B L N0. assert (Lc : length (k_center o) = n) by (apply (kw_len o n W); apply W).
  assert (V : forall q, length q = n -> dist q (k_center o) <> 0 -> exists s, extent o (ray o q) s /\
     get_point_on_surface o q = Ok (on_line o (ray o q) s) /\ gamma_without_transition o q = Ok (GVal (s / dist q (k_center o))) /\ surface_loop o (ray o q) = (s, on_line o (ray o q) s)).
  { intros q Lq Nq. destruct (surface_extent o n W (ray o q) (ray_unit o n q W Lq)) as [s [Fl X]].
    assert (Fs : get_point_on_surface o q = Ok (on_line o (ray o q) s)).
    { unfold get_point_on_surface. rewrite (not_nan o n W). fold (ray o q). rewrite Fl. auto. }
    exists s. split; auto. split; auto. split; auto. unfold gamma_without_transition. cbv zeta. rewrite (not_nan o n W).
    change (norm (vsub q (k_center o))) with (dist q (k_center o)). destruct (Req_EM_T _ 0); [contradiction|]. rewrite Fs, B. cbn [bind].
    change (norm (vsub (on_line o (ray o q) s) (k_center o))) with (dist (on_line o (ray o q) s) (k_center o)). rewrite line_dist; auto.
    - apply (ray_unit o n q W Lq).
    - left. apply X. }
  destruct (V p L N0) as (s & X & Fs & E & Fl). set (pn := dist p (k_center o)) in *. assert (Pp : 0 < pn) by (apply dist_pos; auto).
  pose proof (ex_pos _ _ _ X) as Ps. pose proof (ray_unit o n p W L) as U.
  assert (Lp : p = on_line o (ray o p) pn) by (apply (surface_direction_line o n); auto).
  exists (s / pn). split; auto. split; [apply Rdiv_lt_0_compat; auto|]. split; [|split].
  - rewrite Lp at 1. rewrite (region_extent o n W _ s pn U X) by lra. split; intros H.
    + apply (Rmult_le_compat_r pn) in H; [|lra]. replace (s / pn * pn) with s in H by (field; lra). lra.
    + apply (Rmult_le_reg_r pn); auto. replace (s / pn * pn) with s by (field; lra). lra.
  - rewrite Fs. split; intros H.
    + assert (s = pn) by (replace s with (s / pn * pn) by (field; lra); rewrite H; ring). subst s. congruence.
    + injection H as H. assert (Q : dist (on_line o (ray o p) s) (k_center o) = s) by (apply line_dist; [auto|lra]).
      rewrite H in Q. fold pn in Q. rewrite <- Q. field. lra.
  - intros c Pc. set (q := vadd _ _). assert (Lq : length q = n) by (unfold q; autorewrite with vlen; lia).
    assert (Dq : dist q (k_center o) = c * pn).
    { unfold dist. replace (vsub q (k_center o)) with (vscale c (vsub p (k_center o))) by (unfold q; vext; ring).
      rewrite norm_vscale, Rabs_right by lra. auto. }
    assert (Pq : 0 < c * pn) by (apply Rmult_lt_0_compat; auto).
    destruct (V q Lq ltac:(lra)) as (s' & _ & _ & E' & Fl').
    assert (Rq : ray o q = ray o p).
    { unfold ray, surface_direction. change (norm (vsub q (k_center o))) with (dist q (k_center o)). rewrite Dq. change (norm (vsub p (k_center o))) with pn.
      destruct (Req_EM_T (c * pn) 0); [lra|]. destruct (Req_EM_T pn 0); [lra|].
      replace (vsub q (k_center o)) with (vscale c (vsub p (k_center o))) by (unfold q; vext; ring). vext. field. lra. }
    rewrite Rq, Fl in Fl'. injection Fl' as Es _. rewrite E', Dq, <- Es. f_equal. f_equal. field. lra.
Qed.
(** For an obstacle, the value is above one inside, and any small value outside. *)
Theorem C141_obstacle_refuted : forall o n p, kwf o n -> k_boundary o = false -> length p = n -> dist p (k_center o) <> 0 ->
  exists b g, get_point_on_surface o p = Ok b /\ gamma_without_transition o p = Ok (GVal g) /\
    (dist p (k_center o) < dist b (k_center o) -> 1 < g) /\
    (dist b (k_center o) < dist p (k_center o) -> g = dist p (k_center o) - dist b (k_center o)).
Proof.
  intros o n p W B L N0. destruct (surface_point o n p W L) as [s [X [Fs D]]]. assert (Pp : 0 < dist p (k_center o)) by (apply dist_pos; auto).
  exists (on_line o (ray o p) s). rewrite D.
  exists (if Rltb s (dist p (k_center o)) then dist p (k_center o) - s else s / dist p (k_center o)). split; auto. split; [|split].
  - unfold gamma_without_transition. cbv zeta. rewrite (not_nan o n W).
    change (norm (vsub p (k_center o))) with (dist p (k_center o)). destruct (Req_EM_T _ 0); [contradiction|]. rewrite Fs, B. cbn [bind].
    change (norm (vsub (on_line o (ray o p) s) (k_center o))) with (dist (on_line o (ray o p) s) (k_center o)). rewrite D.
    destruct (Rltb s (dist p (k_center o))); auto.
  - intros H. rewrite (proj2 (Rltb_false _ _)) by lra. apply (Rmult_lt_reg_r (dist p (k_center o))); auto.
    replace (s / dist p (k_center o) * dist p (k_center o)) with s by (field; lra). lra.
  - intros H. rewrite (proj2 (Rltb_true _ _)) by lra. auto.
Qed.
(** The sampled surface: the last points of the region on their rays; the first and the last point
    coincide. *)
Theorem C141_surface_points : forall o k, kwf o 2 -> exists l, evaluate_surface_points o k = Ok l /\ length l = k /\
  (forall x, In x l -> region o x /\ get_point_on_surface o x = Ok x) /\
  ((1 < k)%nat -> nth 0 l [] = nth (k - 1) l []).
Proof.
  intros o k W. assert (Lc : length (k_center o) = 2%nat) by (apply (kw_len o 2 W); apply W).
  unfold evaluate_surface_points. unfold k_dim. rewrite Lc. cbn [Nat.eqb negb].
  set (f := fun i => vadd [cos (linspace_angle k i); sin (linspace_angle k i)] (k_center o)).
  assert (Lf : forall i, length (f i) = 2%nat) by (intros i; unfold f; autorewrite with vlen; rewrite Lc; auto).
  assert (Df : forall i, dist (f i) (k_center o) = 1).
  { intros i. unfold dist. assert (Q : vsub (f i) (k_center o) = [cos (linspace_angle k i); sin (linspace_angle k i)]).
    { apply vec_ext; [autorewrite with vlen; rewrite Lf, Lc; auto|]. intros m. unfold f. autorewrite with vnth. ring. }
    rewrite Q. clear Q.
    apply unit_norm. unfold unitv. cbn [dot combine map fold_right fst snd]. pose proof (sin2_cos2 (linspace_angle k i)) as Q. unfold Rsqr in Q. simpl. lra. }
  assert (G : forall i, exists b, get_point_on_surface o (f i) = Ok b /\ region o b /\ get_point_on_surface o b = Ok b).
  { intros i. destruct (surface_extent o 2 W (ray o (f i)) (ray_unit o 2 (f i) W (Lf i))) as [s [Fl X]]. pose proof (ray_unit o 2 (f i) W (Lf i)) as U. pose proof (ex_pos _ _ _ X) as Ps.
    assert (Lr : length (ray o (f i)) = 2%nat).
    { unfold ray, surface_direction. change (norm (vsub (f i) (k_center o))) with (dist (f i) (k_center o)). rewrite Df.
      destruct (Req_EM_T 1 0); [lra|]. autorewrite with vlen. rewrite Lc, Lf. auto. }
    exists (on_line o (ray o (f i)) s). split.
    { unfold get_point_on_surface. rewrite (not_nan o 2 W). fold (ray o (f i)). rewrite Fl. auto. }
    split; [apply (region_extent o 2 W _ s s U X); lra|]. unfold get_point_on_surface. rewrite (not_nan o 2 W).
    replace (surface_direction (vsub (on_line o (ray o (f i)) s) (k_center o))) with (ray o (f i)); [rewrite Fl; auto|].
    unfold surface_direction. change (norm (vsub (on_line o (ray o (f i)) s) (k_center o))) with (dist (on_line o (ray o (f i)) s) (k_center o)).
    rewrite line_dist by (auto; lra). destruct (Req_EM_T s 0); [lra|].
    replace (vsub (on_line o (ray o (f i)) s) (k_center o)) with (vscale s (ray o (f i))) by (unfold on_line; vext; ring). vext. field. lra. }
  set (g := fun i => match get_point_on_surface o (f i) with Ok b => b | Err _ => [] end).
  assert (Eg : forall i, get_point_on_surface o (f i) = Ok (g i)) by (intros i; unfold g; destruct (G i) as (b & -> & _); auto).
  exists (map g (seq 0 k)). split; [|split; [|split]].
  - apply mapM_ok. intros i _. cbv zeta. apply Eg.
  - rewrite map_length, seq_length. auto.
  - intros x Hx. apply in_map_iff in Hx. destruct Hx as (i & <- & _). destruct (G i) as (b & Eb & Hb). rewrite Eg in Eb. injection Eb as ->. auto.
  - intros Hk. rewrite !(nth_indep (map g _) [] (g 0%nat)) by (rewrite map_length, seq_length; lia). rewrite !map_nth, !seq_nth by lia.
    cbn [Nat.add]. unfold g. replace (f (k - 1)%nat) with (f 0%nat); auto. unfold f, linspace_angle. destruct (Nat.eqb_spec k 1); [lia|].
    assert (Pk : INR (k - 1) <> 0) by (apply not_0_INR; lia). replace (2 * PI * INR (k - 1) / INR (k - 1)) with (2 * PI) by (field; auto).
    cbn [INR]. replace (2 * PI * 0 / INR (k - 1)) with 0 by (field; auto). rewrite cos_2PI, sin_2PI, cos_0, sin_0. auto.
Qed.
Example C141_case : gamma_without_transition three [0; 1/4] = Ok (GVal 2).
Proof.
  pose proof three_wf as W.
  assert (D : forall t, 0 <= t -> dist [0; t] (k_center three) = t) by (intros t Ht; unfold k_center, cluster; cbn [three k_centers k_index nth]; rewrite axis_y, Rabs_right; lra).
  destruct (C141_gamma three 2 [0; 1/2] W eq_refl eq_refl) as (g & E & _ & R1 & R2 & R3); [rewrite D; lra|].
  assert (G1 : 1 <= g) by (apply R1, three_region; lra).
  specialize (R3 (1/2) ltac:(lra)). unfold k_center, cluster in R3. cbn [three k_centers k_index nth] in R3.
  replace (vadd [0; 0] (vscale (1/2) (vsub [0; 1/2] [0; 0]))) with [0; 1/4] in R3 by (unfold vsub; simpl; f_equal; [|f_equal]; field).
  rewrite R3. f_equal. f_equal.
  assert (Gle : g <= 1).
  { apply Rnot_lt_le. intros Gt.
    destruct (C141_gamma three 2 [0; 1/2 * g] W eq_refl eq_refl) as (g' & E' & _ & R1' & _ & _); [rewrite D; lra|].
    destruct (C141_gamma three 2 [0; 1/2] W eq_refl eq_refl) as (g2 & E2 & _ & _ & _ & R3'); [rewrite D; lra|].
    assert (g2 = g) by congruence. subst g2. specialize (R3' g ltac:(lra)). unfold k_center, cluster in R3'. cbn [three k_centers k_index nth] in R3'.
    replace (vadd [0; 0] (vscale g (vsub [0; 1/2] [0; 0]))) with [0; 1/2 * g] in R3' by (unfold vsub; simpl; f_equal; [|f_equal]; field).
    rewrite E' in R3'. injection R3' as Eg'. assert (Q : region three [0; 1/2 * g]).
    { apply R1'. rewrite Eg'. right. field. lra. }
    apply three_region in Q; lra. }
  assert (g = 1) by lra. subst g. field.
Qed.
Print Assumptions C140_normal_partial.
Print Assumptions C140_faces.
Print Assumptions C140_center_refuted.
Print Assumptions C140_sphere_refuted.
Print Assumptions C140_wrong_side_refuted.
Print Assumptions C141_gamma.
Print Assumptions C141_obstacle_refuted.
Print Assumptions C141_surface_points.
