(** Lemmas about the regions of k-means clusters. *)
Require Import Reals List Bool Arith ZArith Lra Lia Psatz.
From Verif Require Import Base Vec RotModel PropDynamics KMeansModel.
Import ListNotations.
Open Scope R_scope.

Lemma norm_le_iff u v : norm u <= norm v <-> dot u u <= dot v v.
Proof.
  split; [|apply norm_le_sq]. intros H. rewrite <- !norm_sq.
  pose proof (norm_nonneg u). nra.
Qed.
Lemma norm_eq_iff u v : norm u = norm v <-> dot u u = dot v v.
Proof.
  split; intros H.
  - rewrite <- !norm_sq, H. reflexivity.
  - unfold norm. rewrite H. reflexivity.
Qed.
Lemma norm_lt_iff u v : norm u < norm v <-> dot u u < dot v v.
Proof.
  pose proof (norm_le_iff v u). split; intros; apply Rnot_le_lt; intros ?; apply H in H1; lra.
Qed.

(** All centers have the dimension, the radius is positive and other centers are not closer than
    the tolerance of the code. *)
Record kwf (o : kobs) (n : nat) : Prop := {
  kw_len : forall j, (j < length (k_centers o))%nat -> length (cluster (k_centers o) j) = n;
  kw_idx : (k_index o < length (k_centers o))%nat;
  kw_dim : (0 < n)%nat;
  kw_rad : 0 < k_radius o;
  kw_sep : forall j, (j < length (k_centers o))%nat -> j <> k_index o ->
    2 * k_radius o / 10 ^ 9 <= dist (cluster (k_centers o) j) (k_center o)
}.
(** Points of the region: in the ball and closest to the own center. *)
Definition region (o : kobs) (p : vec) : Prop :=
  dist p (k_center o) <= k_radius o /\
  forall j, (j < length (k_centers o))%nat -> j <> k_index o ->
    dist p (k_center o) <= dist p (cluster (k_centers o) j).
Definition on_line (o : kobs) (d : vec) (t : R) : vec := vadd (k_center o) (vscale t d).

Section Obs.
Context (o : kobs) (n : nat) (W : kwf o n).
Notation c := (k_center o).
Notation cj j := (cluster (k_centers o) j).
Notation N := (length (k_centers o)).
Notation r := (k_radius o).
Definition gap (j : nat) : R := dist (cj j) c / 2.
Definition slope (j : nat) (d : vec) : R := dot (vdiv (vsub (cj j) c) (norm (vsub (cj j) c))) d.

Lemma gap_eps j : (j < N)%nat -> j <> k_index o -> r / 10 ^ 9 <= gap j.
Proof. intros A B. pose proof (kw_sep o n W j A B). unfold gap. lra. Qed.
Lemma gap_pos j : (j < N)%nat -> j <> k_index o -> 0 < gap j.
Proof. intros A B. pose proof (gap_eps j A B). pose proof (kw_rad o n W). lra. Qed.
Lemma nrm_gap j : norm (vsub (cj j) c) = 2 * gap j.
Proof. unfold gap, dist. lra. Qed.

Lemma relevant_spec j : In j (ind_relevant o) <->
  (j < N)%nat /\ j <> k_index o /\ gap j < r.
Proof.
  unfold ind_relevant. rewrite filter_In, in_seq. unfold relevant.
  rewrite andb_true_iff, negb_true_iff, Nat.eqb_neq, Rltb_true.
  change (norm (vsub c (cj j))) with (dist c (cj j)). rewrite dist_sym. unfold gap.
  intuition lra || lia.
Qed.
Lemma relevant_true j : In j (ind_relevant o) -> relevant o j = true.
Proof. unfold ind_relevant. rewrite filter_In. tauto. Qed.
Lemma not_nan : kobs_nan o = false.
Proof.
  unfold kobs_nan. apply not_true_is_false. rewrite existsb_exists. intros [j [Hj E]].
  apply Reqb_true in E. apply relevant_spec in Hj. destruct Hj as [A [B _]].
  rewrite nrm_gap in E. pose proof (gap_pos j A B). lra.
Qed.

(** Distance along a unit direction. *)
Lemma line_dist d t : unitv d -> 0 <= t -> dist (on_line o d t) c = t.
Proof.
  intros U T. unfold dist, on_line.
  replace t with (norm (vscale t d)) at 2.
  - apply norm_eq_iff. autorewrite with vdot. rewrite (dot_comm d c). ring.
  - rewrite norm_vscale, Rabs_right by lra. apply unit_norm in U. rewrite U. ring.
Qed.
Lemma plane_value d t j : In j (ind_relevant o) ->
  dot (knormal o j) (vsub (on_line o d t) (inbetween o j)) = t * slope j d - gap j.
Proof.
  intros Hj. unfold knormal, inbetween, slope. rewrite (relevant_true j Hj).
  apply relevant_spec in Hj. destruct Hj as [A [B _]].
  set (nn := vdiv (vsub (cj j) c) (norm (vsub (cj j) c))).
  assert (E : dot nn (cj j) - dot nn c = 2 * gap j).
  { unfold nn. rewrite <- dot_vsub_r, dot_vdiv_l, <- norm_sq, nrm_gap. field.
    pose proof (gap_pos j A B). lra. }
  unfold on_line. autorewrite with vdot. lra.
Qed.
Lemma plane_from_center j : In j (ind_relevant o) ->
  dot (knormal o j) (vsub (inbetween o j) c) = gap j.
Proof.
  intros Hj. pose proof (plane_value c 0 j Hj) as H.
  replace (on_line o c 0) with c in H.
  - rewrite dot_vsub_r in H |- *. lra.
  - unfold on_line. vext. ring.
Qed.
Lemma slope_normal j d : In j (ind_relevant o) -> dot (knormal o j) d = slope j d.
Proof. intros Hj. unfold knormal, slope. rewrite (relevant_true j Hj). reflexivity. Qed.
Lemma slope_le_1 j d : (j < N)%nat -> j <> k_index o -> unitv d -> slope j d <= 1.
Proof.
  intros A B U. unfold slope.
  apply unit_dot_bounds; auto. apply unit_vdiv. rewrite nrm_gap.
  pose proof (gap_pos j A B). lra.
Qed.

(** A point is closer to the own center than to center [j] iff it is before the plane. *)
Lemma bisector d t j : unitv d -> 0 <= t -> (j < N)%nat -> j <> k_index o ->
  (dist (on_line o d t) c <= dist (on_line o d t) (cj j) <-> t * slope j d <= gap j) /\
  (dist (on_line o d t) c = dist (on_line o d t) (cj j) <-> t * slope j d = gap j).
Proof.
  intros U T A B. pose proof (gap_pos j A B) as G.
  assert (E : dot (vsub (on_line o d t) (cj j)) (vsub (on_line o d t) (cj j)) -
              dot (vsub (on_line o d t) c) (vsub (on_line o d t) c) =
              4 * gap j * (gap j - t * slope j d)).
  { transitivity (dot (vsub (cj j) c) (vsub (cj j) c) - 2 * t * dot (vsub (cj j) c) d).
    - unfold on_line. autorewrite with vdot.
      rewrite (dot_comm d (cj j)), (dot_comm d c), (dot_comm c (cj j)). ring.
    - rewrite <- norm_sq. unfold slope. rewrite dot_vdiv_l, nrm_gap. field. lra. }
  unfold dist. rewrite norm_le_iff, norm_eq_iff. split; split; intros H; try nra.
Qed.
(** Centers which are not relevant are never closer inside of the ball. *)
Lemma irrelevant_far p j : (j < N)%nat -> j <> k_index o -> r <= gap j ->
  dist p c <= r -> dist p c <= dist p (cj j).
Proof.
  intros A B G H. unfold gap in G.
  assert (T : dist (cj j) c <= dist p (cj j) + dist p c).
  { rewrite (dist_sym p (cj j)). unfold dist.
    eapply Rle_trans; [|apply norm_triangle]. right. apply norm_eq_iff.
    autorewrite with vdot. rewrite (dot_comm c (cj j)), (dot_comm p (cj j)), (dot_comm p c). ring. }
  lra.
Qed.

(** ** The loop *)
Definition stop (d : vec) (j : nat) : R := gap j / slope j d.
Definition crossed (d : vec) : list nat :=
  filter (fun j => Rltb (1 / 10 ^ 9) (Rabs (dot (knormal o j) d))) (ind_relevant o).
Lemma eps_pos : 0 < 1 / 10 ^ 9.
Proof. lra. Qed.
Lemma crossed_spec d j : In j (crossed d) <->
  In j (ind_relevant o) /\ 1 / 10 ^ 9 < Rabs (slope j d).
Proof.
  unfold crossed. rewrite filter_In, Rltb_true. split; intros [H1 H2]; split; auto.
  - rewrite slope_normal in H2; auto.
  - rewrite slope_normal; auto.
Qed.
Lemma step_neg d s j : In j (ind_relevant o) -> slope j d < 0 -> surface_step o d s j = s.
Proof.
  intros Hj H. unfold surface_step, line_plane. rewrite slope_normal, plane_from_center by auto.
  destruct (Req_EM_T (slope j d) 0); [lra|].
  apply relevant_spec in Hj. destruct Hj as [A [B _]]. pose proof (gap_pos j A B).
  assert (E : gap j / slope j d < 0).
  { unfold Rdiv. pose proof (Rinv_lt_0_compat _ H). nra. }
  apply Rltb_true in E. rewrite E. reflexivity.
Qed.
Lemma stop_pos d j : (j < N)%nat -> j <> k_index o -> 0 < slope j d -> 0 < stop d j.
Proof. intros A B H. unfold stop. apply Rdiv_lt_0_compat; auto. apply gap_pos; auto. Qed.
Lemma step_pos d s j : unitv d -> In j (ind_relevant o) -> 0 < slope j d ->
  surface_step o d s j =
  if Rltb (stop d j) (fst s) then (stop d j, on_line o d (stop d j)) else s.
Proof.
  intros U Hj H. unfold surface_step, line_plane. rewrite slope_normal, plane_from_center by auto.
  destruct (Req_EM_T (slope j d) 0); [lra|].
  pose proof (proj1 (relevant_spec j) Hj) as [A [B _]].
  pose proof (stop_pos d j A B H) as P. unfold stop in P.
  destruct (Rltb (gap j / slope j d) 0) eqn:E; [apply Rltb_true in E; lra|].
  change (vadd c (vscale (gap j / slope j d) d)) with (on_line o d (stop d j)).
  cbv zeta. change (norm (vsub c (on_line o d (stop d j)))) with (dist c (on_line o d (stop d j))).
  rewrite dist_sym, line_dist; auto. unfold stop; lra.
Qed.
Lemma loop_spec d l s0 : unitv d -> (forall j, In j l -> In j (crossed d)) ->
  0 < s0 -> exists s, fold_left (surface_step o d) l (s0, on_line o d s0) = (s, on_line o d s) /\
  0 < s <= s0 /\
  (forall j, In j l -> 0 < slope j d -> s <= stop d j) /\
  (s = s0 \/ exists j, In j l /\ 0 < slope j d /\ s = stop d j).
Proof.
  intros U. revert s0. induction l as [|j l IH]; intros s0 Hl P.
  - exists s0. simpl. repeat split; auto; try lra. intros j [].
  - pose proof (Hl j (or_introl eq_refl)) as Hj. apply crossed_spec in Hj. destruct Hj as [Hj E].
    pose proof eps_pos.
    simpl fold_left.
    destruct (Rle_or_lt (slope j d) 0) as [S|S].
    + assert (S' : slope j d < 0).
      { destruct S as [|S]; auto. rewrite S, Rabs_R0 in E. lra. }
      rewrite step_neg; auto. destruct (IH s0) as [s [F [B [M X]]]]; auto.
      { intros k Hk; apply Hl; right; auto. }
      exists s. repeat split; auto; try lra.
      * intros k [->|Hk] Sk; [lra|auto].
      * destruct X as [X|[k [X1 X2]]]; [left; auto|right; exists k; split; auto]. right; auto.
    + rewrite step_pos; auto. simpl fst.
      pose proof (proj1 (relevant_spec j) Hj) as [A [B _]].
      destruct (Rltb (stop d j) s0) eqn:L.
      * apply Rltb_true in L.
        destruct (IH (stop d j)) as [s [F [Bd [M X]]]].
        { intros k Hk; apply Hl; right; auto. }
        { apply stop_pos; auto. }
        exists s. repeat split; auto; try lra.
        -- intros k [->|Hk] Sk; [lra|auto].
        -- right. destruct X as [X|[k [X1 X2]]].
           ++ exists j. split; [left; auto|split; auto].
           ++ exists k. split; [right; auto|auto].
      * apply Rltb_false in L.
        destruct (IH s0) as [s [F [Bd [M X]]]]; auto.
        { intros k Hk; apply Hl; right; auto. }
        exists s. repeat split; auto; try lra.
        -- intros k [->|Hk] Sk; [lra|auto].
        -- destruct X as [X|[k [X1 X2]]]; [left; auto|right; exists k; split; auto]. right; auto.
Qed.

(** The surface distance: positive, bounds the region along the ray, and is attained. *)
Record extent (d : vec) (s : R) : Prop := {
  ex_pos : 0 < s;
  ex_rad : s <= r;
  ex_gap : forall j, (j < N)%nat -> j <> k_index o -> s * slope j d <= gap j;
  ex_low : forall j, (j < N)%nat -> j <> k_index o -> 0 < slope j d -> gap j < r ->
           1 / 10 ^ 9 < slope j d -> s <= stop d j;
  ex_hit : s = r \/ exists j, In j (ind_relevant o) /\ 0 < slope j d /\ s = stop d j
}.
Lemma surface_extent d : unitv d ->
  exists s, surface_loop o d = (s, on_line o d s) /\ extent d s.
Proof.
  intros U. unfold surface_loop. fold (crossed d).
  destruct (loop_spec d (crossed d) r U (fun j H => H) (kw_rad o n W)) as [s [F [B [M X]]]].
  exists s. split; [exact F|]. pose proof eps_pos as E0.
  assert (L : forall j, (j < N)%nat -> j <> k_index o -> 0 < slope j d -> gap j < r ->
           1 / 10 ^ 9 < slope j d -> s <= stop d j).
  { intros j A I S G E. apply M; auto. apply crossed_spec. split.
    - apply relevant_spec; auto.
    - rewrite Rabs_right by lra; auto. }
  constructor; auto; try lra.
  - intros j A I. pose proof (gap_pos j A I) as G0.
    destruct (Rle_or_lt (slope j d) 0) as [S|S]; [nra|].
    destruct (Rle_or_lt r (gap j)) as [G|G].
    + pose proof (slope_le_1 j d A I U). nra.
    + destruct (Rle_or_lt (slope j d) (1 / 10 ^ 9)) as [E|E].
      * pose proof (gap_eps j A I) as G1. pose proof (kw_rad o n W).
        apply Rle_trans with (r * (1 / 10 ^ 9)); [|lra].
        apply Rmult_le_compat; lra.
      * pose proof (L j A I S G E) as Q. unfold stop in Q.
        apply Rle_trans with (gap j / slope j d * slope j d); [nra|].
        right. field. lra.
  - destruct X as [X|[j [X1 [X2 X3]]]]; auto. right. exists j. split; auto.
    apply crossed_spec in X1. tauto.
Qed.
Lemma region_extent d s t : unitv d -> extent d s -> 0 <= t -> (region o (on_line o d t) <-> t <= s).
Proof.
  intros U X T. unfold region. rewrite line_dist by auto. split.
  - intros [R1 R2]. destruct (ex_hit d s X) as [->|[j [H1 [H2 H3]]]]; auto.
    apply relevant_spec in H1. destruct H1 as [A [B G]].
    pose proof (R2 j A B) as R3. rewrite <- (line_dist d t U T) in R3 at 1.
    apply (proj1 (bisector d t j U T A B)) in R3. subst s. unfold stop.
    apply (Rmult_le_reg_r (slope j d)); auto.
    replace (gap j / slope j d * slope j d) with (gap j) by (field; lra). auto.
  - intros H. pose proof (ex_rad d s X). split; [lra|]. intros j A B.
    rewrite <- (line_dist d t U T) at 1. apply (proj1 (bisector d t j U T A B)).
    pose proof (ex_gap d s X j A B). pose proof (gap_pos j A B).
    destruct (Rle_or_lt (slope j d) 0); nra.
Qed.
End Obs.
