(** Property C108, continued: the mean of the local dynamics of the k-means learner. *)
Require Import Reals List Bool Arith ZArith Lra Lia Psatz.
From Verif Require Import Base Vec Angle Pow RotModel Spec RotProofs ProjModel PropProject ConvProofs RotAvoidModel RotAvoidProofs
  KMeansModel KLearnModel PropKLearn PropKOutside.
Import ListNotations.
Open Scope R_scope.

Section Mean.
Variables (orth1 : vec -> vec) (n : nat) (e1 e2 : vec).
Hypothesis L1 : length e1 = n.
Hypothesis L2 : length e2 = n.
Hypothesis U1 : unitv e1.
Hypothesis U2 : unitv e2.
Hypothesis OE : dot e1 e2 = 0.
Notation arc := (arc e1 e2).
Notation arc' := (arc' e1 e2).
(** The mean of numbers. *)
Definition mean_of (ws ts : list R) : R := rsum (map (fun wt => fst wt * snd wt) (combine ws ts)).

Lemma arc_norm t : norm (arc t) = 1.
Proof. apply unit_norm, arc_unit; auto. Qed.
Lemma scaled_dir k t : 0 < k -> norm (vscale k (arc t)) = k /\ vdiv (vscale k (arc t)) k = arc t.
Proof.
  intros Hk. split; [rewrite norm_vscale, arc_norm, Rabs_pos_eq by lra; ring|]. vext. field. lra.
Qed.
Lemma angle_arc a x k t : 0 < k -> - PI < t - a < PI -> angle_in (mkBase (arc a) x) (vscale k (arc t)) = Ok (vscale (t - a) (arc' a)).
Proof.
  intros Hk Ht. assert (N' : norm (arc' a) = 1) by (apply unit_norm; apply arc'_dot; auto).
  destruct (scaled_dir k t Hk) as (N1 & D1).
  unfold angle_in. rewrite N1. destruct (Req_EM_T k 0); [lra|]. rewrite D1. f_equal. unfold angle_space. cbn [bs0 bs1].
  rewrite arc_dot by auto. set (h := t - a) in *. replace (a - t) with (- h) by (unfold h; ring). rewrite cos_neg.
  pose proof (arc_len n e1 e2 L1 L2 a) as La. pose proof (arc'_len n e1 e2 L1 L2 a) as La'.
  assert (EP : vsub (arc t) (vscale (cos h) (arc a)) = vscale (sin h) (arc' a)).
  { replace t with (a + h) by (unfold h; ring). rewrite (arc_step n e1 e2) by auto. vext. ring. }
  rewrite EP, norm_vscale, N', Rmult_1_r. destruct (Req_EM_T (Rabs (sin h)) 0) as [Z|Z].
  - assert (Sz : sin h = 0) by (destruct (Req_dec (sin h) 0); auto; exfalso; apply (Rabs_no_R0 (sin h)); auto).
    assert (Hz : h = 0).
    { destruct (Rtotal_order h 0) as [Q|[Q|Q]]; auto; exfalso.
      - assert (P : 0 < sin (- h)) by (apply sin_gt_0; lra). rewrite sin_neg in P. lra.
      - assert (0 < sin h) by (apply sin_gt_0; lra). lra. }
    rewrite Hz, cos_0. destruct (Rltb 1 0) eqn:Q; [apply Rltb_true in Q; lra|]. rewrite La. vext. rewrite ?nth_vzero. ring.
  - assert (AC : acos (cos h) * sin h = h * Rabs (sin h)).
    { destruct (Rle_dec 0 h) as [P|P].
      - rewrite acos_cos by lra. assert (0 <= sin h) by (apply sin_ge_0; lra). rewrite Rabs_pos_eq by auto. auto.
      - rewrite <- (cos_neg h). rewrite acos_cos by lra. assert (Q : 0 <= sin (- h)) by (apply sin_ge_0; lra). rewrite sin_neg in Q.
        rewrite Rabs_left1 by lra. ring. }
    vext.
    replace (acos (cos h) / Rabs (sin h) * (sin h * nth i (arc' a) 0)) with (acos (cos h) * sin h / Rabs (sin h) * nth i (arc' a) 0) by (field; auto).
    rewrite AC. field. auto.
Qed.
Lemma back_arc a h : vector_from_angle (arc a) (vscale h (arc' a)) = arc (a + h).
Proof.
  assert (N' : norm (arc' a) = 1) by (apply unit_norm; apply arc'_dot; auto).
  pose proof (arc_len n e1 e2 L1 L2 a) as La. pose proof (arc'_len n e1 e2 L1 L2 a) as La'.
  unfold vector_from_angle. rewrite norm_vscale, N', Rmult_1_r. rewrite (arc_step n e1 e2) by auto.
  destruct (Req_EM_T (Rabs h) 0) as [Z|Z].
  - assert (Hz : h = 0) by (destruct (Req_dec h 0); auto; exfalso; apply (Rabs_no_R0 h); auto). rewrite Hz, cos_0, sin_0. vext. ring.
  - assert (CE : cos (Rabs h) = cos h) by (unfold Rabs; destruct (Rcase_abs h); [apply cos_neg|auto]).
    assert (SE : sin (Rabs h) * h = sin h * Rabs h) by (unfold Rabs; destruct (Rcase_abs h); [rewrite sin_neg; ring|auto]).
    rewrite CE. vext. replace (sin (Rabs h) / Rabs h * (h * nth i (arc' a) 0)) with (sin (Rabs h) * h / Rabs h * nth i (arc' a) 0) by (field; auto).
    rewrite SE. field. auto.
Qed.

(** Directions given by their speed and their angle in the plane. *)
Definition flow (kt : R * R) : vec := vscale (fst kt) (arc (snd kt)).
Lemma mean_flows k0 a ws kts : 0 < k0 -> length ws = length kts -> rsum ws = 1 ->
  (forall kt, In kt kts -> 0 < fst kt /\ - PI < snd kt - a < PI) ->
  mean_around orth1 (flow (k0, a)) ws (map flow kts) = Ok (arc (mean_of ws (map snd kts))).
Proof.
  intros H0 LW SW HK. unfold mean_around. destruct (scaled_dir k0 a H0) as (N1 & D1).
  change (vscale k0 (arc a)) with (flow (k0, a)) in N1, D1. set (f0 := flow (k0, a)) in *. rewrite N1.
  destruct (Req_EM_T k0 0); [lra|]. rewrite D1. set (x := orth1 _). unfold directional_weighted_sum. cbn [bs0].
  assert (EA : mapM (angle_in (mkBase (arc a) x)) (map flow kts) = Ok (map (fun kt => vscale (snd kt - a) (arc' a)) kts)).
  { clear LW SW. induction kts as [|kt kts IH]; auto. cbn [map mapM]. destruct (HK kt (or_introl eq_refl)) as (A & B).
    unfold flow at 1. rewrite angle_arc by auto. cbn [bind]. rewrite IH; auto. intros; apply HK; right; auto. }
  rewrite EA. cbn [bind]. f_equal. pose proof (arc_len n e1 e2 L1 L2 a) as La. pose proof (arc'_len n e1 e2 L1 L2 a) as La'. rewrite La.
  assert (ES : fold_right (fun wa acc => vadd (vscale (fst wa) (snd wa)) acc) (vzero n) (combine ws (map (fun kt => vscale (snd kt - a) (arc' a)) kts))
    = vscale (mean_of ws (map snd kts) - a * rsum ws) (arc' a)).
  { clear SW HK EA. revert kts LW. induction ws as [|w ws IH]; intros [|kt kts] LW; try discriminate.
    - unfold mean_of, rsum. cbn. vext. rewrite ?nth_vzero. ring.
    - cbn [map combine fold_right fst snd]. rewrite IH by (cbn in LW; lia). unfold mean_of, rsum in *. cbn [map combine fold_right fst snd]. vext. ring. }
  rewrite ES, back_arc, SW. f_equal. ring.
Qed.

Variables (evaluate_unchecked lyapunov : nat -> vec -> res vec).
Lemma mapM_flows (f : nat -> res vec) (g : nat -> R * R) ind : (forall i, In i ind -> f i = Ok (flow (g i))) -> mapM f ind = Ok (map flow (map g ind)).
Proof.
  induction ind as [|i ind IH]; intros H; auto. cbn [map mapM]. rewrite H by (left; auto). cbn [bind]. rewrite IH; auto. intros; apply H; right; auto.
Qed.
(** Where the gradients and the local velocities lie in one plane, with less than half a turn
    between them, the mean gradient and the mean velocity have the angles which are the means of the angles,
    weighted with the weights of the clusters and whatever the speeds are. *)
Theorem C108_averaged position w ind (gradient velocity : nat -> R * R) : ind <> [] ->
  rsum (map (fun i => nth i w 0) ind) = 1 ->
  (forall i, In i ind -> lyapunov i position = Ok (flow (gradient i)) /\ evaluate_unchecked i position = Ok (flow (velocity i))) ->
  (forall i, In i ind -> 0 < fst (gradient i) /\ 0 < fst (velocity i)) ->
  (forall i j, In i ind -> In j ind -> - PI < snd (gradient i) - snd (gradient j) < PI) ->
  let ws := map (fun i => nth i w 0) ind in
  let mean := mean_of ws (map (fun i => snd (gradient i)) ind) in
  (forall i, In i ind -> - PI < snd (velocity i) - mean < PI) ->
  averaged_velocities orth1 evaluate_unchecked lyapunov position w ind =
    Ok (arc (mean_of ws (map (fun i => snd (velocity i)) ind)), arc mean).
Proof.
  intros NE SW HF HK HG ws mean HV. unfold averaged_velocities.
  rewrite (mapM_flows _ gradient) by (intros i Hi; apply HF; auto). cbn [bind]. fold ws.
  destruct ind as [|i0 ind']; [congruence|]. set (ind := i0 :: ind') in *.
  change (nth 0 (map flow (map gradient ind)) []) with (flow (gradient i0)).
  assert (I0 : In i0 ind) by (left; auto). rewrite (surjective_pairing (gradient i0)).
  rewrite mean_flows; auto.
  2: { apply HK; auto. }
  2: { unfold ws. rewrite !map_length. auto. }
  2: { intros kt Hkt. apply in_map_iff in Hkt as (i & <- & Hi). split; [apply HK; auto|apply HG; auto]. }
  cbn [bind]. rewrite map_map. change (mean_of ws (map (fun x => snd (gradient x)) ind)) with mean.
  rewrite (mapM_flows _ velocity) by (intros i Hi; apply HF; auto). cbn [bind].
  replace (arc mean) with (flow (1, mean)) at 1 by (unfold flow; cbn [fst snd]; vext; ring).
  rewrite mean_flows; auto; try lra.
  - cbn [bind]. rewrite map_map. auto.
  - unfold ws. rewrite !map_length. auto.
  - intros kt Hkt. apply in_map_iff in Hkt as (i & <- & Hi). split; [apply HK; auto|apply HV; auto].
Qed.
End Mean.

(** Two clusters with weights 1/4 and 3/4, equal gradients and local velocities at the angles 0 and 1. *)
Example C108_averaged_case orth1 :
  averaged_velocities orth1 (fun i _ => Ok (flow [1; 0] [0; 1] (2, INR i))) (fun _ _ => Ok (flow [1; 0] [0; 1] (1, 1 / 2))) [5; 5] [1 / 4; 3 / 4] [0%nat; 1%nat] =
    Ok (arc [1; 0] [0; 1] (3 / 4), arc [1; 0] [0; 1] (1 / 2)).
Proof.
  pose proof PI2_3_2 as P. assert (U : unitv [1; 0] /\ unitv [0; 1] /\ dot [1; 0] [0; 1] = 0) by (unfold unitv; cbn; lra).
  destruct U as (A & B & C).
  rewrite (C108_averaged orth1 2 [1; 0] [0; 1] eq_refl eq_refl A B C _ _ [5; 5] [1 / 4; 3 / 4] [0%nat; 1%nat] (fun _ => (1, 1 / 2)) (fun i => (2, INR i))).
  - unfold mean_of, rsum. cbn [map combine fold_right fst snd nth INR]. f_equal. f_equal; f_equal; lra.
  - discriminate.
  - unfold rsum. cbn. lra.
  - auto.
  - intros. cbn. lra.
  - intros. cbn. lra.
  - unfold mean_of, rsum. cbn [map combine fold_right fst snd nth]. intros i [<-|[<-|[]]]; cbn [fst snd INR]; lra.
Qed.
Print Assumptions C108_averaged.
