(** Properties C122-C124: weights of the components of an obstacle of Gaussians, its values of
    gamma and its surface. *)
Require Import Reals List Bool Arith Lra Lia Psatz.
From Verif Require Import Base Vec Pow RotModel Spec RotProofs TreeModel ProjModel FoldModel FoldProofs RotAvoidProofs WeightProofs
  GmmModel GraphModel GmmObstacleModel PropRotContainer.
Import ListNotations.
Open Scope R_scope.

(** * Matrices and the proportional gamma *)
Lemma mv_scale P k v : mat_vec P (vscale k v) = vscale k (mat_vec P v).
Proof. unfold mat_vec, vscale at 2. rewrite map_map. apply map_ext. intros r. apply dot_vscale_r. Qed.
Lemma mv_add P u v : mat_vec P (vadd u v) = vadd (mat_vec P u) (mat_vec P v).
Proof. unfold mat_vec. induction P as [|r P IH]; cbn [map vadd]; auto. rewrite IH, dot_vadd_r. auto. Qed.
Lemma mv_len P v : length (mat_vec P v) = length P.
Proof. apply map_length. Qed.
Lemma quad_scaled c x y k : vsub y (c_mean c) = vscale k (vsub x (c_mean c)) -> quad c y = k * k * quad c x.
Proof. intros E. unfold quad. rewrite E, mv_scale, dot_vscale_l, dot_vscale_r. ring. Qed.
Lemma gamma_ok factor c x g : 0 < factor -> gamma_proportional factor c x = Ok g ->
  0 <= g /\ quad c x = (g * factor) * (g * factor).
Proof.
  intros F. unfold gamma_proportional, fdiv. destruct (Rltb (quad c x) 0) eqn:E; [discriminate|]. apply Rltb_false in E.
  destruct (Req_EM_T factor 0); [lra|]. intros H. injection H as <-. pose proof (sqrt_pos (quad c x)) as S.
  split; [unfold Rdiv; apply Rmult_le_pos; auto; left; apply Rinv_0_lt_compat; auto|].
  replace (sqrt (quad c x) / factor * factor) with (sqrt (quad c x)) by (field; lra). rewrite sqrt_sqrt; auto.
Qed.
Lemma gamma_value factor c x g : 0 < factor -> 0 <= g -> quad c x = (g * factor) * (g * factor) ->
  gamma_proportional factor c x = Ok g.
Proof.
  intros F G E. unfold gamma_proportional, fdiv. rewrite E. assert (0 <= g * factor) by nra.
  rewrite (proj2 (Rltb_false _ _)) by nra. destruct (Req_EM_T factor 0); [lra|]. rewrite sqrt_square by auto. f_equal. field. lra.
Qed.

(** * C123: values of gamma and the projection along the ray from the center *)
(** For all components and positions away from the center: the projection lies on the ray from the
    center and has the value one, and gamma is one plus the distance from it outside, one minus
    the distance inside. *)
Theorem C123_surface factor c x g : 0 < factor -> length x = length (c_mean c) ->
  gamma_proportional factor c x = Ok g -> 0 < g ->
  exists s, project_on_surface factor c x = Ok s /\ gamma_proportional factor c s = Ok 1 /\
    vsub s (c_mean c) = vscale (/ g) (vsub x (c_mean c)) /\
    (1 <= g -> gamma_absolute factor c x = Ok (1 + norm (vsub x s))) /\
    (g <= 1 -> gamma_absolute factor c x = Ok (1 - norm (vsub x s))).
Proof.
  intros F L E G. destruct (gamma_ok _ _ _ _ F E) as [_ Q].
  unfold project_on_surface, gamma_absolute. rewrite E. cbn [bind]. destruct (Req_EM_T g 0); [lra|].
  set (s := vadd (vdiv (vsub x (c_mean c)) g) (c_mean c)).
  assert (D : vsub s (c_mean c) = vscale (/ g) (vsub x (c_mean c))) by (unfold s, vdiv; vext; ring).
  exists s. split; auto. split; [|split; auto].
  - apply gamma_value; try lra. rewrite (quad_scaled _ _ _ _ D), Q. field. lra.
  - assert (X : vsub x s = vscale (1 - / g) (vsub x (c_mean c))) by (unfold s, vdiv; vext; ring).
    assert (I : 0 < / g) by (apply Rinv_0_lt_compat; auto). assert (GI : g * / g = 1) by (field; lra).
    rewrite X, norm_vscale. unfold Rdiv. rewrite Rmult_1_l. split; intros H; f_equal.
    + rewrite Rabs_right by nra. ring.
    + rewrite Rabs_left1 by nra. ring.
Qed.
(** At the center gamma is zero, although it falls below zero around the center of an obstacle of
    more than unit radius. *)
Theorem C123_center_refuted : exists factor c x, 0 < factor /\
  gamma_absolute factor c (c_mean c) = Ok 0 /\ exists g, gamma_absolute factor c x = Ok g /\ g < 0.
Proof.
  exists 2, (mkComp [0; 0] [[1; 0]; [0; 1]] [] []), [1 / 2; 0]. split; [lra|]. split.
  - unfold gamma_absolute. rewrite (gamma_value 2 _ _ 0) by (try lra; unfold quad; cbn; ring). cbn [bind].
    destruct (Req_EM_T 0 0); auto; contradiction.
  - unfold gamma_absolute. rewrite (gamma_value 2 _ _ (/ 4)) by (try lra; unfold quad; cbn; field). cbn [bind].
    destruct (Req_EM_T (/ 4) 0); [lra|]. eexists. split; [reflexivity|].
    assert (N : norm (vsub [1 / 2; 0] [0; 0]) = / 2) by (unfold norm; apply sqrt_lem_1; cbn; lra).
    cbn [c_mean]. rewrite N. lra.
Qed.
Example C123_example : exists s, project_on_surface 2 (mkComp [1; 0] [[1; 0]; [0; 4]] [] []) [1; 3] = Ok s /\ s = [1; 1].
Proof.
  unfold project_on_surface. rewrite (gamma_value 2 _ _ 3) by (try lra; unfold quad; cbn; field). cbn [bind].
  destruct (Req_EM_T 3 0); [lra|]. eexists. split; [reflexivity|]. unfold vdiv, vscale. cbn.
  apply f_equal2; [field|apply f_equal2; [field|auto]].
Qed.

(** * C122: weights *)
Lemma nth_ctimes u : forall v i, nth i (ctimes u v) 0 = nth i u 0 * nth i v 0.
Proof.
  induction u as [|a u IH]; intros [|b v] [|i]; cbn [ctimes nth]; try ring; apply IH.
Qed.
Lemma length_ctimes u : forall v, length (ctimes u v) = Nat.min (length u) (length v).
Proof. induction u as [|a u IH]; intros [|b v]; cbn [ctimes length Nat.min]; auto. Qed.
Lemma occlusion_range factor x c ref p f : 0 < factor -> occlusion_factor factor x c ref p = Ok f ->
  0 <= f <= 1 /\ (p = None -> f = 1).
Proof.
  intros F. unfold occlusion_factor. destruct p as [p|].
  - destruct (project_offcenter c x ref) as [s|]; [|discriminate]. cbn [bind].
    destruct (gamma_proportional factor p s) as [g|] eqn:EG; [|discriminate]. cbn [bind].
    destruct (gamma_ok _ _ _ _ F EG) as [G _].
    destruct (Rleb 1 g) eqn:E1; [intros H; injection H as <-; split; [lra|discriminate]|]. apply Rleb_false in E1.
    destruct (fdiv _ _) as [dp|]; [|discriminate]. cbn [bind].
    destruct (Rleb dp 0) eqn:E2; [intros H; injection H as <-; split; [lra|discriminate]|]. apply Rleb_false in E2.
    destruct (Rleb 1 dp) eqn:E3; [intros H; injection H as <-; split; [lra|discriminate]|]. apply Rleb_false in E3.
    intros H. split; [|discriminate]. destruct (fpow_unit g (1 / (1 - dp))) as (y & EY & R); [lra| |congruence].
    apply Rdiv_lt_0_compat; lra.
  - destruct (project_offcenter c x ref) as [s|[]]; intros H; try discriminate; injection H as <-; split; auto; lra.
Qed.
(** A component with a parent is hidden exactly as far as its surface in the direction of the
    position lies in the parent and the position lies on the side of the parent: not at all when the
    surface is outside or the position on the other side, in part otherwise, and fully only straight
    in the direction of the parent or when the surface is at the center of the parent. *)
Theorem C122_hidden factor x c ref p s g f : 0 < factor ->
  project_offcenter c x ref = Ok s -> gamma_proportional factor p s = Ok g ->
  occlusion_factor factor x c ref (Some p) = Ok f ->
  let u := vsub x ref in
  let v := vsub (c_mean p) ref in
  (f = 1 <-> 1 <= g \/ dot u v <= 0) /\
  (f = 0 <-> g < 1 /\ 0 < dot u v /\ (g = 0 \/ norm u * norm v <= dot u v)).
Proof.
  intros F Es Eg H u v. unfold occlusion_factor in H. rewrite Es in H. cbn [bind] in H. rewrite Eg in H. cbn [bind] in H. fold u v in H.
  destruct (gamma_ok _ _ _ _ F Eg) as [G _].
  destruct (Rleb 1 g) eqn:E1.
  { apply Rleb_true in E1. injection H as <-. split; split; intros; try lra; auto. }
  apply Rleb_false in E1. unfold fdiv in H. destruct (Req_EM_T (norm u * norm v) 0) as [|N]; [discriminate|]. cbn [bind] in H.
  assert (P : 0 < norm u * norm v).
  { pose proof (Rmult_le_pos _ _ (sqrt_pos (dot u u)) (sqrt_pos (dot v v))) as K. unfold norm in *. lra. }
  set (q := norm u * norm v) in *. set (d := dot u v) in *.
  assert (D : d = d / q * q) by (field; lra).
  destruct (Rleb (d / q) 0) eqn:E2.
  { apply Rleb_true in E2. injection H as <-. assert (d <= 0) by nra. split; split; intros; try lra; auto. }
  apply Rleb_false in E2. assert (0 < d) by nra.
  destruct (Rleb 1 (d / q)) eqn:E3.
  { apply Rleb_true in E3. injection H as <-. assert (q <= d) by nra. split; split; intros; lra. }
  apply Rleb_false in E3. assert (d < q) by nra.
  assert (E : 0 < 1 / (1 - d / q)) by (apply Rdiv_lt_0_compat; lra). unfold fpow in H.
  destruct (Rlt_dec 0 g) as [g0|g0].
  - injection H as <-. pose proof (Rpower_pos g (1 / (1 - d / q))).
    assert (Rpower g (1 / (1 - d / q)) < 1).
    { unfold Rpower. apply Rlt_le_trans with (exp 0); [|rewrite exp_0; lra]. apply exp_increasing. assert (LN : ln g < 0) by (rewrite <- ln_1; apply ln_increasing; lra).
      pose proof (Rmult_lt_compat_l _ _ _ E LN). lra. }
    split; split; intros; lra.
  - destruct (Req_EM_T (1 / (1 - d / q)) 0); [lra|]. destruct (Req_EM_T g 0) as [->|]; [|lra].
    destruct (Rlt_dec 0 (1 / (1 - d / q))); [|lra]. injection H as <-. split; split; intros; lra.
Qed.
Lemma nth_of_nth_error {A} (l : list A) i d : (i < length l)%nat -> nth_error l i = Some (nth i l d).
Proof. intros H. apply nth_error_nth'. auto. Qed.
Lemma mapM_nth {A B} (f : A -> res B) l l' d d' i : mapM f l = Ok l' -> (i < length l)%nat -> f (nth i l d) = Ok (nth i l' d').
Proof.
  intros E H. destruct (mapM_len _ _ _ E) as [L K]. destruct (K i (nth i l d) (nth_of_nth_error l i d H)) as (b & Eb & Fb).
  rewrite Fb. f_equal. rewrite (nth_of_nth_error l' i d') in Eb by lia. congruence.
Qed.
Section Weights.
Variables (o : gobstacle) (x : vec).
Hypothesis Hfactor : 0 < o_factor o.
(** Proportional gamma and occlusion factor of the component [i]. *)
Definition gamma_at (i : nat) (g : R) : Prop := gamma_proportional (o_factor o) (comp o i) x = Ok g.
Definition occlusion_at (i : nat) (f : R) : Prop :=
  exists p, get_parent (o_graph o) i = Ok p /\
    occlusion_factor (o_factor o) x (comp o i) (nth i (o_refs o) []) (option_map (comp o) p) = Ok f.
Lemma gammas_at gs : mapM (fun c => gamma_proportional (o_factor o) c x) (o_comps o) = Ok gs ->
  length gs = length (o_comps o) /\ forall i, (i < length gs)%nat -> gamma_at i (nth i gs 0).
Proof.
  intros E. destruct (mapM_len _ _ _ E) as [L _]. split; auto. intros i H. unfold gamma_at, comp.
  apply (mapM_nth _ _ _ no_comp 0 i E). lia.
Qed.
Lemma factors_at fs : occlusion_factors o x = Ok fs ->
  length fs = length (o_comps o) /\ forall i, (i < length fs)%nat -> occlusion_at i (nth i fs 0).
Proof.
  unfold occlusion_factors. intros E. destruct (mapM_len _ _ _ E) as [L _]. rewrite seq_length in L. split; auto. intros i H.
  pose proof (mapM_nth _ _ _ 0%nat 0 i E) as M. rewrite seq_length, seq_nth in M by lia. specialize (M ltac:(lia)). cbn [plus] in M.
  unfold occlusion_at. destruct (get_parent (o_graph o) i) as [p|]; [|discriminate]. cbn [bind] in M.
  exists p. split; [reflexivity|]. destruct p; exact M.
Qed.
Lemma occlusion_at_range i f : occlusion_at i f -> 0 <= f <= 1.
Proof. intros (p & _ & E). apply (occlusion_range _ _ _ _ _ _ Hfactor E). Qed.

(** Inside or on the surface of some component: these components share the weight equally, the
    others have none. *)
Lemma weights_inside a b w : (exists i g, (i < length (o_comps o))%nat /\ gamma_at i g /\ g <= 1) ->
  gamma_weights o x a b = Ok w ->
  length w = length (o_comps o) /\ rsum w = 1 /\
  exists k, 0 < k /\ forall i g, (i < length (o_comps o))%nat -> gamma_at i g ->
    (g <= 1 -> nth i w 0 = k) /\ (1 < g -> nth i w 0 = 0).
Proof.
  intros (i0 & g0 & L0 & G0 & H0). unfold gamma_weights.
  destruct (mapM (fun c => gamma_proportional (o_factor o) c x) (o_comps o)) as [gs|] eqn:E; [|discriminate]. cbn [bind].
  destruct (gammas_at gs E) as [L G]. set (ins := map (fun g => Rleb (g - 1) 0) gs).
  assert (LI : length ins = length (o_comps o)) by (unfold ins; rewrite map_length; auto).
  assert (NI : forall i g, (i < length (o_comps o))%nat -> gamma_at i g -> nth i ins false = Rleb (g - 1) 0).
  { intros i g Hi Hg. unfold ins. rewrite (nth_indep _ false (Rleb (0 - 1) 0)) by (rewrite map_length; lia).
    rewrite (map_nth (fun g => Rleb (g - 1) 0)). specialize (G i ltac:(lia)). unfold gamma_at in *. congruence. }
  assert (I0 : In true ins).
  { rewrite <- (proj2 (Rleb_true (g0 - 1) 0)) by lra. rewrite <- (NI i0 g0 L0 G0). apply nth_In. lia. }
  rewrite (proj2 (existsb_exists _ _)) by (exists true; auto).
  set (n := length (filter (fun b : bool => b) ins)). intros W. injection W as <-.
  assert (Pn : 0 < INR n).
  { apply lt_0_INR. unfold n. assert (T : In true (filter (fun b : bool => b) ins)) by (apply filter_In; auto).
    destruct (filter _ ins); [destruct T|cbn; lia]. }
  split; [rewrite map_length; auto|]. split.
  - assert (K : forall l, rsum (map (fun b : bool => if b then 1 / INR n else 0) l) = INR (length (filter (fun b : bool => b) l)) * / INR n).
    { intros l. unfold rsum. induction l as [|[] l IH]; cbn [map filter fold_right].
      - cbn. ring.
      - rewrite IH. cbn [length]. rewrite S_INR. field. lra.
      - rewrite IH. ring. }
    rewrite K. fold n. field. lra.
  - exists (1 / INR n). split; [apply Rdiv_lt_0_compat; lra|]. intros i g Hi Hg.
    pose proof (map_nth (fun b : bool => if b then 1 / INR n else 0) ins false i) as M. cbv beta iota in M.
    rewrite M, (NI i g Hi Hg). split; intros H.
    + rewrite (proj2 (Rleb_true _ _)) by lra. auto.
    + rewrite (proj2 (Rleb_false _ _)) by lra. auto.
Qed.
(** Outside of all components: every weight is the one of the root, in proportion of the occlusion
    factors and the inverse of gamma minus one. *)
Lemma weights_outside r a b w : (r < length (o_comps o))%nat -> get_parent (o_graph o) r = Ok None ->
  (forall i g, (i < length (o_comps o))%nat -> gamma_at i g -> 1 < g) ->
  gamma_weights o x a b = Ok w ->
  length w = length (o_comps o) /\ rsum w = 1 /\ 0 < nth r w 0 /\
  forall i g gr f, (i < length (o_comps o))%nat -> gamma_at i g -> gamma_at r gr -> occlusion_at i f ->
    nth i w 0 * (g - 1) = nth r w 0 * (gr - 1) * f.
Proof.
  intros Hr Pr Out. unfold gamma_weights.
  destruct (mapM (fun c => gamma_proportional (o_factor o) c x) (o_comps o)) as [gs|] eqn:E; [|discriminate]. cbn [bind].
  destruct (gammas_at gs E) as [L G].
  destruct (existsb (fun b : bool => b) (map (fun g => Rleb (g - 1) 0) gs)) eqn:EX.
  { exfalso. apply existsb_exists in EX as (t & It & ->). apply in_map_iff in It as (g & Eg & Ig). apply Rleb_true in Eg.
    destruct (In_nth gs g 0 Ig) as (i & Hi & <-). pose proof (Out i _ ltac:(lia) (G i Hi)). lra. }
  destruct (occlusion_factors o x) as [fs|] eqn:EF; [|discriminate]. cbn [bind]. destruct (factors_at fs EF) as [LF HF].
  set (w0 := ctimes (map (fun g => 1 / (g - 1)) gs) fs).
  assert (L0 : length w0 = length (o_comps o)) by (unfold w0; rewrite length_ctimes, map_length; lia).
  assert (N0 : forall i, (i < length (o_comps o))%nat -> nth i w0 0 = 1 / (nth i gs 0 - 1) * nth i fs 0).
  { intros i Hi. unfold w0. rewrite nth_ctimes. f_equal.
    rewrite (nth_indep _ 0 ((fun g => 1 / (g - 1)) 0)) by (rewrite map_length; lia). rewrite (map_nth (fun g => 1 / (g - 1))). auto. }
  assert (GP : forall i, (i < length (o_comps o))%nat -> 0 < 1 / (nth i gs 0 - 1)).
  { intros i Hi. pose proof (Out i _ Hi (G i ltac:(lia))). apply Rdiv_lt_0_compat; lra. }
  assert (P0 : forall y, In y w0 -> 0 <= y).
  { intros y Hy. destruct (In_nth w0 y 0 Hy) as (i & Hi & <-). rewrite N0 by lia.
    pose proof (GP i ltac:(lia)). pose proof (occlusion_at_range i _ (HF i ltac:(lia))). nra. }
  assert (Fr : nth r fs 0 = 1).
  { destruct (HF r ltac:(lia)) as (p & Ep & Eo). rewrite Pr in Ep. injection Ep as <-.
    apply (proj2 (occlusion_range _ _ _ _ _ _ Hfactor Eo)). auto. }
  assert (Wr : 0 < nth r w0 0) by (rewrite N0, Fr by auto; pose proof (GP r Hr); lra).
  assert (PS : 0 < rsum w0) by (apply rsum_pos; auto; exists (nth r w0 0); split; auto; apply nth_In; lia).
  destruct (Req_EM_T (rsum w0) 0); [lra|]. intros H. injection H as <-.
  assert (NW : forall i, (i < length (o_comps o))%nat -> nth i (map (fun a => a / rsum w0) w0) 0 = nth i w0 0 / rsum w0).
  { intros i Hi. rewrite (nth_indep _ 0 ((fun a => a / rsum w0) 0)) by (rewrite map_length; lia). apply (map_nth (fun a => a / rsum w0)). }
  split; [rewrite map_length; auto|]. split; [rewrite rsum_map_div_id; field; lra|].
  split; [rewrite NW by auto; apply Rdiv_lt_0_compat; auto|].
  intros i g gr f Hi Hg Hgr Hf. rewrite !NW, !N0 by auto.
  assert (Eg : nth i gs 0 = g) by (pose proof (G i ltac:(lia)) as K; unfold gamma_at in *; congruence).
  assert (Egr : nth r gs 0 = gr) by (pose proof (G r ltac:(lia)) as K; unfold gamma_at in *; congruence).
  assert (Ef : nth i fs 0 = f).
  { destruct (HF i ltac:(lia)) as (p & Ep & Eo), Hf as (p' & Ep' & Eo'). rewrite Ep in Ep'. injection Ep' as <-. congruence. }
  rewrite Eg, Egr, Ef, Fr. pose proof (Out i g Hi Hg). pose proof (Out r gr Hr Hgr). field. lra.
Qed.

(** * C122 *)
(** For all obstacles whose graph has a root and all positions at which the weights are evaluated:
    the weights are not negative and sum to one. *)
Theorem C122_weights r a b w : (r < length (o_comps o))%nat -> get_parent (o_graph o) r = Ok None ->
  gamma_weights o x a b = Ok w ->
  length w = length (o_comps o) /\ (forall y, In y w -> 0 <= y) /\ rsum w = 1.
Proof.
  intros Hr Pr E.
  assert (GA : forall i, (i < length (o_comps o))%nat -> exists g, gamma_at i g).
  { intros i Hi. unfold gamma_weights in E. destruct (mapM (fun c => gamma_proportional (o_factor o) c x) (o_comps o)) as [gs|] eqn:M; [|discriminate].
    destruct (gammas_at gs M) as [L G]. exists (nth i gs 0). apply G. lia. }
  assert (D : (exists i g, (i < length (o_comps o))%nat /\ gamma_at i g /\ g <= 1) \/
    (forall i g, (i < length (o_comps o))%nat -> gamma_at i g -> 1 < g)).
  { destruct (Classical_Prop.classic (exists i g, (i < length (o_comps o))%nat /\ gamma_at i g /\ g <= 1)) as [|N]; auto.
    right. intros i g Hi Hg. destruct (Rlt_le_dec 1 g); auto. exfalso. apply N. eauto. }
  destruct D as [D|D].
  - destruct (weights_inside a b w D E) as (L & S1 & k & Pk & K). split; auto. split; auto. intros y Hy.
    destruct (In_nth w y 0 Hy) as (i & Hi & <-). destruct (GA i ltac:(lia)) as (g & Hg). destruct (K i g ltac:(lia) Hg) as [K1 K2].
    destruct (Rle_lt_dec g 1); [rewrite K1 by auto; lra|rewrite K2 by auto; lra].
  - destruct (weights_outside r a b w Hr Pr D E) as (L & S1 & Wr & K). split; auto. split; auto. intros y Hy.
    destruct (In_nth w y 0 Hy) as (i & Hi & <-). destruct (GA i ltac:(lia)) as (g & Hg). destruct (GA r Hr) as (gr & Hgr).
    assert (OF : exists f, occlusion_at i f).
    { unfold gamma_weights in E. destruct (mapM (fun c => gamma_proportional (o_factor o) c x) (o_comps o)) as [gs|] eqn:M; [|discriminate].
      destruct (gammas_at gs M) as [Lg G]. cbn [bind] in E.
      destruct (existsb (fun b : bool => b) (map (fun g => Rleb (g - 1) 0) gs)) eqn:EX.
      { exfalso. apply existsb_exists in EX as (t & It & ->). apply in_map_iff in It as (g' & Eg & Ig). apply Rleb_true in Eg.
        destruct (In_nth gs g' 0 Ig) as (j & Hj & <-). pose proof (D j _ ltac:(lia) (G j Hj)). lra. }
      destruct (occlusion_factors o x) as [fs|] eqn:EF; [|discriminate]. destruct (factors_at fs EF) as [LF HF].
      exists (nth i fs 0). apply HF. lia. }
    destruct OF as (f & Hf). pose proof (K i g gr f ltac:(lia) Hg Hgr Hf) as Q.
    pose proof (D i g ltac:(lia) Hg). pose proof (D r gr Hr Hgr). pose proof (occlusion_at_range i f Hf).
    assert (0 <= nth r w 0 * (gr - 1) * f) by (apply Rmult_le_pos; [apply Rmult_le_pos|]; lra).
    destruct (Rle_lt_dec 0 (nth i w 0)); auto. exfalso. nra.
Qed.
Theorem C122_inside a b w i g : (i < length (o_comps o))%nat -> gamma_at i g -> g <= 1 ->
  gamma_weights o x a b = Ok w ->
  exists k, 0 < k /\ nth i w 0 = k /\ forall j h, (j < length (o_comps o))%nat -> gamma_at j h ->
    (h <= 1 -> nth j w 0 = k) /\ (1 < h -> nth j w 0 = 0).
Proof.
  intros Hi Hg H E. destruct (weights_inside a b w) as (_ & _ & k & Pk & K); eauto.
  exists k. split; auto. split; auto. apply (K i g Hi Hg). auto.
Qed.
(** Outside: a weight is zero exactly when the component is hidden behind its parent, and for
    components which are not hidden the closer one has the larger weight. *)
Theorem C122_outside r a b w i g f : (r < length (o_comps o))%nat -> get_parent (o_graph o) r = Ok None ->
  (forall j h, (j < length (o_comps o))%nat -> gamma_at j h -> 1 < h) ->
  gamma_weights o x a b = Ok w ->
  (i < length (o_comps o))%nat -> gamma_at i g -> occlusion_at i f ->
  (nth i w 0 = 0 <-> f = 0) /\
  forall j h, (j < length (o_comps o))%nat -> gamma_at j h -> occlusion_at j 1 -> h <= g -> nth i w 0 <= nth j w 0.
Proof.
  intros Hr Pr Out E Hi Hg Hf. destruct (weights_outside r a b w Hr Pr Out E) as (L & S1 & Wr & K).
  assert (GR : exists gr, gamma_at r gr).
  { unfold gamma_weights in E. destruct (mapM (fun c => gamma_proportional (o_factor o) c x) (o_comps o)) as [gs|] eqn:M; [|discriminate].
    destruct (gammas_at gs M) as [Lg G]. exists (nth r gs 0). apply G. lia. }
  destruct GR as (gr & Hgr). pose proof (K i g gr f Hi Hg Hgr Hf) as Q. pose proof (Out i g Hi Hg) as Gi. pose proof (Out r gr Hr Hgr) as Gr.
  pose proof (occlusion_at_range i f Hf) as Rf. assert (PW : 0 < nth r w 0 * (gr - 1)) by nra. split.
  - split; intros H.
    + rewrite H in Q. nra.
    + rewrite H in Q. nra.
  - intros j h Hj Hh Ho Hle. pose proof (K j h gr 1 Hj Hh Hgr Ho) as Qj. pose proof (Out j h Hj Hh) as Gj.
    assert (nth i w 0 * (h - 1) <= nth j w 0 * (h - 1)); [|nra].
    destruct (Rle_lt_dec 0 (nth i w 0)) as [P|N]; nra.
Qed.
End Weights.
(** Two round components of radius two; a position inside of the first one only. *)
Definition round (m : vec) : component := mkComp m [[1; 0]; [0; 1]] [[1; 0]; [0; 1]] [4; 4].
Definition pair_obstacle : gobstacle :=
  mkGO 2 [round [0; 0]; round [3; 0]] [[0; 0]; [3 / 2; 0]] (mkGraph [0%nat; 1%nat] [None; Some 0%nat] [[1%nat]; []]).
Example C122_example : gamma_weights pair_obstacle [0; 2] 1 1 = Ok [1; 0].
Proof.
  unfold gamma_weights, pair_obstacle. cbn [o_comps o_factor mapM].
  rewrite (gamma_value 2 (round [0; 0]) [0; 2] 1) by (try lra; unfold quad; cbn; ring). cbn [bind].
  assert (E : gamma_proportional 2 (round [3; 0]) [0; 2] = Ok (sqrt 13 / 2)).
  { apply gamma_value; try lra; [pose proof (sqrt_pos 13); lra|]. unfold quad. cbn.
    replace (sqrt 13 / 2 * 2 * (sqrt 13 / 2 * 2)) with (sqrt 13 * sqrt 13) by field. rewrite sqrt_sqrt by lra. ring. }
  rewrite E. cbn [bind map].
  assert (S13 : 3 < sqrt 13) by (rewrite <- (sqrt_square 3) by lra; apply sqrt_lt_1; lra).
  rewrite (proj2 (Rleb_true (1 - 1) 0)) by lra. rewrite (proj2 (Rleb_false (sqrt 13 / 2 - 1) 0)) by lra.
  cbn. apply f_equal. apply f_equal2; [field|auto].
Qed.

(** From the far side of the parent the second component is hidden fully. *)
Example C122_hidden_example :
  project_offcenter (round [3; 0]) [-3; 0] [3 / 2; 0] = Ok [1; 0] /\
  occlusion_factor 2 [-3; 0] (round [3; 0]) [3 / 2; 0] (Some (round [0; 0])) = Ok 0.
Proof.
  assert (P : project_offcenter (round [3; 0]) [-3; 0] [3 / 2; 0] = Ok [1; 0]).
  { unfold project_offcenter. assert (E1 : to_circle (round [3; 0]) [-3; 0] = [- (3 / 2); 0]).
    { unfold to_circle, cquot, round. cbn. repeat (apply f_equal2; [field|]). auto. }
    assert (E2 : to_circle (round [3; 0]) [3 / 2; 0] = [- (3 / 8); 0]).
    { unfold to_circle, cquot, round. cbn. repeat (apply f_equal2; [field|]). auto. }
    rewrite E1, E2. replace (vsub [- (3 / 2); 0] [- (3 / 8); 0]) with [- (9 / 8); 0] by (cbn; repeat (apply f_equal2; [field|]); auto).
    destruct (Req_EM_T (norm [- (9 / 8); 0]) 0) as [Z|_].
    { exfalso. apply norm_eq_0_dot in Z. cbn in Z. lra. }
    unfold circle_far. cbn [dot]. rewrite (proj2 (Rltb_false _ _)) by lra.
    replace (sqrt _) with (9 / 8) by (symmetry; apply sqrt_lem_1; lra).
    unfold from_circle, round. cbn. apply f_equal. apply f_equal2; [field|]. apply f_equal2; [field|auto]. }
  split; auto. unfold occlusion_factor. rewrite P. cbn [bind].
  rewrite (gamma_value 2 (round [0; 0]) [1; 0] (/ 2)) by (try lra; unfold quad; cbn; field). cbn [bind].
  rewrite (proj2 (Rleb_false _ _)) by lra.
  replace (vsub [-3; 0] [3 / 2; 0]) with [- (9 / 2); 0] by (cbn; repeat (apply f_equal2; [field|]); auto).
  replace (vsub (c_mean (round [0; 0])) [3 / 2; 0]) with [- (3 / 2); 0] by (cbn; repeat (apply f_equal2; [field|]); auto).
  replace (norm [- (9 / 2); 0]) with (9 / 2) by (symmetry; unfold norm; apply sqrt_lem_1; cbn; lra).
  replace (norm [- (3 / 2); 0]) with (3 / 2) by (symmetry; unfold norm; apply sqrt_lem_1; cbn; lra).
  unfold fdiv. destruct (Req_EM_T (9 / 2 * (3 / 2)) 0); [lra|]. cbn [bind].
  replace (dot [- (9 / 2); 0] [- (3 / 2); 0] / (9 / 2 * (3 / 2))) with 1 by (cbn; field).
  rewrite (proj2 (Rleb_false _ _)) by lra. rewrite (proj2 (Rleb_true _ _)) by lra. auto.
Qed.

(** * C124: the frame of the circle and the projection from the reference point *)
(** Orthonormal axes of positive lengths. *)
Record shaped (n : nat) (c : component) : Prop := {
  s_mean : length (c_mean c) = n;
  s_axes : orthogonal_matrix n (c_axes c);
  s_lengths : length (c_lengths c) = n;
  s_pos : Forall (fun l => 0 < l) (c_lengths c) }.
Lemma quot_times u v : length u = length v -> Forall (fun l => 0 < l) v -> ctimes (cquot u v) v = u.
Proof.
  intros L P. revert u L. induction P as [|l v Pl _ IH]; intros [|a u] L; try discriminate; auto.
  cbn [cquot ctimes map]. unfold cquot in IH. rewrite IH by (injection L; auto). apply f_equal2; auto. field. lra.
Qed.
Lemma times_quot u v : length u = length v -> Forall (fun l => 0 < l) v -> cquot (ctimes u v) v = u.
Proof.
  intros L P. revert u L. induction P as [|l v Pl _ IH]; intros [|a u] L; try discriminate; auto.
  unfold cquot in *. cbn [ctimes map]. rewrite IH by (injection L; auto). apply f_equal2; auto. field. lra.
Qed.
Lemma mat_t_mat n cs : orthonormal_columns cs -> forall y, length y = length cs -> mat_t_vec cs (FoldModel.mat_vec n cs y) = y.
Proof.
  unfold mat_t_vec. induction cs as [|c cs IH]; intros O y L; destruct y as [|a y]; try discriminate; auto.
  destruct O as (U & P & O). cbn [map FoldModel.mat_vec]. unfold unitv in U.
  rewrite dot_vadd_r, dot_vscale_r, U, (mat_perp n cs c P). apply f_equal2; [ring|].
  transitivity (map (fun c' => dot c' (FoldModel.mat_vec n cs y)) cs); [|apply IH; auto]. apply map_ext_in. intros c' Hc'.
  rewrite dot_vadd_r, dot_vscale_r. rewrite Forall_forall in P. rewrite (dot_comm c' c), (P c' Hc'). ring.
Qed.
Lemma to_circle_len n c x : shaped n c -> length (to_circle c x) = n.
Proof.
  intros S0. unfold to_circle, cquot. rewrite length_ctimes, map_length. unfold mat_t_vec. rewrite map_length.
  pose proof (s_lengths _ _ S0). destruct (s_axes _ _ S0) as (A & _). lia.
Qed.
(** The two transformations are inverse to each other. *)
Theorem C124_inverse n c : shaped n c ->
  (forall y, length y = n -> to_circle c (from_circle c y) = y) /\
  (forall x, length x = n -> from_circle c (to_circle c x) = x).
Proof.
  intros S0. pose proof (s_mean _ _ S0) as LM. pose proof (s_lengths _ _ S0) as LL. pose proof (s_axes _ _ S0) as O.
  destruct O as (LA & FA & OC). split; intros y L.
  - unfold to_circle, from_circle. set (m := FoldModel.mat_vec _ _ _).
    assert (Lm : length m = n) by (unfold m; rewrite LM; apply mat_vec_len; auto).
    replace (vsub (vadd m (c_mean c)) (c_mean c)) with m by (vext; ring). unfold m.
    rewrite mat_t_mat; auto; [apply times_quot; [lia|apply (s_pos _ _ S0)]|]. rewrite length_ctimes. lia.
  - unfold to_circle, from_circle. rewrite quot_times.
    + rewrite LM, (orthogonal_complete n) by (try exact (s_axes _ _ S0); autorewrite with vlen; lia). vext. ring.
    + unfold mat_t_vec. rewrite map_length. lia.
    + apply (s_pos _ _ S0).
Qed.
Lemma ctimes_add u : forall u' v, length u = length u' -> ctimes (vadd u u') v = vadd (ctimes u v) (ctimes u' v).
Proof.
  induction u as [|a u IH]; intros [|a' u'] v L; try discriminate; auto. destruct v as [|b v]; auto.
  cbn [vadd ctimes]. rewrite IH by (injection L; auto). apply f_equal2; auto. ring.
Qed.
Lemma ctimes_scale k u : forall v, ctimes (vscale k u) v = vscale k (ctimes u v).
Proof.
  induction u as [|a u IH]; intros [|b v]; auto. change (vscale k (a :: u)) with (k * a :: vscale k u). cbn [ctimes].
  rewrite IH. unfold vscale at 2. cbn [map]. apply f_equal2; auto. ring.
Qed.
Lemma to_circle_line n c x y t : shaped n c -> length x = n -> length y = n ->
  to_circle c (vadd y (vscale t (vsub x y))) = vadd (to_circle c y) (vscale t (vsub (to_circle c x) (to_circle c y))).
Proof.
  intros S0 Lx Ly. pose proof (s_mean _ _ S0) as LM. pose proof (s_lengths _ _ S0) as LL. destruct (s_axes _ _ S0) as (LA & _ & _).
  apply vec_ext; [autorewrite with vlen; rewrite !(to_circle_len n) by auto; lia|]. intros i.
  autorewrite with vnth. unfold to_circle, cquot. rewrite !nth_ctimes.
  assert (E : forall z, nth i (mat_t_vec (c_axes c) z) 0 = dot (nth i (c_axes c) []) z).
  { intros z. unfold mat_t_vec. destruct (lt_dec i (length (c_axes c))) as [H|H].
    - rewrite (nth_indep _ 0 (dot [] z)) by (rewrite map_length; auto). apply (map_nth (fun a => dot a z)).
    - rewrite !nth_overflow by (rewrite ?map_length; lia). auto. }
  rewrite !E, !dot_vsub_r, dot_vadd_r, dot_vscale_r, dot_vsub_r. ring.
Qed.
(** For every reference point inside of the component and every other position: the projection
    exists, lies on the ray from the reference point through the position, and is on the surface. *)
Theorem C124_projection n c x o : shaped n c -> length x = n -> length o = n -> x <> o -> norm (to_circle c o) < / 2 ->
  exists t, 0 < t /\ project_offcenter c x o = Ok (vadd o (vscale t (vsub x o))) /\
    norm (to_circle c (vadd o (vscale t (vsub x o)))) = / 2.
Proof.
  intros S0 Lx Lo N I. destruct (C124_inverse n c S0) as [IV1 IV2]. unfold project_offcenter.
  assert (Nz : norm (vsub (to_circle c x) (to_circle c o)) <> 0).
  { intros Z. apply norm_eq_0_dot in Z. apply dot_vsub_self_eq in Z; [|rewrite !(to_circle_len n); auto].
    apply N. rewrite <- (IV2 x Lx), <- (IV2 o Lo), Z. auto. }
  destruct (Req_EM_T (norm (vsub (to_circle c x) (to_circle c o))) 0) as [Z|_]; [contradiction|].
  destruct (circle_far_inside n (to_circle c x) (to_circle c o) (/ 2)) as (t & Pt & E & NE); auto using (to_circle_len n).
  exists t. rewrite E. rewrite <- (to_circle_line n c x o t S0 Lx Lo) in *.
  split; auto. split; auto. f_equal. apply IV2. autorewrite with vlen. lia.
Qed.
(** The value of gamma of the surface is not one: for a round component of variance [v] (lengths of
    the axes [2 sqrt(v) factor], [precisions_cholesky_] the inverse of [sqrt(v)]) it is the
    fourth root of the variance at every point of the surface. *)
Definition fitted_round (factor v : R) (m : vec) : component :=
  mkComp m [[/ sqrt v; 0]; [0; / sqrt v]] [[1; 0]; [0; 1]] [2 * sqrt v * factor; 2 * sqrt v * factor].
Theorem C124_gamma_value factor v m0 m1 s0 s1 : 0 < factor -> 0 < v ->
  norm (to_circle (fitted_round factor v [m0; m1]) [s0; s1]) = / 2 ->
  gamma_proportional factor (fitted_round factor v [m0; m1]) [s0; s1] = Ok (sqrt (sqrt v)).
Proof.
  intros F V N. assert (SV : 0 < sqrt v) by (apply sqrt_lt_R0; auto). pose proof (sqrt_sqrt v ltac:(lra)) as Q.
  pose proof (sqrt_sqrt (sqrt v) ltac:(lra)) as QQ. pose proof (sqrt_pos (sqrt v)) as P4.
  apply gamma_value; auto. assert (D : dot (to_circle (fitted_round factor v [m0; m1]) [s0; s1]) (to_circle (fitted_round factor v [m0; m1]) [s0; s1]) = / 4).
  { rewrite <- norm_sq, N. field. }
  unfold to_circle, cquot, fitted_round in D. cbn in D. unfold quad, fitted_round. cbn.
  set (a := s0 + -1 * m0) in *. set (b := s1 + -1 * m1) in *. set (w := sqrt v) in *.
  assert (E : a * a + b * b = w * factor * (w * factor)).
  { transitivity (4 * (w * factor) * (w * factor) * / 4); [|field]. rewrite <- D. field. lra. }
  transitivity ((a * a + b * b) * / w); [ring|]. rewrite E.
  transitivity (w * factor * factor); [field; lra|]. rewrite <- QQ at 1. ring.
Qed.
(** So the surface of the projection is not the surface of gamma. *)
Theorem C124_gamma_refuted : exists factor v s, 0 < factor /\ 0 < v /\
  norm (to_circle (fitted_round factor v [0; 0]) s) = / 2 /\
  gamma_proportional factor (fitted_round factor v [0; 0]) s = Ok 2.
Proof.
  exists 2, 16, [8; 0]. split; [lra|]. split; [lra|]. assert (S16 : sqrt 16 = 4) by (apply sqrt_lem_1; lra).
  assert (N : norm (to_circle (fitted_round 2 16 [0; 0]) [8; 0]) = / 2).
  { unfold to_circle, cquot, fitted_round, norm. cbn. rewrite S16. apply sqrt_lem_1; lra. }
  split; auto. rewrite C124_gamma_value by (auto; lra). rewrite S16. f_equal. apply sqrt_lem_1; lra.
Qed.
Example C124_example : let c := fitted_round 2 16 [0; 0] in shaped 2 c /\
  norm (to_circle c [1; 0]) < / 2 /\ project_offcenter c [0; 0] [1; 0] = Ok [-8; 0].
Proof.
  cbn zeta. assert (S16 : sqrt 16 = 4) by (apply sqrt_lem_1; lra).
  assert (S0 : shaped 2 (fitted_round 2 16 [0; 0])).
  { split; auto.
    - split; auto. split; [repeat constructor|]. unfold fitted_round. cbn. unfold unitv. cbn.
      repeat split; try (repeat constructor); cbn; ring.
    - unfold fitted_round. cbn [c_lengths]. rewrite S16. repeat constructor; lra. }
  assert (N1 : norm (to_circle (fitted_round 2 16 [0; 0]) [1; 0]) < / 2).
  { unfold to_circle, cquot, fitted_round. cbn. rewrite S16. unfold norm. cbn.
    replace (/ 2) with (sqrt (/ 4)) by (apply sqrt_lem_1; lra). apply sqrt_lt_1_alt. lra. }
  split; auto. split; auto.
  destruct (C124_projection 2 _ [0; 0] [1; 0] S0 eq_refl eq_refl) as (t & Pt & -> & N); auto.
  - intros E. injection E. lra.
  - apply f_equal. revert N. unfold to_circle, cquot, fitted_round. cbn. rewrite S16. unfold norm. cbn. intros N.
    assert (Q : (1 - t) * (1 - t) = 64).
    { match type of N with sqrt ?z = _ => replace z with ((1 - t) * (1 - t) * / 256) in N by field end.
      apply (f_equal (fun z => z * z)) in N. rewrite sqrt_sqrt in N by (pose proof (Rle_0_sqr (1 - t)); unfold Rsqr in *; lra). lra. }
    assert (t = 9) by nra. subst t. apply f_equal2; [ring|apply f_equal2; [ring|auto]].
Qed.
Print Assumptions C123_surface.
Print Assumptions C123_center_refuted.
Print Assumptions C122_weights.
Print Assumptions C122_inside.
Print Assumptions C122_outside.
Print Assumptions C124_inverse.
Print Assumptions C124_projection.
Print Assumptions C124_gamma_value.
Print Assumptions C124_gamma_refuted.
Print Assumptions C122_hidden.
