(** Properties C29 - C34: speed scaling, obstacle avoidance entry points, relative velocity. *)
Require Import Reals List Bool Lra Lia.
From Verif Require Import Base Vec Pow RotModel SeqProofs WeightModel WeightProofs PropWeights AvoidModel.
Import ListNotations.
Open Scope R_scope.

(** Equality of planar vectors. *)
Ltac v2 := apply f_equal2; [ring|apply f_equal2; [ring|auto]].
Lemma isclose_zero x : isclose x 0 = true <-> Rabs x <= / 100000000.
Proof.
  unfold isclose. rewrite Rleb_true. rewrite Rminus_0_r, Rabs_R0. split; intros; lra.
Qed.
Lemma not_close_pos n : isclose (norm n) 0 = false -> 0 < norm n.
Proof.
  intros H. pose proof (norm_nonneg n). destruct (Req_dec (norm n) 0) as [E|]; [|lra].
  exfalso. rewrite E in H. rewrite isclose_refl in H. discriminate.
Qed.

(** * C29 *)
(** The scaling of a motion with inward component [-d] next to an obstacle. *)
Definition damping (base nn gamma root : R) : R := Rpower base (Rpower (nn / (gamma - 1)) (1 / root)).
Lemma safe_scaling_outside v n gamma ds root : unitv v -> norm n <= 1 -> 0 <= ds < 1 -> 0 < root ->
  dot v n <= 0 -> isclose (norm n) 0 = false -> 1 < gamma ->
  compute_safe_scaling v n gamma ds root = Ok (damping (1 + ds * dot v n) (norm n) gamma root) /\
  0 < 1 + ds * dot v n <= 1.
Proof.
  intros U N D Rt Dn C G. pose proof (not_close_pos n C) as Np.
  apply unit_norm in U.
  pose proof (dot_ge_norms v n) as L. rewrite U in L.
  assert (B : 0 < 1 + ds * dot v n <= 1) by nra.
  split; auto. unfold compute_safe_scaling. rewrite U. destruct (Req_EM_T 1 0); [lra|].
  rewrite (proj2 (Rltb_false 0 (dot v n))) by lra. rewrite C. simpl.
  destruct (Rle_dec gamma 1); [lra|]. unfold fdiv. destruct (Req_EM_T root 0); [lra|]. cbn [bind].
  replace (1 / (gamma - 1) * norm n) with (norm n / (gamma - 1)) by (field; lra).
  rewrite fpow_pos by (apply div_pos; lra). cbn [bind]. apply fpow_pos. lra.
Qed.
Theorem C29_safe_scaling : forall v n gamma ds root,
  unitv v -> norm n <= 1 -> 0 <= ds < 1 -> 0 < root ->
  exists s, compute_safe_scaling v n gamma ds root = Ok s /\ 0 <= s <= 1 /\
  (* not pointing against the averaged normal *)
  (0 <= dot v n -> s = 1) /\
  (* in contact *)
  (gamma <= 1 -> dot v n < -1/1000 -> s = 0) /\
  (* outside, pointing towards the obstacle: strictly slowed down, never stopped *)
  (1 < gamma -> 0 < ds -> dot v n < 0 -> 1/100000000 < norm n -> 0 < s < 1) /\
  (* the nearer the slower *)
  (forall gamma' s', 1 < gamma -> gamma <= gamma' ->
     compute_safe_scaling v n gamma' ds root = Ok s' -> s <= s').
Proof.
  intros v n gamma ds root U N D Rt.
  pose proof (proj1 (unit_norm v) U) as Uv.
  destruct (isclose (norm n) 0) eqn:C.
  { assert (E : forall g, compute_safe_scaling v n g ds root = Ok 1).
    { intros g. unfold compute_safe_scaling. rewrite Uv. destruct (Req_EM_T 1 0); [lra|].
      rewrite C, orb_true_r. auto. }
    rewrite E. exists 1. split; auto. split; [lra|]. split; [auto|].
    pose proof (proj1 (isclose_zero _) C) as K. pose proof (norm_nonneg n).
    rewrite Rabs_pos_eq in K by auto. pose proof (dot_ge_norms v n) as L. rewrite Uv in L.
    split; [intros; lra|]. split; [intros; lra|].
    intros g' s' _ _ E'. rewrite E in E'. injection E' as <-. lra. }
  destruct (Rlt_dec 0 (dot v n)) as [P|P].
  { assert (E : forall g, compute_safe_scaling v n g ds root = Ok 1).
    { intros g. unfold compute_safe_scaling. rewrite Uv. destruct (Req_EM_T 1 0); [lra|].
      rewrite (proj2 (Rltb_true _ _) P). auto. }
    rewrite E. exists 1. repeat split; auto; intros; try lra.
    match goal with K : compute_safe_scaling _ _ _ _ _ = _ |- _ => rename K into E' end. rewrite E in E'. injection E' as <-. lra. }
  destruct (Rle_dec gamma 1) as [G|G].
  { unfold compute_safe_scaling. rewrite Uv. destruct (Req_EM_T 1 0); [lra|].
    rewrite (proj2 (Rltb_false 0 (dot v n))) by lra. rewrite C. simpl.
    destruct (Rle_dec gamma 1); [|lra].
    destruct (Rltb (dot v n) (-1/1000)) eqn:K; [apply Rltb_true in K|apply Rltb_false in K].
    - exists 0. repeat split; intros; try lra.
    - exists 1. repeat split; intros; try lra. }
  assert (G' : 1 < gamma) by lra.
  destruct (safe_scaling_outside v n gamma ds root U N D Rt ltac:(lra) C G') as (-> & B).
  pose proof (not_close_pos n C) as Np. set (b := 1 + ds * dot v n) in *.
  assert (Q : 0 < 1 / root) by (apply div_pos; lra).
  eexists. split; [reflexivity|]. unfold damping.
  set (e := Rpower (norm n / (gamma - 1)) (1 / root)).
  assert (Pe : 0 < e) by apply Rpower_pos.
  pose proof (Rpower_pos b e). pose proof (Rpower_le_1 b e B ltac:(lra)).
  split; [lra|]. split; [|split; [intros; lra|split]].
  - intros Z. assert (Zd : dot v n = 0) by lra. unfold b. rewrite Zd.
    replace (1 + ds * 0) with 1 by ring. apply Rpower_base_1.
  - intros _ Dp Dn _. split; auto. apply Rpower_lt_1; auto. split; [lra|]. unfold b. nra.
  - intros g' s' _ L E.
    destruct (safe_scaling_outside v n g' ds root U N D Rt ltac:(lra) C ltac:(lra)) as (E' & _).
    rewrite E' in E. injection E as <-. unfold damping. fold b. apply Rpower_exp_anti; auto.
    apply Rpower_base_mono; [apply div_pos; lra| |lra].
    unfold Rdiv. apply Rmult_le_compat_l; [lra|]. apply Rinv_le_contravar; lra.
Qed.
(** A longer averaged normal makes the scaling undefined. *)
Lemma not_integer p : 1 < p < 2 -> p <> IZR (Int_part p).
Proof.
  intros H E. set (k := Int_part p) in *. rewrite E in H. destruct H as [A B].
  apply lt_IZR in A. apply lt_IZR in B. lia.
Qed.
Theorem C29_long_normal_undefined : exists v n gamma, unitv v /\ norm n = 2 /\ 1 < gamma /\
  compute_safe_scaling v n gamma (8/10) 3 = Err ENaN.
Proof.
  exists [1; 0], [-2; 0], 2.
  assert (N : norm [-2; 0] = 2).
  { unfold norm, dot. simpl. replace (-2 * -2 + (0 * 0 + 0)) with (Rsqr 2) by (unfold Rsqr; ring).
    apply sqrt_Rsqr. lra. }
  assert (U : unitv [1; 0]) by (unfold unitv, dot; simpl; ring).
  split; auto. split; auto. split; [lra|]. unfold compute_safe_scaling.
  rewrite (proj1 (unit_norm _) U). destruct (Req_EM_T 1 0); [lra|]. rewrite N.
  replace (dot [1; 0] [-2; 0]) with (-2) by (unfold dot; simpl; ring).
  rewrite (proj2 (Rltb_false 0 (-2))) by lra.
  replace (isclose 2 0) with false.
  2:{ symmetry. apply not_true_is_false. rewrite isclose_zero. rewrite Rabs_pos_eq by lra. lra. }
  simpl. destruct (Rle_dec 2 1); [lra|]. unfold fdiv. destruct (Req_EM_T 3 0); [lra|]. cbn [bind].
  replace (1 / (2 - 1) * 2) with 2 by field. rewrite fpow_pos by lra. cbn [bind].
  set (p := Rpower 2 (1 / 3)).
  assert (P : 1 < p < 2).
  { unfold p. split.
    - rewrite <- (Rpower_O 2) at 1 by lra. apply Rpower_lt; lra.
    - pose proof (Rpower_lt 2 (1/3) 1 ltac:(lra) ltac:(lra)) as K. rewrite Rpower_1 in K by lra. exact K. }
  unfold fpow. destruct (Rlt_dec 0 _); [lra|]. destruct (Req_EM_T p 0); [lra|].
  destruct (Req_EM_T _ 0); [lra|]. destruct (Req_EM_T p _) as [E|]; auto.
  exfalso. apply (not_integer p P E).
Qed.
Example C29_case : unitv [3/5; -4/5] /\ norm [0; 1/2] <= 1 /\ dot [3/5; -4/5] [0; 1/2] < -1/1000 /\
  compute_safe_scaling [3/5; -4/5] [0; 1/2] 1 (8/10) 3 = Ok 0.
Proof.
  assert (U : unitv [3/5; -4/5]) by (unfold unitv, dot; simpl; field).
  assert (N : norm [0; 1/2] <= 1).
  { unfold norm, dot. simpl. apply Rle_trans with (sqrt 1); [apply sqrt_le_1_alt; lra|]. rewrite sqrt_1. lra. }
  assert (D : dot [3/5; -4/5] [0; 1/2] < -1/1000) by (unfold dot; simpl; lra).
  split; auto. split; auto. split; auto.
  destruct (C29_safe_scaling [3/5; -4/5] [0; 1/2] 1 (8/10) 3) as (s & E & _ & _ & Z & _); auto; try lra.
  rewrite E, Z; auto; lra.
Qed.
Print Assumptions C29_safe_scaling.
Print Assumptions C29_long_normal_undefined.

(** * C30 *)
Theorem C30_safe_magnitude_partial : forall v m n gamma ds root,
  0 <= m -> 0 <= ds -> 0 < root ->
  (* the velocity is not so fast that the damping base turns negative *)
  0 < 1 + ds * dot v n ->
  (norm v = 0 -> compute_safe_magnitude v m n gamma ds root = Ok v) /\
  (norm v <> 0 -> exists s, 0 <= s <= 1 /\
     compute_safe_magnitude v m n gamma ds root = Ok (vscale (s * m / norm v) v) /\
     norm (vscale (s * m / norm v) v) = s * m /\
     (0 <= dot v n -> s = 1) /\
     (gamma <= 1 -> dot v n < -1/1000 -> s = 0) /\
     (1 < gamma -> dot v n < 0 -> 0 < ds -> 0 < s < 1)).
Proof.
  intros v m n gamma ds root Hm Hd Rt B. unfold compute_safe_magnitude.
  destruct (Req_EM_T (norm v) 0) as [Z|NZ]; split; intros H; try contradiction; auto.
  clear H. pose proof (norm_pos v NZ) as Pv.
  assert (V : forall s, vscale s (vscale m (vdiv v (norm v))) = vscale (s * m / norm v) v).
  { intros s. vext. field. auto. }
  assert (W : forall s, 0 <= s -> norm (vscale (s * m / norm v) v) = s * m).
  { intros s Hs. rewrite norm_vscale, Rabs_pos_eq; [field; auto|]. apply div_nonneg; [nra|auto]. }
  destruct (Rltb 0 (dot v n) || Reqb (norm n) 0) eqn:C.
  { rewrite (proj2 (Rltb_false 1 1)) by lra. rewrite V. exists 1. split; [lra|]. split; auto.
    split; [apply W; lra|]. split; auto.
    assert (0 <= dot v n).
    { apply orb_true_iff in C. destruct C as [C|C]; [apply Rltb_true in C; lra|].
      apply Reqb_true in C. pose proof (cauchy_schwarz v n) as K. rewrite C, Rmult_0_r in K.
      pose proof (Rabs_pos (dot v n)). assert (Rabs (dot v n) = 0) by lra.
      destruct (Req_dec (dot v n) 0) as [->|Q]; [lra|]. apply Rabs_no_R0 in Q. lra. }
    split; intros; lra. }
  apply orb_false_iff in C. destruct C as [C1 C2]. apply Rltb_false in C1. apply Reqb_false in C2.
  pose proof (norm_pos n C2) as Pn.
  destruct (Rle_dec gamma 1) as [G|G].
  - destruct (Rltb (dot v n) (-1/1000)) eqn:K; [apply Rltb_true in K|apply Rltb_false in K].
    + exists 0. split; [lra|]. split.
      { f_equal. vext. field. auto. }
      split; [apply W; lra|]. repeat split; intros; try lra.
    + rewrite (proj2 (Rltb_false 1 1)) by lra. rewrite V. exists 1. split; [lra|]. split; auto.
      split; [apply W; lra|]. repeat split; intros; lra.
  - unfold fdiv. destruct (Req_EM_T root 0); [lra|]. cbn [bind].
    assert (Q : 0 < 1 / (gamma - 1) * norm n).
    { apply Rmult_lt_0_compat; auto. apply div_pos; lra. }
    rewrite fpow_pos by auto. cbn [bind]. rewrite fpow_pos by auto.
    set (e := Rpower (1 / (gamma - 1) * norm n) (1 / root)).
    assert (Pe : 0 < e) by apply Rpower_pos.
    set (s := Rpower (1 + ds * dot v n) e).
    assert (S : 0 < s <= 1).
    { split; [apply Rpower_pos|]. apply Rpower_le_1; [nra|lra]. }
    rewrite (proj2 (Rltb_false 1 s)) by lra. rewrite V. exists s. split; [lra|]. split; auto.
    split; [apply W; lra|]. split; [|split; [intros; lra|]].
    + intros D. unfold s. replace (dot v n) with 0 by lra. replace (1 + ds * 0) with 1 by ring.
      apply Rpower_base_1.
    + intros _ D Dp. split; [lra|]. apply Rpower_lt_1; auto. nra.
Qed.
(** A fast velocity (norm 3, as the sum of a direction and an obstacle velocity may be) is
    reversed and longer than allowed. *)
Theorem C30_speed_bound_refuted : exists v n gamma w,
  norm n = 1 /\ compute_safe_magnitude v 1 n gamma (8/10) 3 = Ok w /\
  1 < norm w /\ dot w v < 0.
Proof.
  exists [3; 0], [-1; 0], 2, [-14/10; 0].
  assert (N1 : norm [-1; 0] = 1).
  { unfold norm, dot. simpl. replace (-1 * -1 + (0 * 0 + 0)) with (Rsqr 1) by (unfold Rsqr; ring).
    apply sqrt_Rsqr. lra. }
  assert (N3 : norm [3; 0] = 3).
  { unfold norm, dot. simpl. replace (3 * 3 + (0 * 0 + 0)) with (Rsqr 3) by (unfold Rsqr; ring).
    apply sqrt_Rsqr. lra. }
  assert (N4 : norm [-14/10; 0] = 14/10).
  { unfold norm, dot. simpl.
    replace (-14/10 * (-14/10) + (0 * 0 + 0)) with (Rsqr (14/10)) by (unfold Rsqr; field).
    apply sqrt_Rsqr. lra. }
  split; auto. split; [|split; [rewrite N4; lra|unfold dot; simpl; lra]].
  unfold compute_safe_magnitude. rewrite N3, N1. destruct (Req_EM_T 3 0); [lra|].
  replace (dot [3; 0] [-1; 0]) with (-3) by (unfold dot; simpl; ring).
  rewrite (proj2 (Rltb_false 0 (-3))) by lra. rewrite (proj2 (Reqb_false 1 0)) by lra. simpl orb.
  cbv iota. destruct (Rle_dec 2 1); [lra|]. unfold fdiv. destruct (Req_EM_T 3 0); [lra|]. cbn [bind].
  replace (1 / (2 - 1) * 1) with 1 by field. rewrite (fpow_pos 1) by lra. rewrite Rpower_base_1.
  cbn [bind]. replace (1 + 8/10 * -3) with (-14/10) by field. unfold fpow.
  destruct (Rlt_dec 0 (-14/10)); [lra|]. destruct (Req_EM_T 1 0); [lra|].
  destruct (Req_EM_T (-14/10) 0); [lra|].
  assert (I : Int_part 1 = 1%Z).
  { unfold Int_part. replace (up 1) with 2%Z; [reflexivity|]. apply tech_up; lra. }
  rewrite I. destruct (Req_EM_T 1 1); [|lra]. rewrite (proj2 (Rltb_false _ _)) by (simpl; lra).
  f_equal. unfold vdiv, vscale. simpl. f_equal; [field|f_equal; field].
Qed.
Example C30_case : 0 < 1 + 8/10 * dot [0; -1] [0; 1/2] /\ norm [0; -1] <> 0 /\
  compute_safe_magnitude [0; -1] 5 [0; 1/2] 1 (8/10) 3 = Ok [0; 0].
Proof.
  assert (B : 0 < 1 + 8/10 * dot [0; -1] [0; 1/2]) by (unfold dot; simpl; lra).
  assert (N : norm [0; -1] <> 0).
  { apply norm_neq_0_dot. unfold dot. simpl. lra. }
  split; auto. split; auto.
  destruct (C30_safe_magnitude_partial [0; -1] 5 [0; 1/2] 1 (8/10) 3) as (_ & S); auto; try lra.
  destruct (S N) as (s & _ & -> & _ & _ & Z & _). rewrite Z; [|lra|unfold dot; simpl; lra].
  unfold vscale. simpl. f_equal. repeat (apply f_equal2; [field; auto|]). auto.
Qed.
Print Assumptions C30_safe_magnitude_partial.
Print Assumptions C30_speed_bound_refuted.

(** * C31 *)
Lemma limit_loop_spec v (gn : list (R * vec)) : forall acc : option (R * R),
  (forall m g, acc = Some (m, g) -> m < 0) ->
  let r := fold_left (fun acc gn =>
               let d := dot v (snd gn) in
               let m := match acc with Some (m, _) => m | None => 0 end in
               if Rltb d m then Some (d, fst gn) else acc) gn acc in
  match r with
  | None => acc = None /\ forall g n, In (g, n) gn -> 0 <= dot v n
  | Some (m, g) => m < 0 /\ (acc = Some (m, g) \/ exists n, In (g, n) gn /\ dot v n = m) /\
      (forall m' g', acc = Some (m', g') -> m <= m') /\ forall g' n, In (g', n) gn -> m <= dot v n
  end.
Proof.
  induction gn as [|(g0, n0) gn IH]; intros acc Ha; simpl.
  - destruct acc as [(m, g)|]; [|split; [auto|intros; contradiction]].
    split; [eapply Ha; eauto|]. split; auto. split; [|intros; contradiction].
    intros m' g' E. injection E as -> ->. lra.
  - set (m0 := match acc with Some (m, _) => m | None => 0 end).
    assert (M0 : m0 <= 0).
    { unfold m0. destruct acc as [(m, g)|]; [left; eapply Ha; eauto|lra]. }
    destruct (Rltb (dot v n0) m0) eqn:L; [apply Rltb_true in L|apply Rltb_false in L].
    + specialize (IH (Some (dot v n0, g0)) ltac:(intros m g E; injection E as <- <-; lra)).
      simpl in IH. destruct (fold_left _ gn _) as [(m, g)|].
      * destruct IH as (A & B & C & D). split; auto. split.
        { right. destruct B as [E|(n & I & E)]; [injection E as <- <-; exists n0; auto|exists n; auto]. }
        specialize (C _ _ eq_refl). split.
        { intros m' g' ->. simpl in m0. unfold m0 in L. lra. }
        intros g' n [E|I]; [injection E as <- <-; auto|eauto].
      * destruct IH as (E & _). discriminate.
    + specialize (IH acc Ha). simpl in IH. destruct (fold_left _ gn _) as [(m, g)|].
      * destruct IH as (A & B & C & D). split; auto. split.
        { destruct B as [E|(n & I & E)]; [auto|right; exists n; auto]. }
        split; auto. intros g' n [E|I]; [|eauto]. injection E as <- <-.
        unfold m0 in *. destruct acc as [(m1, g1)|]; [specialize (C _ _ eq_refl); lra|].
        destruct B as [E|(n & I & E)]; [discriminate|]. lra.
      * destruct IH as (E & D). split; auto. intros g' n [E'|I]; [|eauto]. injection E' as <- <-.
        unfold m0 in L. rewrite E in L. lra.
Qed.
Theorem C31_limit_magnitude_partial : forall v m gammas normals,
  unitv v -> 0 <= m -> length gammas = length normals ->
  (forall n, In n normals -> unitv n) -> (forall g, In g gammas -> 1 <= g) ->
  exists k, limit_magnitude v m gammas normals = Ok (vscale (k * m) v) /\
  0 <= k <= 1 /\ norm (vscale (k * m) v) <= m /\
  ((forall n, In n normals -> 0 <= dot v n) -> k = 1) /\
  (* with an opposed normal: determined by the most opposed obstacle *)
  ((exists n, In n normals /\ dot v n < 0) ->
     k < 1 /\ exists g n, In (g, n) (combine gammas normals) /\
       (forall n', In n' normals -> dot v n <= dot v n') /\ k = 1 + dot v n / g /\
       (* in contact with that obstacle at most a quarter of the speed points inwards,
          nothing when moving straight at it *)
       (g = 1 -> - (m / 4) <= dot (vscale (k * m) v) n /\ (dot v n = -1 -> k = 0))).
Proof.
  intros v m gammas normals U Hm L Un Hg. unfold limit_magnitude.
  pose proof (proj1 (unit_norm v) U) as Nv.
  pose proof (limit_loop_spec v (combine gammas normals) None ltac:(discriminate)) as S.
  unfold limit_loop. simpl in S.
  assert (IN : forall n, In n normals -> exists g, In (g, n) (combine gammas normals)).
  { clear - L. revert gammas L. induction normals as [|a l IH]; intros [|g gs] L n I; simpl in *; try contradiction; try lia.
    destruct I as [<-|I]; [exists g; auto|]. destruct (IH gs ltac:(lia) n I) as (g' & ?). exists g'; auto. }
  assert (NK : forall k, 0 <= k <= 1 -> norm (vscale (k * m) v) <= m).
  { intros k Hk. rewrite norm_vscale, Nv, Rabs_pos_eq by nra. nra. }
  destruct (fold_left _ _ _) as [(d, g)|].
  - destruct S as (Dn & [E|(n & I & E)] & _ & Min); [discriminate|].
    pose proof (Hg g (in_combine_l _ _ _ _ I)) as G.
    pose proof (Un n (in_combine_r _ _ _ _ I)) as Nn.
    pose proof (unit_dot_bounds v n U Nn) as Bd. rewrite E in Bd.
    unfold fdiv. destruct (Req_EM_T g 0); [lra|]. cbn [bind].
    set (k := 1 + d / g).
    assert (Q : 0 < / g <= 1).
    { split; [apply Rinv_0_lt_compat; lra|]. rewrite <- Rinv_1. apply Rinv_le_contravar; lra. }
    assert (K : 0 <= k < 1) by (unfold k, Rdiv; split; nra).
    exists k. split.
    { f_equal. vext. unfold k, Rdiv. rewrite Rmult_1_l. ring. }
    split; [lra|]. split; [apply NK; lra|]. split.
    { intros A. specialize (A n (in_combine_r _ _ _ _ I)). lra. }
    intros _. split; [lra|]. exists g, n. split; auto. split.
    { intros n' I'. rewrite E. destruct (IN n' I') as (g' & I''). eauto. }
    split; [unfold k; rewrite E; auto|]. intros ->. rewrite dot_vscale_l, E. unfold k.
    replace (d / 1) with d by field.
    split; [pose proof (Rle_0_sqr (d + 1/2)); unfold Rsqr in *; nra|]. intros ->. lra.
  - destruct S as (_ & S). exists 1. rewrite Rmult_1_l. split; auto. split; [lra|]. split.
    { rewrite <- (Rmult_1_l m) at 1. apply NK. lra. }
    split; auto. intros (n & I & D). destruct (IN n I) as (g & I'). specialize (S g n I'). lra.
Qed.
(** In contact and moving obliquely into the obstacle a quarter of the speed remains. *)
Theorem C31_contact_stop_refuted : exists v n w, unitv v /\ unitv n /\
  limit_magnitude v 1 [1] [n] = Ok w /\ dot w n = -(6/25).
Proof.
  exists [4/5; -3/5], [0; 1], (vscale (2/5) [4/5; -3/5]).
  assert (U1 : unitv [4/5; -3/5]) by (unfold unitv, dot; simpl; field).
  assert (U2 : unitv [0; 1]) by (unfold unitv, dot; simpl; field).
  assert (D : dot [4/5; -3/5] [0; 1] = -3/5) by (unfold dot; simpl; field).
  split; auto. split; auto. split.
  - unfold limit_magnitude, limit_loop. cbn [combine fold_left fst snd]. rewrite D.
    rewrite (proj2 (Rltb_true (-3/5) 0)) by lra. unfold fdiv. destruct (Req_EM_T 1 0); [lra|].
    cbn [bind]. f_equal. vext. field.
  - rewrite dot_vscale_l, D. field.
Qed.
Example C31_case : limit_magnitude [0; -1] 2 [1; 4] [[0; 1]; [1; 0]] = Ok (vscale (0 * 2) [0; -1]).
Proof.
  destruct (C31_limit_magnitude_partial [0; -1] 2 [1; 4] [[0; 1]; [1; 0]]) as (k & -> & _ & _ & _ & K);
    try (unfold unitv, dot; simpl; lra); auto.
  - intros n [<-|[<-|[]]]; unfold unitv, dot; simpl; lra.
  - intros g [<-|[<-|[]]]; lra.
  - destruct K as (_ & g & n & I & Min & -> & C).
    { exists [0; 1]. split; [left; auto|unfold dot; simpl; lra]. }
    simpl in I. destruct I as [I|[I|[]]]; injection I as <- <-.
    + do 2 f_equal. unfold dot; simpl. field.
    + specialize (Min [0; 1] ltac:(left; auto)). unfold dot in Min. simpl in Min. lra.
Qed.
Print Assumptions C31_limit_magnitude_partial.
Print Assumptions C31_contact_stop_refuted.

(** * C33 *)
Section C33.
Variables (weights_of : list R -> list R) (relative_of : list aobs -> list R -> vec)
          (rotated_sum : vec -> list aobs -> res vec).
Lemma clamp_idem o : clamp_obstacle (clamp_obstacle o) = clamp_obstacle o.
Proof.
  unfold clamp_obstacle at 2 3. destruct (Rltb (ao_gamma o) 1 && negb (ao_boundary o)) eqn:E.
  - unfold clamp_obstacle. simpl. rewrite (proj2 (Rltb_false 1 1)) by lra. auto.
  - unfold clamp_obstacle. rewrite E. auto.
Qed.
(** The effective gamma of an obstacle: a position inside counts as contact. *)
Definition effective_gamma (o : aobs) : R :=
  if ao_boundary o then ao_gamma o else Rmax 1 (ao_gamma o).
Lemma clamp_gamma o : ao_gamma (clamp_obstacle o) = effective_gamma o.
Proof.
  unfold clamp_obstacle, effective_gamma. destruct (ao_boundary o); simpl.
  - rewrite andb_false_r. auto.
  - rewrite andb_true_r. destruct (Rltb (ao_gamma o) 1) eqn:E; [apply Rltb_true in E|apply Rltb_false in E]; simpl.
    + rewrite Rmax_left; lra.
    + rewrite Rmax_right; lra.
Qed.
Lemma clamp_normal o : ao_normal (clamp_obstacle o) = ao_normal o.
Proof. unfold clamp_obstacle. destruct (_ && _); auto. Qed.
Definition near (cut : R) (o : aobs) : Prop := 1 <= effective_gamma o < cut.
Lemma close_in cut obs o :
  In o (filter (fun o => Rltb (ao_gamma o) cut && Rleb 1 (ao_gamma o)) (map clamp_obstacle obs)) ->
  exists o', In o' obs /\ near cut o' /\ o = clamp_obstacle o'.
Proof.
  intros H. apply filter_In in H. destruct H as [I C]. apply in_map_iff in I.
  destruct I as (o' & <- & I). apply andb_true_iff in C. destruct C as [A B].
  apply Rltb_true in A. apply Rleb_true in B. rewrite clamp_gamma in A, B.
  exists o'. unfold near. auto.
Qed.
Theorem C33_without_near_obstacles : forall cut sticky v obs,
  (forall o, In o obs -> ~ near cut o) ->
  avoid weights_of relative_of rotated_sum cut sticky v obs = Ok v.
Proof.
  intros cut sticky v obs H. unfold avoid. destruct obs as [|o0 obs]; auto.
  destruct (filter _ _) as [|c cs] eqn:E; auto. exfalso.
  destruct (close_in cut (o0 :: obs) c) as (o' & I & N & _).
  - rewrite E. left. auto.
  - apply (H o' I N).
Qed.
(** Inside an obstacle is the same as in contact with it. *)
Theorem C33_inside_is_contact : forall cut sticky v obs obs',
  Forall2 (fun o o' => ao_boundary o = false /\ ao_boundary o' = false /\ ao_normal o = ao_normal o' /\
                       ao_second o = ao_second o' /\ ao_ref o = ao_ref o' /\ ao_radius o = ao_radius o' /\
                       (ao_gamma o = ao_gamma o' \/ ao_gamma o <= 1 /\ ao_gamma o' <= 1)) obs obs' ->
  avoid weights_of relative_of rotated_sum cut sticky v obs =
  avoid weights_of relative_of rotated_sum cut sticky v obs'.
Proof.
  intros cut sticky v obs obs' H.
  assert (E : map clamp_obstacle obs = map clamp_obstacle obs').
  { induction H as [|o o' obs obs' (B & B' & N & S1 & S2 & S3 & G) _ IH]; simpl; auto. rewrite IH. f_equal.
    destruct o as [g b n e q ra], o' as [g' b' n' e' q' ra']. simpl in *. subst b b' n' e' q' ra'. unfold clamp_obstacle. simpl.
    destruct (Rltb g 1) eqn:A, (Rltb g' 1) eqn:A'; simpl; auto;
      repeat match goal with
             | K : Rltb _ _ = true |- _ => apply Rltb_true in K
             | K : Rltb _ _ = false |- _ => apply Rltb_false in K
             end; f_equal; lra. }
  unfold avoid. destruct H; auto. rewrite E. auto.
Qed.
(** Speed: the directional sum is a unit vector and the normals are unit vectors. *)
Theorem C33_speed_bound : forall cut v obs w,
  (forall v0 close u, rotated_sum v0 close = Ok u -> unitv u) ->
  (forall o, In o obs -> unitv (ao_normal o)) ->
  avoid weights_of relative_of rotated_sum cut true v obs = Ok w ->
  w = v \/
  exists close relative m, (forall o, In o close -> exists o', In o' obs /\ near cut o' /\ o = clamp_obstacle o') /\
    relative = relative_of close (weights_of (map ao_gamma close)) /\
    w = vadd m relative /\ norm m <= norm (vsub v relative).
Proof.
  intros cut v obs w HU HN E. unfold avoid in E.
  destruct obs as [|o0 obs0] eqn:Eo; [injection E as ->; auto|]. rewrite <- Eo in *.
  set (close := filter _ (map clamp_obstacle obs)) in E.
  pose proof (close_in cut obs) as CI. fold close in CI.
  destruct close as [|c cs] eqn:Ec; [injection E as ->; auto|]. rewrite <- Ec in *.
  set (rel := relative_of close (weights_of (map ao_gamma close))) in E.
  right. exists close, rel.
  destruct (Req_EM_T (norm (vsub v rel)) 0) as [Z|NZ].
  - injection E as <-. exists (vsub v rel). repeat split; auto. lra.
  - destruct (rotated_sum (vsub v rel) close) as [u|] eqn:R; [|discriminate]. cbn [bind] in E.
    pose proof (HU _ _ _ R) as U.
    destruct (C31_limit_magnitude_partial u (norm (vsub v rel)) (map ao_gamma close) (map ao_normal close))
      as (k & L & _ & B & _); auto.
    + apply norm_nonneg.
    + rewrite !map_length. auto.
    + intros n I. apply in_map_iff in I. destruct I as (o & <- & I).
      destruct (CI o I) as (o' & I' & _ & ->). rewrite clamp_normal. auto.
    + intros g I. apply in_map_iff in I. destruct I as (o & <- & I).
      destruct (CI o I) as (o' & _ & [N _] & ->). rewrite clamp_gamma. auto.
    + rewrite L in E. cbn [bind] in E. injection E as <-. eauto 10.
Qed.
(** Static obstacles: never faster than the initial velocity. *)
Theorem C33_static_speed_bound : forall cut v obs w,
  (forall close ws, relative_of close ws = vzero (length v)) ->
  (forall v0 close u, rotated_sum v0 close = Ok u -> unitv u) ->
  (forall o, In o obs -> unitv (ao_normal o)) ->
  avoid weights_of relative_of rotated_sum cut true v obs = Ok w -> norm w <= norm v.
Proof.
  intros cut v obs w HS HU HN E. destruct (C33_speed_bound cut v obs w HU HN E) as [->|(c & r & m & _ & -> & -> & B)].
  - lra.
  - rewrite HS in *.
    assert (Q : forall x : vec, norm (vadd x (vzero (length v))) = norm x).
    { intros x. unfold norm. f_equal. rewrite dot_vadd_l, !dot_vadd_r, ?dot_vzero_l, ?dot_vzero_r. ring. }
    rewrite Q. replace (vsub v (vzero (length v))) with v in B; auto.
    vext. ring.
Qed.
(** Without sticky surface the speed is kept (or the velocity vanishes). *)
Theorem C33_speed_kept : forall cut v obs w,
  avoid weights_of relative_of rotated_sum cut false v obs = Ok w ->
  norm w = norm v \/ norm w = 0.
Proof.
  intros cut v obs w E. unfold avoid in E.
  destruct obs as [|o0 obs0] eqn:Eo; [injection E as ->; auto|]. rewrite <- Eo in *.
  destruct (filter _ (map clamp_obstacle obs)) as [|c cs] eqn:Ec; [injection E as ->; auto|].
  rewrite <- Ec in *. set (close := filter _ _) in E.
  set (rel := relative_of _ _) in E.
  destruct (Req_EM_T (norm (vsub v rel)) 0) as [Z|NZ].
  - injection E as <-. left. unfold norm. f_equal.
    rewrite ?dot_vadd_l, ?dot_vadd_r, ?dot_vsub_l, ?dot_vsub_r. rewrite (dot_comm rel v). ring.
  - destruct (rotated_sum (vsub v rel) close) as [u|]; [|discriminate]. cbn [bind] in E.
    destruct (compute_safe_magnitude _ _ _ _ _ _) as [x|]; [|discriminate]. cbn [bind] in E.
    destruct (Req_EM_T (norm (vadd x rel)) 0) as [Zx|Nx]; injection E as <-; auto.
    left. rewrite norm_vscale. rewrite (norm_vdiv (vadd x rel)) by auto.
    rewrite Rabs_pos_eq by apply norm_nonneg. ring.
Qed.
End C33.
Example C33_case : near 10 (mkAObs (1/2) false [0; 1] [-1; 0] [0; -1] None) /\
  avoid (fun gs => map (fun _ => 1) gs) (fun _ _ => [0; 0]) (fun _ _ => Ok [1; 0]) 10 true [3; 0]
    [mkAObs (1/2) false [0; 1] [-1; 0] [0; -1] None] = Ok [3; 0] /\
  avoid (fun gs => map (fun _ => 1) gs) (fun _ _ => [0; 0]) (fun _ _ => Ok [1; 0]) 10 true [3; 0]
    [mkAObs 12 false [0; 1] [-1; 0] [0; -1] None; mkAObs (1/2) true [0; 1] [-1; 0] [0; 1] None] = Ok [3; 0].
Proof.
  split; [|split].
  - unfold near, effective_gamma. simpl. rewrite Rmax_left; lra.
  - unfold avoid. cbn [map filter]. unfold clamp_obstacle. cbn [ao_gamma ao_boundary ao_normal negb].
    rewrite (proj2 (Rltb_true (1/2) 1)) by lra. cbn [andb ao_gamma].
    rewrite (proj2 (Rltb_true 1 10)) by lra. rewrite (proj2 (Rleb_true 1 1)) by lra.
    cbn [andb map ao_gamma ao_normal].
    replace (vsub [3; 0] [0; 0]) with [3; 0] by (unfold vsub, vscale; simpl; v2).
    assert (N : norm [3; 0] = 3).
    { unfold norm, dot. simpl. replace (3 * 3 + (0 * 0 + 0)) with (Rsqr 3) by (unfold Rsqr; ring).
      apply sqrt_Rsqr. lra. }
    rewrite N. destruct (Req_EM_T 3 0); [lra|]. cbn [bind].
    unfold limit_magnitude, limit_loop. cbn [combine fold_left fst snd].
    replace (dot [1; 0] [0; 1]) with 0 by (unfold dot; simpl; ring).
    rewrite (proj2 (Rltb_false 0 0)) by lra. cbn [bind]. f_equal. unfold vscale; simpl.
    v2.
  - apply C33_without_near_obstacles. intros o [<-|[<-|[]]] [A B]; unfold effective_gamma in *; simpl in *.
    + rewrite Rmax_right in B; lra.
    + lra.
Qed.
Print Assumptions C33_without_near_obstacles.
Print Assumptions C33_inside_is_contact.
Print Assumptions C33_speed_bound.
Print Assumptions C33_static_speed_bound.
Print Assumptions C33_speed_kept.

(** * C34 *)
(** Each summand of the relative velocity, as a physical velocity: translation, planar
    rotation about the obstacle's position (attenuated away from the surface), deformation. *)
Definition planar_spin (a : angular) : R := match a with AngNum w => w | _ => 0 end.
Definition obstacle_velocity (position : vec) (o : mobs) : vec :=
  let x := nth 0 position 0 - nth 0 (mo_position o) 0 in
  let y := nth 1 position 0 - nth 1 (mo_position o) 0 in
  let spin := match mo_twist o with Some (_, a) => planar_spin a | None => 0 end in
  let fade := exp (1 - Rmax 1 (mo_gamma o)) in
  let rate := match mo_deformation o with Some r => r | None => 0 end in
  vadd (match mo_twist o with Some (lin, _) => lin | None => [0; 0] end)
       [fade * (- spin * y) + rate * x; fade * (spin * x) + rate * y].
Definition planar (o : mobs) : Prop :=
  length (mo_position o) = 2%nat /\
  match mo_twist o with
  | Some (lin, AngArray _) => False
  | Some (lin, _) => length lin = 2%nat
  | None => True
  end.
Definition wsum2 (l : list (R * vec)) : vec :=
  fold_right (fun wv acc => vadd (vscale (fst wv) (snd wv)) acc) [0; 0] l.

Lemma length2 (v : vec) : length v = 2%nat -> exists a b, v = [a; b].
Proof. destruct v as [|a [|b [|]]]; simpl; intros; try lia. eauto. Qed.
Lemma relative_step_planar position w o rel : length position = 2%nat -> length rel = 2%nat ->
  planar o -> 0 <= w ->
  relative_step position (Ok rel) (w, o) = Ok (vadd rel (vscale w (obstacle_velocity position o))).
Proof.
  intros Lp Lr P Hw. destruct (length2 _ Lp) as (p0 & p1 & ->). destruct (length2 _ Lr) as (r0 & r1 & ->).
  destruct o as [g op tw df]. destruct P as [P0 P1]. simpl in P0, P1.
  destruct (length2 _ P0) as (o0 & o1 & ->).
  unfold relative_step, obstacle_velocity. cbn [bind mo_twist mo_deformation mo_position mo_gamma nth].
  destruct (Rle_dec w 0) as [Z|NZ].
  - replace w with 0 by lra. f_equal. destruct tw as [(lin, a)|]; [destruct a; try contradiction; destruct (length2 _ P1) as (l0 & l1 & ->)|];
      unfold vscale; simpl; apply f_equal2; try ring; apply f_equal2; try ring; auto.
  - replace (-1 * (Rmax g 1 - 1)) with (1 - Rmax 1 g) by (rewrite Rmax_comm; ring).
    set (f := exp (1 - Rmax 1 g)).
    destruct tw as [(lin, a)|].
    + destruct a as [|s|]; [| |contradiction]; destruct (length2 _ P1) as (l0 & l1 & ->); unfold angular_part;
        [|destruct (Req_EM_T s 0) as [->|]]; cbn [length Nat.eqb bind vzero repeat nth mo_position planar_spin];
        destruct df as [rate|]; f_equal; unfold vscale, vsub, vscale; simpl;
        (v2).
    + cbn [bind]. destruct df as [rate|]; f_equal; unfold vscale, vsub, vscale; simpl;
        (v2).
Qed.
Lemma length_obstacle_velocity position o : planar o -> length (obstacle_velocity position o) = 2%nat.
Proof.
  intros [_ P]. unfold obstacle_velocity. rewrite length_vadd. destruct (mo_twist o) as [(lin, a)|]; simpl; auto.
  destruct a; try contradiction; rewrite P; auto.
Qed.
Lemma relative_fold position l : length position = 2%nat -> forall rel, length rel = 2%nat ->
  (forall w o, In (w, o) l -> planar o /\ 0 <= w) ->
  fold_left (relative_step position) l (Ok rel) =
  Ok (vadd rel (wsum2 (map (fun wo => (fst wo, obstacle_velocity position (snd wo))) l))).
Proof.
  intros Lp. induction l as [|(w, o) l IH]; intros rel Lr H; cbn [fold_left map fst snd].
  - simpl. f_equal. destruct (length2 _ Lr) as (a & b & ->). simpl. v2.
  - destruct (H w o (or_introl eq_refl)) as [P Hw].
    rewrite relative_step_planar by auto. rewrite IH; auto.
    + f_equal. unfold wsum2. cbn [fold_right fst snd].
      apply vec_ext; [autorewrite with vlen; lia|]. intros i. autorewrite with vnth. ring.
    + rewrite length_vadd, length_vscale, length_obstacle_velocity, Lr by auto. auto.
    + intros w' o' I. apply H. right. auto.
Qed.
Lemma combine_weights_planar (ws : list R) env : nonneg ws -> (forall o, In o env -> planar o) ->
  forall w o, In (w, o) (combine ws env) -> planar o /\ 0 <= w.
Proof.
  intros Nn P w o I. split; [apply P; eapply in_combine_r; eauto|apply Nn; eapply in_combine_l; eauto].
Qed.
(** In the plane the result is the mean of the physical velocities with the gamma weights. *)
Theorem C34_weighted_mean : forall position env, length position = 2%nat ->
  (forall o, In o env -> planar o) ->
  exists ws, compute_gamma_weights (map mo_gamma env) 1 1 = Ok ws /\ nonneg ws /\ rsum ws <= 1 /\
    length ws = length env /\
    compute_multiobstacle_relative_velocity position env =
    Ok (wsum2 (combine ws (map (obstacle_velocity position) env))).
Proof.
  intros position env Lp P. destruct (C19_gamma_weights (map mo_gamma env) 1 1 ltac:(lra)) as (ws & E & L & Nn & S & _).
  rewrite map_length in L. exists ws. split; auto. split; auto. split; auto. split; auto.
  unfold compute_multiobstacle_relative_velocity. rewrite E. cbn [bind].
  rewrite relative_fold; auto.
  - f_equal. rewrite Lp.
    assert (K : map (fun wo : R * mobs => (fst wo, obstacle_velocity position (snd wo))) (combine ws env)
                = combine ws (map (obstacle_velocity position) env)).
    { clear. revert env. induction ws; intros [|o env]; simpl; auto. rewrite IHws. auto. }
    rewrite K. set (l := combine _ _).
    assert (Q : forall v : vec, (2 <= length v)%nat -> vadd (vzero 2) v = v).
    { intros [|a [|b v]] H; simpl in *; try lia. v2. }
    apply Q. clear. unfold wsum2. induction l; simpl; auto. rewrite length_vadd. lia.
  - rewrite Lp. auto.
  - apply combine_weights_planar; auto.
Qed.
(** Static obstacles. *)
Theorem C34_static_is_zero : forall position env, length position = 2%nat ->
  (forall o, In o env -> planar o) ->
  (forall o, In o env -> mo_deformation o = None \/ mo_deformation o = Some 0) ->
  (forall o, In o env -> mo_twist o = None \/
     exists a, mo_twist o = Some ([0; 0], a) /\ (a = AngNone \/ a = AngNum 0)) ->
  compute_multiobstacle_relative_velocity position env = Ok [0; 0].
Proof.
  intros position env Lp P D T. destruct (C34_weighted_mean position env Lp P) as (ws & _ & _ & _ & _ & ->).
  f_equal.
  assert (Z : forall v, In v (map (obstacle_velocity position) env) -> v = [0; 0]).
  { intros v I. apply in_map_iff in I. destruct I as (o & <- & I). unfold obstacle_velocity.
    destruct (D o I) as [-> | ->], (T o I) as [-> |(a & -> & [-> | ->])]; simpl;
      (v2). }
  revert ws. induction (map (obstacle_velocity position) env) as [|v l IH]; intros [|w ws]; simpl; auto.
  rewrite (Z v) by (left; auto). unfold wsum2 in IH. rewrite IH by (intros; apply Z; right; auto). simpl.
  v2.
Qed.
Lemma rsum_one (l : list R) : forall k, (k < length l)%nat ->
  (forall j, (j < length l)%nat -> j <> k -> nth j l 0 = 0) -> rsum l = nth k l 0.
Proof.
  induction l as [|x l IH]; intros k Hk Z; simpl in *; [lia|]. destruct k as [|k].
  - assert (S : rsum l = 0).
    { assert (Z' : forall y, In y l -> y = 0).
      { intros y I. destruct (In_nth l y 0 I) as (j & Hj & <-). apply (Z (S j)); lia. }
      clear - Z'. induction l; simpl; auto. rewrite IHl, (Z' a); [ring|left; auto|intros; apply Z'; right; auto]. }
    rewrite S. ring.
  - rewrite (Z 0%nat) by lia. rewrite (IH k); [ring|lia|]. intros j Hj Nj. apply (Z (S j)); lia.
Qed.
(** In contact with exactly one obstacle: that obstacle's velocity at the position. *)
Theorem C34_contact_velocity : forall position env i o, length position = 2%nat ->
  (forall o, In o env -> planar o) -> nth_error env i = Some o -> mo_gamma o <= 1 ->
  (forall j o', nth_error env j = Some o' -> j <> i -> 1 < mo_gamma o') ->
  exists v, compute_multiobstacle_relative_velocity position env = Ok v /\
  let lin := match mo_twist o with Some (l, _) => l | None => [0; 0] end in
  let spin := match mo_twist o with Some (_, a) => planar_spin a | None => 0 end in
  let rate := match mo_deformation o with Some r => r | None => 0 end in
  let x := nth 0 position 0 - nth 0 (mo_position o) 0 in
  let y := nth 1 position 0 - nth 1 (mo_position o) 0 in
  v = [nth 0 lin 0 - spin * y + rate * x; nth 1 lin 0 + spin * x + rate * y].
Proof.
  intros position env i o Lp P Hi G F.
  destruct (C34_weighted_mean position env Lp P) as (ws & E & _ & _ & Lw & ->).
  eexists. split; [reflexivity|].
  destruct (C19_gamma_weights (map mo_gamma env) 1 1 ltac:(lra)) as (ws' & E' & _ & _ & _ & C & _).
  rewrite E in E'. injection E' as <-.
  assert (Li : (i < length env)%nat) by (apply nth_error_Some; rewrite Hi; discriminate).
  assert (NG : forall j o', nth_error env j = Some o' -> nth j (map mo_gamma env) 0 = mo_gamma o').
  { intros j o' H. apply nth_error_nth. rewrite nth_error_map, H. auto. }
  destruct C as (S1 & C).
  { exists (mo_gamma o). split; auto. apply in_map. eapply nth_error_In; eauto. }
  assert (Z : forall j, (j < length ws)%nat -> j <> i -> nth j ws 0 = 0).
  { intros j Hj Nj. rewrite Lw in Hj. destruct (nth_error env j) as [o'|] eqn:Ej.
    - apply (C j); [rewrite map_length; auto|]. rewrite (NG j o' Ej). eauto.
    - apply nth_error_None in Ej. lia. }
  assert (One : nth i ws 0 = 1).
  { rewrite <- S1. symmetry. apply rsum_one; [lia|]. auto. }
  assert (K : forall (l : list mobs) (w : list R) k, length w = length l -> nth_error l k = Some o ->
     nth k w 0 = 1 -> (forall j, (j < length w)%nat -> j <> k -> nth j w 0 = 0) ->
     (forall o, In o l -> planar o) ->
     wsum2 (combine w (map (obstacle_velocity position) l)) = obstacle_velocity position o).
  { clear. induction l as [|o1 l IH]; intros [|w0 w] k L H O Z P; simpl in *; try lia; [destruct k; discriminate|].
    destruct k as [|k].
    - injection H as ->. rewrite O. assert (Z' : forall x, In x w -> x = 0).
      { intros x I. destruct (In_nth w x 0 I) as (j & Hj & <-). apply (Z (S j)); lia. }
      assert (Pl : planar o) by auto.
      destruct (length2 _ (length_obstacle_velocity position o Pl)) as (a & b & ->).
      assert (Pl' : forall o, In o l -> planar o) by auto. clear - Z' Pl' L.
      assert (S : wsum2 (combine w (map (obstacle_velocity position) l)) = [0; 0]).
      { assert (L' : length w = length l) by lia. clear L. revert l L' Pl'. induction w as [|x w IH]; intros [|o l] L Pl; simpl in *; try lia; auto.
        unfold wsum2 in IH. rewrite IH; auto. rewrite (Z' x) by auto.
        destruct (length2 _ (length_obstacle_velocity position o (Pl o (or_introl eq_refl)))) as (a1 & b1 & ->).
        simpl. v2. }
      unfold wsum2 in S. unfold wsum2. simpl. rewrite S. simpl. v2.
    - unfold wsum2 in *. simpl. rewrite (IH w k); auto; try lia.
      + rewrite (Z 0%nat) by lia. assert (P1 : planar o1) by auto.
        assert (Po : planar o) by (apply P; right; eapply nth_error_In; eauto).
        destruct (length2 _ (length_obstacle_velocity position o1 P1)) as (a & b & ->).
        destruct (length2 _ (length_obstacle_velocity position o Po)) as (a' & b' & ->).
        simpl. v2.
      + intros j Hj Nj. apply (Z (S j)); lia. }
  rewrite (K env ws i) by auto. unfold obstacle_velocity.
  assert (Po : planar o) by (apply P; eapply nth_error_In; eauto).
  rewrite Rmax_left by auto. replace (1 - 1) with 0 by ring. rewrite exp_0.
  destruct Po as [_ Po]. destruct (mo_twist o) as [(lin, a)|].
  - assert (Ll : length lin = 2%nat) by (destruct a; try contradiction; auto).
    destruct (length2 _ Ll) as (l0 & l1 & ->). simpl. v2.
  - simpl. v2.
Qed.
(** Translating obstacles: not faster than the fastest. *)
Lemma norm_wsum2 (ws : list R) vs c : nonneg ws -> (forall v, In v vs -> norm v <= c) -> 0 <= c ->
  norm (wsum2 (combine ws vs)) <= rsum ws * c.
Proof.
  intros Nn B Hc. revert vs B. induction ws as [|w ws IH]; intros vs B.
  - simpl. replace [0; 0] with (vzero 2) by auto. rewrite norm_vzero. lra.
  - assert (Nn' : nonneg ws) by (intros x Hx; apply Nn; right; auto).
    assert (W : 0 <= w) by (apply Nn; left; auto).
    assert (S : 0 <= rsum ws) by (apply rsum_nonneg; auto).
    destruct vs as [|v vs].
    + simpl. replace [0; 0] with (vzero 2) by auto. rewrite norm_vzero. nra.
    + unfold wsum2. simpl. eapply Rle_trans; [apply norm_triangle|]. rewrite norm_vscale, Rabs_pos_eq by auto.
      specialize (IH Nn' vs ltac:(intros; apply B; right; auto)). unfold wsum2 in IH.
      pose proof (B v (or_introl eq_refl)). nra.
Qed.
Theorem C34_translation_speed : forall position env c, length position = 2%nat ->
  (forall o, In o env -> planar o) -> 0 <= c ->
  (forall o, In o env -> mo_deformation o = None) ->
  (forall o, In o env -> exists lin, mo_twist o = Some (lin, AngNone) /\ norm lin <= c) ->
  exists v, compute_multiobstacle_relative_velocity position env = Ok v /\ norm v <= c.
Proof.
  intros position env c Lp P Hc D T. destruct (C34_weighted_mean position env Lp P) as (ws & _ & Nn & S & _ & ->).
  eexists. split; [reflexivity|]. eapply Rle_trans; [apply norm_wsum2 with (c := c); auto|nra].
  intros v I. apply in_map_iff in I. destruct I as (o & <- & I). destruct (T o I) as (lin & E & B).
  destruct (P o I) as [_ Pl]. unfold obstacle_velocity. rewrite E, (D o I). rewrite E in Pl.
  destruct (length2 _ Pl) as (a & b & ->). simpl.
  match goal with |- norm ?x <= _ => replace x with [a; b]; auto end.
  v2.
Qed.
(** In space an obstacle with a non-zero angular velocity makes the evaluation raise, whichever
    way the angular velocity is given. *)
Theorem C34_spatial_rotation_raises : forall position o lin a,
  length position = 3%nat -> mo_gamma o <= 1 -> mo_twist o = Some (lin, a) ->
  (exists w, a = AngNum w /\ w <> 0) \/ (exists w, a = AngArray w) ->
  compute_multiobstacle_relative_velocity position [o] = Err EValue.
Proof.
  intros position o lin a Lp G T A. unfold compute_multiobstacle_relative_velocity. cbn [map].
  rewrite gamma_weights_critical by (exists (mo_gamma o); split; [left|]; auto).
  cbn [bind map combine fold_left]. unfold relative_step. cbn [bind].
  rewrite (proj2 (Rleb_true _ _) G). unfold count_le. cbn [filter]. rewrite (proj2 (Rleb_true _ _) G).
  cbn [length]. simpl INR. destruct (Rle_dec (1 / 1) 0); [lra|]. rewrite T.
  destruct A as [(w & -> & W)|(w & ->)]; cbn [angular_part bind]; auto.
  destruct (Req_EM_T w 0); [contradiction|]. rewrite Lp. auto.
Qed.
Example C34_case :
  let o := mkMObs 1 [1; 0] (Some ([1; 2], AngNum 3)) (Some 5) in
  let o' := mkMObs 4 [9; 9] (Some ([7; 7], AngNone)) None in
  compute_multiobstacle_relative_velocity [2; 1] [o'; o] = Ok [3; 10].
Proof.
  intros o o'.
  destruct (C34_contact_velocity [2; 1] [o'; o] 1 o) as (v & -> & V); auto.
  - intros x [<-|[<-|[]]]; split; simpl; auto.
  - simpl. lra.
  - intros [|[|j]] o1 E N; simpl in E.
    + injection E as <-. simpl. lra.
    + congruence.
    + destruct j; discriminate.
  - f_equal. simpl in V. rewrite V. v2.
Qed.
Example C34_case_static : compute_multiobstacle_relative_velocity [2; 1]
  [mkMObs 3 [1; 0] None None; mkMObs 1 [4; 0] (Some ([0; 0], AngNone)) (Some 0)] = Ok [0; 0].
Proof.
  apply C34_static_is_zero; auto.
  - intros x [<-|[<-|[]]]; split; simpl; auto.
  - intros x [<-|[<-|[]]]; simpl; auto.
  - intros x [<-|[<-|[]]]; simpl; auto. right. exists AngNone. auto.
Qed.
Print Assumptions C34_weighted_mean.
Print Assumptions C34_static_is_zero.
Print Assumptions C34_contact_velocity.
Print Assumptions C34_translation_speed.
Print Assumptions C34_spatial_rotation_raises.
