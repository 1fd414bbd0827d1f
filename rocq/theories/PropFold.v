(** Properties C67 and C68: the projection around an obstacle. *)
Require Import Reals List Lia Lra Bool.
From Verif Require Import Base Vec Angle RotModel Spec RotProofs Pow DynModel PropDynamics FoldModel FoldProofs.
Import ListNotations.
Open Scope R_scope.

(** * C67 *)
(** What is known of [get_orthogonal_basis]: an orthogonal matrix whose first column is the
    given direction. *)
Definition basis_of (n : nat) (basis : vec -> list vec) : Prop :=
  forall d, length d = n -> unitv d -> exists rest, basis d = d :: rest /\ orthogonal_matrix n (basis d).

(** [position] as seen from the attractor: at the distance [l] in the direction
    [cosine * d + sine * e] where [d] points to the reference point. *)
Record polar (n : nat) (reference position attractor d e : vec) (o l cosine : R) : Prop := {
  po_obs : vsub reference attractor = vscale o d; po_o : 0 < o;
  po_pos : vsub position attractor = vscale l (vadd (vscale cosine d) (vscale (sqrt (1 - cosine * cosine)) e));
  po_l : 0 < l; po_d : unitv d; po_e : unitv e; po_de : dot d e = 0;
  po_ld : length d = n; po_le : length e = n; po_c : -1 < cosine <= 1 }.

Lemma unit_len v c : 0 < c -> unitv v -> norm (vscale c v) = c /\ vdiv (vscale c v) (norm (vscale c v)) = v.
Proof.
  intros Hc U. assert (N : norm (vscale c v) = c).
  { rewrite norm_vscale, Rabs_pos_eq by lra. apply unit_norm in U. rewrite U. ring. }
  split; auto. rewrite N. vext. field. lra.
Qed.
Lemma mixed_unit d e c : unitv d -> unitv e -> dot d e = 0 -> -1 <= c <= 1 ->
  unitv (vadd (vscale c d) (vscale (sqrt (1 - c * c)) e)).
Proof.
  intros Ud Ue De Hc. unfold unitv in *. autorewrite with vdot. rewrite (dot_comm e d), Ud, Ue, De.
  assert (E : sqrt (1 - c * c) * sqrt (1 - c * c) = 1 - c * c) by (apply sqrt_sqrt; nra). nra.
Qed.

(** Every position off the ray opposite of the obstacle has such a form. *)
Lemma polar_exists n reference position attractor : (2 <= n)%nat ->
  length reference = n -> length position = n -> length attractor = n ->
  norm (vsub reference attractor) <> 0 -> norm (vsub position attractor) <> 0 ->
  dot (direction (vsub position attractor)) (direction (vsub reference attractor)) <> -1 ->
  exists d e, polar n reference position attractor d e (norm (vsub reference attractor))
     (norm (vsub position attractor)) (dot (direction (vsub position attractor)) (direction (vsub reference attractor))).
Proof.
  intros Hn Lr Lp La No Nl Hc.
  set (vo := vsub reference attractor) in *. set (vp := vsub position attractor) in *.
  assert (Lo : length vo = n) by (unfold vo; autorewrite with vlen; lia).
  assert (Lv : length vp = n) by (unfold vp; autorewrite with vlen; lia).
  set (d := direction vo) in *. set (u := direction vp) in *. set (c := dot u d) in *.
  assert (Ud : unitv d) by (apply dirof_unit; auto). assert (Uu : unitv u) by (apply dirof_unit; auto).
  assert (Ld : length d = n) by (unfold d, direction; rewrite length_vscale; auto).
  assert (Lu : length u = n) by (unfold u, direction; rewrite length_vscale; auto).
  pose proof (unit_dot_bounds u d Uu Ud) as Bc. fold c in Bc.
  assert (Vo : vo = vscale (norm vo) d) by (unfold d, direction; vext; field; auto).
  assert (Vp : vp = vscale (norm vp) u) by (unfold u, direction; vext; field; auto).
  assert (X : exists e, unitv e /\ dot d e = 0 /\ length e = n /\ u = vadd (vscale c d) (vscale (sqrt (1 - c * c)) e)).
  { destruct (Req_EM_T c 1) as [C1|C1].
    - destruct (perp_first_two_ok n d Ld Hn) as (e & _ & Le & Ue & De).
      exists e. do 3 (split; auto). assert (u = d) by (apply unit_dot_1; auto; congruence).
      rewrite C1. replace (1 - 1 * 1) with 0 by ring. rewrite sqrt_0, H. vext. ring.
    - set (w := vsub u (vscale c d)).
      assert (W2 : dot w w = 1 - c * c).
      { unfold w. autorewrite with vdot. rewrite (dot_comm d u). fold c. unfold unitv in *. rewrite Ud, Uu. ring. }
      assert (Nw : norm w = sqrt (1 - c * c)) by (unfold norm; rewrite W2; auto).
      assert (W0 : 0 < norm w) by (rewrite Nw; apply sqrt_lt_R0; nra).
      exists (vdiv w (norm w)). split; [apply unit_vdiv; lra|]. split.
      { unfold w at 1. autorewrite with vdot. rewrite (dot_comm d u). fold c. unfold unitv in Ud. rewrite Ud. field. lra. }
      split; [unfold w; autorewrite with vlen; lia|]. rewrite <- Nw, vscale_norm_vdiv by lra.
      unfold w. vext. ring. }
  destruct X as (e & Ue & De & Le & Eu).
  exists d, e. constructor; auto; try (apply norm_pos; auto); try lra.
  rewrite <- Eu. auto.
Qed.

Section C67.
Variable basis : vec -> list vec.
Variable huge : R.

(** The radial coordinate becomes the logarithmic distance; the angle [t] from the obstacle
    becomes the lateral distance [tan (t/2)]. *)
Theorem C67_folded_position : forall n reference position attractor d e o l c, basis_of n basis ->
  length reference = n -> length position = n -> length attractor = n ->
  polar n reference position attractor d e o l c ->
  fold_position basis 2 huge reference position attractor =
  Ok (vadd (scale_first o (vadd (vscale (o * ln (l / o)) d) (vscale (sqrt ((1 - c) / (1 + c))) e))) reference).
Proof.
  intros n ref p a d e o l c HB Lr Lp La [Po Ho Pp Hl Ud Ue De Ld Le Hc].
  set (u := vadd (vscale c d) (vscale (sqrt (1 - c * c)) e)) in *.
  assert (Uu : unitv u) by (apply mixed_unit; auto; lra).
  destruct (unit_len d o Ho Ud) as [No Do]. destruct (unit_len u l Hl Uu) as [Nl Du].
  destruct (HB d Ld Ud) as (rest & EB & OM).
  pose proof (orthogonal_complete n _ OM) as CM. pose proof (orthogonal_norm n _ (vscale l u) OM) as NM.
  assert (Lu : length u = n) by (unfold u; autorewrite with vlen; lia).
  assert (Lrest : Forall (fun x => length x = n) rest).
  { destruct OM as (_ & F & _). rewrite EB in F. inversion F; auto. }
  unfold fold_position. rewrite Po, Pp, No, Nl.
  assert (E1 : vdiv (vscale o d) o = d) by (vext; field; lra). rewrite E1.
  assert (E2 : vdiv (vscale l u) l = u) by (vext; field; lra). rewrite E2.
  destruct (Req_EM_T o 0); [lra|]. destruct (Req_EM_T l 0); [lra|].
  assert (Lsu : length (vscale l u) = n) by (rewrite length_vscale; auto).
  specialize (CM (vscale l u) Lsu). specialize (NM Lsu). rewrite EB in *.
  unfold mat_t_vec in *. cbn [map] in *. fold (mat_t_vec rest (vscale l u)) in *.
  set (lat := mat_t_vec rest (vscale l u)) in *. cbn [mat_vec] in CM.
  assert (Dd : dot d u = c).
  { unfold u. autorewrite with vdot. unfold unitv in Ud. rewrite Ud, De. ring. }
  rewrite dot_vscale_r, Dd in CM, NM. cbn [dot] in NM. rewrite dot_vscale_l, dot_vscale_r in NM.
  unfold unitv in Uu. rewrite Uu in NM.
  set (s := sqrt (1 - c * c)) in *.
  assert (Hs : s * s = 1 - c * c) by (apply sqrt_sqrt; nra). assert (Hs0 : 0 <= s) by apply sqrt_pos.
  assert (Nlat : norm lat = l * s).
  { unfold norm. replace (dot lat lat) with ((l * s) * (l * s)) by nra. apply sqrt_square. nra. }
  assert (Mlat : mat_vec n rest lat = vscale (l * s) e).
  { pose proof (mat_vec_len n rest Lrest lat) as LM.
    assert (E : vsub (vscale l u) (vscale (l * c) d) = mat_vec n rest lat) by (rewrite <- CM; vext; ring).
    rewrite <- E. unfold u. vext. ring. }
  assert (Dud : dot u d = c) by (rewrite dot_comm; auto). rewrite Dud, Lp.
  destruct (Rleb c (-1)) eqn:Ec; [apply Rleb_true in Ec; lra|]. clear Ec.
  destruct (Rltb c 1) eqn:Ec.
  - apply Rltb_true in Ec. assert (Sp : 0 < s) by (unfold s; apply sqrt_lt_R0; nra).
    rewrite Nlat. destruct (Req_EM_T (l * s) 0); [nra|].
    assert (Q : 2 / (1 + c) - 1 = (1 - c) / (1 + c)) by (field; lra).
    assert (Qp : 0 < (1 - c) / (1 + c)) by (apply Rdiv_lt_0_compat; lra).
    rewrite Q, fpow_pos by auto. cbn [bind]. replace (1 / 2) with (/ 2) by lra. rewrite Rpower_sqrt by auto.
    set (f := sqrt ((1 - c) / (1 + c))). cbn [mat_vec].
    replace (vscale f (vdiv lat (l * s))) with (vscale (f / (l * s)) lat) by (vext; field; lra).
    rewrite mat_vec_scale, Mlat by auto. do 4 f_equal. vext. field. lra.
  - apply Rltb_false in Ec. assert (C1 : c = 1) by lra.
    assert (S0 : s = 0) by (unfold s; rewrite C1, <- sqrt_0; f_equal; ring).
    cbn [bind mat_vec]. rewrite Mlat, S0. replace ((1 - c) / (1 + c)) with 0 by (rewrite C1; field). rewrite sqrt_0.
    do 4 f_equal. vext. ring.
Qed.

(** Unit vectors which are not almost equal are told apart. *)
Lemma far_not_close n d v : (n <= 1000)%nat -> length d = n -> length v = n -> unitv d -> unitv v ->
  dot d v <= 1 - / 10 ^ 7 -> allclose d v = false.
Proof.
  intros Hn Ld Lv Ud Uv H. destruct (allclose d v) eqn:E; auto. exfalso.
  assert (B : dot (vsub d v) (vsub d v) <= INR n * (/ 10 ^ 10 * (121 / 100))).
  { rewrite dot_sum_nth. replace (length (vsub d v)) with n by (autorewrite with vlen; lia).
    rewrite <- (seq_length n 0) at 2. rewrite <- (rsum_map_const _ (seq 0 n)).
    apply rsum_le. intros i _.
    rewrite nth_vsub. pose proof (allclose_nth d v i ltac:(congruence) E) as C. apply Rleb_true in C.
    assert (V1 : Rabs (nth i v 0) <= 1).
    { assert (V2 : nth i v 0 * nth i v 0 <= 1); [|apply Rabs_le; split; nra]. unfold unitv in Uv.
      destruct (Nat.lt_ge_cases i n) as [Hi|Hi]; [|rewrite nth_overflow by lia; lra].
      rewrite dot_sum_nth in Uv. rewrite <- Uv. rewrite Lv.
      apply (rsum_ge_elem _ (nth i v 0 * nth i v 0)).
      - intros y Hy. apply in_map_iff in Hy as (k & <- & _). nra.
      - apply in_map_iff. exists i. split; auto. apply in_seq. lia. }
    assert (A : Rabs (nth i d 0 - nth i v 0) <= / 10 ^ 5 * (11 / 10)) by lra.
    assert (A2 : (nth i d 0 - nth i v 0) * (nth i d 0 - nth i v 0) = Rabs (nth i d 0 - nth i v 0) * Rabs (nth i d 0 - nth i v 0)).
    { rewrite <- Rabs_mult. symmetry. apply Rabs_pos_eq. apply (Rle_0_sqr (nth i d 0 - nth i v 0)). }
    rewrite A2. pose proof (Rabs_pos (nth i d 0 - nth i v 0)). nra. }
  autorewrite with vdot in B. rewrite (dot_comm v d) in B. unfold unitv in *. rewrite Ud, Uv in B.
  apply le_INR in Hn. change (INR 1000) with (INR 1000) in Hn. rewrite (INR_IZR_INZ 1000) in Hn. simpl IZR in Hn. nra.
Qed.

(** The slope of the helper direction of the inverse is bounded. *)
Lemma slope_bound x c t pn : -1 < c < 1 -> 0 < t -> t * t = (1 - c) / (1 + c) -> 0 < pn -> pn * pn = x * x + t * t ->
  x <= 1000 -> x - c * pn <= 1001 * t.
Proof.
  intros Hc Ht Et Hp Ep Hx.
  assert (E : t * t * (1 + c) = 1 - c) by (rewrite Et; field; lra).
  assert (T1 : 1 - c <= t).
  { assert ((1 - c) * (1 - c) <= t * t); [|nra]. rewrite Et. apply Rmult_le_reg_r with (1 + c); [lra|].
    replace ((1 - c) / (1 + c) * (1 + c)) with (1 - c) by (field; lra). nra. }
  assert (P1 : Rabs x <= pn) by (apply Rabs_le; split; nra).
  assert (P2 : pn <= Rabs x + t).
  { assert (X : Rabs x * Rabs x = x * x) by (rewrite <- Rabs_mult; apply Rabs_pos_eq; apply (Rle_0_sqr x)).
    pose proof (Rabs_pos x). nra. }
  unfold Rabs in P1, P2. destruct (Rcase_abs x); destruct (Rle_dec 0 c); nra.
Qed.
Lemma mix_dot d e a b a' b' : unitv d -> unitv e -> dot d e = 0 ->
  dot (vadd (vscale a d) (vscale b e)) (vadd (vscale a' d) (vscale b' e)) = a * a' + b * b'.
Proof. intros Ud Ue De. unfold unitv in *. autorewrite with vdot. rewrite (dot_comm e d), Ud, Ue, De. ring. Qed.

(** From the folded position back to the position. *)
Lemma unfold_of_folded n frame reference position attractor d e o l c : (n <= 1000)%nat ->
  length reference = n -> length position = n -> length attractor = n ->
  (frame = true -> reference = vzero n) ->
  polar n reference position attractor d e o l c -> o * ln (l / o) <= 1000 ->
  exists argument, unfold_position 2 frame reference
    (vadd (scale_first o (vadd (vscale (o * ln (l / o)) d) (vscale (sqrt ((1 - c) / (1 + c))) e))) reference)
    attractor = Ok (position, argument).
Proof.
  intros Hn Lr Lp La Hf [Po Ho Pp Hl Ud Ue De Ld Le Hc] Hx.
  destruct (unit_len d o Ho Ud) as [No _].
  set (x := o * ln (l / o)) in *. set (t := sqrt ((1 - c) / (1 + c))) in *.
  assert (Q0 : 0 <= (1 - c) / (1 + c)) by (apply Rmult_le_pos; [lra|left; apply Rinv_0_lt_compat; lra]).
  assert (Tt : t * t = (1 - c) / (1 + c)) by (apply sqrt_sqrt; auto). assert (T0 : 0 <= t) by apply sqrt_pos.
  set (rel := vadd (vscale x d) (vscale t e)).
  assert (Lrel : length rel = n) by (unfold rel; autorewrite with vlen; lia).
  unfold unfold_position. rewrite Po, No. destruct (Req_EM_T o 0); [lra|].
  assert (E1 : vdiv (vscale o d) o = d) by (vext; field; lra). rewrite E1.
  assert (E2 : vsub (vadd (scale_first o rel) reference) reference = scale_first o rel).
  { assert (length (scale_first o rel) = n) by (rewrite scale_first_len; auto). vext. ring. }
  rewrite E2, scale_first_inv by auto.
  assert (Xl : exp (x / o) * o = l).
  { unfold x. replace (o * ln (l / o) / o) with (ln (l / o)) by (field; auto). rewrite exp_ln; [field; auto|].
    apply Rdiv_lt_0_compat; auto. }
  assert (Pos : position = vadd (vscale l (vadd (vscale c d) (vscale (sqrt (1 - c * c)) e))) attractor).
  { rewrite <- Pp. vext. ring. }
  destruct (Req_EM_T (norm rel) 0) as [Z|Z].
  - (* at the reference point *)
    assert (R2 : x * x + t * t = 0).
    { apply norm_eq_0_dot in Z. unfold rel in Z. rewrite mix_dot in Z by auto. auto. }
    assert (X0 : x = 0) by nra. assert (Tz : t = 0) by nra.
    assert (C1 : c = 1). { rewrite Tz in Tt. assert (1 - c = 0); [|lra]. apply Rmult_eq_reg_r with (/ (1 + c)); [lra|].
      apply Rinv_neq_0_compat; lra. }
    assert (Lo : l = o). { rewrite <- Xl, X0. unfold Rdiv. rewrite Rmult_0_l, exp_0. ring. }
    assert (PR : position = reference).
    { rewrite Pos, C1, Lo. replace (1 - 1 * 1) with 0 by ring. rewrite sqrt_0.
      assert (E : reference = vadd (vscale o d) attractor) by (rewrite <- Po; vext; ring). rewrite E. vext. ring. }
    assert (RZ : rel = vzero n) by (rewrite <- Lrel; apply norm_zero_iff; auto).
    destruct frame.
    + rewrite RZ, PR, Hf by auto. eexists; reflexivity.
    + rewrite RZ, scale_first_zero. replace (vadd (vzero n) reference) with position by (rewrite PR; vext; ring).
      eexists; reflexivity.
  - set (pn := norm rel) in *. assert (Hp : 0 < pn) by (apply norm_pos; auto).
    assert (P2 : pn * pn = x * x + t * t) by (unfold pn; rewrite norm_sq; unfold rel; rewrite mix_dot; auto).
    assert (Rad : dot d (vdiv rel pn) * pn = x).
    { rewrite dot_vdiv_r. unfold rel. autorewrite with vdot. unfold unitv in Ud. rewrite Ud, De. field. auto. }
    rewrite Rad. rewrite Rmax_left by nra. replace (pn * pn - x * x) with (t * t) by lra.
    rewrite sqrt_square by auto. rewrite Xl.
    destruct (Req_EM_T t 0) as [Tz|Tn].
    + (* on the ray through the obstacle *)
      assert (F : fpow t 2 = Ok 0).
      { unfold fpow. rewrite Tz. destruct (Rlt_dec 0 0); [lra|]. destruct (Req_EM_T 2 0); [lra|].
        destruct (Req_EM_T 0 0); [|lra]. destruct (Rlt_dec 0 2); [auto|lra]. }
      rewrite F. cbn [bind]. destruct (Rltb (2 / (0 + 1) - 1) 1) eqn:E; [apply Rltb_true in E; lra|]. cbn [bind].
      eexists. f_equal. f_equal.
      assert (C1 : c = 1). { rewrite Tz in Tt. assert (1 - c = 0); [|lra]. apply Rmult_eq_reg_r with (/ (1 + c)); [lra|].
        apply Rinv_neq_0_compat; lra. }
      rewrite Pos, C1. replace (1 - 1 * 1) with 0 by ring. rewrite sqrt_0. vext. ring.
    + assert (Tp : 0 < t) by lra.
      assert (Hc1 : c < 1). { destruct (Req_EM_T c 1) as [->|]; [|lra]. exfalso. apply Tn. unfold t.
        replace ((1 - 1) / (1 + 1)) with 0 by field. apply sqrt_0. }
      rewrite fpow_pos by auto. cbn [bind].
      replace (Rpower t 2) with (t * t) by (replace 2 with (INR 2) by (simpl; ring); rewrite Rpower_pow by auto; simpl; ring).
      assert (EC : 2 / (t * t + 1) - 1 = c) by (rewrite Tt; field; lra). rewrite EC.
      destruct (Rltb c 1) eqn:E; [clear E|apply Rltb_false in E; lra].
      set (al := x / pn - c). set (be := t / pn). assert (Bp : 0 < be) by (apply Rdiv_lt_0_compat; auto).
      assert (EP : vsub (vdiv rel pn) (vscale c d) = vadd (vscale al d) (vscale be e)).
      { unfold rel, al, be. vext. field. auto. }
      rewrite EP. set (w := vadd (vscale al d) (vscale be e)) in *.
      assert (Lw : length w = n) by (unfold w; autorewrite with vlen; lia).
      set (m := norm w). assert (M2 : m * m = al * al + be * be) by (unfold m; rewrite norm_sq; unfold w; apply mix_dot; auto).
      assert (Hm : 0 < m) by (assert (m <> 0) by nra; apply norm_pos; auto).
      destruct (Req_EM_T m 0); [lra|].
      assert (Uw : unitv (vdiv w m)) by (apply unit_vdiv; fold m; lra).
      assert (Lwm : length (vdiv w m) = n) by (rewrite length_vdiv; auto).
      assert (Dw : dot d (vdiv w m) = al / m).
      { rewrite dot_vdiv_r. unfold w. autorewrite with vdot. unfold unitv in Ud. rewrite Ud, De. field. lra. }
      assert (SB : al <= 1001 * be).
      { pose proof (slope_bound x c t pn ltac:(lra) Tp Tt Hp P2 Hx) as SB. unfold al, be.
        apply Rmult_le_reg_r with pn; auto. replace ((x / pn - c) * pn) with (x - c * pn) by (field; lra).
        replace (1001 * (t / pn) * pn) with (1001 * t) by (field; lra). auto. }
      assert (NC : allclose d (vdiv w m) = false).
      { apply (far_not_close n); auto. rewrite Dw. apply Rmult_le_reg_r with m; auto.
        replace (al / m * m) with al by (field; lra).
        destruct (Rle_dec al 0); [nra|].
        assert (al * al <= 1001 * 1001 * (be * be)) by nra.
        assert (al * al <= ((1 - / 10 ^ 7) * m) * ((1 - / 10 ^ 7) * m)) by nra. nra. }
      assert (FD : exists q, from_directions d (vdiv w m) = Ok q /\ rb0 q = d /\ rb1 q = e).
      { unfold from_directions. pose proof Ud as Nd. apply unit_norm in Nd. pose proof Uw as Nw. apply unit_norm in Nw.
        rewrite Nd, Nw. destruct (Req_EM_T 1 0); [lra|]. rewrite !vdiv_1, NC, Dw.
        assert (EV : vsub (vdiv w m) (vscale (al / m) d) = vscale (be / m) e) by (unfold w; vext; field; lra).
        rewrite EV. assert (Bm : 0 < be / m) by (apply Rdiv_lt_0_compat; auto).
        destruct (unit_len e (be / m) Bm Ue) as [Ne Ee]. rewrite Ee, Ne.
        destruct (Req_EM_T (be / m) 0); [lra|]. cbn [bind]. eexists. split; [reflexivity|]. auto. }
      destruct FD as (q & Eq & Q1 & Q2). rewrite Eq. cbn [bind]. rewrite Q1, Q2.
      eexists. f_equal. f_equal. rewrite Pos. f_equal. f_equal.
      unfold rotate. cbn [rb0 rb1 rangle]. rewrite (rotate_direction_eq n) by auto.
      rewrite (plane_rot_first n) by (repeat split; auto). rewrite Rmult_1_l, cos_acos, sin_acos by lra.
      unfold Rsqr. auto.
Qed.

(** Unfolding undoes folding, in both frames. *)
Theorem C67_unfold_fold : forall n frame reference position attractor, (2 <= n <= 1000)%nat ->
  basis_of n basis ->
  length reference = n -> length position = n -> length attractor = n ->
  (frame = true -> reference = vzero n) ->
  let o := norm (vsub reference attractor) in
  let l := norm (vsub position attractor) in
  o <> 0 -> l <> 0 -> o * ln (l / o) <= 1000 ->
  dot (direction (vsub position attractor)) (direction (vsub reference attractor)) <> -1 ->
  exists folded argument, fold_position basis 2 huge reference position attractor = Ok folded /\
    unfold_position 2 frame reference folded attractor = Ok (position, argument).
Proof.
  intros n frame ref p a [Hn1 Hn2] HB Lr Lp La Hf o l Ho Hl Hx Hd.
  destruct (polar_exists n ref p a Hn1 Lr Lp La Ho Hl Hd) as (d & e & P).
  pose proof (C67_folded_position n ref p a d e _ _ _ HB Lr Lp La P) as F.
  destruct (unfold_of_folded n frame ref p a d e _ _ _ Hn2 Lr Lp La Hf P Hx) as (arg & U).
  eexists; exists arg. split; [exact F|exact U].
Qed.
(** Different positions stay different. *)
Theorem C67_fold_injective : forall n reference p1 p2 attractor, (2 <= n <= 1000)%nat -> basis_of n basis ->
  length reference = n -> length attractor = n -> norm (vsub reference attractor) <> 0 ->
  (forall p, p = p1 \/ p = p2 -> length p = n /\ norm (vsub p attractor) <> 0 /\
     norm (vsub reference attractor) * ln (norm (vsub p attractor) / norm (vsub reference attractor)) <= 1000 /\
     dot (direction (vsub p attractor)) (direction (vsub reference attractor)) <> -1) ->
  fold_position basis 2 huge reference p1 attractor = fold_position basis 2 huge reference p2 attractor -> p1 = p2.
Proof.
  intros n ref p1 p2 a Hn HB Lr La Ho H E.
  destruct (H p1) as (L1 & N1 & X1 & D1); auto. destruct (H p2) as (L2 & N2 & X2 & D2); auto.
  destruct (C67_unfold_fold n false ref p1 a) as (f1 & g1 & F1 & U1); auto; [discriminate|].
  destruct (C67_unfold_fold n false ref p2 a) as (f2 & g2 & F2 & U2); auto; [discriminate|].
  rewrite F1, F2 in E. injection E as ->. rewrite U1 in U2. injection U2 as -> _. auto.
Qed.
(** The reference point stays in place; nothing is folded when it is the attractor. *)
Theorem C67_reference_kept : forall n reference attractor, (2 <= n)%nat -> basis_of n basis ->
  length reference = n -> length attractor = n ->
  fold_position basis 2 huge reference reference attractor = Ok reference.
Proof.
  intros n ref a Hn HB Lr La.
  destruct (Req_EM_T (norm (vsub ref a)) 0) as [Z|Z].
  { unfold fold_position. rewrite Z. destruct (Req_EM_T 0 0); [auto|lra]. }
  assert (D : dot (direction (vsub ref a)) (direction (vsub ref a)) = 1) by (apply dirof_unit; auto).
  destruct (polar_exists n ref ref a) as (d & e & P); auto; [rewrite D; lra|].
  rewrite (C67_folded_position n ref ref a d e _ _ _ HB Lr Lr La P), D. f_equal.
  replace ((1 - 1) / (1 + 1)) with 0 by field. unfold Rdiv. rewrite Rinv_r, ln_1, sqrt_0 by auto.
  destruct P as [_ _ _ _ _ _ _ Ld Le _].
  assert (Z0 : vadd (vscale (norm (vsub ref a) * 0) d) (vscale 0 e) = vzero n) by (vext; ring).
  rewrite Z0, scale_first_zero. vext. ring.
Qed.
End C67.

(** In the obstacle frame unfolding overwrites the array of the caller: a second call with the
    same array returns another position. *)
Definition turned (d : vec) : list vec := match d with [x; y] => [[x; y]; [- y; x]] | _ => [] end.
Lemma turned_basis : basis_of 2 turned.
Proof.
  intros d L U. destruct d as [|x [|y [|z r]]]; try discriminate. exists [[- y; x]]. split; auto.
  unfold unitv in U. simpl in U. unfold turned. repeat split; auto; repeat constructor; auto; unfold unitv; simpl; lra.
Qed.
Lemma unfold_axis y : unfold_position 2 true [0; 0] [2 * y; 0] [-2; 0] = Ok ([2 * (exp (y / 2) - 1); 0], [y; 0]).
Proof.
  assert (V : vsub [0; 0] [-2; 0] = [2; 0]) by (unfold vsub, vscale; simpl; f_equal; [ring|f_equal; ring]).
  assert (N2 : norm [2; 0] = 2) by (apply norm_is_axis; [auto|lra]).
  unfold unfold_position. rewrite V, N2. destruct (Req_EM_T 2 0); [lra|].
  assert (D : vdiv [2; 0] 2 = [1; 0]) by (unfold vdiv, vscale; simpl; f_equal; [field|f_equal; ring]). rewrite D.
  assert (R0 : scale_first (/ 2) (vsub [2 * y; 0] [0; 0]) = [y; 0]).
  { unfold vsub, vscale; simpl; f_equal; [field|f_equal; ring]. }
  rewrite R0.
  assert (NY : norm [y; 0] = Rabs y).
  { unfold norm. simpl. replace (y * y + (0 * 0 + 0)) with (Rsqr y) by (unfold Rsqr; ring). apply sqrt_Rsqr_abs. }
  destruct (Req_EM_T (norm [y; 0]) 0) as [Z|Z].
  - rewrite NY in Z. assert (y = 0) by (unfold Rabs in Z; destruct (Rcase_abs y); lra). subst y. replace (0 / 2) with 0 by field. rewrite exp_0.
    repeat f_equal; ring.
  - assert (Hr : dot [1; 0] (vdiv [y; 0] (norm [y; 0])) * norm [y; 0] = y).
    { rewrite dot_vdiv_r. simpl. field. auto. }
    rewrite Hr. assert (S0 : sqrt (Rmax (norm [y; 0] * norm [y; 0] - y * y) 0) = 0).
    { rewrite norm_sq. simpl. replace (y * y + (0 * 0 + 0) - y * y) with 0 by ring. rewrite Rmax_left by lra. apply sqrt_0. }
    rewrite S0. assert (F : fpow 0 2 = Ok 0).
    { unfold fpow. destruct (Rlt_dec 0 0); [lra|]. destruct (Req_EM_T 2 0); [lra|].
      destruct (Req_EM_T 0 0); [|lra]. destruct (Rlt_dec 0 2); [auto|lra]. }
    rewrite F. cbn [bind]. destruct (Rltb (2 / (0 + 1) - 1) 1) eqn:E; [apply Rltb_true in E; lra|]. cbn [bind].
    f_equal. f_equal. unfold vscale; simpl. f_equal; [ring|f_equal; ring].
Qed.
Theorem C67_argument_kept_refuted : exists reference attractor folded p argument p' argument',
  unfold_position 2 true reference folded attractor = Ok (p, argument) /\ argument <> folded /\
  unfold_position 2 true reference argument attractor = Ok (p', argument') /\ p' <> p.
Proof.
  exists [0; 0], [-2; 0], [2 * 2; 0], [2 * (exp (2 / 2) - 1); 0], [2; 0], [2 * (exp (1 / 2) - 1); 0], [1; 0].
  split; [apply unfold_axis|]. split; [intro H; injection H; lra|]. split.
  - replace [2; 0] with [2 * 1; 0] by (f_equal; ring). apply unfold_axis.
  - intro H. injection H as H. assert (L : exp (1 / 2) < exp (2 / 2)) by (apply exp_increasing; lra). lra.
Qed.

Lemma vec2 (a b c d : R) : a = c -> b = d -> [a; b] = [c; d].
Proof. congruence. Qed.
(** A quarter of the way around the attractor: the angle becomes a lateral distance. *)
Lemma polar_case o : 0 < o ->
  polar 2 [0; 0] [o * (7/25) - o; o * (24/25)] [- o; 0] [1; 0] [0; 1] o o (7/25) /\
  polar 2 [0; 0] [- (o * (24/25)); o * (7/25) - o] [0; - o] [0; 1] [-1; 0] o o (7/25).
Proof.
  intros Ho. assert (S : sqrt (1 - 7/25 * (7/25)) = 24/25).
  { replace (1 - 7/25 * (7/25)) with (24/25 * (24/25)) by field. apply sqrt_square. lra. }
  split; constructor; auto; try lra; try (unfold unitv; simpl; lra); try (simpl; lra); try rewrite S;
    unfold vsub, vscale; simpl; apply vec2; field.
Qed.
Example C67_case : forall huge,
  fold_position turned 2 huge [0; 0] [5 * (7/25) - 5; 5 * (24/25)] [-(5); 0] = Ok [0; 3/4].
Proof.
  intros huge. destruct (polar_case 5 ltac:(lra)) as [P _].
  rewrite (C67_folded_position turned huge 2 [0; 0] [5 * (7/25) - 5; 5 * (24/25)] [-(5); 0] [1; 0] [0; 1] 5 5 (7/25))
    by (auto using turned_basis). f_equal.
  replace (5 / 5) with 1 by field. rewrite ln_1.
  replace ((1 - 7 / 25) / (1 + 7 / 25)) with (3/4 * (3/4)) by field. rewrite sqrt_square by lra.
  unfold vscale; simpl. apply vec2; field.
Qed.

(** * C68 *)
(** A star-shaped obstacle around the origin of its frame. *)
Record star_shaped (n : nat) (gamma radius : vec -> R) : Prop := {
  st_in : forall p, length p = n -> (gamma p <= 1 <-> norm p <= radius p);
  st_strict : forall p, length p = n -> (gamma p < 1 <-> norm p < radius p);
  st_radial : radial radius (vzero n); st_pos : forall p, 0 < radius p }.
Definition inverse_pose (n : nat) (to_relative from_relative : vec -> vec) : Prop :=
  forall p, length p = n -> length (to_relative p) = n /\ length (from_relative p) = n /\
    to_relative (from_relative p) = p /\ from_relative (to_relative p) = p.
(** The position in the environment in which the obstacle is shrunk to its center. *)
Definition shrunk (radius : vec -> R) (p : vec) : vec := vscale ((norm p - radius p) / norm p) p.

Lemma vsub_zero n p : length p = n -> vsub p (vzero n) = p.
Proof. intros. vext. ring. Qed.
Lemma vadd_zero n p : length p = n -> vadd p (vzero n) = p.
Proof. intros. vext. ring. Qed.
Lemma deflate_shrunk n radius p : length p = n -> 0 < radius p -> radius p <= norm p ->
  deflate radius (vzero n) 1 p = Ok (shrunk radius p) /\ length (shrunk radius p) = n /\
  norm (shrunk radius p) = norm p - radius p.
Proof.
  intros L Hr Ho. unfold deflate, shrunk. rewrite vsub_zero by auto.
  destruct (Rltb (norm p) (radius p)) eqn:E; [apply Rltb_true in E; lra|].
  rewrite fdiv_ok by lra. cbn [bind]. rewrite Rmult_1_r, vadd_zero, length_vscale, norm_vscale by (rewrite length_vscale; auto).
  split; auto. split; auto. rewrite Rabs_pos_eq; [field; lra|].
  apply Rmult_le_pos; [lra|]. left. apply Rinv_0_lt_compat. lra.
Qed.
Lemma scale_first_nonzero o v : o <> 0 -> norm v <> 0 -> norm (scale_first o v) <> 0.
Proof.
  intros Ho Hv Z. apply Hv. destruct v as [|x l]; auto. apply norm_eq_0_dot in Z. apply norm_eq_0_dot.
  cbn [scale_first dot] in *. pose proof (dot_self_nonneg l). assert (0 < o * o) by nra.
  assert (dot l l = 0) by nra. assert (E : (o * o) * (x * x) = 0) by nra.
  apply Rmult_integral in E as [E|E]; nra.
Qed.

(** Folding never fails outside the center and never moves a position to the center. *)
Lemma fold_total basis huge n p a : (2 <= n)%nat -> basis_of n basis -> 0 < huge ->
  length p = n -> length a = n -> norm p <> 0 -> norm a <> 0 ->
  exists f, fold_position basis 2 huge (vzero n) p a = Ok f /\ length f = n /\ norm f <> 0.
Proof.
  intros Hn HB Hh Lp La Np Na.
  assert (Vo : vsub (vzero n) a = vscale (-1) a) by (vext; ring).
  assert (No : norm (vsub (vzero n) a) = norm a).
  { rewrite Vo, norm_vscale. replace (Rabs (-1)) with 1; [ring|]. rewrite Rabs_left by lra. ring. }
  assert (Nz : norm (vsub (vzero n) a) <> 0) by congruence.
  assert (Lz : length (vzero n) = n) by apply length_vzero.
  destruct (Req_EM_T (norm (vsub p a)) 0) as [Z|Z];
    [|destruct (Req_EM_T (dot (direction (vsub p a)) (direction (vsub (vzero n) a))) (-1)) as [O|O]].
  3:{ destruct (polar_exists n (vzero n) p a Hn Lz Lp La Nz Z O) as (d & e & P).
      rewrite (C67_folded_position basis huge n _ _ _ _ _ _ _ _ HB Lz Lp La P).
      set (c := dot _ _) in *. set (o := norm (vsub (vzero n) a)) in *. set (l := norm (vsub p a)) in *.
      eexists. split; [reflexivity|]. destruct P as [Po Ho Pp Hl Ud Ue De Ld Le Hc].
      set (v := vadd _ (vscale _ e)).
      assert (Lv : length v = n) by (unfold v; autorewrite with vlen; lia).
      rewrite vadd_zero by (rewrite scale_first_len; auto). split; [rewrite scale_first_len; auto|].
      apply scale_first_nonzero; auto. intro V0. apply norm_eq_0_dot in V0. unfold v in V0. rewrite mix_dot in V0 by auto.
      assert (X0 : o * ln (l / o) = 0) by nra. assert (T0 : sqrt ((1 - c) / (1 + c)) = 0) by nra.
      assert (C1 : c = 1).
      { apply sqrt_eq_0 in T0; [|apply Rmult_le_pos; [lra|left; apply Rinv_0_lt_compat; lra]].
        assert (1 - c = 0); [|lra]. apply Rmult_eq_reg_r with (/ (1 + c)); [lra|]. apply Rinv_neq_0_compat; lra. }
      assert (Lo : l = o).
      { apply Rmult_integral in X0 as [X0|X0]; [lra|].
        assert (Q : 0 < l / o) by (apply Rdiv_lt_0_compat; auto).
        assert (E : l / o = 1) by (rewrite <- (exp_ln (l / o)), X0 by auto; apply exp_0).
        replace l with (l / o * o) by (field; lra). rewrite E. ring. }
      apply Np. assert (E : p = vzero n); [|rewrite E; apply norm_vzero].
      assert (E : vsub p a = vsub (vzero n) a).
      { rewrite Pp, Po, C1, Lo. replace (1 - 1 * 1) with 0 by ring. rewrite sqrt_0. vext. ring. }
      assert (E' : vadd (vsub p a) a = vadd (vsub (vzero n) a) a) by congruence.
      replace (vadd (vsub p a) a) with p in E' by (vext; ring). rewrite E'. vext. ring. }
  all: set (d := vdiv (vsub (vzero n) a) (norm (vsub (vzero n) a))).
  all: assert (Ld : length d = n) by (unfold d; rewrite length_vdiv; autorewrite with vlen; lia).
  all: assert (Ud : unitv d) by (apply unit_vdiv; auto).
  all: destruct (HB d Ld Ud) as (rest & EB & OM); rewrite EB in OM; destruct OM as (Lc & Fc & OC).
  all: destruct rest as [|r0 rest]; [simpl in Lc; lia|].
  all: assert (NN : forall x y l, length l = length rest -> 0 < x * x + y * y ->
         norm (vadd (scale_first (norm (vsub (vzero n) a)) (mat_vec n (d :: r0 :: rest) (x :: y :: l))) (vzero n)) <> 0 /\
         length (vadd (scale_first (norm (vsub (vzero n) a)) (mat_vec n (d :: r0 :: rest) (x :: y :: l))) (vzero n)) = n).
  1,3: intros x y l Ll Hxy; pose proof (mat_vec_len n _ Fc (x :: y :: l)) as LM;
       rewrite vadd_zero by (rewrite scale_first_len; auto); rewrite scale_first_len; split; auto;
       apply scale_first_nonzero; auto; apply norm_neq_0_dot;
       rewrite mat_isometry by (auto; simpl; congruence); cbn [dot]; pose proof (dot_self_nonneg l); nra.
  all: unfold fold_position; fold d; destruct (Req_EM_T (norm (vsub (vzero n) a)) 0) as [|_]; [contradiction|].
  all: rewrite EB, Lp; cbn [mat_t_vec map].
  - destruct (Req_EM_T (norm (vsub p a)) 0); [|contradiction].
    eexists. split; [reflexivity|]. apply and_comm. apply NN; [apply map_length|nra].
  - destruct (Req_EM_T (norm (vsub p a)) 0) as [|_]; [contradiction|].
    assert (OD : dot (vdiv (vsub p a) (norm (vsub p a))) d = -1) by exact O. rewrite OD.
    assert (E : Rleb (-1) (-1) = true) by (apply Rleb_true; lra). rewrite E. cbn [bind].
    eexists. split; [reflexivity|]. apply and_comm. apply NN; [apply map_length|nra].
Qed.

Section C68.
Variable basis : vec -> list vec.
Variable huge : R.
Variables to_relative from_relative : vec -> vec.
Variables gamma radius : vec -> R.
Variable n : nat.
Let project := get_projected_position basis 2 huge to_relative from_relative gamma radius.
Let weight := evaluate_projected_weight basis 2 huge to_relative from_relative gamma radius.
Hypothesis Hn : (2 <= n)%nat.
Hypothesis HB : basis_of n basis.
Hypothesis Hh : 0 < huge.
Hypothesis HP : inverse_pose n to_relative from_relative.
Hypothesis HS : star_shaped n gamma radius.

(** Inside the obstacle, and everywhere if the attractor is inside, nothing is projected; other positions stay outside of the obstacle or are thrown far away. *)
Theorem C68_projected_position : forall attractor position, length attractor = n -> length position = n ->
  exists q, project attractor position = Ok q /\
    (gamma (to_relative position) <= 1 -> q = position) /\
    (gamma (to_relative attractor) < 1 -> q = position) /\
    (1 < gamma (to_relative position) -> 1 < gamma (to_relative q) \/ 10 ^ 10 < norm q).
Proof.
  intros A p LA Lp. destruct (HP A LA) as (LA' & _). destruct (HP p Lp) as (Lp' & _ & _ & FT).
  destruct HS as [SI SS SR SP]. unfold project, get_projected_position.
  set (rp := to_relative p) in *. set (ra := to_relative A) in *.
  destruct (Rltb (gamma ra) 1) eqn:E1.
  { exists p. repeat split; auto. }
  destruct (Rleb (gamma rp) 1) eqn:E2.
  { exists p. apply Rleb_true in E2. repeat split; auto. }
  apply Rltb_false in E1. apply Rleb_false in E2. rewrite Lp'.
  assert (Rp : radius rp < norm rp) by (destruct (Rlt_le_dec (radius rp) (norm rp)); auto; apply SI in r; auto; lra).
  assert (Ra : radius ra <= norm ra) by (destruct (Rlt_le_dec (norm ra) (radius ra)); auto; apply SS in r; auto; lra).
  destruct (deflate_shrunk n radius rp) as (D1 & L1 & N1); auto; [lra|].
  destruct (deflate_shrunk n radius ra) as (D2 & L2 & N2); auto.
  rewrite D1, D2. cbn [bind].
  assert (INF : forall f, length f = n -> norm f <> 0 -> exists i, inflate radius (vzero n) 1 f = Ok i /\ length i = n /\ 1 < gamma i).
  { intros f Lf Nf. destruct (C46_inflate_shift radius (vzero n) 1 f) as (i & c & Ei & Li & Hc & Vi & Ni).
    - rewrite length_vzero; auto.
    - lra.
    - left; apply SP.
    - rewrite vsub_zero; auto.
    - rewrite length_vzero in Li. rewrite !vsub_zero in * by auto. exists i. split; auto. split; auto.
      assert (Hr : radius i = radius f).
      { rewrite Vi. rewrite <- (SR f c); auto; [|rewrite length_vzero; auto].
        rewrite vsub_zero, vadd_zero by (rewrite ?length_vscale; auto). auto. }
      destruct (Rlt_le_dec 1 (gamma i)) as [|G]; auto. apply SI in G; auto. apply norm_pos in Nf. rewrite Hr in G. lra. }
  destruct (Req_EM_T (norm (shrunk radius ra)) 0) as [Z|Z].
  - (* the attractor on the surface *)
    assert (NZ : norm (vsub (vzero n) (shrunk radius ra)) = 0).
    { replace (vsub (vzero n) (shrunk radius ra)) with (vscale (-1) (shrunk radius ra)) by (vext; ring).
      rewrite norm_vscale, Z. ring. }
    assert (EF : fold_position basis 2 huge (vzero n) (shrunk radius rp) (shrunk radius ra) = Ok (shrunk radius rp)).
    { unfold fold_position. rewrite NZ. destruct (Req_EM_T 0 0); [auto|lra]. }
    rewrite EF. cbn [bind].
    destruct (C46_inflate_deflate radius (vzero n) 1 rp) as (x & X1 & X2); auto.
    { rewrite length_vzero; auto. } { lra. } { rewrite vsub_zero by auto. split; [left; apply SP|auto]. }
    rewrite D1 in X1. injection X1 as <-.
    destruct (Rltb (10 ^ 10) (norm (shrunk radius rp))) eqn:E3.
    + apply Rltb_true in E3. eexists. split; [reflexivity|]. repeat split; auto; lra.
    + rewrite X2. cbn [bind]. rewrite FT. exists p. repeat split; auto.
  - destruct (fold_total basis huge n (shrunk radius rp) (shrunk radius ra)) as (f & Ef & Lf & Nf); auto; [lra|].
    rewrite Ef. cbn [bind]. destruct (Rltb (10 ^ 10) (norm f)) eqn:E3.
    + apply Rltb_true in E3. exists f. split; auto. repeat split; auto; lra.
    + destruct (INF f Lf Nf) as (i & Ei & Li & Gi). rewrite Ei. cbn [bind]. exists (from_relative i). split; auto.
      split; [lra|]. split; [lra|]. intros _. left.
      destruct (HP i Li) as (_ & _ & TF & _). rewrite TF. auto.
Qed.

(** The weight is one exactly inside and on the surface, and lies between zero and one outside. *)
Theorem C68_weight : forall attractor position weight_power, length attractor = n -> length position = n ->
  0 < weight_power -> (forall q, 10 ^ 10 < norm q -> 1 < gamma (to_relative q)) ->
  exists w, weight attractor weight_power position = Ok w /\ 0 < w <= 1 /\ (w = 1 <-> gamma (to_relative position) <= 1).
Proof.
  intros A p pw LA Lp Hpw Far. unfold weight, evaluate_projected_weight.
  destruct (C68_projected_position A p LA Lp) as (q & Eq & H1 & _ & H3). unfold project in Eq. rewrite Eq. cbn [bind].
  destruct (C47_projected_weight (gamma (to_relative q)) (gamma (to_relative p)) pw) as (w & Ew & B & W1 & W2); [lra|].
  exists w. split; auto. split; auto. split; auto. intros ->.
  destruct (Rle_dec (gamma (to_relative p)) 1) as [|G]; auto. exfalso.
  assert (G1 : 1 < gamma (to_relative q)) by (destruct H3; auto; lra).
  specialize (W2 G1 ltac:(lra) Hpw). lra.
Qed.
(** An attractor inside the obstacle: the weight depends on the distance only. *)
Theorem C68_weight_attractor_inside : forall attractor position weight_power, length attractor = n -> length position = n ->
  gamma (to_relative attractor) < 1 -> 1 < gamma (to_relative position) -> 0 < weight_power ->
  let g := gamma (to_relative position) in
  weight attractor weight_power position = Ok (Rpower (1 / ((g - 1) * (g - 1) + 1)) weight_power).
Proof.
  intros A p pw LA Lp HA Hg Hp g. destruct (C68_projected_position A p LA Lp) as (q & Eq & _ & H2 & _).
  unfold weight, evaluate_projected_weight. unfold project in Eq. rewrite Eq, (H2 HA). cbn [bind]. fold g. fold g in Hg.
  unfold projected_weight. assert (E : Rleb g 1 = false) by (apply Rleb_false; auto). rewrite E. cbn [orb].
  assert (Q : 0 < (g - 1) * (g - 1)) by nra. rewrite fdiv_ok by lra. cbn [bind].
  assert (Q1 : 0 < 1 / ((g - 1) * (g - 1) + 1) <= 1).
  { split; [apply Rdiv_lt_0_compat; lra|]. apply Rmult_le_reg_r with ((g - 1) * (g - 1) + 1); [lra|].
    replace (1 / ((g - 1) * (g - 1) + 1) * ((g - 1) * (g - 1) + 1)) with 1 by (field; lra). lra. }
  rewrite fpow_pos by lra. cbn [bind]. rewrite Rmin_left; auto. apply Rpower_le_1; lra.
Qed.

(** Different positions outside the obstacle are projected to different positions. *)
Theorem C68_injective : forall attractor p1 p2 q, (n <= 1000)%nat -> length attractor = n ->
  1 < gamma (to_relative attractor) -> norm q <= 10 ^ 10 ->
  let a := shrunk radius (to_relative attractor) in
  (forall p, p = p1 \/ p = p2 -> length p = n /\ 1 < gamma (to_relative p) /\ 
     let s := shrunk radius (to_relative p) in
     norm (vsub s a) <> 0 /\ norm a * ln (norm (vsub s a) / norm a) <= 1000 /\
     dot (direction (vsub s a)) (direction (vscale (-1) a)) <> -1 /\
     (forall f, fold_position basis 2 huge (vzero n) s a = Ok f -> norm f <= 10 ^ 10)) ->
  project attractor p1 = Ok q -> project attractor p2 = Ok q -> p1 = p2.
Proof.
  intros A p1 p2 q Hn2 LA HA Hq a H P1 P2.
  destruct HS as [SI SS SR SP]. destruct (HP A LA) as (LA' & _).
  assert (Ra : radius (to_relative A) < norm (to_relative A)).
  { destruct (Rlt_le_dec (radius (to_relative A)) (norm (to_relative A))); auto. apply SI in r; auto; lra. }
  destruct (deflate_shrunk n radius (to_relative A)) as (D2 & L2 & N2); auto; [lra|]. fold a in D2, L2, N2.
  assert (Na : norm a <> 0) by lra.
  assert (Vo : vsub (vzero n) a = vscale (-1) a) by (vext; ring).
  assert (No : norm (vsub (vzero n) a) = norm a).
  { rewrite Vo, norm_vscale. replace (Rabs (-1)) with 1; [ring|]. rewrite Rabs_left by lra. ring. }
  assert (Step : forall p, p = p1 \/ p = p2 -> project A p = Ok q ->
     exists f, fold_position basis 2 huge (vzero n) (shrunk radius (to_relative p)) a = Ok f /\ length f = n /\ norm f <> 0 /\
       exists i, inflate radius (vzero n) 1 f = Ok i /\ length i = n /\ from_relative i = q).
  { intros p Hp P. destruct (H p Hp) as (Lp & Gp & Ns & Xs & Ds & Fs). destruct (HP p Lp) as (Lp' & _).
    unfold project, get_projected_position in P. rewrite Lp' in P.
    assert (E1 : Rltb (gamma (to_relative A)) 1 = false) by (apply Rltb_false; lra).
    assert (E2 : Rleb (gamma (to_relative p)) 1 = false) by (apply Rleb_false; lra). rewrite E1, E2 in P.
    assert (Rp : radius (to_relative p) < norm (to_relative p)).
    { destruct (Rlt_le_dec (radius (to_relative p)) (norm (to_relative p))); auto. apply SI in r; auto; lra. }
    destruct (deflate_shrunk n radius (to_relative p)) as (D1 & L1 & N1); auto; [lra|].
    rewrite D1, D2 in P. cbn [bind] in P.
    destruct (fold_total basis huge n (shrunk radius (to_relative p)) a) as (f & Ef & Lf & Nf); auto; [lra|].
    rewrite Ef in P. cbn [bind] in P. specialize (Fs f Ef).
    assert (E3 : Rltb (10 ^ 10) (norm f) = false) by (apply Rltb_false; auto). rewrite E3 in P.
    exists f. split; auto. split; auto. split; auto.
    destruct (C46_inflate_shift radius (vzero n) 1 f) as (i & c & Ei & Li & _).
    - rewrite length_vzero; auto.
    - lra.
    - left; apply SP.
    - rewrite vsub_zero; auto.
    - rewrite length_vzero in Li. rewrite Ei in P. cbn [bind] in P. injection P as P. eauto. }
  destruct (Step p1) as (f1 & F1 & Lf1 & Nf1 & i1 & I1 & Li1 & Q1); auto.
  destruct (Step p2) as (f2 & F2 & Lf2 & Nf2 & i2 & I2 & Li2 & Q2); auto.
  assert (EI : i1 = i2).
  { destruct (HP i1 Li1) as (_ & _ & T1 & _). destruct (HP i2 Li2) as (_ & _ & T2 & _). congruence. }
  subst i2.
  assert (EFF : f1 = f2).
  { destruct (C46_deflate_inflate radius (vzero n) f1) as (x & X1 & X2); auto; [rewrite length_vzero; auto|left; apply SP|rewrite vsub_zero; auto|].
    destruct (C46_deflate_inflate radius (vzero n) f2) as (y & Y1 & Y2); auto; [rewrite length_vzero; auto|left; apply SP|rewrite vsub_zero; auto|].
    rewrite I1 in X1. rewrite I2 in Y1. injection X1 as <-. injection Y1 as <-. congruence. }
  subst f2.
  destruct (H p1) as (Lp1 & G1 & Ns1 & Xs1 & Ds1 & _); auto. destruct (H p2) as (Lp2 & G2 & Ns2 & Xs2 & Ds2 & _); auto.
  destruct (HP p1 Lp1) as (Lr1 & _ & _ & FT1). destruct (HP p2 Lp2) as (Lr2 & _ & _ & FT2).
  assert (O1 : radius (to_relative p1) < norm (to_relative p1)).
  { destruct (Rlt_le_dec (radius (to_relative p1)) (norm (to_relative p1))); auto. apply SI in r; auto; lra. }
  assert (O2 : radius (to_relative p2) < norm (to_relative p2)).
  { destruct (Rlt_le_dec (radius (to_relative p2)) (norm (to_relative p2))); auto. apply SI in r; auto; lra. }
  destruct (deflate_shrunk n radius (to_relative p1)) as (D1 & L1 & _); auto; [lra|].
  destruct (deflate_shrunk n radius (to_relative p2)) as (D2' & L2' & _); auto; [lra|].
  assert (ES : shrunk radius (to_relative p1) = shrunk radius (to_relative p2)).
  { apply (C67_fold_injective basis huge n (vzero n) _ _ a); auto; try lia.
    - apply length_vzero.
    - congruence.
    - intros p [->| ->]; rewrite No, Vo; auto.
    - congruence. }
  destruct (C46_inflate_deflate radius (vzero n) 1 (to_relative p1)) as (x & X1 & X2); auto.
  { rewrite length_vzero; auto. } { lra. } { rewrite vsub_zero by auto. split; [left; apply SP|auto]. }
  destruct (C46_inflate_deflate radius (vzero n) 1 (to_relative p2)) as (y & Y1 & Y2); auto.
  { rewrite length_vzero; auto. } { lra. } { rewrite vsub_zero by auto. split; [left; apply SP|auto]. }
  rewrite D1 in X1. rewrite D2' in Y1. injection X1 as <-. injection Y1 as <-. rewrite ES in X2. rewrite X2 in Y2. injection Y2 as E.
  congruence.
Qed.
End C68.

(** The weight of a disc depends on the orientation of its frame: line 257 stretches the first
    axis of the frame instead of the radial direction. *)
Definition unit_disc : vec -> R := fun _ => 1.
Definition quarter (v : vec) : vec := match v with [x; y] => [- y; x] | _ => v end.
Definition quarter_back (v : vec) : vec := match v with [x; y] => [y; - x] | _ => v end.
Lemma disc_star : star_shaped 2 norm unit_disc.
Proof. constructor; unfold unit_disc; intros; try lra. intros p c _ _. auto. Qed.
Lemma quarter_norm v : length v = 2%nat -> norm (quarter v) = norm v.
Proof. intros L. destruct v as [|x [|y [|z r]]]; try discriminate. unfold norm. simpl. f_equal. ring. Qed.
Lemma same_pose : inverse_pose 2 (fun v => v) (fun v => v).
Proof. intros p L. auto. Qed.
Lemma quarter_pose : inverse_pose 2 quarter quarter_back.
Proof.
  intros p L. destruct p as [|x [|y [|z r]]]; try discriminate. simpl. repeat split; auto; apply vec2; ring.
Qed.
Lemma norm_is2 x y r : 0 <= r -> x * x + y * y = r * r -> norm [x; y] = r.
Proof. intros Hr E. unfold norm. simpl. replace (x * x + (y * y + 0)) with (r * r) by lra. apply sqrt_square. auto. Qed.

Lemma disc_projection huge to_relative from_relative A p a s f d e i r ra rs :
  to_relative A = a -> to_relative p = s -> length a = 2%nat -> length s = 2%nat ->
  norm a = ra -> norm s = rs -> 1 < ra -> 1 < rs ->
  polar 2 [0; 0] (vscale ((rs - 1) / rs) s) (vscale ((ra - 1) / ra) a) d e 5 5 (7/25) ->
  scale_first 5 (vadd (vscale 0 d) (vscale (3/4) e)) = f -> length f = 2%nat -> norm f = r -> 0 < r <= 5 ->
  vscale ((r + 1) / r) f = i ->
  get_projected_position turned 2 huge to_relative from_relative norm unit_disc A p = Ok (from_relative i).
Proof.
  intros TA TP La Ls Na Ns Ha Hs P Ef Lf Nf Hr Ei. unfold get_projected_position. rewrite TA, TP, Na, Ns, Ls.
  destruct (Rltb ra 1) eqn:E1; [apply Rltb_true in E1; lra|]. destruct (Rleb rs 1) eqn:E2; [apply Rleb_true in E2; lra|].
  destruct (deflate_shrunk 2 unit_disc s) as (D1 & L1 & _); auto; unfold unit_disc; try lra.
  destruct (deflate_shrunk 2 unit_disc a) as (D2 & L2 & _); auto; unfold unit_disc; try lra.
  unfold unit_disc in D1, D2. rewrite D1, D2. cbn [bind]. unfold shrunk in *. rewrite Na, Ns in *.
  unfold unit_disc in L1, L2.
  change (vzero 2) with [0; 0].
  rewrite (C67_folded_position turned huge 2 [0; 0] _ _ d e 5 5 (7/25) turned_basis eq_refl L1 L2 P). cbn [bind].
  replace (5 / 5) with 1 by field. rewrite ln_1, Rmult_0_r.
  replace ((1 - 7 / 25) / (1 + 7 / 25)) with (3/4 * (3/4)) by field. rewrite sqrt_square by lra. rewrite Ef.
  change [0; 0] with (vzero 2). rewrite vadd_zero by auto. rewrite Nf.
  destruct (Rltb (10 ^ 10) r) eqn:E3; [apply Rltb_true in E3; lra|].
  unfold inflate. rewrite vsub_zero, Nf by auto. destruct (Req_EM_T r 0); [lra|]. rewrite fdiv_ok by lra. cbn [bind].
  rewrite Rmult_1_r, Ei, vadd_zero; auto. rewrite <- Ei, length_vscale. auto.
Qed.
Lemma case_weight pg q : 1 < pg -> 1 / ((pg - 1) * (7 - 1) + 1) = q -> projected_weight pg 7 (1/2) = Ok (sqrt q).
Proof.
  intros H E. unfold projected_weight. destruct (Rleb pg 1 || Rleb 7 1) eqn:B.
  { apply orb_true_iff in B as [B|B]; apply Rleb_true in B; lra. }
  rewrite fdiv_ok by lra. cbn [bind]. rewrite E.
  assert (Q : 0 < q <= 1).
  { rewrite <- E. split; [apply Rdiv_lt_0_compat; lra|]. apply Rmult_le_reg_r with ((pg - 1) * (7 - 1) + 1); [lra|].
    replace (1 / ((pg - 1) * (7 - 1) + 1) * ((pg - 1) * (7 - 1) + 1)) with 1 by (field; lra). lra. }
  rewrite fpow_pos by lra. cbn [bind]. rewrite Rmin_left by (apply Rpower_le_1; lra).
  replace (1/2) with (/2) by lra. rewrite Rpower_sqrt by lra. auto.
Qed.
Theorem C68_orientation_refuted : forall huge, exists to1 from1 to2 from2 A p w1 w2,
  star_shaped 2 norm unit_disc /\ inverse_pose 2 to1 from1 /\ inverse_pose 2 to2 from2 /\
  (forall v, length v = 2%nat -> norm (to1 v) = norm (to2 v)) /\ length A = 2%nat /\ length p = 2%nat /\
  evaluate_projected_weight turned 2 huge to1 from1 norm unit_disc A (1/2) p = Ok w1 /\
  evaluate_projected_weight turned 2 huge to2 from2 norm unit_disc A (1/2) p = Ok w2 /\ w1 <> w2.
Proof.
  intros huge. destruct (polar_case 5 ltac:(lra)) as [P1 P2].
  exists (fun v => v), (fun v => v), quarter, quarter_back, [-6; 0], [-(21/5); 28/5], (sqrt (2/11)), (sqrt (2/47)).
  assert (NA : norm [-6; 0] = 6) by (apply norm_is2; lra).
  assert (NP : norm [-(21/5); 28/5] = 7) by (apply norm_is2; lra).
  split; [apply disc_star|]. split; [apply same_pose|]. split; [apply quarter_pose|].
  split; [intros; symmetry; apply quarter_norm; auto|]. split; auto. split; auto.
  split; [|split].
  - unfold evaluate_projected_weight.
    rewrite (disc_projection huge (fun v => v) (fun v => v) [-6; 0] [-(21/5); 28/5] [-6; 0] [-(21/5); 28/5] [0; 3/4] [1; 0] [0; 1]
       [0; 7/4] (3/4) 6 7); auto; try lra.
    + cbn [bind]. rewrite NP. assert (E : norm [0; 7/4] = 7/4) by (apply norm_is2; lra). rewrite E.
      apply case_weight; [lra|field].
    + replace (vscale ((7 - 1) / 7) [-(21/5); 28/5]) with [5 * (7/25) - 5; 5 * (24/25)] by (unfold vscale; simpl; apply vec2; field).
      replace (vscale ((6 - 1) / 6) [-6; 0]) with [- (5); 0] by (unfold vscale; simpl; apply vec2; field). auto.
    + unfold vscale; simpl. apply vec2; field.
    + apply norm_is2; lra.
    + unfold vscale; simpl. apply vec2; field.
  - unfold evaluate_projected_weight.
    rewrite (disc_projection huge quarter quarter_back [-6; 0] [-(21/5); 28/5] [0; -6] [-(28/5); -(21/5)] [-(15/4); 0] [0; 1] [-1; 0]
       [-(19/4); 0] (15/4) 6 7); auto; try lra.
    + cbn [bind]. rewrite (quarter_norm [-(21/5); 28/5]), NP by auto.
      assert (E : norm (quarter (quarter_back [-(19/4); 0])) = 19/4) by (simpl; apply norm_is2; lra). rewrite E.
      apply case_weight; [lra|field].
    + simpl. apply vec2; ring.
    + apply norm_is2; lra.
    + apply norm_is2; lra.
    + replace (vscale ((7 - 1) / 7) [-(28/5); -(21/5)]) with [- (5 * (24/25)); 5 * (7/25) - 5] by (unfold vscale; simpl; apply vec2; field).
      replace (vscale ((6 - 1) / 6) [0; -6]) with [0; - (5)] by (unfold vscale; simpl; apply vec2; field). auto.
    + unfold vscale; simpl. apply vec2; field.
    + apply norm_is2; lra.
    + unfold vscale; simpl. apply vec2; field.
  - intro E. apply sqrt_inj in E; lra.
Qed.
(** A disc: on its surface the weight is one, at twice the radius it is smaller. *)
Example C68_case : forall huge, 0 < huge -> exists w,
  evaluate_projected_weight turned 2 huge (fun v => v) (fun v => v) norm unit_disc [-6; 0] (1/2) [2; 0] = Ok w /\ 0 < w < 1 /\
  evaluate_projected_weight turned 2 huge (fun v => v) (fun v => v) norm unit_disc [-6; 0] (1/2) [1; 0] = Ok 1.
Proof.
  intros huge Hh.
  assert (F : forall q : vec, 10 ^ 10 < norm q -> 1 < norm q) by (intros; lra).
  assert (N2 : norm [2; 0] = 2) by (apply norm_is2; lra). assert (N1 : norm [1; 0] = 1) by (apply norm_is2; lra).
  destruct (C68_weight turned huge (fun v => v) (fun v => v) norm unit_disc 2 ltac:(lia) turned_basis Hh same_pose disc_star
    [-6; 0] [2; 0] (1/2)) as (w & E & B & W); auto; try lra.
  destruct (C68_weight turned huge (fun v => v) (fun v => v) norm unit_disc 2 ltac:(lia) turned_basis Hh same_pose disc_star
    [-6; 0] [1; 0] (1/2)) as (w1 & E1 & _ & W1); auto; try lra.
  exists w. split; auto. split.
  - rewrite N2 in W. destruct (Req_EM_T w 1) as [Ew|]; [apply W in Ew; lra|lra].
  - rewrite E1. f_equal. apply W1. lra.
Qed.
Print Assumptions C67_folded_position.
Print Assumptions C67_unfold_fold.
Print Assumptions C67_fold_injective.
Print Assumptions C67_reference_kept.
Print Assumptions C67_argument_kept_refuted.
Print Assumptions C68_projected_position.
Print Assumptions C68_weight.
Print Assumptions C68_weight_attractor_inside.
Print Assumptions C68_injective.
Print Assumptions C68_orientation_refuted.
