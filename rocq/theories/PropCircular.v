(** Properties C44 and C54-C56: circular dynamics, fractional weights along a sequence, path
    segments. *)
Require Import Reals List Bool Lra Lia Psatz.
From Verif Require Import Base Vec Angle Pow RotModel Spec RotProofs SeqProofs DynModel PropDynamics.
Import ListNotations.
Open Scope R_scope.

Ltac mpos := repeat first [lra | apply Rmult_lt_0_compat | apply Rmult_le_pos].

(** * C44 *)
(** Radial component in the plane (times the radius) and sense of rotation. *)
Definition radial_rate (x y : R) (v : vec) : R := x * nth 0 v 0 + y * nth 1 v 0.
Definition turn_rate (x y : R) (v : vec) : R := x * nth 1 v 0 - y * nth 0 v 0.

Lemma grad_spec x y : norm [x; y] <> 0 ->
  get_grad x y = (x / norm [x; y], y / norm [x; y]).
Proof. intros. unfold get_grad. destruct (Req_EM_T _ 0); [contradiction|auto]. Qed.
Lemma norm2_sq x y : norm [x; y] * norm [x; y] = x * x + y * y.
Proof. rewrite norm_sq. simpl. ring. Qed.
Lemma dot_cons a b u v : dot (a :: u) (b :: v) = a * b + dot u v.
Proof. auto. Qed.
Lemma phi_sign r x y : 0 < r ->
  (norm [x; y] < r -> get_phi r x y < 0) /\ (r < norm [x; y] -> 0 < get_phi r x y) /\
  (norm [x; y] = r -> get_phi r x y = 0).
Proof.
  intros Hr. unfold get_phi. rewrite <- norm2_sq. pose proof (norm_nonneg [x; y]) as Hn.
  set (n := norm [x; y]) in *. split; [|split]; intros H.
  - assert (n * n - r * r < 0) by nra. assert (E : Rltb (n * n - r * r) 0 = true) by (apply Rltb_true; auto).
    rewrite E. assert (0 < sqrt (Rabs (n * n - r * r))); [|lra]. apply sqrt_lt_R0. apply Rabs_pos_lt. lra.
  - assert (0 < n * n - r * r) by nra. assert (E : Rltb (n * n - r * r) 0 = false) by (apply Rltb_false; lra).
    rewrite E. apply sqrt_lt_R0. apply Rabs_pos_lt. lra.
  - rewrite H. replace (r * r - r * r) with 0 by ring.
    assert (E : Rltb 0 0 = false) by (apply Rltb_false; lra). rewrite E, Rabs_R0. apply sqrt_0.
Qed.

(** The direction before normalisation. *)
Lemma simple_shape r mv x y rest : 0 < r -> norm (x :: y :: rest) <> 0 ->
  exists dn F d0 d1, 0 < dn /\ simple_circular r mv (x :: y :: rest) =
    Ok (vscale F (d0 :: d1 :: vscale (- (1 / r)) rest)) /\
  d0 = - snd (get_grad x y) - 1 / r * get_phi r x y * fst (get_grad x y) /\
  d1 = fst (get_grad x y) - 1 / r * get_phi r x y * snd (get_grad x y) /\
  dn = norm (d0 :: d1 :: vscale (- (1 / r)) rest) /\
  F = (if Rltb (norm (x :: y :: rest)) (1 / 3 * r)
       then mv * (norm (x :: y :: rest) / (1 / 3 * r)) * / dn else / dn).
Proof.
  intros Hr Hp. set (p := x :: y :: rest) in *.
  set (d0 := - snd (get_grad x y) - 1 / r * get_phi r x y * fst (get_grad x y)).
  set (d1 := fst (get_grad x y) - 1 / r * get_phi r x y * snd (get_grad x y)).
  assert (Em : map (fun z => -1 * z * (1 / r)) rest = vscale (- (1 / r)) rest).
  { apply map_ext. intros. ring. }
  set (d := d0 :: d1 :: vscale (- (1 / r)) rest).
  assert (Hk : 0 < 1 / r) by (apply Rdiv_lt_0_compat; lra).
  assert (Hd : norm d <> 0).
  { apply norm_neq_0_dot. unfold d. rewrite !dot_cons. rewrite dot_vscale_l, dot_vscale_r.
    destruct (Req_dec (norm [x; y]) 0) as [E|E].
    - assert (Hx : x = 0 /\ y = 0).
      { pose proof (norm2_sq x y) as H. rewrite E in H. split; nra. }
      destruct Hx as [-> ->].
      assert (Hrest : dot rest rest <> 0).
      { apply norm_neq_0_dot in Hp. unfold p in Hp. rewrite !dot_cons in Hp. lra. }
      pose proof (dot_self_nonneg rest).
      assert (0 < (1 / r) * ((1 / r) * dot rest rest)) by mpos.
      nra.
    - unfold d0, d1. rewrite grad_spec by auto. cbn [fst snd].
      set (n := norm [x; y]) in *. set (phi := get_phi r x y). set (k := 1 / r) in *.
      assert (En : (x / n) * (x / n) + (y / n) * (y / n) = 1).
      { replace ((x / n) * (x / n) + (y / n) * (y / n)) with ((x * x + y * y) / (n * n)) by (field; auto).
        rewrite <- norm2_sq. fold n. field. auto. }
      set (gx := x / n) in *. set (gy := y / n) in *.
      pose proof (dot_self_nonneg rest).
      assert (0 <= k * (k * dot rest rest)) by mpos.
      assert (E2 : (- gy - k * phi * gx) * (- gy - k * phi * gx) + (gx - k * phi * gy) * (gx - k * phi * gy)
                   = 1 + (k * phi) * (k * phi)).
      { transitivity ((gx * gx + gy * gy) * (1 + (k * phi) * (k * phi))); [ring|]. rewrite En. ring. }
      pose proof (Rle_0_sqr (k * phi)) as Q. unfold Rsqr in Q. lra. }
  exists (norm d), (if Rltb (norm p) (1 / 3 * r) then mv * (norm p / (1 / 3 * r)) * / norm d else / norm d), d0, d1.
  split; [apply norm_pos; auto|]. split; [|auto].
  unfold simple_circular. fold p. unfold p at 1. destruct (Req_EM_T (norm p) 0); [contradiction|].
  fold d0 d1. rewrite Em. fold d. destruct (Req_EM_T (norm d) 0); [contradiction|].
  f_equal. destruct (Rltb (norm p) (1 / 3 * r)); [|reflexivity].
  unfold vdiv. vext. ring.
Qed.

Theorem C44_simple_circular : forall r mv x y rest,
  0 < r -> 0 < mv ->
  let p := x :: y :: rest in
  exists v, simple_circular r mv p = Ok v /\ length v = length p /\
    (v = vzero (length p) <-> p = vzero (length p)) /\
    norm v = (if Rltb (norm p) (r / 3) then mv * (norm p / (r / 3)) else 1) /\
    (r < norm [x; y] -> radial_rate x y v < 0) /\
    (0 < norm [x; y] < r -> 0 < radial_rate x y v) /\
    (norm [x; y] = r -> radial_rate x y v = 0) /\
    (0 < norm [x; y] -> 0 < turn_rate x y v) /\
    (exists c, 0 <= c /\ (p <> vzero (length p) -> 0 < c) /\ skipn 2 v = vscale (- c) rest).
Proof.
  intros r mv x y rest Hr Hmv p.
  destruct (Req_dec (norm p) 0) as [Ep|Ep].
  - assert (Hp : p = vzero (length p)) by (apply norm_zero_iff; auto).
    assert (Hxy : x = 0 /\ y = 0 /\ rest = vzero (length rest)).
    { unfold p in Hp. simpl in Hp. injection Hp as -> -> H. auto. }
    destruct Hxy as (Hx & Hy & Hrest).
    exists (vzero (length p)). split.
    { unfold simple_circular. fold p. unfold p at 1. destruct (Req_EM_T (norm p) 0); [auto|contradiction]. }
    split; [apply length_vzero|]. split; [tauto|].
    assert (N0 : norm [x; y] = 0) by (subst x y; apply norm_axis; lra).
    rewrite Ep, norm_vzero. assert (E : Rltb 0 (r / 3) = true) by (apply Rltb_true; lra). rewrite E.
    split; [field; lra|]. rewrite N0. split; [lra|]. split; [lra|]. split; [lra|]. split; [lra|].
    exists 0. split; [lra|]. split; [contradiction|]. unfold p. simpl. rewrite Hrest at 2. vext. ring.
  - destruct (simple_shape r mv x y rest Hr Ep) as (dn & F & d0 & d1 & Hdn & Hv & E0 & E1 & Edn & EF).
    fold p in Hv, EF.
    assert (Hpp : 0 < norm p) by (apply norm_pos; auto).
    assert (HF : 0 < F).
    { rewrite EF. pose proof (Rinv_0_lt_compat dn Hdn).
      destruct (Rltb _ _); [|auto]. apply Rmult_lt_0_compat; [|auto].
      apply Rmult_lt_0_compat; [auto|]. apply Rdiv_lt_0_compat; lra. }
    set (d := d0 :: d1 :: vscale (- (1 / r)) rest) in *.
    exists (vscale F d). split; [auto|].
    split; [rewrite length_vscale; unfold d, p; simpl; rewrite length_vscale; auto|].
    assert (Nv : norm (vscale F d) = if Rltb (norm p) (r / 3) then mv * (norm p / (r / 3)) else 1).
    { rewrite norm_vscale, <- Edn, Rabs_pos_eq by lra. rewrite EF.
      replace (1 / 3 * r) with (r / 3) by field. destruct (Rltb (norm p) (r / 3)); field; lra. }
    split.
    { split; intros H.
      - exfalso. rewrite H, norm_vzero in Nv. destruct (Rltb (norm p) (r / 3)) in Nv; [|lra].
        assert (0 < mv * (norm p / (r / 3))); [|lra]. apply Rmult_lt_0_compat; [auto|].
        apply Rdiv_lt_0_compat; lra.
      - exfalso. apply Ep. rewrite H. apply norm_vzero. }
    split; [auto|].
    assert (Hk : 0 < 1 / r) by (apply Rdiv_lt_0_compat; lra).
    assert (Hrad : norm [x; y] <> 0 -> radial_rate x y (vscale F d) = - (F * (1 / r) * norm [x; y]) * get_phi r x y).
    { intros E. unfold radial_rate. unfold d. cbn [vscale map nth]. rewrite E0, E1, grad_spec by auto. cbn [fst snd].
      pose proof (norm2_sq x y) as H2. set (n := norm [x; y]) in *.
      transitivity (- (F * (1 / r)) * get_phi r x y * ((x * x + y * y) / n)); [field; lra|].
      rewrite <- H2. field. lra. }
    assert (Htn : norm [x; y] <> 0 -> turn_rate x y (vscale F d) = F * norm [x; y]).
    { intros E. unfold turn_rate. unfold d. cbn [vscale map nth]. rewrite E0, E1, grad_spec by auto. cbn [fst snd].
      pose proof (norm2_sq x y) as H2. set (n := norm [x; y]) in *.
      transitivity (F * ((x * x + y * y) / n)); [field; lra|].
      rewrite <- H2. field. lra. }
    destruct (phi_sign r x y Hr) as (P1 & P2 & P3).
    assert (Hc : forall n, 0 < n -> 0 < F * (1 / r) * n).
    { intros n Hn. mpos. }
    split. { intros H. rewrite Hrad by lra. specialize (P2 H). specialize (Hc (norm [x; y]) ltac:(lra)).
      set (u := F * (1 / r) * norm [x; y]) in *. nra. }
    split. { intros H. rewrite Hrad by lra. specialize (P1 (proj2 H)). specialize (Hc (norm [x; y]) ltac:(lra)).
      set (u := F * (1 / r) * norm [x; y]) in *. nra. }
    split. { intros H. rewrite Hrad by lra. rewrite (P3 H). ring. }
    split. { intros H. rewrite Htn by lra. apply Rmult_lt_0_compat; auto. }
    exists (F * (1 / r)). assert (0 < F * (1 / r)) by (apply Rmult_lt_0_compat; auto).
    split; [lra|]. split; [auto|]. 
    change (skipn 2 (vscale F d)) with (vscale F (vscale (- (1 / r)) rest)). vext. ring.
Qed.
(** The circle is a limit cycle: in the plane, on the circle, the velocity is the unit tangent. *)
Theorem C44_on_circle : forall r mv x y, 0 < r -> norm [x; y] = r ->
  simple_circular r mv [x; y] = Ok [- y / r; x / r].
Proof.
  intros r mv x y Hr Hn.
  destruct (simple_shape r mv x y [] Hr) as (dn & F & d0 & d1 & Hdn & Hv & E0 & E1 & Edn & EF); [lra|].
  rewrite Hv. f_equal. rewrite grad_spec in E0, E1 by lra. cbn [fst snd] in E0, E1.
  destruct (phi_sign r x y Hr) as (_ & _ & P3). rewrite (P3 Hn), Hn in E0, E1.
  assert (D1 : dn = 1).
  { rewrite Edn. apply unit_norm. unfold unitv. simpl. rewrite E0, E1.
    pose proof (norm2_sq x y) as H2. rewrite Hn in H2.
    transitivity ((x * x + y * y) / (r * r)); [field; lra|]. rewrite <- H2. field. lra. }
  rewrite Hn in EF. assert (E : Rltb r (1 / 3 * r) = false) by (apply Rltb_false; lra).
  rewrite E, D1 in EF. rewrite EF, E0, E1. simpl. apply f_equal2; [field; lra|]. apply f_equal2; [field; lra|auto].
Qed.
(** The maximum velocity only scales the slow down zone: elsewhere the speed is one. *)
Theorem C44_maximum_velocity_refuted : exists r mv p v,
  0 < r /\ 0 < mv /\ simple_circular r mv p = Ok v /\ mv < norm v.
Proof.
  exists 1, (1/2), [1; 0], [- 0 / 1; 1 / 1]. split; [lra|]. split; [lra|].
  split; [apply C44_on_circle; [lra|apply norm_axis; lra]|].
  assert (N : norm [- 0 / 1; 1 / 1] = 1) by (apply norm_is_axis2; [vnum|lra]). rewrite N. lra.
Qed.
Example C44_case : exists v, simple_circular 1 1 [2; 0; 1] = Ok v /\ norm v = 1 /\
  radial_rate 2 0 v < 0 /\ 0 < turn_rate 2 0 v.
Proof.
  destruct (C44_simple_circular 1 1 2 0 [1]) as (v & H & _ & _ & N & A & _ & _ & B & _); [lra|lra|].
  assert (E : norm [2; 0] = 2) by (apply norm_axis; lra). rewrite E in *.
  exists v. split; [auto|]. split; [|split; [apply A; lra|apply B; lra]].
  rewrite N. replace (Rltb _ _) with false; auto. symmetry. apply Rltb_false.
  assert (2 <= norm [2; 0; 1]); [|lra]. rewrite <- E at 1. apply norm_le_sq. simpl. lra.
Qed.

(** * C55 *)
Lemma sigmoid_bounds x : / 1000000000 <= sigmoid x 1 50 (/ 1000000000) <= 1 - / 1000000000.
Proof.
  unfold sigmoid. set (m := / 1000000000). assert (0 < m < 1/2) by (unfold m; lra).
  destruct (Rltb 50 _); [lra|]. destruct (Rltb _ _); [lra|].
  unfold Rmax, Rmin. repeat destruct (Rle_dec _ _); lra.
Qed.
Lemma sigmoid_sign x :
  (0 < x -> 1/2 < sigmoid x 1 50 (/ 1000000000)) /\ (x < 0 -> sigmoid x 1 50 (/ 1000000000) < 1/2) /\
  (x = 0 -> sigmoid x 1 50 (/ 1000000000) = 1/2).
Proof.
  unfold sigmoid. set (m := / 1000000000). assert (0 < m < 1/2) by (unfold m; lra).
  rewrite !Rmult_1_l.
  pose proof (exp_pos (-1 * x)) as He. pose proof exp_0 as E0.
  assert (Hlt : 0 < x -> 1/2 < 1 / (1 + exp (-1 * x))).
  { intros Hx. assert (exp (-1 * x) < 1) by (rewrite <- E0; apply exp_increasing; lra).
    apply (Rmult_lt_reg_r (1 + exp (-1 * x))); [lra|]. field_simplify; lra. }
  assert (Hgt : x < 0 -> 1 / (1 + exp (-1 * x)) < 1/2).
  { intros Hx. assert (1 < exp (-1 * x)) by (rewrite <- E0; apply exp_increasing; lra).
    apply (Rmult_lt_reg_r (1 + exp (-1 * x))); [lra|]. field_simplify; lra. }
  set (q := 1 / (1 + exp (-1 * x))) in *.
  split; [|split]; intros Hx.
  - specialize (Hlt Hx). destruct (Rltb 50 x) eqn:E1; [lra|]. destruct (Rltb x _) eqn:E2; [apply Rltb_true in E2; lra|].
    unfold Rmax, Rmin. repeat destruct (Rle_dec _ _); lra.
  - specialize (Hgt Hx). destruct (Rltb 50 x) eqn:E1; [apply Rltb_true in E1; lra|]. destruct (Rltb x _) eqn:E2; [lra|].
    unfold Rmax, Rmin. repeat destruct (Rle_dec _ _); lra.
  - assert (Eq : q = 1/2) by (unfold q; rewrite Hx, Rmult_0_r, E0; field). rewrite Eq.
    destruct (Rltb 50 x) eqn:E1; [apply Rltb_true in E1; lra|].
    destruct (Rltb x _) eqn:E2; [apply Rltb_true in E2; lra|].
    unfold Rmax, Rmin. repeat destruct (Rle_dec _ _); lra.
Qed.

Theorem C55_rotation_weight : forall radius inside outside p,
  0 < radius -> 0 < inside -> 0 < outside -> norm p <> 0 ->
  exists w, circular_weight radius inside outside p = Ok w /\ 0 < w < 2 /\
    (norm p < radius -> w < 1) /\ (norm p = radius -> w = 1) /\ (radius < norm p -> 1 < w).
Proof.
  intros radius ins out p Hr Hi Ho Hp. unfold circular_weight.
  pose proof (norm_pos p Hp) as Hn. set (n := norm p) in *.
  destruct (Rltb n radius) eqn:E; [apply Rltb_true in E|apply Rltb_false in E];
    rewrite fdiv_ok by lra; cbn [bind]; eexists; (split; [reflexivity|]).
  - set (d := (1 - radius / n) * ins). pose proof (sigmoid_bounds d). pose proof (sigmoid_sign d) as (_ & S2 & _).
    assert (d < 0).
    { unfold d. assert (1 < radius / n); [|nra]. apply (Rmult_lt_reg_r n); [lra|]. field_simplify; lra. }
    specialize (S2 H0). split; [lra|]. split; [lra|]. split; lra.
  - set (d := (n - radius) * (1 / radius) * out). pose proof (sigmoid_bounds d). pose proof (sigmoid_sign d) as (S1 & _ & S3).
    assert (Hk : 0 < 1 / radius) by (apply Rdiv_lt_0_compat; lra).
    split; [lra|]. split; [lra|]. split.
    + intros Hq. rewrite S3; [lra|]. unfold d. rewrite Hq. ring.
    + intros Hq. assert (0 < d) by (unfold d; mpos). specialize (S1 H0). lra.
Qed.

(** An orthogonal base matrix of the plane and its transpose. *)
Definition orthogonal2 (B Bt : vec -> vec) : Prop :=
  (forall u, length u = 2%nat -> length (B u) = 2%nat /\ length (Bt u) = 2%nat) /\
  (forall u v, length u = 2%nat -> length v = 2%nat -> dot (B u) v = dot u (Bt v)) /\
  (forall u, length u = 2%nat -> dot (B u) (B u) = dot u u /\ dot (Bt u) (Bt u) = dot u u).

Lemma quarter_rotation s : s = 1 \/ s = -1 ->
  exists r, from_directions [1; 0] [0; s] = Ok r /\ rb0 r = [1; 0] /\ rb1 r = [0; s] /\ rangle r = PI / 2.
Proof.
  intros Hs.
  assert (N1 : norm [1; 0] = 1) by (apply norm_axis; lra).
  assert (N2 : norm [0; s] = 1) by (apply unit_norm; unfold unitv; simpl; destruct Hs; subst; lra).
  unfold from_directions. rewrite N1, N2. destruct (Req_EM_T 1 0); [lra|].
  rewrite !vdiv_1.
  assert (Ha : allclose [1; 0] [0; s] = false).
  { unfold allclose. apply andb_false_iff. left. unfold isclose. apply Rleb_false.
    rewrite Rabs_R0. replace (1 - 0) with 1 by ring. rewrite Rabs_R1. simpl. lra. }
  rewrite Ha. assert (D : dot [1; 0] [0; s] = 0) by (simpl; ring). rewrite D.
  assert (P : vsub [0; s] (vscale 0 [1; 0]) = [0; s]) by (unfold vsub; simpl; vnum).
  rewrite P, N2. destruct (Req_EM_T 1 0); [lra|]. cbn [bind]. rewrite vdiv_1, clamp1_id by lra.
  eexists; split; [reflexivity|]. cbn [rb0 rb1 rangle]. split; [auto|]. split; [auto|].
  apply acos_0.
Qed.

Lemma plane_rot2 s x y a : s * s = 1 ->
  plane_rot [x; y] [1; 0] [0; s] a = [cos a * x - s * sin a * y; s * sin a * x + cos a * y].
Proof.
  intros Hs. unfold plane_rot. simpl.
  apply f_equal2; [ring|]. apply f_equal2; [|auto].
  ring [Hs].
Qed.

Theorem C55_circular_rotation : forall B Bt radius velocity inside outside direction p,
  orthogonal2 B Bt -> 0 < radius -> 0 <= velocity -> 0 < inside -> 0 < outside -> length p = 2%nat ->
  exists v, circular_rotation B Bt radius velocity inside outside direction p = Ok v /\
    (norm p = 0 -> v = p) /\
    (norm p <> 0 -> norm v = velocity) /\
    (0 < velocity -> norm p <> 0 ->
      (norm p < radius -> 0 < dot v p) /\ (norm p = radius -> dot v p = 0) /\ (radius < norm p -> dot v p < 0)).
Proof.
  intros B Bt radius vel ins out dir p (HL & Hadj & Hiso) Hr Hv Hi Ho Lp.
  unfold circular_rotation.
  set (s := if Rltb dir 0 then -1 else 1).
  assert (Hs : s = 1 \/ s = -1) by (unfold s; destruct (Rltb dir 0); auto).
  destruct (quarter_rotation s Hs) as (r & Er & R0 & R1 & Ra). rewrite Er. cbn [bind].
  destruct (Req_EM_T (norm p) 0) as [E|E].
  { exists p. split; [auto|]. split; [auto|]. split; [contradiction|]. intros; contradiction. }
  destruct (HL p Lp) as [_ Lq]. destruct (Hiso p Lp) as [_ Iq].
  set (q := Bt p) in *.
  assert (Nq : norm q = norm p) by (unfold norm; rewrite Iq; auto).
  destruct (C55_rotation_weight radius ins out q Hr Hi Ho) as (w & Ew & Hw & W1 & W2 & W3); [rewrite Nq; auto|].
  rewrite Ew. cbn [bind]. rewrite Nq in W1, W2, W3. rewrite Nq.
  destruct (Req_EM_T (norm p) 0); [contradiction|].
  pose proof (norm_pos p E) as Hn.
  unfold rotate. rewrite R0, R1, Ra.
  set (u := vdiv q (norm p)).
  assert (Lu : length u = 2%nat) by (unfold u; rewrite length_vdiv; auto).
  rewrite (rotate_direction_eq 2) by auto.
  set (a := w * (PI / 2)). set (z := plane_rot u [1; 0] [0; s] a).
  assert (Ho2 : orthonormal 2 [1; 0] [0; s]).
  { repeat split; unfold unitv; simpl; destruct Hs as [-> | ->]; lra. }
  assert (Lz : length z = 2%nat) by (apply (plane_rot_length 2); auto).
  assert (Uu : dot u u = 1).
  { unfold u. rewrite dot_vdiv_l, dot_vdiv_r, Iq, <- norm_sq. field. auto. }
  assert (Uz : norm z = 1) by (unfold z; rewrite (plane_rot_norm 2) by auto; apply unit_norm; auto).
  assert (Dz : dot z u = cos a).
  { unfold z. destruct u as [|u0 [|u1 [|]]]; try discriminate. rewrite plane_rot2 by (destruct Hs as [-> | ->]; ring).
    simpl in Uu |- *. transitivity (cos a * (u0 * u0 + (u1 * u1 + 0))); [ring|]. rewrite Uu. ring. }
  exists (B (vscale vel z)). split; [auto|]. split; [contradiction|].
  split.
  { intros _. unfold norm. destruct (Hiso (vscale vel z)) as [-> _]; [rewrite length_vscale; auto|].
    fold (norm (vscale vel z)). rewrite norm_vscale, Uz, Rabs_pos_eq by auto. ring. }
  intros Hv0 _.
  assert (D : dot (B (vscale vel z)) p = vel * norm p * cos a).
  { rewrite Hadj by (rewrite ?length_vscale; auto). fold q. rewrite dot_vscale_l, <- Dz. unfold u. rewrite dot_vdiv_r. field. auto. }
  assert (Hc : 0 < vel * norm p) by (apply Rmult_lt_0_compat; auto). rewrite D.
  set (c := vel * norm p) in *. pose proof PI_RGT_0.
  split; [|split]; intros Hq.
  - specialize (W1 Hq). assert (0 < cos a) by (apply cos_gt_0; unfold a; nra). nra.
  - assert (Ea : a = PI / 2) by (unfold a; rewrite (W2 Hq); ring). rewrite Ea, cos_PI2. ring.
  - specialize (W3 Hq). assert (cos a < 0) by (apply cos_lt_0; unfold a; nra). nra.
Qed.
(** The default base turns counterclockwise for a positive direction. *)
Theorem C55_sense : forall radius velocity inside outside direction x y,
  0 < radius -> 0 < velocity -> 0 < inside -> 0 < outside -> norm [x; y] <> 0 ->
  exists v, circular_rotation (fun u => u) (fun u => u) radius velocity inside outside direction [x; y] = Ok v /\
    (0 <= direction -> 0 < turn_rate x y v) /\ (direction < 0 -> turn_rate x y v < 0).
Proof.
  intros radius vel ins out dir x y Hr Hv Hi Ho Hn. unfold circular_rotation.
  set (s := if Rltb dir 0 then -1 else 1).
  assert (Hs : s = 1 \/ s = -1) by (unfold s; destruct (Rltb dir 0); auto).
  destruct (quarter_rotation s Hs) as (r & Er & R0 & R1 & Ra). rewrite Er. cbn [bind].
  destruct (Req_EM_T (norm [x; y]) 0); [contradiction|].
  destruct (C55_rotation_weight radius ins out [x; y] Hr Hi Ho Hn) as (w & Ew & Hw & _).
  rewrite Ew. cbn [bind]. unfold rotate. rewrite R0, R1, Ra.
  rewrite (rotate_direction_eq 2) by auto. pose proof (norm_pos _ Hn) as Hp.
  pose proof (norm2_sq x y) as H2. set (m := norm [x; y]) in *. unfold vdiv. cbn [vscale map].
  rewrite plane_rot2 by (destruct Hs as [-> | ->]; ring).
  set (a := w * (PI / 2)). eexists; split; [reflexivity|].
  pose proof PI_RGT_0.
  assert (Ha : 0 < sin a) by (apply sin_gt_0; unfold a; nra).
  unfold turn_rate. cbn [vscale map nth].
  match goal with |- (_ -> 0 < ?t) /\ _ => replace t with (s * (vel * sin a * m)) end.
  2:{ transitivity (s * (vel * sin a * ((x * x + y * y) / m))); [|field; auto].
      rewrite <- H2. field. auto. }
  assert (0 < vel * sin a * m) by (mpos).
  unfold s. destruct (Rltb dir 0) eqn:E; [apply Rltb_true in E|apply Rltb_false in E]; split; intros; lra.
Qed.
Example C55_case : exists v,
  circular_rotation (fun u => u) (fun u => u) 1 1 6 12 1 [-1; 0] = Ok v /\ norm v = 1 /\ dot v [-1; 0] = 0.
Proof.
  assert (O : orthogonal2 (fun u => u) (fun u => u)).
  { split; [auto|]. split; [auto|]. auto. }
  destruct (C55_circular_rotation (fun u => u) (fun u => u) 1 1 6 12 1 [-1; 0]) as (v & E & _ & N & R); auto; try lra.
  assert (H : norm [-1; 0] = 1) by (apply unit_norm; unfold unitv; simpl; lra).
  exists v. split; [auto|]. split; [apply N; lra|]. apply R; lra.
Qed.

(** * C54 *)
Definition two_hot (k m : nat) (f : R) : list R := repeat 0 k ++ (1 - f) :: f :: repeat 0 m.

Lemma rsum_cons x l : rsum (x :: l) = x + rsum l.
Proof. auto. Qed.
Lemma suffix_sums_two_hot k m f :
  suffix_sums (two_hot k m f) = repeat 1 (S k) ++ f :: repeat 0 m.
Proof.
  unfold two_hot. induction k as [|k IH].
  - change (rsum (1 - f :: f :: repeat 0 m) :: rsum (f :: repeat 0 m) :: suffix_sums (repeat 0 m)
            = 1 :: f :: repeat 0 m).
    rewrite suffix_sums_zero, !rsum_cons, rsum_repeat0. f_equal; [ring|]. f_equal. ring.
  - change (rsum (0 :: repeat 0 k ++ 1 - f :: f :: repeat 0 m) :: suffix_sums (repeat 0 k ++ 1 - f :: f :: repeat 0 m)
            = 1 :: repeat 1 (S k) ++ f :: repeat 0 m).
    rewrite IH, rsum_cons, rsum_app, !rsum_cons, !rsum_repeat0. f_equal. ring.
Qed.
Lemma back_ones n s k cum : Forall (rot_ok n) s ->
  exists s', back_rotate s (repeat 1 k ++ cum) = Ok s' /\ Forall (rot_ok n) s' /\
    length s' = length s /\ firstn (S k) s' = firstn (S k) s.
Proof.
  revert s. induction k as [|k IH]; intros s Hs.
  - destruct (back_rotate_ok n s cum Hs) as (s' & E & Hs' & Ls). exists s'. split; [auto|].
    split; [auto|]. split; [auto|]. cbn [repeat app] in E. destruct s as [|r s], cum as [|c cum]; cbn [back_rotate] in E.
    + injection E as <-. auto.
    + injection E as <-. auto.
    + injection E as <-. auto.
    + destruct (back_rotate s cum); cbn [bind] in E; [|discriminate].
      destruct (mapM _ _) in E; cbn [bind] in E; [|discriminate]. injection E as <-. auto.
  - destruct s as [|r s]; [exists []; auto|]. apply Forall_cons_iff in Hs as [H1 Hs].
    destruct (IH s Hs) as (s' & E & Hs' & Ls & F).
    cbn [repeat app back_rotate]. rewrite E. cbn [bind].
    replace (rangle r * (1 - 1)) with 0 by ring.
    pose proof H1 as (K0 & K1 & _).
    rewrite mapM_ok with (g := fun x => x).
    2:{ intros x Hx. rewrite Forall_forall in Hs'. rewrite (rotate_base_ok n) by auto.
        rewrite (rrot_zero n) by auto. auto. }
    rewrite map_id. cbn [bind]. eexists; split; [reflexivity|].
    split; [constructor; auto|]. split; [simpl; lia|].
    change (r :: firstn (S k) s' = r :: firstn (S k) s). f_equal. exact F.
Qed.
Lemma forward_ones n s1 s2 cum v w :
  Forall (rot_ok n) s1 -> length v = n -> chain v s1 w ->
  forward_rotate (s1 ++ s2) (repeat 1 (length s1) ++ cum) v = forward_rotate s2 cum w /\ length w = n.
Proof.
  intros H. revert v. induction H as [|r s Hr Hs IH]; intros v Lv Hc.
  - simpl in Hc. subst w. split; auto.
  - destruct Hc as [<- Hc]. cbn [length repeat app forward_rotate]. rewrite Rmult_1_r.
    pose proof Hr as (K0 & K1 & _).
    rewrite (rotate_direction_eq n) by auto. rewrite <- (end_of_eq n) by auto.
    apply IH; auto. apply (end_of_length n); auto.
Qed.
Lemma chain_split v s1 s2 w : chain v (s1 ++ s2) w -> exists u, chain v s1 u /\ chain u s2 w.
Proof.
  revert v. induction s1 as [|r s IH]; intros v H; [exists v; split; auto; reflexivity|].
  destruct H as [E H]. destruct (IH _ H) as (u & A & B). exists u. split; [split; auto|auto].
Qed.

(** Weights on two neighbouring rotations interpolate along the chain. *)
Theorem C54_neighbours_partial : forall n s k m f v w,
  Forall (proper n) s -> length s = (k + 2 + m)%nat -> length v = n -> chain v s w ->
  let r := nth (S k) s (mkRot [] [] 0) in
  rotate_weighted s v (two_hot k m f) =
  Ok (vadd (vscale (cos (f * rangle r)) (rb0 r)) (vscale (sin (f * rangle r)) (rb1 r))).
Proof.
  intros n s k m f v w Hs L Lv Hc r. unfold rotate_weighted.
  destruct (two_hot k m f) as [|w0 w'] eqn:E; [destruct k; discriminate|]. rewrite <- E. clear E w0 w'.
  replace (Nat.eqb _ _) with true.
  2:{ symmetry. apply Nat.eqb_eq. unfold two_hot. rewrite app_length. simpl. rewrite !repeat_length. lia. }
  rewrite suffix_sums_two_hot.
  destruct (back_ones n s (S k) (f :: repeat 0 m) Hs) as (s' & E & Hs' & Ls & F). rewrite E. cbn [bind]. f_equal.
  assert (Hlt : (S k < length s)%nat) by lia.
  destruct (nth_split s (mkRot [] [] 0) Hlt) as (s1 & s2 & Es & L1). fold r in Es.
  assert (Es' : exists s2', s' = s1 ++ r :: s2').
  { rewrite <- (firstn_skipn (S (S k)) s'). rewrite F, Es.
    rewrite firstn_app, L1. replace (S (S k) - S k)%nat with 1%nat by lia.
    rewrite firstn_all2 by lia. cbn [firstn]. exists (skipn (S (S k)) s'). rewrite <- app_assoc. auto. }
  destruct Es' as (s2' & Es'). rewrite Es' in *. rewrite Es in Hc, Hs.
  destruct (chain_split _ _ _ _ Hc) as (u & C1 & C2). destruct C2 as [Eu C2].
  apply Forall_app in Hs as [H1 H2]. apply Forall_cons_iff in H2 as [Hr _].
  apply Forall_app in Hs' as [_ H2']. apply Forall_cons_iff in H2' as [_ H2'].
  destruct (forward_ones n s1 (r :: s2') (f :: repeat 0 m) v u H1 Lv C1) as [Fw Lu].
  rewrite <- L1. rewrite Fw. cbn [forward_rotate]. rewrite <- Eu.
  pose proof Hr as (K0 & K1 & _).
  rewrite (rotate_direction_eq n) by auto. rewrite (plane_rot_first n) by auto.
  rewrite (Rmult_comm f).
  apply (forward_zero n); auto. autorewrite with vlen. lia.
Qed.

(** Half of the way along a chain of two quarter turns: the second rotation has no effect. *)
Definition turn1 : rotation := mkRot [1; 0; 0] [0; 1; 0] (PI / 2).
Definition turn2 : rotation := mkRot [0; 1; 0] [0; 0; 1] (PI / 2).
Lemma turn1_ok : rot_ok 3 turn1.
Proof. repeat split; unfold unitv; simpl; lra. Qed.
Lemma turn2_ok : rot_ok 3 turn2.
Proof. repeat split; unfold unitv; simpl; lra. Qed.
Lemma turns_chain : chain [1; 0; 0] [turn1; turn2] [0; 0; 1].
Proof.
  split; [reflexivity|]. split.
  - unfold end_of. simpl. rewrite cos_PI2, sin_PI2. apply f_equal2; [ring|]. apply f_equal2; [ring|]. apply f_equal2; [ring|auto].
  - unfold end_of. simpl. rewrite cos_PI2, sin_PI2. apply f_equal2; [ring|]. apply f_equal2; [ring|]. apply f_equal2; [ring|auto].
Qed.
Theorem C54_fraction_refuted : exists n s v w d,
  Forall (proper n) s /\ chain v s w /\ rotate_weighted s v [0; 1/2] = Ok d /\
  (** both rotations are applied by a half, yet the result stays in the plane of the first *)
  dot d (rb1 (nth 1 s (mkRot [] [] 0))) = 0 /\ 0 < rangle (nth 1 s (mkRot [] [] 0)) < PI /\
  dot v (rb1 (nth 1 s (mkRot [] [] 0))) = 0 /\ dot w (rb1 (nth 1 s (mkRot [] [] 0))) = 1.
Proof.
  exists 3%nat, [turn1; turn2], [1; 0; 0], [0; 0; 1].
  assert (Hs : Forall (rot_ok 3) [turn1; turn2]) by (repeat constructor; auto using turn1_ok, turn2_ok; apply turn1_ok || apply turn2_ok).
  set (c := cos (PI / 4)). set (d := [c; c; 0]).
  assert (Hsc : sin (PI / 4) = c) by (unfold c; rewrite sin_PI4, cos_PI4; auto).
  assert (Hcc : c * c + c * c = 1) by (rewrite <- Hsc at 3 4; apply cos_sin_sq).
  exists d. split; [exact Hs|]. split; [apply turns_chain|]. split.
  - unfold rotate_weighted. cbn [length Nat.eqb].
    assert (Ec : suffix_sums [0; 1/2] = [1/2; 1/2]).
    { unfold suffix_sums, rsum. cbn [fold_right]. vnum. }
    rewrite Ec. cbn [back_rotate mapM bind].
    assert (Ea : rangle turn1 * (1 - 1/2) = PI / 4) by (simpl; field).
    rewrite Ea. rewrite (rotate_base_ok 3) by (auto using turn2_ok; reflexivity). cbn [bind mapM]. f_equal.
    cbn [forward_rotate].
    replace (rangle turn1 * (1 / 2)) with (PI / 4) by (simpl; field).
    rewrite (rotate_direction_eq 3 [1; 0; 0]) by reflexivity.
    assert (E1 : plane_rot [1; 0; 0] (rb0 turn1) (rb1 turn1) (PI / 4) = [c; c; 0]).
    { unfold plane_rot, turn1. cbn. rewrite Hsc. fold c. vnum. }
    rewrite E1.
    set (r2 := rrot (rb0 turn1) (rb1 turn1) (PI / 4) turn2).
    assert (B0 : rb0 r2 = [- c; c; 0]).
    { unfold r2, rrot, plane_rot, turn1, turn2. cbn. rewrite Hsc. fold c. vnum. }
    assert (B1 : rb1 r2 = [0; 0; 1]).
    { unfold r2, rrot, plane_rot, turn1, turn2. cbn. rewrite Hsc. fold c. vnum. }
    rewrite (rotate_direction_eq 3) by (rewrite ?B0, ?B1; reflexivity).
    apply (plane_rot_complement 3); rewrite ?B0, ?B1; try reflexivity; simpl; ring.
  - simpl. pose proof PI_RGT_0. repeat split; lra.
Qed.
Example C54_case : rotate_weighted [turn1; turn2] [1; 0; 0] (two_hot 0 0 (1/2)) =
  Ok [0; cos (PI / 4); sin (PI / 4)].
Proof.
  rewrite (C54_neighbours_partial 3 _ _ _ _ _ [0; 0; 1]); auto using turns_chain.
  - cbn [nth rangle turn2 rb0 rb1]. replace (1 / 2 * (PI / 2)) with (PI / 4) by field. simpl. f_equal. vnum.
  - constructor; [apply turn1_ok|]. constructor; [apply turn2_ok|constructor].
Qed.

(** * C56 *)
(** Every leg is shortened by [margin] at both ends. *)
Lemma vsub_leg n p q : length p = n -> length q = n -> length (vsub q p) = n.
Proof. intros. autorewrite with vlen. lia. Qed.

Theorem C56_path_partial : forall n points margin,
  (2 <= n)%nat -> Forall (fun p => length p = n) points ->
  (forall i, (S i < length points)%nat -> 2 * margin < dist (nth (S i) points []) (nth i points [])) ->
  0 <= margin ->
  exists segs, segments_from_points points margin = Ok segs /\ length segs = (length points - 1)%nat /\
    forall i, (S i < length points)%nat ->
      let p := nth i points [] in let q := nth (S i) points [] in
      let s := nth i segs (mkSeg [] [] [] 0) in
      seg_ok n s /\ s_dir s = vdiv (vsub q p) (dist q p) /\ s_len s = dist q p - 2 * margin /\
      s_start s = vadd p (vscale margin (s_dir s)) /\ s_end s = vsub q (vscale margin (s_dir s)).
Proof.
  intros n points margin Hn. induction points as [|p points IH]; intros Hl Hd Hm;
    [|destruct points as [|q rest]].
  - exists []. split; [auto|]. split; [auto|]. intros i Hi. simpl in Hi. lia.
  - exists []. split; [auto|]. split; [auto|]. intros i Hi. simpl in Hi. lia.
  - apply Forall_cons_iff in Hl as [Lp Hl].
    pose proof (Forall_inv Hl) as Lq. cbv beta in Lq.
    pose proof (Hd 0%nat ltac:(simpl; lia)) as H0. cbn [nth] in H0.
    assert (Hd' : forall i, (S i < length (q :: rest))%nat ->
       2 * margin < dist (nth (S i) (q :: rest) []) (nth i (q :: rest) [])).
    { intros i Hi. apply (Hd (S i)). simpl in *. lia. }
    destruct (IH Hl Hd' Hm) as (segs & Es & Ls & Hs). clear IH.
    cbn [segments_from_points]. unfold dist in H0.
    set (D := vsub q p) in *. set (l := norm D) in *.
    assert (LD : length D = n) by (apply vsub_leg; auto).
    assert (Hl0 : 0 < l) by lra.
    destruct (Req_EM_T l 0); [lra|].
    set (u := vdiv D l).
    assert (Lu : length u = n) by (unfold u; rewrite length_vdiv; auto).
    assert (Uu : unitv u) by (apply unit_vdiv; unfold l in *; lra).
    set (a := vadd p (vscale margin u)). set (b := vsub q (vscale margin u)).
    assert (Ed : vsub b a = vscale (l - 2 * margin) u).
    { assert (Hq : q = vadd p (vscale l u)).
      { unfold u. unfold l. rewrite vscale_norm_vdiv by (unfold l in *; lra). unfold D. vext. ring. }
      unfold b, a. rewrite Hq. vext. ring. }
    assert (Nd : norm (vsub b a) = l - 2 * margin).
    { rewrite Ed, norm_vscale, Rabs_pos_eq by lra. apply unit_norm in Uu. rewrite Uu. ring. }
    assert (Ec : create_segment a b = Ok (mkSeg a b u (l - 2 * margin))).
    { unfold create_segment. rewrite Nd. destruct (Req_EM_T _ 0); [lra|].
      assert (Lab : length (vsub b a) = n) by (rewrite Ed, length_vscale; auto).
      assert (Ev : vdiv (vsub b a) (l - 2 * margin) = u).
      { rewrite Ed. unfold vdiv. vext. field. lra. }
      rewrite Ev. destruct (vsub b a) as [|? [|? ?]]; simpl in Lab; try lia. auto. }
    rewrite Ec. cbn [bind]. cbn [segments_from_points] in Es. rewrite Es. cbn [bind].
    eexists; split; [reflexivity|]. split; [simpl in *; lia|].
    intros i Hi. destruct i as [|i].
    + cbn [nth]. cbv zeta. unfold dist. fold D l.
      split; [apply (create_segment_ok n a b); auto; unfold a, b; autorewrite with vlen; lia|].
      split; [auto|]. split; [auto|]. split; auto.
    + cbn [nth]. apply (Hs i). simpl in *. lia.
Qed.
(** A margin of more than half of a leg reverses its segment. *)
Theorem C56_margin_refuted : exists points margin segs,
  0 < margin /\ segments_from_points points margin = Ok segs /\
  dot (s_dir (nth 0 segs (mkSeg [] [] [] 0))) (vsub (nth 1 points []) (nth 0 points [])) < 0.
Proof.
  exists [[0; 0]; [1; 0]], (3/4), [mkSeg [3/4; 0] [1/4; 0] [-1; 0] (1/2)]. split; [lra|]. split.
  - cbn [segments_from_points].
    assert (N : norm (vsub [1; 0] [0; 0]) = 1) by (apply norm_is_axis; [unfold vsub; simpl; vnum|lra]).
    rewrite N. destruct (Req_EM_T 1 0); [lra|].
    assert (A : vadd [0; 0] (vscale (3/4) (vdiv (vsub [1; 0] [0; 0]) 1)) = [3/4; 0]) by (unfold vsub, vdiv; simpl; vnum).
    assert (B : vsub [1; 0] (vscale (3/4) (vdiv (vsub [1; 0] [0; 0]) 1)) = [1/4; 0]) by (unfold vsub, vdiv; simpl; vnum).
    rewrite A, B. unfold create_segment.
    assert (N2 : norm (vsub [1/4; 0] [3/4; 0]) = 1/2).
    { unfold norm. replace (dot _ _) with ((1/2) * (1/2)) by (simpl; field). apply sqrt_square. lra. }
    rewrite N2. destruct (Req_EM_T (1/2) 0); [lra|]. cbn. f_equal. apply f_equal2; [|auto].
    f_equal. unfold vdiv. simpl. vnum.
  - simpl. lra.
Qed.
Theorem C56_half_margin_raises : forall p q margin,
  length p = length q -> 2 * margin = dist q p -> segments_from_points [p; q] margin = Err EValue.
Proof.
  intros p q margin L H. cbn [segments_from_points]. unfold dist in H.
  destruct (Req_EM_T (norm (vsub q p)) 0) as [E|E]; [auto|].
  unfold create_segment. destruct (Req_EM_T _ 0) as [E'|E']; [auto|]. exfalso. apply E'.
  set (l := norm (vsub q p)) in *. set (u := vdiv (vsub q p) l).
  apply norm_eq_0_dot.
  assert (Lu : length u = length q) by (unfold u; autorewrite with vlen; lia).
  assert (Hq : q = vadd p (vscale l u)).
  { unfold u, l. rewrite vscale_norm_vdiv by (fold l; auto). vext. ring. }
  assert (Ez : vsub (vsub q (vscale margin u)) (vadd p (vscale margin u)) = vzero (length q)).
  { rewrite Hq at 1. rewrite <- H. vext. ring. }
  rewrite Ez. apply dot_vzero_l.
Qed.
(** The speed along a path: at most the maximum, which is reached outside the slow down zone, and
    zero only at the end of the path. *)
Theorem C56_magnitude : forall n segs position mv slow, 0 < slow -> 0 < mv ->
  length position = n -> length (path_attractor segs) = n ->
  0 <= path_magnitude segs position mv slow <= mv /\
  (path_magnitude segs position mv slow = 0 <-> position = path_attractor segs) /\
  (slow <= dist position (path_attractor segs) -> path_magnitude segs position mv slow = mv).
Proof.
  intros n segs P mv slow Hs Hm LP LA. unfold path_magnitude. fold (dist P (path_attractor segs)).
  assert (Hd : 0 <= dist P (path_attractor segs)) by apply norm_nonneg.
  set (d := dist P (path_attractor segs)) in *.
  assert (Hz : P = path_attractor segs <-> d = 0).
  { split; [intros E; unfold d; rewrite E; apply dist_refl|]. intros. apply dist_zero; auto. congruence. }
  destruct (Rltb slow d) eqn:E; [apply Rltb_true in E|apply Rltb_false in E].
  - split; [lra|]. split; [rewrite Hz; lra|auto].
  - assert (Hq : 0 <= d / slow <= 1).
    { split; [apply Rmult_le_pos; [auto|left; apply Rinv_0_lt_compat; auto]|].
      apply (Rmult_le_reg_r slow); [auto|]. field_simplify; lra. }
    assert (Hi : d / slow = 0 <-> d = 0).
    { split; [|intros ->; unfold Rdiv; ring]. intros H.
      apply (Rmult_eq_reg_r (/ slow)); [|apply Rinv_neq_0_compat; lra]. unfold Rdiv in H. lra. }
    set (t := d / slow) in *. split; [nra|]. split.
    + rewrite Hz, <- Hi. split; intros; nra.
    + intros Hge. assert (d = slow) by lra. unfold t. rewrite H. field. lra.
Qed.
Example C56_case : exists segs, segments_from_points [[0; 0]; [0; 3]; [3; 3]] (/10) = Ok segs /\ length segs = 2%nat.
Proof.
  destruct (C56_path_partial 2 [[0; 0]; [0; 3]; [3; 3]] (/10)) as (segs & E & L & _); [lia| | |lra|].
  - repeat constructor.
  - intros [|[|i]] Hi; cbn [nth]; [| |simpl in Hi; lia]; unfold dist.
    + assert (N : norm (vsub [0; 3] [0; 0]) = 3) by (apply norm_is_axis2; [unfold vsub; simpl; vnum|lra]). rewrite N. lra.
    + assert (N : norm (vsub [3; 3] [0; 3]) = 3) by (apply norm_is_axis; [unfold vsub; simpl; vnum|lra]). rewrite N. lra.
  - exists segs. auto.
Qed.
Print Assumptions C44_simple_circular.
Print Assumptions C44_on_circle.
Print Assumptions C44_maximum_velocity_refuted.
Print Assumptions C55_rotation_weight.
Print Assumptions C55_circular_rotation.
Print Assumptions C55_sense.
Print Assumptions C54_neighbours_partial.
Print Assumptions C54_fraction_refuted.
Print Assumptions C56_path_partial.
Print Assumptions C56_margin_refuted.
Print Assumptions C56_half_margin_raises.
Print Assumptions C56_magnitude.
