(** Properties C78 and C79: the spiraling fields. *)
Require Import Reals List Lra Lia Psatz Bool.
From Verif Require Import Base Vec Angle Pow RotModel Spec RotProofs DynModel PropCircular FieldModel PropLocalRot.
Import ListNotations.
Open Scope R_scope.

(** An orthonormal frame of the space. *)
Record frame_ok (f : frame3) : Prop := {
  fk_o : length (fr_origin f) = 3%nat;
  fk_x : length (fr_x f) = 3%nat; fk_y : length (fr_y f) = 3%nat; fk_z : length (fr_z f) = 3%nat;
  fk_ux : unitv (fr_x f); fk_uy : unitv (fr_y f); fk_uz : unitv (fr_z f);
  fk_xy : dot (fr_x f) (fr_y f) = 0; fk_xz : dot (fr_x f) (fr_z f) = 0; fk_yz : dot (fr_y f) (fr_z f) = 0 }.
(** Position in the frame: along the axis, and in the plane around it. *)
Definition along (f : frame3) (p : vec) : R := dot (fr_x f) (vsub p (fr_origin f)).
Definition side1 (f : frame3) (p : vec) : R := dot (fr_y f) (vsub p (fr_origin f)).
Definition side2 (f : frame3) (p : vec) : R := dot (fr_z f) (vsub p (fr_origin f)).
(** Distance to the axis. *)
Definition axis_distance (f : frame3) (p : vec) : R := sqrt (side1 f p * side1 f p + side2 f p * side2 f p).
(** Rate at which the distance to the axis grows (times the distance), rate of the turn. *)
Definition outward (f : frame3) (p v : vec) : R := side1 f p * dot (fr_y f) v + side2 f p * dot (fr_z f) v.
Definition turning (f : frame3) (p v : vec) : R := side1 f p * dot (fr_z f) v - side2 f p * dot (fr_y f) v.

Lemma circular_facts r y z : 0 < r -> exists a b, simple_circular r 1 [y; z] = Ok [a; b] /\
  a * a + b * b <= 1 /\ (y = 0 -> z = 0 -> a = 0 /\ b = 0) /\
  let rho := sqrt (y * y + z * z) in
  (r < rho -> y * a + z * b < 0) /\ (0 < rho < r -> 0 < y * a + z * b) /\
  (rho = r -> y * a + z * b = 0) /\ (0 < rho -> 0 < y * b - z * a).
Proof.
  intros Hr. destruct (C44_simple_circular r 1 y z [] Hr) as (v & E & L & Z & N & A1 & A2 & A3 & A4 & _); [lra|].
  destruct v as [|a [|b [|? ?]]]; simpl in L; try lia. exists a, b. split; auto.
  rewrite norm2 in A1, A2, A3, A4. unfold radial_rate, turn_rate in *. simpl in A1, A2, A3, A4.
  split; [|split].
  - assert (M : norm [a; b] <= 1).
    { rewrite N. pose proof (norm_nonneg [y; z]). destruct (Rltb (norm [y; z]) (r / 3)) eqn:Q; [|lra].
      apply Rltb_true in Q. rewrite Rmult_1_l. apply Rmult_le_reg_r with (r / 3); [lra|].
      unfold Rdiv at 1. rewrite Rmult_assoc, Rinv_l; lra. }
    pose proof (norm_sq [a; b]) as S2. simpl in S2. pose proof (norm_nonneg [a; b]). nra.
  - intros -> ->. assert (V : [a; b] = vzero 2) by (apply Z; reflexivity). injection V as -> ->. auto.
  - cbv zeta. repeat split; intros H; [specialize (A1 H)|specialize (A2 H)|specialize (A3 H)|specialize (A4 H)]; lra.
Qed.

(** The combination before it is scaled. *)
Definition mixed (f : frame3) (d : vec) (a b : R) : vec :=
  vadd (vadd (fr_origin f) (vadd (vscale a (fr_y f)) (vscale b (fr_z f)))) d.
Lemma spiral_form f d r speed p : frame_ok f -> length d = 3%nat -> length p = 3%nat -> 0 < r ->
  exists a b, simple_circular r 1 [side1 f p; side2 f p] = Ok [a; b] /\
  spiral_evaluate f d r speed p =
    (if Req_EM_T (norm (mixed f d a b)) 0 then Err ENaN
     else Ok (vscale speed (vdiv (mixed f d a b) (norm (mixed f d a b))))).
Proof.
  intros F Ld Lp Hr. destruct (circular_facts r (side1 f p) (side2 f p) Hr) as (a & b & E & _).
  exists a, b. split; auto. destruct F.
  assert (EV : spiral_evaluate f d r speed p =
     do v2 <- simple_circular r 1 [side1 f p; side2 f p];
     let c := vadd (from_relative f (0 :: v2)) d in
     if Req_EM_T (norm c) 0 then Err ENaN else Ok (vscale speed (vdiv c (norm c)))) by reflexivity.
  rewrite EV, E. cbn [bind]. cbv zeta.
  assert (Q : vadd (from_relative f [0; a; b]) d = mixed f d a b).
  { unfold from_relative, mixed. simpl nth. vext. ring. }
  rewrite Q. reflexivity.
Qed.

(** With the center at the origin: full speed, progress along the direction, and the cylinder of
    the given radius attracts. *)
Theorem C78_spiral : forall f m r speed p,
  frame_ok f -> fr_origin f = vzero 3 -> length p = 3%nat -> 0 < m -> 0 < r -> 0 < speed ->
  exists v, spiral_evaluate f (vscale m (fr_x f)) r speed p = Ok v /\ length v = 3%nat /\ norm v = speed /\
    speed * (m / sqrt (m * m + 1)) <= dot (fr_x f) v /\
    (axis_distance f p = 0 -> v = vscale speed (fr_x f)) /\
    (r < axis_distance f p -> outward f p v < 0) /\
    (0 < axis_distance f p < r -> 0 < outward f p v) /\
    (axis_distance f p = r -> outward f p v = 0) /\
    (0 < axis_distance f p -> 0 < turning f p v).
Proof.
  intros f m r speed p F O Lp Hm Hr Hs.
  assert (Ld : length (vscale m (fr_x f)) = 3%nat) by (rewrite length_vscale; apply F).
  destruct (spiral_form f (vscale m (fr_x f)) r speed p F Ld Lp Hr) as (a & b & E & EV).
  destruct (circular_facts r (side1 f p) (side2 f p) Hr) as (a' & b' & E' & AB & Z & H1 & H2 & H3 & H4).
  rewrite E in E'. injection E' as <- <-. destruct F. unfold unitv in *.
  set (c := mixed f (vscale m (fr_x f)) a b) in *.
  assert (Ec : c = vadd (vscale m (fr_x f)) (vadd (vscale a (fr_y f)) (vscale b (fr_z f)))).
  { unfold c, mixed. rewrite O. vext. ring. }
  assert (Cx : dot (fr_x f) c = m).
  { rewrite Ec. autorewrite with vdot. rewrite fk_ux0, fk_xy0, fk_xz0. ring. }
  assert (Cy : dot (fr_y f) c = a).
  { rewrite Ec. autorewrite with vdot. rewrite (dot_comm (fr_y f) (fr_x f)), fk_xy0, fk_uy0, fk_yz0. ring. }
  assert (Cz : dot (fr_z f) c = b).
  { rewrite Ec. autorewrite with vdot. rewrite (dot_comm (fr_z f) (fr_x f)), (dot_comm (fr_z f) (fr_y f)), fk_xz0, fk_uz0, fk_yz0. ring. }
  assert (CC : dot c c = m * m + (a * a + b * b)).
  { rewrite Ec at 1. autorewrite with vdot. rewrite Cx, Cy, Cz. ring. }
  assert (Nc : norm c <> 0) by (apply norm_neq_0_dot; rewrite CC; nra).
  pose proof (norm_pos _ Nc) as Pc. pose proof (norm_sq c) as Sc.
  destruct (Req_EM_T (norm c) 0); [contradiction|].
  assert (L : norm c <= sqrt (m * m + 1)).
  { unfold norm. apply sqrt_le_1_alt. rewrite CC. lra. }
  assert (I : 0 < / norm c) by (apply Rinv_0_lt_compat; auto).
  exists (vscale speed (vdiv c (norm c))).
  assert (Vx : dot (fr_x f) (vscale speed (vdiv c (norm c))) = speed * (m * / norm c)) by (autorewrite with vdot; rewrite Cx; unfold Rdiv; ring).
  assert (OUT : outward f p (vscale speed (vdiv c (norm c))) = speed * / norm c * (side1 f p * a + side2 f p * b)).
  { unfold outward. autorewrite with vdot. rewrite Cy, Cz. unfold Rdiv. ring. }
  assert (TUR : turning f p (vscale speed (vdiv c (norm c))) = speed * / norm c * (side1 f p * b - side2 f p * a)).
  { unfold turning. autorewrite with vdot. rewrite Cy, Cz. unfold Rdiv. ring. }
  assert (K : 0 < speed * / norm c) by (apply Rmult_lt_0_compat; auto).
  unfold axis_distance. rewrite OUT, TUR, Vx. cbv zeta in *.
  split; [exact EV|]. split; [rewrite Ec; autorewrite with vlen; lia|].
  split; [rewrite norm_vscale, norm_vdiv, Rabs_right by (auto; lra); ring|].
  split; [|split; [|split; [|split; [|split]]]].
  - apply Rmult_le_compat_l; [lra|]. unfold Rdiv. apply Rmult_le_compat_l; [lra|].
    apply Rinv_le_contravar; lra.
  - intros D. assert (S0 : side1 f p = 0 /\ side2 f p = 0).
    { pose proof (Rle_0_sqr (side1 f p)) as P1. pose proof (Rle_0_sqr (side2 f p)) as P2. unfold Rsqr in P1, P2.
      apply sqrt_eq_0 in D; [|lra]. split; apply Rsqr_0_uniq; unfold Rsqr; lra. }
    destruct S0 as [S1 S2]. destruct (Z S1 S2) as [A0 B0].
    assert (Ec' : c = vscale m (fr_x f)) by (rewrite Ec, A0, B0; vext; ring).
    assert (Nm : norm c = m).
    { apply Rsqr_inj; try lra. unfold Rsqr. rewrite Sc, CC, A0, B0. ring. }
    rewrite Nm, Ec'. vext. field. lra.
  - intros D. specialize (H1 D). nra.
  - intros D. specialize (H2 D). apply Rmult_lt_0_compat; auto.
  - intros D. rewrite (H3 D). ring.
  - intros D. specialize (H4 D). apply Rmult_lt_0_compat; auto.
Qed.

(** Executions of the explicit Euler scheme advance along the direction without bound. *)
Theorem C78_progress : forall f m r speed dt x,
  frame_ok f -> fr_origin f = vzero 3 -> 0 < m -> 0 < r -> 0 < speed -> 0 < dt ->
  (forall k, length (x k) = 3%nat) ->
  (forall k, exists v, spiral_evaluate f (vscale m (fr_x f)) r speed (x k) = Ok v /\ x (S k) = vadd (x k) (vscale dt v)) ->
  forall k, dot (fr_x f) (x O) + INR k * (dt * (speed * (m / sqrt (m * m + 1)))) <= dot (fr_x f) (x k).
Proof.
  intros f m r speed dt x F O Hm Hr Hs Hdt Lx X. induction k.
  - simpl. lra.
  - destruct (X k) as (v & E & Ex).
    destruct (C78_spiral f m r speed (x k) F O (Lx k) Hm Hr Hs) as (v' & E' & _ & _ & P & _).
    rewrite E in E'. injection E' as <-. rewrite S_INR, Ex. autorewrite with vdot.
    apply (Rmult_le_compat_l dt) in P; lra.
Qed.

(** The speed is the requested one whatever the center. *)
Theorem C78_speed : forall f d r speed p v, spiral_evaluate f d r speed p = Ok v -> norm v = Rabs speed.
Proof.
  intros f d r speed p v. unfold spiral_evaluate. destruct (simple_circular _ _ _); [|discriminate]. cbn [bind].
  destruct (Req_EM_T _ 0); [discriminate|]. intros E. injection E as <-. rewrite norm_vscale, norm_vdiv by auto. ring.
Qed.

Definition axes_at (c : vec) : frame3 := mkFrame c [1; 0; 0] [0; 1; 0] [0; 0; 1].
Lemma axes_ok c : length c = 3%nat -> frame_ok (axes_at c).
Proof. intros. constructor; auto; unfold unitv; simpl; lra. Qed.
(** The velocity is moved with the center of the frame: the field goes backwards, and at other
    centers it is NaN. *)
Theorem C78_center_refuted : exists c d p v, length c = 3%nat /\ norm d = 1 /\
  spiral_evaluate (axes_at c) d 1 1 p = Ok v /\ dot v d < 0.
Proof.
  exists [-3; 0; 0], [1; 0; 0], [0; 0; 0].
  destruct (spiral_form (axes_at [-3; 0; 0]) [1; 0; 0] 1 1 [0; 0; 0] (axes_ok [-3; 0; 0] eq_refl) eq_refl eq_refl) as (a & b & E & EV); [lra|].
  destruct (circular_facts 1 (side1 (axes_at [-3; 0; 0]) [0; 0; 0]) (side2 (axes_at [-3; 0; 0]) [0; 0; 0])) as (a' & b' & E' & _ & Z & _); [lra|].
  rewrite E in E'. injection E' as <- <-.
  destruct Z as [-> ->]; [unfold side1; simpl; ring|unfold side2; simpl; ring|].
  set (c := mixed _ _ _ _) in EV.
  assert (Ec : c = [-2; 0; 0]).
  { unfold c, mixed, axes_at, vscale. simpl. f_equal; [|f_equal; [|f_equal]]; ring. }
  assert (N : norm c = 2).
  { rewrite Ec. unfold norm. simpl. replace (-2 * -2 + (0 * 0 + (0 * 0 + 0))) with (2 * 2) by ring. apply sqrt_square. lra. }
  destruct (Req_EM_T (norm c) 0); [lra|]. eexists. split; [reflexivity|]. split.
  - apply unit_norm. unfold unitv. simpl. ring.
  - split; [exact EV|]. rewrite N, Ec. unfold vdiv, vscale. simpl. lra.
Qed.
Theorem C78_center_nan_refuted : exists c d p, length c = 3%nat /\ norm d = 1 /\
  spiral_evaluate (axes_at c) d 1 1 p = Err ENaN.
Proof.
  exists [-1; 0; 0], [1; 0; 0], [0; 0; 0].
  destruct (spiral_form (axes_at [-1; 0; 0]) [1; 0; 0] 1 1 [0; 0; 0] (axes_ok [-1; 0; 0] eq_refl) eq_refl eq_refl) as (a & b & E & EV); [lra|].
  destruct (circular_facts 1 (side1 (axes_at [-1; 0; 0]) [0; 0; 0]) (side2 (axes_at [-1; 0; 0]) [0; 0; 0])) as (a' & b' & E' & _ & Z & _); [lra|].
  rewrite E in E'. injection E' as <- <-.
  destruct Z as [-> ->]; [unfold side1; simpl; ring|unfold side2; simpl; ring|].
  set (c := mixed _ _ _ _) in EV.
  assert (N : norm c = 0).
  { apply norm_eq_0_dot. unfold c, mixed, axes_at, vscale. simpl. ring. }
  destruct (Req_EM_T (norm c) 0); [|contradiction].
  split; [reflexivity|]. split; [|exact EV]. apply unit_norm. unfold unitv. simpl. ring.
Qed.
Example C78_case : frame_ok (axes_at (vzero 3)) /\ axis_distance (axes_at (vzero 3)) [7; 0; 2] = 2 /\
  exists v, spiral_evaluate (axes_at (vzero 3)) (vscale 3 [1; 0; 0]) 1 2 [7; 0; 2] = Ok v /\ norm v = 2.
Proof.
  split; [apply axes_ok; reflexivity|]. split.
  - unfold axis_distance, side1, side2. simpl.
    match goal with |- sqrt ?x = 2 => replace x with (2 * 2) by ring end. apply sqrt_square. lra.
  - destruct (C78_spiral (axes_at (vzero 3)) 3 1 2 [7; 0; 2]) as (v & E & _ & N & _); auto; try lra.
    + apply axes_ok. reflexivity.
    + eauto.
Qed.

(** ** C79: the spiral with an attractor *)
Lemma spiral_attractor_form attractor r speed x y z : 0 < r -> length attractor = 3%nat ->
  exists a b k, simple_circular r 1 [x; z] = Ok [a; b] /\ 0 < k /\
  let c := vadd [a; 0; b] (vscale k (vsub attractor [x; y; z])) in
  (k = 1 \/ 0 < norm (vsub attractor [x; y; z])) /\
  spiral_attractor_evaluate attractor r speed [x; y; z] =
    (if Req_EM_T (norm c) 0 then Err ENaN else Ok (vscale speed (vdiv c (norm c)))) \/ speed <= 0.
Proof.
  intros Hr La. destruct (Rle_or_lt speed 0) as [Hs|Hs].
  { destruct (circular_facts r x z Hr) as (a & b & E & _). exists a, b, 1. split; auto. split; [lra|]. right. auto. }
  destruct (circular_facts r x z Hr) as (a & b & E & _).
  exists a, b, (if Rltb speed (norm (vsub attractor [x; y; z])) then speed / norm (vsub attractor [x; y; z]) else 1).
  set (t := vsub attractor [x; y; z]).
  assert (Lt : length t = 3%nat) by (unfold t; autorewrite with vlen; simpl; lia).
  split; auto. destruct (Rltb speed (norm t)) eqn:Q.
  - apply Rltb_true in Q. split; [apply Rdiv_lt_0_compat; lra|]. left. split; [right; lra|].
    unfold spiral_attractor_evaluate. simpl nth. rewrite E. cbn [bind]. fold t. simpl nth.
    rewrite (proj2 (Rltb_true _ _) Q).
    replace (vscale speed (vdiv t (norm t))) with (vscale (speed / norm t) t); [reflexivity|]. vext. field. lra.
  - split; [lra|]. left. split; [auto|].
    unfold spiral_attractor_evaluate. simpl nth. rewrite E. cbn [bind]. fold t. simpl nth. rewrite Q.
    replace (vscale 1 t) with t; [reflexivity|]. vext. ring.
Qed.
(** Full speed everywhere, and the height approaches the height of the attractor. *)
Theorem C79_speed_and_height : forall ax ay az r speed x y z v, 0 < r -> 0 < speed ->
  spiral_attractor_evaluate [ax; ay; az] r speed [x; y; z] = Ok v ->
  norm v = speed /\ (ay <> y -> 0 < (ay - y) * nth 1 v 0) /\ (ay = y -> nth 1 v 0 = 0).
Proof.
  intros ax ay az r speed x y z v Hr Hs E.
  destruct (spiral_attractor_form [ax; ay; az] r speed x y z Hr eq_refl) as (a & b & k & _ & Hk & [(_ & EV)|B]); [|lra].
  rewrite E in EV. set (c := vadd _ _) in EV. destruct (Req_EM_T (norm c) 0) as [|N]; [discriminate|].
  assert (Ev : v = vscale speed (vdiv c (norm c))) by congruence. rewrite Ev.
  split; [rewrite norm_vscale, norm_vdiv, Rabs_right by (auto; lra); ring|].
  assert (C1 : nth 1 (vscale speed (vdiv c (norm c))) 0 = speed * / norm c * (k * (ay - y))).
  { autorewrite with vnth. unfold c. autorewrite with vnth. simpl nth. field. auto. }
  rewrite C1. pose proof (norm_pos _ N). assert (0 < / norm c) by (apply Rinv_0_lt_compat; auto).
  assert (0 < speed * / norm c * k) by (apply Rmult_lt_0_compat; [apply Rmult_lt_0_compat|]; auto).
  split.
  - intros Hy. replace ((ay - y) * (speed * / norm c * (k * (ay - y)))) with (speed * / norm c * k * Rsqr (ay - y)) by (unfold Rsqr; ring).
    apply Rmult_lt_0_compat; auto. apply Rlt_0_sqr. lra.
  - intros ->. ring.
Qed.
(** The attractor is not a point of rest: the result there is NaN or has full speed. *)
Theorem C79_never_rest : forall ax ay az r speed, 0 < r -> 0 < speed ->
  match spiral_attractor_evaluate [ax; ay; az] r speed [ax; ay; az] with
  | Ok v => norm v = speed /\ (ax <> 0 \/ az <> 0)
  | Err e => e = ENaN /\ ax = 0 /\ az = 0
  end.
Proof.
  intros ax ay az r speed Hr Hs.
  destruct (spiral_attractor_form [ax; ay; az] r speed ax ay az Hr eq_refl) as (a & b & k & E & Hk & [(_ & EV)|B]); [|lra].
  destruct (circular_facts r ax az Hr) as (a' & b' & E' & _ & Z & _ & _ & _ & T).
  rewrite E in E'. injection E' as <- <-. cbv zeta in *.
  rewrite EV. set (c := vadd _ _).
  assert (Ec : c = [a; 0; b]).
  { unfold c, vsub, vscale. simpl. f_equal; [|f_equal; [|f_equal]]; ring. }
  assert (DC : dot c c = a * a + b * b) by (rewrite Ec; simpl; ring).
  destruct (Req_EM_T (norm c) 0) as [N|N].
  - split; auto. apply norm_eq_0_dot in N. rewrite DC in N.
    assert (a = 0) by nra. assert (b = 0) by nra. subst a b.
    destruct (Req_dec (ax * ax + az * az) 0) as [Q|Q]; [split; nra|].
    assert (0 < sqrt (ax * ax + az * az)) by (apply sqrt_lt_R0; nra). specialize (T H). lra.
  - split; [rewrite norm_vscale, norm_vdiv, Rabs_right by (auto; lra); ring|].
    destruct (Req_dec ax 0) as [X|X]; auto. destruct (Req_dec az 0) as [Y|Y]; auto.
    exfalso. destruct (Z X Y) as [A0 B0]. apply N, norm_eq_0_dot. rewrite DC, A0, B0. ring.
Qed.
Example C79_case : exists v, spiral_attractor_evaluate [1; 0; 0] 1 1 [0; 2; 0] = Ok v /\ nth 1 v 0 < 0.
Proof.
  destruct (spiral_attractor_form [1; 0; 0] 1 1 0 2 0) as (a & b & k & E & Hk & [(_ & EV)|B]); [lra|reflexivity| |lra].
  set (c := vadd _ _) in EV.
  assert (N : norm c <> 0).
  { apply norm_neq_0_dot.
    replace (dot c c) with ((a + k) * (a + k) + 4 * (k * k) + b * b) by (unfold c, vsub, vscale; simpl; ring).
    pose proof (Rle_0_sqr (a + k)). pose proof (Rle_0_sqr b). unfold Rsqr in *.
    assert (0 < k * k) by (apply Rmult_lt_0_compat; auto). lra. }
  destruct (Req_EM_T (norm c) 0); [contradiction|]. eexists. split; [exact EV|].
  destruct (C79_speed_and_height 1 0 0 1 1 0 2 0 _ ltac:(lra) ltac:(lra) EV) as (_ & H & _).
  assert (0 <> 2) by lra. specialize (H H0). lra.
Qed.
Theorem C79_rest_refuted : exists attractor v, spiral_attractor_evaluate attractor 1 1 attractor = Ok v /\ norm v = 1.
Proof.
  exists [1; 0; 0]. pose proof (C79_never_rest 1 0 0 1 1 ltac:(lra) ltac:(lra)) as H.
  destruct (spiral_attractor_evaluate _ _ _ _) as [v|e]; [exists v; split; [auto|apply H]|]. destruct H as (_ & H & _). lra.
Qed.
Print Assumptions C78_spiral.
Print Assumptions C78_progress.
Print Assumptions C78_speed.
Print Assumptions C78_center_refuted.
Print Assumptions C78_center_nan_refuted.
Print Assumptions C79_speed_and_height.
Print Assumptions C79_never_rest.
Print Assumptions C79_rest_refuted.
