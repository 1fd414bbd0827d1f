(** Properties C112-C114: the local attractor of a hull, relative reference points of walls, and
    the radius of the hulls. *)
Require Import Reals List Bool Arith ZArith Lra Lia Psatz.
From Verif Require Import Base Vec Pow RotModel Spec RotProofs TreeModel ContainerModel ContainerProofs HullModel HullGraphModel.
Import ListNotations.
Open Scope R_scope.

Ltac coords := repeat match goal with |- Ok _ = Ok _ => f_equal | |- _ :: _ = _ :: _ => apply f_equal2 end; try reflexivity; try field.
(** * C112: local attractor *)
(** [q] is not behind [e], seen in the direction [d]. *)
Definition ahead (e d q : vec) : Prop := exists t, 0 <= t /\ q = vadd e (vscale t d).
(** A component of the tree is left in the direction of its parent, when the attractor is not
    within it. *)
Theorem C112_parent gamma intersect centers parents end_points attractor it p c cp e :
  (forall i e d, ahead e d (intersect i e d)) ->
  nth_error parents it = Some (Z.of_nat p) -> nth_error centers it = Some c -> nth_error centers p = Some cp ->
  nth_error end_points it = Some e -> length c = length cp ->
  exists q, local_attractor gamma intersect centers parents end_points attractor it = Ok q /\
    (1 <= gamma it -> q = attractor) /\
    (gamma it < 1 -> ahead e (vsub cp c) q).
Proof.
  intros HI P C CP E L. unfold local_attractor. destruct (Rleb 1 (gamma it)) eqn:G.
  - apply Rleb_true in G. exists attractor. split; auto. split; auto. lra.
  - apply Rleb_false in G.
    assert (PN : forall A (l : list A) k x, nth_error l k = Some x -> py_nth l (Z.of_nat k) = Ok x).
    { intros A l k x H. unfold py_nth. assert (K : (k < length l)%nat) by (apply nth_error_Some; congruence).
      rewrite py_index_in by lia. rewrite Nat2Z.id, H. auto. }
    rewrite (PN _ _ _ _ P). cbn [bind]. rewrite (PN _ _ _ _ C). cbn [bind]. rewrite (PN _ _ _ _ CP). cbn [bind].
    rewrite (PN _ _ _ _ E). cbn [bind].
    eexists. split; [reflexivity|]. split; [lra|]. intros _.
    replace (vsub cp c) with (vscale (-1) (vsub c cp)); auto.
    vext. ring.
Qed.

Example C112_parent_example : exists q,
  local_attractor (fun _ => 0.5) (fun _ e d => vadd e (vscale 2 d)) [[0; 0]; [3; 1]] [(-1)%Z; 0%Z] [[-1; 0]; [2; 1]] [-2; 0] 1 = Ok q /\
  ahead [2; 1] [-3; -1] q.
Proof.
  destruct (C112_parent (fun _ => 0.5) (fun _ e d => vadd e (vscale 2 d)) [[0; 0]; [3; 1]] [(-1)%Z; 0%Z] [[-1; 0]; [2; 1]] [-2; 0]
    1 0 [3; 1] [0; 0] [2; 1]) as (q & A & _ & B); auto.
  - intros i e d. exists 2. split; auto. lra.
  - exists q. split; auto. replace [-3; -1] with (vsub [0; 0] [3; 1]); [apply B; lra|]. unfold vsub. cbn. coords.
Qed.
(** The root has the parent -1, which as an index is the last component: when the attractor is not within the
    root, then the root is left towards the last component, and this component towards the root. *)
Theorem C112_root_refuted : exists gamma intersect centers parents end_points attractor q q',
  (forall i, gamma i < 1) /\ (forall i e d, ahead e d (intersect i e d)) /\
  parents = [(-1)%Z; 0%Z; 1%Z] /\ attractor = [-2; 0] /\ centers = [[0; 0]; [3; 0]; [6; 0]] /\
  local_attractor gamma intersect centers parents end_points attractor 0 = Ok q /\ ahead [0; 0] [6; 0] q /\
  norm (vsub attractor (nth 0 centers [])) < norm (vsub attractor q) /\
  local_attractor gamma intersect centers parents end_points attractor 1 = Ok q' /\ ahead [3; 0] [-3; 0] q'.
Proof.
  exists (fun _ => 0.5), (fun _ e d => vadd e (vscale (1/3) d)), [[0; 0]; [3; 0]; [6; 0]], [(-1)%Z; 0%Z; 1%Z], [[0; 0]; [3; 0]; [6; 0]], [-2; 0], [2; 0], [2; 0].
  split; [intros; lra|]. split; [intros i e d; exists (1/3); split; [lra|auto]|]. split; auto. split; auto. split; auto.
  assert (E : Rleb 1 0.5 = false) by (apply Rleb_false; lra).
  split; [|split; [|split; [|split]]].
  - unfold local_attractor. rewrite E.
    change (py_nth [(-1)%Z; 0%Z; 1%Z] (Z.of_nat 0)) with (Ok (-1)%Z). cbn [bind].
    change (py_nth [[0; 0]; [3; 0]; [6; 0]] (Z.of_nat 0)) with (Ok [0; 0]). cbn [bind].
    change (py_nth [[0; 0]; [3; 0]; [6; 0]] (-1)) with (Ok [6; 0]). cbn. coords.
  - exists (1/3). split; [lra|]. cbn. coords.
  - cbn [nth]. unfold norm. apply sqrt_lt_1_alt. unfold vsub. cbn. lra.
  - unfold local_attractor. rewrite E.
    change (py_nth [(-1)%Z; 0%Z; 1%Z] (Z.of_nat 1)) with (Ok 0%Z). cbn [bind].
    change (py_nth [[0; 0]; [3; 0]; [6; 0]] (Z.of_nat 1)) with (Ok [3; 0]). cbn [bind].
    change (py_nth [[0; 0]; [3; 0]; [6; 0]] 0) with (Ok [0; 0]). cbn. coords.
  - exists (1/3). split; [lra|]. cbn. coords.
Qed.

(** * C113: relative reference points *)
Lemma Rpower_gt_1 x p : 1 < x -> 0 < p -> 1 < Rpower x p.
Proof. intros Hx Hp. rewrite <- (Rpower_O x) by lra. apply Rpower_lt; auto. Qed.
(** The factor of a wall with value [g] at the boundary point. *)
Definition gap_factor (d D g : R) : R := Rpower (D / (D - d)) (Rmin ((g - 1) * 3) 5) * (D / d).
Lemma gap_factor_ge d D g : 0 < d < D -> 1 <= g -> D / d <= gap_factor d D g /\ (D / d = gap_factor d D g <-> g = 1).
Proof.
  intros H Hg. assert (R1 : 1 < D / (D - d)). { apply (Rmult_lt_reg_r (D - d)); [lra|]. replace (D / (D - d) * (D - d)) with D by (field; lra). lra. }
  assert (R2 : 0 < D / d) by (apply Rdiv_lt_0_compat; lra). unfold gap_factor. destruct (Req_dec g 1) as [->|N].
  - replace (Rmin ((1 - 1) * 3) 5) with 0 by (unfold Rmin; destruct (Rle_dec _ _); lra). rewrite Rpower_O by lra. split; [lra|split; auto; intros; lra].
  - pose proof (Rpower_gt_1 (D / (D - d)) (Rmin ((g - 1) * 3) 5) R1 ltac:(unfold Rmin; destruct (Rle_dec _ _); lra)) as P.
    split; [nra|]. split; [intros E; nra|lra].
Qed.
Lemma reference_weight_ok d D g : 0 < d < D -> exists w, reference_weight d D g = Ok w /\ 0 <= w < 1 /\
  (g < 1 -> w = 0) /\ (1 <= g -> (D / d - w) / (1 - w) = gap_factor d D g) /\ (w = 0 <-> g <= 1).
Proof.
  intros H. unfold reference_weight. destruct (Rltb g 1) eqn:E.
  - apply Rltb_true in E. exists 0. split; auto. split; [lra|]. split; auto. split; [lra|]. lra.
  - apply Rltb_false in E. unfold ndiv at 1. destruct (Req_EM_T (D - d) 0); [lra|]. cbn [bind].
    unfold ndiv at 1. destruct (Req_EM_T d 0) as [|Nd]; [lra|]. cbn [bind].
    rewrite fpow_pos by (apply Rdiv_lt_0_compat; lra). cbn [bind]. fold (gap_factor d D g).
    destruct (gap_factor_ge d D g H ltac:(lra)) as [G1 G2].
    assert (R2 : 1 < D / d). { apply (Rmult_lt_reg_r d); [lra|]. replace (D / d * d) with D by (field; lra). lra. }
    unfold ndiv at 1. destruct (Req_EM_T (1 - gap_factor d D g) 0); [lra|]. cbn [bind].
    unfold ndiv. destruct (Req_EM_T d 0); [lra|].
    set (f := gap_factor d D g) in *.
    assert (W : (D - d * f) / (1 - f) / d = (f - D / d) / (f - 1)) by (field; lra).
    rewrite W. exists ((f - D / d) / (f - 1)). split; auto.
    assert (I : 0 < / (f - 1)) by (apply Rinv_0_lt_compat; lra).
    assert (W0 : 0 <= (f - D / d) / (f - 1)) by (unfold Rdiv; apply Rmult_le_pos; [fold (D / d); lra|lra]).
    assert (W1 : (f - D / d) / (f - 1) < 1).
    { apply (Rmult_lt_reg_r (f - 1)); [lra|]. replace ((f - D / d) / (f - 1) * (f - 1)) with (f - D / d) by (field; lra). lra. }
    split; [lra|]. split; [lra|]. split.
    + intros _. assert (X : forall x y, 1 < x -> 1 < y -> (x - (y - x) / (y - 1)) / (1 - (y - x) / (y - 1)) = y) by (intros; field; lra).
      apply X; lra.
    + split.
      * intros F. assert (f - D / d = 0); [|rewrite (proj1 G2); lra].
        apply (Rmult_eq_reg_r (/ (f - 1))); [|lra]. unfold Rdiv in F at 1. rewrite F. ring.
      * intros F. assert (g = 1) as X by lra. apply G2 in X. rewrite <- X. unfold Rdiv. replace (D * / d - D * / d) with 0 by ring. ring.
Qed.

(** ** A point within a wall *)
Lemma rmax_spec l : forall x, In (fold_left Rmax l x) (x :: l) /\ forall y, In y (x :: l) -> y <= fold_left Rmax l x.
Proof.
  induction l as [|a l IH]; intros x; cbn [fold_left].
  - split; [left; auto|]. intros y [<-|[]]. lra.
  - destruct (IH (Rmax x a)) as [A B]. split.
    + destruct A as [A|A]; [|right; right; auto]. rewrite <- A. unfold Rmax. destruct (Rle_dec x a); [right; left|left]; auto.
    + intros y [<-|[<-|H]]; [|  |apply B; right; auto]; (eapply Rle_trans; [|apply B; left; auto]); [apply Rmax_l|apply Rmax_r].
Qed.
Lemma mapM_each {A B} (f : A -> res B) l : (forall a, In a l -> exists b, f a = Ok b) ->
  exists bs, mapM f l = Ok bs /\ length bs = length l /\ (forall a, In a l -> exists b, f a = Ok b /\ In b bs) /\ (forall b, In b bs -> exists a, In a l /\ f a = Ok b).
Proof.
  induction l as [|a l IH]; intros H.
  - exists []. repeat split; auto; intros x [].
  - destruct (H a (or_introl eq_refl)) as [b E]. destruct IH as (bs & A1 & A2 & A3 & A4); [intros; apply H; right; auto|].
    exists (b :: bs). cbn [mapM]. rewrite E, A1. cbn [bind length]. split; auto. split; [lia|]. split.
    + intros x [<-|X]; [exists b; split; auto; left; auto|]. destruct (A3 x X) as (y & F & G). exists y. split; auto. right. auto.
    + intros y [<-|Y]; [exists a; split; auto; left; auto|]. destruct (A4 y Y) as (x & F & G). exists x. split; auto. right. auto.
Qed.
(** Within a wall whose reference point is its center, at [d] from the center of the wall and with the boundary at [D]: the relative
    reference point is on the segment from the center to the position, the relative gamma is at least D / d, and
    this value exactly when the boundary point is not within another close wall.  Each
    close wall which covers the boundary point raises the value. *)
Theorem C113_relative walls close position i w (b := w_surface w position) (D := norm (vsub b (w_center w))) (d := norm (vsub position (w_center w))) :
  w_reference w = w_center w -> length position = length (w_center w) -> 0 < d < D -> In i close -> (forall j, In j close -> (j < length walls)%nat) ->
  exists t ref g, relative_reference walls close position i w = Ok (ref, g) /\ 0 <= t < 1 /\
    ref = vadd (w_center w) (vscale t (vsub position (w_center w))) /\
    1 < D / d /\ D / d <= g /\
    (g = D / d <-> forall j v, In j close -> j <> i -> nth_error walls j = Some v -> w_gamma v b <= 1) /\
    (g = D / d <-> t = 0) /\
    forall j v, In j close -> j <> i -> nth_error walls j = Some v -> 1 <= w_gamma v b ->
      Rpower (D / (D - d)) (Rmin ((w_gamma v b - 1) * 3) 5) * (D / d) <= g.
Proof.
  intros HR HL Hd Hi Hc. unfold relative_reference. fold b. fold D d.
  set (f := fun j => if Nat.eqb i j then Ok 0 else match nth_error walls j with Some v => reference_weight d D (w_gamma v b) | None => Err EIndex end).
  assert (FE : forall j, In j close -> exists x, f j = Ok x /\ 0 <= x < 1).
  { intros j Hj. unfold f. destruct (Nat.eqb i j); [exists 0; split; auto; lra|].
    destruct (nth_error walls j) as [v|] eqn:E; [|apply nth_error_None in E; specialize (Hc j Hj); lia].
    destruct (reference_weight_ok d D (w_gamma v b) Hd) as (x & X & Y & _). exists x. auto. }
  destruct (mapM_each f close) as (ws & A1 & A2 & A3 & A4); [intros j Hj; destruct (FE j Hj) as (x & X & _); exists x; auto|].
  rewrite A1. cbn [bind]. destruct ws as [|x t]; [destruct close; [destruct Hi|discriminate]|].
  destruct (rmax_spec t x) as [M1 M2]. set (m := fold_left Rmax t x) in *.
  assert (Hm : 0 <= m < 1). { destruct (A4 m M1) as (j & Hj & Ej). destruct (FE j Hj) as (y & Ey & By). rewrite Ej in Ey. injection Ey as ->. auto. }
  rewrite (proj2 (Rltb_false 1 m)) by lra. rewrite HR.
  set (ref := vadd (vscale m position) (vscale (1 - m) (w_center w))).
  assert (Er : ref = vadd (w_center w) (vscale m (vsub position (w_center w)))) by (unfold ref; vext; ring).
  assert (Nr : norm (vsub ref (w_center w)) = m * d).
  { replace (vsub ref (w_center w)) with (vscale m (vsub position (w_center w))) by (rewrite Er; vext; ring).
    rewrite norm_vscale, Rabs_right by lra. auto. }
  rewrite Nr. unfold ndiv. destruct (Req_EM_T (d - m * d) 0) as [Z|_]; [nra|]. cbn [bind].
  assert (R2 : 1 < D / d). { apply (Rmult_lt_reg_r d); [lra|]. replace (D / d * d) with D by (field; lra). lra. }
  assert (G : (D - m * d) / (d - m * d) = (D / d - m) / (1 - m)) by (field; repeat split; nra).
  rewrite G. exists m, ref, ((D / d - m) / (1 - m)). split; auto. split; auto. split; auto. split; auto.
  assert (I : 0 < / (1 - m)) by (apply Rinv_0_lt_compat; lra).
  assert (MONO : forall y, 0 <= y <= m -> (D / d - y) / (1 - y) <= (D / d - m) / (1 - m)).
  { intros y Hy. apply (Rmult_le_reg_r ((1 - y) * (1 - m))); [nra|].
    replace ((D / d - y) / (1 - y) * ((1 - y) * (1 - m))) with ((D / d - y) * (1 - m)) by (field; lra).
    replace ((D / d - m) / (1 - m) * ((1 - y) * (1 - m))) with ((D / d - m) * (1 - y)) by (field; lra). nra. }
  assert (Z : (D / d - m) / (1 - m) = D / d <-> m = 0).
  { split; [|intros ->; field; lra]. intros E. apply (f_equal (fun z => z * (1 - m))) in E.
    replace ((D / d - m) / (1 - m) * (1 - m)) with (D / d - m) in E by (field; lra). nra. }
  assert (EQ : forall j v, In j close -> j <> i -> nth_error walls j = Some v -> exists y, reference_weight d D (w_gamma v b) = Ok y /\ y <= m).
  { intros j v Hj N E. destruct (A3 j Hj) as (y & Fy & Iy). unfold f in Fy. rewrite (proj2 (Nat.eqb_neq i j)), E in Fy by auto.
    exists y. split; auto. }
  split; [|split; [|split; auto]].
  - replace (D / d) with ((D / d - 0) / (1 - 0)) at 1 by (field; lra). apply MONO. lra.
  - rewrite Z. split.
    + intros Em j v Hj N E. destruct (EQ j v Hj N E) as (y & Y & Ly). destruct (reference_weight_ok d D (w_gamma v b) Hd) as (y' & Y' & B' & _ & _ & W).
      rewrite Y in Y'. injection Y' as <-. apply W. lra.
    + intros H. destruct (A4 m M1) as (j & Hj & Ej). unfold f in Ej. destruct (Nat.eqb_spec i j) as [<-|N]; [congruence|].
      destruct (nth_error walls j) as [v|] eqn:E; [|discriminate].
      destruct (reference_weight_ok d D (w_gamma v b) Hd) as (y' & Y' & B' & _ & _ & W). rewrite Ej in Y'. injection Y' as <-.
      apply W. apply (H j v); auto.
  - intros j v Hj N E Hg. destruct (EQ j v Hj N E) as (y & Y & Ly). destruct (reference_weight_ok d D (w_gamma v b) Hd) as (y' & Y' & B' & _ & F & _).
    rewrite Y in Y'. injection Y' as <-. fold (gap_factor d D (w_gamma v b)). rewrite <- (F Hg). apply MONO. lra.
Qed.
(** A wall whose boundary point is covered by another wall is not felt: the relative gamma exceeds any
    bound when the position is close enough to the boundary. *)
Theorem C113_passage walls close position i w j v M (b := w_surface w position) (D := norm (vsub b (w_center w))) (d := norm (vsub position (w_center w)))
    (e := Rmin ((w_gamma v b - 1) * 3) 5) :
  w_reference w = w_center w -> length position = length (w_center w) -> 0 < d < D -> In i close -> (forall j, In j close -> (j < length walls)%nat) ->
  In j close -> j <> i -> nth_error walls j = Some v -> 1 < w_gamma v b -> 0 < M ->
  D - d <= D / Rpower M (/ e) ->
  exists ref g, relative_reference walls close position i w = Ok (ref, g) /\ M <= g.
Proof.
  intros HR HL Hd Hi Hc Hj N E Hg HM HD.
  destruct (C113_relative walls close position i w HR HL Hd Hi Hc) as (t & ref & g & A & _ & _ & R1 & _ & _ & _ & F).
  exists ref, g. split; auto. fold b D d in F, R1. specialize (F j v Hj N E ltac:(lra)). fold e in F.
  assert (He : 0 < e) by (unfold e, Rmin; destruct (Rle_dec _ _); lra).
  pose proof (Rpower_pos M (/ e)) as P. set (q := Rpower M (/ e)) in *.
  assert (Q : q <= D / (D - d)).
  { apply (Rmult_le_reg_r (D - d)); [lra|]. replace (D / (D - d) * (D - d)) with D by (field; lra).
    apply (Rmult_le_compat_l q) in HD; [|lra]. replace (q * (D / q)) with D in HD by (field; lra). auto. }
  assert (K : M <= Rpower (D / (D - d)) e).
  { replace M with (Rpower q e); [apply Rle_Rpower_l; lra|]. unfold q. rewrite Rpower_mult, Rinv_l, Rpower_1 by lra. auto. }
  pose proof (Rpower_pos (D / (D - d)) e). nra.
Qed.
(** Walls on a line: the first of radius one, and the second covers its boundary point on the right. *)
Definition ex_wall (c r : R) : wall :=
  mkWall [c] [c] true (fun p => r / Rabs (nth 0 p 0 - c)) (fun p => if Rltb (nth 0 p 0) c then [c - r] else [c + r]).
Lemma norm_one a : norm [a] = Rabs a.
Proof. unfold norm. cbn. replace (a * a + 0) with (Rsqr a) by (unfold Rsqr; ring). apply sqrt_Rsqr_abs. Qed.
Lemma ex_surface : w_surface (ex_wall 0 1) [0.5] = [1].
Proof. unfold ex_wall. cbn [w_surface nth]. rewrite (proj2 (Rltb_false _ _)) by lra. coords. Qed.
Lemma ex_distances : norm (vsub (w_surface (ex_wall 0 1) [0.5]) (w_center (ex_wall 0 1))) = 1 /\ norm (vsub [0.5] (w_center (ex_wall 0 1))) = 1/2.
Proof.
  rewrite ex_surface. unfold ex_wall, vsub. cbn [w_center vscale map vadd]. rewrite !norm_one. split; rewrite Rabs_right; lra.
Qed.
Example C113_relative_example : exists t ref g,
  relative_reference [ex_wall 0 1; ex_wall 1.5 1] [0; 1]%nat [0.5] 0 (ex_wall 0 1) = Ok (ref, g) /\ 0 < t < 1 /\ ref = [t * 0.5] /\ 2 < g.
Proof.
  destruct ex_distances as [E1 E2].
  destruct (C113_relative [ex_wall 0 1; ex_wall 1.5 1] [0; 1]%nat [0.5] 0 (ex_wall 0 1)) as (t & ref & g & A & B & C & _ & F & G & H & _); auto.
  - rewrite E1, E2. lra.
  - left. auto.
  - intros j [<-|[<-|[]]]; cbn; lia.
  - rewrite E1, E2, ex_surface in *. replace (1 / (1 / 2)) with 2 in * by field.
    assert (K : 1 < w_gamma (ex_wall 1.5 1) [1]). { unfold ex_wall. cbn [w_gamma nth]. rewrite Rabs_left by lra.
    replace (- (1 - 1.5)) with (/ 2) by lra. replace (1 / / 2) with 2 by field. lra. }
    assert (N : t <> 0). { intros T. apply H in T. rewrite G in T. specialize (T 1%nat (ex_wall 1.5 1) (or_intror (or_introl eq_refl)) ltac:(lia) eq_refl). lra. }
    assert (N2 : g <> 2) by (intros T; apply H in T; auto).
    exists t, ref, g. split; auto. split; [lra|]. split; [|lra]. rewrite C. unfold ex_wall, vsub. cbn. coords.
Qed.
Example C113_passage_example : exists ref g,
  relative_reference [ex_wall 0 1; ex_wall 1.5 1] [0; 1]%nat [0.5] 0 (ex_wall 0 1) = Ok (ref, g) /\ 8 <= g.
Proof.
  destruct ex_distances as [E1 E2].
  apply (C113_passage [ex_wall 0 1; ex_wall 1.5 1] [0; 1]%nat [0.5] 0 (ex_wall 0 1) 1 (ex_wall 1.5 1) 8); auto.
  - rewrite E1, E2. lra.
  - left. auto.
  - intros j [<-|[<-|[]]]; cbn; lia.
  - right. left. auto.
  - rewrite ex_surface. unfold ex_wall. cbn [w_gamma nth]. rewrite Rabs_left by lra.
    replace (- (1 - 1.5)) with (/ 2) by lra. replace (1 / / 2) with 2 by field. lra.
  - lra.
  - rewrite E1, E2, ex_surface. unfold ex_wall. cbn [w_gamma nth]. rewrite Rabs_left by lra.
    replace (- (1 - 1.5)) with (/ 2) by lra. replace (1 / / 2) with 2 by field.
    replace (Rmin ((2 - 1) * 3) 5) with 3 by (unfold Rmin; destruct (Rle_dec _ _); lra).
    assert (Rpower 8 (/ 3) = 2) as ->; [|lra].
    replace 8 with (Rpower 2 3).
    + rewrite Rpower_mult. replace (3 * / 3) with 1 by field. apply Rpower_1. lra.
    + replace 3 with (INR 3) by (cbn; lra). rewrite Rpower_pow by lra. cbn. lra.
Qed.
(** For a reference point which is not the center, the relative gamma may be below one, even negative, within the wall. *)
Theorem C113_reference_refuted : exists w position ref g,
  norm (vsub position (w_center w)) < norm (vsub (w_surface w position) (w_center w)) /\ 1 < w_gamma w position /\
  1 < w_gamma w (w_reference w) /\
  update_relative [w] (/ 1000000) position = Ok [Some (ref, g)] /\ g = - 5 / 4.
Proof.
  exists (mkWall [0] [0.5] true (fun p => 1 / Rabs (nth 0 p 0)) (fun _ => [1])), [0.1], [0.5], (- 5 / 4).
  cbn [w_center w_surface w_gamma w_reference nth]. unfold vsub. cbn [vscale map vadd]. rewrite !norm_one.
  rewrite !(Rabs_right) by lra. split; [lra|]. split; [lra|]. split; [lra|]. split; auto.
  assert (E1 : Rltb (/ 1000000) (1 / 0.1) = true) by (apply Rltb_true; lra).
  assert (E2 : Rltb 1 (1 / 0.1) = true) by (apply Rltb_true; lra).
  unfold update_relative, wall_indices. cbn [length seq filter nth_error w_gamma w_boundary combine mapM fst snd nth].
  rewrite !(Rabs_right) by lra. rewrite E1, E2. cbn [andb bind]. unfold relative_reference. cbn [mapM Nat.eqb bind fold_left w_surface w_center w_reference].
  rewrite (proj2 (Rltb_false 1 0)) by lra. unfold vsub. cbn [vscale map vadd].
  rewrite !norm_one, !(Rabs_right) by lra. unfold ndiv. destruct (Req_EM_T _ _); [lra|]. cbn [bind].
  repeat match goal with |- Ok _ = _ => f_equal | |- Some _ = _ => f_equal | |- (_, _) = _ => f_equal | |- _ :: _ = _ => apply f_equal2 end; try reflexivity.
  - lra.
  - apply (Rmult_eq_reg_r (0.1 + -1 * 0 - (0 * 0.1 + (1 - 0) * 0.5 + -1 * 0))); [|lra]. unfold Rdiv at 1.
    rewrite Rmult_assoc, Rinv_l by lra. lra.
Qed.
(** Only the walls which contain the position get a relative reference point. *)
Theorem C113_reset walls margin position l : update_relative walls margin position = Ok l ->
  length l = length walls /\
  forall i w, nth_error walls i = Some w ->
    ((nth_error l i = Some None <-> ~ (1 < w_gamma w position /\ w_boundary w = true)) /\
    ((1 < w_gamma w position /\ w_boundary w = true) <-> exists r, nth_error l i = Some (Some r))).
Proof.
  intros H. unfold update_relative in H.
  set (close := wall_indices _ _) in H. set (f := fun p : nat * wall => _) in H.
  assert (ML : forall A B (h : A -> res B) xs ys, mapM h xs = Ok ys -> length ys = length xs /\ forall i x, nth_error xs i = Some x -> exists y, nth_error ys i = Some y /\ h x = Ok y).
  { intros A B h. induction xs as [|x xs IH]; intros ys E; cbn [mapM] in E.
    - injection E as <-. split; auto. intros [|i] x F; discriminate.
    - destruct (h x) as [y|] eqn:Eh; [|discriminate]. cbn [bind] in E. destruct (mapM h xs) as [ys'|]; [|discriminate]. injection E as <-.
      destruct (IH ys' eq_refl) as [L N]. split; [cbn; lia|]. intros [|i] x' F; cbn [nth_error] in *; [injection F as <-; exists y; auto|auto]. }
  destruct (ML _ _ _ _ _ H) as [L N]. rewrite combine_length, seq_length, Nat.min_id in L. split; auto. intros i w E.
  assert (C : nth_error (combine (seq 0 (length walls)) walls) i = Some (i, w)).
  { assert (K : (i < length walls)%nat) by (apply nth_error_Some; congruence).
    rewrite (nth_error_nth' _ (0%nat, w)) by (rewrite combine_length, seq_length; lia).
    rewrite combine_nth by apply seq_length. rewrite seq_nth by auto. f_equal. f_equal. apply nth_error_nth. auto. }
  destruct (N _ _ C) as (y & Y & F). unfold f in F. cbn [fst snd] in F. rewrite Y.
  destruct (Rltb 1 (w_gamma w position) && w_boundary w) eqn:T.
  - apply andb_true_iff in T as [T1 T2]. apply Rltb_true in T1. destruct (relative_reference _ _ _ _ _) as [r|]; [|discriminate]. cbn [bind] in F. injection F as <-.
    split; [split; [discriminate|intros X; destruct X; auto]|]. split; [intros _; exists r; auto|auto].
  - injection F as <-. assert (X : ~ (1 < w_gamma w position /\ w_boundary w = true)).
    { intros [X1 X2]. apply Rltb_true in X1. rewrite X1, X2 in T. discriminate. }
    split; [split; auto|]. split; [intros Z; destruct (X Z)|intros [r R]; discriminate].
Qed.
Example C113_reset_example : exists r, update_relative [ex_wall 0 1; ex_wall 9 1] (/ 1000000) [0.5] = Ok [Some r; None].
Proof.
  destruct ex_distances as [E1 E2].
  assert (G : forall c r, w_gamma (ex_wall c r) [0.5] = r / Rabs (0.5 - c)) by auto.
  unfold update_relative, wall_indices. cbn [length seq filter nth_error combine mapM fst snd]. rewrite !G.
  rewrite (Rabs_right (0.5 - 0)), (Rabs_left (0.5 - 9)) by lra. cbn [ex_wall w_boundary].
  replace (0.5 - 0) with (/ 2) by lra. replace (- (0.5 - 9)) with (17 / 2) by lra.
  replace (1 / / 2) with 2 by field. replace (1 / (17 / 2)) with (2 / 17) by field.
  rewrite (proj2 (Rltb_true (/ 1000000) _)), (proj2 (Rltb_true (/ 1000000) (2 / 17))), (proj2 (Rltb_true 1 _)), (proj2 (Rltb_false 1 (2 / 17))) by lra.
  cbn [andb bind].
  destruct (C113_relative [ex_wall 0 1; ex_wall 9 1] [0; 1]%nat [0.5] 0 (ex_wall 0 1)) as (t & ref & g & A & _); auto.
  - rewrite E1, E2. lra.
  - left. auto.
  - intros j [<-|[<-|[]]]; cbn; lia.
  - exists (ref, g). change (mkWall [0] [0] true (fun p => 1 / Rabs (nth 0 p 0 - 0)) (fun p => if Rltb (nth 0 p 0) 0 then [0 - 1] else [0 + 1])) with (ex_wall 0 1).
    change (mkWall [9] [9] true (fun p => 1 / Rabs (nth 0 p 0 - 9)) (fun p => if Rltb (nth 0 p 0) 9 then [9 - 1] else [9 + 1])) with (ex_wall 9 1).
    rewrite A. auto.
Qed.

(** * C114: weights and radius of the hulls *)
Theorem C114_weights gammas power :
  (forall x, In x (hull_gamma_weights gammas power) -> 0 <= x) /\
  length (hull_gamma_weights gammas power) = length gammas /\
  (rsum (hull_gamma_weights gammas power) = 1 <-> exists g, In g gammas /\ 1 < g) /\
  ((forall g, In g gammas -> g <= 1) -> forall x, In x (hull_gamma_weights gammas power) -> x = 0) /\
  (forall i g, nth_error gammas i = Some g -> g <= 1 -> nth_error (hull_gamma_weights gammas power) i = Some 0).
Proof.
  set (ws := map (fun g => Rmax (g - 1) 0) gammas).
  assert (P : forall x, In x ws -> 0 <= x) by (intros x H; apply in_map_iff in H as (g & <- & _); apply Rmax_r).
  pose proof (rsum_nonneg ws P) as SN.
  assert (Z : rsum ws = 0 <-> forall g, In g gammas -> g <= 1).
  { split.
    - intros E g H. assert (I : In (Rmax (g - 1) 0) ws) by (apply (in_map (fun g => Rmax (g - 1) 0)); auto).
      pose proof (rsum_ge_elem ws _ P I). pose proof (Rmax_l (g - 1) 0). lra.
    - intros H. apply Rle_antisym; auto. apply (Rle_trans _ (INR (length gammas) * 0)); [|lra]. rewrite <- rsum_map_const.
      apply rsum_le. intros g Hg. rewrite Rmax_right; [lra|]. specialize (H g Hg). lra. }
  assert (X : (exists g, In g gammas /\ 1 < g) <-> rsum ws <> 0).
  { rewrite Z. split; [intros (g & A & B) H; specialize (H g A); lra|]. intros H.
    assert (forall l, ~ (forall g, In g l -> g <= 1) -> exists g, In g l /\ 1 < g) as K; [|apply K; auto].
    induction l as [|a l IH]; intros N; [destruct N; intros g []|]. destruct (Rle_lt_dec a 1).
    - destruct IH as (g & A & B); [|exists g; split; auto; right; auto]. intros F. apply N. intros g [<-|G]; auto.
    - exists a. split; [left|]; auto. }
  unfold hull_gamma_weights. fold ws. destruct (Req_EM_T (rsum ws) 0) as [E|E].
  - split; auto. split; [unfold ws; apply map_length|]. split; [rewrite X; split; [lra|intros N; lra]|]. split.
    + intros _ x H. pose proof (rsum_ge_elem ws x P H). specialize (P x H). lra.
    + intros i g G L. unfold ws. rewrite nth_error_map, G. cbn. f_equal. apply Rmax_right. lra.
  - assert (S0 : 0 < rsum ws) by lra. assert (I0 : 0 < / rsum ws) by (apply Rinv_0_lt_compat; auto). split; [|split; [|split; [|split]]].
    + intros x H. apply in_map_iff in H as (y & <- & Y). unfold Rdiv. apply Rmult_le_pos; [auto|lra].
    + unfold ws. rewrite !map_length. auto.
    + rewrite X. split; auto. intros _. rewrite (rsum_map_div (rsum ws) (fun w => w)), map_id. field. auto.
    + intros H. destruct E. apply Z. auto.
    + intros i g G L. unfold ws at 2. rewrite !nth_error_map, G. cbn. f_equal. rewrite Rmax_right by lra. unfold Rdiv. ring.
Qed.
Example C114_weights_example : hull_gamma_weights [3; 0.5; 2] 7 = [2/3; 0; 1/3].
Proof.
  unfold hull_gamma_weights. cbn [map]. rewrite (Rmax_left (3 - 1)), (Rmax_right (0.5 - 1)), (Rmax_left (2 - 1)) by lra. cbn [rsum fold_right].
  destruct (Req_EM_T _ _); [lra|]. cbn [map]. replace (3 - 1 + (0 + (2 - 1 + 0))) with 3 by lra. coords.
Qed.

(** The weight of one intersection point and one other hull. *)
Lemma intersection_weight_ok a b center position q gamma w : 0 <= a -> 0 < b -> 0 <= w ->
  exists w', intersection_weight a b center position (Some q) gamma w = Ok w' /\ 0 <= w' <= w /\
    (gamma <= 1 -> w' = w) /\
    (1 < gamma -> norm (vsub position center) <> 0 -> norm (vsub q center) <> 0 ->
      dot (vsub position center) (vsub q center) = norm (vsub position center) * norm (vsub q center) -> w' = 0) /\
    (0 < a -> 0 < w -> dot (vsub position center) (vsub q center) <> norm (vsub position center) * norm (vsub q center) -> 0 < w').
Proof.
  intros Ha Hb Hw. unfold intersection_weight. destruct (Rleb gamma 1) eqn:E.
  - apply Rleb_true in E. exists w. split; auto. split; [lra|]. split; auto. split; [lra|auto].
  - apply Rleb_false in E. set (u := vsub position center). set (v := vsub q center).
    pose proof (norm_nonneg u) as Nu. pose proof (norm_nonneg v) as Nv.
    destruct (Req_EM_T (norm u * norm v) 0) as [Z|Z].
    + exists w. split; auto. split; [lra|]. split; auto. split; auto. intros _ A B _. exfalso. apply Rmult_integral in Z. intuition.
    + pose proof (dot_le_norms u v) as C. assert (N : 0 < norm u * norm v) by (pose proof (Rmult_le_pos _ _ Nu Nv); lra).
      set (x := 1 - dot u v / (norm u * norm v)).
      assert (Hx : x * (norm u * norm v) = norm u * norm v - dot u v) by (unfold x; field; intuition; subst; lra).
      assert (Px : 0 <= x) by nra. assert (Pa : 0 <= x * a) by nra. assert (Pg : 0 < (gamma - 1) * b) by nra.
      destruct (Req_EM_T (x * a + (gamma - 1) * b) 0); [lra|].
      eexists. split; [reflexivity|].
      assert (I : 0 < / (x * a + (gamma - 1) * b)) by (apply Rinv_0_lt_compat; lra).
      split; [|split; [lra|split]].
      * split; [|apply Rmin_l]. apply Rmin_glb; auto. unfold Rdiv. nra.
      * intros _ _ _ D. assert (x = 0) by nra. rewrite H. unfold Rdiv. rewrite !Rmult_0_l. apply Rmin_right. auto.
      * intros Pa' Pw D. assert (0 < x). { destruct (Rle_lt_or_eq_dec 0 x Px) as [|X0]; auto. exfalso. apply D. rewrite <- X0 in Hx. lra. }
        apply Rmin_glb_lt; auto. unfold Rdiv. apply Rmult_lt_0_compat; auto. nra.
Qed.
(** The fold over the hulls: never increasing. *)
Lemma fold_weights {A} (f : R -> A -> res R) l : (forall a w, In a l -> 0 <= w -> exists w', f w a = Ok w' /\ 0 <= w' <= w) ->
  forall w, 0 <= w -> exists w', foldM f w l = Ok w' /\ 0 <= w' <= w.
Proof.
  induction l as [|a l IH]; intros H w Hw; cbn [foldM]; [exists w; split; auto; lra|].
  destruct (H a w (or_introl eq_refl) Hw) as (w1 & E1 & B1). rewrite E1. cbn [bind].
  destruct (IH (fun b v I => H b v (or_intror I)) w1 (proj1 B1)) as (w2 & E2 & B2). exists w2. split; auto. lra.
Qed.
Lemma fold_zero {A} (f : R -> A -> res R) l a : (forall a w, In a l -> 0 <= w -> exists w', f w a = Ok w' /\ 0 <= w' <= w) ->
  In a l -> (forall w w', 0 <= w -> f w a = Ok w' -> w' = 0) -> forall w w', 0 <= w -> foldM f w l = Ok w' -> w' = 0.
Proof.
  induction l as [|b l IH]; intros H I Z w w' Hw E; [destruct I|]. cbn [foldM] in E.
  destruct (H b w (or_introl eq_refl) Hw) as (w1 & E1 & B1). rewrite E1 in E. cbn [bind] in E. destruct I as [->|I].
  - rewrite (Z w w1 Hw E1) in E. destruct (fold_weights f l (fun b v I => H b v (or_intror I)) 0 (Rle_refl 0)) as (w2 & E2 & B2).
    rewrite E in E2. injection E2 as ->. lra.
  - apply (IH (fun b v I => H b v (or_intror I)) I Z w1 w' (proj1 B1) E).
Qed.
Lemma fold_positive {A} (f : R -> A -> res R) l : (forall a w, In a l -> 0 < w -> exists w', f w a = Ok w' /\ 0 < w') ->
  forall w w', 0 < w -> foldM f w l = Ok w' -> 0 < w'.
Proof.
  induction l as [|a l IH]; intros H w w' Hw E; cbn [foldM] in E; [injection E as <-; auto|].
  destruct (H a w (or_introl eq_refl) Hw) as (w1 & E1 & B1). rewrite E1 in E. cbn [bind] in E.
  apply (IH (fun b v I => H b v (or_intror I)) w1 w' B1 E).
Qed.
(** The desired radius is at most pi 2^-gamma, so less than a right angle within the hull.  It
    is zero at a position whose direction from the center is exactly the direction of an intersection point, when another hull covers the
    surface there, and positive when no intersection point is in this direction. *)
Theorem C114_radius a b center position gamma points others :
  0 <= a -> 0 < b -> (forall q, In q points -> q <> None) ->
  exists r, desired_radius a b center position gamma points others = Ok r /\
    0 <= r <= PI * Rpower 2 (- gamma) /\ (1 < gamma -> r < PI / 2) /\
    ((forall o, In o others -> o <= 1) -> r = PI * Rpower 2 (- gamma)) /\
    (forall q o, In (Some q) points -> In o others -> 1 < o -> norm (vsub position center) <> 0 -> norm (vsub q center) <> 0 ->
      dot (vsub position center) (vsub q center) = norm (vsub position center) * norm (vsub q center) -> r = 0) /\
    (0 < a -> (forall q, In (Some q) points ->
      dot (vsub position center) (vsub q center) <> norm (vsub position center) * norm (vsub q center)) -> 0 < r).
Proof.
  intros Ha Hb HP. unfold desired_radius.
  set (inner := fun q w g => intersection_weight a b center position q g w).
  assert (HI : forall q, In q points -> forall g w, In g others -> 0 <= w -> exists w', inner q w g = Ok w' /\ 0 <= w' <= w).
  { intros [q|] Hq g w _ Hw; [|destruct (HP None Hq); auto]. unfold inner.
    destruct (intersection_weight_ok a b center position q g w Ha Hb Hw) as (w' & A & B & _). exists w'. auto. }
  assert (HO : forall q w, In q points -> 0 <= w -> exists w', foldM (inner q) w others = Ok w' /\ 0 <= w' <= w)
    by (intros q w Hq Hw; apply fold_weights; auto).
  destruct (fold_weights (fun w q => foldM (inner q) w others) points HO 1 ltac:(lra)) as (w & Ew & Bw).
  pose proof (Rpower_pos 2 (- gamma)) as P. pose proof PI_RGT_0 as PP.
  change (foldM (fun w q => foldM (fun w g => intersection_weight a b center position q g w) w others) 1 points) with (foldM (fun w q => foldM (inner q) w others) 1 points).
  rewrite Ew. cbn [bind]. eexists. split; [reflexivity|].
  assert (B0 : 0 < PI * Rpower 2 (- gamma)) by nra. split; [split; nra|]. split; [|split; [|split]].
  - intros G. assert (Rpower 2 (- gamma) < / 2); [|nra].
    replace (/ 2) with (Rpower 2 (- (1))) by (rewrite Rpower_Ropp, Rpower_1 by lra; auto). apply Rpower_lt; lra.
  - intros HN. assert (w = 1); [|subst; ring].
    assert (F1 : forall q l w, In q points -> 0 <= w -> (forall o, In o l -> o <= 1) -> foldM (inner q) w l = Ok w).
    { intros q l. induction l as [|g l IH]; intros v Hq Hv HL; auto. cbn [foldM]. destruct q as [q|]; [|destruct (HP None Hq); auto].
      unfold inner at 1. destruct (intersection_weight_ok a b center position q g v Ha Hb Hv) as (w' & A & _ & B & _). rewrite A, B by (apply HL; left; auto).
      cbn [bind]. apply IH; auto. intros o Ho. apply HL. right. auto. }
    assert (F2 : forall l, incl l points -> foldM (fun w q => foldM (inner q) w others) 1 l = Ok 1).
    { induction l as [|q l IH]; intros HL; auto. cbn [foldM]. rewrite F1; [|apply HL; left; auto|lra|auto]. cbn [bind]. apply IH. intros x Hx. apply HL. right. auto. }
    rewrite (F2 points (incl_refl _)) in Ew. injection Ew as <-. auto.
  - intros q o Hq Ho H1 N1 N2 D. assert (w = 0); [|subst; ring].
    apply (fold_zero (fun w q => foldM (inner q) w others) points (Some q) HO Hq) with (w := 1); auto; [|lra].
    intros v v' Hv E. apply (fold_zero (inner (Some q)) others o (HI (Some q) Hq) Ho) with (w := v); auto.
    intros x x' Hx X. unfold inner in X. destruct (intersection_weight_ok a b center position q o x Ha Hb Hx) as (w' & A & _ & _ & B & _).
    rewrite X in A. injection A as ->. auto.
  - intros Pa HD. enough (0 < w) by nra.
    apply (fold_positive (fun w q => foldM (inner q) w others) points) with (w := 1); auto; [|lra].
    intros q v Hq Hv. destruct (HO q v Hq ltac:(lra)) as (v' & E & _). exists v'. split; auto.
    apply (fold_positive (inner q) others) with (w := v); auto. intros g x Hg Hx. destruct q as [q|]; [|destruct (HP None Hq); auto].
    unfold inner. destruct (intersection_weight_ok a b center position q g x Ha Hb ltac:(lra)) as (w' & A & _ & _ & _ & B).
    exists w'. split; auto.
Qed.
Example C114_radius_example : desired_radius 1 1 [0; 0] [1; 0] 2 [Some [2; 0]] [0.5; 3] = Ok 0 /\
  exists r, desired_radius 1 1 [0; 0] [1; 0] 2 [Some [0; 2]] [0.5; 3] = Ok r /\ 0 < r < PI / 2.
Proof.
  assert (S1 : forall a, 0 <= a -> norm [a; 0] = a) by (intros a Ha; unfold norm; cbn; transitivity (sqrt (a * a)); [f_equal; ring|apply sqrt_square; auto]).
  assert (E1 : vsub [1; 0] [0; 0] = [1; 0]) by (unfold vsub; cbn; coords).
  assert (E2 : vsub [2; 0] [0; 0] = [2; 0]) by (unfold vsub; cbn; coords).
  assert (E3 : vsub [0; 2] [0; 0] = [0; 2]) by (unfold vsub; cbn; coords).
  split.
  - destruct (C114_radius 1 1 [0; 0] [1; 0] 2 [Some [2; 0]] [0.5; 3] ltac:(lra) ltac:(lra)) as (r & A & _ & _ & _ & B & _).
    { intros q [<-|[]]. discriminate. }
    rewrite A. f_equal. apply (B [2; 0] 3); [left; auto|right; left; auto|lra| | |]; rewrite ?E1, ?E2, ?S1 by lra; try lra. cbn. lra.
  - destruct (C114_radius 1 1 [0; 0] [1; 0] 2 [Some [0; 2]] [0.5; 3] ltac:(lra) ltac:(lra)) as (r & A & _ & B & _ & _ & C).
    { intros q [<-|[]]. discriminate. }
    exists r. split; auto. split; [apply C; [lra|]|apply B; lra]. intros q [E|[]]. injection E as <-.
    rewrite E1, E3, S1 by lra. replace (dot [1; 0] [0; 2]) with 0 by (cbn; ring). intros F.
    assert (0 < norm [0; 2]) by (unfold norm; apply sqrt_lt_R0; cbn; lra). lra.
Qed.
(** An intersection point which was never set raises, as soon as another hull covers the surface. *)
Theorem C114_unset_point_refuted : exists center position gamma,
  forall points others, desired_radius 1 1 center position gamma (None :: points) (2 :: others) = Err EType.
Proof.
  exists [0; 0], [1; 0], 2. intros points others. unfold desired_radius. cbn [foldM]. unfold intersection_weight at 1.
  rewrite (proj2 (Rleb_false 2 1)) by lra. auto.
Qed.
(** The attraction of the hulls fails at each position which is within a hull: the summing has no argument with this name. *)
Theorem C114_attraction_refuted velocity gammas low high evaluation :
  (exists g, In g gammas /\ low < g < high) ->
  exists e, multihull_attraction velocity gammas low high evaluation = Err e.
Proof.
  intros (g & G & B). unfold multihull_attraction. destruct gammas as [|g0 gs]; [destruct G|].
  destruct (In_nth _ _ 0 G) as (i & Hi & Ei).
  assert (I : In i (filter (fun i => Rltb (nth i (g0 :: gs) 0) high && Rltb low (nth i (g0 :: gs) 0)) (seq 0 (length (g0 :: gs))))).
  { apply filter_In. split; [apply in_seq; lia|]. rewrite Ei. apply andb_true_iff. split; apply Rltb_true; lra. }
  destruct (filter _ _) as [|j t]; [destruct I|]. destruct (evaluation j) as [u|e]; eexists; reflexivity.
Qed.
Theorem C114_attraction_outside velocity gammas low high evaluation :
  (forall g, In g gammas -> g <= low \/ high <= g) -> multihull_attraction velocity gammas low high evaluation = Ok velocity.
Proof.
  intros H. unfold multihull_attraction. destruct gammas as [|g0 gs]; auto.
  destruct (filter _ _) as [|j t] eqn:E; auto. assert (I : In j (j :: t)) by (left; auto). rewrite <- E in I.
  apply filter_In in I as [I1 I2]. apply in_seq in I1. apply andb_true_iff in I2 as [A B]. apply Rltb_true in A, B.
  destruct (H (nth j (g0 :: gs) 0)) as [K|K]; [apply nth_In; lia|lra|lra].
Qed.
Print Assumptions C112_parent.
Print Assumptions C112_root_refuted.
Print Assumptions C113_relative.
Print Assumptions C113_passage.
Print Assumptions C113_reference_refuted.
Print Assumptions C113_reset.
Print Assumptions C114_weights.
Print Assumptions C114_radius.
Print Assumptions C114_unset_point_refuted.
Print Assumptions C114_attraction_refuted.
Print Assumptions C114_attraction_outside.
