(** C91, C93 (refutations), C94-C96: entrances, intersection weight, the U-shaped obstacle and the
    container of multi_hull_and_obstacle.py. *)
Require Import Reals List Bool Arith Lia Lra Psatz.
From Verif Require Import Base Vec Pow RotModel RotAvoidModel HullModel HullProofs PropHull PropHullRoute PropHullCases Spec.
Import ListNotations.
Open Scope R_scope.

(** ** Two rooms with an entrance each *)
Definition roof : region := mkReg [3 / 2; 5] [1; 1] (fun x => nth 1 x 0) (fun _ => [0; 1]) (fun _ => [0; 1]) (fun x => x).
Definition hatch (g _ : region) : vec := vadd (rg_center g) [0; 3 / 2].
Definition pair : hull := new_hull [room_at 0; room_at 3] roof (fun x => x) (fun x => x).
Definition pair_edges : list edge :=
  [mkEdge (Gate 0) (Hull 0) (norm (vsub (hatch (room_at 0) roof) [0; 0])) (hatch (room_at 0) roof);
   mkEdge (Gate 1) (Hull 1) (norm (vsub (hatch (room_at 3) roof) [3; 0])) (hatch (room_at 3) roof);
   mkEdge (Hull 0) (Hull 1) (norm (vsub [0; 0] (middle (room_at 0) (room_at 3))) + norm (vsub [3; 0] (middle (room_at 0) (room_at 3)))) (middle (room_at 0) (room_at 3))].
Definition pair_state : hull :=
  mkHull [room_at 0; room_at 3] roof (fun x => x) (fun x => x) (Some pair_edges) [(None, false); (None, false)] (Some [3; 4]) true 2.
Lemma hatch_at cx : hatch (room_at cx) roof = [cx; 3 / 2].
Proof. unfold hatch. cbn. f_equal; [ring|f_equal; ring]. Qed.
Lemma middle_at a b : middle (room_at a) (room_at b) = [(a + b) / 2; 0].
Proof. unfold middle, vscale. cbn. f_equal; [field|f_equal; field]. Qed.
Lemma pair_graph : evaluate_hierarchy hatch middle pair =
  mkHull [room_at 0; room_at 3] roof (fun x => x) (fun x => x) (Some pair_edges) [] None false 2.
Proof.
  assert (SK : forall cx, Rltb (norm (vsub (rg_center (room_at cx)) (rg_center roof))) (axes_min roof - axes_max (room_at cx)) = false).
  { intros cx. apply Rltb_false. pose proof (norm_nonneg (vsub (rg_center (room_at cx)) (rg_center roof))).
    unfold axes_min, axes_max. cbn [rg_axes room_at roof fold_right hd tl]. rewrite (Rmin_left 1 1), (Rmax_left 2 2) by lra. lra. }
  assert (FAR : Rltb (axes_max (room_at 0) + axes_max (room_at 3)) (norm (vsub (rg_center (room_at 0)) (rg_center (room_at 3)))) = false).
  { apply Rltb_false. unfold axes_max. cbn [rg_axes room_at fold_right hd tl rg_center]. rewrite (Rmax_left 2 2) by lra.
    replace (vsub [0; 0] [3; 0]) with [-3; 0] by (unfold vsub, vscale; cbn; f_equal; [ring|f_equal; ring]).
    rewrite norm_axis_x, Rabs_left; lra. }
  unfold evaluate_hierarchy, pair, new_hull. cbn [hl_inner hl_outer hl_to hl_dir_to hl_out hl_isout].
  cbn [gates_from links_from links_with app]. rewrite !SK, !FAR. unfold reg_inside.
  replace (Rleb (rg_gamma (room_at 0) (hatch (room_at 0) roof)) 1) with false
    by (symmetry; apply Rleb_false; rewrite hatch_at, room_gamma; lra).
  replace (Rleb (rg_gamma (room_at 3) (hatch (room_at 3) roof)) 1) with false
    by (symmetry; apply Rleb_false; rewrite hatch_at, room_gamma; lra).
  replace (Rleb (rg_gamma (room_at 0) (middle (room_at 0) (room_at 3))) 1) with false
    by (symmetry; apply Rleb_false; rewrite middle_at, room_gamma; lra).
  replace (Rleb (rg_gamma (room_at 3) (middle (room_at 0) (room_at 3))) 1) with false
    by (symmetry; apply Rleb_false; rewrite middle_at, room_gamma; lra).
  reflexivity.
Qed.
Lemma pair_set : set_attractor (evaluate_hierarchy hatch middle pair) [3; 4] false = (pair_state, Ok tt).
Proof.
  rewrite pair_graph. unfold set_attractor. cbn [hl_outer hl_inner hl_graph map]. unfold reg_inside. rewrite !room_gamma.
  cbn [rg_gamma roof nth].
  rewrite (proj2 (Rleb_false 4 1)) by lra.
  rewrite (proj2 (Rleb_true (5 - ((3 - 0) * (3 - 0) + 4 * 4)) 1)) by lra.
  rewrite (proj2 (Rleb_true (5 - ((3 - 3) * (3 - 3) + 4 * 4)) 1)) by lra.
  reflexivity.
Qed.
Definition pair_adj (a b : hnode) : bool :=
  match a, b with
  | Gate 0, Hull 0 | Hull 0, Gate 0 | Gate 1, Hull 1 | Hull 1, Gate 1 | Hull 0, Hull 1 | Hull 1, Hull 0 => true
  | _, _ => false
  end.
Lemma pair_steps path : walk pair_edges path -> steps pair_adj path = true.
Proof. apply walk_steps. intros e [<-|[<-|[<-|[]]]]; auto. Qed.
Lemma pair_out path : route pair_edges (Hull 1) (Gate 1) path -> path = [Hull 1; Gate 1].
Proof.
  intros (H1 & H2 & H3 & H4). apply pair_steps in H4.
  destruct path as [|x [|y [|z [|w rest]]]]; cbn [hd_error] in H1; try discriminate; assert (x = Hull 1) by congruence; subst x;
    try discriminate.
  - next y. auto.
  - next y; next z; dup.
  - next y; next z; try dup; next w; dup.
Qed.
Lemma pair_around path : route pair_edges (Hull 1) (Gate 0) path -> path = [Hull 1; Hull 0; Gate 0].
Proof.
  intros (H1 & H2 & H3 & H4). apply pair_steps in H4.
  destruct path as [|x [|y [|z [|w rest]]]]; cbn [hd_error] in H1; try discriminate; assert (x = Hull 1) by congruence; subst x;
    try discriminate.
  - next y.
  - next y; next z; auto; dup.
  - next y; next z; try dup; next w; dup.
Qed.
Lemma pair_routes : route pair_edges (Hull 1) (Gate 1) [Hull 1; Gate 1] /\ route pair_edges (Hull 1) (Gate 0) [Hull 1; Hull 0; Gate 0].
Proof.
  assert (E1 : exists e, In e pair_edges /\ joins e (Hull 1) (Gate 1)) by (eexists; split; [right; left; reflexivity|right; auto]).
  assert (E2 : exists e, In e pair_edges /\ joins e (Hull 1) (Hull 0)) by (eexists; split; [right; right; left; reflexivity|right; auto]).
  assert (E3 : exists e, In e pair_edges /\ joins e (Hull 0) (Gate 0)) by (eexists; split; [left; reflexivity|right; auto]).
  split; (split; [auto|split; [auto|split]]).
  - repeat constructor; cbn; intuition congruence.
  - cbn [walk]. auto.
  - repeat constructor; cbn; intuition congruence.
  - cbn [walk]. auto.
Qed.

Section Nx.
Variable sp_dist : list edge -> hnode -> hnode -> option R.
Variable sp_path : list edge -> hnode -> hnode -> option (list hnode).
Variable orth1 : vec -> vec.
Hypothesis NX : networkx sp_dist sp_path.

(** C91 refuted: the way out through any entrance but the first raises a KeyError, since entrances
    are looked up as number 0 in the graph. *)
Theorem C91_gates_refuted : forall dim, exists h0 a h1 es x,
  set_attractor (evaluate_hierarchy hatch middle h0) a false = (h1, Ok tt) /\ hl_graph h1 = Some es /\
  (forall j g, nth_error (all_regions h0) j = Some g -> (1 < rg_gamma g a <-> j = 2%nat)) /\
  route es (Hull 1) (Gate 1) [Hull 1; Gate 1] /\ hull_is_inside h1 x = false /\
  snd (evaluate_local sp_dist sp_path orth1 dim h1 x) = Err EKey.
Proof.
  intros dim. exists pair, [3; 4], pair_state, pair_edges, [3; 0].
  split; [apply pair_set|]. split; auto. split; [|split; [apply pair_routes|split]].
  - intros [|[|[|j]]] g E; cbn in E; try (destruct j; discriminate).
    + assert (g = room_at 0) by congruence. subst g. rewrite room_gamma. split; intros; [lra|lia].
    + assert (g = room_at 3) by congruence. subst g. rewrite room_gamma. split; intros; [lra|lia].
    + assert (g = roof) by congruence. subst g. cbn. split; intros; [auto|lra].
  - apply not_true_iff_false. intros F. pose proof (proj1 (inside_iff _ _) F (room_at 3)) as Q. rewrite room_gamma in Q.
    assert (5 - ((3 - 3) * (3 - 3) + 0 * 0) <= 1) by (apply Q; right; left; auto). lra.
  - destruct (evaluate_state sp_dist sp_path orth1 dim pair_state [3; 0] 1 (room_at 3)) as [_ E]; auto.
    + rewrite room_gamma. lra.
    + intros [|[|[|j]]] g Ej N; cbn in Ej; try (destruct j; discriminate); try congruence.
      * assert (g = room_at 0) by congruence. subst g. rewrite room_gamma. lra.
      * assert (g = roof) by congruence. subst g. cbn. lra.
    + apply E. clear E.
      pose proof (nx_unique sp_dist sp_path NX pair_edges (Hull 1) (Gate 1) _ (proj1 pair_routes) pair_out) as P1.
      pose proof (nx_unique sp_dist sp_path NX pair_edges (Hull 1) (Gate 0) _ (proj2 pair_routes) pair_around) as P0.
      pose proof (proj2 (proj1 NX _ _ _ _ P1)) as D1. pose proof (proj2 (proj1 NX _ _ _ _ P0)) as D0.
      unfold update_path. cbn [edges_of pair_state hl_graph containing hl_attr hl_inner length Nat.eqb seq combine filter snd map fst gate_candidates hl_isout hl_gates mapM app].
      unfold bind. change (gate_point pair_edges 0) with (@Ok vec (hatch (room_at 0) roof)).
      change (gate_point pair_edges 1) with (@Ok vec (hatch (room_at 3) roof)). cbn [hl_out pair_state]. rewrite D0, D1.
      set (d0 := path_len pair_edges [Hull 1; Hull 0; Gate 0] + _). set (d1 := path_len pair_edges [Hull 1; Gate 1] + _).
      cbn [map app fst snd cand_argmin forallb argmin argmin_from].
      assert (LT : d1 < d0).
      { unfold d0, d1. cbn [path_len find_edge find pair_edges e_fst e_snd hnode_eqb Nat.eqb andb orb e_dist].
        rewrite !hatch_at, middle_at.
        replace (vsub [3; 3 / 2] [3; 4]) with [0; -5 / 2] by (unfold vsub, vscale; cbn; f_equal; [field|f_equal; field]).
        replace (vsub [3; 3 / 2] [3; 0]) with [0; 3 / 2] by (unfold vsub, vscale; cbn; f_equal; [field|f_equal; field]).
        replace (vsub [0; 3 / 2] [0; 0]) with [0; 3 / 2] by (unfold vsub, vscale; cbn; f_equal; [field|f_equal; field]).
        replace (vsub [0; 0] [(0 + 3) / 2; 0]) with [-3 / 2; 0] by (unfold vsub, vscale; cbn; f_equal; [field|f_equal; field]).
        replace (vsub [3; 0] [(0 + 3) / 2; 0]) with [3 / 2; 0] by (unfold vsub, vscale; cbn; f_equal; [field|f_equal; field]).
        assert (NY : norm [0; -5 / 2] = 5 / 2).
        { unfold norm. replace (dot [0; -5 / 2] [0; -5 / 2]) with ((5 / 2) * (5 / 2)) by (cbn; field). apply sqrt_square. lra. }
        rewrite NY, norm_axis_y, !norm_axis_x by lra. rewrite Rabs_left, Rabs_pos_eq by lra.
        pose proof (norm_nonneg (vsub [0; 3 / 2] [3; 4])). lra. }
      rewrite (proj2 (Rltb_true d1 d0)) by auto. cbn [andb nth_error]. rewrite P1. reflexivity.
Qed.
End Nx.

(** ** A closed room *)
Definition closed_room : region := mkReg [3; 0] [2; 2] (fun x => 2 - dot (vsub x [3; 0]) (vsub x [3; 0])) (fun x => x) (fun x => x) (fun x => x).
Definition long_wall : region := mkReg [0; 0] [10; 4] (fun x => nth 0 x 0 * nth 0 x 0 / 25 + nth 1 x 0 * nth 1 x 0 / 4) (fun x => x) (fun x => x) (fun x => x).
(** C93 refuted: a room without opening gets an entrance in the wall, for any point of the room
    the search returns (the hull is checked twice, the outer obstacle never). *)
Theorem C93_gate_refuted : exists h,
  (forall g p, In g (hl_inner h) -> length p = 2%nat -> 1 < rg_gamma g p -> rg_gamma (hl_outer h) p <= 1) /\
  forall meet_outer meet, (forall g, In g (hl_inner h) -> length (meet_outer g (hl_outer h)) = 2%nat /\ 1 < rg_gamma g (meet_outer g (hl_outer h))) ->
  exists es e, hl_graph (evaluate_hierarchy meet_outer meet h) = Some es /\ In e es /\ e_fst e = Gate 0 /\
    rg_gamma (hl_outer h) (e_point e) <= 1.
Proof.
  exists (new_hull [closed_room] long_wall (fun x => x) (fun x => x)). cbn [new_hull hl_inner hl_outer].
  assert (CL : forall g p, In g [closed_room] -> length p = 2%nat -> 1 < rg_gamma g p -> rg_gamma long_wall p <= 1).
  { intros g p [<-|[]] L G. destruct p as [|x [|y [|z p]]]; try discriminate. 
    assert (E : rg_gamma closed_room [x; y] = 2 - ((x - 3) * (x - 3) + y * y)) by (cbn; unfold vsub, vscale; cbn; ring).
    rewrite E in G. cbn [rg_gamma long_wall nth]. assert (0 <= (x - 25 / 7) * (x - 25 / 7)) by apply Rle_0_sqr. lra. }
  split; auto. intros mo me H. destruct (H closed_room) as [L G]; [left; auto|].
  eexists. eexists. split; [reflexivity|]. cbn [gates_from new_hull hl_inner hl_outer].
  assert (SK : Rltb (norm (vsub (rg_center closed_room) (rg_center long_wall))) (axes_min long_wall - axes_max closed_room) = false).
  { apply Rltb_false. unfold axes_min, axes_max. cbn [rg_axes closed_room long_wall fold_right hd tl rg_center].
    rewrite (Rmin_left 4 10), (Rmax_left 2 2) by lra.
    replace (vsub [3; 0] [0; 0]) with [3; 0] by (unfold vsub, vscale; cbn; f_equal; [ring|f_equal; ring]).
    rewrite norm_axis_x, Rabs_pos_eq; lra. }
  rewrite SK. unfold reg_inside. rewrite (proj2 (Rleb_false _ 1) G). split; [left; reflexivity|]. split; auto.
  cbn [e_point]. apply (CL closed_room); [left; auto|auto|auto].
Qed.
Example C93_case : hl_graph (evaluate_hierarchy doorway middle rooms) = Some rooms_edges /\
  hl_gates (evaluate_hierarchy doorway middle rooms) = 1%nat /\
  1 < rg_gamma (room_at 3) (doorway (room_at 3) dome) /\ 1 < rg_gamma dome (doorway (room_at 3) dome).
Proof.
  rewrite rooms_graph. split; auto. split; auto. unfold doorway. cbn [rg_center room_at nth].
  rewrite room_gamma, dome_gamma. lra.
Qed.

(** ** C94: weight of an intersection *)
Lemma exp_below t : t < 0 -> exp t < 1.
Proof. intros H. pose proof (exp_increasing t 0 H) as E. rewrite exp_0 in E. auto. Qed.
Lemma ln_below t : 0 < t < 1 -> ln t < 0.
Proof. intros H. pose proof (ln_increasing t 1) as E. rewrite ln_1 in E. apply E; lra. Qed.
(** Between zero and one for a positive exponent; zero in the wall of the hull and outside of the
    outer obstacle; one where the projection on the outer obstacle is in the wall; in between it
    increases with the depth. *)
Theorem C94_weight : forall x inner outer power, 0 <= rg_gamma outer x -> 0 < power ->
  exists w, boundary_intersection_weight x inner outer power = Ok w /\ 0 <= w <= 1 /\
  (w = 0 <-> rg_gamma inner x <= 1 \/ 1 <= rg_gamma outer x) /\
  (1 < rg_gamma inner x -> rg_gamma outer x < 1 -> rg_gamma inner (rg_surface outer x) <= 1 -> w = 1) /\
  (1 < rg_gamma inner x -> 0 < rg_gamma outer x < 1 -> 1 < rg_gamma inner (rg_surface outer x) ->
    0 < w < 1 /\
    forall x' w', 1 < rg_gamma inner x' -> rg_surface outer x' = rg_surface outer x -> rg_gamma outer x < rg_gamma outer x' < 1 ->
      boundary_intersection_weight x' inner outer power = Ok w' -> w' < w).
Proof.
  intros x inner outer power GO PP. unfold boundary_intersection_weight.
  destruct (Rleb (rg_gamma inner x) 1 || Rleb 1 (rg_gamma outer x))%bool eqn:E.
  - assert (D : rg_gamma inner x <= 1 \/ 1 <= rg_gamma outer x).
    { apply orb_true_iff in E as [E|E]; apply Rleb_true in E; auto. }
    exists 0. split; auto. split; [lra|]. split; [tauto|]. split; intros; lra.
  - apply orb_false_iff in E as [E1 E2]. apply Rleb_false in E1. apply Rleb_false in E2.
    destruct (Rleb (rg_gamma inner (rg_surface outer x)) 1) eqn:E3.
    + exists 1. apply Rleb_true in E3. split; auto. split; [lra|]. split; [split; intros; lra|]. split; intros; [auto|lra].
    + apply Rleb_false in E3. set (q := rg_gamma inner (rg_surface outer x)) in *.
      assert (B : 0 < 1 / q < 1).
      { split; [apply Rdiv_lt_0_compat; lra|]. apply (Rmult_lt_reg_r q); [lra|]. unfold Rdiv. rewrite Rmult_assoc, Rinv_l by lra. lra. }
      assert (LN : ln (1 / q) < 0) by (apply ln_below; lra).
      rewrite fpow_pos by lra. exists (Rpower (1 / q) (rg_gamma outer x * power)). split; auto.
      assert (P0 : 0 < Rpower (1 / q) (rg_gamma outer x * power)) by apply exp_pos.
      assert (P1 : Rpower (1 / q) (rg_gamma outer x * power) <= 1).
      { unfold Rpower. destruct (Req_dec (rg_gamma outer x) 0) as [Z|Z].
        - rewrite Z, !Rmult_0_l, exp_0. lra.
        - left. apply exp_below. assert (0 < rg_gamma outer x * power) by nra. nra. }
      split; [lra|]. split; [split; intros; lra|]. split; [intros; lra|]. intros _ GP _.
      split.
      * split; auto. unfold Rpower. apply exp_below. assert (0 < rg_gamma outer x * power) by nra. nra.
      * intros x' w' G1 S1 G2 H. rewrite S1 in H. fold q in H.
        rewrite (proj2 (Rleb_false _ _) G1), (proj2 (Rleb_false 1 (rg_gamma outer x'))) in H by lra. cbn [orb] in H.
        rewrite (proj2 (Rleb_false q 1)) in H by lra. rewrite fpow_pos in H by lra.
        assert (w' = Rpower (1 / q) (rg_gamma outer x' * power)) by congruence. subst w'.
        unfold Rpower. apply exp_increasing. assert (rg_gamma outer x * power < rg_gamma outer x' * power) by nra. nra.
Qed.
(** C94 refuted: the weight jumps at the outer surface; on the way out it stays above one half,
    outside it is zero. *)
Theorem C94_jump_refuted : exists inner outer, (forall t, rg_gamma outer [0; t] = t) /\ (forall x, rg_surface outer x = [0; 1]) /\
  boundary_intersection_weight [0; 1] inner outer 1 = Ok 0 /\
  forall t, 0 < t < 1 -> exists w, boundary_intersection_weight [0; t] inner outer 1 = Ok w /\ 1 / 2 < w.
Proof.
  exists (mkReg [0; 0] [2; 2] (fun _ => 2) (fun x => x) (fun x => x) (fun x => x)),
         (mkReg [0; 0] [2; 2] (fun x => nth 1 x 0) (fun x => x) (fun x => x) (fun _ => [0; 1])).
  split; auto. split; auto. split.
  - unfold boundary_intersection_weight. cbn. rewrite (proj2 (Rleb_true 1 1)), orb_true_r by lra. auto.
  - intros t T. unfold boundary_intersection_weight. cbn.
    rewrite (proj2 (Rleb_false 2 1)), (proj2 (Rleb_false 1 t)) by lra. cbn [orb]. rewrite fpow_pos by lra.
    eexists. split; [reflexivity|]. rewrite <- (Rpower_1 (1 / 2)) at 1 by lra. unfold Rpower. apply exp_increasing.
    assert (ln (1 / 2) < 0) by (apply ln_below; lra). nra.
Qed.
Example C94_case : boundary_intersection_weight [0; 1 / 2] (mkReg [0; 0] [2; 2] (fun _ => 4) (fun x => x) (fun x => x) (fun x => x))
  (mkReg [0; 0] [2; 2] (fun x => nth 1 x 0) (fun x => x) (fun x => x) (fun _ => [0; 1])) 2 = Ok (1 / 4).
Proof.
  unfold boundary_intersection_weight. cbn.
  rewrite (proj2 (Rleb_false 4 1)), (proj2 (Rleb_false 1 (1 / 2))) by lra. cbn [orb]. rewrite fpow_pos by lra.
  replace (1 / 2 * 2) with 1 by field. rewrite Rpower_1 by lra. auto.
Qed.

(** ** C95: the U-shaped obstacle *)
(** A cuboid of the package: gamma is at most one exactly in the closed box; as a boundary it is
    larger than one exactly in the open box. *)
Definition is_cuboid (g : region) (c a : vec) (boundary : bool) : Prop :=
  rg_center g = c /\ rg_axes g = a /\
  forall x y, if boundary
    then 1 < rg_gamma g [x; y] <-> Rabs (x - nth 0 c 0) < nth 0 a 0 / 2 /\ Rabs (y - nth 1 c 0) < nth 1 a 0 / 2
    else rg_gamma g [x; y] <= 1 <-> Rabs (x - nth 0 c 0) <= nth 0 a 0 / 2 /\ Rabs (y - nth 1 c 0) <= nth 1 a 0 / 2.
(** The solid part is the floor of the given wall width and two walls of the same width; it is
    open upwards. *)
Theorem C95_u_shape : forall cuboid length height wallwidth,
  (forall c a b, is_cuboid (cuboid c a b) c a b) -> 0 <= length -> 0 <= height -> 0 < wallwidth ->
  let u := u_shape cuboid length height wallwidth in
  (forall x y, hull_is_inside u [x; y] = true <->
     Rabs x <= length / 2 /\ Rabs y <= height / 2 /\ (y <= - (height / 2) + wallwidth \/ length / 2 - wallwidth <= Rabs x)) /\
  (forall meet_outer meet, let g := cuboid [0; wallwidth] [length - 2 * wallwidth; height] true in
     hl_gates (evaluate_hierarchy meet_outer meet u) = if reg_inside g (meet_outer g (hl_outer u)) then 0%nat else 1%nat).
Proof.
  intros cuboid L H w HC HL HH HW u. split.
  - intros x y. rewrite inside_iff. unfold u, u_shape, new_hull, all_regions. cbn [hl_inner hl_outer app].
    destruct (HC [0; w] [L - 2 * w; H] true) as (_ & _ & A). specialize (A x y). cbn [nth] in A.
    destruct (HC [0; 0] [L; H] false) as (_ & _ & B). specialize (B x y). cbn [nth] in B.
    set (gi := cuboid [0; w] [L - 2 * w; H] true) in *. set (go := cuboid [0; 0] [L; H] false) in *.
    rewrite !Rminus_0_r in *. split.
    + intros Q. assert (Q1 : rg_gamma go [x; y] <= 1) by (apply Q; right; left; auto).
      assert (Q2 : rg_gamma gi [x; y] <= 1) by (apply Q; left; auto).
      apply B in Q1 as [B1 B2]. split; auto. split; auto.
      destruct (Rle_dec y (- (H / 2) + w)) as [Y|Y]; [left; auto|right].
      apply Rnot_lt_le. intros F. assert (1 < rg_gamma gi [x; y]); [|lra]. apply A. split; [lra|].
      assert (Y2 : y <= H / 2) by (eapply Rle_trans; [apply Rle_abs|auto]). apply Rabs_def1; lra.
    + intros (X & Y & D) g [<-|[<-|[]]]; [|apply B; auto]. apply Rnot_lt_le. intros F. apply A in F as [F1 F2].
      apply Rabs_def2 in F2. destruct D as [D|D]; lra.
  - intros mo me g. unfold u, u_shape, new_hull, evaluate_hierarchy. cbn [hl_inner hl_outer hl_gates gates_from]. fold g.
    assert (SK : Rltb (norm (vsub (rg_center g) (rg_center (cuboid [0; 0] [L; H] false)))) (axes_min (cuboid [0; 0] [L; H] false) - axes_max g) = false).
    { apply Rltb_false. pose proof (norm_nonneg (vsub (rg_center g) (rg_center (cuboid [0; 0] [L; H] false)))) as N.
      destruct (HC [0; w] [L - 2 * w; H] true) as (_ & A & _). destruct (HC [0; 0] [L; H] false) as (_ & B & _).
      unfold axes_min, axes_max, g in *. rewrite A, B. cbn [fold_right hd tl].
      pose proof (Rmin_l H L). pose proof (Rmax_l H (L - 2 * w)). lra. }
    rewrite SK. destruct (reg_inside g _); auto.
Qed.
Definition box (c a : vec) (boundary : bool) : region :=
  mkReg c a (fun p => let m := Rmax (Rabs (nth 0 p 0 - nth 0 c 0) - nth 0 a 0 / 2) (Rabs (nth 1 p 0 - nth 1 c 0) - nth 1 a 0 / 2) in
    if boundary then 1 - m else 1 + m) (fun x => x) (fun x => x) (fun x => x).
Example C95_case : (forall c a b, is_cuboid (box c a b) c a b) /\
  hull_is_inside (u_shape box 6 4 1) [0; -3 / 2] = true /\ hull_is_inside (u_shape box 6 4 1) [0; 0] = false /\
  hull_is_inside (u_shape box 6 4 1) [5 / 2; 2] = true /\ hull_is_inside (u_shape box 6 4 1) [0; 2] = false.
Proof.
  assert (B : forall c a b, is_cuboid (box c a b) c a b).
  { intros c a b. split; auto. split; auto. intros x y. cbn [box rg_gamma nth].
    set (p := Rabs (x - nth 0 c 0) - nth 0 a 0 / 2). set (q := Rabs (y - nth 1 c 0) - nth 1 a 0 / 2).
    pose proof (Rmax_l p q). pose proof (Rmax_r p q). destruct b.
    - split; intros Q; [unfold p, q in *; lra|]. assert (Rmax p q < 0) by (apply Rmax_lub_lt; unfold p, q; lra). lra.
    - split; intros Q; [unfold p, q in *; lra|]. assert (Rmax p q <= 0) by (apply Rmax_lub; unfold p, q; lra). lra. }
  split; auto. destruct (C95_u_shape box 6 4 1 B) as [U _]; try lra.
  assert (A1 : Rabs (-3 / 2) = 3 / 2) by (rewrite Rabs_left; lra).
  assert (A2 : Rabs (5 / 2) = 5 / 2) by (rewrite Rabs_pos_eq; lra).
  assert (A3 : Rabs 2 = 2) by (rewrite Rabs_pos_eq; lra).
  split; [apply U; rewrite Rabs_R0, A1; split; [lra|split; [lra|left; lra]]|].
  split; [apply not_true_iff_false; intros F; apply U in F as (_ & _ & F); rewrite !Rabs_R0 in F; destruct F; lra|].
  split; [apply U; rewrite A2, A3; split; [lra|split; [lra|right; lra]]|].
  apply not_true_iff_false; intros F; apply U in F as (_ & _ & F); rewrite !Rabs_R0 in F; destruct F; lra.
Qed.

(** ** C96: the container *)
Section Container.
Variable sp_dist : list edge -> hnode -> hnode -> option R.
Variable sp_path : list edge -> hnode -> hnode -> option (list hnode).
Variable orth1 : vec -> vec.
Variables meet_outer meet : region -> region -> vec.

Lemma evaluate_all_spec dim p : forall l l' r, evaluate_all sp_dist sp_path orth1 dim l p = (l', r) ->
  match r with
  | Ok vs => length vs = length l /\ length l' = length l /\
             forall i h, nth_error l i = Some h -> exists h' v, nth_error l' i = Some h' /\ nth_error vs i = Some v /\
               evaluate_global sp_dist sp_path orth1 dim h p = (h', Ok v)
  | Err e => exists i h, nth_error l i = Some h /\ snd (evaluate_global sp_dist sp_path orth1 dim h p) = Err e /\
               forall j h', (j < i)%nat -> nth_error l j = Some h' -> exists v, snd (evaluate_global sp_dist sp_path orth1 dim h' p) = Ok v
  end.
Proof.
  induction l as [|h l IH]; intros l' r H; cbn [evaluate_all] in H.
  - assert (l' = [] /\ r = Ok []) as [-> ->] by (split; congruence). split; auto. split; auto. intros [|i] h F; discriminate.
  - destruct (evaluate_global sp_dist sp_path orth1 dim h p) as [h1 r1] eqn:E1. destruct r1 as [v|e].
    + destruct (evaluate_all sp_dist sp_path orth1 dim l p) as [l2 r2] eqn:E2. specialize (IH _ _ eq_refl).
      assert (l' = h1 :: l2) by congruence. subst l'. destruct r2 as [vs|e]; cbn [bind] in H.
      * assert (r = Ok (v :: vs)) by congruence. subst r. destruct IH as (I1 & I2 & I3). cbn [length]. split; [lia|]. split; [lia|].
        intros [|i] h' F; cbn in F |- *; [|auto]. assert (h' = h) by congruence. subst h'. exists h1, v. auto.
      * assert (r = Err e) by congruence. subst r. destruct IH as (i & h' & I1 & I2 & I3). exists (S i), h'. split; auto. split; auto.
        intros [|j] h2 Lj F; cbn in F; [|apply (I3 j); [lia|auto]]. assert (h2 = h) by congruence. subst h2. exists v. rewrite E1. auto.
    + assert (r = Err e) by congruence. subst r. exists 0%nat, h. split; auto. rewrite E1. split; auto. intros; lia.
Qed.

Lemma norm_sum_le dim : forall vs, (forall v, In v vs -> norm v <= 1) -> norm (fold_right vadd (vzero dim) vs) <= INR (length vs).
Proof.
  induction vs as [|v vs IH]; intros H.
  - cbn [fold_right length]. rewrite norm_vzero. cbn. lra.
  - cbn [fold_right length]. rewrite S_INR. eapply Rle_trans; [apply norm_triangle|].
    assert (norm v <= 1) by (apply H; left; auto). assert (norm (fold_right vadd (vzero dim) vs) <= INR (length vs)) by (apply IH; intros; apply H; right; auto).
    lra.
Qed.

(** The velocity is the mean of the velocities of the objects, each evaluated in its own state;
    with rigid frames its speed is at most one.  An error is the one of the first object. *)
Theorem C96_mean : forall dim c p c' r, hc_evaluate sp_dist sp_path orth1 dim c p = (c', r) -> hc_list c <> [] ->
  hc_attractor c' = hc_attractor c /\
  match r with
  | Ok v => exists vs, length vs = length (hc_list c) /\
      (forall i h, nth_error (hc_list c) i = Some h -> exists h' vi, nth_error (hc_list c') i = Some h' /\ nth_error vs i = Some vi /\
         evaluate_global sp_dist sp_path orth1 dim h p = (h', Ok vi)) /\
      v = vdiv (fold_right vadd (vzero dim) vs) (INR (length vs)) /\
      ((forall h, In h (hc_list c) -> (forall u, norm (hl_dir_to h u) = norm u) /\ exists n, sane n h /\ length (hl_to h p) = n /\
          forall g, In g (all_regions h) -> 1 < rg_gamma g (hl_to h p) -> regular n g (hl_to h p)) -> norm v <= 1)
  | Err e => exists h, In h (hc_list c) /\ snd (evaluate_global sp_dist sp_path orth1 dim h p) = Err e
  end.
Proof.
  intros dim c p c' r H NE. unfold hc_evaluate in H.
  destruct (evaluate_all sp_dist sp_path orth1 dim (hc_list c) p) as [l ra] eqn:E. pose proof (evaluate_all_spec _ _ _ _ _ E) as A.
  assert (c' = mkHC l (hc_attractor c)) by congruence. subst c'. cbn [hc_attractor hc_list]. split; auto.
  destruct ra as [vs|e]; cbn [bind] in H.
  - destruct A as (A1 & A2 & A3). destruct vs as [|v0 vs'] eqn:EV.
    { exfalso. apply NE. destruct (hc_list c); auto. discriminate. }
    rewrite <- EV in *. assert (r = Ok (vdiv (fold_right vadd (vzero dim) vs) (INR (length vs)))) by congruence. subst r.
    exists vs. split; auto. split; auto. split; auto. intros RG.
    assert (NV : forall v, In v vs -> norm v <= 1).
    { intros v Iv. apply In_nth_error in Iv as (i & Ei).
      destruct (nth_error (hc_list c) i) as [h|] eqn:Eh.
      2: { apply nth_error_None in Eh. assert (i < length vs)%nat by (apply nth_error_Some; congruence). lia. }
      destruct (A3 i h Eh) as (h' & vi & _ & E2 & E3). assert (vi = v) by congruence. subst vi.
      destruct (RG h (nth_error_In _ _ Eh)) as (ISO & n & Sn & Ln & RR).
      unfold evaluate_global in E3. destruct (evaluate_local sp_dist sp_path orth1 dim h (hl_to h p)) as [h2 r2] eqn:E4.
      destruct r2 as [u|]; cbn [bind] in E3; [|discriminate].
      destruct (Req_EM_T (rsum (hull_weights (hull_gammas h (hl_to h p)))) 0) as [Z|Z].
      - assert (v = u) by congruence. subst v.
        assert (W : forall g, In g (all_regions h) -> rg_gamma g (hl_to h p) <= 1).
        { intros g Ig. apply Rnot_lt_le. intros F. rewrite weights_sum_free in Z; [lra|]. exists (rg_gamma g (hl_to h p)). split; auto.
          unfold hull_gammas. apply in_map_iff. exists g. split; auto. }
        destruct (C90_wall sp_dist sp_path orth1 dim h (hl_to h p) W) as [_ EW]. rewrite EW in E4.
        assert (u = vzero dim) by congruence. subst u. rewrite norm_vzero. lra.
      - assert (v = hl_dir_to h u) by congruence. subst v. rewrite ISO.
        destruct (hull_is_inside h (hl_to h p)) eqn:EI.
        { exfalso. apply Z. apply weights_sum_wall. intros y Hy. unfold hull_gammas in Hy. apply in_map_iff in Hy as (g & <- & Ig).
          apply (proj1 (inside_iff _ _) EI g). auto. }
        assert (FR : exists g, In g (all_regions h) /\ 1 < rg_gamma g (hl_to h p)).
        { destruct (Exists_dec (fun g => 1 < rg_gamma g (hl_to h p)) (all_regions h)) as [X|X].
          - intros g. destruct (Rlt_dec 1 (rg_gamma g (hl_to h p))); auto.
          - apply Exists_exists in X. auto.
          - exfalso. assert (hull_is_inside h (hl_to h p) = true); [|congruence]. apply inside_iff. intros g Ig. apply Rnot_lt_le.
            intros F. apply X. apply Exists_exists. eauto. }
        destruct FR as (g & Ig & Gg).
        destruct (C90_free sp_dist sp_path orth1 n dim h (hl_to h p) g Ig Gg) as [_ Q]. rewrite (Q Sn Ln RR _ _ E4). lra. }
    pose proof (norm_sum_le dim vs NV) as NS. unfold vdiv. rewrite norm_vscale.
    assert (P : 0 < INR (length vs)) by (apply lt_0_INR; rewrite EV; cbn; lia).
    rewrite Rabs_pos_eq by (left; apply Rinv_0_lt_compat; auto).
    apply (Rmult_le_reg_l (INR (length vs))); auto. rewrite <- Rmult_assoc, Rinv_r by lra. lra.
  - assert (r = Err e) by congruence. subst r. destruct A as (i & h & A1 & A2 & _). exists h. split; auto. eapply nth_error_In; eauto.
Qed.

(** A new attractor prepares every object: graph and attractors are made anew. *)
Theorem C96_prepared : forall c a c', (forall b, hc_attractor c = Some b -> allclose b a = false) ->
  hc_set_attractor meet_outer meet c a = (c', Ok tt) ->
  hc_attractor c' = Some a /\ length (hc_list c') = length (hc_list c) /\
  forall i h, nth_error (hc_list c) i = Some h -> exists h',
    nth_error (hc_list c') i = Some h' /\ set_attractor (evaluate_hierarchy meet_outer meet h) a true = (h', Ok tt).
Proof.
  intros c a c' N H. unfold hc_set_attractor in H.
  assert (E : (let (l, r) := prepare_all meet_outer meet (hc_list c) a in (mkHC l (Some a), r)) = (c', Ok tt)).
  { destruct (hc_attractor c) as [b|]; auto. rewrite (N b eq_refl) in H. auto. }
  destruct (prepare_all meet_outer meet (hc_list c) a) as [l r] eqn:EP.
  assert (c' = mkHC l (Some a) /\ r = Ok tt) as [-> ->] by (split; congruence). cbn [hc_list hc_attractor]. split; auto.
  clear - EP. revert l EP. induction (hc_list c) as [|h hs IH]; intros l EP; cbn [prepare_all] in EP.
  - assert (l = []) by congruence. subst. split; auto. intros [|i] h F; discriminate.
  - destruct (set_attractor (evaluate_hierarchy meet_outer meet h) a true) as [h1 r1] eqn:E1. destruct r1 as [u|]; [|discriminate].
    destruct (prepare_all meet_outer meet hs a) as [l2 r2] eqn:E2. assert (l = h1 :: l2 /\ r2 = Ok tt) as [-> ->] by (split; congruence).
    destruct (IH l2 eq_refl) as [I1 I2]. cbn [length]. split; [lia|]. intros [|i] h' F; cbn in F |- *; [|auto].
    assert (h' = h) by congruence. subst h'. exists h1. destruct u. auto.
Qed.

(** C96 refuted: an object appended after the attractor was set is not prepared when the same
    attractor is set again; the evaluation in its room fails. *)
Theorem C96_append_refuted : forall dim, exists c a h p,
  hc_attractor c = Some a /\ hull_is_inside h p = false /\ hl_to h p = p /\
  hc_set_attractor meet_outer meet (hc_append c h) a = (hc_append c h, Ok tt) /\
  snd (hc_evaluate sp_dist sp_path orth1 dim (hc_append c h) p) = Err EAttr.
Proof.
  intros dim. set (h := new_hull [room] disc (fun q => q) (fun q => q)). set (p := [1 / 2; 0]).
  exists (mkHC [] (Some [1; 1])), [1; 1], h, p. split; auto.
  assert (G : rg_gamma room p = 19 / 4) by (unfold p; cbn; field).
  assert (GD : rg_gamma disc p = 1 / 4) by (unfold p; cbn; field).
  split; [apply (C90_free sp_dist sp_path orth1 2 2 h p room); [left; auto|lra]|]. split; auto.
  split. { unfold hc_set_attractor. cbn [hc_append hc_attractor]. rewrite allclose_refl. auto. }
  unfold hc_evaluate, hc_append. cbn [hc_list app evaluate_all].
  assert (E : snd (evaluate_local sp_dist sp_path orth1 dim h p) = Err EAttr).
  { unfold evaluate_local. rewrite weights_sum_free.
    2: { exists (rg_gamma room p). split; [left; auto|lra]. }
    destruct (Req_EM_T 1 0); [lra|].
    assert (W : exists w t, hull_weights (hull_gammas h p) = w :: t /\ w <> 0).
    { unfold hull_gammas, h. cbn [new_hull hl_inner hl_outer app map]. rewrite G, GD. unfold hull_weights. cbn [map].
      rewrite (Rmax_left (19 / 4 - 1) 0), (Rmax_right (1 / 4 - 1) 0) by lra. unfold rsum. cbn [fold_right].
      rewrite (proj2 (Rltb_true 0 (19 / 4 - 1 + (0 + 0)))) by lra. cbn [map]. eexists. eexists. split; [reflexivity|].
      replace ((19 / 4 - 1) / (19 / 4 - 1 + (0 + 0))) with 1 by field. lra. }
    destruct W as (w & t & EW & NW). rewrite EW. unfold h. cbn [new_hull hl_inner hull_gammas app map combine inner_loop].
    destruct (Req_EM_T w 0); [contradiction|]. cbn [attractor_of hl_attr nth_error hl_graph snd]. auto. }
  unfold evaluate_global. change (hl_to h p) with p. destruct (evaluate_local sp_dist sp_path orth1 dim h p) as [h2 r2]. cbn [snd] in E.
  subst r2. cbn [bind]. auto.
Qed.
End Container.
Example C96_case : forall sp_dist sp_path orth1,
  snd (hc_evaluate sp_dist sp_path orth1 2 (mkHC [new_hull [] disc (fun q => q) (fun q => q); new_hull [] disc (fun q => q) (fun q => q)] None) [0; 0]) = Ok [0; 0].
Proof.
  intros. assert (E : evaluate_global sp_dist sp_path orth1 2 (new_hull [] disc (fun q => q) (fun q => q)) [0; 0] =
                      (new_hull [] disc (fun q => q) (fun q => q), Ok [0; 0])).
  { unfold evaluate_global. cbn [new_hull hl_to].
    assert (W : forall g, In g (all_regions (new_hull [] disc (fun q : vec => q) (fun q : vec => q))) -> rg_gamma g [0; 0] <= 1) by (intros g [<-|[]]; cbn; lra).
    destruct (C90_wall sp_dist sp_path orth1 2 _ _ W) as [_ EW]. unfold new_hull in *. rewrite EW. cbn [bind].
    rewrite weights_sum_wall; [destruct (Req_EM_T 0 0); [auto|congruence]|]. intros y [<-|[]]. cbn. lra. }
  unfold hc_evaluate. cbn [hc_list evaluate_all]. rewrite !E. cbn [bind snd]. f_equal. unfold vdiv, vscale. cbn.
  f_equal; [ring|f_equal; ring].
Qed.
Print Assumptions C91_gates_refuted.
Print Assumptions C93_gate_refuted.
Print Assumptions C94_weight.
Print Assumptions C94_jump_refuted.
Print Assumptions C95_u_shape.
Print Assumptions C96_mean.
Print Assumptions C96_prepared.
Print Assumptions C96_append_refuted.
