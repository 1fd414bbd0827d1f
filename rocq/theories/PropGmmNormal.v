(** Properties C125-C128: normals, derivative, kernel points and intersections of an obstacle of
    Gaussians. *)
Require Import Reals List Bool Arith Lra Lia Psatz.
From Verif Require Import Base Vec Pow RotModel Spec RotProofs TreeModel ProjModel FoldModel FoldProofs
  GmmModel GraphModel HullModel HullGraphModel GmmObstacleModel PropGraph PropGmmGraph PropGmmGamma.
Import ListNotations.
Open Scope R_scope.

(** * Derivatives along a line *)
Lemma quadratic_derivative q b e : derivable_pt_lim (fun s => q + b * s + e * (s * s)) 0 b.
Proof.
  assert (D : derivable_pt_lim (fun s => q + b * s + e * (s * s)) 0 ((0 + b * 1) + e * (1 * 0 + 0 * 1))).
  { apply (derivable_pt_lim_plus (fun s => q + b * s) (fun s => e * (s * s))).
    - apply (derivable_pt_lim_plus (fun _ => q) (fun s => b * s)); [apply derivable_pt_lim_const|].
      apply (derivable_pt_lim_scal (fun s => s)). apply derivable_pt_lim_id.
    - apply (derivable_pt_lim_scal (fun s => s * s)).
      apply (derivable_pt_lim_mult (fun s => s) (fun s => s)); apply derivable_pt_lim_id. }
  replace ((0 + b * 1) + e * (1 * 0 + 0 * 1)) with b in D by ring. exact D.
Qed.
Lemma derivative_ext f g x l : (forall y, f y = g y) -> derivable_pt_lim f x l -> derivable_pt_lim g x l.
Proof. intros E D eps Pe. destruct (D eps Pe) as (d & H). exists d. intros h H1 H2. rewrite <- !E. auto. Qed.
(** The matrix of [n] rows is symmetric. *)
Definition symmetric (n : nat) (P : list vec) : Prop :=
  forall u v, length u = n -> length v = n -> dot u (mat_vec P v) = dot v (mat_vec P u).
Lemma quad_line n c x t s : length (c_mean c) = n -> length x = n -> length t = n ->
  quad c (vadd x (vscale s t)) = quad c x +
    (dot (vsub x (c_mean c)) (mat_vec (c_prec c) t) + dot t (mat_vec (c_prec c) (vsub x (c_mean c)))) * s +
    dot t (mat_vec (c_prec c) t) * (s * s).
Proof.
  intros Lm Lx Lt. unfold quad. replace (vsub (vadd x (vscale s t)) (c_mean c)) with (vadd (vsub x (c_mean c)) (vscale s t)) by (vext; ring).
  rewrite mv_add, mv_scale, !dot_vadd_l, !dot_vadd_r, !dot_vscale_l, !dot_vscale_r. ring.
Qed.
(** The value of the proportional gamma. *)
Definition gam (factor : R) (c : component) (x : vec) : R := sqrt (quad c x) / factor.
Lemma gam_value factor c x : 0 < factor -> 0 <= quad c x -> gamma_proportional factor c x = Ok (gam factor c x).
Proof.
  intros F Q. unfold gamma_proportional, fdiv, gam. rewrite (proj2 (Rltb_false _ _)) by auto.
  destruct (Req_EM_T factor 0); [lra|auto].
Qed.
Lemma gam_derivative n factor c x t : length (c_mean c) = n -> length x = n -> length t = n -> symmetric n (c_prec c) ->
  0 < factor -> 0 < quad c x ->
  derivable_pt_lim (fun s => gam factor c (vadd x (vscale s t))) 0
    (/ (sqrt (quad c x) * factor) * dot (mat_vec (c_prec c) (vsub x (c_mean c))) t).
Proof.
  intros Lm Lx Lt Sy F Q. assert (SQ : 0 < sqrt (quad c x)) by (apply sqrt_lt_R0; auto).
  set (b := dot (vsub x (c_mean c)) (mat_vec (c_prec c) t) + dot t (mat_vec (c_prec c) (vsub x (c_mean c)))).
  assert (B : b = 2 * dot (mat_vec (c_prec c) (vsub x (c_mean c))) t).
  { unfold b. rewrite (Sy (vsub x (c_mean c)) t) by (autorewrite with vlen; lia). rewrite (dot_comm t). ring. }
  set (e := dot t (mat_vec (c_prec c) t)).
  apply (derivative_ext (fun s => / factor * sqrt (quad c x + b * s + e * (s * s)))).
  { intros s. unfold gam. rewrite (quad_line n) by auto. fold b e. field. lra. }
  replace (/ (sqrt (quad c x) * factor) * dot (mat_vec (c_prec c) (vsub x (c_mean c))) t)
    with (/ factor * (/ (2 * sqrt (quad c x + b * 0 + e * (0 * 0))) * b)).
  - apply (derivable_pt_lim_scal (fun s => sqrt (quad c x + b * s + e * (s * s)))).
    apply (derivable_pt_lim_comp (fun s => quad c x + b * s + e * (s * s)) sqrt); [apply quadratic_derivative|].
    apply derivable_pt_lim_sqrt. lra.
  - replace (quad c x + b * 0 + e * (0 * 0)) with (quad c x) by ring. rewrite B. field. lra.
Qed.

(** * C125: normals and the derivative of gamma *)
(** For all components with a symmetric precision matrix and all positions at which the quadratic
    form is positive: the normal is a unit vector which points away from the center, and the
    derivative of gamma along every vector is a positive multiple of its product with the normal. *)
Theorem C125_normal n factor c x : length (c_mean c) = n -> length x = n -> length (c_prec c) = n -> symmetric n (c_prec c) ->
  0 < factor -> 0 < quad c x ->
  exists u k, normal_direction factor c x = Ok u /\ unitv u /\ 0 < dot u (vsub x (c_mean c)) /\ 0 < k /\
    forall t, length t = n -> derivable_pt_lim (fun s => gam factor c (vadd x (vscale s t))) 0 (k * dot u t).
Proof.
  intros Lm Lx LP Sy F Q. unfold normal_direction. rewrite !fpow_pos by auto. cbn [bind].
  set (f := Rpower (quad c x) (1 / 2 - 1) * Rpower factor (-1)).
  assert (Pf : 0 < f) by (unfold f; apply Rmult_lt_0_compat; apply Rpower_pos).
  set (g := mat_vec (c_prec c) (vsub x (c_mean c))).
  assert (QD : dot g (vsub x (c_mean c)) = quad c x) by (unfold g, quad; apply dot_comm).
  assert (Ng : norm g <> 0).
  { intros Z. apply norm_zero_iff in Z. rewrite Z, dot_vzero_l in QD. lra. }
  assert (Pg : 0 < norm g) by (apply norm_pos; auto).
  assert (Nf : norm (vscale f g) = f * norm g) by (rewrite norm_vscale, Rabs_right by lra; auto).
  destruct (Req_EM_T (norm (vscale f g)) 0) as [Z|NZ]; [rewrite Nf in Z; nra|].
  assert (SQ : 0 < sqrt (quad c x)) by (apply sqrt_lt_R0; auto).
  exists (vdiv (vscale f g) (norm (vscale f g))), (norm g * / (sqrt (quad c x) * factor)). split; auto.
  split; [apply unit_vdiv; auto|].
  assert (E : forall t, dot (vdiv (vscale f g) (norm (vscale f g))) t = dot g t / norm g).
  { intros t. rewrite dot_vdiv_l, dot_vscale_l, Nf. field. lra. }
  split; [rewrite E, QD; apply Rdiv_lt_0_compat; auto|].
  assert (PI1 : 0 < / (sqrt (quad c x) * factor)) by (apply Rinv_0_lt_compat; nra).
  split; [nra|]. intros t Lt. rewrite E.
  replace (norm g * / (sqrt (quad c x) * factor) * (dot g t / norm g)) with (/ (sqrt (quad c x) * factor) * dot g t) by (field; lra).
  apply (gam_derivative n); auto.
Qed.
(** The matrix of the code is the triangular factor of the precision: then the direction is not
    normal to the surface of gamma. *)
Theorem C125_triangular_refuted : exists factor c x t u k, 0 < factor /\ 0 < quad c x /\
  normal_direction factor c x = Ok u /\ dot u t = 0 /\ 0 < k /\
  derivable_pt_lim (fun s => gam factor c (vadd x (vscale s t))) 0 k.
Proof.
  set (c := mkComp [0; 0] [[1; 1]; [0; 1]] [] []).
  assert (Q : quad c [1; 0] = 1) by (unfold quad, c; cbn; ring).
  exists 1, c, [1; 0], [0; 1], [1; 0], (/ 2). split; [lra|]. split; [rewrite Q; lra|]. split; [|split; [cbn; ring|split; [lra|]]].
  - unfold normal_direction. rewrite Q, !fpow_pos by lra. rewrite !Rpower_base_1. cbn [bind].
    unfold c, mat_vec. cbn [c_mean c_prec map].
    assert (V : vscale (1 * 1) [dot [1; 1] (vsub [1; 0] [0; 0]); dot [0; 1] (vsub [1; 0] [0; 0])] = [1; 0]).
    { cbn. apply f_equal2; [ring|apply f_equal2; [ring|auto]]. }
    rewrite V. assert (N : norm [1; 0] = 1) by (unfold norm; apply sqrt_lem_1; cbn; lra). rewrite N.
    destruct (Req_EM_T 1 0); [lra|]. f_equal. unfold vdiv, vscale. cbn. apply f_equal2; [field|apply f_equal2; [field|auto]].
  - apply (derivative_ext (fun s => sqrt (1 + 1 * s + 1 * (s * s)))).
    { intros s. unfold gam. rewrite (quad_line 2), Q by auto. unfold c. cbn. unfold Rdiv. rewrite Rinv_1, Rmult_1_r. f_equal. ring. }
    replace (/ 2) with (/ (2 * sqrt (1 + 1 * 0 + 1 * (0 * 0))) * 1).
    + apply (derivable_pt_lim_comp (fun s => 1 + 1 * s + 1 * (s * s)) sqrt); [apply quadratic_derivative|].
      apply derivable_pt_lim_sqrt. lra.
    + replace (1 + 1 * 0 + 1 * (0 * 0)) with 1 by ring. rewrite sqrt_1. field.
Qed.
(** The direction from the center is a unit vector at all positions, the normal is not defined at
    the center. *)
Theorem C125_reference n c x : (0 < n)%nat -> length (c_mean c) = n -> length x = n ->
  unitv (reference_direction c x) /\ length (reference_direction c x) = n /\
  (x <> c_mean c -> exists k, 0 < k /\ vscale k (reference_direction c x) = vsub x (c_mean c)).
Proof.
  intros Hn Lm Lx. unfold reference_direction. set (d := vsub x (c_mean c)). assert (Ld : length d = n) by (unfold d; autorewrite with vlen; lia).
  destruct (Req_EM_T (norm d) 0) as [Z|NZ].
  - apply norm_zero_iff in Z. split; [|split].
    + rewrite Z, Ld. destruct n; [lia|]. unfold unitv. cbn [vzero repeat set_first dot].
      change (repeat 0 n) with (vzero n). rewrite dot_vzero_l. ring.
    + destruct d; auto. 
    + intros N. exfalso. apply N. apply dot_vsub_self_eq; [lia|]. fold d. rewrite Z. apply dot_vzero_l.
  - split; [apply unit_vdiv; auto|]. split; [autorewrite with vlen; auto|]. intros _. exists (norm d). split; [apply norm_pos; auto|].
    apply vscale_norm_vdiv. auto.
Qed.
Theorem C125_center factor c : normal_direction factor c (c_mean c) = Err ENaN.
Proof.
  unfold normal_direction. assert (Q : quad c (c_mean c) = 0).
  { unfold quad. replace (vsub (c_mean c) (c_mean c)) with (vzero (length (c_mean c))) by (vext; ring). apply dot_vzero_l. }
  rewrite Q. unfold fpow. destruct (Rlt_dec 0 0); [lra|]. destruct (Req_EM_T (1 / 2 - 1) 0); [lra|].
  destruct (Req_EM_T 0 0); [|lra]. destruct (Rlt_dec 0 (1 / 2 - 1)); [lra|]. reflexivity.
Qed.
(** [get_gamma_derivative] is half of the derivative of the power of gamma, along every vector. *)
Theorem C125_half n factor c x power : length (c_mean c) = n -> length x = n -> symmetric n (c_prec c) ->
  0 < factor -> 0 < quad c x ->
  exists v, gamma_derivative factor c power x = Ok v /\ forall t, length t = n ->
    derivable_pt_lim (fun s => Rpower (gam factor c (vadd x (vscale s t))) power) 0 (2 * dot v t).
Proof.
  intros Lm Lx Sy F Q. assert (SQ : 0 < sqrt (quad c x)) by (apply sqrt_lt_R0; auto).
  unfold gamma_derivative. rewrite !fpow_pos by auto. cbn [bind]. eexists. split; [reflexivity|]. intros t Lt.
  set (g := mat_vec (c_prec c) (vsub x (c_mean c))).
  assert (PG : 0 < gam factor c x) by (unfold gam; apply Rdiv_lt_0_compat; auto).
  assert (X0 : vadd x (vscale 0 t) = x) by (vext; ring).
  replace (2 * dot (vscale (power / 2 * Rpower (quad c x) (power / 2 - 1) * Rpower factor (- power)) g) t)
    with (power * Rpower (gam factor c x) (power - 1) * (/ (sqrt (quad c x) * factor) * dot g t)).
  - apply (derivable_pt_lim_comp (fun s => gam factor c (vadd x (vscale s t))) (fun y => Rpower y power)).
    + apply (gam_derivative n); auto.
    + rewrite X0. apply derivable_pt_lim_power. auto.
  - rewrite dot_vscale_l.
    assert (R1 : Rpower (gam factor c x) (power - 1) = Rpower (quad c x) (power / 2 - 1) * Rpower factor (- power) * (sqrt (quad c x) * factor)).
    { unfold gam, Rdiv at 1. rewrite <- Rpower_mult_distr by (auto; apply Rinv_0_lt_compat; auto).
      rewrite <- (Rpower_sqrt (quad c x)) at 1 by auto. rewrite Rpower_mult.
      replace (/ factor) with (Rpower factor (-1)).
      2:{ replace (-1) with (- (1)) by ring. rewrite Rpower_Ropp, Rpower_1 by auto. auto. }
      rewrite Rpower_mult. rewrite <- (Rpower_sqrt (quad c x)) by auto.
      rewrite <- (Rpower_1 factor) at 3 by auto.
      transitivity (Rpower (quad c x) (power / 2 - 1) * Rpower (quad c x) (/ 2) * (Rpower factor (- power) * Rpower factor 1)); [|ring].
      rewrite <- !Rpower_plus. f_equal; f_equal; field. }
    rewrite R1. field. lra.
Qed.
Lemma symmetric_identity k : symmetric 2 [[k; 0]; [0; k]].
Proof. intros [|a [|b [|? ?]]] [|c [|d [|? ?]]] L1 L2; try discriminate. cbn. ring. Qed.
Theorem C125_derivative_refuted : exists factor c x t v l, 0 < factor /\ 0 < quad c x /\
  gamma_derivative factor c 1 x = Ok v /\ l <> dot v t /\
  derivable_pt_lim (fun s => Rpower (gam factor c (vadd x (vscale s t))) 1) 0 l.
Proof.
  set (c := mkComp [0; 0] [[1; 0]; [0; 1]] [] []). assert (Q : quad c [1; 0] = 1) by (unfold quad, c; cbn; ring).
  destruct (C125_half 2 1 c [1; 0] 1) as (v & E & D); auto; try apply symmetric_identity; try lra.
  exists 1, c, [1; 0], [1; 0], v, (2 * dot v [1; 0]). split; [lra|]. split; [lra|]. split; auto. split; [|apply D; auto].
  unfold gamma_derivative in E. rewrite Q, !fpow_pos, !Rpower_base_1 in E by lra. cbn [bind] in E. injection E as <-.
  cbn. lra.
Qed.
Example C125_example : exists u, normal_direction 2 (mkComp [1; 0] [[1; 0]; [0; 1]] [] []) [1; 3] = Ok u /\ unitv u /\ 0 < dot u [0; 3].
Proof.
  destruct (C125_normal 2 2 (mkComp [1; 0] [[1; 0]; [0; 1]] [] []) [1; 3]) as (u & k & E & U & P & _); auto; try apply symmetric_identity; try lra.
  - unfold quad. cbn. lra.
  - exists u. split; auto. split; auto. cbn [c_mean] in P. replace [0; 3] with (vsub [1; 3] [1; 0]); auto.
    cbn. apply f_equal2; [ring|apply f_equal2; [ring|auto]].
Qed.

(** * C126: kernel points and the direction at the root *)
Theorem C126_set_refuted : exists o v i, (i < length (o_refs o))%nat /\ get_kernel_point (set_kernel_point o v i) i <> v.
Proof.
  exists (mkGO 1 [no_comp] [[0; 0]] empty), [1; 0], 0%nat. split; [cbn; lia|]. cbn. intros E. injection E. lra.
Qed.
(** The graph of the hierarchy has its only root at the first place, whichever component it is. *)
Lemma combine_snoc {A B} (l : list A) (m : list B) a b : length l = length m -> combine (l ++ [a]) (m ++ [b]) = combine l m ++ [(a, b)].
Proof. revert m. induction l as [|x l IH]; intros [|y m] E; try discriminate; auto. cbn [app combine]. rewrite IH; auto. Qed.
Lemma roots_first ops : no_set ops -> forall g, root_indices g = [0%nat] ->
  (forall v, ~ In (ORoot v) ops) -> root_indices (fst (run g ops)) = [0%nat].
Proof.
  intros NS g G. induction ops as [|o ops IH]; intros H; auto.
  cbn [run]. destruct (run g ops) as [g1 rs] eqn:E. cbn [fst] in IH.
  assert (G1 : root_indices g1 = [0%nat]).
  { apply IH; [destruct o; auto; destruct NS|]. intros v I. apply (H v). right; auto. }
  destruct o as [v|v p|v p].
  - exfalso. apply (H v). left; auto.
  - cbn [step]. unfold add_element. destruct (index_of p (g_values g1 ++ [v])) as [ip|]; [|exact G1].
    destruct (Nat.ltb ip (length (g_children g1 ++ [[]]))); [|exact G1].
    unfold root_indices in *. cbn [fst g_parent]. rewrite app_length, seq_app. cbn [length plus seq].
    rewrite combine_snoc, filter_app, map_app by (rewrite seq_length; auto).
    cbn [filter map snd app]. rewrite app_nil_r. exact G1.
  - destruct NS.
Qed.
Lemma run_app g a b : fst (run g (a ++ b)) = fst (run (fst (run g b)) a).
Proof.
  induction a as [|o a IH]; auto. cbn [app run]. destruct (run g (a ++ b)) as [g1 r1]. destruct (run (fst (run g b)) a) as [g2 r2].
  cbn [fst] in IH. subst. destruct (step g2 o); auto.
Qed.
Lemma loop_ops proba fuel : forall ass rem ops ops' order, hierarchy_loop proba ass rem ops fuel = Ok (ops', order) ->
  exists adds, ops' = adds ++ ops /\ no_set adds /\ forall v, ~ In (ORoot v) adds.
Proof.
  assert (Base : forall ops : list gop, exists adds, ops = adds ++ ops /\ no_set adds /\ forall v, ~ In (ORoot v) adds)
    by (intros ops; exists []; cbn; auto).
  induction fuel as [|fuel IH]; intros ass rem ops ops' order E; destruct rem as [|x rem];
    try (cbn [hierarchy_loop] in E; injection E as <- _; auto).
  cbn [hierarchy_loop] in E. destruct (argmax _) as [k|]; [|discriminate]. cbn [bind] in E. apply IH in E as (adds & -> & NS & NR).
  exists (adds ++ [OAdd (nth (k / length ass) (x :: rem) 0%nat) (nth (k mod length ass) ass 0%nat)]). split; [rewrite <- app_assoc; auto|]. split.
  - clear -NS. induction adds as [|[]]; cbn in *; auto.
  - intros v I. apply in_app_or in I as [I|[I|[]]]; [apply (NR v I)|discriminate].
Qed.
Lemma hierarchy_roots dim means proba r ops order : evaluate_hierarchy dim means proba = Ok (r, ops, order) ->
  root_indices (fst (run empty ops)) = [0%nat].
Proof.
  unfold evaluate_hierarchy. destruct (closest_index dim means) as [r0|]; [|discriminate]. cbn [bind].
  destruct (Nat.ltb r0 (length means)); [|discriminate].
  destruct (hierarchy_loop proba [r0] (remove_at r0 (seq 0 (length means))) [ORoot r0] (length means)) as [[o' or]|] eqn:E; [|discriminate].
  cbn [bind fst snd]. intros H. injection H as _ <- _. apply loop_ops in E as (adds & -> & NS & NR).
  rewrite run_app. apply roots_first; auto.
Qed.
Section Root.
Variable basis : vec -> list vec.
(** For the graph of every hierarchy the direction depends on the kernel point of the component
    with index zero only, whichever component is the root. *)
Theorem C126_first_component dim means proba r ops order o o' x v :
  evaluate_hierarchy dim means proba = Ok (r, ops, order) ->
  o_graph o = fst (run empty ops) -> o_graph o' = fst (run empty ops) ->
  get_kernel_point o 0 = get_kernel_point o' 0 ->
  root_rotation_direction basis o x v = root_rotation_direction basis o' x v.
Proof.
  intros E G G' K. unfold root_rotation_direction. rewrite G, G', (hierarchy_roots _ _ _ _ _ _ E), K. auto.
Qed.
Variable n : nat.
(** [basis d] completes the unit vector [d] to an orthonormal basis. *)
Hypothesis Hbasis : forall d, length d = n -> unitv d -> orthogonal_matrix (length d) (d :: basis d).
(** Away from the kernel point: a velocity whose component away from it is at least one is
    projected to the complement of the direction, every other velocity is returned. *)
Theorem C126_projection o x v i : hd_error (root_indices (o_graph o)) = Some i -> length v = n ->
  length x = length v -> length (get_kernel_point o i) = length v -> x <> get_kernel_point o i ->
  exists k c, 0 < c /\ unitv k /\ vscale c k = vsub x (get_kernel_point o i) /\
    (dot k v < 1 -> root_rotation_direction basis o x v = Ok v) /\
    (1 <= dot k v -> root_rotation_direction basis o x v = Ok (vsub v (vscale (dot k v) k)) /\
       dot k (vsub v (vscale (dot k v) k)) = 0).
Proof.
  intros Hi Lv Lx Lk N. unfold root_rotation_direction. destruct (root_indices (o_graph o)) as [|j t]; [discriminate|].
  cbn [hd_error] in Hi. injection Hi as ->. set (d := vsub x (get_kernel_point o i)).
  assert (Ld : length d = length v) by (unfold d; autorewrite with vlen; lia).
  destruct (Req_EM_T (norm d) 0) as [Z|NZ].
  { exfalso. apply N. apply dot_vsub_self_eq; [lia|]. fold d. apply norm_eq_0_dot. auto. }
  set (k := vdiv d (norm d)). assert (Uk : unitv k) by (apply unit_vdiv; auto). assert (Lk' : length k = length v) by (unfold k; autorewrite with vlen; auto).
  exists k, (norm d). split; [apply norm_pos; auto|]. split; auto. split; [apply vscale_norm_vdiv; auto|]. split; intros H.
  - rewrite (proj2 (Rltb_true _ _)) by auto. auto.
  - rewrite (proj2 (Rltb_false _ _)) by auto. split.
    + f_equal. pose proof (Hbasis k ltac:(lia) Uk) as O. pose proof (orthogonal_complete _ _ O v ltac:(lia)) as C.
      unfold mat_t_vec in C. cbn [map FoldModel.mat_vec] in C. cbn [FoldModel.mat_vec]. unfold mat_t_vec.
      destruct O as (_ & FL & _). apply Forall_inv_tail in FL.
      pose proof (mat_vec_len (length k) (basis k) FL (map (fun c => dot c v) (basis k))) as LM.
      set (m := FoldModel.mat_vec (length k) (basis k) (map (fun c => dot c v) (basis k))) in *.
      rewrite <- C at 1. vext. ring.
    + rewrite dot_vsub_r, dot_vscale_r. unfold unitv in Uk. rewrite Uk. ring.
Qed.
(** A velocity towards the kernel point is not changed. *)
Theorem C126_towards_refuted : exists o x v, root_rotation_direction basis o x v = Ok v /\
  dot v (vsub x (get_kernel_point o 0)) < 0.
Proof.
  exists (mkGO 1 [no_comp] [[0; 0]] (fst (run empty [ORoot 0%nat]))), [2; 0], [-1; 0]. split.
  - unfold root_rotation_direction. cbn [o_graph run empty step set_root fst root_indices].
    unfold root_indices. cbn. assert (NE : norm [2 + -1 * 0; 0 + -1 * 0] = 2) by (unfold norm; apply sqrt_lem_1; cbn; lra).
    rewrite NE. destruct (Req_EM_T 2 0); [lra|]. rewrite (proj2 (Rltb_true _ _)) by lra. auto.
  - cbn. lra.
Qed.
(** Velocities up to unit length are never turned: they are returned, or stopped when they point
    exactly away. *)
Theorem C126_unit_velocity o x v i : hd_error (root_indices (o_graph o)) = Some i -> length v = n ->
  length x = length v -> length (get_kernel_point o i) = length v -> norm v <= 1 ->
  root_rotation_direction basis o x v = Ok v \/ root_rotation_direction basis o x v = Ok (vzero (length v)).
Proof.
  intros Hi Lv Lx Lk Hv. destruct (list_eq_dec Req_EM_T x (get_kernel_point o i)) as [E|N].
  - left. unfold root_rotation_direction. destruct (root_indices (o_graph o)) as [|j t]; [discriminate|].
    cbn [hd_error] in Hi. injection Hi as ->. rewrite <- E. replace (vsub x x) with (vzero (length x)) by (vext; ring).
    rewrite norm_vzero. destruct (Req_EM_T 0 0); [auto|lra].
  - destruct (C126_projection o x v i Hi Lv Lx Lk N) as (k & c & Pc & Uk & Ek & A & B).
    destruct (Rlt_le_dec (dot k v) 1) as [L|G]; [left; auto|]. right. destruct (B G) as [-> _]. f_equal.
    assert (Lkv : length k = length v).
    { apply (f_equal (@length R)) in Ek. autorewrite with vlen in Ek. lia. }
    pose proof (dot_le_norms k v) as CS. rewrite (proj1 (unit_norm k) Uk) in CS. pose proof (norm_nonneg v) as Nn.
    assert (D1 : dot k v = 1) by lra. assert (Uv : unitv v) by (apply unit_norm; lra).
    rewrite D1, (unit_dot_1 k v Lkv Uk Uv D1). vext. ring.
Qed.
End Root.
(** In the plane: a fast velocity away from the kernel point keeps its sideways part, and the direction does not depend on the kernel
    point of the second component, although that one is the root. *)
Definition left_of (d : vec) : list vec := match d with [a; b] => [[- b; a]] | _ => [] end.
Example C126_case : let o := fun q => mkGO 1 [no_comp; no_comp] [[0; 0]; q] (fst (run empty [ORoot 1%nat; OAdd 0%nat 1%nat])) in
  root_rotation_direction left_of (o [7; 7]) [2; 0] [3; 1] = Ok [0; 1] /\
  root_rotation_direction left_of (o [5; 1]) [2; 0] [3; 1] = Ok [0; 1] /\
  root_rotation_direction left_of (o [5; 1]) [2; 0] [3 / 5; 4 / 5] = Ok [3 / 5; 4 / 5].
Proof.
  intros o.
  assert (NK : norm (vsub [2; 0] [0; 0]) = 2) by (unfold norm; apply sqrt_lem_1; cbn; lra).
  assert (DK : vdiv (vsub [2; 0] [0; 0]) 2 = [1; 0]) by (unfold vdiv, vsub; cbn; apply f_equal2; [field|apply f_equal2; [field|auto]]).
  assert (G : forall q v, root_rotation_direction left_of (o q) [2; 0] v =
    if Rltb (dot [1; 0] v) 1 then Ok v else Ok (FoldModel.mat_vec 2 [[1; 0]; [- 0; 1]] (0 :: FoldModel.mat_t_vec [[- 0; 1]] v))).
  { intros q v. unfold root_rotation_direction. change (root_indices (o_graph (o q))) with [0%nat]. cbv iota beta. change (get_kernel_point (o q) 0) with [0; 0].
    cbv zeta. rewrite NK. destruct (Req_EM_T 2 0); [lra|]. rewrite DK. auto. }
  rewrite !G. rewrite (proj2 (Rltb_false _ _)) by (cbn; lra). rewrite (proj2 (Rltb_true _ _)) by (cbn; lra).
  assert (E : FoldModel.mat_vec 2 [[1; 0]; [- 0; 1]] (0 :: FoldModel.mat_t_vec [[- 0; 1]] [3; 1]) = [0; 1]).
  { cbn. apply f_equal2; [ring|apply f_equal2; [ring|auto]]. }
  rewrite E. auto.
Qed.
(** The basis of this case is one of those of the theorems. *)
Example left_of_basis : forall d, length d = 2%nat -> unitv d -> orthogonal_matrix (length d) (d :: left_of d).
Proof.
  intros [|a [|b [|c d]]] L U; try discriminate. unfold unitv in U. cbn in U. cbn [left_of length]. split; auto. split; [repeat constructor|].
  cbn [orthonormal_columns]. split; [exact U|]. split; [repeat constructor; cbn; ring|]. split; [unfold unitv; cbn; lra|]. split; [constructor|auto].
Qed.

(** * C127: the mean normal *)
(** The mean normal is a unit vector, and not defined without offset of the normals. *)
Theorem C127_unit m d v : mean_normal m d = Ok v -> unitv v.
Proof.
  unfold mean_normal. destruct (fdiv _ _) as [dp|]; [|discriminate]. cbn [bind].
  destruct (Req_EM_T (norm (vadd (vscale (if Rltb (-1 * dp) (sqrt 2 / 2) then 1 else sqrt 2 * (-1 * dp)) m) d)) 0); [discriminate|].
  intros H. injection H as <-. apply unit_vdiv. auto.
Qed.
(** A round component: the precision is a positive multiple of the identity. *)
Definition round_comp (n : nat) (c : component) : Prop :=
  length (c_mean c) = n /\ exists k, 0 < k /\ forall d, length d = n -> mat_vec (c_prec c) d = vscale k d.
Lemma round_normal n factor c x : 0 < factor -> round_comp n c -> length x = n -> x <> c_mean c ->
  normal_direction factor c x = Ok (reference_direction c x).
Proof.
  intros F (Lm & k & Pk & R) Lx N. unfold normal_direction, reference_direction. set (d := vsub x (c_mean c)).
  assert (Ld : length d = n) by (unfold d; autorewrite with vlen; lia).
  assert (Nd : norm d <> 0).
  { intros Z. apply N. apply dot_vsub_self_eq; [lia|]. apply norm_eq_0_dot. exact Z. }
  pose proof (norm_pos d Nd) as Pd.
  assert (Q : quad c x = k * (norm d * norm d)) by (unfold quad; fold d; rewrite R, dot_vscale_r, norm_sq by auto; auto).
  assert (PQ : 0 < quad c x) by (rewrite Q; apply Rmult_lt_0_compat; nra).
  rewrite !fpow_pos by auto. cbn [bind]. rewrite R by auto.
  set (f := Rpower (quad c x) (1 / 2 - 1) * Rpower factor (-1)).
  assert (Pf : 0 < f) by (unfold f; apply Rmult_lt_0_compat; apply Rpower_pos).
  assert (NF : norm (vscale f (vscale k d)) = f * k * norm d) by (rewrite !norm_vscale, !Rabs_right by lra; ring).
  assert (0 < f * k) by nra.
  destruct (Req_EM_T (norm (vscale f (vscale k d))) 0) as [Z|_]; [rewrite NF in Z; nra|]. destruct (Req_EM_T (norm d) 0); [lra|].
  f_equal. unfold vdiv. rewrite NF. vext. field. lra.
Qed.
(** For all obstacles of round components, all weights and all positions away from the centers: the
    mean normal is not defined. *)
Theorem C127_round n factor comps weights x m : 0 < factor -> length x = n ->
  (forall c, In c comps -> round_comp n c /\ x <> c_mean c) ->
  exists d, delta_normal factor n comps weights x = Ok d /\ mean_normal m d = Err ENaN.
Proof.
  intros F Lx H. exists (vzero n). split.
  - unfold delta_normal. revert weights. induction comps as [|c comps IH]; intros weights; auto.
    destruct weights as [|w weights]; auto. cbn [combine foldM fst snd].
    assert (IH' := IH (fun c' I => H c' (or_intror I)) weights).
    destruct (Req_EM_T w 0); [exact IH'|]. destruct (H c (or_introl eq_refl)) as [RC N].
    rewrite (round_normal n) by auto. cbn [bind].
    assert (Lr : length (reference_direction c x) = n).
    { unfold reference_direction. destruct RC as (Lm & _). destruct (Req_EM_T (norm (vsub x (c_mean c))) 0) as [Z|_].
      - exfalso. apply N. apply dot_vsub_self_eq; [lia|]. apply norm_eq_0_dot. exact Z.
      - autorewrite with vlen. lia. }
    replace (vadd (vzero n) (vsub (reference_direction c x) (reference_direction c x))) with (vzero n) by (vext; ring). exact IH'.
  - unfold mean_normal, fdiv. rewrite norm_vzero. destruct (Req_EM_T 0 0); [auto|lra].
Qed.
Theorem C127_round_refuted : exists n factor comps weights x m d, 0 < factor /\ unitv m /\ rsum weights = 1 /\
  delta_normal factor n comps weights x = Ok d /\ mean_normal m d = Err ENaN.
Proof.
  destruct (C127_round 2 2 [round [0; 0]] [1] [3; 0] [1; 0]) as (d & E & N); [lra|auto| |].
  - intros c [<-|[]]. split; [|intros E; injection E; lra]. split; auto. exists 1. split; [lra|].
    intros [|a [|b [|? ?]]] L; try discriminate. cbn. apply f_equal2; [ring|apply f_equal2; [ring|auto]].
  - exists 2%nat, 2, [round [0; 0]], [1], [3; 0], [1; 0], d. split; [lra|]. split; [unfold unitv; cbn; ring|]. split; [cbn; ring|]. auto.
Qed.
(** One component with a weight, whose normal is not the direction from its center: the mean normal
    is its normal. *)
Theorem C127_single n factor c w x : 0 < factor -> length (c_mean c) = n -> length x = n -> length (c_prec c) = n -> (0 < n)%nat ->
  0 < quad c x -> w <> 0 ->
  exists u d, normal_direction factor c x = Ok u /\ delta_normal factor n [c] [w] x = Ok d /\
    (u <> reference_direction c x -> mean_normal (reference_direction c x) d = Ok u).
Proof.
  intros F Lm Lx LP Hn Q W.
  assert (NU : exists u, normal_direction factor c x = Ok u /\ unitv u /\ length u = n /\ 0 < dot u (vsub x (c_mean c))).
  { unfold normal_direction. rewrite !fpow_pos by auto. cbn [bind].
    set (f := Rpower (quad c x) (1 / 2 - 1) * Rpower factor (-1)).
    assert (Pf : 0 < f) by (unfold f; apply Rmult_lt_0_compat; apply Rpower_pos).
    set (g := mat_vec (c_prec c) (vsub x (c_mean c))).
    assert (QD : dot g (vsub x (c_mean c)) = quad c x) by (unfold g, quad; apply dot_comm).
    assert (Ng : norm g <> 0). { intros Z. apply norm_zero_iff in Z. rewrite Z, dot_vzero_l in QD. lra. }
    assert (Pg : 0 < norm g) by (apply norm_pos; auto).
    assert (Nf : norm (vscale f g) = f * norm g) by (rewrite norm_vscale, Rabs_right by lra; auto).
    destruct (Req_EM_T (norm (vscale f g)) 0) as [Z|NZ]; [rewrite Nf in Z; nra|].
    eexists. split; [reflexivity|]. split; [apply unit_vdiv; auto|]. split.
    - autorewrite with vlen. unfold g. rewrite mv_len. auto.
    - rewrite dot_vdiv_l, dot_vscale_l, QD. apply Rdiv_lt_0_compat; [nra|]. rewrite Nf. nra. }
  destruct NU as (u & Eu & Uu & Lu & Pu). exists u. destruct (C125_reference n c x Hn Lm Lx) as (Ur & Lr & K).
  set (r := reference_direction c x) in *.
  assert (NE : x <> c_mean c).
  { intros E. rewrite E in Pu. replace (vsub (c_mean c) (c_mean c)) with (vzero (length (c_mean c))) in Pu by (vext; ring).
    rewrite dot_vzero_r in Pu. lra. }
  destruct (K NE) as (k & Pk & Ek). rewrite <- Ek, dot_vscale_r in Pu. assert (Pur : 0 < dot u r) by nra. clear Pu.
  exists (vadd (vzero n) (vsub u r)). split; auto. split.
  { unfold delta_normal. cbn [combine foldM fst snd]. destruct (Req_EM_T w 0); [contradiction|]. rewrite Eu. auto. }
  intros N. replace (vadd (vzero n) (vsub u r)) with (vsub u r) by (vext; ring).
  set (c0 := dot u r) in *. unfold unitv in Uu, Ur.
  assert (D : dot (vsub u r) (vsub u r) = 2 - 2 * c0).
  { rewrite dot_vsub_l, !dot_vsub_r, Uu, Ur, (dot_comm r u). fold c0. ring. }
  assert (Dr : dot (vsub u r) r = c0 - 1) by (rewrite dot_vsub_l, Ur; fold c0; ring).
  assert (C1 : c0 < 1).
  { destruct (unit_dot_bounds u r Uu Ur) as [_ B]. fold c0 in B. destruct (Req_dec c0 1) as [E1|]; [|lra].
    exfalso. apply N. apply (unit_dot_1 u r); auto. lia. }
  assert (Nz : norm (vsub u r) <> 0). { intros Z. apply norm_eq_0_dot in Z. rewrite D in Z. lra. }
  unfold mean_normal, fdiv. destruct (Req_EM_T (norm (vsub u r)) 0); [contradiction|]. cbn [bind]. rewrite Dr.
  assert (NP : 0 < norm (vsub u r)) by (apply norm_pos; auto). pose proof (norm_sq (vsub u r)) as NS. rewrite D in NS.
  set (nn := norm (vsub u r)) in *.
  assert (S2 : sqrt 2 * sqrt 2 = 2) by (apply sqrt_sqrt; lra). assert (P2 : 0 < sqrt 2) by (apply sqrt_lt_R0; lra).
  assert (T : -1 * ((c0 - 1) / nn) < sqrt 2 / 2).
  { replace (-1 * ((c0 - 1) / nn)) with (nn / 2).
    - assert (nn < sqrt 2); [|lra]. destruct (Rlt_le_dec nn (sqrt 2)); auto. exfalso. nra.
    - apply (Rmult_eq_reg_r nn); [|lra]. replace (-1 * ((c0 - 1) / nn) * nn) with (1 - c0) by (field; lra).
      replace (nn / 2 * nn) with (nn * nn / 2) by field. rewrite NS. field. }
  rewrite (proj2 (Rltb_true _ _)) by auto.
  replace (vadd (vscale 1 r) (vsub u r)) with u by (vext; ring). rewrite (proj1 (unit_norm u) Uu).
  destruct (Req_EM_T 1 0); [lra|]. f_equal. unfold vdiv. rewrite Rinv_1. vext. ring.
Qed.
Example C127_example : exists u d, normal_direction 2 (mkComp [0; 0] [[1; 0]; [0; 2]] [] []) [1; 1] = Ok u /\
  delta_normal 2 2 [mkComp [0; 0] [[1; 0]; [0; 2]] [] []] [1] [1; 1] = Ok d.
Proof.
  destruct (C127_single 2 2 (mkComp [0; 0] [[1; 0]; [0; 2]] [] []) 1 [1; 1]) as (u & d & A & B & _); auto; try lra.
  - unfold quad. cbn. lra.
  - eauto.
Qed.

(** * C128: intersection of two components *)
(** Equal centers: the center. *)
Theorem C128_same_center factor a b power it_max rtol step : length (c_mean a) = length (c_mean b) -> c_mean a = c_mean b ->
  intersection_of_ellipses factor a b power it_max rtol step = Ok (c_mean a).
Proof.
  intros _ E. unfold intersection_of_ellipses. rewrite E. replace (vsub (c_mean b) (c_mean b)) with (vzero (length (c_mean b))) by (vext; ring).
  rewrite norm_vzero, Rmult_0_r. destruct (Req_EM_T 0 0); [auto|lra].
Qed.
(** Two components with the same precision: the middle between the centers, however far apart they
    are. *)
Theorem C128_middle n factor a b power it_max rtol step : length (c_mean a) = n -> length (c_mean b) = n ->
  c_prec a = c_prec b -> c_mean a <> c_mean b ->
  0 < factor -> 0 < power -> 0 < rtol -> 0 < quad a (vscale (/ 2) (vadd (c_mean a) (c_mean b))) ->
  intersection_of_ellipses factor a b power it_max rtol step = Ok (vscale (/ 2) (vadd (c_mean a) (c_mean b))).
Proof.
  intros La Lb EP N F Pp Pr Q. set (x := vscale (/ 2) (vadd (c_mean a) (c_mean b))) in *.
  assert (ND : norm (vsub (c_mean a) (c_mean b)) <> 0).
  { intros Z. apply N. apply dot_vsub_self_eq; [lia|]. apply norm_eq_0_dot. exact Z. }
  pose proof (norm_pos _ ND) as PD. unfold intersection_of_ellipses.
  assert (PT : 0 < rtol * norm (vsub (c_mean a) (c_mean b))) by nra.
  destruct (Req_EM_T (rtol * norm (vsub (c_mean a) (c_mean b))) 0); [lra|]. fold x.
  assert (XB : vsub x (c_mean b) = vscale (-1) (vsub x (c_mean a))) by (unfold x; vext; field).
  assert (QB : quad b x = quad a x).
  { unfold quad. rewrite XB, mv_scale, dot_vscale_l, dot_vscale_r, EP. ring. }
  destruct it_max as [|it]; [reflexivity|]. cbn [descend]. unfold gamma_derivative. rewrite QB, !fpow_pos by auto. cbn [bind].
  rewrite XB, mv_scale, <- EP. set (f := power / 2 * Rpower (quad a x) (power / 2 - 1) * Rpower factor (- power)).
  set (v := mat_vec (c_prec a) (vsub x (c_mean a))).
  replace (vadd (vscale f v) (vscale f (vscale (-1) v))) with (vzero (length v)) by (vext; ring).
  rewrite norm_vzero. unfold fpow at 1. destruct (Rlt_dec 0 0); [lra|].
  assert (P1 : 0 < 1 / power) by (apply Rdiv_lt_0_compat; lra).
  destruct (Req_EM_T (1 / power) 0); [lra|]. destruct (Req_EM_T 0 0); [|lra]. destruct (Rlt_dec 0 (1 / power)); [|lra].
  cbn [bind]. rewrite (proj2 (Rltb_true _ _)) by auto. auto.
Qed.
(** The sum of the powers of the two gammas, which the search decreases. *)
Definition gamma_powers (factor : R) (a b : component) (power : R) (x : vec) : R :=
  Rpower (gam factor a x) power + Rpower (gam factor b x) power.
Lemma gamma_powers_derivative n factor a b power x : length (c_mean a) = n -> length (c_mean b) = n -> length x = n ->
  symmetric n (c_prec a) -> symmetric n (c_prec b) -> 0 < factor -> 0 < quad a x -> 0 < quad b x ->
  exists ga gb, gamma_derivative factor a power x = Ok ga /\ gamma_derivative factor b power x = Ok gb /\
    forall t, length t = n -> derivable_pt_lim (fun s => gamma_powers factor a b power (vadd x (vscale s t))) 0 (2 * dot (vadd ga gb) t).
Proof.
  intros La Lb Lx Sa Sb F Qa Qb. destruct (C125_half n factor a x power) as (ga & Ea & Da); auto.
  destruct (C125_half n factor b x power) as (gb & Eb & Db); auto. exists ga, gb. split; auto. split; auto. intros t Lt.
  rewrite dot_vadd_l, Rmult_plus_distr_l.
  apply (derivable_pt_lim_plus (fun s => Rpower (gam factor a (vadd x (vscale s t))) power) (fun s => Rpower (gam factor b (vadd x (vscale s t))) power)); auto.
Qed.
(** A run of the search: each step changes the position, along a direction in which the sum of the
    powers decreases. *)
Definition downhill (n : nat) (f : vec -> R) (x y : vec) : Prop :=
  length y = n /\ y <> x /\ exists l, l < 0 /\ derivable_pt_lim (fun s => f (vadd x (vscale s (vsub y x)))) 0 l.
(** No direction of unit length changes the function by more than [e]. *)
Definition almost_stationary (n : nat) (f : vec -> R) (x : vec) (e : R) : Prop :=
  forall t, length t = n -> unitv t -> exists l, Rabs l <= e /\ derivable_pt_lim (fun s => f (vadd x (vscale s t))) 0 l.
Lemma descend_path n factor a b power tol step : length (c_mean a) = n -> length (c_mean b) = n ->
  symmetric n (c_prec a) -> symmetric n (c_prec b) -> length (c_prec a) = n -> length (c_prec b) = n ->
  0 < factor -> 0 < power -> 0 < step -> 0 < tol -> forall it x y, length x = n -> descend factor a b power tol step it x = Ok y ->
  exists path m, (m <= it)%nat /\ path 0%nat = x /\ path m = y /\
    (forall k, (k < m)%nat -> 0 < quad a (path k) -> 0 < quad b (path k) ->
       downhill n (gamma_powers factor a b power) (path k) (path (S k))) /\
    (forall k, (k <= m)%nat -> length (path k) = n) /\
    (m = it \/ (0 < quad a y -> 0 < quad b y -> almost_stationary n (gamma_powers factor a b power) y (2 * Rpower tol power))).
Proof.
  intros La Lb Sa Sb Pa Pb F Pp Ps Pt. induction it as [|it IH]; intros x y Lx H; cbn [descend] in H.
  - injection H as <-. exists (fun _ => x), 0%nat. split; [lia|]. split; auto. split; auto. split; [intros k Hk; lia|]. auto.
  - destruct (gamma_derivative factor a power x) as [ga|] eqn:Ea; [|discriminate].
    destruct (gamma_derivative factor b power x) as [gb|] eqn:Eb; [|discriminate]. cbn [bind] in H.
    assert (Lga : length ga = n).
    { unfold gamma_derivative in Ea. destruct (fpow (quad a x) _); [|discriminate]. destruct (fpow factor _); [|discriminate].
      cbn [bind] in Ea. injection Ea as <-. rewrite length_vscale, mv_len. auto. }
    assert (Lgb : length gb = n).
    { unfold gamma_derivative in Eb. destruct (fpow (quad b x) _); [|discriminate]. destruct (fpow factor _); [|discriminate].
      cbn [bind] in Eb. injection Eb as <-. rewrite length_vscale, mv_len. auto. }
    set (g := vadd ga gb) in *. assert (Lg : length g = n) by (unfold g; autorewrite with vlen; lia).
    assert (DG : 0 < quad a x -> 0 < quad b x -> forall t, length t = n ->
       derivable_pt_lim (fun s => gamma_powers factor a b power (vadd x (vscale s t))) 0 (2 * dot g t)).
    { intros Qa Qb t Lt. destruct (gamma_powers_derivative n factor a b power x) as (ga' & gb' & Ea' & Eb' & D); auto.
      rewrite Ea in Ea'. rewrite Eb in Eb'. injection Ea' as <-. injection Eb' as <-. apply D. auto. }
    destruct (fpow (norm g) (1 / power)) as [s|] eqn:Es; [|discriminate]. cbn [bind] in H.
    destruct (Rltb s tol) eqn:T.
    + apply Rltb_true in T. injection H as <-. exists (fun _ => x), 0%nat. split; [lia|]. split; auto. split; auto. split; [intros k Hk; lia|].
      split; auto. right. intros Qa Qb t Lt Ut. exists (2 * dot g t). split; [|apply DG; auto].
      rewrite Rabs_mult, Rabs_right by lra. apply Rmult_le_compat_l; [lra|].
      eapply Rle_trans; [apply cauchy_schwarz|]. rewrite (proj1 (unit_norm _) Ut), Rmult_1_r.
      destruct (Req_dec (norm g) 0) as [->|NG]; [left; apply exp_pos|]. pose proof (norm_pos _ NG) as PG.
      rewrite fpow_pos in Es by auto. injection Es as <-. left.
      assert (Q : norm g = Rpower (Rpower (norm g) (1 / power)) power).
      { rewrite Rpower_mult. replace (1 / power * power) with 1 by (field; lra). rewrite Rpower_1; auto. }
      rewrite Q. apply Rlt_Rpower_l; [lra|]. split; [apply exp_pos|auto].
    + apply Rltb_false in T. destruct (Req_EM_T (norm g) 0) as [|NG]; [discriminate|]. pose proof (norm_pos _ NG) as PG.
      assert (Lx' : length (vsub x (vscale step (vscale s (vdiv g (norm g))))) = n) by (unfold vdiv; autorewrite with vlen; lia).
      set (x' := vsub x _) in *. destruct (IH x' y Lx' H) as (path & m & Hm & P0 & Pm & Rn & Ln & Fin).
      exists (fun k => match k with O => x | S k => path k end), (S m). split; [lia|]. split; auto. split; auto. split; [|split].
      * intros [|k] Hk Qa Qb; [|apply Rn; auto; lia]. cbn [Nat.add]. rewrite P0.
        assert (W : vsub x' x = vscale (- (step * s / norm g)) g) by (unfold x', vdiv; vext; field; auto).
        assert (C : 0 < step * s / norm g) by (apply Rdiv_lt_0_compat; auto; nra).
        assert (GG : 0 < dot g g) by (rewrite <- norm_sq; nra). set (c := step * s / norm g) in *. split; auto. split.
        -- intros E. rewrite E in W. apply (f_equal (dot g)) in W. rewrite dot_vscale_r in W.
           replace (dot g (vsub x x)) with 0 in W by (rewrite dot_vsub_r; ring). nra.
        -- exists (2 * dot g (vsub x' x)). split; [rewrite W, dot_vscale_r; nra|]. apply DG; auto. rewrite W, length_vscale. auto.
      * intros [|k] Hk; auto. apply Ln. lia.
      * destruct Fin as [->|Fin]; auto.
Qed.
(** The search starts in the middle, goes downhill in each round and ends after the rounds or where
    the sum of the powers is almost stationary. *)
Theorem C128_descent n factor a b power it_max rtol step p : length (c_mean a) = n -> length (c_mean b) = n ->
  symmetric n (c_prec a) -> symmetric n (c_prec b) -> length (c_prec a) = n -> length (c_prec b) = n ->
  0 < factor -> 0 < power -> 0 < step -> 0 < rtol -> c_mean a <> c_mean b ->
  intersection_of_ellipses factor a b power it_max rtol step = Ok p ->
  exists path m, (m <= it_max)%nat /\ path 0%nat = vscale (/ 2) (vadd (c_mean a) (c_mean b)) /\ path m = p /\
    (forall k, (k < m)%nat -> 0 < quad a (path k) -> 0 < quad b (path k) ->
       downhill n (gamma_powers factor a b power) (path k) (path (S k))) /\
    (m = it_max \/ (0 < quad a p -> 0 < quad b p ->
       almost_stationary n (gamma_powers factor a b power) p (2 * Rpower (rtol * norm (vsub (c_mean a) (c_mean b))) power))).
Proof.
  intros La Lb Sa Sb Pa Pb F Pp Ps Pr N H. unfold intersection_of_ellipses in H.
  assert (ND : norm (vsub (c_mean a) (c_mean b)) <> 0).
  { intros Z. apply N. apply dot_vsub_self_eq; [lia|]. apply norm_eq_0_dot. exact Z. }
  pose proof (norm_pos _ ND) as PD. destruct (Req_EM_T _ 0); [nra|].
  destruct (descend_path n factor a b power (rtol * norm (vsub (c_mean a) (c_mean b))) step La Lb Sa Sb Pa Pb F Pp Ps ltac:(nra) it_max
    (vscale (/ 2) (vadd (c_mean a) (c_mean b))) p) as (path & m & Hm & P0 & Pm & Rn & _ & Fin); auto.
  { autorewrite with vlen. lia. }
  exists path, m. split; auto.
Qed.
Example C128_step : intersection_of_ellipses 1 (mkComp [0; 0] [[1; 0]; [0; 1]] [] []) (mkComp [2; 0] [[4; 0]; [0; 4]] [] []) 2 1 (1 / 10) (1 / 20) =
  Ok [1 + 1 / 20 * sqrt 3; 0].
Proof.
  unfold intersection_of_ellipses. cbn [c_mean]. assert (N2 : norm (vsub [0; 0] [2; 0]) = 2) by (unfold norm; apply sqrt_lem_1; cbn; lra).
  rewrite N2. destruct (Req_EM_T _ 0); [lra|].
  replace (vscale (/ 2) (vadd [0; 0] [2; 0])) with [1; 0] by (cbn; repeat (apply f_equal2; [field|]); auto).
  assert (Q1 : quad (mkComp [0; 0] [[1; 0]; [0; 1]] [] []) [1; 0] = 1) by (unfold quad; cbn; ring).
  assert (Q2 : quad (mkComp [2; 0] [[4; 0]; [0; 4]] [] []) [1; 0] = 4) by (unfold quad; cbn; ring).
  cbn [descend]. unfold gamma_derivative. rewrite Q1, Q2, !fpow_pos by lra. cbn [bind].
  replace (2 / 2 - 1) with 0 by field. rewrite !Rpower_O, !Rpower_base_1 by lra. cbn [c_mean c_prec].
  set (g := vadd _ _). assert (G : g = [-3; 0]) by (unfold g; cbn; repeat (apply f_equal2; [field|]); auto).
  assert (N3 : norm [-3; 0] = 3) by (unfold norm; apply sqrt_lem_1; cbn; lra).
  rewrite G, N3, fpow_pos by lra. cbn [bind]. replace (1 / 2) with (/ 2) by field. rewrite Rpower_sqrt by lra.
  assert (S3 : sqrt 3 * sqrt 3 = 3) by (apply sqrt_sqrt; lra). assert (P3 : 0 < sqrt 3) by (apply sqrt_lt_R0; lra).
  rewrite (proj2 (Rltb_false _ _)) by nra. destruct (Req_EM_T 3 0); [lra|]. f_equal.
  unfold vdiv. cbn. repeat (apply f_equal2; [field|]); auto.
Qed.
(** So the reference point of a component may lie outside of it and of its parent. *)
Theorem C128_overlap_refuted : exists factor a b p ga gb, 0 < factor /\ reference_point factor a b = Ok p /\
  gamma_proportional factor a p = Ok ga /\ gamma_proportional factor b p = Ok gb /\ 1 < ga /\ 1 < gb.
Proof.
  exists 2, (round [0; 0]), (round [8; 0]), [4; 0], 2, 2. split; [lra|].
  assert (M : vscale (/ 2) (vadd (c_mean (round [0; 0])) (c_mean (round [8; 0]))) = [4; 0]).
  { cbn. apply f_equal2; [field|apply f_equal2; [field|auto]]. }
  split.
  - unfold reference_point. rewrite (C128_middle 2), M; auto; try lra.
    + cbn. intros E. injection E. lra.
    + rewrite M. unfold quad. cbn. lra.
  - split; [apply gamma_value; try lra; unfold quad; cbn; ring|]. split; [apply gamma_value; try lra; unfold quad; cbn; ring|lra].
Qed.
Print Assumptions C125_normal.
Print Assumptions C125_triangular_refuted.
Print Assumptions C125_reference.
Print Assumptions C125_center.
Print Assumptions C125_half.
Print Assumptions C125_derivative_refuted.
Print Assumptions C126_set_refuted.
Print Assumptions C126_first_component.
Print Assumptions C126_projection.
Print Assumptions C126_towards_refuted.
Print Assumptions C126_unit_velocity.
Print Assumptions C127_unit.
Print Assumptions C127_round.
Print Assumptions C127_round_refuted.
Print Assumptions C127_single.
Print Assumptions C128_same_center.
Print Assumptions C128_middle.
Print Assumptions C128_overlap_refuted.
Print Assumptions C128_descent.
