(** Cases and refutations of C91, C93: three rooms in a row, multi_hull_and_obstacle.py. *)
Require Import Reals List Bool Arith Lia Lra Psatz.
From Verif Require Import Base Vec RotModel RotAvoidModel HullModel HullProofs PropHull PropHullRoute Spec.
Import ListNotations.
Open Scope R_scope.

(** ** Paths of networkx: an instance *)
Definition step_to (a : hnode) (e : edge) : list hnode :=
  (if hnode_eqb (e_fst e) a then [e_snd e] else []) ++ (if hnode_eqb (e_snd e) a then [e_fst e] else []).
Fixpoint first_some {A B} (f : A -> option B) (l : list A) : option B :=
  match l with [] => None | x :: l' => match f x with Some b => Some b | None => first_some f l' end end.
Fixpoint search (fuel : nat) (es : list edge) (seen : list hnode) (a b : hnode) : option (list hnode) :=
  if existsb (hnode_eqb a) seen then None
  else if hnode_eqb a b then Some [a]
  else match fuel with
       | O => None
       | S f => first_some (fun c => option_map (cons a) (search f es (a :: seen) c b)) (flat_map (step_to a) es)
       end.
Lemma first_some_in {A B} (f : A -> option B) l b : first_some f l = Some b -> exists x, In x l /\ f x = Some b.
Proof.
  induction l as [|x l IH]; cbn; intros H; [discriminate|]. destruct (f x) eqn:E.
  - exists x. split; [left; auto|congruence].
  - destruct (IH H) as (y & Hy & Ey). exists y. auto.
Qed.
Lemma first_some_none {A B} (f : A -> option B) l : first_some f l = None -> forall x, In x l -> f x = None.
Proof.
  induction l as [|x l IH]; cbn; intros H y Hy; [destruct Hy|]. destruct (f x) eqn:E; [discriminate|].
  destruct Hy as [<-|Hy]; auto.
Qed.
Lemma step_to_joins a e c : In c (step_to a e) <-> joins e a c.
Proof.
  unfold step_to, joins. rewrite in_app_iff. split.
  - intros [H|H]; destruct (hnode_eqb _ _) eqn:E; cbn in H; try tauto; destruct H as [<-|[]]; apply hnode_eqb_eq in E; auto.
  - intros [[<- <-]|[<- <-]]; [left|right]; rewrite (proj2 (hnode_eqb_eq _ _) eq_refl); left; auto.
Qed.
Lemma seen_false seen a : existsb (hnode_eqb a) seen = false <-> ~ In a seen.
Proof.
  rewrite <- not_true_iff_false, existsb_exists. split.
  - intros H F. apply H. exists a. split; auto. apply hnode_eqb_eq. auto.
  - intros H (x & Hx & E). apply hnode_eqb_eq in E. subst. auto.
Qed.
Lemma last_any {A} (r : list A) : forall x d d', last (x :: r) d = last (x :: r) d'.
Proof. induction r as [|y r IH]; intros; auto. change (last (y :: r) d = last (y :: r) d'). apply IH. Qed.
Lemma search_sound es b : forall fuel seen a path, search fuel es seen a b = Some path ->
  exists rest, path = a :: rest /\ last path a = b /\ NoDup path /\ (forall x, In x path -> ~ In x seen) /\ walk es path.
Proof.
  induction fuel as [|f IH]; intros seen a path H; cbn [search] in H;
    (destruct (existsb (hnode_eqb a) seen) eqn:ES; [discriminate|]); apply seen_false in ES;
    (destruct (hnode_eqb a b) eqn:EB;
      [apply hnode_eqb_eq in EB; subst b; assert (path = [a]) by congruence; subst path; exists [];
       split; [auto|]; split; [auto|]; split; [repeat constructor; intros []|]; split; [intros x [<-|[]]; auto|cbn; auto]|]).
  - discriminate.
  - apply first_some_in in H as (c & Hc & E). destruct (search f es (a :: seen) c b) as [q|] eqn:EQ; [|discriminate].
    cbn in E. assert (path = a :: q) by congruence. subst path.
    destruct (IH _ _ _ EQ) as (rest & -> & E2 & E3 & E4 & E5). exists (c :: rest).
    apply in_flat_map in Hc as (e & He & Hc). apply step_to_joins in Hc.
    split; auto. split; [|split; [|split]].
    + change (last (c :: rest) a = b). rewrite <- E2. apply last_any.
    + constructor; auto. intros F. apply (E4 a F). left. auto.
    + intros x [<-|Hx]; auto. intros F. apply (E4 x Hx). right. auto.
    + rewrite walk_cons. split; eauto.
Qed.
Lemma search_complete es b : forall path seen a fuel, hd_error path = Some a -> last path a = b -> NoDup path ->
  (forall x, In x path -> ~ In x seen) -> walk es path -> (length path <= S fuel)%nat -> search fuel es seen a b <> None.
Proof.
  induction path as [|x [|y rest] IH]; intros seen a fuel H L ND NS W LE; [discriminate| |].
  - cbn in H, L. assert (x = a) by congruence. subst x. subst b.
    assert (N : existsb (hnode_eqb a) seen = false) by (apply seen_false; apply NS; left; auto).
    destruct fuel; cbn [search]; rewrite N, (proj2 (hnode_eqb_eq a a) eq_refl); discriminate.
  - cbn in H. assert (x = a) by congruence. subst x.
    assert (N : existsb (hnode_eqb a) seen = false) by (apply seen_false; apply NS; left; auto).
    destruct fuel as [|f]; [cbn in LE; lia|]. cbn [search]. rewrite N. destruct (hnode_eqb a b); [discriminate|].
    intros F. rewrite walk_cons in W. destruct W as ((e & He & J) & W).
    inversion ND as [|u v NI ND']. subst u v.
    assert (FN : option_map (cons a) (search f es (a :: seen) y b) = None).
    { apply (first_some_none _ _ F). apply in_flat_map. exists e. split; auto. apply step_to_joins; auto. }
    destruct (search f es (a :: seen) y b) eqn:EQ; [discriminate|]. revert EQ. apply IH; auto.
    + rewrite <- L. change (last (y :: rest) y = last (y :: rest) a). apply last_any.
    + intros x Hx [<-|Hs]; [contradiction|]. apply (NS x); auto. right. auto.
    + cbn in LE |- *. lia.
Qed.
Definition nx_path (es : list edge) (a b : hnode) : option (list hnode) := search (2 * length es) es [] a b.
Fixpoint path_len (es : list edge) (path : list hnode) : R :=
  match path with
  | a :: ((b :: _) as rest) => match find_edge es a b with Some e => e_dist e | None => 0 end + path_len es rest
  | _ => 0
  end.
Definition nx_dist (es : list edge) (a b : hnode) : option R := option_map (path_len es) (nx_path es a b).
(** What the theorems use of networkx: a path is returned exactly between connected nodes, it
    has no repetition, and the length is the one of the path. *)
Definition networkx (sp_dist : list edge -> hnode -> hnode -> option R)
    (sp_path : list edge -> hnode -> hnode -> option (list hnode)) : Prop :=
  (forall es a b path, sp_path es a b = Some path -> route es a b path /\ sp_dist es a b = Some (path_len es path)) /\
  (forall es a b path, route es a b path -> sp_path es a b <> None).
Lemma walk_nodes es : forall path a, hd_error path = Some a -> walk es path ->
  incl path (a :: flat_map (fun e => [e_fst e; e_snd e]) es).
Proof.
  induction path as [|x [|y rest] IH]; intros a H W; [discriminate| |]; cbn in H; assert (x = a) by congruence; subst x.
  - intros z [<-|[]]. left. auto.
  - rewrite walk_cons in W. destruct W as ((e & He & J) & W). intros z [<-|Hz]; [left; auto|].
    right. destruct (IH y eq_refl W z Hz) as [<-|Q]; auto.
    apply in_flat_map. exists e. split; auto. destruct J as [[<- <-]|[<- <-]]; cbn; auto.
Qed.
Lemma nx_networkx : networkx nx_dist nx_path.
Proof.
  split.
  - intros es a b path H. split; [|unfold nx_dist; rewrite H; auto].
    apply search_sound in H as (rest & -> & E1 & E2 & _ & E3). repeat split; auto.
  - intros es a b path (H1 & H2 & H3 & H4). apply (search_complete es b path); auto.
    pose proof (NoDup_incl_length H3 (walk_nodes es path a H1 H4)) as L. cbn [length] in L.
    assert (E : length (flat_map (fun e => [e_fst e; e_snd e]) es) = (2 * length es)%nat).
    { clear. induction es; cbn [flat_map length app]; auto. rewrite IHes. lia. }
    lia.
Qed.

(** ** Rooms *)
Definition room_at (cx : R) : region :=
  mkReg [cx; 0] [2; 2] (fun x => 5 - dot (vsub x [cx; 0]) (vsub x [cx; 0])) (fun x => direction (vsub x [cx; 0]))
    (fun x => direction (vsub x [cx; 0])) (fun x => vadd [cx; 0] (vscale 2 (direction (vsub x [cx; 0])))).
Definition dome : region :=
  mkReg [3; 5] [1; 1] (fun x => nth 1 x 0 - (nth 0 x 0 - 3) * (nth 0 x 0 - 3)) (fun _ => [0; 1]) (fun _ => [0; 1]) (fun x => x).
Definition rooms : hull := new_hull [room_at 0; room_at 3; room_at 6] dome (fun x => x) (fun x => x).
(** Common points: of two rooms the middle; of a room and the outside a point towards it. *)
Definition middle (g g' : region) : vec := vscale (1 / 2) (vadd (rg_center g) (rg_center g')).
Definition doorway (g _ : region) : vec :=
  let cx := nth 0 (rg_center g) 0 in [2 + cx / 3; 3 / 2 + (cx - 3) * (cx - 3) / 18].
Definition rooms_edges : list edge :=
  [mkEdge (Gate 0) (Hull 1) (norm (vsub (doorway (room_at 3) dome) [3; 0])) (doorway (room_at 3) dome);
   mkEdge (Hull 0) (Hull 1) (norm (vsub [0; 0] (middle (room_at 0) (room_at 3))) + norm (vsub [3; 0] (middle (room_at 0) (room_at 3)))) (middle (room_at 0) (room_at 3));
   mkEdge (Hull 1) (Hull 2) (norm (vsub [3; 0] (middle (room_at 3) (room_at 6))) + norm (vsub [6; 0] (middle (room_at 3) (room_at 6)))) (middle (room_at 3) (room_at 6))].
Lemma room_gamma cx x y : rg_gamma (room_at cx) [x; y] = 5 - ((x - cx) * (x - cx) + y * y).
Proof. cbn. unfold vsub, vscale. cbn. ring. Qed.
Lemma norm_axis_x x : norm [x; 0] = Rabs x.
Proof. unfold norm. cbn. rewrite <- sqrt_Rsqr_abs. f_equal. unfold Rsqr. ring. Qed.
Lemma rooms_graph : evaluate_hierarchy doorway middle rooms =
  mkHull [room_at 0; room_at 3; room_at 6] dome (fun x => x) (fun x => x) (Some rooms_edges) [] None false 1.
Proof.
  assert (SK : forall cx, Rltb (norm (vsub (rg_center (room_at cx)) (rg_center dome))) (axes_min dome - axes_max (room_at cx)) = false).
  { intros cx. apply Rltb_false. pose proof (norm_nonneg (vsub (rg_center (room_at cx)) (rg_center dome))).
    unfold axes_min, axes_max. cbn [rg_axes room_at dome fold_right hd tl]. rewrite (Rmin_left 1 1), (Rmax_left 2 2) by lra. lra. }
  assert (D : forall cx, doorway (room_at cx) dome = [2 + cx / 3; 3 / 2 + (cx - 3) * (cx - 3) / 18]) by auto.
  assert (M : forall a b, middle (room_at a) (room_at b) = [(a + b) / 2; 0]).
  { intros a b. unfold middle, vscale. cbn. f_equal; [field|f_equal; field]. }
  assert (FAR : forall a b, Rltb (axes_max (room_at a) + axes_max (room_at b)) (norm (vsub (rg_center (room_at a)) (rg_center (room_at b)))) = Rltb 4 (Rabs (a - b))).
  { intros a b. unfold axes_max. cbn [rg_axes room_at fold_right hd tl rg_center]. rewrite (Rmax_left 2 2) by lra. f_equal; [ring|].
    rewrite <- norm_axis_x. f_equal. unfold vsub, vscale. cbn. f_equal; [ring|f_equal; ring]. }
  unfold evaluate_hierarchy, rooms, new_hull. cbn [hl_inner hl_outer hl_to hl_dir_to hl_out hl_isout].
  cbn [gates_from links_from links_with app]. rewrite !SK, !FAR.
  replace (Rltb 4 (Rabs (0 - 3))) with false by (symmetry; apply Rltb_false; rewrite Rabs_left; lra).
  replace (Rltb 4 (Rabs (0 - 6))) with true by (symmetry; apply Rltb_true; rewrite Rabs_left; lra).
  replace (Rltb 4 (Rabs (3 - 6))) with false by (symmetry; apply Rltb_false; rewrite Rabs_left; lra).
  unfold reg_inside.
  replace (Rleb (rg_gamma (room_at 0) (doorway (room_at 0) dome)) 1) with true
    by (symmetry; apply Rleb_true; rewrite D, room_gamma; lra).
  replace (Rleb (rg_gamma (room_at 3) (doorway (room_at 3) dome)) 1) with false
    by (symmetry; apply Rleb_false; rewrite D, room_gamma; lra).
  replace (Rleb (rg_gamma (room_at 6) (doorway (room_at 6) dome)) 1) with true
    by (symmetry; apply Rleb_true; rewrite D, room_gamma; lra).
  replace (Rleb (rg_gamma (room_at 0) (middle (room_at 0) (room_at 3))) 1) with false
    by (symmetry; apply Rleb_false; rewrite M, room_gamma; lra).
  replace (Rleb (rg_gamma (room_at 3) (middle (room_at 0) (room_at 3))) 1) with false
    by (symmetry; apply Rleb_false; rewrite M, room_gamma; lra).
  replace (Rleb (rg_gamma (room_at 3) (middle (room_at 3) (room_at 6))) 1) with false
    by (symmetry; apply Rleb_false; rewrite M, room_gamma; lra).
  replace (Rleb (rg_gamma (room_at 6) (middle (room_at 3) (room_at 6))) 1) with false
    by (symmetry; apply Rleb_false; rewrite M, room_gamma; lra).
  reflexivity.
Qed.
(** Steps of the graph, to decide the paths. *)
Fixpoint steps (adj : hnode -> hnode -> bool) (path : list hnode) : bool :=
  match path with a :: ((b :: _) as rest) => adj a b && steps adj rest | _ => true end.
Lemma walk_steps adj es : (forall e, In e es -> adj (e_fst e) (e_snd e) = true /\ adj (e_snd e) (e_fst e) = true) ->
  forall path, walk es path -> steps adj path = true.
Proof.
  intros H. induction path as [|a [|b rest] IH]; intros W; auto. rewrite walk_cons in W. destruct W as ((e & He & J) & W).
  destruct (H e He) as [H1 H2]. change ((adj a b && steps adj (b :: rest))%bool = true). rewrite (IH W), andb_true_r. destruct J as [[<- <-]|[<- <-]]; auto.
Qed.
Definition rooms_adj (a b : hnode) : bool :=
  match a, b with
  | Gate 0, Hull 1 | Hull 1, Gate 0 | Hull 0, Hull 1 | Hull 1, Hull 0 | Hull 1, Hull 2 | Hull 2, Hull 1 => true
  | _, _ => false
  end.
Lemma rooms_steps path : walk rooms_edges path -> steps rooms_adj path = true.
Proof. apply walk_steps. intros e [<-|[<-|[<-|[]]]]; auto. Qed.
Ltac next y := destruct y as [[|[|[|?]]]|[|[|?]]]; cbn in *; try discriminate.
Ltac dup := exfalso; repeat (match goal with H : NoDup (_ :: _) |- _ => inversion H; clear H; subst end); cbn in *; tauto.
Lemma rooms_in path : route rooms_edges (Gate 0) (Hull 0) path -> path = [Gate 0; Hull 1; Hull 0].
Proof.
  intros (H1 & H2 & H3 & H4). apply rooms_steps in H4.
  destruct path as [|x [|y [|z [|w rest]]]]; cbn [hd_error] in H1; try discriminate; assert (x = Gate 0) by congruence; subst x;
    try discriminate.
  - next y.
  - next y. next z. auto.
  - next y. next z; next w; dup.
Qed.

Lemma rooms_across path : route rooms_edges (Hull 0) (Hull 2) path -> path = [Hull 0; Hull 1; Hull 2].
Proof.
  intros (H1 & H2 & H3 & H4). apply rooms_steps in H4.
  destruct path as [|x [|y [|z [|w rest]]]]; cbn [hd_error] in H1; try discriminate; assert (x = Hull 0) by congruence; subst x;
    try discriminate.
  - next y.
  - next y. next z. auto.
  - next y. next z; next w; dup.
Qed.
Lemma rooms_routes : route rooms_edges (Gate 0) (Hull 0) [Gate 0; Hull 1; Hull 0] /\
  route rooms_edges (Hull 0) (Hull 2) [Hull 0; Hull 1; Hull 2] /\ route rooms_edges (Hull 1) (Hull 2) [Hull 1; Hull 2].
Proof.
  assert (E1 : exists e, In e rooms_edges /\ joins e (Gate 0) (Hull 1)) by (eexists; split; [left; reflexivity|left; auto]).
  assert (E2 : exists e, In e rooms_edges /\ joins e (Hull 0) (Hull 1)) by (eexists; split; [right; left; reflexivity|left; auto]).
  assert (E2' : exists e, In e rooms_edges /\ joins e (Hull 1) (Hull 0)) by (eexists; split; [right; left; reflexivity|right; auto]).
  assert (E3 : exists e, In e rooms_edges /\ joins e (Hull 1) (Hull 2)) by (eexists; split; [right; right; left; reflexivity|left; auto]).
  assert (ND : forall a b c : hnode, a <> b -> a <> c -> b <> c -> NoDup [a; b; c]).
  { intros a b c N1 N2 N3. repeat constructor; cbn; intuition congruence. }
  split; [|split]; (split; [auto|split; [auto|split]]).
  - apply ND; congruence.
  - cbn [walk]. auto.
  - apply ND; congruence.
  - cbn [walk]. auto.
  - repeat constructor; cbn; intuition congruence.
  - cbn [walk]. auto.
Qed.

Section Nx.
Variable sp_dist : list edge -> hnode -> hnode -> option R.
Variable sp_path : list edge -> hnode -> hnode -> option (list hnode).
Variable orth1 : vec -> vec.
Hypothesis NX : networkx sp_dist sp_path.

Lemma nx_unique es a b path : route es a b path -> (forall q, route es a b q -> q = path) -> sp_path es a b = Some path.
Proof.
  intros R U. destruct NX as [N1 N2]. destruct (sp_path es a b) as [q|] eqn:E.
  - f_equal. apply U. apply (N1 es a b q E).
  - exfalso. apply (N2 es a b path R E).
Qed.

(** ** The state after an evaluation in one region *)
Lemma inner_loop_state h x : forall todo k i t, nth_error todo i = Some t -> snd (snd t) <> 0 ->
  (forall j t, nth_error todo j = Some t -> j <> i -> snd (snd t) = 0) ->
  attractor_of h (Hull (k + i)) = Ok None ->
  fst (inner_loop sp_dist sp_path orth1 h x k todo) = fst (update_path sp_dist sp_path h (k + i)) /\
  (forall e, snd (update_path sp_dist sp_path h (k + i)) = Err e -> snd (inner_loop sp_dist sp_path orth1 h x k todo) = Err e).
Proof.
  induction todo as [|[g [gam w]] todo IH]; intros k i t E N Z A; [destruct i; discriminate|]. cbn [inner_loop].
  destruct i as [|i].
  - cbn in E. assert (t = (g, (gam, w))) by congruence. subst t. cbn in N. destruct (Req_EM_T w 0); [contradiction|].
    rewrite Nat.add_0_r in *. rewrite A. destruct (update_path sp_dist sp_path h k) as [h1 r1]. cbn [fst snd].
    destruct r1 as [u|e]; [|split; [auto|intros e' Q; inversion Q; auto]].
    destruct (bind _ _) as [v|e]; [|split; [auto|intros e' Q; inversion Q; auto]].
    rewrite inner_loop_none. { split; [auto|intros e' Q; inversion Q; auto]. }
    intros q I. apply In_nth_error in I as (j & Ej). apply (Z (S j) q); auto.
  - cbn in E. assert (w = 0) as -> by (apply (Z 0%nat (g, (gam, w))); auto).
    destruct (Req_EM_T 0 0); [|congruence]. rewrite <- Nat.add_succ_comm in *. apply (IH (S k) i t); auto.
    intros j q Hj NJ. apply (Z (S j) q); auto.
Qed.
Lemma evaluate_state dim h x i g : nth_error (hl_inner h) i = Some g -> 1 < rg_gamma g x ->
  (forall j g', nth_error (all_regions h) j = Some g' -> j <> i -> rg_gamma g' x <= 1) ->
  attractor_of h (Hull i) = Ok None ->
  fst (evaluate_local sp_dist sp_path orth1 dim h x) = fst (update_path sp_dist sp_path h i) /\
  (forall e, snd (update_path sp_dist sp_path h i) = Err e -> snd (evaluate_local sp_dist sp_path orth1 dim h x) = Err e).
Proof.
  intros Eg G O A. unfold evaluate_local.
  assert (LI : (i < length (hl_inner h))%nat) by (apply nth_error_Some; congruence).
  assert (GI : nth i (hull_gammas h x) 0 = rg_gamma g x).
  { unfold hull_gammas. apply nth_error_nth. rewrite nth_error_map, nth_error_app1, Eg; auto. }
  assert (Z : forall j, j <> i -> nth j (hull_weights (hull_gammas h x)) 0 = 0).
  { intros j N. apply weights_nth. destruct (gammas_nth h x j) as [Q|(g' & E' & Q)]; auto. specialize (O j g' E' N). lra. }
  assert (S1 : rsum (hull_weights (hull_gammas h x)) = 1).
  { apply weights_sum_free. exists (rg_gamma g x). split; auto. rewrite <- GI. apply nth_In. rewrite gammas_length. lia. }
  assert (WI : nth i (hull_weights (hull_gammas h x)) 0 = 1) by (rewrite <- (rsum_one _ i Z); auto).
  destruct (Req_EM_T _ 0) as [Q|_]; [lra|].
  set (todo := combine _ _).
  assert (TD : forall j t, nth_error todo j = Some t -> snd (snd t) = nth j (hull_weights (hull_gammas h x)) 0).
  { intros j t E. unfold todo in E. destruct (todo_nth _ _ _ _ _ E) as (Q & _ & _). auto. }
  destruct (nth_error todo i) as [t|] eqn:Et.
  2: { exfalso. apply nth_error_None in Et. unfold todo in Et. rewrite !combine_length, weights_length, gammas_length in Et. lia. }
  destruct (inner_loop_state h x todo 0 i t Et) as [P1 P2].
  { rewrite (TD _ _ Et), WI. lra. }
  { intros j q E N. rewrite (TD _ _ E). auto. }
  { auto. }
  cbn [Nat.add] in P1, P2. destruct (inner_loop _ _ _ h x 0 todo) as [h1 r1]. cbn [fst snd] in P1, P2.
  destruct r1 as [l1|e].
  - assert (OS : outer_step sp_path orth1 h1 x (nth (length (hl_inner h)) (hull_gammas h x) 0)
                   (nth (length (hl_inner h)) (hull_weights (hull_gammas h x)) 0) = (h1, Ok [])).
    { unfold outer_step. rewrite (Z (length (hl_inner h))) by lia. destruct (Req_EM_T 0 0); auto. congruence. }
    rewrite OS. cbn [fst snd]. split; auto. intros e Q. discriminate (P2 e Q).
  - cbn [fst snd]. split; auto. intros e' Q. specialize (P2 e' Q). inversion P2. auto.
Qed.
Lemma evaluate_outside_state dim h x : 1 < rg_gamma (hl_outer h) x ->
  (forall g, In g (hl_inner h) -> rg_gamma g x <= 1) -> hl_out h = None ->
  fst (evaluate_local sp_dist sp_path orth1 dim h x) = fst (update_outside sp_path h x).
Proof.
  intros G O A. unfold evaluate_local.
  assert (Z : forall j, j <> length (hl_inner h) -> nth j (hull_weights (hull_gammas h x)) 0 = 0).
  { intros j N. apply weights_nth. destruct (gammas_nth h x j) as [Q|(g' & E' & Q)]; auto.
    destruct (nth_regions _ _ _ E') as [[L E]|[E _]]; [|contradiction]. apply nth_error_In in E. specialize (O _ E). lra. }
  assert (S1 : rsum (hull_weights (hull_gammas h x)) = 1).
  { apply weights_sum_free. exists (rg_gamma (hl_outer h) x). split; auto. unfold hull_gammas.
    apply in_map_iff. exists (hl_outer h). split; auto. apply in_or_app. right. left. auto. }
  assert (WI : nth (length (hl_inner h)) (hull_weights (hull_gammas h x)) 0 = 1) by (rewrite <- (rsum_one _ _ Z); auto).
  destruct (Req_EM_T _ 0) as [Q|_]; [lra|]. rewrite WI.
  rewrite inner_loop_none.
  - unfold outer_step. destruct (Req_EM_T 1 0); [lra|]. rewrite A. destruct (update_outside sp_path h x) as [h1 r1].
    destruct r1; auto.
  - intros t I. apply In_nth_error in I as (j & Ej). destruct (todo_nth _ _ _ _ _ Ej) as (Q & _ & Q1). rewrite <- Q. apply Z.
    assert (j < length (hl_inner h))%nat; [|lia]. apply nth_error_Some. congruence.
Qed.
Lemma update_outside_one h x es g l p path : hl_graph h = Some es -> hl_gates h = 1%nat -> hl_inner h = g :: l ->
  gate_point es 0 = Ok p -> sp_path es (Gate 0) (Hull 0) = Some path ->
  update_outside sp_path h x = assign_path es h path.
Proof.
  intros E1 E2 E3 E4 E5. unfold update_outside, edges_of, outside_candidates. rewrite E1, E2. cbn [seq mapM]. unfold bind.
  rewrite E4. cbn [flat_map fst snd]. rewrite app_nil_r, E3. cbn [length seq map]. rewrite !map_map. cbn [fst snd argmin].
  replace (argmin_from _ 1 0 _) with 0%nat.
  - cbn [nth_error]. rewrite E5. auto.
  - symmetry. transitivity (argmin_from (repeat (0 + norm (vsub x p)) (length l)) 1 0 (0 + norm (vsub x p))); [|apply argmin_const].
    f_equal. generalize 1%nat. generalize (length l). clear. induction n as [|m IH]; intros s; cbn [seq map repeat]; auto. f_equal. auto.
Qed.
Lemma run_ext dim : forall xs h, ext h (run sp_dist sp_path orth1 dim h xs).
Proof.
  induction xs as [|x xs IH]; intros h; cbn [run]; [apply ext_refl|].
  destruct (evaluate_local sp_dist sp_path orth1 dim h x) as [h1 r] eqn:E. cbn [fst].
  eapply ext_trans; [|apply IH]. apply (evaluate_keeps _ _ _ _ _ _ _ _ E).
Qed.

(** ** Attractor (7, 0) in the last room *)
Definition with_state (attr : list (option vec * bool)) (out : option vec) : hull :=
  mkHull [room_at 0; room_at 3; room_at 6] dome (fun x => x) (fun x => x) (Some rooms_edges) attr out false 1.
Definition side_a : vec := rg_surface (room_at 0) (middle (room_at 0) (room_at 3)).
Definition side_b : vec := rg_surface (room_at 3) (middle (room_at 0) (room_at 3)).
Lemma dome_gamma x y : rg_gamma dome [x; y] = y - (x - 3) * (x - 3).
Proof. auto. Qed.
Lemma rooms_set : set_attractor (evaluate_hierarchy doorway middle rooms) [7; 0] false =
  (with_state [(None, false); (None, false); (Some [7; 0], true)] None, Ok tt).
Proof.
  rewrite rooms_graph. unfold set_attractor. cbn [hl_outer hl_inner hl_graph map]. unfold reg_inside. rewrite dome_gamma, !room_gamma.
  rewrite (proj2 (Rleb_true (0 - (7 - 3) * (7 - 3)) 1)) by lra.
  rewrite (proj2 (Rleb_true (5 - ((7 - 0) * (7 - 0) + 0 * 0)) 1)) by lra.
  rewrite (proj2 (Rleb_true (5 - ((7 - 3) * (7 - 3) + 0 * 0)) 1)) by lra.
  rewrite (proj2 (Rleb_false (5 - ((7 - 6) * (7 - 6) + 0 * 0)) 1)) by lra.
  cbn [forallb]. rewrite !room_gamma.
  rewrite (proj2 (Rleb_true (5 - ((7 - 0) * (7 - 0) + 0 * 0)) 1)) by lra.
  rewrite (proj2 (Rleb_true (5 - ((7 - 3) * (7 - 3) + 0 * 0)) 1)) by lra.
  rewrite (proj2 (Rleb_false (5 - ((7 - 6) * (7 - 6) + 0 * 0)) 1)) by lra.
  reflexivity.
Qed.
Lemma rooms_seen_outside dim : fst (evaluate_local sp_dist sp_path orth1 dim (with_state [(None, false); (None, false); (Some [7; 0], true)] None) [3; 4]) =
  with_state [(None, false); (Some side_b, false); (Some [7; 0], true)] (Some (doorway (room_at 3) dome)).
Proof.
  rewrite evaluate_outside_state; [| | |auto].
  - rewrite (update_outside_one _ _ rooms_edges (room_at 0) [room_at 3; room_at 6] (doorway (room_at 3) dome) [Gate 0; Hull 1; Hull 0]); auto.
    apply nx_unique; [apply rooms_routes|apply rooms_in].
  - unfold with_state. cbn [hl_outer]. rewrite dome_gamma. lra.
  - unfold with_state. cbn [hl_inner]. intros g [<-|[<-|[<-|[]]]]; rewrite room_gamma; lra.
Qed.
Lemma rooms_regions st out j g : nth_error (all_regions (with_state st out)) j = Some g ->
  (j = 0%nat /\ g = room_at 0) \/ (j = 1%nat /\ g = room_at 3) \/ (j = 2%nat /\ g = room_at 6) \/ (j = 3%nat /\ g = dome).
Proof.
  destruct j as [|[|[|[|j]]]]; cbn; intros E.
  - left. split; congruence.
  - right. left. split; congruence.
  - right. right. left. split; congruence.
  - right. right. right. split; congruence.
  - destruct j; discriminate.
Qed.
Lemma rooms_first dim b out : fst (evaluate_local sp_dist sp_path orth1 dim (with_state [(None, false); (b, false); (Some [7; 0], true)] out) [-1; 0]) =
  fst (assign_path rooms_edges (with_state [(None, false); (b, false); (Some [7; 0], true)] out) [Hull 0; Hull 1; Hull 2]).
Proof.
  destruct (evaluate_state dim (with_state [(None, false); (b, false); (Some [7; 0], true)] out) [-1; 0] 0 (room_at 0)) as [E _]; auto.
  - rewrite room_gamma. lra.
  - intros j g' Ej N. destruct (rooms_regions _ _ _ _ Ej) as [[-> ->]|[[-> ->]|[[-> ->]|[-> ->]]]]; [congruence| | |].
    + rewrite room_gamma. lra.
    + rewrite room_gamma. lra.
    + rewrite dome_gamma. lra.
  - rewrite E. unfold update_path. cbn [edges_of with_state hl_graph containing hl_attr hl_inner length Nat.eqb seq combine filter snd map fst gate_candidates hl_isout app cand_argmin nth_error].
    rewrite (nx_unique rooms_edges (Hull 0) (Hull 2) [Hull 0; Hull 1; Hull 2]); [auto|apply rooms_routes|apply rooms_across].
Qed.
Lemma side_b_value : side_b = [1; 0].
Proof.
  unfold side_b, middle. cbn [rg_surface room_at rg_center]. unfold direction.
  replace (vsub (vscale (1 / 2) (vadd [0; 0] [3; 0])) [3; 0]) with [-3 / 2; 0]
    by (unfold vsub, vscale; cbn; f_equal; [field|f_equal; field]).
  rewrite norm_axis_x, Rabs_left by lra. unfold vscale. cbn. f_equal; [field|f_equal; field].
Qed.
Lemma norm_axis_up y : 0 <= y -> norm [0; y] = y.
Proof. apply norm_axis_y. Qed.

(** C91 refuted: the room in the middle is given an attractor before the outside is left.  The
    way in from the entrance is planned towards the first hull in place of the one with the
    attractor, so the middle room leads to the first and the first to the middle one; the attractors
    stay like this in every later evaluation. *)
Theorem C91_outside_refuted : forall dim, exists h0 a h1 es xs,
  set_attractor (evaluate_hierarchy doorway middle h0) a false = (h1, Ok tt) /\ hl_gates h1 = 1%nat /\ hl_graph h1 = Some es /\
  (forall j g, nth_error (all_regions h0) j = Some g -> (1 < rg_gamma g a <-> j = 2%nat)) /\
  route es (Hull 0) (Hull 2) [Hull 0; Hull 1; Hull 2] /\ route es (Hull 1) (Hull 2) [Hull 1; Hull 2] /\
  forall ys, let h := run sp_dist sp_path orth1 dim (run sp_dist sp_path orth1 dim h1 xs) ys in
    (exists p q, attractor_of h (Hull 0) = Ok (Some p) /\ attractor_of h (Hull 1) = Ok (Some q)) /\
    ~ leads es h (Hull 0) /\ ~ leads es h (Hull 1).
Proof.
  intros dim. exists rooms, [7; 0], (with_state [(None, false); (None, false); (Some [7; 0], true)] None), rooms_edges, [[3; 4]; [-1; 0]].
  split; [apply rooms_set|]. split; auto. split; auto. split; [|split; [apply rooms_routes|split; [apply rooms_routes|]]].
  { intros j g E. destruct (rooms_regions [] None j g E) as [[-> ->]|[[-> ->]|[[-> ->]|[-> ->]]]];
      rewrite ?room_gamma, ?dome_gamma; split; intros H; try congruence; try lra; auto. }
  intros ys. cbn [run]. rewrite rooms_seen_outside, rooms_first.
  set (h1 := fst (assign_path _ _ _)).
  assert (E1 : h1 = with_state [(Some side_a, false); (Some side_b, false); (Some [7; 0], true)] (Some (doorway (room_at 3) dome))) by reflexivity.
  pose proof (run_ext dim ys h1) as X. set (h := run _ _ _ dim h1 ys) in *. clearbody h. rewrite E1 in X. clear h1 E1. cbv zeta.
  assert (A0 : nth_error (hl_attr h) 0 = Some (Some side_a, false)) by (apply (ex_some _ _ X); auto).
  assert (A1 : nth_error (hl_attr h) 1 = Some (Some side_b, false)) by (apply (ex_some _ _ X); auto).
  split; [exists side_a, side_b; cbn [attractor_of]; rewrite A0, A1; auto|].
  assert (L : forall a, leads rooms_edges h a -> a <> Hull 0 /\ a <> Hull 1).
  { intros a H. induction H as [i p H|k p H1 H2|k e b H1 H2 H3 H4 _ IH|i c g e b H1 H2 H3 H4 _ IH].
    - split; intros F; assert (i = 0 \/ i = 1)%nat as [-> | ->] by (assert (Q : Hull i = Hull i) by auto; first [left; congruence|right; congruence]); congruence.
    - split; congruence.
    - split; congruence.
    - rewrite (ex_inner _ _ X) in H1. cbn [with_state hl_inner] in H1.
      split; intros F.
      + assert (i = 0)%nat by congruence. subst i. destruct H2 as [<-|[<-|[<-|[]]]]; destruct H3 as [[J1 J2]|[J1 J2]]; cbn in J1, J2; try discriminate.
        subst b. destruct IH as [_ IH]. congruence.
      + assert (i = 1)%nat by congruence. subst i. cbn in H1. assert (g = room_at 3) by congruence. subst g.
        assert (EB : rg_surface (room_at 3) (e_point e) = [1; 0]) by (rewrite <- side_b_value; congruence).
        destruct H2 as [<-|[<-|[<-|[]]]]; destruct H3 as [[J1 J2]|[J1 J2]]; cbn in J1, J2; try discriminate; cbn [e_point] in EB.
        * unfold doorway in EB. cbn [rg_surface room_at rg_center nth] in EB. unfold direction in EB.
          replace (vsub [2 + 3 / 3; 3 / 2 + (3 - 3) * (3 - 3) / 18] [3; 0]) with [0; 3 / 2] in EB
            by (unfold vsub, vscale; cbn; f_equal; [field|f_equal; field]).
          rewrite norm_axis_up in EB by lra. unfold vscale in EB. cbn in EB. injection EB as EB1 EB2. lra.
        * subst b. destruct IH as [IH _]. congruence.
        * unfold middle in EB. cbn [rg_surface room_at rg_center] in EB. unfold direction in EB.
          replace (vsub (vscale (1 / 2) (vadd [3; 0] [6; 0])) [3; 0]) with [3 / 2; 0] in EB
            by (unfold vsub, vscale; cbn; f_equal; [field|f_equal; field]).
          rewrite norm_axis_x, Rabs_pos_eq in EB by lra. unfold vscale in EB. cbn in EB. injection EB as EB1 EB2.
          replace (/ (3 / 2) * (3 / 2)) with 1 in EB1 by field. lra. }
  split; intros H; destruct (L _ H); congruence.
Qed.

(** Without the evaluation outside the rooms lead to the attractor. *)
Example C91_case : forall dim, let h := run sp_dist sp_path orth1 dim (with_state [(None, false); (None, false); (Some [7; 0], true)] None) [[-1; 0]] in
  leads rooms_edges h (Hull 0) /\ leads rooms_edges h (Hull 1).
Proof.
  intros dim h. unfold h. cbn [run]. rewrite rooms_first.
  set (h1 := fst _).
  assert (E1 : h1 = with_state [(Some side_a, false); (Some (rg_surface (room_at 3) (middle (room_at 3) (room_at 6))), false); (Some [7; 0], true)] None) by reflexivity.
  rewrite E1. clear h1 E1.
  assert (L2 : leads rooms_edges (with_state [(Some side_a, false); (Some (rg_surface (room_at 3) (middle (room_at 3) (room_at 6))), false); (Some [7; 0], true)] None) (Hull 2)).
  { eapply leads_goal. cbn. reflexivity. }
  assert (L1 : leads rooms_edges (with_state [(Some side_a, false); (Some (rg_surface (room_at 3) (middle (room_at 3) (room_at 6))), false); (Some [7; 0], true)] None) (Hull 1)).
  { eapply (leads_step _ _ 1 false (room_at 3) (nth 2 rooms_edges (mkEdge (Gate 0) (Gate 0) 0 [])) (Hull 2)); auto.
    - right. right. left. auto.
    - left. auto. }
  split; auto.
  eapply (leads_step _ _ 0 false (room_at 0) (nth 1 rooms_edges (mkEdge (Gate 0) (Gate 0) 0 [])) (Hull 1)); auto.
  - right. left. auto.
  - left. auto.
Qed.

(** C91 refuted: an attractor common to two hulls raises an exception in every other one. *)
Theorem C91_overlap_refuted : forall dim, exists h0 a h1 x,
  set_attractor (evaluate_hierarchy doorway middle h0) a false = (h1, Ok tt) /\ hull_is_inside h1 x = false /\
  (exists path, route rooms_edges (Hull 0) (Hull 2) path) /\ hl_graph h1 = Some rooms_edges /\
  snd (evaluate_local sp_dist sp_path orth1 dim h1 x) = Err EType.
Proof.
  intros dim. exists rooms, [9 / 2; 0], (with_state [(None, false); (Some [9 / 2; 0], true); (Some [9 / 2; 0], true)] None), [-1; 0].
  split; [|split; [|split; [|split; [auto|]]]].
  - rewrite rooms_graph. unfold set_attractor. cbn [hl_outer hl_inner hl_graph map]. unfold reg_inside. rewrite dome_gamma, !room_gamma.
    rewrite (proj2 (Rleb_true (0 - (9 / 2 - 3) * (9 / 2 - 3)) 1)) by lra.
    rewrite (proj2 (Rleb_true (5 - ((9 / 2 - 0) * (9 / 2 - 0) + 0 * 0)) 1)) by lra.
    rewrite (proj2 (Rleb_false (5 - ((9 / 2 - 3) * (9 / 2 - 3) + 0 * 0)) 1)) by lra.
    rewrite (proj2 (Rleb_false (5 - ((9 / 2 - 6) * (9 / 2 - 6) + 0 * 0)) 1)) by lra.
    cbn [forallb]. rewrite !room_gamma.
    rewrite (proj2 (Rleb_true (5 - ((9 / 2 - 0) * (9 / 2 - 0) + 0 * 0)) 1)) by lra.
    rewrite (proj2 (Rleb_false (5 - ((9 / 2 - 3) * (9 / 2 - 3) + 0 * 0)) 1)) by lra.
    reflexivity.
  - apply not_true_iff_false. intros F. pose proof (proj1 (inside_iff _ _) F (room_at 0)) as Q. rewrite room_gamma in Q.
    assert (5 - ((-1 - 0) * (-1 - 0) + 0 * 0) <= 1) by (apply Q; left; auto). lra.
  - eexists. apply rooms_routes.
  - destruct (evaluate_state dim (with_state [(None, false); (Some [9 / 2; 0], true); (Some [9 / 2; 0], true)] None) [-1; 0] 0 (room_at 0)) as [_ E]; auto.
    + rewrite room_gamma. lra.
    + intros j g' Ej N. destruct (rooms_regions _ _ _ _ Ej) as [[-> ->]|[[-> ->]|[[-> ->]|[-> ->]]]]; [congruence| | |].
      * rewrite room_gamma. lra.
      * rewrite room_gamma. lra.
      * rewrite dome_gamma. lra.
Qed.
End Nx.

(** C91 refuted: an attractor in the wall is given to the first hull, whichever is closest. *)
Theorem C91_wall_refuted : exists h0 a h1, set_attractor (evaluate_hierarchy doorway middle h0) a false = (h1, Ok tt) /\
  hull_is_inside h1 a = true /\ map snd (hl_attr h1) = [true; false; false] /\ hl_isout h1 = false /\
  rg_gamma (room_at 6) a > rg_gamma (room_at 0) a /\ nth_error (hl_inner h1) 2 = Some (room_at 6) /\ nth_error (hl_inner h1) 0 = Some (room_at 0).
Proof.
  exists rooms, [6; 5 / 2], (with_state [(Some [6; 5 / 2], true); (None, false); (None, false)] None).
  split; [|split; [|split; [auto|split; [auto|split; [|auto]]]]].
  - rewrite rooms_graph. unfold set_attractor. cbn [hl_outer hl_inner hl_graph map]. unfold reg_inside. rewrite dome_gamma, !room_gamma.
    rewrite (proj2 (Rleb_true (5 / 2 - (6 - 3) * (6 - 3)) 1)) by lra.
    rewrite (proj2 (Rleb_true (5 - ((6 - 0) * (6 - 0) + 5 / 2 * (5 / 2))) 1)) by lra.
    rewrite (proj2 (Rleb_true (5 - ((6 - 3) * (6 - 3) + 5 / 2 * (5 / 2))) 1)) by lra.
    rewrite (proj2 (Rleb_true (5 - ((6 - 6) * (6 - 6) + 5 / 2 * (5 / 2))) 1)) by lra.
    cbn [forallb]. rewrite !room_gamma.
    rewrite (proj2 (Rleb_true (5 - ((6 - 0) * (6 - 0) + 5 / 2 * (5 / 2))) 1)) by lra.
    rewrite (proj2 (Rleb_true (5 - ((6 - 3) * (6 - 3) + 5 / 2 * (5 / 2))) 1)) by lra.
    rewrite (proj2 (Rleb_true (5 - ((6 - 6) * (6 - 6) + 5 / 2 * (5 / 2))) 1)) by lra.
    cbn [andb].
    unfold hull_gammas. cbn [map hl_inner hl_outer app]. rewrite dome_gamma, !room_gamma. unfold hull_weights. cbn [map].
    rewrite !Rmax_right by lra. unfold rsum. cbn [fold_right]. rewrite (proj2 (Rltb_false 0 (0 + (0 + (0 + (0 + 0)))))) by lra.
    cbn [argmin argmin_from]. rewrite !(proj2 (Rltb_false 0 0)) by lra. reflexivity.
  - apply inside_iff. intros g I. unfold all_regions in I. cbn in I.
    destruct I as [<-|[<-|[<-|[<-|[]]]]]; rewrite ?room_gamma, ?dome_gamma; lra.
  - rewrite !room_gamma. lra.
Qed.
Print Assumptions C91_outside_refuted.
Print Assumptions C91_overlap_refuted.
Print Assumptions C91_wall_refuted.
