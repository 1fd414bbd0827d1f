(** Properties C105-C109: the regions of the k-means learner, the prediction inside and outside of
    them, the direction of the local dynamics, and repeated fits. *)
Require Import Reals List Bool Arith ZArith Lra Lia Psatz Permutation.
From Verif Require Import Base Vec Angle Pow RotModel Spec RotProofs PropProject ConvProofs RotAvoidModel RotAvoidProofs
  PropDynamics KMeansModel KMeansProofs PropKMeans KLearnModel.
Import ListNotations.
Open Scope R_scope.

(** The cluster [j] is a nearest one of the position. *)
Definition closest (centers : list vec) (p : vec) (j : nat) : Prop :=
  (j < length centers)%nat /\
  forall k, (k < length centers)%nat -> dist p (cluster centers j) <= dist p (cluster centers k).

(** ** Maximum and minimum *)
Lemma fold_max l : forall x, (In (fold_left Rmax l x) (x :: l)) /\ x <= fold_left Rmax l x /\
  forall y, In y l -> y <= fold_left Rmax l x.
Proof.
  induction l as [|a l IH]; intros x; cbn [fold_left].
  - split; [left; auto|]. split; [lra|]. intros y [].
  - destruct (IH (Rmax x a)) as (A & B & C). pose proof (Rmax_l x a). pose proof (Rmax_r x a). split.
    + destruct A as [A|A]; [|right; right; auto]. rewrite <- A. unfold Rmax.
      destruct (Rle_dec x a); [right; left|left]; auto.
    + split; [lra|]. intros y [<-|Hy]; [lra|auto].
Qed.
Lemma np_max_spec l m : np_max l = Ok m -> In m l /\ forall x, In x l -> x <= m.
Proof.
  destruct l as [|x l]; [discriminate|]. cbn [np_max]. intros E. injection E as E. rewrite <- E.
  destruct (fold_max l x) as (A & B & C). split; auto. intros y [<-|Hy]; auto.
Qed.
Lemma fold_min l : forall x, (In (fold_left Rmin l x) (x :: l)) /\ fold_left Rmin l x <= x /\
  forall y, In y l -> fold_left Rmin l x <= y.
Proof.
  induction l as [|a l IH]; intros x; cbn [fold_left].
  - split; [left; auto|]. split; [lra|]. intros y [].
  - destruct (IH (Rmin x a)) as (A & B & C). pose proof (Rmin_l x a). pose proof (Rmin_r x a). split.
    + destruct A as [A|A]; [|right; right; auto]. rewrite <- A. unfold Rmin.
      destruct (Rle_dec x a); [left|right; left]; auto.
    + split; [lra|]. intros y [<-|Hy]; [lra|auto].
Qed.
Lemma np_min_spec l m : np_min l = Ok m -> In m l /\ forall x, In x l -> m <= x.
Proof.
  destruct l as [|x l]; [discriminate|]. cbn [np_min]. intros E. injection E as E. rewrite <- E.
  destruct (fold_min l x) as (A & B & C). split; auto. intros y [<-|Hy]; auto.
Qed.
Lemma mapM_In {A B} (f : A -> res B) l : forall l', mapM f l = Ok l' ->
  forall x, In x l -> exists y, f x = Ok y /\ In y l'.
Proof.
  induction l as [|a l IH]; intros l' E x Hx; [destruct Hx|]. cbn [mapM] in E.
  destruct (f a) as [b|] eqn:Ea; [|discriminate]. cbn [bind] in E.
  destruct (mapM f l) as [bs|] eqn:El; [|discriminate]. cbn [bind] in E. injection E as E. subst l'.
  destruct Hx as [<-|Hx].
  - exists b. split; auto. left; auto.
  - destruct (IH bs eq_refl x Hx) as (y & A1 & A2). exists y. split; auto. right; auto.
Qed.
Lemma mapM_In_inv {A B} (f : A -> res B) l : forall l', mapM f l = Ok l' ->
  forall y, In y l' -> exists x, In x l /\ f x = Ok y.
Proof.
  induction l as [|a l IH]; intros l' E y Hy; cbn [mapM] in E.
  - injection E as E. subst l'. destruct Hy.
  - destruct (f a) as [b|] eqn:Ea; [|discriminate]. cbn [bind] in E.
    destruct (mapM f l) as [bs|] eqn:El; [|discriminate]. cbn [bind] in E. injection E as E. subst l'.
    destruct Hy as [<-|Hy].
    + exists a. split; auto. left; auto.
    + destruct (IH bs eq_refl y Hy) as (x & A1 & A2). exists x. split; auto. right; auto.
Qed.

(** * C105 *)
Lemma distances_loop_nth centers l : forall v i a b,
  nth_error (v :: l) i = Some a -> nth_error (v :: l) (S i) = Some b ->
  In (dist (cluster centers b) (cluster centers a)) (distances_loop centers v l).
Proof.
  induction l as [|u l IH]; intros v i a b Ha Hb.
  - destruct i as [|[|i]]; discriminate.
  - cbn [distances_loop]. destruct i as [|i].
    + cbn in Ha, Hb. injection Ha as Ha. injection Hb as Hb. subst. left. reflexivity.
    + right. apply (IH u i a b); auto.
Qed.
(** With a radius factor of at least one half, the region of every cluster covers its samples, the
    first region the attractor, and the regions of subsequent clusters meet half way. *)
Theorem C105_covered factor centers attractor order positions r : 1 / 2 <= factor ->
  fit_region_radius factor centers attractor order positions = Ok r ->
  (forall p j, In p positions -> closest centers p j -> dist p (cluster centers j) <= r) /\
  (forall first rest, order = first :: rest -> dist attractor (cluster centers first) <= r) /\
  (forall i a b, nth_error order i = Some a -> nth_error order (S i) = Some b ->
     dist (cluster centers a) (cluster centers b) <= 2 * r /\
     (1 / 2 < factor -> 0 < dist (cluster centers a) (cluster centers b) ->
      dist (cluster centers a) (cluster centers b) < 2 * r)).
Proof.
  intros F E. unfold fit_region_radius in E.
  destruct (np_max (distances_parent centers attractor order)) as [m|] eqn:Em; [|discriminate]. cbn [bind] in E.
  destruct (mapM _ positions) as [mins|] eqn:Ei; [|discriminate]. cbn [bind] in E.
  destruct (np_max mins) as [m'|] eqn:Em'; [|discriminate]. cbn [bind] in E. injection E as E.
  apply np_max_spec in Em as [_ Hm]. apply np_max_spec in Em' as [_ Hm'].
  pose proof (Rmax_l (2 * factor * m') (factor * m)) as R1. pose proof (Rmax_r (2 * factor * m') (factor * m)) as R2.
  rewrite E in R1, R2. repeat split.
  - intros p j Hp [Hj C]. destruct (mapM_In _ _ _ Ei p Hp) as (y & Ey & Iy). pose proof (Hm' y Iy) as Q.
    apply np_min_spec in Ey as [Iy' _]. apply in_map_iff in Iy' as (c & Ec & Ic).
    apply (In_nth _ _ []) in Ic as (k & Hk & Ek). pose proof (C k Hk) as D. unfold cluster in D at 2. rewrite Ek in D.
    rewrite (dist_sym p c) in D. unfold dist in D at 2. rewrite Ec in D. pose proof (norm_nonneg (vsub c p)) as P. rewrite Ec in P.
    nra.
  - intros first rest ->. assert (I : In (dist (cluster centers first) attractor * 2) (distances_parent centers attractor (first :: rest))) by (left; auto).
    apply Hm in I. rewrite dist_sym.
    pose proof (norm_nonneg (vsub (cluster centers first) attractor)) as P. fold (dist (cluster centers first) attractor) in P. nra.
  - destruct order as [|v l]; [destruct i; discriminate|]. pose proof (distances_loop_nth centers l v i a b H H0) as I.
    assert (I' : In (dist (cluster centers b) (cluster centers a)) (distances_parent centers attractor (v :: l))) by (right; auto).
    apply Hm in I'. rewrite (dist_sym (cluster centers a)).
    pose proof (norm_nonneg (vsub (cluster centers b) (cluster centers a))) as P. fold (dist (cluster centers b) (cluster centers a)) in P. nra.
  - intros F' P. destruct order as [|v l]; [destruct i; discriminate|]. pose proof (distances_loop_nth centers l v i a b H H0) as I.
    assert (I' : In (dist (cluster centers b) (cluster centers a)) (distances_parent centers attractor (v :: l))) by (right; auto).
    apply Hm in I'. rewrite (dist_sym (cluster centers a)) in P |- *. nra.
Qed.

(** The value of [get_gamma] with the transparent face of the successor, for positions of the
    region. *)
Lemma gamma_none_single o p t : k_successors o = [t] -> (t < length (k_centers o))%nat ->
  get_gamma o p None = get_gamma o p (Some (Z.of_nat t)).
Proof.
  intros E Lt. unfold get_gamma. rewrite E. destruct (kobs_nan o); auto. cbv zeta.
  destruct (Req_EM_T _ 0); auto. destruct (get_point_on_surface o p) as [s|]; auto. cbn [bind].
  destruct (Req_EM_T _ _); auto. destruct (Req_EM_T (rsum _) 0); auto. destruct (k_boundary o); auto.
  destruct (Z.ltb_spec (Z.of_nat t) 0); [lia|]. unfold py_index.
  destruct (Z.ltb_spec (Z.of_nat t) (- Z.of_nat (length (k_centers o)))); [lia|].
  destruct (Z.ltb_spec (Z.of_nat t) 0); [lia|].
  destruct (Z.ltb_spec (Z.of_nat t) (Z.of_nat (length (k_centers o)))); [|lia].
  destruct (Nat.ltb_spec t (length (k_centers o))); [|lia]. cbn [bind]. rewrite Nat2Z.id. reflexivity.
Qed.
Definition at_least_one (g : gval) : Prop := g = GMax \/ exists x, g = GVal x /\ 1 <= x.
Lemma gamma_region o n p : kwf o n -> k_boundary o = true -> length p = n -> region o p ->
  k_successors o = [] \/ (exists t, k_successors o = [t] /\ (t < length (k_centers o))%nat) ->
  exists g, get_gamma o p None = Ok g /\ at_least_one g.
Proof.
  intros W B L Rg HS. destruct (surface_point o n p W L) as [s [X [F D]]].
  pose proof (ray_unit o n p W L) as U. pose proof (ex_pos _ _ _ X) as Ps.
  assert (Lp : p = on_line o (ray o p) (dist p (k_center o)))
    by (apply (surface_direction_line o n); auto).
  assert (Ds : dist p (k_center o) <= s).
  { rewrite Lp in Rg. apply (region_extent o n W _ s _ U X) in Rg; auto. apply norm_nonneg. }
  destruct (Req_dec (dist p (k_center o)) 0) as [E0|E0].
  { exists GMax. split; [|left; auto]. unfold get_gamma. cbv zeta. rewrite (not_nan o n W).
    change (norm (vsub p (k_center o))) with (dist p (k_center o)).
    destruct (Req_EM_T (dist p (k_center o)) 0); [|contradiction]. rewrite B. auto. }
  destruct HS as [HS|(t & HS & Lt)].
  - destruct (Req_dec (dist p (k_center o)) s) as [Es|Es].
    + exists (GVal 1). split; [|right; exists 1; split; auto; lra]. unfold get_gamma. cbv zeta. rewrite (not_nan o n W).
      change (norm (vsub p (k_center o))) with (dist p (k_center o)).
      destruct (Req_EM_T (dist p (k_center o)) 0); [contradiction|]. rewrite F. cbn [bind].
      change (norm (vsub (on_line o (ray o p) s) (k_center o))) with (dist (on_line o (ray o p) s) (k_center o)).
      rewrite D. destruct (Req_EM_T (dist p (k_center o)) s); [|contradiction]. rewrite HS. auto.
    + destruct (gamma_off o n p s None W L X E0 Es) as [P [w [l [PS [G [EP E]]]]]].
      destruct (gamma_no_transparent o n p s W B L X E0 Es) as [g [E' [G1 _]]].
      destruct (gamma_off o n p s (Some (-1)%Z) W L X E0 Es) as [P' [w' [l' [PS' [G' [EP' E'']]]]]].
      exists (GVal (dot w (map (fun x => P - x) l) / dist p (k_center o))).
      assert (Q : get_gamma o p None = Ok (GVal (dot w (map (fun x => P - x) l) / dist p (k_center o)))).
      { rewrite E. unfold gamma_tail. rewrite B, HS. reflexivity. }
      split; auto. right. eexists. split; [reflexivity|]. rewrite (gd_gamma _ _ _ _ _ G).
      pose proof (gd_mean _ _ _ _ _ G) as M. assert (Pp : 0 < dist p (k_center o)) by (apply dist_pos; auto).
      apply (Rmult_le_reg_r (dist p (k_center o))); auto. unfold Rdiv. rewrite Rmult_assoc, Rinv_l by lra. lra.
  - rewrite (gamma_none_single o p t HS Lt).
    destruct (C58_transparent_face o n p t _ W B L Lt F) as [I J]. rewrite D in I, J.
    destruct (Req_dec (dist p (k_center o)) s) as [Es|Es].
    + assert (T : py_index (length (k_centers o)) (Z.of_nat t) = Ok t).
      { unfold py_index.
        destruct (Z.ltb_spec (Z.of_nat t) (- Z.of_nat (length (k_centers o)))); [lia|].
        destruct (Z.ltb_spec (Z.of_nat t) 0); [lia|].
        destruct (Z.ltb_spec (Z.of_nat t) (Z.of_nat (length (k_centers o)))); [|lia].
        rewrite Nat2Z.id. reflexivity. }
      rewrite (on_surface_gamma o n p s _ t W L X Es T). destruct (Req_EM_T _ 0).
      * exists GMax. split; auto. left; auto.
      * exists (GVal 1). split; auto. right. exists 1. split; auto. lra.
    + destruct (I E0 ltac:(lra)) as [Q|(g & Q & G1 & G2)].
      * exists GMax. split; auto. left; auto.
      * exists (GVal g). split; auto. right. exists g. split; auto. lra.
Qed.
(** Beyond the radius, in the cell of the cluster, the value is below one. *)
Lemma gamma_outside o n p : kwf o n -> k_boundary o = true -> length p = n ->
  k_successors o = [] \/ (exists t, k_successors o = [t] /\ (t < length (k_centers o))%nat /\ t <> k_index o) ->
  k_radius o < dist p (k_center o) ->
  (forall j, (j < length (k_centers o))%nat -> j <> k_index o -> dist p (k_center o) <= dist p (cluster (k_centers o) j)) ->
  exists x, get_gamma o p None = Ok (GVal x) /\ x < 1.
Proof.
  intros W B L HS Hr HC. destruct (surface_point o n p W L) as [s [X [F D]]].
  pose proof (ray_unit o n p W L) as U. pose proof (ex_rad _ _ _ X) as Rs. pose proof (kw_rad o n W) as R0.
  assert (E0 : dist p (k_center o) <> 0) by lra. assert (Es : dist p (k_center o) <> s) by lra.
  destruct (gamma_no_transparent o n p s W B L X E0 Es) as [g [E [_ [_ G]]]]. exists g. split; [|apply G; lra].
  rewrite <- E. unfold get_gamma. rewrite (not_nan o n W). cbv zeta.
  change (norm (vsub p (k_center o))) with (dist p (k_center o)).
  destruct (Req_EM_T (dist p (k_center o)) 0); [contradiction|]. rewrite F. cbn [bind].
  change (norm (vsub (on_line o (ray o p) s) (k_center o))) with (dist (on_line o (ray o p) s) (k_center o)).
  rewrite D. destruct (Req_EM_T (dist p (k_center o)) s); [contradiction|].
  replace (Rltb (dist p (k_center o)) s) with false by (symmetry; apply Rltb_false; lra). cbv iota.
  rewrite B. destruct (Req_EM_T (rsum _) 0); auto. change (-1 <? 0)%Z with true. cbv iota.
  destruct HS as [->|(t & -> & Lt & It)]; auto. destruct (Nat.ltb_spec t (length (k_centers o))); [|lia].
  unfold gamma_transparent at 1. set (ds := surface_distances o p (dist p (k_center o))) in *.
  set (wp := map (fun x => Rmax x 0) ds) in *.
  assert (Lp : p = on_line o (ray o p) (dist p (k_center o)))
    by (apply (surface_direction_line o n); auto).
  assert (Z : nth t ds 0 <= 0).
  { unfold ds, surface_distances. rewrite (nth_map_default _ _ _ _ 0%nat) by (rewrite seq_length; auto).
    rewrite seq_nth by auto. cbn [plus]. destruct (Nat.eqb_spec t (k_index o)); [contradiction|].
    destruct (relevant o t) eqn:Rt.
    - assert (Ij : In t (ind_relevant o)).
      { unfold ind_relevant. apply filter_In. split; auto. apply in_seq. lia. }
      pose proof (plane_value o n W (ray o p) (dist p (k_center o)) t Ij) as PV. rewrite <- Lp in PV. rewrite PV.
      pose proof (proj1 (bisector o n W (ray o p) (dist p (k_center o)) t U ltac:(apply norm_nonneg) Lt It)) as Q.
      rewrite <- Lp in Q. pose proof (proj1 Q (HC t Lt It)). lra.
    - unfold knormal. rewrite Rt, dot_vzero_l. lra. }
  assert (Lds : length ds = length (k_centers o)) by (unfold ds, surface_distances; rewrite map_length, seq_length; auto).
  assert (Zw : nth t (map (fun x => x / rsum wp) wp) 0 = 0).
  { rewrite (nth_map_default _ _ _ _ 0) by (unfold wp; rewrite map_length; lia).
    unfold wp at 1. rewrite (nth_map_default _ _ _ _ 0) by lia. rewrite Rmax_right by auto. unfold Rdiv. ring. }
  rewrite Zw. destruct (Rltb 0 0) eqn:Q; [apply Rltb_true in Q; lra|]. auto.
Qed.

(** ** The graph of a first fit *)
Lemma existsb_no {A} (f : A -> bool) l : (forall x, In x l -> f x = false) -> existsb f l = false.
Proof. induction l as [|a l IH]; cbn; auto. intros H. rewrite (H a) by auto. apply IH. auto. Qed.
Lemma add_node_new g v d : ~ In v (map fst (h_nodes g)) -> add_node g v d = mkH (h_nodes g ++ [(v, d)]) (h_edges g).
Proof.
  intros H. unfold add_node. rewrite existsb_no; auto. intros x Hx. apply Nat.eqb_neq. intros <-. contradiction.
Qed.
Lemma add_edge_new g u v : ~ In u (map fst (h_edges g)) -> add_edge g u v = mkH (h_nodes g) (h_edges g ++ [(u, v)]).
Proof.
  intros H. unfold add_edge. rewrite existsb_no; auto. intros [x y] Hx. cbn [fst snd]. destruct (Nat.eqb_spec x u); auto.
  subst x. exfalso. apply H. apply in_map_iff. exists (u, y). auto.
Qed.
Lemma refit_loop_fresh centers l : forall g v, NoDup l -> (forall u, In u l -> ~ In u (map fst (h_nodes g))) ->
  (forall u, In u (map fst (h_edges g)) -> In u (map fst (h_nodes g))) ->
  refit_loop centers g v l = hierarchy_loop centers g v l.
Proof.
  induction l as [|u l IH]; intros g v ND Fr Ed; auto. inversion ND as [|? ? N1 N2]; subst. cbn [refit_loop hierarchy_loop].
  destruct (Req_EM_T _ 0); auto. destruct (node_data g v) as [[level dir]|]; auto.
  assert (Nu : ~ In u (map fst (h_nodes g))) by (apply Fr; left; auto).
  rewrite add_node_new by auto. rewrite add_edge_new by (cbn [h_edges]; intros H; apply Nu; auto). cbn [h_nodes h_edges].
  apply IH; auto.
  - intros w Hw. cbn [h_nodes]. rewrite map_app, in_app_iff. cbn. intros [H|[H|[]]].
    + apply (Fr w); auto. right; auto.
    + subst w. contradiction.
  - intros w. cbn [h_nodes h_edges]. rewrite !map_app, !in_app_iff. cbn. intros [H|H]; [left; auto|right; auto].
Qed.
Lemma refit_fresh centers attractor order : NoDup order ->
  refit (mkH [] []) centers attractor order = fit_hierarchy centers attractor order.
Proof.
  intros ND. destruct order as [|v l]; auto. cbn [refit fit_hierarchy]. destruct (Req_EM_T _ 0); auto.
  inversion ND as [|? ? N1 N2]; subst. rewrite add_node_new by (cbn; auto). cbn [h_nodes h_edges app].
  apply refit_loop_fresh; auto.
  - intros u Hu [E|[]]. cbn in E. subst u. contradiction.
  - intros u [].
Qed.

(** Learned clusters: different centers of the same dimension, in an order which ends nowhere at
    the attractor. *)
Record clusters (centers : list vec) (attractor : vec) (order : list nat) (n : nat) (r : R) : Prop := {
  cl_dim : (0 < n)%nat;
  cl_len : forall j, (j < length centers)%nat -> length (cluster centers j) = n;
  cl_sep : forall i j, (i < length centers)%nat -> (j < length centers)%nat -> i <> j ->
    2 * r / 10 ^ 9 <= dist (cluster centers i) (cluster centers j);
  cl_rad : 0 < r;
  cl_order : Permutation order (seq 0 (length centers));
  cl_att : forall first rest, order = first :: rest -> dist (cluster centers first) attractor <> 0 }.
Lemma clusters_apart centers attractor order n r : clusters centers attractor order n r ->
  forall l v, NoDup (v :: l) -> (forall u, In u (v :: l) -> (u < length centers)%nat) -> apart centers v l.
Proof.
  intros C. induction l as [|u l IH]; intros v ND Hl; cbn [apart]; auto. inversion ND as [|? ? N1 N2]; subst. split.
  - assert (D : u <> v) by (intros ->; apply N1; left; auto).
    pose proof (cl_sep _ _ _ _ _ C u v (Hl u ltac:(right; left; auto)) (Hl v ltac:(left; auto)) D) as Q.
    pose proof (cl_rad _ _ _ _ _ C). unfold dist in Q. assert (0 < 2 * r / 10 ^ 9) by lra. lra.
  - apply IH; auto. intros w Hw. apply Hl. right; auto.
Qed.
Lemma clusters_kwf centers attractor order n r g out i : clusters centers attractor order n r -> (i < length centers)%nat ->
  kwf (region_obstacle (mkL centers r g out) i) n.
Proof.
  intros C Hi. constructor; cbn [region_obstacle k_centers k_index k_radius kl_centers kl_radius]; auto; try apply C; auto.
  intros j Hj D. unfold k_center. cbn [k_centers k_index region_obstacle kl_centers]. apply (cl_sep _ _ _ _ _ C); auto.
Qed.
(** The graph of a first fit: at most one successor and one predecessor. *)
Lemma chain_graph centers attractor order n r g : clusters centers attractor order n r ->
  refit (mkH [] []) centers attractor order = Ok g ->
  forall i, (i < length centers)%nat ->
  (successors g i = [] \/ exists t, successors g i = [t] /\ (t < length centers)%nat /\ t <> i) /\
  (predecessors g i = [] \/ exists t, predecessors g i = [t] /\ (t < length centers)%nat /\ t <> i).
Proof.
  intros C E i Hi. pose proof (cl_order _ _ _ _ _ C) as Pm.
  assert (ND : NoDup order) by (apply (Permutation_NoDup (Permutation_sym Pm)), seq_NoDup).
  assert (Lt : forall u, In u order -> (u < length centers)%nat).
  { intros u Hu. apply (Permutation_in _ Pm) in Hu. apply in_seq in Hu. lia. }
  assert (Ii : In i order) by (apply (Permutation_in _ (Permutation_sym Pm)), in_seq; lia).
  assert (DF : forall k a b, nth_error order k = Some a -> nth_error order (S k) = Some b -> a <> b).
  { intros k a b Ha Hb <-. rewrite NoDup_nth_error in ND. assert (Q : k = S k); [|lia].
    apply ND; [apply nth_error_Some; congruence|congruence]. }
  destruct order as [|first rest] eqn:EO; [destruct Ii|]. rewrite <- EO in *.
  rewrite refit_fresh in E by auto.
  assert (N1 : norm (vsub (cluster centers first) attractor) <> 0) by apply (cl_att _ _ _ _ _ C first rest EO).
  assert (A1 : apart centers first rest).
  { apply (clusters_apart _ _ _ _ _ C); rewrite <- EO; auto. }
  destruct (C50_chain centers attractor order first rest (fun _ => 0) EO Pm ltac:(intros; lra) N1 A1)
    as (g' & Eg & S0 & PL & CH & _). assert (g' = g) by congruence. subst g'.
  apply In_nth_error in Ii as (k & Hk). split.
  - destruct k as [|k].
    + left. rewrite EO in Hk. cbn in Hk. injection Hk as Hk. subst i. auto.
    + right. destruct (nth_error order k) as [a|] eqn:Ha.
      * exists a. destruct (CH k a i Ha Hk) as (Q & _). split; auto. split; [apply Lt; eapply nth_error_In; eauto|].
        apply (DF k); auto.
      * apply nth_error_None in Ha. assert (S k < length order)%nat by (apply nth_error_Some; congruence). lia.
  - destruct (nth_error order (S k)) as [b|] eqn:Hb.
    + right. exists b. destruct (CH k i b Hk Hb) as (_ & Q & _). split; auto. split; [apply Lt; eapply nth_error_In; eauto|].
      intros ->. apply (DF k i i Hk Hb). auto.
    + left. assert (EL : last order first = i).
      { apply nth_error_None in Hb. assert (k < length order)%nat by (apply nth_error_Some; congruence).
        destruct (exists_last (l := order)) as [m [x Ex]]; [rewrite EO; discriminate|]. rewrite Ex in Hk |- *.
        rewrite Ex, app_length in Hb, H. cbn [length] in Hb, H. rewrite last_last.
        rewrite nth_error_app2 in Hk by lia. replace (k - length m)%nat with 0%nat in Hk by lia. cbn in Hk. congruence. }
      rewrite <- EL. auto.
Qed.

(** What a learner after one fit to its data has. *)
Definition fitted (l : klearner) (factor : R) (attractor : vec) (order : list nat) (positions : list vec) (n : nat) : Prop :=
  (exists linear, fit (mkH [] []) factor (kl_centers l) attractor order positions linear = Ok l) /\
  clusters (kl_centers l) attractor order n (kl_radius l).
Lemma fitted_parts l factor attractor order positions n : fitted l factor attractor order positions n ->
  refit (mkH [] []) (kl_centers l) attractor order = Ok (kl_graph l) /\
  fit_region_radius factor (kl_centers l) attractor order positions = Ok (kl_radius l) /\
  exists linear, kl_outside l = Some linear.
Proof.
  intros ((linear & E) & C). unfold fit in E. destruct (refit _ _ _ _) as [g|]; [|discriminate]. cbn [bind] in E.
  destruct (fit_region_radius _ _ _ _ _) as [r|] eqn:Er; [|discriminate]. cbn [bind] in E. injection E as E.
  rewrite <- E in *. cbn [kl_centers kl_radius kl_graph kl_outside]. repeat split; auto. exists linear. auto.
Qed.

Section Predict.
Variables (orth1 : vec -> vec) (label : vec -> nat).
Variables (evaluate evaluate_unchecked lyapunov : nat -> vec -> res vec).
Variable avoid : vec -> vec -> nat -> vec -> R -> res vec.
Notation predict := (predict orth1 label evaluate evaluate_unchecked lyapunov avoid).
Notation predict_inside := (predict_inside orth1 evaluate evaluate_unchecked lyapunov avoid).

(** Every training sample lies in the region of its cluster, hence the velocity comes from the
    learned dynamics and not from those of the outside. *)
Theorem C105_samples_inside l factor attractor order positions n : 1 / 2 <= factor ->
  fitted l factor attractor order positions n ->
  forall p, In p positions -> length p = n -> closest (kl_centers l) p (label p) ->
  dist p (cluster (kl_centers l) (label p)) <= kl_radius l /\ predict l p = predict_inside l p (label p).
Proof.
  intros F FT p Hp Lp CL. destruct (fitted_parts _ _ _ _ _ _ FT) as (Eg & Er & _). destruct FT as (_ & C).
  destruct (C105_covered _ _ _ _ _ _ F Er) as (D & _). pose proof (D p (label p) Hp CL) as Dp. split; auto.
  destruct CL as [Hl CL]. assert (W : kwf (region_obstacle l (label p)) n).
  { destruct l as [cs r g out]. apply (clusters_kwf _ _ _ _ _ _ _ _ C Hl). }
  destruct (chain_graph _ _ _ _ _ _ C Eg (label p) Hl) as (SU & _).
  destruct (gamma_region (region_obstacle l (label p)) n p W) as (g & G & H); auto.
  { split; [exact Dp|]. intros j Hj _. apply CL; auto. }
  { destruct SU as [SU|(t & SU & Lt & _)]; [left; auto|right; exists t; auto]. }
  unfold KLearnModel.predict. rewrite G. cbn [bind]. destruct H as [->|(x & -> & Hx)]; auto. cbn [bind].
  destruct (Rltb x 1) eqn:Q; [apply Rltb_true in Q; lra|auto].
Qed.

(** * C108 *)
(** The region of a position of the cell of its cluster: up to the radius the prediction is the one
    of the inside, beyond it the one of the outside. *)
Lemma predict_cases l centers attractor order n g : kl_centers l = centers -> kl_graph l = g ->
  clusters centers attractor order n (kl_radius l) -> refit (mkH [] []) centers attractor order = Ok g ->
  forall p, length p = n -> closest centers p (label p) ->
  predict l p = if Rle_dec (dist p (cluster centers (label p))) (kl_radius l) then predict_inside l p (label p)
                else match kl_outside l with
                     | None => Err EAttr
                     | Some f => predict_outside orth1 centers (kl_radius l) f p
                     end.
Proof.
  intros Ec Egl C Eg p Lp [Hl CL]. subst centers g. assert (W : kwf (region_obstacle l (label p)) n).
  { destruct l as [cs r g out]. apply (clusters_kwf _ _ _ _ _ _ _ _ C Hl). }
  destruct (chain_graph _ _ _ _ _ _ C Eg (label p) Hl) as (SU & _). unfold KLearnModel.predict.
  destruct (Rle_dec _ _) as [Dp|Dp].
  - destruct (gamma_region (region_obstacle l (label p)) n p W) as (g & G & H); auto.
    { split; [exact Dp|]. intros j Hj _. apply CL; auto. }
    { destruct SU as [SU|(t & SU & Lt & _)]; [left; auto|right; exists t; auto]. }
    rewrite G. cbn [bind]. destruct H as [->|(x & -> & Hx)]; auto. cbn [bind].
    destruct (Rltb x 1) eqn:Q; [apply Rltb_true in Q; lra|auto].
  - destruct (gamma_outside (region_obstacle l (label p)) n p W) as (x & G & H); auto.
    { cbn [k_radius region_obstacle]. unfold k_center. cbn [k_centers k_index region_obstacle]. lra. }
    rewrite G. cbn [bind]. rewrite (proj2 (Rltb_true x 1) H). auto.
Qed.

(** In the region of its cluster (weights as in C49), the prediction is the avoidance of the walls of this region: of
    the own dynamics when the whole weight is on one cluster, and of the mean with those of the
    predecessor else.  The convergence radius is pi times the own weight, and no exception is
    raised which does not come from the dynamics, the means or the avoidance. *)
Theorem C108_inside l factor attractor order positions n : fitted l factor attractor order positions n ->
  forall p, length p = n -> closest (kl_centers l) p (label p) -> dist p (cluster (kl_centers l) (label p)) <= kl_radius l ->
  let c := label p in
  exists w share,
    predict_sequence_weights (kl_centers l) (predecessors (kl_graph l) c)
      (fun t => get_gamma (region_obstacle l c) p (Some (Z.of_nat t))) p c (1 / 2) 2 = Ok w /\
    length w = length (kl_centers l) /\ 0 <= share <= 1 /\ nth c w 0 = 1 - share /\
    (predecessors (kl_graph l) c = [] /\ share = 0 \/
     exists q, predecessors (kl_graph l) c = [q] /\ q <> c /\ nth q w 0 = share /\ forall j, j <> c -> j <> q -> nth j w 0 = 0) /\
    predict l p =
      do vl <- (if Rlt_dec 0 (share * (1 - share)) then
                  averaged_velocities orth1 evaluate_unchecked lyapunov p w (positive_indices w)
                else do v <- evaluate c p; do ly <- lyapunov c p; Ok (v, ly));
      avoid p (fst vl) c (snd vl) (PI * (1 - share)).
Proof.
  intros FT p Lp CL Dp c. destruct (fitted_parts _ _ _ _ _ _ FT) as (Eg & Er & _). destruct FT as (_ & C).
  pose proof (predict_cases l _ _ _ _ _ eq_refl eq_refl C Eg p Lp CL) as PC.
  destruct (Rle_dec _ _) as [_|N]; [|contradiction]. rewrite PC. clear PC. fold c.
  assert (Hl : (c < length (kl_centers l))%nat) by apply CL.
  assert (W : kwf (region_obstacle l c) n).
  { destruct l as [cs r g out]. apply (clusters_kwf _ _ _ _ _ _ _ _ C Hl). }
  destruct (chain_graph _ _ _ _ _ _ C Eg c Hl) as (_ & PR). unfold KLearnModel.predict_inside.
  assert (FIN : forall w share, length w = length (kl_centers l) -> rsum w = 1 -> nth c w 0 = 1 - share -> 0 <= share <= 1 ->
    (share = 0 /\ (forall j, j <> c -> nth j w 0 = 0) \/
     exists q, (q < length (kl_centers l))%nat /\ q <> c /\ nth q w 0 = share /\ forall j, j <> c -> j <> q -> nth j w 0 = 0) ->
    (do vl <- (if Nat.ltb 1 (length (positive_indices w)) then averaged_velocities orth1 evaluate_unchecked lyapunov p w (positive_indices w)
            else do v <- evaluate c p; do ly <- lyapunov c p; Ok (v, ly));
     do rotated <- avoid p (fst vl) c (snd vl) (PI * nth c w 0);
     if Rltb (rsum w) 1 then Err ENotImpl else Ok rotated) =
    do vl <- (if Rlt_dec 0 (share * (1 - share)) then
                  averaged_velocities orth1 evaluate_unchecked lyapunov p w (positive_indices w)
                else do v <- evaluate c p; do ly <- lyapunov c p; Ok (v, ly));
      avoid p (fst vl) c (snd vl) (PI * (1 - share))).
  { intros w share Lw Sw Wc Hs SUP. rewrite Wc, Sw. rewrite (proj2 (Rltb_false 1 1)) by lra.
    assert (CNT : (1 < length (positive_indices w))%nat <-> 0 < share * (1 - share)).
    { unfold positive_indices. split.
      - intros H. destruct SUP as [[Z J]|(q & Hq & Dq & Wq & J)].
        + exfalso. assert (Q : forall i, In i (filter (fun i => Rltb 0 (nth i w 0)) (seq 0 (length w))) -> i = c).
          { intros i Hi. apply filter_In in Hi as [_ Hi]. apply Rltb_true in Hi. destruct (Nat.eq_dec i c); auto. rewrite J in Hi by auto. lra. }
          pose proof (NoDup_filter (fun i => Rltb 0 (nth i w 0)) (seq_NoDup (length w) 0)) as ND.
          destruct (filter _ _) as [|a [|b t]]; cbn in H; try lia. inversion ND as [|? ? N1 _]; subst. apply N1.
          rewrite (Q a), (Q b) by (cbn; auto). left; auto.
        + assert (Q : forall i, In i (filter (fun i => Rltb 0 (nth i w 0)) (seq 0 (length w))) -> i = c /\ 0 < 1 - share \/ i = q /\ 0 < share).
          { intros i Hi. apply filter_In in Hi as [_ Hi]. apply Rltb_true in Hi. destruct (Nat.eq_dec i c) as [->|D1]; [left; split; auto; lra|].
            destruct (Nat.eq_dec i q) as [->|D2]; [right; split; auto; lra|]. rewrite J in Hi by auto. lra. }
          pose proof (NoDup_filter (fun i => Rltb 0 (nth i w 0)) (seq_NoDup (length w) 0)) as ND.
          destruct (filter _ _) as [|a [|b t]]; cbn in H; try lia. inversion ND as [|? ? N1 _]; subst.
          assert (D : a <> b) by (intros ->; apply N1; left; auto).
          destruct (Q a ltac:(cbn; auto)) as [[A1 A2]|[A1 A2]]; destruct (Q b ltac:(cbn; auto)) as [[B1 B2]|[B1 B2]]; try congruence; nra.
      - intros H. destruct SUP as [[Z J]|(q & Hq & Dq & Wq & J)]; [rewrite Z in H; lra|].
        assert (P1 : 0 < share) by nra. assert (P2 : 0 < 1 - share) by nra.
        assert (I : incl [c; q] (filter (fun i => Rltb 0 (nth i w 0)) (seq 0 (length w)))).
        { intros i [<-|[<-|[]]]; apply filter_In; (split; [apply in_seq; lia|apply Rltb_true; lra]). }
        apply NoDup_incl_length in I; [cbn in I; lia|]. constructor; [intros [E|[]]; congruence|]. constructor; [intros []|constructor]. }
    destruct (Rlt_dec 0 (share * (1 - share))) as [P|P].
    - rewrite (proj2 (Nat.ltb_lt _ _)) by (apply CNT; auto). destruct (averaged_velocities _ _ _ _ _ _) as [vl|]; auto. cbn [bind].
      destruct (avoid _ _ _ _ _); auto.
    - destruct (Nat.ltb_spec 1 (length (positive_indices w))) as [Q|Q]; [exfalso; apply P, CNT; auto|].
      destruct (evaluate c p); auto. cbn [bind]. destruct (lyapunov c p); auto. cbn [bind]. destruct (avoid _ _ _ _ _); auto. }
  destruct PR as [PR|(q & PR & Lq & Dq)].
  - rewrite PR. destruct (C49_no_parent (kl_centers l) c (fun t => get_gamma (region_obstacle l c) p (Some (Z.of_nat t))) p (1 / 2) 2 Hl)
      as (w & Ew & Lw & Sw & Nw). exists w, 0. repeat split; auto; try lra.
    + rewrite Nw, Nat.eqb_refl. lra.
    + rewrite Ew. cbn [bind]. apply FIN; auto; try lra.
      * rewrite Nw, Nat.eqb_refl. lra.
      * left. split; auto. intros j Hj. rewrite Nw. destruct (Nat.eqb_spec j c); [contradiction|auto].
  - rewrite PR.
    assert (GG : exists g, get_gamma (region_obstacle l c) p (Some (Z.of_nat q)) = Ok g /\ g <> GNone).
    { set (o' := mkKobs (kl_centers l) (kl_radius l) c true [q]).
      assert (W' : kwf o' n).
      { constructor; [apply (kw_len _ _ W)|apply (kw_idx _ _ W)|apply (kw_dim _ _ W)|apply (kw_rad _ _ W)|apply (kw_sep _ _ W)]. }
      destruct (gamma_region o' n p W') as (g & G & H); auto.
      { split; [exact Dp|]. intros j Hj _. apply CL; auto. }
      { right. exists q. split; auto. }
      exists g. split; [|destruct H as [->|(x & -> & _)]; discriminate].
      rewrite (gamma_none_single o' p q eq_refl Lq) in G. exact G. }
    destruct GG as (g & G & NG).
    destruct (C49_sequence_weights (kl_centers l) c q (fun t => get_gamma (region_obstacle l c) p (Some (Z.of_nat t))) p (1 / 2) 2 n g
      (cl_len _ _ _ _ _ C) Lp Hl Lq) as (w & Ew & Lw & Sw & Bw & Wq & Wc & Wj); auto; try lra.
    { intros E. pose proof (cl_sep _ _ _ _ _ C c q Hl Lq ltac:(auto)) as Q. rewrite E, dist_refl in Q.
      pose proof (cl_rad _ _ _ _ _ C). assert (0 < 2 * kl_radius l / 10 ^ 9) by lra. lra. }
    exists w, (nth q w 0). pose proof (Bw q) as Bq. rewrite Wq in *. repeat split; auto; try lra.
    + right. exists q. repeat split; auto.
    + rewrite Ew. cbn [bind]. apply FIN; auto; try lra. right. exists q. auto.
Qed.

(** On the common face with the predecessor, where the predecessor has the whole weight, the
    velocity is nevertheless the one of the own dynamics, and not turned towards anything. *)
Theorem C108_face_refuted l factor attractor order positions n : fitted l factor attractor order positions n ->
  forall p q, length p = n -> closest (kl_centers l) p (label p) -> predecessors (kl_graph l) (label p) = [q] ->
  dist p (cluster (kl_centers l) (label p)) < kl_radius l ->
  dist p (cluster (kl_centers l) (label p)) = dist p (cluster (kl_centers l) q) ->
  let c := label p in
  exists w, predict_sequence_weights (kl_centers l) [q]
      (fun t => get_gamma (region_obstacle l c) p (Some (Z.of_nat t))) p c (1 / 2) 2 = Ok w /\
    nth c w 0 = 0 /\ nth q w 0 = 1 /\
    predict l p = do v <- evaluate c p; do ly <- lyapunov c p; avoid p v c ly 0.
Proof.
  intros FT p q Lp CL PR Hr Hq c. destruct (C108_inside l _ _ _ _ _ FT p Lp CL ltac:(lra)) as (w & share & Ew & Lw & Hs & Wc & SUP & EP).
  fold c in Ew, Wc, SUP, EP, PR. destruct (fitted_parts _ _ _ _ _ _ FT) as (Eg & Er & _). destruct FT as (_ & C).
  assert (Hl : (c < length (kl_centers l))%nat) by apply CL.
  destruct (chain_graph _ _ _ _ _ _ C Eg c Hl) as (_ & [PR'|(q' & PR' & Lq & Dq)]); [congruence|].
  assert (q' = q) by congruence. subst q'. rewrite PR in Ew. exists w. split; auto.
  assert (W : kwf (region_obstacle l c) n).
  { destruct l as [cs r g out]. apply (clusters_kwf _ _ _ _ _ _ _ _ C Hl). }
  set (o := region_obstacle l c) in *. assert (Ec : k_center o = cluster (kl_centers l) c) by reflexivity.
  destruct (surface_point o n p W Lp) as [s [X [F D]]]. pose proof (ray_unit o n p W Lp) as U. pose proof (ex_pos _ _ _ X) as Ps.
  assert (Ll : p = on_line o (ray o p) (dist p (k_center o))) by (apply (surface_direction_line o n); auto).
  assert (Ds : dist p (k_center o) <= s).
  { assert (Rg : region o p) by (split; [rewrite Ec; change (k_radius o) with (kl_radius l); fold c in Hr; lra|intros j Hj _; apply CL; auto]).
    rewrite Ll in Rg. apply (region_extent o n W _ s _ U X) in Rg; auto. apply norm_nonneg. }
  pose proof (proj2 (bisector o n W (ray o p) (dist p (k_center o)) q U ltac:(apply norm_nonneg) Lq Dq)) as B.
  rewrite <- Ll in B. pose proof (proj1 B Hq) as Bq. clear B.
  pose proof (gap_pos o n W q Lq Dq) as G0. pose proof (slope_le_1 o n W q (ray o p) Lq Dq U) as S1.
  pose proof (ex_gap _ _ _ X q Lq Dq) as XG. assert (Pn : 0 <= dist p (k_center o)) by apply norm_nonneg.
  assert (Sp : 0 < slope o q (ray o p)) by nra. assert (Es : dist p (k_center o) = s) by nra.
  assert (REL : relevant o q = true).
  { unfold relevant. apply andb_true_intro. split; [apply Bool.negb_true_iff, Nat.eqb_neq; auto|]. apply Rltb_true.
    fold (dist (k_center o) (cluster (k_centers o) q)). rewrite dist_sym. unfold gap in Bq, G0. fold c in Hr. rewrite <- Ec in Hr.
    change (k_radius o) with (kl_radius l). nra. }
  assert (GM : get_gamma o p (Some (Z.of_nat q)) = Ok GMax).
  { destruct (C58_transparent_face o n p q _ W eq_refl Lp Lq F) as [_ J]. rewrite D in J. apply J; auto. }
  destruct (C49_handover (kl_centers l) c q (fun t => get_gamma o p (Some (Z.of_nat t))) p (1 / 2) 2 n GMax
      (cl_len _ _ _ _ _ C) Lp Hl Lq) as (w' & Ew' & _ & _ & H3); auto; try lra; try discriminate.
  { intros E. pose proof (cl_sep _ _ _ _ _ C c q Hl Lq ltac:(auto)) as Q. rewrite E, dist_refl in Q.
    pose proof (cl_rad _ _ _ _ _ C). assert (0 < 2 * kl_radius l / 10 ^ 9) by lra. lra. }
  assert (w' = w) by congruence. subst w'. specialize (H3 eq_refl ltac:(fold c in Hq; lra)).
  destruct SUP as [[PR0 _]|(q0 & PR0 & _ & Wq & _)]; [congruence|]. assert (q0 = q) by congruence. subst q0.
  assert (Sh : share = 1) by lra. split; [lra|]. split; auto. rewrite EP, Sh. destruct (Rlt_dec 0 (1 * (1 - 1))); [lra|].
  destruct (evaluate c p); auto. cbn [bind]. destruct (lyapunov c p); auto. cbn [bind fst snd].
  replace (PI * (1 - 1)) with 0 by ring. auto.
Qed.
(** A learner made by [from_centers] cannot be asked outside of its regions; one made by [fit]
    answers there with the dynamics of the outside. *)
Theorem C108_from_centers_refuted l factor attractor order positions n :
  from_centers factor (kl_centers l) attractor order positions = Ok l ->
  clusters (kl_centers l) attractor order n (kl_radius l) ->
  forall p, length p = n -> closest (kl_centers l) p (label p) ->
  kl_radius l < dist p (cluster (kl_centers l) (label p)) -> predict l p = Err EAttr.
Proof.
  intros E C p Lp CL Hr. unfold from_centers in E. destruct (refit _ _ _ _) as [g|] eqn:Eg; [|discriminate]. cbn [bind] in E.
  destruct (fit_region_radius _ _ _ _ _) as [r|] eqn:Er; [|discriminate]. cbn [bind] in E. injection E as E.
  assert (Egl : kl_graph l = g) by (rewrite <- E; auto). rewrite (predict_cases l _ _ _ _ _ eq_refl Egl C Eg p Lp CL).
  destruct (Rle_dec _ _); [lra|]. rewrite <- E. auto.
Qed.
Theorem C108_outside l factor attractor order positions n linear :
  fit (mkH [] []) factor (kl_centers l) attractor order positions linear = Ok l ->
  clusters (kl_centers l) attractor order n (kl_radius l) ->
  forall p, length p = n -> closest (kl_centers l) p (label p) ->
  (kl_radius l < dist p (cluster (kl_centers l) (label p)) ->
   predict l p = predict_outside orth1 (kl_centers l) (kl_radius l) linear p) /\
  (4 * kl_radius l <= dist p (cluster (kl_centers l) (label p)) -> predict l p = Ok (linear p)).
Proof.
  intros E C p Lp CL. pose proof (cl_rad _ _ _ _ _ C) as R0. unfold fit in E. destruct (refit _ _ _ _) as [g|] eqn:Eg; [|discriminate]. cbn [bind] in E.
  destruct (fit_region_radius _ _ _ _ _) as [r|] eqn:Er; [|discriminate]. cbn [bind] in E. injection E as E.
  assert (Egl : kl_graph l = g) by (rewrite <- E; auto). assert (Eo : kl_outside l = Some linear) by (rewrite <- E; auto).
  rewrite (predict_cases l _ _ _ _ _ eq_refl Egl C Eg p Lp CL). rewrite Eo. split; intros H; (destruct (Rle_dec _ _); [lra|]); auto.
  unfold predict_outside. replace (filter _ (kl_centers l)) with (@nil vec); auto. symmetry. apply filter_none.
  intros c Hc. apply Rltb_false. apply (In_nth _ _ []) in Hc as (k & Hk & Ek). pose proof (proj2 CL k Hk) as Q. unfold cluster in Q at 2.
  rewrite Ek in Q. unfold dist in Q at 2. lra.
Qed.
End Predict.

(** [compute_distances_to_neighbours] gives the distances used for the radius, with the one to the
    attractor not doubled. *)
Lemma mapM_chain centers (f : nat -> res R) l : forall v,
  (forall i a b, nth_error (v :: l) i = Some a -> nth_error (v :: l) (S i) = Some b ->
     f b = Ok (dist (cluster centers b) (cluster centers a))) ->
  mapM f l = Ok (distances_loop centers v l).
Proof.
  induction l as [|u l IH]; intros v H; auto. cbn [mapM distances_loop]. rewrite (H 0%nat v u) by auto. cbn [bind].
  rewrite (IH u); auto. intros i a b Ha Hb. apply (H (S i)); auto.
Qed.
Lemma chain_nodes_fst centers l : forall v k, map fst (chain_nodes centers v k l) = l.
Proof. induction l as [|u l IH]; intros v k; auto. cbn [chain_nodes map fst]. rewrite IH. auto. Qed.
Theorem C105_neighbours centers attractor order n r g : clusters centers attractor order n r -> order <> [] ->
  refit (mkH [] []) centers attractor order = Ok g ->
  exists d ds, distances_parent centers attractor order = d :: ds /\
    compute_distances_to_neighbours centers attractor g = Ok (d / 2 :: ds).
Proof.
  intros C NE E. pose proof (cl_order _ _ _ _ _ C) as Pm.
  assert (ND : NoDup order) by (apply (Permutation_NoDup (Permutation_sym Pm)), seq_NoDup).
  destruct order as [|first rest] eqn:EO; [congruence|]. rewrite refit_fresh in E by auto.
  assert (N1 : norm (vsub (cluster centers first) attractor) <> 0) by apply (cl_att _ _ _ _ _ C first rest eq_refl).
  assert (A1 : apart centers first rest).
  { apply (clusters_apart _ _ _ _ _ C); auto. intros u Hu. apply (Permutation_in _ Pm) in Hu. apply in_seq in Hu. lia. }
  destruct (C50_chain centers attractor _ first rest (fun _ => 0) eq_refl Pm ltac:(intros; lra) N1 A1)
    as (g' & Eg & S0 & PL & CH & NDt & _). assert (g' = g) by congruence. subst g'.
  rewrite fit_ok in E by auto. injection E as E. cbn [distances_parent]. eexists. eexists. split; [reflexivity|].
  unfold compute_distances_to_neighbours. replace (map fst (h_nodes g)) with (first :: rest).
  2: { rewrite <- E. cbn [h_nodes map fst]. rewrite chain_nodes_fst. auto. }
  cbn [mapM]. unfold distance_to_neighbour at 1. destruct (NDt 0%nat first eq_refl) as (Q & _). cbv zeta in Q. rewrite Q. cbn [Nat.eqb bind].
  rewrite (mapM_chain centers _ rest first).
  - cbn [bind]. f_equal. f_equal. field.
  - intros i a b Ha Hb. unfold distance_to_neighbour. destruct (NDt (S i) b Hb) as (Qb & _). rewrite Qb. cbn [Nat.eqb].
    destruct (CH i a b Ha Hb) as (Sb & _). rewrite Sb. auto.
Qed.

(** * C109 *)
Lemma node_data_add g v d : node_data (add_node g v d) v = Some d.
Proof.
  unfold add_node, node_data. destruct (existsb _ _) eqn:Ex; cbn [h_nodes].
  - apply existsb_exists in Ex as (x & Hx & Ev). apply Nat.eqb_eq in Ev. subst x.
    induction (h_nodes g) as [|[a x] l IH]; [destruct Hx|]. cbn [map fst find].
    destruct (Nat.eqb_spec a v) as [->|Na]; cbn [fst find].
    + rewrite Nat.eqb_refl. auto.
    + destruct (Nat.eqb_spec a v); [contradiction|]. apply IH. destruct Hx; [contradiction|auto].
  - rewrite find_app_r; [cbn; rewrite Nat.eqb_refl; auto|]. apply find_none_nodes. intros H.
    assert (Q : existsb (Nat.eqb v) (map fst (h_nodes g)) = true); [|congruence].
    apply existsb_exists. exists v. split; auto. apply Nat.eqb_refl.
Qed.
Lemma edges_add_node g v d : h_edges (add_node g v d) = h_edges g.
Proof. unfold add_node. destruct (existsb _ _); auto. Qed.
Lemma node_data_add_edge g u v x : node_data (add_edge g u v) x = node_data g x.
Proof. unfold add_edge. destruct (existsb _ _); auto. Qed.
Lemma edges_add_edge g u v e : In e (h_edges (add_edge g u v)) <-> In e (h_edges g) \/ e = (u, v).
Proof.
  unfold add_edge. destruct (existsb _ _) eqn:Ex; cbn [h_edges].
  - split; [auto|]. intros [H| ->]; auto. apply existsb_exists in Ex as ([a b] & Hx & Ev). cbn [fst snd] in Ev.
    apply andb_true_iff in Ev as [E1 E2]. apply Nat.eqb_eq in E1. apply Nat.eqb_eq in E2. subst. auto.
  - rewrite in_app_iff. cbn. intuition congruence.
Qed.
Lemma refit_loop_edges centers l : forall g v, node_data g v <> None -> apart centers v l ->
  exists g', refit_loop centers g v l = Ok g' /\
  forall e, In e (h_edges g') <-> In e (h_edges g) \/ In e (combine l (v :: l)).
Proof.
  induction l as [|u l IH]; intros g v NN AP.
  - exists g. split; auto. intros e. cbn. tauto.
  - cbn [apart] in AP. destruct AP as [A1 A2]. cbn [refit_loop]. destruct (Req_EM_T _ 0); [contradiction|].
    destruct (node_data g v) as [[level dir]|]; [|congruence].
    set (g1 := add_edge _ u v). destruct (IH g1 u) as (g' & E & H); auto.
    + unfold g1. rewrite node_data_add_edge, node_data_add. discriminate.
    + exists g'. split; auto. intros e. rewrite H. unfold g1. rewrite edges_add_edge, edges_add_node. cbn [combine]. cbn [In].
      intuition congruence.
Qed.
(** A fit keeps all edges of the earlier fits. *)
Theorem C109_edges_kept g centers attractor order n r : clusters centers attractor order n r -> order <> [] ->
  exists g', refit g centers attractor order = Ok g' /\
  forall u v, In (u, v) (h_edges g') <->
    In (u, v) (h_edges g) \/ exists i, nth_error order i = Some v /\ nth_error order (S i) = Some u.
Proof.
  intros C NE. pose proof (cl_order _ _ _ _ _ C) as Pm.
  assert (ND : NoDup order) by (apply (Permutation_NoDup (Permutation_sym Pm)), seq_NoDup).
  destruct order as [|first rest] eqn:EO; [congruence|]. cbn [refit].
  pose proof (cl_att _ _ _ _ _ C first rest eq_refl) as N1. destruct (Req_EM_T _ 0); [contradiction|].
  destruct (refit_loop_edges centers rest (add_node g first (0%nat, vdiv (vsub (cluster centers first) attractor) (norm (vsub (cluster centers first) attractor)))) first)
    as (g' & E & H).
  - rewrite node_data_add. discriminate.
  - apply (clusters_apart _ _ _ _ _ C); auto. intros u Hu. apply (Permutation_in _ Pm) in Hu. apply in_seq in Hu. lia.
  - exists g'. split; auto. intros u v. rewrite H, edges_add_node.
    assert (Q : In (u, v) (combine rest (first :: rest)) <-> exists i, nth_error (first :: rest) i = Some v /\ nth_error (first :: rest) (S i) = Some u).
    { clear. revert first. induction rest as [|a rest IH]; intros first.
      - cbn. split; [intros []|]. intros ([|[|i]] & _ & E); discriminate.
      - cbn [combine]. cbn [In]. rewrite IH. split.
        + intros [E|(i & E1 & E2)]; [injection E as -> ->; exists 0%nat; auto|exists (S i); auto].
        + intros ([|i] & E1 & E2); [left; cbn in E1, E2; congruence|right; exists i; auto]. }
    rewrite Q. tauto.
Qed.
(** Hence a learner fitted again with another parent for a cluster raises everywhere in the region
    of this cluster but at its center and surface. *)
Theorem C109_refit_refuted (orth1 : vec -> vec) (label : vec -> nat) evaluate evaluate_unchecked lyapunov avoid
    factor centers1 attractor1 order1 positions1 linear1 centers attractor order positions linear n l1 l2 c a b i j :
  fit (mkH [] []) factor centers1 attractor1 order1 positions1 linear1 = Ok l1 ->
  clusters centers1 attractor1 order1 n (kl_radius l1) ->
  fit (kl_graph l1) factor centers attractor order positions linear = Ok l2 ->
  clusters centers attractor order n (kl_radius l2) ->
  nth_error order1 i = Some a -> nth_error order1 (S i) = Some c ->
  nth_error order j = Some b -> nth_error order (S j) = Some c -> a <> b ->
  forall p s, length p = n -> label p = c -> (c < length centers)%nat -> dist p (cluster centers c) <> 0 ->
  get_point_on_surface (region_obstacle l2 c) p = Ok s -> dist p (cluster centers c) <> dist s (cluster centers c) ->
  predict orth1 label evaluate evaluate_unchecked lyapunov avoid l2 p = Err ENotImpl.
Proof.
  intros F1 C1 F2 C2 A1 A2 B1 B2 AB p s Lp Lab Hc D0 Fs Ds.
  assert (O1 : order1 <> []) by (intros ->; destruct i; discriminate).
  assert (O2 : order <> []) by (intros ->; destruct j; discriminate).
  destruct (C109_edges_kept (mkH [] []) centers1 attractor1 order1 n _ C1 O1) as (g1 & E1 & H1).
  destruct (C109_edges_kept (kl_graph l1) centers attractor order n _ C2 O2) as (g2 & E2 & H2).
  unfold fit in F1, F2. rewrite E1 in F1. rewrite E2 in F2. cbn [bind] in F1, F2.
  destruct (fit_region_radius factor centers1 _ _ _) as [r1|]; [|discriminate].
  destruct (fit_region_radius factor centers _ _ _) as [r2|]; [|discriminate]. cbn [bind] in F1, F2.
  injection F1 as F1. injection F2 as F2. rewrite <- F1 in H2. cbn [kl_graph] in H2.
  assert (Ia : In (c, a) (h_edges g2)) by (apply H2; left; apply H1; right; exists i; auto).
  assert (Ib : In (c, b) (h_edges g2)) by (apply H2; right; exists j; auto).
  subst l2. cbn [kl_radius] in C2. set (l2' := mkL centers r2 g2 (Some linear)) in *.
  assert (W : kwf (region_obstacle l2' c) n) by apply (clusters_kwf centers attractor order n r2 g2 (Some linear) c C2 Hc).
  assert (SU : exists x y t, k_successors (region_obstacle l2' c) = x :: y :: t).
  { cbn [region_obstacle k_successors l2' kl_graph]. unfold successors.
    assert (Sa : In a (map snd (filter (fun e => Nat.eqb (fst e) c) (h_edges g2)))).
    { apply in_map_iff. exists (c, a). split; auto. apply filter_In. split; auto. apply Nat.eqb_refl. }
    assert (Sb : In b (map snd (filter (fun e => Nat.eqb (fst e) c) (h_edges g2)))).
    { apply in_map_iff. exists (c, b). split; auto. apply filter_In. split; auto. apply Nat.eqb_refl. }
    destruct (map snd _) as [|x [|y t]]; [destruct Sa| |eauto]. destruct Sa as [<-|[]]. destruct Sb as [<-|[]]. congruence. }
  destruct SU as (x & y & t & SU). unfold predict. rewrite Lab.
  destruct (surface_point _ n p W Lp) as [e [X [F D]]]. assert (s = on_line (region_obstacle l2' c) (ray (region_obstacle l2' c) p) e) by congruence.
  subst s. assert (EC : k_center (region_obstacle l2' c) = cluster centers c) by reflexivity. rewrite EC in D. rewrite D in Ds.
  destruct (gamma_off _ n p e None W Lp X) as [P [w [ds [PS [G [EP E]]]]]]; auto.
  rewrite E. unfold gamma_tail. rewrite SU. reflexivity.
Qed.

(** * Examples *)
(** Two clusters in the plane, the attractor to the right of both, the default factor. *)
Definition ex_centers : list vec := [[0; 0]; [1; 0]].
Definition ex_linear (p : vec) : vec := vsub [3 / 2; 0] p.
Definition ex_graph : hgraph := mkH [(1%nat, (0%nat, [-1; 0])); (0%nat, (1%nat, [-1; 0]))] [(0%nat, 1%nat)].
Definition ex_l : klearner := mkL ex_centers (7 / 10) ex_graph (Some ex_linear).
Lemma dist_axis a b : dist [a; 0] [b; 0] = Rabs (a - b).
Proof.
  unfold dist, norm. cbn [vsub vscale vadd map dot]. rewrite <- sqrt_Rsqr_abs. unfold Rsqr. f_equal. ring.
Qed.
Ltac absolve := repeat match goal with |- context [Rabs ?x] =>
    (rewrite (Rabs_pos_eq x) by lra) || (rewrite (Rabs_left1 x) by lra) end.
Lemma ex_radius : fit_region_radius (7 / 10) ex_centers [3 / 2; 0] [1%nat; 0%nat] ex_centers = Ok (7 / 10).
Proof.
  unfold fit_region_radius, distances_parent, ex_centers. cbn [distances_loop nth mapM map bind]. unfold cluster. cbn [nth].
  fold (dist [1; 0] [3 / 2; 0]) (dist [0; 0] [1; 0]) (dist [0; 0] [0; 0]) (dist [1; 0] [0; 0]) (dist [1; 0] [1; 0]).
  rewrite !dist_axis. absolve. cbn [np_max np_min fold_left bind].
  f_equal. unfold Rmin, Rmax. repeat destruct (Rle_dec _ _); lra.
Qed.

Lemma ex_refit : refit (mkH [] []) ex_centers [3 / 2; 0] [1%nat; 0%nat] = Ok ex_graph.
Proof.
  unfold refit, ex_centers, cluster. cbn [nth].
  fold (dist [1; 0] [3 / 2; 0]). destruct (Req_EM_T _ 0) as [Z|_]; [rewrite dist_axis in Z; revert Z; absolve; lra|].
  rewrite dist_axis. cbn [refit_loop add_node existsb map h_nodes h_edges app nth cluster].
  fold (dist [0; 0] [1; 0]). destruct (Req_EM_T _ 0) as [Z|_]; [rewrite dist_axis in Z; revert Z; absolve; lra|].
  rewrite dist_axis. absolve. cbv [node_data add_node add_edge existsb map h_nodes h_edges app find fst snd Nat.eqb andb orb Nat.add].
  unfold ex_graph. unfold vdiv, vsub. cbn [vscale map vadd]. cbn [option_map]. repeat f_equal; field.
Qed.
Lemma ex_clusters : clusters ex_centers [3 / 2; 0] [1%nat; 0%nat] 2 (7 / 10).
Proof.
  split.
  - lia.
  - intros [|[|j]] H; cbn in *; auto; lia.
  - intros [|[|i]] [|[|j]] Hi Hj H; cbn [ex_centers length] in *; try lia; unfold cluster; cbn [ex_centers nth]; rewrite dist_axis; absolve; lra.
  - lra.
  - apply perm_swap.
  - intros first rest E. injection E as <- _. unfold cluster. cbn [ex_centers nth]. rewrite dist_axis. absolve. lra.
Qed.
Lemma ex_fit : fit (mkH [] []) (7 / 10) ex_centers [3 / 2; 0] [1%nat; 0%nat] ex_centers ex_linear = Ok ex_l.
Proof. unfold fit. rewrite ex_refit, ex_radius. reflexivity. Qed.
Example C105_case : fitted ex_l (7 / 10) [3 / 2; 0] [1%nat; 0%nat] ex_centers 2 /\
  dist (cluster ex_centers 1) (cluster ex_centers 0) = 1 /\ 2 * kl_radius ex_l = 14 / 10 /\
  compute_distances_to_neighbours ex_centers [3 / 2; 0] ex_graph = Ok [1 / 2; 1].
Proof.
  split; [split; [exists ex_linear; exact ex_fit|exact ex_clusters]|]. split; [unfold cluster; cbn [ex_centers nth]; rewrite dist_axis; absolve; lra|].
  split; [cbn [ex_l kl_radius]; lra|].
  destruct (C105_neighbours ex_centers [3 / 2; 0] [1%nat; 0%nat] 2 (7 / 10) ex_graph ex_clusters ltac:(discriminate) ex_refit) as (d & ds & E & F).
  rewrite F. unfold distances_parent in E. cbn [distances_loop] in E. injection E as <- <-. unfold cluster. cbn [ex_centers nth].
  fold (dist [1; 0] [3 / 2; 0]) (dist [0; 0] [1; 0]). rewrite !dist_axis. absolve. repeat f_equal; lra.
Qed.

(** Half way between the centers the dynamics of the second cluster has no influence left. *)
Example C108_case orth1 evaluate evaluate_unchecked lyapunov avoid :
  let label p := 1%nat in
  closest ex_centers [1 / 2; 1 / 4] 1 /\ dist [1 / 2; 1 / 4] (cluster ex_centers 1) < kl_radius ex_l /\
  predict orth1 label evaluate evaluate_unchecked lyapunov avoid ex_l [1 / 2; 1 / 4] =
    (do v <- evaluate 1%nat [1 / 2; 1 / 4]; do ly <- lyapunov 1%nat [1 / 2; 1 / 4]; avoid [1 / 2; 1 / 4] v 1%nat ly 0) /\
  predict orth1 label evaluate evaluate_unchecked lyapunov avoid ex_l [5; 0] = Ok [- 7 / 2; 0] /\
  predict orth1 label evaluate evaluate_unchecked lyapunov avoid (mkL ex_centers (7 / 10) ex_graph None) [5; 0] = Err EAttr.
Proof.
  intros label.
  assert (D1 : dist [1 / 2; 1 / 4] [1; 0] = sqrt (5 / 16)) by (unfold dist, norm, vsub; cbn [vscale map vadd dot]; f_equal; lra).
  assert (D0 : dist [1 / 2; 1 / 4] [0; 0] = sqrt (5 / 16)) by (unfold dist, norm, vsub; cbn [vscale map vadd dot]; f_equal; lra).
  assert (CL : closest ex_centers [1 / 2; 1 / 4] 1).
  { split; [cbn; lia|]. intros [|[|k]] Hk; unfold cluster; cbn [ex_centers nth length] in *; try lia; rewrite D1, ?D0; lra. }
  assert (S1 : sqrt (5 / 16) < 7 / 10) by (rewrite <- (sqrt_square (7 / 10)) by lra; apply sqrt_lt_1; lra).
  assert (CL' : closest ex_centers [5; 0] 1).
  { split; [cbn; lia|]. intros [|[|k]] Hk; unfold cluster; cbn [ex_centers nth length] in *; try lia; rewrite !dist_axis; absolve; lra. }
  assert (D5 : dist [5; 0] (cluster ex_centers 1) = 4) by (unfold cluster; cbn [ex_centers nth]; rewrite dist_axis; absolve; lra).
  split; auto. split; [unfold cluster; cbn [ex_centers nth ex_l kl_radius]; rewrite D1; auto|]. split; [|split].
  - destruct (C108_face_refuted orth1 label evaluate evaluate_unchecked lyapunov avoid ex_l (7 / 10) [3 / 2; 0] [1%nat; 0%nat] ex_centers 2
      (proj1 C105_case) [1 / 2; 1 / 4] 0%nat) as (w & _ & _ & _ & E); auto; unfold cluster; cbn [label ex_l ex_centers kl_centers kl_radius nth]; rewrite ?D1, ?D0; auto.
  - destruct (C108_outside orth1 label evaluate evaluate_unchecked lyapunov avoid ex_l (7 / 10) [3 / 2; 0] [1%nat; 0%nat] ex_centers 2 ex_linear
      ex_fit ex_clusters [5; 0]) as (_ & E); auto. rewrite E; [|change (kl_centers ex_l) with ex_centers; unfold label; rewrite D5; cbn [ex_l kl_radius]; lra].
    unfold ex_linear, vsub. cbn [vscale map vadd]. f_equal; f_equal; [lra|f_equal; lra].
  - apply (C108_from_centers_refuted orth1 label evaluate evaluate_unchecked lyapunov avoid (mkL ex_centers (7 / 10) ex_graph None) (7 / 10) [3 / 2; 0] [1%nat; 0%nat] ex_centers 2); auto.
    + unfold from_centers. cbn [kl_centers]. rewrite ex_refit, ex_radius. reflexivity.
    + exact ex_clusters.
    + cbn [kl_centers kl_radius]. unfold label. rewrite D5. lra.
Qed.

(** The same data driven backwards: the cluster in the middle keeps both of its parents. *)
Ltac extremes := repeat match goal with
  | |- context [Rmin ?a ?b] => (rewrite (Rmin_left a b) by lra) || (rewrite (Rmin_right a b) by lra)
  | |- context [Rmax ?a ?b] => (rewrite (Rmax_left a b) by lra) || (rewrite (Rmax_right a b) by lra)
  end.
Definition ex3 : list vec := [[0; 0]; [1; 0]; [2; 0]].
Lemma ex3_radius a order : a = [-1 / 2; 0] /\ order = [0%nat; 1%nat; 2%nat] \/ a = [5 / 2; 0] /\ order = [2%nat; 1%nat; 0%nat] ->
  fit_region_radius (7 / 10) ex3 a order ex3 = Ok (7 / 10).
Proof.
  intros [(-> & ->)|(-> & ->)]; unfold fit_region_radius, distances_parent, ex3; cbn [distances_loop nth mapM map bind]; unfold cluster; cbn [nth];
    repeat match goal with |- context [norm (vsub [?a; 0] [?b; 0])] => fold (dist [a; 0] [b; 0]); rewrite (dist_axis a b) end;
    absolve; cbn [np_max np_min fold_left bind]; extremes; f_equal; lra.
Qed.
Lemma ex3_clusters a order : a = [-1 / 2; 0] /\ order = [0%nat; 1%nat; 2%nat] \/ a = [5 / 2; 0] /\ order = [2%nat; 1%nat; 0%nat] ->
  clusters ex3 a order 2 (7 / 10).
Proof.
  intros H. split.
  - lia.
  - intros [|[|[|j]]] H1; cbn in *; auto; lia.
  - intros [|[|[|i]]] [|[|[|j]]] Hi Hj N; cbn [ex3 length] in *; try lia; unfold cluster; cbn [ex3 nth]; rewrite dist_axis; absolve; lra.
  - lra.
  - destruct H as [(_ & ->)|(_ & ->)]; [apply Permutation_refl|]. apply (Permutation_rev [2%nat; 1%nat; 0%nat]).
  - intros first rest E. destruct H as [(-> & EO)|(-> & EO)]; rewrite EO in E; injection E as <- _; unfold cluster; cbn [ex3 nth]; rewrite dist_axis; absolve; lra.
Qed.
Example C109_case orth1 evaluate evaluate_unchecked lyapunov avoid linear :
  let label p := 1%nat in
  exists l1 l2, fit (mkH [] []) (7 / 10) ex3 [-1 / 2; 0] [0%nat; 1%nat; 2%nat] ex3 linear = Ok l1 /\
  fit (kl_graph l1) (7 / 10) ex3 [5 / 2; 0] [2%nat; 1%nat; 0%nat] ex3 linear = Ok l2 /\
  closest ex3 [1; 1 / 4] 1 /\ dist [1; 1 / 4] [1; 0] < kl_radius l2 /\
  predict orth1 label evaluate evaluate_unchecked lyapunov avoid l2 [1; 1 / 4] = Err ENotImpl.
Proof.
  intros label.
  pose proof (ex3_clusters [-1 / 2; 0] [0%nat; 1%nat; 2%nat] ltac:(auto)) as C1.
  pose proof (ex3_clusters [5 / 2; 0] [2%nat; 1%nat; 0%nat] ltac:(auto)) as C2.
  destruct (C109_edges_kept (mkH [] []) _ _ _ _ _ C1 ltac:(discriminate)) as (g1 & E1 & _).
  destruct (C109_edges_kept g1 _ _ _ _ _ C2 ltac:(discriminate)) as (g2 & E2 & _).
  exists (mkL ex3 (7 / 10) g1 (Some linear)), (mkL ex3 (7 / 10) g2 (Some linear)).
  assert (F1 : fit (mkH [] []) (7 / 10) ex3 [-1 / 2; 0] [0%nat; 1%nat; 2%nat] ex3 linear = Ok (mkL ex3 (7 / 10) g1 (Some linear)))
    by (unfold fit; rewrite E1; cbn [bind]; rewrite ex3_radius; auto).
  assert (F2 : fit g1 (7 / 10) ex3 [5 / 2; 0] [2%nat; 1%nat; 0%nat] ex3 linear = Ok (mkL ex3 (7 / 10) g2 (Some linear)))
    by (unfold fit; rewrite E2; cbn [bind]; rewrite ex3_radius; auto).
  assert (D1 : dist [1; 1 / 4] [1; 0] = 1 / 4).
  { unfold dist, norm, vsub. cbn [vscale map vadd dot]. transitivity (sqrt (1 / 4 * (1 / 4))); [f_equal; field|apply sqrt_square; lra]. }
  assert (Dk : forall x, 1 / 4 <= dist [1; 1 / 4] [x; 0]).
  { intros x. unfold dist, norm, vsub. cbn [vscale map vadd dot]. apply Rle_trans with (sqrt (1 / 4 * (1 / 4))); [right; symmetry; apply sqrt_square; lra|]. apply sqrt_le_1_alt.
    pose proof (Rle_0_sqr (1 + -1 * x)) as Q. unfold Rsqr in Q. lra. }
  split; auto. split; auto. split; [|split].
  - split; [cbn; lia|]. intros [|[|[|k]]] Hk; unfold cluster; cbn [ex3 nth length] in *; try lia; rewrite D1; apply Dk || lra.
  - cbn [kl_radius]. lra.
  - set (l2 := mkL ex3 (7 / 10) g2 (Some linear)) in *.
    assert (W : kwf (region_obstacle l2 1) 2) by apply (clusters_kwf ex3 [5 / 2; 0] [2%nat; 1%nat; 0%nat] 2 (7 / 10) g2 (Some linear) 1 C2 ltac:(cbn; lia)).
    destruct (surface_point _ 2 [1; 1 / 4] W eq_refl) as (s & X & F & D).
    assert (Es : s = 7 / 10).
    { destruct (ex_hit _ _ _ X) as [Z|(j & Hj & SP & _)]; [exact Z|exfalso]. apply relevant_spec in Hj as (J1 & J2 & _).
      revert SP. unfold slope, ray, surface_direction. change (k_center (region_obstacle l2 1)) with [1; 0]. fold (dist [1; 1 / 4] [1; 0]). rewrite D1.
      destruct (Req_EM_T (1 / 4) 0); [lra|]. unfold vdiv. rewrite dot_vscale_l, dot_vscale_r. cbn [region_obstacle k_centers k_index l2 kl_centers] in *.
      destruct j as [|[|[|j]]]; [|congruence| |cbn [ex3 length] in J1; lia]; unfold cluster, vsub; cbn [ex3 nth vscale map vadd dot];
        match goal with |- 0 < _ * (_ * ?x) -> False => replace x with 0 by ring end; rewrite !Rmult_0_r; lra. }
    apply (C109_refit_refuted orth1 label evaluate evaluate_unchecked lyapunov avoid (7 / 10) ex3 [-1 / 2; 0] [0%nat; 1%nat; 2%nat] ex3 linear
      ex3 [5 / 2; 0] [2%nat; 1%nat; 0%nat] ex3 linear 2 _ l2 1%nat 0%nat 2%nat 0%nat 0%nat F1 C1 F2 C2) with (s := on_line (region_obstacle l2 1) (ray (region_obstacle l2 1) [1; 1 / 4]) s); auto.
    + cbn; lia.
    + unfold cluster. cbn [ex3 nth]. rewrite D1. lra.
    + change (cluster ex3 1) with (k_center (region_obstacle l2 1)). rewrite D, Es. change (k_center (region_obstacle l2 1)) with [1; 0]. rewrite D1. lra.
Qed.
Print Assumptions C105_covered.
Print Assumptions C105_samples_inside.
Print Assumptions C108_inside.
Print Assumptions C108_face_refuted.
Print Assumptions C108_from_centers_refuted.
Print Assumptions C108_outside.
Print Assumptions C105_neighbours.
Print Assumptions C109_edges_kept.
Print Assumptions C109_refit_refuted.
