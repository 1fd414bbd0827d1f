(** Property C158: the learned motion follows the demonstrations. *)
Require Import Reals List Lra Lia Psatz Bool Arith ZArith Permutation.
From Verif Require Import Base Vec Angle Pow RotModel Spec RotProofs ProjModel PropProject PropFold DynModel RotAvoidModel RotAvoidProofs FieldModel
  PropLocalRot PropDeviation PropRegress KMeansModel PropKMeans KLearnModel KMeansProofs PropKLearn PropKOutside FitModel PropGmmData PropGmmGamma PropFit LocalFitModel.
Import ListNotations.
Open Scope R_scope.

(** ** Weighted means of directions *)
Section Mean.
Variables (n : nat) (orth1 : vec -> vec).
Hypothesis Hn : (2 <= n)%nat.
Hypothesis Horth : picks n orth1.
Lemma null_base u : length u = n -> unitv u -> base_ok n (mkBase (vdiv u (norm u)) (orth1 u)).
Proof.
  intros L U. change (vdiv u (norm u)) with (dirof u). rewrite (dirof_of_unit _ U). destruct (Horth u L U) as (A & B & C). repeat split; auto.
Qed.
Lemma sum_angles b (ws : list R) : base_ok n b -> forall ds as', Forall2 (fun d a => angle_of_dir n b (dirof d) a) ds as' ->
  let s := fold_right (fun wa acc => vadd (vscale (fst wa) (snd wa)) acc) (vzero n) (combine ws as') in
  length s = n /\ dot (bs0 b) s = 0.
Proof.
  intros B. induction ws as [|w ws IH]; intros ds as' F; cbv zeta.
  - cbn. split; [apply repeat_length|]. destruct B as (<- & _). apply dot_vzero_r.
  - destruct F as [|d a ds as' A F].
    + cbn. split; [apply repeat_length|]. destruct B as (<- & _). apply dot_vzero_r.
    + cbn [combine fold_right fst snd]. destruct (IH ds as' F) as [L P]. cbv zeta in L, P. split.
      * rewrite length_vadd, length_vscale, L, (ad_len _ _ _ _ A). lia.
      * rewrite dot_vadd_r, dot_vscale_r, P, (ad_perp _ _ _ _ A). ring.
Qed.
Lemma angles_of b : base_ok n b -> forall ds, Forall (fun d => length d = n /\ norm d <> 0) ds ->
  exists as', mapM (angle_in b) ds = Ok as' /\ Forall2 (fun d a => angle_of_dir n b (dirof d) a) ds as'.
Proof.
  intros B ds F. induction F as [|d ds [L N] F IH].
  - exists []. split; auto.
  - destruct IH as (l & E & H). destruct (angle_in_ok n b d Hn B L N) as (a & Ea & A). exists (a :: l). cbn [mapM].
    rewrite Ea. cbn [bind]. rewrite E. cbn [bind]. split; auto.
Qed.
(** The mean is a unit vector. *)
Lemma mean_unit u ws ds : length u = n -> unitv u -> Forall (fun d => length d = n /\ norm d <> 0) ds ->
  exists m, mean_around orth1 u ws ds = Ok m /\ length m = n /\ unitv m.
Proof.
  intros L U F. unfold mean_around. destruct (Req_EM_T (norm u) 0) as [Z|_]; [exfalso; apply (unit_norm_neq _ U); auto|].
  pose proof (null_base u L U) as B. unfold directional_weighted_sum.
  destruct (angles_of _ B ds F) as (as' & E & H). rewrite E. cbn [bind]. eexists. split; [reflexivity|].
  assert (L0 : length (bs0 (mkBase (vdiv u (norm u)) (orth1 u))) = n) by apply B. rewrite L0.
  destruct (sum_angles _ ws B ds as' H) as [Ls P]. cbv zeta in Ls, P.
  destruct (vector_from_angle_spec n (bs0 (mkBase (vdiv u (norm u)) (orth1 u))) _ L0 Ls (proj1 (proj2 (proj2 B))) P) as (A1 & A2 & _). auto.
Qed.
(** The mean of equal directions is this direction. *)
Lemma mean_same u ws ds v : length u = n -> unitv u -> length ws = length ds -> rsum ws = 1 ->
  Forall (fun d => length d = n /\ norm d <> 0 /\ dirof d = v) ds -> mean_around orth1 u ws ds = Ok v.
Proof.
  intros L U LW SW F. unfold mean_around. destruct (Req_EM_T (norm u) 0) as [Z|_]; [exfalso; apply (unit_norm_neq _ U); auto|].
  pose proof (null_base u L U) as B. unfold directional_weighted_sum.
  destruct (angles_of _ B ds) as (as' & E & H).
  { eapply Forall_impl; [|exact F]. cbv beta. tauto. }
  rewrite E. cbn [bind]. f_equal. assert (L0 : length (bs0 (mkBase (vdiv u (norm u)) (orth1 u))) = n) by apply B. rewrite L0.
  set (b := mkBase _ _) in *.
  assert (D : ds <> []) by (intros ->; destruct ws; [cbn in SW; lra|discriminate]).
  assert (X : exists a, angle_of_dir n b v a /\ Forall (eq a) as').
  { destruct F as [|d ds (Ld & Nd & Ed) F]; [contradiction|]. inversion H as [|? a ? as'' A H']; subst. exists a. split; auto. constructor; auto.
    clear - H' F A. revert as'' H'. induction F as [|d' ds (_ & _ & Ed) F IH]; intros as'' H'; inversion H' as [|? a' ? l A' H'']; subst; constructor.
    - rewrite (ad_def _ _ _ _ A), (ad_def _ _ _ _ A'), Ed. auto.
    - apply IH; auto. }
  destruct X as (a & A & FA). pose proof (ad_back _ _ _ _ A) as BK. rewrite <- BK. f_equal.
  assert (LA : length ws = length as') by (rewrite LW; clear - H; induction H; cbn; auto).
  assert (G : forall ws as', length ws = length as' -> Forall (eq a) as' ->
    fold_right (fun wa acc => vadd (vscale (fst wa) (snd wa)) acc) (vzero n) (combine ws as') = vscale (rsum ws) a).
  { pose proof (ad_len _ _ _ _ A) as La. clear - La. induction ws as [|w ws IH]; intros [|a' as'] L F; try discriminate.
    - cbn. vext. ring.
    - inversion F as [|? ? E F']; subst a'. cbn [combine fold_right fst snd]. rewrite (IH as') by auto. unfold rsum. cbn [fold_right]. fold (rsum ws). vext. ring. }
  rewrite (G ws as' LA FA), SW. pose proof (ad_len _ _ _ _ A). vext. ring.
Qed.
(** Directions of the local dynamics are unit vectors. *)
Lemma half_unit d p : length d = n -> unitv d -> length p = n -> unitv p ->
  exists m, mean_around orth1 d [1 / 2; 1 / 2] [d; p] = Ok m /\ length m = n /\ unitv m.
Proof.
  intros Ld Ud Lp Up. apply mean_unit; auto. constructor; [split; auto; apply unit_norm_neq; auto|].
  constructor; auto. split; auto. apply unit_norm_neq; auto.
Qed.
Lemma loop_unit points it : forall d p u, length d = n -> unitv d -> length p = n -> unitv p ->
  direction_loop orth1 points d p it = Ok u -> length u = n /\ unitv u.
Proof.
  induction it as [|it IH]; intros d p u Ld Ud Lp Up E; cbn [direction_loop] in E.
  - injection E as <-. auto.
  - destruct (half_unit d p Ld Ud Lp Up) as (m & Em & Lm & Um). rewrite Em in E. cbn [bind] in E.
    destruct (points p) as [b|]; [|discriminate]. cbn [bind] in E. destruct b.
    + apply (IH d m); auto.
    + apply (IH m p); auto.
Qed.
Lemma enforce_unit points to_parent d it u : length to_parent = n -> length d = n -> unitv d ->
  enforce_direction orth1 points to_parent d it = Ok u -> length u = n /\ unitv u.
Proof.
  intros Lp Ld Ud E. unfold enforce_direction in E. destruct (points d) as [b|]; [|discriminate]. cbn [bind] in E.
  destruct b; [injection E as <-; auto|]. destruct (Req_EM_T (norm to_parent) 0) as [|NP]; [discriminate|].
  change (vdiv to_parent (norm to_parent)) with (dirof to_parent) in E.
  pose proof (dirof_unit _ NP) as UP. assert (LP : length (dirof to_parent) = n) by (rewrite dirof_length; auto).
  destruct (points (dirof to_parent)) as [bp|]; [|discriminate]. cbn [bind] in E.
  destruct (isclose _ _). { destruct bp; [injection E as <-; auto|discriminate]. }
  destruct (half_unit d (dirof to_parent) Ld Ud LP UP) as (m & Em & Lm & Um). rewrite Em in E. cbn [bind] in E. destruct bp.
  - apply (loop_unit _ _ _ _ _ Lm Um LP UP E).
  - destruct (points m) as [bm|]; [|discriminate]. cbn [bind] in E. destruct bm.
    + apply (loop_unit _ _ _ _ _ Ld Ud Lm Um E).
    + injection E as <-. auto.
Qed.
Lemma loop_ok points it : (forall d, length d = n -> unitv d -> exists b, points d = Ok b) ->
  forall d p, length d = n -> unitv d -> length p = n -> unitv p -> exists u, direction_loop orth1 points d p it = Ok u.
Proof.
  intros H. induction it as [|it IH]; intros d p Ld Ud Lp Up; cbn [direction_loop]; [eauto|].
  destruct (half_unit d p Ld Ud Lp Up) as (m & Em & Lm & Um). rewrite Em. cbn [bind].
  destruct (H p Lp Up) as (b & E). rewrite E. cbn [bind]. destruct b; apply IH; auto.
Qed.
Lemma enforce_ok points to_parent d it : (forall d, length d = n -> unitv d -> exists b, points d = Ok b) ->
  length to_parent = n -> norm to_parent <> 0 -> length d = n -> unitv d -> 0 <= dot to_parent d ->
  exists u, enforce_direction orth1 points to_parent d it = Ok u.
Proof.
  intros H Lp NP Ld Ud Hd. unfold enforce_direction. destruct (H d Ld Ud) as (b & E). rewrite E. cbn [bind]. destruct b; [eauto|].
  destruct (Req_EM_T (norm to_parent) 0); [contradiction|]. change (vdiv to_parent (norm to_parent)) with (dirof to_parent).
  pose proof (dirof_unit _ NP) as UP. assert (LP : length (dirof to_parent) = n) by (rewrite dirof_length; auto).
  destruct (H _ LP UP) as (bp & Ep). rewrite Ep. cbn [bind].
  assert (Q : 0 <= dot (dirof to_parent) d).
  { unfold dirof, vdiv. rewrite dot_vscale_l. apply Rmult_le_pos; auto. left. apply Rinv_0_lt_compat. apply norm_pos. auto. }
  assert (C : isclose (dot (dirof to_parent) d) (-1) = false).
  { unfold isclose. apply Rleb_false. rewrite (Rabs_right (_ - -1)), (Rabs_left1 (-1)) by lra. lra. }
  rewrite C. destruct (half_unit d (dirof to_parent) Ld Ud LP UP) as (m & Em & Lm & Um). rewrite Em. cbn [bind]. destruct bp.
  - apply loop_ok; auto.
  - destruct (H m Lm Um) as (bm & E2). rewrite E2. cbn [bind]. destruct bm; [apply loop_ok; auto|eauto].
Qed.
End Mean.

(** ** Data *)
(** Samples of the dimension, in motion, at different positions. *)
Record demonstrations (n : nat) (data : samples) : Prop := {
  dm_shape : forall c p v, In (c, (p, v)) data -> length p = n /\ length v = n /\ norm v <> 0;
  dm_distinct : NoDup (map (fun s => fst (snd s)) data) }.
Lemma local_in g data c k p v : In (k, (p, v)) data -> k = c \/ In k (predecessors g c) \/ In k (successors g c) ->
  In (p, v) (local_samples g data c).
Proof.
  intros I H. apply in_map_iff. exists (k, (p, v)). split; auto. apply filter_In. split; auto. apply existsb_exists. cbn [fst].
  exists k. split; [|apply Nat.eqb_refl]. destruct H as [->|H]; [left; auto|]. right. apply in_app_iff. tauto.
Qed.
Lemma local_of g data c p v : In (p, v) (local_samples g data c) -> exists k, In (k, (p, v)) data /\
  (k = c \/ In k (predecessors g c) \/ In k (successors g c)).
Proof.
  intros I. apply in_map_iff in I as ((k & s) & E & I). cbn [snd] in E. subst s. apply filter_In in I. destruct I as [I H].
  exists k. split; auto. apply existsb_exists in H as (j & J & E). cbn [fst] in E. apply Nat.eqb_eq in E. subst j.
  destruct J as [J|J]; auto. apply in_app_iff in J. tauto.
Qed.
Lemma local_distinct n g data c : demonstrations n data -> NoDup (map fst (local_samples g data c)).
Proof.
  intros D. pose proof (dm_distinct _ _ D) as ND. unfold local_samples. rewrite map_map. clear D. set (h := fun s : nat * (vec * vec) => existsb _ _).
  induction data as [|s data IH]; cbn [filter map]; [constructor|]. cbn [map] in ND. inversion ND as [|? ? NI ND']; subst.
  destruct (h s); [|auto]. cbn [map]. constructor; auto. intros I. apply NI. apply in_map_iff in I as (t & E & I). apply filter_In in I.
  apply in_map_iff. exists t. tauto.
Qed.
Lemma local_shape n g data c : demonstrations n data ->
  Forall (fun v => length v = n /\ norm v <> 0) (map snd (local_samples g data c)) /\
  Forall (fun x => length x = n) (map fst (local_samples g data c)).
Proof.
  intros D. split; apply Forall_forall; intros w I; apply in_map_iff in I as ([p v] & E & I); cbn [fst snd] in E; subst w;
    apply local_of in I as (k & I & _); destruct (dm_shape _ _ D _ _ _ I) as (? & ? & ?); auto.
Qed.
Lemma split_in (l : list (vec * vec)) p v : In (p, v) l -> In (p, v) (combine (map fst l) (map snd l)).
Proof. induction l as [|[a b] l IH]; intros I; [destruct I|]. destruct I as [I|I]; [left; auto|right; auto]. Qed.

(** ** Lists *)
Lemma mapM_forall {A B} (f : A -> res B) (P : B -> Prop) l : (forall x, In x l -> exists y, f x = Ok y /\ P y) ->
  exists ys, mapM f l = Ok ys /\ Forall P ys /\ length ys = length l.
Proof.
  induction l as [|x l IH]; intros H.
  - exists []. split; auto.
  - destruct (H x (or_introl eq_refl)) as (y & E & Py). destruct IH as (ys & Es & F & L); [intros z Hz; apply H; right; auto|].
    exists (y :: ys). cbn [mapM]. rewrite E. cbn [bind]. rewrite Es. cbn [bind length]. split; auto.
Qed.
Lemma rsum_perm a b : Permutation a b -> rsum a = rsum b.
Proof. intros H. induction H; unfold rsum in *; cbn [fold_right] in *; lra. Qed.
Lemma pred_succ g c q : In q (predecessors g c) -> In c (successors g q).
Proof.
  unfold predecessors, successors. intros I. apply in_map_iff in I as ([a b] & E & I). cbn [fst] in E. subst a. apply filter_In in I.
  destruct I as [I H]. cbn [snd] in H. apply Nat.eqb_eq in H. subst b. apply in_map_iff. exists (q, c). split; auto. apply filter_In.
  split; auto. apply Nat.eqb_refl.
Qed.
Lemma two_positive w c q share : length w <> 0%nat -> (c < length w)%nat -> (q < length w)%nat -> q <> c -> 0 < share < 1 ->
  nth c w 0 = 1 - share -> nth q w 0 = share -> (forall j, j <> c -> j <> q -> nth j w 0 = 0) ->
  Permutation (positive_indices w) [c; q].
Proof.
  intros _ Hc Hq D Hs Wc Wq Z. apply NoDup_Permutation.
  - apply NoDup_filter, seq_NoDup.
  - constructor; [intros [E|[]]; auto|]. constructor; auto. constructor.
  - intros i. unfold positive_indices. rewrite filter_In, in_seq. rewrite Rltb_true. split.
    + intros [_ P]. cbn. destruct (Nat.eq_dec i c); auto. destruct (Nat.eq_dec i q); auto. rewrite Z in P by auto. lra.
    + intros [<-|[<-|[]]]; split; try lia; lra.
Qed.

(** ** The fitted learner *)
(** The direction of the demonstration is within the limits of the local dynamics. *)
Definition within (d : local_dynamics) (p v : vec) : Prop :=
  match d with
  | LFlow r _ => acos (dot r (direction v)) <= constant_flow_bound
  | LLinear a _ => exists ax ay x y, a = [ax; ay] /\ p = [x; y] /\ p <> a /\
      forall axis, (axis < 2)%nat ->
        cos perpendicular_max_angle * Rabs (nth axis [x - ax; y - ay] 0) <= - (nth axis [x - ax; y - ay] 0 * nth axis (direction v) 0)
  end.
(** The columns of the bases complete a direction to an orthonormal base. *)
Definition completes (n : nat) (basis : vec -> list vec) : Prop :=
  forall d, length d = n -> unitv d -> ortho n d (basis d) /\ length (basis d) = (n - 1)%nat.
Lemma node_unit l factor attractor order positions n : PropKLearn.fitted l factor attractor order positions n -> length attractor = n ->
  forall c k d, (c < length (kl_centers l))%nat -> node_data (kl_graph l) c = Some (k, d) -> length d = n /\ unitv d.
Proof.
  intros FT La c k d Hc Nd. destruct (fitted_parts _ _ _ _ _ _ FT) as (E & _). destruct FT as (_ & C). set (centers := kl_centers l) in *.
  pose proof (cl_order _ _ _ _ _ C) as Pm.
  assert (ND : NoDup order) by (apply (Permutation_NoDup (Permutation_sym Pm)), seq_NoDup).
  assert (Lt : forall u, In u order -> (u < length centers)%nat).
  { intros u Hu. apply (Permutation_in _ Pm) in Hu. apply in_seq in Hu. lia. }
  assert (Ii : In c order) by (apply (Permutation_in _ (Permutation_sym Pm)), in_seq; lia).
  destruct order as [|first rest] eqn:EO; [destruct Ii|]. rewrite <- EO in *.
  rewrite refit_fresh in E by auto.
  assert (N1 : norm (vsub (cluster centers first) attractor) <> 0) by apply (cl_att _ _ _ _ _ C first rest EO).
  assert (A1 : apart centers first rest).
  { apply (clusters_apart _ _ _ _ _ C); rewrite <- EO; auto. }
  destruct (C50_chain centers attractor order first rest (fun _ => 0) EO Pm ltac:(intros; lra) N1 A1)
    as (g' & Eg & _ & _ & _ & DT & _). assert (g' = kl_graph l) by congruence. subst g'.
  apply In_nth_error in Ii as (i & Hi). destruct (DT i c Hi) as [Q U]. cbv zeta in Q, U. rewrite Q in Nd. injection Nd as <- <-.
  split; auto. assert (Lo : length (match i with O => attractor | S k => cluster centers (nth k order first) end) = n).
  { destruct i as [|j]; auto. apply (cl_len _ _ _ _ _ C). apply Lt. apply nth_In. apply nth_error_Some_lt in Hi || idtac.
    assert (S j < length order)%nat by (apply nth_error_Some; congruence). lia. }
  unfold vdiv. rewrite length_vscale, length_vsub, Lo, (cl_len _ _ _ _ _ C) by auto. lia.
Qed.
(** The root of the graph is the only cluster without a parent. *)
Lemma node_parent l factor attractor order positions n : PropKLearn.fitted l factor attractor order positions n ->
  forall c, (c < length (kl_centers l))%nat -> exists k d, node_data (kl_graph l) c = Some (k, d) /\
    (k <> O -> exists t, successors (kl_graph l) c = [t] /\ (t < length (kl_centers l))%nat /\ t <> c).
Proof.
  intros FT c Hc. destruct (fitted_parts _ _ _ _ _ _ FT) as (E & _). destruct FT as (_ & C). pose proof (chain_graph _ _ _ _ _ _ C E c Hc) as CG.
  set (centers := kl_centers l) in *. pose proof (cl_order _ _ _ _ _ C) as Pm.
  assert (ND : NoDup order) by (apply (Permutation_NoDup (Permutation_sym Pm)), seq_NoDup).
  assert (Lt : forall u, In u order -> (u < length centers)%nat).
  { intros u Hu. apply (Permutation_in _ Pm) in Hu. apply in_seq in Hu. lia. }
  assert (Ii : In c order) by (apply (Permutation_in _ (Permutation_sym Pm)), in_seq; lia).
  destruct order as [|first rest] eqn:EO; [destruct Ii|]. rewrite <- EO in *.
  rewrite refit_fresh in E by auto.
  assert (N1 : norm (vsub (cluster centers first) attractor) <> 0) by apply (cl_att _ _ _ _ _ C first rest EO).
  assert (A1 : apart centers first rest).
  { apply (clusters_apart _ _ _ _ _ C); rewrite <- EO; auto. }
  destruct (C50_chain centers attractor order first rest (fun _ => 0) EO Pm ltac:(intros; lra) N1 A1)
    as (g' & Eg & _ & _ & CH & DT & _). assert (g' = kl_graph l) by congruence. subst g'.
  apply In_nth_error in Ii as (i & Hi). destruct (DT i c Hi) as [Q U]. cbv zeta in Q. eexists. eexists. split; [exact Q|].
  intros NZ. destruct i as [|j]; [contradiction|]. destruct (nth_error order j) as [a|] eqn:Ha.
  - destruct (CH j a c Ha Hi) as (S1 & _). destruct CG as [[S0|(t & S2 & T)] _]; [congruence|]. eauto.
  - apply nth_error_None in Ha. assert (S j < length order)%nat by (apply nth_error_Some; congruence). lia.
Qed.
Section Learned.
Variables (n : nat) (orth1 : vec -> vec) (basis : vec -> list vec) (learn : list vec -> list vec -> vec -> vec).
Hypothesis Hn : (2 <= n)%nat.
Hypothesis Horth : picks n orth1.
Hypothesis Hbasis : completes n basis.
Hypothesis Hint : interpolates learn.
Hypothesis Hshape : shaped_output learn.
Variables (l : klearner) (factor : R) (attractor : vec) (order : list nat) (data : samples).
Let positions := map (fun s => fst (snd s)) data.
Hypothesis FT : PropKLearn.fitted l factor attractor order positions n.
Hypothesis La : length attractor = n.
Hypothesis DM : demonstrations n data.
Lemma mean_velocity_length c m : mean_velocity n data c = Ok m -> length m = n.
Proof.
  intros E. unfold mean_velocity in E.
  assert (Q : forall k, Forall (fun s : nat * (vec * vec) => length (snd (snd s)) = n) k ->
    length (fold_right (fun s acc => vadd (snd (snd s)) acc) (vzero n) k) = n).
  { intros k F. induction F as [|s k Ls F IH]; cbn [fold_right]; [apply repeat_length|]. rewrite length_vadd, IH, Ls. lia. }
  assert (FF : Forall (fun s : nat * (vec * vec) => length (snd (snd s)) = n) (filter (fun s => Nat.eqb (fst s) c) data)).
  { apply Forall_forall. intros [k [p v]] I. apply filter_In in I. destruct I as [I _]. apply (dm_shape _ _ DM _ _ _ I). }
  apply Q in FF. destruct (filter _ _) as [|s k]; [discriminate|]. injection E as <-. unfold vdiv. rewrite length_vscale. exact FF.
Qed.
Lemma enforces_unit c m u it : (c < length (kl_centers l))%nat -> length m = n ->
  enforces_direction orth1 l c m it = Ok u -> length u = n /\ unitv u.
Proof.
  intros Hc Lm E. destruct (fitted_parts _ _ _ _ _ _ FT) as (Eg & _). pose proof (proj2 FT) as C.
  unfold enforces_direction in E.
  assert (X : forall d, (if Req_EM_T (norm m) 0 then match node_data (kl_graph l) c with Some (_, d) => Ok d | None => Err EKey end
           else Ok (vdiv m (norm m))) = Ok d -> length d = n /\ unitv d).
  { intros d Ed. destruct (Req_EM_T (norm m) 0) as [|Nm].
    - destruct (node_data (kl_graph l) c) as [[k d']|] eqn:Nd; [|discriminate]. injection Ed as <-. apply (node_unit _ _ _ _ _ _ FT La c k); auto.
    - injection Ed as <-. change (vdiv m (norm m)) with (dirof m). rewrite dirof_length. split; auto. apply dirof_unit. auto. }
  destruct (if Req_EM_T (norm m) 0 then _ else _) as [d|] eqn:Ed; [|discriminate]. cbn [bind] in E. destruct (X d eq_refl) as [Ld Ud].
  destruct (chain_graph _ _ _ _ _ _ C Eg c Hc) as ([S0|(t & S1 & Ht & _)] & _); [rewrite S0 in E; discriminate|]. rewrite S1 in E.
  eapply (enforce_unit n orth1 Hn Horth); [|exact Ld|exact Ud|exact E]. rewrite length_vsub, !(cl_len _ _ _ _ _ C) by auto. lia.
Qed.
(** The mean velocity of a cluster lies between the velocities of its samples, in each direction. *)
Theorem C158_mean : forall c m u b, mean_velocity n data c = Ok m ->
  (forall p v, In (c, (p, v)) data -> b <= dot u v) -> b <= dot u m.
Proof.
  intros c m u b E H. unfold mean_velocity in E.
  assert (FF : Forall (fun s : nat * (vec * vec) => b <= dot u (snd (snd s))) (filter (fun s => Nat.eqb (fst s) c) data)).
  { apply Forall_forall. intros [k [p v]] I. apply filter_In in I. destruct I as [I K]. apply Nat.eqb_eq in K. cbn [fst] in K. subst k. apply (H p v I). }
  destruct (filter _ _) as [|s0 k0]; [discriminate|]. set (kk := s0 :: k0) in *.
  assert (KL : (0 < length kk)%nat) by (cbn; lia). clearbody kk. injection E as <-.
  assert (Q : forall k, Forall (fun s : nat * (vec * vec) => b <= dot u (snd (snd s))) k ->
    b * INR (length k) <= dot u (fold_right (fun s acc => vadd (snd (snd s)) acc) (vzero n) k)).
  { intros k F. induction F as [|s k Hs F IH]; cbn [fold_right].
    - rewrite dot_vzero_r. cbn. lra.
    - rewrite dot_vadd_r. cbn [length]. rewrite S_INR. lra. }
  apply Q in FF. unfold vdiv. rewrite dot_vscale_r. set (K := INR (length kk)) in *.
  assert (0 < K) by (unfold K; apply lt_0_INR; auto). apply Rmult_le_reg_r with K; auto.
  set (D := dot u (fold_right _ _ _)) in *. replace (/ K * D * K) with D by (field; lra). exact FF.
Qed.
(** In the plane the local dynamics are fitted when each cluster has samples and their mean velocity
    does not point away from the parent. *)
Theorem C158_accepted : n = 2%nat ->
  (forall c, (c < length (kl_centers l))%nat -> exists p v, In (c, (p, v)) data) ->
  (forall c t m, (c < length (kl_centers l))%nat -> successors (kl_graph l) c = [t] -> mean_velocity n data c = Ok m ->
     norm m <> 0 /\ 0 <= dot (vsub (cluster (kl_centers l) t) (cluster (kl_centers l) c)) m) ->
  exists ds, fit_local_dynamics orth1 basis learn l n attractor data = Ok ds /\ length ds = length (kl_centers l).
Proof.
  intros N2 HS HM. destruct (mapM_forall (fit_local orth1 basis learn l n attractor data) (fun _ => True) (seq 0 (length (kl_centers l))))
    as (ds & E & _ & Lds).
  2:{ exists ds. split; auto. rewrite Lds. apply seq_length. }
  intros c Hc. apply in_seq in Hc. assert (Hc' : (c < length (kl_centers l))%nat) by lia. clear Hc. rename Hc' into Hc.
  enough (exists d, fit_local orth1 basis learn l n attractor data c = Ok d) as (d & Ed) by (exists d; auto).
  destruct (local_shape n (kl_graph l) data c DM) as [FV FX].
  unfold fit_local. set (xs := map fst (local_samples (kl_graph l) data c)) in *. set (vs := map snd (local_samples (kl_graph l) data c)) in *.
  assert (LL : length xs = length vs) by (unfold xs, vs; rewrite !map_length; auto).
  destruct (node_parent _ _ _ _ _ _ FT c Hc) as (k & dir & Nd & HP). rewrite Nd. destruct k as [|k].
  - assert (Ho : picks 2 orth1) by (rewrite <- N2; auto). rewrite N2 in FV.
    destruct (mapM_forall (fun s : nat * bool => fit_side learn orth1 attractor xs vs (fst s) (snd s)) (fun _ => True)
      [(0%nat, false); (0%nat, true); (1%nat, false); (1%nat, true)]) as (fs & Ef & _).
    { intros [a b] _. cbn [fst snd]. destruct (fit_side_ok learn orth1 Ho attractor xs vs a b LL FV) as (f & Ef & _). eauto. }
    rewrite Ef. cbn [bind]. eauto.
  - destruct HP as (t & S1 & Ht & Dt); [discriminate|]. destruct (HS c Hc) as (p0 & v0 & I0).
    assert (EM : exists m, mean_velocity n data c = Ok m).
    { unfold mean_velocity. destruct (filter _ data) as [|s0 k0] eqn:EF; [|eauto].
      assert (Q : In (c, (p0, v0)) []); [|destruct Q]. rewrite <- EF. apply filter_In. split; auto. apply Nat.eqb_refl. }
    destruct EM as (m & EM). rewrite EM. cbn [bind]. destruct (HM c t m Hc S1 EM) as [Nm Hm]. pose proof (mean_velocity_length c m EM) as Lm.
    pose proof (proj2 FT) as C.
    assert (EU : exists u, enforces_direction orth1 l c m 10 = Ok u).
    { unfold enforces_direction. destruct (Req_EM_T (norm m) 0); [contradiction|]. cbn [bind]. rewrite S1.
      change (vdiv m (norm m)) with (dirof m). apply (enforce_ok n orth1 Hn Horth).
      - intros d Ld Ud. assert (W : kwf (region_obstacle l c) n) by (destruct l; apply (clusters_kwf _ _ _ _ _ _ _ _ C Hc)).
        destruct (pointing_value (region_obstacle l c) n t d W) as (s & _ & Ep); auto. rewrite Ep. eauto.
      - rewrite length_vsub, !(cl_len _ _ _ _ _ C) by auto. lia.
      - pose proof (cl_sep _ _ _ _ _ C t c Ht Hc Dt) as SP. pose proof (cl_rad _ _ _ _ _ C) as RP.
        fold (PropDynamics.dist (cluster (kl_centers l) t) (cluster (kl_centers l) c)). assert (0 < 2 * kl_radius l / 10 ^ 9); [|lra].
        apply Rdiv_lt_0_compat; lra.
      - rewrite dirof_length. auto.
      - apply dirof_unit. auto.
      - unfold dirof, vdiv. rewrite dot_vscale_r. apply Rmult_le_pos; auto. left. apply Rinv_0_lt_compat. apply norm_pos. auto. }
    destruct EU as (u & Eu). rewrite Eu. cbn [bind].
    destruct (enforces_unit c m u 10 Hc Lm Eu) as [Lu Uu]. pose proof (unit_norm_neq _ Uu) as Nu.
    destruct (Req_EM_T (norm u) 0) as [|_]; [contradiction|]. change (vdiv u (norm u)) with (dirof u). rewrite (dirof_of_unit _ Uu).
    destruct (Hbasis u Lu Uu) as [O Lb].
    destruct (C156_accepted learn n (basis u) u xs vs Hn Lu Nu) as ((A & _) & _); auto.
    { change (direction u) with (dirof u). rewrite (dirof_of_unit _ Uu). auto. }
    destruct (A LL) as (f & Ef). rewrite Ef. cbn [bind]. eauto.
Qed.
(** In particular when each demonstration of a cluster moves towards the parent of the cluster. *)
Theorem C158_forward : n = 2%nat ->
  (forall c, (c < length (kl_centers l))%nat -> exists p v, In (c, (p, v)) data) ->
  (forall c t p v, successors (kl_graph l) c = [t] -> In (c, (p, v)) data ->
     0 < dot (vsub (cluster (kl_centers l) t) (cluster (kl_centers l) c)) v) ->
  exists ds, fit_local_dynamics orth1 basis learn l n attractor data = Ok ds /\ length ds = length (kl_centers l).
Proof.
  intros N2 HS HF. apply C158_accepted; auto. intros c t m Hc S1 Em.
  set (u := vsub (cluster (kl_centers l) t) (cluster (kl_centers l) c)).
  assert (B : exists b, 0 < b /\ forall p v, In (c, (p, v)) data -> b <= dot u v).
  { assert (G : forall k : samples, (forall p v, In (c, (p, v)) k -> 0 < dot u v) -> exists b, 0 < b /\ forall p v, In (c, (p, v)) k -> b <= dot u v).
    { intros k. induction k as [|[c' [p' v']] k IH]; intros P; [exists 1; split; [lra|]; intros ? ? []|].
      destruct IH as (b & B0 & B1); [intros p v I; apply (P p v); right; auto|].
      destruct (Nat.eq_dec c' c) as [->|D].
      - exists (Rmin b (dot u v')). split; [apply Rmin_pos; auto; apply (P p' v'); left; auto|].
        intros p v [X|I]; [injection X as <- <-; apply Rmin_r|]. apply Rle_trans with b; [apply Rmin_l|eauto].
      - exists b. split; auto. intros p v [X|I]; [congruence|eauto]. }
    apply G. intros p v I. apply (HF c t p v S1 I). }
  destruct B as (b & B0 & B1). pose proof (C158_mean c m u b Em B1) as L.
  split; [|lra]. intros Z. pose proof (cauchy_schwarz u m) as CS. rewrite Z, Rmult_0_r in CS. pose proof (Rle_abs (dot u m)). lra.
Qed.
(** Each local dynamics follows the demonstrations of its cluster and of the neighbours. *)
Theorem C158_local : forall c d k p v, (c < length (kl_centers l))%nat -> fit_local orth1 basis learn l n attractor data c = Ok d ->
  In (k, (p, v)) data -> k = c \/ In k (predecessors (kl_graph l) c) \/ In k (successors (kl_graph l) c) -> within d p v ->
  exists s g, 0 < s <= 1 /\ local_evaluate orth1 basis d p = Ok (vscale s (direction v)) /\
    local_gradient d p = Ok g /\ length g = n /\ unitv g.
Proof.
  intros c d k p v Hc E I K W. pose proof (local_in (kl_graph l) data c k p v I K) as IL. destruct (dm_shape _ _ DM _ _ _ I) as (Lp & Lv & Nv).
  destruct (local_shape n (kl_graph l) data c DM) as [FV FX]. pose proof (local_distinct n (kl_graph l) data c DM) as ND.
  apply split_in in IL. unfold fit_local in E. set (xs := map fst (local_samples (kl_graph l) data c)) in *.
  set (vs := map snd (local_samples (kl_graph l) data c)) in *.
  assert (LL : length xs = length vs) by (unfold xs, vs; rewrite !map_length; auto).
  destruct (node_data (kl_graph l) c) as [[[|lev] dir]|]; [| |discriminate].
  - destruct (mapM _ _); [|discriminate]. cbn [bind] in E. injection E as <-. destruct W as (ax & ay & x & y & -> & -> & NE & H).
    cbn [length] in Lp. assert (Ho : picks 2 orth1) by (rewrite Lp; auto). rewrite <- Lp in *.
    cbn [local_evaluate local_gradient]. rewrite (C157_reproduced learn orth1 Ho xs vs 1 1 ax ay x y v); auto.
    assert (NZ : norm [x - ax; y - ay] <> 0).
    { intros Z. apply norm_zero_iff in Z. cbn in Z. injection Z as Z1 Z2. apply NE. f_equal; [lra|f_equal; lra]. }
    assert (NS : norm (vsub [ax; ay] [x; y]) <> 0).
    { rewrite vsub2. intros Z. apply norm_zero_iff in Z. cbn in Z. injection Z as Z1 Z2. apply NE. f_equal; [lra|f_equal; lra]. }
    exists (velocity_factor 1 1 (norm [x - ax; y - ay])). eexists. split; [|split; [reflexivity|split; [reflexivity|]]].
    + unfold velocity_factor. pose proof (norm_pos _ NZ). unfold Rmin. destruct (Rle_dec _ _); lra.
    + destruct (Req_EM_T _ 0); [contradiction|]. split; [|apply (dirof_unit _ NS)].
      unfold vdiv. rewrite vsub2, length_vscale. auto.
  - destruct (mean_velocity n data c) as [m|] eqn:Em; [|discriminate]. cbn [bind] in E.
    destruct (enforces_direction orth1 l c m 10) as [u|] eqn:Eu; [|discriminate]. cbn [bind] in E.
    destruct (enforces_unit c m u 10 Hc (mean_velocity_length c m Em) Eu) as [Lu Uu].
    destruct (Req_EM_T (norm u) 0) as [|Nu]; [discriminate|]. change (vdiv u (norm u)) with (dirof u) in E. rewrite (dirof_of_unit _ Uu) in E.
    destruct (fit_constant_flow _ _ _ _ _ _) as [f|] eqn:Ef; [|discriminate]. cbn [bind] in E. injection E as <-.
    destruct (Hbasis u Lu Uu) as [O Lb]. cbn [within] in W. cbn [local_evaluate local_gradient].
    change (vdiv u (norm u)) with (dirof u). rewrite (dirof_of_unit _ Uu).
    assert (DU : direction u = u) by (apply (dirof_of_unit _ Uu)).
    rewrite (C156_reproduced learn n (basis u) u xs vs f p v); auto; try (rewrite DU; auto).
    exists (norm u), u. split; [rewrite (proj1 (unit_norm u) Uu); lra|]. auto.
Qed.
(** At a demonstration the prediction passes its direction to the avoidance of the region, whatever the
    share of the neighbour. *)
Theorem C158_predicted : forall label avoid ds c p v, 1 / 2 <= factor ->
  fit_local_dynamics orth1 basis learn l n attractor data = Ok ds ->
  In (c, (p, v)) data -> label p = c -> closest (kl_centers l) p c ->
  (forall j d, j = c \/ In j (predecessors (kl_graph l) c) -> nth_error ds j = Some d -> within d p v) ->
  exists s g share, 0 < s <= 1 /\ 0 <= share <= 1 /\ length g = n /\ unitv g /\
    learned_predict orth1 basis label avoid ds l p = avoid p (vscale s (direction v)) c g (PI * (1 - share)).
Proof.
  intros label avoid ds c p v HF ED I Ec CL W. destruct (dm_shape _ _ DM _ _ _ I) as (Lp & Lv & Nv).
  assert (Ip : In p positions) by (apply in_map_iff; exists (c, (p, v)); auto).
  set (ev := fun i q => dynamics_at ds i (fun d => local_evaluate orth1 basis d q)).
  set (gr := fun i q => dynamics_at ds i (fun d => local_gradient d q)).
  rewrite <- Ec in CL.
  destruct (C105_samples_inside orth1 label ev ev gr avoid l factor attractor order positions n HF FT p Ip Lp CL) as [Dp _].
  destruct (C108_inside orth1 label ev ev gr avoid l factor attractor order positions n FT p Lp CL Dp)
    as (w & share & _ & Lw & Hs & Wc & SUP & EP). unfold learned_predict. fold ev gr. rewrite EP, Ec in *. clear EP.
  assert (Hc : (c < length (kl_centers l))%nat) by apply CL.
  assert (LOC : forall j, (j < length (kl_centers l))%nat -> j = c \/ In j (predecessors (kl_graph l) c) ->
     exists s g, 0 < s <= 1 /\ ev j p = Ok (vscale s (direction v)) /\ gr j p = Ok g /\ length g = n /\ unitv g).
  { intros j Hj J. unfold fit_local_dynamics in ED.
    assert (Lds : length ds = length (kl_centers l)).
    { clear - ED. rewrite <- (seq_length (length (kl_centers l)) 0). revert ds ED. generalize (seq 0 (length (kl_centers l))).
      induction l0 as [|x k IH]; intros ds E; cbn [mapM] in E; [injection E as <-; auto|].
      destruct (fit_local _ _ _ _ _ _ _ x); [|discriminate]. cbn [bind] in E. destruct (mapM _ k) as [ys|]; [|discriminate]. cbn [bind] in E.
      injection E as <-. cbn [length]. f_equal. apply IH. auto. }
    destruct (nth_error ds j) as [d|] eqn:Nj; [|apply nth_error_None in Nj; lia].
    assert (Fj : fit_local orth1 basis learn l n attractor data j = Ok d).
    { pose proof (PropGmmGamma.mapM_nth _ _ _ 0%nat d j ED) as Q. rewrite seq_length, seq_nth in Q by auto. cbn [Nat.add] in Q.
      rewrite Q by auto. f_equal. apply nth_error_nth. auto. }
    destruct (C158_local j d c p v Hj Fj I) as (s & g & Ps & E1 & E2 & Lg & Ug).
    - destruct J as [->|J]; auto. right. right. apply pred_succ. auto.
    - apply (W j); auto.
    - exists s, g. unfold ev, gr, dynamics_at. rewrite Nj. auto. }
  destruct (LOC c Hc (or_introl eq_refl)) as (s0 & g0 & Ps & Ee & Eg & Lg & Ug).
  destruct (Rlt_dec 0 (share * (1 - share))) as [P|P].
  2:{ rewrite Ee, Eg. cbn [bind fst snd]. exists s0, g0, share. auto. }
  assert (S01 : 0 < share < 1) by nra.
  destruct SUP as [(_ & Z)|(q & PR & Dq & Wq & Z)]; [lra|].
  assert (Iq : In q (predecessors (kl_graph l) c)) by (rewrite PR; left; auto).
  assert (Hq : (q < length (kl_centers l))%nat).
  { destruct (Nat.lt_ge_cases q (length (kl_centers l))); auto. rewrite nth_overflow in Wq by lia. lra. }
  pose proof (two_positive w c q share ltac:(lia) ltac:(lia) ltac:(lia) Dq S01 Wc Wq Z) as PM.
  set (ind := positive_indices w) in *.
  assert (LI : forall i, In i ind -> exists s g, 0 < s <= 1 /\ ev i p = Ok (vscale s (direction v)) /\ gr i p = Ok g /\ length g = n /\ unitv g).
  { intros i Hi. apply (Permutation_in _ PM) in Hi. destruct Hi as [<-|[<-|[]]]; apply LOC; auto. }
  assert (Ud : unitv (direction v)) by apply (dirof_unit _ Nv).
  assert (Ld : length (direction v) = n) by (rewrite <- Lv; apply dirof_length).
  destruct (mapM_forall (fun i => gr i p) (fun g => length g = n /\ unitv g) ind) as (lys & El & Fl & Ll).
  { intros i Hi. destruct (LI i Hi) as (s & g & _ & _ & E & L & U). eauto. }
  destruct (mapM_forall (fun i => ev i p) (fun u => length u = n /\ norm u <> 0 /\ dirof u = direction v) ind) as (vels & Ev & Fv & Lvs).
  { intros i Hi. destruct (LI i Hi) as (s & g & P0 & E & _). eexists. split; [exact E|]. rewrite length_vscale. split; auto.
    assert (NN : norm (vscale s (direction v)) = s) by (rewrite norm_vscale, (proj1 (unit_norm _) Ud), Rabs_right by lra; ring).
    split; [lra|]. unfold dirof. rewrite NN. unfold vdiv. vext. field. lra. }
  unfold averaged_velocities. rewrite El. cbn [bind].
  assert (L2 : length ind = 2%nat) by (rewrite (Permutation_length PM); auto).
  assert (H0 : length (nth 0 lys []) = n /\ unitv (nth 0 lys [])).
  { rewrite Forall_forall in Fl. apply Fl. apply nth_In. lia. }
  destruct (mean_unit n orth1 Hn Horth (nth 0 lys []) (map (fun i => nth i w 0) ind) lys) as (m & Em & Lm & Um); try apply H0.
  { eapply Forall_impl; [|exact Fl]. cbv beta. intros a [A1 A2]. split; auto. apply unit_norm_neq. auto. }
  rewrite Em. cbn [bind]. rewrite Ev. cbn [bind].
  rewrite (mean_same n orth1 Hn Horth m (map (fun i => nth i w 0) ind) vels (direction v)); auto.
  - cbn [bind fst snd]. exists 1, m, share. split; [split; lra|]. split; auto. split; auto. split; auto. f_equal. vext. ring.
  - rewrite map_length, Lvs. auto.
  - rewrite (rsum_perm _ _ (Permutation_map (fun i => nth i w 0) PM)). unfold rsum. cbn [map fold_right]. rewrite Wc, Wq. ring.
Qed.
End Learned.

(** * Example *)
(** Two clusters with a demonstration each: the one at the right cluster climbs. *)
Definition ex_data : samples := [(0%nat, ([0; 0], [2; 0])); (1%nat, ([1; 0], [3; 4]))].
Definition left_of (d : vec) : vec := [- nth 1 d 0; nth 0 d 0].
Lemma ex_completes : completes 2 (fun d => [left_of d]).
Proof.
  intros d L U. destruct (picks_2d d L U) as (Lo & Uo & Oo). split; auto. cbn. repeat split; auto.
Qed.
Lemma ex_demonstrations : demonstrations 2 ex_data.
Proof.
  split.
  - intros c p v [E|[E|[]]]; injection E as <- <- <-; split; auto; split; auto; intros Z; apply norm_zero_iff in Z; injection Z; lra.
  - cbn. constructor; [|constructor; auto; constructor]. intros [E|[]]. injection E. lra.
Qed.
Lemma ex_points : is_pointing (region_obstacle ex_l 0) 1 [1; 0] = Ok true.
Proof.
  set (o := region_obstacle ex_l 0). pose proof (ex_kwf 0 ltac:(lia)) as W. fold o in W.
  assert (U2 : unitv [0; 1]) by (unfold unitv; cbn [dot]; lra).
  assert (D1 : PropDynamics.dist (k_center o) (cluster (k_centers o) 1) < 2 * k_radius o).
  { change (k_center o) with [0; 0]. change (cluster (k_centers o) 1) with [1; 0]. change (k_radius o) with (7 / 10). rewrite dist_axis. absolve. lra. }
  pose proof ex_unit_d as ED. fold o in ED.
  pose proof (C107_two_clusters left_of o 2 1 [0; 1] (PI / 2) 0 W eq_refl ltac:(lia) ltac:(cbn; lia) D1) as T. cbv zeta in T. rewrite ED in T.
  rewrite cos_PI2, sin_PI2 in T. replace (vadd (vscale 0 [1; 0]) (vscale 1 [0; 1])) with [0; 1] in T by (cbn [vscale map vadd]; f_equal; [ring|f_equal; ring]).
  pose proof PI_RGT_0. apply T; auto; try lra.
  - cbn [dot]. lra.
  - unfold isclose. apply Rleb_false. rewrite (Rabs_pos_eq (0 - -1)), (Rabs_left1 (-1)) by lra. lra.
  - apply (pointing_false o 2); auto; try (cbn; lia).
    + unfold o. rewrite ex_slope. cbn [dot]. lra.
    + unfold o. rewrite ex_slope, ex_gap_half. change (k_radius (region_obstacle ex_l 0)) with (7 / 10).
      apply isclose_far; [lra|]. apply Rle_trans with (sqrt (8 / 10 * (8 / 10))); [rewrite sqrt_square; lra|]. apply sqrt_le_1_alt. cbn [dot]. lra.
Qed.
(** Two samples in one cluster: their mean, not their sum. *)
Example C158_mean_case : forall m, mean_velocity 2 [(0%nat, ([0; 0], [2; 0])); (1%nat, ([1; 0], [7; 7])); (0%nat, ([0; 1], [0; 4]))] 0 = Ok m -> m = [1; 2].
Proof.
  intros m E. unfold mean_velocity in E. cbn in E. injection E as <-. repeat (apply f_equal2; [field|]); auto.
Qed.
Example C158_case : exists ds, fit_local_dynamics left_of (fun d => [left_of d]) table ex_l 2 [3 / 2; 0] ex_data = Ok ds /\
  forall label avoid, label [1; 0] = 1%nat -> exists s g share, 0 < s <= 1 /\ 0 <= share <= 1 /\ length g = 2%nat /\ unitv g /\
    learned_predict left_of (fun d => [left_of d]) label avoid ds ex_l [1; 0] =
      avoid [1; 0] (vscale s [3 / 5; 4 / 5]) 1%nat g (PI * (1 - share)).
Proof.
  assert (FT : PropKLearn.fitted ex_l (7 / 10) [3 / 2; 0] [1%nat; 0%nat] (map (fun s => fst (snd s)) ex_data) 2) by exact (proj1 C105_case).
  assert (N5 : norm [3; 4] = 5) by (apply norm2_is; lra). assert (N2 : norm [2; 0] = 2) by (apply norm2_is; lra).
  assert (N1 : norm [1; 0] = 1) by (apply norm2_is; lra).
  assert (D5 : direction [3; 4] = [3 / 5; 4 / 5]) by (unfold direction, vdiv; rewrite N5; cbn; repeat (apply f_equal2; [field|]); auto).
  assert (M0 : mean_velocity 2 ex_data 0 = Ok [2; 0]).
  { unfold mean_velocity. cbn. f_equal. repeat (apply f_equal2; [field|]); auto. }
  destruct (C158_accepted 2 left_of (fun d => [left_of d]) table (le_n 2) picks_2d ex_completes ex_l (7 / 10) [3 / 2; 0]
    [1%nat; 0%nat] ex_data FT eq_refl ex_demonstrations eq_refl) as (ds & E & L).
  { intros [|[|c]] H; cbn in H; [exists [0; 0], [2; 0]; left; auto|exists [1; 0], [3; 4]; right; left; auto|lia]. }
  { intros [|[|c]] t m H S1 Em; cbn in H; [|cbn in S1; discriminate|lia]. rewrite M0 in Em. injection Em as <-.
    assert (t = 1%nat) by (cbn in S1; congruence). subst t. split; [lra|]. unfold cluster. cbn. lra. }
  exists ds. split; auto. intros label avoid EL. rewrite <- D5.
  assert (CL : closest ex_centers [1; 0] 1).
  { split; [cbn; lia|]. intros [|[|k]] Hk; unfold cluster; cbn [ex_centers nth length] in *; try lia; rewrite !dist_axis; absolve; lra. }
  apply (C158_predicted 2 left_of (fun d => [left_of d]) table (le_n 2) picks_2d ex_completes table_interpolates table_shaped ex_l (7 / 10) [3 / 2; 0]
    [1%nat; 0%nat] ex_data FT eq_refl ex_demonstrations label avoid ds 1 [1; 0] [3; 4]); auto; try lra.
  - right. left. auto.
  - pose proof PI_RGT_0. assert (P4 : PI <= 4) by apply PI_4. unfold fit_local_dynamics in E. cbn [ex_l kl_centers ex_centers length seq mapM] in E.
    destruct (fit_local _ _ _ _ _ _ _ 0) as [d0|] eqn:E0; [|discriminate]. cbn [bind] in E.
    destruct (fit_local _ _ _ _ _ _ _ 1) as [d1|] eqn:E1; [|discriminate]. cbn [bind] in E. injection E as <-.
    intros j d [->|J] Nj.
    + cbn in Nj. injection Nj as <-. unfold fit_local in E1. change (node_data (kl_graph ex_l) 1) with (Some (0%nat, [-1; 0])) in E1. cbv iota in E1.
      destruct (mapM _ _); [|discriminate]. cbn [bind] in E1. injection E1 as <-. cbn [within].
      assert (C : cos perpendicular_max_angle <= 3 / 5).
      { rewrite <- sin_shift. unfold perpendicular_max_angle. replace (PI / 2 - PI * (49 / 100)) with (PI / 100) by field.
        assert (sin (PI / 100) < PI / 100) by (apply sin_lt_x; lra). lra. }
      exists (3 / 2), 0, 1, 0. split; auto. split; auto. split; [intros X; injection X; lra|].
      intros axis Ha. rewrite D5. destruct axis as [|[|?]]; [| |lia]; cbn [nth].
      * rewrite Rabs_left by lra. lra.
      * rewrite Rminus_0_r, Rabs_R0. lra.
    + assert (j = 0%nat) by (cbn in J; destruct J as [<-|[]]; auto). subst j. cbn in Nj. injection Nj as <-.
      unfold fit_local in E0. change (node_data (kl_graph ex_l) 0) with (Some (1%nat, [-1; 0])) in E0. cbv iota in E0. rewrite M0 in E0. cbn [bind] in E0.
      assert (EU : enforces_direction left_of ex_l 0 [2; 0] 10 = Ok [1; 0]).
      { unfold enforces_direction. rewrite N2. destruct (Req_EM_T 2 0); [lra|]. cbn [bind]. change (successors (kl_graph ex_l) 0) with [1%nat]. cbv iota.
        replace (vdiv [2; 0] 2) with [1; 0] by (unfold vdiv; cbn [vscale map]; f_equal; [field|f_equal; field]).
        unfold enforce_direction. rewrite ex_points. auto. }
      rewrite EU in E0. cbn [bind] in E0. rewrite N1 in E0. destruct (Req_EM_T 1 0); [lra|].
      destruct (fit_constant_flow _ _ _ _ _ _) as [f|]; [|discriminate]. cbn [bind] in E0. injection E0 as <-. cbn [within].
      rewrite D5. replace (dot [1; 0] [3 / 5; 4 / 5]) with (3 / 5) by (cbn; field). unfold constant_flow_bound.
      apply acos_le_of_cos; try lra.
      rewrite <- sin_shift. replace (PI / 2 - 99 / 100 * PI / 2) with (PI / 200) by field.
      assert (sin (PI / 200) < PI / 200) by (apply sin_lt_x; lra). lra.
Qed.
Print Assumptions C158_accepted.
Print Assumptions C158_local.
Print Assumptions C158_predicted.
Print Assumptions C158_mean.
Print Assumptions C158_forward.
