(** Properties C156 and C157: the deviations learned from demonstrations. *)
Require Import Reals List Lra Lia Psatz Bool Arith.
From Verif Require Import Base Vec Angle Pow RotModel Spec RotProofs ProjModel PropProject PropFold DynModel RotAvoidModel RotAvoidProofs FieldModel
  PropLocalRot PropDeviation PropRegress FitModel PropGmmData.
Import ListNotations.
Open Scope R_scope.

(** A learner which reproduces its samples, at distinct positions. *)
Definition interpolates (learn : list vec -> list vec -> vec -> vec) : Prop :=
  forall xs ys x y, NoDup xs -> length ys = length xs -> In (x, y) (combine xs ys) -> learn xs ys x = y.
(** Predictions have as many entries as the samples. *)
Definition shaped_output (learn : list vec -> list vec -> vec -> vec) : Prop :=
  forall xs ys k q, Forall (fun y => length y = k) ys -> ys <> [] -> length (learn xs ys q) = k.

(** ** Coordinates of a direction *)
Lemma coordinates_ok n b0 columns v : (2 <= n)%nat -> length b0 = n -> unitv b0 -> ortho n b0 columns -> length columns = (n - 1)%nat ->
  length v = n -> norm v <> 0 ->
  exists y, angle_coordinates b0 columns v = Ok y /\ length y = length columns /\
    norm y = acos (dot b0 (direction v)) /\ vector_from_angle b0 (embed n columns y) = direction v.
Proof.
  intros Hn L0 U0 O Lc Lv Nv. unfold angle_coordinates. rewrite Lv, L0, Nat.eqb_refl.
  assert (B : base_ok n (mkBase b0 (hd [] columns))).
  { destruct columns as [|c cs]; [simpl in Lc; lia|]. destruct O as (A & C & D & _). repeat split; auto. }
  destruct (angle_in_ok n _ v Hn B Lv Nv) as (a & E & A). rewrite E. cbn [bind].
  exists (map (fun c => dot c a) columns). split; auto. split; [apply map_length|].
  pose proof (ad_len _ _ _ _ A) as La. pose proof (ad_perp _ _ _ _ A) as Pa. cbn [bs0] in Pa.
  assert (F : embed n columns (map (fun c => dot c a) columns) = a) by (apply (frame_complete n b0); auto; lia).
  split.
  - rewrite <- (embed_norm n b0 columns _ O) by apply map_length. rewrite F. apply (ad_norm _ _ _ _ A).
  - rewrite F. apply (ad_back _ _ _ _ A).
Qed.
Lemma embed_coord n b columns a i : ortho n b columns -> length a = length columns -> (i < length columns)%nat ->
  dot (nth i columns []) (embed n columns a) = nth i a 0.
Proof.
  unfold embed. revert a i. induction columns as [|c cols IH]; simpl; intros [|x a] i H La Hi; try lia; simpl in La; try discriminate.
  destruct H as (Lc & Uc & Bc & F & H). injection La as La. unfold weighted_columns. simpl. fold (weighted_columns n a cols).
  destruct i as [|i].
  - autorewrite with vdot. rewrite (weighted_columns_dot n c a cols F). unfold unitv in Uc. rewrite Uc. ring.
  - autorewrite with vdot. rewrite (IH a i) by (auto; lia).
    rewrite Forall_forall in F. rewrite (dot_comm _ c), (F (nth i cols [])); [ring|]. apply nth_In. lia.
Qed.
Lemma clean_ok n b0 columns data : (2 <= n)%nat -> length b0 = n -> unitv b0 -> ortho n b0 columns -> length columns = (n - 1)%nat ->
  Forall (fun v => length v = n /\ norm v <> 0) data ->
  exists ys, clean_data b0 columns data = Ok ys /\ length ys = length data /\
    Forall (fun y => length y = length columns) ys /\
    forall A (xs : list A) x v, In (x, v) (combine xs data) ->
      exists y, In (x, y) (combine xs ys) /\ norm y = acos (dot b0 (direction v)) /\
        vector_from_angle b0 (embed n columns y) = direction v.
Proof.
  intros Hn L0 U0 O Lc F. unfold clean_data. induction F as [|v data (Lv & Nv) F IH].
  - exists []. split; auto. split; auto. split; [constructor|]. intros A [|? ?] x v []. 
  - destruct IH as (ys & E & L & FY & H). destruct (coordinates_ok n b0 columns v Hn L0 U0 O Lc Lv Nv) as (y & Ey & Ly & Ny & By).
    exists (y :: ys). cbn [mapM]. rewrite Ey. cbn [bind]. rewrite E. cbn [bind]. split; auto. split; [simpl; lia|].
    split; [constructor; auto|]. intros A [|x0 xs] x w I; [destruct I|]. cbn [combine] in I |- *. destruct I as [I|I].
    + injection I as <- <-. exists y. split; [left; auto|]. auto.
    + destruct (H A xs x w I) as (y' & I' & R'). exists y'. split; [right; auto|auto].
Qed.

(** * C156: fit of a constant flow *)
Section C156.
Variable learn : list vec -> list vec -> vec -> vec.
(** Demonstrations of the right shape are accepted; others are refused. *)
Theorem C156_accepted : forall n columns reference xs data, (2 <= n)%nat -> length reference = n -> norm reference <> 0 ->
  ortho n (direction reference) columns -> length columns = (n - 1)%nat ->
  Forall (fun v => length v = n /\ norm v <> 0) data ->
  (length xs = length data <-> exists f, fit_constant_flow learn columns reference xs n data = Ok f) /\
  (length xs <> length data -> fit_constant_flow learn columns reference xs n data = Err EValue).
Proof.
  intros n columns reference xs data Hn L N O Lc F. unfold fit_constant_flow.
  destruct (Req_EM_T (norm reference) 0); [contradiction|]. change (vdiv reference (norm reference)) with (dirof reference).
  change (direction reference) with (dirof reference) in O.
  destruct (clean_ok n (dirof reference) columns data Hn) as (ys & E & Ly & _); auto.
  { rewrite dirof_length. auto. } { apply dirof_unit; auto. }
  rewrite E. cbn [bind]. rewrite Ly, L, Nat.eqb_refl. cbn [negb].
  assert (D : length xs <> length data -> (length data =? length xs)%nat = false) by (intros; apply Nat.eqb_neq; lia).
  split.
  - split.
    + intros H. rewrite H, Nat.eqb_refl. cbn [negb]. eauto.
    + intros (f & H). destruct (Nat.eq_dec (length xs) (length data)) as [|M]; auto. rewrite (D M) in H. discriminate.
  - intros M. rewrite (D M). auto.
Qed.
(** A velocity of another dimension is refused. *)
Theorem C156_refused : forall columns reference xs width data v, norm reference <> 0 -> In v data -> length v <> length reference ->
  (forall w, In w data -> norm w <> 0) ->
  fit_constant_flow learn columns reference xs width data = Err EValue.
Proof.
  intros columns reference xs width data v N I D NZ. unfold fit_constant_flow.
  destruct (Req_EM_T (norm reference) 0); [contradiction|]. change (vdiv reference (norm reference)) with (dirof reference).
  assert (X : clean_data (dirof reference) columns data = Err EValue).
  { unfold clean_data. induction data as [|w data IH]; [destruct I|]. cbn [mapM].
    unfold angle_coordinates at 1. rewrite dirof_length. destruct (length w =? length reference)%nat eqn:Q; auto.
    unfold angle_in. destruct (Req_EM_T (norm w) 0) as [Z|]; [destruct (NZ w); auto; left; auto|]. cbn [bind].
    destruct I as [->|I]; [apply Nat.eqb_eq in Q; contradiction|]. rewrite IH; auto. intros; apply NZ; right; auto. }
  rewrite X. auto.
Qed.
(** With a learner which reproduces its samples, the flow reproduces the direction of every
    demonstration within the limit, with the speed of the flow. *)
Theorem C156_reproduced : forall n columns reference xs data f x v, interpolates learn ->
  (2 <= n)%nat -> length reference = n -> norm reference <> 0 ->
  ortho n (direction reference) columns -> length columns = (n - 1)%nat ->
  Forall (fun v => length v = n /\ norm v <> 0) data -> NoDup xs ->
  fit_constant_flow learn columns reference xs n data = Ok f -> In (x, v) (combine xs data) ->
  acos (dot (direction reference) (direction v)) <= constant_flow_bound ->
  constant_flow columns f reference x = Ok (vscale (norm reference) (direction v)).
Proof.
  intros n columns reference xs data f x v HI Hn L N O Lc F ND E I B.
  assert (LX : length xs = length data) by (apply (C156_accepted n columns reference xs data); eauto).
  unfold fit_constant_flow in E. unfold constant_flow.
  destruct (Req_EM_T (norm reference) 0); [contradiction|]. change (vdiv reference (norm reference)) with (dirof reference) in *.
  change (direction reference) with (dirof reference) in *.
  destruct (clean_ok n (dirof reference) columns data Hn) as (ys & Ey & Ly & _ & H); auto.
  { rewrite dirof_length. auto. } { apply dirof_unit; auto. }
  rewrite Ey in E. cbn [bind] in E. rewrite Ly, LX, L, !Nat.eqb_refl in E. cbn [negb] in E. injection E as <-.
  destruct (H _ xs x v I) as (y & Iy & Ny & By). rewrite (HI xs ys x y) by (auto; lia). rewrite L. f_equal. f_equal.
  unfold limit_angle. rewrite (proj2 (Rltb_false _ _)) by lra. exact By.
Qed.
(** A demonstration beyond the limit is followed with the deviation of the limit, to the same side. *)
Theorem C156_limited : forall n columns reference xs data f x v, interpolates learn ->
  (2 <= n)%nat -> length reference = n -> norm reference <> 0 ->
  ortho n (direction reference) columns -> length columns = (n - 1)%nat ->
  Forall (fun v => length v = n /\ norm v <> 0) data -> NoDup xs ->
  fit_constant_flow learn columns reference xs n data = Ok f -> In (x, v) (combine xs data) ->
  constant_flow_bound < acos (dot (direction reference) (direction v)) ->
  exists w, constant_flow columns f reference x = Ok w /\ norm w = norm reference /\
    dot reference w = norm reference * norm reference * cos constant_flow_bound /\
    forall c, In c columns -> 0 <= dot c w * dot c v.
Proof.
  intros n columns reference xs data f x v HI Hn L N O Lc F ND E I B.
  assert (LX : length xs = length data) by (apply (C156_accepted n columns reference xs data); eauto).
  unfold fit_constant_flow in E.
  destruct (Req_EM_T (norm reference) 0) as [|N']; [contradiction|]. change (vdiv reference (norm reference)) with (dirof reference) in *.
  change (direction reference) with (dirof reference) in *.
  destruct (clean_ok n (dirof reference) columns data Hn) as (ys & Ey & Ly & FY & H); auto.
  { rewrite dirof_length. auto. } { apply dirof_unit; auto. }
  rewrite Ey in E. cbn [bind] in E. rewrite Ly, LX, L, !Nat.eqb_refl in E. cbn [negb] in E. injection E as <-.
  destruct (H _ xs x v I) as (y & Iy & Ny & By). pose proof (HI xs ys x y ND ltac:(lia) Iy) as P.
  assert (Lyy : length y = length columns) by (rewrite Forall_forall in FY; apply FY; eapply in_combine_r; eauto).
  destruct (C81_speed_and_progress n columns (learn xs ys) reference x L N) as (w & Ew & Lw & Nw & Dw & _); auto.
  { rewrite P. auto. }
  exists w. split; auto. split; auto. split.
  - rewrite Dw, P, Ny, Rmin_left; auto. lra.
  - unfold constant_flow in Ew. destruct (Req_EM_T (norm reference) 0); [contradiction|].
    change (vdiv reference (norm reference)) with (dirof reference) in Ew. rewrite P, L in Ew. injection Ew as <-.
    rewrite Forall_forall in F. destruct (F v) as [Lv Nv]; [eapply in_combine_r; eauto|].
    pose proof cfb as CF. pose proof PI_RGT_0. pose proof (acos_bound (dot (dirof reference) (direction v))) as AB.
    assert (Py : 0 < norm y) by lra. unfold limit_angle. rewrite (proj2 (Rltb_true _ _)) by lra.
    set (b0 := dirof reference) in *. set (m := constant_flow_bound) in *.
    intros c Ic. assert (Cc : exists i, (i < length columns)%nat /\ nth i columns [] = c) by (apply In_nth; auto).
    assert (Z : dot c b0 = 0).
    { destruct (ortho_facts _ _ _ O) as [_ FP]. rewrite Forall_forall in FP. rewrite dot_comm. apply FP. auto. }
    assert (K : dot c v = norm v * (sin (norm y) / norm y) * dot c (embed n columns y)).
    { assert (Q : v = vscale (norm v) (direction v)).
      { unfold direction. vext. field. auto. }
      rewrite Q at 1. rewrite <- By. unfold vector_from_angle. rewrite (embed_norm n b0) by auto.
      destruct (Req_EM_T (norm y) 0); [lra|]. autorewrite with vdot. rewrite Z. ring. }
    destruct Cc as (i & Hi & <-). set (z := vscale m (vdiv y (norm y))).
    assert (Lz : length z = length columns) by (unfold z, vdiv; rewrite !length_vscale; auto).
    assert (Nz : norm z = m).
    { unfold z. rewrite norm_vscale, norm_vdiv by lra. rewrite Rabs_right by lra. ring. }
    assert (Cz : nth i z 0 = m / norm y * nth i y 0) by (unfold z, vdiv; rewrite !nth_vscale; unfold Rdiv; ring).
    assert (W : dot (nth i columns []) (vscale (norm reference) (angle_space_inverse n b0 columns z)) =
      norm reference * (sin m / m) * nth i z 0).
    { unfold angle_space_inverse, vector_from_angle. rewrite (embed_norm n b0) by auto. rewrite Nz.
      destruct (Req_EM_T m 0); [lra|]. autorewrite with vdot. rewrite Z, (embed_coord n b0) by auto. ring. }
    rewrite W, K, (embed_coord n b0), Cz by auto.
    assert (0 < sin m) by (apply sin_gt_0; lra). assert (0 <= sin (norm y)) by (apply sin_ge_0; lra).
    pose proof (norm_pos _ N). pose proof (norm_pos _ Nv).
    replace (norm reference * (sin m / m) * (m / norm y * nth i y 0) * (norm v * (sin (norm y) / norm y) * nth i y 0))
      with (norm reference * norm v * (sin m * sin (norm y)) * ((nth i y 0 / norm y) * (nth i y 0 / norm y))) by (field; lra).
    apply Rmult_le_pos; [|apply Rle_0_sqr]. apply Rmult_le_pos; [|apply Rmult_le_pos; lra]. left. apply Rmult_lt_0_compat; auto.
Qed.
End C156.

(** A learner which looks the samples up. *)
Definition table (xs ys : list vec) (q : vec) : vec :=
  match find (fun p => if list_eq_dec Req_EM_T (fst p) q then true else false) (combine xs ys) with
  | Some p => snd p
  | None => hd [] ys
  end.
Lemma table_interpolates : interpolates table.
Proof.
  intros xs ys x y ND L I. unfold table. revert ys L I. induction ND as [|x0 xs NI ND IH]; intros [|y0 ys] L I; try contradiction.
  cbn [combine find fst] in *. destruct (list_eq_dec Req_EM_T x0 x) as [->|D].
  - destruct I as [I|I]; [injection I as <-; auto|]. apply in_combine_l in I. contradiction.
  - destruct I as [I|I]; [injection I as -> _; contradiction|]. simpl in L. pose proof (IH ys ltac:(lia) I) as H.
    destruct (find _ (combine xs ys)) eqn:E; auto. exfalso. apply (find_none _ _ E) in I. cbn [fst] in I.
    destruct (list_eq_dec Req_EM_T x x); [discriminate|contradiction].
Qed.
Lemma table_shaped : shaped_output table.
Proof.
  intros xs ys k q F NE. rewrite Forall_forall in F. unfold table. destruct (find _ _) as [p|] eqn:E.
  - apply find_some in E. destruct E as [I _]. destruct p as [a b]. apply in_combine_r in I. apply F. auto.
  - destruct ys; [contradiction|]. apply F. left. auto.
Qed.
(** The speed of the demonstrations is not reproduced. *)
Theorem C156_speed_refuted : exists columns reference xs data f x v,
  fit_constant_flow table columns reference xs 2 data = Ok f /\ In (x, v) (combine xs data) /\
  direction v = direction reference /\ norm v = 2 /\
  exists w, constant_flow columns f reference x = Ok w /\ direction w = direction v /\ norm w = 1.
Proof.
  assert (N1 : norm [1; 0] = 1) by (unfold norm; apply sqrt_lem_1; cbn; lra).
  assert (N2 : norm [2; 0] = 2) by (unfold norm; apply sqrt_lem_1; cbn; lra).
  assert (D1 : direction [1; 0] = [1; 0]) by (unfold direction, vdiv; rewrite N1; cbn; repeat (apply f_equal2; [field|]); auto).
  assert (D2 : direction [2; 0] = [1; 0]) by (unfold direction, vdiv; rewrite N2; cbn; repeat (apply f_equal2; [field|]); auto).
  assert (O : ortho 2 (direction [1; 0]) [[0; 1]]).
  { rewrite D1. cbn. unfold unitv. cbn. repeat split; auto; ring. }
  assert (F : Forall (fun v : vec => length v = 2%nat /\ norm v <> 0) [[2; 0]]) by (constructor; auto; split; auto; lra).
  assert (X : exists f, fit_constant_flow table [[0; 1]] [1; 0] [[0; 0]] 2 [[2; 0]] = Ok f).
  { apply (C156_accepted table 2 [[0; 1]] [1; 0] [[0; 0]] [[2; 0]]); auto. lra. }
  destruct X as (f & Ef). exists [[0; 1]], [1; 0], [[0; 0]], [[2; 0]], f, [0; 0], [2; 0].
  split; auto. split; [left; auto|]. split; [congruence|]. split; auto.
  exists (vscale (norm [1; 0]) (direction [2; 0])). split.
  - apply (C156_reproduced table 2 [[0; 1]] [1; 0] [[0; 0]] [[2; 0]]); auto; try lra.
    + apply table_interpolates.
    + constructor; auto. constructor.
    + left. auto.
    + rewrite D1, D2. replace (dot [1; 0] [1; 0]) with 1 by (cbn; ring). rewrite acos_1. pose proof cfb. lra.
  - rewrite N1, D2. replace (vscale 1 [1; 0]) with [1; 0] by (unfold vscale; cbn; repeat (apply f_equal2; [ring|]); auto). auto.
Qed.
Example C156_case : exists f, fit_constant_flow table [[0; 1]] [2; 0] [[0; 0]; [1; 0]] 2 [[1; 0]; [3; 4]] = Ok f /\
  constant_flow [[0; 1]] f [2; 0] [1; 0] = Ok [2 * (3 / 5); 2 * (4 / 5)].
Proof.
  assert (N2 : norm [2; 0] = 2) by (unfold norm; apply sqrt_lem_1; cbn; lra).
  assert (N1 : norm [1; 0] = 1) by (unfold norm; apply sqrt_lem_1; cbn; lra).
  assert (N5 : norm [3; 4] = 5) by (unfold norm; apply sqrt_lem_1; cbn; lra).
  assert (D2 : direction [2; 0] = [1; 0]) by (unfold direction, vdiv; rewrite N2; cbn; repeat (apply f_equal2; [field|]); auto).
  assert (D5 : direction [3; 4] = [3 / 5; 4 / 5]) by (unfold direction, vdiv; rewrite N5; cbn; repeat (apply f_equal2; [field|]); auto).
  assert (O : ortho 2 (direction [2; 0]) [[0; 1]]).
  { rewrite D2. cbn. unfold unitv. cbn. repeat split; auto; ring. }
  assert (F : Forall (fun v : vec => length v = 2%nat /\ norm v <> 0) [[1; 0]; [3; 4]]).
  { constructor; [split; auto; lra|]. constructor; auto. split; auto; lra. }
  assert (X : exists f, fit_constant_flow table [[0; 1]] [2; 0] [[0; 0]; [1; 0]] 2 [[1; 0]; [3; 4]] = Ok f).
  { apply (C156_accepted table 2 [[0; 1]] [2; 0] [[0; 0]; [1; 0]] [[1; 0]; [3; 4]]); auto. lra. }
  destruct X as (f & Ef). exists f. split; auto.
  rewrite (C156_reproduced table 2 [[0; 1]] [2; 0] [[0; 0]; [1; 0]] [[1; 0]; [3; 4]] f [1; 0] [3; 4]); auto; try lra.
  - rewrite N2, D5. auto.
  - apply table_interpolates.
  - constructor; [|constructor; auto; constructor]. intros [H|[]]. injection H. lra.
  - right. left. auto.
  - rewrite D2, D5. replace (dot [1; 0] [3 / 5; 4 / 5]) with (3 / 5) by (cbn; field). unfold constant_flow_bound.
    pose proof PI_RGT_0. apply acos_le_of_cos; try lra.
    rewrite <- sin_shift. replace (PI / 2 - 99 / 100 * PI / 2) with (PI / 200) by field.
    assert (PI <= 4) by apply PI_4. assert (sin (PI / 200) < PI / 200) by (apply sin_lt_x; lra). lra.
Qed.

(** * C157: fit of the perpendicular deviation *)
Section C157.
Variable learn : list vec -> list vec -> vec -> vec.
Variable orth : vec -> vec.
Hypothesis Horth : picks 2 orth.
Lemma axis_frame axis positive : let null := perpendicular_axis axis positive in
  length null = 2%nat /\ unitv null /\ ortho 2 null [orth null].
Proof.
  cbv zeta. destruct (axis_unit axis positive) as [L U]. destruct (Horth _ L U) as (LO & UO & OO).
  split; auto. split; auto. cbn. repeat split; auto.
Qed.
Lemma filter_combine_fst (g : vec -> bool) : forall xs ds : list vec, NoDup xs ->
  NoDup (map fst (filter (fun p => g (fst p)) (combine xs ds))).
Proof.
  intros xs ds ND. revert ds. induction ND as [|x xs NI ND IH]; intros [|d ds]; cbn [combine filter map]; try constructor.
  cbn [fst]. destruct (g x); [|apply IH]. cbn [map fst]. constructor; [|apply IH].
  intros I. apply in_map_iff in I as ([a b] & E & I). apply filter_In in I. destruct I as [I _]. apply in_combine_l in I.
  cbn [fst] in E. subst a. contradiction.
Qed.
Lemma relative_distinct attractor xs : Forall (fun x => length x = length attractor) xs -> NoDup xs ->
  NoDup (map (fun x => vsub x attractor) xs).
Proof.
  intros F ND. induction ND as [|x xs NI ND IH]; cbn [map]; constructor.
  - intros I. apply in_map_iff in I as (y & E & I). apply NI. inversion F as [|? ? Lx F']. rewrite Forall_forall in F'. pose proof (F' y I) as Ly.
    replace x with y; auto. apply (nth_ext _ _ 0 0); [lia|]. intros k Hk.
    pose proof (f_equal (fun l => nth k l 0) E) as Q. cbv beta in Q. rewrite !nth_vsub in Q. lra.
  - apply IH. inversion F; auto.
Qed.
(** The samples of a side are fitted whenever the velocities are defined. *)
Lemma fit_side_ok attractor xs data axis positive : length xs = length data ->
  Forall (fun v => length v = 2%nat /\ norm v <> 0) data ->
  exists f, fit_side learn orth attractor xs data axis positive = Ok f /\
    (shaped_output learn -> forall q, length (f q) = 1%nat) /\
    (interpolates learn -> length attractor = 2%nat -> Forall (fun x => length x = 2%nat) xs -> NoDup xs ->
     forall x v, In (x, v) (combine xs data) -> on_side axis positive (vsub x attractor) = true ->
       let null := perpendicular_axis axis positive in
       norm (f (vsub x attractor)) = acos (dot null (direction v)) /\
       vector_from_angle null (embed 2 [orth null] (f (vsub x attractor))) = direction v).
Proof.
  intros L F. unfold fit_side. rewrite L, Nat.eqb_refl. cbn [negb]. set (rel := map (fun x => vsub x attractor) xs).
  set (sm := filter _ _). destruct (axis_frame axis positive) as (L0 & U0 & O). set (null := perpendicular_axis axis positive) in *.
  assert (FS : Forall (fun v => length v = 2%nat /\ norm v <> 0) (map snd sm)).
  { rewrite Forall_forall in F |- *. intros v I. apply in_map_iff in I as ([a b] & E & I). cbn [snd] in E. subst b.
    unfold sm in I. apply filter_In in I. destruct I as [I _]. apply in_combine_r in I. apply F. auto. }
  destruct (clean_ok 2 null [orth null] (map snd sm) ltac:(lia) L0 U0 O eq_refl FS) as (ys & Ey & Ly & FY & H).
  assert (INS : forall x v, In (x, v) (combine xs data) -> on_side axis positive (vsub x attractor) = true -> In (vsub x attractor, v) sm).
  { intros x v I S. apply filter_In. split; auto. unfold rel. clear - I. revert data I. induction xs as [|a xs IH]; intros [|d data] I; try contradiction.
    cbn [map combine] in *. destruct I as [I|I]; [injection I as <- <-; left; auto|right; apply IH; auto]. }
  destruct sm as [|p sm'] eqn:Es.
  - eexists. split; [reflexivity|]. split; auto. intros _ _ _ _ x v I S. destruct (INS x v I S).
  - rewrite <- Es in *. rewrite Ey. cbn [bind]. eexists. split; [reflexivity|]. split.
    + intros SO q. apply SO; auto. intros Z. rewrite Z, map_length, Es in Ly. discriminate.
    + intros HI La FX ND x v I S. specialize (INS x v I S).
      assert (IC : In (vsub x attractor, v) (combine (map fst sm) (map snd sm))).
      { clear - INS. induction sm as [|[a b] sm IH]; [destruct INS|]. cbn [map combine fst snd]. destruct INS as [E|I]; [left; auto|right; auto]. }
      destruct (H _ _ _ _ IC) as (y & Iy & Ny & By). rewrite (HI (map fst sm) ys (vsub x attractor) y); auto.
      * rewrite Es in *. unfold rel in Es. rewrite <- Es. apply (filter_combine_fst (on_side axis positive)). apply relative_distinct; auto.
        rewrite La. auto.
      * rewrite Ly, !map_length. auto.
Qed.
Lemma fitted_regressor attractor xs data : shaped_output learn ->
  Forall (fun v => length v = 2%nat /\ norm v <> 0) data -> regressor (fitted learn orth attractor xs data).
Proof.
  intros SO F axis positive q. unfold fitted. destruct (fit_side _ _ _ _ _ _ _) as [f|] eqn:E; auto.
  destruct (Nat.eq_dec (length xs) (length data)) as [L|L].
  - destruct (fit_side_ok attractor xs data axis positive L F) as (f' & E' & H & _). rewrite E in E'. injection E' as <-. apply H. auto.
  - unfold fit_side in E. rewrite (proj2 (Nat.eqb_neq _ _) L) in E. discriminate.
Qed.
(** Where the axes in use predict the same direction, it is followed. *)
Lemma same_prediction predict prox vmax ax ay x y u : regressor predict -> [x; y] <> [ax; ay] ->
  (forall axis, (axis < 2)%nat -> nth axis [x - ax; y - ay] 0 <> 0 -> perpendicular_prediction orth predict [x - ax; y - ay] axis = u) ->
  perpendicular_evaluate orth predict prox vmax [ax; ay] [x; y] =
    Ok (vscale (velocity_factor prox vmax (norm [x - ax; y - ay])) u).
Proof.
  intros HP NE H.
  destruct (perpendicular_form orth predict prox vmax ax ay x y Horth HP NE) as (w0 & w1 & a0 & a1 & W & D0 & D1 & NZ & Un & E).
  cbv zeta in *. set (rel := [x - ax; y - ay]) in *. set (null := vscale (-1) (direction rel)) in *.
  assert (NZ' : rel <> [0; 0]) by (intros Z; apply NZ; rewrite Z; apply (norm_vzero 2)).
  destruct (weights2 _ _ NZ') as (w0' & w1' & W' & P0 & P1 & SUM & Z0 & Z1 & _). fold rel in W'.
  rewrite W in W'. injection W' as <- <-. rewrite E. f_equal. f_equal.
  pose proof (ad_len _ _ _ _ D0) as L0. pose proof (ad_len _ _ _ _ D1) as L1.
  pose proof (ad_back _ _ _ _ D0) as B0. pose proof (ad_back _ _ _ _ D1) as B1. cbn [bs0] in B0, B1.
  destruct (Req_dec (x - ax) 0) as [X|X].
  - rewrite (Z0 X) in *. assert (w1 = 1) by lra. subst w1. replace (vadd (vscale 0 a0) (vscale 1 a1)) with a1 by (vext; ring).
    rewrite B1. apply H; [lia|]. intros Y. apply NZ'. unfold rel. cbn [nth] in Y. rewrite X. f_equal. f_equal. exact Y.
  - pose proof (H 0%nat ltac:(lia) X) as H0. destruct (Req_dec (y - ay) 0) as [Y|Y].
    + rewrite (Z1 Y) in *. assert (w0 = 1) by lra. subst w0. replace (vadd (vscale 1 a0) (vscale 0 a1)) with a0 by (vext; ring).
      rewrite B0. auto.
    + pose proof (H 1%nat ltac:(lia) Y) as H1. assert (a1 = a0).
      { rewrite (ad_def _ _ _ _ D0), (ad_def _ _ _ _ D1), H0, H1. auto. }
      subst a1. replace (vadd (vscale w0 a0) (vscale w1 a0)) with a0.
      * rewrite B0. auto.
      * vext. replace w1 with (1 - w0) by lra. ring.
Qed.
Lemma side_of axis rel : on_side axis (negb (Rltb (nth axis rel 0) 0)) rel = true.
Proof.
  unfold on_side. apply Rleb_true. destruct (Rltb (nth axis rel 0) 0) eqn:E; cbn [negb].
  - apply Rltb_true in E. lra.
  - apply Rltb_false in E. lra.
Qed.
(** A demonstration whose direction is within the limit of every axis in use is reproduced, with
    the speed of the field. *)
Theorem C157_reproduced : forall xs data prox vmax ax ay x y v, interpolates learn -> shaped_output learn ->
  length xs = length data -> Forall (fun x => length x = 2%nat) xs -> NoDup xs ->
  Forall (fun v => length v = 2%nat /\ norm v <> 0) data ->
  In ([x; y], v) (combine xs data) -> [x; y] <> [ax; ay] ->
  (forall axis, (axis < 2)%nat ->
     cos perpendicular_max_angle * Rabs (nth axis [x - ax; y - ay] 0) <= - (nth axis [x - ax; y - ay] 0 * nth axis (direction v) 0)) ->
  perpendicular_evaluate orth (fitted learn orth [ax; ay] xs data) prox vmax [ax; ay] [x; y] =
    Ok (vscale (velocity_factor prox vmax (norm [x - ax; y - ay])) (direction v)).
Proof.
  intros xs data prox vmax ax ay x y v HI SO L FX ND F I NE H.
  apply same_prediction; auto; [apply fitted_regressor; auto|].
  set (rel := [x - ax; y - ay]) in *. intros axis Ha NZ. specialize (H axis Ha).
  assert (R : vsub [x; y] [ax; ay] = rel) by (rewrite vsub2; auto).
  unfold perpendicular_prediction. set (s := negb _). unfold fitted.
  destruct (fit_side_ok [ax; ay] xs data axis s L F) as (f & E & _ & G). rewrite E.
  specialize (G HI eq_refl FX ND [x; y] v I). rewrite R in G. destruct (G (side_of axis rel)) as [N B]. cbv zeta in N, B.
  unfold limit_angle. rewrite (proj2 (Rltb_false _ _)); [exact B|]. rewrite N. pose proof pmax. pose proof PI_RGT_0.
  rewrite Forall_forall in F. destruct (F v) as [Lv Nv]; [eapply in_combine_r; eauto|].
  destruct (axis_unit axis s) as [La Ua].
  apply acos_le_of_cos; [apply unit_dot_bounds; auto; apply (dirof_unit _ Nv)|lra|].
  assert (Q : dot (perpendicular_axis axis s) (direction v) = (if s then -1 else 1) * nth axis (direction v) 0).
  { assert (Ld : length (direction v) = 2%nat) by (rewrite <- Lv; apply dirof_length).
    destruct (direction v) as [|p [|q [|? ?]]]; simpl in Ld; try lia. unfold perpendicular_axis.
    destruct axis as [|[|?]]; [| |lia]; simpl; ring. }
  rewrite Q. unfold s. destruct (Rltb (nth axis rel 0) 0) eqn:T; cbn [negb].
  - apply Rltb_true in T. rewrite Rabs_left in H by auto. nra.
  - apply Rltb_false in T. rewrite Rabs_right in H by lra. nra.
Qed.
(** On an axis without demonstrations on its side, the field points straight at the attractor. *)
Theorem C157_unused : forall xs data prox vmax ax ay x y axis, shaped_output learn ->
  length xs = length data -> Forall (fun v => length v = 2%nat /\ norm v <> 0) data ->
  (axis < 2)%nat -> nth axis [x - ax; y - ay] 0 <> 0 -> nth (1 - axis) [x - ax; y - ay] 0 = 0 ->
  (forall p, In p xs -> nth axis (vsub p [ax; ay]) 0 * nth axis [x - ax; y - ay] 0 < 0) ->
  perpendicular_evaluate orth (fitted learn orth [ax; ay] xs data) prox vmax [ax; ay] [x; y] =
    Ok (vscale (velocity_factor prox vmax (norm [x - ax; y - ay])) (vscale (-1) (direction [x - ax; y - ay]))).
Proof.
  intros xs data prox vmax ax ay x y axis SO L F Ha NZ Z H.
  assert (NE : [x; y] <> [ax; ay]).
  { intros E. injection E as -> ->. apply NZ. destruct axis as [|[|?]]; [| |lia]; cbn; ring. }
  apply same_prediction; auto; [apply fitted_regressor; auto|].
  set (rel := [x - ax; y - ay]) in *. intros axis' Ha' NZ'.
  assert (axis' = axis) by (destruct axis as [|[|?]], axis' as [|[|?]]; try lia; exfalso; apply NZ'; exact Z). subst axis'.
  unfold perpendicular_prediction. set (s := negb _). unfold fitted.
  assert (E : fit_side learn orth [ax; ay] xs data axis s = Ok (fun _ => [0])).
  { unfold fit_side. rewrite L, Nat.eqb_refl. cbn [negb]. destruct (filter _ _) as [|p l] eqn:Q; auto. exfalso.
    assert (I : In p (p :: l)) by (left; auto). rewrite <- Q in I. apply filter_In in I. destruct I as [I S1]. destruct p as [a b].
    apply in_combine_l in I. apply in_map_iff in I as (p & Ep & I). cbn [fst] in S1. subst a. specialize (H p I).
    unfold on_side in S1. apply Rleb_true in S1. unfold s in S1. destruct (Rltb (nth axis rel 0) 0) eqn:T; cbn [negb] in S1.
    - apply Rltb_true in T. nra.
    - apply Rltb_false in T. nra. }
  rewrite E. destruct (axis_frame axis s) as (L0 & U0 & O). cbv zeta in *.
  assert (N0 : norm [0] = 0) by (apply (norm_vzero 1)). pose proof pmax.
  unfold limit_angle. rewrite N0, (proj2 (Rltb_false perpendicular_max_angle 0)) by lra.
  unfold angle_space_inverse, vector_from_angle. rewrite (embed_norm 2 (perpendicular_axis axis s)) by auto.
  rewrite N0. destruct (Req_EM_T 0 0); [|contradiction].
  assert (NN : norm rel = Rabs (nth axis rel 0)).
  { unfold rel in *. destruct axis as [|[|?]]; [| |lia]; cbn [nth Nat.sub] in *; apply norm2_is; try apply Rabs_pos;
      rewrite Z, <- Rabs_mult, Rabs_right; try ring; apply Rle_ge, Rle_0_sqr. }
  unfold direction. rewrite NN. unfold s, perpendicular_axis. unfold rel in *. destruct axis as [|[|?]]; [| |lia]; cbn [nth Nat.sub Nat.eqb] in *;
    (destruct (Rltb _ 0) eqn:T; cbn [negb]; [apply Rltb_true in T; rewrite Rabs_left by auto|apply Rltb_false in T; rewrite Rabs_right by lra]);
    rewrite Z; unfold vdiv, vscale; cbn [map]; repeat (apply f_equal2; [field; auto|]); auto.
Qed.
(** Positions and velocities in different numbers are refused. *)
Theorem C157_mismatch : forall attractor xs data axis positive, length xs <> length data ->
  fit_side learn orth attractor xs data axis positive = Err EIndex.
Proof. intros. unfold fit_side. rewrite (proj2 (Nat.eqb_neq _ _)); auto. Qed.
End C157.
(** The deviation is a sine: it is zero exactly along the position and has the sign of the turn. *)
Theorem C157_deviation : forall px py vx vy, norm [px; py] <> 0 -> norm [vx; vy] <> 0 ->
  exists d, deviation_at [px; py] (Ok [vx; vy]) = Ok d /\ -1 <= d <= 1 /\
    (d = 0 <-> exists c, [vx; vy] = vscale c [px; py]) /\ (0 < d <-> 0 < px * vy - py * vx).
Proof.
  intros px py vx vy NP NV. unfold deviation_at. destruct (Req_EM_T (norm [px; py]) 0); [contradiction|]. cbn [bind nth].
  pose proof (norm_pos _ NP) as PP. pose proof (norm_pos _ NV) as PV.
  assert (PD : 0 < norm [px; py] * norm [vx; vy]) by (apply Rmult_lt_0_compat; auto).
  unfold fdiv. destruct (Req_EM_T _ 0); [lra|]. eexists. split; [reflexivity|].
  pose proof (norm_sq [px; py]) as SP. pose proof (norm_sq [vx; vy]) as SV. cbn in SP, SV.
  set (P := norm [px; py]) in *. set (V := norm [vx; vy]) in *. set (c := px * vy - py * vx).
  assert (C : c * c <= (P * V) * (P * V)).
  { replace (P * V * (P * V)) with ((P * P) * (V * V)) by ring.
    replace (P * P) with (px * px + py * py) by lra. replace (V * V) with (vx * vx + vy * vy) by lra.
    unfold c. pose proof (Rle_0_sqr (px * vx + py * vy)) as Q. unfold Rsqr in Q. nra. }
  assert (IV : 0 < / (P * V)) by (apply Rinv_0_lt_compat; auto).
  assert (B : - (P * V) <= c <= P * V) by (split; nra).
  split; [|split; [split|]].
  - split.
    + apply Rmult_le_reg_r with (P * V); auto. unfold Rdiv. rewrite Rmult_assoc, Rinv_l by lra. lra.
    + apply Rmult_le_reg_r with (P * V); auto. unfold Rdiv. rewrite Rmult_assoc, Rinv_l by lra. lra.
  - intros Z. assert (c = 0) by (unfold Rdiv in Z; nra). exists ((px * vx + py * vy) / (P * P)). unfold vscale. cbn [map].
    assert (PN : P * P <> 0) by nra. assert (SS : P * P = px * px + py * py) by lra. unfold c in H.
    apply f_equal2; [|apply f_equal2; auto]; apply Rmult_eq_reg_r with (P * P); auto.
    + replace ((px * vx + py * vy) / (P * P) * px * (P * P)) with ((px * vx + py * vy) * px) by (field; nra). rewrite SS.
      apply Rminus_diag_uniq. transitivity (- py * (px * vy - py * vx)); [ring|]. rewrite H. ring.
    + replace ((px * vx + py * vy) / (P * P) * py * (P * P)) with ((px * vx + py * vy) * py) by (field; nra). rewrite SS.
      apply Rminus_diag_uniq. transitivity (px * (px * vy - py * vx)); [ring|]. rewrite H. ring.
  - intros (k & E). injection E as -> ->. unfold c, Rdiv. ring.
  - unfold Rdiv. split; intros Q; nra.
Qed.
(** The deviation is taken from the position, not from the position relative to the attractor. *)
Theorem C157_attractor_refuted : exists orth attractor position v d, picks 2 orth /\
  perpendicular_evaluate orth (fitted table orth attractor [] []) 1 1 attractor position = Ok v /\
  v = vscale (-1) (direction (vsub position attractor)) /\ deviation_at position (Ok v) = Ok d /\ 0 < d /\
  deviation_at attractor (perpendicular_evaluate orth (fitted table orth attractor [] []) 1 1 attractor attractor) = Err ENaN.
Proof.
  set (orth := fun d : vec => [- nth 1 d 0; nth 0 d 0]). pose proof picks_2d as HO. fold orth in HO.
  assert (N2 : norm [2 - 0; 1 - 1] = 2) by (apply norm2_is; lra).
  assert (D2 : direction [2 - 0; 1 - 1] = [1; 0]) by (unfold direction, vdiv; rewrite N2; cbn; repeat (apply f_equal2; [field|]); auto).
  assert (V1 : velocity_factor 1 1 2 = 1) by (unfold velocity_factor; rewrite Rmin_left; lra).
  assert (NV : norm [-1; 0] = 1) by (apply norm2_is; lra).
  assert (E : perpendicular_evaluate orth (fitted table orth [0; 1] [] []) 1 1 [0; 1] [2; 1] = Ok [-1; 0]).
  { rewrite (C157_unused table orth HO [] [] 1 1 0 1 2 1 0); auto.
    - rewrite N2, D2, V1. unfold vscale. cbn [map]. f_equal. repeat (apply f_equal2; [ring|]); auto.
    - apply table_shaped.
    - cbn. lra.
    - cbn. ring. - intros p []. }
  assert (NP : 0 < norm [2; 1]).
  { apply norm_pos. intros Z. apply norm_zero_iff in Z. injection Z. lra. }
  exists orth, [0; 1], [2; 1], [-1; 0], ((2 * 0 - 1 * -1) / (norm [2; 1] * 1)). split; auto. split; auto.
  split; [rewrite vsub2, D2; unfold vscale; cbn [map]; repeat (apply f_equal2; [ring|]); auto|].
  split; [|split].
  - unfold deviation_at. destruct (Req_EM_T (norm [2; 1]) 0); [lra|]. cbn [bind nth]. rewrite NV. unfold fdiv.
    destruct (Req_EM_T _ 0); [lra|]. auto.
  - apply Rdiv_lt_0_compat; lra.
  - unfold perpendicular_evaluate. rewrite vsub2. assert (Z : norm [0 - 0; 1 - 1] = 0) by (apply norm2_is; lra).
    cbv zeta. rewrite Z. destruct (Req_EM_T 0 0); [|contradiction]. unfold deviation_at.
    destruct (Req_EM_T (norm [0; 1]) 0) as [Q|_]; [assert (norm [0; 1] = 1) by (apply norm2_is; lra); lra|].
    cbn [bind length]. rewrite norm_vzero. unfold fdiv. destruct (Req_EM_T _ 0) as [_|Q]; auto. exfalso. apply Q. ring.
Qed.
Example C157_case : forall orth, picks 2 orth ->
  perpendicular_evaluate orth (fitted table orth [0; 0] [[1; 1]; [-1; 0]] [[-3; -4]; [1; 1]]) 1 1 [0; 0] [1; 1] = Ok [- (3 / 5); - (4 / 5)].
Proof.
  intros orth HO.
  assert (N5 : norm [-3; -4] = 5) by (apply norm2_is; lra).
  assert (D5 : direction [-3; -4] = [- (3 / 5); - (4 / 5)]) by (unfold direction, vdiv; rewrite N5; cbn; repeat (apply f_equal2; [field|]); auto).
  assert (N11 : norm [1; 1] <> 0) by (intros Z; apply norm_zero_iff in Z; injection Z; lra).
  pose proof pmax as PM. pose proof PI_RGT_0.
  assert (C : cos perpendicular_max_angle <= 3 / 5).
  { rewrite <- sin_shift. unfold perpendicular_max_angle. replace (PI / 2 - PI * (49 / 100)) with (PI / 100) by field.
    assert (PI <= 4) by apply PI_4. assert (sin (PI / 100) < PI / 100) by (apply sin_lt_x; lra). lra. }
  rewrite (C157_reproduced table orth HO [[1; 1]; [-1; 0]] [[-3; -4]; [1; 1]] 1 1 0 0 1 1 [-3; -4]); auto.
  - f_equal. replace [1 - 0; 1 - 0] with [1; 1] by (repeat (apply f_equal2; [ring|]); auto).
    assert (1 <= norm [1; 1]). { pose proof (norm_sq [1; 1]) as Q. cbn in Q. pose proof (norm_nonneg [1; 1]). nra. }
    unfold velocity_factor. rewrite Rmin_left by lra. rewrite D5. unfold vscale. cbn [map]. repeat (apply f_equal2; [ring|]); auto.
  - apply table_interpolates.
  - apply table_shaped.
  - constructor; [|constructor; auto; constructor]. intros [E|[]]. injection E. lra.
  - constructor; [split; auto; lra|]. constructor; auto.
  - left. auto.
  - intros E. injection E. lra.
  - intros axis Ha. rewrite D5. destruct axis as [|[|?]]; [| |lia]; cbn [nth]; rewrite Rabs_right; lra.
Qed.
Print Assumptions C156_accepted.
Print Assumptions C156_refused.
Print Assumptions C156_reproduced.
Print Assumptions C156_limited.
Print Assumptions C156_speed_refuted.
Print Assumptions C157_reproduced.
Print Assumptions C157_unused.
Print Assumptions C157_mismatch.
Print Assumptions C157_deviation.
Print Assumptions C157_attractor_refuted.
