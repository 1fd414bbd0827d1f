(** Property C175: continuity of the command whatever components gain or lose weight on the way. *)
Require Import Reals List Bool Lra Lia ZArith Classical_Prop ConstructiveEpsilon.
From Verif Require Import Base Vec Angle Pow RotModel Spec RotProofs SeqProofs TreeModel TreeSpec
  TreeProofs TreeWeights TreeReduce TreeGeom TreeCases TreeIndep PropRotation PropTree WeightModel WeightProofs PropWeights
  AvoidModel PropAvoid ProjModel PropProject TangentProofs PropTangent PropContact ContProofs PropContinuity PropEmbed PropJoint PropOrder PropLimits PropSteady PropFade PropPace PropDying.
Import ListNotations.
Open Scope R_scope.

(** ** Convergence along the parts on which finitely many features are constant *)
Definition onward (phi : nat -> nat) : Prop := forall j, (j <= phi j)%nat.
Lemma cv_onward f a phi : Un_cv f a -> onward phi -> Un_cv (fun j => f (phi j)) a.
Proof. intros C O e He. destruct (C e He) as (N & H). exists N. intros j Hj. apply H. specialize (O j). lia. Qed.
Lemma cvv_onward f a phi : cvv f a -> onward phi -> cvv (fun j => f (phi j)) a.
Proof. intros C O i. apply (cv_onward (fun j => nth i (f j) 0)); auto. Qed.
Lemma one_value (b : nat -> bool) f a v : (forall psi, onward psi -> (forall j, b (psi j) = b (psi 0%nat)) -> Un_cv (fun j => f (psi j)) a) ->
  forall e, 0 < e -> exists N, forall j, (N <= j)%nat -> b j = v -> R_dist (f j) a < e.
Proof.
  intros H e He. destruct (classic (exists N, forall j, (N <= j)%nat -> b j <> v)) as [(N & HN)|NO].
  { exists N. intros j Hj E. destruct (HN j Hj E). }
  assert (NEXT : forall N, exists k, (N <= k)%nat /\ b k = v).
  { intros N. apply NNPP. intros Q. apply NO. exists N. intros j Hj E. apply Q. exists j. auto. }
  assert (DEC : forall N k, {(N <= k)%nat /\ b k = v} + {~ ((N <= k)%nat /\ b k = v)}).
  { intros N k. destruct (le_dec N k), (bool_dec (b k) v); [left|right|right|right]; tauto. }
  set (next N := proj1_sig (constructive_indefinite_ground_description_nat _ (DEC N) (NEXT N))).
  assert (Nx : forall N, (N <= next N)%nat /\ b (next N) = v) by (intros N; unfold next; destruct (constructive_indefinite_ground_description_nat _ _ _) as (k & P); auto).
  set (psi j := if bool_dec (b j) v then j else next j).
  assert (V : forall j, b (psi j) = v) by (intros j; unfold psi; destruct (bool_dec (b j) v); auto; apply Nx).
  assert (C : Un_cv (fun j => f (psi j)) a).
  { apply H; [|intros j; rewrite !V; auto]. intros j. unfold psi. destruct (bool_dec (b j) v); auto. apply Nx. }
  destruct (C e He) as (N & HN). exists N. intros j Hj E. specialize (HN j Hj). unfold psi in HN. destruct (bool_dec (b j) v); [auto|contradiction].
Qed.
Lemma by_features f a : forall features : list (nat -> bool),
  (forall phi, onward phi -> (forall b, In b features -> forall j, b (phi j) = b (phi 0%nat)) -> Un_cv (fun j => f (phi j)) a) -> Un_cv f a.
Proof.
  intros features. induction features as [|b l IH]; intros H.
  { apply (H (fun j => j)); [intros j; auto|intros b []]. }
  apply IH. intros phi O C.
  assert (P : forall psi, onward psi -> (forall j, b (phi (psi j)) = b (phi (psi 0%nat))) -> Un_cv (fun j => f (phi (psi j))) a).
  { intros psi O' C'. apply (H (fun j => phi (psi j))).
    - intros j. specialize (O' j). specialize (O (psi j)). lia.
    - intros c [<-|I] j; auto. rewrite (C c I (psi j)), (C c I (psi 0%nat)). auto. }
  intros e He. destruct (one_value (fun j => b (phi j)) (fun j => f (phi j)) a true P e He) as (N1 & H1).
  destruct (one_value (fun j => b (phi j)) (fun j => f (phi j)) a false P e He) as (N2 & H2).
  exists (Nat.max N1 N2). intros j Hj. destruct (b (phi j)) eqn:E; [apply H1|apply H2]; auto; lia.
Qed.
Lemma calm_onward position_ base_ position base t i rad_ rad phi : onward phi -> calm position_ base_ position base t i rad_ rad ->
  calm (fun j => position_ (phi j)) (fun j => base_ (phi j)) position base t i (fun j => rad_ (phi j)) rad.
Proof.
  intros O (w_ & w & c & A1 & A2 & A3 & A4 & A5 & A6 & A7 & A8 & A9 & A10 & A11). exists (fun j => w_ (phi j)), w, c.
  split; [auto|]. split; [auto|]. split; [auto|].
  split; [intros k; apply (cvv_onward (fun j => nth k (w_refs (w_ j)) [])); auto|].
  split; [apply (cvv_onward (fun j => nth 0 (w_normals (w_ j)) [])); auto|].
  split; [auto|]. split; [auto|]. split; [apply cv_onward; auto|]. split; [auto|].
  split; [destruct A10 as [Q|Q]; [left; auto|right; intros j; apply Q]|exact A11].
Qed.

Section Mixed.
Variables (orth0 pick : vec -> vec) (sort : tree -> list nid) (power radius : R) (max_repulsion : option R) (n : nat).
Variables (position_ base_ : nat -> vec) (position base : vec) (trees : list btree).
Notation angle_of := (angle_space pick).
Notation SCENE := (scene orth0 angle_of pick sort power radius max_repulsion n).
Notation data_of := (tree_data angle_of power radius max_repulsion).
Hypothesis SC_ : forall j, SCENE (position_ j) (base_ j) trees.
Hypothesis SC : SCENE position base trees.
Definition data_at (t : btree) (j : nat) : list R * list R * (R * R) :=
  match data_of (position_ j) (base_ j) t with Ok (_, ws, rs, rec) => (ws, rs, rec) | Err _ => ([], [], (0, 0)) end.
Definition ws_at t j := fst (fst (data_at t j)).
Definition rs_at t j := snd (fst (data_at t j)).
Definition rec_at t j := snd (data_at t j).
Lemma data_at_ok t j : In t trees -> data_of (position_ j) (base_ j) t = Ok (t, ws_at t j, rs_at t j, rec_at t j) /\ length (ws_at t j) = length (bt_comps t).
Proof.
  intros I. destruct (tree_data_ok _ _ _ _ _ _ _ _ _ _ t _ (SC_ j) I) as (ws & rs & rec & E & _ & L & _).
  unfold ws_at, rs_at, rec_at, data_at. rewrite E. auto.
Qed.
(** Which components have a weight. *)
Definition features : list (nat -> bool) :=
  flat_map (fun t => map (fun i j => Rltb 0 (nth i (ws_at t j) 0)) (seq 0 (length (bt_comps t)))) trees.
Lemma features_sign phi t : (forall b, In b features -> forall j, b (phi j) = b (phi 0%nat)) -> In t trees ->
  same_sign (fun j => ws_at t (phi j)) (ws_at t (phi 0%nat)).
Proof.
  intros F I j i. destruct (lt_dec i (length (bt_comps t))) as [Hi|Hi].
  - specialize (F (fun j => Rltb 0 (nth i (ws_at t j) 0))). rewrite <- !Rltb_true. rewrite F; [tauto|].
    apply in_flat_map. exists t. split; auto. apply in_map_iff. exists i. split; auto. apply in_seq. lia.
  - rewrite !nth_overflow; [tauto| |]; rewrite (proj2 (data_at_ok t _ I)); lia.
Qed.
End Mixed.

(** C175: the direction of the avoidance, the averaged normal and the total weight follow the state,
    whatever components gain or lose their weight on the way. *)
Theorem C175_direction_partial : forall orth0 pick sort power radius max_repulsion n position_ base_ position base trees s_ s,
  let angle_of := angle_space pick in
  let data_of := tree_data angle_of power radius max_repulsion in
  let evaluate := evaluate_avoidance orth0 angle_of (get_projected_tangent pick) sort power radius max_repulsion in
  (forall j, scene orth0 angle_of pick sort power radius max_repulsion n (position_ j) (base_ j) trees) ->
  scene orth0 angle_of pick sort power radius max_repulsion n position base trees ->
  cvv base_ base ->
  (forall t ws_ rs_ rec_ ws rs rec, In t trees ->
     (forall j, data_of (position_ j) (base_ j) t = Ok (t, ws_ j, rs_ j, rec_ j)) -> data_of position base t = Ok (t, ws, rs, rec) ->
     cvv ws_ ws /\
     forall i, (i < length (bt_comps t))%nat -> (exists k, 0 < nth i (ws_ k) 0) -> calm position_ base_ position base t i (fun j => nth i (rs_ j) 0) (nth i rs 0)) ->
  (forall wss, Forall2 (fun t ws => tree_obstacle_weights angle_of position base power (mtree_of t) = Ok ws) trees wss ->
     (forall k, nth k (map rsum wss) 0 < 1) -> rsum (map rsum wss) <> 1) ->
  (forall k data tt0 u keys ns,
     Forall2 (fun t d => exists ws0 rs0 rec0 ws rs rec, data_of (position_ k) (base_ k) t = Ok (t, ws0, rs0, rec0) /\ data_of position base t = Ok (t, ws, rs, rec) /\ d = (t, ws0, rs)) trees data ->
     set_root empty_tree base_vel_id base = Ok tt0 -> populate_all (get_projected_tangent pick) tt0 position base 0 data = Ok (u, keys, ns) ->
     no_opposite u /\ distinguishable u) ->
  (forall j, get_end_vector (s_ j) = Ok (base_ j)) -> get_end_vector s = Ok base ->
  exists final_ normals_ cw_ records_ fv_ final normals cw records fv,
    (forall j, evaluate (position_ j) (s_ j) trees = Ok (final_ j, normals_ j, cw_ j, records_ j) /\ get_end_vector (final_ j) = Ok (fv_ j)) /\
    evaluate position s trees = Ok (final, normals, cw, records) /\ get_end_vector final = Ok fv /\
    cvv fv_ fv /\ cvv (fun j => averaged_normal n (normals_ j) (cw_ j)) (averaged_normal n normals cw) /\
    Un_cv (fun j => rsum (cw_ j)) (rsum cw) /\ (cw <> [] -> Un_cv (fun j => rmax_list (cw_ j)) (rmax_list cw)).
Proof.
  cbv zeta. intros orth0 pick sort power radius max_repulsion n position_ base_ position base trees s_ s SC_ SC CB DATA SUM FULL Eb_ Eb.
  set (out_ j := match evaluate_avoidance orth0 (angle_space pick) (get_projected_tangent pick) sort power radius max_repulsion (position_ j) (s_ j) trees with
    Ok (f, ns, cw, rs) => (f, ns, cw, rs) | Err _ => ([], [], [], []) end).
  set (final_ j := fst (fst (fst (out_ j)))). set (normals_ j := snd (fst (fst (out_ j)))). set (cw_ j := snd (fst (out_ j))). set (records_ j := snd (out_ j)).
  set (fv_ j := match get_end_vector (final_ j) with Ok v => v | Err _ => [] end).
  assert (E_ : forall j, evaluate_avoidance orth0 (angle_space pick) (get_projected_tangent pick) sort power radius max_repulsion (position_ j) (s_ j) trees = Ok (final_ j, normals_ j, cw_ j, records_ j) /\
    get_end_vector (final_ j) = Ok (fv_ j)).
  { intros j. destruct (evaluate_avoidance_ok _ _ _ _ _ _ _ _ _ _ _ _ (SC_ j) (Eb_ j)) as (tt & data & f' & ns' & w' & v' & _ & Ev' & _ & _ & _ & _ & _ & _ & _ & _ & Ef' & _).
    unfold fv_, final_, normals_, cw_, records_, out_. rewrite Ev'. cbn [fst snd]. rewrite Ef'. auto. }
  destruct (evaluate_avoidance_ok _ _ _ _ _ _ _ _ _ _ _ _ SC Eb) as (tt & data & final & normals & cw & fv & _ & E & _ & _ & _ & _ & _ & _ & _ & _ & Ef & _).
  exists final_, normals_, cw_, records_, fv_, final, normals, cw, (map snd data), fv. split; [exact E_|]. split; [exact E|]. split; [exact Ef|].
  assert (ALL : forall phi, onward phi -> (forall b, In b (features pick power radius max_repulsion position_ base_ trees) -> forall j, b (phi j) = b (phi 0%nat)) ->
    cvv (fun j => fv_ (phi j)) fv /\ cvv (fun j => averaged_normal n (normals_ (phi j)) (cw_ (phi j))) (averaged_normal n normals cw) /\
    Un_cv (fun j => rsum (cw_ (phi j))) (rsum cw) /\ (cw <> [] -> Un_cv (fun j => rmax_list (cw_ (phi j))) (rmax_list cw))).
  { intros phi O F.
    destruct (C174_direction orth0 pick sort power radius max_repulsion n (fun j => position_ (phi j)) (fun j => base_ (phi j)) position base trees (fun j => s_ (phi j)) s)
      as (f'_ & ns'_ & w'_ & r'_ & v'_ & f' & ns' & w' & r' & v' & H_ & H1 & H2 & A & B & C & D); auto.
    - apply cvv_onward; auto.
    - intros t ws_ rs_ rec_ ws rs rec I D_ D.
      pose proof (fun j => data_at_ok orth0 pick sort power radius max_repulsion n position_ base_ trees SC_ t j I) as K.
      destruct (DATA t _ _ _ ws rs rec I (fun j => proj1 (K j)) D) as (C & Ca).
      assert (Q : forall j, ws_ j = ws_at pick power radius max_repulsion position_ base_ t (phi j) /\ rs_ j = rs_at pick power radius max_repulsion position_ base_ t (phi j)).
      { intros j. specialize (D_ j). rewrite (proj1 (K (phi j))) in D_. injection D_ as <- <- _. auto. }
      split; [apply cvv_ext with (fun j => ws_at pick power radius max_repulsion position_ base_ t (phi j)); [intros j; symmetry; apply Q|]; apply cvv_onward; auto|].
      split; [intros j i; rewrite (proj1 (Q j)), (proj1 (Q 0%nat)); apply (features_sign orth0 pick sort power radius max_repulsion n position_ base_ trees SC_ phi t F I j i)|].
      intros i Hi P. rewrite (proj1 (Q 0%nat)) in P. pose proof (calm_onward _ _ _ _ _ _ _ _ phi O (Ca i Hi (ex_intro _ _ P))) as Cb.
      destruct Cb as (w_ & w & c & Z1 & Z2 & Z3 & Z4 & Z5 & Z6 & Z7 & Z8 & Z9 & Z10). exists w_, w, c. do 7 (split; [auto|]).
      split; [apply cv_ext with (fun j => nth i (rs_at pick power radius max_repulsion position_ base_ t (phi j)) 0); auto; intros j; rewrite (proj2 (Q j)); auto|].
      split; [intros j; rewrite (proj2 (Q j)); apply Z9|exact Z10].
    - apply (FULL (phi 0%nat)).
    - rewrite E in H1. injection H1 as <- <- <- <-. rewrite Ef in H2. injection H2 as <-.
      assert (Q : forall j, ns'_ j = normals_ (phi j) /\ w'_ j = cw_ (phi j) /\ v'_ j = fv_ (phi j)).
      { intros j. destruct (H_ j) as [X Y]. destruct (E_ (phi j)) as [X' Y']. rewrite X' in X. injection X as X1 X2 X3 _. rewrite <- X1, Y' in Y. injection Y as Y1. auto. }
      split; [apply cvv_ext with v'_; auto; intros j; apply Q|].
      split; [apply cvv_ext with (fun j => averaged_normal n (ns'_ j) (w'_ j)); auto; intros j; destruct (Q j) as (-> & -> & _); auto|].
      split; [apply cv_ext with (fun j => rsum (w'_ j)); auto; intros j; destruct (Q j) as (_ & -> & _); auto|].
      intros NE. apply cv_ext with (fun j => rmax_list (w'_ j)); auto. intros j; destruct (Q j) as (_ & -> & _); auto. }
  split; [|split; [|split]].
  - intros i. apply by_features with (1 := fun phi O F => proj1 (ALL phi O F) i).
  - intros i. apply by_features with (1 := fun phi O F => proj1 (proj2 (ALL phi O F)) i).
  - apply by_features with (1 := fun phi O F => proj1 (proj2 (proj2 (ALL phi O F)))).
  - intros NE. apply by_features with (1 := fun phi O F => proj2 (proj2 (proj2 (ALL phi O F))) NE).
Qed.
(** The command can be computed whatever the magnitude. *)
Lemma command_ok orth0 pick sort power radius max_repulsion n position base trees s conv_of conv magnitude env rel :
  scene orth0 (angle_space pick) pick sort power radius max_repulsion n position base trees -> conv_of s = Ok conv -> get_end_vector conv = Ok base ->
  compute_multiobstacle_relative_velocity position env = Ok rel ->
  exists v, evaluate_sequence orth0 (angle_space pick) (get_projected_tangent pick) sort power radius max_repulsion n magnitude (Some s) conv_of position env trees = Ok v.
Proof.
  intros SC Ec Eb Er. destruct (C32_speed_bound_partial orth0 (angle_space pick) pick sort power radius max_repulsion n n 0 s conv_of conv position env rel base trees) as (v & m & cw & Ev & _); auto; [lra|].
  destruct (evaluate_avoidance_ok _ _ _ _ _ _ _ _ _ _ _ _ SC Eb) as (tt & data & f & ns & w & u & _ & E & _ & _ & _ & _ & _ & _ & _ & _ & Ef & _).
  unfold evaluate_sequence in *. destruct trees as [|t ts]; [destruct (sc_trees _ _ _ _ _ _ _ _ _ _ _ SC); auto|].
  rewrite Er in *. cbn [bind] in *. rewrite Ec in *. cbn [bind] in *. rewrite E in *. cbn [bind] in *. rewrite Ef in *. cbn [bind] in *.
  unfold scaled_velocity in *. destruct w as [|a l]; [eauto|]. destruct (fdiv 1 _); [|discriminate]. cbn [bind] in *. destruct (slowfactor_from_convergence _ _); [|discriminate]. cbn [bind] in *.
  destruct (Req_EM_T _ _); [discriminate|]. eauto.
Qed.
Lemma steady_onward v a g_ g phi : onward phi -> steady_pace v a g_ g -> steady_pace v a (fun j => g_ (phi j)) g.
Proof.
  intros O [H|[H|[H K]]]; [left; auto|right; left; auto|]. right. right. split; auto. destruct K as [K|[K|[(N & K) L]]]; auto.
  right. right. split; auto. exists N. intros j Hj. apply K. specialize (O j). lia.
Qed.
(** C175: the commanded velocity follows the state, whatever components gain or lose their weight on
    the way, as long as one has a weight at the limit. *)
Theorem C175_velocity_partial : forall orth0 pick sort power radius max_repulsion n position_ base_ position base trees s_ s conv_of conv_ conv
    magnitude_ magnitude env_ env relative_ relative,
  let angle_of := angle_space pick in
  let data_of := tree_data angle_of power radius max_repulsion in
  let evaluate := evaluate_avoidance orth0 angle_of (get_projected_tangent pick) sort power radius max_repulsion in
  let command := evaluate_sequence orth0 angle_of (get_projected_tangent pick) sort power radius max_repulsion n in
  (forall j, scene orth0 angle_of pick sort power radius max_repulsion n (position_ j) (base_ j) trees) ->
  scene orth0 angle_of pick sort power radius max_repulsion n position base trees ->
  cvv base_ base ->
  (forall t ws_ rs_ rec_ ws rs rec, In t trees ->
     (forall j, data_of (position_ j) (base_ j) t = Ok (t, ws_ j, rs_ j, rec_ j)) -> data_of position base t = Ok (t, ws, rs, rec) ->
     cvv ws_ ws /\
     (forall i, (i < length (bt_comps t))%nat -> (exists k, 0 < nth i (ws_ k) 0) -> calm position_ base_ position base t i (fun j => nth i (rs_ j) 0) (nth i rs 0)) /\
     Un_cv (fun j => fst (rec_ j)) (fst rec) /\ Un_cv (fun j => snd (rec_ j)) (snd rec) /\ rec <> (0, 1)) ->
  (forall wss, Forall2 (fun t ws => tree_obstacle_weights angle_of position base power (mtree_of t) = Ok ws) trees wss ->
     (forall k, nth k (map rsum wss) 0 < 1) -> rsum (map rsum wss) <> 1) ->
  (forall k data tt0 u keys ns,
     Forall2 (fun t d => exists ws0 rs0 rec0 ws rs rec, data_of (position_ k) (base_ k) t = Ok (t, ws0, rs0, rec0) /\ data_of position base t = Ok (t, ws, rs, rec) /\ d = (t, ws0, rs)) trees data ->
     set_root empty_tree base_vel_id base = Ok tt0 -> populate_all (get_projected_tangent pick) tt0 position base 0 data = Ok (u, keys, ns) ->
     no_opposite u /\ distinguishable u) ->
  (forall j, conv_of (s_ j) = Ok (conv_ j) /\ get_end_vector (conv_ j) = Ok (base_ j)) -> conv_of s = Ok conv -> get_end_vector conv = Ok base ->
  Un_cv magnitude_ magnitude -> cvv relative_ relative ->
  (forall j, compute_multiobstacle_relative_velocity (position_ j) (env_ j) = Ok (relative_ j)) -> compute_multiobstacle_relative_velocity position env = Ok relative ->
  (forall cw_ final normals cw records fv, (forall j, exists f ns rs, evaluate (position_ j) (conv_ j) trees = Ok (f, ns, cw_ j, rs)) ->
     evaluate position conv trees = Ok (final, normals, cw, records) -> get_end_vector final = Ok fv ->
     cw <> [] /\ steady_pace fv (averaged_normal n normals cw) (fun j => 1 / rmax_list (cw_ j)) (1 / rmax_list cw)) ->
  exists out_ out,
    (forall j, command (magnitude_ j) (Some (s_ j)) conv_of (position_ j) (env_ j) trees = Ok (out_ j)) /\
    command magnitude (Some s) conv_of position env trees = Ok out /\ cvv out_ out.
Proof.
  cbv zeta. intros orth0 pick sort power radius max_repulsion n position_ base_ position base trees s_ s conv_of conv_ conv magnitude_ magnitude env_ env relative_ relative
    SC_ SC CB DATA SUM FULL EC_ EC EB CM CR ER_ ER PACE.
  set (out_ j := match evaluate_sequence orth0 (angle_space pick) (get_projected_tangent pick) sort power radius max_repulsion n (magnitude_ j) (Some (s_ j)) conv_of (position_ j) (env_ j) trees with
    Ok v => v | Err _ => [] end).
  assert (O_ : forall j, evaluate_sequence orth0 (angle_space pick) (get_projected_tangent pick) sort power radius max_repulsion n (magnitude_ j) (Some (s_ j)) conv_of (position_ j) (env_ j) trees = Ok (out_ j)).
  { intros j. destruct (EC_ j) as [X Y]. destruct (command_ok _ _ _ _ _ _ _ _ _ _ _ _ _ (magnitude_ j) _ _ (SC_ j) X Y (ER_ j)) as (v & E). unfold out_. rewrite E. auto. }
  destruct (command_ok _ _ _ _ _ _ _ _ _ _ _ _ _ magnitude _ _ SC EC EB ER) as (out & EO). exists out_, out. split; auto. split; auto.
  set (cw_ j := match evaluate_avoidance orth0 (angle_space pick) (get_projected_tangent pick) sort power radius max_repulsion (position_ j) (conv_ j) trees with
    Ok (_, _, cw, _) => cw | Err _ => [] end).
  assert (W_ : forall j, exists f ns rs, evaluate_avoidance orth0 (angle_space pick) (get_projected_tangent pick) sort power radius max_repulsion (position_ j) (conv_ j) trees = Ok (f, ns, cw_ j, rs)).
  { intros j. destruct (evaluate_avoidance_ok _ _ _ _ _ _ _ _ _ _ _ _ (SC_ j) (proj2 (EC_ j))) as (tt & data & f & ns & w & v & _ & E & _). exists f, ns, (map snd data). unfold cw_. rewrite E. auto. }
  intros i. apply by_features with (features pick power radius max_repulsion position_ base_ trees). intros phi O F.
  destruct (C174_velocity orth0 pick sort power radius max_repulsion n (fun j => position_ (phi j)) (fun j => base_ (phi j)) position base trees (fun j => s_ (phi j)) s conv_of (fun j => conv_ (phi j)) conv
    (fun j => magnitude_ (phi j)) magnitude (fun j => env_ (phi j)) env (fun j => relative_ (phi j)) relative) as (o'_ & o' & H_ & H & C); auto.
  - apply cvv_onward; auto.
  - intros t ws_ rs_ rec_ ws rs rec I D_ D.
    pose proof (fun j => data_at_ok orth0 pick sort power radius max_repulsion n position_ base_ trees SC_ t j I) as K.
    destruct (DATA t _ _ _ ws rs rec I (fun j => proj1 (K j)) D) as (C & Ca & R1 & R2 & R3).
    assert (Q : forall j, ws_ j = ws_at pick power radius max_repulsion position_ base_ t (phi j) /\ rs_ j = rs_at pick power radius max_repulsion position_ base_ t (phi j) /\
      rec_ j = rec_at pick power radius max_repulsion position_ base_ t (phi j)).
    { intros j. specialize (D_ j). rewrite (proj1 (K (phi j))) in D_. injection D_ as <- <- X. auto. }
    split; [apply cvv_ext with (fun j => ws_at pick power radius max_repulsion position_ base_ t (phi j)); [intros j; symmetry; apply Q|]; apply cvv_onward; auto|].
    split; [intros j k; rewrite (proj1 (Q j)), (proj1 (Q 0%nat)); apply (features_sign orth0 pick sort power radius max_repulsion n position_ base_ trees SC_ phi t F I j k)|].
    split.
    { intros k Hk P. rewrite (proj1 (Q 0%nat)) in P. pose proof (calm_onward _ _ _ _ _ _ _ _ phi O (Ca k Hk (ex_intro _ _ P))) as Cb.
      destruct Cb as (w_ & w & c & Z1 & Z2 & Z3 & Z4 & Z5 & Z6 & Z7 & Z8 & Z9 & Z10). exists w_, w, c. do 7 (split; [auto|]).
      split; [apply cv_ext with (fun j => nth k (rs_at pick power radius max_repulsion position_ base_ t (phi j)) 0); auto; intros j; destruct (Q j) as (_ & -> & _); auto|].
      split; [intros j; destruct (Q j) as (_ & -> & _); apply Z9|exact Z10]. }
    split; [apply cv_ext with (fun j => fst (rec_at pick power radius max_repulsion position_ base_ t (phi j))); [intros j; destruct (Q j) as (_ & _ & ->); auto|apply (cv_onward (fun j => fst (rec_at pick power radius max_repulsion position_ base_ t j))); auto]|].
    split; [apply cv_ext with (fun j => snd (rec_at pick power radius max_repulsion position_ base_ t (phi j))); [intros j; destruct (Q j) as (_ & _ & ->); auto|apply (cv_onward (fun j => snd (rec_at pick power radius max_repulsion position_ base_ t j))); auto]|auto].
  - apply (FULL (phi 0%nat)).
  - apply (cv_onward magnitude_); auto.
  - apply (cvv_onward relative_); auto.
  - intros w'_ final normals cw records fv E_ E Ef. destruct (PACE cw_ final normals cw records fv W_ E Ef) as [NE P]. split; auto.
    assert (Q : forall j, w'_ j = cw_ (phi j)).
    { intros j. destruct (E_ j) as (f & ns & rs & X). destruct (W_ (phi j)) as (f' & ns' & rs' & Y). rewrite X in Y. injection Y as _ _ Z _. auto. }
    apply (steady_onward _ _ _ _ phi O) in P. destruct P as [P|[P|[P K]]]; [left; auto|right; left; auto|]. right. right. split; auto. destruct K as [K|[K|[(N & K) L]]]; auto.
    right. right. split; auto. exists N. intros j Hj. rewrite Q. auto.
  - rewrite EO in H. injection H as <-. apply cv_ext with (fun j => nth i (o'_ j) 0); [|apply C]. intros j. specialize (H_ j). rewrite O_ in H_. injection H_ as ->. auto.
Qed.
(** Two banks: the weight of the left one comes and goes infinitely often. *)
Definition wavering (j : nat) : vec := if Nat.even j then heading (dying j) else [1; 0].
Example C175_case : forall orth0 s_ s, (forall v, length (orth0 v) = length v) ->
  (forall j, get_end_vector (s_ j) = Ok (wavering j)) -> get_end_vector s = Ok [1; 0] ->
  let command := evaluate_sequence orth0 (angle_space left_of) (get_projected_tangent left_of) sort_by_level 1 (PI * / 2) None 2 in
  (forall j, exists w, turn_weight [1; 0] 2 (wavering j) = Ok w /\ (Nat.even j = true -> 0 < w) /\ (Nat.even j = false -> w = 0)) /\
  exists out_ out, (forall j, command 2 (Some (s_ j)) (fun s => Ok s) [3; 3] [] [bank [1; 0] 2; bank [0; 1] 2] = Ok (out_ j)) /\
    command 2 (Some s) (fun s => Ok s) [3; 3] [] [bank [1; 0] 2; bank [0; 1] 2] = Ok out /\ cvv out_ out.
Proof.
  intros orth0 s_ s Ho Es_ Es. cbv zeta. set (bs := [([1; 0], 2); ([0; 1], 2)]).
  assert (U1 : unitv [1; 0]) by (unfold unitv, dot; simpl; ring). assert (U2 : unitv [0; 1]) by (unfold unitv, dot; simpl; ring).
  assert (D1 : forall a, dot (heading a) [1; 0] = cos a) by (intros a; unfold heading, dot; simpl; ring). assert (D2 : forall a, dot (heading a) [0; 1] = sin a) by (intros a; unfold heading, dot; simpl; ring).
  assert (Z1 : dot [1; 0] [1; 0] = 1) by (unfold dot; simpl; ring). assert (Z2 : dot [1; 0] [0; 1] = 0) by (unfold dot; simpl; ring). assert (Z3 : dot [0; 1] [1; 0] = 0) by (unfold dot; simpl; ring).
  assert (H : forall j, length (wavering j) = 2%nat /\ unitv (wavering j) /\ (Nat.even j = true -> dot (wavering j) [1; 0] < 1) /\ (Nat.even j = false -> dot (wavering j) [1; 0] = 1) /\
    0 <= dot (wavering j) [1; 0] /\ 0 <= dot (wavering j) [0; 1]).
  { intros j. unfold wavering. destruct (heading_facts (dying j) (dying_range j)) as (A & B & C & C'). destruct (Nat.even j); [rewrite D1, D2|rewrite Z1, Z2]; repeat split; auto; try lra; try discriminate. }
  assert (CV : cvv wavering [1; 0]).
  { intros i e He. destruct (heading_cv i e He) as (N & HN). exists N. intros j Hj. unfold wavering. destruct (Nat.even j); [apply HN; auto|]. unfold R_dist. rewrite Rminus_diag_eq, Rabs_R0; auto. }
  split.
  { intros j. destruct (H j) as (A & B & C1 & C2 & C3 & _). destruct (bank_weight [1; 0] 2 (wavering j)) as (w & E & K1 & K2 & _); auto; try lra. exists w. auto. }
  destruct (bank_weight [1; 0] 2 [1; 0]) as (wa & Ea & _ & Ka & _); auto; try lra. rewrite Ka in Ea by auto.
  destruct (bank_weight [0; 1] 2 [1; 0]) as (wb & Eb & _ & _ & Kb); auto; try lra. rewrite Kb in Eb by auto.
  assert (SCE : forall b, length b = 2%nat -> unitv b -> 0 <= dot b [1; 0] -> 0 <= dot b [0; 1] ->
    scene orth0 (angle_space left_of) left_of sort_by_level 1 (PI * / 2) None 2 [3; 3] b (map (fun b => bank (fst b) (snd b)) bs)).
  { intros b L U P1 P2. apply bank_scene; auto; try lra; [discriminate|]. intros c [<-|[<-|[]]]; cbn [fst snd]; rewrite dot_comm; do 2 (split; auto); lra. }
  assert (SC_ : forall j, scene orth0 (angle_space left_of) left_of sort_by_level 1 (PI * / 2) None 2 [3; 3] (wavering j) (map (fun b => bank (fst b) (snd b)) bs)) by (intros j; destruct (H j) as (A & B & _ & _ & C & C'); auto).
  assert (SC : scene orth0 (angle_space left_of) left_of sort_by_level 1 (PI * / 2) None 2 [3; 3] [1; 0] (map (fun b => bank (fst b) (snd b)) bs)) by (apply SCE; auto; lra).
  assert (W1 : forall d, tree_data (angle_space left_of) 1 (PI * / 2) None [3; 3] [1; 0] (bank [1; 0] 2) = Ok d -> snd (fst (fst d)) = [0] /\ tree_obstacle_weights (angle_space left_of) [3; 3] [1; 0] 1 (mtree_of (bank [1; 0] 2)) = Ok [0]).
  { intros d Ed. apply bank_data in Ed as (w & Ew & -> & Et); auto; try lra. rewrite Ea in Ew. injection Ew as <-. auto. }
  assert (W2 : forall d, tree_data (angle_space left_of) 1 (PI * / 2) None [3; 3] [1; 0] (bank [0; 1] 2) = Ok d -> snd (fst (fst d)) = [1 / 2] /\ tree_obstacle_weights (angle_space left_of) [3; 3] [1; 0] 1 (mtree_of (bank [0; 1] 2)) = Ok [1 / 2]).
  { intros d Ed. apply bank_data in Ed as (w & Ew & -> & Et); auto; try lra. rewrite Eb in Ew. injection Ew as <-. auto. }
  apply (C175_velocity_partial orth0 left_of sort_by_level 1 (PI * / 2) None 2 (fun _ => [3; 3]) wavering [3; 3] [1; 0] (map (fun b => bank (fst b) (snd b)) bs) s_ s
    (fun s => Ok s) s_ s (fun _ => 2) 2 (fun _ => []) [] (fun _ => vzero 2) (vzero 2)); auto.
  - intros t ws_ rs_ rec_ ws rs rec I D_ D. assert (K : exists nn, unitv nn /\ t = bank nn 2 /\ length nn = 2%nat /\ (forall j, 0 <= dot (wavering j) nn) /\ 0 <= dot [1; 0] nn).
    { destruct I as [<-|[<-|[]]]; [exists [1; 0]|exists [0; 1]]; cbn [fst snd]; do 3 (split; auto); (split; [intros j; apply (H j)|lra]). }
    destruct K as (nn & Un & -> & Ln & P_ & P).
    destruct (bank_follow nn 2 wavering [1; 0]) with (ws_ := ws_) (rs_ := rs_) (rec_ := rec_) (ws := ws) (rs := rs) (rec := rec) as (A & B & C & E); auto; try lra.
    intros j. destruct (H j) as (A & B & _). auto.
  - intros wss F _. inversion F as [|t1 ws1 ts1 wss1 Q1 F1]; subst. inversion F1 as [|t2 ws2 ts2 wss2 Q2 F2]; subst. inversion F2; subst. cbn [fst snd] in *.
    destruct (tree_data_ok _ _ _ _ _ _ _ _ _ _ (bank [1; 0] 2) _ SC) as (x1 & y1 & z1 & X1 & _); [left; auto|]. destruct (tree_data_ok _ _ _ _ _ _ _ _ _ _ (bank [0; 1] 2) _ SC) as (x2 & y2 & z2 & X2 & _); [right; left; auto|].
    rewrite (proj2 (W1 _ X1)) in Q1. injection Q1 as <-. rewrite (proj2 (W2 _ X2)) in Q2. injection Q2 as <-. simpl. lra.
  - intros k data tt0 u keys ns F E0 P. apply (bank_full [1; 0] data tt0 u keys ns bs (wavering k)); auto.
    intros b [<-|[<-|[]]]; cbn [fst snd]; rewrite ?Z1, ?Z3; lra.
  - apply cv_const.
  - apply cvv_const.
  - intros j. apply far_relative.
  - apply far_relative.
  - intros cw_ final normals cw records fv _ Ev Ef. apply (bank_pace orth0 s Ho Es _ final normals cw records fv); auto.
Qed.
Print Assumptions C175_direction_partial.
Print Assumptions C175_velocity_partial.
