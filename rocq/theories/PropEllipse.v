(** Properties C117, C118: obstacles of several ellipses. *)
Require Import Reals List Bool Arith ZArith Lra Lia Psatz.
From Verif Require Import Base Vec RotModel Spec RotProofs WeightModel WeightProofs ContainerModel ContainerProofs ShapeModel.
Import ListNotations.
Open Scope R_scope.

(** * C117: the tree of the components *)
(** A second root is rejected unless the first one is the component zero, and a component which has a parent
    other than zero, or is the root, gets no other parent; the state is kept. *)
Theorem C117_rejected_partial intersect s i p k r :
  (el_root s = Some r -> r <> 0%Z -> el_set_root s i = (s, Err ENotImpl)) /\
  (py_index (length (el_parent s)) i = Some k -> nth k (el_parent s) None = Some r -> r <> 0%Z ->
     el_set_parent intersect s i p = (s, Err ENotImpl)).
Proof.
  split.
  - intros E N. unfold el_set_root. rewrite E. cbn [truthy]. rewrite (proj2 (Z.eqb_neq r 0)); auto.
  - intros E F N. unfold el_set_parent. rewrite E, F. cbn [truthy]. rewrite (proj2 (Z.eqb_neq r 0)); auto.
Qed.
(** Three components, the first one as root. *)
Definition ex_three : ellipses := fst (el_set_root (el_append (el_append (el_append el_empty))) 0).
Example C117_rejected_example : el_set_parent (fun _ _ => true) ex_three 0 1 = (ex_three, Err ENotImpl) /\
  el_set_root (fst (el_set_root (el_append (el_append el_empty)) 1)) 0 = (fst (el_set_root (el_append (el_append el_empty)) 1), Err ENotImpl).
Proof.
  split.
  - apply (proj2 (C117_rejected_partial (fun _ _ => true) ex_three 0 1 0 (-1))); auto. lia.
  - apply (proj1 (C117_rejected_partial (fun _ _ => true) (fst (el_set_root (el_append (el_append el_empty)) 1)) 0 0 0 1)); auto. lia.
Qed.
(** The component zero as root is replaced, and both are marked as root. *)
Theorem C117_second_root_refuted : exists s, el_set_root ex_three 1 = (s, Ok tt) /\
  el_root s = Some 1%Z /\ el_get_parent s 0 = Ok (Some (-1)%Z) /\ el_get_parent s 1 = Ok (Some (-1)%Z).
Proof. eexists. split; [reflexivity|]. vm_compute. auto. Qed.
(** A child of the component zero gets a second parent, and is a child of both. *)
Theorem C117_second_parent_refuted : exists s, el_set_parent (fun _ _ => true) (fst (el_set_parent (fun _ _ => true) ex_three 1 0)) 1 2 = (s, Ok tt) /\
  el_get_parent s 1 = Ok (Some 2%Z) /\ In 1%Z (nth 0 (el_children s) []) /\ In 1%Z (nth 2 (el_children s) []).
Proof. eexists. split; [reflexivity|]. vm_compute. auto. Qed.
(** A parent which does not intersect raises, but is kept as parent. *)
Theorem C117_failed_parent_refuted : exists s, el_set_parent (fun _ _ => false) ex_three 1 2 = (s, Err EType) /\
  s <> ex_three /\ el_get_parent s 1 = Ok (Some 2%Z) /\ nth 2 (el_children s) [] = [1%Z].
Proof. eexists. split; [reflexivity|]. split; [discriminate|]. repeat split. Qed.
(** The parent of the root is -1 and not None, which is read as the last component: once every component has a parent, the
    way to the root never ends. *)
Theorem C117_way_refuted s i :
  (forall k, (k < length (el_parent s))%nat -> exists p, nth_error (el_parent s) k = Some (Some p) /\ (- Z.of_nat (length (el_parent s)) <= p < Z.of_nat (length (el_parent s)))%Z) ->
  (- Z.of_nat (length (el_parent s)) <= i < Z.of_nat (length (el_parent s)))%Z ->
  forall fuel, exists l, way_up (el_get_parent s) i fuel = Ok (l, false) /\ length l = fuel.
Proof.
  intros H Hi fuel. revert i Hi. induction fuel as [|fuel IH]; intros i Hi; cbn [way_up]; [exists []; auto|].
  assert (P : exists p, el_get_parent s i = Ok (Some p) /\ (- Z.of_nat (length (el_parent s)) <= p < Z.of_nat (length (el_parent s)))%Z).
  { unfold el_get_parent, py_nth, py_index. destruct (Z.leb_spec 0 i) as [C|C].
    - rewrite (proj2 (Z.ltb_lt i _)) by lia. cbn [andb]. destruct (H (Z.to_nat i) ltac:(lia)) as (p & E & B). exists p. rewrite E. auto.
    - cbn [andb]. rewrite (proj2 (Z.leb_le _ i)), (proj2 (Z.ltb_lt i 0)) by lia. cbn [andb].
      destruct (H (Z.to_nat (Z.of_nat (length (el_parent s)) + i)) ltac:(lia)) as (p & E & B). exists p. rewrite E. auto. }
  destruct P as (p & E & B). rewrite E. cbn [bind]. destruct (IH p B) as (l & F & L). rewrite F. cbn [bind fst snd].
  exists (i :: l). split; auto. cbn. lia.
Qed.
Example C117_way_example :
  way_up (el_get_parent (fst (el_set_parent (fun _ _ => true) (fst (el_set_parent (fun _ _ => true) ex_three 1 0)) 2 0))) 1 5 =
  Ok ([1; 0; -1; 0; -1]%Z, false).
Proof. reflexivity. Qed.
(** A position is inside exactly when it is inside of some component. *)
Theorem C117_inside gammas x : gammas <> [] ->
  exists b, el_is_inside gammas x = Ok b /\ (b = true <-> exists g, In g gammas /\ g x <= 1).
Proof.
  intros N. unfold el_is_inside, el_gamma, min_of. set (l := map (fun g => g x) gammas).
  assert (M : l <> []) by (unfold l; destruct gammas; [congruence|discriminate]).
  destruct l as [|a l'] eqn:E; [congruence|]. rewrite <- E in *. cbn [bind]. eexists. split; [reflexivity|].
  rewrite Rleb_true. split.
  - intros H. pose proof (rmin_list_in l M) as I. unfold l in I at 2. apply in_map_iff in I as (g & G & I). exists g. rewrite G. auto.
  - intros (g & G & H). assert (In (g x) l) as I by (apply (in_map (fun g => g x)); auto). pose proof (rmin_list_le l _ I). lra.
Qed.
Example C117_inside_example : el_is_inside [(fun _ => 2); (fun x => nth 0 x 0)] [0.5] = Ok true.
Proof.
  destruct (C117_inside [(fun _ => 2); (fun x => nth 0 x 0)] [0.5] ltac:(discriminate)) as (b & A & B). rewrite A. f_equal. apply B.
  exists (fun x => nth 0 x 0). split; [right; left; auto|]. cbn. lra.
Qed.

(** * C118: tangents and intersections *)
(** [basis @ coefs]. *)
Definition combination (coefs : list R) (columns : list vec) (n : nat) : vec :=
  fold_right vadd (vzero n) (map (fun p => vscale (fst p) (snd p)) (combine coefs columns)).
Lemma combination_length coefs columns n : (forall c, In c columns -> length c = n) -> length (combination coefs columns n) = n.
Proof.
  intros H. unfold combination. revert columns H. induction coefs as [|a coefs IH]; intros [|c columns] H; cbn [combine map fold_right fst snd]; try apply length_vzero.
  rewrite length_vadd, IH, length_vscale, (H c) by (cbn; auto; intros; apply H; right; auto). lia.
Qed.
Lemma combination_dot u coefs columns n : (forall c, In c columns -> dot u c = 0) -> dot u (combination coefs columns n) = 0.
Proof.
  unfold combination. revert columns. induction coefs as [|a coefs IH]; intros [|c columns] H; cbn [combine map fold_right fst snd]; try apply dot_vzero_r.
  rewrite dot_vadd_r, dot_vscale_r, IH, (H c) by (cbn; auto; intros; apply H; right; auto). ring.
Qed.

(** The tangent is the vector without its part along the reference direction: of unit length, perpendicular to
    the normal, and undefined exactly for a vector along the reference direction.  The columns are a basis, with which the vector is
    written. *)
Theorem C118_tangent pinv_times tail normal v reference n :
  length v = n -> length reference = n -> (forall c, In c tail -> length c = n) ->
  (forall c, In c tail -> dot normal c = 0) -> dot normal reference <> 0 ->
  length (pinv_times (reference :: tail) v) = S (length tail) ->
  combination (pinv_times (reference :: tail) v) (reference :: tail) n = v ->
  let raw := vsub v (vscale (dot normal v / dot normal reference) reference) in
  (raw = vzero n -> tangent_component pinv_times tail v reference = Err EExc) /\
  (raw <> vzero n -> exists t, tangent_component pinv_times tail v reference = Ok t /\ unitv t /\ dot normal t = 0 /\
     raw = vscale (norm raw) t /\ 0 < norm raw).
Proof.
  intros Lv Lr Lt Ht Hr Lc Hc raw. unfold tangent_component.
  destruct (pinv_times (reference :: tail) v) as [|c0 coefs] eqn:E; [discriminate|].
  set (tangent := fold_right _ _ _).
  assert (T : tangent = combination coefs tail n).
  { unfold tangent, combination. rewrite Lv. cbn [combine map fold_right fst snd]. fold (combination coefs tail n).
    pose proof (combination_length coefs tail n Lt) as L. vext. ring. }
  assert (V : v = vadd (vscale c0 reference) (combination coefs tail n)) by (rewrite <- Hc at 1; reflexivity).
  assert (C0 : c0 = dot normal v / dot normal reference).
  { rewrite V at 1. rewrite dot_vadd_r, dot_vscale_r, (combination_dot normal coefs tail n Ht). field. auto. }
  assert (R : tangent = raw).
  { unfold raw. rewrite <- C0, T. pose proof (combination_length coefs tail n Lt) as L. rewrite V at 1. vext. ring. }
  assert (LR : length raw = n) by (rewrite <- R, T; apply combination_length; auto).
  rewrite R. destruct (Req_EM_T (norm raw) 0) as [Z|Z].
  - split; auto. intros N. apply norm_zero_iff in Z. rewrite LR in Z. congruence.
  - pose proof (norm_nonneg raw) as P. split.
    + intros F. exfalso. apply Z. rewrite F. apply norm_vzero.
    + intros _. eexists. split; [reflexivity|]. split; [apply unit_vdiv; auto|]. split; [|split; [|lra]].
      * unfold vdiv. rewrite dot_vscale_r, <- R, T, (combination_dot normal coefs tail n Ht). ring.
      * unfold vdiv. vext. field. auto.
Qed.
Example C118_tangent_example : exists t,
  tangent_component (fun _ _ => [2; 1]) [[0; 1]] [2; 3] [1; 1] = Ok t /\ unitv t /\ dot [1; 0] t = 0.
Proof.
  destruct (C118_tangent (fun _ _ => [2; 1]) [[0; 1]] [1; 0] [2; 3] [1; 1] 2) as [_ H]; auto.
  - intros c [<-|[]]. auto.
  - intros c [<-|[]]. cbn. ring.
  - cbn. lra.
  - unfold combination. cbn. apply f_equal2; [ring|apply f_equal2; [ring|auto]].
  - destruct H as (t & A & B & C & _); [|exists t; auto]. intros F. apply (f_equal (fun l => nth 1 l 0)) in F. unfold vsub in F. cbn in F.
    replace ((1 * 2 + (0 * 3 + 0)) / (1 * 1 + (0 * 1 + 0))) with 2 in F by field. lra.
Qed.

(** A point of the line through [p] with the direction [d]. *)
Definition on_line (p d q : vec) (t : R) : Prop := length q = length p /\ forall i, nth i q 0 = nth i p 0 + t * nth i d 0.
(** The ellipse with the given axes: the sum of the squared quotients of the coordinates and half of the axes. *)
Fixpoint ellipse_value (q axes : vec) : R :=
  match q, axes with x :: q', a :: axes' => (2 * x / a) * (2 * x / a) + ellipse_value q' axes' | _, _ => 0 end.
Lemma nth_cquot u : forall v i, length u = length v -> nth i (cquot u v) 0 = if Nat.ltb i (length u) then nth i u 0 / nth i v 0 else 0.
Proof.
  induction u as [|a u IH]; intros [|b v] i L; try discriminate; [destruct i; auto|]. destruct i; cbn [cquot nth length]; auto.
  rewrite IH by (cbn in L; lia). auto.
Qed.
Lemma nth_ctimes u : forall v i, length u = length v -> nth i (ctimes u v) 0 = nth i u 0 * nth i v 0.
Proof.
  induction u as [|a u IH]; intros [|b v] i L; try discriminate; [destruct i; cbn; ring|]. destruct i; cbn [ctimes nth]; auto.
Qed.
Lemma length_cquot u : forall v, length u = length v -> length (cquot u v) = length u.
Proof. induction u as [|a u IH]; intros [|b v] L; try discriminate; cbn; auto. Qed.
Lemma length_ctimes u : forall v, length u = length v -> length (ctimes u v) = length u.
Proof. induction u as [|a u IH]; intros [|b v] L; try discriminate; cbn; auto. Qed.
Lemma ellipse_value_circle q : forall axes, length q = length axes -> Forall (fun a => 0 < a) axes -> ellipse_value (ctimes q axes) axes = 4 * dot q q.
Proof.
  induction q as [|x q IH]; intros [|a axes] L F; try discriminate; [cbn; ring|]. inversion F; subst. cbn [ctimes ellipse_value dot].
  rewrite IH by (cbn in L; auto; lia). cbn. field. lra.
Qed.
(** The intersection with an ellipse is a point of the ellipse on the given line, at the parameter of the intersection with the circle; so
    the nearer point stays the nearer one. *)
Theorem C118_ellipse circle axes position direction n :
  length axes = n -> length position = n -> length direction = n -> Forall (fun a => 0 < a) axes ->
  (forall p d r q, circle p d r = Some q -> dot q q = r * r /\ exists t, on_line p d q t) ->
  (forall q, ellipse_intersection circle axes position direction = Some q ->
     ellipse_value q axes = 1 /\
     exists t q', circle (cquot position axes) (cquot direction axes) 0.5 = Some q' /\ on_line (cquot position axes) (cquot direction axes) q' t /\ on_line position direction q t) /\
  (ellipse_intersection circle axes position direction = None <-> circle (cquot position axes) (cquot direction axes) 0.5 = None).
Proof.
  intros La Lp Ld FA HC. unfold ellipse_intersection. split.
  - intros q E. destruct (circle (cquot position axes) (cquot direction axes) 0.5) as [q'|] eqn:C; [|discriminate]. injection E as <-.
    destruct (HC _ _ _ _ C) as [N (t & L & H)]. rewrite length_cquot in L by lia. split.
    + rewrite ellipse_value_circle; auto; [|lia]. rewrite N. lra.
    + exists t, q'. split; auto. split; [split; auto; rewrite length_cquot; lia|]. split; [rewrite length_ctimes; lia|].
      intros i. rewrite nth_ctimes, H, !nth_cquot by lia. destruct (Nat.ltb_spec i (length position)) as [I|I].
      * rewrite (proj2 (Nat.ltb_lt i (length direction))) by lia.
        assert (A : 0 < nth i axes 0). { rewrite Forall_forall in FA. apply FA, nth_In. lia. }
        field. lra.
      * rewrite (proj2 (Nat.ltb_ge i (length direction))), (nth_overflow position), (nth_overflow direction) by lia. ring.
  - destruct (circle _ _ _); split; auto; discriminate.
Qed.
(** In the global frame the point is on the line as well, and on the moved ellipse. *)
Lemma turn_back a v : length v = 2%nat -> turn a (turn (- a) v) = v.
Proof.
  destruct v as [|v0 [|v1 [|? ?]]]; try discriminate. intros _. unfold turn. cbn. rewrite cos_neg, sin_neg. pose proof (sin2_cos2 a) as C. unfold Rsqr in C.
  apply f_equal2; [|apply f_equal2; auto].
  - match goal with |- ?x = ?y => enough (x - y = ((sin a * sin a + cos a * cos a) - 1) * v0) as E; [rewrite C in E; lra|ring] end.
  - match goal with |- ?x = ?y => enough (x - y = ((sin a * sin a + cos a * cos a) - 1) * v1) as E; [rewrite C in E; lra|ring] end.
Qed.
Theorem C118_ellipse_global circle p axes position direction :
  length (p_pos p) = 2%nat -> length axes = 2%nat -> length position = 2%nat -> length direction = 2%nat -> Forall (fun a => 0 < a) axes ->
  (forall p d r q, circle p d r = Some q -> dot q q = r * r /\ exists t, on_line p d q t) ->
  forall q, ellipse_intersection_global circle p axes position direction = Some q ->
    ellipse_value (planar_to_relative p q) axes = 1 /\ exists t, on_line position direction q t.
Proof.
  intros Lp La Lx Ld FA HC q E. unfold ellipse_intersection_global in E.
  assert (L1 : length (planar_to_relative p position) = 2%nat) by reflexivity.
  assert (L2 : length (turn (- p_rot p) direction) = 2%nat) by reflexivity.
  destruct (C118_ellipse circle axes (planar_to_relative p position) (turn (- p_rot p) direction) 2 La L1 L2 FA HC) as [H _].
  destruct (ellipse_intersection circle axes (planar_to_relative p position) (turn (- p_rot p) direction)) as [q'|] eqn:Q; [|discriminate].
  injection E as <-. destruct (H q' eq_refl) as (V & t & q'' & _ & _ & (L & O)). rewrite L1 in L.
  destruct p as [[|p0 [|p1 [|? ?]]] a]; try discriminate. destruct position as [|x0 [|x1 [|? ?]]]; try discriminate. destruct direction as [|d0 [|d1 [|? ?]]]; try discriminate.
  pose proof (sin2_cos2 a) as C. unfold Rsqr in C. split.
  - replace (planar_to_relative (mkPose [p0; p1] a) (from_relative turn (mkPose [p0; p1] a) q')) with q'; auto.
    destruct q' as [|y0 [|y1 [|? ?]]]; try discriminate. unfold planar_to_relative, from_relative, turn, vsub. cbn. rewrite cos_neg, sin_neg.
    apply f_equal2; [|apply f_equal2; auto].
    + match goal with |- ?x = ?y => enough (y - x = ((sin a * sin a + cos a * cos a) - 1) * y0) as E; [rewrite C in E; lra|ring] end.
    + match goal with |- ?x = ?y => enough (y - x = ((sin a * sin a + cos a * cos a) - 1) * y1) as E; [rewrite C in E; lra|ring] end.
  - exists t. split; auto.
    pose proof (O 0%nat) as O0. pose proof (O 1%nat) as O1. destruct q' as [|y0 [|y1 [|? ?]]]; try discriminate.
    unfold planar_to_relative, turn, vsub in O0, O1. cbn in O0, O1. rewrite cos_neg, sin_neg in O0, O1.
    intros [|[|i]]; unfold from_relative, turn; cbn; [| |destruct i; ring].
    + rewrite O0, O1. match goal with |- ?x = ?y => enough (x - y = ((sin a * sin a + cos a * cos a) - 1) * ((x0 - p0) + t * d0)) as E; [rewrite C in E; lra|ring] end.
    + rewrite O0, O1. match goal with |- ?x = ?y => enough (x - y = ((sin a * sin a + cos a * cos a) - 1) * ((x1 - p1) + t * d1)) as E; [rewrite C in E; lra|ring] end.
Qed.
(** From the left to an ellipse which is twice as long as high. *)
Definition ex_circle (p d : vec) (r : R) : option vec :=
  if Req_EM_T (nth 1 p 0) 0 then if Req_EM_T (nth 1 d 0) 0 then if Req_EM_T (nth 0 d 0) 0 then None else
    match p, d with [_; _], [_; _] => Some [- r; 0] | _, _ => None end else None else None.
Lemma ex_circle_ok p d r q : ex_circle p d r = Some q -> dot q q = r * r /\ exists t, on_line p d q t.
Proof.
  unfold ex_circle. destruct (Req_EM_T (nth 1 p 0) 0) as [E1|]; [|discriminate]. destruct (Req_EM_T (nth 1 d 0) 0) as [E2|]; [|discriminate].
  destruct (Req_EM_T (nth 0 d 0) 0) as [|N]; [discriminate|].
  destruct p as [|p0 [|p1 [|? ?]]]; try discriminate. destruct d as [|d0 [|d1 [|? ?]]]; try discriminate. intros E. injection E as <-.
  cbn [nth] in *. split; [cbn; ring|]. exists ((- r - p0) / d0). split; auto. intros [|[|i]]; cbn [nth]; [field; auto|rewrite E1, E2; ring|destruct i; ring].
Qed.
Example C118_ellipse_example : exists q, ellipse_intersection ex_circle [4; 2] [-5; 0] [1; 0] = Some q /\ ellipse_value q [4; 2] = 1 /\
  exists t, on_line [-5; 0] [1; 0] q t.
Proof.
  assert (E : ellipse_intersection ex_circle [4; 2] [-5; 0] [1; 0] = Some [-2; 0]).
  { unfold ellipse_intersection, ex_circle. cbn. destruct (Req_EM_T (0 / 2) 0); [|lra]. destruct (Req_EM_T (1 / 4) 0); [lra|].
    f_equal. cbn [ctimes]. apply f_equal2; [lra|apply f_equal2; [lra|auto]]. }
  exists [-2; 0]. split; auto.
  destruct (C118_ellipse ex_circle [4; 2] [-5; 0] [1; 0] 2 eq_refl eq_refl eq_refl) as [H _]; [repeat constructor; lra|apply ex_circle_ok|].
  destruct (H _ E) as (A & t & _ & _ & _ & B). split; auto. exists t. auto.
Qed.
Print Assumptions C117_rejected_partial.
Print Assumptions C117_second_root_refuted.
Print Assumptions C117_second_parent_refuted.
Print Assumptions C117_failed_parent_refuted.
Print Assumptions C117_way_refuted.
Print Assumptions C117_inside.
Print Assumptions C118_tangent.
Print Assumptions C118_ellipse.
Print Assumptions C118_ellipse_global.
