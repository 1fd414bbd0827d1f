(** Property C119: the dynamics of the convergence in a container of obstacles. *)
Require Import Reals List Bool Arith ZArith Lra Lia Psatz.
From Verif Require Import Base Vec RotModel Spec RotProofs ContainerModel ShapeModel.
Import ListNotations.
Open Scope R_scope.

(** ** Executions *)
Inductive rc_op := OpAppend (o : vec * R) (r : option R) | OpSet (given : option (vec -> vec)) (evaluate : vec -> vec) (attractor : option vec).
Definition rc_step (c : rot_container) (op : rc_op) : res rot_container :=
  match op with
  | OpAppend o r => Ok (rc_append c o r)
  | OpSet g e a => set_convergence c g e a
  end.
Fixpoint rc_run (c : rot_container) (ops : list rc_op) : res rot_container :=
  match ops with [] => Ok c | op :: ops => do c <- rc_step c op; rc_run c ops end.

Lemma mapM_len {A B} (f : A -> res B) l l' : mapM f l = Ok l' -> length l' = length l /\ forall i a, nth_error l i = Some a -> exists b, nth_error l' i = Some b /\ f a = Ok b.
Proof.
  revert l'. induction l as [|x l IH]; intros l' E; cbn [mapM] in E.
  - injection E as <-. split; auto. intros [|i] a H; discriminate.
  - destruct (f x) as [y|] eqn:F; [|discriminate]. cbn [bind] in E. destruct (mapM f l) as [ys|]; [|discriminate]. injection E as <-.
    destruct (IH ys eq_refl) as [L N]. split; [cbn; lia|]. intros [|i] a H; cbn [nth_error] in *; [injection H as <-; exists y; auto|auto].
Qed.
Definition aligned (n : nat) (c : rot_container) : Prop :=
  length (rc_conv c) = length (rc_obs c) /\ forall o, In o (rc_obs c) -> length (fst o) = n.
Definition op_dim (n : nat) (op : rc_op) : Prop := match op with OpAppend o _ => length (fst o) = n | OpSet _ _ _ => True end.
Lemma set_convergence_spec c given e a c' : set_convergence c given e a = Ok c' ->
  rc_obs c' = rc_obs c /\ rc_radius c' = rc_radius c /\ length (rc_conv c') = length (rc_obs c) /\
  forall i o, nth_error (rc_obs c) i = Some o -> exists d, nth_error (rc_conv c') i = Some (Some d) /\
    match given with
    | Some f => d = DGiven f
    | None => match a with None => d = choose_constant e o | Some a => choose_dynamics e a o = Ok d end
    end.
Proof.
  unfold set_convergence. destruct given as [f|]; [|destruct a as [a|]].
  - intros E. injection E as <-. cbn. rewrite map_length. repeat split; auto. intros i o H. exists (DGiven f). rewrite nth_error_map, H. auto.
  - destruct (mapM (choose_dynamics e a) (rc_obs c)) as [ds|] eqn:M; [|discriminate]. cbn [bind]. intros E. injection E as <-. cbn.
    destruct (mapM_len _ _ _ M) as [L N]. rewrite map_length. repeat split; auto. intros i o H. destruct (N i o H) as (d & D & F). exists d.
    rewrite nth_error_map, D. auto.
  - intros E. injection E as <-. cbn. rewrite map_length. repeat split; auto. intros i o H. exists (choose_constant e o). rewrite nth_error_map, H. auto.
Qed.
Lemma run_aligned n ops : forall c c', aligned n c -> Forall (op_dim n) ops -> rc_run c ops = Ok c' ->
  aligned n c' /\ rc_radius c' = rc_radius c /\ exists later, rc_obs c' = rc_obs c ++ later.
Proof.
  induction ops as [|op ops IH]; intros c c' A F E; cbn [rc_run] in E.
  - injection E as <-. split; auto. split; auto. exists []. rewrite app_nil_r. auto.
  - inversion F as [|? ? F1 F2]; subst. destruct (rc_step c op) as [c1|] eqn:S1; [|discriminate]. cbn [bind] in E.
    assert (K : aligned n c1 /\ rc_radius c1 = rc_radius c /\ exists later, rc_obs c1 = rc_obs c ++ later).
    { destruct A as [A1 A2]. destruct op as [o r|g e a]; cbn [rc_step op_dim] in *.
      - injection S1 as <-. unfold rc_append, aligned. cbn. rewrite !app_length. cbn. split; [split; [lia|]|split; auto; exists [o]; auto].
        intros x H. apply in_app_iff in H as [H|[<-|[]]]; auto.
      - destruct (set_convergence_spec _ _ _ _ _ S1) as (B1 & B2 & B3 & _). unfold aligned. rewrite B1. split; auto. split; auto. exists []. rewrite app_nil_r. auto. }
    destruct K as (K1 & K2 & (l1 & K3)). destruct (IH c1 c' K1 F2 E) as (J1 & J2 & (l2 & J3)). split; auto. split; [congruence|].
    exists (l1 ++ l2). rewrite J3, K3, app_assoc. auto.
Qed.
Lemma run_app ops1 : forall ops2 c, rc_run c (ops1 ++ ops2) = do c1 <- rc_run c ops1; rc_run c1 ops2.
Proof.
  induction ops1 as [|op ops1 IH]; intros ops2 c; cbn [app rc_run bind]; auto. destruct (rc_step c op); cbn [bind]; auto.
Qed.
Lemma run_appends later : forall c, exists c', rc_run c (map (fun o => OpAppend (fst o) (snd o)) later) = Ok c' /\
  rc_obs c' = rc_obs c ++ map fst later /\ rc_conv c' = rc_conv c ++ map (fun _ => None) later.
Proof.
  induction later as [|[o r] later IH]; intros c; cbn [map rc_run].
  - exists c. rewrite !app_nil_r. auto.
  - cbn [rc_step bind fst snd]. destruct (IH (rc_append c o r)) as (c' & A & B & C). exists c'. split; auto. rewrite B, C. unfold rc_append. cbn.
    rewrite <- !app_assoc. auto.
Qed.
(** In each execution: after the directions are set every obstacle has a convergence direction, and an obstacle which is appended
    later has none until they are set again. *)
Theorem C119_directions rotated n before given e a later c x :
  Forall (op_dim n) before ->
  rc_run rc_empty (before ++ OpSet given e a :: map (fun o => OpAppend (fst o) (snd o)) later) = Ok c ->
  length (rc_obs c) = length (rc_conv c) /\
  forall i, (i < length (rc_obs c))%nat ->
    ((i < length (rc_obs c) - length later)%nat -> exists v, convergence_direction rotated c x i = Ok v) /\
    ((length (rc_obs c) - length later <= i)%nat -> convergence_direction rotated c x i = Err EAttr).
Proof.
  intros F E. rewrite run_app in E. destruct (rc_run rc_empty before) as [c1|] eqn:E1; [|discriminate]. cbn [bind rc_run rc_step] in E.
  destruct (run_aligned n before rc_empty c1) as ((A1 & _) & _); auto. { split; auto. intros o []. }
  destruct (set_convergence c1 given e a) as [c2|] eqn:E2; [|discriminate]. cbn [bind] in E.
  destruct (set_convergence_spec _ _ _ _ _ E2) as (B1 & B2 & B3 & B4).
  destruct (run_appends later c2) as (c' & C1 & C2 & C3). rewrite C1 in E. injection E as ->.
  rewrite C2, C3, !app_length, !map_length, B1, B3. split; auto. intros i Hi. unfold convergence_direction. rewrite C3. split.
  - intros H. rewrite nth_error_app1 by lia. destruct (nth_error (rc_obs c1) i) as [o|] eqn:N; [|apply nth_error_None in N; lia].
    destruct (B4 i o N) as (d & D & _). rewrite D. eauto.
  - intros H. rewrite nth_error_app2 by lia. rewrite nth_error_map, B3.
    destruct (nth_error later (i - length (rc_obs c1))) eqn:N; auto. apply nth_error_None in N. lia.
Qed.
Example C119_directions_example : exists c,
  rc_run rc_empty [OpAppend ([1; 0], 1) None; OpSet (Some (fun x => vscale (-1) x)) (fun x => x) None; OpAppend ([5; 0], 1) (Some 1)] = Ok c /\
  convergence_direction (fun v _ _ _ _ => v) c [2; 0] 1 = Err EAttr /\ exists v, convergence_direction (fun v _ _ _ _ => v) c [2; 0] 0 = Ok v.
Proof. eexists. split; [reflexivity|]. split; [reflexivity|]. eexists. reflexivity. Qed.
(** The radius which is given with an obstacle is dropped: the list of the radiuses stays empty. *)
Theorem C119_radius_refuted n ops c : Forall (op_dim n) ops -> rc_run rc_empty ops = Ok c -> rc_radius c = [].
Proof.
  intros F E. destruct (run_aligned n ops rc_empty c) as (_ & R & _); auto. split; auto. intros o [].
Qed.
(** Dynamics without attractor: at the center of each obstacle the convergence direction is the velocity of the dynamics. *)
Theorem C119_without_attractor rotated n c e c' i p r :
  aligned n c -> (forall x, length x = n -> length (e x) = n) -> set_convergence c None e None = Ok c' ->
  nth_error (rc_obs c) i = Some (p, r) -> convergence_direction rotated c' p i = Ok (e p).
Proof.
  intros [_ A] He E N. destruct (set_convergence_spec _ _ _ _ _ E) as (_ & _ & _ & B). destruct (B _ _ N) as (d & D & F).
  assert (Lp : length p = n) by (apply (A (p, r)); eapply nth_error_In; eauto).
  unfold convergence_direction. rewrite D. f_equal. subst d. unfold choose_constant. cbn [fst].
  destruct (Req_EM_T (norm (e p)) 0) as [Z|Z]; cbn [evaluate_conv]; auto.
  apply norm_zero_iff in Z. rewrite (He p Lp) in Z. rewrite Z. vext. ring.
Qed.
Example C119_without_attractor_example : exists c,
  rc_run rc_empty [OpAppend ([1; 0], 1) None; OpSet None (fun x => [nth 1 x 0; 3]) None] = Ok c /\
  convergence_direction (fun v _ _ _ _ => v) c [1; 0] 0 = Ok [0; 3].
Proof.
  eexists. split; [reflexivity|]. apply (C119_without_attractor (fun v _ _ _ _ => v) 2 (mkRC [([1; 0], 1)] [None] []) (fun x => [nth 1 x 0; 3]) _ 0 [1; 0] 1).
  - split; auto. intros o [<-|[]]. auto.
  - auto.
  - reflexivity.
  - reflexivity.
Qed.
(** Dynamics with attractor at the origin: at the center of each obstacle the convergence direction has the direction of the dynamics,
    if [LocallyRotated] has there the direction it is given.  For another attractor this holds if the dynamics does not point to the origin. *)
Definition same_way (u v : vec) : Prop := exists k, 0 < k /\ u = vscale k v.
Lemma opposite_vectors p v : length p = length v -> norm p <> 0 -> norm v <> 0 -> dot p v / (norm p * norm v) = -1 -> same_way (vscale (-1) p) v.
Proof.
  intros L Np Nv D. pose proof (norm_nonneg p). pose proof (norm_nonneg v).
  assert (E : dot p v = - (norm p * norm v)).
  { apply (f_equal (fun z => z * (norm p * norm v))) in D. replace (dot p v / (norm p * norm v) * (norm p * norm v)) with (dot p v) in D by (field; auto). lra. }
  exists (norm p / norm v). split; [apply Rdiv_lt_0_compat; lra|].
  set (u := vadd (vscale (norm v) p) (vscale (norm p) v)).
  assert (Z : dot u u = 0).
  { unfold u. rewrite !dot_vadd_l, !dot_vadd_r, !dot_vscale_l, !dot_vscale_r, (dot_comm v p), E, <- (norm_sq p), <- (norm_sq v). ring. }
  apply dot_self_zero in Z. vext. assert (U : nth i u 0 = 0) by (rewrite Z; apply nth_vzero). unfold u in U. autorewrite with vnth in U.
  apply (Rmult_eq_reg_l (norm v)); [|lra]. transitivity (norm p * nth i v 0); [lra|]. field. auto.
Qed.
Theorem C119_attractor_partial rotated n c e a c' i p r :
  aligned n c -> (forall x, length x = n -> length (e x) = n) -> length a = n ->
  (forall v p a r, same_way (rotated v p a r p) v) ->
  set_convergence c None e (Some a) = Ok c' -> nth_error (rc_obs c) i = Some (p, r) ->
  p <> vzero n ->
  a = vzero n \/ dot p (e p) <> - (norm p * norm (e p)) ->
  exists u, convergence_direction rotated c' p i = Ok u /\ same_way u (e p).
Proof.
  intros [_ A] He La HR E N P0 C. destruct (set_convergence_spec _ _ _ _ _ E) as (_ & _ & _ & B). destruct (B _ _ N) as (d & D & F).
  assert (Lp : length p = n) by (apply (A (p, r)); eapply nth_error_In; eauto).
  unfold convergence_direction. rewrite D. unfold choose_dynamics in F.
  assert (Np : norm p <> 0) by (intros Z; apply norm_zero_iff in Z; rewrite Lp in Z; auto).
  destruct (Req_EM_T (norm p) 0); [congruence|]. destruct (Req_EM_T (norm (e p)) 0) as [|Nv]; [discriminate|].
  eexists. split; [reflexivity|].
  destruct (Req_EM_T (dot p (e p) / (norm p * norm (e p))) (-1)) as [K|K]; injection F as <-; cbn [evaluate_conv]; auto.
  destruct C as [-> |C].
  - replace (vsub (vzero n) p) with (vscale (-1) p) by (vext; ring). apply opposite_vectors; auto. rewrite (He p Lp). auto.
  - exfalso. apply C. apply (f_equal (fun z => z * (norm p * norm (e p)))) in K.
    replace (dot p (e p) / (norm p * norm (e p)) * (norm p * norm (e p))) with (dot p (e p)) in K by (field; auto). lra.
Qed.
Example C119_attractor_example : exists c u,
  set_convergence (mkRC [([1; 0], 1)] [None] []) None (fun x => [-1; 1]) (Some [0; 0]) = Ok c /\
  convergence_direction (fun v _ _ _ _ => v) c [1; 0] 0 = Ok u /\ same_way u [-1; 1].
Proof.
  assert (N1 : forall x y, 0 < x -> norm [x; y] <> 0).
  { intros x y H F. apply norm_zero_iff in F. cbn in F. injection F. lra. }
  assert (N2 : norm [-1; 1] <> 0) by (intros F; apply norm_zero_iff in F; cbn in F; injection F; lra).
  assert (E : exists c, set_convergence (mkRC [([1; 0], 1)] [None] []) None (fun x => [-1; 1]) (Some [0; 0]) = Ok c).
  { unfold set_convergence. cbn [mapM rc_obs]. unfold choose_dynamics. destruct (Req_EM_T (norm [1; 0]) 0) as [Z|_]; [destruct (N1 1 0); auto; lra|].
    destruct (Req_EM_T (norm [-1; 1]) 0); [contradiction|]. destruct (Req_EM_T (dot [1; 0] [-1; 1] / (norm [1; 0] * norm [-1; 1])) (-1)); eexists; reflexivity. }
  destruct E as (c & E). destruct (C119_attractor_partial (fun v _ _ _ _ => v) 2 (mkRC [([1; 0], 1)] [None] []) (fun x => [-1; 1]) [0; 0] c 0 [1; 0] 1) with (5 := E) as (u & U & W); auto.
  - split; auto. intros o [<-|[]]. auto.
  - intros v p a r. exists 1. split; [lra|]. vext. ring.
  - intros F. injection F. lra.
  - exists c, u. auto.
Qed.
(** For an attractor which is not the origin, dynamics which point to the origin are replaced by the linear system of the attractor; and
    so are the dynamics at an obstacle with its center at the origin. *)
Theorem C119_attractor_refuted : exists e a c',
  set_convergence (mkRC [([2; 0], 1); ([0; 0], 1)] [None; None] []) None e (Some a) = Ok c' /\ a = [2; 2] /\
  e [2; 0] = [-1; 0] /\ e [0; 0] = [-1; 0] /\
  (forall rotated, convergence_direction rotated c' [2; 0] 0 = Ok [0; 2] /\ convergence_direction rotated c' [0; 0] 1 = Ok [2; 2]) /\
  dot [0; 2] [-1; 0] = 0 /\ dot [2; 2] [-1; 0] < 0.
Proof.
  exists (fun _ => [-1; 0]), [2; 2], (mkRC [([2; 0], 1); ([0; 0], 1)] [Some (DLinear [2; 2]); Some (DLinear [2; 2])] []).
  assert (N2 : norm [2; 0] = 2) by (unfold norm; cbn; transitivity (sqrt (2 * 2)); [f_equal; ring|apply sqrt_square; lra]).
  assert (N1 : norm [-1; 0] = 1) by (unfold norm; cbn; transitivity (sqrt (1 * 1)); [f_equal; ring|apply sqrt_square; lra]).
  assert (N0 : norm [0; 0] = 0) by apply (norm_vzero 2).
  split; [|split; auto; split; auto; split; auto; split].
  - unfold set_convergence. cbn [mapM rc_obs]. unfold choose_dynamics. rewrite N2, N1, N0. destruct (Req_EM_T 2 0); [lra|]. destruct (Req_EM_T 1 0); [lra|].
    destruct (Req_EM_T 0 0); [|lra]. replace (dot [2; 0] [-1; 0] / (2 * 1)) with (-1) by (cbn; lra). destruct (Req_EM_T (-1) (-1)); [|lra]. reflexivity.
  - intros rotated. unfold convergence_direction. cbn [nth_error rc_conv evaluate_conv]. unfold vsub. cbn. split; f_equal; (apply f_equal2; [ring|apply f_equal2; [ring|auto]]).
  - cbn. lra.
Qed.
Print Assumptions C119_directions.
Print Assumptions C119_radius_refuted.
Print Assumptions C119_without_attractor.
Print Assumptions C119_attractor_partial.
Print Assumptions C119_attractor_refuted.
