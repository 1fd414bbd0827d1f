(** Property C169: obstacles cannot be removed from or replaced in a [RotationContainer]; intersection positions; the free space of a container
    of trees. *)
Require Import Reals List Bool Arith ZArith Lra Lia.
From Verif Require Import Base Vec RotModel Spec RotProofs ContainerModel ShapeModel ItemModel PropRotContainer.
Import ListNotations.
Open Scope R_scope.

(** ** Independent reading of an index: [key] names the place [i] of a list of [n] items. *)
Definition names (n : nat) (key : Z) (i : nat) : Prop := (i < n)%nat /\ (key = Z.of_nat i \/ key = Z.of_nat i - Z.of_nat n)%Z.
Lemma py_index_names n key i : py_index n key = Some i <-> names n key i.
Proof.
  unfold py_index, names. destruct (Z.leb_spec 0 key).
  - destruct (Z.ltb_spec key (Z.of_nat n)); split; intros H1; try discriminate; try lia. + injection H1 as <-. lia. + f_equal. lia.
  - destruct (Z.leb_spec (- Z.of_nat n) key); split; intros H1; try discriminate; try lia. + injection H1 as <-. lia. + f_equal. lia.
Qed.
Lemma py_index_none n key : py_index n key = None <-> forall i, ~ names n key i.
Proof.
  split.
  - intros E i H. apply py_index_names in H. congruence.
  - intros H. destruct (py_index n key) as [i|] eqn:E; auto. apply py_index_names in E. destruct (H i E).
Qed.

(** ** Removal and replacement *)
(** Every removal and every replacement fails, whatever the container and the index; TypeError if the index is good, IndexError otherwise.  The container
    is the same as before. *)
Definition fails_unchanged (c : held) (key : Z) (out : held * res unit) : Prop :=
  fst out = c /\
  ((exists i, names (length (h_obs c)) key i) -> snd out = Err EType) /\
  ((forall i, ~ names (length (h_obs c)) key i) -> snd out = Err EIndex).
Theorem C169_items_refuted c key value : fails_unchanged c key (rc_delete c key) /\ fails_unchanged c key (rc_assign c key value).
Proof.
  unfold fails_unchanged, rc_delete, rc_assign. destruct (py_index (length (h_obs c)) key) as [i|] eqn:E.
  - assert (N := proj1 (py_index_names _ _ _) E). destruct (nth_error (h_obs c) i) as [o|] eqn:O; [|apply nth_error_None in O; destruct N; lia].
    cbn. repeat split; auto; intros H; destruct (H i N).
  - assert (N := proj1 (py_index_none _ _) E). repeat split; auto; intros (i & H); destruct (N i H).
Qed.
Example C169_items_case : let c := hold (rc_append rc_empty ([1; 0], 1) None) in
  names 1 (-1) 0 /\ rc_delete c (-1) = (c, Err EType) /\ rc_assign c 0 ([2; 0], 1) = (c, Err EType) /\ rc_delete c 1 = (c, Err EIndex).
Proof. cbn. unfold names. repeat split; lia || reflexivity. Qed.

(** Histories in which the caller carries on after an exception. *)
Inductive item_op := IAppend (o : vec * R) (r : option R) | ISet (given : option (vec -> vec)) (evaluate : vec -> vec) (attractor : option vec)
  | IDelete (key : Z) | IAssign (key : Z) (value : vec * R).
Definition release (h : held) : rot_container := mkRC (h_obs h) (match h_conv h with Some l => l | None => [] end) (h_radius h).
Definition item_step (c : rot_container) (op : item_op) : rot_container :=
  match op with
  | IAppend o r => rc_append c o r
  | ISet g e a => match set_convergence c g e a with Ok c' => c' | Err _ => c end
  | IDelete k => release (fst (rc_delete (hold c) k))
  | IAssign k v => release (fst (rc_assign (hold c) k v))
  end.
Definition item_run (c : rot_container) (ops : list item_op) : rot_container := fold_left item_step ops c.
(** The obstacles a history appends, and the history without the calls which fail. *)
Fixpoint appended (ops : list item_op) : list (vec * R) :=
  match ops with [] => [] | IAppend o _ :: ops => o :: appended ops | _ :: ops => appended ops end.
Fixpoint kept (ops : list item_op) : list item_op :=
  match ops with [] => [] | IDelete _ :: ops => kept ops | IAssign _ _ :: ops => kept ops | op :: ops => op :: kept ops end.
Lemma release_hold c : release (hold c) = c. Proof. destruct c. reflexivity. Qed.
Lemma step_kept c op : match op with IDelete _ | IAssign _ _ => item_step c op = c | _ => True end.
Proof.
  destruct op as [| |k|k v]; auto; cbn [item_step].
  - destruct (C169_items_refuted (hold c) k ([], 0)) as [(A & _) _]. rewrite A. apply release_hold.
  - destruct (C169_items_refuted (hold c) k v) as [_ (A & _)]. rewrite A. apply release_hold.
Qed.
(** In each history the container holds exactly the obstacles which were appended, in this order: none of them ever leaves. *)
Theorem C169_history_refuted ops : forall c, item_run c ops = item_run c (kept ops) /\ rc_obs (item_run c ops) = rc_obs c ++ appended ops.
Proof.
  induction ops as [|op ops IH]; intros c; [unfold item_run; cbn; rewrite app_nil_r; auto|].
  assert (K := step_kept c op). destruct (IH (item_step c op)) as [A B]. unfold item_run in *. destruct op as [o r|g e a|k|k v]; cbn [fold_left kept appended].
  - split; auto. rewrite B. cbn [item_step]. unfold rc_append. cbn [rc_obs]. rewrite <- app_assoc. reflexivity.
  - split; auto. rewrite B. cbn [item_step]. destruct (set_convergence c g e a) as [c'|] eqn:S; auto.
    destruct (set_convergence_spec _ _ _ _ _ S) as (O & _). rewrite O. reflexivity.
  - rewrite K in *. auto.
  - rewrite K in *. auto.
Qed.
Example C169_history_case : rc_obs (item_run rc_empty [IAppend ([1; 0], 1) None; IDelete 0; IAppend ([2; 0], 1) None; IAssign 1 ([7; 7], 2); IDelete (-1)]) =
  [([1; 0], 1); ([2; 0], 1)].
Proof. destruct (C169_history_refuted [IAppend ([1; 0], 1) None; IDelete 0; IAppend ([2; 0], 1) None; IAssign 1 ([7; 7], 2); IDelete (-1)] rc_empty) as [_ ->]. reflexivity. Qed.

(** ** Intersection positions *)
Lemma nth_some {A} (l : list (option A)) i d : nth_error l i = Some d -> nth i l None = d.
Proof. intros E. apply nth_error_nth. auto. Qed.
(** With dynamics which have an attractor, every obstacle has the attractor as intersection position; with dynamics without attractor only
    an obstacle with the dynamics at rest in its center, and it is the center. *)
Theorem C169_intersection known c e attractor c' key i o :
  set_convergence c None e attractor = Ok c' -> names (length (rc_obs c)) key i -> nth_error (rc_obs c) i = Some o ->
  match attractor with
  | Some a => intersection_position known c' key = Ok a
  | None => (norm (e (fst o)) = 0 -> intersection_position known c' key = Ok (fst o)) /\
            (norm (e (fst o)) <> 0 -> intersection_position known c' key = Err ENotImpl)
  end.
Proof.
  intros E N O. destruct (set_convergence_spec _ _ _ _ _ E) as (_ & _ & L & B). destruct (B i o O) as (d & D & F).
  unfold intersection_position. rewrite L, (proj2 (py_index_names _ _ _) N), (nth_some _ _ _ D). destruct attractor as [a|].
  - unfold choose_dynamics in F. destruct o as [p r].
    destruct (Req_EM_T (norm p) 0); [injection F as <-; reflexivity|]. destruct (Req_EM_T (norm (e p)) 0); [discriminate|].
    destruct (Req_EM_T (dot p (e p) / (norm p * norm (e p))) (-1)); injection F as <-; reflexivity.
  - subst d. unfold choose_constant. destruct (Req_EM_T (norm (e (fst o))) 0); split; intros; try contradiction; reflexivity.
Qed.
(** Indices out of range, and obstacles which were appended after the directions were set. *)
Theorem C169_intersection_errors known n ops c key : Forall (op_dim n) ops -> rc_run rc_empty ops = Ok c ->
  ((forall i, ~ names (length (rc_obs c)) key i) <-> intersection_position known c key = Err EIndex) /\
  (forall later c', rc_run c (map (fun o => OpAppend (fst o) (snd o)) later) = Ok c' ->
     forall i, (length (rc_obs c) <= i < length (rc_obs c'))%nat -> intersection_position known c' (Z.of_nat i) = Err ENotImpl).
Proof.
  intros F E. destruct (run_aligned n ops rc_empty c) as ((L & _) & _); auto. { split; auto. intros o []. }
  split.
  - unfold intersection_position. rewrite L. rewrite <- py_index_none. destruct (py_index (length (rc_obs c)) key); split; try discriminate; auto.
    destruct (conv_attractor known (nth n0 (rc_conv c) None)); discriminate.
  - intros later c' E' i Hi. destruct (run_appends later c) as (c2 & C1 & C2 & C3). rewrite C1 in E'. injection E' as <-.
    unfold intersection_position. assert (L2 : length (rc_conv c2) = length (rc_obs c2)) by (rewrite C2, C3, !app_length, !map_length; lia).
    assert (N : names (length (rc_obs c2)) (Z.of_nat i) i) by (split; [lia|auto]). rewrite L2, (proj2 (py_index_names _ _ _) N).
    rewrite C3, app_nth2 by lia. replace (nth (i - length (rc_conv c)) (map (fun _ : vec * R * option R => @None conv_dynamics) later) None) with (@None conv_dynamics); [reflexivity|].
    generalize (i - length (rc_conv c))%nat. clear. induction later as [|x l IH]; intros [|k]; cbn; auto.
Qed.
Example C169_intersection_case : exists c,
  rc_run rc_empty [OpAppend ([0; 0], 1) None; OpSet None (fun x => vsub [3; 1] x) (Some [3; 1]); OpAppend ([5; 0], 1) None] = Ok c /\
  intersection_position (fun _ => None) c (-2) = Ok [3; 1] /\ intersection_position (fun _ => None) c 1 = Err ENotImpl /\
  intersection_position (fun _ => None) c 2 = Err EIndex.
Proof.
  exists (mkRC [([0; 0], 1); ([5; 0], 1)] [Some (DLinear [3; 1]); None] []). split; [|repeat split; reflexivity].
  cbn [rc_run rc_step bind]. unfold set_convergence, rc_append, rc_empty. cbn [rc_obs app mapM]. unfold choose_dynamics.
  destruct (Req_EM_T (norm [0; 0]) 0) as [_|H]; [reflexivity|]. destruct H. apply (norm_vzero 2).
Qed.

(** ** Free space *)
(** If every tree had the method, the container would be free exactly where all trees are. *)
Theorem C169_free_space T (f : T -> vec -> bool) l x :
  container_free_space (fun t => Some (fun x => Ok (f t x))) l x true = Ok true <-> forall t, In t l -> f t x = true.
Proof.
  unfold container_free_space. induction l as [|t l IH]; cbn [all_free bind].
  - split; auto.
  - destruct (f t x) eqn:E.
    + rewrite IH. split; intros H; [intros u [<-|U]; auto|intros u U; apply H; right; auto].
    + split; [discriminate|]. intros H. rewrite (H t) in E; [discriminate|left; auto].
Qed.
(** But no tree of the package has it: a container with such a tree never answers that a position is free, and a non-empty container of
    such trees raises AttributeError at every position. *)
Theorem C169_free_space_refuted T (member : T -> option (vec -> res bool)) (l : list T) x :
  (forall t, In t l -> member t = None -> container_free_space member l x true <> Ok true) /\
  (l <> [] -> container_free_space tree_free_space l x true = Err EAttr).
Proof.
  unfold container_free_space. split.
  - induction l as [|u l IH]; intros t [].
    + subst u. intros M. cbn [all_free]. rewrite M. discriminate.
    + intros M. cbn [all_free]. destruct (member u) as [f|]; [|discriminate]. destruct (f x) as [[]|]; cbn [bind]; try discriminate. eapply IH; eauto.
  - destruct l; [congruence|reflexivity].
Qed.
Example C169_free_space_case : container_free_space (fun t => Some (fun x => Ok (Rltb (t + 1) (norm x)))) [0; 1] [4; 0] true = Ok true /\
  container_free_space tree_free_space [0; 1] [4; 0] true = Err EAttr /\ container_free_space tree_free_space (@nil R) [4; 0] true = Ok true.
Proof.
  split; [|split; reflexivity]. apply (C169_free_space R (fun t x => Rltb (t + 1) (norm x))).
  assert (N : norm [4; 0] = 4) by (unfold norm; cbn; transitivity (sqrt (4 * 4)); [f_equal; ring|apply sqrt_square; lra]).
  intros t [<-|[<-|[]]]; apply Rltb_true; rewrite N; lra.
Qed.
Print Assumptions C169_items_refuted.
Print Assumptions C169_history_refuted.
Print Assumptions C169_intersection.
Print Assumptions C169_intersection_errors.
Print Assumptions C169_free_space.
Print Assumptions C169_free_space_refuted.
