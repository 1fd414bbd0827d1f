(** Properties C120-C121: the hierarchy of an obstacle of Gaussians. *)
Require Import Reals List Bool Arith Lra Lia Psatz Permutation.
From Verif Require Import Base Vec Pow RotModel TreeModel HullModel GraphModel HullGraphModel GmmModel GmmObstacleModel
  PropGraph PropHullGraph.
Import ListNotations.
Open Scope R_scope.

(** * Lists *)
Lemma remove_at_perm {A} (l : list A) d : forall i, (i < length l)%nat ->
  Permutation (nth i l d :: remove_at i l) l.
Proof.
  intros i H. unfold remove_at. transitivity (firstn i l ++ nth i l d :: skipn (S i) l); [apply Permutation_middle|].
  apply Permutation_refl'. revert i H. induction l as [|x l IH]; intros [|i] H; cbn in *; try lia; auto. f_equal. apply IH. lia.
Qed.
Lemma remove_at_length {A} (l : list A) i : (i < length l)%nat -> length (remove_at i l) = (length l - 1)%nat.
Proof.
  intros H. unfold remove_at. rewrite app_length, firstn_length, skipn_length. lia.
Qed.
Lemma concat_length_rows {A} (rows : list (list A)) m : (forall r, In r rows -> length r = m) ->
  length (concat rows) = (length rows * m)%nat.
Proof.
  induction rows as [|r rows IH]; intros H; auto. cbn [concat length]. rewrite app_length, IH by (intros; apply H; right; auto).
  rewrite (H r) by (left; auto). lia.
Qed.
Lemma concat_nth {A} (rows : list (list A)) m d : forall i j, (forall r, In r rows -> length r = m) ->
  (i < length rows)%nat -> (j < m)%nat -> nth (i * m + j) (concat rows) d = nth j (nth i rows []) d.
Proof.
  induction rows as [|r rows IH]; intros i j H Hi Hj; [cbn in Hi; lia|]. cbn [concat].
  pose proof (H r (or_introl eq_refl)) as L. destruct i as [|i].
  - rewrite app_nth1 by (cbn; lia). reflexivity.
  - rewrite app_nth2 by (cbn; lia). replace (S i * m + j - length r)%nat with (i * m + j)%nat by (cbn; lia).
    cbn [nth]. apply IH; auto; [intros; apply H; right; auto|cbn in Hi; lia].
Qed.

(** * The loop *)
Section Loop.
Variable proba : nat -> nat -> R.
(** The [k]-th component was attached to one of those before it, with the largest probability of
    all pairs of a component before it and one which was not attached yet. *)
Definition attached_best (ops : list gop) (order rest : list nat) (k : nat) : Prop :=
  exists p, parent_of ops (nth k order 0%nat) = Some p /\ In p (firstn k order) /\
    forall a b, In a (firstn k order) -> In b (skipn k order ++ rest) -> proba b a <= proba (nth k order 0%nat) p.
Record hinv (r : nat) (ass rem : list nat) (ops : list gop) : Prop := {
  h_nd : NoDup (ass ++ rem);
  h_hd : hd_error ass = Some r;
  h_good : good ops;
  h_noset : no_set ops;
  h_known : forall v, known ops v <-> In v ass;
  h_root : parent_of ops r = None;
  h_best : forall k, (0 < k < length ass)%nat -> attached_best ops ass rem k }.

Lemma hinv_step r ass rem ops i j : hinv r ass rem ops -> (i < length rem)%nat -> (j < length ass)%nat ->
  (forall i' j', (i' < length rem)%nat -> (j' < length ass)%nat ->
     proba (nth i' rem 0%nat) (nth j' ass 0%nat) <= proba (nth i rem 0%nat) (nth j ass 0%nat)) ->
  hinv r (ass ++ [nth i rem 0%nat]) (remove_at i rem) (OAdd (nth i rem 0%nat) (nth j ass 0%nat) :: ops).
Proof.
  intros I Hi Hj HB. set (v := nth i rem 0%nat) in *. set (p := nth j ass 0%nat) in *.
  pose proof (remove_at_perm rem 0%nat i Hi) as PR. fold v in PR.
  assert (Inp : In p ass) by (apply nth_In; auto).
  assert (Inv : In v rem) by (apply nth_In; auto).
  assert (Nv : ~ In v ass).
  { intros H. pose proof (h_nd _ _ _ _ I) as ND. apply in_split in Inv as (r1 & r2 & E). rewrite E in ND.
    rewrite app_assoc in ND. apply NoDup_remove_2 in ND. apply ND. rewrite !in_app_iff. auto. }
  assert (PA : Permutation ((ass ++ [v]) ++ remove_at i rem) (ass ++ rem)) by (rewrite <- app_assoc; apply Permutation_app_head; exact PR).
  assert (Hr : v <> r).
  { intros ->. apply Nv. pose proof (h_hd _ _ _ _ I) as E. destruct ass; [discriminate|]. injection E as ->. left; auto. }
  split.
  - apply (Permutation_NoDup (Permutation_sym PA)). apply (h_nd _ _ _ _ I).
  - pose proof (h_hd _ _ _ _ I) as E. destruct ass; [discriminate|exact E].
  - cbn [good]. split; [apply (h_good _ _ _ _ I)|]. rewrite !(h_known _ _ _ _ I). auto.
  - exact (h_noset _ _ _ _ I).
  - intros u. cbn [known]. rewrite (h_known _ _ _ _ I), in_app_iff. cbn [In]. tauto.
  - cbn [parent_of]. destruct (Nat.eqb_spec v r); [contradiction|]. apply (h_root _ _ _ _ I).
  - intros k Hk. rewrite app_length in Hk. cbn [length] in Hk. unfold attached_best.
    destruct (Nat.eq_dec k (length ass)) as [->|NE].
    + exists p. rewrite app_nth2, Nat.sub_diag by lia. cbn [nth]. cbn [parent_of]. rewrite Nat.eqb_refl.
      rewrite firstn_app, Nat.sub_diag, firstn_O, app_nil_r, firstn_all.
      rewrite skipn_app, Nat.sub_diag, skipn_all. cbn [skipn app]. split; auto. split; auto.
      intros a b Ha Hb. assert (Hb' : In b rem) by (apply (Permutation_in _ PR); exact Hb).
      destruct (In_nth ass a 0%nat Ha) as (j' & Lj & <-). destruct (In_nth rem b 0%nat Hb') as (i' & Li & <-).
      apply HB; auto.
    + destruct (h_best _ _ _ _ I k ltac:(lia)) as (q & A & B & C). exists q. rewrite app_nth1 by lia.
      rewrite firstn_app. replace (k - length ass)%nat with 0%nat by lia. rewrite firstn_O, app_nil_r.
      split; [|split; auto].
      * cbn [parent_of]. destruct (Nat.eqb_spec v (nth k ass 0%nat)) as [E|]; auto.
        exfalso. apply Nv. rewrite E. apply nth_In. lia.
      * intros a b Ha Hb. apply C; auto. rewrite skipn_app in Hb. replace (k - length ass)%nat with 0%nat in Hb by lia.
        cbn [skipn] in Hb. rewrite <- app_assoc in Hb. rewrite in_app_iff in *. destruct Hb as [Hb|Hb]; auto.
        right. apply (Permutation_in _ PR). exact Hb.
Qed.
Lemma loop_ok r fuel : forall ass rem ops, hinv r ass rem ops -> (length rem <= fuel)%nat ->
  exists ops' order, hierarchy_loop proba ass rem ops fuel = Ok (ops', order) /\ hinv r order [] ops' /\
    Permutation order (ass ++ rem).
Proof.
  induction fuel as [|fuel IH]; intros ass rem ops I L.
  - destruct rem; [|cbn in L; lia]. exists ops, ass. rewrite app_nil_r. split; auto.
  - destruct rem as [|x rem].
    + exists ops, ass. rewrite app_nil_r. split; auto.
    + cbn [hierarchy_loop]. set (rm := x :: rem) in *. set (m := length ass).
      assert (Pm : (0 < m)%nat) by (pose proof (h_hd _ _ _ _ I) as E; unfold m; destruct ass; [discriminate|cbn; lia]).
      assert (RL : forall q, In q (map (fun i => map (proba i) ass) rm) -> length q = m).
      { intros q Hq. apply in_map_iff in Hq as (y & <- & _). apply map_length. }
      assert (CL : length (concat (map (fun i => map (proba i) ass) rm)) = (length rm * m)%nat).
      { rewrite (concat_length_rows _ m RL), map_length. auto. }
      assert (EN : forall i' j', (i' < length rm)%nat -> (j' < m)%nat ->
        nth (i' * m + j') (concat (map (fun i => map (proba i) ass) rm)) 0 = proba (nth i' rm 0%nat) (nth j' ass 0%nat)).
      { intros i' j' Hi Hj. rewrite (concat_nth _ m 0 i' j' RL) by (rewrite ?map_length; auto).
        rewrite (nth_indep _ [] (map (proba 0%nat) ass)) by (rewrite map_length; auto).
        rewrite (map_nth (fun i => map (proba i) ass)).
        rewrite (nth_indep _ 0 (proba (nth i' rm 0%nat) 0%nat)) by (rewrite map_length; auto).
        apply map_nth. }
      destruct (argmax_ok (concat (map (fun i => map (proba i) ass) rm))) as (k & Ek & Lk & Mk).
      { intros E. rewrite E in CL. unfold rm in CL. cbn in CL. lia. }
      rewrite Ek. cbn [bind]. rewrite CL in *.
      pose proof (Nat.div_mod k m ltac:(lia)) as DM. pose proof (Nat.mod_upper_bound k m ltac:(lia)) as Hj.
      assert (Hi : (k / m < length rm)%nat) by (apply Nat.div_lt_upper_bound; lia).
      assert (Ik : nth k (concat (map (fun i => map (proba i) ass) rm)) 0 = proba (nth (k / m) rm 0%nat) (nth (k mod m) ass 0%nat)).
      { rewrite <- (EN _ _ Hi Hj). f_equal. lia. }
      assert (I' : hinv r (ass ++ [nth (k / m) rm 0%nat]) (remove_at (k / m) rm) (OAdd (nth (k / m) rm 0%nat) (nth (k mod m) ass 0%nat) :: ops)).
      { apply hinv_step; auto. intros i' j' Hi' Hj'. rewrite <- (EN i' j' Hi' Hj'), <- Ik. apply Mk.
        fold m in Hj'. nia. }
      destruct (IH _ _ _ I') as (ops' & order & A & B & C).
      { rewrite remove_at_length by auto. lia. }
      exists ops', order. split; [exact A|]. split; auto. rewrite C, <- app_assoc. apply Permutation_app_head.
      cbn [app]. apply remove_at_perm. auto.
Qed.
End Loop.

(** * C120 *)
(** For all means and probabilities for which the hierarchy is evaluated: every component is added
    once, the root first; the root has no parent, every other component has one parent among
    those added before it, such that no pair of a component added before and one not added yet has
    a larger probability; following the parents leads to the root. *)
Theorem C120_hierarchy dim means proba r ops order :
  evaluate_hierarchy dim means proba = Ok (r, ops, order) ->
  let g := fst (run empty ops) in
  Permutation order (seq 0 (length means)) /\ hd_error order = Some r /\ get_parent g r = Ok None /\
  (forall k, (0 < k < length means)%nat -> exists p, get_parent g (nth k order 0%nat) = Ok (Some p) /\
     In p (firstn k order) /\
     forall a b, In a (firstn k order) -> In b (skipn k order) -> proba b a <= proba (nth k order 0%nat) p) /\
  (forall i, (i < length means)%nat -> leads_to_root g i) /\
  (forall p i, (p < length means)%nat -> exists l, get_children g p = Ok l /\ (In i l <-> get_parent g i = Ok (Some p))).
Proof.
  unfold evaluate_hierarchy. destruct (closest_index dim means) as [r0|e]; [|discriminate]. cbn [bind].
  destruct (Nat.ltb_spec r0 (length means)) as [Hr|]; [|discriminate].
  pose proof (remove_at_perm (seq 0 (length means)) 0%nat r0 ltac:(rewrite seq_length; auto)) as PR.
  rewrite seq_nth in PR by auto. cbn [plus] in PR.
  assert (I0 : hinv proba r0 [r0] (remove_at r0 (seq 0 (length means))) [ORoot r0]).
  { split; cbn [app hd_error good no_set known parent_of length In]; auto.
    - apply (Permutation_NoDup (Permutation_sym PR)), seq_NoDup.
    - intros v. tauto.
    - rewrite Nat.eqb_refl. auto.
    - intros k Hk. lia. }
  destruct (loop_ok proba r0 (length means) _ _ _ I0) as (ops' & order' & -> & I & P).
  { rewrite remove_at_length; rewrite seq_length; lia. }
  cbn [bind fst snd]. intros E. injection E as <- <- <-.
  assert (PO : Permutation order' (seq 0 (length means))) by (rewrite P; exact PR).
  pose proof (Permutation_length PO) as LO. rewrite seq_length in LO.
  assert (KN : forall i, (i < length means)%nat <-> known ops' i).
  { intros i. rewrite (h_known _ _ _ _ _ I). split; intros H.
    - apply (Permutation_in _ (Permutation_sym PO)), in_seq. lia.
    - apply (Permutation_in _ PO), in_seq in H. lia. }
  pose proof (h_good _ _ _ _ _ I) as G. destruct (C52_lookup ops' G) as [_ [LK LU]].
  split; auto. split; [exact (h_hd _ _ _ _ _ I)|].
  split; [rewrite (proj1 (LK r0 (proj1 (KN r0) Hr))), (h_root _ _ _ _ _ I); auto|]. split; [|split].
  - intros k Hk. destruct (h_best _ _ _ _ _ I k ltac:(lia)) as (p & A & B & C). exists p. rewrite app_nil_r in C.
    split; [|split; auto]. assert (Kk : known ops' (nth k order' 0%nat)) by (apply (h_known _ _ _ _ _ I), nth_In; lia).
    rewrite (proj1 (LK _ Kk)), A. auto.
  - intros i Hi. apply C52_forest; auto; [exact (h_noset _ _ _ _ _ I)|apply KN; auto].
  - intros p i Hp. pose proof (proj1 (KN p) Hp) as Kp. exists (attached ops' p). split; [apply LK; auto|].
    assert (NR : no_reattach ops').
    { pose proof (h_noset _ _ _ _ _ I) as NS. clear -NS. induction ops' as [|[v|v q|v q] t IHt]; cbn in *; auto. destruct NS. }
    destruct (le_lt_dec (length means) i) as [Hi|Hi].
    + assert (NK : ~ known ops' i) by (rewrite <- KN; lia). rewrite (proj1 (LU i NK)). split; [|discriminate].
      intros H. exfalso. apply NK. apply (known_attached ops' p i G H).
    + pose proof (proj1 (KN i) Hi) as Ki. rewrite (proj1 (LK i Ki)).
      destruct (attached_parent ops' G NR i p) as [AP _]. rewrite AP. split; [intros ->; auto|congruence].
Qed.
(** It is evaluated whenever there are at least as many components as dimensions. *)
Lemma closest_bound dim means r : closest_index dim means = Ok r -> (r < dim)%nat.
Proof.
  unfold closest_index. intros E. destruct dim as [|dim].
  - cbn in E. discriminate.
  - destruct (argmin_ok (map (fun k => norm (column k (map (fun m => vsub m (vmean (S dim) means)) means))) (seq 0 (S dim)))) as (i & A & B & _).
    { cbn. discriminate. }
    rewrite A in E. injection E as <-. rewrite map_length, seq_length in B. auto.
Qed.
Theorem C120_evaluated dim means proba : (0 < dim <= length means)%nat ->
  exists r ops order, evaluate_hierarchy dim means proba = Ok (r, ops, order).
Proof.
  intros H. unfold evaluate_hierarchy. destruct (closest_index dim means) as [r|e] eqn:E.
  - pose proof (closest_bound _ _ _ E) as B. cbn [bind]. destruct (Nat.ltb_spec r (length means)); [|lia].
    pose proof (remove_at_perm (seq 0 (length means)) 0%nat r ltac:(rewrite seq_length; lia)) as PR.
    rewrite seq_nth in PR by lia. cbn [plus] in PR.
    destruct (loop_ok proba r (length means) [r] (remove_at r (seq 0 (length means))) [ORoot r]) as (ops' & order' & -> & _).
    + split; cbn [app hd_error good no_set known parent_of length In]; auto.
      * apply (Permutation_NoDup (Permutation_sym PR)), seq_NoDup.
      * intros v. tauto.
      * rewrite Nat.eqb_refl. auto.
      * intros k Hk. lia.
    + rewrite remove_at_length; rewrite seq_length; lia.
    + cbn [bind]. eauto.
  - exfalso. unfold closest_index in E. destruct (argmin_ok (map (fun k => norm (column k (map (fun m => vsub m (vmean dim means)) means))) (seq 0 dim))) as (i & A & _).
    { destruct dim; [lia|discriminate]. }
    rewrite A in E. discriminate.
Qed.

(** * C121 *)
(** The index of the root is the index of a dimension: for all means it is smaller than the
    dimension, so no component after the first ones becomes the root. *)
Theorem C121_root_below_dimension dim means proba r ops order :
  evaluate_hierarchy dim means proba = Ok (r, ops, order) -> (r < dim)%nat.
Proof.
  unfold evaluate_hierarchy. destruct (closest_index dim means) as [r0|e] eqn:E; [|discriminate]. cbn [bind].
  destruct (Nat.ltb r0 (length means)); [|discriminate].
  destruct (hierarchy_loop proba [r0] (remove_at r0 (seq 0 (length means))) [ORoot r0] (length means)); [|discriminate].
  cbn [bind]. intros F. injection F as <- _ _. apply (closest_bound _ _ _ E).
Qed.
Lemma closest_plane a b c : closest_index 2 [a; b; c] =
  Ok (if Rltb (norm (column 1 (map (fun m => vsub m (vmean 2 [a; b; c])) [a; b; c])))
              (norm (column 0 (map (fun m => vsub m (vmean 2 [a; b; c])) [a; b; c]))) then 1%nat else 0%nat).
Proof.
  unfold closest_index. cbn [seq map argmin argmin_from].
  match goal with |- context [Rltb ?x ?y] => destruct (Rltb x y) end; reflexivity.
Qed.
(** The root is not the component closest to the center of the means. *)
Theorem C121_closest_refuted : exists (means : list vec) proba r ops order i,
  evaluate_hierarchy 2 means proba = Ok (r, ops, order) /\ (i < length means)%nat /\
  norm (vsub (nth i means []) (vmean 2 means)) < norm (vsub (nth r means []) (vmean 2 means)).
Proof.
  set (means := [[-1; 0]; [1; 0]; [0; 0]] : list vec). set (proba := fun _ _ : nat => 0).
  assert (C : vmean 2 means = [0; 0]).
  { unfold vmean, means, vdiv, vscale, vzero. cbn. apply f_equal2; [field|apply f_equal2; [field|auto]]. }
  destruct (C120_evaluated 2 means proba ltac:(cbn; lia)) as (r & ops & order & E).
  exists means, proba, r, ops, order, 2%nat. split; auto. split; [cbn; lia|].
  assert (R1 : r = 1%nat).
  { unfold evaluate_hierarchy in E. unfold means in E at 1. rewrite closest_plane in E. fold means in E. rewrite C in E.
    assert (T : forall x y : R, x < y -> Rltb x y = true) by (intros; apply Rltb_true; auto).
    rewrite T in E.
    - cbn [bind] in E. destruct (Nat.ltb 1 (length means)); [|discriminate].
      destruct (hierarchy_loop proba [1%nat] (remove_at 1 (seq 0 (length means))) [ORoot 1] (length means)); [|discriminate].
      cbn [bind] in E. injection E as <- _ _. auto.
    - unfold means, norm. cbn. apply sqrt_lt_1; lra. }
  rewrite R1, C. unfold means, norm. cbn. apply sqrt_lt_1; lra.
Qed.
(** Fewer components than dimensions: the index of a dimension is not the index of a component. *)
Theorem C121_missing_refuted : exists (means : list vec), means <> [] /\
  (forall m, In m means -> length m = 3%nat) /\ forall proba, evaluate_hierarchy 3 means proba = Err EIndex.
Proof.
  exists [[0; 0; 0]; [2; 2; 0]]. split; [discriminate|]. split; [intros m [<-|[<-|[]]]; auto|]. intros proba.
  unfold evaluate_hierarchy. enough (E : closest_index 3 [[0; 0; 0]; [2; 2; 0]] = Ok 2%nat) by (rewrite E; reflexivity).
  unfold closest_index. assert (C : vmean 3 [[0; 0; 0]; [2; 2; 0]] = [1; 1; 0]).
  { unfold vmean, vdiv, vscale, vzero. cbn. apply f_equal2; [field|apply f_equal2; [field|apply f_equal2; [field|auto]]]. }
  rewrite C. unfold norm. cbn [seq map column vsub vadd vscale nth dot argmin argmin_from].
  assert (A : forall x y : R, x = y -> Rltb (sqrt x) (sqrt y) = false).
  { intros x y ->. apply Rltb_false. lra. }
  assert (B : forall x y : R, 0 <= x < y -> Rltb (sqrt x) (sqrt y) = true).
  { intros x y H. apply Rltb_true. apply sqrt_lt_1; lra. }
  rewrite A by ring. rewrite B by lra. reflexivity.
Qed.

(** ** Examples *)
(** Three components on a line; the probabilities prefer the neighbour. *)
Definition line_proba (i j : nat) : R :=
  match i, j with 0%nat, 1%nat => / 4 | 1%nat, 0%nat => / 4 | 2%nat, 1%nat => / 2 | 1%nat, 2%nat => / 2 | _, _ => / 10 end.
Example line_hierarchy : exists ops order,
  evaluate_hierarchy 2 [[0; 0]; [1; 3]; [2; 4]] line_proba = Ok (0%nat, ops, order) /\
  order = [0%nat; 1%nat; 2%nat] /\ get_parent (fst (run empty ops)) 2 = Ok (Some 1%nat).
Proof.
  unfold evaluate_hierarchy. rewrite closest_plane.
  assert (C : vmean 2 [[0; 0]; [1; 3]; [2; 4]] = [1; 7 / 3]).
  { unfold vmean, vdiv, vscale, vzero. cbn. apply f_equal2; [field|apply f_equal2; [field|auto]]. }
  rewrite C. assert (F : forall x y : R, y <= x -> Rltb x y = false) by (intros; apply Rltb_false; auto).
  assert (T : forall x y : R, x < y -> Rltb x y = true) by (intros; apply Rltb_true; auto).
  rewrite F by (unfold norm; cbn; apply sqrt_le_1_alt; lra).
  cbn [bind length Nat.ltb Nat.leb remove_at firstn skipn seq app hierarchy_loop map concat line_proba].
  unfold argmax. cbn [map argmin argmin_from]. rewrite F by lra. cbn [bind].
  cbn [Nat.div Nat.modulo Nat.divmod fst snd nth remove_at firstn skipn app map concat line_proba length hierarchy_loop Nat.sub].
  unfold argmax. cbn [map argmin argmin_from]. rewrite T by lra. cbn [bind].
  cbn [Nat.div Nat.modulo Nat.divmod fst snd nth remove_at firstn skipn app map concat line_proba length hierarchy_loop Nat.sub].
  eexists. eexists. split; [reflexivity|]. split; reflexivity.
Qed.
Print Assumptions C120_hierarchy.
Print Assumptions C120_evaluated.
Print Assumptions C121_root_below_dimension.
Print Assumptions C121_closest_refuted.
Print Assumptions C121_missing_refuted.
