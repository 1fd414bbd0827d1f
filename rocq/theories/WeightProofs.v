(** Facts about the weight functions. *)
Require Import Reals List Bool Lra Lia.
From Verif Require Import Base Vec Pow RotModel SeqProofs WeightModel.
Import ListNotations.
Open Scope R_scope.

Lemma in_nth {A} (l : list A) x d : In x l -> exists i, (i < length l)%nat /\ nth i l d = x.
Proof. intros H. destruct (In_nth l x d H) as (i & Hi & E). eauto. Qed.
Lemma nth_map0 f l i : (i < length l)%nat -> nth i (map f l) 0 = f (nth i l 0).
Proof. apply nth_map_default. Qed.
Lemma rsum_map_div_id l c : rsum (map (fun w => w / c) l) = rsum l / c.
Proof. rewrite (rsum_map_div c (fun w => w)), map_id. auto. Qed.
Lemma rsum_pos l : (forall x, In x l -> 0 <= x) -> (exists x, In x l /\ 0 < x) -> 0 < rsum l.
Proof. intros H (x & Hx & P). pose proof (rsum_ge_elem l x H Hx). lra. Qed.
Lemma rsum_pos_elem l : 0 < rsum l -> exists x, In x l /\ 0 < x.
Proof.
  induction l as [|a l IH]; simpl; intros H; [lra|].
  destruct (Rlt_dec 0 a); [exists a; auto|].
  destruct IH as (x & Hx & P); [lra|]. exists x; auto.
Qed.
Lemma rsum_all_pos l : l <> [] -> (forall x, In x l -> 0 < x) -> 0 < rsum l.
Proof.
  intros NE H. apply rsum_pos; [intros x Hx; specialize (H x Hx); lra|].
  destruct l as [|a l]; [easy|]. exists a. split; [left; auto|]. apply H; left; auto.
Qed.
Lemma existsb_false {A} (f : A -> bool) l : existsb f l = false -> forall x, In x l -> f x = false.
Proof.
  intros H x Hx. destruct (f x) eqn:E; auto.
  assert (existsb f l = true) by (apply existsb_exists; eauto). congruence.
Qed.

(** * get_limited_weights_to_max_sum *)
Lemma limited_below ws : rsum ws < 1 -> get_limited_weights_to_max_sum ws = Ok (ws, rsum ws).
Proof. intros H. unfold get_limited_weights_to_max_sum. rewrite (proj2 (Rltb_true _ _) H). auto. Qed.
Lemma limited_saturated ws : 1 <= rsum ws -> (exists w, In w ws /\ 1 <= w) ->
  get_limited_weights_to_max_sum ws = Ok (map (fun w => if Rleb 1 w then 1 else 0) ws, 1).
Proof.
  intros H (w & Hw & W). unfold get_limited_weights_to_max_sum. rewrite (proj2 (Rltb_false _ _) H).
  replace (existsb (Rleb 1) ws) with true; auto. symmetry. apply existsb_exists.
  exists w. split; auto. apply Rleb_true; auto.
Qed.
Definition inflate_weight (w : R) : R := 1 / (1 - w) - 1.
Lemma inflate_eq w : w < 1 -> inflate_weight w = w / (1 - w).
Proof. intros. unfold inflate_weight. field. lra. Qed.
Lemma div_nonneg a b : 0 <= a -> 0 < b -> 0 <= a / b.
Proof. intros. unfold Rdiv. apply Rmult_le_pos; auto. left. apply Rinv_0_lt_compat; auto. Qed.
Lemma div_pos a b : 0 < a -> 0 < b -> 0 < a / b.
Proof. intros. apply Rdiv_lt_0_compat; auto. Qed.
Lemma div_le_compat a b c : a <= b -> 0 < c -> a / c <= b / c.
Proof. intros. unfold Rdiv. apply Rmult_le_compat_r; auto. left. apply Rinv_0_lt_compat; auto. Qed.
Lemma div_le_1 a b : 0 < b -> a <= b -> a / b <= 1.
Proof. intros. replace 1 with (b / b) by (field; lra). apply div_le_compat; auto. Qed.
Lemma inflate_nonneg w : 0 <= w < 1 -> 0 <= inflate_weight w.
Proof. intros. rewrite inflate_eq by lra. apply div_nonneg; lra. Qed.
Lemma inflate_mono v w : 0 <= v -> v <= w -> w < 1 -> inflate_weight v <= inflate_weight w.
Proof.
  intros. unfold inflate_weight. apply Rplus_le_compat_r. unfold Rdiv. rewrite !Rmult_1_l.
  apply Rinv_le_contravar; lra.
Qed.
Lemma limited_scaled ws : (forall w, In w ws -> 0 <= w < 1) -> 1 <= rsum ws ->
  0 < rsum (map inflate_weight ws) /\
  get_limited_weights_to_max_sum ws =
  Ok (map (fun w => inflate_weight w / rsum (map inflate_weight ws)) ws, 1).
Proof.
  intros H S. assert (P : 0 < rsum (map inflate_weight ws)).
  { apply rsum_pos.
    - intros x Hx. apply in_map_iff in Hx. destruct Hx as (w & <- & Hw). apply inflate_nonneg; auto.
    - destruct (rsum_pos_elem ws) as (w & Hw & W); [lra|]. exists (inflate_weight w).
      split; [apply in_map; auto|]. rewrite inflate_eq by (apply H; auto).
      specialize (H w Hw). apply div_pos; lra. }
  split; auto. unfold get_limited_weights_to_max_sum. rewrite (proj2 (Rltb_false _ _) S).
  replace (existsb (Rleb 1) ws) with false.
  2:{ symmetry. apply not_true_is_false. intros E. apply existsb_exists in E.
      destruct E as (w & Hw & W). apply Rleb_true in W. specialize (H w Hw). lra. }
  fold inflate_weight. change (fun w => 1 / (1 - w) - 1) with inflate_weight.
  destruct (Req_EM_T _ 0); [lra|]. rewrite map_map. auto.
Qed.
(** Total of the saturated entries. *)
Definition n_saturated (ws : list R) : nat := length (filter (Rleb 1) ws).
Lemma rsum_indicator {A} (p : A -> bool) l :
  rsum (map (fun w => if p w then 1 else 0) l) = INR (length (filter p l)).
Proof.
  induction l as [|a l IH]; simpl; auto. rewrite IH. destruct (p a); [|lra].
  change (length (a :: filter p l)) with (S (length (filter p l))). rewrite S_INR. lra.
Qed.
Lemma filter_pos {A} (p : A -> bool) l : (exists x, In x l /\ p x = true) -> (0 < length (filter p l))%nat.
Proof.
  intros (x & Hx & P). assert (H : In x (filter p l)) by (apply filter_In; auto).
  destruct (filter p l); simpl in *; [easy|lia].
Qed.
Lemma filter_none {A} (p : A -> bool) l : length (filter p l) = 0%nat -> forall x, In x l -> p x = false.
Proof.
  intros H x Hx. destruct (p x) eqn:E; auto.
  assert (0 < length (filter p l))%nat by (apply filter_pos; eauto). lia.
Qed.

(** * Distance weights *)
Lemma count_le_pos m l : (exists d, In d l /\ d <= m) -> (0 < count_le m l)%nat.
Proof.
  intros (d & Hd & L). apply filter_pos. exists d. split; auto. apply Rleb_true; auto.
Qed.
Lemma count_le_zero m l : (forall d, In d l -> m < d) -> count_le m l = 0%nat.
Proof.
  intros H. unfold count_le. induction l as [|a l IH]; simpl; auto.
  rewrite (proj2 (Rleb_false a m)) by (apply H; left; auto). apply IH. intros; apply H; right; auto.
Qed.
Lemma gamma_weights_critical ds m p : (exists d, In d ds /\ d <= m) ->
  compute_gamma_weights ds m p =
  Ok (map (fun d => if Rleb d m then 1 / INR (count_le m ds) else 0) ds).
Proof.
  intros H. pose proof (count_le_pos m ds H) as K. unfold compute_gamma_weights.
  rewrite (proj2 (Nat.ltb_lt _ _) K). destruct (Nat.leb_spec 2 (count_le m ds)) as [L|L].
  - f_equal. apply map_ext. intros d. destruct (Rleb d m); unfold Rdiv; ring.
  - replace (count_le m ds) with 1%nat by lia. f_equal. apply map_ext. intros d.
    destruct (Rleb d m); simpl; [field|auto].
Qed.
Lemma gamma_weights_far ds m p : (forall d, In d ds -> m < d) ->
  let raw := map (fun d => Rpower (1 / (d - m)) p) ds in
  compute_gamma_weights ds m p =
  Ok (if Rle_dec (rsum raw) 1 then raw else map (fun w => w / rsum raw) raw).
Proof.
  intros H raw. unfold compute_gamma_weights. rewrite count_le_zero by auto. cbn [Nat.ltb Nat.leb].
  rewrite mapM_ok with (g := fun d => Rpower (1 / (d - m)) p).
  - cbn [bind]. fold raw. destruct (Rle_dec (rsum raw) 1); auto.
  - intros d Hd. specialize (H d Hd). unfold fdiv. destruct (Req_EM_T (d - m) 0); [lra|].
    cbn [bind]. apply fpow_pos. apply div_pos; lra.
Qed.
Lemma distance_weights_critical ds m nz : (exists d, In d ds /\ d <= m) ->
  compute_weights_from_distances ds m nz =
  Ok (map (fun d => if Rleb d m then 1 / INR (count_le m ds) else 0) ds).
Proof.
  intros H. pose proof (count_le_pos m ds H) as K. unfold compute_weights_from_distances.
  rewrite (proj2 (Nat.ltb_lt _ _) K). f_equal. apply map_ext. intros d.
  destruct (Rleb d m); unfold Rdiv; ring.
Qed.
Lemma distance_weights_far ds m nz : (forall d, In d ds -> m < d) ->
  let raw := map (fun d => 1 / (d - m)) ds in
  compute_weights_from_distances ds m nz =
  Ok (if nz && Rltb 1 (rsum raw) then map (fun w => w / rsum raw) raw else raw).
Proof.
  intros H raw. unfold compute_weights_from_distances. rewrite count_le_zero by auto.
  cbn [Nat.ltb Nat.leb].
  rewrite mapM_ok with (g := fun d => 1 / (d - m)).
  - cbn [bind]. fold raw. destruct (nz && _); auto.
  - intros d Hd. specialize (H d Hd). unfold fdiv. destruct (Req_EM_T (d - m) 0); [lra|]. auto.
Qed.
Lemma rsum_critical m ds : (exists d, In d ds /\ d <= m) ->
  rsum (map (fun d => if Rleb d m then 1 / INR (count_le m ds) else 0) ds) = 1.
Proof.
  intros H. pose proof (count_le_pos m ds H) as K. apply lt_INR in K. simpl in K.
  rewrite (rsum_ext _ (fun d => (if Rleb d m then 1 else 0) / INR (count_le m ds))).
  - rewrite rsum_map_div, (rsum_indicator (fun d => Rleb d m)). unfold count_le.
    field. unfold count_le in K. lra.
  - intros d _. destruct (Rleb d m); unfold Rdiv; ring.
Qed.
Lemma far_or_critical m ds : (exists d, In d ds /\ d <= m) \/ (forall d, In d ds -> m < d).
Proof.
  destruct (existsb (fun d => Rleb d m) ds) eqn:E.
  - left. apply existsb_exists in E. destruct E as (d & Hd & L). apply Rleb_true in L. eauto.
  - right. intros d Hd. pose proof (existsb_false _ _ E d Hd) as F. apply Rleb_false in F. auto.
Qed.

(** * Minimum of a list *)
Lemma fold_min_le l x : fold_left Rmin l x <= x /\ forall y, In y l -> fold_left Rmin l x <= y.
Proof.
  revert x. induction l as [|a l IH]; simpl; intros x; [split; [lra|easy]|].
  destruct (IH (Rmin x a)) as (A & B). pose proof (Rmin_l x a). pose proof (Rmin_r x a).
  split; [lra|]. intros y [<-|Hy]; [lra|auto].
Qed.
Lemma fold_min_in l x : fold_left Rmin l x = x \/ In (fold_left Rmin l x) l.
Proof.
  revert x. induction l as [|a l IH]; simpl; intros x; [auto|].
  destruct (IH (Rmin x a)) as [E|I]; [|auto]. rewrite E.
  unfold Rmin. destruct (Rle_dec x a); auto.
Qed.
Lemma rmin_list_le l y : In y l -> rmin_list l <= y.
Proof.
  destruct l as [|x l]; [easy|]. intros [<-|H]; simpl; [apply (proj1 (fold_min_le l x))|apply (proj2 (fold_min_le l x)); auto].
Qed.
Lemma rmin_list_in l : l <> [] -> In (rmin_list l) l.
Proof.
  destruct l as [|x l]; [easy|]. intros _. simpl. destruct (fold_min_in l x) as [->|H]; auto.
Qed.
