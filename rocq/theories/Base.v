(** Errors as values, boolean comparisons of reals, sums of lists. *)
Require Import Reals List Lra Lia Bool Permutation.
Import ListNotations.
Open Scope R_scope.

(** Python exceptions and undefined floating point results as values.
    [ENaN] stands for a result which holds NaN or inf (0/0, x/0, fractional power of a
    negative number). *)
Inductive err : Type :=
| EValue | EKey | EType | EIndex | ENotImpl | ENaN | EZeroDiv | EAttr | EName | EExc.

Inductive res (A : Type) : Type :=
| Ok (a : A)
| Err (e : err).
Arguments Ok {A} a.
Arguments Err {A} e.

Definition bind {A B} (m : res A) (f : A -> res B) : res B :=
  match m with Ok a => f a | Err e => Err e end.
Notation "'do' x <- m ; k" := (bind m (fun x => k))
  (at level 200, x name, m at level 100, k at level 200, right associativity).
Notation "'do' ' p <- m ; k" := (bind m (fun p => k))
  (at level 200, p pattern, m at level 100, k at level 200, right associativity).

Definition is_ok {A} (m : res A) : Prop := exists a, m = Ok a.

(** Boolean comparisons. *)
Definition Rltb (x y : R) : bool := if Rlt_dec x y then true else false.
Definition Rleb (x y : R) : bool := if Rle_dec x y then true else false.
Definition Reqb (x y : R) : bool := if Req_EM_T x y then true else false.

Lemma Rltb_true x y : Rltb x y = true <-> x < y.
Proof. unfold Rltb; destruct (Rlt_dec x y); split; intros; auto; discriminate. Qed.
Lemma Rltb_false x y : Rltb x y = false <-> y <= x.
Proof. unfold Rltb; destruct (Rlt_dec x y); split; intros; auto; try discriminate; lra. Qed.
Lemma Rleb_true x y : Rleb x y = true <-> x <= y.
Proof. unfold Rleb; destruct (Rle_dec x y); split; intros; auto; discriminate. Qed.
Lemma Rleb_false x y : Rleb x y = false <-> y < x.
Proof. unfold Rleb; destruct (Rle_dec x y); split; intros; auto; try discriminate; lra. Qed.
Lemma Reqb_true x y : Reqb x y = true <-> x = y.
Proof. unfold Reqb; destruct (Req_EM_T x y); split; intros; auto; discriminate. Qed.
Lemma Reqb_false x y : Reqb x y = false <-> x <> y.
Proof. unfold Reqb; destruct (Req_EM_T x y); split; intros; auto; try discriminate; contradiction. Qed.

(** [np.sum] of a list. *)
Definition rsum (l : list R) : R := fold_right Rplus 0 l.

Lemma rsum_app l1 l2 : rsum (l1 ++ l2) = rsum l1 + rsum l2.
Proof. induction l1; simpl; [lra | rewrite IHl1; lra]. Qed.
Lemma rsum_perm l1 l2 : Permutation l1 l2 -> rsum l1 = rsum l2.
Proof. induction 1; simpl; lra. Qed.
Lemma rsum_map_scale {A} c (f : A -> R) l :
  rsum (map (fun x => c * f x) l) = c * rsum (map f l).
Proof. induction l; simpl; [lra | rewrite IHl; lra]. Qed.
Lemma rsum_map_div {A} c (f : A -> R) l :
  rsum (map (fun x => f x / c) l) = rsum (map f l) / c.
Proof. unfold Rdiv. induction l; simpl; [lra | rewrite IHl; lra]. Qed.
Lemma rsum_map_plus {A} (f g : A -> R) l :
  rsum (map (fun x => f x + g x) l) = rsum (map f l) + rsum (map g l).
Proof. induction l; simpl; [lra | rewrite IHl; lra]. Qed.
Lemma rsum_nonneg l : (forall x, In x l -> 0 <= x) -> 0 <= rsum l.
Proof.
  induction l; simpl; intros H; [lra|].
  assert (0 <= a) by (apply H; auto).
  assert (0 <= rsum l) by (apply IHl; intros; apply H; auto). lra.
Qed.
Lemma rsum_ge_elem l x : (forall y, In y l -> 0 <= y) -> In x l -> x <= rsum l.
Proof.
  induction l; simpl; intros H Hin; [contradiction|].
  assert (0 <= a) by (apply H; auto).
  assert (0 <= rsum l) by (apply rsum_nonneg; intros; apply H; auto).
  destruct Hin as [->|Hin]; [lra|].
  assert (x <= rsum l) by (apply IHl; auto). lra.
Qed.
Lemma rsum_map_const {A} c (l : list A) : rsum (map (fun _ => c) l) = INR (length l) * c.
Proof.
  induction l; [simpl; lra|].
  cbn [map length]. rewrite S_INR. cbn [rsum fold_right]. fold (rsum (map (fun _ => c) l)).
  rewrite IHl; lra.
Qed.
Lemma rsum_le {A} (f g : A -> R) l :
  (forall x, In x l -> f x <= g x) -> rsum (map f l) <= rsum (map g l).
Proof.
  induction l; simpl; intros H; [lra|].
  assert (f a <= g a) by (apply H; auto).
  assert (rsum (map f l) <= rsum (map g l)) by (apply IHl; intros; apply H; auto). lra.
Qed.
Lemma rsum_ext {A} (f g : A -> R) l :
  (forall x, In x l -> f x = g x) -> rsum (map f l) = rsum (map g l).
Proof.
  induction l; simpl; intros H; [lra|].
  rewrite (H a) by auto. rewrite IHl; auto.
Qed.
Lemma rsum_zero_all l :
  (forall x, In x l -> 0 <= x) -> rsum l = 0 -> forall x, In x l -> x = 0.
Proof.
  intros H Hs x Hx. pose proof (rsum_ge_elem l x H Hx). pose proof (H x Hx). lra.
Qed.

Lemma nth_map_default {A B} (f : A -> B) l i d d' :
  (i < length l)%nat -> nth i (map f l) d = f (nth i l d').
Proof.
  intros H. rewrite (nth_indep _ d (f d')) by (rewrite map_length; auto).
  apply map_nth.
Qed.
