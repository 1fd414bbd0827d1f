(** Orthogonal matrices and the shape of the folded position. *)
Require Import Reals List Lia Lra Bool.
From Verif Require Import Base Vec Angle RotModel Spec RotProofs Pow DynModel PropDynamics FoldModel.
Import ListNotations.
Open Scope R_scope.

(** ** Orthonormal columns *)
Fixpoint orthonormal_columns (columns : list vec) : Prop :=
  match columns with
  | [] => True
  | c :: cs => unitv c /\ Forall (fun c' => dot c c' = 0) cs /\ orthonormal_columns cs
  end.
(** An orthogonal matrix of dimension [n]. *)
Definition orthogonal_matrix (n : nat) (columns : list vec) : Prop :=
  length columns = n /\ Forall (fun c => length c = n) columns /\ orthonormal_columns columns.

Lemma mat_vec_len n cs : Forall (fun c => length c = n) cs -> forall x, length (mat_vec n cs x) = n.
Proof.
  induction 1 as [|c cs L _ IH]; intros x; [apply length_vzero|].
  destruct x; simpl; [apply length_vzero|]. rewrite length_vadd, length_vscale, IH. lia.
Qed.
Lemma mat_adjoint n cs : forall x v, dot (mat_vec n cs x) v = dot x (mat_t_vec cs v).
Proof.
  induction cs as [|c cs IH]; intros x v; [simpl; rewrite dot_vzero_l, dot_nil_r; auto|].
  destruct x as [|a x]; [simpl; apply dot_vzero_l|].
  cbn [mat_vec mat_t_vec map]. rewrite dot_vadd_l, dot_vscale_l. cbn [dot]. rewrite IH. unfold mat_t_vec. auto.
Qed.
Lemma mat_perp n cs c : Forall (fun c' => dot c c' = 0) cs -> forall x, dot c (mat_vec n cs x) = 0.
Proof.
  induction 1 as [|c' cs H _ IH]; intros x; [simpl; apply dot_vzero_r|].
  destruct x as [|a x]; [simpl; apply dot_vzero_r|]. simpl. rewrite dot_vadd_r, dot_vscale_r, IH, H. ring.
Qed.
Lemma mat_isometry n cs : orthonormal_columns cs -> forall x, length x = length cs ->
  dot (mat_vec n cs x) (mat_vec n cs x) = dot x x.
Proof.
  induction cs as [|c cs IH]; intros O x L; destruct x as [|a x]; try discriminate; [simpl; apply dot_vzero_l|].
  destruct O as (U & P & O). cbn [mat_vec dot]. autorewrite with vdot. rewrite (dot_comm (mat_vec n cs x) c).
  rewrite (mat_perp n cs c P), IH by auto. unfold unitv in U. rewrite U. ring.
Qed.
Lemma bessel n cs v : orthonormal_columns cs ->
  dot (vsub v (mat_vec n cs (mat_t_vec cs v))) (vsub v (mat_vec n cs (mat_t_vec cs v))) =
  dot v v - dot (mat_t_vec cs v) (mat_t_vec cs v).
Proof.
  intros O. autorewrite with vdot. rewrite mat_isometry by (auto; unfold mat_t_vec; apply map_length).
  rewrite (dot_comm v (mat_vec n cs _)), mat_adjoint. ring.
Qed.

(** Unit vectors of the axes. *)
Definition axis (n i : nat) : vec := map (fun k => if Nat.eq_dec k i then 1 else 0) (seq 0 n).
Lemma axis_len n i : length (axis n i) = n.
Proof. unfold axis. rewrite map_length, seq_length. auto. Qed.
Lemma dot_axis_gen v i : forall s, dot v (map (fun k => if Nat.eq_dec k (s + i) then 1 else 0) (seq s (length v))) = nth i v 0.
Proof.
  revert i. induction v as [|x v IH]; intros i s; [destruct i; auto|].
  cbn [length seq map dot]. destruct i as [|i].
  - destruct (Nat.eq_dec s (s + 0)) as [_|H]; [|lia]. cbn [nth].
    replace (dot v _) with 0; [ring|]. clear. symmetry.
    assert (G : forall l s', (s < s')%nat -> dot l (map (fun k => if Nat.eq_dec k (s + 0) then 1 else 0) (seq s' (length l))) = 0).
    { induction l as [|y l IH]; intros s' Hs; auto. cbn [length seq map dot]. rewrite IH by lia.
      destruct (Nat.eq_dec s' (s + 0)); [lia|ring]. }
    apply G. lia.
  - destruct (Nat.eq_dec s (s + S i)) as [H|_]; [lia|]. cbn [nth]. rewrite <- (IH i (S s)).
    replace (S s + i)%nat with (s + S i)%nat by lia. ring.
Qed.
Lemma dot_axis n v i : length v = n -> dot v (axis n i) = nth i v 0.
Proof. intros <-. apply (dot_axis_gen v i 0). Qed.

Lemma dot_sum_nth v : dot v v = rsum (map (fun i => nth i v 0 * nth i v 0) (seq 0 (length v))).
Proof.
  induction v as [|x v IH]; auto. cbn [length seq map rsum fold_right dot nth]. rewrite IH. unfold rsum.
  rewrite <- seq_shift, map_map. auto.
Qed.
Lemma sum_exchange {A B} (f : A -> B -> R) l m :
  rsum (map (fun a => rsum (map (f a) m)) l) = rsum (map (fun b => rsum (map (fun a => f a b) l)) m).
Proof.
  induction l as [|a l IH].
  - simpl. rewrite (rsum_map_const 0 m). ring.
  - cbn [map rsum fold_right]. fold (rsum (map (fun a => rsum (map (f a) m)) l)). rewrite IH.
    rewrite <- rsum_map_plus. auto.
Qed.
Lemma sum_bound {A} (f : A -> R) l : (forall x, In x l -> f x <= 1) -> rsum (map f l) = INR (length l) ->
  forall x, In x l -> f x = 1.
Proof.
  intros H E x Hx.
  assert (Z : rsum (map (fun a => 1 + -1 * f a) l) = 0).
  { rewrite rsum_map_plus, rsum_map_const, rsum_map_scale, E. ring. }
  assert (F : 1 + -1 * f x = 0); [|lra].
  refine (rsum_zero_all _ _ Z _ _).
  - intros y Hy. apply in_map_iff in Hy as (a & <- & Ha). specialize (H a Ha). lra.
  - apply (in_map (fun a => 1 + -1 * f a)). auto.
Qed.

(** n orthonormal vectors of R^n span R^n. *)
Lemma orthogonal_complete n cs : orthogonal_matrix n cs -> forall v, length v = n ->
  mat_vec n cs (mat_t_vec cs v) = v.
Proof.
  intros (Ln & Lc & O) v Lv.
  assert (TA : forall i, mat_t_vec cs (axis n i) = map (fun c => nth i c 0) cs).
  { intros i. unfold mat_t_vec. apply map_ext_in. intros c Hc. rewrite Forall_forall in Lc. apply dot_axis. auto. }
  assert (AA : forall i, (i < n)%nat -> dot (axis n i) (axis n i) = 1).
  { intros i Hi. rewrite dot_axis by apply axis_len. unfold axis.
    rewrite (nth_map_default _ _ _ _ 0%nat) by (rewrite seq_length; auto). rewrite seq_nth by auto.
    destruct (Nat.eq_dec (0 + i) i); auto. contradiction. }
  assert (P2 : forall i, dot (mat_t_vec cs (axis n i)) (mat_t_vec cs (axis n i)) = rsum (map (fun c => nth i c 0 * nth i c 0) cs)).
  { intros i. rewrite TA. clear. induction cs as [|c cs IH]; auto. cbn [map dot rsum fold_right]. rewrite IH. auto. }
  assert (One : forall i, In i (seq 0 n) -> rsum (map (fun c => nth i c 0 * nth i c 0) cs) = 1).
  { apply sum_bound.
    - intros i Hi. apply in_seq in Hi. pose proof (bessel n cs (axis n i) O) as B. rewrite P2, AA in B by lia.
      pose proof (dot_self_nonneg (vsub (axis n i) (mat_vec n cs (mat_t_vec cs (axis n i))))). lra.
    - rewrite (sum_exchange (fun i c => nth i c 0 * nth i c 0)), seq_length.
      replace (INR n) with (rsum (map (fun _ : vec => 1) cs)) by (rewrite rsum_map_const, Ln; ring).
      apply rsum_ext. intros c Hc. rewrite Forall_forall in Lc. rewrite <- (Lc c Hc). rewrite <- dot_sum_nth.
      clear - O Hc. induction cs as [|b cs IH]; [destruct Hc|]. destruct O as (U & _ & O). destruct Hc as [<-|Hc]; auto. }
  assert (Res : forall i, (i < n)%nat -> vsub (axis n i) (mat_vec n cs (mat_t_vec cs (axis n i))) = vzero n).
  { intros i Hi. pose proof (bessel n cs (axis n i) O) as B. rewrite P2, AA, One in B by (auto; apply in_seq; lia).
    replace (1 - 1) with 0 in B by ring. apply dot_self_zero in B. rewrite B at 1. f_equal.
    autorewrite with vlen. rewrite axis_len, mat_vec_len; auto. lia. }
  assert (LM : length (mat_vec n cs (mat_t_vec cs v)) = n) by (apply mat_vec_len; auto).
  apply vec_ext; [congruence|]. intros i.
  destruct (Nat.lt_ge_cases i n) as [Hi|Hi].
  - rewrite <- (dot_axis n v i), <- (dot_axis n (mat_vec n cs _) i) by auto.
    rewrite mat_adjoint, (dot_comm (mat_t_vec cs v)), <- (mat_adjoint n), (dot_comm _ v).
    pose proof (f_equal (dot v) (Res i Hi)) as E. rewrite dot_vsub_r, dot_vzero_r in E. lra.
  - rewrite !nth_overflow by lia. auto.
Qed.
Lemma orthogonal_norm n cs v : orthogonal_matrix n cs -> length v = n ->
  dot (mat_t_vec cs v) (mat_t_vec cs v) = dot v v.
Proof. intros O L. rewrite <- (mat_adjoint n), (orthogonal_complete n) by auto. auto. Qed.
Lemma vscale_vzero f n : vscale f (vzero n) = vzero n.
Proof. vext. ring. Qed.
Lemma mat_vec_scale n cs f : Forall (fun c => length c = n) cs -> forall x,
  mat_vec n cs (vscale f x) = vscale f (mat_vec n cs x).
Proof.
  intros L. induction L as [|c cs Hc Hl IH]; intros x; [symmetry; apply vscale_vzero|].
  destruct x as [|a x]; [symmetry; apply vscale_vzero|]. change (vscale f (a :: x)) with (f * a :: vscale f x). cbn [mat_vec]. rewrite IH.
  pose proof (mat_vec_len n cs Hl x). vext. ring.
Qed.

(** ** Multiplication of the first entry *)
Lemma scale_first_len c v : length (scale_first c v) = length v.
Proof. destruct v; auto. Qed.
Lemma scale_first_inv c v : c <> 0 -> scale_first (/ c) (scale_first c v) = v.
Proof. intros. destruct v; simpl; auto. f_equal. field. auto. Qed.
Lemma scale_first_zero c n : scale_first c (vzero n) = vzero n.
Proof. destruct n; unfold vzero; simpl; auto. f_equal. ring. Qed.
