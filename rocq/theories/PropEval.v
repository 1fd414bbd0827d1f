(** Properties C130-C134: the comparison of trajectories. *)
Require Import Reals List Bool Arith Lra Lia Psatz.
From Verif Require Import Base Vec Pow RotModel Spec RotProofs EvalModel PropGmmGamma.
Import ListNotations.
Open Scope R_scope.

(** * C130: the trajectories of the comparison *)
(** ** Specification *)
(** One step of length [dt] along the velocity, which is not below the margin. *)
Definition moves (evaluate : vec -> res vec) (dt margin : R) (p q : vec) : Prop :=
  exists v, evaluate p = Ok v /\ margin <= norm v /\ norm v <> 0 /\ q = vadd p (vscale dt (vdiv v (norm v))).
Definition collides (collision : option (vec -> bool)) (p : vec) : Prop :=
  exists f, collision = Some f /\ f p = true.
Definition consecutive (P : vec -> vec -> Prop) (l : list vec) : Prop :=
  forall i, (S i < length l)%nat -> P (nth i l []) (nth (S i) l []).
(** The two reasons to stop. *)
Definition stops_at_collision evaluate collision dt margin (t : list vec) : Prop :=
  t <> [] /\ exists q, moves evaluate dt margin (last t []) q /\ collides collision q.
Definition stops_at_minimum evaluate collision dt margin (start : vec) (t : list vec) : Prop :=
  exists p v, (t = [] /\ p = start \/ t <> [] /\ moves evaluate dt margin (last t []) p /\ ~ collides collision p) /\
    evaluate p = Ok v /\ norm v < margin.

(** ** Lemmas *)
Lemma nth_last (l : list vec) p : nth (length l) (l ++ [p]) [] = p.
Proof. rewrite app_nth2 by lia. rewrite Nat.sub_diag. auto. Qed.
Lemma last_snoc (l : list vec) p : last (l ++ [p]) [] = p.
Proof. apply last_last. Qed.
Lemma last_nth_pred (l : list vec) : l <> [] -> last l [] = nth (pred (length l)) l [].
Proof.
  intros H. destruct (exists_last H) as (l' & x & ->). rewrite last_snoc, app_length. simpl.
  replace (pred (length l' + 1)) with (length l') by lia. rewrite nth_last. auto.
Qed.
Lemma consecutive_snoc P l p : consecutive P l -> (l <> [] -> P (last l []) p) -> consecutive P (l ++ [p]).
Proof.
  intros C H i Hi. rewrite app_length in Hi. simpl in Hi.
  destruct (Nat.eq_dec (S i) (length l)) as [E|E].
  - rewrite E, nth_last, app_nth1 by lia. replace i with (pred (length l)) by lia.
    assert (l <> []) by (intros ->; discriminate). rewrite <- last_nth_pred by auto. auto.
  - rewrite !app_nth1 by lia. apply C. lia.
Qed.
Lemma consecutive_front P l p : consecutive P (l ++ [p]) -> consecutive P l /\ (l <> [] -> P (last l []) p).
Proof.
  intros C. split.
  - intros i Hi. specialize (C i). rewrite app_length, !app_nth1 in C by lia. apply C. simpl. lia.
  - intros H. rewrite last_nth_pred by auto. assert (length l <> 0)%nat by (destruct l; [contradiction|discriminate]).
    specialize (C (pred (length l))). rewrite app_length in C. simpl in C.
    rewrite app_nth1 in C by lia. replace (S (pred (length l))) with (length l) in C by lia. rewrite nth_last in C.
    apply C. lia.
Qed.
Definition free_move evaluate collision dt margin (p q : vec) : Prop :=
  moves evaluate dt margin p q /\ ~ collides collision q.
Lemma loop_spec evaluate collision dt margin start : forall k history t, history <> [] ->
  nth 0 history [] = start -> consecutive (free_move evaluate collision dt margin) history ->
  integrate_loop evaluate collision dt margin k history (last history []) = Ok t ->
  consecutive (free_move evaluate collision dt margin) t /\ (t <> [] -> nth 0 t [] = start) /\
  ((length t = length history + k)%nat \/
   (length t < length history + k)%nat /\
   (stops_at_collision evaluate collision dt margin t \/ stops_at_minimum evaluate collision dt margin start t)).
Proof.
  induction k; intros history t Hn H0 HC E; cbn [integrate_loop] in E.
  { injection E as <-. split; [auto|]. split; [auto|]. left. lia. }
  destruct (evaluate (last history [])) as [v|] eqn:Ev; [|discriminate]. cbn [bind] in E.
  destruct (Rltb (norm v) margin) eqn:M.
  { injection E as <-. apply Rltb_true in M. destruct (exists_last Hn) as (l & x & ->).
    rewrite removelast_last. rewrite last_snoc in Ev.
    destruct (consecutive_front _ _ _ HC) as (C1 & C2). split; auto.
    split; [intros Hl; destruct l; [contradiction|exact H0]|].
    right. split; [rewrite app_length; simpl; lia|]. right. exists x, v. split; auto.
    destruct l as [|y l]; [left; split; auto|]. right.
    assert (N : y :: l <> []) by discriminate. split; [exact N|]. apply C2. exact N. }
  apply Rltb_false in M. destruct (Req_EM_T (norm v) 0) as [|Nz]; [discriminate|].
  set (q := vadd (vscale dt (vdiv v (norm v))) (last history [])) in *.
  assert (MV : moves evaluate dt margin (last history []) q).
  { exists v. repeat split; auto. unfold q. vext. ring. }
  destruct (match collision with Some f => f q | None => false end) eqn:Ec.
  { injection E as <-. split; [auto|]. split; [auto|]. right. split; [lia|]. left. split; auto. exists q. split; auto.
    destruct collision as [f|]; [exists f; auto|discriminate]. }
  rewrite <- (last_snoc history q) in E at 2.
  assert (FM : ~ collides collision q).
  { intros (f & -> & Hf). congruence. }
  destruct (IHk (history ++ [q]) t) as (A & B & C).
  - destruct history; discriminate.
  - destruct history; [contradiction|exact H0].
  - apply consecutive_snoc; auto. intros _. split; auto.
  - exact E.
  - split; auto. split; auto. rewrite app_length in C. simpl in C. destruct C as [C|(C1 & C2)]; [left; lia|right].
    split; [lia|auto].
Qed.

(** ** Theorems *)
(** A result starts at the start, each step follows the field with length [dt], no point after the
    start is in collision. *)
Theorem C130_trajectory : forall evaluate start it_max dt margin collision t,
  integrate_run evaluate start it_max dt margin collision = Ok t ->
  (length t <= it_max)%nat /\ (t <> [] -> nth 0 t [] = start) /\
  consecutive (moves evaluate dt margin) t /\
  (forall i, (S i < length t)%nat -> ~ collides collision (nth (S i) t [])).
Proof.
  intros evaluate start it_max dt margin collision t E. unfold integrate_run in E.
  destruct it_max as [|[|k]]; try discriminate.
  destruct (loop_spec evaluate collision dt margin start (S k) [start] t) as (A & B & C); auto; try discriminate.
  { intros i Hi. simpl in Hi. lia. }
  simpl in C. split; [lia|]. split; auto. split; intros i Hi; apply A; auto.
Qed.
(** A result with all points never stopped; a shorter result stopped for one of the two reasons. *)
Theorem C130_stopped : forall evaluate start it_max dt margin collision t,
  integrate_run evaluate start it_max dt margin collision = Ok t -> (length t < it_max)%nat ->
  stops_at_collision evaluate collision dt margin t \/ stops_at_minimum evaluate collision dt margin start t.
Proof.
  intros evaluate start it_max dt margin collision t E L. unfold integrate_run in E.
  destruct it_max as [|[|k]]; try discriminate.
  destruct (loop_spec evaluate collision dt margin start (S k) [start] t) as (A & B & C); auto; try discriminate.
  { intros i Hi. simpl in Hi. lia. }
  simpl in C. destruct C as [C|(_ & C)]; [lia|auto].
Qed.
(** The steps have equal length. *)
Theorem C130_step_length : forall evaluate start it_max dt margin collision t i,
  integrate_run evaluate start it_max dt margin collision = Ok t -> (S i < length t)%nat ->
  (forall p v, evaluate p = Ok v -> length v = length p) ->
  norm (vsub (nth (S i) t []) (nth i t [])) = Rabs dt.
Proof.
  intros evaluate start it_max dt margin collision t i E Hi Hl.
  destruct (C130_trajectory _ _ _ _ _ _ _ E) as (_ & _ & C & _).
  destruct (C i Hi) as (v & Ev & _ & Nz & ->). set (p := nth i t []) in *.
  replace (vsub (vadd p (vscale dt (vdiv v (norm v)))) p) with (vscale dt (vdiv v (norm v))).
  - rewrite norm_vscale. fold (dirof v). rewrite (proj1 (unit_norm (dirof v))) by (apply dirof_unit; auto). ring.
  - specialize (Hl _ _ Ev). vext. ring.
Qed.

(** A run counted as a local minimum stopped for one of the two reasons; the others have all points. *)
Theorem C130_counted : forall evaluate start it_max dt margin collision t,
  integrate_run evaluate start it_max dt margin collision = Ok t ->
  (counts_as_local_minimum it_max t = true ->
     stops_at_collision evaluate collision dt margin t \/ stops_at_minimum evaluate collision dt margin start t) /\
  (counts_as_local_minimum it_max t = false -> length t = it_max /\
     forall i, (S i < it_max)%nat -> moves evaluate dt margin (nth i t []) (nth (S i) t [])).
Proof.
  intros evaluate start it_max dt margin collision t E. destruct (C130_trajectory _ _ _ _ _ _ _ E) as (L & _ & C & _).
  unfold counts_as_local_minimum. split; intros H.
  - apply Nat.ltb_lt in H. apply (C130_stopped _ _ _ _ _ _ _ E H).
  - apply Nat.ltb_ge in H. assert (Lt : length t = it_max) by lia. split; auto. intros i Hi. apply C. lia.
Qed.
(** A field to the right with a wall: the run collides, the velocity has norm one everywhere, the run
    is counted as a local minimum. *)
Definition right_field (p : vec) : res vec := Ok [1; 0].
Definition wall (p : vec) : bool := Rltb (3 / 2) (nth 0 p 0).
Lemma norm_right : norm [1; 0] = 1.
Proof. unfold norm. simpl. replace (1 * 1 + (0 * 0 + 0)) with 1 by ring. apply sqrt_1. Qed.
Lemma right_step x y h m k (Hm : m <= 1) c :
  integrate_loop right_field c 1 m (S k) h [x; y] =
  if match c with Some f => f [1 + x; y] | None => false end then Ok h
  else integrate_loop right_field c 1 m k (h ++ [[1 + x; y]]) [1 + x; y].
Proof.
  cbn [integrate_loop]. unfold right_field at 1. cbn [bind]. rewrite norm_right.
  rewrite (proj2 (Rltb_false _ _)) by lra. destruct (Req_EM_T 1 0); [lra|].
  assert (V : vadd (vscale 1 (vdiv [1; 0] 1)) [x; y] = [1 + x; y]).
  { unfold vdiv, vscale. simpl. f_equal; [field|f_equal; ring]. }
  rewrite V. reflexivity.
Qed.
Theorem C130_classification_refuted : exists evaluate start it_max dt margin collision t,
  integrate_run evaluate start it_max dt margin (Some collision) = Ok t /\
  counts_as_local_minimum it_max t = true /\
  (forall p, exists v, evaluate p = Ok v /\ margin <= norm v) /\
  stops_at_collision evaluate (Some collision) dt margin t.
Proof.
  exists right_field, [0; 0], 5%nat, 1, (1 / 100), wall, [[0; 0]; [1 + 0; 0]].
  split; [|split; [reflexivity|split]].
  - unfold integrate_run. rewrite right_step by lra. unfold wall at 1. cbn [nth].
    rewrite (proj2 (Rltb_false _ _)) by lra. cbn [app]. rewrite right_step by lra. unfold wall at 1. cbn [nth].
    rewrite (proj2 (Rltb_true _ _)) by lra. reflexivity.
  - intros p. exists [1; 0]. rewrite norm_right. split; [reflexivity|lra].
  - split; [discriminate|]. exists [2; 0]. split.
    + exists [1; 0]. rewrite norm_right. cbn [last]. split; [reflexivity|]. split; [lra|]. split; [lra|].
      unfold vdiv, vscale. simpl. f_equal; [field|f_equal; ring].
    + exists wall. split; auto. unfold wall. cbn [nth]. apply Rltb_true. lra.
Qed.
(** The last valid point before a local minimum is lost; a start at a local minimum gives nothing. *)
Theorem C130_minimum_refuted : exists evaluate start it_max dt margin,
  evaluate start = Ok [0; 0] /\ 0 < margin /\ integrate_run evaluate start it_max dt margin None = Ok [].
Proof.
  exists (fun _ => Ok [0; 0]), [1; 2], 5%nat, 1, (1 / 100). split; auto. split; [lra|].
  unfold integrate_run. cbn [integrate_loop bind].
  replace (norm [0; 0]) with 0.
  - rewrite (proj2 (Rltb_true _ _)) by lra. reflexivity.
  - unfold norm. simpl. replace (0 * 0 + (0 * 0 + 0)) with 0 by ring. rewrite sqrt_0. auto.
Qed.
(** The start is not tested for collision. *)
Theorem C130_start_refuted : exists evaluate start it_max dt margin collision t,
  integrate_run evaluate start it_max dt margin (Some collision) = Ok t /\ length t = it_max /\
  In start t /\ collision start = true.
Proof.
  exists right_field, [0; 0], 2%nat, 1, (1 / 100), (fun p => Rltb (nth 0 p 0) (1 / 2)), [[0; 0]; [1 + 0; 0]].
  split; [|split; [reflexivity|split; [left; reflexivity|cbn [nth]; apply Rltb_true; lra]]].
  unfold integrate_run. rewrite right_step by lra. cbn [nth].
  rewrite (proj2 (Rltb_false _ _)) by lra. reflexivity.
Qed.
Example C130_case : integrate_run right_field [0; 0] 3 1 (1 / 100) None = Ok [[0; 0]; [1 + 0; 0]; [1 + (1 + 0); 0]].
Proof. unfold integrate_run. rewrite right_step by lra. rewrite right_step by lra. reflexivity. Qed.

(** * Means *)
Lemma np_mean_value l m : np_mean l = Ok m -> l <> [] /\ 0 < INR (length l) /\ m * INR (length l) = rsum l.
Proof.
  intros E. destruct l as [|x l]; [discriminate|]. assert (P : 0 < INR (length (x :: l))) by (apply lt_0_INR; simpl; lia).
  assert (M : m = rsum (x :: l) / INR (length (x :: l))) by (unfold np_mean in E; congruence).
  split; [discriminate|]. split; auto. rewrite M. field. lra.
Qed.
Lemma np_mean_ok l : l <> [] -> np_mean l = Ok (rsum l / INR (length l)).
Proof. destruct l; [contradiction|reflexivity]. Qed.
Lemma np_mean_same {A} (f : A -> R) c l : l <> [] -> (forall x, In x l -> f x = c) -> np_mean (map f l) = Ok c.
Proof.
  intros Hn H. rewrite np_mean_ok by (destruct l; [contradiction|discriminate]). f_equal.
  rewrite (rsum_ext f (fun _ => c)) by auto. rewrite rsum_map_const, map_length.
  assert (0 < INR (length l)) by (apply lt_0_INR; destruct l; [contradiction|simpl; lia]). field. lra.
Qed.
Lemma rsum_zero_iff l : (forall x, In x l -> 0 <= x) -> (rsum l = 0 <-> forall x, In x l -> x = 0).
Proof.
  intros H. split.
  - intros S0 x Hx. pose proof (rsum_ge_elem l x H Hx). pose proof (H x Hx). lra.
  - intros Z. rewrite <- (map_id l). rewrite (rsum_ext (fun x => x) (fun _ => 0)) by auto.
    rewrite rsum_map_const. ring.
Qed.
Lemma np_mean_nonneg l m : np_mean l = Ok m -> (forall x, In x l -> 0 <= x) ->
  0 <= m /\ (m = 0 <-> forall x, In x l -> x = 0).
Proof.
  intros E H. destruct (np_mean_value l m E) as (_ & P & V). pose proof (rsum_nonneg l H).
  split; [nra|]. rewrite <- (rsum_zero_iff l H). split; intros; nra.
Qed.
Lemma rsum_shift c l : rsum (map (fun x => c - x) l) = c * INR (length l) - rsum l.
Proof.
  induction l as [|a l IH]; [simpl; lra|]. cbn [map length]. rewrite S_INR.
  cbn [rsum fold_right]. fold (rsum (map (fun x => c - x) l)) (rsum l). rewrite IH. lra.
Qed.
Lemma np_mean_below c l m : np_mean l = Ok m -> (forall x, In x l -> x <= c) ->
  m <= c /\ (m = c <-> forall x, In x l -> x = c).
Proof.
  intros E H. destruct (np_mean_value l m E) as (Hn & P & V).
  assert (E' : np_mean (map (fun x => c - x) l) = Ok (c - m)).
  { rewrite np_mean_ok by (destruct l; [contradiction|discriminate]). f_equal. rewrite rsum_shift, map_length, <- V. field. lra. }
  destruct (np_mean_nonneg _ _ E') as (A & B).
  { intros x Hx. apply in_map_iff in Hx. destruct Hx as (y & <- & Hy). specialize (H y Hy). lra. }
  split; [lra|]. split.
  - intros Em x Hx. assert (c - x = 0); [|lra]. apply B; [lra|]. apply in_map_iff. exists x. auto.
  - intros Hx. assert (c - m = 0); [|lra]. apply B. intros x Hi. apply in_map_iff in Hi. destruct Hi as (y & <- & Hy).
    rewrite (Hx y Hy). ring.
Qed.
Lemma np_mean_above c l m : np_mean l = Ok m -> (forall x, In x l -> c <= x) -> c <= m.
Proof.
  intros E H. destruct (np_mean_value l m E) as (Hn & P & V).
  assert (c * INR (length l) <= rsum l).
  { clear - H. induction l as [|a l IH]; [simpl; lra|]. cbn [length]. rewrite S_INR.
    cbn [rsum fold_right]. fold (rsum l). pose proof (H a (or_introl eq_refl)).
    assert (c * INR (length l) <= rsum l) by (apply IH; intros; apply H; right; auto). lra. }
  nra.
Qed.

(** * C131: the distance to the circular path *)
Definition on_circle (center : vec) (radius : R) (p : vec) : Prop := norm (vsub p center) = Rabs radius.
Lemma on_circle_sq center radius p :
  on_circle center radius p <-> dot (vsub p center) (vsub p center) - radius * radius = 0.
Proof.
  unfold on_circle. rewrite <- norm_sq. pose proof (norm_nonneg (vsub p center)). pose proof (Rabs_pos radius).
  assert (E : radius * radius = Rabs radius * Rabs radius).
  { rewrite <- Rabs_mult, Rabs_right; auto. nra. }
  rewrite E. split; intros H1; [rewrite H1; ring|nra].
Qed.
Theorem C131_distance : forall trajectory center radius m,
  error_to_path_std trajectory center radius = Ok m ->
  0 <= m /\ (m = 0 <-> Forall (on_circle center radius) trajectory).
Proof.
  intros t center radius m E. unfold error_to_path_std in E.
  destruct (np_mean_nonneg _ _ E) as (A & B).
  { intros x Hx. apply in_map_iff in Hx. destruct Hx as (p & <- & _). apply Rabs_pos. }
  split; auto. rewrite B, Forall_forall. split; intros H.
  - intros p Hp. apply on_circle_sq. specialize (H _ (in_map _ _ _ Hp)). cbv beta in H.
    destruct (Req_dec (dot (vsub p center) (vsub p center) - radius * radius) 0) as [|N]; auto.
    apply Rabs_no_R0 in N. contradiction.
  - intros x Hx. apply in_map_iff in Hx. destruct Hx as (p & <- & Hp).
    rewrite (proj1 (on_circle_sq center radius p)) by auto. apply Rabs_R0.
Qed.
(** The value without the absolute value is not larger, equal when no point is inside of the circle. *)
Theorem C131_signed : forall trajectory center radius m m',
  error_to_path trajectory center radius = Ok m -> error_to_path_std trajectory center radius = Ok m' ->
  Rabs m <= m' /\
  (Forall (fun p => Rabs radius <= norm (vsub p center)) trajectory -> m = m').
Proof.
  intros t center radius m m' E E'. unfold error_to_path, error_to_path_std in *.
  destruct (np_mean_value _ _ E) as (_ & P & V). destruct (np_mean_value _ _ E') as (_ & P' & V').
  rewrite map_length in *. set (e := fun p => dot (vsub p center) (vsub p center) - radius * radius) in *.
  assert (S1 : rsum (map e t) <= rsum (map (fun p => Rabs (e p)) t)) by (apply rsum_le; intros; apply Rle_abs).
  assert (S2 : rsum (map (fun p => - (1) * e p) t) <= rsum (map (fun p => Rabs (e p)) t)).
  { apply rsum_le. intros. rewrite <- Rabs_Ropp. replace (- (1) * e x) with (- e x) by ring. apply Rle_abs. }
  rewrite rsum_map_scale in S2. change (m' * INR (length t) = rsum (map (fun p => Rabs (e p)) t)) in V'. split.
  - apply Rabs_le. split; nra.
  - intros F. rewrite Forall_forall in F.
    assert (rsum (map e t) = rsum (map (fun p => Rabs (e p)) t)).
    { apply rsum_ext. intros p Hp. rewrite Rabs_right; auto. unfold e. rewrite <- norm_sq.
      specialize (F p Hp). pose proof (Rabs_pos radius).
      assert (E2 : radius * radius = Rabs radius * Rabs radius).
      { rewrite <- Rabs_mult, Rabs_right; auto. nra. }
      rewrite E2. nra. }
    nra.
Qed.
(** Points inside and outside of the circle cancel. *)
Theorem C131_cancel_refuted : exists trajectory center radius,
  error_to_path trajectory center radius = Ok 0 /\ Forall (fun p => ~ on_circle center radius p) trajectory.
Proof.
  exists [[0; 0]; [1; 1]], [0; 0], 1. split.
  - unfold error_to_path, vsub, vscale. simpl. f_equal. field.
  - repeat constructor; rewrite on_circle_sq; unfold vsub, vscale; simpl; lra.
Qed.
Theorem C131_empty_refuted : forall center radius, error_to_path_std [] center radius = Err ENaN.
Proof. reflexivity. Qed.
Example C131_case : error_to_path_std [[3; 0]; [0; 2]; [1; 0]] [0; 0] 2 = Ok (8 / 3) /\
  error_to_path_std [[2; 0]; [0; -2]] [0; 0] 2 = Ok 0.
Proof.
  unfold error_to_path_std, vsub, vscale. cbn [map combine dot vadd length np_mean]. split.
  - match goal with |- context [ [Rabs ?a; Rabs ?b; Rabs ?c] ] =>
      replace a with 5 by ring; replace b with 0 by ring; replace c with (-3) by ring end.
    rewrite Rabs_R0, (Rabs_right 5), (Rabs_left (-3)) by lra. simpl. f_equal. field.
  - match goal with |- context [ [Rabs ?a; Rabs ?b] ] => replace a with 0 by ring; replace b with 0 by ring end.
    rewrite Rabs_R0. simpl. f_equal. field.
Qed.

(** * C132: accelerations *)
(** ** Specification *)
(** The steps of a trajectory in which the position changes. *)
Definition step_of (l : list vec) (i : nat) : vec := vsub (nth (S i) l []) (nth i l []).
Definition steps_of (l : list vec) : list vec := map (step_of l) (seq 0 (pred (length l))).
Definition moved (l : list vec) : list vec := filter (fun d => Rltb 0 (norm d)) (steps_of l).

(** ** Lemmas *)
Lemma combine_tl {A} (l : list A) d : combine l (tl l) = map (fun i => (nth i l d, nth (S i) l d)) (seq 0 (pred (length l))).
Proof.
  induction l as [|a l IH]; [reflexivity|]. cbn [tl]. destruct l as [|b l]; [reflexivity|].
  cbn [tl] in IH. cbn [combine length pred]. cbn [combine length pred] in IH.
  cbn [seq map]. f_equal. rewrite <- seq_shift, map_map. exact IH.
Qed.
Lemma diffs_steps l : diffs l = steps_of l.
Proof. unfold diffs, steps_of. rewrite (combine_tl l []), map_map. reflexivity. Qed.
Lemma steps_len l : length (steps_of l) = pred (length l).
Proof. unfold steps_of. rewrite map_length, seq_length. auto. Qed.
Lemma steps_nth l i : (S i < length l)%nat -> nth i (steps_of l) [] = step_of l i.
Proof.
  intros H. unfold steps_of. rewrite (nth_indep _ [] (step_of l 0)) by (rewrite map_length, seq_length; lia).
  rewrite map_nth, seq_nth by lia. auto.
Qed.
Lemma velocities_ok l dt : dt <> 0 -> velocities l dt = Ok (map (fun d => vdiv d dt) (steps_of l)).
Proof.
  intros H. unfold velocities. rewrite diffs_steps. induction (steps_of l) as [|d k IH]; [reflexivity|].
  cbn [mapM map]. destruct (Req_EM_T dt 0); [contradiction|]. cbn [bind]. rewrite IH. reflexivity.
Qed.
Lemma norm_vdiv_c v c : 0 < c -> norm (vdiv v c) = norm v / c.
Proof. intros H. unfold vdiv. rewrite norm_vscale, Rabs_right; [field; lra|]. left. apply Rinv_0_lt_compat. auto. Qed.
Lemma normalized_ok l dt : 0 < dt ->
  (do vs <- velocities l dt; normalize_velocities vs) =
  match moved l with [] => Err EValue | m => Ok (map (fun v => vdiv v (norm v)) m) end.
Proof.
  intros H. rewrite velocities_ok by lra. cbn [bind]. unfold normalize_velocities, moved.
  assert (F : filter (fun v => Rltb 0 (norm v)) (map (fun d => vdiv d dt) (steps_of l)) =
              map (fun d => vdiv d dt) (filter (fun d => Rltb 0 (norm d)) (steps_of l))).
  { induction (steps_of l) as [|d k IH]; [reflexivity|]. cbn [map filter]. rewrite IH, norm_vdiv_c by auto.
    assert (P : 0 < / dt) by (apply Rinv_0_lt_compat; auto).
    replace (Rltb 0 (norm d / dt)) with (Rltb 0 (norm d)); [destruct (Rltb 0 (norm d)); reflexivity|].
    destruct (Rltb 0 (norm d)) eqn:E; symmetry.
    - apply Rltb_true in E. apply Rltb_true. apply Rmult_lt_0_compat; auto.
    - apply Rltb_false in E. apply Rltb_false. pose proof (norm_nonneg d). unfold Rdiv. nra. }
  rewrite F. clear F. pose proof (filter_In (fun d => Rltb 0 (norm d))) as FI.
  specialize (FI) with (l := steps_of l).
  destruct (filter (fun d => Rltb 0 (norm d)) (steps_of l)) as [|d0 k] eqn:Ek; [reflexivity|].
  change (map (fun d => vdiv d dt) (d0 :: k)) with (vdiv d0 dt :: map (fun d => vdiv d dt) k).
  cbv iota beta. change (vdiv d0 dt :: map (fun d => vdiv d dt) k) with (map (fun d => vdiv d dt) (d0 :: k)).
  f_equal. rewrite map_map. apply map_ext_in. intros d Hd. apply FI in Hd. destruct Hd as [_ Hd]. apply Rltb_true in Hd.
  rewrite norm_vdiv_c by auto. unfold vdiv. vext. field. lra.
Qed.
Lemma moved_pos l d : In d (moved l) -> norm d <> 0.
Proof. unfold moved. rewrite filter_In. intros [_ H]. apply Rltb_true in H. lra. Qed.
Lemma dot_acceleration_value l dt : 0 < dt -> dot_acceleration l dt =
  match moved l with
  | [] => Err EValue
  | m => np_mean (map (fun i => dot (dirof (nth (S i) m [])) (dirof (nth i m []))) (seq 0 (pred (length m))))
  end.
Proof.
  intros H. unfold dot_acceleration. pose proof (normalized_ok l dt H) as N. rewrite velocities_ok in * by lra.
  cbn [bind] in *. rewrite N. destruct (moved l) as [|d0 k] eqn:E; [reflexivity|]. cbv iota beta.
  set (m := d0 :: k) in *. cbn [bind]. f_equal.
  assert (C : forall (a : list vec), combine (tl a) a = map (fun pq => (snd pq, fst pq)) (combine a (tl a))).
  { intros a. generalize (tl a). intros b. revert a. induction b; intros [|x a']; auto. cbn [combine map fst snd]. f_equal. apply IHb. }
  rewrite C, (combine_tl _ []), !map_map, map_length. cbn [fst snd]. apply map_ext_in. intros i Hi. apply in_seq in Hi.
  assert (NT : forall j, (j < length m)%nat -> nth j (map (fun v : vec => vdiv v (norm v)) m) [] = dirof (nth j m [])).
  { intros j Hj. rewrite (nth_indep _ [] (dirof [])) by (rewrite map_length; auto). apply (map_nth dirof). }
  rewrite !NT by lia. reflexivity.
Qed.

(** ** Theorems *)
(** The mean cosine of the change of direction: between -1 and 1, one exactly when all the steps which
    move have the same direction. *)
Theorem C132_dot : forall n trajectory dt m, Forall (fun p => length p = n) trajectory -> 0 < dt ->
  dot_acceleration trajectory dt = Ok m ->
  -1 <= m <= 1 /\
  (m = 1 <-> consecutive (fun a b => dirof a = dirof b) (moved trajectory)).
Proof.
  intros n t dt m Hl Hdt E. rewrite dot_acceleration_value in E by auto.
  pose proof (moved_pos t) as MP.
  assert (ML : forall d, In d (moved t) -> length d = n).
  { intros d Hd. unfold moved in Hd. apply filter_In in Hd. destruct Hd as [Hd _]. unfold steps_of in Hd.
    apply in_map_iff in Hd. destruct Hd as (i & <- & Hi). apply in_seq in Hi. unfold step_of.
    rewrite Forall_forall in Hl. autorewrite with vlen. rewrite !Hl by (apply nth_In; lia). lia. }
  destruct (moved t) as [|d0 k] eqn:Em; [discriminate|]. set (mv := d0 :: k) in *.
  assert (U : forall i, (i < length mv)%nat -> unitv (dirof (nth i mv [])) /\ length (dirof (nth i mv [])) = n).
  { intros i Hi. split; [apply dirof_unit; apply MP; apply nth_In; auto|]. rewrite dirof_length. apply ML. apply nth_In. auto. }
  assert (B : forall i, In i (seq 0 (pred (length mv))) -> (S i < length mv)%nat) by (intros i Hi; apply in_seq in Hi; lia).
  split.
  - split.
    + apply (np_mean_above (-1) _ m E). intros x Hx. apply in_map_iff in Hx. destruct Hx as (i & <- & Hi). apply B in Hi.
      apply unit_dot_bounds; apply U; lia.
    + apply (np_mean_below 1 _ m E). intros x Hx. apply in_map_iff in Hx. destruct Hx as (i & <- & Hi). apply B in Hi.
      apply unit_dot_bounds; apply U; lia.
  - destruct (np_mean_below 1 _ m E) as (_ & ->).
    { intros x Hx. apply in_map_iff in Hx. destruct Hx as (i & <- & Hi). apply B in Hi. apply unit_dot_bounds; apply U; lia. }
    split.
    + intros H i Hi. destruct (U i) as (U1 & L1); [lia|]. destruct (U (S i)) as (U2 & L2); [lia|].
      apply unit_dot_1; [lia|auto|auto|]. rewrite dot_comm. apply H. apply in_map_iff. exists i. split; auto.
      apply in_seq. lia.
    + intros H x Hx. apply in_map_iff in Hx. destruct Hx as (i & <- & Hi). apply B in Hi. rewrite <- (H i Hi).
      apply U. lia.
Qed.
(** It does not depend on the time step; it exists when at least two steps move. *)
Theorem C132_time_step : forall trajectory dt dt', 0 < dt -> 0 < dt' ->
  dot_acceleration trajectory dt = dot_acceleration trajectory dt' /\
  ((exists m, dot_acceleration trajectory dt = Ok m) <-> (2 <= length (moved trajectory))%nat).
Proof.
  intros t dt dt' H H'. rewrite !dot_acceleration_value by auto. split; [reflexivity|].
  destruct (moved t) as [|d0 [|d1 k]]; cbn [length]; split; try lia.
  - intros (m & E). discriminate.
  - intros (m & E). discriminate.
  - intros _. rewrite np_mean_ok by (cbn [length pred seq map]; discriminate). eauto.
Qed.
(** A trajectory which does not move is an error. *)
Theorem C132_standing : forall trajectory dt, dt <> 0 ->
  consecutive (fun a b => a = b) trajectory -> dot_acceleration trajectory dt = Err EValue.
Proof.
  intros t dt H C. unfold dot_acceleration. rewrite velocities_ok by auto. cbn [bind].
  unfold normalize_velocities.
  assert (F : filter (fun v => Rltb 0 (norm v)) (map (fun d => vdiv d dt) (steps_of t)) = []).
  { unfold steps_of. rewrite map_map.
    assert (Z : forall i, In i (seq 0 (pred (length t))) -> norm (vdiv (step_of t i) dt) = 0).
    { intros i Hi. apply in_seq in Hi. unfold step_of. assert (Ci : nth i t [] = nth (S i) t []) by (apply C; lia). rewrite <- Ci. apply norm_eq_0_dot.
      unfold vdiv. rewrite dot_vscale_l, dot_vscale_r, dot_vsub_l, !dot_vsub_r. ring. }
    induction (seq 0 (pred (length t))) as [|i s IH]; [reflexivity|]. cbn [map filter].
    rewrite (Z i) by (left; auto). rewrite (proj2 (Rltb_false 0 0)) by lra. apply IH. intros j Hj. apply Z. right. auto. }
  rewrite F. reflexivity.
Qed.
Lemma squared_acceleration_value n l dt : Forall (fun p => length p = n) l -> dt <> 0 ->
  squared_acceleration l dt =
  np_mean (map (fun i => dot (vsub (step_of l (S i)) (step_of l i)) (vsub (step_of l (S i)) (step_of l i)) / (dt * dt * (dt * dt)))
             (seq 0 (pred (pred (length l))))).
Proof.
  intros Hl H. unfold squared_acceleration. rewrite velocities_ok by auto. cbn [bind]. rewrite velocities_ok by auto. cbn [bind].
  f_equal. unfold steps_of at 1. rewrite !map_map, map_length, steps_len. apply map_ext_in. intros i Hi. apply in_seq in Hi.
  unfold step_of at 1 2.
  assert (NT : forall j, (S j < length l)%nat -> nth j (map (fun d : vec => vdiv d dt) (steps_of l)) [] = vdiv (step_of l j) dt).
  { intros j Hj. rewrite (nth_indep _ [] (vdiv [] dt)) by (rewrite map_length, steps_len; lia).
    rewrite (map_nth (fun d : vec => vdiv d dt)), steps_nth by auto. auto. }
  rewrite !NT by lia. set (a := step_of l (S i)). set (b := step_of l i).
  unfold vdiv. rewrite !dot_vsub_l, !dot_vsub_r. autorewrite with vdot. field. auto.
Qed.
(** The mean squared acceleration: zero exactly for equal steps. *)
Theorem C132_acceleration : forall n trajectory dt m, Forall (fun p => length p = n) trajectory -> dt <> 0 ->
  squared_acceleration trajectory dt = Ok m ->
  0 <= m /\ (m = 0 <-> consecutive (fun a b => a = b) (steps_of trajectory)).
Proof.
  intros n t dt m Hl H E. rewrite (squared_acceleration_value n) in E by auto.
  assert (P : 0 < dt * dt * (dt * dt)) by (apply Rmult_lt_0_compat; apply (Rsqr_pos_lt dt H)).
  destruct (np_mean_nonneg _ _ E) as (A & B).
  { intros x Hx. apply in_map_iff in Hx. destruct Hx as (i & <- & _).
    apply Rmult_le_pos; [apply dot_self_nonneg|left; apply Rinv_0_lt_compat; auto]. }
  split; auto. rewrite B. split.
  - intros Z i Hi. rewrite steps_len in Hi. rewrite !steps_nth by lia.
    symmetry. apply dot_vsub_self_eq.
    + unfold step_of. rewrite Forall_forall in Hl. autorewrite with vlen. rewrite !Hl by (apply nth_In; lia). lia.
    + assert (Q : dot (vsub (step_of t (S i)) (step_of t i)) (vsub (step_of t (S i)) (step_of t i)) / (dt * dt * (dt * dt)) = 0).
      { apply Z. apply in_map_iff. exists i. split; auto. apply in_seq. lia. }
      apply Rmult_eq_reg_r with (/ (dt * dt * (dt * dt))); [rewrite Rmult_0_l; exact Q|].
      apply Rinv_neq_0_compat. lra.
  - intros C x Hx. apply in_map_iff in Hx. destruct Hx as (i & <- & Hi). apply in_seq in Hi.
    specialize (C i). rewrite steps_len, !steps_nth in C by lia. rewrite C by lia.
    rewrite dot_vsub_l, !dot_vsub_r. unfold Rdiv. ring.
Qed.
Theorem C132_scaled : forall n trajectory dt c m, Forall (fun p => length p = n) trajectory -> dt <> 0 -> c <> 0 ->
  squared_acceleration trajectory dt = Ok m ->
  squared_acceleration trajectory (c * dt) = Ok (m / (c * c * (c * c))).
Proof.
  intros n t dt c m Hl H Hc E. assert (H' : c * dt <> 0) by (apply Rmult_integral_contrapositive; auto).
  rewrite (squared_acceleration_value n) in * by auto.
  destruct (np_mean_value _ _ E) as (Hn & P & V).
  rewrite np_mean_ok by (intros Q; apply map_eq_nil in Q; rewrite Q in Hn; apply Hn; reflexivity).
  f_equal. rewrite map_length in *. set (k := INR (length (seq 0 (pred (pred (length t)))))) in *.
  set (f := fun i => dot (vsub (step_of t (S i)) (step_of t i)) (vsub (step_of t (S i)) (step_of t i))) in *.
  rewrite (rsum_map_div (c * dt * (c * dt) * (c * dt * (c * dt))) f).
  rewrite (rsum_map_div (dt * dt * (dt * dt)) f) in V.
  replace m with (m * k / k) by (field; lra). rewrite V. field. repeat split; auto; lra.
Qed.
Example C132_case : squared_acceleration [[0; 0]; [1; 0]; [3; 0]] 1 = Ok 1 /\
  dot_acceleration [[0; 0]; [1; 0]; [1; 0]; [1; 2]] 1 = Ok 0.
Proof.
  split.
  - rewrite (squared_acceleration_value 2) by (repeat constructor; lra). unfold step_of, vsub, vscale. simpl. f_equal. field.
  - rewrite dot_acceleration_value by lra.
    assert (M : moved [[0; 0]; [1; 0]; [1; 0]; [1; 2]] = [[1; 0]; [0; 2]]).
    { unfold moved, steps_of. cbn [length pred seq map]. unfold step_of. cbn [nth].
      replace (vsub [1; 0] [0; 0]) with [1; 0] by (unfold vsub, vscale; simpl; f_equal; [|f_equal]; ring).
      replace (vsub [1; 0] [1; 0]) with [0; 0] by (unfold vsub, vscale; simpl; f_equal; [|f_equal]; ring).
      replace (vsub [1; 2] [1; 0]) with [0; 2] by (unfold vsub, vscale; simpl; f_equal; [|f_equal]; ring).
      cbn [filter]. assert (N0 : norm [0; 0] = 0) by (apply norm_eq_0_dot; simpl; ring).
      assert (N1 : 0 < norm [1; 0]) by (apply norm_pos; rewrite norm_eq_0_dot; simpl; lra).
      assert (N2 : 0 < norm [0; 2]) by (apply norm_pos; rewrite norm_eq_0_dot; simpl; lra).
      rewrite N0, (proj2 (Rltb_true _ (norm [1; 0]))), (proj2 (Rltb_true _ (norm [0; 2]))) by auto. rewrite (proj2 (Rltb_false 0 0)) by lra. reflexivity. }
    rewrite M. cbn [length pred seq map nth np_mean]. unfold dirof, vdiv, vscale. simpl. f_equal. field.
    split; apply norm_neq_0_dot; simpl; lra.
Qed.

(** * C133: deviation from the field *)
(** ** Specification *)
(** All the steps move, along the direction of the field at their first point. *)
Definition follows_field (f : vec -> res vec) (p q : vec) : Prop :=
  exists v c, f p = Ok v /\ norm v <> 0 /\ 0 < c /\ vsub q p = vscale c v.
Definition standing (p q : vec) : Prop := vsub q p = vzero (length p).

(** ** Lemmas *)
Lemma all_moved l : (forall i, (S i < length l)%nat -> norm (step_of l i) <> 0) -> moved l = steps_of l.
Proof.
  intros H. unfold moved. assert (A : forall d, In d (steps_of l) -> Rltb 0 (norm d) = true).
  { intros d Hd. unfold steps_of in Hd. apply in_map_iff in Hd. destruct Hd as (i & <- & Hi). apply in_seq in Hi.
    apply Rltb_true. apply norm_pos. apply H. lia. }
  induction (steps_of l) as [|d k IH]; [reflexivity|]. cbn [filter]. rewrite A by (left; auto). f_equal. apply IH.
  intros e He. apply A. right. auto.
Qed.
Lemma dirof_vscale c v : 0 < c -> norm v <> 0 -> dirof (vscale c v) = dirof v.
Proof.
  intros Hc Hv. unfold dirof, vdiv. rewrite norm_vscale, Rabs_right by lra. vext. field. split; auto; lra.
Qed.
Lemma mapM_nth_ok {B} (f : vec -> res B) (g : nat -> B) l k : (k <= length l)%nat ->
  (forall i, (i < k)%nat -> f (nth i l []) = Ok (g i)) -> mapM f (firstn k l) = Ok (map g (seq 0 k)).
Proof.
  revert l g. induction k; intros l g Hk H; [reflexivity|]. destruct l as [|a l]; [simpl in Hk; lia|].
  assert (H0 : f a = Ok (g O)) by (apply (H O); lia). cbn [firstn mapM seq map]. rewrite H0. cbn [bind]. rewrite <- seq_shift, map_map.
  rewrite (IHk l (fun i => g (S i))); [reflexivity|simpl in Hk; lia|]. intros i Hi. apply (H (S i)). lia.
Qed.
Lemma combine_map {A B C} (f : A -> B) (g : A -> C) l : combine (map f l) (map g l) = map (fun x => (f x, g x)) l.
Proof. induction l; simpl; f_equal; auto. Qed.
Lemma follows_moved f l : consecutive (follows_field f) l ->
  moved l = steps_of l /\
  forall i, (S i < length l)%nat -> exists v, f (nth i l []) = Ok v /\ norm v <> 0 /\ dirof (step_of l i) = dirof v.
Proof.
  intros C. split.
  - apply all_moved. intros i Hi. destruct (C i Hi) as (v & c & _ & N & Pc & E). unfold step_of. rewrite E, norm_vscale.
    intros Z. apply Rmult_integral in Z. destruct Z as [Z|Z]; [|contradiction]. apply Rabs_no_R0 in Z; auto. lra.
  - intros i Hi. destruct (C i Hi) as (v & c & Ev & N & Pc & E). exists v. split; auto. split; auto.
    unfold step_of. rewrite E. apply dirof_vscale; auto.
Qed.
Lemma choose_seq {B} (P : nat -> B -> Prop) (d : B) k : (forall i, (i < k)%nat -> exists b, P i b) ->
  exists g, forall i, (i < k)%nat -> P i (g i).
Proof.
  induction k; intros H; [exists (fun _ => d); intros; lia|].
  destruct IHk as (g & Hg); [intros; apply H; lia|]. destruct (H k) as (b & Hb); [lia|].
  exists (fun i => if Nat.eqb i k then b else g i). intros i Hi. destruct (Nat.eqb_spec i k) as [->|N]; auto. apply Hg. lia.
Qed.
Lemma steps_nonempty l : (2 <= length l)%nat -> steps_of l <> [].
Proof. intros H E. pose proof (steps_len l) as L. rewrite E in L. simpl in L. lia. Qed.
Lemma deviation_value f l dt : 0 < dt -> (2 <= length l)%nat -> consecutive (follows_field f) l ->
  exists g, (forall i, (S i < length l)%nat -> f (nth i l []) = Ok (g i) /\ norm (g i) <> 0) /\
  dot_deviation l f dt = np_mean (map (fun i => dot (dirof (g i)) (dirof (g i))) (seq 0 (pred (length l)))) /\
  squared_deviation l f dt = np_mean (map (fun i => dot (vsub (dirof (g i)) (g i)) (vsub (dirof (g i)) (g i))) (seq 0 (pred (length l)))).
Proof.
  intros H H2 C. destruct (follows_moved f l C) as (M & D).
  destruct (choose_seq (fun i v => f (nth i l []) = Ok v /\ norm v <> 0 /\ dirof (step_of l i) = dirof v) [] (pred (length l))) as (g & G).
  { intros i Hi. apply D. lia. }
  exists g. split; [intros i Hi; destruct (G i) as (A & B & _); [lia|auto]|].
  pose proof (normalized_ok l dt H) as N. rewrite M in N. rewrite velocities_ok in N by lra. cbn [bind] in N.
  assert (N' : normalize_velocities (map (fun d => vdiv d dt) (steps_of l)) =
               Ok (map (fun i => dirof (g i)) (seq 0 (pred (length l))))).
  { rewrite N. pose proof (steps_nonempty l H2) as NE. destruct (steps_of l) as [|d0 k] eqn:E; [contradiction|].
    rewrite <- E. f_equal. unfold steps_of. rewrite map_map. apply map_ext_in. intros i Hi. apply in_seq in Hi.
    destruct (G i) as (_ & _ & Q); [lia|]. exact Q. }
  clear N. unfold dot_deviation, squared_deviation. rewrite !velocities_ok by lra. cbn [bind]. rewrite N'. cbn [bind].
  rewrite !map_length, !seq_length. split.
  - rewrite (mapM_nth_ok _ (fun i => dirof (g i))).
    + cbn [bind]. rewrite combine_map, map_map. reflexivity.
    + lia.
    + intros i Hi. destruct (G i) as (A & B & _); [lia|]. rewrite A. cbn [bind]. unfold normalize_init.
      destruct (Req_EM_T (norm (g i)) 0); [contradiction|reflexivity].
  - rewrite (mapM_nth_ok f g).
    + cbn [bind]. rewrite combine_map, map_map. reflexivity.
    + lia.
    + intros i Hi. destruct (G i) as (A & _); [lia|auto].
Qed.

(** ** Theorems *)
(** A trajectory which follows the field has the best value. *)
Theorem C133_following : forall f trajectory dt, 0 < dt -> (2 <= length trajectory)%nat ->
  consecutive (follows_field f) trajectory -> dot_deviation trajectory f dt = Ok 1.
Proof.
  intros f l dt H H2 C. destruct (deviation_value f l dt H H2 C) as (g & G & -> & _).
  apply np_mean_same.
  - destruct l as [|a [|b l]]; simpl in *; try lia. discriminate.
  - intros i Hi. apply in_seq in Hi. apply dirof_unit. apply G. lia.
Qed.
(** The trajectories of the comparison follow the field which they are made from. *)
Theorem C133_own_field : forall n f start it_max dt margin collision t, length start = n ->
  (forall p v, length p = n -> f p = Ok v -> length v = n) ->
  0 < dt -> integrate_run f start it_max dt margin collision = Ok t -> (2 <= length t)%nat ->
  dot_deviation t f dt = Ok 1.
Proof.
  intros n f start it_max dt margin collision t Ls Lf H E H2. apply C133_following; auto.
  destruct (C130_trajectory _ _ _ _ _ _ _ E) as (_ & S0 & C & _).
  assert (L : forall i, (i < length t)%nat -> length (nth i t []) = n).
  { induction i; intros Hi; [rewrite S0; auto; intros ->; simpl in Hi; lia|].
    destruct (C i Hi) as (v & Ev & _ & _ & ->). autorewrite with vlen.
    rewrite (Lf _ _ (IHi ltac:(lia)) Ev). rewrite IHi by lia. lia. }
  intros i Hi. destruct (C i Hi) as (v & Ev & _ & Nz & ->). exists v, (dt / norm v).
  pose proof (norm_pos v Nz) as P.
  assert (Li : length (nth i t []) = n) by (apply L; lia). pose proof (Lf _ _ Li Ev) as Lv.
  repeat split; auto; [apply Rdiv_lt_0_compat; auto|]. vext. field. lra.
Qed.
(** The squared deviation compares the normalized velocity with the velocity of the field. *)
Theorem C133_squared : forall f trajectory dt, 0 < dt -> (2 <= length trajectory)%nat ->
  consecutive (follows_field f) trajectory -> forall speed,
  (forall i v, (S i < length trajectory)%nat -> f (nth i trajectory []) = Ok v -> norm v = speed) ->
  squared_deviation trajectory f dt = Ok ((speed - 1) * (speed - 1)).
Proof.
  intros f l dt H H2 C speed Hs. destruct (deviation_value f l dt H H2 C) as (g & G & _ & ->).
  apply np_mean_same.
  - destruct l as [|a [|b l]]; simpl in *; try lia. discriminate.
  - intros i Hi. apply in_seq in Hi. destruct (G i) as (A & B); [lia|]. rewrite <- (Hs i (g i)); [|lia|auto].
    set (v := g i) in *. unfold dirof, vdiv. rewrite dot_vsub_l, !dot_vsub_r. autorewrite with vdot.
    rewrite <- norm_sq. field. auto.
Qed.
Theorem C133_range : forall f trajectory dt m, 0 < dt ->
  dot_deviation trajectory f dt = Ok m -> -1 <= m <= 1.
Proof.
  intros f l dt m H E. unfold dot_deviation in E. rewrite velocities_ok in E by lra. cbn [bind] in E.
  pose proof (normalized_ok l dt H) as N. rewrite velocities_ok in N by lra. cbn [bind] in N. rewrite N in E.
  destruct (moved l) as [|d0 k] eqn:Em; [discriminate|]. cbv iota beta in E. cbn [bind] in E.
  rewrite <- Em in E. set (ns := map (fun v => vdiv v (norm v)) (moved l)) in *.
  destruct (mapM (fun p => do v <- f p; Ok (normalize_init v)) (firstn (length ns) l)) as [init|] eqn:EI; [|discriminate].
  cbn [bind] in E.
  assert (B : forall x, In x (map (fun pq => dot (fst pq) (snd pq)) (combine ns init)) -> -1 <= x <= 1).
  { intros x Hx. apply in_map_iff in Hx. destruct Hx as ((a, b) & <- & Hab). cbn [fst snd].
    pose proof (in_combine_l _ _ _ _ Hab) as Ha. pose proof (in_combine_r _ _ _ _ Hab) as Hb.
    apply in_map_iff in Ha. destruct Ha as (d & <- & Hd). pose proof (dirof_unit d (moved_pos _ _ Hd)) as U.
    assert (Hb' : exists v, b = normalize_init v).
    { clear - EI Hb. revert init EI Hb. induction (firstn (length ns) l) as [|p k IH]; intros init EI Hb.
      - cbn [mapM] in EI. injection EI as <-. contradiction.
      - cbn [mapM] in EI. destruct (f p) as [v|]; [|discriminate]. cbn [bind] in EI.
        destruct (mapM _ k) as [k'|] eqn:Ek; [|discriminate]. cbn [bind] in EI. injection EI as <-.
        destruct Hb as [<-|Hb]; [eauto|]. apply (IH k'); auto. }
    destruct Hb' as (v & ->). unfold normalize_init. destruct (Req_EM_T (norm v) 0) as [|Nv].
    - rewrite dot_vzero_r. lra.
    - apply unit_dot_bounds; [exact U|apply (dirof_unit v Nv)]. }
  split.
  - apply (np_mean_above (-1) _ m E). intros x Hx. apply B. auto.
  - apply (np_mean_below 1 _ m E). intros x Hx. apply B. auto.
Qed.
(** A constant field of twice the speed: the trajectory follows it exactly, the deviation is one. *)
Theorem C133_speed_refuted : exists f trajectory dt, 0 < dt /\ consecutive (follows_field f) trajectory /\
  (2 <= length trajectory)%nat /\
  (forall i, (S i < length trajectory)%nat -> f (nth i trajectory []) = Ok (vdiv (step_of trajectory i) dt)) /\
  squared_deviation trajectory f dt = Ok 1.
Proof.
  set (f := fun _ : vec => Ok [2; 0] : res vec). exists f, [[0; 0]; [2; 0]; [4; 0]], 1.
  assert (N2 : norm [2; 0] = 2).
  { unfold norm. simpl. replace (2 * 2 + (0 * 0 + 0)) with (2 * 2) by ring. apply sqrt_square. lra. }
  assert (S0 : forall i, (S i < 3)%nat -> vsub (nth (S i) [[0; 0]; [2; 0]; [4; 0]] []) (nth i [[0; 0]; [2; 0]; [4; 0]] []) = [2; 0]).
  { intros i Hi. destruct i as [|[|i]]; [| |lia]; unfold vsub, vscale; simpl; f_equal; [|f_equal| |f_equal]; ring. }
  assert (C : consecutive (follows_field f) [[0; 0]; [2; 0]; [4; 0]]).
  { intros i Hi. exists [2; 0], 1. split; [reflexivity|]. split; [rewrite N2; lra|]. split; [lra|].
    rewrite S0 by exact Hi. unfold vscale. simpl. f_equal; [|f_equal]; ring. }
  split; [lra|]. split; [exact C|]. split; [simpl; lia|]. split.
  - intros i Hi. unfold step_of. rewrite S0 by exact Hi. unfold f, vdiv, vscale. simpl. f_equal. f_equal; [|f_equal]; field.
  - rewrite (C133_squared f [[0; 0]; [2; 0]; [4; 0]] 1 ltac:(lra) ltac:(simpl; lia) C 2).
    + f_equal. ring.
    + intros i v _ Hv. injection Hv as <-. exact N2.
Qed.
(** A trajectory with a pause, which follows the field in each step that moves: the steps after the
    pause are compared with the field at an earlier point. *)
Definition corner (p : vec) : res vec := if Rltb (nth 0 p 0) (1 / 2) then Ok [1; 0] else Ok [0; 1].
Theorem C133_pause_refuted : exists f trajectory dt, 0 < dt /\
  consecutive (fun p q => standing p q \/ follows_field f p q) trajectory /\
  dot_deviation trajectory f dt = Ok (1 / 2).
Proof.
  set (t := [[0; 0]; [0; 0]; [1; 0]; [1; 1]]). exists corner, t, 1. split; [lra|].
  assert (N1 : norm [1; 0] = 1) by apply norm_right.
  assert (N2 : norm [0; 1] = 1).
  { unfold norm. simpl. replace (0 * 0 + (1 * 1 + 0)) with 1 by ring. apply sqrt_1. }
  assert (N0 : norm [0; 0] = 0) by (apply norm_eq_0_dot; simpl; ring).
  assert (C0 : corner [0; 0] = Ok [1; 0]) by (unfold corner; cbn [nth]; rewrite (proj2 (Rltb_true _ _)) by lra; auto).
  assert (C1 : corner [1; 0] = Ok [0; 1]) by (unfold corner; cbn [nth]; rewrite (proj2 (Rltb_false _ _)) by lra; auto).
  assert (D0 : step_of t 0 = [0; 0]) by (unfold step_of, vsub, vscale; simpl; f_equal; [|f_equal]; ring).
  assert (D1 : step_of t 1 = [1; 0]) by (unfold step_of, vsub, vscale; simpl; f_equal; [|f_equal]; ring).
  assert (D2 : step_of t 2 = [0; 1]) by (unfold step_of, vsub, vscale; simpl; f_equal; [|f_equal]; ring).
  split.
  - intros i Hi. cbn [t length] in Hi. destruct i as [|[|[|i]]]; [| | |lia].
    + left. exact D0.
    + right. exists [1; 0], 1. split; [exact C0|]. split; [lra|]. split; [lra|].
      change (step_of t 1 = vscale 1 [1; 0]). rewrite D1. unfold vscale. simpl. f_equal; [|f_equal]; ring.
    + right. exists [0; 1], 1. split; [exact C1|]. split; [lra|]. split; [lra|].
      change (step_of t 2 = vscale 1 [0; 1]). rewrite D2. unfold vscale. simpl. f_equal; [|f_equal]; ring.
  - unfold dot_deviation. pose proof (normalized_ok t 1 ltac:(lra)) as N. rewrite velocities_ok in * by lra.
    cbn [bind] in *. rewrite N.
    assert (M : moved t = [[1; 0]; [0; 1]]).
    { unfold moved, steps_of. cbn [t length pred seq map]. fold t. rewrite D0, D1, D2. cbn [filter].
      rewrite N0, N1, N2. rewrite (proj2 (Rltb_false 0 0)), (proj2 (Rltb_true 0 1)) by lra. reflexivity. }
    rewrite M. cbn [map]. rewrite N1, N2, !vdiv_1. cbn [bind].
    change (firstn (length [[1; 0]; [0; 1]]) t) with [[0; 0]; [0; 0]]. cbn [mapM]. rewrite C0. cbn [bind].
    unfold normalize_init. rewrite N1. destruct (Req_EM_T 1 0); [lra|]. rewrite vdiv_1.
    cbn [combine map fst snd]. simpl. f_equal. field.
Qed.
Example C133_case : exists t, integrate_run right_field [0; 0] 3 1 (1 / 100) None = Ok t /\
  dot_deviation t right_field 1 = Ok 1 /\ squared_deviation t right_field 1 = Ok 0.
Proof.
  eexists. split; [exact C130_case|]. split.
  - apply (C133_own_field 2 right_field [0; 0] 3 1 (1 / 100) None); [reflexivity| |lra|exact C130_case|simpl; lia].
    intros p v _ E. injection E as <-. reflexivity.
  - rewrite (C133_squared right_field [[0; 0]; [1 + 0; 0]; [1 + (1 + 0); 0]] 1 ltac:(lra) ltac:(simpl; lia)) with (speed := 1).
    + f_equal. ring.
    + intros i Hi. exists [1; 0], 1. rewrite norm_right. split; [reflexivity|]. split; [lra|]. split; [lra|].
      simpl in Hi. destruct i as [|[|i]]; [| |lia]; unfold vsub, vscale; simpl; f_equal; [|f_equal| |f_equal]; ring.
    + intros i v _ E. injection E as <-. apply norm_right.
Qed.

(** * C134: the comparison of the runs along the wavy path *)
(** ** Specification *)
Definition mean_of (l : list R) : R := rsum l / INR (length l).
Definition spread_of (l : list R) : R := sqrt (mean_of (map (fun x => (x - mean_of l) * (x - mean_of l)) l)).
Definition default_row : row := mkRow 0 0 0 0.

(** ** Lemmas *)
Lemma mask_fold n tables : Forall (fun t => length t = n) tables -> forall mask, length mask = n ->
  let m := fold_left (fun mask table => map (fun bc => andb (fst bc) (snd bc)) (combine mask (table_converged table))) tables mask in
  length m = n /\
  forall i, (i < n)%nat -> (nth i m false = true <->
     nth i mask false = true /\ Forall (fun t => 0 < r_converged (nth i t default_row)) tables).
Proof.
  intros F. induction F as [|t tables Ht F IH]; intros mask Lm; cbn [fold_left].
  - split; auto. intros i Hi. split; [intros; split; auto|intros [H _]; auto].
  - destruct (IH (map (fun bc => andb (fst bc) (snd bc)) (combine mask (table_converged t)))) as (L & S1).
    { rewrite map_length, combine_length. unfold table_converged. rewrite map_length. lia. }
    split; auto. intros i Hi. rewrite (S1 i Hi).
    assert (E : nth i (map (fun bc => andb (fst bc) (snd bc)) (combine mask (table_converged t))) false =
                andb (nth i mask false) (Rltb 0 (r_converged (nth i t default_row)))).
    { pose proof (map_nth (fun bc : bool * bool => andb (fst bc) (snd bc)) (combine mask (table_converged t)) (false, Rltb 0 0) i) as MN.
      rewrite combine_nth in MN by (unfold table_converged; rewrite map_length; lia). cbn [fst snd andb] in MN.
      rewrite MN. f_equal. unfold table_converged. apply (map_nth (fun r => Rltb 0 (r_converged r)) t default_row). }
    rewrite E, andb_true_iff, Rltb_true. split.
    + intros ((A & B) & C). split; auto.
    + intros (A & B). inversion B; subst. auto.
Qed.

(** ** Theorems *)
(** A run is selected exactly if all the methods converge on it. *)
Theorem C134_common : forall n tables mask, Forall (fun t => length t = n) tables ->
  common_converged tables = Ok mask ->
  length mask = n /\
  forall i, (i < n)%nat ->
    (nth i mask false = true <-> Forall (fun t => 0 < r_converged (nth i t default_row)) tables).
Proof.
  intros n tables mask F E. destruct tables as [|first rest]; [discriminate|].
  unfold common_converged in E. injection E as <-.
  assert (L0 : length first = n) by (inversion F; auto).
  destruct (mask_fold n (first :: rest) F (table_converged first)) as (L & S1).
  { unfold table_converged. rewrite map_length. auto. }
  cbn [fold_left] in L, S1. split; auto. intros i Hi. rewrite (S1 i Hi). split; [tauto|].
  intros A. split; auto. inversion A; subst. unfold table_converged.
  rewrite (nth_indep _ false (Rltb 0 (r_converged default_row))) by (rewrite map_length; auto).
  rewrite (map_nth (fun r => Rltb 0 (r_converged r))). apply Rltb_true. auto.
Qed.
(** The fraction is a fraction of all the runs; the means are those of the selected runs. *)
Theorem C134_means : forall table mask s, path_summary table mask = Ok s ->
  0 <= s_fraction s <= 1 /\
  (s_fraction s = 1 <-> Forall (fun r => 0 < r_converged r) table) /\
  s_distance s = mean_of (map r_distance (select table mask)) /\
  s_occupied s = 1 - mean_of (map r_free (select table mask)) /\
  s_gamma s = mean_of (map r_gamma (select table mask)).
Proof.
  intros table mask s E. unfold path_summary in E. destruct (Nat.eqb_spec (length table) 0) as [|N]; [discriminate|].
  set (rows := select table mask) in *.
  destruct (np_mean (map r_distance rows)) as [d|] eqn:E1; [|discriminate]. cbn [bind] in E.
  destruct (np_mean (map (fun r => 1 - r_free r) rows)) as [o|] eqn:E2; [|discriminate]. cbn [bind] in E.
  destruct (np_std [o]) as [sd|]; [|discriminate]. cbn [bind] in E.
  destruct (np_mean (map r_gamma rows)) as [g|] eqn:E3; [|discriminate]. cbn [bind] in E. injection E as <-.
  cbn [s_fraction s_distance s_occupied s_gamma].
  assert (P : 0 < INR (length table)) by (apply lt_0_INR; lia).
  assert (LE : (length (filter (fun b => b) (table_converged table)) <= length table)%nat /\
    (length (filter (fun b => b) (table_converged table)) = length table <-> Forall (fun r => 0 < r_converged r) table)).
  { clear. unfold table_converged. induction table as [|r t (IH1 & IH2)]; [split; auto; split; auto|].
    cbn [map filter]. destruct (Rltb 0 (r_converged r)) eqn:B; cbn [length].
    - apply Rltb_true in B. split; [lia|]. split.
      + intros H. constructor; auto. apply IH2. lia.
      + intros H. inversion H; subst. f_equal. apply IH2. auto.
    - apply Rltb_false in B. split; [lia|]. split; [intros; lia|]. intros H. inversion H; subst. lra. }
  destruct LE as (L1 & L2). apply le_INR in L1. pose proof (pos_INR (length (filter (fun b => b) (table_converged table)))).
  set (k := INR (length (filter (fun b => b) (table_converged table)))) in *. set (q := INR (length table)) in *.
  assert (EQ : k / q * q = k) by (field; lra).
  split; [split; nra|]. split.
  { rewrite <- L2. split.
    - intros H1. apply INR_eq. fold k q. nra.
    - intros H1. unfold k. rewrite H1. fold q. field. lra. }
  assert (MV : forall l m, np_mean l = Ok m -> m = mean_of l).
  { intros l m H1. destruct l; [discriminate|]. unfold np_mean in H1. unfold mean_of. congruence. }
  split; [apply MV; auto|]. split; [|apply MV; auto].
  rewrite (MV _ _ E2). destruct (np_mean_value _ _ E2) as (_ & P2 & _). rewrite map_length in P2.
  unfold mean_of. rewrite !map_length.
  replace (map (fun r => 1 - r_free r) rows) with (map (fun x => 1 - x) (map r_free rows)) by (rewrite map_map; auto).
  rewrite rsum_shift, map_length. field. lra.
Qed.
(** The reported spread of the occupied fraction is zero for all data. *)
Theorem C134_spread_refuted :
  (forall table mask s, path_summary table mask = Ok s -> s_occupied_std s = 0) /\
  exists table mask s, path_summary table mask = Ok s /\
    spread_of (map (fun r => 1 - r_free r) (select table mask)) = 1 / 2.
Proof.
  assert (A : forall table mask s, path_summary table mask = Ok s -> s_occupied_std s = 0).
  { intros table mask s E. unfold path_summary in E. destruct (Nat.eqb (length table) 0); [discriminate|].
    set (rows := select table mask) in *.
    destruct (np_mean (map r_distance rows)) as [d|]; [|discriminate]. cbn [bind] in E.
    destruct (np_mean (map (fun r => 1 - r_free r) rows)) as [o|]; [|discriminate]. cbn [bind] in E.
    assert (Z : np_std [o] = Ok 0).
    { unfold np_std. cbn [np_mean map bind length rsum fold_right]. f_equal.
      transitivity (sqrt 0); [f_equal; simpl; field|apply sqrt_0]. }
    rewrite Z in E. cbn [bind] in E. destruct (np_mean (map r_gamma rows)) as [g|]; [|discriminate].
    cbn [bind] in E. injection E as <-. reflexivity. }
  split; [exact A|].
  set (table := [mkRow 1 1 0 1; mkRow 1 1 1 1]). exists table, [true; true].
  assert (H : exists s, path_summary table [true; true] = Ok s).
  { unfold path_summary, table, select, np_std. cbn. eauto. }
  destruct H as (s & Hs). exists s. split; auto.
  unfold spread_of, mean_of, table, select. cbn [combine filter map fst snd r_free length rsum fold_right].
  transitivity (sqrt (1 / 2 * (1 / 2))); [f_equal; simpl; field|apply sqrt_square; lra].
Qed.
Example C134_case : exists mask,
  common_converged [[mkRow 1 3 (1 / 2) 2; mkRow 1 4 1 2]; [mkRow 1 5 (1 / 2) 2; mkRow 0 6 1 2]] = Ok mask /\ mask = [true; false].
Proof.
  eexists. split; [reflexivity|]. cbn. rewrite (proj2 (Rltb_true 0 1)), (proj2 (Rltb_false 0 0)) by lra. reflexivity.
Qed.
Print Assumptions C130_trajectory.
Print Assumptions C130_stopped.
Print Assumptions C130_step_length.
Print Assumptions C130_classification_refuted.
Print Assumptions C130_minimum_refuted.
Print Assumptions C130_start_refuted.
Print Assumptions C131_distance.
Print Assumptions C131_signed.
Print Assumptions C131_cancel_refuted.
Print Assumptions C131_empty_refuted.
Print Assumptions C132_dot.
Print Assumptions C132_time_step.
Print Assumptions C132_standing.
Print Assumptions C132_acceleration.
Print Assumptions C132_scaled.
Print Assumptions C133_following.
Print Assumptions C133_own_field.
Print Assumptions C133_squared.
Print Assumptions C133_range.
Print Assumptions C133_speed_refuted.
Print Assumptions C133_pause_refuted.
Print Assumptions C134_common.
Print Assumptions C134_means.
Print Assumptions C134_spread_refuted.
Print Assumptions C130_counted.
