(** Properties C110-C111: the graph of the learned hulls. *)
Require Import Reals List Bool Arith ZArith Lra Lia Psatz Permutation.
From Verif Require Import Base Vec Pow RotModel Spec RotProofs TreeModel ContainerModel ContainerProofs HullModel HullGraphModel.
Import ListNotations.
Open Scope R_scope.

(** * C110, C111: graph of the hulls *)
(** ** Specification *)
(** The parent of every component but the root leads to the root, and the children are those
    components which have it as parent. *)
Inductive reaches (parents : list Z) (root : nat) : nat -> Prop :=
| reaches_root : reaches parents root root
| reaches_step c p : nth_error parents c = Some (Z.of_nat p) -> reaches parents root p -> reaches parents root c.
Record tree_of (n root : nat) (parents : list Z) (children : list (list nat)) : Prop := {
  tr_parents : length parents = n;
  tr_children : length children = n;
  tr_root : (root < n)%nat /\ nth_error parents root = Some (-1)%Z;
  tr_edges : forall c p, (p < n)%nat -> (In c (nth p children []) <-> nth_error parents c = Some (Z.of_nat p));
  tr_once : forall p, NoDup (nth p children []);
  tr_all : forall c, (c < n)%nat -> reaches parents root c }.
(** A row of preferences sorts the components by decreasing weight. *)
Definition by_preference (w : nat -> R) (n : nat) (row : list nat) : Prop :=
  Permutation row (seq 0 n) /\
  forall a b, (a < b < n)%nat -> w (nth b row 0%nat) <= w (nth a row 0%nat).

(** ** Lists *)
Lemma argmin_from_spec l : forall k best m,
  (argmin_from l k best m = best /\ (forall i, (i < length l)%nat -> m <= nth i l 0)) \/
  (exists i, (i < length l)%nat /\ argmin_from l k best m = (k + i)%nat /\ nth i l 0 < m /\
    forall j, (j < length l)%nat -> nth i l 0 <= nth j l 0).
Proof.
  induction l as [|x l IH]; intros k best m.
  - left. split; auto. intros i H. cbn in H. lia.
  - cbn [argmin_from]. destruct (Rltb x m) eqn:E.
    + apply Rltb_true in E. right. destruct (IH (S k) k x) as [[A B]|(i & A & B & C & D)].
      * exists 0%nat. cbn [length nth]. split; [lia|]. split; [rewrite A; lia|]. split; auto.
        intros [|j] H; [lra|]. apply B. lia.
      * exists (S i). cbn [length nth]. split; [lia|]. split; [rewrite B; lia|]. split; [lra|].
        intros [|j] H; [lra|]. apply D. lia.
    + apply Rltb_false in E. destruct (IH (S k) best m) as [[A B]|(i & A & B & C & D)].
      * left. split; auto. intros [|i] H; cbn [nth length] in *; auto. apply B. lia.
      * right. exists (S i). cbn [length nth]. split; [lia|]. split; [rewrite B; lia|]. split; [lra|].
        intros [|j] H; [lra|]. apply D. lia.
Qed.
Lemma argmin_ok l : l <> [] -> exists i, argmin l = Ok i /\ (i < length l)%nat /\
  forall j, (j < length l)%nat -> nth i l 0 <= nth j l 0.
Proof.
  destruct l as [|x l]; intros H; [congruence|]. cbn [argmin]. destruct (argmin_from_spec l 1 0 x) as [[A B]|(i & A & B & C & D)].
  - exists 0%nat. rewrite A. cbn [length nth]. split; auto. split; [lia|]. intros [|j] Hj; [lra|]. apply B. lia.
  - exists (S i). rewrite B. cbn [length nth]. split; [f_equal; lia|]. split; [lia|]. intros [|j] Hj; [lra|]. apply D. lia.
Qed.
Lemma argmax_ok l : l <> [] -> exists i, argmax l = Ok i /\ (i < length l)%nat /\
  forall j, (j < length l)%nat -> nth j l 0 <= nth i l 0.
Proof.
  intros H. destruct (argmin_ok (map Ropp l)) as (i & A & B & C); [destruct l; [congruence|discriminate]|].
  rewrite map_length in *. exists i. split; auto. split; auto. intros j Hj. specialize (C j Hj).
  rewrite !(nth_indep (map Ropp l) 0 (Ropp 0)), !map_nth in C by (rewrite map_length; auto). lra.
Qed.
Lemma mem_true x l : mem x l = true <-> In x l.
Proof.
  unfold mem. rewrite existsb_exists. split; [intros (y & A & B); apply Nat.eqb_eq in B; subst; auto|].
  intros H. exists x. split; auto. apply Nat.eqb_refl.
Qed.
Lemma mem_false x l : mem x l = false <-> ~ In x l.
Proof. rewrite <- mem_true. destruct (mem x l); intuition congruence. Qed.
Lemma concat_update l : forall p (c : nat), (p < length l)%nat -> Permutation (concat (update l p (nth p l [] ++ [c]))) (c :: concat l).
Proof.
  induction l as [|x l IH]; intros p c H; [cbn in H; lia|]. destruct p as [|p]; cbn [update nth concat].
  - rewrite <- app_assoc. cbn [app]. symmetry. apply Permutation_middle.
  - cbn [length] in H. rewrite (IH p c) by lia. symmetry. apply Permutation_middle.
Qed.
Lemma in_concat_nth (l : list (list nat)) x : In x (concat l) <-> exists p, (p < length l)%nat /\ In x (nth p l []).
Proof.
  rewrite in_concat. split.
  - intros (y & A & B). destruct (In_nth l y [] A) as (p & P & E). exists p. split; auto. rewrite E. auto.
  - intros (p & A & B). exists (nth p l []). split; auto. apply nth_In. auto.
Qed.
Lemma missing n l : NoDup l -> (forall x, In x l -> (x < n)%nat) -> length l <> n -> exists c, (c < n)%nat /\ ~ In c l.
Proof.
  intros ND HB HL. destruct (filter (fun i => negb (mem i l)) (seq 0 n)) as [|c t] eqn:E.
  - exfalso. apply HL. rewrite <- (seq_length n 0). apply Permutation_length. apply NoDup_Permutation; auto; [apply seq_NoDup|].
    intros x. split; [intros H; apply in_seq; specialize (HB x H); lia|]. intros H. apply mem_true.
    destruct (mem x l) eqn:M; auto. assert (F : In x (filter (fun i => negb (mem i l)) (seq 0 n))) by (apply filter_In; rewrite M; auto).
    rewrite E in F. destruct F.
  - exists c. assert (F : In c (filter (fun i => negb (mem i l)) (seq 0 n))) by (rewrite E; left; auto).
    apply filter_In in F as [F1 F2]. apply in_seq in F1. apply negb_true_iff, mem_false in F2. split; [lia|auto].
Qed.

(** ** The rounds of the loop *)
Section Graph.
Variables (n root : nat) (ws : list (list R)) (pref : list (list nat)).
Hypothesis Hroot : (root < n)%nat.
Hypothesis Hdiag : forall c, (c < n)%nat -> entry ws c c < 0.
Hypothesis Hpos : forall c j, (c < n)%nat -> (j < n)%nat -> c <> j -> 0 <= entry ws c j.
Hypothesis Hpref : forall c, (c < n)%nat -> by_preference (entry ws c) n (nth c pref []).

Definition rank_set (rk : nat -> nat) (c r x : nat) : nat := if Nat.eqb x c then r else rk x.
(** The round in which a component was added. *)
Record inv (g : hull_graph) (rk : nat -> nat) (r : nat) : Prop := {
  i_par : length (hg_parent g) = n;
  i_chi : length (hg_children g) = n;
  i_nd : NoDup (assigned root g);
  i_bnd : forall x, In x (assigned root g) -> (x < n)%nat;
  i_root : nth_error (hg_parent g) root = Some (-1)%Z;
  i_edge : forall c p, (p < n)%nat -> (In c (nth p (hg_children g) []) <-> nth_error (hg_parent g) c = Some (Z.of_nat p));
  i_once : forall p, NoDup (nth p (hg_children g) []);
  i_rank : forall c p, (p < n)%nat -> In c (nth p (hg_children g) []) -> In p (assigned root g) /\ (rk p < rk c)%nat;
  i_best : forall c p j, (p < n)%nat -> In c (nth p (hg_children g) []) -> In j (assigned root g) -> (rk j < rk c)%nat ->
    entry ws c j <= entry ws c p;
  i_le : forall x, In x (assigned root g) -> (rk x <= r)%nat }.

Lemma inv_new : inv (hg_new n) (fun _ => 0%nat) 0.
Proof.
  assert (E : forall p, nth p (repeat (@nil nat) n) [] = []) by (intros p; destruct (le_lt_dec n p);
    [apply nth_overflow; rewrite repeat_length; auto|apply (repeat_spec n); apply nth_In; rewrite repeat_length; auto]).
  assert (C : concat (repeat (@nil nat) n) = []) by (clear; induction n; cbn; auto).
  assert (P : forall c z, nth_error (repeat (-1)%Z n) c = Some z -> z = (-1)%Z) by (intros c z H; apply nth_error_In, repeat_spec in H; auto).
  split; unfold hg_new, assigned; cbn [hg_parent hg_children]; rewrite ?repeat_length, ?C; auto.
  - repeat constructor. auto.
  - intros x [<-|[]]. auto.
  - destruct (nth_error (repeat (-1)%Z n) root) eqn:F; [f_equal; eauto|]. apply nth_error_None in F. rewrite repeat_length in F. lia.
  - intros c p H. rewrite E. split; [intros []|]. intros F. apply P in F. lia.
  - intros p. rewrite E. constructor.
  - intros c p H. rewrite E. intros [].
  - intros c p j H. rewrite E. intros [].
Qed.
Lemma assigned_extend g c p : (p < length (hg_children g))%nat ->
  Permutation (assigned root (hg_extend g c p)) (c :: assigned root g).
Proof.
  intros H. unfold assigned, hg_extend. cbn [hg_children]. rewrite (concat_update _ p c H). apply perm_swap.
Qed.
Lemma inv_extend g rk r c p : inv g rk r -> (c < n)%nat -> ~ In c (assigned root g) -> In p (assigned root g) ->
  (rk p < r)%nat -> (forall j, In j (assigned root g) -> (rk j < r)%nat -> entry ws c j <= entry ws c p) ->
  inv (hg_extend g c p) (rank_set rk c r) r.
Proof.
  intros I Hc Nc Hp Rp HB. pose proof (i_bnd _ _ _ I p Hp) as Bp. pose proof (i_chi _ _ _ I) as LC. pose proof (i_par _ _ _ I) as LP.
  pose proof (assigned_extend g c p ltac:(lia)) as PA.
  assert (IA : forall x, In x (assigned root (hg_extend g c p)) <-> x = c \/ In x (assigned root g)).
  { intros x. split; intros H; [apply (Permutation_in _ PA) in H; destruct H; auto|].
    apply (Permutation_in _ (Permutation_sym PA)). destruct H; [left|right]; auto. }
  assert (NC : forall q, (q < n)%nat -> ~ In c (nth q (hg_children g) [])).
  { intros q Hq H. apply Nc. unfold assigned. right. apply in_concat_nth. exists q. split; auto. lia. }
  assert (RC : c <> root) by (intros ->; apply Nc; left; auto).
  assert (CH : forall q, nth q (hg_children (hg_extend g c p)) [] = if Nat.eqb q p then nth p (hg_children g) [] ++ [c] else nth q (hg_children g) [])
    by (intros q; unfold hg_extend; cbn [hg_children]; apply nth_update; lia).
  assert (RS : forall x, x <> c -> rank_set rk c r x = rk x) by (intros x H; unfold rank_set; rewrite (proj2 (Nat.eqb_neq x c)); auto).
  assert (Rc : rank_set rk c r c = r) by (unfold rank_set; rewrite Nat.eqb_refl; auto).
  assert (CI : forall x q, (q < n)%nat -> In x (nth q (hg_children (hg_extend g c p)) []) <-> (x = c /\ q = p) \/ In x (nth q (hg_children g) [])).
  { intros x q Hq. rewrite CH. destruct (Nat.eqb_spec q p) as [->|H].
    - rewrite in_app_iff. cbn [In]. intuition.
    - intuition. }
  assert (NA : forall x q, (q < n)%nat -> In x (nth q (hg_children g) []) -> x <> c) by (intros x q Hq H ->; apply (NC q Hq H)).
  split.
  - unfold hg_extend. cbn [hg_parent]. rewrite update_length. auto.
  - unfold hg_extend. cbn [hg_children]. rewrite update_length. auto.
  - apply (Permutation_NoDup (Permutation_sym PA)). constructor; auto. apply I.
  - intros x H. apply IA in H as [->|H]; auto. apply (i_bnd _ _ _ I); auto.
  - unfold hg_extend. cbn [hg_parent]. rewrite nth_error_update by lia. rewrite (proj2 (Nat.eqb_neq root c)) by auto. apply I.
  - intros x q Hq. rewrite CI by auto. unfold hg_extend. cbn [hg_parent]. rewrite nth_error_update by lia.
    destruct (Nat.eqb_spec x c) as [->|H].
    + split; [intros [[_ ->]|H]; auto; destruct (NC q Hq H)|]. intros H. injection H as H. left. split; auto. lia.
    + rewrite (i_edge _ _ _ I) by auto. intuition.
  - intros q. rewrite CH. destruct (Nat.eqb_spec q p) as [->|H]; [|apply I].
    apply (Permutation_NoDup (Permutation_cons_append _ c)). constructor; [apply NC; auto|apply I].
  - intros x q Hq H. apply CI in H as [[-> ->]|H]; auto.
    + split; [apply IA; auto|]. rewrite Rc, RS; auto. intros ->. auto.
    + destruct (i_rank _ _ _ I x q Hq H) as [A B]. split; [apply IA; auto|]. rewrite !RS; auto; [apply (NA x q Hq H)|intros ->; auto].
  - intros x q j Hq H Hj Hr. apply CI in H as [[-> ->]|H]; auto.
    + rewrite Rc in Hr. apply IA in Hj as [->|Hj]; [rewrite Rc in Hr; lia|]. rewrite RS in Hr by (intros ->; auto). auto.
    + pose proof (NA x q Hq H) as Nx. rewrite (RS x) in Hr by auto.
      assert (Ax : In x (assigned root g)) by (right; apply in_concat_nth; exists q; split; auto; lia).
      pose proof (i_le _ _ _ I x Ax) as Lx.
      apply IA in Hj as [->|Hj]; [rewrite Rc in Hr; lia|]. rewrite RS in Hr by (intros ->; auto). apply (i_best _ _ _ I x q j); auto.
  - intros x H. apply IA in H as [->|H]; [rewrite Rc; lia|]. rewrite RS by (intros ->; auto). apply (i_le _ _ _ I); auto.
Qed.
Lemma inv_mono g rk r : inv g rk r -> inv g rk (S r).
Proof. intros I. split; try apply I. intros x H. pose proof (i_le _ _ _ I x H). lia. Qed.
(** The components which are added in one round. *)
Lemma inv_fold r ass0 : forall pc g rk, inv g rk (S r) ->
  (forall j, In j ass0 -> In j (assigned root g) /\ (rk j < S r)%nat) ->
  (forall j, In j (assigned root g) -> (rk j < S r)%nat -> In j ass0) ->
  NoDup (map snd pc) ->
  (forall p c, In (p, c) pc -> (c < n)%nat /\ ~ In c (assigned root g) /\ In p ass0 /\ forall j, In j ass0 -> entry ws c j <= entry ws c p) ->
  exists rk', inv (fold_left (fun g p => hg_extend g (snd p) (fst p)) pc g) rk' (S r) /\
    length (assigned root (fold_left (fun g p => hg_extend g (snd p) (fst p)) pc g)) = (length (assigned root g) + length pc)%nat.
Proof.
  induction pc as [|[p c] pc IH]; intros g rk I H1 H2 ND HP; cbn [fold_left length].
  - exists rk. split; auto.
  - cbn [map snd] in ND. inversion ND as [|? ? N1 N2]; subst. destruct (HP p c (or_introl eq_refl)) as (Hc & Nc & Hp & HB).
    destruct (H1 p Hp) as [Ap Rp]. cbn [fst snd].
    pose proof (assigned_extend g c p ltac:(rewrite (i_chi _ _ _ I); apply (i_bnd _ _ _ I p Ap))) as PA.
    assert (IA : forall x, In x (assigned root (hg_extend g c p)) <-> x = c \/ In x (assigned root g)).
    { intros x. split; intros H; [apply (Permutation_in _ PA) in H; destruct H; auto|].
      apply (Permutation_in _ (Permutation_sym PA)). destruct H; [left|right]; auto. }
    assert (RS : forall x, x <> c -> rank_set rk c (S r) x = rk x) by (intros x H; unfold rank_set; rewrite (proj2 (Nat.eqb_neq x c)); auto).
    assert (Rc : rank_set rk c (S r) c = S r) by (unfold rank_set; rewrite Nat.eqb_refl; auto).
    destruct (IH (hg_extend g c p) (rank_set rk c (S r))) as (rk' & A & B).
    + apply inv_extend; auto.
    + intros j Hj. destruct (H1 j Hj) as [A B]. split; [apply IA; auto|]. rewrite RS; auto. intros ->; auto.
    + intros j Hj Hr. apply IA in Hj as [->|Hj]; [lia|]. rewrite RS in Hr by (intros ->; auto). auto.
    + auto.
    + intros q x Hx. destruct (HP q x (or_intror Hx)) as (A & B & C & D). split; auto. split; auto.
      intros F. apply IA in F as [->|F]; auto. apply N1. apply (in_map snd _ _ Hx).
    + exists rk'. split; auto. rewrite B, (Permutation_length PA). cbn [length]. lia.
Qed.
Lemma row_index c j : (c < n)%nat -> (j < n)%nat -> exists b, (b < n)%nat /\ nth b (nth c pref []) 0%nat = j.
Proof.
  intros Hc Hj. destruct (Hpref c Hc) as [P _]. assert (In j (nth c pref [])) as H
    by (apply (Permutation_in _ (Permutation_sym P)), in_seq; lia).
  destruct (In_nth _ _ 0%nat H) as (b & B & E). exists b. split; auto. rewrite (Permutation_length P), seq_length in B. auto.
Qed.
(** A component is its own last preference. *)
Lemma row_index_other c j : (c < n)%nat -> (j < n)%nat -> c <> j -> exists b, (b < n - 1)%nat /\ nth b (nth c pref []) 0%nat = j.
Proof.
  intros Hc Hj N. destruct (row_index c j Hc Hj) as (b & B & E). exists b. split; auto.
  destruct (row_index c c Hc Hc) as (a & A & F). destruct (Nat.eq_dec b (n - 1)) as [->|]; [|lia].
  exfalso. assert (a <> (n - 1)%nat) by (intros ->; congruence). destruct (Hpref c Hc) as [_ D].
  specialize (D a (n - 1)%nat ltac:(lia)). rewrite E, F in D. pose proof (Hdiag c Hc). pose proof (Hpos c j Hc Hj N). lra.
Qed.
Lemma candidates_in k ass unass p c : In (p, c) (candidates pref k ass unass) <->
  p = nth k (nth c pref []) 0%nat /\ In p ass /\ In c unass.
Proof.
  unfold candidates. rewrite in_map_iff. split.
  - intros (x & E & F). injection E as E1 E2. subst. apply filter_In in F as [F1 F2]. apply mem_true in F2. auto.
  - intros (-> & A & B). exists c. split; auto. apply filter_In. split; auto. apply mem_true. auto.
Qed.
Lemma candidates_snd k ass unass : map snd (candidates pref k ass unass) = filter (fun c => mem (nth k (nth c pref []) 0%nat) ass) unass.
Proof. unfold candidates. rewrite map_map. cbn [snd]. apply map_id. Qed.
Lemma preference_round g rk r (unass := filter (fun i => negb (mem i (assigned root g))) (seq 0 n)) :
  inv g rk r -> (exists c, (c < n)%nat /\ ~ In c (assigned root g)) -> forall fuel k, (k + fuel = n - 1)%nat ->
  (forall k', (k' < k)%nat -> candidates pref k' (assigned root g) unass = []) ->
  exists g' rk', preference_loop ws pref g (assigned root g) unass k fuel = Ok g' /\ inv g' rk' (S r) /\
    (length (assigned root g) < length (assigned root g'))%nat.
Proof.
  intros I (c0 & Hc0 & Nc0).
  assert (U : forall c, In c unass <-> (c < n)%nat /\ ~ In c (assigned root g)).
  { intros c. unfold unass. rewrite filter_In, in_seq, negb_true_iff, mem_false. intuition lia. }
  assert (NU : NoDup unass) by (apply NoDup_filter, seq_NoDup).
  induction fuel as [|fuel IH]; intros k Hk HE.
  - exfalso. assert (N : c0 <> root) by (intros ->; apply Nc0; left; auto).
    destruct (row_index_other c0 root Hc0 Hroot N) as (b & B & E).
    assert (F : In (root, c0) (candidates pref b (assigned root g) unass)).
    { apply candidates_in. split; auto. split; [left; auto|]. apply U. auto. }
    rewrite HE in F by lia. destruct F.
  - cbn [preference_loop].
    assert (HP : forall p c, In (p, c) (candidates pref k (assigned root g) unass) ->
      (c < n)%nat /\ ~ In c (assigned root g) /\ In p (assigned root g) /\ forall j, In j (assigned root g) -> entry ws c j <= entry ws c p).
    { intros p c H. apply candidates_in in H as (-> & A & B). pose proof (proj1 (U c) B) as [C D]. split; auto. split; auto. split; auto.
      intros j Hj. destruct (row_index c j C (i_bnd _ _ _ I j Hj)) as (b & Bb & E).
      destruct (lt_eq_lt_dec b k) as [[H|H]|H].
      - exfalso. assert (F : In (j, c) (candidates pref b (assigned root g) unass)) by (apply candidates_in; auto).
        rewrite HE in F by auto. destruct F.
      - rewrite <- E, H. lra.
      - destruct (Hpref c C) as [_ S']. specialize (S' k b ltac:(lia)). rewrite E in S'. auto. }
    assert (ND : NoDup (map snd (candidates pref k (assigned root g) unass))) by (rewrite candidates_snd; apply NoDup_filter; auto).
    assert (H1 : forall j, In j (assigned root g) -> In j (assigned root g) /\ (rk j < S r)%nat)
      by (intros j Hj; split; auto; pose proof (i_le _ _ _ I j Hj); lia).
    destruct (candidates pref k (assigned root g) unass) as [|q pc] eqn:EC.
    + apply IH; [lia|]. intros k' Hk'. destruct (Nat.eq_dec k' k) as [->|]; auto. apply HE. lia.
    + destruct (negb (Nat.eqb k 0) && Nat.ltb 1 (length (q :: pc))).
      * destruct (argmax_ok (map (fun p => entry ws (snd p) k) (q :: pc))) as (i & A & B & _); [discriminate|].
        rewrite map_length in B. rewrite A. cbn [bind].
        destruct (nth i (q :: pc) (0%nat, 0%nat)) as [p c] eqn:EN.
        assert (IN : In (p, c) (q :: pc)) by (rewrite <- EN; apply nth_In; auto). cbn [snd].
        assert (EP : p = nth k (nth c pref []) 0%nat) by (rewrite <- EC in IN; apply candidates_in in IN; apply IN).
        rewrite <- EP.
        destruct (inv_fold r (assigned root g) [(p, c)] g rk (inv_mono _ _ _ I) H1 ltac:(auto)) as (rk' & J & L).
        { repeat constructor. auto. }
        { intros p' c' [E|[]]. injection E as <- <-. apply HP; auto. }
        cbn [fold_left fst snd length] in J, L. exists (hg_extend g c p), rk'. split; auto. split; auto. lia.
      * destruct (inv_fold r (assigned root g) (q :: pc) g rk (inv_mono _ _ _ I) H1 ltac:(auto) ND HP) as (rk' & J & L).
        eexists _, rk'. split; [reflexivity|]. split; auto. rewrite L. cbn [length]. lia.
Qed.
Lemma inv_count g rk r : inv g rk r -> (length (assigned root g) <= n)%nat.
Proof.
  intros I. rewrite <- (seq_length n 0). apply NoDup_incl_length; [apply I|]. intros x H. apply in_seq. pose proof (i_bnd _ _ _ I x H). lia.
Qed.
Lemma graph_loop_ok : forall m g rk r count, inv g rk r -> (n - length (assigned root g) <= m)%nat ->
  exists g' rk' r' k, inv g' rk' r' /\ length (assigned root g') = n /\ (k <= S count + m)%nat /\
    forall fuel, (m < fuel)%nat -> graph_loop n root ws pref g count fuel = Some (Ok (g', k)).
Proof.
  induction m as [|m IH]; intros g rk r count I Hm.
  - pose proof (inv_count _ _ _ I). exists g, rk, r, (S count). split; auto. split; [lia|]. split; [lia|].
    intros [|fuel] Hf; [lia|]. cbn [graph_loop]. rewrite (proj2 (Nat.eqb_eq _ _)) by lia. auto.
  - destruct (Nat.eq_dec (length (assigned root g)) n) as [E|E].
    + exists g, rk, r, (S count). split; auto. split; auto. split; [lia|].
      intros [|fuel] Hf; [lia|]. cbn [graph_loop]. rewrite (proj2 (Nat.eqb_eq _ _)) by lia. auto.
    + destruct (preference_round g rk r I) with (fuel := (n - 1)%nat) (k := 0%nat) as (g1 & rk1 & A & B & C); auto.
      { apply missing; auto; apply I. }
      { intros k' H. lia. }
      destruct (IH g1 rk1 (S r) (S count) B ltac:(lia)) as (g' & rk' & r' & k & J & L & K & F).
      exists g', rk', r', k. split; auto. split; auto. split; [lia|].
      intros [|fuel] Hf; [lia|]. cbn [graph_loop]. rewrite (proj2 (Nat.eqb_neq _ _)) by auto. rewrite A. apply F. lia.
Qed.
(** All components assigned: a tree. *)
Lemma inv_all g rk r c : inv g rk r -> length (assigned root g) = n -> (c < n)%nat -> In c (assigned root g).
Proof.
  intros I L H. apply (NoDup_length_incl (l := assigned root g) (l' := seq 0 n)).
  - apply I.
  - rewrite seq_length. lia.
  - intros x Hx. apply in_seq. pose proof (i_bnd _ _ _ I x Hx). lia.
  - apply in_seq. lia.
Qed.
Lemma inv_tree g rk r : inv g rk r -> length (assigned root g) = n -> tree_of n root (hg_parent g) (hg_children g).
Proof.
  intros I L. split; try apply I.
  - split; auto. apply I.
  - enough (H : forall m c, (rk c < m)%nat -> (c < n)%nat -> reaches (hg_parent g) root c) by (intros c Hc; apply (H (S (rk c))); auto).
    induction m as [|m IH]; intros c Hm Hc; [lia|]. destruct (inv_all g rk r c I L Hc) as [<-|H]; [constructor|].
    apply in_concat_nth in H as (p & Hp & H). rewrite (i_chi _ _ _ I) in Hp.
    destruct (i_rank _ _ _ I c p Hp H) as [A B]. apply (reaches_step _ _ c p); [apply (i_edge _ _ _ I); auto|].
    apply IH; [lia|auto].
Qed.
End Graph.

Lemma without_self_entry weights n c j : length weights = n -> (forall row, In row weights -> length row = n) ->
  (c < n)%nat -> (j < n)%nat -> entry (without_self weights) c j = if Nat.eqb j c then -1 else entry weights c j.
Proof.
  intros L RW Hc Hj. unfold entry, without_self.
  set (f := fun p : nat * list R => update (snd p) (fst p) (-1)).
  rewrite (nth_indep _ [] (f (0%nat, []))) by (rewrite map_length, combine_length, seq_length; lia).
  rewrite map_nth, combine_nth by (rewrite seq_length; auto). rewrite seq_nth by lia. unfold f. cbn [fst snd Nat.add].
  apply nth_update. rewrite (RW (nth c weights [])); auto. apply nth_In. lia.
Qed.

(** Mixing weights of the end points: one row per end point, not negative. *)
Definition mixing_weights (n : nat) (weights : list (list R)) : Prop :=
  length weights = n /\ (forall row, In row weights -> length row = n) /\
  forall c j, (c < n)%nat -> (j < n)%nat -> 0 <= entry weights c j.
(** The preferences of a component: itself last, the others by decreasing mixing weight. *)
Definition preferences (n : nat) (weights : list (list R)) (pref : list (list nat)) : Prop :=
  forall c, (c < n)%nat -> by_preference (fun j => if Nat.eqb j c then -1 else entry weights c j) n (nth c pref []).

(** The creation of the graph ends after at most as many rounds as there are components, for any
    mixing weights, and gives a tree: the root is the component whose end point is closest to the
    attractor, and each other component has one parent, through which the root is reached. *)
Theorem C110_tree end_points attractor weights pref (n := length end_points) :
  end_points <> [] -> mixing_weights n weights -> preferences n weights pref ->
  exists root g k, (forall fuel, (n <= fuel)%nat -> create_graph end_points attractor weights pref fuel = Some (Ok (root, g, k))) /\
    (k <= n)%nat /\ tree_of n root (hg_parent g) (hg_children g) /\
    (forall p, In p end_points -> norm (vsub (nth root end_points []) attractor) <= norm (vsub p attractor)) /\
    exists round : nat -> nat,
      forall c p, (c < n)%nat -> nth_error (hg_parent g) c = Some (Z.of_nat p) ->
        (p < n)%nat /\ p <> c /\ (round p < round c)%nat /\
        forall j, (j < n)%nat -> (round j < round c)%nat -> entry weights c j <= entry weights c p.
Proof.
  intros Hne (WL & WR & WP) HP. assert (Hn : (0 < n)%nat) by (unfold n; destruct end_points; [congruence|cbn; lia]).
  set (ds := map (fun p => norm (vsub p attractor)) end_points).
  destruct (argmin_ok ds) as (root & A & B & C); [unfold ds; destruct end_points; [congruence|discriminate]|].
  assert (LD : length ds = n) by (unfold ds; rewrite map_length; auto). rewrite LD in *.
  set (ws := without_self weights).
  assert (WE : forall c j, (c < n)%nat -> (j < n)%nat -> entry ws c j = if Nat.eqb j c then -1 else entry weights c j)
    by (intros c j Hc Hj; apply (without_self_entry weights n); auto).
  assert (Hdiag : forall c, (c < n)%nat -> entry ws c c < 0) by (intros c Hc; rewrite WE, Nat.eqb_refl by auto; lra).
  assert (Hpos : forall c j, (c < n)%nat -> (j < n)%nat -> c <> j -> 0 <= entry ws c j)
    by (intros c j Hc Hj N; rewrite WE, (proj2 (Nat.eqb_neq j c)) by auto; auto).
  assert (Hpref : forall c, (c < n)%nat -> by_preference (entry ws c) n (nth c pref [])).
  { intros c Hc. destruct (HP c Hc) as [P S']. split; auto. intros a b Hab.
    assert (IN : forall i, (i < n)%nat -> (nth i (nth c pref []) 0 < n)%nat).
    { intros i Hi. assert (In (nth i (nth c pref []) 0%nat) (seq 0 n)) as F; [|apply in_seq in F; lia].
      apply (Permutation_in _ P). apply nth_In. rewrite (Permutation_length P), seq_length. auto. }
    rewrite !WE by (auto; apply IN; lia). apply S'. auto. }
  pose proof (inv_new n root ws B) as I0.
  destruct (graph_loop_ok n root ws pref B Hdiag Hpos Hpref (n - 1) (hg_new n) (fun _ => 0%nat) 0%nat 0%nat I0) as (g & rk & r & k & I & L & K & F).
  { unfold assigned. cbn [length]. lia. }
  exists root, g, k. split; [|split; [lia|split; [|split]]].
  - intros fuel Hf. unfold create_graph. fold ds. rewrite A. fold n ws. rewrite F by lia. auto.
  - apply (inv_tree n root ws B g rk r I L).
  - intros p Hp. destruct (In_nth _ _ [] Hp) as (i & Hi & <-). specialize (C i Hi). unfold ds in C.
    rewrite !(nth_indep _ 0 (norm (vsub [] attractor))) in C by (fold ds; rewrite LD; auto).
    rewrite !(map_nth (fun p => norm (vsub p attractor))) in C. auto.
  - exists rk. intros c p Hc H.
    assert (Hp : (p < n)%nat).
    { destruct (inv_all n root ws B g rk r c I L Hc) as [<-|X].
      - rewrite (i_root _ _ _ _ _ _ I) in H. injection H. lia.
      - apply in_concat_nth in X as (q & Hq & X). rewrite (i_chi _ _ _ _ _ _ I) in Hq.
        apply (i_edge _ _ _ _ _ _ I) in X; auto. rewrite X in H. injection H. lia. }
    apply (i_edge _ _ _ _ _ _ I) in H; auto. destruct (i_rank _ _ _ _ _ _ I c p Hp H) as [X Y].
    assert (NP : p <> c) by (intros ->; lia). split; auto. split; auto. split; auto. intros j Hj Hr.
    pose proof (i_best _ _ _ _ _ _ I c p j Hp H (inv_all n root ws B g rk r j I L Hj) Hr) as Z.
    rewrite !WE, (proj2 (Nat.eqb_neq p c)), (proj2 (Nat.eqb_neq j c)) in Z; auto. intros ->. lia.
Qed.

(** Three components in a row; the weights of the second end point favour the third component. *)
Definition ex_ends : list vec := [[0; 0]; [1; 0]; [2; 0]].
Definition ex_weights : list (list R) := [[0.5; 0.3; 0.2]; [0.4; 0; 0.6]; [0.1; 0.9; 0]].
Definition ex_pref : list (list nat) := [[1; 2; 0]; [2; 0; 1]; [1; 0; 2]]%nat.
Lemma ex_weights_ok : mixing_weights 3 ex_weights.
Proof.
  split; auto. split.
  - intros row [<-|[<-|[<-|[]]]]; auto.
  - intros [|[|[|c]]] [|[|[|j]]] Hc Hj; try lia; cbn; lra.
Qed.
Lemma ex_pref_ok : preferences 3 ex_weights ex_pref.
Proof.
  assert (P : forall a b c : nat, NoDup [a; b; c] -> (forall x, In x [a; b; c] -> (x < 3)%nat) -> Permutation [a; b; c] (seq 0 3)).
  { intros a b c ND HB. apply NoDup_Permutation_bis; auto. intros x H. apply in_seq. specialize (HB x H). lia. }
  intros c Hc. split.
  - destruct c as [|[|[|c]]]; try lia; cbn [ex_pref nth]; (apply P; [repeat constructor; cbn; intuition lia|cbn; intuition lia]).
  - intros a b Hab. destruct c as [|[|[|c]]]; try lia;
      (destruct b as [|[|[|b]]]; try lia; destruct a as [|[|[|a]]]; try lia; cbn; lra).
Qed.
Lemma ex_root : argmin (map (fun p => norm (vsub p [0; 0])) ex_ends) = Ok 0%nat.
Proof.
  assert (E : forall a, 0 <= a -> norm (vsub [a; 0] [0; 0]) = a).
  { intros a Ha. unfold norm, vsub. cbn. transitivity (sqrt (a * a)); [f_equal; ring|apply sqrt_square; auto]. }
  unfold ex_ends. cbn [map]. rewrite !E by lra. cbn [argmin argmin_from].
  rewrite !(proj2 (Rltb_false _ _)) by lra. auto.
Qed.
Example C110_tree_example : exists g k, create_graph ex_ends [0; 0] ex_weights ex_pref 3 = Some (Ok (0%nat, g, k)) /\
  tree_of 3 0 (hg_parent g) (hg_children g).
Proof.
  destruct (C110_tree ex_ends [0; 0] ex_weights ex_pref ltac:(discriminate) ex_weights_ok ex_pref_ok) as (root & g & k & A & _ & T & _).
  pose proof (A 3%nat ltac:(cbn; lia)) as A3. assert (root = 0%nat) as ->.
  { unfold create_graph in A3. rewrite ex_root in A3. destruct (graph_loop _ _ _ _ _ _ _) as [[[? ?]|]|]; try discriminate. congruence. }
  exists g, k. auto.
Qed.
(** When several components have the same, not first, preference, only one of them is to be added: the one
    with the largest weight for the parent.  The comparison reads the column of the number of the
    preference instead of the column of the parent, so that another one is added. *)
Theorem C111_choice_refuted : exists end_points attractor weights pref g,
  mixing_weights 3 weights /\ preferences 3 weights pref /\
  create_graph end_points attractor weights pref 3 = Some (Ok (0%nat, g, 3%nat)) /\
  nth_error (hg_parent g) 2 = Some 0%Z /\ nth_error (hg_parent g) 1 = Some 2%Z /\
  entry weights 2 0 < entry weights 1 0 /\ entry weights 2 0 < entry weights 2 1.
Proof.
  exists ex_ends, [0; 0], ex_weights, ex_pref, (mkHG [(-1)%Z; 2%Z; 0%Z] [[2%nat]; []; [1%nat]]).
  split; [apply ex_weights_ok|]. split; [apply ex_pref_ok|]. split.
  - unfold create_graph. rewrite ex_root. cbn -[Rltb]. rewrite (proj2 (Rltb_true _ _)) by lra. cbn. auto.
  - cbn. repeat split; auto; lra.
Qed.

(** The components whose first preference is in the graph are all added in one round, to this
    preference. *)
Lemma fold_keeps pc : forall g c z, ~ In c (map snd pc) -> (forall p x, In (p, x) pc -> (x < length (hg_parent g))%nat) ->
  nth_error (hg_parent g) c = z -> nth_error (hg_parent (fold_left (fun g p => hg_extend g (snd p) (fst p)) pc g)) c = z.
Proof.
  induction pc as [|[q x] pc IH]; intros g c z N L E; auto. cbn [fold_left fst snd]. cbn [map snd In] in N. apply IH.
  - intuition.
  - intros p y H. unfold hg_extend. cbn [hg_parent]. rewrite update_length. apply (L p y). right. auto.
  - unfold hg_extend. cbn [hg_parent]. rewrite nth_error_update by (apply (L q x); left; auto).
    rewrite (proj2 (Nat.eqb_neq c x)); auto.
Qed.
Lemma fold_sets pc : forall g p c, NoDup (map snd pc) -> (forall p x, In (p, x) pc -> (x < length (hg_parent g))%nat) -> In (p, c) pc ->
  nth_error (hg_parent (fold_left (fun g p => hg_extend g (snd p) (fst p)) pc g)) c = Some (Z.of_nat p).
Proof.
  induction pc as [|[q x] pc IH]; intros g p c ND L H; [destruct H|]. cbn [map snd] in ND. inversion ND as [|? ? N1 N2]; subst.
  cbn [fold_left fst snd]. destruct H as [E|H].
  - injection E as -> ->. apply fold_keeps; auto.
    + intros a y H. unfold hg_extend. cbn [hg_parent]. rewrite update_length. apply (L a y). right. auto.
    + unfold hg_extend. cbn [hg_parent]. rewrite nth_error_update by (apply (L p c); left; auto). rewrite Nat.eqb_refl. auto.
  - apply IH; auto. intros a y K. unfold hg_extend. cbn [hg_parent]. rewrite update_length. apply (L a y). right. auto.
Qed.
Theorem C111_first_preference ws pref g root n fuel (ass := assigned root g) (unass := filter (fun i => negb (mem i ass)) (seq 0 n)) c :
  length (hg_parent g) = n -> (0 < fuel)%nat -> (c < n)%nat -> ~ In c ass -> In (nth 0 (nth c pref []) 0%nat) ass ->
  exists g', preference_loop ws pref g ass unass 0 fuel = Ok g' /\
    nth_error (hg_parent g') c = Some (Z.of_nat (nth 0 (nth c pref []) 0%nat)).
Proof.
  intros L Hf Hc Nc Hp. destruct fuel as [|fuel]; [lia|]. cbn [preference_loop].
  assert (UB : forall x, In x unass -> (x < n)%nat) by (intros x H; apply filter_In in H as [H _]; apply in_seq in H; lia).
  assert (IN : In (nth 0 (nth c pref []) 0%nat, c) (candidates pref 0 ass unass)).
  { apply candidates_in. split; auto. split; auto. apply filter_In. split; [apply in_seq; lia|]. apply negb_true_iff, mem_false. auto. }
  assert (ND : NoDup (map snd (candidates pref 0 ass unass))) by (rewrite candidates_snd; apply NoDup_filter, NoDup_filter, seq_NoDup).
  assert (B : forall p x, In (p, x) (candidates pref 0 ass unass) -> (x < length (hg_parent g))%nat).
  { intros p x H. apply candidates_in in H as (_ & _ & H). rewrite L. auto. }
  destruct (candidates pref 0 ass unass) as [|q pc] eqn:EC; [destruct IN|]. cbn [Nat.eqb negb andb].
  eexists. split; [reflexivity|]. apply fold_sets; auto.
Qed.
Example C111_first_preference_example : exists g', preference_loop (without_self ex_weights) [[1; 2; 0]; [0; 2; 1]; [0; 1; 2]]%nat
  (hg_new 3) [0%nat] [1%nat; 2%nat] 0 2 = Ok g' /\ hg_parent g' = [(-1)%Z; 0%Z; 0%Z] /\ hg_children g' = [[1; 2]; []; []]%nat.
Proof. eexists. cbn. auto. Qed.
Print Assumptions C110_tree.
Print Assumptions C111_choice_refuted.
Print Assumptions C111_first_preference.
