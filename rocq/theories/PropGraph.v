(** Property C52: the graph handler keeps what its history says. *)
Require Import List Arith Bool Lia.
From Verif Require Import Base GraphModel.
Import ListNotations.

(** * Specification: what a history (latest operation first) says *)
Fixpoint known (h : list gop) (v : nat) : Prop :=
  match h with
  | [] => False
  | ORoot w :: t | OAdd w _ :: t => w = v \/ known t v
  | OSet _ _ :: t => known t v
  end.
(** New values are fresh, parents and re-attached elements exist. *)
Fixpoint good (h : list gop) : Prop :=
  match h with
  | [] => True
  | ORoot v :: t => good t /\ ~ known t v
  | OAdd v p :: t => good t /\ ~ known t v /\ known t p
  | OSet v p :: t => good t /\ known t v /\ known t p
  end.
(** The parent set last, and everything ever attached to [p] in order. *)
Fixpoint parent_of (h : list gop) (v : nat) : option nat :=
  match h with
  | [] => None
  | ORoot w :: t => if Nat.eqb w v then None else parent_of t v
  | OAdd w p :: t | OSet w p :: t => if Nat.eqb w v then Some p else parent_of t v
  end.
Fixpoint attached (h : list gop) (p : nat) : list nat :=
  match h with
  | [] => []
  | ORoot _ :: t => attached t p
  | OAdd w q :: t | OSet w q :: t => attached t p ++ (if Nat.eqb q p then [w] else [])
  end.
(** No element which has a parent is attached again. *)
Fixpoint no_reattach (h : list gop) : Prop :=
  match h with
  | [] => True
  | OSet v _ :: t => no_reattach t /\ parent_of t v = None
  | _ :: t => no_reattach t
  end.
Fixpoint no_set (h : list gop) : Prop :=
  match h with
  | [] => True
  | OSet _ _ :: _ => False
  | _ :: t => no_set t
  end.

(** * Lists *)
Lemma index_of_some v l i : index_of v l = Some i -> nth_error l i = Some v.
Proof.
  revert i; induction l as [|x l IH]; simpl; intros i H; try discriminate.
  destruct (Nat.eqb_spec x v).
  - inversion H; subst. reflexivity.
  - destruct (index_of v l); simpl in H; inversion H; subst. simpl. auto.
Qed.
Lemma index_of_none v l : index_of v l = None <-> ~ In v l.
Proof.
  induction l as [|x l IH]; simpl.
  - tauto.
  - destruct (Nat.eqb_spec x v).
    + split; [discriminate|]. intros H; exfalso; auto.
    + destruct (index_of v l); simpl.
      * split; [discriminate|]. intros H. exfalso.
        assert (E : Some n0 = None) by (apply IH; intros X; apply H; auto). discriminate.
      * split; auto. intros _ [E|E]; [congruence|]. apply IH in E; auto.
Qed.
Lemma index_of_in v l : In v l -> exists i, index_of v l = Some i.
Proof.
  intros H. destruct (index_of v l) eqn:E; eauto. exfalso. apply index_of_none in E; auto.
Qed.
Lemma index_of_app v l l' i : index_of v l = Some i -> index_of v (l ++ l') = Some i.
Proof.
  revert i; induction l as [|x l IH]; simpl; intros i H; try discriminate.
  destruct (Nat.eqb_spec x v); auto.
  destruct (index_of v l) eqn:E; simpl in H; inversion H; subst.
  rewrite (IH n0); auto.
Qed.
Lemma index_of_nth v l i : NoDup l -> nth_error l i = Some v -> index_of v l = Some i.
Proof.
  intros ND H. destruct (index_of_in v l) as [j E].
  - eapply nth_error_In; eauto.
  - rewrite E. f_equal. apply index_of_some in E.
    apply (NoDup_nth_error l); auto.
    + apply nth_error_Some. congruence.
    + congruence.
Qed.
Lemma list_update_length {A} i (f : A -> A) l : length (list_update i f l) = length l.
Proof.
  revert i; induction l as [|x l IH]; intros i.
  - unfold list_update. rewrite firstn_nil, skipn_nil. reflexivity.
  - destruct i; [reflexivity|].
    change (list_update (S i) f (x :: l)) with (x :: list_update i f l). simpl. auto.
Qed.
Lemma list_update_nth {A} i (f : A -> A) l k :
  nth_error (list_update i f l) k =
  if Nat.eqb k i then option_map f (nth_error l k) else nth_error l k.
Proof.
  revert i k; induction l as [|x l IH]; intros i k.
  - unfold list_update. rewrite firstn_nil, skipn_nil. simpl.
    destruct k; destruct (Nat.eqb _ i); reflexivity.
  - destruct i; destruct k; try reflexivity.
    change (list_update (S i) f (x :: l)) with (x :: list_update i f l).
    simpl. apply IH.
Qed.
Lemma nth_error_snoc {A} (l : list A) x i :
  nth_error (l ++ [x]) i =
  if Nat.ltb i (length l) then nth_error l i else if Nat.eqb i (length l) then Some x else None.
Proof.
  destruct (Nat.ltb_spec i (length l)).
  - apply nth_error_app1; auto.
  - rewrite nth_error_app2; auto. destruct (Nat.eqb_spec i (length l)).
    + subst. rewrite Nat.sub_diag. reflexivity.
    + destruct (i - length l) as [|[|k]] eqn:E; try lia; reflexivity.
Qed.
Lemma values_at_Forall2 l idx ws :
  Forall2 (fun j w => nth_error l j = Some w) idx ws -> values_at l idx = Ok ws.
Proof.
  induction 1; simpl; auto. rewrite H, IHForall2. reflexivity.
Qed.

(** * The invariant *)
Definition par_ok (vals : list nat) (o : option nat) (p : option nat) : Prop :=
  match o, p with
  | None, None => True
  | Some j, Some w => nth_error vals j = Some w
  | _, _ => False
  end.
Record ginv (g : graph) (h : list gop) : Prop := {
  gi_nodup : NoDup (g_values g);
  gi_known : forall v, In v (g_values g) <-> known h v;
  gi_lenp : length (g_parent g) = length (g_values g);
  gi_lenc : length (g_children g) = length (g_values g);
  gi_par : forall i v, nth_error (g_values g) i = Some v ->
    exists o, nth_error (g_parent g) i = Some o /\ par_ok (g_values g) o (parent_of h v);
  gi_ch : forall i v, nth_error (g_values g) i = Some v ->
    exists l, nth_error (g_children g) i = Some l /\
    Forall2 (fun j w => nth_error (g_values g) j = Some w) l (attached h v)
}.

Lemma nth_error_grow {A} (l l' : list A) i x :
  nth_error l i = Some x -> nth_error (l ++ l') i = Some x.
Proof. intros H. rewrite nth_error_app1; auto. apply nth_error_Some. congruence. Qed.
Lemma par_ok_grow (vals : list nat) x o p : par_ok vals o p -> par_ok (vals ++ [x]) o p.
Proof. destruct o, p; simpl; auto. intros. apply nth_error_grow; auto. Qed.
Lemma ch_grow (vals : list nat) x l ws :
  Forall2 (fun j w => nth_error vals j = Some w) l ws ->
  Forall2 (fun j w => nth_error (vals ++ [x]) j = Some w) l ws.
Proof. induction 1; constructor; auto. apply nth_error_grow; auto. Qed.
Lemma known_attached h p w : good h -> In w (attached h p) -> known h w /\ known h p.
Proof.
  induction h as [|[v|v q|v q] h IH]; simpl; intros G H; try tauto.
  - apply in_app_or in H. destruct H as [H|H].
    + destruct (IH (proj1 G) H). tauto.
    + destruct (Nat.eqb_spec q p); simpl in H; [|tauto]. destruct H as [H|[]]. subst. tauto.
  - apply in_app_or in H. destruct H as [H|H].
    + destruct (IH (proj1 G) H). tauto.
    + destruct (Nat.eqb_spec q p); simpl in H; [|tauto]. destruct H as [H|[]]. subst. tauto.
Qed.
Lemma known_parent h v p : good h -> parent_of h v = Some p -> known h v /\ known h p.
Proof.
  induction h as [|[w|w q|w q] h IH]; simpl; intros G H; try discriminate.
  - destruct (Nat.eqb_spec w v); try discriminate. destruct (IH (proj1 G) H). tauto.
  - destruct (Nat.eqb_spec w v).
    + inversion H; subst. tauto.
    + destruct (IH (proj1 G) H). tauto.
  - destruct (Nat.eqb_spec w v).
    + inversion H; subst. tauto.
    + destruct (IH (proj1 G) H). tauto.
Qed.
Lemma attached_unknown h p : good h -> ~ known h p -> attached h p = [].
Proof.
  intros G N. destruct (attached h p) as [|w l] eqn:E; auto. exfalso. apply N.
  apply (known_attached h p w G). rewrite E. left; auto.
Qed.
Lemma nodup_snoc (l : list nat) v : NoDup l -> ~ In v l -> NoDup (l ++ [v]).
Proof.
  intros H N. apply (Permutation.Permutation_NoDup (l := v :: l)).
  - apply Permutation.Permutation_cons_append.
  - constructor; auto.
Qed.

Lemma ginv_root g h v : ginv g h -> good h -> ~ known h v ->
  ginv (fst (set_root g v)) (ORoot v :: h).
Proof.
  intros [ND K LP LC P C] G N. simpl.
  assert (NI : ~ In v (g_values g)) by (rewrite K; auto).
  constructor; simpl.
  - apply nodup_snoc; auto.
  - intros w. rewrite in_app_iff, K. simpl. tauto.
  - rewrite !app_length, LP. reflexivity.
  - rewrite !app_length, LC. reflexivity.
  - intros i w. rewrite nth_error_snoc. destruct (Nat.ltb_spec i (length (g_values g))).
    + intros Hi. destruct (P i w Hi) as [o [Ho Po]]. exists o. split.
      * apply nth_error_grow; auto.
      * destruct (Nat.eqb_spec v w).
        -- exfalso. subst. apply NI. eapply nth_error_In; eauto.
        -- apply par_ok_grow; auto.
    + destruct (Nat.eqb_spec i (length (g_values g))); [|discriminate].
      intros E; inversion E; subst w. exists None. split.
      * rewrite nth_error_snoc, LP. subst i. rewrite Nat.ltb_irrefl, Nat.eqb_refl. reflexivity.
      * rewrite Nat.eqb_refl. exact I.
  - intros i w. rewrite nth_error_snoc. destruct (Nat.ltb_spec i (length (g_values g))).
    + intros Hi. destruct (C i w Hi) as [l [Hl Cl]]. exists l. split.
      * apply nth_error_grow; auto.
      * apply ch_grow; auto.
    + destruct (Nat.eqb_spec i (length (g_values g))); [|discriminate].
      intros E; inversion E; subst w. exists []. split.
      * rewrite nth_error_snoc, LC. subst i. rewrite Nat.ltb_irrefl, Nat.eqb_refl. reflexivity.
      * rewrite (attached_unknown h v); auto.
Qed.

Lemma forall2_snoc {A B} (Q : A -> B -> Prop) l ws a b :
  Forall2 Q l ws -> Q a b -> Forall2 Q (l ++ [a]) (ws ++ [b]).
Proof. intros. apply Forall2_app; auto. Qed.

Lemma add_element_known g h v p : ginv g h -> known h p ->
  exists ip, index_of p (g_values g) = Some ip /\ nth_error (g_values g) ip = Some p /\
  ip < length (g_values g) /\
  add_element g v p =
  (mkGraph (g_values g ++ [v]) (g_parent g ++ [Some ip])
     (list_update ip (fun l => l ++ [length (g_values g)]) (g_children g ++ [[]])), Ok tt).
Proof.
  intros [ND K LP LC P C] Hp. apply K in Hp.
  destruct (index_of_in p _ Hp) as [ip E]. exists ip.
  pose proof (index_of_some _ _ _ E) as E1.
  assert (L : ip < length (g_values g)) by (apply nth_error_Some; congruence).
  repeat split; auto. unfold add_element.
  rewrite (index_of_app _ _ [v] _ E). rewrite !app_length, LC. simpl.
  destruct (Nat.ltb_spec ip (length (g_values g) + 1)); [|lia].
  replace (length (g_values g) + 1 - 1) with (length (g_values g)) by lia. reflexivity.
Qed.
Lemma ginv_add g h v p : ginv g h -> good h -> ~ known h v -> known h p ->
  ginv (fst (add_element g v p)) (OAdd v p :: h) /\ snd (add_element g v p) = Ok tt.
Proof.
  intros I G N Hp. destruct (add_element_known g h v p I Hp) as [ip [E [E1 [L ->]]]].
  split; auto. destruct I as [ND K LP LC P C]. simpl.
  assert (NI : ~ In v (g_values g)) by (rewrite K; auto).
  assert (NP : v <> p) by (intros ->; auto).
  constructor; simpl.
  - apply nodup_snoc; auto.
  - intros w. rewrite in_app_iff, K. simpl. tauto.
  - rewrite !app_length, LP. reflexivity.
  - rewrite list_update_length, !app_length, LC. reflexivity.
  - intros i w. rewrite nth_error_snoc. destruct (Nat.ltb_spec i (length (g_values g))).
    + intros Hi. destruct (P i w Hi) as [o [Ho Po]]. exists o. split.
      * apply nth_error_grow; auto.
      * destruct (Nat.eqb_spec v w).
        -- exfalso. subst. apply NI. eapply nth_error_In; eauto.
        -- apply par_ok_grow; auto.
    + destruct (Nat.eqb_spec i (length (g_values g))); [|discriminate].
      intros E2; inversion E2; subst w. exists (Some ip). split.
      * rewrite nth_error_snoc, LP. subst i. rewrite Nat.ltb_irrefl, Nat.eqb_refl. reflexivity.
      * rewrite Nat.eqb_refl. simpl. apply nth_error_grow; auto.
  - intros i w. rewrite nth_error_snoc. destruct (Nat.ltb_spec i (length (g_values g))).
    + intros Hi. destruct (C i w Hi) as [l [Hl Cl]].
      rewrite list_update_nth. rewrite (nth_error_grow _ [[]] _ _ Hl).
      destruct (Nat.eqb_spec i ip).
      * subst i. assert (w = p) by congruence. subst w. rewrite Nat.eqb_refl.
        eexists. split; [reflexivity|]. apply forall2_snoc.
        -- apply ch_grow; auto.
        -- rewrite nth_error_snoc, Nat.ltb_irrefl, Nat.eqb_refl. reflexivity.
      * exists l. split; auto. destruct (Nat.eqb_spec p w).
        -- exfalso. subst w. apply n.
           apply (NoDup_nth_error (g_values g)); auto. congruence.
        -- rewrite app_nil_r. apply ch_grow; auto.
    + destruct (Nat.eqb_spec i (length (g_values g))); [|discriminate].
      intros E2; inversion E2; subst w. exists []. split.
      * rewrite list_update_nth. destruct (Nat.eqb_spec i ip); [lia|].
        rewrite nth_error_snoc, LC. subst i. rewrite Nat.ltb_irrefl, Nat.eqb_refl. reflexivity.
      * destruct (Nat.eqb_spec p v); [congruence|].
        rewrite (attached_unknown h v); simpl; auto.
Qed.

Lemma ginv_set g h v p : ginv g h -> known h v -> known h p ->
  ginv (fst (set_parent g v p)) (OSet v p :: h) /\ snd (set_parent g v p) = Ok tt.
Proof.
  intros I Hv Hp. destruct I as [ND K LP LC P C].
  apply K in Hv. apply K in Hp.
  destruct (index_of_in v _ Hv) as [iv Ev]. destruct (index_of_in p _ Hp) as [ip Ep].
  pose proof (index_of_some _ _ _ Ev) as Ev1. pose proof (index_of_some _ _ _ Ep) as Ep1.
  assert (Lv : iv < length (g_values g)) by (apply nth_error_Some; congruence).
  assert (Lp : ip < length (g_values g)) by (apply nth_error_Some; congruence).
  unfold set_parent. rewrite Ev, Ep, LC, LP.
  destruct (Nat.ltb_spec ip (length (g_values g))); [|lia].
  destruct (Nat.ltb_spec iv (length (g_values g))); [|lia].
  split; auto. simpl.
  constructor; simpl; auto.
  - rewrite list_update_length; auto.
  - rewrite list_update_length; auto.
  - intros i w Hi. destruct (P i w Hi) as [o [Ho Po]]. rewrite list_update_nth, Ho. simpl.
    destruct (Nat.eqb_spec i iv).
    + subst i. assert (w = v) by congruence. subst w. rewrite Nat.eqb_refl.
      exists (Some ip). split; auto.
    + exists o. split; auto. destruct (Nat.eqb_spec v w); auto.
      exfalso. subst w. apply n.
      apply (NoDup_nth_error (g_values g)); auto.
      * apply nth_error_Some. congruence.
      * congruence.
  - intros i w Hi. destruct (C i w Hi) as [l [Hl Cl]]. rewrite list_update_nth, Hl. simpl.
    destruct (Nat.eqb_spec i ip).
    + subst i. assert (w = p) by congruence. subst w. rewrite Nat.eqb_refl.
      eexists. split; [reflexivity|]. apply forall2_snoc; auto.
    + exists l. split; auto. destruct (Nat.eqb_spec p w).
      * exfalso. subst w. apply n.
        apply (NoDup_nth_error (g_values g)); auto.
        -- apply nth_error_Some. congruence.
        -- congruence.
      * rewrite app_nil_r. auto.
Qed.

Definition empty : graph := graph_init [].
Lemma ginv_run h : good h -> ginv (fst (run empty h)) h /\ Forall (eq (Ok tt)) (snd (run empty h)).
Proof.
  induction h as [|o h IH]; simpl; intros G.
  - split; auto. constructor; simpl; auto.
    + constructor.
    + tauto.
    + intros [|i] v H; discriminate.
    + intros [|i] v H; discriminate.
  - assert (G' : good h) by (destruct o; tauto).
    destruct (IH G') as [I F]. destruct (run empty h) as [g rs] eqn:R. simpl in *.
    destruct o as [v|v p|v p]; simpl.
    + destruct G as [_ N]. pose proof (ginv_root g h v I G' N). simpl in *.
      split; auto.
    + destruct G as [_ [N Hp]]. destruct (ginv_add g h v p I G' N Hp) as [A B].
      destruct (add_element g v p). simpl in *. subst. split; auto.
    + destruct G as [_ [Hv Hp]]. destruct (ginv_set g h v p I Hv Hp) as [A B].
      destruct (set_parent g v p). simpl in *. subst. split; auto.
Qed.

Lemma inv_lookup g h v : ginv g h -> known h v ->
  get_parent g v = Ok (parent_of h v) /\ get_children g v = Ok (attached h v).
Proof.
  intros [ND K LP LC P C] Hv. apply K in Hv. destruct (index_of_in v _ Hv) as [i E].
  pose proof (index_of_some _ _ _ E) as E1. unfold get_parent, get_children. rewrite E.
  destruct (P i v E1) as [o [Ho Po]]. destruct (C i v E1) as [l [Hl Cl]].
  rewrite Ho, Hl. split.
  - destruct o, (parent_of h v); simpl in Po; try contradiction; auto. rewrite Po. reflexivity.
  - apply values_at_Forall2; auto.
Qed.

(** * C52 *)
(** After every history of well formed operations all of them succeeded, the parent of an element
    is the one set last, and its children are the elements ever attached to it, in order; values
    never added raise. *)
Theorem C52_lookup h : good h ->
  Forall (eq (Ok tt)) (snd (run empty h)) /\
  (forall v, known h v ->
    get_parent (fst (run empty h)) v = Ok (parent_of h v) /\
    get_children (fst (run empty h)) v = Ok (attached h v)) /\
  (forall v, ~ known h v ->
    get_parent (fst (run empty h)) v = Err EValue /\
    get_children (fst (run empty h)) v = Err EValue).
Proof.
  intros G. destruct (ginv_run h G) as [I F]. split; [auto|split].
  - intros v Hv. apply (inv_lookup _ h); auto.
  - intros v N. assert (E : index_of v (g_values (fst (run empty h))) = None).
    { apply index_of_none. rewrite (gi_known _ _ I). auto. }
    unfold get_parent, get_children. rewrite E. auto.
Qed.

(** Without re-attaching an element which has a parent, parents and children agree. *)
Lemma attached_parent h : good h -> no_reattach h -> forall v p,
  (In v (attached h p) <-> parent_of h v = Some p) /\ NoDup (attached h p).
Proof.
  induction h as [|[w|w q|w q] h IH]; simpl; intros G S v p.
  - split; [split; [tauto|discriminate]|constructor].
  - destruct G as [G N]. destruct (IH G S v p) as [E D]. split; auto. rewrite E.
    destruct (Nat.eqb_spec w v); [|reflexivity]. subst. split; [|discriminate].
    intros H. exfalso. apply N. apply (known_parent h v p G H).
  - destruct G as [G [N Kq]]. destruct (IH G S v p) as [E D]. rewrite in_app_iff, E.
    assert (NW : ~ In w (attached h p)) by (intros H; apply N; apply (known_attached h p w G H)).
    split.
    + destruct (Nat.eqb_spec w v); [subst w|].
      * destruct (Nat.eqb_spec q p); simpl.
        -- subst. split; auto.
        -- split; [|congruence]. intros [H|[]]. exfalso. apply N. apply (known_parent h v p G H).
      * destruct (Nat.eqb_spec q p); simpl; tauto.
    + destruct (Nat.eqb_spec q p).
      * apply nodup_snoc; auto.
      * rewrite app_nil_r; auto.
  - destruct G as [G [Kw Kq]]. destruct S as [S R]. destruct (IH G S v p) as [E D].
    rewrite in_app_iff, E.
    assert (NW : ~ In w (attached h p)).
    { intros H. apply (IH G S w p) in H. congruence. }
    split.
    + destruct (Nat.eqb_spec w v); [subst w|].
      * destruct (Nat.eqb_spec q p); simpl.
        -- subst. split; auto.
        -- rewrite R. split; [|congruence]. intros [H|[]]. discriminate.
      * destruct (Nat.eqb_spec q p); simpl; tauto.
    + destruct (Nat.eqb_spec q p).
      * apply nodup_snoc; auto.
      * rewrite app_nil_r; auto.
Qed.
Theorem C52_consistent_partial h v p : good h -> no_reattach h -> known h v -> known h p ->
  exists par ch, get_parent (fst (run empty h)) v = Ok par /\
  get_children (fst (run empty h)) p = Ok ch /\ NoDup ch /\
  (In v ch <-> par = Some p).
Proof.
  intros G S Kv Kp. destruct (C52_lookup h G) as [_ [L _]].
  exists (parent_of h v), (attached h p). repeat split; try apply L; auto;
  apply (attached_parent h G S v p).
Qed.

(** The elements added below existing ones form a forest: following the parents ends at a root. *)
Inductive leads_to_root (g : graph) : nat -> Prop :=
| at_root v : get_parent g v = Ok None -> leads_to_root g v
| up v p : get_parent g v = Ok (Some p) -> leads_to_root g p -> leads_to_root g v.
Lemma no_set_root h : good h -> no_set h -> forall (Q : nat -> Prop),
  (forall v, known h v -> parent_of h v = None -> Q v) ->
  (forall v p, known h v -> parent_of h v = Some p -> Q p -> Q v) -> forall v, known h v -> Q v.
Proof.
  induction h as [|[w|w q|w q] h IH]; simpl; intros G S Q H0 H1 v Kv; try contradiction.
  - destruct G as [G N].
    assert (Qw : Q w) by (apply H0; auto; rewrite Nat.eqb_refl; auto).
    destruct Kv as [->|Kv]; auto. apply (IH G S Q); auto.
    + intros u Ku Eu. apply H0; auto. destruct (Nat.eqb_spec w u); auto.
    + intros u p Ku Eu Qp. apply (H1 u p); auto. destruct (Nat.eqb_spec w u); auto.
      subst. contradiction.
  - destruct G as [G [N Kq]].
    assert (Qh : forall u, known h u -> Q u).
    { intros u Ku. apply (IH G S Q); auto.
      - intros u' Ku' Eu. apply H0; auto. destruct (Nat.eqb_spec w u'); auto. subst. contradiction.
      - intros u' p Ku' Eu Qp. apply (H1 u' p); auto. destruct (Nat.eqb_spec w u'); auto.
        subst. contradiction. }
    destruct Kv as [->|Kv]; auto. apply (H1 v q); auto. rewrite Nat.eqb_refl; auto.
Qed.
Theorem C52_forest h v : good h -> no_set h -> known h v ->
  leads_to_root (fst (run empty h)) v.
Proof.
  intros G S Kv. destruct (C52_lookup h G) as [_ [L _]].
  apply (no_set_root h G S (leads_to_root (fst (run empty h)))); auto.
  - intros u Ku E. apply at_root. rewrite (proj1 (L u Ku)), E. reflexivity.
  - intros u p Ku E H. apply (up _ u p); auto. rewrite (proj1 (L u Ku)), E. reflexivity.
Qed.

(** A failing [set_parent_of_element] on a graph reached without failures changes nothing. *)
Theorem C52_set_parent_atomic h v p e : good h ->
  snd (set_parent (fst (run empty h)) v p) = Err e ->
  fst (set_parent (fst (run empty h)) v p) = fst (run empty h) /\ e = EValue /\
  (~ known h v \/ ~ known h p).
Proof.
  intros G. destruct (ginv_run h G) as [I _]. intros H.
  assert (N : ~ (known h v /\ known h p)).
  { intros [Kv Kp]. destruct (ginv_set _ h v p I Kv Kp) as [_ E]. congruence. }
  unfold set_parent in *.
  destruct (index_of v _) eqn:Ev; [destruct (index_of p _) eqn:Ep|].
  - exfalso. apply N. split; apply (gi_known _ _ I).
    + eapply nth_error_In. apply index_of_some. eauto.
    + eapply nth_error_In. apply index_of_some. eauto.
  - simpl in *. inversion H. repeat split; auto. right. rewrite <- (gi_known _ _ I).
    apply index_of_none; auto.
  - simpl in *. inversion H. repeat split; auto. left. rewrite <- (gi_known _ _ I).
    apply index_of_none; auto.
Qed.

(** Re-attaching: the element stays among the children of its old parent. *)
Theorem C52_reattach_refuted : exists h v p q, good h /\ p <> q /\
  get_parent (fst (run empty h)) v = Ok (Some q) /\
  get_children (fst (run empty h)) p = Ok [v] /\
  get_children (fst (run empty h)) q = Ok [v].
Proof.
  exists [OSet 3 2; OAdd 3 1; ORoot 2; ORoot 1], 3, 1, 2. simpl.
  repeat split; auto; lia.
Qed.
(** A failing [add_element_with_parent] leaves the value in the graph; the next element is then
    registered with the failed one in its place. *)
Theorem C52_failed_add_refuted : exists h v w p q, good h /\
  let (g1, r1) := add_element (fst (run empty h)) v q in
  let (g2, r2) := add_element g1 w p in
  r1 = Err EValue /\ g1 <> fst (run empty h) /\ r2 = Ok tt /\
  get_children g2 p = Ok [w] /\ get_parent g2 v = Ok (Some p) /\ get_parent g2 w = Err EIndex.
Proof.
  exists [ORoot 1], 2, 3, 1, 9. simpl. repeat split; auto. discriminate.
Qed.
(** A new element may be its own parent: the request for an unknown parent equal to the new
    value is accepted for every history. *)
Theorem C52_self_parent_refuted h v : good h -> ~ known h v ->
  snd (add_element (fst (run empty h)) v v) = Ok tt /\
  get_parent (fst (add_element (fst (run empty h)) v v)) v = Ok (Some v).
Proof.
  intros G N. destruct (ginv_run h G) as [I _]. set (g := fst (run empty h)) in *.
  destruct I as [ND K LP LC P C].
  assert (NI : ~ In v (g_values g)) by (rewrite K; auto).
  assert (E : index_of v (g_values g ++ [v]) = Some (length (g_values g))).
  { apply index_of_nth; [apply nodup_snoc; auto|].
    rewrite nth_error_snoc, Nat.ltb_irrefl, Nat.eqb_refl. reflexivity. }
  unfold add_element. rewrite E, !app_length, LC. simpl.
  destruct (Nat.ltb_spec (length (g_values g)) (length (g_values g) + 1)); [|lia].
  split; auto. unfold get_parent. simpl. rewrite E.
  rewrite nth_error_snoc, LP, Nat.ltb_irrefl, Nat.eqb_refl.
  rewrite nth_error_snoc, Nat.ltb_irrefl, Nat.eqb_refl. reflexivity.
Qed.
(** [roots] holds no value, and [get_nodes_hirarchy_descending] never returns. *)
Theorem C52_roots_refuted g :
  Forall (eq None) (graph_roots g) /\ exists e, nodes_descending g = Err e.
Proof.
  split.
  - apply Forall_forall. intros o H. apply filter_In in H. destruct H as [_ H].
    destruct o; [discriminate|reflexivity].
  - unfold nodes_descending. destruct (root_indices g); eauto.
Qed.

Example C52_case :
  let h := [OAdd 7 5; OAdd 6 5; ORoot 4; OAdd 5 3; ORoot 3] in
  good h /\ no_reattach h /\ get_parent (fst (run empty h)) 7 = Ok (Some 5) /\
  get_children (fst (run empty h)) 5 = Ok [6; 7] /\ get_parent (fst (run empty h)) 4 = Ok None.
Proof. simpl. repeat split; auto; try lia. Qed.
Print Assumptions C52_lookup.
Print Assumptions C52_consistent_partial.
Print Assumptions C52_forest.
Print Assumptions C52_set_parent_atomic.
Print Assumptions C52_reattach_refuted.
Print Assumptions C52_failed_add_refuted.
Print Assumptions C52_self_parent_refuted.
Print Assumptions C52_roots_refuted.
