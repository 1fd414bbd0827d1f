(** Property C161: linked elements of a handler. *)
Require Import List Bool Arith Lia.
From Verif Require Import Base ElementModel.
Import ListNotations.

(** ** Specification *)
Definition value (h : handler) (x : nat) : nat := el_value (h_el h x).
Definition parent (h : handler) (x : nat) : option nat := el_parent (h_el h x).
Definition children (h : handler) (x : nat) : list nat := el_children (h_el h x).
Definition without (x : nat) (l : list nat) : list nat := filter (fun y => negb (y =? x)) l.
(** The elements of the graph are linked both ways and have different values. *)
Record linked (h : handler) : Prop := {
  li_ids : NoDup (h_graph h) /\ forall x, In x (h_graph h) -> x < h_size h;
  li_up : forall c p, In c (h_graph h) -> parent h c = Some p -> In p (h_graph h) /\ In c (children h p);
  li_down : forall p c, In p (h_graph h) -> In c (children h p) -> In c (h_graph h) /\ parent h c = Some p;
  li_once : forall p, In p (h_graph h) -> NoDup (children h p);
  li_values : forall a b, In a (h_graph h) -> In b (h_graph h) -> value h a = value h b -> a = b }.
(** Calls: a new root, a link, a deletion. *)
Inductive call := NewRoot (v : nat) | AddChild (p c : nat) | SetParent (c p : nat) | Delete (x : nat).
Definition run_call (limit : nat) (h : handler) (k : call) : handler * res unit :=
  match k with
  | NewRoot v => (set_root h v, Ok tt)
  | AddChild p c => (add_child h p c, Ok tt)
  | SetParent c p => (set_parent h c p, Ok tt)
  | Delete x => delete_element limit h x
  end.
(** New values, links of elements without parent, deletions of elements of the graph. *)
Definition allowed (h : handler) (k : call) : Prop :=
  match k with
  | NewRoot v => forall x, In x (h_graph h) -> value h x <> v
  | AddChild p c | SetParent c p => In p (h_graph h) /\ In c (h_graph h) /\ parent h c = None
  | Delete x => In x (h_graph h)
  end.
Fixpoint allowed_all (limit : nat) (h : handler) (l : list call) : Prop :=
  match l with
  | [] => True
  | k :: l' => allowed h k /\ allowed_all limit (fst (run_call limit h k)) l'
  end.
Fixpoint run_calls (limit : nat) (h : handler) (l : list call) : handler * res unit :=
  match l with
  | [] => (h, Ok tt)
  | k :: l' => match run_call limit h k with
               | (h, Ok _) => run_calls limit h l'
               | (h, Err e) => (h, Err e)
               end
  end.

(** ** Proofs *)
Lemma in_without x y l : In y (without x l) <-> In y l /\ y <> x.
Proof. unfold without. rewrite filter_In, negb_true_iff, Nat.eqb_neq. tauto. Qed.
Lemma without_id x l : ~ In x l -> without x l = l.
Proof.
  induction l as [|y l IH]; intros H; [reflexivity|]. simpl. destruct (Nat.eqb_spec y x); [subst; exfalso; apply H; left; auto|].
  simpl. f_equal. apply IH. intros I. apply H. right; auto.
Qed.
Lemma NoDup_without x l : NoDup l -> NoDup (without x l).
Proof. apply NoDup_filter. Qed.
Lemma nodup_snoc (x : nat) l : NoDup l -> ~ In x l -> NoDup (l ++ [x]).
Proof.
  induction l as [|a l IH]; intros ND NI; [repeat constructor; auto|]. inversion_clear ND as [|? ? B1 B2]. simpl. constructor.
  - intros J. apply in_app_iff in J. destruct J as [J|[->|[]]]; [auto|apply NI; left; auto].
  - apply IH; auto. intros J. apply NI. right; auto.
Qed.
(** Values which differ from the argument's are passed over. *)
Lemma list_remove_distinct limit h x l : NoDup l -> In x l -> (forall y, In y l -> y <> x -> value h y <> value h x) ->
  list_remove (S limit) h l x = Ok (without x l).
Proof.
  induction l as [|y l IH]; intros ND I D; [destruct I|]. inversion_clear ND as [|? ? N1 N2].
  cbn [list_remove without filter]. destruct (Nat.eqb_spec y x) as [->|N].
  - cbn [bind negb]. fold (without x l). rewrite without_id; auto.
  - destruct I as [->|I]; [congruence|]. cbn [eq_element].
    replace (el_value (h_el h y) =? el_value (h_el h x)) with false
      by (symmetry; apply Nat.eqb_neq; apply (D y); [left; auto|auto]).
    cbn [bind negb]. rewrite IH; auto. intros z Hz. apply D. right; auto.
Qed.
Lemma list_remove_absent limit h x l : ~ In x l -> (forall y, In y l -> value h y <> value h x) ->
  list_remove (S limit) h l x = Err EValue.
Proof.
  induction l as [|y l IH]; intros I D; [reflexivity|]. cbn [list_remove].
  replace (y =? x) with false by (symmetry; apply Nat.eqb_neq; intros ->; apply I; left; auto).
  cbn [eq_element]. replace (el_value (h_el h y) =? el_value (h_el h x)) with false
    by (symmetry; apply Nat.eqb_neq; apply (D y); left; auto).
  cbn [bind]. rewrite IH; auto.
  - intros J. apply I. right; auto.
  - intros z Hz. apply D. right; auto.
Qed.
(** The parents of a list of elements cleared. *)
Lemma cleared l : forall h, let h' := fold_left clear_parent l h in
  (forall y, value h' y = value h y) /\ (forall y, children h' y = children h y) /\
  (forall y, parent h' y = if in_dec Nat.eq_dec y l then None else parent h y) /\
  h_graph h' = h_graph h /\ h_size h' = h_size h /\ h_root h' = h_root h.
Proof.
  induction l as [|c l IH]; intros h; [cbn; repeat split; auto|]. cbn [fold_left]. cbv zeta.
  destruct (IH (clear_parent h c)) as (A1 & A2 & A3 & A4 & A5 & A6).
  assert (B1 : forall y, value (clear_parent h c) y = value h y).
  { intros y. unfold value, clear_parent, put. cbn [h_el]. destruct (Nat.eqb_spec y c); subst; auto. }
  assert (B2 : forall y, children (clear_parent h c) y = children h y).
  { intros y. unfold children, clear_parent, put. cbn [h_el]. destruct (Nat.eqb_spec y c); subst; auto. }
  split; [intros y; rewrite A1; auto|]. split; [intros y; rewrite A2; auto|]. split; [|rewrite A4, A5, A6; auto].
  intros y. rewrite A3. destruct (in_dec Nat.eq_dec y l) as [I|I]; destruct (in_dec Nat.eq_dec y (c :: l)) as [J|J]; auto.
  - exfalso. apply J. right; auto.
  - destruct J as [<-|J]; [|contradiction]. unfold parent, clear_parent, put. cbn [h_el]. rewrite Nat.eqb_refl. reflexivity.
  - unfold parent, clear_parent, put. cbn [h_el]. destruct (Nat.eqb_spec y c); [subst; exfalso; apply J; left; auto|auto].
Qed.

(** Deleting an element takes it out of the graph and out of all links. *)
Lemma delete_spec limit h x : linked h -> In x (h_graph h) ->
  exists h', delete_element (S limit) h x = (h', Ok tt) /\ h_graph h' = without x (h_graph h) /\
    h_root h' = h_root h /\ h_size h' = h_size h /\ (forall y, value h' y = value h y) /\
    (forall y, In y (h_graph h) -> y <> x ->
       parent h' y = (match parent h y with Some p => if p =? x then None else Some p | None => None end) /\
       children h' y = without x (children h y)).
Proof.
  intros [[L1 L1'] L2 L3 L4 L5] Hx. unfold delete_element, expel. fold (children h x).
  destruct (cleared (children h x) h) as (A1 & A2 & A3 & A4 & A5 & A6). set (h1 := fold_left _ _ _) in *. cbv zeta.
  assert (V : forall y, In y (h_graph h) -> y <> x -> value h1 y <> value h1 x).
  { intros y Hy N E. rewrite !A1 in E. apply N. auto. }
  assert (P : forall y, In y (h_graph h) -> y <> x ->
    parent h1 y = match parent h y with Some p => if p =? x then None else Some p | None => None end).
  { intros y Hy N. rewrite A3. destruct (in_dec Nat.eq_dec y (children h x)) as [I|I].
    - destruct (L3 x y Hx I) as [_ ->]. rewrite Nat.eqb_refl. reflexivity.
    - destruct (parent h y) as [p|] eqn:E; auto. destruct (Nat.eqb_spec p x) as [->|]; auto. exfalso. apply I. apply L2; auto. }
  fold (parent h1 x). destruct (parent h1 x) as [p|] eqn:Ep.
  - rewrite A3 in Ep. destruct (in_dec Nat.eq_dec x (children h x)) as [|NI]; [discriminate|].
    destruct (L2 x p Hx Ep) as [Hp Hc].
    assert (Npx : p <> x) by (intros ->; contradiction).
    fold (children h1 p). rewrite (A2 p).
    rewrite list_remove_distinct; auto.
    2: { intros y I N. apply V; auto. eapply (L3 p); eauto. }
    set (h2 := put _ _ _).
    assert (G2 : h_graph h2 = h_graph h) by (unfold h2, put; cbn [h_graph]; exact A4).
    assert (V2 : forall y, value h2 y = value h y).
    { intros y. unfold value, h2, put. cbn [h_el]. destruct (Nat.eqb_spec y p); [subst; apply A1|apply A1]. }
    rewrite G2. rewrite list_remove_distinct; auto.
    2: { intros y Hy N. rewrite !V2. intros E. apply N. auto. }
    eexists. split; [reflexivity|]. cbn [h_graph h_root h_size]. split; [auto|]. split; [exact A6|]. split; [exact A5|].
    split; [exact V2|]. intros y Hy N. split.
    + rewrite <- (P y Hy N). unfold parent, h2, put. cbn [h_el]. destruct (Nat.eqb_spec y p); subst; auto.
    + unfold children at 1, h2, put. cbn [h_el]. destruct (Nat.eqb_spec y p) as [->|Ny]; [reflexivity|].
      fold (children h1 y). rewrite A2. symmetry. apply without_id. intros I.
      destruct (L3 y x Hy I) as [_ E]. congruence.
  - rewrite A4. rewrite list_remove_distinct; auto.
    eexists. split; [reflexivity|]. cbn [h_graph h_root h_size]. split; [auto|]. split; [exact A6|]. split; [exact A5|].
    split; [exact A1|]. intros y Hy N. split; [apply P; auto|].
    fold (children h1 y). change (children h1 y = without x (children h y)). rewrite A2. symmetry. apply without_id. intros I.
    destruct (L3 y x Hy I) as [_ E]. rewrite A3 in Ep. destruct (in_dec Nat.eq_dec x (children h x)) as [J|J]; [|congruence].
    destruct (L3 x x Hx J) as [_ E']. congruence.
Qed.
Lemma linked_delete limit h x : linked h -> In x (h_graph h) ->
  exists h', delete_element (S limit) h x = (h', Ok tt) /\ linked h'.
Proof.
  intros L Hx. destruct (delete_spec limit h x L Hx) as (h' & E & G & _ & Z & V & F). exists h'. split; auto.
  destruct L as [[L1 L1'] L2 L3 L4 L5]. constructor; rewrite ?G.
  - split; [apply NoDup_without; auto|]. intros y I. rewrite in_without in I. rewrite Z. apply L1'. tauto.
  - intros c p I Ep. apply in_without in I as [I N]. destruct (F c I N) as [Fp _]. rewrite Fp in Ep.
    destruct (parent h c) as [q|] eqn:Eq; [|discriminate]. destruct (Nat.eqb_spec q x); [discriminate|]. injection Ep as <-.
    destruct (L2 c q I Eq) as [J K]. split; [apply in_without; auto|]. destruct (F q J n) as [_ ->]. apply in_without. auto.
  - intros p c I J. apply in_without in I as [I N]. destruct (F p I N) as [_ Fc]. rewrite Fc in J.
    apply in_without in J as [J M]. destruct (L3 p c I J) as [K Ec]. split; [apply in_without; auto|].
    destruct (F c K M) as [-> _]. rewrite Ec. destruct (Nat.eqb_spec p x); [contradiction|auto].
  - intros p I. apply in_without in I as [I N]. destruct (F p I N) as [_ ->]. apply NoDup_without; auto.
  - intros a b Ia Ib E'. apply in_without in Ia as [Ia _]. apply in_without in Ib as [Ib _]. rewrite !V in E'. auto.
Qed.
Lemma linked_link h h' p c : linked h -> In p (h_graph h) -> In c (h_graph h) -> parent h c = None ->
  h_graph h' = h_graph h -> h_size h' = h_size h -> (forall y, value h' y = value h y) ->
  (forall y, parent h' y = if y =? c then Some p else parent h y) ->
  (forall y, children h' y = if y =? p then children h p ++ [c] else children h y) -> linked h'.
Proof.
  intros [[L1 L1'] L2 L3 L4 L5] Hp Hc N G Z V P C. constructor; rewrite ?G, ?Z; auto.
  - intros d q Hd E. rewrite P in E. rewrite C. destruct (Nat.eqb_spec d c) as [->|Nd].
    + injection E as <-. split; auto. rewrite Nat.eqb_refl. apply in_app_iff. right; left; auto.
    + destruct (L2 d q Hd E) as [J K]. split; auto. destruct (Nat.eqb_spec q p); [subst; apply in_app_iff; auto|auto].
  - intros q d Hq I. rewrite C in I. rewrite P. destruct (Nat.eqb_spec q p) as [->|Nq].
    + apply in_app_iff in I. destruct I as [I|[<-|[]]].
      * destruct (L3 p d Hq I) as [J K]. split; auto. destruct (Nat.eqb_spec d c); [subst; congruence|auto].
      * split; auto. rewrite Nat.eqb_refl. auto.
    + destruct (L3 q d Hq I) as [J K]. split; auto. destruct (Nat.eqb_spec d c); [subst; congruence|auto].
  - intros q Hq. rewrite C. destruct (Nat.eqb_spec q p) as [->|]; [|auto].
    assert (NI : ~ In c (children h p)) by (intros I; destruct (L3 p c Hp I); congruence).
    apply nodup_snoc; auto.
  - intros a b Ia Ib E. rewrite !V in E. auto.
Qed.
Lemma linked_root h v : linked h -> (forall x, In x (h_graph h) -> value h x <> v) -> linked (set_root h v).
Proof.
  intros [[L1 L1'] L2 L3 L4 L5] Hv.
  assert (Old : forall y, In y (h_graph h) -> h_el (set_root h v) y = h_el h y).
  { intros y Hy. unfold set_root, new_element. cbn [h_el]. destruct (Nat.eqb_spec y (h_size h)) as [->|]; auto.
    apply L1' in Hy. lia. }
  assert (New : h_el (set_root h v) (h_size h) = mkEl v None []).
  { unfold set_root, new_element. cbn [h_el]. rewrite Nat.eqb_refl. reflexivity. }
  assert (G : h_graph (set_root h v) = h_graph h ++ [h_size h]) by reflexivity.
  assert (Z : h_size (set_root h v) = S (h_size h)) by reflexivity.
  assert (IN : forall y, In y (h_graph (set_root h v)) <-> In y (h_graph h) \/ y = h_size h).
  { intros y. rewrite G, in_app_iff. simpl. intuition auto. }
  constructor.
  - split.
    + rewrite G. clear - L1 L1'. assert (NI : ~ In (h_size h) (h_graph h)) by (intros I; apply L1' in I; lia).
      apply nodup_snoc; auto.
    + intros y Hy. rewrite Z. apply IN in Hy as [Hy| ->]; [apply L1' in Hy; lia|lia].
  - intros c p Hc E. unfold parent in E. apply IN in Hc as [Hc| ->].
    + rewrite (Old c Hc) in E. destruct (L2 c p Hc E) as [J K]. split; [apply IN; auto|]. unfold children. rewrite (Old p J). exact K.
    + rewrite New in E. discriminate.
  - intros p c Hp I. unfold children in I. apply IN in Hp as [Hp| ->].
    + rewrite (Old p Hp) in I. destruct (L3 p c Hp I) as [J K]. split; [apply IN; auto|]. unfold parent. rewrite (Old c J). exact K.
    + rewrite New in I. destruct I.
  - intros p Hp. unfold children. apply IN in Hp as [Hp| ->]; [rewrite (Old p Hp); apply L4; auto|rewrite New; constructor].
  - intros a b Ha Hb E. unfold value in E. apply IN in Ha as [Ha| ->]; apply IN in Hb as [Hb| ->]; auto.
    + rewrite (Old a Ha), (Old b Hb) in E. auto.
    + rewrite (Old a Ha), New in E. exfalso. apply (Hv a Ha). exact E.
    + rewrite (Old b Hb), New in E. exfalso. apply (Hv b Hb). symmetry. exact E.
Qed.
Lemma linked_call limit h k : linked h -> allowed h k ->
  exists h', run_call (S limit) h k = (h', Ok tt) /\ linked h'.
Proof.
  intros L A. destruct k as [v|p c|c p|x]; cbn [run_call allowed] in *.
  - eexists. split; [reflexivity|]. apply linked_root; auto.
  - destruct A as (A1 & A2 & A3). eexists. split; [reflexivity|]. apply (linked_link h _ p c); [auto|auto|auto|auto|reflexivity|reflexivity|..]; intros y;
      unfold value, parent, children, add_child, put; cbn [h_el];
      repeat (match goal with |- context [?a =? ?b] => destruct (Nat.eqb_spec a b) end); subst; cbn [el_value el_parent el_children];
      try congruence; auto.
  - destruct A as (A1 & A2 & A3). eexists. split; [reflexivity|]. apply (linked_link h _ p c); [auto|auto|auto|auto|reflexivity|reflexivity|..]; intros y;
      unfold value, parent, children, set_parent, put; cbn [h_el];
      repeat (match goal with |- context [?a =? ?b] => destruct (Nat.eqb_spec a b) end); subst; cbn [el_value el_parent el_children];
      try congruence; auto.
  - apply linked_delete; auto.
Qed.

(** Every history of allowed calls succeeds and leaves the elements of the graph linked. *)
Theorem C161_histories : forall limit l, allowed_all (S limit) empty_handler l ->
  exists h, run_calls (S limit) empty_handler l = (h, Ok tt) /\ linked h.
Proof.
  intros limit l. assert (L : linked empty_handler) by (constructor; simpl; try tauto; split; [constructor|tauto]).
  revert L. generalize empty_handler. induction l as [|k l IH]; intros h L A; [exists h; auto|].
  destruct A as [A1 A2]. cbn [run_calls]. destruct (linked_call limit h k L A1) as (h' & E & L').
  rewrite E in *. cbn [fst] in A2. apply IH; auto.
Qed.
(** Deletion: only the element goes; its children become roots; nothing refers to it, except the
    handler's root. *)
Theorem C161_delete : forall limit h x, linked h -> In x (h_graph h) ->
  exists h', delete_element (S limit) h x = (h', Ok tt) /\ h_graph h' = without x (h_graph h) /\ h_root h' = h_root h /\
    (forall y, In y (h_graph h) -> y <> x -> value h' y = value h y /\ parent h' y <> Some x /\ ~ In x (children h' y) /\
       (forall c, c <> x -> In c (children h' y) <-> In c (children h y)) /\
       (parent h y <> Some x -> parent h' y = parent h y)).
Proof.
  intros limit h x L Hx. destruct (delete_spec limit h x L Hx) as (h' & E & G & Rt & _ & V & F).
  exists h'. split; [exact E|]. split; [exact G|]. split; [exact Rt|]. intros y Hy N. destruct (F y Hy N) as [Fp Fc].
  split; [auto|]. rewrite Fp, Fc. split.
  { destruct (parent h y) as [p|]; [|discriminate]. destruct (Nat.eqb_spec p x); [discriminate|]. intros K. congruence. }
  split; [rewrite in_without; tauto|]. split; [intros c M; rewrite in_without; tauto|].
  intros K. destruct (parent h y) as [p|]; [|reflexivity]. destruct (Nat.eqb_spec p x); [subst; congruence|reflexivity].
Qed.
(** An element added with a parent cannot be deleted: the parent does not know it. *)
Theorem C161_added_with_parent : forall limit h v p, linked h -> In p (h_graph h) ->
  (forall x, In x (h_graph h) -> value h x <> v) ->
  let h' := add_element_with_parent h v (Some p) in
  children h' p = children h p /\ In (h_size h) (h_graph h') /\
  delete_element (S limit) h' (h_size h) = (h', Err EValue).
Proof.
  intros limit h v p [[L1 L1'] L2 L3 L4 L5] Hp Hv h'.
  assert (Old : forall y, In y (h_graph h) -> h_el h' y = h_el h y).
  { intros y Hy. unfold h', add_element_with_parent, new_element. cbn [h_el].
    destruct (Nat.eqb_spec y (h_size h)) as [->|]; auto. apply L1' in Hy. lia. }
  assert (New : h_el h' (h_size h) = mkEl v (Some p) []).
  { unfold h', add_element_with_parent, new_element. cbn [h_el]. rewrite Nat.eqb_refl. reflexivity. }
  split; [unfold children; rewrite (Old p Hp); reflexivity|]. split.
  { unfold h', add_element_with_parent, new_element. cbn [h_graph]. apply in_app_iff. right; left; auto. }
  unfold delete_element, expel. rewrite New. cbn [el_children fold_left el_parent]. rewrite New. cbn [el_parent].
  rewrite (Old p Hp). rewrite list_remove_absent; auto.
  - intros I. destruct (L3 p _ Hp I) as [J _]. apply L1' in J. lia.
  - intros y I. destruct (L3 p _ Hp I) as [J _]. unfold value. rewrite New, (Old y J). apply Hv. auto.
Qed.
(** Elements are compared by value: with two roots of the same value the deletion of the second takes
    the first out of the graph. *)
Theorem C161_equal_values_refuted : exists l x h, (forall limit, run_calls (S limit) empty_handler l = (h, Ok tt)) /\
  In x (h_graph h) /\ forall limit, exists h', delete_element (S limit) h x = (h', Ok tt) /\ In x (h_graph h').
Proof.
  exists [NewRoot 7; NewRoot 7], 1, (set_root (set_root empty_handler 7) 7). split; [reflexivity|].
  split; [right; left; reflexivity|]. intros limit. eexists. split; [reflexivity|]. left. reflexivity.
Qed.
(** A parent with two children and a grandchild: the child of the middle is deleted. *)
Example C161_case : exists h, run_calls 1 empty_handler
    [NewRoot 5; NewRoot 6; NewRoot 7; NewRoot 8; AddChild 0 1; AddChild 0 2; SetParent 3 1; Delete 1] = (h, Ok tt) /\
  linked h /\ h_graph h = [0; 2; 3] /\ children h 0 = [2] /\ parent h 3 = None /\ parent h 1 = Some 0.
Proof.
  destruct (C161_histories 0 [NewRoot 5; NewRoot 6; NewRoot 7; NewRoot 8; AddChild 0 1; AddChild 0 2; SetParent 3 1; Delete 1])
    as (h & E & L).
  { cbn. repeat split; auto; try lia; intros x H; repeat destruct H as [<-|H]; try contradiction; cbn; discriminate. }
  exists h. split; [exact E|]. split; [exact L|]. cbn in E. injection E as <-. repeat split.
Qed.
Print Assumptions C161_histories.
Print Assumptions C161_delete.
Print Assumptions C161_added_with_parent.
Print Assumptions C161_equal_values_refuted.
