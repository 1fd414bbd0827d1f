(** The walk from a component to the root and the population of the tangent tree. *)
Require Import Reals List Bool Lra Lia ZArith.
From Verif Require Import Base Vec Angle Pow RotModel Spec RotProofs SeqProofs TreeModel TreeSpec
  TreeProofs PropTree WeightModel AvoidModel.
Import ListNotations.
Open Scope R_scope.

(** ** Parent chains *)
(** [l] runs from a component upwards, every entry followed by its parent. *)
Fixpoint parent_chain (parent : nat -> option nat) (l : list nat) : Prop :=
  match l with
  | a :: ((b :: _) as l') => parent a = Some b /\ parent_chain parent l'
  | _ => True
  end.
(** From [i] to the root, which occurs at the end only. *)
Definition branch (parent : nat -> option nat) (root i : nat) (l : list nat) : Prop :=
  hd_error l = Some i /\ last l root = root /\ ~ In root (removelast l) /\ parent_chain parent l.

Lemma branch_cons parent root i l : branch parent root i l ->
  (i = root /\ l = [i]) \/
  (i <> root /\ exists j l', l = i :: l' /\ parent i = Some j /\ branch parent root j l').
Proof.
  intros (H & L & N & P). destruct l as [|a [|b l]]; simpl in H; [discriminate| |];
    injection H as ->.
  - simpl in L. left. auto.
  - right. split.
    + intros ->. apply N. simpl. auto.
    + destruct P as [E P]. exists b, (b :: l). split; auto. split; auto. split; auto. split.
      * simpl in L. exact L.
      * split; auto. intros I. apply N. change (removelast (i :: b :: l)) with (i :: removelast (b :: l)). right. auto.
Qed.
Lemma branch_unique parent root l : forall i l',
  branch parent root i l -> branch parent root i l' -> l = l'.
Proof.
  induction l as [|a l IH]; intros i l' H H'.
  - destruct H as (E & _). discriminate.
  - apply branch_cons in H. apply branch_cons in H'.
    destruct H as [(-> & E)|(Ni & j & l1 & E & P & B)], H' as [(E1 & E2)|(Ni' & j' & l2 & E' & P' & B')];
      try congruence.
    injection E as -> ->. rewrite E'. f_equal. rewrite P in P'. injection P' as <-. eauto.
Qed.
Lemma branch_suffix parent root l1 : forall i a l2,
  branch parent root i (l1 ++ a :: l2) -> branch parent root a (a :: l2).
Proof.
  induction l1 as [|x l1 IH]; intros i a l2 H; simpl in H.
  - pose proof H as (E & _). simpl in E. injection E as ->. auto.
  - apply branch_cons in H. destruct H as [(_ & E)|(_ & j & l' & E & _ & B)].
    + injection E as _ E. destruct l1; discriminate.
    + injection E as _ <-. eauto.
Qed.
Lemma branch_nodup parent root l : forall i, branch parent root i l -> NoDup l.
Proof.
  induction l as [|a l IH]; intros i H; constructor.
  - intros I. apply in_split in I. destruct I as (l1 & l2 & E).
    assert (H' : branch parent root a (a :: l)).
    { pose proof H as (E' & _). simpl in E'. injection E' as ->. auto. }
    pose proof H' as H2. rewrite E in H2. change (a :: l1 ++ a :: l2) with ((a :: l1) ++ a :: l2) in H2.
    apply branch_suffix in H2. pose proof (branch_unique _ _ _ _ _ H' H2) as Q.
    injection Q as Q. rewrite Q in E. apply (f_equal (@length nat)) in E. rewrite app_length in E. simpl in E. lia.
  - apply branch_cons in H. destruct H as [(_ & E)|(_ & j & l' & E & _ & B)].
    + injection E as _ ->. constructor.
    + injection E as _ ->. eauto.
Qed.
Lemma hd_snoc {A} (l : list A) x i : hd_error l = Some i -> hd_error (l ++ [x]) = Some i.
Proof. destruct l; simpl; intros; [discriminate|auto]. Qed.
Lemma parent_chain_snoc parent l a b : parent_chain parent (l ++ [a]) -> parent a = Some b ->
  parent_chain parent (l ++ [a] ++ [b]).
Proof.
  induction l as [|x l IH]; intros P E; [simpl; auto|].
  destruct l as [|y l].
  - simpl in *. tauto.
  - destruct P as [P1 P2]. split; [auto|]. apply IH; auto.
Qed.

(** ** The walk *)
Record walk_ok (t : btree) (w : walk) : Prop := {
  wo_normals : length (w_normals w) = length (w_ids w);
  wo_refs : length (w_refs w) = length (w_ids w);
  wo_valid : forall j, In j (w_ids w) -> (j < length (bt_comps t))%nat }.
Lemma get_bcomp_valid t i c : get_bcomp t i = Ok c -> (i < length (bt_comps t))%nat.
Proof.
  unfold get_bcomp. destruct (nth_error (bt_comps t) i) eqn:E; [|discriminate].
  intros _. apply nth_error_Some. rewrite E. discriminate.
Qed.
Lemma walk_up_spec t distance : forall fuel pre l w w',
  w_ids w = pre ++ [l] -> ~ In (bt_root t) pre -> parent_chain (bt_parent t) (w_ids w) ->
  walk_ok t w -> (length (w_ids w) <= 10)%nat -> (10 < fuel + length (w_ids w))%nat ->
  walk_up t distance fuel l w = Ok w' ->
  exists post, w_ids w' = w_ids w ++ post /\ last (w_ids w') (bt_root t) = bt_root t /\
    ~ In (bt_root t) (removelast (w_ids w')) /\ parent_chain (bt_parent t) (w_ids w') /\
    walk_ok t w' /\ (length (w_ids w') <= 10)%nat /\
    (exists pn pr, w_normals w' = w_normals w ++ pn /\ w_refs w' = w_refs w ++ pr).
Proof.
  induction fuel as [|fuel IH]; intros pre l w w' Ew Nr Pc Wo L10 Lf E; [lia|]. simpl in E.
  destruct (Nat.eqb_spec l (bt_root t)) as [->|Nl].
  - injection E as <-. exists []. rewrite app_nil_r. split; auto. rewrite Ew, last_last, removelast_last.
    split; auto. split; auto. split; [rewrite <- Ew; auto|]. split; auto. rewrite <- Ew. split; auto.
    exists [], []. rewrite !app_nil_r. auto.
  - destruct (get_bcomp t l) as [obs|] eqn:Eo; [|discriminate]. cbn [bind] in E.
    destruct (bt_parent t l) as [q|] eqn:Ep; [|discriminate].
    destruct (get_bcomp t q) as [par|] eqn:Eq; [|discriminate]. cbn [bind] in E.
    destruct (Nat.ltb_spec 10 (S (length (w_ids w)))) as [|L]; [discriminate|].
    destruct (c_intersect _ _ _) as [it|]; [|discriminate].
    destruct (get_normal_at_distance par it distance) as [nn|]; [|discriminate]. cbn [bind] in E.
    set (w1 := mkWalk (w_ids w ++ [q]) (w_normals w ++ [nn]) (w_refs w ++ [c_refdir (b_comp par) it]) it) in *.
    destruct (IH (w_ids w) q w1 w') as (post & A & B & C & D & F & G & pn & pr & H1 & H2); auto.
    + rewrite Ew. intros I. apply in_app_iff in I. destruct I as [I|[I|[]]]; auto.
    + simpl. rewrite Ew, <- app_assoc. apply parent_chain_snoc; auto. rewrite <- Ew. auto.
    + destruct Wo as [W1 W2 W3]. constructor; simpl.
      * rewrite !app_length, W1. auto.
      * rewrite !app_length, W2. auto.
      * intros j I. apply in_app_iff in I. destruct I as [I|[<-|[]]]; auto. eapply get_bcomp_valid; eauto.
    + simpl. rewrite app_length. simpl. lia.
    + simpl. rewrite app_length. simpl. lia.
    + exists (q :: post). simpl in A, H1, H2. rewrite <- app_assoc in A, H1, H2. split; auto. split; auto.
      split; auto. split; auto. split; auto. split; auto. eauto.
Qed.
Lemma branch_walk_upto_spec fuel position i t w : (10 <= fuel)%nat ->
  branch_walk_upto fuel position i t = Ok w ->
  branch (bt_parent t) (bt_root t) i (w_ids w) /\ (length (w_ids w) <= 10)%nat /\ walk_ok t w /\
  exists c, get_bcomp t i = Ok c /\ nth 0 (w_refs w) [] = c_refdir (b_comp c) position.
Proof.
  unfold branch_walk_upto. intros Hf E. destruct (get_bcomp t i) as [c|] eqn:Ec; [|discriminate]. cbn [bind] in E.
  match type of E with (bind ?m _ = _) => destruct m as [(surf, d)|]; [|discriminate] end. cbn [bind] in E.
  destruct (get_normal_at_distance c surf d) as [nn|]; [|discriminate]. cbn [bind] in E.
  destruct (walk_up_spec t d fuel [] i (mkWalk [i] [nn] [c_refdir (b_comp c) position] surf) w
              eq_refl (fun x => x) I) as (post & A & B & C & D & F & G & pn & pr & H1 & H2).
  - constructor; simpl; auto. intros j [<-|[]]. eapply get_bcomp_valid; eauto.
  - simpl. lia.
  - simpl. lia.
  - exact E.
  - clear E. split; [|split; [exact G|split; [exact F|]]].
    + split; [rewrite A; auto|]. auto.
    + exists c. split; auto. rewrite H2. auto.
Qed.
Lemma branch_walk_spec position i t w : branch_walk position i t = Ok w ->
  branch (bt_parent t) (bt_root t) i (w_ids w) /\ (length (w_ids w) <= 10)%nat /\ walk_ok t w /\
  exists c, get_bcomp t i = Ok c /\ nth 0 (w_refs w) [] = c_refdir (b_comp c) position.
Proof. apply branch_walk_upto_spec. lia. Qed.
(** The ray queries of the walk have an answer (reference points lie inside the component and
    inside its parent). *)
Record rays_hit (t : btree) (position : vec) : Prop := {
  rh_own : forall i c, get_bcomp t i = Ok c -> forall d, c_intersect (b_comp c) (c_refpoint (b_comp c)) d <> None;
  rh_inside : forall i c, get_bcomp t i = Ok c -> c_gamma (b_comp c) position <= 1 ->
     c_intersect (b_comp c) position (vscale (-1) (c_refdir (b_comp c) position)) <> None;
  rh_parent : forall i c j p, get_bcomp t i = Ok c -> bt_parent t i = Some j -> get_bcomp t j = Ok p ->
     forall d, c_intersect (b_comp p) (c_refpoint (b_comp c)) d <> None;
  rh_surface : forall i c s d s', get_bcomp t i = Ok c -> c_intersect (b_comp c) s d = Some s' ->
     norm (vsub s' (c_center (b_comp c))) <> 0 }.
Lemma normal_at_distance_ok c s d : norm (vsub s (c_center (b_comp c))) <> 0 ->
  exists n, get_normal_at_distance c s d = Ok n.
Proof.
  intros H. unfold get_normal_at_distance. destruct (b_cuboid c); eauto.
  destruct (Req_EM_T _ 0); [contradiction|eauto].
Qed.
Lemma get_bcomp_ok t i : (i < length (bt_comps t))%nat -> exists c, get_bcomp t i = Ok c.
Proof.
  intros H. unfold get_bcomp. destruct (nth_error (bt_comps t) i) eqn:E; eauto.
  apply nth_error_None in E. lia.
Qed.
Lemma walk_up_total t position distance : rays_hit t position -> forall l fuel i w pre,
  branch (bt_parent t) (bt_root t) i l -> (forall j, In j l -> (j < length (bt_comps t))%nat) ->
  w_ids w = pre ++ [i] -> (length (w_ids w) <= 10)%nat -> (10 < fuel + length (w_ids w))%nat ->
  ((length pre + length l <= 10)%nat ->
     exists w', walk_up t distance fuel i w = Ok w' /\ w_ids w' = pre ++ l) /\
  ((10 < length pre + length l)%nat -> walk_up t distance fuel i w = Err EExc).
Proof.
  intros RH. induction l as [|a l IH]; intros fuel i w pre B V Ew L10 Lf.
  { destruct B as (E & _). discriminate. }
  destruct fuel as [|fuel]; [lia|].
  assert (Li : length (w_ids w) = S (length pre)) by (rewrite Ew, app_length; simpl; lia).
  apply branch_cons in B. destruct B as [(-> & E)|(Ni & j & l' & E & P & B)].
  - injection E as -> ->. simpl. rewrite Nat.eqb_refl. split.
    + intros _. exists w. auto.
    + intros. lia.
  - injection E as -> ->. cbn [walk_up]. rewrite (proj2 (Nat.eqb_neq _ _) Ni).
    destruct (get_bcomp_ok t i (V i (or_introl eq_refl))) as (c & Ec). rewrite Ec. cbn [bind]. rewrite P.
    assert (Jl : In j l').
    { destruct l' as [|b l'']; [destruct B as (X & _); discriminate|]. destruct B as (X & _). simpl in X.
      injection X as ->. left. auto. }
    destruct (get_bcomp_ok t j (V j (or_intror Jl))) as (p & Epp). rewrite Epp. cbn [bind].
    assert (Ll : (1 <= length l')%nat) by (destruct l'; [contradiction|simpl; lia]).
    destruct (Nat.ltb_spec 10 (S (length (w_ids w)))) as [L|L].
    + split; intros K; auto. simpl in K. lia.
    + destruct (c_intersect (b_comp p) _ _) as [it|] eqn:Ei; [|exact (False_ind _ (rh_parent _ _ RH i c j p Ec P Epp _ Ei))].
      destruct (normal_at_distance_ok p it distance) as (nn & En); [exact (rh_surface _ _ RH j p _ _ it Epp Ei)|].
      rewrite En. cbn [bind].
      set (w1 := mkWalk _ _ _ _).
      destruct (IH fuel j w1 (pre ++ [i])) as [H1 H2]; auto.
      * intros k Hk. apply V. right. auto.
      * simpl. rewrite Ew. auto.
      * simpl. rewrite app_length. simpl. lia.
      * simpl. rewrite app_length. simpl. lia.
      * rewrite app_length in H1, H2. simpl in H1, H2. simpl length. split; intros K.
        -- destruct H1 as (w' & E1 & E2); [lia|]. exists w'. split; auto. rewrite E2, <- app_assoc. auto.
        -- apply H2. lia.
Qed.
Lemma branch_walk_upto_total fuel t position i l : (10 <= fuel)%nat -> rays_hit t position ->
  branch (bt_parent t) (bt_root t) i l -> (forall j, In j l -> (j < length (bt_comps t))%nat) ->
  ((length l <= 10)%nat -> exists w, branch_walk_upto fuel position i t = Ok w /\ w_ids w = l) /\
  ((10 < length l)%nat -> branch_walk_upto fuel position i t = Err EExc).
Proof.
  intros Hf RH B V. unfold branch_walk_upto.
  assert (Il : In i l).
  { destruct B as (E & _). destruct l; [discriminate|]. injection E as ->. left; auto. }
  destruct (get_bcomp_ok t i (V i Il)) as (c & Ec). rewrite Ec. cbn [bind].
  match goal with |- context [bind ?m _] => assert (M : exists s d, m = Ok (s, d) /\
     norm (vsub s (c_center (b_comp c))) <> 0) end.
  { destruct (Rltb 1 (c_gamma (b_comp c) position)) eqn:G.
    - destruct (c_intersect _ _ _) as [s|] eqn:Es; [|exact (False_ind _ (rh_own _ _ RH i c Ec _ Es))].
      eexists _, _. split; [reflexivity|]. exact (rh_surface _ _ RH i c _ _ s Ec Es).
    - apply Rltb_false in G. destruct (c_intersect _ _ _) as [s|] eqn:Es; [|exact (False_ind _ (rh_inside _ _ RH i c Ec G Es))].
      eexists _, _. split; [reflexivity|]. exact (rh_surface _ _ RH i c _ _ s Ec Es). }
  destruct M as (s & d & -> & Ns). cbn [bind].
  destruct (normal_at_distance_ok c s d Ns) as (nn & ->). cbn [bind].
  apply (walk_up_total t position d RH l fuel i
           (mkWalk [i] [nn] [c_refdir (b_comp c) position] s) []); try assumption; try reflexivity; simpl; lia.
Qed.
Lemma branch_walk_total t position i l : rays_hit t position ->
  branch (bt_parent t) (bt_root t) i l -> (forall j, In j l -> (j < length (bt_comps t))%nat) ->
  ((length l <= 10)%nat -> exists w, branch_walk position i t = Ok w /\ w_ids w = l) /\
  ((10 < length l)%nat -> branch_walk position i t = Err EExc).
Proof. apply branch_walk_upto_total. lia. Qed.

(** ** Insertion into the tangent tree *)
Lemma add_ok n t r x d p a : rooted_tree n t r -> node t p a -> (S (a_level a) < 100)%nat ->
  norm d <> 0 -> ~ In x (ids t) -> length d = n ->
  exists t', lift (add_node t x d (Some p) None None) = Ok t' /\ rooted_tree n t' r /\
    ids t' = ids t ++ [x] /\ node t' x (mkAttrs (S (a_level a)) (vdiv d (norm d))) /\
    (forall y b, node t y b -> node t' y b).
Proof.
  intros W Hp Hl Hd Hx Ld.
  destruct (C10_insertion_accepted n t r x d p a W Hp Hl Hd) as (t' & E); auto.
  { intros b Nb. apply Hx. eapply node_in_ids; eauto. }
  exists t'. unfold lift. rewrite E. split; auto. split; [eapply add_node_rooted; eauto|].
  destruct (add_node_success n t r x d p None None t' W E) as (a' & _ & _ & Hp' & _ & ->).
  pose proof (node_unique n t r W p a a' Hp Hp') as <-. split; [|split].
  - unfold ids. simpl. rewrite map_app. auto.
  - unfold node. simpl. apply in_app_iff. right. left. auto.
  - intros y b Hy. unfold node. simpl. apply in_app_iff. auto.
Qed.

(** ** Population *)
Lemma NoDup_app_intro {A} (l l' : list A) : NoDup l -> NoDup l' -> (forall x, In x l -> ~ In x l') -> NoDup (l ++ l').
Proof.
  induction l; simpl; intros N N' D; auto. inversion N; subst. constructor.
  - rewrite in_app_iff. intros [?|?]; [contradiction|]. apply (D a); auto.
  - apply IHl; auto.
Qed.
Lemma NoDup_map_inj {A B} (f : A -> B) l : (forall x y, f x = f y -> x = y) -> NoDup l -> NoDup (map f l).
Proof.
  intros Hf N. induction N; simpl; constructor; auto. intros I. apply in_map_iff in I.
  destruct I as (y & E & I). apply Hf in E. subst. auto.
Qed.

(** Consecutive reference directions (of a walk) that a rotation can connect. *)
Fixpoint linkable (n : nat) (refs : list vec) : Prop :=
  match refs with
  | [] => True
  | a :: refs' => length a = n /\ norm a <> 0 /\ linkable n refs' /\
      match refs' with b :: _ => dot (direction b) (direction a) <> -1 | [] => True end
  end.
Definition step_ok (n : nat) (s : vec * vec * nat) : Prop :=
  let '(a, b, _) := s in length a = n /\ length b = n /\ norm a <> 0 /\ norm b <> 0 /\
    dot (direction a) (direction b) <> -1.
Lemma linkable_steps n refs : linkable n refs -> forall ids s,
  In s (combine (combine (tl refs) refs) ids) -> step_ok n s.
Proof.
  induction refs as [|a refs IH]; intros L ids s I; [contradiction|].
  destruct L as (La & Na & L & D). destruct refs as [|b refs]; [contradiction|].
  destruct ids as [|k ids]; [contradiction|]. simpl in I. destruct I as [<-|I].
  - destruct L as (Lb & Nb & _). unfold step_ok. auto.
  - apply (IH L ids). exact I.
Qed.
Lemma rotate_keeps n r v : proper n r -> length v = n ->
  length (rotate r v 1) = n /\ norm (rotate r v 1) = norm v.
Proof.
  intros P Lv. pose proof P as (L0 & L1 & _). unfold rotate. rewrite (rotate_direction_eq n) by auto.
  split; [apply plane_rot_length; auto|]. apply (plane_rot_norm n); auto.
Qed.
Definition step_key (obs comp : Z) (s : vec * vec * nat) : nid := node_key obs comp (Z.of_nat (snd s)).
Lemma branch_nodes_ok n r obs comp : forall steps tt v parent a, (2 <= n)%nat ->
  rooted_tree n tt r -> node tt parent a -> (a_level a + length steps < 100)%nat ->
  length v = n -> norm v <> 0 -> (forall s, In s steps -> step_ok n s) ->
  NoDup (map snd steps) -> (forall s, In s steps -> ~ In (step_key obs comp s) (ids tt)) ->
  exists tt' v' parent' a', branch_nodes tt obs comp v parent steps = Ok (tt', v', parent') /\
    rooted_tree n tt' r /\ ids tt' = ids tt ++ map (step_key obs comp) steps /\
    node tt' parent' a' /\ a_level a' = (a_level a + length steps)%nat /\
    length v' = n /\ norm v' = norm v /\ (forall y b, node tt y b -> node tt' y b).
Proof.
  induction steps as [|((ra, rb), k) steps IH]; intros tt v parent a Hn W Np Lv Ln Nv Hs ND Fr.
  - exists tt, v, parent, a. simpl. rewrite app_nil_r, Nat.add_0_r. repeat split; auto; apply W.
  - cbn [branch_nodes]. destruct (Hs _ (or_introl eq_refl)) as (La & Lb & Na & Nb & D).
    destruct (from_directions_spec n ra rb) as (rot & Er & Hr & _); auto. rewrite Er. cbn [bind].
    destruct (rotate_keeps n rot v Hr Ln) as [L1 N1].
    simpl in Lv.
    destruct (add_ok n tt r (node_key obs comp (Z.of_nat k)) (rotate rot v 1) parent a) as (t1 & E1 & W1 & I1 & Nd1 & K1); auto.
    + lia.
    + rewrite N1. auto.
    + apply (Fr _ (or_introl eq_refl)).
    + rewrite E1. cbn [bind]. inversion ND as [|x l Nk ND']; subst.
      destruct (IH t1 (rotate rot v 1) (node_key obs comp (Z.of_nat k)) _ Hn W1 Nd1) as (t2 & v2 & p2 & a2 & E2 & W2 & I2 & Nd2 & Lv2 & Ln2 & Nv2 & K2); auto.
      * simpl. lia.
      * rewrite N1. auto.
      * intros s I. apply Hs. right. auto.
      * intros s I J. rewrite I1 in J. apply in_app_iff in J. destruct J as [J|[J|[]]].
        -- apply (Fr s (or_intror I) J).
        -- unfold step_key, node_key in J. injection J as J. apply Nat2Z.inj in J. apply Nk.
           simpl. rewrite J. apply in_map. auto.
      * exists t2, v2, p2, a2. split; auto. split; auto. split; [rewrite I2, I1, <- app_assoc; auto|].
        split; auto. simpl in Lv2. split; [simpl; lia|]. split; auto. split; [rewrite Nv2; auto|]. auto.
Qed.

Section Population.
Variable projected_tangent : vec -> vec -> vec -> R -> res vec.
Variables (n : nat) (position : vec).
(** Norm of the initial velocity, admitted arguments of the tangent (normal, reference, radius)
    and what is known of a resulting direction (normal, reference, direction). *)
Variables (nb : R) (good : vec -> vec -> R -> Prop) (away : vec -> vec -> vec -> Prop).
Hypothesis Hn : (2 <= n)%nat.
Hypothesis Hnb : nb <> 0.
Hypothesis tangent_ok : forall v nn r rad, length v = n -> norm v = nb -> good nn r rad ->
  exists d, projected_tangent v nn r rad = Ok d /\ length d = n /\ norm d <> 0 /\ away nn r d.
Hypothesis keep_ok : forall v nn r rad, length v = n -> norm v = nb -> good nn r rad ->
  0 <= dot nn v -> away nn r v.

(** The walk from component [i] succeeds and its reference directions can be linked. *)
Definition branch_ready (t : btree) (i : nat) : Prop :=
  exists w, branch_walk position i t = Ok w /\ linkable n (w_refs w).
(** Normal and reference direction at the start of the walk are admitted. *)
Definition branch_good (t : btree) (i : nat) (rad : R) : Prop :=
  forall w, branch_walk position i t = Ok w ->
  good (nth 0 (w_normals w) []) (nth 0 (w_refs w) []) rad /\
  good (nth 0 (w_normals w) []) (nth 0 (w_refs w) []) (PI * / 2).
(** The direction of the end node of component [i] and the normal stored for it. *)
Definition end_dir (t : btree) (i : nat) (nn d : vec) : Prop :=
  exists w, branch_walk position i t = Ok w /\ nn = nth 0 (w_normals w) [] /\
    norm d <> 0 /\ away nn (nth 0 (w_refs w) []) d.

(** Ids of a component: (obs, comp, _). *)
Definition of_comp (obs comp : Z) (x : nid) : Prop := exists k, x = node_key obs comp k.
Lemma branch_steps_ids w : length (w_refs w) = length (w_ids w) ->
  map snd (branch_steps w) = rev (tl (w_ids w)) /\ length (branch_steps w) = (length (w_ids w) - 1)%nat.
Proof.
  intros L. unfold branch_steps. rewrite map_rev, rev_length.
  assert (K : forall (a b : list vec) (l : list nat), length a = length l -> (length a <= length b)%nat ->
     map snd (combine (combine a b) l) = l /\ length (combine (combine a b) l) = length l).
  { intros a b l H1 H2. split; [|rewrite !combine_length; lia].
    revert b l H1 H2. induction a as [|x a IHa]; intros [|y b] [|z l'] H1 H2; simpl in *; try lia; auto.
    f_equal. apply IHa; lia. }
  destruct (K (tl (w_refs w)) (w_refs w) (tl (w_ids w))) as [K1 K2].
  - destruct (w_refs w), (w_ids w); simpl in *; lia.
  - destruct (w_refs w); simpl; lia.
  - rewrite K1, K2. split; auto. destruct (w_ids w); simpl; lia.
Qed.
Lemma branch_update_ok tt r base t obs i rad : rooted_tree n tt r -> length base = n -> norm base = nb ->
  branch_ready t i -> branch_good t i rad -> (exists a, node tt (node_key obs (-1) (-1)) a /\ (a_level a <= 1)%nat) ->
  (forall x, of_comp obs (Z.of_nat i) x -> ~ In x (ids tt)) ->
  exists tt' nn new, branch_update projected_tangent tt position base t obs i rad = Ok (tt', nn) /\
    rooted_tree n tt' r /\ ids tt' = ids tt ++ new /\
    (forall x, In x new -> of_comp obs (Z.of_nat i) x) /\
    In (node_key obs (Z.of_nat i) (Z.of_nat i)) new /\
    (exists a d, node tt' (node_key obs (Z.of_nat i) (Z.of_nat i)) a /\ a_dir a = vdiv d (norm d) /\ end_dir t i nn d) /\
    (forall y b, node tt y b -> node tt' y b).
Proof.
  intros W Lb Nb (w & Ew & Lk) Bg (a & Na & La) Fr. unfold branch_update. rewrite Ew. cbn [bind].
  destruct (Bg w Ew) as [G1 G2].
  destruct (branch_walk_spec _ _ _ _ Ew) as (B & L10 & Wo & c & Ec & _).
  pose proof (branch_nodup _ _ _ _ B) as ND.
  destruct (branch_steps_ids w (wo_refs _ _ Wo)) as [Si Sl].
  assert (Hw : exists rest, w_ids w = i :: rest).
  { destruct B as (E & _). destruct (w_ids w); [discriminate|]. injection E as ->. eauto. }
  destruct Hw as (rest & Hw). rewrite Hw in *. simpl in Si, Sl, L10. apply NoDup_cons_iff in ND. destruct ND as [Ni NDr].
  destruct (branch_nodes_ok n r obs (Z.of_nat i) (branch_steps w) tt base (node_key obs (-1) (-1)) a)
    as (t1 & v1 & p1 & a1 & E1 & W1 & I1 & N1 & Lv1 & Ln1 & Nn1 & K1); auto.
  - lia.
  - rewrite Nb. auto.
  - intros s I. unfold branch_steps in I. apply in_rev in I. eapply linkable_steps; eauto.
  - rewrite Si. apply NoDup_rev. auto.
  - intros s _. apply Fr. exists (Z.of_nat (snd s)). auto.
  - rewrite E1. cbn [bind]. rewrite Ec. cbn [bind].
    assert (New1 : forall x, In x (map (step_key obs (Z.of_nat i)) (branch_steps w)) ->
       exists k, In k rest /\ x = node_key obs (Z.of_nat i) (Z.of_nat k)).
    { intros x I. apply in_map_iff in I. destruct I as (s & <- & I). exists (snd s). split; auto.
      apply in_rev. rewrite <- Si. apply in_map. auto. }
    set (new1 := map (step_key obs (Z.of_nat i)) (branch_steps w)) in *.
    assert (Nv1 : norm v1 = nb) by (rewrite Nn1; auto).
    assert (Nv1' : norm v1 <> 0) by (rewrite Nv1; auto).
    assert (Lev : (a_level a1 <= 10)%nat) by lia.
    set (normal := nth 0 (w_normals w) []) in *. set (reference := nth 0 (w_refs w) []) in *.
    (* the last insertion *)
    assert (Fin : forall t2 p2 a2 d, rooted_tree n t2 r -> node t2 p2 a2 -> (a_level a2 <= 11)%nat ->
       length d = n -> norm d <> 0 -> ~ In (node_key obs (Z.of_nat i) (Z.of_nat i)) (ids t2) ->
       exists t3, lift (add_node t2 (node_key obs (Z.of_nat i) (Z.of_nat i)) d (Some p2) None None) = Ok t3 /\
         rooted_tree n t3 r /\ ids t3 = ids t2 ++ [node_key obs (Z.of_nat i) (Z.of_nat i)] /\
         (away normal reference d -> exists a d, node t3 (node_key obs (Z.of_nat i) (Z.of_nat i)) a /\
            a_dir a = vdiv d (norm d) /\ end_dir t i normal d) /\
         (forall y b, node t2 y b -> node t3 y b)).
    { intros t2 p2 a2 d W2 N2 L2 Ld Nd F2.
      destruct (add_ok n t2 r _ d p2 a2 W2 N2 ltac:(lia) Nd F2 Ld) as (t3 & A & B3 & C & D1 & D). exists t3.
      split; auto. split; auto. split; auto. split; auto. intros Aw. eexists _, d. split; [exact D1|].
      split; auto. exists w. auto. }
    assert (F1 : ~ In (node_key obs (Z.of_nat i) (Z.of_nat i)) (ids t1)).
    { rewrite I1. intros J. apply in_app_iff in J. destruct J as [J|J].
      - apply (Fr (node_key obs (Z.of_nat i) (Z.of_nat i))); [eexists; eauto|auto].
      - destruct (New1 _ J) as (k & Ik & E). unfold node_key in E. injection E as E.
        apply Nat2Z.inj in E. rewrite <- E in Ik. auto. }
    assert (F1' : ~ In (node_key obs (Z.of_nat i) (-1)) (ids t1)).
    { rewrite I1. intros J. apply in_app_iff in J. destruct J as [J|J].
      - apply (Fr (node_key obs (Z.of_nat i) (-1))); [eexists; eauto|auto].
      - destruct (New1 _ J) as (k & Ik & E). unfold node_key in E. injection E as E. lia. }
    assert (Of1 : forall x, In x new1 -> of_comp obs (Z.of_nat i) x).
    { intros x I. destruct (New1 x I) as (k & _ & ->). eexists; eauto. }
    destruct (c_tail (b_comp c) || Rltb (dot normal v1) 0) eqn:Etail.
    + destruct (tangent_ok v1 normal reference rad Ln1 Nv1 G1) as (d & Ed & Ld & Nd & Aw).
      destruct (Rltb (PI * / 2) rad).
      * destruct (tangent_ok v1 normal reference (PI * / 2) Ln1 Nv1 G2) as (d' & Ed' & Ld' & Nd' & _).
        rewrite Ed'. cbn [bind].
        destruct (add_ok n t1 r _ d' p1 a1 W1 N1 ltac:(lia) Nd' F1' Ld') as (t2 & E2 & W2 & I2 & N2 & K2).
        rewrite E2. cbn [bind]. rewrite Ed. cbn [bind].
        destruct (Fin t2 _ _ d W2 N2) as (t3 & E3 & W3 & I3 & D3 & K3); auto.
        -- simpl. lia.
        -- rewrite I2. intros J. apply in_app_iff in J. destruct J as [J|[J|[]]]; auto.
           unfold node_key in J. injection J as J. lia.
        -- rewrite E3. cbn [bind]. exists t3, normal, (new1 ++ [node_key obs (Z.of_nat i) (-1); node_key obs (Z.of_nat i) (Z.of_nat i)]).
           split; auto. split; auto. split; [rewrite I3, I2, I1, <- !app_assoc; auto|].
           split; [|split; [apply in_app_iff; simpl; auto|split; auto]].
           intros x J. apply in_app_iff in J. destruct J as [J|[<-|[<-|[]]]]; auto; eexists; eauto.
      * cbn [bind]. rewrite Ed. cbn [bind].
        destruct (Fin t1 p1 a1 d W1 N1) as (t3 & E3 & W3 & I3 & D3 & K3); auto; try lia.
        rewrite E3. cbn [bind]. exists t3, normal, (new1 ++ [node_key obs (Z.of_nat i) (Z.of_nat i)]).
        split; auto. split; auto. split; [rewrite I3, I1, <- !app_assoc; auto|].
        split; [|split; [apply in_app_iff; simpl; auto|split; auto]].
        intros x J. apply in_app_iff in J. destruct J as [J|[<-|[]]]; auto; eexists; eauto.
    + cbn [bind].
      destruct (Fin t1 p1 a1 v1 W1 N1) as (t3 & E3 & W3 & I3 & D3 & K3); auto; try lia.
      rewrite E3. cbn [bind]. exists t3, normal, (new1 ++ [node_key obs (Z.of_nat i) (Z.of_nat i)]).
      split; auto. split; auto. split; [rewrite I3, I1, <- !app_assoc; auto|].
      split; [|split; [apply in_app_iff; simpl; auto|split; auto]].
      2:{ apply D3. apply orb_false_iff in Etail. destruct Etail as [_ Et]. apply Rltb_false in Et. eapply keep_ok; eauto. }
      intros x J. apply in_app_iff in J. destruct J as [J|[<-|[]]]; auto; eexists; eauto.
Qed.

(** Components with positive weight, in order. *)
Definition weighted (weights : list R) (l : list nat) : list nat :=
  filter (fun i => Rltb 0 (nth i weights 0)) l.
Definition end_key (obs : Z) (i : nat) : nid := node_key obs (Z.of_nat i) (Z.of_nat i).
Lemma node_key_comp obs i obs' i' k : of_comp obs (Z.of_nat i) (node_key obs' (Z.of_nat i') k) ->
  obs = obs' /\ i = i'.
Proof. intros (k' & E). unfold node_key in E. injection E as -> E _. apply Nat2Z.inj in E. auto. Qed.
Lemma of_comp_inj obs obs' c c' x : of_comp obs c x -> of_comp obs' c' x -> obs = obs' /\ c = c'.
Proof. intros (k & ->) (k' & E). unfold node_key in E. injection E as -> -> _. auto. Qed.
Lemma populate_components_ok r base t obs weights radiuses : forall l tt,
  rooted_tree n tt r -> length base = n -> norm base = nb -> NoDup l ->
  (forall i, In i l -> 0 < nth i weights 0 -> branch_ready t i /\ branch_good t i (nth i radiuses 0)) ->
  (exists a, node tt (node_key obs (-1) (-1)) a /\ (a_level a <= 1)%nat) ->
  (forall i x, In i l -> of_comp obs (Z.of_nat i) x -> ~ In x (ids tt)) ->
  exists tt' normals new,
    populate_components projected_tangent tt position base t obs weights radiuses l
    = Ok (tt', map (end_key obs) (weighted weights l), normals) /\
    Forall2 (fun i nn => exists a d, node tt' (end_key obs i) a /\ a_dir a = vdiv d (norm d) /\ end_dir t i nn d)
      (weighted weights l) normals /\
    rooted_tree n tt' r /\ ids tt' = ids tt ++ new /\
    (forall x, In x new -> exists i, In i l /\ of_comp obs (Z.of_nat i) x) /\
    (forall i, In i (weighted weights l) -> In (end_key obs i) new) /\
    (forall y b, node tt y b -> node tt' y b).
Proof.
  induction l as [|i l IH]; intros tt W Lb Nb ND Hr (a & Na & La) Fr.
  - exists tt, [], []. simpl. rewrite app_nil_r. split; auto. split; auto. split; auto. split; auto.
    split; [intros; contradiction|]. split; [intros; contradiction|]. auto.
  - pose proof (proj1 (NoDup_cons_iff _ _) ND) as [Ni ND']. cbn [populate_components].
    destruct (Rle_dec (nth i weights 0) 0) as [Z|P].
    + destruct (IH tt W Lb Nb ND') as (t' & ns & new & E & Ls & W' & I & Of & Fin & K); eauto.
      * intros j Ij. apply Hr. right. auto.
      * intros j x Ij. apply Fr. right. auto.
      * exists t', ns, new. unfold weighted in *. simpl. rewrite (proj2 (Rltb_false 0 (nth i weights 0))) by auto.
        split; auto. split; auto. split; auto. split; auto. split; auto.
        intros x Ix. destruct (Of x Ix) as (j & Ij & O). exists j. split; [right|]; auto.
    + assert (P' : 0 < nth i weights 0) by lra.
      destruct (branch_update_ok tt r base t obs i (nth i radiuses 0) W Lb Nb) as (t1 & nn & new1 & E1 & W1 & I1 & Of1 & Fin1 & Ed1 & K1); eauto.
      * apply Hr; auto. left. auto.
      * apply Hr; auto. left. auto.
      * intros x. apply Fr. left. auto.
      * rewrite E1. cbn [bind].
        destruct (IH t1 W1 Lb Nb ND') as (t' & ns & new & E & Ls & W' & I & Of & Fin & K); eauto.
        -- intros j Ij. apply Hr. right. auto.
        -- intros j x Ij O J. rewrite I1 in J. apply in_app_iff in J. destruct J as [J|J].
           ++ apply (Fr j x); auto. right. auto.
           ++ destruct (of_comp_inj _ _ _ _ _ O (Of1 x J)) as [_ E]. apply Nat2Z.inj in E. rewrite E in Ij. auto.
        -- rewrite E. cbn [bind]. exists t', (nn :: ns), (new1 ++ new).
           unfold weighted in *. simpl. rewrite (proj2 (Rltb_true 0 (nth i weights 0)) P').
           split; auto. split.
           { constructor; auto. destruct Ed1 as (a1 & d1 & Nd1 & Q). exists a1, d1. split; auto. }
           split; auto. split; [rewrite I, I1, app_assoc; auto|].
           split; [|split; auto].
           ++ intros x J. apply in_app_iff in J. destruct J as [J|J]; [exists i; split; [left|]; auto|].
              destruct (Of x J) as (j & Ij & O). exists j. split; [right|]; auto.
           ++ intros j [<-|Ij]; apply in_app_iff; auto.
Qed.
Definition of_obs (obs : Z) (x : nid) : Prop := exists c k, x = node_key obs c k.
Lemma populate_tree_ok r base t obs weights radiuses tt a :
  rooted_tree n tt r -> length base = n -> norm base = nb ->
  node tt base_vel_id a -> a_level a = 0%nat ->
  (forall i, (i < length (bt_comps t))%nat -> 0 < nth i weights 0 -> branch_ready t i /\ branch_good t i (nth i radiuses 0)) ->
  (forall x, of_obs obs x -> ~ In x (ids tt)) ->
  exists tt' normals new,
    populate_tree projected_tangent tt position base t obs weights radiuses
    = Ok (tt', map (end_key obs) (weighted weights (seq 0 (length (bt_comps t)))), normals) /\
    Forall2 (fun i nn => exists a d, node tt' (end_key obs i) a /\ a_dir a = vdiv d (norm d) /\ end_dir t i nn d)
      (weighted weights (seq 0 (length (bt_comps t)))) normals /\
    rooted_tree n tt' r /\ ids tt' = ids tt ++ new /\ (forall x, In x new -> of_obs obs x) /\
    (forall i, In i (weighted weights (seq 0 (length (bt_comps t)))) -> In (end_key obs i) new) /\
    (forall y b, node tt y b -> node tt' y b).
Proof.
  intros W Lb Nb Na La Hr Fr. unfold populate_tree.
  destruct (add_ok n tt r (node_key obs (-1) (-1)) base base_vel_id a W Na ltac:(lia) ltac:(rewrite Nb; auto)) as (t1 & E1 & W1 & I1 & N1 & K1); auto.
  { apply Fr. eexists _, _. reflexivity. }
  rewrite E1. cbn [bind].
  destruct (populate_components_ok r base t obs weights radiuses (seq 0 (length (bt_comps t))) t1)
    as (t' & ns & new & E & Ls & W' & I & Of & Fin & K); auto.
  - apply seq_NoDup.
  - intros i Ii. apply Hr. apply in_seq in Ii. lia.
  - eexists. split; [exact N1|]. simpl. lia.
  - intros i x Ii (k & ->) J. rewrite I1 in J. apply in_app_iff in J. destruct J as [J|[J|[]]].
    + apply (Fr (node_key obs (Z.of_nat i) k)); auto. eexists _, _. reflexivity.
    + unfold node_key in J. injection J as J _. lia.
  - exists t', ns, (node_key obs (-1) (-1) :: new). split; auto. split; auto. split; auto.
    split; [rewrite I, I1, <- app_assoc; auto|]. split; [|split].
    + intros x [<-|J]; [eexists _, _; reflexivity|]. destruct (Of x J) as (i & _ & k & ->). eexists _, _. reflexivity.
    + intros i Ii. right. auto.
    + auto.
Qed.
(** End nodes of all components with positive weight. *)
Fixpoint end_items (obs : Z) (trees : list (btree * list R * list R)) : list (Z * btree * nat) :=
  match trees with
  | [] => []
  | (t, weights, _) :: trees' =>
      map (fun i => (obs, t, i)) (weighted weights (seq 0 (length (bt_comps t)))) ++ end_items (obs + 1) trees'
  end.
Definition item_key (x : Z * btree * nat) : nid := let '(o, _, i) := x in end_key o i.
Definition end_keys (obs : Z) (trees : list (btree * list R * list R)) : list nid :=
  map item_key (end_items obs trees).
(** The end node of an item and the normal stored for it. *)
Definition item_dir (tt : tree) (x : Z * btree * nat) (nn : vec) : Prop :=
  let '(o, t, i) := x in
  exists a d, node tt (end_key o i) a /\ a_dir a = vdiv d (norm d) /\ end_dir t i nn d.
Lemma Forall2_impl2 {A B} (P Q : A -> B -> Prop) l l' : (forall a b, P a b -> Q a b) -> Forall2 P l l' -> Forall2 Q l l'.
Proof. intros H F. induction F; constructor; auto. Qed.
Lemma Forall2_map_left {A B C} (f : A -> B) (P : B -> C -> Prop) l l' :
  Forall2 (fun a c => P (f a) c) l l' -> Forall2 P (map f l) l'.
Proof. intros F. induction F; constructor; auto. Qed.
Lemma populate_all_ok r base : length base = n -> norm base = nb ->
  forall trees obs tt a, rooted_tree n tt r -> node tt base_vel_id a -> a_level a = 0%nat ->
  (forall t weights radiuses i, In (t, weights, radiuses) trees -> (i < length (bt_comps t))%nat ->
     0 < nth i weights 0 -> branch_ready t i /\ branch_good t i (nth i radiuses 0)) ->
  (forall o x, (obs <= o)%Z -> of_obs o x -> ~ In x (ids tt)) ->
  exists tt' normals new,
    populate_all projected_tangent tt position base obs trees = Ok (tt', end_keys obs trees, normals) /\
    Forall2 (item_dir tt') (end_items obs trees) normals /\
    rooted_tree n tt' r /\ ids tt' = ids tt ++ new /\
    (forall x, In x new -> exists o, (obs <= o)%Z /\ of_obs o x) /\
    NoDup (end_keys obs trees) /\ (forall x, In x (end_keys obs trees) -> In x new) /\
    (forall y b, node tt y b -> node tt' y b).
Proof.
  intros Lb Nb. induction trees as [|((t, weights), radiuses) trees IH]; intros obs tt a W Na La Hr Fr.
  - exists tt, [], []. simpl. rewrite app_nil_r. split; auto. split; auto. split; auto. split; auto.
    split; [intros; contradiction|]. split; [constructor|]. split; [intros; contradiction|]. auto.
  - unfold end_keys. cbn [populate_all end_items]. rewrite map_app, map_map. cbn [item_key].
    destruct (populate_tree_ok r base t obs weights radiuses tt a W Lb Nb Na La) as (t1 & ns1 & new1 & E1 & L1 & W1 & I1 & Of1 & Fin1 & K1).
    { intros i Hi Hw. eapply Hr; eauto. left. auto. }
    { intros x. apply Fr. lia. }
    rewrite E1. cbn [bind].
    destruct (IH (obs + 1)%Z t1 a W1 (K1 _ _ Na) La) as (t2 & ns2 & new2 & E2 & L2 & W2 & I2 & Of2 & ND2 & Fin2 & K2).
    { intros t0 w0 r0 i I0. eapply Hr. right. eauto. }
    { intros o x Ho O J. rewrite I1 in J. apply in_app_iff in J. destruct J as [J|J].
      - apply (Fr o x); auto. lia.
      - destruct O as (c & k & ->). destruct (Of1 _ J) as (c' & k' & E). unfold node_key in E. injection E as E _ _. lia. }
    rewrite E2. cbn [bind]. exists t2, (ns1 ++ ns2), (new1 ++ new2). split; auto.
    split.
    { apply Forall2_app; auto. apply Forall2_map_left. eapply Forall2_impl2; [|exact L1].
      intros i nn (a1 & d1 & Nd1 & Q). exists a1, d1. auto. }
    split; auto.
    split; [rewrite I2, I1, app_assoc; auto|]. split; [|split; [|split; auto]].
    + intros x J. apply in_app_iff in J. destruct J as [J|J]; [exists obs; split; [lia|auto]|].
      destruct (Of2 x J) as (o & Ho & O). exists o. split; [lia|auto].
    + apply NoDup_app_intro; auto.
      * apply NoDup_map_inj; [|apply NoDup_filter, seq_NoDup]. intros x y E. unfold end_key, node_key in E.
        injection E as E _. apply Nat2Z.inj. auto.
      * intros x J J'. apply in_map_iff in J. destruct J as (i & <- & J).
        destruct (Of2 _ (Fin2 _ J')) as (o & Ho & c & k & E). unfold end_key, node_key in E. injection E as E _ _. lia.
    + intros x J. apply in_app_iff. apply in_app_iff in J. destruct J as [J|J]; [|auto].
      apply in_map_iff in J. destruct J as (i & <- & J). auto.
Qed.
End Population.
