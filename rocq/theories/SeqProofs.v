(** Proofs about rotation sequences. *)
Require Import Reals List Lra Lia Psatz Bool.
From Verif Require Import Base Vec Angle RotModel Spec RotProofs.
Import ListNotations.
Open Scope R_scope.

Lemma mapM_ok {A B} (f : A -> res B) (g : A -> B) l :
  (forall x, In x l -> f x = Ok (g x)) -> mapM f l = Ok (map g l).
Proof.
  induction l; simpl; intros H; auto.
  rewrite H by auto. simpl. rewrite IHl by auto. reflexivity.
Qed.
Lemma mapM_length {A B} (f : A -> res B) l l' : mapM f l = Ok l' -> length l' = length l.
Proof.
  revert l'. induction l; simpl; intros l' H; [injection H as <-; auto|].
  destruct (f a); simpl in H; try discriminate.
  destruct (mapM f l); simpl in H; try discriminate.
  injection H as <-. simpl. auto.
Qed.

(** A rotated rotation. *)
Definition rrot (b0 b1 : vec) (a : R) (r : rotation) : rotation :=
  mkRot (plane_rot (rb0 r) b0 b1 a) (plane_rot (rb1 r) b0 b1 a) (rangle r).

Lemma rotate_base_ok n b0 b1 a r :
  length b0 = n -> length b1 = n -> rot_ok n r ->
  rotate_base b0 b1 a r = Ok (rrot b0 b1 a r).
Proof.
  intros L0 L1 (K0 & K1 & U0 & U1 & _). unfold rotate_base.
  rewrite !(rotate_column_unit n) by auto. reflexivity.
Qed.
Lemma rrot_ok n b0 b1 a r : orthonormal n b0 b1 -> rot_ok n r -> rot_ok n (rrot b0 b1 a r).
Proof. intros. apply plane_rot_orthonormal; auto. Qed.
Lemma rrot_zero n b0 b1 r :
  length b0 = n -> length b1 = n -> rot_ok n r -> rrot b0 b1 0 r = r.
Proof.
  intros L0 L1 (K0 & K1 & _). unfold rrot. rewrite !(plane_rot_zero n) by auto.
  destruct r; auto.
Qed.
Lemma end_of_length n r : rot_ok n r -> length (end_of r) = n.
Proof. intros (K0 & K1 & _). unfold end_of. autorewrite with vlen. lia. Qed.
Lemma end_of_eq n r : rot_ok n r -> end_of r = plane_rot (rb0 r) (rb0 r) (rb1 r) (rangle r).
Proof. intros H. unfold end_of. rewrite (plane_rot_first n); auto. Qed.
Lemma end_of_second n r : rot_ok n r -> get_second_vector r = end_of r.
Proof.
  intros H. pose proof H as (K0 & K1 & _). unfold get_second_vector.
  rewrite (rotate_direction_eq n) by auto. rewrite <- (end_of_eq n); auto.
Qed.
Lemma end_of_rrot n b0 b1 a r :
  length b0 = n -> length b1 = n -> rot_ok n r ->
  end_of (rrot b0 b1 a r) = plane_rot (end_of r) b0 b1 a.
Proof.
  intros L0 L1 (K0 & K1 & _). unfold end_of, rrot; simpl.
  rewrite (plane_rot_linear n); auto.
Qed.
Lemma end_of_unit n r : rot_ok n r -> unitv (end_of r).
Proof.
  intros H. rewrite (end_of_eq n) by auto. apply (plane_rot_unit n); auto. apply H.
Qed.

(** ** [rotate_sequence] *)
Lemma rotate_sequence_ok n self s f :
  rot_ok n self -> Forall (rot_ok n) s ->
  rotate_sequence self s f
  = Ok (map (rrot (rb0 self) (rb1 self) (rangle self * f)) s).
Proof.
  intros (K0 & K1 & _) Hs. unfold rotate_sequence. apply mapM_ok. intros x Hx.
  rewrite Forall_forall in Hs. apply (rotate_base_ok n); auto.
Qed.
Lemma rrot_chain n b0 b1 a s v w :
  orthonormal n b0 b1 -> Forall (rot_ok n) s -> chain v s w ->
  chain (plane_rot v b0 b1 a) (map (rrot b0 b1 a) s) (plane_rot w b0 b1 a).
Proof.
  intros Ho Hs. pose proof Ho as (L0 & L1 & _). revert v.
  induction s as [|r s IH]; simpl; intros v H; [congruence|].
  apply Forall_cons_iff in Hs as [Hr Hs]. destruct H as [<- Hc]. split; auto.
  rewrite (end_of_rrot n) by auto. auto.
Qed.
Lemma rotate_sequence_spec n self s f v w :
  rot_ok n self -> Forall (rot_ok n) s -> length v = n -> chain v s w ->
  exists s', rotate_sequence self s f = Ok s' /\ Forall (rot_ok n) s' /\
    map rangle s' = map rangle s /\
    chain (rotate_direction v (rb0 self) (rb1 self) (f * rangle self)) s'
          (rotate_direction w (rb0 self) (rb1 self) (f * rangle self)).
Proof.
  intros Hr Hs Lv Hc. eexists. split; [apply (rotate_sequence_ok n); auto|].
  assert (Lw : length w = n).
  { clear - Hs Hc Lv. revert v Hc Lv. induction s; simpl; intros v Hc Lv; [congruence|].
    apply Forall_cons_iff in Hs as [Ha Hs]. destruct Hc as [<- Hc]. eapply IHs; eauto.
    apply (end_of_length n); auto. }
  pose proof Hr as (K0 & K1 & _).
  repeat split.
  - rewrite Forall_forall in *. intros x Hx. apply in_map_iff in Hx as (y & <- & Hy).
    apply rrot_ok; auto.
  - rewrite map_map. reflexivity.
  - rewrite !(rotate_direction_eq n) by auto.
    rewrite (Rmult_comm f). apply (rrot_chain n); auto.
Qed.

(** ** [create_from_vector_array] *)
Lemma pair_rotation_spec n u v :
  length u = n -> length v = n -> (2 <= n)%nat -> unitv u -> unitv v -> dot v u <> -1 ->
  exists r, pair_rotation u v = Ok r /\ rot_ok n r /\ rb0 r = u /\
    (exact_pair u v -> end_of r = v) /\ (allclose u v = true -> end_of r = u).
Proof.
  intros Lu Lv Hn Hu Hv Hd. unfold pair_rotation.
  assert (Hd' : dot u v <> -1) by (rewrite dot_comm; auto).
  destruct (allclose u v) eqn:Ec.
  - destruct (perp_first_two_ok n u Lu Hn) as (p & E & Lp & Hp & Hup). rewrite E. simpl.
    eexists; split; [reflexivity|].
    assert (X : end_of (mkRot u p 0) = u).
    { unfold end_of; simpl. rewrite cos_0, sin_0. vext. ring. }
    unfold rot_ok, orthonormal; simpl. repeat split; auto.
    intros [->|]; [auto | congruence].
  - destruct (gram_schmidt_exact n u v Lu Lv Hu Hv Hd' Ec) as (Hp & Ho & Heq).
    rewrite (dot_comm v u).
    destruct (Req_EM_T (norm (vsub v (vscale (dot u v) u))) 0); [contradiction|].
    eexists; split; [reflexivity|]. unfold rot_ok, end_of; simpl.
    pose proof (unit_dot_bounds u v Hu Hv).
    rewrite (Rmax_left (dot u v)) by lra.
    split; [exact Ho|]. split; auto. split; [auto|discriminate].
Qed.

Lemma pair_rotations_spec n l :
  (2 <= n)%nat ->
  Forall (fun v => length v = n /\ unitv v) l -> has_antiparallel l = false ->
  exists s, pair_rotations l = Ok s /\ length s = (length l - 1)%nat /\
    Forall (rot_ok n) s /\
    forall i, (S i < length l)%nat ->
      rb0 (nth i s (mkRot [] [] 0)) = nth i l [] /\
      (exact_pair (nth i l []) (nth (S i) l []) ->
         end_of (nth i s (mkRot [] [] 0)) = nth (S i) l []) /\
      (allclose (nth i l []) (nth (S i) l []) = true ->
         end_of (nth i s (mkRot [] [] 0)) = nth i l []).
Proof.
  intros Hn. induction l as [|u l IH]; intros Hl Ha.
  { exists []. simpl. repeat split; auto; lia. }
  destruct l as [|v l].
  { exists []. simpl. repeat split; auto; lia. }
  inversion Hl as [|? ? [Lu Hu] Hl']; subst. inversion Hl' as [|? ? [Lv Hv] _]; subst.
  change (has_antiparallel (u :: v :: l))
    with (Reqb (dot v u) (-1) || has_antiparallel (v :: l))%bool in Ha.
  apply orb_false_iff in Ha as [Ha1 Ha2].
  apply Reqb_false in Ha1.
  destruct (pair_rotation_spec (length u) u v) as (r & Er & Or & E0 & Ex & Ec); auto.
  destruct (IH Hl' Ha2) as (s & Es & Ls & Os & Hs).
  change (pair_rotations (u :: v :: l))
    with (bind (pair_rotation u v) (fun r => bind (pair_rotations (v :: l)) (fun rs => Ok (r :: rs)))).
  rewrite Er. cbn [bind]. rewrite Es. cbn [bind]. eexists; split; [reflexivity|].
  split; [simpl in *; lia|]. split; [constructor; auto|].
  intros [|i] Hi.
  - cbn [nth]. auto.
  - cbn [nth] in *. apply Hs. simpl in *. lia.
Qed.

Lemma create_errors (l : list vec) :
  (exists v, In v l /\ norm v = 0) -> create_from_vector_array l = Err EValue.
Proof.
  intros (v & Hv & E). unfold create_from_vector_array.
  replace (existsb (fun v0 => isclose (norm v0) 0) l) with true; auto.
  symmetry. apply existsb_exists. exists v. split; auto. rewrite E. apply isclose_refl.
Qed.
Lemma has_antiparallel_nth (l : list vec) i :
  (S i < length l)%nat -> dot (nth i l []) (nth (S i) l []) = -1 -> has_antiparallel l = true.
Proof.
  revert i. induction l as [|u l IH]; intros i Hi Hd; [simpl in Hi; lia|].
  destruct l as [|v l]; [simpl in Hi; lia|].
  change (has_antiparallel (u :: v :: l))
    with (Reqb (dot v u) (-1) || has_antiparallel (v :: l))%bool.
  destruct i as [|i].
  - cbn [nth] in Hd. apply orb_true_iff. left. apply Reqb_true. rewrite dot_comm. auto.
  - apply orb_true_iff. right. apply (IH i); auto. simpl in *; lia.
Qed.
Lemma no_antiparallel l :
  (forall i, (S i < length l)%nat -> dot (nth i l []) (nth (S i) l []) <> -1) ->
  has_antiparallel l = false.
Proof.
  induction l as [|u l IH]; intros H; auto. destruct l as [|v l]; auto.
  change (has_antiparallel (u :: v :: l))
    with (Reqb (dot v u) (-1) || has_antiparallel (v :: l))%bool.
  apply orb_false_iff. split.
  - apply Reqb_false. rewrite dot_comm. apply (H 0%nat). simpl; lia.
  - apply IH. intros i Hi. apply (H (S i)). simpl in *; lia.
Qed.

Lemma map_dirof_nth (l : list vec) i : (i < length l)%nat ->
  nth i (map (fun v => vdiv v (norm v)) l) [] = direction (nth i l []).
Proof.
  intros. exact (nth_map_default (fun v : vec => vdiv v (norm v)) l i [] [] H).
Qed.

Lemma create_antiparallel (l : list vec) i :
  (S i < length l)%nat ->
  dot (direction (nth i l [])) (direction (nth (S i) l [])) = -1 ->
  create_from_vector_array l = Err EValue.
Proof.
  intros Hi Hd. unfold create_from_vector_array.
  destruct (existsb (fun v : vec => isclose (norm v) 0) l); auto.
  rewrite (has_antiparallel_nth _ i); auto.
  - rewrite map_length; auto.
  - rewrite !map_dirof_nth by lia. auto.
Qed.

Lemma not_isclose_0 x : isclose x 0 = false -> x <> 0.
Proof.
  intros H E. subst. rewrite isclose_refl in H. discriminate.
Qed.

Lemma create_spec n l :
  (2 <= n)%nat -> Forall (fun v => length v = n) l ->
  (forall v, In v l -> isclose (norm v) 0 = false) ->
  (forall i, (S i < length l)%nat ->
     dot (direction (nth i l [])) (direction (nth (S i) l [])) <> -1) ->
  exists s, create_from_vector_array l = Ok s /\ length s = (length l - 1)%nat /\
    Forall (rot_ok n) s /\
    forall i, (S i < length l)%nat ->
      rb0 (nth i s (mkRot [] [] 0)) = direction (nth i l []) /\
      (exact_pair (direction (nth i l [])) (direction (nth (S i) l [])) ->
         end_of (nth i s (mkRot [] [] 0)) = direction (nth (S i) l [])) /\
      (allclose (direction (nth i l [])) (direction (nth (S i) l [])) = true ->
         end_of (nth i s (mkRot [] [] 0)) = direction (nth i l [])).
Proof.
  intros Hn Hl Hz Ha. unfold create_from_vector_array.
  replace (existsb (fun v => isclose (norm v) 0) l) with false.
  2:{ symmetry. destruct (existsb (fun v : vec => isclose (norm v) 0) l) eqn:E; auto. apply existsb_exists in E as (v & Hv & E).
      rewrite Hz in E; auto. }
  rewrite no_antiparallel.
  2:{ intros i Hi. rewrite map_length in Hi. rewrite !map_dirof_nth by lia. auto. }
  destruct (pair_rotations_spec n (map (fun v => vdiv v (norm v)) l)) as (s & E & Ls & Os & Hs);
    auto.
  - rewrite Forall_forall in *. intros x Hx. apply in_map_iff in Hx as (v & <- & Hv).
    split; [rewrite length_vdiv; auto|]. apply unit_vdiv. apply not_isclose_0; auto.
  - apply no_antiparallel. intros i Hi. rewrite map_length in Hi.
    rewrite !map_dirof_nth by lia. auto.
  - rewrite map_length in *. exists s. repeat split; auto.
    + specialize (Hs i H). rewrite !map_dirof_nth in Hs by lia. tauto.
    + specialize (Hs i H). rewrite !map_dirof_nth in Hs by lia. tauto.
    + specialize (Hs i H). rewrite !map_dirof_nth in Hs by lia. tauto.
Qed.

(** ** [get_end_vector] and appending *)
Lemma get_end_vector_app n s r :
  rot_ok n r -> get_end_vector (s ++ [r]) = Ok (end_of r).
Proof.
  intros Hr. unfold get_end_vector. rewrite last_last.
  destruct (s ++ [r]) eqn:E; [destruct s; discriminate|].
  f_equal. unfold rotate. rewrite Rmult_1_l. apply (end_of_second n); auto.
Qed.
Lemma get_end_vector_nth n s :
  Forall (rot_ok n) s -> s <> [] ->
  get_end_vector s = Ok (end_of (nth (length s - 1) s (mkRot [] [] 0))).
Proof.
  intros Hs Hne. destruct (exists_last Hne) as (s' & r & ->).
  apply Forall_app in Hs as [_ Hr]. apply Forall_cons_iff in Hr as [Hr _].
  rewrite (get_end_vector_app n) by auto.
  rewrite app_length. simpl.
  replace (length s' + 1 - 1)%nat with (length s') by lia.
  rewrite nth_middle. auto.
Qed.
Lemma chain_app v s s' w u : chain v s u -> chain u s' w -> chain v (s ++ s') w.
Proof.
  revert v. induction s; simpl; intros v H H'; [congruence|].
  destruct H as [-> H]; auto.
Qed.
Lemma chain_end n v s w : s <> [] -> Forall (rot_ok n) s -> chain v s w -> get_end_vector s = Ok w.
Proof.
  intros Hne Hs. destruct (exists_last Hne) as (s' & r & ->).
  apply Forall_app in Hs as [_ Hr]. apply Forall_cons_iff in Hr as [Hr _].
  intros H. rewrite (get_end_vector_app n) by auto. f_equal.
  clear Hne. revert v H. induction s'; simpl; intros v [H1 H2]; auto. eauto.
Qed.

(** ** [rotate_weighted] *)
Lemma back_rotate_ok n s cum :
  Forall (rot_ok n) s ->
  exists s', back_rotate s cum = Ok s' /\ Forall (rot_ok n) s' /\ length s' = length s.
Proof.
  intros Hs. revert cum. induction Hs as [|r s Hr Hs IH]; intros cum; simpl.
  { exists []. auto. }
  destruct cum as [|c cum]; [exists (r :: s); auto|].
  destruct (IH cum) as (tl & E & Ht & Lt). rewrite E. simpl.
  pose proof Hr as (K0 & K1 & _).
  rewrite mapM_ok with (g := rrot (rb0 r) (rb1 r) (rangle r * (1 - c))).
  2:{ intros x Hx. rewrite Forall_forall in Ht. apply (rotate_base_ok n); auto. }
  simpl. eexists; split; [reflexivity|]. split.
  - constructor; auto. rewrite Forall_forall in *. intros x Hx.
    apply in_map_iff in Hx as (y & <- & Hy). apply rrot_ok; auto.
  - simpl. rewrite map_length, Lt. auto.
Qed.

Lemma forward_rotate_isometry n s cum u v :
  Forall (rot_ok n) s -> length u = n -> length v = n ->
  length (forward_rotate s cum u) = n /\
  dot (forward_rotate s cum u) (forward_rotate s cum v) = dot u v.
Proof.
  intros Hs. revert cum u v. induction Hs as [|r s Hr Hs IH]; simpl; intros cum u v Lu Lv; auto.
  destruct cum as [|c cum]; auto.
  pose proof Hr as (K0 & K1 & _).
  rewrite !(rotate_direction_eq n) by auto.
  edestruct IH as [A B].
  3: split; [exact A | rewrite B; apply (plane_rot_isometry n); auto].
  - apply (plane_rot_length n); auto.
  - apply (plane_rot_length n); auto.
Qed.

Lemma rotate_weighted_isometry n s w u v :
  Forall (rot_ok n) s -> length w = length s -> s <> [] -> length u = n -> length v = n ->
  exists u' v', rotate_weighted s u w = Ok u' /\ rotate_weighted s v w = Ok v' /\
    length u' = n /\ length v' = n /\ dot u' v' = dot u v.
Proof.
  intros Hs Hw Hne Lu Lv. unfold rotate_weighted.
  destruct w as [|w0 w]; [destruct s; simpl in *; [contradiction|discriminate]|].
  rewrite (proj2 (Nat.eqb_eq _ _) Hw).
  destruct (back_rotate_ok n s (suffix_sums (w0 :: w)) Hs) as (s' & E & Hs' & _).
  rewrite E. simpl bind.
  destruct (forward_rotate_isometry n s' (suffix_sums (w0 :: w)) u v) as [A B]; auto.
  destruct (forward_rotate_isometry n s' (suffix_sums (w0 :: w)) v u) as [C _]; auto.
  eauto 10.
Qed.

Lemma suffix_sums_zero m : suffix_sums (repeat 0 m) = repeat 0 m.
Proof.
  induction m; simpl; auto. rewrite IHm. f_equal.
  assert (rsum (repeat 0 m) = 0); [|unfold rsum in *; simpl; lra].
  clear. induction m; simpl; auto. rewrite IHm; lra.
Qed.
Lemma rsum_repeat0 m : rsum (repeat 0 m) = 0.
Proof. induction m; simpl; auto. rewrite IHm; lra. Qed.
Lemma suffix_sums_one_hot k m f :
  suffix_sums (repeat 0 k ++ f :: repeat 0 m) = repeat f (S k) ++ repeat 0 m.
Proof.
  induction k; simpl.
  - rewrite suffix_sums_zero. fold (rsum (repeat 0 m)). rewrite rsum_repeat0. f_equal. lra.
  - rewrite IHk. simpl. f_equal. fold (rsum (repeat 0 k ++ f :: repeat 0 m)).
    rewrite rsum_app. simpl. rewrite !rsum_repeat0. lra.
Qed.

Lemma forward_zero n s m v :
  Forall (rot_ok n) s -> length v = n -> forward_rotate s (repeat 0 m) v = v.
Proof.
  intros Hs. revert m v. induction Hs as [|r s Hr Hs IH]; simpl; intros m v Lv; auto.
  destruct m; simpl; auto. pose proof Hr as (K0 & K1 & _).
  rewrite Rmult_0_r, (rotate_direction_eq n) by auto. rewrite (plane_rot_zero n) by auto. auto.
Qed.

Lemma back_one_hot n s k m :
  Forall (rot_ok n) s -> (S k <= length s)%nat ->
  exists s', back_rotate s (repeat 1 (S k) ++ repeat 0 m) = Ok s' /\ Forall (rot_ok n) s' /\
    length s' = length s /\ firstn (S k) s' = firstn (S k) s.
Proof.
  revert s. induction k; intros s Hs Hk.
  - destruct (back_rotate_ok n s (repeat 1 1 ++ repeat 0 m) Hs) as (s' & E & Hs' & Ls).
    exists s'. repeat split; auto. destruct s as [|r s]; [simpl in Hk; lia|].
    simpl in E. destruct (back_rotate s (repeat 0 m)); simpl in E; [|discriminate].
    destruct (mapM _ _) in E; simpl in E; [|discriminate].
    injection E as <-. reflexivity.
  - destruct s as [|r s]; [simpl in Hk; lia|]. apply Forall_cons_iff in Hs as [H1 Hs].
    destruct (IHk s) as (s' & E & Hs' & Ls & F); auto; [simpl in Hk; lia|].
    change (repeat 1 (S (S k)) ++ repeat 0 m) with (1 :: (repeat 1 (S k) ++ repeat 0 m)).
    cbn [back_rotate]. rewrite E. cbn [bind].
    replace (rangle r * (1 - 1)) with 0 by ring.
    pose proof H1 as (K0 & K1 & _).
    rewrite mapM_ok with (g := fun x => x).
    2:{ intros x Hx. rewrite Forall_forall in Hs'. rewrite (rotate_base_ok n) by auto.
        rewrite (rrot_zero n) by auto. auto. }
    rewrite map_id. cbn [bind]. eexists; split; [reflexivity|].
    split; [constructor; auto|]. split; [simpl; lia|]. cbn [firstn]. f_equal. exact F.
Qed.

Lemma forward_one_hot n s k m v w :
  Forall (rot_ok n) s -> (S k <= length s)%nat -> length v = n ->
  chain v (firstn (S k) s) w ->
  forward_rotate s (repeat 1 (S k) ++ repeat 0 m) v = w.
Proof.
  revert s v. induction k; intros s v Hs Hk Lv Hc.
  - destruct s as [|r s]; [simpl in Hk; lia|]. apply Forall_cons_iff in Hs as [H1 Hs].
    simpl in Hc. destruct Hc as [<- <-]. simpl. rewrite Rmult_1_r.
    pose proof H1 as (K0 & K1 & _).
    rewrite (rotate_direction_eq n) by auto.
    rewrite <- (end_of_eq n) by auto.
    apply (forward_zero n); auto. apply (end_of_length n); auto.
  - destruct s as [|r s]; [simpl in Hk; lia|]. apply Forall_cons_iff in Hs as [H1 Hs].
    cbn [firstn chain] in Hc. destruct Hc as [<- Hc].
    change (repeat 1 (S (S k)) ++ repeat 0 m) with (1 :: (repeat 1 (S k) ++ repeat 0 m)).
    cbn [forward_rotate]. rewrite Rmult_1_r.
    pose proof H1 as (K0 & K1 & _).
    rewrite (rotate_direction_eq n) by auto.
    rewrite <- (end_of_eq n) by auto.
    apply IHk; auto; [simpl in Hk; lia|]. apply (end_of_length n); auto.
Qed.

Lemma chain_prefix v s w k :
  chain v s w -> (k < length s)%nat -> chain v (firstn (S k) s) (end_of (nth k s (mkRot [] [] 0))).
Proof.
  revert v k. induction s as [|r s IH]; intros v k H Hk; [simpl in Hk; lia|].
  destruct H as [E H]. destruct k; [simpl; auto|].
  cbn [firstn chain nth]. split; auto. apply IH; auto. simpl in Hk; lia.
Qed.

Lemma rotate_weighted_one_hot n s k m v w :
  Forall (rot_ok n) s -> length s = (k + 1 + m)%nat -> length v = n -> chain v s w ->
  rotate_weighted s v (one_hot k m) = Ok (end_of (nth k s (mkRot [] [] 0))).
Proof.
  intros Hs Hk Lv Hc. unfold rotate_weighted, one_hot.
  destruct (repeat 0 k ++ 1 :: repeat 0 m) as [|w0 w'] eqn:E; [destruct k; discriminate|].
  rewrite <- E. clear E w0 w'.
  replace (Nat.eqb _ _) with true.
  2:{ symmetry. apply Nat.eqb_eq. rewrite app_length. simpl. rewrite !repeat_length. lia. }
  rewrite suffix_sums_one_hot.
  destruct (back_one_hot n s k m) as (s' & E & Hs' & Ls & F); auto; [lia|].
  rewrite E. cbn [bind]. f_equal. apply (forward_one_hot n); auto; [lia|].
  rewrite F. eapply chain_prefix; eauto. lia.
Qed.

Lemma rotate_weighted_zero n s v :
  Forall (rot_ok n) s -> s <> [] -> length v = n ->
  rotate_weighted s v (repeat 0 (length s)) = Ok v.
Proof.
  intros Hs Hne Lv. unfold rotate_weighted.
  destruct (repeat 0 (length s)) as [|w0 w'] eqn:E; [destruct s; [contradiction|discriminate]|].
  rewrite <- E. clear E. rewrite repeat_length, Nat.eqb_refl, suffix_sums_zero.
  destruct (back_rotate_ok n s (repeat 0 (length s)) Hs) as (s' & E & Hs' & _).
  rewrite E. cbn [bind]. f_equal. apply (forward_zero n); auto.
Qed.

Lemma seq_rotate_full n s v w :
  Forall (rot_ok n) s -> s <> [] -> length v = n -> chain v s w -> seq_rotate s v 1 = Ok w.
Proof.
  intros Hs Hne Lv Hc. unfold seq_rotate. destruct s as [|r s]; [contradiction|].
  set (s0 := r :: s) in *.
  change (repeat 0 (length s0 - 1) ++ [1]) with (one_hot (length s0 - 1) 0).
  rewrite (rotate_weighted_one_hot n s0 (length s0 - 1) 0 v w); auto.
  2:{ unfold s0. simpl. lia. }
  rewrite <- (get_end_vector_nth n) by auto. apply (chain_end n v); auto.
Qed.

(** ** [append_from_direction] *)
Lemma append_from_direction_end n s l d :
  (2 <= n)%nat -> rot_ok n l -> length d = n -> norm d <> 0 ->
  dot (rb1 l) (direction d) <> -1 -> exact_pair (rb1 l) (direction d) ->
  exists s', append_from_direction (s ++ [l]) d = Ok s' /\ length s' = S (length (s ++ [l])) /\
    get_end_vector s' = Ok (direction d).
Proof.
  intros Hn Hl Ld Hd Ha Hex. pose proof Hl as (L0 & L1 & U0 & U1 & _).
  change (direction d) with (dirof d) in *.
  unfold append_from_direction. rewrite last_last.
  assert (E1 : dirof (rb1 l) = rb1 l) by (apply dirof_of_unit; auto).
  destruct (from_directions_spec n (rb1 l) d) as (r & E & Ho & E0 & Ea & Es); auto.
  { apply unit_norm_neq; auto. }
  { rewrite E1; auto. }
  assert (S2 : get_second_vector r = dirof d).
  { apply (exact_second n (rb1 l)); auto; [apply unit_norm_neq; auto| |]; rewrite E1; auto. }
  destruct (s ++ [l]) eqn:EE; [destruct s; discriminate|].
  rewrite E. cbn [bind]. eexists; split; [reflexivity|].
  unfold append_from_base_and_angle. split; [rewrite app_length; simpl; lia|].
  rewrite (get_end_vector_app n) by auto. f_equal. rewrite <- S2. symmetry.
  apply (end_of_second n); auto.
Qed.
