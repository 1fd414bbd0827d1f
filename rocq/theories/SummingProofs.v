(** Lemmas about the directional summing of the rotational avoider. *)
Require Import Reals List Bool Lra Lia ZArith.
From Verif Require Import Base Vec Angle Pow RotModel Spec RotProofs TreeModel TreeSpec TreeProofs TreeCases PropTree
  WeightModel AvoidModel ProjModel PropProject PropTangent PropContact PropFold ConvModel ConvProofs RotAvoidModel RotAvoidProofs PropSmooth.
Import ListNotations.
Open Scope R_scope.

(** Bessel's inequality for two orthonormal vectors. *)
Lemma bessel2 d i t : unitv d -> unitv i -> unitv t -> dot d i = 0 -> dot d t * dot d t + dot i t * dot i t <= 1.
Proof.
  unfold unitv. intros Ud Ui Ut O.
  pose proof (dot_self_nonneg (vsub t (vadd (vscale (dot d t) d) (vscale (dot i t) i)))) as H.
  rewrite !dot_vsub_l, !dot_vsub_r, !dot_vadd_l, !dot_vadd_r, !dot_vscale_l, !dot_vscale_r in H.
  rewrite (dot_comm t d), (dot_comm t i), (dot_comm i d), Ud, Ui, Ut, O in H. lra.
Qed.
Lemma perp_far d i t : unitv d -> unitv i -> unitv t -> dot d i = 0 -> dot d t <= -1/1000 -> dot i t <= 1 - / 10 ^ 7.
Proof.
  intros Ud Ui Ut O H. pose proof (bessel2 d i t Ud Ui Ut O) as B.
  destruct (Rle_dec (dot i t) (1 - / 10 ^ 7)); auto. exfalso.
  assert (/ 10 ^ 7 = 1 / 10000000) by lra. nra.
Qed.

Lemma cos_le_0 r : PI / 2 <= r <= PI -> cos r <= 0.
Proof.
  intros H. pose proof PI_RGT_0. rewrite <- cos_PI2. destruct (Req_dec r (PI / 2)) as [->|]; [lra|].
  left. apply cos_decreasing_1; lra.
Qed.
Lemma cos_gt_m1 r : 0 <= r < PI -> -1 < cos r.
Proof. intros H. pose proof PI_RGT_0. rewrite <- cos_PI. apply cos_decreasing_1; lra. Qed.

(** The pseudo tangent for a reference direction inside of the circle. *)
Lemma tangent_side n rad tail conv ref b : (2 <= n)%nat -> base_ok n b -> PI / 2 <= rad < PI ->
  length conv = n -> length ref = n -> norm conv <> 0 -> norm ref <> 0 ->
  0 < dot (bs0 b) (dirof ref) -> dot (bs0 b) (dirof conv) <> -1 ->
  exists t, get_pseudo_tangent rad tail conv ref b = Ok t /\ length t = n /\ norm t <> 0 /\
    dot (bs0 b) (dirof t) <= cos rad /\ dot (bs0 b) (dirof t) <> -1.
Proof.
  intros Hn B Hr Lc Lr Nc Nr Hp Hc. pose proof PI_RGT_0 as HP. pose proof B as (L0 & _ & U0 & _).
  pose proof (dirof_unit conv Nc) as Uc. pose proof (dirof_unit ref Nr) as Ur.
  destruct (pseudo_tangent_ok n rad tail conv ref b Hn B ltac:(lra) Lc Lr Nc Nr) as [K1 K2].
  assert (Ir : acos (dot (bs0 b) (dirof ref)) < rad).
  { apply angle_lt; auto; [lra|]. pose proof (cos_le_0 rad ltac:(lra)). lra. }
  destruct (Rlt_dec (acos (dot (bs0 b) (dirof conv))) rad) as [H|H].
  2: destruct tail.
  - destruct K2 as (t & Et & Lt & Ut & Dt); auto. exists t. rewrite (dirof_of_unit t Ut), Dt.
    pose proof (cos_gt_m1 rad ltac:(lra)). do 2 (split; auto). split; [apply unit_norm_neq; auto|]. lra.
  - destruct K2 as (t & Et & Lt & Ut & Dt); auto. exists t. rewrite (dirof_of_unit t Ut), Dt.
    pose proof (cos_gt_m1 rad ltac:(lra)). do 2 (split; auto). split; [apply unit_norm_neq; auto|]. lra.
  - exists conv. split; [apply K1; auto; lra|]. do 2 (split; auto). split; auto.
    destruct (Rle_dec (dot (bs0 b) (dirof conv)) (cos rad)) as [|N]; auto. exfalso. apply H.
    apply angle_lt; auto; lra.
Qed.

Definition sid (z : Z) : nid := NInt z.
(** The tree of [directional_convergence_summing]: edges are exact except possibly those from the convergence direction. *)
Lemma summing_tree n orth0 sort rad power tail conv ref b g v0 crad w : (2 <= n <= 1000)%nat -> base_ok n b ->
  PI / 2 <= rad < PI -> crad <= PI / 2 \/ cos rad <= -1/1000 ->
  length conv = n -> length ref = n -> length v0 = n -> norm conv <> 0 -> norm ref <> 0 -> norm v0 <> 0 ->
  0 < dot (bs0 b) (dirof ref) -> dot (bs0 b) (dirof conv) <> -1 -> dot (dirof conv) (dirof v0) <> -1 ->
  get_smooth_continuation_weight rad power g conv ref b = Ok w -> 0 < w ->
  exists tg t, get_pseudo_tangent rad tail conv ref b = Ok tg /\ length tg = n /\ norm tg <> 0 /\
    dot (bs0 b) (dirof tg) <= cos rad /\
    directional_convergence_summing orth0 sort rad power tail conv ref b g v0 crad =
      get_weighted_mean orth0 t blank (sort t) [NInt 0; NInt 3] [1 - w; w] /\
    grown n t (NInt (-1)) /\ (exists a, node t (NInt (-1)) a) /\
    (exists l, node t (NInt 0) (mkAttrs l (dirof v0))) /\ (exists l, node t (NInt 3) (mkAttrs l (dirof tg))) /\
    (forall x y bx byy, edge t x y -> node t x bx -> node t y byy ->
       y = NInt 0 /\ a_dir bx = dirof conv /\ a_dir byy = dirof v0 \/
       y = NInt 1 /\ a_dir bx = dirof conv /\ a_dir byy = bs0 b \/
       allclose (a_dir bx) (a_dir byy) = false).
Proof.
  intros [Hn Hn1] B Hr Hcr Lc Lr Lv Nc Nr Nv Hp Hc Hv Ew Hw. pose proof PI_RGT_0 as HP.
  pose proof B as (L0 & _ & U0 & _).
  destruct (tangent_side n rad tail conv ref b Hn B Hr Lc Lr Nc Nr Hp Hc) as (tg & Et & Lt & Nt & Dt & Dt1).
  exists tg. pose proof (dirof_unit tg Nt) as Ut. pose proof (cos_le_0 rad ltac:(lra)) as C0.
  assert (D0 : dirof (bs0 b) = bs0 b) by (apply dirof_of_unit; auto).
  unfold directional_convergence_summing. rewrite Ew. cbn [bind]. rewrite (proj2 (Rleb_false w 0)) by auto.
  rewrite Et. cbn [bind].
  destruct (set_root_grown n (NInt (-1)) conv Hn Lc Nc) as (t0 & -> & G0 & I0 & N0 & E0). cbn [bind].
  destruct (add_node_grown n t0 (NInt (-1)) (NInt 0) v0 (NInt (-1)) _ G0 N0) as (t1 & -> & G1 & I1 & K1 & N1 & E1); auto.
  { simpl; lia. } { rewrite I0. intros [E|[]]; discriminate. }
  cbn [lift bind fst snd].
  destruct (add_node_grown n t1 (NInt (-1)) (NInt 1) (bs0 b) (NInt (-1)) _ G1 (K1 _ _ N0)) as (t2 & -> & G2 & I2 & K2 & N2 & E2); auto.
  { simpl; lia. } { apply unit_norm_neq; auto. } { rewrite I1, I0. intros [E|[E|[]]]; discriminate. }
  { cbn [a_dir]. rewrite D0, dot_comm. auto. }
  cbn [lift bind fst snd]. rewrite D0 in N2.
  destruct (Rltb (PI * / 2) crad) eqn:Q; [apply Rltb_true in Q|apply Rltb_false in Q].
  - destruct Hcr as [Hcr|Hcr]; [lra|].
    destruct (intermediate_ok n conv ref b Hn B Lc Lr Nc Nr Hp) as (i & -> & Li & Ui & Di & _). cbn [bind].
    destruct (add_node_grown n t2 (NInt (-1)) (NInt 2) i (NInt 1) _ G2 N2) as (t3 & -> & G3 & I3 & K3 & N3 & E3); auto.
    { simpl; lia. } { apply unit_norm_neq; auto. } { rewrite I2, I1, I0. intros [E|[E|[E|[]]]]; discriminate. }
    { cbn [a_dir]. rewrite dirof_of_unit by auto. lra. }
    cbn [lift bind fst snd]. rewrite (dirof_of_unit i Ui) in N3.
    destruct (add_node_grown n t3 (NInt (-1)) (NInt 3) tg (NInt 2) _ G3 N3) as (t4 & -> & G4 & I4 & K4 & N4 & E4); auto.
    { simpl; lia. } { rewrite I3, I2, I1, I0. intros [E|[E|[E|[E|[]]]]]; discriminate. }
    { cbn [a_dir]. apply (perp_not_opposite (bs0 b)); auto; [rewrite dirof_length; congruence|lra]. }
    cbn [lift bind fst snd]. exists t4. do 5 (split; auto). split; auto. split; [eauto 10|]. split; [eauto 10|].
    split; [eauto|]. intros x y bx byy Ee Nx Ny. destruct G4 as [W4 _].
    assert (UN : forall z a, node t4 z a -> forall c, node t4 z c -> c = a).
    { intros z a Ha c Hc'. apply (node_unique n t4 _ W4 z); auto. }
    apply E4 in Ee. destruct Ee as [Ee|[-> ->]].
    2:{ right; right. rewrite (UN _ _ N4 _ Ny). rewrite (UN (NInt 2) _ (K4 _ _ N3) _ Nx). cbn [a_dir].
        apply (far_not_close n); auto; [rewrite dirof_length; auto|]. apply (perp_far (bs0 b)); auto. lra. }
    apply E3 in Ee. destruct Ee as [Ee|[-> ->]].
    2:{ right; right. rewrite (UN (NInt 2) _ (K4 _ _ N3) _ Ny).
        rewrite (UN (NInt 1) _ (K4 _ _ (K3 _ _ N2)) _ Nx). cbn [a_dir]. apply (far_not_close n); auto. rewrite Di. lra. }
    apply E2 in Ee. destruct Ee as [Ee|[-> ->]].
    2:{ right; left. split; auto. rewrite (UN (NInt 1) _ (K4 _ _ (K3 _ _ N2)) _ Ny).
        rewrite (UN (NInt (-1)) _ (K4 _ _ (K3 _ _ (K2 _ _ (K1 _ _ N0)))) _ Nx). auto. }
    apply E1 in Ee. destruct Ee as [Ee|[-> ->]]; [exfalso; apply (E0 _ _ Ee)|].
    left. split; auto. rewrite (UN (NInt 0) _ (K4 _ _ (K3 _ _ (K2 _ _ N1))) _ Ny).
    rewrite (UN (NInt (-1)) _ (K4 _ _ (K3 _ _ (K2 _ _ (K1 _ _ N0)))) _ Nx). auto.
  - cbn [bind].
    destruct (add_node_grown n t2 (NInt (-1)) (NInt 3) tg (NInt 1) _ G2 N2) as (t4 & -> & G4 & I4 & K4 & N4 & E4); auto.
    { simpl; lia. } { rewrite I2, I1, I0. intros [E|[E|[E|[]]]]; discriminate. }
    cbn [lift bind fst snd]. exists t4. do 5 (split; auto). split; auto. split; [eauto 10|]. split; [eauto 10|].
    split; [eauto|]. intros x y bx byy Ee Nx Ny. destruct G4 as [W4 _].
    assert (UN : forall z a, node t4 z a -> forall c, node t4 z c -> c = a).
    { intros z a Ha c Hc'. apply (node_unique n t4 _ W4 z); auto. }
    apply E4 in Ee. destruct Ee as [Ee|[-> ->]].
    2:{ right; right. rewrite (UN _ _ N4 _ Ny). rewrite (UN (NInt 1) _ (K4 _ _ N2) _ Nx). cbn [a_dir].
        apply (far_not_close n); auto; [rewrite dirof_length; auto|]. lra. }
    apply E2 in Ee. destruct Ee as [Ee|[-> ->]].
    2:{ right; left. split; auto. rewrite (UN (NInt 1) _ (K4 _ _ N2) _ Ny).
        rewrite (UN (NInt (-1)) _ (K4 _ _ (K2 _ _ (K1 _ _ N0))) _ Nx). auto. }
    apply E1 in Ee. destruct Ee as [Ee|[-> ->]]; [exfalso; apply (E0 _ _ Ee)|].
    left. split; auto. rewrite (UN (NInt 0) _ (K4 _ _ (K2 _ _ N1)) _ Ny).
    rewrite (UN (NInt (-1)) _ (K4 _ _ (K2 _ _ (K1 _ _ N0))) _ Nx). auto.
Qed.

Definition sorts (sort : tree -> list nid) : Prop := forall n t r, rooted_tree n t r -> level_sorted t (sort t).

(** In contact: the direction of the pseudo tangent. *)
Lemma summing_contact n orth0 sort rad power tail conv ref b g v0 crad : (2 <= n <= 1000)%nat -> base_ok n b ->
  PI / 2 <= rad < PI -> crad <= PI / 2 \/ cos rad <= -1/1000 -> 0 <= power ->
  length conv = n -> length ref = n -> length v0 = n -> norm conv <> 0 -> norm ref <> 0 -> norm v0 <> 0 ->
  0 < dot (bs0 b) (dirof ref) -> dot (bs0 b) (dirof conv) <> -1 -> dot (dirof conv) (dirof v0) <> -1 ->
  (forall v, length (orth0 v) = length v) -> sorts sort -> 0 < g <= 1 ->
  exists tg, get_pseudo_tangent rad tail conv ref b = Ok tg /\ length tg = n /\ norm tg <> 0 /\
    dot (bs0 b) (dirof tg) <= cos rad /\
    directional_convergence_summing orth0 sort rad power tail conv ref b g v0 crad = Ok (dirof tg).
Proof.
  intros Hn B Hr Hcr Hpw Lc Lr Lv Nc Nr Nv Hp Hc Hv OL SS Hg.
  destruct (continuation_form n rad power conv ref b ltac:(lia) B Lc Lr Nc Nr Hpw) as [C1 _].
  destruct (summing_tree n orth0 sort rad power tail conv ref b g v0 crad 1 Hn B Hr Hcr Lc Lr Lv Nc Nr Nv Hp Hc Hv (C1 g Hg) ltac:(lra))
    as (tg & t & Et & Lt & Nt & Dt & E & G & _ & (l0 & N0) & (l3 & N3) & ED).
  exists tg. do 4 (split; auto). rewrite E. replace (1 - 1) with 0 by ring.
  apply (mean_on_one_grown n t (NInt (-1)) (sort t) orth0 blank [NInt 0] (NInt 3) [] [0] [] (mkAttrs l3 (dirof tg)) G); auto; try lia.
  - apply (SS n t (NInt (-1))). apply G.
  - constructor; [intros [F|[]]; discriminate|]. constructor; [intros []|constructor].
  - intros x [<-|[<-|[]]]; [apply (node_in_ids t _ _ N0)|apply (node_in_ids t _ _ N3)].
  - intros p bp Ep Np. destruct (ED _ _ _ _ Ep Np N3) as [(F & _)|[(F & _)|F]]; try discriminate. right. exact F.
Qed.
(** At any distance: some direction. *)
Definition apart (u v : vec) : Prop := u = v \/ allclose u v = false.
Lemma summing_some n orth0 sort rad power tail conv ref b g v0 crad : (2 <= n <= 1000)%nat -> base_ok n b ->
  PI / 2 <= rad < PI -> crad <= PI / 2 \/ cos rad <= -1/1000 -> 0 <= power ->
  length conv = n -> length ref = n -> length v0 = n -> norm conv <> 0 -> norm ref <> 0 -> norm v0 <> 0 ->
  0 < dot (bs0 b) (dirof ref) -> dot (bs0 b) (dirof conv) <> -1 -> dot (dirof conv) (dirof v0) <> -1 ->
  (forall v, length (orth0 v) = length v) -> sorts sort -> 0 < g ->
  apart (dirof conv) (dirof v0) -> apart (dirof conv) (bs0 b) ->
  exists u, directional_convergence_summing orth0 sort rad power tail conv ref b g v0 crad = Ok u /\
    length u = n /\ norm u <> 0.
Proof.
  intros Hn B Hr Hcr Hpw Lc Lr Lv Nc Nr Nv Hp Hc Hv OL SS Hg A1 A2.
  destruct (C70_continuation_weight n rad power conv ref b ltac:(lia) B Lc Lr Nc Nr Hpw)
    as (f & Ef & F1 & F2 & _).
  assert (W0 : 0 <= f g <= 1).
  { destruct (Rle_dec g 1); [rewrite F1; lra|]. pose proof (F2 g ltac:(lra)).
    assert (/ g < 1) by (rewrite <- Rinv_1; apply Rinv_lt_contravar; lra). lra. }
  destruct (Req_dec (f g) 0) as [Z|NZ].
  - exists v0. unfold directional_convergence_summing. rewrite Ef, Z by auto. cbn [bind].
    rewrite (proj2 (Rleb_true 0 0)) by lra. auto.
  - destruct (summing_tree n orth0 sort rad power tail conv ref b g v0 crad (f g) Hn B Hr Hcr Lc Lr Lv Nc Nr Nv Hp Hc Hv (Ef g Hg) ltac:(lra))
      as (tg & t & Et & Lt & Nt & Dt & E & G & (ar & Nar) & (l0 & N0) & (l3 & N3) & ED).
    rewrite E. set (w := f g) in *.
    set (own := fun x => if nid_eq_dec x (NInt 0) then 1 - w else if nid_eq_dec x (NInt 3) then w else 0).
    assert (AS : assigned t [NInt 0; NInt 3] [1 - w; w] own).
    { split; [constructor; [intros [F|[]]; discriminate|]; constructor; [intros []|constructor]|].
      split; auto. split.
      { intros x [<-|[<-|[]]]; [apply (node_in_ids t _ _ N0)|apply (node_in_ids t _ _ N3)]. }
      split.
      - intros x y [I|[I|[]]]; injection I as <- <-; unfold own; simpl; auto.
      - intros x I. unfold own. destruct (nid_eq_dec x (NInt 0)); [exfalso; apply I; simpl; auto|].
        destruct (nid_eq_dec x (NInt 3)); [exfalso; apply I; simpl; auto|auto]. }
    destruct (C14_reduction_geometry n t (NInt (-1)) ar (sort t) orth0 blank [NInt 0; NInt 3] [1 - w; w] own)
      as (_ & _ & m & _ & _ & _ & M & Um & Lm); auto; try lia.
    + apply G.
    + apply G.
    + intros x y bx byy Ee Nx Ny. destruct (ED _ _ _ _ Ee Nx Ny) as [(_ & -> & ->)|[(_ & -> & ->)|K]]; auto.
    + apply (SS n t (NInt (-1))). apply G.
    + intros x. unfold own. destruct (nid_eq_dec x (NInt 0)); [lra|]. destruct (nid_eq_dec x (NInt 3)); lra.
    + simpl. lra.
    + exists m. split; auto. split; auto. apply unit_norm_neq. auto.
Qed.
