(** Property C69: the influence of a component on the convergence direction, with the weight of
    the projection (C68) in the convergence sequence (C65). *)
Require Import Reals List Lia Lra Bool ZArith.
From Verif Require Import Base Vec Angle RotModel Spec RotProofs SeqProofs TreeModel TreeSpec Pow WeightModel
  AvoidModel ConvModel ConvProofs PropConverge PropConvSeq DynModel FoldModel FoldProofs PropFold.
Import ListNotations.
Open Scope R_scope.

Section C69.
Variable basis : vec -> list vec.
Variable huge : R.
Variable n : nat.
Hypothesis Hn : (2 <= n)%nat.
Hypothesis HB : basis_of n basis.
Hypothesis Hh : 0 < huge.
(** Pose, gamma and radius of a component in its own frame. *)
Variables to_frame from_frame : component -> vec -> vec.
Variables frame_gamma frame_radius : component -> vec -> R.
Record shaped (c : component) : Prop := {
  sh_pose : inverse_pose n (to_frame c) (from_frame c);
  sh_star : star_shaped n (frame_gamma c) (frame_radius c);
  sh_gamma : forall p, c_gamma c p = frame_gamma c (to_frame c p);
  sh_far : forall q, 10 ^ 10 < norm q -> 1 < frame_gamma c (to_frame c q) }.
Variable A : vec.
Hypothesis LA : length A = n.
(** [convergence_dynamics.evaluate_projected_weight]. *)
Definition projected (position : vec) (c : component) : res R :=
  evaluate_projected_weight basis 2 huge (to_frame c) (from_frame c) (frame_gamma c) (frame_radius c) A (1/2) position.

Lemma projected_ok c position : shaped c -> length position = n ->
  exists w, projected position c = Ok w /\ 0 < w <= 1 /\ (w = 1 <-> c_gamma c position <= 1).
Proof.
  intros [P St G F] L. rewrite G.
  apply (C68_weight basis huge (to_frame c) (from_frame c) (frame_gamma c) (frame_radius c) n); auto. lra.
Qed.

(** A component has full influence exactly in contact, if its tree is away from the attractor. *)
Theorem C69_full_influence : forall position trees j c, length position = n ->
  (forall mt comp, In mt trees -> In comp (m_comps mt) -> shaped comp) ->
  (full_share A projected position trees j c <->
   exists mt g comp, nth_error trees j = Some mt /\ nth_error (m_comps mt) c = Some comp /\
     attractor_gamma A mt g /\ 2 <= g /\ c_gamma comp position <= 1).
Proof.
  intros position trees j c L SH. split.
  - intros (mt & g & comp & wc & E1 & E2 & E3 & E4 & E5 & _).
    destruct (projected_ok comp position) as (w & Ew & B & W); auto.
    { apply (SH mt); [apply (nth_error_In _ _ E1)|apply (nth_error_In _ _ E3)]. }
    rewrite E4 in Ew. injection Ew as <-.
    assert (T : 0 <= tree_share g <= 1).
    { unfold tree_share. split; [apply Rmax_l|]. apply Rmax_lub; [lra|apply Rmin_l]. }
    assert (T1 : tree_share g = 1) by nra. assert (W1 : wc = 1) by nra.
    exists mt, g, comp. repeat split; auto; try apply E2; [|apply W; auto].
    unfold tree_share in T1. destruct (Rle_dec 2 g); auto. exfalso.
    rewrite Rmin_right in T1 by lra. unfold Rmax in T1. destruct (Rle_dec 0 (g - 1)); lra.
  - intros (mt & g & comp & E1 & E3 & E2 & G & C).
    destruct (projected_ok comp position) as (w & Ew & B & W); auto.
    { apply (SH mt); [apply (nth_error_In _ _ E1)|apply (nth_error_In _ _ E3)]. }
    apply W in C. subst w.
    assert (T1 : tree_share g = 1).
    { unfold tree_share. rewrite Rmin_left by lra. apply Rmax_right. lra. }
    exists mt, g, comp, 1. rewrite T1. do 4 (split; auto). split; [lra|]. split; [lra|]. destruct (c =? m_root mt)%nat; lra.
Qed.

(** In contact with one component the convergence direction is the dynamics at the reference
    point of the root of its tree, whatever the other obstacles. *)
Theorem C69_contact_direction : forall orth0 sort initial default position s0 e0 trees j c mt g comp root cs ej,
  conv_ready orth0 sort initial default A projected n position s0 e0 trees ->
  (forall mt comp, In mt trees -> In comp (m_comps mt) -> shaped comp) ->
  nth_error trees j = Some mt -> nth_error (m_comps mt) c = Some comp -> c_gamma comp position <= 1 ->
  (forall j' c' mt' comp', nth_error trees j' = Some mt' -> nth_error (m_comps mt') c' = Some comp' ->
     c_gamma comp' position <= 1 -> j' = j /\ c' = c) ->
  attractor_gamma A mt g -> 2 <= g -> root_dynamics initial default mt root cs ej ->
  (c = m_root mt -> dot (direction (vsub A position)) (direction (vsub A (c_refpoint root))) <> -1) ->
  exists s, compute_convergence_sequence orth0 sort initial default A projected position s0 trees = Ok s /\
    get_end_vector s = Ok ej.
Proof.
  intros orth0 sort initial default position s0 e0 trees j c mt g comp root cs ej RD SH E1 E2 C ONE HG G RDY NO.
  assert (L : length position = n) by apply RD.
  assert (U : forall j' c', full_share A projected position trees j' c' -> j' = j /\ c' = c).
  { intros j' c' F. apply C69_full_influence in F; auto. destruct F as (mt' & g' & comp' & F1 & F2 & _ & _ & F3).
    apply (ONE j' c' mt' comp'); auto. }
  destruct (C65_convergence_sequence _ _ _ _ _ _ _ _ _ _ _ RD) as (s & e & Es & Ps & _ & Hf).
  { intros j1 c1 j2 c2 F1 F2. apply U in F1, F2. lia. }
  exists s. split; auto. rewrite (ps_end _ _ _ _ Ps). f_equal.
  apply (Hf j c mt root cs); auto. apply C69_full_influence; auto. exists mt, g, comp. auto 6.
Qed.

(** Away from all obstacles no component has full influence, and a tree which covers the
    attractor has none at all. *)
Theorem C69_attractor_covered : forall position trees j mt g c w,
  nth_error trees j = Some mt -> attractor_gamma A mt g -> g <= 1 -> ~ share projected A position trees j c w.
Proof.
  intros position trees j mt g c w E1 [(cg & Ig & Eg) Hg] G (mt' & g' & comp & wc & F1 & [(cg' & Ig' & Eg') Hg'] & _ & _ & _ & T & _).
  rewrite E1 in F1. injection F1 as <-.
  assert (g' <= 1) by (specialize (Hg' cg Ig); lra).
  unfold tree_share in T. rewrite Rmin_right in T by lra. rewrite Rmax_left in T; lra.
Qed.
End C69.

(** A disc of radius one around the origin with its attractor at distance six: in contact it has
    full influence, at distance two it has not. *)
Definition disc_component : component :=
  mkComp norm (fun p => direction p) (fun p => direction (vscale (-1) p)) [0; 0] [0; 0] (fun _ _ => None) false.
Example C69_case : forall huge, 0 < huge ->
  let weight := projected turned huge (fun _ v => v) (fun _ v => v) (fun _ => norm) (fun _ => unit_disc) [-6; 0] in
  full_share [-6; 0] weight [1; 0] [mkMTree [disc_component] 0 (fun _ => None)] 0 0 /\
  ~ full_share [-6; 0] weight [2; 0] [mkMTree [disc_component] 0 (fun _ => None)] 0 0.
Proof.
  intros huge Hh weight.
  assert (SH : forall mt comp, In mt [mkMTree [disc_component] 0 (fun _ => None)] -> In comp (m_comps mt) ->
     shaped 2 (fun _ v => v) (fun _ v => v) (fun _ => norm) (fun _ => unit_disc) comp).
  { intros mt comp [<-|[]] [<-|[]]. constructor; auto using same_pose, disc_star. intros q Hq. lra. }
  assert (NA : norm [-6; 0] = 6) by (apply norm_is2; lra).
  split.
  - apply (C69_full_influence turned huge 2 ltac:(lia) turned_basis Hh (fun _ v => v) (fun _ v => v) (fun _ => norm) (fun _ => unit_disc)
      [-6; 0] eq_refl); auto.
    exists (mkMTree [disc_component] 0 (fun _ => None)), 6, disc_component. do 2 (split; auto). split.
    + split; [exists disc_component; split; [left; auto|symmetry; exact NA]|]. intros c [<-|[]]. simpl. rewrite NA. lra.
    + split; [lra|]. simpl. right. apply norm_is2; lra.
  - intro F.
    apply (C69_full_influence turned huge 2 ltac:(lia) turned_basis Hh (fun _ v => v) (fun _ v => v) (fun _ => norm) (fun _ => unit_disc)
      [-6; 0] eq_refl) in F; auto.
    destruct F as (mt & g & comp & E1 & E2 & _ & _ & C). injection E1 as <-. injection E2 as <-.
    simpl in C. assert (N : norm [2; 0] = 2) by (apply norm_is2; lra). rewrite N in C. lra.
Qed.
Print Assumptions C69_full_influence.
Print Assumptions C69_contact_direction.
Print Assumptions C69_attractor_covered.
