(** Floating point division and power as partial operations, and their order properties. *)
Require Import Reals List Lra Lia Bool.
From Verif Require Import Base.
Open Scope R_scope.

(** [x / y]: NaN or inf for [y = 0]. *)
Definition fdiv (x y : R) : res R := if Req_EM_T y 0 then Err ENaN else Ok (x / y).
(** [x ** p]: a negative base has only integer powers, 0 has no negative power. *)
Definition fpow (x p : R) : res R :=
  if Rlt_dec 0 x then Ok (Rpower x p)
  else if Req_EM_T p 0 then Ok 1
  else if Req_EM_T x 0 then (if Rlt_dec 0 p then Ok 0 else Err ENaN)
  else if Req_EM_T p (IZR (Int_part p)) then Ok (powerRZ x (Int_part p)) else Err ENaN.

Lemma Rpower_pos x p : 0 < Rpower x p.
Proof. apply exp_pos. Qed.
Lemma Rpower_base_1 p : Rpower 1 p = 1.
Proof. unfold Rpower. rewrite ln_1, Rmult_0_r, exp_0. auto. Qed.
Lemma ln_nonneg x : 1 <= x -> 0 <= ln x.
Proof.
  intros H. destruct (Req_dec x 1) as [->|]; [rewrite ln_1; lra|].
  left. rewrite <- ln_1. apply ln_increasing; lra.
Qed.
Lemma ln_nonpos x : 0 < x <= 1 -> ln x <= 0.
Proof.
  intros H. destruct (Req_dec x 1) as [->|]; [rewrite ln_1; lra|].
  left. rewrite <- ln_1. apply ln_increasing; lra.
Qed.
Lemma exp_le_mono x y : x <= y -> exp x <= exp y.
Proof. intros [H| ->]; [left; apply exp_increasing; auto|lra]. Qed.
Lemma ln_le_mono x y : 0 < x -> x <= y -> ln x <= ln y.
Proof. intros H0 [H| ->]; [left; apply ln_increasing; auto|lra]. Qed.
(** Base in ]0,1], exponent >= 0. *)
Lemma Rpower_le_1 x p : 0 < x <= 1 -> 0 <= p -> Rpower x p <= 1.
Proof.
  intros Hx Hp. unfold Rpower. rewrite <- exp_0. apply exp_le_mono.
  pose proof (ln_nonpos x Hx). nra.
Qed.
Lemma Rpower_ge_1 x p : 1 <= x -> 0 <= p -> 1 <= Rpower x p.
Proof.
  intros Hx Hp. unfold Rpower. rewrite <- exp_0 at 1. apply exp_le_mono.
  pose proof (ln_nonneg x Hx). nra.
Qed.
Lemma Rpower_base_mono x y p : 0 < x -> x <= y -> 0 <= p -> Rpower x p <= Rpower y p.
Proof.
  intros H0 H Hp. unfold Rpower. apply exp_le_mono. pose proof (ln_le_mono x y H0 H). nra.
Qed.
(** Bases in ]0,1]: larger exponents give smaller results. *)
Lemma Rpower_exp_anti x p q : 0 < x <= 1 -> p <= q -> Rpower x q <= Rpower x p.
Proof.
  intros Hx H. unfold Rpower. apply exp_le_mono. pose proof (ln_nonpos x Hx). nra.
Qed.
Lemma Rpower_le_base x p : 0 < x <= 1 -> 1 <= p -> Rpower x p <= x.
Proof.
  intros Hx Hp. rewrite <- (Rpower_1 x) at 2 by lra. apply Rpower_exp_anti; auto.
Qed.
Lemma fpow_pos x p : 0 < x -> fpow x p = Ok (Rpower x p).
Proof. intros. unfold fpow. destruct (Rlt_dec 0 x); [auto|lra]. Qed.
Lemma fpow_unit x p : 0 <= x <= 1 -> 0 < p -> exists y, fpow x p = Ok y /\ 0 <= y <= 1.
Proof.
  intros Hx Hp. unfold fpow. destruct (Rlt_dec 0 x).
  - eexists; split; [reflexivity|]. pose proof (Rpower_pos x p). pose proof (Rpower_le_1 x p). lra.
  - destruct (Req_EM_T p 0); [lra|]. destruct (Req_EM_T x 0); [|lra].
    destruct (Rlt_dec 0 p); [|lra]. exists 0. split; auto; lra.
Qed.
Lemma Rpower_lt_1 x p : 0 < x < 1 -> 0 < p -> Rpower x p < 1.
Proof.
  intros Hx Hp. unfold Rpower. rewrite <- exp_0. apply exp_increasing.
  assert (H : ln x < 0) by (rewrite <- ln_1; apply ln_increasing; lra).
  generalize dependent (ln x). intros. nra.
Qed.
