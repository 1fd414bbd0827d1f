(** Specifications, written without the helpers of the model. *)
Require Import Reals List.
From Verif Require Import Base Vec RotModel.
Import ListNotations.
Open Scope R_scope.

(** [f] is the rotation by the angle [a] in the oriented plane (b0, b1) of R^n. *)
Record IsPlaneRotation (n : nat) (b0 b1 : vec) (a : R) (f : vec -> vec) : Prop := {
  pr_length : forall v, length v = n -> length (f v) = n;
  pr_linear : forall c d u v, length u = n -> length v = n ->
      f (vadd (vscale c u) (vscale d v)) = vadd (vscale c (f u)) (vscale d (f v));
  pr_isometry : forall u v, length u = n -> length v = n -> dot (f u) (f v) = dot u v;
  pr_complement : forall v, length v = n -> dot v b0 = 0 -> dot v b1 = 0 -> f v = v;
  pr_first : f b0 = vadd (vscale (cos a) b0) (vscale (sin a) b1);
  pr_second : f b1 = vadd (vscale (- sin a) b0) (vscale (cos a) b1)
}.

(** Where a rotation carries its own first base vector. *)
Definition end_of (r : rotation) : vec :=
  vadd (vscale (cos (rangle r)) (rb0 r)) (vscale (sin (rangle r)) (rb1 r)).

(** A proper rotation of R^n: orthonormal base. *)
Definition proper (n : nat) (r : rotation) : Prop := orthonormal n (rb0 r) (rb1 r).

(** The rotations [s] lead without gap from the direction [v] to the direction [w]. *)
Fixpoint chain (v : vec) (s : list rotation) (w : vec) : Prop :=
  match s with
  | [] => v = w
  | r :: s' => rb0 r = v /\ chain (end_of r) s' w
  end.

(** The direction (unit vector) of a vector. *)
Definition direction (v : vec) : vec := vscale (/ norm v) v.

(** All weight on entry [k] of [k + 1 + m] entries. *)
Definition one_hot (k m : nat) : list R := repeat 0 k ++ 1 :: repeat 0 m.
