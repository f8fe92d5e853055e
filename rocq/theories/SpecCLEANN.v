(** Specification: angles between the rows of a matrix. *)
From Coq Require Import Reals.
From Verif Require Import Base ModelCMI.
Local Open Scope nat_scope.

Section rows.
Variable A : nat → nat → R.     (* row, column *)
Variable m : nat.               (* number of columns *)
Definition inner (f g : nat → R) : R := rsum (λ k, f k * g k)%R (seq 0 m).
Definition norm (f : nat → R) : R := R_sqrt.sqrt (inner f f).
Definition angle_cos (f g : nat → R) : R := (inner f g / (norm f * norm g))%R.
(** [e] is what remains of row a after removing its orthogonal projection on the rows zz *)
Definition row_residual (zz : list nat) (a : nat) (e : nat → R) : Prop :=
  (∃ beta : nat → R, ∀ k, k < m → e k = (A a k - rsum (λ z, beta z * A z k) zz)%R) ∧
  ∀ z, z ∈ zz → inner e (A z) = 0%R.
(** [r] is the cosine of the angle between rows x and y after removing their projections on the rows zz *)
Definition partial_cosine (x y : nat) (zz : list nat) (r : R) : Prop :=
  ∃ e f, row_residual zz x e ∧ row_residual zz y f ∧ (0 < norm e)%R ∧ (0 < norm f)%R ∧ r = angle_cos e f.
End rows.
