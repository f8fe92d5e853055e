(** Specification of the partial correlation: the cosine of the angle between the residuals of two variables after
    linear regression (with intercept) on the others. *)
From Coq Require Import Reals.
From Verif Require Import Base ModelCMI.
Local Open Scope nat_scope.

Section data.
Variable data : nat → nat → R.     (* record, variable *)
Variable n : nat.                  (* number of records *)

Definition vdot (f g : nat → R) : R := rsum (λ t, f t * g t)%R (seq 0 n).
(** deviation of a variable from its mean *)
Definition dev (a t : nat) : R := (data t a - rsum (λ t, data t a) (seq 0 n) / INR n)%R.
Definition not_constant (a : nat) : Prop := (0 < vdot (dev a) (dev a))%R.

(** [e] is the residual of a after least-squares regression on the variables zz: it differs from a by a linear
    combination of zz (and a constant), and is orthogonal to each of them *)
Definition residual (zz : list nat) (a : nat) (e : nat → R) : Prop :=
  (∃ beta : nat → R, ∀ t, t < n → e t = (dev a t - rsum (λ z, beta z * dev z t) zz)%R) ∧
  ∀ z, z ∈ zz → vdot e (dev z) = 0%R.

Definition cosine (e f : nat → R) : R := (vdot e f / (R_sqrt.sqrt (vdot e e) * R_sqrt.sqrt (vdot f f)))%R.

(** [r] is the partial correlation of x and y given zz (which neither x nor y is a linear function of) *)
Definition partial_correlation (x y : nat) (zz : list nat) (r : R) : Prop :=
  ∃ e f, residual zz x e ∧ residual zz y f ∧ (0 < vdot e e)%R ∧ (0 < vdot f f)%R ∧ r = cosine e f.
End data.

(** N is the (left) inverse of the m × m matrix M *)
Definition is_inverse (m : nat) (M N : nat → nat → R) : Prop :=
  ∀ i j, i < m → j < m → rsum (λ k, N i k * M k j)%R (seq 0 m) = if decide (i = j) then 1%R else 0%R.
(** numpy.linalg.inv on the correlation matrix of the variables idx: it fails exactly when the matrix is singular *)
Definition nonsingular (corr : nat → nat → R) (idx : list nat) : Prop :=
  ∃ N, is_inverse (length idx) (λ i j, corr (idx !!! i) (idx !!! j)) N.
Definition inverts (corr : nat → nat → R) (inv : list nat → option (nat → nat → R)) (idx : list nat) : Prop :=
  match inv idx with
  | Some N => is_inverse (length idx) (λ i j, corr (idx !!! i) (idx !!! j)) N
  | None => ¬ nonsingular corr idx
  end.

(** Fisher's z-transform and the two-sided p-value *)
Definition fisher_z (r : R) : R := (1 / 2 * ln ((1 + r) / (1 - r)))%R.
Definition two_sided (cdf : R → R) (v : R) : R := (2 * (1 - cdf (Rabs v)))%R.
