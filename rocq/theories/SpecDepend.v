(** Specification: pairs of variables whose dependence shows in the data whatever the conditioning variables are. *)
From Coq Require Import QArith Reals.
From Verif Require Import Base ModelGraph ModelPC ModelCI ModelCMI SpecCMI ModelParCorr SpecParCorr.
Local Open Scope nat_scope.

(** given any other variables of V the conditional mutual information of a and b in the records is above th *)
Definition always_above (th : R) (V : nset) (recs : list (list nat * R)) (a b : nat) : Prop :=
  ∀ zz, NoDup zz → (∀ z, z ∈ zz → z ∈ V ∧ z ≠ a ∧ z ≠ b) → (th < emp_cmi recs a b zz)%R.

(** given any other variables of V the p-value of the partial correlation of a and b is not above th *)
Definition always_significant (cdf : R → R) (th : R) (V : nset) (data : nat → nat → R) (n a b : nat) : Prop :=
  ∀ zz r, NoDup zz → (∀ z, z ∈ zz → z ∈ V ∧ z ≠ a ∧ z ≠ b) → partial_correlation data n a b zz r →
    (two_sided cdf (R_sqrt.sqrt (INR (n - length zz - 3)) * fisher_z r) <= th)%R.

(** no variable of V is constant or a linear function of the others: the correlation matrix is not singular *)
Definition regular (data : nat → nat → R) (n : nat) (V : nset) : Prop :=
  (∀ a, a ∈ V → not_constant data n a) ∧ ∀ idx, NoDup idx → (∀ a, a ∈ idx → a ∈ V) → idx ≠ [] → nonsingular (corrcoef data n) idx.
