(** Counting unordered pairs, independent of the model. *)
From Verif Require Import Base.

(** n is the number of unordered pairs of different elements of V related by P *)
Definition pair_count (V : nset) (P : node → node → Prop) (n : nat) : Prop :=
  ∃ S : gset (node * node), (∀ a b, (a, b) ∈ S ↔ a ∈ V ∧ b ∈ V ∧ a < b ∧ P a b) ∧ size S = n.
