(** Explanations (C54). *)
From Verif Require Import Base ModelGraph ModelMixed ModelPDS SpecPDS ModelPC ModelFCI ModelExplain.

(** a non-empty choice of tokens without the target that passes the test *)
Definition explains (tokens : list nat) (target : nat) (expl : list nat → bool) (c : list nat) : Prop :=
  c `sublist_of` tokens ∧ c ≠ [] ∧ target ∉ c ∧ expl c = true.

(** a set of at most m nodes of the tree, every element reached by a branch inside the set, that passes the test *)
Definition tree_explains (t : ptree) (X : nset) (m : nat) (expl : nset → bool) (Y : nset) : Prop :=
  Y ⊆ X ∧ Y ≠ ∅ ∧ size Y ≤ m ∧ t_legal t (elements Y) ∧ expl Y = true.

(** l contains exactly the elements with property P that have the least size *)
Definition exactly_minimal {A} (P : A → Prop) (sz : A → nat) (l : list A) : Prop :=
  ∃ k, (∀ c, c ∈ l ↔ P c ∧ sz c = k) ∧ ∀ c, P c → k ≤ sz c.

(** entries are in the order of a measure *)
Definition in_order {A} (le : A → A → Prop) (l : list A) : Prop := ∀ i j x y, i < j → l !! i = Some x → l !! j = Some y → le x y.
Definition smaller_or_nearer (x y : nset * option nat) : Prop :=
  size x.1 < size y.1 ∨ (size x.1 = size y.1 ∧ ∃ m n, x.2 = Some m ∧ y.2 = Some n ∧ m ≤ n).

(** r is the result of the last call for target t, among the calls that did not raise *)
Definition latest_result (results : ecall → res eresult) (cs : list ecall) (t : node) (r : eresult) : Prop :=
  ∃ pre c post, cs = pre ++ c :: post ∧ ec_target c = t ∧ results c = Ok r ∧ ∀ c', c' ∈ post → ec_target c' = t → ∀ r', results c' ≠ Ok r'.
