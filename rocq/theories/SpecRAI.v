(** Specifications for recursive autonomy identification. *)
From Verif Require Import Base ModelGraph Spec ModelMixed SpecMixed.

(** groups of nodes of V such that every directed edge between nodes of V goes from a later group to an earlier one;
    only the last group may contain edges, and then each of its nodes has a child in it *)
Definition ordered_groups (g : mgraph) (V : nset) (l : list nset) : Prop :=
  (∀ v, v ∈ V ↔ ∃ B, B ∈ l ∧ v ∈ B) ∧
  (∀ i j B C v, l !! i = Some B → l !! j = Some C → v ∈ B → v ∈ C → i = j) ∧
  (∀ B, B ∈ l → B ≠ ∅) ∧
  (∀ i j B C u v, l !! i = Some B → l !! j = Some C → u ∈ B → v ∈ C → darrow g u v →
     j < i ∨ (i = j ∧ S i = length l ∧ ∀ w, w ∈ B → ∃ c, c ∈ B ∧ darrow g w c)).
