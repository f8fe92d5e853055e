(** Specification for C81: why an edge of a leaf is not in the sampled graph. *)
From Verif Require Import Base ModelMixed SpecMixed ModelPC ModelBRAI SpecBRAI.

(** the edge between a and b is in the graph of the leaf, where a is endogenous, but it is not copied: b is no node of the leaf, or
    b is exogenous and the edge is directed from a to b *)
Definition not_copied (x : leaf) (a b : node) : Prop :=
  let '(en, ex, g, _) := x in a ∈ en ∧ pd_adj g a b ∧ (b ∉ en ∪ ex ∨ (b ∈ ex ∧ b ∉ en ∧ darrow g a b)).
