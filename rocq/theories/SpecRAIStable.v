(** What one refinement pass of RAI removes when it works on a copy of the graph. *)
From Verif Require Import Base ModelGraph Spec ModelMixed SpecMixed.

(** x may be a parent of n: it is one, or joined to it by an undirected edge *)
Definition may_precede (g : mgraph) (x n : node) : Prop := darrow g x n ∨ uline g x n.

(** some k nodes that may precede a, or k nodes that may precede b, separate a and b *)
Definition sep_found (f : node → node → nset → bool) (g : mgraph) (k : nat) (a b : node) : Prop :=
  ∃ S : nset, size S = k ∧ f a b S = true ∧
    ((∀ x, x ∈ S → may_precede g x a ∧ x ≠ b) ∨ (∀ x, x ∈ S → may_precede g x b ∧ x ≠ a)).

(** h is g without the edges between the pairs in D; the marks of the other edges are kept *)
Definition without (g : mgraph) (D : node → node → Prop) (h : mgraph) : Prop :=
  mnodes h = mnodes g ∧ ∀ a b, (darrow h a b ↔ darrow g a b ∧ ¬ D a b) ∧ (uline h a b ↔ uline g a b ∧ ¬ D a b).
