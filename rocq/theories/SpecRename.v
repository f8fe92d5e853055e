(** Specifications for renaming the nodes. *)
From Verif Require Import Base ModelGraph Spec ModelMixed SpecMixed ModelPC ModelPAG SpecPAG.

(** ** Renaming of the nodes: π is a one-to-one renaming with inverse ρ *)
Definition bijection (π ρ : node → node) : Prop := (∀ a, ρ (π a) = a) ∧ (∀ a, π (ρ a) = a).
(** g' is g with the nodes renamed by π *)
Definition renamed (π : node → node) (g g' : mgraph) : Prop :=
  (∀ a, a ∈ mnodes g ↔ π a ∈ mnodes g') ∧ ∀ a k b, has_mark g a k b ↔ has_mark g' (π a) k (π b).
(** m' implies the independences of m, with the nodes renamed by π *)
Definition renamed_separations (π : node → node) (m m' : mgraph) : Prop :=
  (∀ a, a ∈ mnodes m ↔ π a ∈ mnodes m') ∧
  ∀ x y (Z : nset), x ∈ mnodes m → y ∈ mnodes m → x ≠ y → Z ⊆ mnodes m ∖ {[x; y]} → m_separated m x y Z ↔ m_separated m' (π x) (π y) (set_map π Z).
(** the same for DAGs with the observed nodes V *)
Definition renamed_over (π : node → node) (V V' : nset) (d d' : graph) : Prop :=
  (∀ a, a ∈ V ↔ π a ∈ V') ∧
  ∀ x y (Z : nset), x ∈ V → y ∈ V → x ≠ y → Z ⊆ V ∖ {[x; y]} → d_separated d x y (elements Z) ↔ d_separated d' (π x) (π y) (elements (set_map (D:=nset) π Z)).
(** d' is d with the nodes renamed by π *)
Definition renamed_dag (π : node → node) (d d' : graph) : Prop :=
  (∀ a, a ∈ gnodes d ↔ π a ∈ gnodes d') ∧ ∀ a b, edge d a b ↔ edge d' (π a) (π b).
