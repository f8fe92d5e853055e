(** Specification for PropReach.v *)
From Verif Require Import Base ModelGraph ModelMixed Spec SpecMixed ModelPAG SpecPAG.

(** an undirected walk s --- ... --- t with at least one edge, all of whose inner nodes are in en *)
Definition und_walk (g : mgraph) (en : nset) (s t : node) : Prop :=
  ∃ p, linked (uline g) (s :: p ++ [t]) ∧ ∀ v, v ∈ p → v ∈ en.

(** the number of nodes with a property *)
Definition counts (P : node → Prop) (n : nat) : Prop := ∃ l, NoDup l ∧ length l = n ∧ ∀ v, v ∈ l ↔ P v.

(** v is in the region of A in the sub-graph V: in a circle component with a node of a pc-component of A *)
Definition region_member (g : mgraph) (vis : gset (node * node)) (V : nset) (A : list node) (v : node) : Prop :=
  ∃ x w, x ∈ A ∧ pc_member g vis V x w ∧ same_component (circ_edge g) V w v.

(** for every node x, the edges whose visibility the code tests (into a child y of x) agree with the documented ones
    (into a node z linked to x) *)
Definition vis_uniform (g : mgraph) (vis : gset (node * node)) (V : nset) : Prop := ∀ x y z w,
  pc_neighbour g vis V x y → has_mark g x Directed y → pc_linked g vis V x z → has_mark g w Directed z →
  ((w, y) ∈ vis ↔ (w, z) ∈ vis).
