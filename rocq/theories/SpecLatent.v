(** Specifications for DAGs with latent nodes, independent of the modelled algorithms. *)
From Verif Require Import Base ModelGraph Spec ModelMixed SpecMixed SpecPAG.

(** no set of other observed nodes separates a and b *)
Definition inseparable (d : graph) (V : nset) (a b : node) : Prop :=
  ∀ Z : nset, Z ⊆ V ∖ {[a; b]} → ¬ d_separated d a b (elements Z).

(** m is the maximal ancestral graph of the DAG d over the observed nodes V: inseparable nodes are adjacent, with a
    tail at the ancestors of the other node and an arrowhead otherwise *)
Record mag_of (d : graph) (V : nset) (m : mgraph) : Prop := {
  mo_nodes : mnodes m = V;
  mo_circle : ∀ a b, ¬ has_mark m a Circle b;
  mo_arrow : ∀ a b, has_mark m a Directed b ↔ a ∈ V ∧ b ∈ V ∧ a ≠ b ∧ inseparable d V a b ∧ ¬ ancestor d b a;
  mo_tail : ∀ a b, has_mark m a Tail b ↔ a ∈ V ∧ b ∈ V ∧ a ≠ b ∧ inseparable d V a b ∧ ancestor d b a;
}.

(** What a graph g learned from the observed nodes V of the DAG d may assert: two nodes are adjacent when they are
    inseparable, an arrowhead at b of an edge a - b says that b is no ancestor of a, a tail that it is one, and the
    unshielded colliders are the ones of the DAG *)
Record sound_for_dag (d : graph) (V : nset) (g : mgraph) : Prop := {
  sd_nodes : mnodes g = V;
  sd_adj : ∀ a b, a ∈ V → b ∈ V → a ≠ b → mg_adj g a b ↔ inseparable d V a b;
  sd_arrow : ∀ a b, has_mark g a Directed b → ¬ ancestor d b a;
  sd_tail : ∀ a b, has_mark g a Tail b → ancestor d b a;
  sd_coll : ∀ a b c, mg_adj g a b → mg_adj g b c → a ≠ c → ¬ mg_adj g a c →
    (m_collider g a b c ↔ ¬ ancestor d b a ∧ ¬ ancestor d b c);
}.
