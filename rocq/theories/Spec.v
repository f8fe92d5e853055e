(** Specifications of graph notions, independent of the modelled algorithms.
    Only the graph data type of the model is used. *)
From Verif Require Import Base ModelGraph.

(** ** Directed graphs *)

(** there is an edge a --> b *)
Definition edge (g : graph) (a b : node) : Prop := a ∈ gadj g b.

(** every edge joins two nodes of the graph (what add_edges guarantees) *)
Definition wf_graph (g : graph) : Prop := ∀ a b, edge g a b → a ∈ gnodes g ∧ b ∈ gnodes g.

(** there is a directed path a --> ... --> d, possibly empty *)
Definition ancestor (g : graph) (a d : node) : Prop := rtc (edge g) a d.

(** no directed cycle (of any length, self loops included) *)
Definition acyclic (g : graph) : Prop := ∀ a, ¬ tc (edge g) a a.

Definition adjacent (g : graph) (a b : node) : Prop := edge g a b ∨ edge g b a.

(** two graphs with the same nodes and the same edges *)
Definition same_graph (g h : graph) : Prop := gnodes g = gnodes h ∧ ∀ n, gadj g n = gadj h n.

(** ** Paths *)

(** consecutive elements of the list are related *)
Definition linked (adj : node → node → Prop) (p : list node) : Prop :=
  ∀ l1 a b l2, p = l1 ++ a :: b :: l2 → adj a b.

(** a simple path from x to y *)
Definition is_path (adj : node → node → Prop) (x y : node) (p : list node) : Prop :=
  head p = Some x ∧ last p = Some y ∧ NoDup p ∧ linked adj p.

(** ** d-separation (Pearl): a path is active given Z when every collider on it has a
    descendant (or itself) in Z and every other inner node is outside Z *)
Definition collider (g : graph) (a b c : node) : Prop := edge g a b ∧ edge g c b.

Definition active (g : graph) (Z : list node) (p : list node) : Prop :=
  ∀ l1 a b c l2, p = l1 ++ a :: b :: c :: l2 →
    (collider g a b c → ∃ z, z ∈ Z ∧ ancestor g b z) ∧
    (¬ collider g a b c → b ∉ Z).

Definition d_separated (g : graph) (x y : node) (Z : list node) : Prop :=
  ¬ ∃ p, is_path (adjacent g) x y p ∧ active g Z p.

(** ** Undirected graphs *)
Definition symmetric_graph (g : graph) : Prop := ∀ a b, edge g a b → edge g b a.

(** s reaches t along edges, never entering a node of V *)
Definition reaches_avoiding (g : graph) (V : nset) (s t : node) : Prop :=
  ∃ p, is_path (edge g) s t p ∧ ∀ v, v ∈ p → v ≠ s → v ∉ V.

(** ** Topological orders *)
(** a comes (strictly) before b in the list *)
Definition before {A} (l : list A) (a b : A) : Prop :=
  ∃ l1 l2 l3, l = l1 ++ a :: l2 ++ b :: l3.

Definition topological_order (g : graph) (V : nset) (l : list node) : Prop :=
  NoDup l ∧ (∀ n, n ∈ l ↔ n ∈ V) ∧
  ∀ a b, a ∈ V → b ∈ V → edge g a b → before l a b.

(** ** Sub-graphs induced by a set of nodes *)
(** an edge inside V *)
Definition sub_edge (g : graph) (V : nset) (a b : node) : Prop := edge g a b ∧ a ∈ V ∧ b ∈ V.


(** the groups partition V and edges go from earlier to later groups *)
Definition group_order (g : graph) (V : nset) (gs : list nset) : Prop :=
  (∀ n, n ∈ V ↔ ∃ i G, gs !! i = Some G ∧ n ∈ G) ∧
  (∀ n i j G G', gs !! i = Some G → gs !! j = Some G' → n ∈ G → n ∈ G' → i = j) ∧
  (∀ a b i j G G', gs !! i = Some G → gs !! j = Some G' → a ∈ G → b ∈ G' → edge g a b → i < j).

(** adjacency inside V, and connectivity of the sub-graph induced by V *)
Definition conn_edge (g : graph) (V : nset) (a b : node) : Prop := adjacent g a b ∧ a ∈ V ∧ b ∈ V.
Definition weakly_connected (g : graph) (V : nset) : Prop :=
  ∀ a b, a ∈ V → b ∈ V → rtc (conn_edge g V) a b.

