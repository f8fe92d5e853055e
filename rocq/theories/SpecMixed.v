(** Specifications about mixed graphs, independent of the modelled algorithms.
    Only the data types [graph] and [mgraph] are used. *)
From Verif Require Import Base ModelGraph Spec ModelMixed.

(** the edge between a and b carries mark k at b *)
Definition has_mark (g : mgraph) (a : node) (k : mark) (b : node) : Prop := a ∈ mset g b k.

(** ** Partially directed graphs: a --> b is stored at b only, a --- b at both ends *)
Definition darrow (g : mgraph) (a b : node) : Prop := has_mark g a Directed b.
Definition uline (g : mgraph) (a b : node) : Prop := has_mark g a Tail b.
Definition pd_adj (g : mgraph) (a b : node) : Prop := uline g a b ∨ darrow g a b ∨ darrow g b a.

(** edges join two different nodes of the graph, undirected edges are stored at both ends,
    an edge is not both directed and undirected (it may be directed both ways) *)
Record pd_wf (g : mgraph) : Prop := {
  pdw_dir : ∀ a b, darrow g a b → a ∈ mnodes g ∧ b ∈ mnodes g ∧ a ≠ b;
  pdw_und : ∀ a b, uline g a b → a ∈ mnodes g ∧ b ∈ mnodes g ∧ a ≠ b;
  pdw_sym : ∀ a b, uline g a b → uline g b a;
  pdw_one : ∀ a b, uline g a b → ¬ darrow g a b;
}.

(** same nodes and the same directed and undirected edges *)
Definition pd_same (g h : mgraph) : Prop :=
  mnodes g = mnodes h ∧ ∀ a b, (darrow g a b ↔ darrow h a b) ∧ (uline g a b ↔ uline h a b).

(** same nodes and the same adjacencies *)
Definition pd_same_skeleton (g h : mgraph) : Prop :=
  mnodes g = mnodes h ∧ ∀ a b, pd_adj g a b ↔ pd_adj h a b.

(** ** DAGs: skeletons, unshielded colliders, extensions *)
Definition same_skeleton (d e : graph) : Prop :=
  gnodes d = gnodes e ∧ ∀ a b, adjacent d a b ↔ adjacent e a b.

(** a --> c <-- b with a and b different and not adjacent *)
Definition v_structure (d : graph) (a c b : node) : Prop :=
  edge d a c ∧ edge d b c ∧ a ≠ b ∧ ¬ adjacent d a b.

Definition same_v_structures (d e : graph) : Prop :=
  ∀ a c b, v_structure d a c b ↔ v_structure e a c b.

(** d is a DAG with the skeleton of g, containing the directed edges of g, whose unshielded
    colliders are all directed in g already *)
Record extends (d : graph) (g : mgraph) : Prop := {
  ext_acyclic : acyclic d;
  ext_nodes : gnodes d = mnodes g;
  ext_skel : ∀ a b, adjacent d a b ↔ pd_adj g a b;
  ext_dir : ∀ a b, darrow g a b → edge d a b;
  ext_vstr : ∀ a c b, v_structure d a c b → darrow g a c ∧ darrow g b c;
}.

(** ** The orientation rules: when rule i orients x --- y into x --> y *)
Definition r1_pattern (g : mgraph) (x y : node) : Prop :=
  ∃ z, darrow g z x ∧ ¬ pd_adj g z y.
Definition r2_pattern (g : mgraph) (x y : node) : Prop :=
  ∃ z, darrow g x z ∧ darrow g z y.
Definition r3_pattern (g : mgraph) (x y : node) : Prop :=
  ∃ w z, uline g w x ∧ uline g z x ∧ darrow g w y ∧ darrow g z y ∧ w ≠ z ∧ ¬ pd_adj g w z.
(** as documented *)
Definition r4_documented (g : mgraph) (x y : node) : Prop :=
  ∃ w z, darrow g w z ∧ darrow g z y ∧ pd_adj g z x ∧ uline g w x ∧ w ≠ y ∧ ¬ pd_adj g w y.
(** as coded: the condition on w and y is not tested *)
Definition r4_pattern (g : mgraph) (x y : node) : Prop :=
  ∃ w z, darrow g w z ∧ darrow g z y ∧ pd_adj g z x ∧ uline g w x.

Definition rule_pattern (i : nat) : mgraph → node → node → Prop :=
  match i with
  | 1 => r1_pattern | 2 => r2_pattern | 3 => r3_pattern | 4 => r4_pattern
  | _ => λ _ _ _, False
  end.

(** no rule of the list orients an edge at a node of V *)
Definition no_rule_applies (g : mgraph) (rules : list nat) (V : nset) : Prop :=
  ∀ i x y, i ∈ rules → y ∈ V → uline g x y → ¬ rule_pattern i g x y.

(** g' is g with some undirected edges turned into directed ones *)
Record orientation_of (g g' : mgraph) : Prop := {
  or_nodes : mnodes g' = mnodes g;
  or_dir : ∀ a b, darrow g a b → darrow g' a b;
  or_new : ∀ a b, darrow g' a b → darrow g a b ∨ uline g a b;
  or_und : ∀ a b, uline g' a b ↔ uline g a b ∧ ¬ darrow g' a b ∧ ¬ darrow g' b a;
  or_once : ∀ a b, uline g a b → ¬ (darrow g' a b ∧ darrow g' b a);
}.

(** ** Mixed graphs with a mark at both ends of every edge (PAGs) *)
Record mg_wf (g : mgraph) : Prop := {
  mgw_in : ∀ a k b, has_mark g a k b → a ∈ mnodes g ∧ b ∈ mnodes g ∧ a ≠ b;
  mgw_both : ∀ a k b, has_mark g a k b → ∃ j, has_mark g b j a;
  mgw_one : ∀ a k j b, has_mark g a k b → has_mark g a j b → k = j;
}.

Definition mg_adj (g : mgraph) (a b : node) : Prop := ∃ k, has_mark g a k b.

(** same nodes, same marks *)
Definition mg_same (g h : mgraph) : Prop :=
  mnodes g = mnodes h ∧ ∀ a k b, has_mark g a k b ↔ has_mark h a k b.

(** a and b are the two nodes i and j *)
Definition is_pair (a b i j : node) : Prop := (a = i ∧ b = j) ∨ (a = j ∧ b = i).

(** an edge with one of the given (mark at the near end, mark at the far end) types;
    without types, any mark at the near end *)
Definition typed_edge (g : mgraph) (es : option (list (mark * mark))) (a b : node) : Prop :=
  match es with
  | None => ∃ k, has_mark g b k a
  | Some es => ∃ k j, (k, j) ∈ es ∧ has_mark g b k a ∧ has_mark g a j b
  end.

(** b can be reached from a by a non-empty path whose nodes after a lie in the pool *)
Definition reachable_in (R : node → node → Prop) (pool : nset) (a b : node) : Prop :=
  tc (λ u v, R u v ∧ v ∈ pool) a b.

(** nodes of V joined by a path inside V *)
Definition same_component (R : node → node → Prop) (V : nset) (a b : node) : Prop :=
  a ∈ V ∧ b ∈ V ∧ rtc (λ u v, R u v ∧ v ∈ V) a b.

(** a partition of V into the classes of the relation *)
Definition components (R : node → node → Prop) (V : nset) (l : list nset) : Prop :=
  (∀ v, v ∈ V ↔ ∃ B, B ∈ l ∧ v ∈ B) ∧
  (∀ i j B C v, l !! i = Some B → l !! j = Some C → v ∈ B → v ∈ C → i = j) ∧
  (∀ B, B ∈ l → B ≠ ∅) ∧
  (∀ B a, B ∈ l → a ∈ B → ∀ b, b ∈ B ↔ same_component R V a b).
