(** Specifications for PAGs, independent of the modelled algorithms.  Only the data type [mgraph] and
    the notions of SpecMixed.v are used. *)
From Verif Require Import Base ModelGraph ModelMixed ModelPC Spec SpecMixed.

(** ** Edges and paths *)
(** a could be a parent of b: adjacent, no arrowhead at a, no tail at b *)
Definition pd_edge (g : mgraph) (a b : node) : Prop :=
  mg_adj g a b ∧ ¬ has_mark g b Directed a ∧ ¬ has_mark g a Tail b.
(** a --> b *)
Definition dir_edge (g : mgraph) (a b : node) : Prop := has_mark g a Directed b ∧ has_mark g b Tail a.
(** a <-> b *)
Definition bidir_edge (g : mgraph) (a b : node) : Prop := has_mark g a Directed b ∧ has_mark g b Directed a.
(** a --- b *)
Definition und_edge (g : mgraph) (a b : node) : Prop := has_mark g a Tail b ∧ has_mark g b Tail a.
(** a o-o b *)
Definition circ_edge (g : mgraph) (a b : node) : Prop := has_mark g a Circle b ∧ has_mark g b Circle a.

(** the ends of every consecutive triple are not adjacent *)
Definition uncovered (g : mgraph) (p : list node) : Prop :=
  ∀ l1 a b c l2, p = l1 ++ a :: b :: c :: l2 → ¬ mg_adj g a c.

(** p = nx, ..., ny is a path with edges in E such that x, p, y is simple and uncovered;
    the inner nodes of p are taken from en *)
Definition uncovered_path_spec (g : mgraph) (E : node → node → Prop) (en : nset) (x y nx ny : node) (p : list node) : Prop :=
  ∃ mid, p = nx :: mid ++ [ny] ∧ (∀ v, v ∈ mid → v ∈ en) ∧ NoDup (x :: p ++ [y]) ∧ linked E p ∧ uncovered g (x :: p ++ [y]).

(** discriminating path d, q, b, c for b (Zhang 2008): d and c are not adjacent, every node of q
    (there is at least one) is a parent of c and a collider on the path *)
Record discriminating (g : mgraph) (d : node) (q : list node) (b c : node) : Prop := {
  dp_some : q ≠ [];
  dp_simple : NoDup (d :: q ++ [b; c]);
  dp_linked : linked (mg_adj g) (d :: q ++ [b; c]);
  dp_ends : ¬ mg_adj g d c;
  dp_par : ∀ v, v ∈ q → dir_edge g v c;
  dp_coll : ∀ l1 u v w l2, d :: q ++ [b] = l1 ++ u :: v :: w :: l2 → has_mark g u Directed v ∧ has_mark g w Directed v;
}.

(** ** Orientation *)
(** g' has the edges of g; circles may have been replaced, arrowheads have been kept *)
Record refines (g g' : mgraph) : Prop := {
  rf_wf : mg_wf g';
  rf_nodes : mnodes g' = mnodes g;
  rf_adj : ∀ a b, mg_adj g' a b ↔ mg_adj g a b;
  rf_circle : ∀ a b, has_mark g' a Circle b → has_mark g a Circle b;
  rf_arrow : ∀ a b, has_mark g a Directed b → has_mark g' a Directed b;
}.

(** The patterns of the orientation rules as documented (Zhang 2008): when does rule i have something to
    orient?  Arguments are named as in the documentation of the rules. *)
Definition r1_applies (g : mgraph) : Prop :=
  ∃ a b c, has_mark g a Directed b ∧ has_mark g c Circle b ∧ ¬ mg_adj g a c.
Definition r2_applies (g : mgraph) : Prop :=
  ∃ a b c, has_mark g a Circle c ∧
    ((has_mark g a Directed b ∧ dir_edge g b c) ∨ (dir_edge g a b ∧ has_mark g b Directed c)).
Definition r3_applies (g : mgraph) : Prop :=
  ∃ a b c d, has_mark g a Directed b ∧ has_mark g c Directed b ∧ has_mark g a Circle d ∧ has_mark g c Circle d ∧
    a ≠ c ∧ ¬ mg_adj g a c ∧ has_mark g d Circle b.
Definition r4_applies (g : mgraph) : Prop :=
  ∃ d q b c, discriminating g d q b c ∧ has_mark g c Circle b.
Definition r5_applies (g : mgraph) : Prop :=
  ∃ a b x p y, circ_edge g a b ∧ circ_edge g a x ∧ circ_edge g y b ∧ x ≠ y ∧
    uncovered_path_spec g (circ_edge g) (mnodes g) a b x y p ∧ ¬ mg_adj g a y ∧ ¬ mg_adj g x b.
Definition r6_applies (g : mgraph) : Prop :=
  ∃ a b c, und_edge g a b ∧ has_mark g c Circle b.
Definition r7_applies (g : mgraph) : Prop :=
  ∃ a b c, has_mark g a Circle b ∧ has_mark g b Tail a ∧ has_mark g c Circle b ∧ a ≠ c ∧ ¬ mg_adj g a c.
Definition r8_applies (g : mgraph) : Prop :=
  ∃ a b c, has_mark g b Tail a ∧ (has_mark g a Directed b ∨ has_mark g a Circle b) ∧ dir_edge g b c ∧
    has_mark g a Directed c ∧ has_mark g c Circle a.
Definition r9_applies (g : mgraph) : Prop :=
  ∃ a b d c p, has_mark g a Directed c ∧ has_mark g c Circle a ∧ pd_edge g a b ∧ pd_edge g d c ∧ ¬ mg_adj g b c ∧ b ≠ d ∧
    uncovered_path_spec g (pd_edge g) (mnodes g) a c b d p.
(** rule 10 as documented: uncovered possibly directed paths a, e, ..., b and a, f, ..., d *)
Definition pd_path (g : mgraph) (a e b : node) (p : list node) : Prop :=
  head p = Some e ∧ last p = Some b ∧ NoDup (a :: p) ∧ linked (pd_edge g) (a :: p) ∧ uncovered g (a :: p).
Definition r10_pattern (g : mgraph) (a c : node) : Prop :=
  has_mark g a Directed c ∧ has_mark g c Circle a ∧
  ∃ b d e f p q, dir_edge g b c ∧ dir_edge g d c ∧ b ≠ d ∧ pd_path g a e b p ∧ pd_path g a f d q ∧
    e ≠ f ∧ ¬ mg_adj g e f ∧ c ∉ p ∧ c ∉ q.
Definition r10_applies (g : mgraph) : Prop := ∃ a c, r10_pattern g a c.

Definition rule_applies (i : nat) (g : mgraph) : Prop :=
  match i with
  | 1 => r1_applies g | 2 => r2_applies g | 3 => r3_applies g | 4 => r4_applies g | 5 => r5_applies g
  | 6 => r6_applies g | 7 => r7_applies g | 8 => r8_applies g | 9 => r9_applies g | 10 => r10_applies g
  | _ => False
  end.

(** ** Ancestral graphs (Richardson & Spirtes 2002) *)
Record ancestral (m : mgraph) : Prop := {
  an_wf : mg_wf m;
  an_marks : ∀ a b, ¬ has_mark m a Circle b;
  (** no directed cycle, no almost directed cycle *)
  an_cycle : ∀ a b, tc (dir_edge m) a b → ¬ has_mark m b Directed a;
  (** no arrowhead at a node with an undirected edge *)
  an_und : ∀ a b c, und_edge m a b → ¬ has_mark m c Directed b;
}.

(** ** m-separation: colliders have a descendant in Z, other inner nodes are outside Z *)
Definition m_collider (m : mgraph) (a b c : node) : Prop := has_mark m a Directed b ∧ has_mark m c Directed b.
Definition m_active (m : mgraph) (Z : nset) (p : list node) : Prop :=
  ∀ l1 a b c l2, p = l1 ++ a :: b :: c :: l2 →
    (m_collider m a b c → ∃ z, z ∈ Z ∧ rtc (dir_edge m) b z) ∧ (¬ m_collider m a b c → b ∉ Z).
Definition m_separated (m : mgraph) (x y : node) (Z : nset) : Prop :=
  ¬ ∃ p, is_path (mg_adj m) x y p ∧ m_active m Z p.

(** ** Agreement between a partially oriented graph g and an ancestral graph m with separation sets S *)
Record compat (m g : mgraph) (S : node → node → option nset) : Prop := {
  cp_anc : ancestral m;
  cp_nodes : mnodes m = mnodes g;
  cp_adj : ∀ a b, mg_adj m a b ↔ mg_adj g a b;
  (** what g asserts holds in m *)
  cp_marks : ∀ a k b, k ≠ Circle → has_mark g a k b → has_mark m a k b;
  (** the unshielded colliders of m are oriented in g *)
  cp_coll : ∀ a b c, a ≠ c → ¬ mg_adj m a c → m_collider m a b c → has_mark g a Directed b;
  (** the separation sets decide colliders on discriminating paths correctly *)
  cp_disc : ∀ d q b c Z, discriminating m d q b c → S d c = Some Z →
     (b ∈ Z ↔ ∃ a, last q = Some a ∧ ¬ m_collider m a b c);
}.

(** separation sets that separate the non-adjacent nodes of m *)
Definition separating (m : mgraph) (S : node → node → option nset) : Prop :=
  ∀ x y, x ∈ mnodes m → y ∈ mnodes m → x ≠ y → ¬ mg_adj m x y →
    ∃ Z, S x y = Some Z ∧ x ∉ Z ∧ y ∉ Z ∧ m_separated m x y Z.

(** directed and bi-directed edges only, no directed cycle *)
Record dir_mixed (g : mgraph) : Prop := {
  dm_wf : mg_wf g;
  dm_marks : ∀ a b, ¬ has_mark g a Circle b;
  dm_und : ∀ a b, ¬ und_edge g a b;
  dm_acyclic : ∀ a, ¬ tc (dir_edge g) a a;
}.

(** g is the directed graph d: the same nodes, a --> b for every edge of d, nothing else *)
Definition same_edges (g : mgraph) (d : graph) : Prop :=
  mnodes g = gnodes d ∧ (∀ a b, has_mark g a Directed b ↔ edge d a b) ∧ (∀ a b, has_mark g a Tail b ↔ edge d b a) ∧ (∀ a b, ¬ has_mark g a Circle b).

(** a and b are adjacent and some c adjacent to b but not to a was separated from a without b *)
Definition sep_collider (g : mgraph) (S : node → node → option nset) (a b : node) : Prop :=
  ∃ c Z, mg_adj g a b ∧ mg_adj g c b ∧ a ≠ c ∧ ¬ mg_adj g a c ∧ S a c = Some Z ∧ b ∉ Z.

(** what g asserts holds in m *)
Record reflects (m g : mgraph) : Prop := {
  rl_nodes : mnodes m = mnodes g;
  rl_adj : ∀ a b, mg_adj m a b ↔ mg_adj g a b;
  rl_marks : ∀ a k b, k ≠ Circle → has_mark g a k b → has_mark m a k b;
}.

(** ** Visible edges (Zhang 2008, definition 8): a --> b, and a collider path c, q, a into a, where c is
    not adjacent to b and every node of q is a parent of b *)
Record visible_by (g : mgraph) (a b c : node) (q : list node) : Prop := {
  vb_simple : NoDup (c :: q ++ [a; b]);
  vb_linked : linked (mg_adj g) (c :: q ++ [a]);
  vb_ends : ¬ mg_adj g c b;
  vb_par : ∀ v, v ∈ q → dir_edge g v b;
  vb_coll : ∀ l1 u v w l2, c :: q ++ [a] = l1 ++ u :: v :: w :: l2 → has_mark g u Directed v ∧ has_mark g w Directed v;
  vb_into : ∀ w, last (c :: q) = Some w → has_mark g w Directed a;
}.
Definition visible (g : mgraph) (a b : node) : Prop := dir_edge g a b ∧ ∃ c q, visible_by g a b c q.

(** ** Buckets *)
(** a list of sets such that every edge between two of them has an arrowhead at the later one *)
Definition bucket_order (g : mgraph) (l : list nset) : Prop :=
  ∀ i j B C a b, i < j → l !! i = Some B → l !! j = Some C → a ∈ B → b ∈ C → mg_adj g a b → has_mark g a Directed b.

(** ** Union of the pc-components of a node, as documented (588-613); vis: the visible edges, V: the sub-graph *)
Definition pc_neighbour (g : mgraph) (vis : gset (node * node)) (V : nset) (x n : node) : Prop :=
  n ∈ V ∧ mg_adj g n x ∧ (x, n) ∉ vis ∧ (n, x) ∉ vis.
Definition pc_linked (g : mgraph) (vis : gset (node * node)) (V : nset) (x z : node) : Prop :=
  ∃ y, pc_neighbour g vis V x y ∧ has_mark g x Directed y ∧ same_component (bidir_edge g) V y z.
Definition pc_member (g : mgraph) (vis : gset (node * node)) (V : nset) (x w : node) : Prop :=
  w = x ∨ pc_neighbour g vis V x w ∨ pc_linked g vis V x w ∨
  (w ∈ V ∧ ∃ z, pc_linked g vis V x z ∧ z ≠ x ∧ has_mark g w Directed z ∧ (w, z) ∉ vis).

(** ** Separation sets and rules *)
Definition sep_fun (sep : sepset) (x y : node) : option nset := match sep_get sep x y with Ok Z => Some Z | _ => None end.
(** every pair of non-adjacent nodes has a separation set *)
Definition sep_total (sep : sepset) (g : mgraph) : Prop :=
  ∀ x y, x ∈ mnodes g → y ∈ mnodes g → x ≠ y → ¬ mg_adj g x y → ∃ Z, sep_get sep x y = Ok Z.
Definition rule_no (i : nat) : Prop := 1 ≤ i ≤ 10.
(** no rule of the list other than rule 10 has anything to orient *)
Definition settled (rules : list nat) (g : mgraph) : Prop := ∀ i, i ∈ rules → i ≠ 10 → ¬ rule_applies i g.
