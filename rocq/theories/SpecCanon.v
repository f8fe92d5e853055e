(** Specifications for comparing two runs of the learners of partial ancestral graphs. *)
From Verif Require Import Base ModelGraph Spec ModelMixed SpecMixed ModelPC ModelPAG SpecPAG ModelFCI SpecFCI.

(** R is the outcome of learning a graph over V with the test ci: by FCI or by ICD with the options is_selection_bias = sb
    and is_tail_completeness = tc, with any iteration orders, any use of precalculated conditioning sets and any large
    enough bound on the loops *)
Inductive learned (ci : citest) (sb tc : bool) (V : nset) : res mgraph → Prop :=
  | by_fci o fuel : iter_ok o → size V * size V + size V + 2 < fuel →
      learned ci sb tc V (r ← fci_learn o ci sb tc fuel V; Ok (ls_graph r.1))
  | by_icd o fuel precalc : iter_ok o → size V * size V + size V + 2 < fuel →
      learned ci sb tc V (t ← icd_learn o ci sb tc fuel precalc (icd_init o V); Ok (ls_graph (ic_ls t))).

(** two graphs have the same nodes and the same marks at the same ends of the same edges *)
Definition same_marks (g g' : mgraph) : Prop :=
  mnodes g = mnodes g' ∧ ∀ a k b, has_mark g a k b ↔ has_mark g' a k b.

(** m and m' imply the same independences *)
Definition same_separations (m m' : mgraph) : Prop :=
  mnodes m = mnodes m' ∧ ∀ x y (Z : nset), x ∈ mnodes m → y ∈ mnodes m → x ≠ y → Z ⊆ mnodes m ∖ {[x; y]} → m_separated m x y Z ↔ m_separated m' x y Z.

(** the DAGs d and d' imply the same independences among the nodes V *)
Definition same_over (V : nset) (d d' : graph) : Prop :=
  ∀ x y (Z : nset), x ∈ V → y ∈ V → x ≠ y → Z ⊆ V ∖ {[x; y]} → d_separated d x y (elements Z) ↔ d_separated d' x y (elements Z).

(** g is the CPDAG p in the notation of ancestral graphs: the same adjacencies, an arrowhead for every directed edge of p
    and for nothing else, o-o for the undirected edges; tails are put on directed edges only *)
Record pag_of_cpdag (p g : mgraph) : Prop := {
  pc_nodes_eq : mnodes g = mnodes p;
  pc_adj_eq : ∀ a b, mg_adj g a b ↔ pd_adj p a b;
  pc_arrows : ∀ a b, has_mark g a Directed b ↔ darrow p a b;
  pc_tails : ∀ a b, has_mark g b Tail a → darrow p a b;
  pc_circles : ∀ a b, has_mark g a Circle b ∧ has_mark g b Circle a ↔ uline p a b;
}.
