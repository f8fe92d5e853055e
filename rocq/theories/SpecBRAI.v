(** Specifications for B-RAI. *)
From Coq Require Import QArith.
From Verif Require Import Base ModelGraph Spec ModelMixed SpecMixed ModelPC ModelRAI ModelBRAI.
Local Open Scope nat_scope.

(** log-probabilities: equality and order, None is minus infinity *)
Definition score_eq (a b : score) : Prop :=
  match a, b with Some a, Some b => (a == b)%Q | None, None => True | _, _ => False end.
Definition score_le (a b : score) : Prop :=
  match a, b with Some a, Some b => (a <= b)%Q | None, _ => True | Some _, None => False end.

(** a leaf: endogenous and exogenous nodes, graph, score *)
Notation leaf := (nset * nset * mgraph * score)%type.
(** the score of a set of leaves is the sum *)
Definition total (l : list leaf) : score := foldr (λ x, score_add x.2) (Some 0%Q) l.

(** [picks t l]: choosing one hypothesis at every node of the tree leads to the leaves l *)
Inductive picks : ggt → list leaf → Prop :=
  | picks_leaf en ex g sc : picks (GLeaf en ex g sc) [(en, ex, g, sc)]
  | picks_node en ex cs ts d ls l : (ts, d) ∈ cs → Forall2 picks ts ls → picks d l → picks (GNode en ex cs) (concat ls ++ l).

(** the edges of the graph of the leaf that end in an endogenous node and start in a node of the leaf *)
Definition leaf_arrow (x : leaf) (a b : node) : Prop :=
  let '(en, ex, g, _) := x in b ∈ en ∧ a ∈ en ∪ ex ∧ darrow g a b.
Definition leaf_line (x : leaf) (a b : node) : Prop :=
  let '(en, ex, g, _) := x in (b ∈ en ∧ a ∈ en ∪ ex ∨ a ∈ en ∧ b ∈ en ∪ ex) ∧ uline g a b.

(** [p] is the union of the leaves *)
Definition union_of (V : nset) (l : list leaf) (p : mgraph) : Prop :=
  mnodes p = V ∧
  (∀ a b, darrow p a b ↔ ∃ x, x ∈ l ∧ leaf_arrow x a b) ∧
  (∀ a b, uline p a b ↔ ∃ x, x ∈ l ∧ leaf_line x a b).

(** the score of a leaf is that of a DAG which extends the edges of the leaf (for its endogenous nodes), and minus infinity
    if there is no such DAG *)
Definition leaf_scored (V : nset) (score_of : graph → nset → Q) (x : leaf) : Prop :=
  ∃ p, union_of V [x] p ∧
    match x.2 with
    | None => ¬ ∃ d, extends d p
    | Some q => ∃ d, gnodes d = V ∧ extends d p ∧ q = score_of d x.1.1.1
    end.

(** the next K samples, each taken by one call of sample_cpdag *)
Fixpoint samples (o : order) (lf : nat) (V : nset) (pick : nat → list score → nat) (temp : Q) (t : ggt)
    (K n : nat) : res (list mgraph) :=
  match K with
  | 0 => Ok []
  | S K => r ← sample_cpdag o lf V pick temp t n;
           l ← samples o lf V pick temp t K r.2;
           Ok (r.1.1 :: l)
  end.

Global Instance pd_adj_decision g a b : Decision (pd_adj g a b).
Proof. unfold pd_adj, uline, darrow, has_mark. apply _. Defined.
(** in how many graphs of the list are a and b adjacent *)
Definition adj_count (l : list mgraph) (a b : node) : nat := length (filter (λ g, pd_adj g a b) l).

(** the list without its first element, with its last element twice *)
Definition first_lost (l : list mgraph) : list mgraph :=
  match last l with None => [] | Some g => tail l ++ [g] end.
