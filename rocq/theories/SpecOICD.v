(** Specifications for the learner with a given causal order. *)
From Verif Require Import Base ModelGraph ModelMixed SpecMixed ModelPC SpecPC.

(** a precedes b in the list *)
Definition before (ord : list node) (a b : node) : Prop := ∃ l1 l2 l3, ord = l1 ++ a :: l2 ++ b :: l3.

(** every query is about a node and a later one, given nodes that precede the later one *)
Definition ordered_log (ord : list node) (log : clog) : Prop :=
  ∀ i j c b, (i, j, c, b) ∈ log → before ord i j ∧ ∀ z, z ∈ c → before ord z j.

(** no query has more than B conditioning nodes *)
Definition max_size (B : nat) (log : clog) : Prop := ∀ i j c b, (i, j, c, b) ∈ log → length c ≤ B.

(** every edge has an arrowhead at its later end *)
Definition forward (ord : list node) (g : mgraph) : Prop := ∀ a b, before ord a b → mg_adj g a b → has_mark g a Directed b.
