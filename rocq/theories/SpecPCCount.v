(** Specification: how many questions a learner asks. *)
From Verif Require Import Base ModelGraph Spec ModelPC.

(** binomial coefficient *)
Fixpoint choose (n k : nat) : nat :=
  match n, k with
  | _, 0 => 1
  | 0, S _ => 0
  | S n, S k => choose n k + choose n (S k)
  end.

(** the question behind a query: the unordered pair and the set *)
Definition question (q : query) : nset * nset := ({[q.1.1; q.1.2]}, list_to_set q.2).
(** number of queries with k conditioning nodes *)
Definition count_size (k : nat) (log : clog) : nat := length (filter (λ q : query * bool, length q.1.2 = k) log).

(** all sets are traversed in the same order of the nodes *)
Definition consistent (o : order) : Prop := ∃ rank : nat → nat, ∀ k S l1 x l2 y l3, o k S = l1 ++ x :: l2 ++ y :: l3 → rank x < rank y.

(** the nodes adjacent to v in a DAG *)
Definition neighbours (d : graph) (v : node) : nset := gadj d v ∪ filter (λ u, v ∈ gadj d u) (gnodes d).
