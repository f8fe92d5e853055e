(** Specification: how often one question is asked. *)
From Verif Require Import Base ModelGraph Spec ModelPC SpecPCCount.

(** number of queries with the same unordered pair and the same set *)
Definition asked (q : nset * nset) (log : clog) : nat := length (filter (λ e : query * bool, question e.1 = q) log).
