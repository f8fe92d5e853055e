(** Specification: a DAG, or an ancestral graph, that agrees with the answers that were given in a run. *)
From Verif Require Import Base ModelGraph Spec ModelMixed SpecMixed ModelPC SpecPC SpecPAG SpecFCI.

(** every answer that was given is the one that d gives: independent exactly when d-separated *)
Definition dag_agrees (d : graph) (log : clog) : Prop :=
  ∀ i j c b, (i, j, c, b) ∈ log → b = true ↔ d_separated d i j c.
Definition mag_agrees (m : mgraph) (log : clog) : Prop :=
  ∀ i j c b, (i, j, c, b) ∈ log → b = true ↔ m_separated m i j (list_to_set c).

(** two DAGs with the same independences, also those that were never asked for *)
Definition same_independences (d e : graph) : Prop :=
  ∀ a b Z, a ∈ gnodes d → b ∈ gnodes d → a ≠ b → (∀ z, z ∈ Z → z ∈ gnodes d ∧ z ≠ a ∧ z ≠ b) →
    d_separated d a b Z ↔ d_separated e a b Z.
