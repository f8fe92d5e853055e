(** Specifications for constraint-based structure learning. *)
From Verif Require Import Base ModelGraph Spec ModelMixed SpecMixed ModelPC.

(** the log is a run of the test: each answer is what the test gives after the queries before it *)
Definition honest (ci : citest) (log : clog) : Prop :=
  ∀ l1 l2 i j c b, log = l1 ++ (i, j, c, b) :: l2 → b = ci l2 i j c.

(** the pair (in some order) was tested given exactly the nodes of S, with answer b *)
Definition tested (log : clog) (x y : node) (S : nset) (b : bool) : Prop :=
  ∃ c, (∀ z, z ∈ c ↔ z ∈ S) ∧ ((x, y, c, b) ∈ log ∨ (y, x, c, b) ∈ log).
