(** Specifications for the learners of partial ancestral graphs. *)
From Verif Require Import Base ModelGraph Spec ModelMixed SpecMixed ModelPC SpecPC SpecPAG SpecPDS.

(** every question is about two different nodes of V and other nodes of V *)
Definition proper_log (V : nset) (log : clog) : Prop :=
  ∀ i j c b, (i, j, c, b) ∈ log → i ∈ V ∧ j ∈ V ∧ i ≠ j ∧ NoDup c ∧ ∀ z, z ∈ c → z ∈ V ∧ z ≠ i ∧ z ≠ j.

(** What a skeleton owes to the tests that were made: two nodes are adjacent exactly when no test separated
    them, and for any other pair the recorded set is one that did. *)
Record justified (ci : citest) (V : nset) (g : mgraph) (sep : sepset) (log : clog) : Prop := {
  ju_nodes : mnodes g = V;
  ju_wf : mg_wf g;
  ju_honest : honest ci log;
  ju_log : proper_log V log;
  ju_adj : ∀ a b, a ∈ V → b ∈ V → a ≠ b → mg_adj g a b ↔ ∀ S, ¬ tested log a b S true;
  ju_sep : ∀ a b, a ∈ V → b ∈ V → a ≠ b → ¬ mg_adj g a b →
    ∃ S, sep_get sep a b = Ok S ∧ tested log a b S true;
}.

(** the queries of [log'] after those of [log], all with n conditioning nodes; [q] says whether there were any *)
Definition asks (n : nat) (log log' : clog) (q : bool) : Prop :=
  ∃ l, log' = l ++ log ∧ (∀ i j c b, (i, j, c, b) ∈ l → length c = n) ∧ (q = true ↔ l ≠ []).

(** X is a possible-d-sep set of x in h: all nodes of X are the ends of possible-d-sep walks from x,
    all neighbours of x are in X, and so are the ends of all possible-d-sep walks with two steps *)
Record pds_set_spec (h : mgraph) (x : node) (X : nset) : Prop := {
  px_walk : ∀ v, v ∈ X → v ∈ mnodes h ∧ v ≠ x ∧ ∃ p, pds_walk h (x :: p ++ [v]) ∧ NoDup (steps (x :: p ++ [v])) ∧ x ∉ p;
  px_nb : ∀ v, mg_adj h x v → v ∈ X;
  px_two : ∀ a b, b ≠ x → pds_triple h x a b → b ∈ X;
}.

(** the answer was "dependent" for the pair given every subset of X without x and y *)
Definition dependent_given_all (log : clog) (x y : node) (X : nset) : Prop :=
  ∀ S, S ⊆ X ∖ {[x; y]} → tested log x y S false.

(** The ICD-Sep conditions for a pair i, j and a search radius r: Y has r nodes, each of them is a possible ancestor
    of i or j, and Y is closed under possible-d-sep walks from one of i and j that have at most r steps. *)
Record icd_sep (g : mgraph) (i j : node) (r : nat) (Y : nset) : Prop := {
  is_nodes : ∀ z, z ∈ Y → z ∈ mnodes g ∧ z ≠ i ∧ z ≠ j;
  is_size : size Y = r;
  is_anc : ∀ z, z ∈ Y → ∃ p, is_path (pd_edge g) z i p ∨ is_path (pd_edge g) z j p;
  is_walks : ∃ x, (x = i ∨ x = j) ∧ ∀ z, z ∈ Y →
    ∃ p, pds_walk g (x :: p ++ [z]) ∧ (∀ u, u ∈ p → u ∈ Y) ∧ length p < r;
}.

(** later queries (nearer the head of the log) have at least as many conditioning nodes *)
Definition growing (log : clog) : Prop :=
  ∀ l1 i j c b l2 i' j' c' b' l3, log = l1 ++ (i, j, c, b) :: l2 ++ (i', j', c', b') :: l3 → length c' ≤ length c.

(** the test answers according to m-separation in m *)
Definition perfect_for (m : mgraph) (ci : citest) : Prop :=
  ∀ log i j c, i ∈ mnodes m → j ∈ mnodes m → i ≠ j → NoDup c → (∀ z, z ∈ c → z ∈ mnodes m ∧ z ≠ i ∧ z ≠ j) →
    ci log i j c = true ↔ m_separated m i j (list_to_set c).

(** g says nothing wrong about m, and has all the unshielded colliders of m *)
Definition sound_for (m g : mgraph) : Prop :=
  reflects m g ∧
  ∀ a b c, mg_adj g a b → mg_adj g b c → a ≠ c → ¬ mg_adj g a c → m_collider g a b c ↔ m_collider m a b c.

(** conditioning sets in the order of their distances; None is an infinite distance *)
Definition no_farther (a b : option nat) : Prop :=
  match b with None => True | Some y => ∃ x, a = Some x ∧ x ≤ y end.
Definition nearest_first (l : list (nset * option nat)) : Prop :=
  ∀ l1 x l2 y l3, l = l1 ++ x :: l2 ++ y :: l3 → no_farther x.2 y.2.
