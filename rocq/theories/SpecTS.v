(** Specifications for causal discovery in time series. *)
From Verif Require Import Base ModelGraph Spec ModelMixed SpecMixed ModelPC SpecPC SpecPAG SpecFCI.

(** node n is variable i, t steps back *)
Definition at_ (NS : list (list node)) (t i : nat) (n : node) : Prop := ∃ l, NS !! t = Some l ∧ l !! i = Some n.
Definition in_time (NS : list (list node)) (t : nat) (n : node) : Prop := ∃ i, at_ NS t i n.

(** at least two time steps, the same number of variables in each, all names different *)
Record window (NS : list (list node)) : Prop := {
  wi_two : 2 ≤ length NS;
  wi_same : ∃ m, ∀ l, l ∈ NS → length l = m;
  wi_names : NoDup (concat NS);
}.
Definition win_nodes (NS : list (list node)) : nset := list_to_set (concat NS).

(** b is the variable a, k steps earlier *)
Definition earlier (NS : list (list node)) (k : nat) (a b : node) : Prop := ∃ t i, at_ NS t i a ∧ at_ NS (t + k) i b.

(** the pair (c, d) is the pair (a, b) at another time *)
Definition same_lag (NS : list (list node)) (a b c d : node) : Prop :=
  ∃ k, (earlier NS k a c ∧ earlier NS k b d) ∨ (earlier NS k c a ∧ earlier NS k d b).

(** a relation that does not change over time *)
Definition stationary (NS : list (list node)) (R : node → node → Prop) : Prop :=
  ∀ a b c d, same_lag NS a b c d → R a b ↔ R c d.

(** a is earlier than b *)
Definition past_of (NS : list (list node)) (a b : node) : Prop := ∃ ta tb, in_time NS ta a ∧ in_time NS tb b ∧ tb < ta.

(** Once all pairs with a node in the present have been tested marginally, the test finds a pair that is not separated yet "independent" only
    given sets that reach no further back than the two nodes. *)
Definition near (NS : list (list node)) (ci : citest) : Prop :=
  ∀ log i j c, honest ci log →
    (∀ x y, in_time NS 0 x → y ∈ win_nodes NS → x ≠ y → ∃ q, tested log x y ∅ q) →
    (∀ c', (i, j, c', true) ∉ log ∧ (j, i, c', true) ∉ log) →
    proper_log (win_nodes NS) ((i, j, c, true) :: log) → in_time NS 0 i → ci log i j c = true →
    ∀ z t, z ∈ c → in_time NS t z → ∃ t', t ≤ t' ∧ (in_time NS t' i ∨ in_time NS t' j).

(** What a skeleton owes to the tests: [A] is the initial skeleton. All queries are about a node in the present; two nodes are adjacent
    exactly when they were at first and no test separated the pair at any time, and the recorded set of any other pair that was adjacent is
    one that did, moved in time. *)
Record ts_justified (NS : list (list node)) (ci : citest) (A : node → node → Prop) (g : mgraph) (sep : sepset) (log : clog) : Prop := {
  tj_nodes : mnodes g = win_nodes NS;
  tj_wf : mg_wf g;
  tj_honest : honest ci log;
  tj_log : proper_log (win_nodes NS) log;
  tj_present : ∀ i j c b, (i, j, c, b) ∈ log → in_time NS 0 i;
  tj_stationary : stationary NS (mg_adj g);
  tj_adj : ∀ a b, mg_adj g a b ↔ A a b ∧ ∀ i j c, (i, j, c, true) ∈ log → ¬ same_lag NS i j a b ∧ ¬ same_lag NS i j b a;
  tj_sep : ∀ a b, A a b → ¬ mg_adj g a b → ∃ i j c k c', (i, j, c, true) ∈ log ∧
    (earlier NS k i a ∧ earlier NS k j b ∨ earlier NS k i b ∧ earlier NS k j a) ∧ Forall2 (earlier NS k) c c' ∧
    sep_get sep a b = Ok (list_to_set c');
}.
