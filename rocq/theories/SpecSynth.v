(** Specifications for the random generators (C53, C77). *)
From Coq Require Import QArith.
From Verif Require Import Base ModelGraph Spec.
Local Open Scope nat_scope.

(** the nodes are 0..n-1 and all edges go from smaller to larger nodes *)
Definition increasing (n : nat) (g : graph) : Prop :=
  (∀ v, v ∈ gnodes g ↔ v < n) ∧ ∀ a b, edge g a b → a < b ∧ b < n.

(** the number of pairs a < b < n *)
Definition n_pairs (n : nat) : nat := n * (n - 1) / 2.

(** each pair a < b has a draw of its own among those numbered k..k'-1 ... *)
Definition own_draw (n k k' : nat) (ι : nat → nat → nat) : Prop :=
  (∀ a b, a < b → b < n → k ≤ ι a b < k') ∧
  (∀ a b c d, a < b → b < n → c < d → d < n → ι a b = ι c d → a = c ∧ b = d).
(** ... and is an edge exactly when the draw is below p *)
Definition decided (rnd : nat → Q) (n : nat) (p : Q) (ι : nat → nat → nat) (g : graph) : Prop :=
  ∀ a b, a < b → b < n → edge g a b ↔ (rnd (ι a b) < p)%Q.

(** randint(0, u) is between 0 and u; sample(l, k) is a list of k different positions of l, here: different elements *)
Definition randint_ok (ri : nat → nat → nat) : Prop := ∀ v u, ri v u ≤ u.
Definition sample_ok (rs : list nat → nat → list nat) : Prop :=
  ∀ l k, NoDup l → k ≤ length l → NoDup (rs l k) ∧ length (rs l k) = k ∧ ∀ x, x ∈ rs l k → x ∈ l.

(** a root with at least two children *)
Definition confounder (g : graph) (v : node) : Prop :=
  v ∈ gnodes g ∧ (∀ p, ¬ edge g p v) ∧ ∃ c d, c ≠ d ∧ edge g v c ∧ edge g v d.

Definition qsum (f : nat → Q) (l : list nat) : Q := foldr (λ x s, (f x + s)%Q) 0%Q l.

(** x solves the linear structural equations with the given noise and weights *)
Definition solves (g : graph) (noise : node → Q) (w : node → node → Q) (x : node → Q) : Prop :=
  ∀ v, v ∈ gnodes g → (x v == noise v + qsum (λ p, w v p * x p) (elements (gadj g v)))%Q.
