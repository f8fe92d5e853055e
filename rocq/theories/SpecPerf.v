(** Specifications for performance measures, independent of the model's loops. *)
From Coq Require Import QArith.
From Verif Require Import Base ModelGraph Spec ModelMixed SpecMixed SpecCount ModelPerf.
Local Open Scope nat_scope.

(** ** Adjacency in a graph of any class *)
Definition joined (g : agraph) (a b : node) : Prop :=
  match g with
  | APlain g => adjacent g a b
  | APdag g => pd_adj g a b ∨ uline g b a
  | APag g => ∃ k, has_mark g a k b ∨ has_mark g b k a
  end.

(** ** Structural Hamming distance *)
Definition darrow_any (g : mgraph) (a b : node) : Prop := darrow g a b ∨ darrow g b a.
(** no edge is directed both ways *)
Definition one_way (g : mgraph) : Prop := ∀ a b, darrow g a b → ¬ darrow g b a.
(** the two graphs do not agree about the pair a, b *)
Definition differ (g h : mgraph) (a b : node) : Prop :=
  ¬ ((uline g a b ↔ uline h a b) ∧ (darrow g a b ↔ darrow h a b) ∧ (darrow g b a ↔ darrow h b a)).

(** the five kinds of errors, each the number of unordered pairs of nodes with that error *)
Record shd_spec (tested true_ : mgraph) (s : shd) : Prop := {
  ss_missing : pair_count (mnodes true_) (λ a b, pd_adj true_ a b ∧ ¬ pd_adj tested a b) (sh_missing s);
  ss_extra : pair_count (mnodes true_) (λ a b, pd_adj tested a b ∧ ¬ pd_adj true_ a b) (sh_extra s);
  ss_ah_missing : pair_count (mnodes true_) (λ a b, uline tested a b ∧ darrow_any true_ a b) (ah_missing s);
  ss_ah_extra : pair_count (mnodes true_) (λ a b, darrow_any tested a b ∧ uline true_ a b) (ah_extra s);
  ss_reversed : pair_count (mnodes true_)
    (λ a b, darrow tested a b ∧ darrow true_ b a ∨ darrow tested b a ∧ darrow true_ a b) (ah_reversed s);
  ss_total : pair_count (mnodes true_) (differ tested true_) (shd_total s);
}.

(** ** Confusion counts *)
Record skel_spec (tested correct : agraph) (s : skel) : Prop := {
  sp_tp : pair_count (anodes correct) (λ a b, joined correct a b ∧ joined tested a b) (sk_tp s);
  sp_fn : pair_count (anodes correct) (λ a b, joined correct a b ∧ ¬ joined tested a b) (sk_fn s);
  sp_fp : pair_count (anodes correct) (λ a b, ¬ joined correct a b ∧ joined tested a b) (sk_fp s);
  sp_tn : pair_count (anodes correct) (λ a b, ¬ joined correct a b ∧ ¬ joined tested a b) (sk_tn s);
  sp_true : pair_count (anodes correct) (joined correct) (sk_edges s);
  sp_sum : 2 * (sk_tp s + sk_fn s + sk_fp s + sk_tn s) = size (anodes correct) * (size (anodes correct) - 1);
}.

(** the edge sets overlap, and some pair of nodes of the correct graph is not adjacent *)
Definition overlap (tested correct : agraph) : Prop :=
  ∃ a b, a ∈ anodes correct ∧ b ∈ anodes correct ∧ a ≠ b ∧ joined correct a b ∧ joined tested a b.
Definition incomplete (correct : agraph) : Prop :=
  ∃ a b, a ∈ anodes correct ∧ b ∈ anodes correct ∧ a ≠ b ∧ ¬ joined correct a b.

Definition unit_interval (q : Q) : Prop := (0 <= q)%Q ∧ (q <= 1)%Q.

(** the result of calc_skeleton_accuracy by the confusion counts *)
Record acc_spec (s : skel) (a : skel_acc) : Prop := {
  as_precision : (sa_precision a == qn (sk_tp s) / qn (sk_tp s + sk_fp s))%Q;
  as_recall : (sa_recall a == qn (sk_tp s) / qn (sk_tp s + sk_fn s))%Q;
  as_f1 : (sa_f1 a == qn (2 * sk_tp s) / qn (2 * sk_tp s + sk_fp s + sk_fn s))%Q;
  as_fpr : (sa_fpr a == qn (sk_fp s) / qn (sk_fp s + sk_tn s))%Q;
  as_fnr : (sa_fnr a == qn (sk_fn s) / qn (sk_tp s + sk_fn s))%Q;
  as_unit : ∀ q, q ∈ [sa_precision a; sa_recall a; sa_f1 a; sa_fpr a; sa_fnr a] → unit_interval q;
}.

Definition perfect (a : skel_acc) : Prop :=
  (sa_precision a == 1)%Q ∧ (sa_recall a == 1)%Q ∧ (sa_f1 a == 1)%Q ∧ (sa_fpr a == 0)%Q ∧ (sa_fnr a == 0)%Q.

(** ** Edge marks *)
(** n is the number of edge ends (a, b), a and b in V, that satisfy P *)
Definition end_count (V : nset) (P : node → node → Prop) (n : nat) : Prop :=
  ∃ S : gset (node * node), (∀ a b, (a, b) ∈ S ↔ a ∈ V ∧ b ∈ V ∧ a ≠ b ∧ P a b) ∧ size S = n.
(** the mark at b of the edge between a and b is the same in both graphs *)
Definition mark_agrees (g h : mgraph) (a b : node) : Prop := ∃ k, has_mark g a k b ∧ has_mark h a k b.
