(** What a CI query is about: an unordered pair and a set. *)
From Verif Require Import Base ModelGraph Spec ModelCI.

(** the unordered pair and the conditioning set *)
Definition qkey (q : node * node * list node) : nset * nset := ({[q.1.1; q.1.2]}, list_to_set q.2).

(** a query about two different variables among 0..n-1, given other variables, none listed twice *)
Definition qvalid (n : nat) (q : node * node * list node) : Prop :=
  q.1.1 ≠ q.1.2 ∧ q.1.1 < n ∧ q.1.2 < n ∧ NoDup q.2 ∧ q.1.1 ∉ q.2 ∧ q.1.2 ∉ q.2 ∧ ∀ z, z ∈ q.2 → z < n.

(** the number of different queries with [k] conditioning variables *)
Definition distinct_queries (qs : list (node * node * list node)) (k : nat) : nat :=
  size (filter (λ p : nset * nset, size p.2 = k) (list_to_set (qkey <$> qs) : gset (nset * nset))).

(** [l] lists the number of different queries for each size of the conditioning set, 0..n-2 *)
Definition counts (n : nat) (qs : list (node * node * list node)) (l : list nat) : Prop :=
  l = distinct_queries qs <$> seq 0 (n - 1).

(** the value last stored for the query [q] ([None] if none, or deleted since).  An operation is
    a query with [Some v] (store) or [None] (delete); the list has the latest operation last. *)
Fixpoint last_stored {V} (q : node * node * list node) (ops : list (node * node * list node * option V)) (cur : option V) : option V :=
  match ops with
  | [] => cur
  | (q', v) :: ops => last_stored q ops (if decide (qkey q' = qkey q) then v else cur)
  end.

(** without the cache every query is computed and counted *)
Definition asked (qs : list (node * node * list node)) (k : nat) : nat := length (filter (λ q : (node * node * list node), length q.2 = k) qs).

Global Instance adjacent_dec g a b : Decision (adjacent g a b).
Proof. unfold adjacent, edge. apply _. Defined.

Section stat.
Context {V T : Type} (gt : V → T → bool).
(** the queries that are computed: those not retained *)
Definition op_queries (retained : graph) (ops : list (stat_op T)) : list (node * node * list node) :=
  omap (λ op, match op with Query x y zz => if bool_decide (adjacent retained x y) then None else Some (x, y, zz) | SetThreshold _ => None end) ops.

(** what a test without memory answers, the threshold being the one in force *)
Fixpoint memoryless (retained : graph) (val : nset * nset → V) (th : T) (ops : list (stat_op T)) : list bool :=
  match ops with
  | [] => []
  | Query x y zz :: ops => (if bool_decide (adjacent retained x y) then false else gt (val (qkey (x, y, zz))) th) :: memoryless retained val th ops
  | SetThreshold th' :: ops => memoryless retained val th' ops
  end.
Definition op_valid (n : nat) (op : stat_op T) : Prop := match op with Query x y zz => qvalid n (x, y, zz) | SetThreshold _ => True end.
End stat.

(** ** Cache operations *)
Section ops.
Context {V : Type}.
Definition op_query (op : cache_op V) : (node * node * list node) := match op with CSet x y zz _ => (x, y, zz) | CDel x y zz => (x, y, zz) end.
Definition op_effect (op : cache_op V) : node * node * list node * option V := match op with CSet x y zz v => (x, y, zz, Some v) | CDel x y zz => (x, y, zz, None) end.

End ops.
