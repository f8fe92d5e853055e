(** Specification: data distributed according to a Bayesian network over a DAG. *)
From Coq Require Import QArith Qreals Reals.
From Verif Require Import Base ModelGraph Spec ModelPC ModelCI SpecCI ModelCMI SpecCMI.
Local Open Scope nat_scope.

(** the configuration r with another value of v *)
Definition setv (r : nat → nat) (v a : nat) : nat → nat := λ u, if decide (u = v) then a else r u.

(** f is a conditional probability table of v given its parents in d: it looks at the values of v and of the parents only, and for
    any values of the parents it sums up to 1 over the K values of v *)
Definition cond_table (d : graph) (K v : nat) (f : (nat → nat) → R) : Prop :=
  (∀ r r', (∀ u, u = v ∨ edge d u v → r u = r' u) → f r = f r') ∧
  (∀ r, foldr Rplus 0%R ((λ a, f (setv r v a)) <$> seq 0 K) = 1%R).

(** the records over the variables 0, ..., nv-1 with values below K are distributed according to a Bayesian network with structure d:
    the total weight of the records with configuration r is the product of the total weight and the table entries of r *)
Definition bayes_net (d : graph) (nv K : nat) (recs : list (list nat * R)) : Prop :=
  (∀ p v, p ∈ recs → v < nv → p.1 !!! v < K) ∧
  ∃ f : nat → (nat → nat) → R, (∀ v, v < nv → cond_table d K v (f v)) ∧
    ∀ r, (∀ v, v < nv → r v < K) →
      mass recs (seq 0 nv) (r <$> seq 0 nv) =
        (foldr Rplus 0 (snd <$> recs) * foldr Rmult 1 ((λ v, f v r) <$> seq 0 nv))%R.

(** a CondIndepCMI object as the test of a learner (cond_indep_tests.py 349-363): its answer to a query after the queries of the log,
    which the object has answered before (latest first); cache and counters are on, no edges are retained *)
Definition cmi_test (data : list (list nat)) (ws : option (list Q)) (nv : nat) (th : R) : citest := λ log x y zz,
  let ops := (λ q : query * bool, Query q.1.1.1 q.1.1.2 q.1.2) <$> reverse log in
  match stat_run (λ _, cmi_cond_indep rgt (empty_graph (list_to_set (seq 0 nv))) true (cmi_calc data ws nv)) 0 (ops ++ [Query x y zz]) (StatState (ci_new nv true true) th) with
  | Ok r => default false (last r.1)
  | _ => false
  end.
(** the same without cache and counters: every answer is computed anew *)
Definition cmi_test_plain (data : list (list nat)) (ws : option (list Q)) (nv : nat) (th : R) : citest := λ _ x y zz,
  match cmi_cond_indep rgt (empty_graph (list_to_set (seq 0 nv))) false (cmi_calc data ws nv) x y zz (StatState (ci_new nv false false) th) with
  | Ok r => r.1
  | _ => false
  end.

(** every query about nodes of V whose nodes are not d-separated has a conditional mutual information above the threshold *)
Definition faithful_above (th : R) (d : graph) (V : nset) (recs : list (list nat * R)) : Prop :=
  ∀ x y zz, x ∈ V → y ∈ V → x ≠ y → NoDup zz → (∀ z, z ∈ zz → z ∈ V ∧ z ≠ x ∧ z ≠ y) → ¬ d_separated d x y zz → (th < emp_cmi recs x y zz)%R.

(** a data set that a CondIndepCMI object accepts *)
Definition data_ok (data : list (list nat)) (ws : option (list Q)) (nv : nat) : Prop :=
  data ≠ [] ∧ Forall (λ r, length r = nv) data ∧ weights_ok data ws.

(** all configurations of nv variables with values below K, and the probability of each in the network with the given tables *)
Fixpoint configs (nv K : nat) : list (list nat) :=
  match nv with 0 => [[]] | S n => a ← seq 0 K; (a ::.) <$> configs n K end.
Definition joint (nv K : nat) (f : nat → (nat → nat) → Q) : list Q :=
  (λ c : list nat, foldr Qmult 1%Q ((λ v, f v (λ u, c !!! u)) <$> seq 0 nv)) <$> configs nv K.
