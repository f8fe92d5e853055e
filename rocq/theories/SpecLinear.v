(** Specification: data of a linear structural equation model over a DAG. *)
From Coq Require Import Reals.
From Verif Require Import Base ModelGraph Spec ModelPC ModelCI ModelCMI ModelParCorr SpecParCorr.
Local Open Scope nat_scope.

(** what is left of the deviation of v from its mean after subtracting the contributions of its parents in d, with coefficients w *)
Definition noise (d : graph) (w : nat → nat → R) (data : nat → nat → R) (n v t : nat) : R :=
  (dev data n v t - rsum (λ p, w v p * dev data n p t) (elements (gadj d v)))%R.

(** with some coefficients the noise columns of any two variables are uncorrelated in the n records *)
Definition linear_model (d : graph) (w : nat → nat → R) (data : nat → nat → R) (n : nat) : Prop :=
  ∀ u v, u ∈ gnodes d → v ∈ gnodes d → u ≠ v → vdot n (noise d w data n u) (noise d w data n v) = 0%R.
(** no variable is a linear function of its parents *)
Definition noisy (d : graph) (w : nat → nat → R) (data : nat → nat → R) (n : nat) : Prop :=
  ∀ v, v ∈ gnodes d → (0 < vdot n (noise d w data n v) (noise d w data n v))%R.

(** a CondIndepParCorr object as the test of a learner (cond_indep_tests.py 294-346): its answer to a query after the queries of the log,
    which the object has answered before (latest first); cache and counters are on, no edges are retained; n records of nv variables *)
Definition pc_calc (data : nat → nat → R) (n : nat) (inv : list nat → option (nat → nat → R)) (cdf : R → R) (x y : nat) (zz : list nat) : option num :=
  match pc_statistic (corrcoef data n) inv cdf n x y zz with Ok v => Some v | _ => None end.
Definition parcorr_test (data : nat → nat → R) (n nv : nat) (inv : list nat → option (nat → nat → R)) (cdf : R → R) (th : R) : citest := λ log x y zz,
  let ops := (λ q : query * bool, Query q.1.1.1 q.1.1.2 q.1.2) <$> reverse log in
  match stat_run (λ _, stat_cond_indep ngt (empty_graph (list_to_set (seq 0 nv))) true (pc_calc data n inv cdf)) 0 (ops ++ [Query x y zz]) (StatState (ci_new nv true true) th) with
  | Ok r => default false (last r.1)
  | _ => false
  end.
(** the same without cache and counters: every answer is computed anew *)
Definition parcorr_test_plain (data : nat → nat → R) (n : nat) (inv : list nat → option (nat → nat → R)) (cdf : R → R) (th : R) : citest := λ _ x y zz,
  match pc_cond_indep (corrcoef data n) inv cdf n th x y zz with Ok b => b | _ => false end.

(** every query about nodes of V whose nodes are not d-separated has a partial correlation with a p-value not above the threshold *)
Definition significant (cdf : R → R) (th : R) (d : graph) (V : nset) (data : nat → nat → R) (n : nat) : Prop :=
  ∀ x y zz r, x ∈ V → y ∈ V → x ≠ y → NoDup zz → (∀ z, z ∈ zz → z ∈ V ∧ z ≠ x ∧ z ≠ y) → ¬ d_separated d x y zz →
    partial_correlation data n x y zz r → (two_sided cdf (R_sqrt.sqrt (INR (n - length zz - 3)) * fisher_z r) <= th)%R.
(** numpy.linalg.inv inverts the correlation matrices of four or more of the variables in V *)
Definition inverts_all (data : nat → nat → R) (n : nat) (inv : list nat → option (nat → nat → R)) (V : nset) : Prop :=
  ∀ idx, NoDup idx → (∀ a, a ∈ idx → a ∈ V) → 4 ≤ length idx → inverts (corrcoef data n) inv idx.
