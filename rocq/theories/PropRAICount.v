(** Property C124: how many CI tests RAI makes, and how often it asks the same question. *)
From Verif Require Import Base BaseLemmas ModelGraph Spec ModelMixed SpecMixed ModelPC SpecPC ModelRAI SpecRAI ModelFCI SpecFCI ProofRAI
  SpecPCCount SpecICDCount ProofICDCount ProofRAICount.

(** ** C124 *)
(** whatever the test answers: RAI asks about a pair and a set (in any order) at most twice, at most once if the set has at most one node;
    there are at most n (n - 1) choose (n - 2, k) tests with k conditioning nodes, and half as many if k is at most 1 *)
Theorem C124_rai : ∀ o ci ow lf V, iter_ok o → size V * size V + 1 < lf →
  returns (rai_learn o ci ow lf V) (λ s, let log := pc_log s in
    (∀ q, asked q log ≤ 2) ∧ (∀ q, size q.2 ≤ 1 → asked q log ≤ 1) ∧
    (∀ k, count_size k log ≤ size V * (size V - 1) * choose (size V - 2) k) ∧
    ∀ k, k ≤ 1 → 2 * count_size k log ≤ size V * (size V - 1) * choose (size V - 2) k).
Proof.
  intros o ci ow lf V Ho Hlf. destruct (proj1 (returns_ok _ _) (rai_learn_inv o ci ow lf V Ho Hlf)) as (s & E & I & _). rewrite E. cbn [returns]. cbn zeta.
  pose proof (rai_learn_few o Ho ci ow lf V Hlf s E) as F. pose proof (ra_log _ _ _ _ I) as P. fold (proper_log V (pc_log s)) in P.
  assert (∀ q, asked q (pc_log s) ≤ 2) as H2 by (intros q; specialize (F q); unfold limit in F; case_decide; lia).
  assert (∀ q : nset * nset, size q.2 ≤ 1 → asked q (pc_log s) ≤ 1) as H1 by (intros q Hq; specialize (F q); unfold limit in F; by rewrite decide_True in F by done).
  split; [done|]. split; [done|]. split.
  - intros k. pose proof (count_bound V 2 k _ P (λ q _, H2 q)). lia.
  - intros k Hk. assert (∀ q : nset * nset, size q.2 = k → asked q (pc_log s) ≤ 1) as H by (intros q Hq; apply H1; lia).
    pose proof (count_bound V 1 k _ P H). lia.
Qed.
Print Assumptions C124_rai.

(** the numbers of tests with 0 to 3 conditioning nodes when all answers are "dependent", and the number of times that the pair 0, 1 is tested given
    2 and 3, for sets traversed in ascending order and in an order that is not the same for all sets *)
Definition rai_counts (o : order) : option (nat * list nat) :=
  match rai_learn o (λ _ _ _ _, false) true 40 {[0; 1; 2; 3]} with
  | Ok s => Some (asked ({[0; 1]}, {[2; 3]}) (pc_log s), (λ k, count_size k (pc_log s)) <$> [0; 1; 2; 3]) | _ => None end.
Definition ord_turn : order := λ k S, if decide (k = 1490) then reverse (ord_sorted k S) else ord_sorted k S.
Example C124_case : iter_ok ord_sorted ∧ iter_ok ord_turn ∧ size ({[0; 1; 2; 3]} : nset) * size ({[0; 1; 2; 3]} : nset) + 1 < 40 ∧
  rai_counts ord_sorted = Some (1, [6; 12; 6; 0]) ∧ rai_counts ord_turn = Some (2, [6; 12; 12; 0]) ∧ (λ k, 4 * 3 * choose 2 k) <$> [0; 1; 2; 3] = [12; 24; 12; 0].
Proof.
  split; [apply ord_sorted_ok|]. split; [intros k S; unfold ord_turn; case_decide; [rewrite reverse_Permutation|]; apply ord_sorted_ok|].
  split; [by vm_compute; lia|]. split; [by vm_compute|]. split; by vm_compute.
Qed.
