(** Property C119: how many CI tests ICD and FCI make, and how often they ask the same question. *)
From Verif Require Import Base BaseLemmas ModelGraph Spec ModelMixed SpecMixed ModelPAG ModelPDS ModelPC SpecPC ModelFCI SpecFCI ProofFCI ProofFCI4 ProofFCI6
  SpecPCCount SpecICDCount ProofICDCount PropFCI.

(** ** C119 *)
(** whatever the test answers and whatever the options: ICD asks about a pair and a set (in any order) at most twice, at most once if the set has
    at most one node; there are at most n (n - 1) choose (n - 2, k) tests with k conditioning nodes, and half as many if k is at most 1 *)
Theorem C119_icd : ∀ o ci V sb tc fuel precalc, iter_ok o → size V * size V + size V + 2 < fuel →
  returns (icd_learn o ci sb tc fuel precalc (icd_init o V)) (λ t, let log := ls_log (ic_ls t) in
    (∀ q, asked q log ≤ 2) ∧ (∀ q, size q.2 ≤ 1 → asked q log ≤ 1) ∧
    (∀ k, count_size k log ≤ size V * (size V - 1) * choose (size V - 2) k) ∧
    ∀ k, k ≤ 1 → 2 * count_size k log ≤ size V * (size V - 1) * choose (size V - 2) k).
Proof.
  intros o ci V sb tc fuel precalc Ho Hf. eapply returns_mono; [by apply learn_few|]. cbn beta. intros t [I F]. cbn zeta.
  pose proof (ju_log _ _ _ _ _ (ls_inv_justified _ _ _ (ii_inv _ _ _ I))) as P.
  assert (∀ q, asked q (ls_log (ic_ls t)) ≤ 2) as H2 by (intros q; specialize (F q); case_decide; lia).
  assert (∀ q, size q.2 ≤ 1 → asked q (ls_log (ic_ls t)) ≤ 1) as H1 by (intros q Hq; specialize (F q); by rewrite decide_True in F by done).
  split; [done|]. split; [done|]. split.
  - intros k. pose proof (count_bound V 2 k _ P (λ q _, H2 q)). lia.
  - intros k Hk. assert (∀ q : nset * nset, size q.2 = k → asked q (ls_log (ic_ls t)) ≤ 1) as H by (intros q Hq; apply H1; lia).
    pose proof (count_bound V 1 k _ P H). lia.
Qed.
Print Assumptions C119_icd.

(** FCI: at most four times, and at most 2 n (n - 1) choose (n - 2, k) tests with k conditioning nodes *)
Theorem C119_fci : ∀ o ci V sb tc fuel, iter_ok o → size V * size V + size V + 2 < fuel →
  returns (fci_learn o ci sb tc fuel V) (λ r, let log := ls_log r.1 in
    (∀ q, asked q log ≤ 4) ∧ ∀ k, count_size k log ≤ 2 * (size V * (size V - 1) * choose (size V - 2) k)).
Proof.
  intros o ci V sb tc fuel Ho Hf. destruct (proj1 (returns_ok _ _) (C43_fci o ci V sb tc fuel Ho Hf)) as (r & E & J). rewrite E. cbn [returns]. cbn zeta.
  pose proof (fci_asked o Ho ci sb tc fuel V r E) as H. split; [done|]. intros k. pose proof (count_bound V 4 k _ (ju_log _ _ _ _ _ J) (λ q _, H q)). lia.
Qed.
Print Assumptions C119_fci.

(** the factors are needed: when all answers are "dependent", ICD asks about every pair given the two other nodes twice, FCI three times;
    and the numbers of tests with k conditioning nodes *)
Definition icd_counts (V : nset) : option (nat * list nat) :=
  match icd_learn ord_sorted (λ _ _ _ _, false) true true 40 true (icd_init ord_sorted V) with
  | Ok t => Some (asked ({[0; 1]}, {[2; 3]}) (ls_log (ic_ls t)), (λ k, count_size k (ls_log (ic_ls t))) <$> [0; 1; 2; 3]) | _ => None end.
Definition fci_counts (V : nset) : option (nat * list nat) :=
  match fci_learn ord_sorted (λ _ _ _ _, false) true true 40 V with
  | Ok r => Some (asked ({[0; 1]}, {[2; 3]}) (ls_log r.1), (λ k, count_size k (ls_log r.1)) <$> [0; 1; 2; 3]) | _ => None end.
Example C119_icd_case : iter_ok ord_sorted ∧ size ({[0; 1; 2; 3]} : nset) * size ({[0; 1; 2; 3]} : nset) + size ({[0; 1; 2; 3]} : nset) + 2 < 40 ∧
  icd_counts {[0; 1; 2; 3]} = Some (2, [6; 12; 12; 0]) ∧ (λ k, 4 * 3 * choose 2 k) <$> [0; 1; 2; 3] = [12; 24; 12; 0].
Proof. split; [apply ord_sorted_ok|]. split; [by vm_compute; lia|]. split; by vm_compute. Qed.
Example C119_fci_case : fci_counts {[0; 1; 2; 3]} = Some (3, [18; 36; 18; 0]).
Proof. by vm_compute. Qed.
