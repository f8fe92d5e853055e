(** Property C126: how many CI tests B-RAI makes, and how often it asks the same question. *)
From Coq Require Import QArith.
From Verif Require Import Base BaseLemmas ModelGraph Spec ModelMixed SpecMixed ModelPC SpecPC ModelRAI SpecRAI ModelBRAI SpecBRAI ModelFCI SpecFCI ProofRAI ProofBRAI
  SpecPCCount SpecICDCount ProofICDCount ProofRAICount ProofBRAICount.
Local Open Scope nat_scope.

(** ** C126 *)
(** whatever the test answers on the bootstrap samples: with K hypotheses, B-RAI asks about a pair and a set of k nodes (in any order) at most K^(k+1) times
    if k is at most 1 and at most 2 K^(k+1) times otherwise; there are at most n (n - 1) choose (n - 2, k) K^(k+1) tests with k conditioning nodes,
    and half as many if k is at most 1 *)
Theorem C126_brai : ∀ o ci ow lf V bdeu K (pick : nat → list score → nat),
  iter_ok o → size V * size V + 1 < lf → 0 < K → (∀ n l, l ≠ [] → pick n l < length l) →
  returns (brai_learn o ci ow lf V true false bdeu K pick) (λ '(_, s, _), let log := pc_log s in
    (∀ q, asked q log ≤ 2 * K ^ S (size q.2)) ∧ (∀ q, size q.2 ≤ 1 → asked q log ≤ K ^ S (size q.2)) ∧
    (∀ k, count_size k log ≤ K ^ S k * (size V * (size V - 1) * choose (size V - 2) k)) ∧
    ∀ k, k ≤ 1 → 2 * count_size k log ≤ K ^ S k * (size V * (size V - 1) * choose (size V - 2) k)).
Proof.
  intros o ci ow lf V bdeu K pick Ho Hlf HK Hp. destruct (proj1 (returns_ok _ _) (brai_learn_spec o Ho lf V pick Hlf Hp ci ow bdeu K HK)) as ([[t s] g] & E & _). rewrite E. cbn [returns]. cbn zeta.
  pose proof (brai_learn_few o Ho ci ow lf V Hlf true false bdeu K pick t s g E) as F. pose proof (brai_learn_log o Ho ci ow lf V Hlf bdeu K pick t s g HK E) as P.
  assert (∀ q, asked q (pc_log s) ≤ 2 * K ^ S (size q.2)) as H2.
  { intros q. etransitivity; [apply F|]. apply Nat.mul_le_mono_r. unfold limit. case_decide; lia. }
  assert (∀ q : nset * nset, size q.2 ≤ 1 → asked q (pc_log s) ≤ K ^ S (size q.2)) as H1.
  { intros q Hq. specialize (F q). unfold limit in F. rewrite decide_True in F by done. by rewrite Nat.mul_1_l in F. }
  split; [done|]. split; [done|]. split.
  - intros k. assert (∀ q : nset * nset, size q.2 = k → asked q (pc_log s) ≤ 2 * K ^ S k) as H by (intros q Hq; rewrite <-Hq; apply H2).
    pose proof (count_bound V _ k _ P H) as Hc. rewrite <-Nat.mul_assoc in Hc. lia.
  - intros k Hk. assert (∀ q : nset * nset, size q.2 = k → asked q (pc_log s) ≤ K ^ S k) as H by (intros q Hq; rewrite <-Hq; apply H1; lia).
    exact (count_bound V _ k _ P H).
Qed.
Print Assumptions C126_brai.

(** the numbers of tests with 0 to 2 conditioning nodes for two hypotheses when all answers are "dependent", the bounds, and the number of times that the
    pair 0, 1 is tested given 2 *)
Definition brai_counts (V : nset) (K : nat) : option (list nat * list nat) :=
  match brai_learn ord_sorted (λ _ _ _ _, false) true 40 V true false (λ _ _, 0%Q) K (λ _ _, 0) with
  | Ok (_, s, _) => Some ((λ k, count_size k (pc_log s)) <$> [0; 1; 2], (λ Z, asked ({[0; 1]}, Z) (pc_log s)) <$> [∅; {[2]}; {[2; 3]}]) | _ => None end.
Example C126_case : iter_ok ord_sorted ∧ size ({[0; 1; 2; 3]} : nset) * size ({[0; 1; 2; 3]} : nset) + 1 < 40 ∧ 0 < 2 ∧ (∀ (n : nat) (l : list score), l ≠ [] → 0 < length l) ∧
  brai_counts {[0; 1; 2; 3]} 2 = Some ([12; 48; 48], [2; 4; 8]) ∧ brai_counts {[0; 1; 2]} 3 = Some ([9; 27; 0], [3; 9; 0]) ∧
  (λ k, 2 ^ S k * (4 * 3 * choose 2 k)) <$> [0; 1; 2] = [24; 96; 96] ∧ (λ k, 3 ^ S k * (3 * 2 * choose 1 k)) <$> [0; 1; 2] = [18; 54; 0].
Proof.
  split; [apply ord_sorted_ok|]. split; [by vm_compute; lia|]. split; [lia|]. split; [intros n [|x l]; cbn; [done|lia]|].
  split; [by vm_compute|]. split; [by vm_compute|]. split; by vm_compute.
Qed.
