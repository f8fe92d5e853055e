(** Property C127: how many CI tests temporal ICD makes, and how often it asks the same question. *)
From Verif Require Import Base BaseLemmas ModelGraph Spec ModelMixed SpecMixed ModelPC SpecPC ModelPAG ModelFCI SpecFCI ModelTS SpecTS ProofTS ProofTS5 PropTS
  SpecPCCount SpecICDCount ProofICDCount ProofTSCount.

(** ** C127 *)
(** whatever the options, from the default graph (None) or an initial one that is stationary: temporal ICD asks about a pair and a set (in any order)
    at most twice, at most once if the set has at most one node. For p nodes per time and n nodes in all, there are at most
    p (2 (n - p) + p - 1) choose (n - 2, k) tests with k conditioning nodes, and half as many if k is at most 1 *)
Theorem C127_ts : ∀ NS o ci ini sb tc precalc fuel p, window NS → iter_ok o → length <$> NS !! 0 = Some p →
  size (win_nodes NS) * size (win_nodes NS) + size (win_nodes NS) + 2 < fuel → near NS ci →
  (∀ h, ini = Some h → mg_wf h ∧ mnodes h = win_nodes NS ∧ stationary NS (mg_adj h)) →
  returns (r ← ts_init NS o ini; ts_learn NS o ci true sb tc precalc fuel r.2 r.1) (λ t,
    let log := ls_log (ic_ls t) in let n := size (win_nodes NS) in
    (∀ q, asked q log ≤ 2) ∧ (∀ q, size q.2 ≤ 1 → asked q log ≤ 1) ∧
    (∀ k, count_size k log ≤ p * (2 * (n - p) + (p - 1)) * choose (n - 2) k) ∧
    ∀ k, k ≤ 1 → 2 * count_size k log ≤ p * (2 * (n - p) + (p - 1)) * choose (n - 2) k).
Proof.
  intros NS o ci ini sb tc precalc fuel p W Ho Hp Hf Hn Hini. eapply returns_mono; [by apply ts_run_few|]. cbn beta. intros t (F & P & H0). cbn zeta.
  assert (p = length (present NS)) as -> by (unfold present; destruct (NS !! 0); cbn in *; congruence).
  assert (∀ q, asked q (ls_log (ic_ls t)) ≤ 2) as H2 by (intros q; specialize (F q); case_decide; lia).
  assert (∀ q : nset * nset, size q.2 ≤ 1 → asked q (ls_log (ic_ls t)) ≤ 1) as H1 by (intros q Hq; specialize (F q); by rewrite decide_True in F by done).
  split; [done|]. split; [done|]. split.
  - intros k. pose proof (count_present NS W 2 k _ P H0 (λ q _, H2 q)). lia.
  - intros k Hk. assert (∀ q : nset * nset, size q.2 = k → asked q (ls_log (ic_ls t)) ≤ 1) as H by (intros q Hq; apply H1; lia).
    pose proof (count_present NS W 1 k _ P H0 H). lia.
Qed.
Print Assumptions C127_ts.

(** two variables at three times (eNS): the numbers of tests with 0 to 4 conditioning nodes when all answers are "dependent", and the number of times that
    0 and 1 are tested given 2 and 3; in the second line the answers are those for the process 0 <- 2 <- 4, 1 <- 3 <- 5 *)
Definition ts_counts (ci : citest) : option (nat * list nat) :=
  match (r ← ts_init eNS ord_sorted None; ts_learn eNS ord_sorted ci true true true true 60 r.2 r.1) with
  | Ok t => Some (asked ({[0; 1]}, {[2; 3]}) (ls_log (ic_ls t)), (λ k, count_size k (ls_log (ic_ls t))) <$> [0; 1; 2; 3; 4]) | _ => None end.
Example C127_case : window eNS ∧ iter_ok ord_sorted ∧ length <$> eNS !! 0 = Some 2 ∧ near eNS (λ _ _ _ _, false) ∧ near eNS (dsep_ci ord_up 20 e48b) ∧
  ts_counts (λ _ _ _ _, false) = Some (2, [9; 36; 108; 72; 18]) ∧ ts_counts (dsep_ci ord_up 20 e48b) = Some (0, [9; 4; 0; 0; 0]) ∧
  (λ k, 2 * (2 * (6 - 2) + (2 - 1)) * choose (6 - 2) k) <$> [0; 1; 2; 3; 4] = [18; 72; 108; 72; 18].
Proof.
  split; [exact eNS_window|]. split; [apply ord_sorted_ok|]. split; [done|]. split; [done|]. split; [exact e48b_near|].
  split; [by vm_compute|]. split; by vm_compute.
Qed.
