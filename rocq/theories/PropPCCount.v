(** Properties C116 and C117: how many CI tests PC makes, and how large the conditioning sets become. *)
From Coq Require Import QArith Qreals Reals Lra.
From Verif Require Import Base BaseLemmas ModelGraph Spec Paths ProofGraph ProofGraph2 ProofGraph3 ProofDsep ModelMixed SpecMixed ModelPC SpecPC ProofPDAG ProofPDAG2 ProofPDAG3 ProofMixed ProofMixed2 ProofPC
  ModelData ModelCI SpecCI ProofCI ProofCI2 ModelCMI SpecCMI ProofCMI ModelParCorr SpecParCorr ProofParCorr SpecMarkov ProofMarkov ProofMarkov2 PropMarkov SpecLinear ProofLinear SpecPCCount ProofPCCount.
Local Open Scope nat_scope.

(** ** C116 *)
(** whatever the test answers, in both modes: no call is repeated, and there are at most n (n - 1) choose (n - 2, k) calls with k conditioning nodes *)
Theorem C116_calls : ∀ o ci ow fuel V, iter_ok o → size V * size V + 1 < fuel →
  returns (pc_learn o ci ow fuel V) (λ s, NoDup (pc_log s).*1 ∧ ∀ k, count_size k (pc_log s) ≤ size V * (size V - 1) * choose (size V - 2) k).
Proof.
  intros o ci ow fuel V Ho Hf. eapply returns_mono; [apply (pc_run o ci ow fuel V 2 Ho Hf)|].
  - intros k G i j. by apply cands_length.
  - cbn beta. intros s [[K H] _]. split; [apply H|]. intros k. pose proof (count_all _ _ _ _ _ _ H k). nia.
Qed.
Print Assumptions C116_calls.

(** when the starting graph is overwritten, a pair found independent is not tested again (the log has the last call first) *)
Theorem C116_stop : ∀ o ci fuel V, iter_ok o → size V * size V + 1 < fuel →
  returns (pc_learn o ci true fuel V) (λ s, ∀ l1 i j c l2, pc_log s = l1 ++ (i, j, c, true) :: l2 →
    ∀ i' j' c' b, (i', j', c', b) ∈ l1 → ¬ is_pair i' j' i j).
Proof.
  intros o ci fuel V Ho Hf. eapply returns_mono; [apply (pc_run o ci true fuel V 2 Ho Hf)|].
  - intros k G i j. by apply cands_length.
  - cbn beta. intros s [[K H] _] l1 i j c l2 E i' j' c' b Hin. exact (cnt_stop _ _ _ _ _ _ _ H eq_refl _ _ _ _ _ E _ Hin).
Qed.
Print Assumptions C116_stop.

(** if all sets are traversed in the same order of the nodes, then no question is repeated in another form either, and the bound is halved *)
Theorem C116_questions_partial : ∀ o ci ow fuel V, iter_ok o → consistent o → size V * size V + 1 < fuel →
  returns (pc_learn o ci ow fuel V) (λ s, NoDup (question <$> (pc_log s).*1) ∧ ∀ k, 2 * count_size k (pc_log s) ≤ size V * (size V - 1) * choose (size V - 2) k).
Proof.
  intros o ci ow fuel V Ho [rank Hr] Hf. eapply returns_mono; [apply (pc_run o ci ow fuel V 1 Ho Hf)|].
  - intros k G i j. by apply (ranked_cands o Ho rank Hr).
  - cbn beta. intros s [[K H] _]. split; [by apply (ranked_questions o Ho rank Hr V 1 ow K)|]. intros k. pose proof (count_all _ _ _ _ _ _ H k) as Hk. by rewrite Nat.mul_1_l in Hk.
Qed.
Print Assumptions C116_questions_partial.

(** without that the same question can be asked twice, although unique_element_iterator is documented to yield unique unordered elements.
    The order is the one of small integers in CPython sets: the hash of a small integer is its value, a set of at most four elements
    has a table of 8 slots, a larger one has at least 32 slots, so 8 comes before 1 in {1, 8} and after it in {1, 4, 5, 6, 8}. *)
Definition ord_slots : order := λ _ S,
  let l := merge_sort le (elements S) in
  if decide (size S ≤ 4) then filter (λ x, 8 ≤ x) l ++ filter (λ x, ¬ 8 ≤ x) l else l.
Lemma ord_slots_ok : iter_ok ord_slots.
Proof.
  intros k S. unfold ord_slots. case_decide; [|apply merge_sort_Permutation]. rewrite <-(merge_sort_Permutation le (elements S)) at 3.
  generalize (merge_sort le (elements S)). intros l. induction l as [|x l IH]; [done|]. rewrite !filter_cons. case_decide as H1; case_decide as H2; try tauto; cbn.
  - by constructor.
  - rewrite <-Permutation_middle. by constructor.
Qed.
(** nodes 4, 5 and 6 are independent of node 2, all other pairs are dependent *)
Definition ci_rep : citest := λ _ i j _, bool_decide ((i = 2 ∧ j ∈ [4; 5; 6]) ∨ (j = 2 ∧ i ∈ [4; 5; 6])).
Theorem C116_questions_refuted : ∃ o ci fuel V s i j c1 c2 b1 b2, iter_ok o ∧ size V * size V + 1 < fuel ∧
  pc_learn o ci true fuel V = Ok s ∧ (i, j, c1, b1) ∈ pc_log s ∧ (i, j, c2, b2) ∈ pc_log s ∧ c1 ≠ c2 ∧ c1 ≡ₚ c2.
Proof.
  assert (∃ s, pc_learn ord_slots ci_rep true 60 ({[1; 2; 3; 4; 5; 6; 8]} : nset) = Ok s ∧ (2, 3, [8; 1], false) ∈ pc_log s ∧ (2, 3, [1; 8], false) ∈ pc_log s) as (s & E & H1 & H2).
  { assert (match pc_learn ord_slots ci_rep true 60 ({[1; 2; 3; 4; 5; 6; 8]} : nset) with Ok s => bool_decide ((2, 3, [8; 1], false) ∈ pc_log s ∧ (2, 3, [1; 8], false) ∈ pc_log s) | _ => false end = true) as H by (by vm_compute).
    destruct (pc_learn _ _ _ _ _) as [s| |]; [|done..]. exists s. split; [done|]. by apply bool_decide_eq_true in H. }
  exists ord_slots, ci_rep, 60, {[1; 2; 3; 4; 5; 6; 8]}, s, 2, 3, [8; 1], [1; 8], false, false.
  split_and!; [apply ord_slots_ok|apply (bool_decide_unpack _); by vm_compute|done..|apply perm_swap].
Qed.
Print Assumptions C116_questions_refuted.

Lemma ord_sorted_consistent : consistent ord_sorted.
Proof.
  exists (λ x, x). intros k S l1 x l2 y l3 E. unfold ord_sorted in E.
  assert (StronglySorted le (merge_sort le (elements S))) as Hs by (apply Sorted_StronglySorted; [intros ???; lia|apply Sorted_merge_sort; intros ??; lia]).
  assert (NoDup (merge_sort le (elements S))) as Hn by (rewrite merge_sort_Permutation; apply NoDup_elements).
  rewrite E in Hs, Hn. clear E. induction l1 as [|z l1 IH]; cbn in *.
  - apply StronglySorted_inv in Hs as [_ Hs]. apply NoDup_cons in Hn as [Hn _]. rewrite Forall_forall in Hs. specialize (Hs y ltac:(set_solver +)). assert (x ≠ y) by set_solver +Hn. cbn. lia.
  - apply IH; [by apply StronglySorted_inv in Hs as [? _]|by apply NoDup_cons in Hn as [_ ?]].
Qed.
(** a run with five nodes that makes calls of all sizes up to 3, and whose order meets the hypotheses *)
Definition ci_case : citest := λ _ i j c, bool_decide (i + j = 5 ∧ length c = 1).
Example C116_case : iter_ok ord_sorted ∧ consistent ord_sorted ∧ (∃ s, pc_learn ord_sorted ci_case true 30 ({[0; 1; 2; 3; 4]} : nset) = Ok s ∧
  (1, 4, [0], true) ∈ pc_log s ∧ (2, 3, [0], true) ∈ pc_log s ∧ count_size 0 (pc_log s) = 10 ∧ 0 < count_size 2 (pc_log s)) ∧ choose 5 2 = 10.
Proof.
  split_and!; [apply ord_sorted_ok|apply ord_sorted_consistent| |done].
  assert (match pc_learn ord_sorted ci_case true 30 ({[0; 1; 2; 3; 4]} : nset) with Ok s => bool_decide ((1, 4, [0], true) ∈ pc_log s ∧ (2, 3, [0], true) ∈ pc_log s ∧ count_size 0 (pc_log s) = 10 ∧ 0 < count_size 2 (pc_log s)) | _ => false end = true) as H by (by vm_compute).
  destruct (pc_learn _ _ _ _ _) as [s| |]; [|done..]. exists s. split; [done|]. by apply bool_decide_eq_true in H.
Qed.

(** ** C117 *)
(** with the d-separation oracle of a DAG every conditioning set is at most as large as some parent set, or smaller than the neighbourhood of some node *)
Theorem C117_oracle : ∀ o o' d ow fuel fuel', iter_ok o → iter_ok o' → wf_graph d → acyclic d → size (gnodes d) < fuel' → size (gnodes d) * size (gnodes d) + 1 < fuel →
  returns (pc_learn o (dsep_ci o' fuel' d) ow fuel (gnodes d)) (λ s, ∀ i j c b, (i, j, c, b) ∈ pc_log s →
    ∃ v, v ∈ gnodes d ∧ (length c ≤ size (gadj d v) ∨ length c < size (neighbours d v))).
Proof. intros o o' d ow fuel fuel' Ho Ho' Hwf Hac Hf' Hf. apply (perfect_sizes d Hwf Hac); [by apply dsep_answers|done..]. Qed.
Print Assumptions C117_oracle.

(** so the number of calls with the oracle is bounded by the largest degree D: all calls have at most D conditioning nodes *)
Theorem C117_degree : ∀ o o' d ow fuel fuel' D, iter_ok o → iter_ok o' → wf_graph d → acyclic d → size (gnodes d) < fuel' → size (gnodes d) * size (gnodes d) + 1 < fuel →
  (∀ v, v ∈ gnodes d → size (neighbours d v) ≤ D) →
  returns (pc_learn o (dsep_ci o' fuel' d) ow fuel (gnodes d)) (λ s, ∀ k, D < k → count_size k (pc_log s) = 0).
Proof.
  intros o o' d ow fuel fuel' D Ho Ho' Hwf Hac Hf' Hf HD. eapply returns_mono; [by apply (C117_oracle o o' d ow fuel fuel')|]. cbn beta. intros s H k Hk.
  apply count_none. intros [[[i j] c] b] Hin. cbn. apply H in Hin as (v & Hv & Hc). apply HD in Hv. assert (size (gadj d v) ≤ size (neighbours d v)) by (apply subseteq_size; unfold neighbours; set_solver +). lia.
Qed.
Print Assumptions C117_degree.

(** the same for the tests on data of C113 and C115 *)
Theorem C117_cmi : ∀ o d data ws nv K th ow fuel, iter_ok o → wf_graph d → acyclic d → (∀ v, v ∈ gnodes d ↔ v < nv) → data_ok data ws nv →
  bayes_net d nv K (records data ws) → (0 <= th)%R → faithful_above th d (gnodes d) (records data ws) → size (gnodes d) * size (gnodes d) + 1 < fuel →
  returns (pc_learn o (cmi_test data ws nv th) ow fuel (gnodes d)) (λ s, ∀ i j c b, (i, j, c, b) ∈ pc_log s →
    ∃ v, v ∈ gnodes d ∧ (length c ≤ size (gadj d v) ∨ length c < size (neighbours d v))).
Proof.
  intros o d data ws nv K th ow fuel Ho Hwf Hac Hn Hd HB Hth HF Hf. apply (perfect_sizes d Hwf Hac); [|done..].
  intros log i j c Hlog. destruct (Hlog i j c true) as (Hi & Hj & Hne & Hc & Hz); [by left|].
  rewrite cmi_test_ok; [apply (below_iff d data ws nv K th (gnodes d)); try done|done|by apply (qvalid_nodes d nv (gnodes d))|].
  intros [[[i' j'] c'] b'] Hin. cbn. destruct (Hlog i' j' c' b') as (? & ? & ? & ? & ?); [by right|]. by apply (qvalid_nodes d nv (gnodes d)).
Qed.
Print Assumptions C117_cmi.

Theorem C117_parcorr : ∀ o d w data n nv inv (cdf : R → R) th ow fuel, iter_ok o → wf_graph d → acyclic d → (∀ v, v ∈ gnodes d ↔ v < nv) →
  linear_model d w data n → noisy d w data n → inverts_all data n inv (gnodes d) →
  (th < 2 * (1 - cdf 0))%R → significant cdf th d (gnodes d) data n → size (gnodes d) * size (gnodes d) + 1 < fuel →
  returns (pc_learn o (parcorr_test data n nv inv cdf th) ow fuel (gnodes d)) (λ s, ∀ i j c b, (i, j, c, b) ∈ pc_log s →
    ∃ v, v ∈ gnodes d ∧ (length c ≤ size (gadj d v) ∨ length c < size (neighbours d v))).
Proof.
  intros o d w data n nv inv cdf th ow fuel Ho Hwf Hac Hn HM HN Hinv Hth HF Hf. apply (perfect_sizes d Hwf Hac); [|done..].
  intros log i j c Hlog. assert (∀ i' j' c' b', (i', j', c', b') ∈ (i, j, c, true) :: log → qvalid nv (i', j', c')) as Hq.
  { intros i' j' c' b' Hin. by apply (qvalid_qnodes d nv Hn), (Hlog i' j' c' b'). }
  apply (cached_decides d Hwf Hac w data n nv HM Hn HN inv cdf Hinv th Hth HF); [apply (Hq i j c true); left|].
  intros [[[i' j'] c'] b'] Hin. apply (Hq i' j' c' b'). by right.
Qed.
Print Assumptions C117_parcorr.

(** the bound is reached: in 0 -> 1 -> 2 -> 3 no node has more than one parent or two neighbours, and sets of one node are needed *)
Definition d_chain : graph := mk_graph [0; 1; 2; 3] [(0, 1); (1, 2); (2, 3)].
Example C117_case : wf_graph d_chain ∧ acyclic d_chain ∧ (∀ v, v ∈ gnodes d_chain → size (gadj d_chain v) ≤ 1 ∧ size (neighbours d_chain v) ≤ 2) ∧
  ∃ s, pc_learn ord_sorted (dsep_ci ord_sorted 10 d_chain) true 30 (gnodes d_chain) = Ok s ∧ (0, 2, [1], true) ∈ pc_log s ∧ count_size 2 (pc_log s) = 0 ∧ 0 < count_size 1 (pc_log s).
Proof.
  assert (wf_graph d_chain) as Hwf by by apply mk_graph_wf; vm_compute. assert (acyclic d_chain) as Hac by by apply mk_graph_acyclic; vm_compute.
  split_and!; [done|done| |].
  - assert (Forall (λ v, size (gadj d_chain v) ≤ 1 ∧ size (neighbours d_chain v) ≤ 2) (elements (gnodes d_chain))) as H by (apply (bool_decide_unpack _); by vm_compute).
    rewrite Forall_forall in H. intros v Hv. by apply H, elem_of_elements.
  - assert (match pc_learn ord_sorted (dsep_ci ord_sorted 10 d_chain) true 30 (gnodes d_chain) with Ok s => bool_decide ((0, 2, [1], true) ∈ pc_log s ∧ count_size 2 (pc_log s) = 0 ∧ 0 < count_size 1 (pc_log s)) | _ => false end = true) as H by (by vm_compute).
    destruct (pc_learn _ _ _ _ _) as [s| |]; [|done..]. exists s. split; [done|]. by apply bool_decide_eq_true in H.
Qed.
