(** Properties C57 (neighbours, self loops included), C65 and C66: edge counts and skeleton matrices. *)
From Verif Require Import Base BaseLemmas ModelGraph Spec ModelMixed SpecMixed SpecCount ProofGraph3 ProofPDAG ProofMixed ProofMixed2 ProofCount.

Theorem C57_neighbors : ∀ o g n, iter_ok o → wf_graph g →
  NoDup (get_neighbors o g n) ∧ ∀ m, m ∈ get_neighbors o g n ↔ m ≠ n ∧ adjacent g n m.
Proof. exact get_neighbors_ok. Qed.
Print Assumptions C57_neighbors.

(** a self loop at 0 *)
Definition eL : graph := mk_graph [0;1;2] [(0,0);(0,1);(2,0)].
Example C57_neighbors_case : wf_graph eL ∧ get_neighbors ord_sorted eL 0 = [1; 2].
Proof. split; [|by vm_compute]. intros a b H. apply mk_graph_edge in H. unfold eL, mk_graph. cbn [gnodes]. set_solver. Qed.

(** ** C65 *)
Theorem C65_number_of_edges : ∀ o g ns, iter_ok o →
  pair_count (default (gnodes g) ns) (adjacent g) (number_of_edges o g ns).1 ∧
  pair_count (default (gnodes g) ns) (λ a b, ¬ adjacent g a b) (number_of_edges o g ns).2.
Proof. exact number_of_edges_ok. Qed.
Print Assumptions C65_number_of_edges.

Theorem C65_pag_number_of_edges : ∀ o g, iter_ok o → mg_wf g → returns (m_number_of_edges o PAG_T g) (λ r,
  pair_count (mnodes g) (mg_adj g) r.1 ∧ pair_count (mnodes g) (λ a b, ¬ mg_adj g a b) r.2).
Proof. exact pag_number_of_edges. Qed.
Print Assumptions C65_pag_number_of_edges.

Theorem C65_pdag_number_of_edges : ∀ o g, iter_ok o → pd_wf g → returns (m_number_of_edges o PDAG_T g) (λ r,
  pair_count (mnodes g) (pd_adj g) r.1 ∧ pair_count (mnodes g) (λ a b, ¬ pd_adj g a b) r.2).
Proof. exact pdag_number_of_edges. Qed.
Print Assumptions C65_pdag_number_of_edges.

Theorem C65_get_num_edges : ∀ o g, iter_ok o → pd_wf g → (∀ a b, ¬ (darrow g a b ∧ darrow g b a)) →
  pair_count (mnodes g) (pd_adj g) (get_num_edges o g).
Proof. exact get_num_edges_ok. Qed.
Print Assumptions C65_get_num_edges.

(** 0 --> 1 --- 2, 3: two edges, four pairs without an edge *)
Definition e65 : mgraph := mk_mg [0;1;2;3] (dir_ 0 1 ++ und_ 1 2).
Example C65_case : number_of_edges ord_up (mk_graph [0;1;2;3] [(0,1);(2,1)]) None = (2, 4) ∧
  number_of_edges ord_up (mk_graph [0;1;2;3] [(0,1);(2,1)]) (Some {[0;1;3]}) = (1, 2) ∧
  m_number_of_edges ord_up PDAG_T e65 = Ok (2, 4) ∧ get_num_edges ord_up e65 = 2.
Proof. by vm_compute. Qed.

(** ** C66 *)
Theorem C66_pag_skeleton_matrix_partial : ∀ o g, iter_ok o → mg_wf g →
  let l := merge_sort le (elements (mnodes g)) in returns (get_skeleton_mat o PAG_T g) (λ m, mdim m = size (mnodes g) ∧
    ∀ i j a b, l !! i = Some a → l !! j = Some b → ment m i j ≤ 1 ∧ (ment m i j = 1 ↔ mg_adj g a b)).
Proof. exact pag_skeleton_mat. Qed.
Print Assumptions C66_pag_skeleton_matrix_partial.

(** for PDAGs the entry records the direction: a directed edge is missing at (j, i) *)
Theorem C66_pdag_skeleton_matrix_refuted : ∃ o g m i j a b, iter_ok o ∧ pd_wf g ∧ get_skeleton_mat o PDAG_T g = Ok m ∧
  merge_sort le (elements (mnodes g)) !! i = Some a ∧ merge_sort le (elements (mnodes g)) !! j = Some b ∧ pd_adj g a b ∧ ment m i j = 0.
Proof. exact pdag_skeleton_mat_refuted. Qed.
Print Assumptions C66_pdag_skeleton_matrix_refuted.

(** what the PDAG matrix records: entry (i, j) is 1 exactly for an edge a --> b or a --- b *)
Theorem C66_pdag_matrix_partial : ∀ o g, iter_ok o → pd_wf g →
  let l := merge_sort le (elements (mnodes g)) in returns (get_skeleton_mat o PDAG_T g) (λ m, mdim m = size (mnodes g) ∧
    ∀ i j a b, l !! i = Some a → l !! j = Some b → ment m i j ≤ 1 ∧ (ment m i j = 1 ↔ darrow g a b ∨ uline g a b)).
Proof.
  intros o g Ho Hwf l. eapply returns_mono; [apply skeleton_mat_ok; [done|]|].
  { intros a k b HT Hk. unfold PDAG_T in HT. set_unfold in HT. destruct HT as [->|[->|[]]]; [by apply (pdw_und _ Hwf) in Hk as (? & ? & _)|by apply (pdw_dir _ Hwf) in Hk as (? & ? & _)]. }
  cbn beta. fold l. intros m [Hd Hm]. split; [done|]. intros i j a b Hi Hj. destruct (Hm i j a b Hi Hj) as [H1 H2]. split; [done|].
  rewrite H2. unfold PDAG_T, darrow, uline. split.
  - intros (k & Hk & H). set_unfold in Hk. destruct Hk as [->|[->|[]]]; tauto.
  - intros [H|H]; [exists Directed|exists Tail]; (split; [set_solver +|done]).
Qed.
Print Assumptions C66_pdag_matrix_partial.

Example C66_pdag_case : pd_wf (mk_mg [0;1;2] (dir_ 2 0 ++ und_ 1 2)) ∧
  returns (get_skeleton_mat ord_up PDAG_T (mk_mg [0;1;2] (dir_ 2 0 ++ und_ 1 2))) (λ m,
    ((λ i, (λ j, ment m i j) <$> seq 0 3) <$> seq 0 3) = [[0;0;0];[0;0;1];[1;1;0]]).
Proof. split; [apply mk_pd_wf|]; by vm_compute. Qed.

Example C66_case : mg_wf (mk_mg [0;1;2] (pag_ 2 Circle Directed 0)) ∧
  returns (get_skeleton_mat ord_up PAG_T (mk_mg [0;1;2] (pag_ 2 Circle Directed 0))) (λ m,
    ((λ i, (λ j, ment m i j) <$> seq 0 3) <$> seq 0 3) = [[0;0;1];[0;0;0];[1;0;0]]).
Proof. split; [apply mk_mg_wf|]; by vm_compute. Qed.
