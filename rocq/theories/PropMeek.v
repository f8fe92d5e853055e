(** Properties C92, C93: the CPDAG is the essential graph of the Markov equivalence class.
    [o], [iter_ok o] and [fuel] as in PropGraph.v. *)
From Verif Require Import Base BaseLemmas ModelGraph Spec ModelMixed SpecMixed ModelPC ProofGraph ProofDsep ProofGraph2 ProofGraph3
  ProofPDAG ProofPDAG2 ProofPDAG3 ProofMixed ProofMixed2 ProofPC ProofMeek ProofVP.

(** ** C92 *)
(** A directed edge of the result is an edge that every DAG with the skeleton and the unshielded colliders of d directs
    that way; an undirected edge is one that some such DAG directs one way and another such DAG the other way. *)
Definition essential_graph (d : graph) (g : mgraph) : Prop :=
  mnodes g = gnodes d ∧
  (∀ a b, darrow g a b ↔ adjacent d a b ∧ ∀ e, acyclic e → same_skeleton d e → same_v_structures d e → edge e a b) ∧
  (∀ a b, uline g a b ↔
    (∃ e, acyclic e ∧ same_skeleton d e ∧ same_v_structures d e ∧ edge e a b) ∧
    (∃ e, acyclic e ∧ same_skeleton d e ∧ same_v_structures d e ∧ edge e b a)).

Theorem C92_cpdag_is_essential : ∀ o d cp rules fuel, iter_ok o → wf_graph d → acyclic d → mnodes cp = gnodes d →
  (∀ n k, mset cp n k = ∅) → (∀ i, i ∈ rules ↔ 1 ≤ i ≤ 3) → size (gnodes d) * size (gnodes d) + 1 < fuel →
  ∃ g, convert_to_cpdag o fuel d cp rules = Ok g ∧ essential_graph d g.
Proof.
  intros o d cp rules fuel Ho Hwf Hac Hn He Hr Hf. apply returns_ok. by apply cpdag_essential.
Qed.
Print Assumptions C92_cpdag_is_essential.

(** so does PC with a perfect oracle *)
Theorem C92_pc_is_essential : ∀ o1 o2 d ow fuel fuel', iter_ok o1 → iter_ok o2 → wf_graph d → acyclic d →
  size (gnodes d) * size (gnodes d) + 1 < fuel → size (gnodes d) < fuel' →
  ∃ s, pc_learn o1 (dsep_ci o2 fuel' d) ow fuel (gnodes d) = Ok s ∧ essential_graph d (pc_graph s).
Proof.
  intros o1 o2 d ow fuel fuel' Ho1 Ho2 Hwf Hac Hf Hf'.
  assert (∀ i, i ∈ [1;2;3] ↔ 1 ≤ i ≤ 3) as Hr by (intros i; set_unfold; lia).
  destruct (pc_oracle_cpdag o1 o2 o1 d (mempty (gnodes d)) [1;2;3] ow fuel fuel' fuel Ho1 Ho2 Ho1 Hwf Hac) as (s & g & Es & Eg & Hn & Hs); [done..|].
  exists s. split; [done|].
  destruct (C92_cpdag_is_essential o1 d (mempty (gnodes d)) [1;2;3] fuel) as (g' & Eg' & N & D & U); [done..|]. rewrite Eg in Eg'. injection Eg' as <-.
  split_and!; [congruence|..].
  - intros a b. by rewrite <-D, (proj1 (Hs a b)).
  - intros a b. by rewrite <-U, (proj2 (Hs a b)).
Qed.
Print Assumptions C92_pc_is_essential.

(** C59 with perfect answers: the whole result of PC, orientations included, is the same for every iteration order and for both settings of overwrite *)
Theorem C59_oracle_partial : ∀ o1 o1' o2 o2' d ow ow' fuel1 fuel1' fuel2 fuel2', iter_ok o1 → iter_ok o1' → iter_ok o2 → iter_ok o2' → wf_graph d → acyclic d →
  size (gnodes d) * size (gnodes d) + 1 < fuel1 → size (gnodes d) < fuel1' → size (gnodes d) * size (gnodes d) + 1 < fuel2 → size (gnodes d) < fuel2' →
  ∃ s1 s2, pc_learn o1 (dsep_ci o1' fuel1' d) ow fuel1 (gnodes d) = Ok s1 ∧ pc_learn o2 (dsep_ci o2' fuel2' d) ow' fuel2 (gnodes d) = Ok s2 ∧
    pd_same (pc_graph s1) (pc_graph s2).
Proof.
  intros o1 o1' o2 o2' d ow ow' fuel1 fuel1' fuel2 fuel2' Ho1 Ho1' Ho2 Ho2' Hwf Hac H1 H1' H2 H2'.
  destruct (C92_pc_is_essential o1 o1' d ow fuel1 fuel1') as (s1 & E1 & N1 & D1 & U1); [done..|].
  destruct (C92_pc_is_essential o2 o2' d ow' fuel2 fuel2') as (s2 & E2 & N2 & D2 & U2); [done..|].
  exists s1, s2. split; [done|]. split; [done|]. split; [congruence|]. intros a b. split; [by rewrite D1, D2|by rewrite U1, U2].
Qed.
Print Assumptions C59_oracle_partial.

(** 0 --> 2 <-- 1, 2 --> 3 --> 4, 2 --> 4; the equivalent DAG with 4 --> 3; and one with another collider *)
Definition d92 : graph := mk_graph [0;1;2;3;4;5] [(0,2);(1,2);(2,3);(3,4);(2,4)].
Definition e92 : graph := mk_graph [0;1;2;3;4;5] [(0,2);(1,2);(2,3);(4,3);(2,4)].
Definition f92 : graph := mk_graph [0;1;2;3;4;5] [(0,2);(2,1);(2,3);(3,4);(2,4)].
Example C92_case : wf_graph d92 ∧ acyclic d92 ∧ mnodes (mempty (gnodes d92)) = gnodes d92 ∧
  (∀ n k, mset (mempty (gnodes d92)) n k = ∅) ∧ (∀ i, i ∈ [3;1;2] ↔ 1 ≤ i ≤ 3) ∧ size (gnodes d92) * size (gnodes d92) + 1 < 38 ∧
  ∃ g, convert_to_cpdag ord_up 38 d92 (mempty (gnodes d92)) [3;1;2] = Ok g ∧
    darrow g 0 2 ∧ darrow g 1 2 ∧ darrow g 2 3 ∧ darrow g 2 4 ∧ uline g 3 4.
Proof.
  split_and!; [by apply mk_graph_wf|by apply mk_graph_acyclic; vm_compute|done|done|intros i; set_unfold; lia|apply (Nat.leb_le 38 38); by vm_compute|].
  assert (∀ (m : res mgraph) f, match m with Ok g => f g | _ => false end = true → ∃ g, m = Ok g ∧ f g = true) as Hok.
  { intros [g| |] f H; [by exists g|done..]. }
  destruct (Hok (convert_to_cpdag ord_up 38 d92 (mempty (gnodes d92)) [3;1;2])
    (λ g, bool_decide (0 ∈ mset g 2 Directed) && bool_decide (1 ∈ mset g 2 Directed) && bool_decide (2 ∈ mset g 3 Directed) &&
      bool_decide (2 ∈ mset g 4 Directed) && bool_decide (3 ∈ mset g 4 Tail))) as (g & E & H); [by vm_compute|].
  exists g. split; [exact E|]. cbn beta in H. clear E Hok.
  apply andb_true_iff in H as [H H5%bool_decide_eq_true]. apply andb_true_iff in H as [H H4%bool_decide_eq_true].
  apply andb_true_iff in H as [H H3%bool_decide_eq_true]. apply andb_true_iff in H as [H1%bool_decide_eq_true H2%bool_decide_eq_true].
  exact (conj H1 (conj H2 (conj H3 (conj H4 H5)))).
Qed.

(** ** C93 (Verma and Pearl) *)
Theorem C93_same_answers_same_cpdag : ∀ o1 o2 o3 o4 d1 d2 cp1 cp2 r1 r2 f1 f2 f3 f4, iter_ok o1 → iter_ok o2 → iter_ok o3 → iter_ok o4 →
  wf_graph d1 → wf_graph d2 → acyclic d1 → acyclic d2 → gnodes d1 = gnodes d2 →
  mnodes cp1 = gnodes d1 → (∀ n k, mset cp1 n k = ∅) → mnodes cp2 = gnodes d2 → (∀ n k, mset cp2 n k = ∅) →
  (∀ i, i ∈ r1 ↔ 1 ≤ i ≤ 3) → (∀ i, i ∈ r2 ↔ 1 ≤ i ≤ 3) →
  size (gnodes d1) * size (gnodes d1) + 1 < f1 → size (gnodes d2) * size (gnodes d2) + 1 < f2 →
  size (gnodes d1) < f3 → size (gnodes d2) < f4 →
  ∃ g1 g2, convert_to_cpdag o1 f1 d1 cp1 r1 = Ok g1 ∧ convert_to_cpdag o2 f2 d2 cp2 r2 = Ok g2 ∧
    (pd_same g1 g2 ↔ ∀ a b Z, a ∈ gnodes d1 → b ∈ gnodes d1 → a ≠ b → (∀ z, z ∈ Z → z ∈ gnodes d1 ∧ z ≠ a ∧ z ≠ b) →
      dsep o3 f3 d1 a b Z = dsep o4 f4 d2 a b Z).
Proof. exact markov_equivalence. Qed.
Print Assumptions C93_same_answers_same_cpdag.

(** two equivalent DAGs that differ, and a DAG that is told apart from them by one query *)
Example C93_case : wf_graph d92 ∧ wf_graph e92 ∧ wf_graph f92 ∧ acyclic d92 ∧ acyclic e92 ∧ acyclic f92 ∧
  gnodes d92 = gnodes e92 ∧ gnodes d92 = gnodes f92 ∧ edge d92 3 4 ∧ ¬ edge e92 3 4 ∧
  dsep ord_up 7 d92 0 4 [2] = Ok true ∧ dsep ord_up 7 e92 0 4 [2] = Ok true ∧
  dsep ord_up 7 d92 0 1 [] = Ok true ∧ dsep ord_up 7 f92 0 1 [] = Ok false.
Proof.
  split_and!; try (by apply mk_graph_wf); try (by apply mk_graph_acyclic; vm_compute); try done; try by vm_compute.
Qed.
