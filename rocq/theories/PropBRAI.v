(** Properties C56 and C80-C83: B-RAI (LearnStructBRAI) and copying parts of PDAGs.
    [o], [iter_ok o] and the fuel [lf] as in PropGraph.v, [ci] and [pc_log] as in PropPC.v.  [K] hypotheses per node,
    [bdeu] the default scoring function, [pick] the random choice of a hypothesis: any index in range. *)
From Coq Require Import QArith.
From Verif Require Import Base BaseLemmas ModelGraph Spec ModelMixed SpecMixed ModelPC SpecPC ModelRAI SpecRAI ModelBRAI SpecBRAI
  ProofGraph ProofGraph3 ProofPDAG ProofMixed2 PropMixed ProofRAI ProofBRAI.
Local Open Scope nat_scope.

(** ** C80 *)
Theorem C80_brai_learns : ∀ o ci ow lf V bdeu K (pick : nat → list score → nat),
  iter_ok o → size V * size V + 1 < lf → 0 < K → (∀ n l, l ≠ [] → pick n l < length l) →
  returns (brai_learn o ci ow lf V true false bdeu K pick) (λ '(t, s, g),
    mnodes g = V ∧ pd_wf g ∧ (∀ a b, ¬ (darrow g a b ∧ darrow g b a)) ∧ no_rule_applies g [1;2;3] V ∧
    ∃ p l, picks t l ∧ union_of V l p ∧ pd_same_skeleton p g ∧ ∀ l', picks t l' → score_le (total l') (total l)).
Proof.
  intros o ci ow lf V bdeu K pick Ho Hlf HK Hp.
  eapply returns_mono; [by apply (brai_learn_spec o Ho lf V pick Hlf Hp ci ow bdeu K HK)|]. cbn beta.
  intros [[t s] g] (_ & p & sc & H1 & H2 & H3 & H4 & _ & H6 & _ & l & I1 & I2 & I3 & I4).
  split_and!; [done..|]. exists p, l. split_and!; [done..|]. intros l' Hl'. rewrite <-I3. apply I4; [apply Qeq_refl|done].
Qed.
Print Assumptions C80_brai_learns.

(** without scoring data learning always raises AssertionError *)
Theorem C80_brai_unscored_refuted : ∀ o ci ow lf V custom bdeu K pick, iter_ok o → size V * size V + 1 < lf →
  brai_learn o ci ow lf V false custom bdeu K pick = Raise AssertionError.
Proof. intros o ci ow lf V custom bdeu K pick Ho Hlf. exact (brai_unscored o Ho lf V pick Hlf ci ow custom bdeu K). Qed.
Print Assumptions C80_brai_unscored_refuted.

(** with a scoring function of the caller and scoring data learning can raise AttributeError *)
Theorem C80_brai_custom_refuted : ∃ o ci lf V bdeu pick, iter_ok o ∧ size V * size V + 1 < lf ∧
  brai_learn o ci true lf V true true bdeu 2 pick = Raise AttributeError.
Proof.
  exists ord_up, (λ _ _ _ _, true), 9, {[0; 1]}, (λ _ _, 0%Q), (λ _ _, 0).
  split_and!; [exact ord_up_ok|vm_compute; lia|by vm_compute].
Qed.
Print Assumptions C80_brai_custom_refuted.

(** two hypotheses over two nodes, the first keeps the edge, the second removes it and has the higher score *)
Definition ci2 : citest := λ log _ _ _, bool_decide (length log = 1).
Definition bdeu2 : graph → nset → Q := λ d _, if decide (gadj d 0 ∪ gadj d 1 = ∅) then 2%Q else 1%Q.
Definition pick2 : nat → list score → nat := λ n l, if decide (n = 0) then 0 else length l - 1.
Lemma pick2_ok n (l : list score) : l ≠ [] → pick2 n l < length l.
Proof. intros Hl. unfold pick2. destruct l; [done|]. destruct (decide (n = 0)); simpl; lia. Qed.
Example C80_case : returns (brai_learn ord_up ci2 true 9 {[0; 1]} true false bdeu2 2 pick2) (λ '(t, s, g),
  bool_decide (mset g 0 Tail = ∅) = true ∧ length (pc_log s) = 2 ∧
  match t with GNode _ _ [_; _] => True | _ => False end).
Proof. by vm_compute. Qed.

(** ** C81 *)
(** an edge can be missing although the CI test never answered independent for its ends *)
Definition ci5 : citest := λ _ a b c, bool_decide (c = []) &&
  (bool_decide (hkey a b = hkey 0 4) || bool_decide (hkey a b = hkey 1 4) || bool_decide (hkey a b = hkey 2 3)).
Theorem C81_brai_missing_refuted : ∃ o ci ow lf V bdeu pick, iter_ok o ∧ size V * size V + 1 < lf ∧
  (∀ n l, l ≠ [] → pick n l < length l) ∧
  returns (brai_learn o ci ow lf V true false bdeu 1 pick) (λ '(t, s, g),
    ∃ a b, a ∈ V ∧ b ∈ V ∧ a ≠ b ∧ ¬ pd_adj g a b ∧ ∀ c, (a, b, c, true) ∉ pc_log s ∧ (b, a, c, true) ∉ pc_log s).
Proof.
  exists ord_sorted, ci5, true, 40, {[0;1;2;3;4]}, (λ _ _, 0%Q), (λ _ _, 0).
  split_and!; [exact ord_sorted_ok|vm_compute; lia|by intros n [|x l]; [|simpl; lia]|].
  assert (returns (brai_learn ord_sorted ci5 true 40 {[0;1;2;3;4]} true false (λ _ _, 0%Q) 1 (λ _ _, 0)) (λ '(t, s, g),
    bool_decide (1 ∉ mset g 3 Tail) && bool_decide (1 ∉ mset g 3 Directed) && bool_decide (3 ∉ mset g 1 Directed) &&
    forallb (λ '(a, b, c, r), negb r || negb (bool_decide (a = 1 ∧ b = 3) || bool_decide (a = 3 ∧ b = 1))) (pc_log s) = true)) as H.
  { by vm_compute. }
  eapply returns_mono; [exact H|]. clear H. cbn beta. intros [[t s] g] Hs.
  rewrite !andb_true_iff, !bool_decide_eq_true in Hs. destruct Hs as [[[H1 H2] H3] H4].
  rewrite forallb_forall in H4.
  exists 1, 3. split_and!; [by apply (bool_decide_unpack _)..|done| |].
  - intros [?|[?|?]]; done.
  - intros c. split; intros Hin; apply elem_of_list_In, H4 in Hin;
      cbn [negb orb] in Hin; rewrite negb_true_iff, orb_false_iff, !bool_decide_eq_false in Hin; clear -Hin; tauto.
Qed.
Print Assumptions C81_brai_missing_refuted.

(** ** C82 *)
Theorem C82_add_edges_from : ∀ o g src en ex, iter_ok o → 
  let E := default (mnodes g) en in let A := default ∅ ex ∪ E in
  returns (add_edges_from o g src en ex) (λ q, mnodes q = mnodes g ∧
    (∀ a b, darrow q a b ↔ darrow g a b ∨ (b ∈ E ∧ a ∈ A ∧ darrow src a b)) ∧
    (∀ a b, uline q a b ↔ uline g a b ∨ (b ∈ E ∧ a ∈ A ∧ uline src a b) ∨ (a ∈ E ∧ b ∈ A ∧ uline src b a))).
Proof. exact add_edges_from_spec. Qed.
Print Assumptions C82_add_edges_from.

Theorem C82_add_edges_from_wf : ∀ o g src en ex, iter_ok o → pd_wf g → pd_wf src → en ⊆ mnodes g → ex ⊆ mnodes g →
  (∀ a b, pd_adj g a b → a ∉ en ∧ b ∉ en) →
  returns (add_edges_from o g src (Some en) (Some ex)) pd_wf.
Proof.
  intros o g src en ex Ho Hg Hs Hen Hex Hno. eapply returns_mono; [by apply add_edges_from_wf|]. cbn beta. tauto.
Qed.
Print Assumptions C82_add_edges_from_wf.

Theorem C82_delete_edges_not_present_in : ∀ o g src ns, iter_ok o → pd_wf src →
  let E := default (mnodes src) ns in
  returns (delete_edges_not_present_in o g src ns) (λ q, mnodes q = mnodes g ∧
    (∀ a b, darrow q a b ↔ darrow g a b ∧ ¬ (a ∈ E ∧ b ∈ E ∧ a ≠ b ∧ ¬ pd_adj src a b)) ∧
    (∀ a b, uline q a b ↔ uline g a b ∧ ¬ (a ∈ E ∧ b ∈ E ∧ a ≠ b ∧ ¬ pd_adj src a b))).
Proof. exact delete_not_present_spec. Qed.
Print Assumptions C82_delete_edges_not_present_in.

(** pA: the edges of pA into 2 and 3 from 0, 1, 2, 3 copied to an empty graph *)
Example C82_case : pd_wf pA ∧
  returns (add_edges_from ord_up (mempty (mnodes pA)) pA (Some {[2;3]}) (Some {[0;1]})) (λ q,
    List.map (λ n, (bool_decide (mset q n Directed = mset pA n Directed ∩ {[0;1;2;3]}),
                    bool_decide (mset q n Tail = mset pA n Tail ∩ {[0;1;2;3]}))) [2;3] = [(true, true); (true, true)]) ∧
  returns (delete_edges_not_present_in ord_up pA (mempty (mnodes pA)) (Some {[2;3]})) (λ q,
    bool_decide (mset q 3 Directed ∪ mset q 3 Tail = (mset pA 3 Directed ∪ mset pA 3 Tail) ∖ {[2]}) = true).
Proof. split; [apply pA_wf|]. split; by vm_compute. Qed.

(** ** C83 *)
Theorem C83_sample_cpdag : ∀ o ci ow lf V bdeu K (pick : nat → list score → nat) temp n,
  iter_ok o → size V * size V + 1 < lf → 0 < K → (∀ n l, l ≠ [] → pick n l < length l) → (0 <= temp)%Q →
  returns (brai_learn o ci ow lf V true false bdeu K pick) (λ '(t, _, _),
  returns (sample_cpdag o lf V pick temp t n) (λ '(g, sc, _),
    mnodes g = V ∧ pd_wf g ∧ (∀ a b, ¬ (darrow g a b ∧ darrow g b a)) ∧ no_rule_applies g [1;2;3] V ∧
    ∃ p l, picks t l ∧ union_of V l p ∧ pd_wf p ∧ pd_same_skeleton p g ∧
      (∀ a b c, darrow p a c → darrow p b c → a ≠ b → ¬ pd_adj p a b → darrow g a c) ∧
      score_eq sc (total l) ∧ ((temp == 0)%Q → ∀ l', picks t l' → score_le (total l') (total l)))).
Proof.
  intros o ci ow lf V bdeu K pick temp n Ho Hlf HK Hp Htemp.
  eapply returns_mono; [by apply (brai_learn_spec o Ho lf V pick Hlf Hp ci ow bdeu K HK)|]. cbn beta.
  intros [[t s] g0] [Ht _].
  destruct (sample_steps o Ho lf V pick Hlf Hp temp t n Ht Htemp)
    as (p & g & sc & n' & _ & _ & E & H1 & H2 & H3 & H4 & H5 & H6 & H7 & l & I1 & I2 & I3 & I4).
  rewrite E. cbn [returns]. split_and!; [done..|]. exists p, l. split_and!; [done..| |done|].
  - intros a b c Ha Hb Hne Hn. apply H7. split; [done|]. by exists b.
  - intros H0 l' Hl'. rewrite <-I3. by apply I4.
Qed.
Print Assumptions C83_sample_cpdag.

(** drawing the hypotheses of C80_case: the first draw gives the edge, the second does not *)
Example C83_case : returns (brai_learn ord_up ci2 true 9 {[0; 1]} true false bdeu2 2 pick2) (λ '(t, _, _),
  returns (samples ord_up 9 {[0; 1]} pick2 1 t 2 0) (λ gs,
    List.map (λ g, bool_decide (0 ∈ mset g 1 Tail)) gs = [true; false])).
Proof. by vm_compute. Qed.

(** every leaf that a choice of hypotheses leads to carries the score of a DAG that extends its edges, or minus infinity if
    there is none *)
Theorem C83_leaf_scores : ∀ o ci ow lf V bdeu K (pick : nat → list score → nat),
  iter_ok o → size V * size V + 1 < lf → 0 < K → (∀ n l, l ≠ [] → pick n l < length l) →
  returns (brai_learn o ci ow lf V true false bdeu K pick) (λ '(t, _, _), ∀ l, picks t l → Forall (leaf_scored V bdeu) l).
Proof.
  intros o ci ow lf V bdeu K pick Ho Hlf HK Hp.
  eapply returns_mono; [by apply (brai_learn_spec o Ho lf V pick Hlf Hp ci ow bdeu K HK)|]. cbn beta.
  intros [[t s] g] [Ht _] l Hl. by eapply tree_leaves.
Qed.
Print Assumptions C83_leaf_scores.

(** the leaves of C80_case, and a leaf with four nodes in a cycle that no DAG extends *)
Fixpoint tree_scores (fuel : nat) (t : ggt) : list score :=
  match fuel with
  | 0 => []
  | S fuel => match t with
              | GLeaf _ _ _ sc => [sc]
              | GNode _ _ cs => concat (List.map (λ c, concat (List.map (tree_scores fuel) c.1) ++ tree_scores fuel c.2) cs)
              end
  end.
Definition ci4 : citest := λ _ a b _, bool_decide ((a, b) ∈ [(0,2);(2,0);(1,3);(3,1)]).
Example C83_leaf_case :
  returns (brai_learn ord_up ci2 true 9 {[0; 1]} true false bdeu2 2 pick2) (λ '(t, _, _), tree_scores 9 t = [Some 1%Q; Some 2%Q]) ∧
  returns (brai_learn ord_up ci4 true 20 {[0;1;2;3]} true false bdeu2 1 pick2) (λ '(t, _, _), tree_scores 20 t = [None]).
Proof. split; by vm_compute. Qed.

(** ** C56 *)
(** two samples, the first with the edge, the second without; threshold 1/4: the edge is missing from the result *)
Theorem C56_uncertainty_refuted : ∃ o ci ow lf V bdeu K pick M th temp,
  iter_ok o ∧ size V * size V + 1 < lf ∧ 0 < K ∧ (∀ n l, l ≠ [] → pick n l < length l) ∧ (0 <= temp)%Q ∧
  returns (brai_learn o ci ow lf V true false bdeu K pick) (λ '(t, _, g),
  returns (samples o lf V pick temp t M 0) (λ gs,
  returns (calc_graph_uncertainty o lf V pick M th temp t 0 [g] 0) (λ sk,
    ∃ a b, a ∈ V ∧ b ∈ V ∧ a ≠ b ∧
      (th * inject_Z (Z.of_nat M) < inject_Z (Z.of_nat (adj_count gs a b)))%Q ∧ ¬ pd_adj sk a b))).
Proof.
  exists ord_up, ci2, true, 9, {[0; 1]}, bdeu2, 2, pick2, 2, (1#4)%Q, 1%Q.
  split_and!; [exact ord_up_ok|vm_compute; lia|lia|exact pick2_ok|by vm_compute|].
  assert (returns (brai_learn ord_up ci2 true 9 {[0; 1]} true false bdeu2 2 pick2) (λ '(t, _, g),
    returns (samples ord_up 9 {[0; 1]} pick2 1 t 2 0) (λ gs,
    returns (calc_graph_uncertainty ord_up 9 {[0; 1]} pick2 2 (1#4) 1 t 0 [g] 0) (λ sk,
      bool_decide (adj_count gs 0 1 = 1) && bool_decide (0 ∉ mset sk 1 Tail) &&
      bool_decide (0 ∉ mset sk 1 Directed) && bool_decide (1 ∉ mset sk 0 Directed) = true)))) as H by by vm_compute.
  eapply returns_mono; [exact H|]. clear H. cbn beta. intros [[t s] g] H1. eapply returns_mono; [exact H1|]. clear H1. cbn beta.
  intros gs H2. eapply returns_mono; [exact H2|]. clear H2. cbn beta. intros sk H3.
  rewrite !andb_true_iff, !bool_decide_eq_true in H3. destruct H3 as [[[H3 H4] H5] H6].
  exists 0, 1. split_and!; [set_solver +|set_solver +|done| |].
  - rewrite H3. by vm_compute.
  - intros [?|[?|?]]; done.
Qed.
Print Assumptions C56_uncertainty_refuted.

(** what the result is: the first sample is lost and the last one is counted twice *)
Theorem C56_uncertainty_partial : ∀ o ci ow lf V bdeu K (pick : nat → list score → nat) M th temp n heap cur,
  iter_ok o → size V * size V + 1 < lf → 0 < K → (∀ n l, l ≠ [] → pick n l < length l) → (0 <= temp)%Q → cur < length heap →
  returns (brai_learn o ci ow lf V true false bdeu K pick) (λ '(t, _, _),
  returns (samples o lf V pick temp t M n) (λ gs,
  returns (calc_graph_uncertainty o lf V pick M th temp t n heap cur) (λ sk,
    length gs = M ∧ mnodes sk = V ∧ pd_wf sk ∧ (∀ a b, ¬ darrow sk a b) ∧
    ∀ a b, a ∈ V → b ∈ V → a ≠ b →
      uline sk a b ↔ (th * inject_Z (Z.of_nat M) < inject_Z (Z.of_nat (adj_count (first_lost gs) a b)))%Q))).
Proof.
  intros o ci ow lf V bdeu K pick M th temp n heap cur Ho Hlf HK Hp Htemp Hcur.
  eapply returns_mono; [by apply (brai_learn_spec o Ho lf V pick Hlf Hp ci ow bdeu K HK)|]. cbn beta.
  intros [[t s] g0] [Ht _].
  eapply returns_mono; [exact (returns_and _ _ _ (samples_spec o Ho lf V pick Hlf Hp temp t M Ht Htemp n)
    (uncertainty_spec o Ho lf V pick Hlf Hp temp t M n th heap cur Ht Htemp Hcur))|].
  cbn beta. intros gs [[Hlen _] H]. eapply returns_mono; [exact H|]. cbn beta. tauto.
Qed.
Print Assumptions C56_uncertainty_partial.

Example C56_case : first_lost [mempty ∅; pA; mempty {[1]}] = [pA; mempty {[1]}; mempty {[1]}].
Proof. done. Qed.
