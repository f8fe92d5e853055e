(** Property C134: what overwrite_starting_graph=False makes independent of iteration orders in RAI.
    [o], [iter_ok o] and the fuel [lf] as in PropGraph.v, [ci] and [pc_log] as in PropPC.v. *)
From Verif Require Import Base BaseLemmas ModelGraph Spec ModelMixed SpecMixed ModelPC SpecPC ModelRAI SpecRAI SpecRAIStable
  ProofGraph ProofGraph3 ProofPDAG ProofMixed2 PropMixed ProofPC2 ProofRAI ProofRAIStable PropRAI.

(** ** C134 *)
(** the whole run: even with a perfect oracle the skeleton depends on the order in which sets are traversed *)
Theorem C134_rai_order_refuted : ∃ o1 o2 o' d lf fuel' s1 s2, iter_ok o1 ∧ iter_ok o2 ∧ iter_ok o' ∧ wf_graph d ∧ acyclic d ∧
  size (gnodes d) * size (gnodes d) + 1 < lf ∧ size (gnodes d) < fuel' ∧
  rai_learn o1 (dsep_ci o' fuel' d) false lf (gnodes d) = Ok s1 ∧ rai_learn o2 (dsep_ci o' fuel' d) false lf (gnodes d) = Ok s2 ∧
  ¬ pd_same_skeleton (pc_graph s1) (pc_graph s2).
Proof.
  assert (returns (rai_learn ord_sorted (dsep_ci ord_up 6 dR) false 30 (gnodes dR)) (λ s,
    bool_decide (2 ∈ mset (pc_graph s) 3 Directed) = true)) as R1 by by vm_compute.
  destruct (proj1 (returns_ok _ _) R1) as (s1 & E1 & H1).
  assert (returns (rai_learn ord_down (dsep_ci ord_up 6 dR) false 30 (gnodes dR)) (λ s,
    bool_decide (2 ∉ mset (pc_graph s) 3 Directed ∧ 2 ∉ mset (pc_graph s) 3 Tail ∧ 3 ∉ mset (pc_graph s) 2 Directed) = true)) as R2 by by vm_compute.
  destruct (proj1 (returns_ok _ _) R2) as (s2 & E2 & H2).
  apply bool_decide_eq_true_1 in H1. apply bool_decide_eq_true_1 in H2.
  exists ord_sorted, ord_down, ord_up, dR, 30, 6, s1, s2.
  split_and!; [exact ord_sorted_ok|exact ord_down_ok|exact ord_up_ok|apply mk_graph_wf; by vm_compute|
    apply mk_graph_acyclic; by vm_compute|vm_compute; lia|vm_compute; lia|done|done|].
  intros [_ H]. assert (pd_adj (pc_graph s1) 2 3) as H3 by (right; by left). apply H in H3.
  destruct H2 as (X & Y & Z), H3 as [?|[?|?]]; contradiction.
Qed.
Print Assumptions C134_rai_order_refuted.

(** one refinement pass: exactly the edges are removed for which the graph at the start of the pass has a separating set among the nodes
    that may precede one end; the other edges keep their marks *)
Theorem C134_endogenous_pass_partial : ∀ o ci (f : node → node → nset → bool) en k s, iter_ok o →
  (∀ h i j c, ci h i j c = f i j (list_to_set c)) → (∀ i j S, f i j S = f j i S) → pd_wf (pc_graph s) →
  returns (refine_endogenous o ci false en k s) (λ s',
    without (pc_graph s) (λ a b, a ∈ en ∧ b ∈ en ∧ sep_found f (pc_graph s) k a b) (pc_graph s')).
Proof. exact refine_endogenous_stable. Qed.
Print Assumptions C134_endogenous_pass_partial.

Theorem C134_exogenous_pass_partial : ∀ o ci (f : node → node → nset → bool) en ex k s, iter_ok o → en ## ex →
  (∀ h i j c, ci h i j c = f i j (list_to_set c)) → (∀ i j S, f i j S = f j i S) → pd_wf (pc_graph s) →
  returns (refine_exogenous o ci false en ex k s) (λ s',
    without (pc_graph s) (λ a b, (a ∈ en ∧ b ∈ ex ∨ a ∈ ex ∧ b ∈ en) ∧ sep_found f (pc_graph s) k a b) (pc_graph s')).
Proof. exact refine_exogenous_stable. Qed.
Print Assumptions C134_exogenous_pass_partial.

(** so two passes from the same graph, in any two orders, end with the same graph *)
Theorem C134_pass_order_partial : ∀ o1 o2 ci (f : node → node → nset → bool) en ex k s, iter_ok o1 → iter_ok o2 → en ## ex →
  (∀ h i j c, ci h i j c = f i j (list_to_set c)) → (∀ i j S, f i j S = f j i S) → pd_wf (pc_graph s) →
  (∃ s1 s2, refine_endogenous o1 ci false en k s = Ok s1 ∧ refine_endogenous o2 ci false en k s = Ok s2 ∧
     pd_same (pc_graph s1) (pc_graph s2)) ∧
  (∃ s1 s2, refine_exogenous o1 ci false en ex k s = Ok s1 ∧ refine_exogenous o2 ci false en ex k s = Ok s2 ∧
     pd_same (pc_graph s1) (pc_graph s2)).
Proof.
  intros o1 o2 ci f en ex k s H1 H2 Hd Hci Hsym Hw.
  assert (∀ g D h h', without g D h → without g D h' → pd_same h h') as Hu.
  { intros g D h h' [N W] [N' W']. split; [congruence|]. intros a b. destruct (W a b), (W' a b). tauto. }
  split.
  - destruct (proj1 (returns_ok _ _) (refine_endogenous_stable o1 ci f en k s H1 Hci Hsym Hw)) as (s1 & E1 & W1).
    destruct (proj1 (returns_ok _ _) (refine_endogenous_stable o2 ci f en k s H2 Hci Hsym Hw)) as (s2 & E2 & W2). eauto 10.
  - destruct (proj1 (returns_ok _ _) (refine_exogenous_stable o1 ci f en ex k s H1 Hd Hci Hsym Hw)) as (s1 & E1 & W1).
    destruct (proj1 (returns_ok _ _) (refine_exogenous_stable o2 ci f en ex k s H2 Hd Hci Hsym Hw)) as (s2 & E2 & W2). eauto 10.
Qed.
Print Assumptions C134_pass_order_partial.

(** with overwrite_starting_graph=True a single pass depends on the order: 1 --- 0 --- 2, 0 and 1 are independent given 2, 0 and 2 given 1 *)
Definition f134 (i j : node) (S : nset) : bool :=
  bool_decide (({[i; j]} : nset) = {[0; 1]} ∧ S = {[2]}) || bool_decide (({[i; j]} : nset) = {[0; 2]} ∧ S = {[1]}).
Definition ci134 : citest := λ _ i j c, f134 i j (list_to_set c).
Definition s134 : pc_state := PCState (mk_mg [0;1;2] (und_ 0 1 ++ und_ 0 2)) (pc_sep (pc_init ord_up {[0;1;2]})) [].
Theorem C134_overwrite_pass_refuted : ∃ o1 o2 ci (f : node → node → nset → bool) en k s s1 s2, iter_ok o1 ∧ iter_ok o2 ∧
  (∀ h i j c, ci h i j c = f i j (list_to_set c)) ∧ (∀ i j S, f i j S = f j i S) ∧ pd_wf (pc_graph s) ∧
  refine_endogenous o1 ci true en k s = Ok s1 ∧ refine_endogenous o2 ci true en k s = Ok s2 ∧
  ¬ pd_same_skeleton (pc_graph s1) (pc_graph s2).
Proof.
  assert (returns (refine_endogenous ord_sorted ci134 true {[0;1;2]} 1 s134) (λ s,
    bool_decide (2 ∈ mset (pc_graph s) 0 Tail) = true)) as R1 by by vm_compute.
  destruct (proj1 (returns_ok _ _) R1) as (s1 & E1 & H1).
  assert (returns (refine_endogenous (λ t S, reverse (ord_sorted t S)) ci134 true {[0;1;2]} 1 s134) (λ s,
    bool_decide (2 ∉ mset (pc_graph s) 0 Directed ∧ 2 ∉ mset (pc_graph s) 0 Tail ∧ 0 ∉ mset (pc_graph s) 2 Directed) = true)) as R2 by by vm_compute.
  destruct (proj1 (returns_ok _ _) R2) as (s2 & E2 & H2).
  apply bool_decide_eq_true_1 in H1. apply bool_decide_eq_true_1 in H2.
  exists ord_sorted, (λ t S, reverse (ord_sorted t S)), ci134, f134, {[0;1;2]}, 1, s134, s1, s2.
  split_and!; [exact ord_sorted_ok| |done| |apply mk_pd_wf; by vm_compute|done|done|].
  - intros t S. rewrite reverse_Permutation. apply ord_sorted_ok.
  - intros i j S. unfold f134. by rewrite (pair_set_comm i j).
  - intros [_ H]. assert (pd_adj (pc_graph s1) 2 0) as H3 by by left. apply H in H3.
    destruct H2 as (X & Y & Z), H3 as [?|[?|?]]; contradiction.
Qed.
Print Assumptions C134_overwrite_pass_refuted.

(** so does a pass over pairs of an endogenous and an exogenous node: 0 is endogenous, 1 and 2 are exogenous *)
Theorem C134_overwrite_exogenous_refuted : ∃ o1 o2 ci (f : node → node → nset → bool) en ex k s s1 s2, iter_ok o1 ∧ iter_ok o2 ∧ en ## ex ∧
  (∀ h i j c, ci h i j c = f i j (list_to_set c)) ∧ (∀ i j S, f i j S = f j i S) ∧ pd_wf (pc_graph s) ∧
  refine_exogenous o1 ci true en ex k s = Ok s1 ∧ refine_exogenous o2 ci true en ex k s = Ok s2 ∧
  ¬ pd_same_skeleton (pc_graph s1) (pc_graph s2).
Proof.
  assert (returns (refine_exogenous ord_sorted ci134 true {[0]} {[1;2]} 1 s134) (λ s,
    bool_decide (2 ∈ mset (pc_graph s) 0 Tail) = true)) as R1 by by vm_compute.
  destruct (proj1 (returns_ok _ _) R1) as (s1 & E1 & H1).
  assert (returns (refine_exogenous (λ t S, reverse (ord_sorted t S)) ci134 true {[0]} {[1;2]} 1 s134) (λ s,
    bool_decide (2 ∉ mset (pc_graph s) 0 Directed ∧ 2 ∉ mset (pc_graph s) 0 Tail ∧ 0 ∉ mset (pc_graph s) 2 Directed) = true)) as R2 by by vm_compute.
  destruct (proj1 (returns_ok _ _) R2) as (s2 & E2 & H2).
  apply bool_decide_eq_true_1 in H1. apply bool_decide_eq_true_1 in H2.
  exists ord_sorted, (λ t S, reverse (ord_sorted t S)), ci134, f134, {[0]}, {[1;2]}, 1, s134, s1, s2.
  split_and!; [exact ord_sorted_ok| |set_solver +|done| |apply mk_pd_wf; by vm_compute|done|done|].
  - intros t S. rewrite reverse_Permutation. apply ord_sorted_ok.
  - intros i j S. unfold f134. by rewrite (pair_set_comm i j).
  - intros [_ H]. assert (pd_adj (pc_graph s1) 2 0) as H3 by by left. apply H in H3.
    destruct H2 as (X & Y & Z), H3 as [?|[?|?]]; contradiction.
Qed.
Print Assumptions C134_overwrite_exogenous_refuted.

(** on the same graph a pass that does not overwrite removes both edges *)
Example C134_case : (∀ h i j c, ci134 h i j c = f134 i j (list_to_set c)) ∧ (∀ i j S, f134 i j S = f134 j i S) ∧ pd_wf (pc_graph s134) ∧
  sep_found f134 (pc_graph s134) 1 0 1 ∧ sep_found f134 (pc_graph s134) 1 0 2 ∧ ¬ sep_found f134 (pc_graph s134) 0 0 1 ∧
  returns (refine_endogenous ord_down ci134 false {[0;1;2]} 1 s134) (λ s, bool_decide (mset (pc_graph s) 0 Tail = ∅) = true).
Proof.
  split_and!; [done| |apply mk_pd_wf; by vm_compute| | | |by vm_compute].
  - intros i j S. unfold f134. by rewrite (pair_set_comm i j).
  - exists {[2]}. split_and!; [by vm_compute..|]. left. intros x ->%elem_of_singleton. split; [|done]. right. by apply mk_mg_mark; vm_compute; set_solver.
  - exists {[1]}. split_and!; [by vm_compute..|]. left. intros x ->%elem_of_singleton. split; [|done]. right. by apply mk_mg_mark; vm_compute; set_solver.
  - intros (S & Hk & Hf & _). apply size_empty_inv in Hk. assert (S = ∅) as -> by set_solver +Hk. by vm_compute in Hf.
Qed.
