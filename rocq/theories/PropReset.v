(** Property C135: clearing or completing part of a graph. *)
From Verif Require Import Base BaseLemmas ModelGraph Spec ModelMixed SpecMixed ProofGraph3 ProofPDAG ProofMixed ProofMixed2 PropMixed.

(** an edge of g leaves W *)
Definition crosses (g : mgraph) (W : nset) : Prop := ∃ a b, a ∈ W ∧ b ∉ W ∧ mg_adj g a b.

Lemma complete_marks g k W a j b : has_mark (create_complete PAG_T g k (Some W)) a j b ↔
  (b ∈ W ∧ a ∈ W ∧ a ≠ b ∧ j = k) ∨ (b ∉ W ∧ has_mark g a j b).
Proof.
  unfold has_mark, create_complete, create_empty. cbn [mset default from_option]. unfold id.
  destruct (decide (b ∈ W ∧ j = k)) as [[? ->]|H]; [rewrite elem_of_difference, elem_of_singleton; tauto|].
  destruct (decide (b ∈ W ∧ j ∈ PAG_T)) as [[? ?]|H'].
  - rewrite elem_of_empty. tauto.
  - assert (b ∉ W) by (intros ?; apply H'; split; [done|apply mark_in_PAG]). tauto.
Qed.
Lemma empty_marks g W a j b : has_mark (create_empty PAG_T g (Some W)) a j b ↔ b ∉ W ∧ has_mark g a j b.
Proof.
  unfold has_mark, create_empty. cbn [mset default from_option]. unfold id.
  destruct (decide (b ∈ W ∧ j ∈ PAG_T)) as [[? ?]|H'].
  - rewrite elem_of_empty. tauto.
  - assert (b ∉ W) by (intros ?; apply H'; split; [done|apply mark_in_PAG]). tauto.
Qed.
Lemma pd_complete_marks g W a b :
  (darrow (pd_complete g (Some W)) a b ↔ b ∉ W ∧ darrow g a b) ∧
  (uline (pd_complete g (Some W)) a b ↔ (b ∈ W ∧ a ∈ W ∧ a ≠ b) ∨ (b ∉ W ∧ uline g a b)).
Proof.
  unfold darrow, uline, has_mark, pd_complete, create_complete, create_empty. cbn [mset default from_option]. unfold id.
  assert (Directed ∈ PDAG_T ∧ Tail ∈ PDAG_T) as [? ?] by (unfold PDAG_T; set_solver +). split.
  - rewrite decide_False by (intros [_ ?]; done). destruct (decide (b ∈ W ∧ Directed ∈ PDAG_T)) as [[? _]|H'].
    + rewrite elem_of_empty. tauto.
    + assert (b ∉ W) by tauto. tauto.
  - destruct (decide (b ∈ W ∧ Tail = Tail)) as [[? _]|H']; [rewrite elem_of_difference, elem_of_singleton; tauto|].
    rewrite decide_False by tauto. tauto.
Qed.

(** ** C135 *)
(** completing or clearing part of a well-formed graph can leave an edge with a mark at one end only *)
Theorem C135_part_refuted : ∃ g W k a b, mg_wf g ∧ W ⊆ mnodes g ∧
  let h := create_complete PAG_T g k (Some W) in let e := create_empty PAG_T g (Some W) in
  ¬ mg_wf h ∧ m_is_connected PAG_T h a b = Ok true ∧ get_edge_mark PAG_T h a b = None ∧ get_edge_mark PAG_T h b a = Some Directed ∧
  ¬ mg_wf e ∧ m_is_connected PAG_T e a b = Ok true ∧ get_edge_mark PAG_T e a b = None ∧ get_edge_mark PAG_T e b a = Some Directed.
Proof.
  (* mA: 0 o-> 1 <-> 2 *)
  exists mA, {[0; 2]}, Circle, 1, 2. cbn zeta.
  assert (has_mark mA 2 Directed 1) as H21 by (apply mk_mg_mark; unfold mA_es; set_solver +).
  assert (1 ∉ ({[0; 2]} : nset) ∧ 2 ∈ ({[0; 2]} : nset)) as [N1 N2] by (split; set_solver +).
  split; [exact mA_wf|]. split; [intros x Hx; apply mk_mg_nodes; set_solver +Hx|].
  split; [|split; [by vm_compute|split; [by vm_compute|split; [by vm_compute|split; [|by split_and!; vm_compute]]]]].
  - intros Hw. destruct (mgw_both _ Hw 2 Directed 1) as (j & Hj).
    + apply complete_marks. by right.
    + apply complete_marks in Hj as [(_ & ? & _)|[? _]]; done.
  - intros Hw. destruct (mgw_both _ Hw 2 Directed 1) as (j & Hj).
    + apply empty_marks. done.
    + apply empty_marks in Hj as [? _]. done.
Qed.
Print Assumptions C135_part_refuted.

(** this happens exactly when an edge leaves the part; otherwise the part is complete (empty) and the rest unchanged *)
Theorem C135_part_partial : ∀ g k W, mg_wf g → W ⊆ mnodes g →
  (mg_wf (create_complete PAG_T g k (Some W)) ↔ ¬ crosses g W) ∧
  (mg_wf (create_empty PAG_T g (Some W)) ↔ ¬ crosses g W) ∧
  (∀ a b, a ∈ W → b ∈ W → a ≠ b → has_mark (create_complete PAG_T g k (Some W)) a k b ∧ ¬ mg_adj (create_empty PAG_T g (Some W)) a b) ∧
  (∀ a j b, a ∉ W → b ∉ W →
    (has_mark (create_complete PAG_T g k (Some W)) a j b ↔ has_mark g a j b) ∧
    (has_mark (create_empty PAG_T g (Some W)) a j b ↔ has_mark g a j b)).
Proof.
  intros g k W Hw HW. split_and!.
  - split.
    + intros Hc (a & b & Ha & Hb & j & Hj). destruct (mgw_both _ Hc a j b) as (i & Hi); [apply complete_marks; by right|].
      apply complete_marks in Hi as [(_ & ? & _)|[? _]]; done.
    + intros Hn. split.
      * intros a j b [(? & ? & ? & _)|[_ H]]%complete_marks; [split_and!; [by apply HW..|done]|]. by apply (mgw_in _ Hw) in H.
      * intros a j b [(Hb & Ha & Hne & _)|[Hb H]]%complete_marks.
        -- exists k. apply complete_marks. left. split_and!; done.
        -- destruct (mgw_both _ Hw _ _ _ H) as (i & Hi). exists i. apply complete_marks. right. split; [|done].
           intros Ha. apply Hn. exists a, b. split_and!; [done..|by exists j].
      * intros a j j' b [(? & ? & ? & ->)|[? H]]%complete_marks [(? & ? & ? & ->)|[? H']]%complete_marks; try done.
        by apply (mgw_one _ Hw a j j' b).
  - split.
    + intros Hc (a & b & Ha & Hb & j & Hj). destruct (mgw_both _ Hc a j b) as (i & Hi); [by apply empty_marks|].
      by apply empty_marks in Hi as [? _].
    + intros Hn. split.
      * intros a j b [_ H]%empty_marks. by apply (mgw_in _ Hw) in H.
      * intros a j b [Hb H]%empty_marks. destruct (mgw_both _ Hw _ _ _ H) as (i & Hi). exists i. apply empty_marks. split; [|done].
        intros Ha. apply Hn. exists a, b. split_and!; [done..|by exists j].
      * intros a j j' b [? H]%empty_marks [? H']%empty_marks. by apply (mgw_one _ Hw a j j' b).
  - intros a b Ha Hb Hne. split; [apply complete_marks; by left|]. intros [j [? _]%empty_marks]. done.
  - intros a j b Ha Hb. rewrite complete_marks, empty_marks. tauto.
Qed.
Print Assumptions C135_part_partial.

(** the same for PDAGs, where a directed edge is stored at its head only: arrows into the part are lost, arrows out of it stay, and the
    result is well formed exactly when no undirected edge leaves the part *)
Theorem C135_pdag_partial : ∀ g W, pd_wf g → W ⊆ mnodes g →
  (pd_wf (pd_complete g (Some W)) ↔ ∀ a b, a ∈ W → b ∉ W → ¬ uline g a b) ∧
  (∀ a b, a ∈ W → b ∈ W → a ≠ b → uline (pd_complete g (Some W)) a b) ∧
  (∀ a b, darrow (pd_complete g (Some W)) a b ↔ darrow g a b ∧ b ∉ W).
Proof.
  intros g W Hw HW. pose proof (pd_complete_marks g W) as M. split_and!.
  - split.
    + intros Hc a b Ha Hb Hu. assert (uline (pd_complete g (Some W)) a b) as H by (apply M; by right).
      apply (pdw_sym _ Hc), M in H as [(_ & ? & _)|[? _]]; done.
    + intros Hn. split.
      * intros a b [_ H]%M. by apply (pdw_dir _ Hw) in H.
      * intros a b [(? & ? & ?)|[_ H]]%M; [split_and!; [by apply HW..|done]|]. by apply (pdw_und _ Hw) in H.
      * intros a b [(? & ? & ?)|[Hb H]]%M; apply M; [left; by split_and!|]. right.
        split; [|by apply (pdw_sym _ Hw)]. intros Ha. by apply (Hn a b).
      * intros a b [(? & ? & ?)|[Hb H]]%M [? H']%M; [done|]. by apply (pdw_one _ Hw a b).
  - intros a b Ha Hb Hne. apply M. by left.
  - intros a b. rewrite (proj1 (M a b)). tauto.
Qed.
Print Assumptions C135_pdag_partial.

(** pA: 0 --> 2 <-- 1, 2 --- 3, 3 --- 4, 2 --- 4; the part {0, 1} has no undirected edge to the rest, the part {3, 4} has; mA: no edge leaves {4} *)
Example C135_case : pd_wf pA ∧ ({[0; 1]} : nset) ⊆ mnodes pA ∧ (∀ a b, a ∈ ({[0; 1]} : nset) → b ∉ ({[0; 1]} : nset) → ¬ uline pA a b) ∧
  (∃ a b, a ∈ ({[3; 4]} : nset) ∧ b ∉ ({[3; 4]} : nset) ∧ uline pA a b) ∧ mg_wf mA ∧ crosses mA {[0; 2]} ∧ ¬ crosses mA {[4]}.
Proof.
  split_and!; [exact pA_wf|intros x Hx; apply mk_mg_nodes; set_solver +Hx| | |exact mA_wf| |].
  - intros a b Ha _. unfold uline, pA. rewrite mk_mg_mark. unfold pA_es, dir_, und_. set_solver.
  - exists 3, 2. split_and!; [set_solver +..|]. apply mk_mg_mark. unfold pA_es, dir_, und_. set_solver +.
  - exists 2, 1. split_and!; [set_solver +..|]. exists Directed. apply mk_mg_mark. unfold mA_es, pag_. set_solver +.
  - intros (a & b & Ha & _ & k & H). apply mk_mg_mark in H. unfold mA_es, pag_ in H. set_solver.
Qed.
