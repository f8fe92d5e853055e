(** Property C133: the directions that recursive autonomy identification returns when its skeleton is right.
    [o], [iter_ok o] and the fuel [lf] as in PropGraph.v, [ci] and [pc_log] as in PropPC.v. *)
From Verif Require Import Base BaseLemmas ModelGraph Spec ModelMixed SpecMixed ModelPC SpecPC ModelRAI SpecRAI
  ProofGraph ProofGraph3 ProofPDAG ProofPDAG2 ProofMeek ProofVP ProofMixed2 PropMixed ProofPC ProofRAI PropMeek.

(** ** C133 *)
(** with a perfect oracle and exactly the skeleton of the DAG, an edge into an unshielded collider can come out reversed *)
Definition dO_list : list (node * node) := [(2,5); (2,0); (2,1); (4,5); (4,1); (5,0); (5,1); (0,1); (1,3)].
Definition dO : graph := mk_graph [0;1;2;3;4;5] dO_list.

Theorem C133_rai_orientation_refuted : ∃ o o' d lf fuel', iter_ok o ∧ iter_ok o' ∧ wf_graph d ∧ acyclic d ∧
  size (gnodes d) * size (gnodes d) + 1 < lf ∧ size (gnodes d) < fuel' ∧ ∀ ow,
  returns (rai_learn o (dsep_ci o' fuel' d) ow lf (gnodes d)) (λ s,
    (∀ a b, pd_adj (pc_graph s) a b ↔ adjacent d a b) ∧
    ∃ a c b, v_structure d a c b ∧ darrow (pc_graph s) c a).
Proof.
  exists ord_sorted, ord_up, dO, 60, 10.
  assert (wf_graph dO) as Hw by (apply mk_graph_wf; by vm_compute).
  assert (size (gnodes dO) * size (gnodes dO) + 1 < 60) as Hf by (vm_compute; lia).
  split_and!; [exact ord_sorted_ok|exact ord_up_ok|done|apply mk_graph_acyclic; by vm_compute|done|vm_compute; lia|].
  intros ow.
  assert (returns (rai_learn ord_sorted (dsep_ci ord_up 10 dO) ow 60 (gnodes dO)) (λ s,
    forallb (λ '(a, b), eqb
      (bool_decide (a ∈ mset (pc_graph s) b Tail ∪ mset (pc_graph s) b Directed) || bool_decide (b ∈ mset (pc_graph s) a Directed))
      (bool_decide ((a, b) ∈ dO_list) || bool_decide ((b, a) ∈ dO_list)))
      (list_prod (seq 0 6) (seq 0 6)) &&
    bool_decide (1 ∈ mset (pc_graph s) 0 Directed) = true)) as H
    by (destruct ow; by vm_compute).
  pose proof (rai_learn_inv ord_sorted (dsep_ci ord_up 10 dO) ow 60 (gnodes dO) ord_sorted_ok Hf) as H2.
  eapply returns_mono; [exact (returns_and _ _ _ H H2)|]. cbn beta. intros s [Hs [Hi _]].
  apply andb_true_iff in Hs as [Hs H10]. apply bool_decide_eq_true_1 in H10.
  assert (∀ a, a ∈ gnodes dO → a ∈ seq 0 6) as Hseq.
  { intros a Ha. apply elem_of_seq. change (gnodes dO) with (list_to_set [0;1;2;3;4;5] : nset) in Ha. apply elem_of_list_to_set in Ha. clear -Ha.
    rewrite !elem_of_cons, elem_of_nil in Ha. lia. }
  assert (∀ a b, adjacent dO a b ↔ (a, b) ∈ dO_list ∨ (b, a) ∈ dO_list) as Hadj.
  { intros a b. unfold adjacent, dO. by rewrite !mk_graph_edge. }
  split.
  - intros a b. rewrite Hadj.
    assert (a ∈ gnodes dO → b ∈ gnodes dO → pd_adj (pc_graph s) a b ↔ (a, b) ∈ dO_list ∨ (b, a) ∈ dO_list) as Hab.
    { intros Ha%Hseq Hb%Hseq. rewrite forallb_forall in Hs. 
      assert (In (a, b) (list_prod (seq 0 6) (seq 0 6))) as Hin by (apply in_prod; by apply elem_of_list_In).
      apply Hs in Hin. cbv beta iota in Hin. apply eqb_prop in Hin. apply (f_equal Is_true) in Hin.
      assert (Is_true (bool_decide (a ∈ mset (pc_graph s) b Tail ∪ mset (pc_graph s) b Directed) || bool_decide (b ∈ mset (pc_graph s) a Directed)) ↔
        Is_true (bool_decide ((a, b) ∈ dO_list) || bool_decide ((b, a) ∈ dO_list))) as Hx by by rewrite Hin.
      rewrite !orb_True, !bool_decide_spec, elem_of_union in Hx. unfold pd_adj, uline, darrow, has_mark. clear -Hx.
      generalize dependent dO_list. intros l Hx. tauto. }
    split.
    + intros H'. apply Hab; [..|done]; rewrite <-(ra_nodes _ _ _ _ Hi);
        (destruct H' as [H'|[H'|H']]; [apply (pdw_und _ (ra_wf _ _ _ _ Hi)) in H'|apply (pdw_dir _ (ra_wf _ _ _ _ Hi)) in H'..]; tauto).
    + intros H'. apply Hab; [..|done]; apply Hadj in H'; (destruct H' as [H'|H']; apply Hw in H'; tauto).
  - exists 0, 1, 4. split; [|exact H10].
    split_and!; [apply mk_graph_edge; set_solver +|apply mk_graph_edge; set_solver +|done|]. intros H'%Hadj. clear -H'. unfold dO_list in H'. set_solver.
Qed.
Print Assumptions C133_rai_orientation_refuted.

(** what does hold: the last step, which reads the colliders off the learned graph and directs everything anew
    (rai.py 40-58), yields the essential graph of a DAG whenever the graph it is given has the skeleton and the
    unshielded colliders of that DAG, whatever its other directions are *)
Theorem C133_re_orientation_partial : ∀ o lf d g, iter_ok o → wf_graph d → acyclic d → pd_wf g → mnodes g = gnodes d →
  size (gnodes d) * size (gnodes d) < lf →
  (∀ a b, pd_adj g a b ↔ adjacent d a b) →
  (∀ a c b, darrow g a c ∧ darrow g b c ∧ a ≠ b ∧ ¬ pd_adj g a b ↔ v_structure d a c b) →
  returns (re_orient o lf g) (λ h, pd_wf h ∧ essential_graph d h).
Proof.
  intros o lf d g Ho Hwf Hac Hw HNg Hf Hsk Hcol. unfold re_orient.
  eapply returns_bind; [by apply undirected_copy_spec|]. cbn beta. intros c (HN & HD & HU).
  assert (pd_wf c) as Hwc.
  { split.
    - intros a b H. by apply HD in H.
    - intros a b H%HU. split_and!; [..|by eapply pd_adj_ne]; rewrite HN;
        (destruct H as [H|[H|H]]; [apply (pdw_und _ Hw) in H|apply (pdw_dir _ Hw) in H|apply (pdw_dir _ Hw) in H]; tauto).
    - intros a b. rewrite !HU. by apply pd_adj_sym.
    - intros a b _. apply HD. }
  eapply returns_bind; [by apply mark_colliders_spec|]. cbn beta. intros c1 (N1 & W1 & A1 & D1 & U1).
  assert (∀ a b, shown_collider g a b ↔ vdir d a b) as Hsv.
  { intros a b. unfold shown_collider, vdir. split.
    - intros (H1 & z & H2 & H3 & H4). exists z. by apply Hcol.
    - intros (z & (H1 & H2 & H3 & H4)%Hcol). eauto. }
  assert (pattern_of d c1) as Hp.
  { split_and!; [congruence| |].
    - intros a b. by rewrite D1.
    - intros a b. by rewrite U1, HU, Hsk, !Hsv. }
  assert (∀ i, i ∈ [1;2;3] → 1 ≤ i ≤ 4) as Hr4 by (intros i; set_unfold; lia).
  assert (∀ i, i ∈ [1;2;3] ↔ 1 ≤ i ≤ 3) as Hr by (intros i; set_unfold; lia).
  eapply returns_mono; [apply (maximally_orient_steps o Ho c1 [1;2;3] None lf W1 Hr4)|].
  { rewrite N1, HN, HNg. done. }
  cbn beta. simpl. intros h [Hst Hno].
  destruct (osteps_orientation _ _ _ _ W1 Hst) as [Hor Hwh]. split; [done|].
  (* the conversion of d itself ends in the essential graph; both are the closure of the pattern of d *)
  set (fuel := S (S (size (gnodes d) * size (gnodes d)))). set (cp := mempty (gnodes d)).
  assert (size (gnodes d) * size (gnodes d) + 1 < fuel) as Hf' by (unfold fuel; lia).
  pose proof (convert_to_cpdag_steps ord_up ord_up_ok d cp [1;2;3] fuel Hwf Hac eq_refl (λ _ _, eq_refl) Hr4 Hf') as H2.
  pose proof (cpdag_essential ord_up d cp [1;2;3] fuel ord_up_ok Hwf Hac eq_refl (λ _ _, eq_refl) Hr Hf') as H3.
  destruct (convert_to_cpdag _ _ _ _ _) as [h'| |]; [|done..]. cbn [returns] in *.
  destruct H2 as (g' & Hp' & Hst' & Hno').
  assert (pd_same h h') as Hs.
  { eapply (rules_123_unique d d c1 g' h h'); done. }
  destruct Hs as [Hs1 Hs2], H3 as (E1 & E2 & E3). split_and!.
  - congruence.
  - intros a b. by rewrite (proj1 (Hs2 a b)).
  - intros a b. by rewrite (proj2 (Hs2 a b)).
Qed.
Print Assumptions C133_re_orientation_partial.

(** a case: 0 --> 2 <-- 1 as in dA; the direction 4 --> 3 is dropped, 2 --- 3 and 2 --- 4 are directed *)
Definition gO_es := dir_ 0 2 ++ dir_ 1 2 ++ und_ 2 3 ++ dir_ 4 3 ++ und_ 2 4.
Definition gO : mgraph := mk_mg [0;1;2;3;4;5] gO_es.
Example C133_case : pd_wf gO ∧ mnodes gO = gnodes dA ∧ (∀ a b, pd_adj gO a b ↔ adjacent dA a b) ∧
  (∀ a c b, darrow gO a c ∧ darrow gO b c ∧ a ≠ b ∧ ¬ pd_adj gO a b ↔ v_structure dA a c b) ∧
  returns (re_orient ord_up 40 gO) (λ h, darrow h 2 3 ∧ darrow h 2 4 ∧ uline h 3 4).
Proof.
  assert (∀ a b, adjacent dA a b ↔ (a, b) ∈ [(0,2);(1,2);(2,3);(3,4);(2,4)] ∨ (b, a) ∈ [(0,2);(1,2);(2,3);(3,4);(2,4)]) as HA.
  { intros a b. unfold adjacent, dA. by rewrite !mk_graph_edge. }
  assert (∀ a b, pd_adj gO a b ↔ adjacent dA a b) as Hsk.
  { intros a b. rewrite HA. unfold pd_adj, uline, darrow, gO. rewrite !mk_mg_mark. unfold gO_es, dir_, und_. simpl.
    rewrite !elem_of_cons, !elem_of_nil. split; [|naive_solver]. clear HA. intros H. naive_solver. }
  split_and!; [by apply mk_pd_wf; vm_compute|done|done| |by vm_compute].
  intros a c b. unfold v_structure. rewrite Hsk. unfold darrow, gO, dA. rewrite !mk_mg_mark, !mk_graph_edge.
  fold dA. rewrite HA. clear HA Hsk. unfold gO_es, dir_, und_. simpl. rewrite !elem_of_cons, !elem_of_nil. 
  split; intros (H1 & H2 & H3 & H4); split_and!; try done; naive_solver.
Qed.
