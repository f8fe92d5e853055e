(** Long runs of ICD and OrderedICD on DAGs without latent nodes, with the answers of d-separation: a superfluous edge stays. *)
From Verif Require Import Base BaseLemmas Paths ModelGraph Spec ProofGraph2 ProofGraph3 ProofDsep ModelMixed SpecMixed ProofMixed ModelPC SpecPC ModelPAG SpecPAG ProofPAG
  ModelPDS ModelFCI SpecFCI ProofFCI ProofFCI5 ProofFCI6 ProofFCI7 ModelOICD SpecOICD ProofOICD ProofRun.

Lemma dsep_true fuel d a b Z : wf_graph d → acyclic d → size (gnodes d) < fuel → a ∈ gnodes d → b ∈ gnodes d → list_to_set Z ⊆ gnodes d ∖ {[a; b]} → a ≠ b →
  dsep ord_sorted fuel d a b Z = Ok true → d_separated d a b (elements (list_to_set Z : nset)).
Proof.
  intros Hwf Hac Hf Ha Hb HZ Hne E.
  assert (returns (dsep ord_sorted fuel d a b Z) (λ b', b' = true ↔ d_separated d a b Z)) as H.
  { apply dsep_spec; [apply ord_sorted_ok|done..| |done|]; set_solver. }
  rewrite E in H. apply (d_separated_set d a b Z); [|by apply H]. intros z. by rewrite elem_of_elements, elem_of_list_to_set.
Qed.

(** ** ICD: 8 and 9 have the parents 0, 3, 7, 10 and no others *)
Definition dK : graph := mk_graph (seq 0 11) [(0,8);(0,9);(1,10);(2,1);(2,10);(3,4);(3,5);(3,8);(3,9);(4,1);(4,7);(5,0);(6,0);(6,5);(7,0);(7,8);(7,9);(10,0);(10,8);(10,9)].
Lemma dK_wf : wf_graph dK.
Proof. apply mk_graph_wf. by vm_compute. Qed.
Lemma dK_acyclic : acyclic dK.
Proof. apply mk_graph_acyclic; by vm_compute. Qed.
Lemma runK : icd_run_b (icd_learn_n ord_sorted (dsep_ci_n ord_sorted 13 (gnorm dK)) true true 200 (gnodes dK) (icd_init ord_sorted (gnodes dK))) (λ g, adj_b g 8 9) = true.
Proof. vm_cast_no_check (eq_refl true). Qed.
Theorem icd_not_exact : ∃ o d fuel fuel' a b (Z : nset), iter_ok o ∧ wf_graph d ∧ acyclic d ∧ size (gnodes d) < fuel ∧
  size (gnodes d) * size (gnodes d) + size (gnodes d) + 2 < fuel' ∧ a ∈ gnodes d ∧ b ∈ gnodes d ∧ Z ⊆ gnodes d ∖ {[a; b]} ∧ d_separated d a b (elements Z) ∧
  returns (icd_learn o (dsep_ci o fuel d) true true fuel' false (icd_init o (gnodes d))) (λ t, mg_adj (ls_graph (ic_ls t)) a b).
Proof.
  exists ord_sorted, dK, 13, 200, 8, 9, (list_to_set [0;3;7;10]). split; [apply ord_sorted_ok|]. split; [apply dK_wf|]. split; [apply dK_acyclic|].
  do 5 (split; [apply (bool_decide_unpack _); by vm_compute|]). split.
  { apply (dsep_true 13); [apply dK_wf|apply dK_acyclic|by apply (bool_decide_unpack _); vm_compute..|by vm_compute]. }
  pose proof runK as H. rewrite icd_learn_n_id, dsep_ci_n_id, gnorm_id in H.
  destruct (icd_learn _ _ _ _ _ _ _) as [t| |]; [|done..]. cbn [icd_run_b returns] in *. by apply adj_b_ok in H.
Qed.

(** ** OrderedICD *)
Definition run_o (fuel : nat) (d : graph) (ord : list node) (loc : bool) (a b : node) : bool :=
  match (s ← oicd_init ord_sorted ord None (gnodes d); o_learn_n ord_sorted (dsep_ci_n ord_sorted fuel (gnorm d)) true true 200 ord None loc s) with
  | Ok s => adj_b (ls_graph (os_ls s)) a b | _ => false end.
(** every edge goes from an earlier to a later node *)
Definition causal_b (d : graph) (ord : list node) : bool :=
  bool_decide (Forall (λ y, set_Forall (λ x, (x, y) ∈ causal_pairs ord) (gadj d y)) (elements (gnodes d))).
Lemma before_trans ord x y z : NoDup ord → before ord x y → before ord y z → before ord x z.
Proof.
  intros Hnd Hxy Hyz. destruct (before_index _ _ _ Hyz) as (k & _ & Hk). apply (before_take _ _ _ _ Hnd Hk). apply (before_take _ _ _ _ Hnd Hk) in Hyz.
  apply elem_of_take in Hyz as (j & Hj & ?). apply (before_take _ _ _ _ Hnd Hj) in Hxy. apply elem_of_take in Hxy as (i & Hi & ?).
  apply elem_of_take. exists i. split; [done|lia].
Qed.
Lemma causal_b_ok d ord : wf_graph d → NoDup ord → causal_b d ord = true → ∀ x y, before ord x y → ¬ ancestor d y x.
Proof.
  intros Hwf Hnd H. apply bool_decide_eq_true in H. rewrite Forall_forall in H.
  assert (∀ x y, edge d x y → before ord x y) as He.
  { intros x y Hxy. apply elem_causal_pairs; [done|]. apply (H y); [|exact Hxy]. apply elem_of_elements. by apply (Hwf x y). }
  assert (∀ x y, tc (edge d) x y → before ord x y) as Ht.
  { induction 1 as [x y Hxy|x y z Hxy _ IH]; [by apply He|]. eapply before_trans; [done|by apply He|done]. }
  intros x y Hxy [->|Hyx%Ht]%rtc_tc; [by apply before_ne in Hxy|].
  pose proof (before_trans _ _ _ _ Hnd Hxy Hyx) as Hxx. by apply before_ne in Hxx.
Qed.
(** the global variant: 5 and 6 are separated by the parents 0, 2, 3, 4 of 6 *)
Definition dG : graph := mk_graph (seq 0 9) [(0,2);(0,5);(0,6);(0,8);(1,3);(1,5);(1,7);(1,8);(2,3);(2,6);(3,6);(3,8);(4,5);(4,6);(4,7);(5,8);(6,7);(6,8)].
Lemma runG_edge : run_o 14 dG (seq 0 9) false 5 6 = true.
Proof. vm_cast_no_check (eq_refl true). Qed.
(** the local variant: 10 and 12 are separated by the parents 2, 3, 4, 6, 7, 8, 11 of 12 *)
Definition dL : graph := mk_graph (seq 0 13) [(0,9);(1,0);(1,2);(1,5);(2,12);(3,2);(3,12);(4,2);(4,3);(4,12);(5,0);(6,5);(6,12);(7,4);(7,5);(7,6);(7,12);(8,10);(8,12);(10,1);(10,6);(10,9);(10,11);(11,9);(11,12)].
Definition ordL : list node := [7;8;10;11;1;4;6;3;5;0;2;9;12].
Lemma runL_edge : run_o 14 dL ordL true 10 12 = true.
Proof. vm_cast_no_check (eq_refl true). Qed.

Theorem oicd_not_exact : ∀ loc, ∃ o d fuel fuel' ord a b (Z : nset), iter_ok o ∧ wf_graph d ∧ acyclic d ∧ size (gnodes d) < fuel ∧
  size (gnodes d) * size (gnodes d) + size (gnodes d) + 2 < fuel' ∧ NoDup ord ∧ list_to_set ord = gnodes d ∧ (∀ x y, before ord x y → ¬ ancestor d y x) ∧
  a ∈ gnodes d ∧ b ∈ gnodes d ∧ Z ⊆ gnodes d ∖ {[a; b]} ∧ d_separated d a b (elements Z) ∧
  returns (s ← oicd_init o ord None (gnodes d); o_learn o (dsep_ci o fuel d) true true fuel' ord None loc s) (λ s, mg_adj (ls_graph (os_ls s)) a b).
Proof.
  assert (∀ d ord loc a b, run_o 14 d ord loc a b = true →
    returns (s ← oicd_init ord_sorted ord None (gnodes d); o_learn ord_sorted (dsep_ci ord_sorted 14 d) true true 200 ord None loc s) (λ s, mg_adj (ls_graph (os_ls s)) a b)) as HR.
  { intros d ord loc a b H. unfold run_o in H. rewrite o_learn_n_id, dsep_ci_n_id, gnorm_id in H.
    destruct (oicd_init ord_sorted ord None (gnodes d) ≫= _) as [s| |]; [|done..]. cbn [returns]. by apply adj_b_ok in H. }
  intros []; exists ord_sorted.
  - assert (wf_graph dL) as Hwf by (apply mk_graph_wf; by vm_compute). assert (acyclic dL) as Hac by (apply mk_graph_acyclic; by vm_compute).
    exists dL, 14, 200, ordL, 10, 12, (list_to_set [2;3;4;6;7;8;11]). split; [apply ord_sorted_ok|]. do 2 (split; [done|]).
    do 4 (split; [apply (bool_decide_unpack _); by vm_compute|]). split.
    { apply causal_b_ok; [done|apply (bool_decide_unpack _); by vm_compute|by vm_compute]. }
    do 3 (split; [apply (bool_decide_unpack _); by vm_compute|]). split.
    { apply (dsep_true 14); [done|done|by apply (bool_decide_unpack _); vm_compute..|by vm_compute]. }
    apply HR; exact runL_edge.
  - assert (wf_graph dG) as Hwf by (apply mk_graph_wf; by vm_compute). assert (acyclic dG) as Hac by (apply mk_graph_acyclic; by vm_compute).
    exists dG, 14, 200, (seq 0 9), 5, 6, (list_to_set [0;2;3;4]). split; [apply ord_sorted_ok|]. do 2 (split; [done|]).
    do 4 (split; [apply (bool_decide_unpack _); by vm_compute|]). split.
    { apply causal_b_ok; [done|apply (bool_decide_unpack _); by vm_compute|by vm_compute]. }
    do 3 (split; [apply (bool_decide_unpack _); by vm_compute|]). split.
    { apply (dsep_true 14); [done|done|by apply (bool_decide_unpack _); vm_compute..|by vm_compute]. }
    apply HR; exact runG_edge.
Qed.
