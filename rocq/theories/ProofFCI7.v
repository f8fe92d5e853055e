(** ICD with correct answers: runs that keep a superfluous edge, and an arrowhead that is wrong because of one. *)
From Verif Require Import Base BaseLemmas Paths ModelGraph Spec ProofGraph2 ProofGraph3 ProofDsep ModelMixed SpecMixed ProofMixed ModelPC SpecPC ModelPAG SpecPAG ProofPAG ModelPDS ModelFCI SpecFCI ProofFCI ProofFCI5 ProofFCI6.

(** a boolean test for [returns] of adjacencies and marks *)
Definition icd_run_b (r : res icd_state) (p : mgraph → bool) : bool := match r with Ok t => p (ls_graph (ic_ls t)) | _ => false end.
Definition adj_b (g : mgraph) (a b : node) : bool := bool_decide (a ∈ find_adj PAG_T g b None None).
Lemma adj_b_ok g a b : adj_b g a b = true ↔ mg_adj g a b.
Proof. unfold adj_b. rewrite bool_decide_eq_true, elem_find_adj_pag. tauto. Qed.

(** ** 4 --> 2, and 4, 5 are separated by 0, 1, 3, 6; the nodes 7..11 are latent *)
Definition dI : graph := mk_graph (seq 0 12) [(3,4);(0,5);(1,3);(6,0);(4,2);(7,3);(7,6);(8,3);(8,2);(9,1);(9,5);(10,0);(10,1);(11,6);(11,4)].
Definition VI : nset := list_to_set (seq 0 7).
Lemma dI_wf : wf_graph dI.
Proof. apply mk_graph_wf. by vm_compute. Qed.
Lemma dI_acyclic : acyclic dI.
Proof. apply mk_graph_acyclic; by vm_compute. Qed.
Lemma VI_sub : VI ⊆ gnodes dI.
Proof. apply (bool_decide_unpack _). by vm_compute. Qed.
Lemma dI_sep : d_separated dI 4 5 [0;1;3;6].
Proof.
  assert (returns (dsep ord_sorted 13 dI 4 5 [0;1;3;6]) (λ b, b = true ↔ d_separated dI 4 5 [0;1;3;6])) as H.
  { apply dsep_spec; [apply ord_sorted_ok|apply dI_wf|apply dI_acyclic|by apply (bool_decide_unpack _); vm_compute..| | |].
    - intros z Hz. apply VI_sub. revert z Hz. apply Forall_forall. apply (bool_decide_unpack _). by vm_compute.
    - done.
    - apply (bool_decide_unpack _). by vm_compute. }
  assert (dsep ord_sorted 13 dI 4 5 [0;1;3;6] = Ok true) as E by by vm_compute. rewrite E in H. by apply H.
Qed.
Definition dI_check (g : mgraph) : bool := adj_b g 4 5 && bool_decide (2 ∈ mset g 4 Directed).
Lemma dI_run_default : icd_run_b (icd_learn ord_sorted (dsep_ci ord_sorted 13 dI) true true 60 false (icd_init ord_sorted VI)) dI_check = true.
Proof. vm_cast_no_check (eq_refl true). Qed.
Lemma dI_run_plain : icd_run_b (icd_learn ord_sorted (dsep_ci ord_sorted 13 dI) false false 60 false (icd_init ord_sorted VI)) dI_check = true.
Proof. vm_cast_no_check (eq_refl true). Qed.
Theorem icd_wrong : ∀ opt : bool, ∃ o d fuel V, iter_ok o ∧ wf_graph d ∧ acyclic d ∧ V ⊆ gnodes d ∧ size (gnodes d) < fuel ∧
  ∃ fuel', size V * size V + size V + 2 < fuel' ∧
  ∃ a b (Z : nset) x y, a ∈ V ∧ b ∈ V ∧ Z ⊆ V ∖ {[a; b]} ∧ d_separated d a b (elements Z) ∧ x ∈ V ∧ y ∈ V ∧ edge d x y ∧
    returns (icd_learn o (dsep_ci o fuel d) opt opt fuel' false (icd_init o V)) (λ t,
      mg_adj (ls_graph (ic_ls t)) a b ∧ has_mark (ls_graph (ic_ls t)) y Directed x).
Proof.
  intros opt. exists ord_sorted, dI, 13, VI. split; [apply ord_sorted_ok|]. split; [apply dI_wf|]. split; [apply dI_acyclic|]. split; [apply VI_sub|].
  split; [apply (bool_decide_unpack _); by vm_compute|]. exists 60. split; [apply (bool_decide_unpack _); by vm_compute|].
  exists 4, 5, (list_to_set [0;1;3;6]), 4, 2. do 3 (split; [apply (bool_decide_unpack _); by vm_compute|]). split.
  { eapply (d_separated_set dI 4 5 [0;1;3;6]); [|apply dI_sep]. done. }
  do 2 (split; [apply (bool_decide_unpack _); by vm_compute|]). split; [unfold edge; apply (bool_decide_unpack _); by vm_compute|].
  assert (icd_run_b (icd_learn ord_sorted (dsep_ci ord_sorted 13 dI) opt opt 60 false (icd_init ord_sorted VI)) dI_check = true) as H
    by (destruct opt; [apply dI_run_default|apply dI_run_plain]).
  destruct (icd_learn _ _ _ _ _ _ _) as [t| |]; [|done..]. cbn [icd_run_b returns] in *. unfold dI_check in H. apply andb_true_iff in H as [H1 H2].
  apply adj_b_ok in H1. by apply bool_decide_eq_true in H2.
Qed.

(** ** the iteration order decides about the edge 0 - 1; the nodes 6..9 are latent *)
Definition dJ : graph := mk_graph (seq 0 10) [(2,0);(3,1);(4,2);(5,3);(6,0);(6,5);(7,1);(7,4);(8,2);(8,5);(9,3);(9,4)].
Definition VJ : nset := list_to_set (seq 0 6).
Lemma dJ_run_sorted : icd_run_b (icd_learn ord_sorted (dsep_ci ord_sorted 11 dJ) true true 60 false (icd_init ord_sorted VJ)) (λ g, adj_b g 0 1) = true.
Proof. vm_cast_no_check (eq_refl true). Qed.
Lemma dJ_run_up : icd_run_b (icd_learn ord_up (dsep_ci ord_sorted 11 dJ) true true 60 false (icd_init ord_up VJ)) (λ g, negb (adj_b g 0 1)) = true.
Proof. vm_cast_no_check (eq_refl true). Qed.
Theorem icd_order : ∃ o1 o2 ci d V a b fuel, iter_ok o1 ∧ iter_ok o2 ∧ wf_graph d ∧ acyclic d ∧ V ⊆ gnodes d ∧ size V * size V + size V + 2 < fuel ∧
  (∀ log i j c, i ∈ gnodes d → j ∈ gnodes d → i ≠ j → (∀ z, z ∈ c → z ∈ gnodes d ∖ {[i; j]}) → ci log i j c = true ↔ d_separated d i j c) ∧
  returns (icd_learn o1 ci true true fuel false (icd_init o1 V)) (λ t, mg_adj (ls_graph (ic_ls t)) a b) ∧
  returns (icd_learn o2 ci true true fuel false (icd_init o2 V)) (λ t, ¬ mg_adj (ls_graph (ic_ls t)) a b).
Proof.
  exists ord_sorted, ord_up, (dsep_ci ord_sorted 11 dJ), dJ, VJ, 0, 1, 60. split; [apply ord_sorted_ok|]. split; [apply ord_up_ok|].
  assert (wf_graph dJ) as W by (apply mk_graph_wf; by vm_compute). assert (acyclic dJ) as Ac by (apply mk_graph_acyclic; by vm_compute).
  split; [done|]. split; [done|]. split; [apply (bool_decide_unpack _); by vm_compute|]. split; [apply (bool_decide_unpack _); by vm_compute|]. split.
  { intros log i j c Hi Hj Hne Hc. unfold dsep_ci.
    assert (returns (dsep ord_sorted 11 dJ i j c) (λ b, b = true ↔ d_separated dJ i j c)) as H.
    { apply dsep_spec; [apply ord_sorted_ok|exact W|exact Ac|apply (bool_decide_unpack _); by vm_compute|exact Hi|exact Hj| |exact Hne|].
      - intros z Hz. apply Hc, elem_of_difference in Hz. tauto.
      - intros H. apply Hc, elem_of_difference in H as [_ H]. by apply H, elem_of_union_r, elem_of_singleton. }
    apply returns_ok in H as (b & -> & H). done. }
  split.
  - pose proof dJ_run_sorted as H. destruct (icd_learn _ _ _ _ _ _ _) as [t| |]; [|done..]. cbn [icd_run_b returns] in *. by apply adj_b_ok.
  - pose proof dJ_run_up as H. destruct (icd_learn _ _ _ _ _ _ _) as [t| |]; [|done..]. cbn [icd_run_b returns] in *. apply negb_true_iff in H. intros H2%adj_b_ok. congruence.
Qed.
