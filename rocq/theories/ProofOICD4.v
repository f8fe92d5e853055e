(** OrderedICD with the default options: a wrong tail although all tests are answered correctly (compare C30 and C70). *)
From Verif Require Import Base BaseLemmas Paths ModelGraph Spec ProofGraph2 ProofGraph3 ProofDsep ModelMixed SpecMixed ProofMixed ModelPC SpecPC ModelPAG SpecPAG ProofPAG
  ModelPDS ModelFCI SpecFCI ProofFCI ProofFCI5 ProofFCI6 ModelOICD SpecOICD ProofOICD ProofRun2.

(** 8 is latent, 0 and 2 are joined only by it *)
Definition dA : graph := mk_graph (seq 0 9) [(0,4);(0,5);(1,4);(1,2);(3,5);(3,2);(6,1);(7,3);(8,0);(8,2)].
Definition oA : list node := [6;7;1;3;0;2;4;5].
Lemma dA_wf : wf_graph dA.
Proof. apply mk_graph_wf. by vm_compute. Qed.
Lemma dA_not_ancestor : ¬ ancestor dA 0 2.
Proof.
  assert (∀ a b, ancestor dA a b → a ∈ [0;4;5] → b ∈ [0;4;5]) as H.
  { intros a b Hab Ha. induction Hab as [|a b c Hab _ IH]; [done|]. apply IH. apply mk_graph_edge in Hab. revert a b Hab Ha IH.
    assert (Forall (λ e, e.1 ∈ [0;4;5] → e.2 ∈ [0;4;5]) [(0,4);(0,5);(1,4);(1,2);(3,5);(3,2);(6,1);(7,3);(8,0);(8,2)]) as HF by (apply (bool_decide_unpack _); by vm_compute).
    rewrite Forall_forall in HF. intros a b Hab Ha _. by apply (HF (a, b)). }
  intros H02. apply H in H02; [|set_solver +]. set_solver.
Qed.
Definition runA (loc : bool) : res ostate := s ← oicd_init ord_up oA None (list_to_set oA); o_learn ord_up (dsep_ci ord_up 10 dA) true true 80 oA None loc s.
Definition tail_b (r : res ostate) (a b : node) : bool := match r with Ok s => bool_decide (b ∈ mset (ls_graph (os_ls s)) a Tail) | _ => false end.
Lemma dA_run_local : tail_b (runA true) 0 2 = true.
Proof. vm_cast_no_check (eq_refl true). Qed.
Lemma dA_run_global : tail_b (runA false) 0 2 = true.
Proof. vm_cast_no_check (eq_refl true). Qed.

Theorem oicd_wrong_tail : ∀ loc, ∃ o d fuel fuel' V ord a b, iter_ok o ∧ wf_graph d ∧ acyclic d ∧ V ⊆ gnodes d ∧ size (gnodes d) < fuel ∧
  size V * size V + size V + 2 < fuel' ∧ NoDup ord ∧ list_to_set ord = V ∧ (∀ x y, before ord x y → ¬ ancestor d y x) ∧ ¬ ancestor d a b ∧
  returns (s ← oicd_init o ord None V; o_learn o (dsep_ci o fuel d) true true fuel' ord None loc s) (λ s, has_mark (ls_graph (os_ls s)) b Tail a).
Proof.
  intros loc. exists ord_up, dA, 10, 80, (list_to_set oA), oA, 0, 2. split; [apply ord_up_ok|]. split; [apply dA_wf|]. split; [apply mk_graph_acyclic; by vm_compute|].
  do 4 (split; [apply (bool_decide_unpack _); by vm_compute|]). split; [done|]. split.
  { intros x y (l1 & l2 & l3 & E). apply (causal_b_ok dA (8 :: oA) dA_wf); [apply (bool_decide_unpack _); by vm_compute|by vm_compute|].
    exists (8 :: l1), l2, l3. by rewrite E. }
  split; [apply dA_not_ancestor|].
  assert (tail_b (runA loc) 0 2 = true) as H by (destruct loc; [apply dA_run_local|apply dA_run_global]). unfold runA in H.
  destruct (_ ≫= _) as [s| |]; [|done..]. by apply bool_decide_eq_true in H.
Qed.
