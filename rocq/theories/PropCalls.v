(** Property C107: calls of learn_structure and learn_structure_iteration on one ICD learner, in any order and number.
    [o], [fuel], [sb], [tc] and [precalc] as in PropFCI.v. [icd_reach … s]: the learner is in state s after some calls. *)
From Verif Require Import Base BaseLemmas ModelGraph Spec Paths ModelMixed SpecMixed ProofMixed ModelPC SpecPC ModelPAG SpecPAG ProofPAG ModelPDS SpecPDS ModelFCI SpecFCI
  ProofFCI6 ProofFCI7 ProofFCI8 PropFCI.

Theorem C107_calls : ∀ o, iter_ok o → ∀ ci V sb tc fuel precalc, size V * size V + size V + 2 < fuel →
  ∀ s, icd_reach o ci sb tc fuel precalc V s →
  justified ci V (ls_graph (ic_ls s)) (ls_sep (ic_ls s)) (ls_log (ic_ls s)) ∧
  (ic_done s = true → icd_iteration o ci sb tc fuel precalc s = Raise RuntimeError) ∧
  (ic_done s = false → returns (icd_iteration o ci sb tc fuel precalc s) (λ r, r.2 = (ic_done r.1, ic_size s) ∧ ic_size r.1 = S (ic_size s) ∧
    (∀ a b, mg_adj (ls_graph (ic_ls r.1)) a b → mg_adj (ls_graph (ic_ls s)) a b) ∧ ∃ q, asks (ic_size s) (ls_log (ic_ls s)) (ls_log (ic_ls r.1)) q)) ∧
  returns (icd_learn o ci sb tc fuel precalc s) (λ t, ic_done t = true ∧
    (∀ a b, mg_adj (ls_graph (ic_ls t)) a b → mg_adj (ls_graph (ic_ls s)) a b) ∧
    (∃ l, ls_log (ic_ls t) = l ++ ls_log (ic_ls s)) ∧
    (∀ a b z, mg_adj (ls_graph (ic_ls t)) a b → mg_adj (ls_graph (ic_ls t)) z a → z ≠ b → tested (ls_log (ic_ls t)) a b {[z]} false)).
Proof. exact icd_calls. Qed.
Print Assumptions C107_calls.

(** with correct answers and without the tail rules the orientations of every later call are right as well (compare C70) *)
Theorem C107_sound : ∀ o, iter_ok o → ∀ ci m, ancestral m → perfect_for m ci → ∀ sb fuel precalc, size (mnodes m) * size (mnodes m) + size (mnodes m) + 2 < fuel →
  ∀ s, icd_reach o ci sb false fuel precalc (mnodes m) s →
  returns (icd_learn o ci sb false fuel precalc s) (λ t, (∀ a b, mg_adj m a b → mg_adj (ls_graph (ic_ls t)) a b) ∧
    ((∀ a b, mg_adj (ls_graph (ic_ls t)) a b → mg_adj m a b) → sound_for m (ls_graph (ic_ls t)))).
Proof. exact icd_calls_sound. Qed.
Print Assumptions C107_sound.

(** a test that answers "independent" to three questions, and always the same *)
Definition eI : citest := λ _ x y c, bool_decide ((x ∈ [0;1] ∧ y ∈ [0;1] ∧ (list_to_set c : nset) = list_to_set [2;3]) ∨
  (x ∈ [0;2] ∧ y ∈ [0;2] ∧ (list_to_set c : nset) = list_to_set [3]) ∨ (x ∈ [2;3] ∧ y ∈ [2;3] ∧ (list_to_set c : nset) = list_to_set [0;1])).
(** one iteration by hand, then two complete runs: the edge 2 - 3 disappears in the second one *)
Definition eI_run (o : order) : res (icd_state * icd_state * icd_state) :=
  s ← icd_iteration o eI true true 30 false (icd_init o eV4);
  t ← icd_learn o eI true true 30 false s.1;
  u ← icd_learn o eI true true 30 false t; Ok (s.1, t, u).
Example C107_case : match eI_run ord_sorted with
  | Ok (s, t, u) => ((λ x, (adj_pairs (ls_graph (ic_ls x)) 4, length (ls_log (ic_ls x)), ic_done x)) <$> [s; t; u],
      match icd_iteration ord_sorted eI true true 30 false u with Raise RuntimeError => true | _ => false end)
  | _ => ([], false) end
  = ([([(0,1);(0,2);(0,3);(1,2);(1,3);(2,3)], 6, false); ([(0,3);(1,2);(1,3);(2,3)], 26, true); ([(0,3);(1,2);(1,3)], 42, true)], true).
Proof. by vm_compute. Qed.

(** ** a second call can change the result although the test answers every question as before *)
Theorem C107_twice_refuted : ∃ o ci V fuel a b, iter_ok o ∧ size V * size V + size V + 2 < fuel ∧
  (∀ log log' x y c c', (∀ z, z ∈ c ↔ z ∈ c') → ci log x y c = ci log' x y c' ∧ ci log x y c = ci log' y x c') ∧
  returns (t ← icd_learn o ci true true fuel false (icd_init o V); u ← icd_learn o ci true true fuel false t; Ok (t, u)) (λ r,
    mg_adj (ls_graph (ic_ls r.1)) a b ∧ ¬ mg_adj (ls_graph (ic_ls r.2)) a b).
Proof.
  exists ord_sorted, eI, eV4, 30, 2, 3. split; [apply ord_sorted_ok|]. split; [apply (bool_decide_unpack _); by vm_compute|]. split.
  - intros log log' x y c c' Hc. assert (list_to_set c = (list_to_set c' : nset)) as E by (apply set_eq; intros z; rewrite !elem_of_list_to_set; apply Hc).
    unfold eI. rewrite E. split; [done|]. apply bool_decide_ext. tauto.
  - assert (match (t ← icd_learn ord_sorted eI true true 30 false (icd_init ord_sorted eV4); u ← icd_learn ord_sorted eI true true 30 false t; Ok (t, u)) with
      Ok r => adj_b (ls_graph (ic_ls r.1)) 2 3 && negb (adj_b (ls_graph (ic_ls r.2)) 2 3) | _ => false end = true) as H by by vm_compute.
    destruct (_ ≫= _) as [r| |]; [|done..]. apply andb_true_iff in H as [H1 H2]. cbn [returns]. apply adj_b_ok in H1. split; [done|].
    rewrite <-adj_b_ok. by destruct (adj_b _ _ _).
Qed.
Print Assumptions C107_twice_refuted.
