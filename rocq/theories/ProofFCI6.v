(** FCI and ICD: perfect oracles, and runs that go wrong. *)
From Verif Require Import Base BaseLemmas Paths ModelGraph Spec ProofGraph2 ProofGraph3 ProofDsep ModelMixed SpecMixed ProofMixed ProofMixed2 ProofPDAG ProofPDAG2 ProofPDAG3
  ModelPC SpecPC ProofPC ProofPC2 ModelPAG SpecPAG ProofPAG ProofPAGM ProofPAGX ModelPDS SpecPDS ModelFCI SpecFCI ProofFCI ProofFCI2 ProofFCI3 ProofFCI4 ProofFCI5.

Lemma msep_ci_perfect o fuel m : iter_ok o → dir_mixed m → size (mnodes m) + 1 < fuel → perfect_for m (msep_ci o fuel m).
Proof.
  intros Ho D Hf log i j c Hi Hj Hne _ Hc. unfold msep_ci.
  assert (returns (is_m_separated o fuel m i j c) (λ b, b = true ↔ m_separated m i j (list_to_set c))) as H.
  { apply is_m_separated_ok; try done; [intros z Hz; by apply Hc|]. intros H. apply Hc in H. tauto. }
  apply returns_ok in H as (b & -> & H). done.
Qed.
Lemma dsep_ci_perfect o fuel m d : iter_ok o → same_edges m d → wf_graph d → acyclic d → size (gnodes d) < fuel → perfect_for m (dsep_ci o fuel d).
Proof.
  intros Ho Hs W Ac Hf log i j c Hi Hj Hne _ Hc. pose proof Hs as (N & _). rewrite N in *. unfold dsep_ci.
  assert (returns (dsep o fuel d i j c) (λ b, b = true ↔ d_separated d i j c)) as H.
  { apply dsep_spec; try done; [intros z Hz; by apply Hc|]. intros H. apply Hc in H. tauto. }
  apply returns_ok in H as (b & -> & H). rewrite H. symmetry. by apply se_separated.
Qed.

(** no latent nodes: the skeleton is right, so all the orientations are *)
Theorem fci_no_latents_sound o o' fuel fuel' m d sb : iter_ok o → iter_ok o' → same_edges m d → wf_graph d → acyclic d →
  size (gnodes d) * size (gnodes d) + size (gnodes d) + 2 < fuel → size (gnodes d) < fuel' →
  returns (fci_learn o (dsep_ci o' fuel' d) sb false fuel (gnodes d)) (λ r, sound_for m (ls_graph r.1)).
Proof.
  intros Ho Ho' Hs W Ac Hf Hf'. pose proof Hs as (N & _).
  pose proof (fci_sound o Ho (dsep_ci o' fuel' d) m (dag_ancestral _ _ Hs W Ac) (dsep_ci_perfect _ _ _ _ Ho' Hs W Ac Hf') sb fuel) as H.
  rewrite N in H. eapply returns_mono; [apply (returns_and _ _ _ (H Hf) (fci_no_latents o o' fuel fuel' d sb false Ho Ho' W Ac Hf Hf'))|].
  cbn beta. intros r ((_ & H1) & H2 & _). apply H1. intros a b Hab. apply (se_adj m d Hs). by apply H2.
Qed.

Definition lrun_has (r : res lstate) (a : node) (k : mark) (b : node) : bool := match r with Ok s => bool_decide (a ∈ mset (ls_graph s) b k) | _ => false end.

(** ** A superfluous edge: the nodes 8..13 are latent; 0 and 7 are separated by 1, 2, 4, 5, 6, but the possible-d-sep
    sets of 0 and 7 found in ascending order miss one of these nodes *)
Definition dL : graph := mk_graph (seq 0 14) [(1,7);(2,1);(2,5);(4,5);(5,0);(6,7);(8,0);(8,3);(9,0);(9,6);(10,1);(10,4);(11,2);(11,5);(12,4);(12,7);(13,5);(13,6)].
Definition VL : nset := list_to_set (seq 0 8).
Lemma dL_wf : wf_graph dL.
Proof. apply mk_graph_wf. by vm_compute. Qed.
Lemma dL_acyclic : acyclic dL.
Proof. apply mk_graph_acyclic; by vm_compute. Qed.
Lemma VL_sub : VL ⊆ gnodes dL.
Proof. apply (bool_decide_unpack _). by vm_compute. Qed.
Lemma dL_run : match fci_learn ord_sorted (dsep_ci ord_sorted 15 dL) true true 80 VL with
  | Ok r => bool_decide (0 ∈ find_adj PAG_T (ls_graph r.1) 7 None None) | _ => false end = true.
Proof. vm_cast_no_check (eq_refl true). Qed.
Lemma dL_sep : d_separated dL 0 7 [1;2;4;5;6].
Proof.
  assert (returns (dsep ord_sorted 15 dL 0 7 [1;2;4;5;6]) (λ b, b = true ↔ d_separated dL 0 7 [1;2;4;5;6])) as H.
  { apply dsep_spec; [apply ord_sorted_ok|apply dL_wf|apply dL_acyclic|by apply (bool_decide_unpack _); vm_compute..| | |].
    - intros z Hz. apply VL_sub. revert z Hz. apply Forall_forall. apply (bool_decide_unpack _). by vm_compute.
    - done.
    - apply (bool_decide_unpack _). by vm_compute. }
  assert (dsep ord_sorted 15 dL 0 7 [1;2;4;5;6] = Ok true) as E by by vm_compute. rewrite E in H. by apply H.
Qed.
Theorem fci_superfluous : ∃ o d fuel V a b Z, iter_ok o ∧ wf_graph d ∧ acyclic d ∧ V ⊆ gnodes d ∧ size (gnodes d) < fuel ∧
  a ∈ V ∧ b ∈ V ∧ Z ⊆ V ∖ {[a; b]} ∧ d_separated d a b (elements Z) ∧
  ∃ fuel', size V * size V + size V + 2 < fuel' ∧ returns (fci_learn o (dsep_ci o fuel d) true true fuel' V) (λ r, mg_adj (ls_graph r.1) a b).
Proof.
  exists ord_sorted, dL, 15, VL, 0, 7, (list_to_set [1;2;4;5;6]). split; [apply ord_sorted_ok|]. split; [apply dL_wf|]. split; [apply dL_acyclic|]. split; [apply VL_sub|].
  split; [apply (bool_decide_unpack _); by vm_compute|]. split; [apply (bool_decide_unpack _); by vm_compute|]. split; [apply (bool_decide_unpack _); by vm_compute|].
  split; [apply (bool_decide_unpack _); by vm_compute|]. split.
  { eapply (d_separated_set dL 0 7 [1;2;4;5;6]); [|apply dL_sep]. intros z. by rewrite elem_of_elements, elem_of_list_to_set. }
  exists 80. split; [apply (bool_decide_unpack _); by vm_compute|].
  pose proof dL_run as H. destruct (fci_learn _ _ _ _ _ _) as [r| |]; [|done..]. cbn [returns]. apply bool_decide_eq_true, elem_find_adj_pag in H. by destruct H.
Qed.

(** ** A wrong tail: node 10 is latent; 0 is not an ancestor of 2 *)
Definition d10 : graph := mk_graph (seq 0 11) [(0,4);(0,5);(1,4);(1,2);(3,5);(3,2);(6,1);(7,1);(8,3);(9,3);(10,0);(10,2)].
Definition V10 : nset := list_to_set (seq 0 10).
Lemma d10_wf : wf_graph d10.
Proof. apply mk_graph_wf. by vm_compute. Qed.
Lemma d10_acyclic : acyclic d10.
Proof. apply mk_graph_acyclic; by vm_compute. Qed.
Lemma d10_not_ancestor : ¬ ancestor d10 0 2.
Proof.
  assert (∀ a b, ancestor d10 a b → a ∈ [0;4;5] → b ∈ [0;4;5]) as H.
  { intros a b. induction 1 as [|a b c Hab _ IH]; [done|]. intros Ha. apply IH. apply mk_graph_edge in Hab.
    assert (Forall (λ e : node * node, e.1 ∈ [0;4;5] → e.2 ∈ [0;4;5]) [(0,4);(0,5);(1,4);(1,2);(3,5);(3,2);(6,1);(7,1);(8,3);(9,3);(10,0);(10,2)]) as HF
      by (apply (bool_decide_unpack _); by vm_compute).
    rewrite Forall_forall in HF. by apply (HF (a, b)). }
  intros Hx. apply H in Hx; [|apply elem_of_list_here]. set_unfold in Hx. lia.
Qed.
Lemma d10_fci : match fci_learn ord_up (dsep_ci ord_up 12 d10) true true 113 V10 with Ok r => bool_decide (2 ∈ mset (ls_graph r.1) 0 Tail) | _ => false end = true.
Proof. vm_cast_no_check (eq_refl true). Qed.
Lemma d10_icd : match icd_learn ord_up (dsep_ci ord_up 12 d10) true true 113 false (icd_init ord_up V10) with Ok t => bool_decide (2 ∈ mset (ls_graph (ic_ls t)) 0 Tail) | _ => false end = true.
Proof. vm_cast_no_check (eq_refl true). Qed.
Theorem wrong_tail : ∃ o d fuel V a b, iter_ok o ∧ wf_graph d ∧ acyclic d ∧ V ⊆ gnodes d ∧ size (gnodes d) < fuel ∧ ¬ ancestor d a b ∧
  ∃ fuel', size V * size V + size V + 2 < fuel' ∧
    returns (fci_learn o (dsep_ci o fuel d) true true fuel' V) (λ r, has_mark (ls_graph r.1) b Tail a) ∧
    returns (icd_learn o (dsep_ci o fuel d) true true fuel' false (icd_init o V)) (λ t, has_mark (ls_graph (ic_ls t)) b Tail a).
Proof.
  exists ord_up, d10, 12, V10, 0, 2. split; [apply ord_up_ok|]. split; [apply d10_wf|]. split; [apply d10_acyclic|].
  split; [apply (bool_decide_unpack _); by vm_compute|]. split; [apply (bool_decide_unpack _); by vm_compute|]. split; [apply d10_not_ancestor|].
  exists 113. split; [apply (bool_decide_unpack _); by vm_compute|]. split.
  - pose proof d10_fci as H. destruct (fci_learn _ _ _ _ _ _) as [r| |]; [|done..]. by apply bool_decide_eq_true in H.
  - pose proof d10_icd as H. destruct (icd_learn _ _ _ _ _ _ _) as [r| |]; [|done..]. by apply bool_decide_eq_true in H.
Qed.

(** ** ICD as an anytime algorithm *)
Lemma ascending_nearest l : ascending l → nearest_first l.
Proof.
  intros H l1. revert l H. induction l1 as [|a l1 IH]; intros l H x l2 y l3 E; subst l.
  - assert (dist_le x.2 y.2 = true) as Hd.
    { destruct (l2 ++ y :: l3) as [|z l4] eqn:E; [by destruct l2|]. destruct H as [H _]. apply H. cbn. rewrite <-E. apply elem_of_app. right. apply elem_of_list_here. }
    unfold no_farther, dist_le in *. destruct x.2, y.2; try done. apply bool_decide_eq_true in Hd. by eexists.
  - eapply IH; [|done]. destruct H as [_ H]. exact H.
Qed.

Section anytime.
  Context (o : order) (Ho : iter_ok o) (ci : citest) (sb tc : bool) (fuel : nat) (precalc : bool) (V : nset) (Hf : size V * size V + size V + 2 < fuel).
  (** s becomes t in one iteration *)
  Definition icd_next (s t : icd_state) : Prop := ∃ r, icd_iteration o ci sb tc fuel precalc s = Ok (t, r).
  Lemma icd_reach_inv s : rtc icd_next (icd_init o V) s → icd_inv ci V s.
  Proof.
    intros H. assert (icd_inv ci V (icd_init o V)) as I by by apply icd_init_inv. induction H as [|s t u Hst _ IH]; [done|]. apply IH.
    destruct Hst as (r & E). destruct (ic_done s) eqn:Ed; [by unfold icd_iteration in E; rewrite Ed in E|].
    pose proof (icd_iteration_inv o Ho ci V sb tc fuel precalc s Ed I Hf) as H. rewrite E in H. apply H.
  Qed.
  Theorem icd_anytime s : rtc icd_next (icd_init o V) s →
    justified ci V (ls_graph (ic_ls s)) (ls_sep (ic_ls s)) (ls_log (ic_ls s)) ∧ growing (ls_log (ic_ls s)) ∧
    (∀ i j c b, (i, j, c, b) ∈ ls_log (ic_ls s) → length c < ic_size s) ∧
    if ic_done s then icd_iteration o ci sb tc fuel precalc s = Raise RuntimeError else
    returns (icd_iteration o ci sb tc fuel precalc s) (λ r,
      ic_size r.1 = S (ic_size s) ∧ r.2 = (ic_done r.1, ic_size s) ∧
      (∀ a b, mg_adj (ls_graph (ic_ls r.1)) a b → mg_adj (ls_graph (ic_ls s)) a b) ∧
      (∃ q, asks (ic_size s) (ls_log (ic_ls s)) (ls_log (ic_ls r.1)) q) ∧
      (ic_done r.1 = false → S (ic_size s) < 2 `max` size V)).
  Proof.
    intros H%icd_reach_inv. split; [apply ls_inv_justified, H|]. split; [apply H|]. split; [apply H|].
    destruct (ic_done s) eqn:Ed; [unfold icd_iteration; by rewrite Ed|].
    eapply returns_mono; [by apply icd_iteration_inv|]. cbn beta. intros [t r] (It & Hle & Hs & Hr & Ha & _ & Hm). cbn [fst snd] in *. done.
  Qed.
End anytime.

Lemma icd_low_order o ci sb tc fuel precalc V : iter_ok o → size V * size V + size V + 2 < fuel →
  returns (icd_learn o ci sb tc fuel precalc (icd_init o V)) (λ t, let g := ls_graph (ic_ls t) in let log := ls_log (ic_ls t) in
    2 ≤ ic_size t ≤ 2 `max` size V ∧ growing log ∧
    (∀ a b, a ∈ V → b ∈ V → a ≠ b → ∃ q, tested log a b ∅ q) ∧
    (∀ a b z, mg_adj g a b → mg_adj g z a → z ≠ b → tested log a b {[z]} false)).
Proof.
  intros Ho Hf. eapply returns_mono; [by apply icd_learn_ok|]. cbn beta. intros t (I & _ & Hs). split; [done|]. split; [apply I|].
  destruct (ii_low _ _ _ I) as [H0 H1]. split; [apply H0; lia|apply H1; lia].
Qed.
Lemma pdsep_range_nearest o : iter_ok o → ∀ fuel g i j r, mg_wf g → i ∈ mnodes g → j ∈ mnodes g → 2 ≤ r →
  size (mnodes g) * size (mnodes g) + size (mnodes g) < fuel →
  returns (pdsep_range_sets o fuel g i j r) (λ l, nearest_first l ∧ ∀ c, c ∈ l → icd_sep g i j r c.1).
Proof.
  intros Ho fuel g i j r W Hi Hj Hr Hf. eapply returns_mono; [by apply (pdsep_range_sets_ok o Ho)|]. cbn beta. intros l [H1 H2].
  split; [by apply ascending_nearest|done].
Qed.

(** ** with the d-separation oracle, inseparable nodes stay adjacent *)
Lemma fci_keeps_inseparable o o' d V sb tc fuel fuel' : iter_ok o → iter_ok o' → wf_graph d → acyclic d → V ⊆ gnodes d →
  size V * size V + size V + 2 < fuel → size (gnodes d) < fuel' →
  returns (fci_learn o (dsep_ci o' fuel' d) sb tc fuel V) (λ r,
    (∀ a b, a ∈ V → b ∈ V → a ≠ b → (∀ Z : nset, Z ⊆ V ∖ {[a; b]} → ¬ d_separated d a b (elements Z)) → mg_adj (ls_graph r.1) a b) ∧
    (∀ a b, a ∈ V → b ∈ V → a ≠ b → ¬ mg_adj (ls_graph r.1) a b → ∃ Z, sep_get (ls_sep r.1) a b = Ok Z ∧ Z ⊆ V ∖ {[a; b]} ∧ d_separated d a b (elements Z))).
Proof.
  intros Ho Ho' W Ac HV Hf Hf'. eapply returns_mono; [by apply (fci_learn_ok o Ho)|]. cbn beta. intros r [I _]. apply ls_inv_justified in I as J.
  split; [exact (inseparable_adjacent d W Ac o' Ho' fuel' Hf' V HV _ _ _ J)|exact (recorded_separates d W Ac o' Ho' fuel' Hf' V HV _ _ _ J)].
Qed.
Lemma icd_keeps_inseparable o o' d V sb tc fuel fuel' precalc : iter_ok o → iter_ok o' → wf_graph d → acyclic d → V ⊆ gnodes d →
  size V * size V + size V + 2 < fuel → size (gnodes d) < fuel' →
  returns (icd_learn o (dsep_ci o' fuel' d) sb tc fuel precalc (icd_init o V)) (λ t,
    (∀ a b, a ∈ V → b ∈ V → a ≠ b → (∀ Z : nset, Z ⊆ V ∖ {[a; b]} → ¬ d_separated d a b (elements Z)) → mg_adj (ls_graph (ic_ls t)) a b) ∧
    (∀ a b, a ∈ V → b ∈ V → a ≠ b → ¬ mg_adj (ls_graph (ic_ls t)) a b → ∃ Z, sep_get (ls_sep (ic_ls t)) a b = Ok Z ∧ Z ⊆ V ∖ {[a; b]} ∧ d_separated d a b (elements Z))).
Proof.
  intros Ho Ho' W Ac HV Hf Hf'. eapply returns_mono; [by apply (icd_learn_ok o Ho)|]. cbn beta. intros t [I _]. apply ii_inv, ls_inv_justified in I as J.
  split; [exact (inseparable_adjacent d W Ac o' Ho' fuel' Hf' V HV _ _ _ J)|exact (recorded_separates d W Ac o' Ho' fuel' Hf' V HV _ _ _ J)].
Qed.
