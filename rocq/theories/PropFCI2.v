(** Part of C68: when FCI leaves a superfluous edge.
    [o], [iter_ok o] and [fuel] as in PropFCI.v; [V] are the observed nodes of the DAG [d]. *)
From Verif Require Import Base BaseLemmas ModelGraph Spec ProofGraph2 ProofGraph3 ProofDsep ModelMixed SpecMixed ProofMixed2 ModelPC SpecPC ModelPAG SpecPAG ProofPAG ProofPAGM
  ModelPDS SpecPDS ModelFCI SpecFCI ProofFCI ProofFCI2 ProofFCI3 ProofFCI4 ProofFCI5 ProofFCI6 ProofFCI9 SpecLatent ProofLatent PropFCI PropLatent.

(** The graph in which FCI looks for Possible-D-Sep nodes: the skeleton of the PC phase with its colliders (fci.py 28-32) *)
Definition fci_first (o : order) (ci : citest) (fuel : nat) (V : nset) : res mgraph :=
  s ← fci_pc o ci fuel V; s ← ls_orient (λ sep g, pag_v_structures o g sep) s; Ok (ls_graph s).

Theorem C68_superfluous_partial : ∀ o o' d V sb tc fuel fuel', iter_ok o → iter_ok o' → wf_graph d → acyclic d → V ⊆ gnodes d →
  size V * size V + size V + 2 < fuel → size (gnodes d) < fuel' →
  returns (fci_first o (dsep_ci o' fuel' d) fuel V) (λ h,
    returns (fci_learn o (dsep_ci o' fuel' d) sb tc fuel V) (λ r, ∀ a b, mg_adj (ls_graph r.1) a b → ¬ inseparable d V a b →
      ∃ X v, create_pds_set o fuel h a = Ok X ∧ possible_d_sep h a v ∧ v ∉ X)).
Proof.
  intros o o' d V sb tc fuel fuel' Ho Ho' Hwf Hac HV Hf Hf'. pose proof (mag_exists d V Hwf Hac HV) as M. pose proof (mo_nodes _ _ _ M) as N.
  destruct (C98_mag d V Hwf Hac HV) as [_ HM]. destruct (HM _ M) as (A & Hmax & _).
  pose proof (fci_missed o Ho (dsep_ci o' fuel' d) (mag d V) A (mag_dir_mixed d Hwf Hac V _ M) (latent_perfect o' fuel' d V _ Ho' Hwf Hac HV Hf' M)) as H.
  rewrite N in H. specialize (H Hmax sb tc fuel Hf). unfold fci_first.
  destruct (fci_pc _ _ _ _) as [s| |]; try done. cbn [mbind res_bind] in *. destruct (ls_orient _ s) as [s1| |]; try done. cbn [mbind res_bind returns] in *.
  eapply returns_mono; [exact H|]. cbn beta. intros r Hr a b Hab Hn. apply (Hr a b Hab). intros (_ & _ & _ & Hi)%(mag_adj d Hwf V _ M). done.
Qed.
Print Assumptions C68_superfluous_partial.

(** where create_pds_set finds all Possible-D-Sep nodes, the skeleton is exact and, without the tail rules 8-10, all marks are right *)
Theorem C68_complete_partial : ∀ o o' d V sb fuel fuel', iter_ok o → iter_ok o' → wf_graph d → acyclic d → V ⊆ gnodes d →
  size V * size V + size V + 2 < fuel → size (gnodes d) < fuel' →
  returns (fci_first o (dsep_ci o' fuel' d) fuel V) (λ h,
    (∀ a, a ∈ V → returns (create_pds_set o fuel h a) (λ X, ∀ v, possible_d_sep h a v → v ∈ X)) →
    (∀ tc, returns (fci_learn o (dsep_ci o' fuel' d) sb tc fuel V) (λ r,
      ∀ a b, a ∈ V → b ∈ V → a ≠ b → mg_adj (ls_graph r.1) a b ↔ inseparable d V a b)) ∧
    returns (fci_learn o (dsep_ci o' fuel' d) sb false fuel V) (λ r, sound_for_dag d V (ls_graph r.1))).
Proof.
  intros o o' d V sb fuel fuel' Ho Ho' Hwf Hac HV Hf Hf'.
  pose proof (λ tc, C68_superfluous_partial o o' d V sb tc fuel fuel' Ho Ho' Hwf Hac HV Hf Hf') as H1.
  destruct (fci_first _ _ _ _) as [h| |] eqn:Eh; [|by specialize (H1 true)..]. cbn [returns] in *. intros Hc.
  assert (∀ tc, returns (fci_learn o (dsep_ci o' fuel' d) sb tc fuel V) (λ r, ∀ a b, mg_adj (ls_graph r.1) a b → a ∈ V ∧ ¬ ¬ inseparable d V a b)) as H2.
  { intros tc. pose proof (C43_fci o (dsep_ci o' fuel' d) V sb tc fuel Ho Hf) as H0.
    eapply returns_mono; [exact (returns_and _ _ _ H0 (H1 tc))|]. cbn beta. intros r [J Hr] a b Hab.
    assert (a ∈ V) as Ha.
    { destruct Hab as [k Hk]. apply (mgw_in _ (ju_wf _ _ _ _ _ J)) in Hk as (? & _). by rewrite (ju_nodes _ _ _ _ _ J) in *. }
    split; [done|]. intros Hi. destruct (Hr a b Hab Hi) as (X & v & EX & Hv & Hx). specialize (Hc a Ha). rewrite EX in Hc. by apply Hx, Hc. }
  assert (∀ a b, a ∈ V → b ∈ V → a ≠ b → ¬ ¬ inseparable d V a b → inseparable d V a b) as Hdec.
  { intros a b Ha Hb Hne Hnn. pose proof (insep_b_ok d V a b Hwf Hac HV Ha Hb Hne) as E. destruct (insep_b d V a b); [by apply E|]. exfalso. apply Hnn. intros Hi. apply E in Hi. done. }
  assert (∀ tc, returns (fci_learn o (dsep_ci o' fuel' d) sb tc fuel V) (λ r, ∀ a b, mg_adj (ls_graph r.1) a b → inseparable d V a b)) as H3.
  { intros tc. pose proof (C43_fci o (dsep_ci o' fuel' d) V sb tc fuel Ho Hf) as H0.
    eapply returns_mono; [exact (returns_and _ _ _ H0 (H2 tc))|]. cbn beta. intros r [J Hr] a b Hab. destruct (Hr a b Hab) as [_ Hi].
    destruct Hab as [k Hk]. apply (mgw_in _ (ju_wf _ _ _ _ _ J)) in Hk as (? & ? & ?). rewrite (ju_nodes _ _ _ _ _ J) in *. by apply Hdec. }
  split.
  - intros tc. eapply returns_mono; [exact (returns_and _ _ _ (H3 tc) (C44_fci o o' d V sb tc fuel fuel' Ho Ho' Hwf Hac HV Hf Hf'))|].
    cbn beta. intros r [Hr [Hs _]] a b Ha Hb Hne. split; [apply Hr|]. intros Hi. by apply Hs.
  - eapply returns_mono; [exact (returns_and _ _ _ (H3 false) (C70_fci_latents_partial o o' d V sb fuel fuel' Ho Ho' Hwf Hac HV Hf Hf'))|].
    cbn beta. intros r [Hr [_ Hs]]. by apply Hs.
Qed.
Print Assumptions C68_complete_partial.

(** The graph of C68_fci_refuted in two iteration orders. In the first one the Possible-D-Sep sets of the separable nodes 0 and 7 lack the
    node 2; in the other one all nodes are found. *)
Lemma dL_first : match fci_first ord_down (dsep_ci ord_sorted 15 dL) 80 VL with
  | Ok h => bool_decide (mnodes h = VL) && forallb (λ a, match create_pds_set ord_down 80 h a with Ok X => bool_decide (X = VL ∖ {[a]}) | _ => false end) (elements VL)
  | _ => false end = true.
Proof. by vm_compute. Qed.
Example C68_complete_case : wf_graph dL ∧ acyclic dL ∧ VL ⊆ gnodes dL ∧ size VL * size VL + size VL + 2 < 80 ∧ size (gnodes dL) < 15 ∧
  (match fci_first ord_sorted (dsep_ci ord_sorted 15 dL) 80 VL with
   | Ok h => (λ a, match create_pds_set ord_sorted 80 h a with Ok X => (a, ord_sorted 0 X) | _ => (a, []) end) <$> [0; 7] | _ => [] end
   = [(0, [1;3;4;5;6;7]); (7, [0;1;3;4;5;6])]) ∧
  returns (fci_first ord_down (dsep_ci ord_sorted 15 dL) 80 VL) (λ h,
    ∀ a, a ∈ VL → returns (create_pds_set ord_down 80 h a) (λ X, ∀ v, possible_d_sep h a v → v ∈ X)).
Proof.
  split; [apply dL_wf|]. split; [apply dL_acyclic|]. split; [apply VL_sub|]. split; [apply (bool_decide_unpack _); by vm_compute|].
  split; [apply (bool_decide_unpack _); by vm_compute|]. split; [by vm_compute|].
  pose proof dL_first as H. assert (returns (fci_first ord_down (dsep_ci ord_sorted 15 dL) 80 VL) mg_wf) as W.
  { unfold fci_first. assert (size VL < 80) by (apply (bool_decide_unpack _); by vm_compute).
    eapply returns_bind; [by apply (fci_pc_ok ord_down ord_down_ok)|]. cbn beta. intros s (I & _).
    eapply returns_bind; [apply (ls_orient_ok _ 80 (dsep_ci ord_sorted 15 dL) VL); [apply keeps_v, ord_down_ok|exact I|apply (bool_decide_unpack _); by vm_compute]|].
    cbn beta. intros s1 (I1 & _). apply I1. }
  destruct (fci_first ord_down _ _ _) as [h| |]; [|done..]. cbn [returns] in *. apply andb_true_iff in H as [HN H]. apply bool_decide_eq_true in HN.
  rewrite forallb_forall in H. intros a Ha. specialize (H a). rewrite <-elem_of_list_In, elem_of_elements in H. specialize (H Ha).
  destruct (create_pds_set ord_down 80 h a) as [X| |]; [|done..]. apply bool_decide_eq_true in H as ->. cbn [returns]. intros v Hv.
  apply pds_nodes in Hv as [H1 H2]; [|done]. rewrite HN in H1. set_solver +H1 H2.
Qed.

(** the same answers, two iteration orders, two skeletons *)
Theorem C68_fci_order_refuted : ∃ o1 o2 ci d V a b fuel, iter_ok o1 ∧ iter_ok o2 ∧ wf_graph d ∧ acyclic d ∧ V ⊆ gnodes d ∧ size V * size V + size V + 2 < fuel ∧
  (∀ log i j c, i ∈ gnodes d → j ∈ gnodes d → i ≠ j → (∀ z, z ∈ c → z ∈ gnodes d ∖ {[i; j]}) → ci log i j c = true ↔ d_separated d i j c) ∧
  returns (fci_learn o1 ci true true fuel V) (λ r, mg_adj (ls_graph r.1) a b) ∧
  returns (fci_learn o2 ci true true fuel V) (λ r, ¬ mg_adj (ls_graph r.1) a b).
Proof.
  destruct C68_complete_case as (Hwf & Hac & HV & Hf & Hf' & _ & Hc). exists ord_sorted, ord_down, (dsep_ci ord_sorted 15 dL), dL, VL, 0, 7, 80.
  split; [apply ord_sorted_ok|]. split; [apply ord_down_ok|]. split; [exact Hwf|]. split; [exact Hac|].
  split; [exact HV|]. split; [exact Hf|]. split; [|split].
  - intros log i j c Hi Hj Hne Hz. unfold dsep_ci. assert (returns (dsep ord_sorted 15 dL i j c) (λ b, b = true ↔ d_separated dL i j c)) as H.
    { apply dsep_spec; [apply ord_sorted_ok|exact Hwf|exact Hac|exact Hf'|exact Hi|exact Hj| |exact Hne|].
      - intros z Hz'. by apply Hz, elem_of_difference in Hz' as [? _].
      - intros H. apply Hz, elem_of_difference in H as [_ H]. apply H, elem_of_union_r, elem_of_singleton_2. reflexivity. }
    apply returns_ok in H as (b & -> & H). exact H.
  - pose proof dL_run as H. destruct (fci_learn ord_sorted _ _ _ _ _) as [r| |]; [|discriminate H..]. apply bool_decide_eq_true, elem_find_adj_pag in H as [H _]. exact H.
  - pose proof (C68_complete_partial ord_down ord_sorted dL VL true 80 15 ord_down_ok ord_sorted_ok Hwf Hac HV Hf Hf') as H.
    destruct (fci_first _ _ _ _) as [h| |]; [|destruct Hc..]. cbn [returns] in H, Hc. destruct (H Hc) as [H1 _]. eapply returns_mono; [apply (H1 true)|].
    cbn beta. intros r Hr Hadj. apply Hr in Hadj; [|apply (bool_decide_unpack _); vm_compute; reflexivity..|discriminate].
    apply (Hadj (list_to_set [1;2;4;5;6])); [apply (bool_decide_unpack _); vm_compute; reflexivity|].
    eapply (d_separated_set dL 0 7 [1;2;4;5;6]); [|apply dL_sep]. intros z. by rewrite elem_of_elements, elem_of_list_to_set.
Qed.
Print Assumptions C68_fci_order_refuted.
