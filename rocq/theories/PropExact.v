(** Properties C73 and C99 without latent nodes: every node of the DAG is observed, the test answers according to d-separation,
    and the skeleton is still not exact. [o], [iter_ok o] and [fuel] as in PropFCI.v and PropOICD.v.
    The runs are long and are evaluated with tabulated graphs (ProofRun.v), for which functional extensionality is used. *)
From Verif Require Import Base BaseLemmas ModelGraph Spec ProofGraph3 ModelMixed SpecMixed ModelPC SpecPC ModelPAG ModelPDS ModelFCI SpecFCI ModelOICD SpecOICD ProofFCI6 ProofRun2 ProofOICD4.

(** ** C99: ICD with the default options; a and b are separated by Z and yet adjacent *)
Theorem C99_icd_no_latents_refuted : ∃ o d fuel fuel' a b (Z : nset), iter_ok o ∧ wf_graph d ∧ acyclic d ∧ size (gnodes d) < fuel ∧
  size (gnodes d) * size (gnodes d) + size (gnodes d) + 2 < fuel' ∧ a ∈ gnodes d ∧ b ∈ gnodes d ∧ Z ⊆ gnodes d ∖ {[a; b]} ∧ d_separated d a b (elements Z) ∧
  returns (icd_learn o (dsep_ci o fuel d) true true fuel' false (icd_init o (gnodes d))) (λ t, mg_adj (ls_graph (ic_ls t)) a b).
Proof. exact icd_not_exact. Qed.
Print Assumptions C99_icd_no_latents_refuted.

(** ** C73: both variants of OrderedICD with a causal order of the DAG *)
Theorem C73_oicd_no_latents_refuted : ∀ loc, ∃ o d fuel fuel' ord a b (Z : nset), iter_ok o ∧ wf_graph d ∧ acyclic d ∧ size (gnodes d) < fuel ∧
  size (gnodes d) * size (gnodes d) + size (gnodes d) + 2 < fuel' ∧ NoDup ord ∧ list_to_set ord = gnodes d ∧ (∀ x y, before ord x y → ¬ ancestor d y x) ∧
  a ∈ gnodes d ∧ b ∈ gnodes d ∧ Z ⊆ gnodes d ∖ {[a; b]} ∧ d_separated d a b (elements Z) ∧
  returns (s ← oicd_init o ord None (gnodes d); o_learn o (dsep_ci o fuel d) true true fuel' ord None loc s) (λ s, mg_adj (ls_graph (os_ls s)) a b).
Proof. exact oicd_not_exact. Qed.
Print Assumptions C73_oicd_no_latents_refuted.

(** ** C72: with the default options OrderedICD outputs a tail at a node that is no ancestor of the other end; both variants *)
Theorem C72_wrong_tail_refuted : ∀ loc, ∃ o d fuel fuel' V ord a b, iter_ok o ∧ wf_graph d ∧ acyclic d ∧ V ⊆ gnodes d ∧ size (gnodes d) < fuel ∧
  size V * size V + size V + 2 < fuel' ∧ NoDup ord ∧ list_to_set ord = V ∧ (∀ x y, before ord x y → ¬ ancestor d y x) ∧ ¬ ancestor d a b ∧
  returns (s ← oicd_init o ord None V; o_learn o (dsep_ci o fuel d) true true fuel' ord None loc s) (λ s, has_mark (ls_graph (os_ls s)) b Tail a).
Proof. exact oicd_wrong_tail. Qed.
Print Assumptions C72_wrong_tail_refuted.
