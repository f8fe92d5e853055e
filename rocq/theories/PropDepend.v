(** Properties C120 to C122: which pairs of variables the constraint-based learners connect, in terms of the data that a CondIndepCMI or
    CondIndepParCorr object tests (C120, C121), and OrderedICD on data of a Bayesian network or a linear model (C122).
    [o], [iter_ok o], [fuel], [sb], [tc], [ow] as in PropPC.v and PropFCI.v; [ord], [mcs], [loc] as in PropOICD.v. *)
From Coq Require Import QArith Qreals Reals Lra.
From Verif Require Import Base BaseLemmas ModelGraph Spec Paths ProofGraph ProofGraph2 ProofGraph3 ProofDsep ModelMixed SpecMixed ModelPC SpecPC ProofPDAG ProofPDAG2 ProofPDAG3 ProofMixed ProofMixed2 ProofPC
  ModelRAI ModelPAG SpecPAG ModelPDS ModelFCI SpecFCI ModelOICD SpecOICD ProofOICD ProofOICD2 ProofOICD3 SpecLatent ProofLatent PropFCI PropOICD PropLatent ModelData ModelCI SpecCI ProofCI ProofCI2 ModelCMI SpecCMI ProofCMI
  SpecMarkov ProofMarkov ProofMarkov2 PropMarkov ModelParCorr SpecParCorr ProofParCorr SpecLinear ProofLinear PropLinear SpecDepend ProofDepend.
Local Open Scope nat_scope.

(** ** C120: a pair whose dependence shows given every set of other variables is adjacent in the result *)
Theorem C120_cmi_pc : ∀ o V data ws nv th ow fuel, iter_ok o → data_ok data ws nv → (∀ v, v ∈ V → v < nv) →
  size V * size V + 1 < fuel →
  returns (pc_learn o (cmi_test data ws nv th) ow fuel V) (λ s, ∀ a b, a ∈ V → b ∈ V → a ≠ b → always_above th V (records data ws) a b → pd_adj (pc_graph s) a b).
Proof.
  intros o V data ws nv th ow fuel Ho Hd HV Hf. eapply returns_mono; [exact (pc_keeps o Ho _ V ow fuel Hf)|]. cbn beta.
  intros s Hk a b Ha Hb Hne H. apply Hk; [done..|]. by apply cmi_refuses.
Qed.
Print Assumptions C120_cmi_pc.

Theorem C120_cmi_rai : ∀ o V data ws nv th ow fuel, iter_ok o → data_ok data ws nv → (∀ v, v ∈ V → v < nv) →
  size V * size V + 1 < fuel →
  returns (rai_learn o (cmi_test data ws nv th) ow fuel V) (λ s, ∀ a b, a ∈ V → b ∈ V → a ≠ b → always_above th V (records data ws) a b → pd_adj (pc_graph s) a b).
Proof.
  intros o V data ws nv th ow fuel Ho Hd HV Hf. eapply returns_mono; [exact (rai_keeps o Ho _ V ow fuel Hf)|]. cbn beta.
  intros s Hk a b Ha Hb Hne H. apply Hk; [done..|]. by apply cmi_refuses.
Qed.
Print Assumptions C120_cmi_rai.

Theorem C120_cmi_fci : ∀ o V data ws nv th sb tc fuel, iter_ok o → data_ok data ws nv → (∀ v, v ∈ V → v < nv) →
  size V * size V + size V + 2 < fuel →
  returns (fci_learn o (cmi_test data ws nv th) sb tc fuel V) (λ r, ∀ a b, a ∈ V → b ∈ V → a ≠ b → always_above th V (records data ws) a b → mg_adj (ls_graph r.1) a b).
Proof.
  intros o V data ws nv th sb tc fuel Ho Hd HV Hf. eapply returns_mono; [exact (fci_keeps o Ho _ V sb tc fuel Hf)|]. cbn beta.
  intros r Hk a b Ha Hb Hne H. apply Hk; [done..|]. by apply cmi_refuses.
Qed.
Print Assumptions C120_cmi_fci.

Theorem C120_cmi_icd : ∀ o V data ws nv th sb tc fuel precalc, iter_ok o → data_ok data ws nv → (∀ v, v ∈ V → v < nv) →
  size V * size V + size V + 2 < fuel →
  returns (icd_learn o (cmi_test data ws nv th) sb tc fuel precalc (icd_init o V)) (λ t, ∀ a b, a ∈ V → b ∈ V → a ≠ b → always_above th V (records data ws) a b → mg_adj (ls_graph (ic_ls t)) a b).
Proof.
  intros o V data ws nv th sb tc fuel precalc Ho Hd HV Hf. eapply returns_mono; [exact (icd_keeps o Ho _ V sb tc fuel precalc Hf)|]. cbn beta.
  intros t Hk a b Ha Hb Hne H. apply Hk; [done..|]. by apply cmi_refuses.
Qed.
Print Assumptions C120_cmi_icd.

Theorem C120_cmi_oicd : ∀ o V data ws nv th ord sb tc fuel mcs loc L s0, iter_ok o → data_ok data ws nv → (∀ v, v ∈ V → v < nv) →
  NoDup ord → list_to_set ord = V → size V * size V + size V + 2 < fuel → (∀ m, mcs = Some m → m + 2 ≤ size V) → o_reach o (cmi_test data ws nv th) sb tc fuel ord mcs V L s0 →
  returns (o_learn o (cmi_test data ws nv th) sb tc fuel ord mcs loc s0) (λ t, ∀ a b, a ∈ V → b ∈ V → a ≠ b → always_above th V (records data ws) a b → mg_adj (ls_graph (os_ls t)) a b).
Proof.
  intros o V data ws nv th ord sb tc fuel mcs loc L s0 Ho Hd HV Hnd Hord Hf Hm Hr. eapply returns_mono; [exact (oicd_keeps o Ho _ V ord sb tc fuel mcs L s0 loc Hnd Hord Hf Hm Hr)|]. cbn beta.
  intros t Hk a b Ha Hb Hne H. apply Hk; [done..|]. by apply cmi_refuses.
Qed.
Print Assumptions C120_cmi_oicd.

Theorem C120_parcorr_pc : ∀ o V data n nv inv (cdf : R → R) th ow fuel, iter_ok o → (∀ v, v ∈ V ↔ v < nv) → regular data n V → inverts_all data n inv V →
  size V * size V + 1 < fuel →
  returns (pc_learn o (parcorr_test data n nv inv cdf th) ow fuel V) (λ s, ∀ a b, a ∈ V → b ∈ V → a ≠ b → always_significant cdf th V data n a b → pd_adj (pc_graph s) a b).
Proof.
  intros o V data n nv inv cdf th ow fuel Ho HV HR HI Hf. eapply returns_mono; [exact (pc_keeps o Ho _ V ow fuel Hf)|]. cbn beta.
  intros s Hk a b Ha Hb Hne H. apply Hk; [done..|]. by apply (parcorr_refuses data n nv V HV HR inv cdf HI).
Qed.
Print Assumptions C120_parcorr_pc.

Theorem C120_parcorr_rai : ∀ o V data n nv inv (cdf : R → R) th ow fuel, iter_ok o → (∀ v, v ∈ V ↔ v < nv) → regular data n V → inverts_all data n inv V →
  size V * size V + 1 < fuel →
  returns (rai_learn o (parcorr_test data n nv inv cdf th) ow fuel V) (λ s, ∀ a b, a ∈ V → b ∈ V → a ≠ b → always_significant cdf th V data n a b → pd_adj (pc_graph s) a b).
Proof.
  intros o V data n nv inv cdf th ow fuel Ho HV HR HI Hf. eapply returns_mono; [exact (rai_keeps o Ho _ V ow fuel Hf)|]. cbn beta.
  intros s Hk a b Ha Hb Hne H. apply Hk; [done..|]. by apply (parcorr_refuses data n nv V HV HR inv cdf HI).
Qed.
Print Assumptions C120_parcorr_rai.

Theorem C120_parcorr_fci : ∀ o V data n nv inv (cdf : R → R) th sb tc fuel, iter_ok o → (∀ v, v ∈ V ↔ v < nv) → regular data n V → inverts_all data n inv V →
  size V * size V + size V + 2 < fuel →
  returns (fci_learn o (parcorr_test data n nv inv cdf th) sb tc fuel V) (λ r, ∀ a b, a ∈ V → b ∈ V → a ≠ b → always_significant cdf th V data n a b → mg_adj (ls_graph r.1) a b).
Proof.
  intros o V data n nv inv cdf th sb tc fuel Ho HV HR HI Hf. eapply returns_mono; [exact (fci_keeps o Ho _ V sb tc fuel Hf)|]. cbn beta.
  intros r Hk a b Ha Hb Hne H. apply Hk; [done..|]. by apply (parcorr_refuses data n nv V HV HR inv cdf HI).
Qed.
Print Assumptions C120_parcorr_fci.

Theorem C120_parcorr_icd : ∀ o V data n nv inv (cdf : R → R) th sb tc fuel precalc, iter_ok o → (∀ v, v ∈ V ↔ v < nv) → regular data n V → inverts_all data n inv V →
  size V * size V + size V + 2 < fuel →
  returns (icd_learn o (parcorr_test data n nv inv cdf th) sb tc fuel precalc (icd_init o V)) (λ t, ∀ a b, a ∈ V → b ∈ V → a ≠ b → always_significant cdf th V data n a b → mg_adj (ls_graph (ic_ls t)) a b).
Proof.
  intros o V data n nv inv cdf th sb tc fuel precalc Ho HV HR HI Hf. eapply returns_mono; [exact (icd_keeps o Ho _ V sb tc fuel precalc Hf)|]. cbn beta.
  intros t Hk a b Ha Hb Hne H. apply Hk; [done..|]. by apply (parcorr_refuses data n nv V HV HR inv cdf HI).
Qed.
Print Assumptions C120_parcorr_icd.

Theorem C120_parcorr_oicd : ∀ o V data n nv inv (cdf : R → R) th ord sb tc fuel mcs loc L s0, iter_ok o → (∀ v, v ∈ V ↔ v < nv) → regular data n V → inverts_all data n inv V →
  NoDup ord → list_to_set ord = V → size V * size V + size V + 2 < fuel → (∀ m, mcs = Some m → m + 2 ≤ size V) → o_reach o (parcorr_test data n nv inv cdf th) sb tc fuel ord mcs V L s0 →
  returns (o_learn o (parcorr_test data n nv inv cdf th) sb tc fuel ord mcs loc s0) (λ t, ∀ a b, a ∈ V → b ∈ V → a ≠ b → always_significant cdf th V data n a b → mg_adj (ls_graph (os_ls t)) a b).
Proof.
  intros o V data n nv inv cdf th ord sb tc fuel mcs loc L s0 Ho HV HR HI Hnd Hord Hf Hm Hr. eapply returns_mono; [exact (oicd_keeps o Ho _ V ord sb tc fuel mcs L s0 loc Hnd Hord Hf Hm Hr)|]. cbn beta.
  intros t Hk a b Ha Hb Hne H. apply Hk; [done..|]. by apply (parcorr_refuses data n nv V HV HR inv cdf HI).
Qed.
Print Assumptions C120_parcorr_oicd.


(** ** C121: a pair that the test declares independent given nothing is not adjacent in the result *)
Theorem C121_cmi_pc : ∀ o V data ws nv th ow fuel, iter_ok o → data_ok data ws nv → (∀ v, v ∈ V → v < nv) →
  size V * size V + 1 < fuel →
  returns (pc_learn o (cmi_test data ws nv th) ow fuel V) (λ s, ∀ a b, (emp_cmi (records data ws) a b [] <= th)%R → ¬ pd_adj (pc_graph s) a b).
Proof.
  intros o V data ws nv th ow fuel Ho Hd HV Hf. eapply returns_mono; [exact (pc_drops o Ho _ V ow fuel Hf)|]. cbn beta.
  intros s Hk a b H. apply Hk. by apply cmi_accepts.
Qed.
Print Assumptions C121_cmi_pc.

Theorem C121_cmi_rai : ∀ o V data ws nv th ow fuel, iter_ok o → data_ok data ws nv → (∀ v, v ∈ V → v < nv) →
  size V * size V + 1 < fuel →
  returns (rai_learn o (cmi_test data ws nv th) ow fuel V) (λ s, ∀ a b, (emp_cmi (records data ws) a b [] <= th)%R → ¬ pd_adj (pc_graph s) a b).
Proof.
  intros o V data ws nv th ow fuel Ho Hd HV Hf. eapply returns_mono; [exact (rai_drops o Ho _ V ow fuel Hf)|]. cbn beta.
  intros s Hk a b H. apply Hk. by apply cmi_accepts.
Qed.
Print Assumptions C121_cmi_rai.

Theorem C121_cmi_fci : ∀ o V data ws nv th sb tc fuel, iter_ok o → data_ok data ws nv → (∀ v, v ∈ V → v < nv) →
  size V * size V + size V + 2 < fuel →
  returns (fci_learn o (cmi_test data ws nv th) sb tc fuel V) (λ r, ∀ a b, (emp_cmi (records data ws) a b [] <= th)%R → ¬ mg_adj (ls_graph r.1) a b).
Proof.
  intros o V data ws nv th sb tc fuel Ho Hd HV Hf. eapply returns_mono; [exact (fci_drops o Ho _ V sb tc fuel Hf)|]. cbn beta.
  intros r Hk a b H. apply Hk. by apply cmi_accepts.
Qed.
Print Assumptions C121_cmi_fci.

Theorem C121_cmi_icd : ∀ o V data ws nv th sb tc fuel precalc, iter_ok o → data_ok data ws nv → (∀ v, v ∈ V → v < nv) →
  size V * size V + size V + 2 < fuel →
  returns (icd_learn o (cmi_test data ws nv th) sb tc fuel precalc (icd_init o V)) (λ t, ∀ a b, (emp_cmi (records data ws) a b [] <= th)%R → ¬ mg_adj (ls_graph (ic_ls t)) a b).
Proof.
  intros o V data ws nv th sb tc fuel precalc Ho Hd HV Hf. eapply returns_mono; [exact (icd_drops o Ho _ V sb tc fuel precalc Hf)|]. cbn beta.
  intros t Hk a b H. apply Hk. by apply cmi_accepts.
Qed.
Print Assumptions C121_cmi_icd.

Theorem C121_cmi_oicd : ∀ o V data ws nv th ord sb tc fuel mcs loc s0, iter_ok o → data_ok data ws nv → (∀ v, v ∈ V → v < nv) →
  NoDup ord → list_to_set ord = V → size V * size V + size V + 2 < fuel → (∀ m, mcs = Some m → m + 2 ≤ size V) → oicd_init o ord mcs V = Ok s0 →
  returns (o_learn o (cmi_test data ws nv th) sb tc fuel ord mcs loc s0) (λ t, ∀ a b, (emp_cmi (records data ws) a b [] <= th)%R → ¬ mg_adj (ls_graph (os_ls t)) a b).
Proof.
  intros o V data ws nv th ord sb tc fuel mcs loc s0 Ho Hd HV Hnd Hord Hf Hm Hr. eapply returns_mono; [exact (oicd_drops o Ho _ V ord sb tc fuel mcs loc s0 Hnd Hord Hf Hm Hr)|]. cbn beta.
  intros t Hk a b H. apply Hk. by apply cmi_accepts.
Qed.
Print Assumptions C121_cmi_oicd.

Theorem C121_parcorr_pc : ∀ o V data n nv inv (cdf : R → R) th ow fuel, iter_ok o → (∀ v, v ∈ V ↔ v < nv) → regular data n V → inverts_all data n inv V →
  size V * size V + 1 < fuel →
  returns (pc_learn o (parcorr_test data n nv inv cdf th) ow fuel V) (λ s, ∀ a b, (∀ r, partial_correlation data n a b [] r → th < two_sided cdf (R_sqrt.sqrt (INR (n - 3)) * fisher_z r)%R)%R → ¬ pd_adj (pc_graph s) a b).
Proof.
  intros o V data n nv inv cdf th ow fuel Ho HV HR HI Hf. eapply returns_mono; [exact (pc_drops o Ho _ V ow fuel Hf)|]. cbn beta.
  intros s Hk a b H. apply Hk. by apply (parcorr_accepts data n nv V HV HR inv cdf HI).
Qed.
Print Assumptions C121_parcorr_pc.

Theorem C121_parcorr_rai : ∀ o V data n nv inv (cdf : R → R) th ow fuel, iter_ok o → (∀ v, v ∈ V ↔ v < nv) → regular data n V → inverts_all data n inv V →
  size V * size V + 1 < fuel →
  returns (rai_learn o (parcorr_test data n nv inv cdf th) ow fuel V) (λ s, ∀ a b, (∀ r, partial_correlation data n a b [] r → th < two_sided cdf (R_sqrt.sqrt (INR (n - 3)) * fisher_z r)%R)%R → ¬ pd_adj (pc_graph s) a b).
Proof.
  intros o V data n nv inv cdf th ow fuel Ho HV HR HI Hf. eapply returns_mono; [exact (rai_drops o Ho _ V ow fuel Hf)|]. cbn beta.
  intros s Hk a b H. apply Hk. by apply (parcorr_accepts data n nv V HV HR inv cdf HI).
Qed.
Print Assumptions C121_parcorr_rai.

Theorem C121_parcorr_fci : ∀ o V data n nv inv (cdf : R → R) th sb tc fuel, iter_ok o → (∀ v, v ∈ V ↔ v < nv) → regular data n V → inverts_all data n inv V →
  size V * size V + size V + 2 < fuel →
  returns (fci_learn o (parcorr_test data n nv inv cdf th) sb tc fuel V) (λ r, ∀ a b, (∀ r, partial_correlation data n a b [] r → th < two_sided cdf (R_sqrt.sqrt (INR (n - 3)) * fisher_z r)%R)%R → ¬ mg_adj (ls_graph r.1) a b).
Proof.
  intros o V data n nv inv cdf th sb tc fuel Ho HV HR HI Hf. eapply returns_mono; [exact (fci_drops o Ho _ V sb tc fuel Hf)|]. cbn beta.
  intros r Hk a b H. apply Hk. by apply (parcorr_accepts data n nv V HV HR inv cdf HI).
Qed.
Print Assumptions C121_parcorr_fci.

Theorem C121_parcorr_icd : ∀ o V data n nv inv (cdf : R → R) th sb tc fuel precalc, iter_ok o → (∀ v, v ∈ V ↔ v < nv) → regular data n V → inverts_all data n inv V →
  size V * size V + size V + 2 < fuel →
  returns (icd_learn o (parcorr_test data n nv inv cdf th) sb tc fuel precalc (icd_init o V)) (λ t, ∀ a b, (∀ r, partial_correlation data n a b [] r → th < two_sided cdf (R_sqrt.sqrt (INR (n - 3)) * fisher_z r)%R)%R → ¬ mg_adj (ls_graph (ic_ls t)) a b).
Proof.
  intros o V data n nv inv cdf th sb tc fuel precalc Ho HV HR HI Hf. eapply returns_mono; [exact (icd_drops o Ho _ V sb tc fuel precalc Hf)|]. cbn beta.
  intros t Hk a b H. apply Hk. by apply (parcorr_accepts data n nv V HV HR inv cdf HI).
Qed.
Print Assumptions C121_parcorr_icd.

Theorem C121_parcorr_oicd : ∀ o V data n nv inv (cdf : R → R) th ord sb tc fuel mcs loc s0, iter_ok o → (∀ v, v ∈ V ↔ v < nv) → regular data n V → inverts_all data n inv V →
  NoDup ord → list_to_set ord = V → size V * size V + size V + 2 < fuel → (∀ m, mcs = Some m → m + 2 ≤ size V) → oicd_init o ord mcs V = Ok s0 →
  returns (o_learn o (parcorr_test data n nv inv cdf th) sb tc fuel ord mcs loc s0) (λ t, ∀ a b, (∀ r, partial_correlation data n a b [] r → th < two_sided cdf (R_sqrt.sqrt (INR (n - 3)) * fisher_z r)%R)%R → ¬ mg_adj (ls_graph (os_ls t)) a b).
Proof.
  intros o V data n nv inv cdf th ord sb tc fuel mcs loc s0 Ho HV HR HI Hnd Hord Hf Hm Hr. eapply returns_mono; [exact (oicd_drops o Ho _ V ord sb tc fuel mcs loc s0 Hnd Hord Hf Hm Hr)|]. cbn beta.
  intros t Hk a b H. apply Hk. by apply (parcorr_accepts data n nv V HV HR inv cdf HI).
Qed.
Print Assumptions C121_parcorr_oicd.

(** ** C122: OrderedICD on data, as C113 and C115 for FCI and ICD *)
Theorem C122_cmi : ∀ o d data ws nv K th V ord, iter_ok o → wf_graph d → acyclic d → (∀ v, v ∈ gnodes d ↔ v < nv) → V ⊆ gnodes d → data_ok data ws nv →
  bayes_net d nv K (records data ws) → (0 <= th)%R → faithful_above th d V (records data ws) →
  NoDup ord → list_to_set ord = V → (∀ x y, before ord x y → ¬ ancestor d y x) →
  ∀ sb fuel, size V * size V + size V + 2 < fuel → ∀ (L : bool → Prop) mcs s loc, (∀ n, mcs = Some n → n + 2 ≤ size V) →
  o_reach o (cmi_test_plain data ws nv th) sb false fuel ord mcs V L s →
  returns (o_learn o (cmi_test_plain data ws nv th) sb false fuel ord mcs loc s) (λ t,
    (∀ a b, a ∈ V → b ∈ V → a ≠ b → inseparable d V a b → mg_adj (ls_graph (os_ls t)) a b) ∧
    ((∀ a b, mg_adj (ls_graph (os_ls t)) a b → inseparable d V a b) → sound_for_dag d V (ls_graph (os_ls t)))).
Proof.
  intros o d data ws nv K th V ord Ho Hwf Hac Hn HV Hd HB Hth HF Hnd Hord Hbef sb fuel Hf L mcs s loc Hm Hr.
  apply (oicd_perfect o (cmi_test_plain data ws nv th) d V ord Ho Hwf Hac HV) with (L := L); try done. intros m M. by eapply (cmi_perfect d data ws nv K th V).
Qed.
Print Assumptions C122_cmi.

Theorem C122_parcorr : ∀ o d w data n inv (cdf : R → R) th V ord, iter_ok o → wf_graph d → acyclic d → V ⊆ gnodes d →
  linear_model d w data n → noisy d w data n → inverts_all data n inv V → (th < 2 * (1 - cdf 0))%R → significant cdf th d V data n →
  NoDup ord → list_to_set ord = V → (∀ x y, before ord x y → ¬ ancestor d y x) →
  ∀ sb fuel, size V * size V + size V + 2 < fuel → ∀ (L : bool → Prop) mcs s loc, (∀ k, mcs = Some k → k + 2 ≤ size V) →
  o_reach o (parcorr_test_plain data n inv cdf th) sb false fuel ord mcs V L s →
  returns (o_learn o (parcorr_test_plain data n inv cdf th) sb false fuel ord mcs loc s) (λ t,
    (∀ a b, a ∈ V → b ∈ V → a ≠ b → inseparable d V a b → mg_adj (ls_graph (os_ls t)) a b) ∧
    ((∀ a b, mg_adj (ls_graph (os_ls t)) a b → inseparable d V a b) → sound_for_dag d V (ls_graph (os_ls t)))).
Proof.
  intros o d w data n inv cdf th V ord Ho Hwf Hac HV HM HN Hinv Hth HF Hnd Hord Hbef sb fuel Hf L mcs s loc Hm Hr.
  apply (oicd_perfect o (parcorr_test_plain data n inv cdf th) d V ord Ho Hwf Hac HV) with (L := L); try done.
  intros m M. exact (plain_perfect d Hwf Hac w data n HM HN inv cdf V HV Hinv th Hth HF m M).
Qed.
Print Assumptions C122_parcorr.

(** ** cases *)
(** in the data of 0 -> 2 <- 1 the dependence of 0 and 2 shows given every set, 0 and 1 are independent; [1/20] is a threshold for both tests *)
Example C120_cmi_case : data_ok dataC None 3 ∧ (∀ v, v ∈ gnodes dC → v < 3) ∧ always_above 0 (gnodes dC) (records dataC None) 0 2.
Proof.
  destruct C112_case as (_ & _ & Hn & Hd & _). split; [done|]. split; [intros v; apply Hn|].
  intros zz Hnd Hz. apply faithfulC; [apply (bool_decide_unpack _); by vm_compute|apply (bool_decide_unpack _); by vm_compute|lia|done|done|].
  apply adjacent_not_dsep; [lia|]. left. apply mk_graph_edge. set_solver +.
Qed.
Example C121_cmi_case : (emp_cmi (records dataC None) 0 1 [] <= 0)%R.
Proof.
  destruct C112_case as (H1 & H2 & H3 & H4 & H5 & H6 & H7 & _). right. by apply (cmi_d_separated dC dataC None 3 2).
Qed.
Lemma ex_inverts3 : inverts_all ex_data 8 ex_inv (gnodes dC).
Proof.
  intros idx H1 H2 H3. exfalso. assert (length idx ≤ length [0;1;2]); [|cbn in *; lia]. apply submseteq_length, NoDup_submseteq; [done|]. intros a Ha%H2%dC_nodes. set_unfold. lia.
Qed.
Example C120_parcorr_case : (∀ v, v ∈ gnodes dC ↔ v < 3) ∧ regular ex_data 8 (gnodes dC) ∧ inverts_all ex_data 8 ex_inv (gnodes dC) ∧
  always_significant ex_cdf (1/20) (gnodes dC) ex_data 8 0 2.
Proof.
  assert (wf_graph dC) as Hwf by by apply mk_graph_wf; vm_compute. assert (acyclic dC) as Hac by by apply mk_graph_acyclic; vm_compute.
  destruct dC_linear as [HM HN]. split; [apply dC_nodes|]. split; [split|split; [apply ex_inverts3|]].
  - intros a Ha. destruct (noisy_regular dC Hwf Hac ex_w ex_data 8 HM HN [a]) as [_ H]; [apply NoDup_singleton|set_solver +Ha|done|]. apply H. left.
  - intros idx H1 H2 H3. by destruct (noisy_regular dC Hwf Hac ex_w ex_data 8 HM HN idx) as [H _].
  - intros zz r Hnd Hz Hr. apply (ex_significant 0 2 zz r); [apply dC_nodes; lia|apply dC_nodes; lia|lia|done|done| |done].
    apply adjacent_not_dsep; [lia|]. left. apply mk_graph_edge. set_solver +.
Qed.
Example C121_parcorr_case : ∀ r, partial_correlation ex_data 8 0 1 [] r → (1/20 < two_sided ex_cdf (R_sqrt.sqrt (INR (8 - 3)) * fisher_z r))%R.
Proof.
  assert (wf_graph dC) as Hwf by by apply mk_graph_wf; vm_compute. assert (acyclic dC) as Hac by by apply mk_graph_acyclic; vm_compute.
  destruct dC_linear as [HM HN]. intros r Hr. destruct C112_case as (_ & _ & _ & _ & _ & _ & Hs & _).
  assert (qnodes (gnodes dC) 0 1 []) as Hq by (split_and!; [apply dC_nodes; lia|apply dC_nodes; lia|lia|constructor|set_solver +]).
  destruct (linear_zero dC Hwf Hac ex_w ex_data 8 HM HN ex_inv ex_cdf (gnodes dC) ltac:(done) ex_inverts3 0 1 [] Hq Hs) as [H0 _].
  rewrite (partial_unique _ _ _ _ _ _ _ Hr H0). unfold two_sided. rewrite fisher_0, Rmult_0_r, Rabs_R0. unfold ex_cdf. destruct (Rle_dec 0 0); lra.
Qed.
(** so every one of the learners connects 0 and 2, and not 0 and 1; shown for RAI and OrderedICD *)
Example C120_C121_case : ∀ ow sb tc loc,
  returns (rai_learn ord_down (cmi_test dataC None 3 0) ow 20 (gnodes dC)) (λ s, pd_adj (pc_graph s) 0 2 ∧ ¬ pd_adj (pc_graph s) 0 1) ∧
  ∃ s0, oicd_init ord_down [1; 0; 2] None (gnodes dC) = Ok s0 ∧
    returns (o_learn ord_down (parcorr_test ex_data 8 3 ex_inv ex_cdf (1/20)) sb tc 20 [1; 0; 2] None loc s0) (λ t,
      mg_adj (ls_graph (os_ls t)) 0 2 ∧ ¬ mg_adj (ls_graph (os_ls t)) 0 1).
Proof.
  assert (0 ∈ gnodes dC ∧ 2 ∈ gnodes dC) as [N0 N2] by (split; apply dC_nodes; lia).
  intros ow sb tc loc. split.
  - destruct C120_cmi_case as (Hd & HV & H). eapply returns_mono; [apply (returns_and _ _ _
      (C120_cmi_rai ord_down (gnodes dC) dataC None 3 0 ow 20 ltac:(apply ord_down_ok) Hd HV ltac:(apply (bool_decide_unpack _); by vm_compute))
      (C121_cmi_rai ord_down (gnodes dC) dataC None 3 0 ow 20 ltac:(apply ord_down_ok) Hd HV ltac:(apply (bool_decide_unpack _); by vm_compute)))|].
    cbn beta. intros s [H1 H2]. split; [by apply H1|]. apply H2, C121_cmi_case.
  - destruct C120_parcorr_case as (HV & HR & HI & H).
    assert (NoDup [1; 0; 2]) as Hnd by (apply (bool_decide_unpack _); by vm_compute). assert (list_to_set [1; 0; 2] = gnodes dC) as Hord by (apply (bool_decide_unpack _); by vm_compute).
    assert (size (gnodes dC) * size (gnodes dC) + size (gnodes dC) + 2 < 20) as Hf by (apply (bool_decide_unpack _); by vm_compute).
    pose proof (oicd_init_returns ord_down ltac:(apply ord_down_ok) (gnodes dC) [1; 0; 2] Hnd Hord None ltac:(done)) as Hi. apply returns_ok in Hi as (s0 & E & _).
    exists s0. split; [done|]. eapply returns_mono; [apply (returns_and _ _ _
      (C120_parcorr_oicd ord_down (gnodes dC) ex_data 8 3 ex_inv ex_cdf (1/20) [1;0;2] sb tc 20 None loc (λ _, True) s0 ltac:(apply ord_down_ok) HV HR HI Hnd Hord Hf ltac:(done) ltac:(by constructor))
      (C121_parcorr_oicd ord_down (gnodes dC) ex_data 8 3 ex_inv ex_cdf (1/20) [1;0;2] sb tc 20 None loc s0 ltac:(apply ord_down_ok) HV HR HI Hnd Hord Hf ltac:(done) E))|].
    cbn beta. intros t [H1 H2]. split; [by apply H1|]. apply H2, C121_parcorr_case.
Qed.

(** the order 1, 0, 2 puts no node before its ancestors *)
Example C122_case : (∀ x y, before [1; 0; 2] x y → ¬ ancestor dC y x) ∧ ∀ sb loc, ∃ s0, oicd_init ord_down [1; 0; 2] None (gnodes dC) = Ok s0 ∧
  returns (o_learn ord_down (cmi_test_plain dataC None 3 0) sb false 20 [1; 0; 2] None loc s0) (λ t,
    ∀ a b, a ∈ gnodes dC → b ∈ gnodes dC → a ≠ b → inseparable dC (gnodes dC) a b → mg_adj (ls_graph (os_ls t)) a b).
Proof.
  destruct C112_case as (Hwf & Hac & Hn & Hd & HB & _).
  assert (NoDup [1; 0; 2]) as Hnd by (apply (bool_decide_unpack _); by vm_compute). assert (list_to_set [1; 0; 2] = gnodes dC) as Hord by (apply (bool_decide_unpack _); by vm_compute).
  assert (∀ x y, before [1; 0; 2] x y → ¬ ancestor dC y x) as Hb.
  { intros x y Hxy%elem_causal_pairs; [|done].
    assert (Forall (λ e, e.1 ∈ gnodes dC ∧ anc_b dC e.2 e.1 = false) (causal_pairs [1;0;2])) as HF by (apply (bool_decide_unpack _); by vm_compute).
    rewrite Forall_forall in HF. destruct (HF _ Hxy) as [H1 H2]. cbn [fst snd] in *. rewrite <-(anc_b_ok dC y x) by done. by rewrite H2. }
  split; [done|]. intros sb loc.
  pose proof (oicd_init_returns ord_down ltac:(apply ord_down_ok) (gnodes dC) [1; 0; 2] Hnd Hord None ltac:(done)) as Hi. apply returns_ok in Hi as (s0 & E & _).
  exists s0. split; [done|]. eapply returns_mono; [apply (C122_cmi ord_down dC dataC None 3 2 0 (gnodes dC) [1; 0; 2]) with (L := λ _, True); try done; auto using ord_down_ok, faithfulC|].
  - lra.
  - apply (bool_decide_unpack _); by vm_compute.
  - by constructor.
  - cbn beta. intros t [H _]. exact H.
Qed.
