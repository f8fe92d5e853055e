(** Property C136: the answers that PC, FCI and the other learners receive in one run determine the rest.
    [o], [iter_ok o] and the fuel as in PropGraph.v, [ci] and [pc_log] as in PropPC.v, [learner] as in SpecReplay.v. *)
From Coq Require Import QArith Qreals Reals Lra.
From Verif Require Import Base BaseLemmas ModelGraph Spec ModelMixed SpecMixed ModelPC SpecPC ModelPAG ModelFCI SpecFCI SpecPCCount SpecReplay SpecIdentify
  ProofGraph ProofGraph2 ProofGraph3 ProofDsep ProofPDAG ProofPDAG2 ProofMixed ProofMixed2 ProofPC ProofVP ProofReplay SpecCanon
  PropMixed PropPC PropMeek PropReplay PropCanon PropPipeline.
Local Open Scope nat_scope.

Lemma dsep_ci_answers o fuel d log i j c : iter_ok o → wf_graph d → acyclic d → size (gnodes d) < fuel →
  i ∈ gnodes d → j ∈ gnodes d → i ≠ j → (∀ z, z ∈ c → z ∈ gnodes d ∧ z ≠ i ∧ z ≠ j) →
  dsep_ci o fuel d log i j c = true ↔ d_separated d i j c.
Proof.
  intros Ho W Ac Hf Hi Hj Hne Hc. unfold dsep_ci.
  assert (returns (dsep o fuel d i j c) (λ b, b = true ↔ d_separated d i j c)) as H.
  { apply dsep_spec; try done; [intros z Hz; by apply Hc|]. intros H. apply Hc in H. tauto. }
  by apply returns_ok in H as (b & -> & H).
Qed.

Lemma agrees_honest o fuel d log : iter_ok o → wf_graph d → acyclic d → size (gnodes d) < fuel →
  proper_log (gnodes d) log → dag_agrees d log → honest (dsep_ci o fuel d) log.
Proof.
  intros Ho W Ac Hf P A l1 l2 i j c b E. assert ((i, j, c, b) ∈ log) as Hin by (rewrite E; apply elem_of_app; right; left).
  destruct (P _ _ _ _ Hin) as (Hi & Hj & Hne & _ & Hc). pose proof (A _ _ _ _ Hin) as Hb.
  pose proof (dsep_ci_answers o fuel d l2 i j c Ho W Ac Hf Hi Hj Hne Hc) as Hd.
  destruct b, (dsep_ci o fuel d l2 i j c); try done.
  - symmetry. by apply Hd, Hb.
  - by apply Hb, Hd.
Qed.

(** ** C136 *)
(** any learner: if the answers given in a run agree with a DAG (or an ancestral graph), then the run is the run with a perfect test of it *)
Theorem C136_dag : ∀ V L ci r d o fuel, learner V L → L ci = Ok r → wf_graph d → acyclic d → gnodes d = V → dag_agrees d r.2 →
  iter_ok o → size V < fuel → L (dsep_ci o fuel d) = Ok r.
Proof.
  intros V L ci r d o fuel HL E W Ac N A Ho Hf. apply (C128_replay V L ci _ r HL E). subst V.
  pose proof (learner_ok _ L ci HL) as H. rewrite E in H. destruct H as [P _]. by apply agrees_honest.
Qed.
Print Assumptions C136_dag.
Theorem C136_mag : ∀ V L ci ci' r m, learner V L → L ci = Ok r → mnodes m = V → mag_agrees m r.2 → perfect_for m ci' → L ci' = Ok r.
Proof.
  intros V L ci ci' r m HL E N A Hp. apply (C128_replay V L ci _ r HL E). subst V.
  pose proof (learner_ok _ L ci HL) as H. rewrite E in H. destruct H as [P _].
  intros l1 l2 i j c b El. assert ((i, j, c, b) ∈ r.2) as Hin by (rewrite El; apply elem_of_app; right; left).
  destruct (P _ _ _ _ Hin) as (Hi & Hj & Hne & Hnd & Hc). pose proof (A _ _ _ _ Hin) as Hb.
  pose proof (Hp l2 i j c Hi Hj Hne Hnd Hc) as Hd.
  destruct b, (ci' l2 i j c); try done.
  - symmetry. by apply Hd, Hb.
  - by apply Hb, Hd.
Qed.
Print Assumptions C136_mag.

(** PC: the result is the essential graph of every DAG that agrees with the answers *)
Theorem C136_pc : ∀ o ci ow fuel V s d, iter_ok o → size V * size V + 1 < fuel → pc_learn o ci ow fuel V = Ok s →
  wf_graph d → acyclic d → gnodes d = V → dag_agrees d (pc_log s) → essential_graph d (pc_graph s).
Proof.
  intros o ci ow fuel V s d Ho Hf E W Ac N A.
  pose proof (C136_dag V _ ci (pc_graph s, pc_log s) d ord_up (S (size V)) (learner_pc V o ow fuel Ho Hf)) as H.
  cbn beta in H. rewrite E in H. specialize (H eq_refl W Ac N A ord_up_ok (Nat.lt_succ_diag_r _)). subst V.
  destruct (C92_pc_is_essential o ord_up d ow fuel (S (size (gnodes d))) Ho ord_up_ok W Ac Hf (Nat.lt_succ_diag_r _)) as (s' & E' & HE).
  rewrite E' in H. cbn [mbind res_bind] in H. by injection H as <- _.
Qed.
Print Assumptions C136_pc.

(** so two DAGs that agree with the answers of one run of PC agree on everything else *)
Theorem C136_pc_unique : ∀ o ci ow fuel V s d e, iter_ok o → size V * size V + 1 < fuel → pc_learn o ci ow fuel V = Ok s →
  wf_graph d → acyclic d → gnodes d = V → dag_agrees d (pc_log s) →
  wf_graph e → acyclic e → gnodes e = V → dag_agrees e (pc_log s) →
  same_skeleton d e ∧ same_v_structures d e ∧ same_independences d e.
Proof.
  intros o ci ow fuel V s d e Ho Hf E Wd Ad Nd Gd We Ae Ne Ge.
  pose proof (C136_pc o ci ow fuel V s d Ho Hf E Wd Ad Nd Gd) as Hd. pose proof (C136_pc o ci ow fuel V s e Ho Hf E We Ae Ne Ge) as He.
  destruct (extensions_equivalent (pc_graph s) d e) as [H1 H2]; [by apply essential_extends..|]. split_and!; [done..|].
  intros a b Z Ha Hb Hne HZ. by apply equivalent_d_separated.
Qed.
Print Assumptions C136_pc_unique.

(** convert_to_dag succeeds if some DAG agrees with the answers; if it fails, every DAG contradicts an answer that was given *)
Theorem C136_pc_convert : ∀ o o' ci ow fuel fuel' V s e0, iter_ok o → iter_ok o' → size V * size V + 1 < fuel → size V < fuel' →
  gnodes e0 = V → (∀ n, gadj e0 n = ∅) → pc_learn o ci ow fuel V = Ok s →
  ∃ e b, convert_to_dag o' fuel' (pc_graph s) e0 = Ok (e, b) ∧
  ∀ d, wf_graph d → acyclic d → gnodes d = V → dag_agrees d (pc_log s) → b = true ∧ acyclic e ∧ dag_agrees e (pc_log s).
Proof.
  intros o o' ci ow fuel fuel' V s e0 Ho Ho' Hf Hf' N0 E0 E.
  pose proof (C40_pc_justified o ci ow fuel V Ho Hf) as J. rewrite E in J. destruct J as (Hn & Hg & _).
  destruct (proj1 (returns_ok _ _) (C20_convert_to_dag_correct o' (pc_graph s) e0 fuel' Ho' Hg ltac:(congruence) E0 ltac:(by rewrite Hn))) as ([e b] & Ee & _).
  exists e, b. split; [done|]. intros d W Ac N A.
  pose proof (C136_pc o ci ow fuel V s d Ho Hf E W Ac N A) as HE.
  destruct (essential_to_dag o' d (pc_graph s) e0 fuel' Ho' W Ac HE Hg ltac:(congruence) E0 ltac:(by rewrite N)) as (e' & Ee' & _ & We & Ae & Ne & Hs).
  rewrite Ee in Ee'. injection Ee' as -> ->. split_and!; [done..|].
  intros i j c b Hin. rewrite (A _ _ _ _ Hin). symmetry.
  pose proof (learner_ok V _ ci (learner_pc V o ow fuel Ho Hf)) as H. cbn beta in H. rewrite E in H. destruct H as [P _].
  destruct (P _ _ _ _ Hin) as (Hi & Hj & Hne & _ & Hc). rewrite <-N in *. by apply Hs.
Qed.
Print Assumptions C136_pc_convert.

(** FCI, when no variable is latent: the same *)
Theorem C136_fci_unique : ∀ o ci sb tc fuel V r d e, iter_ok o → size V * size V + size V + 2 < fuel → fci_learn o ci sb tc fuel V = Ok r →
  wf_graph d → acyclic d → gnodes d = V → dag_agrees d (ls_log r.1) →
  wf_graph e → acyclic e → gnodes e = V → dag_agrees e (ls_log r.1) →
  same_skeleton d e ∧ same_v_structures d e ∧ same_independences d e.
Proof.
  intros o ci sb tc fuel V r d e Ho Hf E Wd Ad Nd Gd We Ae Ne Ge.
  assert (∀ x, wf_graph x → acyclic x → gnodes x = V → dag_agrees x (ls_log r.1) → ∃ p, essential_graph x p ∧ pag_of_cpdag p (ls_graph r.1)) as H.
  { intros x W Ac N A.
    pose proof (C136_dag V _ ci (ls_graph r.1, ls_log r.1) x ord_up (S (size V)) (learner_fci V o sb tc fuel Ho Hf)) as H.
    cbn beta in H. rewrite E in H. specialize (H eq_refl W Ac N A ord_up_ok (Nat.lt_succ_diag_r _)). clear E. rewrite <-N in H, Hf.
    assert (size (gnodes x) * size (gnodes x) + 1 < size (gnodes x) * size (gnodes x) + 2) as F3 by lia.
    destruct (C92_pc_is_essential ord_up ord_up x true _ (S (size (gnodes x))) ord_up_ok ord_up_ok W Ac F3 (Nat.lt_succ_diag_r _)) as (s & Es & HE).
    pose proof (C131_fci_is_pc x o ord_up ord_up ord_up fuel (S (size (gnodes x))) _ (S (size (gnodes x))) sb tc true W Ac Ho ord_up_ok ord_up_ok ord_up_ok Hf (Nat.lt_succ_diag_r _) F3 (Nat.lt_succ_diag_r _)) as HC.
    rewrite Es in HC. cbn [returns] in HC. exists (pc_graph s). split; [done|].
    destruct (fci_learn o (dsep_ci ord_up (S (size (gnodes x))) x) sb tc fuel (gnodes x)) as [r'| |]; [|done..].
    cbn [mbind res_bind returns] in *. injection H as <- _. done. }
  destruct (H d Wd Ad Nd Gd) as (p & Ep & Hp), (H e We Ae Ne Ge) as (q & Eq & Hq).
  assert (extends e p) as Hep.
  { pose proof (essential_extends e q We Ae Eq) as [X1 X2 X3 X4 X5]. split.
    - done.
    - rewrite X2, <-(pc_nodes_eq _ _ Hq). apply (pc_nodes_eq _ _ Hp).
    - intros a b. by rewrite X3, <-(pc_adj_eq _ _ Hq), (pc_adj_eq _ _ Hp).
    - intros a b Hab. apply X4. by apply (pc_arrows _ _ Hq), (pc_arrows _ _ Hp).
    - intros a c b Hv. destruct (X5 a c b Hv). split; apply (pc_arrows _ _ Hp); by apply (pc_arrows _ _ Hq). }
  destruct (extensions_equivalent p d e) as [H1 H2]; [by apply essential_extends|done|]. split_and!; [done..|].
  intros a b Z Ha Hb Hne HZ. by apply equivalent_d_separated.
Qed.
Print Assumptions C136_fci_unique.

(** a run of PC with answers from dA agrees with dA and with dB, which differ in the edge 3 - 4; when only 0, 2 given 1, 3 and 1, 3 given 0, 2
    are independent, PC returns the undirected cycle 0 - 1 - 2 - 3 - 0, which cannot be converted: no DAG agrees with these answers *)
Definition ci_cycle : citest := λ _ i j c, ((i =? j + 2) || (j =? i + 2)) && (length c =? 2).
Example C136_case : (∃ s, pc_learn ord_up (dsep_ci ord_up 7 dA) true 40 (gnodes dA) = Ok s ∧
    dag_agrees dA (pc_log s) ∧ dag_agrees dB (pc_log s) ∧ (3 <=? length (pc_log s)) = true) ∧
  (∃ s, pc_learn ord_up ci_cycle true 40 {[0; 1; 2; 3]} = Ok s ∧
    returns (convert_to_dag ord_up 5 (pc_graph s) (empty_graph {[0; 1; 2; 3]})) (λ r, r.2 = false) ∧
    ∀ d, wf_graph d → acyclic d → gnodes d = {[0; 1; 2; 3]} → ¬ dag_agrees d (pc_log s)).
Proof.
  assert (size (gnodes dA) * size (gnodes dA) + 1 < 40) as Hf by (vm_compute; lia).
  assert (size ({[0; 1; 2; 3]} : nset) * size ({[0; 1; 2; 3]} : nset) + 1 < 40) as Hf4 by (vm_compute; lia).
  split.
  - pose proof (learner_ok _ _ (dsep_ci ord_up 7 dA) (learner_pc (gnodes dA) ord_up true 40 ord_up_ok Hf)) as H. cbn beta in H.
    assert (returns (pc_learn ord_up (dsep_ci ord_up 7 dA) true 40 (gnodes dA)) (λ s, (3 <=? length (pc_log s)) = true)) as HL by (vm_compute; reflexivity).
    destruct (proj1 (returns_ok _ _) HL) as (s & E & Hlen). rewrite E in H. destruct H as [P Hh]. cbn [snd] in *.
    exists s. assert (dag_agrees dA (pc_log s)) as A.
    { intros i j c b Hin. destruct (P _ _ _ _ Hin) as (Hi & Hj & Hne & _ & Hc).
      apply elem_of_list_split in Hin as (l1 & l2 & El). rewrite (Hh _ _ _ _ _ _ El).
      apply dsep_ci_answers; [exact ord_up_ok|exact dA_wf|exact dA_acyclic|vm_compute; lia|done..]. }
    split_and!; [done|done| |done].
    intros i j c b Hin. rewrite (A _ _ _ _ Hin). destruct (P _ _ _ _ Hin) as (Hi & Hj & Hne & _ & Hc).
    destruct (extensions_equivalent pA dA dB dA_extends_pA dB_extends_pA) as [H1 H2].
    apply equivalent_d_separated; first [exact dA_wf|exact dB_wf|exact dA_acyclic|exact dB_acyclic|exact Hi|exact Hj|exact Hne|exact Hc|exact H1|exact H2|idtac].
  - assert (match pc_learn ord_up ci_cycle true 40 {[0; 1; 2; 3]} with
      Ok s => match convert_to_dag ord_up 5 (pc_graph s) (empty_graph {[0; 1; 2; 3]}) with Ok r => Some r.2 | _ => None end | _ => None end = Some false) as R
      by (vm_compute; reflexivity).
    destruct (pc_learn ord_up ci_cycle true 40 {[0; 1; 2; 3]}) as [s| |] eqn:E; [|discriminate R..].
    exists s. split; [reflexivity|].
    destruct (C136_pc_convert ord_up ord_up ci_cycle true 40 5 {[0; 1; 2; 3]} s (empty_graph {[0; 1; 2; 3]}))
      as (e & b & Ee & Hb); [exact ord_up_ok|exact ord_up_ok|exact Hf4|vm_compute; lia|reflexivity|reflexivity|exact E|].
    rewrite Ee in R |- *. cbn [snd] in R. injection R as ->. split; [reflexivity|]. intros d W Ac N A.
    destruct (Hb d W Ac N A) as [H _]. discriminate H.
Qed.
