(** Properties C112 and C113: the conditional mutual information test, and the learners that use it, on data that are distributed
    according to a Bayesian network.  [d] is the structure of the network over the variables 0, ..., nv-1, [K] bounds the values;
    the data are weighted or not. *)
From Coq Require Import QArith Qreals Reals Lra.
From Verif Require Import Base BaseLemmas ModelGraph Spec Paths ProofGraph ProofGraph2 ProofGraph3 ProofDsep ModelMixed SpecMixed ModelPC SpecPC ProofPDAG ProofPDAG2 ProofPDAG3 ProofMixed ProofMixed2 ProofPC
  PropMeek ModelPAG SpecPAG ModelPDS ModelFCI SpecFCI ModelOICD SpecOICD SpecLatent ProofLatent PropFCI PropLatent ModelData ModelCI SpecCI ProofCI ProofCI2 ModelCMI SpecCMI ProofCMI SpecMarkov ProofMarkov ProofMarkov2.
Local Open Scope nat_scope.

(** ** C112 *)
Theorem C112_markov : ∀ d data ws nv K x y zz, wf_graph d → acyclic d → (∀ v, v ∈ gnodes d ↔ v < nv) → data_ok data ws nv →
  bayes_net d nv K (records data ws) → qvalid nv (x, y, zz) → d_separated d x y zz →
  cmi_calc data ws nv x y zz = Some 0%R ∧
  ∀ th log, (0 <= th)%R → (∀ q, q ∈ log → qvalid nv q.1) → cmi_test data ws nv th log x y zz = true.
Proof.
  intros d data ws nv K x y zz Hwf Hac Hn Hd HB Hq Hs.
  pose proof (cmi_d_separated d data ws nv K x y zz Hwf Hac Hn Hd HB Hq Hs) as H0. split.
  - pose proof Hd as (Hne & Hlen & Hw). destruct Hq as (Hxy & Hx & Hy & _ & _ & _ & Hz). cbn [fst snd] in *.
    destruct (cmi_calc_ok data ws nv x y zz) as (v & H1 & Hv & _); [done..|by apply Forall_forall|]. by rewrite H1, Hv, H0.
  - intros th log Hth Hlog. apply cmi_test_ok; [done..|]. by rewrite H0.
Qed.
Print Assumptions C112_markov.

(** in particular for the joint distribution of every network: all configurations, weighted with their probabilities *)
Theorem C112_network : ∀ d nv K f x y zz, wf_graph d → acyclic d → (∀ v, v ∈ gnodes d ↔ v < nv) → 0 < K →
  (∀ v, v < nv → cond_table d K v (λ r, Q2R (f v r))) → (∀ v r, (0 <= f v r)%Q) → qvalid nv (x, y, zz) → d_separated d x y zz →
  cmi_calc (configs nv K) (Some (joint nv K f)) nv x y zz = Some 0%R ∧
  ∀ th log, (0 <= th)%R → (∀ q, q ∈ log → qvalid nv q.1) → cmi_test (configs nv K) (Some (joint nv K f)) nv th log x y zz = true.
Proof.
  intros d nv K f x y zz Hwf Hac Hn HK Hf Hp Hq Hs. apply (C112_markov d _ _ nv K); try done; [by apply joint_data_ok|by apply joint_bayes].
Qed.
Print Assumptions C112_network.

(** ** C113 *)
Theorem C113_pc : ∀ o d data ws nv K th ow fuel, iter_ok o → wf_graph d → acyclic d → (∀ v, v ∈ gnodes d ↔ v < nv) → data_ok data ws nv →
  bayes_net d nv K (records data ws) → (0 <= th)%R → faithful_above th d (gnodes d) (records data ws) → size (gnodes d) * size (gnodes d) + 1 < fuel →
  ∃ s, pc_learn o (cmi_test data ws nv th) ow fuel (gnodes d) = Ok s ∧ essential_graph d (pc_graph s).
Proof.
  intros o d data ws nv K th ow fuel Ho Hwf Hac Hn Hd HB Hth HF Hf.
  assert (∀ i, i ∈ [1;2;3] ↔ 1 ≤ i ≤ 3) as Hr by (intros i; set_unfold; lia).
  destruct (pc_perfect_cpdag o o (cmi_test data ws nv th) d (mempty (gnodes d)) [1;2;3] ow fuel fuel Ho Ho Hwf Hac) as (s & g & Es & Eg & Hn' & Hs); [done..| |].
  { intros log i j c Hlog. destruct (Hlog i j c true) as (Hi & Hj & Hne & Hc & Hz); [by left|].
    rewrite cmi_test_ok; [apply (below_iff d data ws nv K th (gnodes d)); try done|done|by apply (qvalid_nodes d nv (gnodes d))|].
    intros [[[i' j'] c'] b'] Hin. cbn. destruct (Hlog i' j' c' b') as (? & ? & ? & ? & ?); [by right|]. by apply (qvalid_nodes d nv (gnodes d)). }
  exists s. split; [done|].
  destruct (C92_cpdag_is_essential o d (mempty (gnodes d)) [1;2;3] fuel) as (g' & Eg' & N & D & U); [done..|]. rewrite Eg in Eg'. injection Eg' as <-.
  split_and!; [congruence|..].
  - intros a b. by rewrite <-D, (proj1 (Hs a b)).
  - intros a b. by rewrite <-U, (proj2 (Hs a b)).
Qed.
Print Assumptions C113_pc.

(** FCI and ICD, when only the variables of V are given to the learner: no edge between inseparable nodes is lost, and if no other
    edge is left then everything the graph says is true of the network *)
Theorem C113_fci : ∀ o d data ws nv K th V sb fuel, iter_ok o → wf_graph d → acyclic d → (∀ v, v ∈ gnodes d ↔ v < nv) → V ⊆ gnodes d → data_ok data ws nv →
  bayes_net d nv K (records data ws) → (0 <= th)%R → faithful_above th d V (records data ws) → size V * size V + size V + 2 < fuel →
  returns (fci_learn o (cmi_test_plain data ws nv th) sb false fuel V) (λ r,
    (∀ a b, a ∈ V → b ∈ V → a ≠ b → inseparable d V a b → mg_adj (ls_graph r.1) a b) ∧
    ((∀ a b, mg_adj (ls_graph r.1) a b → inseparable d V a b) → sound_for_dag d V (ls_graph r.1))).
Proof.
  intros o d data ws nv K th V sb fuel Ho Hwf Hac Hn HV Hd HB Hth HF Hf. pose proof (mag_exists d V Hwf Hac HV) as M. pose proof (mo_nodes _ _ _ M) as N.
  assert (size (mnodes (mag d V)) * size (mnodes (mag d V)) + size (mnodes (mag d V)) + 2 < fuel) as Hf2 by by rewrite N.
  pose proof (C70_fci_partial o Ho _ (mag d V) (mag_ancestral d Hwf Hac V _ M) (cmi_perfect d data ws nv K th V Hwf Hac Hn HV Hd HB Hth HF _ M) sb fuel Hf2) as H.
  pose proof (C43_fci o (cmi_test_plain data ws nv th) V sb false fuel Ho Hf) as H0.
  rewrite N in H. eapply returns_mono; [exact (returns_and _ _ _ H H0)|]. cbn beta. intros r [[H1 Hs] J]. split; [intros a b Ha Hb Hne Hi; apply H1, (mag_adj d Hwf V _ M); by split_and!|]. intros Hi. apply (sound_mag_dag d V (mag d V)); [done..|]. apply Hs.
  intros a b Hab. pose proof Hab as [k Hk]. apply (mgw_in _ (ju_wf _ _ _ _ _ J)) in Hk as (H3 & H4 & H5). rewrite (ju_nodes _ _ _ _ _ J) in *.
  apply (mag_adj d Hwf V _ M). split_and!; [done..|]. by apply Hi.
Qed.
Print Assumptions C113_fci.

Theorem C113_icd : ∀ o d data ws nv K th V sb fuel precalc, iter_ok o → wf_graph d → acyclic d → (∀ v, v ∈ gnodes d ↔ v < nv) → V ⊆ gnodes d → data_ok data ws nv →
  bayes_net d nv K (records data ws) → (0 <= th)%R → faithful_above th d V (records data ws) → size V * size V + size V + 2 < fuel →
  returns (icd_learn o (cmi_test_plain data ws nv th) sb false fuel precalc (icd_init o V)) (λ t,
    (∀ a b, a ∈ V → b ∈ V → a ≠ b → inseparable d V a b → mg_adj (ls_graph (ic_ls t)) a b) ∧
    ((∀ a b, mg_adj (ls_graph (ic_ls t)) a b → inseparable d V a b) → sound_for_dag d V (ls_graph (ic_ls t)))).
Proof.
  intros o d data ws nv K th V sb fuel precalc Ho Hwf Hac Hn HV Hd HB Hth HF Hf. pose proof (mag_exists d V Hwf Hac HV) as M. pose proof (mo_nodes _ _ _ M) as N.
  assert (size (mnodes (mag d V)) * size (mnodes (mag d V)) + size (mnodes (mag d V)) + 2 < fuel) as Hf2 by by rewrite N.
  pose proof (C70_icd_partial o Ho _ (mag d V) (mag_ancestral d Hwf Hac V _ M) (cmi_perfect d data ws nv K th V Hwf Hac Hn HV Hd HB Hth HF _ M) sb fuel precalc Hf2) as H.
  pose proof (C43_icd o (cmi_test_plain data ws nv th) V sb false fuel precalc Ho Hf) as H0.
  rewrite N in H. eapply returns_mono; [exact (returns_and _ _ _ H H0)|]. cbn beta. intros t [[H1 Hs] [J _]]. split; [intros a b Ha Hb Hne Hi; apply H1, (mag_adj d Hwf V _ M); by split_and!|]. intros Hi. apply (sound_mag_dag d V (mag d V)); [done..|]. apply Hs.
  intros a b Hab. pose proof Hab as [k Hk]. apply (mgw_in _ (ju_wf _ _ _ _ _ J)) in Hk as (H3 & H4 & H5). rewrite (ju_nodes _ _ _ _ _ J) in *.
  apply (mag_adj d Hwf V _ M). split_and!; [done..|]. by apply Hi.
Qed.
Print Assumptions C113_icd.

(** the common effect 2 of two fair coins 0 and 1, their conjunction: the four possible records are distributed according to the network
    0 --> 2 <-- 1, and every query that is not about 0 and 1 alone has a positive conditional mutual information *)
Definition dC : graph := mk_graph [0; 1; 2] [(0, 2); (1, 2)].
Definition dataC : list (list nat) := [[0;0;0]; [0;1;0]; [1;0;0]; [1;1;1]].

Lemma mass_count data vars vals : mass (unweighted data) vars vals = INR (length (filter (λ r, proj vars r = vals) data)).
Proof.
  unfold mass, unweighted. induction data as [|r data IH]; [done|]. cbn [fmap list_fmap foldr fst snd]. rewrite IH, filter_cons.
  destruct (decide _); cbn [length]; [rewrite S_INR|]; lra.
Qed.
Definition dep_at (data : list (list nat)) (x y : nat) (zz : list nat) (a b : nat) (c : list nat) : bool :=
  let m vars vals := length (filter (λ r, proj vars r = vals) data) in
  negb (m (x :: y :: zz) (a :: b :: c) * m zz c =? m (x :: zz) (a :: c) * m (y :: zz) (b :: c)).
Lemma dep_at_positive data nv x y zz a b c : data_ok data None nv → x < nv → y < nv → (∀ z, z ∈ zz → z < nv) → dep_at data x y zz a b c = true →
  (0 < emp_cmi (records data None) x y zz)%R.
Proof.
  intros (Hne & Hlen & Hw) Hx Hy Hz Hdep. destruct (cmi_calc_ok data None nv x y zz) as (v & H1 & Hv & Hge & H0); [done..|by apply Forall_forall|].
  rewrite <-Hv. destruct Hge as [?| Hge]; [done|]. exfalso. symmetry in Hge. apply H0 in Hge. specialize (Hge a b c). cbn [records] in Hge. rewrite !mass_count, <-!mult_INR in Hge.
  apply INR_eq in Hge. unfold dep_at in Hdep. apply negb_true_iff, Nat.eqb_neq in Hdep. done.
Qed.
Definition tabC (v : nat) (r : nat → nat) : R :=
  if decide (v = 2) then (if decide (r 2 = if decide (r 0 = 1 ∧ r 1 = 1) then 1 else 0) then 1%R else 0%R) else (1 / 2)%R.
Lemma tabC_ok v : v < 3 → cond_table dC 2 v (tabC v).
Proof.
  intros Hv. split.
  - intros r r' Hr. unfold tabC. destruct (decide (v = 2)) as [->|]; [|done].
    rewrite (Hr 2) by auto. rewrite (Hr 0), (Hr 1); [done|right; apply mk_graph_edge; set_solver +..].
  - intros r. unfold tabC, setv. cbn [seq fmap list_fmap foldr]. repeat case_decide; try lia; try lra.
Qed.
Lemma bayesC : bayes_net dC 3 2 (records dataC None).
Proof.
  split.
  { intros p v Hp Hv. cbn in Hp. repeat (apply elem_of_cons in Hp as [->|Hp]; [cbn [fst]; destruct v as [|[|[|v]]]; [cbn; lia..|lia]|]). by apply elem_of_nil in Hp. }
  exists tabC. split.
  - apply tabC_ok.
  - intros r Hr. pose proof (Hr 0 ltac:(lia)) as H0. pose proof (Hr 1 ltac:(lia)) as H1. pose proof (Hr 2 ltac:(lia)) as H2.
    cbn [records]. rewrite mass_count. cbn [seq fmap list_fmap foldr]. unfold tabC. cbn [snd dataC unweighted fmap list_fmap foldr].
    destruct (decide (0 = 2)), (decide (1 = 2)), (decide (2 = 2)); try lia.
    destruct (r 0) as [|[|]], (r 1) as [|[|]], (r 2) as [|[|]]; try lia; repeat case_decide; try lia; match goal with |- INR ?n = _ => let m := eval vm_compute in n in change n with m end; cbn [INR]; try lra.
Qed.
Lemma faithfulC : faithful_above 0 dC (gnodes dC) (records dataC None).
Proof.
  assert (data_ok dataC None 3) as Hd by (split_and!; [done|by repeat constructor|done]).
  assert (∀ z, z ∈ gnodes dC → z < 3) as HV by (intros z; cbn; set_unfold; lia).
  intros x y zz Hx Hy Hne Hnd Hz Hs.
  assert (zz = [] ∨ ∃ z, zz = [z]) as Hzz.
  { destruct zz as [|z1 [|z2 zz]]; [by left|by right; eauto|]. exfalso. apply NoDup_cons in Hnd as [Hnd _].
    destruct (Hz z1) as (H1 & ? & ?); [set_solver +|]. destruct (Hz z2) as (H2 & ? & ?); [set_solver +|]. apply HV in Hx, Hy, H1, H2.
    assert (z1 ≠ z2) by set_solver +Hnd. lia. }
  assert (∃ a b c, dep_at dataC x y zz a b c = true) as (a & b & c & H).
  { apply HV in Hx, Hy. destruct Hzz as [-> |[z ->]].
    - assert (¬ (x = 0 ∧ y = 1) ∧ ¬ (x = 1 ∧ y = 0)) as H01.
      { assert (∀ u v, dsep ord_up 4 dC u v [] = Ok true → u ∈ gnodes dC → v ∈ gnodes dC → u ≠ v → d_separated dC u v []) as H.
        { intros u v E Hu Hv Huv. assert (returns (dsep ord_up 4 dC u v []) (λ b, b = true ↔ d_separated dC u v [])) as H.
          { apply dsep_spec; try done; [apply ord_up_ok|by apply mk_graph_wf; vm_compute|by apply mk_graph_acyclic; vm_compute|apply (bool_decide_unpack _); by vm_compute|set_solver +..]. }
          rewrite E in H. by apply H. }
        split; intros [-> ->]; apply Hs, H; try (vm_compute; reflexivity); try lia; apply (bool_decide_unpack _); by vm_compute. }
      exists 1, 1, []. destruct x as [|[|[|]]], y as [|[|[|]]]; try lia; vm_compute; reflexivity.
    - destruct (Hz z) as (H1 & ? & ?); [set_solver +|]. apply HV in H1. exists 0, 0. 
      exists [if decide (z = 2) then 0 else 1].
      destruct x as [|[|[|]]], y as [|[|[|]]], z as [|[|[|]]]; try lia; vm_compute; reflexivity. }
  apply (dep_at_positive dataC 3 x y zz a b c); auto. intros z Hz'. apply HV. by apply Hz.
Qed.

Example C112_case : wf_graph dC ∧ acyclic dC ∧ (∀ v, v ∈ gnodes dC ↔ v < 3) ∧ data_ok dataC None 3 ∧ bayes_net dC 3 2 (records dataC None) ∧
  qvalid 3 (0, 1, []) ∧ d_separated dC 0 1 [] ∧ cmi_calc dataC None 3 0 1 [] = Some 0%R.
Proof.
  assert (wf_graph dC) as Hwf by by apply mk_graph_wf; vm_compute. assert (acyclic dC) as Hac by by apply mk_graph_acyclic; vm_compute.
  assert (∀ v, v ∈ gnodes dC ↔ v < 3) as Hn by (intros v; cbn; set_unfold; lia).
  assert (data_ok dataC None 3) as Hd by (split_and!; [done|by repeat constructor|done]).
  assert (qvalid 3 (0, 1, [])) as Hq by (unfold qvalid; cbn; split_and!; [lia..|constructor|set_solver +|set_solver +|set_solver +]).
  assert (d_separated dC 0 1 []) as Hs.
  { assert (returns (dsep ord_up 4 dC 0 1 []) (λ b, b = true ↔ d_separated dC 0 1 [])) as H.
    { apply dsep_spec; try done; [apply ord_up_ok|apply (bool_decide_unpack _); by vm_compute..|set_solver +|set_solver +]. }
    apply returns_ok in H as (b & E & H). apply H. assert (dsep ord_up 4 dC 0 1 [] = Ok true) as E' by (vm_compute; reflexivity). rewrite E' in E. by injection E. }
  split_and!; try done; [apply bayesC|]. by eapply C112_markov; eauto using bayesC.
Qed.

Definition tabQ (v : nat) (r : nat → nat) : Q :=
  if decide (v = 2) then (if decide (r 2 = if decide (r 0 = 1 ∧ r 1 = 1) then 1 else 0) then 1%Q else 0%Q) else (1 # 2)%Q.
Example C112_network_case : (∀ v, v < 3 → cond_table dC 2 v (λ r, Q2R (tabQ v r))) ∧ (∀ v r, (0 <= tabQ v r)%Q) ∧
  configs 3 2 = [[0;0;0];[0;0;1];[0;1;0];[0;1;1];[1;0;0];[1;0;1];[1;1;0];[1;1;1]] ∧
  Qred <$> joint 3 2 tabQ = [1#4; 0#1; 1#4; 0#1; 1#4; 0#1; 0#1; 1#4]%Q.
Proof.
  assert (∀ v r, Q2R (tabQ v r) = tabC v r) as E.
  { intros v r. unfold tabQ, tabC. repeat case_decide; first [apply RMicromega.Q2R_1|apply RMicromega.Q2R_0|unfold Q2R; cbn; lra]. }
  split; [|split; [|split]]; [| |vm_compute; reflexivity|vm_compute; reflexivity].
  - intros v Hv. destruct (tabC_ok v Hv) as [H1 H2]. split; [intros r r' Hr; rewrite !E; by apply H1|]. intros r. rewrite <-(H2 r). f_equal. apply list_fmap_ext. intros i a _. apply E.
  - intros v r. unfold tabQ. repeat case_decide; done.
Qed.

Example C113_case : faithful_above 0 dC (gnodes dC) (records dataC None) ∧
  ∃ s, pc_learn ord_up (cmi_test dataC None 3 0) false 20 (gnodes dC) = Ok s ∧ essential_graph dC (pc_graph s).
Proof.
  split; [apply faithfulC|]. destruct C112_case as (H1 & H2 & H3 & H4 & H5 & _).
  apply (C113_pc ord_up dC dataC None 3 2 0 false 20); auto using ord_up_ok, faithfulC; [lra|]. apply (bool_decide_unpack _); by vm_compute.
Qed.
