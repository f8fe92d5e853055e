(** Property C125: what PC learns can be turned into a DAG, scored and compared. *)
From Coq Require Import QArith Qreals Reals Lra.
From Verif Require Import Base BaseLemmas ModelGraph Spec ModelMixed SpecMixed SpecCount ModelPC SpecPC ProofGraph ProofGraph2 ProofGraph3 ProofDsep ProofPDAG ProofPDAG2 ProofPDAG3 ProofMixed ProofMixed2 ProofPC
  ProofMeek ProofVP PropMixed PropPC PropMeek ModelPerf SpecPerf ProofPerf ProofPerf2 ProofPerf3 PropPerf ModelData ModelCI SpecCI ModelCMI SpecCMI SpecMarkov ProofMarkov PropMarkov
  ModelParCorr SpecParCorr SpecLinear PropLinear ModelBDeu SpecBDeu ProofBDeu PropBDeu.
Local Open Scope nat_scope.

(** [e] is a DAG over the nodes of [d] with the same d-separations *)
Definition equivalent_dag (d e : graph) : Prop :=
  wf_graph e ∧ acyclic e ∧ gnodes e = gnodes d ∧
  ∀ a b Z, a ∈ gnodes d → b ∈ gnodes d → a ≠ b → (∀ z, z ∈ Z → z ∈ gnodes d ∧ z ≠ a ∧ z ≠ b) → d_separated e a b Z ↔ d_separated d a b Z.

Lemma essential_extends d g : wf_graph d → acyclic d → essential_graph d g → extends d g.
Proof.
  intros Hwf Hac (N & D & U). set (fuel := size (gnodes d) * size (gnodes d) + 2).
  assert (∀ i, i ∈ [1;2;3] ↔ 1 ≤ i ≤ 3) as Hr by (intros i; set_unfold; lia).
  destruct (C92_cpdag_is_essential ord_up d (mempty (gnodes d)) [1;2;3] fuel ord_up_ok Hwf Hac) as (h & E & N' & D' & U'); [done|done|done|unfold fuel; lia|].
  pose proof (C18_convert_to_cpdag_correct ord_up d (mempty (gnodes d)) [1;2;3] fuel ord_up_ok Hwf Hac ltac:(done) ltac:(done) Hr ltac:(unfold fuel; lia)) as H.
  rewrite E in H. cbn [returns] in H. destruct H as (_ & _ & Hadj & _ & _ & Hext & _).
  destruct (Hext d Hac) as [_ En Es Ed Ev]; [split; [done|by intros]|by intros ???|].
  assert (∀ a b, pd_adj g a b ↔ pd_adj h a b) as HA by (intros a b; unfold pd_adj; by rewrite !D, !D', U, U').
  constructor.
  - done.
  - congruence.
  - intros a b. by rewrite HA.
  - intros a b H. apply Ed. apply D'. by apply D.
  - intros a c b H. destruct (Ev a c b H) as [H1 H2]. split; [apply D|apply D]; by apply D'.
Qed.

Lemma essential_to_dag o d g e0 fuel : iter_ok o → wf_graph d → acyclic d → essential_graph d g → pd_wf g → gnodes e0 = gnodes d → (∀ n, gadj e0 n = ∅) →
  size (gnodes d) < fuel → ∃ e, convert_to_dag o fuel g e0 = Ok (e, true) ∧ extends e g ∧ equivalent_dag d e.
Proof.
  intros Ho Hwf Hac HE Hg N0 E0 Hf. pose proof (essential_extends d g Hwf Hac HE) as Hd. pose proof (ext_nodes _ _ Hd) as Nd.
  destruct (proj1 (returns_ok _ _) (C20_convert_to_dag_correct o g e0 fuel Ho Hg ltac:(congruence) E0 ltac:(by rewrite <-Nd))) as ([e b] & E & N & H). cbn [fst snd] in *.
  destruct b; [|destruct H; by exists d]. exists e. split; [done|]. split; [done|]. destruct (extensions_equivalent g d e Hd H) as [H1 H2].
  split; [by eapply extends_wf|]. split; [apply H|]. split; [congruence|]. intros a c Z Ha Hc Hne HZ.
  symmetry. apply equivalent_d_separated; try done. apply H.
Qed.

(** ** C125 *)
(** PC with the d-separation oracle, and the DAG that convert_to_dag makes of the result *)
Theorem C125_dag : ∀ o1 o2 o3 d e0 ow fuel fuel' fuel'', iter_ok o1 → iter_ok o2 → iter_ok o3 → wf_graph d → acyclic d →
  size (gnodes d) * size (gnodes d) + 1 < fuel → size (gnodes d) < fuel' → size (gnodes d) < fuel'' → gnodes e0 = gnodes d → (∀ n, gadj e0 n = ∅) →
  ∃ s e, pc_learn o1 (dsep_ci o2 fuel' d) ow fuel (gnodes d) = Ok s ∧ convert_to_dag o3 fuel'' (pc_graph s) e0 = Ok (e, true) ∧ equivalent_dag d e.
Proof.
  intros o1 o2 o3 d e0 ow fuel fuel' fuel'' Ho1 Ho2 Ho3 Hwf Hac Hf Hf' Hf'' N0 E0.
  destruct (C92_pc_is_essential o1 o2 d ow fuel fuel') as (s & E & HE); [done..|]. exists s.
  pose proof (C40_pc_justified o1 (dsep_ci o2 fuel' d) ow fuel (gnodes d) Ho1 Hf) as J. rewrite E in J. destruct J as (_ & Hg & _).
  destruct (essential_to_dag o3 d (pc_graph s) e0 fuel'' Ho3 Hwf Hac HE Hg N0 E0 Hf'') as (e & Ee & _ & He). by exists e.
Qed.
Print Assumptions C125_dag.

(** the same from data of a Bayesian network and of a linear model *)
Theorem C125_cmi : ∀ o o3 d data ws nv K th e0 ow fuel fuel'', iter_ok o → iter_ok o3 → wf_graph d → acyclic d → (∀ v, v ∈ gnodes d ↔ v < nv) → data_ok data ws nv →
  bayes_net d nv K (records data ws) → (0 <= th)%R → faithful_above th d (gnodes d) (records data ws) →
  size (gnodes d) * size (gnodes d) + 1 < fuel → size (gnodes d) < fuel'' → gnodes e0 = gnodes d → (∀ n, gadj e0 n = ∅) →
  ∃ s e, pc_learn o (cmi_test data ws nv th) ow fuel (gnodes d) = Ok s ∧ convert_to_dag o3 fuel'' (pc_graph s) e0 = Ok (e, true) ∧ equivalent_dag d e.
Proof.
  intros o o3 d data ws nv K th e0 ow fuel fuel'' Ho Ho3 Hwf Hac Hn Hd HB Hth HF Hf Hf'' N0 E0.
  destruct (C113_pc o d data ws nv K th ow fuel) as (s & E & HE); [done..|]. exists s.
  pose proof (C40_pc_justified o (cmi_test data ws nv th) ow fuel (gnodes d) Ho Hf) as J. rewrite E in J. destruct J as (_ & Hg & _).
  destruct (essential_to_dag o3 d (pc_graph s) e0 fuel'' Ho3 Hwf Hac HE Hg N0 E0 Hf'') as (e & Ee & _ & He). by exists e.
Qed.
Print Assumptions C125_cmi.
Theorem C125_parcorr : ∀ o o3 d w data n nv inv (cdf : R → R) th e0 ow fuel fuel'', iter_ok o → iter_ok o3 → wf_graph d → acyclic d → (∀ v, v ∈ gnodes d ↔ v < nv) →
  linear_model d w data n → noisy d w data n → inverts_all data n inv (gnodes d) →
  (th < 2 * (1 - cdf 0))%R → significant cdf th d (gnodes d) data n →
  size (gnodes d) * size (gnodes d) + 1 < fuel → size (gnodes d) < fuel'' → gnodes e0 = gnodes d → (∀ n, gadj e0 n = ∅) →
  ∃ s e, pc_learn o (parcorr_test data n nv inv cdf th) ow fuel (gnodes d) = Ok s ∧ convert_to_dag o3 fuel'' (pc_graph s) e0 = Ok (e, true) ∧ equivalent_dag d e.
Proof.
  intros o o3 d w data n nv inv cdf th e0 ow fuel fuel'' Ho Ho3 Hwf Hac Hn HM HN HI Hth HS Hf Hf'' N0 E0.
  destruct (C115_pc o d w data n nv inv cdf th ow fuel) as (s & E & HE); [done..|]. exists s.
  pose proof (C40_pc_justified o (parcorr_test data n nv inv cdf th) ow fuel (gnodes d) Ho Hf) as J. rewrite E in J. destruct J as (_ & Hg & _).
  destruct (essential_to_dag o3 d (pc_graph s) e0 fuel'' Ho3 Hwf Hac HE Hg N0 E0 Hf'') as (e & Ee & _ & He). by exists e.
Qed.
Print Assumptions C125_parcorr.

(** the DAG has the BDeu score of the true one, on every data set *)
Theorem C125_score : ∀ o1 o2 o3 o4 o5 d e0 ow fuel fuel' fuel'' gammaln data ns, iter_ok o1 → iter_ok o2 → iter_ok o3 → iter_ok o4 → iter_ok o5 → wf_graph d → acyclic d →
  size (gnodes d) * size (gnodes d) + 1 < fuel → size (gnodes d) < fuel' → size (gnodes d) < fuel'' → gnodes e0 = gnodes d → (∀ n, gadj e0 n = ∅) →
  dataset data ns → (∀ v, v ∈ gnodes d → v < length ns) →
  ∃ s e v, pc_learn o1 (dsep_ci o2 fuel' d) ow fuel (gnodes d) = Ok s ∧ convert_to_dag o3 fuel'' (pc_graph s) e0 = Ok (e, true) ∧
    score_bdeu o4 gammaln (Some e) data ns None = Ok (Some v) ∧ score_bdeu o5 gammaln (Some d) data ns None = Ok (Some v).
Proof.
  intros o1 o2 o3 o4 o5 d e0 ow fuel fuel' fuel'' gl data ns Ho1 Ho2 Ho3 Ho4 Ho5 Hwf Hac Hf Hf' Hf'' N0 E0 Hd Hv.
  destruct (C92_pc_is_essential o1 o2 d ow fuel fuel') as (s & E & HE); [done..|]. exists s.
  pose proof (C40_pc_justified o1 (dsep_ci o2 fuel' d) ow fuel (gnodes d) Ho1 Hf) as J. rewrite E in J. destruct J as (_ & Hg & _).
  destruct (essential_to_dag o3 d (pc_graph s) e0 fuel'' Ho3 Hwf Hac HE Hg N0 E0 Hf'') as (e & Ee & He & _). exists e.
  destruct (C90_any_extension o4 o5 gl (pc_graph s) e d data ns) as (v & V1 & V2); [done|done|done|done|by apply essential_extends|done|destruct HE as [-> _]; exact Hv|]. by exists v.
Qed.
Print Assumptions C125_score.

(** compared with the CPDAG of the true DAG: no structural error; compared with the true DAG: perfect skeleton measures, if these are defined *)
Theorem C125_measures : ∀ o1 o2 o3 o4 o5 d cp rules ow fuel fuel' fuel'', iter_ok o1 → iter_ok o2 → iter_ok o3 → iter_ok o4 → iter_ok o5 → wf_graph d → acyclic d →
  mnodes cp = gnodes d → (∀ n k, mset cp n k = ∅) → (∀ i, i ∈ rules ↔ 1 ≤ i ≤ 3) →
  size (gnodes d) * size (gnodes d) + 1 < fuel → size (gnodes d) < fuel' → size (gnodes d) * size (gnodes d) + 1 < fuel'' →
  ∃ s g t, pc_learn o1 (dsep_ci o2 fuel' d) ow fuel (gnodes d) = Ok s ∧ convert_to_cpdag o3 fuel'' d cp rules = Ok g ∧
    shd_cpdag o4 (pc_graph s) g = Ok t ∧ shd_total t = 0 ∧
    ((∃ a b, edge d a b) → (∃ a b, a ∈ gnodes d ∧ b ∈ gnodes d ∧ a ≠ b ∧ ¬ adjacent d a b) →
      ∃ a, calc_skeleton_accuracy o5 (APdag (pc_graph s)) (APlain d) = Ok a ∧ perfect a).
Proof.
  intros o1 o2 o3 o4 o5 d cp rules ow fuel fuel' fuel'' Ho1 Ho2 Ho3 Ho4 Ho5 Hwf Hac Ncp Ecp Hr Hf Hf' Hf''.
  destruct (C42_pc_oracle_cpdag o1 o2 o3 d cp rules ow fuel fuel' fuel'') as (s & g & Es & Eg & Hsame); [done..|].
  destruct (C92_pc_is_essential o1 o2 d ow fuel fuel') as (s' & E' & HE); [done..|]. rewrite Es in E'. injection E' as <-.
  pose proof (C40_pc_justified o1 (dsep_ci o2 fuel' d) ow fuel (gnodes d) Ho1 Hf) as J. rewrite Es in J. destruct J as (Hn & Hg & _ & Hone & _).
  pose proof (C18_convert_to_cpdag_correct o3 d cp rules fuel'' Ho3 Hwf Hac Ncp Ecp Hr Hf'') as H. rewrite Eg in H. destruct H as (Hgw & Hgn & _).
  assert (one_way (pc_graph s)) as O1 by (intros a b H1 H2; exact (Hone a b (conj H1 H2))).
  assert (one_way g) as O2 by (intros a b H1 H2; apply (O1 a b); by apply Hsame).
  destruct (proj1 (returns_ok _ _) (C49_shd_zero o4 (pc_graph s) g Ho4 Hg Hgw O1 O2 ltac:(congruence))) as (t & Et & Ht).
  exists s, g, t. split; [done|]. split; [done|]. split; [done|]. split; [by apply Ht|]. intros (a & b & Hab) (x & y & Hx & Hy & Hxy & Hn').
  pose proof (essential_extends d (pc_graph s) Hwf Hac HE) as Hd. pose proof (ext_skel _ _ Hd) as Hs.
  assert (∀ u v, joined (APdag (pc_graph s)) u v ↔ joined (APlain d) u v) as HJ.
  { intros u v. cbn. rewrite Hs. split; [|by left]. intros [H|H]; [done|]. left. by apply (pdw_sym _ Hg). }
  assert (a ≠ b) as Hne by (intros ->; apply (Hac b); by apply tc_once).
  destruct (proj1 (returns_ok _ _) (C50_perfect_partial o5 (APdag (pc_graph s)) (APlain d) Ho5 ltac:(exists a, b; destruct (Hwf a b Hab); split; [done|]; split; [done|]; split; [done|]; rewrite HJ; split; by left) ltac:(by exists x, y)))
    as (m & Em & Hm).
  exists m. split; [done|]. apply Hm. intros u v _ _ _. apply HJ.
Qed.
Print Assumptions C125_measures.

(** PC on 0 --> 2 <-- 1, 2 --> 3 --> 4, 2 --> 4: the edge between 3 and 4 is not directed, and the DAG directs it one way or the other *)
Example C125_case : wf_graph d92 ∧ acyclic d92 ∧ size (gnodes d92) * size (gnodes d92) + 1 < 38 ∧ size (gnodes d92) < 7 ∧
  gnodes (mk_graph [0;1;2;3;4;5] []) = gnodes d92 ∧ (∀ n, gadj (mk_graph [0;1;2;3;4;5] []) n = ∅) ∧
  (λ o : order, match (s ← pc_learn o (dsep_ci ord_up 7 d92) true 38 (gnodes d92); convert_to_dag o 7 (pc_graph s) (mk_graph [0;1;2;3;4;5] [])) with
   | Ok (e, b) => (b, (λ p : node * node, bool_decide (p.1 ∈ gadj e p.2)) <$> [(0, 2); (1, 2); (2, 3); (2, 4); (3, 4); (4, 3)]) | _ => (false, []) end) <$> [ord_down; ord_sorted]
    = [(true, [true; true; true; true; true; false]); (true, [true; true; true; true; false; true])] ∧
  (∃ a b, edge d92 a b) ∧ ∃ a b, a ∈ gnodes d92 ∧ b ∈ gnodes d92 ∧ a ≠ b ∧ ¬ adjacent d92 a b.
Proof.
  split; [by apply mk_graph_wf|]. split; [by apply mk_graph_acyclic; vm_compute|]. split; [apply (Nat.leb_le 38 38); by vm_compute|]. split; [apply (Nat.leb_le 7 7); by vm_compute|].
  split; [done|]. split; [done|]. split; [by vm_compute|]. split.
  - exists 0, 2. apply mk_graph_edge. set_solver.
  - exists 0, 1. split; [by apply (bool_decide_unpack _); vm_compute|]. split; [by apply (bool_decide_unpack _); vm_compute|]. split; [done|]. unfold adjacent, d92. rewrite !mk_graph_edge. set_solver.
Qed.
(** the data of C113 and C115 *)
Example C125_data_case : gnodes (mk_graph [0;1;2] []) = gnodes dC ∧ (∀ n, gadj (mk_graph [0;1;2] []) n = ∅) ∧ size (gnodes dC) < 4.
Proof. split; [done|]. split; [done|]. apply (Nat.leb_le 4 4); by vm_compute. Qed.
