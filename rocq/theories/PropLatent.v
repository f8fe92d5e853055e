(** Properties C98 and C99, and the parts of C70 and C72 for DAGs with latent nodes.
    [o], [iter_ok o] and [fuel] as in PropFCI.v; [V] are the observed nodes of the DAG [d]. *)
From Verif Require Import Base BaseLemmas ModelGraph Spec ProofGraph2 ProofGraph3 ProofDsep ModelMixed SpecMixed ProofMixed2 ModelPC SpecPC ModelPAG SpecPAG ProofPAG ProofPAGM
  ModelPDS SpecPDS ModelFCI SpecFCI ProofFCI ProofFCI2 ProofFCI3 ProofFCI4 ProofFCI5 ProofFCI7 ModelOICD SpecOICD ProofOICD ProofOICD2 ProofOICD3 SpecLatent ProofLatent PropFCI PropOICD.

(** ** C98 *)
Theorem C98_mag : ∀ d V, wf_graph d → acyclic d → V ⊆ gnodes d →
  (∃ m, mag_of d V m) ∧
  ∀ m, mag_of d V m → ancestral m ∧
    (∀ a b, a ∈ V → b ∈ V → a ≠ b → ¬ mg_adj m a b → ∃ Z, Z ⊆ V ∖ {[a; b]} ∧ m_separated m a b Z) ∧
    (∀ a b Z, a ∈ V → b ∈ V → a ≠ b → Z ⊆ V ∖ {[a; b]} → m_separated m a b Z ↔ d_separated d a b (elements Z)).
Proof.
  intros d V Hwf Hac HV. split; [exists (mag d V); by apply mag_exists|]. intros m M.
  assert (∀ a b Z, a ∈ V → b ∈ V → a ≠ b → Z ⊆ V ∖ {[a; b]} → m_separated m a b Z ↔ d_separated d a b (elements Z)) as HS.
  { intros a b Z Ha Hb Hne HZ. rewrite <-(mag_separated d Hwf Hac V m M a b (elements Z) Ha Hb Hne) by (intros z Hz%elem_of_elements; set_solver).
    by rewrite list_to_set_elements_L. }
  split; [by apply (mag_ancestral d Hwf Hac V)|]. split; [|done].
  intros a b Ha Hb Hne Hn. destruct (separable_exists d Hwf Hac V a b Hne) as (Z & HZ & Hd).
  - intros Hi. apply Hn. by apply (mag_adj d Hwf V m M).
  - exists Z. split; [done|]. by apply HS.
Qed.
Print Assumptions C98_mag.

Theorem C98_answers_agree : ∀ o o' fuel fuel' d V m a b Z, iter_ok o → iter_ok o' → wf_graph d → acyclic d → V ⊆ gnodes d → mag_of d V m →
  size V + 1 < fuel → size (gnodes d) < fuel' → a ∈ V → b ∈ V → a ≠ b → (∀ z, z ∈ Z → z ∈ V ∧ z ≠ a ∧ z ≠ b) →
  ∃ r, is_m_separated o fuel m a b Z = Ok r ∧ dsep o' fuel' d a b Z = Ok r.
Proof.
  intros o o' fuel fuel' d V m a b Z Ho Ho' Hwf Hac HV M Hf Hf' Ha Hb Hne HZ.
  pose proof (mo_nodes _ _ _ M) as N.
  assert (returns (is_m_separated o fuel m a b Z) (λ b', b' = true ↔ m_separated m a b (list_to_set Z))) as H1.
  { apply is_m_separated_ok; rewrite ?N; try done; [by apply (mag_dir_mixed d Hwf Hac V)|intros z Hz; by apply HZ|]. intros H. apply HZ in H. tauto. }
  assert (returns (dsep o' fuel' d a b Z) (λ b', b' = true ↔ d_separated d a b Z)) as H2.
  { apply dsep_spec; try done; [by apply HV|by apply HV|intros z Hz; apply HV; by apply HZ|]. intros H. apply HZ in H. tauto. }
  apply returns_ok in H1 as (r & -> & H1), H2 as (r' & -> & H2). exists r. split; [done|]. f_equal.
  rewrite (mag_separated d Hwf Hac V m M a b Z Ha Hb Hne HZ) in H1. destruct r, r'; try done; exfalso; intuition congruence.
Qed.
Print Assumptions C98_answers_agree.

(** 0 --> 1 <-- 4 --> 2 <-- 3 with 4 latent gives 0 --> 1 <-> 2 <-- 3; with an edge 1 --> 2 besides, 0 --> 2 is added *)
Definition eD2 : graph := mk_graph (seq 0 5) [(0,1);(4,1);(4,2);(3,2);(1,2)].
Example C98_case : wf_graph eD2 ∧ acyclic eD2 ∧ eV4 ⊆ gnodes eD2 ∧
  mark_list (mag eD eV4) 4 = [(0,Directed,1);(1,Directed,2);(1,Tail,0);(2,Directed,1);(2,Tail,3);(3,Directed,2)] ∧
  mark_list (mag eD2 eV4) 4 = [(0,Directed,1);(0,Directed,2);(1,Directed,2);(1,Tail,0);(2,Tail,0);(2,Tail,1);(2,Tail,3);(3,Directed,2)].
Proof.
  split; [apply mk_graph_wf; by vm_compute|]. split; [apply mk_graph_acyclic; by vm_compute|]. split; [apply (bool_decide_unpack _); by vm_compute|].
  split; by vm_compute.
Qed.

(** ** C70: with the oracle of a DAG with latent nodes; without the tail rules 8-10, and when only inseparable nodes remain adjacent *)
Theorem C70_fci_latents_partial : ∀ o o' d V sb fuel fuel', iter_ok o → iter_ok o' → wf_graph d → acyclic d → V ⊆ gnodes d →
  size V * size V + size V + 2 < fuel → size (gnodes d) < fuel' →
  returns (fci_learn o (dsep_ci o' fuel' d) sb false fuel V) (λ r,
    (∀ a b, a ∈ V → b ∈ V → a ≠ b → inseparable d V a b → mg_adj (ls_graph r.1) a b) ∧
    ((∀ a b, mg_adj (ls_graph r.1) a b → inseparable d V a b) → sound_for_dag d V (ls_graph r.1))).
Proof.
  intros o o' d V sb fuel fuel' Ho Ho' Hwf Hac HV Hf Hf'. pose proof (mag_exists d V Hwf Hac HV) as M. pose proof (mo_nodes _ _ _ M) as N.
  assert (size (mnodes (mag d V)) * size (mnodes (mag d V)) + size (mnodes (mag d V)) + 2 < fuel) as Hf2 by by rewrite N.
  pose proof (C70_fci_partial o Ho _ (mag d V) (mag_ancestral d Hwf Hac V _ M) (latent_perfect o' fuel' d V _ Ho' Hwf Hac HV Hf' M) sb fuel Hf2) as H.
  pose proof (C43_fci o (dsep_ci o' fuel' d) V sb false fuel Ho Hf) as H0.
  rewrite N in H. eapply returns_mono; [exact (returns_and _ _ _ H H0)|]. cbn beta. intros r [[H1 Hs] J]. split; [intros a b Ha Hb Hne Hi; apply H1, (mag_adj d Hwf V _ M); by split_and!|]. intros Hi. apply (sound_mag_dag d V (mag d V)); [done..|]. apply Hs.
  intros a b Hab. pose proof Hab as [k Hk]. apply (mgw_in _ (ju_wf _ _ _ _ _ J)) in Hk as (H3 & H4 & H5). rewrite (ju_nodes _ _ _ _ _ J) in *.
  apply (mag_adj d Hwf V _ M). split_and!; [done..|]. by apply Hi.
Qed.
Print Assumptions C70_fci_latents_partial.

Theorem C70_icd_latents_partial : ∀ o o' d V sb fuel fuel' precalc, iter_ok o → iter_ok o' → wf_graph d → acyclic d → V ⊆ gnodes d →
  size V * size V + size V + 2 < fuel → size (gnodes d) < fuel' →
  returns (icd_learn o (dsep_ci o' fuel' d) sb false fuel precalc (icd_init o V)) (λ t,
    (∀ a b, a ∈ V → b ∈ V → a ≠ b → inseparable d V a b → mg_adj (ls_graph (ic_ls t)) a b) ∧
    ((∀ a b, mg_adj (ls_graph (ic_ls t)) a b → inseparable d V a b) → sound_for_dag d V (ls_graph (ic_ls t)))).
Proof.
  intros o o' d V sb fuel fuel' precalc Ho Ho' Hwf Hac HV Hf Hf'. pose proof (mag_exists d V Hwf Hac HV) as M. pose proof (mo_nodes _ _ _ M) as N.
  assert (size (mnodes (mag d V)) * size (mnodes (mag d V)) + size (mnodes (mag d V)) + 2 < fuel) as Hf2 by by rewrite N.
  pose proof (C70_icd_partial o Ho _ (mag d V) (mag_ancestral d Hwf Hac V _ M) (latent_perfect o' fuel' d V _ Ho' Hwf Hac HV Hf' M) sb fuel precalc Hf2) as H.
  pose proof (C43_icd o (dsep_ci o' fuel' d) V sb false fuel precalc Ho Hf) as H0.
  rewrite N in H. eapply returns_mono; [exact (returns_and _ _ _ H H0)|]. cbn beta. intros t [[H1 Hs] [J _]]. split; [intros a b Ha Hb Hne Hi; apply H1, (mag_adj d Hwf V _ M); by split_and!|]. intros Hi. apply (sound_mag_dag d V (mag d V)); [done..|]. apply Hs.
  intros a b Hab. pose proof Hab as [k Hk]. apply (mgw_in _ (ju_wf _ _ _ _ _ J)) in Hk as (H3 & H4 & H5). rewrite (ju_nodes _ _ _ _ _ J) in *.
  apply (mag_adj d Hwf V _ M). split_and!; [done..|]. by apply Hi.
Qed.
Print Assumptions C70_icd_latents_partial.

(** a case with edges on the latent node: FCI and ICD find the skeleton; 0, 1, 2 and 3 are observed *)
Example C70_latents_case : wf_graph eD ∧ acyclic eD ∧ eV4 ⊆ gnodes eD ∧ 4 ∉ eV4 ∧
  adj_pairs (mag eD eV4) 5 = [(0,1);(1,2);(2,3)] ∧
  match fci_learn ord_down (dsep_ci ord_up 6 eD) true false 30 eV4 with Ok r => (adj_pairs (ls_graph r.1) 5, mark_list (ls_graph r.1) 5) | _ => ([], []) end
  = ([(0,1);(1,2);(2,3)], [(0,Directed,1);(1,Directed,2);(2,Directed,1);(3,Directed,2)]) ∧
  match icd_learn ord_down (dsep_ci ord_up 6 eD) true false 30 false (icd_init ord_down eV4) with
  | Ok t => (adj_pairs (ls_graph (ic_ls t)) 5, mark_list (ls_graph (ic_ls t)) 5) | _ => ([], []) end
  = ([(0,1);(1,2);(2,3)], [(0,Directed,1);(1,Directed,2);(2,Directed,1);(3,Directed,2)]).
Proof.
  split; [apply mk_graph_wf; by vm_compute|]. split; [apply mk_graph_acyclic; by vm_compute|]. split; [apply (bool_decide_unpack _); by vm_compute|].
  split; [apply (bool_decide_unpack _); by vm_compute|]. split_and!; by vm_compute.
Qed.

(** ** C72: likewise for OrderedICD with an order that puts no node before its ancestors *)
Theorem C72_latents_partial : ∀ o o' d V ord, iter_ok o → iter_ok o' → wf_graph d → acyclic d → V ⊆ gnodes d →
  NoDup ord → list_to_set ord = V → (∀ x y, before ord x y → ¬ ancestor d y x) →
  ∀ sb fuel fuel', size V * size V + size V + 2 < fuel → size (gnodes d) < fuel' → ∀ (L : bool → Prop) mcs s loc, (∀ n, mcs = Some n → n + 2 ≤ size V) →
  o_reach o (dsep_ci o' fuel' d) sb false fuel ord mcs V L s →
  returns (o_learn o (dsep_ci o' fuel' d) sb false fuel ord mcs loc s) (λ t,
    (∀ a b, a ∈ V → b ∈ V → a ≠ b → inseparable d V a b → mg_adj (ls_graph (os_ls t)) a b) ∧
    ((∀ a b, mg_adj (ls_graph (os_ls t)) a b → inseparable d V a b) → sound_for_dag d V (ls_graph (os_ls t)))).
Proof.
  intros o o' d V ord Ho Ho' Hwf Hac HV Hnd Hord Hbef sb fuel fuel' Hf Hf' L mcs s loc Hm Hr.
  pose proof (mag_exists d V Hwf Hac HV) as M. pose proof (mo_nodes _ _ _ M) as N.
  assert (forward ord (mag d V)) as Hfw.
  { intros a b Hab (A1 & A2 & A3 & A4)%(mag_adj d Hwf V _ M). apply (mo_arrow _ _ _ M). split_and!; try done. by apply Hbef. }
  pose proof (C72_sound_partial o Ho (dsep_ci o' fuel' d) (mag d V) (mag_ancestral d Hwf Hac V _ M) (latent_perfect o' fuel' d V _ Ho' Hwf Hac HV Hf' M) ord Hnd
    ltac:(by rewrite N) Hfw sb fuel ltac:(by rewrite N) L mcs s loc ltac:(by rewrite N) ltac:(by rewrite N)) as H.
  pose proof (C71_calls o Ho (dsep_ci o' fuel' d) V ord Hnd Hord sb false fuel Hf mcs Hm L s loc Hr) as H0.
  eapply returns_mono; [exact (returns_and _ _ _ H H0)|]. cbn beta.
  intros t [[H1 Hs] [J _]]. split; [intros a b Ha Hb Hne Hi; apply H1, (mag_adj d Hwf V _ M); by split_and!|]. intros Hi. apply (sound_mag_dag d V (mag d V)); [done..|]. apply Hs.
  intros a b Hab. pose proof Hab as [k Hk]. apply (mgw_in _ (ju_wf _ _ _ _ _ J)) in Hk as (H3 & H4 & H5). rewrite (ju_nodes _ _ _ _ _ J) in *.
  apply (mag_adj d Hwf V _ M). split_and!; [done..|]. by apply Hi.
Qed.
Print Assumptions C72_latents_partial.

Example C72_latents_case : (∀ x y, before [3;0;2;1] x y → ¬ ancestor eD y x) ∧
  (λ loc, match oicd_init ord_down [3;0;2;1] None eV4 with
     | Ok s => match o_learn ord_down (dsep_ci ord_up 6 eD) true false 30 [3;0;2;1] None loc s with Ok t => (adj_pairs (ls_graph (os_ls t)) 5, mark_list (ls_graph (os_ls t)) 5) | _ => ([], []) end
     | _ => ([], []) end) <$> [true; false]
  = replicate 2 ([(0,1);(1,2);(2,3)], [(0,Directed,1);(1,Directed,2);(2,Directed,1);(3,Directed,2)]).
Proof.
  split; [|by vm_compute]. intros x y Hxy%elem_causal_pairs; [|apply (bool_decide_unpack _); by vm_compute].
  assert (Forall (λ e, e.1 ∈ gnodes eD ∧ anc_b eD e.2 e.1 = false) (causal_pairs [3;0;2;1])) as HF by (apply (bool_decide_unpack _); by vm_compute).
  rewrite Forall_forall in HF. destruct (HF _ Hxy) as [H1 H2]. cbn [fst snd] in *.
  rewrite <-(anc_b_ok eD y x) by (done || (apply mk_graph_wf; by vm_compute)). by rewrite H2.
Qed.

(** ** C99: ICD with correct answers; [opt] stands for both is_selection_bias and is_tail_completeness.
    a and b are separated by Z and yet adjacent; x --> y is an edge of the DAG and yet there is an arrowhead at x *)
Theorem C99_icd_refuted : ∀ opt : bool, ∃ o d fuel V, iter_ok o ∧ wf_graph d ∧ acyclic d ∧ V ⊆ gnodes d ∧ size (gnodes d) < fuel ∧
  ∃ fuel', size V * size V + size V + 2 < fuel' ∧
  ∃ a b (Z : nset) x y, a ∈ V ∧ b ∈ V ∧ Z ⊆ V ∖ {[a; b]} ∧ d_separated d a b (elements Z) ∧ x ∈ V ∧ y ∈ V ∧ edge d x y ∧
    returns (icd_learn o (dsep_ci o fuel d) opt opt fuel' false (icd_init o V)) (λ t,
      mg_adj (ls_graph (ic_ls t)) a b ∧ has_mark (ls_graph (ic_ls t)) y Directed x).
Proof. exact icd_wrong. Qed.
Print Assumptions C99_icd_refuted.

(** the same answers and options, two iteration orders, two skeletons *)
Theorem C99_icd_order_refuted : ∃ o1 o2 ci d V a b fuel, iter_ok o1 ∧ iter_ok o2 ∧ wf_graph d ∧ acyclic d ∧ V ⊆ gnodes d ∧ size V * size V + size V + 2 < fuel ∧
  (∀ log i j c, i ∈ gnodes d → j ∈ gnodes d → i ≠ j → (∀ z, z ∈ c → z ∈ gnodes d ∖ {[i; j]}) → ci log i j c = true ↔ d_separated d i j c) ∧
  returns (icd_learn o1 ci true true fuel false (icd_init o1 V)) (λ t, mg_adj (ls_graph (ic_ls t)) a b) ∧
  returns (icd_learn o2 ci true true fuel false (icd_init o2 V)) (λ t, ¬ mg_adj (ls_graph (ic_ls t)) a b).
Proof. exact icd_order. Qed.
Print Assumptions C99_icd_order_refuted.

(** what holds: whatever the options, a missing edge is right and its recorded separating set separates the two nodes *)
Theorem C99_missing_edges_partial : ∀ o o' d V sb tc fuel fuel' precalc, iter_ok o → iter_ok o' → wf_graph d → acyclic d → V ⊆ gnodes d →
  size V * size V + size V + 2 < fuel → size (gnodes d) < fuel' →
  returns (icd_learn o (dsep_ci o' fuel' d) sb tc fuel precalc (icd_init o V)) (λ t,
    ∀ a b, a ∈ V → b ∈ V → a ≠ b → ¬ mg_adj (ls_graph (ic_ls t)) a b →
      ∃ S, sep_get (ls_sep (ic_ls t)) a b = Ok S ∧ S ⊆ V ∖ {[a; b]} ∧ d_separated d a b (elements S)).
Proof.
  intros o o' d V sb tc fuel fuel' precalc Ho Ho' Hwf Hac HV Hf Hf'.
  eapply returns_mono; [exact (C43_icd o (dsep_ci o' fuel' d) V sb tc fuel precalc Ho Hf)|]. cbn beta. intros t [J _] a b Ha Hb Hne Hn.
  destruct (ju_sep _ _ _ _ _ J a b Ha Hb Hne Hn) as (S & HS & HT). exists S. split; [done|].
  destruct HT as (c & Hc & HT).
  assert (∀ i j, (i, j, c, true) ∈ ls_log (ic_ls t) → (∀ z, z ∈ c → z ∈ V ∧ z ≠ i ∧ z ≠ j) ∧ d_separated d i j c) as HD.
  { intros i j Hl. destruct (ju_log _ _ _ _ _ J _ _ _ _ Hl) as (Hi & Hj & Hij & _ & Hz). split; [done|].
    apply elem_of_list_split in Hl as (l1 & l2 & El). pose proof (ju_honest _ _ _ _ _ J _ _ _ _ _ _ El) as E. unfold dsep_ci in E.
    assert (returns (dsep o' fuel' d i j c) (λ b, b = true ↔ d_separated d i j c)) as H.
    { apply dsep_spec; try done; [by apply HV|by apply HV|intros z Hzc; by apply HV, Hz|]. intros H. apply Hz in H. tauto. }
    apply returns_ok in H as (q & Eq & H). rewrite Eq in E. apply H. by rewrite <-E. }
  assert ((∀ z, z ∈ c → z ∈ V ∧ z ≠ a ∧ z ≠ b) ∧ d_separated d a b c) as [Hz Hs].
  { destruct HT as [HT|HT]; apply HD in HT as [H1 H2]; [done|]. split; [intros z Hz; apply H1 in Hz; tauto|by apply d_separated_sym]. }
  split; [intros z Hz'; apply Hc in Hz'; apply Hz in Hz'; set_solver|].
  eapply d_separated_set; [|exact Hs]. intros z. rewrite elem_of_elements. symmetry. apply Hc.
Qed.
Print Assumptions C99_missing_edges_partial.

Example C99_case : wf_graph eD ∧ acyclic eD ∧ eV4 ⊆ gnodes eD ∧
  match icd_learn ord_down (dsep_ci ord_up 6 eD) true true 40 true (icd_init ord_down eV4) with Ok t => adj_pairs (ls_graph (ic_ls t)) 4 | _ => [] end = [(0,1);(1,2);(2,3)].
Proof. split; [apply C44_case|]. split; [apply C44_case|]. split; [apply (bool_decide_unpack _); by vm_compute|]. by vm_compute. Qed.

(** ** C73: what holds of OrderedICD. After any number of calls, two nodes without an edge are d-separated by the recorded set,
    and that set contains only nodes that precede the later of the two in the order. *)
Theorem C73_missing_edges_partial : ∀ o o' d V ord sb tc fuel fuel' mcs L s loc, iter_ok o → iter_ok o' → wf_graph d → acyclic d → V ⊆ gnodes d →
  NoDup ord → list_to_set ord = V → size V * size V + size V + 2 < fuel → size (gnodes d) < fuel' → (∀ m, mcs = Some m → m + 2 ≤ size V) →
  o_reach o (dsep_ci o' fuel' d) sb tc fuel ord mcs V L s →
  returns (o_learn o (dsep_ci o' fuel' d) sb tc fuel ord mcs loc s) (λ t,
    ∀ a b, SpecOICD.before ord a b → ¬ mg_adj (ls_graph (os_ls t)) a b →
      ∃ S, sep_get (ls_sep (os_ls t)) a b = Ok S ∧ S ⊆ V ∖ {[a; b]} ∧ (∀ z, z ∈ S → SpecOICD.before ord z b) ∧ d_separated d a b (elements S)).
Proof.
  intros o o' d V ord sb tc fuel fuel' mcs L s loc Ho Ho' Hwf Hac HV Hnd HVo Hf Hf' Hm Hr.
  eapply returns_mono; [exact (C71_calls o Ho (dsep_ci o' fuel' d) V ord Hnd HVo sb tc fuel Hf mcs Hm L s loc Hr)|]. cbn beta. intros t (J & HO & _) a b Hbef Hn.
  assert (a ∈ V ∧ b ∈ V) as [Ha Hb] by (subst V; rewrite !elem_of_list_to_set; by apply before_in).
  pose proof (before_ne _ _ _ Hnd Hbef) as Hne.
  destruct (ju_sep _ _ _ _ _ J a b Ha Hb Hne Hn) as (S & HS & c & Hc & HT). exists S. split; [done|].
  assert ((a, b, c, true) ∈ ls_log (os_ls t)) as Hl.
  { destruct HT as [HT|HT]; [done|]. destruct (before_asym _ _ _ Hnd Hbef). by apply HO in HT as [HT _]. }
  destruct (ju_log _ _ _ _ _ J _ _ _ _ Hl) as (_ & _ & _ & _ & Hz). destruct (HO _ _ _ _ Hl) as [_ Hord].
  apply elem_of_list_split in Hl as (l1 & l2 & El). pose proof (ju_honest _ _ _ _ _ J _ _ _ _ _ _ El) as E. unfold dsep_ci in E.
  assert (returns (dsep o' fuel' d a b c) (λ q, q = true ↔ d_separated d a b c)) as H.
  { apply dsep_spec; try done; [by apply HV|by apply HV|intros z Hzc; by apply HV, Hz|]. intros H. apply Hz in H. tauto. }
  apply returns_ok in H as (q & Eq & H). rewrite Eq in E.
  split; [intros z Hz'; apply Hc in Hz'; apply Hz in Hz'; set_solver|]. split; [intros z Hz'; by apply Hord, Hc|].
  eapply d_separated_set; [|apply H; by rewrite <-E]. intros z. rewrite elem_of_elements. symmetry. apply Hc.
Qed.
Print Assumptions C73_missing_edges_partial.

(** eD with node 4 latent; 2, 0, 3, 1 is an order of the observed nodes *)
Example C73_missing_case : wf_graph eD ∧ acyclic eD ∧ eV4 ⊆ gnodes eD ∧ NoDup eO ∧ list_to_set eO = eV4 ∧
  match oicd_run (dsep_ci ord_up 6 eD) None false with Ok t => adj_pairs (ls_graph (os_ls t)) 4 | _ => [] end = [(0,1);(1,2);(2,3)].
Proof.
  split; [apply C44_case|]. split; [apply C44_case|]. split; [apply (bool_decide_unpack _); by vm_compute|].
  split; [apply (bool_decide_unpack _); by vm_compute|]. split; [apply (bool_decide_unpack _); by vm_compute|]. by vm_compute.
Qed.
