(** Properties C45, C46, C71-C73: ICD with a causal order.
    [o] with [iter_ok o] is an arbitrary iteration order of Python sets; [fuel] bounds the recursion depth and the
    number of iterations, any value above the stated bound gives the same claim, so no run is cut off.
    [sb], [tc] and [mcs] are the options is_selection_bias, is_tail_completeness and max_cond_size; [loc] is the
    argument local_structure_learning of learn_structure. [o_reach … L s] holds of the states that are reached from
    the constructor by any number of calls of learn_structure with arguments in L. *)
From Verif Require Import Base BaseLemmas ModelGraph Spec Paths ProofGraph3.
From Verif Require Import ModelMixed ModelPC ModelPAG ModelPDS ModelFCI ModelOICD SpecMixed SpecPC SpecPAG SpecPDS SpecFCI SpecOICD.
From Verif Require Import ProofMixed2 ProofPAG ProofPAGW ProofFCI ProofFCI6 ProofOICD ProofOICD2 ProofOICD3 PropFCI.

(** the constructor accepts every permutation of the nodes and every bound in range *)
Theorem C71_constructor : ∀ o, iter_ok o → ∀ V ord, NoDup ord → list_to_set ord = V → ∀ mcs, (∀ m, mcs = Some m → m + 2 ≤ size V) →
  returns (oicd_init o ord mcs V) (λ _, True).
Proof. exact oicd_init_returns. Qed.
Print Assumptions C71_constructor.

(** ** C45 and the first half of C71 *)
Theorem C45_arrowheads : ∀ o, iter_ok o → ∀ ci V ord, NoDup ord → list_to_set ord = V → ∀ sb tc fuel, size V * size V + size V + 2 < fuel →
  ∀ mcs, (∀ m, mcs = Some m → m + 2 ≤ size V) → ∀ L s loc, o_reach o ci sb tc fuel ord mcs V L s →
  returns (o_learn o ci sb tc fuel ord mcs loc s) (λ t, forward ord (ls_graph (os_ls t))).
Proof.
  intros o Ho ci V ord Hnd HV sb tc fuel Hf mcs Hm L s loc H. eapply returns_mono; [exact (oicd_calls o Ho ci V ord Hnd HV sb tc fuel Hf mcs Hm L s loc H)|].
  intros t Ht. exact (proj1 (proj2 (proj2 Ht))).
Qed.
Print Assumptions C45_arrowheads.

Theorem C71_calls : ∀ o, iter_ok o → ∀ ci V ord, NoDup ord → list_to_set ord = V → ∀ sb tc fuel, size V * size V + size V + 2 < fuel →
  ∀ mcs, (∀ m, mcs = Some m → m + 2 ≤ size V) → ∀ L s loc, o_reach o ci sb tc fuel ord mcs V L s →
  returns (o_learn o ci sb tc fuel ord mcs loc s) (λ t,
    justified ci V (ls_graph (os_ls t)) (ls_sep (os_ls t)) (ls_log (os_ls t)) ∧ ordered_log ord (ls_log (os_ls t)) ∧ forward ord (ls_graph (os_ls t)) ∧
    ∀ a b, mg_adj (ls_graph (os_ls t)) a b → mg_adj (ls_graph (os_ls s)) a b).
Proof. exact oicd_calls. Qed.
Print Assumptions C71_calls.

(** the first call tests every pair unconditionally, and the edges that remain between a node and two earlier ones given the third *)
Theorem C71_low_order : ∀ o, iter_ok o → ∀ ci V ord, NoDup ord → list_to_set ord = V → ∀ sb tc fuel, size V * size V + size V + 2 < fuel →
  ∀ mcs, (∀ m, mcs = Some m → m + 2 ≤ size V) → ∀ loc s, oicd_init o ord mcs V = Ok s →
  returns (o_learn o ci sb tc fuel ord mcs loc s) (λ t, let g := ls_graph (os_ls t) in let log := ls_log (os_ls t) in
    (∀ a b, before ord a b → ∃ q, tested log a b ∅ q) ∧
    ((∀ m, mcs = Some m → loc = true → 1 ≤ m) → ∀ a b z, before ord a b → before ord z b → a ≠ z → mg_adj g a b → mg_adj g z b → tested log a b {[z]} false)).
Proof. exact oicd_low. Qed.
Print Assumptions C71_low_order.

(** the filter of the conditioning sets: every node is a possible ancestor of one of the two ends, along nodes that do not come after that end *)
Theorem C71_possible_ancestors : ∀ o, iter_ok o → ∀ V ord, NoDup ord → list_to_set ord = V → ∀ fuel g Z a b anc base, mg_wf g → mnodes g = V →
  ord !! a = Some anc → ord !! b = Some base → anc ∉ Z → base ∉ Z → size V < fuel →
  returns (o_cond_possible_ancestor o fuel ord g Z a b) (λ r, r = true ↔ ∀ z, z ∈ Z →
    (∃ p, is_path (pd_edge g) z anc p ∧ ∀ v, v ∈ p → v ≠ z → before ord v anc ∨ v = anc) ∨
    (∃ p, is_path (pd_edge g) z base p ∧ ∀ v, v ∈ p → v ≠ z → before ord v base ∨ v = base)).
Proof. exact o_cond_ok. Qed.
Print Assumptions C71_possible_ancestors.

(** both ways of learning with a test that belongs to no graph: adjacent pairs, arrowheads and number of queries *)
Definition eO : list node := [2; 0; 3; 1].
Definition oicd_run (ci : citest) (mcs : option nat) (loc : bool) : res ostate := s ← oicd_init ord_down eO mcs eV4; o_learn ord_down ci true true 30 eO mcs loc s.
Example C71_case : NoDup eO ∧ list_to_set eO = eV4 ∧ 4 * 4 + 4 + 2 < 30 ∧
  match oicd_run eT None true with Ok t => (adj_pairs (ls_graph (os_ls t)) 4, mark_list (ls_graph (os_ls t)) 4, length (ls_log (os_ls t))) | _ => ([], [], 0) end
    = ([(0,1);(0,2);(1,2);(1,3);(2,3)], [(0,Directed,1);(2,Directed,0);(2,Directed,1);(2,Directed,3);(3,Directed,1)], 17) ∧
  match oicd_run eT None false with Ok t => (adj_pairs (ls_graph (os_ls t)) 4, length (ls_log (os_ls t))) | _ => ([], 0) end
    = ([(0,1);(0,2);(0,3);(1,2);(1,3);(2,3)], 17).
Proof.
  split; [apply (bool_decide_unpack _); by vm_compute|]. split; [apply (bool_decide_unpack _); by vm_compute|]. split; [lia|].
  split; by vm_compute.
Qed.

(** ** C46: the global variant tests with one conditioning node also when max_cond_size is 0 *)
Theorem C46_global_refuted : ∃ o ci V ord fuel m s, iter_ok o ∧ NoDup ord ∧ list_to_set ord = V ∧ size V * size V + size V + 2 < fuel ∧ m + 2 ≤ size V ∧
  o_reach o ci true true fuel ord (Some m) V (λ loc, loc = false) s ∧ ¬ max_size m (ls_log (os_ls s)).
Proof. exact oicd_unbounded. Qed.
Print Assumptions C46_global_refuted.

(** the bound is respected by the local variant, and by both when it is at least 1 *)
Theorem C46_bound_partial : ∀ o, iter_ok o → ∀ ci V ord, NoDup ord → list_to_set ord = V → ∀ sb tc fuel, size V * size V + size V + 2 < fuel →
  ∀ mcs, (∀ m, mcs = Some m → m + 2 ≤ size V) → ∀ m (L : bool → Prop) s, mcs = Some m → (L false → 1 ≤ m) →
  o_reach o ci sb tc fuel ord mcs V L s → max_size m (ls_log (os_ls s)).
Proof. exact oicd_bounded. Qed.
Print Assumptions C46_bound_partial.

(** sizes of the conditioning sets of the two variants with bounds 0 and 2 *)
Example C46_case : (λ p : nat * bool, match oicd_run (λ _ _ _ _, false) (Some p.1) p.2 with Ok t => (λ q, length q.1.2) <$> reverse (ls_log (os_ls t)) | _ => [] end)
    <$> [(0, true); (2, true); (2, false)]
  = [replicate 6 0; [0;0;0;1;1;0;0;0;1;1;1;1;1;1;2;2;2]; replicate 6 0 ++ replicate 8 1 ++ replicate 3 2].
Proof. by vm_compute. Qed.

(** ** C72: with a test that answers according to m-separation in an ancestral graph m that agrees with the order,
    no adjacency of m is missing, and if there is no other, then every arrowhead and tail is that of m and all the
    unshielded colliders of m are found. The rules 8-10 are switched off (see C30 and C70). *)
Theorem C72_sound_partial : ∀ o, iter_ok o → ∀ ci m, ancestral m → perfect_for m ci → ∀ ord, NoDup ord → list_to_set ord = mnodes m → forward ord m →
  ∀ sb fuel, size (mnodes m) * size (mnodes m) + size (mnodes m) + 2 < fuel → ∀ (L : bool → Prop) mcs s loc, (∀ n, mcs = Some n → n + 2 ≤ size (mnodes m)) →
  o_reach o ci sb false fuel ord mcs (mnodes m) L s →
  returns (o_learn o ci sb false fuel ord mcs loc s) (λ t, (∀ a b, mg_adj m a b → mg_adj (ls_graph (os_ls t)) a b) ∧
    ((∀ a b, mg_adj (ls_graph (os_ls t)) a b → mg_adj m a b) → sound_for m (ls_graph (os_ls t)))).
Proof. exact oicd_sound. Qed.
Print Assumptions C72_sound_partial.

(** 0 --> 1 <-> 2 <-- 3, 1 --> 4 with the order 3, 0, 2, 1, 4: the skeleton and all marks but the tails at 0 and 3 are found *)
Example C72_case : ancestral e70 ∧ dir_mixed e70 ∧ Forall (λ e, e.1 ∈ adj_any PAG_T e70 e.2 → e.1 ∈ mset e70 e.2 Directed) (causal_pairs [3;0;2;1;4]) ∧
  (λ loc, match oicd_init ord_down [3;0;2;1;4] None (mnodes e70) with
     | Ok s => match o_learn ord_down (msep_ci ord_up 7 e70) true false 40 [3;0;2;1;4] None loc s with Ok t => (adj_pairs (ls_graph (os_ls t)) 5, mark_list (ls_graph (os_ls t)) 5) | _ => ([], []) end
     | _ => ([], []) end) <$> [true; false]
  = replicate 2 ([(0,1);(1,2);(1,4);(2,3)], [(0,Directed,1);(1,Directed,2);(1,Directed,4);(2,Directed,1);(3,Directed,2);(4,Tail,1)]).
Proof.
  split; [apply C70_case|]. split; [apply C70_case|]. split; [apply (bool_decide_unpack _); by vm_compute|]. by vm_compute.
Qed.

(** ** C73: the skeleton is not exact when there are latent nodes, for both variants; 0 and 4 are separated by 1, 2 and 3 in
    the example, the order is a causal one, and the test answers according to d-separation *)
Theorem C73_oicd_refuted : ∀ loc, ∃ o d fuel V ord a b Z, iter_ok o ∧ wf_graph d ∧ acyclic d ∧ V ⊆ gnodes d ∧ size (gnodes d) < fuel ∧
  NoDup ord ∧ list_to_set ord = V ∧ (∀ x y, before ord x y → ¬ ancestor d y x) ∧
  a ∈ V ∧ b ∈ V ∧ Z ⊆ V ∖ {[a; b]} ∧ d_separated d a b (elements Z) ∧
  ∃ fuel', size V * size V + size V + 2 < fuel' ∧
    returns (s ← oicd_init o ord None V; o_learn o (dsep_ci o fuel d) true true fuel' ord None loc s) (λ s, mg_adj (ls_graph (os_ls s)) a b).
Proof. exact oicd_superfluous. Qed.
Print Assumptions C73_oicd_refuted.
