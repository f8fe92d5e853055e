(** Properties C43, C44, C68-C70: the FCI and ICD learners.
    [o] with [iter_ok o] is an arbitrary iteration order of Python sets; [fuel] bounds the recursion depth and the
    number of iterations, any value above the stated bound gives the same claim, so no run is cut off.
    [sb], [tc] and [precalc] are the options is_selection_bias, is_tail_completeness and is_pre_calc_cond_set. *)
From Verif Require Import Base BaseLemmas ModelGraph Spec Paths ProofGraph3.
From Verif Require Import ModelMixed ModelPC ModelPAG ModelPDS ModelFCI SpecMixed SpecPC SpecPAG SpecPDS SpecFCI.
From Verif Require Import ProofMixed2 ProofPAG ProofPAGW ProofFCI ProofFCI2 ProofFCI3 ProofFCI4 ProofFCI5 ProofFCI6.

(** a test whose answers belong to no graph, and the DAG 0 --> 1 <-- 4 --> 2 <-- 3 in which 4 is latent *)
Definition eT : citest := λ log x y c, bool_decide ((x + 2 * y + length c + length log) mod 10 = 1).
Definition eD : graph := mk_graph (seq 0 5) [(0,1);(4,1);(4,2);(3,2)].
Definition eV4 : nset := list_to_set (seq 0 4).

(** ** C43 *)
Theorem C43_fci : ∀ o ci V sb tc fuel, iter_ok o → size V * size V + size V + 2 < fuel →
  returns (fci_learn o ci sb tc fuel V) (λ r, justified ci V (ls_graph r.1) (ls_sep r.1) (ls_log r.1)).
Proof. intros o ci V sb tc fuel Ho Hf. eapply returns_mono; [exact (fci_learn_ok o Ho ci V sb tc fuel Hf)|]. intros r [I _]. exact (ls_inv_justified ci V r.1 I). Qed.
Print Assumptions C43_fci.

Theorem C43_icd : ∀ o ci V sb tc fuel precalc, iter_ok o → size V * size V + size V + 2 < fuel →
  returns (icd_learn o ci sb tc fuel precalc (icd_init o V)) (λ t, justified ci V (ls_graph (ic_ls t)) (ls_sep (ic_ls t)) (ls_log (ic_ls t)) ∧ ic_done t = true).
Proof. intros o ci V sb tc fuel precalc Ho Hf. eapply returns_mono; [exact (icd_learn_ok o Ho ci V sb tc fuel precalc Hf)|]. intros t (I & Hd & _). exact (conj (ls_inv_justified ci V _ (ii_inv ci V t I)) Hd). Qed.
Print Assumptions C43_icd.

(** the second phase of FCI tests every remaining edge x - y given every subset of a possible-d-sep set of x, computed
    from the skeleton h of the first phase; [r.2] says whether the second phase removed an edge *)
Theorem C43_fci_second_phase : ∀ o ci V sb tc fuel, iter_ok o → size V * size V + size V + 2 < fuel →
  returns (fci_learn o ci sb tc fuel V) (λ r, ∃ h, mg_wf h ∧ mnodes h = V ∧ (∀ a b, mg_adj (ls_graph r.1) a b → mg_adj h a b) ∧
    (r.2 = true ↔ ∃ a b, mg_adj h a b ∧ ¬ mg_adj (ls_graph r.1) a b) ∧
    ∀ x y, mg_adj (ls_graph r.1) x y → ∃ X, pds_set_spec h x X ∧ dependent_given_all (ls_log r.1) x y X).
Proof.
  intros o ci V sb tc fuel Ho Hf. eapply returns_mono; [exact (fci_learn_ok o Ho ci V sb tc fuel Hf)|].
  intros r (_ & p & h & _ & _ & _ & H1 & H2 & _ & H3 & H4 & H5). exact (ex_intro _ h (conj H1 (conj H2 (conj H3 (conj H4 H5))))).
Qed.
Print Assumptions C43_fci_second_phase.

(** both learners remove some but not all edges with the test eT: adjacent pairs and number of queries *)
Definition adj_pairs (g : mgraph) (n : nat) : list (node * node) :=
  filter (λ e, e.1 < e.2 ∧ e.1 ∈ find_adj PAG_T g e.2 None None) (list_prod (seq 0 n) (seq 0 n)).
Example C43_case : 4 * 4 + 4 + 2 < 30 ∧
  match fci_learn ord_down eT true true 30 eV4 with Ok r => (adj_pairs (ls_graph r.1) 4, length (ls_log r.1), r.2) | _ => ([], 0, false) end
    = ([(0,1);(0,2);(1,2);(2,3)], 69, true) ∧
  match icd_learn ord_down eT true true 30 true (icd_init ord_down eV4) with Ok t => (adj_pairs (ls_graph (ic_ls t)) 4, length (ls_log (ic_ls t))) | _ => ([], 0) end
    = ([(0,2);(1,2);(2,3)], 29).
Proof. split; [lia|]. split; by vm_compute. Qed.

(** ** C44 *)
Theorem C44_fci : ∀ o o' d V sb tc fuel fuel', iter_ok o → iter_ok o' → wf_graph d → acyclic d → V ⊆ gnodes d →
  size V * size V + size V + 2 < fuel → size (gnodes d) < fuel' →
  returns (fci_learn o (dsep_ci o' fuel' d) sb tc fuel V) (λ r,
    (∀ a b, a ∈ V → b ∈ V → a ≠ b → (∀ Z : nset, Z ⊆ V ∖ {[a; b]} → ¬ d_separated d a b (elements Z)) → mg_adj (ls_graph r.1) a b) ∧
    (∀ a b, a ∈ V → b ∈ V → a ≠ b → ¬ mg_adj (ls_graph r.1) a b → ∃ Z, sep_get (ls_sep r.1) a b = Ok Z ∧ Z ⊆ V ∖ {[a; b]} ∧ d_separated d a b (elements Z))).
Proof. exact fci_keeps_inseparable. Qed.
Print Assumptions C44_fci.

Theorem C44_icd : ∀ o o' d V sb tc fuel fuel' precalc, iter_ok o → iter_ok o' → wf_graph d → acyclic d → V ⊆ gnodes d →
  size V * size V + size V + 2 < fuel → size (gnodes d) < fuel' →
  returns (icd_learn o (dsep_ci o' fuel' d) sb tc fuel precalc (icd_init o V)) (λ t,
    (∀ a b, a ∈ V → b ∈ V → a ≠ b → (∀ Z : nset, Z ⊆ V ∖ {[a; b]} → ¬ d_separated d a b (elements Z)) → mg_adj (ls_graph (ic_ls t)) a b) ∧
    (∀ a b, a ∈ V → b ∈ V → a ≠ b → ¬ mg_adj (ls_graph (ic_ls t)) a b → ∃ Z, sep_get (ls_sep (ic_ls t)) a b = Ok Z ∧ Z ⊆ V ∖ {[a; b]} ∧ d_separated d a b (elements Z))).
Proof. exact icd_keeps_inseparable. Qed.
Print Assumptions C44_icd.

Example C44_case : wf_graph eD ∧ acyclic eD ∧ eV4 ⊆ gnodes eD ∧
  match fci_learn ord_down (dsep_ci ord_up 6 eD) true true 30 eV4 with Ok r => adj_pairs (ls_graph r.1) 4 | _ => [] end = [(0,1);(1,2);(2,3)] ∧
  match icd_learn ord_down (dsep_ci ord_up 6 eD) true true 30 false (icd_init ord_down eV4) with Ok t => adj_pairs (ls_graph (ic_ls t)) 4 | _ => [] end = [(0,1);(1,2);(2,3)].
Proof.
  split; [apply mk_graph_wf; by vm_compute|]. split; [apply mk_graph_acyclic; by vm_compute|]. split; [apply (bool_decide_unpack _); by vm_compute|].
  split; by vm_compute.
Qed.

(** ** C68: the skeleton is not exact when there are latent nodes *)
Theorem C68_fci_refuted : ∃ o d fuel V a b Z, iter_ok o ∧ wf_graph d ∧ acyclic d ∧ V ⊆ gnodes d ∧ size (gnodes d) < fuel ∧
  a ∈ V ∧ b ∈ V ∧ Z ⊆ V ∖ {[a; b]} ∧ d_separated d a b (elements Z) ∧
  ∃ fuel', size V * size V + size V + 2 < fuel' ∧ returns (fci_learn o (dsep_ci o fuel d) true true fuel' V) (λ r, mg_adj (ls_graph r.1) a b).
Proof. exact fci_superfluous. Qed.
Print Assumptions C68_fci_refuted.

(** without latent nodes FCI finds the skeleton, in its first phase *)
Theorem C68_fci_no_latents_partial : ∀ o o' fuel fuel' d sb tc, iter_ok o → iter_ok o' → wf_graph d → acyclic d →
  let V := gnodes d in size V * size V + size V + 2 < fuel → size V < fuel' →
  returns (fci_learn o (dsep_ci o' fuel' d) sb tc fuel V) (λ r, (∀ a b, mg_adj (ls_graph r.1) a b ↔ adjacent d a b) ∧ r.2 = false).
Proof. exact fci_no_latents. Qed.
Print Assumptions C68_fci_no_latents_partial.

Example C68_case : wf_graph eD ∧ acyclic eD ∧
  match fci_learn ord_down (dsep_ci ord_up 6 eD) true true 40 (gnodes eD) with Ok r => adj_pairs (ls_graph r.1) 5 | _ => [] end = [(0,1);(1,4);(2,3);(2,4)].
Proof. split; [apply C44_case|]. split; [apply C44_case|]. by vm_compute. Qed.

(** ** C69 *)
Theorem C69_anytime : ∀ o, iter_ok o → ∀ ci sb tc fuel precalc V, size V * size V + size V + 2 < fuel →
  ∀ s, rtc (icd_next o ci sb tc fuel precalc) (icd_init o V) s →
  justified ci V (ls_graph (ic_ls s)) (ls_sep (ic_ls s)) (ls_log (ic_ls s)) ∧ growing (ls_log (ic_ls s)) ∧
  (∀ i j c b, (i, j, c, b) ∈ ls_log (ic_ls s) → length c < ic_size s) ∧
  if ic_done s then icd_iteration o ci sb tc fuel precalc s = Raise RuntimeError else
  returns (icd_iteration o ci sb tc fuel precalc s) (λ r,
    ic_size r.1 = S (ic_size s) ∧ r.2 = (ic_done r.1, ic_size s) ∧
    (∀ a b, mg_adj (ls_graph (ic_ls r.1)) a b → mg_adj (ls_graph (ic_ls s)) a b) ∧
    (∃ q, asks (ic_size s) (ls_log (ic_ls s)) (ls_log (ic_ls r.1)) q) ∧
    (ic_done r.1 = false → S (ic_size s) < 2 `max` size V)).
Proof. exact icd_anytime. Qed.
Print Assumptions C69_anytime.

Theorem C69_complete_run : ∀ o ci sb tc fuel precalc V, iter_ok o → size V * size V + size V + 2 < fuel →
  returns (icd_learn o ci sb tc fuel precalc (icd_init o V)) (λ t, let g := ls_graph (ic_ls t) in let log := ls_log (ic_ls t) in
    2 ≤ ic_size t ≤ 2 `max` size V ∧ growing log ∧
    (∀ a b, a ∈ V → b ∈ V → a ≠ b → ∃ q, tested log a b ∅ q) ∧
    (∀ a b z, mg_adj g a b → mg_adj g z a → z ≠ b → tested log a b {[z]} false)).
Proof. exact icd_low_order. Qed.
Print Assumptions C69_complete_run.

Theorem C69_conditioning_sets : ∀ o, iter_ok o → ∀ fuel g i j r, mg_wf g → i ∈ mnodes g → j ∈ mnodes g → 2 ≤ r →
  size (mnodes g) * size (mnodes g) + size (mnodes g) < fuel →
  returns (pdsep_range_sets o fuel g i j r) (λ l, nearest_first l ∧ ∀ c, c ∈ l → icd_sep g i j r c.1).
Proof. exact pdsep_range_nearest. Qed.
Print Assumptions C69_conditioning_sets.

(** sizes of the conditioning sets in the order of the queries; a conditioning set of two nodes with its distance *)
Example C69_case : match icd_learn ord_down (λ _ _ _ _, false) true true 30 false (icd_init ord_down eV4) with
    Ok t => (ic_size t, (λ q, length q.1.2) <$> reverse (ls_log (ic_ls t))) | _ => (0, []) end
  = (4, replicate 6 0 ++ replicate 12 1 ++ replicate 12 2) ∧
  match pdsep_range_sets ord_up 30 (create_complete PAG_T (mempty eV4) Circle (Some eV4)) 0 1 2 with Ok l => (λ c, (elements c.1, c.2)) <$> l | _ => [] end
  = [([3;2], Some 2); ([3;2], Some 2)].
Proof. split; by vm_compute. Qed.

(** ** C70: with the default options a tail is wrong, also when all tests are answered correctly (see C30) *)
Theorem C70_wrong_tail_refuted : ∃ o d fuel V a b, iter_ok o ∧ wf_graph d ∧ acyclic d ∧ V ⊆ gnodes d ∧ size (gnodes d) < fuel ∧ ¬ ancestor d a b ∧
  ∃ fuel', size V * size V + size V + 2 < fuel' ∧
    returns (fci_learn o (dsep_ci o fuel d) true true fuel' V) (λ r, has_mark (ls_graph r.1) b Tail a) ∧
    returns (icd_learn o (dsep_ci o fuel d) true true fuel' false (icd_init o V)) (λ t, has_mark (ls_graph (ic_ls t)) b Tail a).
Proof. exact wrong_tail. Qed.
Print Assumptions C70_wrong_tail_refuted.

(** without the tail rules 8-10: all adjacencies of the true ancestral graph m are in the result, and if there is no
    other, then every arrowhead and tail is that of m and all the unshielded colliders of m are found *)
Theorem C70_fci_partial : ∀ o, iter_ok o → ∀ ci m, ancestral m → perfect_for m ci → ∀ sb fuel, size (mnodes m) * size (mnodes m) + size (mnodes m) + 2 < fuel →
  returns (fci_learn o ci sb false fuel (mnodes m)) (λ r, (∀ a b, mg_adj m a b → mg_adj (ls_graph r.1) a b) ∧
    ((∀ a b, mg_adj (ls_graph r.1) a b → mg_adj m a b) → sound_for m (ls_graph r.1))).
Proof. exact fci_sound. Qed.
Print Assumptions C70_fci_partial.

Theorem C70_icd_partial : ∀ o, iter_ok o → ∀ ci m, ancestral m → perfect_for m ci → ∀ sb fuel precalc, size (mnodes m) * size (mnodes m) + size (mnodes m) + 2 < fuel →
  returns (icd_learn o ci sb false fuel precalc (icd_init o (mnodes m))) (λ t, (∀ a b, mg_adj m a b → mg_adj (ls_graph (ic_ls t)) a b) ∧
    ((∀ a b, mg_adj (ls_graph (ic_ls t)) a b → mg_adj m a b) → sound_for m (ls_graph (ic_ls t)))).
Proof. exact icd_sound. Qed.
Print Assumptions C70_icd_partial.

(** the oracle tests of the repository answer correctly *)
Theorem C70_oracles_partial : ∀ o fuel m, iter_ok o →
  (dir_mixed m → size (mnodes m) + 1 < fuel → perfect_for m (msep_ci o fuel m)) ∧
  (∀ d, same_edges m d → wf_graph d → acyclic d → size (gnodes d) < fuel → perfect_for m (dsep_ci o fuel d)).
Proof. intros o fuel m Ho. exact (conj (msep_ci_perfect o fuel m Ho) (λ d, dsep_ci_perfect o fuel m d Ho)). Qed.
Print Assumptions C70_oracles_partial.

(** no latent nodes: nothing remains to be assumed *)
Theorem C70_fci_no_latents_partial : ∀ o o' fuel fuel' m d sb, iter_ok o → iter_ok o' → same_edges m d → wf_graph d → acyclic d →
  size (gnodes d) * size (gnodes d) + size (gnodes d) + 2 < fuel → size (gnodes d) < fuel' →
  returns (fci_learn o (dsep_ci o' fuel' d) sb false fuel (gnodes d)) (λ r, sound_for m (ls_graph r.1)).
Proof. exact fci_no_latents_sound. Qed.
Print Assumptions C70_fci_no_latents_partial.

(** 0 --> 1 <-> 2 <-- 3, 1 --> 4: the result has its skeleton, its arrowheads, and the tail of 1 --> 4 *)
Definition e70 : mgraph := mk_mg (seq 0 5) (pag_ 0 Tail Directed 1 ++ pag_ 1 Directed Directed 2 ++ pag_ 3 Tail Directed 2 ++ pag_ 1 Tail Directed 4).
Definition mark_list (g : mgraph) (n : nat) : list (node * mark * node) :=
  filter (λ e, e.1.1 ∈ mset g e.2 e.1.2) (list_prod (list_prod (seq 0 n) [Directed; Tail]) (seq 0 n)).
Example C70_case : ancestral e70 ∧ dir_mixed e70 ∧
  match fci_learn ord_down (msep_ci ord_up 7 e70) true false 40 (mnodes e70) with Ok r => (adj_pairs (ls_graph r.1) 5, mark_list (ls_graph r.1) 5) | _ => ([], []) end
  = ([(0,1);(1,2);(1,4);(2,3)], [(0,Directed,1);(1,Directed,2);(1,Directed,4);(2,Directed,1);(3,Directed,2);(4,Tail,1)]).
Proof.
  split; [apply (mk_ancestral _ _ [(0,1);(3,2);(1,4);(0,4)]); by vm_compute|]. split; [apply (ancestral_dir_mixed _ _ [(0,1);(3,2);(1,4);(0,4)]); by vm_compute|].
  by vm_compute.
Qed.
