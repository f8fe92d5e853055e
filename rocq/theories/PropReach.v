(** Properties C110 and C111: neighbourhood queries and undirected reachability of a PDAG; fan-in, pc-components of a set and
    regions of a PAG. [en]: the optional argument en_nodes, all nodes by default. *)
From Verif Require Import Base BaseLemmas ModelGraph ModelMixed ModelPAG ModelReach Spec SpecMixed SpecPAG SpecReach
  ProofMixed ProofMixed2 ProofPAG ProofPAGW ProofReach.

(** ** C110 *)
Theorem C110_pdag_queries : ∀ o g, iter_ok o → pd_wf g →
  (∀ p pot c, c ∈ pd_children o g p pot ↔ c ∈ pot ∧ darrow g p c) ∧
  (∀ s en, is_sink o g s en = true ↔ ∀ v, v ∈ default (mnodes g) en → ¬ darrow g s v) ∧
  (∀ n, counts (λ v, darrow g v n ∨ uline g v n) (fan_in g n)).
Proof.
  intros o g Ho Hwf. split; [|split].
  - intros p pot c. by apply pd_children_ok.
  - intros s en. by apply sink_query_ok.
  - intros n. by apply fan_in_ok.
Qed.
Print Assumptions C110_pdag_queries.

(** en: the nodes that may be inside the walk; the ends need not be among them *)
Theorem C110_undirected_reachability : ∀ o g fuel s en, iter_ok o → pd_wf g → size en < fuel →
  (∀ t, returns (is_reachable_undirected o fuel g s t en) (λ b, b = true ↔ und_walk g en s t)) ∧
  (∀ T, returns (is_reachable_any_undirected o fuel g s T en) (λ b, b = true ↔ ∃ t, t ∈ T ∧ und_walk g en s t)).
Proof.
  intros o g fuel s en Ho Hwf Hf. split; intros t; [by apply reachable_undirected_ok|by apply reachable_any_undirected_ok].
Qed.
Print Assumptions C110_undirected_reachability.

(** 0 --- 1 --- 2 --- 3 --> 4, 1 --> 4, 5 --- 0 *)
Definition e110 : mgraph := mk_mg (seq 0 6) (pag_ 0 Tail Tail 1 ++ pag_ 1 Tail Tail 2 ++ pag_ 2 Tail Tail 3 ++ [(3, Directed, 4); (1, Directed, 4)] ++ pag_ 5 Tail Tail 0).
Example C110_case : pd_wf e110 ∧
  is_reachable_undirected ord_up 9 e110 5 3 {[0;1;2]} = Ok true ∧ is_reachable_undirected ord_up 9 e110 5 3 {[0;2;3]} = Ok false ∧
  is_reachable_undirected ord_up 9 e110 5 4 (mnodes e110) = Ok false ∧ is_reachable_any_undirected ord_down 9 e110 3 {[4;5]} {[0;1;2]} = Ok true ∧
  fan_in e110 4 = 2 ∧ fan_in e110 1 = 2 ∧ is_sink ord_up e110 1 None = false ∧ is_sink ord_up e110 1 (Some {[0;2]}) = true ∧
  4 ∈ pd_children ord_up e110 3 {[2;4]} ∧ 2 ∉ pd_children ord_up e110 3 {[2;4]}.
Proof. split; [apply mk_pd_wf; by vm_compute|]. apply (bool_decide_unpack _). by vm_compute. Qed.

(** ** C111 *)
Theorem C111_pag_fan_in : ∀ g n, mg_wf g → counts (λ v, has_mark g v Directed n ∨ has_mark g v Circle n) (pag_fan_in g n).
Proof. intros g n. by apply pag_fan_in_ok. Qed.
Print Assumptions C111_pag_fan_in.

(** the result for a set is the union of the results for its nodes; the region is the union of the buckets that meet it *)
Theorem C111_region_of_components : ∀ o g vis fuel A en, iter_ok o → mg_wf g → size (default (mnodes g) en) + 1 < fuel →
  let of_node w := ∃ x S, x ∈ A ∧ find_pc_component o fuel g vis x en None = Ok S ∧ w ∈ S in
  returns (find_pc_component_set o fuel g vis A en) (λ S, ∀ w, w ∈ S ↔ of_node w) ∧
  returns (find_region o fuel g vis A en) (λ R, ∀ v, v ∈ R ↔ ∃ w, of_node w ∧ same_component (circ_edge g) (default (mnodes g) en) w v).
Proof. intros o g vis fuel A en Ho Hwf Hf. split; [by apply pc_set_ok|by apply region_ok]. Qed.
Print Assumptions C111_region_of_components.

(** the documented sets, when the visibility of the edge that is tested agrees with that of the documented edge;
    in particular when no edge is visible *)
Theorem C111_region_partial : ∀ o g vis fuel A en, iter_ok o → mg_wf g → size (default (mnodes g) en) + 1 < fuel →
  vis_uniform g vis (default (mnodes g) en) →
  returns (find_pc_component_set o fuel g vis A en) (λ S, ∀ w, w ∈ S ↔ ∃ x, x ∈ A ∧ pc_member g vis (default (mnodes g) en) x w) ∧
  returns (find_region o fuel g vis A en) (λ R, ∀ v, v ∈ R ↔ region_member g vis (default (mnodes g) en) A v).
Proof. intros o g vis fuel A en Ho Hwf Hf Hu. split; [by apply pc_set_exact|by apply region_exact]. Qed.
Print Assumptions C111_region_partial.

(** the same for one node (C32) *)
Theorem C32_pc_component_documented_partial : ∀ o g vis fuel x en, iter_ok o → mg_wf g → size (default (mnodes g) en) + 1 < fuel →
  vis_uniform g vis (default (mnodes g) en) →
  returns (find_pc_component o fuel g vis x en None) (λ S, ∀ w, w ∈ S ↔ pc_member g vis (default (mnodes g) en) x w).
Proof.
  intros o g vis fuel x en Ho Hwf Hf Hu. destruct (pc_component_dc o Ho g Hwf vis fuel x en Hf) as (S & E & _). rewrite E.
  exact (pc_member_ok o Ho g Hwf vis fuel x en S Hf Hu E).
Qed.
Print Assumptions C32_pc_component_documented_partial.

Theorem C111_region_refuted : ∃ o g fuel vis A R v, iter_ok o ∧ mg_wf g ∧ size (mnodes g) + 1 < fuel ∧ find_visible_edges o fuel g = Ok vis ∧
  find_region o fuel g vis A None = Ok R ∧ v ∈ R ∧ ¬ region_member g vis (mnodes g) A v.
Proof.
  destruct w32_region as (R & H1 & H2 & H3). exists ord_up, (mk_mg (seq 0 6) w32), 20, {[(3, 2)]}, [0], R, 3.
  split; [apply ord_up_ok|]. split; [apply mk_mg_wf; by vm_compute|]. split; [apply (bool_decide_unpack _); by vm_compute|]. split; [exact w32_visible|]. exact (conj H1 (conj H2 H3)).
Qed.
Print Assumptions C111_region_refuted.

(** 0 o-> 1 <-> 2 <-o 3 o-o 4, 5 o-o 0 *)
Definition e111 : mgraph := mk_mg (seq 0 7) (pag_ 0 Circle Directed 1 ++ pag_ 1 Directed Directed 2 ++ pag_ 3 Circle Directed 2 ++
  pag_ 3 Circle Circle 4 ++ pag_ 5 Circle Circle 0).
Example C111_case : mg_wf e111 ∧ vis_uniform e111 ∅ (mnodes e111) ∧ pag_fan_in e111 0 = 2 ∧ pag_fan_in e111 2 = 2 ∧
  match find_pc_component_set ord_up 20 e111 ∅ [0] None, find_region ord_up 20 e111 ∅ [0] None with
  | Ok P, Ok R => bool_decide (P = {[0;1;2;3;5]} ∧ R = {[0;1;2;3;4;5]}) | _, _ => false end = true.
Proof. split; [apply mk_mg_wf; by vm_compute|]. split; [|by vm_compute]. intros x y z w _ _ _ _. set_solver +. Qed.
