(** Properties C22-C32 and C60-C64: partial ancestral graphs.
    [o] with [iter_ok o] is an arbitrary iteration order of Python sets; [fuel] bounds the recursion depth and the
    number of passes, any value above the stated bound gives the same claim, so no run is cut off.
    [has_mark g a k b]: the edge a *-k b has mark k at b. [sep] holds the separation sets of the graph. *)
From Verif Require Import Base BaseLemmas ModelGraph Spec Paths ProofGraph3.
From Verif Require Import ModelMixed ModelPC ModelPAG SpecMixed SpecPAG ProofPDAG ProofMixed ProofMixed2 ProofPAG ProofPAG2.
From Verif Require Import ProofPAGR ProofPAGR2 ProofPAGS ProofPAGT ProofPAGM ProofPAGU ProofPAGV ProofPAGW ProofPAGX.

(** the ancestral graph 0 --> 2 <-- 1, 2 --> 3 with its separation sets, and its skeleton with circles *)
Definition eM : mgraph := mk_mg (seq 0 4) (pag_ 0 Tail Directed 2 ++ pag_ 1 Tail Directed 2 ++ pag_ 2 Tail Directed 3).
Definition eS : sepset := mk_sep [((0,1),[]); ((0,3),[2]); ((1,3),[2])].
Definition eC : mgraph := mk_mg (seq 0 4) (pag_ 0 Circle Circle 2 ++ pag_ 1 Circle Circle 2 ++ pag_ 2 Circle Circle 3).
(** its collider, without and with more orientations *)
Definition eV : mgraph := mk_mg (seq 0 4) (pag_ 0 Circle Directed 2 ++ pag_ 1 Circle Directed 2 ++ pag_ 2 Circle Circle 3).
Lemma eM_ancestral : ancestral eM.
Proof. apply (mk_ancestral _ _ [(0,2);(1,2);(2,3);(0,3);(1,3)]). by vm_compute. Qed.
Lemma eM_dir_mixed : dir_mixed eM.
Proof. apply (ancestral_dir_mixed _ _ [(0,2);(1,2);(2,3);(0,3);(1,3)]); by vm_compute. Qed.
Lemma eM_separating : separating eM (sep_fun eS).
Proof. apply sep_ok_separating; [apply eM_dir_mixed|by vm_compute]. Qed.
Lemma eC_wf : mg_wf eC.
Proof. apply mk_mg_wf. by vm_compute. Qed.
Lemma eV_wf : mg_wf eV.
Proof. apply mk_mg_wf. by vm_compute. Qed.
Lemma eV_total : sep_total eS eV.
Proof. apply list_total. by vm_compute. Qed.
Lemma eC_reflects : reflects eM eC.
Proof. exact (circles_reflect _ _). Qed.

(** ** C22 *)
Theorem C22_orientation_terminates : ∀ o fuel sep g rules, iter_ok o → mg_wf g → sep_total sep g →
  size (mnodes g) * size (mnodes g) + 2 < fuel → (∀ i, i ∈ default (seq 1 10) rules → 1 ≤ i ≤ 10) →
  returns (pag_orient o fuel sep g rules) (λ h, refines g h ∧ pag_pass o fuel sep (default (seq 1 10) rules) h = Ok (h, false)).
Proof. exact orient_refines. Qed.
Print Assumptions C22_orientation_terminates.

(** the rules orient 2 o-o 3 into 2 --> 3 *)
Example C22_case : mg_wf eV ∧ sep_total eS eV ∧ size (mnodes eV) * size (mnodes eV) + 2 < 20 ∧
  returns (pag_orient ord_up 20 eS eV None) (λ h, has_mark h 2 Directed 3 ∧ has_mark h 3 Tail 2).
Proof.
  split; [apply eV_wf|]. split; [apply eV_total|]. split; [apply Nat.ltb_lt; by vm_compute|].
  destruct (res_has_ok (pag_orient ord_up 20 eS eV None) 2 Directed 3) as (h & E & H1); [by vm_compute|].
  destruct (res_has_ok (pag_orient ord_up 20 eS eV None) 3 Tail 2) as (h' & E' & H2); [by vm_compute|].
  rewrite E in *. injection E' as <-. by split.
Qed.

(** ** C23 *)
Theorem C23_arrowheads_kept : ∀ o fuel sep g rules, iter_ok o → mg_wf g → sep_total sep g →
  size (mnodes g) * size (mnodes g) + 2 < fuel → (∀ i, i ∈ default (seq 1 10) rules → 1 ≤ i ≤ 10) →
  returns (pag_orient o fuel sep g rules) (λ h, ∀ a b, has_mark g a Directed b → has_mark h a Directed b).
Proof. exact orient_arrows. Qed.
Print Assumptions C23_arrowheads_kept.

Theorem C23_v_structures_keep_arrowheads : ∀ o sep g, iter_ok o → mg_wf g → sep_total sep g →
  returns (pag_v_structures o g sep) (λ h, ∀ a b, has_mark g a Directed b → has_mark h a Directed b).
Proof. exact v_structures_arrows. Qed.
Print Assumptions C23_v_structures_keep_arrowheads.

Example C23_case : mg_wf eV ∧ sep_total eS eV ∧ has_mark eV 0 Directed 2 ∧ res_has (pag_orient ord_down 20 eS eV (Some [9;4;1])) 0 Directed 2 = true.
Proof. split; [apply eV_wf|]. split; [apply eV_total|]. split; [apply mk_mg_mark, (bool_decide_unpack _); by vm_compute|]. by vm_compute. Qed.

(** ** C24: false in general, true when the separation sets are those of an ancestral graph *)
Theorem C24_marks_flip_refuted : ∃ o sep g fuel g1 g2 a b, iter_ok o ∧ mg_wf g ∧ sep_total sep g ∧
  has_mark g a Circle b ∧ pag_pass o fuel sep (seq 1 10) g = Ok (g1, true) ∧ has_mark g1 a Tail b ∧
  pag_orient o fuel sep g None = Ok g2 ∧ has_mark g2 a Directed b.
Proof. exact marks_flip. Qed.
Print Assumptions C24_marks_flip_refuted.

(** every pass from a graph that agrees with m yields such a graph again, and keeps all tails and arrowheads *)
Theorem C24_marks_stable_partial : ∀ o fuel sep m g rules, iter_ok o → mg_wf g → compat m g (sep_fun sep) → separating m (sep_fun sep) →
  size (mnodes g) + 1 < fuel → (∀ i, i ∈ rules → 1 ≤ i ≤ 9) →
  returns (pag_pass o fuel sep rules g) (λ r, mg_wf r.1 ∧ compat m r.1 (sep_fun sep) ∧
    ∀ a k b, k ≠ Circle → has_mark g a k b → has_mark r.1 a k b).
Proof. exact pass_keeps. Qed.
Print Assumptions C24_marks_stable_partial.

Theorem C24_orientation_stable_partial : ∀ o fuel sep m g rules, iter_ok o → mg_wf g → compat m g (sep_fun sep) → separating m (sep_fun sep) →
  size (mnodes g) * size (mnodes g) + 2 < fuel → (∀ i, i ∈ rules → 1 ≤ i ≤ 9) →
  returns (pag_orient o fuel sep g (Some rules)) (λ r, mg_wf r ∧ compat m r (sep_fun sep) ∧
    ∀ a k b, k ≠ Circle → has_mark g a k b → has_mark r a k b).
Proof. exact orient_keeps. Qed.
Print Assumptions C24_orientation_stable_partial.

Lemma eV_compat : compat eM eV (sep_fun eS).
Proof.
  assert (returns (pag_v_structures ord_up eC eS) (λ h, mg_wf h ∧ compat eM h (sep_fun eS))) as H
    by exact (v_structures_compat ord_up ord_up_ok eS eM eC eM_ancestral eC_wf eC_reflects eM_separating).
  assert (∀ h, pag_v_structures ord_up eC eS = Ok h → ∀ a k b, has_mark h a k b ↔ has_mark eV a k b) as Hm.
  { intros h Eh a k b. assert (forallb (λ a, forallb (λ b, forallb (λ k, eqb (res_has (pag_v_structures ord_up eC eS) a k b) (bool_decide (a ∈ mset eV b k))) all_marks) (seq 0 4)) (seq 0 4) = true) as Hc by by vm_compute.
    rewrite forallb_forall in Hc.
    assert (a ∈ seq 0 4 → b ∈ seq 0 4 → has_mark h a k b ↔ has_mark eV a k b) as Hin.
    { intros Ha Hb. apply elem_of_list_In, Hc in Ha. rewrite forallb_forall in Ha. apply elem_of_list_In, Ha in Hb. rewrite forallb_forall in Hb.
      assert (In k all_marks) as Hk by (destruct k; simpl; tauto). specialize (Hb k Hk). apply eqb_prop in Hb. rewrite Eh in Hb. cbn [res_has] in Hb.
      unfold has_mark. rewrite <-(bool_decide_eq_true (a ∈ mset h b k)), Hb. apply bool_decide_eq_true. }
    rewrite Eh in H. destruct H as [Wh Ch].
    split; intros Hk.
    - pose proof (mgw_in _ Wh _ _ _ Hk) as (Ha & Hb & _). rewrite <-(cp_nodes _ _ _ Ch) in Ha, Hb. apply mk_mg_nodes in Ha, Hb. by apply Hin.
    - pose proof (mgw_in _ eV_wf _ _ _ Hk) as (Ha & Hb & _). apply mk_mg_nodes in Ha, Hb. by apply Hin. }
  destruct (pag_v_structures ord_up eC eS) as [h| |]; [|done..]. destruct H as [Wh Ch]. specialize (Hm h eq_refl).
  assert (∀ a b, mg_adj h a b ↔ mg_adj eV a b) as Ha by (intros a b; unfold mg_adj; by setoid_rewrite Hm).
  split; [apply Ch|done|..].
  - intros a b. rewrite <-Ha. apply Ch.
  - intros a k b Hk. rewrite <-Hm. by apply Ch.
  - intros a b c H1 H2 H3. rewrite <-Hm. by apply (cp_coll _ _ _ Ch a b c).
  - apply Ch.
Qed.
Example C24_case : mg_wf eV ∧ compat eM eV (sep_fun eS) ∧ separating eM (sep_fun eS).
Proof. split; [apply eV_wf|]. split; [apply eV_compat|apply eM_separating]. Qed.

(** ** C25 *)
Theorem C25_pag_matrix_round_trip : ∀ o g g0, iter_ok o → (∀ a k b, has_mark g a k b → a ∈ mnodes g ∧ b ∈ mnodes g) →
  (∀ a k j b, has_mark g a k b → has_mark g a j b → k = j) →
  mnodes g0 = mnodes g → (∀ a k b, has_mark g0 a k b → b ∈ mnodes g0) →
  returns (m ← pag_adj_mat o g; pag_from_mat g0 m None) (mg_same g).
Proof. intros o g g0 Ho. exact (pag_mat_round_trip o Ho g g0). Qed.
Print Assumptions C25_pag_matrix_round_trip.

Theorem C25_matrix_pag_round_trip : ∀ o g0 m, iter_ok o → (∀ a k b, has_mark g0 a k b → b ∈ mnodes g0) →
  (∀ i j, i < mdim m → j < mdim m → ment m i j ≤ 3) → mdim m = size (mnodes g0) →
  returns (g ← pag_from_mat g0 m None; pag_adj_mat o g) (λ m', mdim m' = mdim m ∧ ∀ i j, i < mdim m → j < mdim m → ment m' i j = ment m i j).
Proof. intros o g0 m Ho. exact (mat_pag_round_trip o Ho g0 m). Qed.
Print Assumptions C25_matrix_pag_round_trip.

(** the matrix of eV over the nodes 0..3 *)
Example C25_case : returns (pag_adj_mat ord_up eV) (λ m, mdim m = 4 ∧
  ((λ i, (λ j, ment m i j) <$> seq 0 4) <$> seq 0 4) = [[0;0;2;0];[0;0;2;0];[1;1;0;1];[0;0;1;0]]).
Proof. by vm_compute. Qed.

(** ** C26 *)
Theorem C26_uncovered_path : ∀ o g cond E, iter_ok o → mg_wf g → (∀ u v, u ≠ v → returns (cond u v) (λ b, b = true ↔ E u v)) →
  (∀ u v, E u v → mg_adj g u v) → ∀ fuel x y nx ny en, NoDup [x; y; nx; ny] → size (default (mnodes g) en) + 1 < fuel →
  returns (find_uncovered_path o fuel g x y nx ny en (Some cond)) (λ r, match r with
    | Some p => uncovered_path_spec g E (default (mnodes g) en) x y nx ny p
    | None => ∀ p, ¬ uncovered_path_spec g E (default (mnodes g) en) x y nx ny p end).
Proof. exact uncovered_path_cond. Qed.
Print Assumptions C26_uncovered_path.

Theorem C26_uncovered_path_default : ∀ o g, iter_ok o → mg_wf g → ∀ fuel x y nx ny en, NoDup [x; y; nx; ny] → size (default (mnodes g) en) + 1 < fuel →
  returns (find_uncovered_path o fuel g x y nx ny en None) (λ r, match r with
    | Some p => uncovered_path_spec g (mg_adj g) (default (mnodes g) en) x y nx ny p
    | None => ∀ p, ¬ uncovered_path_spec g (mg_adj g) (default (mnodes g) en) x y nx ny p end).
Proof. exact uncovered_path_any. Qed.
Print Assumptions C26_uncovered_path_default.

(** the conditions the rules use *)
Theorem C26_rule_conditions : ∀ g, mg_wf g →
  (∀ u v, u ≠ v → returns (is_edge PAG_T g u v Circle Circle) (λ b, b = true ↔ circ_edge g u v)) ∧
  (∀ u v, u ≠ v → returns (Ok (is_possible_parent g u v)) (λ b, b = true ↔ pd_edge g u v)).
Proof. intros g Hwf. exact (conj (cond_circle g) (cond_pd g Hwf)). Qed.
Print Assumptions C26_rule_conditions.

(** 0 - 2 - 3 - 5 - 4 - 1 with the chord 2 - 4: the only uncovered path from 0 via 2 to 1 via 4 uses the chord *)
Definition e26 : mgraph := mk_mg (seq 0 6) (pag_ 0 Circle Circle 2 ++ pag_ 2 Circle Circle 3 ++ pag_ 3 Circle Circle 5 ++
  pag_ 5 Circle Circle 4 ++ pag_ 4 Circle Circle 1 ++ pag_ 2 Circle Directed 4).
Example C26_case : mg_wf e26 ∧ find_uncovered_path ord_up 9 e26 0 1 2 4 None None = Ok (Some [2; 4]) ∧
  find_uncovered_path ord_up 9 e26 0 1 2 4 None (Some (λ u v, is_edge PAG_T e26 u v Circle Circle)) = Ok (Some [2; 3; 5; 4]) ∧
  find_uncovered_path ord_up 9 e26 0 1 2 4 (Some {[3]}) (Some (λ u v, is_edge PAG_T e26 u v Circle Circle)) = Ok None.
Proof. split; [apply mk_mg_wf|]; by vm_compute. Qed.

(** ** C27 *)
Theorem C27_discriminating_path : ∀ o g fuel a b c, iter_ok o → mg_wf g → b ≠ c → a ≠ b → a ≠ c →
  has_mark g b Directed a → SpecPAG.dir_edge g a c → mg_adj g b c → size (mnodes g) + 1 < fuel →
  returns (find_disc_path o fuel g a b c None) (λ r, match r with
    | Some d => ∃ q, last q = Some a ∧ discriminating g d q b c
    | None => ∀ d q, last q = Some a → ¬ discriminating g d q b c end).
Proof. exact disc_search. Qed.
Print Assumptions C27_discriminating_path.

Theorem C27_agrees_with_recursive : ∀ o o' g fuel fuel' a b c ns, iter_ok o → iter_ok o' → mg_wf g → a ≠ b → a ≠ c →
  let V := default (mnodes g ∖ {[a; b; c]}) ns in a ∉ V → size V + 1 < fuel → size V + 1 < fuel' →
  ∃ r r', find_disc_path o fuel g a b c ns = Ok r ∧ find_disc_path_recursive o' fuel' g a b c ns = Ok r' ∧ (r = None ↔ r' = None).
Proof. exact disc_search_agree. Qed.
Print Assumptions C27_agrees_with_recursive.

(** the path 0 *-> 1 <-> 2 <-* 3 o-o 4 with 1 --> 4, 2 --> 4 discriminates 3; it disappears when 1 --> 4 does *)
Definition e27 : mgraph := mk_mg (seq 0 5) (pag_ 0 Circle Directed 1 ++ pag_ 1 Directed Directed 2 ++ pag_ 3 Circle Directed 2 ++
  pag_ 3 Circle Circle 4 ++ pag_ 1 Tail Directed 4 ++ pag_ 2 Tail Directed 4).
Definition e27' : mgraph := mk_mg (seq 0 5) (pag_ 0 Circle Directed 1 ++ pag_ 1 Directed Directed 2 ++ pag_ 3 Circle Directed 2 ++
  pag_ 3 Circle Circle 4 ++ pag_ 1 Circle Directed 4 ++ pag_ 2 Tail Directed 4).
Example C27_case : mg_wf e27 ∧ has_mark e27 3 Directed 2 ∧ SpecPAG.dir_edge e27 2 4 ∧ mg_adj e27 3 4 ∧
  find_disc_path ord_up 9 e27 2 3 4 None = Ok (Some 0) ∧ find_disc_path_recursive ord_up 9 e27 2 3 4 None = Ok (Some 0) ∧
  find_disc_path ord_up 9 e27' 2 3 4 None = Ok None.
Proof.
  split; [apply mk_mg_wf; by vm_compute|]. split; [apply mk_mg_mark, (bool_decide_unpack _); by vm_compute|].
  split; [split; apply mk_mg_mark, (bool_decide_unpack _); by vm_compute|].
  split; [exists Circle; apply mk_mg_mark, (bool_decide_unpack _); by vm_compute|]. split_and!; by vm_compute.
Qed.

(** ** C28 *)
Theorem C28_possible_ancestor : ∀ o g fuel a d en, iter_ok o → mg_wf g → a ≠ d → size en < fuel →
  returns (is_possible_ancestor o fuel g a d en) (λ b, b = true ↔ ∃ p, is_path (pd_edge g) a d p ∧ ∀ v, v ∈ p → v ≠ a → v ∈ en).
Proof. intros o g fuel a d en Ho Hwf. exact (is_possible_ancestor_ok o Ho g Hwf fuel a d en). Qed.
Print Assumptions C28_possible_ancestor.

Theorem C28_possible_ancestors : ∀ o g fuel ds en, iter_ok o → mg_wf g → size (default (mnodes g) en) < fuel →
  returns (find_possible_ancestors o fuel g ds en) (λ S, ∀ v, v ∈ S ↔ ∃ d, d ∈ ds ∧
    (v = d ∨ (v ∈ default (mnodes g) en ∧ ∃ p, is_path (pd_edge g) v d p ∧ ∀ w, w ∈ p → w ≠ v → w ∈ default (mnodes g) en))).
Proof. intros o g fuel ds en Ho Hwf. exact (find_possible_ancestors_ok o Ho g Hwf fuel ds en). Qed.
Print Assumptions C28_possible_ancestors.

(** connection by edges of any kind, inside a pool *)
Theorem C28_reachable : ∀ o g fuel, iter_ok o → mg_wf g →
  (∀ a d en, a ≠ d → size en < fuel →
    returns (is_reachable_any o fuel g a d en) (λ b, b = true ↔ ∃ p, is_path (mg_adj g) a d p ∧ ∀ v, v ∈ p → v ≠ a → v ∈ en)) ∧
  (∀ X t en, t ∉ X → size (default (mnodes g) en) < fuel →
    returns (which_reachable_any o fuel g X t en) (λ S, ∀ v, v ∈ S ↔ v ∈ X ∧
      ∃ p, is_path (mg_adj g) v t p ∧ ∀ w, w ∈ p → w ≠ v → w ∈ default (mnodes g) en)).
Proof. intros o g fuel Ho Hwf. exact (conj (λ a d en, is_reachable_any_ok o Ho g Hwf fuel a d en) (λ X t en, which_reachable_any_ok o Ho g Hwf fuel X t en)). Qed.
Print Assumptions C28_reachable.

Example C28_case : is_possible_ancestor ord_up 9 eV 0 3 (mnodes eV) = Ok true ∧ is_possible_ancestor ord_up 9 eV 2 0 (mnodes eV) = Ok false ∧
  match find_possible_ancestors ord_up 9 eV [2] None with Ok R => bool_decide (R = {[0;1;2;3]}) | _ => false end = true ∧
  match find_possible_ancestors ord_up 9 eV [1] None with Ok R => bool_decide (R = {[1]}) | _ => false end = true ∧
  is_reachable_any ord_up 9 eV 3 0 {[0; 2]} = Ok true ∧ is_reachable_any ord_up 9 eV 3 0 {[0; 1]} = Ok false.
Proof. by vm_compute. Qed.

(** ** C29 *)
Theorem C29_m_separation : ∀ o g fuel x y Z, iter_ok o → dir_mixed g → size (mnodes g) + 1 < fuel → x ∈ mnodes g → y ∈ mnodes g →
  (∀ z, z ∈ Z → z ∈ mnodes g) → x ≠ y → y ∉ Z →
  returns (is_m_separated o fuel g x y Z) (λ b, b = true ↔ m_separated g x y (list_to_set Z)).
Proof. intros o g fuel x y Z Ho D. exact (is_m_separated_ok o Ho g D fuel x y Z). Qed.
Print Assumptions C29_m_separation.

Theorem C29_agrees_with_dsep : ∀ o o' g d fuel fuel' x y Z, iter_ok o → iter_ok o' → same_edges g d → wf_graph d → acyclic d →
  size (gnodes d) + 1 < fuel → size (gnodes d) < fuel' → x ∈ gnodes d → y ∈ gnodes d → (∀ z, z ∈ Z → z ∈ gnodes d) → x ≠ y → y ∉ Z →
  ∃ b, is_m_separated o fuel g x y Z = Ok b ∧ dsep o' fuel' d x y Z = Ok b.
Proof. exact m_sep_agrees. Qed.
Print Assumptions C29_agrees_with_dsep.

(** 0 --> 1 <-> 2 <-- 3: conditioning on both colliders connects 0 and 3 *)
Definition e29 : mgraph := mk_mg (seq 0 4) (pag_ 0 Tail Directed 1 ++ pag_ 1 Directed Directed 2 ++ pag_ 3 Tail Directed 2).
Example C29_case : dir_mixed e29 ∧ is_m_separated ord_up 9 e29 0 3 [] = Ok true ∧ is_m_separated ord_up 9 e29 0 3 [1] = Ok true ∧
  is_m_separated ord_up 9 e29 0 3 [1; 2] = Ok false.
Proof. split; [apply (ancestral_dir_mixed _ _ [(0,1);(3,2)]); by vm_compute|]. by vm_compute. Qed.
Example C29_case_dag : same_edges eM (mk_graph (seq 0 4) [(0,2);(1,2);(2,3)]) ∧
  is_m_separated ord_up 9 eM 0 1 [3] = Ok false ∧ dsep ord_up 9 (mk_graph (seq 0 4) [(0,2);(1,2);(2,3)]) 0 1 [3] = Ok false.
Proof.
  split; [|by vm_compute]. split; [apply (bool_decide_unpack _); by vm_compute|].
  split_and!; intros a b; unfold eM; rewrite ?mk_graph_edge, mk_mg_mark; unfold pag_; set_solver +.
Qed.

(** ** C30: rule 10 does not follow its documentation *)
Theorem C30_rule_10_refuted : ∃ o g fuel g' a c, iter_ok o ∧ mg_wf g ∧ pag_rule_10 o fuel g = Ok (g', true) ∧
  has_mark g c Circle a ∧ has_mark g' c Tail a ∧ ¬ r10_pattern g a c.
Proof. exact rule_10_refuted. Qed.
Print Assumptions C30_rule_10_refuted.

(** with correct separation sets of an ancestral graph m the result of all ten rules contradicts m *)
Theorem C30_default_rules_unsound_refuted : ∃ o m g0 sep, iter_ok o ∧ ancestral m ∧ separating m (sep_fun sep) ∧ mg_wf g0 ∧ reflects m g0 ∧
  ∃ fuel g a c, (h ← pag_v_structures o g0 sep; pag_orient o fuel sep h None) = Ok g ∧ has_mark g c Tail a ∧ has_mark m c Directed a.
Proof. exact rule_10_unsound. Qed.
Print Assumptions C30_default_rules_unsound_refuted.

(** the documented pattern is sound *)
Theorem C30_documented_rule_sound_partial : ∀ m S h a c, mg_wf h → compat m h S → r10_pattern h a c → SpecPAG.dir_edge m a c.
Proof. exact r10_sound. Qed.
Print Assumptions C30_documented_rule_sound_partial.

(** ** C31 *)
Theorem C31_buckets_diverge_refuted : ∃ o g, iter_ok o ∧ mg_wf g ∧ ∀ fuel, get_ordered_buckets o fuel g None = Diverges.
Proof. exact ordered_buckets_diverge. Qed.
Print Assumptions C31_buckets_diverge_refuted.

Theorem C31_buckets_sound_partial : ∀ o g fuel en r, iter_ok o → mg_wf g → size (default (mnodes g) en) + 1 < fuel →
  get_ordered_buckets o fuel g en = Ok r → components (circ_edge g) (default (mnodes g) en) r ∧ bucket_order g r.
Proof. intros o g fuel en r Ho Hwf. exact (ordered_buckets_sound o Ho g Hwf fuel en r). Qed.
Print Assumptions C31_buckets_sound_partial.

(** whenever some ordering of the circle components exists, one is returned *)
Theorem C31_buckets_total_partial : ∀ o g fuel en L, iter_ok o → mg_wf g → size (default (mnodes g) en) + 1 < fuel →
  components (circ_edge g) (default (mnodes g) en) L → bucket_order g L →
  returns (get_ordered_buckets o fuel g en) (λ r, components (circ_edge g) (default (mnodes g) en) r ∧ bucket_order g r).
Proof. intros o g fuel en L Ho Hwf. exact (ordered_buckets_total o Ho g Hwf fuel en L). Qed.
Print Assumptions C31_buckets_total_partial.

(** 0 o-> 2 <-o 1, 2 --> 3 o-o 4 *)
Definition e31 : mgraph := mk_mg (seq 0 5) (pag_ 0 Circle Directed 2 ++ pag_ 1 Circle Directed 2 ++ pag_ 2 Tail Directed 3 ++ pag_ 3 Circle Circle 4).
Example C31_case : mg_wf e31 ∧ match get_ordered_buckets ord_up 9 e31 None with Ok r => bool_decide (r = [{[1]}; {[0]}; {[2]}; {[3; 4]}] ∨ r = [{[0]}; {[1]}; {[2]}; {[3; 4]}]) | _ => false end = true.
Proof. split; [apply mk_mg_wf|]; by vm_compute. Qed.

(** ** C32 *)
Theorem C32_pc_component_refuted : ∃ o g fuel vis S x w, iter_ok o ∧ mg_wf g ∧ find_visible_edges o fuel g = Ok vis ∧
  find_pc_component o fuel g vis x None None = Ok S ∧ w ∈ S ∧ ¬ pc_member g vis (mnodes g) x w.
Proof. exact pc_component_refuted. Qed.
Print Assumptions C32_pc_component_refuted.

(** what is returned: the visibility of the edge from w to the last scanned child y of x is tested, not that of w *-> z *)
Theorem C32_pc_component_partial : ∀ o g vis fuel x en dc, iter_ok o → mg_wf g → size (default (mnodes g) en) + 1 < fuel →
  (match dc with Some l => components (bidir_edge g) (default (mnodes g) en) l | None => True end) →
  returns (find_pc_component o fuel g vis x en dc) (λ S, ∀ w, w ∈ S ↔
    let V := default (mnodes g) en in
    w = x ∨ pc_neighbour g vis V x w ∨ pc_linked g vis V x w ∨
    (w ∈ V ∧ ∃ z, pc_linked g vis V x z ∧ z ≠ x ∧ has_mark g w Directed z ∧ ∃ y, last (o 639 (filter (λ n, x ∈ mset g n Directed)
       (filter (λ n, (x, n) ∉ vis ∧ (n, x) ∉ vis) (find_adj PAG_T g x (Some V) None)))) = Some y ∧ (w, y) ∉ vis)).
Proof. intros o g vis fuel x en dc Ho Hwf. exact (pc_component_ok o Ho g Hwf vis fuel x en dc). Qed.
Print Assumptions C32_pc_component_partial.

Example C32_case : mg_wf (mk_mg (seq 0 6) w32) ∧ match find_pc_component ord_up 20 (mk_mg (seq 0 6) w32) ∅ 1 None None with Ok R => bool_decide (0 ∈ R ∧ 2 ∈ R ∧ 3 ∈ R) | _ => false end = true.
Proof. split; [apply mk_mg_wf|]; by vm_compute. Qed.

(** ** C60: rules 1-9 assert only what holds in every ancestral graph that agrees with the input *)
Theorem C60_rules_1_to_9_sound : ∀ o fuel sep m g rules, iter_ok o → mg_wf g → compat m g (sep_fun sep) → separating m (sep_fun sep) →
  size (mnodes g) * size (mnodes g) + 2 < fuel → (∀ i, i ∈ rules → 1 ≤ i ≤ 9) →
  returns (pag_orient o fuel sep g (Some rules)) (λ h, ∀ a k b, k ≠ Circle → has_mark h a k b → has_mark m a k b).
Proof. exact orient_sound. Qed.
Print Assumptions C60_rules_1_to_9_sound.

Example C60_case : compat eM eV (sep_fun eS) ∧ separating eM (sep_fun eS) ∧
  res_has (pag_orient ord_up 20 eS eV (Some (seq 1 9))) 2 Directed 3 = true ∧ has_mark eM 2 Directed 3.
Proof.
  split; [apply eV_compat|]. split; [apply eM_separating|]. split; [by vm_compute|]. apply mk_mg_mark, (bool_decide_unpack _); by vm_compute.
Qed.

(** ** C61: at the end no documented pattern of the rules 1-9 is left *)
Theorem C61_no_rule_applies : ∀ o fuel sep g rules, iter_ok o → mg_wf g → sep_total sep g → size (mnodes g) * size (mnodes g) + 2 < fuel →
  (∀ i, i ∈ default (seq 1 10) rules → 1 ≤ i ≤ 10) →
  returns (pag_orient o fuel sep g rules) (λ h, ∀ i, i ∈ default (seq 1 10) rules → i ≠ 10 → ¬ rule_applies i h).
Proof. exact orient_settled. Qed.
Print Assumptions C61_no_rule_applies.

(** rule 1 has something to do in eV *)
Example C61_case : mg_wf eV ∧ sep_total eS eV ∧ rule_applies 1 eV.
Proof.
  split; [apply eV_wf|]. split; [apply eV_total|]. exists 0, 2, 3. unfold eV. split_and!; [apply mk_mg_mark, (bool_decide_unpack _); by vm_compute..|].
  intros [k Hk]. apply mk_mg_mark in Hk. unfold pag_ in Hk. set_solver +Hk.
Qed.

(** ** C62: collider orientation and rules 1-9 from the skeleton of an ancestral graph and its separation sets *)
Theorem C62_orientation_from_separation_sets : ∀ o sep m g, iter_ok o → ancestral m → mg_wf g → reflects m g → separating m (sep_fun sep) →
  ∀ fuel rules, size (mnodes g) * size (mnodes g) + 2 < fuel → (∀ i, i ∈ rules → 1 ≤ i ≤ 9) →
  returns (h ← pag_v_structures o g sep; pag_orient o fuel sep h (Some rules)) (λ h, reflects m h ∧
    ∀ a b c, mg_adj h a b → mg_adj h b c → a ≠ c → ¬ mg_adj h a c → m_collider h a b c ↔ m_collider m a b c).
Proof. intros o sep m g Ho A Hwf R HS. exact (fci_orient_sound o Ho sep m g A Hwf R HS). Qed.
Print Assumptions C62_orientation_from_separation_sets.

Example C62_case : ancestral eM ∧ mg_wf eC ∧ reflects eM eC ∧ separating eM (sep_fun eS).
Proof. split; [apply eM_ancestral|]. split; [apply eC_wf|]. split; [apply eC_reflects|apply eM_separating]. Qed.

(** ** C63 *)
Theorem C63_visible_edges : ∀ o g fuel, iter_ok o → mg_wf g → size (mnodes g) + 1 < fuel →
  (∀ a b, returns (test_edge_visible o fuel g a b) (λ r, r = true ↔ visible g a b)) ∧
  returns (find_visible_edges o fuel g) (λ S, ∀ a b, (a, b) ∈ S ↔ visible g a b).
Proof. intros o g fuel Ho Hwf Hf. exact (conj (λ a b, test_edge_visible_ok o Ho g Hwf fuel a b Hf) (find_visible_edges_ok o Ho g Hwf fuel Hf)). Qed.
Print Assumptions C63_visible_edges.

(** 2 --> 3 is visible in 0 *-> 2 --> 3; 0 --> 1 is not in 0 --> 1 alone *)
Example C63_case : test_edge_visible ord_up 9 eM 2 3 = Ok true ∧ test_edge_visible ord_up 9 eM 0 2 = Ok false ∧
  match find_visible_edges ord_up 9 eM with Ok R => bool_decide (R = {[(2, 3)]}) | _ => false end = true.
Proof. by vm_compute. Qed.

(** ** C64 *)
Theorem C64_v_structures : ∀ o sep g, iter_ok o → mg_wf g → sep_total sep g →
  returns (pag_v_structures o g sep) (λ h, mg_wf h ∧ mnodes h = mnodes g ∧
    (∀ a b, mg_adj h a b ↔ mg_adj g a b) ∧
    (∀ a b, has_mark h a Directed b ↔ has_mark g a Directed b ∨ sep_collider g (sep_fun sep) a b) ∧
    (∀ a k b, k ≠ Directed → has_mark h a k b ↔ has_mark g a k b ∧ ¬ sep_collider g (sep_fun sep) a b)).
Proof. intros o sep g Ho. exact (v_structures_ok o Ho sep g). Qed.
Print Assumptions C64_v_structures.

Example C64_case : mg_wf eC ∧ sep_total eS eC ∧ res_has (pag_v_structures ord_up eC eS) 0 Directed 2 = true ∧
  res_has (pag_v_structures ord_up eC eS) 3 Circle 2 = true.
Proof. split; [apply eC_wf|]. split; [apply list_total; by vm_compute|]. by vm_compute. Qed.
