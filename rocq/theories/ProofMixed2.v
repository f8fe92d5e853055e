(** Building concrete mixed graphs; connectivity of PAGs and PDAGs; wrappers for the theorems. *)
From Verif Require Import Base BaseLemmas ModelGraph Spec ModelMixed SpecMixed Paths ProofGraph ProofDsep ProofGraph2 ProofGraph3
  ProofPDAG ProofPDAG2 ProofPDAG3 ProofMixed.

(** a mixed graph given by its nodes and its marks (a, k, b): mark k at b on the edge a - b *)
Definition mk_mg (ns : list node) (es : list (node * mark * node)) : mgraph :=
  MGraph (list_to_set ns)
    (λ n k, list_to_set ((filter (λ e, e.1.2 = k ∧ e.2 = n) es).*1.*1)).

Lemma mk_mg_mark ns es a k b : has_mark (mk_mg ns es) a k b ↔ (a, k, b) ∈ es.
Proof.
  unfold has_mark, mk_mg. cbn [mset]. rewrite elem_of_list_to_set, elem_of_list_fmap. split.
  - intros ([a' k'] & -> & Hin). apply elem_of_list_fmap in Hin as ([[a1 k1] b1] & E & Hin).
    simpl in E. simplify_eq. apply elem_of_list_filter in Hin as [[Hk Hb] ?]. simpl in *. by subst.
  - intros Hin. exists (a, k). split; [done|]. apply elem_of_list_fmap. exists (a, k, b). split; [done|].
    by apply elem_of_list_filter.
Qed.
Lemma mk_mg_nodes ns es a : a ∈ mnodes (mk_mg ns es) ↔ a ∈ ns.
Proof. unfold mk_mg. cbn [mnodes]. by rewrite elem_of_list_to_set. Qed.

Definition mk_pd_ok (ns : list node) (es : list (node * mark * node)) : bool :=
  forallb (λ e, let '(a, k, b) := e in
    bool_decide (a ∈ ns) && bool_decide (b ∈ ns) && bool_decide (a ≠ b) &&
    match k with
    | Tail => bool_decide ((b, Tail, a) ∈ es) && negb (bool_decide ((a, Directed, b) ∈ es))
    | _ => true
    end) es.
Lemma mk_pd_wf ns es : mk_pd_ok ns es = true → pd_wf (mk_mg ns es).
Proof.
  unfold mk_pd_ok. rewrite forallb_forall. intros H.
  assert (∀ a k b, has_mark (mk_mg ns es) a k b → a ∈ ns ∧ b ∈ ns ∧ a ≠ b ∧
    (k = Tail → (b, Tail, a) ∈ es ∧ (a, Directed, b) ∉ es)) as H'.
  { intros a k b Hab. apply mk_mg_mark, elem_of_list_In, H in Hab.
    rewrite !andb_true_iff, !bool_decide_eq_true in Hab. destruct Hab as [[[? ?] ?] Hk].
    split_and!; try done. intros ->. rewrite andb_true_iff, negb_true_iff, bool_decide_eq_true, bool_decide_eq_false in Hk. done. }
  split.
  - intros a b Hab. rewrite !mk_mg_nodes. apply H' in Hab. tauto.
  - intros a b Hab. rewrite !mk_mg_nodes. apply H' in Hab. tauto.
  - intros a b Hab. apply H' in Hab as (_ & _ & _ & Hab). apply mk_mg_mark. by apply Hab.
  - intros a b Hab. apply H' in Hab as (_ & _ & _ & Hab). unfold darrow. rewrite mk_mg_mark. by apply Hab.
Qed.

Definition all_marks : list mark := [Circle; Directed; Tail].
Definition mk_mg_ok (ns : list node) (es : list (node * mark * node)) : bool :=
  forallb (λ e, let '(a, k, b) := e in
    bool_decide (a ∈ ns) && bool_decide (b ∈ ns) && bool_decide (a ≠ b) &&
    existsb (λ j, bool_decide ((b, j, a) ∈ es)) all_marks &&
    forallb (λ j, bool_decide (j = k) || negb (bool_decide ((a, j, b) ∈ es))) all_marks) es.
Lemma mk_mg_wf ns es : mk_mg_ok ns es = true → mg_wf (mk_mg ns es).
Proof.
  unfold mk_mg_ok. rewrite forallb_forall. intros H.
  assert (∀ a k b, has_mark (mk_mg ns es) a k b → a ∈ ns ∧ b ∈ ns ∧ a ≠ b ∧
    (∃ j, (b, j, a) ∈ es) ∧ ∀ j, (a, j, b) ∈ es → j = k) as H'.
  { intros a k b Hab. apply mk_mg_mark, elem_of_list_In, H in Hab.
    rewrite !andb_true_iff, !bool_decide_eq_true, existsb_exists, forallb_forall in Hab.
    destruct Hab as [[[[? ?] ?] (j & _ & Hj)] Hall]. apply bool_decide_eq_true in Hj.
    split_and!; [done..|by exists j|]. intros j' Hj'. specialize (Hall j').
    assert (In j' all_marks) as Hin by (destruct j'; simpl; auto). apply Hall in Hin.
    apply orb_true_iff in Hin as [Hin|Hin]; [by apply bool_decide_eq_true in Hin|].
    rewrite negb_true_iff, bool_decide_eq_false in Hin. done. }
  split.
  - intros a k b Hab. rewrite !mk_mg_nodes. apply H' in Hab. tauto.
  - intros a k b Hab. apply H' in Hab as (_ & _ & _ & (j & Hj) & _). exists j. by apply mk_mg_mark.
  - intros a k j b Hk Hj. apply H' in Hk as (_ & _ & _ & _ & Hk). symmetry. apply Hk. by apply mk_mg_mark in Hj.
Qed.

(** marks of directed and undirected edges *)
Definition dir_ (a b : node) : list (node * mark * node) := [(a, Directed, b)].
Definition und_ (a b : node) : list (node * mark * node) := [(a, Tail, b); (b, Tail, a)].
(** an edge a - b of a PAG with mark ka at a and kb at b *)
Definition pag_ (a : node) (ka : mark) (kb : mark) (b : node) : list (node * mark * node) := [(b, ka, a); (a, kb, b)].

(** ** symmetric reachability *)
Lemma typed_sym_none g a b : mg_wf g → typed_edge g None a b → typed_edge g None b a.
Proof. intros Hwf [k Hk]. by apply (mgw_both _ Hwf) in Hk. Qed.
Lemma typed_sym_mark g k a b : typed_edge g (Some [(k, k)]) a b → typed_edge g (Some [(k, k)]) b a.
Proof.
  intros (k1 & k2 & Hin & ? & ?). apply elem_of_list_singleton in Hin as Heq. simplify_eq. exists k, k. done.
Qed.

(** edges of the requested kind: all edges, or the edges with the mark at both ends *)
Definition kind_edge (g : mgraph) (sym : option mark) (a b : node) : Prop :=
  match sym with None => mg_adj g a b | Some k => has_mark g a k b ∧ has_mark g b k a end.

Lemma same_component_ext (R Q : node → node → Prop) V a b : (∀ a b, R a b ↔ Q a b) →
  same_component R V a b ↔ same_component Q V a b.
Proof.
  intros H. assert (∀ (R Q : node → node → Prop), (∀ a b, R a b ↔ Q a b) →
    same_component R V a b → same_component Q V a b) as Himp.
  { intros R' Q' HRQ (? & ? & Hr). split_and!; [done..|]. induction Hr as [|? ? ? [? ?] _ IH]; [done|].
    eapply rtc_l; [split; [by apply HRQ|done]|]. by apply IH. }
  split; apply Himp; [done|]. intros. by rewrite H.
Qed.
Lemma components_ext (R Q : node → node → Prop) V l : (∀ a b, R a b ↔ Q a b) → components R V l → components Q V l.
Proof.
  intros H (H1 & H2 & H3 & H4). split_and!; [done..|]. intros B a HB Ha b. rewrite (H4 B a HB Ha b).
  by apply same_component_ext.
Qed.

Lemma pag_components o g fuel en sym : iter_ok o → mg_wf g → let V := default (mnodes g) en in
  size V + 1 < fuel →
  returns (find_unconnected_subgraphs o fuel PAG_T g en sym) (components (kind_edge g sym) V).
Proof.
  intros Ho Hwf V Hf.
  assert (∀ a k b, has_mark g a k b → k ∈ PAG_T) as HT by (intros; apply mark_in_PAG).
  pose proof (subgraphs_spec o Ho PAG_T g HT fuel en sym) as H. cbn zeta in H. fold V in H.
  destruct sym as [k|].
  - rewrite decide_True in H by apply mark_in_PAG.
    eapply returns_mono; [apply H; [apply typed_sym_mark|done]|]. intros l. apply components_ext.
    intros a b. simpl. split.
    + intros (k1 & k2 & Hin & ? & ?). apply elem_of_list_singleton in Hin as Heq. simplify_eq. done.
    + intros [? ?]. exists k, k. split_and!; [set_solver +|done..].
  - eapply returns_mono; [apply H; [intros a b; by apply typed_sym_none|done]|]. intros l. apply components_ext.
    intros a b. simpl. split.
    + intros ?. by apply mg_adj_sym.
    + intros ?. by apply (mg_adj_sym g a b).
Qed.

Lemma pag_connected o g fuel ns : iter_ok o → mg_wf g → let V := default (mnodes g) ns in
  1 < size V → size V < fuel →
  returns (m_is_graph_connected o fuel PAG_T g ns) (λ b, b = true ↔
    ∀ u v, u ∈ V → v ∈ V → same_component (mg_adj g) V u v).
Proof.
  intros Ho Hwf V H1 Hf. unfold m_is_graph_connected. fold V. rewrite bool_decide_true by done. simpl.
  assert (∀ a k b, has_mark g a k b → k ∈ PAG_T) as HT by (intros; apply mark_in_PAG).
  pose proof (iter_length o 132 V Ho) as Hlen.
  destruct (o 132 V) as [|n l] eqn:E; [simpl in Hlen; lia|].
  assert (n ∈ V) as Hn by (rewrite <-(iter_elem o 132 V n Ho), E; set_solver +).
  assert (size (V ∖ {[n]}) = size V - 1) as Hsz.
  { rewrite size_difference by set_solver +Hn. by rewrite size_singleton. }
  eapply returns_mono.
  - apply (m_connected_loop_spec o Ho PAG_T g HT V n).
    + done.
    + intros a b. by apply typed_sym_none.
    + intros v. rewrite elem_of_difference, elem_of_singleton. done.
    + intros v ->%elem_of_singleton. set_solver +Hn.
    + intros H0. rewrite H0, size_empty in Hsz. lia.
    + intros v Hv Hvn. assert (v = n) as -> by (destruct (decide (v = n)); [done|destruct Hvn; set_solver]).
      by split_and!.
    + intros u v Hu Hun Hus. destruct Hun. rewrite elem_of_singleton in Hus. set_solver.
    + rewrite size_singleton. lia.
  - cbn beta. intros b ->.
    assert (∀ a b, typed_edge g None a b ↔ mg_adj g a b) as Hte.
    { intros u v. split; intros H; apply mg_adj_sym in H; done. }
    setoid_rewrite (same_component_ext _ _ V _ _ Hte). split.
    + intros Hall u v Hu Hv.
      assert (∀ w, w ∈ V → same_component (typed_edge g None) V n w) as Hall'.
      { intros w Hw. apply (same_component_ext _ _ V _ _ Hte). auto. }
      apply (same_component_ext _ _ V _ _ Hte).
      eapply same_component_trans; [|by apply Hall']. apply same_component_sym; [|by apply Hall'].
      intros a b'. by apply typed_sym_none.
    + intros Hall v Hv. by apply Hall.
Qed.

(** components of a PDAG by undirected edges *)
Lemma pd_components_undirected o g fuel en : iter_ok o → pd_wf g → (∀ a b, ¬ has_mark g a Circle b) →
  let V := default (mnodes g) en in size V + 1 < fuel →
  returns (find_unconnected_subgraphs o fuel PDAG_T g en (Some Tail)) (components (uline g) V).
Proof.
  intros Ho Hwf Hc V Hf.
  assert (∀ a k b, has_mark g a k b → k ∈ PDAG_T) as HT.
  { intros a [] b H; [by apply Hc in H|set_solver +..]. }
  pose proof (subgraphs_spec o Ho PDAG_T g HT fuel en (Some Tail)) as H. cbn zeta in H. fold V in H.
  cbn iota in H. rewrite decide_True in H by set_solver +.
  eapply returns_mono; [apply H; [apply typed_sym_mark|done]|]. intros l. apply components_ext.
  intros a b. simpl. split.
  - intros (k1 & k2 & Hin & ? & ?). apply elem_of_list_singleton in Hin as Heq. simplify_eq. done.
  - intros ?. exists Tail, Tail. split_and!; [set_solver +|by apply (pdw_sym _ Hwf)|done].
Qed.

(** ** wrappers *)
Lemma maximally_orient_spec o g rules en fuel : iter_ok o → pd_wf g → (∀ i, i ∈ rules → 1 ≤ i ≤ 4) →
  size (mnodes g) * size (mnodes g) < fuel →
  returns (maximally_orient o fuel g rules en) (λ g',
    pd_wf g' ∧ orientation_of g g' ∧ pd_same_skeleton g g' ∧ no_rule_applies g' rules (default (mnodes g) en)).
Proof.
  intros Ho Hwf Hr Hf. eapply returns_mono; [by apply maximally_orient_steps|]. cbn beta.
  intros g' [Hst Hno]. destruct (osteps_orientation _ _ _ _ Hwf Hst) as [Hor Hwf'].
  split_and!; [done..| |done]. by apply orientation_skeleton.
Qed.

Lemma maximally_orient_sound o g rules en fuel d : iter_ok o → pd_wf g → (∀ i, i ∈ rules → 1 ≤ i ≤ 3) →
  size (mnodes g) * size (mnodes g) < fuel → extends d g →
  returns (maximally_orient o fuel g rules en) (extends d).
Proof.
  intros Ho Hwf Hr Hf He. eapply returns_mono; [apply maximally_orient_steps; [done..| |done]|].
  { intros i Hi. apply Hr in Hi. lia. }
  cbn beta. intros g' [Hst Hno]. eapply osteps_sound; [exact Hwf|done| |exact Hst].
  intros h x y. by apply any_123_sound.
Qed.

(** the rules one at a time *)
Lemma rule_4_steps o g en : iter_ok o → pd_wf g →
  returns (rule_4 o en g) (λ r, rtc (ostep r4_pattern en) g r.1).
Proof.
  intros Ho Hwf. eapply returns_mono; [by apply rule_4_spec|]. cbn beta.
  intros r [[_ Ht]|[-> _]]; [by apply tc_rtc|done].
Qed.

Lemma cpdag_correct o d cp rules fuel : iter_ok o → wf_graph d → acyclic d → mnodes cp = gnodes d →
  (∀ n k, mset cp n k = ∅) → (∀ i, i ∈ rules ↔ 1 ≤ i ≤ 3) → size (gnodes d) * size (gnodes d) + 1 < fuel →
  returns (convert_to_cpdag o fuel d cp rules) (λ g,
    pd_wf g ∧ mnodes g = gnodes d ∧
    (∀ a b, pd_adj g a b ↔ adjacent d a b) ∧
    (∀ a c b, v_structure d a c b → darrow g a c ∧ darrow g b c) ∧
    (∀ a c b, darrow g a c → darrow g b c → a ≠ b → ¬ pd_adj g a b → v_structure d a c b) ∧
    (∀ d', acyclic d' → same_skeleton d d' → same_v_structures d d' → extends d' g) ∧
    no_rule_applies g rules (gnodes d)).
Proof.
  intros Ho Hwf Hac Hn He Hr Hf. eapply returns_mono; [apply convert_to_cpdag_steps; try done|].
  { intros i ?%Hr. lia. }
  cbn beta. intros g' (g & Hp & Hst & Hno).
  pose proof (pattern_wf _ _ Hwf Hac Hp) as Hwg.
  destruct (osteps_orientation _ _ _ _ Hwg Hst) as [Hor Hwf'].
  destruct (orientation_skeleton _ _ Hwg Hor) as [_ Hsk].
  assert (∀ d', acyclic d' → same_skeleton d d' → same_v_structures d d' → extends d' g') as Hext.
  { intros d' Ha' Hs' Hv'. eapply osteps_sound; [exact Hwg| | |exact Hst].
    - by eapply pattern_extends.
    - intros h x y. apply any_123_sound. by intros i ?%Hr. }
  assert (extends d g') as Hd by by apply Hext.
  assert (∀ a b, pd_adj g' a b ↔ adjacent d a b) as Hadj.
  { intros a b. by rewrite <-Hsk, (pattern_adj d). }
  split_and!; try done.
  - rewrite (or_nodes _ _ Hor). by destruct Hp as [-> _].
  - intros a c b Hv. by apply (ext_vstr _ _ Hd).
  - intros a c b Hac' Hbc Hne Hna. split_and!; [by apply (ext_dir _ _ Hd)..|done|]. by rewrite <-Hadj.
  - destruct Hp as [Hpn _]. by rewrite Hpn in Hno.
Qed.

Lemma cpdag_cyclic o d cp rules fuel : iter_ok o → wf_graph d → ¬ acyclic d → size (gnodes d) < fuel →
  convert_to_cpdag o fuel d cp rules = Raise ValueError.
Proof.
  intros Ho Hwf Hac Hf. unfold convert_to_cpdag.
  pose proof (is_acyclic_spec o Ho d fuel Hwf Hf) as H. apply returns_ok in H as (b & -> & Hb). simpl.
  destruct b; [|done]. destruct Hac. by apply Hb.
Qed.

Lemma cpdag_unique o1 o2 d1 d2 cp1 cp2 r1 r2 f1 f2 : iter_ok o1 → iter_ok o2 →
  wf_graph d1 → wf_graph d2 → acyclic d1 → acyclic d2 → same_skeleton d1 d2 → same_v_structures d1 d2 →
  mnodes cp1 = gnodes d1 → (∀ n k, mset cp1 n k = ∅) → mnodes cp2 = gnodes d2 → (∀ n k, mset cp2 n k = ∅) →
  (∀ i, i ∈ r1 ↔ 1 ≤ i ≤ 3) → (∀ i, i ∈ r2 ↔ 1 ≤ i ≤ 3) →
  size (gnodes d1) * size (gnodes d1) + 1 < f1 → size (gnodes d2) * size (gnodes d2) + 1 < f2 →
  ∃ g1 g2, convert_to_cpdag o1 f1 d1 cp1 r1 = Ok g1 ∧ convert_to_cpdag o2 f2 d2 cp2 r2 = Ok g2 ∧ pd_same g1 g2.
Proof.
  intros Ho1 Ho2 Hw1 Hw2 Ha1 Ha2 Hs Hv Hn1 He1 Hn2 He2 Hr1 Hr2 Hf1 Hf2.
  pose proof (convert_to_cpdag_steps o1 Ho1 d1 cp1 r1 f1 Hw1 Ha1 Hn1 He1 ltac:(intros i ?%Hr1; lia) Hf1) as H1.
  pose proof (convert_to_cpdag_steps o2 Ho2 d2 cp2 r2 f2 Hw2 Ha2 Hn2 He2 ltac:(intros i ?%Hr2; lia) Hf2) as H2.
  apply returns_ok in H1 as (h1 & E1 & g1 & Hp1 & Hst1 & Hno1).
  apply returns_ok in H2 as (h2 & E2 & g2 & Hp2 & Hst2 & Hno2).
  exists h1, h2. split_and!; [done..|]. exact (rules_123_unique d1 d2 g1 g2 h1 h2 r1 r2 Hw1 Hw2 Ha1 Ha2 Hs Hv Hp1 Hp2 Hr1 Hr2 Hst1 Hno1 Hst2 Hno2).
Qed.

(** equal CPDAGs only for DAGs with the same skeleton and unshielded colliders *)
Lemma cpdag_separates o1 o2 d1 d2 cp1 cp2 r1 r2 f1 f2 g1 g2 : iter_ok o1 → iter_ok o2 →
  wf_graph d1 → wf_graph d2 → acyclic d1 → acyclic d2 →
  mnodes cp1 = gnodes d1 → (∀ n k, mset cp1 n k = ∅) → mnodes cp2 = gnodes d2 → (∀ n k, mset cp2 n k = ∅) →
  (∀ i, i ∈ r1 ↔ 1 ≤ i ≤ 3) → (∀ i, i ∈ r2 ↔ 1 ≤ i ≤ 3) →
  size (gnodes d1) * size (gnodes d1) + 1 < f1 → size (gnodes d2) * size (gnodes d2) + 1 < f2 →
  convert_to_cpdag o1 f1 d1 cp1 r1 = Ok g1 → convert_to_cpdag o2 f2 d2 cp2 r2 = Ok g2 → pd_same g1 g2 →
  same_skeleton d1 d2 ∧ same_v_structures d1 d2.
Proof.
  intros Ho1 Ho2 Hw1 Hw2 Ha1 Ha2 Hn1 He1 Hn2 He2 Hr1 Hr2 Hf1 Hf2 E1 E2 Hs.
  pose proof (cpdag_correct o1 d1 cp1 r1 f1 Ho1 Hw1 Ha1 Hn1 He1 Hr1 Hf1) as H1. rewrite E1 in H1. cbn [returns] in H1.
  pose proof (cpdag_correct o2 d2 cp2 r2 f2 Ho2 Hw2 Ha2 Hn2 He2 Hr2 Hf2) as H2. rewrite E2 in H2. cbn [returns] in H2.
  destruct H1 as (_ & N1 & A1 & V1 & W1 & _), H2 as (_ & N2 & A2 & V2 & W2 & _).
  pose proof (λ a b, pd_same_adj g1 g2 a b Hs) as Hadj. destruct Hs as [Hn Hs].
  split.
  - split; [congruence|]. intros a b. by rewrite <-A1, <-A2.
  - intros a c b. split; intros Hv.
    + pose proof Hv as (_ & _ & Hne & Hna). apply V1 in Hv as [? ?].
      apply W2; [by apply Hs..|done|]. by rewrite <-Hadj, A1.
    + pose proof Hv as (_ & _ & Hne & Hna). apply V2 in Hv as [? ?].
      apply W1; [by apply Hs..|done|]. by rewrite Hadj, A2.
Qed.

(** ** checking extensions of concrete graphs *)
Definition mk_ext_ok (des : list (node * node)) (es : list (node * mark * node)) : bool :=
  forallb (λ e, bool_decide ((e.1, Tail, e.2) ∈ es) || bool_decide ((e.1, Directed, e.2) ∈ es)) des &&
  forallb (λ e, let '(a, k, b) := e in
    match k with
    | Directed => bool_decide ((a, b) ∈ des)
    | Tail => (bool_decide ((a, b) ∈ des) || bool_decide ((b, a) ∈ des)) && bool_decide ((b, Tail, a) ∈ es)
    | Circle => true
    end) es &&
  forallb (λ e, forallb (λ f,
    negb (bool_decide (e.2 = f.2)) || bool_decide (e.1 = f.1) ||
    bool_decide ((e.1, f.1) ∈ des) || bool_decide ((f.1, e.1) ∈ des) ||
    (bool_decide ((e.1, Directed, e.2) ∈ es) && bool_decide ((f.1, Directed, f.2) ∈ es))) des) des.

Lemma mk_extends ns des es : mk_ext_ok des es = true → acyclic (mk_graph ns des) →
  extends (mk_graph ns des) (mk_mg ns es).
Proof.
  unfold mk_ext_ok. rewrite !andb_true_iff, !forallb_forall. intros [[H1 H2] H3] Hac.
  assert (∀ a b, (a, b) ∈ des → (a, Tail, b) ∈ es ∨ (a, Directed, b) ∈ es) as H1'.
  { intros a b Hab%elem_of_list_In%H1. rewrite orb_true_iff, !bool_decide_eq_true in Hab. done. }
  assert (∀ a b, (a, Directed, b) ∈ es → (a, b) ∈ des) as HD.
  { intros a b Hab%elem_of_list_In%H2. by apply bool_decide_eq_true in Hab. }
  assert (∀ a b, (a, Tail, b) ∈ es → ((a, b) ∈ des ∨ (b, a) ∈ des) ∧ (b, Tail, a) ∈ es) as HT.
  { intros a b Hab%elem_of_list_In%H2. rewrite andb_true_iff, orb_true_iff, !bool_decide_eq_true in Hab. done. }
  split; [done|done|..].
  - intros a b. unfold adjacent, pd_adj, uline, darrow. rewrite !mk_graph_edge, !mk_mg_mark. split.
    + intros [Hab|Hab]; apply H1' in Hab as [Hab|Hab]; [tauto|tauto| |tauto]. apply HT in Hab. tauto.
    + intros [Hab|[Hab|Hab]]; [apply HT in Hab|apply HD in Hab|apply HD in Hab]; tauto.
  - intros a b Hab. apply mk_graph_edge, HD. by apply mk_mg_mark in Hab.
  - intros a c b (Hac' & Hbc & Hne & Hna). unfold adjacent in Hna. unfold darrow. rewrite !mk_graph_edge in *. rewrite !mk_mg_mark.
    apply elem_of_list_In in Hac'. specialize (H3 _ Hac'). rewrite forallb_forall in H3.
    apply elem_of_list_In in Hbc. specialize (H3 _ Hbc). simpl in H3.
    rewrite !orb_true_iff, negb_true_iff, andb_true_iff, !bool_decide_eq_true, bool_decide_eq_false in H3.
    destruct H3 as [[[[?|?]|?]|?]|?]; [done|done|tauto|tauto|done].
Qed.

Lemma do_mop_total o op g : iter_ok o → mg_wf g → mop_pre op g →
  (∃ g', do_mop o op g = Ok g') ∨
  (∃ i j ki kj, op = MAdd i j ki kj ∧ mg_adj g i j ∧ do_mop o op g = Raise AssertionError).
Proof.
  intros Ho Hwf Hpre. destruct op as [i j ki kj|i j|s t k|k ns]; cbn [mop_pre do_mop] in *.
  - destruct Hpre as (_ & _ & Hne). destruct (m_add_edge_spec g i j ki kj Hwf Hne) as [H1 H2].
    destruct (connected PAG_T g i j) eqn:E.
    + apply connected_pag in E; [|done]. right. exists i, j, ki, kj. auto.
    + left. eexists. apply H1. rewrite <-connected_pag by done. congruence.
  - left. eauto.
  - left. eexists. apply replace_edge_mark_ok.
  - left. pose proof (reset_orientations_spec o Ho g k ns Hwf) as H. apply returns_ok in H as (g' & ? & _). eauto.
Qed.

(** C14: 0 --> 1 is stored at 1 only *)
Lemma pd_components_order : ∃ g fuel, pd_wf g ∧ size (mnodes g) + 1 < fuel ∧
  (∃ o l, iter_ok o ∧ find_unconnected_subgraphs o fuel PDAG_T g None None = Ok l ∧
     ¬ components (pd_adj g) (mnodes g) l) ∧
  (∃ o l, iter_ok o ∧ find_unconnected_subgraphs o fuel PDAG_T g None None = Ok l ∧
     components (pd_adj g) (mnodes g) l).
Proof.
  set (es := dir_ 0 1 ++ dir_ 2 1). exists (mk_mg [0;1;2] es), 6.
  assert (pd_wf (mk_mg [0;1;2] es)) as Hwf by by apply mk_pd_wf; vm_compute.
  assert (∀ a b, pd_adj (mk_mg [0;1;2] es) a b ↔ (a = 1 ∧ (b = 0 ∨ b = 2)) ∨ (b = 1 ∧ (a = 0 ∨ a = 2))) as Hadj.
  { intros a b. unfold pd_adj, uline, darrow. rewrite !mk_mg_mark. unfold es, dir_. set_solver. }
  split_and!; [done|vm_compute; lia|..].
  - exists ord_sorted, [{[0]}; {[1;2]}]. split_and!; [apply ord_sorted_ok|apply (bool_decide_unpack _); by vm_compute|].
    intros (_ & _ & _ & H). specialize (H {[0]} 0 ltac:(set_solver) ltac:(set_solver) 1).
    assert (1 ∈ ({[0]} : nset)) as H1; [|set_solver].
    apply H. split_and!; [by apply mk_mg_nodes; set_solver..|]. apply rtc_once. split; [apply Hadj; lia|].
    apply mk_mg_nodes; set_solver.
  - exists (λ k S, if decide (1 ∈ S) then 1 :: elements (S ∖ {[1]}) else elements S), [{[0;1;2]}]. split_and!.
    + intros k S. destruct (decide (1 ∈ S)) as [H|H]; [|done].
      apply NoDup_Permutation; [constructor; [rewrite elem_of_elements; set_solver +|apply NoDup_elements]|apply NoDup_elements|].
      intros x. rewrite elem_of_cons, !elem_of_elements, elem_of_difference, elem_of_singleton.
      destruct (decide (x = 1)); naive_solver.
    + apply (bool_decide_unpack _). by vm_compute.
    + assert (∀ v, v ∈ mnodes (mk_mg [0;1;2] es) ↔ v = 0 ∨ v = 1 ∨ v = 2) as Hn.
      { intros v. rewrite mk_mg_nodes. set_solver +. }
      split_and!.
      * intros v. rewrite Hn. setoid_rewrite elem_of_list_singleton. split; [|intros (B & -> & Hv); set_solver +Hv].
        intros Hv. eexists. split; [done|]. set_solver +Hv.
      * intros i j B C v [-> <-]%list_lookup_singleton_Some [-> <-]%list_lookup_singleton_Some. done.
      * intros B ->%elem_of_list_singleton. set_solver +.
      * intros B a ->%elem_of_list_singleton Ha b.
        assert (∀ v, v ∈ ({[0;1;2]} : nset) ↔ v = 0 ∨ v = 1 ∨ v = 2) as Hset by set_solver +.
        rewrite Hset in *. split.
        -- intros Hb. split_and!; [by apply Hn..|].
           assert (∀ u v, (u = 0 ∨ u = 1 ∨ u = 2) → (v = 0 ∨ v = 1 ∨ v = 2) → u ≠ v → (u = 1 ∨ v = 1) →
             rtc (λ u v, pd_adj (mk_mg [0;1;2] es) u v ∧ v ∈ mnodes (mk_mg [0;1;2] es)) u v) as Hstep.
           { intros u v Hu Hv Hne H1. apply rtc_once. split; [apply Hadj; lia|by apply Hn]. }
           destruct (decide (a = b)) as [->|Hab]; [done|].
           transitivity 1; [destruct (decide (a = 1)) as [->|]; [done|apply Hstep; lia]|].
           destruct (decide (b = 1)) as [->|]; [done|apply Hstep; lia].
        -- intros (_ & Hb & _). by apply Hn.
Qed.

Lemma tc_first {A} (R : relation A) x y : tc R x y → ∃ z, R x z ∧ rtc R z y.
Proof. induction 1 as [x y H|x y z H Ht IH]; [eauto using rtc_refl|]. eauto using tc_rtc. Qed.

(** C17 *)
Lemma rule_4_unsound : ∃ g d, pd_wf g ∧ extends d g ∧ ∀ o, iter_ok o →
  returns (rule_4 o (mnodes g) g) (λ r, ∃ x y, uline g x y ∧ darrow r.1 x y ∧ edge d y x).
Proof.
  set (es := dir_ 0 1 ++ dir_ 1 2 ++ dir_ 0 2 ++ und_ 3 0 ++ und_ 3 1 ++ und_ 3 2).
  set (des := [(0,1);(1,2);(0,2);(0,3);(1,3);(2,3)]).
  exists (mk_mg [0;1;2;3] es), (mk_graph [0;1;2;3] des).
  assert (pd_wf (mk_mg [0;1;2;3] es)) as Hwf by by apply mk_pd_wf; vm_compute.
  split_and!; [done| |].
  { apply mk_extends; [by vm_compute|]. apply mk_graph_acyclic; vm_compute; reflexivity. }
  intros o Ho. eapply returns_mono; [by apply rule_4_spec|]. cbn beta.
  set (g := mk_mg [0;1;2;3] es) in *.
  assert (uline g 3 2) as Hu by (apply mk_mg_mark; unfold es; set_solver +).
  intros r [[_ Ht]|[-> Hno]].
  - exists 3, 2. split_and!; [done| |apply mk_graph_edge; unfold des; set_solver +].
    assert (∃ h, ostep r4_pattern (mnodes g) g h ∧ rtc (ostep r4_pattern (mnodes g)) h r.1) as (h & Hs & Hr).
    { by apply tc_first. }
    destruct Hs as (x & y & _ & Hxy & (w & z & Hwz & Hzy & Hzx & Hwx) & ->).
    assert (∀ a b, darrow g a b ↔ (a = 0 ∧ b = 1) ∨ (a = 1 ∧ b = 2) ∨ (a = 0 ∧ b = 2)) as HD.
    { intros a b. unfold darrow, g. rewrite mk_mg_mark. unfold es, dir_, und_. set_solver +. }
    assert (∀ a b, uline g a b ↔ (a = 3 ∧ b < 3) ∨ (b = 3 ∧ a < 3)) as HU.
    { intros a b. unfold uline, g. rewrite mk_mg_mark. unfold es, dir_, und_. simpl. rewrite !elem_of_cons, elem_of_nil.
      split; [intros; destruct_or?; simplify_eq; lia|]. intros [[-> Hb]|[-> Ha]].
      - destruct b as [|[|[|b]]]; [tauto..|lia].
      - destruct a as [|[|[|a]]]; [tauto..|lia]. }
    rewrite HD in Hwz, Hzy. rewrite HU in Hxy, Hwx.
    assert (x = 3 ∧ y = 2) as [-> ->] by lia.
    assert (darrow (orient_edge g 3 2) 3 2) as Hd by (apply orient_darrow; auto).
    clear -Hd Hr. induction Hr as [|h h1 h2 (x & y & _ & _ & _ & ->) _ IH]; [done|]. apply IH. apply orient_darrow. auto.
  - exfalso. apply (Hno 3 2); [apply mk_mg_nodes; set_solver +|done|].
    exists 0, 1. unfold pd_adj, uline, darrow, g. rewrite !mk_mg_mark. unfold es. set_solver +.
Qed.

(** C21 *)
Lemma bidirected_to_undirected o g ns : iter_ok o → pd_wf g →
  let V := default (mnodes g) ns in let g' := convert_bidirected_to_undirected o g ns in
  pd_wf g' ∧ pd_same_skeleton g g' ∧
  (∀ a b, a ∈ V → b ∈ V → ¬ (darrow g' a b ∧ darrow g' b a)) ∧
  (∀ a b, ¬ (a ∈ V ∧ b ∈ V ∧ darrow g a b ∧ darrow g b a) →
     (darrow g' a b ↔ darrow g a b) ∧ (uline g' a b ↔ uline g a b)).
Proof.
  intros Ho Hwf. cbn zeta. destruct (convert_bidirected_spec o Ho g ns) as (H1 & H2 & H3).
  set (g' := convert_bidirected_to_undirected o g ns) in *. set (V := default (mnodes g) ns) in *.
  split_and!.
  - split.
    + intros a b. rewrite H1, H2. intros [? _]. by apply (pdw_dir _ Hwf).
    + intros a b. rewrite H1, H3. intros [?|(_ & _ & _ & ? & _)]; [by apply (pdw_und _ Hwf)|by apply (pdw_dir _ Hwf)].
    + intros a b. rewrite !H3. intros [?|(? & ? & ? & ? & ?)]; [left; by apply (pdw_sym _ Hwf)|right]. by split_and!.
    + intros a b. rewrite H2, H3. intros [Hu|Hd] [? ?]; [by apply (pdw_one _ Hwf) in Hu|tauto].
  - split; [done|]. intros a b. unfold pd_adj. rewrite !H2, !H3.
    destruct (darrow_dec g a b) as [Hab|Hab], (darrow_dec g b a) as [Hba|Hba]; [|tauto..].
    pose proof (pdw_dir _ Hwf _ _ Hab) as (_ & _ & Hne). split; [|tauto]. intros _.
    destruct (decide (a ∈ V)), (decide (b ∈ V)); tauto.
  - intros a b Ha Hb. rewrite !H2. intros [[Hab Hn] [Hba _]]. apply Hn. split_and!; [done..| |done|done].
    by apply (pdw_dir _ Hwf) in Hab as (_ & _ & ?).
  - intros a b Hn. rewrite H2, H3. tauto.
Qed.

Lemma to_undirected o g ns : iter_ok o → pd_wf g →
  let V := default (mnodes g) ns in let g' := convert_to_undirected o g ns in
  pd_wf g' ∧ pd_same_skeleton g g' ∧
  (∀ a b, a ∈ V → b ∈ V → ¬ darrow g' a b) ∧
  (∀ a b, ¬ (a ∈ V ∧ b ∈ V) → (darrow g' a b ↔ darrow g a b) ∧ (uline g' a b ↔ uline g a b)).
Proof.
  intros Ho Hwf. cbn zeta. destruct (convert_undirected_spec o Ho g ns) as (H1 & H2 & H3).
  set (g' := convert_to_undirected o g ns) in *. set (V := default (mnodes g) ns) in *.
  split_and!.
  - split.
    + intros a b. rewrite H1, H2. intros [? _]. by apply (pdw_dir _ Hwf).
    + intros a b. rewrite H1, H3. intros [?|(_ & _ & Hne & [Hd|Hd])].
      * by apply (pdw_und _ Hwf).
      * by apply (pdw_dir _ Hwf).
      * apply (pdw_dir _ Hwf) in Hd. tauto.
    + intros a b. rewrite !H3. intros [?|(? & ? & ? & ?)]; [left; by apply (pdw_sym _ Hwf)|right]. split_and!; try done. tauto.
    + intros a b. rewrite H2, H3. intros [Hu|Hd] [? ?]; [by apply (pdw_one _ Hwf) in Hu|tauto].
  - split; [done|]. intros a b. unfold pd_adj. rewrite !H2, !H3.
    assert (darrow g a b ∨ darrow g b a → a ≠ b) as Hne.
    { intros [H|H]; apply (pdw_dir _ Hwf) in H as (_ & _ & ?); congruence. }
    destruct (darrow_dec g a b) as [Hab|Hab], (darrow_dec g b a) as [Hba|Hba], (decide (a ∈ V)), (decide (b ∈ V)); tauto.
  - intros a b Ha Hb. rewrite H2. intros [Hab Hn]. apply Hn. split_and!; [done..| |by left].
    by apply (pdw_dir _ Hwf) in Hab as (_ & _ & ?).
  - intros a b Hn. rewrite H2, H3. tauto.
Qed.

(** two extensions of the same graph have the same skeleton and v-structures *)
Lemma extensions_equivalent g d1 d2 : extends d1 g → extends d2 g → same_skeleton d1 d2 ∧ same_v_structures d1 d2.
Proof.
  intros H1 H2.
  assert (∀ a b, adjacent d1 a b ↔ adjacent d2 a b) as Hsk.
  { intros a b. by rewrite (ext_skel _ _ H1), (ext_skel _ _ H2). }
  split; [split; [by rewrite (ext_nodes _ _ H1), (ext_nodes _ _ H2)|exact Hsk]|].
  intros a c b. unfold v_structure. split; intros Hv; pose proof Hv as (_ & _ & Hne & Hna).
  - destruct (ext_vstr _ _ H1 _ _ _ Hv). split_and!; [by apply (ext_dir _ _ H2)..|done|by rewrite <-Hsk].
  - destruct (ext_vstr _ _ H2 _ _ _ Hv). split_and!; [by apply (ext_dir _ _ H1)..|done|by rewrite Hsk].
Qed.
