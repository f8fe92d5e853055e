(** ICD: iterations with growing conditioning sets. *)
From Verif Require Import Base BaseLemmas Paths ModelGraph Spec ModelMixed SpecMixed ProofMixed ProofMixed2 ProofPDAG ProofPDAG2 ProofPDAG3
  ModelPC SpecPC ProofPC ModelPAG SpecPAG ProofPAG ProofPAG2 ProofPAGR ProofPAGR2 ProofPAGU ProofPAGX
  ModelPDS SpecPDS ProofPDS ProofPDS2 ProofPDS3 ProofPDS4 ProofPDS5 ModelFCI SpecFCI ProofFCI.

Lemma path_in_nodes g a b p : mg_wf g → is_path (pd_edge g) a b p → ∀ v, v ∈ p → v ≠ a → v ∈ mnodes g.
Proof.
  intros W (Hh & _ & _ & Hl) v Hv Hne. apply elem_of_list_split in Hv as (l1 & l2 & ->). destruct (rev_case l1) as [->|(l1' & u & ->)].
  - simpl in Hh. congruence.
  - destruct (Hl l1' u v l2) as [Hadj _]; [by rewrite <-app_assoc|]. apply mg_adj_nodes in Hadj; [|done]. tauto.
Qed.

Lemma elem_sort_insert x l y : y ∈ sort_insert x l ↔ y = x ∨ y ∈ l.
Proof.
  induction l as [|z l IH]; cbn [sort_insert]; [by rewrite elem_of_list_singleton, elem_of_nil; tauto|].
  destruct (dist_le x.2 z.2); rewrite !elem_of_cons; [tauto|]. rewrite IH. tauto.
Qed.
Lemma elem_sort l y : y ∈ sort_by_dist l ↔ y ∈ l.
Proof. induction l as [|x l IH]; [done|]. cbn [sort_by_dist foldr]. rewrite elem_sort_insert, elem_of_cons. fold (sort_by_dist l). by rewrite IH. Qed.

(** ordered by distance *)
Fixpoint ascending (l : list (nset * option nat)) : Prop :=
  match l with
  | [] => True
  | x :: l => (∀ y, y ∈ l → dist_le x.2 y.2 = true) ∧ ascending l
  end.
Lemma dist_le_trans a b c : dist_le a b = true → dist_le b c = true → dist_le a c = true.
Proof. destruct a, b, c; cbn; rewrite ?bool_decide_eq_true; try done. lia. Qed.
Lemma dist_le_total a b : dist_le a b = false → dist_le b a = true.
Proof. destruct a, b; cbn; rewrite ?bool_decide_eq_false, ?bool_decide_eq_true; try done. lia. Qed.
Lemma sort_ascending l : ascending (sort_by_dist l).
Proof.
  induction l as [|x l IH]; [done|]. cbn [sort_by_dist foldr]. fold (sort_by_dist l). revert IH. generalize (sort_by_dist l). clear l.
  induction l as [|y l IH]; intros Hl; cbn [sort_insert]; [split; [intros y H; by apply elem_of_nil in H|done]|].
  destruct Hl as [H1 H2]. destruct (dist_le x.2 y.2) eqn:E.
  - split; [|done]. intros z [->|Hz]%elem_of_cons; [done|]. eapply dist_le_trans; [done|]. by apply H1.
  - split; [|by apply IH]. intros z [->|Hz]%elem_sort_insert; [by apply dist_le_total|by apply H1].
Qed.

Lemma singleton_sublist {A} (x : A) l : x ∈ l → [x] `sublist_of` l.
Proof. intros (l1 & l2 & ->)%elem_of_list_split. apply sublist_cons_l. exists l1, l2. split; [done|apply sublist_nil_l]. Qed.

Lemma any_returns_if {A} (l : list A) (f : A → res bool) (P N : A → Prop) :
  (∀ x, x ∈ l → returns (f x) (λ b, if (b : bool) then N x else P x)) →
  returns (any_ l f) (λ b, if (b : bool) then ∃ x, x ∈ l ∧ N x else ∀ x, x ∈ l → P x).
Proof.
  induction l as [|x l IH]; intros Hf; cbn [any_]; [cbn [returns]; intros x H; by apply elem_of_nil in H|].
  eapply returns_bind; [apply Hf; apply elem_of_list_here|]. cbn beta. intros [] Hx; cbv iota.
  - exists x. split; [apply elem_of_list_here|done].
  - eapply returns_mono; [apply IH; intros y Hy; apply Hf; by apply elem_of_list_further|]. cbn beta. intros [].
    + intros (y & Hy & HN). exists y. split; [by apply elem_of_list_further|done].
    + intros H y [->|Hy]%elem_of_cons; auto.
Qed.

Section ordered.
  Context (o : order) (Ho : iter_ok o).

  Lemma possible_ancestor_nodes fuel g a d : mg_wf g → a ≠ d → size (mnodes g) < fuel →
    returns (is_possible_ancestor o fuel g a d (mnodes g)) (λ b, b = true ↔ ∃ p, is_path (pd_edge g) a d p).
  Proof.
    intros W Hne Hf. eapply returns_mono; [by apply is_possible_ancestor_ok|]. cbn beta. intros b ->. split.
    - intros (p & Hp & _). by exists p.
    - intros (p & Hp). exists p. split; [done|]. by eapply path_in_nodes.
  Qed.

  Lemma cond_possible_ancestor_ok fuel g (S : nset) i j : mg_wf g → i ∉ S → j ∉ S → size (mnodes g) < fuel →
    returns (cond_possible_ancestor o fuel g S i j) (λ b, b = true ↔ ∀ z, z ∈ S → ∃ p, is_path (pd_edge g) z i p ∨ is_path (pd_edge g) z j p).
  Proof.
    intros W Hi Hj Hf. unfold cond_possible_ancestor. eapply returns_bind.
    { apply (any_returns_if _ _ (λ z, ∃ p, is_path (pd_edge g) z i p ∨ is_path (pd_edge g) z j p)
        (λ z, ¬ ∃ p, is_path (pd_edge g) z i p ∨ is_path (pd_edge g) z j p)). intros z Hz.
      rewrite iter_elem in Hz by done. eapply returns_bind; [apply possible_ancestor_nodes; [done|set_solver +Hz Hi|done]|].
      cbn beta. intros [] Hb; cbv iota.
      - cbn [returns]. destruct (proj1 Hb eq_refl) as (p & Hp). exists p. by left.
      - eapply returns_bind; [apply possible_ancestor_nodes; [done|set_solver +Hz Hj|done]|]. cbn beta. intros [] Hb'; cbn [returns negb].
        + destruct (proj1 Hb' eq_refl) as (p & Hp). exists p. by right.
        + intros (p & [Hp|Hp]); [assert (false = true) by (apply Hb; by exists p)|assert (false = true) by (apply Hb'; by exists p)]; done. }
    cbn beta. intros b Hb. cbn [returns]. destruct b; cbn [negb].
    - destruct Hb as (z & Hz & Hn). rewrite iter_elem in Hz by done. split; [done|]. intros H. by destruct Hn; apply H.
    - split; [|done]. intros _ z Hz. apply Hb. by apply iter_elem.
  Qed.

  Lemma legal_walks g V root r t X (Y : nset) : pds_tree_spec g V root r t X → 1 ≤ r → t_legal t (elements Y) →
    ∀ z, z ∈ Y → ∃ p, pds_walk g (root :: p ++ [z]) ∧ (∀ u, u ∈ p → u ∈ Y) ∧ length p < r.
  Proof.
    intros P Hr HL z Hz. destruct (HL z) as (p & Hp & Hin); [by apply elem_of_elements|]. exists p.
    destruct (pt_branch _ _ _ _ _ _ P _ Hp) as (Hw & _ & _ & Hlen). split; [done|]. split; [intros u Hu; by apply elem_of_elements, Hin|].
    rewrite app_length in Hlen. cbn [length] in Hlen. lia.
  Qed.

  Lemma tree_nodes g V root r t X : pds_tree_spec g V root r t X → ∀ v, v ∈ X → v ∈ V ∧ v ≠ root.
  Proof.
    intros P v Hv. apply (pt_nodes _ _ _ _ _ _ P) in Hv as (p & Hp). destruct (pt_branch _ _ _ _ _ _ P _ Hp) as (_ & _ & Hin & _).
    apply Hin. set_solver +.
  Qed.

  Lemma pdsep_range_sets_ok fuel g i j r : mg_wf g → i ∈ mnodes g → j ∈ mnodes g → 2 ≤ r →
    size (mnodes g) * size (mnodes g) + size (mnodes g) < fuel →
    returns (pdsep_range_sets o fuel g i j r) (λ l, ascending l ∧ ∀ c, c ∈ l → icd_sep g i j r c.1).
  Proof.
    intros W Hi Hj Hr Hf. unfold pdsep_range_sets. set (V := mnodes g) in *.
    eapply returns_bind; [apply (create_pds_tree_ok o fuel g i None (Some r)); done|]. cbn beta. intros [ti Xi] Pi.
    eapply returns_bind; [apply (create_pds_tree_ok o fuel g j None (Some r)); done|]. cbn beta. intros [tj Xj] Pj.
    cbn [fst snd default from_option] in *. unfold id in *. fold V in Pi, Pj.
    eapply returns_bind.
    { apply (for_returns _ _ _ (λ l : list (nset * option nat), ∀ c, c ∈ l → icd_sep g i j r c.1)); [intros c H; by apply elem_of_nil in H|].
      intros [Y d] l Hc IH. cbn [fst]. case_decide as Hij; [done|].
      eapply returns_bind; [apply cond_possible_ancestor_ok; [done|tauto|tauto|unfold V in Hf; lia]|]. cbn beta. intros b Hb. cbn [returns].
      destruct b; [|done]. intros c [H| ->%elem_of_list_singleton]%elem_of_app; [by apply IH|]. cbn [fst].
      apply elem_of_app in Hc as [Hc|Hc].
      - apply get_subsets_list_ok in Hc as (Hsub & Hsz & HL & _); [|done|apply Pi|apply Pi]. constructor.
        + intros z Hz. pose proof (tree_nodes _ _ _ _ _ _ Pi z (Hsub z Hz)) as [? ?]. split; [done|]. split; [done|]. intros ->. tauto.
        + done.
        + by apply Hb.
        + exists i. split; [by left|]. apply (legal_walks g V i r ti Xi Y); [done|lia|done].
      - apply get_subsets_list_ok in Hc as (Hsub & Hsz & HL & _); [|done|apply Pj|apply Pj]. constructor.
        + intros z Hz. pose proof (tree_nodes _ _ _ _ _ _ Pj z (Hsub z Hz)) as [? ?]. split; [done|]. split; [|done]. intros ->. tauto.
        + done.
        + by apply Hb.
        + exists j. split; [by right|]. apply (legal_walks g V j r tj Xj Y); [done|lia|done]. }
    cbn beta. intros l Hl. cbn [returns]. split; [apply sort_ascending|]. intros c Hc. apply Hl. by apply elem_sort.
  Qed.

  Context (ci : citest) (V : nset).

  Lemma icd_tests_ok n log0 i j cs s : ls_inv ci V s.1 → i ∈ V → j ∈ V → i ≠ j →
    (∀ c, c ∈ cs → good_cond V i j c ∧ length c = n) → asks n log0 (ls_log s.1) (negb s.2) →
    returns (icd_tests ci i j cs s) (λ r, ls_inv ci V r.1 ∧ ls_le s.1 r.1 ∧ asks n log0 (ls_log r.1) (negb r.2) ∧
      (∀ e, e ∈ ls_log s.1 → e ∈ ls_log r.1) ∧
      (mg_adj (ls_graph r.1) i j → ∀ c, c ∈ cs → (i, j, c, false) ∈ ls_log r.1)).
  Proof.
    intros I Hi Hj Hne Hcs Hask. unfold icd_tests.
    apply (for_brk_returns _ _ _ (λ pre (r : lstate * bool), ls_inv ci V r.1 ∧ ls_le s.1 r.1 ∧ asks n log0 (ls_log r.1) (negb r.2) ∧
      (∀ e, e ∈ ls_log s.1 → e ∈ ls_log r.1) ∧ ∀ c, c ∈ pre → (i, j, c, false) ∈ ls_log r.1)).
    - split; [done|]. split; [by intros a b|]. split; [done|]. split; [done|]. intros c H. by apply elem_of_nil in H.
    - intros pre c post [t f] E (It & Hle & Hat & Hlt & Hpre). cbn [fst snd] in *.
      destruct (Hcs c) as [Hg Hlen]; [rewrite E; apply elem_of_app; right; apply elem_of_list_here|].
      eapply returns_bind; [apply ls_try_ok; [exact It|exact Hi|exact Hj|exact Hne|exact Hg]|]. cbn beta.
      intros [t' b'] (It' & Hle' & b & Hl & Hb & A). cbn [fst snd returns] in *. subst b'.
      assert (ls_le s.1 t') as Hle2 by (intros a a' H; by apply Hle, Hle').
      assert (asks n log0 (ls_log t') true) as Hat'.
      { destruct Hat as (l & El & Hsz & _). exists ((i, j, c, b) :: l). rewrite Hl, El. split; [done|]. split; [|done].
        intros i' j' c' b' [H|H]%elem_of_cons; [by simplify_eq|by eapply Hsz]. }
      assert (∀ e, e ∈ ls_log s.1 → e ∈ ls_log t') as Hlt' by (intros e He; rewrite Hl; apply elem_of_list_further; auto).
      destruct b; (split; [done|]; split; [done|]; split; [done|]; split; [done|]).
      + intros Hadj. apply A in Hadj as [_ Hadj]. destruct Hadj; [done|by left].
      + intros c' [H| ->%elem_of_list_singleton]%elem_of_app; rewrite Hl; [apply elem_of_list_further; auto|apply elem_of_list_here].
    - intros r (Ir & Hle & Ha & Hl & Hpre). split; [done|]. split; [done|]. split; [done|]. split; [done|]. intros _. done.
  Qed.

  (** ** the iteration with empty conditioning sets *)
  Lemma icd_step_0_ok fuel s : ls_inv ci V s → size V * size V + 2 < fuel →
    returns (icd_step_0 o ci fuel s) (λ t, ls_inv ci V t ∧ ls_le s t ∧ (∃ q, asks 0 (ls_log s) (ls_log t) q) ∧
      ∀ a b, a ∈ V → b ∈ V → a ≠ b → ∃ q, tested (ls_log t) a b ∅ q).
  Proof.
    intros I Hf. unfold icd_step_0. eapply returns_bind.
    - apply (for_returns_pre _ _ _ (λ pre t, ls_inv ci V t ∧ ls_le s t ∧ (∃ q, asks 0 (ls_log s) (ls_log t) q) ∧
        ∀ a b, (a, b) ∈ pre → ∃ q, (a, b, [], q) ∈ ls_log t)).
      + split; [done|]. split; [by intros a b|]. split; [|intros a b H; by apply elem_of_nil in H].
        exists false. exists []. split; [done|]. split; [intros ???? H; by apply elem_of_nil in H|done].
      + intros pre [i j] post t E (It & Hle & (q & l & El & Hsz & _) & Hpre).
        assert ((i, j) ∈ comb2 (o 140 (mnodes (ls_graph s)))) as Hij by (rewrite E; set_solver +).
        rewrite (li_nodes _ _ _ I) in Hij. apply comb2_iter in Hij as (Hi & Hj & Hne); [|done].
        eapply returns_bind; [apply ls_try_ok; [exact It|exact Hi|exact Hj|exact Hne|]|].
        { split; [constructor|]. intros z H. by apply elem_of_nil in H. }
        cbn beta. intros [t' b'] (It' & Hle' & b & Hl & _). cbn [fst snd returns] in *. split; [done|].
        split; [intros a a' H; by apply Hle, Hle'|]. split.
        * exists true, ((i, j, [], b) :: l). rewrite Hl, El. split; [done|]. split; [|done].
          intros i' j' c' b'' [H|H]%elem_of_cons; [by simplify_eq|by eapply Hsz].
        * intros a b2 [H|H%elem_of_list_singleton]%elem_of_app; rewrite Hl.
          -- destruct (Hpre _ _ H) as (q' & Hq'). exists q'. by apply elem_of_list_further.
          -- simplify_eq. exists b. apply elem_of_list_here.
    - cbn beta. intros t (It & Hle & Ha & Hpre).
      eapply returns_mono; [apply (ls_orient_ok _ fuel ci V); [by apply keeps_base|done|lia]|]. cbn beta. intros t' (It' & _ & Hl & A).
      split; [done|]. split; [intros a b H; by apply Hle, A|]. split; [by rewrite Hl|]. rewrite Hl. intros a b Ha' Hb Hne.
      rewrite (li_nodes _ _ _ I) in Hpre. destruct (proj2 (comb2_iter o 140 V a b Ho) Ha' Hb Hne) as [H|H]; destruct (Hpre _ _ H) as (q & Hq).
      + exists q, []. split; [intros z; by rewrite elem_of_nil, elem_of_empty|]. by left.
      + exists q, []. split; [intros z; by rewrite elem_of_nil, elem_of_empty|]. by right.
  Qed.

  (** ** the iteration with single conditioning nodes *)
  Lemma icd_step_1_ok sb tc fuel s : ls_inv ci V s → size V * size V + 2 < fuel →
    returns (icd_step_1 o ci sb tc fuel s) (λ r, ls_inv ci V r.1 ∧ ls_le s r.1 ∧ asks 1 (ls_log s) (ls_log r.1) (negb r.2) ∧
      ∀ a b z, mg_adj (ls_graph r.1) a b → mg_adj (ls_graph r.1) z a → z ≠ b → tested (ls_log r.1) a b {[z]} false).
  Proof.
    intros I Hf. unfold icd_step_1. rewrite (li_nodes _ _ _ I).
    set (one := λ (t : lstate) a b, ∀ z, mg_adj (ls_graph t) a b → mg_adj (ls_graph t) z a ∨ mg_adj (ls_graph t) z b → z ≠ a → z ≠ b → tested (ls_log t) a b {[z]} false).
    eapply returns_bind.
    - apply (for_returns_pre _ _ _ (λ pre (r : lstate * bool), ls_inv ci V r.1 ∧ ls_le s r.1 ∧ asks 1 (ls_log s) (ls_log r.1) (negb r.2) ∧
        ∀ a b, (a, b) ∈ pre → one r.1 a b)).
      + cbn [fst snd]. split; [done|]. split; [by intros a b|]. split; [|intros a b H; by apply elem_of_nil in H].
        exists []. split; [done|]. split; [intros ???? H; by apply elem_of_nil in H|done].
      + intros pre [i j] post r E (Ir & Hle & Ha & Hpre).
        assert ((i, j) ∈ comb2 (o 161 V)) as Hij by (rewrite E; set_solver +).
        apply comb2_iter in Hij as (Hi & Hj & Hne); [|done].
        eapply returns_bind; [apply m_is_connected_pag; [apply Ir|done]|]. cbn beta. intros b Hb.
        assert (∀ r', ls_le r.1 r' → (∀ e, e ∈ ls_log r.1 → e ∈ ls_log r') → ∀ a b, one r.1 a b → one r' a b) as Hmono.
        { intros r' H1 H2 a a' H z Haa Hz Hza Hza'. eapply tested_mono; [exact H2|]. apply H; [by apply H1| |done|done]. destruct Hz; [left|right]; by apply H1. }
        destruct b; cbn [negb]; cbv iota.
        * set (ui := find_adj PAG_T (ls_graph r.1) i None None ∖ {[j]}). set (uj := find_adj PAG_T (ls_graph r.1) j None None ∖ {[i]}).
          assert (∀ z, z ∈ ui ↔ mg_adj (ls_graph r.1) z i ∧ z ≠ j) as Hui.
          { intros z. unfold ui. rewrite elem_of_difference, elem_of_singleton, elem_find_adj_pag. tauto. }
          assert (∀ z, z ∈ uj ↔ mg_adj (ls_graph r.1) z j ∧ z ≠ i) as Huj.
          { intros z. unfold uj. rewrite elem_of_difference, elem_of_singleton, elem_find_adj_pag. tauto. }
          eapply returns_mono; [apply (icd_tests_ok 1 (ls_log s)); [done|done|done|done| |done]|].
          -- intros c Hc. apply elem_uniq, elem_of_app in Hc.
             assert (NoDup c ∧ length c = 1 ∧ ∀ z, z ∈ c → z ∈ ui ∨ z ∈ uj) as (H1 & H2 & H3).
             { destruct Hc as [Hc|Hc]; apply combs_elem in Hc as (? & ? & Hz); try done; (split; [done|]; split; [done|]; auto). }
             split; [|done]. split; [done|]. intros z Hz. destruct (H3 z Hz) as [Hz'|Hz'].
             ++ apply Hui in Hz' as [Hz' ?]. apply mg_adj_nodes in Hz' as (? & _ & ?); [|apply Ir]. rewrite (li_nodes _ _ _ Ir) in *. done.
             ++ apply Huj in Hz' as [Hz' ?]. apply mg_adj_nodes in Hz' as (? & _ & ?); [|apply Ir]. rewrite (li_nodes _ _ _ Ir) in *. done.
          -- cbn beta. intros r' (Ir' & Hle' & Ha' & Hl' & Hall). split; [done|]. split; [intros a a' H; by apply Hle, Hle'|]. split; [done|].
             intros a a' [H|H%elem_of_list_singleton]%elem_of_app; [by apply (Hmono r'.1 Hle' Hl'), Hpre|]. simplify_eq.
             intros z Haa Hz Hza Hza'. exists [z]. split; [intros u; by rewrite elem_of_list_singleton, elem_of_singleton|]. left. apply Hall; [done|].
             apply elem_uniq, elem_of_app. destruct Hz as [Hz|Hz]; [left|right]; apply elem_of_combs.
             ++ split; [|done]. apply singleton_sublist, iter_elem; [done|]. apply Hui. split; [by apply Hle'|done].
             ++ split; [|done]. apply singleton_sublist, iter_elem; [done|]. apply Huj. split; [by apply Hle'|done].
        * cbn [returns]. split; [done|]. split; [done|]. split; [done|]. intros a a' [H|H%elem_of_list_singleton]%elem_of_app; [by apply Hpre|].
          simplify_eq. intros z Haa. by apply Hb in Haa.
    - cbn beta. intros [t d] (It & Hle & Ha & Hpre). cbn [fst snd] in *. eapply returns_bind.
      { apply (ls_orient_ok _ fuel ci V); [|done|lia]. apply (keeps_seq (orient_anew o fuel) (orient_rest o sb tc fuel)); [by apply keeps_anew|by apply keeps_rest]. }
      cbn beta. intros t' (It' & _ & Hl & A). cbn [returns fst snd]. split; [done|]. split; [intros a b H; by apply Hle, A|].
      split; [by rewrite Hl|]. intros a b z Hab Hza Hzb. rewrite Hl. rewrite A in Hab, Hza.
      pose proof (mg_adj_nodes _ _ _ (li_wf _ _ _ It) Hab) as (HaV & HbV & Hne). rewrite (li_nodes _ _ _ It) in *.
      assert (z ≠ a) as Hza' by (intros ->; by eapply mg_adj_irr; [apply (li_wf _ _ _ It)|]).
      destruct (proj2 (comb2_iter o 161 V a b Ho) HaV HbV Hne) as [H|H].
      + apply (Hpre _ _ H); auto.
      + apply tested_sym. apply (Hpre _ _ H); auto. apply mg_adj_sym; [apply It|done].
  Qed.

  (** ** the general iteration *)
  Definition good_sets (r : nat) (i j : node) (l : list (nset * option nat)) : Prop :=
    ∀ c, c ∈ l → size c.1 = r ∧ ∀ z, z ∈ c.1 → z ∈ V ∧ z ≠ i ∧ z ≠ j.

  Lemma range_good fuel g i j r : mg_wf g → mnodes g = V → i ∈ V → j ∈ V → 2 ≤ r → size V * size V + size V < fuel →
    returns (pdsep_range_sets o fuel g i j r) (good_sets r i j).
  Proof.
    intros W N Hi Hj Hr Hf. rewrite <-N in *. eapply returns_mono; [by apply pdsep_range_sets_ok|]. cbn beta. intros l [_ Hl] c Hc. destruct (Hl c Hc) as [H1 H2 _ _]. split; [done|]. by rewrite <-N.
  Qed.

  Lemma pre_calc_ok fuel g r m : mg_wf g → mnodes g = V → 2 ≤ r → size V * size V + size V < fuel →
    returns (pre_calc o fuel g r m) (λ m', ∀ i j, mg_adj g i j → ∃ l, m' !! hkey i j = Some l ∧ good_sets r i j l).
  Proof.
    intros W N Hr Hf. unfold pre_calc. rewrite N. eapply returns_mono.
    - apply (for_returns_pre _ _ _ (λ pre (m' : gmap (nat * nat) (list (nset * option nat))), ∀ i j, (i, j) ∈ pre → mg_adj g i j →
        ∃ l, m' !! hkey i j = Some l ∧ good_sets r i j l)).
      + intros i j H. by apply elem_of_nil in H.
      + intros pre [i j] post m' E Hpre. pose proof (comb2_iter o 80 V i j Ho) as [Hij _].
        destruct Hij as (Hi & Hj & Hne); [rewrite E; set_solver +|].
        eapply returns_bind; [by apply m_is_connected_pag|]. cbn beta. intros b Hb. destruct b; cbn [negb]; cbv iota.
        * eapply returns_bind; [by apply range_good|]. cbn beta. intros l Hl. cbn [returns]. intros a a' Ha Hadj.
          destruct (decide (hkey i j = hkey a a')) as [Hk|Hk].
          -- rewrite Hk, lookup_insert. exists l. split; [done|]. apply hkey_eq in Hk as [[-> ->]|[-> ->]]; [done|].
             intros c Hc. destruct (Hl c Hc) as [? H]. split; [done|]. intros z Hz. destruct (H z Hz) as (? & ? & ?). done.
          -- rewrite lookup_insert_ne by done. apply Hpre; [|done]. apply elem_of_app in Ha as [?|Ha%elem_of_list_singleton]; [done|]. by simplify_eq.
        * cbn [returns]. intros a a' [H|H%elem_of_list_singleton]%elem_of_app Hadj; [by apply Hpre|]. simplify_eq. by apply Hb in Hadj.
    - cbn beta. intros m' H i j Hadj. pose proof (mg_adj_nodes _ _ _ W Hadj) as (Hi & Hj & Hne). rewrite N in *.
      destruct (proj2 (comb2_iter o 80 V i j Ho) Hi Hj Hne) as [Hij|Hij]; [by apply H|].
      destruct (H j i Hij) as (l & El & Hl); [by apply mg_adj_sym|]. exists l. rewrite hkey_comm. split; [done|].
      intros c Hc. destruct (Hl c Hc) as [? Hz]. split; [done|]. intros z Hz'. destruct (Hz z Hz') as (? & ? & ?). done.
  Qed.

  Lemma icd_step_ok sb tc fuel precalc r m s : ls_inv ci V s → 2 ≤ r → size V * size V + size V + 2 < fuel →
    (precalc = true → ∀ i j, mg_adj (ls_graph s) i j → ∃ l, m !! hkey i j = Some l ∧ good_sets r i j l) →
    returns (icd_step o ci sb tc fuel precalc r m s) (λ t, ls_inv ci V t.1 ∧ ls_le s t.1 ∧ asks r (ls_log s) (ls_log t.1) (negb t.2)).
  Proof.
    intros I Hr Hf Hm. unfold icd_step. rewrite (li_nodes _ _ _ I). eapply returns_bind.
    - apply (for_returns _ _ _ (λ r' : lstate * bool, ls_inv ci V r'.1 ∧ ls_le s r'.1 ∧ asks r (ls_log s) (ls_log r'.1) (negb r'.2))).
      + cbn [fst snd]. split; [done|]. split; [by intros a b|]. exists []. split; [done|]. split; [intros ???? H; by apply elem_of_nil in H|done].
      + intros [i j] r' Hij (Ir & Hle & Ha). apply comb2_iter in Hij as (Hi & Hj & Hne); [|done].
        eapply returns_bind; [apply m_is_connected_pag; [apply Ir|done]|]. cbn beta. intros b Hb. destruct b; cbn [negb]; cbv iota; [|done].
        eapply returns_bind.
        { instantiate (1 := good_sets r i j). destruct precalc; [|apply range_good; [apply Ir|apply Ir|done|done|done|lia]].
          destruct (Hm eq_refl i j) as (l & El & Hl); [by apply Hle, Hb|]. by rewrite El. }
        cbn beta. intros cs Hcs. eapply returns_mono; [apply (icd_tests_ok r (ls_log s)); [done|done|done|done| |done]|].
        * intros c (x & -> & Hx)%elem_of_list_fmap. destruct (Hcs x Hx) as [Hs Hz].
          split; [|by rewrite iter_length]. split; [by apply iter_nodup|]. intros z Hz'. apply Hz. by apply (iter_elem o 109 _ _ Ho).
        * cbn beta. intros t (It & Hle' & Ha' & _). split; [done|]. split; [|done]. intros a a' H. by apply Hle, Hle'.
    - cbn beta. intros [t d] (It & Hle & Ha). cbn [fst snd] in *. eapply returns_bind.
      { apply (ls_orient_ok _ fuel ci V); [|done|lia]. destruct d; [by apply keeps_rest|by apply keeps_anew]. }
      cbn beta. intros t' (It' & _ & Hl & A). cbn [returns fst snd]. split; [done|]. split; [intros a b H; by apply Hle, A|]. by rewrite Hl.
  Qed.

  (** ** whole iterations *)
  Definition low_order (r : nat) (s : lstate) : Prop :=
    (0 < r → ∀ a b, a ∈ V → b ∈ V → a ≠ b → ∃ q, tested (ls_log s) a b ∅ q) ∧
    (1 < r → ∀ a b z, mg_adj (ls_graph s) a b → mg_adj (ls_graph s) z a → z ≠ b → tested (ls_log s) a b {[z]} false).

  Lemma asks_sub n log log' q : asks n log log' q → ∀ e, e ∈ log → e ∈ log'.
  Proof. intros (l & -> & _) e He. apply elem_of_app. by right. Qed.
  Lemma low_order_mono r s t : ls_le s t → (∀ e, e ∈ ls_log s → e ∈ ls_log t) → low_order r s → low_order r t.
  Proof.
    intros Hle Hl [H0 H1]. split.
    - intros Hr a b Ha Hb Hne. destruct (H0 Hr a b Ha Hb Hne) as (q & Hq). exists q. by eapply tested_mono.
    - intros Hr a b z Hab Hz Hzb. eapply tested_mono; [done|]. apply H1; [done|by apply Hle..|done].
  Qed.
  Lemma low_order_more r r' s : 1 < r → low_order r s → low_order r' s.
  Proof. intros Hr [H0 H1]. split; intros _; [apply H0|apply H1]; lia. Qed.

  Lemma icd_iteration_ok sb tc fuel precalc s : ic_done s = false → ls_inv ci V (ic_ls s) → low_order (ic_size s) (ic_ls s) →
    size V * size V + size V + 2 < fuel →
    returns (icd_iteration o ci sb tc fuel precalc s) (λ r, ls_inv ci V (ic_ls r.1) ∧ ls_le (ic_ls s) (ic_ls r.1) ∧
      low_order (ic_size r.1) (ic_ls r.1) ∧ ic_size r.1 = S (ic_size s) ∧ r.2 = (ic_done r.1, ic_size s) ∧
      ∃ q, asks (ic_size s) (ls_log (ic_ls s)) (ls_log (ic_ls r.1)) q ∧ (ic_size s = 0 → ic_done r.1 = false) ∧ (0 < ic_size s → q = negb (ic_done r.1))).
  Proof.
    intros Hd I Hlow Hf. unfold icd_iteration. rewrite Hd. destruct (ic_size s) as [|[|r]] eqn:Er.
    - eapply returns_bind; [eapply returns_bind; [apply icd_step_0_ok; [done|lia]|]|].
      + cbn beta. intros t Ht. cbn [returns]. instantiate (1 := λ r, ic_done r = false ∧ ls_inv ci V (ic_ls r) ∧ ls_le (ic_ls s) (ic_ls r) ∧ (∃ q, asks 0 (ls_log (ic_ls s)) (ls_log (ic_ls r)) q) ∧
          ∀ a b, a ∈ V → b ∈ V → a ≠ b → ∃ q, tested (ls_log (ic_ls r)) a b ∅ q). cbn [ic_done ic_ls]. split; [done|exact Ht].
      + cbn beta. intros r (Hdr & Ir & Hle & (q & Hq) & H0). cbn [returns fst snd ic_ls ic_size ic_done].
        split; [done|]. split; [done|]. split; [split; [done|lia]|]. split; [done|]. split; [done|]. exists q. split; [done|]. split; [done|lia].
    - eapply returns_bind; [eapply returns_bind; [apply (icd_step_1_ok sb tc); [done|lia]|]|].
      + cbn beta. intros t Ht. cbn [returns]. instantiate (1 := λ r, ls_inv ci V (ic_ls r) ∧ ls_le (ic_ls s) (ic_ls r) ∧ asks 1 (ls_log (ic_ls s)) (ls_log (ic_ls r)) (negb (ic_done r)) ∧
          ∀ a b z, mg_adj (ls_graph (ic_ls r)) a b → mg_adj (ls_graph (ic_ls r)) z a → z ≠ b → tested (ls_log (ic_ls r)) a b {[z]} false). exact Ht.
      + cbn beta. intros r (Ir & Hle & Ha & H1). cbn [returns fst snd ic_ls ic_size ic_done] in *. split; [done|]. split; [done|]. split.
        { split; [|done]. intros _. apply (low_order_mono 1 (ic_ls s)); [done|by eapply asks_sub|done|lia]. }
        split; [done|]. split; [done|]. exists (negb (ic_done r)). split; [done|]. split; [lia|done].
    - eapply returns_bind; [eapply returns_bind|].
      + instantiate (1 := λ m, precalc = true → ∀ i j, mg_adj (ls_graph (ic_ls s)) i j → ∃ l, m !! hkey i j = Some l ∧ good_sets (S (S r)) i j l).
        destruct precalc; [|done]. eapply returns_mono; [apply pre_calc_ok; [apply I|apply I|lia|lia]|]. cbn beta. intros m Hm _. exact Hm.
      + cbn beta. intros m Hm. eapply returns_bind; [apply (icd_step_ok sb tc fuel precalc (S (S r)) m); [done|lia|done|done]|].
        cbn beta. intros t Ht. cbn [returns]. instantiate (1 := λ t, ls_inv ci V (ic_ls t) ∧ ls_le (ic_ls s) (ic_ls t) ∧ asks (S (S r)) (ls_log (ic_ls s)) (ls_log (ic_ls t)) (negb (ic_done t))). exact Ht.
      + cbn beta. intros t (It & Hle & Ha). cbn [returns fst snd ic_ls ic_size ic_done] in *. split; [done|]. split; [done|]. split.
        { apply (low_order_more (S (S r))); [lia|]. eapply low_order_mono; [done|by eapply asks_sub|done]. }
        split; [done|]. split; [done|]. exists (negb (ic_done t)). split; [done|]. split; [lia|done].
  Qed.
End ordered.
