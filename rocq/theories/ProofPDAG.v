(** Proofs about PDAG: orientation rules. *)
From Verif Require Import Base BaseLemmas ModelGraph Spec ModelMixed SpecMixed Paths ProofGraph ProofDsep ProofGraph2.

(** ** basic updates *)
Lemma elem_mupd g n k s m j a :
  a ∈ mset (mupd g n k s) m j ↔ (m = n ∧ j = k ∧ a ∈ s) ∨ (¬ (m = n ∧ j = k) ∧ a ∈ mset g m j).
Proof. simpl. destruct (decide (m = n ∧ j = k)); naive_solver. Qed.

Lemma elem_madd g n k x m j a :
  a ∈ mset (madd g n k x) m j ↔ a ∈ mset g m j ∨ (m = n ∧ j = k ∧ a = x).
Proof.
  unfold madd. rewrite elem_mupd, elem_of_union, elem_of_singleton.
  destruct (decide (m = n)), (decide (j = k)); naive_solver.
Qed.

Lemma elem_mdis g n k x m j a :
  a ∈ mset (mdis g n k x) m j ↔ a ∈ mset g m j ∧ ¬ (m = n ∧ j = k ∧ a = x).
Proof.
  unfold mdis. rewrite elem_mupd, elem_of_difference, elem_of_singleton.
  destruct (decide (m = n)), (decide (j = k)); naive_solver.
Qed.

Lemma orient_darrow g s t a b : darrow (orient_edge g s t) a b ↔ darrow g a b ∨ (a = s ∧ b = t).
Proof.
  unfold darrow, has_mark, orient_edge. rewrite !elem_mdis, elem_madd. split; [naive_solver|].
  intros H. split_and!; [naive_solver|..]; by intros (_ & ? & _).
Qed.

Lemma orient_uline g s t a b :
  uline (orient_edge g s t) a b ↔ uline g a b ∧ ¬ (a = s ∧ b = t) ∧ ¬ (a = t ∧ b = s).
Proof.
  unfold uline, has_mark, orient_edge. rewrite !elem_mdis, elem_madd. split.
  - intros [[[?|(_ & ? & _)] H1] H2]; [|done]. split_and!; naive_solver.
  - intros (? & H1 & H2). split_and!; [by left|naive_solver..].
Qed.

Lemma orient_nodes g s t : mnodes (orient_edge g s t) = mnodes g.
Proof. done. Qed.

Lemma pd_adj_sym g a b : pd_wf g → pd_adj g a b → pd_adj g b a.
Proof. intros Hwf [?|?]; [left; by apply (pdw_sym _ Hwf)|right; tauto]. Qed.

Lemma pd_adj_ne g a b : pd_wf g → pd_adj g a b → a ≠ b.
Proof.
  intros Hwf [H|[H|H]].
  - by apply (pdw_und _ Hwf) in H as (_ & _ & ?).
  - by apply (pdw_dir _ Hwf) in H as (_ & _ & ?).
  - apply (pdw_dir _ Hwf) in H as (_ & _ & ?). congruence.
Qed.

Lemma orient_pd_adj g s t a b : pd_wf g → uline g s t →
  pd_adj (orient_edge g s t) a b ↔ pd_adj g a b.
Proof.
  intros Hwf Hst. unfold pd_adj. rewrite !orient_darrow, orient_uline.
  pose proof (pdw_sym _ Hwf _ _ Hst). split.
  - intros [?|[[?|[-> ->]]|[?|[-> ->]]]]; naive_solver.
  - intros [?|?]; [|naive_solver].
    destruct (decide (a = s ∧ b = t)), (decide (a = t ∧ b = s)); naive_solver.
Qed.

Lemma orient_wf g s t : pd_wf g → uline g s t → pd_wf (orient_edge g s t).
Proof.
  intros Hwf Hst. split.
  - intros a b. rewrite orient_darrow, orient_nodes. intros [?|[-> ->]]; [by apply (pdw_dir _ Hwf)|].
    by apply (pdw_und _ Hwf).
  - intros a b. rewrite orient_uline, orient_nodes. intros (? & _). by apply (pdw_und _ Hwf).
  - intros a b. rewrite !orient_uline. intros (? & ? & ?). split_and!; [by apply (pdw_sym _ Hwf)|tauto|tauto].
  - intros a b. rewrite orient_uline, orient_darrow. intros (Hab & ? & ?) [?|?]; [|tauto].
    by apply (pdw_one _ Hwf) in Hab.
Qed.

Lemma m_is_connected_pd g a b : pd_wf g → a ≠ b →
  returns (m_is_connected PDAG_T g a b) (λ r, r = true ↔ pd_adj g a b).
Proof.
  intros Hwf Hne. unfold m_is_connected. rewrite bool_decide_true by done. simpl.
  unfold connected, is_any_mark. simpl. rewrite !orb_false_r, !orb_true_iff, !bool_decide_eq_true.
  unfold pd_adj, uline, darrow, has_mark.
  assert (b ∈ mset g a Tail → a ∈ mset g b Tail) by apply (pdw_sym _ Hwf). tauto.
Qed.

(** ** the generic double loop of the four rules *)
Section rules.
  Context (o : order) (Ho : iter_ok o).

  (** one orientation justified by pattern P at a node of V *)
  Definition ostep (P : mgraph → node → node → Prop) (V : nset) (g g' : mgraph) : Prop :=
    ∃ x y, y ∈ V ∧ uline g x y ∧ P g x y ∧ g' = orient_edge g x y.

  Lemma ostep_wf P V g g' : pd_wf g → ostep P V g g' → pd_wf g'.
  Proof. intros Hwf (x & y & _ & Hu & _ & ->). by apply orient_wf. Qed.
  Lemma osteps_wf P V g g' : pd_wf g → rtc (ostep P V) g g' → pd_wf g'.
  Proof. intros Hwf. induction 1; [done|]. eauto using ostep_wf. Qed.

  Definition rule_post (P : mgraph → node → node → Prop) (V : nset) (g : mgraph) (r : mgraph * bool) : Prop :=
    (r.2 = true ∧ tc (ostep P V) g r.1) ∨
    (r = (g, false) ∧ ∀ x y, y ∈ V → uline g x y → ¬ P g x y).

  Lemma rule_generic (P : mgraph → node → node → Prop) (k1 k2 : nat) (en : nset) (g : mgraph)
      (inner : node → node → mgraph * bool → res (mgraph * bool)) :
    pd_wf g →
    (∀ x y s, pd_wf s.1 → uline s.1 x y →
      returns (inner y x s) (λ s', (P s.1 x y ∧ s' = (orient_edge s.1 x y, true)) ∨ (s' = s ∧ ¬ P s.1 x y))) →
    returns (for_ (o k1 en) (λ y s, for_ (o k2 (und s.1 y)) (λ x s, inner y x s) s) (g, false))
      (rule_post P en g).
  Proof.
    intros Hwf Hin. eapply returns_mono.
    - apply (for_returns_pre _ _ _ (λ pre s,
        (s.2 = true ∧ tc (ostep P en) g s.1) ∨
        (s = (g, false) ∧ ∀ x y, y ∈ pre → uline g x y → ¬ P g x y))).
      + right. split; [done|]. intros x y Hy. by apply elem_of_nil in Hy.
      + intros pre y post s0 Hl HI.
        assert (y ∈ en) as Hy.
        { assert (y ∈ o k1 en) as Hy by (rewrite Hl; set_solver). by rewrite iter_elem in Hy. }
        assert (pd_wf s0.1) as Hwf0.
        { destruct HI as [[_ Ht]|[-> _]]; [|done]. eapply osteps_wf; [exact Hwf|]. by apply tc_rtc in Ht. }
        pose proof (iter_nodup o k2 (und s0.1 y) Ho) as Hnd2.
        eapply returns_mono.
        * apply (for_returns_pre _ _ _ (λ pre2 s, pd_wf s.1 ∧
            (∀ x, x ∈ o k2 (und s0.1 y) → x ∉ pre2 → uline s.1 x y) ∧
            ((s.2 = true ∧ tc (ostep P en) g s.1) ∨
             (s = s0 ∧ s0 = (g, false) ∧ (∀ x y, y ∈ pre → uline g x y → ¬ P g x y) ∧
              ∀ x, x ∈ pre2 → ¬ P g x y)))).
          -- split_and!; [done| |].
             ++ intros x Hx _. by rewrite iter_elem in Hx.
             ++ destruct HI as [?|[-> ?]]; [by left|right]. split_and!; [done..|].
                intros x Hx. by apply elem_of_nil in Hx.
          -- intros pre2 x post2 s Hl2 (Hws & Hrest & HI2).
             rewrite Hl2 in Hnd2. apply NoDup_app in Hnd2 as (_ & Hx1 & Hnd2).
             apply NoDup_cons in Hnd2 as [Hx2 _].
             assert (uline s.1 x y) as Hu.
             { apply Hrest; [rewrite Hl2; set_solver|]. intros Hx. apply (Hx1 x Hx). by left. }
             eapply returns_mono; [by apply Hin|]. cbn. intros s' [[HP ->]|[-> HP]].
             ++ simpl. split_and!.
                ** by apply orient_wf.
                ** intros x' Hx' Hnp. apply orient_uline.
                   rewrite elem_of_app, elem_of_list_singleton in Hnp.
                   split_and!; [apply Hrest; [done|tauto]|tauto|].
                   intros [-> ->]. destruct (pdw_und _ Hws x x Hu) as (_ & _ & ?). done.
                ** left. split; [done|].
                   assert (ostep P en s.1 (orient_edge s.1 x y)) as Hst by (exists x, y; done).
                   destruct HI2 as [[_ Ht]|(-> & Hs0 & _ & _)].
                   --- by eapply tc_r.
                   --- rewrite Hs0 in *. by apply tc_once.
             ++ split_and!; [done| |].
                ** intros x' Hx' Hnp. apply Hrest; [done|]. set_solver.
                ** destruct HI2 as [?|(-> & Hs0 & Hpre & Hpre2)]; [by left|right].
                   split_and!; [done..|]. intros x' [?|Hx']%elem_of_app; [by apply Hpre2|].
                   apply elem_of_list_singleton in Hx' as ->. by rewrite Hs0 in HP.
        * cbn. intros s (_ & _ & [?|(-> & -> & Hpre & Hall)]); [by left|right].
          split; [done|]. intros x y' [?|Hy']%elem_of_app Hu; [by apply Hpre|].
          apply elem_of_list_singleton in Hy' as ->. apply Hall. by apply iter_elem.
    - cbn. intros s [?|[-> H]]; [by left|right]. split; [done|]. intros x y Hy. apply H. by apply iter_elem.
  Qed.

  Lemma rule_1_spec g en : pd_wf g → returns (rule_1 o en g) (rule_post r1_pattern en g).
  Proof.
    intros Hwf. unfold rule_1. apply (rule_generic r1_pattern 272 274 en g (λ y x s,
      for_live o 275 (λ s, pd_parents s.1 x) (λ z s,
        b ← m_is_connected PDAG_T s.1 z y;
        if (b : bool) then Ok (s, false) else Ok ((orient_edge s.1 x y, true), true)) s)); [done|].
    intros x y s Hs Hu.
    apply for_live_returns with (I := λ pre s', s' = s ∧ ∀ z, z ∈ pre → pd_adj s.1 z y).
    - split; [done|]. intros z Hz. by apply elem_of_nil in Hz.
    - intros pre z post s' Hl [-> Hpre].
      assert (darrow s.1 z x) as Hz.
      { assert (z ∈ o 275 (pd_parents s.1 x)) as Hz by (rewrite Hl; set_solver).
        by rewrite iter_elem in Hz. }
      eapply returns_bind; [apply m_is_connected_pd; [done|]|].
      { intros ->. apply (pdw_one _ Hs y x); [|done]. by apply (pdw_sym _ Hs). }
      cbn. intros [] Hb; simpl.
      + split; [done|]. intros z' [?|Hz']%elem_of_app; [by apply Hpre|].
        apply elem_of_list_singleton in Hz' as ->. by apply Hb.
      + left. split; [|done]. exists z. split; [done|]. intros ?. by apply Hb in H.
    - by intros pre s' [-> _].
    - intros s' [-> Hall]. right. split; [done|]. intros (z & Hz & Hn). apply Hn, Hall. by apply iter_elem.
  Qed.

  Lemma rule_2_spec g en : pd_wf g → returns (rule_2 o en g) (rule_post r2_pattern en g).
  Proof.
    intros Hwf. unfold rule_2. apply (rule_generic r2_pattern 291 293 en g (λ y x s,
      for_live o 295 (λ s, pd_parents s.1 y) (λ z s,
        if decide (x ∈ pd_parents s.1 z)
        then Ok ((orient_edge s.1 x y, true), true) else Ok (s, false)) s)); [done|].
    intros x y s Hs Hu.
    apply for_live_returns with (I := λ pre s', s' = s ∧ ∀ z, z ∈ pre → ¬ darrow s.1 x z).
    - split; [done|]. intros z Hz. by apply elem_of_nil in Hz.
    - intros pre z post s' Hl [-> Hpre].
      assert (darrow s.1 z y) as Hz.
      { assert (z ∈ o 295 (pd_parents s.1 y)) as Hz by (rewrite Hl; set_solver).
        by rewrite iter_elem in Hz. }
      destruct (decide (x ∈ pd_parents s.1 z)) as [Hx|Hx]; simpl.
      + left. split; [|done]. by exists z.
      + split; [done|]. intros z' [?|Hz']%elem_of_app; [by apply Hpre|].
        by apply elem_of_list_singleton in Hz' as ->.
    - by intros pre s' [-> _].
    - intros s' [-> Hall]. right. split; [done|]. intros (z & Hz & Hn). eapply Hall; [|done]. by apply iter_elem.
  Qed.

  Lemma rule_3_spec g en : pd_wf g → returns (rule_3 o en g) (rule_post r3_pattern en g).
  Proof.
    intros Hwf. unfold rule_3. apply (rule_generic r3_pattern 311 314 en g (λ y x s,
      for_brk (comb2 (o 316 (und s.1 x ∩ pd_parents s.1 y))) (λ '(w, z) s,
        b ← m_is_connected PDAG_T s.1 w z;
        if (b : bool) then Ok (s, false) else Ok ((orient_edge s.1 x y, true), true)) s)); [done|].
    intros x y s Hs Hu. set (WZ := und s.1 x ∩ pd_parents s.1 y).
    apply for_brk_returns with (I := λ pre s', s' = s ∧ ∀ w z, (w, z) ∈ pre → pd_adj s.1 w z).
    - split; [done|]. intros w z Hz. by apply elem_of_nil in Hz.
    - intros pre [w z] post s' Hl [-> Hpre].
      assert ((w, z) ∈ comb2 (o 316 WZ)) as Hwz by (rewrite Hl; set_solver).
      apply comb2_iter in Hwz as (Hw & Hz & Hne); [|done].
      eapply returns_bind; [by apply m_is_connected_pd|]. cbn. intros [] Hb; simpl.
      + split; [done|]. intros w' z' [?|Hz']%elem_of_app; [by apply Hpre|].
        apply elem_of_list_singleton in Hz' as [= -> ->]. by apply Hb.
      + left. split; [|done]. apply elem_of_intersection in Hw as [? ?].
        apply elem_of_intersection in Hz as [? ?]. exists w, z. split_and!; try done.
        intros ?. by apply Hb in H3.
    - intros s' [-> Hall]. right. split; [done|]. intros (w & z & Hw & Hz & Hwy & Hzy & Hne & Hn).
      destruct (proj2 (comb2_iter o 316 WZ w z Ho)) as [Hc|Hc]; [by apply elem_of_intersection..|done| |].
      + by apply Hn, Hall.
      + apply Hn. apply pd_adj_sym; [done|]. by apply Hall.
  Qed.

  Lemma rule_4_spec g en : pd_wf g → returns (rule_4 o en g) (rule_post r4_pattern en g).
  Proof.
    intros Hwf. unfold rule_4. apply (rule_generic r4_pattern 335 338 en g (λ y x s,
      for_live o 339 (λ s, pd_parents s.1 y) (λ z s,
        b ← m_is_connected PDAG_T s.1 z x;
        if negb b then Ok (s, false) else
        if decide (0 < size (pd_parents s.1 z ∩ und s.1 x))
        then Ok ((orient_edge s.1 x y, true), true) else Ok (s, false)) s)); [done|].
    intros x y s Hs Hu.
    apply for_live_returns with (I := λ pre s', s' = s ∧
      ∀ z, z ∈ pre → ¬ (pd_adj s.1 z x ∧ ∃ w, darrow s.1 w z ∧ uline s.1 w x)).
    - split; [done|]. intros z Hz. by apply elem_of_nil in Hz.
    - intros pre z post s' Hl [-> Hpre].
      assert (darrow s.1 z y) as Hz.
      { assert (z ∈ o 339 (pd_parents s.1 y)) as Hz by (rewrite Hl; set_solver).
        by rewrite iter_elem in Hz. }
      eapply returns_bind; [apply m_is_connected_pd; [done|]|].
      { intros ->. by apply (pdw_one _ Hs x y). }
      cbn. intros [] Hb; simpl.
      + destruct (decide (0 < size (pd_parents s.1 z ∩ und s.1 x))) as [Hs'|Hs']; simpl.
        * left. split; [|done].
          destruct (size_pos_elem_of (pd_parents s.1 z ∩ und s.1 x)) as (w & Hw); [lia|].
          apply elem_of_intersection in Hw as [? ?]. exists w, z. split_and!; try done. by apply Hb.
        * split; [done|]. intros z' [?|Hz']%elem_of_app; [by apply Hpre|].
          apply elem_of_list_singleton in Hz' as ->. intros (_ & w & Hw & Hwx).
          apply Hs'. assert (w ∈ pd_parents s.1 z ∩ und s.1 x) as Hin by by apply elem_of_intersection.
          destruct (size (pd_parents s.1 z ∩ und s.1 x)) eqn:E; [|lia].
          apply size_empty_inv in E. set_solver +E Hin.
      + split; [done|]. intros z' [?|Hz']%elem_of_app; [by apply Hpre|].
        apply elem_of_list_singleton in Hz' as ->. intros (Hc & _). by apply Hb in Hc.
    - by intros pre s' [-> _].
    - intros s' [-> Hall]. right. split; [done|]. intros (w & z & Hw & Hz & Hc & Hu').
      apply (Hall z); [by apply iter_elem|]. eauto.
  Qed.

  Lemma pd_rule_spec i : 1 ≤ i ≤ 4 →
    ∃ f, pd_rule o i = Ok f ∧ ∀ g en, pd_wf g → returns (f en g) (rule_post (rule_pattern i) en g).
  Proof.
    intros Hi. destruct i as [|[|[|[|[|i]]]]]; [lia|..|lia]; eexists; (split; [done|]); intros g en Hwf.
    - by apply rule_1_spec.
    - by apply rule_2_spec.
    - by apply rule_3_spec.
    - by apply rule_4_spec.
  Qed.

  (** any of the rules of the list *)
  Definition any_pattern (rules : list nat) (g : mgraph) (x y : node) : Prop :=
    ∃ i, i ∈ rules ∧ rule_pattern i g x y.

  Lemma orient_pass_spec g rules en : pd_wf g → (∀ i, i ∈ rules → 1 ≤ i ≤ 4) →
    returns (orient_pass o rules en g) (rule_post (any_pattern rules) en g).
  Proof.
    intros Hwf Hr. unfold orient_pass. eapply returns_mono.
    - apply (for_returns_pre _ _ _ (λ pre s, pd_wf s.1 ∧
        ((s.2 = true ∧ tc (ostep (any_pattern rules) en) g s.1) ∨
         (s = (g, false) ∧ ∀ i x y, i ∈ pre → y ∈ en → uline g x y → ¬ rule_pattern i g x y)))).
      + split; [done|]. right. split; [done|]. intros i x y Hi. by apply elem_of_nil in Hi.
      + intros pre i post s Hl [Hws HI].
        assert (i ∈ rules) as Hi by (rewrite Hl; set_solver).
        destruct (pd_rule_spec i (Hr i Hi)) as (f & -> & Hf). simpl.
        eapply returns_bind; [by apply Hf|]. cbn. intros [g' b] Hb. simpl.
        assert (∀ u v, ostep (rule_pattern i) en u v → ostep (any_pattern rules) en u v) as Hmono.
        { intros u v (x & y & ? & ? & ? & ?). exists x, y. split_and!; try done. by exists i. }
        destruct Hb as [[Hb Ht]|[[= -> ->] Hno]]; simpl in *.
        * assert (pd_wf g') by (eapply osteps_wf; [exact Hws|by apply tc_rtc]).
          split; [done|]. left. split; [subst b; apply orb_true_r|].
          assert (tc (ostep (any_pattern rules) en) s.1 g') as Ht'.
          { clear -Ht Hmono. induction Ht; [apply tc_once|eapply tc_l]; eauto. }
          destruct HI as [[_ Ht0]|[-> _]]; [by eapply tc_rtc_l; [apply tc_rtc|]|done].
        * split; [done|]. rewrite orb_false_r. destruct HI as [?|[-> Hpre]]; [by left|right].
          split; [done|]. intros j x y [?|Hj]%elem_of_app; [by apply Hpre|].
          apply elem_of_list_singleton in Hj as ->. by apply Hno.
    - cbn. intros s [_ [?|[-> Hall]]]; [by left|right]. split; [done|].
      intros x y Hy Hu (i & Hi & HP). by eapply Hall.
  Qed.

  (** ** termination measure: number of stored undirected half-edges *)
  Definition und_pairs (g : mgraph) : gset (nat * nat) :=
    set_bind (λ b, set_map (λ a, (a, b)) (und g b)) (mnodes g).
  Lemma elem_und_pairs g a b : (a, b) ∈ und_pairs g ↔ b ∈ mnodes g ∧ uline g a b.
  Proof.
    unfold und_pairs. rewrite elem_of_set_bind. setoid_rewrite elem_of_map.
    unfold uline, has_mark, und. naive_solver.
  Qed.

  Definition all_pairs (V : nset) : gset (nat * nat) := set_bind (λ b, set_map (λ a, (a, b)) V) V.
  Lemma elem_all_pairs V a b : (a, b) ∈ all_pairs V ↔ a ∈ V ∧ b ∈ V.
  Proof. unfold all_pairs. rewrite elem_of_set_bind. setoid_rewrite elem_of_map. naive_solver. Qed.

  Lemma size_list_le (l : list (nat * nat)) : size (list_to_set l : gset (nat * nat)) ≤ length l.
  Proof.
    induction l as [|a l IH]; cbn; [by rewrite size_empty|].
    rewrite size_union_alt, size_singleton.
    assert (size ((list_to_set l : gset (nat * nat)) ∖ {[a]}) ≤ size (list_to_set l : gset (nat * nat)))
      by (apply subseteq_size; set_solver +).
    lia.
  Qed.

  Lemma all_pairs_size V : size (all_pairs V) ≤ size V * size V.
  Proof.
    assert (∀ W : nset, size (set_bind (λ b, set_map (λ a, (a, b)) V) W : gset (nat * nat)) ≤ size W * size V) as H.
    { intros W. induction W as [|x W Hx IH] using set_ind_L.
      - assert ((set_bind (λ b, set_map (λ a, (a, b)) V) (∅ : nset) : gset (nat * nat)) ≡ ∅) as ->.
        { intros p. rewrite elem_of_set_bind. set_solver +. }
        by rewrite size_empty.
      - rewrite size_union by set_solver. rewrite size_singleton.
        assert ((set_bind (λ b, set_map (λ a, (a, b)) V) ({[x]} ∪ W) : gset (nat * nat)) ⊆
          set_map (λ a, (a, x)) V ∪ set_bind (λ b, set_map (λ a, (a, b)) V) W) as Hs.
        { intros p. rewrite elem_of_union, !elem_of_set_bind. intros (b & Hb & Hp).
          apply elem_of_union in Hb as [Hb|Hb]; [|right; eauto]. apply elem_of_singleton in Hb as ->. by left. }
        apply subseteq_size in Hs. rewrite size_union_alt in Hs.
        assert (size (set_map (λ a, (a, x)) V : gset (nat * nat)) ≤ size V) as H1.
        { unfold set_map. etrans; [apply size_list_le|]. by rewrite fmap_length. }
        assert (size ((set_bind (λ b, set_map (λ a, (a, b)) V) W : gset (nat * nat)) ∖ set_map (λ a, (a, x)) V) ≤
          size (set_bind (λ b, set_map (λ a, (a, b)) V) W : gset (nat * nat))) as H2
          by (apply subseteq_size; set_solver +).
        lia. }
    apply H.
  Qed.

  Lemma und_pairs_le g : pd_wf g → size (und_pairs g) ≤ size (mnodes g) * size (mnodes g).
  Proof.
    intros Hwf. etrans; [|apply all_pairs_size]. apply subseteq_size. intros [a b].
    rewrite elem_und_pairs, elem_all_pairs. intros [? Hu]. by apply (pdw_und _ Hwf) in Hu as (? & ? & _).
  Qed.

  Lemma ostep_measure P V g g' : pd_wf g → ostep P V g g' → size (und_pairs g') < size (und_pairs g).
  Proof.
    intros Hwf (x & y & _ & Hu & _ & ->). apply subset_size. split.
    - intros [a b]. rewrite !elem_und_pairs, orient_uline. simpl. tauto.
    - intros Hs. specialize (Hs (x, y)). rewrite !elem_und_pairs, orient_uline in Hs.
      apply (pdw_und _ Hwf) in Hu as Hu'. tauto.
  Qed.
  Lemma osteps_measure P V g g' : pd_wf g → tc (ostep P V) g g' → size (und_pairs g') < size (und_pairs g).
  Proof.
    intros Hwf Ht. induction Ht as [g g' H|g g1 g' H _ IH]; [by eapply ostep_measure|].
    pose proof (ostep_measure _ _ _ _ Hwf H). specialize (IH (ostep_wf _ _ _ _ Hwf H)). lia.
  Qed.

  Lemma orient_loop_spec rules en fuel : ∀ g, pd_wf g → (∀ i, i ∈ rules → 1 ≤ i ≤ 4) →
    size (und_pairs g) < fuel →
    returns (orient_loop o fuel rules en g) (λ g', rtc (ostep (any_pattern rules) en) g g' ∧ no_rule_applies g' rules en).
  Proof.
    induction fuel as [|fuel IH]; intros g Hwf Hr Hf; [lia|]. simpl.
    eapply returns_bind; [by apply orient_pass_spec|]. cbn. intros [g' b] [[Hb Ht]|[[= -> ->] Hno]]; simpl in *.
    - subst b. eapply returns_mono.
      + apply IH; [|done|].
        * eapply osteps_wf; [exact Hwf|by apply tc_rtc].
        * pose proof (osteps_measure _ _ _ _ Hwf Ht). lia.
      + cbn. intros h [Hs ?]. split; [|done]. etrans; [|exact Hs]. by apply tc_rtc.
    - split; [done|]. intros i x y Hi Hy Hu HP. eapply Hno; [done..|]. by exists i.
  Qed.

  Lemma maximally_orient_steps g rules en fuel : pd_wf g → (∀ i, i ∈ rules → 1 ≤ i ≤ 4) →
    size (mnodes g) * size (mnodes g) < fuel →
    returns (maximally_orient o fuel g rules en) (λ g',
      rtc (ostep (any_pattern rules) (default (mnodes g) en)) g g' ∧
      no_rule_applies g' rules (default (mnodes g) en)).
  Proof.
    intros Hwf Hr Hf. apply orient_loop_spec; [done..|]. pose proof (und_pairs_le g Hwf). lia.
  Qed.
End rules.

(** ** consequences of orientation steps *)
Lemma orientation_refl g : pd_wf g → orientation_of g g.
Proof.
  intros Hwf. split; [done|tauto|tauto| |].
  - intros a b. split; [|tauto]. intros Hu. split_and!; [done|by apply (pdw_one _ Hwf)|].
    apply (pdw_one _ Hwf). by apply (pdw_sym _ Hwf).
  - intros a b Hu [Hd _]. by apply (pdw_one _ Hwf) in Hd.
Qed.

Lemma orientation_step g g1 x y : pd_wf g → orientation_of g g1 → uline g1 x y →
  orientation_of g (orient_edge g1 x y).
Proof.
  intros Hwf [On Od Ow Ou Oo] Hu. split.
  - done.
  - intros a b Hab. apply orient_darrow. left. auto.
  - intros a b. rewrite orient_darrow. intros [?|[-> ->]]; [auto|]. right. apply Ou in Hu; tauto.
  - intros a b. rewrite orient_uline, !orient_darrow, Ou. tauto.
  - intros a b Hab. rewrite !orient_darrow. pose proof (Oo a b Hab).
    apply Ou in Hu as Hu'. intros [[?|[? ?]] [?|[? ?]]]; subst; [tauto..|].
    apply (pdw_und _ Hwf) in Hab as (_ & _ & ?). done.
Qed.

Lemma osteps_orientation P V g g' : pd_wf g → rtc (ostep P V) g g' → orientation_of g g' ∧ pd_wf g'.
Proof.
  intros Hwf. assert (∀ g1, orientation_of g g1 → pd_wf g1 → rtc (ostep P V) g1 g' → orientation_of g g' ∧ pd_wf g') as H.
  { intros g1 Ho Hw1 Hr. induction Hr as [|g1 g2 g3 Hst _ IH]; [done|].
    apply IH; [|by eapply ostep_wf]. destruct Hst as (x & y & _ & Hu & _ & ->). by apply orientation_step. }
  apply H; [by apply orientation_refl|done].
Qed.

Lemma orientation_skeleton g g' : pd_wf g → orientation_of g g' → pd_same_skeleton g g'.
Proof.
  intros Hwf [On Od Ow Ou Oo]. split; [done|]. intros a b. unfold pd_adj. rewrite Ou.
  assert (uline g b a → uline g a b) by apply (pdw_sym _ Hwf).
  split.
  - intros [Hu|[?|?]]; [|auto..].
    assert (darrow g' a b ∨ ¬ darrow g' a b) as [?|?].
    { unfold darrow, has_mark. destruct (decide (a ∈ mset g' b Directed)); tauto. }
    { auto. }
    assert (darrow g' b a ∨ ¬ darrow g' b a) as [?|?].
    { unfold darrow, has_mark. destruct (decide (b ∈ mset g' a Directed)); tauto. }
    { auto. }
    left. tauto.
  - intros [?|[Hd|Hd]]; [tauto|apply Ow in Hd; tauto..].
Qed.
