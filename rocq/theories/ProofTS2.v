(** Temporal ICD: orientation of a skeleton that does not change over time. *)
From Verif Require Import Base BaseLemmas ModelGraph Spec ModelMixed SpecMixed ProofMixed ProofMixed2 ProofPDAG ProofPDAG2
  ModelPC SpecPC ProofPC ModelPAG SpecPAG ProofPAG ProofPAGU ProofPAGX ModelPDS ModelFCI SpecFCI ProofFCI ProofFCI2 ModelTS SpecTS ProofTS.

Lemma replace_adj g s t k a b : mg_wf g → mg_adj g s t → mg_adj (replace_mark_ PAG_T g s t k) a b ↔ mg_adj g a b.
Proof.
  intros W Hst. unfold mg_adj. setoid_rewrite replace_mark_spec. split.
  - intros (j & [(-> & -> & _)|[_ H]]); [exact Hst|by exists j].
  - intros (j & H). destruct (decide (a = s ∧ b = t)) as [[-> ->]|Hn]; [exists k; by left|exists j; by right].
Qed.
Lemma adj_mark g a b : mg_wf g → mg_adj g a b → ∃ k, get_edge_mark PAG_T g a b = Some k ∧ has_mark g a k b.
Proof. intros W (k & Hk). exists k. split; [by apply get_edge_mark_some|done]. Qed.

Section ts.
  Context (NS : list (list node)) (W : window NS) (o : order) (Ho : iter_ok o).
  Notation V := (win_nodes NS).

  Lemma invariant_marks_ok g : mg_wf g → returns (invariant_marks o g) (λ l, ∀ p c m, (p, c, m) ∈ l ↔ ∃ k, m = Some k ∧ k ≠ Circle ∧ has_mark g p k c).
  Proof.
    intros Wg. unfold invariant_marks. eapply returns_mono.
    - apply (for_returns_pre _ _ _ (λ pre (l : list (node * node * option mark)), ∀ p c m, (p, c, m) ∈ l ↔ ((p, c) ∈ pre ∨ (c, p) ∈ pre) ∧ ∃ k, m = Some k ∧ k ≠ Circle ∧ has_mark g p k c)).
      + intros p c m. rewrite !elem_of_nil. tauto.
      + intros pre [i j] post l E Hl. pose proof (comb2_iter o 303 (mnodes g) i j Ho) as [Hij _].
        destruct Hij as (Hi & Hj & Hne); [rewrite E; set_solver +|].
        eapply returns_bind; [by apply m_is_connected_pag|]. cbn beta. intros b Hb. destruct b; cbn [negb]; cbv iota.
        * destruct (adj_mark g i j Wg (proj1 Hb eq_refl)) as (k12 & -> & M12).
          destruct (adj_mark g j i Wg) as (k21 & -> & M21); [apply mg_adj_sym; [done|by apply Hb]|]. cbn [returns].
          assert (∀ k, has_mark g i k j ↔ k = k12) as U12 by (intros k; split; [intros; by eapply (mgw_one _ Wg)|by intros ->]).
          assert (∀ k, has_mark g j k i ↔ k = k21) as U21 by (intros k; split; [intros; by eapply (mgw_one _ Wg)|by intros ->]).
          intros p c m. rewrite !elem_of_app, !elem_of_list_singleton.
          transitivity ((p, c, m) ∈ l ∨ (p, c, m) = (i, j, Some k12) ∧ k12 ≠ Circle ∨ (p, c, m) = (j, i, Some k21) ∧ k21 ≠ Circle).
          -- destruct (decide (Some k12 = Some Circle)) as [E1|E1], (decide (Some k21 = Some Circle)) as [E2|E2];
               rewrite ?elem_of_app, ?elem_of_list_singleton; (assert (k12 = Circle ∨ k12 ≠ Circle) as [?|?] by (destruct k12; auto)); (assert (k21 = Circle ∨ k21 ≠ Circle) as [?|?] by (destruct k21; auto)); subst; try congruence; tauto.
          -- rewrite Hl. split.
             ++ intros [[H1 H2]|[[[= -> -> ->] H2]|[[= -> -> ->] H2]]].
                ** split; [tauto|done].
                ** split; [tauto|]. by exists k12.
                ** split; [tauto|]. by exists k21.
             ++ intros [[[H1|[= -> ->]]|[H1|[= -> ->]]] (k & -> & Hk & HM)].
                ** left. split; [tauto|]. by exists k.
                ** apply U12 in HM as ->. right. left. done.
                ** left. split; [tauto|]. by exists k.
                ** apply U21 in HM as ->. right. right. done.
        * cbn [returns]. intros p c m. rewrite Hl, !elem_of_app, !elem_of_list_singleton. split; [intros [? ?]; tauto|].
          intros [[[H1|[= -> ->]]|[H1|[= -> ->]]] (k & -> & Hk & HM)].
          -- split; [tauto|]. by exists k.
          -- assert (false = true) by (apply Hb; by exists k). done.
          -- split; [tauto|]. by exists k.
          -- assert (false = true) by (apply Hb, mg_adj_sym; [done|]; by exists k). done.
    - cbn beta. intros l Hl p c m. rewrite Hl. split; [tauto|]. intros (k & -> & Hk & HM). split; [|by exists k].
      pose proof (mgw_in _ Wg _ _ _ HM) as (Hp & Hc & Hne). by apply comb2_iter.
  Qed.

  Definition same_skel (g h : mgraph) : Prop := mnodes h = mnodes g ∧ mg_wf h ∧ ∀ a b, mg_adj h a b ↔ mg_adj g a b.

  (** one entry: the mark is copied to the whole class *)
  Lemma fill_entry_ok p c k g : mg_wf g → stationary NS (mg_adj g) → mg_adj g p c → p ∈ V → c ∈ V →
    returns (h ← entry_homology NS p c; for_ h (λ '(c', p') g, replace_opt g p' c' (Some k)) g) (λ h, same_skel g h ∧
      ∀ a j b, has_mark h a j b ↔ (same_lag NS p c a b ∧ j = k) ∨ (¬ same_lag NS p c a b ∧ has_mark g a j b)).
  Proof.
    intros Wg St Hadj Hp Hc. eapply returns_bind; [by apply entry_homology_ok|]. cbn beta. intros l Hl. eapply returns_mono.
    - apply (for_returns_pre _ _ _ (λ pre h, same_skel g h ∧ ∀ a j b, has_mark h a j b ↔ ((b, a) ∈ pre ∧ j = k) ∨ ((b, a) ∉ pre ∧ has_mark g a j b))).
      + split; [done|]. intros a j b. rewrite elem_of_nil. tauto.
      + intros pre [c' p'] post h E ((N & Wh & A) & M). cbn [replace_opt]. rewrite replace_edge_mark_ok. cbn [returns].
        assert (same_lag NS p c p' c') as Hsl by (apply Hl; rewrite E; set_solver +).
        assert (mg_adj h p' c') as Hadj' by (apply A; by apply (St _ _ _ _ Hsl)). split.
        * split; [by rewrite replace_mark_nodes|]. split; [by apply mg_wf_replace|]. intros a b. by rewrite replace_adj, A.
        * intros a j b. rewrite replace_mark_spec, M, elem_of_app, elem_of_list_singleton.
          destruct (decide (a = p' ∧ b = c')) as [[-> ->]|Hn].
          -- split; [intros [(_ & _ & ->)|[[] _]]; [|done]; left; auto|]. intros [[_ ->]|[H _]]; [by left|]. destruct H. by right.
          -- assert ((b, a) ≠ (c', p')) by (intros [= -> ->]; by apply Hn). split.
             ++ intros [?|[_ [[? ->]|[? ?]]]]; [tauto|left; auto|right; tauto].
             ++ intros [[[?|?] ->]|[H1 ?]]; [right; split; [done|left; done]|done|right; split; [done|right; split; [tauto|done]]].
    - cbn beta. intros h [Hs M]. split; [done|]. intros a j b. rewrite M, Hl. done.
  Qed.

  Lemma fill_ok g : mg_wf g → mnodes g = V → stationary NS (mg_adj g) →
    returns (fill_homology NS o g) (λ h, same_skel g h ∧ (∀ k, stationary NS (λ a b, has_mark h a k b)) ∧
      (∀ a k b, has_mark h a k b → ∃ a' b', same_lag NS a b a' b' ∧ has_mark g a' k b') ∧
      (∀ a b a' b', has_mark h a Circle b → same_lag NS a b a' b' → has_mark g a' Circle b')).
  Proof.
    intros Wg N St. unfold fill_homology. eapply returns_bind; [by apply invariant_marks_ok|]. cbn beta. intros l Hl.
    set (hit := λ (pre : list (node * node * option mark)) a b k, ∃ p c, (p, c, Some k) ∈ pre ∧ same_lag NS p c a b).
    assert (∀ a b, mg_adj g a b → a ∈ V ∧ b ∈ V) as Hin by (intros a b H; apply mg_adj_nodes in H; [rewrite N in H; tauto|done]).
    eapply returns_mono.
    - apply (for_returns_pre _ _ _ (λ pre h, same_skel g h ∧ ∀ a b, mg_adj g a b →
        (∃ k, hit pre a b k ∧ ∀ a' b', same_lag NS a b a' b' → has_mark h a' k b') ∨
        ((∀ k, ¬ hit pre a b k) ∧ ∀ a' b' k, same_lag NS a b a' b' → has_mark h a' k b' ↔ has_mark g a' k b'))).
      + split; [done|]. intros a b _. right. split; [|done]. intros k (p & c & H & _). by apply elem_of_nil in H.
      + intros pre [[p c] m] post h E ((Nh & Wh & A) & M). destruct (proj1 (Hl p c m)) as (k & -> & Hk & HM); [rewrite E; set_solver +|].
        assert (mg_adj g p c) as Hpc by by exists k. destruct (Hin _ _ Hpc) as [Hp Hc].
        assert (stationary NS (mg_adj h)) as Sth by (intros x y x' y' Hs; rewrite !A; by apply St).
        eapply returns_mono; [apply (fill_entry_ok p c k h Wh Sth); [by apply A|done|done]|]. cbn beta.
        intros h' ((N' & W' & A') & M'). split; [split; [congruence|split; [done|intros x y; by rewrite A', A]]|].
        intros a b Hab. destruct (Hin _ _ Hab) as [Ha Hb].
        assert (same_lag NS p c a b ∨ ¬ same_lag NS p c a b) as [Hs|Hs].
        { pose proof (mgw_one _ W') as Hone. pose proof (proj1 (A a b) (proj2 (A a b) Hab)) as _. destruct (decide (mg_adj h' a b)) as [[j Hj]|Hn].
          - apply M' in Hj as [[? _]|[? _]]; auto.
          - destruct Hn. apply A', A, Hab. }
        * left. exists k. split; [exists p, c; split; [set_solver +|done]|]. intros a' b' Hab'. apply M'. left. split; [by eapply same_lag_trans|done].
        * assert (∀ a' b' j, same_lag NS a b a' b' → has_mark h' a' j b' ↔ has_mark h a' j b') as Hkeep.
          { intros a' b' j Hab'. rewrite M'. assert (¬ same_lag NS p c a' b') by (intros H; apply Hs; eapply same_lag_trans; [done|exact H|by apply same_lag_sym]). tauto. }
          destruct (M a b Hab) as [(k' & (p0 & c0 & H1 & H2) & H3)|[H1 H2]].
          -- left. exists k'. split; [exists p0, c0; split; [set_solver +H1|done]|]. intros a' b' Hab'. apply Hkeep; [done|by apply H3].
          -- right. split.
             ++ intros k' (p0 & c0 & [H3|H3%elem_of_list_singleton]%elem_of_app & H4); [apply (H1 k'); by exists p0, c0|]. by simplify_eq.
             ++ intros a' b' j Hab'. rewrite Hkeep by done. by apply H2.
    - cbn beta. intros h ((Nh & Wh & A) & M). split; [done|].
      assert (∀ a k b, has_mark h a k b → a ∈ V ∧ b ∈ V ∧ mg_adj g a b) as Hm.
      { intros a k b H. assert (mg_adj g a b) as Hab by (apply A; by exists k). pose proof (Hin _ _ Hab). tauto. }
      split; [|split].
      + assert (∀ k a b c d, same_lag NS a b c d → has_mark h a k b → has_mark h c k d) as Hone.
        { intros k a b c d Hs HM. destruct (Hm _ _ _ HM) as (Ha & Hb & Hab). pose proof (proj1 (St _ _ _ _ Hs) Hab) as Hcd.
          destruct (M a b Hab) as [(k' & _ & H3)|[H1 H2]].
          - assert (k = k') as -> by (eapply (mgw_one _ Wh); [exact HM|apply H3; by apply same_lag_refl]). by apply H3.
          - apply H2; [done|]. pose proof (proj1 (H2 a b k (same_lag_refl NS a b Ha Hb)) HM) as HMg.
            assert (∀ x y j, same_lag NS a b x y → has_mark g x j y → j = Circle) as Hcirc.
            { intros x y j Hxy Hj. destruct (decide (j = Circle)) as [?|Hj']; [done|]. exfalso. apply (H1 j). exists x, y. split; [apply Hl; by exists j|by apply same_lag_sym]. }
            assert (k = Circle) as -> by (eapply Hcirc; [by apply same_lag_refl|exact HMg]).
            destruct Hcd as [j Hj]. pose proof (Hcirc _ _ _ Hs Hj) as ->. done. }
        intros k a b c d Hs. split; apply Hone; [done|by apply same_lag_sym].
      + intros a k b HM. destruct (Hm _ _ _ HM) as (Ha & Hb & Hab). destruct (M a b Hab) as [(k' & (p & c & H1 & H2) & H3)|[H1 H2]].
        * assert (k = k') as -> by (eapply (mgw_one _ Wh); [exact HM|apply H3; by apply same_lag_refl]).
          apply Hl in H1 as (j & [= <-] & _ & HMg). exists p, c. split; [by apply same_lag_sym|done].
        * exists a, b. split; [by apply same_lag_refl|]. apply (H2 a b k); [by apply same_lag_refl|done].
      + intros a b a' b' HM Hs. destruct (Hm _ _ _ HM) as (Ha & Hb & Hab). destruct (M a b Hab) as [(k' & (p & c & H1 & H2) & H3)|[H1 H2]].
        * assert (Circle = k') as <- by (eapply (mgw_one _ Wh); [exact HM|apply H3; by apply same_lag_refl]).
          apply Hl in H1 as (j & [= <-] & Hj & _). done.
        * pose proof (proj1 (St _ _ _ _ Hs) Hab) as [j Hj]. destruct (decide (j = Circle)) as [->|Hj']; [done|].
          exfalso. apply (H1 j). exists a', b'. split; [apply Hl; by exists j|by apply same_lag_sym].
  Qed.

  (** ** the fixed orientations *)
  Notation fixmap := (gmap (nat * nat) (option mark)).
  Definition fix_ok (fx : fixmap) (A : node → node → Prop) : Prop := ∀ a b, A a b → ∃ k, fx !! (a, b) = Some (Some k).

  Lemma set_fixed_ok fx g : mg_wf g → fix_ok fx (mg_adj g) →
    returns (set_fixed o fx g) (λ h, same_skel g h ∧ ∀ a k b, has_mark h a k b ↔ mg_adj g a b ∧ fx !! (a, b) = Some (Some k)).
  Proof.
    intros Wg Hfx. unfold set_fixed. eapply returns_mono.
    - apply (for_returns_pre _ _ _ (λ pre h, same_skel g h ∧ ∀ a k b, has_mark h a k b ↔
        (((a, b) ∈ pre ∨ (b, a) ∈ pre) ∧ mg_adj g a b ∧ fx !! (a, b) = Some (Some k)) ∨ (¬ ((a, b) ∈ pre ∨ (b, a) ∈ pre) ∧ has_mark g a k b))).
      + split; [done|]. intros a k b. rewrite !elem_of_nil. tauto.
      + intros pre [i j] post h E ((N & Wh & A) & M). pose proof (comb2_iter o 85 (mnodes g) i j Ho) as [Hij _].
        destruct Hij as (Hi & Hj & Hne); [rewrite E; set_solver +|].
        eapply returns_bind; [by apply m_is_connected_pag|]. cbn beta. intros b Hb. destruct b; cbv iota.
        * assert (mg_adj g i j) as Hadj by by apply A, Hb. assert (mg_adj g j i) as Hadj' by by apply mg_adj_sym.
          destruct (Hfx _ _ Hadj) as (k1 & E1). destruct (Hfx _ _ Hadj') as (k2 & E2). rewrite E1. cbn [mbind res_bind replace_opt].
          rewrite replace_edge_mark_ok. rewrite E2. cbn [mbind res_bind replace_opt]. rewrite replace_edge_mark_ok. cbn [returns].
          set (h1 := replace_mark_ PAG_T h i j k1).
          assert (mg_adj h i j) as Hhij by by apply A. assert (mg_wf h1) as W1 by by apply mg_wf_replace.
          assert (∀ a b, mg_adj h1 a b ↔ mg_adj h a b) as A1 by (intros a b; by apply replace_adj).
          assert (mg_adj h1 j i) as Hhji by by apply A1, A. split.
          -- split; [unfold h1; by rewrite !replace_mark_nodes|]. split; [by apply mg_wf_replace|]. intros a b. rewrite replace_adj, A1, A; done.
          -- intros a k b. rewrite replace_mark_spec. unfold h1. rewrite replace_mark_spec, M, !elem_of_app, !elem_of_list_singleton.
             destruct (decide (a = j ∧ b = i)) as [[-> ->]|Hn1]; [|destruct (decide (a = i ∧ b = j)) as [[-> ->]|Hn2]].
             ++ split.
                ** intros [(_ & _ & ->)|[[] _]]; [|done]. left. split; [right; by right|done].
                ** intros [(_ & _ & H)|[H _]]; [left; split; [done|]; split; [done|]; congruence|]. destruct H. right. by right.
             ++ split.
                ** intros [(? & _)|[_ [(_ & _ & ->)|[[] _]]]]; [done| |done]. left. split; [left; by right|done].
                ** intros [(_ & _ & H)|[H _]]; [|destruct H; left; by right]. right. split; [done|]. left. split; [done|]. split; [done|]. congruence.
             ++ assert ((a, b) ≠ (i, j)) by (intros [= -> ->]; by apply Hn2). assert ((b, a) ≠ (i, j)) by (intros [= -> ->]; by apply Hn1). tauto.
        * cbn [returns]. split; [done|]. intros a k b. rewrite M, !elem_of_app, !elem_of_list_singleton.
          destruct (decide ((a, b) = (i, j) ∨ (b, a) = (i, j))) as [Hab|Hab]; [|tauto].
          assert (¬ mg_adj g a b) as Hn.
          { intros H. assert (mg_adj h i j) as Hh; [|by apply Hb in Hh]. apply A. destruct Hab as [[= -> ->]|[= -> ->]]; [done|by apply mg_adj_sym]. }
          split; intros [(_ & ? & _)|[_ H]]; try done; destruct Hn; by exists k.
    - cbn beta. intros h (Hs & M). split; [done|]. intros a k b. rewrite M. split.
      + intros [?|[H1 H2]]; [tauto|]. destruct H1. pose proof (mgw_in _ Wg _ _ _ H2) as (? & ? & ?). by apply comb2_iter.
      + intros [H1 H2]. left. split; [|done]. pose proof (mg_adj_nodes _ _ _ Wg H1) as (? & ? & ?). by apply comb2_iter.
  Qed.

  (** arrowheads that belong to P at all times *)
  Lemma orient_ok sb tc fuel fx complete sep g (P : node → node → Prop) : mg_wf g → mnodes g = V → stationary NS (mg_adj g) → fix_ok fx (mg_adj g) →
    sep_total sep g → size V * size V + 2 < fuel → stationary NS P → (∀ a b, mg_adj g a b → P a b → fx !! (a, b) = Some (Some Directed)) →
    returns (ts_orient NS o sb tc fuel fx complete sep g) (λ h, same_skel g h ∧ (∀ k, stationary NS (λ a b, has_mark h a k b)) ∧
      ∀ a b, mg_adj g a b → P a b → has_mark h a Directed b).
  Proof.
    intros Wg N St Hfx Hsep Hf SP HP. unfold ts_orient.
    assert (∀ g h, same_skel g h → sep_total sep g → sep_total sep h) as Hst by (intros g1 h1 (? & _ & ?); by apply sep_total_same).
    set (J := λ h, same_skel g h ∧ ∀ a b, mg_adj g a b → P a b → has_mark h a Directed b).
    eapply returns_bind; [by apply reset_adj|]. cbn beta. intros g1 (N1 & W1 & A1 & _).
    assert (same_skel g g1) as S1 by done.
    eapply returns_bind; [apply set_fixed_ok; [done|intros a b H; apply Hfx; by apply A1]|]. cbn beta. intros g2 ((N2 & W2 & A2) & M2).
    assert (J g2) as J2.
    { split; [split; [congruence|split; [done|intros a b; by rewrite A2, A1]]|]. intros a b Hab HPab. apply M2. split; [by apply A1|by apply HP]. }
    assert (∀ h, J h → returns (fill_homology NS o h) (λ h', J h' ∧ ∀ k, stationary NS (λ a b, has_mark h' a k b))) as Hfill.
    { intros h [(Nh & Wh & Ah) Mh]. eapply returns_mono; [apply fill_ok; [done|congruence|intros a b a' b' Hs; rewrite !Ah; by apply St]|].
      cbn beta. intros h' ((N' & W' & A') & Sm & M1 & _). split; [|done].
      split; [split; [congruence|split; [done|intros a b; by rewrite A', Ah]]|]. intros a b Hab HPab.
      assert (mg_adj h' a b) as [k Hk] by by apply A', Ah. destruct (M1 _ _ _ Hk) as (a' & b' & Hs & Hk').
      assert (has_mark h a' Directed b') as Hd by (apply Mh; [by apply (St _ _ _ _ Hs)|by apply (SP _ _ _ _ Hs)]).
      by rewrite (mgw_one _ Wh _ _ _ _ Hd Hk'). }
    assert (∀ h, J h → sep_total sep h ∧ size (mnodes h) * size (mnodes h) + 2 < fuel) as Hside.
    { intros h [(Nh & Wh & Ah) _]. split; [by apply (Hst g)|]. by rewrite Nh, N. }
    assert (∀ h rules, J h → (∀ i, i ∈ rules → 1 ≤ i ≤ 10) → returns (pag_orient o fuel sep h (Some rules)) J) as Hrules.
    { intros h rules Jh Hr. destruct (Hside h Jh) as [T F]. pose proof (orient_refines o fuel sep h (Some rules) Ho (proj1 (proj2 (proj1 Jh))) T F Hr) as HR.
      eapply returns_mono; [exact HR|]. cbn beta. intros h' [R _]. destruct Jh as [(Nh & Wh & Ah) Mh].
      split; [split; [etransitivity; [apply R|done]|split; [apply R|intros a b; etransitivity; [apply R|apply Ah]]]|].
      intros a b Hab HPab. by apply R, Mh. }
    eapply returns_bind.
    { instantiate (1 := J). destruct (Hside g2 J2) as [T F]. eapply returns_mono; [by apply v_structures_ok|]. cbn beta. intros h (W' & N' & A' & M' & _).
      destruct J2 as [(Nh & Wh & Ah) Mh]. split; [split; [congruence|split; [done|intros a b; by rewrite A', Ah]]|].
      intros a b Hab HPab. apply M'. left. by apply Mh. }
    cbn beta. intros g3 J3. eapply returns_bind; [by apply Hfill|]. cbn beta. intros g4 [J4 _].
    eapply returns_bind; [apply Hrules; [done|intros i Hi; set_unfold; lia]|]. cbn beta. intros g5 J5.
    eapply returns_bind.
    { instantiate (1 := J). destruct complete; [|done]. unfold orient_rest. eapply returns_bind.
      - instantiate (1 := J). destruct sb; [|done]. apply Hrules; [done|]. intros i Hi. set_unfold. lia.
      - cbn beta. intros g6 J6. destruct tc; [|done]. apply Hrules; [done|]. intros i Hi. set_unfold. lia. }
    cbn beta. intros g6 J6. eapply returns_mono; [by apply Hfill|]. cbn beta. intros h [[Hs Hm] Hst']. done.
  Qed.
End ts.
