(** RAI with overwrite_starting_graph = False: what a refinement pass removes does not depend on iteration orders. *)
From Verif Require Import Base BaseLemmas ModelGraph Spec ModelMixed SpecMixed ModelPC SpecPC ModelRAI SpecRAI SpecRAIStable
  ProofGraph ProofDsep ProofGraph2 ProofGraph3 ProofPDAG ProofPDAG2 ProofPDAG3 ProofMixed ProofMixed2 ProofPC ProofPC2 ProofRAI.

Section stable.
  Context (ci : citest) (f : node → node → nset → bool) (g0 : mgraph) (k : nat).
  Context (Hci : ∀ h i j c, ci h i j c = f i j (list_to_set c)) (Hsym : ∀ i j S, f i j S = f j i S) (Hw : pd_wf g0).

  Lemma sep_found_sym a b : sep_found f g0 k a b → sep_found f g0 k b a.
  Proof. intros (S & H1 & H2 & H3). exists S. rewrite Hsym. split_and!; [done..|]. tauto. Qed.

  Lemma without_ext (D E : node → node → Prop) h : (∀ a b, pd_adj g0 a b → (D a b ↔ E a b)) → without g0 D h → without g0 E h.
  Proof.
    intros H [N W]. split; [done|]. intros a b. destruct (W a b) as [W1 W2]. rewrite W1, W2. split.
    - split; intros [? Hn]; (split; [done|]); intros ?; apply Hn, H; try done; right; by left.
    - split; intros [? Hn]; (split; [done|]); intros ?; apply Hn, H; try done; by left.
  Qed.

  Lemma try_stable l i j s (P : node → node → Prop) :
    (∀ c, c ∈ l → f i j (list_to_set c) = true → sep_found f g0 k i j) →
    (sep_found f g0 k i j → ∃ c, c ∈ l ∧ f i j (list_to_set c) = true) →
    without g0 (λ a b, P a b ∧ sep_found f g0 k a b) (pc_graph s) →
    returns (for_brk l (pc_try ci i j) s) (λ s',
      without g0 (λ a b, (P a b ∨ is_pair a b i j) ∧ sep_found f g0 k a b) (pc_graph s')).
  Proof.
    intros H1 H2 Hs.
    apply (for_brk_returns _ _ _ (λ pre s', pc_graph s' = pc_graph s ∧ ∀ c, c ∈ pre → f i j (list_to_set c) = false)).
    - split; [done|]. intros c Hc. by apply elem_of_nil in Hc.
    - intros pre c post s' Hl [Eg Hpre]. unfold pc_try. rewrite Hci.
      destruct (f i j (list_to_set c)) eqn:E; simpl.
      + rewrite Eg. assert (sep_found f g0 k i j) as Hf.
        { apply (H1 c); [|done]. rewrite Hl. apply elem_of_app. right. left. }
        destruct Hs as [N W]. split; [done|]. intros a b. destruct (W a b) as [W1 W2].
        assert (is_pair a b i j → sep_found f g0 k a b) as Hp.
        { intros [[-> ->]|[-> ->]]; [done|]. by apply sep_found_sym. }
        rewrite pd_delete_darrow, pd_delete_uline, W1, W2. tauto.
      + split; [done|]. intros c' [?| ->%elem_of_list_singleton]%elem_of_app; auto.
    - intros s' [Eg Hall]. rewrite Eg. eapply without_ext; [|exact Hs]. intros a b _. cbn beta. split; [tauto|].
      intros [[?|Hp] Hf]; [done|]. exfalso.
      assert (sep_found f g0 k i j) as Hij by (destruct Hp as [[-> ->]|[-> ->]]; [done|by apply sep_found_sym]).
      destruct (H2 Hij) as (c & Hc & E). by rewrite Hall in E.
  Qed.

  Lemma cands_stable o src t t' i j c : iter_ok o → pd_same g0 src →
    c ∈ uniq (combs k (o t (pot_parents src i ∖ {[j]})) ++ combs k (o t' (pot_parents src j ∖ {[i]}))) →
    f i j (list_to_set c) = true → sep_found f g0 k i j.
  Proof.
    intros Ho [_ Hs] Hc Hf. exists (list_to_set c). apply elem_uniq, elem_of_app in Hc.
    assert (∀ x n y, x ∈ pot_parents src n ∖ {[y]} ↔ may_precede g0 x n ∧ x ≠ y) as Hp.
    { intros x n y. rewrite elem_of_difference, elem_of_singleton, elem_pot. unfold may_precede.
      by rewrite (proj1 (Hs x n)), (proj2 (Hs x n)). }
    destruct Hc as [Hc|Hc]; apply combs_elem in Hc as (Hn & Hl & Hz); try done; (split_and!; [by rewrite size_list_to_set|done|]);
      [left|right]; intros x Hx%elem_of_list_to_set; by apply Hp, Hz.
  Qed.

  Lemma stable_cands o src t t' i j : iter_ok o → pd_same g0 src → sep_found f g0 k i j →
    ∃ c, c ∈ uniq (combs k (o t (pot_parents src i ∖ {[j]})) ++ combs k (o t' (pot_parents src j ∖ {[i]}))) ∧
    f i j (list_to_set c) = true.
  Proof.
    intros Ho [_ Hs] (S & Hk & Hf & HS).
    assert (∀ x n y, x ∈ pot_parents src n ∖ {[y]} ↔ may_precede g0 x n ∧ x ≠ y) as Hp.
    { intros x n y. rewrite elem_of_difference, elem_of_singleton, elem_pot. unfold may_precede.
      by rewrite (proj1 (Hs x n)), (proj2 (Hs x n)). }
    assert (∀ c, (∀ z, z ∈ c ↔ z ∈ S) → f i j (list_to_set c) = true) as Hc.
    { intros c Hz. assert (list_to_set c = S) as ->; [|done]. apply set_eq. intros z. by rewrite elem_of_list_to_set. }
    destruct HS as [HS|HS].
    - destruct (combs_subset o t (pot_parents src i ∖ {[j]}) S Ho) as (c & Hcc & Hz).
      { intros x Hx. by apply Hp, HS. }
      exists c. split; [|by apply Hc]. apply elem_uniq, elem_of_app. left. by rewrite <-Hk.
    - destruct (combs_subset o t' (pot_parents src j ∖ {[i]}) S Ho) as (c & Hcc & Hz).
      { intros x Hx. by apply Hp, HS. }
      exists c. split; [|by apply Hc]. apply elem_uniq, elem_of_app. right. by rewrite <-Hk.
  Qed.

  Lemma unconnected_stable src i j s (P : node → node → Prop) : ¬ pd_adj src i j → pd_same g0 src →
    without g0 (λ a b, P a b ∧ sep_found f g0 k a b) (pc_graph s) →
    without g0 (λ a b, (P a b ∨ is_pair a b i j) ∧ sep_found f g0 k a b) (pc_graph s).
  Proof.
    intros Hn Hsame. pose proof Hsame as [_ Hs]. apply without_ext. intros a b Hab. cbn beta.
    assert (¬ is_pair a b i j) as Hp; [|tauto]. intros Hp. apply Hn.
    assert (pd_adj src a b) as Hab'.
    { unfold pd_adj in *. by rewrite <-(proj2 (Hs a b)), <-(proj1 (Hs a b)), <-(proj1 (Hs b a)). }
    destruct Hp as [[-> ->]|[-> ->]]; [done|]. apply pd_adj_sym; [by eapply pd_same_wf|done].
  Qed.

  Lemma endogenous_pair_stable o src i j s (P : node → node → Prop) : iter_ok o → pd_same g0 src → i ≠ j →
    without g0 (λ a b, P a b ∧ sep_found f g0 k a b) (pc_graph s) →
    returns (rai_endogenous_pair o ci false src k (i, j) s) (λ s',
      without g0 (λ a b, (P a b ∨ is_pair a b i j) ∧ sep_found f g0 k a b) (pc_graph s')).
  Proof.
    intros Ho Hs Hne Hg. unfold rai_endogenous_pair. cbv zeta. change (if false then pc_graph s else src) with src.
    assert (pd_wf src) as Hws by by eapply pd_same_wf.
    eapply returns_bind; [by apply m_is_connected_pd|]. cbn beta. intros b Hb. destruct b; simpl negb; cbv iota.
    - apply try_stable; [| |done].
      + intros c Hc Hf. by apply (cands_stable o src 1489 1490 i j c).
      + intros H. by apply (stable_cands o src 1489 1490 i j).
    - cbn [returns]. apply (unconnected_stable src); [|done..]. intros H. by apply Hb in H.
  Qed.

  Lemma exogenous_pair_stable o src n e s (P : node → node → Prop) : iter_ok o → pd_same g0 src → e ≠ n →
    without g0 (λ a b, P a b ∧ sep_found f g0 k a b) (pc_graph s) →
    returns (rai_exogenous_pair o ci false src k n e s) (λ s',
      without g0 (λ a b, (P a b ∨ is_pair a b e n) ∧ sep_found f g0 k a b) (pc_graph s')).
  Proof.
    intros Ho Hs Hne Hg. unfold rai_exogenous_pair. cbv zeta. change (if false then pc_graph s else src) with src. assert (pd_wf src) as Hws by by eapply pd_same_wf.
    eapply returns_bind; [by apply m_is_connected_pd|]. cbn beta. intros b Hb. destruct b; simpl negb; cbv iota.
    - apply try_stable; [| |done].
      + intros c Hc Hf. apply sep_found_sym. apply (cands_stable o src 1455 1456 n e c); [done..|by rewrite Hsym].
      + intros H%sep_found_sym. destruct (stable_cands o src 1455 1456 n e Ho Hs H) as (c & Hc & Hf). exists c. by rewrite Hsym.
    - cbn [returns]. apply (unconnected_stable src); [|done..]. intros H. by apply Hb in H.
  Qed.
End stable.

Lemma without_refl g (D : node → node → Prop) : (∀ a b, ¬ D a b) → without g D g.
Proof. intros H. split; [done|]. intros a b. pose proof (H a b). tauto. Qed.

Lemma refine_endogenous_stable o ci (f : node → node → nset → bool) en k s : iter_ok o →
  (∀ h i j c, ci h i j c = f i j (list_to_set c)) → (∀ i j S, f i j S = f j i S) → pd_wf (pc_graph s) →
  returns (refine_endogenous o ci false en k s) (λ s',
    without (pc_graph s) (λ a b, a ∈ en ∧ b ∈ en ∧ sep_found f (pc_graph s) k a b) (pc_graph s')).
Proof.
  intros Ho Hci Hsym Hw. pose proof (pd_copy_same _ Hw) as Hc. unfold refine_endogenous.
  eapply returns_mono.
  - apply (for_returns_pre _ _ _ (λ pre s', without (pc_graph s)
      (λ a b, ((a, b) ∈ pre ∨ (b, a) ∈ pre) ∧ sep_found f (pc_graph s) k a b) (pc_graph s'))).
    + apply without_refl. intros a b. rewrite !elem_of_nil. tauto.
    + intros pre [i j] post s1 Hl Hs1.
      assert ((i, j) ∈ comb2 (o 1483 en)) as Hij by (rewrite Hl; apply elem_of_app; right; left).
      apply comb2_iter in Hij as (_ & _ & Hne); [|done].
      eapply returns_mono; [exact (endogenous_pair_stable ci f (pc_graph s) k Hci Hsym Hw o _ i j s1
        (λ a b, (a, b) ∈ pre ∨ (b, a) ∈ pre) Ho Hc Hne Hs1)|].
      cbn beta. intros s2. apply without_ext. intros a b _. rewrite !elem_of_app, !elem_of_list_singleton. unfold is_pair.
      assert ((a, b) = (i, j) ↔ a = i ∧ b = j) as -> by (split; [by intros [= -> ->]|by intros [-> ->]]).
      assert ((b, a) = (i, j) ↔ a = j ∧ b = i) as -> by (split; [by intros [= -> ->]|by intros [-> ->]]). tauto.
  - cbn beta. intros s1. apply without_ext. intros a b Hab.
    assert ((a, b) ∈ comb2 (o 1483 en) ∨ (b, a) ∈ comb2 (o 1483 en) ↔ a ∈ en ∧ b ∈ en) as ->; [|tauto]. split.
    + intros [(? & ? & _)%comb2_iter|(? & ? & _)%comb2_iter]; done.
    + intros [Ha Hb]. apply (proj2 (comb2_iter o 1483 en a b Ho)); [done..|]. by apply (pd_adj_ne (pc_graph s)).
Qed.

Lemma refine_exogenous_stable o ci (f : node → node → nset → bool) en ex k s : iter_ok o → en ## ex →
  (∀ h i j c, ci h i j c = f i j (list_to_set c)) → (∀ i j S, f i j S = f j i S) → pd_wf (pc_graph s) →
  returns (refine_exogenous o ci false en ex k s) (λ s',
    without (pc_graph s) (λ a b, (a ∈ en ∧ b ∈ ex ∨ a ∈ ex ∧ b ∈ en) ∧ sep_found f (pc_graph s) k a b) (pc_graph s')).
Proof.
  intros Ho Hd Hci Hsym Hw. pose proof (pd_copy_same _ Hw) as Hc. unfold refine_exogenous.
  eapply returns_mono.
  - apply (for_returns_pre _ _ _ (λ pre s', without (pc_graph s)
      (λ a b, (a ∈ pre ∧ b ∈ ex ∨ a ∈ ex ∧ b ∈ pre) ∧ sep_found f (pc_graph s) k a b) (pc_graph s'))).
    + apply without_refl. intros a b. rewrite !elem_of_nil. tauto.
    + intros pre n post s1 Hl Hs1.
      assert (n ∈ en) as Hn by (apply (iter_elem o 1448 en n Ho); rewrite Hl; apply elem_of_app; right; left). eapply returns_mono.
      * apply (for_returns_pre _ _ _ (λ pre' s', without (pc_graph s)
          (λ a b, ((a ∈ pre ∧ b ∈ ex ∨ a ∈ ex ∧ b ∈ pre) ∨ (a = n ∧ b ∈ pre' ∨ a ∈ pre' ∧ b = n)) ∧ sep_found f (pc_graph s) k a b) (pc_graph s'))).
        -- eapply without_ext; [|exact Hs1]. intros a b _. rewrite !elem_of_nil. tauto.
        -- intros pre' e post' s2 Hl' Hs2.
           assert (e ∈ ex) as He by (apply (iter_elem o 1449 ex e Ho); rewrite Hl'; apply elem_of_app; right; left).
           assert (e ≠ n) as Hne by set_solver +Hn He Hd.
           eapply returns_mono; [exact (exogenous_pair_stable ci f (pc_graph s) k Hci Hsym Hw o _ n e s2
             (λ a b, (a ∈ pre ∧ b ∈ ex ∨ a ∈ ex ∧ b ∈ pre) ∨ (a = n ∧ b ∈ pre' ∨ a ∈ pre' ∧ b = n)) Ho Hc Hne Hs2)|].
           cbn beta. intros s3. apply without_ext. intros a b _. rewrite !elem_of_app, !elem_of_list_singleton. unfold is_pair. tauto.
      * cbn beta. intros s2. apply without_ext. intros a b _. rewrite !elem_of_app, !elem_of_list_singleton, !iter_elem by done. tauto.
  - cbn beta. intros s1. apply without_ext. intros a b _. rewrite !iter_elem by done. tauto.
Qed.
