(** LearnStructPC with overwrite_starting_graph = False: the skeleton does not depend on iteration orders. *)
From Verif Require Import Base BaseLemmas ModelGraph Spec ModelMixed SpecMixed ModelPC SpecPC
  ProofGraph ProofDsep ProofGraph2 ProofGraph3 ProofPDAG ProofPDAG2 ProofPDAG3 ProofMixed ProofMixed2 ProofPC.

Lemma pair_set_comm (a b : node) : ({[a; b]} : nset) = {[b; a]}.
Proof. set_solver. Qed.

Section stable.
  Context (ci : citest) (f : node → node → nset → bool) (V : nset).
  Context (Hci : ∀ h i j c, ci h i j c = f i j (list_to_set c)) (Hsym : ∀ i j S, f i j S = f j i S).

  (** an edge that survives the levels below k *)
  Definition survives (k : nat) (a b : node) : Prop :=
    a ∈ V ∧ b ∈ V ∧ a ≠ b ∧ ∀ S : nset, S ⊆ V ∖ {[a; b]} → size S < k → f a b S = false.

  Definition char (k : nat) (P : node → node → Prop) (g : mgraph) : Prop :=
    mnodes g = V ∧ (∀ a b, ¬ darrow g a b) ∧
    ∀ a b, uline g a b ↔ survives k a b ∧ (P a b → ∀ S : nset, S ⊆ V ∖ {[a; b]} → size S = k → f a b S = false).

  Definition stop (k : nat) : Prop := ∀ g, char k (λ _ _, False) g → ∀ n, n ∈ V → fan_in g n ≤ k.

  Lemma pc_pair_stable o k i j s (P : node → node → Prop) : iter_ok o → (∀ a b, P a b → P b a) → i ∈ V → j ∈ V → i ≠ j →
    char k P (pc_graph s) →
    returns (pc_pair o ci false (pd_complete (mempty V) (Some V)) k (i, j) s) (λ s',
      char k (λ a b, P a b ∨ is_pair a b i j) (pc_graph s')).
  Proof.
    intros Ho HP Hi Hj Hne Hg. unfold pc_pair. set (G := pd_complete (mempty V) (Some V)).
    assert (pd_wf G) as HG by exact (sk_wf _ _ _ (pc_init_inv o ci V Ho)).
    assert (∀ x y z, x ∈ V → z ∈ und G x ∖ {[y]} ↔ z ∈ V ∧ z ≠ x ∧ z ≠ y) as HGu.
    { intros x y z Hx. rewrite elem_of_difference, elem_of_singleton.
      pose proof (pd_complete_spec V z x) as H. unfold uline, has_mark in H. unfold und, G. rewrite H. tauto. }
    eapply returns_bind; [by apply m_is_connected_pd|]. cbn beta. intros b Hb.
    assert (b = true) as ->. { apply Hb. left. by apply pd_complete_spec. }
    simpl negb. cbv iota.
    set (L := uniq _).
    assert (∀ c, c ∈ L → f i j (list_to_set c) = true → ∃ S : nset, S ⊆ V ∖ {[i; j]} ∧ size S = k ∧ f i j S = true) as HL1.
    { intros c Hc Hf. exists (list_to_set c). apply elem_uniq, elem_of_app in Hc.
      assert (NoDup c ∧ length c = k ∧ ∀ z, z ∈ c → z ∈ V ∧ z ≠ i ∧ z ≠ j) as (Hnd & Hl & Hz).
      { destruct Hc as [Hc|Hc]; apply combs_elem in Hc as (? & ? & Hz); try done; split_and!; try done;
          intros z ?%Hz%HGu; naive_solver. }
      split_and!; [|by rewrite size_list_to_set|done].
      intros z Hzc%elem_of_list_to_set. apply Hz in Hzc. set_solver +Hzc. }
    assert (∀ S : nset, S ⊆ V ∖ {[i; j]} → size S = k → ∃ c, c ∈ L ∧ list_to_set c = S) as HL2.
    { intros S HS Hk. destruct (combs_subset o 52 (und G i ∖ {[j]}) S Ho) as (c & Hc & Hcz).
      { intros z Hz. apply HGu; [done|]. apply HS in Hz. set_solver +Hz. }
      exists c. split; [apply elem_uniq, elem_of_app; left; by rewrite <-Hk|].
      apply set_eq. intros z. by rewrite elem_of_list_to_set. }
    destruct Hg as (N & D & U).
    apply (for_brk_returns _ _ _ (λ pre s', pc_graph s' = pc_graph s ∧ ∀ c, c ∈ pre → f i j (list_to_set c) = false)).
    - split; [done|]. intros c Hc. by apply elem_of_nil in Hc.
    - intros pre c post s' Hl [Eg Hpre]. unfold pc_try. rewrite Hci.
      destruct (f i j (list_to_set c)) eqn:E; simpl.
      + rewrite Eg. split_and!; [done|..].
        * intros a b [H _]%pd_delete_darrow. by apply D in H.
        * destruct (HL1 c) as (S0 & HS0 & Hk0 & Ht0); [rewrite Hl; apply elem_of_app; right; left|done|].
          intros a b. rewrite pd_delete_uline, U. split.
          -- intros [[H1 H2] H3]. split; [done|]. intros [?|?]; [auto|done].
          -- intros [H1 H2]. split_and!; [done|auto|]. intros Hp.
             assert (f a b S0 = false) as E'; [|].
             { apply H2; [by right| |done]. destruct Hp as [[-> ->]|[-> ->]]; [done|]. by rewrite pair_set_comm. }
             destruct Hp as [[-> ->]|[-> ->]]; [congruence|]. rewrite Hsym in E'. congruence.
      + split; [done|]. intros c' [?| ->%elem_of_list_singleton]%elem_of_app; auto.
    - intros s' [Eg Hall]. rewrite Eg. split_and!; [done|done|].
      intros a b. rewrite U. split; [|intros [? ?]; split; auto].
      intros [H1 H2]. split; [done|]. intros [?|Hp]; [auto|]. intros S HS Hk.
      destruct Hp as [[-> ->]|[-> ->]].
      + destruct (HL2 S HS Hk) as (c & Hc & <-). by apply Hall.
      + rewrite pair_set_comm in HS. destruct (HL2 S HS Hk) as (c & Hc & <-). rewrite Hsym. by apply Hall.
  Qed.

  Lemma char_ext k k' (P Q : node → node → Prop) g : (∀ a b, survives k a b ∧ (P a b → ∀ S : nset, S ⊆ V ∖ {[a; b]} → size S = k → f a b S = false) ↔
     survives k' a b ∧ (Q a b → ∀ S : nset, S ⊆ V ∖ {[a; b]} → size S = k' → f a b S = false)) → char k P g → char k' Q g.
  Proof. intros H (H1 & H2 & H3). split_and!; [done..|]. intros a b. by rewrite H3. Qed.

  Lemma char_fan k g g' n : char k (λ _ _, False) g → char k (λ _ _, False) g' → fan_in g n = fan_in g' n.
  Proof.
    intros (_ & D & U) (_ & D' & U'). unfold fan_in, pd_parents, und.
    assert (mset g n Directed = mset g' n Directed) as ->.
    { apply set_eq. intros z. split; intros Hz; exfalso; [by apply (D z n)|by apply (D' z n)]. }
    assert (mset g n Tail = mset g' n Tail) as ->; [|done].
    apply set_eq. intros z. change (uline g z n ↔ uline g' z n). by rewrite U, U'.
  Qed.

  Lemma pc_levels_stable o fuel : iter_ok o → ∀ k s s', char k (λ _ _, False) (pc_graph s) →
    pc_levels o ci false fuel (pd_complete (mempty V) (Some V)) k s = Ok s' →
    ∃ k', k ≤ k' ∧ stop k' ∧ (∀ i, k ≤ i → i < k' → ¬ stop i) ∧ char k' (λ _ _, False) (pc_graph s').
  Proof.
    intros Ho. induction fuel as [|fuel IH]; intros k s s' Hg; simpl; [done|].
    destruct (exit_cond o (pc_graph s) k) eqn:E.
    - intros [= <-]. exists k. split_and!; [done| |lia|done].
      intros g Hg' n Hn. rewrite (char_fan k g (pc_graph s)) by done. revert n Hn.
      destruct Hg as (<- & _). by apply (exit_cond_spec o Ho).
    - assert (returns (for_ (comb2 (o 46 V)) (pc_pair o ci false (pd_complete (mempty V) (Some V)) k) s)
        (λ s, char (S k) (λ _ _, False) (pc_graph s))) as Hr.
      { eapply returns_mono.
        - apply (for_returns_pre _ _ _ (λ pre s, char k (λ a b, (a, b) ∈ pre ∨ (b, a) ∈ pre) (pc_graph s))).
          + eapply char_ext; [|exact Hg]. intros a b. rewrite !elem_of_nil. tauto.
          + intros pre [i j] post s1 Hl Hs1.
            assert ((i, j) ∈ comb2 (o 46 V)) as Hij by (rewrite Hl; apply elem_of_app; right; left).
            apply comb2_iter in Hij as (Hi & Hj & Hne); [|done].
            eapply returns_mono; [apply pc_pair_stable; [done| |done..]|].
            { intros a b [?|?]; [by right|by left]. }
            cbn beta. intros s2. apply char_ext. intros a b. rewrite !elem_of_app, !elem_of_list_singleton. unfold is_pair.
            assert (((a, b) ∈ pre ∨ (b, a) ∈ pre) ∨ (a = i ∧ b = j ∨ a = j ∧ b = i) ↔
              ((a, b) ∈ pre ∨ (a, b) = (i, j)) ∨ (b, a) ∈ pre ∨ (b, a) = (i, j)) as ->; [|done].
            split; [intros [[?|?]|[[-> ->]|[-> ->]]]; auto|]. intros [[?|?]|[?|?]]; simplify_eq; auto.
        - cbn beta. intros s1. apply char_ext. intros a b. split.
          + intros [(Ha & Hb & Hne & Hlt) Heq]. split; [|done]. split_and!; [done..|]. intros S HS HSk.
            destruct (decide (size S = k)) as [Hk|]; [|apply Hlt; [done|lia]]. apply Heq; [|done..].
            destruct (proj2 (comb2_iter o 46 V a b Ho) Ha Hb Hne); auto.
          + intros [(Ha & Hb & Hne & Hlt) _]. split.
            * split_and!; [done..|]. intros S HS HSk. apply Hlt; [done|lia].
            * intros _ S HS HSk. apply Hlt; [done|lia]. }
      change (mnodes (pd_complete (mempty V) (Some V))) with V.
      apply returns_ok in Hr as (s1 & -> & Hs1). simpl. intros Hrun.
      destruct (IH (S k) s1 s' Hs1 Hrun) as (k' & Hle & Hst & Hns & Hc). exists k'. split_and!; [lia|done| |done].
      intros i Hi1 Hi2. destruct (decide (i = k)) as [->|]; [|apply Hns; lia].
      intros Hstop. apply not_true_iff_false in E. apply E. apply (exit_cond_spec o Ho).
      destruct Hg as (HN & Hg). rewrite HN. apply Hstop. by split.
  Qed.
End stable.

(** pd_copy of the complete graph *)
Lemma pd_copy_complete V : ∀ n k, mset (pd_copy (pd_complete (mempty V) (Some V))) n k = mset (pd_complete (mempty V) (Some V)) n k.
Proof.
  intros n k. unfold pd_copy. simpl. case_decide as H; [done|]. case_decide as H1.
  - destruct H1 as [? ->]. destruct H. split; [done|]. by left.
  - destruct (decide (n ∈ V ∧ k ∈ PDAG_T)); done.
Qed.

Lemma pc_levels_src o ci ow fuel src src' : (∀ n k, mset src n k = mset src' n k) → mnodes src = mnodes src' → ∀ k s,
  pc_levels o ci ow fuel src k s = pc_levels o ci ow fuel src' k s.
Proof.
  intros Hm Hn. induction fuel as [|fuel IH]; intros k s; [done|]. simpl. destruct (exit_cond o (pc_graph s) k); [done|].
  assert (mnodes (if ow then pc_graph s else src) = mnodes (if ow then pc_graph s else src')) as -> by (destruct ow; done).
  rewrite (for_ext _ (pc_pair o ci ow src k) (pc_pair o ci ow src' k)).
  - destruct (for_ _ _ s); simpl; [apply IH|done..].
  - intros [i j] s' _. unfold pc_pair. destruct ow; [done|].
    unfold m_is_connected, connected, is_any_mark, und. cbn. by rewrite !Hm.
Qed.

(** C59 *)
Lemma pc_skeleton_order_independent o1 o2 ci (f : node → node → nset → bool) fuel1 fuel2 V : iter_ok o1 → iter_ok o2 →
  (∀ h i j c, ci h i j c = f i j (list_to_set c)) → (∀ i j S, f i j S = f j i S) →
  size V * size V + 1 < fuel1 → size V * size V + 1 < fuel2 →
  ∃ s1 s2, pc_learn o1 ci false fuel1 V = Ok s1 ∧ pc_learn o2 ci false fuel2 V = Ok s2 ∧
    pd_same_skeleton (pc_graph s1) (pc_graph s2).
Proof.
  intros Ho1 Ho2 Hci Hsym Hf1 Hf2.
  assert (∀ o fuel, iter_ok o → size V * size V + 1 < fuel → ∃ s k, pc_learn o ci false fuel V = Ok s ∧
    mnodes (pc_graph s) = V ∧ stop f V k ∧ (∀ i, i < k → ¬ stop f V i) ∧
    ∀ a b, pd_adj (pc_graph s) a b ↔ survives f V k a b) as H.
  { intros o fuel Ho Hf.
    pose proof (pc_learn_result_of o ci false fuel V Ho Hf) as H. apply returns_ok in H as (s & Es & s0 & E0 & Hres).
    unfold pc_skeleton in E0. change (pc_graph (pc_init o V)) with (pd_complete (mempty V) (Some V)) in E0.
    erewrite pc_levels_src in E0; [|apply pd_copy_complete|done].
    destruct (pc_levels_stable ci f V Hci Hsym o fuel Ho 0 (pc_init o V) s0) as (k & _ & Hst & Hns & Hc); [|done|].
    { split_and!; [done|apply pd_complete_dir|]. intros a b. change (pc_graph (pc_init o V)) with (pd_complete (mempty V) (Some V)).
      rewrite pd_complete_spec. unfold survives. split.
      - intros (? & ? & ?). split; [|done]. split_and!; try done. intros S _ ?. lia.
      - intros [(? & ? & ? & _) _]. done. }
    apply pc_result_of_skeleton in Hres as (_ & _ & _ & _ & _ & HN & Hadj & _).
    exists s, k. split_and!; [done|done|done|intros i Hi; apply Hns; lia|].
    intros a b. rewrite Hadj. destruct Hc as (_ & _ & HU). rewrite HU. tauto. }
  destruct (H o1 fuel1 Ho1 Hf1) as (s1 & k1 & E1 & N1 & S1 & L1 & A1).
  destruct (H o2 fuel2 Ho2 Hf2) as (s2 & k2 & E2 & N2 & S2 & L2 & A2).
  assert (k1 = k2) as ->.
  { destruct (lt_eq_lt_dec k1 k2) as [[Hlt|]|Hlt]; [|done|]; [by apply L2 in Hlt|by apply L1 in Hlt]. }
  exists s1, s2. split_and!; [done..|]. split; [congruence|]. intros a b. by rewrite A1, A2.
Qed.

(** the orientations do depend on the order: 0 and 1 are separated by {2} and by {3} only *)
Definition ci_two : node → node → nset → bool := λ i j S,
  bool_decide (({[i; j]} : nset) = {[0; 1]}) && (bool_decide (S = {[2]}) || bool_decide (S = {[3]})).

Lemma pc_orientation_order_dependent : ∃ ci (f : node → node → nset → bool) V fuel o1 o2 s1 s2,
  (∀ h i j c, ci h i j c = f i j (list_to_set c)) ∧ (∀ i j S, f i j S = f j i S) ∧ iter_ok o1 ∧ iter_ok o2 ∧
  size V * size V + 1 < fuel ∧ pc_learn o1 ci false fuel V = Ok s1 ∧ pc_learn o2 ci false fuel V = Ok s2 ∧
  ¬ pd_same (pc_graph s1) (pc_graph s2).
Proof.
  set (ci := (λ h i j c, ci_two i j (list_to_set c)) : citest). set (V := {[0;1;2;3]} : nset).
  assert (∀ o, iter_ok o → ∃ s, pc_learn o ci false 30 V = Ok s) as Hok.
  { intros o Ho. assert (size V * size V + 1 < 30) as Hf by (vm_compute; lia).
    pose proof (pc_learn_result o ci false 30 V Ho Hf) as H. apply returns_ok in H as (s & E & _). eauto. }
  destruct (Hok ord_up ord_up_ok) as [s1 E1]. destruct (Hok ord_down ord_down_ok) as [s2 E2].
  exists ci, ci_two, V, 30, ord_up, ord_down, s1, s2. split_and!; [done| |apply ord_up_ok|apply ord_down_ok|vm_compute; lia|done|done|].
  - intros i j S. unfold ci_two. by rewrite (pair_set_comm i j).
  - assert (returns (pc_learn ord_up ci false 30 V) (λ s, xorb (bool_decide (0 ∈ mset (pc_graph s) 3 Directed)) true = true)) as H1.
    { vm_compute. reflexivity. }
    assert (returns (pc_learn ord_down ci false 30 V) (λ s, bool_decide (0 ∈ mset (pc_graph s) 3 Directed) = true)) as H2.
    { vm_compute. reflexivity. }
    rewrite E1 in H1. rewrite E2 in H2. simpl in H1, H2. intros [_ Hs].
    apply bool_decide_eq_true in H2. apply Hs in H2. rewrite bool_decide_true in H1 by done. done.
Qed.
