(** Proofs about LearnStructPC. *)
From Verif Require Import Base BaseLemmas ModelGraph Spec ModelMixed SpecMixed ModelPC SpecPC
  ProofGraph ProofDsep ProofGraph2 ProofGraph3 ProofPDAG ProofPDAG2 ProofPDAG3 ProofMixed ProofMixed2.

(** ** keys, unique_element_iterator, combinations of a set *)
Lemma hkey_eq i j a b : hkey i j = hkey a b ↔ is_pair a b i j.
Proof.
  unfold hkey, is_pair. destruct (decide (i < j)), (decide (a < b)); split.
  all: try (intros H'; simplify_eq; auto; lia).
  all: intros [[-> ->]|[-> ->]]; try done; try lia; f_equal; lia.
Qed.
Lemma hkey_comm i j : hkey i j = hkey j i.
Proof. apply hkey_eq. by right. Qed.

Lemma elem_uniq_go l : ∀ seen e, e ∈ uniq_go seen l ↔ e ∈ l ∧ e ∉ seen.
Proof.
  induction l as [|x l IH]; intros seen e; simpl.
  - set_solver.
  - case_decide as Hx.
    + rewrite IH, elem_of_cons. split; [tauto|]. intros [[->|?] ?]; tauto.
    + rewrite elem_of_cons, IH, !elem_of_cons. destruct (decide (e = x)) as [->|]; tauto.
Qed.
Lemma elem_uniq l e : e ∈ uniq l ↔ e ∈ l.
Proof. unfold uniq. rewrite elem_uniq_go. set_solver. Qed.

Lemma filter_sublist {A} (P : A → Prop) `{∀ x, Decision (P x)} (l : list A) : filter P l `sublist_of` l.
Proof.
  induction l as [|x l IH]; [constructor|]. rewrite filter_cons. case_decide; by constructor.
Qed.

Lemma sublist_elem {A} (l k : list A) x : l `sublist_of` k → x ∈ l → x ∈ k.
Proof.
  induction 1 as [|y l k _ IH|y l k _ IH]; [done|..]; rewrite ?elem_of_cons; tauto.
Qed.
Lemma sublist_nodup {A} (l k : list A) : l `sublist_of` k → NoDup k → NoDup l.
Proof.
  induction 1 as [|y l k Hs IH|y l k Hs IH]; [done|..]; rewrite ?NoDup_cons; [|tauto].
  intros [Hy Hk]. split; [|auto]. intros ?. by apply Hy, (sublist_elem l).
Qed.

Lemma combs_subset o n (P S : nset) : iter_ok o → S ⊆ P → ∃ c, c ∈ combs (size S) (o n P) ∧ ∀ z, z ∈ c ↔ z ∈ S.
Proof.
  intros Ho Hsub. exists (filter (.∈ S) (o n P)).
  assert (∀ z, z ∈ filter (.∈ S) (o n P) ↔ z ∈ S) as Hz.
  { intros z. rewrite elem_of_list_filter, iter_elem by done. set_solver. }
  split; [|done]. apply elem_of_combs. split; [apply filter_sublist|].
  assert (filter (.∈ S) (o n P) ≡ₚ elements S) as ->; [|done].
  apply NoDup_Permutation; [apply NoDup_filter, iter_nodup; done|apply NoDup_elements|].
  intros z. by rewrite Hz, elem_of_elements.
Qed.

Lemma combs_elem o n (P : nset) k c : iter_ok o → c ∈ combs k (o n P) → NoDup c ∧ length c = k ∧ ∀ z, z ∈ c → z ∈ P.
Proof.
  intros Ho [Hs Hl]%elem_of_combs. split_and!; [|done|].
  - exact (sublist_nodup _ _ Hs (iter_nodup o n P Ho)).
  - intros z Hz. apply (iter_elem o n P z Ho). by eapply sublist_elem.
Qed.

(** ** deleting an edge *)
Lemma pd_delete_darrow g i j a b : darrow (pd_delete_edge g i j) a b ↔ darrow g a b ∧ ¬ is_pair a b i j.
Proof.
  unfold pd_delete_edge, delete_undirected, delete_directed, darrow, has_mark, is_pair. rewrite !elem_mdis. naive_solver.
Qed.
Lemma pd_delete_uline g i j a b : uline (pd_delete_edge g i j) a b ↔ uline g a b ∧ ¬ is_pair a b i j.
Proof.
  unfold pd_delete_edge, delete_undirected, delete_directed, uline, has_mark, is_pair. rewrite !elem_mdis. naive_solver.
Qed.
Lemma is_pair_sym a b i j : is_pair a b i j ↔ is_pair b a i j.
Proof. unfold is_pair. tauto. Qed.
Lemma pd_delete_wf g i j : pd_wf g → pd_wf (pd_delete_edge g i j).
Proof.
  intros Hwf. split.
  - intros a b [H _]%pd_delete_darrow. by apply (pdw_dir _ Hwf).
  - intros a b [H _]%pd_delete_uline. by apply (pdw_und _ Hwf).
  - intros a b. rewrite !pd_delete_uline, (is_pair_sym a b). intros [H ?]. split; [by apply (pdw_sym _ Hwf)|done].
  - intros a b [H _]%pd_delete_uline [? _]%pd_delete_darrow. by eapply (pdw_one _ Hwf).
Qed.

Lemma tested_sym log x y S b : tested log x y S b → tested log y x S b.
Proof. intros (c & Hc & H). exists c. split; [done|tauto]. Qed.
Lemma tested_mono (log log' : clog) x y S b : (∀ e, e ∈ log → e ∈ log') → tested log x y S b → tested log' x y S b.
Proof. intros Hsub (c & Hc & H). exists c. split; [done|]. destruct H; auto. Qed.

Lemma honest_cons ci log i j c : honest ci log → honest ci ((i, j, c, ci log i j c) :: log).
Proof.
  intros Hh l1 l2 i' j' c' b' Heq. destruct l1 as [|e l1]; simplify_eq/=; [done|]. by eapply Hh.
Qed.

(** ** the skeleton phase *)
Record sk_inv (ci : citest) (V : nset) (s : pc_state) : Prop := {
  sk_nodes : mnodes (pc_graph s) = V;
  sk_wf : pd_wf (pc_graph s);
  sk_dir : ∀ a b, ¬ darrow (pc_graph s) a b;
  sk_dom : ∀ a b, a ∈ V → b ∈ V → a ≠ b → is_Some (pc_sep s !! hkey a b);
  sk_honest : honest ci (pc_log s);
  sk_log : ∀ i j c b, (i, j, c, b) ∈ pc_log s →
    i ∈ V ∧ j ∈ V ∧ i ≠ j ∧ NoDup c ∧ ∀ z, z ∈ c → z ∈ V ∧ z ≠ i ∧ z ≠ j;
  sk_true : ∀ i j c, (i, j, c, true) ∈ pc_log s → ¬ uline (pc_graph s) i j;
  sk_rem : ∀ a b, a ∈ V → b ∈ V → a ≠ b → ¬ uline (pc_graph s) a b →
    ∃ S, pc_sep s !! hkey a b = Some S ∧ tested (pc_log s) a b S true;
}.

Definition sk_le (s s' : pc_state) : Prop :=
  (∀ a b, uline (pc_graph s') a b → uline (pc_graph s) a b) ∧ (∀ e, e ∈ pc_log s → e ∈ pc_log s').

Lemma sk_le_refl s : sk_le s s.
Proof. by split. Qed.
Lemma sk_le_trans s1 s2 s3 : sk_le s1 s2 → sk_le s2 s3 → sk_le s1 s3.
Proof. intros [? ?] [? ?]. split; auto. Qed.

Definition level_done (s : pc_state) (k : nat) (P : node → node → Prop) : Prop :=
  ∀ a b (S : nset), P a b → uline (pc_graph s) a b → (∀ z, z ∈ S → uline (pc_graph s) z a ∧ z ≠ b) → size S = k →
    tested (pc_log s) a b S false.

Lemma level_done_mono s s' k P : sk_le s s' → level_done s k P → level_done s' k P.
Proof.
  intros [H1 H2] Hd a b S HP Hab HS Hk. eapply tested_mono; [exact H2|]. apply Hd; [done|by apply H1| |done].
  intros z [? ?]%HS. split; [by apply H1|done].
Qed.

Section pc.
  Context (o : order) (Ho : iter_ok o) (ci : citest) (ow : bool) (V : nset) (src : mgraph).
  Context (Hsn : mnodes src = V) (Hsw : pd_wf src) (Hsd : ∀ a b, ¬ darrow src a b).

  Lemma pc_pair_spec k i j s : sk_inv ci V s → (∀ a b, uline (pc_graph s) a b → uline src a b) →
    i ∈ V → j ∈ V → i ≠ j →
    returns (pc_pair o ci ow src k (i, j) s) (λ s', sk_inv ci V s' ∧ sk_le s s' ∧ level_done s' k (λ a b, is_pair a b i j)).
  Proof.
    intros Hs Hsub Hi Hj Hne. unfold pc_pair.
    set (G := if ow then pc_graph s else src).
    assert (pd_wf G ∧ (∀ a b, ¬ darrow G a b) ∧ ∀ a b, uline (pc_graph s) a b → uline G a b) as (HGw & HGd & HGs).
    { unfold G. destruct ow; [|done]. split_and!; [apply Hs..|done]. }
    eapply returns_bind; [by apply m_is_connected_pd|]. cbn beta. intros b Hb.
    destruct b; simpl negb; cbv iota.
    2:{ split_and!; [done|apply sk_le_refl|]. intros a b S Hp Hu.
        assert (uline G i j) as HG.
        { destruct Hp as [[-> ->]|[-> ->]]; apply HGs in Hu; [done|by apply (pdw_sym _ HGw)]. }
        assert (false = true); [|done]. apply Hb. by left. }
    apply (for_brk_returns _ _ _ (λ pre s', sk_inv ci V s' ∧ sk_le s s' ∧ pc_graph s' = pc_graph s ∧
      ∀ c, c ∈ pre → (i, j, c, false) ∈ pc_log s')).
    - split_and!; [done|apply sk_le_refl|done|set_solver +].
    - intros pre c post s' Hl (Hs' & Hle & Hg & Hpre).
      assert (NoDup c ∧ ∀ z, z ∈ c → z ∈ V ∧ z ≠ i ∧ z ≠ j) as Hc.
      { assert (c ∈ uniq (combs k (o 52 (und G i ∖ {[j]})) ++ combs k (o 53 (und G j ∖ {[i]})))) as Hin.
        { rewrite Hl. apply elem_of_app. right. left. }
        apply elem_uniq, elem_of_app in Hin.
        assert (∀ x y z, z ∈ und G x ∖ {[y]} → z ∈ V ∧ z ≠ x ∧ z ≠ y) as HV.
        { intros x y z. rewrite elem_of_difference, elem_of_singleton. intros [Hz Hzy].
          apply (pdw_und _ HGw z x) in Hz as (HzV & _ & Hzx). split_and!; [|done..].
          revert HzV. unfold G. destruct ow; [by rewrite (sk_nodes _ _ _ Hs)|by rewrite Hsn]. }
        destruct Hin as [Hin|Hin]; apply combs_elem in Hin as (? & _ & Hz); try done; (split; [done|]);
          intros z ?%Hz%HV; naive_solver. }
      unfold pc_try. destruct (ci (pc_log s') i j c) eqn:E; simpl.
      + (* independent *)
        assert (sk_inv ci V (PCState (pd_delete_edge (pc_graph s') i j) (sep_set (pc_sep s') i j c)
          ((i, j, c, true) :: pc_log s'))) as Hinv.
        { split; simpl.
          - apply Hs'.
          - apply pd_delete_wf, Hs'.
          - intros a b [H _]%pd_delete_darrow. by apply (sk_dir _ _ _ Hs') in H.
          - intros a b Ha Hb' Hab. unfold sep_set.
            destruct (decide (hkey i j = hkey a b)) as [->|Hk]; [rewrite lookup_insert; eauto|].
            rewrite lookup_insert_ne by done. by apply (sk_dom _ _ _ Hs').
          - rewrite <-E. apply honest_cons, Hs'.
          - intros i' j' c' b' [Heq|H]%elem_of_cons; [|by apply (sk_log _ _ _ Hs') in H].
            simplify_eq. tauto.
          - intros i' j' c' [Heq|H]%elem_of_cons [Hu Hp]%pd_delete_uline.
            + simplify_eq. apply Hp. by left.
            + by apply (sk_true _ _ _ Hs') in H.
          - intros a b Ha Hb' Hab Hu. unfold sep_set.
            destruct (decide (hkey i j = hkey a b)) as [Hk|Hk].
            + exists (list_to_set c). rewrite Hk, lookup_insert. split; [done|]. apply hkey_eq in Hk.
              exists c. split; [intros z; by rewrite elem_of_list_to_set|].
              destruct Hk as [[-> ->]|[-> ->]]; [left|right]; left.
            + destruct (sk_rem _ _ _ Hs' a b) as (S & HS & Ht); [done..| |].
              * intros Hu'. apply Hu. apply pd_delete_uline. split; [done|]. by rewrite <-hkey_eq.
              * exists S. rewrite lookup_insert_ne by done. split; [done|].
                eapply tested_mono; [|exact Ht]. intros e ?. by right. }
        split_and!; [done| |].
        * destruct Hle as [H1 H2]. split; simpl.
          -- intros a b [H _]%pd_delete_uline. by apply H1.
          -- intros e ?%H2. by right.
        * intros a b S Hp [_ Hu]%pd_delete_uline. done.
      + (* dependent *)
        split_and!.
        * split; simpl; try apply Hs'.
          -- rewrite <-E. apply honest_cons, Hs'.
          -- intros i' j' c' b' [Heq|H]%elem_of_cons; [|by apply (sk_log _ _ _ Hs') in H].
             simplify_eq. tauto.
          -- intros i' j' c' [Heq|H]%elem_of_cons; [by simplify_eq|]. by apply (sk_true _ _ _ Hs') in H.
          -- intros a b Ha Hb' Hab Hu. destruct (sk_rem _ _ _ Hs' a b) as (S & HS & Ht); [done..|].
             exists S. split; [done|]. eapply tested_mono; [|exact Ht]. intros e ?. by right.
        * destruct Hle as [H1 H2]. split; simpl; [done|]. intros e ?%H2. by right.
        * done.
        * intros c' [?%Hpre| ->%elem_of_list_singleton]%elem_of_app; [by right|left].
    - intros s' (Hs' & Hle & Hg & Hall). split_and!; [done..|].
      intros a b S Hp Hu HS Hk. rewrite Hg in *.
      destruct Hp as [[-> ->]|[-> ->]].
      + destruct (combs_subset o 52 (und G i ∖ {[j]}) S Ho) as (c & Hc & Hcz).
        { intros z [Hz ?]%HS. apply elem_of_difference. rewrite elem_of_singleton. split; [by apply HGs|done]. }
        exists c. split; [done|]. left. apply Hall, elem_uniq, elem_of_app. left. by rewrite <-Hk.
      + destruct (combs_subset o 53 (und G j ∖ {[i]}) S Ho) as (c & Hc & Hcz).
        { intros z [Hz ?]%HS. apply elem_of_difference. rewrite elem_of_singleton. split; [by apply HGs|done]. }
        exists c. split; [done|]. right. apply Hall, elem_uniq, elem_of_app. right. by rewrite <-Hk.
  Qed.

  Lemma fan_in_und s n : sk_inv ci V s → fan_in (pc_graph s) n = size (und (pc_graph s) n).
  Proof.
    intros Hs. unfold fan_in. assert (pd_parents (pc_graph s) n = ∅) as ->; [|by rewrite size_empty].
    apply set_eq. intros z. split; [|set_solver +]. intros Hz. by apply (sk_dir _ _ _ Hs z n) in Hz.
  Qed.
  Lemma fan_in_le s n : sk_inv ci V s → fan_in (pc_graph s) n ≤ size V.
  Proof.
    intros Hs. rewrite fan_in_und by done. apply subseteq_size. intros z Hz.
    apply (pdw_und _ (sk_wf _ _ _ Hs) z n) in Hz as (? & _). by rewrite (sk_nodes _ _ _ Hs) in *.
  Qed.

  Lemma exit_cond_spec g k : exit_cond o g k = true ↔ ∀ n, n ∈ mnodes g → fan_in g n ≤ k.
  Proof.
    unfold exit_cond. rewrite forallb_forall. split.
    - intros H n Hn. specialize (H n). rewrite negb_true_iff, bool_decide_eq_false in H.
      apply Nat.nlt_ge, H, elem_of_list_In, iter_elem; done.
    - intros H n Hn%elem_of_list_In. rewrite iter_elem in Hn by done.
      rewrite negb_true_iff, bool_decide_eq_false. specialize (H n Hn). lia.
  Qed.

  Lemma pc_levels_spec fuel : ∀ k s, size V < fuel + k → k ≤ size V → sk_inv ci V s →
    (∀ a b, uline (pc_graph s) a b → uline src a b) →
    (∀ k', k' < k → level_done s k' (λ _ _, True)) →
    returns (pc_levels o ci ow fuel src k s) (λ s', sk_inv ci V s' ∧ sk_le s s' ∧
      ∀ k', level_done s' k' (λ _ _, True)).
  Proof.
    induction fuel as [|fuel IH]; intros k s Hf Hk Hs Hsub Hdone; simpl; [lia|].
    destruct (exit_cond o (pc_graph s) k) eqn:E.
    - split_and!; [done|apply sk_le_refl|]. intros k'. destruct (decide (k' < k)) as [|Hlt]; [by apply Hdone|].
      intros a b S _ Hab HS HSk. exfalso.
      pose proof (pdw_und _ (sk_wf _ _ _ Hs) _ _ Hab) as (HaV & _ & Hne).
      pose proof (proj1 (exit_cond_spec _ _) E a HaV) as Hfan. rewrite fan_in_und in Hfan by done.
      assert (size (S ∪ {[b]}) ≤ size (und (pc_graph s) a)) as Hle.
      { apply subseteq_size. intros z [Hz|Hz]%elem_of_union; [by apply HS|].
        apply elem_of_singleton in Hz as ->. by apply (pdw_sym _ (sk_wf _ _ _ Hs)). }
      rewrite size_union, size_singleton in Hle; [lia|].
      intros z Hz Hzb%elem_of_singleton. apply HS in Hz. tauto.
    - eapply returns_bind.
      + apply (for_returns_pre _ _ _ (λ pre s', sk_inv ci V s' ∧ sk_le s s' ∧
          level_done s' k (λ a b, (a, b) ∈ pre ∨ (b, a) ∈ pre))).
        * split_and!; [done|apply sk_le_refl|]. intros a b S [H|H]; by apply elem_of_nil in H.
        * intros pre [i j] post s' Hl (Hs' & Hle & Hd).
          assert ((i, j) ∈ comb2 (o 46 V)) as Hij.
          { assert (mnodes (if ow then pc_graph s else src) = V) as HV by (destruct ow; [apply Hs|done]).
            rewrite HV in Hl. rewrite Hl. apply elem_of_app. right. left. }
          apply comb2_iter in Hij as (Hi & Hj & Hne); [|done].
          eapply returns_mono; [apply pc_pair_spec; try done|].
          { intros a b Hab. apply Hsub. by apply Hle. }
          cbn beta. intros s'' (Hs'' & Hle' & Hd'). split_and!; [done|by eapply sk_le_trans|].
          intros a b S Hp Hu HS HSk.
          destruct (decide ((a = i ∧ b = j) ∨ (a = j ∧ b = i))) as [Hpair|Hpair]; [by apply Hd'|].
          eapply (level_done_mono s' s''); [done|exact Hd| |done..].
          cbn beta. rewrite !elem_of_app, !elem_of_list_singleton in Hp.
          destruct Hp as [[?|?]|[?|?]]; try tauto; simplify_eq; tauto.
      + cbn beta. intros s' (Hs' & Hle & Hd).
        assert (∃ n, k < fan_in (pc_graph s) n) as [n Hn].
        { apply not_true_iff_false in E. rewrite exit_cond_spec in E.
          assert (¬ Forall (λ n, fan_in (pc_graph s) n ≤ k) (elements (mnodes (pc_graph s)))) as HF.
          { intros HF. apply E. intros n Hn. rewrite Forall_forall in HF. apply HF. by apply elem_of_elements. }
          apply not_Forall_Exists in HF; [|apply _]. apply Exists_exists in HF as (n & _ & Hn).
          exists n. simpl in Hn. lia. }
        pose proof (fan_in_le s n Hs) as HnV.
        eapply returns_mono; [apply IH; [lia|lia|done| |]|].
        * intros a b Hab. apply Hsub. by apply Hle.
        * intros k' Hk'. destruct (decide (k' = k)) as [->|].
          -- intros a b S _ Hab. apply Hd; [|done].
             apply (pdw_und _ (sk_wf _ _ _ Hs')) in Hab as (Ha & Hb & Hne). rewrite (sk_nodes _ _ _ Hs') in *.
             assert (mnodes (if ow then pc_graph s else src) = V) as -> by (destruct ow; [apply Hs|done]).
             by apply comb2_iter.
          -- eapply level_done_mono; [exact Hle|]. apply Hdone. lia.
        * cbn beta. intros s'' (? & ? & ?). split_and!; [done|by eapply sk_le_trans|done].
  Qed.
End pc.

(** ** the starting state *)
Lemma pd_complete_spec V a b : uline (pd_complete (mempty V) (Some V)) a b ↔ a ∈ V ∧ b ∈ V ∧ a ≠ b.
Proof.
  unfold uline, has_mark, pd_complete, create_complete, create_empty. simpl.
  case_decide as H1; [rewrite elem_of_difference, elem_of_singleton; naive_solver|].
  case_decide as H2; [set_solver +H1|]. set_solver +H1.
Qed.
Lemma pd_complete_dir V a b : ¬ darrow (pd_complete (mempty V) (Some V)) a b.
Proof.
  unfold darrow, has_mark, pd_complete, create_complete, create_empty. simpl.
  case_decide as H1; [by destruct H1|]. case_decide; set_solver +.
Qed.

Lemma sep_init_spec o V a b : iter_ok o → a ∈ V → b ∈ V → a ≠ b → sep_init o V !! hkey a b = Some ∅.
Proof.
  intros Ho Ha Hb Hne. unfold sep_init.
  assert (∀ l (m : sepset), (m !! hkey a b = Some ∅ ∨ ∃ i j, (i, j) ∈ l ∧ is_pair a b i j) →
    foldl (λ (m : sepset) '(i, j), <[hkey i j := ∅]> m) m l !! hkey a b = Some ∅) as H.
  { induction l as [|[i j] l IH]; intros m Hm; simpl.
    - destruct Hm as [?|(i & j & H & _)]; [done|]. by apply elem_of_nil in H.
    - apply IH. destruct (decide (hkey i j = hkey a b)) as [->|Hk]; [left; by rewrite lookup_insert|].
      rewrite lookup_insert_ne by done. destruct Hm as [?|(i' & j' & [Heq|H]%elem_of_cons & Hp)]; [by left| |right; eauto].
      simplify_eq. by apply hkey_eq in Hp. }
  apply H. right. destruct (proj2 (comb2_iter o 24 V a b Ho)) as [?|?]; [done..| |].
  - exists a, b. split; [done|by left].
  - exists b, a. split; [done|by right].
Qed.

Lemma pc_init_inv o ci V : iter_ok o → sk_inv ci V (pc_init o V).
Proof.
  intros Ho. split; simpl.
  - done.
  - split.
    + intros a b H. by apply pd_complete_dir in H.
    + intros a b H. by apply pd_complete_spec in H.
    + intros a b. rewrite !pd_complete_spec. naive_solver.
    + intros a b _. apply pd_complete_dir.
  - apply pd_complete_dir.
  - intros a b Ha Hb Hne. rewrite sep_init_spec by done. eauto.
  - intros l1 l2 i j c b H. by destruct l1.
  - intros i j c b H. by apply elem_of_nil in H.
  - intros i j c H. by apply elem_of_nil in H.
  - intros a b Ha Hb Hne Hu. destruct Hu. by apply pd_complete_spec.
Qed.

Lemma pc_skeleton_spec o ci ow fuel V : iter_ok o → size V < fuel →
  returns (pc_skeleton o ci ow fuel (pc_init o V)) (λ s, sk_inv ci V s ∧ ∀ k, level_done s k (λ _ _, True)).
Proof.
  intros Ho Hf. unfold pc_skeleton. pose proof (pc_init_inv o ci V Ho) as Hinit.
  pose proof (pd_copy_same (pc_graph (pc_init o V)) (sk_wf _ _ _ Hinit)) as [Hcn Hcs].
  eapply returns_mono; [apply (pc_levels_spec o Ho ci ow V)|].
  - by rewrite <-Hcn.
  - eapply pd_same_wf; [|exact (sk_wf _ _ _ Hinit)]. done.
  - intros a b H. apply Hcs in H. by apply (sk_dir _ _ _ Hinit) in H.
  - lia.
  - lia.
  - done.
  - intros a b H. by apply Hcs.
  - lia.
  - cbn beta. tauto.
Qed.

(** ** collider orientation *)
Lemma orient_adj_wf g s t : pd_wf g → pd_adj g s t → pd_wf (orient_edge g s t) ∧
  ∀ a b, pd_adj (orient_edge g s t) a b ↔ pd_adj g a b.
Proof.
  intros Hwf Hadj.
  assert (s ∈ mnodes g ∧ t ∈ mnodes g ∧ s ≠ t) as (Hs & Ht & Hne).
  { destruct Hadj as [H|[H|H]]; [by apply (pdw_und _ Hwf) in H|by apply (pdw_dir _ Hwf) in H|].
    apply (pdw_dir _ Hwf) in H as (? & ? & ?). auto. }
  split; [split|].
  - intros a b. rewrite orient_darrow. intros [H|[-> ->]]; [by apply (pdw_dir _ Hwf)|done].
  - intros a b [H _]%orient_uline. by apply (pdw_und _ Hwf).
  - intros a b. rewrite !orient_uline. intros (H & H1 & H2). split_and!; [by apply (pdw_sym _ Hwf)|tauto..].
  - intros a b. rewrite orient_uline, orient_darrow. intros (H & H1 & H2) [H3|H3]; [|tauto].
    by eapply (pdw_one _ Hwf).
  - intros a b. unfold pd_adj. rewrite !orient_uline, !orient_darrow.
    destruct Hadj as [H|[H|H]].
    + pose proof (pdw_sym _ Hwf _ _ H). destruct (decide (a = s ∧ b = t)) as [[-> ->]|]; [tauto|].
      destruct (decide (a = t ∧ b = s)) as [[-> ->]|]; tauto.
    + destruct (decide (a = s ∧ b = t)) as [[-> ->]|]; [tauto|].
      destruct (decide (a = t ∧ b = s)) as [[-> ->]|]; tauto.
    + destruct (decide (a = s ∧ b = t)) as [[-> ->]|]; [tauto|].
      destruct (decide (a = t ∧ b = s)) as [[-> ->]|]; tauto.
Qed.

(** a --> z is oriented because of an unshielded triple a - z - y with z not in the separating set *)
Definition collider_in (g : mgraph) (sep : sepset) (a z : node) : Prop :=
  uline g a z ∧ ∃ y S, uline g y z ∧ a ≠ y ∧ ¬ pd_adj g a y ∧ sep !! hkey a y = Some S ∧ z ∉ S.

Section vphase.
  Context (o : order) (Ho : iter_ok o) (sep : sepset) (g0 : mgraph).
  Context (Hwf : pd_wf g0) (Hdir : ∀ a b, ¬ darrow g0 a b).
  Context (Hdom : ∀ a b, a ∈ mnodes g0 → b ∈ mnodes g0 → a ≠ b → is_Some (sep !! hkey a b)).

  (** the arrows added for the pairs in l at z *)
  Definition vo (z : node) (l : list (node * node)) (a b : node) : Prop :=
    b = z ∧ ∃ x y S, (x, y) ∈ l ∧ (a = x ∨ a = y) ∧ ¬ pd_adj g0 x y ∧ sep !! hkey x y = Some S ∧ z ∉ S.

  Definition vst (D : node → node → Prop) (g : mgraph) : Prop :=
    mnodes g = mnodes g0 ∧ pd_wf g ∧ (∀ a b, pd_adj g a b ↔ pd_adj g0 a b) ∧
    (∀ a b, darrow g a b ↔ D a b) ∧ (∀ a b, uline g a b ↔ uline g0 a b ∧ ¬ D a b ∧ ¬ D b a).

  Lemma vst_ext (D E : node → node → Prop) g : (∀ a b, D a b ↔ E a b) → vst D g → vst E g.
  Proof.
    intros H (H1 & H2 & H3 & H4 & H5). split_and!; [done..| |].
    - intros a b. by rewrite H4.
    - intros a b. by rewrite H5, !H.
  Qed.

  Lemma vst_orient D g x z : vst D g → uline g0 x z → vst (λ a b, D a b ∨ (a = x ∧ b = z)) (orient_edge g x z).
  Proof.
    intros (H1 & H2 & H3 & H4 & H5) Hu.
    destruct (orient_adj_wf g x z H2) as [W A].
    { apply H3. by left. }
    split_and!; [done|done|..].
    - intros a b. by rewrite A.
    - intros a b. by rewrite orient_darrow, H4.
    - intros a b. rewrite orient_uline, H5. tauto.
  Qed.

  Lemma pc_pairs_spec z D g : vst D g → z ∈ mnodes g0 →
    returns (for_ (comb2 (o 77 (und g0 z))) (pc_collider sep z) g)
      (vst (λ a b, D a b ∨ (b = z ∧ collider_in g0 sep a z))).
  Proof.
    intros Hg Hz. eapply returns_mono.
    - apply (for_returns_pre _ _ _ (λ pre, vst (λ a b, D a b ∨ vo z pre a b))).
      + eapply vst_ext; [|exact Hg]. intros a b. split; [by left|]. intros [?|(_ & x & y & S & H & _)]; [done|].
        by apply elem_of_nil in H.
      + intros pre [x y] post g' Hl Hg'. unfold pc_collider.
        assert ((x, y) ∈ comb2 (o 77 (und g0 z))) as Hxy.
        { rewrite Hl. apply elem_of_app. right. left. }
        apply comb2_iter in Hxy as (Hx & Hy & Hne); [|done].
        assert (∀ a b, vo z (pre ++ [(x, y)]) a b ↔ vo z pre a b ∨
          (b = z ∧ (a = x ∨ a = y) ∧ ¬ pd_adj g0 x y ∧ ∃ S, sep !! hkey x y = Some S ∧ z ∉ S)) as Hvo.
        { intros a b. unfold vo. setoid_rewrite elem_of_app. setoid_rewrite elem_of_list_singleton. split.
          - intros (-> & x' & y' & S & [H|H] & H2 & H3 & H4 & H5); [left; eauto 10|]. simplify_eq. right. eauto 10.
          - intros [(-> & x' & y' & S & H & H2 & H3 & H4 & H5)|(-> & H2 & H3 & S & H4 & H5)]; [eauto 15|].
            split; [done|]. exists x, y, S. auto. }
        pose proof Hg' as (N & W & A & DD & U).
        eapply returns_bind; [by apply m_is_connected_pd|]. cbn beta. intros b Hb. destruct b.
        * simpl. eapply vst_ext; [|exact Hg']. intros a b. cbn beta. rewrite Hvo.
          assert (pd_adj g0 x y) by (apply A; by apply Hb). tauto.
        * assert (¬ pd_adj g0 x y) as Hna.
          { rewrite <-A. intros H. apply Hb in H. done. }
          destruct (Hdom x y) as [S HS].
          { by apply (pdw_und _ Hwf x z) in Hx as (? & _). }
          { by apply (pdw_und _ Hwf y z) in Hy as (? & _). }
          { done. }
          unfold sep_get. rewrite HS. simpl. destruct (decide (z ∈ S)) as [HzS|HzS].
          -- eapply vst_ext; [|exact Hg']. intros a b. cbn beta. rewrite Hvo.
             split; [tauto|]. intros [?|[?|(_ & _ & _ & S' & ? & ?)]]; [tauto..|]. congruence.
          -- eapply vst_ext; [|apply vst_orient; [apply vst_orient; [exact Hg'|exact Hx]|exact Hy]].
             intros a b. cbn beta. rewrite Hvo. split.
             ++ intros [[[?|?]|[-> ->]]|[-> ->]]; [tauto|tauto| |]; right; right; eauto 10.
             ++ intros [?|[?|(-> & [->| ->] & _)]]; tauto.
    - intros g'. apply vst_ext. intros a b. split; (intros [?|H]; [by left|]); right.
      + destruct H as (-> & x & y & S & Hxy & Hab & Hna & HS & Hz'). split; [done|].
        apply comb2_iter in Hxy as (Hx & Hy & Hne); [|done].
        destruct Hab as [-> | ->]; split; [done| |done|].
        * exists y, S. done.
        * exists x, S. split_and!; [done|congruence| |by rewrite hkey_comm|done].
          intros H. by apply Hna, pd_adj_sym.
      + destruct H as (-> & Ha & y & S & Hy & Hne & Hna & HS & Hz'). split; [done|].
        destruct (proj2 (comb2_iter o 77 (und g0 z) a y Ho)) as [H|H]; [done..| |].
        * exists a, y, S. auto.
        * exists y, a, S. split_and!; [done|by right| |by rewrite hkey_comm|done].
          intros H'. by apply Hna, pd_adj_sym.
  Qed.

  Lemma pc_v_structures_spec : returns (pc_v_structures o g0 sep) (vst (collider_in g0 sep)).
  Proof.
    unfold pc_v_structures. eapply returns_mono.
    - apply (for_returns_pre _ _ _ (λ pre, vst (λ a b, b ∈ pre ∧ collider_in g0 sep a b))).
      + split_and!; [done..| |].
        * intros a b. rewrite elem_of_nil. split; [|tauto]. by intros ?%Hdir.
        * intros a b. rewrite !elem_of_nil. tauto.
      + intros pre z post g Hl Hg. eapply returns_mono; [apply pc_pairs_spec; [exact Hg|]|].
        * apply (iter_elem o 74 _ z Ho). rewrite Hl. apply elem_of_app. right. left.
        * intros g'. apply vst_ext. intros a b. rewrite elem_of_app, elem_of_list_singleton.
          destruct (decide (b = z)) as [->|]; tauto.
    - intros g. apply vst_ext. intros a b. rewrite iter_elem by done. split; [tauto|]. intros H. split; [|done].
      destruct H as [H _]. by apply (pdw_und _ Hwf) in H as (_ & ? & _).
  Qed.
End vphase.

(** ** the learned graph *)
(** what the skeleton phase leaves behind, in terms of the learned graph *)
Definition pc_result_of (ci : citest) (V : nset) (s0 s : pc_state) : Prop :=
  ∃ g1, sk_inv ci V s0 ∧ (∀ k, level_done s0 k (λ _ _, True)) ∧
    pc_sep s = pc_sep s0 ∧ pc_log s = pc_log s0 ∧
    vst (pc_graph s0) (collider_in (pc_graph s0) (pc_sep s0)) g1 ∧
    ∃ g2, pd_wf g2 ∧ pd_same_skeleton g1 g2 ∧
      (∀ a b, ¬ (darrow g2 a b ∧ darrow g2 b a)) ∧
      (∀ a b, ¬ (darrow g1 a b ∧ darrow g1 b a) → (darrow g2 a b ↔ darrow g1 a b) ∧ (uline g2 a b ↔ uline g1 a b)) ∧
      rtc (ostep (any_pattern [1;2;3]) (mnodes g2)) g2 (pc_graph s) ∧
      no_rule_applies (pc_graph s) [1;2;3] (mnodes g2).

Definition pc_result (ci : citest) (V : nset) (s : pc_state) : Prop := ∃ s0, pc_result_of ci V s0 s.

Lemma pc_learn_result_of o ci ow fuel V : iter_ok o → size V * size V + 1 < fuel →
  returns (pc_learn o ci ow fuel V) (λ s, ∃ s0, pc_skeleton o ci ow fuel (pc_init o V) = Ok s0 ∧ pc_result_of ci V s0 s).
Proof.
  intros Ho Hf. unfold pc_learn.
  assert (size V < fuel) as Hf' by (destruct (size V); lia).
  pose proof (pc_skeleton_spec o ci ow fuel V Ho Hf') as H0. apply returns_ok in H0 as (s0 & E0 & Hs0 & Hd).
  rewrite E0. simpl.
  eapply returns_bind.
  { apply (pc_v_structures_spec o Ho); [apply Hs0..|]. rewrite (sk_nodes _ _ _ Hs0). apply Hs0. }
  cbn beta. intros g1 Hg1. pose proof Hg1 as (N & W & _).
  destruct (bidirected_to_undirected o g1 None Ho W) as (B1 & B2 & B3 & B4). simpl in B3, B4.
  set (g2 := convert_bidirected_to_undirected o g1 None) in *.
  eapply returns_bind; [apply (maximally_orient_steps o Ho g2 [1;2;3] None fuel B1)|].
  { intros i Hi. set_unfold. lia. }
  { destruct B2 as [B2 _]. rewrite <-B2, N, (sk_nodes _ _ _ Hs0). lia. }
  cbn beta. intros g3 [Hst Hno]. simpl in Hst, Hno. exists s0. split; [done|]. exists g1. split_and!; [done..|].
  exists g2. split_and!; [done|done| |  |done|done].
  - intros a b [Hab Hba]. apply (pdw_dir _ B1) in Hab as Hin. destruct Hin as (Ha & Hb & _).
    destruct B2 as [B2 _]. rewrite <-B2 in Ha, Hb. by apply (B3 a b).
  - intros a b Hn. apply B4. tauto.
Qed.

Lemma pc_learn_result o ci ow fuel V : iter_ok o → size V * size V + 1 < fuel →
  returns (pc_learn o ci ow fuel V) (pc_result ci V).
Proof.
  intros Ho Hf. eapply returns_mono; [by apply pc_learn_result_of|]. cbn beta. intros s (s0 & _ & H). by exists s0.
Qed.

Lemma orientation_no_both g g' : pd_wf g → (∀ a b, ¬ (darrow g a b ∧ darrow g b a)) → orientation_of g g' →
  ∀ a b, ¬ (darrow g' a b ∧ darrow g' b a).
Proof.
  intros Hwf Hno Hor a b [Hab Hba].
  destruct (or_new _ _ Hor _ _ Hab) as [H1|H1]; [|by apply (or_once _ _ Hor a b H1)].
  destruct (or_new _ _ Hor _ _ Hba) as [H2|H2]; [by apply (Hno a b)|].
  by apply (or_once _ _ Hor b a H2).
Qed.

Lemma no_dir_adj s a b ci V : sk_inv ci V s → pd_adj (pc_graph s) a b ↔ uline (pc_graph s) a b.
Proof.
  intros Hs. unfold pd_adj. pose proof (sk_dir _ _ _ Hs a b). pose proof (sk_dir _ _ _ Hs b a). tauto.
Qed.

Lemma pc_result_of_skeleton ci V s0 s : pc_result_of ci V s0 s → sk_inv ci V s0 ∧ (∀ k, level_done s0 k (λ _ _, True)) ∧
  pc_sep s = pc_sep s0 ∧ pc_log s = pc_log s0 ∧ pd_wf (pc_graph s) ∧ mnodes (pc_graph s) = V ∧
  (∀ a b, pd_adj (pc_graph s) a b ↔ uline (pc_graph s0) a b) ∧
  (∀ a b, ¬ (darrow (pc_graph s) a b ∧ darrow (pc_graph s) b a)).
Proof.
  intros (g1 & Hs0 & Hd & Es & El & (N & W & A & _) & g2 & W2 & [N2 A2] & Hno & _ & Hst & _).
  destruct (osteps_orientation _ _ _ _ W2 Hst) as [Hor W3].
  destruct (orientation_skeleton _ _ W2 Hor) as [N3 A3].
  split_and!; [done..| | |].
  - rewrite <-N3, <-N2, N. apply Hs0.
  - intros a b. rewrite <-A3, <-A2, A. by eapply no_dir_adj.
  - exact (orientation_no_both _ _ W2 Hno Hor).
Qed.

Lemma pc_result_skeleton ci V s : pc_result ci V s → ∃ s0, sk_inv ci V s0 ∧ (∀ k, level_done s0 k (λ _ _, True)) ∧
  pc_sep s = pc_sep s0 ∧ pc_log s = pc_log s0 ∧ pd_wf (pc_graph s) ∧ mnodes (pc_graph s) = V ∧
  (∀ a b, pd_adj (pc_graph s) a b ↔ uline (pc_graph s0) a b) ∧
  (∀ a b, ¬ (darrow (pc_graph s) a b ∧ darrow (pc_graph s) b a)).
Proof. intros [s0 H]. exists s0. by apply pc_result_of_skeleton. Qed.

(** C40 *)
Lemma pc_justified o ci ow fuel V : iter_ok o → size V * size V + 1 < fuel →
  returns (pc_learn o ci ow fuel V) (λ s,
    mnodes (pc_graph s) = V ∧ pd_wf (pc_graph s) ∧ honest ci (pc_log s) ∧
    (∀ a b, ¬ (darrow (pc_graph s) a b ∧ darrow (pc_graph s) b a)) ∧
    (∀ a b, a ∈ V → b ∈ V → a ≠ b → ¬ pd_adj (pc_graph s) a b →
       ∃ S, sep_get (pc_sep s) a b = Ok S ∧ S ⊆ V ∖ {[a; b]} ∧ tested (pc_log s) a b S true) ∧
    (∀ a b c, pd_adj (pc_graph s) a b → (a, b, c, true) ∉ pc_log s)).
Proof.
  intros Ho Hf. eapply returns_mono; [by apply pc_learn_result|].
  intros s (s0 & Hs0 & _ & Es & El & W & N & A & B)%pc_result_skeleton.
  rewrite Es, El. split_and!; [done|done|apply Hs0|done|..].
  - intros a b Ha Hb Hne Hn. rewrite A in Hn. destruct (sk_rem _ _ _ Hs0 a b Ha Hb Hne Hn) as (S & HS & Ht).
    exists S. unfold sep_get. rewrite HS. split_and!; [done| |done].
    destruct Ht as (c & Hc & Ht). intros z Hz%Hc. rewrite elem_of_difference, elem_of_union, !elem_of_singleton.
    destruct Ht as [Ht|Ht]; apply (sk_log _ _ _ Hs0) in Ht as (_ & _ & _ & _ & H); apply H in Hz; set_solver +Hz.
  - intros a b c Hab Hin. apply A in Hab. by eapply (sk_true _ _ _ Hs0).
Qed.

(** C41 *)
Lemma pc_exhausted o ci ow fuel V : iter_ok o → size V * size V + 1 < fuel →
  returns (pc_learn o ci ow fuel V) (λ s,
    ∀ a b (S : nset), pd_adj (pc_graph s) a b → (∀ z, z ∈ S → pd_adj (pc_graph s) z a ∧ z ≠ b) →
      tested (pc_log s) a b S false ∧ ¬ tested (pc_log s) a b S true).
Proof.
  intros Ho Hf. eapply returns_mono; [by apply pc_learn_result|].
  intros s (s0 & Hs0 & Hd & Es & El & W & N & A & B)%pc_result_skeleton. rewrite El.
  intros a b S Hab HS. rewrite A in Hab. split.
  - eapply (Hd (size S)); [done|done| |done]. intros z [Hz ?]%HS. split; [by apply A|done].
  - intros (c & _ & [H|H]); apply (sk_true _ _ _ Hs0) in H; [done|].
    by apply H, (pdw_sym _ (sk_wf _ _ _ Hs0)).
Qed.

Lemma three_inv {A} (a z y : A) l1 u v w l2 : [a; z; y] = l1 ++ u :: v :: w :: l2 → u = a ∧ v = z ∧ w = y.
Proof.
  intros H. assert (l1 = []) as ->; [|by simplify_eq/=].
  apply (f_equal length) in H. rewrite app_length in H. simpl in H. destruct l1; [done|simpl in H; lia].
Qed.

(** ** with the d-separation oracle *)
Section oracle.
  Context (d : graph) (Hwf : wf_graph d) (Hac : acyclic d).
  Context (o' : order) (Ho' : iter_ok o') (fuel' : nat) (Hf' : size (gnodes d) < fuel').
  Let ci := dsep_ci o' fuel' d.

  Lemma oracle_log s i j c b : sk_inv ci (gnodes d) s → (i, j, c, b) ∈ pc_log s → b = true ↔ d_separated d i j c.
  Proof.
    intros Hs Hin. pose proof (sk_log _ _ _ Hs _ _ _ _ Hin) as (Hi & Hj & Hne & _ & Hc).
    apply elem_of_list_split in Hin as (l1 & l2 & Hl). apply (sk_honest _ _ _ Hs) in Hl as ->.
    unfold ci, dsep_ci.
    assert (returns (dsep o' fuel' d i j c) (λ b, b = true ↔ d_separated d i j c)) as H.
    { apply dsep_spec; try done; [intros z ?%Hc; tauto|]. intros Hj'. apply Hc in Hj'. tauto. }
    apply returns_ok in H as (b' & -> & H). done.
  Qed.

  Lemma oracle_tested s x y S b : sk_inv ci (gnodes d) s → tested (pc_log s) x y S b →
    (b = true ↔ d_separated d x y (elements S)).
  Proof.
    intros Hs (c & Hc & H).
    assert (∀ z, z ∈ c ↔ z ∈ elements S) as Hc' by (intros z; by rewrite elem_of_elements).
    rewrite <-(d_separated_set d x y c (elements S)) by done.
    destruct H as [H|H]; apply (oracle_log s _ _ _ _ Hs) in H; rewrite H; [done|]. split; apply d_separated_sym.
  Qed.

  Lemma oracle_skeleton s : sk_inv ci (gnodes d) s → (∀ k, level_done s k (λ _ _, True)) →
    ∀ a b, uline (pc_graph s) a b ↔ adjacent d a b.
  Proof.
    intros Hs Hd.
    assert (∀ a b, adjacent d a b → uline (pc_graph s) a b) as H1.
    { intros a b Hab. destruct (uline_dec (pc_graph s) a b) as [|Hn]; [done|exfalso].
      assert (a ∈ gnodes d ∧ b ∈ gnodes d) as [Ha Hb] by (destruct Hab as [H|H]; apply Hwf in H; tauto).
      pose proof (adj_ne d a b Hac Hab) as Hne.
      destruct (sk_rem _ _ _ Hs a b) as (S & _ & Ht); [done..|].
      pose proof (proj1 (oracle_tested s a b S true Hs Ht) eq_refl) as Hsep. by apply adjacent_not_dsep in Hsep. }
    intros a b. split; [|apply H1]. intros Hab.
    destruct (edge_dec d a b) as [|Hn1]; [by left|]. destruct (edge_dec d b a) as [|Hn2]; [by right|]. exfalso.
    pose proof (pdw_und _ (sk_wf _ _ _ Hs) _ _ Hab) as (_ & _ & Hne).
    assert (∀ u v, uline (pc_graph s) u v → ¬ adjacent d u v → ¬ d_separated d u v (elements (gadj d u))) as H2.
    { intros u v Huv Hna Hsep. assert (tested (pc_log s) u v (gadj d u) false) as Ht.
      { eapply (Hd (size (gadj d u))); [done|done| |done]. intros z Hz. split; [apply H1; by left|].
        intros ->. apply Hna. by right. }
      apply (oracle_tested s u v _ _ Hs) in Ht. apply Ht in Hsep. done. }
    destruct (nonadjacent_separated d a b Hwf Hac Hne) as [H|H].
    - intros [?|?]; done.
    - apply (H2 a b); [done| |done]. intros [?|?]; done.
    - apply (H2 b a); [by apply (pdw_sym _ (sk_wf _ _ _ Hs))|intros [?|?]; done|]. by apply d_separated_sym.
  Qed.

  (** a separating set of the ends of an unshielded triple contains the middle node iff it is not a collider *)
  Lemma unshielded_sep a z y (S : list node) : adjacent d a z → adjacent d y z → a ≠ y → a ≠ z → y ≠ z → d_separated d a y S →
    z ∉ S ↔ edge d a z ∧ edge d y z.
  Proof.
    intros Haz Hyz Hne Hnaz Hnyz Hsep.
    assert (is_path (adjacent d) a y [a; z; y]) as Hp.
    { split_and!; [done|done| |].
      - repeat constructor; set_solver.
      - intros l1 u v l2 Heq. destruct l1 as [|? [|? [|? l1]]]; simplify_eq/=; [done|by apply adjacent_sym|by destruct l1]. }
    split.
    - intros HzS. destruct (edge_dec d a z) as [H1|H1]; [destruct (edge_dec d y z) as [H2|H2]; [done|]|];
        exfalso; apply Hsep; exists [a; z; y]; (split; [done|]); intros l1 u v w l2 (-> & -> & ->)%three_inv;
        (split; [intros [? ?]; contradiction|by intros _]).
    - intros [H1 H2] HzS. apply Hsep. exists [a; z; y]. split; [done|]. intros l1 u v w l2 (-> & -> & ->)%three_inv.
      split; [|unfold collider; tauto]. intros _. exists z. split; [done|]. apply rtc_refl.
  Qed.

  Lemma oracle_collider s : sk_inv ci (gnodes d) s → (∀ k, level_done s k (λ _ _, True)) →
    ∀ a b, collider_in (pc_graph s) (pc_sep s) a b ↔ vdir d a b.
  Proof.
    intros Hs Hd a z. pose proof (oracle_skeleton s Hs Hd) as Hsk. unfold collider_in.
    assert (∀ y S, adjacent d a z → adjacent d y z → a ≠ y → ¬ adjacent d a y → pc_sep s !! hkey a y = Some S →
      z ∉ S ↔ edge d a z ∧ edge d y z) as Hkey.
    { intros y S Haz Hyz Hne Hna HS.
      assert (∀ u v, adjacent d u v → u ∈ gnodes d) as Hin by (intros u v [H|H]; apply Hwf in H; tauto).
      destruct (sk_rem _ _ _ Hs a y) as (S' & HS' & Ht); [by eapply Hin..|done|by rewrite Hsk|].
      assert (S' = S) as -> by congruence.
      pose proof (proj1 (oracle_tested s a y S true Hs Ht) eq_refl) as Hsep.
      rewrite <-(unshielded_sep a z y (elements S)); [by rewrite elem_of_elements|done..| | |done]; by eapply adj_ne. }
    split.
    - intros (Haz & y & S & Hyz & Hne & Hna & HS & HzS). rewrite Hsk in Haz, Hyz.
      rewrite (no_dir_adj s a y _ _ Hs), Hsk in Hna.
      apply (Hkey y S) in HzS as [? ?]; [|done..]. by exists y.
    - intros (y & Haz & Hyz & Hne & Hna). split; [apply Hsk; by left|].
      assert (a ∈ gnodes d ∧ y ∈ gnodes d) as [Ha Hy] by (apply Hwf in Haz, Hyz; tauto).
      destruct (sk_dom _ _ _ Hs a y Ha Hy Hne) as [S HS]. exists y, S.
      split_and!; [apply Hsk; by left|done| |done|].
      + by rewrite (no_dir_adj s a y _ _ Hs), Hsk.
      + apply (Hkey y S); [by left|by left|done..].
  Qed.

  Lemma pc_oracle_steps o ow fuel : iter_ok o → size (gnodes d) * size (gnodes d) + 1 < fuel →
    returns (pc_learn o ci ow fuel (gnodes d)) (λ s, ∃ g, pattern_of d g ∧
      rtc (ostep (any_pattern [1;2;3]) (mnodes g)) g (pc_graph s) ∧ no_rule_applies (pc_graph s) [1;2;3] (mnodes g)).
  Proof.
    intros Ho Hf. eapply returns_mono; [by apply pc_learn_result|].
    intros s (s0 & g1 & Hs0 & Hd & _ & _ & (N & W & A & D & U) & g2 & W2 & [N2 A2] & Hno & Hsame & Hst & Hnr).
    exists g2. split_and!; [|done..].
    pose proof (oracle_skeleton s0 Hs0 Hd) as Hsk. pose proof (oracle_collider s0 Hs0 Hd) as Hco.
    assert (∀ a b, (darrow g2 a b ↔ darrow g1 a b) ∧ (uline g2 a b ↔ uline g1 a b)) as H2.
    { intros a b. apply Hsame. rewrite !D, !Hco. intros [H%vdir_edge H'%vdir_edge]. by eapply acyclic_anti. }
    split_and!.
    - rewrite <-N2, N. apply Hs0.
    - intros a b. by rewrite (proj1 (H2 a b)), D.
    - intros a b. by rewrite (proj2 (H2 a b)), U, Hsk, !Hco.
  Qed.
End oracle.

(** C42 *)
Lemma pc_oracle_cpdag o1 o2 o3 d cp rules ow fuel fuel' fuel'' : iter_ok o1 → iter_ok o2 → iter_ok o3 →
  wf_graph d → acyclic d → mnodes cp = gnodes d → (∀ n k, mset cp n k = ∅) → (∀ i, i ∈ rules ↔ 1 ≤ i ≤ 3) →
  size (gnodes d) * size (gnodes d) + 1 < fuel → size (gnodes d) < fuel' → size (gnodes d) * size (gnodes d) + 1 < fuel'' →
  ∃ s g, pc_learn o1 (dsep_ci o2 fuel' d) ow fuel (gnodes d) = Ok s ∧ convert_to_cpdag o3 fuel'' d cp rules = Ok g ∧
    pd_same (pc_graph s) g.
Proof.
  intros Ho1 Ho2 Ho3 Hwf Hac Hn He Hr Hf Hf' Hf''.
  pose proof (pc_oracle_steps d Hwf Hac o2 Ho2 fuel' Hf' o1 ow fuel Ho1 Hf) as H1.
  pose proof (convert_to_cpdag_steps o3 Ho3 d cp rules fuel'' Hwf Hac Hn He ltac:(intros i ?%Hr; lia) Hf'') as H2.
  apply returns_ok in H1 as (s & E1 & g1 & Hp1 & Hst1 & Hno1).
  apply returns_ok in H2 as (h2 & E2 & g2 & Hp2 & Hst2 & Hno2).
  exists s, h2. split_and!; [done..|].
  refine (rules_123_unique d d g1 g2 (pc_graph s) h2 [1;2;3] rules Hwf Hwf Hac Hac _ _ Hp1 Hp2 _ Hr Hst1 Hno1 Hst2 Hno2).
  - done.
  - done.
  - intros i. set_unfold. lia.
Qed.
