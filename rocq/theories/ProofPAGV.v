(** PAG: matrices, visible edges, buckets and pc-components. *)
From Verif Require Import Base BaseLemmas ModelGraph Spec Paths ProofGraph2.
From Verif Require Import ModelMixed ModelPC ModelPAG SpecMixed SpecPAG ProofPDAG ProofMixed ProofMixed2 ProofPAG ProofPAG2.

Section mat_.
  Context (o : order) (Ho : iter_ok o).

  Section to_mat.
    Context (g : mgraph) (Hin : ∀ a k b, has_mark g a k b → a ∈ mnodes g ∧ b ∈ mnodes g) (Hone : ∀ a k j b, has_mark g a k b → has_mark g a j b → k = j).
    Let l := merge_sort le (elements (mnodes g)).
    Lemma sorted_nodup : NoDup l.
    Proof. unfold l. rewrite merge_sort_Permutation. apply NoDup_elements. Qed.
    Lemma sorted_elem n : n ∈ l ↔ n ∈ mnodes g.
    Proof. unfold l. rewrite merge_sort_Permutation. apply elem_of_elements. Qed.

    Definition minv (Q : node → mark → node → Prop) (m : mat) : Prop :=
      mdim m = length l ∧
      (∀ i j, ment m i j ≠ 0 → ∃ a k b, l !! i = Some a ∧ l !! j = Some b ∧ has_mark g a k b ∧ ment m i j = mark_code k) ∧
      (∀ i j a k b, Q a k b → l !! i = Some a → l !! j = Some b → has_mark g a k b → ment m i j = mark_code k).
    Lemma minv_impl (Q Q' : node → mark → node → Prop) m : (∀ a k b, has_mark g a k b → Q' a k b → Q a k b) → minv Q m → minv Q' m.
    Proof. intros H (H1 & H2 & H3). split_and!; [done..|]. intros. eapply H3; eauto. Qed.

    Lemma adj_mat_inv : returns (pag_adj_mat o g) (minv (λ _ _ _, True)).
    Proof.
      unfold pag_adj_mat. fold l.
      eapply returns_mono; [apply (for_returns_pre _ _ _ (λ pre, minv (λ a k b, b ∈ pre)))|].
      - split_and!; [done|by intros|]. intros i j a k b Hb. by apply elem_of_nil in Hb.
      - intros pre n post m E Hm.
        eapply returns_mono; [apply (for_returns_pre _ _ _ (λ ks, minv (λ a k b, b ∈ pre ∨ (b = n ∧ k ∈ ks))))|].
        + eapply minv_impl; [|exact Hm]. intros a k b _ [?|[_ Hk]]; [done|by apply elem_of_nil in Hk].
        + intros ks k ks' m2 E2 Hm2.
          eapply returns_mono; [apply (for_returns_pre _ _ _ (λ ps, minv (λ a k' b, b ∈ pre ∨ (b = n ∧ k' ∈ ks) ∨ (b = n ∧ k' = k ∧ a ∈ ps))))|].
          * eapply minv_impl; [|exact Hm2]. intros a k' b _ [?|[?|(_ & _ & Ha)]]; [by left|by right|by apply elem_of_nil in Ha].
          * intros ps p ps' m3 E3 (D1 & D2 & D3).
            assert (has_mark g p k n) as Hp. { assert (p ∈ o 90 (mset g n k)) as Hp by (rewrite E3; set_solver +). by rewrite iter_elem in Hp. }
            destruct (Hin _ _ _ Hp) as [Vp Vn]. rewrite <-sorted_elem in Vp, Vn.
            destruct (dict_get_index l p sorted_nodup Vp) as (i & -> & Hi). destruct (dict_get_index l n sorted_nodup Vn) as (j & -> & Hj).
            cbn [mbind res_bind returns]. split_and!; [done|..]; cbn [ment mdim].
            -- intros i' j'. destruct (decide (i' = i ∧ j' = j)) as [[-> ->]|]; [|apply D2]. intros _. by exists p, k, n.
            -- intros i' j' a k' b Hq Hi' Hj' Hk'. destruct (decide (i' = i ∧ j' = j)) as [[-> ->]|Hne].
               ++ assert (a = p) as -> by congruence. assert (b = n) as -> by congruence. by rewrite (Hone _ _ _ _ Hp Hk').
               ++ apply (D3 i' j' a k' b); [|done..]. destruct Hq as [?|[?|(-> & -> & Hq)]]; [by left|right; by left|].
                  apply elem_of_app in Hq as [?|Hq]; [right; by right|]. apply elem_of_list_singleton in Hq as ->.
                  destruct Hne. split; by eapply (NoDup_lookup l); [apply sorted_nodup|..].
          * cbn beta. intros m3. apply minv_impl. intros a k' b Hk [?|[-> Hk']]; [by left|right].
            apply elem_of_app in Hk' as [?|Hk']; [by left|]. apply elem_of_list_singleton in Hk' as ->. right. split_and!; [done..|]. by apply iter_elem.
        + cbn beta. intros m2. apply minv_impl. intros a k b Hk Hb. apply elem_of_app in Hb as [?|Hb]; [by left|right].
          apply elem_of_list_singleton in Hb as ->. split; [done|]. apply mark_in_PAG.
      - cbn beta. intros m. apply minv_impl. intros a k b Hk _. apply iter_elem; [done|]. by apply Hin in Hk as [_ ?].
    Qed.
  End to_mat.

  Lemma code_mark_code k : code_mark (mark_code k) = Some k.
  Proof. by destruct k. Qed.
  Lemma code_mark_inv n k : code_mark n = Some k → n = mark_code k.
  Proof. destruct n as [|[|[|[|n]]]]; simpl; intros; simplify_eq; done. Qed.
  Lemma code_mark_none n : n ≤ 3 → code_mark n = None → n = 0.
  Proof. destruct n as [|[|[|[|n]]]]; simpl; intros; simplify_eq; try done. lia. Qed.

  Definition from_mat_spec (g0 : mgraph) (l : list node) (m : mat) (h : mgraph) : Prop :=
    mnodes h = mnodes g0 ∧ ∀ a k b, has_mark h a k b ↔ ∃ i j, l !! i = Some a ∧ l !! j = Some b ∧ i < mdim m ∧ j < mdim m ∧ ment m i j = mark_code k.

  Lemma from_mat_ok g0 m l : (∀ a k b, has_mark g0 a k b → b ∈ mnodes g0) → (∀ i j, i < mdim m → j < mdim m → ment m i j ≤ 3) → mdim m = length l →
    returns (for_ (seq 0 (mdim m)) (λ i g,
    for_ (seq 0 (mdim m)) (λ j g,
      match code_mark (ment m i j) with
      | None => Ok g
      | Some k => t ← list_get l j; s ← list_get l i; Ok (madd g t k s)
      end) g) (create_empty PAG_T g0 None)) (from_mat_spec g0 l m).
  Proof.
    intros Hg0 Hm Hl.
    set (inv := λ (Q : nat → nat → Prop) (h : mgraph), mnodes h = mnodes g0 ∧ ∀ a k b, has_mark h a k b ↔
      ∃ i j, Q i j ∧ l !! i = Some a ∧ l !! j = Some b ∧ i < mdim m ∧ j < mdim m ∧ ment m i j = mark_code k).
    assert (∀ (Q Q' : nat → nat → Prop) h, (∀ i j, i < mdim m → j < mdim m → Q i j ↔ Q' i j) → inv Q h → inv Q' h) as Himp.
    { intros Q Q' h HQ [H1 H2]. split; [done|]. intros a k b. rewrite H2. split; intros (i & j & Hq & ? & ? & ? & ? & ?); exists i, j; (split; [by apply HQ|done]). }
    eapply returns_mono; [apply (for_returns_pre _ _ _ (λ pre, inv (λ i _, i ∈ pre)))|].
    - split; [done|]. intros a k b. split.
      + unfold has_mark, create_empty. cbn [mset mnodes]. intros Hab. destruct (decide (b ∈ _ ∧ _)) as [_|Hn].
        * by apply elem_of_empty in Hab.
        * destruct Hn. split; [|apply mark_in_PAG]. simpl. by apply (Hg0 a k).
      + intros (i & j & Hi & _). by apply elem_of_nil in Hi.
    - intros pre i post h E Hh. assert (i ∈ seq 0 (mdim m)) as Hi by (rewrite E; set_solver +). apply elem_of_seq in Hi.
      eapply returns_mono; [apply (for_returns_pre _ _ _ (λ qre, inv (λ i' j, i' ∈ pre ∨ (i' = i ∧ j ∈ qre))))|].
      + eapply Himp; [|exact Hh]. intros i' j _ _. simpl. set_solver +.
      + intros qre j qost h2 E2 [K1 K2]. assert (j ∈ seq 0 (mdim m)) as Hj by (rewrite E2; set_solver +). apply elem_of_seq in Hj.
        destruct (lookup_lt_is_Some_2 l i) as [a Ha]; [lia|]. destruct (lookup_lt_is_Some_2 l j) as [b Hb]; [lia|].
        destruct (code_mark (ment m i j)) as [k|] eqn:Ec.
        * unfold list_get. rewrite Ha, Hb. cbn [mbind res_bind returns]. split; [done|]. intros a' k' b'. unfold has_mark. rewrite elem_madd.
          fold (has_mark h2 a' k' b'). rewrite K2. split.
          -- intros [(i' & j' & Hq & ?)|(? & ? & ?)].
             ++ exists i', j'. split; [|done]. destruct Hq as [?|[? ?]]; [by left|right]. split; [done|]. apply elem_of_app. by left.
             ++ subst. exists i, j. apply code_mark_inv in Ec. split_and!; try done; try lia. right. split; [done|]. set_solver +.
          -- intros (i' & j' & Hq & H1 & H2 & H3 & H4 & H5). destruct Hq as [?|[-> Hq]]; [left; exists i', j'; split; [by left|done]|].
             apply elem_of_app in Hq as [?|Hq]; [left; exists i, j'; split; [by right|done]|]. apply elem_of_list_singleton in Hq as ->.
             right. rewrite H5, code_mark_code in Ec. simplify_eq. done.
        * split; [done|]. intros a' k' b'. rewrite K2. split; intros (i' & j' & Hq & H1 & H2 & H3 & H4 & H5); exists i', j'; (split; [|done]).
          -- destruct Hq as [?|[-> Hq]]; [by left|right]. split; [done|]. set_solver +Hq.
          -- destruct Hq as [?|[-> Hq]]; [by left|]. apply elem_of_app in Hq as [?|Hq]; [by right|]. apply elem_of_list_singleton in Hq as ->.
             by rewrite H5, code_mark_code in Ec.
      + cbn beta. intros h2. apply Himp. intros i' j' Hi' Hj'. assert (j' ∈ seq 0 (mdim m)) by (apply elem_of_seq; lia). set_solver.
    - cbn beta. intros h [H1 H2]. split; [done|]. intros a k b. rewrite H2. split.
      + intros (i & j & _ & ?). by exists i, j.
      + intros (i & j & ? & ? & ? & ? & ?). exists i, j. split_and!; try done. apply elem_of_seq. lia.
  Qed.

  Lemma from_mat_default g0 m : (∀ a k b, has_mark g0 a k b → b ∈ mnodes g0) → (∀ i j, i < mdim m → j < mdim m → ment m i j ≤ 3) → mdim m = size (mnodes g0) →
    returns (pag_from_mat g0 m None) (from_mat_spec g0 (merge_sort le (elements (mnodes g0))) m).
  Proof.
    intros Hg0 Hm Hd. unfold pag_from_mat.
    replace (forallb _ _) with true.
    2:{ symmetry. apply forallb_forall. intros i Hi. apply forallb_forall. intros j Hj. apply elem_of_list_In, elem_of_seq in Hi, Hj. apply bool_decide_eq_true. apply Hm; lia. }
    cbn [assert_ mbind res_bind]. apply from_mat_ok; try done. by rewrite merge_sort_Permutation.
  Qed.

  Theorem pag_mat_round_trip g g0 : (∀ a k b, has_mark g a k b → a ∈ mnodes g ∧ b ∈ mnodes g) → (∀ a k j b, has_mark g a k b → has_mark g a j b → k = j) →
    mnodes g0 = mnodes g → (∀ a k b, has_mark g0 a k b → b ∈ mnodes g0) →
    returns (m ← pag_adj_mat o g; pag_from_mat g0 m None) (mg_same g).
  Proof.
    intros Hin Hone Hn Hg0. eapply returns_bind; [by apply adj_mat_inv|]. intros m (D1 & D2 & D3).
    set (l := merge_sort le (elements (mnodes g))) in *.
    assert (∀ i j, ment m i j ≤ 3) as H3.
    { intros i j. destruct (decide (ment m i j = 0)) as [->|Hne]; [lia|]. apply D2 in Hne as (a & k & b & _ & _ & _ & ->). destruct k; simpl; lia. }
    eapply returns_mono; [apply from_mat_default; [done|done|]|].
    { rewrite D1, Hn. unfold l. by rewrite merge_sort_Permutation. }
    rewrite Hn. fold l. intros h [H1 H2].
    assert (∀ a k b, has_mark g a k b ↔ has_mark h a k b) as Hgh; [|by split; [rewrite H1|]].
    intros a k b. rewrite H2. split.
    - intros Hk. destruct (Hin _ _ _ Hk) as [Va Vb]. apply (sorted_elem g) in Va, Vb. fold l in Va, Vb.
      apply elem_of_list_lookup in Va as [i Hi], Vb as [j Hj]. exists i, j. split_and!; try done.
      + rewrite D1. by eapply lookup_lt_Some.
      + rewrite D1. by eapply lookup_lt_Some.
      + by eapply D3.
    - intros (i & j & Hi & Hj & _ & _ & Hk). destruct (D2 i j) as (a' & k' & b' & ? & ? & Hg & Hk'); [by destruct k; rewrite Hk|].
      rewrite Hk in Hk'. assert (k = k') as -> by (by destruct k, k'). by simplify_eq.
  Qed.

  Theorem mat_pag_round_trip g0 m : (∀ a k b, has_mark g0 a k b → b ∈ mnodes g0) → (∀ i j, i < mdim m → j < mdim m → ment m i j ≤ 3) → mdim m = size (mnodes g0) →
    returns (g ← pag_from_mat g0 m None; pag_adj_mat o g) (λ m', mdim m' = mdim m ∧ ∀ i j, i < mdim m → j < mdim m → ment m' i j = ment m i j).
  Proof.
    intros Hg0 Hm Hd. eapply returns_bind; [by apply from_mat_default|]. intros h [H1 H2].
    set (l := merge_sort le (elements (mnodes g0))) in *.
    assert (NoDup l) as Hnd by apply sorted_nodup. assert (length l = mdim m) as Hlen by (unfold l; by rewrite merge_sort_Permutation).
    eapply returns_mono; [apply adj_mat_inv|].
    - intros a k b Hk. apply H2 in Hk as (i & j & Hi & Hj & _). rewrite H1, <-!sorted_elem. fold l. split; by eapply elem_of_list_lookup_2.
    - intros a k k' b Hk Hk'. apply H2 in Hk as (i & j & Hi & Hj & _ & _ & Hk), Hk' as (i' & j' & Hi' & Hj' & _ & _ & Hk').
      rewrite (NoDup_lookup _ _ _ _ Hnd Hi Hi'), (NoDup_lookup _ _ _ _ Hnd Hj Hj') in Hk. rewrite Hk in Hk'. by destruct k, k'.
    - intros m' (D1 & D2 & D3). rewrite H1 in D1, D2, D3. fold l in D1, D2, D3. split; [congruence|]. intros i j Hi Hj.
      destruct (lookup_lt_is_Some_2 l i) as [a Ha]; [lia|]. destruct (lookup_lt_is_Some_2 l j) as [b Hb]; [lia|].
      destruct (code_mark (ment m i j)) as [k|] eqn:Ec.
      + apply code_mark_inv in Ec. rewrite Ec. apply (D3 i j a k b); try done. apply H2. by exists i, j.
      + rewrite (code_mark_none _ (Hm i j Hi Hj) Ec). destruct (decide (ment m' i j = 0)) as [|Hne]; [done|].
        destruct (D2 i j Hne) as (a' & k & b' & Ha' & Hb' & Hk & _). apply H2 in Hk as (i' & j' & Hi' & Hj' & _ & _ & Hk).
        rewrite (NoDup_lookup _ _ _ _ Hnd Hi' Ha'), (NoDup_lookup _ _ _ _ Hnd Hj' Hb') in Hk. by rewrite Hk, code_mark_code in Ec.
  Qed.
End mat_.

Section visible_.
  Context (o : order) (Ho : iter_ok o) (g : mgraph) (Hwf : mg_wf g).

  Lemma visible_disc a b c q : dir_edge g a b → q ≠ [] → visible_by g a b c q ↔
    ∃ d, last q = Some d ∧ has_mark g d Directed a ∧ has_mark g a Directed d ∧ dir_edge g d b ∧ discriminating g c q a b.
  Proof.
    intros Hab Hq. destruct (rev_case q) as [->|(q' & d & ->)]; [done|]. clear Hq. rewrite last_snoc. split.
    - intros [V1 V2 V3 V4 V5 V6]. exists d. assert (has_mark g d Directed a) as Hda.
      { apply V6. change (c :: q' ++ [d]) with ((c :: q') ++ [d]). apply last_snoc. }
      destruct (rev_case (c :: q')) as [?|(r & u & E)]; [done|].
      assert (has_mark g a Directed d) as Had.
      { destruct (V5 r u d a []) as [_ ?]; [|done]. rewrite <-!app_assoc. change (c :: q' ++ [d] ++ [a]) with ((c :: q') ++ [d; a]).
        rewrite E. by rewrite <-app_assoc. }
      split; [done|]. split; [done|]. split; [done|]. split; [apply V4; set_solver +|]. split; try done.
      + by destruct q'.
      + change (c :: (q' ++ [d]) ++ [a; b]) with ((c :: (q' ++ [d])) ++ [a; b]). apply linked_snoc; [done|]. by exists Directed; apply Hab.
    - intros (d' & Hd & Hda & Had & Hdb & [D1 D2 D3 D4 D5 D6]). injection Hd as <-. split; try done.
      + intros l1 u v l2 E. apply (D3 l1 u v (l2 ++ [b])). change (c :: (q' ++ [d]) ++ [a; b]) with ((c :: q' ++ [d]) ++ [a] ++ [b]).
        rewrite app_assoc. change ((c :: q' ++ [d]) ++ [a]) with (c :: (q' ++ [d]) ++ [a]). rewrite E. by rewrite <-app_assoc.
      + intros w. change (c :: q' ++ [d]) with ((c :: q') ++ [d]). rewrite last_snoc. intros [= <-]. done.
  Qed.

  Theorem test_edge_visible_ok fuel a b : size (mnodes g) + 1 < fuel → returns (test_edge_visible o fuel g a b) (λ r, r = true ↔ visible g a b).
  Proof.
    intros Hf. unfold test_edge_visible. destruct (is_parent g a b) eqn:Ep; cbn [negb].
    2:{ apply not_true_iff_false in Ep. rewrite is_parent_spec in Ep. simpl. split; [done|]. by intros [? _]. }
    rewrite is_parent_spec in Ep. pose proof Ep as [Hab _]. pose proof (mgw_in _ Hwf _ _ _ Hab) as (Va & Vb & Nab).
    eapply returns_bind.
    { apply (filter_returns _ _ (λ n, ¬ mg_adj g n b)). intros n Hn. rewrite iter_elem in Hn by done. apply elem_of_difference in Hn as [_ Hn].
      rewrite elem_of_singleton in Hn. eapply returns_bind; [apply m_is_connected_pag; [done|by apply not_eq_sym]|].
      cbn beta. intros x Hx. simpl. rewrite negb_true_iff. split.
      - intros -> Hnb. apply mg_adj_sym in Hnb; [|done]. by apply Hx in Hnb.
      - intros Hn'. destruct x; [|done]. exfalso. apply Hn'. apply mg_adj_sym; [done|]. by apply Hx. }
    cbn beta. intros cs Hcs.
    assert (existsb (λ c, bool_decide (c ∈ mset g a Directed)) (o 271 (cs ∖ {[a]} ∖ {[b]})) = true ↔ ∃ c, visible_by g a b c []) as Hex.
    { rewrite existsb_exists. split.
      - intros (c & Hc & Hca). apply bool_decide_eq_true in Hca. apply elem_of_list_In in Hc. rewrite iter_elem in Hc by done.
        rewrite !elem_of_difference, !elem_of_singleton in Hc. destruct Hc as [[Hc Nca] Ncb]. apply Hcs in Hc as [_ Hn].
        exists c. split; try done.
        + simpl. rewrite !NoDup_cons, !elem_of_cons, !elem_of_nil. split_and!; [intros [?|[?|[]]]; done|intros [?|[]]; done|intros []|constructor].
        + simpl. apply linked_cons. split; [by exists Directed|apply linked_one].
        + intros v Hv. by apply elem_of_nil in Hv.
        + intros l1 u v w l2 E. apply (f_equal length) in E. rewrite app_length in E. simpl in E. lia.
        + intros w [= <-]. done.
      - intros (c & [V1 V2 V3 V4 V5 V6]). simpl in V1. rewrite !NoDup_cons, !elem_of_cons in V1. destruct V1 as (N1 & N2 & _).
        assert (has_mark g c Directed a) as Hca by (by apply V6). pose proof (mgw_in _ Hwf _ _ _ Hca) as (Vc & _ & _).
        exists c. split; [|by apply bool_decide_eq_true]. apply elem_of_list_In. rewrite iter_elem by done.
        rewrite !elem_of_difference, !elem_of_singleton, Hcs, iter_elem, elem_of_difference, elem_of_singleton by done.
        split_and!; try done; intros ->; apply N1; auto. }
    destruct (existsb _ _) eqn:Ee.
    { simpl. split; [|done]. intros _. split; [done|]. destruct (proj1 Hex eq_refl) as [c Hc]. by exists c, []. }
    eapply returns_mono; [apply (any_returns _ _ (λ d, ∃ c q, last q = Some d ∧ discriminating g c q a b))|].
    - intros d Hd. rewrite iter_elem, elem_of_filter, elem_spouses, is_parent_spec in Hd by done. destruct Hd as [Hdb [Hda Had]].
      pose proof (mgw_in _ Hwf _ _ _ Hda) as (_ & _ & N1). destruct (mgw_in _ Hwf _ _ _ (proj1 Hdb)) as (_ & _ & N2).
      eapply returns_bind; [apply (find_disc_path_ok o Ho g Hwf a b fuel d None); [by apply not_eq_sym|done|]|].
      { cbn [default from_option]. unfold id. assert (size (mnodes g ∖ {[d; a; b]}) ≤ size (mnodes g)) by (apply subseteq_size; set_solver +). lia. }
      cbn beta. cbn [default from_option]. unfold id. intros r Hr.
      assert (∀ c, dfound g a b (mnodes g ∖ {[d; a; b]}) d c ↔ ∃ q, last q = Some d ∧ discriminating g c q a b) as Hdf.
      { intros c. apply dfound_disc; try done; by exists Directed. }
      destruct r as [c|]; simpl.
      + split; [|done]. intros _. apply Hdf in Hr. destruct Hr as (q & ? & ?). by exists c, q.
      + split; [done|]. intros (c & q & Hq). exfalso. apply (Hr c), Hdf. by exists q.
    - cbn beta. intros r ->. split.
      + intros (d & Hd & c & q & Hl & HD). rewrite iter_elem, elem_of_filter, elem_spouses, is_parent_spec in Hd by done.
        destruct Hd as [Hdb [Hda Had]]. split; [done|]. exists c, q. apply visible_disc; [done|by apply HD|]. by exists d.
      + intros (_ & c & q & Hv). destruct (decide (q = [])) as [->|Hq].
        * assert (false = true) by (apply Hex; by exists c). done.
        * apply visible_disc in Hv as (d & Hl & Hda & Had & Hdb & HD); [|done..]. exists d. split; [|by exists c, q].
          rewrite iter_elem, elem_of_filter, elem_spouses, is_parent_spec by done. split; [done|]. by split.
  Qed.

  Theorem find_visible_edges_ok fuel : size (mnodes g) + 1 < fuel → returns (find_visible_edges o fuel g) (λ S, ∀ a b, (a, b) ∈ S ↔ visible g a b).
  Proof.
    intros Hf. unfold find_visible_edges.
    eapply returns_mono; [apply (for_returns_pre _ _ _ (λ pre S, ∀ a b, (a, b) ∈ S ↔ b ∈ pre ∧ visible g a b))|].
    - set_solver +.
    - intros pre c post S E HS.
      eapply returns_mono; [apply (for_returns_pre _ _ _ (λ qre S, ∀ a b, (a, b) ∈ S ↔ (b ∈ pre ∨ (b = c ∧ a ∈ qre)) ∧ visible g a b))|].
      + intros a b. rewrite HS. set_solver +.
      + intros qre p qost S2 E2 HS2. eapply returns_bind; [by apply test_edge_visible_ok|]. cbn beta. intros r Hr. destruct r; simpl.
        * intros a b. rewrite elem_of_union, elem_of_singleton, HS2, elem_of_app, elem_of_list_singleton. split.
          -- intros [[? ?]|E3]; [tauto|]. injection E3 as -> ->. split; [by auto|by apply Hr].
          -- intros [[?|[-> [?| ->]]] ?]; auto.
        * intros a b. rewrite HS2, elem_of_app, elem_of_list_singleton. split; [tauto|]. intros [[?|[-> [?| ->]]] Hv]; auto. by apply Hr in Hv.
      + cbn beta. intros S2 HS2 a b. rewrite HS2, elem_of_app, elem_of_list_singleton. split.
        * intros [[?|[? _]] ?]; auto.
        * intros [[?| ->] Hv]; auto. split; [right|done]. split; [done|]. apply iter_elem; [done|]. by apply Hv.
    - cbn beta. intros S HS a b. rewrite HS. split; [tauto|]. intros Hv. split; [|done]. apply iter_elem; [done|].
      destruct Hv as [[Hab _] _]. by apply (mgw_in _ Hwf) in Hab as (_ & ? & _).
  Qed.
End visible_.

Section buckets.
  Context (o : order) (Ho : iter_ok o) (g : mgraph) (Hwf : mg_wf g).

  Lemma sink_spec B X : is_set_possible_sink o g B (Some X) = true ↔ ∀ a b, a ∈ X → b ∈ B → mg_adj g a b → has_mark g a Directed b.
  Proof.
    unfold is_set_possible_sink. cbn [default from_option]. unfold id. rewrite forallb_forall. split.
    - intros H a b Ha Hb [k Hk]. specialize (H b). rewrite <-elem_of_list_In, iter_elem, andb_true_iff, !bool_decide_eq_true in H by done.
      destruct (H Hb) as [H1 H2]. unfold has_mark in *. destruct k; [|done|].
      + set_solver +H2 Hk Ha.
      + set_solver +H1 Hk Ha.
    - intros H b Hb. rewrite <-elem_of_list_In, iter_elem in Hb by done. rewrite andb_true_iff, !bool_decide_eq_true.
      split; apply set_eq; intros a; rewrite elem_of_intersection, elem_of_empty; (split; [|done]); intros [Hk Ha];
      (assert (has_mark g a Directed b) as Hd by (apply H; [done..|by eexists])); by pose proof (mgw_one _ Hwf _ _ _ _ Hd Hk).
  Qed.

  Lemma take_sink_ok rem bs : ∀ pre, match take_sink o g rem pre bs with
    | Some (B, bs') => ∃ l1 l2, bs = l1 ++ B :: l2 ∧ bs' = pre ++ l1 ++ l2 ∧ is_set_possible_sink o g B (Some (rem ∖ B)) = true
    | None => ∀ B, B ∈ bs → is_set_possible_sink o g B (Some (rem ∖ B)) = false
    end.
  Proof.
    induction bs as [|B bs IH]; intros pre; simpl.
    - intros B HB. by apply elem_of_nil in HB.
    - destruct (is_set_possible_sink o g B (Some (rem ∖ B))) eqn:E; [by exists [], bs|].
      specialize (IH (pre ++ [B])). destruct (take_sink o g rem (pre ++ [B]) bs) as [[C bs']|].
      + destruct IH as (l1 & l2 & -> & -> & ?). exists (B :: l1), l2. split_and!; [done| |done]. by rewrite <-app_assoc.
      + intros C HC. apply elem_of_cons in HC as [->|HC]; auto.
  Qed.

  (** the state of the loop *)
  Record bst (L bs : list nset) (rem : nset) (ord : list nset) : Prop := {
    bst_perm : L ≡ₚ bs ++ ord;
    bst_rem : ∀ v, v ∈ rem ↔ ∃ B, B ∈ bs ∧ v ∈ B;
    bst_in : ∀ B C a b, B ∈ bs → C ∈ ord → a ∈ B → b ∈ C → mg_adj g a b → has_mark g a Directed b;
    bst_ord : bucket_order g (reverse ord);
  }.
  Definition disj (L : list nset) : Prop := NoDup L ∧ ∀ B C v, B ∈ L → C ∈ L → v ∈ B → v ∈ C → B = C.

  Lemma order_cons B l : bucket_order g l → (∀ C a b, C ∈ l → a ∈ B → b ∈ C → mg_adj g a b → has_mark g a Directed b) → bucket_order g (B :: l).
  Proof.
    intros Hl HB i j C D a b Hij Hi Hj Ha Hb Hab. destruct j as [|j]; [lia|]. destruct i as [|i]; simpl in Hi, Hj.
    - injection Hi as <-. apply (HB D); try done. by eapply elem_of_list_lookup_2.
    - apply (Hl i j C D); try done. lia.
  Qed.

  Lemma bst_step L l1 B l2 rem ord : disj L → bst L (l1 ++ B :: l2) rem ord → is_set_possible_sink o g B (Some (rem ∖ B)) = true →
    bst L (l1 ++ l2) (rem ∖ B) (ord ++ [B]).
  Proof.
    intros [Hnd Hdj] [P1 P2 P3 P4] Hs. rewrite sink_spec in Hs.
    assert (∀ C, C ∈ l1 ++ l2 → C ∈ L ∧ C ≠ B) as Hne.
    { intros C HC. split; [rewrite P1; set_solver +HC|]. intros ->. rewrite P1 in Hnd. apply NoDup_app in Hnd as [Hnd _].
      rewrite <-Permutation_middle in Hnd. apply NoDup_cons in Hnd as [Hnd _]. done. }
    assert (B ∈ L) as HBL by (rewrite P1; set_solver +).
    assert (∀ v, v ∈ rem ∖ B ↔ ∃ C, C ∈ l1 ++ l2 ∧ v ∈ C) as Hrem.
    { intros v. rewrite elem_of_difference, P2. split.
      - intros [(C & HC & HvC) HvB]. exists C. split; [|done]. apply elem_of_app in HC as [?|HC]; [set_solver|].
        apply elem_of_cons in HC as [->|?]; [done|]. apply elem_of_app. by right.
      - intros (C & HC & HvC). split; [exists C; split; [set_solver +HC|done]|]. intros HvB. destruct (Hne C HC) as [H1 H2]. by destruct H2; eapply Hdj. }
    split.
    - rewrite P1, <-Permutation_middle. simpl. rewrite app_assoc. apply Permutation_cons_append.
    - done.
    - intros C D a b HC HD Ha Hb Hab. apply elem_of_app in HD as [HD|HD]; [by eapply (P3 C D); [set_solver +HC|done..]|].
      apply elem_of_list_singleton in HD as ->. apply Hs; try done. apply Hrem. by exists C.
    - rewrite reverse_app. simpl. apply order_cons; [done|]. intros C a b HC. rewrite elem_of_reverse in HC. apply (P3 B C); [set_solver +|done].
  Qed.

  Lemma bucket_loop_sound L fuel : ∀ bs rem ord r, disj L → bst L bs rem ord → bucket_loop o fuel g bs rem ord = Ok r → L ≡ₚ r ∧ bucket_order g (reverse r).
  Proof.
    induction fuel as [|fuel IH]; intros bs rem ord r Hd Hb Hr; [done|]. cbn [bucket_loop] in Hr. destruct bs as [|B0 bs0].
    - injection Hr as <-. split; apply Hb.
    - set (bs := B0 :: bs0) in *. pose proof (take_sink_ok rem bs []) as Ht. destruct (take_sink o g rem [] bs) as [[B bs']|].
      + destruct Ht as (l1 & l2 & E & -> & Hs). unfold assert_ in Hr. destruct (bool_decide _); [|done]. cbn [mbind res_bind] in Hr.
        eapply IH; [done| |exact Hr]. simpl. apply bst_step; [done| |done]. by rewrite <-E.
      + unfold assert_ in Hr. destruct (bool_decide _); [|done]. cbn [mbind res_bind] in Hr. by eapply IH.
  Qed.

  Lemma last_such (l : list nset) (P : nset → Prop) : (∀ B, P B ∨ ¬ P B) → (∃ B, B ∈ l ∧ P B) → ∃ l1 B l2, l = l1 ++ B :: l2 ∧ P B ∧ ∀ C, C ∈ l2 → ¬ P C.
  Proof.
    intros Hdec. induction l as [|B l IH]; intros (C & HC & HP); [by apply elem_of_nil in HC|].
    assert ((∃ D, D ∈ l ∧ P D) ∨ ¬ ∃ D, D ∈ l ∧ P D) as [Hl|Hl].
    { clear -Hdec. induction l as [|D l IH]; [right; intros (D & HD & _); by apply elem_of_nil in HD|]. destruct (Hdec D); [left; exists D; set_solver|].
      destruct IH as [(E & ? & ?)|IH]; [left; exists E; set_solver|right]. intros (E & HE & ?). apply elem_of_cons in HE as [->|?]; [done|]. eauto. }
    - destruct (IH Hl) as (l1 & D & l2 & -> & ? & ?). by exists (B :: l1), D, l2.
    - exists [], B, l. split_and!; [done| |intros D ??; eauto]. apply elem_of_cons in HC as [->|?]; [done|]. exfalso. eauto.
  Qed.

  Lemma bucket_loop_total L0 L fuel : ∀ bs rem ord, disj L → L0 ≡ₚ L → bucket_order g L0 → bst L bs rem ord → length bs < fuel →
    returns (bucket_loop o fuel g bs rem ord) (λ r, L ≡ₚ r ∧ bucket_order g (reverse r)).
  Proof.
    induction fuel as [|fuel IH]; intros bs rem ord Hd Hp H0 Hb Hf; [lia|]. cbn [bucket_loop]. destruct bs as [|B0 bs0].
    - split; apply Hb.
    - set (bs := B0 :: bs0) in *. pose proof (take_sink_ok rem bs []) as Ht. destruct (take_sink o g rem [] bs) as [[B bs']|].
      + destruct Ht as (l1 & l2 & E & -> & Hs). rewrite bool_decide_true by (rewrite app_length; simpl; lia). cbn [assert_ mbind res_bind].
        apply IH; try done.
        * simpl. apply bst_step; [done| |done]. by rewrite <-E.
        * rewrite E in Hf. rewrite app_length in Hf |- *. simpl in *. rewrite app_length. lia.
      + exfalso. destruct (last_such L0 (.∈ bs)) as (l1 & B & l2 & E & HB & Hl2).
        { intros B. destruct (decide (B ∈ bs)); auto. }
        { exists B0. split; [|set_solver +]. rewrite Hp, (bst_perm _ _ _ _ Hb). set_solver +. }
        specialize (Ht B HB). apply not_true_iff_false in Ht. apply Ht. apply sink_spec. intros a b Ha HbB Hab.
        apply elem_of_difference in Ha as [Ha HaB]. apply (bst_rem _ _ _ _ Hb) in Ha as (C & HC & HaC).
        assert (C ∈ l1) as HC1.
        { assert (C ∈ L0) as HCL by (rewrite Hp, (bst_perm _ _ _ _ Hb); set_solver +HC). rewrite E in HCL.
          apply elem_of_app in HCL as [?|HCL]; [done|]. apply elem_of_cons in HCL as [->|HCL]; [done|]. by destruct (Hl2 C HCL). }
        apply elem_of_list_lookup in HC1 as [i Hi]. apply (H0 i (length l1) C B); try done.
        * by eapply lookup_lt_Some.
        * rewrite E. by apply lookup_app_l_Some.
        * rewrite E. by rewrite list_lookup_middle.
  Qed.

  Lemma components_disj R V l : components R V l → disj l.
  Proof.
    intros (H1 & H2 & H3 & _). split.
    - apply NoDup_alt. intros i j B Hi Hj. destruct (set_choose_L B) as [v Hv]; [apply H3; by eapply elem_of_list_lookup_2|]. by eapply (H2 i j B B v).
    - intros B C v HB HC HvB HvC. apply elem_of_list_lookup in HB as [i Hi], HC as [j Hj]. assert (i = j) as -> by by eapply H2. congruence.
  Qed.
  Lemma components_length R V l : components R V l → length l ≤ size V.
  Proof.
    intros Hc. pose proof (components_disj _ _ _ Hc) as [Hnd Hdj]. destruct Hc as (H1 & _ & H3 & _).
    set (f := λ B : nset, default 0 (head (elements B))).
    assert (∀ B, B ∈ l → f B ∈ B) as Hf.
    { intros B HB. specialize (H3 B HB). unfold f. destruct (elements B) as [|v w] eqn:E.
      - destruct H3. by apply elements_empty_inv, leibniz_equiv in E.
      - simpl. apply elem_of_elements. rewrite E. set_solver +. }
    assert (NoDup (f <$> l)) as Hnf.
    { apply NoDup_fmap_2_strong; [|done]. intros B C HB HC E. eapply (Hdj B C (f B)); try done; [by apply Hf|]. rewrite E. by apply Hf. }
    rewrite <-(fmap_length f), <-(size_list_to_set (C := nset) (f <$> l) Hnf). apply subseteq_size. intros v Hv.
    apply elem_of_list_to_set, elem_of_list_fmap in Hv as (B & -> & HB). apply H1. exists B. auto.
  Qed.
  Lemma components_perm R V l l' : l ≡ₚ l' → components R V l → components R V l'.
  Proof.
    intros Hp Hc. pose proof (components_disj _ _ _ Hc) as [Hnd Hdj]. destruct Hc as (H1 & H2 & H3 & H4). split_and!.
    - intros v. rewrite H1. by setoid_rewrite Hp.
    - intros i j B C v Hi Hj HB HC. assert (NoDup l') as Hnd' by by rewrite <-Hp.
      assert (B = C) as ->. { eapply (Hdj B C v); try done; rewrite Hp; by eapply elem_of_list_lookup_2. }
      by eapply NoDup_lookup.
    - intros B. rewrite <-Hp. apply H3.
    - intros B a. rewrite <-Hp. apply H4.
  Qed.
  Lemma components_unique R V l l' : components R V l → components R V l' → l ≡ₚ l'.
  Proof.
    assert (∀ l l', components R V l → components R V l' → ∀ B, B ∈ l → B ∈ l') as Himp.
    { clear l l'. intros l l' (H1 & H2 & H3 & H4) (H1' & H2' & H3' & H4') B HB. destruct (set_choose_L B (H3 B HB)) as [v Hv].
      assert (v ∈ V) as HvV by (apply H1; eauto). apply H1' in HvV as (C & HC & HvC). replace B with C; [done|].
      apply set_eq. intros w. by rewrite (H4 B v HB Hv), (H4' C v HC HvC). }
    intros Hl Hl'. pose proof (components_disj _ _ _ Hl) as [? _]. pose proof (components_disj _ _ _ Hl') as [? _].
    apply NoDup_Permutation; [done..|]. intros B. split; by eapply Himp.
  Qed.

  Lemma bst_init L : bst L L (⋃ L) [].
  Proof.
    split.
    - by rewrite app_nil_r.
    - intros v. by rewrite elem_of_union_list.
    - intros B C a b _ HC. by apply elem_of_nil in HC.
    - intros i j B C a b _ Hi. done.
  Qed.

  Let circ := kind_edge g (Some Circle).
  Lemma circ_kind a b : circ a b ↔ circ_edge g a b.
  Proof. done. Qed.

  Theorem ordered_buckets_sound fuel en r : let V := default (mnodes g) en in size V + 1 < fuel →
    get_ordered_buckets o fuel g en = Ok r → components (circ_edge g) V r ∧ bucket_order g r.
  Proof.
    intros V Hf. unfold get_ordered_buckets, find_buckets. fold V.
    pose proof (pag_components o g fuel (Some V) (Some Circle) Ho Hwf Hf) as Hc. apply returns_ok in Hc as (L & -> & Hc). cbn [mbind res_bind].
    cbn [default from_option] in Hc. unfold id in Hc.
    destruct (bucket_loop o fuel g L (⋃ L) []) as [l| |] eqn:E; try done. cbn [mbind res_bind]. intros [= <-].
    apply (bucket_loop_sound L) in E as [Hp Ho']; [|by eapply components_disj|apply bst_init]. split; [|done].
    eapply components_perm; [|exact Hc]. rewrite Hp. symmetry. apply reverse_Permutation.
  Qed.

  Theorem ordered_buckets_total fuel en L0 : let V := default (mnodes g) en in size V + 1 < fuel →
    components (circ_edge g) V L0 → bucket_order g L0 → 
    returns (get_ordered_buckets o fuel g en) (λ r, components (circ_edge g) V r ∧ bucket_order g r).
  Proof.
    intros V Hf Hc0 H0. unfold get_ordered_buckets, find_buckets. fold V.
    eapply returns_bind; [apply (pag_components o g fuel (Some V) (Some Circle) Ho Hwf Hf)|]. cbn beta. cbn [default from_option]. unfold id. intros L Hc.
    assert (length L ≤ size V) as Hlen.
    { by eapply components_length. }
    eapply returns_bind; [apply (bucket_loop_total L0 L); [by eapply components_disj|by eapply components_unique|done|apply bst_init|lia]|].
    cbn beta. intros l [Hp Ho']. simpl. split; [|done]. eapply components_perm; [|exact Hc]. rewrite Hp. symmetry. apply reverse_Permutation.
  Qed.
End buckets.

Section pcc.
  Context (o : order) (Ho : iter_ok o) (g : mgraph) (Hwf : mg_wf g) (vis : gset (node * node)).

  Lemma elem_foldl_comp (l : list nset) V ys v : components (bidir_edge g) V l → (∀ y, y ∈ ys → y ∈ V) → ∀ S0 : nset,
    v ∈ foldl (λ S y, match List.find (λ C, bool_decide (y ∈ C)) l with Some C => S ∪ C | None => S end) S0 ys ↔
    v ∈ S0 ∨ ∃ y, y ∈ ys ∧ same_component (bidir_edge g) V y v.
  Proof.
    intros (H1 & _ & _ & H4). induction ys as [|y ys IH]; intros Hin S0; simpl.
    - set_solver +.
    - rewrite IH by (intros z Hz; apply Hin; set_solver +Hz).
      destruct (List.find (λ C, bool_decide (y ∈ C)) l) as [C|] eqn:E.
      + apply find_some in E as [HC Hy]. apply elem_of_list_In in HC. apply bool_decide_eq_true in Hy.
        rewrite elem_of_union, (H4 C y HC Hy). split.
        * intros [[?|?]|(z & ? & ?)]; [by left|right; exists y; split; [set_solver +|done]|right; exists z; split; [by apply elem_of_cons; right|done]].
        * intros [?|(z & Hz & ?)]; [auto|]. apply elem_of_cons in Hz as [->|?]; [auto|right; eauto].
      + exfalso. assert (y ∈ V) as Hy by (apply Hin; set_solver +). apply H1 in Hy as (C & HC & HyC).
        apply elem_of_list_In in HC. pose proof (List.find_none _ _ E C HC) as Hf. cbn beta in Hf. by rewrite bool_decide_eq_false in Hf.
  Qed.

  (** what is computed: as documented, except that for the last part the visibility of (w, y) is tested
      for one y, instead of the visibility of (w, z) *)
  Theorem pc_component_ok fuel x en dc : let V := default (mnodes g) en in size V + 1 < fuel → (match dc with Some l => components (bidir_edge g) V l | None => True end) →
    returns (find_pc_component o fuel g vis x en dc) (λ S, ∀ w, w ∈ S ↔
      w = x ∨ pc_neighbour g vis V x w ∨ pc_linked g vis V x w ∨
      (w ∈ V ∧ ∃ z, pc_linked g vis V x z ∧ z ≠ x ∧ has_mark g w Directed z ∧ ∃ y, last (o 639 (filter (λ n, x ∈ mset g n Directed)
         (filter (λ n, (x, n) ∉ vis ∧ (n, x) ∉ vis) (find_adj PAG_T g x (Some V) None)))) = Some y ∧ (w, y) ∉ vis)).
  Proof.
    intros V Hf Hdc. unfold find_pc_component. fold V. set (inv := filter _ (find_adj PAG_T g x (Some V) None)). set (ch := filter _ inv).
    assert (∀ n, n ∈ inv ↔ pc_neighbour g vis V x n) as Hinv.
    { intros n. unfold inv, pc_neighbour. rewrite elem_of_filter, elem_find_adj_pag. tauto. }
    assert (∀ n, n ∈ ch ↔ pc_neighbour g vis V x n ∧ has_mark g x Directed n) as Hch.
    { intros n. unfold ch. rewrite elem_of_filter, Hinv. tauto. }
    eapply returns_bind with (P := components (bidir_edge g) V).
    { destruct dc as [l|]; [done|]. apply (pag_components o g fuel (Some V) (Some Directed) Ho Hwf Hf). }
    intros l Hl. cbn zeta. set (ys := o 639 ch) in *. cbn [returns].
    set (valid := foldl _ ∅ ys). set (zs := valid ∖ {[x]}). set (rest := V ∖ (ch ∪ valid)).
    assert (∀ v, v ∈ valid ↔ pc_linked g vis V x v) as Hvalid.
    { intros v. unfold valid. rewrite (elem_foldl_comp l V ys v Hl).
      - unfold pc_linked. rewrite elem_of_empty. split.
        + intros [[]|(y & Hy & ?)]. unfold ys in Hy. rewrite iter_elem, Hch in Hy by done. exists y. tauto.
        + intros (y & ? & ? & ?). right. exists y. split; [|done]. unfold ys. rewrite iter_elem, Hch by done. done.
      - intros y Hy. unfold ys in Hy. rewrite iter_elem, Hch in Hy by done. by destruct Hy as [[? _] _]. }
    intros w. rewrite !elem_of_union, Hvalid, Hinv, Hch, elem_of_singleton.
    assert (∀ (zl : list nat) (S0 : nset), w ∈ foldl (λ S z, S ∪ filter (λ w, w ∈ mset g z Directed ∧ match last ys with Some y => bool_decide ((w, y) ∉ vis) | None => true end = true) rest) S0 zl ↔
      w ∈ S0 ∨ (w ∈ rest ∧ ∃ z, z ∈ zl ∧ has_mark g w Directed z ∧ match last ys with Some y => bool_decide ((w, y) ∉ vis) | None => true end = true)) as Hfold.
    { induction zl as [|z zl IH]; intros S0; simpl; [set_solver +|]. rewrite IH, elem_of_union, elem_of_filter. unfold has_mark. set_solver +. }
    rewrite Hfold, elem_of_empty. setoid_rewrite (iter_elem o 651 zs); [|done]. unfold zs. setoid_rewrite elem_of_difference. setoid_rewrite elem_of_singleton. setoid_rewrite Hvalid.
    assert (∀ z, pc_linked g vis V x z → ∃ y, last ys = Some y) as Hlast.
    { intros z (y & Hy & Hxy & _). destruct (rev_case ys) as [E|(ys' & y' & E)]; [|exists y'; rewrite E; apply last_snoc].
      assert (y ∈ ys) as Hin by (unfold ys; rewrite iter_elem, Hch by done; done). rewrite E in Hin. by apply elem_of_nil in Hin. }
    split.
    - intros [[[[[? ?]|?]|[[]|(Hw & z & [? ?] & ? & Hv)]]|?]|?]; [by right; left|by right; right; left| |by right; left|by left].
      right. right. right. unfold rest in Hw. apply elem_of_difference in Hw as [Hw _]. split; [done|]. exists z. split_and!; [done..|].
      destruct (Hlast z) as [y Hy]; [done|]. rewrite Hy in Hv. exists y. split; [done|]. by apply bool_decide_eq_true in Hv.
    - intros [?|[?|[?|(Hw & z & ? & ? & ? & y & Hy & Hv)]]]; [by right|by left; right|by left; left; left; right|].
      destruct (decide (w ∈ ch ∪ valid)) as [Hc|Hc].
      + left. left. left. rewrite elem_of_union, Hvalid, Hch in Hc. done.
      + left. left. right. right. split; [by apply elem_of_difference|]. exists z. split_and!; [done..|]. rewrite Hy. by apply bool_decide_eq_true.
  Qed.
End pcc.
