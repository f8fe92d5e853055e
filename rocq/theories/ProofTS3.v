(** Temporal ICD: removals and iterations. *)
From Verif Require Import Base BaseLemmas ModelGraph Spec ModelMixed SpecMixed ProofMixed ProofMixed2 ProofPDAG ProofPDAG2
  ModelPC SpecPC ProofPC ModelPAG SpecPAG ProofPAG ProofPAGU ProofPAGX ModelPDS ModelFCI SpecFCI ProofFCI ProofFCI2 ProofFCI3 ModelTS SpecTS ProofTS ProofTS2.

Section ts.
  Context (NS : list (list node)) (W : window NS) (o : order) (Ho : iter_ok o) (ci : citest) (A : node → node → Prop).
  Notation V := (win_nodes NS).
  Notation fixmap := (gmap (nat * nat) (option mark)).

  Record ts_inv (s : lstate) : Prop := {
    ti_nodes : mnodes (ls_graph s) = V;
    ti_wf : mg_wf (ls_graph s);
    ti_dom : ∀ a b, a ∈ V → b ∈ V → a ≠ b → is_Some (ls_sep s !! hkey a b);
    ti_honest : honest ci (ls_log s);
    ti_log : proper_log V (ls_log s);
    ti_present : ∀ i j c b, (i, j, c, b) ∈ ls_log s → in_time NS 0 i;
    ti_stat : stationary NS (mg_adj (ls_graph s));
    ti_sub : ∀ a b, mg_adj (ls_graph s) a b → A a b;
    ti_true : ∀ i j c, (i, j, c, true) ∈ ls_log s → ¬ mg_adj (ls_graph s) i j;
    ti_rem : ∀ a b, A a b → ¬ mg_adj (ls_graph s) a b → ∃ i j c k c', (i, j, c, true) ∈ ls_log s ∧
      (earlier NS k i a ∧ earlier NS k j b ∨ earlier NS k i b ∧ earlier NS k j a) ∧ Forall2 (earlier NS k) c c' ∧
      ls_sep s !! hkey a b = Some (list_to_set c');
  }.

  Lemma ts_inv_justified s : ts_inv s → ts_justified NS ci A (ls_graph s) (ls_sep s) (ls_log s).
  Proof.
    intros I. constructor; try apply I.
    - intros a b. split.
      + intros Hab. split; [by apply (ti_sub _ I)|]. intros i j c H. apply (ti_true _ I) in H. split; intros Hs; apply H, (ti_stat _ I _ _ _ _ Hs); [done|].
        apply mg_adj_sym; [apply I|done].
      + intros [HA H]. destruct (decide (mg_adj (ls_graph s) a b)) as [?|Hn]; [done|]. exfalso.
        destruct (ti_rem _ I a b HA Hn) as (i & j & c & k & c' & Hl & Hk & _). destruct (H _ _ _ Hl) as [H1 H2]. destruct Hk as [Hk|Hk]; [apply H1|apply H2]; exists k; by left.
    - intros a b HA Hn. destruct (ti_rem _ I a b HA Hn) as (i & j & c & k & c' & H1 & H2 & H3 & H4). exists i, j, c, k, c'.
      split; [done|]. split; [done|]. split; [done|]. unfold sep_get. by rewrite H4.
  Qed.

  Lemma ts_inv_graph s g : ts_inv s → same_skel (ls_graph s) g → ts_inv (LState g (ls_sep s) (ls_log s)).
  Proof.
    intros I (N & Wg & Ag). constructor; cbn [ls_graph ls_sep ls_log]; try apply I.
    - rewrite N. apply I.
    - done.
    - intros a b c d Hs. rewrite !Ag. by apply I.
    - intros a b H. by apply I, Ag.
    - intros i j c H. rewrite Ag. by eapply (ti_true _ I).
    - intros a b HA. rewrite Ag. by apply I.
  Qed.
  Lemma ts_inv_total s : ts_inv s → sep_total (ls_sep s) (ls_graph s).
  Proof.
    intros I x y Hx Hy Hne _. rewrite (ti_nodes _ I) in Hx, Hy. destruct (ti_dom _ I x y Hx Hy Hne) as [Z HZ].
    exists Z. unfold sep_get. by rewrite HZ.
  Qed.

  (** ** removing an edge and its homologues *)
  Definition cuts (L : list (node * node * list node)) (s t : lstate) : Prop :=
    ls_log t = ls_log s ∧ mnodes (ls_graph t) = mnodes (ls_graph s) ∧ mg_wf (ls_graph t) ∧
    (∀ a b, mg_adj (ls_graph t) a b ↔ mg_adj (ls_graph s) a b ∧ ∀ i j c, (i, j, c) ∈ L → ¬ is_pair a b i j) ∧
    ∀ a b, (∃ i j c, (i, j, c) ∈ L ∧ is_pair a b i j ∧ ls_sep t !! hkey a b = Some (list_to_set c)) ∨
           ((∀ i j c, (i, j, c) ∈ L → ¬ is_pair a b i j) ∧ ls_sep t !! hkey a b = ls_sep s !! hkey a b).

  Lemma cut_one L s t i j c : cuts L s t → cuts (L ++ [(i, j, c)]) s (ls_cut i j c t).
  Proof.
    intros (Hl & N & Wt & At & St). unfold ls_cut. split; [done|]. cbn [ls_graph ls_sep]. split; [by rewrite delete_edge_nodes|].
    split; [by apply mg_wf_delete|]. split.
    - intros a b. rewrite delete_edge_adj, At. split.
      + intros [[H1 H2] H3]. split; [done|]. intros i' j' c' [H|H%elem_of_list_singleton]%elem_of_app; [by eapply H2|]. by simplify_eq.
      + intros [H1 H2]. split; [split; [done|]|].
        * intros i' j' c' H. eapply H2. apply elem_of_app. by left.
        * eapply H2. apply elem_of_app. right. by apply elem_of_list_singleton.
    - intros a b. unfold sep_set. destruct (decide (hkey i j = hkey a b)) as [Hk|Hk].
      + left. exists i, j, c. split; [set_solver +|]. rewrite Hk, lookup_insert. split; [|done]. apply hkey_eq in Hk as [[-> ->]|[-> ->]]; [by left|by right].
      + rewrite lookup_insert_ne by done. destruct (St a b) as [(i' & j' & c' & H1 & H2 & H3)|[H1 H2]].
        * left. exists i', j', c'. split; [set_solver +H1|]. done.
        * right. split; [|done]. intros i' j' c' [H|H%elem_of_list_singleton]%elem_of_app; [by eapply H1|]. simplify_eq.
          intros Hp. apply Hk. apply hkey_eq. destruct Hp as [[-> ->]|[-> ->]]; [by left|by right].
  Qed.
  Lemma cut_loop (L0 L : list (node * node * list node)) s t : cuts L0 s t →
    returns (for_ L (λ '(a, b, c) s, Ok (ls_cut a b c s)) t) (cuts (L0 ++ L) s).
  Proof.
    intros H0. eapply returns_mono.
    - apply (for_returns_pre _ _ _ (λ pre t', cuts (L0 ++ pre) s t')); [by rewrite app_nil_r|].
      intros pre [[a b] c] post t' E Ht. cbn [returns]. rewrite app_assoc. by apply cut_one.
    - cbn beta. done.
  Qed.

  Lemma is_pair_swap a b i j : is_pair a b i j → is_pair b a i j.
  Proof. intros [[-> ->]|[-> ->]]; [by right|by left]. Qed.

  (** every shift of the conditioning set is inside the window *)
  Definition within (i j : node) (c : list node) : Prop := ∀ z t, z ∈ c → in_time NS t z → ∃ t', t ≤ t' ∧ (in_time NS t' i ∨ in_time NS t' j).

  Lemma within_shift i j c k a b : within i j c → (∀ z, z ∈ c → z ∈ V) → earlier NS k i a → earlier NS k j b → ∃ c', Forall2 (earlier NS k) c c'.
  Proof.
    intros Hw Hc Hi Hj. induction c as [|z c IH]; [by exists []|].
    destruct IH as [c' Hc']; [intros z' t Hz'; apply Hw; by right|intros z' Hz'; apply Hc; by right|].
    destruct (node_at NS z) as (t & x & Hz); [apply Hc; by left|]. destruct (Hw z t) as (t' & Ht & Ht'); [by left|by exists x|].
    assert (t' + k < length NS) as Hlt.
    { destruct Ht' as [[y Hy]|[y Hy]].
      - apply (earlier_at NS W _ _ _ _ _ Hy) in Hi. by apply at_time in Hi.
      - apply (earlier_at NS W _ _ _ _ _ Hy) in Hj. by apply at_time in Hj. }
    destruct (at_other NS W _ _ _ (t + k) Hz) as [z' Hz']; [lia|]. exists (z' :: c'). constructor; [by exists t, x|done].
  Qed.

  Lemma ts_try_ok hom i j c s : ts_inv s → hom = true → in_time NS 0 i → j ∈ V → i ≠ j → good_cond V i j c →
    (ci (ls_log s) i j c = true → within i j c) →
    returns (ts_try NS ci hom i j c s) (λ r, ts_inv r.1 ∧ ls_le s r.1 ∧ ∃ b, ls_log r.1 = (i, j, c, b) :: ls_log s ∧ r.2 = b ∧
      (b = true → ¬ mg_adj (ls_graph r.1) i j)).
  Proof.
    intros I -> Hi Hj Hne [Hnd Hc] Hw. unfold ts_try, ls_try. set (b := ci (ls_log s) i j c).
    assert (i ∈ V) as HiV by (destruct Hi as [x Hi]; by eapply at_node).
    assert (honest ci ((i, j, c, b) :: ls_log s)) as Hh by (apply honest_cons, I).
    assert (proper_log V ((i, j, c, b) :: ls_log s)) as Hp.
    { intros i' j' c' b' [H|H]%elem_of_cons; [|by apply (ti_log _ I) in H]. simplify_eq. done. }
    assert (∀ i' j' c' b', (i', j', c', b') ∈ (i, j, c, b) :: ls_log s → in_time NS 0 i') as Hpr.
    { intros i' j' c' b' [H|H]%elem_of_cons; [by simplify_eq|by apply (ti_present _ I) in H]. }
    fold b in Hw. destruct b eqn:Eb; cbn [mbind res_bind snd negb].
    2: { cbn [returns fst snd]. split; [|split; [by intros a a'|exists false; by split_and!]]. constructor; cbn [ls_graph ls_sep ls_log]; try done; try apply I.
         - intros i' j' c' [H|H]%elem_of_cons; [by simplify_eq|by eapply (ti_true _ I)].
         - intros a a' HA Hn. destruct (ti_rem _ I a a' HA Hn) as (i' & j' & c' & k & c2 & H1 & H2). exists i', j', c', k, c2. split; [by right|done]. }
    cbn [fst snd]. set (s1 := LState (delete_edge PAG_T (ls_graph s) i j) (sep_set (ls_sep s) i j c) ((i, j, c, true) :: ls_log s)).
    set (s0 := LState (ls_graph s) (ls_sep s) ((i, j, c, true) :: ls_log s)).
    assert (cuts [(i, j, c)] s0 s1) as C1.
    { apply (cut_one [] s0 s0). split; [done|]. split; [done|]. split; [apply I|]. split.
      - intros a a'. split; [|by intros [? _]]. intros ?. split; [done|]. intros i' j' c' Hx. by apply elem_of_nil in Hx.
      - intros a a'. right. split; [|done]. intros i' j' c' H. by apply elem_of_nil in H. }
    (** the complete list of homologues, with the pair itself *)
    set (complete := λ L : list (node * node * list node), (∀ a b c', (a, b, c') ∈ L → ∃ k, earlier NS k i a ∧ earlier NS k j b ∧ Forall2 (earlier NS k) c c') ∧
      ∀ k a b, earlier NS k i a → earlier NS k j b → ∃ c', (a, b, c') ∈ L).
    assert (∀ L, complete ((i, j, c) :: L) → ∀ t, cuts ((i, j, c) :: L) s0 t → ts_inv t ∧ ls_le s t ∧ ls_log t = (i, j, c, true) :: ls_log s ∧ ¬ mg_adj (ls_graph t) i j) as Hfin.
    { intros L [HL1 HL2] t (Hl & N & Wt & At & St).
      assert (∀ a a', mg_adj (ls_graph t) a a' ↔ mg_adj (ls_graph s) a a' ∧ ¬ same_lag NS i j a a' ∧ ¬ same_lag NS i j a' a) as At'.
      { intros a a'. rewrite At. split; intros [H1 H2]; (split; [done|]).
        - split; intros (k & Hk1 & Hk2)%(same_lag_base NS W _ _ _ _ (or_introl Hi)); destruct (HL2 k _ _ Hk1 Hk2) as (c' & Hin); apply (H2 _ _ _ Hin); [by left|by right].
        - intros i' j' c' Hin Hpair. destruct (HL1 _ _ _ Hin) as (k & Hk1 & Hk2 & _).
          destruct Hpair as [[-> ->]|[-> ->]]; [apply (proj1 H2)|apply (proj2 H2)]; exists k; by left. }
      assert (¬ mg_adj (ls_graph t) i j) as Hnij.
      { intros H. apply At' in H as (_ & H & _). apply H. by apply same_lag_refl. }
      split; [|split; [intros a a' H; by apply At' in H as [? _]|done]].
      constructor; try (rewrite ?Hl; done).
      - rewrite N. apply I.
      - intros a a' Ha Ha' Hne'. destruct (St a a') as [(i' & j' & c' & _ & _ & E)|[_ E]]; rewrite E; [by eexists|]. by apply I.
      - intros a a' d d' Hs. rewrite !At'. rewrite (ti_stat _ I _ _ _ _ Hs). split; (intros (H1 & H2 & H3); split; [done|]; split; intros H4).
        + apply H2. eapply same_lag_trans; [done|exact H4|by apply same_lag_sym].
        + apply H3. eapply same_lag_trans; [done|exact H4|]. by apply same_lag_flip, same_lag_sym.
        + apply H2. by eapply same_lag_trans.
        + apply H3. eapply same_lag_trans; [done|exact H4|]. by apply same_lag_flip.
      - intros a a' H. apply (ti_sub _ I). by apply At' in H as [? _].
      - rewrite Hl. intros i' j' c' [H|H]%elem_of_cons; [by simplify_eq|]. intros H'. apply At' in H' as [H' _]. by eapply (ti_true _ I).
      - rewrite Hl. intros a a' HA Hn. destruct (St a a') as [(i' & j' & c' & Hin & Hpair & E)|[Hno E]].
        + destruct (HL1 _ _ _ Hin) as (k & H1 & H2 & H3). exists i, j, c, k, c'. split; [by left|]. split; [|done].
          destruct Hpair as [[-> ->]|[-> ->]]; [by left|by right].
        + rewrite E. destruct (ti_rem _ I a a' HA) as (i' & j' & c' & k & c2 & H1 & H2).
          * intros H. apply Hn, At. done.
          * exists i', j', c', k, c2. split; [by right|done]. }
    assert (∀ L t, complete ((i, j, c) :: L) → cuts ((i, j, c) :: L) s0 t → ts_inv t ∧ ls_le s t ∧ ∃ b, ls_log t = (i, j, c, b) :: ls_log s ∧ true = b ∧ (b = true → ¬ mg_adj (ls_graph t) i j)) as Hfin'.
    { intros L t H1 H2. destruct (Hfin L H1 t H2) as (? & ? & ? & ?). split; [done|]. split; [done|]. exists true. done. }
    clear Hfin.
    assert (earlier NS 0 i i ∧ earlier NS 0 j j) as [Ei Ej] by (split; by apply earlier_0).
    assert (∀ z, z ∈ c → z ∈ V) as HcV by (intros z Hz; by apply Hc).
    assert (Forall2 (earlier NS 0) c c) as Ec.
    { clear -HcV. induction c as [|z l IH]; constructor; [apply earlier_0, HcV; by left|]. apply IH. intros z' Hz'. apply HcV. by right. }
    assert (∀ m : res lstate, returns m (λ t, ∃ L, complete ((i, j, c) :: L) ∧ cuts ((i, j, c) :: L) s0 t) → returns (s' ← m; Ok (s', true)) (λ r, ts_inv r.1 ∧ ls_le s r.1 ∧
      ∃ b, ls_log r.1 = (i, j, c, b) :: ls_log s ∧ r.2 = b ∧ (b = true → ¬ mg_adj (ls_graph r.1) i j))) as Hend.
    { intros m Hm. eapply returns_bind; [exact Hm|]. cbn beta. intros t (L & H1 & H2). cbn [returns fst snd]. by eapply Hfin'. }
    apply Hend. clear Hend Hfin'.
    destruct (decide (length c = 0)) as [Hlen|Hlen].
    - destruct c; [|done]. clear Hlen. eapply returns_bind; [by apply edge_homology_ok|].
      cbn beta. intros l Hl. pose proof (cut_loop [(i, j, [])] ((λ e, (e.1, e.2, [])) <$> l) s0 s1 C1) as HC. rewrite for_fmap in HC.
      assert (∀ f g : node * node → lstate → res lstate, (∀ x y, f x y = g x y) → ∀ l s, for_ l f s = for_ l g s) as Hext.
      { intros f g Hfg l0. induction l0 as [|x l0 IH]; intros s'; [done|]. cbn [for_]. rewrite Hfg. destruct (g x s') as [s2| |]; [|done|done]. apply IH. }
      erewrite Hext; [eapply returns_mono; [exact HC|]|intros [a a'] s'; done]. cbn beta. intros t Ht. eexists. split; [|exact Ht]. split.
      + intros a a' c' [H|H]%elem_of_cons; [simplify_eq; by exists 0|]. apply elem_of_list_fmap in H as ([x y] & [= -> -> ->] & H).
        apply elem_of_list_lookup in H as [p Hp']. apply Hl in Hp' as [H1 H2]. exists (p + 1). done.
      + intros k a a' H1 H2. exists []. destruct k as [|k].
        * rewrite (earlier_fun NS W 0 i a i), (earlier_fun NS W 0 j a' j) by done. by left.
        * right. apply elem_of_list_fmap. exists (a, a'). split; [done|]. apply elem_of_list_lookup. exists k. apply Hl. by rewrite Nat.add_1_r.
    - assert (c ≠ []) as Hnil by (intros ->; done).
      eapply returns_bind; [by apply ci_homology_ok|].
      cbn beta. intros l Hl. pose proof (cut_loop [(i, j, c)] l s0 s1 C1) as HC.
      eapply returns_mono; [exact HC|]. cbn beta. intros t Ht. exists l. split; [|exact Ht]. split.
      + intros a a' c' [H|H]%elem_of_cons; [simplify_eq; by exists 0|].
        apply elem_of_list_lookup in H as [p Hp']. apply Hl in Hp' as (H1 & H2 & H3). exists (p + 1). done.
      + intros k a a' H1 H2. destruct k as [|k].
        * exists c. rewrite (earlier_fun NS W 0 i a i), (earlier_fun NS W 0 j a' j) by done. by left.
        * destruct (within_shift i j c (S k) a a' (Hw eq_refl) HcV H1 H2) as [c' Hc']. exists c'. right.
          apply elem_of_list_lookup. exists k. apply Hl. by rewrite Nat.add_1_r.
  Qed.
End ts.

Section learn.
  Context (NS : list (list node)) (W : window NS) (o : order) (Ho : iter_ok o) (ci : citest) (A : node → node → Prop).
  Context (fx : gmap (nat * nat) (option mark)) (P : node → node → Prop) (SP : stationary NS P).
  Context (Hfx : fix_ok fx A) (HP : ∀ a b, A a b → P a b → fx !! (a, b) = Some (Some Directed)).
  Context (sb tc : bool) (fuel : nat).
  Notation V := (win_nodes NS).
  Context (Hf : size V * size V + size V + 2 < fuel).
  Notation ts_inv := (ts_inv NS ci A).

  Definition out_ok (g : mgraph) : Prop :=
    (∀ k, stationary NS (λ a b, has_mark g a k b)) ∧ ∀ a b, mg_adj g a b → P a b → has_mark g a Directed b.

  Lemma ts_orient_ok complete s : ts_inv s →
    returns (ls_orient (ts_orient NS o sb tc fuel fx complete) s) (λ t, ts_inv t ∧ ls_log t = ls_log s ∧ (∀ a b, mg_adj (ls_graph t) a b ↔ mg_adj (ls_graph s) a b) ∧ out_ok (ls_graph t)).
  Proof.
    intros I. unfold ls_orient. eapply returns_bind.
    - apply (orient_ok NS W o Ho sb tc fuel fx complete (ls_sep s) (ls_graph s) P); [apply I|apply I|apply I| |by eapply ts_inv_total|lia|done|].
      + intros a b H. apply Hfx. by apply (ti_sub _ _ _ _ I).
      + intros a b H. apply HP. by apply (ti_sub _ _ _ _ I).
    - cbn beta. intros h (Hs & Hst & Hd). cbn [returns ls_graph ls_log]. split; [by apply ts_inv_graph|]. split; [done|].
      split; [apply Hs|]. split; [done|]. intros a b Hab. apply Hd. by apply Hs.
  Qed.

  Lemma present_time i : i ∈ present NS → in_time NS 0 i.
  Proof.
    unfold present. destruct (NS !! 0) as [l|] eqn:E; cbn; [|intros H; by apply elem_of_nil in H].
    intros (x & Hx)%elem_of_list_lookup. by exists x, l.
  Qed.
  Lemma time_present i : in_time NS 0 i → i ∈ present NS.
  Proof. intros (x & l & H1 & H2). unfold present. rewrite H1. cbn. by eapply elem_of_list_lookup_2. Qed.
  Lemma present_nodup : NoDup (present NS).
  Proof.
    pose proof (wi_names _ W) as H. unfold present. destruct NS as [|l L]; cbn; [constructor|]. cbn in H. by apply NoDup_app in H as (? & _).
  Qed.
  Lemma past_nodes j : j ∈ concat (tail NS) ↔ ∃ t, in_time NS (S t) j.
  Proof.
    rewrite elem_of_list_In, in_concat. split.
    - intros (l & H1%elem_of_list_In & H2%elem_of_list_In). apply elem_of_list_lookup in H1 as [t H1], H2 as [x H2].
      rewrite lookup_tail in H1. by exists t, x, l.
    - intros (t & x & l & H1 & H2). exists l. rewrite <-!elem_of_list_In. split; [|by eapply elem_of_list_lookup_2].
      apply elem_of_list_lookup. exists t. by rewrite lookup_tail.
  Qed.
  Definition valid (i j : node) : Prop := in_time NS 0 i ∧ j ∈ V ∧ i ≠ j.
  Lemma cross_lag_valid i j : (i, j) ∈ cross_lag NS → valid i j.
  Proof.
    unfold cross_lag. rewrite elem_of_list_In, in_prod_iff, <-!elem_of_list_In. intros [Hi%present_time (t & x & Hj)%past_nodes].
    split; [done|]. split; [by eapply at_node|]. intros ->. by pose proof (time_unique NS W _ _ _ Hi (ex_intro _ x Hj)).
  Qed.
  Lemma contemporaneous_valid i j : (i, j) ∈ contemporaneous NS → valid i j.
  Proof.
    unfold contemporaneous. intros H. pose proof (comb2_ne _ _ _ present_nodup H) as Hne. apply comb2_elem in H as (Hi & Hj).
    apply present_time in Hi, Hj. split; [done|]. split; [|done]. destruct Hj as [x Hj]. by eapply at_node.
  Qed.
  Lemma valid_listed i j : valid i j → (i, j) ∈ cross_lag NS ∨ (i, j) ∈ contemporaneous NS ∨ (j, i) ∈ contemporaneous NS.
  Proof.
    intros (Hi & (t & x & Hj)%node_at & Hne). destruct t as [|t].
    - right. unfold contemporaneous. apply comb2_total; [by apply time_present|apply time_present; by exists x|done].
    - left. unfold cross_lag. rewrite elem_of_list_In, in_prod_iff, <-!elem_of_list_In. split; [by apply time_present|]. apply past_nodes. by exists t, x.
  Qed.

  Definition vedges (es : list (node * node)) : Prop := ∀ i j, (i, j) ∈ es → valid i j.

  (** ** the iteration with empty conditioning sets *)
  Lemma ts_edges_0_ok es s : vedges es → ts_inv s →
    returns (for_ es (λ '(i, j) s, r ← ts_try NS ci true i j [] s; Ok r.1) s) (λ t, ts_inv t ∧ ls_le s t ∧ (∃ q, asks 0 (ls_log s) (ls_log t) q) ∧
      ∀ i j, (i, j) ∈ es → ∃ q, (i, j, [], q) ∈ ls_log t).
  Proof.
    intros Hes I. eapply returns_mono.
    - apply (for_returns_pre _ _ _ (λ pre t, ts_inv t ∧ ls_le s t ∧ (∃ q, asks 0 (ls_log s) (ls_log t) q) ∧ ∀ a b, (a, b) ∈ pre → ∃ q, (a, b, [], q) ∈ ls_log t)).
      + split; [done|]. split; [by intros a b|]. split; [|intros a b H; by apply elem_of_nil in H].
        exists false. exists []. split; [done|]. split; [intros ???? H; by apply elem_of_nil in H|done].
      + intros pre [i j] post t E (It & Hle & (q & l & El & Hsz & _) & Hpre).
        destruct (Hes i j) as (Hi & Hj & Hne); [rewrite E; set_solver +|].
        eapply returns_bind; [apply (ts_try_ok NS W ci A true); [exact It|done|exact Hi|exact Hj|exact Hne| |]|].
        { split; [constructor|]. intros z H. by apply elem_of_nil in H. }
        { intros _ z t' H. by apply elem_of_nil in H. }
        cbn beta. intros [t' b'] (It' & Hle' & b & Hl & _). cbn [fst snd returns] in *. split; [done|].
        split; [intros a a' H; by apply Hle, Hle'|]. split.
        * exists true, ((i, j, [], b) :: l). rewrite Hl, El. split; [done|]. split; [|done].
          intros i' j' c' b'' [H|H]%elem_of_cons; [by simplify_eq|by eapply Hsz].
        * intros a b2 [H|H%elem_of_list_singleton]%elem_of_app; rewrite Hl.
          -- destruct (Hpre _ _ H) as (q' & Hq'). exists q'. by apply elem_of_list_further.
          -- simplify_eq. exists b. apply elem_of_list_here.
    - cbn beta. done.
  Qed.

  Lemma asks_trans n l0 l1 l2 q1 q2 : asks n l0 l1 q1 → asks n l1 l2 q2 → asks n l0 l2 (q1 || q2).
  Proof.
    intros (x & -> & H1 & H2) (y & -> & H3 & H4). exists (y ++ x). split; [by rewrite app_assoc|]. split.
    - intros i j c b [H|H]%elem_of_app; [by eapply H3|by eapply H1].
    - rewrite orb_true_iff, H2, H4. destruct y, x; cbn; split; try done; try (by intros [?|?]); auto.
  Qed.

  Lemma ts_step_0_ok s : ts_inv s →
    returns (ts_step_0 NS o ci true sb tc fuel fx s) (λ t, ts_inv t ∧ ls_le s t ∧ (∃ q, asks 0 (ls_log s) (ls_log t) q) ∧ out_ok (ls_graph t) ∧
      ∀ i j, valid i j → ∃ q, tested (ls_log t) i j ∅ q).
  Proof.
    intros I. unfold ts_step_0. eapply returns_bind; [apply ts_edges_0_ok; [exact cross_lag_valid|exact I]|]. cbn beta. intros s1 (I1 & L1 & (q1 & Q1) & C1).
    eapply returns_bind; [apply ts_edges_0_ok; [exact contemporaneous_valid|exact I1]|]. cbn beta. intros s2 (I2 & L2 & (q2 & Q2) & C2).
    eapply returns_mono; [by apply ts_orient_ok|]. cbn beta. intros t (It & Hl & Hadj & Hout). split; [done|].
    split; [intros a b H; by apply L1, L2, Hadj|]. split; [exists (q1 || q2); rewrite Hl; by eapply asks_trans|]. split; [done|].
    intros i j Hv. rewrite Hl. assert (∀ e, e ∈ ls_log s1 → e ∈ ls_log s2) as Hsub by by eapply asks_sub.
    destruct (valid_listed i j Hv) as [H|[H|H]].
    - destruct (C1 _ _ H) as (q & Hq). exists q, []. split; [intros z; by rewrite elem_of_nil, elem_of_empty|]. left. auto.
    - destruct (C2 _ _ H) as (q & Hq). exists q, []. split; [intros z; by rewrite elem_of_nil, elem_of_empty|]. by left.
    - destruct (C2 _ _ H) as (q & Hq). exists q, []. split; [intros z; by rewrite elem_of_nil, elem_of_empty|]. by right.
  Qed.

  Context (Hnear : near NS ci).
  Definition cov (log : clog) : Prop := ∀ i j, valid i j → ∃ q, tested log i j ∅ q.
  Definition fresh (log : clog) (i j : node) : Prop := ∀ c, (i, j, c, true) ∉ log ∧ (j, i, c, true) ∉ log.
  Lemma cov_mono log log' : (∀ e, e ∈ log → e ∈ log') → cov log → cov log'.
  Proof. intros H H' i j Hv. destruct (H' i j Hv) as [q Hq]. exists q. by eapply tested_mono. Qed.
  Lemma adj_fresh s i j : ts_inv s → mg_adj (ls_graph s) i j → fresh (ls_log s) i j.
  Proof. intros I Hij c. split; intros H%(ti_true _ _ _ _ I); apply H; [done|apply mg_adj_sym; [apply I|done]]. Qed.

  Lemma ts_tests_ok n log0 i j cs s : ts_inv s.1 → cov (ls_log s.1) → fresh (ls_log s.1) i j → valid i j → (∀ c, c ∈ cs → good_cond V i j c ∧ length c = n) → asks n log0 (ls_log s.1) (negb s.2) →
    returns (ts_tests NS ci true i j cs s) (λ r, ts_inv r.1 ∧ ls_le s.1 r.1 ∧ asks n log0 (ls_log r.1) (negb r.2) ∧
      (∀ e, e ∈ ls_log s.1 → e ∈ ls_log r.1) ∧ (mg_adj (ls_graph r.1) i j → ∀ c, c ∈ cs → (i, j, c, false) ∈ ls_log r.1)).
  Proof.
    intros I Hcov Hfr (Hi & Hj & Hne) Hcs Hask. unfold ts_tests.
    apply (for_brk_returns _ _ _ (λ pre (r : lstate * bool), fresh (ls_log r.1) i j ∧ ts_inv r.1 ∧ ls_le s.1 r.1 ∧ asks n log0 (ls_log r.1) (negb r.2) ∧
      (∀ e, e ∈ ls_log s.1 → e ∈ ls_log r.1) ∧ ∀ c, c ∈ pre → (i, j, c, false) ∈ ls_log r.1)).
    - split; [done|]. split; [done|]. split; [by intros a b|]. split; [done|]. split; [done|]. intros c H. by apply elem_of_nil in H.
    - intros pre c post [t f] E (Hft & It & Hle & Hat & Hlt & Hpre). cbn [fst snd] in *.
      destruct (Hcs c) as [Hg Hlen]; [rewrite E; apply elem_of_app; right; apply elem_of_list_here|].
      eapply returns_bind; [apply (ts_try_ok NS W ci A true); [exact It|done|exact Hi|exact Hj|exact Hne|exact Hg|]|].
      { intros Hci z t' Hz Ht. eapply (Hnear (ls_log t) i j c); [apply It| |exact Hft| |done|done|done|done].
        - intros x y Hx Hy Hxy. by apply (cov_mono _ _ Hlt Hcov).
        - intros i' j' c' b' [H|H]%elem_of_cons; [simplify_eq|by apply (ti_log _ _ _ _ It) in H].
          split; [destruct Hi; by eapply at_node|]. split; [done|]. split; [done|]. apply Hg. }
      cbn beta. intros [t' b'] (It' & Hle' & b & Hl & Hb & Hn). cbn [fst snd returns] in *. subst b'.
      assert (ls_le s.1 t') as Hle2 by (intros a a' H; by apply Hle, Hle').
      assert (asks n log0 (ls_log t') true) as Hat'.
      { destruct Hat as (l & El & Hsz & _). exists ((i, j, c, b) :: l). rewrite Hl, El. split; [done|]. split; [|done].
        intros i' j' c' b' [H|H]%elem_of_cons; [by simplify_eq|by eapply Hsz]. }
      assert (∀ e, e ∈ ls_log s.1 → e ∈ ls_log t') as Hlt' by (intros e He; rewrite Hl; apply elem_of_list_further; auto).
      destruct b; [|split; [|split; [done|]; split; [done|]; split; [done|]; split; [done|]]].
      + do 4 (split; [done|]). intros Hadj. by destruct Hn.
      + intros c'. rewrite Hl. destruct (Hft c') as [F1 F2]. split; intros [H|H]%elem_of_cons; try done; by simplify_eq.
      + intros c' [H| ->%elem_of_list_singleton]%elem_of_app; rewrite Hl; [apply elem_of_list_further; auto|apply elem_of_list_here].
    - intros r (_ & Ir & Hle & Ha & Hl & Hpre). split; [done|]. split; [done|]. split; [done|]. split; [done|]. intros _. done.
  Qed.

  (** ** the iteration with single conditioning nodes *)
  Definition one (t : lstate) (a b : node) : Prop := ∀ z, mg_adj (ls_graph t) a b → mg_adj (ls_graph t) z a ∨ mg_adj (ls_graph t) z b → z ≠ a → z ≠ b → tested (ls_log t) a b {[z]} false.
  Lemma one_mono t t' a b : ls_le t t' → (∀ e, e ∈ ls_log t → e ∈ ls_log t') → one t a b → one t' a b.
  Proof.
    intros H1 H2 H z Haa Hz Hza Hza'. eapply tested_mono; [exact H2|]. apply H; [by apply H1| |done|done]. destruct Hz; [left|right]; by apply H1.
  Qed.

  Lemma ts_edges_1_ok l1 l2 es log0 s : vedges es → ts_inv s.1 → cov (ls_log s.1) → asks 1 log0 (ls_log s.1) (negb s.2) →
    returns (ts_edges_1 NS o ci true l1 l2 es s) (λ r, ts_inv r.1 ∧ ls_le s.1 r.1 ∧ asks 1 log0 (ls_log r.1) (negb r.2) ∧
      (∀ e, e ∈ ls_log s.1 → e ∈ ls_log r.1) ∧ ∀ a b, (a, b) ∈ es → one r.1 a b).
  Proof.
    intros Hes I Hcov Hask. unfold ts_edges_1.
    apply (for_returns_pre _ _ _ (λ pre (r : lstate * bool), ts_inv r.1 ∧ ls_le s.1 r.1 ∧ asks 1 log0 (ls_log r.1) (negb r.2) ∧
        (∀ e, e ∈ ls_log s.1 → e ∈ ls_log r.1) ∧ ∀ a b, (a, b) ∈ pre → one r.1 a b)).
    - split; [done|]. split; [by intros a b|]. split; [done|]. split; [done|]. intros a b H. by apply elem_of_nil in H.
    - intros pre [i j] post r E (Ir & Hle & Ha & Hls & Hpre). assert (valid i j) as Hv by (apply Hes; rewrite E; set_solver +).
      pose proof Hv as (Hi & Hj & Hne).
      eapply returns_bind; [apply m_is_connected_pag; [apply Ir|done]|]. cbn beta. intros b Hb. destruct b; cbn [negb]; cbv iota.
      + set (ui := find_adj PAG_T (ls_graph r.1) i None None ∖ {[j]}). set (uj := find_adj PAG_T (ls_graph r.1) j None None ∖ {[i]}).
        assert (∀ z, z ∈ ui ↔ mg_adj (ls_graph r.1) z i ∧ z ≠ j) as Hui.
        { intros z. unfold ui. rewrite elem_of_difference, elem_of_singleton, elem_find_adj_pag. tauto. }
        assert (∀ z, z ∈ uj ↔ mg_adj (ls_graph r.1) z j ∧ z ≠ i) as Huj.
        { intros z. unfold uj. rewrite elem_of_difference, elem_of_singleton, elem_find_adj_pag. tauto. }
        eapply returns_mono; [apply (ts_tests_ok 1 log0); [done|by apply (cov_mono _ _ Hls)|apply adj_fresh; [done|by apply Hb]|done| |done]|].
        * intros c Hc. apply elem_uniq, elem_of_app in Hc.
          assert (NoDup c ∧ length c = 1 ∧ ∀ z, z ∈ c → z ∈ ui ∨ z ∈ uj) as (H1 & H2 & H3).
          { destruct Hc as [Hc|Hc]; apply combs_elem in Hc as (? & ? & Hz); try done; (split; [done|]; split; [done|]; auto). }
          split; [|done]. split; [done|]. intros z Hz. destruct (H3 z Hz) as [Hz'|Hz'].
          -- apply Hui in Hz' as [Hz' ?]. apply mg_adj_nodes in Hz' as (? & _ & ?); [|apply Ir]. rewrite (ti_nodes _ _ _ _ Ir) in *. done.
          -- apply Huj in Hz' as [Hz' ?]. apply mg_adj_nodes in Hz' as (? & _ & ?); [|apply Ir]. rewrite (ti_nodes _ _ _ _ Ir) in *. done.
        * cbn beta. intros r' (Ir' & Hle' & Ha' & Hl' & Hall). split; [done|]. split; [intros a a' H; by apply Hle, Hle'|]. split; [done|]. split; [auto|].
          intros a a' [H|H%elem_of_list_singleton]%elem_of_app; [by apply (one_mono r.1 r'.1 _ _ Hle' Hl'), Hpre|]. simplify_eq.
          intros z Haa Hz Hza Hza'. exists [z]. split; [intros u; by rewrite elem_of_list_singleton, elem_of_singleton|]. left. apply Hall; [done|].
          apply elem_uniq, elem_of_app. destruct Hz as [Hz|Hz]; [left|right]; apply elem_of_combs.
          -- split; [|done]. apply singleton_sublist, iter_elem; [done|]. apply Hui. split; [by apply Hle'|done].
          -- split; [|done]. apply singleton_sublist, iter_elem; [done|]. apply Huj. split; [by apply Hle'|done].
      + cbn [returns]. split; [done|]. split; [done|]. split; [done|]. split; [done|]. intros a a' [H|H%elem_of_list_singleton]%elem_of_app; [by apply Hpre|].
        simplify_eq. intros z Haa. by apply Hb in Haa.
  Qed.

  Lemma asks_none n log : asks n log log (negb true).
  Proof. exists []. split; [done|]. split; [intros ???? H; by apply elem_of_nil in H|done]. Qed.

  Lemma ts_step_1_ok s : ts_inv s → cov (ls_log s) →
    returns (ts_step_1 NS o ci true sb tc fuel fx s) (λ r, ts_inv r.1 ∧ ls_le s r.1 ∧ asks 1 (ls_log s) (ls_log r.1) (negb r.2) ∧ out_ok (ls_graph r.1) ∧
      ∀ a b z, valid a b → mg_adj (ls_graph r.1) a b → mg_adj (ls_graph r.1) z a ∨ mg_adj (ls_graph r.1) z b → z ≠ a → z ≠ b → tested (ls_log r.1) a b {[z]} false).
  Proof.
    intros I Hcov. unfold ts_step_1. eapply returns_bind; [apply (ts_edges_1_ok 246 247 _ (ls_log s)); [exact cross_lag_valid|exact I|exact Hcov|apply asks_none]|].
    cbn beta. cbn [fst]. intros r1 (I1 & L1 & Q1 & E1 & C1).
    eapply returns_bind; [apply (ts_edges_1_ok 266 267 _ (ls_log s)); [exact contemporaneous_valid|exact I1|by apply (cov_mono _ _ E1)|exact Q1]|].
    cbn beta. intros r2 (I2 & L2 & Q2 & E2 & C2). eapply returns_bind; [by apply ts_orient_ok|]. cbn beta. intros t (It & Hl & Hadj & Hout).
    cbn [returns fst snd]. split; [done|]. split; [intros a b H; by apply L1, L2, Hadj|]. split; [by rewrite Hl|]. split; [done|].
    intros a b z Hv. rewrite Hl, !Hadj. intros Hab Hz Hza Hzb. destruct (valid_listed a b Hv) as [H|[H|H]].
    - by apply (one_mono r1.1 r2.1 a b L2 E2 (C1 _ _ H)).
    - by apply (C2 _ _ H).
    - apply tested_sym. apply (C2 _ _ H); [apply mg_adj_sym; [apply I2|done]|tauto|done|done].
  Qed.

  (** ** the general iteration *)
  Notation cond_map := (gmap (nat * nat) (list (nset * option nat))).
  Definition ready (r : nat) (m : cond_map) (g : mgraph) (es : list (node * node)) : Prop :=
    ∀ i j, (i, j) ∈ es → mg_adj g i j → ∃ l, m !! hkey i j = Some l ∧ good_sets V r i j l.

  Lemma good_sets_sym r i j l : good_sets V r i j l → good_sets V r j i l.
  Proof. intros H c Hc. destruct (H c Hc) as [? Hz]. split; [done|]. intros z Hz'. destruct (Hz z Hz') as (? & ? & ?). done. Qed.

  Lemma ts_pre_edges_ok (es0 es : list (node * node)) (g : mgraph) (r : nat) (m : cond_map) : vedges es → vedges es0 → mg_wf g → mnodes g = V → 2 ≤ r → ready r m g es0 →
    returns (ts_pre_edges o fuel es g r m) (λ m', ready r m' g (es0 ++ es)).
  Proof.
    intros Hes Hes0 Wg N Hr H0. unfold ts_pre_edges.
    apply (for_returns_pre _ _ _ (λ pre m', ready r m' g (es0 ++ pre))); [by rewrite app_nil_r|].
    intros pre [i j] post m' E Hpre. destruct (Hes i j) as (Hi & Hj & Hne); [rewrite E; set_solver +|].
    assert (i ∈ V) as HiV by (destruct Hi; by eapply at_node).
    eapply returns_bind; [by apply m_is_connected_pag|]. cbn beta. intros b Hb. destruct b; cbn [negb]; cbv iota.
    - eapply returns_bind; [apply (range_good o Ho V fuel g i j r); [done|done|done|done|done|lia]|]. cbn beta. intros l Hl. cbn [returns].
      intros a a' Ha Hadj. destruct (decide (hkey i j = hkey a a')) as [Hk|Hk].
      + rewrite Hk, lookup_insert. exists l. split; [done|]. apply hkey_eq in Hk as [[-> ->]|[-> ->]]; [done|by apply good_sets_sym].
      + rewrite lookup_insert_ne by done. rewrite app_assoc, elem_of_app, elem_of_list_singleton in Ha. destruct Ha as [Ha|Ha]; [by apply Hpre|]. by simplify_eq.
    - cbn [returns]. intros a a' Ha Hadj. rewrite app_assoc, elem_of_app, elem_of_list_singleton in Ha. destruct Ha as [Ha|Ha]; [by apply Hpre|].
      simplify_eq. by apply Hb in Hadj.
  Qed.
  Lemma ts_pre_calc_ok (g : mgraph) (r : nat) (m : cond_map) : mg_wf g → mnodes g = V → 2 ≤ r →
    returns (ts_pre_calc NS o fuel g r m) (λ m', ready r m' g (cross_lag NS) ∧ ready r m' g (contemporaneous NS)).
  Proof.
    intros Wg N Hr. unfold ts_pre_calc. eapply returns_bind.
    - apply (ts_pre_edges_ok [] _ g r m); [exact contemporaneous_valid|intros i j H; by apply elem_of_nil in H|done|done|done|intros i j H; by apply elem_of_nil in H].
    - cbn beta. cbn [app]. intros m1 H1. eapply returns_mono; [apply (ts_pre_edges_ok (contemporaneous NS) _ g r m1); [exact cross_lag_valid|exact contemporaneous_valid|done|done|done|done]|].
      cbn beta. intros m2 H2. split; intros i j H; apply H2; apply elem_of_app; [by right|by left].
  Qed.

  Lemma ts_edges_ok (precalc : bool) (es : list (node * node)) (r : nat) (m : cond_map) (log0 : clog) (s : lstate * bool) : vedges es → ts_inv s.1 → cov (ls_log s.1) → 2 ≤ r → asks r log0 (ls_log s.1) (negb s.2) →
    (precalc = true → ready r m (ls_graph s.1) es) →
    returns (ts_edges NS o ci true precalc fuel es r m s) (λ t, ts_inv t.1 ∧ ls_le s.1 t.1 ∧ asks r log0 (ls_log t.1) (negb t.2) ∧ ∀ e, e ∈ ls_log s.1 → e ∈ ls_log t.1).
  Proof.
    intros Hes I Hcov Hr Hask Hm. unfold ts_edges.
    apply (for_returns _ _ _ (λ r' : lstate * bool, ts_inv r'.1 ∧ ls_le s.1 r'.1 ∧ asks r log0 (ls_log r'.1) (negb r'.2) ∧ ∀ e, e ∈ ls_log s.1 → e ∈ ls_log r'.1)).
    - split; [done|]. split; [by intros a b|done].
    - intros [i j] r' Hij (Ir & Hle & Ha & Hls). pose proof (Hes i j Hij) as Hv. pose proof Hv as (Hi & Hj & Hne).
      assert (i ∈ V) as HiV by (destruct Hi; by eapply at_node).
      eapply returns_bind; [apply m_is_connected_pag; [apply Ir|done]|]. cbn beta. intros b Hb. destruct b; cbn [negb]; cbv iota; [|done].
      eapply returns_bind.
      { instantiate (1 := good_sets V r i j). destruct precalc; [|apply range_good; [done|apply Ir|apply Ir|done|done|done|lia]].
        destruct (Hm eq_refl i j Hij) as (l & El & Hl); [by apply Hle, Hb|]. by rewrite El. }
      cbn beta. intros cs Hcs. eapply returns_mono; [apply (ts_tests_ok r log0); [done|by apply (cov_mono _ _ Hls)|apply adj_fresh; [done|by apply Hb]|done| |done]|].
      + intros c (x & -> & Hx)%elem_of_list_fmap. destruct (Hcs x Hx) as [Hs Hz].
        split; [|by rewrite iter_length]. split; [by apply iter_nodup|]. intros z Hz'. apply Hz. by apply (iter_elem o 183 _ _ Ho).
      + cbn beta. intros t (It & Hle' & Ha' & Hls' & _). split; [done|]. split; [intros a a' H; by apply Hle, Hle'|]. split; [done|]. auto.
  Qed.
  Lemma ts_step_ok (precalc : bool) (r : nat) (m : cond_map) (s : lstate) : ts_inv s → cov (ls_log s) → 2 ≤ r →
    (precalc = true → ready r m (ls_graph s) (cross_lag NS) ∧ ready r m (ls_graph s) (contemporaneous NS)) →
    returns (ts_step NS o ci true sb tc precalc fuel fx r m s) (λ t, ts_inv t.1 ∧ ls_le s t.1 ∧ asks r (ls_log s) (ls_log t.1) (negb t.2) ∧ out_ok (ls_graph t.1)).
  Proof.
    intros I Hcov Hr Hm. unfold ts_step.
    eapply returns_bind; [apply (ts_edges_ok precalc (cross_lag NS) r m (ls_log s) (s, true)); [exact cross_lag_valid|exact I|exact Hcov|done|apply asks_none|intros Hp; by apply Hm]|].
    cbn beta. cbn [fst]. intros r1 (I1 & L1 & Q1 & E1).
    eapply returns_bind; [apply (ts_edges_ok precalc (contemporaneous NS) r m (ls_log s) r1); [exact contemporaneous_valid|exact I1|by apply (cov_mono _ _ E1)|done|done|]|].
    { intros Hp i j Hij Hadj. apply (proj2 (Hm Hp) i j Hij). by apply L1. }
    cbn beta. intros r2 (I2 & L2 & Q2 & _). eapply returns_bind; [by apply ts_orient_ok|]. cbn beta. intros t (It & Hl & Hadj & Hout).
    cbn [returns fst snd]. split; [done|]. split; [intros a b H; by apply L1, L2, Hadj|]. split; [by rewrite Hl|done].
  Qed.

  (** ** whole iterations *)
  Lemma ts_iteration_ok precalc s : ic_done s = false → ts_inv (ic_ls s) → (0 < ic_size s → cov (ls_log (ic_ls s))) →
    returns (ts_iteration NS o ci true sb tc precalc fuel fx s) (λ r, ts_inv (ic_ls r.1) ∧ cov (ls_log (ic_ls r.1)) ∧ ls_le (ic_ls s) (ic_ls r.1) ∧ out_ok (ls_graph (ic_ls r.1)) ∧
      ic_size r.1 = S (ic_size s) ∧ r.2 = (ic_done r.1, ic_size s) ∧
      ∃ q, asks (ic_size s) (ls_log (ic_ls s)) (ls_log (ic_ls r.1)) q ∧ (ic_size s = 0 → ic_done r.1 = false) ∧ (0 < ic_size s → q = negb (ic_done r.1))).
  Proof.
    intros Hd I Hcov. unfold ts_iteration. rewrite Hd. destruct (ic_size s) as [|[|r]] eqn:Er.
    - eapply returns_bind; [eapply returns_bind; [apply ts_step_0_ok; done|]|].
      + cbn beta. intros t (H1 & H2 & H3 & H4 & H5). cbn [returns].
        instantiate (1 := λ r, cov (ls_log (ic_ls r)) ∧ ic_done r = false ∧ ts_inv (ic_ls r) ∧ ls_le (ic_ls s) (ic_ls r) ∧ (∃ q, asks 0 (ls_log (ic_ls s)) (ls_log (ic_ls r)) q) ∧ out_ok (ls_graph (ic_ls r))). done.
      + cbn beta. intros r (Hcr & Hdr & Ir & Hle & (q & Hq) & H0). cbn [returns fst snd ic_ls ic_size ic_done].
        split; [done|]. split; [done|]. split; [done|]. split; [done|]. split; [done|]. split; [done|]. exists q. split; [done|]. split; [done|lia].
    - eapply returns_bind; [eapply returns_bind; [apply ts_step_1_ok; [done|apply Hcov; lia]|]|].
      + cbn beta. intros t (H1 & H2 & H3 & H4 & _). cbn [returns].
        instantiate (1 := λ r, ts_inv (ic_ls r) ∧ ls_le (ic_ls s) (ic_ls r) ∧ asks 1 (ls_log (ic_ls s)) (ls_log (ic_ls r)) (negb (ic_done r)) ∧ out_ok (ls_graph (ic_ls r))). done.
      + cbn beta. intros r (Ir & Hle & Ha & H1). cbn [returns fst snd ic_ls ic_size ic_done] in *. split; [done|]. split; [eapply cov_mono; [by eapply asks_sub|apply Hcov; lia]|]. split; [done|]. split; [done|].
        split; [done|]. split; [done|]. exists (negb (ic_done r)). split; [done|]. split; [lia|done].
    - eapply returns_bind; [eapply returns_bind|].
      + instantiate (1 := λ m, precalc = true → ready (S (S r)) m (ls_graph (ic_ls s)) (cross_lag NS) ∧ ready (S (S r)) m (ls_graph (ic_ls s)) (contemporaneous NS)).
        destruct precalc; [|done]. eapply returns_mono; [apply ts_pre_calc_ok; [apply I|apply I|lia]|]. cbn beta. intros m Hm _. exact Hm.
      + cbn beta. intros m Hm. eapply returns_bind; [apply (ts_step_ok precalc (S (S r)) m); [done|apply Hcov; lia|lia|done]|].
        cbn beta. intros t Ht. cbn [returns]. instantiate (1 := λ t, ts_inv (ic_ls t) ∧ ls_le (ic_ls s) (ic_ls t) ∧ asks (S (S r)) (ls_log (ic_ls s)) (ls_log (ic_ls t)) (negb (ic_done t)) ∧ out_ok (ls_graph (ic_ls t))). exact Ht.
      + cbn beta. intros t (It & Hle & Ha & Hout). cbn [returns fst snd ic_ls ic_size ic_done] in *. split; [done|]. split; [eapply cov_mono; [by eapply asks_sub|apply Hcov; lia]|]. split; [done|]. split; [done|].
        split; [done|]. split; [done|]. exists (negb (ic_done t)). split; [done|]. split; [lia|done].
  Qed.
End learn.
