(** FCI: the phases of learn_structure. *)
From Verif Require Import Base BaseLemmas Paths ModelGraph Spec ModelMixed SpecMixed ProofMixed ProofMixed2 ProofPDAG ProofPDAG2 ProofPDAG3
  ModelPC SpecPC ProofPC ModelPAG SpecPAG ProofPAG ProofPAG2 ProofPAGR ProofPAGR2 ProofPAGU ProofPAGX
  ModelPDS SpecPDS ProofPDS ProofPDS2 ProofPDS3 ProofPDS4 ProofPDS5 ModelFCI SpecFCI ProofFCI.

Lemma comb2_fresh {A} (l : list A) pre x y post : NoDup l → comb2 l = pre ++ (x, y) :: post → (x, y) ∉ pre ∧ (y, x) ∉ pre.
Proof.
  intros Hnd E. pose proof (comb2_nodup l Hnd) as Hn. rewrite E in Hn. apply NoDup_app in Hn as (_ & Hn & _). split.
  - intros H. apply (Hn _ H). apply elem_of_list_here.
  - intros H. assert ((x, y) ∈ comb2 l) as Hxy by (rewrite E; apply elem_of_app; right; apply elem_of_list_here).
    apply (comb2_asym ord_up ord_up_ok l x y Hnd Hxy). rewrite E. apply elem_of_app. by left.
Qed.

Section ordered.
  Context (o : order) (Ho : iter_ok o).

  Lemma sep_copy_from_ok m src V : (∀ a b, a ∈ V → b ∈ V → a ≠ b → is_Some (src !! hkey a b)) →
    returns (sep_copy_from o m src V) (λ m', ∀ a b, a ∈ V → b ∈ V → a ≠ b → (m' : sepset) !! hkey a b = src !! hkey a b).
  Proof.
    intros Hd. unfold sep_copy_from. eapply returns_mono.
    - apply (for_returns_pre _ _ _ (λ pre (m' : sepset), ∀ a b, (a, b) ∈ pre ∨ (b, a) ∈ pre → m' !! hkey a b = src !! hkey a b)).
      + intros a b [H|H]; by apply elem_of_nil in H.
      + intros pre [i j] post m' E IH. assert ((i, j) ∈ comb2 (o 72 V)) as Hij by (rewrite E; set_solver +).
        apply comb2_iter in Hij as (Hi & Hj & Hne); [|done]. destruct (Hd i j Hi Hj Hne) as [x Hx].
        unfold sep_get. rewrite Hx. cbn [mbind res_bind returns]. intros a b Hab.
        destruct (decide (hkey i j = hkey a b)) as [Hk|Hk]; [by rewrite <-Hk, lookup_insert|]. rewrite lookup_insert_ne by done.
        apply IH. rewrite hkey_eq in Hk. rewrite !elem_of_app, !elem_of_list_singleton in Hab. unfold is_pair in Hk.
        destruct Hab as [[?|?]|[?|?]]; [by left| |by right|]; simplify_eq; destruct Hk; auto.
    - cbn beta. intros m' H a b Ha Hb Hne. apply H. by apply comb2_iter.
  Qed.

  Lemma copy_skeleton_ok g p : pd_wf p → mg_wf g → mnodes p = mnodes g → (∀ a b, ¬ mg_adj g a b) →
    returns (copy_skeleton_from_pdag o g p None) (λ h, mnodes h = mnodes g ∧ mg_wf h ∧
      ∀ a k b, has_mark h a k b ↔ k = Circle ∧ pd_adj p a b).
  Proof.
    intros Wp Wg Hn H0. unfold copy_skeleton_from_pdag. cbn [default from_option]. unfold id. set (V := mnodes g).
    assert (NoDup (o 757 V)) as Hnd by by apply iter_nodup. eapply returns_mono.
    - apply (for_returns_pre _ _ _ (λ pre h, mnodes h = V ∧ mg_wf h ∧
        ∀ a k b, has_mark h a k b ↔ k = Circle ∧ ((a, b) ∈ pre ∨ (b, a) ∈ pre) ∧ pd_adj p a b)).
      + split; [done|]. split; [done|]. intros a k b. split.
        * intros H. destruct (H0 a b). by exists k.
        * intros (_ & [H|H] & _); by apply elem_of_nil in H.
      + intros pre [i j] post h E (N & W & M). pose proof (comb2_fresh _ _ _ _ _ Hnd E) as [F1 F2].
        assert ((i, j) ∈ comb2 (o 757 V)) as Hij by (rewrite E; set_solver +).
        apply comb2_iter in Hij as (Hi & Hj & Hne); [|done].
        eapply returns_bind; [by apply m_is_connected_pd|]. cbn beta. intros b Hb. destruct b; cbv iota.
        * assert (pd_adj p i j) as Hp by by apply Hb.
          assert (¬ mg_adj h i j) as Hn' by (intros (k & Hk); apply M in Hk; tauto).
          rewrite (proj1 (m_add_edge_spec h i j Circle Circle W Hne) Hn'). cbn [returns]. split; [done|].
          split; [apply mg_wf_add; [done|by rewrite N..|done|done]|]. intros a k b. rewrite add_spec, M.
          rewrite !elem_of_app, !elem_of_list_singleton. split.
          -- intros [(-> & ? & ?)|[(-> & -> & ->)|(-> & -> & ->)]].
             ++ tauto.
             ++ split; [done|]. split; [right; by right|by apply pd_adj_sym].
             ++ split; [done|]. split; [left; by right|done].
          -- intros (-> & [[?|[= -> ->]]|[?|[= -> ->]]] & ?); [left; tauto|right; by right|left; tauto|right; by left].
        * cbn [returns]. split; [done|]. split; [done|]. intros a k b. rewrite M, !elem_of_app, !elem_of_list_singleton.
          split; [tauto|]. intros (-> & [[?|[= -> ->]]|[?|[= -> ->]]] & Hp); [tauto| |tauto|].
          -- by apply Hb in Hp.
          -- apply pd_adj_sym in Hp; [|done]. by apply Hb in Hp.
    - cbn beta. intros h (N & W & M). split; [done|]. split; [done|]. intros a k b. rewrite M. split; [tauto|].
      intros [-> Hp]. split; [done|]. split; [|done]. pose proof (pd_adj_ne _ _ _ Wp Hp) as Hne.
      assert (a ∈ V ∧ b ∈ V) as [Ha Hb].
      { unfold V. rewrite <-Hn. destruct Hp as [Hp|[Hp|Hp]]; [apply (pdw_und _ Wp) in Hp|apply (pdw_dir _ Wp) in Hp|apply (pdw_dir _ Wp) in Hp]; tauto. }
      by apply comb2_iter.
  Qed.

  Context (ci : citest) (V : nset).

  Lemma empty_graph_ok g : mg_wf g → mg_wf (create_empty PAG_T g None) ∧ (∀ a b, ¬ mg_adj (create_empty PAG_T g None) a b).
  Proof.
    intros W. assert (∀ a k b, ¬ has_mark (create_empty PAG_T g None) a k b) as H.
    { intros a k b. unfold has_mark, create_empty. cbn [mset default from_option]. unfold id. case_decide as Hd; [apply not_elem_of_empty|].
      intros Hm. apply Hd. split; [by apply (mgw_in _ W) in Hm as (_ & ? & _)|apply mark_in_PAG]. }
    split; [|by intros a b (k & Hk%H)]. constructor.
    - by intros a k b Hk%H.
    - by intros a k b Hk%H.
    - by intros a k k' b Hk%H.
  Qed.

  Lemma fci_pc_ok fuel : size V < fuel →
    returns (fci_pc o ci fuel V) (λ s, ls_inv ci V s ∧ ∃ p, pc_skeleton o ci true fuel (pc_init o V) = Ok p ∧
      sk_inv ci V p ∧ (∀ k, level_done p k (λ _ _, True)) ∧ ls_log s = pc_log p ∧
      ∀ a k b, has_mark (ls_graph s) a k b ↔ k = Circle ∧ uline (pc_graph p) a b).
  Proof.
    intros Hf. unfold fci_pc. pose proof (ls_init_inv o ci V Ho) as I0.
    pose proof (pc_skeleton_spec o ci true fuel V Ho Hf) as H0. apply returns_ok in H0 as (p & E & Hp & Hd). rewrite E, bind_ok.
    eapply returns_bind.
    { apply sep_copy_from_ok. rewrite (li_nodes _ _ _ I0). apply Hp. }
    cbn beta. rewrite (li_nodes _ _ _ I0). intros sep Hsep.
    destruct (empty_graph_ok (ls_graph (ls_init o V)) (li_wf _ _ _ I0)) as (We & Ae).
    assert (∀ a b, pd_adj (pc_graph p) a b ↔ uline (pc_graph p) a b) as Hpu.
    { intros a b. unfold pd_adj. pose proof (sk_dir _ _ _ Hp a b). pose proof (sk_dir _ _ _ Hp b a). tauto. }
    eapply returns_bind; [apply copy_skeleton_ok; [apply Hp|done|by rewrite (sk_nodes _ _ _ Hp)|done]|].
    cbn beta. intros g (N & W & M). cbn [returns]. setoid_rewrite Hpu in M.
    assert (∀ a b, mg_adj g a b ↔ uline (pc_graph p) a b) as A.
    { intros a b. unfold mg_adj. setoid_rewrite M. split; [by intros (k & _ & ?)|]. intros ?. by exists Circle. }
    split; [|exists p; cbn [ls_log ls_graph]; tauto]. constructor; cbn [ls_graph ls_sep ls_log].
    - exact N.
    - done.
    - intros a b Ha Hb Hne. rewrite Hsep by done. by apply Hp.
    - apply Hp.
    - exact (sk_log _ _ _ Hp).
    - intros i j c H. rewrite A. by apply (sk_true _ _ _ Hp) in H.
    - intros a b Ha Hb Hne. rewrite A, Hsep by done. by apply Hp.
  Qed.

  Lemma in_subsets (pool : nset) c : c ∈ concat ((λ k, combs k (o 92 pool)) <$> seq 0 (S (size pool))) →
    NoDup c ∧ ∀ z, z ∈ c → z ∈ pool.
  Proof.
    intros H. apply elem_of_list_In, in_concat in H as (l & Hl & Hc). apply elem_of_list_In in Hl, Hc.
    apply elem_of_list_fmap in Hl as (k & -> & _). by apply combs_elem in Hc as (? & _ & ?).
  Qed.
  Lemma all_subsets (pool S : nset) : S ⊆ pool → ∃ c, c ∈ concat ((λ k, combs k (o 92 pool)) <$> seq 0 (Datatypes.S (size pool))) ∧ ∀ z, z ∈ c ↔ z ∈ S.
  Proof.
    intros HS. destruct (combs_subset o 92 pool S Ho HS) as (c & Hc & Hz). exists c. split; [|done].
    apply elem_of_list_In, in_concat. exists (combs (size S) (o 92 pool)). split; apply elem_of_list_In; [|done].
    apply elem_of_list_fmap. exists (size S). split; [done|]. apply elem_of_seq. pose proof (subseteq_size _ _ HS). lia.
  Qed.

  Lemma fci_increasing_ok i j (pool : nset) s : ls_inv ci V s → i ∈ V → j ∈ V → i ≠ j → (∀ z, z ∈ pool → z ∈ V ∧ z ≠ i ∧ z ≠ j) →
    returns (fci_increasing o ci i j pool s) (λ r, ls_inv ci V r.1 ∧ (∀ e, e ∈ ls_log s → e ∈ ls_log r.1) ∧
      (∀ a b, mg_adj (ls_graph r.1) a b ↔ mg_adj (ls_graph s) a b ∧ (r.2 = true → ¬ is_pair a b i j)) ∧
      (r.2 = false → ∀ S, S ⊆ pool → tested (ls_log r.1) i j S false)).
  Proof.
    intros I Hi Hj Hne Hpool. unfold fci_increasing.
    set (l := concat _). assert (∀ c, c ∈ l → good_cond V i j c) as Hgood.
    { intros c Hc%in_subsets. destruct Hc as [? Hc]. split; [done|]. intros z Hz. by apply Hpool, Hc. }
    apply (for_brk_returns _ _ _ (λ pre (r : lstate * bool), ls_inv ci V r.1 ∧ (∀ e, e ∈ ls_log s → e ∈ ls_log r.1) ∧ r.2 = false ∧
      (∀ a b, mg_adj (ls_graph r.1) a b ↔ mg_adj (ls_graph s) a b) ∧ ∀ c, c ∈ pre → (i, j, c, false) ∈ ls_log r.1)).
    - cbn [fst snd]. split; [done|]. split; [done|]. split; [done|]. split; [done|]. intros c H. by apply elem_of_nil in H.
    - intros pre c post [t f] E (It & Hlog & Hf & A & Hpre). cbn [fst snd] in *. eapply returns_bind.
      { apply ls_try_ok; [exact It|exact Hi|exact Hj|exact Hne|]. apply Hgood. rewrite E. apply elem_of_app. right. apply elem_of_list_here. }
      cbn beta. intros [t' b'] (It' & _ & b & Hl & Hb & A'). cbn [fst snd returns] in *. subst b'.
      assert (∀ e, e ∈ ls_log s → e ∈ ls_log t') as Hsub by (intros e He; rewrite Hl; apply elem_of_list_further; auto).
      destruct b.
      + split; [done|]. split; [done|]. split; [|done]. intros a b. rewrite A', A. done.
      + split; [done|]. split; [done|]. split; [done|]. split.
        * intros a b. rewrite A', A. split; [tauto|]. intros ?. split; [done|discriminate].
        * intros c' [H| ->%elem_of_list_singleton]%elem_of_app; rewrite Hl; [apply elem_of_list_further; auto|apply elem_of_list_here].
    - intros [t f] (It & Hlog & Hf & A & Hpre). cbn [fst snd] in *. split; [done|]. split; [done|]. split.
      + intros a b. rewrite A, Hf. split; [|tauto]. intros ?. split; [done|discriminate].
      + intros _ S HS. destruct (all_subsets pool S HS) as (c & Hc & Hz). exists c. split; [done|]. left. by apply Hpre.
  Qed.

  Lemma pds_all_ok fuel g : mg_wf g → mnodes g = V → size V * size V + size V < fuel →
    returns (for_ (o 70 (mnodes g)) (λ x (m : gmap node nset), X ← create_pds_set o fuel g x; Ok (<[x := X]> m)) ∅)
      (λ m, ∀ x, x ∈ V → ∃ X, m !! x = Some X ∧ pds_set_spec g x X ∧ create_pds_set o fuel g x = Ok X).
  Proof.
    intros W N Hf. eapply returns_mono.
    - apply (for_returns_pre _ _ _ (λ pre (m : gmap node nset), ∀ x, x ∈ pre → ∃ X, m !! x = Some X ∧ pds_set_spec g x X ∧ create_pds_set o fuel g x = Ok X)).
      + intros x H. by apply elem_of_nil in H.
      + intros pre x post m E IH. assert (x ∈ mnodes g) as Hx.
        { apply (iter_elem o 70 _ _ Ho). rewrite E. apply elem_of_app. right. apply elem_of_list_here. }
        assert (returns (create_pds_set o fuel g x) (pds_set_spec g x)) as HX.
        { eapply returns_mono; [apply create_pds_set_ok; [done|done|done|by rewrite N]|]. cbn beta. intros X (H1 & H2 & H3). by split. }
        apply returns_ok in HX as (X & EX & HX). rewrite EX, bind_ok. cbn [returns].
        intros y [Hy| ->%elem_of_list_singleton]%elem_of_app.
        * destruct (decide (x = y)) as [->|Hne]; [rewrite lookup_insert; by exists X|]. rewrite lookup_insert_ne by done. by apply IH.
        * rewrite lookup_insert. by exists X.
    - cbn beta. intros m H x Hx. apply H, (iter_elem o 70 _ _ Ho). by rewrite N.
  Qed.

  Lemma fci_refine_ok fuel s : ls_inv ci V s → size V * size V + size V < fuel →
    returns (fci_refine o ci fuel s) (λ r, ls_inv ci V r.1 ∧ (∀ e, e ∈ ls_log s → e ∈ ls_log r.1) ∧ ls_le s r.1 ∧
      (r.2 = true ↔ ∃ a b, mg_adj (ls_graph s) a b ∧ ¬ mg_adj (ls_graph r.1) a b) ∧
      ∀ x y, mg_adj (ls_graph r.1) x y → ∃ X, pds_set_spec (ls_graph s) x X ∧ create_pds_set o fuel (ls_graph s) x = Ok X ∧ dependent_given_all (ls_log r.1) x y X).
  Proof.
    intros I Hf. unfold fci_refine. rewrite (li_nodes _ _ _ I). eapply returns_bind.
    { pose proof (pds_all_ok fuel (ls_graph s) (li_wf _ _ _ I) (li_nodes _ _ _ I) Hf) as H. rewrite (li_nodes _ _ _ I) in H. exact H. }
    cbn beta. intros pds Hpds.
    set (done_ := λ (x y : node) (t : lstate), mg_adj (ls_graph t) x y → ∃ X, pds !! x = Some X ∧ dependent_given_all (ls_log t) x y X).
    set (J := λ r : lstate * bool, ls_inv ci V r.1 ∧ (∀ e, e ∈ ls_log s → e ∈ ls_log r.1) ∧ ls_le s r.1 ∧
      (r.2 = true ↔ ∃ a b, mg_adj (ls_graph s) a b ∧ ¬ mg_adj (ls_graph r.1) a b)).
    assert (∀ x y t t', (∀ e, e ∈ ls_log t → e ∈ ls_log t') → ls_le t t' → done_ x y t → done_ x y t') as Hmono.
    { intros x y t t' Hl Hle Hd Hadj. destruct (Hd (Hle _ _ Hadj)) as (X & HX & HT). exists X. split; [done|].
      intros S HS. eapply tested_mono; [exact Hl|]. by apply HT. }
    eapply returns_mono.
    - apply (for_returns_pre _ _ _ (λ pre r, J r ∧ ∀ x, x ∈ pre → ∀ y, done_ x y r.1)).
      + split; [|intros x H; by apply elem_of_nil in H]. split; [done|]. split; [done|]. split; [by intros a b|]. cbn [fst snd].
        split; [discriminate|]. intros (a & b & H & H'). done.
      + intros pre x post r E [Jr Hpre]. assert (x ∈ V) as Hx.
        { apply (iter_elem o 74 _ _ Ho). rewrite E. apply elem_of_app. right. apply elem_of_list_here. }
        destruct (Hpds x Hx) as (X & EX & HX & _). rewrite EX. pose proof (proj1 Jr) as Ir.
        eapply returns_mono.
        * apply (for_returns_pre _ _ _ (λ ys r', J r' ∧ ls_le r.1 r'.1 ∧ (∀ e, e ∈ ls_log r.1 → e ∈ ls_log r'.1) ∧ ∀ y, y ∈ ys → done_ x y r'.1)).
          -- split; [done|]. split; [by intros a b|]. split; [done|]. intros y H. by apply elem_of_nil in H.
          -- intros ys y ys' r' E' (Jr' & Hle & Hl & Hys).
             assert (mg_adj (ls_graph r.1) y x) as Hadj.
             { assert (y ∈ o 77 (find_adj PAG_T (ls_graph r.1) x None None)) as Hy by (rewrite E'; apply elem_of_app; right; apply elem_of_list_here).
               rewrite iter_elem in Hy by done. apply elem_find_adj_pag in Hy. tauto. }
             assert (y ≠ x) as Hne by (intros ->; by eapply mg_adj_irr; [apply (li_wf _ _ _ Ir)|]).
             assert (y ∈ V) as HyV.
             { rewrite <-(li_nodes _ _ _ Ir). destruct Hadj as (k & Hk). by apply (mgw_in _ (li_wf _ _ _ Ir)) in Hk as (? & _). }
             destruct Jr' as (Ir' & Hl' & Hle' & Hfl). eapply returns_bind.
             { apply (fci_increasing_ok x y (X ∖ {[y]}) r'.1 Ir' Hx HyV); [congruence|]. intros z [Hz Hzy]%elem_of_difference.
               apply (px_walk _ _ _ HX) in Hz as (Hz & Hzx & _). rewrite (li_nodes _ _ _ I) in Hz. set_solver +Hz Hzx Hzy. }
             cbn beta. intros [t b] (It & Hlt & At & Hb). cbn [fst snd returns] in *.
             assert (ls_le r'.1 t) as Hlt' by (intros a a' Ha%At; tauto).
             split; [split; [done|split; [auto|split]]|split; [|split]].
             ++ intros a a' Ha. apply Hle', Hlt', Ha.
             ++ cbn [fst snd]. rewrite orb_true_iff, Hfl. split.
                ** intros [(a & a' & H1 & H2)| ->].
                   --- exists a, a'. split; [done|]. intros H. apply H2, Hlt', H.
                   --- destruct (decide (mg_adj (ls_graph r'.1) x y)) as [Hxy|Hxy].
                       +++ exists x, y. split; [by apply Hle'|]. rewrite At. intros [_ H]. apply (H eq_refl). by left.
                       +++ exists x, y. split; [|by intros H%Hlt']. apply Jr. apply mg_adj_sym; [apply Ir|done].
                ** intros (a & a' & H1 & H2). destruct b; [by right|]. left. exists a, a'. split; [done|]. intros H. apply H2, At. split; [done|discriminate].
             ++ intros a a' Ha. apply Hle, Hlt', Ha.
             ++ auto.
             ++ intros y' [Hy'| ->%elem_of_list_singleton]%elem_of_app; [by eapply Hmono; [| |apply Hys]|].
                intros Ha. exists X. split; [done|]. apply At in Ha as [_ Ha]. destruct b; [destruct Ha; [done|by left]|].
                intros S HS. apply Hb; [done|]. set_solver +HS.
        * cbn beta. intros r' (Jr' & Hle & Hl & Hys). split; [done|]. intros x' [Hx'| ->%elem_of_list_singleton]%elem_of_app.
          -- intros y. eapply Hmono; [exact Hl|exact Hle|]. by apply Hpre.
          -- intros y Hadj. apply Hys; [|done]. apply iter_elem; [done|]. apply elem_find_adj_pag. split; [|done].
             apply mg_adj_sym; [apply Ir|]. by apply Hle.
    - cbn beta. intros r ((Ir & Hl & Hle & Hfl) & Hd). split; [done|]. split; [done|]. split; [done|]. split; [done|].
      intros x y Hadj. assert (x ∈ V) as Hx.
      { rewrite <-(li_nodes _ _ _ Ir). destruct Hadj as (k & Hk). by apply (mgw_in _ (li_wf _ _ _ Ir)) in Hk as (? & _). }
      destruct (Hd x) with (y := y) as (X & EX & HT); [by apply iter_elem|done|].
      destruct (Hpds x Hx) as (X' & EX' & HX' & HC). assert (X' = X) as -> by congruence. exists X. by split_and!.
  Qed.

  (** the graph before the refinement is the skeleton of the PC phase with oriented colliders *)
  Theorem fci_learn_ok sb tc fuel : size V * size V + size V + 2 < fuel →
    returns (fci_learn o ci sb tc fuel V) (λ r, ls_inv ci V r.1 ∧
      ∃ p h, sk_inv ci V p ∧ (∀ k, level_done p k (λ _ _, True)) ∧ (∀ e, e ∈ pc_log p → e ∈ ls_log r.1) ∧
        mg_wf h ∧ mnodes h = V ∧ (∀ a b, mg_adj h a b ↔ uline (pc_graph p) a b) ∧
        (∀ a b, mg_adj (ls_graph r.1) a b → mg_adj h a b) ∧
        (r.2 = true ↔ ∃ a b, mg_adj h a b ∧ ¬ mg_adj (ls_graph r.1) a b) ∧
        ∀ x y, mg_adj (ls_graph r.1) x y → ∃ X, pds_set_spec h x X ∧ dependent_given_all (ls_log r.1) x y X).
  Proof.
    intros Hf. unfold fci_learn. eapply returns_bind; [apply (fci_pc_ok fuel); lia|]. cbn beta.
    intros s (I & p & _ & Hp & Hd & Hlog & M).
    assert (∀ a b, mg_adj (ls_graph s) a b ↔ uline (pc_graph p) a b) as A.
    { intros a b. unfold mg_adj. setoid_rewrite M. split; [by intros (k & _ & ?)|]. intros ?. by exists Circle. }
    eapply returns_bind; [apply (ls_orient_ok _ fuel ci V); [by apply keeps_v|done|lia]|]. cbn beta. intros s1 (I1 & _ & L1 & A1).
    eapply returns_bind; [apply (fci_refine_ok fuel); [done|lia]|]. cbn beta. intros [s2 b] (I2 & L2 & Hle & Hb & Hall). cbn [fst snd] in *.
    eapply returns_bind.
    { apply (ls_orient_ok _ fuel ci V); [|done|lia]. apply (keeps_seq (orient_anew o fuel) (orient_rest o sb tc fuel)); [by apply keeps_anew|by apply keeps_rest]. }
    cbn beta. intros s3 (I3 & _ & L3 & A3). cbn [returns fst snd]. split; [done|].
    exists p, (ls_graph s1). split; [done|]. split; [done|]. split; [intros e He; rewrite L3; apply L2; by rewrite L1, Hlog|].
    split; [apply I1|]. split; [apply I1|]. split; [intros a a2; by rewrite A1, A|].
    split; [intros a a2 Hab; by apply Hle, A3|]. split.
    - rewrite Hb. split; intros (x & y & H1 & H2); exists x, y; (split; [done|]); [by rewrite A3|by rewrite <-A3].
    - intros x y Hxy. rewrite L3. destruct (Hall x y) as (X & HX & _ & HT); [by apply A3|]. by exists X.
  Qed.
End ordered.
