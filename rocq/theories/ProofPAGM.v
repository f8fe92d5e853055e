(** m-separation: the augmented graph criterion as implemented decides m-separation. *)
From Verif Require Import Base BaseLemmas ModelGraph Spec Paths MSepTheory ProofGraph ProofDsep.
From Verif Require Import ModelMixed ModelPC ModelPAG SpecMixed SpecPAG ProofMixed ProofMixed2 ProofPAG ProofPAG2.

Section msep.
  Context (o : order) (Ho : iter_ok o) (g : mgraph) (D : dir_mixed g).
  Let Hwf := dm_wf _ D.
  Let H (a b : node) : Prop := has_mark g a Directed b.

  Lemma dm_tail a b : mg_adj g a b → ¬ H a b → has_mark g a Tail b.
  Proof. intros [k Hk] Hn. destruct k; try done. by apply (dm_marks _ D) in Hk. Qed.
  Lemma madj_adj a b : madj H a b ↔ mg_adj g a b.
  Proof.
    unfold madj. split.
    - intros [Hab|Hab]; [by eexists|]. apply mg_adj_sym; [done|]. by eexists.
    - intros Hab. destruct (decide (a ∈ mset g b Directed)) as [|H1]; [by left|]. destruct (decide (b ∈ mset g a Directed)) as [|H2]; [by right|].
      exfalso. apply (dm_und _ D a b). split; apply dm_tail; try done. by apply mg_adj_sym.
  Qed.
  Lemma dir_dir a b : dir H a b ↔ SpecPAG.dir_edge g a b.
  Proof.
    unfold dir, SpecPAG.dir_edge. split; intros [H1 H2]; (split; [done|]).
    - apply dm_tail; [|done]. apply mg_adj_sym; [done|]. by eexists.
    - intros H3. by pose proof (mgw_one _ Hwf _ _ _ _ H2 H3).
  Qed.
  Lemma pd_dir a b : pd_edge g a b ↔ SpecPAG.dir_edge g a b.
  Proof.
    unfold pd_edge. split.
    - intros (H1 & H2 & H3). split.
      + destruct (decide (a ∈ mset g b Directed)) as [|Hn]; [done|]. by destruct H3; apply dm_tail.
      + apply dm_tail; [|done]. by apply mg_adj_sym.
    - intros [H1 H2]. split_and!; [by eexists|..]; intros H3.
      + by pose proof (mgw_one _ Hwf _ _ _ _ H2 H3).
      + by pose proof (mgw_one _ Hwf _ _ _ _ H1 H3).
  Qed.
  Lemma rtc_eqv (R Q : nat → nat → Prop) a b : (∀ x y, R x y ↔ Q x y) → rtc R a b ↔ rtc Q a b.
  Proof. intros HE. split; intros Hr; (eapply rtc_subrel; [|exact Hr]); intros u v; apply HE. Qed.
  Lemma rtc_dirs a b : rtc (dir H) a b ↔ rtc (SpecPAG.dir_edge g) a b.
  Proof. apply rtc_eqv, dir_dir. Qed.

  Lemma poss_anc_rtc v d : poss_anc g (mnodes g) v d ↔ rtc (SpecPAG.dir_edge g) v d.
  Proof.
    rewrite <-(rtc_eqv (pd_edge g)) by apply pd_dir. split.
    - intros [->|(_ & p & (Hh & Hl & _ & Hlk) & _)]; [done|]. by eapply walk_rtc.
    - intros Hr. destruct (decide (v = d)) as [|Hne]; [by left|]. right. apply rtc_path in Hr as (p & Hh & Hl & Hnd & Hlk).
      destruct p as [|v' p]; [done|]. simpl in Hh. injection Hh as ->. destruct p as [|w p]; [simpl in Hl; congruence|].
      assert (∀ u w, pd_edge g u w → u ∈ mnodes g ∧ w ∈ mnodes g) as Hin.
      { intros u w' [[k Hk] _]. by apply (mgw_in _ Hwf) in Hk as (? & ? & _). }
      split; [by apply (Hin v w), (Hlk [] v w p)|]. exists (v :: w :: p). split; [done|].
      intros u Hu Huv. apply elem_of_list_split in Hu as (l1 & l2 & E). destruct (rev_case l1) as [->|(l1' & t & ->)].
      + simpl in E. injection E as -> _. done.
      + apply (Hin t u), (Hlk l1' t u l2). rewrite E. by rewrite <-app_assoc.
  Qed.

  Lemma act_active_m (Z : list node) p : act H (.∈ Z) p ↔ linked (mg_adj g) p ∧ m_active g (list_to_set Z) p.
  Proof.
    induction p as [|a p IH].
    { split; [|done]. intros _. split; [apply linked_nil|]. intros l1 ???? Heq. by destruct l1. }
    destruct p as [|b p].
    { split; [|done]. intros _. split; [apply linked_one|]. intros l1 ???? Heq. destruct l1 as [|? [|]]; done. }
    rewrite linked_cons.
    assert (m_active g (list_to_set Z) (a :: b :: p) ↔
      match p with c :: _ => triple_ok H (.∈ Z) a b c | [] => True end ∧ m_active g (list_to_set Z) (b :: p)) as ->.
    { split.
      - intros Hact. split.
        + destruct p as [|c p]; [done|]. destruct (Hact [] a b c p eq_refl) as [H1 H2].
          split; [|by rewrite elem_of_list_to_set in H2]. intros Hc. destruct (H1 Hc) as (z & Hz & ?). exists z.
          rewrite elem_of_list_to_set in Hz. split; [done|]. by apply rtc_dirs.
        + intros l1 x y z l2 Heq. apply (Hact (a :: l1) x y z l2). by rewrite Heq.
      - intros [Ht Hact] l1 x y z l2 Heq. destruct l1 as [|? l1]; simplify_eq/=.
        + destruct Ht as [H1 H2]. split; [|by rewrite elem_of_list_to_set]. intros Hc. destruct (H1 Hc) as (w & ? & Hr).
          exists w. rewrite elem_of_list_to_set. split; [done|]. by apply rtc_dirs in Hr.
        + by eapply Hact. }
    change (act H (.∈ Z) (a :: b :: p)) with
      (madj H a b ∧ match p with c :: _ => triple_ok H (.∈ Z) a b c | [] => True end ∧ act H (.∈ Z) (b :: p)).
    rewrite IH, madj_adj. tauto.
  Qed.

  Lemma anZ_dec_m (Z : list node) a : anZ H (.∈ Z) a ∨ ¬ anZ H (.∈ Z) a.
  Proof.
    assert (size (default (mnodes g) None) < S (size (mnodes g))) as Hf by (simpl; lia).
    pose proof (find_possible_ancestors_ok o Ho g Hwf (S (size (mnodes g))) Z None Hf) as Hr. cbn zeta in Hr.
    apply returns_ok in Hr as (X & _ & HX). specialize (HX a).
    assert (anZ H (.∈ Z) a ↔ a ∈ X) as ->; [|destruct (decide (a ∈ X)); tauto].
    rewrite HX. unfold anZ. split; intros (z & ? & Hz); exists z; (split; [done|]); [apply poss_anc_rtc; by apply rtc_dirs|apply rtc_dirs; by apply poss_anc_rtc].
  Qed.

  Lemma m_separated_aug x y (Z : list node) : x ≠ y → y ∉ Z → m_separated g x y (list_to_set Z) ↔ ¬ augreach H (.∈ Z) x y x y.
  Proof.
    intros Hne HyZ. unfold m_separated. apply not_iff_compat. rewrite <-(msep_aug H).
    - split; intros (p & HH); exists p.
      + destruct HH as [(Hh & Hl & Hnd & Hlk) Ha]. split_and!; [|by split|done]. by apply act_active_m.
      + destruct HH as (Ha & [Hh Hl] & Hnd). apply act_active_m in Ha as [Hlk Ha]. split; [by split_and!|done].
    - intros a Ha. by apply (mgw_in _ Hwf) in Ha as (_ & _ & ?).
    - intros a b. destruct (decide (a ∈ mset g b Directed)); [by left|by right].
    - intros a Ht. apply (dm_acyclic _ D a). eapply tc_mono; [|exact Ht]. intros ??. apply dir_dir.
    - apply anZ_dec_m.
    - done.
    - done.
  Qed.

  (** the skeleton restricted to V *)
  Lemma skeleton_ok V : returns (get_skeleton_graph o PAG_T g (Some V)) (λ u, gnodes u = V ∧
    ∀ a b, a ∈ gadj u b ↔ a ∈ V ∧ b ∈ V ∧ mg_adj g a b).
  Proof.
    unfold get_skeleton_graph. cbn [default from_option]. unfold id.
    eapply returns_mono; [apply (for_returns_pre _ _ _ (λ pre u, gnodes u = V ∧
      ∀ a b, a ∈ gadj u b ↔ ((a, b) ∈ pre ∨ (b, a) ∈ pre) ∧ mg_adj g a b))|].
    - split; [done|]. intros a b. simpl. set_solver +.
    - intros pre [i j] post u E [Hn Hu].
      assert ((i, j) ∈ comb2 (o 272 V)) as Hij by (rewrite E; set_solver +).
      apply comb2_iter in Hij as (Hi & Hj & Hne); [|done].
      eapply returns_bind; [by apply m_is_connected_pag|]. cbn beta. intros x Hx. destruct x.
      + eapply returns_mono; [apply add_edge_spec; by rewrite Hn|]. cbn beta. intros u' [Hn' Hu']. split; [congruence|].
        assert (mg_adj g i j) as Hadj by by apply Hx. assert (mg_adj g j i) as Hadj' by by apply mg_adj_sym.
        intros a b. rewrite Hu', Hu, !elem_of_app, !elem_of_list_singleton. split.
        * intros [[? ?]|[[-> ->]|[-> ->]]]; [tauto|..]; (split; [|done]); auto.
        * intros [[[?|?]|[?|?]] ?]; simplify_eq; tauto.
      + simpl. split; [done|]. intros a b. rewrite Hu, !elem_of_app, !elem_of_list_singleton. split; [tauto|].
        intros [[[?|Ex]|[?|Ex]] Hab]; simplify_eq; [tauto|by apply Hx in Hab|tauto|].
        apply mg_adj_sym in Hab; [|done]. by apply Hx in Hab.
    - cbn beta. intros u [Hn Hu]. split; [done|]. intros a b. rewrite Hu. split.
      + intros [[Hab|Hab] ?]; apply comb2_iter in Hab as (? & ? & _); done.
      + intros (Ha & Hb & Hadj). split; [|done]. apply comb2_iter; try done. intros ->. by apply (mg_adj_irr g b Hwf).
  Qed.

  Lemma elem_augment V C v : v ∈ augment o g V C ↔ v ∈ C ∨ (v ∈ V ∧ v ∉ C ∧ ∃ n, n ∈ C ∧ H v n).
  Proof.
    unfold augment. rewrite elem_of_union.
    assert (∀ l S, v ∈ foldl (λ S n, S ∪ filter (λ m, m ∈ mset g n Directed) (V ∖ C)) S l ↔ v ∈ S ∨ (v ∈ V ∧ v ∉ C ∧ ∃ n, n ∈ l ∧ H v n)) as Hl.
    { induction l as [|n l IH]; intros S; simpl; [set_solver +|]. rewrite IH, elem_of_union, elem_of_filter, elem_of_difference. unfold H, has_mark. set_solver +. }
    rewrite Hl. setoid_rewrite (iter_elem o 560 C); [|done]. set_solver +.
  Qed.

  Definition bid := kind_edge g (Some Directed).
  Definition bidV (V : nset) (u v : node) : Prop := bid u v ∧ v ∈ V.

  Lemma chain_of V n n' a b : rtc (bidV V) n n' → n ∈ V → H a n → H b n' →
    ∃ cs, cchain H a cs b ∧ (∀ c, c ∈ cs → c ∈ V) ∧ head cs = Some n.
  Proof.
    intros Hr. revert a. induction Hr as [n|n m n' [[Hnm Hmn] Hm] _ IH]; intros a Hn Ha Hb.
    - exists [n]. simpl. split_and!; [done..|by right| |done]. intros c Hc. by apply elem_of_list_singleton in Hc as ->.
    - destruct (IH n Hm Hnm Hb) as (cs & Hcs & HV & Hh). exists (n :: cs). split; [|split].
      + destruct cs as [|c cs]; [done|]. simpl in Hh. injection Hh as ->. simpl. split; [exact Ha|]. split; [exact Hmn|]. exact Hcs.
      + intros c Hc. apply elem_of_cons in Hc as [->|Hc]; [done|by apply HV].
      + done.
  Qed.

  Lemma bid_sym u v : bid u v → bid v u.
  Proof. intros [? ?]; by split. Qed.

  Lemma comp_chain V l C a b : components bid V l → C ∈ l → a ∈ augment o g V C → b ∈ augment o g V C → a ≠ b →
    ∃ cs, cchain H a cs b ∧ ∀ c, c ∈ cs → c ∈ V.
  Proof.
    intros (_ & _ & _ & Hcl) HC Ha Hb Hne. apply elem_augment in Ha, Hb.
    assert (∀ u v, u ∈ C → v ∈ C → u ∈ V ∧ v ∈ V ∧ rtc (bidV V) u v) as Hr.
    { intros u v Hu Hv. by apply (Hcl C u HC Hu v) in Hv. }
    destruct Ha as [Ha|(Ha & HaC & n & Hn & Han)], Hb as [Hb|(Hb & HbC & n' & Hn' & Hbn)].
    - destruct (Hr _ _ Ha Hb) as (HaV & HbV & Hab). inversion Hab as [|? n ? [[H1 H2] HnV] Hnb]; subst; [done|].
      apply rtc_inv_r in Hnb as [->|(n' & Hnn & [[H3 H4] HbV'])].
      + exists []. split; [by left|]. intros c Hc. by apply elem_of_nil in Hc.
      + destruct (chain_of V n n' a b) as (cs & ? & ? & _); [done..|]. by exists cs.
    - destruct (Hr _ _ Ha Hn') as (HaV & HbV & Hab). inversion Hab as [|? n ? [[H1 H2] HnV] Hnb]; subst.
      + exists []. split; [by right|]. intros c Hc. by apply elem_of_nil in Hc.
      + destruct (chain_of V n n' a b) as (cs & ? & ? & _); [done..|]. by exists cs.
    - destruct (Hr _ _ Hn Hb) as (HnV & HbV & Hnb). apply rtc_inv_r in Hnb as [->|(n' & Hnn & [[H3 H4] HbV'])].
      + exists []. split; [by left|]. intros c Hc. by apply elem_of_nil in Hc.
      + destruct (chain_of V n n' a b) as (cs & ? & ? & _); [done..|]. by exists cs.
    - destruct (Hr _ _ Hn Hn') as (HnV & HbV & Hnn). destruct (chain_of V n n' a b) as (cs & ? & ? & _); [done..|]. by exists cs.
  Qed.

  Lemma chain_comp V cs a b c : cchain H a (c :: cs) b → (∀ d, d ∈ c :: cs → d ∈ V) →
    H a c ∧ ∃ n, n ∈ V ∧ rtc (bidV V) c n ∧ H b n.
  Proof.
    revert a c. induction cs as [|d cs IH]; intros a c Hc HV.
    - destruct Hc as (H1 & H2 & _). split; [done|]. exists c. split_and!; [apply HV; set_solver +|done..].
    - destruct Hc as (H1 & H2 & H3). split; [done|]. destruct (IH c d H3) as (H4 & n & Hn & Hr & Hb).
      { intros e He. apply HV. set_solver +He. }
      exists n. split_and!; [done| |done]. eapply rtc_l; [|exact Hr]. split; [by split|]. apply HV. set_solver +.
  Qed.

  Lemma aug_comp V l a b : components bid V l → a ∈ V → b ∈ V → (∃ cs, cchain H a cs b ∧ ∀ c, c ∈ cs → c ∈ V) →
    mg_adj g a b ∨ ∃ C, C ∈ l ∧ a ∈ augment o g V C ∧ b ∈ augment o g V C.
  Proof.
    intros (Hcov & _ & _ & Hcl) Ha Hb (cs & Hcs & HV). destruct cs as [|c cs].
    - left. by apply madj_adj.
    - right. assert (c ∈ V) as Hc by (apply HV; set_solver +). destruct (chain_comp V cs a b c Hcs HV) as (H1 & n & Hn & Hr & H2).
      apply Hcov in Hc as Hc2. destruct Hc2 as (C & HC & HcC). exists C. split; [done|].
      assert (n ∈ C) as HnC by by apply (Hcl C c HC HcC).
      rewrite !elem_augment. split.
      + destruct (decide (a ∈ C)); [by left|right]. split_and!; [done..|]. by exists c.
      + destruct (decide (b ∈ C)); [by left|right]. split_and!; [done..|]. by exists n.
  Qed.

  Theorem is_m_separated_ok fuel x y Z : size (mnodes g) + 1 < fuel → x ∈ mnodes g → y ∈ mnodes g →
    (∀ z, z ∈ Z → z ∈ mnodes g) → x ≠ y → y ∉ Z →
    returns (is_m_separated o fuel g x y Z) (λ b, b = true ↔ m_separated g x y (list_to_set Z)).
  Proof.
    intros Hf Hx Hy HZ Hne HyZ. unfold is_m_separated.
    assert (∀ d, returns (find_possible_ancestors o fuel g [d] None) (λ S, ∀ v, v ∈ S ↔ rtc (SpecPAG.dir_edge g) v d)) as Hpa.
    { intros d. eapply returns_mono; [apply find_possible_ancestors_ok; [done..|simpl; lia]|]. cbn beta. intros X HX v. rewrite HX.
      simpl. rewrite <-poss_anc_rtc. split; [|intros ?; exists d; split; [set_solver +|done]].
      intros (d' & Hd' & ?). by apply elem_of_list_singleton in Hd' as ->. }
    eapply returns_bind; [apply Hpa|]. cbn beta. intros a1 H1. eapply returns_bind; [apply Hpa|]. cbn beta. intros a2 H2.
    eapply returns_bind.
    { apply (for_returns_pre _ _ _ (λ pre S, ∀ a, a ∈ S ↔
        rtc (SpecPAG.dir_edge g) a x ∨ rtc (SpecPAG.dir_edge g) a y ∨ ∃ z, z ∈ pre ∧ rtc (SpecPAG.dir_edge g) a z)).
      - intros a. rewrite !elem_of_union, H1, H2. set_solver +.
      - intros pre z post S Hl HS. eapply returns_bind; [apply Hpa|]. cbn. intros a3 H3.
        intros a. rewrite elem_of_union, HS, H3. set_solver +. }
    cbn beta. intros anc Hanc.
    assert (∀ c, c ∈ anc ↔ An H (.∈ Z) x y c) as HAn.
    { intros c. rewrite Hanc. unfold An, anZ. rewrite !rtc_dirs.
      assert ((∃ z, z ∈ Z ∧ rtc (SpecPAG.dir_edge g) c z) ↔ (∃ z, z ∈ Z ∧ rtc (dir H) c z)) as ->; [|done].
      split; intros (z & ? & ?); exists z; (split; [done|by apply rtc_dirs]). }
    assert (anc ⊆ mnodes g) as Hsub.
    { intros c. rewrite Hanc. assert (∀ u v, rtc (SpecPAG.dir_edge g) u v → v ∈ mnodes g → u ∈ mnodes g) as Hcl.
      { intros u v Huv. induction Huv as [|u w v [Huw _] _ IH]; [done|]. intros _. by apply (mgw_in _ Hwf) in Huw as (? & _). }
      intros [?|[?|(z & ? & ?)]]; eapply Hcl; eauto. }
    assert (size anc ≤ size (mnodes g)) as Hsz by by apply subseteq_size.
    eapply returns_bind; [apply skeleton_ok|]. cbn beta. intros m [Hmn Hm].
    eapply returns_bind; [apply pag_components; [done..|simpl; lia]|]. cbn beta. simpl. intros l Hl.
    eapply returns_bind.
    { apply (for_returns_pre _ _ _ (λ pre u, gnodes u = anc ∧ ∀ a b, a ∈ gadj u b ↔ a ∈ gadj m b ∨
        (a ≠ b ∧ ∃ C, C ∈ pre ∧ a ∈ C ∧ b ∈ C))).
      - split; [done|]. set_solver +.
      - intros pre C post u E [Hn Hu].
        assert (C ⊆ anc) as HC.
        { assert (C ∈ augment o g anc <$> l) as HC by (rewrite E; set_solver +). apply elem_of_list_fmap in HC as (B & -> & HB).
          intros v Hv. apply elem_augment in Hv as [Hv|(? & _)]; [|done]. destruct Hl as (Hcov & _). apply Hcov. eauto. }
        eapply returns_mono; [apply (for_returns_pre _ _ _ (λ pq v, gnodes v = anc ∧ ∀ a b, a ∈ gadj v b ↔ a ∈ gadj u b ∨ (a, b) ∈ pq ∨ (b, a) ∈ pq))|].
        + split; [done|]. set_solver +.
        + intros pq [i j] qost v E2 [Hvn Hv].
          assert ((i, j) ∈ comb2 (o 567 C)) as Hij by (rewrite E2; set_solver +). apply comb2_iter in Hij as (Hi & Hj & Hij); [|done].
          eapply returns_mono; [apply add_edge_spec; rewrite Hvn; by apply HC|]. cbn beta. intros v' [Hn' Hv']. split; [congruence|].
          intros a b. rewrite Hv', Hv, !elem_of_app, !elem_of_list_singleton. split.
          * intros [[?|[?|?]]|[[-> ->]|[-> ->]]]; tauto.
          * intros [?|[[?|?]|[?|?]]]; simplify_eq; tauto.
        + cbn beta. intros v [Hvn Hv]. split; [done|]. intros a b. rewrite Hv, Hu. setoid_rewrite elem_of_app. setoid_rewrite elem_of_list_singleton. split.
          * intros [[?|(? & D' & ? & ?)]|[Hab|Hab]]; [by left|right; eauto|..]; apply comb2_iter in Hab as (? & ? & ?); try done; right; (split; [done|]); exists C; auto.
          * intros [?|(? & D' & [?| ->] & ? & ?)]; [tauto|left; right; eauto|]. right. by apply comb2_iter. }
    cbn beta. intros u [Hun Hu].
    assert (∀ a b, a ∈ gadj u b ↔ a ≠ b ∧ aug H (.∈ Z) x y a b) as Haug.
    { intros a b. rewrite Hu, Hm. unfold aug. rewrite <-!HAn. setoid_rewrite <-HAn. split.
      - intros [(Ha & Hb & Hab)|(Hn & C & HC & Ha & Hb)].
        + split; [intros ->; by apply (mg_adj_irr g b Hwf)|]. split_and!; [done..|]. exists []. split; [by apply madj_adj|].
          intros c Hc. by apply elem_of_nil in Hc.
        + apply elem_of_list_fmap in HC as (B & -> & HB). split; [done|].
          assert (∀ v, v ∈ augment o g anc B → v ∈ anc) as HBa.
          { intros v Hv. apply elem_augment in Hv as [Hv|(? & _)]; [|done]. destruct Hl as (Hcov & _). apply Hcov. eauto. }
          split_and!; [by apply HBa..|]. by eapply comp_chain.
      - intros (Hn & Ha & Hb & Hc). destruct (aug_comp anc l a b Hl Ha Hb Hc) as [?|(C & HC & ? & ?)]; [tauto|].
        right. split; [done|]. exists (augment o g anc C). split_and!; [|done..]. apply elem_of_list_fmap. eauto. }
    assert (∀ a b, a ∈ gadj u b → a ∈ anc ∧ b ∈ anc ∧ b ∈ gadj u a) as Hsy.
    { intros a b Hab. pose proof Hab as Hab'. apply Haug in Hab' as (_ & Ha & Hb & _). rewrite <-HAn in Ha, Hb. split_and!; [done..|].
      apply Hu. apply Hu in Hab as [Hab|(Hn & C & HC & ? & ?)].
      - left. apply Hm. apply Hm in Hab as (_ & _ & Hab). split_and!; [done..|]. by apply mg_adj_sym.
      - right. split; [by apply not_eq_sym|]. eauto. }
    eapply returns_bind.
    { apply is_reachable_spec; [done| | |].
      - intros a b He. unfold edge in He. rewrite Hun. by apply Hsy in He as (? & ? & _).
      - rewrite Hun. assert (size (anc ∖ (list_to_set Z ∪ {[x]})) ≤ size anc) by (apply subseteq_size; set_solver +). lia.
      - intros a b He. by apply Hsy in He as (_ & _ & ?). }
    cbn. intros b Hb. rewrite negb_true_iff, m_separated_aug by done.
    assert (rtc (aedge u (list_to_set Z)) x y ↔ augreach H (.∈ Z) x y x y) as Heq.
    { unfold augreach. generalize x at 1 3. intros s. split.
      - intros Hr. eapply rtc_subrel; [|exact Hr]. intros p q [Hpq HqZ]. split.
        + apply Haug. by apply Hsy in Hpq as (_ & _ & ?).
        + by rewrite elem_of_list_to_set in HqZ.
      - intros Hr. induction Hr as [|s p t [Hsp HpZ] _ IH]; [done|]. destruct (decide (s = p)) as [->|Hsp']; [done|].
        eapply rtc_l; [|done]. split; [|by rewrite elem_of_list_to_set]. apply Hsy, Haug. done. }
    rewrite <-Heq, <-Hb. destruct b; naive_solver.
  Qed.
End msep.
