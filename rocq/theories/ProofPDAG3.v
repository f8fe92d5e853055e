(** PDAG.convert_to_dag and the conversions of bidirected and directed edges. *)
From Verif Require Import Base BaseLemmas ModelGraph Spec ModelMixed SpecMixed Paths ProofGraph ProofDsep ProofGraph2 ProofGraph3 ProofPDAG ProofPDAG2.

(** extension at the level of relations *)
Record rel_ext (g : mgraph) (F : node → node → Prop) : Prop := {
  re_acyclic : ∀ a, ¬ tc F a a;
  re_skel : ∀ a b, F a b ∨ F b a ↔ pd_adj g a b;
  re_dir : ∀ a b, darrow g a b → F a b;
  re_vstr : ∀ a c b, F a c → F b c → a ≠ b → ¬ pd_adj g a b → darrow g a c ∧ darrow g b c;
}.

Lemma extends_rel d g : extends d g → rel_ext g (edge d).
Proof.
  intros [Ha Hn Hs Hd Hv]. split; [done..|].
  intros a c b Hac Hbc Hne Hna. apply Hv. split_and!; [done..|]. by rewrite Hs.
Qed.

Lemma pd_adj_dec g a b : pd_adj g a b ∨ ¬ pd_adj g a b.
Proof. unfold pd_adj. destruct (uline_dec g a b), (darrow_dec g a b), (darrow_dec g b a); tauto. Qed.

Lemma rel_ext_dec g F a b : rel_ext g F → F a b ∨ ¬ F a b.
Proof.
  intros He. destruct (pd_adj_dec g a b) as [H|H].
  - apply (re_skel _ _ He) in H as [?|Hba]; [by left|right]. intros Hab.
    apply (re_acyclic _ _ He a). eapply tc_l; [exact Hab|]. by apply tc_once.
  - right. intros ?. apply H, (re_skel _ _ He). by left.
Qed.

Lemma list_exists_dec {A} (l : list A) (P : A → Prop) : (∀ a, P a ∨ ¬ P a) →
  (∃ a, a ∈ l ∧ P a) ∨ (∀ a, a ∈ l → ¬ P a).
Proof.
  intros Hd. induction l as [|x l IH]; [right; set_solver|].
  destruct (Hd x) as [?|Hx]; [left; exists x; set_solver|].
  destruct IH as [(a & ? & ?)|IH]; [left; exists a; set_solver|right].
  intros a [->|?]%elem_of_cons; auto.
Qed.

Definition good_sink (g : mgraph) (x : node) : Prop :=
  (∀ n, ¬ darrow g x n) ∧
  ∀ y a, uline g y x → uline g a x ∨ darrow g a x → a ≠ y → pd_adj g y a.

(** a sink of an extension is a good sink *)
Lemma sink_good g F x : pd_wf g → rel_ext g F → (∀ b, ¬ F x b) → good_sink g x.
Proof.
  intros Hwf He Hs. assert (∀ a, pd_adj g a x → F a x) as Hin.
  { intros a Ha. apply (re_skel _ _ He) in Ha as [?|Hxa]; [done|]. by apply Hs in Hxa. }
  split.
  - intros n Hn. apply (re_dir _ _ He) in Hn. by apply Hs in Hn.
  - intros y a Hy Ha Hne. destruct (pd_adj_dec g y a) as [?|Hn]; [done|exfalso].
    destruct (re_vstr _ _ He y x a) as [Hd _]; [apply Hin; by left|apply Hin|done|done|].
    + unfold pd_adj. tauto.
    + by apply (pdw_one _ Hwf) in Hy.
Qed.

Lemma good_sink_exists g F (A : nset) : pd_wf g → rel_ext g F →
  (∀ a b, pd_adj g a b → a ∈ A ∧ b ∈ A) → A ≠ ∅ → ¬ ∀ x, x ∈ A → ¬ good_sink g x.
Proof.
  intros Hwf He HA Hne Hno. destruct (no_sink_cycle F A Hne) as (a & _ & Hc).
  - intros x Hx. destruct (list_exists_dec (elements A) (F x)) as [(b & Hb & Hxb)|Hn].
    + intros b. by apply (rel_ext_dec g).
    + exists b. by rewrite elem_of_elements in Hb.
    + exfalso. apply (Hno x Hx). apply (sink_good g F); [done..|]. intros b Hxb.
      apply (Hn b); [|done]. apply elem_of_elements. eapply (HA x b), (re_skel _ _ He). by left.
  - by apply (re_acyclic _ _ He) in Hc.
Qed.

Section todag.
  Context (o : order) (Ho : iter_ok o).

  Lemma is_sink_spec g x : pd_wf g → is_sink o g x None = true ↔ ∀ n, ¬ darrow g x n.
  Proof.
    intros Hwf. unfold is_sink. rewrite forallb_forall. simpl. split.
    - intros H n Hn. assert (n ∈ mnodes g) as Hin by by apply (pdw_dir _ Hwf) in Hn as (_ & ? & _).
      specialize (H n). rewrite negb_true_iff, bool_decide_eq_false in H. apply H; [|done].
      apply elem_of_list_In. by apply iter_elem.
    - intros H n _. rewrite negb_true_iff, bool_decide_eq_false. apply H.
  Qed.

  Lemma sink_ok_spec g x : pd_wf g → returns (sink_ok o g x) (λ b, b = true ↔
    ∀ y a, uline g y x → uline g a x ∨ darrow g a x → a ≠ y → pd_adj g y a).
  Proof.
    intros Hwf. unfold sink_ok. eapply returns_bind.
    - apply (any_returns _ _ (λ y, ∃ a, a ∈ o 417 ((und g x ∪ pd_parents g x) ∖ {[y]}) ∧ ¬ pd_adj g y a)).
      intros y Hy. apply any_returns. intros a Ha.
      apply iter_elem in Ha; [|done]. apply elem_of_difference in Ha as [_ Hay].
      rewrite elem_of_singleton in Hay.
      eapply returns_bind; [apply m_is_connected_pd; [done|congruence]|].
      intros b Hb. simpl. rewrite negb_true_iff, <-Hb. by destruct b.
    - intros bad Hbad. simpl. rewrite negb_true_iff, <-not_true_iff_false, Hbad. split.
      + intros H y a Hy Ha Hne. destruct (pd_adj_dec g y a) as [?|Hn]; [done|exfalso]. apply H.
        exists y. split; [by apply iter_elem|]. exists a. split; [|done]. apply iter_elem; [done|].
        apply elem_of_difference. rewrite elem_of_union, elem_of_singleton. done.
      + intros H (y & Hy & a & Ha & Hn). rewrite iter_elem in Hy by done. rewrite iter_elem in Ha by done.
        rewrite elem_of_difference, elem_of_union, elem_of_singleton in Ha.
        apply Hn, H; [done|tauto..].
  Qed.

  Lemma select_node_spec g A : pd_wf g → returns (select_node o A g) (λ r,
    match r with Some x => x ∈ A ∧ good_sink g x | None => ∀ x, x ∈ A → ¬ good_sink g x end).
  Proof.
    intros Hwf. unfold select_node. apply (find_returns _ _ _ (λ x, ¬ good_sink g x)).
    - intros x Hx. destruct (is_sink o g x None) eqn:E.
      + eapply returns_bind; [by apply sink_ok_spec|]. intros [] Hb; simpl.
        * split; [by apply iter_elem in Hx|]. split; [by apply is_sink_spec|by apply Hb].
        * intros [_ H]. by apply Hb in H.
      + simpl. intros [H _]. apply is_sink_spec in H; [congruence|done].
    - intros H x Hx. apply H. by apply iter_elem.
  Qed.

  Lemma m_is_empty_spec g : pd_wf g → m_is_empty o PDAG_T g None = true ↔ ∀ a b, ¬ pd_adj g a b.
  Proof.
    intros Hwf. unfold m_is_empty. rewrite forallb_forall. setoid_rewrite forallb_forall. simpl. split.
    - intros H. assert (∀ b k, k = Tail ∨ k = Directed → b ∈ mnodes g → mset g b k = ∅) as H'.
      { intros b k Hk Hb. specialize (H b). rewrite <-elem_of_list_In, iter_elem in H by done.
        specialize (H Hb k). rewrite bool_decide_eq_true in H. apply H. destruct Hk as [-> | ->]; tauto. }
      intros a b [Hu|[Hd|Hd]].
      + pose proof (pdw_und _ Hwf _ _ Hu) as (_ & Hb & _). unfold uline, has_mark in Hu.
        rewrite H' in Hu by auto. by apply not_elem_of_empty in Hu.
      + pose proof (pdw_dir _ Hwf _ _ Hd) as (_ & Hb & _). unfold darrow, has_mark in Hd.
        rewrite H' in Hd by auto. by apply not_elem_of_empty in Hd.
      + pose proof (pdw_dir _ Hwf _ _ Hd) as (_ & Hb & _). unfold darrow, has_mark in Hd.
        rewrite H' in Hd by auto. by apply not_elem_of_empty in Hd.
    - intros H n _ k Hk. rewrite bool_decide_eq_true. apply set_eq. intros a.
      split; [|by intros ?%not_elem_of_empty]. intros Ha. exfalso. apply (H a n).
      destruct Hk as [<-|[<-|[]]]; [by left|right; by left].
  Qed.

  Lemma fold_del_und g x l :
    let g' := foldl (λ g y, delete_undirected g y x) g l in
    mnodes g' = mnodes g ∧ (∀ a b, darrow g' a b ↔ darrow g a b) ∧
    ∀ a b, uline g' a b ↔ uline g a b ∧ ¬ (a ∈ l ∧ b = x) ∧ ¬ (b ∈ l ∧ a = x).
  Proof.
    revert g. induction l as [|y l IH]; intros g; cbn zeta; simpl.
    - split_and!; [done..|]. intros a b. rewrite !elem_of_nil. tauto.
    - destruct (IH (delete_undirected g y x)) as (I1 & I2 & I3). split_and!.
      + by rewrite I1.
      + intros a b. rewrite I2. unfold darrow, has_mark, delete_undirected. rewrite !elem_mdis. naive_solver.
      + intros a b. rewrite I3, !elem_of_cons. unfold uline, has_mark, delete_undirected. rewrite !elem_mdis. naive_solver.
  Qed.
  Lemma fold_del_dir g x l :
    let g' := foldl (λ g y, delete_directed g y x) g l in
    mnodes g' = mnodes g ∧ (∀ a b, uline g' a b ↔ uline g a b) ∧
    ∀ a b, darrow g' a b ↔ darrow g a b ∧ ¬ (a ∈ l ∧ b = x).
  Proof.
    revert g. induction l as [|y l IH]; intros g; cbn zeta; simpl.
    - split_and!; [done..|]. intros a b. rewrite elem_of_nil. tauto.
    - destruct (IH (delete_directed g y x)) as (I1 & I2 & I3). split_and!.
      + by rewrite I1.
      + intros a b. rewrite I2. unfold uline, has_mark, delete_directed. rewrite !elem_mdis. naive_solver.
      + intros a b. rewrite I3, !elem_of_cons. unfold darrow, has_mark, delete_directed. rewrite !elem_mdis. naive_solver.
  Qed.

  Lemma detach_spec g x : pd_wf g → (∀ n, ¬ darrow g x n) →
    mnodes (detach o g x) = mnodes g ∧
    (∀ a b, darrow (detach o g x) a b ↔ darrow g a b ∧ a ≠ x ∧ b ≠ x) ∧
    (∀ a b, uline (detach o g x) a b ↔ uline g a b ∧ a ≠ x ∧ b ≠ x).
  Proof.
    intros Hwf Hs. unfold detach.
    destruct (fold_del_und g x (o 450 (und g x))) as (U1 & U2 & U3).
    set (g1 := foldl _ g _) in *.
    destruct (fold_del_dir g1 x (o 452 (pd_parents g1 x))) as (D1 & D2 & D3).
    assert (∀ a, a ∈ o 452 (pd_parents g1 x) ↔ darrow g a x) as HP.
    { intros a. rewrite iter_elem by done. apply (U2 a x). }
    assert (∀ a, a ∈ o 450 (und g x) ↔ uline g a x) as HU.
    { intros a. by rewrite iter_elem by done. }
    split_and!.
    - by rewrite D1, U1.
    - intros a b. rewrite D3, U2, HP. split.
      + intros [Hab H]. split_and!; [done| |].
        * intros ->. by apply Hs in Hab.
        * intros ->. by apply H.
      + intros (? & ? & ?). split; [done|]. tauto.
    - intros a b. rewrite D2, U3, !HU. split.
      + intros (Hab & H1 & H2). split_and!; [done| |].
        * intros ->. apply H2. split; [|done]. by apply (pdw_sym _ Hwf).
        * intros ->. by apply H1.
      + tauto.
  Qed.

  Lemma detach_wf g x : pd_wf g → (∀ n, ¬ darrow g x n) → pd_wf (detach o g x).
  Proof.
    intros Hwf Hs. destruct (detach_spec g x Hwf Hs) as (H1 & H2 & H3). split.
    - intros a b (? & _)%H2. rewrite H1. by apply (pdw_dir _ Hwf).
    - intros a b (? & _)%H3. rewrite H1. by apply (pdw_und _ Hwf).
    - intros a b. rewrite !H3. intros (? & ? & ?). split_and!; [by apply (pdw_sym _ Hwf)|done..].
    - intros a b. rewrite H2, H3. intros (Hab & _) (? & _). by apply (pdw_one _ Hwf) in Hab.
  Qed.

  Lemma detach_adj g x a b : pd_wf g → (∀ n, ¬ darrow g x n) →
    pd_adj (detach o g x) a b ↔ pd_adj g a b ∧ a ≠ x ∧ b ≠ x.
  Proof.
    intros Hwf Hs. destruct (detach_spec g x Hwf Hs) as (_ & H2 & H3).
    unfold pd_adj. rewrite !H2, H3. tauto.
  Qed.

  Lemma rel_ext_detach g F x : pd_wf g → (∀ n, ¬ darrow g x n) → rel_ext g F →
    rel_ext (detach o g x) (λ a b, F a b ∧ a ≠ x ∧ b ≠ x).
  Proof.
    intros Hwf Hs [Ha Hk Hd Hv]. destruct (detach_spec g x Hwf Hs) as (_ & H2 & H3). split.
    - intros a Hc. apply (Ha a). eapply tc_mono; [|exact Hc]. naive_solver.
    - intros a b. rewrite detach_adj by done. rewrite <-Hk. tauto.
    - intros a b. rewrite H2. intros (? & ? & ?). auto.
    - intros a c b (? & ? & ?) (? & ? & ?) ?. rewrite detach_adj by done. intros Hn. rewrite !H2.
      destruct (Hv a c b); [tauto..|]. tauto.
  Qed.

  Lemma rel_ext_attach g F x : pd_wf g → good_sink g x → rel_ext (detach o g x) F →
    rel_ext g (λ a b, F a b ∨ (b = x ∧ pd_adj g a x)).
  Proof.
    intros Hwf [Hs Hg] [Ha Hk Hd Hv]. destruct (detach_spec g x Hwf Hs) as (_ & H2 & H3).
    assert (∀ a b, F a b → pd_adj g a b ∧ a ≠ x ∧ b ≠ x) as HF.
    { intros a b Hab. rewrite <-(detach_adj g x a b Hwf Hs), <-Hk. by left. }
    assert (¬ pd_adj g x x) as Hxx by (intros H; by apply pd_adj_ne in H).
    split.
    - assert (∀ a b, tc (λ a b, F a b ∨ (b = x ∧ pd_adj g a x)) a b → b ≠ x → tc F a b) as Hc.
      { intros a b Ht Hb. induction Ht as [a b [?|[? _]]|a c b Hac Ht IH].
        - by apply tc_once.
        - done.
        - destruct Hac as [Hac|[-> _]]; [eapply tc_l; eauto|].
          assert (∀ a b, tc F a b → a ≠ x) as Hax.
          { intros a' b' Ht'. destruct Ht' as [a' b' H|a' c' b' H _]; apply HF in H; tauto. }
          by apply IH, Hax in Hb. }
      intros a Ht. destruct (decide (a = x)) as [->|Hne]; [|by apply (Ha a), Hc].
      assert (∃ c, F x c ∨ (c = x ∧ pd_adj g x x)) as (c & [Hxc|[_ ?]]); [|by apply HF in Hxc as (_ & ? & _)|done].
      inversion Ht as [? ? H|? c ? H ?]; subst; [exists x|exists c]; exact H.
    - intros a b. destruct (decide (a = x)) as [->|Hax]; [|destruct (decide (b = x)) as [->|Hbx]].
      + split.
        * intros [[H|[-> H]]|[H|[_ H]]]; [by apply HF in H as (_ & ? & _)|done|by apply HF in H as (_ & _ & ?)|].
          by apply pd_adj_sym.
        * intros H. right. right. split; [done|]. by apply pd_adj_sym.
      + split.
        * intros [[H|[_ H]]|[H|[-> H]]]; [by apply HF in H as (_ & _ & ?)|done|by apply HF in H as (_ & ? & _)|done].
        * intros H. left. by right.
      + split.
        * intros [[H|[? _]]|[H|[? _]]]; [by apply HF in H as (? & _)|done| |done].
          apply HF in H as (? & _). by apply pd_adj_sym.
        * intros H. assert (pd_adj (detach o g x) a b) as H' by by apply detach_adj.
          apply Hk in H' as [?|?]; [left; by left|right; by left].
    - intros a b Hab. destruct (decide (b = x)) as [->|Hbx]; [right; split; [done|right; by left]|].
      left. apply Hd, H2. split_and!; [done| |done]. intros ->. by apply Hs in Hab.
    - intros a c b [Hac|[-> Hac]] [Hbc|[? Hbc]] Hne Hn.
      + destruct (HF _ _ Hac) as (_ & ? & ?), (HF _ _ Hbc) as (_ & ? & _).
        destruct (Hv a c b Hac Hbc Hne) as [H4 H5]; [rewrite detach_adj by done; tauto|].
        apply H2 in H4 as [? _]. apply H2 in H5 as [? _]. done.
      + subst c. by apply HF in Hac as (_ & _ & ?).
      + by apply HF in Hbc as (_ & _ & ?).
      + assert (∀ a, pd_adj g a x → uline g a x ∨ darrow g a x) as Hcase.
        { intros u [?|[?|Hd']]; [by left|by right|]. by apply Hs in Hd'. }
        split.
        * destruct (Hcase a Hac) as [Hu|?]; [|done]. exfalso. apply Hn. apply Hg; [done|auto|done].
        * destruct (Hcase b Hbc) as [Hu|?]; [|done]. exfalso. apply Hn.
          apply pd_adj_sym; [done|]. apply Hg; [done|auto|done].
  Qed.

  Lemma add_edges_spec d ps t : (∀ p, p ∈ ps → p ∈ gnodes d) → t ∈ gnodes d →
    returns (add_edges d ps t) (λ d', gnodes d' = gnodes d ∧
      ∀ a b, edge d' a b ↔ edge d a b ∨ (b = t ∧ a ∈ ps)).
  Proof.
    intros Hps Ht. unfold add_edges. destruct (decide (size (ps ∖ gnodes d) ≠ 0)) as [H|_].
    { exfalso. apply H. apply size_empty_iff. intros p. rewrite elem_of_difference.
      split; [|by intros ?%not_elem_of_empty]. intros [? ?]. naive_solver. }
    destruct (decide (t ∉ gnodes d)) as [H|_]; [done|]. simpl. split; [done|].
    intros a b. unfold edge. rewrite upd_lookup. destruct (decide (b = t)) as [->|]; [rewrite elem_of_union|]; naive_solver.
  Qed.

  Lemma extend_loop_spec fuel : ∀ g A d, pd_wf g → (∀ a b, pd_adj g a b → a ∈ A ∧ b ∈ A) → A ⊆ mnodes g →
    gnodes d = mnodes g → (∀ a b, darrow g a b → edge d a b) → size A < fuel →
    returns (extend_loop o fuel g A d) (λ r, gnodes r.1 = gnodes d ∧
      if (r.2 : bool) then ∃ F, rel_ext g F ∧ ∀ a b, edge r.1 a b ↔ edge d a b ∨ F a b
      else ¬ ∃ F, rel_ext g F).
  Proof.
    induction fuel as [|fuel IH]; intros g A d Hwf HA HAn Hn Hd Hf; [lia|]. simpl.
    destruct (m_is_empty o PDAG_T g None) eqn:E.
    - simpl. split; [done|]. pose proof (proj1 (m_is_empty_spec g Hwf) E) as E'. clear E. rename E' into E. exists (λ _ _, False). split; [|tauto].
      split.
      + intros a Ht. by destruct Ht.
      + intros a b. split; [tauto|]. intros H. by apply E in H.
      + intros a b H. apply (E a b). right. by left.
      + done.
    - eapply returns_bind; [by apply select_node_spec|]. intros [x|]; simpl.
      + intros [Hx Hg]. pose proof Hg as [Hs _].
        eapply returns_bind; [apply add_edges_spec|].
        * intros p Hp. rewrite Hn. by apply (pdw_und _ Hwf) in Hp as (? & _).
        * rewrite Hn. by apply HAn.
        * cbn beta. intros d1 [Hn1 Hd1].
          destruct (detach_spec g x Hwf Hs) as (T1 & T2 & T3).
          eapply returns_mono; [apply IH|].
          -- by apply detach_wf.
          -- intros a b. rewrite detach_adj by done. intros (Hab & ? & ?). apply HA in Hab as [? ?].
             rewrite !elem_of_difference, !elem_of_singleton. done.
          -- rewrite T1. set_solver +HAn.
          -- congruence.
          -- intros a b. rewrite T2. intros (? & _). apply Hd1. auto.
          -- assert (size (A ∖ {[x]}) < size A) by (apply subset_size; set_solver +Hx). lia.
          -- cbn beta. intros [d' []] [Hn' H]; simpl in *; (split; [congruence|]).
             ++ destruct H as (F & HF & HdF). eexists. split; [by apply (rel_ext_attach g F x)|].
                intros a b. cbn beta. rewrite HdF, Hd1. unfold pd_adj. split.
                ** intros [[?|[-> ?]]|?]; [tauto| |tauto]. right. right. split; [done|]. by left.
                ** intros [?|[?|[-> [?|[?|Hxa]]]]]; [tauto..| | |].
                   --- left. right. done.
                   --- left. left. auto.
                   --- by apply Hs in Hxa.
             ++ intros (F & HF). apply H. eexists. by apply (rel_ext_detach g F x).
      + intros Hno. split; [done|]. intros (F & HF).
        apply (good_sink_exists g F A); [done..| |done].
        intros ->. assert (m_is_empty o PDAG_T g None = true); [|congruence].
        apply m_is_empty_spec; [done|]. intros a b Hab. apply HA in Hab as [Ha _]. by apply not_elem_of_empty in Ha.
  Qed.

  Lemma pd_copy_spec g : pd_wf g →
    mnodes (pd_copy g) = mnodes g ∧ (∀ a b, darrow (pd_copy g) a b ↔ darrow g a b) ∧
    (∀ a b, uline (pd_copy g) a b ↔ uline g a b).
  Proof.
    intros Hwf. split_and!; [done|..]; intros a b; unfold darrow, uline, has_mark; simpl;
      destruct (decide (b ∈ mnodes g ∧ _)) as [H|H]; try done;
      (split; [by intros ?%not_elem_of_empty|]); intros Hab; exfalso; apply H; (split; [|set_solver +]).
    - by apply (pdw_dir _ Hwf) in Hab as (_ & ? & _).
    - by apply (pdw_und _ Hwf) in Hab as (_ & ? & _).
  Qed.
  Lemma pd_same_wf g h : pd_same g h → pd_wf g → pd_wf h.
  Proof.
    intros [Hn H] [H1 H2 H3 H4]. split.
    - intros a b. rewrite <-(proj1 (H a b)), <-Hn. auto.
    - intros a b. rewrite <-(proj2 (H a b)), <-Hn. auto.
    - intros a b. rewrite <-(proj2 (H a b)), <-(proj2 (H b a)). auto.
    - intros a b. rewrite <-(proj2 (H a b)), <-(proj1 (H a b)). auto.
  Qed.
  Lemma pd_copy_same g : pd_wf g → pd_same g (pd_copy g).
  Proof. intros Hwf. destruct (pd_copy_spec g Hwf) as (H1 & H2 & H3). split; [done|]. intros a b. by rewrite H2, H3. Qed.
  Lemma pd_same_adj g h a b : pd_same g h → pd_adj g a b ↔ pd_adj h a b.
  Proof. intros [_ H]. unfold pd_adj. by rewrite !(proj1 (H _ _)), (proj2 (H _ _)). Qed.

  Lemma rel_ext_same g h F : pd_same g h → rel_ext g F → rel_ext h F.
  Proof.
    intros Hs [H1 H2 H3 H4]. pose proof (λ a b, pd_same_adj g h a b Hs) as Hadj. destruct Hs as [_ Hs]. split; [done|..].
    - intros a b. rewrite H2. apply Hadj.
    - intros a b Hab. apply H3. by apply Hs.
    - intros a c b ? ? ? Hn. rewrite <-!(proj1 (Hs _ _)). apply H4; [done..|]. by rewrite Hadj.
  Qed.

  Lemma convert_to_dag_spec g d fuel : pd_wf g → gnodes d = mnodes g → (∀ n, gadj d n = ∅) →
    size (mnodes g) < fuel →
    returns (convert_to_dag o fuel g d) (λ r, gnodes r.1 = mnodes g ∧
      if (r.2 : bool) then extends r.1 g else ¬ ∃ e, extends e g).
  Proof.
    intros Hwf Hn He Hf. unfold convert_to_dag. eapply returns_bind.
    - apply (for_returns_pre _ _ _ (λ pre d', gnodes d' = mnodes g ∧ ∀ a b, edge d' a b ↔ b ∈ pre ∧ darrow g a b)).
      + split; [done|]. intros a b. unfold edge. rewrite He, elem_of_nil. set_solver +.
      + intros pre n post d0 Hl [H1 H2]. eapply returns_mono; [apply add_edges_spec|].
        * intros p Hp. rewrite H1. by apply (pdw_dir _ Hwf) in Hp as (? & _).
        * rewrite H1. assert (n ∈ o 436 (mnodes g)) as Hin by (rewrite Hl; set_solver +). by rewrite iter_elem in Hin.
        * cbn beta. intros d1 [I1 I2]. split; [congruence|]. intros a b.
          rewrite I2, H2, elem_of_app, elem_of_list_singleton. unfold darrow, has_mark, pd_parents.
          destruct (decide (b = n)); naive_solver.
    - cbn beta. intros d0 [H1 H2].
      assert (∀ a b, edge d0 a b ↔ darrow g a b) as H2'.
      { intros a b. rewrite H2, iter_elem by done. split; [tauto|]. intros Hab. split; [|done].
        by apply (pdw_dir _ Hwf) in Hab as (_ & ? & _). }
      pose proof (pd_copy_same g Hwf) as Hs. pose proof (pd_same_wf _ _ Hs Hwf) as Hwc.
      eapply returns_mono; [apply extend_loop_spec|].
      + done.
      + intros a b. rewrite <-(pd_same_adj g _ a b Hs). intros [Hab|[Hab|Hab]].
        * apply (pdw_und _ Hwf) in Hab. tauto.
        * apply (pdw_dir _ Hwf) in Hab. tauto.
        * apply (pdw_dir _ Hwf) in Hab. tauto.
      + done.
      + done.
      + intros a b. rewrite H2'. by apply Hs.
      + done.
      + cbn beta. intros [d' b] [Hd' H]. simpl in *. split; [congruence|]. destruct b.
        * destruct H as (F & HF & Hed). apply (rel_ext_same _ g) in HF.
          2: { destruct Hs as [? Hs]. split; [done|]. intros a b. by rewrite !(proj1 (Hs _ _)), !(proj2 (Hs _ _)). }
          assert (∀ a b, edge d' a b ↔ F a b) as HdF.
          { intros a b. rewrite Hed, H2'. split; [|tauto]. intros [?|?]; [by apply (re_dir _ _ HF)|done]. }
          split.
          -- intros a Hc. apply (re_acyclic _ _ HF a). eapply tc_mono; [|exact Hc]. intros u v. by rewrite HdF.
          -- congruence.
          -- intros a b. unfold adjacent. rewrite !HdF. apply (re_skel _ _ HF).
          -- intros a b Hab. rewrite HdF. by apply (re_dir _ _ HF).
          -- intros a c b (Hac & Hbc & Hne & Hna). rewrite HdF in Hac, Hbc.
             apply (re_vstr _ _ HF); [done..|]. rewrite <-(re_skel _ _ HF), <-!HdF. done.
        * intros (e & Hex). apply H. exists (edge e). apply (rel_ext_same g); [done|]. by apply extends_rel.
  Qed.
End todag.

(** ** conversions *)
Section conversions.
  Context (o : order) (Ho : iter_ok o).

  (** one pair *)
  Definition undirect (g : mgraph) (x y : node) : mgraph :=
    madd (madd (mdis (mdis g x Directed y) y Directed x) x Tail y) y Tail x.
  Lemma undirect_spec g x y a b :
    (darrow (undirect g x y) a b ↔ darrow g a b ∧ ¬ (a = y ∧ b = x) ∧ ¬ (a = x ∧ b = y)) ∧
    (uline (undirect g x y) a b ↔ uline g a b ∨ (a = y ∧ b = x) ∨ (a = x ∧ b = y)).
  Proof.
    unfold darrow, uline, has_mark, undirect. rewrite !elem_madd, !elem_mdis. split.
    - split; [naive_solver|]. intros (? & ? & ?). left. left. split_and!; [done|naive_solver..].
    - split.
      + intros [[[[? _] _]|(? & _ & ?)]|(? & _ & ?)]; auto.
      + intros [?|[[? ?]|[? ?]]]; [|by auto..].
        left. left. split_and!; [done|by intros (_ & ? & _)..].
  Qed.

  (** pairs (in either order) of the list satisfying a test *)
  Definition picked (l : list (node * node)) (C : node → node → Prop) (a b : node) : Prop :=
    ((a, b) ∈ l ∨ (b, a) ∈ l) ∧ C a b.

  Lemma conv_fold (C : mgraph → node → node → Prop) `{∀ g x y, Decision (C g x y)}
      (D : node → node → Prop) l :
    (∀ a b, D a b → D b a) → (∀ x y, (x, y) ∈ l → (y, x) ∉ l) → NoDup l → ∀ g,
    (∀ x y h, (x, y) ∈ l → (darrow h x y ↔ darrow g x y) → (darrow h y x ↔ darrow g y x) → C h x y ↔ D x y) →
    let g' := foldl (λ g '(x, y), if decide (C g x y) then undirect g x y else g) g l in
    mnodes g' = mnodes g ∧ (∀ a b, darrow g' a b ↔ darrow g a b ∧ ¬ picked l D a b) ∧
    (∀ a b, uline g' a b ↔ uline g a b ∨ picked l D a b).
  Proof.
    intros Hsym. induction l as [|[x y] l IH]; intros Hasym Hnd g HC; cbn zeta; simpl.
    - split_and!; [done|..]; intros a b; unfold picked; rewrite !elem_of_nil; tauto.
    - apply NoDup_cons in Hnd as [Hxy Hnd].
      assert (∀ x y, (x, y) ∈ l → (y, x) ∉ l) as Hasym'.
      { intros u v Huv Hvu. apply (Hasym u v); by right. }
      assert (∀ a b, picked ((x, y) :: l) D a b ↔ (((a = x ∧ b = y) ∨ (a = y ∧ b = x)) ∧ D x y) ∨ picked l D a b) as Hp.
      { intros a b. unfold picked. rewrite !elem_of_cons. split.
        - intros [[[[= -> ->]|?]|[[= -> ->]|?]] HD]; auto 6.
        - intros [[[[-> ->]|[-> ->]] HD]|[? ?]]; [auto|auto|tauto]. }
      destruct (decide (C g x y)) as [Hc|Hc].
      + apply (HC x y g) in Hc as HD; [|set_solver +|done..].
        destruct (IH Hasym' Hnd (undirect g x y)) as (I1 & I2 & I3).
        { intros x' y' h Hin. rewrite !(proj1 (undirect_spec g x y _ _)).
          assert ((x', y') ≠ (x, y) ∧ (x', y') ≠ (y, x)) as [Hn1 Hn2].
          { split; intros [= -> ->]; [done|]. apply (Hasym x y); [by left|by right]. }
          intros E1 E2. apply HC; [by right|..].
          - rewrite E1. split; [tauto|]. intros ?. split_and!; [done|..]; intros [-> ->]; done.
          - rewrite E2. split; [tauto|]. intros ?. split_and!; [done|..]; intros [-> ->]; done. }
        split_and!.
        * by rewrite I1.
        * intros a b. rewrite I2, Hp, (proj1 (undirect_spec g x y a b)). tauto.
        * intros a b. rewrite I3, Hp, (proj2 (undirect_spec g x y a b)). tauto.
      + assert (¬ D x y) as HD.
        { intros HD. apply Hc. by apply (HC x y g); [set_solver +|..]. }
        destruct (IH Hasym' Hnd g) as (I1 & I2 & I3).
        { intros x' y' h Hin. apply HC. by right. }
        split_and!; [done|..]; intros a b; rewrite Hp; [rewrite I2|rewrite I3]; tauto.
  Qed.

  Lemma comb2_asym {A} (l : list A) x y : NoDup l → (x, y) ∈ comb2 l → (y, x) ∉ comb2 l.
  Proof.
    induction l as [|z l IH]; intros Hnd; simpl; [set_solver|].
    apply NoDup_cons in Hnd as [Hz Hnd]. rewrite !elem_of_app, !elem_of_list_fmap.
    intros [(u & [= -> ->] & Hu)|Hxy] [(v & [= E1 E2] & Hv)|Hyx]; subst; try done.
    - apply comb2_elem in Hyx. tauto.
    - apply comb2_elem in Hxy. tauto.
    - by apply IH in Hyx.
  Qed.
  Lemma comb2_nodup {A} (l : list A) : NoDup l → NoDup (comb2 l).
  Proof.
    induction l as [|z l IH]; intros Hnd; simpl; [constructor|].
    apply NoDup_cons in Hnd as [Hz Hnd]. apply NoDup_app. split_and!.
    - apply NoDup_fmap_2; [|done]. by intros ? ? [= ->].
    - intros p. rewrite elem_of_list_fmap. intros (u & -> & Hu) Hp. apply comb2_elem in Hp. tauto.
    - by apply IH.
  Qed.

  Lemma picked_comb2 k V (D : node → node → Prop) a b : picked (comb2 (o k V)) D a b ↔ a ∈ V ∧ b ∈ V ∧ a ≠ b ∧ D a b.
  Proof.
    unfold picked. split.
    - intros [[H|H] ?]; apply comb2_iter in H as (? & ? & ?); try done; by split_and!.
    - intros (? & ? & ? & ?). split; [|done]. by apply comb2_iter.
  Qed.

  Lemma convert_bidirected_spec g ns : let V := default (mnodes g) ns in
    let g' := convert_bidirected_to_undirected o g ns in
    let D a b := a ∈ V ∧ b ∈ V ∧ a ≠ b ∧ darrow g a b ∧ darrow g b a in
    mnodes g' = mnodes g ∧ (∀ a b, darrow g' a b ↔ darrow g a b ∧ ¬ D a b) ∧
    (∀ a b, uline g' a b ↔ uline g a b ∨ D a b).
  Proof.
    cbn zeta. set (V := default (mnodes g) ns). unfold convert_bidirected_to_undirected. fold V.
    pose proof (iter_nodup o 223 V Ho) as Hnd.
    destruct (conv_fold (λ g x y, y ∈ mset g x Directed ∧ x ∈ mset g y Directed)
      (λ a b, darrow g a b ∧ darrow g b a) (comb2 (o 223 V))) with (g := g) as (H1 & H2 & H3).
    - tauto.
    - intros x y. by apply comb2_asym.
    - by apply comb2_nodup.
    - intros x y h _ E1 E2. unfold darrow, has_mark in *. rewrite E1, E2. tauto.
    - split_and!; [done|..]; intros a b; [rewrite (H2 a b)|rewrite (H3 a b)]; by rewrite picked_comb2.
  Qed.

  Lemma convert_undirected_spec g ns : let V := default (mnodes g) ns in
    let g' := convert_to_undirected o g ns in
    let D a b := a ∈ V ∧ b ∈ V ∧ a ≠ b ∧ (darrow g a b ∨ darrow g b a) in
    mnodes g' = mnodes g ∧ (∀ a b, darrow g' a b ↔ darrow g a b ∧ ¬ D a b) ∧
    (∀ a b, uline g' a b ↔ uline g a b ∨ D a b).
  Proof.
    cbn zeta. set (V := default (mnodes g) ns). unfold convert_to_undirected. fold V.
    pose proof (iter_nodup o 234 V Ho) as Hnd.
    destruct (conv_fold (λ g x y, y ∈ mset g x Directed ∨ x ∈ mset g y Directed)
      (λ a b, darrow g a b ∨ darrow g b a) (comb2 (o 234 V))) with (g := g) as (H1 & H2 & H3).
    - tauto.
    - intros x y. by apply comb2_asym.
    - by apply comb2_nodup.
    - intros x y h _ E1 E2. unfold darrow, has_mark in *. rewrite E1, E2. tauto.
    - split_and!; [done|..]; intros a b; [rewrite (H2 a b)|rewrite (H3 a b)]; by rewrite picked_comb2.
  Qed.
End conversions.
