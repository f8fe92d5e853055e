(** Reachability searches of PAG: possible ancestors, paths over any edges. *)
From Verif Require Import Base BaseLemmas ModelGraph ModelMixed ModelPAG Spec SpecMixed SpecPAG Paths ProofMixed ProofMixed2 ProofPAG.

(** the common shape of the recursive searches *)
Section dfs.
  Context (o : order) (Ho : iter_ok o) (k : nat) (nb : node → nset → nset).
  Context (R : node → node → Prop) (Hnb : ∀ s en v, v ∈ nb s en ↔ v ∈ en ∧ R s v).

  Fixpoint gdfs (fuel : nat) (s t : node) (en : nset) : res bool :=
    match fuel with
    | 0 => Diverges
    | S fuel =>
      let ch := nb s en in
      if decide (t ∈ ch) then Ok true else
      (fix loop (l : list node) (en : nset) : res bool :=
         match l with
         | [] => Ok false
         | c :: l =>
           let en := en ∖ {[c]} in
           b ← gdfs fuel c t en; if (b : bool) then Ok true else loop l en
         end) (o k ch) (en ∖ {[s]})
    end.

  Definition reach (en : nset) (s t : node) : Prop := tc (λ u v, R u v ∧ v ∈ en) s t.

  Lemma reach_mono en en' s t : en ⊆ en' → reach en s t → reach en' s t.
  Proof. intros H. apply tc_mono. intros a b [? ?]. split; [done|]. by apply H. Qed.

  (** the last child on a simple path *)
  Lemma last_in (P : nset) (l : list nat) : (∃ x, x ∈ l ∧ x ∈ P) →
    ∃ l1 c l2, l = l1 ++ c :: l2 ∧ c ∈ P ∧ ∀ v, v ∈ l2 → v ∉ P.
  Proof.
    induction l as [|x l IH]; intros (y & Hy & HP); [set_solver|].
    destruct (decide (Exists (λ z, z ∈ P) l)) as [He|He].
    - rewrite Exists_exists in He. destruct (IH He) as (l1 & c & l2 & -> & ? & ?). by exists (x :: l1), c, l2.
    - assert (∀ v, v ∈ l → v ∉ P) as Hn by (intros v Hv HvP; apply He, Exists_exists; eauto).
      exists [], x, l. split_and!; [done| |done]. apply elem_of_cons in Hy as [->|Hy]; [done|]. by destruct (Hn y Hy).
  Qed.

  Lemma gdfs_ok fuel : ∀ s t en, s ≠ t → size en < fuel →
    returns (gdfs fuel s t en) (λ b, b = true ↔ reach en s t).
  Proof.
    induction fuel as [|fuel IH]; intros s t en Hst Hf; [lia|]. cbn [gdfs].
    destruct (decide (t ∈ nb s en)) as [Ht|Ht].
    { simpl. split; [|done]. intros _. apply tc_once. apply Hnb in Ht. tauto. }
    match goal with |- returns (?f _ _) _ => set (loop := f) end.
    set (ch := nb s en) in *.
    assert (∀ l en', en' ⊆ en → (∀ c, c ∈ l → c ∈ ch) →
      returns (loop l en') (λ b, b = true ↔ ∃ l1 c l2, l = l1 ++ c :: l2 ∧ reach (en' ∖ list_to_set l1 ∖ {[c]}) c t)) as Hloop.
    { induction l as [|c l IHl]; intros en' Hen Hl; subst loop; cbn beta iota.
      { simpl. split; [done|]. intros ([] & ? & ? & ? & _); done. }
      assert (c ∈ ch) as Hc by (apply Hl; set_solver +). assert (c ∈ en) as Hce by (by apply Hnb in Hc as [? ?]).
      eapply returns_bind; [apply IH|].
      { intros ->. done. }
      { enough (size (en' ∖ {[c]}) < size en) by lia. apply subset_size. set_solver. }
      intros b Hb. cbn beta in Hb. destruct b.
      { simpl. split; [|done]. intros _. exists [], c, l. split; [done|]. eapply reach_mono; [|by apply Hb]. set_solver +. }
      eapply returns_mono; [apply IHl; set_solver|]. cbn beta. intros b' Hb'. rewrite Hb'. split.
      - intros (l1 & c' & l2 & -> & Hr). exists (c :: l1), c', l2. split; [done|].
        eapply reach_mono; [|exact Hr]. simpl. set_solver +.
      - intros (l1 & c' & l2 & E & Hr). destruct l1 as [|c1 l1]; simplify_eq/=.
        + assert (false = true); [|done]. apply Hb. eapply reach_mono; [|exact Hr]. set_solver +.
        + exists l1, c', l2. split; [done|]. eapply reach_mono; [|exact Hr]. set_solver +. }
    eapply returns_mono; [apply Hloop; [set_solver +|intros c; by rewrite iter_elem]|]. cbn beta.
    intros b Hb. rewrite Hb. split.
    - intros (l1 & c & l2 & E & Hr). assert (c ∈ ch) as Hc. { rewrite <-(iter_elem o k ch c Ho), E. set_solver +. }
      apply Hnb in Hc as [? ?]. eapply tc_l; [done|]. eapply reach_mono; [|exact Hr]. set_solver +.
    - intros Hr. apply tc_rtc in Hr. apply rtc_path in Hr as (p & Hh & Hl & Hnd & Hlk).
      destruct p as [|s0 p]; [done|]. simpl in Hh. injection Hh as ->.
      destruct p as [|c0 p]; [simpl in Hl; congruence|]. set (q := c0 :: p) in *.
      assert (c0 ∈ ch) as Hc0. { apply linked_cons in Hlk as [[? ?] _]. by apply Hnb. }
      destruct (last_in ch q) as (l1 & c & l2 & Eq & Hc & Hl2). { exists c0. split; [set_solver +|done]. }
      assert (c ∈ o k ch) as Hin by (by rewrite iter_elem). apply elem_of_list_split in Hin as (k1 & k2 & Ek).
      exists k1, c, k2. split; [done|].
      assert (last (c :: l2) = Some t) as Hlast.
      { rewrite <-Hl. change (s :: q) with ([s] ++ q). rewrite Eq. rewrite app_assoc. by rewrite last_app_cons. }
      assert (linked (λ u v, R u v ∧ v ∈ en ∖ {[s]} ∖ list_to_set k1 ∖ {[c]}) (c :: l2)) as Hlk2.
      { intros m1 u v m2 E. destruct (Hlk (s :: l1 ++ m1) u v m2) as [? Hv].
        { change (s :: q) with ([s] ++ q). rewrite Eq, E. simpl. by rewrite <-app_assoc. }
        split; [done|]. assert (v ∈ l2) as Hv2 by (destruct m1; simplify_eq/=; set_solver +).
        assert (v ∉ ch) as Hvch by by apply Hl2.
        assert (v ≠ s). { intros ->. apply NoDup_cons in Hnd as [Hs _]. apply Hs. rewrite Eq. set_solver +Hv2. }
        assert (v ∉ (list_to_set k1 : nset)).
        { rewrite elem_of_list_to_set. intros Hk. apply Hvch. rewrite <-(iter_elem o k ch v Ho), Ek. set_solver +Hk. }
        assert (v ≠ c) by congruence. set_solver. }
      destruct l2 as [|v l2]; [simpl in Hlast; injection Hlast as ->; done|].
      apply linked_cons in Hlk2 as [H1 H2]. eapply tc_rtc_r; [apply tc_once, H1|]. eapply walk_rtc; [| |exact H2]; [done|].
      by rewrite last_cons_cons in Hlast.
  Qed.
End dfs.

Lemma reach_path (R : node → node → Prop) en s t : s ≠ t →
  reach R en s t ↔ ∃ p, is_path R s t p ∧ ∀ v, v ∈ p → v ≠ s → v ∈ en.
Proof.
  intros Hne. split.
  - intros Hr. apply tc_rtc in Hr. apply rtc_path in Hr as (p & Hh & Hl & Hnd & Hlk). exists p. split.
    + split_and!; try done. eapply linked_impl; [exact Hlk|]. by intros ? ? [? ?].
    + intros v Hv Hvs. apply elem_of_list_split in Hv as (l1 & l2 & ->). destruct (rev_case l1) as [->|(l1' & u & ->)].
      * simpl in Hh. congruence.
      * destruct (Hlk l1' u v l2) as [_ ?]; [by rewrite <-app_assoc|done].
  - intros (p & (Hh & Hl & Hnd & Hlk) & Hin). destruct p as [|s0 p]; [done|]. simpl in Hh. injection Hh as ->.
    destruct p as [|v p]; [simpl in Hl; congruence|].
    assert (linked (λ u v, R u v ∧ v ∈ en) (s :: v :: p)) as Hlk'.
    { intros l1 a b l2 E. split; [by eapply Hlk|]. apply NoDup_cons in Hnd as [Hns _].
      assert (b ∈ v :: p) as Hb.
      { destruct l1 as [|? l1]; simpl in E; injection E as E1 E2; [|rewrite E2; set_solver +]. simplify_eq. set_solver +. }
      apply Hin; [set_solver +Hb|]. by intros ->. }
    apply linked_cons in Hlk' as [H1 H2]. eapply tc_rtc_r; [apply tc_once, H1|]. eapply walk_rtc; [| |exact H2]; [done|].
    by rewrite last_cons_cons in Hl.
Qed.

Section searches.
  Context (o : order) (Ho : iter_ok o) (g : mgraph) (Hwf : mg_wf g).

  Lemma is_possible_ancestor_gdfs fuel : ∀ a d en,
    is_possible_ancestor o fuel g a d en = gdfs o 469 (λ a en, find_possible_children o g a (Some en)) fuel a d en.
  Proof.
    induction fuel as [|fuel IH]; intros a d en; [done|]. cbn [is_possible_ancestor gdfs].
    destruct (decide _); [done|]. generalize (o 469 (find_possible_children o g a (Some en))) as l, (en ∖ {[a]}) as en'.
    induction l as [|c l IHl]; intros en'; [done|]. rewrite IH. destruct (gdfs _ _ _ _ _ _ _) as [[]|e|]; [done| |done..].
    cbn [mbind res_bind]. apply IHl.
  Qed.
  Lemma is_possible_ancestor_ok fuel a d en : a ≠ d → size en < fuel →
    returns (is_possible_ancestor o fuel g a d en) (λ b, b = true ↔ ∃ p, is_path (pd_edge g) a d p ∧ ∀ v, v ∈ p → v ≠ a → v ∈ en).
  Proof.
    intros Hne Hf. rewrite is_possible_ancestor_gdfs. eapply returns_mono; [apply gdfs_ok with (R := pd_edge g); [done| |done..]|].
    - intros s en' v. by rewrite elem_possible_children.
    - cbn beta. intros b ->. by apply reach_path.
  Qed.

  Lemma is_reachable_any_gdfs fuel : ∀ a d en,
    is_reachable_any o fuel g a d en = gdfs o 439 (λ a en, find_adj PAG_T g a (Some en) None) fuel a d en.
  Proof.
    induction fuel as [|fuel IH]; intros a d en; [done|]. cbn [is_reachable_any gdfs].
    destruct (decide _); [done|].
    generalize (o 439 (find_adj PAG_T g a (Some en) None)) as l, ({[a]} : nset) as past.
    induction l as [|c l IHl]; intros past; [done|]. rewrite IH.
    assert (en ∖ (past ∪ {[c]}) = en ∖ past ∖ {[c]}) as -> by set_solver +.
    destruct (gdfs _ _ _ _ _ _ _) as [[]|e|]; [done| |done..].
    cbn [mbind res_bind]. rewrite IHl. f_equal. set_solver +.
  Qed.
  Lemma is_reachable_any_ok fuel a d en : a ≠ d → size en < fuel →
    returns (is_reachable_any o fuel g a d en) (λ b, b = true ↔ ∃ p, is_path (mg_adj g) a d p ∧ ∀ v, v ∈ p → v ≠ a → v ∈ en).
  Proof.
    intros Hne Hf. rewrite is_reachable_any_gdfs. eapply returns_mono; [apply gdfs_ok with (R := mg_adj g); [done| |done..]|].
    - intros s en' v. rewrite elem_find_adj_pag. split; intros [? ?]; (split; [done|by apply mg_adj_sym] || (split; [by apply mg_adj_sym|done])).
    - cbn beta. intros b ->. by apply reach_path.
  Qed.
  Lemma which_reachable_any_ok fuel (X : nset) t en : let V := default (mnodes g) en in t ∉ X → size V < fuel →
    returns (which_reachable_any o fuel g X t en) (λ S, ∀ v, v ∈ S ↔ v ∈ X ∧ ∃ p, is_path (mg_adj g) v t p ∧ ∀ w, w ∈ p → w ≠ v → w ∈ V).
  Proof.
    intros V Ht Hf. unfold which_reachable_any. eapply returns_mono; [apply filter_returns with
      (P := λ v, ∃ p, is_path (mg_adj g) v t p ∧ ∀ w, w ∈ p → w ≠ v → w ∈ V)|].
    - intros x Hx. rewrite iter_elem in Hx by done. apply is_reachable_any_ok; [by intros ->|done].
    - cbn beta. intros T HT v. by rewrite HT, iter_elem.
  Qed.

  (** v is one of ds or has a possibly directed path inside V to one of them *)
  Definition poss_anc (V : nset) (v d : node) : Prop :=
    v = d ∨ (v ∈ V ∧ ∃ p, is_path (pd_edge g) v d p ∧ ∀ w, w ∈ p → w ≠ v → w ∈ V).

  Lemma find_possible_ancestors_ok fuel ds en : let V := default (mnodes g) en in size V < fuel →
    returns (find_possible_ancestors o fuel g ds en) (λ S, ∀ v, v ∈ S ↔ ∃ d, d ∈ ds ∧ poss_anc V v d).
  Proof.
    intros V Hf. unfold find_possible_ancestors. fold V.
    eapply returns_mono; [apply (for_returns_pre ds _ _ (λ pre S, ∀ v, v ∈ S ↔ v ∈ ds ∨ ∃ d, d ∈ pre ∧ poss_anc V v d))|].
    - intros v. rewrite elem_of_list_to_set. set_solver +.
    - intros pre d post anc E Hanc.
      eapply returns_mono; [apply (for_returns_pre _ _ _ (λ pre' S, ∀ v, v ∈ S ↔ v ∈ anc ∨ (v ∈ pre' ∧ poss_anc V v d)))|].
      + set_solver +.
      + intros pre' v post' S E' HS. assert (v ∈ V ∖ anc) as Hv. { rewrite <-(iter_elem o 523 (V ∖ anc) v Ho), E'. set_solver +. }
        assert (v ≠ d) as Hvd. { intros ->. apply elem_of_difference in Hv as [_ Hv]. apply Hv, Hanc. left. rewrite E. set_solver +. }
        eapply returns_bind; [by apply is_possible_ancestor_ok|]. intros b Hb. cbn beta in Hb. simpl. intros w.
        assert (b = true ↔ poss_anc V v d) as Hb'.
        { rewrite Hb. unfold poss_anc. split; [intros H; right; split; [set_solver +Hv|done]|]. intros [?|[_ H]]; done. }
        rewrite elem_of_app, elem_of_list_singleton. destruct b.
        * rewrite elem_of_union, elem_of_singleton, HS. naive_solver.
        * rewrite HS. naive_solver.
      + cbn beta. intros S HS v. rewrite HS, Hanc, iter_elem by done. setoid_rewrite elem_of_app. setoid_rewrite elem_of_list_singleton.
        split; [naive_solver|]. intros [?|(d' & [Hd| ->] & Hp)]; [tauto|naive_solver|].
        destruct (decide (v ∈ anc)) as [Hva|Hva]; [left; by apply Hanc|]. destruct Hp as [->|[HvV Hp]].
        * left. left. rewrite E. set_solver +.
        * right. split; [set_solver|]. right. done.
    - cbn beta. intros S HS v. rewrite HS. split; [|tauto]. intros [?|?]; [|done]. exists v. split; [done|]. by left.
  Qed.
End searches.
