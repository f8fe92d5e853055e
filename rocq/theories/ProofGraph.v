(** Proofs about ModelGraph.v. *)
From Verif Require Import Base BaseLemmas ModelGraph Spec Paths.

Section proofs.
  Context (o : order) (Ho : iter_ok o).

  Lemma upd_lookup g n s m : gadj (upd g n s) m = if decide (m = n) then s else gadj g m.
  Proof. done. Qed.

  (** ** Undirected reachability *)
  Definition aedge (g : graph) (V : nset) (a b : node) : Prop := b ∈ gadj g a ∧ b ∉ V.

  Lemma reach_split g V s a t : rtc (aedge g V) a t →
    rtc (aedge g (V ∪ {[s]})) a t ∨
    ∃ n, n ∈ gadj g s ∖ (V ∪ {[s]}) ∧ rtc (aedge g (V ∪ {[s]})) n t ∨ s = t.
  Proof.
    induction 1 as [a|a b t [Hab HbV] _ IH]; [by left|].
    destruct IH as [IH|(n & [[Hn Hr]|Hs])].
    - destruct (decide (b = s)) as [->|Hbs].
      + right. inversion IH as [|? n ? [Hn1 Hn2] Hr]; subst; [exists 0; by right|].
        exists n. left. split; [set_solver|done].
      + left. eapply rtc_l; [|done]. split; [done|set_solver].
    - right. exists n. by left.
    - right. exists n. by right.
  Qed.

  Lemma reach_enter g W D a t : rtc (aedge g W) a t →
    rtc (aedge g (W ∪ D)) a t ∨ ∃ d, d ∈ D ∧ rtc (aedge g W) d t.
  Proof.
    induction 1 as [a|a b t [Hab HbW] Hr IH]; [by left|].
    destruct IH as [IH|IH]; [|by right].
    destruct (decide (b ∈ D)) as [Hd|Hd]; [right; eauto|].
    left. eapply rtc_l; [|done]. split; [done|set_solver].
  Qed.

  Lemma reach_weaken g W D a t : rtc (aedge g (W ∪ D)) a t → rtc (aedge g W) a t.
  Proof.
    induction 1 as [a|a b t [Hab HbW] Hr IH]; [done|]. eapply rtc_l; [|done].
    split; [done|set_solver].
  Qed.

  Lemma is_reachable_spec g (Hwf : wf_graph g) t fuel V s :
    size (gnodes g ∖ (V ∪ {[s]})) < fuel → symmetric_graph g →
    returns (is_reachable o fuel g s t V) (λ b, b = true ↔ rtc (aedge g V) s t).
  Proof.
    intros Hf Hsym. revert V s Hf. induction fuel as [|fuel IH]; intros V s Hf; [lia|].
    simpl. destruct (decide (s = t)) as [->|Hst]; [done|].
    set (W := V ∪ {[s]}) in *.
    set (loop := fix loop (l : list node) (vis : nset) : res bool := _).
    assert (∀ l D, (∀ n, n ∈ l → n ∈ gadj g s ∖ W ∖ D) → NoDup l →
      (∀ d, d ∈ D → ¬ rtc (aedge g W) d t) →
      returns (loop l (W ∪ D)) (λ b, b = true ↔ ∃ n, n ∈ l ∧ rtc (aedge g W) n t)) as Hloop.
    { induction l as [|nb l IHl]; intros D Hl Hnd HD; simpl.
      - split; [done|]. set_solver.
      - apply NoDup_cons in Hnd as [Hnl Hnd].
        assert (nb ∈ gadj g s ∖ W ∖ D) as Hnb by (apply Hl; set_solver).
        assert (nb ∈ gnodes g) as HnbN.
        { apply (Hwf nb s). unfold edge. set_solver. }
        eapply returns_bind.
        + apply IH. eapply Nat.lt_le_trans; [|apply Nat.lt_succ_r, Hf].
          eapply (subset_size). set_solver.
        + intros [] Hb; simpl in *.
          * split; [|done]. intros _. exists nb. split; [set_solver|].
            eapply reach_weaken. by apply Hb.
          * assert (¬ rtc (aedge g W) nb t) as Hno.
            { intros Hr. destruct (reach_enter _ _ D _ _ Hr) as [Hr'|(d & Hd & Hr')].
              - by apply Hb in Hr'.
              - by apply (HD d). }
            rewrite <-(assoc_L (∪)).
            eapply returns_mono; [apply IHl; [|done|]|].
            -- intros n Hn. assert (n ≠ nb) by (intros ->; done).
               assert (n ∈ gadj g s ∖ W ∖ D) as Hn' by (apply Hl; by right). set_solver +Hn' H.
            -- intros d [?|Hd]%elem_of_union; [by apply HD|].
               apply elem_of_singleton in Hd as ->. done.
            -- intros b ->. split; [intros (n & ? & ?); exists n; set_solver|].
               intros (n & [->|?]%elem_of_cons & ?); [done|eauto]. }
    replace W with (W ∪ ∅) at 2 by set_solver.
    eapply returns_mono; [apply Hloop|].
    - intros n. rewrite iter_elem by done. set_solver.
    - by apply iter_nodup.
    - set_solver.
    - intros b ->. split.
      + intros (n & Hn & Hr). rewrite iter_elem in Hn by done.
        eapply rtc_l; [|by eapply reach_weaken]. split; set_solver.
      + intros Hr. destruct (reach_split _ _ s _ _ Hr) as [Hr'|(n & [[Hn Hr']|?])]; [| |done].
        * inversion Hr' as [|? n ? [Hn1 Hn2] Hr'']; subst; [done|].
          exists n. split; [apply iter_elem; set_solver|done].
        * exists n. split; [by apply iter_elem|done].
  Qed.

  (** ** Ancestors *)
  Lemma push_unvisited_spec ps : ∀ V0 S0, NoDup S0 → (∀ n, n ∈ S0 → n ∈ V0) → NoDup ps →
    let vs := foldl push_unvisited (V0, S0) ps in
    vs.1 = V0 ∪ list_to_set ps ∧
    (∀ n, n ∈ vs.2 ↔ n ∈ S0 ∨ (n ∈ ps ∧ n ∉ V0)) ∧ NoDup vs.2.
  Proof.
    induction ps as [|p ps IH]; intros V0 S0 HS HSV Hnd; simpl.
    - split_and!; [set_solver| |done]. set_solver.
    - apply NoDup_cons in Hnd as [Hp Hnd]. unfold push_unvisited at 2 4 6. simpl.
      destruct (decide (p ∈ V0)) as [HpV|HpV].
      + destruct (IH V0 S0 HS HSV Hnd) as (-> & H2 & H3). split_and!; [set_solver +HpV| |done].
        intros n. rewrite H2. set_solver +HpV.
      + destruct (IH (V0 ∪ {[p]}) (p :: S0)) as (-> & H2 & H3).
        { constructor; [|done]. intros ?. by apply HpV, HSV. }
        { set_solver. }
        { done. }
        split_and!; [set_solver +| |done]. intros n. rewrite H2.
        destruct (decide (n = p)) as [->|E]; [|set_solver +E]. set_solver +HpV.
  Qed.

  Lemma ancestor_loop_spec g (Hwf : wf_graph g) d t fuel : ∀ V stack,
    NoDup stack → (∀ n, n ∈ stack → n ∈ V) → V ⊆ gnodes g → d ∈ V → t ≠ d →
    (∀ n, n ∈ V → ancestor g n d) →
    (∀ n, n ∈ V → n ∉ stack → ∀ p, edge g p n → p ∈ V ∧ p ≠ t) →
    size (gnodes g ∖ V) + length stack < fuel →
    returns (ancestor_loop o fuel g t V stack) (λ b, b = true ↔ ancestor g t d).
  Proof.
    induction fuel as [|fuel IH]; intros V stack Hnd HSV HVg Hd Htd Hanc Hclosed Hf; [lia|].
    simpl. destruct stack as [|n stack].
    - simpl. split; [done|]. intros Ht. exfalso.
      assert (∀ u, ancestor g u d → u ∈ V ∧ u ≠ t) as Hall.
      { intros u Hu. unfold ancestor in Hu. induction Hu as [u|u v d Huv _ IHu].
        - done.
        - destruct IHu as [Hv _]; [done..|]. apply (Hclosed v Hv); [set_solver|done]. }
      by destruct (Hall t Ht).
    - destruct (decide (t ∈ parents g n)) as [Ht|Ht].
      + simpl. split; [|done]. intros _. eapply rtc_l; [exact Ht|]. apply Hanc, HSV. set_solver.
      + apply NoDup_cons in Hnd as [Hn Hnd].
        assert (n ∈ V) as HnV by (apply HSV; set_solver).
        destruct (push_unvisited_spec (o 95 (parents g n)) V stack) as (H1 & H2 & H3).
        { done. } { intros m Hm. apply HSV. set_solver. } { by apply iter_nodup. }
        set (vs := foldl push_unvisited (V, stack) (o 95 (parents g n))) in *.
        assert (list_to_set (o 95 (parents g n)) = parents g n) as Hps.
        { apply set_eq. intros m. rewrite elem_of_list_to_set. by apply iter_elem. }
        rewrite Hps in H1.
        assert (∀ m, m ∈ vs.2 ↔ m ∈ stack ∨ m ∈ parents g n ∖ V) as H2'.
        { intros m. rewrite H2, iter_elem by done. set_solver. }
        assert (parents g n ⊆ gnodes g) as Hpg.
        { intros p Hp. by apply (Hwf p n). }
        rewrite H1. apply IH; [done| | | |done| | |].
        * intros m [Hm|Hm]%H2'; [|set_solver +Hm]. apply elem_of_union_l, HSV. by right.
        * set_solver +HVg Hpg.
        * set_solver +Hd.
        * intros m [?|Hm]%elem_of_union; [by apply Hanc|]. eapply rtc_l; [exact Hm|]. by apply Hanc.
        * intros m Hm Hms p Hp.
          destruct (decide (m = n)) as [->|Hmn].
          { split; [by apply elem_of_union_r|]. intros ->. done. }
          assert (m ∈ V) as HmV.
          { destruct (decide (m ∈ V)); [done|]. exfalso. apply Hms, H2'. set_solver +Hm n0. }
          destruct (Hclosed m HmV) with (p := p) as [Hp1 Hp2]; [|done|split; [set_solver +Hp1|done]].
          intros Hms'. apply elem_of_cons in Hms' as [?|?]; [done|]. apply Hms, H2'. by left.
        * assert (length vs.2 = length stack + size (parents g n ∖ V)) as Hlen.
          { assert (vs.2 ≡ₚ stack ++ elements (parents g n ∖ V)) as ->.
            { apply NoDup_Permutation; [done| |].
              - apply NoDup_app. split_and!; [done| |apply NoDup_elements].
                intros m Hm. rewrite elem_of_elements. assert (m ∈ V) as HmV by (apply HSV; by right).
                set_solver +HmV.
              - intros m. rewrite H2', elem_of_app, elem_of_elements. done. }
            rewrite app_length. done. }
          rewrite Hlen. simpl in Hf.
          assert (size (gnodes g ∖ V) = size (gnodes g ∖ (V ∪ parents g n)) + size (parents g n ∖ V)) as Hsz.
          { rewrite <-size_union by set_solver +. f_equal. apply set_eq. intros m.
            destruct (decide (m ∈ parents g n)) as [E|E]; set_solver +E Hpg. }
          lia.
  Qed.

  Lemma is_ancestor_spec g fuel d t : wf_graph g → d ∈ gnodes g → size (gnodes g) < fuel →
    returns (is_ancestor o fuel g d t) (λ b, b = true ↔ ancestor g t d).
  Proof.
    intros Hwf Hd Hf. unfold is_ancestor. destruct (decide (d = t)) as [->|Hne];
      [simpl; split; [intros _; apply rtc_refl|done]|].
    apply (ancestor_loop_spec g Hwf d); [| | | |done| | |].
    - apply NoDup_singleton.
    - intros n. rewrite elem_of_list_singleton. set_solver +.
    - set_solver +Hd.
    - set_solver +.
    - intros n ->%elem_of_singleton. apply rtc_refl.
    - intros n Hn Hns. exfalso. apply Hns. apply elem_of_list_singleton. set_solver +Hn.
    - simpl. assert (gnodes g = {[d]} ∪ gnodes g ∖ {[d]}) as Heq.
      { apply set_eq. intros m. destruct (decide (m = d)); set_solver. }
      assert (size (gnodes g) = 1 + size (gnodes g ∖ {[d]})) as Hsz.
      { rewrite Heq at 1. rewrite size_union by set_solver. by rewrite size_singleton. }
      lia.
  Qed.

  Lemma ancestor_dec g t d : wf_graph g → ancestor g t d ∨ ¬ ancestor g t d.
  Proof.
    intros Hwf. destruct (decide (d ∈ gnodes g)) as [Hd|Hd].
    - pose proof (is_ancestor_spec g (S (size (gnodes g))) d t Hwf Hd) as H.
      destruct (is_ancestor o (S (size (gnodes g))) g d t) as [[]|e|]; simpl in H.
      + left. apply H; [lia|done].
      + right. intros Ha. apply H in Ha; [done|lia].
      + exfalso. apply H. lia.
      + exfalso. apply H. lia.
    - destruct (decide (t = d)) as [->|Hne]; [left; apply rtc_refl|].
      right. intros Ha. unfold ancestor in Ha. apply rtc_inv_r in Ha as [?|(c & _ & Hc)]; [done|].
      apply Hd. by apply (Hwf c d).
  Qed.

  Lemma cyclic_edge g a : tc (edge g) a a ↔ ∃ p, edge g p a ∧ ancestor g a p.
  Proof.
    split.
    - intros Ht. apply tc_rtc_r in Ht || idtac.
      inversion Ht as [? ? Hs|? b ? Hab Hba]; subst.
      + exists a. split; [done|apply rtc_refl].
      + assert (∀ u v, tc (edge g) u v → ∃ p, edge g p v ∧ rtc (edge g) u p) as Hgen.
        { clear. induction 1 as [u v Huv|u w v Huw _ (p & Hp & Hr)].
          - exists u. split; [done|apply rtc_refl].
          - exists p. split; [done|]. by eapply rtc_l. }
        apply Hgen. done.
    - intros (p & Hp & Hr). eapply tc_rtc_l; [exact Hr|]. by apply tc_once.
  Qed.

  Lemma is_acyclic_spec g fuel : wf_graph g → size (gnodes g) < fuel →
    returns (is_acyclic o fuel g) (λ b, b = true ↔ acyclic g).
  Proof.
    intros Hwf Hf. unfold is_acyclic. eapply returns_bind.
    - apply any_returns with (P := λ n, ∃ p, edge g p n ∧ ancestor g n p).
      intros n Hn. eapply returns_mono.
      + apply any_returns with (P := λ p, ancestor g n p).
        intros p Hp. rewrite iter_elem in Hp by done. apply is_ancestor_spec; [done| |done].
        by apply (Hwf p n).
      + intros b ->. split; intros (p & Hp & Ha); exists p; (split; [|done]).
        * by apply iter_elem in Hp.
        * by apply iter_elem.
    - intros b Hb. simpl. rewrite negb_true_iff. unfold acyclic. split.
      + intros -> a Ha. apply cyclic_edge in Ha. destruct Ha as (p & Hp & Hr).
        assert (false = true); [|done]. apply Hb. exists a.
        split; [|eauto]. apply iter_elem; [done|]. by apply (Hwf p a).
      + intros Hac. destruct b; [|done]. exfalso. destruct Hb as [Hb _].
        destruct (Hb eq_refl) as (a & _ & Ha). apply (Hac a). by apply cyclic_edge.
  Qed.

  (** the set of ancestors, for measures *)
  Definition anc_set (g : graph) (d : node) : nset :=
    filter (λ a, is_ancestor o (S (size (gnodes g))) g d a = Ok true) (gnodes g).

  Lemma elem_of_anc_set g d a : wf_graph g → d ∈ gnodes g →
    a ∈ anc_set g d ↔ ancestor g a d ∧ a ∈ gnodes g.
  Proof.
    intros Hwf Hd. unfold anc_set. rewrite elem_of_filter.
    pose proof (is_ancestor_spec g (S (size (gnodes g))) d a Hwf Hd) as H.
    destruct (is_ancestor o (S (size (gnodes g))) g d a) as [b|e|]; simpl in H.
    - rewrite <-H by lia. naive_solver.
    - exfalso. apply H. lia.
    - exfalso. apply H. lia.
  Qed.

  Lemma anc_set_lt g p d : wf_graph g → acyclic g → edge g p d →
    size (anc_set g p) < size (anc_set g d).
  Proof.
    intros Hwf Hac Hpd. destruct (Hwf p d Hpd) as [Hp Hd]. apply subset_size. split.
    - intros a. rewrite !elem_of_anc_set by done. intros [Ha ?]. split; [|done].
      eapply rtc_r; [exact Ha|done].
    - intros Hsub. assert (d ∈ anc_set g p) as Hdp.
      { apply Hsub. apply elem_of_anc_set; [done..|]. split; [apply rtc_refl|done]. }
      apply elem_of_anc_set in Hdp as [Hdp _]; [|done..].
      apply (Hac d). apply cyclic_edge. eauto.
  Qed.

  Lemma anc_set_le g d : size (anc_set g d) ≤ size (gnodes g).
  Proof. apply subseteq_size. unfold anc_set. intros a. rewrite elem_of_filter. tauto. Qed.

  Lemma is_ancestor_recursive_spec g t : wf_graph g → acyclic g →
    ∀ fuel d, d ∈ gnodes g → size (anc_set g d) ≤ fuel →
    returns (is_ancestor_recursive o fuel g d t) (λ b, b = true ↔ ancestor g t d).
  Proof.
    intros Hwf Hac. induction fuel as [|fuel IH]; intros d Hd Hf.
    - exfalso. assert (d ∈ anc_set g d) as Hin.
      { apply elem_of_anc_set; [done..|]. split; [apply rtc_refl|done]. }
      apply size_empty_inv in Hf || (assert (size (anc_set g d) = 0) as Hz by lia; apply size_empty_inv in Hz; set_solver).
    - simpl. destruct (decide (d = t)) as [->|Hne];
      [simpl; split; [intros _; apply rtc_refl|done]|].
      destruct (decide (size (parents g d) = 0)) as [Hz|Hz].
      + simpl. split; [done|]. intros Ha. apply rtc_inv_r in Ha as [?|(c & _ & Hc)]; [congruence|].
        apply size_empty_inv in Hz. unfold edge, parents in *. set_solver.
      + destruct (decide (t ∈ parents g d)) as [Ht|Ht].
        * simpl. split; [|done]. intros _. by apply rtc_once.
        * eapply returns_mono.
          -- apply any_returns with (P := λ p, ancestor g t p). intros p Hp.
             rewrite iter_elem in Hp by done.
             apply IH; [by apply (Hwf p d)|].
             pose proof (anc_set_lt g p d Hwf Hac Hp). lia.
          -- intros b ->. split.
             ++ intros (p & Hp & Ha). rewrite iter_elem in Hp by done.
                eapply rtc_r; [exact Ha|done].
             ++ intros Ha. apply rtc_inv_r in Ha as [?|(c & Hc & Hcd)]; [congruence|].
                exists c. split; [by apply iter_elem|done].
  Qed.

  (** ** get_ancestors *)
  Lemma anc_split g (cand ps : nset) n a : ps = parents g n ∩ cand →
    rtc (λ u v, edge g u v ∧ u ∈ cand) a n →
    a = n ∨ ∃ p, p ∈ ps ∧ rtc (λ u v, edge g u v ∧ u ∈ cand ∖ ps) a p.
  Proof.
    intros ->. induction 1 as [n|a b n [Hab Hac] _ IH]; [by left|]. right.
    destruct IH as [->|(p & Hp & Hr)].
    - exists a. split; [unfold parents, edge in *; set_solver|done].
    - destruct (decide (a ∈ parents g n ∩ cand)) as [Ha|Ha]; [by exists a|].
      exists p. split; [done|]. eapply rtc_l; [|done]. split; [done|set_solver].
  Qed.

  Lemma get_ancestors_spec g fuel : ∀ n cand, size cand < fuel →
    returns (get_ancestors o fuel g n cand)
      (λ S, ∀ a, a ∈ S ↔ rtc (λ u v, edge g u v ∧ u ∈ cand) a n).
  Proof.
    induction fuel as [|fuel IH]; intros n cand Hf; [lia|]. simpl.
    set (ps := parents g n ∩ cand).
    destruct (decide (size ps = 0)) as [Hz|Hz].
    - simpl. intros a. rewrite elem_of_singleton. split; [by intros ->|].
      intros Hr. destruct (anc_split g cand ps n a) as [?|(p & Hp & _)]; [done|done|done|].
      apply size_empty_inv in Hz. set_solver.
    - eapply returns_bind.
      + apply (for_returns_pre _ _ _ (λ pre S, ∀ a, a ∈ S ↔
          ∃ p, p ∈ pre ∧ rtc (λ u v, edge g u v ∧ u ∈ cand ∖ ps) a p)).
        { set_solver. }
        intros pre p post S Hl HS. 
        assert (p ∈ ps) as Hp.
        { eapply iter_elem; [done|]. rewrite Hl. set_solver. }
        eapply returns_bind.
        * apply IH. eapply Nat.lt_le_trans; [|apply Nat.lt_succ_r, Hf].
          apply subset_size. set_solver.
        * intros T HT. simpl in *. intros a. rewrite elem_of_union, HS, HT. set_solver.
      + intros S HS. simpl in *. intros a. rewrite elem_of_union, elem_of_singleton, HS. split.
        * intros [(p & Hp & Hr)| ->]; [|done].
          rewrite iter_elem in Hp by done.
          eapply rtc_r with p; [|unfold ps, edge, parents in *; set_solver].
          eapply rtc_subrel; [|exact Hr]. set_solver.
        * intros Hr. destruct (anc_split g cand ps n a) as [?|(p & Hp & Hr')]; [done|done|by right|].
          left. exists p. split; [by apply iter_elem|done].
  Qed.

  Lemma get_ancestors_all g fuel n : wf_graph g → size (gnodes g) < fuel →
    returns (get_ancestors o fuel g n (gnodes g)) (λ S, ∀ a, a ∈ S ↔ ancestor g a n).
  Proof.
    intros Hwf Hf. eapply returns_mono; [by apply get_ancestors_spec|].
    intros S HS a. cbn in HS. rewrite HS. split; intros Hr; (eapply rtc_subrel; [|exact Hr]).
    - by intros u v [? _].
    - intros u v Huv. split; [done|]. by apply (Hwf u v).
  Qed.
End proofs.
