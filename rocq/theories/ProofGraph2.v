(** Proofs about topological orders, adjacency matrices and elementary queries of dag.py,
    and the order-insensitivity facts about d-separation. *)
From Verif Require Import Base BaseLemmas ModelGraph Spec Paths MSepTheory ProofGraph ProofDsep.

(** ** d-separation as a relation *)
Lemma linked_rev (R : nat → nat → Prop) p : (∀ a b, R a b → R b a) → linked R p → linked R (reverse p).
Proof.
  intros Hsym H l1 a b l2 Heq. apply Hsym.
  apply (H (reverse l2) b a (reverse l1)).
  rewrite <-(reverse_involutive p), Heq, reverse_app, !reverse_cons, <-!app_assoc. done.
Qed.

Lemma is_path_rev (R : nat → nat → Prop) x y p : (∀ a b, R a b → R b a) →
  is_path R x y p → is_path R y x (reverse p).
Proof.
  intros Hsym (Hh & Hl & Hnd & Hlk). split_and!.
  - destruct (rev_case p) as [->|(p' & z & ->)]; [done|]. rewrite last_snoc in Hl.
    by rewrite reverse_app.
  - destruct p as [|z p]; [done|]. by rewrite reverse_cons, last_snoc.
  - by rewrite reverse_Permutation.
  - by apply linked_rev.
Qed.

Lemma active_rev g Z p : active g Z p → active g Z (reverse p).
Proof.
  intros H l1 a b c l2 Heq.
  destruct (H (reverse l2) c b a (reverse l1)) as [H1 H2].
  { rewrite <-(reverse_involutive p), Heq, reverse_app, !reverse_cons, <-!app_assoc. done. }
  unfold collider in *. split; intros ?; [apply H1|apply H2]; tauto.
Qed.

Lemma adjacent_sym g a b : adjacent g a b → adjacent g b a.
Proof. unfold adjacent. tauto. Qed.

Lemma d_separated_sym g x y Z : d_separated g x y Z → d_separated g y x Z.
Proof.
  intros H (p & Hp & Ha). apply H. exists (reverse p). split.
  - apply is_path_rev; [apply adjacent_sym|done].
  - by apply active_rev.
Qed.

Lemma d_separated_set g x y Z Z' : (∀ z, z ∈ Z ↔ z ∈ Z') → d_separated g x y Z ↔ d_separated g x y Z'.
Proof.
  intros HZ. unfold d_separated, active. setoid_rewrite HZ. done.
Qed.

Lemma adjacent_not_dsep g x y Z : x ≠ y → adjacent g x y → ¬ d_separated g x y Z.
Proof.
  intros Hne Ha H. apply H. exists [x; y]. unfold is_path. split_and!; try done.
  - apply NoDup_cons. split; [by rewrite elem_of_list_singleton|apply NoDup_singleton].
  - apply linked_cons. split; [done|apply linked_one].
  - intros l1 a b c l2 Heq. destruct l1 as [|? [|? [|]]]; done.
Qed.

(** a path that leaves its start forward reaches a descendant or a collider below *)
Lemma active_forward g Z x : ∀ p u v y, ancestor g x u → edge g u v →
  last (v :: p) = Some y →
  linked (adjacent g) (u :: v :: p) → active g Z (u :: v :: p) →
  ancestor g x y ∨ ∃ z, z ∈ Z ∧ tc (edge g) x z.
Proof.
  induction p as [|w p IH]; intros u v y Hu Huv Hl Hlk Ha.
  - simpl in Hl. simplify_eq. left. by eapply rtc_r.
  - apply linked_cons in Hlk as [_ Hlk]. pose proof Hlk as Hlk'.
    apply linked_cons in Hlk as [Hvw Hlk].
    destruct (edge_dec g w v) as [Hwv|Hwv].
    + destruct (Ha [] u v w p eq_refl) as [Hc _].
      destruct Hc as (z & Hz & Hvz); [by split|]. right. exists z. split; [done|].
      eapply tc_rtc_l; [exact Hu|]. eapply tc_rtc_r; [by apply tc_once|exact Hvz].
    + apply (IH v w y).
      * by eapply rtc_r.
      * destruct Hvw; [done|contradiction].
      * done.
      * done.
      * intros l1 a b c l2 Heq. apply (Ha (u :: l1) a b c l2). by rewrite Heq.
Qed.

Lemma local_markov g x y Z : acyclic g → x ≠ y → ¬ adjacent g x y → ¬ ancestor g x y →
  (∀ z, z ∈ Z ↔ edge g z x) → d_separated g x y Z.
Proof.
  intros Hac Hne Hadj Hanc HZ (p & (Hh & Hl & Hnd & Hlk) & Ha).
  destruct p as [|x0 [|v p]]; simplify_eq/=. 
  pose proof Hlk as Hlk'. apply linked_cons in Hlk as [Hxv Hlk].
  destruct (edge_dec g v x) as [Hvx|Hvx].
  - destruct p as [|w p]; [simpl in Hl; simplify_eq; by apply Hadj; right|].
    destruct (Ha [] x v w p eq_refl) as [_ Hnc]. apply Hnc; [|by apply HZ].
    intros [Hx _]. by apply (acyclic_anti g x v).
  - destruct Hxv as [Hxv|?]; [|done].
    destruct (active_forward g Z x p x v y (rtc_refl _ _) Hxv) as [?|(z & Hz & Hxz)]; try done.
    apply HZ in Hz. apply (Hac x). eapply tc_r; [exact Hxz|done].
Qed.

(** non-adjacent nodes are separated by the parents of one of them *)
Lemma nonadjacent_separated g x y : wf_graph g → acyclic g → x ≠ y → ¬ adjacent g x y →
  d_separated g x y (elements (gadj g x)) ∨ d_separated g x y (elements (gadj g y)).
Proof.
  intros Hwf Hac Hne Hadj.
  destruct (ancestor_dec ord_up ord_up_ok g x y Hwf) as [Hxy|Hxy].
  - right. apply d_separated_sym. apply local_markov; [done|done| | |].
    + intros [?|?]; apply Hadj; [by right|by left].
    + intros Hyx. apply rtc_inv in Hxy as [?|(w & Hxw & Hwy)]; [done|].
      apply (Hac x). eapply tc_rtc_r; [by apply tc_once|]. by etrans.
    + intros z. by rewrite elem_of_elements.
  - left. apply local_markov; try done. intros z. by rewrite elem_of_elements.
Qed.

(** ** finite graphs without sinks have cycles *)
Lemma no_sink_walk (R : nat → nat → Prop) (V : nset) a n : a ∈ V →
  (∀ a, a ∈ V → ∃ b, b ∈ V ∧ R a b) →
  ∃ w, length w = S n ∧ head w = Some a ∧ linked R w ∧ ∀ v, v ∈ w → v ∈ V.
Proof.
  intros Ha HV. revert a Ha. induction n as [|n IH]; intros a Ha.
  - exists [a]. split_and!; [done|done|apply linked_one|]. by intros v ->%elem_of_list_singleton.
  - destruct (HV a Ha) as (b & Hb & Hab). destruct (IH b Hb) as (w & Hw & Hh & Hlk & HwV).
    exists (a :: w). destruct w as [|b' w]; [done|]. simpl in Hh. simplify_eq.
    split_and!; [simpl in *; lia|done|by apply linked_cons|].
    intros v [->|?]%elem_of_cons; auto.
Qed.

Lemma walk_tc (R : nat → nat → Prop) a b l : linked R (a :: l ++ [b]) → tc R a b.
Proof.
  revert a. induction l as [|c l IH]; intros a H; simpl in H.
  - apply linked_cons in H as [? _]. by apply tc_once.
  - apply linked_cons in H as [? ?]. eapply tc_l; [done|]. by apply IH.
Qed.

Lemma no_sink_cycle (R : nat → nat → Prop) (V : nset) : V ≠ ∅ →
  (∀ a, a ∈ V → ∃ b, b ∈ V ∧ R a b) → ∃ a, a ∈ V ∧ tc R a a.
Proof.
  intros Hne HV. apply set_choose_L in Hne as (a & Ha).
  destruct (no_sink_walk R V a (size V) Ha HV) as (w & Hlen & _ & Hlk & HwV).
  destruct (decide (NoDup w)) as [Hnd|Hnd].
  - exfalso. assert (size (list_to_set w : nset) ≤ size V) as Hs.
    { apply subseteq_size. intros v. rewrite elem_of_list_to_set. apply HwV. }
    rewrite size_list_to_set in Hs by done. lia.
  - apply dup_split in Hnd as (v & l1 & l2 & l3 & ->). exists v. split; [apply HwV; set_solver|].
    apply linked_app_r in Hlk. rewrite app_comm_cons in Hlk.
    replace ((v :: l2) ++ v :: l3) with ((v :: l2 ++ [v]) ++ l3) in Hlk
      by by rewrite <-!app_comm_cons, <-app_assoc.
    apply linked_app_l in Hlk. by eapply walk_tc.
Qed.

Section topo.
  Context (o : order) (Ho : iter_ok o).

  Lemma parents_fold g en l S0 a :
    a ∈ foldl (λ acc n, acc ∪ (parents g n ∩ en)) S0 l ↔
    a ∈ S0 ∨ ∃ n, n ∈ l ∧ edge g a n ∧ a ∈ en.
  Proof.
    revert S0. induction l as [|n l IH]; intros S0; simpl.
    - set_solver +.
    - rewrite IH. unfold edge, parents. set_solver +.
  Qed.

  Lemma topological_groups_spec g fuel : ∀ en, size en < fuel →
    (∃ gs, topological_groups o fuel g en = Ok gs ∧ group_order g en gs ∧ ∀ a, ¬ tc (sub_edge g en) a a) ∨
    (topological_groups o fuel g en = Raise AssertionError ∧ ∃ a, tc (sub_edge g en) a a).
  Proof.
    induction fuel as [|fuel IH]; intros en Hf; [lia|]. simpl.
    destruct (decide (size en = 0)) as [Hz|Hz].
    { left. exists []. apply size_empty_inv in Hz. split_and!; [done| |].
      - split_and!.
        + intros n. split; [set_solver +Hz|]. intros (i & G & HG & _). done.
        + intros n i j G G' HG. done.
        + intros a b i j G G' HG. done.
      - intros a Ht. destruct Ht as [? ? (_ & Ha & _)|? ? ? (_ & Ha & _)]; rewrite Hz in Ha; set_solver +Ha. }
    set (ps := foldl (λ acc n, acc ∪ (parents g n ∩ en)) ∅ (o 250 en)).
    assert (∀ a, a ∈ ps ↔ a ∈ en ∧ ∃ n, n ∈ en ∧ edge g a n) as Hps.
    { intros a. unfold ps. rewrite parents_fold. setoid_rewrite (iter_elem o 250 en _ Ho).
      split; [intros [Ha|(n & ? & ? & ?)]; [by apply elem_of_empty in Ha|eauto]|].
      intros (? & n & ? & ?). right. eauto. }
    clearbody ps.
    assert (ps ⊆ en) as Hsub by (intros a Ha; by apply Hps).
    assert (∀ a, tc (sub_edge g en) a a → tc (sub_edge g ps) a a) as Hcyc.
    { assert (∀ a b, tc (sub_edge g en) a b → b ∈ ps → tc (sub_edge g ps) a b) as Hgen.
      { induction 1 as [a b (Hab & Ha & Hb)|a c b (Hac & Ha & Hc) Hcb IHc]; intros Hbp.
        - apply tc_once. split_and!; [done| |done]. apply Hps. eauto.
        - eapply tc_l; [|by apply IHc]. split_and!; [done| |].
          + apply Hps. eauto.
          + inversion Hcb as [? ? (? & ? & ?)|? ? ? (? & ? & ?)]; subst; apply Hps; eauto. }
      intros a Ha. apply Hgen; [done|].
      inversion Ha as [? ? (? & ? & ?)|? ? ? (? & ? & ?)]; subst; apply Hps; eauto. }
    unfold assert_. destruct (bool_decide (0 < size (en ∖ ps))) eqn:Hb.
    - apply bool_decide_eq_true in Hb. simpl.
      assert (size ps < fuel) as Hf'.
      { assert (size en = size ps + size (en ∖ ps)) as Hs.
        { rewrite <-size_union by set_solver +. f_equal. apply set_eq. intros a.
          destruct (decide (a ∈ ps)) as [E|E]; set_solver +E Hsub. }
        lia. }
      destruct (IH ps Hf') as [(gs & -> & (G1 & G2 & G3) & Hno)|(-> & a & Ha)].
      + left. simpl. eexists. split; [done|]. split.
        * assert (∀ i G, (gs ++ [en ∖ ps]) !! i = Some G →
             (gs !! i = Some G ∧ i < length gs) ∨ (i = length gs ∧ G = en ∖ ps)) as Hlk.
          { intros i G Hi. apply lookup_app_Some in Hi as [Hi|[Hi Hi']].
            - left. split; [done|]. by eapply lookup_lt_Some.
            - right. destruct (i - length gs) as [|k] eqn:E; [|done].
              simpl in Hi'. split; [lia|congruence]. }
          split_and!.
          -- intros n. split.
             ++ intros Hn. destruct (decide (n ∈ ps)) as [Hp|Hp].
                ** apply G1 in Hp as (i & G & ? & ?). exists i, G. split; [|done].
                   by apply lookup_app_l_Some.
                ** exists (length gs), (en ∖ ps). rewrite lookup_app_r, Nat.sub_diag by done.
                   split; [done|set_solver +Hn Hp].
             ++ intros (i & G & [[Hi _]|[-> ->]]%Hlk & Hn); [|set_solver +Hn].
                apply Hsub, G1. eauto.
          -- intros n i j G G' Hi Hj Hn Hn'.
             apply Hlk in Hi as [[Hi Hi']|[-> ->]]; apply Hlk in Hj as [[Hj Hj']|[-> ->]].
             ++ by eapply G2.
             ++ exfalso. assert (n ∈ ps) by (apply G1; eauto). set_solver.
             ++ exfalso. assert (n ∈ ps) by (apply G1; eauto). set_solver.
             ++ done.
          -- intros a b i j G G' Hi Hj Ha Hb' Hab.
             apply Hlk in Hi as [[Hi Hi']|[-> ->]]; apply Hlk in Hj as [[Hj Hj']|[-> ->]].
             ++ by eapply G3.
             ++ done.
             ++ exfalso. assert (b ∈ ps) as Hbp by (apply G1; eauto).
                apply elem_of_difference in Ha as [Ha Hap]. apply Hap, Hps.
                split; [done|]. exists b. split; [by apply Hsub|done].
             ++ exfalso. apply elem_of_difference in Ha as [Ha Hap].
                apply elem_of_difference in Hb' as [Hb' _]. apply Hap, Hps. eauto.
        * intros a Ha. by eapply Hno, Hcyc.
      + right. simpl. split; [done|]. exists a. eapply tc_mono; [|exact Ha].
        intros u v (? & ? & ?). split_and!; [done|by apply Hsub..].
    - right. split; [done|]. apply bool_decide_eq_false in Hb.
      destruct (no_sink_cycle (sub_edge g en) en) as (a & _ & ?); [|  |by exists a].
      + intros ->. by rewrite size_empty in Hz.
      + intros a Ha. assert (a ∈ ps) as (_ & n & ? & ?)%Hps.
        { destruct (decide (a ∈ ps)) as [|E]; [done|]. exfalso. apply Hb.
          assert (en ∖ ps ≠ ∅) as Hne by set_solver +Ha E.
          destruct (size (en ∖ ps)) eqn:Es; [|lia]. apply size_empty_inv in Es. by apply leibniz_equiv in Es. }
        exists n. split; [done|]. by split_and!.
  Qed.

  Lemma before_concat_lt (gs : list (list nat)) i j G G' a b :
    i < j → gs !! i = Some G → gs !! j = Some G' → a ∈ G → b ∈ G' → before (concat gs) a b.
  Proof.
    intros Hij Hi Hj Ha Hb.
    apply elem_of_list_split_length in Hi as (g1 & g2 & -> & ->).
    rewrite lookup_app_r in Hj by lia.
    destruct (j - length g1) as [|k] eqn:E; [lia|]. simpl in Hj.
    apply elem_of_list_split_length in Hj as (g3 & g4 & -> & _).
    apply elem_of_list_split in Ha as (u1 & u2 & ->). apply elem_of_list_split in Hb as (v1 & v2 & ->).
    exists (concat g1 ++ u1), (u2 ++ concat g3 ++ v1), (v2 ++ concat g4).
    rewrite concat_app. simpl. rewrite concat_app. simpl.
    by repeat (rewrite <-app_assoc || rewrite <-app_comm_cons).
  Qed.

  Lemma NoDup_concat (gs : list (list nat)) :
    (∀ G, G ∈ gs → NoDup G) →
    (∀ n i j G G', gs !! i = Some G → gs !! j = Some G' → n ∈ G → n ∈ G' → i = j) →
    NoDup (concat gs).
  Proof.
    induction gs as [|G gs IH]; intros H1 H2; simpl; [constructor|]. apply NoDup_app. split_and!.
    - apply H1. set_solver.
    - intros n Hn Hc. rewrite elem_of_list_In, in_concat in Hc. destruct Hc as (G' & HG & Hn').
      apply elem_of_list_In in HG. apply elem_of_list_In in Hn'. apply elem_of_list_lookup in HG as (j & Hj).
      by specialize (H2 n 0 (S j) G G' eq_refl Hj Hn Hn').
    - apply IH; [set_solver|]. intros n i j G' G'' Hi Hj Hn Hn'.
      by specialize (H2 n (S i) (S j) G' G'' Hi Hj Hn Hn') as [= ->].
  Qed.

  Lemma group_order_topological g V gs : group_order g V gs →
    topological_order g V (concat (o 240 <$> gs)).
  Proof.
    intros (G1 & G2 & G3). split_and!.
    - apply NoDup_concat.
      + intros G. rewrite elem_of_list_fmap. intros (S & -> & _). by apply iter_nodup.
      + intros n i j G G' Hi Hj Hn Hn'.
        rewrite list_lookup_fmap, fmap_Some in Hi. destruct Hi as (S & Hi & ->).
        rewrite list_lookup_fmap, fmap_Some in Hj. destruct Hj as (S' & Hj & ->).
        rewrite iter_elem in Hn, Hn' by done. by eapply G2.
    - intros n. rewrite G1, elem_of_list_In, in_concat. split.
      + intros (L & HL & Hn). apply elem_of_list_In in HL. apply elem_of_list_In in Hn.
        apply elem_of_list_fmap in HL as (S & -> & HS). rewrite iter_elem in Hn by done.
        apply elem_of_list_lookup in HS as (i & Hi). eauto.
      + intros (i & G & Hi & Hn). exists (o 240 G). split; apply elem_of_list_In.
        * apply elem_of_list_fmap. exists G. split; [done|]. by eapply elem_of_list_lookup_2.
        * by apply iter_elem.
    - intros a b Ha Hb Hab. apply G1 in Ha as (i & G & Hi & Ha). apply G1 in Hb as (j & G' & Hj & Hb).
      eapply before_concat_lt with (i := i) (j := j) (G := o 240 G) (G' := o 240 G').
      + by eapply (G3 a b).
      + by rewrite list_lookup_fmap, Hi.
      + by rewrite list_lookup_fmap, Hj.
      + by apply iter_elem.
      + by apply iter_elem.
  Qed.

  (** ** adjacency matrices *)
  Lemma index_map_gen (l : list node) : ∀ k (m : gmap nat nat), NoDup l →
    ∀ n, foldl (λ m p, <[p.2 := p.1]> m) m (imap (λ i n, (k + i, n)) l) !! n =
         match list_find (n =.) l with Some (i, _) => Some (k + i) | None => m !! n end.
  Proof.
    induction l as [|x l IH]; intros k m Hnd n; simpl; [done|].
    apply NoDup_cons in Hnd as [Hx Hnd].
    assert (imap ((λ (i : nat) (n : node), (k + i, n)) ∘ S) l = imap (λ i n, (S k + i, n)) l) as ->.
    { apply imap_ext. intros. simpl. f_equal. lia. }
    rewrite IH by done. rewrite Nat.add_0_r. destruct (decide (n = x)) as [->|Hne].
    - assert (list_find (x =.) l = None) as ->.
      { apply list_find_None. apply Forall_forall. intros y Hy <-. done. }
      rewrite lookup_insert. simpl. by rewrite Nat.add_0_r.
    - rewrite lookup_insert_ne by done. destruct (list_find (n =.) l) as [[i y]|]; simpl; [|done].
      f_equal. lia.
  Qed.

  Lemma index_map_spec l n i : NoDup l → index_map l !! n = Some i ↔ l !! i = Some n.
  Proof.
    intros Hnd. unfold index_map. rewrite (index_map_gen l 0 ∅ Hnd n). simpl.
    destruct (list_find (n =.) l) as [[j y]|] eqn:E.
    - apply list_find_Some in E as (Hj & <- & _). split.
      + by intros [= ->].
      + intros Hi. f_equal. by eapply NoDup_lookup.
    - rewrite lookup_empty. split; [done|]. intros Hi. apply list_find_None in E.
      rewrite Forall_forall in E. exfalso. apply (E n); [|done]. by eapply elem_of_list_lookup_2.
  Qed.

  Lemma dict_get_index l n : NoDup l → n ∈ l → ∃ i, dict_get (index_map l) n = Ok i ∧ l !! i = Some n.
  Proof.
    intros Hnd (i & Hi)%elem_of_list_lookup. exists i. split; [|done]. unfold dict_get.
    apply index_map_spec in Hi; [|done]. by rewrite Hi.
  Qed.

  Definition entry_is (m : mat) (i j : nat) (P : Prop) : Prop :=
    (P → ment m i j = 1) ∧ (¬ P → ment m i j = 0).

  Lemma adj_mat_spec g l : NoDup l →
    (∀ b, b ∈ l → ∀ a, edge g a b → a ∈ l) →
    returns (adj_mat_of o g l) (λ m, mdim m = length l ∧
      ∀ i j, entry_is m i j (∃ a b, l !! i = Some a ∧ l !! j = Some b ∧ edge g a b)).
  Proof.
    intros Hnd Hcl. unfold adj_mat_of. eapply returns_mono.
    - apply (for_returns_pre _ _ _ (λ pre m, mdim m = length l ∧
        ∀ i j, entry_is m i j (∃ a b, l !! i = Some a ∧ l !! j = Some b ∧ edge g a b ∧ b ∈ pre))).
      + split; [done|]. intros i j. split; [|done]. intros (a & b & _ & _ & _ & Hb). by apply elem_of_nil in Hb.
      + intros pre b post m Hl [Hm IH].
        assert (b ∈ l) as Hb by (rewrite Hl; set_solver).
        eapply returns_bind.
        { apply (for_returns_pre _ _ _ (λ pre idxs, ∀ i, i ∈ idxs ↔ ∃ a, a ∈ pre ∧ l !! i = Some a)).
          - set_solver +.
          - intros pre' a post' idxs Hl' IH'.
            assert (a ∈ l) as Ha.
            { apply (Hcl b Hb). assert (a ∈ o 229 (parents g b)) as Ha by (rewrite Hl'; set_solver).
              by rewrite iter_elem in Ha. }
            destruct (dict_get_index l a Hnd Ha) as (i & -> & Hi). simpl. intros i'.
            rewrite elem_of_app, elem_of_list_singleton, IH'. split.
            + intros [(a' & ? & ?)| ->]; [exists a'|exists a]; (split; [set_solver|done]).
            + intros (a' & [Ha'|Ha']%elem_of_app & ?); [left; eauto|right].
              apply elem_of_list_singleton in Ha' as ->. by eapply NoDup_lookup. }
        cbn. intros idxs Hidx.
        destruct (dict_get_index l b Hnd Hb) as (c & -> & Hc). simpl. split; [done|].
        intros i j. unfold entry_is. simpl.
        destruct (decide (j = c ∧ i ∈ idxs)) as [[-> Hi]|Hno].
        * split; [done|]. intros Hn. exfalso. apply Hn. apply Hidx in Hi as (a & Ha & Hi).
          rewrite iter_elem in Ha by done. exists a, b. split_and!; [done|done|done|set_solver].
        * destruct (IH i j) as [IH1 IH2]. split.
          -- intros (a & b' & Ha & Hb' & Hab & Hin). apply IH1. exists a, b'.
             split_and!; [done..|]. apply elem_of_app in Hin as [?|Hin]; [done|].
             apply elem_of_list_singleton in Hin as ->. exfalso. apply Hno.
             split; [by eapply NoDup_lookup|]. apply Hidx. exists a.
             split; [by apply iter_elem|done].
          -- intros Hn. apply IH2. intros (a & b' & ? & ? & ? & ?). apply Hn.
             exists a, b'. split_and!; [done..|set_solver].
    - cbn. intros m [Hm H]. split; [done|]. intros i j. destruct (H i j) as [H1 H2]. split.
      + intros (a & b & Ha & Hb & Hab). apply H1. exists a, b. split_and!; [done..|].
        by eapply elem_of_list_lookup_2.
      + intros Hn. apply H2. intros (a & b & ? & ? & ? & ?). apply Hn. eauto.
  Qed.

  Lemma elem_of_nonzero m i j : (i, j) ∈ nonzero m ↔ ment m i j ≠ 0 ∧ i < mdim m ∧ j < mdim m.
  Proof.
    unfold nonzero. rewrite elem_of_list_filter. simpl. apply and_iff_compat_l.
    rewrite elem_of_list_join. split.
    - intros (r & Hr & Hin). apply elem_of_list_fmap in Hin as (i' & -> & Hi').
      apply elem_of_list_fmap in Hr as (j' & [= -> ->] & Hj').
      rewrite elem_of_seq in Hi', Hj'. lia.
    - intros [Hi Hj]. exists ((i,.) <$> seq 0 (mdim m)). split.
      + apply elem_of_list_fmap. exists j. split; [done|]. apply elem_of_seq. lia.
      + apply elem_of_list_fmap. exists i. split; [done|]. apply elem_of_seq. lia.
  Qed.

  Lemma init_spec g0 m l : mdim m = length l → (∀ n, n ∈ l → n ∈ gnodes g0) →
    returns (init_from_adj_mat g0 m (Some l)) (λ h, gnodes h = gnodes g0 ∧
      ∀ a b, edge h a b ↔ ∃ i j, l !! i = Some a ∧ l !! j = Some b ∧ ment m i j ≠ 0).
  Proof.
    intros Hm Hl. unfold init_from_adj_mat. rewrite bool_decide_true by done. simpl.
    eapply returns_mono.
    - apply (for_returns_pre _ _ _ (λ pre h, gnodes h = gnodes g0 ∧
        ∀ a b, edge h a b ↔ ∃ i j, l !! i = Some a ∧ l !! j = Some b ∧ (i, j) ∈ pre)).
      + split; [done|]. intros a b. unfold edge. simpl. set_solver +.
      + intros pre [i j] post h Heq [Hh IH].
        assert ((i, j) ∈ nonzero m) as (_ & Hi & Hj)%elem_of_nonzero by (rewrite Heq; set_solver).
        rewrite Hm in Hi, Hj. apply lookup_lt_is_Some in Hi as (a & Ha). apply lookup_lt_is_Some in Hj as (b & Hb).
        unfold list_get. rewrite Ha, Hb. simpl.
        assert (a ∈ gnodes h ∧ b ∈ gnodes h) as [Hag Hbg].
        { rewrite Hh. split; apply Hl; by eapply elem_of_list_lookup_2. }
        unfold add_edges. rewrite decide_False.
        2:{ intros Hs. apply Hs. assert ({[a]} ∖ gnodes h = (∅ : nset)) as -> by set_solver +Hag.
            apply size_empty. }
        rewrite decide_False by (intros ?; done). simpl. split; [done|]. intros a' b'.
        unfold edge in *. simpl. destruct (decide (b' = b)) as [->|Hne].
        * rewrite elem_of_union, elem_of_singleton, IH. split.
          -- intros [(i' & j' & ? & ? & ?)| ->]; [exists i', j'|exists i, j]; (split_and!; [done..|set_solver]).
          -- intros (i' & j' & Hi' & Hj' & Hin). apply elem_of_app in Hin as [?|Hin]; [left; eauto|right].
             apply elem_of_list_singleton in Hin as [= -> ->]. congruence.
        * rewrite IH. split; intros (i' & j' & Hi' & Hj' & Hin); exists i', j'; (split_and!; [done..|]).
          -- set_solver.
          -- apply elem_of_app in Hin as [?|Hin]; [done|].
             apply elem_of_list_singleton in Hin as [= -> ->]. congruence.
    - cbn. intros h [? Hh]. split; [done|]. intros a b. rewrite Hh.
      split; intros (i & j & Hi & Hj & Hin); exists i, j; (split_and!; [done..|]).
      + apply elem_of_nonzero in Hin as [Hin _]. exact Hin.
      + apply elem_of_nonzero. split; [done|]. rewrite Hm.
        split; [eapply lookup_lt_Some, Hi|eapply lookup_lt_Some, Hj].
  Qed.

  Lemma round_trip g g0 l : wf_graph g → NoDup l → (∀ n, n ∈ l ↔ n ∈ gnodes g) →
    gnodes g0 = gnodes g →
    returns (m ← get_adj_mat o g (Some l); init_from_adj_mat g0 m (Some l)) (same_graph g).
  Proof.
    intros Hwf Hnd Hl Hg0. unfold get_adj_mat. rewrite bool_decide_true.
    2:{ apply Forall_forall. intros n. apply Hl. }
    simpl. eapply returns_bind.
    { apply adj_mat_spec; [done|]. intros b Hb a Hab. apply Hl. by apply (Hwf a b). }
    cbn. intros m [Hm Hent]. eapply returns_mono.
    { apply init_spec; [done|]. intros n Hn. rewrite Hg0. by apply Hl. }
    cbn. intros h [Hh Hedge]. split; [congruence|]. intros b. apply set_eq. intros a.
    change (edge g a b ↔ edge h a b). rewrite Hedge. split.
    - intros Hab. destruct (Hwf a b Hab) as [Ha Hb]. rewrite <-Hl in Ha, Hb.
      apply elem_of_list_lookup in Ha as (i & Hi). apply elem_of_list_lookup in Hb as (j & Hj).
      exists i, j. split_and!; [done..|]. destruct (Hent i j) as [-> _]; [done|eauto].
    - intros (i & j & Hi & Hj & Hne). destruct (edge_dec g a b) as [|Hno]; [done|].
      exfalso. apply Hne. apply Hent. intros (a' & b' & ? & ? & ?). congruence.
  Qed.
End topo.
