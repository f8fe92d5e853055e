(** PDSTree.get_subsets_list *)
From Verif Require Import Base BaseLemmas ModelGraph Spec ModelMixed SpecMixed ModelPDS SpecPDS ProofPC ProofPDS.

Lemma filter_ext_in {A} (P1 P2 : A → Prop) `{!∀ x, Decision (P1 x), !∀ x, Decision (P2 x)} (l : list A) :
  (∀ x, x ∈ l → P1 x ↔ P2 x) → filter P1 l = filter P2 l.
Proof.
  induction l as [|x l IH]; intros Hx; [done|]. rewrite !filter_cons.
  rewrite IH by (intros; apply Hx; by right). pose proof (Hx x (elem_of_list_here _ _)). repeat case_decide; naive_solver.
Qed.

Lemma sublist_filter {A} `{EqDecision A} (c l : list A) : NoDup l → c `sublist_of` l → c = filter (.∈ c) l.
Proof.
  intros Hnd Hs. induction Hs as [|x c l Hs IH|x c l Hs IH].
  - done.
  - apply NoDup_cons in Hnd as [Hx Hnd]. rewrite filter_cons, decide_True by left. f_equal.
    rewrite (IH Hnd) at 1. apply filter_ext_in. intros y Hy. rewrite elem_of_cons. split; [tauto|].
    intros [->|?]; done.
  - apply NoDup_cons in Hnd as [Hx Hnd]. rewrite filter_cons, decide_False; [by apply IH|].
    intros Hin. apply Hx. by eapply sublist_elem.
Qed.

Lemma combs_nodup {A} (l : list A) : ∀ k, NoDup l → NoDup (combs k l).
Proof.
  induction l as [|x l IH]; intros [|k] Hnd; cbn [combs]; try apply NoDup_singleton; [constructor|].
  apply NoDup_cons in Hnd as [Hx Hnd]. apply NoDup_app. split_and!.
  - apply NoDup_fmap_2; [|by apply IH]. intros ??. congruence.
  - intros c (c' & -> & Hc')%elem_of_list_fmap Hc. apply elem_of_combs in Hc as [Hs _].
    apply Hx. eapply sublist_elem; [exact Hs|left].
  - by apply IH.
Qed.

Lemma sublist_set_eq (c c' l : list node) : NoDup l → c `sublist_of` l → c' `sublist_of` l →
  (list_to_set c : nset) = list_to_set c' → c = c'.
Proof.
  intros Hnd Hc Hc' He. rewrite (sublist_filter c l Hnd Hc), (sublist_filter c' l Hnd Hc').
  apply filter_ext_in. intros x _. rewrite <- !(elem_of_list_to_set (C:=nset)). by rewrite He.
Qed.

Lemma sum_foldl t c : (∀ v, v ∈ c → ∃ d, get_minimal_distance v t = Some d) → ∀ a,
  foldl (λ s v, oplus s (get_minimal_distance v t)) (Some a) c = Some (a + sum_list ((λ v, default 0 (get_minimal_distance v t)) <$> c)).
Proof.
  induction c as [|v c IH]; intros H a; cbn [foldl].
  - cbn. f_equal. lia.
  - destruct (H v (elem_of_list_here _ _)) as [d Hd]. rewrite Hd. cbn [oplus]. rewrite IH by (intros; apply H; by right).
    rewrite fmap_cons. cbn. rewrite Hd. cbn. f_equal. lia.
Qed.

Lemma Permutation_sum (l l' : list nat) : l ≡ₚ l' → sum_list l = sum_list l'.
Proof. induction 1; cbn; lia. Qed.
Lemma filter_sub {A} (P : A → Prop) `{!∀ x, Decision (P x)} (l : list A) : filter P l `sublist_of` l.
Proof. induction l as [|x l IH]; [constructor|]. rewrite filter_cons. case_decide; by constructor. Qed.

Lemma t_legal_set t (c : list node) (Y : nset) : list_to_set c = Y → t_legal t c ↔ t_legal t (elements Y).
Proof.
  intros <-. unfold t_legal. split; intros H v Hv.
  - destruct (H v) as (p & Hp & Hu); [set_solver|]. exists p. split; [done|]. intros u ?%Hu. set_solver.
  - destruct (H v) as (p & Hp & Hu); [set_solver|]. exists p. split; [done|]. intros u ?%Hu. set_solver.
Qed.

Lemma get_subsets_list_ok o t X k : iter_ok o → twf t → depth_level t = 0 →
  NoDup (get_subsets_list o t X k).*1 ∧
  ∀ Y d, (Y, d) ∈ get_subsets_list o t X k ↔ Y ⊆ X ∧ size Y = k ∧ t_legal t (elements Y) ∧ ∃ n, d = Some n ∧ t_total t Y n.
Proof.
  intros Ho Hwf H0. unfold get_subsets_list. pose proof (iter_nodup o 112 X Ho) as Hnd.
  set (cs := filter (λ c, is_legal_cond_set t c = true) (combs k (o 112 X))).
  assert (∀ c, c ∈ cs ↔ c `sublist_of` o 112 X ∧ length c = k ∧ t_legal t c) as Hcs.
  { intros c. unfold cs. rewrite elem_of_list_filter, elem_of_combs, is_legal_cond_set_ok. tauto. }
  split.
  - rewrite <- list_fmap_compose. apply NoDup_fmap_2_strong.
    + intros c c' Hc Hc'. cbn. intros He. apply Hcs in Hc as [Hc _]. apply Hcs in Hc' as [Hc' _].
      by eapply sublist_set_eq.
    + unfold cs. apply NoDup_filter. by apply combs_nodup.
  - intros Y d. rewrite elem_of_list_fmap. split.
    + intros (c & [= -> ->] & Hc). apply Hcs in Hc as (Hs & Hl & Hleg).
      assert (NoDup c) as Hndc by exact (sublist_nodup _ _ Hs Hnd).
      assert (∀ v, v ∈ c → ∃ d, get_minimal_distance v t = Some d ∧ t_distance t v d) as Hd.
      { intros v Hv. pose proof (get_minimal_distance_ok v t Hwf H0) as Hm. destruct (get_minimal_distance v t) as [d|]; [eauto|].
        exfalso. apply Hm. destruct (Hleg v Hv) as (p & Hp & _). by exists p. }
      split; [|split; [|split]].
      * intros v. rewrite elem_of_list_to_set. intros Hv. eapply iter_elem; [exact Ho|]. by eapply sublist_elem.
      * by rewrite size_list_to_set.
      * by apply (t_legal_set t c).
      * rewrite sum_foldl by (intros v Hv; destruct (Hd v Hv) as (e & ? & _); eauto). eexists. split; [done|].
        exists (λ v, default 0 (get_minimal_distance v t)). split.
        -- intros v. rewrite elem_of_list_to_set. intros Hv. destruct (Hd v Hv) as (e & -> & He). done.
        -- cbn [plus]. rewrite (Permutation_sum _ _ (fmap_Permutation _ _ _ (elements_list_to_set c Hndc))). done.
    + intros (Hsub & Hsz & Hleg & n & -> & f & Hf & ->).
      set (c := filter (.∈ Y) (o 112 X)).
      assert (∀ v, v ∈ c ↔ v ∈ Y) as Hc.
      { intros v. unfold c. rewrite elem_of_list_filter, iter_elem by done. split; [tauto|]. intros ?. split; [done|]. by apply Hsub. }
      assert (list_to_set c = Y) as HcY by (apply set_eq; intros v; by rewrite elem_of_list_to_set).
      assert (NoDup c) as Hndc by (by apply NoDup_filter).
      exists c. assert (∀ v, v ∈ c → get_minimal_distance v t = Some (f v)) as Hm.
      { intros v Hv. apply Hc in Hv. specialize (Hf v Hv). pose proof (get_minimal_distance_ok v t Hwf H0) as Hm.
        destruct (get_minimal_distance v t) as [e|].
        - destruct Hf as [(p & Hp & Hpl) Hmin]. destruct Hm as [(q & Hq & Hql) Hmin'].
          specialize (Hmin _ Hq). specialize (Hmin' _ Hp). f_equal. lia.
        - exfalso. apply Hm. destruct Hf as [(p & Hp & _) _]. by exists p. }
      split.
      * rewrite HcY. f_equal. rewrite sum_foldl by eauto. cbn [plus]. f_equal.
        rewrite <- HcY. rewrite (Permutation_sum _ _ (fmap_Permutation f _ _ (elements_list_to_set c Hndc))).
        f_equal. apply list_fmap_ext. intros i v Hv. apply elem_of_list_lookup_2 in Hv. by rewrite (Hm v Hv).
      * apply Hcs. split; [|split].
        -- unfold c. apply filter_sub.
        -- rewrite <- Hsz, <- HcY. by rewrite size_list_to_set.
        -- by apply (t_legal_set t c Y).
Qed.
