(** Edge counts and skeleton matrices. *)
From Verif Require Import Base BaseLemmas ModelGraph Spec ModelMixed SpecMixed SpecCount ProofGraph ProofGraph2 ProofGraph3 ProofPDAG ProofMixed ProofMixed2.

Definition norm (p : node * node) : node * node := (min p.1 p.2, max p.1 p.2).
Lemma norm_pair x y a b : norm (x, y) = (a, b) ↔ a ≤ b ∧ ((x = a ∧ y = b) ∨ (x = b ∧ y = a)).
Proof.
  unfold norm. simpl. split.
  - intros [= <- <-]. split; [lia|]. destruct (decide (x ≤ y)); [left|right]; lia.
  - intros [H [[-> ->]|[-> ->]]]; f_equal; lia.
Qed.
Lemma norm_elem x y (l : list (node * node)) : norm (x, y) ∈ norm <$> l ↔ (x, y) ∈ l ∨ (y, x) ∈ l.
Proof.
  rewrite elem_of_list_fmap. split.
  - intros ([u v] & E & H). destruct (norm (u, v)) as [a b] eqn:E2. apply norm_pair in E, E2.
    destruct E as [_ [[-> ->]|[-> ->]]], E2 as [_ [[-> ->]|[-> ->]]]; auto.
  - intros [H|H]; [by exists (x, y)|]. exists (y, x). split; [|done]. unfold norm. simpl. f_equal; lia.
Qed.
Lemma pairs_nodup (l : list node) : NoDup l → NoDup (norm <$> comb2 l).
Proof.
  induction l as [|x l IH]; intros Hnd; [constructor|]. apply NoDup_cons in Hnd as [Hx Hnd]. cbn [comb2].
  rewrite fmap_app. apply NoDup_app. split_and!; [| |by apply IH].
  - clear IH. induction l as [|y l IHl]; [constructor|]. apply NoDup_cons in Hnd as [Hy Hnd]. rewrite !fmap_cons. apply NoDup_cons. split.
    + rewrite norm_elem. intros [H|H]; apply elem_of_list_fmap in H as (z & E & Hz); simplify_eq; [done|]. apply Hx. left.
    + apply IHl; [set_solver|done].
  - intros [a b] H1 H2. apply elem_of_list_fmap in H1 as ([u v] & E & H1). rewrite E, norm_elem in H2.
    apply elem_of_list_fmap in H1 as (z & E1 & Hz). simplify_eq. destruct H2 as [H2|H2]; apply comb2_elem in H2; tauto.
Qed.
Lemma sublist_fmap_nodup {A B} (f : A → B) (P : A → Prop) `{∀ x, Decision (P x)} l : NoDup (f <$> l) → NoDup (f <$> filter P l).
Proof.
  induction l as [|x l IH]; [done|]. rewrite fmap_cons, NoDup_cons. intros [Hx Hl]. rewrite filter_cons. destruct (decide (P x)); [|auto].
  rewrite fmap_cons, NoDup_cons. split; [|auto]. intros H'. apply Hx. apply elem_of_list_fmap in H' as (y & -> & Hy). apply elem_of_list_filter in Hy as [_ Hy].
  by apply elem_of_list_fmap_1.
Qed.
Lemma size_list_nodup {A} `{Countable A} (l : list A) : NoDup l → size (list_to_set l : gset A) = length l.
Proof. intros H'. rewrite size_list_to_set; done. Qed.

Lemma count_pairs V (l : list node) (P : node → node → Prop) (f : node * node → bool) : NoDup l → list_to_set l = V →
  (∀ a b, a ∈ l → b ∈ l → a ≠ b → f (a, b) = true ↔ P a b) → (∀ a b, P a b → P b a) →
  pair_count V P (length (filter (λ p, f p = true) (comb2 l))).
Proof.
  intros Hnd <- Hf Hs. exists (list_to_set (norm <$> filter (λ p, f p = true) (comb2 l))). split.
  - intros a b. rewrite elem_of_list_to_set, !elem_of_list_to_set, elem_of_list_fmap. split.
    + intros ([x y] & E & H). apply elem_of_list_filter in H as [H1 H2]. symmetry in E. apply norm_pair in E as [Hab E].
      pose proof (comb2_elem _ _ _ H2) as [Hx Hy]. pose proof (comb2_ne _ _ _ Hnd H2) as Hne. apply Hf in H1; [|done..].
      destruct E as [[-> ->]|[-> ->]]; split_and!; try done; try lia. by apply Hs.
    + intros (Ha & Hb & Hlt & HP). assert (a ≠ b) as Hne by lia. destruct (comb2_total l a b Ha Hb Hne) as [H|H].
      * exists (a, b). split; [symmetry; apply norm_pair; split; [lia|by left]|]. apply elem_of_list_filter. split; [|done]. by apply Hf.
      * exists (b, a). split; [symmetry; apply norm_pair; split; [lia|by right]|]. apply elem_of_list_filter. split; [|done]. apply Hf; [done..|lia|by apply Hs].
  - rewrite size_list_nodup, fmap_length; [done|]. apply sublist_fmap_nodup. by apply pairs_nodup.
Qed.
Lemma pair_count_ext V P Q n : (∀ a b, a ∈ V → b ∈ V → a ≠ b → P a b ↔ Q a b) → pair_count V P n → pair_count V Q n.
Proof. intros H (S & HS & E). exists S. split; [|done]. intros a b. rewrite HS. split; intros (? & ? & ? & ?); split_and!; try done; apply H; try done; lia. Qed.
Lemma iter_set o k (V : nset) : iter_ok o → list_to_set (o k V) = V.
Proof. intros Ho. apply set_eq. intros x. by rewrite elem_of_list_to_set, iter_elem. Qed.

Lemma count_foldl (f : node * node → bool) l : ∀ e m,
  foldl (λ '(e, m) p, if f p then (S e, m) else (e, S m)) (e, m) l =
  (e + length (filter (λ p, f p = true) l), m + length (filter (λ p, f p = false) l)).
Proof.
  induction l as [|p l IH]; intros e m; [simpl; f_equal; lia|]. cbn [foldl]. rewrite !filter_cons.
  destruct (f p) eqn:E; rewrite IH; simpl; f_equal; lia.
Qed.

Theorem number_of_edges_ok o g ns : iter_ok o → let V := default (gnodes g) ns in
  pair_count V (adjacent g) (number_of_edges o g ns).1 ∧ pair_count V (λ a b, ¬ adjacent g a b) (number_of_edges o g ns).2.
Proof.
  intros Ho V. unfold number_of_edges. fold V.
  assert (foldl (λ '(e, m) '(i, j), if is_connected g i j then (S e, m) else (e, S m)) (0, 0) (comb2 (o 38 V)) =
    foldl (λ '(e, m) p, if is_connected g p.1 p.2 then (S e, m) else (e, S m)) (0, 0) (comb2 (o 38 V))) as ->.
  { generalize (0, 0), (comb2 (o 38 V)). intros p l. revert p. induction l as [|[i j] l IH]; intros [e m]; [done|]. cbn [foldl fst snd]. by destruct (is_connected g i j); rewrite IH. }
  rewrite (count_foldl (λ p, is_connected g p.1 p.2)). cbn [fst snd]. rewrite !Nat.add_0_l. split.
  - apply (count_pairs _ _ _ (λ p, is_connected g p.1 p.2)); [by apply iter_nodup|by apply iter_set| |].
    + intros a b _ _ _. apply is_connected_spec.
    + intros a b [?|?]; [by right|by left].
  - assert (filter (λ p : node * node, is_connected g p.1 p.2 = false) (comb2 (o 38 V)) = filter (λ p : node * node, negb (is_connected g p.1 p.2) = true) (comb2 (o 38 V))) as ->.
    { apply list_filter_iff. intros [x y]. simpl. by rewrite negb_true_iff. }
    apply (count_pairs _ _ _ (λ p, negb (is_connected g p.1 p.2))); [by apply iter_nodup|by apply iter_set| |].
    + intros a b _ _ _. cbn [fst snd]. rewrite negb_true_iff, <-not_true_iff_false, is_connected_spec. done.
    + intros a b H [?|?]; apply H; [by right|by left].
Qed.

(** a loop with an exact test counts both kinds of pairs *)
Lemma count_loop (f : node → node → res bool) (P : node → node → Prop) (V : nset) (l : list node) : NoDup l → list_to_set l = V →
  (∀ a b, a ∈ V → b ∈ V → a ≠ b → returns (f a b) (λ r, r = true ↔ P a b)) → (∀ a b, P a b → P b a) →
  returns (for_ (comb2 l) (λ '(i, j) '(e, m), b ← f i j; Ok (if (b : bool) then (S e, m) else (e, S m))) (0, 0)) (λ r,
    pair_count V P r.1 ∧ pair_count V (λ a b, ¬ P a b) r.2).
Proof.
  intros Hnd HV Hf Hs. set (h := λ p : node * node, match f p.1 p.2 with Ok b => b | _ => false end).
  assert (∀ a b, a ∈ l → b ∈ l → a ≠ b → f a b = Ok (h (a, b)) ∧ (h (a, b) = true ↔ P a b)) as Hh.
  { intros a b Ha Hb Hne. specialize (Hf a b). subst V. rewrite !elem_of_list_to_set in Hf. specialize (Hf Ha Hb Hne). unfold h. simpl.
    by destruct (f a b). }
  assert (∀ q e m, (∀ p, p ∈ q → p ∈ comb2 l) → for_ q (λ '(i, j) '(e, m), b ← f i j; Ok (if (b : bool) then (S e, m) else (e, S m))) (e, m) =
    Ok (foldl (λ '(e, m) p, if h p then (S e, m) else (e, S m)) (e, m) q)) as Hloop.
  { induction q as [|[i j] q IH]; intros e m Hq; [done|]. assert ((i, j) ∈ comb2 l) as Hij by (apply Hq; left).
    pose proof (comb2_elem _ _ _ Hij) as [Hi Hj]. pose proof (comb2_ne _ _ _ Hnd Hij) as Hne. destruct (Hh i j Hi Hj Hne) as [E _].
    cbn [for_ foldl]. rewrite E. cbn [mbind res_bind]. destruct (h (i, j)); apply IH; intros p Hp; apply Hq; by right. }
  rewrite Hloop by done. rewrite count_foldl. cbn [returns fst snd]. rewrite !Nat.add_0_l. split.
  - apply (count_pairs _ _ _ h); [done|done| |done]. intros a b Ha Hb Hne. by apply Hh.
  - assert (filter (λ p : node * node, h p = false) (comb2 l) = filter (λ p : node * node, negb (h p) = true) (comb2 l)) as ->.
    { apply list_filter_iff. intros p. by rewrite negb_true_iff. }
    apply (count_pairs _ _ _ (λ p, negb (h p))); [done|done| |].
    + intros a b Ha Hb Hne. rewrite negb_true_iff, <-not_true_iff_false. destruct (Hh a b Ha Hb Hne) as [_ H]. by rewrite H.
    + intros a b H H'. by apply H, Hs.
Qed.
Theorem pag_number_of_edges o g : iter_ok o → mg_wf g → returns (m_number_of_edges o PAG_T g) (λ r,
  pair_count (mnodes g) (mg_adj g) r.1 ∧ pair_count (mnodes g) (λ a b, ¬ mg_adj g a b) r.2).
Proof.
  intros Ho Hwf. apply count_loop; [by apply iter_nodup|by apply iter_set| |].
  - intros a b _ _ Hne. by apply m_is_connected_pag.
  - intros a b. by apply mg_adj_sym.
Qed.
Theorem pdag_number_of_edges o g : iter_ok o → pd_wf g → returns (m_number_of_edges o PDAG_T g) (λ r,
  pair_count (mnodes g) (pd_adj g) r.1 ∧ pair_count (mnodes g) (λ a b, ¬ pd_adj g a b) r.2).
Proof.
  intros Ho Hwf. apply count_loop; [by apply iter_nodup|by apply iter_set| |].
  - intros a b _ _ Hne. by apply m_is_connected_pd.
  - intros a b [H|[H|H]]; [left; by apply (pdw_sym _ Hwf)|by right; right|by right; left].
Qed.

(** ** PDAG.get_num_edges: arrows count one, lines one half at each end *)
Definition pairs_of (f : node → nset) (l : list node) : list (node * node) := mjoin ((λ n, (λ a, (a, n)) <$> elements (f n)) <$> l).
Lemma pairs_of_cons f x l : pairs_of f (x :: l) = ((λ a, (a, x)) <$> elements (f x)) ++ pairs_of f l.
Proof. done. Qed.
Lemma elem_pairs_of f l a b : (a, b) ∈ pairs_of f l ↔ b ∈ l ∧ a ∈ f b.
Proof.
  induction l as [|x l IH]; [unfold pairs_of; simpl; set_solver +|]. rewrite pairs_of_cons, elem_of_app, IH, elem_of_cons, elem_of_list_fmap.
  split; [intros [(u & E & Hu)|?]; [simplify_eq; apply elem_of_elements in Hu|]; tauto|]. intros [[->|?] ?]; [left|by right].
  exists a. by rewrite elem_of_elements.
Qed.
Lemma nodup_pairs_of f l : NoDup l → NoDup (pairs_of f l).
Proof.
  induction l as [|x l IH]; [constructor|]. rewrite NoDup_cons. intros [Hx Hl]. rewrite pairs_of_cons. apply NoDup_app. split_and!; [| |by apply IH].
  - apply NoDup_fmap_2; [by intros ? ? [= ->]|apply NoDup_elements].
  - intros [a b] H1 H2. apply elem_of_list_fmap in H1 as (u & E & _). simplify_eq. by apply elem_pairs_of in H2 as [? _].
Qed.
Lemma sum_pairs_of (g : mgraph) l : ∀ s, foldl (λ s n, s + 2 * size (mset g n Directed) + size (mset g n Tail)) s l =
  s + 2 * length (pairs_of (λ n, mset g n Directed) l) + length (pairs_of (λ n, mset g n Tail) l).
Proof.
  induction l as [|x l IH]; intros s; [unfold pairs_of; simpl; lia|]. cbn [foldl]. rewrite IH, !pairs_of_cons, !app_length, !fmap_length.
  unfold size, set_size. simpl. lia.
Qed.
Theorem get_num_edges_ok o g : iter_ok o → pd_wf g → (∀ a b, ¬ (darrow g a b ∧ darrow g b a)) →
  pair_count (mnodes g) (pd_adj g) (get_num_edges o g).
Proof.
  intros Ho Hwf Hbi. unfold get_num_edges. rewrite sum_pairs_of, Nat.add_0_l. set (l := o 84 (mnodes g)).
  assert (∀ n, n ∈ l ↔ n ∈ mnodes g) as Hl by (intros n; by apply iter_elem). assert (NoDup l) as Hnd by (by apply iter_nodup).
  set (D := pairs_of (λ n, mset g n Directed) l). set (T := pairs_of (λ n, mset g n Tail) l).
  assert (∀ a b, (a, b) ∈ D ↔ darrow g a b) as HD.
  { intros a b. unfold D. rewrite elem_pairs_of. split; [by intros [_ ?]|]. intros H. split; [|done]. apply Hl. by apply (pdw_dir _ Hwf) in H as (_ & ? & _). }
  assert (∀ a b, (a, b) ∈ T ↔ uline g a b) as HT.
  { intros a b. unfold T. rewrite elem_pairs_of. split; [by intros [_ ?]|]. intros H. split; [|done]. apply Hl. by apply (pdw_und _ Hwf) in H as (_ & ? & _). }
  set (T1 := filter (λ p : node * node, p.1 < p.2) T).
  assert (length T = 2 * length T1) as HlenT.
  { assert (T ≡ₚ T1 ++ ((λ p, (p.2, p.1)) <$> T1)) as ->; [|rewrite app_length, fmap_length; lia].
    apply NoDup_Permutation; [by apply nodup_pairs_of| |].
    - apply NoDup_app. split_and!; [by apply NoDup_filter, nodup_pairs_of| |].
      + intros [a b] H1 H2. apply elem_of_list_filter in H1 as [H1 _]. apply elem_of_list_fmap in H2 as ([c d] & E & H2). simpl in E. simplify_eq.
        apply elem_of_list_filter in H2 as [H2 _]. simpl in *. lia.
      + apply NoDup_fmap_2; [intros [? ?] [? ?] E; simpl in E; by simplify_eq|]. by apply NoDup_filter, nodup_pairs_of.
    - intros [a b]. rewrite elem_of_app, elem_of_list_fmap. unfold T1. rewrite elem_of_list_filter. simpl. split.
      + intros H. pose proof H as Hab. apply HT, (pdw_und _ Hwf) in Hab as (_ & _ & Hne). destruct (decide (a < b)); [by left|right].
        exists (b, a). split; [done|]. apply elem_of_list_filter. simpl. split; [lia|]. apply HT, (pdw_sym _ Hwf). by apply HT.
      + intros [[_ ?]|([c d] & E & H)]; [done|]. simpl in E. simplify_eq. apply elem_of_list_filter in H as [_ H]. apply HT, (pdw_sym _ Hwf). by apply HT. }
  assert ((2 * length D + length T) / 2 = length ((norm <$> D) ++ T1)) as ->.
  { rewrite app_length, fmap_length, HlenT. replace (2 * length D + 2 * length T1) with ((length D + length T1) * 2) by lia. by rewrite Nat.div_mul. }
  assert (NoDup ((norm <$> D) ++ T1)) as HndA.
  { apply NoDup_app. split_and!.
    - assert (∀ L, (∀ p, p ∈ L → p ∈ D) → NoDup L → NoDup (norm <$> L)) as HL; [|apply HL; [done|by apply nodup_pairs_of]].
      induction L as [|[x y] L IH]; intros HLD HLn; [constructor|]. apply NoDup_cons in HLn as [H1 H2]. rewrite fmap_cons. apply NoDup_cons. split.
      + rewrite norm_elem. intros [H|H]; [done|]. apply (Hbi x y). split; apply HD, HLD; [left|by right].
      + apply IH; [|done]. intros p Hp. apply HLD. by right.
    - intros [a b] H1 H2. apply elem_of_list_fmap in H1 as ([x y] & E & H1). symmetry in E. apply norm_pair in E as [_ E]. apply elem_of_list_filter in H2 as [_ H2].
      apply HD in H1. apply HT in H2. destruct E as [[-> ->]|[-> ->]]; [|apply (pdw_sym _ Hwf) in H2]; by apply (pdw_one _ Hwf) in H2.
    - by apply NoDup_filter, nodup_pairs_of. }
  exists (list_to_set ((norm <$> D) ++ T1)). split; [|by apply size_list_nodup].
  intros a b. rewrite elem_of_list_to_set, elem_of_app, elem_of_list_fmap. unfold T1. rewrite elem_of_list_filter, HT. simpl. split.
  - intros [([x y] & E & H)|[Hlt H]].
    + symmetry in E. apply norm_pair in E as [Hle E]. apply HD in H. pose proof (pdw_dir _ Hwf _ _ H) as (Vx & Vy & Hne).
      unfold pd_adj. destruct E as [[-> ->]|[-> ->]]; split_and!; try done; try lia; tauto.
    + pose proof (pdw_und _ Hwf _ _ H) as (Vx & Vy & Hne). unfold pd_adj. tauto.
  - intros (Ha & Hb & Hlt & [H|[H|H]]); [by right|left; exists (a, b)|left; exists (b, a)]; (split; [|by apply HD]); symmetry; apply norm_pair; (split; [lia|]); tauto.
Qed.

(** ** neighbours, also with self loops *)
Theorem get_neighbors_ok o g n : iter_ok o → wf_graph g → NoDup (get_neighbors o g n) ∧ ∀ m, m ∈ get_neighbors o g n ↔ m ≠ n ∧ adjacent g n m.
Proof.
  intros Ho Hwf. unfold get_neighbors. split; [by apply NoDup_filter, iter_nodup|]. intros m.
  rewrite elem_of_list_filter, is_connected_spec, iter_elem, elem_of_difference, elem_of_singleton by done. split; [tauto|].
  intros [Hne H]. split_and!; try done. destruct H as [H|H]; by apply Hwf in H as [? ?].
Qed.

(** ** skeleton matrix *)
Definition skel_inv (T : list mark) (g : mgraph) (l : list node) (Q : node → mark → node → Prop) (m : mat) : Prop :=
  mdim m = length l ∧ (∀ i j, ment m i j ≤ 1) ∧
  (∀ i j, ment m i j ≠ 0 → ∃ a k b, l !! i = Some a ∧ l !! j = Some b ∧ k ∈ T ∧ has_mark g a k b) ∧
  (∀ i j a k b, Q a k b → l !! i = Some a → l !! j = Some b → has_mark g a k b → ment m i j = 1).
Lemma skel_impl T g l (Q Q' : node → mark → node → Prop) m : (∀ a k b, has_mark g a k b → Q' a k b → Q a k b) → skel_inv T g l Q m → skel_inv T g l Q' m.
Proof. intros H (H1 & H2 & H3 & H4). split_and!; [done..|]. intros. eapply H4; eauto. Qed.
Lemma skeleton_mat_inv o T g : iter_ok o → (∀ a k b, k ∈ T → has_mark g a k b → a ∈ mnodes g ∧ b ∈ mnodes g) →
  let l := merge_sort le (elements (mnodes g)) in returns (get_skeleton_mat o T g) (skel_inv T g l (λ _ k _, k ∈ T)).
Proof.
  intros Ho Hin l. unfold get_skeleton_mat. fold l.
  assert (NoDup l) as Hnd by (unfold l; rewrite merge_sort_Permutation; apply NoDup_elements).
  assert (∀ n, n ∈ l ↔ n ∈ mnodes g) as Hl by (intros n; unfold l; rewrite merge_sort_Permutation; apply elem_of_elements).
  eapply returns_mono; [apply (for_returns_pre _ _ _ (λ pre, skel_inv T g l (λ a k b, b ∈ pre ∧ k ∈ T)))|].
  - split_and!; [done|simpl; lia|done|]. intros i j a k b [Hb _]. by apply elem_of_nil in Hb.
  - intros pre n post m E Hm.
    eapply returns_mono; [apply (for_returns_pre _ _ _ (λ ks, skel_inv T g l (λ a k b, (b ∈ pre ∧ k ∈ T) ∨ (b = n ∧ k ∈ ks))))|].
    + eapply skel_impl; [|exact Hm]. intros a k b _ [?|[_ Hk]]; [done|by apply elem_of_nil in Hk].
    + intros ks k ks' m2 E2 Hm2. assert (k ∈ T) as HkT by (rewrite E2; set_solver +).
      eapply returns_mono; [apply (for_returns_pre _ _ _ (λ ps, skel_inv T g l (λ a k' b, (b ∈ pre ∧ k' ∈ T) ∨ (b = n ∧ k' ∈ ks) ∨ (b = n ∧ k' = k ∧ a ∈ ps))))|].
      * eapply skel_impl; [|exact Hm2]. intros a k' b _ [?|[?|(_ & _ & Ha)]]; [by left|by right|by apply elem_of_nil in Ha].
      * intros ps p ps' m3 E3 (D1 & D0 & D2 & D3).
        assert (has_mark g p k n) as Hp. { assert (p ∈ o 336 (mset g n k)) as Hp by (rewrite E3; set_solver +). by rewrite iter_elem in Hp. }
        destruct (Hin _ _ _ HkT Hp) as [Vp Vn]. rewrite <-Hl in Vp, Vn.
        destruct (dict_get_index l p Hnd Vp) as (i & -> & Hi). destruct (dict_get_index l n Hnd Vn) as (j & -> & Hj).
        cbn [mbind res_bind returns]. split_and!; [done|..]; cbn [ment mdim].
        -- intros i' j'. destruct (decide (i' = i ∧ j' = j)); [done|apply D0].
        -- intros i' j'. destruct (decide (i' = i ∧ j' = j)) as [[-> ->]|]; [|apply D2]. intros _. by exists p, k, n.
        -- intros i' j' a k' b Hq Hi' Hj' Hk'. destruct (decide (i' = i ∧ j' = j)) as [[-> ->]|Hne]; [done|].
           apply (D3 i' j' a k' b); [|done..]. destruct Hq as [?|[?|(-> & -> & Hq)]]; [by left|right; by left|].
           apply elem_of_app in Hq as [?|Hq]; [right; by right|]. apply elem_of_list_singleton in Hq as ->.
           destruct Hne. split; by eapply (NoDup_lookup l).
      * cbn beta. intros m3. apply skel_impl. intros a k' b Hk [?|[-> Hk']]; [by left|right].
        apply elem_of_app in Hk' as [?|Hk']; [by left|]. apply elem_of_list_singleton in Hk' as ->. right. split_and!; [done..|]. by apply iter_elem.
    + cbn beta. intros m2. apply skel_impl. intros a k b Hk [Hb HkT]. apply elem_of_app in Hb as [?|Hb]; [by left|right].
      apply elem_of_list_singleton in Hb as ->. done.
  - cbn beta. intros m. apply skel_impl. intros a k b Hk HkT. split; [|done]. apply iter_elem; [done|]. by apply (Hin _ _ _ HkT) in Hk as [_ ?].
Qed.
(** entry (i, j) of the skeleton matrix: is there a mark at the j-th node on an edge from the i-th node? *)
Theorem skeleton_mat_ok o T g : iter_ok o → (∀ a k b, k ∈ T → has_mark g a k b → a ∈ mnodes g ∧ b ∈ mnodes g) →
  let l := merge_sort le (elements (mnodes g)) in returns (get_skeleton_mat o T g) (λ m, mdim m = size (mnodes g) ∧
    ∀ i j a b, l !! i = Some a → l !! j = Some b → ment m i j ≤ 1 ∧ (ment m i j = 1 ↔ ∃ k, k ∈ T ∧ has_mark g a k b)).
Proof.
  intros Ho Hin l. eapply returns_mono; [by apply skeleton_mat_inv|]. cbn beta. fold l. intros m (D1 & D0 & D2 & D3). split.
  { rewrite D1. unfold l. by rewrite merge_sort_Permutation. }
  intros i j a b Hi Hj. split; [done|]. split.
  - intros E. destruct (D2 i j) as (a' & k & b' & Ha & Hb & Hk & Hm); [by rewrite E|]. simplify_eq. by exists k.
  - intros (k & Hk & Hm). by eapply D3.
Qed.
Corollary pag_skeleton_mat o g : iter_ok o → mg_wf g →
  let l := merge_sort le (elements (mnodes g)) in returns (get_skeleton_mat o PAG_T g) (λ m, mdim m = size (mnodes g) ∧
    ∀ i j a b, l !! i = Some a → l !! j = Some b → ment m i j ≤ 1 ∧ (ment m i j = 1 ↔ mg_adj g a b)).
Proof.
  intros Ho Hwf l. eapply returns_mono; [apply skeleton_mat_ok; [done|]|].
  { intros a k b _ Hk. by apply (mgw_in _ Hwf) in Hk as (? & ? & _). }
  cbn beta. fold l. intros m [H1 H2]. split; [done|]. intros i j a b Hi Hj. destruct (H2 i j a b Hi Hj) as [H3 H4]. split; [done|]. rewrite H4.
  unfold mg_adj. split; [intros (k & _ & ?); by exists k|]. intros [k Hk]. exists k. split; [|done]. by destruct k; set_solver +.
Qed.
Theorem pdag_skeleton_mat_refuted : ∃ o g m i j a b, iter_ok o ∧ pd_wf g ∧ get_skeleton_mat o PDAG_T g = Ok m ∧
  merge_sort le (elements (mnodes g)) !! i = Some a ∧ merge_sort le (elements (mnodes g)) !! j = Some b ∧ pd_adj g a b ∧ ment m i j = 0.
Proof.
  set (g := mk_mg [0; 1] (dir_ 0 1)).
  assert (match get_skeleton_mat ord_up PDAG_T g with Ok m => bool_decide (ment m 1 0 = 0) | _ => false end = true) as H by by vm_compute.
  destruct (get_skeleton_mat ord_up PDAG_T g) as [m| |] eqn:E; [|done..]. apply bool_decide_eq_true in H.
  exists ord_up, g, m, 1, 0, 1, 0. split; [apply ord_up_ok|].
  assert (∀ a b, darrow g a b ↔ a = 0 ∧ b = 1) as Hd.
  { intros a b. unfold darrow, g. rewrite mk_mg_mark. unfold dir_. set_solver +. }
  assert (∀ a b, ¬ uline g a b) as Hu.
  { intros a b. unfold uline, g. rewrite mk_mg_mark. unfold dir_. set_solver +. }
  split; [split|].
  - intros a b [-> ->]%Hd. unfold g, mk_mg. cbn [mnodes]. split_and!; [set_solver +..|done].
  - intros a b H'. by apply Hu in H'.
  - intros a b H'. by apply Hu in H'.
  - intros a b H'. by apply Hu in H'.
  - split; [exact E|]. split; [by vm_compute|]. split; [by vm_compute|]. split; [|exact H]. right. right. by apply Hd.
Qed.
