(** Proofs about the search for explanations. *)
From Verif Require Import Base BaseLemmas ModelGraph Spec ModelMixed SpecMixed ModelPAG ModelPDS SpecPDS ModelPC ModelFCI ModelExplain SpecExplain
  ProofPDS ProofPDS2 ProofPDS3 ProofPDS4 ProofPDS5 ProofPDS6 ProofData ProofFCI3.

(** ** searching by levels *)
Section levels.
  Context {A : Type} (f : nat → list A) (minimal : bool).
  Definition nonempty (l : list A) : bool := match l with [] => false | _ => true end.
  Definition lev_step (body : nat → list A * bool → res (list A * bool)) := 
    ∀ k s, body k s = Ok (s.1 ++ f k, s.2 || nonempty (f k)).
  Lemma levels_ok body ks stop : lev_step body → (∀ b, stop b = b && minimal) →
    returns (for_brk ks (λ k s, s ← body k s; Ok (s, stop s.2)) ([], false)) (λ s,
      if minimal then
        (∃ pre k post, ks = pre ++ k :: post ∧ s.1 = f k ∧ f k ≠ [] ∧ ∀ j, j ∈ pre → f j = []) ∨ (s.1 = [] ∧ ∀ j, j ∈ ks → f j = [])
      else s.1 = concat (f <$> ks)).
  Proof.
    intros Hb Hs. destruct minimal.
    - apply (for_brk_returns _ _ _ (λ pre s, s = ([], false) ∧ ∀ j, j ∈ pre → f j = [])).
      + split; [done|]. intros j Hj. by apply elem_of_nil in Hj.
      + intros pre k post s -> [-> Hpre]. rewrite Hb. simpl. rewrite Hs. destruct (f k) as [|x l] eqn:Ek; simpl.
        * split; [done|]. intros j. rewrite elem_of_app, elem_of_list_singleton. intros [Hj| ->]; [by apply Hpre|done].
        * left. exists pre, k, post. rewrite Ek. done.
      + intros s [-> H]. right. done.
    - apply (for_brk_returns _ _ _ (λ pre s, s.1 = concat (f <$> pre))).
      + done.
      + intros pre k post s -> E. rewrite Hb. simpl. rewrite Hs, andb_false_r. simpl. rewrite fmap_app, concat_app. simpl. rewrite app_nil_r. by rewrite E.
      + done.
  Qed.
End levels.
Arguments lev_step {A}.

Lemma for_collect {A B} (l : list A) (test : A → bool) (h : A → B) : ∀ s : list B * bool,
  for_ l (λ c s, if test c then Ok (s.1 ++ [h c], true) else Ok s) s =
  Ok (s.1 ++ (h <$> filter (λ c, test c = true) l), s.2 || nonempty (h <$> filter (λ c, test c = true) l)).
Proof.
  induction l as [|x l IH]; intros [a b]; simpl; [by rewrite app_nil_r, orb_false_r|].
  rewrite filter_cons. destruct (test x) eqn:E; simpl.
  - rewrite IH. simpl. rewrite <-app_assoc. simpl. by rewrite orb_true_r.
  - rewrite IH. done.
Qed.

(** from levels to sizes *)
Section sizes.
  Context {A B : Type} (f : nat → list A) (P : B → Prop) (sz : B → nat) (pr : A → B) (N : nat).
  Hypothesis Hf : ∀ k c, 1 ≤ k → k ≤ N → c ∈ pr <$> f k ↔ P c ∧ sz c = k.
  Hypothesis HP : ∀ c, P c → 1 ≤ sz c ∧ sz c ≤ N.
  Lemma levels_minimal l :
    ((∃ pre k post, seq 1 N = pre ++ k :: post ∧ l = f k ∧ f k ≠ [] ∧ ∀ j, j ∈ pre → f j = []) ∨ (l = [] ∧ ∀ j, j ∈ seq 1 N → f j = [])) →
    exactly_minimal P sz (pr <$> l).
  Proof using Hf HP.
    assert (∀ j c, f j = [] → P c → sz c ≠ j) as Hno.
    { intros j c E Hc <-. destruct (HP c Hc) as [H1 H2]. assert (c ∈ pr <$> f (sz c)) as Hin by (apply Hf; done). rewrite E in Hin. by apply elem_of_nil in Hin. }
    intros [(pre & k & post & E & -> & Hne & Hpre)|[-> Hall]].
    - assert (k ∈ seq 1 N) as Hk by (rewrite E; set_solver +). rewrite elem_of_seq in Hk. exists k. split; [intros c; apply Hf; lia|].
      intros c Hc. destruct (decide (k ≤ sz c)) as [|Hlt]; [done|]. exfalso. destruct (HP c Hc) as [H1 H2].
      assert (seq 1 N !! (sz c - 1) = Some (sz c)) as Hl by (apply lookup_seq; lia).
      assert (seq 1 N !! length pre = Some k) as Hl' by (rewrite E; by apply list_lookup_middle). apply lookup_seq in Hl' as [El _].
      rewrite E, lookup_app_l in Hl by lia. apply elem_of_list_lookup_2, Hpre in Hl. by apply (Hno (sz c) c).
    - exists (N + 1). assert (∀ c, ¬ P c) as Hn.
      { intros c Hc. destruct (HP c Hc) as [H1 H2]. apply (Hno (sz c) c); [|done|done]. apply Hall. rewrite elem_of_seq. lia. }
      split; [|intros c Hc; by apply Hn in Hc]. intros c. split; [intros H; by apply elem_of_nil in H|]. intros [Hc _]. by apply Hn in Hc.
  Qed.
  Lemma levels_all l : l = concat (f <$> seq 1 N) → ∀ c, c ∈ pr <$> l ↔ P c.
  Proof using Hf HP.
    intros -> c. rewrite elem_of_list_fmap. split.
    - intros (x & -> & Hx). apply elem_concat in Hx as (l & Hx & Hl). apply elem_of_list_fmap in Hl as (k & -> & Hk). rewrite elem_of_seq in Hk.
      apply (Hf k); [lia|lia|]. by apply elem_of_list_fmap_1.
    - intros Hc. destruct (HP c Hc) as [H1 H2]. assert (c ∈ pr <$> f (sz c)) as Hin by (by apply Hf). apply elem_of_list_fmap in Hin as (x & -> & Hx).
      exists x. split; [done|]. apply elem_concat. exists (f (sz (pr x))). split; [done|]. apply elem_of_list_fmap. exists (sz (pr x)). rewrite elem_of_seq. split; [done|lia].
  Qed.
End sizes.

Lemma in_order_app {A} (R : A → A → Prop) l1 l2 : in_order R l1 → in_order R l2 → (∀ x y, x ∈ l1 → y ∈ l2 → R x y) → in_order R (l1 ++ l2).
Proof.
  intros H1 H2 Hx i j x y Hij Hi Hj. apply lookup_app_Some in Hi as [Hi|[Li Hi]]; apply lookup_app_Some in Hj as [Hj|[Lj Hj]].
  - by apply (H1 i j).
  - apply Hx; by eapply elem_of_list_lookup_2.
  - apply lookup_lt_Some in Hj. lia.
  - apply (H2 (i - length l1) (j - length l1)); [lia|done|done].
Qed.
Lemma in_order_concat {A} (R : A → A → Prop) (f : nat → list A) n : ∀ s, (∀ k, in_order R (f k)) → (∀ j k x y, j < k → x ∈ f j → y ∈ f k → R x y) →
  in_order R (concat (f <$> seq s n)).
Proof.
  induction n as [|n IH]; intros s H1 H2; simpl; [intros i j x y _ Hi; by rewrite lookup_nil in Hi|]. apply in_order_app; [done|by apply IH|].
  intros x y Hx Hy. apply elem_concat in Hy as (l & Hy & Hl). apply elem_of_list_fmap in Hl as (k & -> & Hk). rewrite elem_of_seq in Hk. by apply (H2 s k); [lia|..].
Qed.
Lemma nodup_concat {A} (f : nat → list A) (sz : A → nat) n : ∀ s, (∀ k, NoDup (f k)) → (∀ k x, x ∈ f k → sz x = k) → NoDup (concat (f <$> seq s n)).
Proof.
  induction n as [|n IH]; intros s H1 H2; simpl; [constructor|]. apply NoDup_app. split; [done|]. split; [|by apply IH].
  intros x Hx Hy. apply elem_concat in Hy as (l & Hy & Hl). apply elem_of_list_fmap in Hl as (k & -> & Hk). rewrite elem_of_seq in Hk.
  apply H2 in Hx, Hy. lia.
Qed.

(** ** exhaustive search *)
Definition ex_level (tokens : list nat) (target : nat) (expl : list nat → bool) (k : nat) : list (list nat) :=
  filter (λ c, (if decide (target ∈ c) then false else expl c) = true) (combs k tokens).
Lemma ex_level_elem tokens target expl k c : 1 ≤ k → c ∈ ex_level tokens target expl k ↔ explains tokens target expl c ∧ length c = k.
Proof.
  intros Hk. unfold ex_level, explains. rewrite elem_of_list_filter, elem_of_combs. destruct (decide (target ∈ c)).
  - split; [intros [? _]; done|]. intros [(_ & _ & ? & _) _]. done.
  - split; [|tauto]. intros (H1 & H2 & H3). split; [|done]. split; [done|]. split; [intros ->; simpl in *; lia|done].
Qed.
Lemma ex_body tokens target expl : lev_step (ex_level tokens target expl) (λ k s, for_ (combs k tokens) (λ c s,
      if decide (target ∈ c) then Ok s else if expl c then Ok (s.1 ++ [c], true) else Ok s) s).
Proof.
  intros k s. rewrite (for_ext _ _ (λ c s, if (if decide (target ∈ c) then false else expl c) then Ok (s.1 ++ [id c], true) else Ok s)).
  - rewrite for_collect. by rewrite list_fmap_id.
  - intros c s' _. destruct (decide (target ∈ c)); done.
Qed.
Lemma exhaustive_ok tokens target expl minimal : target ∈ tokens →
  returns (exhaustive_search tokens target expl minimal) (λ r,
    (if minimal then exactly_minimal (explains tokens target expl) length r else ∀ c, c ∈ r ↔ explains tokens target expl c) ∧
    (NoDup tokens → NoDup r) ∧ in_order (λ c d, length c ≤ length d) r).
Proof.
  intros Ht. unfold exhaustive_search. eapply returns_bind.
  { apply (levels_ok (ex_level tokens target expl) minimal _ _ (λ b, minimal && b)); [apply ex_body|intros b; apply andb_comm]. }
  cbn beta. intros s Hs. simpl.
  assert (∀ k c, 1 ≤ k → k ≤ length tokens - 1 → c ∈ id <$> ex_level tokens target expl k ↔ explains tokens target expl c ∧ length c = k) as Hf.
  { intros k c Hk _. rewrite list_fmap_id. by apply ex_level_elem. }
  assert (∀ c, explains tokens target expl c → 1 ≤ length c ∧ length c ≤ length tokens - 1) as HP.
  { intros c (H1 & H2 & H3 & _). split; [destruct c; [done|simpl; lia]|]. pose proof (sublist_length _ _ H1) as Hle.
    assert (length c ≠ length tokens) as Hne; [|lia]. intros E. apply H3. assert (c = tokens) as ->; [|done].
    apply (sublist_length_eq) || idtac. clear -H1 E. revert E. induction H1 as [|x l1 l2 H IH|x l1 l2 H IH]; intros E; simpl in *; [done|f_equal; apply IH; lia|].
    apply sublist_length in H. lia. }
  assert (∀ k, NoDup tokens → NoDup (ex_level tokens target expl k)) as Hnd.
  { intros k Hn. unfold ex_level. apply NoDup_filter. by apply combs_nodup. }
  assert (∀ k x, x ∈ ex_level tokens target expl k → length x = k) as Hsz.
  { intros k x Hx. unfold ex_level in Hx. rewrite elem_of_list_filter, elem_of_combs in Hx. tauto. }
  destruct minimal.
  - split; [|].
    + pose proof (levels_minimal _ _ _ id _ Hf HP s.1 Hs) as H. by rewrite list_fmap_id in H.
    + destruct Hs as [(pre & k & post & _ & -> & _)|[-> _]].
      * split; [apply Hnd|]. intros i j x y _ Hi Hj. apply elem_of_list_lookup_2, Hsz in Hi, Hj. lia.
      * split; [intros _; constructor|]. intros i j x y _ Hi. by rewrite lookup_nil in Hi.
  - split; [|].
    + intros c. pose proof (levels_all _ _ _ id _ Hf HP s.1 Hs c) as H. by rewrite list_fmap_id in H.
    + rewrite Hs. split.
      * intros Hn. eapply nodup_concat; [intros k; by apply Hnd|exact Hsz].
      * apply in_order_concat.
        -- intros k i j x y _ Hi Hj. apply elem_of_list_lookup_2, Hsz in Hi, Hj. lia.
        -- intros j k x y Hjk Hx Hy. apply Hsz in Hx, Hy. lia.
Qed.

(** ** CLEANN *)
Definition cl_level (o : order) (t : ptree) (X : nset) (expl : list nat → bool) (k : nat) : list (nset * option nat) :=
  filter (λ c, expl (o 92 c.1) = true) (sort_by_dist (get_subsets_list o t X k)).
Lemma ascending_order l : ascending l → in_order (λ x y, dist_le x.2 y.2 = true) l.
Proof.
  induction l as [|z l IH]; intros H i j x y Hij Hi Hj; [done|]. destruct H as [H1 H2]. destruct j as [|j]; [lia|]. destruct i as [|i].
  - injection Hi as <-. apply H1. by eapply elem_of_list_lookup_2.
  - apply (IH H2 i j); [lia|done|done].
Qed.
Lemma ascending_filter (P : nset * option nat → Prop) `{∀ x, Decision (P x)} l : ascending l → ascending (filter P l).
Proof.
  induction l as [|x l IH]; intros H1; [done|]. destruct H1 as [H1 H2]. rewrite filter_cons. destruct (decide (P x)); [|by apply IH].
  split; [|by apply IH]. intros y Hy. apply elem_of_list_filter in Hy as [_ Hy]. by apply H1.
Qed.
Lemma sort_perm l : sort_by_dist l ≡ₚ l.
Proof.
  induction l as [|x l IH]; [done|]. cbn [sort_by_dist foldr]. fold (sort_by_dist l). trans (x :: sort_by_dist l); [|by constructor]. generalize (sort_by_dist l). clear. intros l.
  induction l as [|y l IH]; [done|]. cbn [sort_insert]. destruct (dist_le x.2 y.2); [done|]. rewrite IH. by apply Permutation_swap.
Qed.

Lemma explain_ok o fuel g target ms mr expl minimal : iter_ok o → mg_wf g → target ∈ mnodes g →
  size (mnodes g) * size (mnodes g) + size (mnodes g) < fuel →
  ∃ t X, pds_tree_spec g (mnodes g) target (default (size (mnodes g) - 1) mr) t X ∧
    let P := tree_explains t X (default (size X) ms) (λ Y, expl (o 92 Y)) in
    returns (explain o fuel g target ms mr (Some expl) minimal) (λ r,
      (if minimal then exactly_minimal P size r.*1 else ∀ Y, Y ∈ r.*1 ↔ P Y) ∧
      NoDup r.*1 ∧ in_order smaller_or_nearer r ∧ ∀ Y d, (Y, d) ∈ r → ∃ n, d = Some n ∧ t_total t Y n).
Proof.
  intros Ho Hwf Ht Hf.
  destruct (proj1 (returns_ok _ _) (create_pds_tree_ok o fuel g target None mr Ho Hwf Ht ltac:(done) Hf)) as ([t X] & E & Hspec). cbn [fst snd default from_option] in Hspec.
  exists t, X. split; [done|]. cbn zeta. unfold explain. rewrite E. cbn [mbind res_bind]. unfold explain_search. cbn [mbind res_bind fst snd]. set (m := default (size X) ms).
  set (P := tree_explains t X m (λ Y, expl (o 92 Y))).
  pose proof (pt_wf _ _ _ _ _ _ Hspec) as Htw. pose proof (pt_depth _ _ _ _ _ _ Hspec) as Htd.
  assert (∀ k Y d, (Y, d) ∈ cl_level o t X expl k ↔ Y ⊆ X ∧ size Y = k ∧ t_legal t (elements Y) ∧ expl (o 92 Y) = true ∧ ∃ n, d = Some n ∧ t_total t Y n) as Hl.
  { intros k Y d. unfold cl_level. rewrite elem_of_list_filter, elem_sort. rewrite (proj2 (get_subsets_list_ok o t X k Ho Htw Htd)). cbn [fst]. tauto. }
  assert (∀ k x, x ∈ cl_level o t X expl k → size x.1 = k) as Hsz by (intros k [Y d] Hx; apply Hl in Hx; tauto).
  assert (∀ k, NoDup (cl_level o t X expl k).*1) as Hnd.
  { intros k. unfold cl_level. assert (NoDup (sort_by_dist (get_subsets_list o t X k)).*1) as H.
    { rewrite sort_perm. apply (get_subsets_list_ok o t X k Ho Htw Htd). }
    revert H. generalize (sort_by_dist (get_subsets_list o t X k)). clear. intros l. induction l as [|x l IH]; [done|]. simpl. intros [Hx H]%NoDup_cons.
    rewrite filter_cons. destruct (decide _); [|by apply IH]. simpl. constructor; [|by apply IH]. intros Hin. apply Hx.
    apply elem_of_list_fmap in Hin as (y & Ey & Hy). apply elem_of_list_filter in Hy as [_ Hy]. rewrite Ey. by apply elem_of_list_fmap_1. }
  assert (∀ k, in_order smaller_or_nearer (cl_level o t X expl k)) as Hord.
  { intros k i j [Y d] [Y' d'] Hij Hi Hj. assert (dist_le d d' = true) as Hd.
    { apply (ascending_order _ (ascending_filter (λ c, expl (o 92 c.1) = true) _ (sort_ascending (get_subsets_list o t X k))) i j (Y, d) (Y', d')); done. }
    apply elem_of_list_lookup_2, Hl in Hi as (_ & H1 & _ & _ & n & -> & _). apply elem_of_list_lookup_2, Hl in Hj as (_ & H2 & _ & _ & n' & -> & _).
    right. split; [simpl; lia|]. exists n, n'. split; [done|]. split; [done|]. simpl in Hd. by apply bool_decide_eq_true in Hd. }
  assert (∀ k Y, 1 ≤ k → k ≤ m → Y ∈ (cl_level o t X expl k).*1 ↔ P Y ∧ size Y = k) as Hfk.
  { intros k Y Hk Hkm. rewrite elem_of_list_fmap. split.
    - intros ([Y' d] & -> & Hx). apply Hl in Hx as (H1 & H2 & H3 & H4 & _). cbn [fst]. split; [|done]. split; [done|]. split; [intros ->; rewrite size_empty in H2; lia|].
      split; [lia|]. done.
    - intros [(H1 & H2 & H3 & H4 & H5) H6].
      assert (∃ n, t_total t Y n) as [n Hn].
      { assert (∃ f : node → nat, ∀ v, v ∈ elements Y → t_distance t v (f v)) as [f Hff].
        { assert (∀ v, v ∈ elements Y → ∃ d, t_distance t v d) as Hd.
          { intros v Hv. rewrite elem_of_elements in Hv. pose proof (get_minimal_distance_ok v t Htw Htd) as Hm.
            destruct (get_minimal_distance v t) as [d|]; [by exists d|]. exfalso. apply Hm. apply (pt_nodes _ _ _ _ _ _ Hspec). by apply H1. }
          clear -Hd. revert Hd. generalize (elements Y). induction l as [|v l IH]; intros Hd; [exists (λ _, 0); intros v Hv; by apply elem_of_nil in Hv|].
          destruct IH as [f Hf]; [intros u Hu; apply Hd; by right|]. destruct (Hd v ltac:(by left)) as [d Hdv].
          exists (λ u, if decide (u = v) then d else f u). intros u Hu. destruct (decide (u = v)) as [->|]; [done|]. apply Hf. apply elem_of_cons in Hu as [?|?]; done. }
        exists (sum_list (f <$> elements Y)), f. split; [|done]. intros v Hv. apply Hff. by rewrite elem_of_elements. }
      exists (Y, Some n). split; [done|]. apply Hl. split; [done|]. split; [done|]. split; [done|]. split; [done|]. by exists n. }
  assert (∀ Y, P Y → 1 ≤ size Y ∧ size Y ≤ m) as HP.
  { intros Y (_ & H2 & H3 & _). split; [|done]. destruct (decide (size Y = 0)) as [E0|]; [|lia]. apply size_empty_inv in E0. exfalso. apply H2. set_solver +E0. }
  eapply returns_bind.
  { apply (levels_ok (cl_level o t X expl) minimal (λ k s, for_ (sort_by_dist (get_subsets_list o t X k)) (λ c s, if expl (o 92 c.1) then Ok (s.1 ++ [c], true) else Ok s) s) _ (λ b, b && minimal)).
    - intros k s. rewrite (for_collect _ (λ c, expl (o 92 c.1)) id). by rewrite list_fmap_id.
    - done. }
  cbn beta. intros s Hs. change (returns (Ok s.1) ?Q) with (Q s.1).
  split; [|split; [|split]].
  - destruct minimal; [by apply (levels_minimal _ _ _ fst _ Hfk HP)|by apply (levels_all _ _ _ fst _ Hfk HP)].
  - destruct minimal.
    + destruct Hs as [(pre & k & post & _ & -> & _)|[-> _]]; [apply Hnd|constructor].
    + rewrite Hs. clear -Hnd Hsz. generalize 1 as a. induction m as [|m IH]; intros a; simpl; [constructor|]. rewrite fmap_app. apply NoDup_app.
      split; [apply Hnd|]. split; [|apply IH]. intros Y HY HY'. apply elem_of_list_fmap in HY as (x & -> & Hx). apply elem_of_list_fmap in HY' as (y & Ey & Hy).
      apply elem_concat in Hy as (l & Hy & Hl). apply elem_of_list_fmap in Hl as (k & -> & Hk). rewrite elem_of_seq in Hk. apply Hsz in Hx, Hy. rewrite Ey in Hx. lia.
  - destruct minimal.
    + destruct Hs as [(pre & k & post & _ & -> & _)|[-> _]]; [apply Hord|]. intros i j x y _ Hi. by rewrite lookup_nil in Hi.
    + rewrite Hs. apply in_order_concat; [apply Hord|]. intros j k x y Hjk Hx Hy. apply Hsz in Hx, Hy. left. lia.
  - intros Y d Hin. assert (∃ k, (Y, d) ∈ cl_level o t X expl k) as [k Hk].
    { destruct minimal.
      - destruct Hs as [(pre & k & post & _ & Es & _)|[Es _]]; rewrite Es in Hin; [by exists k|by apply elem_of_nil in Hin].
      - rewrite Hs in Hin. apply elem_concat in Hin as (l & Hy & Hl'). apply elem_of_list_fmap in Hl' as (k & -> & _). by exists k. }
    apply Hl in Hk. tauto.
Qed.

Lemma explain_none_ok o fuel g target ms mr minimal : iter_ok o → mg_wf g → target ∈ mnodes g →
  size (mnodes g) * size (mnodes g) + size (mnodes g) < fuel →
  ∃ t X, pds_tree_spec g (mnodes g) target (default (size (mnodes g) - 1) mr) t X ∧
    explain o fuel g target ms mr None minimal = Ok (match ms with Some m => if decide (size X ≤ m) then [(X, Some m)] else [] | None => [(X, Some (size X))] end).
Proof.
  intros Ho Hwf Ht Hf.
  destruct (proj1 (returns_ok _ _) (create_pds_tree_ok o fuel g target None mr Ho Hwf Ht ltac:(done) Hf)) as ([t X] & E & Hspec). cbn [fst snd default from_option] in Hspec.
  exists t, X. split; [done|]. unfold explain. rewrite E. cbn [mbind res_bind]. unfold explain_search. cbn [mbind res_bind fst snd]. destruct ms as [m|]; cbn [default from_option]; [done|]. 
  destruct (decide (size X ≤ size X)); [done|lia].
Qed.

(** ** sequences of calls *)
Section calls.
Context (o : order) (fuel : nat) (learn : nat → res mgraph) (tester : option (list nat → node → bool)) (minimal : bool).
Local Notation calls := (cleann_calls o fuel learn tester minimal).
Local Notation call_res := (call_results o fuel tester minimal).

Lemma call_results_explain g c : match call_res g c with Ok r => Ok (er_expl r) | Raise e => Raise e | Diverges => Diverges end =
  explain o fuel g (ec_target c) (ec_size c) (ec_range c) ((λ f l, f l (ec_target c)) <$> tester) minimal.
Proof.
  unfold call_results, explain_results, explain. destruct (create_pds_tree _ _ _ _ _ _) as [tX| |]; [|done..]. cbn [mbind res_bind].
  by destruct (explain_search _ _ _ _ _).
Qed.

Lemma calls_learned g k rs cs : ∃ rs',
  calls (CState (Some g) k rs) cs = (CState (Some g) k rs', (λ c, explain o fuel g (ec_target c) (ec_size c) (ec_range c) ((λ f l, f l (ec_target c)) <$> tester) minimal) <$> cs) ∧
  ∀ t r, rs' !! t = Some r ↔ latest_result (call_res g) cs t r ∨ (rs !! t = Some r ∧ ∀ c, c ∈ cs → ec_target c = t → ∀ r', call_res g c ≠ Ok r').
Proof.
  revert rs. induction cs as [|c cs IH]; intros rs.
  { exists rs. split; [done|]. intros t r. split; [intros H; right; split; [done|by intros c ?%elem_of_nil]|].
    intros [(pre & c & post & E & _)|[H _]]; [by destruct pre|done]. }
  rewrite fmap_cons, <-call_results_explain. cbn [cleann_calls]. unfold cleann_call at 1 2 3. cbn [cl_graph cl_learns cl_results fst snd].
  set (rs1 := match call_res g c with Ok r => <[ec_target c := r]> rs | _ => rs end).
  destruct (IH rs1) as (rs' & E & Hrs). exists rs'. split.
  { unfold rs1 in E. destruct (call_res g c) as [r|e|]; cbn [fst snd]; rewrite E; done. }
  intros t r. rewrite Hrs. unfold rs1. clear IH E Hrs. split.
  - intros [(pre & c' & post & -> & H)|[Hl Hno]]; [left; by exists (c :: pre), c', post|].
    destruct (call_res g c) as [r0|e|] eqn:Ec.
    + apply lookup_insert_Some in Hl as [[Ht <-]|[Ht Hl]].
      * left. exists [], c, cs. split_and!; [done|done|done|]. intros c' Hc' Ht' r'. by apply Hno.
      * right. split; [done|]. intros c' [->|Hc']%elem_of_cons; [done|by apply Hno].
    + right. split; [done|]. intros c' [->|Hc']%elem_of_cons; [by rewrite Ec|by apply Hno].
    + right. split; [done|]. intros c' [->|Hc']%elem_of_cons; [by rewrite Ec|by apply Hno].
  - intros [(pre & c' & post & Ecs & Ht & Hc' & Hno)|[Hl Hno]].
    + destruct pre as [|c0 pre]; simplify_eq/=.
      * right. split; [|done]. rewrite Hc'. apply lookup_insert.
      * left. by exists pre, c', post.
    + right. split; [|intros c' Hc'; apply Hno; by right]. destruct (call_res g c) as [r0|e|] eqn:Ec; [|done..].
      rewrite lookup_insert_ne; [done|]. intros Ht. apply (Hno c ltac:(left) Ht r0). done.
Qed.

Lemma calls_first g c cs : learn 0 = Ok g →
  calls cleann_init (c :: cs) = calls (CState (Some g) 1 ∅) (c :: cs).
Proof. intros H. cbn [cleann_calls]. unfold cleann_call, cleann_init. cbn [cl_graph cl_learns cl_results fst snd]. by rewrite H. Qed.
End calls.
