(** Proofs about the number of CI tests of ICD and FCI. *)
From Verif Require Import Base BaseLemmas ModelGraph Spec ModelMixed SpecMixed ModelPAG ModelPDS ModelPC SpecPC ModelFCI SpecFCI ProofPC ProofPDS2 ProofFCI3 ProofFCI ProofFCI4 ProofFCI6 ProofExplain
  SpecPCCount ProofPCCount SpecICDCount.

(** ** how often an element occurs in a list *)
Section occ.
  Context {A : Type} `{EqDecision A}.
  Definition occ (x : A) (l : list A) : nat := length (filter (x =.) l).
  Lemma occ_app x l k : occ x (l ++ k) = occ x l + occ x k.
  Proof. unfold occ. by rewrite filter_app, app_length. Qed.
  Lemma occ_cons x y l : occ x (y :: l) = (if decide (x = y) then 1 else 0) + occ x l.
  Proof. unfold occ. rewrite filter_cons. by case_decide. Qed.
  Lemma occ_perm x l k : l ≡ₚ k → occ x l = occ x k.
  Proof. intros H. unfold occ. by rewrite H. Qed.
  Lemma occ_none x l : x ∉ l → occ x l = 0.
  Proof. induction l as [|y l IH]; [done|]. intros H. rewrite occ_cons, IH by set_solver +H. case_decide; [|done]. subst. destruct H. left. Qed.
  Lemma occ_nodup x l : NoDup l → occ x l ≤ 1.
  Proof. induction 1 as [|y l Hy _ IH]; [unfold occ; cbn; lia|]. rewrite occ_cons. case_decide; [subst; rewrite occ_none by done; lia|lia]. Qed.
  Lemma occ_sublist x l k : l `sublist_of` k → occ x l ≤ occ x k.
  Proof. induction 1 as [|y l k _ IH|y l k _ IH]; [done|rewrite !occ_cons; lia|rewrite occ_cons; lia]. Qed.
  Lemma length_occ m (k : list A) : ∀ l, (∀ x, x ∈ l → x ∈ k) → (∀ x, occ x l ≤ m) → length l ≤ m * length k.
  Proof.
    induction k as [|y k IH]; intros l H1 H2.
    - destruct l as [|x l]; [cbn; lia|]. assert (x ∈ []) as ?%elem_of_nil by (apply H1; left). done.
    - cbn [length]. specialize (H2 y) as Hy. assert (length l = occ y l + length (filter (λ x, y ≠ x) l)) as ->.
      { unfold occ. clear. induction l as [|x l IH]; [done|]. rewrite !filter_cons. repeat case_decide; try done; cbn; lia. }
      enough (length (filter (λ x, y ≠ x) l) ≤ m * length k) by lia. apply IH.
      + intros x [Hne [?|?]%H1%elem_of_cons]%elem_of_list_filter; congruence.
      + intros x. etransitivity; [|apply (H2 x)]. unfold occ. clear. induction l as [|z l IH]; [done|].
        rewrite filter_cons. case_decide; rewrite !filter_cons; case_decide; cbn; lia.
  Qed.
End occ.
Lemma occ_fmap_sublist {A B} `{EqDecision B} (f : A → B) x l k : l `sublist_of` k → occ x (f <$> l) ≤ occ x (f <$> k).
Proof. intros H. apply occ_sublist. induction H; cbn; by constructor. Qed.
Lemma occ_pair {A B} `{EqDecision A, EqDecision B} (x a : A) (y : B) l : occ (x, y) ((a,.) <$> l) ≤ occ y l.
Proof. induction l as [|b l IH]; [done|]. rewrite fmap_cons, !occ_cons. repeat case_decide; simplify_eq; lia. Qed.

Lemma asked_occ q log : asked q log = occ q (question <$> log.*1).
Proof. unfold asked, occ. induction log as [|[x b] log IH]; [done|]. rewrite !fmap_cons, !filter_cons. cbn [fst]. repeat case_decide; try congruence; cbn; congruence. Qed.

(** ** all the questions about V with k conditioning nodes *)
Definition all_questions (V : nset) (k : nat) : list (nset * nset) :=
  p ← comb2 (elements V); (λ c, ({[p.1; p.2]}, list_to_set c)) <$> combs k (elements (V ∖ {[p.1; p.2]})).
Lemma all_questions_length V k : 2 * length (all_questions V k) = size V * (size V - 1) * choose (size V - 2) k.
Proof.
  assert (length (all_questions V k) = length (comb2 (elements V)) * choose (size V - 2) k) as ->.
  { unfold all_questions. assert (∀ p, p ∈ comb2 (elements V) → length ((λ c, ({[p.1; p.2]} : nset, list_to_set c : nset)) <$> combs k (elements (V ∖ {[p.1; p.2]}))) = choose (size V - 2) k) as H.
    { intros [a b] Hp. rewrite fmap_length, combs_length. f_equal. change (length (elements ?X)) with (size X). cbn [fst snd].
      destruct (comb2_iter (λ _ S, elements S) 0 V a b ltac:(by intros ??)) as [H _]. destruct (H Hp) as (Ha & Hb & Hne).
      rewrite size_difference by set_solver +Ha Hb. rewrite size_union by set_solver +Hne. by rewrite !size_singleton. }
    revert H. generalize (comb2 (elements V)). intros l. induction l as [|p l IH]; intros H; [done|]. rewrite bind_cons, app_length, (H p) by left. rewrite IH; [cbn; lia|]. intros q Hq. apply H. by right. }
  pose proof (comb2_length (elements V)) as H. change (length (elements V)) with (size V) in H. nia.
Qed.
Lemma question_in V i j c : i ∈ V → j ∈ V → i ≠ j → NoDup c → (∀ z, z ∈ c → z ∈ V ∧ z ≠ i ∧ z ≠ j) → question (i, j, c) ∈ all_questions V (length c).
Proof.
  intros Hi Hj Hne Hnd Hz. unfold all_questions.
  assert (∃ p, p ∈ comb2 (elements V) ∧ ({[i; j]} : nset) = {[p.1; p.2]}) as (p & Hp & Ep).
  { destruct (proj2 (comb2_iter (λ _ S, elements S) 0 V i j ltac:(by intros ??)) Hi Hj Hne) as [H|H]; eexists; (split; [exact H|]); cbn; [done|set_solver +]. }
  apply elem_of_list_bind. exists p. split; [|done]. apply elem_of_list_fmap. rewrite <-Ep.
  set (l := elements (V ∖ {[i; j]})). exists (filter (.∈ c) l).
  assert (filter (.∈ c) l ≡ₚ c) as E.
  { apply NoDup_Permutation; [apply NoDup_filter, NoDup_elements|done|]. intros z. rewrite elem_of_list_filter. split; [by intros [? _]|]. intros H. split; [done|].
    apply elem_of_elements. apply Hz in H. set_solver +H. }
  split.
  - unfold question. cbn [fst snd]. by rewrite (list_to_set_perm_L _ _ E).
  - apply elem_of_combs. split; [apply filter_sub|by rewrite E].
Qed.
Lemma count_bound V m k log : proper_log V log → (∀ q, size q.2 = k → asked q log ≤ m) → 2 * count_size k log ≤ m * (size V * (size V - 1) * choose (size V - 2) k).
Proof.
  intros Hp Hm. rewrite <-all_questions_length. enough (count_size k log ≤ m * length (all_questions V k)) by nia.
  unfold count_size. rewrite <-(fmap_length (λ e : query * bool, question e.1)). apply length_occ.
  - intros x ([[[i j] c] b] & -> & [Hk H]%elem_of_list_filter)%elem_of_list_fmap. cbn in *. subst k. apply Hp in H as (Hi & Hj & Hne & Hnd & Hz). by apply question_in.
  - intros q. destruct (decide (size q.2 = k)) as [Hq|Hq].
    + etransitivity; [|apply (Hm q Hq)]. rewrite asked_occ, <-list_fmap_compose. apply occ_fmap_sublist. apply filter_sub.
    + rewrite occ_none; [lia|]. intros ([[[i j] c] b] & -> & [Hk H]%elem_of_list_filter)%elem_of_list_fmap. apply Hq. cbn in *. rewrite size_list_to_set; [done|]. by apply Hp in H as (_ & _ & _ & Hnd & _).
Qed.

(** ** loops that ask questions *)
Section loop.
  Context {A S K : Type} `{EqDecision K} (lg : S → list query) (key : query → K) (belongs : K → A → Prop) (m : nat) (f : A → S → res S).
  Definition adds (p : A) (s s' : S) : Prop :=
    ∃ new, lg s' = new ++ lg s ∧ (∀ x, x ∈ new → belongs (key x) p) ∧ ∀ k, occ k (key <$> new) ≤ m.
  Lemma loop_adds l s s' : NoDup l → (∀ k p p', p ∈ l → p' ∈ l → belongs k p → belongs k p' → p = p') →
    (∀ p s s', p ∈ l → f p s = Ok s' → adds p s s') → for_ l f s = Ok s' →
    ∃ new, lg s' = new ++ lg s ∧ (∀ x, x ∈ new → ∃ p, p ∈ l ∧ belongs (key x) p) ∧ ∀ k, occ k (key <$> new) ≤ m.
  Proof.
    revert s. induction l as [|p l IH]; intros s Hnd Hb Hf E.
    - cbn in E. simplify_eq. exists []. split; [done|]. split; [by intros ? ?%elem_of_nil|]. intros k. cbn. lia.
    - cbn [for_] in E. destruct (f p s) as [s1| |] eqn:E1; [|done..]. cbn [mbind res_bind] in E. apply NoDup_cons in Hnd as [Hp Hnd].
      destruct (Hf p s s1 ltac:(left) E1) as (n1 & L1 & B1 & O1). destruct (IH s1 Hnd) as (n2 & L2 & B2 & O2); [|..|done|].
      { intros k p1 p2 H1 H2. apply Hb; by right. }
      { intros p1 ?? H1. apply Hf. by right. }
      exists (n2 ++ n1). split; [by rewrite L2, L1, app_assoc|]. split.
      + intros x [(p' & Hp' & Hx)%B2|Hx%B1]%elem_of_app; [exists p'; split; [by right|done]|exists p; split; [by left|done]].
      + intros k. rewrite fmap_app, occ_app. destruct (decide (k ∈ key <$> n1)) as [(x & -> & Hx)%elem_of_list_fmap|Hk].
        * rewrite (occ_none (key x) (key <$> n2)); [apply O1|]. intros (y & Ey & Hy)%elem_of_list_fmap. apply B2 in Hy as (p' & Hp' & Hy). rewrite <-Ey in Hy.
          apply Hp. rewrite (Hb (key x) p p'); [done|left|by right|by apply B1|done].
        * rewrite (occ_none k (key <$> n1)) by done. specialize (O2 k). lia.
  Qed.
End loop.

(** ** the queries about one pair *)
Definition of_size (r : option nat) (Z : nset) : Prop := match r with Some r => size Z = r | None => True end.
Definition lg (s : lstate) : list query := (ls_log s).*1.
Section queries.
  Context (ci : citest) (i j : node).
  Lemma ls_try_log c s r : ls_try ci i j c s = Ok r → lg r.1 = (i, j, c) :: lg s.
  Proof. unfold ls_try, lg. destruct (ci _ _ _ _); by intros [= <-]. Qed.
  Lemma icd_tests_log cs : ∀ s s', icd_tests ci i j cs s = Ok s' → ∃ pre, pre `sublist_of` cs ∧ lg s'.1 = reverse ((λ c, (i, j, c)) <$> pre) ++ lg s.1.
  Proof.
    induction cs as [|c cs IH]; intros s s' E; cbn [icd_tests for_brk] in E.
    - simplify_eq. exists []. split; [done|done].
    - unfold icd_tests in *. cbn [for_brk] in E. destruct (ls_try ci i j c s.1) as [r| |] eqn:Er; [|done..]. cbn [mbind res_bind fst snd] in E.
      apply ls_try_log in Er. destruct r.2.
      + simplify_eq. exists [c]. split; [apply sublist_skip, sublist_nil_l|]. cbn [fst]. by rewrite Er.
      + apply IH in E as (pre & Hs & E). exists (c :: pre). split; [by apply sublist_skip|]. rewrite E. cbn [fst]. rewrite Er, fmap_cons, reverse_cons, <-app_assoc. done.
  Qed.
  Lemma increasing_log cs : ∀ s s', for_brk cs (λ c (s : lstate * bool), r ← ls_try ci i j c s.1; Ok (r, r.2)) s = Ok s' →
    ∃ pre, pre `sublist_of` cs ∧ lg s'.1 = reverse ((λ c, (i, j, c)) <$> pre) ++ lg s.1.
  Proof.
    induction cs as [|c cs IH]; intros s s' E; cbn [for_brk] in E.
    - simplify_eq. exists []. split; [done|done].
    - destruct (ls_try ci i j c s.1) as [r| |] eqn:Er; [|done..]. cbn [mbind res_bind fst snd] in E.
      apply ls_try_log in Er. destruct r.2.
      + simplify_eq. exists [c]. split; [apply sublist_skip, sublist_nil_l|]. by rewrite Er.
      + apply IH in E as (pre & Hs & E). exists (c :: pre). split; [by apply sublist_skip|]. rewrite E, Er, fmap_cons, reverse_cons, <-app_assoc. done.
  Qed.
  Lemma pc_try_log cs : ∀ s s', for_brk cs (pc_try ci i j) s = Ok s' →
    ∃ pre, pre `sublist_of` cs ∧ (pc_log s').*1 = reverse ((λ c, (i, j, c)) <$> pre) ++ (pc_log s).*1.
  Proof.
    induction cs as [|c cs IH]; intros s s' E; cbn [for_brk] in E.
    - simplify_eq. exists []. split; [done|done].
    - destruct (pc_try ci i j c s) as [r| |] eqn:Er; [|done..]. cbn [mbind res_bind] in E.
      assert ((pc_log r.1).*1 = (i, j, c) :: (pc_log s).*1) as El by (unfold pc_try in Er; destruct (ci _ _ _ _); by simplify_eq).
      destruct r.2.
      + simplify_eq. exists [c]. split; [apply sublist_skip, sublist_nil_l|]. by rewrite El.
      + apply IH in E as (pre & Hs & E). exists (c :: pre). split; [by apply sublist_skip|]. rewrite E, El, fmap_cons, reverse_cons, <-app_assoc. done.
  Qed.
  (** the new queries about the pair, with an upper bound for the sets *)
  Definition sets_ok (m : nat) (r : option nat) (cs : list (list node)) : Prop :=
    (∀ c, c ∈ cs → of_size r (list_to_set c)) ∧ ∀ Z, occ Z ((list_to_set : list node → nset) <$> cs) ≤ m.
  Definition of_pair (r : option nat) (q : nset * nset) (p : node * node) : Prop := q.1 = {[p.1; p.2]} ∧ of_size r q.2.
  Lemma pair_adds {S} (l : S → list query) m r cs pre s s' : sets_ok m r cs → pre `sublist_of` cs → l s' = reverse ((λ c, (i, j, c)) <$> pre) ++ l s →
    adds l question (of_pair r) m (i, j) s s'.
  Proof.
    intros [H1 H2] Hs E. exists (reverse ((λ c, (i, j, c)) <$> pre)). split; [done|]. split.
    - intros x (c & -> & Hc)%elem_of_reverse%elem_of_list_fmap. split; [done|]. cbn. apply H1. by eapply sublist_elem.
    - intros q. rewrite fmap_reverse, (occ_perm _ _ _ (reverse_Permutation _)), <-list_fmap_compose. destruct q as [P Z].
      etransitivity; [|apply (H2 Z)]. etransitivity; [|by apply occ_fmap_sublist].
      etransitivity; [|apply (occ_pair P ({[i; j]} : nset))]. by rewrite <-list_fmap_compose.
  Qed.
End queries.

Lemma pairs_unique o k V r : iter_ok o → NoDup (comb2 (o k V)) ∧ ∀ q p p', p ∈ comb2 (o k V) → p' ∈ comb2 (o k V) → of_pair r q p → of_pair r q p' → p = p'.
Proof.
  intros Ho. destruct (comb2_nodup (o k V) (iter_nodup o k V Ho)) as [H1 H2]. split; [done|]. intros q [a b] [a' b'] Hp Hp' [E1 _] [E2 _]. cbn in *. rewrite E1 in E2.
  assert (a ≠ b) as Hne by (by apply (comb2_iter o k V a b Ho)). assert (a' ≠ b') as Hne' by (by apply (comb2_iter o k V a' b' Ho)).
  assert (a ∈ ({[a'; b']} : nset)) as Ha by (rewrite <-E2; set_solver +). assert (b ∈ ({[a'; b']} : nset)) as Hb by (rewrite <-E2; set_solver +).
  rewrite elem_of_union, !elem_of_singleton in Ha, Hb. destruct Ha as [->| ->], Hb as [->| ->]; try done.
  by apply H2 in Hp.
Qed.

(** ** the lists of conditioning sets *)
Lemma combs_sets k (l : list node) : NoDup l → (∀ c, c ∈ combs k l → size (list_to_set c : nset) = k) ∧ NoDup ((list_to_set : list node → nset) <$> combs k l).
Proof.
  intros Hnd. split.
  - intros c [Hs Hl]%elem_of_combs. rewrite size_list_to_set; [done|]. by eapply sublist_nodup.
  - apply NoDup_fmap_2_strong; [|by apply combs_nodup]. intros c c' [Hc _]%elem_of_combs [Hc' _]%elem_of_combs. by apply (sublist_set_eq c c' l).
Qed.
Lemma uniq_go_sublist l : ∀ seen, uniq_go seen l `sublist_of` l.
Proof. induction l as [|e l IH]; intros seen; cbn; [constructor|]. case_decide; [by apply sublist_cons|by apply sublist_skip]. Qed.
Lemma two_sets k l1 l2 : NoDup l1 → NoDup l2 → sets_ok 2 (Some k) (uniq (combs k l1 ++ combs k l2)).
Proof.
  intros [A1 A2]%(combs_sets k) [B1 B2]%(combs_sets k). split.
  - intros c Hc. eapply sublist_elem in Hc; [|apply uniq_go_sublist]. apply elem_of_app in Hc as [Hc|Hc]; [by apply A1|by apply B1].
  - intros Z. etransitivity; [apply occ_fmap_sublist, uniq_go_sublist|]. rewrite fmap_app, occ_app. pose proof (occ_nodup Z _ A2). pose proof (occ_nodup Z _ B2). lia.
Qed.
Lemma one_sets l1 l2 : NoDup l1 → NoDup l2 → sets_ok 1 (Some 1) (uniq (combs 1 l1 ++ combs 1 l2)).
Proof.
  intros H1 H2. split; [by apply two_sets|]. intros Z. apply occ_nodup. apply NoDup_fmap_2_strong; [|apply uniq_nodup].
  assert (∀ c, c ∈ uniq (combs 1 l1 ++ combs 1 l2) → ∃ x, c = [x]) as H.
  { intros c Hc. eapply sublist_elem in Hc; [|apply uniq_go_sublist]. apply elem_of_app in Hc as [[_ Hc]%elem_of_combs|[_ Hc]%elem_of_combs]; (destruct c as [|x [|]]; [done|by exists x|done]). }
  intros c c' (x & ->)%H (y & ->)%H E. cbn in E. assert (x ∈ ({[y]} ∪ ∅ : nset)) as Hx by (rewrite <-E; set_solver +). set_solver +Hx.
Qed.

Lemma get_subsets_sets o t X k : iter_ok o → (∀ c, c ∈ get_subsets_list o t X k → size c.1 = k) ∧ NoDup (get_subsets_list o t X k).*1.
Proof.
  intros Ho. destruct (combs_sets k (o 112 X) (iter_nodup o 112 X Ho)) as [H1 H2]. unfold get_subsets_list. split.
  - intros ? (c & -> & [_ Hc]%elem_of_list_filter)%elem_of_list_fmap. by apply H1.
  - rewrite <-list_fmap_compose. cbn. assert (∀ l : list (list node), NoDup ((list_to_set : list node → nset) <$> l) → NoDup ((list_to_set : list node → nset) <$> filter (λ c, is_legal_cond_set t c = true) l)) as H.
    { intros l. induction l as [|c l IH]; [done|]. rewrite fmap_cons. intros [Hc Hl]%NoDup_cons. rewrite filter_cons. case_decide; [|by apply IH]. rewrite fmap_cons. apply NoDup_cons. split; [|by apply IH].
      intros (y & Ey & [_ Hy]%elem_of_list_filter)%elem_of_list_fmap. apply Hc. rewrite Ey. by apply elem_of_list_fmap_1. }
    by apply H.
Qed.

(** the sets of a list with distances: each at most twice *)
Definition dsets_ok (l : list (nset * option nat)) : Prop := ∀ Z, occ Z l.*1 ≤ 2.
Lemma dsets_sets o l : iter_ok o → dsets_ok l → sets_ok 2 None ((λ c, o 109 c.1) <$> l).
Proof.
  intros Ho H2. assert (∀ S, list_to_set (o 109 S) = S) as E by (intros S; apply leibniz_equiv; intros x; rewrite elem_of_list_to_set; by apply iter_elem). split.
  - done.
  - intros Z. rewrite <-list_fmap_compose. etransitivity; [|apply (H2 Z)]. apply Nat.eq_le_incl. f_equal. apply list_fmap_ext. intros ? c _. cbn. apply E.
Qed.
Lemma pdsep_sets o fuel g i j r l : iter_ok o → pdsep_range_sets o fuel g i j r = Ok l → dsets_ok l.
Proof.
  intros Ho. unfold pdsep_range_sets. destruct (create_pds_tree o fuel g i None (Some r)) as [ti| |]; [|done..]. cbn [mbind res_bind].
  destruct (create_pds_tree o fuel g j None (Some r)) as [tj| |]; [|done..]. cbn [mbind res_bind].
  destruct (get_subsets_sets o ti.1 ti.2 r Ho) as [A1 A2]. destruct (get_subsets_sets o tj.1 tj.2 r Ho) as [B1 B2].
  set (L := get_subsets_list o ti.1 ti.2 r ++ get_subsets_list o tj.1 tj.2 r).
  assert (∀ (L l0 l : list (nset * option nat)), for_ L (λ c l, if decide (i ∈ c.1 ∨ j ∈ c.1) then Ok l else b ← cond_possible_ancestor o fuel g c.1 i j; Ok (if (b : bool) then l ++ [c] else l)) l0 = Ok l →
    ∃ k, k `sublist_of` L ∧ l = l0 ++ k) as Hloop.
  { clear. intros L. induction L as [|c L IH]; intros l0 l E; cbn [for_] in E.
    - simplify_eq. exists []. by rewrite app_nil_r.
    - case_decide; cbn [mbind res_bind] in E.
      + apply IH in E as (k & Hk & ->). exists k. split; [by apply sublist_cons|done].
      + destruct (cond_possible_ancestor o fuel g c.1 i j) as [[]| |]; [..|done|done]; cbn [mbind res_bind] in E; apply IH in E as (k & Hk & ->).
        * exists (c :: k). split; [by apply sublist_skip|by rewrite <-app_assoc].
        * exists k. split; [by apply sublist_cons|done]. }
  destruct (for_ L _ []) as [l0| |] eqn:E; [|done..]. cbn [mbind res_bind]. intros [= <-]. apply Hloop in E as (k & Hk & ->). cbn [app].
  intros Z. rewrite (occ_perm Z _ k.*1) by (by rewrite sort_perm). etransitivity; [by apply occ_fmap_sublist|]. unfold L. rewrite fmap_app, occ_app.
  pose proof (occ_nodup Z _ A2). pose proof (occ_nodup Z _ B2). lia.
Qed.

(** ** the iterations of ICD *)
Section icd.
  Context (o : order) (Ho : iter_ok o) (ci : citest).
  Definition adds_all (m : nat) (s s' : lstate) : Prop := ∃ new, lg s' = new ++ lg s ∧ ∀ q, occ q (question <$> new) ≤ m.
  Lemma orient_log f s s' : ls_orient f s = Ok s' → lg s' = lg s.
  Proof. unfold ls_orient. destruct (f _ _); [|done..]. by intros [= <-]. Qed.
  Lemma all_pairs {S} (l : S → lstate) (f : node * node → S → res S) m k V s s' :
    (∀ p s s', p ∈ comb2 (o k V) → f p s = Ok s' → adds (λ s, lg (l s)) question (of_pair None) m p s s') → for_ (comb2 (o k V)) f s = Ok s' → adds_all m (l s) (l s').
  Proof using Ho.
    intros Hf E. destruct (pairs_unique o k V None Ho) as [Hnd Hu].
    destruct (loop_adds (λ s, lg (l s)) question (of_pair None) m f _ _ _ Hnd Hu Hf E) as (new & H1 & _ & H3). by exists new.
  Qed.
  Lemma weaken_sets m r cs : sets_ok m r cs → sets_ok m None cs.
  Proof. by intros [_ H]. Qed.
  Lemma adds_refl {S} (l : S → list query) p s m : adds l question (of_pair None) m p s s.
  Proof. exists []. split; [done|]. split; [by intros ? ?%elem_of_nil|]. intros q. cbn. lia. Qed.

  Lemma step_0_adds fuel s s' : icd_step_0 o ci fuel s = Ok s' → adds_all 1 s s'.
  Proof using Ho.
    unfold icd_step_0. destruct (for_ _ _ _) as [s1| |] eqn:E; [|done..]. cbn [mbind res_bind]. intros E2%orient_log.
    apply (all_pairs id _ 1) in E.
    - destruct E as (new & H1 & H2). exists new. by rewrite E2.
    - intros [i j] t t' _ Ht. destruct (ls_try ci i j [] t) as [r| |] eqn:Er; [|done..]. cbn [mbind res_bind] in Ht. injection Ht as <-. apply ls_try_log in Er.
      apply (pair_adds i j (λ s, lg (id s)) 1 None [[]] [[]]); [|done|done]. split; [done|]. intros Z. apply occ_nodup. apply NoDup_singleton.
  Qed.
  Lemma step_1_adds sb tc fuel s s' : icd_step_1 o ci sb tc fuel s = Ok s' → adds_all 1 s s'.1.
  Proof using Ho.
    unfold icd_step_1. destruct (for_ _ _ _) as [s1| |] eqn:E; [|done..]. cbn [mbind res_bind]. destruct (ls_orient _ _) as [s2| |] eqn:E2; [|done..]. cbn [mbind res_bind]. intros [= <-]. cbn [fst].
    apply orient_log in E2. apply (all_pairs fst _ 1) in E.
    - destruct E as (new & H1 & H2). exists new. by rewrite E2.
    - intros [i j] t t' _ Ht. destruct (m_is_connected _ _ _ _) as [b| |]; [|done..]. cbn [mbind res_bind] in Ht. destruct (negb b).
      + injection Ht as <-. apply adds_refl.
      + apply icd_tests_log in Ht as (pre & Hp & Ht). eapply pair_adds; [|exact Hp|exact Ht]. eapply weaken_sets, one_sets; by apply iter_nodup.
  Qed.
  Definition map_ok (m : gmap (nat * nat) (list (nset * option nat))) : Prop := ∀ k l, m !! k = Some l → dsets_ok l.
  Lemma pre_calc_sets fuel g r m m' : map_ok m → pre_calc o fuel g r m = Ok m' → map_ok m'.
  Proof using Ho.
    unfold pre_calc. generalize (comb2 (o 80 (mnodes g))). intros l. revert m. induction l as [|[i j] l IH]; intros m Hm E; cbn [for_] in E; [by simplify_eq|].
    destruct (m_is_connected _ _ _ _) as [b| |]; [|done..]. cbn [mbind res_bind] in E. destruct (negb b); [by eapply IH|].
    destruct (pdsep_range_sets _ _ _ _ _ _) as [cs| |] eqn:Ec; [|done..]. cbn [mbind res_bind] in E. eapply IH; [|exact E].
    intros k c [[_ <-]|[_ H]]%lookup_insert_Some; [by eapply pdsep_sets|by eapply Hm].
  Qed.
  Lemma step_adds sb tc fuel precalc r m s s' : map_ok m → icd_step o ci sb tc fuel precalc r m s = Ok s' → adds_all 2 s s'.1.
  Proof using Ho.
    intros Hm. unfold icd_step. destruct (for_ _ _ _) as [s1| |] eqn:E; [|done..]. cbn [mbind res_bind]. destruct (ls_orient _ _) as [s2| |] eqn:E2; [|done..]. cbn [mbind res_bind]. intros [= <-]. cbn [fst].
    apply orient_log in E2. apply (all_pairs fst _ 2) in E.
    - destruct E as (new & H1 & H2). exists new. by rewrite E2.
    - intros [i j] t t' _ Ht. destruct (m_is_connected _ _ _ _) as [b| |]; [|done..]. cbn [mbind res_bind] in Ht. destruct (negb b).
      + injection Ht as <-. apply adds_refl.
      + set (x := if precalc then _ else _) in Ht. destruct x as [cs| |] eqn:Ex; [|done..]. cbn [mbind res_bind] in Ht. assert (dsets_ok cs) as Hcs.
        { unfold x in Ex. destruct precalc; [|by eapply pdsep_sets]. destruct (m !! hkey i j) as [l|] eqn:El; [|done]. injection Ex as <-. by eapply Hm. }
        apply icd_tests_log in Ht as (pre & Hp & Ht). eapply pair_adds; [|exact Hp|exact Ht]. by apply dsets_sets.
  Qed.
  Lemma iteration_adds sb tc fuel precalc s t x : map_ok (ic_cond s) → icd_iteration o ci sb tc fuel precalc s = Ok (t, x) →
    map_ok (ic_cond t) ∧ adds_all (if decide (ic_size s ≤ 1) then 1 else 2) (ic_ls s) (ic_ls t).
  Proof using Ho.
    intros Hm. unfold icd_iteration. destruct (ic_done s); [done|]. destruct (ic_size s) as [|[|r]].
    - destruct (icd_step_0 _ _ _ _) as [u| |] eqn:E; [|done..]. cbn. intros [= <- _]. split; [done|]. by apply step_0_adds in E.
    - destruct (icd_step_1 _ _ _ _ _ _) as [u| |] eqn:E; [|done..]. cbn. intros [= <- _]. split; [done|]. by eapply step_1_adds.
    - destruct (if precalc then _ else _) as [m| |] eqn:Em; [|done..]. cbn [mbind res_bind]. assert (map_ok m) as Hm' by (destruct precalc; [by eapply pre_calc_sets|by simplify_eq]).
      destruct (icd_step _ _ _ _ _ _ _ _ _) as [u| |] eqn:E; [|done..]. cbn. intros [= <- _]. split; [done|]. rewrite decide_False by lia. by eapply step_adds.
  Qed.
End icd.

Section run.
  Context (o : order) (Ho : iter_ok o) (ci : citest) (sb tc precalc : bool) (fuel : nat) (V : nset) (Hfuel : size V * size V + size V + 2 < fuel).
  Notation next := (icd_next o ci sb tc fuel precalc).
  Definition few (log : clog) : Prop := ∀ q, asked q log ≤ if decide (size q.2 ≤ 1) then 1 else 2.
  Lemma next_few s t : icd_inv ci V s → map_ok (ic_cond s) → few (ls_log (ic_ls s)) → next s t → map_ok (ic_cond t) ∧ few (ls_log (ic_ls t)).
  Proof using Ho Hfuel.
    intros I Hm Hfew (x & E). destruct (ic_done s) eqn:Ed; [by unfold icd_iteration in E; rewrite Ed in E|].
    pose proof (icd_iteration_inv o Ho ci V sb tc fuel precalc s Ed I Hfuel) as H. rewrite E in H. destruct H as (It & _ & _ & _ & (b & l & El & Hl & _) & _). cbn [fst snd] in *.
    destruct (iteration_adds o Ho ci sb tc fuel precalc s t x Hm E) as [Hm' (new & En & Hn)]. split; [done|]. intros q. specialize (Hfew q). rewrite asked_occ in *. fold (lg (ic_ls t)). rewrite En.
    assert (new = l.*1) as -> by (unfold lg in En; rewrite El, fmap_app in En; by apply app_inv_tail in En).
    rewrite fmap_app, occ_app. destruct (decide (q ∈ question <$> l.*1)) as [Hq|Hq].
    - apply elem_of_list_fmap in Hq as (y & -> & Hy). apply elem_of_list_fmap in Hy as ([[[i j] c] v] & -> & Hy). cbn [fst] in *. pose proof (Hl _ _ _ _ Hy) as Hc.
      pose proof (ls_inv_justified _ _ _ (ii_inv _ _ _ It)) as J.
      assert (size (question (i, j, c)).2 = ic_size s) as Hs.
      { rewrite <-Hc. cbn. apply size_list_to_set. apply (ju_log _ _ _ _ _ J i j c v). rewrite El. apply elem_of_app. by left. }
      rewrite (occ_none _ (question <$> lg (ic_ls s))); [rewrite Hs, Nat.add_0_r; apply Hn|].
      intros (z & Ez & Hz)%elem_of_list_fmap. apply elem_of_list_fmap in Hz as ([[[i' j'] c'] v'] & -> & Hz). cbn [fst] in Ez.
      pose proof (ii_bound _ _ _ I _ _ _ _ Hz) as Hb. rewrite Ez in Hs. cbn in Hs. rewrite size_list_to_set in Hs; [lia|].
      apply (ju_log _ _ _ _ _ J i' j' c' v'). rewrite El. apply elem_of_app. by right.
    - rewrite (occ_none q (question <$> l.*1)) by done. done.
  Qed.
  Lemma init_map : map_ok (ic_cond (icd_init o V)).
  Proof using Type.
    clear Hfuel. cbn [icd_init ic_cond]. generalize (comb2 (o 22 V)). intros l. assert (map_ok ∅) as H by (by intros ?? ?%lookup_empty_Some). revert H. generalize (∅ : gmap (nat * nat) (list (nset * option nat))).
    induction l as [|[i j] l IH]; intros m Hm; [done|]. cbn [foldl]. apply IH. intros k c [[_ <-]|[_ H]]%lookup_insert_Some; [intros Z; cbn; lia|by eapply Hm].
  Qed.
  Theorem reach_few s : rtc next (icd_init o V) s → icd_inv ci V s ∧ few (ls_log (ic_ls s)).
  Proof using Ho Hfuel.
    intros H. split; [by eapply icd_reach_inv|]. enough (map_ok (ic_cond s) ∧ few (ls_log (ic_ls s))) by tauto.
    assert (icd_inv ci V (icd_init o V)) as I by by apply icd_init_inv.
    assert (few (ls_log (ic_ls (icd_init o V)))) as F by (intros q; cbn; lia). pose proof init_map as M. revert I F M. induction H as [s|s t u Hst _ IH]; intros I F M; [done|].
    destruct (next_few s t I M F Hst) as [M' F']. apply IH; try done.
    destruct Hst as (r & E). destruct (ic_done s) eqn:Ed; [by unfold icd_iteration in E; rewrite Ed in E|].
    pose proof (icd_iteration_inv o Ho ci V sb tc fuel precalc s Ed I Hfuel) as H. rewrite E in H. apply H.
  Qed.
  Lemma loop_reach n : ∀ s t, icd_loop o ci sb tc fuel precalc n s = Ok t → rtc next s t.
  Proof using Type.
    induction n as [|n IH]; intros s t E; [done|]. cbn [icd_loop] in E. destruct (icd_iteration _ _ _ _ _ _ _) as [r| |] eqn:Er; [|done..]. cbn [mbind res_bind] in E.
    assert (next s r.1) as Hn by (exists r.2; by rewrite Er; destruct r). destruct r.2.1; [|by eapply rtc_l; [|by apply IH]]. simplify_eq. by apply rtc_once.
  Qed.
  Theorem learn_few : returns (icd_learn o ci sb tc fuel precalc (icd_init o V)) (λ t, icd_inv ci V t ∧ few (ls_log (ic_ls t))).
  Proof using Ho Hfuel.
    destruct (proj1 (returns_ok _ _) (icd_learn_ok o Ho ci V sb tc fuel precalc Hfuel)) as (t & E & _). rewrite E. apply reach_few. unfold icd_learn in E. by apply loop_reach in E.
  Qed.
End run.

(** ** PC *)
Section pc.
  Context (o : order) (Ho : iter_ok o) (ci : citest) (ow : bool).
  Lemma levels_few fuel src : ∀ k s s', pc_levels o ci ow fuel src k s = Ok s' → (∀ x, x ∈ (pc_log s).*1 → size (question x).2 < k) → (∀ q, asked q (pc_log s) ≤ 2) → ∀ q, asked q (pc_log s') ≤ 2.
  Proof using Ho.
    induction fuel as [|fuel IH]; intros k s s' E Hlt H2; [done|]. cbn [pc_levels] in E. destruct (exit_cond o (pc_graph s) k); [by simplify_eq|].
    destruct (for_ _ _ _) as [t| |] eqn:Et; [|done..]. cbn [mbind res_bind] in E.
    destruct (pairs_unique o 46 (mnodes (if ow then pc_graph s else src)) (Some k) Ho) as [Hnd Hu].
    destruct (loop_adds (λ s, (pc_log s).*1) question (of_pair (Some k)) 2 (pc_pair o ci ow src k) _ s t Hnd Hu) as (new & L & B & O); [|exact Et|].
    { intros [i j] u u' _ Hp. unfold pc_pair in Hp. destruct (m_is_connected _ _ _ _) as [b| |]; [|done..]. cbn [mbind res_bind] in Hp. destruct (negb b).
      - injection Hp as <-. exists []. split; [done|]. split; [by intros ? ?%elem_of_nil|]. intros q. cbn. lia.
      - apply pc_try_log in Hp as (pre & Hs & Hp). eapply pair_adds; [|exact Hs|exact Hp]. apply two_sets; by apply iter_nodup. }
    eapply IH; [exact E|..].
    - intros x. rewrite L. intros [(p & _ & _ & Hx)%B|Hx%Hlt]%elem_of_app; [unfold of_size in Hx|]; lia.
    - intros q. specialize (H2 q). rewrite asked_occ in *. rewrite L, fmap_app, occ_app. destruct (decide (q ∈ question <$> new)) as [(x & -> & (p & _ & _ & Hx)%B)%elem_of_list_fmap|Hq].
      + rewrite (occ_none _ (question <$> (pc_log s).*1)); [rewrite Nat.add_0_r; apply O|]. intros (y & Ey & Hy%Hlt)%elem_of_list_fmap. cbn [of_size] in Hx. rewrite Ey in Hx. lia.
      + rewrite (occ_none q (question <$> new)) by done. done.
  Qed.
End pc.

(** ** FCI *)
Definition okey (q : query) : node * node * nset := (q.1, list_to_set q.2).
Lemma okey_question new : (∀ k, occ k (okey <$> new) ≤ 1) → ∀ q, occ q (question <$> new) ≤ 2.
Proof.
  intros H q. destruct (decide (q ∈ question <$> new)) as [([[a b] c] & -> & _)%elem_of_list_fmap|Hq]; [|rewrite occ_none by done; lia].
  set (Z := list_to_set c : nset). specialize (H (a, b, Z)) as H1. specialize (H (b, a, Z)) as H2.
  enough (occ (question (a, b, c)) (question <$> new) ≤ occ (a, b, Z) (okey <$> new) + occ (b, a, Z) (okey <$> new)) by lia. clear H H1 H2.
  induction new as [|[[x y] d] new IH]; [done|]. rewrite !fmap_cons, !occ_cons. case_decide as E; [|lia].
  unfold question in E. cbn [fst snd] in E. apply pair_equal_spec in E as [E1 E2].
  assert ((x, y) = (a, b) ∨ (x, y) = (b, a)) as Hxy.
  { assert (x ∈ ({[a; b]} : nset)) as Hx by (rewrite E1; set_solver +). assert (y ∈ ({[a; b]} : nset)) as Hy by (rewrite E1; set_solver +).
    assert (a ∈ ({[x; y]} : nset)) as Ha by (rewrite <-E1; set_solver +). assert (b ∈ ({[x; y]} : nset)) as Hb by (rewrite <-E1; set_solver +).
    rewrite elem_of_union, !elem_of_singleton in Hx, Hy, Ha, Hb. destruct Hx as [->| ->], Hy as [->| ->]; try tauto; destruct Ha, Hb; subst; tauto. }
  change (okey (x, y, d)) with (x, y, list_to_set d : nset). fold Z in E2. rewrite <-E2. destruct Hxy as [[= -> ->]|[= -> ->]].
  - rewrite (decide_True (P := (a, b, Z) = (a, b, Z))) by done. case_decide; lia.
  - rewrite (decide_True (P := (b, a, Z) = (b, a, Z))) by done. case_decide; lia.
Qed.
Lemma all_sizes_nodup (l : list node) : NoDup l → ∀ n a, NoDup ((list_to_set : list node → nset) <$> concat ((λ k, combs k l) <$> seq a n)).
Proof.
  intros Hnd n. induction n as [|n IH]; intros a; [constructor|]. cbn [seq fmap list_fmap concat]. rewrite fmap_app. destruct (combs_sets a l Hnd) as [H1 H2]. apply NoDup_app. split; [done|]. split; [|apply IH].
  intros Z (c & -> & Hc)%elem_of_list_fmap (c' & E & Hc')%elem_of_list_fmap. apply elem_of_list_In, in_concat in Hc' as (cs & Hcs & Hc').
  apply elem_of_list_In, elem_of_list_fmap in Hcs as (k & -> & Hk%elem_of_seq). apply elem_of_list_In in Hc'. apply H1 in Hc. apply (combs_sets k l Hnd) in Hc'. rewrite <-E in Hc'. lia.
Qed.
Section fci.
  Context (o : order) (Ho : iter_ok o) (ci : citest) (sb tc : bool) (fuel : nat).
  Lemma increasing_adds x y pool s s' : fci_increasing o ci x y pool s = Ok s' →
    ∃ new, lg s'.1 = new ++ lg s ∧ (∀ q, q ∈ new → (okey q).1 = (x, y)) ∧ ∀ k, occ k (okey <$> new) ≤ 1.
  Proof using Ho.
    unfold fci_increasing. intros (pre & Hs & E)%increasing_log. exists (reverse ((λ c, (x, y, c)) <$> pre)). split; [done|]. split.
    - by intros q (c & -> & _)%elem_of_reverse%elem_of_list_fmap.
    - intros [[a b] Z]. rewrite fmap_reverse, (occ_perm _ _ _ (reverse_Permutation _)), <-list_fmap_compose.
      etransitivity; [|apply (occ_nodup Z _ (all_sizes_nodup (o 92 pool) (iter_nodup o 92 pool Ho) (S (size pool)) 0))].
      etransitivity; [|by apply occ_fmap_sublist]. etransitivity; [|apply (occ_pair (a, b) (x, y))]. by rewrite <-list_fmap_compose.
  Qed.
  Lemma refine_adds s s' : fci_refine o ci fuel s = Ok s' → ∃ new, lg s'.1 = new ++ lg s ∧ ∀ q, occ q (question <$> new) ≤ 2.
  Proof using Ho.
    unfold fci_refine. destruct (for_ _ _ _) as [pds| |]; [|done..]. cbn [mbind res_bind]. intros E.
    eapply (loop_adds (λ s : lstate * bool, lg s.1) okey (λ k x, k.1.1 = x) 1) in E as (new & L & _ & O).
    - exists new. split; [done|]. by apply okey_question.
    - by apply iter_nodup.
    - intros k p p' _ _. congruence.
    - intros x t t' _ Ht. destruct (pds !! x) as [X|]; [|done].
      eapply (loop_adds (λ s : lstate * bool, lg s.1) okey (λ k y, k.1 = (x, y)) 1) in Ht as (new & L & B & O).
      + exists new. split; [done|]. split; [|done]. intros q (y & _ & Hq)%B. by rewrite Hq.
      + by apply iter_nodup.
      + intros k p p' _ _. congruence.
      + intros y u u' _ Hu. destruct (fci_increasing _ _ _ _ _ _) as [r| |] eqn:Er; [|done..]. cbn [mbind res_bind] in Hu. injection Hu as <-. by apply increasing_adds in Er.
  Qed.
  Lemma fci_asked V r : fci_learn o ci sb tc fuel V = Ok r → ∀ q, asked q (ls_log r.1) ≤ 4.
  Proof using Ho.
    unfold fci_learn. destruct (fci_pc o ci fuel V) as [s0| |] eqn:E0; [|done..]. cbn [mbind res_bind].
    destruct (ls_orient _ s0) as [s1| |] eqn:E1; [|done..]. cbn [mbind res_bind]. destruct (fci_refine _ _ _ s1) as [s2| |] eqn:E2; [|done..]. cbn [mbind res_bind].
    destruct (ls_orient _ s2.1) as [s3| |] eqn:E3; [|done..]. cbn [mbind res_bind]. intros [= <-] q. cbn [fst]. rewrite asked_occ. fold (lg s3).
    apply orient_log in E3, E1. rewrite E3. apply refine_adds in E2 as (new & -> & O). rewrite E1, fmap_app, occ_app. specialize (O q).
    enough (asked q (ls_log s0) ≤ 2) as H by (rewrite asked_occ in H; unfold lg; lia).
    unfold fci_pc in E0. destruct (pc_skeleton _ _ _ _ _) as [p| |] eqn:Ep; [|done..]. cbn [mbind res_bind] in E0. destruct (sep_copy_from _ _ _ _) as [sep| |]; [|done..]. cbn [mbind res_bind] in E0.
    destruct (copy_skeleton_from_pdag _ _ _ _) as [g| |]; [|done..]. cbn [mbind res_bind] in E0. injection E0 as <-. cbn [ls_log].
    eapply levels_few; [done|exact Ep|..]; cbn; [by intros ? ?%elem_of_nil|]. intros q'. cbn. lia.
  Qed.
End fci.
