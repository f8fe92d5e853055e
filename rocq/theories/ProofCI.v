(** Proofs about the CI test cache and the CI test classes. *)
From Verif Require Import Base BaseLemmas ModelGraph Spec ModelPC ModelCI SpecCI ProofGraph ProofGraph3.

Notation query := (node * node * list node)%type.

Lemma hkeys_qkey n q q' : qvalid n q → qvalid n q' →
  get_hkeys q.1.1 q.1.2 q.2 = get_hkeys q'.1.1 q'.1.2 q'.2 ↔ qkey q = qkey q'.
Proof.
  destruct q as [[x y] zz], q' as [[x' y'] zz']. intros (Hne & _ & _ & Hnd & _) (Hne' & _ & _ & Hnd' & _).
  cbn [fst snd] in *. unfold get_hkeys, qkey. cbn [fst snd].
  assert (merge_sort le zz = merge_sort le zz' ↔ (list_to_set zz : nset) = list_to_set zz') as Hz.
  { split.
    - intros He. apply set_eq. intros v. rewrite !elem_of_list_to_set.
      rewrite <- (merge_sort_Permutation le zz), He. by rewrite merge_sort_Permutation.
    - intros He. assert (zz ≡ₚ zz') as Hp.
      { apply NoDup_Permutation; [done..|]. intros v.
        rewrite <- !(elem_of_list_to_set (C:=nset)). by rewrite He. }
      apply (Sorted_unique le).
      + apply Sorted_merge_sort. intros ??. lia.
      + apply Sorted_merge_sort. intros ??. lia.
      + by rewrite !merge_sort_Permutation. }
  split.
  - intros He. pose proof (f_equal fst He) as Hk. pose proof (f_equal snd He) as Hs. cbn [fst snd] in Hk, Hs. clear He.
    apply Hz in Hs. f_equal; [|done]. repeat case_decide; simplify_eq; set_solver +.
  - intros He. pose proof (f_equal fst He) as Hk. pose proof (f_equal snd He) as Hs. cbn [fst snd] in Hk, Hs. clear He.
    apply Hz in Hs. f_equal; [|done].
    assert (x ∈ ({[x'; y']} : nset)) as H1 by (rewrite <- Hk; set_solver +).
    assert (y ∈ ({[x'; y']} : nset)) as H2 by (rewrite <- Hk; set_solver +).
    rewrite !elem_of_union, !elem_of_singleton in H1, H2.
    destruct H1 as [->| ->], H2 as [->| ->]; try done; repeat case_decide; (done || lia).
Qed.

Lemma hkey_hkeys x y zz : (get_hkeys x y zz).1 = hkey x y.
Proof. done. Qed.

Lemma upper_pairs_elem n i j : (i, j) ∈ upper_pairs n ↔ i < j ∧ j < n.
Proof.
  unfold upper_pairs. rewrite elem_of_list_bind. split.
  - intros (a & (b & Hb & Hj)%elem_of_list_bind & Hi). apply elem_of_list_singleton in Hb. simplify_eq.
    rewrite elem_of_seq in Hi, Hj. lia.
  - intros [? ?]. exists i. split; [|rewrite elem_of_seq; lia]. apply elem_of_list_bind.
    exists j. split; [by apply elem_of_list_singleton|rewrite elem_of_seq; lia].
Qed.

Section cache.
Context {V : Type}.
Implicit Types c : cache V.

Lemma cc_new_lookup n : ∃ m, cc_new (V:=V) (Some n) = Some m ∧
  ∀ i j, m !! (i, j) = if decide (i < j ∧ j < n) then Some ∅ else None.
Proof.
  eexists. split; [done|]. intros i j.
  assert (∀ l (m : gmap (nat * nat) (gmap (list nat) V)), (∀ a b, (a, b) ∈ l → a < b) →
    foldl (λ m '(i, j), <[(get_hkeys i j []).1 := ∅]> m) m l !! (i, j) =
      if decide ((i, j) ∈ l) then Some ∅ else m !! (i, j)) as H.
  { induction l as [|[a b] l IH]; intros m Hl; cbn [foldl].
    - rewrite decide_False; [done|by intros ?%elem_of_nil].
    - rewrite IH by (intros; apply Hl; by right). unfold get_hkeys. cbn [fst].
      rewrite (decide_True _ _ (Hl a b (elem_of_list_here _ _))).
      destruct (decide ((i, j) ∈ l)).
      + by rewrite decide_True by (by right).
      + destruct (decide ((i, j) = (a, b))) as [Heq|Hne].
        * rewrite Heq, lookup_insert. by rewrite decide_True by left.
        * rewrite lookup_insert_ne by congruence. rewrite decide_False; [done|]. by intros [?|?]%elem_of_cons. }
  rewrite H by (intros a b [??]%upper_pairs_elem; done). rewrite lookup_empty.
  apply decide_ext. apply upper_pairs_elem.
Qed.

(** the cache [c] (for [n] variables) holds exactly the map [F] *)
Definition cc_rel (n : nat) c (F : gmap (nset * nset) V) : Prop :=
  ∃ m, c = Some m ∧ (∀ i j, i < j → j < n → is_Some (m !! (i, j))) ∧
  ∀ q, qvalid n q → cc_get c q.1.1 q.1.2 q.2 = F !! qkey q.

Lemma cc_rel_new n : cc_rel n (cc_new (Some n)) ∅.
Proof.
  destruct (cc_new_lookup n) as (m & Hm & Hl). exists m. split; [done|]. split.
  - intros i j ??. rewrite Hl. rewrite decide_True by done. by eexists.
  - intros [[x y] zz] Hq. rewrite Hm. unfold cc_get, get_hkeys. rewrite lookup_empty.
    destruct (decide (x < y)); cbn [fst snd]; rewrite ?decide_True, ?decide_False by done; rewrite Hl; case_decide; try done; by rewrite lookup_empty.
Qed.

Lemma valid_key (n : nat) (q : query) (m : gmap (nat * nat) (gmap (list nat) V)) : qvalid n q → (∀ i j, i < j → j < n → is_Some (m !! (i, j))) →
  ∃ d : gmap (list nat) V, m !! (get_hkeys q.1.1 q.1.2 q.2).1 = Some d.
Proof.
  destruct q as [[x y] zz]. intros (Hne & Hx & Hy & _) Hm. cbn [fst snd] in *. unfold get_hkeys. cbn [fst].
  case_decide; apply Hm; lia.
Qed.

Lemma cc_get_eq (m : gmap (nat * nat) (gmap (list nat) V)) (x y : node) (zz : list node) : cc_get (Some m) x y zz = m !! (get_hkeys x y zz).1 ≫= λ d : gmap (list nat) V, d !! (get_hkeys x y zz).2.
Proof. unfold cc_get. destruct (get_hkeys x y zz) as [k ks]. cbn. by destruct (m !! k). Qed.

Lemma cc_rel_set n c F q v : cc_rel n c F → qvalid n q →
  returns (cc_set c q.1.1 q.1.2 q.2 v) (λ c', cc_rel n c' (<[qkey q := v]> F)).
Proof.
  intros (m & -> & Hm & Hg) Hq. unfold cc_set. destruct (valid_key n q m Hq Hm) as [d Hd].
  destruct (get_hkeys q.1.1 q.1.2 q.2) as [k ks] eqn:Hk. cbn [fst] in Hd. rewrite Hd.
  cbn [returns]. eexists. split; [done|]. split.
  - intros i j ? ?. destruct (decide ((i, j) = k)) as [<-|]; [rewrite lookup_insert; by eexists|].
    rewrite lookup_insert_ne by done. by apply Hm.
  - intros q' Hq'. specialize (Hg q' Hq'). rewrite cc_get_eq in Hg. rewrite cc_get_eq.
    pose proof (hkeys_qkey n q q' Hq Hq') as He. rewrite Hk in He.
    destruct (get_hkeys q'.1.1 q'.1.2 q'.2) as [k' ks']. cbn [fst snd] in *.
    destruct (decide (k = k')) as [->|Hne].
    + rewrite lookup_insert. cbn. rewrite Hd in Hg. cbn in Hg. destruct (decide (ks = ks')) as [->|Hne].
      * rewrite lookup_insert. destruct He as [He _]. rewrite <- He by done. by rewrite lookup_insert.
      * rewrite lookup_insert_ne by done. rewrite lookup_insert_ne; [done|]. intros Heq. apply He in Heq. congruence.
    + rewrite lookup_insert_ne by done. rewrite lookup_insert_ne; [done|]. intros Heq. apply He in Heq. congruence.
Qed.

Lemma cc_rel_del n c F q : cc_rel n c F → qvalid n q →
  cc_rel n (cc_del c q.1.1 q.1.2 q.2).1 (delete (qkey q) F) ∧ (cc_del c q.1.1 q.1.2 q.2).2 = F !! qkey q.
Proof.
  intros (m & -> & Hm & Hg) Hq. unfold cc_del. destruct (valid_key n q m Hq Hm) as [d Hd].
  pose proof (Hg q Hq) as Hq0. rewrite cc_get_eq in Hq0.
  destruct (get_hkeys q.1.1 q.1.2 q.2) as [k ks] eqn:Hk. cbn [fst snd] in Hd, Hq0. rewrite Hd in Hq0 |- *. cbn in Hq0.
  rewrite Hq0. destruct (F !! qkey q) as [v|] eqn:HF; cbn [fst snd].
  - split; [|done]. eexists. split; [done|]. split.
    + intros i j ? ?. destruct (decide ((i, j) = k)) as [<-|]; [rewrite lookup_insert; by eexists|].
      rewrite lookup_insert_ne by done. by apply Hm.
    + intros q' Hq'. specialize (Hg q' Hq'). rewrite cc_get_eq in Hg. rewrite cc_get_eq.
      pose proof (hkeys_qkey n q q' Hq Hq') as He. rewrite Hk in He.
      destruct (get_hkeys q'.1.1 q'.1.2 q'.2) as [k' ks']. cbn [fst snd] in *.
      destruct (decide (k = k')) as [->|Hne].
      * rewrite lookup_insert. cbn. rewrite Hd in Hg. cbn in Hg. destruct (decide (ks = ks')) as [->|Hne].
        -- rewrite lookup_delete. destruct He as [He _]. rewrite <- He by done. by rewrite lookup_delete.
        -- rewrite lookup_delete_ne by done. rewrite lookup_delete_ne; [done|]. intros Heq. apply He in Heq. congruence.
      * rewrite lookup_insert_ne by done. rewrite lookup_delete_ne; [done|]. intros Heq. apply He in Heq. congruence.
  - split; [|done]. rewrite delete_notin by done. by exists m.
Qed.

(** ** CacheCI as a map *)
Lemma cache_run_rel n ops : ∀ c F, Forall (λ op, qvalid n (op_query op)) ops → cc_rel n c F →
  returns (cache_run ops c) (λ c', ∃ F', cc_rel n c' F' ∧ ∀ q, F' !! qkey q = last_stored q (op_effect <$> ops) (F !! qkey q)).
Proof.
  induction ops as [|op ops IH]; intros c F Hv Hr; [by exists F|]. apply Forall_cons in Hv as [Hv Hvs].
  destruct op as [x y zz v|x y zz]; cbn [cache_run].
  - eapply returns_bind; [exact (cc_rel_set n c F (x, y, zz) v Hr Hv)|]. cbn beta. intros c' Hr'.
    eapply returns_mono; [apply (IH _ _ Hvs Hr')|]. cbn beta. intros c'' (F' & HF & Hl). exists F'. split; [done|].
    intros q. rewrite Hl. rewrite fmap_cons. cbn [op_effect last_stored]. f_equal. case_decide as Hd.
    + rewrite <- Hd. by rewrite lookup_insert.
    + by rewrite lookup_insert_ne.
  - destruct (cc_rel_del n c F (x, y, zz) Hr Hv) as [Hr' _].
    eapply returns_mono; [apply (IH _ _ Hvs Hr')|]. cbn beta. intros c'' (F' & HF & Hl). exists F'. split; [done|].
    intros q. rewrite Hl. rewrite fmap_cons. cbn [op_effect last_stored]. f_equal. case_decide as Hd.
    + rewrite <- Hd. by rewrite lookup_delete.
    + by rewrite lookup_delete_ne.
Qed.
Lemma cache_refines n ops : Forall (λ op, qvalid n (op_query op)) ops →
  returns (cache_run ops (cc_new (Some n))) (λ c, ∀ q, qvalid n q →
    cc_get c q.1.1 q.1.2 q.2 = last_stored q (op_effect <$> ops) None ∧
    (cc_del c q.1.1 q.1.2 q.2).2 = last_stored q (op_effect <$> ops) None).
Proof.
  intros Hv. eapply returns_mono; [apply (cache_run_rel n ops _ _ Hv (cc_rel_new n))|].
  cbn beta. intros c (F & HF & Hl) q Hq. split.
  - destruct HF as (m & -> & _ & Hg). rewrite Hg, Hl by done. by rewrite lookup_empty.
  - rewrite (proj2 (cc_rel_del n c F q HF Hq)). rewrite Hl. by rewrite lookup_empty.
Qed.
End cache.

(** ** Counting different queries *)
Lemma qkey_size n q : qvalid n q → size (qkey q).2 = length q.2.
Proof. intros (_ & _ & _ & Hnd & _). unfold qkey. cbn [snd]. by apply size_list_to_set. Qed.

Lemma qvalid_length n q : qvalid n q → length q.2 < n - 1.
Proof.
  destruct q as [[x y] zz]. intros (Hne & Hx & Hy & Hnd & Hxz & Hyz & Hz). cbn [fst snd] in *.
  assert (length (x :: y :: zz) <= length (seq 0 n)) as H.
  { apply submseteq_length, NoDup_submseteq.
    - constructor; [rewrite elem_of_cons; naive_solver|]. by constructor.
    - intros v [->|[->|Hv]%elem_of_cons]%elem_of_cons; rewrite elem_of_seq; [lia..|]. apply Hz in Hv. lia. }
  rewrite seq_length in H. cbn in H. lia.
Qed.

Lemma keys_snoc (qs : list query) (q : query) : (list_to_set (qkey <$> (qs ++ [q])) : gset (nset * nset)) = list_to_set (qkey <$> qs) ∪ {[qkey q]}.
Proof. apply set_eq. intros k. rewrite fmap_app, elem_of_list_to_set, elem_of_app, elem_of_union, elem_of_list_to_set, list_fmap_singleton, elem_of_list_singleton, elem_of_singleton. done. Qed.
Lemma distinct_snoc_old qs q k : qkey q ∈ qkey <$> qs → distinct_queries (qs ++ [q]) k = distinct_queries qs k.
Proof.
  intros H. unfold distinct_queries. f_equal. f_equal. rewrite keys_snoc.
  rewrite <- (elem_of_list_to_set (C:=gset (nset * nset))) in H. revert H. generalize (list_to_set (qkey <$> qs) : gset (nset * nset)). set_solver +.
Qed.
Lemma distinct_snoc_new n qs q k : qvalid n q → qkey q ∉ qkey <$> qs →
  distinct_queries (qs ++ [q]) k = distinct_queries qs k + (if decide (k = length q.2) then 1 else 0).
Proof.
  intros Hv H. unfold distinct_queries. rewrite keys_snoc.
  rewrite <- (elem_of_list_to_set (C:=gset (nset * nset))) in H. revert H.
  generalize (list_to_set (qkey <$> qs) : gset (nset * nset)). intros X H.
  pose proof (qkey_size n q Hv) as Hs. rewrite (filter_union_L (λ p : nset * nset, size p.2 = k) X {[qkey q]}). case_decide as Hd.
  - assert (filter (λ p : nset * nset, size p.2 = k) ({[qkey q]} : gset (nset * nset)) = {[qkey q]}) as ->.
    { apply set_eq. intros p. rewrite elem_of_filter, elem_of_singleton. split; [by intros [_ ?]|intros ->; split; congruence]. }
    rewrite size_union.
    + by rewrite size_singleton.
    + intros p Hp Hp'. apply elem_of_filter in Hp. apply elem_of_singleton in Hp'. subst. by destruct Hp.
  - assert (filter (λ p : nset * nset, size p.2 = k) ({[qkey q]} : gset (nset * nset)) = ∅) as ->.
    { apply set_eq. intros p. rewrite elem_of_filter, elem_of_singleton. split; [intros [? ->]; congruence|by intros ?%elem_of_empty]. }
    rewrite union_empty_r_L. lia.
Qed.

Lemma counts_snoc_old n qs q l : qkey q ∈ qkey <$> qs → counts n qs l → counts n (qs ++ [q]) l.
Proof. unfold counts. intros Hq ->. apply list_fmap_ext. intros i k _. by rewrite distinct_snoc_old. Qed.

Lemma counts_snoc_new n qs q l : qvalid n q → qkey q ∉ qkey <$> qs → counts n qs l →
  returns (count_test (length q.2) (Some l)) (λ r, ∃ l', r = Some l' ∧ counts n (qs ++ [q]) l').
Proof.
  intros Hv Hq ->. unfold count_test. pose proof (qvalid_length n q Hv) as Hl.
  rewrite list_lookup_fmap. rewrite lookup_seq_lt by done. cbn [fmap option_fmap option_map returns].
  eexists. split; [done|]. unfold counts. apply list_eq. intros i.
  destruct (decide (i = length q.2)) as [->|Hne].
  - rewrite list_lookup_insert by (rewrite fmap_length, seq_length; done).
    rewrite list_lookup_fmap, lookup_seq_lt by done. cbn. rewrite (distinct_snoc_new n) by done.
    rewrite decide_True by lia. done.
  - rewrite list_lookup_insert_ne by done. rewrite !list_lookup_fmap.
    destruct (decide (i < n - 1)).
    + rewrite lookup_seq_lt by done. cbn. rewrite (distinct_snoc_new n) by done. rewrite decide_False by lia. f_equal. lia.
    + by rewrite lookup_seq_ge by lia.
Qed.
Lemma counts_new n : counts n [] (replicate (n - 1) 0).
Proof.
  unfold counts. apply list_eq. intros i. rewrite list_lookup_fmap. destruct (decide (i < n - 1)).
  - rewrite lookup_replicate_2 by done. rewrite lookup_seq_lt by done. done.
  - rewrite lookup_seq_ge by lia. cbn. apply lookup_replicate_None. lia.
Qed.

(** ** Test objects with cache and counter: invariant after the queries [qs] *)
Definition first_ans {V} (F : gmap (nset * nset) V) (qs : list query) : Prop := dom F = (list_to_set (qkey <$> qs) : gset (nset * nset)).

Definition ci_inv {V} (n : nat) (val : nset * nset → V) (qs : list query) (s : ci_state V) : Prop :=
  (∃ F, cc_rel n (cs_cache s) F ∧ dom F = (list_to_set (qkey <$> qs) : gset (nset * nset)) ∧
    ∀ k v, F !! k = Some v → v = val k) ∧
  ∃ l, cs_count s = Some l ∧ counts n qs l.

Lemma ci_inv_new {V} n (val : nset * nset → V) : ci_inv n val [] (ci_new n true true).
Proof.
  split.
  - exists ∅. split; [apply cc_rel_new|]. split; [by rewrite dom_empty_L|]. intros k v. by rewrite lookup_empty.
  - eexists. split; [done|]. apply counts_new.
Qed.

Lemma ci_inv_get {V} n (val : nset * nset → V) qs s q : ci_inv n val qs s → qvalid n q →
  cc_get (cs_cache s) q.1.1 q.1.2 q.2 = if decide (qkey q ∈ qkey <$> qs) then Some (val (qkey q)) else None.
Proof.
  intros [(F & (m & Hm & _ & Hg) & Hd & Hv) _] Hq. rewrite Hg by done. case_decide as Hi.
  - rewrite <- (elem_of_list_to_set (C:=gset (nset * nset))), <- Hd in Hi. apply elem_of_dom in Hi as [v Hi].
    rewrite Hi. f_equal. by apply Hv.
  - apply not_elem_of_dom. rewrite Hd. by rewrite elem_of_list_to_set.
Qed.

Lemma ci_inv_old {V} n (val : nset * nset → V) qs s q : ci_inv n val qs s → qkey q ∈ qkey <$> qs → ci_inv n val (qs ++ [q]) s.
Proof.
  intros [(F & HF & Hd & Hv) (l & Hl & Hc)] Hi. split.
  - exists F. split; [done|]. split; [|done]. rewrite Hd, keys_snoc.
    rewrite <- (elem_of_list_to_set (C:=gset (nset * nset))) in Hi. revert Hi. generalize (list_to_set (qkey <$> qs) : gset (nset * nset)). set_solver +.
  - exists l. split; [done|]. by apply counts_snoc_old.
Qed.

Lemma ci_inv_step {V} n (val : nset * nset → V) qs s q : ci_inv n val qs s → qvalid n q → qkey q ∉ qkey <$> qs →
  returns (cc_set (cs_cache s) q.1.1 q.1.2 q.2 (val (qkey q))) (λ c,
    returns (count_test (length q.2) (cs_count s)) (λ k, ci_inv n val (qs ++ [q]) (CIState c k))).
Proof.
  intros [(F & HF & Hd & Hv) (l & Hl & Hc)] Hq Hi.
  eapply returns_mono; [apply (cc_rel_set n _ F q (val (qkey q)) HF Hq)|]. cbn beta. intros c Hr.
  rewrite Hl. eapply returns_mono; [apply (counts_snoc_new n qs q l Hq Hi Hc)|]. cbn beta.
  intros k (l' & -> & Hl'). split.
  - eexists. split; [exact Hr|]. split.
    + rewrite dom_insert_L, Hd, keys_snoc. by rewrite (comm_L (∪)).
    + intros k v. destruct (decide (qkey q = k)) as [<-|]; [rewrite lookup_insert; by intros [= <-]|].
      rewrite lookup_insert_ne by done. apply Hv.
  - by exists l'.
Qed.

(** ** DSep and GraphCondIndep *)
Lemma dsep_ci_step n (val : nset * nset → bool) crit qs s q : ci_inv n val qs s → qvalid n q →
  crit q.1.1 q.1.2 q.2 = Ok (val (qkey q)) →
  returns (dsep_cond_indep true crit q.1.1 q.1.2 q.2 s) (λ r, r.1 = val (qkey q) ∧ ci_inv n val (qs ++ [q]) r.2).
Proof.
  intros Hi Hq Hc. unfold dsep_cond_indep. rewrite (ci_inv_get n val qs s q Hi Hq). case_decide as Hd.
  - split; [done|]. cbn. by apply ci_inv_old.
  - rewrite Hc. cbn [mbind res_bind cache_it]. eapply returns_bind; [apply (ci_inv_step n val qs s q Hi Hq Hd)|].
    cbn beta. intros c Hk. eapply returns_bind; [exact Hk|]. cbn beta. intros k Hk'. by split.
Qed.

Lemma ask_dsep n (val : nset * nset → bool) crit : ∀ qs done s t, ci_inv n val done s → Forall (qvalid n) qs →
  (∀ t q, qvalid n q → crit t q.1.1 q.1.2 q.2 = Ok (val (qkey q))) →
  returns (ask (λ t, dsep_cond_indep true (crit t)) t qs s) (λ r,
    r.1 = (λ q, val (qkey q)) <$> qs ∧ ci_inv n val (done ++ qs) r.2).
Proof.
  induction qs as [|[[x y] zz] qs IH]; intros dn s t Hi Hv Hc; cbn [ask].
  - split; [done|]. by rewrite app_nil_r.
  - apply Forall_cons in Hv as [Hv Hvs].
    eapply returns_bind; [apply (dsep_ci_step n val (crit t) dn s (x, y, zz) Hi Hv); by apply (Hc t (x, y, zz))|].
    cbn beta. intros [b s'] [Hb Hs]. cbn [fst snd] in *.
    eapply returns_bind; [apply (IH (dn ++ [(x, y, zz)]) s' (1 + t) Hs Hvs Hc)|]. cbn beta.
    intros [bs s''] [Hbs Hs'']. cbn [fst snd] in *. rewrite <- app_assoc in Hs''. split; [|done].
    rewrite fmap_cons. by rewrite Hb, Hbs.
Qed.

Lemma uncached_step n crit (b : bool) s l q : cs_cache s = None → cs_count s = Some l → length l = n - 1 → qvalid n q →
  crit q.1.1 q.1.2 q.2 = Ok b →
  returns (dsep_cond_indep false crit q.1.1 q.1.2 q.2 s) (λ r, r.1 = b ∧ cs_cache r.2 = None ∧
    ∃ l', cs_count r.2 = Some l' ∧ length l' = n - 1 ∧ ∀ k v, l !! k = Some v → l' !! k = Some (v + asked [q] k)).
Proof.
  intros Hs Hl Hn Hq Hc. unfold dsep_cond_indep. rewrite Hs. cbn [cc_get]. rewrite Hc. cbn [mbind res_bind cache_it].
  rewrite Hl. unfold count_test. pose proof (qvalid_length n q Hq) as Hlt.
  destruct (lookup_lt_is_Some_2 l (length q.2)) as [v Hv]; [lia|]. rewrite Hv. cbn [returns fst snd cs_cache cs_count].
  split; [done|]. split; [done|]. eexists. split; [done|]. rewrite insert_length. split; [done|].
  intros k w Hw. unfold asked. rewrite filter_cons, filter_nil. case_decide as Hd.
  - subst. rewrite list_lookup_insert by lia. cbn. congruence.
  - rewrite list_lookup_insert_ne by congruence. cbn. by rewrite Nat.add_0_r.
Qed.

Lemma asked_cons q qs k : asked (q :: qs) k = asked [q] k + asked qs k.
Proof. unfold asked. rewrite (filter_cons _ q qs), (filter_cons _ q []). case_decide; done. Qed.

Lemma ask_uncached n (val : nset * nset → bool) crit : ∀ qs s l t, cs_cache s = None → cs_count s = Some l → length l = n - 1 →
  Forall (qvalid n) qs → (∀ t q, qvalid n q → crit t q.1.1 q.1.2 q.2 = Ok (val (qkey q))) →
  returns (ask (λ t, dsep_cond_indep false (crit t)) t qs s) (λ r, r.1 = (λ q, val (qkey q)) <$> qs ∧
    ∃ l', cs_count r.2 = Some l' ∧ length l' = n - 1 ∧ ∀ k v, l !! k = Some v → l' !! k = Some (v + asked qs k)).
Proof.
  induction qs as [|[[x y] zz] qs IH]; intros s l t Hs Hk Hn Hv Hc; cbn [ask].
  { split; [done|]. exists l. split; [done|]. split; [done|]. intros k v ->. unfold asked. cbn. by rewrite Nat.add_0_r. }
  apply Forall_cons in Hv as [Hv Hvs].
  eapply returns_bind; [apply (uncached_step n (crit t) (val (qkey (x, y, zz))) s l (x, y, zz) Hs Hk Hn Hv); apply (Hc t (x, y, zz) Hv)|].
  cbn beta. intros [b s'] (Hb & Hs' & l1 & Hl1 & Hn1 & Hlk). cbn [fst snd] in *.
  eapply returns_bind; [apply (IH s' l1 (1 + t)); done|]. cbn beta. intros [bs s''] (Hbs & l2 & Hl2 & Hn2 & Hlk2). cbn [fst snd] in *.
  split; [rewrite fmap_cons; by rewrite Hb, Hbs|]. exists l2. split; [done|]. split; [done|]. intros k v Hkv.
  rewrite asked_cons. rewrite Nat.add_assoc. apply Hlk2. by apply Hlk.
Qed.

(** ** C34 *)
(** [val] gives the answer for an unordered pair and a set *)
Lemma cached_transparent n (val : nset * nset → bool) crit qs : Forall (qvalid n) qs →
  (∀ t q, qvalid n q → crit t q.1.1 q.1.2 q.2 = Ok (val (qkey q))) →
  returns (ask (λ t, dsep_cond_indep true (crit t)) 0 qs (ci_new n true true)) (λ r,
    returns (ask (λ t, dsep_cond_indep false (crit t)) 0 qs (ci_new n true false)) (λ r', r.1 = r'.1) ∧
    r.1 = (λ q, val (qkey q)) <$> qs ∧ ∃ l, cs_count r.2 = Some l ∧ counts n qs l).
Proof.
  intros Hv Hc. eapply returns_mono; [apply (ask_dsep n val crit qs [] _ 0 (ci_inv_new n val) Hv Hc)|].
  cbn beta. intros [bs s] [Hbs [_ Hs]]. cbn [fst snd app] in *. split; [|by split].
  eapply returns_mono; [apply (ask_uncached n val crit qs _ (replicate (n - 1) 0) 0); [done|done|by rewrite replicate_length|done|done]|].
  cbn beta. intros r' [Hr _]. congruence.
Qed.

Lemma uncached_counts n (val : nset * nset → bool) crit qs : Forall (qvalid n) qs →
  (∀ t q, qvalid n q → crit t q.1.1 q.1.2 q.2 = Ok (val (qkey q))) →
  returns (ask (λ t, dsep_cond_indep false (crit t)) 0 qs (ci_new n true false)) (λ r,
    r.1 = (λ q, val (qkey q)) <$> qs ∧ cs_count r.2 = Some (asked qs <$> seq 0 (n - 1))).
Proof.
  intros Hv Hc.
  eapply returns_mono; [apply (ask_uncached n val crit qs _ (replicate (n - 1) 0) 0); [done|done|by rewrite replicate_length|done|done]|].
  cbn beta. intros r' (Hr & l & Hl & Hn & Hk). split; [done|]. rewrite Hl. f_equal. apply list_eq. intros i.
  rewrite list_lookup_fmap. destruct (decide (i < n - 1)).
  - rewrite lookup_seq_lt by done. cbn. rewrite (Hk i 0); [done|]. by apply lookup_replicate_2.
  - rewrite lookup_seq_ge by lia. cbn. apply lookup_ge_None. lia.
Qed.

Lemma is_connected_bool g x y : is_connected g x y = bool_decide (adjacent g x y).
Proof. apply eq_true_iff_eq. rewrite bool_decide_eq_true. apply is_connected_spec. Qed.

(** ** Statistical tests: a threshold may change between queries *)
Section stat.
Context {V T : Type} (gt : V → T → bool).

Lemma stat_step retained n val (calc : node → node → list node → option V) qs s x y zz : ci_inv n val qs (ss_ci s) → qvalid n (x, y, zz) →
  calc x y zz = Some (val (qkey (x, y, zz))) →
  returns (stat_cond_indep gt retained true calc x y zz s) (λ r,
    r.1 = (if bool_decide (adjacent retained x y) then false else gt (val (qkey (x, y, zz))) (ss_threshold s)) ∧
    ss_threshold r.2 = ss_threshold s ∧
    ci_inv n val (qs ++ if bool_decide (adjacent retained x y) then [] else [(x, y, zz)]) (ss_ci r.2)).
Proof.
  intros Hi Hq Hc. unfold stat_cond_indep. rewrite is_connected_bool. destruct (bool_decide (adjacent retained x y)).
  { cbn. rewrite app_nil_r. done. }
  pose proof (ci_inv_get n val qs _ (x, y, zz) Hi Hq) as Hg. cbn [fst snd] in Hg. rewrite Hg.
  case_decide as Hd.
  - cbn. split; [done|]. split; [done|]. by apply ci_inv_old.
  - cbv zeta. rewrite Hc. pose proof (ci_inv_step n val qs _ (x, y, zz) Hi Hq Hd) as Hs. cbn [fst snd] in Hs.
    unfold cache_it. destruct (cc_set _ _ _ _ _) as [c| |]; [|done..].
    cbn [returns] in Hs. destruct (count_test _ _) as [k| |]; [|done..]. cbn [returns] in Hs.
    cbn. done.
Qed.

Lemma stat_run_ok retained n val (calc : nat → node → node → list node → option V) : ∀ ops qs s t, ci_inv n val qs (ss_ci s) →
  Forall (op_valid n) ops → (∀ t x y zz, qvalid n (x, y, zz) → calc t x y zz = Some (val (qkey (x, y, zz)))) →
  returns (stat_run (λ t, stat_cond_indep gt retained true (calc t)) t ops s) (λ r,
    r.1 = memoryless gt retained val (ss_threshold s) ops ∧ ci_inv n val (qs ++ op_queries retained ops) (ss_ci r.2)).
Proof.
  induction ops as [|[x y zz|th] ops IH]; intros qs s t Hi Hv Hc; cbn [stat_run].
  - split; [done|]. unfold op_queries. cbn. by rewrite app_nil_r.
  - apply Forall_cons in Hv as [Hv Hvs].
    eapply returns_bind; [apply (stat_step retained n val (calc t) qs s x y zz Hi Hv (Hc t x y zz Hv))|]. cbn beta.
    intros [b s'] (Hb & Ht & Hs). cbn [fst snd] in *.
    eapply returns_bind; [apply (IH _ s' (1 + t) Hs Hvs Hc)|]. cbn beta. intros [bs s''] [Hbs Hs'']. cbn [fst snd] in *.
    split; [cbn [memoryless fst]; by rewrite Hb, Hbs, Ht|].
    rewrite <- app_assoc in Hs''. unfold op_queries in *. cbn [omap list_omap snd]. by destruct (bool_decide (adjacent retained x y)).
  - apply Forall_cons in Hv as [Hv Hvs].
    eapply returns_mono; [apply (IH qs (StatState (ss_ci s) th) (1 + t) Hi Hvs Hc)|]. done.
Qed.

Lemma stat_cached retained n val (calc : nat → node → node → list node → option V) th ops : Forall (op_valid n) ops →
  (∀ t x y zz, qvalid n (x, y, zz) → calc t x y zz = Some (val (qkey (x, y, zz)))) →
  returns (stat_run (λ t, stat_cond_indep gt retained true (calc t)) 0 ops (StatState (ci_new n true true) th)) (λ r,
    r.1 = memoryless gt retained val th ops ∧ ∃ l, cs_count (ss_ci r.2) = Some l ∧ counts n (op_queries retained ops) l).
Proof.
  intros Hv Hc. eapply returns_mono; [apply (stat_run_ok retained n val calc ops [] (StatState (ci_new n true true) th) 0 (ci_inv_new n val) Hv Hc)|].
  cbn beta. intros r [Hr [_ Hs]]. by split.
Qed.

(** ** C36 *)
Lemma retained_dependent retained use_cache (calc : node → node → list node → option V) x y zz s :
  adjacent retained x y → stat_cond_indep gt retained use_cache calc x y zz s = Ok (false, s).
Proof. intros H. unfold stat_cond_indep. by rewrite (proj2 (is_connected_spec _ _ _) H). Qed.

Lemma cmi_retained retained use_cache (calc : node → node → list node → option V) x y zz s :
  adjacent retained x y → cmi_cond_indep gt retained use_cache calc x y zz s = Ok (true, s).
Proof. intros H. unfold cmi_cond_indep. by rewrite (retained_dependent retained use_cache calc x y zz s H). Qed.
End stat.
