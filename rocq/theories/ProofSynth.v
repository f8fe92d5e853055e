(** Proofs about the random generators. *)
From Coq Require Import QArith.
From Verif Require Import Base BaseLemmas ModelGraph Spec ModelPerf ModelSynth SpecSynth ProofGraph3 ProofPDAG3 ProofPerf3 ProofCount Paths.
Local Open Scope nat_scope.

Lemma increasing_acyclic n g : increasing n g → acyclic g.
Proof.
  intros [_ H] x Hx. assert (∀ a b, tc (edge g) a b → a < b) as H1; [|apply H1 in Hx; lia]. clear x Hx.
  intros a b Hb. induction Hb as [a b Hab|a b c Hab _ IH]; apply H in Hab; lia.
Qed.
Lemma increasing_wf n g : increasing n g → wf_graph g.
Proof. intros [Hn H] a b Hab. apply H in Hab. rewrite !Hn. lia. Qed.
Lemma range_elem n v : v ∈ range_set n ↔ v < n.
Proof. unfold range_set. rewrite elem_of_list_to_set, elem_of_seq. lia. Qed.
Lemma range_size n : size (range_set n) = n.
Proof. unfold range_set. rewrite size_list_to_set by apply NoDup_seq. apply seq_length. Qed.
Lemma increasing_nodes n g : increasing n g → gnodes g = range_set n.
Proof. intros [H _]. apply set_eq. intros v. by rewrite H, range_elem. Qed.
Lemma no_edge_empty V a b : ¬ edge (empty_graph V) a b.
Proof. unfold edge, empty_graph. cbn [gadj]. intros H. by apply elem_of_empty in H. Qed.
Lemma qlt_spec a b : qlt a b = true ↔ (a < b)%Q.
Proof.
  unfold qlt. rewrite negb_true_iff. destruct (Qle_bool b a) eqn:E; split; intros H; try done.
  - apply Qle_bool_iff in E. exfalso. by apply (Qlt_not_le a b).
  - apply Qnot_le_lt. intros Hle. apply Qle_bool_iff in Hle. congruence.
Qed.

Lemma for_pairs {T} (F : nat → nat → T → res T) m : ∀ p n s, n = p + S m →
  for_ (seq p m) (λ p s, for_ (seq (p + 1) (n - (p + 1))) (F p) s) s = for_ (comb2 (seq p (S m))) (λ e s, F e.1 e.2 s) s.
Proof.
  induction m as [|m IH]; intros p n s Hn; [done|].
  change (comb2 (seq p (S (S m)))) with (((p,.) <$> seq (S p) (S m)) ++ comb2 (seq (S p) (S m))).
  rewrite for_app. change (seq p (S m)) with (p :: seq (S p) m).
  assert (∀ l s, for_ ((p,.) <$> l) (λ e s, F e.1 e.2 s) s = for_ l (F p) s) as Hm.
  { induction l as [|x l IHl]; intros s0; [done|]. simpl. destruct (F p x s0); simpl; [apply IHl|done|done]. }
  rewrite Hm. cbn [for_]. replace (n - (p + 1)) with (S m) by lia. replace (p + 1) with (S p) by lia.
  destruct (for_ (seq (S p) (S m)) (F p) s) as [s'| |]; simpl; [|done|done]. apply IH. lia.
Qed.
Lemma comb2_seq m : ∀ s a b, (a, b) ∈ comb2 (seq s m) ↔ s ≤ a ∧ a < b ∧ b < s + m.
Proof.
  induction m as [|m IH]; intros s a b; [simpl; rewrite elem_of_nil; lia|]. simpl.
  rewrite elem_of_app, IH, elem_of_list_fmap. split.
  - intros [(x & E & Hx)|H]; [|lia]. injection E as -> ->. rewrite elem_of_seq in Hx. lia.
  - intros H. destruct (decide (a = s)) as [->|]; [left; exists b; rewrite elem_of_seq; split; [done|lia]|right; lia].
Qed.
Lemma comb2_seq_length m : ∀ s, 2 * length (comb2 (seq s m)) = m * (m - 1).
Proof. induction m as [|m IH]; intros s; [done|]. simpl. rewrite app_length, fmap_length, seq_length. specialize (IH (S s)). destruct m; simpl in *; lia. Qed.

Lemma n_pairs_length n : n_pairs n = length (comb2 (seq 0 n)).
Proof. unfold n_pairs. rewrite <-(comb2_seq_length n 0), Nat.mul_comm. by apply Nat.div_mul. Qed.
Definition draw_of (n k a b : nat) : nat := k + default 0 (fst <$> list_find (λ e, e = (a, b)) (comb2 (seq 0 n))).
Lemma draw_of_lookup n k a b : a < b → b < n → ∃ i, draw_of n k a b = k + i ∧ comb2 (seq 0 n) !! i = Some (a, b).
Proof.
  intros H1 H2. unfold draw_of. destruct (list_find _ _) as [[i e]|] eqn:E.
  - apply list_find_Some in E as (E & -> & _). by exists i.
  - exfalso. rewrite list_find_None, Forall_forall in E. apply (E (a, b)); [|done]. apply comb2_seq. lia.
Qed.
Lemma draw_own n k : own_draw n k (k + n_pairs n) (draw_of n k).
Proof.
  split.
  - intros a b H1 H2. destruct (draw_of_lookup n k a b H1 H2) as (i & -> & Hi). apply lookup_lt_Some in Hi. rewrite n_pairs_length. lia.
  - intros a b c d H1 H2 H3 H4 E. destruct (draw_of_lookup n k a b H1 H2) as (i & Ei & Hi). destruct (draw_of_lookup n k c d H3 H4) as (j & Ej & Hj).
    assert (i = j) as -> by lia. rewrite Hi in Hj. by injection Hj as -> ->.
Qed.

Lemma random_dag_ok rnd n e k : returns (create_random_dag rnd n e k) (λ '(g, k'),
  k' = k + n_pairs n ∧ increasing n g ∧ decided rnd n (e / qn (n - 1)) (draw_of n k) g).
Proof.
  unfold create_random_dag. destruct n as [|n].
  { simpl. split; [rewrite n_pairs_length; simpl; lia|]. split; [|intros a b; lia]. split; [intros v; change (v ∈ range_set 0 ↔ v < 0); by rewrite range_elem|]. by intros a b ?%no_edge_empty. }
  replace (S n - 1) with n by lia. rewrite (for_pairs _ n 0 (S n)) by lia.
  eapply returns_mono; [apply (for_returns_pre _ _ _ (λ pre s, s.2 = k + length pre ∧ gnodes s.1 = range_set (S n) ∧
    ∀ a b, edge s.1 a b ↔ ∃ i, pre !! i = Some (a, b) ∧ (rnd (k + i)%nat < e / qn n)%Q))|].
  - simpl. split; [lia|]. split; [done|]. intros a b. split; [by intros ?%no_edge_empty|intros (i & Hi & _); done].
  - intros pre [p c] post [g k1] Hl (Hk & Hn & He). simpl in Hk, Hn, He. subst k1. cbn [fst snd].
    assert ((p, c) ∈ comb2 (seq 0 (S n))) as Hin by (rewrite Hl; set_solver +). apply comb2_seq in Hin.
    rewrite qdiv_ok by (rewrite qn_zero; lia). cbn [mbind res_bind].
    assert (∀ a b, (∃ i, (pre ++ [(p, c)]) !! i = Some (a, b) ∧ (rnd (k + i)%nat < e / qn n)%Q) ↔
      (∃ i, pre !! i = Some (a, b) ∧ (rnd (k + i)%nat < e / qn n)%Q) ∨ (a = p ∧ b = c ∧ (rnd (k + length pre)%nat < e / qn n)%Q)) as Hs.
    { intros a b. split.
      - intros (i & Hi & Hr). apply lookup_app_Some in Hi as [Hi|[Hle Hi]]; [left; by exists i|right]. apply list_lookup_singleton_Some in Hi as [Hi E]. injection E as <- <-. replace i with (length pre) in Hr by lia. done.
      - intros [(i & Hi & Hr)|(-> & -> & Hr)]; [exists i; split; [by apply lookup_app_l_Some|done]|]. exists (length pre). split; [by apply list_lookup_middle|done]. }
    destruct (qlt (rnd (k + length pre)) (e / qn n)) eqn:Hq.
    + apply qlt_spec in Hq. eapply returns_bind; [apply add_edges_spec; [intros q ->%elem_of_singleton|]; rewrite Hn, range_elem; lia|].
      cbn beta. intros g' [Hn' He']. simpl. split; [rewrite app_length; simpl; lia|]. split; [congruence|]. intros a b. rewrite He', He, Hs, elem_of_singleton. tauto.
    + assert (¬ (rnd (k + length pre)%nat < e / qn n)%Q) as Hq' by (rewrite <-qlt_spec; congruence).
      simpl. split; [rewrite app_length; simpl; lia|]. split; [done|]. intros a b. rewrite He, Hs. tauto.
  - cbn beta. intros [g k'] (Hk & Hn & He). cbn [fst snd] in Hk, Hn, He. split; [by rewrite n_pairs_length|]. split; [split|].
    + intros v. by rewrite Hn, range_elem.
    + intros a b (i & Hi & _)%He. apply elem_of_list_lookup_2, comb2_seq in Hi. lia.
    + intros a b H1 H2. replace (S n - 1) with n by lia. destruct (draw_of_lookup (S n) k a b H1 H2) as (i & -> & Hi). rewrite He. split.
      * intros (j & Hj & Hr). assert (i = j) as ->; [|done]. eapply NoDup_lookup; [|exact Hi|exact Hj]. apply comb2_nodup, NoDup_seq.
      * intros Hr. by exists i.
Qed.

Lemma random_dag_run rnd n e k : ∃ g, create_random_dag rnd n e k = Ok (g, k + n_pairs n) ∧ increasing n g ∧ decided rnd n (e / qn (n - 1)) (draw_of n k) g.
Proof. destruct (proj1 (returns_ok _ _) (random_dag_ok rnd n e k)) as ([g k'] & E & -> & H1 & H2). by exists g. Qed.

(** the i-th graph that is sampled *)
Definition is_sample rnd n e k i g := create_random_dag rnd n e (k + i * n_pairs n) = Ok (g, k + (i + 1) * n_pairs n).
Lemma connected_ok o rnd fuel n e timeout k : iter_ok o → n < fuel → 2 ≤ n →
  returns (create_random_connected_dag o rnd fuel n e timeout k) (λ '(og, k'),
    match og with
    | Some g => increasing n g ∧ weakly_connected g (gnodes g) ∧ ∃ i, i ≤ timeout ∧ is_sample rnd n e k i g ∧
        ∀ j h, j < i → is_sample rnd n e k j h → ¬ weakly_connected h (gnodes h)
    | None => ∀ j h, j ≤ timeout → is_sample rnd n e k j h → ¬ weakly_connected h (gnodes h)
    end).
Proof.
  intros Ho Hf H2. unfold create_random_connected_dag.
  assert (∀ left_ i, i + left_ = timeout + 1 → (∀ j h, j < i → is_sample rnd n e k j h → ¬ weakly_connected h (gnodes h)) →
    returns (connected_dag_loop o rnd fuel left_ n e (k + i * n_pairs n)) (λ '(og, k'),
    match og with
    | Some g => increasing n g ∧ weakly_connected g (gnodes g) ∧ ∃ i, i ≤ timeout ∧ is_sample rnd n e k i g ∧
        ∀ j h, j < i → is_sample rnd n e k j h → ¬ weakly_connected h (gnodes h)
    | None => ∀ j h, j ≤ timeout → is_sample rnd n e k j h → ¬ weakly_connected h (gnodes h)
    end)) as Hl.
  { induction left_ as [|l IH]; intros i Hi Hno; simpl.
    - intros j h Hj. apply Hno. lia.
    - destruct (random_dag_run rnd n e (k + i * n_pairs n)) as (g & E & Hg & _). rewrite E. cbn [mbind res_bind fst snd].
      assert (is_sample rnd n e k i g) as Hs by (unfold is_sample; rewrite E; do 2 f_equal; lia).
      pose proof (increasing_nodes _ _ Hg) as Hgn.
      eapply returns_bind; [apply is_graph_connected_spec; [done|simpl; rewrite Hgn, range_size; lia..]|]. cbn beta. intros b Hb. simpl in Hb.
      destruct b.
      + simpl. split; [done|]. split; [by apply Hb|]. exists i. split; [lia|]. done.
      + replace (k + i * n_pairs n + n_pairs n) with (k + (i + 1) * n_pairs n) by lia. apply IH; [lia|].
        intros j h Hj Hjs. destruct (decide (j = i)) as [->|]; [|apply (Hno j h); [lia|done]].
        unfold is_sample in *. rewrite Hs in Hjs. injection Hjs as <-. intros Hc. apply Hb in Hc. done. }
  specialize (Hl (timeout + 1) 0 eq_refl). rewrite Nat.add_0_r in Hl. apply Hl. intros j h Hj. lia.
Qed.

Lemma connected_small o rnd fuel n e timeout k : n < 2 → create_random_connected_dag o rnd fuel n e timeout k = Raise AssertionError.
Proof.
  intros Hn. unfold create_random_connected_dag. rewrite Nat.add_1_r. cbn [connected_dag_loop].
  destruct (random_dag_run rnd n e k) as (g & E & Hg & _). rewrite E. cbn [mbind res_bind fst snd].
  unfold is_graph_connected. rewrite bool_decide_false; [done|]. simpl. rewrite (increasing_nodes _ _ Hg), range_size. lia.
Qed.

Lemma max_fan_ok ri rs n f : randint_ok ri → sample_ok rs → returns (create_random_dag_max_fan ri rs n f) (λ g,
  increasing n g ∧ ∀ v, size (gadj g v) ≤ f ∧
    (0 < v → v < n → size (gadj g v) = ri v (min v f) ∧ ∀ p, edge g p v ↔ 0 < ri v (min v f) ∧ p ∈ rs (seq 0 v) (ri v (min v f)))).
Proof.
  intros Hri Hrs. unfold create_random_dag_max_fan.
  eapply returns_mono; [apply (for_returns_pre _ _ _ (λ pre g, gnodes g = range_set n ∧
    ∀ p v, edge g p v ↔ v ∈ pre ∧ 0 < ri v (min v f) ∧ p ∈ rs (seq 0 v) (ri v (min v f))))|].
  - split; [done|]. intros p v. split; [by intros ?%no_edge_empty|intros [?%elem_of_nil _]; done].
  - intros pre v post g Hl [Hn He]. assert (v ∈ seq 1 (n - 1)) as Hv by (rewrite Hl; set_solver +). rewrite elem_of_seq in Hv.
    destruct (decide (0 < ri v (v `min` f))) as [Hp|Hp]; cbn zeta.
    + destruct (decide (0 < ri v (v `min` f))) as [_|]; [|done].
      eapply returns_mono; [apply add_edges_spec|].
      * intros p. rewrite elem_of_list_to_set. intros Hpp. pose proof (Hri v (v `min` f)).
        apply Hrs in Hpp; [|apply NoDup_seq|rewrite seq_length; lia]. rewrite elem_of_seq in Hpp. rewrite Hn, range_elem. lia.
      * rewrite Hn, range_elem. lia.
      * cbn beta. intros g' [Hn' He']. split; [congruence|]. intros p u. rewrite He', He, elem_of_list_to_set, elem_of_app, elem_of_list_singleton.
        split; [intros [?|[-> ?]]; tauto|]. intros [[?| ->] ?]; tauto.
    + destruct (decide (0 < ri v (v `min` f))) as [|_]; [done|]. simpl. split; [done|]. intros p u. rewrite He, elem_of_app, elem_of_list_singleton.
      split; [tauto|]. intros [[?| ->] ?]; tauto.
  - cbn beta. intros g [Hn He].
    assert (∀ v, 0 < v → v < n → size (gadj g v) = ri v (v `min` f) ∧ ∀ p, edge g p v ↔ 0 < ri v (min v f) ∧ p ∈ rs (seq 0 v) (ri v (min v f))) as Hv.
    { intros v H1 H2. assert (∀ p, edge g p v ↔ 0 < ri v (min v f) ∧ p ∈ rs (seq 0 v) (ri v (min v f))) as H.
      { intros p. rewrite He, elem_of_seq. split; [tauto|]. intros ?. split; [lia|done]. }
      split; [|done]. destruct (decide (0 < ri v (v `min` f))) as [Hp|Hp].
      - pose proof (Hri v (v `min` f)). destruct (Hrs (seq 0 v) (ri v (v `min` f))) as (N & L & _); [apply NoDup_seq|rewrite seq_length; lia|].
        assert (gadj g v = list_to_set (rs (seq 0 v) (ri v (v `min` f)))) as -> by (apply set_eq; intros p; rewrite elem_of_list_to_set; unfold edge in H; rewrite H; tauto).
        rewrite size_list_to_set by done. exact L.
      - assert (gadj g v = ∅) as -> by (apply set_eq; intros p; unfold edge in H; rewrite H; split; [tauto|by intros ?%elem_of_empty]). rewrite size_empty. lia. }
    split; [split|].
    + intros v. by rewrite Hn, range_elem.
    + intros a b Hab. apply He in Hab as (Hb & Hp & Ha). rewrite elem_of_seq in Hb. pose proof (Hri b (b `min` f)).
      apply Hrs in Ha; [|apply NoDup_seq|rewrite seq_length; lia]. rewrite elem_of_seq in Ha. lia.
    + intros v. split; [|apply Hv]. destruct (decide (0 < v ∧ v < n)) as [[H1 H2]|H].
      * destruct (Hv v H1 H2) as [-> _]. pose proof (Hri v (v `min` f)). lia.
      * assert (gadj g v = ∅) as ->; [|rewrite size_empty; lia]. apply set_eq. intros p. split; [|by intros ?%elem_of_empty].
        intros Hp. apply He in Hp as [Hp _]. rewrite elem_of_seq in Hp. lia.
Qed.

Lemma two_elems (S : nset) : 2 ≤ size S ↔ ∃ c d, c ≠ d ∧ c ∈ S ∧ d ∈ S.
Proof.
  split.
  - intros H. destruct (size_pos_elem_of S) as [c Hc]; [lia|]. destruct (size_pos_elem_of (S ∖ {[c]})) as [d Hd].
    + rewrite size_difference by set_solver +Hc. rewrite size_singleton. lia.
    + exists c, d. set_solver +Hc Hd.
  - intros (c & d & Hne & Hc & Hd). etrans; [|apply (subseteq_size {[c; d]}); set_solver +Hc Hd].
    rewrite size_union by set_solver +Hne. rewrite !size_singleton. done.
Qed.
Lemma fold_select (P : nat → Prop) `{∀ n, Decision (P n)} (l : list nat) : ∀ (S : nset) (x : nat), x ∈ foldl (λ (S : nset) n, if decide (P n) then S ∪ {[n]} else S) S l ↔ x ∈ S ∨ (x ∈ l ∧ P x).
Proof.
  induction l as [|y l IH]; intros S x; simpl; [set_solver +|]. rewrite IH. destruct (decide (P y)).
  - rewrite elem_of_union, elem_of_singleton, elem_of_cons. split; [intros [[?| ->]|?]; tauto|]. intros [?|[[->|?] ?]]; tauto.
  - rewrite elem_of_cons. split; [tauto|]. intros [?|[[->|?] ?]]; tauto.
Qed.
Lemma select_ok o g v : iter_ok o → wf_graph g → v ∈ select_latent_variables o g ↔ confounder g v.
Proof.
  intros Ho Hwf. unfold select_latent_variables. rewrite (fold_select (λ p, 2 ≤ size (find_children o g p None))).
  rewrite iter_elem by done. rewrite (fold_select (λ n, size (parents g n) = 0)). rewrite iter_elem by done. rewrite two_elems.
  unfold confounder. assert (size (parents g v) = 0 ↔ ∀ p, ¬ edge g p v) as E.
  { unfold parents, edge. rewrite size_empty_iff. set_solver +. }
  rewrite E. assert (∀ c, c ∈ find_children o g v None ↔ edge g v c) as Ec.
  { intros c. rewrite find_children_spec by done. simpl. split; [tauto|]. intros Hc. split; [done|]. exact (proj2 (Hwf _ _ Hc)). }
  split.
  - intros [H|[[H|[H1 H2]] (c & d & H3 & H4 & H5)]]; [by apply elem_of_empty in H|by apply elem_of_empty in H|]. split; [done|]. split; [done|]. exists c, d. by rewrite <-!Ec.
  - intros (H1 & H2 & c & d & H3 & H4 & H5). right. split; [right; done|]. exists c, d. by rewrite !Ec.
Qed.

Lemma latents_ok o rnd rs fuel n e timeout : iter_ok o → sample_ok rs → n < fuel → 2 ≤ n →
  (∃ j h, j ≤ timeout ∧ is_sample rnd n e 0 j h ∧ weakly_connected h (gnodes h)) →
  returns (create_random_dag_with_latents o rnd rs true fuel n e timeout) (λ '(g, obs, lat),
    increasing n g ∧ weakly_connected g (gnodes g) ∧
    (∀ v, v ∈ gnodes g ↔ v ∈ obs ∨ v ∈ lat) ∧ (∀ v, v ∈ lat → v ∉ obs) ∧
    (∀ v, v ∈ lat → confounder g v) ∧
    (∀ v c, v ∈ lat → edge g v c → c ∈ obs) ∧
    ∀ C : nset, (∀ v, v ∈ C ↔ confounder g v) → size lat = size C / 2).
Proof.
  intros Ho Hrs Hf H2 (j & h & Hj & Hs & Hc). unfold create_random_dag_with_latents.
  eapply returns_bind; [by apply connected_ok|]. cbn beta. intros [[g|] k'] H; cbn [fst snd]; [|exfalso; by apply (H j h)].
  destruct H as (Hg & Hw & _). cbn zeta. pose proof (increasing_wf _ _ Hg) as Hwf. set (pot := select_latent_variables o g).
  assert (∀ v, v ∈ pot ↔ confounder g v) as Hp by (intros v; by apply select_ok).
  assert (size pot / 2 ≤ length (o 85 pot)) as Hle.
  { rewrite <-(size_list_to_set (C := nset) (o 85 pot)) by by apply iter_nodup. rewrite (iter_set o 85 pot Ho). apply Nat.div_le_upper_bound; lia. }
  destruct (Hrs (o 85 pot) (size pot / 2)) as (N & L & I); [by apply iter_nodup|done|].
  assert (∀ v, v ∈ (list_to_set (rs (o 85 pot) (size pot / 2)) : nset) → confounder g v) as Hlat.
  { intros v. rewrite elem_of_list_to_set. intros Hv%I. rewrite iter_elem in Hv by done. by apply Hp. }
  cbn beta iota delta [returns]. split; [done|]. split; [done|]. split; [|split; [|split; [|split]]].
  - intros v. rewrite elem_of_difference. destruct (decide (v ∈ (list_to_set (rs (o 85 pot) (size pot / 2)) : nset))) as [Hv|Hv]; [|tauto].
    split; [tauto|]. intros _. by apply Hlat in Hv as [? _].
  - intros v Hv. rewrite elem_of_difference. tauto.
  - done.
  - intros v c Hv Hvc. rewrite elem_of_difference. split; [exact (proj2 (Hwf _ _ Hvc))|]. intros Hcl. apply Hlat in Hcl as (_ & Hn & _). by apply (Hn v).
  - intros C HC. rewrite size_list_to_set by done. rewrite L. assert (C = pot) as -> by (apply set_eq; intros v; by rewrite HC, Hp). done.
Qed.
Lemma latents_timeout o rnd rs b fuel n e timeout : iter_ok o → n < fuel → 2 ≤ n →
  (∀ j h, j ≤ timeout → is_sample rnd n e 0 j h → ¬ weakly_connected h (gnodes h)) →
  create_random_dag_with_latents o rnd rs b fuel n e timeout = Raise AttributeError.
Proof.
  intros Ho Hf H2 H. unfold create_random_dag_with_latents.
  destruct (proj1 (returns_ok _ _) (connected_ok o rnd fuel n e timeout 0 Ho Hf H2)) as ([[g|] k'] & E & HE); [|by rewrite E].
  exfalso. destruct HE as (_ & Hc & i & Hi & Hs & _). by apply (H i g).
Qed.
Lemma latents_311 o rnd rs fuel n e timeout r : iter_ok o → n < fuel →
  create_random_dag_with_latents o rnd rs false fuel n e timeout ≠ Ok r.
Proof.
  intros Ho Hf. unfold create_random_dag_with_latents. destruct (create_random_connected_dag _ _ _ _ _ _ _) as [[[g|] k]| |]; simpl; done.
Qed.

(** ** linear structural equations *)
Lemma qsum_app f l1 l2 : (qsum f (l1 ++ l2) == qsum f l1 + qsum f l2)%Q.
Proof. induction l1 as [|x l IH]; simpl; [ring|]. rewrite IH. ring. Qed.
Lemma qsum_perm f l1 l2 : l1 ≡ₚ l2 → (qsum f l1 == qsum f l2)%Q.
Proof. intros H. induction H as [|x l l' _ IH|x y l|l l' l'' _ IH1 _ IH2]; simpl; [reflexivity|rewrite IH; reflexivity|ring|by rewrite IH1]. Qed.
Lemma qsum_ext f g l : (∀ x, x ∈ l → (f x == g x)%Q) → (qsum f l == qsum g l)%Q.
Proof. induction l as [|x l IH]; intros H; simpl; [reflexivity|]. rewrite (H x) by set_solver +. rewrite IH; [reflexivity|]. intros y Hy. apply H. set_solver +Hy. Qed.

Lemma edge_weight_cases sgn mag v p : sgn v p ≤ 1 → (edge_weight sgn mag v p == mag v p ∨ edge_weight sgn mag v p == - mag v p)%Q.
Proof. intros H. unfold edge_weight. destruct (sgn v p) as [|[|]]; [right|left|lia]; unfold qn; simpl; ring. Qed.

Lemma sample_record_ok o fuel g noise sgn mag : iter_ok o → size (gnodes g) < fuel → wf_graph g → acyclic g →
  (∀ v, v ∈ gnodes g ↔ v < size (gnodes g)) →
  returns (sample_record o fuel g noise sgn mag) (solves g noise (edge_weight sgn mag)).
Proof.
  intros Ho Hf Hwf Hac Hcol. unfold sample_record. set (w := edge_weight sgn mag).
  eapply returns_bind; [apply topological_ok; [done|simpl; lia|]|].
  { simpl. intros a Ha. apply (Hac a). eapply tc_mono; [|exact Ha]. by intros x y [? _]. }
  cbn beta. simpl. intros l (Hnd & Hl & Hb).
  eapply returns_mono; [apply (for_returns_pre _ _ _ (λ pre x, (∀ v, v ∉ pre → x v = noise v) ∧
    ∀ v, v ∈ pre → (x v == noise v + qsum (λ p, w v p * x p) (elements (gadj g v)))%Q))|].
  - split; [done|]. by intros v ?%elem_of_nil.
  - intros pre v post x El [H1 H2].
    assert (v ∈ gnodes g) as Hv by (apply Hl; rewrite El; set_solver +).
    assert (v ∉ pre) as Hvp by (rewrite El in Hnd; apply NoDup_app in Hnd as (_ & Hd & _); intros Hin; apply (Hd v Hin); set_solver +).
    assert (∀ p, edge g p v → p ∈ pre) as Hpre.
    { intros p Hp. destruct (Hwf _ _ Hp) as [Hpn _]. destruct (Hb p v Hpn Hv Hp) as (l1 & l2 & l3 & E). rewrite El in E.
      rewrite (app_comm_cons l2), (app_assoc l1) in E || idtac.
      assert (pre = l1 ++ p :: l2) as ->; [|set_solver +].
      assert (NoDup (pre ++ v :: post)) as Hnd' by (by rewrite <-El). 
      assert (pre ++ v :: post = (l1 ++ p :: l2) ++ v :: l3) as E' by (rewrite E, <-app_assoc; done).
      clear E. revert Hnd' E'. generalize (l1 ++ p :: l2). clear -l3. induction pre as [|y pre IH]; intros [|z q] Hnd E; simpl in *; [done| | |].
      - injection E as -> ->. apply NoDup_cons in Hnd as [Hn _]. exfalso. apply Hn. set_solver +.
      - injection E as -> E. apply NoDup_cons in Hnd as [Hn _]. exfalso. apply Hn. set_solver +.
      - injection E as -> E. apply NoDup_cons in Hnd as [_ Hnd]. f_equal. by apply IH. }
    eapply returns_mono; [apply (for_returns_pre _ _ _ (λ pp y, (∀ u, u ≠ v → y u = x u) ∧ (y v == x v + qsum (λ p, w v p * x p) pp)%Q))|].
    + split; [done|]. simpl. ring.
    + intros pp p post' y Ep [G1 G2]. assert (p ∈ o 106 (parents g v)) as Hp by (rewrite Ep; set_solver +). rewrite iter_elem in Hp by done.
      assert (p ≠ v) as Hpv by (intros ->; by apply Hvp, Hpre). destruct (Hwf _ _ Hp) as [Hpn _]. unfold col_ok.
      destruct (decide (v < size (gnodes g))) as [_|HH]; [|exfalso; by apply HH, Hcol]. destruct (decide (p < size (gnodes g))) as [_|HH]; [|exfalso; by apply HH, Hcol].
      simpl. split.
      * intros u Hu. destruct (decide (u = v)); [done|]. by apply G1.
      * destruct (decide (v = v)) as [_|]; [|done]. rewrite G2, qsum_app. simpl. rewrite (G1 p Hpv). unfold w. ring.
    + cbn beta. intros y [G1 G2]. 
      assert (∀ u, edge g u v → y u = x u) as Gp by (intros u Hu; apply G1; intros ->; by apply Hvp, Hpre).
      split.
      * intros u Hu. rewrite elem_of_app, elem_of_list_singleton in Hu. rewrite G1 by (intros ->; tauto). apply H1. tauto.
      * intros u. rewrite elem_of_app, elem_of_list_singleton. intros [Hu| ->].
        -- rewrite G1 by (intros ->; done). rewrite (H2 u Hu). apply Qplus_comp; [reflexivity|]. apply qsum_ext. intros p Hp. rewrite elem_of_elements in Hp.
           rewrite G1; [reflexivity|]. intros ->.
           (* an edge from v to the earlier u *)
           destruct (Hwf _ _ Hp) as [_ Hun]. destruct (Hb v u Hv Hun Hp) as (l1 & l2 & l3 & E). rewrite El in E.
           rewrite <-El in E. rewrite El in Hnd. apply elem_of_list_split in Hu as (q1 & q2 & ->).
           assert (NoDup l) as Hndl by (by rewrite El). 
           assert (l !! length q1 = Some u) as Lu by (rewrite El, <-app_assoc; simpl; by rewrite list_lookup_middle).
           assert (l !! length (q1 ++ u :: q2) = Some v) as Lv by (rewrite El; by rewrite list_lookup_middle).
           assert (l !! length l1 = Some v) as Lv' by (rewrite E; by rewrite list_lookup_middle).
           assert (l !! (length l1 + S (length l2)) = Some u) as Lu'.
           { rewrite E. rewrite lookup_app_r by lia. replace (length l1 + S (length l2) - length l1) with (S (length l2)) by lia. simpl. by rewrite list_lookup_middle. }
           pose proof (NoDup_lookup _ _ _ _ Hndl Lu Lu'). pose proof (NoDup_lookup _ _ _ _ Hndl Lv Lv'). rewrite app_length in *. simpl in *. lia.
        -- rewrite G2. rewrite H1 by done. apply Qplus_comp; [reflexivity|].
           rewrite (qsum_perm _ (o 106 (parents g v)) (elements (gadj g v))).
           ++ apply qsum_ext. intros p Hp. rewrite elem_of_elements in Hp. by rewrite (Gp p Hp).
           ++ apply NoDup_Permutation; [by apply iter_nodup|apply NoDup_elements|]. intros p. rewrite iter_elem by done. by rewrite elem_of_elements.
  - cbn beta. intros x [_ H] v Hv. apply H. by apply Hl.
Qed.
