(** Temporal homology. *)
From Verif Require Import Base BaseLemmas ModelGraph Spec ModelMixed SpecMixed ProofMixed ProofMixed2 ProofPDAG ProofPDAG2
  ModelPC SpecPC ProofPC ModelPAG SpecPAG ProofPAG ProofPAGU ProofPAGX ModelPDS ModelFCI SpecFCI ProofFCI ModelTS SpecTS.

Lemma for_app {A St} (l1 l2 : list A) (f : A → St → res St) s : for_ (l1 ++ l2) f s = (s' ← for_ l1 f s; for_ l2 f s').
Proof. revert s. induction l1 as [|x l1 IH]; intros s; [done|]. cbn [app for_]. destruct (f x s) as [s'| |]; [|done|done]. apply IH. Qed.
Lemma for_fmap {A B St} (h : A → B) (l : list A) (f : B → St → res St) s : for_ (h <$> l) f s = for_ l (λ x, f (h x)) s.
Proof. revert s. induction l as [|x l IH]; intros s; [done|]. cbn. destruct (f (h x) s) as [s'| |]; [|done|done]. apply IH. Qed.

Lemma map_returns {A B} (l : list A) (f : A → res B) (P : A → B → Prop) : (∀ x, x ∈ l → returns (f x) (P x)) →
  returns (map_ l f) (λ r, Forall2 P l r).
Proof.
  intros H. unfold map_. apply (for_returns_pre _ _ _ (λ pre r, Forall2 P pre r)); [constructor|].
  intros pre x post r E Hr. eapply returns_bind; [apply H; rewrite E; set_solver +|]. cbn beta. intros y Hy. cbn [returns].
  apply Forall2_app; [done|]. by repeat constructor.
Qed.

Lemma foldl_max_ge (l : list nat) x : x ≤ foldl max x l ∧ ∀ y, y ∈ l → y ≤ foldl max x l.
Proof.
  revert x. induction l as [|z l IH]; intros x; cbn [foldl]; [split; [done|]; intros y H; by apply elem_of_nil in H|].
  destruct (IH (max x z)) as [H1 H2]. split; [lia|]. intros y [->|H]%elem_of_cons; [lia|auto].
Qed.
Lemma foldl_max_in (l : list nat) x : foldl max x l = x ∨ foldl max x l ∈ l.
Proof.
  revert x. induction l as [|z l IH]; intros x; cbn [foldl]; [by left|]. destruct (IH (max x z)) as [H|H].
  - rewrite H. destruct (Nat.max_spec x z) as [[? ->]|[? ->]]; [right; left|by left].
  - right. by right.
Qed.

Section window.
  Context (NS : list (list node)) (W : window NS).

  Lemma at_elem t i n : at_ NS t i n → n ∈ concat NS.
  Proof.
    intros (l & H1 & H2). apply elem_of_list_In, in_concat. exists l. split; apply elem_of_list_In; by eapply elem_of_list_lookup_2.
  Qed.
  Lemma at_node t i n : at_ NS t i n → n ∈ win_nodes NS.
  Proof. intros H. unfold win_nodes. apply elem_of_list_to_set. by eapply at_elem. Qed.
  Lemma node_at n : n ∈ win_nodes NS → ∃ t i, at_ NS t i n.
  Proof.
    unfold win_nodes. rewrite elem_of_list_to_set. intros H. apply elem_of_list_In, in_concat in H as (l & H1 & H2).
    apply elem_of_list_In in H1, H2. apply elem_of_list_lookup in H1 as [t H1], H2 as [i H2]. by exists t, i, l.
  Qed.
  Lemma at_unique t i t' i' n : at_ NS t i n → at_ NS t' i' n → t = t' ∧ i = i'.
  Proof.
    intros (l & H1 & H2) (l' & H1' & H2'). pose proof (wi_names _ W) as Hnd. clear W. revert t t' H1 H1'.
    induction NS as [|m ms IH]; intros t t' H1 H1'; [done|]. cbn [concat] in Hnd. apply NoDup_app in Hnd as (N1 & N2 & N3).
    assert (∀ l i, n ∈ m → l ∈ ms → l !! i = Some n → False) as Hx.
    { intros l0 i0 Hm Hl0 Hi0. apply (N2 n Hm). apply elem_of_list_In, in_concat. exists l0. split; apply elem_of_list_In; [done|by eapply elem_of_list_lookup_2]. }
    destruct t as [|t], t' as [|t']; cbn in H1, H1'.
    - injection H1 as ->. injection H1' as ->. split; [done|]. exact (NoDup_lookup l' i i' n N1 H2 H2').
    - simplify_eq. exfalso. eapply (Hx l' i'); [by eapply elem_of_list_lookup_2|by eapply elem_of_list_lookup_2|done].
    - simplify_eq. exfalso. eapply (Hx l i); [by eapply elem_of_list_lookup_2|by eapply elem_of_list_lookup_2|done].
    - destruct (IH N3 t t' H1 H1') as [-> ->]. done.
  Qed.
  Lemma at_fun t i n n' : at_ NS t i n → at_ NS t i n' → n = n'.
  Proof. intros (l & H1 & H2) (l' & H1' & H2'). congruence. Qed.
  Lemma at_time t i n : at_ NS t i n → t < length NS.
  Proof. intros (l & H & _). by eapply lookup_lt_Some. Qed.
  Lemma at_other t i n t' : at_ NS t i n → t' < length NS → ∃ n', at_ NS t' i n'.
  Proof.
    intros (l & H1 & H2) Ht. destruct (wi_same _ W) as (m & Hm). destruct (lookup_lt_is_Some_2 NS t' Ht) as [l' Hl'].
    destruct (lookup_lt_is_Some_2 l' i) as [n' Hn'].
    - rewrite (Hm l') by by eapply elem_of_list_lookup_2. rewrite <-(Hm l) by by eapply elem_of_list_lookup_2. by eapply lookup_lt_Some.
    - by exists n', l'.
  Qed.
  Lemma time_unique t t' n : in_time NS t n → in_time NS t' n → t = t'.
  Proof. intros [i H] [i' H']. by destruct (at_unique _ _ _ _ _ H H'). Qed.

  Lemma node2time_ok t i n : at_ NS t i n → node2time NS n = Ok t.
  Proof.
    intros H. unfold node2time. destruct (list_find (λ l, n ∈ l) NS) as [[t' l']|] eqn:E.
    - apply list_find_Some in E as (H1 & H2 & _). apply elem_of_list_lookup in H2 as [i' H2].
      destruct (at_unique t i t' i' n) as [-> _]; [done|by exists l'|done].
    - exfalso. rewrite list_find_None in E. destruct H as (l & H1 & H2). rewrite Forall_forall in E.
      eapply E; [by eapply elem_of_list_lookup_2|by eapply elem_of_list_lookup_2].
  Qed.
  Lemma node2idx_ok t i n : at_ NS t i n → node2idx NS n = Ok i.
  Proof.
    intros H. unfold node2idx. destruct (list_find (λ l, n ∈ l) NS) as [[t' l']|] eqn:E.
    - apply list_find_Some in E as (H1 & H2 & _). destruct (list_find (n =.) l') as [[i' n']|] eqn:E'.
      + apply list_find_Some in E' as (H3 & -> & _). destruct (at_unique t i t' i' n') as [_ ->]; [done|by exists l'|done].
      + rewrite list_find_None, Forall_forall in E'. by destruct (E' n).
    - exfalso. rewrite list_find_None in E. destruct H as (l & H1 & H2). rewrite Forall_forall in E.
      eapply E; [by eapply elem_of_list_lookup_2|by eapply elem_of_list_lookup_2].
  Qed.
  Lemma node_name_ok t i n : at_ NS t i n → node_name NS t i = Ok n.
  Proof. intros (l & H1 & H2). unfold node_name. by rewrite H1, H2. Qed.

  (** ** shifts *)
  Lemma earlier_at k a b t i : at_ NS t i a → earlier NS k a b ↔ at_ NS (t + k) i b.
  Proof. intros Ha. split; [|by exists t, i]. intros (t' & i' & Ha' & Hb). by destruct (at_unique _ _ _ _ _ Ha Ha') as [-> ->]. Qed.
  Lemma earlier_at_r k a b t i : at_ NS t i b → earlier NS k a b → k ≤ t ∧ at_ NS (t - k) i a.
  Proof.
    intros Hb (t' & i' & Ha & Hb'). destruct (at_unique _ _ _ _ _ Hb Hb') as [-> ->]. split; [lia|].
    by replace (t' + k - k) with t' by lia.
  Qed.
  Lemma earlier_0 a : a ∈ win_nodes NS → earlier NS 0 a a.
  Proof. intros (t & i & H)%node_at. exists t, i. by rewrite Nat.add_0_r. Qed.
  Lemma earlier_nodes k a b : earlier NS k a b → a ∈ win_nodes NS ∧ b ∈ win_nodes NS.
  Proof. intros (t & i & H1 & H2). split; by eapply at_node. Qed.
  Lemma earlier_add k m a b c : earlier NS k a b → earlier NS m b c → earlier NS (k + m) a c.
  Proof. intros (t & i & Ha & Hb) H. apply (earlier_at _ _ _ _ _ Hb) in H. exists t, i. by rewrite Nat.add_assoc. Qed.
  Lemma earlier_fun k a b b' : earlier NS k a b → earlier NS k a b' → b = b'.
  Proof. intros (t & i & Ha & Hb) H. apply (earlier_at _ _ _ _ _ Ha) in H. by eapply at_fun. Qed.

  (** positions with equal lags *)
  Lemma same_lag_at a b c d : same_lag NS a b c d ↔ ∃ ta i tb j tc td, at_ NS ta i a ∧ at_ NS tb j b ∧ at_ NS tc i c ∧ at_ NS td j d ∧ ta + td = tc + tb.
  Proof.
    split.
    - intros (k & [[(t & i & H1 & H2) (t' & j & H3 & H4)]|[(t & i & H1 & H2) (t' & j & H3 & H4)]]).
      + exists t, i, t', j, (t + k), (t' + k). repeat (split; [done|]). lia.
      + exists (t + k), i, (t' + k), j, t, t'. repeat (split; [done|]). lia.
    - intros (ta & i & tb & j & tc & td & Ha & Hb & Hc & Hd & E). destruct (decide (ta ≤ tc)).
      + exists (tc - ta). left. split; [exists ta, i; by replace (ta + (tc - ta)) with tc by lia|exists tb, j; by replace (tb + (tc - ta)) with td by lia].
      + exists (ta - tc). right. split; [exists tc, i; by replace (tc + (ta - tc)) with ta by lia|exists td, j; by replace (td + (ta - tc)) with tb by lia].
  Qed.
  Lemma same_lag_refl a b : a ∈ win_nodes NS → b ∈ win_nodes NS → same_lag NS a b a b.
  Proof. intros Ha Hb. exists 0. left. split; by apply earlier_0. Qed.
  Lemma same_lag_sym a b c d : same_lag NS a b c d → same_lag NS c d a b.
  Proof. intros (k & [H|H]); exists k; [by right|by left]. Qed.
  Lemma same_lag_flip a b c d : same_lag NS a b c d → same_lag NS b a d c.
  Proof. intros (k & [[H1 H2]|[H1 H2]]); exists k; [by left|by right]. Qed.
  Lemma same_lag_trans a b c d e f : same_lag NS a b c d → same_lag NS c d e f → same_lag NS a b e f.
  Proof.
    rewrite !same_lag_at. intros (ta & i & tb & j & tc & td & Ha & Hb & Hc & Hd & E) (tc' & i' & td' & j' & te & tf & Hc' & Hd' & He & Hf & E').
    destruct (at_unique _ _ _ _ _ Hc Hc') as [-> ->], (at_unique _ _ _ _ _ Hd Hd') as [-> ->].
    exists ta, i', tb, j', te, tf. repeat (split; [done|]). lia.
  Qed.
  Lemma same_lag_nodes a b c d : same_lag NS a b c d → a ∈ win_nodes NS ∧ b ∈ win_nodes NS ∧ c ∈ win_nodes NS ∧ d ∈ win_nodes NS.
  Proof. intros (k & [[H1%earlier_nodes H2%earlier_nodes]|[H1%earlier_nodes H2%earlier_nodes]]); tauto. Qed.
  (** a pair with one node in the present is the latest of its class *)
  Lemma same_lag_base i j a b : in_time NS 0 i ∨ in_time NS 0 j → same_lag NS i j a b ↔ ∃ k, earlier NS k i a ∧ earlier NS k j b.
  Proof.
    intros H0. split; [|intros (k & H); exists k; by left]. intros (k & [H|[H1 H2]]); [by exists k|].
    assert (k = 0) as ->.
    { destruct H0 as [[x H0]|[x H0]]; [apply (earlier_at_r _ _ _ _ _ H0) in H1|apply (earlier_at_r _ _ _ _ _ H0) in H2]; lia. }
    assert (∀ u v, earlier NS 0 u v → u = v) as Hz.
    { intros u v (t & x & Hu & Hv). rewrite Nat.add_0_r in Hv. by eapply at_fun. }
    exists 0. pose proof (Hz _ _ H1). pose proof (Hz _ _ H2). subst. done.
  Qed.

  (** ** the lists of homologous edges and tests *)
  Lemma edge_homology_ok n0 n1 : in_time NS 0 n0 → n1 ∈ win_nodes NS →
    returns (edge_homology NS n0 n1) (λ l, ∀ p a b, l !! p = Some (a, b) ↔ earlier NS (p + 1) n0 a ∧ earlier NS (p + 1) n1 b).
  Proof.
    intros (i0 & H0) (t1 & i1 & H1)%node_at. unfold edge_homology. rewrite (node2time_ok _ _ _ H0), (node2time_ok _ _ _ H1),
      (node2idx_ok _ _ _ H0), (node2idx_ok _ _ _ H1). cbn [mbind res_bind assert_]. rewrite bool_decide_true by done. cbn [mbind res_bind assert_].
    set (N := length NS). pose proof (at_time _ _ _ H1) as Ht. fold N in Ht.
    replace (N - (t1 + 1)) with (N - t1 - 1) by lia. set (L := zip _ _).
    assert (∀ p, L !! p = if decide (p < N - t1 - 1) then Some (p + 1, t1 + (p + 1)) else None) as HL.
    { intros p. unfold L. rewrite lookup_zip_with. destruct (decide (p < N - t1 - 1)) as [Hp|Hp].
      - rewrite !lookup_seq_lt by done. cbn. f_equal. f_equal; lia.
      - rewrite (lookup_seq_ge 1) by lia. by cbn. }
    eapply returns_mono.
    - apply (map_returns _ _ (λ (u : nat * nat) (e : node * node), at_ NS u.1 i0 e.1 ∧ at_ NS u.2 i1 e.2)).
      intros [u0 u1] (p & Hp)%elem_of_list_lookup. rewrite HL in Hp. destruct (decide (p < N - t1 - 1)) as [Hlt|]; [|done]. simplify_eq. cbn [fst snd].
      destruct (at_other _ _ _ (p + 1) H0) as [m0 Hm0]; [fold N; lia|]. destruct (at_other _ _ _ (t1 + (p + 1)) H1) as [m1 Hm1]; [fold N; lia|].
      rewrite (node_name_ok _ _ _ Hm0), (node_name_ok _ _ _ Hm1). done.
    - cbn beta. intros l Hl p a b. rewrite (earlier_at _ _ _ _ _ H0), (earlier_at _ _ _ _ _ H1). cbn [Nat.add]. split.
      + intros Hp. destruct (Forall2_lookup_r _ _ _ _ _ Hl Hp) as ([u0 u1] & Hu & Ha & Hb). rewrite HL in Hu.
        destruct (decide (p < N - t1 - 1)); [|done]. simplify_eq. done.
      + intros [Ha Hb]. pose proof (at_time _ _ _ Hb) as Hlt. fold N in Hlt. assert (L !! p = Some (p + 1, t1 + (p + 1))) as Hu.
        { rewrite HL. rewrite decide_True by lia. done. }
        destruct (Forall2_lookup_l _ _ _ _ _ Hl Hu) as ([a' b'] & Hp & Ha' & Hb'). cbn [fst snd] in *. rewrite Hp.
        by rewrite (at_fun _ _ _ _ Ha Ha'), (at_fun _ _ _ _ Hb Hb').
  Qed.

  Lemma Forall2_nodes (c : list node) : (∀ z, z ∈ c → z ∈ win_nodes NS) → ∃ ps : list (nat * nat), Forall2 (λ z p, at_ NS p.1 p.2 z) c ps.
  Proof.
    induction c as [|z c IH]; intros H; [by exists []|]. destruct IH as [ps Hps]; [intros y Hy; apply H; by right|].
    destruct (node_at z) as (t & i & Hz); [apply H; by left|]. exists ((t, i) :: ps). by constructor.
  Qed.

  Lemma ci_homology_ok n0 n1 c : in_time NS 0 n0 → n1 ∈ win_nodes NS → c ≠ [] → (∀ z, z ∈ c → z ∈ win_nodes NS) →
    returns (ci_homology NS n0 n1 c) (λ l, ∀ p a b c', l !! p = Some (a, b, c') ↔
      earlier NS (p + 1) n0 a ∧ earlier NS (p + 1) n1 b ∧ Forall2 (earlier NS (p + 1)) c c').
  Proof.
    intros (i0 & H0) (t1 & i1 & H1)%node_at Hne Hc. destruct (Forall2_nodes c Hc) as [ps Hps]. unfold ci_homology.
    rewrite (node2time_ok _ _ _ H0), (node2time_ok _ _ _ H1),
      (node2idx_ok _ _ _ H0), (node2idx_ok _ _ _ H1). cbn [mbind res_bind assert_]. rewrite bool_decide_true by done. cbn [mbind res_bind assert_].
    assert (∀ {B} (f : node → res B) (h : nat * nat → B), (∀ z p, at_ NS p.1 p.2 z → f z = Ok (h p)) → map_ c f = Ok (h <$> ps)) as Hmap.
    { intros B f h Hf. pose proof (map_returns c f (λ z y, ∃ p, at_ NS p.1 p.2 z ∧ y = h p)) as HR.
      destruct (map_ c f) as [r| |]; cbn [returns] in HR.
      - f_equal. assert (Forall2 (λ z y, ∃ p, at_ NS p.1 p.2 z ∧ y = h p) c r) as HF.
        { apply HR. intros z Hz. pose proof (Hc z Hz) as Hz'. destruct (node_at z Hz') as (t & i & Hti). rewrite (Hf z (t, i)) by done. by exists (t, i). }
        clear -HF Hps W. revert r HF. induction Hps as [|z p c ps Hp Hps IH]; intros r HF; inversion HF as [|? ? ? ? Hy HF']; [done|]. subst. cbn.
        rewrite <-(IH _ HF'). destruct Hy as ([t i] & Hti & ->). destruct p as [t' i']. cbn in *. by destruct (at_unique _ _ _ _ _ Hp Hti) as [-> ->].
      - exfalso. apply HR. intros z Hz. destruct (node_at z (Hc z Hz)) as (t & i & Hti). rewrite (Hf z (t, i)) by done. by exists (t, i).
      - exfalso. apply HR. intros z Hz. destruct (node_at z (Hc z Hz)) as (t & i & Hti). rewrite (Hf z (t, i)) by done. by exists (t, i). }
    rewrite (Hmap nat (node2time NS) fst) by (intros z [t i]; apply node2time_ok).
    rewrite (Hmap nat (node2idx NS) snd) by (intros z [t i]; apply node2idx_ok). cbn [mbind res_bind].
    assert (∃ m, py_max (fst <$> ps) = Ok m ∧ (∀ p, p ∈ ps → p.1 ≤ m) ∧ ∃ p, p ∈ ps ∧ p.1 = m) as (m & -> & Hm1 & Hm2).
    { destruct ps as [|p ps]; [inversion Hps; by subst|]. cbn [fmap list_fmap py_max]. exists (foldl max p.1 (fst <$> ps)). split; [done|].
      destruct (foldl_max_ge (fst <$> ps) p.1) as [G1 G2]. split.
      - intros q [->|Hq]%elem_of_cons; [done|]. apply G2. apply elem_of_list_fmap. by exists q.
      - destruct (foldl_max_in (fst <$> ps) p.1) as [H|H]; [exists p; split; [by left|done]|].
        apply elem_of_list_fmap in H as (q & Hq & Hin). exists q. split; [by right|done]. }
    cbn [mbind res_bind]. set (N := length NS). set (past := m `max` t1).
    assert (zip (fst <$> ps) (snd <$> ps) = ps) as ->.
    { clear. induction ps as [|[t i] ps IH]; [done|]. cbn. by rewrite <-IH at 3. }
    eapply returns_mono.
    - apply (map_returns _ _ (λ k (e : node * node * list node), at_ NS (k + 1) i0 e.1.1 ∧ at_ NS (t1 + (k + 1)) i1 e.1.2 ∧
        Forall2 (λ p z, at_ NS (p.1 + (k + 1)) p.2 z) ps e.2)).
      intros k Hk%elem_of_seq. fold N in Hk. assert (past + 1 + k < N) as Hk' by lia.
      replace (1 + k) with (k + 1) by lia. replace (t1 + 1 + k) with (t1 + (k + 1)) by lia.
      destruct (at_other _ _ _ (k + 1) H0) as [m0 Hm0]; [fold N; lia|]. destruct (at_other _ _ _ (t1 + (k + 1)) H1) as [m1 Hm1']; [fold N; lia|].
      rewrite (node_name_ok _ _ _ Hm0), (node_name_ok _ _ _ Hm1'). cbn [mbind res_bind]. eapply returns_bind.
      + apply (map_returns _ _ (λ p z, at_ NS (p.1 + (k + 1)) p.2 z)). intros [t i] Hp. cbn [fst snd].
        apply Hm1 in Hp as Hle. cbn [fst] in Hle. apply elem_of_list_lookup in Hp as [x Hx]. destruct (Forall2_lookup_r _ _ _ _ _ Hps Hx) as (z & _ & Hz). cbn [fst snd] in Hz.
        destruct (at_other _ _ _ (t + (k + 1)) Hz) as [z' Hz']; [fold N; lia|]. replace (t + 1 + k) with (t + (k + 1)) by lia.
        by rewrite (node_name_ok _ _ _ Hz').
      + cbn beta. intros c' Hc'. cbn [returns fst snd]. done.
    - cbn beta. intros l Hl p a b c'. fold N in Hl. rewrite (earlier_at _ _ _ _ _ H0), (earlier_at _ _ _ _ _ H1). cbn [Nat.add].
      assert (∀ c', Forall2 (λ p0 z, at_ NS (p0.1 + (p + 1)) p0.2 z) ps c' ↔ Forall2 (earlier NS (p + 1)) c c') as Hsame.
      { intros c2. clear -Hps W. revert c2. induction Hps as [|z q c ps Hq Hps IH]; intros c2.
        - split; intros H; inversion H; constructor.
        - split; intros H; inversion H; subst; constructor; first [by apply IH|by apply (earlier_at _ _ _ _ _ Hq)]. }
      rewrite <-Hsame. split.
      + intros Hp. destruct (Forall2_lookup_r _ _ _ _ _ Hl Hp) as (k & Hk & Hx). apply lookup_seq in Hk as [-> Hk]. exact Hx.
      + intros (Ha & Hb & Hcc). pose proof (at_time _ _ _ Hb) as Hlt. fold N in Hlt.
        assert (m + (p + 1) < N) as Hlt'.
        { destruct Hm2 as (q & Hq & <-). apply elem_of_list_lookup in Hq as [x Hx]. destruct (Forall2_lookup_l _ _ _ _ _ Hcc Hx) as (z & _ & Hz). by apply at_time in Hz. }
        assert (seq 0 (N - (past + 1)) !! p = Some p) as Hu by (rewrite lookup_seq; lia).
        destruct (Forall2_lookup_l _ _ _ _ _ Hl Hu) as ([[a' b'] c2] & Hp & Ha' & Hb' & Hc2). cbn [fst snd] in *. rewrite Hp.
        rewrite (at_fun _ _ _ _ Ha Ha'), (at_fun _ _ _ _ Hb Hb'). f_equal. f_equal.
        apply Hsame in Hcc, Hc2. clear -Hcc Hc2 W. revert c2 Hc2. induction Hcc as [|z z' c c' Hz Hcc IH]; intros c2 Hc2; inversion Hc2; subst; [done|].
        f_equal; [by eapply earlier_fun|by apply IH].
  Qed.

  (** all the pairs with the same lag, the children first *)
  Lemma entry_homology_ok p c : p ∈ win_nodes NS → c ∈ win_nodes NS →
    returns (entry_homology NS p c) (λ l, ∀ c' p', (c', p') ∈ l ↔ same_lag NS p c p' c').
  Proof.
    intros (tp & ip & Hp)%node_at (tc & ic & Hc)%node_at. unfold entry_homology.
    rewrite (node2time_ok _ _ _ Hp), (node2time_ok _ _ _ Hc), (node2idx_ok _ _ _ Hp), (node2idx_ok _ _ _ Hc). cbn [mbind res_bind].
    set (m := tp `min` tc). pose proof (at_time _ _ _ Hp) as Lp. pose proof (at_time _ _ _ Hc) as Lc.
    destruct (at_other _ _ _ (tp - m) Hp) as [pb Hpb]; [lia|]. destruct (at_other _ _ _ (tc - m) Hc) as [cb Hcb]; [lia|].
    rewrite (node_name_ok _ _ _ Hpb), (node_name_ok _ _ _ Hcb). cbn [mbind res_bind].
    assert (same_lag NS p c pb cb) as Hbase.
    { apply same_lag_at. exists tp, ip, tc, ic, (tp - m), (tc - m). repeat (split; [done|]). lia. }
    assert (in_time NS 0 pb ∨ in_time NS 0 cb) as H0.
    { destruct (Nat.min_spec tp tc) as [[? E]|[? E]]; fold m in E; [left; exists ip; by replace 0 with (tp - m) by lia|right; exists ic; by replace 0 with (tc - m) by lia]. }
    assert (∀ p' c', same_lag NS p c p' c' ↔ ∃ k, earlier NS k pb p' ∧ earlier NS k cb c') as Hcls.
    { intros p' c'. rewrite <-(same_lag_base _ _ _ _ H0). split; intros Hs; eapply same_lag_trans; [by apply same_lag_sym|done|done|done]. }
    assert (pb ∈ win_nodes NS ∧ cb ∈ win_nodes NS) as [Npb Ncb] by (split; by eapply at_node).
    assert (returns (base_homology NS pb cb) (λ l, ∀ c' p', (c', p') ∈ l ↔ ∃ k, 1 ≤ k ∧ earlier NS k pb p' ∧ earlier NS k cb c')) as HB.
    { assert (∀ (l : list (node * node)) x y, (∀ q a b, l !! q = Some (a, b) ↔ earlier NS (q + 1) x a ∧ earlier NS (q + 1) y b) →
        ∀ a b, (a, b) ∈ l ↔ ∃ k, 1 ≤ k ∧ earlier NS k x a ∧ earlier NS k y b) as Hconv.
      { intros l x y Hl a b. rewrite elem_of_list_lookup. split.
        - intros (q & Hq%Hl). exists (q + 1). split; [lia|done].
        - intros (k & Hk & Hx). exists (k - 1). apply Hl. by replace (k - 1 + 1) with k by lia. }
      unfold base_homology. rewrite (node2time_ok _ _ _ Hcb). cbn [mbind res_bind]. destruct (decide (tc - m = 0)) as [Ez|Ez].
      + eapply returns_mono; [apply edge_homology_ok; [exists ic; by rewrite <-Ez|done]|]. cbn beta. intros l Hl c' p'. rewrite (Hconv _ _ _ Hl).
        split; intros (k & ? & ? & ?); by exists k.
      + rewrite (node2time_ok _ _ _ Hpb). cbn [mbind res_bind]. rewrite decide_True by lia.
        eapply returns_bind; [apply edge_homology_ok; [exists ip; by replace 0 with (tp - m) by lia|done]|]. cbn beta. intros l Hl. cbn [returns].
        intros c' p'. rewrite <-(Hconv _ _ _ Hl). change (map (λ e : node * node, (e.2, e.1)) l) with ((λ e : node * node, (e.2, e.1)) <$> l).
        rewrite elem_of_list_fmap. split; [intros ([a b] & [= -> ->] & ?); done|]. intros ?. by exists (p', c'). }
    eapply returns_bind; [exact HB|].
    - cbn beta. intros l Hl. cbn [returns]. intros c' p'. rewrite elem_of_app, elem_of_list_singleton, Hl, Hcls. split.
      + intros [(k & _ & ?)|[= -> ->]]; [by exists k|]. exists 0. split; by apply earlier_0.
      + intros (k & H1 & H2). destruct k as [|k]; [|left; exists (S k); split; [lia|done]]. right.
        rewrite (earlier_fun 0 pb p' pb), (earlier_fun 0 cb c' cb); [done|done|by apply earlier_0|done|by apply earlier_0].
  Qed.
End window.
