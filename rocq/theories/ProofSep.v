(** Refinement of the SeparationSet model to the specification. *)
From Verif Require Import Base BaseLemmas ModelPC ModelSep SpecMixed SpecSep ProofPC.

Notation hmap := (gmap (nat * nat) nat).

(** the contents stored under a key *)
Definition view (h : heap) (m : hmap) (k : nat * nat) : option nset := a ← m !! k; hcell h !! a.

(** the map owns its addresses; the foreign ones [F] are allocated *)
Record own (F : nat → Prop) (h : heap) (m : hmap) : Prop := Own {
  own_live : ∀ k a, m !! k = Some a → a < hnext h ∧ is_Some (hcell h !! a) ∧ ¬ F a;
  own_inj : ∀ k k' a, m !! k = Some a → m !! k' = Some a → k = k';
  own_for : ∀ a, F a → a < hnext h }.

(** foreign cells are unchanged *)
Definition same_for (F : nat → Prop) (h h' : heap) : Prop :=
  hnext h ≤ hnext h' ∧ ∀ a, F a → hcell h' !! a = hcell h !! a.

Lemma store_spec (F : nat → Prop) h m k S : own F h m →
  let r := store (h, m) k S in
  own F r.1 r.2 ∧ same_for F h r.1 ∧ ∀ k', view r.1 r.2 k' = if decide (k' = k) then Some S else view h m k'.
Proof.
  intros [H1 H2 H3]. simpl. split_and!; [split|split|]; simpl.
  - intros k' a. destruct (decide (k' = k)) as [->|Hk].
    + rewrite lookup_insert. intros [= <-]. rewrite lookup_insert. split_and!; [lia|eauto|]. intros ?%H3. lia.
    + rewrite lookup_insert_ne by done. intros (? & ? & ?)%H1. rewrite lookup_insert_ne by lia. split_and!; [lia|done..].
  - intros k1 k2 a. destruct (decide (k1 = k)) as [->|Hk1], (decide (k2 = k)) as [->|Hk2];
      rewrite ?lookup_insert, ?lookup_insert_ne by done; try done.
    + intros [= <-] ?%H1. lia.
    + intros ?%H1 [= <-]. lia.
    + apply H2.
  - intros a ?%H3. lia.
  - lia.
  - intros a ?%H3. rewrite lookup_insert_ne by lia. done.
  - intros k'. unfold view. simpl. destruct (decide (k' = k)) as [->|Hk].
    + rewrite lookup_insert. simpl. by rewrite lookup_insert.
    + rewrite lookup_insert_ne by done. destruct (m !! k') as [a|] eqn:E; [|done]. simpl.
      apply H1 in E as [? _]. by rewrite lookup_insert_ne by lia.
Qed.

Lemma same_for_trans F h1 h2 h3 : same_for F h1 h2 → same_for F h2 h3 → same_for F h1 h3.
Proof. intros [? H1] [? H2]. split; [lia|]. intros a Ha. by rewrite H2, H1. Qed.

Lemma stores_spec F (ks : list (nat * nat)) : ∀ h m, own F h m →
  let r := foldl (λ hm k, store hm k ∅) (h, m) ks in
  own F r.1 r.2 ∧ same_for F h r.1 ∧ (∀ k', k' ∈ ks → view r.1 r.2 k' = Some ∅) ∧
  ∀ k', k' ∉ ks → view r.1 r.2 k' = view h m k'.
Proof.
  induction ks as [|k ks IH]; intros h m Hm; cbn [foldl].
  - split_and!; [done|done| |done]. by intros k' ?%elem_of_nil.
  - pose proof (store_spec F h m k ∅ Hm) as (H1 & H2 & H3). destruct (store (h, m) k ∅) as [h1 m1]. cbn [fst snd] in *.
    destruct (IH _ _ H1) as (I1 & I2 & I3 & I4). cbn zeta. split_and!; [done|by eapply same_for_trans|..].
    + intros k' Hk'. destruct (decide (k' ∈ ks)) as [?|Hn]; [by apply I3|]. rewrite I4, H3 by done.
      rewrite decide_True; [done|]. by apply elem_of_cons in Hk' as [?|?].
    + intros k' Hk'. apply not_elem_of_cons in Hk' as [Hk1 Hk2]. rewrite I4, H3 by done. by rewrite decide_False.
Qed.

Lemma stores_pairs (l : list (node * node)) (hm : heap * hmap) :
  foldl (λ hm '(i, j), store hm (hkey i j) ∅) hm l = foldl (λ hm k, store hm k ∅) hm ((λ p, hkey p.1 p.2) <$> l).
Proof. revert hm. induction l as [|[i j] l IH]; intros hm; [done|]. apply IH. Qed.

Lemma own_empty (F : nat → Prop) h : (∀ a, F a → a < hnext h) → own F h ∅.
Proof. intros ?. split; [intros k a; by rewrite lookup_empty|intros k k' a; by rewrite lookup_empty|done]. Qed.

(** keys of the pairs of a set *)
Lemma pair_in_pair V i j : pair_in V {[i; j]} ↔ i ∈ V ∧ j ∈ V ∧ i ≠ j.
Proof.
  unfold pair_in. destruct (decide (i = j)) as [->|Hne].
  - replace ({[j; j]} : nset) with ({[j]} : nset) by set_solver. rewrite size_singleton. split; [lia|tauto].
  - rewrite size_union by set_solver. rewrite !size_singleton. split; [intros [? _]; set_solver|]. intros (?&?&?). split; [set_solver|done].
Qed.

Lemma pair_keys o k V i j : iter_ok o →
  hkey i j ∈ (λ p, hkey p.1 p.2) <$> comb2 (o k V) ↔ pair_in V {[i; j]}.
Proof.
  intros Ho. rewrite pair_in_pair, elem_of_list_fmap. split.
  - intros ([a b] & Hk & Hin). simpl in Hk. apply hkey_eq in Hk.
    pose proof (proj1 (comb2_iter o k V a b Ho) Hin). unfold is_pair in Hk. naive_solver.
  - intros (Hi & Hj & Hne). destruct (proj2 (comb2_iter o k V i j Ho) Hi Hj Hne) as [H|H].
    + exists (i, j). done.
    + exists (j, i). split; [apply hkey_comm|done].
Qed.

Lemma pair_set_key i j a b : ({[i; j]} : nset) = {[a; b]} ↔ hkey i j = hkey a b.
Proof.
  rewrite hkey_eq. unfold is_pair. split.
  - intros H. assert (i ∈ ({[a; b]} : nset)) as H1 by (rewrite <-H; set_solver).
    assert (j ∈ ({[a; b]} : nset)) as H2 by (rewrite <-H; set_solver).
    assert (a ∈ ({[i; j]} : nset)) as H3 by (rewrite H; set_solver).
    assert (b ∈ ({[i; j]} : nset)) as H4 by (rewrite H; set_solver).
    clear H. set_unfold. naive_solver.
  - intros [[-> ->]|[-> ->]]; [done|]. set_solver.
Qed.

Lemma so_new_spec o (F : nat → Prop) h V : iter_ok o → (∀ a, F a → a < hnext h) →
  let r := so_new o h V in
  own F r.1 (so_map r.2) ∧ same_for F h r.1 ∧ so_nodes r.2 = V ∧
  ∀ i j, view r.1 (so_map r.2) (hkey i j) = if decide (pair_in V {[i; j]}) then Some ∅ else None.
Proof.
  intros Ho HF. unfold so_new. rewrite stores_pairs.
  pose proof (stores_spec F ((λ p, hkey p.1 p.2) <$> comb2 (o 24 V)) h ∅ (own_empty F h HF)) as (H1 & H2 & H3 & H4).
  destruct (foldl _ _ _) as [h' m'] eqn:E. cbn [fst snd so_map so_nodes] in *. split_and!; [done..|].
  intros i j. destruct (decide (pair_in V {[i; j]})) as [Hp|Hp].
  - apply H3. by apply pair_keys.
  - rewrite H4 by (by rewrite pair_keys). unfold view. by rewrite lookup_empty.
Qed.

Lemma so_erase_spec F h s : own F h (so_map s) →
  let r := so_erase h s in
  own F r.1 (so_map r.2) ∧ same_for F h r.1 ∧ so_nodes r.2 = so_nodes s ∧
  ∀ k, view r.1 (so_map r.2) k = (λ _, ∅) <$> view h (so_map s) k.
Proof.
  intros Hs. unfold so_erase. pose proof (stores_spec F (map_to_list (so_map s)).*1 h (so_map s) Hs) as (H1 & H2 & H3 & H4).
  destruct (foldl _ _ _) as [h' m'] eqn:E. cbn [fst snd so_map so_nodes] in *. split_and!; [done..|].
  intros k. destruct (so_map s !! k) as [a|] eqn:Ek.
  - rewrite H3; [|apply elem_of_list_fmap; exists (k, a); split; [done|by apply elem_of_map_to_list]].
    unfold view. rewrite Ek. simpl. apply (own_live _ _ _ Hs) in Ek as (_ & [x Hx] & _). by rewrite Hx.
  - rewrite H4; [unfold view; by rewrite Ek|]. intros ([k' a] & -> & H)%elem_of_list_fmap. apply elem_of_map_to_list in H. simpl in *. congruence.
Qed.

(** the copy loop; [vs]: what the source holds *)
Lemma copy_loop_spec (F : nat → Prop) (self : bool) (src : hmap) (l : list (node * node)) (vs : nat * nat → option nset) : ∀ (h : heap) (m : hmap),
  own F h m →
  (if self then ∀ k, view h m k = vs k else (∀ k a, src !! k = Some a → F a ∧ is_Some (hcell h !! a)) ∧ ∀ k, view h src k = vs k) →
  let r := for_ l (λ '(i, j) hm, a ← addr_of (if self then hm.2 else src) i j;
        Ok (store hm (hkey i j) (deref hm.1 a))) (h, m) in
  ((∀ i j, (i, j) ∈ l → vs (hkey i j) ≠ None) → returns r (λ r, own F r.1 r.2 ∧ same_for F h r.1 ∧
    (∀ k, k ∈ (λ p, hkey p.1 p.2) <$> l → view r.1 r.2 k = vs k) ∧
    (∀ k, k ∉ (λ p, hkey p.1 p.2) <$> l → view r.1 r.2 k = view h m k))) ∧
  (∀ i j, (i, j) ∈ l → vs (hkey i j) = None → r = Raise KeyError).
Proof.
  set (f := λ '(i, j) (hm : heap * hmap), a ← addr_of (if self then hm.2 else src) i j;
        Ok (store hm (hkey i j) (deref hm.1 a))).
  induction l as [|[i j] l IH]; intros h m Hm Hsrc; cbn zeta.
  - split; [|by intros i j ?%elem_of_nil]. intros _. cbn [for_ returns]. split_and!; [done|done| |done].
    by intros k ?%elem_of_nil.
  - cbn [for_].
    assert (∀ k, view h (if self then m else src) k = vs k) as Hv by (destruct self; [done|apply Hsrc]).
    assert (∀ k a, (if self then m else src) !! k = Some a → is_Some (hcell h !! a)) as Hl.
    { destruct self; [|intros k a H; eapply (proj1 Hsrc), H]. intros k a H. by apply (own_live _ _ _ Hm) in H as (?&?&?). }
    destruct ((if self then m else src) !! hkey i j) as [a|] eqn:Ea.
    + destruct (Hl _ _ Ea) as [S HS]. assert (vs (hkey i j) = Some S) as Hvs.
      { rewrite <-Hv. unfold view. by rewrite Ea. }
      assert (f (i, j) (h, m) = Ok (store (h, m) (hkey i j) S)) as ->.
      { unfold f, addr_of. cbn [fst snd]. rewrite Ea. cbn [mbind res_bind]. unfold deref. by rewrite HS. }
      cbn [mbind res_bind].
      pose proof (store_spec F h m (hkey i j) S Hm) as (H1 & H2 & H3).
      destruct (store (h, m) (hkey i j) S) as [h1 m1]. cbn [fst snd] in *.
      destruct (IH h1 m1 H1) as [I1 I2].
      { destruct self.
        - intros k. rewrite H3. case_decide as Hk; [by subst|]. apply Hv.
        - destruct Hsrc as [Ha Hb]. split.
          + intros k b Hk. destruct (Ha _ _ Hk) as [HF ?]. split; [done|]. by rewrite (proj2 H2).
          + intros k. rewrite <-Hb. unfold view. destruct (src !! k) as [b|] eqn:Ek; [|done]. simpl. apply (proj2 H2). by apply (Ha k). }
      split.
      * intros Hall. eapply returns_mono; [apply I1; intros i' j' ?; apply Hall; by right|].
        cbn beta. intros [h2 m2] (J1 & J2 & J3 & J4). cbn [fst snd] in *. split_and!; [done|by eapply same_for_trans|..].
        -- intros k Hk. rewrite fmap_cons in Hk. destruct (decide (k ∈ (λ p : node * node, hkey p.1 p.2) <$> l)) as [?|Hn]; [by apply J3|].
           rewrite J4, H3 by done. apply elem_of_cons in Hk as [->|?]; [|done]. cbn [fst snd]. by rewrite decide_True.
        -- intros k Hk. rewrite fmap_cons in Hk. apply not_elem_of_cons in Hk as [Hk1 Hk2]. rewrite J4, H3 by done.
           by rewrite decide_False.
      * intros i' j' [Heq|Hin]%elem_of_cons Hn; [simplify_eq; congruence|]. by eapply I2.
    + assert (vs (hkey i j) = None) as Hvs.
      { rewrite <-Hv. unfold view. by rewrite Ea. }
      assert (f (i, j) (h, m) = Raise KeyError) as ->.
      { unfold f, addr_of. cbn [fst snd]. by rewrite Ea. }
      cbn [mbind res_bind]. split; [|done]. intros Hall. destruct (Hall i j); [left|done].
Qed.

(** ** the world invariant *)
Definition foreign (l : list sepobj) (c : nat) (a : nat) : Prop :=
  ∃ c' s k, c' ≠ c ∧ l !! c' = Some s ∧ so_map s !! k = Some a.

Record agree (h : heap) (s : sepobj) (t : scont) : Prop := Agree {
  ag_nodes : so_nodes s = sc_nodes t;
  ag_map : ∀ i j, view h (so_map s) (hkey i j) = sc_map t {[i; j]} }.

Record rel (h : heap) (l : list sepobj) (ls : list scont) : Prop := Rel {
  rel_len : length l = length ls;
  rel_ag : ∀ c s t, l !! c = Some s → ls !! c = Some t → agree h s t;
  rel_own : ∀ c s, l !! c = Some s → own (foreign l c) h (so_map s) }.

Lemma agree_same h h' s t F : agree h s t → same_for F h h' → (∀ k a, so_map s !! k = Some a → F a) → agree h' s t.
Proof.
  intros [H1 H2] [_ Hs] HF. split; [done|]. intros i j. rewrite <-H2. unfold view.
  destruct (so_map s !! hkey i j) as [a|] eqn:E; [|done]. simpl. apply Hs. by eapply HF.
Qed.

Lemma rel_for h l ls c : rel h l ls → ∀ a, foreign l c a → a < hnext h.
Proof. intros H a (c' & s & k & _ & Hs & Ha). by apply (own_live _ _ _ (rel_own _ _ _ H _ _ Hs)) in Ha as (? & ? & ?). Qed.

(** replacing or adding object c *)
Lemma rel_put h h' l ls l' ls' c s t : rel h l ls → length l' = length ls' →
  l' !! c = Some s → (∀ c', c' ≠ c → l' !! c' = l !! c') →
  ls' !! c = Some t → (∀ c', c' ≠ c → ls' !! c' = ls !! c') →
  own (foreign l c) h' (so_map s) → same_for (foreign l c) h h' → agree h' s t → rel h' l' ls'.
Proof.
  intros [Hlen Hag Hown] Hlen' Hc Hl Hc' Hls Ho Hs Ha. split; [done|..].
  - intros c1 s1 t1 H1 H2. destruct (decide (c1 = c)) as [->|Hne]; [simplify_eq; done|].
    rewrite Hl in H1 by done. rewrite Hls in H2 by done. eapply agree_same; [by eapply Hag|done|].
    intros k a Hk. by exists c1, s1, k.
  - intros c1 s1 H1. destruct (decide (c1 = c)) as [->|Hne].
    + simplify_eq. split; [|apply Ho|].
      * intros k a Hk. destruct (own_live _ _ _ Ho _ _ Hk) as (? & ? & Hn). split_and!; [done..|].
        intros (c' & s' & k' & ? & Hs' & ?). rewrite Hl in Hs' by done. apply Hn. by exists c', s', k'.
      * intros a (c' & s' & k' & ? & Hs' & ?). rewrite Hl in Hs' by done. apply (own_for _ _ _ Ho). by exists c', s', k'.
    + rewrite Hl in H1 by done. pose proof (Hown _ _ H1) as Ho1.
      assert (∀ k a, so_map s1 !! k = Some a → foreign l c a) as Hf by (intros k a Hk; by exists c1, s1, k).
      split; [|apply Ho1|].
      * intros k a Hk. destruct (own_live _ _ _ Ho1 _ _ Hk) as (? & ? & Hn). destruct Hs as [? Hs].
        split_and!; [lia|rewrite Hs by (by eapply Hf); done|].
        intros (c' & s' & k' & Hne' & Hs' & Hk'). destruct (decide (c' = c)) as [->|Hne''].
        -- simplify_eq. apply (own_live _ _ _ Ho) in Hk' as (_ & _ & Hn'). by eapply Hn', Hf.
        -- rewrite Hl in Hs' by done. apply Hn. by exists c', s', k'.
      * intros a (c' & s' & k' & Hne' & Hs' & Hk'). destruct (decide (c' = c)) as [->|Hne''].
        -- simplify_eq. by apply (own_live _ _ _ Ho) in Hk' as (? & _ & _).
        -- rewrite Hl in Hs' by done. destruct Hs as [Hle _].
           assert (foreign l c1 a) as H by (by exists c', s', k'). apply (own_for _ _ _ Ho1) in H. lia.
Qed.

Lemma rel_insert h h' l ls c s t s0 : rel h l ls → l !! c = Some s0 →
  own (foreign l c) h' (so_map s) → same_for (foreign l c) h h' → agree h' s t → rel h' (<[c := s]> l) (<[c := t]> ls).
Proof.
  intros Hr Hc Ho Hs Ha. pose proof (rel_len _ _ _ Hr) as Hlen. apply lookup_lt_Some in Hc.
  eapply rel_put; [exact Hr| | | | | |exact Ho|exact Hs|exact Ha].
  - by rewrite !insert_length.
  - by apply list_lookup_insert.
  - intros c' ?. by apply list_lookup_insert_ne.
  - apply list_lookup_insert. lia.
  - intros c' ?. by apply list_lookup_insert_ne.
Qed.

Lemma snoc_ne {A} (l : list A) x c : c ≠ length l → (l ++ [x]) !! c = l !! c.
Proof.
  intros Hc. destruct (decide (c < length l)) as [?|Hge]; [by apply lookup_app_l|].
  rewrite (lookup_ge_None_2 l) by lia. apply lookup_ge_None_2. rewrite app_length. simpl. lia.
Qed.

Lemma rel_snoc h h' l ls s t : rel h l ls →
  own (foreign l (length l)) h' (so_map s) → same_for (foreign l (length l)) h h' → agree h' s t → rel h' (l ++ [s]) (ls ++ [t]).
Proof.
  intros Hr Ho Hs Ha. pose proof (rel_len _ _ _ Hr) as Hlen.
  eapply rel_put; [exact Hr| | | | | |exact Ho|exact Hs|exact Ha].
  - rewrite !app_length. simpl. lia.
  - rewrite lookup_app_r by done. by rewrite Nat.sub_diag.
  - apply snoc_ne.
  - rewrite lookup_app_r by lia. by rewrite Hlen, Nat.sub_diag.
  - rewrite Hlen. apply snoc_ne.
Qed.

Lemma sc_total_dec f V : sc_total f V ∨ ∃ i j, i ∈ V ∧ j ∈ V ∧ i ≠ j ∧ f {[i; j]} = None.
Proof.
  destruct (decide (set_Exists (λ i, set_Exists (λ j, i ≠ j ∧ f {[i; j]} = None) V) V)) as [(i & Hi & j & Hj & Hne & H)|Hn].
  - right. by exists i, j.
  - left. intros i j Hi Hj Hne Hf. apply Hn. exists i. split; [done|]. by exists j.
Qed.

(** the copy loop in terms of the specification *)
Lemma so_copy_spec o k (F : nat → Prop) h src t (self : bool) (fs ft : nset → option nset) V : iter_ok o → own F h (so_map t) →
  (∀ i j, view h (so_map src) (hkey i j) = fs {[i; j]}) → (∀ i j, view h (so_map t) (hkey i j) = ft {[i; j]}) →
  (if self then so_map src = so_map t else ∀ k a, so_map src !! k = Some a → F a ∧ is_Some (hcell h !! a)) →
  (sc_total fs V → returns (so_copy_loop o k src self V h t) (λ r,
     own F r.1 (so_map r.2) ∧ same_for F h r.1 ∧ so_nodes r.2 = so_nodes t ∧
     ∀ i j, view r.1 (so_map r.2) (hkey i j) = sc_copy fs ft V {[i; j]})) ∧
  (¬ sc_total fs V → so_copy_loop o k src self V h t = Raise KeyError).
Proof.
  intros Ho Ht Hfs Hft Hsrc. unfold so_copy_loop.
  destruct (copy_loop_spec F self (so_map src) (comb2 (o k V)) (view h (so_map src)) h (so_map t) Ht) as [C1 C2].
  { destruct self; [by rewrite Hsrc|done]. }
  split.
  - intros Htot. assert (∀ i j, (i, j) ∈ comb2 (o k V) → view h (so_map src) (hkey i j) ≠ None) as Hall.
    { intros i j Hin. rewrite Hfs. pose proof (proj1 (comb2_iter o k V i j Ho) Hin) as (? & ? & ?). by apply Htot. }
    specialize (C1 Hall). destruct (for_ _ _ _) as [[h' m']| |]; [|done|done]. cbn [returns mbind res_bind fst snd so_map so_nodes] in *.
    destruct C1 as (D1 & D2 & D3 & D4). split_and!; [done..|]. intros i j. unfold sc_copy. case_decide as Hp.
    + rewrite <-Hfs. apply D3. by apply pair_keys.
    + rewrite <-Hft. apply D4. by rewrite pair_keys.
  - intros Hnt. destruct (sc_total_dec fs V) as [?|(i & j & Hi & Hj & Hne & Hn)]; [done|].
    assert (∃ i j, (i, j) ∈ comb2 (o k V) ∧ view h (so_map src) (hkey i j) = None) as (i' & j' & H1 & H2).
    { destruct (proj2 (comb2_iter o k V i j Ho) Hi Hj Hne) as [H|H].
      - exists i, j. by rewrite Hfs.
      - exists j, i. by rewrite hkey_comm, Hfs. }
    cbn zeta in C2. by rewrite (C2 _ _ H1 H2).
Qed.

Lemma nth_lt {A} (l : list A) c : c < length l → ∃ x, l !! c = Some x ∧ nth_obj l c = Ok x.
Proof. intros Hc. destruct (lookup_lt_is_Some_2 l c Hc) as [x Hx]. exists x. unfold nth_obj. by rewrite Hx. Qed.

Lemma do_sop_spec o op r h l ls : iter_ok o → rel h l ls → scoped (length l) (op :: r) →
  (∃ h' l' ls', do_sop o op (h, l) = Ok (h', l') ∧ sc_step op ls (Some ls') ∧ rel h' l' ls' ∧ scoped (length l') r) ∨
  (do_sop o op (h, l) = Raise KeyError ∧ sc_step op ls None).
Proof.
  intros Ho Hr Hsc. pose proof (rel_len _ _ _ Hr) as Hlen.
  assert (∀ c s, l !! c = Some s → ∃ t, ls !! c = Some t ∧ agree h s t ∧ own (foreign l c) h (so_map s)) as Hget.
  { intros c s Hs. destruct (lookup_lt_is_Some_2 ls c) as [t Ht]; [rewrite <-Hlen; by eapply lookup_lt_Some|].
    exists t. split_and!; [done|by eapply (rel_ag _ _ _ Hr)|by eapply (rel_own _ _ _ Hr)]. }
  assert (∀ c t ns k, c < length l → t < length l →
    ∃ s t' u u', l !! c = Some s ∧ l !! t = Some t' ∧ ls !! c = Some u ∧ ls !! t = Some u' ∧ nth_obj l c = Ok s ∧ nth_obj l t = Ok t' ∧
      so_nodes s = sc_nodes u ∧
      (sc_total (sc_map u) ns → returns (so_copy_loop o k s (bool_decide (c = t)) ns h t') (λ r,
         rel r.1 (<[t := r.2]> l) (<[t := SCont (sc_copy (sc_map u) (sc_map u') ns) (sc_nodes u')]> ls))) ∧
      (¬ sc_total (sc_map u) ns → so_copy_loop o k s (bool_decide (c = t)) ns h t' = Raise KeyError)) as Hcopy.
  { intros c t ns k Hc Ht. destruct (nth_lt l c Hc) as (s & Hs & En). destruct (nth_lt l t Ht) as (t' & Ht' & En').
    destruct (Hget _ _ Hs) as (u & Hu & Ha & Hw). destruct (Hget _ _ Ht') as (u' & Hu' & Ha' & Hw').
    exists s, t', u, u'. split_and!; [done..|apply Ha| |].
    all: destruct (so_copy_spec o k (foreign l t) h s t' (bool_decide (c = t)) (sc_map u) (sc_map u') ns) as [C1 C2];
      [done|done|apply Ha|apply Ha'| |].
    1,3: case_bool_decide as Hct; [subst; congruence|]; intros k' a Hk'; split;
        [by exists c, s, k'|by apply (own_live _ _ _ Hw) in Hk' as (? & ? & ?)].
    - intros Htot. eapply returns_mono; [by apply C1|]. cbn beta. intros [h2 t2] (D1 & D2 & D3 & D4). cbn [fst snd] in *.
      eapply rel_insert; [done|exact Ht'|done|done|]. split; [rewrite D3; apply Ha'|done].
    - done. }
  destruct op as [V|c|c i j S|c i j x|c ns|c t ns|t c ns]; cbn [scoped] in Hsc.
  - left. cbn [do_sop]. pose proof (so_new_spec o (foreign l (length l)) h V Ho (rel_for _ _ _ _ Hr)) as (H1 & H2 & H3 & H4).
    destruct (so_new o h V) as [h' s]. cbn [fst snd] in *. eexists h', _, _. split_and!; [done|constructor| |].
    + apply (rel_snoc h); [done..|]. by split.
    + rewrite app_length. simpl. by rewrite Nat.add_1_r.
  - destruct Hsc as [Hc Hsc]. destruct (nth_lt l c Hc) as (s & Hs & En). destruct (Hget _ _ Hs) as (t & Ht & Ha & Hw).
    left. cbn [do_sop]. rewrite En. cbn [mbind res_bind].
    pose proof (so_erase_spec _ h s Hw) as (H1 & H2 & H3 & H4). destruct (so_erase h s) as [h' s']. cbn [fst snd] in *.
    eexists h', _, _. split_and!; [done|by constructor| |].
    + eapply rel_insert; [done|exact Hs|done|done|]. split; [rewrite H3; apply Ha|]. intros i j. rewrite H4. simpl. by rewrite (ag_map _ _ _ Ha).
    + by rewrite insert_length.
  - destruct Hsc as [Hc Hsc]. destruct (nth_lt l c Hc) as (s & Hs & En). destruct (Hget _ _ Hs) as (t & Ht & Ha & Hw).
    left. cbn [do_sop]. rewrite En. cbn [mbind res_bind]. unfold so_set.
    pose proof (store_spec _ h (so_map s) (hkey i j) (list_to_set S) Hw) as (H1 & H2 & H3).
    destruct (store _ _ _) as [h' m']. cbn [fst snd] in *.
    eexists h', _, _. split_and!; [done|by constructor| |].
    + eapply rel_insert; [done|exact Hs|done|done|]. split; [apply Ha|]. intros i' j'. cbn [so_map sc_map]. rewrite H3. unfold sc_upd.
      destruct (decide (hkey i' j' = hkey i j)) as [E|E].
      * by rewrite decide_True by (by apply pair_set_key).
      * rewrite decide_False by (by rewrite pair_set_key). apply Ha.
    + by rewrite insert_length.
  - destruct Hsc as [Hc Hsc]. destruct (nth_lt l c Hc) as (s & Hs & En). destruct (Hget _ _ Hs) as (t & Ht & Ha & Hw).
    cbn [do_sop]. rewrite En. cbn [mbind res_bind]. unfold so_get, addr_of.
    pose proof (ag_map _ _ _ Ha i j) as Hv. unfold view in Hv. destruct (so_map s !! hkey i j) as [a|] eqn:Ea.
    + left. cbn [mbind res_bind]. destruct (own_live _ _ _ Hw _ _ Ea) as (Hlt & [Z HZ] & HnF). cbn [mbind option_bind] in Hv.
      rewrite HZ in Hv. unfold deref. rewrite HZ. cbn [default from_option id].
      eexists _, l, _. split_and!; [done|by eapply sc_add| |done].
      replace l with (<[c := s]> l) at 1 by (by apply list_insert_id).
      eapply rel_insert; [done|exact Hs|split|split|].
      * intros k b Hk. cbn [hnext hcell]. destruct (own_live _ _ _ Hw _ _ Hk) as (? & ? & ?). split_and!; [done| |done].
        destruct (decide (a = b)) as [->|?]; [rewrite lookup_insert; eauto|by rewrite lookup_insert_ne].
      * apply Hw.
      * apply Hw.
      * done.
      * intros b Hb. cbn [hcell]. rewrite lookup_insert_ne; [done|]. by intros ->.
      * split; [apply Ha|]. intros i' j'. cbn [so_map sc_map]. unfold view, sc_upd. cbn [hcell].
        destruct (decide (hkey i' j' = hkey i j)) as [E|E].
        -- rewrite decide_True by (by apply pair_set_key). rewrite E, Ea. cbn [mbind option_bind]. by rewrite lookup_insert.
        -- rewrite decide_False by (by rewrite pair_set_key). rewrite <-(ag_map _ _ _ Ha). unfold view.
           destruct (so_map s !! hkey i' j') as [b|] eqn:Eb; [|done]. cbn [mbind option_bind].
           rewrite lookup_insert_ne; [done|]. intros ->. apply E. by eapply (own_inj _ _ _ Hw).
    + right. split; [done|]. by eapply sc_add_err.
  - destruct Hsc as [Hc Hsc]. destruct (nth_lt l c Hc) as (s & Hs & En). destruct (Hget _ _ Hs) as (t & Ht & Ha & Hw).
    cbn [do_sop]. rewrite En. cbn [mbind res_bind]. rewrite (ag_nodes _ _ _ Ha). set (V := default (sc_nodes t) ns).
    pose proof (so_new_spec o (foreign l (length l)) h V Ho (rel_for _ _ _ _ Hr)) as (H1 & H2 & H3 & H4).
    destruct (so_new o h V) as [h' s']. cbn [fst snd] in *.
    assert (∀ k a, so_map s !! k = Some a → foreign l (length l) a) as Hf.
    { intros k a Hk. exists c, s, k. split_and!; [lia|done..]. }
    pose proof (agree_same _ _ _ _ _ Ha H2 Hf) as Ha'.
    destruct (so_copy_spec o 58 (foreign l (length l)) h' s s' false (sc_map t) (λ p, if decide (pair_in V p) then Some ∅ else None) V)
      as [C1 C2]; [done|done|apply Ha'|done| |].
    { intros k a Hk. split; [by eapply Hf|]. rewrite (proj2 H2) by (by eapply Hf). by apply (own_live _ _ _ Hw) in Hk as (? & ? & ?). }
    destruct (sc_total_dec (sc_map t) V) as [Htot|(i & j & Hi & Hj & Hne & Hn)].
    + left. specialize (C1 Htot). apply returns_ok in C1 as ([h2 s2] & E & D1 & D2 & D3 & D4). cbn [fst snd] in *.
      rewrite E. cbn [mbind res_bind fst snd]. eexists h2, _, _. split_and!; [done|by eapply sc_copy_new| |].
      * apply (rel_snoc h); [done|done|by eapply same_for_trans|]. split; [by rewrite D3, H3|].
        intros i j. rewrite D4. cbn [sc_map]. unfold sc_copy. fold V. destruct (decide (pair_in V {[i; j]})); done.
      * rewrite app_length. simpl. by rewrite Nat.add_1_r.
    + right. assert (¬ sc_total (sc_map t) V) as Hnt by (intros Htot; exact (Htot i j Hi Hj Hne ltac:(assumption))). rewrite C2 by done.
      split; [done|]. by eapply sc_copy_new_err.
  - destruct Hsc as (Hc & Ht & Hsc). destruct (nth_lt l c Hc) as (s0 & Hs0 & En0).
    destruct (Hcopy c t (default (so_nodes s0) ns) 58 Hc Ht) as (s & t' & u & u' & Hs & Ht' & Hu & Hu' & En & En' & Hn & C1 & C2).
    cbn [do_sop]. rewrite En, En'. cbn [mbind res_bind]. assert (s0 = s) as -> by congruence. rewrite Hn in C1, C2 |- *.
    destruct (sc_total_dec (sc_map u) (default (sc_nodes u) ns)) as [Htot|(i & j & Hi & Hj & Hne & Hn')].
    + left. specialize (C1 Htot). apply returns_ok in C1 as ([h2 s2] & E & D). cbn [fst snd] in *.
      rewrite E. cbn [mbind res_bind fst snd]. eexists h2, _, _. split_and!; [done|by eapply sc_copy_to|done|]. by rewrite insert_length.
    + right. assert (¬ sc_total (sc_map u) (default (sc_nodes u) ns)) as Hnt by (intros Htot; exact (Htot i j Hi Hj Hne ltac:(assumption))). rewrite C2 by done.
      split; [done|]. by eapply sc_copy_to_err.
  - destruct Hsc as (Hc & Ht & Hsc).
    destruct (Hcopy c t ns 72 Hc Ht) as (s & t' & u & u' & Hs & Ht' & Hu & Hu' & En & En' & Hn & C1 & C2).
    cbn [do_sop]. rewrite En, En'. cbn [mbind res_bind].
    destruct (sc_total_dec (sc_map u) ns) as [Htot|(i & j & Hi & Hj & Hne & Hn')].
    + left. specialize (C1 Htot). apply returns_ok in C1 as ([h2 s2] & E & D). cbn [fst snd] in *.
      rewrite E. cbn [mbind res_bind fst snd]. eexists h2, _, _. split_and!; [done|by eapply sc_copy_from|done|]. by rewrite insert_length.
    + right. assert (¬ sc_total (sc_map u) ns) as Hnt by (intros Htot; exact (Htot i j Hi Hj Hne ltac:(assumption))). rewrite C2 by done.
      split; [done|]. by eapply sc_copy_from_err.
Qed.

Lemma run_sops_from o ops : iter_ok o → ∀ h l ls, rel h l ls → scoped (length l) ops →
  ∃ r, sc_run ops ls r ∧
    match r with
    | Some ls' => returns (for_ ops (do_sop o) (h, l)) (λ w, rel w.1 w.2 ls')
    | None => for_ ops (do_sop o) (h, l) = Raise KeyError
    end.
Proof.
  intros Ho. induction ops as [|op ops IH]; intros h l ls Hr Hsc.
  - exists (Some ls). split; [constructor|done].
  - cbn [for_]. destruct (do_sop_spec o op ops h l ls Ho Hr Hsc) as [(h' & l' & ls' & E & Hst & Hr' & Hsc')|[E Hst]]; rewrite E; cbn [mbind res_bind].
    + destruct (IH _ _ _ Hr' Hsc') as (r & H1 & H2). exists r. split; [by econstructor|done].
    + exists None. split; [by constructor|done].
Qed.

Lemma sepset_refines o ops : iter_ok o → scoped 0 ops →
  ∃ r, sc_run ops [] r ∧
    match r with
    | Some ls => returns (run_sops o ops) (λ w, length w.2 = length ls ∧ ∀ c t i j, ls !! c = Some t →
        read_sop w c i j = match sc_map t {[i; j]} with Some Z => Ok Z | None => Raise KeyError end)
    | None => run_sops o ops = Raise KeyError
    end.
Proof.
  intros Ho Hsc. destruct (run_sops_from o ops Ho (Heap 0 ∅) [] []) as (r & H1 & H2); [|exact Hsc|].
  { split; [done|intros c s t|intros c s]; by rewrite lookup_nil. }
  exists r. split; [done|]. destruct r as [ls|]; [|done]. eapply returns_mono; [exact H2|]. cbn beta.
  intros [h l] Hr. cbn [fst snd] in *. split; [apply Hr|]. intros c t i j Ht.
  destruct (nth_lt l c) as (s & Hs & En); [rewrite (rel_len _ _ _ Hr); by eapply lookup_lt_Some|].
  unfold read_sop. cbn [fst snd]. rewrite En. cbn [mbind res_bind].
  rewrite <-(ag_map _ _ _ (rel_ag _ _ _ Hr _ _ _ Hs Ht)). unfold view, so_get, addr_of.
  destruct (so_map s !! hkey i j) as [a|] eqn:Ea; [|done]. cbn [mbind res_bind option_bind].
  destruct (own_live _ _ _ (rel_own _ _ _ Hr _ _ Hs) _ _ Ea) as (_ & [Z HZ] & _). unfold deref. by rewrite HZ.
Qed.
