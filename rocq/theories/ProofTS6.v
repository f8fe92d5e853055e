(** Temporal ICD with a perfect oracle: adjacencies and orientations. *)
From Verif Require Import Base BaseLemmas Paths ModelGraph Spec ModelMixed SpecMixed ProofMixed ProofMixed2 ProofPDAG ProofPDAG2
  ModelPC SpecPC ProofPC ModelPAG SpecPAG ProofPAG ProofPAGU ProofPAGX ModelPDS ModelFCI SpecFCI ProofFCI ProofFCI2 ProofFCI3 ProofFCI5 ModelTS SpecTS
  ProofCI2 ProofTS ProofTS2 ProofTS3 ProofTS4 ProofTS5.

(** ** a separation in the present holds at all earlier times inside the window *)
Section shift.
  Context (NS : list (list node)) (W : window NS) (m : mgraph) (A : ancestral m) (N : mnodes m = win_nodes NS).
  Context (Sm : ∀ k, stationary NS (λ a b, has_mark m a k b)) (Fm : ∀ a b, past_of NS a b → mg_adj m a b → has_mark m a Directed b).
  Notation V := (win_nodes NS).
  Notation late k n := (∃ t, in_time NS t n ∧ t < k).
  Notation early k n := (∃ t, in_time NS t n ∧ k ≤ t).

  Lemma in_time_V t n : in_time NS t n → n ∈ V.
  Proof. intros [i H]. by eapply at_node. Qed.
  Lemma late_early k n : late k n → early k n → False.
  Proof. intros (t & Ht & Hk) (t' & Ht' & Hk'). rewrite (time_unique NS W _ _ _ Ht Ht') in *. lia. Qed.
  Lemma early_or_late k n : n ∈ V → early k n ∨ late k n.
  Proof. intros (t & i & Hn)%node_at. destruct (decide (k ≤ t)); [left|right]; exists t; (split; [by exists i|lia]). Qed.
  Lemma adj_V a b : mg_adj m a b → a ∈ V ∧ b ∈ V.
  Proof. intros H. apply mg_adj_nodes in H as (? & ? & _); [|apply A]. by rewrite <-N. Qed.
  Lemma dir_mark a b : dir_edge m a b → has_mark m a Directed b ∧ has_mark m b Tail a.
  Proof. done. Qed.
  (** a directed edge does not go back in time *)
  Lemma dir_late k a b : dir_edge m a b → late k a → late k b.
  Proof using A N Fm W.
    intros Hd (t & Ht & Hk). assert (mg_adj m a b) as Hab by (exists Directed; apply Hd). destruct (adj_V a b Hab) as [_ (tb & ib & Hb)%node_at].
    destruct (decide (tb < k)); [exists tb; split; [by exists ib|done]|]. exfalso.
    assert (has_mark m b Directed a) as Hba.
    { apply Fm; [|apply mg_adj_sym; [apply A|done]]. exists tb, t. split; [by exists ib|]. split; [done|lia]. }
    pose proof (mgw_one _ (an_wf _ A) _ _ _ _ Hba (proj2 (dir_mark _ _ Hd))). done.
  Qed.
  Lemma rtc_late k a b : rtc (dir_edge m) a b → late k a → late k b.
  Proof using A N Fm W. induction 1 as [|a b c Hab _ IH]; [done|]. intros H. apply IH. by eapply dir_late. Qed.

  (** once an active path has gone beyond all conditioning nodes, it does not come back *)
  Lemma no_return k (Z : nset) : (∀ z, z ∈ Z → early k z) → ∀ p a b y, m_active m Z (a :: b :: p) → linked (mg_adj m) (a :: b :: p) → last (b :: p) = Some y →
    has_mark m a Directed b → late k b → early k y → False.
  Proof using A N Fm W.
    intros HZ. induction p as [|c p IH]; intros a b y Ha Hl Hy Hm Hb He.
    - injection Hy as <-. by eapply late_early.
    - apply linked_cons in Hl as [_ Hl]. assert (mg_adj m b c) as Hbc by by apply linked_cons in Hl as [? _].
      destruct (Ha [] a b c p eq_refl) as [H1 H2]. destruct (decide (c ∈ mset m b Directed)) as [Hc|Hc].
      + destruct H1 as (z & Hz & Hr); [by split|]. eapply late_early; [by eapply rtc_late|by apply HZ].
      + assert (has_mark m c Tail b) as Ht.
        { apply mg_adj_sym in Hbc; [|apply A]. destruct Hbc as [k' Hk]. destruct k'; try done; by destruct (an_marks _ A _ _ Hk). }
        assert (has_mark m b Directed c) as Hd.
        { destruct Hbc as [k' Hk]. destruct k'; try done; try by destruct (an_marks _ A _ _ Hk). exfalso. apply (an_und _ A c b a); [by split|done]. }
        assert (dir_edge m b c) as Hdir by done.
        eapply (IH b c y); [|done|done|done|by eapply dir_late|done].
        intros l1 a' b' c' l2 E. apply (Ha (a :: l1) a' b' c' l2). by rewrite E.
  Qed.
  Lemma all_early k (Z : nset) : (∀ z, z ∈ Z → early k z) → ∀ p a y, m_active m Z (a :: p) → linked (mg_adj m) (a :: p) → last (a :: p) = Some y →
    early k a → early k y → ∀ v, v ∈ a :: p → early k v.
  Proof using A N Fm W.
    intros HZ. induction p as [|b p IH]; intros a y Ha Hl Hy Ea Ey v Hv; [by apply elem_of_list_singleton in Hv as ->|].
    pose proof Hl as [Hab Hl']%linked_cons. destruct (adj_V a b Hab) as [_ Hb].
    destruct (early_or_late k b Hb) as [Eb|Lb].
    - apply elem_of_cons in Hv as [->|Hv]; [done|]. apply (IH b y); [|done|done|done|done|done].
      intros l1 a' b' c' l2 E. apply (Ha (a :: l1) a' b' c' l2). by rewrite E.
    - exfalso. apply (no_return k Z HZ p a b y); [done|done|done| |done|done].
      destruct Ea as (ta & Hta & Hka), Lb as (tb & Htb & Hkb). apply Fm; [|done]. exists ta, tb. split_and!; [done..|lia].
  Qed.

  Lemma early_shift k v : early k v → ∃ u, earlier NS k u v.
  Proof using W.
    intros (t & [i Hi] & Hk). destruct (at_other NS W t i v (t - k) Hi) as (u & Hu); [pose proof (at_time NS _ _ _ Hi); lia|].
    exists u, (t - k), i. split; [done|]. by replace (t - k + k) with t by lia.
  Qed.
  Lemma earlier_inj k a a' b : earlier NS k a b → earlier NS k a' b → a = a'.
  Proof using W.
    intros (t & i & H1 & H2) (t' & i' & H3 & H4). destruct (at_unique NS W _ _ _ _ _ H2 H4) as [E ->]. assert (t = t') as -> by lia. by eapply at_fun.
  Qed.
  Lemma earlier_early k a b : earlier NS k a b → early k b.
  Proof. intros (t & i & _ & H). exists (t + k). split; [by exists i|lia]. Qed.
  Lemma mark_shift k a b a' b' j : earlier NS k a a' → earlier NS k b b' → has_mark m a j b ↔ has_mark m a' j b'.
  Proof using Sm. intros Ha Hb. apply (Sm j). exists k. by left. Qed.
  Lemma adj_shift k a b a' b' : earlier NS k a a' → earlier NS k b b' → mg_adj m a b ↔ mg_adj m a' b'.
  Proof using Sm. intros Ha Hb. split; intros [j Hj]; exists j; by apply (mark_shift k a b a' b' j Ha Hb). Qed.

  Lemma rtc_shift k a' z' : rtc (dir_edge m) a' z' → early k z' → ∀ a, earlier NS k a a' → ∃ z, earlier NS k z z' ∧ rtc (dir_edge m) a z.
  Proof using A N Fm W Sm.
    induction 1 as [a'|a' b' z' Hab Hr IH]; intros Ez a Ha; [by exists a|].
    assert (mg_adj m a' b') as Hadj by (exists Directed; apply Hab).
    assert (early k b') as Eb.
    { destruct (adj_V _ _ Hadj) as [_ Hb]. destruct (early_or_late k b' Hb) as [?|L]; [done|]. exfalso. eapply late_early; [by eapply rtc_late|done]. }
    destruct (early_shift k b' Eb) as [b Hb]. destruct (IH Ez b Hb) as (z & Hz & Hbz). exists z. split; [done|]. eapply rtc_l; [|done].
    destruct Hab as [H1 H2]. split; [by apply (mark_shift k a b a' b' _ Ha Hb)|by apply (mark_shift k b a b' a' _ Hb Ha)].
  Qed.

  Lemma Forall2_triple {X Y} (R : X → Y → Prop) l1 a b c l2 p' : Forall2 R (l1 ++ a :: b :: c :: l2) p' →
    ∃ k1 a' b' c' k2, p' = k1 ++ a' :: b' :: c' :: k2 ∧ R a a' ∧ R b b' ∧ R c c'.
  Proof.
    intros (k1 & q & _ & Hq & ->)%Forall2_app_inv_l. inversion Hq as [|? a' ? q1 Ha Hq1]; subst. inversion Hq1 as [|? b' ? q2 Hb Hq2]; subst.
    inversion Hq2 as [|? c' ? q3 Hc Hq3]; subst. by exists k1, a', b', c', q3.
  Qed.
  Lemma msep_shift k x y x' y' (Z Z' : nset) : earlier NS k x x' → earlier NS k y y' →
    (∀ z', z' ∈ Z' → ∃ z, z ∈ Z ∧ earlier NS k z z') → (∀ z, z ∈ Z → ∃ z', z' ∈ Z' ∧ earlier NS k z z') →
    m_separated m x y Z → m_separated m x' y' Z'.
  Proof using A N Fm W Sm.
    intros Hx Hy HZ1 HZ2 Hs (p' & (Hh & Hl & Hnd & Hlk) & Hact). apply Hs.
    destruct p' as [|x0 p']; [done|]. injection Hh as ->.
    assert (∀ z, z ∈ Z' → early k z) as HZe by (intros z Hz; destruct (HZ1 z Hz) as (? & _ & ?); by eapply earlier_early).
    pose proof (all_early k Z' HZe p' x' y' Hact Hlk Hl (earlier_early _ _ _ Hx) (earlier_early _ _ _ Hy)) as He.
    assert (∃ p, Forall2 (earlier NS k) p (x' :: p')) as (p & Hp).
    { clear -He W. induction (x' :: p') as [|v l IH]; [by exists []|]. destruct (early_shift k v) as [u Hu]; [apply He; left|].
      destruct IH as [q Hq]; [intros v' Hv'; apply He; by right|]. exists (u :: q). by constructor. }
    exists p. split; [split_and!|].
    - inversion Hp as [|u v q q' Hu Hq]; subst. cbn. f_equal. by eapply earlier_inj.
    - clear -Hp Hl Hy W. revert Hp Hl. generalize (x' :: p'). intros l Hp Hl. induction Hp as [|u v q q' Hu Hq IH]; [done|].
      destruct q' as [|v' q']; inversion Hq as [|u2 v2 q2 q2' Hu2 Hq2]; subst; [|by apply IH]. injection Hl as ->. cbn. f_equal. by eapply earlier_inj.
    - clear -Hp Hnd W. revert Hp Hnd. generalize (x' :: p'). intros l Hp Hnd. induction Hp as [|u v q q' Hu Hq IH]; [constructor|].
      apply NoDup_cons in Hnd as [Hv Hnd]. constructor; [|by apply IH]. intros Hin. apply Hv.
      apply elem_of_list_lookup in Hin as [n Hn]. destruct (Forall2_lookup_l _ _ _ _ _ Hq Hn) as (v' & Hv' & Hu').
      rewrite (earlier_fun NS W k _ _ _ Hu Hu'). by eapply elem_of_list_lookup_2.
    - intros l1 a b l2 ->. apply Forall2_app_inv_l in Hp as (k1 & q & _ & Hq & E). inversion Hq as [|? a' ? q1 Ha Hq1]; subst. inversion Hq1 as [|? b' ? q2 Hb Hq2]; subst.
      apply (adj_shift k a b a' b' Ha Hb). by apply (Hlk k1 a' b' q2).
    - intros l1 a b c l2 ->. destruct (Forall2_triple _ _ _ _ _ _ _ Hp) as (k1 & a' & b' & c' & k2 & E & Ha & Hb & Hc).
      destruct (Hact k1 a' b' c' k2 E) as [H1 H2].
      assert (m_collider m a b c ↔ m_collider m a' b' c') as Hcol by (unfold m_collider; rewrite (mark_shift k a b a' b' _ Ha Hb), (mark_shift k c b c' b' _ Hc Hb); done).
      rewrite Hcol. split.
      + intros Hc'. destruct (H1 Hc') as (z' & Hz' & Hr). destruct (HZ1 z' Hz') as (z & Hz & Hzz). exists z. split; [done|].
        destruct (rtc_shift k b' z' Hr (HZe _ Hz') b Hb) as (z0 & Hz0 & Hr0). by rewrite (earlier_inj k z z0 z' Hzz Hz0).
      + intros Hc' Hin. apply (H2 Hc'). destruct (HZ2 b Hin) as (z' & Hz' & Hbz). by rewrite (earlier_fun NS W k _ _ _ Hb Hbz).
  Qed.
End shift.

(** ** orientation *)
Section orient.
  Context (NS : list (list node)) (W : window NS) (o : order) (Ho : iter_ok o) (ci : citest) (m : mgraph) (A : ancestral m) (N : mnodes m = win_nodes NS).
  Context (Sm : ∀ k, stationary NS (λ a b, has_mark m a k b)) (Fm : ∀ a b, past_of NS a b → mg_adj m a b → has_mark m a Directed b) (Hci : perfect_for m ci).
  Notation V := (win_nodes NS).
  Notation fixmap := (gmap (nat * nat) (option mark)).
  Notation CA := (λ a b, a ∈ V ∧ b ∈ V ∧ a ≠ b).
  Notation ts_inv := (ts_inv NS ci CA).

  Lemma m_stationary : stationary NS (mg_adj m).
  Proof using Sm. intros a b c d Hs. split; intros [k Hk]; exists k; by apply (Sm k _ _ _ _ Hs). Qed.

  Lemma ts_removed s a b : ts_inv s → a ∈ V → b ∈ V → a ≠ b → ¬ mg_adj (ls_graph s) a b →
    ∃ Z, sep_fun (ls_sep s) a b = Some Z ∧ a ∉ Z ∧ b ∉ Z ∧ m_separated m a b Z.
  Proof using A N Fm W Sm Hci.
    intros I Ha Hb Hne Hn. destruct (ti_rem _ _ _ _ I a b) as (i & j & c & k & c' & Hin & Hk & Hc & Hsep); [done|done|].
    destruct (ti_log _ _ _ _ I _ _ _ _ Hin) as (Hi & Hj & Hij & Hnd & Hz).
    exists (list_to_set c'). split; [unfold sep_fun, sep_get; by rewrite Hsep|].
    assert (ci_true : m_separated m i j (list_to_set c)).
    { pose proof Hin as Hin'. apply elem_of_list_split in Hin' as (l1 & l2 & El). apply (ti_honest _ _ _ _ I) in El.
      apply (Hci l2); [by rewrite N..|done|done| |done]. rewrite N. exact Hz. }
    assert (∀ z', z' ∈ c' → ∃ z, z ∈ c ∧ earlier NS k z z') as C1.
    { intros z' [n Hz']%elem_of_list_lookup. destruct (Forall2_lookup_r _ _ _ _ _ Hc Hz') as (z & Hz0 & He). exists z. split; [by eapply elem_of_list_lookup_2|done]. }
    assert (∀ z, z ∈ c → ∃ z', z' ∈ c' ∧ earlier NS k z z') as C2.
    { intros z [n Hz']%elem_of_list_lookup. destruct (Forall2_lookup_l _ _ _ _ _ Hc Hz') as (z' & Hz0 & He). exists z'. split; [by eapply elem_of_list_lookup_2|done]. }
    assert (∀ a b, earlier NS k i a → earlier NS k j b → a ∉ (list_to_set c' : nset) ∧ b ∉ (list_to_set c' : nset) ∧ m_separated m a b (list_to_set c')) as H.
    { intros a' b' Ha' Hb'. split; [|split].
      - intros Hin'. apply elem_of_list_to_set, C1 in Hin' as (z & Hz1 & Hz2). rewrite (earlier_inj NS W k _ _ _ Ha' Hz2) in Hz. by apply Hz in Hz1 as (_ & ? & _).
      - intros Hin'. apply elem_of_list_to_set, C1 in Hin' as (z & Hz1 & Hz2). rewrite (earlier_inj NS W k _ _ _ Hb' Hz2) in Hz. by apply Hz in Hz1 as (_ & _ & ?).
      - apply (msep_shift NS W m A N Sm Fm k i j a' b' (list_to_set c)); [done|done| | |done].
        + intros z' Hz'. apply elem_of_list_to_set, C1 in Hz' as (z & ? & ?). exists z. by rewrite elem_of_list_to_set.
        + intros z Hz'. apply elem_of_list_to_set, C2 in Hz' as (z' & ? & ?). exists z'. by rewrite elem_of_list_to_set. }
    destruct Hk as [[H1 H2]|[H1 H2]]; [by apply H|]. destruct (H b a H1 H2) as (? & ? & ?). split_and!; [done|done|]. apply m_separated_sym; [apply A|done].
  Qed.
  Lemma ts_keeps s a b : ts_inv s → mg_adj m a b → mg_adj (ls_graph s) a b.
  Proof using A N Fm W Sm Hci.
    intros I Hab. pose proof (mg_adj_nodes _ _ _ (an_wf _ A) Hab) as (Ha & Hb & Hne). rewrite N in Ha, Hb.
    destruct (decide (mg_adj (ls_graph s) a b)) as [?|Hn]; [done|]. destruct (ts_removed s a b I Ha Hb Hne Hn) as (Z & _ & _ & _ & HZ).
    by apply adj_not_msep in HZ.
  Qed.
  Lemma ts_separating s : ts_inv s → (∀ a b, mg_adj (ls_graph s) a b → mg_adj m a b) → separating m (sep_fun (ls_sep s)).
  Proof using A N Fm W Sm Hci.
    intros I H x y Hx Hy Hne Hn. rewrite N in Hx, Hy. apply ts_removed; [done..|]. intros ?. by apply Hn, H.
  Qed.

  Lemma fill_compat S g : mg_wf g → compat m g S → returns (fill_homology NS o g) (λ h, mg_wf h ∧ compat m h S).
  Proof using A N W Sm Ho.
    intros Wg C. eapply returns_mono; [apply (fill_ok NS W o Ho g); [done|by rewrite <-(cp_nodes _ _ _ C)|]|].
    { intros a b c d Hs. rewrite <-!(cp_adj _ _ _ C). by apply m_stationary. }
    cbn beta. intros h ((Nh & Wh & Ah) & _ & M1 & M2).
    assert (∀ a k b, k ≠ Circle → has_mark h a k b → has_mark m a k b) as Hm.
    { intros a k b Hk Hab. destruct (M1 _ _ _ Hab) as (a' & b' & Hs & Hg). apply (Sm k _ _ _ _ Hs). by apply (cp_marks _ _ _ C). }
    split; [done|]. split.
    - done.
    - rewrite Nh. apply C.
    - intros a b. rewrite Ah. apply C.
    - done.
    - intros a b c Hne Hn Hc. pose proof (cp_coll _ _ _ C a b c Hne Hn Hc) as Hg. assert (mg_adj h a b) as [k Hk] by (apply Ah; by exists Directed).
      destruct (decide (k = Circle)) as [->|Hkc].
      + destruct (mgw_in _ Wg _ _ _ Hg) as (Va & Vb & _). rewrite <-(cp_nodes _ _ _ C), N in Va, Vb.
        pose proof (M2 _ _ a b Hk (same_lag_refl NS a b Va Vb)) as Hg'. by pose proof (mgw_one _ Wg _ _ _ _ Hg Hg').
      + destruct Hc as [Hc _]. pose proof (Hm _ _ _ Hkc Hk) as Hmk. by rewrite (mgw_one _ (an_wf _ A) _ _ _ _ Hc Hmk).
    - apply C.
  Qed.

  Context (sb : bool) (fuel : nat) (Hf : size V * size V + size V + 2 < fuel) (fx : fixmap) (Hfx : fix_ok fx CA).
  Context (Hfm : ∀ a b k, a ∈ V → b ∈ V → a ≠ b → mg_adj m a b → fx !! (a, b) = Some (Some k) → k ≠ Circle → has_mark m a k b).

  Lemma orient_compat complete sep g : mg_wf g → mnodes g = V → (∀ a b, mg_adj g a b ↔ mg_adj m a b) → separating m (sep_fun sep) →
    returns (ts_orient NS o sb false fuel fx complete sep g) (λ h, mg_wf h ∧ compat m h (sep_fun sep)).
  Proof using A N W Sm Ho Hf Hfx Hfm Hci Fm.
    intros Wg Ng Ag HS. unfold ts_orient.
    eapply returns_bind; [by apply reset_adj|]. cbn beta. intros g1 (N1 & W1 & A1 & _).
    assert (∀ a b, mg_adj m a b → a ∈ V ∧ b ∈ V ∧ a ≠ b) as HV by (intros a b Hab; apply mg_adj_nodes in Hab; [by rewrite <-N|apply A]).
    eapply returns_bind; [apply (set_fixed_ok o Ho fx g1); [done|]|].
    { intros a b H. apply Hfx, HV, Ag, A1, H. }
    cbn beta. intros g2 ((N2 & W2 & A2) & M2).
    assert (reflects m g2) as R2.
    { split; [congruence|intros a b; by rewrite A2, A1, Ag|]. intros a k b Hk Hm. apply M2 in Hm as [Hab Hx]. apply A1, Ag in Hab.
      destruct (HV _ _ Hab) as (? & ? & ?). by apply Hfm. }
    eapply returns_bind; [by apply (v_structures_compat o Ho sep m g2 A W2 R2 HS)|]. cbn beta. intros g3 [W3 C3].
    eapply returns_bind; [by apply fill_compat|]. cbn beta. intros g4 [W4 C4].
    eapply returns_bind; [apply (orient_keeps o fuel sep m g4); [done|done|done|done|rewrite <-(cp_nodes _ _ _ C4), N; lia|intros i Hi; set_unfold; lia]|].
    cbn beta. intros g5 (W5 & C5 & _).
    eapply returns_bind.
    { instantiate (1 := λ h, mg_wf h ∧ compat m h (sep_fun sep)). destruct complete; [|done]. apply (rest_compat o Ho ci m A Hci sep sb fuel g5 W5 C5 HS). rewrite N. lia. }
    cbn beta. intros g6 [W6 C6]. by apply fill_compat.
  Qed.
  Lemma final_compat complete u t : ts_inv u → ls_orient (ts_orient NS o sb false fuel fx complete) u = Ok t →
    (∀ a b, mg_adj (ls_graph u) a b → mg_adj m a b) → compat m (ls_graph t) (sep_fun (ls_sep u)).
  Proof using A N W Sm Ho Hf Hfx Hfm Hci Fm.
    intros I E Hs. assert (returns (ts_orient NS o sb false fuel fx complete (ls_sep u) (ls_graph u)) (λ h, mg_wf h ∧ compat m h (sep_fun (ls_sep u)))) as H.
    { apply orient_compat; [apply I|apply I| |by apply ts_separating]. intros a b. split; [apply Hs|by apply ts_keeps]. }
    unfold ls_orient in E. destruct (ts_orient _ _ _ _ _ _ _ _ _) as [h| |]; [|done..]. cbn [mbind res_bind] in E. injection E as <-. apply H.
  Qed.

  (** ** every iteration ends with such an orientation *)
  Context (P : node → node → Prop) (SP : stationary NS P) (HP : ∀ a b, CA a b → P a b → fx !! (a, b) = Some (Some Directed)) (Hnear : near NS ci).
  Definition ends (t : lstate) : Prop := ∃ complete u, ts_inv u ∧ (∀ a b, mg_adj (ls_graph t) a b ↔ mg_adj (ls_graph u) a b) ∧
    ls_orient (ts_orient NS o sb false fuel fx complete) u = Ok t.
  Lemma orient_ends complete u : ts_inv u → returns (ls_orient (ts_orient NS o sb false fuel fx complete) u) ends.
  Proof using W Ho SP Hfx HP Hf.
    intros I. pose proof (ts_orient_ok NS W o Ho ci CA fx P SP Hfx HP sb false fuel Hf complete u I) as H.
    apply returns_ok in H as (t & E & It & _ & At & _). rewrite E. cbn [returns]. by exists complete, u.
  Qed.
  Lemma iteration_ends precalc s : ic_done s = false → ts_inv (ic_ls s) → (0 < ic_size s → cov NS (ls_log (ic_ls s))) →
    returns (ts_iteration NS o ci true sb false precalc fuel fx s) (λ r, ends (ic_ls r.1)).
  Proof using W Ho SP Hfx HP Hf Hnear.
    intros Hd I Hcov. unfold ts_iteration. rewrite Hd. eapply (returns_bind _ _ (λ r, ends (ic_ls r))); [|cbn beta; intros r Hr; exact Hr].
    destruct (ic_size s) as [|[|r]] eqn:Er.
    - eapply (returns_bind _ _ ends); [|cbn beta; intros t Ht; exact Ht]. unfold ts_step_0.
      eapply returns_bind; [apply (ts_edges_0_ok NS W ci CA); [exact (cross_lag_valid NS W)|exact I]|]. cbn beta. intros s1 (I1 & _).
      eapply returns_bind; [apply (ts_edges_0_ok NS W ci CA); [exact (contemporaneous_valid NS W P SP fuel Hf)|exact I1]|]. cbn beta. intros s2 (I2 & _). by apply orient_ends.
    - eapply (returns_bind _ _ (λ r, ends r.1)); [|cbn beta; intros t Ht; exact Ht]. unfold ts_step_1.
      eapply returns_bind; [apply (ts_edges_1_ok NS W o Ho ci CA Hnear 246 247 _ (ls_log (ic_ls s)) (ic_ls s, true)); [exact (cross_lag_valid NS W)|exact I|apply Hcov; lia|apply asks_none]|].
      cbn beta. cbn [fst]. intros r1 (I1 & L1 & Q1 & E1 & C1).
      eapply returns_bind; [apply (ts_edges_1_ok NS W o Ho ci CA Hnear 266 267 _ (ls_log (ic_ls s))); [exact (contemporaneous_valid NS W P SP fuel Hf)|exact I1|apply (cov_mono NS _ _ E1), Hcov; lia|exact Q1]|].
      cbn beta. intros r2 (I2 & _). eapply returns_bind; [by apply orient_ends|]. cbn beta. intros t Ht. exact Ht.
    - eapply returns_bind.
      + instantiate (1 := λ m, precalc = true → ready NS (S (S r)) m (ls_graph (ic_ls s)) (cross_lag NS) ∧ ready NS (S (S r)) m (ls_graph (ic_ls s)) (contemporaneous NS)).
        destruct precalc; [|done]. eapply returns_mono; [apply (ts_pre_calc_ok NS W o Ho P SP fuel Hf); [apply I|apply I|lia]|]. cbn beta. intros c Hc _. exact Hc.
      + cbn beta. intros c Hc. eapply (returns_bind _ _ (λ r, ends r.1)); [|cbn beta; intros t Ht; exact Ht]. unfold ts_step.
        eapply returns_bind; [apply (ts_edges_ok NS W o Ho ci CA fuel Hf Hnear precalc (cross_lag NS) (S (S r)) c (ls_log (ic_ls s)) (ic_ls s, true)); [exact (cross_lag_valid NS W)|exact I|apply Hcov; lia|lia|apply asks_none|intros Hp; by apply Hc]|].
        cbn beta. cbn [fst]. intros r1 (I1 & L1 & Q1 & E1).
        eapply returns_bind; [apply (ts_edges_ok NS W o Ho ci CA fuel Hf Hnear precalc (contemporaneous NS) (S (S r)) c (ls_log (ic_ls s)) r1); [exact (contemporaneous_valid NS W P SP fuel Hf)|exact I1|apply (cov_mono NS _ _ E1), Hcov; lia|lia|done|]|].
        { intros Hp i j Hij Hadj. apply (proj2 (Hc Hp) i j Hij). by apply L1. }
        cbn beta. intros r2 (I2 & _). eapply returns_bind; [by apply orient_ends|]. cbn beta. intros t Ht. exact Ht.
  Qed.

  Lemma loop_ends precalc : ∀ n s, ic_done s = false → tsl_inv NS ci CA P s → ic_size s < 2 `max` size V → 2 `max` size V ≤ n + ic_size s →
    returns (ts_loop NS o ci true sb false precalc fuel fx n s) (λ t, ends (ic_ls t)).
  Proof using W Ho SP Hfx HP Hf Hnear.
    intros n. induction n as [|n IH]; intros s Hd I Hr Hn; [lia|]. cbn [ts_loop].
    eapply returns_bind; [exact (returns_and _ _ _ (ts_iteration_inv NS W o Ho ci CA fx P SP Hfx HP sb false fuel Hf Hnear precalc s Hd I)
      (iteration_ends precalc s Hd (tl_inv _ _ _ _ _ I) (tl_cov _ _ _ _ _ I)))|]. cbn beta. intros [t [d k]] [(It & Hle & Hsz & Hr' & Hd0 & Hmore) He]. cbn [fst snd] in *.
    injection Hr' as -> ->. destruct (ic_done t) eqn:Edt; [done|]. apply IH; [done|done|rewrite Hsz; by apply Hmore|lia].
  Qed.
End orient.

Section learn.
  Context (NS : list (list node)) (W : window NS) (o : order) (Ho : iter_ok o) (ci : citest) (m : mgraph) (A : ancestral m) (N : mnodes m = win_nodes NS).
  Context (Sm : ∀ k, stationary NS (λ a b, has_mark m a k b)) (Fm : ∀ a b, past_of NS a b → mg_adj m a b → has_mark m a Directed b) (Hci : perfect_for m ci).
  Notation V := (win_nodes NS).

  Lemma ts_sound sb precalc fuel : size V * size V + size V + 2 < fuel → near NS ci →
    returns (r ← ts_init NS o None; ts_learn NS o ci true sb false precalc fuel r.2 r.1) (λ t,
      (∀ a b, mg_adj m a b → mg_adj (ls_graph (ic_ls t)) a b) ∧
      ((∀ a b, mg_adj (ls_graph (ic_ls t)) a b → mg_adj m a b) → sound_for m (ls_graph (ic_ls t)))).
  Proof using W Ho A N Sm Fm Hci.
    intros Hf Hn. eapply returns_bind; [by apply (ts_init_ok NS W o Ho None)|]. cbn beta.
    intros [s fx] (N0 & Wg & Hi & Es & El & _ & _ & Hfx). cbn [fst snd] in *.
    set (CA := λ a b, a ∈ V ∧ b ∈ V ∧ a ≠ b).
    assert (∀ a b, mg_adj (ls_graph (ic_ls s)) a b ↔ CA a b) as Hadj by by apply complete_adj.
    assert (fix_ok fx CA) as Hok. { intros a b [k Hk]%Hadj. exists k. by apply Hfx. }
    assert (∀ a b, CA a b → past_of NS a b → fx !! (a, b) = Some (Some Directed)) as HP.
    { intros a b (H1 & H2 & H3) Hp. apply Hfx. apply Hi. tauto. }
    assert (∀ a b k, a ∈ V → b ∈ V → a ≠ b → mg_adj m a b → fx !! (a, b) = Some (Some k) → k ≠ Circle → has_mark m a k b) as Hfm.
    { intros a b k Ha Hb Hne Hab Hk Hc. assert (mg_adj (ls_graph (ic_ls s)) a b) as [j Hj] by by apply Hadj.
      pose proof (Hfx _ _ _ Hj) as Hj'. rewrite Hk in Hj'. injection Hj' as <-. apply Hi in Hj as (_ & _ & _ & Hj). destruct k; [done| |]; naive_solver. }
    assert (stationary NS (mg_adj (ls_graph (ic_ls s)))) as St by (intros a b c d Hs; rewrite !Hadj; by apply complete_stationary).
    pose proof (start_inv NS o Ho ci s N0 Wg St Es El) as I0.
    pose proof (start_tsl NS ci (past_of NS) s I0 El) as T0.
    assert (tsl_inv NS ci CA (past_of NS) (IcdState (ic_ls s) (ic_cond s) false 0)) as T1.
    { destruct T0 as [[] ? ? ? ?]. split; try done. split; try done; [intros a b H; by apply Hadj, ti_sub|intros a b H; by apply ti_rem, Hadj]. }
    unfold ts_learn. assert (size V ≤ size V * size V) by (destruct (size V); lia).
    eapply returns_mono; [exact (returns_and _ _ _ (ts_loop_ok NS W o Ho ci CA fx (past_of NS) (past_stationary NS W) Hok HP sb false fuel Hf Hn precalc fuel (IcdState (ic_ls s) (ic_cond s) false 0) eq_refl T1 ltac:(cbn; lia) ltac:(cbn; lia))
      (loop_ends NS W o Ho ci sb fuel Hf fx Hok (past_of NS) (past_stationary NS W) HP Hn precalc fuel (IcdState (ic_ls s) (ic_cond s) false 0) eq_refl T1 ltac:(cbn; lia) ltac:(cbn; lia)))|]. cbn beta.
    intros t [(It & _) (complete & u & Iu & Au & Eu)].
    split; [intros a b Hab; by apply (ts_keeps NS W ci m A N Sm Fm Hci _ a b (tl_inv _ _ _ _ _ It))|].
    intros Hs. assert (compat m (ls_graph (ic_ls t)) (sep_fun (ls_sep u))) as C.
    { apply (final_compat NS W o Ho ci m A N Sm Fm Hci sb fuel Hf fx Hok Hfm complete u); [done|done|]. intros a b Hab. by apply Hs, Au. }
    split; [split; apply C|]. intros a b c Hab Hbc Hne Hn'. rewrite <-(cp_adj _ _ _ C) in Hn'. split.
    - intros [H1 H2]. split; by apply (cp_marks _ _ _ C).
    - intros Hcol. split; [by eapply (cp_coll _ _ _ C a b c)|]. destruct Hcol. eapply (cp_coll _ _ _ C c b a); [by apply not_eq_sym| |by split].
      intros ?. apply Hn'. apply mg_adj_sym; [apply A|done].
  Qed.
End learn.
