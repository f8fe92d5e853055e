(** Performance measures: ratios and edge marks. *)
From Coq Require Import QArith Qfield Lqa.
From Verif Require Import Base BaseLemmas ModelGraph Spec ModelMixed SpecMixed SpecCount ModelPerf SpecPerf
  ProofGraph ProofGraph2 ProofGraph3 ProofPDAG ProofMixed ProofMixed2 ProofPC ProofCount ProofPerf ProofPerf2.
Local Open Scope nat_scope.

Lemma qn_zero n : (qn n == 0)%Q ↔ n = 0.
Proof. unfold qn, Qeq. simpl. lia. Qed.
Lemma qn_z n : n = 0 → (qn n == 0)%Q.
Proof. by intros ->. Qed.
Lemma qn_plus a b : (qn (a + b) == qn a + qn b)%Q.
Proof. unfold qn. by rewrite Nat2Z.inj_add, inject_Z_plus. Qed.
Lemma qn_nonneg n : (0 <= qn n)%Q.
Proof. unfold qn, Qle. simpl. lia. Qed.
Lemma qn_pos n : 0 < n → (0 < qn n)%Q.
Proof. unfold qn, Qlt. simpl. lia. Qed.
Lemma qdiv_ok a b : ¬ (b == 0)%Q → qdiv a b = Ok (a / b)%Q.
Proof. intros H. unfold qdiv. destruct (Qeq_bool b 0) eqn:E; [|done]. by apply Qeq_bool_iff in E. Qed.
Lemma qdiv_zero a b : (b == 0)%Q → qdiv a b = Raise ZeroDivisionError.
Proof. intros H. unfold qdiv. destruct (Qeq_bool b 0) eqn:E; [done|]. apply Qeq_bool_iff in H. congruence. Qed.
Lemma qdiv_unit a b : (0 <= a)%Q → (a <= b)%Q → ¬ (b == 0)%Q → unit_interval (a / b)%Q.
Proof.
  intros H1 H2 H3. assert (0 < b)%Q as Hb by lra. split.
  - apply Qle_shift_div_l; [done|]. lra.
  - apply Qle_shift_div_r; [done|]. lra.
Qed.

(** the ratios by the counts *)
Lemma ratios_raise s : sk_tp s = 0 ∨ sk_fp s + sk_tn s = 0 → skel_ratios s = Raise ZeroDivisionError.
Proof.
  intros H. unfold skel_ratios. destruct (decide (sk_fp s + sk_tp s = 0)) as [E1|E1]; [rewrite (qdiv_zero _ (qn (sk_fp s + sk_tp s))) by (by apply qn_z); done|].
  rewrite (qdiv_ok _ (qn (sk_fp s + sk_tp s))) by (by rewrite qn_zero). cbn [mbind res_bind]. destruct (decide (sk_edges s = 0)) as [E2|E2]; [rewrite (qdiv_zero _ (qn (sk_edges s))) by (by apply qn_z); done|].
  rewrite (qdiv_ok _ (qn (sk_edges s))) by (by rewrite qn_zero). cbn [mbind res_bind]. destruct (decide (sk_tp s = 0)) as [E3|E3].
  - match goal with |- context [qdiv ?a (?p + ?q)%Q] => rewrite (qdiv_zero a (p + q)%Q) end; [done|]. rewrite E3. assert (qn 0 == 0)%Q as -> by (by apply qn_z). unfold Qdiv. ring.
  - destruct H as [?|H]; [done|]. match goal with |- context [qdiv ?a (?p + ?q)%Q] => destruct (qdiv a (p + q)%Q) as [f1|e|] eqn:E4 end.
    + cbn [mbind res_bind]. rewrite (qdiv_zero _ (qn (sk_fp s + sk_tn s))) by (by apply qn_z). done.
    + unfold qdiv in E4. destruct (Qeq_bool _ _); [|done]. by injection E4 as <-.
    + unfold qdiv in E4. by destruct (Qeq_bool _ _).
Qed.
Lemma ratios_ok s : 0 < sk_tp s → 0 < sk_fp s + sk_tn s → sk_edges s = sk_tp s + sk_fn s →
  returns (skel_ratios s) (λ a,
    (sa_precision a == qn (sk_tp s) / qn (sk_tp s + sk_fp s))%Q ∧ (sa_recall a == qn (sk_tp s) / qn (sk_tp s + sk_fn s))%Q ∧
    (sa_f1 a == qn (2 * sk_tp s) / qn (2 * sk_tp s + sk_fp s + sk_fn s))%Q ∧
    (sa_fpr a == qn (sk_fp s) / qn (sk_fp s + sk_tn s))%Q ∧ (sa_fnr a == qn (sk_fn s) / qn (sk_tp s + sk_fn s))%Q).
Proof.
  intros H1 H2 E. unfold skel_ratios. rewrite E. pose proof (qn_pos _ H1) as P1. pose proof (qn_nonneg (sk_fp s)) as P2. pose proof (qn_nonneg (sk_fn s)) as P3.
  pose proof (qn_pos _ H2) as P4.
  rewrite (qdiv_ok _ (qn (sk_fp s + sk_tp s))) by (rewrite qn_zero; lia). cbn [mbind res_bind].
  rewrite (qdiv_ok _ (qn (sk_tp s + sk_fn s))) by (rewrite qn_zero; lia). cbn [mbind res_bind].
  match goal with |- context [qdiv ?a (?p + ?q)%Q] => rewrite (qdiv_ok a (p + q)%Q) end.
  2: { rewrite !qn_plus. assert (0 < qn (sk_tp s) / (qn (sk_fp s) + qn (sk_tp s)))%Q by (apply Qlt_shift_div_l; lra).
       assert (0 < qn (sk_tp s) / (qn (sk_tp s) + qn (sk_fn s)))%Q by (apply Qlt_shift_div_l; lra). lra. }
  cbn [mbind res_bind]. rewrite (qdiv_ok _ (qn (sk_fp s + sk_tn s))) by (rewrite qn_zero; lia). cbn [mbind res_bind].
  rewrite (qdiv_ok _ (qn (sk_fn s + sk_tp s))) by (rewrite qn_zero; lia). cbn [mbind res_bind returns sa_precision sa_recall sa_f1 sa_fpr sa_fnr].
  split_and!.
  - by rewrite (Nat.add_comm (sk_tp s)).
  - done.
  - replace (2 * sk_tp s) with (sk_tp s + sk_tp s) by lia. rewrite !qn_plus. revert P1 P2 P3. generalize (qn (sk_tp s)), (qn (sk_fp s)), (qn (sk_fn s)). intros x y z P1 P2 P3. field. split_and!; try lra. assert (0 < x * (x + z + (y + x)))%Q by (apply Qmult_lt_0_compat; lra). assert (x * (x + z) + x * (y + x) == x * (x + z + (y + x)))%Q by ring. lra.
  - done.
  - by rewrite (Nat.add_comm (sk_tp s)).
Qed.

Lemma pair_count_pos V P n : pair_count V P n → (∀ a b, P a b → P b a) → 0 < n ↔ ∃ a b, a ∈ V ∧ b ∈ V ∧ a ≠ b ∧ P a b.
Proof.
  intros (S1 & H1 & <-) Hs. split.
  - intros H. apply size_pos_elem_of in H as ([a b] & H). apply H1 in H as (? & ? & ? & ?). exists a, b. split_and!; try done. lia.
  - intros (a & b & Ha & Hb & Hne & HP). assert (∃ p, p ∈ S1) as [p Hp].
    { destruct (decide (a < b)); [exists (a, b)|exists (b, a)]; apply H1; split_and!; try done; try lia. by apply Hs. }
    destruct (decide (size S1 = 0)) as [E|E]; [|lia]. apply size_empty_inv in E. exfalso. apply E in Hp. by apply not_elem_of_empty in Hp.
Qed.

Lemma spec_edges g c s : skel_spec g c s → sk_edges s = sk_tp s + sk_fn s.
Proof.
  intros [A1 A2 A3 A4 A5 _]. eapply pair_count_disj; [exact A1|exact A2|exact A5| |]; cbv beta; [|tauto]. intros a b _ _ Hl. split; [|tauto]. intros H.
  pose proof (a_conn g a b ltac:(lia)) as Hg. destruct (a_is_connected g a b) as [r| |]; [|done..]. apply bool_split in Hg. tauto.
Qed.
Lemma spec_overlap g c s : skel_spec g c s → 0 < sk_tp s ↔ overlap g c.
Proof. intros [A1 _ _ _ _ _]. unfold overlap. rewrite (pair_count_pos _ _ _ A1); [done|]. intros a b [? ?]. by split; apply joined_sym. Qed.
Lemma spec_incomplete g c s : skel_spec g c s → 0 < sk_fp s + sk_tn s ↔ incomplete c.
Proof.
  intros [_ _ A3 A4 _ _]. unfold incomplete. assert (∀ a b, ¬ joined c a b → ¬ joined c b a) as Hs by (intros a b H H'; by apply H, joined_sym).
  assert (∀ a b, ¬ joined g a b → ¬ joined g b a) as Hs' by (intros a b H H'; by apply H, joined_sym).
  pose proof (pair_count_pos _ _ _ A3) as B3. pose proof (pair_count_pos _ _ _ A4) as B4. cbv beta in B3, B4.
  specialize (B3 ltac:(intros a b [? ?]; split; [by apply Hs|by apply joined_sym])). specialize (B4 ltac:(intros a b [? ?]; split; [by apply Hs|by apply Hs'])). split.
  - intros H. destruct (decide (0 < sk_fp s)) as [H'|H'].
    + apply B3 in H' as (a & b & ? & ? & ? & ? & ?). by exists a, b.
    + assert (0 < sk_tn s) as H'' by lia. apply B4 in H'' as (a & b & ? & ? & ? & ? & ?). by exists a, b.
  - intros (a & b & Ha & Hb & Hne & H). pose proof (a_conn g a b Hne) as Hg. destruct (a_is_connected g a b) as [r| |]; [|done..]. apply bool_split in Hg as [[_ Hg]|[_ Hg]].
    + assert (0 < sk_fp s); [|lia]. apply B3. by exists a, b.
    + assert (0 < sk_tn s); [|lia]. apply B4. by exists a, b.
Qed.
Lemma acc_ok o g c : iter_ok o → overlap g c → incomplete c → ∃ s a, skel_counts o g c = Ok s ∧ skel_spec g c s ∧ calc_skeleton_accuracy o g c = Ok a ∧ acc_spec s a.
Proof.
  intros Ho H1 H2. pose proof (skel_ok o g c Ho) as H. apply returns_ok in H as (s & Es & Hs). apply (spec_overlap _ _ _ Hs) in H1. apply (spec_incomplete _ _ _ Hs) in H2.
  pose proof (ratios_ok s H1 H2 (spec_edges _ _ _ Hs)) as H. apply returns_ok in H as (a & Ea & Ha1 & Ha2 & Ha3 & Ha4 & Ha5).
  exists s, a. unfold calc_skeleton_accuracy. rewrite Es. cbn [mbind res_bind]. do 3 (split; [done|]). split; [done..|].
  assert (∀ q x y : Q, (q == x / y)%Q → (0 <= x)%Q → (x <= y)%Q → ¬ (y == 0)%Q → unit_interval q) as Hu.
  { intros q x y E Hx Hy Hz. destruct (qdiv_unit x y Hx Hy Hz). split; by rewrite E. }
  assert (∀ n m, n ≤ m → (qn n <= qn m)%Q) as Hle by (intros n m; unfold qn, Qle; simpl; lia).
  intros q. rewrite !elem_of_cons, elem_of_nil. intros [->|[->|[->|[->|[->|[]]]]]]; (eapply Hu; [eassumption|apply qn_nonneg|apply Hle; lia|rewrite qn_zero; lia]).
Qed.
Lemma acc_raise o g c : iter_ok o → ¬ (overlap g c ∧ incomplete c) → calc_skeleton_accuracy o g c = Raise ZeroDivisionError.
Proof.
  intros Ho Hn. pose proof (skel_ok o g c Ho) as H. apply returns_ok in H as (s & Es & Hs). unfold calc_skeleton_accuracy. rewrite Es. cbn [mbind res_bind].
  apply ratios_raise. rewrite <-(spec_overlap _ _ _ Hs), <-(spec_incomplete _ _ _ Hs) in Hn. lia.
Qed.
Lemma qdiv_one x : ¬ (x == 0)%Q → (x / x == 1)%Q.
Proof. intros H. by field. Qed.
Lemma acc_perfect o g c : iter_ok o → overlap g c → incomplete c →
  returns (calc_skeleton_accuracy o g c) (λ a, perfect a ↔ ∀ a b, a ∈ anodes c → b ∈ anodes c → a ≠ b → joined g a b ↔ joined c a b).
Proof.
  intros Ho H1 H2. destruct (acc_ok o g c Ho H1 H2) as (s & a & Es & Hs & Ea & [A1 A2 A3 A4 A5 _]). rewrite Ea. cbn [returns].
  apply (spec_overlap _ _ _ Hs) in H1. apply (spec_incomplete _ _ _ Hs) in H2.
  assert (∀ a b, joined c a b → joined c b a) as Sc by apply joined_sym. assert (∀ a b, joined g a b → joined g b a) as Sg by apply joined_sym.
  assert (0 < sk_fn s ↔ ∃ x y, x ∈ anodes c ∧ y ∈ anodes c ∧ x ≠ y ∧ joined c x y ∧ ¬ joined g x y) as Hfn.
  { apply pair_count_pos; [apply Hs|]. intros x y [? H']. split; [by apply Sc|]. intros ?. by apply H', Sg. }
  assert (0 < sk_fp s ↔ ∃ x y, x ∈ anodes c ∧ y ∈ anodes c ∧ x ≠ y ∧ ¬ joined c x y ∧ joined g x y) as Hfp.
  { apply pair_count_pos; [apply Hs|]. intros x y [H' ?]. split; [|by apply Sg]. intros ?. by apply H', Sc. }
  split.
  - intros (_ & _ & _ & E4 & E5). rewrite E4 in A4. rewrite E5 in A5.
    assert (∀ x y, 0 < y → (0 == qn x / qn y)%Q → x = 0) as Hz.
    { intros x y Hy E. apply qn_zero. pose proof (qn_pos y Hy) as Hy'. assert (qn x == (qn x / qn y) * qn y)%Q as -> by (field; lra). rewrite <-E. ring. }
    apply Hz in A4; [|done]. apply Hz in A5; [|lia]. intros x y Hx Hy Hne.
    pose proof (a_conn g x y Hne) as Cg. destruct (a_is_connected g x y) as [r| |]; [|done..]. apply bool_split in Cg.
    pose proof (a_conn c x y Hne) as Cc. destruct (a_is_connected c x y) as [r'| |]; [|done..]. apply bool_split in Cc.
    destruct Cg as [[_ Cg]|[_ Cg]], Cc as [[_ Cc]|[_ Cc]]; [tauto| | |tauto].
    + assert (0 < sk_fp s); [|lia]. apply Hfp. by exists x, y.
    + assert (0 < sk_fn s); [|lia]. apply Hfn. by exists x, y.
  - intros H. assert (sk_fp s = 0) as E1.
    { destruct (decide (sk_fp s = 0)) as [|Hne]; [done|]. assert (0 < sk_fp s) as H' by lia. apply Hfp in H' as (x & y & Hx & Hy & Hne' & Hc & Hg). by rewrite H in Hg. }
    assert (sk_fn s = 0) as E2.
    { destruct (decide (sk_fn s = 0)) as [|Hne]; [done|]. assert (0 < sk_fn s) as H' by lia. apply Hfn in H' as (x & y & Hx & Hy & Hne' & Hc & Hg). by rewrite H in Hg. }
    rewrite E1, E2 in *. rewrite !Nat.add_0_r in *. pose proof (qn_pos _ H1).
    split_and!; [rewrite A1|rewrite A2|rewrite A3|rewrite A4|rewrite A5]; try (apply qdiv_one; rewrite qn_zero; lia); unfold Qdiv, qn; simpl; ring.
Qed.

(** ** Edge marks *)
Definition ends (l : list (node * node)) : list (node * node) := mjoin ((λ p, [p; (p.2, p.1)]) <$> l).
Lemma elem_ends l a b : (a, b) ∈ ends l ↔ (a, b) ∈ l ∨ (b, a) ∈ l.
Proof.
  unfold ends. rewrite elem_of_list_join. split.
  - intros (q & H & Hq). apply elem_of_list_fmap in Hq as ([x y] & -> & Hq). rewrite !elem_of_cons, elem_of_nil in H. cbn in H. destruct H as [H|[H|[]]]; simplify_eq; auto.
  - intros [H|H]; [exists [(a, b); (b, a)]|exists [(b, a); (a, b)]]; (split; [set_solver +|]); apply elem_of_list_fmap; [by exists (a, b)|by exists (b, a)].
Qed.
Lemma nodup_ends (l : list node) : NoDup l → NoDup (ends (comb2 l)).
Proof.
  intros Hnd. pose proof (pairs_nodup l Hnd) as Hp. assert (∀ q, (∀ a b, (a, b) ∈ q → a ≠ b) → NoDup (norm <$> q) → NoDup (ends q)) as H; [|apply H; [intros a b; by apply comb2_ne|done]].
  clear. induction q as [|[a b] q IH]; intros Hne Hnd; [constructor|]. rewrite fmap_cons, NoDup_cons in Hnd. destruct Hnd as [Hab Hnd]. rewrite norm_elem in Hab.
  assert (a ≠ b) as Hn by (apply Hne; left). change (ends ((a, b) :: q)) with ((a, b) :: (b, a) :: ends q). rewrite !NoDup_cons, elem_of_cons, !elem_ends. split_and!; [| |].
  - intros [[= ? ?]|[?|?]]; [done|tauto..].
  - tauto.
  - apply IH; [intros x y H; apply Hne; by right|done].
Qed.
Lemma count_ends {St} (V : nset) (l : list node) (step : node * node → St → res St) (π : St → nat) (P : node → node → Prop) (s0 : St) :
  NoDup l → list_to_set l = V → π s0 = 0 →
  (∀ a b s, a ∈ V → b ∈ V → a ≠ b → returns (step (a, b) s) (λ s', ∃ x y, π s' = π s + x + y ∧ (P a b ∧ x = 1 ∨ ¬ P a b ∧ x = 0) ∧ (P b a ∧ y = 1 ∨ ¬ P b a ∧ y = 0))) →
  returns (for_ (comb2 l) step s0) (λ s, end_count V P (π s)).
Proof.
  intros Hnd HV H0 Hstep. eapply returns_mono; [apply (for_returns_pre (comb2 l) step s0 (λ pre s,
    ∃ q, q `sublist_of` ends pre ∧ (∀ a b, (a, b) ∈ q ↔ (a, b) ∈ ends pre ∧ P a b) ∧ length q = π s))|].
  - exists []. split; [done|]. split; [set_solver +|]. by rewrite H0.
  - intros pre [a b] post s E (q & Hq1 & Hq2 & Hq3).
    assert ((a, b) ∈ comb2 l) as Hab by (rewrite E; set_solver +). pose proof (comb2_elem _ _ _ Hab) as [Ha Hb]. pose proof (comb2_ne _ _ _ Hnd Hab) as Hne.
    eapply returns_mono; [apply Hstep; [subst V; by rewrite elem_of_list_to_set..|done]|]. intros s' (x & y & Es & Hx & Hy).
    assert (ends (pre ++ [(a, b)]) = ends pre ++ [(a, b); (b, a)]) as Ee by (clear; induction pre as [|p pre IH]; [done|]; change (p :: (p.2, p.1) :: ends (pre ++ [(a, b)]) = p :: (p.2, p.1) :: ends pre ++ [(a, b); (b, a)]); by rewrite IH).
    assert (∃ r, r `sublist_of` [(a, b); (b, a)] ∧ (∀ u v, (u, v) ∈ r ↔ (u, v) ∈ [(a, b); (b, a)] ∧ P u v) ∧ length r = x + y) as (r & Hr1 & Hr2 & Hr3).
    { destruct Hx as [[Hx ->]|[Hx ->]], Hy as [[Hy ->]|[Hy ->]].
      - exists [(a, b); (b, a)]. split; [done|]. split; [|done]. intros u v. split; [|tauto]. intros H. split; [done|]. rewrite !elem_of_cons, elem_of_nil in H. destruct H as [H|[H|[]]]; by simplify_eq.
      - exists [(a, b)]. split; [by apply sublist_skip, sublist_nil_l|]. split; [|done]. intros u v. rewrite !elem_of_cons, !elem_of_nil. split; [intros [H|[]]; simplify_eq; tauto|].
        intros [[H|[H|[]]] ?]; simplify_eq; tauto.
      - exists [(b, a)]. split; [by apply sublist_cons|]. split; [|done]. intros u v. rewrite !elem_of_cons, !elem_of_nil. split; [intros [H|[]]; simplify_eq; tauto|].
        intros [[H|[H|[]]] ?]; simplify_eq; tauto.
      - exists []. split; [apply sublist_nil_l|]. split; [|done]. intros u v. rewrite !elem_of_cons, !elem_of_nil. split; [tauto|]. intros [[H|[H|[]]] ?]; simplify_eq; tauto. }
    exists (q ++ r). rewrite Ee. split; [by apply sublist_app|]. split; [|rewrite app_length; lia].
    intros u v. rewrite !elem_of_app, Hq2, Hr2. tauto.
  - intros s (q & Hq1 & Hq2 & Hq3). exists (list_to_set q). split.
    + intros a b. rewrite elem_of_list_to_set, Hq2, elem_ends. subst V. rewrite !elem_of_list_to_set. split.
      * intros [[H|H] HP]; pose proof (comb2_elem _ _ _ H) as [? ?]; pose proof (comb2_ne _ _ _ Hnd H); split_and!; auto.
      * intros (Ha & Hb & Hne & HP). split; [|done]. by apply comb2_total.
    + rewrite size_list_nodup; [done|]. eapply sublist_nodup; [exact Hq1|]. by apply nodup_ends.
Qed.
Lemma orient_ok o g c : iter_ok o → mg_wf c → returns (orient_counts o g c) (λ r,
  end_count (mnodes c) (mark_agrees g c) r.1 ∧ end_count (mnodes c) (mg_adj c) r.2).
Proof.
  intros Ho Hc. apply returns_and.
  - apply (count_ends (mnodes c) _ _ fst); [by apply iter_nodup|by apply iter_set|done|]. intros a b [n t] Ha Hb Hne.
    assert (∀ x y, ∃ u, (mark_agrees g c x y ∧ u = 1 ∨ ¬ mark_agrees g c x y ∧ u = 0) ∧
      Nat.b2n (bool_decide (x ∈ mset c y Circle) && bool_decide (x ∈ mset g y Circle)) + Nat.b2n (bool_decide (x ∈ mset c y Directed) && bool_decide (x ∈ mset g y Directed)) +
      Nat.b2n (bool_decide (x ∈ mset c y Tail) && bool_decide (x ∈ mset g y Tail)) = u) as Hu.
    { intros x y. eexists. split; [|reflexivity]. assert (∀ k j, x ∈ mset c y k → x ∈ mset c y j → k = j) as H1 by (intros k j ? ?; by eapply (mgw_one _ Hc x k j y)).
      destruct (decide (Exists (λ k, x ∈ mset g y k ∧ x ∈ mset c y k) PAG_T)) as [Hk|Hk]; rewrite Exists_exists in Hk.
      - left. destruct Hk as (k & _ & Hg & Hk). split; [by exists k|].
        assert (∀ j, j ≠ k → bool_decide (x ∈ mset c y j) = false) as H2 by (intros j Hj; apply bool_decide_eq_false; intros H; by apply Hj, H1).
        assert (bool_decide (x ∈ mset c y k) = true ∧ bool_decide (x ∈ mset g y k) = true) as [H3 H4] by (by rewrite !bool_decide_eq_true).
        destruct k; rewrite H3, H4, !H2 by done; done.
      - right. split; [intros (k & ? & ?); apply Hk; exists k; split; [destruct k; unfold PAG_T; set_solver +|done]|].
        assert (∀ k, bool_decide (x ∈ mset c y k) && bool_decide (x ∈ mset g y k) = false) as H2; [|by rewrite !H2].
        intros k. apply andb_false_iff. rewrite !bool_decide_eq_false. destruct (decide (x ∈ mset c y k)); [right|by left]. intros ?. apply Hk. exists k. split; [destruct k; unfold PAG_T; set_solver +|done]. }
    eapply returns_bind; [by apply m_is_connected_pag|]. intros bb Hbb. cbn [returns]. destruct (Hu a b) as (x & Hx & Ex). destruct (Hu b a) as (y & Hy & Ey).
    destruct bb.
    + exists x, y. split; [|done]. cbn [fst foldl PAG_T]. assert (∀ (q : bool) m, (if q then S m else m) = m + Nat.b2n q) as Hq by (intros [] m; simpl; lia). rewrite !Hq. lia.
    + exists x, y. split; [|done]. cbn [fst]. assert (¬ mg_adj c a b) as Hna by (intros H; by apply Hbb in H). assert (¬ mg_adj c b a) as Hnb by (intros H; by apply Hna, mg_adj_sym).
      destruct Hx as [[(k & _ & Hx) _]|[_ ->]]; [exfalso; apply Hna; by exists k|]. destruct Hy as [[(k & _ & Hy) _]|[_ ->]]; [exfalso; apply Hnb; by exists k|]. lia.
  - apply (count_ends (mnodes c) _ _ snd); [by apply iter_nodup|by apply iter_set|done|]. intros a b [n t] Ha Hb Hne.
    eapply returns_bind; [by apply m_is_connected_pag|]. intros bb Hbb. cbn [returns]. apply bool_split in Hbb. destruct Hbb as [[-> Hbb]|[-> Hbb]].
    + exists 1, 1. cbn [snd]. split; [lia|]. split; left; (split; [|done]); [done|by apply mg_adj_sym].
    + exists 0, 0. cbn [snd]. split; [lia|]. split; right; (split; [|done]); [done|]. intros H. by apply Hbb, mg_adj_sym.
Qed.
Lemma end_count_le V (P R : node → node → Prop) n m : end_count V P n → end_count V R m → (∀ a b, P a b → R a b) → n ≤ m ∧ (n = m ↔ ∀ a b, a ∈ V → b ∈ V → a ≠ b → R a b → P a b).
Proof.
  intros (S1 & H1 & <-) (S2 & H2 & <-) H. assert (S1 ⊆ S2) as Hs by (intros [a b]; rewrite H1, H2; intros (? & ? & ? & ?); split_and!; auto).
  split; [by apply subseteq_size|]. split.
  - intros E a b Ha Hb Hne HR. assert ((a, b) ∈ S2) as Hin by (by apply H2). destruct (decide ((a, b) ∈ S1)) as [Hi|Hi]; [by apply H1 in Hi as (_ & _ & _ & ?)|]. assert (size S1 < size S2); [|lia]. apply subset_size. split; [done|]. intros Hx. by apply Hi, Hx.
  - intros HR. assert (S1 = S2) as ->; [|done]. apply set_eq. intros [a b]. rewrite H1, H2. split; intros (? & ? & ? & ?); split_and!; auto.
Qed.
Lemma structural_ok o g c : iter_ok o → mg_wf c → overlap (APag g) (APag c) → incomplete (APag c) →
  ∃ n t a q, calc_structural_accuracy_pag o g c = Ok (a, q) ∧ end_count (mnodes c) (mark_agrees g c) n ∧ end_count (mnodes c) (mg_adj c) t ∧
    (q == qn n / qn t)%Q ∧ unit_interval q ∧ calc_skeleton_accuracy o (APag g) (APag c) = Ok a ∧
    ((q == 1)%Q ↔ ∀ x k y, has_mark c x k y → has_mark g x k y).
Proof.
  intros Ho Hc H1 H2. destruct (acc_ok o _ _ Ho H1 H2) as (s & a & _ & _ & Ea & _). pose proof (orient_ok o g c Ho Hc) as H. apply returns_ok in H as ([n t] & En & Hn & Ht). cbn [fst snd] in *.
  assert (0 < t) as Hpos.
  { destruct H1 as (x & y & Hx & Hy & Hne & Hj & _). destruct Ht as (S1 & HS & <-). assert ((x, y) ∈ S1) as Hin.
    { apply HS. split_and!; [done..|]. destruct Hj as [k [Hj|Hj]]; [by exists k|apply mg_adj_sym; [done|by exists k]]. }
    destruct (decide (size S1 = 0)) as [E|E]; [|lia]. apply size_empty_inv in E. apply E in Hin. by apply not_elem_of_empty in Hin. }
  exists n, t, a, (qn n / qn t)%Q. unfold calc_structural_accuracy_pag. rewrite En. cbn [mbind res_bind]. rewrite Ea. cbn [mbind res_bind fst snd].
  rewrite qdiv_ok by (rewrite qn_zero; lia). split; [done|]. do 3 (split; [done|]).
  destruct (end_count_le _ _ _ _ _ Hn Ht) as [Hle Heq]; [intros x y (k & _ & Hk); by exists k|].
  split; [apply qdiv_unit; [apply qn_nonneg|unfold qn, Qle; simpl; lia|rewrite qn_zero; lia]|]. split; [done|].
  assert ((qn n / qn t == 1)%Q ↔ n = t) as ->.
  { pose proof (qn_pos _ Hpos). split.
    - intros E. assert (qn n == (qn n / qn t) * qn t)%Q as E2 by (field; lra). rewrite E in E2. unfold qn, Qeq in E2. simpl in E2. lia.
    - intros ->. apply qdiv_one. lra. }
  rewrite Heq. split.
  - intros Hm x k y Hk. destruct (mgw_in _ Hc _ _ _ Hk) as (Hx & Hy & Hne). destruct (Hm x y Hx Hy Hne) as (j & Hg & Hj); [by exists k|]. by rewrite (mgw_one _ Hc _ _ _ _ Hk Hj).
  - intros Hm x y _ _ _ [k Hk]. exists k. split; [by apply Hm|done].
Qed.
