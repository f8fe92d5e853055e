(** Performance measures: distance axioms, ratios. *)
From Coq Require Import QArith Lqa.
From Verif Require Import Base BaseLemmas ModelGraph Spec ModelMixed SpecMixed SpecCount ModelPerf SpecPerf
  ProofGraph ProofGraph2 ProofGraph3 ProofPDAG ProofMixed ProofMixed2 ProofPC ProofCount ProofPerf.
Local Open Scope nat_scope.

Lemma differ_sym g h a b : differ g h a b ↔ differ h g a b.
Proof. unfold differ. tauto. Qed.
Lemma differ_dec g h a b : Decision (differ g h a b).
Proof. unfold differ, uline, darrow, has_mark. apply _. Defined.
Lemma shd_swap o1 o2 g h : iter_ok o1 → iter_ok o2 → pd_wf g → pd_wf h → one_way g → one_way h → mnodes g = mnodes h →
  ∃ s s', shd_cpdag o1 g h = Ok s ∧ shd_cpdag o2 h g = Ok s' ∧ s' = Shd (sh_extra s) (sh_missing s) (ah_extra s) (ah_missing s) (ah_reversed s).
Proof.
  intros Ho1 Ho2 Hg Hh Hg1 Hh1 Hn. pose proof (shd_ok o1 g h Ho1 Hg Hh Hg1 Hh1) as H1. pose proof (shd_ok o2 h g Ho2 Hh Hg Hh1 Hg1) as H2.
  apply returns_ok in H1 as (s & E1 & H1). apply returns_ok in H2 as (s' & E2 & H2). exists s, s'. split; [done|]. split; [done|].
  destruct H1 as [A1 A2 A3 A4 A5 A6], H2 as [B1 B2 B3 B4 B5 B6]. rewrite Hn in *. destruct s' as [m e am ae r]. cbn [sh_missing sh_extra ah_missing ah_extra ah_reversed] in *.
  f_equal.
  - by eapply pair_count_fun.
  - by eapply pair_count_fun.
  - eapply pair_count_fun; [done|]. eapply pair_count_ext; [|exact A4]. intros a b _ _ _. simpl. tauto.
  - eapply pair_count_fun; [done|]. eapply pair_count_ext; [|exact A3]. intros a b _ _ _. simpl. tauto.
  - eapply pair_count_fun; [done|]. eapply pair_count_ext; [|exact A5]. intros a b _ _ _. simpl. tauto.
Qed.
Lemma shd_zero o g h : iter_ok o → pd_wf g → pd_wf h → one_way g → one_way h → mnodes g = mnodes h →
  returns (shd_cpdag o g h) (λ s, shd_total s = 0 ↔ pd_same g h).
Proof.
  intros Ho Hg Hh Hg1 Hh1 Hn. eapply returns_mono; [by apply shd_ok|]. intros s [_ _ _ _ _ Hs]. split.
  - intros H0. split; [done|]. assert (∀ a b, a ∈ mnodes h → b ∈ mnodes h → a ≠ b → ¬ differ g h a b) as H.
    { intros a b Ha Hb Hne. destruct (decide (a < b)) as [Hl|Hl]; [by eapply pair_count_zero|].
      intros Hd. eapply pair_count_zero; [exact Hs|exact H0|exact Hb|exact Ha|lia|]. revert Hd.
      pose proof (pdw_sym _ Hg a b). pose proof (pdw_sym _ Hh a b). pose proof (pdw_sym _ Hg b a). pose proof (pdw_sym _ Hh b a). unfold differ. tauto. }
    assert (∀ a b, uline g a b ∨ uline h a b ∨ darrow g a b ∨ darrow h a b → ¬ differ g h a b) as H'.
    { intros a b Hx. assert (a ∈ mnodes h ∧ b ∈ mnodes h ∧ a ≠ b) as (? & ? & ?); [|by apply H].
      destruct Hx as [Hx|[Hx|[Hx|Hx]]]; [apply (pdw_und _ Hg) in Hx|apply (pdw_und _ Hh) in Hx|apply (pdw_dir _ Hg) in Hx|apply (pdw_dir _ Hh) in Hx]; rewrite ?Hn in Hx; done. }
    assert (∀ a b, (uline g a b → uline h a b) ∧ (uline h a b → uline g a b) ∧ (darrow g a b → darrow h a b) ∧ (darrow h a b → darrow g a b)) as Hq.
    { intros a b. assert (∀ X : Prop, Decision X → ¬ ¬ X → X) as Hdn by (intros X [?|?]; tauto).
      split_and!; intros Hx; (apply Hdn; [apply _ || (unfold uline, darrow, has_mark; apply _)|]); specialize (H' a b); unfold differ in H'; tauto. }
    intros a b. specialize (Hq a b). tauto.
  - intros [_ H]. eapply pair_count_none; [exact Hs|]. intros a b _ _ _ Hd. apply Hd. pose proof (H a b). pose proof (H b a). tauto.
Qed.
Lemma shd_triangle o1 o2 o3 g h k : iter_ok o1 → iter_ok o2 → iter_ok o3 → pd_wf g → pd_wf h → pd_wf k → one_way g → one_way h → one_way k →
  mnodes g = mnodes h → mnodes h = mnodes k →
  ∃ s1 s2 s3, shd_cpdag o1 g h = Ok s1 ∧ shd_cpdag o2 h k = Ok s2 ∧ shd_cpdag o3 g k = Ok s3 ∧ shd_total s3 ≤ shd_total s1 + shd_total s2.
Proof.
  intros Ho1 Ho2 Ho3 Hg Hh Hk Hg1 Hh1 Hk1 Hn1 Hn2. pose proof (shd_ok o1 g h Ho1 Hg Hh Hg1 Hh1) as H1. pose proof (shd_ok o2 h k Ho2 Hh Hk Hh1 Hk1) as H2.
  pose proof (shd_ok o3 g k Ho3 Hg Hk Hg1 Hk1) as H3.
  apply returns_ok in H1 as (s1 & E1 & H1). apply returns_ok in H2 as (s2 & E2 & H2). apply returns_ok in H3 as (s3 & E3 & H3). exists s1, s2, s3. do 3 (split; [done|]).
  destruct H1 as [_ _ _ _ _ A], H2 as [_ _ _ _ _ B], H3 as [_ _ _ _ _ C]. rewrite Hn2 in *. eapply pair_count_or; [exact A|exact B|exact C|].
  intros a b _ _ _ Hd. destruct (differ_dec g h a b) as [?|Hgh]; [by left|]. destruct (differ_dec h k a b) as [?|Hhk]; [by right|]. exfalso. revert Hd Hgh Hhk.
  unfold differ. intros Hd.
  assert (∀ X : Prop, Decision X → ¬ ¬ X → X) as Hdn by (intros X [?|?]; tauto). intros Hgh%Hdn; [|unfold uline, darrow, has_mark; apply _].
  intros Hhk%Hdn; [|unfold uline, darrow, has_mark; apply _]. apply Hd. tauto.
Qed.

(** ** Skeletons *)
Lemma joined_sym g a b : joined g a b → joined g b a.
Proof.
  destruct g as [g|g|g]; cbn.
  - intros [?|?]; [by right|by left].
  - unfold pd_adj. tauto.
  - intros [k [?|?]]; exists k; tauto.
Qed.
Lemma a_conn g a b : a ≠ b → returns (a_is_connected g a b) (λ r, r = true ↔ joined g a b).
Proof.
  intros Hne. destruct g as [g|g|g]; cbn [a_is_connected joined returns].
  - apply is_connected_spec.
  - unfold m_is_connected. rewrite bool_decide_true by done. simpl. rewrite connected_spec. unfold pd_adj, uline, darrow. split.
    + intros (k & Hk & H). destruct k; [|tauto..]. exfalso. unfold PDAG_T in Hk. set_solver +Hk.
    + intros [[?|[?|?]]|?]; [exists Tail|exists Directed|exists Directed|exists Tail]; (split; [unfold PDAG_T; set_solver +|tauto]).
  - unfold m_is_connected. rewrite bool_decide_true by done. simpl. rewrite connected_spec. split.
    + intros (k & _ & H). by exists k.
    + intros (k & H). exists k. split; [destruct k; unfold PAG_T; set_solver +|done].
Qed.
Lemma bool_split (b : bool) (P : Prop) : (b = true ↔ P) → (b = true ∧ P) ∨ (b = false ∧ ¬ P).
Proof. destruct b; intros H; [left; tauto|right]. split; [done|]. intros HP. by apply H in HP. Qed.

Lemma pairs_total V : ∃ n, pair_count V (λ _ _, True) n ∧ 2 * n = size V * (size V - 1).
Proof.
  exists (length (comb2 (elements V))). split.
  - assert (∀ l : list (node * node), filter (λ p, (λ _ : node * node, true) p = true) l = l) as E.
    { induction l as [|p l IH]; [done|]. rewrite filter_cons_True by done. by rewrite IH. }
    rewrite <-(E (comb2 (elements V))). apply (count_pairs V (elements V) (λ _ _, True) (λ _, true)); [apply NoDup_elements|apply set_eq; set_solver +|done|done].
  - unfold size, set_size. simpl. generalize (elements V). intros l. induction l as [|x l IH]; [done|]. cbn [comb2 length]. rewrite app_length, fmap_length.
    revert IH. generalize (length l), (length (comb2 l)). intros [|n] m; [simpl; lia|]. replace (S n - 1) with n by lia. replace (S (S n) - 1) with (S n) by lia. lia.
Qed.
Lemma skel_ok o g c : iter_ok o → returns (skel_counts o g c) (skel_spec g c).
Proof.
  intros Ho.
  assert (∀ (π : skel → nat) (P : node → node → Prop), π (Skel 0 0 0 0 0) = 0 → (∀ a b, P a b → P b a) →
    (∀ a b s, (joined c a b → joined g a b → let s' := Skel (S (sk_tp s)) (sk_fn s) (sk_fp s) (sk_tn s) (S (sk_edges s)) in (P a b ∧ π s' = S (π s)) ∨ (¬ P a b ∧ π s' = π s)) ∧
      (joined c a b → ¬ joined g a b → let s' := Skel (sk_tp s) (S (sk_fn s)) (sk_fp s) (sk_tn s) (S (sk_edges s)) in (P a b ∧ π s' = S (π s)) ∨ (¬ P a b ∧ π s' = π s)) ∧
      (¬ joined c a b → joined g a b → let s' := Skel (sk_tp s) (sk_fn s) (S (sk_fp s)) (sk_tn s) (sk_edges s) in (P a b ∧ π s' = S (π s)) ∨ (¬ P a b ∧ π s' = π s)) ∧
      (¬ joined c a b → ¬ joined g a b → let s' := Skel (sk_tp s) (sk_fn s) (sk_fp s) (S (sk_tn s)) (sk_edges s) in (P a b ∧ π s' = S (π s)) ∨ (¬ P a b ∧ π s' = π s))) →
    returns (skel_counts o g c) (λ s, pair_count (anodes c) P (π s))) as Hgen.
  { intros π P H0 Hs HP. apply count_proj; [by apply iter_nodup|by apply iter_set|intros; by apply Hs|done|].
    intros a b s Ha Hb Hne. eapply returns_bind; [by apply a_conn|]. intros bc Hbc. eapply returns_bind; [by apply a_conn|]. intros bt Hbt. cbn [returns].
    destruct (HP a b s) as (H1 & H2 & H3 & H4). apply bool_split in Hbc, Hbt. destruct Hbc as [[-> Hbc]|[-> Hbc]], Hbt as [[-> Hbt]|[-> Hbt]]; auto. }
  assert (∃ s, skel_counts o g c = Ok s) as [s Es].
  { pose proof (Hgen sk_edges (joined c) eq_refl (joined_sym c)) as H. apply returns_ok in H as (s & Es & _); [by exists s|]. intros a b s. cbn. tauto. }
  assert (∀ a b, joined c a b → joined c b a) as Sc by apply joined_sym. assert (∀ a b, joined g a b → joined g b a) as Sg by apply joined_sym.
  rewrite Es in *. cbn [returns] in *.
  assert (pair_count (anodes c) (λ a b, joined c a b ∧ joined g a b) (sk_tp s)) as P1 by (apply (Hgen sk_tp); [done|naive_solver|intros a b s'; cbn; tauto]).
  assert (pair_count (anodes c) (λ a b, joined c a b ∧ ¬ joined g a b) (sk_fn s)) as P2 by (apply (Hgen sk_fn); [done|naive_solver|intros a b s'; cbn; tauto]).
  assert (pair_count (anodes c) (λ a b, ¬ joined c a b ∧ joined g a b) (sk_fp s)) as P3 by (apply (Hgen sk_fp); [done|naive_solver|intros a b s'; cbn; tauto]).
  assert (pair_count (anodes c) (λ a b, ¬ joined c a b ∧ ¬ joined g a b) (sk_tn s)) as P4 by (apply (Hgen sk_tn); [done|naive_solver|intros a b s'; cbn; tauto]).
  assert (pair_count (anodes c) (joined c) (sk_edges s)) as P5 by (apply (Hgen sk_edges); [done|done|intros a b s'; cbn; tauto]).
  split; try done.
  pose proof (Hgen (λ s, sk_tp s + sk_fn s + sk_fp s + sk_tn s) (λ _ _, True) eq_refl) as H. 
  destruct (pairs_total (anodes c)) as (n & Hn & En). rewrite <-En. f_equal. eapply pair_count_fun; [apply H|exact Hn]; [done|].
  intros a b s'. cbn. split_and!; intros _ _; left; (split; [done|lia]).
Qed.
