(** Performance measures: the counters. *)
From Coq Require Import QArith.
From Verif Require Import Base BaseLemmas ModelGraph Spec ModelMixed SpecMixed SpecCount ModelPerf SpecPerf
  ProofGraph ProofPDAG ProofMixed ProofMixed2 ProofPC ProofCount.
Local Open Scope nat_scope.

Lemma fmap_sublist {A B} (f : A → B) (l k : list A) : l `sublist_of` k → f <$> l `sublist_of` f <$> k.
Proof. induction 1; [constructor|by constructor|by constructor]. Qed.
(** one counter of a loop over all pairs *)
Lemma count_proj {St} (V : nset) (l : list node) (step : node * node → St → res St) (π : St → nat) (P : node → node → Prop) (s0 : St) :
  NoDup l → list_to_set l = V → (∀ a b, a ∈ V → b ∈ V → P a b → P b a) → π s0 = 0 →
  (∀ a b s, a ∈ V → b ∈ V → a ≠ b → returns (step (a, b) s) (λ s', (P a b ∧ π s' = S (π s)) ∨ (¬ P a b ∧ π s' = π s))) →
  returns (for_ (comb2 l) step s0) (λ s, pair_count V P (π s)).
Proof.
  intros Hnd HV Hs H0 Hstep. eapply returns_mono; [apply (for_returns_pre (comb2 l) step s0 (λ pre s,
    ∃ q, q `sublist_of` pre ∧ (∀ a b, (a, b) ∈ q ↔ (a, b) ∈ pre ∧ P a b) ∧ length q = π s))|].
  - exists []. split; [done|]. split; [set_solver +|]. by rewrite H0.
  - intros pre [a b] post s E (q & Hq1 & Hq2 & Hq3).
    assert ((a, b) ∈ comb2 l) as Hab by (rewrite E; set_solver +). pose proof (comb2_elem _ _ _ Hab) as [Ha Hb]. pose proof (comb2_ne _ _ _ Hnd Hab) as Hne.
    eapply returns_mono; [apply Hstep; [subst V; by rewrite elem_of_list_to_set..|done]|]. intros s' [[HP Es]|[HP Es]].
    + exists (q ++ [(a, b)]). split; [by apply sublist_app|]. split; [|rewrite app_length; simpl; lia].
      intros x y. rewrite !elem_of_app, Hq2, elem_of_list_singleton. split; [intros [[? ?]|E']; [tauto|simplify_eq; tauto]|tauto].
    + exists q. split; [by apply sublist_inserts_r|]. split; [|lia]. intros x y. rewrite elem_of_app, Hq2, elem_of_list_singleton.
      split; [tauto|]. intros [[?|E'] ?]; [tauto|]. simplify_eq.
  - intros s (q & Hq1 & Hq2 & Hq3). exists (list_to_set (norm <$> q)). split.
    + intros a b. rewrite elem_of_list_to_set. split.
      * intros H. apply elem_of_list_fmap in H as ([x y] & E & H). apply Hq2 in H as [H HP]. pose proof (comb2_elem _ _ _ H) as [Hx Hy]. pose proof (comb2_ne _ _ _ Hnd H) as Hne.
        assert (x ∈ V ∧ y ∈ V) as [HxV HyV] by (subst V; by rewrite !elem_of_list_to_set).
        symmetry in E. apply norm_pair in E as [Hle E]. destruct E as [[-> ->]|[-> ->]]; split_and!; try done; try lia; by apply Hs.
      * intros (Ha & Hb & Hlt & HP). assert (a ≠ b) as Hne by lia. assert (a ∈ l ∧ b ∈ l) as [Hal Hbl] by (subst V; by rewrite !elem_of_list_to_set in Ha, Hb).
        apply elem_of_list_fmap. destruct (comb2_total l a b Hal Hbl Hne) as [H|H].
        -- exists (a, b). split; [symmetry; apply norm_pair; split; [lia|by left]|]. by apply Hq2.
        -- exists (b, a). split; [symmetry; apply norm_pair; split; [lia|by right]|]. apply Hq2. split; [done|by apply Hs].
    + rewrite size_list_nodup, fmap_length; [done|]. eapply (sublist_nodup _ (norm <$> comb2 l)); [by apply fmap_sublist|by apply pairs_nodup].
Qed.

Lemma pair_count_fun V P n m : pair_count V P n → pair_count V P m → n = m.
Proof. intros (S1 & H1 & <-) (S2 & H2 & <-). f_equal. apply set_eq. intros [a b]. by rewrite H1, H2. Qed.
Lemma pair_count_zero V P n : pair_count V P n → n = 0 → ∀ a b, a ∈ V → b ∈ V → a < b → ¬ P a b.
Proof. intros (S1 & H1 & <-) H a b Ha Hb Hl HP. apply size_empty_inv in H. apply (not_elem_of_empty (C := gset (node * node)) (a, b)). rewrite <-H. by apply H1. Qed.
Lemma pair_count_none V P n : pair_count V P n → (∀ a b, a ∈ V → b ∈ V → a < b → ¬ P a b) → n = 0.
Proof. intros (S1 & H1 & <-) H. apply size_empty_iff. intros [a b]. rewrite H1. split; [|set_solver +]. intros (? & ? & ? & ?). exfalso. by apply (H a b). Qed.
Lemma pair_count_le V P Q n m : pair_count V P n → pair_count V Q m → (∀ a b, a ∈ V → b ∈ V → a < b → P a b → Q a b) → n ≤ m.
Proof. intros (S1 & H1 & <-) (S2 & H2 & <-) H. apply subseteq_size. intros [a b]. rewrite H1, H2. intros (? & ? & ? & ?). split_and!; auto. Qed.
Lemma pair_count_or V P Q R n m k : pair_count V P n → pair_count V Q m → pair_count V R k →
  (∀ a b, a ∈ V → b ∈ V → a < b → R a b → P a b ∨ Q a b) → k ≤ n + m.
Proof.
  intros (S1 & H1 & <-) (S2 & H2 & <-) (S3 & H3 & <-) H. trans (size (S1 ∪ S2)).
  - apply subseteq_size. intros [a b]. rewrite elem_of_union, H1, H2, H3. intros (? & ? & ? & HR). destruct (H a b) as [?|?]; auto.
  - rewrite size_union_alt. assert (size (S2 ∖ S1) ≤ size S2) by (apply subseteq_size; set_solver +). lia.
Qed.
Lemma pair_count_disj V P Q R n m k : pair_count V P n → pair_count V Q m → pair_count V R k →
  (∀ a b, a ∈ V → b ∈ V → a < b → R a b ↔ P a b ∨ Q a b) → (∀ a b, a ∈ V → b ∈ V → a < b → P a b → ¬ Q a b) → k = n + m.
Proof.
  intros (S1 & H1 & <-) (S2 & H2 & <-) (S3 & H3 & <-) H Hd. assert (S3 = S1 ∪ S2) as ->.
  { apply set_eq. intros [a b]. rewrite elem_of_union, H1, H2, H3. split; [intros (? & ? & ? & HR); apply H in HR as [?|?]; auto|].
    intros [(? & ? & ? & HR)|(? & ? & ? & HR)]; split_and!; auto; apply H; auto. }
  apply size_union. intros [a b]. rewrite H1, H2. intros (? & ? & ? & ?) (_ & _ & _ & ?). by eapply (Hd a b).
Qed.

(** ** Structural Hamming distance *)
Section shd.
Context (o : order) (g t : mgraph).
Hypothesis Ho : iter_ok o.
Hypothesis Hg : pd_wf g.
Hypothesis Ht : pd_wf t.
Lemma pd_adj_sym (h : mgraph) a b : pd_wf h → pd_adj h a b → pd_adj h b a.
Proof. intros H [?|[?|?]]; [left; by apply (pdw_sym _ H)|by right; right|by right; left]. Qed.


(** what one step of the loop does *)
Inductive ev := EMiss | EExtra | AMiss | AExtra | ARev | ENone.
Definition bump (e : ev) (s : shd) : shd :=
  match e with
  | EMiss => Shd (S (sh_missing s)) (sh_extra s) (ah_missing s) (ah_extra s) (ah_reversed s)
  | EExtra => Shd (sh_missing s) (S (sh_extra s)) (ah_missing s) (ah_extra s) (ah_reversed s)
  | AMiss => Shd (sh_missing s) (sh_extra s) (S (ah_missing s)) (ah_extra s) (ah_reversed s)
  | AExtra => Shd (sh_missing s) (sh_extra s) (ah_missing s) (S (ah_extra s)) (ah_reversed s)
  | ARev => Shd (sh_missing s) (sh_extra s) (ah_missing s) (ah_extra s) (S (ah_reversed s))
  | ENone => s
  end.
Definition ev_is (i j : node) (e : ev) : Prop :=
  match e with
  | EMiss => pd_adj t i j ∧ ¬ pd_adj g i j
  | EExtra => pd_adj g i j ∧ ¬ pd_adj t i j
  | AMiss => uline g i j ∧ darrow_any t i j
  | AExtra => darrow_any g i j ∧ uline t i j
  | ARev => darrow g i j ∧ darrow t j i ∨ darrow g j i ∧ darrow t i j
  | ENone => ¬ differ g t i j
  end.
Hypothesis Hg1 : one_way g.
Hypothesis Ht1 : one_way t.
Lemma ev_unique i j e f : ev_is i j e → ev_is i j f → e = f.
Proof.
  pose proof (Hg1 i j) as A1. pose proof (Ht1 i j) as A2. pose proof (pdw_one _ Hg i j) as A3. pose proof (pdw_one _ Ht i j) as A4.
  pose proof (pdw_one _ Hg j i) as A5. pose proof (pdw_one _ Ht j i) as A6. pose proof (pdw_sym _ Hg i j) as A7. pose proof (pdw_sym _ Ht i j) as A8.
  unfold ev_is, pd_adj, darrow_any, differ. destruct e, f; try done; intros; exfalso; tauto.
Qed.
Lemma shd_step (s : shd) i j : i ≠ j →
  returns (bt ← m_is_connected PDAG_T g i j;
    bc ← m_is_connected PDAG_T t i j;
    Ok (if negb bt then
          if (bc : bool) then Shd (S (sh_missing s)) (sh_extra s) (ah_missing s) (ah_extra s) (ah_reversed s) else s
        else if negb bc then Shd (sh_missing s) (S (sh_extra s)) (ah_missing s) (ah_extra s) (ah_reversed s)
        else if bool_decide (i ∈ und t j) then
          if bool_decide (i ∈ pd_parents g j) || bool_decide (j ∈ pd_parents g i)
          then Shd (sh_missing s) (sh_extra s) (ah_missing s) (S (ah_extra s)) (ah_reversed s) else s
        else if bool_decide (i ∈ und g j)
          then Shd (sh_missing s) (sh_extra s) (S (ah_missing s)) (ah_extra s) (ah_reversed s)
        else
          let '(source, target) := if bool_decide (i ∈ pd_parents t j) then (i, j) else (j, i) in
          if bool_decide (target ∈ pd_parents g source)
          then Shd (sh_missing s) (sh_extra s) (ah_missing s) (ah_extra s) (S (ah_reversed s)) else s))
    (λ s', ∃ e, ev_is i j e ∧ s' = bump e s).
Proof.
  intros Hne.
  pose proof (Hg1 i j) as A1. pose proof (Ht1 i j) as A2. pose proof (pdw_one _ Hg i j) as A3. pose proof (pdw_one _ Ht i j) as A4.
  pose proof (pdw_one _ Hg j i) as A5. pose proof (pdw_one _ Ht j i) as A6. pose proof (pdw_sym _ Hg i j) as A7. pose proof (pdw_sym _ Ht i j) as A8.
  eapply returns_bind; [by apply (m_is_connected_pd g i j)|]. intros bt Hbt. eapply returns_bind; [by apply (m_is_connected_pd t i j)|]. intros bc Hbc. cbv beta in Hbt, Hbc. cbn [returns].
  change (i ∈ und t j) with (uline t i j). change (i ∈ und g j) with (uline g i j). change (i ∈ pd_parents g j) with (darrow g i j).
  change (j ∈ pd_parents g i) with (darrow g j i). change (i ∈ pd_parents t j) with (darrow t i j).
  unfold ev_is, differ, darrow_any. unfold pd_adj in *.
  assert (∀ (b : bool) (P : Prop), (b = true ↔ P) → (b = true ∧ P) ∨ (b = false ∧ ¬ P)) as Hb by (intros [] P ?; [left; tauto|right; split; [done|intros HP; by apply H in HP]]).
  apply Hb in Hbt, Hbc. clear Hb. destruct Hbt as [[-> Hbt]|[-> Hbt]], Hbc as [[-> Hbc]|[-> Hbc]]; cbn [negb].
  2: { exists EExtra. split; [tauto|done]. } 2: { exists EMiss. split; [tauto|done]. } 2: { exists ENone. split; [tauto|done]. }
  case_bool_decide as B1.
  { destruct (bool_decide (darrow g i j) || bool_decide (darrow g j i)) eqn:E.
    - exists AExtra. split; [|done]. apply orb_true_iff in E. rewrite !bool_decide_eq_true in E. tauto.
    - exists ENone. split; [|done]. apply orb_false_iff in E. rewrite !bool_decide_eq_false in E. tauto. }
  case_bool_decide as B2. { exists AMiss. split; [tauto|done]. }
  case_bool_decide as B3; cbv iota beta.
  - change (j ∈ pd_parents g i) with (darrow g j i). case_bool_decide as B4; [exists ARev|exists ENone]; (split; [tauto|done]).
  - change (i ∈ pd_parents g j) with (darrow g i j). case_bool_decide as B4; [exists ARev|exists ENone]; (split; [tauto|done]).
Qed.
Hypothesis Hn : mnodes g = mnodes t.
Lemma shd_ok : returns (shd_cpdag o g t) (shd_spec g t).
Proof.
  assert (∀ (π : shd → nat) (P : node → node → Prop) (E : ev → Prop), π (Shd 0 0 0 0 0) = 0 → (∀ a b, P a b → P b a) → 
    (∀ e s, (E e ∧ π (bump e s) = S (π s)) ∨ (¬ E e ∧ π (bump e s) = π s)) → (∀ a b e, ev_is a b e → P a b ↔ E e) →
    returns (shd_cpdag o g t) (λ s, pair_count (mnodes t) P (π s))) as Hgen.
  { intros π P E H0 Hs HE HP. apply count_proj; [by apply iter_nodup|by apply iter_set|intros; by apply Hs|done|].
    intros a b s Ha Hb Hne. eapply returns_mono; [by apply (shd_step s a b)|]. cbv beta. intros s' (e & He & ->).
    rewrite (HP _ _ _ He). apply HE. }
  assert (∀ a b, ∀ e f, ev_is a b e → ev_is a b f ↔ f = e) as Hu.
  { intros a b e f He. split; [intros Hf; by eapply ev_unique|by intros ->]. }
  assert (∀ f a b, ev_is a b f → ev_is b a f) as Hsym.
  { intros f a b. pose proof (pdw_sym _ Hg a b) as A7. pose proof (pdw_sym _ Ht a b) as A8. pose proof (pdw_sym _ Hg b a) as A5. pose proof (pdw_sym _ Ht b a) as A6.
    destruct f; unfold ev_is, pd_adj, darrow_any, differ; tauto. }
  assert (∀ f (π : shd → nat), π (Shd 0 0 0 0 0) = 0 → (∀ s e, (f = e ∧ π (bump e s) = S (π s)) ∨ (f ≠ e ∧ π (bump e s) = π s)) →
    returns (shd_cpdag o g t) (λ s, pair_count (mnodes t) (λ a b, ev_is a b f) (π s))) as Hone.
  { intros f π H0 H1. apply (Hgen π _ (λ e, f = e)); [done|apply Hsym|intros; apply H1|]. intros a b e. apply Hu. }
  assert (∃ s, shd_cpdag o g t = Ok s) as [s Es].
  { pose proof (Hone EMiss sh_missing eq_refl) as H. apply returns_ok in H as (s & Es & _); [by exists s|]. intros s' []; simpl; auto. }
  rewrite Es in *. cbn [returns] in *. split.
  - apply (Hone EMiss sh_missing eq_refl). intros s' []; simpl; auto.
  - apply (Hone EExtra sh_extra eq_refl). intros s' []; simpl; auto.
  - apply (Hone AMiss ah_missing eq_refl). intros s' []; simpl; auto.
  - apply (Hone AExtra ah_extra eq_refl). intros s' []; simpl; auto.
  - apply (Hone ARev ah_reversed eq_refl). intros s' []; simpl; auto.
  - apply (Hgen shd_total _ (λ e, e ≠ ENone)); [done| | |].
    + intros a b. pose proof (pdw_sym _ Hg a b) as A7. pose proof (pdw_sym _ Ht a b) as A8. pose proof (pdw_sym _ Hg b a) as A5. pose proof (pdw_sym _ Ht b a) as A6.
      unfold differ. tauto.
    + intros [] s'; unfold shd_total; simpl; try (left; split; [done|lia]). right. split; [tauto|done].
    + intros a b e He. 
      pose proof (pdw_one _ Hg a b) as A3. pose proof (pdw_one _ Ht a b) as A4. pose proof (pdw_one _ Hg b a) as A5. pose proof (pdw_one _ Ht b a) as A6.
      pose proof (pdw_sym _ Hg a b) as A7. pose proof (pdw_sym _ Ht a b) as A8. pose proof (Hg1 a b) as A1. pose proof (Ht1 a b) as A2. 
      destruct e; (split; [|try done]); try done; intros _; unfold ev_is, differ, pd_adj, darrow_any in *; tauto.
Qed.
End shd.

(** ** edges directed both ways *)
Section shd2.
Context (o : order) (g t : mgraph) (Ho : iter_ok o) (Hg : pd_wf g) (Ht : pd_wf t).
Lemma shd_step2 (s : shd) i j : i ≠ j →
  returns (bt ← m_is_connected PDAG_T g i j;
    bc ← m_is_connected PDAG_T t i j;
    Ok (if negb bt then
          if (bc : bool) then Shd (S (sh_missing s)) (sh_extra s) (ah_missing s) (ah_extra s) (ah_reversed s) else s
        else if negb bc then Shd (sh_missing s) (S (sh_extra s)) (ah_missing s) (ah_extra s) (ah_reversed s)
        else if bool_decide (i ∈ und t j) then
          if bool_decide (i ∈ pd_parents g j) || bool_decide (j ∈ pd_parents g i)
          then Shd (sh_missing s) (sh_extra s) (ah_missing s) (S (ah_extra s)) (ah_reversed s) else s
        else if bool_decide (i ∈ und g j)
          then Shd (sh_missing s) (sh_extra s) (S (ah_missing s)) (ah_extra s) (ah_reversed s)
        else
          let '(source, target) := if bool_decide (i ∈ pd_parents t j) then (i, j) else (j, i) in
          if bool_decide (target ∈ pd_parents g source)
          then Shd (sh_missing s) (sh_extra s) (ah_missing s) (ah_extra s) (S (ah_reversed s)) else s))
    (λ s', ∃ e, (∀ f, f = EMiss ∨ f = EExtra ∨ f = AMiss ∨ f = AExtra → ev_is g t i j f ↔ f = e) ∧ s' = bump e s).
Proof.
  intros Hne.
  pose proof (pdw_one _ Hg i j) as A3. pose proof (pdw_one _ Ht i j) as A4.
  pose proof (pdw_one _ Hg j i) as A5. pose proof (pdw_one _ Ht j i) as A6. pose proof (pdw_sym _ Hg i j) as A7. pose proof (pdw_sym _ Ht i j) as A8.
  eapply returns_bind; [by apply (m_is_connected_pd g i j)|]. intros bt Hbt. eapply returns_bind; [by apply (m_is_connected_pd t i j)|]. intros bc Hbc. cbv beta in Hbt, Hbc. cbn [returns].
  change (i ∈ und t j) with (uline t i j). change (i ∈ und g j) with (uline g i j). change (i ∈ pd_parents g j) with (darrow g i j).
  change (j ∈ pd_parents g i) with (darrow g j i). change (i ∈ pd_parents t j) with (darrow t i j).
  unfold ev_is, differ, darrow_any. unfold pd_adj in *.
  assert (∀ (b : bool) (P : Prop), (b = true ↔ P) → (b = true ∧ P) ∨ (b = false ∧ ¬ P)) as Hb by (intros [] P ?; [left; tauto|right; split; [done|intros HP; by apply H in HP]]).
  apply Hb in Hbt, Hbc. clear Hb. destruct Hbt as [[-> Hbt]|[-> Hbt]], Hbc as [[-> Hbc]|[-> Hbc]]; cbn [negb].
  2: { exists EExtra. split; [|done]. intros f [->|[->|[->| ->]]]; (split; [intros ?|intros [=]]); try done; tauto. }
  2: { exists EMiss. split; [|done]. intros f [->|[->|[->| ->]]]; (split; [intros ?|intros [=]]); try done; tauto. }
  2: { exists ENone. split; [|done]. intros f [->|[->|[->| ->]]]; (split; [intros ?|intros [=]]); try done; tauto. }
  case_bool_decide as B1.
  { destruct (bool_decide (darrow g i j) || bool_decide (darrow g j i)) eqn:E.
    - exists AExtra. split; [|done]. apply orb_true_iff in E. rewrite !bool_decide_eq_true in E.
      intros f [->|[->|[->| ->]]]; (split; [intros ?|intros [=]]); try done; tauto.
    - exists ENone. split; [|done]. apply orb_false_iff in E. rewrite !bool_decide_eq_false in E.
      intros f [->|[->|[->| ->]]]; (split; [intros ?|intros [=]]); try done; tauto. }
  case_bool_decide as B2.
  { exists AMiss. split; [|done]. intros f [->|[->|[->| ->]]]; (split; [intros ?|intros [=]]); try done; tauto. }
  assert (∀ e, e = ARev ∨ e = ENone → ∀ f, f = EMiss ∨ f = EExtra ∨ f = AMiss ∨ f = AExtra → ev_is g t i j f ↔ f = e) as Hlast.
  { unfold ev_is, pd_adj, darrow_any. intros e He f [->|[->|[->| ->]]]; (split; [intros ?|intros <-; by destruct He]); exfalso; tauto. }
  destruct (if bool_decide (darrow t i j) then (i, j) else (j, i)) as [u v].
  destruct (bool_decide (v ∈ pd_parents g u)); [exists ARev|exists ENone]; (split; [|done]); apply Hlast; auto.
Qed.
Lemma shd_ok2 : returns (shd_cpdag o g t) (λ s,
  pair_count (mnodes t) (λ a b, pd_adj t a b ∧ ¬ pd_adj g a b) (sh_missing s) ∧
  pair_count (mnodes t) (λ a b, pd_adj g a b ∧ ¬ pd_adj t a b) (sh_extra s) ∧
  pair_count (mnodes t) (λ a b, uline g a b ∧ darrow_any t a b) (ah_missing s) ∧
  pair_count (mnodes t) (λ a b, darrow_any g a b ∧ uline t a b) (ah_extra s)).
Proof.
  assert (∀ f a b, ev_is g t a b f → ev_is g t b a f) as Hsym.
  { intros f a b. pose proof (pdw_sym _ Hg a b) as A7. pose proof (pdw_sym _ Ht a b) as A8. pose proof (pdw_sym _ Hg b a) as A5. pose proof (pdw_sym _ Ht b a) as A6.
    destruct f; unfold ev_is, pd_adj, darrow_any, differ; tauto. }
  assert (∀ f (π : shd → nat), f = EMiss ∨ f = EExtra ∨ f = AMiss ∨ f = AExtra → π (Shd 0 0 0 0 0) = 0 →
    (∀ s e, (f = e ∧ π (bump e s) = S (π s)) ∨ (f ≠ e ∧ π (bump e s) = π s)) →
    returns (shd_cpdag o g t) (λ s, pair_count (mnodes t) (λ a b, ev_is g t a b f) (π s))) as Hone.
  { intros f π Hf H0 H1. apply count_proj; [by apply iter_nodup|by apply iter_set|intros; by apply Hsym|done|].
    intros a b s Ha Hb Hne. eapply returns_mono; [by apply (shd_step2 s a b)|]. cbv beta. intros s' (e & He & ->). rewrite (He f Hf). apply H1. }
  assert (∃ s, shd_cpdag o g t = Ok s) as [s Es].
  { pose proof (Hone EMiss sh_missing) as H. apply returns_ok in H as (s & Es & _); [by exists s|tauto|done|]. intros s' []; simpl; auto. }
  rewrite Es in *. cbn [returns] in *. split; [|split; [|split]].
  - apply (Hone EMiss sh_missing); [tauto|done|]. intros s' []; simpl; auto.
  - apply (Hone EExtra sh_extra); [tauto|done|]. intros s' []; simpl; auto.
  - apply (Hone AMiss ah_missing); [tauto|done|]. intros s' []; simpl; auto.
  - apply (Hone AExtra ah_extra); [tauto|done|]. intros s' []; simpl; auto.
Qed.
End shd2.
