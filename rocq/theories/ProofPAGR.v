(** The orientation rules of PAG: every change is an instance of the rule's pattern, circles only
    disappear, arrowheads stay, and a rule that reports no change leaves no instance of its pattern. *)
From Verif Require Import Base BaseLemmas ModelGraph ModelMixed ModelPC ModelPAG Spec SpecMixed SpecPAG Paths ProofMixed ProofMixed2 ProofPAG.

Notation act := (node * node * mark)%type.
Definition apply_act (g : mgraph) (x : act) : mgraph := replace_mark_ PAG_T g x.1.1 x.1.2 x.2.
Definition apply_acts (g : mgraph) (l : list act) : mgraph := foldl apply_act g l.

(** a pattern: given an earlier graph h and the current graph, which replacements are justified *)
Definition pattern := mgraph → mgraph → list act → Prop.
Inductive stale (P : pattern) : mgraph → mgraph → Prop :=
  | stale_refl g : stale P g g
  | stale_step g h g' acts : stale P g h → stale P h g' → P h g' acts → stale P g (apply_acts g' acts).

Lemma stale_trans P g h k : stale P g h → stale P h k → stale P g k.
Proof.
  intros H1 H2. induction H2 as [|h' h1 g' acts H2 IH2 H3 _ HP]; [done|]. eapply stale_step; [by apply IH2|done..].
Qed.
Lemma stale_mono (P Q : pattern) g g' : (∀ h k l, P h k l → Q h k l) → stale P g g' → stale Q g g'.
Proof. intros H. induction 1 as [|? ? ? ? ? ? ? ? ?]; [constructor|]. eapply stale_step; eauto. Qed.

Definition act_ok (h : mgraph) (x : act) : Prop :=
  mg_adj h x.1.1 x.1.2 ∧ x.2 ≠ Circle ∧ (x.2 = Directed ∨ ¬ has_mark h x.1.1 Directed x.1.2).
Definition good (P : pattern) : Prop := ∀ h k acts, mg_wf h → refines h k → P h k acts → Forall (act_ok h) acts.

(** ** refinement *)
Lemma refines_refl g : mg_wf g → refines g g.
Proof. by split. Qed.
Lemma refines_trans g h k : refines g h → refines h k → refines g k.
Proof.
  intros [? ? ? ? ?] [? N A ? ?]. split; [done|congruence| | |].
  - intros a b. rewrite A. done.
  - auto.
  - auto.
Qed.
Lemma refines_act h g x : mg_wf h → refines h g → act_ok h x → refines h (apply_act g x).
Proof.
  intros Hwf [W N A C D] (H1 & H2 & H3). destruct x as [[s t] k]. unfold apply_act. simpl in *. split.
  - apply mg_wf_replace; [done|]. by apply A.
  - by rewrite replace_mark_nodes.
  - intros a b. rewrite <-A. unfold mg_adj. setoid_rewrite replace_mark_spec. split.
    + intros (j & [(-> & -> & ->)|[_ ?]]); [by apply A|eauto].
    + intros (j & Hj). destruct (decide (a = s ∧ b = t)) as [[-> ->]|Hne]; [exists k; by left|exists j; by right].
  - intros a b. rewrite replace_mark_spec. intros [(_ & _ & ?)|[_ ?]]; [congruence|auto].
  - intros a b Hab. rewrite replace_mark_spec. destruct (decide (a = s ∧ b = t)) as [[-> ->]|Hne]; [|right; auto].
    left. destruct H3 as [->|H3]; [done|]. by destruct H3.
Qed.
Lemma refines_acts h g acts : mg_wf h → refines h g → Forall (act_ok h) acts → refines h (apply_acts g acts).
Proof.
  intros Hwf Hr. revert g Hr. induction acts as [|x acts IH]; intros g Hr Hok; [done|].
  inversion Hok; subst. simpl. apply IH; [|done]. by apply refines_act.
Qed.
Lemma stale_refines P g g' : good P → mg_wf g → stale P g g' → refines g g'.
Proof.
  intros HP Hwf. induction 1 as [|g h g' acts H1 IH1 H2 IH2 HPh]; [by apply refines_refl|].
  specialize (IH1 Hwf). assert (mg_wf h) as Hh by (by apply (rf_wf _ _ IH1)).
  eapply refines_trans; [done|]. apply refines_acts; [done|auto|]. eapply HP; [done| |exact HPh]. auto.
Qed.

Definition lost (g g' : mgraph) : Prop := ∃ a b, has_mark g a Circle b ∧ ¬ has_mark g' a Circle b.
Lemma apply_acts_circle g acts a b : (∀ x, x ∈ acts → x.2 ≠ Circle) → has_mark (apply_acts g acts) a Circle b →
  has_mark g a Circle b ∧ ∀ k, (a, b, k) ∉ acts.
Proof.
  revert g. induction acts as [|[[s t] k] acts IH]; intros g Hk; simpl; [intros ?; split; [done|set_solver +]|].
  intros HH. apply IH in HH as [H1 H2]; [|intros y Hy; apply Hk; set_solver +Hy]. unfold apply_act in H1. simpl in H1.
  apply replace_mark_spec in H1 as [(-> & -> & Ek)|[Hn H1]].
  - exfalso. apply (Hk (s, t, k)); [set_solver +|done].
  - split; [done|]. intros j [E|?]%elem_of_cons; [|by eapply H2]. simplify_eq. by apply Hn.
Qed.

(** the flag: either something was changed (a circle has gone), or nothing was and N holds *)
Definition flag (g : mgraph) (N : Prop) (s : mgraph * bool) : Prop :=
  (s.2 = true ∧ lost g s.1) ∨ (s.2 = false ∧ s.1 = g ∧ N).
Lemma flag_mono g (N M : Prop) s : flag g N s → (s.1 = g → N → M) → flag g M s.
Proof. intros [?|(? & ? & ?)] HM; [by left|right]. auto. Qed.

Definition fires (g : mgraph) (acts : list act) : Prop := ∃ s t k, (s, t, k) ∈ acts ∧ has_mark g s Circle t.
Lemma flag_step g acts k N : Forall (act_ok k) acts → ∀ g', fires g acts → flag g N (apply_acts g' acts, true).
Proof.
  intros Hok g' (s & t & j & Hin & Hc). left. split; [done|]. exists s, t. split; [done|]. simpl. intros HH.
  apply apply_acts_circle in HH as [_ HH]; [by eapply HH|]. intros x Hx.
  by apply (proj1 (Forall_forall _ _) Hok) in Hx as (_ & ? & _).
Qed.

Lemma mset_replace_ne g s t k n j : n ≠ t → mset (replace_mark_ PAG_T g s t k) n j = mset g n j.
Proof.
  intros Hne. apply set_eq. intros x. pose proof (replace_mark_spec g s t k x j n) as H. unfold has_mark in H. rewrite H.
  naive_solver.
Qed.
Lemma mset_replace_other g s t k j : s ∉ mset g t j → j ≠ k → mset (replace_mark_ PAG_T g s t k) t j = mset g t j.
Proof.
  intros Hs Hne. apply set_eq. intros x. pose proof (replace_mark_spec g s t k x j t) as H. unfold has_mark in H. rewrite H.
  split; [naive_solver|]. intros Hx. right. split; [|done]. intros [-> _]. done.
Qed.

Lemma act_dir h s t : mg_adj h s t → act_ok h (s, t, Directed).
Proof. intros H. unfold act_ok. cbn [fst snd]. split_and!; [done..|by left]. Qed.
Lemma act_tail h s t k : mg_wf h → has_mark h s k t → k ≠ Directed → act_ok h (s, t, Tail).
Proof.
  intros Hwf Hk Hne. unfold act_ok. cbn [fst snd]. split_and!; [by exists k|done|]. right. intros H. apply Hne. by eapply (mgw_one _ Hwf).
Qed.

(** loops that keep the flag *)
Lemma loop_flag {A} (g : mgraph) (l : list A) (f : A → mgraph * bool → res (mgraph * bool)) (J : list A → mgraph → Prop) (M : A → Prop) (N : Prop) s :
  J [] s.1 → flag g N s →
  (∀ pre x post s (N : Prop), l = pre ++ x :: post → J pre s.1 → flag g N s →
     returns (f x s) (λ r, J (pre ++ [x]) r.1 ∧ flag g (N ∧ M x) r)) →
  returns (for_ l f s) (λ r, J l r.1 ∧ flag g (N ∧ ∀ x, x ∈ l → M x) r).
Proof.
  intros HJ HF Hstep.
  apply (for_returns_pre l f s (λ pre r, J pre r.1 ∧ flag g (N ∧ ∀ x, x ∈ pre → M x) r)).
  - split; [done|]. eapply flag_mono; [exact HF|]. intros _ ?. split; [done|set_solver +].
  - intros pre x post s' E [HJ' HF']. eapply returns_mono; [by eapply Hstep|]. cbn beta. intros r [? HF'']. split; [done|].
    eapply flag_mono; [exact HF''|]. intros _ [[? HM] ?]. split; [done|]. intros y. rewrite elem_of_app, elem_of_list_singleton.
    intros [?| ->]; auto.
Qed.
Lemma live_flag (o : order) (kl : nat) (g : mgraph) (get : mgraph * bool → nset) (f : node → mgraph * bool → res ((mgraph * bool) * bool))
    (J : list node → mgraph → Prop) (M : node → Prop) (N : Prop) s :
  J [] s.1 → flag g N s →
  (∀ pre s', J pre s'.1 → get s' = get s) →
  (∀ pre x post s' (N : Prop), o kl (get s) = pre ++ x :: post → J pre s'.1 → flag g N s' →
     returns (f x s') (λ r, r.2 = false ∧ J (pre ++ [x]) r.1.1 ∧ flag g (N ∧ M x) r.1)) →
  returns (for_live o kl get f s) (λ r, J (o kl (get s)) r.1 ∧ flag g (N ∧ ∀ x, x ∈ o kl (get s) → M x) r).
Proof.
  intros HJ HF Hget Hstep.
  apply for_live_returns with (I := λ pre r, J pre r.1 ∧ flag g (N ∧ ∀ x, x ∈ pre → M x) r).
  - split; [done|]. eapply flag_mono; [exact HF|]. intros _ ?. split; [done|set_solver +].
  - intros pre x post s' E [HJ' HF']. eapply returns_mono; [by eapply Hstep|]. cbn beta. intros r (-> & ? & HF''). split; [done|].
    eapply flag_mono; [exact HF''|]. intros _ [[? HM] ?]. split; [done|]. intros y. rewrite elem_of_app, elem_of_list_singleton.
    intros [?| ->]; auto.
  - intros pre s' [HJ' _]. by eapply Hget.
  - done.
Qed.
Lemma flag_skip g (N M : Prop) s : flag g N s → (s.1 = g → M) → flag g (N ∧ M) s.
Proof. intros HF HM. eapply flag_mono; [exact HF|]. auto. Qed.
Lemma flag_start g (N : Prop) : N → flag g N (g, false).
Proof. by right. Qed.

(** ** rule 1 *)
Definition P1 : pattern := λ h _ acts, ∃ a b c, has_mark h a Directed b ∧ has_mark h c Circle b ∧ ¬ mg_adj h a c ∧
  acts = [(c, b, Tail); (b, c, Directed)].
Lemma P1_good : good P1.
Proof.
  intros h k acts Hwf _ (a & b & c & H1 & H2 & H3 & ->).
  constructor; [by eapply act_tail|]. constructor; [|constructor]. apply act_dir, mg_adj_sym; [done|]. by eexists.
Qed.

(** ** the other patterns *)
Definition P2 : pattern := λ _ k acts, ∃ a b c, has_mark k a Circle c ∧
  ((has_mark k a Directed b ∧ dir_edge k b c) ∨ (dir_edge k a b ∧ has_mark k b Directed c)) ∧ acts = [(a, c, Directed)].
Lemma P2_good : good P2.
Proof.
  intros h k acts Hwf R (a & b & c & H1 & _ & ->). constructor; [|constructor]. apply act_dir. apply (rf_adj _ _ R). by eexists.
Qed.
Definition P3 : pattern := λ h _ acts, ∃ a b c d, has_mark h a Directed b ∧ has_mark h c Directed b ∧ has_mark h a Circle d ∧
  has_mark h c Circle d ∧ a ≠ c ∧ ¬ mg_adj h a c ∧ has_mark h d Circle b ∧ acts = [(d, b, Directed)].
Lemma P3_good : good P3.
Proof.
  intros h k acts Hwf R (a & b & c & d & _ & _ & _ & _ & _ & _ & H & ->). constructor; [|constructor]. apply act_dir. by eexists.
Qed.
Definition P6 : pattern := λ h _ acts, ∃ a b c, und_edge h a b ∧ has_mark h c Circle b ∧ acts = [(c, b, Tail)].
Lemma P6_good : good P6.
Proof. intros h k acts Hwf R (a & b & c & _ & H & ->). constructor; [|constructor]. by eapply act_tail. Qed.
Definition P7 : pattern := λ h _ acts, ∃ a b c, has_mark h a Circle b ∧ has_mark h b Tail a ∧ has_mark h c Circle b ∧ a ≠ c ∧
  ¬ mg_adj h a c ∧ acts = [(c, b, Tail)].
Lemma P7_good : good P7.
Proof. intros h k acts Hwf R (a & b & c & _ & _ & H & _ & _ & ->). constructor; [|constructor]. by eapply act_tail. Qed.
Definition P8 : pattern := λ h k acts, ∃ a b c, has_mark h b Tail a ∧ (has_mark h a Directed b ∨ has_mark h a Circle b) ∧ dir_edge h b c ∧
  has_mark k a Directed c ∧ has_mark k c Circle a ∧ acts = [(c, a, Tail)].
Lemma P8_good : good P8.
Proof.
  intros h k acts Hwf R (a & b & c & _ & _ & _ & _ & H & ->). constructor; [|constructor].
  eapply act_tail; [done|by apply (rf_circle _ _ R)|done].
Qed.

Section rules.
  Context (o : order) (Ho : iter_ok o) (g : mgraph) (Hwf : mg_wf g).

  Lemma in_split_set k S pre x post : o k S = pre ++ x :: post → x ∈ S.
  Proof. intros E. rewrite <-(iter_elem o k S x Ho), E. set_solver +. Qed.

  Lemma rule_1_ok : returns (pag_rule_1 o g) (λ r, stale P1 g r.1 ∧ flag g (¬ r1_applies g) r).
  Proof.
    unfold pag_rule_1.
    eapply returns_mono; [apply (loop_flag g _ _ (λ _ g', stale P1 g g')
      (λ b, ∀ a c, has_mark g a Directed b → has_mark g c Circle b → mg_adj g a c) True); [constructor|by apply flag_start|]|].
    - intros _ b _ s N _ Hst Hfl. set (h := s.1) in *.
      assert (refines g h) as Rgh by (eapply stale_refines; [apply P1_good|done..]). assert (mg_wf h) as Wh by apply Rgh.
      set (cs := o 808 (mset h b Circle)).
      eapply returns_mono; [apply (live_flag o 807 g _ _ (λ _ g', stale P1 h g' ∧ mset g' b Directed = mset h b Directed)
        (λ a, ∀ c, c ∈ cs → mg_adj g a c) (N ∧ h = g))|].
      + split; [constructor|done].
      + by apply flag_skip.
      + by intros _ s' [_ ?].
      + intros prea a posta s1 N1 Ea (Hst1 & Hget) Hfl1. apply in_split_set in Ea as Hab. cbn beta in Hab. fold h in Hab.
        eapply returns_bind; [apply (loop_flag g cs _ (λ _ g', stale P1 h g' ∧ mset g' b Directed = mset h b Directed)
          (λ c, mg_adj g a c) N1); [done|done|]|].
        * intros prec c postc s2 N2 Ec (Hst2 & Hget2) Hfl2. apply in_split_set in Ec as Hcb.
          assert (a ≠ c) as Hac. { intros ->. by pose proof (mgw_one _ Wh _ _ _ _ Hab Hcb). }
          assert (b ≠ c) as Hbc. { intros ->. by apply (mgw_in _ Wh) in Hcb as (_ & _ & ?). }
          assert (refines h s2.1) as R2 by (eapply stale_refines; [apply P1_good|done..]).
          eapply returns_bind; [apply m_is_connected_pag; [apply R2|done]|]. intros x Hx. cbn beta in Hx.
          rewrite (rf_adj _ _ R2), (rf_adj _ _ Rgh) in Hx. destruct x.
          -- simpl. split_and!; [done..|]. apply flag_skip; [done|]. intros _. by apply Hx.
          -- rewrite !replace_edge_mark_ok. cbn [mbind res_bind]. rewrite replace_edge_mark_ok. cbn [mbind res_bind returns fst].
             assert (P1 h s2.1 [(c, b, Tail); (b, c, Directed)]) as HP.
             { exists a, b, c. split_and!; [done..| |done]. intros H. apply (rf_adj _ _ Rgh) in H. by apply Hx in H. }
             split_and!.
             ++ apply (stale_step P1 h h s2.1 _ (stale_refl _ _) Hst2 HP).
             ++ rewrite mset_replace_ne by done. rewrite mset_replace_other; [done| |done].
                rewrite Hget2. intros H'. by pose proof (mgw_one _ Wh _ _ _ _ Hcb H').
             ++ apply (flag_step g _ h _ (P1_good _ _ _ Wh R2 HP) s2.1). exists c, b, Tail. split; [set_solver +|].
                by apply Rgh.
        * cbn beta. intros s2 (? & Hfl2). simpl. split_and!; [done|apply H|apply H|]. eapply flag_mono; [exact Hfl2|].
          done.
      + cbn beta. intros r [[Hst1 _] Hfl1]. split; [by eapply stale_trans|]. eapply flag_mono; [exact Hfl1|].
        intros _ ((HN & Eh) & HM). split; [done|]. intros a c Ha Hc. apply HM.
        * cbn beta. fold h. rewrite iter_elem by done. by rewrite Eh.
        * subst cs. rewrite iter_elem by done. by rewrite Eh.
    - cbn beta. intros r [? Hfl]. split; [done|]. eapply flag_mono; [exact Hfl|].
      intros _ [_ HN] (a & b & c & H1 & H2 & H3). apply H3. eapply (HN b); [|done..]. rewrite iter_elem by done.
      by apply (mgw_in _ Hwf) in H1 as (_ & ? & _).
  Qed.

  Lemma rule_2_ok : returns (pag_rule_2 o g) (λ r, stale P2 g r.1 ∧ flag g (¬ r2_applies g) r).
  Proof.
    unfold pag_rule_2.
    (* one change *)
    assert (∀ g' N a b c, stale P2 g g' → has_mark g' a Circle c →
      ((has_mark g' a Directed b ∧ dir_edge g' b c) ∨ (dir_edge g' a b ∧ has_mark g' b Directed c)) →
      stale P2 g (replace_mark_ PAG_T g' a c Directed) ∧ flag g N (replace_mark_ PAG_T g' a c Directed, true)) as Hone.
    { intros g' N a b c Hst Hac Hp. assert (P2 g' g' [(a, c, Directed)]) as HP by (exists a, b, c; done).
      assert (refines g g') as R by (eapply stale_refines; [apply P2_good|done..]).
      split; [apply (stale_step P2 g g' g' _ Hst (stale_refl _ _) HP)|].
      apply (flag_step g _ g' _ (P2_good g' g' _ (rf_wf _ _ R) (refines_refl _ (rf_wf _ _ R)) HP) g').
      exists a, c, Directed. split; [set_solver +|]. by apply R. }
    eapply returns_bind; [apply (loop_flag g _ _ (λ _ g', stale P2 g g')
      (λ b, ∀ a c, has_mark g a Directed b → dir_edge g b c → ¬ has_mark g a Circle c) True); [constructor|by apply flag_start|]|].
    { intros _ b _ s N _ Hst Hfl. set (h := s.1) in *.
      eapply returns_mono; [apply (live_flag o 831 g _ _ (λ _ g', stale P2 g g' ∧ mset g' b Tail = mset h b Tail)
        (λ c, has_mark g b Directed c → ∀ a, has_mark g a Directed b → ¬ has_mark g a Circle c) (N ∧ h = g))|].
      - done.
      - by apply flag_skip.
      - by intros _ s' [_ ?].
      - intros prec c postc s1 N1 Ec [Hst1 Hget1] Hfl1. apply in_split_set in Ec as Hcb. cbn beta in Hcb. fold h in Hcb.
        destruct (decide (b ∉ mset s1.1 c Directed)) as [Hb|Hb].
        { simpl. split_and!; [done..|]. apply flag_skip; [done|]. intros E. rewrite E in Hb. done. }
        assert (has_mark s1.1 b Directed c) as Hbc by (unfold has_mark; destruct (decide (b ∈ mset s1.1 c Directed)); [done|by destruct Hb]).
        assert (refines g s1.1) as R1 by (eapply stale_refines; [apply P2_good|done..]).
        assert (b ≠ c) as Hne by (by apply (mgw_in _ (rf_wf _ _ R1)) in Hbc as (_ & _ & ?)).
        eapply returns_bind; [apply (live_flag o 835 g _ _ (λ _ g', stale P2 g g' ∧ mset g' b Tail = mset h b Tail ∧
            mset g' b Directed = mset s1.1 b Directed ∧ has_mark g' b Directed c)
          (λ a, ¬ has_mark g a Circle c) (N1 ∧ s1.1 = g))|].
        + done.
        + by apply flag_skip.
        + by intros _ s' (_ & _ & ? & _).
        + intros prea a posta s2 N2 Ea (Hst2 & G1 & G2 & G3) Hfl2. apply in_split_set in Ea as Hab. cbn beta in Hab.
          destruct (decide (a ∈ mset s2.1 c Circle)) as [Hac|Hac].
          2:{ simpl. split_and!; [done..|]. apply flag_skip; [done|]. intros E. rewrite E in Hac. done. }
          rewrite replace_edge_mark_ok. cbn [mbind res_bind returns fst snd].
          destruct (Hone s2.1 (N2 ∧ ¬ has_mark g a Circle c) a b c Hst2 Hac) as [A1 A2].
          { left. unfold has_mark, dir_edge in *. rewrite G2. split; [done|]. split; [done|]. unfold has_mark. by rewrite G1. }
          split_and!; [done|done| | | |done].
          * by rewrite mset_replace_ne.
          * by rewrite mset_replace_ne.
          * apply replace_mark_spec. destruct (decide (b = a)) as [->|]; [left; done|right]. split; [|done]. intros [? _]. congruence.
        + cbn beta. intros s2 [(? & ? & ? & ?) Hfl2]. simpl. split_and!; [done..|]. eapply flag_mono; [exact Hfl2|].
          intros _ [[? E] HM]. split; [done|]. intros _ a Ha. apply HM. rewrite iter_elem by done. by rewrite E.
      - cbn beta. intros r [[? ?] Hfl']. split; [done|]. eapply flag_mono; [exact Hfl'|].
        intros _ [[? Eh] HM]. split; [done|]. intros a c Ha [Hc1 Hc2]. apply HM; [|done..]. rewrite iter_elem by done. fold h. by rewrite Eh. }
    cbn beta. intros s [Hst Hfl].
    match type of Hfl with flag _ ?N0 _ => eapply returns_mono; [apply (loop_flag g _ _ (λ _ g', stale P2 g g')
      (λ c, ∀ a b, dir_edge g a b → has_mark g b Directed c → ¬ has_mark g a Circle c) N0); [exact Hst|exact Hfl|]|] end.
    { intros _ c _ s1 N _ Hst1 Hfl1. set (h := s1.1) in *.
      eapply returns_mono; [apply (loop_flag g _ _ (λ _ g', stale P2 g g' ∧ ∀ b, has_mark h b Directed c → has_mark g' b Directed c)
        (λ b, ∀ a, dir_edge g a b → has_mark g b Directed c → ¬ has_mark g a Circle c) (N ∧ h = g)); [done|by apply flag_skip|]|].
      - intros preb b postb s2 N2 Eb [Hst2 Hk2] Hfl2. apply in_split_set in Eb as Hbc.
        assert (refines g s2.1) as R2 by (eapply stale_refines; [apply P2_good|done..]).
        assert (has_mark s2.1 b Directed c) as Hbc2 by by apply Hk2.
        assert (b ≠ c) as Hne by (by apply (mgw_in _ (rf_wf _ _ R2)) in Hbc2 as (_ & _ & ?)).
        eapply returns_mono; [apply (live_flag o 847 g _ _ (λ _ g', stale P2 g g' ∧ (∀ b, has_mark h b Directed c → has_mark g' b Directed c) ∧
            mset g' b Directed = mset s2.1 b Directed)
          (λ a, dir_edge g a b → has_mark g b Directed c → ¬ has_mark g a Circle c) (N2 ∧ s2.1 = g))|].
        + done.
        + by apply flag_skip.
        + by intros _ s' (_ & _ & ?).
        + intros prea a posta s3 N3 Ea (Hst3 & Hk3 & G3) Hfl3. apply in_split_set in Ea as Hab. cbn beta in Hab.
          destruct (decide (b ∉ mset s3.1 a Tail)) as [Hb|Hb].
          { simpl. split_and!; [done..|]. apply flag_skip; [done|]. intros E [_ H]. rewrite E in Hb. done. }
          assert (has_mark s3.1 b Tail a) as Hba by (unfold has_mark; destruct (decide (b ∈ mset s3.1 a Tail)); [done|by destruct Hb]).
          destruct (decide (a ∈ mset s3.1 c Circle)) as [Hac|Hac].
          2:{ simpl. split_and!; [done..|]. apply flag_skip; [done|]. intros E. rewrite E in Hac. done. }
          rewrite replace_edge_mark_ok. cbn [mbind res_bind returns fst snd].
          destruct (Hone s3.1 (N3 ∧ (dir_edge g a b → has_mark g b Directed c → ¬ has_mark g a Circle c)) a b c Hst3 Hac) as [A1 A2].
          { right. split; [|by apply Hk3]. split; [|done]. unfold has_mark. by rewrite G3. }
          split_and!; [done|done| | |done].
          * intros b' Hb'. apply replace_mark_spec. destruct (decide (b' = a)) as [->|]; [by left|right]. split; [|auto]. intros [? _]. congruence.
          * by rewrite mset_replace_ne.
        + cbn beta. intros r [(? & ? & ?) Hfl']. split; [done|]. eapply flag_mono; [exact Hfl'|].
          intros _ [[? E] HM]. split; [done|]. intros a Ha. apply HM; [|done]. rewrite iter_elem by done. rewrite E. apply Ha.
      - cbn beta. intros r [[? ?] Hfl']. split; [done|]. eapply flag_mono; [exact Hfl'|].
        intros _ [[? Eh] HM]. split; [done|]. intros a b Ha Hb. eapply HM; [|done..]. rewrite iter_elem by done. by rewrite Eh. }
    cbn beta. intros r [? Hfl']. split; [done|]. eapply flag_mono; [exact Hfl'|].
    intros _ [[_ HN1] HN2] (a & b & c & Hac & [[H1 H2]|[H1 H2]]).
    - eapply (HN1 b); [|done..]. rewrite iter_elem by done. by apply (mgw_in _ Hwf) in H1 as (_ & ? & _).
    - eapply (HN2 c); [|done..]. rewrite iter_elem by done. by apply (mgw_in _ Hwf) in H2 as (_ & ? & _).
  Qed.

  Lemma rule_3_ok : returns (pag_rule_3 o g) (λ r, stale P3 g r.1 ∧ flag g (¬ r3_applies g) r).
  Proof.
    unfold pag_rule_3.
    set (M := λ b d a c, ¬ (has_mark g a Directed b ∧ has_mark g c Directed b ∧ has_mark g a Circle d ∧ has_mark g c Circle d ∧
       a ≠ c ∧ ¬ mg_adj g a c ∧ has_mark g d Circle b)).
    assert (∀ b d a c, M b d c a → M b d a c) as Msym.
    { intros b d a c HM (? & ? & ? & ? & ? & Hn & ?). apply HM. split_and!; try done. intros H'. apply Hn. by apply mg_adj_sym. }
    eapply returns_mono; [apply (loop_flag g _ _ (λ _ g', stale P3 g g') (λ b, ∀ d a c, M b d a c) True); [constructor|by apply flag_start|]|].
    - intros _ b _ s N _ Hst Hfl. set (h := s.1) in *.
      eapply returns_mono; [apply (loop_flag g _ _ (λ pre g', stale P3 g g' ∧ ∀ d, has_mark h d Circle b → d ∉ pre → has_mark g' d Circle b)
        (λ d, ∀ a c, M b d a c) (N ∧ h = g)); [done|by apply flag_skip|]|].
      + intros pred d postd s1 N1 Ed [Hst1 Hk1] Hfl1. apply in_split_set in Ed as Hdb.
        assert (d ∉ pred) as Hdp.
        { pose proof (iter_nodup o 866 (mset h b Circle) Ho) as Hnd. rewrite Ed in Hnd. apply NoDup_app in Hnd as (_ & Hnd & _).
          intros H'. apply (Hnd d H'). set_solver +. }
        set (h1 := s1.1) in *. assert (has_mark h1 d Circle b) as Hdb1 by by apply Hk1.
        assert (refines g h1) as R1 by (eapply stale_refines; [apply P3_good|done..]). assert (mg_wf h1) as W1 by apply R1.
        eapply returns_mono; [apply (loop_flag g _ _ (λ _ g', stale P3 h1 g' ∧ ∀ d', d' ≠ d → has_mark h1 d' Circle b → has_mark g' d' Circle b)
          (λ p, M b d p.1 p.2) (N1 ∧ h1 = g)); [split; [constructor|done]|by apply flag_skip|]|].
        * intros prep [a c] postp s2 N2 Ep [Hst2 Hk2] Hfl2. cbn [fst snd].
          assert ((a, c) ∈ comb2 (o 869 (mset h1 b Directed ∩ mset h1 d Circle))) as Hin by (rewrite Ep; set_solver +).
          apply comb2_iter in Hin as (Ha & Hc & Hac); [|done]. rewrite elem_of_intersection in Ha, Hc.
          assert (refines h1 s2.1) as R2 by (eapply stale_refines; [apply P3_good|done..]).
          eapply returns_bind; [apply m_is_connected_pag; [apply R2|done]|]. intros x Hx. cbn beta in Hx.
          rewrite (rf_adj _ _ R2) in Hx. destruct x.
          -- simpl. split_and!; [done..|]. apply flag_skip; [done|]. intros _ (_ & _ & _ & _ & _ & Hn & _). apply Hn.
             apply (rf_adj _ _ R1). by apply Hx.
          -- rewrite replace_edge_mark_ok. cbn [mbind res_bind returns fst].
             assert (P3 h1 s2.1 [(d, b, Directed)]) as HP.
             { exists a, b, c, d. unfold has_mark. destruct Ha, Hc. split_and!; try done. intros H'. by apply Hx in H'. }
             split_and!.
             ++ apply (stale_step P3 h1 h1 s2.1 _ (stale_refl _ _) Hst2 HP).
             ++ intros d' Hne Hd'. apply replace_mark_spec. right. split; [|auto]. intros [? _]. congruence.
             ++ apply (flag_step g _ h1 _ (P3_good _ _ _ W1 R2 HP) s2.1). exists d, b, Directed. split; [set_solver +|]. by apply R1.
        * cbn beta. intros r [[Hst2 Hk2] Hfl2]. split; [split|].
          -- by eapply stale_trans.
          -- intros d' Hd' Hni. apply Hk2; [set_solver +Hni|]. apply Hk1; [done|set_solver +Hni].
          -- eapply flag_mono; [exact Hfl2|]. intros _ [[? Eh] HM]. split; [done|]. intros a c (H1 & H2 & H3 & H4 & H5 & H6 & H7).
             assert ((a, c) ∈ comb2 (o 869 (mset h1 b Directed ∩ mset h1 d Circle)) ∨ (c, a) ∈ comb2 (o 869 (mset h1 b Directed ∩ mset h1 d Circle))) as Hin.
             { apply comb2_iter; [done|..|done]; rewrite Eh; apply elem_of_intersection; done. }
             destruct Hin as [Hin|Hin]; apply HM in Hin; cbn [fst snd] in Hin; [|apply Msym in Hin]; by apply Hin.
      + cbn beta. intros r [[? _] Hfl']. split; [done|]. eapply flag_mono; [exact Hfl'|]. intros _ [[? Eh] HM]. split; [done|].
        intros d a c Hall. eapply (HM d); [|exact Hall]. rewrite iter_elem by done. rewrite Eh. apply Hall.
    - cbn beta. intros r [? Hfl]. split; [done|]. eapply flag_mono; [exact Hfl|]. intros _ [_ HN] (a & b & c & d & Hall).
      eapply (HN b); [|exact Hall]. rewrite iter_elem by done. destruct Hall as [Hall _]. by apply (mgw_in _ Hwf) in Hall as (_ & ? & _).
  Qed.

  Lemma rule_6_ok : returns (pag_rule_6 o g) (λ r, stale P6 g r.1 ∧ flag g (¬ r6_applies g) r).
  Proof.
    unfold pag_rule_6.
    eapply returns_mono; [apply (loop_flag g _ _ (λ _ g', stale P6 g g')
      (λ b, ∀ a c, und_edge g a b → ¬ has_mark g c Circle b) True); [constructor|by apply flag_start|]|].
    - intros _ b _ s N _ Hst Hfl. set (h := s.1) in *.
      assert (refines g h) as Rgh by (eapply stale_refines; [apply P6_good|done..]). assert (mg_wf h) as Wh by apply Rgh.
      set (cs := o 970 (mset h b Circle)).
      eapply returns_mono; [apply (loop_flag g _ _ (λ _ g', stale P6 h g') (λ a, ∀ c, c ∉ cs) (N ∧ h = g)); [constructor|by apply flag_skip|]|].
      + intros prea a posta s1 N1 Ea Hst1 Hfl1. apply in_split_set in Ea as Ha. rewrite elem_of_filter in Ha.
        eapply returns_mono; [apply (loop_flag g cs _ (λ _ g', stale P6 h g') (λ c, False) N1); [done|done|]|].
        * intros prec c postc s2 N2 Ec Hst2 Hfl2. apply in_split_set in Ec as Hcb.
          assert (refines h s2.1) as R2 by (eapply stale_refines; [apply P6_good|done..]).
          rewrite replace_edge_mark_ok. cbn [mbind res_bind returns fst].
          assert (P6 h s2.1 [(c, b, Tail)]) as HP by (exists a, b, c; unfold und_edge, has_mark; tauto).
          split; [apply (stale_step P6 h h s2.1 _ (stale_refl _ _) Hst2 HP)|].
          apply (flag_step g _ h _ (P6_good _ _ _ Wh R2 HP) s2.1). exists c, b, Tail. split; [set_solver +|]. by apply Rgh.
        * cbn beta. intros r [? Hfl2]. split; [done|]. eapply flag_mono; [exact Hfl2|]. intros _ [? HM]. split; [done|]. intros c Hc. by eapply HM.
      + cbn beta. intros r [? Hfl1]. split; [by eapply stale_trans|]. eapply flag_mono; [exact Hfl1|]. intros _ [[? Eh] HM]. split; [done|].
        intros a c [H1 H2] H3. eapply (HM a).
        * rewrite iter_elem, elem_of_filter, Eh by done. done.
        * subst cs. rewrite iter_elem, Eh by done. exact H3.
    - cbn beta. intros r [? Hfl]. split; [done|]. eapply flag_mono; [exact Hfl|]. intros _ [_ HN] (a & b & c & H1 & H2).
      eapply (HN b); [|done..]. rewrite iter_elem by done. by apply (mgw_in _ Hwf) in H2 as (_ & ? & _).
  Qed.

  Lemma rule_7_ok : returns (pag_rule_7 o g) (λ r, stale P7 g r.1 ∧ flag g (¬ r7_applies g) r).
  Proof.
    unfold pag_rule_7.
    eapply returns_mono; [apply (loop_flag g _ _ (λ _ g', stale P7 g g')
      (λ b, ∀ a c, has_mark g a Circle b → has_mark g b Tail a → has_mark g c Circle b → a ≠ c → mg_adj g a c) True); [constructor|by apply flag_start|]|].
    - intros _ b _ s N _ Hst Hfl. set (h := s.1) in *.
      assert (refines g h) as Rgh by (eapply stale_refines; [apply P7_good|done..]). assert (mg_wf h) as Wh by apply Rgh.
      set (cs := o 989 (mset h b Circle)).
      eapply returns_mono; [apply (loop_flag g _ _ (λ _ g', stale P7 h g') (λ a, ∀ c, c ∈ cs → a ≠ c → mg_adj g a c) (N ∧ h = g)); [constructor|by apply flag_skip|]|].
      + intros prea a posta s1 N1 Ea Hst1 Hfl1. apply in_split_set in Ea as Ha. rewrite elem_of_filter in Ha.
        eapply returns_mono; [apply (loop_flag g cs _ (λ _ g', stale P7 h g') (λ c, a ≠ c → mg_adj g a c) N1); [done|done|]|].
        * intros prec c postc s2 N2 Ec Hst2 Hfl2. apply in_split_set in Ec as Hcb.
          assert (refines h s2.1) as R2 by (eapply stale_refines; [apply P7_good|done..]).
          destruct (decide (a = c)) as [->|Hac].
          { simpl. split; [done|]. by apply flag_skip. }
          eapply returns_bind; [apply m_is_connected_pag; [apply R2|done]|]. intros x Hx. cbn beta in Hx.
          rewrite (rf_adj _ _ R2), (rf_adj _ _ Rgh) in Hx. destruct x.
          { simpl. split; [done|]. apply flag_skip; [done|]. intros _ _. by apply Hx. }
          rewrite replace_edge_mark_ok. cbn [mbind res_bind returns fst].
          assert (P7 h s2.1 [(c, b, Tail)]) as HP.
          { exists a, b, c. unfold has_mark in *. destruct Ha. split_and!; try done. rewrite (rf_adj _ _ Rgh). intros H'. by apply Hx in H'. }
          split; [apply (stale_step P7 h h s2.1 _ (stale_refl _ _) Hst2 HP)|].
          apply (flag_step g _ h _ (P7_good _ _ _ Wh R2 HP) s2.1). exists c, b, Tail. split; [set_solver +|]. by apply Rgh.
        * cbn beta. intros r [? Hfl2]. split; [done|]. eapply flag_mono; [exact Hfl2|]. done.
      + cbn beta. intros r [? Hfl1]. split; [by eapply stale_trans|]. eapply flag_mono; [exact Hfl1|]. intros _ [[? Eh] HM]. split; [done|].
        intros a c H1 H2 H3 H4. eapply (HM a).
        * rewrite iter_elem, elem_of_filter, Eh by done. done.
        * subst cs. rewrite iter_elem, Eh by done. exact H3.
        * done.
    - cbn beta. intros r [? Hfl]. split; [done|]. eapply flag_mono; [exact Hfl|]. intros _ [_ HN] (a & b & c & H1 & H2 & H3 & H4 & H5).
      apply H5. eapply (HN b); [|done..]. rewrite iter_elem by done. by apply (mgw_in _ Hwf) in H1 as (_ & ? & _).
  Qed.

  Lemma rule_8_ok : returns (pag_rule_8 o g) (λ r, stale P8 g r.1 ∧ flag g (¬ r8_applies g) r).
  Proof.
    unfold pag_rule_8.
    set (M := λ b a c, ¬ (has_mark g b Tail a ∧ (has_mark g a Directed b ∨ has_mark g a Circle b) ∧ dir_edge g b c ∧
      has_mark g a Directed c ∧ has_mark g c Circle a)).
    eapply returns_mono; [apply (loop_flag g _ _ (λ _ g', stale P8 g g') (λ b, ∀ a c, M b a c) True); [constructor|by apply flag_start|]|].
    - intros _ b _ s N _ Hst Hfl. set (h := s.1) in *.
      assert (refines g h) as Rgh by (eapply stale_refines; [apply P8_good|done..]). assert (mg_wf h) as Wh by apply Rgh.
      set (cs := o 1013 (filter (λ c, b ∈ mset h c Directed) (mset h b Tail))).
      eapply returns_mono; [apply (loop_flag g _ _ (λ _ g', stale P8 h g') (λ a, ∀ c, c ∈ cs → M b a c) (N ∧ h = g)); [constructor|by apply flag_skip|]|].
      + intros prea a posta s1 N1 Ea Hst1 Hfl1. apply in_split_set in Ea as Ha. rewrite elem_of_filter, elem_of_union in Ha.
        eapply returns_mono; [apply (loop_flag g _ _ (λ _ g', stale P8 h g') (λ c, M b a c) N1); [done|done|]|].
        * intros prec c postc s2 N2 Ec Hst2 Hfl2. apply in_split_set in Ec as Hcb. rewrite elem_of_filter in Hcb.
          assert (refines h s2.1) as R2 by (eapply stale_refines; [apply P8_good|done..]).
          rewrite is_edge_pag. cbn [mbind res_bind]. pose proof (edge_is_spec s2.1 a c Circle Directed) as Hx.
          destruct (edge_is s2.1 a c Circle Directed); cbn [negb].
          2:{ simpl. split; [done|]. apply flag_skip; [done|]. intros E (_ & _ & _ & H4 & H5). rewrite E in Hx.
              assert (false = true) by by apply Hx. done. }
          destruct (proj1 Hx eq_refl) as [Hx1 Hx2].
          rewrite replace_edge_mark_ok. cbn [mbind res_bind returns fst].
          assert (P8 h s2.1 [(c, a, Tail)]) as HP.
          { exists a, b, c. unfold dir_edge, has_mark in *. destruct Ha, Hcb. split_and!; try done. }
          split; [apply (stale_step P8 h h s2.1 _ (stale_refl _ _) Hst2 HP)|].
          apply (flag_step g _ h _ (P8_good _ _ _ Wh R2 HP) s2.1). exists c, a, Tail. split; [set_solver +|]. apply Rgh. by apply R2.
        * cbn beta. intros r [? Hfl2]. split; [done|]. eapply flag_mono; [exact Hfl2|]. done.
      + cbn beta. intros r [? Hfl1]. split; [by eapply stale_trans|]. eapply flag_mono; [exact Hfl1|]. intros _ [[? Eh] HM]. split; [done|].
        intros a c Hall. eapply (HM a); [..|exact Hall].
        * rewrite iter_elem, elem_of_filter, elem_of_union, Eh by done. by destruct Hall as (? & ? & _).
        * subst cs. rewrite iter_elem, elem_of_filter, Eh by done. by destruct Hall as (_ & _ & [? ?] & _).
    - cbn beta. intros r [? Hfl]. split; [done|]. eapply flag_mono; [exact Hfl|]. intros _ [_ HN] (a & b & c & Hall).
      eapply (HN b); [|exact Hall]. rewrite iter_elem by done. destruct Hall as (H1 & _). by apply (mgw_in _ Hwf) in H1 as (? & _).
  Qed.
End rules.
