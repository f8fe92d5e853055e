(** How often B-RAI asks a question: every level of the tree multiplies the tests of RAI by the number of hypotheses. *)
From Coq Require Import QArith.
From Verif Require Import Base BaseLemmas ModelGraph Spec ModelMixed SpecMixed ModelPC SpecPC ModelRAI SpecRAI ModelBRAI SpecBRAI ModelFCI SpecFCI
  ProofPC ProofRAI ProofBRAI SpecPCCount ProofPCCount SpecICDCount ProofICDCount ProofRAICount.
Local Open Scope nat_scope.

(** ** [few_in] with another bound *)
Definition few_by (B : nset * nset → nat) (P : nset * nset → Prop) (l l' : list query) : Prop :=
  ∃ new, l' = new ++ l ∧ (∀ x, x ∈ new → P (question x)) ∧ ∀ q, occ q (question <$> new) ≤ B q.
Lemma few_by_refl B P l : few_by B P l l.
Proof. exists []. split; [done|]. split; [by intros ? ?%elem_of_nil|]. intros q. cbn. lia. Qed.
Lemma few_by_mono (B C : nset * nset → nat) (P Q : nset * nset → Prop) l l' : (∀ k, P k → Q k) → (∀ k, P k → B k ≤ C k) →
  few_by B P l l' → few_by C Q l l'.
Proof.
  intros H HB (new & E & HP & Hn). exists new. split; [done|]. split; [intros x Hx; by apply H, HP|]. intros q.
  destruct (decide (q ∈ question <$> new)) as [(x & -> & Hx)%elem_of_list_fmap|Hq]; [|rewrite occ_none by done; lia].
  etransitivity; [apply Hn|]. by apply HB, HP.
Qed.
Lemma few_by_seq B (P Q R : nset * nset → Prop) l1 l2 l3 : (∀ k, P k → Q k → False) → (∀ k, P k → R k) → (∀ k, Q k → R k) →
  few_by B P l1 l2 → few_by B Q l2 l3 → few_by B R l1 l3.
Proof.
  intros Hd H1 H2 (n1 & -> & P1 & N1) (n2 & -> & P2 & N2). exists (n2 ++ n1). split; [by rewrite app_assoc|]. split.
  - intros x [Hx|Hx]%elem_of_app; [by apply H2, P2|by apply H1, P1].
  - intros q. rewrite fmap_app, occ_app. destruct (decide (q ∈ question <$> n1)) as [(x & -> & Hx)%elem_of_list_fmap|Hq].
    + rewrite (occ_none (question x) (question <$> n2)); [apply N1|]. intros (y & Ey & Hy)%elem_of_list_fmap.
      apply (Hd (question x)); [by apply P1|]. rewrite Ey. by apply P2.
    + rewrite (occ_none q (question <$> n1)) by done. specialize (N2 q). lia.
Qed.
Lemma few_by_add B C P l1 l2 l3 : few_by B P l1 l2 → few_by C P l2 l3 → few_by (λ q, B q + C q) P l1 l3.
Proof.
  intros (n1 & -> & P1 & N1) (n2 & -> & P2 & N2). exists (n2 ++ n1). split; [by rewrite app_assoc|]. split.
  - intros x [Hx|Hx]%elem_of_app; auto.
  - intros q. rewrite fmap_app, occ_app. specialize (N1 q). specialize (N2 q). lia.
Qed.
Lemma for_few_by {A S : Type} B (l : S → list query) (P : A → nset * nset → Prop) xs (f : A → S → res S) s s' :
  (∀ l1 x l2, xs = l1 ++ x :: l2 → ∀ y k, y ∈ l1 → P y k → P x k → False) →
  (∀ x s s', x ∈ xs → f x s = Ok s' → few_by B (P x) (l s) (l s')) → for_ xs f s = Ok s' → few_by B (λ k, ∃ x, x ∈ xs ∧ P x k) (l s) (l s').
Proof.
  revert s. induction xs as [|x xs IH]; intros s Hd Hf E; cbn [for_] in E; [simplify_eq; apply few_by_refl|].
  destruct (f x s) as [s1| |] eqn:E1; [|done..]. cbn [mbind res_bind] in E.
  eapply (few_by_seq _ (P x) (λ k, ∃ y, y ∈ xs ∧ P y k)); [| | |by apply (Hf x); [left|]|apply IH; [| |done]].
  - intros k H1 (y & Hy & H2). apply elem_of_list_split in Hy as (l1 & l2 & ->). eapply (Hd (x :: l1) y l2); [done|left|exact H1|exact H2].
  - intros k Hk. exists x. split; [left|done].
  - intros k (y & Hy & Hk). exists y. split; [by right|done].
  - intros l1 y l2 -> z k Hz. apply (Hd (x :: l1) y l2); [done|by right].
  - intros y t t' Hy. apply Hf. by right.
Qed.
(** loops that repeat the same questions *)
Lemma for_few_times {A S : Type} B (l : S → list query) (P : nset * nset → Prop) (xs : list A) (f : A → S → res S) s s' :
  (∀ x s s', f x s = Ok s' → few_by B P (l s) (l s')) → for_ xs f s = Ok s' → few_by (λ q, length xs * B q) P (l s) (l s').
Proof.
  intros Hf. revert s. induction xs as [|x xs IH]; intros s E; cbn [for_] in E; [simplify_eq; apply few_by_refl|].
  destruct (f x s) as [s1| |] eqn:E1; [|done..]. cbn [mbind res_bind] in E.
  eapply few_by_mono; [done| |eapply few_by_add; [by eapply Hf|by apply IH]]. intros k _. cbn. lia.
Qed.

Section brai.
  Context (o : order) (Ho : iter_ok o) (ci : citest) (ow : bool) (lf : nat) (V : nset).
  Context (Hlf : size V * size V + 1 < lf) (scored custom : bool) (bdeu : graph → nset → Q) (K : nat).

  Lemma brai_rec_few fuel : ∀ en ex k s r, en ⊆ V → en ## ex → brai_rec o ci ow lf V scored custom bdeu K fuel en ex k s = Ok r →
    few_by (λ q, limit q * K ^ (S (size q.2) - k)) (λ q, about en ex q ∧ k ≤ size q.2) (rlg s) (rlg r.2).
  Proof using Ho Hlf.
    induction fuel as [|fuel IH]; intros en ex k s r Hen Hd; [done|]. cbn [brai_rec].
    destruct (rai_exit _ _ _ _) eqn:Ex; [destruct (make_leaf _ _ _ _ _ _ _ _ _); [|done..]; intros [= <-]; apply few_by_refl|].
    apply rai_exit_false in Ex as (n & Hn & _); [|done]. cbn zeta.
    destruct (for_ (seq 0 K) _ ([], s)) as [[cs sf]| |] eqn:E; [|done..]. cbn [mbind res_bind]. intros [= <-]. cbn [snd].
    change (rlg s) with ((λ x : list (list ggt * ggt) * pc_state, rlg x.2) ([], s)). change (rlg sf) with ((λ x : list (list ggt * ggt) * pc_state, rlg x.2) (cs, sf)).
    eapply few_by_mono; [exact (λ q Hq, Hq)| |eapply (for_few_times (λ q, limit q * K ^ (size q.2 - k)) (λ x : list (list ggt * ggt) * pc_state, rlg x.2)); [|exact E]].
    { intros q [_ Hq]. rewrite seq_length. replace (S (size q.2) - k) with (S (size q.2 - k)) by lia. rewrite Nat.pow_succ_r'. lia. }
    clear E. intros u [cs1 s0] [cs2 s3] E. cbn beta in E. cbn beta. cbn [snd].
    destruct (refine_and_orient _ _ _ _ _ _ _ _) as [s1| |] eqn:E1; [|done..]. cbn [mbind res_bind] in E. apply refine_few in E1; [|done|done].
    change (rlg (PCState (pd_copy (pc_graph s)) (pc_sep s) (pc_log s0))) with (rlg s0) in E1.
    pose proof (rai_split_apart o lf V (pc_graph s1) en Ho Hlf Hen ltac:(set_solver +Hn)) as Hs. destruct (rai_split _ _ _ _) as [[[d l] a]| |]; [|done..]. cbn [mbind res_bind returns] in *.
    destruct Hs as (Hde & -> & Hl & Hap). destruct (for_ l _ _) as [[ts s2]| |] eqn:E2; [|done..]. cbn [mbind res_bind] in E.
    destruct (brai_rec _ _ _ _ _ _ _ _ _ fuel d _ _ s2) as [[td s4]| |] eqn:E3; [|done..]. cbn [mbind res_bind] in E. injection E as <- <-. cbn [snd].
    apply IH in E3; [|set_solver +Hde Hen|set_solver +Hde Hd]. cbn [snd] in E3.
    set (B := λ q : nset * nset, limit q * K ^ (size q.2 - k)).
    assert (few_by B (λ q, about en ex q ∧ size q.2 = k) (rlg s0) (rlg s1)) as F1.
    { eapply (few_by_mono limit); [exact (λ q Hq, Hq)| |exact E1]. intros q [_ Hq]. unfold B. rewrite Hq, Nat.sub_diag. cbn. lia. }
    assert (few_by B (λ q, ∃ A, A ∈ l ∧ about A ex q ∧ S k ≤ size q.2) (rlg s1) (rlg s2)) as F2.
    { change (rlg s1) with ((λ x : list ggt * pc_state, rlg x.2) ([], s1)). change (rlg s2) with ((λ x : list ggt * pc_state, rlg x.2) (ts, s2)).
      eapply (for_few_by B (λ x : list ggt * pc_state, rlg x.2) (λ (A : nset) q, about A ex q ∧ S k ≤ size q.2)); [| |exact E2].
      - intros l1 A l2 El C q HC [(x & y & Eq & Hx & Hy) _] [(v & w & Eq' & Hu & Hv) _]. specialize (Hap l1 A l2 El C HC).
        assert (A ⊆ en ∖ d) as HA by (apply Hl; rewrite El; apply elem_of_app; right; left). assert (C ⊆ en ∖ d) as HC' by (apply Hl; rewrite El; apply elem_of_app; by left).
        rewrite Eq in Eq'. apply pair_eq in Eq' as [[-> ->]|[-> ->]]; clear Eq; set_solver +Hap HA HC' Hd Hx Hu Hy Hv.
      - intros A [ts1 t1] [ts2 t2] HA%Hl Ht. cbn beta in Ht. cbn beta. cbn [snd]. destruct (brai_rec _ _ _ _ _ _ _ _ _ _ _ _ _ _) as [[t' t3]| |] eqn:E4; [|done..].
        cbn [mbind res_bind] in Ht. injection Ht as <- <-. cbn [snd]. apply IH in E4; [|set_solver +HA Hen|set_solver +HA Hd]. exact E4. }
    assert (few_by B (λ q, about d (en ∖ d ∪ ex) q ∧ S k ≤ size q.2) (rlg s2) (rlg s4)) as F3 by exact E3.
    eapply (few_by_seq _ _ (λ q, about en ex q ∧ S k ≤ size q.2)); [| | |exact F1|eapply few_by_seq; [| | |exact F2|exact F3]].
    - intros q [_ H1] [_ H2]. lia.
    - intros q [H1 H2]. split; [done|lia].
    - intros q [H1 H2]. split; [done|lia].
    - intros q (A & HA & (x & y & Eq & Hx & Hy) & _) [(v & w & Eq' & Hu & Hv) _]. apply Hl in HA.
      assert (∀ z, z ∈ d → z ∈ A ∪ ex → False) as Hz.
      { intros z H1 [H2|H2]%elem_of_union; [by apply HA, elem_of_difference in H2 as [_ ?]|]. exact (Hd z (Hde z H1) H2). }
      rewrite Eq in Eq'. apply pair_eq in Eq' as [[-> ->]|[-> ->]]; [exact (Hz _ Hu (proj2 (elem_of_union _ _ _) (or_introl Hx)))|exact (Hz _ Hu Hy)].
    - intros q (A & HA & (x & y & Eq & Hx & Hy) & Hk). apply Hl in HA. split; [|done]. exists x, y. split; [done|]. set_solver +HA Hx Hy.
    - intros q [(x & y & Eq & Hx & Hy) Hk]. split; [|done]. exists x, y. split; [done|]. set_solver +Hde Hx Hy.
  Qed.

  Context (pick : nat → list score → nat).
  Lemma brai_learn_few t s g : brai_learn o ci ow lf V scored custom bdeu K pick = Ok (t, s, g) →
    ∀ q, asked q (pc_log s) ≤ limit q * K ^ S (size q.2).
  Proof using Ho Hlf.
    unfold brai_learn. destruct (assert_ _) as [[]| |]; [|done..]. cbn [mbind res_bind]. destruct (brai_rec _ _ _ _ _ _ _ _ _ _ _ _ _ _) as [[t' s']| |] eqn:E1; [|done..]. cbn [mbind res_bind].
    destruct (sample_cpdag _ _ _ _ _ _ _) as [r| |]; [|done..]. cbn [mbind res_bind]. intros [= <- <- _]. apply brai_rec_few in E1 as (new & E & _ & H); [|done|set_solver +].
    intros q. rewrite asked_occ. cbn [snd] in E. unfold rlg in E. rewrite E. cbn [pc_init pc_log fmap list_fmap]. rewrite app_nil_r. etransitivity; [apply H|]. by rewrite Nat.sub_0_r.
  Qed.
  Lemma brai_learn_log t s g : 0 < K → brai_learn o ci ow lf V true false bdeu K pick = Ok (t, s, g) → proper_log V (pc_log s).
  Proof using Ho Hlf.
    intros HK. unfold brai_learn. destruct (assert_ _) as [[]| |]; [|done..]. cbn [mbind res_bind].
    pose proof (brai_rec_spec o Ho ci ow lf V Hlf bdeu K lf HK V ∅ 0 (pc_init o V) []) as Hs.
    destruct (brai_rec _ _ _ _ _ _ _ _ _ _ _ _ _ _) as [[t' s']| |] eqn:E1; [|done..]. cbn [mbind res_bind].
    destruct (sample_cpdag _ _ _ _ _ _ _) as [r| |]; [|done..]. cbn [mbind res_bind]. intros [= _ <- _].
    destruct Hs as [_ (B & I & _)]; [pose proof (lf_V lf V Hlf); lia|lia|by apply rai_init_inv|set_solver +..|]. exact (ra_log _ _ _ _ I).
  Qed.
End brai.
