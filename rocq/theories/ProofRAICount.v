(** How often RAI asks a question: the recursive calls of one level ask about different pairs, the levels about sets of different sizes. *)
From Verif Require Import Base BaseLemmas ModelGraph Spec ModelMixed SpecMixed ModelPC SpecPC ModelRAI SpecRAI ModelFCI SpecFCI
  ProofPC ProofRAI ProofBRAI ProofPDS2 ProofFCI3 ProofFCI ProofFCI4 ProofFCI6 SpecPCCount ProofPCCount SpecICDCount ProofICDCount.

Definition limit (q : nset * nset) : nat := if decide (size q.2 ≤ 1) then 1 else 2.
Definition rlg (s : pc_state) : list query := (pc_log s).*1.

(** ** the questions that a computation adds *)
Definition few_in (P : nset * nset → Prop) (l l' : list query) : Prop :=
  ∃ new, l' = new ++ l ∧ (∀ x, x ∈ new → P (question x)) ∧ ∀ q, occ q (question <$> new) ≤ limit q.
Lemma few_refl P l : few_in P l l.
Proof. exists []. split; [done|]. split; [by intros ? ?%elem_of_nil|]. intros q. cbn. lia. Qed.
Lemma few_mono (P Q : nset * nset → Prop) l l' : (∀ k, P k → Q k) → few_in P l l' → few_in Q l l'.
Proof. intros H (new & E & HP & Hn). exists new. split; [done|]. split; [|done]. intros x Hx. by apply H, HP. Qed.
Lemma few_seq (P Q R : nset * nset → Prop) l1 l2 l3 : (∀ k, P k → Q k → False) → (∀ k, P k → R k) → (∀ k, Q k → R k) →
  few_in P l1 l2 → few_in Q l2 l3 → few_in R l1 l3.
Proof.
  intros Hd H1 H2 (n1 & -> & P1 & N1) (n2 & -> & P2 & N2). exists (n2 ++ n1). split; [by rewrite app_assoc|]. split.
  - intros x [Hx|Hx]%elem_of_app; [by apply H2, P2|by apply H1, P1].
  - intros q. rewrite fmap_app, occ_app. destruct (decide (q ∈ question <$> n1)) as [(x & -> & Hx)%elem_of_list_fmap|Hq].
    + rewrite (occ_none (question x) (question <$> n2)); [apply N1|]. intros (y & Ey & Hy)%elem_of_list_fmap.
      apply (Hd (question x)); [by apply P1|]. rewrite Ey. by apply P2.
    + rewrite (occ_none q (question <$> n1)) by done. specialize (N2 q). lia.
Qed.
Lemma for_few {A S : Type} (l : S → list query) (P : A → nset * nset → Prop) xs (f : A → S → res S) s s' :
  (∀ l1 x l2, xs = l1 ++ x :: l2 → ∀ y k, y ∈ l1 → P y k → P x k → False) →
  (∀ x s s', x ∈ xs → f x s = Ok s' → few_in (P x) (l s) (l s')) → for_ xs f s = Ok s' → few_in (λ k, ∃ x, x ∈ xs ∧ P x k) (l s) (l s').
Proof.
  revert s. induction xs as [|x xs IH]; intros s Hd Hf E; cbn [for_] in E; [simplify_eq; apply few_refl|].
  destruct (f x s) as [s1| |] eqn:E1; [|done..]. cbn [mbind res_bind] in E.
  eapply (few_seq (P x) (λ k, ∃ y, y ∈ xs ∧ P y k)); [| | |by apply (Hf x); [left|]|apply IH; [| |done]].
  - intros k H1 (y & Hy & H2). apply elem_of_list_split in Hy as (l1 & l2 & ->). eapply (Hd (x :: l1) y l2); [done|left|exact H1|exact H2].
  - intros k Hk. exists x. split; [left|done].
  - intros k (y & Hy & Hk). exists y. split; [by right|done].
  - intros l1 y l2 -> z k Hz. apply (Hd (x :: l1) y l2); [done|by right].
  - intros y t t' Hy. apply Hf. by right.
Qed.
(** loops over a list without repetitions *)
Lemma for_few' {A S : Type} (l : S → list query) (P : A → nset * nset → Prop) xs (f : A → S → res S) s s' :
  NoDup xs → (∀ x y k, x ∈ xs → y ∈ xs → P x k → P y k → x = y) →
  (∀ x s s', x ∈ xs → f x s = Ok s' → few_in (P x) (l s) (l s')) → for_ xs f s = Ok s' → few_in (λ k, ∃ x, x ∈ xs ∧ P x k) (l s) (l s').
Proof.
  intros Hnd Hd. apply for_few. intros l1 x l2 -> y k Hy H1 H2. apply NoDup_app in Hnd as (_ & Hnd & _). apply (Hnd y Hy).
  rewrite (Hd y x k); [left|apply elem_of_app; by left|apply elem_of_app; right; left|done|done].
Qed.

(** ** the tests of one pair *)
Lemma sets_limit k l1 l2 : NoDup l1 → NoDup l2 → (∀ c, c ∈ uniq (combs k l1 ++ combs k l2) → size (list_to_set c : nset) = k) ∧
  ∀ Z, occ Z ((list_to_set : list node → nset) <$> uniq (combs k l1 ++ combs k l2)) ≤ if decide (k ≤ 1) then 1 else 2.
Proof.
  intros H1 H2. destruct (two_sets k l1 l2 H1 H2) as [S1 S2]. split; [exact S1|]. intros Z. case_decide; [|apply S2]. destruct k as [|[|k]]; [| |lia].
  - apply occ_nodup. apply NoDup_fmap_2_strong; [|apply uniq_nodup].
    assert (∀ c, c ∈ uniq (combs 0 l1 ++ combs 0 l2) → c = []) as H0.
    { intros c Hc. eapply sublist_elem in Hc; [|apply uniq_go_sublist]. apply elem_of_app in Hc as [[_ Hc]%elem_of_combs|[_ Hc]%elem_of_combs]; by destruct c. }
    intros c c' ->%H0 ->%H0. done.
  - apply (one_sets l1 l2 H1 H2).
Qed.
Lemma pair_few ci i j k l1 l2 s s' : NoDup l1 → NoDup l2 → for_brk (uniq (combs k l1 ++ combs k l2)) (pc_try ci i j) s = Ok s' →
  few_in (λ q, q.1 = {[i; j]} ∧ size q.2 = k) (rlg s) (rlg s').
Proof.
  intros H1 H2 (pre & Hs & E)%pc_try_log. destruct (sets_limit k l1 l2 H1 H2) as [S1 S2]. unfold rlg. exists (reverse ((λ c, (i, j, c)) <$> pre)). split; [done|]. 
  assert (∀ x, x ∈ reverse ((λ c, (i, j, c)) <$> pre) → (question x).1 = {[i; j]} ∧ size (question x).2 = k) as Hx.
  { intros x (c & -> & Hc)%elem_of_reverse%elem_of_list_fmap. split; [done|]. cbn. apply S1. by eapply sublist_elem. }
  split; [exact Hx|]. intros [P Z]. unfold limit. cbn [snd]. destruct (decide (size Z = k)) as [HZ|HZ].
  - rewrite HZ. etransitivity; [|apply (S2 Z)]. rewrite fmap_reverse, (occ_perm _ _ _ (reverse_Permutation _)), <-list_fmap_compose.
    etransitivity; [|by apply occ_fmap_sublist]. etransitivity; [|apply (occ_pair P ({[i; j]} : nset))]. by rewrite <-list_fmap_compose.
  - rewrite occ_none; [lia|]. intros (x & Ex & Hq)%elem_of_list_fmap. apply Hx in Hq as [_ Hq]. by rewrite <-Ex in Hq.
Qed.

Lemma pair_eq (a b c d : nat) : ({[a; b]} : nset) = {[c; d]} → a = c ∧ b = d ∨ a = d ∧ b = c.
Proof.
  intros E. assert (a ∈ ({[c; d]} : nset)) as Ha by (rewrite <-E; set_solver +). assert (b ∈ ({[c; d]} : nset)) as Hb by (rewrite <-E; set_solver +).
  assert (c ∈ ({[a; b]} : nset)) as Hc by (rewrite E; set_solver +). assert (d ∈ ({[a; b]} : nset)) as Hd by (rewrite E; set_solver +).
  rewrite elem_of_union, !elem_of_singleton in *. naive_solver congruence.
Qed.

(** ** the stages *)
Section rai.
  Context (o : order) (Ho : iter_ok o) (ci : citest) (ow : bool) (lf : nat) (V : nset).
  Context (Hlf : size V * size V + 1 < lf).
  (** about an endogenous node and an endogenous or exogenous one *)
  Definition about (en ex : nset) (q : nset * nset) : Prop := ∃ x y, q.1 = {[x; y]} ∧ x ∈ en ∧ y ∈ en ∪ ex.

  Lemma exogenous_few en ex k s s' : en ## ex → refine_exogenous o ci ow en ex k s = Ok s' →
    few_in (λ q, (∃ x y, q.1 = {[x; y]} ∧ x ∈ en ∧ y ∈ ex) ∧ size q.2 = k) (rlg s) (rlg s').
  Proof using Ho.
    intros Hd E. unfold refine_exogenous in E. set (src := pd_copy _) in E.
    eapply few_mono; [|eapply (for_few' rlg (λ n q, (∃ y, q.1 = {[n; y]} ∧ y ∈ ex) ∧ size q.2 = k)); [| | |exact E]].
    - intros q (n & Hn & (y & H1 & H2) & H3). apply iter_elem in Hn; [|done]. split; [|done]. by exists n, y.
    - by apply iter_nodup.
    - intros x y q Hx Hy [(u & E1 & Hu) _] [(v & E2 & Hv) _]. rewrite iter_elem in Hx, Hy by done. rewrite E1 in E2. apply pair_eq in E2 as [[? _]|[-> ->]]; [done|]. set_solver +Hd Hx Hy Hu Hv.
    - intros n t t' Hn Ht. rewrite iter_elem in Hn by done.
      eapply few_mono; [|eapply (for_few' rlg (λ e q, q.1 = {[e; n]} ∧ size q.2 = k)); [| | |exact Ht]].
      + intros q (e & He & H1 & H2). rewrite iter_elem in He by done. split; [|done]. exists e. split; [rewrite H1; apply leibniz_equiv; set_solver +|done].
      + by apply iter_nodup.
      + intros x y q Hx Hy [E1 _] [E2 _]. rewrite E1 in E2. apply pair_eq in E2 as [[? _]|[? ?]]; congruence.
      + intros e u u' _ Hu. unfold rai_exogenous_pair in Hu. set (g := if ow then _ else _) in Hu. destruct (m_is_connected _ _ _ _) as [b| |]; [|done..]. cbn [mbind res_bind] in Hu.
        destruct (negb b); [injection Hu as <-; apply few_refl|]. eapply pair_few; [..|exact Hu]; by apply iter_nodup.
  Qed.
  Lemma endogenous_few en k s s' : refine_endogenous o ci ow en k s = Ok s' →
    few_in (λ q, (∃ x y, q.1 = {[x; y]} ∧ x ∈ en ∧ y ∈ en) ∧ size q.2 = k) (rlg s) (rlg s').
  Proof using Ho.
    intros E. unfold refine_endogenous in E. set (src := pd_copy _) in E. destruct (pairs_unique o 1483 en None Ho) as [Hnd Hu].
    eapply few_mono; [|eapply (for_few' rlg (λ (p : node * node) q, q.1 = {[p.1; p.2]} ∧ size q.2 = k)); [exact Hnd| | |exact E]].
    - intros q ([x y] & Hp & H1 & H2). apply comb2_iter in Hp as (? & ? & _); [|done]. split; [|done]. by exists x, y.
    - intros x y q Hx Hy [E1 _] [E2 _]. eapply (Hu q); [done|done|by split|by split].
    - intros [i j] t t' _ Ht. unfold rai_endogenous_pair in Ht. set (g := if ow then _ else _) in Ht. destruct (m_is_connected _ _ _ _) as [b| |]; [|done..]. cbn [mbind res_bind] in Ht.
      destruct (negb b); [injection Ht as <-; apply few_refl|]. eapply pair_few; [..|exact Ht]; by apply iter_nodup.
  Qed.
  Lemma rai_orient_log en s s' : rai_orient o lf en s = Ok s' → rlg s' = rlg s.
  Proof using. unfold rai_orient. destruct (rai_v_structures _ _ _ _); [|done..]. cbn [mbind res_bind]. destruct (maximally_orient _ _ _ _ _); [|done..]. by intros [= <-]. Qed.
  Lemma refine_few en ex k s s' : en ## ex → refine_and_orient o ci ow lf en ex k s = Ok s' → few_in (λ q, about en ex q ∧ size q.2 = k) (rlg s) (rlg s').
  Proof using Ho.
    intros Hd. unfold refine_and_orient. destruct (refine_exogenous _ _ _ _ _ _ _) as [s1| |] eqn:E1; [|done..]. cbn [mbind res_bind]. apply exogenous_few in E1; [|done].
    destruct (rai_orient _ _ _ s1) as [s2| |] eqn:E2; [|done..]. cbn [mbind res_bind]. apply rai_orient_log in E2. rewrite <-E2 in E1.
    destruct (refine_endogenous _ _ _ _ _ _) as [s3| |] eqn:E3; [|done..]. cbn [mbind res_bind]. apply endogenous_few in E3. intros ->%rai_orient_log.
    eapply few_seq; [| | |exact E1|exact E3].
    - intros q [(x & y & Eq & Hx & Hy) _] [(u & v & Eq' & Hu & Hv) _]. rewrite Eq in Eq'. apply pair_eq in Eq' as [[-> ->]|[-> ->]]; [exact (Hd _ Hv Hy)|exact (Hd _ Hu Hy)].
    - intros q [(x & y & Eq & Hx & Hy) Hk]. split; [|done]. exists x, y. split; [done|]. split; [done|]. set_solver +Hy.
    - intros q [(x & y & Eq & Hx & Hy) Hk]. split; [|done]. exists x, y. split; [done|]. split; [done|]. set_solver +Hy.
  Qed.

  Lemma rai_rec_few fuel : ∀ en ex k s s', en ⊆ V → en ## ex → rai_rec o ci ow lf fuel en ex k s = Ok s' →
    few_in (λ q, about en ex q ∧ k ≤ size q.2) (rlg s) (rlg s').
  Proof using Ho Hlf.
    induction fuel as [|fuel IH]; intros en ex k s s' Hen Hd; [done|]. cbn [rai_rec].
    destruct (rai_exit _ _ _ _) eqn:Ex; [intros [= <-]; apply few_refl|]. apply rai_exit_false in Ex as (n & Hn & _); [|done].
    destruct (refine_and_orient _ _ _ _ _ _ _ _) as [s1| |] eqn:E1; [|done..]. cbn [mbind res_bind]. apply refine_few in E1; [|done].
    pose proof (rai_split_apart o lf V (pc_graph s1) en Ho Hlf Hen ltac:(set_solver +Hn)) as Hs. destruct (rai_split _ _ _ _) as [[[d l] a]| |]; [|done..]. cbn [mbind res_bind returns] in *.
    destruct Hs as (Hde & -> & Hl & Hap). destruct (for_ _ _ s1) as [s2| |] eqn:E2; [|done..]. cbn [mbind res_bind]. intros E3.
    apply IH in E3; [|set_solver +Hde Hen|set_solver +Hde Hd].
    assert (few_in (λ q, ∃ A, A ∈ l ∧ about A ex q ∧ S k ≤ size q.2) (rlg s1) (rlg s2)) as F2.
    { eapply (for_few rlg (λ (A : nset) q, about A ex q ∧ S k ≤ size q.2)); [| |exact E2].
      - intros l1 A l2 El B q HB [(x & y & Eq & Hx & Hy) _] [(u & v & Eq' & Hu & Hv) _]. specialize (Hap l1 A l2 El B HB).
        assert (A ⊆ en ∖ d) as HA by (apply Hl; rewrite El; apply elem_of_app; right; left). assert (B ⊆ en ∖ d) as HB' by (apply Hl; rewrite El; apply elem_of_app; by left).
        rewrite Eq in Eq'. apply pair_eq in Eq' as [[-> ->]|[-> ->]]; clear Eq; set_solver +Hap HA HB' Hd Hx Hu Hy Hv.
      - intros A t t' HA%Hl Ht. eapply IH; [set_solver +HA Hen|set_solver +HA Hd|exact Ht]. }
    eapply (few_seq _ (λ q, about en ex q ∧ S k ≤ size q.2)); [| | |exact E1|eapply few_seq; [| | |exact F2|exact E3]].
    - intros q [_ H1] [_ H2]. lia.
    - intros q [H1 H2]. split; [done|lia].
    - intros q [H1 H2]. split; [done|lia].
    - intros q (A & HA & (x & y & Eq & Hx & Hy) & _) [(u & v & Eq' & Hu & Hv) _]. apply Hl in HA.
      assert (∀ z, z ∈ d → z ∈ A ∪ ex → False) as Hz.
      { intros z H1 [H2|H2]%elem_of_union; [by apply HA, elem_of_difference in H2 as [_ ?]|]. exact (Hd z (Hde z H1) H2). }
      rewrite Eq in Eq'. apply pair_eq in Eq' as [[-> ->]|[-> ->]]; [exact (Hz _ Hu (proj2 (elem_of_union _ _ _) (or_introl Hx)))|exact (Hz _ Hu Hy)].
    - intros q (A & HA & (x & y & Eq & Hx & Hy) & Hk). apply Hl in HA. split; [|done]. exists x, y. split; [done|]. set_solver +HA Hx Hy.
    - intros q [(x & y & Eq & Hx & Hy) Hk]. split; [|done]. exists x, y. split; [done|]. set_solver +Hde Hx Hy.
  Qed.
  Lemma rai_learn_few s : rai_learn o ci ow lf V = Ok s → ∀ q, asked q (pc_log s) ≤ limit q.
  Proof using Ho Hlf.
    unfold rai_learn. destruct (rai_rec _ _ _ _ _ _ _ _ _) as [s1| |] eqn:E1; [|done..]. cbn [mbind res_bind]. destruct (maximally_orient _ _ _ _ _) as [g| |]; [|done..]. cbn [mbind res_bind].
    destruct (re_orient _ _ _) as [h| |]; [|done..]. cbn [mbind res_bind]. intros [= <-]. cbn [pc_log]. apply rai_rec_few in E1 as (new & E & _ & H); [|done|set_solver +].
    intros q. rewrite asked_occ. unfold rlg in E. rewrite E. cbn [pc_init pc_log fmap list_fmap]. rewrite app_nil_r. apply H.
  Qed.
End rai.
