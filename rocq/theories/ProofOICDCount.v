(** How often OrderedICD asks a question: the stages of a call ask about different pairs or about sets of different sizes. *)
From Verif Require Import Base BaseLemmas ModelGraph Spec ModelMixed SpecMixed ModelPAG ModelPDS ModelPC SpecPC ModelFCI SpecFCI ModelOICD SpecOICD ProofOICD
  ProofExplain ProofPC ProofPDS2 ProofFCI3 ProofFCI ProofFCI4 ProofFCI6 SpecPCCount ProofPCCount SpecICDCount ProofICDCount.

Notation okey := (node * node * nset)%type.
Definition key (q : query) : okey := (q.1.1, q.1.2, list_to_set q.2).
Definition olg (s : ostate) : list query := (ls_log (os_ls s)).*1.

(** ** the queries that a computation adds *)
Definition new_in (P : okey → Prop) (l l' : list query) : Prop :=
  ∃ new, l' = new ++ l ∧ (∀ x, x ∈ new → P (key x)) ∧ NoDup (key <$> new).
Lemma new_refl P l : new_in P l l.
Proof. exists []. split; [done|]. split; [by intros ? ?%elem_of_nil|apply NoDup_nil_2]. Qed.
Lemma new_one (P : okey → Prop) q l : P (key q) → new_in P l (q :: l).
Proof. intros H. exists [q]. split; [done|]. split; [by intros ? ->%elem_of_list_singleton|apply NoDup_singleton]. Qed.
Lemma new_mono (P Q : okey → Prop) l l' : (∀ k, P k → Q k) → new_in P l l' → new_in Q l l'.
Proof. intros H (new & E & HP & Hn). exists new. split; [done|]. split; [|done]. intros x Hx. by apply H, HP. Qed.
Lemma new_seq (P Q R : okey → Prop) l1 l2 l3 : (∀ k, P k → Q k → False) → (∀ k, P k → R k) → (∀ k, Q k → R k) →
  new_in P l1 l2 → new_in Q l2 l3 → new_in R l1 l3.
Proof.
  intros Hd H1 H2 (n1 & -> & P1 & N1) (n2 & -> & P2 & N2). exists (n2 ++ n1). split; [by rewrite app_assoc|]. split.
  - intros x [Hx|Hx]%elem_of_app; [by apply H2, P2|by apply H1, P1].
  - rewrite fmap_app. apply NoDup_app. split; [done|]. split; [|done]. intros k (x & -> & Hx)%elem_of_list_fmap (y & Ey & Hy)%elem_of_list_fmap.
    apply (Hd (key x)); [rewrite Ey; by apply P1|by apply P2].
Qed.
Section loops.
  Context {A S : Type} (l : S → list query) (P : A → okey → Prop).
  Lemma for_new xs (f : A → S → res S) s s' : NoDup xs → (∀ x y k, x ∈ xs → y ∈ xs → P x k → P y k → x = y) →
    (∀ x s s', x ∈ xs → f x s = Ok s' → new_in (P x) (l s) (l s')) → for_ xs f s = Ok s' → new_in (λ k, ∃ x, x ∈ xs ∧ P x k) (l s) (l s').
  Proof.
    revert s. induction xs as [|x xs IH]; intros s Hnd Hd Hf E; cbn [for_] in E; [simplify_eq; apply new_refl|].
    destruct (f x s) as [s1| |] eqn:E1; [|done..]. cbn [mbind res_bind] in E. apply NoDup_cons in Hnd as [Hx Hnd].
    eapply (new_seq (P x) (λ k, ∃ y, y ∈ xs ∧ P y k)); [| | |by apply (Hf x); [left|]|apply IH; [done| | |done]].
    - intros k H1 (y & Hy & H2). apply Hx. rewrite (Hd x y k); [done|left|by right|done|done].
    - intros k Hk. exists x. split; [left|done].
    - intros k (y & Hy & Hk). exists y. split; [by right|done].
    - intros y z k Hy Hz. apply Hd; by right.
    - intros y t t' Hy. apply Hf. by right.
  Qed.
  Lemma for_brk_new xs (f : A → S → res (S * bool)) s s' : NoDup xs → (∀ x y k, x ∈ xs → y ∈ xs → P x k → P y k → x = y) →
    (∀ x s s', x ∈ xs → f x s = Ok s' → new_in (P x) (l s) (l s'.1)) → for_brk xs f s = Ok s' → new_in (λ k, ∃ x, x ∈ xs ∧ P x k) (l s) (l s').
  Proof.
    revert s. induction xs as [|x xs IH]; intros s Hnd Hd Hf E; cbn [for_brk] in E; [simplify_eq; apply new_refl|].
    destruct (f x s) as [s1| |] eqn:E1; [|done..]. cbn [mbind res_bind] in E. apply NoDup_cons in Hnd as [Hx Hnd].
    apply Hf in E1; [|left]. destruct s1.2.
    { simplify_eq. eapply new_mono; [|exact E1]. intros k Hk. exists x. split; [left|done]. }
    eapply (new_seq (P x) (λ k, ∃ y, y ∈ xs ∧ P y k)); [| | |exact E1|apply IH; [done| | |done]].
    - intros k H1 (y & Hy & H2). apply Hx. rewrite (Hd x y k); [done|left|by right|done|done].
    - intros k Hk. exists x. split; [left|done].
    - intros k (y & Hy & Hk). exists y. split; [by right|done].
    - intros y z k Hy Hz. apply Hd; by right.
    - intros y t t' Hy. apply Hf. by right.
  Qed.
End loops.

(** ** the stages of a call *)
Section stages.
  Context (o : order) (Ho : iter_ok o) (ci : citest) (sb tc : bool) (fuel : nat) (ord : list node) (Hnd : NoDup ord) (mcs : option nat).
  (** about the b-th node, with r conditioning nodes *)
  Definition stage (b r : nat) (k : okey) : Prop := ord !! b = Some k.1.2 ∧ size k.2 = r.
  Lemma stage_b b b' r r' k : stage b r k → stage b' r' k → b = b'.
  Proof using Hnd. intros [H _] [H' _]. by eapply (NoDup_lookup ord). Qed.
  Lemma o_try_new a base c s r : o_try ci a base c s = Ok r → olg r.1 = (a, base, c) :: olg s.
  Proof using. unfold o_try. destruct (ls_try _ _ _ _ _) as [x| |] eqn:E; [|done..]. cbn [mbind res_bind]. intros [= <-]. unfold olg. cbn. exact (ls_try_log _ _ _ _ _ _ E). Qed.
  Lemma o_try0_new a base s : olg (o_try0 ci a base s) = (a, base, []) :: olg s.
  Proof using. unfold o_try0, olg. by destruct (ci _ _ _ _). Qed.
  Lemma o_orient_new any s s' : o_orient_graph o sb tc fuel ord any s = Ok s' → olg s' = olg s.
  Proof using. unfold o_orient_graph. destruct (ls_orient _ _) as [t| |] eqn:E; [|done..]. cbn [mbind res_bind]. intros [= <-]. unfold olg. cbn. exact (orient_log _ _ _ E). Qed.
  Lemma order_at_some b x : order_at ord b = Ok x → ord !! b = Some x.
  Proof using. unfold order_at. destruct (ord !! b); [by intros [= ->]|done]. Qed.

  Lemma o_r0_new b s s' : o_r0 ci ord b s = Ok s' → new_in (stage b 0) (olg s) (olg s').
  Proof using Hnd.
    unfold o_r0. destruct (order_at ord b) as [base| |] eqn:Eb; [|done..]. cbn [mbind res_bind]. apply order_at_some in Eb. intros E.
    eapply new_mono; [|eapply (for_new olg (λ a k, k.1.1 = a ∧ stage b 0 k)); [| | |exact E]].
    - intros k (a & _ & _ & H). exact H.
    - eapply sublist_nodup; [apply sublist_take|done].
    - intros x y k _ _ [Hx _] [Hy _]. congruence.
    - intros a t t' _ Ht. cbn beta in Ht. destruct (done_get t base a) as [d| |]; [|done..]; destruct d; cbn [mbind res_bind] in Ht; injection Ht as <-; [apply new_refl|].
      rewrite o_try0_new. apply new_one. split; [done|]. split; [done|]. by vm_compute.
  Qed.
  Lemma o_r1_new l1 l2 b s s' : o_r1 o ci ord l1 l2 b s = Ok s' → new_in (stage b 1) (olg s) (olg s').
  Proof using Ho.
    unfold o_r1. destruct (order_at ord b) as [base| |] eqn:Eb; [|done..]. cbn [mbind res_bind]. apply order_at_some in Eb. intros E.
    eapply new_mono; [|eapply (for_new olg (λ a k, k.1.1 = a ∧ stage b 1 k)); [| | |exact E]].
    - intros k (a & _ & _ & H). exact H.
    - by apply iter_nodup.
    - intros x y k _ _ [Hx _] [Hy _]. congruence.
    - intros a t t' _ Ht. cbn beta in Ht. destruct (m_is_connected _ _ _ _) as [c| |]; [|done..]. cbn [mbind res_bind] in Ht. destruct (negb c); [injection Ht as <-; apply new_refl|].
      destruct (done_get t base a) as [d| |]; [|done..]; destruct d; cbn [mbind res_bind] in Ht; [injection Ht as <-; apply new_refl|].
      eapply new_mono; [|eapply (for_brk_new olg (λ z k, k.1.1 = a ∧ stage b 1 k ∧ k.2 = {[z]})); [| | |exact Ht]].
      + intros k (z & _ & H1 & H2 & _). done.
      + by apply iter_nodup.
      + intros x y k _ _ (_ & _ & Hx) (_ & _ & Hy). rewrite Hx in Hy. set_solver +Hy.
      + intros z u u' _ Hu. rewrite (o_try_new _ _ _ _ _ Hu). apply new_one.
        assert (key (a, base, [z]) = (a, base, {[z]})) as -> by (unfold key; cbn [fst snd]; f_equal; apply leibniz_equiv; intros x; rewrite elem_of_list_to_set, elem_of_list_singleton, elem_of_singleton; done).
        split; [done|]. split; [|done]. split; [done|]. apply size_singleton.
  Qed.
  Lemma o_level_new l r b s s' : o_level o ci fuel ord l r b s = Ok s' → new_in (stage b r) (olg s) (olg s'.1).
  Proof using Ho Hnd.
    unfold o_level. destruct (order_at ord b) as [base| |] eqn:Eb; [|done..]. cbn [mbind res_bind]. apply order_at_some in Eb.
    destruct (create_pds_tree _ _ _ _ _ _) as [t| |]; [|done..]. cbn [mbind res_bind]. intros E.
    destruct (get_subsets_sets o t.1 t.2 r Ho) as [H1 H2]. pose proof (sort_perm (get_subsets_list o t.1 t.2 r)) as Hp. set (cs := sort_by_dist _) in *.
    assert (∀ c, c ∈ cs → size c.1 = r) as C1 by (intros c; rewrite Hp; apply H1).
    assert (NoDup cs.*1) as C2 by (by rewrite Hp). clear H1 H2 Hp.
    change (olg s) with ((λ s : ostate * bool, olg s.1) (s, true)). eapply new_mono; [|eapply (for_new (λ s : ostate * bool, olg s.1) (λ (ai : nat) k, ord !! ai = Some k.1.1 ∧ stage b r k)); [| | |exact E]].
    - intros k (a & _ & _ & H). exact H.
    - apply NoDup_seq.
    - intros x y k _ _ [Hx _] [Hy _]. by eapply (NoDup_lookup ord).
    - intros ai u u' _ Hu. cbn beta in Hu. destruct (order_at ord ai) as [a| |] eqn:Ea; [|done..]. cbn [mbind res_bind] in Hu. apply order_at_some in Ea.
      destruct (done_get u.1 base a) as [d| |]; [|done..]; destruct d; cbn [mbind res_bind] in Hu; [injection Hu as <-; apply new_refl|].
      cbn [fst snd os_ls] in Hu. destruct (m_is_connected _ _ _ _) as [c| |]; [|done..]. cbn [mbind res_bind] in Hu. destruct (negb c); [injection Hu as <-; apply new_refl|].
      change (olg u.1) with ((λ s : ostate * bool, olg s.1) (OState (os_ls u.1) (<[(base, a) := true]> (os_done u.1)), u.2)).
      eapply new_mono; [|eapply (for_brk_new (λ s : ostate * bool, olg s.1) (λ (c : nset * option nat) k, k.1.1 = a ∧ stage b r k ∧ k.2 = c.1)); [| | |exact Hu]].
      + intros k (z & _ & H1 & H2 & _). split; [|done]. by rewrite H1.
      + by eapply NoDup_fmap_1.
      + intros x y k Hx Hy (_ & _ & Ex) (_ & _ & Ey). rewrite Ex in Ey. apply elem_of_list_lookup in Hx as [i Hi], Hy as [j Hj].
        assert (i = j) as ->; [|congruence]. eapply (NoDup_lookup cs.*1); [done|rewrite list_lookup_fmap, Hi; reflexivity|]. rewrite list_lookup_fmap, Hj. cbn. congruence.
      + intros c0 v v' Hc Hv. cbn beta in Hv. case_decide; [injection Hv as <-; apply new_refl|].
        destruct (o_cond_possible_ancestor _ _ _ _ _ _ _) as [p| |]; [|done..]. cbn [mbind res_bind] in Hv. destruct (negb p); [injection Hv as <-; apply new_refl|].
        destruct (o_try _ _ _ _ _) as [w| |] eqn:Ew; [|done..]. cbn [mbind res_bind] in Hv. apply o_try_new in Ew.
        assert (olg v'.1.1 = olg w.1) as Ev by (destruct w.2; injection Hv as <-; done). rewrite Ev, Ew. apply new_one.
        assert (key (a, base, o l c0.1) = (a, base, c0.1)) as -> by (unfold key; cbn [fst snd]; f_equal; apply leibniz_equiv; intros x; rewrite elem_of_list_to_set; by apply iter_elem).
        split; [done|]. split; [|done]. split; [done|]. by apply C1.
  Qed.

  Lemma o_learn_node_new b s s' : o_learn_node o ci sb tc fuel ord mcs b s = Ok s' → new_in (λ k, ord !! b = Some k.1.2) (olg s) (olg s').
  Proof using Ho Hnd.
    unfold o_learn_node. destruct (order_at ord b) as [base| |] eqn:Eb; [|done..]. cbn [mbind res_bind]. cbn zeta.
    set (mx := match mcs with Some _ => _ | None => _ end).
    destruct (o_r0 _ _ _ _) as [s1| |] eqn:E1; [|done..]. cbn [mbind res_bind]. apply o_r0_new in E1.
    destruct (o_orient_graph _ _ _ _ _ _ s1) as [s2| |] eqn:E2; [|done..]. cbn [mbind res_bind]. apply o_orient_new in E2. rewrite <-E2 in E1.
    case_decide; [intros [= <-]; eapply new_mono; [|exact E1]; by intros k [? _]|].
    destruct (o_r1 _ _ _ _ _ _ _) as [s3| |] eqn:E3; [|done..]. cbn [mbind res_bind]. apply o_r1_new in E3.
    destruct (o_orient_graph _ _ _ _ _ _ s3) as [s4| |] eqn:E4; [|done..]. cbn [mbind res_bind]. apply o_orient_new in E4. rewrite <-E4 in E3.
    assert (new_in (λ k, ord !! b = Some k.1.2 ∧ size k.2 < 2) (olg s) (olg s4)) as E.
    { eapply new_seq; [| | |exact E1|exact E3].
      - intros k [_ H1] [_ H2]. lia.
      - intros k [H1 H2]. split; [done|lia].
      - intros k [H1 H2]. split; [done|lia]. }
    case_decide; [intros [= <-]; eapply new_mono; [|exact E]; by intros k [? _]|].
    intros E5. eapply new_seq; [| | |exact E|eapply (for_brk_new olg (stage b)); [apply NoDup_seq| | |exact E5]].
    - intros k [_ H1] (r & Hr%elem_of_seq & _ & H2). lia.
    - by intros k [? _].
    - by intros k (r & _ & ? & _).
    - intros x y k _ _ [_ H1] [_ H2]. congruence.
    - intros r t t' _ Ht. cbn beta in Ht. destruct (all_done _ _ _ _); [injection Ht as <-; apply new_refl|].
      destruct (o_level _ _ _ _ _ _ _ _) as [u| |] eqn:Eu; [|done..]. cbn [mbind res_bind] in Ht. apply o_level_new in Eu.
      destruct (o_orient_graph _ _ _ _ _ _ _) as [v| |] eqn:Ev; [|done..]. cbn [mbind res_bind] in Ht. apply o_orient_new in Ev. injection Ht as <-. cbn [fst]. by rewrite Ev.
  Qed.

  Lemma o_learn_new loc s s' : o_learn o ci sb tc fuel ord mcs loc s = Ok s' → new_in (λ _, True) (olg s) (olg s').
  Proof using Ho Hnd.
    unfold o_learn. destruct loc.
    - unfold o_learn_local. destruct (for_ _ _ _) as [s1| |] eqn:E; [|done..]. cbn [mbind res_bind]. intros ->%o_orient_new.
      eapply new_mono; [|eapply (for_new olg (λ b k, ord !! b = Some k.1.2)); [apply NoDup_seq| | |exact E]]; [done| |].
      + intros x y k _ _ Hx Hy. by eapply (NoDup_lookup ord).
      + intros b t t' _. apply o_learn_node_new.
    - unfold o_learn_global. set (n := size _). destruct (for_ _ _ s) as [s1| |] eqn:E1; [|done..]. cbn [mbind res_bind].
      destruct (o_orient_graph _ _ _ _ _ _ s1) as [s2| |] eqn:E2; [|done..]. cbn [mbind res_bind]. apply o_orient_new in E2.
      destruct (for_ _ _ s2) as [s3| |] eqn:E3; [|done..]. cbn [mbind res_bind].
      destruct (o_orient_graph _ _ _ _ _ _ s3) as [s4| |] eqn:E4; [|done..]. cbn [mbind res_bind]. apply o_orient_new in E4.
      destruct (for_brk _ _ _) as [s5| |] eqn:E5; [|done..]. cbn [mbind res_bind]. intros ->%o_orient_new.
      assert (∀ l r (f : nat → ostate → res ostate) t t', NoDup l → (∀ b t t', f b t = Ok t' → new_in (stage b r) (olg t) (olg t')) → for_ l f t = Ok t' → new_in (λ k, size k.2 = r) (olg t) (olg t')) as Hl.
      { intros l r f t t' Hl Hf Ef. eapply new_mono; [|eapply (for_new olg (λ b k, stage b r k)); [exact Hl| | |exact Ef]].
        - by intros k (b & _ & _ & ?).
        - intros x y k _ _. apply stage_b.
        - intros b u u' _. apply Hf. }
      apply (Hl _ 0) in E1; [|apply NoDup_seq|intros ???; apply o_r0_new]. apply (Hl _ 1) in E3; [|apply NoDup_seq|intros ???; apply o_r1_new].
      rewrite E2 in E3. rewrite <-E4 in E3.
      assert (new_in (λ k, size k.2 < 2) (olg s) (olg s4)) as E.
      { eapply new_seq; [| | |exact E1|exact E3]; cbn beta; intros; lia. }
      eapply new_seq; [| | |exact E|change (olg s4) with ((λ s : ostate * bool, olg s.1) (s4, true)); eapply (for_brk_new (λ s : ostate * bool, olg s.1) (λ r k, size k.2 = r)); [apply NoDup_seq| | |exact E5]].
      + intros k H1 (r & Hr%elem_of_seq & H2). cbn beta in *; lia.
      + done.
      + done.
      + intros x y k _ _ H1 H2. congruence.
      + intros r t t' _ Ht. cbn beta in Ht. destruct (for_ _ _ t) as [u| |] eqn:Eu; [|done..]. cbn [mbind res_bind] in Ht.
        assert (new_in (λ k, size k.2 = r) (olg t.1) (olg u.1)) as Hu.
        { eapply new_mono; [|eapply (for_new (λ s : ostate * bool, olg s.1) (λ b k, stage b r k)); [apply NoDup_seq| | |exact Eu]].
          - by intros k (b & _ & _ & ?).
          - intros x y k _ _. apply stage_b.
          - intros b v v' _ Hv. cbn beta in Hv. destruct (o_r_node _ _ _ _ _ _ _) as [w| |] eqn:Ew; [|done..]. cbn [mbind res_bind] in Hv. injection Hv as <-. cbn [fst].
            unfold o_r_node in Ew. destruct (order_at ord b); [|done..]. cbn [mbind res_bind] in Ew. destruct (all_done _ _ _ _); [injection Ew as <-; apply new_refl|].
            by apply o_level_new in Ew. }
        destruct u.2; [by injection Ht as <-|]. destruct (o_orient_graph _ _ _ _ _ _ _) as [v| |] eqn:Ev; [|done..]. cbn [mbind res_bind] in Ht. apply o_orient_new in Ev. injection Ht as <-. cbn [fst]. by rewrite Ev.
  Qed.
End stages.

(** ** all the questions about nodes in order, with k conditioning nodes *)
Definition okeys (ord : list node) (k : nat) : list okey :=
  c ← combs (k + 2) ord; match reverse c with [] => [] | base :: r => (λ a, (a, base, list_to_set r ∖ {[a]})) <$> r end.
Lemma okeys_length ord k : length (okeys ord k) = (k + 1) * choose (length ord) (k + 2).
Proof.
  unfold okeys. rewrite <-combs_length. assert (∀ c : list node, c ∈ combs (k + 2) ord → length c = k + 2) as H by (intros c; rewrite elem_of_combs; by intros [_ ?]).
  revert H. generalize (combs (k + 2) ord). intros l H. induction l as [|c l IH]; [cbn; lia|]. rewrite bind_cons, app_length, IH by (intros c' Hc'; apply H; by right).
  specialize (H c ltac:(left)). rewrite <-reverse_length in H. destruct (reverse c) as [|x r]; [cbn in H; lia|]. rewrite fmap_length. cbn in *. lia.
Qed.
Lemma in_okeys ord a base (Z : nset) : NoDup ord → before ord a base → (∀ z, z ∈ Z → before ord z base ∧ z ≠ a) → (a, base, Z) ∈ okeys ord (size Z).
Proof.
  intros Hnd Ha HZ. destruct (before_index _ _ _ Ha) as (b & _ & Hb). pose proof (take_drop_middle _ _ _ Hb) as E.
  set (W := {[a]} ∪ Z). set (r := filter (.∈ W) (take b ord)).
  assert (∀ x, x ∈ W → x ∈ take b ord) as HW.
  { intros x [->%elem_of_singleton|Hx]%elem_of_union; apply (before_take ord b base _ Hnd Hb); [done|by apply HZ]. }
  assert (list_to_set r = W) as Hr.
  { apply leibniz_equiv. intros x. unfold r. rewrite elem_of_list_to_set, elem_of_list_filter. split; [by intros [? _]|]. intros H. split; [done|by apply HW]. }
  assert (NoDup r) as Hnr by (apply NoDup_filter; eapply sublist_nodup; [apply sublist_take|done]).
  assert (length r = size Z + 1) as Hl.
  { rewrite <-(size_list_to_set (C := nset) r Hnr), Hr. unfold W. rewrite size_union, size_singleton; [lia|]. intros x ->%elem_of_singleton Hx. by apply HZ in Hx as [_ ?]. }
  unfold okeys. apply elem_of_list_bind. exists (r ++ [base]). split.
  - rewrite reverse_snoc. apply elem_of_list_fmap. exists a. split.
    + f_equal. assert (list_to_set (reverse r) = W) as Hrr by (rewrite <-Hr; apply list_to_set_perm_L, reverse_Permutation). rewrite Hrr. unfold W.
      assert (a ∉ Z) as Hna by (intros H; by apply HZ in H as [_ ?]). apply leibniz_equiv. set_solver +Hna.
    + apply elem_of_reverse. apply elem_of_list_filter. split; [unfold W; set_solver +|]. apply HW. unfold W. set_solver +.
  - apply elem_of_combs. split; [|rewrite app_length, Hl; cbn; lia]. rewrite <-E. apply sublist_app; [apply filter_sub|]. apply sublist_skip, sublist_nil_l.
Qed.

Lemma ordered_same ord i j c i' j' c' : NoDup ord → before ord i j → before ord i' j' → question (i, j, c) = question (i', j', c') → key (i, j, c) = key (i', j', c').
Proof.
  intros Hnd H H' E. unfold question, key in *. cbn [fst snd] in *. apply pair_equal_spec in E as [E1 E2]. rewrite E2.
  assert (i ∈ ({[i'; j']} : nset)) as Hi by (rewrite <-E1; set_solver +). assert (j ∈ ({[i'; j']} : nset)) as Hj by (rewrite <-E1; set_solver +).
  rewrite elem_of_union, !elem_of_singleton in Hi, Hj. pose proof (before_ne _ _ _ Hnd H) as Hne.
  destruct Hi as [->| ->], Hj as [->| ->]; try done. by apply (before_asym _ _ _ Hnd) in H.
Qed.

Lemma new_counts ord V log log' : NoDup ord → ordered_log ord log' → proper_log V log' → new_in (λ _, True) log.*1 log'.*1 →
  (∀ q, asked q log' ≤ asked q log + 1) ∧ ∀ k, count_size k log' ≤ count_size k log + (k + 1) * choose (length ord) (k + 2).
Proof.
  intros Hnd Hol Hpr (new & E & _ & Hn).
  assert (∀ x, x ∈ new → before ord x.1.1 x.1.2 ∧ NoDup x.2 ∧ ∀ z, z ∈ x.2 → before ord z x.1.2 ∧ z ≠ x.1.1) as Hx.
  { intros x Hx. assert (x ∈ log'.*1) as ([[[i j] c] b] & -> & He)%elem_of_list_fmap by (rewrite E; apply elem_of_app; by left). cbn.
    destruct (Hol i j c b He) as [H1 H2]. destruct (Hpr i j c b He) as (_ & _ & _ & H3 & H4). split; [done|]. split; [done|]. intros z Hz. split; [by apply H2|by apply H4]. }
  assert (NoDup new) as Hnn by (by eapply NoDup_fmap_1). split.
  - intros q. rewrite !asked_occ, E, fmap_app, occ_app. enough (occ q (question <$> new) ≤ 1) by lia. apply occ_nodup. apply NoDup_fmap_2_strong; [|done].
    intros [[i j] c] [[i' j'] c'] H1 H2 Eq. assert (key (i, j, c) = key (i', j', c')) as Ek.
    { apply (ordered_same ord); [done|by apply Hx in H1 as [? _]|by apply Hx in H2 as [? _]|done]. }
    apply elem_of_list_lookup in H1 as [n1 L1], H2 as [n2 L2]. assert (n1 = n2) as ->; [|congruence].
    eapply (NoDup_lookup (key <$> new)); [done|rewrite list_lookup_fmap, L1; reflexivity|]. rewrite list_lookup_fmap, L2. cbn [fmap option_fmap option_map]. congruence.
  - intros k. assert (∀ l : clog, count_size k l = length (filter (λ q : query, length q.2 = k) l.*1)) as Hc.
    { intros l. unfold count_size. induction l as [|e l IH]; [done|]. rewrite fmap_cons, !filter_cons. repeat case_decide; try done; cbn; congruence. }
    rewrite !Hc, E, filter_app, app_length. enough (length (filter (λ q : query, length q.2 = k) new) ≤ (k + 1) * choose (length ord) (k + 2)) by lia.
    rewrite <-okeys_length, <-(fmap_length key), <-(Nat.mul_1_l (length (okeys ord k))). apply length_occ.
    + intros x ([[i j] c] & -> & [Hk H]%elem_of_list_filter)%elem_of_list_fmap. apply Hx in H as (H1 & H2 & H3). cbn [fst snd] in *.
      subst k. rewrite <-(size_list_to_set (C := nset) c H2). apply in_okeys; [done|done|]. intros z Hz. apply H3. by apply elem_of_list_to_set in Hz.
    + intros x. etransitivity; [apply occ_fmap_sublist, filter_sub|by apply occ_nodup].
Qed.
