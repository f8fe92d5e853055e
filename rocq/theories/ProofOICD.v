(** ICD with a causal order: invariants. *)
From Verif Require Import Base BaseLemmas Paths ModelGraph Spec ModelMixed SpecMixed ProofMixed ProofMixed2 ProofPDAG ProofPDAG2
  ModelPC SpecPC ProofPC ModelPAG SpecPAG ProofPAG ProofPAG2 ProofPAGR ProofPAGR2 ProofPAGU ProofPAGX
  ModelPDS SpecPDS ProofPDS ProofPDS2 ProofPDS3 ProofPDS4 ProofPDS5 ModelFCI SpecFCI ProofFCI ProofFCI2 ProofFCI3 ProofFCI5 ModelOICD SpecOICD.

(** ** positions *)
Lemma before_take ord b base a : NoDup ord → ord !! b = Some base → a ∈ take b ord ↔ before ord a base.
Proof.
  intros Hnd Hb. split.
  - intros Ha. apply elem_of_list_split in Ha as (l1 & l2 & E). exists l1, l2, (drop (S b) ord).
    rewrite <-(take_drop_middle ord b base Hb) at 1. rewrite E. by rewrite <-app_assoc.
  - intros (l1 & l2 & l3 & E). assert (b = length (l1 ++ a :: l2)) as ->.
    { eapply NoDup_lookup; [exact Hnd|exact Hb|]. rewrite E. replace (l1 ++ a :: l2 ++ base :: l3) with ((l1 ++ a :: l2) ++ base :: l3) by by rewrite <-app_assoc.
      rewrite lookup_app_r by lia. by rewrite Nat.sub_diag. }
    rewrite E. replace (l1 ++ a :: l2 ++ base :: l3) with ((l1 ++ a :: l2) ++ base :: l3) by by rewrite <-app_assoc.
    rewrite take_app. set_solver +.
Qed.
Lemma before_in ord a b : before ord a b → a ∈ ord ∧ b ∈ ord.
Proof. intros (l1 & l2 & l3 & ->). set_solver +. Qed.
Lemma before_ne ord a b : NoDup ord → before ord a b → a ≠ b.
Proof.
  intros Hnd (l1 & l2 & l3 & ->) <-. apply NoDup_app in Hnd as (_ & _ & Hnd). apply NoDup_cons in Hnd as [Hn _]. apply Hn. set_solver +.
Qed.
Lemma before_index ord a b : before ord a b → ∃ i, 1 ≤ i < length ord ∧ ord !! i = Some b.
Proof.
  intros (l1 & l2 & l3 & E). exists (length (l1 ++ a :: l2)). rewrite app_length. cbn [length]. split.
  - rewrite E, app_length. cbn [length]. rewrite app_length. cbn [length]. lia.
  - rewrite E. replace (l1 ++ a :: l2 ++ b :: l3) with ((l1 ++ a :: l2) ++ b :: l3) by by rewrite <-app_assoc.
    rewrite lookup_app_r; rewrite app_length; cbn [length]; [|lia]. by rewrite Nat.sub_diag.
Qed.
Lemma before_total ord a b : a ∈ ord → b ∈ ord → a ≠ b → before ord a b ∨ before ord b a.
Proof.
  intros (l1 & l2 & ->)%elem_of_list_split Hb Hne. apply elem_of_app in Hb as [Hb|Hb].
  - right. apply elem_of_list_split in Hb as (k1 & k2 & ->). exists k1, k2, l2. by rewrite <-app_assoc.
  - left. apply elem_of_cons in Hb as [?|Hb]; [done|]. apply elem_of_list_split in Hb as (k1 & k2 & ->). by exists l1, k1, k2.
Qed.
Lemma before_asym ord a b : NoDup ord → before ord a b → ¬ before ord b a.
Proof.
  intros Hnd Hab Hba. destruct (before_index _ _ _ Hab) as (i & _ & Hi). destruct (before_index _ _ _ Hba) as (j & _ & Hj).
  apply (before_take _ _ _ _ Hnd Hi) in Hab. apply (before_take _ _ _ _ Hnd Hj) in Hba.
  apply elem_of_take in Hab as (j' & Hj' & ?). apply elem_of_take in Hba as (i' & Hi' & ?).
  assert (j = j') by by eapply NoDup_lookup. assert (i = i') by by eapply NoDup_lookup. lia.
Qed.
Lemma elem_causal_pairs ord a b : NoDup ord → (a, b) ∈ causal_pairs ord ↔ before ord a b.
Proof.
  intros Hnd. unfold causal_pairs. rewrite elem_of_list_bind. split.
  - intros (i & Hin & Hi). destruct (ord !! i) as [x|] eqn:E; [|by apply elem_of_nil in Hin].
    apply elem_of_list_fmap in Hin as (a' & [= -> ->] & Ha). by apply (before_take ord i).
  - intros H. destruct (before_index _ _ _ H) as (i & Hr & Hi). exists i. split; [|apply elem_of_seq; lia].
    rewrite Hi. apply elem_of_list_fmap. exists a. split; [done|]. by apply (before_take ord i b).
Qed.

Section ordered.
  Context (o : order) (Ho : iter_ok o) (ci : citest) (V : nset) (ord : list node).
  Context (Hnd : NoDup ord) (HV : list_to_set ord = V).

  Lemma ord_V a : a ∈ ord ↔ a ∈ V.
  Proof using HV. rewrite <-HV. by rewrite elem_of_list_to_set. Qed.
  Lemma ord_len : length ord = size V.
  Proof using HV Hnd. rewrite <-HV. symmetry. by apply size_list_to_set. Qed.

  (** ** the orientation *)
  Lemma o_reset_ok g : mg_wf g → mnodes g = V → returns (o_reset ord g) (λ h, mnodes h = V ∧ mg_wf h ∧
    (∀ a b, mg_adj h a b ↔ mg_adj g a b) ∧
    ∀ a b, before ord a b → mg_adj g a b → (∀ k, has_mark h a k b ↔ k = Directed) ∧ ∀ k, has_mark h b k a ↔ k = Circle).
  Proof using Hnd HV.
    intros W N. unfold o_reset.
    eapply returns_mono; [apply (for_returns_pre _ _ _ (λ pre h, mnodes h = V ∧ mg_wf h ∧ (∀ a b, mg_adj h a b ↔ mg_adj g a b) ∧
      ∀ a b, (a, b) ∈ pre → mg_adj g a b → (∀ k, has_mark h a k b ↔ k = Directed) ∧ ∀ k, has_mark h b k a ↔ k = Circle))|].
    - split; [done|]. split; [done|]. split; [done|]. intros a b H. by apply elem_of_nil in H.
    - intros pre [a b] post h E (Nh & Wh & Ah & Hpre). assert (before ord a b) as Hab.
      { apply elem_causal_pairs; [done|]. rewrite E. set_solver +. }
      assert (∀ a' b', (a', b') ∈ pre → before ord a' b') as Hbp.
      { intros a' b' H. apply elem_causal_pairs; [done|]. rewrite E. apply elem_of_app. by left. }
      pose proof (before_ne _ _ _ Hnd Hab) as Hne.
      eapply returns_bind; [by apply m_is_connected_pag|]. cbn beta. intros c Hc. destruct c.
      2: { cbn [returns]. split; [done|]. split; [done|]. split; [done|]. intros a' b' [H|H%elem_of_list_singleton]%elem_of_app Hadj; [by apply Hpre|].
        injection H as -> ->. apply Ah, Hc in Hadj. done. }
      assert (mg_adj h a b) as Hh by by apply Hc. assert (mg_adj h b a) as Hh' by (apply mg_adj_sym; [apply Wh|done]).
      rewrite replace_edge_mark_ok. cbn [mbind res_bind]. rewrite replace_edge_mark_ok. cbn [returns].
      set (h1 := replace_mark_ PAG_T h a b Directed). set (h2 := replace_mark_ PAG_T h1 b a Circle).
      assert (mg_wf h1) as W1 by by apply mg_wf_replace.
      assert (mg_adj h1 b a) as Hh1. { destruct Hh' as [k Hk]. exists k. apply replace_mark_spec. right. split; [|done]. intros [? ?]. congruence. }
      assert (∀ x k y, has_mark h2 x k y ↔ (x = b ∧ y = a ∧ k = Circle) ∨ (¬ (x = b ∧ y = a) ∧ ((x = a ∧ y = b ∧ k = Directed) ∨ (¬ (x = a ∧ y = b) ∧ has_mark h x k y)))) as M.
      { intros x k y. unfold h2. rewrite replace_mark_spec. unfold h1. rewrite replace_mark_spec. done. }
      split; [unfold h2, h1; by rewrite !replace_mark_nodes|]. split; [by apply mg_wf_replace|]. split.
      + intros x y. rewrite <-Ah. unfold mg_adj at 1. setoid_rewrite M. split.
        * intros (k & [(-> & -> & _)|[_ [(-> & -> & _)|[_ H]]]]); [done|done|by exists k].
        * intros (k & Hk). destruct (decide (x = b ∧ y = a)) as [[-> ->]|]; [exists Circle; by left|].
          destruct (decide (x = a ∧ y = b)) as [[-> ->]|]; [exists Directed; right; split; [done|by left]|]. exists k. right. split; [done|]. by right.
      + intros x y [H|H%elem_of_list_singleton]%elem_of_app Hadj.
        * destruct (Hpre x y H Hadj) as [H1 H2]. pose proof (Hbp _ _ H) as Hxy. pose proof (before_asym _ _ _ Hnd Hab) as Has.
          pose proof (before_asym _ _ _ Hnd Hxy) as Hasx. pose proof (before_ne _ _ _ Hnd Hxy). split; intros k; rewrite M.
          -- rewrite H1. split; [intros [(-> & -> & _)|[_ [(-> & -> & ->)|[_ ->]]]]; done|]. intros ->. right. split; [intros [-> ->]; done|].
             destruct (decide (x = a ∧ y = b)); [left; tauto|]. by right.
          -- rewrite H2. split; [intros [(-> & -> & ->)|[_ [(-> & -> & _)|[_ ->]]]]; done|]. intros ->.
             destruct (decide (y = b ∧ x = a)); [left; tauto|]. right. split; [done|]. right. split; [intros [-> ->]; done|done].
        * injection H as -> ->. split; intros k; rewrite M.
          -- split; [intros [(-> & _)|[_ [(_ & _ & ->)|[[] _]]]]; done|]. intros ->. right. split; [intros [-> _]; done|]. by left.
          -- split; [intros [(_ & _ & ->)|[[] _]]; done|]. intros ->. by left.
    - cbn beta. intros h (Nh & Wh & Ah & Hpre). split; [done|]. split; [done|]. split; [done|]. intros a b Hab. apply Hpre. by apply elem_causal_pairs.
  Qed.

  Lemma o_orient_ok sb tc fuel any sep g : mg_wf g → mnodes g = V → sep_total sep g → size V * size V + 2 < fuel →
    returns (o_orient o sb tc fuel ord any sep g) (λ h, mnodes h = V ∧ mg_wf h ∧ (∀ a b, mg_adj h a b ↔ mg_adj g a b) ∧ forward ord h).
  Proof using Ho Hnd HV.
    intros W N T F. unfold o_orient. eapply returns_bind; [by apply o_reset_ok|]. cbn beta. intros h0 (N0 & W0 & A0 & M0).
    assert (sep_total sep h0) as T0 by (eapply sep_total_same; [|exact A0|exact T]; congruence).
    assert (forward ord h0) as F0. { intros a b Hab Hadj. apply A0 in Hadj. by apply (M0 a b Hab Hadj). }
    assert (∀ f h, mg_wf h → mnodes h = V → sep_total sep h → (∀ a b, mg_adj h a b ↔ mg_adj g a b) → forward ord h → keeps f fuel →
      returns (f sep h) (λ h', ∀ a b, has_mark h a Directed b → has_mark h' a Directed b) →
      returns (f sep h) (λ h', mnodes h' = V ∧ mg_wf h' ∧ sep_total sep h' ∧ (∀ a b, mg_adj h' a b ↔ mg_adj g a b) ∧ forward ord h')) as Hstep.
    { intros f h Wh Nh Th Ah Fh Hk Harr. eapply returns_mono; [apply (returns_and _ _ _ (Hk sep h Wh Th ltac:(by rewrite Nh)) Harr)|]. cbn beta.
      intros h' ((N' & W' & A') & M'). split; [congruence|]. split; [done|]. split; [by eapply sep_total_same|]. split; [intros a b; by rewrite A'|].
      intros a b Hab Hadj. apply M', Fh; [done|]. by apply A'. }
    assert (∀ rules h, (∀ i, i ∈ rules → 1 ≤ i ≤ 10) → mg_wf h → mnodes h = V → sep_total sep h → (∀ a b, mg_adj h a b ↔ mg_adj g a b) → forward ord h →
      returns (pag_orient o fuel sep h (Some rules)) (λ h', mnodes h' = V ∧ mg_wf h' ∧ sep_total sep h' ∧ (∀ a b, mg_adj h' a b ↔ mg_adj g a b) ∧ forward ord h')) as Hrules.
    { intros rules h Hr Wh Nh Th Ah Fh. apply (Hstep (λ sep h, pag_orient o fuel sep h (Some rules))); [done..|by apply keeps_rules|].
      apply orient_arrows; [done|done|done|by rewrite Nh|done]. }
    eapply returns_bind; [unfold orient_base; eapply returns_bind; [apply (Hstep (λ sep h, pag_v_structures o h sep)); [done..|by apply keeps_v|by apply v_structures_arrows]|]|].
    { cbn beta. intros h1 (? & ? & ? & ? & ?). apply Hrules; [|done..]. intros i Hi. set_unfold. lia. }
    cbn beta. intros h2 (N2 & W2 & T2 & A2 & F2). destruct any; [done|]. unfold orient_rest.
    eapply returns_bind.
    { instantiate (1 := λ h', mnodes h' = V ∧ mg_wf h' ∧ sep_total sep h' ∧ (∀ a b, mg_adj h' a b ↔ mg_adj g a b) ∧ forward ord h').
      destruct sb; [|done]. apply Hrules; [|done..]. intros i Hi. set_unfold. lia. }
    cbn beta. intros h3 (N3 & W3 & T3 & A3 & F3). destruct tc; [|done].
    eapply returns_mono; [apply Hrules; [|done..]|]. { intros i Hi. set_unfold. lia. }
    cbn beta. intros h4 (? & ? & _ & ? & ?). done.
  Qed.

  (** ** the invariant *)
  Record oinv (B : nat) (s : ostate) : Prop := {
    oi_ls : ls_inv ci V (os_ls s);
    oi_sep : ∀ a b, mg_adj (ls_graph (os_ls s)) a b → ls_sep (os_ls s) !! hkey a b = Some ∅;
    oi_dom : ∀ a b, before ord a b → is_Some (os_done s !! (b, a));
    oi_log : ordered_log ord (ls_log (os_ls s));
    oi_size : max_size B (ls_log (os_ls s));
  }.
  Record ostep (B : nat) (base : node) (s s' : ostate) : Prop := {
    ot_inv : oinv B s';
    ot_le : ls_le (os_ls s) (os_ls s');
    ot_log : ∀ e, e ∈ ls_log (os_ls s) → e ∈ ls_log (os_ls s');
    ot_done : ∀ b a, b ≠ base → os_done s' !! (b, a) = os_done s !! (b, a);
  }.
  Lemma ostep_refl B base s : oinv B s → ostep B base s s.
  Proof. intros I. constructor; [done|by intros a b|done|done]. Qed.
  Lemma ostep_trans B base s1 s2 s3 : ostep B base s1 s2 → ostep B base s2 s3 → ostep B base s1 s3.
  Proof.
    intros [I1 L1 G1 D1] [I2 L2 G2 D2]. constructor; [done| | |].
    - intros a b H. by apply L1, L2.
    - intros e He. by apply G2, G1.
    - intros b a Hb. by rewrite D2, D1.
  Qed.

  (** writing the flags of the base node *)
  Lemma ostep_flag B base a f s : before ord a base → oinv B s → ostep B base s (OState (os_ls s) (<[(base, a) := f]> (os_done s))).
  Proof using Hnd.
    intros Hab I. constructor; cbn [os_ls os_done]; [|by intros x y|done|].
    - constructor; cbn [os_ls os_done]; [apply I..| |apply I|apply I].
      intros x y Hxy. destruct (decide ((base, a) = (y, x))) as [->|Hn]; [rewrite lookup_insert; by eexists|]. rewrite lookup_insert_ne by done. by apply I.
    - intros b x Hb. rewrite lookup_insert_ne; [done|]. congruence.
  Qed.

  Lemma o_try_ok B a base c s : oinv B s → before ord a base → NoDup c → (∀ z, z ∈ c → before ord z base ∧ z ≠ a) → length c ≤ B →
    returns (o_try ci a base c s) (λ r, ostep B base s r.1 ∧ (a, base, c, r.2) ∈ ls_log (os_ls r.1) ∧
      (r.2 = true → ¬ mg_adj (ls_graph (os_ls r.1)) a base) ∧
      os_done r.1 = if r.2 then <[(base, a) := true]> (os_done s) else os_done s).
  Proof using Hnd HV.
    intros I Hab Hc Hz HB. unfold o_try. pose proof (before_in _ _ _ Hab) as [Ha Hb]. rewrite !ord_V in *.
    pose proof (before_ne _ _ _ Hnd Hab) as Hne.
    assert (good_cond V a base c) as Hgc. { split; [done|]. intros z Hzc. destruct (Hz z Hzc) as [H ?]. split; [apply ord_V; apply before_in in H; tauto|]. split; [done|]. exact (before_ne _ _ _ Hnd H). }
    pose proof (ls_try_ok ci V a base c (os_ls s) (oi_ls _ _ I) Ha Hb Hne Hgc) as H.
    unfold ls_try in *. set (q := ci (ls_log (os_ls s)) a base c) in *.
    assert (ordered_log ord ((a, base, c, q) :: ls_log (os_ls s))) as Hol.
    { intros i j c' b' [E|E]%elem_of_cons; [|by apply (oi_log _ _ I) in E]. injection E as -> -> -> _. split; [done|]. intros z Hzc. by apply Hz. }
    assert (max_size B ((a, base, c, q) :: ls_log (os_ls s))) as Hms.
    { intros i j c' b' [E|E]%elem_of_cons; [|by apply (oi_size _ _ I) in E]. injection E as -> -> -> _. done. }
    destruct q; cbn [returns fst snd mbind res_bind] in *; destruct H as (Il & Hle & _).
    - assert (¬ mg_adj (delete_edge PAG_T (ls_graph (os_ls s)) a base) a base) as Hn by (rewrite delete_edge_adj; intros [_ H]; apply H; by left).
      split.
      + constructor; cbn [os_ls os_done].
        * constructor; cbn [os_ls os_done ls_graph ls_sep ls_log].
          -- done.
          -- intros x y [Hxy Hp]%delete_edge_adj. unfold sep_set. rewrite lookup_insert_ne; [by apply I|]. by rewrite hkey_eq.
          -- intros x y Hxy. destruct (decide ((base, a) = (y, x))) as [->|Hn']; [rewrite lookup_insert; by eexists|]. rewrite lookup_insert_ne by done. by apply I.
          -- done.
          -- done.
        * done.
        * intros e He. by apply elem_of_list_further.
        * intros b x Hx. rewrite lookup_insert_ne; [done|]. congruence.
      + split; [apply elem_of_list_here|]. split; [by intros _|done].
    - split.
      + constructor; cbn [os_ls os_done].
        * constructor; cbn [os_ls os_done ls_graph ls_sep ls_log]; [done|apply I|apply I|done|done].
        * done.
        * intros e He. by apply elem_of_list_further.
        * done.
      + split; [apply elem_of_list_here|]. split; done.
  Qed.

  Lemma o_try0_ok B a base s : oinv B s → before ord a base → let s' := o_try0 ci a base s in
    ostep B base s s' ∧ ∃ q, (a, base, [], q) ∈ ls_log (os_ls s') ∧ (q = true → ¬ mg_adj (ls_graph (os_ls s')) a base) ∧
      os_done s' = if q then <[(base, a) := true]> (os_done s) else os_done s.
  Proof using Hnd HV.
    intros I Hab. cbn zeta. unfold o_try0. pose proof (before_in _ _ _ Hab) as [Ha Hb]. rewrite !ord_V in *.
    pose proof (before_ne _ _ _ Hnd Hab) as Hne. pose proof (oi_ls _ _ I) as Is.
    assert (good_cond V a base []) as Hgc. { split; [apply NoDup_nil_2|]. intros z Hzc. by apply elem_of_nil in Hzc. }
    pose proof (ls_try_ok ci V a base [] (os_ls s) Is Ha Hb Hne Hgc) as H.
    unfold ls_try in *. set (q := ci (ls_log (os_ls s)) a base []) in *. set (log := (a, base, [], q) :: ls_log (os_ls s)) in *.
    assert (ordered_log ord log) as Hol.
    { intros i j c' b' [E|E]%elem_of_cons; [|by apply (oi_log _ _ I) in E]. injection E as -> -> -> _. split; [done|]. intros z Hzc. by apply elem_of_nil in Hzc. }
    assert (max_size B log) as Hms.
    { intros i j c' b' [E|E]%elem_of_cons; [|by apply (oi_size _ _ I) in E]. injection E as -> -> -> _. cbn [length]. lia. }
    assert (∀ e, e ∈ ls_log (os_ls s) → e ∈ log) as Hlog by (intros e He; by apply elem_of_list_further).
    destruct q eqn:Eq; cbn [returns fst snd] in *; destruct H as (Il & Hle & _).
    - split.
      + constructor; cbn [os_ls os_done].
        * constructor; cbn [os_ls os_done ls_graph ls_sep ls_log]; [|intros x y [Hxy _]%delete_edge_adj; by apply I| |done|done].
          -- constructor; cbn [ls_graph ls_sep ls_log]; [apply Il|apply Il|apply Is|apply Il|apply Il|apply Il|].
             intros x y Hx Hy Hxy Hn. rewrite delete_edge_adj in Hn. destruct (decide (mg_adj (ls_graph (os_ls s)) x y)) as [Hadj|Hadj].
             ++ assert (is_pair x y a base) as Hp. { destruct (decide (hkey a base = hkey x y)) as [Hk|Hk]; rewrite hkey_eq in Hk; [done|]. by destruct Hn. }
                exists ∅. split; [by apply I|]. exists []. split; [intros z; set_solver +|]. destruct Hp as [[-> ->]|[-> ->]]; [left|right]; apply elem_of_list_here.
             ++ destruct (li_rem _ _ _ Is x y Hx Hy Hxy Hadj) as (Z & HZ & HT). exists Z. split; [done|]. by eapply tested_mono.
          -- intros x y Hxy. destruct (decide ((base, a) = (y, x))) as [->|Hn']; [rewrite lookup_insert; by eexists|]. rewrite lookup_insert_ne by done. by apply I.
        * done.
        * done.
        * intros b x Hx. rewrite lookup_insert_ne; [done|]. congruence.
      + exists true. split; [apply elem_of_list_here|]. split; [|done]. intros _. cbn [os_ls ls_graph]. rewrite delete_edge_adj. intros [_ H]. apply H. by left.
    - split.
      + constructor; cbn [os_ls os_done].
        * constructor; cbn [os_ls os_done ls_graph ls_sep ls_log]; [done|apply I|apply I|done|done].
        * done.
        * done.
        * done.
      + exists false. split; [apply elem_of_list_here|]. done.
  Qed.

  Lemma o_orient_graph_ok sb tc fuel any B base s : oinv B s → size V * size V + 2 < fuel →
    returns (o_orient_graph o sb tc fuel ord any s) (λ t, ostep B base s t ∧ os_done t = os_done s ∧
      (∀ a b, mg_adj (ls_graph (os_ls t)) a b ↔ mg_adj (ls_graph (os_ls s)) a b) ∧ ls_log (os_ls t) = ls_log (os_ls s) ∧ forward ord (ls_graph (os_ls t))).
  Proof using Hnd HV Ho.
    intros I F. pose proof (oi_ls _ _ I) as Is. unfold o_orient_graph, ls_orient.
    eapply returns_bind; [eapply returns_bind; [apply o_orient_ok; [apply Is|apply Is|by eapply ls_inv_total|done]|]|].
    { cbn beta. intros h (N & W & A & Fw). cbn [returns].
      instantiate (1 := λ t, ls_inv ci V t ∧ ls_sep t = ls_sep (os_ls s) ∧ ls_log t = ls_log (os_ls s) ∧ (∀ a b, mg_adj (ls_graph t) a b ↔ mg_adj (ls_graph (os_ls s)) a b) ∧ forward ord (ls_graph t)).
      cbn beta. split; [apply ls_inv_graph; [done|rewrite N; symmetry; apply Is|done|done]|]. done. }
    cbn beta. intros t (It & Es & El & A & Fw). cbn [returns os_done os_ls]. split; [|done].
    constructor; cbn [os_done os_ls]; [|intros a b; by rewrite A|by rewrite El|done].
    constructor; cbn [os_done os_ls]; [done| |apply I|rewrite El; apply I|rewrite El; apply I]. intros a b Hab. rewrite Es. apply I. by apply A.
  Qed.
End ordered.
