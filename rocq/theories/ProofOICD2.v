(** ICD with a causal order: the two ways of learning. *)
From Verif Require Import Base BaseLemmas Paths ModelGraph Spec ModelMixed SpecMixed ProofMixed ProofMixed2 ProofPDAG ProofPDAG2
  ModelPC SpecPC ProofPC ModelPAG SpecPAG ProofPAG ProofPAG2
  ModelPDS SpecPDS ProofPDS ProofPDS2 ProofPDS5 ModelFCI SpecFCI ProofFCI ProofFCI2 ProofFCI3 ProofFCI5 ModelOICD SpecOICD ProofOICD.

Lemma returns_self {A} (c : res A) P : returns c P → returns c (λ x, c = Ok x ∧ P x).
Proof. destruct c; cbn; [|done..]. done. Qed.

Section ordered.
  Context (o : order) (Ho : iter_ok o) (ci : citest) (V : nset) (ord : list node).
  Context (Hnd : NoDup ord) (HV : list_to_set ord = V).
  Notation oinv := (oinv ci V ord).
  Notation ostep := (ostep ci V ord).
  Notation lg s := (ls_log (os_ls s)).
  Notation gr s := (ls_graph (os_ls s)).

  (** none of the edges into the node was finished without having been removed *)
  Definition live (base : node) (s : ostate) : Prop := ∀ a, before ord a base → os_done s !! (base, a) = Some true → ¬ mg_adj (gr s) a base.
  Definition fresh (base : node) (s : ostate) : Prop := ∀ a, before ord a base → os_done s !! (base, a) = Some false.
  Lemma live_mono base s s' : (∀ a, os_done s' !! (base, a) = os_done s !! (base, a)) → ls_le (os_ls s) (os_ls s') → live base s → live base s'.
  Proof. intros Hd Hle H a Hab Ha. rewrite Hd in Ha. intros Hadj. by apply (H a Hab Ha), Hle. Qed.

  Lemma done_get_ok B s base a : oinv B s → before ord a base → returns (done_get s base a) (λ d, os_done s !! (base, a) = Some d).
  Proof. intros I Hab. unfold done_get. destruct (oi_dom _ _ _ _ _ I a base Hab) as [d ->]. done. Qed.
  Lemma order_at_ok b base : ord !! b = Some base → order_at ord b = Ok base.
  Proof. unfold order_at. by intros ->. Qed.

  (** ** no conditioning nodes *)
  Lemma o_r0_ok B b base s : oinv B s → ord !! b = Some base →
    returns (o_r0 ci ord b s) (λ t, ostep B base s t ∧ (live base s → live base t) ∧
      (fresh base s → ∀ a, before ord a base → ∃ q, (a, base, [], q) ∈ lg t)).
  Proof using Hnd HV.
    intros I Hb. unfold o_r0. rewrite (order_at_ok _ _ Hb). cbn [mbind res_bind].
    eapply returns_mono; [apply (for_returns_pre _ _ _ (λ pre t, ostep B base s t ∧ (live base s → live base t) ∧
      (∀ a, before ord a base → a ∉ pre → os_done t !! (base, a) = os_done s !! (base, a)) ∧
      (fresh base s → ∀ a, a ∈ pre → ∃ q, (a, base, [], q) ∈ lg t)))|].
    - split; [by apply ostep_refl|]. split; [done|]. split; [done|]. intros _ a H. by apply elem_of_nil in H.
    - intros pre a post t E (St & Lt & Dt & Tt). pose proof (ot_inv _ _ _ _ _ _ _ St) as It.
      assert (NoDup (take b ord)) as Hndt by (rewrite <-(take_drop b ord) in Hnd; by apply NoDup_app in Hnd as [? _]).
      assert (before ord a base) as Hab by (apply (before_take ord b); [done|done|]; rewrite E; set_solver +).
      assert (a ∉ pre) as Hap. { rewrite E in Hndt. apply NoDup_app in Hndt as (_ & Hd & _). intros Hin. apply (Hd a Hin). apply elem_of_list_here. }
      eapply returns_bind; [by apply (done_get_ok B)|]. cbn beta. intros [] Hd; cbv iota.
      + cbn [returns]. split; [done|]. split; [done|]. split; [intros x Hx Hp; apply Dt; [done|set_solver +Hp]|].
        intros Hf x Hx. rewrite elem_of_app, elem_of_list_singleton in Hx. destruct Hx as [Hx| ->]; [by apply Tt|].
        rewrite (Dt a Hab Hap), (Hf a Hab) in Hd. done.
      + cbn [returns]. destruct (o_try0_ok ci V ord Hnd HV B a base t It Hab) as (S1 & q & Hq & Hrem & Hdone).
        split; [by eapply ostep_trans|]. split; [|split].
        * intros Hl x Hbx. rewrite Hdone. destruct q.
          -- destruct (decide (x = a)) as [->|Hx]; [intros _; by apply Hrem|]. rewrite lookup_insert_ne by congruence. intros H Hadj.
             apply (Lt Hl x Hbx H). by apply (ot_le _ _ _ _ _ _ _ S1).
          -- intros H Hadj. apply (Lt Hl x Hbx H). by apply (ot_le _ _ _ _ _ _ _ S1).
        * intros x Hx Hp. rewrite Hdone. destruct q; [|apply Dt; [done|set_solver +Hp]]. rewrite lookup_insert_ne; [apply Dt; [done|set_solver +Hp]|]. set_solver +Hp.
        * intros Hf x Hx. rewrite elem_of_app, elem_of_list_singleton in Hx. destruct Hx as [Hx| ->]; [|by exists q].
          destruct (Tt Hf x Hx) as (q' & Hq'). exists q'. by apply (ot_log _ _ _ _ _ _ _ S1).
    - cbn beta. intros t (St & Lt & _ & Tt). split; [done|]. split; [done|]. intros Hf a Ha. apply Tt; [done|]. by apply (before_take ord b base).
  Qed.

  (** ** one conditioning node *)
  Lemma o_r1_ok l1 l2 B b base s : oinv B s → ord !! b = Some base → 1 ≤ B →
    returns (o_r1 o ci ord l1 l2 b s) (λ t, ostep B base s t ∧ (live base s → live base t ∧
      ∀ a z, mg_adj (gr t) a base → mg_adj (gr t) z base → before ord a base → before ord z base → a ≠ z → (a, base, [z], false) ∈ lg t)).
  Proof using Hnd HV Ho.
    intros I Hb HB. unfold o_r1. rewrite (order_at_ok _ _ Hb). cbn [mbind res_bind].
    set (anc := list_to_set (take b ord) : nset).
    assert (∀ a, a ∈ anc ↔ before ord a base) as Hanc. { intros a. unfold anc. rewrite elem_of_list_to_set. by apply before_take. }
    eapply returns_mono; [apply (for_returns_pre _ _ _ (λ pre t, ostep B base s t ∧ (live base s → live base t ∧
      ∀ a z, a ∈ pre → mg_adj (gr t) a base → mg_adj (gr t) z base → before ord a base → before ord z base → a ≠ z → (a, base, [z], false) ∈ lg t)))|].
    - split; [by apply ostep_refl|]. intros H. split; [done|]. intros a z H'. by apply elem_of_nil in H'.
    - intros pre a post t E (St & Lt). pose proof (ot_inv _ _ _ _ _ _ _ St) as It. pose proof (oi_ls _ _ _ _ _ It) as Il.
      assert (before ord a base) as Hab. { apply Hanc. rewrite <-(iter_elem o l1 _ _ Ho). rewrite E. set_solver +. }
      pose proof (before_ne _ _ _ Hnd Hab) as Hne.
      assert (∀ t', ostep B base t t' → (live base t → live base t') →
        (live base s → mg_adj (gr t') a base → ∀ z, mg_adj (gr t') z base → before ord z base → a ≠ z → (a, base, [z], false) ∈ lg t') →
        ostep B base s t' ∧ (live base s → live base t' ∧
      ∀ a' z, a' ∈ pre ++ [a] → mg_adj (gr t') a' base → mg_adj (gr t') z base → before ord a' base → before ord z base → a' ≠ z → (a', base, [z], false) ∈ lg t')) as Hnext.
      { intros t' S' L' H. split; [by eapply ostep_trans|]. intros Hl. destruct (Lt Hl) as [Hlt Hlog]. split; [by apply L'|].
        intros a' z Hin Ha' Hz Hba Hbz Hne'. apply elem_of_app in Hin as [Hin|Hin%elem_of_list_singleton].
        - apply (ot_log _ _ _ _ _ _ _ S'). apply Hlog; [done| | |done|done|done]; by apply (ot_le _ _ _ _ _ _ _ S').
        - subst a'. by apply H. }
      eapply returns_bind; [by apply m_is_connected_pag; [apply Il|]|]. cbn beta. intros c Hc. destruct c; cbn [negb]; cbv iota.
      2: { cbn [returns]. apply Hnext; [by apply ostep_refl|done|]. intros _ Hadj. apply Hc in Hadj. done. }
      eapply returns_bind; [by apply (done_get_ok B)|]. cbn beta. intros [] Hd; cbv iota.
      { cbn [returns]. apply Hnext; [by apply ostep_refl|done|]. intros Hl Hadj. destruct (Lt Hl) as [Hlt _]. by apply Hlt in Hadj. }
      set (X := find_adj PAG_T (gr t) base (Some (anc ∖ {[a]})) None).
      assert (∀ z, z ∈ X → before ord z base ∧ z ≠ a) as HX.
      { intros z Hz. apply elem_find_adj_pag in Hz as [_ Hz]. rewrite elem_of_difference, Hanc, elem_of_singleton in Hz. done. }
      eapply returns_mono; [apply (for_brk_returns _ _ _ (λ pre' t', ostep B base t t' ∧ os_done t' = os_done t ∧ ∀ z, z ∈ pre' → (a, base, [z], false) ∈ lg t')
        (λ t', ostep B base t t' ∧ (live base t → live base t') ∧ (mg_adj (gr t') a base → ∀ z, z ∈ o l2 X → (a, base, [z], false) ∈ lg t')))|].
      + split; [by apply ostep_refl|]. split; [done|]. intros z H. by apply elem_of_nil in H.
      + intros pre' z post' t' E' (S' & D' & L'). pose proof (ot_inv _ _ _ _ _ _ _ S') as It'.
        assert (z ∈ X) as HzX by (rewrite <-(iter_elem o l2 _ _ Ho), E'; set_solver +).
        eapply returns_mono; [apply (o_try_ok ci V ord Hnd HV B a base [z] t'); [done|done|apply NoDup_singleton| |cbn [length]; lia]|].
        { intros z' ->%elem_of_list_singleton. by apply HX. }
        cbn beta. intros [t'' q] (S'' & Hq & Hrem & Hdone). cbn [fst snd] in *. destruct q.
        * split; [by eapply ostep_trans|]. split; [|intros Hadj; by apply Hrem in Hadj].
          intros Hl x Hbx. rewrite Hdone, D'. destruct (decide (x = a)) as [->|Hx]; [intros _; by apply Hrem|]. rewrite lookup_insert_ne by congruence.
          intros H Hadj. apply (Hl x Hbx H). apply (ot_le _ _ _ _ _ _ _ S'). by apply (ot_le _ _ _ _ _ _ _ S'').
        * split; [by eapply ostep_trans|]. split; [congruence|]. intros z' Hz'. rewrite elem_of_app, elem_of_list_singleton in Hz'.
          destruct Hz' as [Hz'| ->]; [|done]. apply (ot_log _ _ _ _ _ _ _ S''). by apply L'.
      + intros t' (S' & D' & L'). split; [done|]. split; [|by intros _]. intros Hl. eapply live_mono; [by rewrite D'|by apply S'|done].
      + cbn beta. intros t' (S' & L' & H'). apply Hnext; [done|done|]. intros _ Hadj z Hz Hbz Hnz. apply H'; [done|].
        rewrite (iter_elem o l2 _ _ Ho). apply elem_find_adj_pag. split; [|rewrite elem_of_difference, Hanc, elem_of_singleton; split; [done|by apply not_eq_sym]].
        by apply (ot_le _ _ _ _ _ _ _ S').
    - cbn beta. intros t (St & Lt). split; [done|]. intros Hl. destruct (Lt Hl) as [Hl' H]. split; [done|]. intros a z Ha Hz Hba Hbz Hne. apply H; try done.
      rewrite (iter_elem o l1 _ _ Ho). by apply Hanc.
  Qed.

  (** ** more conditioning nodes *)
  Lemma take_S_elem b base a : ord !! b = Some base → a ∈ take (S b) ord ↔ before ord a base ∨ a = base.
  Proof using Hnd. intros Hb. rewrite (take_S_r _ _ _ Hb), elem_of_app, elem_of_list_singleton, (before_take ord b base a Hnd Hb). done. Qed.

  Lemma o_cond_ok fuel g (Z : nset) a b anc base : mg_wf g → mnodes g = V → ord !! a = Some anc → ord !! b = Some base → anc ∉ Z → base ∉ Z → size V < fuel →
    returns (o_cond_possible_ancestor o fuel ord g Z a b) (λ r, r = true ↔ ∀ z, z ∈ Z →
      (∃ p, is_path (pd_edge g) z anc p ∧ ∀ v, v ∈ p → v ≠ z → before ord v anc ∨ v = anc) ∨
      (∃ p, is_path (pd_edge g) z base p ∧ ∀ v, v ∈ p → v ≠ z → before ord v base ∨ v = base)).
  Proof using Hnd HV Ho.
    intros W N Ha Hb Hna Hnb F. unfold o_cond_possible_ancestor. rewrite (order_at_ok _ _ Ha), (order_at_ok _ _ Hb). cbn [mbind res_bind].
    assert (∀ i x (z : node), ord !! i = Some x → z ≠ x → returns (is_possible_ancestor o fuel g z x (list_to_set (take i ord) ∪ {[x]})) (λ r, r = true ↔
      ∃ p, is_path (pd_edge g) z x p ∧ ∀ v, v ∈ p → v ≠ z → before ord v x ∨ v = x)) as H.
    { intros i x z Hi Hz. assert (∀ v, v ∈ (list_to_set (take i ord) ∪ {[x]} : nset) ↔ before ord v x ∨ v = x) as Hen.
      { intros v. rewrite elem_of_union, elem_of_list_to_set, elem_of_singleton, (before_take ord i x v Hnd Hi). done. }
      eapply returns_mono; [apply is_possible_ancestor_ok; [exact Ho|exact W|exact Hz|]|].
      - eapply Nat.le_lt_trans; [|exact F]. apply subseteq_size. intros v. rewrite Hen, <-(ord_V V ord HV). intros [Hv| ->]; [by apply before_in in Hv as [? _]|].
        by apply elem_of_list_lookup_2 in Hi.
      - cbn beta. intros r ->. setoid_rewrite Hen. done. }
    set (P := λ z, (∃ p, is_path (pd_edge g) z anc p ∧ ∀ v, v ∈ p → v ≠ z → before ord v anc ∨ v = anc) ∨
      (∃ p, is_path (pd_edge g) z base p ∧ ∀ v, v ∈ p → v ≠ z → before ord v base ∨ v = base)).
    eapply returns_bind.
    { apply (any_returns_if _ _ P (λ z, ¬ P z)). intros z Hz. rewrite iter_elem in Hz by done.
      eapply returns_bind; [apply H; [done|set_solver +Hz Hna]|]. cbn beta. intros [] Hr; cbv iota; [cbn [returns]; left; by apply Hr|].
      eapply returns_bind; [apply H; [done|set_solver +Hz Hnb]|]. cbn beta. intros [] Hr'; cbn [returns negb]; [right; by apply Hr'|].
      intros [Hp|Hp]; [apply Hr in Hp|apply Hr' in Hp]; done. }
    cbn beta. intros r Hr. cbn [returns]. destruct r; cbn [negb].
    - destruct Hr as (z & Hz & Hn). rewrite iter_elem in Hz by done. split; [done|]. intros HP. destruct Hn. by apply HP.
    - split; [|done]. intros _ z Hz. apply Hr. by rewrite iter_elem.
  Qed.

  Lemma o_level_ok fuel l B r b base s : oinv B s → ord !! b = Some base → r ≤ B → size V * size V + size V < fuel →
    returns (o_level o ci fuel ord l r b s) (λ t, ostep B base s t.1).
  Proof using Hnd HV Ho.
    intros I Hb HB F. pose proof (oi_ls _ _ _ _ _ I) as Is. unfold o_level. rewrite (order_at_ok _ _ Hb). cbn [mbind res_bind].
    set (en := list_to_set (take (S b) ord) : nset).
    assert (∀ v, v ∈ en ↔ before ord v base ∨ v = base) as Hen. { intros v. unfold en. rewrite elem_of_list_to_set. by apply take_S_elem. }
    assert (en ⊆ V) as HenV. { intros v. rewrite Hen, <-(ord_V V ord HV). intros [Hv| ->]; [by apply before_in in Hv as [? _]|]. by apply elem_of_list_lookup_2 in Hb. }
    assert (size en ≤ size V) as Hsz by by apply subseteq_size.
    eapply returns_bind.
    { apply (create_pds_tree_ok o fuel (gr s) base (Some en) (Some r)); cbn [default from_option]; unfold id; [done|apply Is|rewrite Hen; by right|by rewrite (li_nodes _ _ _ Is)|nia]. }
    cbn beta. intros [t X] P. cbn [fst snd default from_option] in *. unfold id in *.
    set (cs := sort_by_dist (get_subsets_list o t X r)).
    assert (∀ c, c ∈ cs → size c.1 = r ∧ ∀ z, z ∈ c.1 → before ord z base) as Hcs.
    { intros [Y d] Hc. unfold cs in Hc. rewrite elem_sort in Hc. apply get_subsets_list_ok in Hc as (Hsub & Hs & _); [|done|apply P|apply P].
      split; [done|]. intros z Hz. destruct (tree_nodes _ _ _ _ _ _ P z (Hsub z Hz)) as [H Hn]. apply Hen in H. tauto. }
    apply (for_returns _ _ _ (λ u : ostate * bool, ostep B base s u.1)); [by apply ostep_refl|].
    intros ai [u f] Hai Su. cbn [fst snd] in *. apply elem_of_seq in Hai. pose proof (ot_inv _ _ _ _ _ _ _ Su) as Iu.
    assert (b < length ord) as Hbl by by eapply lookup_lt_Some.
    destruct (lookup_lt_is_Some_2 ord ai) as [a Ha]; [lia|]. rewrite (order_at_ok _ _ Ha). cbn [mbind res_bind].
    assert (before ord a base) as Hab. { apply (before_take ord b base a Hnd Hb). apply elem_of_take. exists ai. split; [done|lia]. }
    eapply returns_bind; [by apply (done_get_ok B)|]. cbn beta. intros [] Hd; cbv iota; [done|].
    set (u1 := OState (os_ls u) (<[(base, a) := true]> (os_done u))).
    assert (ostep B base u u1) as S1 by by apply ostep_flag. pose proof (ot_inv _ _ _ _ _ _ _ S1) as I1.
    eapply returns_bind; [apply m_is_connected_pag; [apply I1|by eapply before_ne]|]. cbn beta. intros c Hc. destruct c; cbn [negb]; cbv iota.
    2: { cbn [returns fst]. by eapply ostep_trans. }
    apply (for_brk_returns _ _ _ (λ _ (v : ostate * bool), ostep B base s v.1)); [cbn [fst]; by eapply ostep_trans| |done].
    intros pre [Y d] post [v fl] E Sv. cbn [fst snd] in *. pose proof (ot_inv _ _ _ _ _ _ _ Sv) as Iv. pose proof (oi_ls _ _ _ _ _ Iv) as Ivl.
    assert ((Y, d) ∈ cs) as HY by (rewrite E; set_solver +). destruct (Hcs _ HY) as [HYs HYb]. cbn [fst] in *.
    case_decide as HaY; [done|].
    eapply returns_bind; [apply (o_cond_ok fuel (gr v) Y ai b a base); [apply Ivl|apply Ivl|done|done|done| |lia]|].
    { intros H. apply HYb in H. by apply before_ne in H. }
    cbn beta. intros q _. destruct q; cbn [negb]; cbv iota; [|done].
    eapply returns_bind; [apply (o_try_ok ci V ord Hnd HV B a base (o l Y) v); [done|done|by apply iter_nodup| |by rewrite iter_length, HYs]|].
    { intros z Hz. rewrite iter_elem in Hz by done. split; [by apply HYb|]. by intros ->. }
    cbn beta. intros [w q] (Sw & _). cbn [fst snd] in *. destruct q; cbn [returns fst snd]; [by eapply ostep_trans|].
    eapply ostep_trans; [|apply ostep_flag; [done|done|by apply Sw]]. by eapply ostep_trans.
  Qed.

  Definition low (b : nat) (base : node) (one : bool) (s : ostate) : Prop :=
    (∀ a, before ord a base → ∃ q, (a, base, [], q) ∈ lg s) ∧
    (one = true → ∀ a z, mg_adj (gr s) a base → mg_adj (gr s) z base → before ord a base → before ord z base → a ≠ z → (a, base, [z], false) ∈ lg s).
  Lemma low_mono b base one s s' : ls_le (os_ls s) (os_ls s') → (∀ e, e ∈ lg s → e ∈ lg s') → low b base one s → low b base one s'.
  Proof.
    intros Hle Hlog [H0 H1]. split.
    - intros a Ha. destruct (H0 a Ha) as (q & Hq). exists q. by apply Hlog.
    - intros Ho1 a z Ha Hz Hba Hbz Hne. apply Hlog. apply H1; try done; by apply Hle.
  Qed.

  (** ** learn_structure(local_structure_learning=True) *)
  Definition lim (mcs : option nat) (b : nat) : nat := match mcs with Some m => (b - 1) `min` m | None => b - 1 end.
  Lemma o_learn_node_ok sb tc fuel mcs b base B s : oinv B s → ord !! b = Some base → lim mcs b ≤ B → size V * size V + size V + 2 < fuel →
    returns (o_learn_node o ci sb tc fuel ord mcs b s) (λ t, ostep B base s t ∧
      (fresh base s → low b base (bool_decide (1 ≤ lim mcs b)) t)).
  Proof using Hnd HV Ho.
    intros I Hb HB F. unfold o_learn_node. rewrite (order_at_ok _ _ Hb). cbn [mbind res_bind]. fold (lim mcs b). set (mx := lim mcs b) in *.
    eapply returns_bind; [by apply (o_r0_ok B)|]. cbn beta. intros s1 (S1 & L1 & T1).
    eapply returns_bind; [apply (o_orient_graph_ok o Ho ci V ord Hnd HV sb tc fuel true B base s1); [by apply S1|lia]|]. cbn beta. intros s2 (S2 & D2 & A2 & G2 & _).
    assert (ostep B base s s2) as S02 by by eapply ostep_trans.
    assert (fresh base s → ∀ a, before ord a base → ∃ q, (a, base, [], q) ∈ lg s2) as T2 by (rewrite G2; done).
    assert (fresh base s → live base s2) as L2.
    { intros Hf. eapply live_mono; [by rewrite D2|by apply S2|]. apply L1. intros a Hab Ha. rewrite (Hf a Hab) in Ha. done. }
    destruct (decide (mx = 0)) as [E0|E0]; [cbn [returns]; split; [done|]; intros Hf; split; [by apply T2|]; rewrite E0; done|].
    eapply returns_bind; [apply (o_r1_ok 113 119 B b base s2); [by apply S2|done|lia]|]. cbn beta. intros s3 (S3 & L3).
    eapply returns_bind; [apply (o_orient_graph_ok o Ho ci V ord Hnd HV sb tc fuel true B base s3); [by apply S3|lia]|]. cbn beta. intros s4 (S4 & D4 & A4 & G4 & _).
    assert (ostep B base s s4) as S04 by (eapply ostep_trans; [by eapply ostep_trans|done]).
    assert (fresh base s → low b base (bool_decide (1 ≤ mx)) s4) as T4.
    { intros Hf. split.
      - intros a Ha. destruct (T2 Hf a Ha) as (q & Hq). exists q. rewrite G4. by apply S3.
      - intros _ a z. rewrite !A4, G4. apply (L3 (L2 Hf)). }
    destruct (decide (mx = 1)) as [E1|E1]; [cbn [returns]; by split|].
    apply (for_brk_returns _ _ _ (λ _ t, ostep B base s t ∧ (fresh base s → low b base (bool_decide (1 ≤ mx)) t))); [done| |done].
    intros pre r post t E [St Tt]. assert (r ∈ seq 2 (mx - 1)) as Hr by (rewrite E; set_solver +). apply elem_of_seq in Hr.
    destruct (all_done ord b base t); [done|].
    eapply returns_bind; [apply (o_level_ok fuel 157 B r b base t); [by apply St|done|lia|lia]|]. cbn beta. intros [t1 f] S1'. cbn [fst] in *.
    eapply returns_bind; [apply (o_orient_graph_ok o Ho ci V ord Hnd HV sb tc fuel true B base t1); [by apply S1'|lia]|]. cbn beta. intros t2 (S2' & _).
    cbn [returns fst snd]. assert (ostep B base t t2) as S' by by eapply ostep_trans. split; [by eapply ostep_trans|].
    intros Hf. eapply low_mono; [by apply S'|by apply S'|by apply Tt].
  Qed.

  (** over all the nodes *)
  Record oall (B : nat) (s s' : ostate) : Prop := {
    oa_inv : oinv B s';
    oa_le : ls_le (os_ls s) (os_ls s');
    oa_log : ∀ e, e ∈ lg s → e ∈ lg s';
  }.
  Lemma oall_refl B s : oinv B s → oall B s s.
  Proof. intros I. constructor; [done|by intros a b|done]. Qed.
  Lemma oall_step B base s s' s'' : oall B s s' → ostep B base s' s'' → oall B s s''.
  Proof. intros [_ H1 H2] [H3 H4 H5 _]. constructor; [done|intros a b H; by apply H1, H4|intros e He; by apply H5, H2]. Qed.
  Definition fresh_from (k : nat) (s : ostate) : Prop := ∀ b base, k ≤ b → ord !! b = Some base → fresh base s.

  Lemma index_ne b b' x y : ord !! b = Some x → ord !! b' = Some y → b ≠ b' → x ≠ y.
  Proof using Hnd. intros H1 H2 Hne ->. apply Hne. by eapply NoDup_lookup. Qed.
  Lemma fresh_step B b base s s' k : ord !! b = Some base → b < k → ostep B base s s' → fresh_from k s → fresh_from k s'.
  Proof using Hnd.
    intros Hb Hk St Hf b' base' Hb' Hl a Ha. rewrite (ot_done _ _ _ _ _ _ _ St); [by eapply Hf|]. eapply index_ne; [done|exact Hb|lia].
  Qed.
  Lemma seq_split n k pre x post : seq n k = pre ++ x :: post → x = n + length pre ∧ x < n + k.
  Proof.
    intros E. assert (seq n k !! length pre = Some x) as H by (rewrite E, list_lookup_middle; done).
    apply lookup_seq in H. lia.
  Qed.

  Lemma o_learn_local_ok sb tc fuel mcs B s : oinv B s → (∀ b, b < size V → lim mcs b ≤ B) → size V * size V + size V + 2 < fuel →
    returns (o_learn_local o ci sb tc fuel ord mcs s) (λ t, oall B s t ∧ (∃ u, oinv B u ∧ o_orient_graph o sb tc fuel ord false u = Ok t) ∧ forward ord (gr t) ∧
      (fresh_from 1 s → ∀ b base, 1 ≤ b → ord !! b = Some base → low b base (bool_decide (1 ≤ lim mcs b)) t)).
  Proof using Hnd HV Ho.
    intros I HB F. unfold o_learn_local. rewrite (li_nodes _ _ _ (oi_ls _ _ _ _ _ I)).
    pose proof (ord_len V ord Hnd HV) as Hlen.
    eapply returns_bind.
    { apply (for_returns_pre _ _ _ (λ pre t, oall B s t ∧ (fresh_from 1 s → fresh_from (1 + length pre) t ∧
        ∀ b base, 1 ≤ b < 1 + length pre → ord !! b = Some base → low b base (bool_decide (1 ≤ lim mcs b)) t))).
      - split; [by apply oall_refl|]. intros Hf. split; [done|]. cbn [length]. lia.
      - intros pre b post t E (St & Tt). apply seq_split in E as [-> Hlt]. set (b := 1 + length pre) in *.
        destruct (lookup_lt_is_Some_2 ord b) as [base Hb]; [lia|].
        eapply returns_mono; [apply (o_learn_node_ok sb tc fuel mcs b base B t); [by apply St|done|apply HB; lia|done]|]. cbn beta. intros t' (S' & L').
        split; [by eapply oall_step|]. intros Hf. destruct (Tt Hf) as [Hf' Hlow].
        replace (1 + length (pre ++ [b])) with (S b) by (rewrite app_length; cbn [length]; lia). split.
        + apply (fresh_step B b base t t'); [done|lia|done|]. intros b' x Hb'. apply Hf'. lia.
        + intros b' x Hb' Hx. destruct (decide (b' = b)) as [->|Hne].
          * assert (x = base) as -> by congruence. apply L'. by eapply Hf'.
          * eapply low_mono; [by apply S'|by apply S'|]. apply Hlow; [lia|done]. }
    cbn beta. intros t (St & Tt). eapply returns_mono; [apply returns_self; apply (o_orient_graph_ok o Ho ci V ord Hnd HV sb tc fuel false B 0 t); [by apply St|lia]|].
    cbn beta. intros t' (Et' & S' & _ & _ & _ & Fw). split; [by eapply oall_step|]. split; [exists t; split; [by apply St|done]|]. split; [done|]. intros Hf b base Hb Hbase.
    eapply low_mono; [by apply S'|by apply S'|]. apply (Tt Hf); [|done]. rewrite seq_length. apply lookup_lt_Some in Hbase. lia.
  Qed.

  (** ** learn_structure(local_structure_learning=False) *)
  Lemma o_learn_global_ok sb tc fuel mcs B s : oinv B s → 1 ≤ B → (match mcs with Some m => m | None => size V - 2 end) ≤ B → size V * size V + size V + 2 < fuel →
    returns (o_learn_global o ci sb tc fuel ord mcs s) (λ t, oall B s t ∧ (∃ u, oinv B u ∧ o_orient_graph o sb tc fuel ord false u = Ok t) ∧ forward ord (gr t) ∧
      (fresh_from 1 s → ∀ b base, 1 ≤ b → ord !! b = Some base → low b base (bool_decide (2 ≤ b)) t)).
  Proof using Hnd HV Ho.
    intros I HB1 HB F. unfold o_learn_global. rewrite (li_nodes _ _ _ (oi_ls _ _ _ _ _ I)).
    pose proof (ord_len V ord Hnd HV) as Hlen. set (n := size V) in *.
    (* r = 0 *)
    eapply returns_bind.
    { apply (for_returns_pre _ _ _ (λ pre t, oall B s t ∧ (fresh_from 1 s → fresh_from (1 + length pre) t ∧
        ∀ b base, 1 ≤ b < 1 + length pre → ord !! b = Some base → low b base false t ∧ live base t))).
      - split; [by apply oall_refl|]. intros Hf. split; [done|]. cbn [length]. lia.
      - intros pre b post t E (St & Tt). apply seq_split in E as [-> Hlt]. set (b := 1 + length pre) in *.
        destruct (lookup_lt_is_Some_2 ord b) as [base Hb]; [lia|].
        eapply returns_mono; [apply (o_r0_ok B b base t); [by apply St|done]|]. cbn beta. intros t' (S' & L' & T').
        split; [by eapply oall_step|]. intros Hf. destruct (Tt Hf) as [Hf' Hlow].
        replace (1 + length (pre ++ [b])) with (S b) by (rewrite app_length; cbn [length]; lia). split.
        + apply (fresh_step B b base t t'); [done|lia|done|]. intros b' x Hb'. apply Hf'. lia.
        + intros b' x Hb' Hx. destruct (decide (b' = b)) as [->|Hne].
          * assert (x = base) as -> by congruence. assert (fresh base t) as Hfb by by eapply Hf'. split; [split; [by apply T'|done]|].
            apply L'. intros a Ha Hd. rewrite (Hfb a Ha) in Hd. done.
          * destruct (Hlow b' x) as [H1 H2]; [lia|done|]. split; [eapply low_mono; [by apply S'|by apply S'|done]|].
            eapply live_mono; [|by apply S'|done]. intros a. apply (ot_done _ _ _ _ _ _ _ S'). eapply index_ne; [exact Hx|exact Hb|done]. }
    cbn beta. rewrite seq_length. intros s1 (S1 & T1).
    eapply returns_bind; [apply (o_orient_graph_ok o Ho ci V ord Hnd HV sb tc fuel true B 0 s1); [by apply S1|lia]|]. cbn beta. intros s2 (S2 & D2 & A2 & G2 & _).
    assert (oall B s s2) as S02 by by eapply oall_step.
    assert (fresh_from 1 s → ∀ b base, 1 ≤ b → ord !! b = Some base → low b base false s2 ∧ live base s2) as T2.
    { intros Hf b base Hb Hbase. destruct (T1 Hf) as [_ H]. destruct (H b base) as [H1 H2]; [apply lookup_lt_Some in Hbase; lia|done|].
      split; [eapply low_mono; [by apply S2|by apply S2|done]|]. eapply live_mono; [by rewrite D2|by apply S2|done]. }
    (* r = 1 *)
    eapply returns_bind.
    { apply (for_returns_pre _ _ _ (λ pre t, oall B s t ∧ (fresh_from 1 s → 
        ∀ b base, 1 ≤ b → ord !! b = Some base → live base t ∧ low b base (bool_decide (2 ≤ b < 2 + length pre)) t))).
      - split; [done|]. intros Hf b base Hb Hbase. destruct (T2 Hf b base Hb Hbase). split; [done|]. rewrite bool_decide_false; [done|]. cbn [length]. lia.
      - intros pre b post t E (St & Tt). apply seq_split in E as [-> Hlt]. set (b := 2 + length pre) in *.
        destruct (lookup_lt_is_Some_2 ord b) as [base Hb]; [lia|].
        eapply returns_mono; [apply (o_r1_ok 209 215 B b base t); [by apply St|done|done]|]. cbn beta. intros t' (S' & L').
        split; [by eapply oall_step|]. intros Hf b' x Hb' Hx. destruct (Tt Hf b' x Hb' Hx) as [H1 H2].
        replace (2 + length (pre ++ [b])) with (S b) by (rewrite app_length; cbn [length]; lia).
        destruct (decide (b' = b)) as [->|Hne].
        + assert (x = base) as -> by congruence. destruct (L' H1) as [L1 L2]. split; [done|]. split; [|by intros _].
          intros a Ha. destruct H2 as [H2 _]. destruct (H2 a Ha) as (q & Hq). exists q. by apply S'.
        + split.
          * eapply live_mono; [|by apply S'|done]. intros a. apply (ot_done _ _ _ _ _ _ _ S'). eapply index_ne; [exact Hx|exact Hb|done].
          * rewrite (bool_decide_ext _ (2 ≤ b' < b)) by lia. eapply low_mono; [by apply S'|by apply S'|done]. }
    cbn beta. rewrite seq_length. intros s3 (S3 & T3).
    eapply returns_bind; [apply (o_orient_graph_ok o Ho ci V ord Hnd HV sb tc fuel true B 0 s3); [by apply S3|lia]|]. cbn beta. intros s4 (S4 & D4 & A4 & G4 & _).
    assert (oall B s s4) as S04 by by eapply oall_step.
    assert (fresh_from 1 s → ∀ b base, 1 ≤ b → ord !! b = Some base → low b base (bool_decide (2 ≤ b)) s4) as T4.
    { intros Hf b base Hb Hbase. destruct (T3 Hf b base Hb Hbase) as [_ H]. eapply low_mono; [by apply S4|by apply S4|].
      apply lookup_lt_Some in Hbase. rewrite (bool_decide_ext _ (2 ≤ b < 2 + (n - 2))) by lia. done. }
    (* r >= 2 *)
    set (m := match mcs with Some m => m + 1 | None => (n - 2) + 1 end).
    assert (m ≤ B + 1) as Hm by (unfold m; destruct mcs; lia).
    set (Q := λ t : ostate, oall B s t ∧ (fresh_from 1 s → ∀ b base, 1 ≤ b → ord !! b = Some base → low b base (bool_decide (2 ≤ b)) t)).
    assert (∀ t t', Q t → (∃ base, ostep B base t t') → Q t') as HQ.
    { intros t t' [H1 H2] (base & S'). split; [by eapply oall_step|]. intros Hf b x Hb Hx. eapply low_mono; [by apply S'|by apply S'|by apply H2]. }
    eapply returns_bind.
    { apply (for_brk_returns _ _ _ (λ _ (t : ostate * bool), Q t.1) (λ t, Q t.1)); [done| |done].
      intros pre r post [t f] E Qt. apply seq_split in E as [Er Hr]. cbn [fst snd] in *.
      eapply returns_bind.
      { apply (for_returns _ _ _ (λ t : ostate * bool, Q t.1)); [done|]. intros b [u f'] Hb Qu. apply elem_of_seq in Hb. cbn [fst snd] in *.
        destruct (lookup_lt_is_Some_2 ord b) as [base Hbase]; [lia|]. unfold o_r_node. rewrite (order_at_ok _ _ Hbase). cbn [mbind res_bind].
        destruct (all_done ord b base u); [done|].
        eapply returns_bind; [apply (o_level_ok fuel 265 B r b base u); [by apply Qu|done|lia|lia]|]. cbn beta. intros [v f''] Sv. cbn [returns fst snd] in *.
        apply (HQ u); [done|by exists base]. }
      cbn beta. intros [u f'] Qu. cbn [fst snd] in *. destruct f'; [done|].
      eapply returns_bind; [apply (o_orient_graph_ok o Ho ci V ord Hnd HV sb tc fuel true B 0 u); [by apply Qu|lia]|]. cbn beta. intros v (Sv & _).
      cbn [returns fst snd]. apply (HQ u); [done|by exists 0]. }
    cbn beta. intros [t f] Qt. cbn [fst snd] in *.
    eapply returns_mono; [apply returns_self; apply (o_orient_graph_ok o Ho ci V ord Hnd HV sb tc fuel false B 0 t); [by apply Qt|lia]|].
    cbn beta. intros t' (Et' & S' & _ & _ & _ & Fw). destruct (HQ t t' Qt ltac:(by exists 0)) as [H1 H2]. split; [done|]. split; [exists t; split; [by apply Qt|done]|]. split; done.
  Qed.

  (** ** the constructor *)
  Lemma oicd_init_ok mcs B : (∀ m, mcs = Some m → m + 2 ≤ size V) → returns (oicd_init o ord mcs V) (λ s, oinv B s ∧ fresh_from 1 s ∧ lg s = []).
  Proof using Hnd HV Ho.
    intros Hm. unfold oicd_init. rewrite (ord_len V ord Hnd HV). rewrite bool_decide_true by done. cbn [negb].
    assert ((match mcs with Some m => bool_decide (size V < m + 2) | None => false end) = false) as ->.
    { destruct mcs as [m|]; [|done]. apply bool_decide_false. specialize (Hm m eq_refl). lia. }
    cbn [returns].
    assert (∀ l (f : edge_map) b a, foldl (λ m '(a, b), <[(b, a) := false]> m) f l !! (b, a) = if decide ((a, b) ∈ l) then Some false else f !! (b, a)) as Hfold.
    { induction l as [|[x y] l IH]; intros f b a; cbn [foldl]; [by rewrite decide_False by apply not_elem_of_nil|].
      rewrite IH. cbv beta iota. destruct (decide ((a, b) ∈ l)) as [Hin|Hin].
      { rewrite decide_True; [done|]. by apply elem_of_list_further. }
      destruct (decide ((a, b) = (x, y))) as [E|E].
      - injection E as -> ->. rewrite lookup_insert, decide_True; [done|]. apply elem_of_list_here.
      - rewrite lookup_insert_ne by congruence. rewrite decide_False; [done|]. rewrite elem_of_cons. tauto. }
    assert (∀ a b, before ord a b → foldl (λ m '(a, b), <[(b, a) := false]> m) (∅ : edge_map) (causal_pairs ord) !! (b, a) = Some false) as Hd.
    { intros a b Hab. rewrite Hfold, decide_True; [done|]. by apply elem_causal_pairs. }
    split; [|split; [|done]].
    - constructor; cbn [os_ls os_done].
      + by apply ls_init_inv.
      + intros a b Hadj. pose proof (ls_init_inv o ci V Ho) as Il. apply mg_adj_nodes in Hadj as (Ha & Hb & Hne); [|apply Il].
        rewrite (li_nodes _ _ _ Il) in Ha, Hb. cbn [ls_init ls_sep]. by rewrite sep_init_spec.
      + intros a b Hab. rewrite Hd by done. by eexists.
      + intros i j c b H. by apply elem_of_nil in H.
      + intros i j c b H. by apply elem_of_nil in H.
    - intros b base _ Hb a Ha. cbn [os_done]. by apply Hd.
  Qed.
End ordered.
