(** Proofs about LearnStructRAI. *)
From Verif Require Import Base BaseLemmas ModelGraph Spec ModelMixed SpecMixed ModelPC SpecPC ModelRAI SpecRAI
  ProofGraph ProofDsep ProofGraph2 ProofGraph3 ProofPDAG ProofPDAG2 ProofPDAG3 ProofMixed ProofMixed2 ProofPC ProofCount.

(** ** find_partial_topological_order *)
Lemma elem_generic_parents (g : mgraph) (en : nset) l (acc : nset) (v : nat) :
  v ∈ foldl (λ acc n, acc ∪ (pd_parents g n ∩ en)) acc l ↔ v ∈ acc ∨ (v ∈ en ∧ ∃ n, n ∈ l ∧ darrow g v n).
Proof.
  revert acc. induction l as [|n l IH]; intros acc; simpl.
  - split; [by left|]. intros [?|(_ & n & H & _)]; [done|by apply elem_of_nil in H].
  - rewrite IH, elem_of_union, elem_of_intersection. setoid_rewrite elem_of_cons.
    change (v ∈ pd_parents g n) with (darrow g v n). split.
    + intros [[?|[? ?]]|(? & m & ? & ?)]; [by left|right; eauto..].
    + intros [?|(? & m & [->|?] & ?)]; [by left; left|by left; right|right; eauto].
Qed.

Lemma partial_topological_spec o g : iter_ok o → ∀ fuel en, size en < fuel →
  returns (partial_topological o fuel g en) (λ l, ordered_groups g en l ∧ (en ≠ ∅ → l ≠ [])).
Proof.
  intros Ho. induction fuel as [|fuel IH]; intros en Hf; [lia|]. cbn [partial_topological].
  destruct (decide (size en = 0)) as [E|E].
  { apply size_empty_inv in E. cbn beta iota delta [returns]. split; [|intros Hne; by apply leibniz_equiv in E].
    split_and!.
    - intros v. split; [set_solver +E|]. intros (B & HB & _). by apply elem_of_nil in HB.
    - intros i j B C v HB. by rewrite lookup_nil in HB.
    - intros B HB. by apply elem_of_nil in HB.
    - intros i j B C u v HB. by rewrite lookup_nil in HB. }
  set (ps := foldl _ _ _).
  assert (∀ v, v ∈ ps ↔ v ∈ en ∧ ∃ n, n ∈ en ∧ darrow g v n) as Hps.
  { intros v. unfold ps. rewrite elem_generic_parents. setoid_rewrite (iter_elem o 156 en _ Ho). set_solver +. }
  destruct (decide (size (en ∖ ps) = 0)) as [E'|E'].
  - apply size_empty_inv in E'. assert (∀ v, v ∈ ps ↔ v ∈ en) as Heq.
    { intros v. split; [by intros [? _]%Hps|]. intros Hv. destruct (decide (v ∈ ps)); [done|]. set_solver. }
    cbn beta iota delta [returns]. split; [|done]. split_and!.
    + intros v. rewrite <-Heq. split; [intros; exists ps; split; [left|done]|].
      by intros (B & ->%elem_of_list_singleton & ?).
    + intros i j B C v [-> _]%list_lookup_singleton_Some [-> _]%list_lookup_singleton_Some. done.
    + intros B ->%elem_of_list_singleton H0. apply E. apply size_empty_iff. intros v. rewrite <-Heq, H0. done.
    + intros i j B C u v [-> <-]%list_lookup_singleton_Some [-> <-]%list_lookup_singleton_Some _ _ _. right.
      split_and!; [done..|]. intros w [_ (n & ? & ?)]%Hps. exists n. split; [by apply Heq|done].
  - assert (size ps < size en) as Hlt.
    { apply subset_size. split; [by intros v [? _]%Hps|]. intros Hsub. apply E', size_empty_iff. set_solver. }
    eapply returns_bind; [apply IH; lia|]. cbn beta. intros l [(H1 & H2 & H3 & H4) _].
    cbn beta iota delta [returns]. split; [|done].
    assert (∀ i B v, l !! i = Some B → v ∈ B → v ∈ ps) as Hl.
    { intros i B v HB Hv. apply H1. exists B. split; [by eapply elem_of_list_lookup_2|done]. }
    split_and!.
    + intros v. setoid_rewrite elem_of_cons. split.
      * intros Hv. destruct (decide (v ∈ ps)) as [Hp|Hp].
        -- apply H1 in Hp as (B & ? & ?). eauto.
        -- exists (en ∖ ps). split; [by left|]. set_solver +Hv Hp.
      * intros (B & [->|HB] & Hv); [set_solver +Hv|].
        assert (v ∈ ps) as Hp by (apply H1; eauto). apply Hps in Hp. tauto.
    + intros [|i] [|j] B C v; simpl; intros HB HC Hv Hv'; simplify_eq.
      * done.
      * exfalso. apply (Hl _ _ _ HC) in Hv'. set_solver +Hv Hv'.
      * exfalso. apply (Hl _ _ _ HB) in Hv. set_solver +Hv Hv'.
      * f_equal. by eapply H2.
    + intros B [->|HB]%elem_of_cons; [|by apply H3]. intros H0. apply E', size_empty_iff. by rewrite H0.
    + intros [|i] [|j] B C u v; simpl; intros HB HC Hu Hv Huv; simplify_eq.
      * exfalso. apply elem_of_difference in Hu as [Hu Hn]. apply elem_of_difference in Hv as [Hv _].
        apply Hn, Hps. eauto.
      * exfalso. apply elem_of_difference in Hu as [Hu Hn]. apply (Hl _ _ _ HC), Hps in Hv as [Hv _].
        apply Hn, Hps. eauto.
      * left. lia.
      * destruct (H4 _ _ _ _ _ _ HB HC Hu Hv Huv) as [?|(-> & ? & ?)]; [left; lia|right]. split_and!; [done|lia|done].
Qed.

(** ** find_unconnected_subgraphs: the parts of a PDAG *)
Definition no_circle (g : mgraph) : mgraph :=
  MGraph (mnodes g) (λ n k, match k with Circle => ∅ | _ => mset g n k end).
Lemma find_reachable_no_circle o fuel g a P :
  find_reachable o fuel PDAG_T g a P None = find_reachable o fuel PDAG_T (no_circle g) a P None.
Proof.
  assert (∀ fuel R Q F, reach_loop o fuel PDAG_T g None R Q F = reach_loop o fuel PDAG_T (no_circle g) None R Q F) as H.
  { clear. induction fuel as [|fuel IH]; intros R Q F; [done|]. cbn [reach_loop]. case_decide; [done|]. apply IH. }
  unfold find_reachable. by rewrite H.
Qed.

Lemma subgraphs_sub o g fuel' (A : nset) : iter_ok o → ∀ fuel (W : nset) acc, W ⊆ A → (∀ B, B ∈ acc → B ⊆ A) →
  size W < fuel → size A + 1 < fuel' →
  returns (subgraphs_loop o fuel fuel' PDAG_T g None W acc) (λ l, ∀ B, B ∈ l → B ⊆ A).
Proof.
  intros Ho. induction fuel as [|fuel IH]; intros W acc HW Hacc Hf Hf'; [lia|]. cbn [subgraphs_loop].
  destruct (o 259 W) as [|i rest] eqn:E; [done|].
  assert (i ∈ W) as Hi by (rewrite <-(iter_elem o 259 W i Ho), E; left).
  assert (size (W ∖ {[i]}) < size W) as Hsz by (apply subset_size; set_solver +Hi).
  assert (size W ≤ size A) by by apply subseteq_size.
  rewrite find_reachable_no_circle. eapply returns_bind.
  { apply (find_reachable_spec o Ho PDAG_T (no_circle g)); [|lia]. intros u [] v H'; try (by apply elem_of_empty in H'); set_solver. }
  cbn beta. intros r Hr. apply IH.
  - set_solver +HW.
  - intros B [HB|HB]%elem_of_app; [auto|]. apply elem_of_list_singleton in HB as ->.
    intros v [Hv|Hv]%elem_of_union; [|set_solver]. apply Hr, reach_in_pool in Hv. set_solver.
  - assert (size (W ∖ {[i]} ∖ r) ≤ size (W ∖ {[i]})) by (apply subseteq_size; set_solver +). lia.
  - done.
Qed.

(** ** the invariant *)
Record ra_inv (ci : citest) (V : nset) (B : clog) (s : pc_state) : Prop := {
  ra_nodes : mnodes (pc_graph s) = V;
  ra_wf : pd_wf (pc_graph s);
  ra_both : ∀ a b, ¬ (darrow (pc_graph s) a b ∧ darrow (pc_graph s) b a);
  ra_dom : ∀ a b, a ∈ V → b ∈ V → a ≠ b → is_Some (pc_sep s !! hkey a b);
  ra_honest : honest ci (pc_log s);
  ra_log : ∀ i j c b, (i, j, c, b) ∈ pc_log s →
    i ∈ V ∧ j ∈ V ∧ i ≠ j ∧ NoDup c ∧ ∀ z, z ∈ c → z ∈ V ∧ z ≠ i ∧ z ≠ j;
  ra_true : ∀ i j c, (i, j, c, true) ∈ pc_log s → (i, j, c, true) ∉ B → ¬ pd_adj (pc_graph s) i j;
  ra_rem : ∀ a b, a ∈ V → b ∈ V → a ≠ b → ¬ pd_adj (pc_graph s) a b →
    ∃ S, pc_sep s !! hkey a b = Some S ∧ tested (pc_log s) a b S true;
  ra_base : ∀ e, e ∈ B → e ∈ pc_log s;
  ra_kept : ∀ a b, a ∈ V → b ∈ V → a ≠ b → pd_adj (pc_graph s) a b → pc_sep s !! hkey a b = Some ∅;
}.

Lemma ra_skel ci V B s g : ra_inv ci V B s → pd_wf g → pd_same_skeleton (pc_graph s) g →
  (∀ a b, ¬ (darrow g a b ∧ darrow g b a)) → ra_inv ci V B (PCState g (pc_sep s) (pc_log s)).
Proof.
  intros Hs Hw [HN HA] Hb. split; simpl; try apply Hs; try done.
  - by rewrite <-HN, (ra_nodes _ _ _ _ Hs).
  - intros i j c H. rewrite <-HA. by eapply (ra_true _ _ _ _ Hs).
  - intros a b Ha Hb' Hne. rewrite <-HA. by apply (ra_rem _ _ _ _ Hs).
  - intros a b Ha Hb' Hne. rewrite <-HA. by apply (ra_kept _ _ _ _ Hs).
Qed.

Lemma pd_delete_adj g i j a b : pd_adj (pd_delete_edge g i j) a b ↔ pd_adj g a b ∧ ¬ is_pair a b i j.
Proof. unfold pd_adj. rewrite pd_delete_uline, !pd_delete_darrow, (is_pair_sym b a). tauto. Qed.

Lemma rai_init_inv o ci V : iter_ok o → ra_inv ci V [] (pc_init o V).
Proof.
  intros Ho. destruct (pc_init_inv o ci V Ho) as [H1 H2 H3 H4 H5 H6 H7 H8].
  split; [done|done| |done|done|done| | | |].
  - intros a b [H _]. by apply H3 in H.
  - intros i j c H. by apply elem_of_nil in H.
  - intros a b Ha Hb Hne Hn. apply H8; [done..|]. intros H. apply Hn. by left.
  - intros e H. by apply elem_of_nil in H.
  - intros a b Ha Hb Hne _. by apply sep_init_spec.
Qed.

Section rai.
  Context (o : order) (Ho : iter_ok o) (ci : citest) (ow : bool) (lf : nat) (V : nset) (B : clog).
  Context (Hlf : size V * size V + 1 < lf).

  (** trying a list of conditioning sets *)
  Lemma try_spec l i j s : ra_inv ci V B s → i ∈ V → j ∈ V → i ≠ j →
    (∀ c, c ∈ l → NoDup c ∧ ∀ z, z ∈ c → z ∈ V ∧ z ≠ i ∧ z ≠ j) →
    returns (for_brk l (pc_try ci i j) s) (ra_inv ci V B).
  Proof.
    intros Hs Hi Hj Hne Hl.
    apply (for_brk_returns _ _ _ (λ _, ra_inv ci V B)); [done| |done].
    intros pre c post s' El Hs'.
    assert (NoDup c ∧ ∀ z, z ∈ c → z ∈ V ∧ z ≠ i ∧ z ≠ j) as Hc.
    { apply Hl. rewrite El. apply elem_of_app. right. left. }
    unfold pc_try. destruct (ci (pc_log s') i j c) eqn:E; simpl.
    - split; simpl.
      + apply Hs'.
      + apply pd_delete_wf, Hs'.
      + intros a b. rewrite !pd_delete_darrow. intros [[? _] [? _]]. by apply (ra_both _ _ _ _ Hs' a b).
      + intros a b Ha Hb' Hab. unfold sep_set.
        destruct (decide (hkey i j = hkey a b)) as [->|Hk]; [rewrite lookup_insert; eauto|].
        rewrite lookup_insert_ne by done. by apply (ra_dom _ _ _ _ Hs').
      + rewrite <-E. apply honest_cons, Hs'.
      + intros i' j' c' b' [Heq|H]%elem_of_cons; [|by apply (ra_log _ _ _ _ Hs') in H].
        simplify_eq. tauto.
      + intros i' j' c' [Heq|H]%elem_of_cons HB [Hu Hp]%pd_delete_adj.
        * simplify_eq. apply Hp. by left.
        * by apply (ra_true _ _ _ _ Hs') in H.
      + intros a b Ha Hb' Hab Hu. unfold sep_set.
        destruct (decide (hkey i j = hkey a b)) as [Hk|Hk].
        * exists (list_to_set c). rewrite Hk, lookup_insert. split; [done|]. apply hkey_eq in Hk.
          exists c. split; [intros z; by rewrite elem_of_list_to_set|].
          destruct Hk as [[-> ->]|[-> ->]]; [left|right]; left.
        * destruct (ra_rem _ _ _ _ Hs' a b) as (S & HS & Ht); [done..| |].
          -- intros Hu'. apply Hu. apply pd_delete_adj. split; [done|]. by rewrite <-hkey_eq.
          -- exists S. rewrite lookup_insert_ne by done. split; [done|].
             eapply tested_mono; [|exact Ht]. intros e ?. by right.
      + intros e He%(ra_base _ _ _ _ Hs'). by right.
      + intros a b Ha Hb' Hab [Hu Hp]%pd_delete_adj. unfold sep_set. rewrite lookup_insert_ne; [by apply (ra_kept _ _ _ _ Hs')|].
        rewrite hkey_eq. done.
    - split; simpl; try apply Hs'.
      + rewrite <-E. apply honest_cons, Hs'.
      + intros i' j' c' b' [Heq|H]%elem_of_cons; [|by apply (ra_log _ _ _ _ Hs') in H].
        simplify_eq. tauto.
      + intros i' j' c' [Heq|H]%elem_of_cons HB; [by simplify_eq|]. by eapply (ra_true _ _ _ _ Hs').
      + intros a b Ha Hb' Hab Hu. destruct (ra_rem _ _ _ _ Hs' a b) as (S & HS & Ht); [done..|].
        exists S. split; [done|]. eapply tested_mono; [|exact Ht]. intros e ?. by right.
      + intros e He%(ra_base _ _ _ _ Hs'). by right.
  Qed.

  Lemma elem_pot g (a b : nat) : a ∈ pot_parents g b ↔ darrow g a b ∨ uline g a b.
  Proof. unfold pot_parents. by rewrite elem_of_union. Qed.
  Lemma pot_ok g k n (x y : nat) c : pd_wf g → mnodes g = V → c ∈ combs k (o n (pot_parents g x ∖ {[y]})) →
    NoDup c ∧ ∀ z, z ∈ c → z ∈ V ∧ z ≠ x ∧ z ≠ y.
  Proof.
    intros Hw HN (Hn & _ & Hz)%combs_elem; [|done]. split; [done|]. intros z Hz'. apply Hz in Hz'.
    apply elem_of_difference in Hz' as [Hp Hy]. rewrite elem_of_singleton in Hy. rewrite <-HN.
    apply elem_pot in Hp as [Hp|Hp]; [apply (pdw_dir _ Hw) in Hp|apply (pdw_und _ Hw) in Hp]; tauto.
  Qed.

  Lemma src_ok s src : ra_inv ci V B s → pd_wf src → mnodes src = V →
    let g := if ow then pc_graph s else src in pd_wf g ∧ mnodes g = V.
  Proof. intros Hs Hw HN. cbn zeta. destruct ow; [split; apply Hs|done]. Qed.

  Lemma exogenous_pair_spec src k n e s : ra_inv ci V B s → pd_wf src → mnodes src = V → n ∈ V → e ∈ V → e ≠ n →
    returns (rai_exogenous_pair o ci ow src k n e s) (ra_inv ci V B).
  Proof.
    intros Hs Hw HN Hn He Hne. unfold rai_exogenous_pair.
    destruct (src_ok s src Hs Hw HN) as [HGw HGn]. set (G := if ow then pc_graph s else src) in *.
    eapply returns_bind; [by apply m_is_connected_pd|]. cbn beta. intros b _.
    destruct b; simpl negb; cbv iota; [|done].
    apply try_spec; [done..|]. intros c Hc. apply elem_uniq, elem_of_app in Hc.
    destruct Hc as [Hc|Hc]; apply pot_ok in Hc as [? Hz]; try done; (split; [done|]); intros z ?%Hz; tauto.
  Qed.
  Lemma endogenous_pair_spec src k i j s : ra_inv ci V B s → pd_wf src → mnodes src = V → i ∈ V → j ∈ V → i ≠ j →
    returns (rai_endogenous_pair o ci ow src k (i, j) s) (ra_inv ci V B).
  Proof.
    intros Hs Hw HN Hn He Hne. unfold rai_endogenous_pair.
    destruct (src_ok s src Hs Hw HN) as [HGw HGn]. set (G := if ow then pc_graph s else src) in *.
    eapply returns_bind; [by apply m_is_connected_pd|]. cbn beta. intros b _.
    destruct b; simpl negb; cbv iota; [|done].
    apply try_spec; [done..|]. intros c Hc. apply elem_uniq, elem_of_app in Hc.
    destruct Hc as [Hc|Hc]; apply pot_ok in Hc as [? Hz]; try done; (split; [done|]); intros z ?%Hz; tauto.
  Qed.

  Lemma copy_ok s : ra_inv ci V B s → pd_wf (pd_copy (pc_graph s)) ∧ mnodes (pd_copy (pc_graph s)) = V.
  Proof.
    intros Hs. pose proof (pd_copy_same (pc_graph s) (ra_wf _ _ _ _ Hs)) as Hc. split.
    - eapply pd_same_wf; [exact Hc|apply Hs].
    - destruct Hc as [<- _]. apply Hs.
  Qed.

  Lemma refine_exogenous_spec en ex k s : ra_inv ci V B s → en ⊆ V → ex ⊆ V → en ## ex →
    returns (refine_exogenous o ci ow en ex k s) (ra_inv ci V B).
  Proof.
    intros Hs Hen Hex Hd. destruct (copy_ok s Hs) as [Hw HN]. unfold refine_exogenous.
    apply for_returns; [done|]. intros n s1 Hn Hs1. apply for_returns; [done|]. intros e s2 He Hs2.
    rewrite iter_elem in Hn, He by done. apply exogenous_pair_spec; try done; [set_solver..|].
    intros ->. by apply (Hd n).
  Qed.
  Lemma refine_endogenous_spec en k s : ra_inv ci V B s → en ⊆ V →
    returns (refine_endogenous o ci ow en k s) (ra_inv ci V B).
  Proof.
    intros Hs Hen. destruct (copy_ok s Hs) as [Hw HN]. unfold refine_endogenous.
    apply for_returns; [done|]. intros [i j] s1 Hij Hs1.
    assert (i ∈ en ∧ j ∈ en ∧ i ≠ j) as (Hi & Hj & Hne).
    { by apply comb2_iter in Hij. }
    apply endogenous_pair_spec; try done; set_solver.
  Qed.

  (** ** orientation: nothing outside [en] is directed both ways *)
  Definition vpre (s : pc_state) (en : nset) (g : mgraph) : Prop :=
    pd_wf g ∧ pd_same_skeleton (pc_graph s) g ∧ ∀ a b, darrow g a b → darrow g b a → a ∈ en ∧ b ∈ en.

  (** the edges that were undirected at the start of a loop get an arrowhead only at nodes of [en] *)
  Definition vloop (s : pc_state) (en : nset) (g0 g : mgraph) : Prop :=
    pd_wf g ∧ pd_same_skeleton (pc_graph s) g ∧
    (∀ a b, darrow g a b → darrow g0 a b ∨ (uline g0 a b ∧ b ∈ en)).

  Lemma vloop_orient s en g0 g x z : pd_wf g0 → vloop s en g0 g → pd_same_skeleton (pc_graph s) g0 → uline g0 x z → z ∈ en →
    vloop s en g0 (orient_edge g x z).
  Proof.
    intros Hw0 (Hw & [HN HA] & HD) [HN0 HA0] Hu Hz.
    destruct (orient_adj_wf g x z Hw) as [W A].
    { apply HA, HA0. by left. }
    split_and!; [done| |].
    - split; [done|]. intros a b. by rewrite A.
    - intros a b [H|[-> ->]]%orient_darrow; [by apply HD|right; done].
  Qed.

  Lemma vpre_of_vloop s en g0 g : pd_wf g0 → vpre s en g0 → vloop s en g0 g → vpre s en g.
  Proof.
    intros Hw0 (_ & _ & Hb) (Hw & Hs & HD). split_and!; [done..|]. intros a b Hab Hba.
    apply HD in Hab as [Hab|[Hab ?]], Hba as [Hba|[Hba ?]].
    - by apply Hb.
    - apply (pdw_sym _ Hw0) in Hba. exfalso. by eapply (pdw_one _ Hw0).
    - apply (pdw_sym _ Hw0) in Hab. exfalso. by eapply (pdw_one _ Hw0).
    - done.
  Qed.

  Lemma v_structures_spec en s : ra_inv ci V B s → en ⊆ V →
    returns (rai_v_structures o en (pc_sep s) (pc_graph s)) (vpre s en).
  Proof.
    intros Hs Hen. unfold rai_v_structures. set (g0 := pc_graph s).
    pose proof (ra_wf _ _ _ _ Hs) as Hw0. fold g0 in Hw0.
    assert (pd_same_skeleton (pc_graph s) g0) as Hss by done.
    eapply returns_bind.
    - apply (for_returns _ _ _ (vloop s en g0)).
      { split_and!; [done..|]. intros a b ?. by left. }
      intros z g1 Hz Hg1. rewrite iter_elem in Hz by done. apply for_returns; [done|].
      intros [x y] g2 Hxy Hg2. unfold pc_collider.
      assert (x ∈ und g0 z ∧ y ∈ und g0 z ∧ x ≠ y) as (Hx & Hy & Hne).
      { by apply comb2_iter in Hxy. }
      eapply returns_bind; [apply m_is_connected_pd; [apply Hg2|done]|]. cbn beta. intros b _. destruct b; [done|].
      pose proof (pdw_und _ Hw0 x z Hx) as (HxV & _). pose proof (pdw_und _ Hw0 y z Hy) as (HyV & _).
      unfold g0 in HxV, HyV. rewrite (ra_nodes _ _ _ _ Hs) in HxV, HyV.
      destruct (ra_dom _ _ _ _ Hs x y HxV HyV Hne) as [S HS]. unfold sep_get. rewrite HS. simpl.
      destruct (decide (z ∈ S)); [done|]. by repeat apply vloop_orient.
    - cbn beta. intros g1 Hg1.
      assert (vpre s en g1) as Hp1.
      { eapply vpre_of_vloop; [exact Hw0| |exact Hg1]. split_and!; [done..|]. intros a b ? ?.
        exfalso. by apply (ra_both _ _ _ _ Hs a b). }
      pose proof Hp1 as (Hw1 & Hs1 & _).
      eapply returns_mono; [|intros g2; by apply vpre_of_vloop].
      apply (for_returns _ _ _ (vloop s en g1)).
      { split_and!; [done..|]. intros a b ?. by left. }
      intros z g2 Hz Hg2. rewrite iter_elem in Hz by done. apply for_returns; [done|].
      intros x g3 Hx Hg3. rewrite iter_elem in Hx by done. apply for_returns; [done|].
      intros y g4 Hy Hg4. rewrite iter_elem in Hy by done. unfold rai_half_collider.
      assert (x ≠ y) as Hne by (intros ->; by eapply (pdw_one _ Hw1)).
      eapply returns_bind; [apply m_is_connected_pd; [apply Hg4|done]|]. cbn beta. intros b _. destruct b; [done|].
      pose proof (pdw_und _ Hw1 x z Hx) as (HxV & _). pose proof (pdw_dir _ Hw1 y z Hy) as (HyV & _).
      destruct Hs1 as [HN1 HA1]. rewrite <-HN1, (ra_nodes _ _ _ _ Hs) in HxV, HyV.
      destruct (ra_dom _ _ _ _ Hs x y HxV HyV Hne) as [S HS]. unfold sep_get. rewrite HS. simpl.
      destruct (decide (z ∈ S)); [done|]. by apply vloop_orient.
  Qed.

  Lemma rai_orient_spec en s : ra_inv ci V B s → en ⊆ V → returns (rai_orient o lf en s) (ra_inv ci V B).
  Proof.
    intros Hs Hen. unfold rai_orient. eapply returns_bind; [by apply v_structures_spec|]. cbn beta.
    intros g1 (Hw1 & Hs1 & Hb1). pose proof Hs1 as [HN1 HA1].
    eapply returns_bind; [apply (maximally_orient_spec o g1 [1;2;3;4] None lf Ho Hw1)|].
    { intros i Hi. set_unfold. lia. }
    { rewrite <-HN1, (ra_nodes _ _ _ _ Hs). lia. }
    cbn beta. intros g2 (Hw2 & Hor & [HN2 HA2] & _).
    assert (∀ a b, darrow g2 a b → darrow g2 b a → a ∈ en ∧ b ∈ en) as Hb2.
    { intros a b Hab Hba.
      destruct (or_new _ _ Hor _ _ Hab) as [H1|H1]; [|exfalso; by apply (or_once _ _ Hor a b H1)].
      destruct (or_new _ _ Hor _ _ Hba) as [H2|H2]; [by apply Hb1|]. exfalso. by apply (or_once _ _ Hor b a H2). }
    destruct (bidirected_to_undirected o g2 (Some en) Ho Hw2) as (W3 & [HN3 HA3] & B3 & B4). simpl in B3, B4.
    cbn beta iota delta [returns]. apply ra_skel; [done..| |].
    - split; [by rewrite HN1, HN2|]. intros a b. by rewrite HA1, HA2, HA3.
    - intros a b [Hab Hba].
      destruct (decide (a ∈ en ∧ b ∈ en)) as [[Ha Hb]|Hn]; [by apply (B3 a b)|].
      apply Hn. apply Hb2; [apply (B4 a b)|apply (B4 b a)]; tauto.
  Qed.

  Lemma refine_and_orient_spec en ex k s : ra_inv ci V B s → en ⊆ V → ex ⊆ V → en ## ex →
    returns (refine_and_orient o ci ow lf en ex k s) (ra_inv ci V B).
  Proof.
    intros Hs Hen Hex Hd. unfold refine_and_orient.
    eapply returns_bind; [by apply refine_exogenous_spec|]. cbn beta. intros s1 Hs1.
    eapply returns_bind; [by apply rai_orient_spec|]. cbn beta. intros s2 Hs2.
    eapply returns_bind; [by apply refine_endogenous_spec|]. cbn beta. intros s3 Hs3.
    by apply rai_orient_spec.
  Qed.

  Lemma lf_V : size V + 1 < lf.
  Proof. destruct (size V) as [|[|n]]; lia. Qed.

  Lemma rai_split_spec g en : en ⊆ V → en ≠ ∅ → returns (rai_split o lf g en) (λ '(d, l, a),
    d ⊆ en ∧ a = en ∖ d ∧ ∀ A, A ∈ l → A ⊆ a).
  Proof.
    intros Hen Hne. pose proof lf_V as Hlf'. assert (size en ≤ size V) by by apply subseteq_size.
    unfold rai_split. eapply (returns_bind _ _ (λ d, d ⊆ en)).
    - unfold lowest_set. eapply returns_bind; [apply partial_topological_spec; [done|lia]|]. cbn beta.
      intros l [(H1 & _) Hl]. destruct l as [|d [|d' l]].
      + by apply Hl.
      + cbn beta iota delta [returns]. intros v Hv. apply H1. exists d. split; [left|done].
      + cbn beta iota delta [returns]. set_solver +.
    - cbn beta. intros d Hd. eapply returns_bind.
      + unfold find_unconnected_subgraphs. cbn [default].
        assert (size (en ∖ d) ≤ size en) by (apply subseteq_size; set_solver +).
        apply (subgraphs_sub o g lf (en ∖ d) Ho); [done| |simpl; lia..]. intros C HB. by apply elem_of_nil in HB.
      + cbn beta. intros l Hl. done.
  Qed.

  Lemma fan_in_bound s n : ra_inv ci V B s → fan_in (pc_graph s) n ≤ size V.
  Proof.
    intros Hs. unfold fan_in. rewrite <-size_union.
    - apply subseteq_size. intros z [Hz|Hz]%elem_of_union; rewrite <-(ra_nodes _ _ _ _ Hs).
      + by apply (pdw_dir _ (ra_wf _ _ _ _ Hs) z n) in Hz as (? & _).
      + by apply (pdw_und _ (ra_wf _ _ _ _ Hs) z n) in Hz as (? & _).
    - intros z Hz Hz'. by eapply (pdw_one _ (ra_wf _ _ _ _ Hs)).
  Qed.
  Lemma rai_exit_false g en k : rai_exit o g en k = false → ∃ n, n ∈ en ∧ k < fan_in g n.
  Proof.
    intros E. destruct (decide (Exists (λ n, k < fan_in g n) (elements en))) as [H|H].
    - apply Exists_exists in H as (n & Hn & Hk). exists n. split; [by apply elem_of_elements|done].
    - exfalso. apply not_true_iff_false in E. apply E. unfold rai_exit. apply forallb_forall.
      intros n Hn%elem_of_list_In. rewrite iter_elem in Hn by done.
      rewrite negb_true_iff, bool_decide_eq_false. intros Hk. apply H, Exists_exists. exists n.
      split; [by apply elem_of_elements|done].
  Qed.

  Lemma rai_rec_spec fuel : ∀ en ex k s, size V < fuel + k → k ≤ size V → ra_inv ci V B s → en ⊆ V → ex ⊆ V → en ## ex →
    returns (rai_rec o ci ow lf fuel en ex k s) (ra_inv ci V B).
  Proof.
    induction fuel as [|fuel IH]; intros en ex k s Hf Hk Hs Hen Hex Hd; [lia|]. cbn [rai_rec].
    destruct (rai_exit o (pc_graph s) en k) eqn:E; [done|].
    apply rai_exit_false in E as (n & Hn & Hkn). pose proof (fan_in_bound s n Hs).
    eapply returns_bind; [by apply refine_and_orient_spec|]. cbn beta. intros s1 Hs1.
    eapply returns_bind; [apply rai_split_spec; [done|set_solver +Hn]|]. cbn beta. intros [[d l] a] (Hde & -> & Hl).
    eapply returns_bind.
    - apply for_returns; [exact Hs1|]. intros A s2 HA%Hl Hs2. apply IH; [lia|lia|done|set_solver..].
    - cbn beta. intros s2 Hs2. apply IH; [lia|lia|done|set_solver +Hde Hen|set_solver +Hen Hex|set_solver +Hde Hd].
  Qed.
End rai.

(** ** _re_orient_skeleton *)
Definition shown_collider (g : mgraph) (a n : node) : Prop :=
  darrow g a n ∧ ∃ b, darrow g b n ∧ a ≠ b ∧ ¬ pd_adj g a b.

Lemma undirected_copy_spec o g : iter_ok o → pd_wf g → returns (undirected_copy o g) (λ c,
  mnodes c = mnodes g ∧ (∀ a b, ¬ darrow c a b) ∧ ∀ a b, uline c a b ↔ pd_adj g a b).
Proof.
  intros Ho Hw. unfold undirected_copy. eapply returns_mono.
  - apply (for_returns_pre _ _ _ (λ pre c, mnodes c = mnodes g ∧ (∀ a b, ¬ darrow c a b) ∧
      ∀ a b, uline c a b ↔ (b ∈ pre ∧ a ∈ pot_parents g b) ∨ (a ∈ pre ∧ b ∈ pot_parents g a))).
    + split_and!; [done|..].
      * intros a b. unfold darrow, has_mark. set_solver +.
      * intros a b. unfold uline, has_mark. rewrite !elem_of_nil. set_solver +.
    + intros pre n post c _ (H1 & H2 & H3). eapply returns_mono; [by apply pd_add_tail_spec|].
      cbn beta. intros c' (I1 & I2 & I3). split_and!.
      * congruence.
      * intros a b. by rewrite I2.
      * intros a b. rewrite I3, H3, !elem_of_app, !elem_of_list_singleton. naive_solver.
  - cbn beta. intros c (H1 & H2 & H3). split_and!; [done..|]. intros a b. rewrite H3, !iter_elem, !elem_pot by done.
    unfold pd_adj. split.
    + intros [[_ [?|?]]|[_ [?|?]]]; [tauto..|]. left. by apply (pdw_sym _ Hw).
    + intros [H|[H|H]].
      * apply (pdw_und _ Hw) in H as Hin. left. tauto.
      * apply (pdw_dir _ Hw) in H as Hin. left. tauto.
      * apply (pdw_dir _ Hw) in H as Hin. right. tauto.
Qed.

(** the arrows added for the pairs in l at n *)
Definition shown_in (g : mgraph) (n : node) (l : list (node * node)) (a b : node) : Prop :=
  b = n ∧ ∃ i j, (i, j) ∈ l ∧ ¬ pd_adj g i j ∧ (a = i ∨ a = j).

Lemma mark_colliders_spec o g c : iter_ok o → pd_wf g → pd_wf c → mnodes c = mnodes g → (∀ a b, ¬ darrow c a b) →
  (∀ a b, uline c a b ↔ pd_adj g a b) →
  returns (mark_colliders o g c) (vst c (shown_collider g)).
Proof.
  intros Ho Hw Hwc HN Hc Hu. unfold mark_colliders. eapply returns_mono.
  - apply (for_returns_pre _ _ _ (λ pre, vst c (λ a b, b ∈ pre ∧ shown_collider g a b))).
    + split_and!; [done..| |].
      * intros a b. rewrite elem_of_nil. split; [|tauto]. by intros ?%Hc.
      * intros a b. rewrite !elem_of_nil. tauto.
    + intros pre n post c1 Hl Hc1. eapply returns_mono.
      * apply (for_returns_pre _ _ _ (λ pre', vst c (λ a b, (b ∈ pre ∧ shown_collider g a b) ∨ shown_in g n pre' a b))).
        { eapply vst_ext; [|exact Hc1]. intros a b. split; [by left|]. intros [?|(_ & i & j & H & _)]; [done|].
          by apply elem_of_nil in H. }
        intros pre' [i j] post' c2 Hl' Hc2.
        assert ((i, j) ∈ comb2 (o 1352 (pd_parents g n))) as Hij.
        { rewrite Hl'. apply elem_of_app. right. left. }
        apply comb2_iter in Hij as (Hi & Hj & Hne); [|done].
        assert (∀ a b, shown_in g n (pre' ++ [(i, j)]) a b ↔ shown_in g n pre' a b ∨
          (b = n ∧ ¬ pd_adj g i j ∧ (a = i ∨ a = j))) as Hsh.
        { intros a b. unfold shown_in. setoid_rewrite elem_of_app. setoid_rewrite elem_of_list_singleton. split.
          - intros (-> & x & y & [H|H] & H2 & H3); [left; eauto 10|]. simplify_eq. right. eauto 10.
          - intros [(-> & x & y & H & H2 & H3)|(-> & H2 & H3)]; [eauto 15|]. split; [done|]. exists i, j. auto. }
        eapply returns_bind; [by apply m_is_connected_pd|]. cbn beta. intros b Hb. cbn beta iota delta [returns].
        destruct b.
        -- eapply vst_ext; [|exact Hc2]. intros a b. cbn beta. rewrite Hsh.
           assert (pd_adj g i j) by by apply Hb. tauto.
        -- assert (¬ pd_adj g i j) as Hna by (intros H; by apply Hb in H).
           eapply vst_ext; [|apply vst_orient; [apply vst_orient; [exact Hc2|]|]].
           ++ intros a b. cbn beta. rewrite Hsh. split; [|naive_solver].
              intros [[[?|?]|[-> ->]]|[-> ->]]; tauto.
           ++ apply Hu. by right; left.
           ++ apply Hu. by right; left.
      * intros c2. apply vst_ext. intros a b. cbn beta. rewrite elem_of_app, elem_of_list_singleton.
        assert (shown_in g n (comb2 (o 1352 (pd_parents g n))) a b ↔ b = n ∧ shown_collider g a b) as ->.
        { split.
          - intros (-> & i & j & (Hi & Hj & Hne)%comb2_iter & Hna & [->| ->]); [| |done..]; (split; [done|]); (split; [done|]).
            + by exists j.
            + exists i. split_and!; [done..|]. intros H. by apply Hna, pd_adj_sym.
          - intros (-> & Ha & y & Hy & Hne & Hna). split; [done|].
            destruct (proj2 (comb2_iter o 1352 (pd_parents g n) a y Ho)) as [H|H]; [done..| |].
            + exists a, y. auto.
            + exists y, a. split_and!; [done| |by right]. intros H'. by apply Hna, pd_adj_sym. }
        destruct (decide (b = n)) as [->|]; tauto.
  - intros c1. apply vst_ext. intros a b. rewrite iter_elem by done. split; [tauto|]. intros H. split; [|done].
    destruct H as [H _]. by apply (pdw_dir _ Hw) in H as (_ & ? & _).
Qed.

Lemma re_orient_spec o lf g : iter_ok o → pd_wf g → size (mnodes g) * size (mnodes g) < lf →
  returns (re_orient o lf g) (λ h, pd_wf h ∧ pd_same_skeleton g h ∧
    ((∀ a b, ¬ (darrow g a b ∧ darrow g b a)) → ∀ a b, ¬ (darrow h a b ∧ darrow h b a)) ∧
    (∀ a b, shown_collider g a b → darrow h a b) ∧
    no_rule_applies h [1;2;3] (mnodes g)).
Proof.
  intros Ho Hw Hf. unfold re_orient.
  eapply returns_bind; [by apply undirected_copy_spec|]. cbn beta. intros c (HN & HD & HU).
  assert (pd_wf c) as Hwc.
  { split.
    - intros a b H. by apply HD in H.
    - intros a b H%HU. split_and!; [..|by eapply pd_adj_ne]; rewrite HN;
        (destruct H as [H|[H|H]]; [apply (pdw_und _ Hw) in H|apply (pdw_dir _ Hw) in H|apply (pdw_dir _ Hw) in H]; tauto).
    - intros a b. rewrite !HU. by apply pd_adj_sym.
    - intros a b _. apply HD. }
  eapply returns_bind; [by apply mark_colliders_spec|]. cbn beta. intros c1 (N1 & W1 & A1 & D1 & U1).
  eapply returns_mono; [apply (maximally_orient_spec o c1 [1;2;3] None lf Ho W1)|].
  { intros i Hi. set_unfold. lia. }
  { by rewrite N1, HN. }
  cbn beta. intros h (Hw2 & Hor & [HN2 HA2] & Hno). split_and!; [done| | | |].
  - split; [by rewrite <-HN2, N1|]. intros a b. rewrite <-HA2, A1. unfold pd_adj at 2. rewrite HU.
    pose proof (HD a b). pose proof (HD b a). tauto.
  - intros Hb. eapply orientation_no_both; [exact W1| |exact Hor]. intros a b. rewrite !D1.
    intros [[H1 _] [H2 _]]. by apply (Hb a b).
  - intros a b H. apply (or_dir _ _ Hor), D1, H.
  - simpl in Hno. by rewrite N1, HN in Hno.
Qed.

(** ** C55 *)
Lemma rai_learn_inv o ci ow lf V : iter_ok o → size V * size V + 1 < lf →
  returns (rai_learn o ci ow lf V) (λ s, ra_inv ci V [] s ∧ no_rule_applies (pc_graph s) [1;2;3] V).
Proof.
  intros Ho Hlf. unfold rai_learn.
  eapply returns_bind.
  { apply (rai_rec_spec o Ho ci ow lf V [] Hlf); [|lia|by apply rai_init_inv|set_solver +..].
    pose proof (lf_V lf V Hlf). lia. }
  cbn beta. intros s Hs.
  eapply returns_bind; [apply (maximally_orient_spec o (pc_graph s) [1;2;3] None lf Ho (ra_wf _ _ _ _ Hs))|].
  { intros i Hi. set_unfold. lia. }
  { rewrite (ra_nodes _ _ _ _ Hs). lia. }
  cbn beta. intros g (Hw & Hor & Hsk & _).
  pose proof (orientation_no_both _ _ (ra_wf _ _ _ _ Hs) (ra_both _ _ _ _ Hs) Hor) as Hb.
  pose proof Hsk as [HN _].
  eapply returns_bind; [apply re_orient_spec; [done..|]|].
  { rewrite <-HN, (ra_nodes _ _ _ _ Hs). lia. }
  cbn beta. intros h (Hw' & [HN' HA'] & Hb' & _ & Hno). cbn beta iota delta [returns]. split.
  - apply ra_skel; [done..| |by apply Hb'].
    split; [by rewrite HN, HN'|]. intros a b. destruct Hsk as [_ HA]. by rewrite HA, HA'.
  - simpl. by rewrite <-HN, (ra_nodes _ _ _ _ Hs) in Hno.
Qed.

Lemma rai_justified o ci ow lf V : iter_ok o → size V * size V + 1 < lf →
  returns (rai_learn o ci ow lf V) (λ s,
    mnodes (pc_graph s) = V ∧ pd_wf (pc_graph s) ∧ honest ci (pc_log s) ∧
    (∀ a b, ¬ (darrow (pc_graph s) a b ∧ darrow (pc_graph s) b a)) ∧
    (∀ a b, a ∈ V → b ∈ V → a ≠ b → ¬ pd_adj (pc_graph s) a b →
       ∃ S, sep_get (pc_sep s) a b = Ok S ∧ S ⊆ V ∖ {[a; b]} ∧ tested (pc_log s) a b S true) ∧
    (∀ a b c, pd_adj (pc_graph s) a b → (a, b, c, true) ∉ pc_log s ∧ (b, a, c, true) ∉ pc_log s) ∧
    no_rule_applies (pc_graph s) [1;2;3] V).
Proof.
  intros Ho Hf. eapply returns_mono; [by apply rai_learn_inv|]. cbn beta. intros s [Hs Hno].
  split_and!; [apply Hs..| | |done].
  - intros a b Ha Hb Hne Hn. destruct (ra_rem _ _ _ _ Hs a b Ha Hb Hne Hn) as (S & HS & Ht).
    exists S. unfold sep_get. rewrite HS. split_and!; [done| |done].
    destruct Ht as (c & Hc & Ht). intros z Hz%Hc. rewrite elem_of_difference, elem_of_union, !elem_of_singleton.
    destruct Ht as [Ht|Ht]; apply (ra_log _ _ _ _ Hs) in Ht as (_ & _ & _ & _ & H); apply H in Hz; set_solver +Hz.
  - intros a b c Hab. split; intros Hin.
    + by apply (ra_true _ _ _ _ Hs) in Hin; [|intros ?%elem_of_nil].
    + apply (ra_true _ _ _ _ Hs) in Hin; [|by intros ?%elem_of_nil]. apply Hin, pd_adj_sym; [apply Hs|done].
Qed.

(** ** with the d-separation oracle no true edge is lost *)
Lemma rai_keeps_edges o1 o2 d ow lf fuel' : iter_ok o1 → iter_ok o2 → wf_graph d → acyclic d →
  size (gnodes d) * size (gnodes d) + 1 < lf → size (gnodes d) < fuel' →
  returns (rai_learn o1 (dsep_ci o2 fuel' d) ow lf (gnodes d)) (λ s, ∀ a b, adjacent d a b → pd_adj (pc_graph s) a b).
Proof.
  intros Ho1 Ho2 Hwf Hac Hlf Hf'. eapply returns_mono; [by apply rai_learn_inv|]. cbn beta. intros s [Hs _] a b Hab.
  assert (a ∈ gnodes d ∧ b ∈ gnodes d) as [Ha Hb] by (destruct Hab as [H|H]; apply Hwf in H; tauto).
  pose proof (adj_ne d a b Hac Hab) as Hne.
  destruct (pd_adj_dec (pc_graph s) a b) as [|Hn]; [done|exfalso].
  destruct (ra_rem _ _ _ _ Hs a b Ha Hb Hne Hn) as (S & _ & c & _ & Ht).
  assert (∀ i j, (i, j, c, true) ∈ pc_log s → d_separated d i j c) as Hdsep.
  { intros i j Hin. pose proof (ra_log _ _ _ _ Hs _ _ _ _ Hin) as (Hi & Hj & Hij & _ & Hc).
    apply elem_of_list_split in Hin as (l1 & l2 & Hl). apply (ra_honest _ _ _ _ Hs) in Hl. unfold dsep_ci in Hl.
    assert (returns (dsep o2 fuel' d i j c) (λ b, b = true ↔ d_separated d i j c)) as H.
    { apply dsep_spec; try done; [intros z ?%Hc; tauto|]. intros Hj'. apply Hc in Hj'. tauto. }
    apply returns_ok in H as (b' & E & H). rewrite E in Hl. by apply H. }
  assert (d_separated d a b c) as Hsep.
  { destruct Ht as [Ht|Ht]; apply Hdsep in Ht; [done|by apply d_separated_sym]. }
  by apply adjacent_not_dsep in Hsep.
Qed.

(** ** an undirected edge whose ends get different groups *)
Definition pR : mgraph := mk_mg [0;1;2] (und_ 0 1 ++ dir_ 1 2).
Lemma pR_wf : pd_wf pR.
Proof. apply mk_pd_wf. by vm_compute. Qed.
Lemma topological_undirected : ∃ g, pd_wf g ∧ ∀ o fuel, iter_ok o → size (mnodes g) < fuel →
  returns (partial_topological o fuel g (mnodes g)) (λ l,
    ∃ i j B C a b, l !! i = Some B ∧ l !! j = Some C ∧ a ∈ B ∧ b ∈ C ∧ uline g a b ∧ i ≠ j).
Proof.
  exists pR. split; [exact pR_wf|]. intros o fuel Ho Hf. destruct fuel as [|fuel]; [lia|]. cbn [partial_topological].
  assert (size (mnodes pR) = 3) as E by by vm_compute. rewrite E in Hf. rewrite decide_False by (by rewrite E).
  set (ps := foldl _ _ _).
  assert (∀ v, v ∈ ps ↔ v = 1) as Hps.
  { intros v. unfold ps. rewrite elem_generic_parents. setoid_rewrite (iter_elem o 156 _ _ Ho). split.
    - intros [H|(_ & n & _ & H)]; [by apply elem_of_empty in H|]. apply mk_mg_mark in H. set_solver +H.
    - intros ->. right. split; [by apply (bool_decide_unpack _); vm_compute|]. exists 2.
      split; [by apply (bool_decide_unpack _); vm_compute|]. apply mk_mg_mark. set_solver +. }
  assert (0 ∈ mnodes pR ∖ ps) as H0.
  { apply elem_of_difference. split; [by apply (bool_decide_unpack _); vm_compute|]. by rewrite Hps. }
  rewrite decide_False.
  2:{ intros Hz. apply size_empty_inv in Hz. set_solver +Hz H0. }
  assert (size ps < 3) as Hsz.
  { rewrite <-E. apply subset_size. split; [|set_solver +H0].
    intros v ->%Hps. by apply (bool_decide_unpack _); vm_compute. }
  eapply returns_bind; [apply (partial_topological_spec o pR Ho fuel ps); lia|]. cbn beta.
  intros l [(H1 & _) _]. cbn beta iota delta [returns].
  destruct (proj1 (H1 1)) as (B & HB & H1B); [by apply Hps|]. apply elem_of_list_lookup in HB as [i Hi].
  exists 0, (S i), (mnodes pR ∖ ps), B, 0, 1. split_and!; [done..| |done]. apply mk_mg_mark. set_solver +.
Qed.
