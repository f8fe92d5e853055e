(** Proofs about LearnStructBRAI, and about copying parts of PDAGs. *)
From Coq Require Import QArith.
From Verif Require Import Base BaseLemmas ModelGraph Spec ModelMixed SpecMixed ModelPC SpecPC ModelRAI SpecRAI ModelPerf ModelSynth
  ModelBRAI SpecBRAI
  ProofGraph ProofDsep ProofGraph2 ProofGraph3 ProofPDAG ProofPDAG2 ProofPDAG3 ProofMixed ProofMixed2 ProofPC ProofCount ProofRAI
  ProofSynth.
Local Open Scope nat_scope.

(** ** add_edges_from, delete_edges_not_present_in *)
Lemma pd_add_directed_spec o g ps t : returns (pd_add_edges o g ps t Directed) (λ g',
  mnodes g' = mnodes g ∧ (∀ a b, uline g' a b ↔ uline g a b) ∧
  ∀ a b, darrow g' a b ↔ darrow g a b ∨ (b = t ∧ a ∈ ps)).
Proof.
  cbn [pd_add_edges returns]. split_and!; [done|..]; intros a b; unfold uline, darrow, has_mark; simpl.
  - rewrite decide_False; [done|]. by intros [_ ?].
  - destruct (decide (b = t ∧ Directed = Directed)) as [[-> _]|Hn].
    + set_solver +.
    + split; [by left|]. intros [?|[-> _]]; [done|]. tauto.
Qed.

Lemma add_edges_from_spec o g src (en ex : option nset) : iter_ok o →
  let E := default (mnodes g) en in let A := default ∅ ex ∪ E in
  returns (add_edges_from o g src en ex) (λ q, mnodes q = mnodes g ∧
    (∀ a b, darrow q a b ↔ darrow g a b ∨ (b ∈ E ∧ a ∈ A ∧ darrow src a b)) ∧
    (∀ a b, uline q a b ↔ uline g a b ∨ (b ∈ E ∧ a ∈ A ∧ uline src a b) ∨ (a ∈ E ∧ b ∈ A ∧ uline src b a))).
Proof.
  intros Ho E A. unfold add_edges_from. fold E. fold A. eapply returns_mono.
  - apply (for_returns_pre _ _ _ (λ pre q, mnodes q = mnodes g ∧
      (∀ a b, darrow q a b ↔ darrow g a b ∨ (b ∈ pre ∧ a ∈ A ∧ darrow src a b)) ∧
      (∀ a b, uline q a b ↔ uline g a b ∨ (b ∈ pre ∧ a ∈ A ∧ uline src a b) ∨ (a ∈ pre ∧ b ∈ A ∧ uline src b a)))).
    + split_and!; [done|..]; intros a b; rewrite !elem_of_nil; tauto.
    + intros pre n post q _ (H1 & H2 & H3).
      eapply returns_bind; [apply pd_add_directed_spec|]. cbn beta. intros q1 (I1 & I2 & I3).
      eapply returns_mono; [by apply pd_add_tail_spec|]. cbn beta. intros q2 (J1 & J2 & J3).
      split_and!; [congruence|..]; intros a b.
      * rewrite J2, I3, H2, elem_of_app, elem_of_list_singleton, elem_of_intersection.
        change (a ∈ pd_parents src n) with (darrow src a n). naive_solver.
      * rewrite J3, I2, H3, !elem_of_app, !elem_of_list_singleton, !elem_of_intersection.
        change (a ∈ und src n) with (uline src a n). change (b ∈ und src n) with (uline src b n). clear.
        destruct (decide (a = n)) as [->|], (decide (b = n)) as [->|]; tauto.
  - cbn beta. intros q (H1 & H2 & H3). split_and!; [done|..]; intros a b.
    + by rewrite H2, iter_elem.
    + by rewrite H3, !iter_elem.
Qed.

Lemma delete_not_present_spec o g src (ns : option nset) : iter_ok o → pd_wf src →
  let E := default (mnodes src) ns in
  returns (delete_edges_not_present_in o g src ns) (λ q, mnodes q = mnodes g ∧
    (∀ a b, darrow q a b ↔ darrow g a b ∧ ¬ (a ∈ E ∧ b ∈ E ∧ a ≠ b ∧ ¬ pd_adj src a b)) ∧
    (∀ a b, uline q a b ↔ uline g a b ∧ ¬ (a ∈ E ∧ b ∈ E ∧ a ≠ b ∧ ¬ pd_adj src a b))).
Proof.
  intros Ho Hw E. unfold delete_edges_not_present_in. fold E. eapply returns_mono.
  - apply (for_returns_pre _ _ _ (λ pre q, mnodes q = mnodes g ∧
      (∀ a b, darrow q a b ↔ darrow g a b ∧ ¬ (((a, b) ∈ pre ∨ (b, a) ∈ pre) ∧ ¬ pd_adj src a b)) ∧
      (∀ a b, uline q a b ↔ uline g a b ∧ ¬ (((a, b) ∈ pre ∨ (b, a) ∈ pre) ∧ ¬ pd_adj src a b)))).
    + split_and!; [done|..]; intros a b; rewrite !elem_of_nil; tauto.
    + intros pre [i j] post q Hl (H1 & H2 & H3).
      assert (i ≠ j) as Hne.
      { assert ((i, j) ∈ comb2 (o 367 E)) as H by (rewrite Hl; set_solver +). by apply comb2_iter in H as (_ & _ & ?). }
      eapply returns_bind; [apply m_is_connected_pd; [done|exact Hne]|]. cbn beta. intros c Hc.
      assert (∀ a b, ((a, b) ∈ pre ++ [(i, j)] ∨ (b, a) ∈ pre ++ [(i, j)]) ↔ ((a, b) ∈ pre ∨ (b, a) ∈ pre) ∨ is_pair a b i j) as Hp.
      { intros a b. rewrite !elem_of_app, !elem_of_list_singleton. unfold is_pair. naive_solver. }
      assert (∀ a b, is_pair a b i j → pd_adj src a b ↔ pd_adj src i j) as Hij.
      { intros a b [[-> ->]|[-> ->]]; [done|]. split; apply pd_adj_sym; done. }
      destruct c; cbn [returns]; [pose proof (proj1 Hc eq_refl) as Hy|assert (¬ pd_adj src i j) as Hy by (rewrite <-Hc; done)]; clear Hc.
      * split_and!; [done|..]; intros a b; rewrite ?H2, ?H3, Hp; specialize (Hij a b); tauto.
      * split_and!; [done|..]; intros a b; rewrite ?pd_delete_darrow, ?pd_delete_uline, ?H2, ?H3, Hp;
          specialize (Hij a b); destruct (decide (is_pair a b i j)); tauto.
  - cbn beta. intros q (H1 & H2 & H3).
    assert (∀ a b, (a, b) ∈ comb2 (o 367 E) ∨ (b, a) ∈ comb2 (o 367 E) ↔ a ∈ E ∧ b ∈ E ∧ a ≠ b) as He.
    { intros a b. split.
      - intros [H|H]; apply comb2_iter in H as (? & ? & ?); auto.
      - intros (? & ? & ?). by apply (proj2 (comb2_iter o 367 E a b Ho)). }
    split_and!; [done|..]; intros a b; rewrite ?H2, ?H3, He; tauto.
Qed.

(** copying into a graph that has no edges at the endogenous nodes *)
Lemma add_edges_from_wf o g src (en ex : nset) : iter_ok o → pd_wf g → pd_wf src → en ⊆ mnodes g → ex ⊆ mnodes g →
  (∀ a b, pd_adj g a b → a ∉ en ∧ b ∉ en) →
  returns (add_edges_from o g src (Some en) (Some ex)) (λ q, mnodes q = mnodes g ∧ pd_wf q ∧
    (∀ a b, darrow q a b ↔ darrow g a b ∨ (b ∈ en ∧ a ∈ en ∪ ex ∧ darrow src a b)) ∧
    (∀ a b, uline q a b ↔ uline g a b ∨ ((b ∈ en ∧ a ∈ en ∪ ex ∨ a ∈ en ∧ b ∈ en ∪ ex) ∧ uline src a b))).
Proof.
  intros Ho Hg Hs Hen Hex Hno. eapply returns_mono; [by apply add_edges_from_spec|]. cbn beta. cbn [default].
  intros q (H1 & H2 & H3).
  assert (∀ a b, darrow q a b ↔ darrow g a b ∨ (b ∈ en ∧ a ∈ en ∪ ex ∧ darrow src a b)) as Hd.
  { intros a b. rewrite H2. set_solver +. }
  assert (∀ a b, uline q a b ↔ uline g a b ∨ ((b ∈ en ∧ a ∈ en ∪ ex ∨ a ∈ en ∧ b ∈ en ∪ ex) ∧ uline src a b)) as Hu.
  { intros a b. rewrite H3, !elem_of_union. assert (uline src a b ↔ uline src b a) by (split; apply (pdw_sym _ Hs)). tauto. }
  split_and!; [done| |done..]. split.
  - intros a b. rewrite Hd, H1. intros [H|(Hb & Ha & H)]; [by apply (pdw_dir _ Hg)|].
    apply (pdw_dir _ Hs) in H as (_ & _ & ?). apply elem_of_union in Ha as [Ha|Ha]; auto.
  - intros a b. rewrite Hu, H1. intros [H|(Hab & H)]; [by apply (pdw_und _ Hg)|].
    apply (pdw_und _ Hs) in H as (_ & _ & ?).
    split_and!; [..|done]; destruct Hab as [[? Ha]|[? Ha]]; apply elem_of_union in Ha as [Ha|Ha]; auto.
  - intros a b. rewrite !Hu. intros [H|(Hab & H)]; [left; by apply (pdw_sym _ Hg)|right].
    split; [tauto|by apply (pdw_sym _ Hs)].
  - intros a b. rewrite Hu, Hd. intros [H|(Hab & H)] [H'|(Hb & _ & H')].
    + by apply (pdw_one _ Hg a b).
    + destruct (Hno a b) as [_ ?]; [by left|done].
    + destruct (Hno a b) as [? ?]; [by right; left|tauto].
    + by apply (pdw_one _ Hs a b).
Qed.

(** ** the split *)
Definition apart (l : list nset) : Prop := ∀ l1 A l2, l = l1 ++ A :: l2 → ∀ B, B ∈ l1 → A ## B.
Lemma apart_snoc l A : apart l → (∀ B, B ∈ l → A ## B) → apart (l ++ [A]).
Proof.
  intros Hl HA l1 X l2 E B HB.
  destruct l2 as [|Y l2 _] using rev_ind.
  - apply app_inj_tail in E as [-> ->]. by apply HA.
  - rewrite app_comm_cons, app_assoc in E. apply app_inj_tail in E as [E _]. by eapply Hl.
Qed.

Lemma subgraphs_apart o g fuel' : iter_ok o → ∀ fuel (W : nset) acc, apart acc → (∀ B, B ∈ acc → B ## W) →
  size W < fuel → size W + 1 < fuel' →
  returns (subgraphs_loop o fuel fuel' PDAG_T g None W acc) apart.
Proof.
  intros Ho. induction fuel as [|fuel IH]; intros W acc Hacc HW Hf Hf'; [lia|]. cbn [subgraphs_loop].
  destruct (o 259 W) as [|i rest] eqn:E; [done|].
  assert (i ∈ W) as Hi by (rewrite <-(iter_elem o 259 W i Ho), E; left).
  assert (size (W ∖ {[i]}) < size W) as Hsz by (apply subset_size; set_solver +Hi).
  rewrite find_reachable_no_circle. eapply returns_bind.
  { apply (find_reachable_spec o Ho PDAG_T (no_circle g)); [|lia]. intros u [] v H'; try (by apply elem_of_empty in H'); set_solver. }
  cbn beta. intros r Hr.
  assert (r ⊆ W ∖ {[i]}) as HrW.
  { intros v Hv. apply Hr, reach_in_pool in Hv. done. }
  assert (size (W ∖ {[i]} ∖ r) ≤ size (W ∖ {[i]})) by (apply subseteq_size; set_solver +).
  apply IH; [| |lia..].
  - apply apart_snoc; [done|]. intros B HB%HW. set_solver +HB HrW Hi.
  - intros B [HB%HW|HB]%elem_of_app; [set_solver +HB|]. apply elem_of_list_singleton in HB as ->. set_solver +.
Qed.

Lemma rai_split_apart o lf V g en : iter_ok o → size V * size V + 1 < lf → en ⊆ V → en ≠ ∅ →
  returns (rai_split o lf g en) (λ '(d, l, a), d ⊆ en ∧ a = en ∖ d ∧ (∀ A, A ∈ l → A ⊆ a) ∧ apart l).
Proof.
  intros Ho Hlf Hen Hne. pose proof (lf_V lf V Hlf) as Hlf'. assert (size en ≤ size V) by by apply subseteq_size.
  pose proof (rai_split_spec o Ho lf V Hlf g en Hen Hne) as H1.
  assert (returns (rai_split o lf g en) (λ '(d, l, a), apart l)) as H2.
  { apply returns_ok in H1 as ([[d l] a] & E & Hd & _). unfold rai_split in *.
    destruct (lowest_set o lf g en) as [d'|e|] eqn:Ed; [|done..]. cbn [mbind res_bind] in *.
    destruct (find_unconnected_subgraphs o lf PDAG_T g (Some (en ∖ d')) None) as [l'|e|] eqn:El; [|done..].
    cbn [mbind res_bind] in *. cbn beta iota delta [returns].
    assert (returns (find_unconnected_subgraphs o lf PDAG_T g (Some (en ∖ d')) None) apart) as H3.
    { unfold find_unconnected_subgraphs. cbn [default].
      assert (size (en ∖ d') ≤ size en) by (apply subseteq_size; set_solver +).
      apply subgraphs_apart; [done|..|simpl; lia|simpl; lia].
      - intros l1 A l2 Hl. by destruct l1.
      - intros B HB. by apply elem_of_nil in HB. }
    rewrite El in H3. done. }
  eapply returns_mono; [exact (returns_and _ _ _ H1 H2)|].
  cbn beta. intros [[d l] a]. tauto.
Qed.

(** ** the tree *)
Fixpoint tree_ok (bdeu : graph → nset → Q) (V : nset) (fuel : nat) (t : ggt) (en ex : nset) : Prop :=
  match fuel with
  | 0 => False
  | S fuel =>
    en ⊆ V ∧ ex ⊆ V ∧ en ## ex ∧
    match t with
    | GLeaf en' ex' g sc => en' = en ∧ ex' = ex ∧ mnodes g = V ∧ pd_wf g ∧ (∀ a b, ¬ (darrow g a b ∧ darrow g b a)) ∧ leaf_scored V bdeu (en, ex, g, sc)
    | GNode en' ex' cs => en' = en ∧ ex' = ex ∧ cs ≠ [] ∧ ∀ ts d, (ts, d) ∈ cs → ∃ As D,
        D ⊆ en ∧ Forall2 (λ t A, tree_ok bdeu V fuel t A ex) ts As ∧ (∀ A, A ∈ As → A ⊆ en ∖ D) ∧ apart As ∧
        tree_ok bdeu V fuel d D (en ∖ D ∪ ex)
    end
  end.

Lemma mempty_wf V : pd_wf (mempty V).
Proof. split; intros a b; unfold darrow, uline, has_mark; set_solver +. Qed.
Lemma mempty_adj V a b : ¬ pd_adj (mempty V) a b.
Proof. unfold pd_adj, darrow, uline, has_mark. set_solver +. Qed.

Section learn.
  Context (o : order) (Ho : iter_ok o) (ci : citest) (ow : bool) (lf : nat) (V : nset).
  Context (Hlf : size V * size V + 1 < lf).

  Lemma leaf_pdag_spec en ex g : mnodes g = V → pd_wf g → en ⊆ V → ex ⊆ V →
    returns (lp ← add_edges_from o (mempty V) g (Some en) (Some ex); r ← convert_to_dag o lf lp (empty_graph V); Ok (lp, r)) (λ '(p, r),
      (∀ g' sc, pd_same g g' → union_of V [(en, ex, g', sc)] p) ∧ gnodes r.1 = V ∧ if (r.2 : bool) then extends r.1 p else ¬ ∃ e, extends e p).
  Proof.
    intros HN Hw Hen Hex. pose proof (lf_V lf V Hlf).
    eapply returns_bind; [apply (add_edges_from_wf o (mempty V) g en ex Ho)|].
    - apply mempty_wf. - done. - done. - done. - intros a b H'. by apply mempty_adj in H'.
    - cbn beta. intros q (H1 & H2 & H3 & H4). eapply returns_bind; [apply (convert_to_dag_spec o Ho q (empty_graph V) lf)|].
      + done. + by rewrite H1. + done. + rewrite H1. simpl. lia.
      + cbn beta. intros r [H5 H6]. cbn [returns]. split; [|split; [by rewrite H5, H1|done]].
        intros g' sc Hc. split; [by rewrite H1|]. setoid_rewrite elem_of_list_singleton. split; intros a b.
        * rewrite H3, (proj1 (proj2 Hc _ _)). split.
          -- intros [H'|H']; [|by eexists]. exfalso. apply (mempty_adj V a b). right. by left.
          -- intros (x & -> & H'). by right.
        * rewrite H4, (proj2 (proj2 Hc _ _)). split.
          -- intros [H'|H']; [|by eexists]. exfalso. apply (mempty_adj V a b). by left.
          -- intros (x & -> & H'). by right.
  Qed.

  Lemma make_leaf_spec bdeu en ex s B : ra_inv ci V B s → en ⊆ V → ex ⊆ V → en ## ex → ∀ fuel,
    returns (make_leaf o lf V true false bdeu en ex (pc_graph s)) (λ t, tree_ok bdeu V (S fuel) t en ex).
  Proof.
    intros Hs Hen Hex Hd fuel.
    pose proof (leaf_pdag_spec en ex (pc_graph s) (ra_nodes _ _ _ _ Hs) (ra_wf _ _ _ _ Hs) Hen Hex) as Hl.
    assert (pd_same (pc_graph s) (pd_copy (pc_graph s))) as Hc by (apply pd_copy_same, Hs).
    assert (∀ sc, leaf_scored V bdeu (en, ex, pd_copy (pc_graph s), sc) → tree_ok bdeu V (S fuel) (GLeaf en ex (pd_copy (pc_graph s)) sc) en ex) as Hok.
    { intros sc Hsc. cbn [tree_ok]. split_and!; [done..| | | |done].
      - rewrite <-(proj1 Hc). apply Hs.
      - eapply pd_same_wf; [exact Hc|apply Hs].
      - intros a b. rewrite <-!(proj1 (proj2 Hc _ _)). apply (ra_both _ _ _ _ Hs). }
    unfold make_leaf, leaf_score.
    destruct (add_edges_from o (mempty V) (pc_graph s) (Some en) (Some ex)) as [lp|e|]; [|done..].
    cbn [mbind res_bind] in Hl |- *. destruct (convert_to_dag o lf lp (empty_graph V)) as [[d b]|e|]; [|done..].
    cbn [mbind res_bind snd fst returns] in Hl |- *. destruct Hl as (H1 & H2 & H3).
    destruct b; cbn [mbind res_bind snd fst assert_ returns]; apply Hok; exists lp; (split; [by apply H1|]); cbn [fst snd].
    - by exists d.
    - done.
  Qed.

  Lemma ra_rebase s B : ra_inv ci V B s → ra_inv ci V (pc_log s) s.
  Proof. intros Hs. split; try apply Hs; [by intros i j c H []|done]. Qed.

  (** starting the next hypothesis from an earlier graph *)
  Lemma ra_restart_sep s s' m B B' : ra_inv ci V B s → ra_inv ci V B' s' → (∀ e, e ∈ pc_log s → e ∈ B') →
    (∀ a b, a ∈ V → b ∈ V → a ≠ b → (m : sepset) !! hkey a b = pc_sep s !! hkey a b) →
    ra_inv ci V (pc_log s') (PCState (pd_copy (pc_graph s)) m (pc_log s')).
  Proof.
    intros Hs Hs' Hlog Hm. pose proof (ra_wf _ _ _ _ Hs) as Hw. pose proof (pd_copy_same _ Hw) as Hc.
    split; simpl.
    - apply Hs.
    - by eapply pd_same_wf.
    - intros a b. rewrite <-!(proj1 (proj2 Hc _ _)). apply (ra_both _ _ _ _ Hs).
    - intros a b Ha Hb Hne. rewrite Hm by done. by apply Hs.
    - apply Hs'.
    - apply Hs'.
    - by intros i j c H [].
    - intros a b Ha Hb Hne Hn. destruct (ra_rem _ _ _ _ Hs a b Ha Hb Hne) as (S & HS & Ht).
      + by rewrite (pd_same_adj _ _ _ _ Hc).
      + exists S. rewrite Hm by done. split; [done|]. eapply tested_mono; [|exact Ht]. intros e He%Hlog. by apply (ra_base _ _ _ _ Hs').
    - done.
    - intros a b Ha Hb Hne Hn. rewrite Hm by done. apply (ra_kept _ _ _ _ Hs); [done..|]. by rewrite (pd_same_adj _ _ _ _ Hc).
  Qed.
  Lemma ra_restart s s' B B' : ra_inv ci V B s → ra_inv ci V B' s' → (∀ e, e ∈ pc_log s → e ∈ B') →
    ra_inv ci V (pc_log s') (PCState (pd_copy (pc_graph s)) (pc_sep s) (pc_log s')).
  Proof. intros Hs Hs' Hlog. by apply (ra_restart_sep s s' _ B B'). Qed.

  Definition grown (B : clog) (s : pc_state) : Prop := ∃ B', ra_inv ci V B' s ∧ ∀ e, e ∈ B → e ∈ B'.
  Lemma grown_trans B s s' : grown B s → grown (pc_log s) s' → grown B s'.
  Proof.
    intros (B1 & H1 & HB1) (B2 & H2 & HB2). exists B2. split; [done|]. intros e He%HB1.
    by apply HB2, (ra_base _ _ _ _ H1).
  Qed.

  Lemma brai_rec_spec bdeu K fuel : 0 < K → ∀ en ex k s B, size V < fuel + k → k ≤ size V → ra_inv ci V B s →
    en ⊆ V → ex ⊆ V → en ## ex →
    returns (brai_rec o ci ow lf V true false bdeu K fuel en ex k s) (λ r,
      tree_ok bdeu V fuel r.1 en ex ∧ grown (pc_log s) r.2).
  Proof.
    intros HK. induction fuel as [|fuel IH]; intros en ex k s B Hf Hk Hs Hen Hex Hd; [lia|]. cbn [brai_rec].
    destruct (rai_exit o (pc_graph s) en k) eqn:E.
    { eapply returns_bind; [by apply (make_leaf_spec bdeu en ex s B Hs Hen Hex Hd fuel)|]. cbn beta.
      intros t Ht. cbn [returns fst snd]. split; [done|]. exists (pc_log s). split; [by eapply ra_rebase|done]. }
    apply rai_exit_false in E as (n & Hn & Hkn); [|done]. pose proof (fan_in_bound ci V B s n Hs).
    eapply returns_bind.
    - apply (for_returns_pre _ _ ([], s) (λ pre '(cs, s'), length cs = length pre ∧ grown (pc_log s) s' ∧
        ∀ ts d, (ts, d) ∈ cs → ∃ As D,
          D ⊆ en ∧ Forall2 (λ t A, tree_ok bdeu V fuel t A ex) ts As ∧ (∀ A, A ∈ As → A ⊆ en ∖ D) ∧ apart As ∧
          tree_ok bdeu V fuel d D (en ∖ D ∪ ex))).
      + split_and!; [done| |].
        * exists (pc_log s). split; [by eapply ra_rebase|done].
        * intros ts d Hin. by apply elem_of_nil in Hin.
      + intros pre x post [cs s1] _ (Hlen & Hg1 & Hcs). pose proof Hg1 as (B1 & Hs1 & HB1).
        pose proof (ra_restart s s1 B B1 Hs Hs1 HB1) as Hr.
        eapply returns_bind; [by apply refine_and_orient_spec|]. cbn beta. intros s2 Hs2.
        assert (grown (pc_log s) s2) as Hg2.
        { exists (pc_log s1). split; [done|]. intros e He%HB1. by apply (ra_base _ _ _ _ Hs1). }
        eapply returns_bind; [apply (rai_split_apart o lf V _ en Ho Hlf); [done|set_solver +Hn]|]. cbn beta.
        intros [[d l] a] (Hde & -> & Hl & Hap).
        eapply returns_bind.
        * apply (for_returns_pre _ _ ([], s2) (λ pre '(ts, s'), grown (pc_log s) s' ∧
            Forall2 (λ t A, tree_ok bdeu V fuel t A ex) ts pre)).
          -- by split.
          -- intros pre' A post' [ts s3] El [Hg3 Hts]. pose proof Hg3 as (B3 & Hs3 & HB3).
             assert (A ⊆ en ∖ d) as HA by (apply Hl; rewrite El; set_solver +).
             eapply returns_bind; [apply (IH A ex (S k) s3 B3); [lia|lia|done|set_solver +HA Hen|done|set_solver +HA Hd]|].
             cbn beta. intros [t s4] [Ht Hg4]. cbn [returns fst snd] in *. split; [by eapply grown_trans|].
             apply Forall2_app; [done|]. by constructor.
        * cbn beta. intros [ts s3] [Hg3 Hts]. pose proof Hg3 as (B3 & Hs3 & HB3).
          eapply returns_bind.
          { apply (IH d (en ∖ d ∪ ex) (S k) s3 B3); [lia|lia|done|set_solver +Hde Hen|set_solver +Hen Hex|set_solver +Hde Hd]. }
          cbn beta. intros [t s4] [Ht Hg4]. cbn [returns fst snd] in *. split_and!.
          -- rewrite !app_length. simpl. lia.
          -- by eapply grown_trans.
          -- intros ts' d' [Hin|Hin]%elem_of_app; [by apply Hcs|]. apply elem_of_list_singleton in Hin. simplify_eq.
             exists l, d. done.
    - cbn beta. intros [cs s'] (Hlen & Hg & Hcs). cbn [returns fst snd]. split; [|done].
      cbn [tree_ok]. split_and!; [done..| |done]. rewrite seq_length in Hlen. intros ->. simpl in Hlen. lia.
  Qed.
End learn.

Lemma tree_leaves bdeu V fuel : ∀ t en ex l, tree_ok bdeu V fuel t en ex → picks t l → Forall (leaf_scored V bdeu) l.
Proof.
  induction fuel as [|fuel IH]; intros t en ex l Ht Hp; [done|]. cbn [tree_ok] in Ht. destruct Ht as (_ & _ & _ & Ht).
  inversion Hp as [en' ex' g sc|en' ex' cs ts d ls l' Hin Hts Hd]; subst.
  - destruct Ht as (-> & -> & _ & _ & _ & Hs). apply Forall_cons. by split.
  - destruct Ht as (_ & _ & _ & Hc). destruct (Hc _ _ Hin) as (As & D & _ & HA & _ & _ & HD).
    apply Forall_app. split; [|by eapply IH]. clear Hp Hc Hin Hd HD. revert As HA.
    induction Hts as [|t l ts ls H1 H2 IH2]; intros As HA; [constructor|]. inversion HA; subst. cbn [concat]. apply Forall_app. split; [by eapply IH|by eapply IH2].
Qed.

(** ** scores *)
Global Instance score_eq_equiv : Equivalence score_eq.
Proof.
  split.
  - intros [a|]; simpl; [apply Qeq_refl|done].
  - intros [a|] [b|]; simpl; done.
  - intros [a|] [b|] [c|]; simpl; try done. apply Qeq_trans.
Qed.
Global Instance score_add_proper : Proper (score_eq ==> score_eq ==> score_eq) score_add.
Proof. intros [a|] [b|] H [c|] [d|] H'; simpl in *; try done. by rewrite H, H'. Qed.
Lemma score_add_assoc a b c : score_eq (score_add (score_add a b) c) (score_add a (score_add b c)).
Proof. destruct a, b, c; simpl; try done. ring. Qed.
Lemma score_add_0_l a : score_eq (score_add (Some 0%Q) a) a.
Proof. destruct a; simpl; [ring|done]. Qed.
Lemma score_add_0_r a : score_eq (score_add a (Some 0%Q)) a.
Proof. destruct a; simpl; [ring|done]. Qed.
Global Instance score_le_proper : Proper (score_eq ==> score_eq ==> iff) score_le.
Proof. intros [a|] [b|] H [c|] [d|] H'; simpl in *; try done; try tauto. by rewrite H, H'. Qed.
Lemma score_le_refl a : score_le a a.
Proof. destruct a; simpl; [apply Qle_refl|done]. Qed.
Lemma score_le_trans a b c : score_le a b → score_le b c → score_le a c.
Proof. destruct a, b, c; simpl; try done. apply Qle_trans. Qed.
Lemma score_add_le a b c d : score_le a b → score_le c d → score_le (score_add a c) (score_add b d).
Proof. destruct a, b, c, d; simpl; try done. apply Qplus_le_compat. Qed.
Lemma score_lt_true a b : score_lt a b = true → score_le a b.
Proof. destruct a, b; simpl; try done. intros H%qlt_spec. by apply Qlt_le_weak. Qed.
Lemma score_lt_false a b : score_lt a b = false → score_le b a.
Proof.
  destruct a, b; simpl; try done. intros H. apply Qnot_lt_le. intros H'%qlt_spec. congruence.
Qed.
Lemma total_app l l' : score_eq (total (l ++ l')) (score_add (total l) (total l')).
Proof.
  induction l as [|x l IH].
  - cbn [app]. symmetry. apply score_add_0_l.
  - change (total ((x :: l) ++ l')) with (score_add x.2 (total (l ++ l'))).
    change (total (x :: l)) with (score_add x.2 (total l)). by rewrite IH, score_add_assoc.
Qed.

Lemma argmax_go_spec l : ∀ pre best bs, pre !! best = Some bs → (∀ s, s ∈ pre → score_le s bs) →
  ∃ s, (pre ++ l) !! argmax_go best bs (length pre) l = Some s ∧ ∀ s', s' ∈ pre ++ l → score_le s' s.
Proof.
  induction l as [|x l IH]; intros pre best bs Hb Hm; cbn [argmax_go].
  - exists bs. rewrite app_nil_r. done.
  - rewrite cons_middle, app_assoc. replace (S (length pre)) with (length (pre ++ [x])) by (rewrite app_length; simpl; lia).
    destruct (score_lt bs x) eqn:E.
    + apply IH.
      * rewrite lookup_app_r, Nat.sub_diag by done. done.
      * intros s [Hs|Hs]%elem_of_app; [|apply elem_of_list_singleton in Hs as ->; apply score_le_refl].
        eapply score_le_trans; [by apply Hm|]. by apply score_lt_true.
    + apply IH.
      * by apply lookup_app_l_Some.
      * intros s [Hs|Hs]%elem_of_app; [by apply Hm|]. apply elem_of_list_singleton in Hs as ->. by apply score_lt_false.
Qed.
Lemma argmax_spec l : l ≠ [] → returns (argmax l) (λ i, ∃ s, l !! i = Some s ∧ ∀ s', s' ∈ l → score_le s' s).
Proof.
  destruct l as [|s l]; [done|]. intros _. cbn [argmax returns]. apply (argmax_go_spec l [s] 0 s); [done|].
  intros s' Hs'. apply elem_of_list_singleton in Hs' as ->. apply score_le_refl.
Qed.

(** ** sampling *)
Section sample.
  Context (o : order) (Ho : iter_ok o) (V : nset) (pick : nat → list score → nat).
  Context (Hpick : ∀ n l, l ≠ [] → pick n l < length l).
  Context (temp : Q) (Htemp : (0 <= temp)%Q).

  Lemma select_spec n l : l ≠ [] → returns (select pick temp n l) (λ i, ∃ s, l !! i = Some s ∧
    ((temp == 0)%Q → ∀ s', s' ∈ l → score_le s' s)).
  Proof.
    intros Hl. unfold select. destruct (qlt 0 temp) eqn:E.
    - apply qlt_spec in E. cbn [returns]. destruct (lookup_lt_is_Some_2 l (pick n l)) as [s Hs]; [by apply Hpick|].
      exists s. split; [done|]. intros H. exfalso. rewrite H in E. by apply Qlt_irrefl in E.
    - assert (temp == 0)%Q as H0.
      { apply Qle_antisym; [|done]. apply Qnot_lt_le. intros H%qlt_spec. congruence. }
      rewrite (proj2 (Qeq_bool_iff _ _) H0). eapply returns_mono; [by apply argmax_spec|]. cbn beta.
      intros i (s & Hs & Hm). by exists s.
  Qed.

  (** what sampling a tree with the nodes en, ex adds to p *)
  Definition sampled (P : list leaf → Prop) (en ex : nset) (p p' : mgraph) (sc : score) : Prop :=
    ∃ l, P l ∧ mnodes p' = V ∧ pd_wf p' ∧ (∀ a b, ¬ (darrow p' a b ∧ darrow p' b a)) ∧
      (∀ a b, darrow p' a b ↔ darrow p a b ∨ ∃ x, x ∈ l ∧ leaf_arrow x a b) ∧
      (∀ a b, uline p' a b ↔ uline p a b ∨ ∃ x, x ∈ l ∧ leaf_line x a b) ∧
      (∀ a b x, x ∈ l → leaf_arrow x a b → b ∈ en ∧ a ∈ en ∪ ex) ∧
      (∀ a b x, x ∈ l → leaf_line x a b → b ∈ en ∧ a ∈ en ∪ ex ∨ a ∈ en ∧ b ∈ en ∪ ex) ∧
      score_eq sc (total l) ∧
      ((temp == 0)%Q → ∀ l', P l' → score_le (total l') sc).

  Lemma sampled_mono P P' en ex en' ex' p p' sc : (∀ l, P l ↔ P' l) → en ⊆ en' → ex ⊆ en' ∪ ex' →
    sampled P en ex p p' sc → sampled P' en' ex' p p' sc.
  Proof.
    intros HP Hen Hex (l & H1 & H2 & H3 & H4 & H5 & H6 & H7 & H8 & H9 & H10). exists l.
    split_and!; try done.
    - by apply HP.
    - intros a b x Hx [Hb Ha]%H7; [|done]. set_solver +Hen Hex Hb Ha.
    - intros a b x Hx Hl. apply H8 in Hl; [|done]. clear -Hl Hen Hex. set_solver.
    - intros Ht l' Hl'. apply H10; [done|]. by apply HP.
  Qed.

  Lemma sampled_trans P P' en ex p p' p'' sc sc' :
    sampled P en ex p p' sc → sampled P' en ex p' p'' sc' →
    sampled (λ l, ∃ l1 l2, P l1 ∧ P' l2 ∧ l = l1 ++ l2) en ex p p'' (score_add sc sc').
  Proof.
    intros (l & H1 & H2 & H3 & H4 & H5 & H6 & H7 & H8 & H9 & H10) (l' & I1 & I2 & I3 & I4 & I5 & I6 & I7 & I8 & I9 & I10).
    exists (l ++ l'). split_and!; [by eauto|done..| | | | | |].
    - intros a b. rewrite I5, H5. setoid_rewrite elem_of_app. clear. naive_solver.
    - intros a b. rewrite I6, H6. setoid_rewrite elem_of_app. clear. naive_solver.
    - intros a b x [Hx|Hx]%elem_of_app; eauto.
    - intros a b x [Hx|Hx]%elem_of_app; eauto.
    - by rewrite total_app, H9, I9.
    - intros Ht l0 (l1 & l2 & Hl1 & Hl2 & ->). rewrite total_app. apply score_add_le; auto.
  Qed.

  Lemma sampled_none en ex p : mnodes p = V → pd_wf p → (∀ a b, ¬ (darrow p a b ∧ darrow p b a)) →
    sampled (λ l, l = []) en ex p p (Some 0%Q).
  Proof.
    intros HN Hw Hb. exists []. split_and!; try done.
    - intros a b. split; [by left|]. intros [?|(x & Hx & _)]; [done|by apply elem_of_nil in Hx].
    - intros a b. split; [by left|]. intros [?|(x & Hx & _)]; [done|by apply elem_of_nil in Hx].
    - intros a b x Hx. by apply elem_of_nil in Hx.
    - intros a b x Hx. by apply elem_of_nil in Hx.
    - by intros _ l' ->.
  Qed.

  (** where the sampled edges are *)
  Lemma sampled_adj P en ex p p' sc a b : sampled P en ex p p' sc → pd_adj p' a b →
    pd_adj p a b ∨ (a ∈ en ∪ ex ∧ b ∈ en ∪ ex ∧ (a ∈ en ∨ b ∈ en)).
  Proof.
    intros (l & _ & _ & _ & _ & H5 & H6 & H7 & H8 & _) [H|[H|H]].
    - apply H6 in H as [H|(x & Hx & H)]; [by left; left|]. apply H8 in H; [|done]. right. clear -H. set_solver.
    - apply H5 in H as [H|(x & Hx & H)]; [by left; right; left|]. apply H7 in H as [? ?]; [|done]. right. set_solver.
    - apply H5 in H as [H|(x & Hx & H)]; [by left; right; right|]. apply H7 in H as [? ?]; [|done]. right. set_solver.
  Qed.

  Lemma sample_rec_spec {bdeu} fuel : ∀ t en ex p n, tree_ok bdeu V fuel t en ex → mnodes p = V → pd_wf p →
    (∀ a b, ¬ (darrow p a b ∧ darrow p b a)) → (∀ a b, pd_adj p a b → a ∉ en ∧ b ∉ en) →
    returns (sample_rec o V pick fuel temp t p n) (λ '(p', sc, _), sampled (picks t) en ex p p' sc).
  Proof.
    induction fuel as [|fuel IH]; intros t en ex p n Ht HN Hw Hb Hno; [done|]. cbn [tree_ok] in Ht.
    destruct Ht as (Hen & Hex & Hdis & Ht). cbn [sample_rec]. destruct t as [en' ex' g sc|en' ex' cs].
    - destruct Ht as (-> & -> & HgN & Hgw & Hgb & _).
      eapply returns_bind; [apply (add_edges_from_wf o p g en ex Ho); [done|done|by rewrite HN..|done]|].
      cbn beta. intros q (HqN & Hqw & Hqd & Hqu). cbn [returns].
      exists [(en, ex, g, sc)]. split_and!; [constructor|congruence|done|..].
      + intros a b. rewrite !Hqd. intros [[H1|(Hb1 & Ha1 & H1)] [H2|(Hb2 & Ha2 & H2)]].
        * by apply (Hb a b).
        * destruct (Hno a b) as [? ?]; [by right; left|done].
        * destruct (Hno a b) as [? ?]; [by right; right|done].
        * by apply (Hgb a b).
      + intros a b. rewrite Hqd. setoid_rewrite elem_of_list_singleton. split; [intros [H|H]; [by left|right]|].
        * by eexists.
        * intros [H|(x & -> & H)]; [by left|by right].
      + intros a b. rewrite Hqu. setoid_rewrite elem_of_list_singleton. split; [intros [H|H]; [by left|right]|].
        * by eexists.
        * intros [H|(x & -> & H)]; [by left|by right].
      + intros a b x ->%elem_of_list_singleton (? & ? & _). done.
      + intros a b x ->%elem_of_list_singleton (? & _). done.
      + cbn [total foldr snd]. by rewrite score_add_0_r.
      + intros _ l' Hl'. inversion Hl'; subst. cbn [total foldr snd]. rewrite score_add_0_r. apply score_le_refl.
    - destruct Ht as (-> & -> & Hcs & Hc).
      set (cpicks := λ (c : list ggt * ggt) (l : list leaf), ∃ l1 l2, (∃ ls, Forall2 picks c.1 ls ∧ l1 = concat ls) ∧ picks c.2 l2 ∧ l = l1 ++ l2).
      eapply returns_bind.
      + apply (for_returns_pre _ _ ([], n) (λ pre '(res, _), Forall2 (λ c (r : mgraph * score),
          sampled (cpicks c) en ex (mempty V) r.1 r.2) pre res)); [constructor|].
        intros pre [ts d] post [res n1] El Hres.
        destruct (Hc ts d) as (As & D & HD & HA & HAe & Hap & Hd); [rewrite El; set_solver +|].
        eapply returns_bind.
        * apply (for_returns_pre ts _ (mempty V, Some 0%Q, n1) (λ pre '(p, sc, _), ∃ As1 As2, As = As1 ++ As2 ∧
            Forall2 (λ t A, tree_ok bdeu V fuel t A ex) pre As1 ∧
            sampled (λ l, ∃ ls, Forall2 picks pre ls ∧ l = concat ls) (⋃ As1) ex (mempty V) p sc)).
          -- exists [], As. split_and!; [done|constructor|].
             eapply sampled_mono; [..|apply (sampled_none ∅ ex); [done|apply mempty_wf|]].
             ++ intros l. split; [intros ->; by exists []|]. intros (ls & Hls & ->). by inversion Hls.
             ++ set_solver +. ++ set_solver +.
             ++ intros a b [H _]. eapply mempty_adj. right. left. exact H.
          -- intros pre' t post' [[p1 sc1] n2] El' (As1 & As2 & HAs & HA1 & Hs1).
             assert (∃ A As3, As2 = A :: As3 ∧ tree_ok bdeu V fuel t A ex) as (A & As3 & -> & HtA).
             { rewrite El', HAs in HA. apply Forall2_app_inv in HA as [_ HA]; [|by eapply Forall2_length].
               apply Forall2_cons_inv_l in HA as (A & As3 & HtA & _ & ->). eauto. }
             assert (∀ B, B ∈ As1 → A ## B) as HAB by (by eapply Hap).
             assert (A ## ex ∧ A ⊆ V) as [HAx HAV].
             { destruct fuel; [done|]. cbn [tree_ok] in HtA. tauto. }
             pose proof Hs1 as (l1 & _ & K1 & K2 & K3 & _).
             eapply returns_bind.
             { apply (IH t A ex p1 n2 HtA K1 K2 K3). intros a b Hab.
               apply (sampled_adj _ _ _ _ _ _ _ _ Hs1) in Hab as [Hab|Hab]; [by apply mempty_adj in Hab|].
               assert (∀ v, v ∈ ⋃ As1 ∪ ex → v ∉ A) as Hv.
               { intros v [Hv|Hv]%elem_of_union HvA; [|set_solver +Hv HvA HAx].
                 apply elem_of_union_list in Hv as (B & HB & Hv). pose proof (HAB B HB) as HB'. set_solver +HB' Hv HvA. }
               split; apply Hv; tauto. }
             cbn beta. intros [[p2 sc2] n3] Hs2. cbn [returns].
             exists (As1 ++ [A]), As3. split_and!.
             ++ by rewrite HAs, <-app_assoc.
             ++ apply Forall2_app; [done|]. by constructor.
             ++ eapply sampled_mono; [| | |eapply sampled_trans].
                4:{ eapply (sampled_mono _ _ (⋃ As1) ex (⋃ (As1 ++ [A])) ex); [by intros l|..|exact Hs1].
                    - rewrite union_list_app_L. set_solver +. - set_solver +. }
                4:{ eapply (sampled_mono _ _ A ex (⋃ (As1 ++ [A])) ex); [by intros l|..|exact Hs2].
                    - rewrite union_list_app_L. simpl. set_solver +. - set_solver +. }
                ** cbn beta. intros l. split.
                   --- intros (l1' & l2 & (ls & Hls & ->) & Hl2 & ->). exists (ls ++ [l2]). split.
                       +++ apply Forall2_app; [done|]. by constructor.
                       +++ rewrite concat_app. simpl. by rewrite app_nil_r.
                   --- intros (ls & Hls & ->). apply Forall2_app_inv_l in Hls as (ls1 & ls2 & Hls1 & Hls2 & ->).
                       apply Forall2_cons_inv_l in Hls2 as (l2 & ls3 & Hl2 & Hls3 & ->). inversion Hls3; subst.
                       exists (concat ls1), l2. split_and!; [by eauto|done|]. rewrite concat_app. simpl. by rewrite app_nil_r.
                ** done.
                ** set_solver +.
        * cbn beta. intros [[p1 sc1] n2] (As1 & As2 & HAs & HA1 & Hs1).
          assert (As2 = []) as ->.
          { apply Forall2_length in HA1. apply Forall2_length in HA. rewrite HAs, app_length in HA.
            destruct As2; [done|simpl in HA; lia]. }
          rewrite app_nil_r in HAs. subst As1.
          assert (⋃ As ⊆ en ∖ D) as HU.
          { intros v (B & HB & Hv)%elem_of_union_list. by apply (HAe B). }
          pose proof Hs1 as (l1 & _ & K1 & K2 & K3 & _).
          eapply returns_bind.
          { apply (IH d D (en ∖ D ∪ ex) p1 n2 Hd K1 K2 K3). intros a b Hab.
            apply (sampled_adj _ _ _ _ _ _ _ _ Hs1) in Hab as [Hab|(Ha & Hb' & _)]; [by apply mempty_adj in Hab|].
            assert (∀ v, v ∈ ⋃ As ∪ ex → v ∉ D) as Hv.
            { intros v [Hv%HU|Hv]%elem_of_union HvD; [set_solver +Hv HvD|set_solver +Hv HvD HD Hdis]. }
            split; by apply Hv. }
          cbn beta. intros [[p2 sc2] n3] Hs2. cbn [returns]. apply Forall2_app; [done|]. constructor; [|constructor].
          cbn [fst snd]. apply (sampled_trans (λ l1, ∃ ls, Forall2 picks ts ls ∧ l1 = concat ls) (picks d) en ex (mempty V) p1).
          -- refine (sampled_mono _ _ (⋃ As) ex en ex _ _ _ _ _ _ Hs1); [done|set_solver +HU|set_solver +].
          -- refine (sampled_mono _ _ D (en ∖ D ∪ ex) en ex _ _ _ _ _ _ Hs2); [done|done|set_solver +HD].
      + cbn beta. intros [res n1] Hres.
        assert (res ≠ []) as Hres0.
        { intros ->. apply Forall2_length in Hres. by destruct cs. }
        eapply returns_bind; [apply select_spec; by destruct res|]. cbn beta. intros i (s & Hs & Hm).
        rewrite list_lookup_fmap in Hs. destruct (res !! i) as [[q sq]|] eqn:Ei; [|done]. simpl in Hs. simplify_eq.
        destruct (Forall2_lookup_r _ _ _ _ _ Hres Ei) as ([ts d] & Ec & Hq). cbn [fst snd] in Hq.
        destruct Hq as (l & H1 & H2 & H3 & H4 & H5 & H6 & H7 & H8 & H9 & H10).
        eapply returns_bind; [apply (add_edges_from_wf o p q en ex Ho); [done|done|by rewrite HN..|done]|].
        cbn beta. intros p' (HqN & Hqw & Hqd & Hqu). cbn [returns].
        assert (∀ c l', c ∈ cs → cpicks c l' → picks (GNode en ex cs) l') as Hcp.
        { intros [ts' d'] l' Hin (l1 & l2 & (ls & Hls & ->) & Hl2 & ->). by eapply picks_node. }
        exists l. split_and!; [|congruence|done|..].
        * apply (Hcp (ts, d)); [by eapply elem_of_list_lookup_2|done].
        * intros a b. rewrite !Hqd. intros [[I1|(Hb1 & Ha1 & I1)] [I2|(Hb2 & Ha2 & I2)]].
          -- by apply (Hb a b).
          -- destruct (Hno a b) as [? ?]; [by right; left|done].
          -- destruct (Hno a b) as [? ?]; [by right; right|done].
          -- by apply (H4 a b).
        * intros a b. rewrite Hqd, H5. split.
          -- intros [H|(_ & _ & [H|H])]; [by left| |by right]. exfalso. eapply mempty_adj. right. left. exact H.
          -- intros [H|(x & Hx & H)]; [by left|]. right. destruct (H7 _ _ _ Hx H). split_and!; [done..|]. right. by exists x.
        * intros a b. rewrite Hqu, H6. split.
          -- intros [H|(_ & [H|H])]; [by left| |by right]. exfalso. eapply mempty_adj. left. exact H.
          -- intros [H|(x & Hx & H)]; [by left|]. right. split; [exact (H8 _ _ _ Hx H)|]. right. by exists x.
        * done.
        * done.
        * done.
        * intros Ht0 l' Hl'. inversion Hl' as [|? ? ? ts' d' ls l2 Hin Hls Hl2]; subst.
          apply elem_of_list_lookup in Hin as (j & Hj).
          destruct (Forall2_lookup_l _ _ _ _ _ Hres Hj) as ([qj sj] & Ej & Hqj). cbn [fst snd] in Hqj.
          destruct Hqj as (_ & _ & _ & _ & _ & _ & _ & _ & _ & _ & Hmax).
          eapply score_le_trans; [apply (Hmax Ht0)|].
          -- exists (concat ls), l2. split_and!; [by eauto|done..].
          -- apply (Hm Ht0). apply elem_of_list_fmap. exists (qj, sj). split; [done|]. by eapply elem_of_list_lookup_2.
  Qed.
End sample.

(** ** sample_cpdag and learn_structure *)
Section top.
  Context (o : order) (Ho : iter_ok o) (lf : nat) (V : nset) (pick : nat → list score → nat).
  Context (Hlf : size V * size V + 1 < lf).

  (** what a call of sample_cpdag returns, with the contents p of the graph before line 240 *)
  Definition sample_ok (temp : Q) (t : ggt) (p g : mgraph) (sc : score) : Prop :=
    mnodes g = V ∧ pd_wf g ∧ (∀ a b, ¬ (darrow g a b ∧ darrow g b a)) ∧ no_rule_applies g [1;2;3] V ∧
    pd_wf p ∧ pd_same_skeleton p g ∧ (∀ a b, shown_collider p a b → darrow g a b) ∧
    ∃ l, picks t l ∧ union_of V l p ∧ score_eq sc (total l) ∧ ((temp == 0)%Q → ∀ l', picks t l' → score_le (total l') sc).

  Context (Hpick : ∀ n l, l ≠ [] → pick n l < length l).

  Lemma sample_steps {bdeu} temp t n : tree_ok bdeu V lf t V ∅ → (0 <= temp)%Q →
    ∃ p g sc n', sample_raw o lf V pick temp t n = Ok (p, sc, n') ∧ re_orient o lf p = Ok g ∧
      sample_cpdag o lf V pick temp t n = Ok (g, sc, n') ∧ sample_ok temp t p g sc.
  Proof.
    intros Ht Htemp.
    assert (returns (sample_raw o lf V pick temp t n) (λ '(p', sc, _), sampled V temp (picks t) V ∅ (mempty V) p' sc)) as H.
    { apply (sample_rec_spec o Ho V pick Hpick temp Htemp lf t V ∅ (mempty V) n Ht); [done|apply mempty_wf| |].
      - intros a b [H _]. eapply mempty_adj. right. left. exact H.
      - intros a b H. by apply mempty_adj in H. }
    apply returns_ok in H as ([[p sc] n'] & E & l & H1 & H2 & H3 & H4 & H5 & H6 & _ & _ & H9 & H10).
    assert (returns (re_orient o lf p) (λ h, pd_wf h ∧ pd_same_skeleton p h ∧
      ((∀ a b, ¬ (darrow p a b ∧ darrow p b a)) → ∀ a b, ¬ (darrow h a b ∧ darrow h b a)) ∧
      (∀ a b, shown_collider p a b → darrow h a b) ∧ no_rule_applies h [1;2;3] (mnodes p))) as H.
    { apply re_orient_spec; [done..|]. rewrite H2. lia. }
    apply returns_ok in H as (g & Eg & I1 & I2 & I3 & I4 & I5).
    exists p, g, sc, n'. split_and!; [done..| |].
    - unfold sample_cpdag. rewrite E. cbn [mbind res_bind]. by rewrite Eg.
    - rewrite H2 in I5. split_and!; try done; [by rewrite <-(proj1 I2)|by apply I3|].
      exists l. split_and!; try done. split_and!; [done|..]; intros a b; rewrite ?H5, ?H6.
      + split; [|by right]. intros [H|H]; [|done]. exfalso. eapply mempty_adj. right. left. exact H.
      + split; [|by right]. intros [H|H]; [|done]. exfalso. eapply mempty_adj. left. exact H.
  Qed.

  Lemma brai_learn_spec ci ow bdeu K : 0 < K →
    returns (brai_learn o ci ow lf V true false bdeu K pick) (λ '(t, s, g), tree_ok bdeu V lf t V ∅ ∧ ∃ p sc, sample_ok 0 t p g sc).
  Proof.
    intros HK. unfold brai_learn. rewrite bool_decide_true by done. cbn [assert_ mbind res_bind].
    eapply returns_bind.
    { apply (brai_rec_spec o Ho ci ow lf V Hlf bdeu K lf HK V ∅ 0 _ []); [|lia|by apply rai_init_inv|set_solver +..].
      pose proof (lf_V lf V Hlf). lia. }
    cbn beta. intros [t s] [Ht _]. cbn [fst] in Ht.
    destruct (sample_steps 0 t 0 Ht) as (p & g & sc & n' & _ & _ & E & Hok); [apply Qle_refl|].
    rewrite E. cbn [mbind res_bind returns fst]. eauto.
  Qed.

  (** ** without scores every leaf fails its assertion *)
  Lemma brai_rec_unscored ci ow custom bdeu K fuel : 0 < K → ∀ en ex k s B, size V < fuel + k → k ≤ size V → ra_inv ci V B s →
    en ⊆ V → ex ⊆ V → en ## ex →
    brai_rec o ci ow lf V false custom bdeu K fuel en ex k s = Raise AssertionError.
  Proof.
    intros HK. induction fuel as [|fuel IH]; intros en ex k s B Hf Hk Hs Hen Hex Hd; [lia|]. cbn [brai_rec].
    destruct (rai_exit o (pc_graph s) en k) eqn:E; [done|].
    apply rai_exit_false in E as (n & Hn & Hkn); [|done]. pose proof (fan_in_bound ci V B s n Hs).
    destruct K as [|K]; [lia|]. cbn [seq for_].
    assert (ra_inv ci V (pc_log s) s) as Hs0 by by eapply ra_rebase.
    pose proof (ra_restart ci V s s B (pc_log s) Hs Hs0 (λ e H, H)) as Hr.
    assert (returns (refine_and_orient o ci ow lf en ex k (PCState (pd_copy (pc_graph s)) (pc_sep s) (pc_log s))) (ra_inv ci V (pc_log s)))
      as H1 by by apply refine_and_orient_spec.
    apply returns_ok in H1 as (s1 & E1 & Hs1). rewrite E1. cbn [mbind res_bind].
    assert (en ≠ ∅) as Hne by set_solver +Hn.
    pose proof (rai_split_spec o Ho lf V Hlf (pc_graph s1) en Hen Hne) as H2.
    apply returns_ok in H2 as ([[d l] a] & E2 & Hde & -> & Hl). rewrite E2. cbn [mbind res_bind].
    destruct l as [|A l]; cbn [for_ mbind res_bind].
    - rewrite (IH d (en ∖ d ∪ ex) (S k) s1 (pc_log s)); [done|lia|lia|done|set_solver +Hde Hen|set_solver +Hen Hex|set_solver +Hde Hd].
    - assert (A ⊆ en ∖ d) as HA by (apply Hl; left).
      rewrite (IH A ex (S k) s1 (pc_log s)); [done|lia|lia|done|set_solver +HA Hen|done|set_solver +HA Hd].
  Qed.
  Lemma brai_unscored ci ow custom bdeu K : brai_learn o ci ow lf V false custom bdeu K pick = Raise AssertionError.
  Proof.
    unfold brai_learn. destruct (decide (0 < K)) as [HK|HK]; [|by rewrite bool_decide_false].
    rewrite bool_decide_true by done. cbn [assert_ mbind res_bind].
    rewrite (brai_rec_unscored ci ow custom bdeu K lf HK V ∅ 0 _ []); [done| |lia|by apply rai_init_inv|set_solver +..].
    pose proof (lf_V lf V Hlf). lia.
  Qed.

  (** ** calc_graph_uncertainty *)
  Lemma samples_spec {bdeu} temp t K : tree_ok bdeu V lf t V ∅ → (0 <= temp)%Q → ∀ n,
    returns (samples o lf V pick temp t K n) (λ gs, length gs = K ∧ ∀ g, g ∈ gs → ∃ p sc, sample_ok temp t p g sc).
  Proof.
    intros Ht Htemp. induction K as [|K IH]; intros n; cbn [samples].
    - split; [done|]. intros g Hg. by apply elem_of_nil in Hg.
    - destruct (sample_steps temp t n Ht Htemp) as (p & g & sc & n' & _ & _ & E & Hok). rewrite E. cbn [mbind res_bind].
      eapply returns_bind; [apply IH|]. cbn beta. cbn [fst snd returns]. intros gs [Hlen Hgs]. split; [simpl; lia|].
      intros g' [->|Hg']%elem_of_cons; [eauto|by apply Hgs].
  Qed.

  Definition looks_like (h g : mgraph) : Prop := pd_wf h ∧ pd_same_skeleton h g.

  Lemma draw_spec {bdeu} temp t : tree_ok bdeu V lf t V ∅ → (0 <= temp)%Q → ∀ K k0 n heap cur locs gs,
    cur < length heap → samples o lf V pick temp t K n = Ok gs →
    returns (for_ (seq k0 K) (λ _ '(locs, heap, cur, n),
      r ← sample_raw o lf V pick temp t n;
      let '(p, _, n) := r in
      let heap := <[cur := p]> heap in
      g ← re_orient o lf p;
      Ok (locs ++ [length heap], heap ++ [g], length heap, n)) (locs, heap, cur, n))
     (λ '(locs', heap', _, _), locs' = locs ++ seq (length heap) K ∧
       (∀ j, j < length heap → j ≠ cur → heap' !! j = heap !! j) ∧
       match gs with
       | [] => heap' !! cur = heap !! cur
       | g :: _ => ∃ h, heap' !! cur = Some h ∧ looks_like h g
       end ∧
       ∀ i g, first_lost gs !! i = Some g → ∃ h, heap' !! (length heap + i) = Some h ∧ looks_like h g).
  Proof.
    intros Ht Htemp. induction K as [|K IH]; intros k0 n heap cur locs gs Hcur Hgs; cbn [samples seq for_] in *.
    - simplify_eq. cbn [returns]. split_and!; try done. by rewrite app_nil_r.
    - destruct (sample_steps temp t n Ht Htemp) as (p & g & sc & n' & Er & Eg & E & Hok).
      rewrite E in Hgs. rewrite Er. cbn [mbind res_bind fst snd] in *.
      destruct (samples o lf V pick temp t K n') as [gs'|e|] eqn:Egs; [|done..]. cbn [mbind res_bind] in Hgs. simplify_eq.
      rewrite Eg. cbn [mbind res_bind]. rewrite insert_length.
      destruct Hok as (G1 & G2 & G3 & G4 & P1 & P2 & _).
      set (heap1 := <[cur:=p]> heap ++ [g]).
      assert (length heap1 = S (length heap)) as Hlen by (unfold heap1; rewrite app_length, insert_length; simpl; lia).
      eapply returns_mono; [apply (IH (S k0) n' heap1 (length heap) (locs ++ [length heap]) gs'); [lia|done]|].
      cbn beta. intros [[[locs' heap'] cur'] n''] (H1 & H2 & H3 & H4). rewrite Hlen in *.
      assert (heap1 !! cur = Some p) as Hc1.
      { unfold heap1. rewrite lookup_app_l by (by rewrite insert_length). by apply list_lookup_insert. }
      split_and!.
      + rewrite H1, <-app_assoc. done.
      + intros j Hj Hne. rewrite H2 by lia. unfold heap1. rewrite lookup_app_l by (by rewrite insert_length).
        by apply list_lookup_insert_ne.
      + exists p. rewrite H2 by lia. split; [done|]. by split.
      + assert (heap1 !! length heap = Some g) as Hl1.
        { unfold heap1. rewrite lookup_app_r; rewrite insert_length; [|done]. by rewrite Nat.sub_diag. }
        intros [|i] x Hx.
        * rewrite Nat.add_0_r. destruct gs' as [|g' gs'].
          -- simpl in Hx. simplify_eq. rewrite H3. exists x. split; [done|]. by split.
          -- assert (x = g') as ->.
             { unfold first_lost in Hx. cbn [tail] in Hx. destruct (last (g :: g' :: gs')); [|done]. simpl in Hx. by injection Hx. }
             exact H3.
        * replace (length heap + S i) with (S (length heap) + i) by lia. apply H4.
          destruct gs' as [|g' gs']; [done|]. unfold first_lost in Hx |- *.
          change (last (g :: g' :: gs')) with (last (g' :: gs')) in Hx.
          destruct (last (g' :: gs')) as [y|] eqn:El; [|done]. exact Hx.
  Qed.

  Lemma count_spec (heap : list mgraph) a b l : a ≠ b → ∀ locs, Forall2 (λ x g, ∃ h, heap !! x = Some h ∧ looks_like h g) locs l →
    ∀ c, returns (for_ locs (λ x c,
      b ← m_is_connected PDAG_T (default (mempty V) (heap !! x)) a b;
      Ok (if (b : bool) then S c else c)) c) (λ c', c' = c + adj_count l a b).
  Proof.
    intros Hne locs Hl. induction Hl as [|x g locs l (h & Hh & Hw & Hsk) _ IH]; intros c; cbn [for_].
    - cbn [returns]. unfold adj_count. rewrite filter_nil. simpl. lia.
    - rewrite Hh. change (default (mempty V) (Some h)) with h.
      assert (returns (m_is_connected PDAG_T h a b) (λ r, r = true ↔ pd_adj h a b)) as H by by apply m_is_connected_pd.
      apply returns_ok in H as (r & Er & Hr). rewrite Er. cbn [mbind res_bind].
      eapply returns_mono; [apply IH|]. cbn beta. intros c' ->. unfold adj_count. rewrite filter_cons.
      rewrite (proj2 Hsk) in Hr. destruct r.
      + rewrite decide_True by by apply Hr. simpl. lia.
      + rewrite decide_False by (intros Hab; by apply Hr in Hab). lia.
  Qed.

  Lemma adj_count_sym l a b : (∀ g, g ∈ l → pd_wf g) → adj_count l a b = adj_count l b a.
  Proof.
    intros Hl. unfold adj_count. induction l as [|g l IH]; [done|]. rewrite !filter_cons.
    assert (pd_wf g) as Hg by (apply Hl; left). specialize (IH (λ g' H, Hl g' (elem_of_list_further _ _ _ H))).
    destruct (decide (pd_adj g a b)) as [H|H], (decide (pd_adj g b a)) as [H'|H']; simpl; try congruence.
    - by apply pd_adj_sym in H. - by apply pd_adj_sym in H'.
  Qed.

  Lemma uncertainty_spec {bdeu} temp t K n th heap cur : tree_ok bdeu V lf t V ∅ → (0 <= temp)%Q → cur < length heap →
    returns (samples o lf V pick temp t K n) (λ gs,
    returns (calc_graph_uncertainty o lf V pick K th temp t n heap cur) (λ sk,
      mnodes sk = V ∧ pd_wf sk ∧ (∀ a b, ¬ darrow sk a b) ∧
      ∀ a b, a ∈ V → b ∈ V → a ≠ b →
        uline sk a b ↔ (th * inject_Z (Z.of_nat K) < inject_Z (Z.of_nat (adj_count (first_lost gs) a b)))%Q)).
  Proof.
    intros Ht Htemp Hcur. pose proof (samples_spec temp t K Ht Htemp n) as Hs.
    apply returns_ok in Hs as (gs & Egs & Hlen & Hgs). rewrite Egs. cbn beta iota delta [returns].
    fold (@returns mgraph).
    unfold calc_graph_uncertainty, draw_samples. eapply returns_bind; [by apply (draw_spec (bdeu:=bdeu))|]. cbn beta.
    intros [[[locs heap'] cur'] n'] (-> & _ & _ & Hh). cbn [app].
    assert (length (first_lost gs) = K) as HK.
    { unfold first_lost. destruct gs as [|g gs]; [done|]. destruct (last (g :: gs)) eqn:El; [|by apply last_None in El].
      cbn [tail]. rewrite app_length. simpl in *. lia. }
    assert (∀ g, g ∈ first_lost gs → g ∈ gs) as Hfl.
    { intros g. unfold first_lost. destruct (last gs) as [y|] eqn:El; [|by intros ?%elem_of_nil].
      intros [H|H]%elem_of_app; [destruct gs; [done|by right]|]. apply elem_of_list_singleton in H as ->.
      by apply last_Some_elem_of. }
    assert (Forall2 (λ x g, ∃ h, heap' !! x = Some h ∧ looks_like h g) (seq (length heap) K) (first_lost gs)) as HF.
    { apply Forall2_same_length_lookup. split; [by rewrite seq_length|]. intros i x g Hx Hg.
      apply lookup_seq in Hx as [-> _]. by apply Hh. }
    assert (∀ a b, adj_count (first_lost gs) a b = adj_count (first_lost gs) b a) as Hsym.
    { intros a b. apply adj_count_sym. intros g Hg%Hfl. by apply Hgs in Hg as (p & sc & _ & ? & _). }
    set (cnt := λ a b, (th * inject_Z (Z.of_nat K) < inject_Z (Z.of_nat (adj_count (first_lost gs) a b)))%Q).
    eapply returns_mono.
    - apply (for_returns_pre _ _ _ (λ pre sk, mnodes sk = V ∧ (∀ a b, ¬ darrow sk a b) ∧
        ∀ a b, uline sk a b ↔ ((a, b) ∈ pre ∨ (b, a) ∈ pre) ∧ cnt a b)).
      + split_and!; [done|..]; intros a b; unfold darrow, uline, has_mark; [set_solver +|].
        rewrite !elem_of_nil. set_solver +.
      + intros pre [i j] post sk El (H1 & H2 & H3).
        assert (i ≠ j) as Hne.
        { assert ((i, j) ∈ comb2 (o 2046 V)) as H by (rewrite El; set_solver +). by apply comb2_iter in H as (_ & _ & ?). }
        eapply returns_bind; [by apply (count_spec heap' i j (first_lost gs) Hne)|]. cbn beta. intros c ->. cbn [Nat.add].
        assert (∀ a b, (a = i ∧ b = j) ∨ (a = j ∧ b = i) → cnt a b ↔ cnt i j) as Hij.
        { intros a b [[-> ->]|[-> ->]]; [done|]. unfold cnt. by rewrite Hsym. }
        destruct (qlt _ _) eqn:Eq.
        * apply qlt_spec in Eq. fold (cnt i j) in Eq.
          eapply returns_mono; [by apply pd_add_tail_spec|]. cbn beta. intros sk' (I1 & I2 & I3).
          split_and!; [congruence|by intros a b; rewrite I2|]. intros a b.
          rewrite I3, H3, !elem_of_app, !elem_of_list_singleton, !elem_of_singleton. specialize (Hij a b). clear -Hij Eq.
          split.
          -- intros [[? ?]|[[-> ->]|[-> ->]]]; [tauto|..]; split; auto; apply Hij; auto.
          -- intros [[[?|?]|[?|?]] ?]; simplify_eq; auto.
        * assert (¬ cnt i j) as Hn by (unfold cnt; rewrite <-qlt_spec; congruence). clear Eq.
          cbn [returns]. split_and!; [done..|]. intros a b. rewrite H3, !elem_of_app, !elem_of_list_singleton.
          specialize (Hij a b). clear -Hij Hn. split; [tauto|].
          intros [[[?|?]|[?|?]] Hc]; simplify_eq; auto; exfalso; apply Hn, Hij; auto.
    - cbn beta. intros sk (H1 & H2 & H3).
      assert (∀ a b, (a, b) ∈ comb2 (o 2046 V) ∨ (b, a) ∈ comb2 (o 2046 V) ↔ a ∈ V ∧ b ∈ V ∧ a ≠ b) as He.
      { intros a b. split.
        - intros [H|H]; apply comb2_iter in H as (? & ? & ?); auto.
        - intros (? & ? & ?). by apply (proj2 (comb2_iter o 2046 V a b Ho)). }
      split_and!; [done| |done|].
      + split.
        * intros a b H. by apply H2 in H.
        * intros a b [H _]%H3. apply He in H. by rewrite H1.
        * intros a b [H Hc]%H3. apply H3. split; [tauto|]. unfold cnt in *. by rewrite Hsym.
        * intros a b _ H. by apply H2 in H.
      + intros a b Ha Hb Hne. rewrite H3, He. fold (cnt a b). tauto.
  Qed.
End top.
