(** B-RAI: every node is endogenous in a leaf, and a leaf lacks only edges that were tested away. *)
From Coq Require Import QArith.
From Verif Require Import Base BaseLemmas ModelGraph Spec ModelMixed SpecMixed ModelPC SpecPC ModelRAI SpecRAI ModelBRAI SpecBRAI SpecBRAI3
  ProofGraph ProofGraph2 ProofGraph3 ProofPDAG ProofPDAG2 ProofPDAG3 ProofMixed ProofMixed2 ProofPC ProofRAI ProofBRAI.
Local Open Scope nat_scope.

(** ** the groups of ancestors cover the ancestors *)
Lemma subgraphs_cover o g fuel' : iter_ok o → ∀ fuel (W : nset) acc, size W < fuel → size W + 1 < fuel' →
  returns (subgraphs_loop o fuel fuel' PDAG_T g None W acc) (λ l, ∀ v, v ∈ W ∨ (∃ A, A ∈ acc ∧ v ∈ A) → ∃ A, A ∈ l ∧ v ∈ A).
Proof.
  intros Ho. induction fuel as [|fuel IH]; intros W acc Hf Hf'; [lia|]. cbn [subgraphs_loop].
  destruct (o 259 W) as [|i rest] eqn:E.
  { cbn [returns]. intros v [Hv|Hv]; [|done]. rewrite <-(iter_elem o 259 W v Ho), E in Hv. by apply elem_of_nil in Hv. }
  assert (i ∈ W) as Hi by (rewrite <-(iter_elem o 259 W i Ho), E; left).
  assert (size (W ∖ {[i]}) < size W) as Hsz by (apply subset_size; set_solver +Hi).
  rewrite find_reachable_no_circle. eapply returns_bind.
  { apply (find_reachable_spec o Ho PDAG_T (no_circle g)); [|lia]. intros u [] v H'; try (by apply elem_of_empty in H'); set_solver. }
  cbn beta. intros r _.
  assert (size (W ∖ {[i]} ∖ r) ≤ size (W ∖ {[i]})) by (apply subseteq_size; set_solver +).
  eapply returns_mono; [apply IH; lia|]. cbn beta. intros l Hl v Hv. apply Hl.
  destruct Hv as [Hv|(A & HA & Hv)]; [|right; exists A; split; [apply elem_of_app; by left|done]].
  destruct (decide (v ∈ r ∪ {[i]})) as [Hr|Hr]; [right; exists (r ∪ {[i]}); split; [set_solver +|done]|left; set_solver +Hv Hr].
Qed.
Lemma rai_split_cover o lf V g en : iter_ok o → size V * size V + 1 < lf → en ⊆ V → en ≠ ∅ →
  returns (rai_split o lf g en) (λ '(d, l, a), ∀ v, v ∈ en → v ∈ d ∨ ∃ A, A ∈ l ∧ v ∈ A).
Proof.
  intros Ho Hlf Hen Hne. pose proof (lf_V lf V Hlf) as Hlf'. assert (size en ≤ size V) by by apply subseteq_size.
  pose proof (rai_split_spec o Ho lf V Hlf g en Hen Hne) as H1.
  apply returns_ok in H1 as ([[d l] a] & E & Hd & _). unfold rai_split in *.
  destruct (lowest_set o lf g en) as [d'|e|] eqn:Ed; [|done..]. cbn [mbind res_bind] in *.
  destruct (find_unconnected_subgraphs o lf PDAG_T g (Some (en ∖ d')) None) as [l'|e|] eqn:El; [|done..].
  cbn [mbind res_bind] in *. cbn beta iota delta [returns].
  assert (size (en ∖ d') ≤ size en) by (apply subseteq_size; set_solver +).
  pose proof (subgraphs_cover o g lf Ho lf (en ∖ d') []) as H3. unfold find_unconnected_subgraphs in El. cbn in El. rewrite El in H3. cbn [returns] in H3.
  intros v Hv. destruct (decide (v ∈ d')) as [|Hn]; [by left|right]. apply H3; [lia|lia|]. left. set_solver +Hv Hn.
Qed.

(** ** the tree *)
(** pairs that are not adjacent in g were found independent *)
Definition justified_by (log : clog) (V : nset) (g : mgraph) : Prop :=
  ∀ a b, a ∈ V → b ∈ V → a ≠ b → ¬ pd_adj g a b → ∃ S, tested log a b S true.
Lemma justified_mono log log' V g : (∀ e, e ∈ log → e ∈ log') → justified_by log V g → justified_by log' V g.
Proof. intros Hl H a b Ha Hb Hne Hn. destruct (H a b Ha Hb Hne Hn) as [S HS]. exists S. by eapply tested_mono. Qed.
Fixpoint tree_cov (log : clog) (V : nset) (fuel : nat) (t : ggt) (en : nset) : Prop :=
  match fuel with
  | 0 => False
  | S fuel =>
    match t with
    | GLeaf en' _ g _ => en' = en ∧ pd_wf g ∧ justified_by log V g
    | GNode _ _ cs => ∀ ts d, (ts, d) ∈ cs → ∃ As D,
        Forall2 (tree_cov log V fuel) ts As ∧ tree_cov log V fuel d D ∧ ∀ v, v ∈ en → v ∈ D ∨ ∃ A, A ∈ As ∧ v ∈ A
    end
  end.
Lemma tree_cov_mono log log' V fuel : (∀ e, e ∈ log → e ∈ log') → ∀ t en, tree_cov log V fuel t en → tree_cov log' V fuel t en.
Proof.
  intros Hl. induction fuel as [|fuel IH]; intros t en Ht; [done|]. destruct t as [en' ex' g sc|en' ex' cs]; cbn [tree_cov] in *.
  - destruct Ht as (-> & Hw & Ht). split_and!; [done|done|by eapply justified_mono].
  - intros ts d Hin. destruct (Ht _ _ Hin) as (As & D & H1 & H2 & H3). exists As, D. split_and!; [|by apply IH|done]. eapply Forall2_impl; [exact H1|]. intros ??. apply IH.
Qed.
Lemma tree_cov_leaves log V fuel : ∀ t en l, tree_cov log V fuel t en → picks t l →
  (∀ v, v ∈ en → ∃ x, x ∈ l ∧ v ∈ x.1.1.1) ∧ ∀ x, x ∈ l → pd_wf x.1.2 ∧ justified_by log V x.1.2.
Proof.
  induction fuel as [|fuel IH]; intros t en l Ht Hp; [done|]. cbn [tree_cov] in Ht.
  inversion Hp as [en' ex' g sc|en' ex' cs ts d ls l' Hin Hts Hd]; subst.
  - destruct Ht as [-> Ht]. split; [intros v Hv; eexists; split; [left|done]|]. by intros x ->%elem_of_list_singleton.
  - destruct (Ht _ _ Hin) as (As & D & HA & HD & Hc). destruct (IH _ _ _ HD Hd) as [D1 D2].
    assert ((∀ A v, A ∈ As → v ∈ A → ∃ x, x ∈ concat ls ∧ v ∈ x.1.1.1) ∧ ∀ x, x ∈ concat ls → pd_wf x.1.2 ∧ justified_by log V x.1.2) as [A1 A2].
    { clear -IH HA Hts. revert As HA. induction Hts as [|t l ts ls H1 H2 IH2]; intros As HA; inversion HA as [|? A ? As' HtA HA']; subst; cbn [concat].
      - split; [intros A v HA0; by apply elem_of_nil in HA0|intros x Hx; by apply elem_of_nil in Hx].
      - destruct (IH _ _ _ HtA H1) as [B1 B2]. destruct (IH2 _ HA') as [C1 C2]. split.
        + intros A' v [->|Hin]%elem_of_cons Hv; [destruct (B1 v Hv) as (x & ? & ?)|destruct (C1 A' v Hin Hv) as (x & ? & ?)]; exists x; (split; [apply elem_of_app; auto|done]).
        + intros x [?|?]%elem_of_app; auto. }
    split.
    + intros v Hv. destruct (Hc v Hv) as [H|(A & HA1 & HA2)]; [destruct (D1 v H) as (x & ? & ?)|destruct (A1 A v HA1 HA2) as (x & ? & ?)]; exists x; (split; [apply elem_of_app; auto|done]).
    + intros x [?|?]%elem_of_app; auto.
Qed.

Section learn.
  Context (o : order) (Ho : iter_ok o) (ci : citest) (ow : bool) (lf : nat) (V : nset).
  Context (Hlf : size V * size V + 1 < lf).
  Lemma ra_justified B s : ra_inv ci V B s → justified_by (pc_log s) V (pc_graph s).
  Proof. intros Hs a b Ha Hb Hne Hn. destruct (ra_rem _ _ _ _ Hs a b Ha Hb Hne Hn) as (S & _ & HS). by exists S. Qed.
  Lemma make_leaf_cov bdeu en ex s B t fuel : ra_inv ci V B s → tree_ok bdeu V (S fuel) t en ex → make_leaf o lf V true false bdeu en ex (pc_graph s) = Ok t → tree_cov (pc_log s) V (S fuel) t en.
  Proof.
    intros Hs Ht E. unfold make_leaf in E. destruct (leaf_score o lf V true false bdeu en ex (pc_graph s)) as [[sc bs]| |]; [|done..]. cbn [mbind res_bind] in E.
    destruct (assert_ _) as [[]| |]; [|done..]. cbn [mbind res_bind] in E. injection E as <-. split; [done|]. split; [apply Ht|].
    assert (pd_same (pc_graph s) (pd_copy (pc_graph s))) as Hc by (apply pd_copy_same, Hs).
    intros a b Ha Hb Hne Hn. apply (ra_justified B s Hs); [done..|]. intros H. apply Hn. unfold pd_adj in *. by rewrite <-!(proj1 (proj2 Hc _ _)), <-(proj2 (proj2 Hc _ _)).
  Qed.
  Lemma grown_in B s e : grown ci V B s → e ∈ B → e ∈ pc_log s.
  Proof. intros (B' & H & HB) He. by apply (ra_base _ _ _ _ H), HB. Qed.
  Lemma brai_rec_cov bdeu K fuel : 0 < K → ∀ en ex k s B, size V < fuel + k → k ≤ size V → ra_inv ci V B s →
    en ⊆ V → ex ⊆ V → en ## ex →
    returns (brai_rec o ci ow lf V true false bdeu K fuel en ex k s) (λ r, tree_cov (pc_log r.2) V fuel r.1 en ∧ grown ci V (pc_log s) r.2).
  Proof.
    intros HK. induction fuel as [|fuel IH]; intros en ex k s B Hf Hk Hs Hen Hex Hd; [lia|]. cbn [brai_rec].
    destruct (rai_exit o (pc_graph s) en k) eqn:E.
    { pose proof (make_leaf_spec o Ho ci lf V Hlf bdeu en ex s B Hs Hen Hex Hd fuel) as H. apply returns_ok in H as (t & Et & Ht). rewrite Et. cbn [mbind res_bind returns fst snd].
      split; [by eapply make_leaf_cov|]. exists (pc_log s). split; [by eapply ra_rebase|done]. }
    apply rai_exit_false in E as (n & Hn & Hkn); [|done]. pose proof (fan_in_bound ci V B s n Hs).
    eapply returns_bind.
    - apply (for_returns_pre _ _ ([], s) (λ pre '(cs, s'), grown ci V (pc_log s) s' ∧
        ∀ ts d, (ts, d) ∈ cs → ∃ As D, Forall2 (tree_cov (pc_log s') V fuel) ts As ∧ tree_cov (pc_log s') V fuel d D ∧ ∀ v, v ∈ en → v ∈ D ∨ ∃ A, A ∈ As ∧ v ∈ A)).
      + split; [exists (pc_log s); split; [by eapply ra_rebase|done]|]. intros ts d Hin. by apply elem_of_nil in Hin.
      + intros pre x post [cs s1] _ (Hg1 & Hcs). pose proof Hg1 as (B1 & Hs1 & HB1).
        pose proof (ra_restart ci V s s1 B B1 Hs Hs1 HB1) as Hr.
        eapply returns_bind; [by apply refine_and_orient_spec|]. cbn beta. intros s2 Hs2.
        assert (grown ci V (pc_log s1) s2) as Hg12 by (exists (pc_log s1); done).
        assert (en ≠ ∅) as Hne by set_solver +Hn.
        eapply returns_bind; [exact (returns_and _ _ _ (rai_split_apart o lf V _ en Ho Hlf Hen Hne) (rai_split_cover o lf V _ en Ho Hlf Hen Hne))|]. cbn beta.
        intros [[d l] a] [(Hde & -> & Hl & Hap) Hcov].
        eapply returns_bind.
        * apply (for_returns_pre _ _ ([], s2) (λ pre '(ts, s'), grown ci V (pc_log s1) s' ∧ Forall2 (tree_cov (pc_log s') V fuel) ts pre)).
          -- by split.
          -- intros pre' A post' [ts s3] El [Hg3 Hts]. pose proof Hg3 as (B3 & Hs3 & HB3).
             assert (A ⊆ en ∖ d) as HA by (apply Hl; rewrite El; set_solver +).
             eapply returns_bind; [apply (IH A ex (S k) s3 B3); [lia|lia|done|set_solver +HA Hen|done|set_solver +HA Hd]|].
             cbn beta. intros [t s4] [Ht Hg4]. cbn [returns fst snd] in *. split; [by eapply grown_trans|].
             apply Forall2_app; [|by constructor]. eapply Forall2_impl; [exact Hts|]. intros ??. apply tree_cov_mono. intros e. by apply grown_in.
        * cbn beta. intros [ts s3] [Hg3 Hts]. pose proof Hg3 as (B3 & Hs3 & HB3).
          eapply returns_bind.
          { apply (IH d (en ∖ d ∪ ex) (S k) s3 B3); [lia|lia|done|set_solver +Hde Hen|set_solver +Hen Hex|set_solver +Hde Hd]. }
          cbn beta. intros [t s4] [Ht Hg4]. cbn [returns fst snd] in *.
          assert (grown ci V (pc_log s1) s4) as Hg14 by by eapply grown_trans.
          split; [by eapply grown_trans|].
          intros ts' d' [Hin|Hin]%elem_of_app.
          -- destruct (Hcs _ _ Hin) as (As & D & C1 & C2 & C3). assert (∀ e, e ∈ pc_log s1 → e ∈ pc_log s4) as Hsub by (intros e; by apply grown_in).
             exists As, D. split_and!; [|by eapply tree_cov_mono|done]. eapply Forall2_impl; [exact C1|]. intros ??. by apply tree_cov_mono.
          -- apply elem_of_list_singleton in Hin. simplify_eq. exists l, d. split_and!; [|done|done].
             eapply Forall2_impl; [exact Hts|]. intros ??. apply tree_cov_mono. intros e. by apply grown_in.
    - cbn beta. intros [cs s'] (Hg & Hcs). cbn [returns fst snd]. by split.
  Qed.
  Lemma brai_learn_cov pick bdeu K : 0 < K → (∀ n l, l ≠ [] → pick n l < length l) →
    returns (brai_learn o ci ow lf V true false bdeu K pick) (λ '(t, s, g), tree_cov (pc_log s) V lf t V).
  Proof.
    intros HK Hp. pose proof (brai_learn_spec o Ho lf V pick Hlf Hp ci ow bdeu K HK) as H0. unfold brai_learn in *.
    destruct (assert_ _); [|done..]. cbn [mbind res_bind] in *.
    assert (returns (brai_rec o ci ow lf V true false bdeu K lf V ∅ 0 (pc_init o V)) (λ r, tree_cov (pc_log r.2) V lf r.1 V ∧ grown ci V (pc_log (pc_init o V)) r.2)) as H.
    { apply (brai_rec_cov bdeu K lf HK V ∅ 0 _ []); [|lia|by apply rai_init_inv|set_solver +..]. pose proof (lf_V lf V Hlf). lia. }
    apply returns_ok in H as ([t s] & E & Ht & _). rewrite E in *. cbn [mbind res_bind] in *.
    destruct (sample_cpdag _ _ _ _ _ _ _) as [[[g sc] n]| |]; [|done..]. cbn [mbind res_bind returns fst snd] in *. done.
  Qed.
End learn.

(** ** what a missing pair means *)
Lemma missing_pair log V l p a b : union_of V l p → (∀ x, x ∈ l → pd_wf x.1.2) → (∀ v, v ∈ V → ∃ x, x ∈ l ∧ v ∈ x.1.1.1) → (∀ x, x ∈ l → justified_by log V x.1.2) →
  a ∈ V → b ∈ V → a ≠ b → ¬ pd_adj p a b →
  (∃ S, tested log a b S true) ∨ ∃ x y, x ∈ l ∧ y ∈ l ∧ not_copied x a b ∧ not_copied y b a.
Proof.
  intros (_ & HD & HU) Hw Hc Hj Ha Hb Hne Hn.
  assert (∀ u v, u ∈ V → v ∈ V → u ≠ v → ¬ pd_adj p u v → (∃ S, tested log u v S true) ∨ ∃ x, x ∈ l ∧ not_copied x u v) as H.
  { intros u v Hu Hv Huv Hnp. destruct (Hc u Hu) as ([[[en ex] g] sc] & Hx & Hux). cbn [fst] in Hux. pose proof (Hj _ Hx) as Hjx. pose proof (Hw _ Hx) as Hwx. cbn [fst snd] in Hjx, Hwx.
    destruct (decide (pd_adj g u v)) as [Hadj|Hadj]; [right|left; by apply Hjx].
    exists (en, ex, g, sc). split; [done|]. cbn. split_and!; [done..|].
    destruct (decide (v ∈ en ∪ ex)) as [Hvx|]; [right|by left].
    assert (¬ uline g u v) as Hl. { intros Hl. apply Hnp. left. apply HU. exists (en, ex, g, sc). split; [done|]. cbn. split; [by right|done]. }
    assert (¬ darrow g v u) as Hd. { intros Hd. apply Hnp. right. right. apply HD. exists (en, ex, g, sc). split; [done|]. cbn. done. }
    destruct Hadj as [?|[Hd'|?]]; [done| |done].
    assert (v ∉ en) as Hve. { intros Hve. apply Hnp. right. left. apply HD. exists (en, ex, g, sc). split; [done|]. cbn. split_and!; [done|set_solver +Hux|done]. }
    split_and!; [set_solver +Hvx Hve|done|done]. }
  destruct (H a b Ha Hb Hne Hn) as [?|(x & Hx & Hxn)]; [by left|].
  destruct (H b a Hb Ha (not_eq_sym Hne)) as [(S & c & Hcc & HS)|(y & Hy & Hyn)]; [unfold pd_adj in *; intros [H1|[H1|H1]]| |right; by exists x, y].
  - apply Hn. left. apply HU in H1 as (z & Hz & Hzl). apply HU. exists z. split; [done|]. pose proof (Hw _ Hz) as Hwz. destruct z as [[[en ex] g] sc]. cbn in *. destruct Hzl as [Hz1 Hz2]. split; [tauto|]. by apply (pdw_sym _ Hwz).
  - apply Hn. by right; right.
  - apply Hn. by right; left.
  - left. exists S, c. split; [done|]. tauto.
Qed.

(** a graph that was sampled from the tree *)
Lemma sample_missing (V : nset) lf temp log t p h sc : tree_cov log V lf t V → sample_ok V temp t p h sc → ∃ l, picks t l ∧
  (∃ p, union_of V l p ∧ pd_same_skeleton p h) ∧
  ∀ a b, a ∈ V → b ∈ V → a ≠ b → ¬ pd_adj h a b →
    (∃ S, tested log a b S true) ∨ ∃ x y, x ∈ l ∧ y ∈ l ∧ not_copied x a b ∧ not_copied y b a.
Proof.
  intros Ht (_ & _ & _ & _ & _ & H6 & _ & l & I1 & I2 & _). exists l. split; [done|]. split; [by exists p|]. intros a b Ha Hb Hne Hn.
  destruct (tree_cov_leaves log V lf t V l Ht I1) as [J1 J2].
  eapply missing_pair; [exact I2|intros x Hx; by apply J2|done|intros x Hx; by apply J2|done|done|done|].
  intros H. apply Hn. by apply (proj2 H6).
Qed.
