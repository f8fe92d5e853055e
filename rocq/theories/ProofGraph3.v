(** Elementary queries of graph classes, connectivity, partial adjacency matrices,
    UndirectedGraph.disconnect_node; building concrete graphs for examples. *)
From Verif Require Import Base BaseLemmas ModelGraph Spec Paths MSepTheory ProofGraph ProofDsep ProofGraph2.

(** a graph given by a list of nodes and a list of edges (parent, child) *)
Definition mk_graph (ns : list node) (es : list (node * node)) : graph :=
  Graph (list_to_set ns) (λ n, list_to_set ((filter (λ e, e.2 = n) es).*1)).

Lemma mk_graph_edge ns es a b : edge (mk_graph ns es) a b ↔ (a, b) ∈ es.
Proof.
  unfold edge, mk_graph. simpl. rewrite elem_of_list_to_set, elem_of_list_fmap. split.
  - intros ([a' b'] & -> & Hin). apply elem_of_list_filter in Hin as [Hb ?]. simpl in *. by subst.
  - intros Hin. exists (a, b). split; [done|]. by apply elem_of_list_filter.
Qed.

Definition mk_wf (ns : list node) (es : list (node * node)) : bool :=
  forallb (λ e, bool_decide (e.1 ∈ ns) && bool_decide (e.2 ∈ ns)) es.

Lemma mk_graph_wf ns es : mk_wf ns es = true → wf_graph (mk_graph ns es).
Proof.
  unfold mk_wf. rewrite forallb_forall. intros H a b Hab.
  apply mk_graph_edge, elem_of_list_In, H in Hab. apply andb_true_iff in Hab as [Ha Hb].
  apply bool_decide_eq_true in Ha, Hb. simpl in *. by rewrite !elem_of_list_to_set.
Qed.

Lemma mk_graph_acyclic ns es : mk_wf ns es = true →
  is_acyclic ord_up (S (size (gnodes (mk_graph ns es)))) (mk_graph ns es) = Ok true →
  acyclic (mk_graph ns es).
Proof.
  intros Hwf Hok. pose proof (is_acyclic_spec ord_up ord_up_ok (mk_graph ns es)
    (S (size (gnodes (mk_graph ns es)))) (mk_graph_wf _ _ Hwf) ltac:(lia)) as H.
  rewrite Hok in H. simpl in H. by apply H.
Qed.

Definition mk_sym (es : list (node * node)) : bool :=
  forallb (λ e, bool_decide ((e.2, e.1) ∈ es)) es.

Lemma mk_graph_sym ns es : mk_sym es = true → symmetric_graph (mk_graph ns es).
Proof.
  unfold mk_sym. rewrite forallb_forall. intros H a b Hab.
  apply mk_graph_edge, elem_of_list_In, H in Hab. apply bool_decide_eq_true in Hab.
  by apply mk_graph_edge.
Qed.

Section misc.
  Context (o : order) (Ho : iter_ok o).

  Lemma is_connected_spec g a b : is_connected g a b = true ↔ adjacent g a b.
  Proof.
    unfold is_connected, adjacent, edge. by rewrite orb_true_iff, !bool_decide_eq_true.
  Qed.

  Lemma find_children_spec g p ns c :
    c ∈ find_children o g p ns ↔ edge g p c ∧ c ∈ default (gnodes g) ns.
  Proof.
    unfold find_children. set (V := default (gnodes g) ns).
    assert (∀ l (S0 : nset), c ∈ foldl (λ S n, if decide (p ∈ gadj g n) then S ∪ {[n]} else S) S0 l ↔
      c ∈ S0 ∨ (edge g p c ∧ c ∈ l)) as Hgen.
    { induction l as [|n l IH]; intros S0; simpl; [set_solver +|]. rewrite IH. unfold edge.
      destruct (decide (p ∈ gadj g n)) as [E|E].
      - rewrite elem_of_union, elem_of_singleton, elem_of_cons. split; [|tauto].
        intros [[?| ->]|[? ?]]; tauto.
      - rewrite elem_of_cons. split; [tauto|]. intros [?|[? [->|?]]]; tauto. }
    rewrite Hgen, iter_elem by done. set_solver +.
  Qed.

  Lemma find_adjacent_spec g n m : wf_graph g → m ∈ find_adjacent o g n ↔ adjacent g n m.
  Proof.
    intros Hwf. unfold find_adjacent. rewrite elem_of_union, find_children_spec. simpl.
    unfold adjacent. split; [unfold edge, parents in *; tauto|].
    intros [H|H]; [|by left]. right. split; [done|]. by apply (Hwf n m).
  Qed.

  Lemma get_neighbors_spec g n m : wf_graph g → (∀ a, ¬ edge g a a) →
    NoDup (get_neighbors o g n) ∧ (m ∈ get_neighbors o g n ↔ adjacent g n m).
  Proof.
    intros Hwf Hirr. unfold get_neighbors. split.
    - apply NoDup_filter. by apply iter_nodup.
    - rewrite elem_of_list_filter, iter_elem, is_connected_spec by done.
      split; [tauto|]. intros Ha. split; [done|].
      assert (m ≠ n) by (intros ->; destruct Ha as [Ha|Ha]; by apply Hirr in Ha).
      assert (m ∈ gnodes g) by (destruct Ha as [Ha|Ha]; apply Hwf in Ha; tauto). set_solver +H H0.
  Qed.

  Lemma max_parents_spec g :
    (∀ n, n ∈ gnodes g → size (parents g n) ≤ max_parents o g) ∧
    (max_parents o g = 0 ∨ ∃ n, n ∈ gnodes g ∧ size (parents g n) = max_parents o g).
  Proof.
    unfold max_parents.
    assert (∀ l m0, let m := foldl (λ m n, if decide (m < size (parents g n)) then size (parents g n) else m) m0 l in
      m0 ≤ m ∧ (∀ n, n ∈ l → size (parents g n) ≤ m) ∧ (m = m0 ∨ ∃ n, n ∈ l ∧ size (parents g n) = m)) as Hgen.
    { induction l as [|n l IH]; intros m0; simpl; [split_and!; [done|set_solver|by left]|].
      destruct (IH (if decide (m0 < size (parents g n)) then size (parents g n) else m0)) as (H1 & H2 & H3).
      simpl in *. destruct (decide (m0 < size (parents g n))) as [E|E].
      - split_and!; [lia| |].
        + intros m [->|?]%elem_of_cons; [done|by apply H2].
        + destruct H3 as [H3|(m & ? & ?)]; right; [exists n|exists m]; (split; [set_solver|done]).
      - split_and!; [done| |].
        + intros m [->|?]%elem_of_cons; [lia|by apply H2].
        + destruct H3 as [H3|(m & ? & ?)]; [by left|right; exists m; split; [set_solver|done]]. }
    destruct (Hgen (o 26 (gnodes g)) 0) as (_ & H2 & H3). split.
    - intros n Hn. apply H2. by apply iter_elem.
    - destruct H3 as [?|(n & Hn & ?)]; [by left|right]. exists n. split; [by apply iter_elem in Hn|done].
  Qed.

  (** ** number_of_edges *)
  Lemma number_of_edges_fold g l e m :
    foldl (λ '(e, m) '(i, j), if is_connected g i j then (S e, m) else (e, S m)) (e, m) l =
    (e + length (filter (λ p, is_connected g p.1 p.2 = true) l),
     m + length (filter (λ p, is_connected g p.1 p.2 = false) l)).
  Proof.
    revert e m. induction l as [|[i j] l IH]; intros e m; simpl; [f_equal; lia|].
    destruct (is_connected g i j) eqn:E.
    - rewrite IH, !filter_cons. simpl. rewrite decide_True, decide_False by congruence. simpl.
      f_equal; lia.
    - rewrite IH, !filter_cons. simpl. rewrite decide_False, decide_True by congruence. simpl.
      f_equal; lia.
  Qed.

  (** ** connectivity *)
  Lemma conn_edge_sym g V a b : conn_edge g V a b → conn_edge g V b a.
  Proof. unfold conn_edge, adjacent. tauto. Qed.
  Lemma conn_rtc_sym g V a b : rtc (conn_edge g V) a b → rtc (conn_edge g V) b a.
  Proof.
    induction 1 as [|a c b Hac _ IH]; [done|]. eapply rtc_r; [done|]. by apply conn_edge_sym.
  Qed.

  Lemma connected_loop_spec g V n0 fuel : ∀ R St,
    n0 ∈ V → n0 ∉ R → R ⊆ V → R ≠ ∅ → St ⊆ V ∖ R →
    (∀ n, n ∈ V → n ∉ R → rtc (conn_edge g V) n0 n) →
    (∀ n m, n ∈ V → n ∉ R → n ∉ St → m ∈ R → ¬ adjacent g n m) →
    size R + size St < fuel →
    returns (connected_loop o fuel g R St) (λ b, b = true ↔ weakly_connected g V).
  Proof.
    induction fuel as [|fuel IH]; intros R St Hn0 Hn0R HRV HR HSt Hconn Hclosed Hf; [lia|].
    simpl. destruct (o 123 St) as [|n rest] eqn:Eo.
    - assert (∀ m, m ∉ St) as HStE.
      { intros m Hm. apply (iter_elem o 123 St m Ho) in Hm. rewrite Eo in Hm. by apply elem_of_nil in Hm. }
      simpl. split; [done|]. intros Hw. exfalso.
      apply set_choose_L in HR as (r & Hr).
      assert (∀ m, rtc (conn_edge g V) n0 m → m ∉ R) as Hall.
      { intros m Hm. apply rtc_ind_r_weak with (P := λ a b, a ∉ R → b ∉ R) in Hm; [by apply Hm| |].
        - done.
        - intros a b c _ (Hbc & Hb & Hc) IHab Ha HcR.
          apply (Hclosed b c); auto. }
      by apply (Hall r (Hw _ _ Hn0 (HRV _ Hr))).
    - assert (n ∈ St) as Hn.
      { apply (iter_elem o 123 St n Ho). rewrite Eo. by left. }
      assert (n ∈ V ∧ n ∉ R) as [HnV HnR] by set_solver +Hn HSt.
      set (P := parents g n ∩ R). set (R1 := R ∖ P).
      set (C := find_children o g n (Some R1)). set (R2 := R1 ∖ C).
      assert (∀ c, c ∈ C ↔ edge g n c ∧ c ∈ R1) as HC by (intros c; apply find_children_spec).
      assert (∀ m, m ∈ R2 ↔ m ∈ R ∧ ¬ adjacent g n m) as HR2.
      { intros m. unfold R2. rewrite elem_of_difference, HC. unfold R1, P, adjacent.
        rewrite elem_of_difference, elem_of_intersection. unfold edge, parents.
        destruct (decide (m ∈ gadj g n)), (decide (n ∈ gadj g m)), (decide (m ∈ R)); tauto. }
      assert (∀ m, m ∈ P ∪ C ↔ m ∈ R ∧ adjacent g n m) as HPC.
      { intros m. rewrite elem_of_union, HC. unfold R1, P, adjacent.
        rewrite elem_of_difference, elem_of_intersection. unfold edge, parents.
        destruct (decide (m ∈ gadj g n)), (decide (n ∈ gadj g m)), (decide (m ∈ R)); tauto. }
      assert (∀ m, m ∈ V → m ∉ R2 → rtc (conn_edge g V) n0 m) as Hconn2.
      { intros m HmV Hm. destruct (decide (m ∈ R)) as [HmR|HmR]; [|by apply Hconn].
        destruct (is_connected g n m) eqn:E.
        - apply is_connected_spec in E. eapply rtc_r; [by apply (Hconn n)|]. done.
        - exfalso. apply Hm, HR2. split; [done|]. rewrite <-is_connected_spec. congruence. }
      destruct (decide (size R2 = 0)) as [Hz|Hz].
      + simpl. split; [|done]. intros _ a b Ha Hb. apply size_empty_inv in Hz.
        assert (∀ m, m ∉ R2) by (intros m Hm; rewrite Hz in Hm; by apply elem_of_empty in Hm).
        etrans; [apply conn_rtc_sym|]; apply Hconn2; auto.
      + apply IH; [done| | | | |done| |].
        * rewrite HR2. tauto.
        * intros m Hm%HR2. apply HRV. tauto.
        * intros E. rewrite E in Hz. by rewrite size_empty in Hz.
        * intros m Hm. rewrite elem_of_difference, HR2.
          rewrite <-(assoc_L (∪)), elem_of_union, HPC, elem_of_difference in Hm.
          destruct Hm as [[Hm _]|[Hm ?]]; [|split; [by apply HRV|tauto]].
          apply HSt, elem_of_difference in Hm. tauto.
        * intros m m' HmV Hm HmS Hm'. rewrite HR2 in Hm, Hm'. destruct Hm' as [Hm' Hnm'].
          rewrite <-(assoc_L (∪)), elem_of_union, HPC, elem_of_difference, elem_of_singleton in HmS.
          destruct (decide (m = n)) as [->|Hmn]; [done|].
          destruct (decide (m ∈ R)) as [HmR|HmR].
          -- exfalso. apply Hm. split; [done|]. intros ?. apply HmS. by right.
          -- apply Hclosed; [done..| |done]. intros ?. apply HmS. by left.
        * assert (size R = size R2 + size (P ∪ C)) as HsR.
          { rewrite <-size_union.
            - f_equal. apply set_eq. intros m. rewrite elem_of_union, HR2, HPC.
              rewrite <-is_connected_spec. destruct (is_connected g n m); naive_solver.
            - intros m. rewrite HR2, HPC. tauto. }
          assert (size (St ∖ {[n]} ∪ P ∪ C) ≤ size (St ∖ {[n]}) + size (P ∪ C)) as HsS.
          { rewrite <-(assoc_L (∪)). rewrite size_union_alt.
            assert (size ((P ∪ C) ∖ (St ∖ {[n]})) ≤ size (P ∪ C)); [|lia].
            apply subseteq_size. set_solver +. }
          assert (size St = S (size (St ∖ {[n]}))) as HsSt.
          { rewrite size_difference by set_solver +Hn. rewrite size_singleton.
            assert (size St ≠ 0); [|lia]. intros E. apply size_empty_inv in E. set_solver +E Hn. }
          lia.
  Qed.

  Lemma is_graph_connected_spec g fuel ns : let V := default (gnodes g) ns in
    size V < fuel → 1 < size V →
    returns (is_graph_connected o fuel g ns) (λ b, b = true ↔ weakly_connected g V).
  Proof.
    intros V Hf HV. unfold is_graph_connected. fold V. clearbody V. rewrite bool_decide_true by done. simpl.
    destruct (o 120 V) as [|n rest] eqn:Eo.
    - exfalso. pose proof (iter_length o 120 V Ho) as Hl. rewrite Eo in Hl. simpl in Hl. lia.
    - assert (n ∈ V) as Hn by (apply (iter_elem o 120 V n Ho); rewrite Eo; by left).
      assert (size V = S (size (V ∖ {[n]}))) as Hs.
      { rewrite size_difference by set_solver +Hn. rewrite size_singleton. lia. }
      apply (connected_loop_spec g V n).
      + done.
      + set_solver +.
      + set_solver +.
      + intros E. rewrite E, size_empty in Hs. lia.
      + set_solver +Hn.
      + intros m Hm HmV. destruct (decide (m = n)) as [->|E]; [done|]. exfalso. set_solver +Hm HmV E.
      + set_solver +.
      + rewrite size_singleton. lia.
  Qed.

  (** ** partial lists *)
  Lemma row_cases g l n acc : NoDup l →
    (∃ idxs, for_ (o 229 (parents g n)) (λ p acc, i ← dict_get (index_map l) p; Ok (acc ++ [i])) acc = Ok idxs) ∧
      (∀ a, edge g a n → a ∈ l) ∨
    for_ (o 229 (parents g n)) (λ p acc, i ← dict_get (index_map l) p; Ok (acc ++ [i])) acc = Raise KeyError ∧
      (∃ a, edge g a n ∧ a ∉ l).
  Proof.
    intros Hnd.
    assert (∀ ps acc,
      (∃ idxs, for_ ps (λ p acc, i ← dict_get (index_map l) p; Ok (acc ++ [i])) acc = Ok idxs) ∧
        (∀ a, a ∈ ps → a ∈ l) ∨
      for_ ps (λ p acc, i ← dict_get (index_map l) p; Ok (acc ++ [i])) acc = Raise KeyError ∧
        (∃ a, a ∈ ps ∧ a ∉ l)) as Hgen.
    { clear acc. induction ps as [|p ps IH]; intros acc; simpl.
      - left. split; [eauto|]. intros a Ha. by apply elem_of_nil in Ha.
      - destruct (decide (p ∈ l)) as [Hp|Hp].
        + destruct (dict_get_index l p Hnd Hp) as (i & -> & _). simpl.
          destruct (IH (acc ++ [i])) as [[? ?]|[? (a & ? & ?)]].
          * left. split; [done|]. intros a [->|?]%elem_of_cons; auto.
          * right. split; [done|]. exists a. split; [by right|done].
        + right. unfold dict_get. destruct (index_map l !! p) as [i|] eqn:E.
          * exfalso. apply index_map_spec in E; [|done]. apply Hp. by eapply elem_of_list_lookup_2.
          * simpl. split; [done|]. exists p. split; [by left|done]. }
    destruct (Hgen (o 229 (parents g n)) acc) as [[? H]|[? (a & Ha & ?)]].
    - left. split; [done|]. intros a Ha. apply H. by apply iter_elem.
    - right. split; [done|]. exists a. split; [by apply iter_elem in Ha|done].
  Qed.

  Lemma adj_mat_keyerror g l : NoDup l →
    (∃ a b, b ∈ l ∧ edge g a b ∧ a ∉ l) → adj_mat_of o g l = Raise KeyError.
  Proof.
    intros Hnd Hbad. unfold adj_mat_of. generalize (Mat (length l) (λ _ _, 0)).
    assert (∀ k, (∀ n, n ∈ k → n ∈ l) → (∃ a b, b ∈ k ∧ edge g a b ∧ a ∉ l) → ∀ acc,
      for_ k (λ n m,
        idxs ← for_ (o 229 (parents g n)) (λ p acc, i ← dict_get (index_map l) p; Ok (acc ++ [i])) [];
        c ← dict_get (index_map l) n;
        Ok (Mat (mdim m) (λ i j, if decide (j = c ∧ i ∈ idxs) then 1 else ment m i j))) acc
      = Raise KeyError) as Hgen; [|by apply Hgen].
    induction k as [|n k IH]; intros Hk (a & b & Hb & Hab & Hal) acc; [by apply elem_of_nil in Hb|].
    simpl. destruct (row_cases g l n [] Hnd) as [[[idxs ->] Hall]|[-> _]]; [|done]. simpl.
    destruct (dict_get_index l n Hnd) as (c & -> & _); [apply Hk; by left|]. simpl.
    apply IH; [intros; apply Hk; by right|]. exists a, b. split; [|done].
    apply elem_of_cons in Hb as [->|?]; [|done]. by apply Hall in Hab.
  Qed.

  (** ** disconnect_node *)
  Lemma remove_edge_ok g i j : i ∈ gnodes g → j ∈ gnodes g →
    ∃ h, remove_edge g i j = Ok h ∧ gadj h j = gadj g j ∖ {[i]} ∖ (if decide (i = j) then {[i]} else ∅).
  Proof.
    intros Hi Hj. unfold remove_edge. rewrite !bool_decide_true by done. simpl. eexists. split; [done|].
    simpl. rewrite decide_True by done. destruct (decide (j = i)) as [->|E].
    - rewrite decide_True by done. apply set_eq. intros m. set_solver +.
    - rewrite decide_False by done. apply set_eq. intros m. set_solver +.
  Qed.

  Lemma disconnect_node_raises g n : wf_graph g → symmetric_graph g → n ∈ gnodes g →
    gadj g n ≠ ∅ → disconnect_node o g n = Raise RuntimeError.
  Proof.
    intros Hwf Hsym Hn Hne. unfold disconnect_node, for_live.
    destruct (o 28 (gadj g n)) as [|nb l] eqn:Eo.
    { exfalso. apply set_choose_L in Hne as (m & Hm). apply (iter_elem o 28 _ _ Ho) in Hm.
      rewrite Eo in Hm. by apply elem_of_nil in Hm. }
    assert (nb ∈ gadj g n) as Hnb by (apply (iter_elem o 28 _ _ Ho); rewrite Eo; by left).
    assert (nb ∈ gnodes g) by (by apply (Hwf nb n)).
    simpl. rewrite decide_True by done. destruct (remove_edge_ok g nb n) as (h & -> & Hh); [done..|]. simpl.
    assert (size (gadj h n) < size (gadj g n)) as Hs.
    { apply subset_size. rewrite Hh. split; [set_solver +|].
      intros Hs. specialize (Hs nb Hnb). set_solver +Hs. }
    destruct l; simpl; rewrite decide_False by lia; done.
  Qed.

  Lemma disconnect_node_isolated g n : gadj g n = ∅ → disconnect_node o g n = Ok g.
  Proof.
    intros He. unfold disconnect_node, for_live. rewrite He, size_empty.
    assert (o 28 ∅ = []) as ->.
    { apply Permutation_nil. rewrite (Ho 28 ∅). by rewrite elements_empty. }
    simpl. by rewrite He, size_empty, decide_True.
  Qed.
End misc.

(** ** Statements used by PropGraph.v *)
Lemma returns_eq {A} (m : res A) (a : A) (P : A → Prop) : returns m P → (∀ b, P b → b = a) → m = Ok a.
Proof. destruct m; simpl; [|tauto..]. intros HP H. by rewrite (H _ HP). Qed.

Lemma bool_dec_eq (b1 b2 : bool) (P : Prop) : (b1 = true ↔ P) → (b2 = true ↔ P) → b1 = b2.
Proof. destruct b1, b2; naive_solver. Qed.

Lemma ancestor_agree o o' g fuel fuel' d t : iter_ok o → iter_ok o' → wf_graph g → acyclic g → d ∈ gnodes g →
  size (gnodes g) < fuel → size (gnodes g) < fuel' →
  ∃ b, is_ancestor o fuel g d t = Ok b ∧ is_ancestor_recursive o' fuel' g d t = Ok b.
Proof.
  intros Ho Ho' Hwf Hac Hd Hf Hf'.
  pose proof (is_ancestor_spec o Ho g fuel d t Hwf Hd Hf) as H1.
  assert (size (anc_set o' g d) ≤ fuel') as Hle by (pose proof (anc_set_le o' g d); lia).
  pose proof (is_ancestor_recursive_spec o' Ho' g t Hwf Hac fuel' d Hd Hle) as H2.
  apply returns_ok in H1 as (b1 & -> & H1). apply returns_ok in H2 as (b2 & -> & H2).
  exists b1. split; [done|]. f_equal. by eapply bool_dec_eq.
Qed.

Lemma dsep_symmetric o o' g fuel fuel' x y Z Z' : iter_ok o → iter_ok o' → wf_graph g → acyclic g →
  size (gnodes g) < fuel → size (gnodes g) < fuel' → x ∈ gnodes g → y ∈ gnodes g →
  (∀ z, z ∈ Z → z ∈ gnodes g) → (∀ z, z ∈ Z ↔ z ∈ Z') → x ≠ y → x ∉ Z → y ∉ Z →
  ∃ b, dsep o fuel g x y Z = Ok b ∧ dsep o' fuel' g y x Z' = Ok b.
Proof.
  intros Ho Ho' Hwf Hac Hf Hf' Hx Hy HZ HZ' Hne HxZ HyZ.
  pose proof (dsep_spec o Ho g fuel x y Z Hwf Hac Hf Hx Hy HZ Hne HyZ) as H1.
  assert (returns (dsep o' fuel' g y x Z') (λ b, b = true ↔ d_separated g y x Z')) as H2.
  { apply dsep_spec; try done.
    - intros z Hz. apply HZ. by apply HZ'.
    - by rewrite <-HZ'. }
  apply returns_ok in H1 as (b1 & -> & H1). apply returns_ok in H2 as (b2 & -> & H2).
  exists b1. split; [done|]. f_equal. eapply bool_dec_eq; [exact H2|]. rewrite H1.
  rewrite <-(d_separated_set g y x Z Z') by done. split; apply d_separated_sym.
Qed.

Lemma dsep_adjacent o g fuel x y Z : iter_ok o → wf_graph g → acyclic g →
  size (gnodes g) < fuel → (∀ z, z ∈ Z → z ∈ gnodes g) → y ∉ Z →
  adjacent g x y → dsep o fuel g x y Z = Ok false.
Proof.
  intros Ho Hwf Hac Hf HZ HyZ Hadj.
  assert (x ≠ y) as Hne.
  { intros ->. destruct Hadj as [He|He]; by apply acyclic_irr in He. }
  assert (x ∈ gnodes g ∧ y ∈ gnodes g) as [Hx Hy].
  { destruct Hadj as [He|He]; apply Hwf in He; tauto. }
  eapply returns_eq; [by apply dsep_spec|]. cbn. intros b Hb. destruct b; [|done].
  exfalso. eapply adjacent_not_dsep; [exact Hne|exact Hadj|]. by apply Hb.
Qed.

Lemma dsep_nonadjacent o g fuel x y : iter_ok o → wf_graph g → acyclic g →
  size (gnodes g) < fuel → x ∈ gnodes g → y ∈ gnodes g → x ≠ y → ¬ adjacent g x y →
  dsep o fuel g x y (elements (parents g x)) = Ok true ∨ dsep o fuel g x y (elements (parents g y)) = Ok true.
Proof.
  intros Ho Hwf Hac Hf Hx Hy Hne Hadj. unfold parents.
  assert (∀ n, n ∈ [x; y] → d_separated g x y (elements (gadj g n)) →
    dsep o fuel g x y (elements (gadj g n)) = Ok true) as Hgen.
  { intros n Hn Hs. eapply returns_eq.
    - apply dsep_spec; try done.
      + intros z. rewrite elem_of_elements. intros Hz. by apply (Hwf z n).
      + rewrite elem_of_elements. intros Hz. apply elem_of_cons in Hn as [->|Hn].
        * apply Hadj. by right.
        * apply elem_of_list_singleton in Hn as ->. by apply acyclic_irr in Hz.
    - cbn. intros b Hb. by apply Hb. }
  destruct (nonadjacent_separated g x y) as [H|H]; [done..| |].
  - left. apply Hgen; [by left|done].
  - right. apply Hgen; [by right; left|done].
Qed.

Lemma topological_ok o g fuel V : iter_ok o → size (default (gnodes g) V) < fuel →
  (∀ a, ¬ tc (sub_edge g (default (gnodes g) V)) a a) →
  returns (find_topological_order_groups o fuel g V) (group_order g (default (gnodes g) V)) ∧
  returns (find_topological_order o fuel g V) (topological_order g (default (gnodes g) V)).
Proof.
  intros Ho Hf Hac. unfold find_topological_order, find_topological_order_groups.
  destruct (topological_groups_spec o Ho g fuel _ Hf) as [(gs & -> & Hgs & _)|(_ & a & Ha)].
  - simpl. split; [done|]. by apply group_order_topological.
  - by apply Hac in Ha.
Qed.

Lemma acyclic_sub g V : acyclic g → ∀ a, ¬ tc (sub_edge g V) a a.
Proof. intros Hac a Ha. apply (Hac a). eapply tc_mono; [|exact Ha]. by intros u v [? _]. Qed.

Lemma topological_cyclic o g fuel V : iter_ok o → size (default (gnodes g) V) < fuel →
  (∃ a, tc (sub_edge g (default (gnodes g) V)) a a) →
  find_topological_order_groups o fuel g V = Raise AssertionError ∧
  find_topological_order o fuel g V = Raise AssertionError.
Proof.
  intros Ho Hf (a & Ha). unfold find_topological_order, find_topological_order_groups.
  destruct (topological_groups_spec o Ho g fuel _ Hf) as [(gs & -> & Hgs & Hno)|(-> & _)].
  - by apply Hno in Ha.
  - done.
Qed.

Lemma sorted_nodes (V : nset) : NoDup (merge_sort le (elements V)) ∧ ∀ n, n ∈ merge_sort le (elements V) ↔ n ∈ V.
Proof.
  split.
  - rewrite merge_sort_Permutation. apply NoDup_elements.
  - intros n. rewrite merge_sort_Permutation. apply elem_of_elements.
Qed.

Lemma round_trip_sorted o g g0 : iter_ok o → wf_graph g → gnodes g0 = gnodes g →
  returns (m ← get_adj_mat o g None; init_from_adj_mat g0 m (Some (merge_sort le (elements (gnodes g)))))
    (same_graph g).
Proof.
  intros Ho Hwf Hg0. destruct (sorted_nodes (gnodes g)) as [Hnd Hel].
  pose proof (round_trip o Ho g g0 _ Hwf Hnd Hel Hg0) as H. unfold get_adj_mat in *.
  rewrite bool_decide_true in H; [done|]. apply Forall_forall. intros n. apply Hel.
Qed.

Lemma partial_adj_mat o g l : iter_ok o → NoDup l → (∀ n, n ∈ l → n ∈ gnodes g) →
  (∀ a b, b ∈ l → edge g a b → a ∈ l) →
  returns (get_adj_mat o g (Some l)) (λ m, mdim m = length l ∧ ∀ i j a b, l !! i = Some a → l !! j = Some b →
    (edge g a b → ment m i j = 1) ∧ (¬ edge g a b → ment m i j = 0)).
Proof.
  intros Ho Hnd Hl Hcl. unfold get_adj_mat. rewrite bool_decide_true by by apply Forall_forall. simpl.
  eapply returns_mono; [apply adj_mat_spec; [done..|]; intros b Hb a; by apply Hcl|].
  cbn. intros m [Hm He]. split; [done|]. intros i j a b Hi Hj. destruct (He i j) as [H1 H2]. split.
  - intros. apply H1. eauto.
  - intros Hn. apply H2. intros (a' & b' & ? & ? & ?). congruence.
Qed.

Lemma partial_adj_mat_raises o g l : iter_ok o → NoDup l → (∀ n, n ∈ l → n ∈ gnodes g) →
  (∃ a b, b ∈ l ∧ edge g a b ∧ a ∉ l) → get_adj_mat o g (Some l) = Raise KeyError.
Proof.
  intros Ho Hnd Hl Hbad. unfold get_adj_mat. rewrite bool_decide_true by by apply Forall_forall. simpl.
  by apply adj_mat_keyerror.
Qed.

Lemma is_reachable_path o g fuel s t V : iter_ok o → wf_graph g → symmetric_graph g → size (gnodes g) < fuel →
  returns (is_reachable o fuel g s t V) (λ b, b = true ↔ reaches_avoiding g V s t).
Proof.
  intros Ho Hwf Hsym Hf. eapply returns_mono.
  - apply is_reachable_spec; [done|done| |done]. eapply Nat.le_lt_trans; [|exact Hf].
    apply subseteq_size. set_solver +.
  - cbn. intros b ->. unfold reaches_avoiding. rewrite <-avoid_path. unfold aedge.
    split; intros Hr; (eapply rtc_subrel; [|exact Hr]); intros u v [Huv ?]; (split; [|done]).
    + by apply Hsym.
    + apply Hsym in Huv. done.
Qed.
