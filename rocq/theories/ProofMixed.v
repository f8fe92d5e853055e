(** Proofs about MixedGraph: editing, queries, reachable sets, components. *)
From Verif Require Import Base BaseLemmas ModelGraph Spec ModelMixed SpecMixed Paths ProofGraph ProofDsep ProofGraph2 ProofGraph3 ProofPDAG.

Lemma mark_in_PAG k : k ∈ PAG_T.
Proof. destruct k; set_solver +. Qed.

(** ** queries *)
Lemma is_any_mark_spec T g a b : is_any_mark T g a b = true ↔ ∃ k, k ∈ T ∧ has_mark g a k b.
Proof.
  unfold is_any_mark. rewrite existsb_exists. setoid_rewrite <-elem_of_list_In.
  setoid_rewrite bool_decide_eq_true. done.
Qed.
Lemma connected_spec T g a b : connected T g a b = true ↔ ∃ k, k ∈ T ∧ (has_mark g a k b ∨ has_mark g b k a).
Proof.
  unfold connected. rewrite orb_true_iff, !is_any_mark_spec. naive_solver.
Qed.

Lemma mg_adj_sym g a b : mg_wf g → mg_adj g a b → mg_adj g b a.
Proof. intros Hwf [k Hk]. by apply (mgw_both _ Hwf) in Hk. Qed.

Lemma connected_pag g a b : mg_wf g → connected PAG_T g a b = true ↔ mg_adj g a b.
Proof.
  intros Hwf. rewrite connected_spec. split.
  - intros (k & _ & [H|H]); [by exists k|]. apply mg_adj_sym; [done|]. by exists k.
  - intros (k & H). exists k. split; [apply mark_in_PAG|by left].
Qed.

Lemma m_is_connected_pag g a b : mg_wf g → a ≠ b →
  returns (m_is_connected PAG_T g a b) (λ r, r = true ↔ mg_adj g a b).
Proof.
  intros Hwf Hne. unfold m_is_connected. rewrite bool_decide_true by done. simpl. by apply connected_pag.
Qed.

(** for any iteration order of the set of marks *)
Lemma get_edge_mark_spec T g a b : mg_wf g → T ≡ₚ PAG_T →
  match get_edge_mark T g a b with Some k => has_mark g a k b | None => ∀ k, ¬ has_mark g a k b end.
Proof.
  intros Hwf HT. unfold get_edge_mark. destruct (List.find _ T) as [k|] eqn:E.
  - apply find_some in E as [_ E]. by apply bool_decide_eq_true in E.
  - intros k Hk. apply find_none with (x := k) in E.
    + by apply bool_decide_eq_false in E.
    + apply elem_of_list_In. rewrite HT. apply mark_in_PAG.
Qed.

Lemma get_edge_mark_some g a b k T : mg_wf g → T ≡ₚ PAG_T → get_edge_mark T g a b = Some k ↔ has_mark g a k b.
Proof.
  intros Hwf HT. pose proof (get_edge_mark_spec T g a b Hwf HT) as H.
  destruct (get_edge_mark T g a b) as [j|]; split.
  - by intros [= ->].
  - intros Hk. f_equal. by eapply (mgw_one _ Hwf).
  - done.
  - intros Hk. by apply H in Hk.
Qed.

Lemma elem_adj_any T g i n : n ∈ adj_any T g i ↔ ∃ k, k ∈ T ∧ has_mark g n k i.
Proof.
  unfold adj_any. assert (∀ S0 : nset, n ∈ foldl (λ S k, S ∪ mset g i k) S0 T ↔ n ∈ S0 ∨ ∃ k, k ∈ T ∧ has_mark g n k i) as H.
  { induction T as [|k T IH]; intros S0; simpl; [set_solver +|].
    rewrite IH, elem_of_union. setoid_rewrite elem_of_cons. unfold has_mark. naive_solver. }
  rewrite H. set_solver +.
Qed.

Lemma elem_adj_by g i e n : n ∈ adj_by g i e ↔ has_mark g n e.1 i ∧ has_mark g i e.2 n.
Proof. unfold adj_by. rewrite elem_of_filter. unfold has_mark. tauto. Qed.

(** ** editing operations on PAGs *)
Lemma delete_edge_spec g i j a k b :
  has_mark (delete_edge PAG_T g i j) a k b ↔ has_mark g a k b ∧ ¬ is_pair a b i j.
Proof.
  unfold has_mark, delete_edge, is_pair, PAG_T. cbn [foldl]. rewrite !elem_mdis. destruct k; naive_solver.
Qed.
Lemma delete_edge_nodes T g i j : mnodes (delete_edge T g i j) = mnodes g.
Proof. unfold delete_edge. revert g. induction T as [|k T IH]; intros g; simpl; [done|]. by rewrite IH. Qed.

Lemma replace_mark_spec g s t k a j b :
  has_mark (replace_mark_ PAG_T g s t k) a j b ↔
  (a = s ∧ b = t ∧ j = k) ∨ (¬ (a = s ∧ b = t) ∧ has_mark g a j b).
Proof.
  unfold has_mark, replace_mark_, PAG_T. cbn [foldl]. rewrite elem_madd, !elem_mdis.
  destruct (decide (a = s ∧ b = t)) as [[-> ->]|]; destruct j, k; naive_solver.
Qed.
Lemma replace_mark_nodes T g s t k : mnodes (replace_mark_ T g s t k) = mnodes g.
Proof.
  unfold replace_mark_. simpl. assert (∀ h, mnodes (foldl (λ g k, mdis g t k s) h T) = mnodes h) as H; [|by rewrite H].
  induction T as [|j T IH]; intros h; simpl; [done|]. by rewrite IH.
Qed.

Lemma replace_edge_mark_ok g s t k : replace_edge_mark PAG_T g s t k = Ok (replace_mark_ PAG_T g s t k).
Proof. unfold replace_edge_mark. rewrite bool_decide_true by apply mark_in_PAG. done. Qed.

Lemma add_spec g i j ki kj a k b :
  has_mark (madd (madd g i ki j) j kj i) a k b ↔
  has_mark g a k b ∨ (a = j ∧ b = i ∧ k = ki) ∨ (a = i ∧ b = j ∧ k = kj).
Proof. unfold has_mark. rewrite !elem_madd. naive_solver. Qed.

Lemma mg_wf_delete g i j : mg_wf g → mg_wf (delete_edge PAG_T g i j).
Proof.
  intros Hwf. split.
  - intros a k b. rewrite delete_edge_spec, delete_edge_nodes. intros [? _]. by eapply (mgw_in _ Hwf).
  - intros a k b. rewrite delete_edge_spec. intros [H Hn]. apply (mgw_both _ Hwf) in H as [k' ?].
    exists k'. rewrite delete_edge_spec. split; [done|]. unfold is_pair in *. naive_solver.
  - intros a k j' b. rewrite !delete_edge_spec. intros [? _] [? _]. by eapply (mgw_one _ Hwf).
Qed.

Lemma mg_wf_replace g s t k : mg_wf g → mg_adj g s t → mg_wf (replace_mark_ PAG_T g s t k).
Proof.
  intros Hwf [k0 Hst]. pose proof (mgw_in _ Hwf _ _ _ Hst) as (In1 & In2 & In3). split.
  - intros a j b. rewrite replace_mark_spec, replace_mark_nodes. intros [(-> & -> & ->)|[_ ?]]; [done|].
    by eapply (mgw_in _ Hwf).
  - intros a j b. rewrite replace_mark_spec. intros [(-> & -> & ->)|[Hn Hj]].
    + apply (mgw_both _ Hwf) in Hst as [j' ?]. exists j'. rewrite replace_mark_spec. right. naive_solver.
    + apply (mgw_both _ Hwf) in Hj as [j' Hj']. destruct (decide (b = s ∧ a = t)) as [[-> ->]|Hn'].
      * exists k. rewrite replace_mark_spec. auto.
      * exists j'. rewrite replace_mark_spec. auto.
  - intros a k1 k2 b. rewrite !replace_mark_spec. intros [(? & ? & ->)|[? H1]] [(? & ? & ->)|[? H2]]; [done|tauto..|].
    by eapply (mgw_one _ Hwf).
Qed.

Lemma mg_wf_add g i j ki kj : mg_wf g → i ∈ mnodes g → j ∈ mnodes g → i ≠ j → ¬ mg_adj g i j →
  mg_wf (madd (madd g i ki j) j kj i).
Proof.
  intros Hwf Hi Hj Hne Hn.
  assert (∀ k, ¬ has_mark g i k j) as N1 by (intros k Hk; apply Hn; by exists k).
  assert (∀ k, ¬ has_mark g j k i) as N2.
  { intros k Hk. apply Hn. apply mg_adj_sym; [done|]. by exists k. }
  split.
  - intros a k b. rewrite add_spec. simpl. intros [H|[(-> & -> & _)|(-> & -> & _)]]; [by apply (mgw_in _ Hwf) in H| |]; auto.
  - intros a k b. setoid_rewrite add_spec. intros [H|[(-> & -> & _)|(-> & -> & _)]]; [|eauto 6..].
    apply (mgw_both _ Hwf) in H as [k' ?]. eauto.
  - intros a k1 k2 b. rewrite !add_spec.
    intros [H1|[(-> & -> & ->)|(-> & -> & ->)]] [H2|[(? & ? & ->)|(? & ? & ->)]]; subst; try done.
    + by eapply (mgw_one _ Hwf).
    + by apply N2 in H1.
    + by apply N1 in H1.
    + by apply N2 in H2.
    + by apply N1 in H2.
Qed.

Lemma m_add_edge_spec g i j ki kj : mg_wf g → i ≠ j →
  (¬ mg_adj g i j → m_add_edge PAG_T g i j ki kj = Ok (madd (madd g i ki j) j kj i)) ∧
  (mg_adj g i j → m_add_edge PAG_T g i j ki kj = Raise AssertionError).
Proof.
  intros Hwf Hne. unfold m_add_edge, m_is_connected. rewrite (bool_decide_true (i ≠ j)) by done. cbn [mbind res_bind assert_].
  pose proof (connected_pag g i j Hwf) as Hc. split; intros H.
  - assert (connected PAG_T g i j = false) as -> by (apply not_true_iff_false; by rewrite Hc).
    simpl. rewrite !bool_decide_true by apply mark_in_PAG. done.
  - rewrite (proj2 Hc H). done.
Qed.

Section ordered.
  Context (o : order) (Ho : iter_ok o).

  (** reset_orientations: the marks at both ends of the edges inside V become k *)
  Lemma reset_orientations_spec g k ns : mg_wf g → let V := default (mnodes g) ns in
    returns (reset_orientations o PAG_T g k ns) (λ g', mnodes g' = mnodes g ∧ mg_wf g' ∧
      ∀ a j b, has_mark g' a j b ↔
        (a ∈ V ∧ b ∈ V ∧ mg_adj g a b ∧ j = k) ∨ (¬ (a ∈ V ∧ b ∈ V) ∧ has_mark g a j b)).
  Proof.
    intros Hwf V. unfold reset_orientations. rewrite bool_decide_true by apply mark_in_PAG. simpl. fold V.
    eapply returns_mono.
    - apply (for_returns_pre _ _ _ (λ pre g', mnodes g' = mnodes g ∧ mg_wf g' ∧
        ∀ a j b, has_mark g' a j b ↔
          (((a, b) ∈ pre ∨ (b, a) ∈ pre) ∧ mg_adj g a b ∧ j = k) ∨
          (¬ ((a, b) ∈ pre ∨ (b, a) ∈ pre) ∧ has_mark g a j b))).
      + split_and!; [done..|]. intros a j b. rewrite !elem_of_nil. tauto.
      + intros pre [x y] post g0 Hl (N & Hwf0 & HI).
        assert ((x, y) ∈ comb2 (o 304 V)) as Hxy by (rewrite Hl; set_solver +).
        apply comb2_iter in Hxy as (Hx & Hy & Hne); [|done].
        assert (∀ a b, mg_adj g0 a b ↔ mg_adj g a b) as Hadj.
        { intros a b. unfold mg_adj. setoid_rewrite HI. split.
          - intros (j & [(_ & ? & _)|[_ ?]]); [done|eauto].
          - intros (j & Hj).
            destruct (decide ((a, b) ∈ pre ∨ (b, a) ∈ pre)); [exists k; left; split_and!; [done|by exists j|done]|eauto]. }
        eapply returns_bind; [by apply m_is_connected_pag|]. cbn beta. intros [] Hb; cbv iota.
        * rewrite replace_edge_mark_ok, bind_ok, replace_edge_mark_ok. cbn [returns].
          assert (mg_adj g0 x y) as Hxy0 by by apply Hb.
          assert (mg_adj g0 y x) as Hyx0 by by apply mg_adj_sym.
          split_and!.
          -- done.
          -- apply mg_wf_replace; [by apply mg_wf_replace|]. destruct Hyx0 as (j & Hj). exists j.
             apply replace_mark_spec. right. split; [|done]. intros [? ?]. congruence.
          -- intros a j b. rewrite !replace_mark_spec, HI. rewrite !elem_of_app, !elem_of_list_singleton.
             rewrite Hadj in Hxy0, Hyx0.
             destruct (decide (a = y ∧ b = x)) as [[-> ->]|H1]; [|destruct (decide (a = x ∧ b = y)) as [[-> ->]|H2]].
             ++ split; [|intros [?|[[] _]]; [tauto|]; naive_solver]. intros [(_ & _ & ->)|[[] _]]; [|done]. left. auto.
             ++ split; [|intros [?|[[] _]]; [tauto|]; naive_solver]. intros [(? & ? & ->)|[_ [(_ & _ & ->)|[[] _]]]]; [auto|auto|done].
             ++ assert ((a, b) ≠ (x, y)) by naive_solver. assert ((b, a) ≠ (x, y)) by naive_solver. tauto.
        * split_and!; [done..|]. intros a j b. rewrite HI, !elem_of_app, !elem_of_list_singleton.
          assert (¬ mg_adj g x y) as Hnxy by (rewrite <-Hadj; intros H; by apply Hb in H).
          assert (¬ mg_adj g y x) as Hnyx by (intros H; by apply Hnxy, mg_adj_sym).
          destruct (decide ((a, b) = (x, y))) as [[= -> ->]|]; [|destruct (decide ((b, a) = (x, y))) as [[= -> ->]|]; [|tauto]].
          -- split; [intros [?|[_ Hj]]; [tauto|]; destruct Hnxy; by exists j|].
             intros [(_ & ? & _)|[Hn _]]; [done|]. destruct Hn. auto.
          -- split; [intros [?|[_ Hj]]; [tauto|]; destruct Hnyx; by exists j|].
             intros [(_ & ? & _)|[Hn _]]; [done|]. destruct Hn. auto.
    - cbn beta. intros g' (N & W & H). split_and!; [done..|]. intros a j b. rewrite H.
      assert (((a, b) ∈ comb2 (o 304 V) ∨ (b, a) ∈ comb2 (o 304 V)) ↔ a ∈ V ∧ b ∈ V ∧ a ≠ b) as Hc.
      { split; [|intros (? & ? & ?); by apply comb2_iter]. intros [Hc|Hc]; apply comb2_iter in Hc as (? & ? & ?); try done; by split_and!. }
      rewrite Hc. split.
      + intros [((? & ? & ?) & ? & ?)|[Hn Hj]]; [tauto|]. right. split; [|done]. intros [? ?]. apply Hn.
        split_and!; [done..|]. by apply (mgw_in _ Hwf) in Hj as (_ & _ & ?).
      + intros [(? & ? & Hab & ?)|[Hn Hj]]; [|tauto]. left. split_and!; try done.
        destruct Hab as (j' & Hj). by apply (mgw_in _ Hwf) in Hj as (_ & _ & ?).
  Qed.
End ordered.

(** ** sequences of editing operations *)
Inductive mop :=
  | MAdd (i j : node) (ki kj : mark)
  | MDelete (i j : node)
  | MReplace (s t : node) (k : mark)
  | MReset (k : mark) (ns : option nset).

Definition do_mop (o : order) (op : mop) (g : mgraph) : res mgraph :=
  match op with
  | MAdd i j ki kj => m_add_edge PAG_T g i j ki kj
  | MDelete i j => Ok (delete_edge PAG_T g i j)
  | MReplace s t k => replace_edge_mark PAG_T g s t k
  | MReset k ns => reset_orientations o PAG_T g k ns
  end.

(** what callers have to respect: nodes of the graph, marks of existing edges *)
Definition mop_pre (op : mop) (g : mgraph) : Prop :=
  match op with
  | MAdd i j _ _ => i ∈ mnodes g ∧ j ∈ mnodes g ∧ i ≠ j
  | MReplace s t _ => mg_adj g s t
  | _ => True
  end.

(** the marks after the operation *)
Definition mop_effect (op : mop) (g : mgraph) (a : node) (k : mark) (b : node) : Prop :=
  match op with
  | MAdd i j ki kj => has_mark g a k b ∨ (a = j ∧ b = i ∧ k = ki) ∨ (a = i ∧ b = j ∧ k = kj)
  | MDelete i j => has_mark g a k b ∧ ¬ is_pair a b i j
  | MReplace s t k' => (a = s ∧ b = t ∧ k = k') ∨ (¬ (a = s ∧ b = t) ∧ has_mark g a k b)
  | MReset k' ns => let V := default (mnodes g) ns in
      (a ∈ V ∧ b ∈ V ∧ mg_adj g a b ∧ k = k') ∨ (¬ (a ∈ V ∧ b ∈ V) ∧ has_mark g a k b)
  end.

(** graphs obtained by runs of operations, each applied with any iteration order *)
Inductive edited (g0 : mgraph) : mgraph → Prop :=
  | edited_start : edited g0 g0
  | edited_op g op o g' : edited g0 g → mop_pre op g → iter_ok o → do_mop o op g = Ok g' → edited g0 g'.

Lemma do_mop_spec o op g g' : iter_ok o → mg_wf g → mop_pre op g → do_mop o op g = Ok g' →
  mg_wf g' ∧ mnodes g' = mnodes g ∧ ∀ a k b, has_mark g' a k b ↔ mop_effect op g a k b.
Proof.
  intros Ho Hwf Hpre E. destruct op as [i j ki kj|i j|s t k|k ns]; cbn [mop_pre do_mop mop_effect] in *.
  - destruct Hpre as (Hi & Hj & Hne). destruct (m_add_edge_spec g i j ki kj Hwf Hne) as [H1 H2].
    destruct (connected PAG_T g i j) eqn:Ec.
    + apply connected_pag in Ec; [|done]. rewrite H2 in E by done. done.
    + assert (¬ mg_adj g i j) as Hn by (rewrite <-connected_pag by done; congruence).
      rewrite H1 in E by done. injection E as <-. split_and!; [by apply mg_wf_add|done|]. intros a k b. apply add_spec.
  - assert (g' = delete_edge PAG_T g i j) as -> by congruence. split_and!; [by apply mg_wf_delete|apply delete_edge_nodes|]. intros. apply delete_edge_spec.
  - rewrite replace_edge_mark_ok in E. assert (g' = replace_mark_ PAG_T g s t k) as -> by congruence.
    split_and!; [by apply mg_wf_replace|apply replace_mark_nodes|]. intros. apply replace_mark_spec.
  - pose proof (reset_orientations_spec o Ho g k ns Hwf) as H. cbn zeta in H. rewrite E in H. simpl in H.
    destruct H as (? & ? & ?). done.
Qed.

Lemma mempty_wf V : mg_wf (mempty V).
Proof. split; intros a k; unfold has_mark; simpl; set_solver +. Qed.
Lemma create_complete_spec g k a j b : has_mark (create_complete PAG_T g k None) a j b ↔
  (b ∈ mnodes g ∧ ((j = k ∧ a ∈ mnodes g ∧ a ≠ b))) ∨ (b ∉ mnodes g ∧ has_mark g a j b).
Proof.
  unfold has_mark, create_complete, create_empty. simpl.
  destruct (decide (b ∈ mnodes g ∧ j = k)) as [[? ->]|H]; [set_solver|].
  rewrite decide_True_iff || idtac.
  destruct (decide (b ∈ mnodes g ∧ j ∈ PAG_T)) as [[? ?]|H'].
  - rewrite elem_of_empty. naive_solver.
  - assert (b ∉ mnodes g) by (intros ?; apply H'; split; [done|apply mark_in_PAG]). naive_solver.
Qed.
Lemma create_complete_wf V k : mg_wf (create_complete PAG_T (mempty V) k None).
Proof.
  assert (∀ a j b, has_mark (create_complete PAG_T (mempty V) k None) a j b ↔ j = k ∧ a ∈ V ∧ b ∈ V ∧ a ≠ b) as H.
  { intros a j b. rewrite create_complete_spec. simpl. unfold has_mark. simpl. rewrite elem_of_empty. tauto. }
  split.
  - intros a j b. rewrite H. simpl. tauto.
  - intros a j b. rewrite H. intros (-> & ? & ? & ?). exists k. by rewrite H.
  - intros a j j' b. rewrite !H. intros (-> & _) (-> & _). done.
Qed.

Lemma edited_wf g0 g : mg_wf g0 → edited g0 g → mg_wf g ∧ mnodes g = mnodes g0.
Proof.
  intros Hwf. induction 1 as [|g op o g' _ IH Hpre Ho E]; [done|].
  destruct (IH) as [W N]. destruct (do_mop_spec o op g g' Ho W Hpre E) as (? & ? & _). split; [done|congruence].
Qed.

(** ** reachable sets *)
Section reach.
  Context (o : order) (Ho : iter_ok o).

  Context (T : list mark) (g : mgraph) (HT : ∀ a k b, has_mark g a k b → k ∈ T).

  Lemma elem_adj_list n pool es m :
    m ∈ adj_list T g n pool es ↔ typed_edge g es n m ∧ m ∈ pool.
  Proof.
    destruct es as [es|]; simpl.
    - assert (∀ S0 : nset, m ∈ foldl (λ S e, S ∪ adj_by g n e ∩ pool) S0 es ↔
        m ∈ S0 ∨ ((∃ k j, (k, j) ∈ es ∧ has_mark g m k n ∧ has_mark g n j m) ∧ m ∈ pool)) as H.
      { induction es as [|[k j] es IH]; intros S0; simpl; [set_solver +|].
        rewrite IH, elem_of_union, elem_of_intersection, elem_adj_by. setoid_rewrite elem_of_cons. simpl.
        split.
        - intros [[?|[? ?]]|[(k' & j' & ? & ?) ?]]; [tauto| |]; right; (split; [|done]); eauto 10.
        - intros [?|[(k' & j' & [[= -> ->]|?] & ?) ?]]; [tauto..|]. right. eauto 10. }
      rewrite H. set_solver +.
    - rewrite elem_of_intersection, elem_adj_any. split; [naive_solver|].
      intros [(k & ?) ?]. split; [|done]. exists k. split; [by eapply HT|done].
  Qed.

  Lemma reach_mono (R : node → node → Prop) (P Q : nset) a b : P ⊆ Q → reachable_in R P a b → reachable_in R Q a b.
  Proof. intros HPQ. apply tc_mono. set_solver +HPQ. Qed.

  Lemma reach_in_pool (R : node → node → Prop) (P : nset) a b : reachable_in R P a b → b ∈ P.
  Proof. induction 1; tauto. Qed.

  (** a set that contains the successors of a and is closed contains everything reachable *)
  Lemma reach_closed (R : node → node → Prop) (P C : nset) a : (∀ v, R a v → v ∈ P → v ∈ C) →
    (∀ u v, u ∈ C → R u v → v ∈ P → v ∈ C) → ∀ b, reachable_in R P a b → b ∈ C.
  Proof.
    intros Ha HC b Hr. assert (∀ u, reachable_in R P u b → (∀ v, R u v → v ∈ P → v ∈ C) → b ∈ C) as H.
    { clear Hr. intros u Hr. induction Hr as [u b [? ?]|u v b [? ?] _ IH]; intros Hu; [auto|].
      apply IH. intros w. apply HC. auto. }
    by apply (H a).
  Qed.

  Section fixed.
  Context (es : option (list (mark * mark))).
  Notation R := (typed_edge g es).

  Lemma elem_next (F pool : nset) m :
    m ∈ foldl (λ S n, S ∪ adj_list T g n pool es) ∅ (o 224 F) ↔ m ∈ pool ∧ ∃ n, n ∈ F ∧ R n m.
  Proof.
    assert (∀ l (S0 : nset), m ∈ foldl (λ S n, S ∪ adj_list T g n pool es) S0 l ↔
      m ∈ S0 ∨ (m ∈ pool ∧ ∃ n, n ∈ l ∧ R n m)) as H.
    { induction l as [|n l IH]; intros S0; simpl.
      - split; [tauto|]. intros [?|[_ (n & Hn & _)]]; [done|]. by apply elem_of_nil in Hn.
      - rewrite IH, elem_of_union, elem_adj_list. setoid_rewrite elem_of_cons. split.
        + intros [[?|[? ?]]|[? (n' & ? & ?)]]; eauto 10.
        + intros [?|[? (n' & [->|?] & ?)]]; eauto 10. }
    rewrite H. setoid_rewrite iter_elem; [|done]. rewrite elem_of_empty. tauto.
  Qed.

  Lemma reach_loop_spec a P fuel : ∀ (reach pool F : nset),
    (∀ v, v ∈ pool ↔ v ∈ P ∧ v ∉ reach) →
    (∀ v, v ∈ reach → reachable_in R P a v) →
    (∀ v, v ∈ F → v = a ∨ v ∈ reach) →
    (∀ u v, (u = a ∨ u ∈ reach) → u ∉ F → R u v → v ∈ P → v ∈ reach) →
    size pool + 1 < fuel →
    returns (reach_loop o fuel T g es reach pool F) (λ S, ∀ v, v ∈ S ↔ reachable_in R P a v).
  Proof.
    induction fuel as [|fuel IH]; intros reach pool F Hp Hr HF Hc Hf; [lia|]. simpl.
    destruct (decide (size F = 0)) as [E|E].
    - simpl. apply size_empty_inv in E. assert (∀ u, u ∉ F) as HF0 by set_solver +E.
      intros v. split; [apply Hr|].
      apply (reach_closed R P reach a).
      + intros w HR Hw. apply (Hc a w); [by left|apply HF0|done..].
      + intros u w Hu HR Hw. apply (Hc u w); [by right|apply HF0|done..].
    - set (next := foldl (λ S n, S ∪ adj_list T g n pool es) ∅ (o 224 F)).
      assert (∀ m, m ∈ next ↔ m ∈ pool ∧ ∃ n, n ∈ F ∧ R n m) as Hnext by apply elem_next.
      assert (∀ v, v ∈ next → reachable_in R P a v) as Hnr.
      { intros v (Hv & n & Hn & HR)%Hnext. apply Hp in Hv as [Hv _].
        destruct (HF n Hn) as [->|Hn']; [by apply tc_once|]. eapply tc_r; [by apply Hr|done]. }
      assert (∀ u v, (u = a ∨ u ∈ reach) → R u v → v ∈ P → v ∈ reach ∪ next) as Hc'.
      { intros u v Hu HR Hv. destruct (decide (u ∈ F)) as [HuF|HuF].
        - destruct (decide (v ∈ reach)); [set_solver|]. apply elem_of_union. right. apply Hnext.
          split; [by apply Hp|eauto].
        - apply elem_of_union. left. by eapply Hc. }
      destruct (decide (size next = 0)) as [En|En].
      + destruct fuel as [|fuel]; [lia|]. simpl. rewrite decide_True by done. simpl.
        apply size_empty_inv in En. intros v. rewrite elem_of_union. split; [intros [?|?]; auto|].
        intros Hv. left. revert v Hv. apply reach_closed.
        * intros v HR Hv. assert (v ∈ reach ∪ next) as Hin by (apply (Hc' a); auto). set_solver +Hin En.
        * intros u v Hu HR Hv. assert (v ∈ reach ∪ next) as Hin by (apply (Hc' u); auto). set_solver +Hin En.
      + apply IH.
        * intros v. rewrite elem_of_difference, elem_of_union, Hp. tauto.
        * intros v [?|?]%elem_of_union; auto.
        * intros v Hv. right. by apply elem_of_union_r.
        * intros u v Hu Hun HR Hv. eapply Hc'; [|exact HR|done]. destruct Hu as [?|[?|?]%elem_of_union]; tauto.
        * assert (size (pool ∖ next) < size pool); [|lia]. apply subset_size.
          destruct (size_pos_elem_of next) as (m & Hm); [lia|].
          assert (m ∈ pool) as Hmp by by apply Hnext in Hm as [? _]. set_solver +Hm Hmp.
  Qed.

  Lemma find_reachable_spec a P fuel : size P + 1 < fuel →
    returns (find_reachable o fuel T g a P es) (λ S, ∀ v, v ∈ S ↔ reachable_in R P a v).
  Proof.
    intros Hf. unfold find_reachable. destruct (decide (size P = 0)) as [E|E].
    - simpl. intros v. split; [by intros ?%not_elem_of_empty|]. intros Hv%reach_in_pool.
      apply size_empty_inv in E. set_solver +E Hv.
    - apply reach_loop_spec; [..|done].
      + intros v. rewrite elem_of_empty. tauto.
      + by intros v ?%not_elem_of_empty.
      + intros v ->%elem_of_singleton. by left.
      + intros u v [->|Hu] Hn; [|by apply not_elem_of_empty in Hu]. destruct Hn. by apply elem_of_singleton.
  Qed.

  Lemma find_reachable_recursive_spec fuel : ∀ a P, size P < fuel →
    returns (find_reachable_recursive o fuel T g a P es) (λ S, ∀ v, v ∈ S ↔ reachable_in R P a v).
  Proof.
    induction fuel as [|fuel IH]; intros a P Hf; [lia|]. simpl.
    destruct (decide (size P = 0)) as [E|E].
    { simpl. intros v. split; [by intros ?%not_elem_of_empty|]. intros Hv%reach_in_pool.
      apply size_empty_inv in E. set_solver +E Hv. }
    set (nb := adj_list T g a P es).
    assert (∀ m, m ∈ nb ↔ R a m ∧ m ∈ P) as Hnb by apply elem_adj_list.
    destruct (decide (size nb = 0)) as [En|En].
    { simpl. apply size_empty_inv in En. intros v. split.
      - intros [? ?]%Hnb. by apply tc_once.
      - revert v. apply reach_closed.
        + intros v ? ?. by apply Hnb.
        + intros u v Hu. set_solver +Hu En. }
    assert (size (P ∖ nb) < size P) as Hlt.
    { apply subset_size. destruct (size_pos_elem_of nb) as (m & Hm); [lia|].
      assert (m ∈ P) as HmP by by apply Hnb in Hm as [_ ?]. set_solver +Hm HmP. }
    eapply returns_bind.
    - apply (for_returns_pre _ _ _ (λ pre s, nb ⊆ s.1 ∧ (∀ v, v ∈ s.1 → reachable_in R P a v) ∧
        (∀ v, v ∈ s.2 ↔ v ∈ P ∧ v ∉ s.1) ∧
        (∀ u v, u ∈ pre ∨ (u ∈ s.1 ∧ u ∉ nb) → R u v → v ∈ P → v ∈ s.1))).
      + simpl. split_and!; [done| | |].
        * intros v [? ?]%Hnb. by apply tc_once.
        * set_solver +.
        * intros u v [Hu|[? ?]]; [by apply elem_of_nil in Hu|done].
      + intros pre n post [reach pool] Hl (H1 & H2 & H3 & H4). simpl in *.
        assert (n ∈ nb) as Hn.
        { assert (n ∈ o 198 nb) as Hn by (rewrite Hl; set_solver +). by rewrite iter_elem in Hn. }
        eapply returns_bind.
        * apply IH. assert (size pool ≤ size (P ∖ nb)); [|lia]. apply subseteq_size.
          intros v (? & ?)%H3. set_solver.
        * cbn beta. intros nr Hnr. simpl. split_and!.
          -- set_solver +H1.
          -- intros v [?|Hv]%elem_of_union; [auto|]. apply Hnr in Hv.
             eapply tc_rtc_l; [apply tc_rtc, H2, H1, Hn|].
             eapply reach_mono; [|exact Hv]. intros w [? _]%H3. done.
          -- intros v. rewrite elem_of_difference, elem_of_union, H3. tauto.
          -- intros u v Hu HR Hv. apply elem_of_union. destruct (decide (v ∈ reach)) as [?|Hvr]; [by left|right].
             assert (v ∈ pool) as Hvp by (apply H3; done). apply Hnr.
             destruct Hu as [[Hu|Hu]%elem_of_app|[[Hu|Hu]%elem_of_union Hun]].
             ++ destruct Hvr. eapply H4; eauto.
             ++ apply elem_of_list_singleton in Hu as ->. by apply tc_once.
             ++ destruct Hvr. eapply H4; eauto.
             ++ apply Hnr in Hu. eapply tc_r; [exact Hu|done].
    - cbn beta. intros [reach pool] (H1 & H2 & H3 & H4). simpl in *. intros v. split; [apply H2|].
      revert v. apply reach_closed.
      + intros v ? ?. apply H1. by apply Hnb.
      + intros u v Hu. apply H4. destruct (decide (u ∈ nb)); [left; by apply iter_elem|auto].
  Qed.

  (** ** components *)
  Context (Hsym : ∀ a b, R a b → R b a).

  Lemma same_component_sym V a b : same_component R V a b → same_component R V b a.
  Proof.
    intros (Ha & Hb & Hr). split_and!; [done..|]. clear Hb. induction Hr as [|a c b [HR Hc] _ IH]; [done|].
    eapply rtc_r; [by apply IH|]. auto.
  Qed.
  Lemma same_component_trans V a b c : same_component R V a b → same_component R V b c → same_component R V a c.
  Proof. intros (? & ? & ?) (? & ? & ?). split_and!; [done..|]. by etrans. Qed.

  (** union of whole classes removed: reachability inside the rest is the same *)
  Lemma component_rest V (W : nset) i b : i ∈ W → W ⊆ V →
    (∀ u v, u ∈ W → v ∈ V → R u v → v ∈ W) →
    (reachable_in R (W ∖ {[i]}) i b ∨ b = i) ↔ same_component R V i b.
  Proof.
    intros Hi HW Hcl. split.
    - intros [Hr| ->]; [|by split_and!; [apply HW|apply HW|]]. apply reach_in_pool in Hr as Hb.
      split_and!; [by apply HW|set_solver|]. apply tc_rtc. eapply tc_mono; [|exact Hr].
      cbn beta. intros u v [? ?]. split; [done|]. set_solver.
    - intros (_ & Hb & Hr).
      assert (∀ u b, rtc (λ u v, R u v ∧ v ∈ V) u b → u ∈ W →
        (u = i ∨ reachable_in R (W ∖ {[i]}) i u) → reachable_in R (W ∖ {[i]}) i b ∨ b = i) as H.
      { intros u c Hr'. induction Hr' as [u|u w c [HR Hw] _ IH]; intros Hu Hcase; [tauto|].
        assert (w ∈ W) as HwW by by eapply Hcl.
        apply IH; [done|]. destruct (decide (w = i)) as [->|Hne]; [by left|right].
        assert (w ∈ W ∖ {[i]}) as Hw' by set_solver.
        destruct Hcase as [->|?]; [by apply tc_once|]. eapply tc_r; [done|done]. }
      apply (H i b); auto.
  Qed.

  Lemma subgraphs_loop_spec V fuel fuel' : ∀ (W : nset) acc, W ⊆ V →
    (∀ u v, u ∈ W → v ∈ V → R u v → v ∈ W) →
    (∀ v, v ∈ V ↔ v ∈ W ∨ ∃ B, B ∈ acc ∧ v ∈ B) →
    (∀ B v, B ∈ acc → v ∈ B → v ∉ W) →
    (∀ i j B C v, acc !! i = Some B → acc !! j = Some C → v ∈ B → v ∈ C → i = j) →
    (∀ B, B ∈ acc → B ≠ ∅) →
    (∀ B a, B ∈ acc → a ∈ B → ∀ b, b ∈ B ↔ same_component R V a b) →
    size W < fuel → size V + 1 < fuel' →
    returns (subgraphs_loop o fuel fuel' T g es W acc) (components R V).
  Proof.
    induction fuel as [|fuel IH]; intros W acc HWV Hcl Hcov Hdis Hinj Hne Hcls Hf Hf'; [lia|]. simpl.
    destruct (o 259 W) as [|i rest] eqn:E.
    - simpl. assert (∀ v, v ∉ W) as HW0.
      { intros v Hv. rewrite <-(iter_elem o 259 W v Ho), E in Hv. by apply elem_of_nil in Hv. }
      split_and!; [|done..]. intros v. rewrite Hcov. split; [intros [H|?]; [by apply HW0 in H|done]|tauto].
    - assert (i ∈ W) as Hi by (rewrite <-(iter_elem o 259 W i Ho), E; set_solver +).
      assert (size (W ∖ {[i]}) < size W) as Hsz by (apply subset_size; set_solver +Hi).
      assert (size W ≤ size V) by by apply subseteq_size.
      eapply returns_bind; [apply find_reachable_spec; lia|]. cbn beta. intros r Hr.
      assert (∀ b, b ∈ r ∪ {[i]} ↔ same_component R V i b) as Hblock.
      { intros b. rewrite elem_of_union, elem_of_singleton, Hr. by apply component_rest. }
      assert (∀ b, b ∈ r ∪ {[i]} → b ∈ W) as HbW.
      { intros b [Hb|Hb]%elem_of_union; [|by apply elem_of_singleton in Hb as ->].
        apply Hr, reach_in_pool in Hb. set_solver +Hb. }
      assert (∀ v, v ∈ W ∖ {[i]} ∖ r ↔ v ∈ W ∧ v ∉ r ∪ {[i]}) as Hrest by set_solver +.
      apply IH.
      + set_solver +HWV.
      + intros u v [Hu Hur]%Hrest Hv HR. apply Hrest. split; [by eapply Hcl|].
        intros Hvb. apply Hur, Hblock. apply Hblock in Hvb.
        eapply same_component_trans; [exact Hvb|]. split_and!; [done|by apply HWV|]. apply rtc_once. auto.
      + intros v. rewrite Hcov, Hrest. setoid_rewrite elem_of_app. setoid_rewrite elem_of_list_singleton. split.
        * intros [Hv|(B & HB & Hv)]; [|right; eauto].
          destruct (decide (v ∈ r ∪ {[i]})) as [Hd|Hd]; [right; eauto|left; done].
        * intros [[? _]|(B & [HB| ->] & Hv)]; [by left|right; eauto|left; auto].
      + intros B v [HB|HB]%elem_of_app Hv; rewrite Hrest.
        * intros [Hw _]. by eapply Hdis.
        * apply elem_of_list_singleton in HB as ->. tauto.
      + intros n m B C v HB HC Hv Hv'.
        apply lookup_app_Some in HB as [HB|[Hl HB]]; apply lookup_app_Some in HC as [HC|[Hl' HC]].
        * by eapply Hinj.
        * apply list_lookup_singleton_Some in HC as [_ <-]. exfalso.
          eapply (Hdis B v); [by eapply elem_of_list_lookup_2|done|]. auto.
        * apply list_lookup_singleton_Some in HB as [_ <-]. exfalso.
          eapply (Hdis C v); [by eapply elem_of_list_lookup_2|done|]. auto.
        * apply list_lookup_singleton_Some in HB as [? _]. apply list_lookup_singleton_Some in HC as [? _]. lia.
      + intros B [HB|HB]%elem_of_app; [by apply Hne|]. apply elem_of_list_singleton in HB as ->. set_solver +.
      + intros B a [HB|HB]%elem_of_app Ha b; [by apply Hcls|]. apply elem_of_list_singleton in HB as ->.
        apply Hblock in Ha. rewrite Hblock. split; intros H'.
        * eapply same_component_trans; [by apply same_component_sym|done].
        * by eapply same_component_trans.
      + assert (size (W ∖ {[i]} ∖ r) ≤ size (W ∖ {[i]})) by (apply subseteq_size; set_solver +). lia.
      + done.
  Qed.
  End fixed.

  Lemma subgraphs_spec fuel en sym : let V := default (mnodes g) en in
    let es := match sym with Some k => if decide (k ∈ T) then Some [(k, k)] else None | None => None end in
    (∀ a b, typed_edge g es a b → typed_edge g es b a) → size V + 1 < fuel →
    returns (find_unconnected_subgraphs o fuel T g en sym) (components (typed_edge g es) V).
  Proof.
    intros V es Hsym Hf. unfold find_unconnected_subgraphs. fold V. fold es.
    apply subgraphs_loop_spec; try done.
    - intros v. split; [by left|]. intros [?|(B & HB & _)]; [done|by apply elem_of_nil in HB].
    - intros B v HB. by apply elem_of_nil in HB.
    - intros B HB. by apply elem_of_nil in HB.
    - intros B a HB. by apply elem_of_nil in HB.
    - lia.
  Qed.

  (** ** is_graph_connected *)
  Lemma m_connected_loop_spec V n0 fuel : ∀ (TR St : nset),
    n0 ∈ V → (∀ a b, typed_edge g None a b → typed_edge g None b a) →
    (∀ v, v ∈ TR → v ∈ V ∧ v ≠ n0) → (∀ v, v ∈ St → v ∈ V ∧ v ∉ TR) → TR ≠ ∅ →
    (∀ v, v ∈ V → v ∉ TR → same_component (typed_edge g None) V n0 v) →
    (∀ u v, u ∈ V → u ∉ TR → u ∉ St → v ∈ V → typed_edge g None u v → v ∉ TR) →
    size TR + size St < fuel →
    returns (m_connected_loop o fuel T g TR St) (λ b, b = true ↔ ∀ v, v ∈ V → same_component (typed_edge g None) V n0 v).
  Proof.
    induction fuel as [|fuel IH]; intros TR St Hn0 Hsym HTR HSt Hne Hin Hcl Hf; [lia|]. simpl.
    destruct (o 135 St) as [|n rest] eqn:E.
    - simpl. split; [done|]. intros Hall. exfalso.
      assert (∀ v, v ∉ St) as HS0.
      { intros v Hv. rewrite <-(iter_elem o 135 St v Ho), E in Hv. by apply elem_of_nil in Hv. }
      apply set_choose_L in Hne as (t & Ht). destruct (HTR t Ht) as [HtV Htn].
      destruct (Hall t HtV) as (_ & _ & Hr).
      assert (∀ u w, rtc (λ u v, typed_edge g None u v ∧ v ∈ V) u w → u ∉ TR → u ∈ V → w ∉ TR) as H.
      { intros u w Hr'. induction Hr' as [|u x w [HR Hx] _ IH']; [done|]. intros Hu HuV.
        apply IH'; [|done]. eapply Hcl; [exact HuV|done|apply HS0|done..]. }
      apply (H n0 t); [done| |done..]. intros H0. by apply HTR in H0 as [_ ?].
    - assert (n ∈ St) as Hn by (rewrite <-(iter_elem o 135 St n Ho), E; set_solver +).
      destruct (HSt n Hn) as [HnV HnT].
      set (adj := adj_any T g n ∩ TR).
      assert (∀ m, m ∈ adj ↔ typed_edge g None n m ∧ m ∈ TR) as Hadj by apply (elem_adj_list n TR None).
      assert (∀ v, v ∈ V → v ∉ TR ∖ adj → same_component (typed_edge g None) V n0 v) as Hin'.
      { intros v Hv Hvn. destruct (decide (v ∈ TR)) as [Hd|Hd]; [|by apply Hin].
        assert (v ∈ adj) as Hva by (destruct (decide (v ∈ adj)) as [|Hna]; [done|destruct Hvn; by apply elem_of_difference]).
        apply Hadj in Hva as [HR _].
        eapply same_component_trans; [by apply (Hin n)|]. split_and!; [done..|]. by apply rtc_once. }
      destruct (decide (size (TR ∖ adj) = 0)) as [E0|E0].
      + simpl. split; [|done]. intros _ v Hv. apply Hin'; [done|]. apply size_empty_inv in E0. set_solver +E0.
      + apply IH; try done.
        * intros v Hv. apply HTR. set_solver +Hv.
        * intros v Hv. destruct (decide (v ∈ adj)) as [Hva|Hva].
          -- split; [|set_solver +Hva]. apply Hadj in Hva as [_ Hva]. by apply HTR.
          -- assert (v ∈ St) as Hvs by set_solver +Hv Hva. destruct (HSt v Hvs) as [? HvT]. split; [done|]. set_solver +HvT.
        * intros H0. rewrite H0, size_empty in E0. done.
        * intros u v Hu Hut Hus Hv HR. destruct (decide (u = n)) as [->|Hun].
          -- rewrite elem_of_difference, Hadj. tauto.
          -- assert (u ∉ TR) as HuT.
             { intros HuT. apply Hus. apply elem_of_union. right.
               destruct (decide (u ∈ adj)); [done|]. destruct Hut. by apply elem_of_difference. }
             assert (u ∉ St) as HuS.
             { intros HuS. apply Hus. apply elem_of_union. left. apply elem_of_difference. by rewrite elem_of_singleton. }
             rewrite elem_of_difference. intros [HvT _]. by eapply (Hcl u v).
        * assert (size (St ∖ {[n]}) < size St) as H1 by (apply subset_size; set_solver +Hn).
          assert (size (St ∖ {[n]} ∪ adj) ≤ size (St ∖ {[n]}) + size adj) as H2.
          { rewrite size_union_alt. assert (size (adj ∖ (St ∖ {[n]})) ≤ size adj) by (apply subseteq_size; set_solver +). lia. }
          assert (size (TR ∖ adj) + size adj = size TR) as H3.
          { rewrite <-size_union by set_solver +. f_equal. apply set_eq. intros v.
            assert (v ∈ adj → v ∈ TR) as Hsub by (intros H0; by apply Hadj in H0 as [_ ?]).
            rewrite elem_of_union, elem_of_difference. destruct (decide (v ∈ adj)); tauto. }
          lia.
  Qed.
End reach.
