(** Proofs about DAG.dsep: moralisation and d-separation. *)
From Verif Require Import Base BaseLemmas ModelGraph Spec Paths MSepTheory ProofGraph.

Section dsep.
  Context (o : order) (Ho : iter_ok o).

  Lemma add_edge_spec m i j : i ∈ gnodes m → j ∈ gnodes m →
    returns (add_edge m i j) (λ m', gnodes m' = gnodes m ∧
      ∀ a b, a ∈ gadj m' b ↔ a ∈ gadj m b ∨ (a = i ∧ b = j) ∨ (a = j ∧ b = i)).
  Proof.
    intros Hi Hj. unfold add_edge. rewrite !bool_decide_true by done. simpl. split; [done|].
    intros a b. destruct (decide (b = j)) as [->|Hbj].
    - destruct (decide (j = i)) as [->|Hji]; rewrite ?elem_of_union, ?elem_of_singleton; tauto.
    - destruct (decide (b = i)) as [->|Hbi]; rewrite ?elem_of_union, ?elem_of_singleton; tauto.
  Qed.

  (** edges contributed by the family of [n] *)
  Definition fam (g : graph) (anc : nset) (n a b : node) : Prop :=
    let ps := parents g n ∩ anc in
    (a ∈ ps ∧ b = n) ∨ (b ∈ ps ∧ a = n) ∨
    (a ∈ ps ∧ b ∈ ps ∧ a ≠ b ∧ is_connected g a b = false).

  Lemma is_connected_sym g a b : is_connected g a b = is_connected g b a.
  Proof. unfold is_connected. apply orb_comm. Qed.

  Lemma moralize_node_spec g anc n m : gnodes m = anc → n ∈ anc →
    returns (moralize_node o g anc n m) (λ m', gnodes m' = anc ∧
      ∀ a b, a ∈ gadj m' b ↔ a ∈ gadj m b ∨ fam g anc n a b).
  Proof.
    intros Hm Hn. unfold moralize_node. set (ps := parents g n ∩ anc).
    eapply returns_bind.
    - apply (for_returns_pre _ _ _ (λ pre m', gnodes m' = anc ∧
        ∀ a b, a ∈ gadj m' b ↔ a ∈ gadj m b ∨ (a ∈ pre ∧ b = n) ∨ (b ∈ pre ∧ a = n))).
      + split; [done|]. intros a b. set_solver.
      + intros pre p post m' Hl [Hm' IH].
        assert (p ∈ anc) as Hp.
        { assert (p ∈ o 176 ps) as Hp by (rewrite Hl; set_solver).
          rewrite iter_elem in Hp by done. set_solver +Hp. }
        eapply returns_mono; [apply add_edge_spec; by rewrite Hm'|]. cbn.
        intros m'' [-> Hm'']. split; [done|]. intros a b. rewrite Hm'', IH. set_solver +.
    - cbn. intros m1 [Hm1 H1]. eapply returns_mono.
      + apply (for_returns_pre _ _ _ (λ pre m', gnodes m' = anc ∧
        ∀ a b, a ∈ gadj m' b ↔ a ∈ gadj m1 b ∨
          (is_connected g a b = false ∧ ((a, b) ∈ pre ∨ (b, a) ∈ pre)))).
        * split; [done|]. intros a b. set_solver +.
        * intros pre [k l] post m' Hl [Hm' IH].
          assert (k ∈ ps ∧ l ∈ ps) as [Hk Hl'].
          { assert ((k, l) ∈ comb2 (o 178 ps)) as Hp by (rewrite Hl; set_solver).
            apply comb2_iter in Hp; [|done]. tauto. }
          destruct (is_connected g k l) eqn:Hc.
          -- simpl. split; [done|]. intros a b. rewrite IH. rewrite !elem_of_app, !elem_of_list_singleton.
             split; [tauto|]. intros [?|[Hf [[?|[= -> ->]]|[?|[= -> ->]]]]]; try tauto.
             ++ congruence.
             ++ rewrite is_connected_sym in Hf. congruence.
          -- eapply returns_mono; [apply add_edge_spec; rewrite Hm'|]; cbn.
             { set_solver +Hk. } { set_solver +Hl'. }
             intros m'' [-> Hm'']. split; [done|]. intros a b.
             rewrite Hm'', IH, !elem_of_app, !elem_of_list_singleton. split.
             ++ intros [[?|[? ?]]|[[-> ->]|[-> ->]]]; try tauto.
                right. rewrite is_connected_sym. tauto.
             ++ intros [?|[Hf [[?|[= -> ->]]|[?|[= -> ->]]]]]; tauto.
      + cbn. intros m2 [Hm2 H2]. split; [done|]. intros a b. rewrite H2, H1. unfold fam.
        fold ps. rewrite !iter_elem by done.
        assert ((is_connected g a b = false ∧ ((a, b) ∈ comb2 (o 178 ps) ∨ (b, a) ∈ comb2 (o 178 ps))) ↔
          (a ∈ ps ∧ b ∈ ps ∧ a ≠ b ∧ is_connected g a b = false)) as ->; [|tauto].
        destruct (comb2_iter o 178 ps a b Ho) as [C1 C2].
        destruct (comb2_iter o 178 ps b a Ho) as [C3 _].
        split.
        * intros [? [Hab|Hba]]; [apply C1 in Hab|apply C3 in Hba]; naive_solver.
        * intros (? & ? & ? & ?). split; [done|]. by apply C2.
  Qed.

  Lemma moral_graph_spec g anc :
    returns (for_ (o 174 anc) (moralize_node o g anc) (empty_graph anc)) (λ m, gnodes m = anc ∧
      ∀ a b, a ∈ gadj m b ↔ ∃ n, n ∈ anc ∧ fam g anc n a b).
  Proof.
    eapply returns_mono.
    - apply (for_returns_pre _ _ _ (λ pre m, gnodes m = anc ∧
        ∀ a b, a ∈ gadj m b ↔ ∃ n, n ∈ pre ∧ fam g anc n a b)).
      + split; [done|]. intros a b. simpl. set_solver +.
      + intros pre n post m Hl [Hm IH].
        assert (n ∈ anc) as Hn.
        { assert (n ∈ o 174 anc) as Hn by (rewrite Hl; set_solver). by rewrite iter_elem in Hn. }
        eapply returns_mono; [by apply moralize_node_spec|]. cbn. intros m' [-> Hm'].
        split; [done|]. intros a b. rewrite Hm', IH. split.
        * intros [(n' & ? & ?)|?]; [exists n'|exists n]; (split; [set_solver|done]).
        * intros (n' & Hn' & ?). rewrite elem_of_app, elem_of_list_singleton in Hn'.
          destruct Hn' as [?| ->]; [left; eauto|by right].
    - cbn. intros m [? Hm]. split; [done|]. intros a b. rewrite Hm.
      split; intros (n & Hn & ?); exists n; (split; [by apply (iter_elem o 174 anc n Ho)|done]).
  Qed.

  (** ** the link with MSepTheory *)
  Lemma acyclic_irr g a : acyclic g → ¬ edge g a a.
  Proof. intros Hac He. apply (Hac a). by apply tc_once. Qed.
  Lemma acyclic_anti g a b : acyclic g → edge g a b → ¬ edge g b a.
  Proof. intros Hac H1 H2. apply (Hac a). eapply tc_l; [done|]. by apply tc_once. Qed.
  Lemma dir_edge g a b : acyclic g → dir (edge g) a b ↔ edge g a b.
  Proof. intros Hac. unfold dir. split; [tauto|]. intros He. split; [done|]. by apply acyclic_anti. Qed.
  Lemma rtc_dir g a b : acyclic g → rtc (dir (edge g)) a b ↔ ancestor g a b.
  Proof.
    intros Hac. unfold ancestor. split; intros Hr; (eapply rtc_subrel; [|exact Hr]).
    - intros u v [? _]. done.
    - intros u v ?. by apply dir_edge.
  Qed.
  Lemma edge_dec g a b : edge g a b ∨ ¬ edge g a b.
  Proof. unfold edge. destruct (decide (a ∈ gadj g b)); tauto. Qed.

  Lemma act_active g (Z : list node) p : acyclic g →
    act (edge g) (.∈ Z) p ↔ linked (adjacent g) p ∧ active g Z p.
  Proof.
    intros Hac. induction p as [|a p IH].
    { split; [|done]. intros _. split; [apply linked_nil|]. intros l1 ???? Heq. by destruct l1. }
    destruct p as [|b p].
    { split; [|done]. intros _. split; [apply linked_one|].
      intros l1 ???? Heq. destruct l1 as [|? [|]]; done. }
    rewrite linked_cons.
    assert (active g Z (a :: b :: p) ↔
      match p with c :: _ => triple_ok (edge g) (.∈ Z) a b c | [] => True end ∧ active g Z (b :: p)) as ->.
    { split.
      - intros Hact. split.
        + destruct p as [|c p]; [done|]. destruct (Hact [] a b c p eq_refl) as [H1 H2].
          split; [|done]. intros Hc. destruct (H1 Hc) as (z & ? & ?). exists z.
          split; [done|]. by apply rtc_dir.
        + intros l1 x y z l2 Heq. apply (Hact (a :: l1) x y z l2). by rewrite Heq.
      - intros [Ht Hact] l1 x y z l2 Heq. destruct l1 as [|? l1]; simplify_eq/=.
        + destruct Ht as [H1 H2]. split; [|done]. intros Hc. destruct (H1 Hc) as (w & ? & Hr).
          exists w. split; [done|]. by apply rtc_dir in Hr.
        + by eapply Hact. }
    change (act (edge g) (.∈ Z) (a :: b :: p)) with
      (madj (edge g) a b ∧ match p with c :: _ => triple_ok (edge g) (.∈ Z) a b c | [] => True end ∧
       act (edge g) (.∈ Z) (b :: p)).
    rewrite IH. unfold madj, adjacent. tauto.
  Qed.

  Lemma anZ_dec_dag g (Z : list node) : wf_graph g → acyclic g →
    ∀ a, anZ (edge g) (.∈ Z) a ∨ ¬ anZ (edge g) (.∈ Z) a.
  Proof.
    intros Hwf Hac a. unfold anZ. induction Z as [|z Z IH].
    - right. intros (z & Hz & _). by apply elem_of_nil in Hz.
    - destruct (ancestor_dec o Ho g a z Hwf) as [Ha|Ha].
      + left. exists z. split; [by left|]. by apply rtc_dir.
      + destruct IH as [(z' & ? & ?)|Hno].
        * left. exists z'. split; [by right|done].
        * right. intros (z' & [->|?]%elem_of_cons & Hr).
          -- apply Ha. by apply rtc_dir in Hr.
          -- apply Hno. eauto.
  Qed.

  Lemma d_separated_aug g x y Z : wf_graph g → acyclic g → x ≠ y → y ∉ Z →
    d_separated g x y Z ↔ ¬ augreach (edge g) (.∈ Z) x y x y.
  Proof.
    intros Hwf Hac Hne HyZ. unfold d_separated. apply not_iff_compat.
    rewrite <-(msep_aug (edge g)).
    - split; intros (p & H); exists p.
      + destruct H as [(Hh & Hl & Hnd & Hlk) Ha]. split_and!; [|by split|done].
        by apply act_active.
      + destruct H as (Ha & [Hh Hl] & Hnd). apply act_active in Ha as [Hlk Ha]; [|done].
        split; [by split_and!|done].
    - intros a. by apply acyclic_irr.
    - apply edge_dec.
    - intros a Ht. apply (Hac a). eapply tc_mono; [|exact Ht]. by intros ?? [? _].
    - by apply anZ_dec_dag.
    - done.
    - done.
  Qed.

  (** moral adjacency and the augmented graph agree up to self loops *)
  Lemma fam_aug g (anc : nset) (Z : list node) x y n a b : acyclic g →
    (∀ c, c ∈ anc ↔ An (edge g) (.∈ Z) x y c) → n ∈ anc → fam g anc n a b →
    aug (edge g) (.∈ Z) x y a b.
  Proof.
    intros Hac Hanc Hn Hf. unfold aug. rewrite <-!Hanc.
    destruct Hf as [[Ha ->]|[[Hb ->]|(Ha & Hb & Hne & _)]].
    - apply elem_of_intersection in Ha as [Ha ?]. split_and!; [done..|]. exists [].
      split; [by left|]. intros c Hc. by apply elem_of_nil in Hc.
    - apply elem_of_intersection in Hb as [Hb ?]. split_and!; [done..|]. exists [].
      split; [by right|]. intros c Hc. by apply elem_of_nil in Hc.
    - apply elem_of_intersection in Ha as [Ha ?]. apply elem_of_intersection in Hb as [Hb ?].
      split_and!; [done..|]. exists [n]. split; [split_and!; [done|done|by right]|].
      intros c ->%elem_of_list_singleton. by apply Hanc.
  Qed.

  Lemma aug_fam g (anc : nset) (Z : list node) x y a b : acyclic g →
    (∀ c, c ∈ anc ↔ An (edge g) (.∈ Z) x y c) →
    aug (edge g) (.∈ Z) x y a b → a = b ∨ ∃ n, n ∈ anc ∧ fam g anc n a b.
  Proof.
    intros Hac Hanc (Ha & Hb & cs & Hcs & HcsA). rewrite <-Hanc in Ha, Hb.
    destruct (decide (a = b)) as [|Hne]; [by left|right].
    assert (adjacent g a b → ∃ n, n ∈ anc ∧ fam g anc n a b) as Hadj.
    { intros [He|He].
      - exists b. split; [done|]. left. split; [|done]. by apply elem_of_intersection.
      - exists a. split; [done|]. right. left. split; [|done]. by apply elem_of_intersection. }
    destruct cs as [|c [|d cs]]; simpl in Hcs.
    - by apply Hadj.
    - destruct Hcs as (Hac' & Hbc & _).
      destruct (is_connected g a b) eqn:Hcon.
      + apply Hadj. unfold is_connected in Hcon. apply orb_true_iff in Hcon.
        rewrite !bool_decide_eq_true in Hcon. exact Hcon.
      + exists c. assert (c ∈ anc) by (apply Hanc, HcsA; by left). split; [done|].
        right. right. rewrite !elem_of_intersection. done.
    - exfalso. destruct Hcs as (_ & Hdc & Hcd & _). by apply (acyclic_anti g d c).
  Qed.

  Lemma fam_anc g anc n a b : n ∈ anc → fam g anc n a b → a ∈ anc ∧ b ∈ anc.
  Proof. unfold fam. set_solver. Qed.

  Lemma fam_sym g anc n a b : fam g anc n a b → fam g anc n b a.
  Proof.
    unfold fam. rewrite (is_connected_sym g b a). intros [?|[?|(?&?&?&?)]]; [tauto..|].
    right. right. split_and!; try done.
  Qed.

  Theorem dsep_spec g fuel x y Z : wf_graph g → acyclic g → size (gnodes g) < fuel →
    x ∈ gnodes g → y ∈ gnodes g → (∀ z, z ∈ Z → z ∈ gnodes g) →
    x ≠ y → y ∉ Z →
    returns (dsep o fuel g x y Z) (λ b, b = true ↔ d_separated g x y Z).
  Proof.
    intros Hwf Hac Hf Hx Hy HZ Hne HyZ. unfold dsep.
    eapply returns_bind; [by apply get_ancestors_all|]. cbn. intros a1 H1.
    eapply returns_bind; [by apply get_ancestors_all|]. cbn. intros a2 H2.
    eapply returns_bind.
    { apply (for_returns_pre _ _ _ (λ pre S, ∀ a, a ∈ S ↔
        ancestor g a x ∨ ancestor g a y ∨ ∃ z, z ∈ pre ∧ ancestor g a z)).
      - intros a. rewrite !elem_of_union, H1, H2. set_solver +.
      - intros pre z post S Hl HS.
        eapply returns_bind; [by apply get_ancestors_all|]. cbn. intros a3 H3.
        intros a. rewrite elem_of_union, HS, H3. set_solver +. }
    cbn. intros anc Hanc.
    assert (∀ c, c ∈ anc ↔ An (edge g) (.∈ Z) x y c) as HAn.
    { intros c. rewrite Hanc. unfold An, anZ. rewrite !rtc_dir by done.
      assert ((∃ z, z ∈ Z ∧ ancestor g c z) ↔ (∃ z, z ∈ Z ∧ rtc (dir (edge g)) c z)) as ->; [|done].
      split; intros (z & ? & ?); exists z; (split; [done|by apply rtc_dir]). }
    eapply returns_bind; [apply moral_graph_spec|]. cbn. intros m [Hmn Hm].
    assert (anc ⊆ gnodes g) as Hsub.
    { intros c. rewrite Hanc. assert (∀ u v, ancestor g u v → v ∈ gnodes g → u ∈ gnodes g) as Hcl.
      { intros u v Huv. unfold ancestor in Huv. induction Huv as [|u w v Huw _ IH]; [done|].
        intros _. by apply (Hwf u w). }
      intros [?|[?|(z & ? & ?)]]; eapply Hcl; eauto. }
    eapply returns_bind.
    { apply is_reachable_spec; [done| | |].
      - intros a b He. unfold edge in He. rewrite Hm in He. destruct He as (n & ? & ?).
        rewrite Hmn. by eapply fam_anc.
      - eapply Nat.le_lt_trans; [|exact Hf]. apply subseteq_size. rewrite Hmn. set_solver +Hsub.
      - intros a b. unfold edge. rewrite !Hm. intros (n & ? & ?). exists n. split; [done|].
        by apply fam_sym. }
    cbn. intros b Hb. rewrite negb_true_iff. rewrite d_separated_aug by done.
    assert (rtc (aedge m (list_to_set Z)) x y ↔ augreach (edge g) (.∈ Z) x y x y) as Heq.
    { unfold augreach. generalize x at 1 3. intros s. split.
      - intros Hr. eapply rtc_subrel; [|exact Hr]. intros u v [Huv HvZ].
        rewrite Hm in Huv. destruct Huv as (n & ? & Hfam). split.
        + eapply fam_aug; [done|done| |by apply fam_sym]. done.
        + by rewrite elem_of_list_to_set in HvZ.
      - intros Hr. induction Hr as [|s u t [Hsu HuZ] _ IH]; [done|].
        destruct (aug_fam g anc Z x y s u) as [->|(n & ? & ?)]; [done..|].
        eapply rtc_l; [|done]. split; [|by rewrite elem_of_list_to_set].
        apply Hm. exists n. split; [done|]. by apply fam_sym. }
    rewrite <-Heq, <-Hb. destruct b; naive_solver.
  Qed.
End dsep.
