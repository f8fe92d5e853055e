(** Path searches of PAG: uncovered paths, discriminating paths, possible ancestors. *)
From Verif Require Import Base BaseLemmas ModelGraph ModelMixed ModelPAG Spec SpecMixed SpecPAG Paths ProofMixed ProofMixed2.

(** ** small queries *)
Lemma is_parent_spec g a b : is_parent g a b = true ↔ dir_edge g a b.
Proof. unfold is_parent, dir_edge, has_mark. by rewrite andb_true_iff, !bool_decide_eq_true. Qed.
Lemma elem_pag_parents g a c : a ∈ pag_parents g c ↔ dir_edge g a c.
Proof. unfold pag_parents, dir_edge, has_mark. rewrite elem_of_filter. tauto. Qed.
Lemma elem_spouses g a b : mg_wf g → b ∈ find_spouses g a ↔ bidir_edge g a b.
Proof.
  intros Hwf. unfold find_spouses, bidir_edge, has_mark. rewrite elem_of_filter. split; [tauto|].
  intros [H1 H2]. split; [tauto|]. by eapply (mgw_in _ Hwf).
Qed.
Lemma edge_is_spec g i j ki kj : edge_is g i j ki kj = true ↔ has_mark g j ki i ∧ has_mark g i kj j.
Proof. unfold edge_is, has_mark. by rewrite andb_true_iff, !bool_decide_eq_true. Qed.
Lemma is_edge_pag g i j ki kj : is_edge PAG_T g i j ki kj = Ok (edge_is g i j ki kj).
Proof. unfold is_edge. rewrite !bool_decide_true by apply mark_in_PAG. done. Qed.
Lemma is_possible_parent_spec g a b : mg_wf g → is_possible_parent g a b = true ↔ pd_edge g a b.
Proof.
  intros Hwf. unfold is_possible_parent, pd_edge.
  destruct (decide (a = b)) as [->|Hne].
  { split; [done|]. intros [[k Hk] _]. by apply (mgw_in _ Hwf) in Hk as (_ & _ & ?). }
  pose proof (connected_pag g a b Hwf) as Hc.
  destruct (connected PAG_T g a b); cbn [negb].
  - unfold has_mark in *. destruct (decide _) as [H|H]; [|tauto]. split; [done|]. tauto.
  - split; [done|]. intros (H & _). by apply Hc in H.
Qed.
Lemma elem_find_adj_pag g i P n : n ∈ find_adj PAG_T g i P None ↔ mg_adj g n i ∧ match P with Some P => n ∈ P | None => True end.
Proof.
  unfold find_adj, mg_adj. assert (n ∈ adj_any PAG_T g i ↔ ∃ k, has_mark g n k i) as H.
  { rewrite elem_adj_any. split; intros (k & Hk); exists k; [tauto|]. split; [apply mark_in_PAG|done]. }
  destruct P; [rewrite elem_of_intersection|]; rewrite H; tauto.
Qed.
Lemma mg_adj_irr g a : mg_wf g → ¬ mg_adj g a a.
Proof. intros Hwf [k Hk]. by apply (mgw_in _ Hwf) in Hk as (_ & _ & ?). Qed.
Lemma mg_adj_nodes g a b : mg_wf g → mg_adj g a b → a ∈ mnodes g ∧ b ∈ mnodes g ∧ a ≠ b.
Proof. intros Hwf [k Hk]. by apply (mgw_in _ Hwf) in Hk. Qed.

Lemma elem_fold_if (P : node → bool) l : ∀ (S0 : nset) v,
  v ∈ foldl (λ S n, if P n then S ∪ {[n]} else S) S0 l ↔ v ∈ S0 ∨ (v ∈ l ∧ P v = true).
Proof.
  induction l as [|n l IH]; intros S0 v; cbn [foldl]; [set_solver|].
  rewrite IH, elem_of_cons. destruct (P n) eqn:E.
  - rewrite elem_of_union, elem_of_singleton. split; [intros [[?| ->]|[? ?]]|intros [?|[[->|?] ?]]]; auto.
  - split; [intros [?|[? ?]]|intros [?|[[->|?] ?]]]; auto. congruence.
Qed.
Lemma elem_possible_children o g p en v : iter_ok o → mg_wf g →
  v ∈ find_possible_children o g p en ↔ v ∈ default (mnodes g ∖ {[p]}) en ∧ pd_edge g p v.
Proof.
  intros Ho Hwf. unfold find_possible_children. rewrite elem_fold_if, iter_elem, is_possible_parent_spec by done. set_solver.
Qed.
Lemma elem_possible_parents o g c en v : iter_ok o → mg_wf g →
  v ∈ find_possible_parents o g c en ↔ v ∈ default (mnodes g ∖ {[c]}) en ∧ pd_edge g v c.
Proof.
  intros Ho Hwf. unfold find_possible_parents. rewrite (elem_fold_if (λ n, is_possible_parent g n c)), iter_elem, is_possible_parent_spec by done. set_solver.
Qed.

(** ** uncovered paths *)
Lemma uncovered_cons g a b c l : uncovered g (a :: b :: c :: l) ↔ ¬ mg_adj g a c ∧ uncovered g (b :: c :: l).
Proof.
  split.
  - intros H. split; [by apply (H [] a b c l)|]. intros l1 u v w l2 E. apply (H (a :: l1) u v w l2). by rewrite E.
  - intros [Ha H] l1 u v w l2 E. destruct l1 as [|? l1]; simplify_eq/=; [done|]. by apply (H l1 u v w l2).
Qed.
Lemma uncovered_two g a b : uncovered g [a; b].
Proof. intros l1 u v w l2 E. by destruct l1 as [|? [|? [|? ?]]]. Qed.

Definition cond_is (cond : node → node → res bool) (E : node → node → Prop) : Prop :=
  ∀ u v, u ≠ v → returns (cond u v) (λ b, b = true ↔ E u v).

Section uncov.
  Context (o : order) (Ho : iter_ok o) (g : mgraph) (Hwf : mg_wf g).
  Context (cond : node → node → res bool) (E : node → node → Prop) (Hc : cond_is cond E).
  Context (HE : ∀ u v, E u v → mg_adj g u v).

  Lemma uncovered_path_ok fuel : ∀ x y nx ny en, NoDup [x; y; nx; ny] → size (en ∖ {[nx]}) + 1 < fuel →
    returns (uncovered_path o fuel g cond x y nx ny en) (λ r,
      match r with
      | Some p => uncovered_path_spec g E en x y nx ny p
      | None => ∀ p, ¬ uncovered_path_spec g E en x y nx ny p
      end).
  Proof.
    induction fuel as [|fuel IH]; intros x y nx ny en Hnd Hf; [lia|]. cbn [uncovered_path].
    assert (x ≠ y ∧ x ≠ nx ∧ x ≠ ny ∧ y ≠ nx ∧ y ≠ ny ∧ nx ≠ ny) as (N1 & N2 & N3 & N4 & N5 & N6).
    { rewrite !NoDup_cons in Hnd. set_solver +Hnd. }
    destruct (decide (nx = ny)) as [|_]; [done|].
    set (en1 := en ∖ {[x; y; nx; ny]}).
    eapply (returns_bind _ _ (λ b, b = true ↔ E nx ny ∧ ¬ mg_adj g nx y ∧ ¬ mg_adj g x ny)).
    { eapply returns_bind; [by apply Hc|]. intros b1 H1. cbn beta in *. destruct b1; cbn [negb].
      2:{ simpl. split; [done|]. intros (? & _). by apply H1. }
      eapply returns_bind; [by apply m_is_connected_pag|]. intros b2 H2. cbn beta in *. destruct b2; simpl.
      { split; [done|]. intros (_ & H & _). destruct H. by apply H2. }
      eapply returns_bind; [by apply m_is_connected_pag|]. intros b3 H3. cbn beta in *. simpl. destruct b3; simpl.
      { split; [done|]. intros (_ & _ & H). destruct H. by apply H3. }
      split; [|done]. intros _. split_and!; [by apply H1|intros H; by apply H2 in H|intros H; by apply H3 in H]. }
    intros triv Htriv. cbn beta in Htriv. destruct triv.
    { destruct (proj1 Htriv eq_refl) as (T1 & T2 & T3). simpl. exists []. split_and!; [done|set_solver +| | |].
      - simpl. rewrite !NoDup_cons. split_and!; [set_solver +N1 N2 N3|set_solver +N4 N6|set_solver +N5|set_solver +|constructor].
      - apply linked_cons. split; [done|apply linked_one].
      - simpl. rewrite !uncovered_cons. split_and!; [done..|apply uncovered_two]. }
    eapply returns_bind; [apply filter_returns with (P := λ t, E nx t ∧ ¬ mg_adj g x t)|].
    { intros t Ht. rewrite iter_elem, elem_find_adj_pag in Ht by done. destruct Ht as [_ Ht].
      eapply returns_bind; [apply Hc; subst en1; set_solver +Ht|]. intros b1 H1. cbn beta in *. destruct b1; cbn [negb].
      2:{ simpl. split; [done|]. intros (? & _). by apply H1. }
      eapply returns_bind; [apply m_is_connected_pag; [done|subst en1; set_solver +Ht]|]. intros b2 H2. cbn beta in *. simpl. destruct b2; simpl.
      { split; [done|]. intros (_ & H). destruct H. by apply H2. }
      split; [|done]. intros _. split; [by apply H1|]. intros H. by apply H2 in H. }
    intros cs Hcs. cbn beta in Hcs.
    assert (∀ c, c ∈ cs ↔ c ∈ en1 ∧ E nx c ∧ ¬ mg_adj g x c) as Hcs'.
    { intros c. rewrite Hcs, iter_elem, elem_find_adj_pag by done. split; [tauto|].
      intros (? & ? & ?). split; [|done]. split; [|done]. apply mg_adj_sym; [done|]. by apply HE. }
    clear Hcs. eapply find_returns with (N := λ c, ∀ p, ¬ uncovered_path_spec g E en1 nx y c ny p).
    - intros c Hin. rewrite iter_elem in Hin by done. apply Hcs' in Hin as (Hin & HEc & Hadj).
      assert (c ∉ ({[x; y; nx; ny]} : nset) ∧ c ∈ en) as [Hc0 Hen] by (subst en1; set_solver +Hin).
      eapply returns_bind; [apply IH|].
      { rewrite !NoDup_cons. split_and!; [set_solver +Hc0 N4 N6|set_solver +Hc0 N5|set_solver +Hc0|set_solver +|constructor]. }
      { enough (size (en1 ∖ {[c]}) < size (en ∖ {[nx]})) by lia. apply subset_size. subst en1. set_solver +Hc0 Hen N2 N4 N6. }
      intros [p|] Hp; cbn beta in Hp; simpl; [|done].
      destruct Hp as (mid & -> & Hmid & Hnd' & Hlk & Hun).
      exists (c :: mid). split_and!; [done| | | |].
      + intros v [->|Hv]%elem_of_cons; [done|]. apply Hmid in Hv. subst en1. set_solver +Hv.
      + simpl in *. rewrite NoDup_cons. split; [|done].
        assert (x ∉ mid) by (intros H; apply Hmid in H; subst en1; set_solver +H). set_solver +H Hc0 N1 N2 N3.
      + simpl. apply linked_cons. split; [done|]. exact Hlk.
      + simpl in *. destruct mid; simpl in *; apply uncovered_cons; split; done.
    - intros HN p (mid & -> & Hmid & Hnd' & Hlk & Hun). destruct mid as [|c mid].
      + simpl in *. apply linked_cons in Hlk as [Hl _]. rewrite !uncovered_cons in Hun.
        assert (false = true) by (apply Htriv; tauto). done.
      + assert (c ∈ en1 ∧ ∀ v, v ∈ mid → v ∈ en1) as [Hcen Hmen].
        { assert (∀ v, v ∈ c :: mid → v ∈ en1) as H; [|split; [apply H; set_solver +|intros v Hv; apply H; set_solver +Hv]].
          intros v Hv. subst en1. rewrite elem_of_difference. split; [by apply Hmid|].
          change (NoDup (x :: nx :: (((c :: mid) ++ [ny]) ++ [y]))) in Hnd'. rewrite <-app_assoc in Hnd'.
          apply NoDup_cons in Hnd' as [Hx Hnd']. apply NoDup_cons in Hnd' as [Hn Hnd'].
          apply NoDup_app in Hnd' as (_ & Hd & _). specialize (Hd v Hv).
          assert (v ≠ x) by (intros ->; apply Hx; set_solver +Hv).
          assert (v ≠ nx) by (intros ->; apply Hn; set_solver +Hv).
          assert (v ≠ ny ∧ v ≠ y) by set_solver +Hd. set_solver +H H0 H1. }
        refine (HN c _ (c :: mid ++ [ny]) _).
        * rewrite iter_elem by done. apply Hcs'. split; [done|].
          simpl in Hlk, Hun. apply linked_cons in Hlk as [? _]. apply uncovered_cons in Hun as [? _]. done.
        * exists mid. split_and!; [done|done| | |].
          -- by apply NoDup_cons in Hnd' as [_ ?].
          -- by apply linked_cons in Hlk as [_ ?].
          -- simpl in Hun. destruct mid; simpl in *; apply uncovered_cons in Hun as [_ ?]; done.
  Qed.
End uncov.

Lemma cond_connected g : mg_wf g → cond_is (m_is_connected PAG_T g) (mg_adj g).
Proof. intros Hwf u v Hne. by apply m_is_connected_pag. Qed.
Lemma cond_circle g : cond_is (λ u v, is_edge PAG_T g u v Circle Circle) (circ_edge g).
Proof. intros u v _. rewrite is_edge_pag. simpl. rewrite edge_is_spec. unfold circ_edge. tauto. Qed.
Lemma cond_pd g : mg_wf g → cond_is (λ u v, Ok (is_possible_parent g u v)) (pd_edge g).
Proof. intros Hwf u v _. simpl. by apply is_possible_parent_spec. Qed.

(** ** discriminating paths *)
Section disc.
  Context (o : order) (Ho : iter_ok o) (g : mgraph) (Hwf : mg_wf g) (b c : node).

  (** one step of the search away from the triplet, and a possible origin *)
  Definition dnext (ns : nset) (cur d : node) : Prop :=
    has_mark g d Directed cur ∧ has_mark g cur Directed d ∧ dir_edge g d c ∧ d ∈ ns ∧ d ≠ b ∧ d ≠ c.
  Definition dsrc (ns : nset) (cur d : node) : Prop :=
    has_mark g d Directed cur ∧ d ∈ ns ∧ d ≠ b ∧ d ≠ c ∧ ¬ mg_adj g d c.
  Definition dfound (ns : nset) (a d : node) : Prop := ∃ v, rtc (dnext ns) a v ∧ dsrc ns v d.

  Lemma disc_scan_d_ok cur visited l : ∀ new, (∀ d, d ∈ l → d ≠ c) →
    returns (disc_scan_d g b c cur visited l new) (λ r,
      match r with
      | inl d => d ∈ l ∧ ¬ mg_adj g d c
      | inr new' => (∀ d, d ∈ l → mg_adj g d c) ∧
          ∀ v, v ∈ new' ↔ v ∈ new ∨ (v ∈ l ∧ v ∉ visited ∧ dir_edge g v c ∧ has_mark g cur Directed v)
      end).
  Proof.
    induction l as [|d l IH]; intros new Hl; cbn [disc_scan_d].
    { simpl. split; [set_solver +|]. set_solver +. }
    eapply returns_bind; [apply m_is_connected_pag; [done|apply Hl; set_solver +]|].
    intros x Hx. cbn beta in Hx. destruct x; cbn [negb].
    2:{ simpl. split; [set_solver +|]. intros H. by apply Hx in H. }
    eapply returns_mono; [apply IH; intros; apply Hl; set_solver|]. cbn beta. intros [d'|new'] H.
    - split; [set_solver +H|apply H].
    - destruct H as [H1 H2]. split.
      + intros d' [->|Hd']%elem_of_cons; [by apply Hx|by apply H1].
      + intros v. rewrite H2, elem_of_cons.
        destruct (bool_decide (d ∉ visited) && is_parent g d c && bool_decide (cur ∈ mset g d Directed)) eqn:E.
        * rewrite !andb_true_iff, !bool_decide_eq_true, is_parent_spec in E. rewrite elem_of_union, elem_of_singleton.
          split; [|naive_solver]. intros [[?| ->]|?]; [by left|right|right]; [|tauto].
          destruct E as [[? ?] ?]. split_and!; [by left|done..].
        * split; [tauto|]. intros [?|([->|?] & ? & ? & ?)]; [by left| |tauto].
          exfalso. apply not_true_iff_false in E. apply E. rewrite !andb_true_iff, !bool_decide_eq_true, is_parent_spec. done.
  Qed.

  Lemma disc_scan_ok ns visited l : ∀ new,
    returns (disc_scan o g b c ns visited l new) (λ r,
      match r with
      | inl d => ∃ cur, cur ∈ l ∧ dsrc ns cur d
      | inr new' => (∀ cur d, cur ∈ l → ¬ dsrc ns cur d) ∧
          ∀ v, v ∈ new' ↔ v ∈ new ∨ ∃ cur, cur ∈ l ∧ v ∉ visited ∧ dnext ns cur v
      end).
  Proof.
    induction l as [|cur l IH]; intros new; cbn [disc_scan].
    { simpl. split; [set_solver +|]. intros v. split; [by left|]. intros [?|(? & ? & _)]; [done|set_solver]. }
    eapply returns_bind; [apply disc_scan_d_ok|].
    { intros d. rewrite iter_elem by done. set_solver +. }
    intros [d|new1] H1; cbn beta in H1; simpl.
    - rewrite iter_elem in H1 by done. destruct H1 as [Hd Hn]. exists cur. split; [set_solver +|].
      unfold dsrc, has_mark. set_solver.
    - destruct H1 as [H1 H2]. eapply returns_mono; [apply IH|]. cbn beta. intros [d|new'] H.
      + destruct H as (cur' & ? & ?). exists cur'. split; [set_solver|done].
      + destruct H as [H3 H4]. split.
        * intros cur' d [->|Hin]%elem_of_cons Hs; [|by eapply H3].
          destruct Hs as (Hm & ? & ? & ? & Hna). apply Hna, H1. rewrite iter_elem by done. unfold has_mark in Hm. set_solver.
        * intros v. rewrite H4, H2, iter_elem by done. split.
          -- intros [[?|(Hv & ? & ? & ?)]|(cur' & ? & ?)]; [by left| |].
             ++ right. exists cur. split; [set_solver +|]. split; [done|]. unfold dnext, has_mark in *. set_solver.
             ++ right. exists cur'. split; [set_solver|done].
          -- intros [?|(cur' & [->|Hin]%elem_of_cons & ? & Hn)]; [tauto| |].
             ++ left. right. destruct Hn as (? & ? & ? & ? & ? & ?). unfold has_mark in *. split_and!; [set_solver|done..].
             ++ right. eauto.
  Qed.

  Lemma disc_bfs_ok ns a fuel : ∀ frontier visited,
    a ∈ visited → a ≠ b → a ≠ c → frontier ⊆ visited →
    (∀ v, v ∈ frontier → rtc (dnext ns) a v) →
    (∀ v, v ∈ visited → v ∉ frontier → v ≠ b → v ≠ c → (∀ d, ¬ dsrc ns v d) ∧ ∀ w, dnext ns v w → w ∈ visited) →
    0 < fuel → (frontier ≠ ∅ → size (ns ∖ visited) + 1 < fuel) →
    returns (disc_bfs o fuel g b c ns frontier visited) (λ r,
      match r with Some d => dfound ns a d | None => ∀ d, ¬ dfound ns a d end).
  Proof.
    induction fuel as [|fuel IH]; intros F X Ha Hab Hac HFX HF HX Hf0 Hf; [lia|]. cbn [disc_bfs].
    destruct (decide (size F = 0)) as [E|E].
    { simpl. intros d (v & Hr & Hs). apply size_empty_inv in E.
      enough (v ∈ X ∧ v ≠ b ∧ v ≠ c) as (Hv & ? & ?) by (eapply (HX v); [done|set_solver|done..]).
      assert (∀ u v, rtc (dnext ns) u v → u ∈ X ∧ u ≠ b ∧ u ≠ c → v ∈ X ∧ v ≠ b ∧ v ≠ c) as H; [|by eapply H].
      clear d v Hr Hs. induction 1 as [|u w v Huw _ IH']; [done|]. intros (? & ? & ?). apply IH'.
      split; [|by destruct Huw as (_ & _ & _ & _ & ? & ?)]. eapply (HX u); [done|set_solver|done..]. }
    eapply returns_bind; [apply disc_scan_ok|]. intros [d|new] H; cbn beta in H; simpl.
    { destruct H as (cur & Hin & Hs). rewrite iter_elem in Hin by done. exists cur. split; [by apply HF|done]. }
    destruct H as [H1 H2]. setoid_rewrite iter_elem in H1; [|done]. setoid_rewrite iter_elem in H2; [|done].
    assert (F ≠ ∅) as HFne by (intros ->; apply E; apply size_empty). specialize (Hf HFne).
    assert (∀ v, v ∈ new ↔ ∃ cur, cur ∈ F ∧ v ∉ X ∧ dnext ns cur v) as H3.
    { intros v. rewrite H2. set_solver +. }
    apply IH; [set_solver +Ha|done..|set_solver +| | |lia|].
    - intros v (cur & Hc & _ & Hn)%H3. eapply rtc_r; [by apply HF|done].
    - intros v Hv Hnew ? ?. apply elem_of_union in Hv as [Hv|Hv]; [|done].
      destruct (decide (v ∈ F)) as [HvF|HvF].
      + split; [intros d; by apply H1|]. intros w Hw. destruct (decide (w ∈ X)); [set_solver|].
        apply elem_of_union_r, H3. eauto.
      + destruct (HX v Hv HvF) as [G1 G2]; [done..|]. split; [done|]. intros w Hw. apply elem_of_union_l. by apply G2.
    - intros Hne. enough (size (ns ∖ (X ∪ new)) < size (ns ∖ X)) by lia. apply subset_size.
      apply set_choose_L in Hne as [v Hv]. pose proof (proj1 (H3 v) Hv) as (cur & _ & Hvx & (_ & _ & _ & Hvn & _)).
      set_solver.
  Qed.

  Lemma find_disc_path_ok fuel a ns : a ≠ b → a ≠ c → let V := default (mnodes g ∖ {[a; b; c]}) ns in size V + 1 < fuel →
    returns (find_disc_path o fuel g a b c ns) (λ r, match r with Some d => dfound V a d | None => ∀ d, ¬ dfound V a d end).
  Proof.
    intros Hab Hac V Hf. unfold find_disc_path. apply disc_bfs_ok; fold V; [set_solver +|done..|set_solver +| | |lia|].
    - intros v ->%elem_of_singleton. constructor.
    - set_solver +.
    - intros _. enough (size (V ∖ {[a; b; c]}) ≤ size V) by lia. apply subseteq_size. set_solver +.
  Qed.

  (** the recursive reference *)
  Lemma dnext_mono ns ns' a v : ns ⊆ ns' → rtc (dnext ns) a v → rtc (dnext ns') a v.
  Proof. intros H. induction 1 as [|u w v (? & ? & ? & ? & ? & ?) _ IH]; [constructor|]. eapply rtc_l; [|exact IH]. unfold dnext. set_solver. Qed.
  Lemma dfound_step ns a d : dfound ns a d → dsrc ns a d ∨ ∃ a', dnext ns a a' ∧ dfound (ns ∖ {[a']}) a' d.
  Proof.
    intros (v & Hr & Hs). apply rtc_path in Hr as (p & Hh & Hl & Hnd & Hlk).
    destruct p as [|a0 p]; [done|]. simpl in Hh. injection Hh as ->.
    destruct p as [|a' p]; [simpl in Hl; injection Hl as ->; by left|]. right.
    apply linked_cons in Hlk as [Hn Hlk]. exists a'. split; [done|]. rewrite last_cons_cons in Hl.
    exists v. apply NoDup_cons in Hnd as [_ Hnd]. apply NoDup_cons in Hnd as [Hna _]. split.
    - apply (walk_rtc _ _ _ (a' :: p)); [done|exact Hl|]. intros l1 u w l2 E. pose proof (Hlk l1 u w l2 E) as (? & ? & ? & ? & ? & ?).
      assert (w ∈ p) by (destruct l1; simplify_eq/=; set_solver +). unfold dnext. split_and!; [done..| |done|done]. set_solver.
    - destruct Hs as (? & ? & ? & ? & Hna'). unfold dsrc. split_and!; [done| |done..].
      assert (d ≠ a'); [|set_solver]. intros ->. apply Hna'. destruct Hn as (_ & _ & [? _] & _). by eexists.
  Qed.

  Lemma disc_path_rec_ok fuel : ∀ a ns, a ∉ ns → size ns < fuel →
    returns (disc_path_rec o fuel g a b c ns) (λ r, match r with Some d => dfound ns a d | None => ∀ d, ¬ dfound ns a d end).
  Proof.
    induction fuel as [|fuel IH]; intros a ns Ha Hf; [lia|]. cbn [disc_path_rec].
    set (D := (mset g a Directed ∖ {[a; b; c]}) ∩ ns).
    match goal with |- returns (?f (o 363 D) ∅ ≫= _) _ => set (scan := f) end.
    assert (∀ l new, (∀ d, d ∈ l → d ≠ c) → returns (scan l new) (λ r,
      match r with
      | inl d => d ∈ l ∧ ¬ mg_adj g d c
      | inr new' => (∀ d, d ∈ l → mg_adj g d c) ∧
          ∀ v, v ∈ new' ↔ v ∈ new ∨ (v ∈ l ∧ dir_edge g v c ∧ has_mark g a Directed v)
      end)) as Hscan.
    { induction l as [|d l IHl]; intros new Hl; subst scan; cbn beta iota.
      { simpl. split; [set_solver +|]. set_solver +. }
      eapply returns_bind; [apply m_is_connected_pag; [done|apply Hl; set_solver +]|].
      intros x Hx. cbn beta in Hx. destruct x; cbn [negb].
      2:{ simpl. split; [set_solver +|]. intros H. by apply Hx in H. }
      eapply returns_mono; [apply IHl; intros; apply Hl; set_solver|]. cbn beta. intros [d'|new'] H.
      - split; [set_solver +H|apply H].
      - destruct H as [H1 H2]. split.
        + intros d' [->|Hd']%elem_of_cons; [by apply Hx|by apply H1].
        + intros v. rewrite H2, elem_of_cons.
          destruct (is_parent g d c && bool_decide (a ∈ mset g d Directed)) eqn:E.
          * rewrite !andb_true_iff, !bool_decide_eq_true, is_parent_spec in E. rewrite elem_of_union, elem_of_singleton.
            split; [|naive_solver]. intros [[?| ->]|?]; [by left|right|right]; [|tauto].
            destruct E as [? ?]. split_and!; [by left|done..].
          * split; [tauto|]. intros [?|([->|?] & ? & ?)]; [by left| |tauto].
            exfalso. apply not_true_iff_false in E. apply E. rewrite !andb_true_iff, !bool_decide_eq_true, is_parent_spec. done. }
    eapply returns_bind; [apply Hscan; intros d; rewrite iter_elem by done; subst D; set_solver +|].
    assert (∀ d, d ∈ D ↔ has_mark g d Directed a ∧ d ∈ ns ∧ d ≠ b ∧ d ≠ c) as HD.
    { intros d. subst D. unfold has_mark. set_solver. }
    intros [d|new] H; cbn beta in H; simpl.
    - destruct H as [Hin Hn]. rewrite iter_elem, HD in Hin by done. exists a. split; [constructor|]. unfold dsrc. tauto.
    - destruct H as [H1 H2].
      assert (∀ v, v ∈ new ↔ dnext ns a v) as Hnew.
      { intros v. rewrite H2, iter_elem, HD by done. unfold dnext. set_solver +. }
      apply find_returns with (N := λ a', ∀ d, ¬ dfound (ns ∖ {[a']}) a' d).
      + intros a' Hin. rewrite iter_elem, Hnew in Hin by done. pose proof Hin as (_ & _ & _ & Hns & _).
        eapply returns_mono; [apply IH; [set_solver +|]|].
        { enough (size (ns ∖ {[a']}) < size ns) by lia. apply subset_size. set_solver. }
        cbn beta. intros [d|] H; [|done]. destruct H as (v & Hr & Hs). exists v. split.
        * eapply rtc_l; [done|]. eapply dnext_mono; [|done]. set_solver +.
        * unfold dsrc in *. set_solver +Hs.
      + intros HN d [Hs|(a' & Hn & Hd)]%dfound_step.
        * destruct Hs as (? & ? & ? & ? & Hna). apply Hna, H1. rewrite iter_elem by done. by apply HD.
        * eapply HN; [|exact Hd]. rewrite iter_elem by done. by apply Hnew.
  Qed.

  Lemma find_disc_path_rec_ok fuel a ns : let V := default (mnodes g ∖ {[a; b; c]}) ns in a ∉ V → size V < fuel →
    returns (find_disc_path_recursive o fuel g a b c ns) (λ r, match r with Some d => dfound V a d | None => ∀ d, ¬ dfound V a d end).
  Proof. intros V Ha Hf. by apply disc_path_rec_ok. Qed.

  (** the textbook definition *)
  Lemma linked_snoc (R : nat → nat → Prop) l x y : linked R (l ++ [x]) → R x y → linked R (l ++ [x; y]).
  Proof. intros H1 H2. apply linked_glue; [done|]. apply linked_cons. split; [done|apply linked_one]. Qed.
  Lemma linked_reverse (R : nat → nat → Prop) l : linked R l → linked (λ u v, R v u) (reverse l).
  Proof.
    intros H l1 u v l2 E. apply (H (reverse l2) v u (reverse l1)).
    rewrite <-(reverse_involutive l), E, reverse_app, !reverse_cons, <-!app_assoc. done.
  Qed.
  Lemma head_reverse {A} (l : list A) : head (reverse l) = last l.
  Proof. destruct l as [|x l _] using rev_ind; [done|]. by rewrite reverse_snoc, last_snoc. Qed.
  Lemma last_reverse' {A} (l : list A) : last (reverse l) = head l.
  Proof. rewrite <-(reverse_involutive l) at 2. by rewrite head_reverse. Qed.

  Lemma dfound_disc a d : b ≠ c → a ≠ b → a ≠ c → has_mark g b Directed a → dir_edge g a c → mg_adj g b c →
    dfound (mnodes g ∖ {[a; b; c]}) a d ↔ ∃ q, last q = Some a ∧ discriminating g d q b c.
  Proof.
    intros Hbc Hab Hac Hba Hpar Hadj. set (V := mnodes g ∖ {[a; b; c]}). split.
    - intros (v & Hr & Hs). apply rtc_path in Hr as (p & Hh & Hl & Hnd & Hlk).
      assert (∀ w, w ∈ p → dir_edge g w c ∧ w ≠ b ∧ w ≠ c) as Hp.
      { intros w Hw. apply elem_of_list_split in Hw as (l1 & l2 & ->). destruct (rev_case l1) as [->|(l1' & u & ->)].
        - simpl in Hh. by simplify_eq.
        - destruct (Hlk l1' u w l2) as (_ & _ & ? & _ & ? & ?); [by rewrite <-app_assoc|done]. }
      destruct Hs as (Hdv & HdV & Hdb & Hdc & Hdn).
      assert (d ∉ p) as Hdp. { intros H. apply Hp in H as ([? _] & _). apply Hdn. by eexists. }
      assert (NoDup (d :: reverse p ++ [b; c])) as HND.
      { apply NoDup_cons. split; [rewrite elem_of_app, elem_of_reverse; set_solver +Hdp Hdb Hdc|].
        apply NoDup_app. split; [|split].
        - by rewrite reverse_Permutation.
        - intros w. rewrite elem_of_reverse. intros Hw%Hp. set_solver +Hw.
        - rewrite !NoDup_cons. split_and!; [set_solver +Hbc|set_solver +|constructor]. }
      set (L := λ u v, mg_adj g u v ∧ (u ≠ d → has_mark g v Directed u) ∧ (v ≠ b → has_mark g u Directed v)).
      assert (linked L (d :: reverse p ++ [b])) as HL.
      { destruct (rev_case p) as [->|(p' & v' & ->)]; [done|]. rewrite last_snoc in Hl. injection Hl as ->.
        rewrite reverse_snoc. simpl. apply linked_cons. split; [split_and!; [by eexists|done|done]|].
        change (v :: reverse p' ++ [b]) with ((v :: reverse p') ++ [b]). rewrite <-reverse_snoc.
        destruct p' as [|a0 p'].
        { simpl in Hh. injection Hh as ->. simpl. apply linked_cons. split; [|apply linked_one].
          split_and!; [|done..]. apply mg_adj_sym; [done|]. by eexists. }
        simpl in Hh. injection Hh as ->. simpl. rewrite reverse_cons, <-app_assoc. simpl. apply linked_snoc.
        2:{ split_and!; [|done..]. apply mg_adj_sym; [done|]. by eexists. }
        rewrite <-reverse_cons. eapply linked_impl; [apply linked_reverse; exact Hlk|]. cbn beta.
        intros x y (? & ? & _). split_and!; [by eexists|done..]. }
      exists (reverse p). split; [by rewrite last_reverse'|]. split.
      + intros E. apply (f_equal reverse) in E. rewrite reverse_involutive in E. by subst p.
      + done.
      + assert (d :: reverse p ++ [b; c] = (d :: reverse p) ++ [b; c]) as -> by done. apply linked_snoc; [|done].
        eapply linked_impl; [exact HL|]. by intros x y [H1 H2].
      + done.
      + intros w. rewrite elem_of_reverse. intros Hw. by apply Hp.
      + intros l1 u w z l2 E.
        assert (NoDup (d :: reverse p ++ [b])) as HND'.
        { apply (NoDup_app (d :: reverse p ++ [b]) [c]). by rewrite <-app_comm_cons, <-app_assoc. }
        assert (w ≠ d ∧ w ≠ b) as [Hwd Hwb].
        { rewrite E in HND'. split.
          - intros ->. destruct l1 as [|? l1]; simplify_eq/=; [rewrite NoDup_cons in HND'; set_solver +HND'|].
            apply NoDup_cons in HND' as [H _]. set_solver +H.
          - intros ->. destruct (rev_case l2) as [->|(l2' & y & ->)].
            + change (l1 ++ [u; b; z]) with (l1 ++ [u; b] ++ [z]) in *. rewrite app_assoc, app_comm_cons in E.
              apply app_inj_tail in E as [_ ->]. apply NoDup_app in HND' as (_ & _ & HQ). simpl in HQ; rewrite !NoDup_cons in HQ. set_solver +HQ.
            + change (l1 ++ u :: b :: z :: l2' ++ [y]) with (l1 ++ (u :: b :: z :: l2') ++ [y]) in *.
              rewrite app_assoc, app_comm_cons in E. apply app_inj_tail in E as [_ <-].
              apply NoDup_app in HND' as (_ & _ & HQ). simpl in HQ; rewrite !NoDup_cons in HQ. set_solver +HQ. }
        split; [by apply (HL l1 u w (z :: l2))|]. destruct (HL (l1 ++ [u]) w z l2) as (_ & HQ & _); [by rewrite <-app_assoc|]. by apply HQ.
    - intros (q & Hl & [Hq1 Hq2 Hq3 Hq4 Hq5 Hq6]).
      assert (∀ l1 u w l2, q = l1 ++ u :: w :: l2 → has_mark g u Directed w ∧ has_mark g w Directed u) as Hq.
      { intros l1 u w l2 ->. split.
        - destruct l2 as [|z l2].
          + apply (Hq6 (d :: l1) u w b []). simpl. by rewrite <-app_assoc.
          + apply (Hq6 (d :: l1) u w z (l2 ++ [b])). simpl. by rewrite <-app_assoc.
        - destruct (rev_case l1) as [->|(l1' & z & ->)].
          + apply (Hq6 [] d u w (l2 ++ [b])). done.
          + apply (Hq6 (d :: l1') z u w (l2 ++ [b])). simpl. by rewrite <-!app_assoc. }
      destruct q as [|v q']; [done|]. set (q := v :: q') in *.
      assert (∀ u, u ∈ d :: q → u ∈ mnodes g ∧ u ≠ b ∧ u ≠ c) as Hin.
      { intros u Hu. split; [|rewrite app_comm_cons in Hq2; apply NoDup_app in Hq2 as (_ & H & _); specialize (H u Hu); set_solver +H].
        apply elem_of_cons in Hu as [->|Hu].
        - destruct (Hq3 [] d v (q' ++ [b; c])) as [k Hk]; [done|]. apply (mgw_in _ Hwf _ _ _ Hk).
        - apply Hq5 in Hu as [Hu _]. apply (mgw_in _ Hwf _ _ _ Hu). }
      assert (d ≠ a) as Hda. { intros ->. apply Hq4. eexists. apply Hpar. }
      exists v. split.
      + eapply walk_rtc with (w := reverse q); [by rewrite head_reverse|by rewrite last_reverse'|].
        intros l1 u w l2 E. apply (f_equal reverse) in E. rewrite reverse_involutive, reverse_app, !reverse_cons, <-!app_assoc in E.
        simpl in E. destruct (Hq _ _ _ _ E) as [H1 H2]. assert (w ∈ q) as Hw by (rewrite E; set_solver +).
        unfold dnext. destruct (Hin w) as (J1 & J2 & J3); [set_solver +Hw|]. split_and!; [done..|by apply Hq5| |done|done].
        subst V. enough (w ≠ a) as Hwa by set_solver +Hwa J1 J2 J3. intros ->.
        assert (NoDup q) as Hnd. { apply NoDup_cons in Hq2 as [_ H]. by apply NoDup_app in H as (? & _). }
        rewrite E in Hnd, Hl. rewrite last_app_cons, last_cons_cons in Hl. apply NoDup_app in Hnd as (_ & _ & Hnd).
        apply NoDup_cons in Hnd as [Hna _]. apply Hna. rewrite last_cons in Hl. destruct (last (reverse l1)) eqn:El.
        * injection Hl as ->. apply last_Some in El as [? ->]. set_solver +.
        * injection Hl as ->. set_solver +.
      + unfold dsrc. destruct (Hin d) as (J1 & J2 & J3); [set_solver +|]. split_and!; [|subst V; set_solver +J1 J2 J3 Hda|done..].
        destruct q' as [|w q'].
        * by apply (Hq6 [] d v b []).
        * by apply (Hq6 [] d v w (q' ++ [b])).
  Qed.
End disc.
