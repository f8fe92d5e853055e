(** FCI: a superfluous edge is left only if a Possible-D-Sep node has not been found. *)
From Verif Require Import Base BaseLemmas Paths MSepTheory LatentTheory ModelGraph Spec ModelMixed SpecMixed ProofMixed ProofMixed2 ProofPDAG ProofPDAG2 ProofPDAG3
  ModelPC SpecPC ProofPC ModelPAG SpecPAG ProofPAG ProofPAG2 ProofPAGM ProofPAGR ProofPAGR2 ProofPAGU ProofPAGX ModelPDS SpecPDS
  ModelFCI SpecFCI ProofFCI ProofFCI2 ProofFCI3 ProofFCI4 ProofFCI5 ProofCI2 SpecLatent ProofLatent.

(** ** collider walks *)
Section walks.
  Context (H : nat → nat → Prop).
  Notation cwalk := (tw H (coll H)).
  Lemma chain_cwalk cs : ∀ a b, cchain H a cs b → cwalk (a :: cs ++ [b]).
  Proof.
    induction cs as [|c cs IH]; intros a b Hc; [done|]. destruct Hc as (H1 & H2 & H3). split; [by left|].
    split; [|by apply IH]. destruct cs as [|e cs]; simpl; by split.
  Qed.
  Lemma cwalk_cut l1 v l2 l3 : cwalk (l1 ++ v :: l2 ++ v :: l3) → cwalk (l1 ++ v :: l3).
  Proof.
    intros Hw. apply tw_split in Hw as (H1 & H2 & H3). change (v :: l2 ++ v :: l3) with ((v :: l2) ++ v :: l3) in H2.
    apply tw_split in H2 as (H4 & H5 & H6). apply tw_glue; [done..|]. intros p q Hp Hq.
    assert (∃ q', head (l2 ++ v :: l3) = Some q') as [q' Hq'] by (destruct l2; by eexists).
    assert (∃ p', last (v :: l2) = Some p') as [p' Hp'] by (apply not_eq_None_Some; by rewrite last_None).
    split; [by destruct (H3 p q' Hp Hq')|by destruct (H6 p' q Hp' Hq)].
  Qed.
  Lemma cwalk_path w x y : cwalk w → starts w x y → ∃ p, cwalk p ∧ starts p x y ∧ NoDup p.
  Proof.
    remember (length w) as n eqn:Hn. revert w Hn. induction (lt_wf n) as [n _ IH]. intros w -> Hw [Hh Hl].
    destruct (decide (NoDup w)) as [?|Hnd]; [by exists w|].
    apply dup_split in Hnd as (v & l1 & l2 & l3 & ->). eapply (IH (length (l1 ++ v :: l3))); [|done|by eapply cwalk_cut|].
    - rewrite !app_length. simpl. rewrite app_length. simpl. lia.
    - split; [by destruct l1|]. rewrite last_app in Hl |- *. change (v :: l2 ++ v :: l3) with ((v :: l2) ++ v :: l3) in Hl. rewrite last_app in Hl.
      assert (is_Some (last (v :: l3))) as [z Hz] by (apply not_eq_None_Some; by rewrite last_None). by rewrite Hz in *.
  Qed.
End walks.

(** ** In an ancestral graph m, the ancestors of a or b among the Possible-D-Sep nodes of a, in a graph h that has all edges and
    the unshielded colliders of m, separate a from b. *)
Section dsep.
  Context (o : order) (Ho : iter_ok o) (m : mgraph) (D : dir_mixed m).
  Let H (a b : node) : Prop := has_mark m a Directed b.
  Context (h : mgraph) (Hadj : ∀ a b, mg_adj m a b → mg_adj h a b).
  Context (Hcol : ∀ a b c, m_collider m a b c → a ≠ c → ¬ mg_adj h a c → has_mark h a Directed b).
  Context (Hwf : mg_wf h).

  Lemma cwalk_pds a v cs : cchain H a cs v → a ≠ v → possible_d_sep h a v.
  Proof.
    intros Hc Hne. apply chain_cwalk in Hc.
    destruct (cwalk_path H (a :: cs ++ [v]) a v Hc) as (p & Hp & [Hh Hl] & Hnd).
    { split; [done|]. by rewrite app_comm_cons, last_snoc. }
    assert (∀ q, tw H (coll H) q → linked (mg_adj h) q) as Hlk.
    { induction q as [|x q IH]; [intros _; apply linked_nil|]. destruct q as [|y q]; [intros _; apply linked_one|].
      intros (H1 & _ & H2). apply linked_cons. split; [|by apply IH]. by apply Hadj, (madj_adj m D). }
    split; [done|]. exists p. split; [by split_and!; try apply Hlk|]. split; [by apply Hlk|].
    intros l1 x y z l2 ->. apply NoDup_app in Hnd as (_ & _ & Hnd). apply tw_split in Hp as (_ & (H1 & H2 & H3 & _) & _).
    assert (x ≠ z) as Hxz. { intros ->. apply NoDup_cons in Hnd as [Hn _]. apply Hn. set_solver +. }
    split; [done|]. split; [by apply Hadj, (madj_adj m D)|]. split; [by apply Hadj, (madj_adj m D)|].
    destruct (decide (mg_adj h x z)) as [?|Hn]; [by left|right]. split; [by apply (Hcol x y z)|].
    apply (Hcol z y x); [destruct H2; by split|done|]. intros ?. apply Hn. by apply mg_adj_sym.
  Qed.

  Lemma dsep_separates a b (X Z Z0 : nset) : a ≠ b → (∀ v, possible_d_sep h a v → v ∈ X) →
    (∀ v, v ∈ Z ↔ v ∈ X ∧ v ≠ a ∧ v ≠ b ∧ (rtc (dir H) v a ∨ rtc (dir H) v b)) →
    a ∉ Z0 → b ∉ Z0 → m_separated m a b Z0 → m_separated m a b Z.
  Proof.
    intros Hne HX HZ Ha0 Hb0 Hsep.
    assert (∀ S : nset, b ∉ S → m_separated m a b S ↔ ¬ augreach H (.∈ elements S) a b a b) as Haug.
    { intros S HS. pose proof (m_separated_aug o Ho m D a b (elements S)) as E. rewrite list_to_set_elements_L in E. apply E; [done|by rewrite elem_of_elements]. }
    apply Haug; [intros Hb; apply HZ in Hb; tauto|]. apply Haug in Hsep; [|done].
    assert (∀ v, An H (.∈ elements Z) a b v → rtc (dir H) v a ∨ rtc (dir H) v b) as HAn.
    { intros v [?|[?|(z & Hz & Hr)]]; [auto..|]. rewrite elem_of_elements in Hz. apply HZ in Hz as (_ & _ & _ & [?|?]); [left|right]; by etrans. }
    assert (∀ u v, rtc (λ x y, aug H (.∈ elements Z) a b x y ∧ y ∉ elements Z) u v → u = a → v = a) as Hreach.
    { intros u v Hr. induction Hr as [|u c v [(_ & Hc & cs & Hch & Hcs) HcZ] _ IH]; [done|]. intros ->. apply IH.
      destruct (decide (c = a)) as [?|Hca]; [done|exfalso]. destruct (decide (c = b)) as [->|Hcb].
      - apply Hsep. apply rtc_once. split; [|by rewrite elem_of_elements]. split; [left; apply rtc_refl|]. split; [right; left; apply rtc_refl|].
        exists cs. split; [done|]. intros e He. destruct (HAn e (Hcs e He)); [by left|by right; left].
      - apply HcZ, elem_of_elements, HZ. split; [|split; [done|split; [done|by apply HAn]]]. apply HX. by eapply cwalk_pds. }
    intros Hr. apply Hreach in Hr; [|done]. congruence.
  Qed.
End dsep.

Lemma triples_dec (Q : node → node → node → Prop) (p : list node) : (∀ x y z, Q x y z ∨ ¬ Q x y z) →
  (∀ l1 x y z l2, p = l1 ++ x :: y :: z :: l2 → Q x y z) ∨ ¬ (∀ l1 x y z l2, p = l1 ++ x :: y :: z :: l2 → Q x y z).
Proof.
  intros HQ. induction p as [|a p [IH|IH]].
  - left. by intros [].
  - destruct p as [|b [|c p]]; [left; by intros [|? []]..|left; by intros [|? [|? []]]|].
    destruct (HQ a b c) as [Hq|Hq]; [left|right; intros H; by apply Hq, (H [] a b c p)].
    intros [|e l1] x y z l2 E; simplify_eq/=; [done|by eapply IH].
  - right. intros H. apply IH. intros l1 x y z l2 ->. by apply (H (a :: l1) x y z l2).
Qed.

Lemma linked_decide (g : mgraph) p : linked (mg_adj g) p ∨ ¬ linked (mg_adj g) p.
Proof.
  induction p as [|a p IH]; [left; apply linked_nil|]. destruct p as [|b p]; [left; apply linked_one|].
  rewrite linked_cons. destruct (decide (mg_adj g a b)), IH; tauto.
Qed.
Lemma pds_dec h a v : mg_wf h → a ∈ mnodes h → possible_d_sep h a v ∨ ¬ possible_d_sep h a v.
Proof.
  intros W Ha. destruct (decide (v = a)) as [->|Hne]; [right; by intros [? _]|].
  destruct (lists_dec (mnodes h) (size (mnodes h)) (λ p, is_path (mg_adj h) a v p ∧ pds_walk h p)) as [(p & _ & _ & Hp)|Hn].
  - intros p. destruct (decide (head p = Some a ∧ last p = Some v ∧ NoDup p)) as [H1|H1].
    2: { right. intros [(? & ? & ? & _) _]. by apply H1. }
    destruct (triples_dec (pds_triple h) p) as [H3|H3]; [| |right; by intros [_ [_ ?]]].
    { intros x y z. assert (Decision (pds_triple h x y z)) as Hdec by (unfold pds_triple, has_mark; apply _). destruct Hdec; [by left|by right]. }
    destruct (linked_decide h p) as [H2|H2]; [|right; by intros [_ [? _]]].
    left. destruct H1 as (? & ? & ?). by split.
  - left. split; [done|]. by exists p.
  - right. intros (_ & p & Hp & Hw). apply Hn. exists p.
    assert (∀ u, u ∈ p → u ∈ mnodes h) as Hin.
    { intros u (l1 & l2 & ->)%elem_of_list_split. destruct Hp as (Hh & _ & _ & Hl). destruct (rev_case l1) as [->|(l1' & b & ->)].
      - injection Hh as ->. done.
      - rewrite <-app_assoc in Hl. apply linked_app_r in Hl. apply linked_cons in Hl as [Hl _]. by apply mg_adj_nodes in Hl as (_ & ? & _). }
    split_and!; [|done..]. destruct Hp as (_ & _ & Hnd & _). rewrite <-(size_list_to_set (C := nset) p Hnd). apply subseteq_size. intros u Hu%elem_of_list_to_set. by apply Hin.
Qed.

Lemma pds_nodes h a v : mg_wf h → possible_d_sep h a v → v ∈ mnodes h ∧ v ≠ a.
Proof.
  intros W (Hne & p & (Hh & Hl & _ & Hlk) & _). split; [|done]. apply last_Some in Hl as (l & ->). destruct (rev_case l) as [->|(l2 & b & ->)]; [simplify_eq/=|].
  rewrite <-app_assoc in Hlk. apply linked_app_r in Hlk. apply linked_cons in Hlk as [Hlk _]. by apply mg_adj_nodes in Hlk as (_ & ? & _).
Qed.

(** ** FCI with an ancestral graph that has no circles and no undirected edges *)
Section mfci.
  Context (o : order) (Ho : iter_ok o) (ci : citest) (m : mgraph) (A : ancestral m) (D : dir_mixed m) (Hci : perfect_for m ci).
  Context (Hmax : ∀ a b, a ∈ mnodes m → b ∈ mnodes m → a ≠ b → ¬ mg_adj m a b → ∃ Z, Z ⊆ mnodes m ∖ {[a; b]} ∧ m_separated m a b Z).
  Notation V := (mnodes m).

  Lemma tested_false log x y S : honest ci log → proper_log V log → tested log x y S false → ¬ m_separated m x y S.
  Proof.
    intros Hh Hp (c & Hc & H).
    assert (∀ i j, (i, j, c, false) ∈ log → ¬ m_separated m i j S) as Hij.
    { intros i j Hin. pose proof (Hp _ _ _ _ Hin) as (Hi & Hj & Hne & Hnd & Hz).
      apply elem_of_list_split in Hin as (l1 & l2 & Hl). apply Hh in Hl. assert (list_to_set c = S) as <- by (apply set_eq; intros z; by rewrite elem_of_list_to_set).
      rewrite <-(Hci l2) by done. by rewrite <-Hl. }
    destruct H as [H|H]; apply Hij in H; [done|]. intros ?. apply H. apply m_separated_sym; [apply A|done].
  Qed.

  (** the unshielded colliders of m are oriented *)
  Lemma colliders_oriented s : ls_inv ci V s →
    returns (ls_orient (λ sep g, pag_v_structures o g sep) s) (λ s1, ∀ a b c, m_collider m a b c → a ≠ c → ¬ mg_adj (ls_graph s1) a c →
      has_mark (ls_graph s1) a Directed b).
  Proof.
    intros I. unfold ls_orient. eapply returns_bind.
    - apply (v_structures_ok o Ho); [apply I|]. intros a b Ha Hb Hne _. rewrite (li_nodes _ _ _ I) in *.
      destruct (li_dom _ _ _ I a b Ha Hb Hne) as [Z HZ]. exists Z. unfold sep_get. by rewrite HZ.
    - cbn beta. intros h (_ & _ & Hadj & Hdir & _). cbn [returns ls_graph]. intros a b c Hcol Hne Hn. rewrite Hadj in Hn. apply Hdir. right.
      destruct Hcol as [Hab Hcb]. pose proof (mgw_in _ (an_wf _ A) _ _ _ Hab) as (Ha & Hb & N1). pose proof (mgw_in _ (an_wf _ A) _ _ _ Hcb) as (Hc & _ & N2).
      destruct (li_rem _ _ _ I a c Ha Hc Hne Hn) as (Z & HZ & HT). apply (tested_true ci m A Hci) in HT as (_ & _ & Hsep); [|apply I..].
      exists c, Z. split; [apply (perfect_adj ci m A Hci s a b I); by exists Directed|]. split; [apply (perfect_adj ci m A Hci s c b I); by exists Directed|].
      split; [done|]. split; [done|]. split; [unfold sep_fun, sep_get; by rewrite HZ|].
      intros HbZ. apply Hsep. exists [a; b; c]. split.
      + split_and!; try done.
        * rewrite !NoDup_cons, !elem_of_cons, !elem_of_nil. split_and!; [intros [?|[?|[]]]; congruence|intros [?|[]]; congruence|intros []|constructor].
        * apply linked_cons. split; [by exists Directed|]. apply linked_cons. split; [|apply linked_one].
          apply mg_adj_sym; [apply A|by exists Directed].
      + intros l1 u v w l2 E. destruct l1 as [|? [|? [|? [|]]]]; simplify_eq/=. split; [|intros Hx; destruct Hx; by split].
        intros _. exists v. split; [done|apply rtc_refl].
  Qed.

  Lemma missed_pds s1 log a b X : ls_inv ci V s1 →
    (∀ a b c, m_collider m a b c → a ≠ c → ¬ mg_adj (ls_graph s1) a c → has_mark (ls_graph s1) a Directed b) →
    honest ci log → proper_log V log → dependent_given_all log a b X → a ∈ V → b ∈ V → a ≠ b → ¬ mg_adj m a b →
    ∃ v, possible_d_sep (ls_graph s1) a v ∧ v ∉ X.
  Proof.
    intros I Hcol Hh Hp Hdep Ha Hb Hne Hn.
    destruct (list_dec (λ v, possible_d_sep (ls_graph s1) a v ∧ v ∉ X) (elements V)) as [(v & _ & Hv)|Hno]; [|by exists v|exfalso].
    { intros v. destruct (pds_dec (ls_graph s1) a v) as [H1|H1]; [apply I|by rewrite (li_nodes _ _ _ I)| |right; tauto].
      destruct (decide (v ∈ X)); [right|left]; tauto. }
    assert (∀ v, possible_d_sep (ls_graph s1) a v → v ∈ X) as HX.
    { intros v Hv. destruct (decide (v ∈ X)) as [?|Hx]; [done|]. destruct Hno. exists v. split; [|done].
      apply elem_of_elements. rewrite <-(li_nodes _ _ _ I). by apply (pds_nodes _ a v (li_wf _ _ _ I)). }
    destruct (Hmax a b Ha Hb Hne Hn) as (Z0 & HZ0 & Hsep).
    destruct (subset_exists (λ v, v ≠ a ∧ v ≠ b ∧ (rtc (dir (λ a b, has_mark m a Directed b)) v a ∨ rtc (dir (λ a b, has_mark m a Directed b)) v b)) X) as (Z & HZ).
    { intros v. destruct (decide (v = a)) as [?|H1]; [right; tauto|]. destruct (decide (v = b)) as [?|H2]; [right; tauto|].
      destruct (anZ_dec_m o Ho m D [a; b] v) as [(z & Hz & Hr)|H3].
      - left. split; [done|]. split; [done|]. apply elem_of_cons in Hz as [->|Hz%elem_of_list_singleton]; [by left|subst; by right].
      - right. intros (_ & _ & Hr). apply H3. destruct Hr; [exists a|exists b]; (split; [set_solver +|done]). }
    apply (tested_false log a b Z Hh Hp).
    - apply Hdep. intros z Hz. apply HZ in Hz. set_solver +Hz.
    - apply (dsep_separates o Ho m D (ls_graph s1)) with (X := X) (Z0 := Z0); [|exact Hcol|apply I|done|done|done|set_solver +HZ0..|done].
      intros x y. by apply (perfect_adj ci m A Hci).
  Qed.

  Theorem fci_missed sb tc fuel : size V * size V + size V + 2 < fuel →
    returns (s ← fci_pc o ci fuel V; ls_orient (λ sep g, pag_v_structures o g sep) s) (λ s1,
      returns (fci_learn o ci sb tc fuel V) (λ r, ∀ a b, mg_adj (ls_graph r.1) a b → ¬ mg_adj m a b →
        ∃ X v, create_pds_set o fuel (ls_graph s1) a = Ok X ∧ possible_d_sep (ls_graph s1) a v ∧ v ∉ X)).
  Proof.
    intros Hf. assert (returns (fci_pc o ci fuel V) (ls_inv ci V)) as H0.
    { eapply returns_mono; [apply (fci_pc_ok o Ho ci V fuel); lia|]. cbn beta. by intros s [? _]. }
    apply returns_ok in H0 as (s & E & I). unfold fci_learn. rewrite E, !bind_ok.
    pose proof (returns_and _ _ _ (ls_orient_ok _ fuel ci V s (keeps_v o fuel Ho) I ltac:(lia)) (colliders_oriented s I)) as H1.
    apply returns_ok in H1 as (s1 & E1 & (I1 & _) & Hcol). rewrite E1, bind_ok. cbn [returns].
    eapply returns_bind; [apply (fci_refine_ok o Ho ci V fuel); [done|lia]|]. cbn beta. intros [s2 b0] (I2 & _ & _ & _ & Hall). cbn [fst snd] in *.
    eapply returns_bind.
    { apply (ls_orient_ok _ fuel ci V); [|done|lia]. apply (keeps_seq (orient_anew o fuel) (orient_rest o sb tc fuel)); [by apply keeps_anew|by apply keeps_rest]. }
    cbn beta. intros s3 (I3 & _ & _ & A3). cbn [returns fst snd]. intros a b Hab Hn. apply A3 in Hab.
    pose proof (mg_adj_nodes _ _ _ (li_wf _ _ _ I2) Hab) as (Ha & Hb & Hne). rewrite (li_nodes _ _ _ I2) in *.
    destruct (Hall a b Hab) as (X & _ & EX & Hdep). destruct (missed_pds s1 (ls_log s2) a b X) as (v & Hv & HvX); try done; try apply I2.
    by exists X, v.
  Qed.
End mfci.
