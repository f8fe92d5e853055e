(** The graphs learned from a renamed distribution are renamed. *)
From Verif Require Import Base BaseLemmas Paths ModelGraph Spec ModelMixed SpecMixed ProofMixed ProofMixed2 ProofPDAG ProofPDAG2 ProofPDAG3
  ModelPC SpecPC ProofPC ModelPAG SpecPAG ProofPAG ProofPAG2 ProofPAGR ProofPAGR2 ProofPAGS ProofPAGT ProofPAGU ProofPAGX ModelPDS SpecPDS
  ModelFCI SpecFCI ProofFCI ProofFCI2 ProofFCI3 ProofFCI4 ProofFCI5 ProofCanon ProofCanon2 ProofCanon3 SpecRename.

Section rename.
  Context (π ρ : node → node) (Bi : bijection π ρ).
  Lemma bij_sym : bijection ρ π. Proof. destruct Bi as [H1 H2]. by split. Qed.
  Lemma bij_inj : Inj (=) (=) π. Proof using Bi. intros a b H. by rewrite <-(proj1 Bi a), H, (proj1 Bi). Qed.

  Lemma renamed_sym g g' : renamed π g g' → renamed ρ g' g.
  Proof using Bi.
    intros [HN HM]. split; [intros a; by rewrite HN, (proj2 Bi)|]. intros a k b. by rewrite HM, !(proj2 Bi).
  Qed.
  Definition pull (g' : mgraph) : mgraph := MGraph (set_map ρ (mnodes g')) (λ n k, set_map ρ (mset g' (π n) k)).
  Lemma pull_renamed g' : renamed π (pull g') g'.
  Proof using Bi.
    split.
    - intros a. cbn. rewrite elem_of_map. split; [intros (x & -> & Hx); by rewrite (proj2 Bi)|]. intros H. exists (π a). by rewrite (proj1 Bi).
    - intros a k b. unfold has_mark. cbn. rewrite elem_of_map. split; [intros (x & -> & Hx); by rewrite (proj2 Bi)|]. intros H. exists (π a). by rewrite (proj1 Bi).
  Qed.

  (** lists *)
  Lemma split3 p l1 u v w l2 : π <$> p = l1 ++ u :: v :: w :: l2 → ∃ k1 a b c k2, p = k1 ++ a :: b :: c :: k2 ∧ u = π a ∧ v = π b ∧ w = π c.
  Proof.
    intros H. apply fmap_app_inv in H as (k1 & r & -> & H & ->). destruct r as [|a [|b [|c r]]]; try done. cbn in H. injection H as -> -> -> ->. by exists k1, a, b, c, r.
  Qed.
  Lemma split2 p l1 u v l2 : π <$> p = l1 ++ u :: v :: l2 → ∃ k1 a b k2, p = k1 ++ a :: b :: k2 ∧ u = π a ∧ v = π b.
  Proof.
    intros H. apply fmap_app_inv in H as (k1 & r & -> & H & ->). destruct r as [|a [|b r]]; try done. cbn in H. injection H as -> -> ->. by exists k1, a, b, r.
  Qed.
  Lemma linked_rename (E E' : node → node → Prop) p : (∀ a b, E a b → E' (π a) (π b)) → linked E p → linked E' (π <$> p).
  Proof. intros HE H l1 u v l2 (k1 & a & b & k2 & -> & -> & ->)%split2. by eapply HE, H. Qed.

  Section one.
  Context (g g' : mgraph) (R : renamed π g g').
  Lemma rn_adj a b : mg_adj g a b ↔ mg_adj g' (π a) (π b).
  Proof using R. split; intros [k H]; exists k; by apply R. Qed.
  Lemma rn_dir a b : dir_edge g a b ↔ dir_edge g' (π a) (π b).
  Proof using R. unfold dir_edge. by rewrite !(proj2 R). Qed.
  Lemma rn_und a b : und_edge g a b ↔ und_edge g' (π a) (π b).
  Proof using R. unfold und_edge. by rewrite !(proj2 R). Qed.
  Lemma rn_pd a b : pd_edge g a b ↔ pd_edge g' (π a) (π b).
  Proof using R. unfold pd_edge. by rewrite !(proj2 R), rn_adj. Qed.
  Lemma rn_coll a b c : m_collider g a b c ↔ m_collider g' (π a) (π b) (π c).
  Proof using R. unfold m_collider. by rewrite !(proj2 R). Qed.
  Lemma rn_ne a b : a ≠ b ↔ π a ≠ π b.
  Proof using Bi. split; intros H HH; apply H; [by apply bij_inj|by subst]. Qed.
  Lemma rn_wf : mg_wf g' → mg_wf g.
  Proof using R Bi.
    intros [H1 H2 H3]. split.
    - intros a k b H%R. apply H1 in H as (Ha & Hb & Hn). split_and!; [by apply R..|]. by apply rn_ne.
    - intros a k b H%R. apply H2 in H as [j H]. exists j. by apply R.
    - intros a k j b H%R H'%R. by eapply H3.
  Qed.
  Lemma rn_paired : paired g' → paired g.
  Proof using R. intros P a b H%R%P. by apply R. Qed.
  Lemma rn_disc d q b c : discriminating g d q b c → discriminating g' (π d) (π <$> q) (π b) (π c).
  Proof using R Bi.
    pose proof bij_inj as Hi. intros [H1 H2 H3 H4 H5 H6].
    assert (∀ x l, π x :: (π <$> q) ++ (π <$> l) = π <$> (x :: q ++ l)) as E by (intros x l; cbn; by rewrite fmap_app). pose proof (E d [b; c]) as E1. pose proof (E d [b]) as E2. cbn [fmap list_fmap] in E1, E2. split.
    - intros Hq%fmap_nil_inv. done.
    - change (NoDup (π d :: (π <$> q) ++ (π <$> [b; c]))). rewrite E. by apply NoDup_fmap_2.
    - change (linked (mg_adj g') (π d :: (π <$> q) ++ (π <$> [b; c]))). rewrite E. eapply linked_rename; [|done]. intros x y. apply rn_adj.
    - by rewrite <-rn_adj.
    - intros v (u & -> & Hu)%elem_of_list_fmap. apply rn_dir. by apply H5.
    - intros l1 u v w l2. change ((π d :: (π <$> q) ++ (π <$> [b])) = l1 ++ u :: v :: w :: l2 → has_mark g' u Directed v ∧ has_mark g' w Directed v). rewrite E.
      intros (k1 & x & y & z & k2 & Ep & -> & -> & ->)%split3. rewrite <-!(proj2 R). by eapply H6.
  Qed.
  Lemma rn_uncovered p : uncovered g p → uncovered g' (π <$> p).
  Proof using R. intros H l1 u v w l2 (k1 & x & y & z & k2 & Ep & -> & -> & ->)%split3. rewrite <-rn_adj. by eapply H. Qed.
  Lemma rn_path (E E' : node → node → Prop) x y nx ny p : (∀ a b, E a b → E' (π a) (π b)) → uncovered_path_spec g E (mnodes g) x y nx ny p →
    uncovered_path_spec g' E' (mnodes g') (π x) (π y) (π nx) (π ny) (π <$> p).
  Proof using R Bi.
    pose proof bij_inj as Hi. intros HE (mid & -> & H1 & H2 & H3 & H4). exists (π <$> mid).
    split; [cbn; by rewrite fmap_app|]. split; [intros v (u & -> & Hu)%elem_of_list_fmap; apply R; by apply H1|].
    assert (π x :: (π <$> nx :: mid ++ [ny]) ++ [π y] = π <$> (x :: (nx :: mid ++ [ny]) ++ [y])) as E1 by (cbn; by rewrite !fmap_app).
    rewrite E1. split; [by apply NoDup_fmap_2|]. split; [by eapply linked_rename|]. by apply rn_uncovered.
  Qed.
  Lemma rn_settled : settled [1; 2; 3; 4] g' → settled [1; 2; 3; 4] g.
  Proof using R Bi.
    intros T i Hi Hne Ha. apply (T i Hi Hne). assert (i = 1 ∨ i = 2 ∨ i = 3 ∨ i = 4) as [->|[->|[->| ->]]] by (clear -Hi; set_solver).
    - destruct Ha as (a & b & c & H). exists (π a), (π b), (π c). by rewrite <-!(proj2 R), <-rn_adj.
    - destruct Ha as (a & b & c & H). exists (π a), (π b), (π c). by rewrite <-!(proj2 R), <-!rn_dir.
    - destruct Ha as (a & b & c & d & H). exists (π a), (π b), (π c), (π d). by rewrite <-!(proj2 R), <-rn_adj, <-rn_ne.
    - destruct Ha as (d & q & b & c & H1 & H2). exists (π d), (π <$> q), (π b), (π c). rewrite <-(proj2 R). split; [|done]. by apply rn_disc.
  Qed.
  Lemma rn_tail_settled : tail_settled g' → tail_settled g.
  Proof using R Bi.
    intros (T8 & T9 & T10). split; [|split].
    - intros (a & b & c & H). apply T8. exists (π a), (π b), (π c). by rewrite <-!(proj2 R), <-!rn_dir.
    - intros (a & b & d & c & p & H1 & H2 & H3 & H4 & H5 & H6 & H7). apply T9. exists (π a), (π b), (π d), (π c), (π <$> p).
      rewrite <-!(proj2 R), <-!rn_pd, <-rn_adj, <-rn_ne. split_and!; try done. eapply rn_path; [|done]. intros x y. apply rn_pd.
    - intros a b c d e f (H1 & H2 & H3 & H4 & H5 & H6 & H7 & H8 & H9 & H10 & H11). apply (T10 (π a) (π b) (π c) (π d) (π e) (π f)).
      unfold r10_at. rewrite <-!(proj2 R), <-!rn_dir, <-!rn_pd, <-rn_adj, <-!rn_ne. split_and!; try done.
      + destruct H10 as [->|[p Hp]]; [by left|right]. exists (π <$> p). eapply rn_path; [|done]. intros x y. apply rn_adj.
      + destruct H11 as [->|[p Hp]]; [by left|right]. exists (π <$> p). eapply rn_path; [|done]. intros x y. apply rn_adj.
  Qed.
  Lemma rn_tc a b : tc (dir_edge g) a b → tc (dir_edge g') (π a) (π b).
  Proof using R. induction 1 as [x y H|x y z H _ IH]; [by apply tc_once, rn_dir|]. eapply tc_l; [by apply rn_dir|done]. Qed.
  Lemma rn_ancestral : ancestral g' → ancestral g.
  Proof using R Bi.
    intros [H1 H2 H3 H4]. split; [by apply rn_wf| | |].
    - intros a b H%R. by eapply H2.
    - intros a b H%rn_tc. rewrite (proj2 R). by apply H3.
    - intros a b c H%rn_und. rewrite (proj2 R). by eapply H4.
  Qed.
  Lemma rn_rtc a b : rtc (dir_edge g) a b → rtc (dir_edge g') (π a) (π b).
  Proof using R. induction 1 as [x|x y z H _ IH]; [done|]. eapply rtc_l; [by apply rn_dir|done]. Qed.
  Lemma rn_connected x y Z p : is_path (mg_adj g) x y p → m_active g Z p → is_path (mg_adj g') (π x) (π y) (π <$> p) ∧ m_active g' (set_map π Z) (π <$> p).
  Proof using R Bi.
    pose proof bij_inj as Hi. intros (H1 & H2 & H3 & H4) Ha. split; [split_and!|].
    - destruct p; [done|]. cbn in *. by injection H1 as ->.
    - rewrite fmap_last, H2. done.
    - by apply NoDup_fmap_2.
    - eapply linked_rename; [|done]. intros a b. apply rn_adj.
    - intros l1 u v w l2 (k1 & a & b & c & k2 & Ep & -> & -> & ->)%split3. destruct (Ha _ _ _ _ _ Ep) as [H5 H6]. rewrite <-rn_coll. split.
      + intros (z & Hz & Hr)%H5. exists (π z). split; [by apply elem_of_map_2|by apply rn_rtc].
      + intros Hn Hb. apply elem_of_map in Hb as (b' & Hb & Hb'). apply bij_inj in Hb as ->. by apply H6.
  Qed.
  End one.

  Lemma map_back (Z : nset) : set_map ρ (set_map (D:=nset) π Z : nset) = Z.
  Proof using Bi.
    apply set_eq. intros x. rewrite elem_of_map. split.
    - intros (y & -> & (z & -> & Hz)%elem_of_map). by rewrite (proj1 Bi).
    - intros H. exists (π x). split; [by rewrite (proj1 Bi)|by apply elem_of_map_2].
  Qed.
  Lemma rn_compat m m' g g' S' : renamed π m m' → renamed π g g' → compat m' g' S' → compat m g (λ x y, (set_map ρ : nset → nset) <$> S' (π x) (π y)).
  Proof using Bi.
    intros Rm Rg [H1 H2 H3 H4 H5 H6]. split.
    - by apply (rn_ancestral m m').
    - apply set_eq. intros x. by rewrite (proj1 Rm), (proj1 Rg), H2.
    - intros a b. by rewrite (rn_adj _ _ Rm), (rn_adj _ _ Rg).
    - intros a k b Hk H%Rg. apply Rm. by apply H4.
    - intros a b c Hn Hna Hc. apply Rg. apply (H5 _ _ (π c)); [by apply (proj1 (rn_ne a c))|intros HH; by apply (rn_adj _ _ Rm) in HH|by apply (rn_coll _ _ Rm)].
    - intros d q b c Z Hd HZ. apply (rn_disc _ _ Rm) in Hd. apply fmap_Some in HZ as (Z' & HZ' & ->).
      pose proof (H6 _ _ _ _ _ Hd HZ') as H. transitivity (π b ∈ Z').
      { rewrite elem_of_map. split; [intros (x & -> & Hx); by rewrite (proj2 Bi)|]. intros Hx. exists (π b). by rewrite (proj1 Bi). }
      rewrite H, fmap_last. split.
      + intros (a & Ha & Hn). apply fmap_Some in Ha as (a' & Ha' & ->). exists a'. split; [done|]. by rewrite (rn_coll _ _ Rm).
      + intros (a & -> & Hn). exists (π a). split; [done|]. by rewrite <-(rn_coll _ _ Rm).
  Qed.
  Lemma rn_below m m' S S' g g' : renamed π m m' → canon m S g → canon m' S' g' → ∀ a k b, k ≠ Circle → has_mark g a k b → has_mark g' (π a) k (π b).
  Proof using Bi.
    intros Rm C [W' C' P' T' _] a k b Hk Hm. pose proof (pull_renamed g') as Rg. apply Rg. eapply (ca_least _ _ _ C); [| | | |done..].
    - by eapply rn_compat.
    - by eapply rn_wf.
    - by eapply rn_paired.
    - by eapply rn_settled.
  Qed.
  Lemma rn_tails m m' S S' g0 g0' g g' : canon m S g0 → canon m' S' g0' → renamed π g0 g0' → stale (Pany ∅ [8; 9; 10]) g0 g → stale (Pany ∅ [8; 9; 10]) g0' g' → tail_settled g' →
    same_base g (pull g') ∧ tails_in g (pull g').
  Proof using Bi.
    intros C C' R0 Hst Hst' T. pose proof (pull_renamed g') as Rg.
    pose proof (ca_wf _ _ _ C) as W. pose proof (ca_wf _ _ _ C') as W'. pose proof (ca_paired _ _ _ C) as P. pose proof (ca_paired _ _ _ C') as P'.
    pose proof (stale_refines _ _ _ (Pany_good _ _) W Hst) as RF. pose proof (stale_refines _ _ _ (Pany_good _ _) W' Hst') as RF'.
    destruct (tails_only _ _ _ W P Hst) as [Pg D]. destruct (tails_only _ _ _ W' P' Hst') as [Pg' D'].
    assert (same_base g0 (pull g')) as B.
    { split.
      - apply set_eq. intros x. by rewrite (proj1 R0), (proj1 Rg), (rf_nodes _ _ RF').
      - intros a b. by rewrite (rn_adj _ _ R0), (rn_adj _ _ Rg), (rf_adj _ _ RF').
      - intros a b. by rewrite (proj2 R0), (proj2 Rg), D'. }
    split; [split|].
    - by rewrite (rf_nodes _ _ RF), (sb_nodes _ _ B).
    - intros a b. by rewrite (rf_adj _ _ RF), (sb_adj _ _ B).
    - intros a b. by rewrite D, (sb_arrow _ _ B).
    - apply (stale_tails ∅ g0 g (pull g')); try done; [eapply rn_wf, RF'; done|by eapply rn_paired|by eapply rn_tail_settled|].
      intros a b Hab. apply Rg. apply (stale_keeps g0' g'); [done..|]. by apply R0.
  Qed.
End rename.

Section both.
  Context (π ρ : node → node) (Bi : bijection π ρ).
  Let Bi' := bij_sym π ρ Bi.

  Lemma rn_canon m m' S S' g g' : renamed π m m' → canon m S g → canon m' S' g' → renamed π g g'.
  Proof using Bi.
    intros Rm C C'. pose proof (renamed_sym π ρ Bi _ _ Rm) as Rm'. pose proof (ca_compat _ _ _ C) as Cp. pose proof (ca_compat _ _ _ C') as Cp'. split.
    { intros a. rewrite <-(cp_nodes _ _ _ Cp), <-(cp_nodes _ _ _ Cp'). apply Rm. }
    assert (∀ a b, mg_adj g a b ↔ mg_adj g' (π a) (π b)) as Ha by (intros a b; by rewrite <-(cp_adj _ _ _ Cp), <-(cp_adj _ _ _ Cp'), (rn_adj π _ _ Rm)).
    pose proof (rn_below π ρ Bi m m' S S' g g' Rm C C') as H1. pose proof (rn_below ρ π Bi' m' m S' S g' g Rm' C' C) as H2.
    assert (∀ a k b, k ≠ Circle → has_mark g a k b ↔ has_mark g' (π a) k (π b)) as H.
    { intros a k b Hk. split; [by apply H1|]. intros H. apply H2 in H; [|done]. by rewrite !(proj1 Bi) in H. }
    intros a [] b; [|by apply H..]. split; intros Hk.
    - assert (mg_adj g' (π a) (π b)) as [k Hk'] by (apply Ha; by eexists). destruct (decide (k = Circle)) as [->|Hne]; [done|].
      apply H in Hk'; [|done]. by rewrite (mgw_one _ (ca_wf _ _ _ C) _ _ _ _ Hk' Hk) in Hne.
    - assert (mg_adj g a b) as [k Hk'] by (apply Ha; by eexists). destruct (decide (k = Circle)) as [->|Hne]; [done|].
      apply H in Hk'; [|done]. by rewrite (mgw_one _ (ca_wf _ _ _ C') _ _ _ _ Hk' Hk) in Hne.
  Qed.

  Lemma rn_tcanon m m' tc S S' g g' : renamed π m m' → tcanon m tc true S g → tcanon m' tc true S' g' → renamed π g g'.
  Proof using Bi.
    intros Rm (g0 & C & Hst & Hf & Ht) (g0' & C' & Hst' & Hf' & Ht'). pose proof (rn_canon _ _ _ _ _ _ Rm C C') as R0. pose proof (renamed_sym π ρ Bi _ _ R0) as R0'.
    destruct tc; [|rewrite (Hf eq_refl), (Hf' eq_refl); done]. specialize (Ht eq_refl eq_refl). specialize (Ht' eq_refl eq_refl).
    destruct (rn_tails π ρ Bi _ _ _ _ _ _ _ _ C C' R0 Hst Hst' Ht') as [B T]. destruct (rn_tails ρ π Bi' _ _ _ _ _ _ _ _ C' C R0' Hst' Hst Ht) as [_ T'].
    pose proof (pull_renamed π ρ Bi g') as Rg. pose proof (pull_renamed ρ π Bi' g) as Rg'.
    pose proof (rf_wf _ _ (stale_refines _ _ _ (Pany_good _ _) (ca_wf _ _ _ C) Hst)) as W. pose proof (rf_wf _ _ (stale_refines _ _ _ (Pany_good _ _) (ca_wf _ _ _ C') Hst')) as W'.
    split; [intros a; by rewrite (sb_nodes _ _ B), (proj1 Rg)|].
    assert (∀ a b, mg_adj g a b ↔ mg_adj g' (π a) (π b)) as Ha by (intros a b; by rewrite (sb_adj _ _ B), (rn_adj π _ _ Rg)).
    assert (∀ a k b, k ≠ Circle → has_mark g a k b ↔ has_mark g' (π a) k (π b)) as H.
    { intros a [] b Hk; [done|by rewrite (sb_arrow _ _ B), (proj2 Rg)|]. split; intros Hm; [by apply T, Rg in Hm|]. apply T', Rg' in Hm. by rewrite !(proj1 Bi) in Hm. }
    intros a [] b; [|by apply H..]. split; intros Hk.
    - assert (mg_adj g' (π a) (π b)) as [k Hk'] by (apply Ha; by eexists). destruct (decide (k = Circle)) as [->|Hne]; [done|].
      apply H in Hk'; [|done]. by rewrite (mgw_one _ W _ _ _ _ Hk' Hk) in Hne.
    - assert (mg_adj g a b) as [k Hk'] by (apply Ha; by eexists). destruct (decide (k = Circle)) as [->|Hne]; [done|].
      apply H in Hk'; [|done]. by rewrite (mgw_one _ W' _ _ _ _ Hk' Hk) in Hne.
  Qed.

  Lemma rn_separated m m' x y Z : renamed π m m' → m_separated m x y Z ↔ m_separated m' (π x) (π y) (set_map π Z).
  Proof using Bi.
    intros R. pose proof (renamed_sym π ρ Bi _ _ R) as R'. split; intros H (p & Hp & Ha); apply H.
    - destruct (rn_connected ρ π Bi' _ _ R' _ _ _ _ Hp Ha) as [H1 H2]. rewrite !(proj1 Bi), (map_back π ρ Bi) in *. by eexists.
    - destruct (rn_connected π ρ Bi _ _ R _ _ _ _ Hp Ha) as [H1 H2]. by eexists.
  Qed.
End both.

(** ** DAGs *)
Section dag.
  Context (π ρ : node → node) (Bi : bijection π ρ) (d d' : graph) (R : renamed_dag π d d').
  Lemma rd_sym : renamed_dag ρ d' d.
  Proof using Bi R. destruct R as [H1 H2]. split; [intros a; by rewrite H1, (proj2 Bi)|]. intros a b. by rewrite H2, !(proj2 Bi). Qed.
  Lemma rd_ancestor a b : ancestor d a b → ancestor d' (π a) (π b).
  Proof using R. induction 1 as [x|x y z H _ IH]; [constructor|]. eapply rtc_l; [by apply R|done]. Qed.
  Lemma rd_connected x y (Z : nset) p : is_path (adjacent d) x y p → active d (elements Z) p →
    is_path (adjacent d') (π x) (π y) (π <$> p) ∧ active d' (elements (set_map (D:=nset) π Z)) (π <$> p).
  Proof using R Bi.
    pose proof (bij_inj π ρ Bi) as Hi. intros (H1 & H2 & H3 & H4) Ha. split; [split_and!|].
    - destruct p; [done|]. cbn in *. by injection H1 as ->.
    - rewrite fmap_last, H2. done.
    - by apply NoDup_fmap_2.
    - eapply linked_rename; [|done]. intros a b. unfold adjacent. by rewrite !(proj2 R).
    - intros l1 u v w l2 (k1 & a & b & c & k2 & Ep & -> & -> & ->)%split3. destruct (Ha _ _ _ _ _ Ep) as [H5 H6]. unfold collider. rewrite <-!(proj2 R). split.
      + intros (z & Hz & Hr)%H5. exists (π z). split; [|by apply rd_ancestor]. rewrite elem_of_elements in *. by apply elem_of_map_2.
      + intros Hn Hb. rewrite elem_of_elements in Hb. apply elem_of_map in Hb as (b' & Hb & Hb'). apply Hi in Hb as ->. apply H6; [done|]. by rewrite elem_of_elements.
  Qed.
End dag.
Lemma rd_over π ρ d d' V V' : bijection π ρ → renamed_dag π d d' → (∀ a, a ∈ V ↔ π a ∈ V') → renamed_over π V V' d d'.
Proof.
  intros Bi R HV. split; [done|]. intros x y Z _ _ _ _. split; intros H (p & Hp & Ha); apply H.
  - destruct (rd_connected ρ π (bij_sym _ _ Bi) d' d (rd_sym π ρ Bi _ _ R) _ _ _ _ Hp Ha) as [H1 H2]. rewrite !(proj1 Bi), (map_back π ρ Bi) in *. by eexists.
  - destruct (rd_connected π ρ Bi d d' R _ _ _ _ Hp Ha) as [H1 H2]. by eexists.
Qed.
