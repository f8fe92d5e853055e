(** Soundness of the rules, uniqueness of the result, conversion of DAGs into CPDAGs. *)
From Verif Require Import Base BaseLemmas ModelGraph Spec ModelMixed SpecMixed Paths ProofGraph ProofDsep ProofGraph2 ProofGraph3 ProofPDAG.

Lemma acyclic_anti2 d a b c : acyclic d → edge d a b → edge d b c → ¬ edge d c a.
Proof. intros Ha H1 H2 H3. apply (Ha a). eapply tc_l; [exact H1|]. eapply tc_l; [exact H2|]. by apply tc_once. Qed.
Lemma acyclic_anti3 d a b c e : acyclic d → edge d a b → edge d b c → edge d c e → ¬ edge d e a.
Proof.
  intros Ha H1 H2 H3 H4. apply (Ha a). eapply tc_l; [exact H1|]. eapply tc_l; [exact H2|].
  eapply tc_l; [exact H3|]. by apply tc_once.
Qed.

Lemma adj_ne d a b : acyclic d → adjacent d a b → a ≠ b.
Proof. intros Ha [H|H] ->; by apply acyclic_irr in H. Qed.

Lemma extends_uline d g a b : extends d g → uline g a b → edge d a b ∨ edge d b a.
Proof. intros He Hu. apply (ext_skel _ _ He). by left. Qed.

(** every extension agrees with an orientation by rules 1-3 and by the documented rule 4 *)
Definition sound_pattern (g : mgraph) (x y : node) : Prop :=
  r1_pattern g x y ∨ r2_pattern g x y ∨ r3_pattern g x y ∨ r4_documented g x y.

Lemma pattern_sound d g x y : pd_wf g → extends d g → uline g x y → sound_pattern g x y → edge d x y.
Proof.
  intros Hwf He Hu HP. pose proof (ext_acyclic _ _ He) as Hac.
  destruct (extends_uline _ _ _ _ He Hu) as [?|Hyx]; [done|exfalso].
  assert (∀ a b c, edge d a b → edge d c b → a ≠ c → ¬ pd_adj g a c → uline g a b → False) as Hv.
  { intros a b c Hab Hcb Hne Hn Huab.
    destruct (ext_vstr _ _ He a b c) as [H1 _].
    - split_and!; [done..|]. by rewrite (ext_skel _ _ He).
    - by apply (pdw_one _ Hwf) in Huab. }
  destruct HP as [(z & Hz & Hn)|[(z & Hxz & Hzy)|[(w & z & Hw & Hz & Hwy & Hzy & Hne & Hn)|
    (w & z & Hwz & Hzy & Hzx & Hwx & Hne & Hn)]]].
  - apply (Hv y x z); [done|by apply (ext_dir _ _ He)| | |by apply (pdw_sym _ Hwf)].
    + intros <-. apply (pdw_one _ Hwf y x); [by apply (pdw_sym _ Hwf)|done].
    + intros ?. apply Hn. by apply pd_adj_sym.
  - apply (ext_dir _ _ He) in Hxz, Hzy. by eapply acyclic_anti2.
  - apply (ext_dir _ _ He) in Hwy, Hzy.
    assert (edge d w x) as Hwx.
    { destruct (extends_uline _ _ _ _ He Hw) as [?|?]; [done|]. by destruct (acyclic_anti2 d x w y Hac). }
    assert (edge d z x) as Hzx.
    { destruct (extends_uline _ _ _ _ He Hz) as [?|?]; [done|]. by destruct (acyclic_anti2 d x z y Hac). }
    by apply (Hv w x z).
  - apply (ext_dir _ _ He) in Hwz, Hzy.
    assert (edge d w x) as Hwx'.
    { destruct (extends_uline _ _ _ _ He Hwx) as [?|?]; [done|]. by destruct (acyclic_anti3 d x w z y Hac). }
    by apply (Hv w x y).
Qed.

Lemma extends_orient d g x y : pd_wf g → extends d g → uline g x y → edge d x y → extends d (orient_edge g x y).
Proof.
  intros Hwf [Ha Hn Hs Hd Hv] Hu Hxy. split; [done..| | |].
  - intros a b. by rewrite orient_pd_adj.
  - intros a b. rewrite orient_darrow. intros [?|[-> ->]]; auto.
  - intros a c b H. rewrite !orient_darrow. apply Hv in H. tauto.
Qed.

Lemma osteps_sound (P : mgraph → node → node → Prop) V d g g' : pd_wf g → extends d g →
  (∀ h x y, P h x y → sound_pattern h x y) → rtc (ostep P V) g g' → extends d g'.
Proof.
  intros Hwf He HP Hr. induction Hr as [|g g1 g' Hst _ IH]; [done|].
  pose proof (ostep_wf _ _ _ _ Hwf Hst) as Hwf1. apply IH; [done|].
  destruct Hst as (x & y & _ & Hu & Hp & ->). apply extends_orient; [done..|].
  apply (pattern_sound d g); [done..|]. by apply HP.
Qed.

Lemma any_123_sound rules h x y : (∀ i, i ∈ rules → 1 ≤ i ≤ 3) → any_pattern rules h x y → sound_pattern h x y.
Proof.
  intros Hr (i & Hi & HP). apply Hr in Hi. unfold sound_pattern.
  destruct i as [|[|[|[|i]]]]; [lia|simpl in HP; tauto..|lia].
Qed.

(** ** the result of rules 1-3 is unique *)
Inductive meek (g : mgraph) : node → node → Prop :=
  | meek_dir a b : darrow g a b → meek g a b
  | meek_1 z x y : meek g z x → uline g x y → z ≠ y → ¬ pd_adj g z y → meek g x y
  | meek_2 x z y : meek g x z → meek g z y → uline g x y → meek g x y
  | meek_3 x y w z : uline g x y → uline g w x → uline g z x → meek g w y → meek g z y →
      w ≠ z → ¬ pd_adj g w z → meek g x y.

Lemma orientation_und g h a b : orientation_of g h → uline h a b → uline g a b.
Proof. intros Ho Hu. by apply (or_und _ _ Ho) in Hu as [? _]. Qed.

Lemma osteps_meek rules V g : pd_wf g → (∀ i, i ∈ rules → 1 ≤ i ≤ 3) →
  ∀ h g', rtc (ostep (any_pattern rules) V) h g' → orientation_of g h → pd_wf h →
  (∀ a b, darrow h a b → meek g a b) → ∀ a b, darrow g' a b → meek g a b.
Proof.
  intros Hwf Hr h g' Hst. induction Hst as [h|h h1 g' Hst _ IH]; [done|]. intros Ho Hwh Hm.
  pose proof (ostep_wf _ _ _ _ Hwh Hst) as Hwh1.
  destruct Hst as (x & y & _ & Hu & (i & Hi & HP) & ->).
  apply IH; [by apply orientation_step|done|].
  intros a b. rewrite orient_darrow. intros [?|[-> ->]]; [auto|].
  pose proof (orientation_und _ _ _ _ Ho Hu) as Hu'.
  destruct (orientation_skeleton g h Hwf Ho) as [_ Hsk].
  apply Hr in Hi. destruct i as [|[|[|[|i]]]]; [lia|..|lia].
  - destruct HP as (z & Hz & Hn). rewrite <-Hsk in Hn. eapply meek_1; [eauto..| |done].
    intros ->. apply (pdw_one _ Hwh y x); [by apply (pdw_sym _ Hwh)|done].
  - destruct HP as (z & Hz & Hzy). eapply meek_2; eauto.
  - destruct HP as (w & z & Hw & Hz & Hwy & Hzy & Hne & Hn). rewrite <-Hsk in Hn.
    eapply (meek_3 _ _ _ w z); eauto using orientation_und.
Qed.

Lemma darrow_dec g a b : darrow g a b ∨ ¬ darrow g a b.
Proof. unfold darrow, has_mark. destruct (decide (a ∈ mset g b Directed)); tauto. Qed.
Lemma uline_dec g a b : uline g a b ∨ ¬ uline g a b.
Proof. unfold uline, has_mark. destruct (decide (a ∈ mset g b Tail)); tauto. Qed.

(** an undirected edge of g is either still undirected in h, or directed one way *)
Lemma orientation_cases g h a b : orientation_of g h → uline g a b →
  uline h a b ∨ darrow h a b ∨ darrow h b a.
Proof.
  intros Ho Hu. rewrite (or_und _ _ Ho). destruct (darrow_dec h a b), (darrow_dec h b a); tauto.
Qed.

Lemma meek_complete d g g' : pd_wf g → pd_wf g' → extends d g → extends d g' → orientation_of g g' →
  (∀ i x y, i ∈ [1;2;3] → uline g' x y → ¬ rule_pattern i g' x y) →
  ∀ a b, meek g a b → darrow g' a b.
Proof.
  intros Hwf Hwf' He He' Ho Hno a b Hm. pose proof (ext_acyclic _ _ He) as Hac.
  assert (∀ x y, uline g' x y → ¬ r1_pattern g' x y) as N1 by (intros; apply (Hno 1); [set_solver|done]).
  assert (∀ x y, uline g' x y → ¬ r2_pattern g' x y) as N2 by (intros; apply (Hno 2); [set_solver|done]).
  assert (∀ x y, uline g' x y → ¬ r3_pattern g' x y) as N3 by (intros; apply (Hno 3); [set_solver|done]).
  destruct (orientation_skeleton g g' Hwf Ho) as [_ Hsk].
  (* an undirected edge of g is not part of a collider of d *)
  assert (∀ a b c, edge d a b → edge d c b → a ≠ c → ¬ pd_adj g a c → uline g a b → False) as Hv.
  { intros u v c Hab Hcb Hne Hn Huab.
    destruct (ext_vstr _ _ He u v c) as [H1 _].
    - split_and!; [done..|]. by rewrite (ext_skel _ _ He).
    - by apply (pdw_one _ Hwf) in Huab. }
  induction Hm as [a b Hd|z x y _ Hz Hu Hzy Hn|x z y _ Hxz _ Hzy Hu|x y w z Hu Hw Hz _ Hwy _ Hzy Hne Hn].
  - by apply (or_dir _ _ Ho).
  - destruct (orientation_cases _ _ _ _ Ho Hu) as [Hu'|[?|Hyx]]; [|done|].
    + exfalso. apply (N1 x y Hu'). exists z. split; [done|]. by rewrite <-Hsk.
    + exfalso. apply (ext_dir _ _ He') in Hz, Hyx.
      apply (Hv y x z); [done..| |by apply (pdw_sym _ Hwf)]. intros ?. apply Hn. by apply pd_adj_sym.
  - destruct (orientation_cases _ _ _ _ Ho Hu) as [Hu'|[?|Hyx]]; [|done|].
    + exfalso. apply (N2 x y Hu'). by exists z.
    + exfalso. apply (ext_dir _ _ He') in Hxz, Hzy, Hyx. by eapply acyclic_anti2.
  - assert (∀ v, uline g v x → darrow g' v y → edge d x v → ¬ edge d y x) as Hcyc.
    { intros v _ Hvy Hxv Hyx. apply (ext_dir _ _ He') in Hvy. by destruct (acyclic_anti2 d x v y Hac). }
    destruct (orientation_cases _ _ _ _ Ho Hu) as [Hu'|[?|Hyx]]; [|done|].
    + exfalso.
      destruct (orientation_cases _ _ _ _ Ho Hw) as [Hw'|[Hw'|Hw']].
      * destruct (orientation_cases _ _ _ _ Ho Hz) as [Hz'|[Hz'|Hz']].
        -- apply (N3 x y Hu'). exists w, z. split_and!; try done. by rewrite <-Hsk.
        -- apply (N1 x w); [by apply (pdw_sym _ Hwf')|]. exists z. split; [done|]. rewrite <-Hsk.
           intros ?. apply Hn. by apply pd_adj_sym.
        -- apply (N2 x y Hu'). by exists z.
      * destruct (orientation_cases _ _ _ _ Ho Hz) as [Hz'|[Hz'|Hz']].
        -- apply (N1 x z); [by apply (pdw_sym _ Hwf')|]. exists w. split; [done|]. by rewrite <-Hsk.
        -- apply (ext_dir _ _ He') in Hw', Hz'. by apply (Hv w x z).
        -- apply (N2 x y Hu'). by exists z.
      * apply (N2 x y Hu'). by exists w.
    + exfalso. apply (ext_dir _ _ He') in Hyx.
      destruct (extends_uline _ _ _ _ He Hw) as [Hwx|Hxw]; [|by apply (Hcyc w)].
      destruct (extends_uline _ _ _ _ He Hz) as [Hzx|Hxz]; [|by apply (Hcyc z)].
      by apply (Hv w x z).
Qed.

(** ** the pattern of a DAG: skeleton with exactly the unshielded colliders directed *)
Definition vdir (d : graph) (a b : node) : Prop := ∃ c, v_structure d a b c.

Definition pattern_of (d : graph) (g : mgraph) : Prop :=
  mnodes g = gnodes d ∧
  (∀ a b, darrow g a b ↔ vdir d a b) ∧
  (∀ a b, uline g a b ↔ adjacent d a b ∧ ¬ vdir d a b ∧ ¬ vdir d b a).

Lemma v_structure_sym d a c b : v_structure d a c b → v_structure d b c a.
Proof. intros (? & ? & ? & Hn). split_and!; [done..|]. intros ?. by apply Hn, adjacent_sym. Qed.

Lemma vdir_edge d a b : vdir d a b → edge d a b.
Proof. by intros (c & ? & _). Qed.

Lemma pattern_wf d g : wf_graph d → acyclic d → pattern_of d g → pd_wf g.
Proof.
  intros Hwf Ha (Hn & Hd & Hu). split.
  - intros a b Hab. rewrite Hn. apply Hd, vdir_edge in Hab as He. pose proof (Hwf _ _ He) as [? ?]. split_and!; [done..|].
    eapply adj_ne; [done|by left].
  - intros a b (Hab & _)%Hu. rewrite Hn.
    assert (a ∈ gnodes d ∧ b ∈ gnodes d) as [? ?] by (destruct Hab as [H|H]; apply Hwf in H; tauto).
    split_and!; [done..|]. by eapply adj_ne.
  - intros a b. rewrite !Hu. intros (?%adjacent_sym & ? & ?). done.
  - intros a b (_ & ? & _)%Hu. by rewrite Hd.
Qed.

Lemma vdir_dec d a b : wf_graph d → vdir d a b ∨ ¬ vdir d a b.
Proof.
  intros Hwf. destruct (decide (a ∈ gadj d b ∧ Exists (λ c, c ∈ gadj d b ∧ a ≠ c ∧ a ∉ gadj d c ∧ c ∉ gadj d a) (elements (gnodes d)))) as [H|H].
  - left. destruct H as [H1 H2]. apply Exists_exists in H2 as (c & _ & Hc & Hne & Hn1 & Hn2).
    exists c. split_and!; [done..|]. intros [?|?]; contradiction.
  - right. intros (c & Hac & Hcb & Hne & Hn). apply H. split; [done|]. apply Exists_exists.
    exists c. split; [apply elem_of_elements; by apply Hwf in Hcb as [? _]|].
    split_and!; [done..| |]; intros ?; apply Hn; [by left|by right].
Qed.

Lemma pattern_adj d g a b : wf_graph d → pattern_of d g → pd_adj g a b ↔ adjacent d a b.
Proof.
  intros Hwf (Hn & Hd & Hu). unfold pd_adj. rewrite !Hd, Hu. split.
  - intros [?|[H|H]]; [tauto|apply vdir_edge in H; by left|apply vdir_edge in H; by right].
  - intros ?. destruct (vdir_dec d a b Hwf), (vdir_dec d b a Hwf); tauto.
Qed.

Lemma pattern_extends d d' g : wf_graph d → pattern_of d g → acyclic d' →
  same_skeleton d d' → same_v_structures d d' → extends d' g.
Proof.
  intros Hwf Hp Hac [Hn Hs] Hv. pose proof Hp as (Hn' & Hd & Hu). split; [done|congruence|..].
  - intros a b. by rewrite (pattern_adj d), Hs.
  - intros a b (c & Hc)%Hd. by apply Hv in Hc as (? & _).
  - intros a c b Habc%Hv. rewrite !Hd. split; [by exists b|]. exists a. by apply v_structure_sym.
Qed.

Lemma same_skeleton_refl d : same_skeleton d d.
Proof. done. Qed.

(** any two runs of rules 1-3 on patterns of equivalent DAGs give the same graph *)
Lemma rules_123_unique d1 d2 g1 g2 h1 h2 r1 r2 : wf_graph d1 → wf_graph d2 → acyclic d1 → acyclic d2 →
  same_skeleton d1 d2 → same_v_structures d1 d2 → pattern_of d1 g1 → pattern_of d2 g2 →
  (∀ i, i ∈ r1 ↔ 1 ≤ i ≤ 3) → (∀ i, i ∈ r2 ↔ 1 ≤ i ≤ 3) →
  rtc (ostep (any_pattern r1) (mnodes g1)) g1 h1 → no_rule_applies h1 r1 (mnodes g1) →
  rtc (ostep (any_pattern r2) (mnodes g2)) g2 h2 → no_rule_applies h2 r2 (mnodes g2) →
  pd_same h1 h2.
Proof.
  intros Hw1 Hw2 Ha1 Ha2 Hs Hv Hp1 Hp2 Hr1 Hr2 Hst1 Hno1 Hst2 Hno2.
  assert (∀ d g h r, wf_graph d → acyclic d → pattern_of d g → (∀ i, i ∈ r ↔ 1 ≤ i ≤ 3) →
    rtc (ostep (any_pattern r) (mnodes g)) g h → no_rule_applies h r (mnodes g) →
    orientation_of g h ∧ ∀ a b, darrow h a b ↔ meek g a b) as H.
  { intros d g h r Hw Ha Hp Hr Hst Hno.
    pose proof (pattern_wf _ _ Hw Ha Hp) as Hwg.
    destruct (osteps_orientation _ _ _ _ Hwg Hst) as [Ho Hwh]. split; [done|].
    assert (extends d g) as He by by eapply pattern_extends.
    intros a b. split.
    - eapply osteps_meek; [exact Hwg|by intros i ?%Hr|exact Hst|by apply orientation_refl|done|by constructor].
    - apply (meek_complete d); [done..| |done|].
      + eapply osteps_sound; [exact Hwg|done| |exact Hst]. intros h' x y. apply any_123_sound. by intros i ?%Hr.
      + intros i x y Hi Hu. apply Hno; [apply Hr; set_unfold; lia| |done].
        apply (pdw_und _ Hwh) in Hu as (_ & Hy & _). by rewrite (or_nodes _ _ Ho) in Hy. }
  destruct (H d1 g1 h1 r1) as [Ho1 Hm1]; [done..|].
  destruct (H d2 g2 h2 r2) as [Ho2 Hm2]; [done..|]. clear H.
  destruct Hp1 as (N1 & D1 & U1), Hp2 as (N2 & D2 & U2).
  assert (∀ a b, vdir d1 a b ↔ vdir d2 a b) as Hvd.
  { intros a b. unfold vdir. by setoid_rewrite (Hv a b _). }
  destruct Hs as [Hsn Hs].
  assert (∀ a b, darrow g1 a b ↔ darrow g2 a b) as HD by (intros; by rewrite D1, D2, Hvd).
  assert (∀ a b, uline g1 a b ↔ uline g2 a b) as HU by (intros; by rewrite U1, U2, Hs, !Hvd).
  assert (∀ a b, pd_adj g1 a b ↔ pd_adj g2 a b) as HA by (intros; unfold pd_adj; by rewrite !HD, HU).
  assert (∀ a b, meek g1 a b → meek g2 a b) as HM1.
  { intros a b. induction 1.
    - apply meek_dir. by apply HD.
    - eapply meek_1; [done|by apply HU|done|by rewrite <-HA].
    - eapply meek_2; [done|done|by apply HU].
    - eapply (meek_3 _ _ _ w z); try done; [by apply HU..|by rewrite <-HA]. }
  assert (∀ a b, meek g2 a b → meek g1 a b) as HM2.
  { intros a b. induction 1.
    - apply meek_dir. by apply HD.
    - eapply meek_1; [done|by apply HU|done|by rewrite HA].
    - eapply meek_2; [done|done|by apply HU].
    - eapply (meek_3 _ _ _ w z); try done; [by apply HU..|by rewrite HA]. }
  assert (∀ a b, darrow h1 a b ↔ darrow h2 a b) as HDD.
  { intros. rewrite Hm1, Hm2. split; auto. }
  split.
  - rewrite (or_nodes _ _ Ho1), (or_nodes _ _ Ho2). congruence.
  - intros a b. split; [done|]. by rewrite (or_und _ _ Ho1), (or_und _ _ Ho2), !HDD, HU.
Qed.

(** ** DAG.convert_to_cpdag *)
Section cpdag.
  Context (o : order) (Ho : iter_ok o).

  Lemma pd_add_tail_spec g ps t : returns (pd_add_edges o g ps t Tail) (λ g',
    mnodes g' = mnodes g ∧ (∀ a b, darrow g' a b ↔ darrow g a b) ∧
    ∀ a b, uline g' a b ↔ uline g a b ∨ (b = t ∧ a ∈ ps) ∨ (a = t ∧ b ∈ ps)).
  Proof.
    simpl. set (g1 := mupd g t Tail (mset g t Tail ∪ ps)).
    assert (∀ l h, mnodes (foldl (λ g p, madd g p Tail t) h l) = mnodes h ∧
      (∀ a b, darrow (foldl (λ g p, madd g p Tail t) h l) a b ↔ darrow h a b) ∧
      (∀ a b, uline (foldl (λ g p, madd g p Tail t) h l) a b ↔ uline h a b ∨ (a = t ∧ b ∈ l))) as H.
    { induction l as [|p l IH]; intros h; simpl.
      - split_and!; [done..|]. intros a b. rewrite elem_of_nil. tauto.
      - destruct (IH (madd h p Tail t)) as (I1 & I2 & I3). split_and!.
        + by rewrite I1.
        + intros a b. rewrite I2. unfold darrow, has_mark. rewrite elem_madd. naive_solver.
        + intros a b. rewrite I3, elem_of_cons. unfold uline, has_mark. rewrite elem_madd. naive_solver. }
    destruct (H (o 210 ps) g1) as (I1 & I2 & I3). split_and!.
    - by rewrite I1.
    - intros a b. rewrite I2. unfold darrow, has_mark, g1. rewrite elem_mupd. naive_solver.
    - intros a b. rewrite I3, iter_elem by done. unfold uline, has_mark, g1.
      rewrite elem_mupd, elem_of_union. destruct (decide (b = t)); naive_solver.
  Qed.

  Lemma cpdag_skeleton_spec d cp : (∀ n k, mset cp n k = ∅) →
    returns (for_ (o 195 (gnodes d)) (λ n cp, pd_add_edges o cp (parents d n) n Tail) cp) (λ g,
      mnodes g = mnodes cp ∧ (∀ a b, ¬ darrow g a b) ∧
      ∀ a b, uline g a b ↔ (b ∈ gnodes d ∧ edge d a b) ∨ (a ∈ gnodes d ∧ edge d b a)).
  Proof.
    intros He. eapply returns_mono.
    - apply (for_returns_pre _ _ _ (λ pre g, mnodes g = mnodes cp ∧ (∀ a b, ¬ darrow g a b) ∧
        ∀ a b, uline g a b ↔ (b ∈ pre ∧ edge d a b) ∨ (a ∈ pre ∧ edge d b a))).
      + split_and!; [done|..].
        * intros a b. unfold darrow, has_mark. rewrite He. set_solver +.
        * intros a b. unfold uline, has_mark. rewrite He, !elem_of_nil. set_solver +.
      + intros pre n post g _ (H1 & H2 & H3). eapply returns_mono; [apply pd_add_tail_spec|].
        cbn beta. intros g' (I1 & I2 & I3). split_and!.
        * congruence.
        * intros a b. by rewrite I2.
        * intros a b. rewrite I3, H3, !elem_of_app, !elem_of_list_singleton.
          unfold parents, edge. naive_solver.
    - cbn beta. intros g (H1 & H2 & H3). split_and!; [done..|]. intros a b. rewrite H3, !iter_elem by done. done.
  Qed.

  (** a fold of orientations *)
  Lemma orient_two cp i j n a b :
    (darrow (orient_edge (orient_edge cp i n) j n) a b ↔ darrow cp a b ∨ ((a = i ∨ a = j) ∧ b = n)) ∧
    (uline (orient_edge (orient_edge cp i n) j n) a b ↔
      uline cp a b ∧ ¬ ((a = i ∨ a = j) ∧ b = n) ∧ ¬ ((b = i ∨ b = j) ∧ a = n)).
  Proof. rewrite !orient_darrow, !orient_uline. split; tauto. Qed.

  (** oriented a --> b by the pairs in l *)
  Definition voriented (d : graph) (n : node) (l : list (node * node)) (a b : node) : Prop :=
    b = n ∧ ∃ i j, (i, j) ∈ l ∧ ¬ adjacent d i j ∧ (a = i ∨ a = j).

  Lemma v_fold d n l : ∀ cp, let g := foldl (λ cp '(i, j), if is_connected d i j then cp else orient_edge (orient_edge cp i n) j n) cp l in
    mnodes g = mnodes cp ∧
    (∀ a b, darrow g a b ↔ darrow cp a b ∨ voriented d n l a b) ∧
    (∀ a b, uline g a b ↔ uline cp a b ∧ ¬ voriented d n l a b ∧ ¬ voriented d n l b a).
  Proof.
    induction l as [|[i j] l IH]; intros cp; cbn zeta.
    - simpl. assert (∀ a b, ¬ voriented d n [] a b) as H.
      { intros a b (_ & i & j & Hij & _). by apply elem_of_nil in Hij. }
      split_and!; [done|..]; intros a b; pose proof (H a b); pose proof (H b a); tauto.
    - simpl. assert (∀ a b, voriented d n ((i, j) :: l) a b ↔
        (¬ adjacent d i j ∧ (a = i ∨ a = j) ∧ b = n) ∨ voriented d n l a b) as Hvo.
      { intros a b. unfold voriented. setoid_rewrite elem_of_cons. naive_solver. }
      destruct (is_connected d i j) eqn:E.
      + destruct (IH cp) as (I1 & I2 & I3). apply is_connected_spec in E.
        split_and!; [done|..]; intros a b; rewrite !Hvo; [rewrite I2; tauto|rewrite I3; tauto].
      + assert (¬ adjacent d i j) as Hn.
        { intros Hc. apply is_connected_spec in Hc. congruence. }
        destruct (IH (orient_edge (orient_edge cp i n) j n)) as (I1 & I2 & I3).
        split_and!.
        * by rewrite I1.
        * intros a b. rewrite !Hvo, I2, (proj1 (orient_two cp i j n a b)). tauto.
        * intros a b. rewrite !Hvo, I3, (proj2 (orient_two cp i j n a b)). tauto.
  Qed.

  Lemma voriented_vdir d n a b : acyclic d → voriented d n (comb2 (o 201 (parents d n))) a b ↔ b = n ∧ vdir d a b.
  Proof.
    intros Hac. unfold voriented, vdir. split.
    - intros (-> & i & j & Hij & Hn & Hab). split; [done|].
      apply comb2_iter in Hij as (Hi & Hj & Hne); [|done].
      destruct Hab as [->| ->].
      + exists j. done.
      + exists i. split_and!; [done..|congruence|]. intros ?. by apply Hn, adjacent_sym.
    - intros (-> & c & Hac' & Hcn & Hne & Hn). split; [done|].
      destruct (proj2 (comb2_iter o 201 (parents d n) a c Ho)) as [Hc|Hc]; [done..| |].
      + exists a, c. split_and!; [done..|by left].
      + exists c, a. split_and!; [done| |by right]. intros ?. by apply Hn, adjacent_sym.
  Qed.

  Lemma v_phase d cp : acyclic d →
    let g := foldl (λ cp n,
      foldl (λ cp '(i, j), if is_connected d i j then cp else orient_edge (orient_edge cp i n) j n)
        cp (comb2 (o 201 (parents d n)))) cp (o 199 (gnodes d)) in
    mnodes g = mnodes cp ∧
    (∀ a b, darrow g a b ↔ darrow cp a b ∨ (b ∈ gnodes d ∧ vdir d a b)) ∧
    (∀ a b, uline g a b ↔ uline cp a b ∧ ¬ (b ∈ gnodes d ∧ vdir d a b) ∧ ¬ (a ∈ gnodes d ∧ vdir d b a)).
  Proof.
    intros Hac. assert (∀ l cp, let g := foldl (λ cp n,
      foldl (λ cp '(i, j), if is_connected d i j then cp else orient_edge (orient_edge cp i n) j n)
        cp (comb2 (o 201 (parents d n)))) cp l in
    mnodes g = mnodes cp ∧
    (∀ a b, darrow g a b ↔ darrow cp a b ∨ (b ∈ l ∧ vdir d a b)) ∧
    (∀ a b, uline g a b ↔ uline cp a b ∧ ¬ (b ∈ l ∧ vdir d a b) ∧ ¬ (a ∈ l ∧ vdir d b a))) as H.
    { induction l as [|n l IH]; intros cp'; cbn zeta.
      - simpl. split_and!; [done|..]; intros a b; rewrite !elem_of_nil; tauto.
      - simpl. destruct (v_fold d n (comb2 (o 201 (parents d n))) cp') as (F1 & F2 & F3).
        destruct (IH (foldl (λ cp '(i, j), if is_connected d i j then cp else orient_edge (orient_edge cp i n) j n)
          cp' (comb2 (o 201 (parents d n))))) as (I1 & I2 & I3). split_and!.
        + by rewrite I1.
        + intros a b. rewrite I2, F2, voriented_vdir, elem_of_cons by done. tauto.
        + intros a b. rewrite I3, F3, !voriented_vdir, !elem_of_cons by done. tauto. }
    destruct (H (o 199 (gnodes d)) cp) as (I1 & I2 & I3). split_and!; [done|..].
    - intros a b. rewrite I2, iter_elem by done. done.
    - intros a b. rewrite I3, !iter_elem by done. done.
  Qed.

  Lemma convert_to_cpdag_steps d cp rules fuel : wf_graph d → acyclic d → mnodes cp = gnodes d →
    (∀ n k, mset cp n k = ∅) → (∀ i, i ∈ rules → 1 ≤ i ≤ 4) → size (gnodes d) * size (gnodes d) + 1 < fuel →
    returns (convert_to_cpdag o fuel d cp rules) (λ g', ∃ g, pattern_of d g ∧
      rtc (ostep (any_pattern rules) (mnodes g)) g g' ∧ no_rule_applies g' rules (mnodes g)).
  Proof.
    intros Hwf Hac Hn He Hr Hf. unfold convert_to_cpdag.
    eapply returns_bind; [apply (is_acyclic_spec o Ho d fuel Hwf)|].
    { destruct (size (gnodes d)); lia. }
    intros b Hb. assert (b = true) as -> by by apply Hb. simpl negb. cbv iota.
    eapply returns_bind; [by apply cpdag_skeleton_spec|]. cbn beta.
    intros g0 (S1 & S2 & S3). destruct (v_phase d g0 Hac) as (V1 & V2 & V3).
    match goal with |- returns (maximally_orient _ _ ?g _ _) _ => set (gp := g) in * end.
    assert (pattern_of d gp) as Hp.
    { split_and!.
      - congruence.
      - intros a b. rewrite V2. split; [intros [H|[_ H]]; [by apply S2 in H|done]|].
        intros H. right. split; [|done]. apply vdir_edge, Hwf in H as [_ ?]. done.
      - intros a b. rewrite V3, S3. split.
        + intros (H & H1 & H2). split_and!; [destruct H as [[_ ?]|[_ ?]]; [by left|by right]|..].
          * intros Hv. apply H1. split; [|done]. apply vdir_edge, Hwf in Hv as [_ ?]. done.
          * intros Hv. apply H2. split; [|done]. apply vdir_edge, Hwf in Hv as [_ ?]. done.
        + intros (H & H1 & H2). split_and!; [|tauto..]. destruct H as [H|H]; apply Hwf in H as ?; tauto. }
    eapply returns_mono; [apply (maximally_orient_steps o Ho gp rules None fuel); [by eapply pattern_wf|done|]|].
    - rewrite V1, S1, Hn. lia.
    - cbn beta. simpl. intros h [? ?]. by exists gp.
  Qed.
End cpdag.
