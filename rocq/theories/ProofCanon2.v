(** Without latent nodes the arrowheads that rules 1-3 of PAGs leave are the directed edges of the CPDAG. *)
From Verif Require Import Base BaseLemmas ModelGraph Spec ModelMixed SpecMixed ProofGraph ProofDsep ProofGraph2 ProofGraph3 ProofMixed ProofMixed2 ProofPDAG ProofPDAG2 ProofPDAG3 ProofMeek ProofVP
  ModelPC SpecPC ModelPAG SpecPAG ProofPAG ProofPAG2 ProofPAGR ProofPAGR2 ProofPAGS ModelPDS SpecPDS ModelFCI SpecFCI ProofFCI ProofFCI2 ProofCanon.

(** the arrows of the essential graph are derived by Meek's rules *)
Lemma essential_meek d : wf_graph d → acyclic d → ∃ g, pattern_of d g ∧
  ∀ a b, meek g a b ↔ adjacent d a b ∧ ∀ e, acyclic e → same_skeleton d e → same_v_structures d e → edge e a b.
Proof.
  intros Hwf Hac. set (fuel := S (S (size (gnodes d) * size (gnodes d)))). set (cp := mempty (gnodes d)).
  assert (∀ i, i ∈ [1;2;3] ↔ 1 ≤ i ≤ 3) as Hr by (intros i; set_unfold; lia).
  assert (∀ i, i ∈ [1;2;3] → 1 ≤ i ≤ 4) as Hr4 by (intros i; set_unfold; lia).
  assert (size (gnodes d) * size (gnodes d) + 1 < fuel) as Hf by (unfold fuel; lia).
  pose proof (cpdag_correct ord_up d cp [1;2;3] fuel ord_up_ok Hwf Hac eq_refl (λ _ _, eq_refl) Hr Hf) as H1.
  pose proof (convert_to_cpdag_steps ord_up ord_up_ok d cp [1;2;3] fuel Hwf Hac eq_refl (λ _ _, eq_refl) Hr4 Hf) as H2.
  pose proof (cpdag_essential ord_up d cp [1;2;3] fuel ord_up_ok Hwf Hac eq_refl (λ _ _, eq_refl) Hr Hf) as H3.
  destruct (convert_to_cpdag _ _ _ _ _) as [h| |]; [|done..]. cbn [returns] in *.
  destruct H1 as (Hwh & Hnh & Hadj & _ & _ & Hext & Hno), H2 as (g & Hp & Hst & _), H3 as (_ & HD & _).
  pose proof (pattern_wf _ _ Hwf Hac Hp) as Hwg. destruct (osteps_orientation _ _ _ _ Hwg Hst) as [Hor _].
  assert (extends d g) as Hdg by by eapply pattern_extends. assert (extends d h) as Hdh by by apply Hext.
  exists g. split; [done|]. intros a b. rewrite <-HD. split.
  - apply (meek_complete d); [done..|]. intros i x y Hi Hu. apply Hno; [apply Hr; set_unfold; lia| |done].
    apply (pdw_und _ Hwh) in Hu as (_ & Hy & _). congruence.
  - eapply osteps_meek; [exact Hwg|by intros i ?%Hr|exact Hst|by apply orientation_refl|done|by constructor].
Qed.

Section arrows.
  Context (d : graph) (Hwf : wf_graph d) (Hac : acyclic d) (m : mgraph) (Em : same_edges m d).
  Context (G : mgraph) (S : node → node → option nset) (CG : compat m G S) (W : mg_wf G) (P : paired G)
    (T1 : ¬ r1_applies G) (T2 : ¬ r2_applies G) (T3 : ¬ r3_applies G).
  Context (g : mgraph) (Hp : pattern_of d g) (Hme : ∀ a b, meek g a b → edge d a b).

  Lemma aw_adj a b : mg_adj G a b ↔ adjacent d a b.
  Proof using CG Em.
    rewrite <-(cp_adj _ _ _ CG). destruct Em as (_ & E1 & E2 & E3). split.
    - intros [k Hk]. destruct k; [by apply E3 in Hk|left; by apply E1|right; by apply E2].
    - intros [H|H]; [exists Directed; by apply E1|exists Tail; by apply E2].
  Qed.
  Lemma aw_arrow a b : has_mark G a Directed b → edge d a b.
  Proof using CG Em. intros H. destruct Em as (_ & E1 & E2 & _). apply E1. by apply (cp_marks _ _ _ CG). Qed.
  Lemma aw_tail a b : has_mark G a Tail b → edge d b a.
  Proof using CG Em. intros H. destruct Em as (_ & E1 & E2 & _). apply E2. by apply (cp_marks _ _ _ CG). Qed.
  Lemma aw_asym a b : edge d a b → ¬ edge d b a.
  Proof using Hac. intros H1 H2. apply (Hac a). eapply tc_l; [exact H1|]. by apply tc_once. Qed.
  Lemma aw_head a b : edge d a b → has_mark G a Directed b ∨ has_mark G a Circle b.
  Proof using CG Em Hac.
    intros H. assert (mg_adj G a b) as [[] Hk] by (apply aw_adj; by left); [by right|by left|]. apply aw_tail in Hk. by apply aw_asym in H.
  Qed.
  Lemma aw_foot a b : edge d a b → has_mark G b Tail a ∨ has_mark G b Circle a.
  Proof using CG Em Hac.
    intros H. assert (mg_adj G b a) as [[] Hk] by (apply aw_adj; by right); [by right| |by left]. apply aw_arrow in Hk. by apply aw_asym in H.
  Qed.
  Lemma aw_dir a b : has_mark G b Tail a → SpecPAG.dir_edge G a b.
  Proof using P. intros H. split; [by apply P|done]. Qed.
  Lemma aw_dec a b : mg_adj G a b ∨ ¬ mg_adj G a b.
  Proof using CG Em. rewrite aw_adj. unfold adjacent. destruct (edge_dec d a b), (edge_dec d b a); tauto. Qed.

  (** a *-> b o-> c: either c has an arrowhead from a or a o-o c *)
  Lemma aw_step a b c : has_mark G a Directed b → has_mark G c Circle b → has_mark G b Directed c → (has_mark G a Circle c → has_mark G b Circle a → False) → has_mark G a Directed c.
  Proof using CG Em Hac P T1 T2.
    intros Hab Hcb Hbc Hn. destruct (aw_dec a c) as [Ha|Ha]; [|exfalso; apply T1; by exists a, b, c].
    pose proof (aw_arrow _ _ Hab) as E1. pose proof (aw_arrow _ _ Hbc) as E2. apply aw_adj in Ha as [Ha|Ha].
    2: { exfalso. apply (Hac a). eapply tc_l; [exact E1|]. eapply tc_l; [exact E2|]. by apply tc_once. }
    destruct (aw_head a c Ha) as [?|Hc]; [done|]. exfalso. destruct (aw_foot a b E1) as [Ht|Ht]; [|by apply Hn].
    apply T2. exists a, b, c. split; [done|]. right. split; [by apply aw_dir|done].
  Qed.

  Lemma aw_meek a b : meek g a b → has_mark G a Directed b ∧ ∀ c, has_mark G c Circle b → has_mark G b Directed c → has_mark G a Directed c.
  Proof using All.
    induction 1 as [a b Hab|z a b Hza IH Hu Hzb Hn|a z b Haz IH1 Hzb IH2 Hu|a b w z Hu Hw Hz Hwb IHw Hzb IHz Hne Hn].
    - pose proof Hp as (_ & HD & _). apply HD in Hab as (x & H1 & H2 & Hne & Hn). pose proof Em as (_ & E1 & _).
      assert (∀ u w, u ≠ w → ¬ adjacent d u w → edge d u b → edge d w b → has_mark G u Directed b) as Hcol.
      { intros u w Huw Hnuw Hub Hwb. apply (cp_coll _ _ _ CG u b w); [done|by rewrite (cp_adj _ _ _ CG), aw_adj|]. split; by apply E1. }
      assert (has_mark G a Directed b) as Hab by by apply (Hcol a x).
      assert (has_mark G x Directed b) as Hxb by (apply (Hcol x a); [done| |done|done]; intros H; by apply Hn, adjacent_sym).
      split; [done|]. intros c Hcb Hbc. apply (aw_step a b c); [done..|]. intros Hca Hba.
      destruct (aw_dec x c) as [[[] Hk]|Hxc]; [| | |apply T1; by exists x, b, c].
      + apply T3. exists a, b, x, c. rewrite aw_adj. done.
      + apply T1. exists x, c, a. split; [done|]. split; [done|]. rewrite aw_adj. intros H. by apply Hn, adjacent_sym.
      + apply T2. exists c, x, b. split; [done|]. right. split; [by apply aw_dir|done].
    - destruct IH as [IH _]. assert (edge d a b) as E by (apply Hme; by eapply meek_1).
      destruct (aw_foot a b E) as [Ht|Hc].
      + assert (has_mark G a Directed b) as Hab by by apply P. split; [done|]. intros c Hcb Hbc. apply (aw_step a b c); [done..|].
        intros Hca Hba. by pose proof (mgw_one _ W _ _ _ _ Ht Hba).
      + exfalso. apply T1. exists z, a, b. split; [done|]. split; [done|]. by rewrite aw_adj, <-(pattern_adj d g _ _ Hwf Hp).
    - destruct IH1 as [Haz' IH1], IH2 as [Hzb' IH2]. assert (edge d a b) as E by (apply Hme; by eapply meek_2).
      assert (has_mark G a Directed b) as Hab.
      { destruct (aw_head a b E) as [?|Hc]; [done|]. destruct (aw_foot z b (aw_arrow _ _ Hzb')) as [Ht|Hcz].
        - exfalso. apply T2. exists a, z, b. split; [done|]. left. split; [done|by apply aw_dir].
        - by apply IH1. }
      split; [done|]. intros c Hcb Hbc. apply (aw_step a b c); [done..|]. intros Hca Hba.
      assert (has_mark G z Directed c) as Hzc by by apply IH2.
      destruct (aw_foot z c (aw_arrow _ _ Hzc)) as [Ht|Hcz].
      + apply T2. exists a, z, c. split; [done|]. left. split; [done|by apply aw_dir].
      + pose proof (IH1 c Hcz Hzc) as H. by pose proof (mgw_one _ W _ _ _ _ H Hca).
    - destruct IHw as [Hwb' IHw], IHz as [Hzb' IHz]. assert (edge d a b) as E by (apply Hme; by eapply (meek_3 _ _ _ w z)).
      assert (∀ u, uline g u a → mg_adj G u a ∧ ¬ vdir d u a) as HU.
      { intros u H. destruct Hp as (_ & _ & HU). apply HU in H as (? & ? & _). by rewrite aw_adj. }
      destruct (HU w Hw) as [[kw Hkw] Hvw], (HU z Hz) as [[kz Hkz] Hvz]. rewrite (pattern_adj d g _ _ Hwf Hp), <-aw_adj in Hn.
      assert (∀ x, has_mark G w Directed x → has_mark G z Directed x → has_mark G a Circle x → False) as Hx.
      { intros x H1 H2 H3. destruct kw; destruct kz;
          try (apply T2; exists a, w, x; split; [done|]; right; split; [by apply aw_dir|done]);
          try (apply T2; exists a, z, x; split; [done|]; right; split; [by apply aw_dir|done]).
        - apply T3. by exists w, x, z, a.
        - apply T1. exists z, a, w. split; [done|]. split; [done|]. intros H. apply Hn. by apply mg_adj_sym.
        - apply T1. by exists w, a, z.
        - apply Hvw. exists z. split; [by apply aw_arrow|]. split; [by apply aw_arrow|]. split; [done|]. by rewrite <-aw_adj. }
      assert (has_mark G a Directed b) as Hab by (destruct (aw_head a b E) as [?|Hc]; [done|exfalso; by apply (Hx b)]).
      split; [done|]. intros c Hcb Hbc. apply (aw_step a b c); [done..|]. intros Hca Hba. apply (Hx c); [by apply IHw|by apply IHz|done].
  Qed.
End arrows.

(** ** Rules 8-10 put tails on edges with an arrowhead at the other end *)
Lemma tails_only sep g h : mg_wf g → paired g → stale (Pany sep [8; 9; 10]) g h → paired h ∧ ∀ a b, has_mark h a Directed b ↔ has_mark g a Directed b.
Proof.
  intros W P Hst. revert W P. induction Hst as [|g h k acts H1 IH1 H2 IH2 (i & Hi & HP)]; intros W P; [done|].
  pose proof (rf_wf _ _ (stale_refines _ g h (Pany_good _ _) W H1)) as Wh. destruct (IH1 W P) as [Ph Dh]. destruct (IH2 Wh Ph) as [Pk Dk].
  pose proof (rf_wf _ _ (stale_refines _ h k (Pany_good _ _) Wh H2)) as Wk.
  assert (∃ a c, has_mark k a Directed c ∧ ¬ has_mark k c Directed a ∧ acts = [(c, a, Tail)]) as (a & c & Hac & Hca & ->).
  { rewrite !elem_of_cons, elem_of_nil in Hi. destruct Hi as [->|[->|[->|[]]]]; cbn [Pi] in HP.
    - destruct HP as (a & b & c & _ & _ & _ & Hac & Hca & ->). exists a, c. split; [done|]. split; [|done]. intros H. by pose proof (mgw_one _ Wk _ _ _ _ H Hca).
    - destruct HP as (a & b & d & c & p & Hac & Hca & _ & _ & _ & _ & _ & ->). exists a, c. rewrite !Dk. split; [done|]. split; [|done]. intros H. by pose proof (mgw_one _ Wh _ _ _ _ H Hca).
    - destruct HP as (a & b & c & d & e & f & Hac & Hca & _ & _ & _ & _ & _ & _ & _ & _ & _ & ->). exists a, c. rewrite !Dk. split; [done|]. split; [|done]. intros H. by pose proof (mgw_one _ Wh _ _ _ _ H Hca). }
  pose proof (mgw_in _ Wk _ _ _ Hac) as (_ & _ & Hne).
  unfold apply_acts, apply_act. cbn [foldl fst snd].
  assert (∀ x y, has_mark (replace_mark_ PAG_T k c a Tail) x Directed y ↔ has_mark k x Directed y) as HD.
  { intros x y. rewrite replace_mark_spec. split; [intros [(_ & _ & ?)|[_ ?]]; done|]. intros H. right. split; [|done]. intros [-> ->]. done. }
  split; [|intros x y; by rewrite HD, Dk, Dh].
  intros x y. rewrite HD, replace_mark_spec. intros [(-> & -> & _)|[_ H]]; [done|by apply Pk].
Qed.
