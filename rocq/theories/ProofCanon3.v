(** The tail rules 8-10 (rule 10 as implemented) also have one result: the learners with is_tail_completeness. *)
From Verif Require Import Base BaseLemmas Paths ModelGraph Spec ModelMixed SpecMixed ProofMixed ProofMixed2 ProofPDAG ProofPDAG2 ProofPDAG3
  ModelPC SpecPC ProofPC ModelPAG SpecPAG ProofPAG ProofPAG2 ProofPAGR ProofPAGR2 ProofPAGS ProofPAGT ProofPAGU ProofPAGX ModelPDS SpecPDS
  ModelFCI SpecFCI ProofFCI ProofFCI2 ProofFCI3 ProofFCI4 ProofFCI5 ProofCanon ProofCanon2.

(** ** Rule 10 as implemented finds its pattern *)
Definition r10_at (g : mgraph) (a b c d e f : node) : Prop :=
  has_mark g a Directed c ∧ has_mark g c Circle a ∧ dir_edge g b c ∧ dir_edge g d c ∧ b ≠ d ∧ pd_edge g a e ∧ pd_edge g a f ∧ e ≠ f ∧ ¬ mg_adj g e f ∧
  (e = b ∨ ∃ p, uncovered_path_spec g (mg_adj g) (mnodes g) a c e b p) ∧ (f = d ∨ ∃ p, uncovered_path_spec g (mg_adj g) (mnodes g) a c f d p).
Lemma r10_swap g a b c d e f : mg_wf g → r10_at g a b c d e f → r10_at g a d c b f e.
Proof.
  intros W (? & ? & ? & ? & ? & ? & ? & ? & Hn & ? & ?). split_and!; try done; [by apply not_eq_sym..|]. intros HH. by apply Hn, mg_adj_sym.
Qed.
Lemma two_elems (S : nset) x y : x ∈ S → y ∈ S → x ≠ y → 2 ≤ size S.
Proof.
  intros Hx Hy Hne. transitivity (size ({[x; y]} : nset)); [|apply subseteq_size; set_solver]. rewrite size_union, !size_singleton; [done|set_solver].
Qed.
Lemma r10_child g a b c e p : mg_wf g → a ≠ c → dir_edge g b c → (e = b ∨ uncovered_path_spec g (mg_adj g) (mnodes g) a c e b p) → e ≠ c.
Proof.
  intros W Hac [Hb _] [->|Hp].
  - by apply (mgw_in _ W) in Hb as (_ & _ & ?).
  - apply uspec_ends in Hp. rewrite !NoDup_cons in Hp. set_solver.
Qed.

Lemma rule_10_none o fuel g : iter_ok o → mg_wf g → size (mnodes g) + 1 < fuel →
  returns (pag_rule_10 o fuel g) (λ r, r.2 = false → ∀ a b c d e f, ¬ r10_at g a b c d e f).
Proof.
  intros Ho Hwf Hf. unfold pag_rule_10.
  assert (∀ a c e b, NoDup [a; c; e; b] ∨ e = b →
    returns (find_uncovered_path o fuel g a c e b None None) (λ r, r = None → e ≠ b ∧ ∀ p, ¬ uncovered_path_spec g (mg_adj g) (mnodes g) a c e b p)) as Hpath.
  { intros a c e b He. destruct (decide (e = b)) as [->|Heb].
    - unfold find_uncovered_path. destruct fuel; [lia|]. cbn [uncovered_path]. destruct (decide (b = b)); [|done]. done.
    - destruct He as [He| ->]; [|done]. eapply returns_mono; [apply (uncovered_path_ok o Ho g Hwf _ (mg_adj g) (cond_connected g Hwf))|]; [done|done| |].
      + enough (size (mnodes g ∖ {[e]}) ≤ size (mnodes g)) by (simpl; lia). apply subseteq_size. set_solver +.
      + cbn beta. intros [p|] Hp; [done|]. done. }
  set (R := λ (N : Prop) (r : option (node * node)), match r with Some _ => True | None => N end).
  eapply returns_bind; [apply (find_returns _ _ (R (∀ a b c d e f, ¬ r10_at g a b c d e f)) (λ c, ∀ a b d e f, ¬ r10_at g a b c d e f))|].
  - intros c _. cbn zeta.
    assert (∀ a b d e f, r10_at g a b c d e f → a ∈ filter (λ a, edge_is g a c Circle Directed = true) (mnodes g ∖ {[c]}) ∧
      b ∈ filter (λ a, edge_is g a c Tail Directed = true) (mnodes g ∖ {[c]}) ∧ d ∈ filter (λ a, edge_is g a c Tail Directed = true) (mnodes g ∖ {[c]})) as Hin.
    { intros a b d e f (H1 & H2 & [H3 H3'] & [H4 H4'] & _). rewrite !elem_of_filter, !edge_is_spec.
      assert (∀ x, has_mark g x Directed c → x ∈ mnodes g ∖ {[c]}) as Hx.
      { intros x Hx. apply (mgw_in _ Hwf) in Hx as (? & _ & ?). set_solver. }
      split; [|split]; (split; [done|by apply Hx]). }
    destruct (decide _) as [E|_].
    { intros a b d e f H. apply Hin in H as (H & _). apply size_empty_inv in E. set_solver. }
    destruct (decide _) as [E|_].
    { intros a b d e f H. pose proof H as (_ & _ & _ & _ & Hbd & _). apply Hin in H as (_ & H1 & H2). pose proof (two_elems _ _ _ H1 H2 Hbd). lia. }
    eapply returns_mono; [apply (find_returns _ _ (R (∀ a b d e f, ¬ r10_at g a b c d e f)) (λ a, ∀ b d e f, ¬ r10_at g a b c d e f))|by intros [[? ?]|]].
    2: { intros HN a b d e f H. apply (HN a) in H; [done|]. rewrite iter_elem by done. by apply Hin in H as (? & _). }
    intros a Ha. rewrite iter_elem, elem_of_filter, edge_is_spec in Ha by done. destruct Ha as [[Hca Hac] Ha].
    assert (a ≠ c) as Nac by set_solver.
    assert (∀ b d e f, r10_at g a b c d e f → e ∈ find_possible_children o g a (Some (mnodes g ∖ {[a; c]}))) as Hch.
    { intros b d e f (H1 & H2 & H3 & H4 & H5 & H6 & H7 & H8 & H9 & H10 & H11). rewrite elem_possible_children by done. cbn [default from_option id]. split; [|done].
      assert (e ≠ c) as Nec. { destruct H10 as [->|[p Hp]]; [eapply (r10_child g a b c b []); [done..|by left]|eapply (r10_child g a b c e p); [done..|by right]]. }
      destruct H6 as [[k H6] _]. apply (mgw_in _ Hwf) in H6 as (_ & ? & ?). set_solver. }
    destruct (decide _) as [E|_].
    { intros b d e f H. pose proof H as (_ & _ & _ & _ & _ & _ & _ & Hef & _). pose proof (Hch _ _ _ _ H) as H1. apply r10_swap in H; [|done]. pose proof (Hch _ _ _ _ H) as H2.
      pose proof (two_elems _ _ _ H1 H2 Hef). lia. }
    eapply returns_mono; [apply (find_returns _ _ (R (∀ b d e f, ¬ r10_at g a b c d e f)) (λ bd, ∀ e f, ¬ r10_at g a bd.1 c bd.2 e f))|by intros [[? ?]|]].
    2: { intros HN b d e f H. pose proof H as (_ & _ & _ & _ & Hbd & _). pose proof (Hin _ _ _ _ _ H) as (_ & H1 & H2).
         destruct (comb2_total (o 1079 (filter (λ a, edge_is g a c Tail Directed = true) (mnodes g ∖ {[c]}))) b d) as [H3|H3]; [by rewrite iter_elem|by rewrite iter_elem|done|..].
         - by apply (HN _ H3 e f).
         - apply (HN _ H3 f e). by apply r10_swap. }
    intros [b d] Hbd. apply comb2_iter in Hbd as (Hb & Hd & Hbd); [|done]. rewrite elem_of_filter, edge_is_spec in Hb, Hd.
    destruct Hb as [[Hb1 Hb2] Hb], Hd as [[Hd1 Hd2] Hd]. cbn [fst snd].
    assert (a ≠ b) as Nab. { intros ->. by pose proof (mgw_one _ Hwf _ _ _ _ Hca Hb1). }
    assert (a ≠ d) as Nad. { intros ->. by pose proof (mgw_one _ Hwf _ _ _ _ Hca Hd1). }
    eapply returns_mono; [apply (find_returns _ _ (R (∀ e f, ¬ r10_at g a b c d e f)) (λ e, ∀ f, ¬ r10_at g a b c d e f))|by intros [[? ?]|]].
    2: { intros HN e f H. apply (HN e) in H; [done|]. rewrite iter_elem by done. by eapply Hch. }
    intros e He. rewrite iter_elem, elem_possible_children in He by done. cbn [default from_option id] in He. destruct He as [He Hae].
    eapply returns_mono; [apply (find_returns _ _ (R (∀ f, ¬ r10_at g a b c d e f)) (λ f, ¬ r10_at g a b c d e f))|by intros [[? ?]|]].
    2: { intros HN f H. apply (HN f) in H; [done|]. rewrite iter_elem by done. apply r10_swap in H; [|done]. by eapply Hch. }
    intros f Hff. rewrite iter_elem, elem_possible_children in Hff by done. cbn [default from_option id] in Hff. destruct Hff as [Hff Haf].
    destruct (decide (e = f)) as [->|Hef]; [by intros (_ & _ & _ & _ & _ & _ & _ & ? & _)|].
    eapply returns_bind; [by apply m_is_connected_pag|]. cbn beta. intros x Hx. destruct x; [intros (_ & _ & _ & _ & _ & _ & _ & _ & Hn & _); by apply Hn, Hx|].
    assert (∀ u v : node, u ∈ mnodes g ∖ {[a; c]} → v ∈ mnodes g ∖ {[c]} → a ≠ v → NoDup [a; c; u; v] ∨ u = v) as Hnd.
    { intros u v Hu Hv Hav. destruct (decide (u = v)); [by right|left]. apply nodup4. clear -Hu Hv Hav Nac n. rewrite elem_of_difference, elem_of_union, !elem_of_singleton in Hu. rewrite elem_of_difference, elem_of_singleton in Hv. destruct Hu as [_ Hu], Hv as [_ Hv]. split_and!; intros ->; tauto. }
    eapply returns_bind; [apply Hpath; by apply Hnd|]. cbn beta. intros [p|] Hp.
    2: { intros (_ & _ & _ & _ & _ & _ & _ & _ & _ & H1 & _). destruct (Hp eq_refl) as [Hp1 Hp2]. destruct H1 as [?|[p ?]]; [done|by eapply Hp2]. }
    eapply returns_bind; [apply Hpath; by apply Hnd|]. cbn beta. intros [q|] Hq; [done|].
    cbn [returns]. intros (_ & _ & _ & _ & _ & _ & _ & _ & _ & _ & H1). destruct (Hq eq_refl) as [Hp1 Hp2]. destruct H1 as [?|[p' ?]]; [done|by eapply Hp2].
  - intros HN a b c d e f H. apply (HN c) in H; [done|]. rewrite iter_elem by done. destruct H as (H & _). by apply (mgw_in _ Hwf) in H as (_ & ? & _).
  - cbn beta. intros [[a c]|]; cbn [R].
    + intros _. rewrite replace_edge_mark_ok. done.
    + intros HN. cbn [returns]. intros _. exact HN.
Qed.

(** nothing is left for the tail rules *)
Definition tail_settled (g : mgraph) : Prop := ¬ r8_applies g ∧ ¬ r9_applies g ∧ ∀ a b c d e f, ¬ r10_at g a b c d e f.
Lemma tails_done o fuel sep g : iter_ok o → mg_wf g → size (mnodes g) + 1 < fuel → pag_pass o fuel sep [8; 9; 10] g = Ok (g, false) → settled [8; 9; 10] g → tail_settled g.
Proof.
  intros Ho W F E T. split; [by apply (T 8); [set_solver +|]|]. split; [by apply (T 9); [set_solver +|]|].
  unfold pag_pass in E. cbn [for_ pag_rule mbind res_bind fst snd] in E.
  pose proof (rule_8_ok o Ho g W) as H8. destruct (pag_rule_8 o g) as [[g8 b8]| |]; try done. cbn [mbind res_bind fst snd returns] in *.
  destruct H8 as [_ H8]; unfold flag in H8; cbn [fst snd] in H8; destruct H8 as [[-> _]|(-> & -> & _)]; cbn [fst snd] in *.
  { exfalso. destruct (pag_rule_9 o fuel g8) as [[g9 b9]| |]; try done. cbn [mbind res_bind fst snd orb] in E.
    destruct (pag_rule_10 o fuel g9) as [[g10 b10]| |]; try done. }
  pose proof (rule_9_ok o Ho g W fuel F) as H9. destruct (pag_rule_9 o fuel g) as [[g9 b9]| |]; try done. cbn [mbind res_bind fst snd returns] in *.
  destruct H9 as [_ H9]; unfold flag in H9; cbn [fst snd] in H9; destruct H9 as [[-> _]|(-> & -> & _)]; cbn [fst snd orb] in *.
  { exfalso. destruct (pag_rule_10 o fuel g9) as [[g10 b10]| |]; try done. }
  pose proof (rule_10_none o fuel g Ho W F) as H10. destruct (pag_rule_10 o fuel g) as [[g10 b10]| |]; try done. cbn [mbind res_bind fst snd returns] in *.
  injection E as _ ->. by apply H10.
Qed.

(** ** Confluence of the tail rules *)
(** the graphs differ in circles and tails only *)
Record same_base (g G : mgraph) : Prop := {
  sb_nodes : mnodes g = mnodes G;
  sb_adj : ∀ a b, mg_adj g a b ↔ mg_adj G a b;
  sb_arrow : ∀ a b, has_mark g a Directed b ↔ has_mark G a Directed b;
}.
Definition tails_in (g G : mgraph) : Prop := ∀ a b, has_mark g b Tail a → has_mark G b Tail a.

Lemma base_pd g G a b : paired g → paired G → same_base g G → pd_edge g a b → pd_edge G a b.
Proof.
  intros P PG [_ Ha Hd] (H1 & H2 & H3). split; [by apply Ha|]. split; [by rewrite <-Hd|]. intros H. apply PG in H. apply H2. by apply Hd.
Qed.
Lemma base_path (E E' : node → node → Prop) g G x y nx ny p : same_base g G → (∀ a b, E a b → E' a b) →
  uncovered_path_spec g E (mnodes g) x y nx ny p → uncovered_path_spec G E' (mnodes G) x y nx ny p.
Proof.
  intros [N Ha _] HE (mid & -> & H1 & H2 & H3 & H4). exists mid. rewrite <-N. split; [done|]. split; [done|]. split; [done|]. split.
  - intros l1 u v l2 E0. apply HE. by eapply H3.
  - intros l1 u v w l2 E0. rewrite <-Ha. by eapply H4.
Qed.
Lemma stale_tails sep g g' G : mg_wf g → paired g → mg_wf G → paired G → tail_settled G → same_base g G → tails_in g G →
  stale (Pany sep [8; 9; 10]) g g' → tails_in g' G.
Proof.
  intros W P WG PG (T8 & T9 & T10) B T Hst. revert W P B T. induction Hst as [|g h k acts H1 IH1 H2 IH2 (i & Hi & HP)]; intros W P B T; [done|].
  pose proof (stale_refines _ g h (Pany_good _ _) W H1) as R1. pose proof (rf_wf _ _ R1) as Wh. destruct (tails_only _ _ _ W P H1) as [Ph Dh].
  pose proof (stale_refines _ h k (Pany_good _ _) Wh H2) as R2. pose proof (rf_wf _ _ R2) as Wk. destruct (tails_only _ _ _ Wh Ph H2) as [Pk Dk].
  assert (same_base h G) as Bh.
  { destruct B as [N Ha Hd]. split; [by rewrite (rf_nodes _ _ R1)|intros a b; by rewrite (rf_adj _ _ R1)|intros a b; by rewrite Dh]. }
  specialize (IH1 W P B T). specialize (IH2 Wh Ph Bh IH1).
  assert (∀ a b, dir_edge h a b → dir_edge G a b) as HE by (intros a b [E1 E2]; split; [by apply Bh|by apply IH1]).
  assert (∀ a b, pd_edge h a b → pd_edge G a b) as HD by (intros a b; by apply base_pd).
  assert (∃ a c, acts = [(c, a, Tail)] ∧ has_mark G c Tail a) as (a & c & -> & Hca).
  { assert (∀ a c, has_mark h c Circle a → (has_mark G c Circle a → False) → has_mark G c Tail a) as Hone.
    { intros a c Hc Hno. assert (mg_adj G c a) as [[] Hk] by (apply (sb_adj _ _ Bh); by eexists); [done| |done].
      apply (sb_arrow _ _ Bh) in Hk. by pose proof (mgw_one _ Wh _ _ _ _ Hk Hc). }
    rewrite !elem_of_cons, elem_of_nil in Hi. destruct Hi as [->|[->|[->|[]]]]; cbn [Pi] in HP.
    - destruct HP as (a & b & c & Hba & _ & Hbc & Hac & Hca & ->). exists a, c. split; [done|]. apply Hone; [by apply (rf_circle _ _ R2)|]. intros Hc.
      apply T8. exists a, b, c. assert (has_mark G b Tail a) as Hba' by by apply IH1. split; [done|]. split; [left; by apply PG|]. split; [by apply HE|]. split; [|done].
      apply (sb_arrow _ _ Bh). by apply Dk.
    - destruct HP as (a & b & d & c & p & Hac & Hca & Hab & Hdc & Hn & Hbd & Hp & ->). exists a, c. split; [done|]. apply Hone; [done|]. intros Hc.
      apply T9. exists a, b, d, c, p. split; [by apply Bh|]. split; [done|]. split; [by apply HD|]. split; [by apply HD|]. split; [by rewrite <-(sb_adj _ _ Bh)|]. split; [done|].
      by eapply base_path.
    - destruct HP as (a & b & c & d & e & f & Hac & Hca & Hb & Hd & Hbd & He & Hf & Hef & Hn & Hp & Hq & ->). exists a, c. split; [done|]. apply Hone; [done|]. intros Hc.
      assert (∀ u v : node, (u = v ∨ ∃ p, uncovered_path_spec h (mg_adj h) (mnodes h) a c u v p) → u = v ∨ ∃ p, uncovered_path_spec G (mg_adj G) (mnodes G) a c u v p) as HU.
      { intros u v [?|[q Hq']]; [by left|]. right. exists q. eapply base_path; [done| |done]. intros x y. apply Bh. }
      apply (T10 a b c d e f). split; [by apply Bh|]. split; [done|]. split; [by apply HE|]. split; [by apply HE|]. split; [done|]. split; [by apply HD|]. split; [by apply HD|].
      split; [done|]. split; [by rewrite <-(sb_adj _ _ Bh)|]. split; by apply HU. }
  unfold apply_acts, apply_act. cbn [foldl fst snd]. intros x y. rewrite replace_mark_spec. intros [(-> & -> & _)|[_ H]]; [done|by apply IH2].
Qed.

(** ** The learners with tail rules *)
Notation Ptail := (Pany ∅ [8; 9; 10]).
Lemma stale_tail sep g h : stale (Pany sep [8; 9; 10]) g h → stale Ptail g h.
Proof.
  apply stale_mono. intros h' k l (i & Hi & HP). exists i. split; [done|]. rewrite !elem_of_cons, elem_of_nil in Hi. by destruct Hi as [->|[->|[->|[]]]].
Qed.
Lemma stale_keeps g h : mg_wf g → paired g → stale Ptail g h → tails_in g h.
Proof.
  intros W P Hst a b Hab. pose proof (stale_refines _ g h (Pany_good _ _) W Hst) as R. destruct (tails_only _ _ _ W P Hst) as [_ D].
  assert (mg_adj h b a) as [[] Hk] by (apply (rf_adj _ _ R); by eexists); [| |done].
  - apply (rf_circle _ _ R) in Hk. by pose proof (mgw_one _ W _ _ _ _ Hk Hab).
  - apply D in Hk. by pose proof (mgw_one _ W _ _ _ _ Hk Hab).
Qed.

Section tails.
  Context (m : mgraph) (A : ancestral m).

  (** g comes from the result of the rules 1-4 by the tail rules, which are finished if fin = true *)
  Definition tcanon (tc fin : bool) (S : node → node → option nset) (g : mgraph) : Prop :=
    ∃ g0, canon m S g0 ∧ stale Ptail g0 g ∧ (tc = false → g = g0) ∧ (fin = true → tc = true → tail_settled g).

  Lemma tcanon_unique tc S S' g g' : tcanon tc true S g → tcanon tc true S' g' → ∀ a k b, has_mark g a k b ↔ has_mark g' a k b.
  Proof.
    intros (g0 & C & Hst & Hf & Ht) (g0' & C' & Hst' & Hf' & Ht'). pose proof (canon_unique m S S' g0 g0' C C') as Hm.
    destruct tc; [|rewrite (Hf eq_refl), (Hf' eq_refl); done]. specialize (Ht eq_refl eq_refl). specialize (Ht' eq_refl eq_refl).
    assert (∀ S S' g0 g0' g g', canon m S g0 → canon m S' g0' → (∀ a k b, has_mark g0 a k b ↔ has_mark g0' a k b) → stale Ptail g0 g → stale Ptail g0' g' → tail_settled g' →
      same_base g g' ∧ mg_wf g' ∧ tails_in g g') as H.
    { clear. intros S S' g0 g0' g g' C C' Hm Hst Hst' T.
      pose proof (ca_wf _ _ _ C) as W. pose proof (ca_wf _ _ _ C') as W'. pose proof (ca_paired _ _ _ C) as P. pose proof (ca_paired _ _ _ C') as P'.
      pose proof (stale_refines _ _ _ (Pany_good _ _) W Hst) as R. pose proof (stale_refines _ _ _ (Pany_good _ _) W' Hst') as R'.
      destruct (tails_only _ _ _ W P Hst) as [Pg D]. destruct (tails_only _ _ _ W' P' Hst') as [Pg' D'].
      assert (mnodes g0 = mnodes g0') as N by (rewrite <-(cp_nodes _ _ _ (ca_compat _ _ _ C)), <-(cp_nodes _ _ _ (ca_compat _ _ _ C')); done).
      assert (∀ a b, mg_adj g0 a b ↔ mg_adj g0' a b) as Ha by (intros a b; split; intros [k Hk]; exists k; by apply Hm).
      split; [split|split].
      - by rewrite (rf_nodes _ _ R), (rf_nodes _ _ R').
      - intros a b. by rewrite (rf_adj _ _ R), (rf_adj _ _ R').
      - intros a b. by rewrite D, D', Hm.
      - apply R'.
      - apply (stale_tails ∅ g0 g g'); try done; [apply R'| |].
        + split; [by rewrite (rf_nodes _ _ R')|intros a b; by rewrite (rf_adj _ _ R')|intros a b; by rewrite D', Hm].
        + intros a b Hab. apply (stale_keeps g0' g'); [done..|]. by apply Hm. }
    destruct (H _ _ _ _ _ _ C C' Hm Hst Hst' Ht') as (B & W' & T1). destruct (H _ _ _ _ _ _ C' C (λ a k b, iff_sym (Hm a k b)) Hst' Hst Ht) as (_ & W & T2).
    assert (∀ g g', mg_wf g → mg_wf g' → same_base g g' → tails_in g g' → tails_in g' g → ∀ a k b, has_mark g a k b → has_mark g' a k b) as HX.
    { clear. intros g g' W W' [_ Ha Hd] T T' a k b Hk. destruct k; [|by apply Hd|by apply T].
      assert (mg_adj g' a b) as [[] Hk'] by (apply Ha; by eexists); [done| |].
      - apply Hd in Hk'. by pose proof (mgw_one _ W _ _ _ _ Hk Hk').
      - apply T' in Hk'. by pose proof (mgw_one _ W _ _ _ _ Hk Hk'). }
    intros a k b. split; apply HX; try done. destruct B as [N Ha Hd]. split; [done|intros ? ?; by rewrite Ha|intros ? ?; by rewrite Hd].
  Qed.

  Lemma tcanon_base tc fin S g : tcanon tc fin S g → ∃ g0, canon m S g0 ∧ mg_wf g ∧ paired g ∧ (∀ a b, mg_adj g a b ↔ mg_adj g0 a b) ∧
    ∀ a b, has_mark g a Directed b ↔ has_mark g0 a Directed b.
  Proof.
    intros (g0 & C & Hst & _). exists g0. pose proof (stale_refines _ _ _ (Pany_good _ _) (ca_wf _ _ _ C) Hst) as R.
    destruct (tails_only _ _ _ (ca_wf _ _ _ C) (ca_paired _ _ _ C) Hst) as [P D]. split; [done|]. split; [apply R|]. split; [done|]. split; [apply R|done].
  Qed.

  Lemma tail_rest o sep S sb tc fin fuel g : iter_ok o → S = sep_fun sep → separating m S → (sb = true → ∀ a b, ¬ und_edge m a b) → tcanon tc fin S g →
    size (mnodes g) * size (mnodes g) + 2 < fuel → returns (orient_rest o sb tc fuel sep g) (tcanon tc true S).
  Proof using A.
    intros Ho ES HS Hu (g0 & C & Hst & Hf & _) F. unfold orient_rest.
    pose proof (ca_wf _ _ _ C) as W0. pose proof (ca_paired _ _ _ C) as P0. pose proof (stale_refines _ _ _ (Pany_good _ _) W0 Hst) as R. destruct (tails_only _ _ _ W0 P0 Hst) as [P D].
    assert (sep_total sep g) as Tot by (eapply sep_total_refines; [exact R|]; rewrite ES in *; eapply compat_total; [apply C|done]).
    pose proof (rf_wf _ _ R) as W.
    eapply returns_bind.
    { instantiate (1 := λ h, h = g). destruct sb; [|done]. specialize (Hu eq_refl).
      eapply returns_mono; [apply pag_orient_ok; [done|done|done|done|]|]. { cbn. intros i Hi. set_unfold. unfold rule_no. lia. }
      cbn beta. intros h (Hst5 & _). cbn [default from_option returns] in *. unfold id in *. clear F Hst Hf Tot.
      revert W R P D. induction Hst5 as [|g h g' acts H1 IH1 H2 IH2 (i & Hi & HP)]; intros W R P D; [done|].
      specialize (IH1 W R P D) as ->. specialize (IH2 W R P D) as ->. exfalso.
      rewrite !elem_of_cons, elem_of_nil in Hi. destruct Hi as [->|[->|[->|[]]]]; cbn [Pi] in HP.
      - assert (∀ x y, noarrow g x y → noarrow g0 x y) as Hna by (intros x y; unfold noarrow; by rewrite (rf_adj _ _ R), !D).
        destruct HP as (a & p & b & x & y & [U1 U2 U3 U4 U5] & He & ->).
        assert (P5 g0 g0 [(x, y, Tail); (y, x, Tail)]) as HP.
        { exists a, p, b, x, y. split; [|done]. split; [| | |done|].
          - intros l1 u v l2 E. apply Hna. by eapply U1.
          - by apply Hna.
          - intros l1 u v w l2 E. rewrite <-(rf_adj _ _ R). by eapply U3.
          - destruct U5 as (x' & mid & y' & ? & ? & ?). exists x', mid, y'. by rewrite <-!(rf_adj _ _ R). }
        pose proof (sound_5 m S g0 g0 _ W0 (ca_compat _ _ _ C) (ca_compat _ _ _ C) HP) as Hs. rewrite !Forall_cons in Hs. unfold holds in Hs. cbn [fst snd] in Hs.
        apply (Hu x y). split; apply Hs.
      - destruct HP as (a & b & c & [Hab Hba] & _). pose proof (P _ _ Hab) as H. by pose proof (mgw_one _ W _ _ _ _ H Hba).
      - destruct HP as (a & b & c & H3 & H4 & _). apply P in H4. by pose proof (mgw_one _ W _ _ _ _ H3 H4). }
    cbn beta. intros h ->. destruct tc.
    - eapply returns_mono; [apply pag_orient_ok; [done|done|done|done|]|]. { cbn. intros i Hi. set_unfold. unfold rule_no. lia. }
      cbn beta. intros h (Hst8 & Hset & Hpass). cbn [default from_option returns] in *. unfold id in *. exists g0. split; [done|]. split; [|split; [done|]].
      + eapply stale_trans; [exact Hst|]. by eapply stale_tail.
      + intros _ _. pose proof (stale_refines _ _ _ (Pany_good _ _) W Hst8) as R8. apply (tails_done o fuel sep h Ho); [apply R8| |done|done]. rewrite (rf_nodes _ _ R8). nia.
    - cbn [returns]. exists g0. done.
  Qed.
End tails.

Section learners_t.
  Context (o : order) (Ho : iter_ok o) (ci : citest) (m : mgraph) (A : ancestral m) (Hci : perfect_for m ci) (sb tc : bool) (Hu : sb = true → ∀ a b, ¬ und_edge m a b).
  Notation V := (mnodes m).
  Definition otcanon (fin : bool) (s : lstate) : Prop :=
    (∀ a b, mg_adj (ls_graph s) a b → mg_adj m a b) → tcanon m tc fin (sep_fun (ls_sep s)) (ls_graph s).

  Lemma otcanon_weaken b s : otcanon true s → otcanon b s.
  Proof. intros H Hs. destruct (H Hs) as (g0 & C & Hst & Hf & Ht). exists g0. split; [done|]. split; [done|]. split; [done|]. intros _. by apply Ht. Qed.
  Lemma otcanon_false b s : otcanon b s → otcanon false s.
  Proof. intros H Hs. destruct (H Hs) as (g0 & C & Hst & Hf & _). by exists g0. Qed.
  Lemma tcanon_start S g : canon m S g → tcanon m tc false S g.
  Proof. intros C. exists g. split; [done|]. split; [constructor|done]. Qed.
  Lemma rest_tcanon fin sep fuel g : tcanon m tc fin (sep_fun sep) g → separating m (sep_fun sep) → size V * size V + 2 < fuel →
    returns (orient_rest o sb tc fuel sep g) (tcanon m tc true (sep_fun sep)).
  Proof using A Ho Hu.
    intros C HS F. apply (tail_rest m A o sep _ sb tc fin fuel g Ho eq_refl HS Hu C). destruct C as (g0 & C & Hst & _).
    rewrite (rf_nodes _ _ (stale_refines _ _ _ (Pany_good _ _) (ca_wf _ _ _ C) Hst)). by rewrite <-(cp_nodes _ _ _ (ca_compat _ _ _ C)).
  Qed.
  Lemma orient_all_t (fin : bool) f fuel s : (f = if fin then (λ sep g, g ← orient_anew o fuel sep g; orient_rest o sb tc fuel sep g) else orient_anew o fuel) →
    ls_inv ci V s → size V * size V + 2 < fuel → returns (ls_orient f s) (otcanon fin).
  Proof using A Ho Hci Hu.
    intros Hf I F. assert (keeps f fuel) as K.
    { destruct fin; rewrite Hf; [|by apply keeps_anew]. apply (keeps_seq (orient_anew o fuel) (orient_rest o sb tc fuel)); [by apply keeps_anew|by apply keeps_rest]. }
    pose proof (ls_orient_ok f fuel ci V s K I F) as H1.
    destruct (skel_dec ci m s I) as [Hs|Hs].
    2: { eapply returns_mono; [exact H1|]. cbn beta. intros t (It & _ & _ & At) Hs'. destruct Hs. intros a b Hab. by apply Hs', At. }
    pose proof (perfect_separating ci m A Hci s I Hs) as HS. unfold ls_orient.
    assert (∀ a b, mg_adj (ls_graph s) a b ↔ mg_adj m a b) as Ha by (intros a b; split; [apply Hs|by eapply perfect_adj]).
    destruct fin; rewrite Hf.
    - eapply returns_bind; [eapply returns_bind; [apply (anew_canon o Ho m A); [apply I|apply I|done|done|done]|]|].
      + cbn beta. intros h C. apply (rest_tcanon false (ls_sep s) fuel h (tcanon_start _ _ C) HS F).
      + cbn beta. intros h C. by intros _.
    - eapply returns_bind; [apply (anew_canon o Ho m A); [apply I|apply I|done|done|done]|]. cbn beta. intros h C. intros _. by apply tcanon_start.
  Qed.
  Lemma rest_ot fin fuel s : ls_inv ci V s → otcanon fin s → size V * size V + 2 < fuel → returns (ls_orient (orient_rest o sb tc fuel) s) (otcanon true).
  Proof using A Ho Hci Hu.
    intros I O F. pose proof (ls_orient_ok _ fuel ci V s (keeps_rest o sb tc fuel Ho) I F) as H1.
    destruct (skel_dec ci m s I) as [Hs|Hs].
    2: { eapply returns_mono; [exact H1|]. cbn beta. intros t (It & _ & _ & At) Hs'. destruct Hs. intros a b Hab. by apply Hs', At. }
    unfold ls_orient. eapply returns_bind; [apply (rest_tcanon fin); [by apply O|by eapply perfect_separating|done]|].
    cbn beta. intros h C. by intros _.
  Qed.

  Theorem fci_tcanon fuel : size V * size V + size V + 2 < fuel → returns (fci_learn o ci sb tc fuel V) (λ r, ls_inv ci V r.1 ∧ otcanon true r.1).
  Proof using A Ho Hci Hu.
    intros Hf. assert (returns (fci_learn o ci sb tc fuel V) (λ r, ls_inv ci V r.1)) as H1.
    { eapply returns_mono; [by apply fci_learn_ok|]. cbn beta. by intros r [I _]. }
    assert (returns (fci_learn o ci sb tc fuel V) (λ r, otcanon true r.1)) as H2.
    { unfold fci_learn. eapply returns_bind; [apply (fci_pc_ok o Ho ci V fuel); lia|]. cbn beta. intros s (I & _).
      eapply returns_bind; [apply (ls_orient_ok _ fuel ci V); [by apply keeps_v|done|lia]|]. cbn beta. intros s1 (I1 & _).
      eapply returns_bind; [apply (fci_refine_ok o Ho ci V fuel); [done|lia]|]. cbn beta. intros [s2 b] (I2 & _). cbn [fst snd] in *.
      eapply returns_bind; [apply (orient_all_t true _ fuel); [done|done|lia]|]. cbn beta. intros s3 H3. exact H3. }
    exact (returns_and _ _ _ H1 H2).
  Qed.

  Lemma icd_step_1_t fuel s : ls_inv ci V s → size V * size V + 2 < fuel →
    returns (icd_step_1 o ci sb tc fuel s) (λ r, otcanon true r.1).
  Proof using A Ho Hci Hu.
    intros I Hf. unfold icd_step_1. rewrite (li_nodes _ _ _ I). eapply returns_bind.
    - apply (for_returns _ _ _ (λ r : lstate * bool, ls_inv ci V r.1)); [done|].
      intros [i j] r Hij Ir. apply comb2_iter in Hij as (Hi & Hj & Hne); [|done].
      eapply returns_bind; [apply m_is_connected_pag; [apply Ir|done]|]. cbn beta. intros b Hb. destruct b; cbn [negb]; cbv iota; [|done].
      eapply returns_mono; [apply (icd_tests_inv ci m); [done|done|done|done|]|by intros r' (? & _)].
      intros c Hc. apply elem_uniq, elem_of_app in Hc.
      assert (∀ z u w, z ∈ find_adj PAG_T (ls_graph r.1) u None None ∖ {[w]} → z ∈ V ∧ z ≠ u ∧ z ≠ w) as Hz.
      { intros z u w. rewrite elem_of_difference, elem_of_singleton, elem_find_adj_pag. intros [[H _] ?].
        apply mg_adj_nodes in H as (? & _ & ?); [|apply Ir]. rewrite (li_nodes _ _ _ Ir) in *. done. }
      destruct Hc as [Hc|Hc]; apply combs_elem in Hc as (Hnd & _ & Hin); try done; (split; [done|]; intros z Hz'; apply Hin, Hz in Hz'; tauto).
    - cbn beta. intros [t d] It. cbn [fst snd] in *.
      eapply returns_bind; [apply (orient_all_t true _ fuel); [done|done|done]|]. cbn beta. done.
  Qed.

  Lemma icd_step_t fin fuel precalc r mm s : ls_inv ci V s → otcanon fin s → 2 ≤ r → size V * size V + size V + 2 < fuel →
    (precalc = true → ∀ i j, mg_adj (ls_graph s) i j → ∃ l, mm !! hkey i j = Some l ∧ good_sets V r i j l) →
    returns (icd_step o ci sb tc fuel precalc r mm s) (λ t, otcanon t.2 t.1).
  Proof using A Ho Hci Hu.
    intros I O Hr Hf Hm. unfold icd_step. rewrite (li_nodes _ _ _ I). eapply returns_bind.
    - apply (for_returns _ _ _ (λ r' : lstate * bool, ls_inv ci V r'.1 ∧ ls_le s r'.1 ∧ (r'.2 = true → r' = (s, true)))).
      + cbn [fst snd]. split; [done|]. split; [by intros a b|done].
      + intros [i j] r' Hij (Ir & Hle & Hs). apply comb2_iter in Hij as (Hi & Hj & Hne); [|done].
        eapply returns_bind; [apply m_is_connected_pag; [apply Ir|done]|]. cbn beta. intros b Hb. destruct b; cbn [negb]; cbv iota; [|done].
        eapply returns_bind.
        { instantiate (1 := good_sets V r i j). destruct precalc; [|apply (range_good o Ho); [apply Ir|apply Ir|done|done|done|lia]].
          destruct (Hm eq_refl i j) as (l & El & Hl); [by apply Hle, Hb|]. by rewrite El. }
        cbn beta. intros cs Hcs. eapply returns_mono; [apply (icd_tests_inv ci m); [done|done|done|done|]|].
        * intros c (x & -> & Hx)%elem_of_list_fmap. destruct (Hcs x Hx) as [Hsz Hz].
          split; [by apply iter_nodup|]. intros z Hz'. apply Hz. by apply (iter_elem o 109 _ _ Ho).
        * cbn beta. intros t (It & Hle' & Ht). split; [done|]. split; [intros a a' H; by apply Hle, Hle'|].
          intros H2. specialize (Ht H2) as ->. by apply Hs.
    - cbn beta. intros [t d] (It & Hle & Hs). cbn [fst snd] in *. destruct d.
      + specialize (Hs eq_refl). injection Hs as ->. eapply returns_bind; [by apply (rest_ot fin); [done|done|lia]|]. cbn beta. done.
      + eapply returns_bind; [apply (orient_all_t false _ fuel); [done|done|lia]|]. cbn beta. done.
  Qed.

  Lemma icd_iteration_t fuel precalc s : ic_done s = false → ls_inv ci V (ic_ls s) → (1 < ic_size s → otcanon false (ic_ls s)) →
    size V * size V + size V + 2 < fuel →
    returns (icd_iteration o ci sb tc fuel precalc s) (λ r, 1 < ic_size r.1 → otcanon (ic_done r.1) (ic_ls r.1)).
  Proof using A Ho Hci Hu.
    intros Hd Is O Hf. unfold icd_iteration. rewrite Hd. destruct (ic_size s) as [|[|r]] eqn:Er.
    - eapply returns_bind; [eapply returns_bind; [apply (icd_step_0_ok o Ho ci V); [done|lia]|]|].
      + cbn beta. intros t Ht. cbn [returns]. instantiate (1 := λ _, True). done.
      + cbn beta. intros r _. cbn [returns fst ic_size]. lia.
    - eapply returns_bind; [eapply returns_bind; [apply icd_step_1_t; [done|lia]|]|].
      + cbn beta. intros t Ht. cbn [returns]. instantiate (1 := λ r, otcanon (ic_done r) (ic_ls r)). by apply otcanon_weaken.
      + cbn beta. intros r Hr _. exact Hr.
    - eapply returns_bind; [eapply returns_bind|].
      + instantiate (1 := λ mm, precalc = true → ∀ i j, mg_adj (ls_graph (ic_ls s)) i j → ∃ l, mm !! hkey i j = Some l ∧ good_sets V (S (S r)) i j l).
        destruct precalc; [|done]. eapply returns_mono; [apply (pre_calc_ok o Ho V); [apply Is|apply Is|lia|lia]|]. cbn beta. intros mm Hm _. exact Hm.
      + cbn beta. intros mm Hm. eapply returns_bind; [apply (icd_step_t false fuel precalc (S (S r)) mm); [done|apply O; lia|lia|done|done]|].
        cbn beta. intros t Ht. cbn [returns]. instantiate (1 := λ r, otcanon (ic_done r) (ic_ls r)). exact Ht.
      + cbn beta. intros t Ht _. exact Ht.
  Qed.

  Lemma icd_loop_t fuel precalc : size V * size V + size V + 2 < fuel → ∀ n s, ic_done s = false → icd_inv ci V s →
    (1 < ic_size s → otcanon false (ic_ls s)) → ic_size s < 2 `max` size V → 2 `max` size V ≤ n + ic_size s →
    returns (icd_loop o ci sb tc fuel precalc n s) (λ t, 1 < ic_size t → otcanon true (ic_ls t)).
  Proof using A Ho Hci Hu.
    intros Hf n. induction n as [|n IH]; intros s Hd I O Hr Hn; [lia|]. cbn [icd_loop].
    eapply returns_bind; [apply (returns_and _ _ _ (icd_iteration_inv o Ho ci V sb tc fuel precalc s Hd I Hf) (icd_iteration_t fuel precalc s Hd (ii_inv _ _ _ I) O Hf))|].
    cbn beta. intros [t [d k]] ((It & Hle & Hsz & Hr' & _ & Hd0 & Hmore) & Ot). cbn [fst snd] in *.
    injection Hr' as -> ->. destruct (ic_done t) eqn:Edt; [done|]. apply IH; [done|done|done|rewrite Hsz; by apply Hmore|lia].
  Qed.

  Theorem icd_tcanon fuel precalc : size V * size V + size V + 2 < fuel →
    returns (icd_learn o ci sb tc fuel precalc (icd_init o V)) (λ t, ls_inv ci V (ic_ls t) ∧ otcanon true (ic_ls t)).
  Proof using A Ho Hci Hu.
    intros Hf. assert (size V ≤ size V * size V) by (destruct (size V); lia).
    assert (returns (icd_learn o ci sb tc fuel precalc (icd_init o V)) (λ t, 1 < ic_size t → otcanon true (ic_ls t))) as H2.
    { unfold icd_learn. change (IcdState _ _ false 0) with (icd_init o V).
      apply icd_loop_t; [done|done|by apply icd_init_inv|cbn; lia|cbn; lia|cbn; lia]. }
    eapply returns_mono; [apply (returns_and _ _ _ (icd_learn_ok o Ho ci V sb tc fuel precalc Hf) H2)|]. cbn beta. intros t ((It & _ & Hs) & O).
    split; [apply It|apply O; lia].
  Qed.
End learners_t.
