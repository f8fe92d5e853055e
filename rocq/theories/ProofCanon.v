(** The collider step and the rules 1-4 have one result: it does not depend on the iteration orders, nor on which separating sets are known. *)
From Verif Require Import Base BaseLemmas Paths ModelGraph Spec ModelMixed SpecMixed ProofMixed ProofMixed2 ProofPDAG ProofPDAG2 ProofPDAG3
  ModelPC SpecPC ProofPC ModelPAG SpecPAG ProofPAG ProofPAG2 ProofPAGR ProofPAGR2 ProofPAGS ProofPAGT ProofPAGU ProofPAGX ModelPDS SpecPDS
  ModelFCI SpecFCI ProofFCI ProofFCI2 ProofFCI3 ProofFCI4 ProofFCI5.

(** every tail has an arrowhead at the other end *)
Definition paired (g : mgraph) : Prop := ∀ a b, has_mark g b Tail a → has_mark g a Directed b.
(** the arrowheads and tails of g are in G *)
Definition below (g G : mgraph) : Prop := ∀ a k b, k ≠ Circle → has_mark g a k b → has_mark G a k b.

Lemma paired_arrow g s t : paired g → paired (replace_mark_ PAG_T g s t Directed).
Proof.
  intros P a b. rewrite !replace_mark_spec. intros [(_ & _ & ?)|[Hne H]]; [done|]. apply P in H.
  destruct (decide (a = s ∧ b = t)) as [[-> ->]|?]; [by left|by right].
Qed.
Lemma paired_edge g b c : b ≠ c → paired g → paired (replace_mark_ PAG_T (replace_mark_ PAG_T g c b Tail) b c Directed) ∧
  paired (replace_mark_ PAG_T (replace_mark_ PAG_T g b c Directed) c b Tail).
Proof.
  intros Hne P. split; intros x y; rewrite !replace_mark_spec.
  - intros [(_ & _ & ?)|[H1 [(-> & -> & _)|[H2 H]]]]; [done|by left|]. apply P in H.
    destruct (decide (x = b ∧ y = c)) as [[-> ->]|H3]; [by left|]. right. split; [done|]. right. split; [|done]. naive_solver.
  - intros [(-> & -> & _)|[H1 [(_ & _ & ?)|[H2 H]]]]; [|done|].
    + right. split; [naive_solver|]. by left.
    + apply P in H. right. split; [naive_solver|]. destruct (decide (x = b ∧ y = c)) as [[-> ->]|H3]; [by left|]. by right.
Qed.
Lemma paired_acts sep i h k acts : mg_wf h → i ∈ [1; 2; 3; 4] → Pi sep i h k acts → paired k → paired (apply_acts k acts).
Proof.
  intros W Hi HP P. rewrite !elem_of_cons, elem_of_nil in Hi. destruct Hi as [->|[->|[->|[->|[]]]]]; cbn [Pi] in HP.
  - destruct HP as (a & b & c & _ & Hc & _ & ->). apply (mgw_in _ W) in Hc as (_ & _ & Hne). unfold apply_acts, apply_act. cbn [foldl fst snd]. exact (proj1 (paired_edge k b c (not_eq_sym Hne) P)).
  - destruct HP as (a & b & c & _ & _ & ->). unfold apply_acts, apply_act. cbn [foldl fst snd]. by apply paired_arrow.
  - destruct HP as (a & b & c & d & _ & _ & _ & _ & _ & _ & _ & ->). unfold apply_acts, apply_act. cbn [foldl fst snd]. by apply paired_arrow.
  - destruct HP as (d & q & a & b & c & Z & Hc & _ & _ & _ & [[_ ->]|[_ ->]]); apply (mgw_in _ W) in Hc as (_ & _ & Hne); unfold apply_acts, apply_act; cbn [foldl fst snd].
    + exact (proj2 (paired_edge k b c (not_eq_sym Hne) P)).
    + by do 4 apply paired_arrow.
Qed.

Section canon.
  Context (m : mgraph) (A : ancestral m).

  (** G: what any other run ends with *)
  Section top.
  Context (G : mgraph) (S' : node → node → option nset) (CG : compat m G S') (WG : mg_wf G) (PG : paired G)
    (T1 : ¬ r1_applies G) (T2 : ¬ r2_applies G) (T3 : ¬ r3_applies G) (T4 : ¬ r4_applies G).

  Lemma top_mark s k t : has_mark m s k t → ¬ has_mark G s Circle t → has_mark G s k t.
  Proof using CG A.
    intros Hm Hc. assert (mg_adj G s t) as [k' Hk] by (apply (cp_adj _ _ _ CG); by exists k).
    destruct (decide (k' = Circle)) as [->|Hne]; [done|]. pose proof (cp_marks _ _ _ CG _ _ _ Hne Hk) as Hm'. by rewrite (mgw_one _ (an_wf _ A) _ _ _ _ Hm Hm').
  Qed.
  Lemma top_case s t : mg_adj G s t → ¬ has_mark G s Circle t → has_mark G s Directed t ∨ has_mark G s Tail t.
  Proof. intros [[] Hk] Hc; [done|by left|by right]. Qed.

  Lemma top_acts S sep i h k acts : S = sep_fun sep → mg_wf h → compat m h S → compat m k S → below h G → below k G → i ∈ [1; 2; 3; 4] → Pi sep i h k acts →
    Forall (λ x : act, has_mark G x.1.1 x.2 x.1.2) acts.
  Proof using All.
    intros ES Wh Ch Ck Bh Bk Hi HP. assert (∀ a b, mg_adj h a b ↔ mg_adj G a b) as Hadj by (intros a b; rewrite <-(cp_adj _ _ _ Ch); apply CG).
    assert (∀ a b, mg_adj k a b ↔ mg_adj G a b) as Hadjk by (intros a b; rewrite <-(cp_adj _ _ _ Ck); apply CG).
    assert (Forall (holds m) acts) as Hs.
    { apply (sound_any m S sep [1;2;3;4] ES) with h k; [intros j Hj; set_unfold; lia|done..|]. by exists i. }
    assert (∀ a b, has_mark h a Directed b → has_mark G a Directed b) as Dh by (intros a b; by apply Bh).
    assert (∀ a b, has_mark k a Directed b → has_mark G a Directed b) as Dk by (intros a b; by apply Bk).
    assert (∀ a b, SpecPAG.dir_edge k a b → SpecPAG.dir_edge G a b) as Ek by (intros a b [H1 H2]; split; [by apply Bk|by apply Bk]).
    rewrite !elem_of_cons, elem_of_nil in Hi. destruct Hi as [->|[->|[->|[->|[]]]]]; cbn [Pi] in HP.
    - destruct HP as (a & b & c & H1 & H2 & H3 & ->). rewrite !Forall_cons in Hs. destruct Hs as (Hs1 & Hs2 & _). unfold holds in *. cbn [fst snd] in *.
      assert (has_mark G c Tail b) as Ht. { apply top_mark; [done|]. intros Hc. apply T1. exists a, b, c. rewrite <-Hadj. auto. }
      rewrite !Forall_cons. cbn [fst snd]. split; [done|]. split; [by apply PG|done].
    - destruct HP as (a & b & c & H1 & H2 & ->). rewrite Forall_singleton in Hs. unfold holds in Hs. cbn [fst snd] in *. rewrite Forall_singleton. cbn [fst snd].
      apply top_mark; [done|]. intros Hc. apply T2. exists a, b, c. split; [done|]. destruct H2 as [[? ?]|[? ?]]; [left|right]; auto.
    - destruct HP as (a & b & c & d & H1 & H2 & H3 & H4 & H5 & H6 & H7 & ->). rewrite Forall_singleton in Hs. unfold holds in Hs. cbn [fst snd] in *. rewrite Forall_singleton. cbn [fst snd].
      apply top_mark; [done|]. intros Hc.
      (* d is no collider between a and c *)
      assert (¬ (has_mark m a Directed d ∧ has_mark m c Directed d)) as Hn.
      { intros Hcol. assert (¬ mg_adj m a c) as Hac by (by rewrite (cp_adj _ _ _ Ch)). pose proof (cp_coll _ _ _ Ch a d c H5 Hac Hcol) as Hd.
        by pose proof (mgw_one _ Wh _ _ _ _ Hd H3). }
      (* neither edge is directed away from d, by rule 2 *)
      assert (∀ u, (u = a ∨ u = c) → ¬ has_mark G u Tail d) as Hx.
      { intros u Hu Ht. apply T2. exists d, u, b. split; [done|]. right. split; [split; [by apply PG|done]|]. destruct Hu as [-> | ->]; by apply Dh. }
      (* an arrowhead at d would give a tail at the other edge, by rule 1 *)
      assert (∀ u w, (u = a ∧ w = c) ∨ (u = c ∧ w = a) → has_mark G u Directed d → False) as Hy.
      { intros u w Huw Hd. assert (mg_adj G w d) as Hw by (apply Hadj; destruct Huw as [[-> ->]|[-> ->]]; by eexists).
        assert (¬ mg_adj G u w) as Hnw. { rewrite <-Hadj. destruct Huw as [[-> ->]|[-> ->]]; [done|]. intros H. apply H6. by apply mg_adj_sym. }
        destruct (top_case w d Hw) as [H|H].
        - intros H. apply T1. by exists u, d, w.
        - apply Hn. destruct Huw as [[-> ->]|[-> ->]]; split; by apply (cp_marks _ _ _ CG).
        - apply (Hx w); [naive_solver|done]. }
      assert (∀ u w, (u = a ∧ w = c) ∨ (u = c ∧ w = a) → has_mark G u Circle d) as Hz.
      { intros u w Huw. assert (mg_adj G u d) as [k' Hk'] by (apply Hadj; destruct Huw as [[-> ->]|[-> ->]]; by eexists).
        destruct k'; [done|exfalso; by apply (Hy u w)|exfalso; apply (Hx u); [naive_solver|done]]. }
      apply T3. exists a, b, c, d. split; [by apply Dh|]. split; [by apply Dh|]. split; [apply (Hz a c); naive_solver|]. split; [apply (Hz c a); naive_solver|]. split; [done|].
      split; [by rewrite <-Hadj|done].
    - destruct HP as (d & q & a & b & c & Z & Hc & D & Hl & _ & HA).
      assert (discriminating G d q b c) as DG.
      { destruct D as [D1 D2 D3 D4 D5 D6]. split; [done|done|..].
        - intros l1 u v l2 E. apply Hadjk. by eapply D3.
        - by rewrite <-Hadjk.
        - intros v Hv. by apply Ek, D5.
        - intros l1 u v w l2 E. destruct (D6 l1 u v w l2 E). auto. }
      assert (¬ has_mark G c Circle b) as N1 by (intros H; apply T4; by exists d, q, b, c).
      pose proof (disc_last_arrow _ _ _ _ _ _ DG Hl) as Hba. pose proof (disc_last_par _ _ _ _ _ _ DG Hl) as Hac.
      assert (¬ has_mark G b Circle c) as N2 by (intros H; apply T2; exists b, a, c; split; [done|]; by left).
      destruct HA as [[_ ->]|[_ ->]]; rewrite !Forall_cons in Hs |- *; unfold holds in Hs; cbn [fst snd] in *.
      + destruct Hs as (Hs1 & Hs2 & _). split; [by apply top_mark|]. split; [by apply top_mark|done].
      + destruct Hs as (Hs1 & Hs2 & Hs3 & Hs4 & _). assert (has_mark G c Directed b) as Hcb by by apply top_mark.
        split; [done|]. split; [|split; [by apply top_mark|done]]. apply top_mark; [done|]. intros H. apply T2. exists a, c, b. split; [done|]. by right.
  Qed.

  Lemma below_act g s k t : has_mark G s k t → below g G → below (replace_mark_ PAG_T g s t k) G.
  Proof. intros H B a j b Hj. rewrite replace_mark_spec. intros [(-> & -> & ->)|[_ Hm]]; [done|by apply B]. Qed.
  Lemma below_acts acts : ∀ g, Forall (λ x : act, has_mark G x.1.1 x.2 x.1.2) acts → below g G → below (apply_acts g acts) G.
  Proof.
    induction acts as [|[[s t] k] acts IH]; intros g Hall B; [done|]. apply Forall_cons in Hall as [Hx Hl]. cbn [fst snd] in Hx.
    change (apply_acts g ((s, t, k) :: acts)) with (apply_acts (replace_mark_ PAG_T g s t k) acts). apply IH; [done|]. by apply below_act.
  Qed.
  Lemma stale_below sep g g' : mg_wf g → compat m g (sep_fun sep) → below g G → stale (Pany sep [1; 2; 3; 4]) g g' → below g' G.
  Proof using All.
    intros W C B Hst. revert W C B. induction Hst as [|g h g' acts H1 IH1 H2 IH2 HPh]; intros W C B; [done|].
    assert (sound m (sep_fun sep) (Pany sep [1;2;3;4])) as Hsd by (apply sound_any; [done|]; intros j Hj; set_unfold; lia).
    pose proof (stale_sound m _ _ g h (Pany_good _ _) W Hsd C H1) as Ch. pose proof (rf_wf _ _ (stale_refines _ g h (Pany_good _ _) W H1)) as Wh.
    pose proof (stale_sound m _ _ h g' (Pany_good _ _) Wh Hsd Ch H2) as Cg. specialize (IH1 W C B). specialize (IH2 Wh Ch IH1).
    apply below_acts; [|done]. destruct HPh as (i & Hi & HP). by apply (top_acts (sep_fun sep) sep i h g' acts).
  Qed.
  End top.

  Lemma stale_paired sep g g' : mg_wf g → paired g → stale (Pany sep [1; 2; 3; 4]) g g' → paired g'.
  Proof.
    intros W P Hst. revert W P. induction Hst as [|g h g' acts H1 IH1 H2 IH2 (i & Hi & HP)]; intros W P; [done|].
    pose proof (rf_wf _ _ (stale_refines _ g h (Pany_good _ _) W H1)) as Wh. specialize (IH1 W P). specialize (IH2 Wh IH1). by apply (paired_acts sep i h).
  Qed.

  (** g is what every run comes to *)
  Record canon (S : node → node → option nset) (g : mgraph) : Prop := {
    ca_wf : mg_wf g;
    ca_compat : compat m g S;
    ca_paired : paired g;
    ca_settled : settled [1; 2; 3; 4] g;
    ca_least : ∀ G S', compat m G S' → mg_wf G → paired G → settled [1; 2; 3; 4] G → below g G;
  }.

  Lemma canon_unique S S' g g' : canon S g → canon S' g' → ∀ a k b, has_mark g a k b ↔ has_mark g' a k b.
  Proof.
    assert (∀ S S' g g', canon S g → canon S' g' → ∀ a k b, has_mark g a k b → has_mark g' a k b) as H; [|intros C C'; split; by eapply H].
    clear. intros S S' g g' C C' a k b Hk. destruct (decide (k = Circle)) as [->|Hne].
    - assert (mg_adj g' a b) as [k' Hk'].
      { apply (cp_adj _ _ _ (ca_compat _ _ C')). apply (cp_adj _ _ _ (ca_compat _ _ C)). by eexists. }
      destruct (decide (k' = Circle)) as [->|Hne]; [done|]. destruct C' as [W1 C1 P1 T1 L1], C as [W2 C2 P2 T2 L2].
      pose proof (L1 g S C2 W2 P2 T2 a k' b Hne Hk') as H. exfalso. apply Hne. by apply (mgw_one _ W2 a k' Circle b).
    - destruct C' as [W1 C1 P1 T1 L1], C as [W2 C2 P2 T2 L2]. by apply (L2 g' S').
  Qed.

  Lemma canon_rules o sep fuel g rules : (∀ i, i ∈ rules ↔ i ∈ [1; 2; 3; 4]) → iter_ok o → mg_wf g → reflects m g → (∀ a k b, has_mark g a k b → k = Circle) → separating m (sep_fun sep) →
    size (mnodes g) * size (mnodes g) + 2 < fuel → returns (h ← pag_v_structures o g sep; pag_orient o fuel sep h (Some rules)) (canon (sep_fun sep)).
  Proof using A.
    intros Hr Ho W R Hc HS F. assert (sep_total sep g) as Ht by (eapply separating_total; [apply R|apply R|done]).
    eapply returns_bind; [apply (returns_and _ _ _ (v_structures_compat o Ho sep m g A W R HS) (v_structures_ok o Ho sep g W Ht))|]. cbn beta. intros h ((Wh & Ch) & _ & H2 & H3 & H4 & H5).
    assert (sep_total sep h) as Ht' by (by eapply compat_total). assert (mnodes h = mnodes g) as En by done.
    eapply returns_mono; [apply pag_orient_ok; [done|done|done|by rewrite En|]|]. { cbn. intros i Hi. apply Hr in Hi. set_unfold. unfold rule_no. lia. }
    cbn beta. intros k (Hst0 & Hset0 & _). cbn [default from_option] in *. unfold id in *.
    assert (stale (Pany sep [1;2;3;4]) h k) as Hst by (eapply stale_mono; [|exact Hst0]; intros h' k' l (i & Hi & HP); exists i; split; [by apply Hr|done]).
    assert (settled [1;2;3;4] k) as Hset by (intros i Hi; apply Hset0; by apply Hr).
    assert (paired h) as Ph. { intros a b Hab. apply H5 in Hab as [Hab _]; [|done]. by apply Hc in Hab. }
    assert (sound m (sep_fun sep) (Pany sep [1;2;3;4])) as Hsd by (apply sound_any; [done|]; intros j Hj; set_unfold; lia).
    split.
    - exact (rf_wf _ _ (stale_refines _ h k (Pany_good _ _) Wh Hst)).
    - exact (stale_sound m _ _ h k (Pany_good _ _) Wh Hsd Ch Hst).
    - by eapply stale_paired.
    - done.
    - intros G S' CG WG PG TG. apply (stale_below G S' CG WG PG) with sep h; try done.
      1: apply (TG 1); [set_solver +|done]. 1: apply (TG 2); [set_solver +|done]. 1: apply (TG 3); [set_solver +|done]. 1: apply (TG 4); [set_solver +|done].
      intros a j b Hj Hab. destruct (decide (j = Directed)) as [->|Hne]; [|apply H5 in Hab as [Hab _]; [|done]; by apply Hc in Hab].
      apply H4 in Hab as [Hab|Hab]; [by apply Hc in Hab|]. apply (sep_coll_m sep m g A R HS) in Hab as (c & Hac & Hn & Hcol). by apply (cp_coll _ _ _ CG a b c).
  Qed.

  Lemma canon_base o sep fuel g : iter_ok o → mg_wf g → reflects m g → (∀ a k b, has_mark g a k b → k = Circle) → separating m (sep_fun sep) →
    size (mnodes g) * size (mnodes g) + 2 < fuel → returns (orient_base o fuel sep g) (canon (sep_fun sep)).
  Proof using A. by apply canon_rules. Qed.

  Lemma canon_rest o sep S sb fuel g : iter_ok o → S = sep_fun sep → separating m S → (sb = true → ∀ a b, ¬ und_edge m a b) → canon S g → size (mnodes g) * size (mnodes g) + 2 < fuel →
    returns (orient_rest o sb false fuel sep g) (λ h, h = g).
  Proof using A.
    intros Ho ES HS Hu [W C P T L] F. unfold orient_rest. destruct sb; [|done]. specialize (Hu eq_refl).
    eapply returns_bind; [apply pag_orient_ok; [done|done|rewrite ES in *; by eapply compat_total|done|]|]. { cbn. intros i Hi. set_unfold. unfold rule_no. lia. }
    cbn beta. intros h (Hst & _). cbn [default from_option returns] in *. unfold id in *. clear T L F.
    revert W C P. induction Hst as [|g h g' acts H1 IH1 H2 IH2 (i & Hi & HP)]; intros W C P; [done|].
    specialize (IH1 W C P) as ->. specialize (IH2 W C P) as ->. exfalso.
    rewrite !elem_of_cons, elem_of_nil in Hi. destruct Hi as [->|[->|[->|[]]]]; cbn [Pi] in HP.
    - pose proof (sound_5 m S g g acts W C C HP) as Hs. destruct HP as (a & p & b & x & y & _ & _ & ->). rewrite !Forall_cons in Hs. unfold holds in Hs. cbn [fst snd] in Hs.
      apply (Hu x y). split; apply Hs.
    - destruct HP as (a & b & c & [Hab Hba] & _). apply (Hu a b). split; by apply (cp_marks _ _ _ C).
    - destruct HP as (a & b & c & H3 & H4 & _). apply P in H4. by pose proof (mgw_one _ W _ _ _ _ H3 H4).
  Qed.
End canon.

Section learners.
  Context (o : order) (Ho : iter_ok o) (ci : citest) (m : mgraph) (A : ancestral m) (Hci : perfect_for m ci) (sb : bool) (Hu : sb = true → ∀ a b, ¬ und_edge m a b).
  Notation V := (mnodes m).
  Definition ocanon (s : lstate) : Prop :=
    (∀ a b, mg_adj (ls_graph s) a b → mg_adj m a b) → canon m (sep_fun (ls_sep s)) (ls_graph s).

  Lemma anew_canon sep fuel g : mg_wf g → mnodes g = V → (∀ a b, mg_adj g a b ↔ mg_adj m a b) → separating m (sep_fun sep) → size V * size V + 2 < fuel →
    returns (orient_anew o fuel sep g) (canon m (sep_fun sep)).
  Proof using A Ho.
    intros W N Ha HS F. unfold orient_anew. eapply returns_bind; [by apply reset_adj|]. cbn beta. intros h (N' & W' & A' & M).
    apply canon_base; [done|done|done|..].
    - split; [congruence|intros a b; by rewrite A', Ha|]. intros a k b Hk Hm. apply M in Hm as [_ ->]. done.
    - intros a k b Hm. by apply M in Hm as [_ ->].
    - done.
    - by rewrite N', N.
  Qed.
  Lemma rest_canon sep fuel g : canon m (sep_fun sep) g → separating m (sep_fun sep) → size V * size V + 2 < fuel →
    returns (orient_rest o sb false fuel sep g) (canon m (sep_fun sep)).
  Proof using A Ho Hu.
    intros C HS F. eapply returns_mono; [apply (canon_rest m A o sep _ sb fuel g Ho eq_refl HS Hu C); by rewrite <-(cp_nodes _ _ _ (ca_compat _ _ _ C))|]. cbn beta. by intros h ->.
  Qed.
  Lemma orient_all_canon f fuel s : (f = orient_anew o fuel ∨ f = λ sep g, g ← orient_anew o fuel sep g; orient_rest o sb false fuel sep g) →
    ls_inv ci V s → size V * size V + 2 < fuel → returns (ls_orient f s) ocanon.
  Proof using A Ho Hci Hu.
    intros Hf I F. assert (keeps f fuel) as K.
    { destruct Hf as [-> | ->]; [by apply keeps_anew|]. apply (keeps_seq (orient_anew o fuel) (orient_rest o sb false fuel)); [by apply keeps_anew|by apply keeps_rest]. }
    pose proof (ls_orient_ok f fuel ci V s K I F) as H1.
    destruct (skel_dec ci m s I) as [Hs|Hs].
    2: { eapply returns_mono; [exact H1|]. cbn beta. intros t (It & _ & _ & At) Hs'. destruct Hs. intros a b Hab. by apply Hs', At. }
    pose proof (perfect_separating ci m A Hci s I Hs) as HS. unfold ls_orient.
    assert (∀ a b, mg_adj (ls_graph s) a b ↔ mg_adj m a b) as Ha by (intros a b; split; [apply Hs|by eapply perfect_adj]).
    destruct Hf as [-> | ->].
    - eapply returns_bind; [apply anew_canon; [apply I|apply I|done|done|done]|]. cbn beta. intros h C. by intros _.
    - eapply returns_bind; [eapply returns_bind; [apply anew_canon; [apply I|apply I|done|done|done]|]|].
      + cbn beta. intros h C. apply (rest_canon (ls_sep s) fuel h C HS F).
      + cbn beta. intros h C. by intros _.
  Qed.
  Lemma rest_ocanon fuel s : ls_inv ci V s → ocanon s → size V * size V + 2 < fuel → returns (ls_orient (orient_rest o sb false fuel) s) ocanon.
  Proof using A Ho Hci Hu.
    intros I O F. pose proof (ls_orient_ok _ fuel ci V s (keeps_rest o sb false fuel Ho) I F) as H1.
    destruct (skel_dec ci m s I) as [Hs|Hs].
    2: { eapply returns_mono; [exact H1|]. cbn beta. intros t (It & _ & _ & At) Hs'. destruct Hs. intros a b Hab. by apply Hs', At. }
    unfold ls_orient. eapply returns_bind; [apply rest_canon; [by apply O|by eapply perfect_separating|done]|].
    cbn beta. intros h C. by intros _.
  Qed.

  Theorem fci_canon fuel : size V * size V + size V + 2 < fuel → returns (fci_learn o ci sb false fuel V) (λ r, ls_inv ci V r.1 ∧ ocanon r.1).
  Proof using A Ho Hci Hu.
    intros Hf. assert (returns (fci_learn o ci sb false fuel V) (λ r, ls_inv ci V r.1)) as H1.
    { eapply returns_mono; [by apply fci_learn_ok|]. cbn beta. by intros r [I _]. }
    assert (returns (fci_learn o ci sb false fuel V) (λ r, ocanon r.1)) as H2.
    { unfold fci_learn. eapply returns_bind; [apply (fci_pc_ok o Ho ci V fuel); lia|]. cbn beta. intros s (I & _).
      eapply returns_bind; [apply (ls_orient_ok _ fuel ci V); [by apply keeps_v|done|lia]|]. cbn beta. intros s1 (I1 & _).
      eapply returns_bind; [apply (fci_refine_ok o Ho ci V fuel); [done|lia]|]. cbn beta. intros [s2 b] (I2 & _). cbn [fst snd] in *.
      eapply returns_bind; [apply (orient_all_canon _ fuel); [by right|done|lia]|]. cbn beta. intros s3 H3. exact H3. }
    exact (returns_and _ _ _ H1 H2).
  Qed.

  Lemma icd_step_1_canon fuel s : ls_inv ci V s → size V * size V + 2 < fuel →
    returns (icd_step_1 o ci sb false fuel s) (λ r, ocanon r.1).
  Proof using A Ho Hci Hu.
    intros I Hf. unfold icd_step_1. rewrite (li_nodes _ _ _ I). eapply returns_bind.
    - apply (for_returns _ _ _ (λ r : lstate * bool, ls_inv ci V r.1)); [done|].
      intros [i j] r Hij Ir. apply comb2_iter in Hij as (Hi & Hj & Hne); [|done].
      eapply returns_bind; [apply m_is_connected_pag; [apply Ir|done]|]. cbn beta. intros b Hb. destruct b; cbn [negb]; cbv iota; [|done].
      eapply returns_mono; [apply (icd_tests_inv ci m); [done|done|done|done|]|by intros r' (? & _)].
      intros c Hc. apply elem_uniq, elem_of_app in Hc.
      assert (∀ z u w, z ∈ find_adj PAG_T (ls_graph r.1) u None None ∖ {[w]} → z ∈ V ∧ z ≠ u ∧ z ≠ w) as Hz.
      { intros z u w. rewrite elem_of_difference, elem_of_singleton, elem_find_adj_pag. intros [[H _] ?].
        apply mg_adj_nodes in H as (? & _ & ?); [|apply Ir]. rewrite (li_nodes _ _ _ Ir) in *. done. }
      destruct Hc as [Hc|Hc]; apply combs_elem in Hc as (Hnd & _ & Hin); try done; (split; [done|]; intros z Hz'; apply Hin, Hz in Hz'; tauto).
    - cbn beta. intros [t d] It. cbn [fst snd] in *.
      eapply returns_bind; [apply (orient_all_canon _ fuel); [by right|done|done]|]. cbn beta. done.
  Qed.

  Lemma icd_step_canon fuel precalc r mm s : ls_inv ci V s → ocanon s → 2 ≤ r → size V * size V + size V + 2 < fuel →
    (precalc = true → ∀ i j, mg_adj (ls_graph s) i j → ∃ l, mm !! hkey i j = Some l ∧ good_sets V r i j l) →
    returns (icd_step o ci sb false fuel precalc r mm s) (λ t, ocanon t.1).
  Proof using A Ho Hci Hu.
    intros I O Hr Hf Hm. unfold icd_step. rewrite (li_nodes _ _ _ I). eapply returns_bind.
    - apply (for_returns _ _ _ (λ r' : lstate * bool, ls_inv ci V r'.1 ∧ ls_le s r'.1 ∧ (r'.2 = true → r' = (s, true)))).
      + cbn [fst snd]. split; [done|]. split; [by intros a b|done].
      + intros [i j] r' Hij (Ir & Hle & Hs). apply comb2_iter in Hij as (Hi & Hj & Hne); [|done].
        eapply returns_bind; [apply m_is_connected_pag; [apply Ir|done]|]. cbn beta. intros b Hb. destruct b; cbn [negb]; cbv iota; [|done].
        eapply returns_bind.
        { instantiate (1 := good_sets V r i j). destruct precalc; [|apply (range_good o Ho); [apply Ir|apply Ir|done|done|done|lia]].
          destruct (Hm eq_refl i j) as (l & El & Hl); [by apply Hle, Hb|]. by rewrite El. }
        cbn beta. intros cs Hcs. eapply returns_mono; [apply (icd_tests_inv ci m); [done|done|done|done|]|].
        * intros c (x & -> & Hx)%elem_of_list_fmap. destruct (Hcs x Hx) as [Hsz Hz].
          split; [by apply iter_nodup|]. intros z Hz'. apply Hz. by apply (iter_elem o 109 _ _ Ho).
        * cbn beta. intros t (It & Hle' & Ht). split; [done|]. split; [intros a a' H; by apply Hle, Hle'|].
          intros H2. specialize (Ht H2) as ->. by apply Hs.
    - cbn beta. intros [t d] (It & Hle & Hs). cbn [fst snd] in *. destruct d.
      + specialize (Hs eq_refl). injection Hs as ->. eapply returns_bind; [by apply rest_ocanon; [done|done|lia]|]. cbn beta. done.
      + eapply returns_bind; [apply (orient_all_canon _ fuel); [by left|done|lia]|]. cbn beta. done.
  Qed.

  Lemma icd_iteration_canon fuel precalc s : ic_done s = false → ls_inv ci V (ic_ls s) → (1 < ic_size s → ocanon (ic_ls s)) →
    size V * size V + size V + 2 < fuel →
    returns (icd_iteration o ci sb false fuel precalc s) (λ r, 1 < ic_size r.1 → ocanon (ic_ls r.1)).
  Proof using A Ho Hci Hu.
    intros Hd Is O Hf. unfold icd_iteration. rewrite Hd. destruct (ic_size s) as [|[|r]] eqn:Er.
    - eapply returns_bind; [eapply returns_bind; [apply (icd_step_0_ok o Ho ci V); [done|lia]|]|].
      + cbn beta. intros t Ht. cbn [returns]. instantiate (1 := λ _, True). done.
      + cbn beta. intros r _. cbn [returns fst ic_size]. lia.
    - eapply returns_bind; [eapply returns_bind; [apply icd_step_1_canon; [done|lia]|]|].
      + cbn beta. intros t Ht. cbn [returns]. instantiate (1 := λ r, ocanon (ic_ls r)). exact Ht.
      + cbn beta. intros r Hr _. exact Hr.
    - eapply returns_bind; [eapply returns_bind|].
      + instantiate (1 := λ mm, precalc = true → ∀ i j, mg_adj (ls_graph (ic_ls s)) i j → ∃ l, mm !! hkey i j = Some l ∧ good_sets V (S (S r)) i j l).
        destruct precalc; [|done]. eapply returns_mono; [apply (pre_calc_ok o Ho V); [apply Is|apply Is|lia|lia]|]. cbn beta. intros mm Hm _. exact Hm.
      + cbn beta. intros mm Hm. eapply returns_bind; [apply (icd_step_canon fuel precalc (S (S r)) mm); [done|apply O; lia|lia|done|done]|].
        cbn beta. intros t Ht. cbn [returns]. instantiate (1 := λ r, ocanon (ic_ls r)). exact Ht.
      + cbn beta. intros t Ht _. exact Ht.
  Qed.

  Lemma icd_loop_canon fuel precalc : size V * size V + size V + 2 < fuel → ∀ n s, ic_done s = false → icd_inv ci V s →
    (1 < ic_size s → ocanon (ic_ls s)) → ic_size s < 2 `max` size V → 2 `max` size V ≤ n + ic_size s →
    returns (icd_loop o ci sb false fuel precalc n s) (λ t, 1 < ic_size t → ocanon (ic_ls t)).
  Proof using A Ho Hci Hu.
    intros Hf n. induction n as [|n IH]; intros s Hd I O Hr Hn; [lia|]. cbn [icd_loop].
    eapply returns_bind; [apply (returns_and _ _ _ (icd_iteration_inv o Ho ci V sb false fuel precalc s Hd I Hf) (icd_iteration_canon fuel precalc s Hd (ii_inv _ _ _ I) O Hf))|].
    cbn beta. intros [t [d k]] ((It & Hle & Hsz & Hr' & _ & Hd0 & Hmore) & Ot). cbn [fst snd] in *.
    injection Hr' as -> ->. destruct (ic_done t) eqn:Edt; [done|]. apply IH; [done|done|done|rewrite Hsz; by apply Hmore|lia].
  Qed.

  Theorem icd_canon fuel precalc : size V * size V + size V + 2 < fuel →
    returns (icd_learn o ci sb false fuel precalc (icd_init o V)) (λ t, ls_inv ci V (ic_ls t) ∧ ocanon (ic_ls t)).
  Proof using A Ho Hci Hu.
    intros Hf. assert (size V ≤ size V * size V) by (destruct (size V); lia).
    assert (returns (icd_learn o ci sb false fuel precalc (icd_init o V)) (λ t, 1 < ic_size t → ocanon (ic_ls t))) as H2.
    { unfold icd_learn. change (IcdState _ _ false 0) with (icd_init o V).
      apply icd_loop_canon; [done|done|by apply icd_init_inv|cbn; lia|cbn; lia|cbn; lia]. }
    eapply returns_mono; [apply (returns_and _ _ _ (icd_learn_ok o Ho ci V sb false fuel precalc Hf) H2)|]. cbn beta. intros t ((It & _ & Hs) & O).
    split; [apply It|apply O; lia].
  Qed.
End learners.
