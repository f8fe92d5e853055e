(** Soundness of the orientation rules: what they assert holds in every ancestral graph that agrees
    with the input. *)
From Verif Require Import Base BaseLemmas ModelGraph ModelMixed ModelPC ModelPAG Spec SpecMixed SpecPAG SpecPC Paths ProofMixed ProofMixed2 ProofPAG ProofPAGR ProofPAGR2 ProofPAGS.

(** ** ancestral graphs *)
Section anc.
  Context (m : mgraph) (A : ancestral m).
  Lemma anc_tail a b : mg_adj m a b → ¬ has_mark m a Directed b → has_mark m a Tail b.
  Proof. intros [k Hk] Hn. destruct k; try done. by apply (an_marks _ A) in Hk. Qed.
  Lemma anc_fwd x y z : has_mark m x Directed y → mg_adj m y z → ¬ has_mark m z Directed y → dir_edge m y z.
  Proof.
    intros Hxy Hyz Hn. assert (has_mark m z Tail y) as Ht by (apply anc_tail; [apply mg_adj_sym; [apply A|done]|done]).
    split; [|done]. destruct (decide (y ∈ mset m z Directed)) as [|Hd]; [done|].
    exfalso. eapply (an_und _ A z y x); [|done]. split; [done|]. by apply anc_tail.
  Qed.
  Lemma anc_two a b c : dir_edge m a b → dir_edge m b c → ¬ has_mark m c Directed a.
  Proof. intros H1 H2. apply (an_cycle _ A). eapply tc_l; [done|]. by constructor. Qed.
  Lemma anc_one a b : dir_edge m a b → ¬ has_mark m b Directed a.
  Proof. intros H1. apply (an_cycle _ A). by constructor. Qed.
End anc.

Section sound.
  Context (m : mgraph) (S : node → node → option nset).

  Lemma compat_act g s k t : compat m g S → has_mark m s k t → compat m (replace_mark_ PAG_T g s t k) S.
  Proof.
    intros C Hm. pose proof (an_wf _ (cp_anc _ _ _ C)) as Wm.
    assert (mg_adj g s t) as Hadj by (apply (cp_adj _ _ _ C); by eexists).
    split.
    - apply C.
    - rewrite replace_mark_nodes. apply C.
    - intros a b. rewrite (cp_adj _ _ _ C). unfold mg_adj. setoid_rewrite replace_mark_spec. split.
      + intros (j & Hj). destruct (decide (a = s ∧ b = t)) as [[-> ->]|Hne]; [exists k; by left|exists j; by right].
      + intros (j & [(-> & -> & ->)|[_ ?]]); [done|eauto].
    - intros a j b Hj. rewrite replace_mark_spec. intros [(-> & -> & ->)|[_ H]]; [done|by apply (cp_marks _ _ _ C)].
    - intros a b c Hac Hn Hcoll. rewrite replace_mark_spec. destruct (decide (a = s ∧ b = t)) as [[-> ->]|Hne].
      + left. split_and!; try done. destruct Hcoll as [Hcoll _]. by eapply (mgw_one _ Wm).
      + right. split; [done|]. by eapply (cp_coll _ _ _ C).
    - apply C.
  Qed.
  Definition holds (x : act) : Prop := has_mark m x.1.1 x.2 x.1.2.
  Lemma compat_acts acts : ∀ g, compat m g S → Forall holds acts → compat m (apply_acts g acts) S.
  Proof.
    induction acts as [|[[s t] k] acts IH]; intros g C Hall; [done|]. inversion Hall as [|? ? Hx Hl]; subst. simpl.
    apply IH; [|done]. exact (compat_act g s k t C Hx).
  Qed.
  Definition sound (P : pattern) : Prop := ∀ h k acts, mg_wf h → compat m h S → compat m k S → P h k acts → Forall holds acts.
  Lemma stale_sound P g g' : good P → mg_wf g → sound P → compat m g S → stale P g g' → compat m g' S.
  Proof.
    intros G W HP C Hst. revert W C. induction Hst as [|g h g' acts H1 IH1 H2 IH2 HPh]; intros W C; [done|].
    specialize (IH1 W C). assert (mg_wf h) as Wh by (exact (rf_wf _ _ (stale_refines P g h G W H1))). specialize (IH2 Wh IH1).
    apply compat_acts; [done|]. exact (HP h g' acts Wh IH1 IH2 HPh).
  Qed.

  Section at_.
    Context (h : mgraph) (W : mg_wf h) (C : compat m h S).
    Let A := cp_anc _ _ _ C.
    Let Wm := an_wf _ A.
    Lemma c_arrow a b : has_mark h a Directed b → has_mark m a Directed b.
    Proof. by apply (cp_marks _ _ _ C). Qed.
    Lemma c_tail a b : has_mark h a Tail b → has_mark m a Tail b.
    Proof. by apply (cp_marks _ _ _ C). Qed.
    Lemma c_dir a b : dir_edge h a b → dir_edge m a b.
    Proof. intros [? ?]. split; [by apply c_arrow|by apply c_tail]. Qed.
    Lemma c_adj a k b : has_mark h a k b → mg_adj m a b.
    Proof. intros H. apply (cp_adj _ _ _ C). by eexists. Qed.
    Lemma c_madj a b : mg_adj h a b → mg_adj m a b.
    Proof. apply (cp_adj _ _ _ C). Qed.
    Lemma c_sym a b : mg_adj m a b → mg_adj m b a.
    Proof. by apply mg_adj_sym. Qed.
    (** an unshielded triple without arrowhead in h is not a collider *)
    Lemma c_step x y z : x ≠ z → ¬ mg_adj h x z → has_mark m x Directed y → mg_adj h y z → ¬ has_mark h z Directed y → dir_edge m y z.
    Proof.
      intros Hne Hn Hxy Hyz Hz. eapply anc_fwd; [done..|by apply c_madj|]. intros Hzy. apply Hz.
      apply (cp_coll _ _ _ C z y x); [done| |done]. intros H. apply Hn. apply (cp_adj _ _ _ C). by apply c_sym.
    Qed.
    Lemma c_circ a b : has_mark h a Circle b → ¬ has_mark h a Directed b.
    Proof. intros H1 H2. by pose proof (mgw_one _ W _ _ _ _ H1 H2). Qed.

    Lemma propagate l : ∀ x y, has_mark m x Directed y →
      (∀ l1 u v l2, y :: l = l1 ++ u :: v :: l2 → mg_adj h u v ∧ ¬ has_mark h v Directed u) →
      uncovered h (x :: y :: l) → (∀ l1 u v w l2, x :: y :: l = l1 ++ u :: v :: w :: l2 → u ≠ w) →
      linked (dir_edge m) (y :: l).
    Proof.
      induction l as [|z l IH]; intros x y Hxy Hl Hu Hd.
      - intros [|? [|]] ? ? ? E; simplify_eq/=.
      - assert (dir_edge m y z) as Hyz.
        { destruct (Hl [] y z l eq_refl). apply (c_step x); try done; [by apply (Hd [] x y z l)|by apply (Hu [] x y z l)]. }
        apply linked_cons. split; [done|]. apply (IH y z).
        + apply Hyz.
        + intros l1 u v l2 E. apply (Hl (y :: l1) u v l2). by rewrite E.
        + intros l1 u v w l2 E. apply (Hu (x :: l1) u v w l2). by rewrite E.
        + intros l1 u v w l2 E. apply (Hd (x :: l1) u v w l2). by rewrite E.
    Qed.
  End at_.

  Lemma sound_1 : sound P1.
  Proof.
    intros h k acts W C _ (a & b & c & H1 & H2 & H3 & ->).
    assert (a ≠ c) as Hac. { intros ->. by pose proof (mgw_one _ W _ _ _ _ H1 H2). }
    assert (dir_edge m b c) as [? ?].
    { apply (c_step h C a); try done; [by eapply c_arrow|apply mg_adj_sym; [done|by eexists]|by apply c_circ]. }
    repeat constructor; done.
  Qed.
  Lemma sound_2 : sound P2.
  Proof.
    intros h k acts _ _ C (a & b & c & H1 & H2 & ->). constructor; [|constructor]. unfold holds; cbn [fst snd].
    destruct (decide (a ∈ mset m c Directed)) as [|Hn]; [done|exfalso]. pose proof (cp_anc _ _ _ C) as A.
    assert (mg_adj m c a) as Hca. { apply mg_adj_sym; [apply A|]. by eapply c_adj. }
    destruct H2 as [[H2 H3]|[H2 H3]].
    - assert (dir_edge m b c) as Hbc by by eapply c_dir. assert (dir_edge m c a) as Hd by (eapply (anc_fwd m A b); [apply Hbc|done..]).
      apply (anc_two m A b c a Hbc Hd). by eapply c_arrow.
    - assert (has_mark m b Directed c) as Hbc by by eapply c_arrow. assert (dir_edge m c a) as Hd by (eapply (anc_fwd m A b); done).
      apply (anc_two m A c a b); [done|by eapply c_dir|done].
  Qed.
  Lemma sound_3 : sound P3.
  Proof.
    intros h k acts W C _ (a & b & c & d & H1 & H2 & H3 & H4 & H5 & H6 & H7 & ->). constructor; [|constructor]. unfold holds; cbn [fst snd].
    destruct (decide (d ∈ mset m b Directed)) as [|Hn]; [done|exfalso]. pose proof (cp_anc _ _ _ C) as A.
    assert (dir_edge m b d) as Hbd.
    { eapply (anc_fwd m A a); [by eapply c_arrow|apply mg_adj_sym; [apply A|by eapply c_adj]|done]. }
    assert (∀ x, has_mark h x Directed b → has_mark h x Circle d → has_mark m x Directed d) as Hx.
    { intros x Hx1 Hx2. destruct (decide (x ∈ mset m d Directed)) as [|Hnx]; [done|exfalso].
      assert (dir_edge m d x) by (eapply (anc_fwd m A b); [apply Hbd|apply mg_adj_sym; [apply A|by eapply c_adj]|done]).
      eapply (anc_two m A b d x); [done..|]. by eapply c_arrow. }
    eapply c_circ; [exact W|exact H3|]. apply (cp_coll _ _ _ C a d c); [done| |split; auto].
    intros H'. apply H6. by apply (cp_adj _ _ _ C).
  Qed.
  Lemma sound_6 : sound P6.
  Proof.
    intros h k acts W C _ (a & b & c & [H1 H1'] & H2 & ->). constructor; [|constructor]. unfold holds; cbn [fst snd]. pose proof (cp_anc _ _ _ C) as A.
    apply anc_tail; [done|by eapply c_adj|]. apply (an_und _ A a b). split; by eapply c_tail.
  Qed.
  Lemma sound_7 : sound P7.
  Proof.
    intros h k acts W C _ (a & b & c & H1 & H2 & H3 & H4 & H5 & ->). constructor; [|constructor]. unfold holds; cbn [fst snd]. pose proof (cp_anc _ _ _ C) as A.
    apply anc_tail; [done|by eapply c_adj|]. intros Hcb. eapply (an_und _ A a b c); [|done]. split; [|by eapply c_tail].
    apply anc_tail; [done|by eapply c_adj|]. intros Hab. eapply c_circ; [exact W|exact H1|]. apply (cp_coll _ _ _ C a b c); try done.
    intros H'. apply H5. by apply (cp_adj _ _ _ C).
  Qed.
  Lemma sound_8 : sound P8.
  Proof.
    intros h k acts W C Ck (a & b & c & H1 & H2 & H3 & H4 & H5 & ->). constructor; [|constructor]. unfold holds; cbn [fst snd]. pose proof (cp_anc _ _ _ C) as A.
    apply anc_tail; [done|exact (c_adj k Ck _ _ _ H5)|]. intros Hca.
    assert (has_mark m b Tail a) as Hba by exact (c_tail h C _ _ H1).
    assert (mg_adj m a b) as Hadj by (destruct H2 as [H2|H2]; exact (c_adj h C _ _ _ H2)).
    destruct (decide (a ∈ mset m b Directed)) as [Hab|Hab].
    - eapply (anc_two m A a b c); [done|exact (c_dir h C _ _ H3)|done].
    - eapply (an_und _ A b a c); [|done]. split; [done|]. by apply anc_tail.
  Qed.

  Lemma nodup_triple (l : list node) : NoDup l → ∀ l1 u v w l2, l = l1 ++ u :: v :: w :: l2 → u ≠ w.
  Proof. intros Hnd l1 u v w l2 ->. apply NoDup_app in Hnd as (_ & _ & Hnd). apply NoDup_cons in Hnd as [Hnd _]. set_solver. Qed.

  Lemma sound_9 : sound P9.
  Proof.
    intros h k acts W C _ (a & b & d & c & p & H1 & H2 & H3 & H4 & H5 & H6 & Hp & ->). constructor; [|constructor]. unfold holds; cbn [fst snd]. pose proof (cp_anc _ _ _ C) as A.
    apply anc_tail; [done|by eapply c_adj|]. intros Hca.
    destruct Hp as (mid & -> & _ & Hnd & Hlk & Hunc).
    assert (linked (pd_edge h) (a :: (b :: mid ++ [d]) ++ [c])) as Hlk'.
    { simpl. apply linked_cons. split; [done|]. rewrite <-app_assoc. change (b :: mid ++ [d] ++ [c]) with ((b :: mid) ++ [d; c]).
      apply linked_snoc; done. }
    assert (linked (dir_edge m) (a :: (b :: mid ++ [d]) ++ [c])) as Hdir.
    { apply (propagate h C _ c a); [done|..].
      - intros l1 u v l2 E. destruct (Hlk' l1 u v l2 E) as (? & ? & _). done.
      - simpl. apply uncovered_cons. split; [|done]. intros H'. apply H5. by apply mg_adj_sym.
      - intros l1 u v w l2 E. destruct l1 as [|? l1].
        + simplify_eq/=. intros ->. rewrite NoDup_cons in Hnd. destruct Hnd as [_ Hnd]. apply NoDup_cons in Hnd as [Hnd _]. set_solver +Hnd.
        + simpl in E. injection E as -> E. by eapply (nodup_triple _ Hnd). }
    eapply (an_cycle _ A a c); [|exact Hca].
    assert (rtc (dir_edge m) b c) as Hr.
    { apply (walk_rtc _ b c (b :: mid ++ [d] ++ [c])); [done|rewrite !app_comm_cons, app_assoc; by rewrite last_snoc|].
      simpl in Hdir. apply linked_cons in Hdir as [_ Hdir]. by rewrite <-app_assoc in Hdir. }
    simpl in Hdir. apply linked_cons in Hdir as [Hab _]. by eapply tc_rtc_r, Hr; constructor.
  Qed.

  (** rule 10 as documented *)
  Lemma pd_path_dir h a e b p : mg_wf h → compat m h S → pd_path h a e b p → ∀ c, has_mark m c Directed a → ¬ has_mark m e Directed a →
    tc (dir_edge m) a b.
  Proof.
    intros W C (Hh & Hl & Hnd & Hlk & Hunc) c Hca Hea. pose proof (cp_anc _ _ _ C) as A.
    destruct p as [|e' p]; [done|]. simpl in Hh. injection Hh as ->.
    assert (dir_edge m a e) as Hae.
    { eapply (anc_fwd m A c); [done| |done]. eapply c_madj; [done|]. by apply (Hlk [] a e p). }
    assert (linked (dir_edge m) (e :: p)) as Hd.
    { apply (propagate h C _ a e); [apply Hae| |done|by apply nodup_triple].
      intros l1 u v l2 E. destruct (Hlk (a :: l1) u v l2) as (? & ? & _); [by rewrite E|done]. }
    eapply tc_rtc_r; [by constructor|]. by apply (walk_rtc _ e b (e :: p)).
  Qed.
  Lemma r10_sound h a c : mg_wf h → compat m h S → r10_pattern h a c → dir_edge m a c.
  Proof.
    intros W C (H1 & H2 & b & d & e & f & p & q & Hbc & Hdc & Hbd & Hp & Hq & Hef & Hn & Hcp & Hcq). pose proof (cp_anc _ _ _ C) as A.
    split; [exact (c_arrow h C _ _ H1)|]. apply anc_tail; [done|exact (c_adj h C _ _ _ H2)|]. intros Hca.
    assert (∀ x, dir_edge h x c → ¬ tc (dir_edge m) a x) as Hcyc.
    { intros x Hx Ht. eapply (an_cycle _ A a c); [|exact Hca]. eapply tc_r; [done|]. exact (c_dir h C _ _ Hx). }
    assert (∀ x, pd_edge h a x → ¬ has_mark h x Directed a) as Hpd by (by intros x (_ & ? & _)).
    assert (has_mark m e Directed a) as He.
    { destruct (decide (e ∈ mset m a Directed)) as [|Hne]; [done|]. exfalso. eapply (Hcyc b); [done|]. by eapply pd_path_dir. }
    assert (has_mark m f Directed a) as Hf.
    { destruct (decide (f ∈ mset m a Directed)) as [|Hne]; [done|]. exfalso. eapply (Hcyc d); [done|]. by eapply pd_path_dir. }
    assert (has_mark h e Directed a) as Heh.
    { apply (cp_coll _ _ _ C e a f); try done. intros H'. apply Hn. by apply (cp_adj _ _ _ C). }
    destruct Hp as (Hh & _ & _ & Hlk & _). destruct p as [|e' p]; [done|]. simpl in Hh. injection Hh as ->.
    destruct (Hlk [] a e p) as (_ & ? & _); done.
  Qed.

  (** rule 4 *)
  Lemma disc_compat h d q b c : compat m h S → discriminating h d q b c → discriminating m d q b c.
  Proof.
    intros C [D1 D2 D3 D4 D5 D6]. split; [done|done|..].
    - intros l1 u v l2 E. eapply c_madj; [done|]. by eapply D3.
    - intros H'. apply D4. by apply (cp_adj _ _ _ C).
    - intros v Hv. exact (c_dir h C _ _ (D5 v Hv)).
    - intros l1 u v w l2 E. destruct (D6 l1 u v w l2 E). split; by eapply c_arrow.
  Qed.
  Lemma disc_last_arrow g d q a b c : discriminating g d q b c → last q = Some a → has_mark g b Directed a.
  Proof.
    intros D Hl. apply last_Some in Hl as [q' ->]. destruct (rev_case q') as [->|(q'' & u & ->)].
    - by apply (dp_coll _ _ _ _ _ D [] d a b []).
    - apply (dp_coll _ _ _ _ _ D (d :: q'') u a b []). by simplify_list_eq.
  Qed.
  Lemma disc_last_par g d q a b c : discriminating g d q b c → last q = Some a → dir_edge g a c.
  Proof. intros D Hl. apply (dp_par _ _ _ _ _ D). apply last_Some in Hl as [q' ->]. set_solver +. Qed.
  Lemma disc_bc g d q b c : discriminating g d q b c → mg_adj g b c.
  Proof. intros D. apply (dp_linked _ _ _ _ _ D (d :: q) b c []). done. Qed.

  Lemma sound_4 sep : S = sep_fun sep → sound (P4 sep).
  Proof.
    intros ES h k acts W C Ck (d & q & a & b & c & Z & H1 & HD & Hl & HZ & Hacts). pose proof (cp_anc _ _ _ C) as A.
    apply (disc_compat k) in HD; [|done].
    assert (S d c = Some Z) as HS by (rewrite ES; unfold sep_fun; by rewrite HZ).
    pose proof (cp_disc _ _ _ C d q b c Z HD HS) as Hb.
    pose proof (disc_last_arrow _ _ _ _ _ _ HD Hl) as Hba. pose proof (disc_last_par _ _ _ _ _ _ HD Hl) as Hac.
    pose proof (disc_last_adj _ _ _ _ _ _ HD Hl) as Hab. pose proof (disc_bc _ _ _ _ _ HD) as Hbc.
    assert (mg_adj m c b) as Hcb by (apply mg_adj_sym; [apply A|done]).
    destruct Hacts as [[Hz ->]|[Hz ->]].
    - destruct (proj1 Hb Hz) as (a' & Hl' & Hn). assert (a' = a) as -> by congruence.
      assert (¬ has_mark m c Directed b) as Hcb'.
      { intros Hcb'. assert (¬ has_mark m a Directed b) as Hab' by (intros ?; by apply Hn).
        assert (dir_edge m b a) as Hd by (split; [done|by apply anc_tail]). by apply (anc_two m A b a c Hd Hac). }
      assert (has_mark m c Tail b) by by apply anc_tail.
      repeat constructor; unfold holds; cbn [fst snd]; [|done].
      destruct (decide (b ∈ mset m c Directed)) as [|Hn']; [done|]. exfalso. apply (an_und _ A b c a); [|apply Hac]. split; [by apply anc_tail|done].
    - assert (m_collider m a b c) as [Hc1 Hc2].
      { destruct (decide (a ∈ mset m b Directed)) as [X|X]; [destruct (decide (c ∈ mset m b Directed)) as [Y|Y]|]; [done|..];
          exfalso; apply Hz, Hb; exists a; (split; [done|]); intros [? ?]; done. }
      repeat constructor; unfold holds; cbn [fst snd]; try done.
      destruct (decide (b ∈ mset m c Directed)) as [|Hn']; [done|]. exfalso.
      assert (dir_edge m c b) as Hd by (eapply (anc_fwd m A a); [apply Hac|done..]). by apply (anc_two m A a c b Hac Hd).
  Qed.

  (** rule 5 *)
  Definition trip (R : node → node → Prop) (l : list node) : Prop := ∀ l1 a b c l2, l = l1 ++ a :: b :: c :: l2 → R a c.
  Lemma trip_cons R a b c l : trip R (a :: b :: c :: l) ↔ R a c ∧ trip R (b :: c :: l).
  Proof.
    split.
    - intros H. split; [by apply (H [] a b c l)|]. intros l1 u v w l2 E. apply (H (a :: l1) u v w l2). by rewrite E.
    - intros [H1 H2] l1 u v w l2 E. destruct l1 as [|z l1]; [by simplify_eq/=|]. simpl in E. injection E as -> E. by eapply H2.
  Qed.
  Lemma trip_glue R l1 x y l2 : trip R (l1 ++ [x; y]) → trip R (x :: y :: l2) → trip R (l1 ++ x :: y :: l2).
  Proof.
    revert x y. induction l1 as [|a l1 IH]; intros x y H1 H2; [done|].
    assert (trip R (l1 ++ x :: y :: l2)) as IH'.
    { apply IH; [|done]. intros k1 u v w k2 E. apply (H1 (a :: k1) u v w k2). simpl. by rewrite E. }
    destruct l1 as [|b [|c l1]]; simpl in *; apply trip_cons; (split; [|done]); apply trip_cons in H1; apply H1.
  Qed.
  Lemma sound_5_dir h a p b : mg_wf h → compat m h S → unc_cycle h a p b → ∀ x y,
    cyc_edge (a :: p ++ [b]) x y ∨ (x = b ∧ y = a) → ¬ has_mark m x Directed y.
  Proof.
    intros W C U x y He Hxy. pose proof (cp_anc _ _ _ C) as A. set (l := a :: p ++ [b]) in *.
    assert (linked (noarrow h) (l ++ l)) as F1.
    { unfold l at 1. change (a :: p ++ [b]) with ((a :: p) ++ [b]). rewrite <-app_assoc. cbn [app]. change (a :: p ++ b :: l) with ((a :: p) ++ b :: l).
      apply linked_glue; [apply U|]. unfold l. apply linked_cons. split; [apply noarrow_sym; [done|apply U]|apply U]. }
    assert (trip (λ u w, ¬ mg_adj h u w ∧ u ≠ w) (l ++ l)) as F2.
    { destruct (uc_ends _ _ _ _ U) as (x0 & mid & y0 & Ep & Hx0 & Hy0).
      pose proof (uc_nodup _ _ _ _ U) as Hnd. fold l in Hnd. pose proof (uc_unc _ _ _ _ U) as Hu. fold l in Hu.
      assert (trip (λ u w, ¬ mg_adj h u w ∧ u ≠ w) l) as F.
      { intros k1 u v w k2 E. split; [by eapply Hu|]. by eapply (nodup_triple _ Hnd). }
      assert (l = (a :: x0 :: mid) ++ [y0; b]) as El by (unfold l; rewrite Ep; simpl; by rewrite <-app_assoc).
      assert (a ≠ y0 ∧ x0 ≠ b) as [N1 N2].
      { rewrite El in Hnd. apply NoDup_app in Hnd as (_ & Hnd & _). split; [intros ->; apply (Hnd y0); set_solver +|intros ->; apply (Hnd b); set_solver +]. }
      rewrite El at 1. rewrite <-app_assoc. cbn [app]. change (a :: x0 :: mid ++ y0 :: b :: l) with ((a :: x0 :: mid) ++ y0 :: b :: l).
      apply trip_glue; [by rewrite <-El|]. rewrite El. cbn [app]. apply trip_cons. split; [split; [|by apply not_eq_sym]|].
      { intros H'. apply Hy0. by apply mg_adj_sym. }
      apply trip_cons. split; [split; [|by apply not_eq_sym]|].
      { intros H'. apply Hx0. by apply mg_adj_sym. }
      change (a :: x0 :: mid ++ [y0; b]) with ((a :: x0 :: mid) ++ [y0; b]). by rewrite <-El. }
    assert (∃ k1 w k2, l ++ l = k1 ++ (x :: y :: w ++ [x]) ++ k2) as (k1 & w & k2 & EL).
    { destruct He as [(l1 & l2 & E)|[-> ->]].
      - exists l1, (l2 ++ l1), (y :: l2). rewrite E. by simplify_list_eq.
      - exists (a :: p), p, []. unfold l. by simplify_list_eq. }
    assert (linked (dir_edge m) (y :: w ++ [x])) as Hd.
    { apply (propagate h C _ x y); [done|..].
      - intros l1 u v l2 E. destruct (F1 (k1 ++ x :: l1) u v (l2 ++ k2)) as (? & ? & ?); [|done].
        rewrite EL, <-app_assoc. cbn [app]. f_equal. f_equal. change (y :: (w ++ [x]) ++ k2) with ((y :: w ++ [x]) ++ k2). rewrite E. by simplify_list_eq.
      - intros l1 u v t l2 E. apply (F2 (k1 ++ l1) u v t (l2 ++ k2)). rewrite EL, E. by simplify_list_eq.
      - intros l1 u v t l2 E. apply (F2 (k1 ++ l1) u v t (l2 ++ k2)). rewrite EL, E. by simplify_list_eq. }
    assert (x ≠ y) as Nxy. { apply (mgw_in _ (an_wf _ A)) in Hxy as (_ & _ & ?). done. }
    eapply (an_cycle _ A y x); [|exact Hxy].
    assert (rtc (dir_edge m) y x) as Hr. { apply (walk_rtc _ y x (y :: w ++ [x])); [done|by rewrite app_comm_cons, last_snoc|done]. }
    apply rtc_tc in Hr as [?|?]; [congruence|done].
  Qed.
  Lemma cyc_edge_rev l x y : cyc_edge (reverse l) x y ↔ cyc_edge l y x.
  Proof.
    unfold cyc_edge. split; intros (l1 & l2 & E).
    - exists (reverse l2), (reverse l1). rewrite <-(reverse_involutive l), E, reverse_app, !reverse_cons. by simplify_list_eq.
    - exists (reverse l2), (reverse l1). rewrite E, reverse_app, !reverse_cons. by simplify_list_eq.
  Qed.
  Lemma rev_ends (a b : node) p : b :: reverse p ++ [a] = reverse (a :: p ++ [b]).
  Proof. by rewrite reverse_cons, reverse_app. Qed.
  Lemma unc_cycle_rev h a p b : mg_wf h → unc_cycle h a p b → unc_cycle h b (reverse p) a.
  Proof.
    intros W [U1 U2 U3 U4 (x & mid & y & -> & U5 & U6)].
    set (l := a :: (x :: mid ++ [y]) ++ [b]) in *.
    assert (b :: reverse (x :: mid ++ [y]) ++ [a] = reverse l) as E.
    { apply rev_ends. }
    split; rewrite ?E.
    - intros l1 u v l2 E'. apply noarrow_sym; [done|]. assert (cyc_edge l v u) as (k1 & k2 & E2) by (apply cyc_edge_rev; by exists l1, l2). by eapply U1.
    - by apply noarrow_sym.
    - intros l1 u v w l2 E' H'. eapply (U3 (reverse l2) w v u (reverse l1)); [|by apply mg_adj_sym].
      rewrite <-(reverse_involutive l), E', reverse_app, !reverse_cons. by simplify_list_eq.
    - by rewrite reverse_Permutation.
    - exists y, (reverse mid), x. split_and!.
      + by rewrite reverse_cons, reverse_app.
      + intros H'. apply U6. by apply mg_adj_sym.
      + intros H'. apply U5. by apply mg_adj_sym.
  Qed.
  Lemma sound_5 : sound P5.
  Proof.
    intros h k acts W C _ (a & p & b & x & y & U & He & ->). pose proof (cp_anc _ _ _ C) as A.
    assert (∀ u v, (cyc_edge (a :: p ++ [b]) u v ∨ cyc_edge (a :: p ++ [b]) v u ∨ (u = a ∧ v = b) ∨ (u = b ∧ v = a)) → has_mark m u Tail v) as Hall.
    { intros u v Huv. apply anc_tail; [done| |].
      - eapply c_madj; [done|]. by eapply cyc_noarrow.
      - pose proof (sound_5_dir h a p b W C U u v) as F1. pose proof (sound_5_dir h b (reverse p) a W C (unc_cycle_rev _ _ _ _ W U) u v) as F2.
        assert (b :: reverse p ++ [a] = reverse (a :: p ++ [b])) as E by apply rev_ends.
        rewrite E, cyc_edge_rev in F2. tauto. }
    constructor; [|constructor; [|constructor]]; unfold holds; cbn [fst snd]; apply Hall; tauto.
  Qed.

  Lemma sound_any sep rules : S = sep_fun sep → (∀ i, i ∈ rules → i ≠ 10) → sound (Pany sep rules).
  Proof.
    intros ES Hr h k acts W C Ck (i & Hi & HP). apply Hr in Hi.
    destruct i as [|[|[|[|[|[|[|[|[|[|[|i]]]]]]]]]]]; cbn [Pi] in HP; try done.
    - by eapply sound_1.
    - by eapply sound_2.
    - by eapply sound_3.
    - by eapply sound_4.
    - by eapply sound_5.
    - by eapply sound_6.
    - by eapply sound_7.
    - by eapply sound_8.
    - by eapply sound_9.
  Qed.
End sound.

(** separation sets that separate decide colliders *)
Section separating.
  Context (m : mgraph) (S : node → node → option nset) (A : ancestral m) (HS : separating m S).

  Lemma sep_unshielded a b c Z : a ≠ c → ¬ mg_adj m a c → mg_adj m a b → mg_adj m b c → S a c = Some Z → b ∈ Z ↔ ¬ m_collider m a b c.
  Proof.
    intros Hac Hn Hab Hbc HZ. pose proof (an_wf _ A) as W.
    assert (a ∈ mnodes m ∧ c ∈ mnodes m ∧ a ≠ b ∧ b ≠ c) as (Ha & Hc & N1 & N2).
    { destruct Hab as [k Hk], Hbc as [k' Hk']. apply (mgw_in _ W) in Hk as (? & _ & ?), Hk' as (_ & ? & ?). done. }
    destruct (HS a c Ha Hc Hac Hn) as (Z' & E & _ & _ & Hsep). rewrite HZ in E. injection E as <-.
    assert (¬ m_active m Z [a; b; c]) as Hact.
    { intros HA. apply Hsep. exists [a; b; c]. split; [|done]. split_and!; try done.
      - rewrite !NoDup_cons, !elem_of_cons, !elem_of_nil. split_and!; [intros [?|[?|[]]]; congruence|intros [?|[]]; congruence|intros []|constructor].
      - apply linked_cons. split; [done|]. apply linked_cons. split; [done|]. apply linked_one. }
    assert (∀ P : Prop, (m_collider m a b c → ∃ z, z ∈ Z ∧ rtc (dir_edge m) b z) ∧ (¬ m_collider m a b c → b ∉ Z) → m_active m Z [a; b; c]) as Hmk.
    { intros _ Hx l1 u v w l2 E. destruct l1 as [|? [|? [|? [|]]]]; simplify_eq/=. done. }
    assert (Decision (m_collider m a b c)) as Hdec by (unfold m_collider, has_mark; apply _).
    split.
    - intros Hb Hcoll. apply Hact, (Hmk True). split; [|done]. intros _. exists b. split; [done|constructor].
    - intros Hcoll. destruct (decide (b ∈ Z)) as [|Hb]; [done|]. exfalso. apply Hact, (Hmk True). split; [done|auto].
  Qed.

  Lemma app_snoc_inv {X} (l1 l2 : list X) x y : l1 ++ [x] = l2 ++ [y] → l1 = l2 ∧ x = y.
  Proof. intros E. apply app_inj_tail in E. done. Qed.
  Lemma act_prefix Z d q1 v c :
    (∀ l1 x y z l2, d :: q1 ++ [v] = l1 ++ x :: y :: z :: l2 → m_collider m x y z) → (∀ w, w ∈ q1 → w ∈ Z) →
    (∀ u, last (d :: q1) = Some u → (m_collider m u v c → v ∈ Z) ∧ (¬ m_collider m u v c → v ∉ Z)) →
    m_active m Z (d :: q1 ++ [v; c]).
  Proof.
    intros Hcol HZ Hlast l1 x y z l2 E. destruct (rev_case l2) as [->|(l2' & t & ->)].
    - assert ((d :: q1 ++ [v]) = l1 ++ [x; y] ∧ c = z) as [E1 ->].
      { apply app_snoc_inv. simplify_list_eq. by rewrite E. }
      assert (d :: q1 = l1 ++ [x] ∧ v = y) as [E2 ->].
      { apply app_snoc_inv. rewrite <-app_assoc. simpl. by rewrite <-E1. }
      destruct (Hlast x) as [H1 H2]; [rewrite E2; apply last_snoc|]. split; [|done]. intros H. exists y. split; [auto|constructor].
    - assert (d :: q1 ++ [v] = l1 ++ x :: y :: z :: l2' ∧ c = t) as [E1 ->].
      { apply app_snoc_inv. simplify_list_eq. by rewrite E. }
      pose proof (Hcol _ _ _ _ _ E1) as Hc. split; [intros _|done]. exists y. split; [|constructor]. apply HZ.
      assert (∃ l3 t', z :: l2' = l3 ++ [t']) as (l3 & t' & E3). { destruct (rev_case (z :: l2')) as [?|(? & ? & ?)]; [done|eauto]. }
      rewrite E3 in E1. assert (d :: q1 = l1 ++ x :: y :: l3 ∧ v = t') as [E2 ->].
      { apply app_snoc_inv. simplify_list_eq. by rewrite E1. }
      destruct l1 as [|? l1]; injection E2 as -> ->; set_solver +.
  Qed.

  Lemma sep_disc d q b c Z : discriminating m d q b c → S d c = Some Z → b ∈ Z ↔ ∃ a, last q = Some a ∧ ¬ m_collider m a b c.
  Proof.
    intros D HZ. pose proof (an_wf _ A) as W.
    pose proof (dp_simple _ _ _ _ _ D) as Hnd. pose proof (dp_linked _ _ _ _ _ D) as Hlk. pose proof (dp_coll _ _ _ _ _ D) as Hcol.
    assert (m_separated m d c Z) as Hsep.
    { destruct q as [|v q]; [by destruct (dp_some _ _ _ _ _ D)|].
      destruct (Hlk [] d v (q ++ [b; c])) as [k Hk]; [done|]. destruct (Hlk (d :: v :: q) b c []) as [k' Hk']; [done|].
      apply (mgw_in _ W) in Hk as (Hd & _ & _), Hk' as (_ & Hc & _).
      destruct (HS d c Hd Hc) as (Z' & E & _ & _ & ?); [|apply D|by rewrite HZ in E; injection E as <-].
      apply NoDup_cons in Hnd as [Hnd _]. set_solver +Hnd. }
    (* paths along the discriminating path that leave for c *)
    assert (∀ q1 v q2, q ++ [b] = q1 ++ v :: q2 → mg_adj m v c → ¬ m_active m Z (d :: q1 ++ [v; c])) as Hno.
    { intros q1 v q2 E Hvc Hact. apply Hsep. exists (d :: q1 ++ [v; c]). split; [|done].
      assert (d :: q ++ [b; c] = (d :: q1 ++ [v]) ++ q2 ++ [c]) as E'.
      { change [b; c] with ([b] ++ [c]). rewrite app_assoc, E. by simplify_list_eq. }
      split_and!.
      - done.
      - change [v; c] with ([v] ++ [c]). by rewrite app_assoc, app_comm_cons, last_snoc.
      - rewrite E' in Hnd. apply NoDup_app in Hnd as (N1 & N2 & N3). apply NoDup_app in N3 as (_ & _ & N3).
        change [v; c] with ([v] ++ [c]). rewrite app_assoc, app_comm_cons. apply NoDup_app. split_and!; [done| |apply NoDup_singleton].
        intros x Hx ->%elem_of_list_singleton. apply (N2 c Hx). set_solver +.
      - change (d :: q1 ++ [v; c]) with ((d :: q1) ++ [v; c]). apply linked_snoc; [|done].
        intros l1 x y l2 E2. apply (Hlk l1 x y (l2 ++ q2 ++ [c])). rewrite E'. change ((d :: q1) ++ [v]) with (d :: q1 ++ [v]) in E2. rewrite E2. by simplify_list_eq. }
    assert (∀ q1 q2, q = q1 ++ q2 → ∀ v, v ∈ q1 → v ∈ Z) as Hq.
    { intros q1. induction q1 as [|v q1 IH] using rev_ind; [set_solver +|]. intros q2 E w Hw.
      rewrite <-app_assoc in E. specialize (IH _ E). apply elem_of_app in Hw as [Hw|Hw%elem_of_list_singleton]; [auto|]. subst w.
      destruct (decide (v ∈ Z)) as [|Hv]; [done|]. exfalso.
      assert (dir_edge m v c) as [Hvc1 Hvc2] by (apply (dp_par _ _ _ _ _ D); rewrite E; set_solver +).
      eapply (Hno q1 v (q2 ++ [b])); [rewrite E; by simplify_list_eq|by eexists|]. apply act_prefix; [..|].
      - intros l1 x y z l2 E2. apply (Hcol l1 x y z (l2 ++ q2 ++ [b])). rewrite E. simplify_list_eq. rewrite <-(app_assoc l1) || idtac.
        change (d :: q1 ++ v :: q2 ++ [b]) with ((d :: q1) ++ [v] ++ q2 ++ [b]). rewrite app_assoc. change ((d :: q1) ++ [v]) with (d :: q1 ++ [v]). rewrite E2. by simplify_list_eq.
      - done.
      - intros u _. split; [|done]. intros [_ Hc]. by pose proof (mgw_one _ W _ _ _ _ Hvc2 Hc). }
    assert (mg_adj m b c) as Hbc by by eapply disc_bc.
    specialize (Hq q [] (eq_sym (app_nil_r q))).
    destruct (last q) as [a|] eqn:El; [|by apply last_None in El; apply (dp_some _ _ _ _ _ D) in El].
    assert (∀ u, last (d :: q) = Some u → u = a) as Hu. { intros u. destruct q; [done|]. rewrite last_cons_cons, El. congruence. }
    assert (Decision (m_collider m a b c)) as Hdec by (unfold m_collider, has_mark; apply _).
    split.
    - intros Hb. exists a. split; [done|]. intros Hc. eapply (Hno q b []); [done..|]. apply act_prefix; [done..|].
      intros u ->%Hu. done.
    - intros (a' & Ea & Hc). injection Ea as <-. destruct (decide (b ∈ Z)) as [|Hb]; [done|]. exfalso.
      eapply (Hno q b []); [done..|]. apply act_prefix; [done..|]. intros u ->%Hu. done.
  Qed.
End separating.
