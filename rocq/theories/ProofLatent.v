(** DAGs with latent nodes: the ancestral graph over the observed nodes has the separations of the DAG. *)
From Verif Require Import Base BaseLemmas Paths MSepTheory ModelGraph Spec ProofGraph ProofGraph2 ProofGraph3 ProofDsep ModelMixed SpecMixed ProofMixed ProofMixed2
  ModelPC SpecPC ModelPAG SpecPAG ProofPAG ProofPAGM ProofPAGX SpecPDS ModelFCI SpecFCI ProofVP LatentTheory SpecLatent.

Lemma act_ext (H H' : nat → nat → Prop) Z w : (∀ a b, H a b ↔ H' a b) → act H Z w → act H' Z w.
Proof.
  intros HH. induction w as [|a w IH]; [done|]. destruct w as [|b w]; [done|]. intros (H1 & H2 & H3).
  assert (∀ a b, madj H a b → madj H' a b) as M by (intros u v; unfold madj; rewrite !HH; done).
  split; [by apply M|]. split; [|by apply IH]. destruct w as [|c w]; [done|]. destruct H2 as [H2 H4]. unfold triple_ok, coll in *. rewrite !HH in *. split; [|done].
  intros Hc. destruct (H2 Hc) as (z & Hz & Hr). exists z. split; [done|]. eapply rtc_subrel; [|exact Hr]. intros u v. unfold dir. by rewrite !HH.
Qed.
Lemma subset_exists (P : node → Prop) (V : nset) : (∀ n, P n ∨ ¬ P n) → ∃ S : nset, ∀ n, n ∈ S ↔ n ∈ V ∧ P n.
Proof.
  intros Pd. induction V as [|n V Hn IH] using set_ind_L; [exists ∅; set_solver +|]. destruct IH as [S HS]. destruct (Pd n) as [H|H].
  - exists ({[n]} ∪ S). intros k. rewrite !elem_of_union, elem_of_singleton, HS. naive_solver.
  - exists S. intros k. rewrite elem_of_union, elem_of_singleton, HS. naive_solver.
Qed.

(** a bounded search in a finite set is decidable *)
Lemma list_dec {A} (Q : A → Prop) (l : list A) : (∀ a, Q a ∨ ¬ Q a) → (∃ a, a ∈ l ∧ Q a) ∨ ¬ ∃ a, a ∈ l ∧ Q a.
Proof.
  intros Qd. induction l as [|a l [(b & Hb & HQ)|IH]]; [right; intros (a & Ha & _); by apply elem_of_nil in Ha| |].
  - left. exists b. split; [by right|done].
  - destruct (Qd a) as [Ha|Ha]; [left; exists a; split; [by left|done]|]. right. intros (b & [->|Hb]%elem_of_cons & HQ); [done|]. apply IH. by exists b.
Qed.
Lemma lists_dec (V : nset) n : ∀ P : list node → Prop, (∀ p, P p ∨ ¬ P p) →
  (∃ p, length p ≤ n ∧ (∀ v, v ∈ p → v ∈ V) ∧ P p) ∨ ¬ ∃ p, length p ≤ n ∧ (∀ v, v ∈ p → v ∈ V) ∧ P p.
Proof.
  induction n as [|n IH]; intros P Pd; (destruct (Pd []) as [H0|H0]; [left; exists []; split_and!; [simpl; lia|set_solver +|done]|]).
  - right. intros ([|a p] & Hl & _ & Hp); [done|]. simpl in Hl. lia.
  - destruct (list_dec (λ a, ∃ p, length p ≤ n ∧ (∀ v, v ∈ p → v ∈ V) ∧ P (a :: p)) (elements V)) as [(a & Ha & p & H1 & H2 & H3)|Hno].
    + intros a. apply IH. intros p. apply Pd.
    + left. exists (a :: p). split_and!; [simpl; lia| |done]. intros v [->|Hv]%elem_of_cons; [by apply elem_of_elements|by apply H2].
    + right. intros ([|a p] & H1 & H2 & H3); [done|]. apply Hno. exists a. split; [apply elem_of_elements, H2; by left|].
      exists p. split_and!; [simpl in H1; lia| |done]. intros v Hv. apply H2. by right.
Qed.

Section latent.
  Context (d : graph) (Hwf : wf_graph d) (Hac : acyclic d) (V : nset).
  Let E := edge d.
  Let VP : nat → Prop := λ n, n ∈ V.
  Lemma l_anc_dec a b : rtc E a b ∨ ¬ rtc E a b.
  Proof. exact (ancestor_dec ord_up ord_up_ok d a b Hwf). Qed.
  Lemma l_V_dec a : VP a ∨ ¬ VP a.
  Proof. unfold VP. destruct (decide (a ∈ V)); tauto. Qed.
  Lemma l_irr a : ¬ E a a.
  Proof. exact (E_irr E Hac a). Qed.
  Lemma l_dacyc a : ¬ tc (dir E) a a.
  Proof. exact (E_dacyc E Hac a). Qed.

  (** active walks are enough *)
  Lemma walk_not_dsep (Z : list node) p x y : act E (.∈ Z) p → starts p x y → ¬ d_separated d x y Z.
  Proof.
    intros Hp Hs Hd. apply Hd. destruct (act_walk_path E l_irr (edge_dec d) l_dacyc (.∈ Z) p x y Hp Hs) as (q & Hq & [Hh Hl] & Hnd).
    apply act_active in Hq as [Hlk Ha]; [|done]. exists q. by split; [split_and!|].
  Qed.

  Lemma ind_inseparable a b : a ≠ b → ind E VP a b → inseparable d V a b.
  Proof.
    intros Hne Hi Z HZ.
    destruct (ind_connected E Hac (edge_dec d) VP (.∈ elements Z)) with (x := a) (y := b) as (p & Hp & Hs); [|by apply (anZ_dec_dag ord_up ord_up_ok)|done|by eapply walk_not_dsep].
    intros z Hz%elem_of_elements. unfold VP. set_solver.
  Qed.
  Lemma act_dec (Z : list node) p : act E (.∈ Z) p ∨ ¬ act E (.∈ Z) p.
  Proof.
    induction p as [|a p IH]; [by left|]. destruct p as [|b p]; [by left|].
    assert (madj E a b ∨ ¬ madj E a b) as D1 by (unfold madj; destruct (edge_dec d a b), (edge_dec d b a); tauto).
    assert (∀ c, triple_ok E (.∈ Z) a b c ∨ ¬ triple_ok E (.∈ Z) a b c) as D2.
    { intros c. unfold triple_ok. destruct (coll_dec E (edge_dec d) a b c), (anZ_dec_dag ord_up ord_up_ok d Z Hwf Hac b), (decide (b ∈ Z)); tauto. }
    change (act E (.∈ Z) (a :: b :: p)) with (madj E a b ∧ match p with c :: _ => triple_ok E (.∈ Z) a b c | [] => True end ∧ act E (.∈ Z) (b :: p)).
    destruct p as [|c p]; [tauto|]. specialize (D2 c). tauto.
  Qed.
  Lemma path_dec (Z : list node) x y : (∃ p, act E (.∈ Z) p ∧ starts p x y ∧ NoDup p) ∨ ¬ ∃ p, act E (.∈ Z) p ∧ starts p x y ∧ NoDup p.
  Proof.
    set (N := gnodes d ∪ {[x]}).
    destruct (lists_dec N (size N) (λ p, act E (.∈ Z) p ∧ starts p x y ∧ NoDup p)) as [(p & _ & _ & Hp)|Hno].
    - intros p. unfold starts. destruct (act_dec Z p), (decide (head p = Some x)), (decide (last p = Some y)), (decide (NoDup p)); tauto.
    - left. by exists p.
    - right. intros (p & Hp & Hs & Hnd). apply Hno. exists p.
      assert (∀ v, v ∈ p → v ∈ N) as Hin.
      { intros v Hv. apply elem_of_list_split in Hv as (l1 & l2 & ->). unfold N. destruct (rev_case l1) as [->|(l1' & a & ->)].
        - destruct Hs as [Hh _]. injection Hh as ->. set_solver +.
        - rewrite <-app_assoc in Hp. apply act_app_r in Hp. simpl in Hp. destruct Hp as [[H|H] _]; apply Hwf in H; set_solver +H. }
      split_and!; [|done..]. rewrite <-(size_list_to_set (C := nset) p Hnd). apply subseteq_size. intros v Hv%elem_of_list_to_set. by apply Hin.
  Qed.
  (** the observed ancestors of a and b separate them if any set does *)
  Lemma ancestors_ind a b (Z : nset) : a ≠ b → (∀ n, n ∈ Z ↔ n ∈ V ∧ n ≠ a ∧ n ≠ b ∧ (ancestor d n a ∨ ancestor d n b)) →
    ¬ d_separated d a b (elements Z) → ind E VP a b.
  Proof.
    intros Hne HZ Hd.
    destruct (path_dec (elements Z) a b) as [(p & Hact & [Hh Hl] & Hnd)|Hno].
    - 
      destruct p as [|a' p]; [done|]. injection Hh as ->. destruct (rev_case p) as [->|(l & b' & ->)]; [simpl in Hl; congruence|].
      rewrite app_comm_cons, last_snoc in Hl. injection Hl as ->. exists l.
      assert (starts (a :: l ++ [b]) a b) as Hs by (split; [done|by rewrite app_comm_cons, last_snoc]).
      assert (∀ w, act E (.∈ elements Z) w → tw E (triple_ok E (.∈ elements Z)) w) as Htw.
      { clear. induction w as [|u w IH]; [done|]. destruct w as [|v w]; [done|]. intros (H1 & H2 & H3). split; [done|]. split; [done|]. by apply IH. }
      eapply tw_impl; [|apply (tw_and E _ (λ u v w, (rtc E v a ∨ rtc E v b) ∧ v ≠ a ∧ v ≠ b) _ (Htw _ Hact))].
      + cbn beta. intros u v w ((_ & H1) & H2 & H3 & H4). split; [done|]. intros Hc HV. apply (H1 Hc). apply elem_of_elements, HZ. done.
      + intros l1 u v w l2 Eq. split.
        * rewrite Eq in Hact, Hs. destruct (act_An_mid E (edge_dec d) _ a b l1 u v w l2 Hact Hs) as [H|[H|(z & Hz & H)]]; apply (rtc_dir_E E Hac) in H; [by left|by right|].
          apply elem_of_elements, HZ in Hz as (_ & _ & _ & [Hr|Hr]); [left|right]; by etrans.
        * rewrite Eq in Hnd. pose proof Eq as Eq2.
          assert (v ∈ l) as Hv.
          { destruct l1 as [|u' l1]; simpl in Eq; injection Eq as -> Eq.
            - destruct (rev_case (w :: l2)) as [?|(l2' & e & E2)]; [done|]. rewrite E2 in Eq. rewrite app_comm_cons in Eq. apply app_inj_tail in Eq as [-> _]. set_solver +.
            - replace (l1 ++ u :: v :: w :: l2) with ((l1 ++ [u; v]) ++ w :: l2) in Eq by by rewrite <-app_assoc.
              destruct (rev_case (w :: l2)) as [?|(l2' & e & E2)]; [done|]. rewrite E2, app_assoc in Eq. apply app_inj_tail in Eq as [-> _]. set_solver +. }
          rewrite <-Eq2 in Hnd. apply NoDup_cons in Hnd as [N1 N2]. apply NoDup_app in N2 as (_ & N2 & _). split; intros ->; set_solver.
    - destruct Hd. intros (p & (Hh & Hl & Hnd & Hlk) & Ha). apply Hno. exists p. split; [by apply act_active|]. by split.
  Qed.

  Lemma ancestors_set a b : ∃ Z : nset, ∀ n, n ∈ Z ↔ n ∈ V ∧ n ≠ a ∧ n ≠ b ∧ (ancestor d n a ∨ ancestor d n b).
  Proof.
    apply (subset_exists (λ n, n ≠ a ∧ n ≠ b ∧ (ancestor d n a ∨ ancestor d n b)) V). intros n.
    destruct (decide (n = a)), (decide (n = b)), (l_anc_dec n a), (l_anc_dec n b); tauto.
  Qed.
  Lemma inseparable_ind a b : a ≠ b → inseparable d V a b ↔ ind E VP a b.
  Proof.
    intros Hne. split; [|by apply ind_inseparable]. intros Hi. destruct (ancestors_set a b) as [Z HZ].
    apply (ancestors_ind a b Z Hne HZ). apply Hi. intros n Hn%HZ. set_solver.
  Qed.
  Lemma separable_exists a b : a ≠ b → ¬ inseparable d V a b → ∃ Z : nset, Z ⊆ V ∖ {[a; b]} ∧ d_separated d a b (elements Z).
  Proof.
    intros Hne Hn. destruct (ancestors_set a b) as [Z HZ]. exists Z. split; [intros n Hn'%HZ; set_solver|].
    destruct (path_dec (elements Z) a b) as [(p & Hact & Hs & Hnd)|Hno].
    - destruct Hn. apply inseparable_ind; [done|]. apply (ancestors_ind a b Z Hne HZ). by eapply walk_not_dsep.
    - intros (p & (Hh & Hl & Hnd & Hlk) & Ha). apply Hno. exists p. split; [by apply act_active|]. by split.
  Qed.
  Lemma inseparable_sym a b : inseparable d V a b → inseparable d V b a.
  Proof. intros H Z HZ Hd. apply (H Z); [set_solver|]. by apply d_separated_sym. Qed.

  (** ** The ancestral graph over V *)
  Context (m : mgraph) (M : mag_of d V m).
  Let H (a b : node) : Prop := has_mark m a Directed b.
  Lemma mag_H a b : H a b ↔ Hm E VP a b.
  Proof.
    unfold H. rewrite (mo_arrow _ _ _ M). unfold Hm. split; intros (H1 & H2 & H3 & H4 & H5); (split_and!; [done..| |done]); by apply inseparable_ind.
  Qed.
  Lemma mag_adj a b : mg_adj m a b ↔ a ∈ V ∧ b ∈ V ∧ a ≠ b ∧ inseparable d V a b.
  Proof.
    split.
    - intros [[] Hk]; [by apply (mo_circle _ _ _ M) in Hk|apply (mo_arrow _ _ _ M) in Hk; tauto|apply (mo_tail _ _ _ M) in Hk; tauto].
    - intros (H1 & H2 & H3 & H4). destruct (l_anc_dec b a) as [Hr|Hr]; [exists Tail; by apply (mo_tail _ _ _ M)|exists Directed; by apply (mo_arrow _ _ _ M)].
  Qed.
  Lemma mag_wf : mg_wf m.
  Proof.
    split.
    - intros a k b Hk. assert (mg_adj m a b) as (H1 & H2 & H3 & _)%mag_adj by by eexists. by rewrite (mo_nodes _ _ _ M).
    - intros a k b Hk. assert (mg_adj m a b) as (H1 & H2 & H3 & H4)%mag_adj by by eexists. apply mag_adj. split_and!; [done..|]. by apply inseparable_sym.
    - intros a k j b Hk Hj. destruct k, j; try done; try (by apply (mo_circle _ _ _ M) in Hk); try (by apply (mo_circle _ _ _ M) in Hj).
      + apply (mo_arrow _ _ _ M) in Hk. apply (mo_tail _ _ _ M) in Hj. tauto.
      + apply (mo_tail _ _ _ M) in Hk. apply (mo_arrow _ _ _ M) in Hj. tauto.
  Qed.
  Lemma mag_dir a b : SpecPAG.dir_edge m a b ↔ a ∈ V ∧ b ∈ V ∧ a ≠ b ∧ inseparable d V a b ∧ ancestor d a b.
  Proof.
    unfold SpecPAG.dir_edge. rewrite (mo_arrow _ _ _ M), (mo_tail _ _ _ M). split; [naive_solver|].
    intros (H1 & H2 & H3 & H4 & H5). split; (split_and!; [done..| |]); [done| |by apply inseparable_sym|done].
    intros H6. destruct H3. by apply (rtc_anti E Hac).
  Qed.
  Lemma mag_rtc a b : rtc (SpecPAG.dir_edge m) a b → ancestor d a b.
  Proof. unfold ancestor. induction 1 as [|a b c Hab _ IH]; [done|]. apply mag_dir in Hab as (_&_&_&_&Hr). by etrans. Qed.
  Lemma mag_no_und a b : ¬ und_edge m a b.
  Proof.
    intros [H1 H2]. apply (mo_tail _ _ _ M) in H1 as (_ & _ & Hne & _ & H1). apply (mo_tail _ _ _ M) in H2 as (_ & _ & _ & _ & H2). destruct Hne. by apply (rtc_anti E Hac).
  Qed.
  Lemma mag_ancestral : ancestral m.
  Proof.
    split.
    - apply mag_wf. - apply (mo_circle _ _ _ M).
    - intros a b Ht Hk. apply tc_rtc, mag_rtc in Ht. apply (mo_arrow _ _ _ M) in Hk. tauto.
    - intros a b c Hu. by apply mag_no_und in Hu.
  Qed.
  Lemma mag_dir_mixed : dir_mixed m.
  Proof.
    split; [apply mag_wf|apply (mo_circle _ _ _ M)|apply mag_no_und|].
    intros a Ht. assert (∃ b, SpecPAG.dir_edge m a b ∧ rtc (SpecPAG.dir_edge m) b a) as (b & H1 & H2).
    { inversion Ht as [? ? H1|? b ? H1 H2]; subst; [exists a|exists b]; (split; [done|]); [done|by apply tc_rtc]. }
    apply mag_dir in H1 as (_ & _ & Hne & _ & H1). apply mag_rtc in H2. destruct Hne. by apply (rtc_anti E Hac).
  Qed.

  Theorem mag_separated a b (Z : list node) : a ∈ V → b ∈ V → a ≠ b → (∀ z, z ∈ Z → z ∈ V ∧ z ≠ a ∧ z ≠ b) →
    m_separated m a b (list_to_set Z) ↔ d_separated d a b Z.
  Proof.
    intros Ha Hb Hne HZ. pose proof mag_dir_mixed as D.
    assert (∀ z, z ∈ Z → VP z) as ZV by (intros z Hz; by apply HZ).
    assert (∀ u v, H u v ∨ ¬ H u v) as Hd by (intros u v; unfold H, has_mark; destruct (decide (u ∈ mset m v Directed)); tauto).
    assert (∀ u v, Hm E VP u v ∨ ¬ Hm E VP u v) as Hmd by (intros u v; rewrite <-mag_H; apply Hd).
    split.
    - intros Hm' (p & (Hh & Hl & Hnd & Hlk) & Hact). apply Hm'. clear Hm'.
      assert (act E (.∈ Z) p) as Hact' by by apply act_active.
      destruct p as [|a' [|c t]]; [done|simpl in *; congruence|].
      destruct (act_sact E (edge_dec d) (.∈ Z)) with (t := t) (a := a') (b := c) as (t' & Hs & Hl'); [intros z; destruct (decide (z ∈ Z)); tauto|done|].
      destruct (project E Hac (edge_dec d) l_anc_dec VP l_V_dec (.∈ Z) ZV a b (a' :: c :: t')) as (w & Hw & Hst); [done|done|done|done|split; [done|by rewrite last_cons_cons, Hl', <-(last_cons_cons a')]|].
      apply (sact_act (Hm E VP)) in Hw. apply (act_ext _ H) in Hw; [|intros u v; symmetry; apply mag_H].
      destruct (act_walk_path H) with (Z := λ z, z ∈ Z) (w := w) (x := a) (y := b) as (q & Hq & [Qh Ql] & Qnd); [|done| |done|done|].
      + intros u Hu. apply (mgw_in _ mag_wf) in Hu as (_ & _ & ?). done.
      + intros u Ht. apply (dm_acyclic _ D u). eapply tc_mono; [|exact Ht]. intros u' v'. by apply (dir_dir m D).
      + apply (act_active_m m D) in Hq as [Qlk Qa]. exists q. by split; [split_and!|].
    - intros Hd' (p & (Hh & Hl & Hnd & Hlk) & Hact).
      assert (act H (.∈ Z) p) as Hact' by by apply (act_active_m m D).
      apply (act_ext _ (Hm E VP)) in Hact'; [|apply mag_H].
      destruct (unproject E Hac (edge_dec d) l_anc_dec VP (.∈ Z) ZV) with (x := a) (y := b) (w := p) as (q & Hq & Hs); [by apply (anZ_dec_dag ord_up ord_up_ok)|done|done|done|by split|].
      by eapply walk_not_dsep.
  Qed.
End latent.

(** ** The ancestral graph exists *)
Definition anc_b (d : graph) (a b : node) : bool :=
  match is_ancestor ord_up (S (size (gnodes d))) d b a with Ok r => r | _ => false end.
Definition sep_b (d : graph) (a b : node) (Z : nset) : bool :=
  match dsep ord_up (S (size (gnodes d))) d a b (elements Z) with Ok r => r | _ => true end.
Definition insep_b (d : graph) (V : nset) (a b : node) : bool :=
  negb (sep_b d a b (filter (λ n, n ≠ a ∧ n ≠ b ∧ (anc_b d n a = true ∨ anc_b d n b = true)) V)).
Definition mag (d : graph) (V : nset) : mgraph :=
  MGraph V (λ b k, if decide (b ∈ V) then
    filter (λ a, a ≠ b ∧ insep_b d V a b = true ∧ k = (if anc_b d b a then Tail else Directed)) V else ∅).
Lemma anc_b_ok d a b : wf_graph d → b ∈ gnodes d → anc_b d a b = true ↔ ancestor d a b.
Proof.
  intros Hwf Hb. unfold anc_b. pose proof (is_ancestor_spec ord_up ord_up_ok d (S (size (gnodes d))) b a Hwf Hb) as H.
  apply returns_ok in H as (r & -> & H); [done|lia].
Qed.
Lemma insep_b_ok d V a b : wf_graph d → acyclic d → V ⊆ gnodes d → a ∈ V → b ∈ V → a ≠ b → insep_b d V a b = true ↔ inseparable d V a b.
Proof.
  intros Hwf Hac HV Ha Hb Hne. unfold insep_b. set (Z := filter _ V).
  assert (∀ n, n ∈ Z ↔ n ∈ V ∧ n ≠ a ∧ n ≠ b ∧ (ancestor d n a ∨ ancestor d n b)) as HZ.
  { intros n. unfold Z. rewrite elem_of_filter, !anc_b_ok by set_solver. tauto. }
  unfold sep_b. assert (returns (dsep ord_up (S (size (gnodes d))) d a b (elements Z)) (λ r, r = true ↔ d_separated d a b (elements Z))) as H.
  { apply dsep_spec; try done; [exact ord_up_ok|lia|by apply HV|by apply HV|intros z Hz%elem_of_elements%HZ; apply HV; tauto|].
    intros Hz%elem_of_elements%HZ. tauto. }
  apply returns_ok in H as (r & -> & H). split.
  - intros Hr. apply inseparable_ind; [done..|]. apply (ancestors_ind d Hwf Hac V a b Z Hne HZ). intros Hd%H. by rewrite Hd in Hr.
  - intros Hi. destruct r; [|done]. destruct (Hi Z); [intros n Hn%HZ; set_solver|by apply H].
Qed.
Lemma mag_exists d V : wf_graph d → acyclic d → V ⊆ gnodes d → mag_of d V (mag d V).
Proof.
  intros Hwf Hac HV.
  assert (∀ a k b, has_mark (mag d V) a k b ↔ a ∈ V ∧ b ∈ V ∧ a ≠ b ∧ inseparable d V a b ∧ k = if anc_b d b a then Tail else Directed) as HM.
  { intros a k b. unfold has_mark, mag. cbn [mset]. destruct (decide (b ∈ V)) as [Hb|Hb]; [|set_solver].
    rewrite elem_of_filter. split.
    - intros ((H1 & H2 & H3) & H4). apply insep_b_ok in H2; done.
    - intros (H1 & _ & H2 & H3 & H4). split_and!; [done| |done..]. by apply insep_b_ok. }
  split.
  - done.
  - intros a b (_ & _ & _ & _ & Hk)%HM. by destruct (anc_b d b a).
  - intros a b. rewrite HM. split; intros (H1 & H2 & H3 & H4 & H5); (split_and!; [done..|]).
    + intros Hr. apply anc_b_ok in Hr; [|done|by apply HV]. by rewrite Hr in H5.
    + destruct (anc_b d b a) eqn:Eb; [|done]. apply anc_b_ok in Eb; [done|done|by apply HV].
  - intros a b. rewrite HM. split; intros (H1 & H2 & H3 & H4 & H5); (split_and!; [done..|]).
    + destruct (anc_b d b a) eqn:Eb; [|done]. apply anc_b_ok in Eb; [done|done|by apply HV].
    + apply anc_b_ok in H5; [|done|by apply HV]. by rewrite H5.
Qed.

(** the oracle of the DAG answers according to the ancestral graph *)
Lemma latent_perfect o fuel d V m : iter_ok o → wf_graph d → acyclic d → V ⊆ gnodes d → size (gnodes d) < fuel → mag_of d V m →
  perfect_for m (dsep_ci o fuel d).
Proof.
  intros Ho Hwf Hac HV Hf M log i j c Hi Hj Hne _ Hc. rewrite (mo_nodes _ _ _ M) in *. unfold dsep_ci.
  assert (returns (dsep o fuel d i j c) (λ b, b = true ↔ d_separated d i j c)) as H.
  { apply dsep_spec; try done; [by apply HV|by apply HV|intros z Hz; apply HV; by apply Hc|]. intros H. apply Hc in H. tauto. }
  apply returns_ok in H as (b & -> & H). rewrite H. symmetry. by apply (mag_separated d Hwf Hac V m M).
Qed.
(** what is right about the ancestral graph is right about the DAG *)
Lemma sound_mag_dag d V m g : wf_graph d → acyclic d → mag_of d V m → sound_for m g → sound_for_dag d V g.
Proof.
  intros Hwf Hac M [[Hn Ha Hk] Hc]. pose proof (mo_nodes _ _ _ M) as N.
  assert (∀ a b, mg_adj g a b ↔ a ∈ V ∧ b ∈ V ∧ a ≠ b ∧ inseparable d V a b) as HA by (intros a b; rewrite <-Ha; by apply mag_adj).
  split.
  - by rewrite <-Hn.
  - intros a b H1 H2 H3. rewrite HA. tauto.
  - intros a b H. apply Hk in H; [|done]. apply (mo_arrow _ _ _ M) in H. tauto.
  - intros a b H. apply Hk in H; [|done]. apply (mo_tail _ _ _ M) in H. tauto.
  - intros a b c H1 H2 H3 H4. rewrite (Hc a b c H1 H2 H3 H4). unfold m_collider. rewrite !(mo_arrow _ _ _ M). apply HA in H1, H2.
    pose proof (inseparable_sym d Hwf Hac V b c). destruct H1 as (?&?&?&?), H2 as (?&?&?&?). split; [tauto|]. intros [? ?]. split; (split_and!; [done..| |done]); [done|]. auto.
Qed.
