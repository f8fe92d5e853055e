(** Repeated application of the rules: termination, fixpoint. *)
From Verif Require Import Base BaseLemmas ModelGraph ModelMixed ModelPC ModelPAG Spec SpecMixed SpecPAG SpecPC Paths ProofMixed ProofMixed2 ProofPAG ProofPAGR ProofPAGR2.

Definition Pi (sep : sepset) (i : nat) : pattern :=
  match i with
  | 1 => P1 | 2 => P2 | 3 => P3 | 4 => P4 sep | 5 => P5 | 6 => P6 | 7 => P7 | 8 => P8 | 9 => P9 | 10 => P10
  | _ => λ _ _ _, False
  end.
Definition Pany (sep : sepset) (rules : list nat) : pattern := λ h k acts, ∃ i, i ∈ rules ∧ Pi sep i h k acts.

Lemma Pi_good sep i : good (Pi sep i).
Proof.
  do 11 (destruct i as [|i]; [first [by intros ? ? ? ? ? []|apply P1_good|apply P2_good|apply P3_good|apply P4_good|apply P5_good|apply P6_good|apply P7_good|apply P8_good|apply P9_good|apply P10_good]|]).
  by intros ? ? ? ? ? [].
Qed.
Lemma Pany_good sep rules : good (Pany sep rules).
Proof. intros h k acts Hwf R (i & _ & H). by eapply Pi_good. Qed.

Lemma sep_total_refines sep g g' : refines g g' → sep_total sep g → sep_total sep g'.
Proof. intros R H x y. rewrite (rf_nodes _ _ R), (rf_adj _ _ R). apply H. Qed.

(** the number of circles *)
Definition all_pairs (V : nset) : list (node * node) := mjoin ((λ a, (a,.) <$> elements V) <$> elements V).
Definition circles (g : mgraph) : nat := length (filter (λ p, p.1 ∈ mset g p.2 Circle) (all_pairs (mnodes g))).
Lemma elem_all_pairs V a b : (a, b) ∈ all_pairs V ↔ a ∈ V ∧ b ∈ V.
Proof.
  unfold all_pairs. rewrite elem_of_list_join. split.
  - intros (l & H1 & H2). apply elem_of_list_fmap in H2 as (a' & -> & H2). apply elem_of_list_fmap in H1 as (b' & E & H1).
    simplify_eq. set_solver.
  - intros [H1 H2]. exists ((a,.) <$> elements V). split; apply elem_of_list_fmap; [exists b|exists a]; set_solver.
Qed.
Lemma length_all_pairs V : length (all_pairs V) = size V * size V.
Proof.
  unfold all_pairs. assert (∀ l : list nat, length (mjoin ((λ a, (a,.) <$> elements V) <$> l)) = length l * size V) as H.
  { induction l as [|x l IH]; [done|].
    change (length ((pair x <$> elements V) ++ mjoin ((λ a, (a,.) <$> elements V) <$> l)) = S (length l) * size V).
    rewrite app_length, fmap_length, IH. done. }
  rewrite H. done.
Qed.
Lemma filter_length_lt {A} (P Q : A → Prop) `{∀ x, Decision (P x)} `{∀ x, Decision (Q x)} (l : list A) :
  (∀ x, Q x → P x) → length (filter Q l) ≤ length (filter P l) ∧ ((∃ x, x ∈ l ∧ P x ∧ ¬ Q x) → length (filter Q l) < length (filter P l)).
Proof.
  intros HQP. induction l as [|x l [IH1 IH2]]; [split; [simpl; lia|intros (x & Hx & _); set_solver]|].
  rewrite !filter_cons. destruct (decide (Q x)), (decide (P x)); simpl.
  - split; [lia|]. intros (y & Hy & H1 & H2). apply elem_of_cons in Hy as [->|Hy]; [done|]. enough (length (filter Q l) < length (filter P l)) by lia. eauto.
  - exfalso. auto.
  - split; [lia|]. intros. lia.
  - split; [lia|]. intros (y & Hy & H1 & H2). apply elem_of_cons in Hy as [->|Hy]; [done|]. eauto.
Qed.
Lemma circles_lost g g' : mg_wf g → refines g g' → lost g g' → circles g' < circles g.
Proof.
  intros Hwf R (a & b & H1 & H2). unfold circles. rewrite (rf_nodes _ _ R).
  apply (filter_length_lt (λ p : node * node, p.1 ∈ mset g p.2 Circle) (λ p : node * node, p.1 ∈ mset g' p.2 Circle)).
  - intros [x y]. apply (rf_circle _ _ R).
  - exists (a, b). split; [|done]. apply elem_all_pairs. by apply (mgw_in _ Hwf) in H1 as (? & ? & _).
Qed.
Lemma circles_bound g : circles g ≤ size (mnodes g) * size (mnodes g).
Proof. unfold circles. rewrite <-length_all_pairs. apply filter_length. Qed.

Section loop.
  Context (o : order) (Ho : iter_ok o) (fuel' : nat) (sep : sepset) (rules : list nat) (Hrules : ∀ i, i ∈ rules → rule_no i).

  Lemma rule_ok i g : mg_wf g → rule_no i → size (mnodes g) + 1 < fuel' → sep_total sep g →
    ∃ f, pag_rule o fuel' sep i = Ok f ∧ returns (f g) (λ r, stale (Pi sep i) g r.1 ∧ flag g (i ≠ 10 → ¬ rule_applies i g) r).
  Proof.
    intros Hwf Hi Hf Hsep.
    assert (∀ m (P : pattern) (N M : Prop), returns m (λ r, stale P g r.1 ∧ flag g N r) → (N → M) → returns m (λ r, stale P g r.1 ∧ flag g M r)) as Hw.
    { intros m P N M H HNM. eapply returns_mono; [exact H|]. cbn beta. intros r [? Hr]. split; [done|]. eapply flag_mono; [exact Hr|]. auto. }
    destruct i as [|[|[|[|[|[|[|[|[|[|[|i]]]]]]]]]]]; [unfold rule_no in Hi; lia|..|unfold rule_no in Hi; lia]; eexists; (split; [reflexivity|]); cbn [Pi rule_applies].
    - eapply Hw; [apply rule_1_ok; done|done].
    - eapply Hw; [apply rule_2_ok; done|done].
    - eapply Hw; [apply rule_3_ok; done|done].
    - eapply Hw; [apply rule_4_ok; done|done].
    - eapply Hw; [apply rule_5_ok; done|done].
    - eapply Hw; [apply rule_6_ok; done|done].
    - eapply Hw; [apply rule_7_ok; done|done].
    - eapply Hw; [apply rule_8_ok; done|done].
    - eapply Hw; [apply rule_9_ok; done|done].
    - eapply Hw; [apply rule_10_ok; done|done].
  Qed.

  
  Lemma pass_ok g : mg_wf g → size (mnodes g) + 1 < fuel' → sep_total sep g →
    returns (pag_pass o fuel' sep rules g) (λ r, stale (Pany sep rules) g r.1 ∧ flag g (settled rules g) r).
  Proof.
    intros Hwf Hf Hsep. unfold pag_pass.
    eapply returns_mono; [apply (loop_flag g rules _ (λ _ g', stale (Pany sep rules) g g') (λ i, i ≠ 10 → ¬ rule_applies i g) True); [constructor|by apply flag_start|]|].
    - intros pre i post s N E Hst Hfl.
      assert (refines g s.1) as R by (eapply stale_refines; [apply Pany_good|done..]).
      assert (i ∈ rules) as Hi by (rewrite E; set_solver +).
      destruct (rule_ok i s.1) as (f & -> & Hret); [apply R|by apply Hrules|by rewrite (rf_nodes _ _ R)|by eapply sep_total_refines|].
      cbn [mbind res_bind]. eapply returns_bind; [exact Hret|]. cbn beta. intros r [Hst' Hfl']. simpl.
      assert (stale (Pany sep rules) s.1 r.1) as Hst''. { eapply stale_mono; [|exact Hst']. intros h k l HP. by exists i. }
      split; [by eapply stale_trans|].
      assert (refines s.1 r.1) as R' by (eapply stale_refines; [apply Pany_good|apply R|done]).
      destruct Hfl as [[E1 (x & y & H1 & H2)]|(E1 & E2 & HN)].
      + left. rewrite E1. split; [done|]. exists x, y. split; [done|]. simpl. intros H3. apply H2. by apply (rf_circle _ _ R').
      + destruct Hfl' as [[E3 (x & y & H1 & H2)]|(E3 & E4 & HN')].
        * left. cbn [snd fst]. rewrite E3, orb_true_r. split; [done|]. exists x, y. split; [|done]. by rewrite <-E2.
        * right. cbn [snd fst]. rewrite E1, E3. split_and!; [done|congruence|done|]. by rewrite <-E2.
    - cbn beta. intros r [? Hfl]. split; [done|]. eapply flag_mono; [exact Hfl|]. intros _ [_ HN] i Hi. by apply HN.
  Qed.

  Lemma orient_loop_ok fuel : ∀ g, mg_wf g → size (mnodes g) + 1 < fuel' → sep_total sep g → circles g < fuel →
    returns (pag_orient_loop o fuel fuel' sep rules g) (λ r, stale (Pany sep rules) g r ∧ settled rules r ∧ pag_pass o fuel' sep rules r = Ok (r, false)).
  Proof.
    induction fuel as [|fuel IH]; intros g Hwf Hf Hsep Hc; [lia|]. cbn [pag_orient_loop].
    pose proof (pass_ok g Hwf Hf Hsep) as Hp. apply returns_ok in Hp as (r & Er & Hst & Hfl). rewrite Er. cbn [mbind res_bind].
    assert (refines g r.1) as R by (eapply stale_refines; [apply Pany_good|done..]).
    destruct Hfl as [[E Hlost]|(E & E2 & HN)]; rewrite E.
    - eapply returns_mono; [apply IH|].
      + apply R.
      + by rewrite (rf_nodes _ _ R).
      + by eapply sep_total_refines.
      + pose proof (circles_lost g r.1 Hwf R Hlost). lia.
      + cbn beta. intros r' (? & ? & ?). split_and!; try done. by eapply stale_trans.
    - simpl. rewrite E2. split_and!; [constructor|done|]. rewrite Er. destruct r; simpl in *; congruence.
  Qed.
End loop.

Lemma pag_orient_ok o fuel sep g rules : iter_ok o → mg_wf g → sep_total sep g → size (mnodes g) * size (mnodes g) + 2 < fuel →
  let rs := default (seq 1 10) rules in (∀ i, i ∈ rs → rule_no i) →
  returns (pag_orient o fuel sep g rules) (λ r, stale (Pany sep rs) g r ∧ settled rs r ∧ pag_pass o fuel sep rs r = Ok (r, false)).
Proof.
  intros Ho Hwf Hsep Hf rs Hrs. unfold pag_orient. fold rs. apply orient_loop_ok; try done; [nia|].
  pose proof (circles_bound g). lia.
Qed.
