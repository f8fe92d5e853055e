(** Consequences for PropPAG.v: marks under correct separation sets, agreement of m-separation and d-separation. *)
From Verif Require Import Base BaseLemmas ModelGraph Spec Paths ProofDsep.
From Verif Require Import ModelMixed ModelPC ModelPAG SpecMixed SpecPAG ProofPDAG ProofMixed ProofMixed2 ProofPAG ProofPAG2.
From Verif Require Import ProofPAGR ProofPAGR2 ProofPAGS ProofPAGT ProofPAGM ProofPAGU ProofPAGV.

(** ** Orientation *)
Lemma orient_refines o fuel sep g rules : iter_ok o → mg_wf g → sep_total sep g → size (mnodes g) * size (mnodes g) + 2 < fuel →
  (∀ i, i ∈ default (seq 1 10) rules → 1 ≤ i ≤ 10) →
  returns (pag_orient o fuel sep g rules) (λ h, refines g h ∧ pag_pass o fuel sep (default (seq 1 10) rules) h = Ok (h, false)).
Proof.
  intros Ho Hwf Hs Hf Hr. eapply returns_mono; [by apply pag_orient_ok|]. cbn beta. intros h (H1 & H2 & H3). split; [|done].
  eapply stale_refines; [apply Pany_good|done..].
Qed.
Lemma orient_settled o fuel sep g rules : iter_ok o → mg_wf g → sep_total sep g → size (mnodes g) * size (mnodes g) + 2 < fuel →
  (∀ i, i ∈ default (seq 1 10) rules → 1 ≤ i ≤ 10) →
  returns (pag_orient o fuel sep g rules) (λ h, ∀ i, i ∈ default (seq 1 10) rules → i ≠ 10 → ¬ rule_applies i h).
Proof. intros Ho Hwf Hs Hf Hr. eapply returns_mono; [by apply pag_orient_ok|]. cbn beta. intros h (H1 & H2 & H3). exact H2. Qed.

(** non-circle marks of both graphs agree with m, so none is changed *)
Lemma compat_keeps m g h S : mg_wf g → compat m g S → compat m h S → refines g h → ∀ a k b, k ≠ Circle → has_mark g a k b → has_mark h a k b.
Proof.
  intros W C C' R a k b Hk Hab. pose proof (cp_marks _ _ _ C _ _ _ Hk Hab) as Hm.
  assert (mg_adj h a b) as [k' Hk'] by (apply (rf_adj _ _ R); by eexists).
  destruct (decide (k' = Circle)) as [->|Hne].
  - apply (rf_circle _ _ R) in Hk'. exfalso. apply Hk. by apply (mgw_one _ W a k Circle b).
  - pose proof (cp_marks _ _ _ C' _ _ _ Hne Hk') as Hm'. by rewrite (mgw_one _ (an_wf _ (cp_anc _ _ _ C)) _ _ _ _ Hm Hm').
Qed.
Lemma compat_total m g sep : compat m g (sep_fun sep) → separating m (sep_fun sep) → sep_total sep g.
Proof. intros C HS. eapply separating_total; [apply C|apply C|done]. Qed.
Lemma pass_keeps o fuel sep m g rules : iter_ok o → mg_wf g → compat m g (sep_fun sep) → separating m (sep_fun sep) → size (mnodes g) + 1 < fuel →
  (∀ i, i ∈ rules → 1 ≤ i ≤ 9) →
  returns (pag_pass o fuel sep rules g) (λ r, mg_wf r.1 ∧ compat m r.1 (sep_fun sep) ∧ ∀ a k b, k ≠ Circle → has_mark g a k b → has_mark r.1 a k b).
Proof.
  intros Ho Hwf C HS Hf Hr. eapply returns_mono; [apply pass_ok; try done|].
  { intros i Hi. apply Hr in Hi. unfold rule_no. lia. }
  { by eapply compat_total. }
  cbn beta. intros r [Hst _]. assert (refines g r.1) as R by (eapply stale_refines; [apply Pany_good|done..]).
  assert (compat m r.1 (sep_fun sep)) as C'.
  { eapply stale_sound; [apply Pany_good|exact Hwf| |exact C|exact Hst]. apply sound_any; [done|]. intros i Hi. apply Hr in Hi. lia. }
  split; [apply R|]. split; [done|]. by eapply compat_keeps.
Qed.
Lemma orient_keeps o fuel sep m g rules : iter_ok o → mg_wf g → compat m g (sep_fun sep) → separating m (sep_fun sep) → size (mnodes g) * size (mnodes g) + 2 < fuel →
  (∀ i, i ∈ rules → 1 ≤ i ≤ 9) →
  returns (pag_orient o fuel sep g (Some rules)) (λ r, mg_wf r ∧ compat m r (sep_fun sep) ∧ ∀ a k b, k ≠ Circle → has_mark g a k b → has_mark r a k b).
Proof.
  intros Ho Hwf C HS Hf Hr. eapply returns_mono; [apply pag_orient_ok; try done|].
  { by eapply compat_total. }
  { simpl. intros i Hi. apply Hr in Hi. unfold rule_no. lia. }
  cbn beta. intros r [Hst _]. assert (refines g r) as R by (eapply stale_refines; [apply Pany_good|done..]).
  assert (compat m r (sep_fun sep)) as C'.
  { eapply stale_sound; [apply Pany_good|exact Hwf| |exact C|exact Hst]. apply sound_any; [done|]. simpl. intros i Hi. apply Hr in Hi. lia. }
  split; [apply R|]. split; [done|]. by eapply compat_keeps.
Qed.

(** v-structures keep arrowheads *)
Lemma v_structures_arrows o sep g : iter_ok o → mg_wf g → sep_total sep g →
  returns (pag_v_structures o g sep) (λ h, ∀ a b, has_mark g a Directed b → has_mark h a Directed b).
Proof. intros Ho Hwf Hs. eapply returns_mono; [by apply v_structures_ok|]. cbn beta. intros h (_ & _ & _ & H & _) a b Hab. apply H. by left. Qed.

(** ** Discriminating paths *)
Lemma disc_search o g fuel a b c : iter_ok o → mg_wf g → b ≠ c → a ≠ b → a ≠ c → has_mark g b Directed a → SpecPAG.dir_edge g a c → mg_adj g b c →
  size (mnodes g) + 1 < fuel →
  returns (find_disc_path o fuel g a b c None) (λ r, match r with
    | Some d => ∃ q, last q = Some a ∧ discriminating g d q b c
    | None => ∀ d q, last q = Some a → ¬ discriminating g d q b c end).
Proof.
  intros Ho Hwf Hbc Hab Hac H1 H2 H3 Hf. eapply returns_mono; [apply find_disc_path_ok; try done|].
  { simpl. enough (size (mnodes g ∖ {[a; b; c]}) ≤ size (mnodes g)) by lia. apply subseteq_size. set_solver +. }
  cbn [default from_option]. intros [d|] H; [by apply dfound_disc|]. intros d q Hl Hd. apply (H d). apply dfound_disc; eauto.
Qed.
(** both searches, for any triplet and pool *)
Lemma disc_search_agree o o' g fuel fuel' a b c ns : iter_ok o → iter_ok o' → mg_wf g → a ≠ b → a ≠ c →
  let V := default (mnodes g ∖ {[a; b; c]}) ns in a ∉ V → size V + 1 < fuel → size V + 1 < fuel' →
  ∃ r r', find_disc_path o fuel g a b c ns = Ok r ∧ find_disc_path_recursive o' fuel' g a b c ns = Ok r' ∧ (r = None ↔ r' = None).
Proof.
  intros Ho Ho' Hwf Hab Hac V Ha Hf Hf'.
  pose proof (find_disc_path_ok o Ho g Hwf b c fuel a ns Hab Hac Hf) as H1. apply returns_ok in H1 as (r & E1 & H1).
  assert (size V < fuel') as Hf'' by lia.
  pose proof (find_disc_path_rec_ok o' Ho' g Hwf b c fuel' a ns Ha Hf'') as H2. apply returns_ok in H2 as (r' & E2 & H2).
  exists r, r'. split_and!; try done. destruct r as [d|], r' as [d'|]; try done.
  - exfalso. by eapply H2.
  - exfalso. by eapply H1.
Qed.

(** ** m-separation and d-separation *)
Section agree.
  Context (g : mgraph) (d : graph) (Hs : same_edges g d) (Hwf : wf_graph d) (Hac : acyclic d).
  Lemma se_dir a b : SpecPAG.dir_edge g a b ↔ edge d a b.
  Proof. destruct Hs as (_ & H1 & H2 & _). unfold SpecPAG.dir_edge. rewrite H1, H2. tauto. Qed.
  Lemma se_adj a b : mg_adj g a b ↔ adjacent d a b.
  Proof.
    destruct Hs as (_ & H1 & H2 & H3). split.
    - intros [[] Hk]; [by apply H3 in Hk|left; by apply H1|right; by apply H2].
    - intros [H|H]; [exists Directed; by apply H1|exists Tail; by apply H2].
  Qed.
  Lemma rtc_mono' (R Q : nat → nat → Prop) a b : (∀ x y, R x y → Q x y) → rtc R a b → rtc Q a b.
  Proof. intros H. induction 1; [constructor|]. econstructor; eauto. Qed.
  Lemma tc_mono' (R Q : nat → nat → Prop) a b : (∀ x y, R x y → Q x y) → tc R a b → tc Q a b.
  Proof. intros H. induction 1; [constructor; auto|]. econstructor 2; eauto. Qed.
  Lemma se_dir_mixed : dir_mixed g.
  Proof.
    pose proof Hs as (H0 & H1 & H2 & H3). split.
    - split.
      + intros a k b Hk. assert (adjacent d a b) as Hadj by (apply se_adj; by eexists). rewrite H0.
        assert (a ≠ b). { intros ->. destruct Hadj as [H|H]; apply (Hac b); by constructor. }
        destruct Hadj as [Hx|Hx]; apply Hwf in Hx; naive_solver.
      + intros a [] b Hk; [by apply H3 in Hk|apply H1 in Hk; exists Tail; by apply H2|apply H2 in Hk; exists Directed; by apply H1].
      + intros a k j b Hk Hj. destruct k, j; try done; try (by apply H3 in Hk); try (by apply H3 in Hj).
        * apply H1 in Hk. apply H2 in Hj. destruct (Hac a). eapply tc_l; [exact Hk|]. by constructor.
        * apply H2 in Hk. apply H1 in Hj. destruct (Hac a). eapply tc_l; [exact Hj|]. by constructor.
    - done.
    - intros a b [Hab Hba]. apply H2 in Hab, Hba. destruct (Hac a). eapply tc_l; [exact Hba|]. by constructor.
    - intros a Ha. apply (Hac a). eapply tc_mono'; [|exact Ha]. intros x y. apply se_dir.
  Qed.
  Lemma se_active Z p : m_active g (list_to_set Z) p ↔ active d Z p.
  Proof.
    assert (∀ a b c, m_collider g a b c ↔ collider d a b c) as Hc.
    { intros a b c. pose proof Hs as (_ & H1 & _). unfold m_collider, collider. by rewrite !H1. }
    unfold m_active, active.
    assert (∀ b, (∃ z, z ∈ (list_to_set Z : nset) ∧ rtc (SpecPAG.dir_edge g) b z) ↔ ∃ z, z ∈ Z ∧ ancestor d b z) as Hz.
    { intros b. split; intros (z & Hz & Hr); exists z; rewrite elem_of_list_to_set in *; (split; [done|]); eapply rtc_mono'; try exact Hr; intros x y; apply se_dir. }
    split; intros H l1 a b c l2 E; specialize (H l1 a b c l2 E); rewrite Hc, Hz, elem_of_list_to_set in *; exact H.
  Qed.
  Lemma se_separated x y Z : m_separated g x y (list_to_set Z) ↔ d_separated d x y Z.
  Proof.
    unfold m_separated, d_separated. split; intros H (p & (P1 & P2 & P3 & P4) & Ha); apply H; exists p; (split; [split_and!; try done|by apply se_active]);
      (eapply linked_impl; [exact P4|]); intros u v; apply se_adj.
  Qed.
End agree.
Lemma m_sep_agrees o o' g d fuel fuel' x y Z : iter_ok o → iter_ok o' → same_edges g d → wf_graph d → acyclic d →
  size (gnodes d) + 1 < fuel → size (gnodes d) < fuel' → x ∈ gnodes d → y ∈ gnodes d → (∀ z, z ∈ Z → z ∈ gnodes d) → x ≠ y → y ∉ Z →
  ∃ b, is_m_separated o fuel g x y Z = Ok b ∧ dsep o' fuel' d x y Z = Ok b.
Proof.
  intros Ho Ho' Hs Hwf Hac Hf Hf' Hx Hy HZ Hne HyZ. pose proof (se_dir_mixed g d Hs Hwf Hac) as D. pose proof Hs as (En & _).
  assert (returns (is_m_separated o fuel g x y Z) (λ b, b = true ↔ m_separated g x y (list_to_set Z))) as H1.
  { apply is_m_separated_ok; rewrite ?En; try done. }
  assert (returns (dsep o' fuel' d x y Z) (λ b, b = true ↔ d_separated d x y Z)) as H2 by (by apply dsep_spec).
  apply returns_ok in H1 as (b & -> & H1), H2 as (b' & -> & H2). exists b. split; [done|]. f_equal.
  rewrite (se_separated g d Hs) in H1. destruct b, b'; try done; exfalso; intuition congruence.
Qed.

(** ** Other forms *)
Lemma orient_arrows o fuel sep g rules : iter_ok o → mg_wf g → sep_total sep g → size (mnodes g) * size (mnodes g) + 2 < fuel →
  (∀ i, i ∈ default (seq 1 10) rules → 1 ≤ i ≤ 10) →
  returns (pag_orient o fuel sep g rules) (λ h, ∀ a b, has_mark g a Directed b → has_mark h a Directed b).
Proof. intros. eapply returns_mono; [by apply orient_refines|]. cbn beta. intros h [R _]. apply R. Qed.
Lemma orient_sound o fuel sep m g rules : iter_ok o → mg_wf g → compat m g (sep_fun sep) → separating m (sep_fun sep) → size (mnodes g) * size (mnodes g) + 2 < fuel →
  (∀ i, i ∈ rules → 1 ≤ i ≤ 9) →
  returns (pag_orient o fuel sep g (Some rules)) (λ h, ∀ a k b, k ≠ Circle → has_mark h a k b → has_mark m a k b).
Proof. intros. eapply returns_mono; [by apply (orient_keeps o fuel sep m)|]. cbn beta. intros h (_ & C & _). apply C. Qed.
Lemma uncovered_path_cond o g cond E : iter_ok o → mg_wf g → (∀ u v, u ≠ v → returns (cond u v) (λ b, b = true ↔ E u v)) →
  (∀ u v, E u v → mg_adj g u v) → ∀ fuel x y nx ny en, NoDup [x; y; nx; ny] → size (default (mnodes g) en) + 1 < fuel →
  returns (find_uncovered_path o fuel g x y nx ny en (Some cond)) (λ r, match r with
    | Some p => uncovered_path_spec g E (default (mnodes g) en) x y nx ny p
    | None => ∀ p, ¬ uncovered_path_spec g E (default (mnodes g) en) x y nx ny p end).
Proof.
  intros Ho Hwf Hc HE fuel x y nx ny en Hnd Hf. unfold find_uncovered_path. apply (uncovered_path_ok o Ho g Hwf _ E Hc HE); [done|].
  enough (size (default (mnodes g) en ∖ {[nx]}) ≤ size (default (mnodes g) en)) by lia. apply subseteq_size. set_solver +.
Qed.
Lemma uncovered_path_any o g : iter_ok o → mg_wf g → ∀ fuel x y nx ny en, NoDup [x; y; nx; ny] → size (default (mnodes g) en) + 1 < fuel →
  returns (find_uncovered_path o fuel g x y nx ny en None) (λ r, match r with
    | Some p => uncovered_path_spec g (mg_adj g) (default (mnodes g) en) x y nx ny p
    | None => ∀ p, ¬ uncovered_path_spec g (mg_adj g) (default (mnodes g) en) x y nx ny p end).
Proof.
  intros Ho Hwf fuel x y nx ny en Hnd Hf. unfold find_uncovered_path. apply (uncovered_path_ok o Ho g Hwf _ (mg_adj g) (cond_connected g Hwf)); [done..|].
  enough (size (default (mnodes g) en ∖ {[nx]}) ≤ size (default (mnodes g) en)) by lia. apply subseteq_size. set_solver +.
Qed.
