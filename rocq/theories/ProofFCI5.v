(** FCI and ICD: the orientations are right when the skeleton is. *)
From Verif Require Import Base BaseLemmas Paths ModelGraph Spec ModelMixed SpecMixed ProofMixed ProofMixed2 ProofPDAG ProofPDAG2 ProofPDAG3
  ModelPC SpecPC ProofPC ModelPAG SpecPAG ProofPAG ProofPAG2 ProofPAGR ProofPAGR2 ProofPAGU ProofPAGX ModelPDS SpecPDS
  ModelFCI SpecFCI ProofFCI ProofFCI2 ProofFCI3 ProofFCI4 ProofCI2.

Lemma returns_and {A} (c : res A) P Q : returns c P → returns c Q → returns c (λ x, P x ∧ Q x).
Proof. destruct c; cbn; tauto. Qed.

Lemma adj_not_msep m x y Z : mg_adj m x y → x ≠ y → ¬ m_separated m x y Z.
Proof.
  intros Ha Hne H. apply H. exists [x; y]. split.
  - split; [done|]. split; [done|]. split.
    + apply NoDup_cons. split; [by rewrite elem_of_list_singleton|apply NoDup_singleton].
    + apply linked_cons. split; [done|apply linked_one].
  - intros l1 a b c l2 E. by destruct l1 as [|? [|? [|]]].
Qed.

Section msound.
  Context (o : order) (Ho : iter_ok o) (ci : citest) (m : mgraph) (A : ancestral m) (Hci : perfect_for m ci).
  Notation V := (mnodes m).

  Lemma tested_true log x y S : honest ci log → proper_log V log → tested log x y S true → x ∉ S ∧ y ∉ S ∧ m_separated m x y S.
  Proof.
    intros Hh Hp (c & Hc & H).
    assert (∀ i j, (i, j, c, true) ∈ log → i ∉ S ∧ j ∉ S ∧ m_separated m i j S) as Hij.
    { intros i j Hin. pose proof (Hp _ _ _ _ Hin) as (Hi & Hj & Hne & Hnd & Hz). split; [intros Hi'; apply Hc in Hi'; apply Hz in Hi'; tauto|].
      split; [intros Hi'; apply Hc in Hi'; apply Hz in Hi'; tauto|].
      apply elem_of_list_split in Hin as (l1 & l2 & Hl). apply Hh in Hl. assert (list_to_set c = S) as <- by (apply set_eq; intros z; by rewrite elem_of_list_to_set).
      apply (Hci l2); done. }
    destruct H as [H|H]; apply Hij in H; [done|]. destruct H as (? & ? & ?). split; [done|]. split; [done|]. apply m_separated_sym; [apply A|done].
  Qed.

  Lemma perfect_adj s a b : ls_inv ci V s → mg_adj m a b → mg_adj (ls_graph s) a b.
  Proof.
    intros I Hab. pose proof (mg_adj_nodes _ _ _ (an_wf _ A) Hab) as (Ha & Hb & Hne).
    destruct (decide (mg_adj (ls_graph s) a b)) as [?|Hn]; [done|].
    destruct (li_rem _ _ _ I a b Ha Hb Hne Hn) as (S & _ & HT). apply tested_true in HT as (_ & _ & HT); [|apply I..].
    by apply adj_not_msep in HT.
  Qed.

  Lemma perfect_separating s : ls_inv ci V s → (∀ a b, mg_adj (ls_graph s) a b → mg_adj m a b) → separating m (sep_fun (ls_sep s)).
  Proof.
    intros I H x y Hx Hy Hne Hn. destruct (li_rem _ _ _ I x y Hx Hy Hne) as (S & HS & HT); [intros ?; by apply Hn, H|].
    apply tested_true in HT as (H1 & H2 & H3); [|apply I..]. exists S. split; [|done]. unfold sep_fun, sep_get. by rewrite HS.
  Qed.

  Lemma skel_dec s : ls_inv ci V s → (∀ a b, mg_adj (ls_graph s) a b → mg_adj m a b) ∨ ¬ (∀ a b, mg_adj (ls_graph s) a b → mg_adj m a b).
  Proof.
    intros I. destruct (decide (Forall (λ a, Forall (λ b, mg_adj (ls_graph s) a b → mg_adj m a b) (elements V)) (elements V))) as [H|H].
    - left. intros a b Hab. pose proof (mg_adj_nodes _ _ _ (li_wf _ _ _ I) Hab) as (Ha & Hb & _). rewrite (li_nodes _ _ _ I) in Ha, Hb.
      rewrite Forall_forall in H. specialize (H a). rewrite Forall_forall in H. apply H; [by apply elem_of_elements..|done].
    - right. intros Hs. apply H. apply Forall_forall. intros a _. apply Forall_forall. intros b _. apply Hs.
  Qed.

  (** the state with the orientations, provided the skeleton is that of m *)
  Definition oriented (s : lstate) : Prop :=
    (∀ a b, mg_adj (ls_graph s) a b → mg_adj m a b) → compat m (ls_graph s) (sep_fun (ls_sep s)).
  Lemma oriented_sound s : ls_inv ci V s → oriented s → (∀ a b, mg_adj (ls_graph s) a b → mg_adj m a b) → sound_for m (ls_graph s).
  Proof.
    intros I C H. specialize (C H). split; [split; apply C|]. intros a b c Hab Hbc Hne Hn. rewrite <-(cp_adj _ _ _ C) in Hn. split.
    - intros [H1 H2]. split; by apply (cp_marks _ _ _ C).
    - intros Hcol. split; [by eapply (cp_coll _ _ _ C a b c)|]. destruct Hcol. eapply (cp_coll _ _ _ C c b a); [by apply not_eq_sym| |by split].
      intros ?. apply Hn. apply mg_adj_sym; [apply A|done].
  Qed.

  Lemma rest_compat sep sb fuel g : mg_wf g → compat m g (sep_fun sep) → separating m (sep_fun sep) → size V * size V + 2 < fuel →
    returns (orient_rest o sb false fuel sep g) (λ h, mg_wf h ∧ compat m h (sep_fun sep)).
  Proof.
    intros W C HS F. unfold orient_rest. destruct sb; [|done].
    eapply returns_bind; [apply (orient_keeps o fuel sep m g); [done|done|done|done|by rewrite <-(cp_nodes _ _ _ C)|]|].
    { intros i Hi. set_unfold. lia. }
    cbn beta. intros h (W' & C' & _). done.
  Qed.
  Lemma anew_compat sep fuel g : mg_wf g → mnodes g = V → (∀ a b, mg_adj g a b ↔ mg_adj m a b) → separating m (sep_fun sep) → size V * size V + 2 < fuel →
    returns (orient_anew o fuel sep g) (λ h, mg_wf h ∧ compat m h (sep_fun sep)).
  Proof.
    intros W N Ha HS F. unfold orient_anew. eapply returns_bind; [by apply reset_adj|]. cbn beta. intros h (N' & W' & A' & M).
    unfold orient_base. apply (fci_orient_compat o Ho sep m h A W').
    - split; [congruence|intros a b; by rewrite A', Ha|]. intros a k b Hk Hm. apply M in Hm as [_ ->]. done.
    - done.
    - by rewrite N', N.
    - intros i Hi. set_unfold. lia.
  Qed.

  Lemma orient_all_sound f sb fuel s : (f = orient_anew o fuel ∨ f = λ sep g, g ← orient_anew o fuel sep g; orient_rest o sb false fuel sep g) →
    ls_inv ci V s → size V * size V + 2 < fuel → returns (ls_orient f s) oriented.
  Proof.
    intros Hf I F. assert (keeps f fuel) as K.
    { destruct Hf as [-> | ->]; [by apply keeps_anew|]. apply (keeps_seq (orient_anew o fuel) (orient_rest o sb false fuel)); [by apply keeps_anew|by apply keeps_rest]. }
    pose proof (ls_orient_ok f fuel ci V s K I F) as H1.
    destruct (skel_dec s I) as [Hs|Hs].
    2: { eapply returns_mono; [exact H1|]. cbn beta. intros t (It & _ & _ & At) Hs'. destruct Hs. intros a b Hab. by apply Hs', At. }
    pose proof (perfect_separating s I Hs) as HS. unfold ls_orient.
    assert (∀ a b, mg_adj (ls_graph s) a b ↔ mg_adj m a b) as Ha by (intros a b; split; [apply Hs|by apply perfect_adj]).
    destruct Hf as [-> | ->].
    - eapply returns_bind; [apply anew_compat; [apply I|apply I|done|done|done]|]. cbn beta. intros h [_ C]. by intros _.
    - eapply returns_bind; [eapply returns_bind; [apply anew_compat; [apply I|apply I|done|done|done]|]|].
      + cbn beta. intros h [W C]. apply (rest_compat (ls_sep s) sb fuel h W C HS F).
      + cbn beta. intros h [_ C]. by intros _.
  Qed.

  Lemma rest_oriented sb fuel s : ls_inv ci V s → oriented s → size V * size V + 2 < fuel → returns (ls_orient (orient_rest o sb false fuel) s) oriented.
  Proof.
    intros I O F. pose proof (ls_orient_ok _ fuel ci V s (keeps_rest o sb false fuel Ho) I F) as H1.
    destruct (skel_dec s I) as [Hs|Hs].
    2: { eapply returns_mono; [exact H1|]. cbn beta. intros t (It & _ & _ & At) Hs'. destruct Hs. intros a b Hab. by apply Hs', At. }
    unfold ls_orient. eapply returns_bind; [apply rest_compat; [apply I|by apply O|by apply perfect_separating|done]|].
    cbn beta. intros h [_ C]. by intros _.
  Qed.

  Theorem fci_sound sb fuel : size V * size V + size V + 2 < fuel →
    returns (fci_learn o ci sb false fuel V) (λ r, (∀ a b, mg_adj m a b → mg_adj (ls_graph r.1) a b) ∧
      ((∀ a b, mg_adj (ls_graph r.1) a b → mg_adj m a b) → sound_for m (ls_graph r.1))).
  Proof.
    intros Hf. assert (returns (fci_learn o ci sb false fuel V) (λ r, ls_inv ci V r.1)) as H1.
    { eapply returns_mono; [by apply fci_learn_ok|]. cbn beta. by intros r [I _]. }
    assert (returns (fci_learn o ci sb false fuel V) (λ r, oriented r.1)) as H2.
    { unfold fci_learn. eapply returns_bind; [apply (fci_pc_ok o Ho ci V fuel); lia|]. cbn beta. intros s (I & _).
      eapply returns_bind; [apply (ls_orient_ok _ fuel ci V); [by apply keeps_v|done|lia]|]. cbn beta. intros s1 (I1 & _).
      eapply returns_bind; [apply (fci_refine_ok o Ho ci V fuel); [done|lia]|]. cbn beta. intros [s2 b] (I2 & _). cbn [fst snd] in *.
      eapply returns_bind; [apply (orient_all_sound _ sb fuel); [by right|done|lia]|]. cbn beta. intros s3 H3. exact H3. }
    eapply returns_mono; [apply (returns_and _ _ _ H1 H2)|]. cbn beta. intros r [I O]. split; [intros a b; by apply perfect_adj|].
    by apply oriented_sound.
  Qed.

  (** ** ICD *)
  Lemma icd_tests_inv i j cs s : ls_inv ci V s.1 → i ∈ V → j ∈ V → i ≠ j → (∀ c, c ∈ cs → good_cond V i j c) →
    returns (icd_tests ci i j cs s) (λ r, ls_inv ci V r.1 ∧ ls_le s.1 r.1 ∧ (r.2 = true → r = s)).
  Proof.
    intros I Hi Hj Hne Hcs. unfold icd_tests.
    apply (for_brk_returns _ _ _ (λ pre (r : lstate * bool), ls_inv ci V r.1 ∧ ls_le s.1 r.1 ∧ (r.2 = true → r = s))).
    - split; [done|]. split; [by intros a b|done].
    - intros pre c post [t f] E (It & Hle & _). cbn [fst snd] in *.
      eapply returns_bind; [apply ls_try_ok; [exact It|exact Hi|exact Hj|exact Hne|]|].
      { apply Hcs. rewrite E. apply elem_of_app. right. apply elem_of_list_here. }
      cbn beta. intros [t' b'] (It' & Hle' & _). cbn [fst snd returns] in *.
      assert (ls_inv ci V t' ∧ ls_le s.1 t' ∧ (false = true → (t', false) = s)).
      { split; [done|]. split; [intros a a' H; by apply Hle, Hle'|done]. }
      destruct b'; done.
    - done.
  Qed.

  Lemma icd_step_1_oriented sb fuel s : ls_inv ci V s → size V * size V + 2 < fuel →
    returns (icd_step_1 o ci sb false fuel s) (λ r, oriented r.1).
  Proof.
    intros I Hf. unfold icd_step_1. rewrite (li_nodes _ _ _ I). eapply returns_bind.
    - apply (for_returns _ _ _ (λ r : lstate * bool, ls_inv ci V r.1)); [done|].
      intros [i j] r Hij Ir. apply comb2_iter in Hij as (Hi & Hj & Hne); [|done].
      eapply returns_bind; [apply m_is_connected_pag; [apply Ir|done]|]. cbn beta. intros b Hb. destruct b; cbn [negb]; cbv iota; [|done].
      eapply returns_mono; [apply icd_tests_inv; [done|done|done|done|]|by intros r' (? & _)].
      intros c Hc. apply elem_uniq, elem_of_app in Hc.
      assert (∀ z u w, z ∈ find_adj PAG_T (ls_graph r.1) u None None ∖ {[w]} → z ∈ V ∧ z ≠ u ∧ z ≠ w) as Hz.
      { intros z u w. rewrite elem_of_difference, elem_of_singleton, elem_find_adj_pag. intros [[H _] ?].
        apply mg_adj_nodes in H as (? & _ & ?); [|apply Ir]. rewrite (li_nodes _ _ _ Ir) in *. done. }
      destruct Hc as [Hc|Hc]; apply combs_elem in Hc as (Hnd & _ & Hin); try done; (split; [done|]; intros z Hz'; apply Hin, Hz in Hz'; tauto).
    - cbn beta. intros [t d] It. cbn [fst snd] in *.
      eapply returns_bind; [apply (orient_all_sound _ sb fuel); [by right|done|done]|]. cbn beta. done.
  Qed.

  Lemma icd_step_oriented sb fuel precalc r mm s : ls_inv ci V s → oriented s → 2 ≤ r → size V * size V + size V + 2 < fuel →
    (precalc = true → ∀ i j, mg_adj (ls_graph s) i j → ∃ l, mm !! hkey i j = Some l ∧ good_sets V r i j l) →
    returns (icd_step o ci sb false fuel precalc r mm s) (λ t, oriented t.1).
  Proof.
    intros I O Hr Hf Hm. unfold icd_step. rewrite (li_nodes _ _ _ I). eapply returns_bind.
    - apply (for_returns _ _ _ (λ r' : lstate * bool, ls_inv ci V r'.1 ∧ ls_le s r'.1 ∧ (r'.2 = true → r' = (s, true)))).
      + cbn [fst snd]. split; [done|]. split; [by intros a b|done].
      + intros [i j] r' Hij (Ir & Hle & Hs). apply comb2_iter in Hij as (Hi & Hj & Hne); [|done].
        eapply returns_bind; [apply m_is_connected_pag; [apply Ir|done]|]. cbn beta. intros b Hb. destruct b; cbn [negb]; cbv iota; [|done].
        eapply returns_bind.
        { instantiate (1 := good_sets V r i j). destruct precalc; [|apply (range_good o Ho); [apply Ir|apply Ir|done|done|done|lia]].
          destruct (Hm eq_refl i j) as (l & El & Hl); [by apply Hle, Hb|]. by rewrite El. }
        cbn beta. intros cs Hcs. eapply returns_mono; [apply icd_tests_inv; [done|done|done|done|]|].
        * intros c (x & -> & Hx)%elem_of_list_fmap. destruct (Hcs x Hx) as [Hsz Hz].
          split; [by apply iter_nodup|]. intros z Hz'. apply Hz. by apply (iter_elem o 109 _ _ Ho).
        * cbn beta. intros t (It & Hle' & Ht). split; [done|]. split; [intros a a' H; by apply Hle, Hle'|].
          intros H2. specialize (Ht H2) as ->. by apply Hs.
    - cbn beta. intros [t d] (It & Hle & Hs). cbn [fst snd] in *. destruct d.
      + specialize (Hs eq_refl). injection Hs as ->. eapply returns_bind; [by apply rest_oriented; [done|done|lia]|]. cbn beta. done.
      + eapply returns_bind; [apply (orient_all_sound _ sb fuel); [by left|done|lia]|]. cbn beta. done.
  Qed.

  Lemma icd_iteration_oriented sb fuel precalc s : ic_done s = false → ls_inv ci V (ic_ls s) → (1 < ic_size s → oriented (ic_ls s)) →
    size V * size V + size V + 2 < fuel →
    returns (icd_iteration o ci sb false fuel precalc s) (λ r, 1 < ic_size r.1 → oriented (ic_ls r.1)).
  Proof.
    intros Hd Is O Hf. unfold icd_iteration. rewrite Hd. destruct (ic_size s) as [|[|r]] eqn:Er.
    - eapply returns_bind; [eapply returns_bind; [apply (icd_step_0_ok o Ho ci V); [done|lia]|]|].
      + cbn beta. intros t Ht. cbn [returns]. instantiate (1 := λ _, True). done.
      + cbn beta. intros r _. cbn [returns fst ic_size]. lia.
    - eapply returns_bind; [eapply returns_bind; [apply (icd_step_1_oriented sb); [done|lia]|]|].
      + cbn beta. intros t Ht. cbn [returns]. instantiate (1 := λ r, oriented (ic_ls r)). exact Ht.
      + cbn beta. intros r Hr _. exact Hr.
    - eapply returns_bind; [eapply returns_bind|].
      + instantiate (1 := λ mm, precalc = true → ∀ i j, mg_adj (ls_graph (ic_ls s)) i j → ∃ l, mm !! hkey i j = Some l ∧ good_sets V (S (S r)) i j l).
        destruct precalc; [|done]. eapply returns_mono; [apply (pre_calc_ok o Ho V); [apply Is|apply Is|lia|lia]|]. cbn beta. intros mm Hm _. exact Hm.
      + cbn beta. intros mm Hm. eapply returns_bind; [apply (icd_step_oriented sb fuel precalc (S (S r)) mm); [done|apply O; lia|lia|done|done]|].
        cbn beta. intros t Ht. cbn [returns]. instantiate (1 := λ r, oriented (ic_ls r)). exact Ht.
      + cbn beta. intros t Ht _. exact Ht.
  Qed.

  Lemma icd_loop_oriented sb fuel precalc : size V * size V + size V + 2 < fuel → ∀ n s, ic_done s = false → icd_inv ci V s →
    (1 < ic_size s → oriented (ic_ls s)) → ic_size s < 2 `max` size V → 2 `max` size V ≤ n + ic_size s →
    returns (icd_loop o ci sb false fuel precalc n s) (λ t, 1 < ic_size t → oriented (ic_ls t)).
  Proof.
    intros Hf n. induction n as [|n IH]; intros s Hd I O Hr Hn; [lia|]. cbn [icd_loop].
    eapply returns_bind; [apply (returns_and _ _ _ (icd_iteration_inv o Ho ci V sb false fuel precalc s Hd I Hf) (icd_iteration_oriented sb fuel precalc s Hd (ii_inv _ _ _ I) O Hf))|].
    cbn beta. intros [t [d k]] ((It & Hle & Hsz & Hr' & _ & Hd0 & Hmore) & Ot). cbn [fst snd] in *.
    injection Hr' as -> ->. destruct (ic_done t) eqn:Edt; [done|]. apply IH; [done|done|done|rewrite Hsz; by apply Hmore|lia].
  Qed.

  Theorem icd_sound sb fuel precalc : size V * size V + size V + 2 < fuel →
    returns (icd_learn o ci sb false fuel precalc (icd_init o V)) (λ t, (∀ a b, mg_adj m a b → mg_adj (ls_graph (ic_ls t)) a b) ∧
      ((∀ a b, mg_adj (ls_graph (ic_ls t)) a b → mg_adj m a b) → sound_for m (ls_graph (ic_ls t)))).
  Proof.
    intros Hf. assert (size V ≤ size V * size V) by (destruct (size V); lia).
    assert (returns (icd_learn o ci sb false fuel precalc (icd_init o V)) (λ t, 1 < ic_size t → oriented (ic_ls t))) as H2.
    { unfold icd_learn. change (IcdState _ _ false 0) with (icd_init o V).
      apply icd_loop_oriented; [done|done|by apply icd_init_inv|cbn; lia|cbn; lia|cbn; lia]. }
    eapply returns_mono; [apply (returns_and _ _ _ (icd_learn_ok o Ho ci V sb false fuel precalc Hf) H2)|]. cbn beta. intros t ((It & _ & Hs) & O).
    split; [intros a b; apply perfect_adj; apply It|]. apply oriented_sound; [apply It|apply O; lia].
  Qed.
End msound.

(** ** a DAG without latent nodes *)
Lemma dag_ancestral m d : same_edges m d → wf_graph d → acyclic d → ancestral m.
Proof.
  intros (N & D & T & C) W Ac.
  assert (∀ a b, edge d a b → ¬ edge d b a) as Has.
  { intros a b H1 H2. apply (Ac a). eapply tc_l; [exact H1|by apply tc_once]. }
  assert (∀ a b, SpecPAG.dir_edge m a b → edge d a b) as Hd by (intros a b [H _]; by apply D).
  constructor.
  - constructor.
    + intros a k b H. assert (edge d a b ∨ edge d b a) as Hab by (destruct k; [by apply C in H|left; by apply D|right; by apply T]).
      rewrite N. destruct Hab as [Hab|Hab]; pose proof (W _ _ Hab) as [? ?]; (split; [done|]; split; [done|]); intros ->; by apply (Has b b).
    + intros a k b H. destruct k; [by apply C in H|exists Tail|exists Directed].
      * apply T. by apply D.
      * apply D. by apply T.
    + intros a k k' b H H'. destruct k, k'; try done; try (by apply C in H); try (by apply C in H').
      * apply D in H. apply T in H'. by apply Has in H.
      * apply T in H. apply D in H'. by apply Has in H.
  - done.
  - intros a b H Hb. apply D in Hb. apply (Ac a). eapply tc_r; [|exact Hb]. clear Hb. induction H as [a b H|a b c H _ IH]; [by apply tc_once, Hd|eapply tc_l; [by apply Hd|done]].
  - intros a b c [H1 H2] _. apply T in H1, H2. by apply Has in H1.
Qed.
