(** How often temporal ICD asks a question. *)
From Verif Require Import Base BaseLemmas ModelGraph Spec ModelMixed SpecMixed ProofMixed ModelPC SpecPC ProofPC ModelPAG SpecPAG ModelPDS ModelFCI SpecFCI ProofFCI ProofFCI2 ProofFCI3 ProofFCI4
  ModelTS SpecTS ProofTS ProofTS2 ProofTS3 ProofTS4 ProofTS5 SpecPCCount ProofPCCount SpecICDCount ProofICDCount ProofRAICount ProofBRAICount ProofPDS2.

(** ** the tests of one pair *)
Lemma ts_try_log NS ci hom i j c s r : ts_try NS ci hom i j c s = Ok r → lg r.1 = (i, j, c) :: lg s.
Proof.
  unfold ts_try. destruct (ls_try ci i j c s) as [[s1 b]| |] eqn:E; [|done..]. cbn [mbind res_bind fst snd]. apply ls_try_log in E. cbn [fst] in E.
  destruct (negb b); [by intros [= <-]|]. destruct (negb hom); [by intros [= <-]|].
  assert (∀ {X} (h : list X) (f : X → lstate → res lstate) t t', (∀ x u u', f x u = Ok u' → lg u' = lg u) → for_ h f t = Ok t' → lg t' = lg t) as Hl.
  { clear. intros X h f t t' Hf. revert t. induction h as [|x h IH]; intros t E; cbn [for_] in E; [by simplify_eq|]. destruct (f x t) as [u| |] eqn:Ex; [|done..].
    cbn [mbind res_bind] in E. rewrite (IH u E). by eapply Hf. }
  case_decide.
  - destruct (edge_homology _ _ _) as [h| |]; [|done..]. cbn [mbind res_bind]. destruct (for_ h _ s1) as [s2| |] eqn:E2; [|done..]. cbn [mbind res_bind]. intros [= <-]. cbn [fst].
    rewrite <-E. eapply Hl; [|exact E2]. intros [a b'] u u'. by intros [= <-].
  - destruct (ci_homology _ _ _ _) as [h| |]; [|done..]. cbn [mbind res_bind]. destruct (for_ h _ s1) as [s2| |] eqn:E2; [|done..]. cbn [mbind res_bind]. intros [= <-]. cbn [fst].
    rewrite <-E. eapply Hl; [|exact E2]. intros [[a b'] c'] u u'. by intros [= <-].
Qed.
Lemma ts_tests_log NS ci hom i j cs : ∀ s s', ts_tests NS ci hom i j cs s = Ok s' → ∃ pre, pre `sublist_of` cs ∧ lg s'.1 = reverse ((λ c, (i, j, c)) <$> pre) ++ lg s.1.
Proof.
  unfold ts_tests. induction cs as [|c cs IH]; intros s s' E; cbn [for_brk] in E.
  - simplify_eq. exists []. split; [done|done].
  - destruct (ts_try NS ci hom i j c s.1) as [r| |] eqn:Er; [|done..]. cbn [mbind res_bind fst snd] in E.
    apply ts_try_log in Er. destruct r.2.
    + simplify_eq. exists [c]. split; [apply sublist_skip, sublist_nil_l|]. cbn [fst]. by rewrite Er.
    + apply IH in E as (pre & Hs & E). exists (c :: pre). split; [by apply sublist_skip|]. rewrite E. cbn [fst]. rewrite Er, fmap_cons, reverse_cons, <-app_assoc. done.
Qed.
(** about the pair *)
Definition on_pair (p : node * node) (q : nset * nset) : Prop := q.1 = {[p.1; p.2]}.
Lemma adds_few m r i j s s' : adds lg question (of_pair r) m (i, j) s s' → few_by (λ _, m) (on_pair (i, j)) (lg s) (lg s').
Proof. intros (new & E & H1 & H2). exists new. split; [done|]. split; [|done]. intros x Hx. by apply H1. Qed.
Lemma tests_few NS ci hom i j m cs s s' : sets_ok m None cs → ts_tests NS ci hom i j cs s = Ok s' → few_by (λ _, m) (on_pair (i, j)) (lg s.1) (lg s'.1).
Proof. intros Hcs (pre & Hs & E)%ts_tests_log. eapply adds_few. by eapply (pair_adds i j lg m None cs pre). Qed.
Lemma dsets_sets' o t l : iter_ok o → dsets_ok l → sets_ok 2 None ((λ c, o t c.1) <$> l).
Proof.
  intros Ho H2. assert (∀ S, list_to_set (o t S) = S) as E by (intros S; apply leibniz_equiv; intros x; rewrite elem_of_list_to_set; by apply iter_elem). split.
  - done.
  - intros Z. rewrite <-list_fmap_compose. etransitivity; [|apply (H2 Z)]. apply Nat.eq_le_incl. f_equal. apply list_fmap_ext. intros ? c _. cbn. apply E.
Qed.

Section ts.
  Context (NS : list (list node)) (W : window NS) (o : order) (Ho : iter_ok o) (ci : citest).
  Notation V := (win_nodes NS).

  (** ** the pairs *)
  Definition pairs_ok (es : list (node * node)) : Prop := NoDup es ∧ ∀ p p' q, p ∈ es → p' ∈ es → on_pair p q → on_pair p' q → p = p'.
  Lemma now_nodup : NoDup (present NS).
  Proof using W. pose proof (wi_names _ W) as H. unfold present. destruct NS as [|l L]; cbn; [constructor|]. cbn in H. by apply NoDup_app in H as (? & _). Qed.
  Lemma past_nodup : NoDup (concat (tail NS)).
  Proof using W. pose proof (wi_names _ W) as H. destruct NS as [|l L]; cbn; [constructor|]. cbn in H. by apply NoDup_app in H as (_ & _ & ?). Qed.
  Lemma present_past i : i ∈ present NS → i ∈ concat (tail NS) → False.
  Proof using W.
    intros H1%present_time H2%past_nodes. destruct H2 as (t & H2). by pose proof (time_unique NS W _ _ _ H1 H2).
  Qed.
  Lemma elem_prod {A B} (l : list A) (k : list B) a b : (a, b) ∈ list_prod l k ↔ a ∈ l ∧ b ∈ k.
  Proof. by rewrite !elem_of_list_In, in_prod_iff. Qed.
  Lemma prod_nodup {A B} (l : list A) (k : list B) : NoDup l → NoDup k → NoDup (list_prod l k).
  Proof.
    intros Hl Hk. induction Hl as [|x l Hx Hl IH]; cbn; [constructor|]. apply NoDup_app. split; [|split; [|done]].
    - change (NoDup ((λ y, (x, y)) <$> k)). apply NoDup_fmap_2; [|done]. by intros ?? [= ->].
    - intros [a b] Hab%elem_of_list_In [Ha _]%elem_prod. apply in_map_iff in Hab as (y & [= <- <-] & _). done.
  Qed.
  Lemma cross_pairs : pairs_ok (cross_lag NS).
  Proof using W.
    split; [apply prod_nodup; [apply now_nodup|apply past_nodup]|]. intros [a b] [c d] q [Ha Hb]%elem_prod [Hc Hd]%elem_prod H1 H2. unfold on_pair in *. cbn in *.
    rewrite H1 in H2. apply pair_eq in H2 as [[-> ->]|[-> ->]]; [done|]. destruct (present_past d); done.
  Qed.
  Lemma now_pairs : pairs_ok (contemporaneous NS).
  Proof using W.
    destruct (comb2_nodup (present NS) now_nodup) as [H1 H2]. split; [done|]. intros [a b] [c d] q Hp Hp' E1 E2. unfold on_pair in *. cbn in *.
    rewrite E1 in E2. apply pair_eq in E2 as [[-> ->]|[-> ->]]; [done|]. by apply H2 in Hp.
  Qed.
  Lemma cross_now p p' q : p ∈ cross_lag NS → p' ∈ contemporaneous NS → on_pair p q → on_pair p' q → False.
  Proof using W.
    destruct p as [a b], p' as [c d]. intros [Ha Hb]%elem_prod [Hc Hd]%comb2_elem H1 H2. unfold on_pair in *. cbn in *. rewrite H1 in H2.
    apply pair_eq in H2 as [[-> ->]|[-> ->]]; [exact (present_past _ Hd Hb)|exact (present_past _ Hc Hb)].
  Qed.

  (** a loop over one of the lists, then over the other *)
  Lemma edges_few {S} (l : S → lstate) m es (f : node * node → S → res S) s s' : pairs_ok es →
    (∀ p s s', p ∈ es → f p s = Ok s' → few_by (λ _, m) (on_pair p) (lg (l s)) (lg (l s'))) → for_ es f s = Ok s' →
    few_by (λ _, m) (λ q, ∃ p, p ∈ es ∧ on_pair p q) (lg (l s)) (lg (l s')).
  Proof using Type.
    intros [Hnd Hu] Hf E. eapply (for_few_by (λ _, m) (λ s, lg (l s)) on_pair es f s s'); [|exact Hf|exact E].
    intros l1 x l2 El y k Hy H1 H2. subst es. apply NoDup_app in Hnd as (_ & Hnd & _). apply (Hnd y Hy).
    rewrite (Hu y x k); [left|apply elem_of_app; by left|apply elem_of_app; right; left|done|done].
  Qed.
  Lemma both_few m l1 l2 l3 : few_by (λ _, m) (λ q, ∃ p, p ∈ cross_lag NS ∧ on_pair p q) l1 l2 → few_by (λ _, m) (λ q, ∃ p, p ∈ contemporaneous NS ∧ on_pair p q) l2 l3 →
    few_by (λ _, m) (λ _, True) l1 l3.
  Proof using W. apply few_by_seq; [|done|done]. intros q (p & Hp & H1) (p' & Hp' & H2). by eapply cross_now. Qed.

  Context (hom sb tc precalc : bool) (fuel : nat) (fx : gmap (nat * nat) (option mark)).
  Lemma step_0_few s s' : ts_step_0 NS o ci hom sb tc fuel fx s = Ok s' → few_by (λ _, 1) (λ _, True) (lg s) (lg s').
  Proof using W.
    unfold ts_step_0. destruct (for_ (cross_lag NS) _ s) as [s1| |] eqn:E1; [|done..]. cbn [mbind res_bind]. destruct (for_ (contemporaneous NS) _ s1) as [s2| |] eqn:E2; [|done..]. cbn [mbind res_bind].
    intros E3%orient_log. rewrite E3.
    assert (∀ (p : node * node) u u', (let '(i, j) := p in r ← ts_try NS ci hom i j [] u; Ok r.1) = Ok u' → few_by (λ _, 1) (on_pair p) (lg u) (lg u')) as Hf.
    { intros [i j] u u' E. destruct (ts_try _ _ _ _ _ _ _) as [r| |] eqn:Er; [|done..]. cbn [mbind res_bind] in E. injection E as <-. apply ts_try_log in Er.
      exists [(i, j, [])]. split; [by rewrite Er|]. split; [intros x ->%elem_of_list_singleton; done|]. intros q. apply occ_nodup, NoDup_singleton. }
    eapply both_few; [eapply (edges_few id 1 _ _ _ _ cross_pairs); [|exact E1]|eapply (edges_few id 1 _ _ _ _ now_pairs); [|exact E2]]; intros [i j] u u' _; exact (Hf (i, j) u u').
  Qed.
  Lemma edges_1_few l1 l2 es s s' : pairs_ok es → ts_edges_1 NS o ci hom l1 l2 es s = Ok s' → few_by (λ _, 1) (λ q, ∃ p, p ∈ es ∧ on_pair p q) (lg s.1) (lg s'.1).
  Proof using Ho.
    intros He E. unfold ts_edges_1 in E. eapply (edges_few fst 1 _ _ _ _ He); [|exact E]. intros [i j] u u' _ Hu. cbn beta in Hu. cbn zeta in Hu. destruct (m_is_connected _ _ _ _) as [b| |]; [|done..]. cbn [mbind res_bind] in Hu.
    destruct (negb b); [injection Hu as <-; apply few_by_refl|]. eapply tests_few; [|exact Hu]. eapply weaken_sets, one_sets; by apply iter_nodup.
  Qed.
  Lemma step_1_few s s' : ts_step_1 NS o ci hom sb tc fuel fx s = Ok s' → few_by (λ _, 1) (λ _, True) (lg s) (lg s'.1).
  Proof using W Ho.
    unfold ts_step_1. destruct (ts_edges_1 _ _ _ _ _ _ (cross_lag NS) _) as [s1| |] eqn:E1; [|done..]. cbn [mbind res_bind]. destruct (ts_edges_1 _ _ _ _ _ _ (contemporaneous NS) _) as [s2| |] eqn:E2; [|done..]. cbn [mbind res_bind].
    destruct (ls_orient _ _) as [s3| |] eqn:E3; [|done..]. cbn [mbind res_bind]. intros [= <-]. cbn [fst]. apply orient_log in E3. rewrite E3.
    eapply both_few; [by apply (edges_1_few _ _ _ _ _ cross_pairs E1)|by apply (edges_1_few _ _ _ _ _ now_pairs E2)].
  Qed.
  Lemma pre_edges_sets es g r m m' : map_ok m → ts_pre_edges o fuel es g r m = Ok m' → map_ok m'.
  Proof using Ho.
    unfold ts_pre_edges. revert m. induction es as [|[i j] l IH]; intros m Hm E; cbn [for_] in E; [by simplify_eq|].
    destruct (m_is_connected _ _ _ _) as [b| |]; [|done..]. cbn [mbind res_bind] in E. destruct (negb b); [by eapply IH|].
    destruct (pdsep_range_sets _ _ _ _ _ _) as [cs| |] eqn:Ec; [|done..]. cbn [mbind res_bind] in E. eapply IH; [|exact E].
    intros k c [[_ <-]|[_ H]]%lookup_insert_Some; [by eapply pdsep_sets|by eapply Hm].
  Qed.
  Lemma ts_pre_sets g r m m' : map_ok m → ts_pre_calc NS o fuel g r m = Ok m' → map_ok m'.
  Proof using Ho.
    intros Hm. unfold ts_pre_calc. destruct (ts_pre_edges _ _ _ _ _ _) as [m1| |] eqn:E; [|done..]. cbn [mbind res_bind]. apply pre_edges_sets. by eapply pre_edges_sets.
  Qed.
  Lemma edges_r_few es r m s s' : pairs_ok es → map_ok m → ts_edges NS o ci hom precalc fuel es r m s = Ok s' → few_by (λ _, 2) (λ q, ∃ p, p ∈ es ∧ on_pair p q) (lg s.1) (lg s'.1).
  Proof using Ho.
    intros He Hm E. unfold ts_edges in E. eapply (edges_few fst 2 _ _ _ _ He); [|exact E]. intros [i j] u u' _ Hu. cbn beta in Hu. cbn zeta in Hu. destruct (m_is_connected _ _ _ _) as [b| |]; [|done..]. cbn [mbind res_bind] in Hu.
    destruct (negb b); [injection Hu as <-; apply few_by_refl|]. set (x := if precalc then _ else _) in Hu. destruct x as [cs| |] eqn:Ex; [|done..]. cbn [mbind res_bind] in Hu. assert (dsets_ok cs) as Hcs.
    { unfold x in Ex. destruct precalc; [|by eapply pdsep_sets]. destruct (m !! hkey i j) as [l|] eqn:El; [|done]. injection Ex as <-. by eapply Hm. }
    eapply tests_few; [|exact Hu]. by apply dsets_sets'.
  Qed.
  Lemma step_r_few r m s s' : map_ok m → ts_step NS o ci hom sb tc precalc fuel fx r m s = Ok s' → few_by (λ _, 2) (λ _, True) (lg s) (lg s'.1).
  Proof using W Ho.
    intros Hm. unfold ts_step. destruct (ts_edges _ _ _ _ _ _ (cross_lag NS) _ _ _) as [s1| |] eqn:E1; [|done..]. cbn [mbind res_bind]. destruct (ts_edges _ _ _ _ _ _ (contemporaneous NS) _ _ _) as [s2| |] eqn:E2; [|done..]. cbn [mbind res_bind].
    destruct (ls_orient _ _) as [s3| |] eqn:E3; [|done..]. cbn [mbind res_bind]. intros [= <-]. cbn [fst]. apply orient_log in E3. rewrite E3.
    eapply both_few; [by apply (edges_r_few _ _ _ _ _ cross_pairs Hm E1)|by apply (edges_r_few _ _ _ _ _ now_pairs Hm E2)].
  Qed.
  Lemma ts_iteration_few s t x : map_ok (ic_cond s) → ts_iteration NS o ci hom sb tc precalc fuel fx s = Ok (t, x) →
    map_ok (ic_cond t) ∧ few_by (λ _, if decide (ic_size s ≤ 1) then 1 else 2) (λ _, True) (lg (ic_ls s)) (lg (ic_ls t)).
  Proof using W Ho.
    intros Hm. unfold ts_iteration. destruct (ic_done s); [done|]. destruct (ic_size s) as [|[|r]].
    - destruct (ts_step_0 _ _ _ _ _ _ _ _ _) as [u| |] eqn:E; [|done..]. cbn. intros [= <- _]. split; [done|]. by apply step_0_few in E.
    - destruct (ts_step_1 _ _ _ _ _ _ _ _ _) as [u| |] eqn:E; [|done..]. cbn. intros [= <- _]. split; [done|]. by apply step_1_few in E.
    - destruct (if precalc then _ else _) as [m| |] eqn:Em; [|done..]. cbn [mbind res_bind]. assert (map_ok m) as Hm' by (destruct precalc; [by eapply ts_pre_sets|by simplify_eq]).
      destruct (ts_step _ _ _ _ _ _ _ _ _ _ _ _) as [u| |] eqn:E; [|done..]. cbn. intros [= <- _]. split; [done|]. rewrite decide_False by lia. by eapply step_r_few.
  Qed.
End ts.

(** ** all iterations *)
Section run.
  Context (NS : list (list node)) (W : window NS) (o : order) (Ho : iter_ok o) (ci : citest) (A : node → node → Prop).
  Notation V := (win_nodes NS).
  Context (fx : gmap (nat * nat) (option mark)) (P : node → node → Prop) (SP : stationary NS P).
  Context (Hfx : fix_ok fx A) (HP : ∀ a b, A a b → P a b → fx !! (a, b) = Some (Some Directed)).
  Context (sb tc precalc : bool) (fuel : nat) (Hf : size V * size V + size V + 2 < fuel) (Hnear : near NS ci).

  Lemma ts_loop_few : ∀ n s t, tsl_inv NS ci A P s → map_ok (ic_cond s) → few (ls_log (ic_ls s)) → ts_loop NS o ci true sb tc precalc fuel fx n s = Ok t → few (ls_log (ic_ls t)).
  Proof using W Ho SP Hfx HP Hf Hnear.
    intros n. induction n as [|n IH]; intros s t I Hm Hfew E; [done|]. cbn [ts_loop] in E. destruct (ts_iteration _ _ _ _ _ _ _ _ _ _) as [[u [d k]]| |] eqn:Eu; [|done..]. cbn [mbind res_bind fst snd] in E.
    destruct (ic_done s) eqn:Ed; [by unfold ts_iteration in Eu; rewrite Ed in Eu|].
    pose proof (ts_iteration_inv NS W o Ho ci A fx P SP Hfx HP sb tc fuel Hf Hnear precalc s Ed I) as Hi. rewrite Eu in Hi. cbn [returns fst snd] in Hi. destruct Hi as (It & _).
    assert (∃ q, asks (ic_size s) (ls_log (ic_ls s)) (ls_log (ic_ls u)) q) as (q0 & l & El & Hl & _).
    { assert (returns (ts_iteration NS o ci true sb tc precalc fuel fx s) (λ r, ∃ q, asks (ic_size s) (ls_log (ic_ls s)) (ls_log (ic_ls r.1)) q)) as H.
      { eapply returns_mono; [eapply ts_iteration_ok; [done|done|exact SP|done|done|done|done|done|apply I|apply I]|]. cbn beta. intros r (_ & _ & _ & _ & _ & _ & q & Ha & _). by exists q. }
      rewrite Eu in H. exact H. }
    destruct (ts_iteration_few NS W o Ho ci true sb tc precalc fuel fx s u (d, k) Hm Eu) as [Hm' (new & En & _ & Hn)].
    assert (few (ls_log (ic_ls u))) as Hfu.
    { intros q. specialize (Hfew q). rewrite asked_occ in *. fold (lg (ic_ls u)). rewrite En.
      assert (new = l.*1) as -> by (unfold lg in En; rewrite El, fmap_app in En; by apply app_inv_tail in En).
      rewrite fmap_app, occ_app. destruct (decide (q ∈ question <$> l.*1)) as [Hq|Hq].
      - apply elem_of_list_fmap in Hq as (y & -> & Hy). apply elem_of_list_fmap in Hy as ([[[i j] c] v] & -> & Hy). cbn [fst] in *. pose proof (Hl _ _ _ _ Hy) as Hc.
        pose proof (tj_log _ _ _ _ _ _ (ts_inv_justified _ _ _ _ (tl_inv _ _ _ _ _ It))) as J.
        assert (size (question (i, j, c)).2 = ic_size s) as Hs.
        { rewrite <-Hc. cbn. apply size_list_to_set. apply (J i j c v). rewrite El. apply elem_of_app. by left. }
        rewrite (occ_none _ (question <$> lg (ic_ls s))); [rewrite Hs, Nat.add_0_r; apply Hn|].
        intros (z & Ez & Hz)%elem_of_list_fmap. apply elem_of_list_fmap in Hz as ([[[i' j'] c'] v'] & -> & Hz). cbn [fst] in Ez.
        pose proof (tl_bound _ _ _ _ _ I _ _ _ _ Hz) as Hb. rewrite Ez in Hs. cbn in Hs. rewrite size_list_to_set in Hs; [lia|].
        apply (J i' j' c' v'). rewrite El. apply elem_of_app. by right.
      - rewrite (occ_none q (question <$> l.*1)) by done. done. }
    destruct d; [by simplify_eq|]. by apply (IH u t It Hm' Hfu).
  Qed.
End run.

Section whole.
  Context (NS : list (list node)) (W : window NS) (o : order) (Ho : iter_ok o).
  Notation V := (win_nodes NS).
  Lemma ts_run_few ci ini sb tc precalc fuel : size V * size V + size V + 2 < fuel → near NS ci →
    (∀ h, ini = Some h → mg_wf h ∧ mnodes h = V ∧ stationary NS (mg_adj h)) →
    returns (r ← ts_init NS o ini; ts_learn NS o ci true sb tc precalc fuel r.2 r.1) (λ t,
      few (ls_log (ic_ls t)) ∧ proper_log V (ls_log (ic_ls t)) ∧ ∀ i j c b, (i, j, c, b) ∈ ls_log (ic_ls t) → in_time NS 0 i).
  Proof using W Ho.
    intros Hf Hn Hini. pose (P := λ _ _ : node, False). assert (stationary NS P) as SP by by intros a b c d _.
    pose proof (ts_init_ok NS W o Ho ini) as Hr. destruct (ts_init NS o ini) as [[s fx]| |] eqn:Ei; [|destruct Hr; intros h E; by destruct (Hini h E) as (? & ? & _)..].
    cbn [mbind res_bind returns fst snd] in *. destruct Hr as (N & Wg & Hi & Es & El & _ & _ & Hfx); [intros h E; by destruct (Hini h E) as (? & ? & _)|].
    assert (ic_cond s = ic_cond (icd_init o V)) as Hc.
    { clear -Ei. unfold ts_init in Ei. repeat (match type of Ei with (?x ≫= _) = _ => destruct x as [?| |]; [|done..]; cbn [mbind res_bind] in Ei end). by injection Ei as <- _. }
    assert (stationary NS (mg_adj (ls_graph (ic_ls s)))) as St.
    { destruct ini as [h|].
      - cbn [initial] in Hi. destruct (Hini h eq_refl) as (_ & _ & Hst). intros a b c d Hs. unfold mg_adj. setoid_rewrite Hi. by apply Hst.
      - intros a b c d Hs. rewrite !(complete_adj NS W _ Hi). by apply complete_stationary. }
    pose proof (start_inv NS o Ho ci s N Wg St Es El) as I0. pose proof (start_tsl NS ci P s I0 El) as I1.
    assert (fix_ok fx (mg_adj (ls_graph (ic_ls s)))) as Hfx' by (intros a b (k & Hk); exists k; by apply Hfx).
    pose proof (ts_learn_ok NS W o Ho ci (mg_adj (ls_graph (ic_ls s))) fx P SP Hfx' ltac:(done) sb tc fuel Hf Hn precalc s I1) as Hl.
    destruct (ts_learn _ _ _ _ _ _ _ _ _ _) as [t| |] eqn:Et; [|done..]. cbn [returns] in *. destruct Hl as [It _]. unfold ts_learn in Et.
    apply (ts_loop_few NS W o Ho ci _ fx P SP Hfx' ltac:(done) sb tc precalc fuel Hf Hn) in Et; [|exact I1|cbn [ic_cond]; rewrite Hc; apply init_map|cbn [ic_ls]; rewrite El; intros q; cbn; lia].
    pose proof (ts_inv_justified _ _ _ _ (tl_inv _ _ _ _ _ It)) as J. split; [done|]. split; apply J.
  Qed.

  (** ** the number of tests *)
  Lemma count_pairs m k ps log : proper_log V log → (∀ i j c b, (i, j, c, b) ∈ log → (i, j) ∈ ps ∨ (j, i) ∈ ps) → (∀ p, p ∈ ps → p.1 ∈ V ∧ p.2 ∈ V ∧ p.1 ≠ p.2) →
    (∀ q, size q.2 = k → asked q log ≤ m) → count_size k log ≤ m * (length ps * choose (size V - 2) k).
  Proof using Type.
    intros Hp Hps Hpv Hm.
    set (all := p ← ps; (λ c, ({[p.1; p.2]} : nset, list_to_set c : nset)) <$> combs k (elements (V ∖ {[p.1; p.2]}))).
    assert (length all = length ps * choose (size V - 2) k) as <-.
    { unfold all. assert (∀ p, p ∈ ps → length ((λ c, ({[p.1; p.2]} : nset, list_to_set c : nset)) <$> combs k (elements (V ∖ {[p.1; p.2]}))) = choose (size V - 2) k) as H.
      { intros [a b] (Ha & Hb & Hne)%Hpv. cbn [fst snd] in *. rewrite fmap_length, combs_length. f_equal. change (length (elements ?X)) with (size X).
        rewrite size_difference by set_solver +Ha Hb. rewrite size_union by set_solver +Hne. by rewrite !size_singleton. }
      clear -H. induction ps as [|p l IH]; [done|]. rewrite bind_cons, app_length, (H p) by left. rewrite IH; [cbn; lia|]. intros q Hq. apply H. by right. }
    unfold count_size. rewrite <-(fmap_length (λ e : query * bool, question e.1)). apply length_occ.
    - intros x ([[[i j] c] b] & -> & [Hk H]%elem_of_list_filter)%elem_of_list_fmap. cbn in Hk. subst k. cbn [fst]. pose proof (Hps _ _ _ _ H) as Hin. apply Hp in H as (Hi & Hj & Hne & Hnd & Hz).
      assert (∃ p, p ∈ ps ∧ ({[i; j]} : nset) = {[p.1; p.2]}) as (p & Hpp & Ep) by (destruct Hin as [H|H]; eexists; (split; [exact H|]); cbn; [done|set_solver +]).
      unfold all. apply elem_of_list_bind. exists p. split; [|done]. apply elem_of_list_fmap. rewrite <-Ep.
      set (l := elements (V ∖ {[i; j]})). exists (filter (.∈ c) l).
      assert (filter (.∈ c) l ≡ₚ c) as E.
      { apply NoDup_Permutation; [apply NoDup_filter, NoDup_elements|done|]. intros z. rewrite elem_of_list_filter. split; [by intros [? _]|]. intros H. split; [done|].
        apply elem_of_elements. apply Hz in H. set_solver +H. }
      split.
      + unfold question. cbn [fst snd]. by rewrite (list_to_set_perm_L _ _ E).
      + apply elem_of_combs. split; [apply filter_sub|by rewrite E].
    - intros q. destruct (decide (size q.2 = k)) as [Hq|Hq].
      + etransitivity; [|apply (Hm q Hq)]. rewrite asked_occ, <-list_fmap_compose. apply occ_fmap_sublist. apply filter_sub.
      + rewrite occ_none; [lia|]. intros ([[[i j] c] b] & -> & [Hk H]%elem_of_list_filter)%elem_of_list_fmap. apply Hq. cbn in *. rewrite size_list_to_set; [done|]. by apply Hp in H as (_ & _ & _ & Hnd & _).
  Qed.
  Lemma pairs_length : 2 * length (cross_lag NS ++ contemporaneous NS) = length (present NS) * (2 * (size V - length (present NS)) + (length (present NS) - 1)).
  Proof using W.
    rewrite app_length. unfold cross_lag, contemporaneous. rewrite prod_length. pose proof (comb2_length (present NS)).
    assert (size V = length (present NS) + length (concat (tail NS))) as ->; [|nia].
    unfold win_nodes. rewrite size_list_to_set by apply W. unfold present. destruct NS as [|l L]; [done|]. cbn. by rewrite app_length.
  Qed.
  Lemma count_present m k log : proper_log V log → (∀ i j c b, (i, j, c, b) ∈ log → in_time NS 0 i) → (∀ q, size q.2 = k → asked q log ≤ m) →
    2 * count_size k log ≤ m * (length (present NS) * (2 * (size V - length (present NS)) + (length (present NS) - 1)) * choose (size V - 2) k).
  Proof using W.
    intros Hp H0 Hm. rewrite <-pairs_length. enough (count_size k log ≤ m * (length (cross_lag NS ++ contemporaneous NS) * choose (size V - 2) k)) by nia.
    apply count_pairs; [done| | |done].
    - intros i j c b H. pose proof (H0 _ _ _ _ H) as Hi. apply Hp in H as (_ & Hj & Hne & _). rewrite !elem_of_app. destruct (valid_listed NS i j); [done|tauto|tauto].
    - intros [a b] [H|H]%elem_of_app; cbn [fst snd].
      + apply (elem_prod (present NS)) in H as [(x & Ha)%present_time (t & y & Hb)%past_nodes]. split; [by eapply at_node|]. split; [by eapply at_node|]. intros ->. by destruct (at_unique NS W _ _ _ _ _ Ha Hb).
      + pose proof (comb2_ne _ _ _ (now_nodup NS W) H) as Hne. apply comb2_elem in H as [(x & Ha)%present_time (y & Hb)%present_time]. split; [by eapply at_node|]. split; [by eapply at_node|done].
  Qed.
End whole.
