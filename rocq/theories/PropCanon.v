(** C130, C131: with correct answers the learned PAG depends neither on iteration orders nor on the learner.
    [o] is the order in which sets are iterated (any with [iter_ok o]), [fuel] the bound on the loops (any large enough). *)
From Verif Require Import Base BaseLemmas ModelGraph Spec ProofPDAG2 ProofPDAG3 ProofGraph2 ProofGraph3 ProofDsep ModelMixed SpecMixed ProofMixed2 ModelPC SpecPC ProofPC ModelPAG SpecPAG ProofPAG ProofPAGM
  ModelPDS SpecPDS ModelFCI SpecFCI ProofFCI ProofFCI2 ProofFCI3 ProofFCI4 ProofFCI5 ProofFCI6 SpecLatent ProofLatent ProofVP SpecCanon ProofCanon ProofCanon2 ProofCanon3 ProofPAGW PropPAG PropFCI PropLatent PropMeek.

(** ** The orientation phase: colliders, then the rules 1-4 in any order and multiplicity *)
Theorem C130_orientation : ∀ m, ancestral m → ∀ o o' sep sep' fuel fuel' g g' rules rules', iter_ok o → iter_ok o' →
  (∀ i, i ∈ rules ↔ 1 ≤ i ≤ 4) → (∀ i, i ∈ rules' ↔ 1 ≤ i ≤ 4) →
  mg_wf g → mg_wf g' → mnodes g = mnodes m → mnodes g' = mnodes m →
  (∀ a k b, has_mark g a k b ↔ k = Circle ∧ mg_adj m a b) → (∀ a k b, has_mark g' a k b ↔ k = Circle ∧ mg_adj m a b) →
  separating m (sep_fun sep) → separating m (sep_fun sep') →
  size (mnodes m) * size (mnodes m) + 2 < fuel → size (mnodes m) * size (mnodes m) + 2 < fuel' →
  returns (h ← pag_v_structures o g sep; pag_orient o fuel sep h (Some rules)) (λ h,
    returns (h' ← pag_v_structures o' g' sep'; pag_orient o' fuel' sep' h' (Some rules')) (λ h', same_marks h h')).
Proof.
  intros m A o o' sep sep' fuel fuel' g g' rules rules' Ho Ho' Hr Hr' W W' N N' Hg Hg' HS HS' F F'.
  assert (∀ l : list nat, (∀ i, i ∈ l ↔ 1 ≤ i ≤ 4) → ∀ i, i ∈ l ↔ i ∈ [1; 2; 3; 4]) as HR.
  { intros l Hl i. rewrite Hl, !elem_of_cons, elem_of_nil. lia. }
  assert (∀ h, mnodes h = mnodes m → (∀ a k b, has_mark h a k b ↔ k = Circle ∧ mg_adj m a b) → reflects m h) as HF.
  { intros h Nh Hh. split; [done| |].
    - intros a b. split; [intros Hm; exists Circle; by apply Hh|by intros [k [_ Hk]%Hh]].
    - intros a k b Hk [-> _]%Hh. done. }
  eapply returns_mono; [apply (canon_rules m A o sep fuel g rules); [by apply HR|done|done|by apply HF|by intros a k b [-> _]%Hg|done|by rewrite N]|].
  cbn beta. intros h C.
  eapply returns_mono; [apply (canon_rules m A o' sep' fuel' g' rules'); [by apply HR|done|done|by apply HF|by intros a k b [-> _]%Hg'|done|by rewrite N']|].
  cbn beta. intros h' C'. split; [|by eapply canon_unique].
  by rewrite <-(cp_nodes _ _ _ (ca_compat _ _ _ C)), <-(cp_nodes _ _ _ (ca_compat _ _ _ C')).
Qed.
Print Assumptions C130_orientation.

(** 0 --> 2 <-- 1, 2 --> 3 with two choices of separation sets, and the rules in two orders *)
Definition eS' : sepset := mk_sep [((0,1),[]); ((0,3),[1;2]); ((1,3),[0;2])].
Example C130_orientation_case : ancestral eM ∧ mg_wf eC ∧ mnodes eC = mnodes eM ∧ (∀ a k b, has_mark eC a k b ↔ k = Circle ∧ mg_adj eM a b) ∧
  separating eM (sep_fun eS) ∧ separating eM (sep_fun eS') ∧ (∀ i, i ∈ [1;2;3;4] ↔ 1 ≤ i ≤ 4) ∧ (∀ i, i ∈ [4;2;3;1;2] ↔ 1 ≤ i ≤ 4) ∧
  size (mnodes eM) * size (mnodes eM) + 2 < 20 ∧
  match h ← pag_v_structures ord_down eC eS'; pag_orient ord_down 20 eS' h (Some [4;2;3;1;2]) with Ok h => mark_list h 4 | _ => [] end
  = [(0,Directed,2);(1,Directed,2);(2,Directed,3);(3,Tail,2)].
Proof.
  split; [apply eM_ancestral|]. split; [apply eC_wf|]. split; [done|]. split.
  { assert (∀ a k b, has_mark eC a k b → k = Circle) as Hc.
    { intros a k b H%mk_mg_mark. unfold pag_ in H. set_unfold. naive_solver. }
    destruct eC_reflects as [_ Ha _]. intros a k b. split; [intros H; split; [by eapply Hc|]; apply Ha; by exists k|].
    intros [-> [k' H]%Ha]. by rewrite <-(Hc _ _ _ H). }
  split; [apply eM_separating|]. split; [apply sep_ok_separating; [apply eM_dir_mixed|by vm_compute]|].
  split; [intros i; set_unfold; lia|]. split; [intros i; set_unfold; lia|]. split; [apply Nat.ltb_lt; by vm_compute|]. by vm_compute.
Qed.

(** ** The learners *)
Lemma learned_canon ci m sb tc R : ancestral m → perfect_for m ci → (sb = true → ∀ a b, ¬ und_edge m a b) → learned ci sb tc (mnodes m) R →
  returns R (λ g, mnodes g = mnodes m ∧ ((∀ a b, mg_adj g a b → mg_adj m a b) → ∃ S, tcanon m tc true S g)).
Proof.
  intros A Hci Hu [o fuel Ho Hf|o fuel precalc Ho Hf].
  - eapply returns_bind; [by apply (fci_tcanon o Ho ci m A Hci sb tc Hu)|]. cbn beta. intros r [I O]. split; [apply I|]. intros Hs. eexists. by apply O.
  - eapply returns_bind; [by apply (icd_tcanon o Ho ci m A Hci sb tc Hu)|]. cbn beta. intros r [I O]. split; [apply I|]. intros Hs. eexists. by apply O.
Qed.
Lemma learned_same ci ci' m sb sb' tc R R' : ancestral m → perfect_for m ci → perfect_for m ci' → (sb = true ∨ sb' = true → ∀ a b, ¬ und_edge m a b) →
  learned ci sb tc (mnodes m) R → learned ci' sb' tc (mnodes m) R' →
  returns R (λ g, returns R' (λ g', (∀ a b, mg_adj g a b ∨ mg_adj g' a b → mg_adj m a b) → same_marks g g')).
Proof.
  intros A Hci Hci' Hu HR HR'. eapply returns_mono; [apply (learned_canon ci m sb tc R A Hci); [auto|done]|]. cbn beta. intros g [N C].
  eapply returns_mono; [apply (learned_canon ci' m sb' tc R' A Hci'); [auto|done]|]. cbn beta. intros g' [N' C'] Hs.
  destruct C as [S C]; [auto|]. destruct C' as [S' C']; [auto|]. split; [congruence|]. by eapply tcanon_unique.
Qed.

(** ancestral graphs m and m' with the same independences *)
Theorem C130_same : ∀ m m' ci ci' sb sb' tc R R', ancestral m → same_separations m m' → perfect_for m ci → perfect_for m' ci' →
  (sb = true ∨ sb' = true → ∀ a b, ¬ und_edge m a b) →
  learned ci sb tc (mnodes m) R → learned ci' sb' tc (mnodes m') R' →
  returns R (λ g, returns R' (λ g', (∀ a b, mg_adj g a b ∨ mg_adj g' a b → mg_adj m a b) → same_marks g g')).
Proof.
  intros m m' ci ci' sb sb' tc R R' A [N Hm] Hci Hci' Hu HR HR'. rewrite <-N in HR'. apply (learned_same ci ci' m sb sb' tc R R'); try done.
  intros log i j c Hi Hj Hne Hnd Hc. rewrite (Hci' log i j c); [|by rewrite <-N..|done|done|by rewrite <-N].
  symmetry. apply Hm; [done..|]. intros z Hz%elem_of_list_to_set. apply Hc in Hz. set_solver.
Qed.
Print Assumptions C130_same.

(** DAGs with latent nodes: V are the observed nodes of both *)
Theorem C130_latents : ∀ d d' V o o' fuel fuel' sb sb' tc R R', wf_graph d → wf_graph d' → acyclic d → acyclic d' → V ⊆ gnodes d → V ⊆ gnodes d' →
  same_over V d d' → iter_ok o → iter_ok o' → size (gnodes d) < fuel → size (gnodes d') < fuel' →
  learned (dsep_ci o fuel d) sb tc V R → learned (dsep_ci o' fuel' d') sb' tc V R' →
  returns R (λ g, returns R' (λ g', (∀ a b, mg_adj g a b ∨ mg_adj g' a b → inseparable d V a b) → same_marks g g')).
Proof.
  intros d d' V o o' fuel fuel' sb sb' tc R R' W W' Ac Ac' HV HV' Hs Ho Ho' F F' HR HR'.
  pose proof (mag_exists d V W Ac HV) as M. pose proof (mag_exists d' V W' Ac' HV') as M'.
  destruct (C98_mag d V W Ac HV) as [_ HM]. destruct (HM _ M) as (A & _ & Hm). clear HM.
  destruct (C98_mag d' V W' Ac' HV') as [_ HM]. destruct (HM _ M') as (A' & _ & Hm'). clear HM.
  pose proof (mo_nodes _ _ _ M) as N. pose proof (mo_nodes _ _ _ M') as N'.
  assert (learned (dsep_ci o fuel d) sb tc (mnodes (mag d V)) R) as HR1 by by rewrite N.
  assert (learned (dsep_ci o' fuel' d') sb' tc (mnodes (mag d' V)) R') as HR2 by by rewrite N'.
  assert (∀ R ci sb, learned ci sb tc V R → returns R (λ g, ∀ a b, mg_adj g a b → a ∈ V ∧ b ∈ V ∧ a ≠ b)) as HN.
  { clear. intros R ci sb [o fuel Ho Hf|o fuel precalc Ho Hf].
    - eapply returns_bind; [by apply fci_learn_ok|]. cbn beta. intros r [I _] a b H. apply mg_adj_nodes in H as (? & ? & ?); [|apply I]. rewrite (li_nodes _ _ _ I) in *. done.
    - eapply returns_bind; [by apply icd_learn_ok|]. cbn beta. intros t [It _] a b H. apply mg_adj_nodes in H as (? & ? & ?); [|apply It]. rewrite (li_nodes _ _ _ (ii_inv _ _ _ It)) in *. done. }
  assert (same_separations (mag d V) (mag d' V)) as HQ.
  { split; [congruence|]. rewrite N. intros x y Z Hx Hy Hne HZ. rewrite Hm, Hm' by done. by apply Hs. }
  assert (∀ a b, ¬ und_edge (mag d V) a b) as Hu by apply (dm_und _ (mag_dir_mixed d W Ac V _ M)).
  pose proof (C130_same (mag d V) (mag d' V) _ _ sb sb' tc R R' A HQ (latent_perfect o fuel d V _ Ho W Ac HV F M) (latent_perfect o' fuel' d' V _ Ho' W' Ac' HV' F' M')
    (λ _, Hu) HR1 HR2) as H.
  eapply returns_mono; [apply (returns_and _ _ _ (HN _ _ _ HR) H)|].
  cbn beta. intros g [H1 H2]. eapply returns_mono; [apply (returns_and _ _ _ (HN _ _ _ HR') H2)|]. cbn beta. intros g' [H1' H3] Hi. apply H3.
  intros a b Hab. apply (mag_adj d W V _ M). specialize (Hi a b Hab). destruct Hab as [Hab|Hab]; [apply H1 in Hab|apply H1' in Hab]; tauto.
Qed.
Print Assumptions C130_latents.

(** FCI without latent nodes: nothing remains to be assumed *)
Theorem C130_no_latents : ∀ d d' o1 o2 o1' o2' f1 f2 f1' f2' sb sb' tc, wf_graph d → wf_graph d' → acyclic d → acyclic d' → gnodes d = gnodes d' →
  same_over (gnodes d) d d' → iter_ok o1 → iter_ok o2 → iter_ok o1' → iter_ok o2' →
  let V := gnodes d in size V * size V + size V + 2 < f1 → size V * size V + size V + 2 < f1' → size V < f2 → size V < f2' →
  returns (fci_learn o1 (dsep_ci o2 f2 d) sb tc f1 V) (λ r,
    returns (fci_learn o1' (dsep_ci o2' f2' d') sb' tc f1' V) (λ r', same_marks (ls_graph r.1) (ls_graph r'.1))).
Proof.
  intros d d' o1 o2 o1' o2' f1 f2 f1' f2' sb sb' tc W W' Ac Ac' N Hs Ho1 Ho2 Ho1' Ho2' V F1 F1' F2 F2'.
  pose proof (C130_latents d d' V o2 o2' f2 f2' sb sb' tc _ _ W W' Ac Ac' ltac:(done) ltac:(unfold V; by rewrite N) Hs Ho2 Ho2' F2 ltac:(rewrite <-N; done)
    (by_fci _ sb tc V o1 f1 Ho1 F1) (by_fci _ sb' tc V o1' f1' Ho1' F1')) as H.
  pose proof (fci_no_latents o1 o2 f1 f2 d sb tc Ho1 Ho2 W Ac F1 F2) as H1.
  pose proof (fci_no_latents o1' o2' f1' f2' d' sb' tc Ho1' Ho2' W' Ac') as H2. rewrite <-N in H2. specialize (H2 F1' F2'). fold V in H1, H2.
  destruct (fci_learn o1 _ _ _ _ _) as [r| |]; try done. destruct (fci_learn o1' _ _ _ _ _) as [r'| |]; try done. cbn [returns mbind res_bind] in *.
  destruct H1 as [H1 _], H2 as [H2 _]. apply H.
  assert (∀ e a b, wf_graph e → acyclic e → adjacent e a b → ∀ Z, ¬ d_separated e a b Z) as HA.
  { intros e a b We Ae Hab Z. apply adjacent_not_dsep; [|done]. intros ->. destruct Hab as [Hab|Hab]; apply (Ae b); by constructor. }
  intros a b [Hab|Hab] Z HZ.
  - apply HA; [done..|]. by apply H1.
  - apply H2 in Hab. assert (a ∈ V ∧ b ∈ V ∧ a ≠ b) as (Ha & Hb & Hne).
    { unfold V. rewrite N. split; [|split]; [destruct Hab as [Hab|Hab]; apply W' in Hab; tauto..|]. intros ->. destruct Hab as [Hab|Hab]; apply (Ac' b); by constructor. }
    rewrite (Hs a b Z Ha Hb Hne HZ). by apply HA.
Qed.
Print Assumptions C130_no_latents.

(** the equivalent DAGs 0 --> 2 <-- 1, 2 --> 3, 2 --> 4 with 3 --> 4 and with 4 --> 3: learned by FCI and by ICD, in different orders *)
Lemma colliders_in ns l l' a c b :
  forallb (λ p, forallb (λ q, negb (p.2 =? q.2) || (p.1 =? q.1) || bool_decide ((p.1, q.1) ∈ l ∨ (q.1, p.1) ∈ l) || bool_decide (p ∈ l' ∧ q ∈ l')) l) l = true →
  v_structure (mk_graph ns l) a c b → edge (mk_graph ns l') a c ∧ edge (mk_graph ns l') b c.
Proof.
  intros Hl (H1 & H2 & Hab & Hn). unfold adjacent in Hn. rewrite !mk_graph_edge in *. rewrite forallb_forall in Hl.
  pose proof (Hl (a, c)) as H. rewrite forallb_forall in H. specialize (H ltac:(by apply elem_of_list_In) (b, c) ltac:(by apply elem_of_list_In)).
  cbn [fst snd] in H. rewrite Nat.eqb_refl, !orb_true_iff, Nat.eqb_eq, !bool_decide_eq_true in H. cbn [negb] in H.
  destruct H as [[[?|?]|?]|?]; [done|tauto..].
Qed.
Definition marks_of (R : res mgraph) : list (node * mark * node) := match R with Ok g => mark_list g 6 | _ => [] end.
Example C130_case : wf_graph d92 ∧ wf_graph e92 ∧ acyclic d92 ∧ acyclic e92 ∧ gnodes d92 = gnodes e92 ∧ same_over (gnodes d92) d92 e92 ∧
  (let R := r ← fci_learn ord_up (dsep_ci ord_down 8 d92) true true 60 (gnodes d92); Ok (ls_graph r.1) in
   let R' := t ← icd_learn ord_down (dsep_ci ord_up 8 e92) false true 60 true (icd_init ord_down (gnodes d92)); Ok (ls_graph (ic_ls t)) in
   learned (dsep_ci ord_down 8 d92) true true (gnodes d92) R ∧ learned (dsep_ci ord_up 8 e92) false true (gnodes d92) R' ∧
   marks_of R = marks_of R' ∧ marks_of R = [(0,Directed,2);(1,Directed,2);(2,Directed,3);(2,Directed,4);(3,Tail,2);(4,Tail,2)]).
Proof.
  assert (wf_graph d92 ∧ wf_graph e92 ∧ acyclic d92 ∧ acyclic e92 ∧ gnodes d92 = gnodes e92) as (W & W' & Ac & Ac' & N).
  { split_and!; try (by apply mk_graph_wf); try (by apply mk_graph_acyclic; vm_compute); done. }
  assert (size (gnodes d92) = 6) as Sz by by vm_compute.
  split; [done|]. split; [done|]. split; [done|]. split; [done|]. split; [done|]. split; [|cbv zeta; split; [|split; [|split]]].
  - assert (∀ a b, adjacent d92 a b ↔ adjacent e92 a b) as HA.
    { intros a b. unfold adjacent, d92, e92. rewrite !mk_graph_edge. set_unfold. naive_solver. }
    intros x y Z Hx Hy Hne HZ. apply equivalent_d_separated; [done..|by split|].
    assert (∀ a c b, v_structure d92 a c b → edge e92 a c ∧ edge e92 b c) as H1 by (intros a c b; apply colliders_in; by vm_compute).
    assert (∀ a c b, v_structure e92 a c b → edge d92 a c ∧ edge d92 b c) as H2 by (intros a c b; apply colliders_in; by vm_compute).
    intros a c b. pose proof (HA a b). split; intros Hv; [destruct (H1 _ _ _ Hv)|destruct (H2 _ _ _ Hv)]; destruct Hv as (_ & _ & ? & ?); split_and!; tauto.
  - apply by_fci; [apply ord_up_ok|rewrite Sz; lia].
  - apply by_icd; [apply ord_down_ok|rewrite Sz; lia].
  - by vm_compute.
  - by vm_compute.
Qed.

(** ** C131: without latent nodes FCI and ICD learn the CPDAG *)
Lemma mag_no_latents d : wf_graph d → acyclic d → same_edges (mag d (gnodes d)) d.
Proof.
  intros W Ac. pose proof (mag_exists d (gnodes d) W Ac ltac:(done)) as M.
  assert (∀ a b, a ∈ gnodes d → b ∈ gnodes d → a ≠ b → inseparable d (gnodes d) a b ↔ adjacent d a b) as Hi.
  { intros a b Ha Hb Hne. split; [|intros H Z _; by apply adjacent_not_dsep].
    set (f := S (size (gnodes d) * size (gnodes d) + size (gnodes d) + 2)).
    pose proof (C44_fci ord_up ord_up d (gnodes d) true true f f ord_up_ok ord_up_ok W Ac ltac:(done) ltac:(unfold f; lia) ltac:(unfold f; lia)) as H1.
    pose proof (fci_no_latents ord_up ord_up f f d true true ord_up_ok ord_up_ok W Ac ltac:(unfold f; lia) ltac:(unfold f; lia)) as H2.
    destruct (fci_learn _ _ _ _ _ _) as [r| |]; try done. cbn [returns] in *. intros Hab. apply H2. by apply H1. }
  assert (∀ a b, edge d a b → a ∈ gnodes d ∧ b ∈ gnodes d ∧ a ≠ b) as He.
  { intros a b H. pose proof (W _ _ H) as [? ?]. split_and!; [done..|]. intros ->. apply (Ac b). by apply tc_once. }
  split; [apply M|]. split_and!; [| |apply M]; intros a b.
  - rewrite (mo_arrow _ _ _ M). split.
    + intros (Ha & Hb & Hne & Hab & Hn). apply Hi in Hab as [?|Hba]; [done| |done..]. destruct Hn. by apply rtc_once.
    + intros H. destruct (He _ _ H) as (Ha & Hb & Hne). split_and!; [done..|apply Hi; [done..|by left]|]. intros Hr. apply (Ac a).
      eapply tc_rtc_r; [by apply tc_once|done].
  - rewrite (mo_tail _ _ _ M). split.
    + intros (Ha & Hb & Hne & Hab & Hn). apply Hi in Hab as [Hab|?]; [|done..]. destruct (Ac a). eapply tc_rtc_r; [by apply tc_once|done].
    + intros H. destruct (He _ _ H) as (Ha & Hb & Hne). split_and!; [done..|apply Hi; [done..|by right]|by apply rtc_once].
Qed.

Lemma learned_essential d p o fuel sb tc R : wf_graph d → acyclic d → essential_graph d p → (∀ a b, pd_adj p a b ↔ adjacent d a b) →
  iter_ok o → size (gnodes d) < fuel → learned (dsep_ci o fuel d) sb tc (gnodes d) R →
  returns R (λ g, (∀ a b, mg_adj g a b → adjacent d a b) → pag_of_cpdag p g).
Proof.
  intros W Ac (Np & HD & HU) Hadj Ho F HR.
  assert (∀ e, acyclic e → same_skeleton d e → same_v_structures d e → ∃ m, same_edges m e ∧
    returns R (λ g, mnodes g = gnodes d ∧ ((∀ a b, mg_adj g a b → adjacent d a b) → ∃ S, tcanon m tc true S g))) as Hall.
  { intros e Ae Hsk Hvs. assert (wf_graph e) as We.
    { intros a b Hab. destruct Hsk as [Hn Hsk]. rewrite <-Hn. assert (adjacent d a b) as [H|H] by (apply Hsk; by left); apply W in H; tauto. }
    pose proof (mag_no_latents e We Ae) as Em. exists (mag e (gnodes e)). split; [done|]. pose proof Hsk as [Hn Hsk'].
    pose proof (dag_ancestral _ _ Em We Ae) as A. pose proof (dsep_ci_perfect o fuel _ e Ho Em We Ae ltac:(rewrite <-Hn; done)) as Pe.
    pose proof (mag_exists e (gnodes e) We Ae ltac:(done)) as M. pose proof (mo_nodes _ _ _ M) as N.
    assert (perfect_for (mag e (gnodes e)) (dsep_ci o fuel d)) as Pd.
    { intros log i j c Hi Hj Hne Hnd Hc. rewrite <-(Pe log i j c Hi Hj Hne Hnd Hc). rewrite N in *. unfold dsep_ci.
      assert (j ∉ c) as Hjc by (intros H; apply Hc in H; tauto).
      pose proof (dsep_spec o Ho d fuel i j c W Ac F ltac:(by rewrite Hn) ltac:(by rewrite Hn) ltac:(intros z Hz; rewrite Hn; by apply Hc) Hne Hjc) as (b1 & -> & H1)%returns_ok.
      pose proof (dsep_spec o Ho e fuel i j c We Ae ltac:(by rewrite <-Hn) Hi Hj ltac:(intros z Hz; by apply Hc) Hne Hjc) as (b2 & -> & H2)%returns_ok.
      rewrite H1, H2. by apply equivalent_d_separated. }
    assert (learned (dsep_ci o fuel d) sb tc (mnodes (mag e (gnodes e))) R) as HR' by by rewrite N, <-Hn.
    eapply returns_mono; [apply (learned_canon _ _ sb tc R A Pd); [|done]|].
    - intros _. apply (dm_und _ (mag_dir_mixed e We Ae _ _ M)).
    - cbn beta. intros g [Ng C]. split; [congruence|]. intros Hs. apply C. intros a b Hab. apply Hs, Hsk' in Hab.
      destruct Em as (_ & E1 & E2 & _). destruct Hab as [H|H]; [exists Directed; by apply E1|exists Tail; by apply E2]. }
  destruct (Hall d Ac (same_skeleton_refl d) ltac:(done)) as (m & Em & H0). destruct R as [g| |]; try done. cbn [returns] in *.
  destruct H0 as [Ng H0]. intros Hs. destruct (H0 Hs) as [S (g0 & [W0 C P0 T L] & Wg & P & Ag & Dg)%tcanon_base].
  destruct (essential_meek d W Ac) as (gp & Hp & Hmk).
  assert (∀ a b, meek gp a b → edge d a b) as Hme by (intros a b [_ H]%Hmk; by apply H).
  assert (∀ a b, has_mark g a Directed b ↔ darrow p a b) as HA.
  { intros a b. rewrite HD. split.
    - intros Hab. split; [apply Hs; by exists Directed|]. intros e Ae Hsk Hvs. destruct (Hall e Ae Hsk Hvs) as (me & (_ & E1 & _) & _ & Hc).
      destruct (Hc Hs) as [Se (ge & [_ Ce _ _ _] & _ & _ & _ & De)%tcanon_base]. apply E1. apply (cp_marks _ _ _ Ce); [done|]. by apply De.
    - intros H%Hmk. apply Dg. apply (aw_meek d W Ac m Em g0 S C W0 P0) with gp; try done.
      + apply (T 1); [set_solver +|done]. + apply (T 2); [set_solver +|done]. + apply (T 3); [set_solver +|done]. }
  assert (∀ a b, uline p a b → ¬ darrow p a b ∧ ¬ darrow p b a) as HN.
  { intros a b [(e & Ae & S1 & V1 & Hab) (e' & Ae' & S2 & V2 & Hba)]%HU. split; intros [_ H]%HD.
    - apply (Ae' a). eapply tc_l; [by apply (H e')|by apply tc_once].
    - apply (Ae a). eapply tc_l; [exact Hab|]. apply tc_once. by apply (H e). }
  assert (∀ a b, uline p a b → uline p b a) as Hsym by (intros a b; rewrite !HU; tauto).
  assert (∀ a b, mg_adj g a b ↔ pd_adj p a b) as HAd.
  { intros a b. rewrite Hadj. split; [apply Hs|]. intros H. apply Ag, (cp_adj _ _ _ C). destruct Em as (_ & E1 & E2 & _).
    destruct H as [H|H]; [exists Directed; by apply E1|exists Tail; by apply E2]. }
  split; [congruence|done|done|intros a b H; by apply HA, P|].
  intros a b. split.
  - intros [Hab Hba]. assert (pd_adj p a b) as [H|[H|H]] by (apply HAd; by eexists); [done| |]; apply HA in H.
    + by pose proof (mgw_one _ Wg _ _ _ _ H Hab). + by pose proof (mgw_one _ Wg _ _ _ _ H Hba).
  - assert (∀ a b, uline p a b → has_mark g a Circle b) as H; [|intros Hu; split; [by apply H|by apply H, Hsym]].
    intros x y Hu. destruct (HN x y Hu) as [N1 N2]. assert (mg_adj g x y) as [[] Hk] by (apply HAd; by left); [done| |].
    + by apply HA in Hk. + by apply P, HA in Hk.
Qed.

(** the graph that PC learns and the graph that convert_to_cpdag computes *)
Theorem C131_cpdag : ∀ d o fuel sb tc R o' cp rules fuel', wf_graph d → acyclic d → iter_ok o → size (gnodes d) < fuel → learned (dsep_ci o fuel d) sb tc (gnodes d) R →
  iter_ok o' → mnodes cp = gnodes d → (∀ n k, mset cp n k = ∅) → (∀ i, i ∈ rules ↔ 1 ≤ i ≤ 3) → size (gnodes d) * size (gnodes d) + 1 < fuel' →
  returns (convert_to_cpdag o' fuel' d cp rules) (λ p, returns R (λ g, (∀ a b, mg_adj g a b → adjacent d a b) → pag_of_cpdag p g)).
Proof.
  intros d o fuel sb tc R o' cp rules fuel' W Ac Ho F HR Ho' N E Hr F'.
  eapply returns_mono; [apply (returns_and _ _ _ (cpdag_essential o' d cp rules fuel' Ho' W Ac N E Hr F') (cpdag_correct o' d cp rules fuel' Ho' W Ac N E Hr F'))|].
  cbn beta. intros p [Hp (_ & _ & Ha & _)]. eapply (learned_essential d p o fuel sb tc R); done.
Qed.
Print Assumptions C131_cpdag.

(** FCI and PC, with all settings of both *)
Theorem C131_fci_is_pc : ∀ d o1 o2 o3 o4 f1 f2 f3 f4 sb tc ow, wf_graph d → acyclic d → iter_ok o1 → iter_ok o2 → iter_ok o3 → iter_ok o4 →
  let V := gnodes d in size V * size V + size V + 2 < f1 → size V < f2 → size V * size V + 1 < f3 → size V < f4 →
  returns (pc_learn o3 (dsep_ci o4 f4 d) ow f3 V) (λ s,
    returns (fci_learn o1 (dsep_ci o2 f2 d) sb tc f1 V) (λ r, pag_of_cpdag (pc_graph s) (ls_graph r.1))).
Proof.
  intros d o1 o2 o3 o4 f1 f2 f3 f4 sb tc ow W Ac Ho1 Ho2 Ho3 Ho4 V F1 F2 F3 F4.
  assert (∀ i, i ∈ [1;2;3] ↔ 1 ≤ i ≤ 3) as Hr by (intros i; set_unfold; lia).
  destruct (pc_oracle_cpdag o3 o4 o3 d (mempty V) [1;2;3] ow f3 f4 f3 Ho3 Ho4 Ho3 W Ac) as (s & p & Es & Ep & Hn & Hs); [done..|].
  fold V in Es. rewrite Es. cbn [returns].
  pose proof (C131_cpdag d o2 f2 sb tc _ o3 (mempty V) [1;2;3] f3 W Ac Ho2 F2 (by_fci _ sb tc V o1 f1 Ho1 F1) Ho3 eq_refl (λ _ _, eq_refl) Hr F3) as H.
  pose proof (fci_no_latents o1 o2 f1 f2 d sb tc Ho1 Ho2 W Ac F1 F2) as H1. fold V in H1. fold V in Ep. rewrite Ep in H. cbn [returns] in H.
  destruct (fci_learn o1 _ _ _ _ _) as [r| |]; try done. cbn [returns mbind res_bind] in *. destruct H1 as [H1 _].
  destruct H as [N2 A2 D2 T2 C2]; [intros a b; by apply H1|].
  assert (∀ a b, darrow (pc_graph s) a b ↔ darrow p a b) as HD by (intros a b; apply (Hs a b)).
  assert (∀ a b, uline (pc_graph s) a b ↔ uline p a b) as HU by (intros a b; apply (Hs a b)).
  split; [congruence|..]; intros a b; unfold pd_adj in *; rewrite ?HD, ?HU; [apply A2|apply D2|apply T2|apply C2].
Qed.
Print Assumptions C131_fci_is_pc.

(** 0 --> 2 <-- 1, 2 --> 3 --> 4, 2 --> 4: PC leaves 3 --- 4 and directs the rest; FCI and ICD leave 3 o-o 4 and put an
    arrowhead on all other edges *)
Example C131_case : wf_graph d92 ∧ acyclic d92 ∧
  match pc_learn ord_up (dsep_ci ord_down 8 d92) true 60 (gnodes d92) with Ok s => mark_list (pc_graph s) 6 | _ => [] end
    = [(0,Directed,2);(1,Directed,2);(2,Directed,3);(2,Directed,4);(3,Tail,4);(4,Tail,3)] ∧
  let R := t ← icd_learn ord_down (dsep_ci ord_up 8 d92) true true 60 false (icd_init ord_down (gnodes d92)); Ok (ls_graph (ic_ls t)) in
  learned (dsep_ci ord_up 8 d92) true true (gnodes d92) R ∧
  marks_of R = [(0,Directed,2);(1,Directed,2);(2,Directed,3);(2,Directed,4);(3,Tail,2);(4,Tail,2)] ∧
  match R with Ok g => adj_pairs g 6 | _ => [] end = [(0,2);(1,2);(2,3);(2,4);(3,4)].
Proof.
  split; [apply C130_case|]. split; [apply C130_case|]. split; [by vm_compute|]. cbv zeta. split; [|split; by vm_compute].
  apply by_icd; [apply ord_down_ok|]. assert (size (gnodes d92) = 6) as -> by by vm_compute. lia.
Qed.
