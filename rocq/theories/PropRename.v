(** C132: the names of the variables do not matter: with correct answers, PC, FCI and ICD learn renamed graphs from renamed
    distributions.  π is the renaming, ρ its inverse; [o] are the orders in which sets are iterated (any with [iter_ok o]),
    [fuel] bounds on the loops (any large enough); they are chosen independently for the two runs. *)
From Verif Require Import Base BaseLemmas ModelGraph Spec ProofPDAG2 ProofPDAG3 ProofGraph2 ProofGraph3 ProofDsep ModelMixed SpecMixed ProofMixed2 ModelPC SpecPC ProofPC ModelPAG SpecPAG ProofPAG ProofPAGM
  ModelPDS SpecPDS ModelFCI SpecFCI ProofFCI ProofFCI2 ProofFCI3 ProofFCI4 ProofFCI5 ProofFCI6 SpecLatent ProofLatent ProofVP SpecCanon ProofCanon ProofCanon2 ProofCanon3 ProofPAGW PropPAG PropFCI PropLatent PropMeek PropCanon
  SpecRename ProofRename.

(** ancestral graphs m and m' with the same independences up to renaming *)
Theorem C132_learners : ∀ π ρ m m' ci ci' sb sb' tc R R', bijection π ρ → ancestral m → renamed_separations π m m' → perfect_for m ci → perfect_for m' ci' →
  (sb = true ∨ sb' = true → ∀ a b, ¬ und_edge m a b) →
  learned ci sb tc (mnodes m) R → learned ci' sb' tc (mnodes m') R' →
  returns R (λ g, returns R' (λ g', (∀ a b, mg_adj g a b ∨ mg_adj g' (π a) (π b) → mg_adj m a b) → renamed π g g')).
Proof.
  intros π ρ m m' ci ci' sb sb' tc R R' Bi A [N Hs] Hci Hci' Hu HR HR'.
  pose proof (bij_sym _ _ Bi) as Bi'. set (m2 := pull ρ π m).
  pose proof (pull_renamed ρ π Bi' m) as Q'. fold m2 in Q'. pose proof (renamed_sym ρ π Bi' _ _ Q') as Q.
  assert (ancestral m2) as A2 by (by apply (rn_ancestral ρ π Bi' _ _ Q')).
  assert (mnodes m' = mnodes m2) as N2.
  { apply set_eq. intros x. rewrite (proj1 Q' x), N, (proj2 Bi). done. }
  assert (perfect_for m2 ci') as Hp.
  { intros log i j c Hi Hj Hne Hnd Hc. rewrite <-N2 in Hi, Hj. rewrite (Hci' log i j c); [|done..|by rewrite N2].
    rewrite (rn_separated ρ π Bi' _ _ _ _ _ Q'). rewrite <-(proj2 Bi i), <-(proj2 Bi j) at 1.
    set (Z := set_map ρ (list_to_set c : nset) : nset). assert (list_to_set c = (set_map π Z : nset)) as -> by (unfold Z; by rewrite (map_back ρ π Bi')).
    symmetry. apply Hs.
    - by rewrite N, (proj2 Bi).
    - by rewrite N, (proj2 Bi).
    - intros E. apply Hne. by rewrite <-(proj2 Bi i), E, (proj2 Bi).
    - intros z Hz. unfold Z in Hz. apply elem_of_map in Hz as (z' & -> & Hz'). apply elem_of_list_to_set, Hc in Hz' as (H1 & H2 & H3).
      rewrite elem_of_difference, N, (proj2 Bi), N2. split; [done|]. rewrite elem_of_union, !elem_of_singleton.
      intros [E|E]; apply (f_equal π) in E; rewrite !(proj2 Bi) in E; done. }
  rewrite N2 in HR'.
  eapply returns_mono; [apply (learned_canon ci m sb tc R A Hci); [auto|done]|]. cbn beta. intros g [Ng C].
  eapply returns_mono; [apply (learned_canon ci' m2 sb' tc R' A2 Hp); [|done]|].
  { intros Hsb a b Hab. apply (rn_und ρ _ _ Q') in Hab. by apply Hu in Hab; [|by right]. }
  cbn beta. intros g' [Ng' C'] Hk. destruct C as [S C]; [auto|].
  destruct C' as [S' C']; [|by eapply rn_tcanon].
  intros a b Hab. apply (rn_adj ρ _ _ Q'). apply Hk. right. by rewrite !(proj2 Bi).
Qed.
Print Assumptions C132_learners.

(** DAGs with latent nodes: V and V' are the observed nodes *)
Theorem C132_latents : ∀ π ρ d d' V V' o o' fuel fuel' sb sb' tc R R', bijection π ρ → wf_graph d → wf_graph d' → acyclic d → acyclic d' → V ⊆ gnodes d → V' ⊆ gnodes d' →
  renamed_over π V V' d d' → iter_ok o → iter_ok o' → size (gnodes d) < fuel → size (gnodes d') < fuel' →
  learned (dsep_ci o fuel d) sb tc V R → learned (dsep_ci o' fuel' d') sb' tc V' R' →
  returns R (λ g, returns R' (λ g', (∀ a b, mg_adj g a b ∨ mg_adj g' (π a) (π b) → inseparable d V a b) → renamed π g g')).
Proof.
  intros π ρ d d' V V' o o' fuel fuel' sb sb' tc R R' Bi W W' Ac Ac' HV HV' [HN Hs] Ho Ho' F F' HR HR'.
  pose proof (mag_exists d V W Ac HV) as M. pose proof (mag_exists d' V' W' Ac' HV') as M'.
  destruct (C98_mag d V W Ac HV) as [_ HM]. destruct (HM _ M) as (A & _ & Hm). clear HM.
  destruct (C98_mag d' V' W' Ac' HV') as [_ HM]. destruct (HM _ M') as (A' & _ & Hm'). clear HM.
  pose proof (mo_nodes _ _ _ M) as N. pose proof (mo_nodes _ _ _ M') as N'.
  assert (learned (dsep_ci o fuel d) sb tc (mnodes (mag d V)) R) as HR1 by by rewrite N.
  assert (learned (dsep_ci o' fuel' d') sb' tc (mnodes (mag d' V')) R') as HR2 by by rewrite N'.
  assert (∀ R ci sb V, learned ci sb tc V R → returns R (λ g, ∀ a b, mg_adj g a b → a ∈ V ∧ b ∈ V ∧ a ≠ b)) as HL.
  { clear. intros R ci sb V [o fuel Ho Hf|o fuel precalc Ho Hf].
    - eapply returns_bind; [by apply fci_learn_ok|]. cbn beta. intros r [I _] a b H. apply mg_adj_nodes in H as (? & ? & ?); [|apply I]. rewrite (li_nodes _ _ _ I) in *. done.
    - eapply returns_bind; [by apply icd_learn_ok|]. cbn beta. intros t [It _] a b H. apply mg_adj_nodes in H as (? & ? & ?); [|apply It]. rewrite (li_nodes _ _ _ (ii_inv _ _ _ It)) in *. done. }
  pose proof (bij_inj _ _ Bi) as Hi.
  assert (renamed_separations π (mag d V) (mag d' V')) as HQ.
  { split; [intros a; by rewrite N, N'|]. rewrite N. intros x y Z Hx Hy Hne HZ. rewrite Hm by done. rewrite Hm'.
    - by apply Hs.
    - by apply HN.
    - by apply HN.
    - intros E. by apply Hne, Hi.
    - intros z (z' & -> & Hz)%elem_of_map. apply HZ in Hz. rewrite elem_of_difference, elem_of_union, !elem_of_singleton in *.
      destruct Hz as [Hz Hz']. split; [by apply HN|]. intros [E|E]; apply Hz'; [left|right]; by apply Hi. }
  assert (∀ a b, ¬ und_edge (mag d V) a b) as Hu by apply (dm_und _ (mag_dir_mixed d W Ac V _ M)).
  pose proof (C132_learners π ρ (mag d V) (mag d' V') _ _ sb sb' tc R R' Bi A HQ (latent_perfect o fuel d V _ Ho W Ac HV F M) (latent_perfect o' fuel' d' V' _ Ho' W' Ac' HV' F' M')
    (λ _, Hu) HR1 HR2) as H.
  eapply returns_mono; [apply (returns_and _ _ _ (HL _ _ _ _ HR) H)|].
  cbn beta. intros g [H1 H2]. eapply returns_mono; [apply (returns_and _ _ _ (HL _ _ _ _ HR') H2)|]. cbn beta. intros g' [H1' H3] Hk. apply H3.
  intros a b Hab. apply (mag_adj d W V _ M). specialize (Hk a b Hab). destruct Hab as [Hab|Hab]; [apply H1 in Hab; tauto|].
  apply H1' in Hab as (Ha & Hb & Hne). apply HN in Ha, Hb. split_and!; try done. intros ->. done.
Qed.
Print Assumptions C132_latents.

(** a DAG with renamed nodes has renamed independences: one DAG and its renaming, any observed nodes *)
Theorem C132_renamed_dag : ∀ π ρ d d' V V' o o' fuel fuel' sb sb' tc R R', bijection π ρ → wf_graph d → wf_graph d' → acyclic d → acyclic d' → V ⊆ gnodes d →
  renamed_dag π d d' → (∀ a, a ∈ V ↔ π a ∈ V') → iter_ok o → iter_ok o' → size (gnodes d) < fuel → size (gnodes d') < fuel' →
  learned (dsep_ci o fuel d) sb tc V R → learned (dsep_ci o' fuel' d') sb' tc V' R' →
  returns R (λ g, returns R' (λ g', (∀ a b, mg_adj g a b ∨ mg_adj g' (π a) (π b) → inseparable d V a b) → renamed π g g')).
Proof.
  intros π ρ d d' V V' o o' fuel fuel' sb sb' tc R R' Bi W W' Ac Ac' HV Hd HN Ho Ho' F F' HR HR'. eapply (C132_latents π ρ d d' V V' o o' fuel fuel' sb sb' tc R R'); try done; [|by eapply rd_over].
  intros x Hx. rewrite <-(proj2 Bi x) in Hx |- *. apply Hd, HV. by apply HN.
Qed.
Print Assumptions C132_renamed_dag.

(** without latent nodes, FCI and PC *)
Theorem C132_fci : ∀ π ρ d d' o1 o2 o1' o2' f1 f2 f1' f2' sb sb' tc, bijection π ρ → wf_graph d → wf_graph d' → acyclic d → acyclic d' →
  renamed_over π (gnodes d) (gnodes d') d d' → iter_ok o1 → iter_ok o2 → iter_ok o1' → iter_ok o2' →
  let V := gnodes d in let V' := gnodes d' in
  size V * size V + size V + 2 < f1 → size V' * size V' + size V' + 2 < f1' → size V < f2 → size V' < f2' →
  returns (fci_learn o1 (dsep_ci o2 f2 d) sb tc f1 V) (λ r,
    returns (fci_learn o1' (dsep_ci o2' f2' d') sb' tc f1' V') (λ r', renamed π (ls_graph r.1) (ls_graph r'.1))).
Proof.
  intros π ρ d d' o1 o2 o1' o2' f1 f2 f1' f2' sb sb' tc Bi W W' Ac Ac' Hs Ho1 Ho2 Ho1' Ho2' V V' F1 F1' F2 F2'.
  pose proof (C132_latents π ρ d d' V V' o2 o2' f2 f2' sb sb' tc _ _ Bi W W' Ac Ac' ltac:(done) ltac:(done) Hs Ho2 Ho2' F2 F2'
    (by_fci _ sb tc V o1 f1 Ho1 F1) (by_fci _ sb' tc V' o1' f1' Ho1' F1')) as H.
  pose proof (fci_no_latents o1 o2 f1 f2 d sb tc Ho1 Ho2 W Ac F1 F2) as H1.
  pose proof (fci_no_latents o1' o2' f1' f2' d' sb' tc Ho1' Ho2' W' Ac' F1' F2') as H2. fold V in H1. fold V' in H2.
  destruct (fci_learn o1 _ _ _ _ _) as [r| |]; try done. destruct (fci_learn o1' _ _ _ _ _) as [r'| |]; try done. cbn [returns mbind res_bind] in *.
  destruct H1 as [H1 _], H2 as [H2 _]. apply H. pose proof (bij_inj _ _ Bi) as Hi.
  assert (∀ e a b, wf_graph e → acyclic e → adjacent e a b → ∀ Z, ¬ d_separated e a b Z) as HA.
  { intros e a b We Ae Hab Z. apply adjacent_not_dsep; [|done]. intros ->. destruct Hab as [Hab|Hab]; apply (Ae b); by constructor. }
  intros a b [Hab|Hab] Z HZ.
  - apply HA; [done..|]. by apply H1.
  - apply H2 in Hab. assert (π a ∈ V' ∧ π b ∈ V' ∧ π a ≠ π b) as (Ha & Hb & Hne).
    { unfold V'. split; [|split]; [destruct Hab as [Hab|Hab]; apply W' in Hab; tauto..|]. intros E. rewrite E in Hab. destruct Hab as [Hab|Hab]; apply (Ac' (π b)); by constructor. }
    destruct Hs as [HN Hs]. rewrite (Hs a b Z); [by apply HA|by apply HN..|intros ->; done|done].
Qed.
Print Assumptions C132_fci.

Theorem C132_pc : ∀ π ρ d d' o1 o2 o1' o2' f1 f2 f1' f2' ow ow', bijection π ρ → wf_graph d → wf_graph d' → acyclic d → acyclic d' →
  renamed_over π (gnodes d) (gnodes d') d d' → iter_ok o1 → iter_ok o2 → iter_ok o1' → iter_ok o2' →
  let V := gnodes d in let V' := gnodes d' in
  size V * size V + 1 < f1 → size V' * size V' + 1 < f1' → size V < f2 → size V' < f2' →
  returns (pc_learn o1 (dsep_ci o2 f2 d) ow f1 V) (λ s,
    returns (pc_learn o1' (dsep_ci o2' f2' d') ow' f1' V') (λ s', let p := pc_graph s in let p' := pc_graph s' in
      (∀ a, a ∈ mnodes p ↔ π a ∈ mnodes p') ∧
      ∀ a b, (darrow p a b ↔ darrow p' (π a) (π b)) ∧ (uline p a b ↔ uline p' (π a) (π b)))).
Proof.
  intros π ρ d d' o1 o2 o1' o2' f1 f2 f1' f2' ow ow' Bi W W' Ac Ac' Hs Ho1 Ho2 Ho1' Ho2' V V' F1 F1' F2 F2'.
  set (f := S (size V * size V + size V + 2)). set (f' := S (size V' * size V' + size V' + 2)).
  pose proof (C132_fci π ρ d d' o1 o2 o1' o2' f f2 f' f2' true true true Bi W W' Ac Ac' Hs Ho1 Ho2 Ho1' Ho2' (Nat.lt_succ_diag_r _) (Nat.lt_succ_diag_r _) F2 F2') as H.
  pose proof (C131_fci_is_pc d o1 o2 o1 o2 f f2 f1 f2 true true ow W Ac Ho1 Ho2 Ho1 Ho2 (Nat.lt_succ_diag_r _) F2 F1 F2) as H1.
  pose proof (C131_fci_is_pc d' o1' o2' o1' o2' f' f2' f1' f2' true true ow' W' Ac' Ho1' Ho2' Ho1' Ho2' (Nat.lt_succ_diag_r _) F2' F1' F2') as H2.
  cbv zeta in H, H1, H2. fold V in H, H1. fold V' in H, H2.
  destruct (pc_learn o1 _ _ _ _) as [s| |]; try done. destruct (pc_learn o1' _ _ _ _) as [s'| |]; try done.
  destruct (fci_learn o1 _ _ _ _ _) as [r| |]; try done. destruct (fci_learn o1' _ _ _ _ _) as [r'| |]; try done. cbn [returns] in *. cbv zeta.
  destruct H as [HN HM], H1 as [N1 _ D1 _ U1], H2 as [N2 _ D2 _ U2]. split; [intros a; by rewrite <-N1, <-N2|]. intros a b. split.
  - by rewrite <-D1, <-D2.
  - by rewrite <-U1, <-U2, !HM.
Qed.
Print Assumptions C132_pc.

(** the case of C130 with 0, ..., 5 renamed to 5, ..., 0 *)
Definition flip (a : node) : node := if a <=? 5 then 5 - a else a.
Definition f92 : graph := mk_graph [5;4;3;2;1;0] [(5,3);(4,3);(3,2);(2,1);(3,1)].
Example C132_case : bijection flip flip ∧ wf_graph d92 ∧ wf_graph f92 ∧ acyclic d92 ∧ acyclic f92 ∧ renamed_dag flip d92 f92 ∧ renamed_over flip (gnodes d92) (gnodes f92) d92 f92 ∧
  (let R := r ← fci_learn ord_up (dsep_ci ord_down 8 d92) true true 60 (gnodes d92); Ok (ls_graph r.1) in
   let R' := t ← icd_learn ord_down (dsep_ci ord_up 8 f92) false true 60 true (icd_init ord_down (gnodes f92)); Ok (ls_graph (ic_ls t)) in
   learned (dsep_ci ord_down 8 d92) true true (gnodes d92) R ∧ learned (dsep_ci ord_up 8 f92) false true (gnodes f92) R' ∧
   marks_of R = [(0,Directed,2);(1,Directed,2);(2,Directed,3);(2,Directed,4);(3,Tail,2);(4,Tail,2)] ∧
   marks_of R' = [(1,Tail,3);(2,Tail,3);(3,Directed,1);(3,Directed,2);(4,Directed,3);(5,Directed,3)]).
Proof.
  assert (bijection flip flip) as Bi.
  { assert (∀ a, flip (flip a) = a) as Hf; [|done]. intros a. unfold flip. destruct (a <=? 5) eqn:E.
    - apply Nat.leb_le in E. assert (5 - a <=? 5 = true) as -> by (apply Nat.leb_le; lia). lia.
    - by rewrite E. }
  assert (size (gnodes d92) = 6 ∧ size (gnodes f92) = 6) as [Sz Sz'] by by vm_compute.
  assert (renamed_dag flip d92 f92) as Hd.
  { pose proof (bij_inj _ _ Bi) as Hi. split.
    - intros a. unfold d92, f92, mk_graph. cbn [gnodes]. rewrite !elem_of_list_to_set. change [5;4;3;2;1;0] with (flip <$> [0;1;2;3;4;5]). split; [by apply elem_of_list_fmap_1|]. intros (a' & E & H)%elem_of_list_fmap. by apply Hi in E as ->.
    - intros a b. unfold d92, f92. rewrite !mk_graph_edge. change [(5,3);(4,3);(3,2);(2,1);(3,1)] with (prod_map flip flip <$> [(0,2);(1,2);(2,3);(3,4);(2,4)]).
      change (flip a, flip b) with (prod_map flip flip (a, b)). split; [by apply elem_of_list_fmap_1|]. intros ([a' b'] & E & H)%elem_of_list_fmap.
      unfold prod_map in E. cbn [fst snd] in E. injection E as E1 E2. apply Hi in E1 as ->. by apply Hi in E2 as ->. }
  split; [done|]. split; [apply C130_case|]. split; [by apply mk_graph_wf|]. split; [apply C130_case|]. split; [apply mk_graph_acyclic; by vm_compute|]. split; [done|].
  split; [eapply rd_over; try done; apply Hd|]. cbv zeta. split; [|split; [|split]].
  - apply by_fci; [apply ord_up_ok|rewrite Sz; lia].
  - apply by_icd; [apply ord_down_ok|rewrite Sz'; lia].
  - by vm_compute.
  - by vm_compute.
Qed.
