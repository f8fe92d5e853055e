(** Property C118: temporal ICD with a test that answers like a process that does not change over time.
    [m] is the graph of the process over the window [NS]: an ancestral graph whose marks are the same at all times and whose edges from an
    earlier to a later node have an arrowhead at the later one. [perfect_for m ci]: the test answers "independent" exactly when [m] separates.
    [near] is the condition of C48, without which the code may raise an AssertionError. *)
From Verif Require Import Base BaseLemmas ModelGraph Spec Paths ProofGraph3.
From Verif Require Import ModelMixed ModelPC ModelPAG ModelPDS ModelFCI ModelTS SpecMixed SpecPC SpecPAG SpecPDS SpecFCI SpecTS.
From Verif Require Import ProofMixed2 ProofPAG ProofFCI5 ProofFCI6 ProofTS ProofTS2 ProofTS3 ProofTS4 ProofTS5 ProofTS6 PropFCI PropTS.

(** what holds given a set in the present also holds for every copy of the query that the code writes down for earlier times *)
Theorem C118_copies : ∀ NS m n0 n1 c, window NS → ancestral m → mnodes m = win_nodes NS →
  (∀ k, stationary NS (λ a b, has_mark m a k b)) → (∀ a b, past_of NS a b → mg_adj m a b → has_mark m a Directed b) →
  in_time NS 0 n0 → n1 ∈ win_nodes NS → c ≠ [] → (∀ z, z ∈ c → z ∈ win_nodes NS) → m_separated m n0 n1 (list_to_set c) →
  returns (ci_homology NS n0 n1 c) (λ l, ∀ a b c', (a, b, c') ∈ l → m_separated m a b (list_to_set c')).
Proof.
  intros NS m n0 n1 c W A N Sm Fm H0 H1 Hc HcV Hs. eapply returns_mono; [by apply C47_tests|]. cbn beta. intros l Hl a b c' Hin.
  apply elem_of_list_lookup in Hin as [p Hp]. apply Hl in Hp as (Ha & Hb & HF).
  apply (msep_shift NS W m A N Sm Fm (p + 1) n0 n1 a b (list_to_set c)); [done|done| | |done].
  - intros z' Hz'. apply elem_of_list_to_set, elem_of_list_lookup in Hz' as [q Hq]. destruct (Forall2_lookup_r _ _ _ _ _ HF Hq) as (z & Hz & ?).
    exists z. rewrite elem_of_list_to_set. split; [by eapply elem_of_list_lookup_2|done].
  - intros z Hz. apply elem_of_list_to_set, elem_of_list_lookup in Hz as [q Hq]. destruct (Forall2_lookup_l _ _ _ _ _ HF Hq) as (z' & Hz' & ?).
    exists z'. rewrite elem_of_list_to_set. split; [by eapply elem_of_list_lookup_2|done].
Qed.
Print Assumptions C118_copies.

Theorem C118_sound : ∀ NS o ci m sb precalc fuel, window NS → iter_ok o → ancestral m → mnodes m = win_nodes NS →
  (∀ k, stationary NS (λ a b, has_mark m a k b)) → (∀ a b, past_of NS a b → mg_adj m a b → has_mark m a Directed b) →
  perfect_for m ci → near NS ci → size (win_nodes NS) * size (win_nodes NS) + size (win_nodes NS) + 2 < fuel →
  returns (r ← ts_init NS o None; ts_learn NS o ci true sb false precalc fuel r.2 r.1) (λ t,
    (∀ a b, mg_adj m a b → mg_adj (ls_graph (ic_ls t)) a b) ∧
    ((∀ a b, mg_adj (ls_graph (ic_ls t)) a b → mg_adj m a b) → sound_for m (ls_graph (ic_ls t)))).
Proof. intros NS o ci m sb precalc fuel W Ho A N Sm Fm Hci Hn Hf. by apply (ts_sound NS W o Ho ci m A N Sm Fm Hci sb precalc fuel Hf). Qed.
Print Assumptions C118_sound.

(** no latent variables: the process is a DAG over the window and the test is the package's own d-separation oracle *)
Theorem C118_dag : ∀ NS o o' m d sb precalc fuel fuel', window NS → iter_ok o → iter_ok o' → same_edges m d → wf_graph d → acyclic d →
  gnodes d = win_nodes NS → stationary NS (edge d) → (∀ a b, past_of NS a b → ¬ edge d b a) →
  near NS (dsep_ci o' fuel' d) → size (gnodes d) < fuel' → size (gnodes d) * size (gnodes d) + size (gnodes d) + 2 < fuel →
  returns (r ← ts_init NS o None; ts_learn NS o (dsep_ci o' fuel' d) true sb false precalc fuel r.2 r.1) (λ t,
    (∀ a b, edge d a b → mg_adj (ls_graph (ic_ls t)) a b ∧ mg_adj (ls_graph (ic_ls t)) b a) ∧
    ((∀ a b, mg_adj (ls_graph (ic_ls t)) a b → edge d a b ∨ edge d b a) → sound_for m (ls_graph (ic_ls t)))).
Proof.
  intros NS o o' m d sb precalc fuel fuel' W Ho Ho' Hs Wd Ac N Sd Fd Hn Hf' Hf. pose proof Hs as (Nm & HD & HT & HC). rewrite N in Hf.
  assert (∀ a b, mg_adj m a b ↔ edge d a b ∨ edge d b a) as Hadj.
  { intros a b. split.
    - intros [k Hk]. destruct k; [by apply HC in Hk|left; by apply HD|right; by apply HT].
    - intros [H|H]; [exists Directed; by apply HD|exists Tail; by apply HT]. }
  eapply returns_mono; [apply (C118_sound NS o _ m sb precalc fuel W Ho (dag_ancestral _ _ Hs Wd Ac))|].
  - by rewrite Nm.
  - intros k a b a' b' Hl. destruct k; [split; intros H; by apply HC in H|rewrite !HD; by apply Sd|rewrite !HT].
    apply Sd. destruct Hl as (k & [[? ?]|[? ?]]); exists k; [left|right]; done.
  - intros a b Hp Hab. apply HD. apply Hadj in Hab as [?|H]; [done|]. by apply Fd in H.
  - by apply dsep_ci_perfect.
  - done.
  - done.
  - cbn beta. intros t (H1 & H2). split.
    + intros a b He. split; apply H1, Hadj; tauto.
    + intros H. apply H2. intros a b Hab. apply Hadj. by apply H.
Qed.
Print Assumptions C118_dag.

(** two independent variables, each following its own past: the result has all edges, arrowheads into the later node, and the tails found by R1 *)
Definition e118 : graph := mk_graph (seq 0 6) [(2,0);(3,1);(4,2);(5,3)].
Definition e118m : mgraph := mk_mg (seq 0 6) (pag_ 2 Tail Directed 0 ++ pag_ 3 Tail Directed 1 ++ pag_ 4 Tail Directed 2 ++ pag_ 5 Tail Directed 3).
Example C118_case : window eNS ∧ same_edges e118m e118 ∧ wf_graph e118 ∧ acyclic e118 ∧ gnodes e118 = win_nodes eNS ∧ stationary eNS (edge e118) ∧
  (∀ a b, past_of eNS a b → ¬ edge e118 b a) ∧ near eNS (dsep_ci ord_up 20 e118) ∧
  match (r ← ts_init eNS ord_down None; ts_learn eNS ord_down (dsep_ci ord_up 20 e118) true true false false 60 r.2 r.1) with
  | Ok t => (adj_pairs (ls_graph (ic_ls t)) 6, mark_list (ls_graph (ic_ls t)) 6) | _ => ([], []) end
  = ([(0,2);(1,3);(2,4);(3,5)], [(0,Tail,2);(1,Tail,3);(2,Directed,0);(2,Tail,4);(3,Directed,1);(3,Tail,5);(4,Directed,2);(5,Directed,3)]).
Proof.
  split; [exact eNS_window|]. split.
  { split; [apply (bool_decide_unpack _); by vm_compute|]. unfold e118m, e118.
    split_and!; intros a b; rewrite ?mk_graph_edge, mk_mg_mark; unfold pag_; set_solver +. }
  split; [apply mk_graph_wf; by vm_compute|]. split; [apply mk_graph_acyclic; by vm_compute|].
  split; [apply (bool_decide_unpack _); by vm_compute|]. split.
  { assert (stationary eNS (λ a b, bool_decide (a ∈ gadj e118 b) = true)) as H by (apply (stationary_check _ _ 2); by vm_compute).
    intros a b c d Hl. specialize (H a b c d Hl). by rewrite !bool_decide_eq_true in H. }
  split.
  { intros a b (ta & tb & Ha & Hb & Hlt) He. unfold e118 in He. rewrite mk_graph_edge in He.
    assert (∀ t i n, at_ eNS t i n → n / 2 = t) as Ht.
    { intros t i n (l & Hl & Hn). destruct t as [|[|[|t]]]; [..|done]; injection Hl as <-; destruct i as [|[|i]]; try done; by injection Hn as <-. }
    destruct Ha as [ia Ha%Ht], Hb as [ib Hb%Ht]. rewrite !elem_of_cons, elem_of_nil in He.
    destruct He as [[= -> ->]|[[= -> ->]|[[= -> ->]|[[= -> ->]|[]]]]]; cbn in *; lia. }
  split; [apply (near_check _ (dsep_ci ord_up 20 e118 [])); [intros; unfold dsep_ci; reflexivity|vm_cast_no_check (eq_refl true)]|].
  by vm_compute.
Qed.
