(** Properties C47 and C48: ICD for time series.
    [NS] is nodes_sets_list (the present first), [window NS] is what the constructor asserts; [o] with [iter_ok o] is an arbitrary iteration
    order of Python sets; [fuel] bounds the recursion depth and the number of iterations, any value above the stated bound gives the same
    claim. [sb], [tc] and [precalc] are the options is_selection_bias, is_tail_completeness and is_pre_calc_cond_set; the boolean after the
    CI test is is_homology. *)
From Verif Require Import Base BaseLemmas ModelGraph Spec Paths ProofGraph3.
From Verif Require Import ModelMixed ModelPC ModelPAG ModelPDS ModelFCI ModelTS SpecMixed SpecPC SpecPAG SpecPDS SpecFCI SpecTS.
From Verif Require Import ProofMixed2 ProofPAG ProofTS ProofTS2 ProofTS3 ProofTS4 ProofTS5 PropFCI.

Definition eNS : list (list node) := [[0; 1]; [2; 3]; [4; 5]].
Lemma eNS_window : window eNS.
Proof. apply window_check. by vm_compute. Qed.

(** ** C47: the p-th entry is the edge (and the conditioning set) p+1 steps earlier, and all of those inside the window are listed *)
Theorem C47_edges : ∀ NS n0 n1, window NS → in_time NS 0 n0 → n1 ∈ win_nodes NS →
  returns (edge_homology NS n0 n1) (λ l, ∀ p a b, l !! p = Some (a, b) ↔ earlier NS (p + 1) n0 a ∧ earlier NS (p + 1) n1 b).
Proof. intros NS n0 n1 W. exact (edge_homology_ok NS W n0 n1). Qed.
Print Assumptions C47_edges.

Theorem C47_tests : ∀ NS n0 n1 c, window NS → in_time NS 0 n0 → n1 ∈ win_nodes NS → c ≠ [] → (∀ z, z ∈ c → z ∈ win_nodes NS) →
  returns (ci_homology NS n0 n1 c) (λ l, ∀ p a b c', l !! p = Some (a, b, c') ↔
    earlier NS (p + 1) n0 a ∧ earlier NS (p + 1) n1 b ∧ Forall2 (earlier NS (p + 1)) c c').
Proof. intros NS n0 n1 c W. exact (ci_homology_ok NS W n0 n1 c). Qed.
Print Assumptions C47_tests.

(** the edges whose marks are copied: the pair at all times *)
Theorem C47_marks : ∀ NS p c, window NS → p ∈ win_nodes NS → c ∈ win_nodes NS →
  returns (entry_homology NS p c) (λ l, ∀ c' p', (c', p') ∈ l ↔ same_lag NS p c p' c').
Proof. intros NS p c W. exact (entry_homology_ok NS W p c). Qed.
Print Assumptions C47_marks.

Example C47_case : window eNS ∧ in_time eNS 0 1 ∧ 2 ∈ win_nodes eNS ∧ edge_homology eNS 1 2 = Ok [(3, 4)] ∧
  edge_homology eNS 1 4 = Ok [] ∧ ci_homology eNS 1 0 [3; 2] = Ok [(3, 2, [5; 4])] ∧ ci_homology eNS 1 0 [0; 1] = Ok [(3, 2, [2; 3]); (5, 4, [4; 5])].
Proof.
  split; [exact eNS_window|]. split; [exists 1, [0; 1]; done|]. split; [apply (bool_decide_unpack _); by vm_compute|]. split_and!; by vm_compute.
Qed.

(** ** C48: it fails for a process that does not change over time and a CI test that answers according to its d-separations.
    1 is Y, 0 is X at the present, 3 and 2 one step earlier, 5 and 4 two steps earlier; X one and two steps earlier is a cause of Y.
    6 and 7 are X three and four steps earlier, which are outside the window. *)
Definition e48 : graph := mk_graph (seq 0 8) [(2,1);(4,1);(4,3);(6,3);(6,5);(7,5)].
Definition raises {A} (r : res A) (e : exn) : bool := match r with Raise e' => bool_decide (e = e') | _ => false end.

Theorem C48_refuted : ∃ NS o d fuel fuel', window NS ∧ iter_ok o ∧ wf_graph d ∧ acyclic d ∧ win_nodes NS ⊆ gnodes d ∧ stationary NS (edge d) ∧
  size (gnodes d) < fuel' ∧ size (win_nodes NS) * size (win_nodes NS) + size (win_nodes NS) + 2 < fuel ∧
  raises (r ← ts_init NS o None; ts_learn NS o (dsep_ci o fuel' d) true false true false fuel r.2 r.1) AssertionError = true.
Proof.
  exists eNS, ord_up, e48, 60, 20. split; [exact eNS_window|]. split; [exact ord_up_ok|]. split; [apply mk_graph_wf; by vm_compute|].
  split; [apply mk_graph_acyclic; by vm_compute|]. split; [apply (bool_decide_unpack _); by vm_compute|]. split.
  { assert (stationary eNS (λ a b, bool_decide (a ∈ gadj e48 b) = true)) as H by (apply (stationary_check _ _ 2); by vm_compute).
    intros a b c d Hs. specialize (H a b c d Hs). by rewrite !bool_decide_eq_true in H. }
  split; [apply (bool_decide_unpack _); by vm_compute|]. split; [apply (bool_decide_unpack _); by vm_compute|]. by vm_compute.
Qed.
Print Assumptions C48_refuted.

(** without is_homology already the first iteration fails *)
Theorem C48_no_homology_refuted : ∃ NS o d fuel fuel', window NS ∧ iter_ok o ∧ wf_graph d ∧ acyclic d ∧ win_nodes NS ⊆ gnodes d ∧
  size (gnodes d) < fuel' ∧ size (win_nodes NS) * size (win_nodes NS) + size (win_nodes NS) + 2 < fuel ∧
  raises (r ← ts_init NS o None; ts_iteration NS o (dsep_ci o fuel' d) false false true false fuel r.2 r.1) AssertionError = true.
Proof.
  exists eNS, ord_up, e48, 60, 20. split; [exact eNS_window|]. split; [exact ord_up_ok|]. split; [apply mk_graph_wf; by vm_compute|].
  split; [apply mk_graph_acyclic; by vm_compute|]. split; [apply (bool_decide_unpack _); by vm_compute|].
  split; [apply (bool_decide_unpack _); by vm_compute|]. split; [apply (bool_decide_unpack _); by vm_compute|]. by vm_compute.
Qed.
Print Assumptions C48_no_homology_refuted.

(** the cause: copying the marks of an edge puts back a removed one, with a mark at one end only *)
Theorem C48_fill_refuted : ∃ NS o g a b, window NS ∧ iter_ok o ∧ mg_wf g ∧ mnodes g = win_nodes NS ∧ ¬ mg_adj g a b ∧ ¬ mg_adj g b a ∧
  returns (fill_homology NS o g) (λ h, mg_adj h a b ∧ ¬ mg_adj h b a).
Proof.
  exists eNS, ord_up, (mk_mg (seq 0 6) (pag_ 5 Circle Directed 3)), 3, 1.
  split; [exact eNS_window|]. split; [exact ord_up_ok|]. split; [apply mk_mg_wf; by vm_compute|]. split; [apply (bool_decide_unpack _); by vm_compute|].
  assert (∀ a b, mg_adj (mk_mg (seq 0 6) (pag_ 5 Circle Directed 3)) a b → (a, b) ∈ [(3, 5); (5, 3)]) as H.
  { intros a b (k & Hk). apply mk_mg_mark in Hk. unfold pag_ in Hk. set_solver +Hk. }
  split; [intros Hx%H; set_solver +Hx|]. split; [intros Hx%H; set_solver +Hx|].
  assert (match fill_homology eNS ord_up (mk_mg (seq 0 6) (pag_ 5 Circle Directed 3)) with
    | Ok h => bool_decide (3 ∈ mset h 1 Directed) && forallb (λ k, negb (bool_decide (1 ∈ mset h 3 k))) all_marks | _ => false end = true) as Hf by by vm_compute.
  destruct (fill_homology _ _ _) as [h| |]; [|done|done]. cbn [returns]. apply andb_true_iff in Hf as [H1 H2]. split.
  - exists Directed. by apply bool_decide_eq_true in H1.
  - intros (k & Hk). rewrite forallb_forall in H2. specialize (H2 k ltac:(destruct k; cbn; tauto)). apply negb_true_iff, bool_decide_eq_false in H2. done.
Qed.
Print Assumptions C48_fill_refuted.

(** *** what remains true. [fx] holds the fixed marks. Orientation of a skeleton that does not change over time returns, keeps the skeleton,
    gives a mark to an edge at one time exactly when it does at all other times, and keeps the fixed arrowheads that belong to a relation P that does
    not change over time *)
Theorem C48_orientation_partial : ∀ NS o sb tc fuel fx complete sep g P, window NS → iter_ok o →
  mg_wf g → mnodes g = win_nodes NS → stationary NS (mg_adj g) → (∀ a b, mg_adj g a b → ∃ k, fx !! (a, b) = Some (Some k)) →
  sep_total sep g → size (win_nodes NS) * size (win_nodes NS) + 2 < fuel →
  stationary NS P → (∀ a b, mg_adj g a b → P a b → fx !! (a, b) = Some (Some Directed)) →
  returns (ts_orient NS o sb tc fuel fx complete sep g) (λ h, mnodes h = mnodes g ∧ mg_wf h ∧ (∀ a b, mg_adj h a b ↔ mg_adj g a b) ∧
    (∀ k, stationary NS (λ a b, has_mark h a k b)) ∧ ∀ a b, mg_adj g a b → P a b → has_mark h a Directed b).
Proof.
  intros NS o sb tc fuel fx complete sep g P W Ho Wg N St Hfx Hs Hf SP HP.
  eapply returns_mono; [exact (orient_ok NS W o Ho sb tc fuel fx complete sep g P Wg N St Hfx Hs Hf SP HP)|].
  intros h [(H1 & H2 & H3) [H4 H5]]. exact (conj H1 (conj H2 (conj H3 (conj H4 H5)))).
Qed.
Print Assumptions C48_orientation_partial.

(** The first iteration (empty conditioning sets), for every CI test, with is_homology: it returns, and what it returns is justified by the tests. *)
Theorem C48_first_iteration_partial : ∀ NS o ci sb tc precalc fuel, window NS → iter_ok o →
  size (win_nodes NS) * size (win_nodes NS) + size (win_nodes NS) + 2 < fuel →
  returns (r ← ts_init NS o None; ts_iteration NS o ci true sb tc precalc fuel r.2 r.1) (λ u,
    let t := ic_ls u.1 in let g := ls_graph t in
    u.2 = (false, 0) ∧ ts_justified NS ci (λ a b, a ∈ win_nodes NS ∧ b ∈ win_nodes NS ∧ a ≠ b) g (ls_sep t) (ls_log t) ∧
    (∀ k, stationary NS (λ a b, has_mark g a k b)) ∧ (∀ a b, mg_adj g a b → past_of NS a b → has_mark g a Directed b) ∧
    (∀ i j c b, (i, j, c, b) ∈ ls_log t → c = []) ∧ ∀ x y, in_time NS 0 x → y ∈ win_nodes NS → x ≠ y → ∃ q, tested (ls_log t) x y ∅ q).
Proof. intros NS o ci sb tc precalc fuel W Ho. exact (ts_first NS W o Ho ci sb tc precalc fuel). Qed.
Print Assumptions C48_first_iteration_partial.

(** The whole run, with is_homology, for a CI test that never separates a pair by a set which reaches further back than the two nodes: it
    terminates without an exception, no removed edge is put back, the recorded sets are those that separated the pair at the present moved in
    time, the result does not change over time, and edges over time have an arrowhead at the later node. *)
Theorem C48_learn_partial : ∀ NS o ci sb tc precalc fuel, window NS → iter_ok o →
  size (win_nodes NS) * size (win_nodes NS) + size (win_nodes NS) + 2 < fuel → near NS ci →
  returns (r ← ts_init NS o None; ts_learn NS o ci true sb tc precalc fuel r.2 r.1) (λ t,
    let g := ls_graph (ic_ls t) in
    ts_justified NS ci (λ a b, a ∈ win_nodes NS ∧ b ∈ win_nodes NS ∧ a ≠ b) g (ls_sep (ic_ls t)) (ls_log (ic_ls t)) ∧
    (∀ k, stationary NS (λ a b, has_mark g a k b)) ∧ (∀ a b, mg_adj g a b → past_of NS a b → has_mark g a Directed b) ∧
    growing (ls_log (ic_ls t)) ∧ ∀ x y, in_time NS 0 x → y ∈ win_nodes NS → x ≠ y → ∃ q, tested (ls_log (ic_ls t)) x y ∅ q).
Proof. intros NS o ci sb tc precalc fuel W Ho. exact (ts_run_complete NS W o Ho ci sb tc precalc fuel). Qed.
Print Assumptions C48_learn_partial.

(** the same from an initial graph h whose skeleton does not change over time *)
Theorem C48_learn_initial_partial : ∀ NS o ci h sb tc precalc fuel, window NS → iter_ok o →
  size (win_nodes NS) * size (win_nodes NS) + size (win_nodes NS) + 2 < fuel → near NS ci →
  mg_wf h → mnodes h = win_nodes NS → stationary NS (mg_adj h) →
  returns (r ← ts_init NS o (Some h); ts_learn NS o ci true sb tc precalc fuel r.2 r.1) (λ t,
    let g := ls_graph (ic_ls t) in
    ts_justified NS ci (mg_adj h) g (ls_sep (ic_ls t)) (ls_log (ic_ls t)) ∧
    (∀ k, stationary NS (λ a b, has_mark g a k b)) ∧
    (∀ a b, mg_adj g a b → (∀ c d, same_lag NS a b c d → has_mark h c Directed d) → has_mark g a Directed b) ∧
    growing (ls_log (ic_ls t))).
Proof. intros NS o ci h sb tc precalc fuel W Ho. exact (ts_run_initial NS W o Ho ci h sb tc precalc fuel). Qed.
Print Assumptions C48_learn_initial_partial.

(** two variables, each of which depends on its own last value only *)
Definition e48b : graph := mk_graph (seq 0 8) [(2,0);(3,1);(4,2);(5,3);(6,4);(7,5)].
Definition near_b (f : node → node → list node → bool) : bool :=
  forallb (λ '(i, j), if decide (i = j ∨ i mod 2 ≠ j mod 2 ∨ j ∈ [4; 5]) then true else
    forallb (λ c, negb (f i j c)) (concat (permutations <$> concat ((λ k, combs k (filter (λ z, z ≠ i ∧ z ≠ j) (seq 0 6))) <$> seq 0 5))))
    (list_prod [0; 1] (seq 0 6)) &&
  forallb (λ '(i, j), if decide (i mod 2 = j mod 2) then true else f i j []) (list_prod (seq 0 6) (seq 0 6)).
Lemma near_check (ci : citest) f : (∀ log i j c, ci log i j c = f i j c) → near_b f = true → near eNS ci.
Proof.
  intros Ef H. unfold near_b in H. apply andb_true_iff in H as [H1 H2]. rewrite forallb_forall in H1, H2.
  assert (∀ n, n ∈ win_nodes eNS ↔ n ∈ seq 0 6) as HV by (intros n; unfold win_nodes; rewrite elem_of_list_to_set; done).
  intros log i j c Hh Ht Hf Hp [x Hi] Hci z t Hz Htz. rewrite Ef in Hci.
  destruct (Hp i j c true) as (HiV & HjV & Hne & Hnd & Hc); [apply elem_of_list_here|].
  assert (i ∈ [0; 1]) as Hi01 by (destruct Hi as (l & [= <-] & Hl); by eapply elem_of_list_lookup_2).
  specialize (H1 (i, j) ltac:(apply in_prod; apply elem_of_list_In; [done|by apply HV])).
  cbv beta iota in H1. destruct (decide (i = j ∨ i mod 2 ≠ j mod 2 ∨ j ∈ [4; 5])) as [Hcase|_]; [destruct Hcase as [?|[Hcase|Hcase]]; [done| |]; clear H1|].
  - exfalso. destruct (Ht i j) as (q & c0 & Hc0 & Hlog); [by exists x|done|done|].
    assert (c0 = []) as -> by (destruct c0 as [|y c0]; [done|]; exfalso; apply (not_elem_of_empty (C := nset) y), Hc0, elem_of_list_here).
    assert (∀ a b, a ∈ seq 0 6 → b ∈ seq 0 6 → a mod 2 ≠ b mod 2 → f a b [] = true) as Hx.
    { intros a b Ha Hb Hab. specialize (H2 (a, b) ltac:(apply in_prod; by apply elem_of_list_In)). cbv beta iota in H2. by destruct (decide (a mod 2 = b mod 2)). }
    destruct (Hf []) as [F1 F2]. destruct Hlog as [Hlog|Hlog]; pose proof Hlog as Hl; apply elem_of_list_split in Hl as (l1 & l2 & E); apply Hh in E as ->.
    + apply F1. revert Hlog. rewrite Ef, Hx; [done|by apply HV|by apply HV|done].
    + apply F2. revert Hlog. rewrite Ef, Hx; [done|by apply HV|by apply HV|done].
  - exists 2. split; [|right; rewrite !elem_of_cons, elem_of_nil in Hcase; destruct Hcase as [-> |[-> |[]]]; [exists 0|exists 1]; by exists [4; 5]].
    destruct Htz as [y Hy]. apply at_time in Hy. cbn in Hy. lia.
  - exfalso. rewrite forallb_forall in H1. specialize (H1 c). rewrite negb_true_iff in H1. rewrite H1 in Hci; [done|].
    set (U := filter (λ z, z ≠ i ∧ z ≠ j) (seq 0 6)).
    assert (length U = 4) as HU.
    { unfold U. clear -Hi01 HjV Hne HV. apply HV in HjV. assert (Forall (λ '(i, j), i = j ∨ length (filter (λ z, z ≠ i ∧ z ≠ j) (seq 0 6)) = 4) (list_prod [0; 1] (seq 0 6))) as H.
      { apply (bool_decide_unpack _). by vm_compute. }
      rewrite Forall_forall in H. specialize (H (i, j) ltac:(apply elem_of_list_In, in_prod; by apply elem_of_list_In)). by destruct H. }
    pose proof (lists_in U c) as Hl. assert (c ∈ concat (permutations <$> concat ((λ k, combs k U) <$> seq 0 (S (length U))))) as Hin.
    { apply Hl; [apply NoDup_filter, NoDup_seq|done|]. intros w Hw. unfold U. apply elem_of_list_filter. destruct (Hc w Hw) as (HwV & ? & ?).
      split; [done|by apply HV]. }
    rewrite HU in Hin. apply elem_of_list_In. exact Hin.
Qed.
Lemma e48b_near : near eNS (dsep_ci ord_up 20 e48b).
Proof. apply (near_check _ (dsep_ci ord_up 20 e48b [])); [intros; unfold dsep_ci; reflexivity|vm_cast_no_check (eq_refl true)]. Qed.
Example C48_case : window eNS ∧ near eNS (dsep_ci ord_up 20 e48b) ∧
  match (r ← ts_init eNS ord_down None; ts_learn eNS ord_down (dsep_ci ord_up 20 e48b) true false true false 60 r.2 r.1) with
  | Ok t => (adj_pairs (ls_graph (ic_ls t)) 6, mark_list (ls_graph (ic_ls t)) 6, length (ls_log (ic_ls t))) | _ => ([], [], 0) end
  = ([(0,2);(1,3);(2,4);(3,5)], [(0,Tail,2);(1,Tail,3);(2,Directed,0);(2,Tail,4);(3,Directed,1);(3,Tail,5);(4,Directed,2);(5,Directed,3)], 13).
Proof. split; [exact eNS_window|]. split; [exact e48b_near|]. by vm_compute. Qed.

(** An initial graph, without an edge 0 -- 4. Its end result has the arrowheads 0 <-> 2 <-> 4 although the process is 0 <-- 2 <-- 4: the recorded
    set of a pair without an initial edge is empty, so 2 counts as a collider. *)
Definition e48c : mgraph := mk_mg (seq 0 6) (pag_ 2 Circle Directed 0 ++ pag_ 4 Circle Directed 2 ++ pag_ 3 Circle Circle 2 ++ pag_ 1 Circle Circle 0 ++ pag_ 5 Circle Circle 4).
Example C48_initial_case : mg_wf e48c ∧ mnodes e48c = win_nodes eNS ∧ stationary eNS (mg_adj e48c) ∧
  match (r ← ts_init eNS ord_down (Some e48c); ts_learn eNS ord_down (dsep_ci ord_up 20 e48b) true false true false 60 r.2 r.1) with
  | Ok t => (adj_pairs (ls_graph (ic_ls t)) 6, mark_list (ls_graph (ic_ls t)) 6) | _ => ([], []) end
  = ([(0,2);(2,4)], [(0,Directed,2);(2,Directed,0);(2,Directed,4);(4,Directed,2)]).
Proof.
  split; [apply mk_mg_wf; by vm_compute|]. split; [apply (bool_decide_unpack _); by vm_compute|]. split; [|by vm_compute].
  assert (stationary eNS (λ a b, existsb (λ k, bool_decide (a ∈ mset e48c b k)) all_marks = true)) as H by (apply (stationary_check _ _ 2); by vm_compute).
  assert (∀ a b, existsb (λ k, bool_decide (a ∈ mset e48c b k)) all_marks = true ↔ mg_adj e48c a b) as Hx.
  { intros a b. rewrite existsb_exists. unfold mg_adj, has_mark. split.
    - intros (k & _ & Hk). apply bool_decide_eq_true in Hk. by exists k.
    - intros (k & Hk). exists k. split; [destruct k; cbn; tauto|by apply bool_decide_eq_true]. }
  intros a b c d Hs. rewrite <-!Hx. by apply H.
Qed.
