(** Properties C34-C36 and C67: caching, thresholds and retained edges of CI tests. *)
From Verif Require Import Base BaseLemmas ModelGraph Spec ModelMixed SpecMixed ModelPAG SpecPAG ModelPC ModelCI SpecCI ProofGraph3 ProofCI ProofCI2.

(** ** C34 *)
Theorem C34_dsep_cached : ∀ (os : nat → order) d fuel n qs, (∀ t, iter_ok (os t)) → gnodes d = list_to_set (seq 0 n) →
  wf_graph d → acyclic d → size (gnodes d) < fuel → Forall (qvalid n) qs →
  returns (ask (λ t, dsep_cond_indep true (dsep (os t) fuel d)) 0 qs (ci_new n true true)) (λ r,
    Forall2 (λ q (b : bool), b = true ↔ d_separated d q.1.1 q.1.2 q.2) qs r.1 ∧
    returns (ask (λ t, dsep_cond_indep false (dsep (os t) fuel d)) 0 qs (ci_new n true false)) (λ r', r'.1 = r.1) ∧
    ∃ l, cs_count r.2 = Some l ∧ counts n qs l).
Proof. intros os d fuel n qs Hos Hn Hwf Hac Hf. exact (dsep_cached os d fuel n Hos Hn Hwf Hac Hf qs). Qed.
Print Assumptions C34_dsep_cached.

Theorem C34_static_dag_cached : ∀ (os : nat → order) d fuel n o st qs, (∀ t, iter_ok (os t)) → gnodes d = list_to_set (seq 0 n) →
  wf_graph d → acyclic d → size (gnodes d) < fuel → iter_ok o → (∀ z, z ∈ st → z < n) →
  Forall (λ q, qvalid n q ∧ q.1.1 ∉ st ∧ q.1.2 ∉ st) qs →
  returns (ask (λ t, graph_cond_indep o (Some st) true (dsep (os t) fuel d)) 0 qs (ci_new n true true)) (λ r,
    Forall2 (λ q (b : bool), b = true ↔ d_separated d q.1.1 q.1.2 (q.2 ++ st)) qs r.1 ∧
    returns (ask (λ t, graph_cond_indep o (Some st) false (dsep (os t) fuel d)) 0 qs (ci_new n true false)) (λ r', r'.1 = r.1) ∧
    ∃ l, cs_count r.2 = Some l ∧ counts n ((λ q, (q.1, q.2 ++ st)) <$> qs) l).
Proof. intros os d fuel n o st qs Hos Hn Hwf Hac Hf. exact (graph_dsep_cached os d fuel n Hos Hn Hwf Hac Hf o st qs). Qed.
Print Assumptions C34_static_dag_cached.

Theorem C34_static_mixed_cached : ∀ (os : nat → order) g fuel n o st qs, (∀ t, iter_ok (os t)) → mnodes g = list_to_set (seq 0 n) →
  dir_mixed g → size (mnodes g) + 1 < fuel → iter_ok o → (∀ z, z ∈ st → z < n) →
  Forall (λ q, qvalid n q ∧ q.1.1 ∉ st ∧ q.1.2 ∉ st) qs →
  returns (ask (λ t, graph_cond_indep o (Some st) true (is_m_separated (os t) fuel g)) 0 qs (ci_new n true true)) (λ r,
    Forall2 (λ q (b : bool), b = true ↔ m_separated g q.1.1 q.1.2 (list_to_set (q.2 ++ st))) qs r.1 ∧
    returns (ask (λ t, graph_cond_indep o (Some st) false (is_m_separated (os t) fuel g)) 0 qs (ci_new n true false)) (λ r', r'.1 = r.1) ∧
    ∃ l, cs_count r.2 = Some l ∧ counts n ((λ q, (q.1, q.2 ++ st)) <$> qs) l).
Proof. intros os g fuel n o st qs Hos Hn D Hf. exact (graph_msep_cached os g fuel n Hos Hn D Hf o st qs). Qed.
Print Assumptions C34_static_mixed_cached.

(** without static conditioning GraphCondIndep behaves as DSep *)
Theorem C34_no_static : ∀ o uc crit qs t s,
  ask (λ t, graph_cond_indep o None uc (crit t)) t qs s = ask (λ t, dsep_cond_indep uc (crit t)) t qs s.
Proof. intros o uc crit qs t s. exact (ask_none o uc crit qs s t). Qed.
Print Assumptions C34_no_static.

(** any test whose value is a function of the unordered pair and the set; without a cache every query is counted *)
Theorem C34_uncached_counts : ∀ n (val : nset * nset → bool) crit qs, Forall (qvalid n) qs →
  (∀ t q, qvalid n q → crit t q.1.1 q.1.2 q.2 = Ok (val (qkey q))) →
  returns (ask (λ t, dsep_cond_indep false (crit t)) 0 qs (ci_new n true false)) (λ r,
    r.1 = (λ q, val (qkey q)) <$> qs ∧ cs_count r.2 = Some (asked qs <$> seq 0 (n - 1))).
Proof. exact uncached_counts. Qed.
Print Assumptions C34_uncached_counts.

(** the same for statistical tests: see C35 *)

(** [eQ] is 0 --> 1 <-- 2, asked six times: four different queries *)
Definition qQ : list (node * node * list node) := [(0, 2, []); (2, 0, []); (0, 2, [1]); (2, 0, [1]); (0, 1, []); (1, 2, [0])].
Example C34_case : Forall (qvalid 3) qQ ∧ acyclic eQ ∧
  match ask (λ _, dsep_cond_indep true (dsep ord_up 9 eQ)) 0 qQ (ci_new 3 true true) with
  | Ok (bs, s) => bool_decide (bs = [true; true; false; false; false; false] ∧ cs_count s = Some [2; 2])
  | _ => false
  end = true ∧
  match ask (λ _, graph_cond_indep ord_up (Some [1]) true (dsep ord_up 9 eQ)) 0 [(0, 2, []); (2, 0, [1])] (ci_new 3 true true) with
  | Ok (bs, s) => bool_decide (bs = [false; false] ∧ cs_count s = Some [0; 1])
  | _ => false
  end = true.
Proof.
  split; [by apply qvalid_check; vm_compute|]. split; [|split; by vm_compute].
  intros a Ha. by apply eQ_acyclic in Ha.
Qed.

(** the cache is indexed by 0..n-1: with other node names the cached oracle fails on its first query *)
Theorem C34_node_names_refuted : ∃ d x y, wf_graph d ∧ acyclic d ∧ x ∈ gnodes d ∧ y ∈ gnodes d ∧ x ≠ y ∧
  ask (λ _, dsep_cond_indep false (dsep ord_up 9 d)) 0 [(x, y, [])] (ci_new (size (gnodes d)) false false) = Ok ([true], CIState None None) ∧
  ask (λ _, dsep_cond_indep true (dsep ord_up 9 d)) 0 [(x, y, [])] (ci_new (size (gnodes d)) false true) = Raise KeyError.
Proof. exact node_names_refuted. Qed.
Print Assumptions C34_node_names_refuted.

(** ** C35: the answers are those of a test without memory, whatever thresholds are set when;
    and the counters count the different queries between non-retained pairs *)
Theorem C35_threshold_changes : ∀ {V T : Type} (gt : V → T → bool) retained n (val : nset * nset → V) calc (th : T) ops,
  Forall (op_valid n) ops →
  (∀ t x y zz, qvalid n (x, y, zz) → calc t x y zz = Some (val (qkey (x, y, zz)))) →
  returns (stat_run (λ t, stat_cond_indep gt retained true (calc t)) 0 ops (StatState (ci_new n true true) th)) (λ r,
    r.1 = memoryless gt retained val th ops ∧ ∃ l, cs_count (ss_ci r.2) = Some l ∧ counts n (op_queries retained ops) l).
Proof. exact @stat_cached. Qed.
Print Assumptions C35_threshold_changes.

Theorem C35_cmi_threshold_changes : ∀ {V T : Type} (gt : V → T → bool) retained n (val : nset * nset → V) calc (th : T) ops,
  Forall (op_valid n) ops →
  (∀ t x y zz, qvalid n (x, y, zz) → calc t x y zz = Some (val (qkey (x, y, zz)))) →
  returns (stat_run (λ t, cmi_cond_indep gt retained true (calc t)) 0 ops (StatState (ci_new n true true) th)) (λ r,
    r.1 = negb <$> memoryless gt retained val th ops ∧ ∃ l, cs_count (ss_ci r.2) = Some l ∧ counts n (op_queries retained ops) l).
Proof. exact @cmi_cached. Qed.
Print Assumptions C35_cmi_threshold_changes.

(** statistic = sum of the variables, thresholds 2, 5, 1; the pair 1 - 2 is retained *)
Definition ops35 : list (stat_op nat) :=
  [Query 0 3 []; Query 1 2 [0]; SetThreshold 5; Query 3 0 []; Query 0 3 [2; 1]; SetThreshold 1; Query 3 0 [1; 2]].
Definition val35 (k : nset * nset) : nat := sum_list (elements (k.1 ∪ k.2)).
Example C35_case : Forall (op_valid 4) ops35 ∧
  memoryless (λ v t, bool_decide (t < v)) (mk_graph [0;1;2;3] [(1,2);(2,1)]) val35 2 ops35 = [true; false; false; true; true] ∧
  match stat_run (λ _, stat_cond_indep (λ v t, bool_decide (t < v)) (mk_graph [0;1;2;3] [(1,2);(2,1)]) true (λ x y zz, Some (x + y + sum_list zz)))
    0 ops35 (StatState (ci_new 4 true true) 2) with
  | Ok (bs, s) => bool_decide (bs = [true; false; false; true; true] ∧ cs_count (ss_ci s) = Some [1; 0; 1])
  | _ => false
  end = true.
Proof.
  split; [|by split; vm_compute].
  apply op_valid_check. by vm_compute.
Qed.

(** ** C36 *)
Theorem C36_retained_partial : ∀ {V T : Type} (gt : V → T → bool) retained use_cache calc x y zz (s : stat_state V T),
  adjacent retained x y → stat_cond_indep gt retained use_cache calc x y zz s = Ok (false, s).
Proof. exact @retained_dependent. Qed.
Print Assumptions C36_retained_partial.

(** the mutual information test inverts the answer, also the one for retained edges: it reports every
    retained edge as independent *)
Theorem C36_cmi_inverted : ∀ {V T : Type} (gt : V → T → bool) retained use_cache calc x y zz (s : stat_state V T),
  adjacent retained x y → cmi_cond_indep gt retained use_cache calc x y zz s = Ok (true, s).
Proof. exact @cmi_retained. Qed.
Print Assumptions C36_cmi_inverted.

Theorem C36_cmi_refuted : ∃ retained x y (s : stat_state nat nat), adjacent retained x y ∧
  cmi_cond_indep (λ v t, bool_decide (t < v)) retained true (λ _ _ _, Some 100) x y [] s = Ok (true, s) ∧ ss_threshold s = 1.
Proof. exact cmi_refuted. Qed.
Print Assumptions C36_cmi_refuted.

Example C36_case : adjacent (mk_graph [0;1;2;3] [(1,2);(2,1)]) 1 2.
Proof. left. by apply mk_graph_edge, (bool_decide_unpack _); vm_compute. Qed.

(** ** C67 *)
Theorem C67_cache_is_a_map : ∀ {V : Type} n (ops : list (cache_op V)), Forall (λ op, qvalid n (op_query op)) ops →
  returns (cache_run ops (cc_new (Some n))) (λ c, ∀ q, qvalid n q →
    cc_get c q.1.1 q.1.2 q.2 = last_stored q (op_effect <$> ops) None ∧
    (cc_del c q.1.1 q.1.2 q.2).2 = last_stored q (op_effect <$> ops) None).
Proof. exact @cache_refines. Qed.
Print Assumptions C67_cache_is_a_map.

Definition ops67 : list (cache_op nat) := [CSet 0 1 [2;3] 7; CSet 1 0 [3] 8; CSet 1 0 [3;2] 9; CDel 0 1 [3]; CSet 2 3 [] 5].
Example C67_case : Forall (λ op, qvalid 4 (op_query op)) ops67 ∧
  last_stored (0, 1, [3;2]) (op_effect <$> ops67) None = Some 9 ∧ last_stored (0, 1, [3]) (op_effect <$> ops67) None = None ∧
  match cache_run ops67 (cc_new (Some 4)) with Ok c => bool_decide (cc_get c 1 0 [2;3] = Some 9 ∧ cc_get c 1 0 [3] = None ∧ cc_get c 3 2 [] = Some 5) | _ => false end = true.
Proof.
  split; [assert (Forall (qvalid 4) (op_query <$> ops67)) as H by (apply qvalid_check; by vm_compute); rewrite Forall_fmap in H; exact H|]. by repeat split; vm_compute.
Qed.
