(** Properties C128 and C129: a learner depends on the CI test only through the answers to its questions; learning with the test objects DSep,
    GraphCondIndep and StatCondIndep, their caches and counters. *)
From Coq Require Import QArith.
From Verif Require Import Base BaseLemmas ModelGraph Spec ProofGraph2 ModelMixed SpecMixed ModelPC SpecPC ProofPC ModelRAI SpecRAI ProofRAI ModelBRAI SpecBRAI ProofBRAI ModelPAG ModelFCI SpecFCI ProofFCI
  ModelOICD SpecOICD ProofOICD ProofOICD2 ProofOICD3 ModelTS ModelCI SpecCI ProofCI ProofCI2 SpecPCCount SpecICDCount ProofICDCount ProofRAICount ProofBRAICount SpecReplay ProofReplay ProofGraph3 PropPC PropRAI PropFCI PropOICD.
Local Open Scope nat_scope.

Lemma learner_rep V L ci ci' : learner V L → rep ci' [] snd (L ci) (L ci').
Proof.
  intros H. destruct H as [o ow fuel ??|o ow fuel ??|o ow fuel bdeu K pick ????|o sb tc fuel ??|o sb tc precalc fuel ??|o sb tc fuel ord mcs loc ?????].
  - eapply rep_bind; [apply pc_learn_rep|]. intros s. by apply rep_ok.
  - eapply rep_bind; [apply rai_learn_rep|]. intros s. by apply rep_ok.
  - eapply rep_bind; [apply brai_learn_rep|]. intros s. by apply rep_ok.
  - eapply rep_bind; [apply fci_learn_rep|]. intros s. by apply rep_ok.
  - eapply rep_bind; [exact (icd_learn_rep ci ci' o sb tc precalc fuel (icd_init o V))|]. intros s. by apply rep_ok.
  - eapply (rep_bind _ _ (λ s : ostate, ls_log (os_ls s))); [|intros s; by apply rep_ok]. apply rep_pure. intros s E.
    assert (ls_log (os_ls s) = []) as Es.
    { unfold oicd_init in E. destruct (negb _); [done|]. destruct (match mcs with Some m => _ | None => _ end); [done|]. by injection E as <-. }
    rewrite <-Es. apply o_learn_rep.
Qed.
Lemma learner_ok V L ci : learner V L → returns (L ci) (λ r, proper_log V r.2 ∧ honest ci r.2).
Proof.
  intros H. destruct H as [o ow fuel Ho Hf|o ow fuel Ho Hf|o ow fuel bdeu K pick Ho Hf HK Hp|o sb tc fuel Ho Hf|o sb tc precalc fuel Ho Hf|o sb tc fuel ord mcs loc Ho Hf Hnd HV Hm].
  - eapply returns_bind; [by apply pc_learn_result|]. cbn beta. intros s (s0 & g1 & I & _ & _ & E & _). cbn [returns fst snd]. rewrite E. split; [exact (sk_log _ _ _ I)|exact (sk_honest _ _ _ I)].
  - eapply returns_bind; [by apply rai_learn_inv|]. cbn beta. intros s (I & _). split; [exact (ra_log _ _ _ _ I)|exact (ra_honest _ _ _ _ I)].
  - destruct (proj1 (returns_ok _ _) (brai_learn_spec o Ho fuel V pick Hf Hp ci ow bdeu K HK)) as ([[t s] g] & E & _). rewrite E. cbn [mbind res_bind returns fst snd].
    revert E. unfold brai_learn. destruct (assert_ _) as [[]| |]; [|done..]. cbn [mbind res_bind].
    pose proof (brai_rec_spec o Ho ci ow fuel V Hf bdeu K fuel HK V ∅ 0 (pc_init o V) []) as Hs.
    destruct (brai_rec _ _ _ _ _ _ _ _ _ _ _ _ _ _) as [[t' s']| |] eqn:E1; [|done..]. cbn [mbind res_bind].
    destruct (sample_cpdag _ _ _ _ _ _ _) as [r| |]; [|done..]. cbn [mbind res_bind]. intros [= _ <- _].
    destruct Hs as [_ (B & I & _)]; [pose proof (lf_V fuel V Hf); lia|lia|by apply rai_init_inv|set_solver +..|]. split; [exact (ra_log _ _ _ _ I)|exact (ra_honest _ _ _ _ I)].
  - eapply returns_bind; [by apply C43_fci|]. cbn beta. intros r J. split; apply J.
  - eapply returns_bind; [by apply C43_icd|]. cbn beta. intros r (J & _). split; apply J.
  - destruct (proj1 (returns_ok _ _) (C71_constructor o Ho V ord Hnd HV mcs Hm)) as (s & E & _). rewrite E. cbn [mbind res_bind].
    eapply returns_bind; [exact (C71_calls o Ho ci V ord Hnd HV sb tc fuel Hf mcs Hm (λ _, True) s loc (or_init _ _ _ _ _ _ _ _ _ s E))|]. cbn beta. intros t (J & _). split; apply J.
Qed.

(** ** C128 *)
(** a test that answers the queries of a run as they were answered leads to the same graph, by the same queries *)
Theorem C128_replay : ∀ V L ci ci' r, learner V L → L ci = Ok r → honest ci' r.2 → L ci' = Ok r.
Proof. intros V L ci ci' r H E Hh. exact (proj2 (learner_rep V L ci ci' H r E) Hh). Qed.
Print Assumptions C128_replay.

(** only the answers about two different nodes of V, given other nodes of V that are listed once, matter *)
Theorem C128_proper : ∀ V L ci ci', learner V L →
  (∀ log x y c, proper_log V ((x, y, c, true) :: log) → ci log x y c = ci' log x y c) → ∃ r, L ci = Ok r ∧ L ci' = Ok r.
Proof.
  intros V L ci ci' H Hag. destruct (proj1 (returns_ok _ _) (learner_ok V L ci H)) as (r & E & P & Hh). exists r. split; [done|].
  apply (C128_replay V L ci ci' r H E). intros l1 l2 i j c b El. rewrite (Hh l1 l2 i j c b El). apply Hag.
  intros i' j' c' b' Hin. apply (P i' j' c' (if decide ((i', j', c', b') ∈ l2) then b' else b)). rewrite El. apply elem_of_app. right.
  case_decide as Hd; [by right|]. apply elem_of_cons in Hin as [[= -> -> -> ->]|?]; [left|done].
Qed.
Print Assumptions C128_proper.

(** temporal ICD *)
Theorem C128_ts : ∀ NS o ini ci ci' hom sb tc precalc fuel t, (r ← ts_init NS o ini; ts_learn NS o ci hom sb tc precalc fuel r.2 r.1) = Ok t →
  honest ci' (ls_log (ic_ls t)) → (r ← ts_init NS o ini; ts_learn NS o ci' hom sb tc precalc fuel r.2 r.1) = Ok t.
Proof.
  intros NS o ini ci ci' hom sb tc precalc fuel t E Hh. destruct (ts_init NS o ini) as [r| |]; [|done..]. cbn [mbind res_bind] in *.
  exact (proj2 (ts_learn_rep ci ci' o sb tc precalc fuel NS hom r.2 r.1 t E) Hh).
Qed.
Print Assumptions C128_ts.

(** ** C129: test objects *)
Lemma ask_app {St} (f : nat → node → node → list node → St → res (bool * St)) qs qs' : ∀ t s,
  ask f t (qs ++ qs') s = (r ← ask f t qs s; r' ← ask f (t + length qs) qs' r.2; Ok (r.1 ++ r'.1, r'.2)).
Proof.
  induction qs as [|[[x y] zz] qs IH]; intros t s; cbn [app ask length].
  - cbn [mbind res_bind fst snd app]. rewrite Nat.add_0_r. destruct (ask f t qs' s) as [[? ?]| |]; done.
  - destruct (f t x y zz s) as [[b u]| |]; [|done..]. cbn [mbind res_bind fst snd]. rewrite IH. cbn [Nat.add]. rewrite Nat.add_succ_r.
    destruct (ask f (S t) qs u) as [[bs v]| |]; [|done..]. cbn [mbind res_bind fst snd]. destruct (ask f (S (t + length qs)) qs' v) as [[? ?]| |]; done.
Qed.
Lemma proper_valid n V log : V = list_to_set (seq 0 n) → proper_log V log → Forall (qvalid n) (reverse log.*1).
Proof.
  intros -> P. apply Forall_reverse, Forall_fmap, Forall_forall. intros [[[x y] c] b] Hin. apply P in Hin as (Hx & Hy & Hne & Hnd & Hz). cbn.
  assert (∀ v, v ∈ (list_to_set (seq 0 n) : nset) → v < n) as Hlt by (intros v; rewrite elem_of_list_to_set, elem_of_seq; lia).
  split; cbn [fst snd]; [done|]. split; [auto|]. split; [auto|]. split; [done|]. split; [intros H; by apply Hz in H as (_ & ? & _)|]. split; [intros H; by apply Hz in H as (_ & _ & ?)|].
  intros z H. apply Hlt. by apply Hz in H as (? & _).
Qed.
Lemma object_run {St} n V L (f : nat → node → node → list node → St → res (bool * St)) s0 (ans : query → bool) (P : list query → St → Prop) :
  V = list_to_set (seq 0 n) → learner V L →
  (∀ qs, Forall (qvalid n) qs → returns (ask f 0 qs s0) (λ r, r.1 = ans <$> qs ∧ P qs r.2)) →
  ∃ r st, L (λ _ x y zz, ans (x, y, zz)) = Ok r ∧ L (object_test f s0) = Ok r ∧ proper_log V r.2 ∧ served f s0 r.2 st ∧ P (reverse r.2.*1) st.
Proof.
  intros HV HL Hf. destruct (proj1 (returns_ok _ _) (learner_ok V L (λ _ x y zz, ans (x, y, zz)) HL)) as (r & E & Pr & Hh).
  assert (∀ l, proper_log V l → honest (λ _ x y zz, ans (x, y, zz)) l → ans <$> reverse l.*1 = reverse l.*2) as Hans.
  { intros l _ H. rewrite fmap_reverse. f_equal. rewrite <-list_fmap_compose. apply list_fmap_ext. intros i [[[x y] c] b] Hi. cbn.
    apply elem_of_list_split_length in Hi as (l1 & l2 & -> & _). symmetry. by apply (H l1 l2). }
  destruct (proj1 (returns_ok _ _) (Hf _ (proper_valid n V r.2 HV Pr))) as ([bs st] & Ea & Eb & HP). cbn [fst snd] in *.
  exists r, st. split; [done|]. split; [|split; [done|]; split; [|done]].
  - apply (C128_replay V L _ _ r HL E). intros l1 l2 i j c b El. rewrite (Hh l1 l2 i j c b El). cbn beta.
    assert (proper_log V ((i, j, c, b) :: l2)) as P2 by (intros i' j' c' b' Hin; apply (Pr i' j' c' b'); rewrite El; apply elem_of_app; by right).
    pose proof (proper_valid n V _ HV P2) as V2. rewrite fmap_cons, reverse_cons in V2. cbn [fst] in V2. pose proof V2 as V1. apply Forall_app in V1 as [V1 _].
    destruct (proj1 (returns_ok _ _) (Hf _ V2)) as ([bs2 st2] & E2 & Eb2 & _). destruct (proj1 (returns_ok _ _) (Hf _ V1)) as ([bs1 st1] & E1 & Eb1 & _). cbn [fst snd] in *.
    unfold object_test. rewrite E1. rewrite ask_app, E1 in E2. cbn [mbind res_bind fst snd ask] in E2. rewrite reverse_length, fmap_length in E2. cbn [Nat.add] in E2.
    destruct (f (length l2) i j c st1) as [[q u]| |]; [|done..]. cbn [mbind res_bind fst snd] in E2. injection E2 as E2 _. rewrite Eb2, Eb1, fmap_app in E2.
    apply app_inj_tail in E2 as [_ E2]. congruence.
  - unfold served. rewrite Ea, Eb. f_equal. f_equal. by apply Hans.
Qed.
Lemma different_distinct n V log k : V = list_to_set (seq 0 n) → proper_log V log → distinct_queries (reverse log.*1) k = different k log.
Proof.
  intros HV P. unfold distinct_queries, different. f_equal. apply set_eq. intros q. rewrite elem_of_filter, !elem_of_list_to_set, !elem_of_list_fmap. split.
  - intros (Hk & q' & -> & Hin). apply elem_of_reverse, elem_of_list_fmap in Hin as (e & -> & He). exists e. split; [done|]. apply elem_of_list_filter. split; [|done].
    destruct e as [[[x y] c] b]. cbn in *. rewrite size_list_to_set in Hk; [done|]. by apply P in He as (_ & _ & _ & ? & _).
  - intros (e & -> & [Hk He]%elem_of_list_filter). destruct e as [[[x y] c] b]. cbn in *. split; [rewrite size_list_to_set; [done|]; by apply P in He as (_ & _ & _ & ? & _)|].
    exists (x, y, c). split; [done|]. apply elem_of_reverse, elem_of_list_fmap. by exists (x, y, c, b).
Qed.
Lemma size_list_to_set_le (l : list (nset * nset)) : size (list_to_set l : gset (nset * nset)) ≤ length l.
Proof.
  induction l as [|a l IH]; [done|]. cbn [length list_to_set]. rewrite size_union_alt, size_singleton.
  enough (size (list_to_set l ∖ {[a]} : gset (nset * nset)) ≤ size (list_to_set l : gset (nset * nset))) by lia. apply subseteq_size. set_solver.
Qed.
Lemma different_bound V log k : proper_log V log → 2 * different k log ≤ size V * (size V - 1) * choose (size V - 2) k.
Proof.
  intros P. rewrite <-all_questions_length. enough (different k log ≤ length (all_questions V k)) by lia. unfold different.
  set (X := (λ e : query * bool, ({[e.1.1.1; e.1.1.2]} : nset, list_to_set e.1.2 : nset)) <$> filter (λ e : query * bool, length e.1.2 = k) log).
  assert ((list_to_set X : gset (nset * nset)) ⊆ list_to_set (all_questions V k)) as H.
  { intros q. rewrite !elem_of_list_to_set. unfold X. intros ([[[x y] c] b] & -> & [Hk He]%elem_of_list_filter)%elem_of_list_fmap. cbn in *. subst k.
    apply P in He as (Hx & Hy & Hne & Hnd & Hz). by apply question_in. }
  etransitivity; [by apply subseteq_size|]. apply size_list_to_set_le.
Qed.

Lemma asked_count n log : SpecCI.asked (reverse log.*1) <$> seq 0 n = (λ k, count_size k log) <$> seq 0 n.
Proof.
  apply list_fmap_ext. intros i k _. unfold SpecCI.asked, count_size. rewrite filter_reverse, reverse_length. induction log as [|[q b] log IH]; [done|].
  rewrite fmap_cons, !filter_cons. cbn [fst]. destruct (decide (length q.2 = k)); cbn [length]; by rewrite IH.
Qed.

(** A test whose answer depends on the unordered pair and the set only, however the call computes it: every learner learns the same graph with
    the same queries from the plain test, from the object with a cache and from the object without; the objects raise no exception; the
    counters of the object with a cache are the numbers of different questions, those of the other the numbers of queries *)
Theorem C129_memory : ∀ n V L (val : nset * nset → bool) crit, V = list_to_set (seq 0 n) → learner V L →
  (∀ t q, qvalid n q → crit t q.1.1 q.1.2 q.2 = Ok (val (qkey q))) →
  ∃ r st st', L (λ _ x y zz, val (qkey (x, y, zz))) = Ok r ∧
    L (object_test (λ t, dsep_cond_indep true (crit t)) (ci_new n true true)) = Ok r ∧
    L (object_test (λ t, dsep_cond_indep false (crit t)) (ci_new n true false)) = Ok r ∧ proper_log V r.2 ∧
    served (λ t, dsep_cond_indep true (crit t)) (ci_new n true true) r.2 st ∧ cs_count st = Some ((λ k, different k r.2) <$> seq 0 (n - 1)) ∧
    served (λ t, dsep_cond_indep false (crit t)) (ci_new n true false) r.2 st' ∧ cs_count st' = Some ((λ k, count_size k r.2) <$> seq 0 (n - 1)) ∧
    (∀ k, different k r.2 ≤ count_size k r.2 ∧ 2 * different k r.2 ≤ n * (n - 1) * choose (n - 2) k).
Proof.
  intros n V L val crit HV HL Hc.
  destruct (object_run n V L (λ t, dsep_cond_indep true (crit t)) (ci_new n true true) (λ q, val (qkey q))
    (λ qs s, ∃ l, cs_count s = Some l ∧ counts n qs l) HV HL) as (r & st & E & E1 & P & Hs & l & Hl & Hcn).
  { intros qs Hq. eapply returns_mono; [apply (cached_transparent n val crit qs Hq Hc)|]. cbn beta. by intros r (_ & ? & ?). }
  destruct (object_run n V L (λ t, dsep_cond_indep false (crit t)) (ci_new n true false) (λ q, val (qkey q))
    (λ qs s, cs_count s = Some (SpecCI.asked qs <$> seq 0 (n - 1))) HV HL) as (r' & st' & E' & E1' & _ & Hs' & Hl').
  { intros qs Hq. apply (uncached_counts n val crit qs Hq Hc). }
  assert (r' = r) as -> by congruence. exists r, st, st'. split; [done|]. split; [done|]. split; [done|]. split; [done|]. split; [done|]. split; [|split; [done|]; split; [|]].
  - rewrite Hl, Hcn. f_equal. apply list_fmap_ext. intros i k _. by apply (different_distinct n V).
  - by rewrite Hl', asked_count.
  - intros k. split.
    + unfold different, count_size. etransitivity; [apply size_list_to_set_le|]. by rewrite fmap_length.
    + assert (size V = n) as Hn by (rewrite HV, size_list_to_set, seq_length; [done|apply NoDup_seq]). rewrite <-Hn. by apply different_bound.
Qed.
Print Assumptions C129_memory.

(** the oracles: d-separation in a DAG and m-separation in a directed mixed graph, the iteration orders differing from call to call *)
Lemma same_answers V L ci ci' r : learner V L → L ci = Ok r → proper_log V r.2 →
  (∀ l x y zz, proper_log V [(x, y, zz, true)] → ci' l x y zz = ci l x y zz) → L ci' = Ok r.
Proof.
  intros HL E P Hs. apply (C128_replay V L ci ci' r HL E). pose proof (learner_ok V L ci HL) as Hok. rewrite E in Hok. destruct Hok as [_ Hh].
  intros l1 l2 i j c b El. rewrite (Hh l1 l2 i j c b El). symmetry. apply Hs. intros i' j' c' b' Hin. apply elem_of_list_singleton in Hin. simplify_eq.
  apply (P i j c b). rewrite El. set_solver.
Qed.
Theorem C129_dsep : ∀ (os : nat → order) o' d fuel fuel' n L, (∀ t, iter_ok (os t)) → iter_ok o' → gnodes d = list_to_set (seq 0 n) →
  wf_graph d → acyclic d → size (gnodes d) < fuel → size (gnodes d) < fuel' → learner (gnodes d) L →
  ∃ r st st', L (dsep_ci o' fuel' d) = Ok r ∧
    L (object_test (λ t, dsep_cond_indep true (dsep (os t) fuel d)) (ci_new n true true)) = Ok r ∧
    L (object_test (λ t, dsep_cond_indep false (dsep (os t) fuel d)) (ci_new n true false)) = Ok r ∧
    served (λ t, dsep_cond_indep true (dsep (os t) fuel d)) (ci_new n true true) r.2 st ∧ cs_count st = Some ((λ k, different k r.2) <$> seq 0 (n - 1)) ∧
    served (λ t, dsep_cond_indep false (dsep (os t) fuel d)) (ci_new n true false) r.2 st' ∧ cs_count st' = Some ((λ k, count_size k r.2) <$> seq 0 (n - 1)) ∧
    ∀ k, 2 * different k r.2 ≤ n * (n - 1) * choose (n - 2) k.
Proof.
  intros os o' d fuel fuel' n L Hos Ho' Hn Hwf Hac Hf Hf' HL. set (crit := λ t, dsep (os t) fuel d).
  assert (∀ t q, qvalid n q → crit t q.1.1 q.1.2 q.2 = Ok (oracle_val crit (qkey q)) ∧ (oracle_val crit (qkey q) = true ↔ d_separated d q.1.1 q.1.2 q.2)) as Hc.
  { apply (oracle_val_ok n (d_separated d)).
    - intros x y Z. apply d_separated_sym.
    - intros x y Z Z' HZ. by rewrite (d_separated_set d x y Z Z').
    - exact (dsep_crit os d fuel n Hos Hn Hwf Hac Hf). }
  destruct (C129_memory n (gnodes d) L (oracle_val crit) crit Hn HL) as (r & st & st' & E & E1 & E2 & P & A1 & A2 & A3 & A4 & A5); [intros t q Hq; by apply Hc|].
  exists r, st, st'. split; [|repeat (split; [done|]); intros k; apply A5].
  apply (same_answers _ _ _ _ _ HL E P). intros l x y zz Hp. pose proof (proper_valid n _ _ Hn Hp) as Hv. apply Forall_reverse, Forall_cons in Hv as [Hv _]. cbn [fst] in Hv.
  destruct (Hc 0 _ Hv) as [_ Hiff]. cbn [fst snd] in Hiff. pose proof (dsep_crit (λ _, o') d fuel' n (λ _, Ho') Hn Hwf Hac Hf' 0 (x, y, zz) Hv) as Hd. cbn [fst snd] in Hd.
  unfold dsep_ci. apply returns_ok in Hd as (b & -> & Hb). destruct b, (oracle_val crit (qkey (x, y, zz))); try done; [symmetry; by apply Hiff, Hb|by apply Hb, Hiff].
Qed.
Print Assumptions C129_dsep.

(** the statistical tests: a retained pair is reported as dependent and not counted *)
Theorem C129_stat : ∀ {St T : Type} (gt : St → T → bool) retained n V L (val : nset * nset → St) calc (th : T), V = list_to_set (seq 0 n) → learner V L →
  (∀ t x y zz, qvalid n (x, y, zz) → calc t x y zz = Some (val (qkey (x, y, zz)))) →
  ∃ r st, L (λ _ x y zz, if bool_decide (adjacent retained x y) then false else gt (val (qkey (x, y, zz))) th) = Ok r ∧
    L (object_test (λ t, stat_cond_indep gt retained true (calc t)) (StatState (ci_new n true true) th)) = Ok r ∧
    served (λ t, stat_cond_indep gt retained true (calc t)) (StatState (ci_new n true true) th) r.2 st ∧
    cs_count (ss_ci st) = Some ((λ k, different k (filter (λ e : query * bool, ¬ adjacent retained e.1.1.1 e.1.1.2) r.2)) <$> seq 0 (n - 1)).
Proof.
  intros St T gt retained n V L val calc th HV HL Hc.
  assert (∀ qs t s, ask (λ t, stat_cond_indep gt retained true (calc t)) t qs s = stat_run (λ t, stat_cond_indep gt retained true (calc t)) t ((λ q : query, Query q.1.1 q.1.2 q.2) <$> qs) s) as Hrun.
  { induction qs as [|[[x y] zz] qs IH]; intros t s; [done|]. cbn [ask fmap list_fmap stat_run fst snd]. destruct (stat_cond_indep _ _ _ _ x y zz s) as [[b u]| |]; [|done..].
    cbn [mbind res_bind fst snd]. by rewrite IH. }
  destruct (object_run n V L (λ t, stat_cond_indep gt retained true (calc t)) (StatState (ci_new n true true) th)
    (λ q, if bool_decide (adjacent retained q.1.1 q.1.2) then false else gt (val (qkey q)) th)
    (λ qs s, ∃ l, cs_count (ss_ci s) = Some l ∧ counts n (filter (λ q : query, ¬ adjacent retained q.1.1 q.1.2) qs) l) HV HL) as (r & st & E & E1 & P & Hs & l & Hl & Hcn).
  { intros qs Hq. rewrite Hrun. eapply returns_mono; [apply (stat_cached gt retained n val calc th)|].
    - apply Forall_fmap. eapply Forall_impl; [exact Hq|]. by intros [[x y] zz].
    - exact Hc.
    - cbn beta. intros r (Hr & l & Hl & Hcn). split; [rewrite Hr; clear; induction qs as [|[[x y] zz] qs IH]; [done|]; cbn; by rewrite IH|].
      exists l. split; [done|]. rewrite Hcn. unfold counts.
      assert (op_queries (T := T) retained ((λ q : query, Query q.1.1 q.1.2 q.2) <$> qs) = filter (λ q : query, ¬ adjacent retained q.1.1 q.1.2) qs) as ->; [|done].
      clear. unfold op_queries. induction qs as [|[[x y] zz] qs IH]; [done|]. rewrite filter_cons. cbn.
      case_bool_decide; case_decide; try done; f_equal; exact IH. }
  exists r, st. split; [done|]. split; [done|]. split; [done|]. rewrite Hl, Hcn. f_equal. apply list_fmap_ext. intros i k _.
  set (F := filter (λ e : query * bool, ¬ adjacent retained e.1.1.1 e.1.1.2) r.2).
  assert (proper_log V F) as PF by (intros i' j' c' b' Hin; apply elem_of_list_filter in Hin as [_ Hin]; by apply (P i' j' c' b')).
  rewrite <-(different_distinct n V F k HV PF). f_equal. rewrite filter_reverse. f_equal. unfold F. generalize (r.2). clear. intros log. induction log as [|[q b] log IH]; [done|].
  rewrite fmap_cons, !filter_cons. cbn [fst]. case_decide; [|done]. rewrite fmap_cons. by rewrite IH.
Qed.
Print Assumptions C129_stat.

(** ** A case: a chain and a collider, 0 --> 1 --> 2 <-- 3; FCI with the d-separation test *)
Definition d129 : graph := mk_graph [0;1;2;3] [(0,1);(1,2);(3,2)].
Definition L129 : citest → res (mgraph * clog) := λ ci, r ← fci_learn ord_up ci true false 40 (list_to_set (seq 0 4)); Ok (ls_graph r.1, ls_log r.1).
Definition f129 uc := λ _ : nat, dsep_cond_indep uc (dsep ord_up 9 d129).
Lemma learner129 : learner (list_to_set (seq 0 4)) L129.
Proof. apply (learner_fci _ ord_up true false 40); [apply ord_up_ok|]. rewrite size_list_to_set, seq_length by apply NoDup_seq. lia. Qed.
(** the cache saves half of the tests *)
Example C129_case : learner (list_to_set (seq 0 4)) L129 ∧
  match L129 (dsep_ci ord_up 9 d129) with
  | Ok r => match ask (f129 true) 0 (reverse r.2.*1) (ci_new 4 true true), ask (f129 false) 0 (reverse r.2.*1) (ci_new 4 true false) with
    | Ok x, Ok y => bool_decide (cs_count x.2 = Some [6; 6; 2] ∧ cs_count y.2 = Some [12; 12; 2] ∧ (λ k, different k r.2) <$> seq 0 3 = [6; 6; 2])
    | _, _ => false
    end
  | _ => false
  end = true.
Proof. split; [apply learner129|by vm_compute]. Qed.

(** another test, which gives the opposite answers given 1 and 2: FCI does not ask for them, and learns the same *)
Definition ci128 : citest := λ l x y zz, let b := dsep_ci ord_up 9 d129 l x y zz in if bool_decide ((list_to_set zz : nset) = {[1; 2]}) then negb b else b.
Fixpoint check_honest (ci : citest) (log : clog) : bool :=
  match log with [] => true | (i, j, c, b) :: l => bool_decide (b = ci l i j c) && check_honest ci l end.
Lemma check_honest_ok ci log : check_honest ci log = true → honest ci log.
Proof.
  induction log as [|[[[i j] c] b] log IH]; intros H l1 l2 i' j' c' b' E; [by destruct l1|]. cbn in H. apply andb_true_iff in H as [H1 H2]. apply bool_decide_eq_true in H1.
  destruct l1 as [|e l1]; cbn in E; simplify_eq; [done|]. by eapply IH.
Qed.
Example C128_case : learner (list_to_set (seq 0 4)) L129 ∧
  match L129 (dsep_ci ord_up 9 d129) with Ok r => honest ci128 r.2 ∧ length r.2 = 26 | _ => False end ∧
  ci128 [] 0 3 [1; 2] ≠ dsep_ci ord_up 9 d129 [] 0 3 [1; 2].
Proof.
  split; [apply learner129|]. split; [|by vm_compute].
  assert (match L129 (dsep_ci ord_up 9 d129) with Ok r => check_honest ci128 r.2 && bool_decide (length r.2 = 26) | _ => false end = true) as H by by vm_compute.
  destruct (L129 _) as [r| |]; [|done..]. apply andb_true_iff in H as [H1 H2]. split; [by apply check_honest_ok|by apply bool_decide_eq_true in H2].
Qed.
