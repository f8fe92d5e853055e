(** The oracle classes DSep and GraphCondIndep over histories of queries. *)
From Verif Require Import Base BaseLemmas ModelGraph Spec ModelMixed SpecMixed ModelPAG SpecPAG ModelPC ModelCI SpecCI ProofGraph ProofGraph2 ProofDsep ProofGraph3 ProofMixed ProofPAGM ProofCI.

Lemma m_active_rev g Z p : m_active g Z p → m_active g Z (reverse p).
Proof.
  intros H l1 a b c l2 Heq.
  destruct (H (reverse l2) c b a (reverse l1)) as [H1 H2].
  { rewrite <-(reverse_involutive p), Heq, reverse_app, !reverse_cons, <-!app_assoc. done. }
  unfold m_collider in *. split; intros ?; [apply H1|apply H2]; tauto.
Qed.
Lemma m_separated_sym g x y Z : mg_wf g → m_separated g x y Z → m_separated g y x Z.
Proof.
  intros Hwf H (p & Hp & Ha). apply H. exists (reverse p). split.
  - apply is_path_rev; [intros a b; by apply mg_adj_sym|done].
  - by apply m_active_rev.
Qed.

(** an oracle for a symmetric relation on (pair, set) *)
Section oracle.
Variable n : nat.
Variable sep : node → node → list node → Prop.
Hypothesis sep_sym : ∀ x y Z, sep x y Z → sep y x Z.
Hypothesis sep_set : ∀ x y Z Z', (∀ z, z ∈ Z ↔ z ∈ Z') → sep x y Z → sep x y Z'.
Variable crit : nat → node → node → list node → res bool.
Hypothesis crit_ok : ∀ t q, qvalid n q → returns (crit t q.1.1 q.1.2 q.2) (λ b, b = true ↔ sep q.1.1 q.1.2 q.2).

Lemma elements_pair x y : x ≠ y → elements ({[x; y]} : nset) = [x; y] ∨ elements ({[x; y]} : nset) = [y; x].
Proof.
  intros Hne. assert (elements ({[x; y]} : nset) ≡ₚ [x; y]) as Hp.
  { rewrite elements_disj_union by set_solver. by rewrite !elements_singleton. }
  apply Permutation_length_2_inv, Permutation_sym. done.
Qed.

Definition oracle_val (k : nset * nset) : bool :=
  match elements k.1 with
  | [x; y] => match crit 0 x y (elements k.2) with Ok b => b | _ => false end
  | _ => false
  end.

Lemma oracle_val_ok t q : qvalid n q → crit t q.1.1 q.1.2 q.2 = Ok (oracle_val (qkey q)) ∧
  (oracle_val (qkey q) = true ↔ sep q.1.1 q.1.2 q.2).
Proof.
  intros Hq. destruct q as [[x y] zz]. pose proof Hq as (Hne & Hx & Hy & Hnd & Hxz & Hyz & Hz). cbn [fst snd] in *.
  assert (∀ z, z ∈ elements (list_to_set zz : nset) ↔ z ∈ zz) as Hel by (intros z; by rewrite elem_of_elements, elem_of_list_to_set).
  assert (oracle_val (qkey (x, y, zz)) = true ↔ sep x y zz) as Hv.
  { unfold oracle_val, qkey. cbn [fst snd]. destruct (elements_pair x y Hne) as [-> | ->].
    - pose proof (crit_ok 0 (x, y, elements (list_to_set zz : nset))) as Hc. cbn [fst snd] in Hc.
      apply returns_ok in Hc as (b & -> & Hb).
      + rewrite Hb. split; apply sep_set; intros z; rewrite Hel; done.
      + split_and!; try done; cbn [fst snd]; [apply NoDup_elements|by rewrite Hel..|intros z; rewrite Hel; apply Hz].
    - pose proof (crit_ok 0 (y, x, elements (list_to_set zz : nset))) as Hc. cbn [fst snd] in Hc.
      apply returns_ok in Hc as (b & -> & Hb).
      + rewrite Hb. split; intros H.
        * apply sep_sym in H. revert H. apply sep_set. done.
        * apply sep_sym. revert H. apply sep_set. intros z. by rewrite Hel.
      + split_and!; try done; cbn [fst snd]; [apply NoDup_elements|by rewrite Hel..|intros z; rewrite Hel; apply Hz]. }
  split; [|done]. pose proof (crit_ok t (x, y, zz) Hq) as Hc. cbn [fst snd] in Hc.
  apply returns_ok in Hc as (b & -> & Hb). f_equal. by apply (bool_dec_eq _ _ (sep x y zz)).
Qed.

Lemma oracle_cached qs : Forall (qvalid n) qs →
  returns (ask (λ t, dsep_cond_indep true (crit t)) 0 qs (ci_new n true true)) (λ r,
    Forall2 (λ (q : query) (b : bool), b = true ↔ sep q.1.1 q.1.2 q.2) qs r.1 ∧
    returns (ask (λ t, dsep_cond_indep false (crit t)) 0 qs (ci_new n true false)) (λ r', r'.1 = r.1) ∧
    ∃ l, cs_count r.2 = Some l ∧ counts n qs l).
Proof.
  intros Hv. eapply returns_mono; [apply (cached_transparent n oracle_val crit qs Hv)|].
  - intros t q Hq. apply (oracle_val_ok t q Hq).
  - cbn beta. intros r (H1 & H2 & H3). split; [|split; [|done]].
    + rewrite H2. apply Forall2_fmap_r. apply Forall_Forall2_diag. eapply Forall_impl; [exact Hv|]. cbn beta. intros q Hq.
      apply (oracle_val_ok 0 q Hq).
    + eapply returns_mono; [exact H1|]. done.
Qed.

(** with a static conditioning tuple *)
Definition effective (o : order) (st : list node) (q : query) : query := (q.1, o 186 (list_to_set (q.2 ++ st))).

Lemma effective_valid o st q : iter_ok o → qvalid n q → (∀ z, z ∈ st → z < n) → q.1.1 ∉ st → q.1.2 ∉ st → qvalid n (effective o st q).
Proof.
  intros Ho (Hne & Hx & Hy & Hnd & Hxz & Hyz & Hz) Hst Hx' Hy'. unfold effective, qvalid. cbn [fst snd].
  assert (∀ z, z ∈ o 186 (list_to_set (q.2 ++ st)) ↔ z ∈ q.2 ∨ z ∈ st) as Hel.
  { intros z. rewrite (iter_elem o _ _ _ Ho), elem_of_list_to_set. by rewrite elem_of_app. }
  split; [done|]. split; [done|]. split; [done|]. split; [by apply iter_nodup|].
  rewrite !Hel. split; [tauto|]. split; [tauto|]. intros z. rewrite Hel. intros [?|?]; auto.
Qed.

Lemma ask_effective (o : order) (st : list node) uc : ∀ (qs : list query) s t,
  ask (λ t, graph_cond_indep o (Some st) uc (crit t)) t qs s = ask (λ t, dsep_cond_indep uc (crit t)) t (effective o st <$> qs) s.
Proof.
  induction qs as [|[[x y] zz] qs IH]; intros s t; [done|]. rewrite fmap_cons. unfold effective at 1. cbn [fst snd ask].
  change (graph_cond_indep o (Some st) uc (crit t) x y zz s) with (dsep_cond_indep uc (crit t) x y (o 186 (list_to_set (zz ++ st))) s).
  destruct (dsep_cond_indep _ _ _ _ _ _) as [[b s']| |]; [|done..].
  cbn [mbind res_bind fst snd]. by rewrite IH.
Qed.

Lemma static_cached o st qs : iter_ok o → (∀ z, z ∈ st → z < n) →
  Forall (λ q, qvalid n q ∧ q.1.1 ∉ st ∧ q.1.2 ∉ st) qs →
  returns (ask (λ t, graph_cond_indep o (Some st) true (crit t)) 0 qs (ci_new n true true)) (λ r,
    Forall2 (λ (q : query) (b : bool), b = true ↔ sep q.1.1 q.1.2 (q.2 ++ st)) qs r.1 ∧
    returns (ask (λ t, graph_cond_indep o (Some st) false (crit t)) 0 qs (ci_new n true false)) (λ r', r'.1 = r.1) ∧
    ∃ l, cs_count r.2 = Some l ∧ counts n ((λ q, (q.1, q.2 ++ st)) <$> qs) l).
Proof.
  intros Ho Hst Hv. rewrite !ask_effective. eapply returns_mono; [apply oracle_cached|].
  - apply Forall_fmap. eapply Forall_impl; [exact Hv|]. cbn beta. intros q (? & ? & ?). by apply effective_valid.
  - cbn beta. intros [bs s] (H1 & H2 & l & Hl & Hc). cbn [fst snd] in *. split; [|split].
    + apply Forall2_fmap_l in H1. eapply Forall2_impl; [exact H1|]. cbn. intros q b Hb. rewrite Hb.
      split; apply sep_set; intros z; by rewrite (iter_elem o _ _ _ Ho), elem_of_list_to_set.
    + done.
    + exists l. split; [done|]. rewrite Hc. unfold counts. apply list_fmap_ext. intros i k _.
      unfold distinct_queries. f_equal. f_equal. f_equal. rewrite <- !list_fmap_compose. apply list_fmap_ext.
      intros _ q _. cbn. unfold qkey, effective. cbn [fst snd]. f_equal.
      apply set_eq. intros z. rewrite !elem_of_list_to_set. rewrite (iter_elem o _ _ _ Ho), elem_of_list_to_set. done.
Qed.
End oracle.

(** ** DSep, GraphCondIndep on a DAG, GraphCondIndep on a PAG object *)
Section dag.
Variables (os : nat → order) (d : graph) (fuel n : nat).
Hypothesis Hos : ∀ t, iter_ok (os t).
Hypothesis Hn : gnodes d = list_to_set (seq 0 n).
Hypothesis Hwf : wf_graph d.
Hypothesis Hac : acyclic d.
Hypothesis Hf : size (gnodes d) < fuel.

Lemma node_lt v : v ∈ gnodes d ↔ v < n.
Proof. rewrite Hn, elem_of_list_to_set, elem_of_seq. lia. Qed.

Lemma dsep_crit t q : qvalid n q → returns (dsep (os t) fuel d q.1.1 q.1.2 q.2) (λ b, b = true ↔ d_separated d q.1.1 q.1.2 q.2).
Proof.
  intros (Hne & Hx & Hy & Hnd & Hxz & Hyz & Hz). apply dsep_spec; try done; try by apply node_lt.
  intros z ?. apply node_lt. by apply Hz.
Qed.

Lemma dsep_cached qs : Forall (qvalid n) qs →
  returns (ask (λ t, dsep_cond_indep true (dsep (os t) fuel d)) 0 qs (ci_new n true true)) (λ r,
    Forall2 (λ (q : query) (b : bool), b = true ↔ d_separated d q.1.1 q.1.2 q.2) qs r.1 ∧
    returns (ask (λ t, dsep_cond_indep false (dsep (os t) fuel d)) 0 qs (ci_new n true false)) (λ r', r'.1 = r.1) ∧
    ∃ l, cs_count r.2 = Some l ∧ counts n qs l).
Proof.
  apply (oracle_cached n (d_separated d)).
  - intros x y Z. apply d_separated_sym.
  - intros x y Z Z' HZ. by rewrite (d_separated_set d x y Z Z').
  - exact dsep_crit.
Qed.

Lemma graph_dsep_cached o st qs : iter_ok o → (∀ z, z ∈ st → z < n) →
  Forall (λ q, qvalid n q ∧ q.1.1 ∉ st ∧ q.1.2 ∉ st) qs →
  returns (ask (λ t, graph_cond_indep o (Some st) true (dsep (os t) fuel d)) 0 qs (ci_new n true true)) (λ r,
    Forall2 (λ (q : query) (b : bool), b = true ↔ d_separated d q.1.1 q.1.2 (q.2 ++ st)) qs r.1 ∧
    returns (ask (λ t, graph_cond_indep o (Some st) false (dsep (os t) fuel d)) 0 qs (ci_new n true false)) (λ r', r'.1 = r.1) ∧
    ∃ l, cs_count r.2 = Some l ∧ counts n ((λ q, (q.1, q.2 ++ st)) <$> qs) l).
Proof.
  apply (static_cached n (d_separated d)).
  - intros x y Z. apply d_separated_sym.
  - intros x y Z Z' HZ. by rewrite (d_separated_set d x y Z Z').
  - exact dsep_crit.
Qed.
End dag.

Section pag.
Variables (os : nat → order) (g : mgraph) (fuel n : nat).
Hypothesis Hos : ∀ t, iter_ok (os t).
Hypothesis Hn : mnodes g = list_to_set (seq 0 n).
Hypothesis D : dir_mixed g.
Hypothesis Hf : size (mnodes g) + 1 < fuel.

Lemma mnode_lt v : v ∈ mnodes g ↔ v < n.
Proof. rewrite Hn, elem_of_list_to_set, elem_of_seq. lia. Qed.

Lemma graph_msep_cached o st qs : iter_ok o → (∀ z, z ∈ st → z < n) →
  Forall (λ q, qvalid n q ∧ q.1.1 ∉ st ∧ q.1.2 ∉ st) qs →
  returns (ask (λ t, graph_cond_indep o (Some st) true (is_m_separated (os t) fuel g)) 0 qs (ci_new n true true)) (λ r,
    Forall2 (λ (q : query) (b : bool), b = true ↔ m_separated g q.1.1 q.1.2 (list_to_set (q.2 ++ st))) qs r.1 ∧
    returns (ask (λ t, graph_cond_indep o (Some st) false (is_m_separated (os t) fuel g)) 0 qs (ci_new n true false)) (λ r', r'.1 = r.1) ∧
    ∃ l, cs_count r.2 = Some l ∧ counts n ((λ q, (q.1, q.2 ++ st)) <$> qs) l).
Proof.
  apply (static_cached n (λ x y Z, m_separated g x y (list_to_set Z))).
  - intros x y Z. apply m_separated_sym, D.
  - intros x y Z Z' HZ. assert ((list_to_set Z : nset) = list_to_set Z') as ->; [|done].
    apply set_eq. intros z. by rewrite !elem_of_list_to_set.
  - intros t q (Hne & Hx & Hy & Hnd & Hxz & Hyz & Hz). apply is_m_separated_ok; try done; try by apply mnode_lt.
    intros z ?. apply mnode_lt. by apply Hz.
Qed.
End pag.

Lemma ask_none o uc crit : ∀ (qs : list query) s t,
  ask (λ t, graph_cond_indep o None uc (crit t)) t qs s = ask (λ t, dsep_cond_indep uc (crit t)) t qs s.
Proof. done. Qed.

(** checking concrete histories *)
Lemma qvalid_check n qs : forallb (λ q : query, bool_decide (q.1.1 ≠ q.1.2 ∧ q.1.1 < n ∧ q.1.2 < n ∧ NoDup q.2 ∧ q.1.1 ∉ q.2 ∧ q.1.2 ∉ q.2 ∧ Forall (λ z, z < n) q.2)) qs = true →
  Forall (qvalid n) qs.
Proof.
  rewrite forallb_forall. intros H. apply Forall_forall. intros q Hq. apply elem_of_list_In in Hq. apply H, bool_decide_eq_true in Hq.
  destruct Hq as (? & ? & ? & ? & ? & ? & Hz). rewrite Forall_forall in Hz. by repeat (split; [done|]).
Qed.

Definition eQ : graph := mk_graph [0; 1; 2] [(0, 1); (2, 1)].
Definition dag12 : graph := mk_graph [1; 2] [].

Lemma eQ_acyclic : acyclic eQ.
Proof. apply mk_graph_acyclic; vm_compute; reflexivity. Qed.

(** node names outside 0..n-1: the cached DSep object raises KeyError *)
Lemma node_names_refuted : ∃ d x y, wf_graph d ∧ acyclic d ∧ x ∈ gnodes d ∧ y ∈ gnodes d ∧ x ≠ y ∧
  ask (λ _, dsep_cond_indep false (dsep ord_up 9 d)) 0 [(x, y, [])] (ci_new (size (gnodes d)) false false) = Ok ([true], CIState None None) ∧
  ask (λ _, dsep_cond_indep true (dsep ord_up 9 d)) 0 [(x, y, [])] (ci_new (size (gnodes d)) false true) = Raise KeyError.
Proof.
  exists dag12, 1, 2.
  assert (∀ a b, ¬ edge dag12 a b) as H by (intros a b H; apply mk_graph_edge in H; by apply elem_of_nil in H).
  split; [intros a b Hab; by apply H in Hab|]. split; [apply mk_graph_acyclic; vm_compute; reflexivity|].
  split; [by apply (bool_decide_unpack _); vm_compute|]. split; [by apply (bool_decide_unpack _); vm_compute|]. split; [done|].
  split; by vm_compute.
Qed.

Lemma op_valid_check {T} n (ops : list (stat_op T)) :
  forallb (λ op, match op with Query x y zz => bool_decide (x ≠ y ∧ x < n ∧ y < n ∧ NoDup zz ∧ x ∉ zz ∧ y ∉ zz ∧ Forall (λ z, z < n) zz) | _ => true end) ops = true →
  Forall (op_valid n) ops.
Proof.
  rewrite forallb_forall. intros H. apply Forall_forall. intros [x y zz|th] Hq; [|done]. apply elem_of_list_In in Hq. apply H, bool_decide_eq_true in Hq.
  destruct Hq as (? & ? & ? & ? & ? & ? & Hz). rewrite Forall_forall in Hz. by repeat (split; [done|]).
Qed.

Section cmi.
Context {V T : Type} (gt : V → T → bool).
Lemma cmi_run retained uc (calc : nat → node → node → list node → option V) : ∀ (ops : list (stat_op T)) t s P,
  returns (stat_run (λ t, stat_cond_indep gt retained uc (calc t)) t ops s) P →
  returns (stat_run (λ t, cmi_cond_indep gt retained uc (calc t)) t ops s) (λ r, ∃ bs, r.1 = negb <$> bs ∧ P (bs, r.2)).
Proof.
  induction ops as [|[x y zz|th] ops IH]; intros t s P; cbn [stat_run].
  - intros HP. by exists [].
  - change (cmi_cond_indep gt retained uc (calc t) x y zz s) with
      (r ← stat_cond_indep gt retained uc (calc t) x y zz s; Ok (negb r.1, r.2)).
    destruct (stat_cond_indep gt retained uc (calc t) x y zz s) as [[b s']| |]; [|done..].
    cbn [mbind res_bind fst snd]. intros H.
    specialize (IH (1 + t) s' (λ r, P (b :: r.1, r.2))).
    eapply returns_bind; [apply IH; by destruct (stat_run _ _ _ _)|].
    cbn beta. intros [bs' s''] (bs & Hbs & HP). cbn [fst snd returns] in *. exists (b :: bs). by rewrite fmap_cons, Hbs.
  - apply IH.
Qed.
Lemma cmi_cached retained n val (calc : nat → node → node → list node → option V) th ops : Forall (op_valid n) ops →
  (∀ t x y zz, qvalid n (x, y, zz) → calc t x y zz = Some (val (qkey (x, y, zz)))) →
  returns (stat_run (λ t, cmi_cond_indep gt retained true (calc t)) 0 ops (StatState (ci_new n true true) th)) (λ r,
    r.1 = negb <$> memoryless gt retained val th ops ∧ ∃ l, cs_count (ss_ci r.2) = Some l ∧ counts n (op_queries retained ops) l).
Proof.
  intros Hv Hc. eapply returns_mono; [eapply cmi_run; apply (stat_cached gt retained n val calc th ops Hv Hc)|].
  cbn beta. intros r (bs & Hbs & Hr & Hl). cbn [fst snd] in *. by subst.
Qed.
End cmi.

Lemma cmi_refuted : ∃ retained x y (s : stat_state nat nat), adjacent retained x y ∧
  cmi_cond_indep (λ v t, bool_decide (t < v)) retained true (λ _ _ _, Some 100) x y [] s = Ok (true, s) ∧ ss_threshold s = 1.
Proof.
  exists (mk_graph [0;1] [(0,1);(1,0)]), 0, 1, (StatState (ci_new 2 true true) 1).
  assert (adjacent (mk_graph [0;1] [(0,1);(1,0)]) 0 1) as H by (left; apply mk_graph_edge, (bool_decide_unpack _); by vm_compute).
  split; [done|]. split; [by apply cmi_retained|done].
Qed.
