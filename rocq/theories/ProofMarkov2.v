(** PC with CondIndepCMI on data distributed according to a Bayesian network. *)
From Coq Require Import QArith Qreals Reals Lra.
From Verif Require Import Base BaseLemmas ModelGraph Spec Paths ProofGraph ProofGraph2 ProofGraph3 ProofDsep ModelMixed SpecMixed ModelPC SpecPC ProofPDAG ProofPDAG2 ProofPDAG3 ProofMixed ProofMixed2 ProofPC
  ModelPAG SpecPAG ModelPDS ModelFCI SpecFCI ModelOICD SpecOICD SpecLatent ProofLatent ModelData ModelCI SpecCI ProofCI ProofCI2 ModelCMI SpecCMI ProofCMI SpecMarkov ProofMarkov.
Local Open Scope nat_scope.

(** ** PC with any test that answers the queries of a run according to d-separation *)
Lemma pc_perfect_cpdag o1 o3 (ci : citest) d cp rules ow fuel fuel'' : iter_ok o1 → iter_ok o3 →
  wf_graph d → acyclic d → mnodes cp = gnodes d → (∀ n k, mset cp n k = ∅) → (∀ i, i ∈ rules ↔ 1 ≤ i ≤ 3) →
  size (gnodes d) * size (gnodes d) + 1 < fuel → size (gnodes d) * size (gnodes d) + 1 < fuel'' →
  (∀ log i j c, (∀ i' j' c' b', (i', j', c', b') ∈ (i, j, c, true) :: log →
      i' ∈ gnodes d ∧ j' ∈ gnodes d ∧ i' ≠ j' ∧ NoDup c' ∧ ∀ z, z ∈ c' → z ∈ gnodes d ∧ z ≠ i' ∧ z ≠ j') →
    ci log i j c = true ↔ d_separated d i j c) →
  ∃ s g, pc_learn o1 ci ow fuel (gnodes d) = Ok s ∧ convert_to_cpdag o3 fuel'' d cp rules = Ok g ∧ pd_same (pc_graph s) g.
Proof.
  intros Ho1 Ho3 Hwf Hac Hn He Hr Hf Hf'' Hci.
  set (ci' := dsep_ci ord_up (S (size (gnodes d))) d).
  assert (∀ s, sk_inv ci (gnodes d) s → sk_inv ci' (gnodes d) s) as Htr.
  { intros s [H1 H2 H3 H4 H5 H6 H7 H8]. split; try done. intros l1 l2 i j c b El.
    destruct (H6 i j c b) as (Hi & Hj & Hij & Hc & Hz); [rewrite El; set_solver +|].
    assert (returns (dsep ord_up (S (size (gnodes d))) d i j c) (λ b, b = true ↔ d_separated d i j c)) as H.
    { apply dsep_spec; try done; [apply ord_up_ok|lia|intros z ?%Hz; tauto|]. intros Hj'. apply Hz in Hj'. tauto. }
    apply returns_ok in H as (b' & E' & H). unfold ci', dsep_ci. rewrite E'.
    assert (ci l2 i j c = true ↔ d_separated d i j c) as Hi'.
    { apply Hci. intros i' j' c' b0 [E|Hin]%elem_of_cons; [injection E as -> -> -> _; done|]. apply (H6 i' j' c' b0). rewrite El. set_solver +Hin. }
    rewrite (H5 _ _ _ _ _ _ El). clear -H Hi'. destruct (ci l2 i j c), b'; naive_solver. }
  assert (returns (pc_learn o1 ci ow fuel (gnodes d)) (λ s, ∃ g, pattern_of d g ∧
      rtc (ostep (any_pattern [1;2;3]) (mnodes g)) g (pc_graph s) ∧ no_rule_applies (pc_graph s) [1;2;3] (mnodes g))) as H1.
  { eapply returns_mono; [by apply pc_learn_result|].
    intros s (s0 & g1 & Hs0 & Hd & _ & _ & (N & W & A & D & U) & g2 & W2 & [N2 A2] & Hno & Hsame & Hst & Hnr).
    exists g2. split_and!; [|done..]. apply Htr in Hs0.
    pose proof (oracle_skeleton d Hwf Hac ord_up ord_up_ok _ (Nat.lt_succ_diag_r _) s0 Hs0 Hd) as Hsk.
    pose proof (oracle_collider d Hwf Hac ord_up ord_up_ok _ (Nat.lt_succ_diag_r _) s0 Hs0 Hd) as Hco.
    assert (∀ a b, (darrow g2 a b ↔ darrow g1 a b) ∧ (uline g2 a b ↔ uline g1 a b)) as H2.
    { intros a b. apply Hsame. rewrite !D, !Hco. intros [H%vdir_edge H'%vdir_edge]. by eapply acyclic_anti. }
    split_and!.
    - rewrite <-N2, N. apply Hs0.
    - intros a b. by rewrite (proj1 (H2 a b)), D.
    - intros a b. by rewrite (proj2 (H2 a b)), U, Hsk, !Hco. }
  pose proof (convert_to_cpdag_steps o3 Ho3 d cp rules fuel'' Hwf Hac Hn He ltac:(intros i ?%Hr; lia) Hf'') as H2.
  apply returns_ok in H1 as (s & E1 & g1 & Hp1 & Hst1 & Hno1).
  apply returns_ok in H2 as (h2 & E2 & g2 & Hp2 & Hst2 & Hno2).
  exists s, h2. split_and!; [done..|].
  refine (rules_123_unique d d g1 g2 (pc_graph s) h2 [1;2;3] rules Hwf Hwf Hac Hac _ _ Hp1 Hp2 _ Hr Hst1 Hno1 Hst2 Hno2); [done..|].
  intros i. set_unfold. lia.
Qed.

(** ** the test *)
Lemma cmi_test_ok data ws nv th log x y zz : data_ok data ws nv → qvalid nv (x, y, zz) → (∀ q, q ∈ log → qvalid nv q.1) →
  cmi_test data ws nv th log x y zz = true ↔ (emp_cmi (records data ws) x y zz <= th)%R.
Proof.
  intros (Hne & Hlen & Hw) Hq Hlog. unfold cmi_test.
  set (ops := (λ q : query * bool, Query q.1.1.1 q.1.1.2 q.1.2) <$> reverse log).
  assert (Forall (op_valid nv) (ops ++ [Query x y zz])) as Hops.
  { apply Forall_app. split; [|constructor; [exact Hq|constructor]]. apply Forall_forall. intros op Hop. unfold ops in Hop.
    apply elem_of_list_fmap in Hop as ([[[i j] c] b] & -> & Hin). cbn. apply elem_of_reverse, Hlog in Hin. done. }
  pose proof (cmi_decisions data ws nv (empty_graph (list_to_set (seq 0 nv))) th _ Hne Hlen Hw Hops) as H.
  destruct (stat_run _ _ _ _) as [r| |]; [|done..]. cbn [returns] in H. destruct H as [H _].
  assert (∀ l, (∀ op, op ∈ l → ∃ x y zz, op = Query x y zz) → ∀ (I : R → nat → nat → list nat → Prop), expected I th (l ++ [Query x y zz]) = expected I th l ++ [I th x y zz]) as He.
  { intros l Hl I. induction l as [|op l IH]; [done|]. destruct (Hl op) as (x' & y' & zz' & ->); [by left|]. cbn [app expected]. f_equal. apply IH. intros op Hop. apply Hl. by right. }
  rewrite He in H.
  2: { intros op Hop. unfold ops in Hop. apply elem_of_list_fmap in Hop as (q & -> & _). eauto. }
  apply Forall2_app_inv_r in H as (k1 & k2 & _ & H & ->). apply Forall2_cons_inv_r in H as (b & k & Hb & Hk & ->).
  apply Forall2_nil_inv_r in Hk as ->. rewrite last_snoc. cbn [default]. rewrite Hb. split; [|by right]. intros [[H|H]|?]; [..|done]; exfalso; unfold edge, empty_graph in H; cbn in H; set_solver +H.
Qed.
Lemma cmi_test_plain_ok data ws nv th log x y zz : data_ok data ws nv → qvalid nv (x, y, zz) →
  cmi_test_plain data ws nv th log x y zz = true ↔ (emp_cmi (records data ws) x y zz <= th)%R.
Proof.
  intros (Hne & Hlen & Hw) (Hxy & Hx & Hy & _ & _ & _ & Hz). cbn [fst snd] in *. unfold cmi_test_plain, cmi_cond_indep, stat_cond_indep.
  destruct (is_connected _ x y) eqn:Ec.
  { exfalso. unfold is_connected in Ec. apply orb_true_iff in Ec. rewrite !bool_decide_eq_true in Ec. destruct Ec as [H|H]; unfold edge, empty_graph in H; cbn in H; set_solver +H. }
  destruct (cmi_calc_ok data ws nv x y zz) as (v & H1 & Hv & _); [done..|by apply Forall_forall|].
  cbn. rewrite H1. cbn. unfold rgt. rewrite Hv. destruct (Rlt_dec th (emp_cmi (records data ws) x y zz)) as [Hl|Hl]; cbn; split; try done; intros; lra.
Qed.
Lemma cmi_d_separated d data ws nv K x y zz : wf_graph d → acyclic d → (∀ v, v ∈ gnodes d ↔ v < nv) → data_ok data ws nv → bayes_net d nv K (records data ws) →
  qvalid nv (x, y, zz) → d_separated d x y zz → emp_cmi (records data ws) x y zz = 0%R.
Proof.
  intros Hwf Hac Hn (Hne & Hlen & Hw) HB (Hxy & Hx & Hy & _ & Hxz & Hyz & Hz) Hsep. cbn [fst snd] in *.
  assert (Forall (λ v, v < nv) zz) as Hz' by (by apply Forall_forall).
  destruct (cmi_calc_ok data ws nv x y zz) as (v & H1 & Hv & _ & H0); [done..|]. rewrite <-Hv. apply H0. by eapply markov.
Qed.

Section decide.
  Context (d : graph) (data : list (list nat)) (ws : option (list Q)) (nv K : nat) (th : R) (V : nset).
  Hypothesis (Hwf : wf_graph d) (Hac : acyclic d) (Hn : ∀ v, v ∈ gnodes d ↔ v < nv) (HV : V ⊆ gnodes d).
  Hypothesis (Hd : data_ok data ws nv) (HB : bayes_net d nv K (records data ws)) (Hth : (0 <= th)%R) (HF : faithful_above th d V (records data ws)).

  Lemma d_separated_dec x y zz : x ∈ gnodes d → y ∈ gnodes d → x ≠ y → (∀ z, z ∈ zz → z ∈ gnodes d ∧ z ≠ x ∧ z ≠ y) → d_separated d x y zz ∨ ¬ d_separated d x y zz.
  Proof.
    intros Hx Hy Hne Hz. assert (returns (dsep ord_up (S (size (gnodes d))) d x y zz) (λ b, b = true ↔ d_separated d x y zz)) as H.
    { apply dsep_spec; try done; [apply ord_up_ok|lia|intros z ?%Hz; tauto|]. intros Hj'. apply Hz in Hj'. tauto. }
    apply returns_ok in H as (b & _ & H). rewrite <-H. destruct b; auto.
  Qed.
  Lemma qvalid_nodes x y zz : x ∈ V → y ∈ V → x ≠ y → NoDup zz → (∀ z, z ∈ zz → z ∈ V ∧ z ≠ x ∧ z ≠ y) → qvalid nv (x, y, zz).
  Proof.
    intros Hx Hy Hne Hd' Hz. unfold qvalid. cbn. apply HV, Hn in Hx, Hy. split_and!; try done; [by intros (_ & ? & ?)%Hz|by intros (_ & ? & ?)%Hz|]. intros z (? & _)%Hz. by apply Hn, HV.
  Qed.
  Lemma below_iff x y zz : x ∈ V → y ∈ V → x ≠ y → NoDup zz → (∀ z, z ∈ zz → z ∈ V ∧ z ≠ x ∧ z ≠ y) →
    (emp_cmi (records data ws) x y zz <= th)%R ↔ d_separated d x y zz.
  Proof.
    intros Hx Hy Hne Hd' Hz. split.
    - intros Hle. destruct (d_separated_dec x y zz) as [H|H]; [by apply HV|by apply HV|done| |done|].
      { intros z (? & ? & ?)%Hz. auto. }
      exfalso. apply HF in H; [lra|done..].
    - intros Hs. rewrite (cmi_d_separated d data ws nv K x y zz); [done..| |done]. by apply qvalid_nodes.
  Qed.
  Lemma cmi_perfect m : mag_of d V m → perfect_for m (cmi_test_plain data ws nv th).
  Proof.
    intros M log i j c Hi Hj Hne Hc Hz. rewrite (mo_nodes _ _ _ M) in *.
    rewrite cmi_test_plain_ok; [|done|by apply qvalid_nodes]. rewrite below_iff by done. symmetry. by apply (mag_separated d Hwf Hac V m M).
  Qed.
End decide.

(** ** the joint distribution of a network as data *)
Lemma elem_of_configs nv K : ∀ c, c ∈ configs nv K ↔ length c = nv ∧ Forall (λ a, a < K) c.
Proof.
  induction nv as [|n IH]; intros c; cbn [configs].
  - rewrite elem_of_list_singleton. split; [intros ->; split; [done|constructor]|]. intros [H _]. by apply nil_length_inv.
  - rewrite elem_of_list_bind. split.
    + intros (a & (c' & -> & [H1 H2]%IH)%elem_of_list_fmap & Ha%elem_of_seq). cbn. split; [by f_equal|]. constructor; [lia|done].
    + intros [H1 H2]. destruct c as [|a c]; [done|]. apply Forall_cons in H2 as [Ha H2]. exists a. split; [|apply elem_of_seq; lia].
      apply elem_of_list_fmap. exists c. split; [done|]. apply IH. cbn in H1. split; [lia|done].
Qed.
Lemma NoDup_configs nv K : NoDup (configs nv K).
Proof.
  induction nv as [|n IH]; cbn [configs]; [apply NoDup_singleton|].
  assert (∀ l, NoDup l → NoDup (a ← l; (a ::.) <$> configs n K)) as H; [|apply H, NoDup_seq].
  intros l. induction 1 as [|a l Ha _ IHl]; [constructor|]. cbn [mbind list_bind]. apply NoDup_app. split; [by apply NoDup_fmap_2; [intros ?? [=]|]|]. split; [|done].
  intros c (c' & -> & _)%elem_of_list_fmap (b & (c'' & [= -> _] & _)%elem_of_list_fmap & Hb)%elem_of_list_bind. done.
Qed.
Lemma proj_all (c : list nat) : proj (seq 0 (length c)) c = c.
Proof.
  apply list_eq_same_length with (length c); [done|by unfold proj; rewrite fmap_length, seq_length|].
  intros i x y Hi H1 H2. unfold proj in H1. rewrite list_lookup_fmap, (proj2 (lookup_seq _ _ _ _)) in H1 by done. injection H1 as <-. cbn. by rewrite (list_lookup_total_correct _ _ _ H2).
Qed.
Lemma Q2R_prod (l : list Q) : Q2R (foldr Qmult 1%Q l) = foldr Rmult 1%R (Q2R <$> l).
Proof. induction l as [|q l IH]; cbn [foldr fmap list_fmap]; [apply RMicromega.Q2R_1|]. by rewrite Q2R_mult, IH. Qed.

Section joint.
  Context (d : graph) (nv K : nat) (f : nat → (nat → nat) → Q).
  Hypothesis (Hwf : wf_graph d) (Hac : acyclic d) (Hn : ∀ v, v ∈ gnodes d ↔ v < nv) (HK : 0 < K).
  Hypothesis (Hf : ∀ v, v < nv → cond_table d K v (λ r, Q2R (f v r))) (Hp : ∀ v r, (0 <= f v r)%Q).

  Let F : nat → (nat → nat) → R := λ v r, Q2R (f v r).
  Let recs := records (configs nv K) (Some (joint nv K f)).
  Lemma joint_records : recs = (λ c, (c, fprod F (seq 0 nv) (λ u, c !!! u))) <$> configs nv K.
  Proof.
    unfold recs, records, weighted, joint. rewrite zip_with_fmap_r. induction (configs nv K) as [|c l IH]; [done|]. cbn [zip_with fmap list_fmap]. f_equal; [|exact IH].
    f_equal. rewrite Q2R_prod. unfold fprod, F. by rewrite <-list_fmap_compose.
  Qed.
  Lemma joint_data_ok : data_ok (configs nv K) (Some (joint nv K f)) nv.
  Proof.
    split_and!.
    - intros E. assert (replicate nv 0 ∈ configs nv K) as H; [|rewrite E in H; by apply elem_of_nil in H].
      apply elem_of_configs. split; [apply replicate_length|]. by apply Forall_replicate.
    - apply Forall_forall. intros c [H _]%elem_of_configs. done.
    - unfold weights_ok, joint. split; [apply fmap_length|]. apply Forall_fmap, Forall_true. intros c. cbn.
      induction (seq 0 nv) as [|v l IH]; cbn; [done|]. apply Qmult_le_0_compat; [apply Hp|done].
  Qed.
  Lemma joint_mass r : (∀ v, v < nv → r v < K) → mass recs (seq 0 nv) (r <$> seq 0 nv) = fprod F (seq 0 nv) r.
  Proof.
    intros Hr. unfold mass. rewrite joint_records, <-list_fmap_compose.
    assert (r <$> seq 0 nv ∈ configs nv K) as Hc.
    { apply elem_of_configs. split; [by rewrite fmap_length, seq_length|]. apply Forall_fmap, Forall_forall. intros v Hv%elem_of_seq. apply Hr. lia. }
    pose proof (NoDup_configs nv K) as Hnd.
    assert (∀ c, c ∈ configs nv K → length c = nv) as Hl by (intros c [H _]%elem_of_configs; done).
    assert (∀ l, NoDup l → (∀ c, c ∈ l → length c = nv) → foldr Rplus 0%R (((λ p : list nat * R, if decide (proj (seq 0 nv) p.1 = r <$> seq 0 nv) then p.2 else 0%R) ∘
      (λ c : list nat, (c, fprod F (seq 0 nv) (λ u, c !!! u)))) <$> l) = if decide (r <$> seq 0 nv ∈ l) then fprod F (seq 0 nv) r else 0%R) as H.
    2: { rewrite H by done. by rewrite decide_True. }
    clear Hc Hnd Hl. intros l Hnd Hl. induction Hnd as [|c l Hc _ IH]; [by rewrite decide_False by set_solver +|]. cbn [fmap list_fmap foldr compose fst snd].
    rewrite IH by (intros c' ?; apply Hl; by right). assert (proj (seq 0 nv) c = c) as -> by (pose proof (proj_all c) as E; rewrite (Hl c) in E by left; exact E).
    destruct (decide (c = r <$> seq 0 nv)) as [->|Hne].
    - rewrite decide_False by done. rewrite decide_True by left. rewrite Rplus_0_r. unfold fprod. f_equal. apply list_fmap_ext. intros i v Hv%elem_of_list_lookup_2%elem_of_seq.
      destruct (Hf v ltac:(lia)) as [Hd _]. apply Hd. intros u Hu. assert (u < nv) by (destruct Hu as [->|He]; [lia|]; apply Hn; apply Hwf in He; tauto).
      apply list_lookup_total_correct. rewrite list_lookup_fmap. by rewrite lookup_seq_lt.
    - rewrite Rplus_0_l. apply decide_ext. rewrite elem_of_cons. naive_solver.
  Qed.
  Lemma joint_bayes : bayes_net d nv K recs.
  Proof.
    assert (∀ p v, p ∈ recs → v < nv → p.1 !!! v < K) as Hlt.
    { intros p v Hin Hv. rewrite joint_records in Hin. apply elem_of_list_fmap in Hin as (c & -> & [H1 H2]%elem_of_configs). cbn.
      rewrite Forall_forall in H2. apply H2, elem_of_list_lookup_total_2. lia. }
    split; [done|]. exists F. split; [done|]. intros r Hr. rewrite joint_mass by done.
    destruct (order_exists d nv Hwf Hac Hn) as (L & Hnd & HL & Hord).
    pose proof (ancestral_mass d nv K recs Hwf Hac Hn Hlt F Hf 1) as H.
    assert (foldr Rplus 0 (snd <$> recs) = 1)%R as E.
    { transitivity (M recs [] r).
      - unfold M, mass. reflexivity.
      - rewrite (H ltac:(intros r' Hr'; unfold M; rewrite Rmult_1_l; by apply joint_mass) ∅ L [] r); [|set_solver +|done|done|done|set_solver +].
        assert (∀ (P : nat → Prop) `{∀ v, Decision (P v)}, (∀ v, ¬ P v) → filter P L = []) as Hnil.
        { intros P ? HP. destruct (filter P L) as [|v l] eqn:E'; [done|]. assert (v ∈ filter P L) as Hv by (rewrite E'; left). apply elem_of_list_filter in Hv as [Hv _]. by apply HP in Hv. }
        rewrite !Hnil by set_solver +. cbn. lra. }
    rewrite E, Rmult_1_l. done.
  Qed.
End joint.
