(** Proofs for C120 and C121: which pairs the learners keep adjacent, in terms of the data. *)
From Coq Require Import QArith Qreals Reals Lra.
From Verif Require Import Base BaseLemmas ModelGraph Spec Paths ProofGraph ProofGraph2 ProofGraph3 ProofDsep ModelMixed SpecMixed ModelPC SpecPC ProofPDAG ProofPDAG2 ProofPDAG3 ProofMixed ProofMixed2 ProofPC
  ModelRAI ProofRAI ModelPAG SpecPAG ModelPDS ModelFCI SpecFCI ProofFCI ModelOICD SpecOICD ProofOICD ProofOICD2 ProofOICD3 SpecLatent ProofLatent PropFCI PropOICD PropLatent ModelData ModelCI SpecCI ProofCI ProofCI2 ModelCMI SpecCMI ProofCMI
  SpecMarkov ProofMarkov ProofMarkov2 ModelParCorr SpecParCorr ProofParCorr SpecLinear ProofLinear SpecDepend.
Local Open Scope nat_scope.

(** the test does not declare i and j independent, in whichever order they are given *)
Definition refuses (ci : citest) (V : nset) (a b : nat) : Prop :=
  ∀ i j log c, i = a ∧ j = b ∨ i = b ∧ j = a → proper_log V ((i, j, c, true) :: log) → ci log i j c = false.

Lemma refuses_tested ci V a b log S : refuses ci V a b → honest ci log → proper_log V log → ¬ tested log a b S true.
Proof.
  intros Hr Hh Hp (c & _ & Ht).
  assert (∀ i j, i = a ∧ j = b ∨ i = b ∧ j = a → (i, j, c, true) ∉ log) as H; [|destruct Ht as [Ht|Ht]; apply H in Ht; auto].
  intros i j Hij Hin. pose proof Hin as Hin'. apply elem_of_list_split in Hin as (l1 & l2 & El). pose proof (Hh _ _ _ _ _ _ El) as E.
  rewrite (Hr i j l2 c Hij) in E; [done|]. intros i' j' c' b' [E'|H]%elem_of_cons; [injection E' as -> -> -> _; by eapply Hp|]. apply (Hp i' j' c' b'). rewrite El. set_solver +H.
Qed.

Section learners.
  Context (o : order) (Ho : iter_ok o) (ci : citest) (V : nset).
  Lemma pc_keeps ow fuel : size V * size V + 1 < fuel →
    returns (pc_learn o ci ow fuel V) (λ s, ∀ a b, a ∈ V → b ∈ V → a ≠ b → refuses ci V a b → pd_adj (pc_graph s) a b).
  Proof.
    intros Hf. eapply returns_mono; [by apply pc_learn_result|].
    intros s (s0 & Hs0 & _ & _ & _ & _ & _ & A & _)%pc_result_skeleton a b Ha Hb Hne Hr. apply A.
    destruct (uline_dec (pc_graph s0) a b) as [|Hn]; [done|exfalso]. destruct (sk_rem _ _ _ Hs0 a b Ha Hb Hne Hn) as (S & _ & Ht).
    by apply (refuses_tested ci V a b _ S Hr (sk_honest _ _ _ Hs0) (sk_log _ _ _ Hs0)) in Ht.
  Qed.
  Lemma rai_keeps ow fuel : size V * size V + 1 < fuel →
    returns (rai_learn o ci ow fuel V) (λ s, ∀ a b, a ∈ V → b ∈ V → a ≠ b → refuses ci V a b → pd_adj (pc_graph s) a b).
  Proof.
    intros Hf. eapply returns_mono; [by apply rai_learn_inv|]. cbn beta. intros s [Hs _] a b Ha Hb Hne Hr.
    destruct (pd_adj_dec (pc_graph s) a b) as [|Hn]; [done|exfalso]. destruct (ra_rem _ _ _ _ Hs a b Ha Hb Hne Hn) as (S & _ & Ht).
    by apply (refuses_tested ci V a b _ S Hr (ra_honest _ _ _ _ Hs) (ra_log _ _ _ _ Hs)) in Ht.
  Qed.
  Lemma justified_keeps g sep log : justified ci V g sep log → ∀ a b, a ∈ V → b ∈ V → a ≠ b → refuses ci V a b → mg_adj g a b.
  Proof. intros J a b Ha Hb Hne Hr. apply (ju_adj _ _ _ _ _ J); [done..|]. intros S. apply (refuses_tested ci V a b _ S Hr); apply J. Qed.
  Lemma fci_keeps sb tc fuel : size V * size V + size V + 2 < fuel →
    returns (fci_learn o ci sb tc fuel V) (λ r, ∀ a b, a ∈ V → b ∈ V → a ≠ b → refuses ci V a b → mg_adj (ls_graph r.1) a b).
  Proof. intros Hf. eapply returns_mono; [by apply C43_fci|]. intros r J. exact (justified_keeps _ _ _ J). Qed.
  Lemma icd_keeps sb tc fuel precalc : size V * size V + size V + 2 < fuel →
    returns (icd_learn o ci sb tc fuel precalc (icd_init o V)) (λ t, ∀ a b, a ∈ V → b ∈ V → a ≠ b → refuses ci V a b → mg_adj (ls_graph (ic_ls t)) a b).
  Proof. intros Hf. eapply returns_mono; [by apply C43_icd|]. intros r [J _]. exact (justified_keeps _ _ _ J). Qed.
  Lemma oicd_keeps ord sb tc fuel mcs L s loc : NoDup ord → list_to_set ord = V → size V * size V + size V + 2 < fuel →
    (∀ m, mcs = Some m → m + 2 ≤ size V) → o_reach o ci sb tc fuel ord mcs V L s →
    returns (o_learn o ci sb tc fuel ord mcs loc s) (λ t, ∀ a b, a ∈ V → b ∈ V → a ≠ b → refuses ci V a b → mg_adj (ls_graph (os_ls t)) a b).
  Proof. intros Hnd Hord Hf Hm Hr. eapply returns_mono; [by eapply (C71_calls o Ho ci V ord)|]. intros t [J _]. exact (justified_keeps _ _ _ J). Qed.
End learners.

(** ** every pair is tested given the empty set *)
Definition all_marginal (V : nset) (log : clog) : Prop := ∀ a b, a ∈ V → b ∈ V → a ≠ b → ∃ q, tested log a b ∅ q.
Definition only_empty (log : clog) : Prop := ∀ i j c b, (i, j, c, b) ∈ log → c = [].
Lemma tested_nil log a b q : (a, b, [], q) ∈ log ∨ (b, a, [], q) ∈ log → tested log a b ∅ q.
Proof. intros H. exists []. split; [set_solver +|done]. Qed.
Section rai_first.
  Context (o : order) (Ho : iter_ok o) (ci : citest) (ow : bool) (lf : nat) (V : nset) (Hlf : size V * size V + 1 < lf).
  Lemma first_endogenous s : ra_inv ci V [] s → only_empty (pc_log s) → (∀ a b, a ∈ V → b ∈ V → a ≠ b → pd_adj (pc_graph s) a b) →
    returns (refine_endogenous o ci ow V 0 s) (λ s', ra_inv ci V [] s' ∧ all_marginal V (pc_log s')).
  Proof.
    intros Hs Hlog Hadj. destruct (copy_ok ci V [] s Hs) as [Hw HN]. pose proof (pd_copy_same (pc_graph s) (ra_wf _ _ _ _ Hs)) as HC.
    unfold refine_endogenous. set (src := pd_copy (pc_graph s)) in *.
    assert (∀ a b, a ∈ V → b ∈ V → a ≠ b → pd_adj src a b) as Hsrc.
    { intros a b Ha Hb Hne. pose proof (Hadj a b Ha Hb Hne) as H. unfold pd_adj in *. by rewrite <-!(proj1 (proj2 HC _ _)), <-(proj2 (proj2 HC _ _)). }
    eapply returns_mono; [apply (for_returns_pre _ _ _ (λ pre s', ra_inv ci V [] s' ∧ only_empty (pc_log s') ∧ ∀ i j, (i, j) ∈ pre → ∃ q, tested (pc_log s') i j ∅ q))|].
    - split_and!; [done..|]. intros i j H. by apply elem_of_nil in H.
    - intros pre [i j] post s1 El (H1 & H2 & H3).
      assert ((i, j) ∈ comb2 (o 1483 V)) as Hij by (rewrite El; set_solver +). apply comb2_iter in Hij as (Hi & Hj & Hne); [|done].
      eapply returns_mono; [apply (returns_and _ (ra_inv ci V []) (λ s', only_empty (pc_log s') ∧ (∀ e, e ∈ pc_log s1 → e ∈ pc_log s') ∧ ∃ q, tested (pc_log s') i j ∅ q))|].
      + by apply endogenous_pair_spec.
      + unfold rai_endogenous_pair. destruct (src_ok ci ow V [] s1 src H1 Hw HN) as [HGw HGn].
        eapply returns_bind; [by apply m_is_connected_pd|]. cbn beta. intros b Hb. destruct b; cbn [negb].
        * assert (∀ A B : list nat, uniq (combs 0 A ++ combs 0 B) = [[]]) as E by (intros [|] [|]; reflexivity). rewrite E. cbn [for_brk]. unfold pc_try.
          destruct (ci (pc_log s1) i j []); cbn; (split; [intros i' j' c' b' [E'|H]%elem_of_cons; [by injection E'|by eapply H2]|]);
            (split; [intros e He; by right|]); eexists; apply tested_nil; left; by left.
        * cbn. split_and!; [done|done|]. assert (¬ pd_adj (pc_graph s1) i j) as Hn.
          { intros H. cut (false = true); [done|]. apply Hb. destruct ow; [done|]. by apply Hsrc. }
          destruct (ra_rem _ _ _ _ H1 i j Hi Hj Hne Hn) as (S & _ & c & Hc & Ht). assert (c = []) as -> by (destruct Ht as [Ht|Ht]; by eapply H2). exists true. by apply tested_nil.
      + cbn beta. intros s2 (I1 & I2 & I3 & I4). split_and!; [done|done|]. intros i' j' [H|H]%elem_of_app.
        * destruct (H3 i' j' H) as (q & c & Hc & Ht). exists q, c. split; [done|]. destruct Ht; [left|right]; by apply I3.
        * apply elem_of_list_singleton in H. by injection H as -> ->.
    - cbn beta. intros s1 (H1 & _ & H3). split; [done|]. intros a b Ha Hb Hne.
      destruct (proj2 (comb2_iter o 1483 V a b Ho)) as [H|H]; [done|done|done| |]; apply H3 in H as (q & c & Hc & Ht); exists q, c; (split; [done|]); tauto.
  Qed.
  Lemma rai_orient_log en s : ra_inv ci V [] s → en ⊆ V → returns (rai_orient o lf en s) (λ s', ra_inv ci V [] s' ∧ pc_log s' = pc_log s).
  Proof using Ho Hlf.
    intros Hs Hen. pose proof (rai_orient_spec o Ho ci lf V [] Hlf en s Hs Hen) as H. unfold rai_orient in *.
    destruct (rai_v_structures _ _ _ _) as [g| |]; [|done..]. cbn [mbind res_bind] in *.
    destruct (maximally_orient _ _ _ _ _) as [g'| |]; [|done..]. cbn in *. done.
  Qed.
  Lemma rai_all_marginal : returns (rai_learn o ci ow lf V) (λ s, ra_inv ci V [] s ∧ all_marginal V (pc_log s)).
  Proof using Ho Hlf.
    pose proof (lf_V lf V Hlf) as Hf.
    assert (∀ f, size V + 1 < f → returns (rai_rec o ci ow lf f V ∅ 0 (pc_init o V)) (λ s, all_marginal V (pc_log s))) as Hrec.
    { intros [|f] Hf'; [lia|]. cbn [rai_rec]. destruct (rai_exit o (pc_graph (pc_init o V)) V 0) eqn:E.
      - cbn [returns]. intros a b Ha Hb Hne. exfalso. unfold rai_exit in E. pose proof (proj1 (forallb_forall _ _) E a) as H. cbn beta in H.
        rewrite negb_true_iff, bool_decide_eq_false in H. apply H; [apply elem_of_list_In; by apply iter_elem|].
        pose proof (rai_init_inv o ci V Ho) as Hi. unfold fan_in. rewrite <-size_union.
        + assert (b ∈ pd_parents (pc_graph (pc_init o V)) a ∪ und (pc_graph (pc_init o V)) a) as Hin; [|apply Nat.neq_0_lt_0; intros Hz%size_empty_inv; set_solver +Hin Hz].
          apply elem_of_union_r. apply pd_complete_spec; auto.
        + intros z Hz Hz'. by eapply (pdw_one _ (ra_wf _ _ _ _ Hi)).
      - apply rai_exit_false in E as (n & Hn & Hkn); [|done]. unfold refine_and_orient.
        assert (1 ≤ size V) as HV1 by (apply Nat.neq_0_lt_0; intros Hz%size_empty_inv; set_solver +Hn Hz).
        assert (ra_inv ci V [] (pc_init o V) ∧ pc_log (pc_init o V) = [] ∧ ∀ a b, a ∈ V → b ∈ V → a ≠ b → pd_adj (pc_graph (pc_init o V)) a b) as (I0 & L0 & A0).
        { split_and!; [by apply rai_init_inv|done|]. intros a b Ha Hb Hne. left. apply pd_complete_spec; auto. }
        eapply returns_bind.
        { eapply returns_bind; [apply (for_returns _ _ _ (λ s', s' = pc_init o V)); [done|]|].
          { intros x s' _ ->. apply for_returns; [done|]. intros e s'' He. rewrite iter_elem in He by done. set_solver +He. }
          cbn beta. intros s1 ->. eapply returns_bind; [by apply rai_orient_log|]. cbn beta. intros s2 [I2 L2].
          eapply returns_bind; [apply first_endogenous; [done|rewrite L2, L0; intros i j c b H; by apply elem_of_nil in H|]|].
          { intros a b Ha Hb Hne. destruct (pd_adj_dec (pc_graph s2) a b) as [|Hna]; [done|exfalso]. destruct (ra_rem _ _ _ _ I2 a b Ha Hb Hne Hna) as (S & _ & c & _ & Ht).
            rewrite L2, L0 in Ht. destruct Ht as [H|H]; by apply elem_of_nil in H. }
          cbn beta. intros s3 [I3 M3]. eapply returns_mono; [by apply rai_orient_log|]. cbn beta. intros s4 [I4 L4]. rewrite <-L4 in M3. exact (conj I4 M3). }
        cbn beta. intros s4 [I4 M4].
        assert (ra_inv ci V (pc_log s4) s4) as I5 by (destruct I4; split; try done; intros i j c H HB; done).
        assert (∀ s, ra_inv ci V (pc_log s4) s → all_marginal V (pc_log s)) as Hend.
        { intros s Hs a b Ha Hb Hne. destruct (M4 a b Ha Hb Hne) as (q & c & Hc & Ht). exists q, c. split; [done|]. destruct Ht; [left|right]; by apply (ra_base _ _ _ _ Hs). }
        eapply returns_bind; [apply (rai_split_spec o Ho lf V); [done|done|set_solver +Hn]|]. cbn beta. intros [[d l] a] (Hde & -> & Hl).
        eapply (returns_bind _ _ (ra_inv ci V (pc_log s4))).
        + apply for_returns; [done|]. intros A s5 HA%Hl Hs5. apply rai_rec_spec; [done|done|lia|lia|done|set_solver..].
        + cbn beta. intros s5 Hs5. eapply returns_mono; [|exact Hend]. apply rai_rec_spec; [done|done|lia|lia|done|set_solver +Hde|set_solver +Hde|set_solver +Hde]. }
    pose proof (rai_learn_inv o ci ow lf V Ho Hlf) as H. specialize (Hrec lf Hf). unfold rai_learn in *.
    destruct (rai_rec _ _ _ _ _ _ _ _ _) as [s| |]; [|done..]. cbn [mbind res_bind returns] in *.
    destruct (maximally_orient _ _ _ _ _) as [g| |]; [|done..]. cbn [mbind res_bind] in *. destruct (re_orient _ _ _) as [h| |]; [|done..]. cbn in *. tauto.
  Qed.
End rai_first.

(** the test declares a and b independent given nothing, in whichever order they are given *)
Definition accepts (ci : citest) (V : nset) (a b : nat) : Prop :=
  ∀ i j log, i = a ∧ j = b ∨ i = b ∧ j = a → proper_log V ((i, j, [], true) :: log) → ci log i j [] = true.
Lemma accepts_tested ci V a b log q : accepts ci V a b → honest ci log → proper_log V log → tested log a b ∅ q → q = true.
Proof.
  intros Hr Hh Hp (c & Hc & Ht). assert (c = []) as -> by (apply elem_of_nil_inv; intros z Hz%Hc; set_solver +Hz).
  assert (∀ i j, i = a ∧ j = b ∨ i = b ∧ j = a → (i, j, [], q) ∈ log → q = true) as H; [|destruct Ht as [Ht|Ht]; apply H in Ht; auto].
  intros i j Hij Hin. pose proof Hin as Hin'. apply elem_of_list_split in Hin as (l1 & l2 & El). rewrite (Hh _ _ _ _ _ _ El). apply Hr; [done|].
  intros i' j' c' b' [E'|H]%elem_of_cons; [injection E' as -> -> -> _; by eapply Hp|]. apply (Hp i' j' c' b'). rewrite El. set_solver +H.
Qed.
Section drops.
  Context (o : order) (Ho : iter_ok o) (ci : citest) (V : nset).
  Lemma pc_drops ow fuel : size V * size V + 1 < fuel →
    returns (pc_learn o ci ow fuel V) (λ s, ∀ a b, accepts ci V a b → ¬ pd_adj (pc_graph s) a b).
  Proof.
    intros Hf. eapply returns_mono; [apply (returns_and _ _ _ (pc_learn_result o ci ow fuel V Ho Hf) (pc_exhausted o ci ow fuel V Ho Hf))|]. cbn beta.
    intros s [(s0 & Hs0 & _ & _ & El & _ & _ & A & _)%pc_result_skeleton Hex] a b Hr Hab.
    destruct (Hex a b ∅ Hab) as [Ht _]; [set_solver +|]. rewrite El in Ht.
    by apply (accepts_tested ci V a b _ _ Hr (sk_honest _ _ _ Hs0) (sk_log _ _ _ Hs0)) in Ht.
  Qed.
  Lemma rai_drops ow fuel : size V * size V + 1 < fuel →
    returns (rai_learn o ci ow fuel V) (λ s, ∀ a b, accepts ci V a b → ¬ pd_adj (pc_graph s) a b).
  Proof.
    intros Hf. eapply returns_mono; [by apply rai_all_marginal|]. cbn beta. intros s [Hs Hm] a b Hr Hab.
    assert (a ∈ V ∧ b ∈ V) as [Ha Hb].
    { rewrite <-(ra_nodes _ _ _ _ Hs). destruct Hab as [H|[H|H]]; [apply (pdw_und _ (ra_wf _ _ _ _ Hs)) in H|apply (pdw_dir _ (ra_wf _ _ _ _ Hs)) in H|apply (pdw_dir _ (ra_wf _ _ _ _ Hs)) in H]; tauto. }
    assert (a ≠ b) as Hne by (eapply pd_adj_ne; [apply Hs|done]). destruct (Hm a b Ha Hb Hne) as [q Ht].
    pose proof (accepts_tested ci V a b _ _ Hr (ra_honest _ _ _ _ Hs) (ra_log _ _ _ _ Hs) Ht) as ->. destruct Ht as (c & _ & [Ht|Ht]).
    - apply (ra_true _ _ _ _ Hs) in Ht; [done|by intros ?%elem_of_nil].
    - apply (ra_true _ _ _ _ Hs) in Ht; [|by intros ?%elem_of_nil]. apply Ht, pd_adj_sym; [apply Hs|done].
  Qed.
  Lemma justified_drops g sep log a b : justified ci V g sep log → (mg_adj g a b → ∃ q, tested log a b ∅ q) → accepts ci V a b → ¬ mg_adj g a b.
  Proof.
    intros J Ht Hr Hab. pose proof Hab as [k Hk]. apply (mgw_in _ (ju_wf _ _ _ _ _ J)) in Hk as (H3 & H4 & H5). rewrite (ju_nodes _ _ _ _ _ J) in *.
    destruct (Ht Hab) as [q Hq]. pose proof (accepts_tested ci V a b log q Hr (ju_honest _ _ _ _ _ J) (ju_log _ _ _ _ _ J) Hq) as ->.
    by eapply (proj1 (ju_adj _ _ _ _ _ J a b H3 H4 H5) Hab).
  Qed.
  Lemma fci_drops sb tc fuel : size V * size V + size V + 2 < fuel →
    returns (fci_learn o ci sb tc fuel V) (λ r, ∀ a b, accepts ci V a b → ¬ mg_adj (ls_graph r.1) a b).
  Proof.
    intros Hf. eapply returns_mono; [exact (returns_and _ _ _ (C43_fci o ci V sb tc fuel Ho Hf) (C43_fci_second_phase o ci V sb tc fuel Ho Hf))|]. cbn beta.
    intros r [J (h & _ & _ & _ & _ & Hd)] a b. apply (justified_drops _ _ _ a b J). intros Hab. destruct (Hd a b Hab) as (X & _ & HX). exists false. apply HX. set_solver +.
  Qed.
  Lemma icd_drops sb tc fuel precalc : size V * size V + size V + 2 < fuel →
    returns (icd_learn o ci sb tc fuel precalc (icd_init o V)) (λ t, ∀ a b, accepts ci V a b → ¬ mg_adj (ls_graph (ic_ls t)) a b).
  Proof.
    intros Hf. eapply returns_mono; [exact (returns_and _ _ _ (C43_icd o ci V sb tc fuel precalc Ho Hf) (C69_complete_run o ci sb tc fuel precalc V Ho Hf))|]. cbn beta zeta.
    intros t [[J _] (_ & _ & Hm & _)] a b. apply (justified_drops _ _ _ a b J). intros [k Hk]. apply (mgw_in _ (ju_wf _ _ _ _ _ J)) in Hk as (H3 & H4 & H5). rewrite (ju_nodes _ _ _ _ _ J) in *. by apply Hm.
  Qed.
  Lemma oicd_drops ord sb tc fuel mcs loc s : NoDup ord → list_to_set ord = V → size V * size V + size V + 2 < fuel →
    (∀ m, mcs = Some m → m + 2 ≤ size V) → oicd_init o ord mcs V = Ok s →
    returns (o_learn o ci sb tc fuel ord mcs loc s) (λ t, ∀ a b, accepts ci V a b → ¬ mg_adj (ls_graph (os_ls t)) a b).
  Proof.
    intros Hnd Hord Hf Hm Hr.
    pose proof (C71_calls o Ho ci V ord Hnd Hord sb tc fuel Hf mcs Hm (λ _, True) s loc) as H1.
    pose proof (C71_low_order o Ho ci V ord Hnd Hord sb tc fuel Hf mcs Hm loc s Hr) as H2.
    eapply returns_mono; [exact (returns_and _ _ _ (H1 ltac:(by constructor)) H2)|]. cbn beta zeta. intros t [[J _] [Hl _]] a b.
    apply (justified_drops _ _ _ a b J). intros [k Hk]. apply (mgw_in _ (ju_wf _ _ _ _ _ J)) in Hk as (H3 & H4 & H5). rewrite (ju_nodes _ _ _ _ _ J) in *.
    destruct (before_total ord a b) as [H|H]; [set_solver|set_solver|done|by apply Hl|]. destruct (Hl _ _ H) as (q & c & Hc & Ht). exists q, c. tauto.
  Qed.
End drops.

(** ** the tests *)
Lemma proper_qvalid V nv i j c b log : (∀ v, v ∈ V → v < nv) → proper_log V ((i, j, c, b) :: log) → qvalid nv (i, j, c) ∧ ∀ q, q ∈ log → qvalid nv q.1.
Proof.
  intros HV Hp. assert (∀ q : query * bool, q ∈ (i, j, c, b) :: log → qvalid nv q.1) as H.
  { intros [[[i' j'] c'] b'] (Hi & Hj & Hne & Hnd & Hz)%Hp. unfold qvalid. cbn [fst snd]. split_and!; auto; [by intros (_ & ? & ?)%Hz|by intros (_ & ? & ?)%Hz|]. intros z (? & _)%Hz. auto. }
  split; [apply (H (i, j, c, b)); left|]. intros q Hq. apply H. by right.
Qed.
Lemma cmi_refuses data ws nv th V a b : data_ok data ws nv → (∀ v, v ∈ V → v < nv) → always_above th V (records data ws) a b →
  refuses (cmi_test data ws nv th) V a b.
Proof.
  intros Hd HV H i j log c Hij Hp. destruct (proper_qvalid _ _ _ _ _ _ _ HV Hp) as [Hq Hlog]. apply not_true_iff_false. rewrite cmi_test_ok by done.
  destruct (Hp i j c true) as (_ & _ & _ & Hnd & Hz); [left|]. destruct Hij as [[-> ->]|[-> ->]].
  - apply Rlt_not_le, H; done.
  - rewrite (emp_cmi_sym _ b a c c) by done. apply Rlt_not_le, H; [done|]. intros z (? & ? & ?)%Hz. done.
Qed.

Lemma cmi_accepts data ws nv th V a b : data_ok data ws nv → (∀ v, v ∈ V → v < nv) → (emp_cmi (records data ws) a b [] <= th)%R →
  accepts (cmi_test data ws nv th) V a b.
Proof.
  intros Hd HV H i j log Hij Hp. destruct (proper_qvalid _ _ _ _ _ _ _ HV Hp) as [Hq Hlog]. rewrite cmi_test_ok by done.
  destruct Hij as [[-> ->]|[-> ->]]; [done|]. by rewrite (emp_cmi_sym _ b a [] []).
Qed.

Section regular.
  Context (data : nat → nat → R) (n nv : nat) (V : nset) (HV : ∀ v, v ∈ V ↔ v < nv) (HR : regular data n V).
  Context (inv : list nat → option (nat → nat → R)) (cdf : R → R) (Hinv : inverts_all data n inv V).
  Lemma regular_statistic x y zz : qvalid nv (x, y, zz) → ∃ r, partial_correlation data n x y zz r ∧ (Rabs r < 1)%R ∧
    pc_statistic (corrcoef data n) inv cdf n x y zz = Ok (Fin (two_sided cdf (R_sqrt.sqrt (INR (n - length zz - 3)) * fisher_z r))).
  Proof.
    intros (Hne & Hx & Hy & Hnd & Hxz & Hyz & Hz). cbn [fst snd] in *.
    assert (NoDup (x :: y :: zz)) as Hnd' by (constructor; [|by constructor]; by intros [?|?]%elem_of_cons).
    assert (∀ a, a ∈ x :: y :: zz → a ∈ V) as Hin by (intros a [->|[->|?%Hz]%elem_of_cons]%elem_of_cons; by apply HV).
    assert (∀ a, a ∈ x :: y :: zz → not_constant data n a) as Hv by (intros a Ha; by apply HR, Hin).
    assert (nonsingular (corrcoef data n) (x :: y :: zz)) as Hns by by apply HR.
    pose proof (nonsingular_size data n x y zz Hv Hns) as Hsz.
    destruct (decide (2 ≤ length zz)) as [Hl|Hl].
    - destruct (statistic_ok data n inv cdf x y zz Hnd Hsz Hv) as (r & Hr & Hr1 & E); [|done|by exists r]. apply Hinv; [done..|cbn; lia].
    - pose proof Hns as [N HNi]. destruct (statistic_ok data n (λ _, Some N) cdf x y zz Hnd Hsz Hv) as (r & Hr & Hr1 & E); [done..|]. exists r. split; [done|]. split; [done|].
      rewrite <-E. unfold pc_statistic. destruct zz as [|z [|z' zz]]; [done..|]. cbn in Hl. lia.
  Qed.
  Lemma regular_val x y zz : qvalid nv (x, y, zz) → pc_calc data n inv cdf x y zz = Some (pc_val data n inv cdf (qkey (x, y, zz))).
  Proof.
    intros Hq. unfold pc_calc. destruct (regular_statistic x y zz Hq) as (r & Hr & _ & ->). f_equal.
    destruct Hq as (Hne & Hx & Hy & Hnd & Hxz & Hyz & Hz). cbn [fst snd] in *. unfold pc_val, qkey. cbn [fst snd].
    assert (elements (list_to_set zz : nset) ≡ₚ zz) as Pz by (by apply elements_list_to_set).
    assert (∀ x' y', x' = x ∧ y' = y ∨ x' = y ∧ y' = x → Fin (two_sided cdf (R_sqrt.sqrt (INR (n - length zz - 3)) * fisher_z r)) = default Nan (pc_calc data n inv cdf x' y' (elements (list_to_set zz : nset)))) as H.
    { intros x' y' Hxy. assert (qvalid nv (x', y', (elements (list_to_set zz : nset)))) as Hq'.
      { unfold qvalid. cbn [fst snd]. rewrite !Pz. split_and!; [naive_solver..|]. intros z. rewrite Pz. auto. }
      destruct (regular_statistic x' y' _ Hq') as (r' & Hr' & _ & E'). unfold pc_calc. rewrite E'. cbn.
      assert (r = r') as ->; [|by rewrite Pz]. destruct Hxy as [[-> ->]|[-> ->]].
      - apply (partial_unique data n x y zz); [done|]. destruct Hr' as (e & f & He & Hf & ? & ? & ->). exists e, f. split_and!; [by eapply residual_perm..|done|done|done].
      - apply (partial_unique data n x y zz); [done|]. by eapply partial_sym. }
    assert (elements ({[x; y]} : nset) ≡ₚ [x; y]) as Pxy.
    { rewrite elements_union_singleton; [by rewrite elements_singleton|]. set_solver +Hne. }
    destruct (elements ({[x; y]} : nset)) as [|a [|b [|c l]]] eqn:El; try (apply Permutation_length in Pxy; cbn in Pxy; lia).
    apply H. assert (a ∈ [x; y]) as Ha by (rewrite <-Pxy; set_solver +). assert (b ∈ [x; y]) as Hb by (rewrite <-Pxy; set_solver +).
    assert (a ≠ b) by (pose proof (NoDup_elements ({[x; y]} : nset)) as Hd; rewrite El in Hd; apply NoDup_cons in Hd as [Hd _]; set_solver +Hd).
    rewrite elem_of_cons, elem_of_list_singleton in Ha, Hb. naive_solver.
  Qed.
  Lemma regular_test th log x y zz : qvalid nv (x, y, zz) → (∀ q, q ∈ log → qvalid nv q.1) →
    ∃ r, partial_correlation data n x y zz r ∧
      (parcorr_test data n nv inv cdf th log x y zz = true ↔ (th < two_sided cdf (R_sqrt.sqrt (INR (n - length zz - 3)) * fisher_z r))%R).
  Proof.
    intros Hq Hlog. destruct (regular_statistic x y zz Hq) as (r & Hr & _ & E0). exists r. split; [done|]. unfold parcorr_test.
    set (ops := (λ q : query * bool, Query q.1.1.1 q.1.1.2 q.1.2) <$> reverse log).
    assert (Forall (op_valid nv) (ops ++ [Query x y zz])) as Hops.
    { apply Forall_app. split; [|constructor; [exact Hq|constructor]]. apply Forall_forall. intros op Hop. unfold ops in Hop.
      apply elem_of_list_fmap in Hop as ([[[i j] c] b] & -> & Hin). cbn. apply elem_of_reverse, Hlog in Hin. done. }
    pose proof (stat_cached ngt (empty_graph (list_to_set (seq 0 nv))) nv (pc_val data n inv cdf) (λ _, pc_calc data n inv cdf) th _ Hops) as H.
    destruct (stat_run _ _ _ _) as [k| |]; [|by destruct H; intros; apply regular_val..]. cbn [returns] in H. destruct H as [-> _]; [intros; by apply regular_val|].
    assert (∀ l, (∀ op, op ∈ l → ∃ x y zz, op = Query x y zz) → memoryless ngt (empty_graph (list_to_set (seq 0 nv))) (pc_val data n inv cdf) th (l ++ [Query x y zz]) =
      memoryless ngt (empty_graph (list_to_set (seq 0 nv))) (pc_val data n inv cdf) th l ++ [ngt (pc_val data n inv cdf (qkey (x, y, zz))) th]) as He.
    { intros l Hl. induction l as [|op l IH].
      - cbn [app memoryless]. rewrite bool_decide_eq_false_2; [done|]. unfold adjacent, edge, empty_graph. cbn. set_solver +.
      - destruct (Hl op) as (x' & y' & zz' & ->); [by left|]. cbn [app memoryless]. f_equal. apply IH. intros op Hop. apply Hl. by right. }
    rewrite He. 2: { intros op Hop. unfold ops in Hop. apply elem_of_list_fmap in Hop as (q & -> & _). eauto. }
    rewrite last_snoc. cbn [default]. pose proof (regular_val x y zz Hq) as E. unfold pc_calc in E. rewrite E0 in E. injection E as <-.
    cbn [ngt]. destruct (Rlt_dec _ _); split; done.
  Qed.
  Lemma parcorr_refuses th a b : always_significant cdf th V data n a b → refuses (parcorr_test data n nv inv cdf th) V a b.
  Proof.
    intros H i j log c Hij Hp. destruct (proper_qvalid V nv i j c true log) as [Hq Hlog]; [intros v; apply HV|done|].
    destruct (regular_test th log i j c Hq Hlog) as (r & Hr & E). apply not_true_iff_false. rewrite E.
    destruct (Hp i j c true) as (_ & _ & _ & Hnd & Hz); [left|]. apply Rle_not_lt. destruct Hij as [[-> ->]|[-> ->]].
    - by apply H.
    - apply H; [done| |by eapply partial_sym]. intros z (? & ? & ?)%Hz. done.
  Qed.
  Lemma parcorr_accepts th a b : (∀ r, partial_correlation data n a b [] r → (th < two_sided cdf (R_sqrt.sqrt (INR (n - 3)) * fisher_z r))%R) →
    accepts (parcorr_test data n nv inv cdf th) V a b.
  Proof.
    intros H i j log Hij Hp. destruct (proper_qvalid V nv i j [] true log) as [Hq Hlog]; [intros v; apply HV|done|].
    destruct (regular_test th log i j [] Hq Hlog) as (r & Hr & E). rewrite E. cbn [length]. rewrite Nat.sub_0_r. apply H.
    destruct Hij as [[-> ->]|[-> ->]]; [done|by eapply partial_sym].
  Qed.
End regular.

(** ** OrderedICD on data *)
Lemma oicd_perfect o ci d V ord : iter_ok o → wf_graph d → acyclic d → V ⊆ gnodes d → (∀ m, mag_of d V m → perfect_for m ci) →
  NoDup ord → list_to_set ord = V → (∀ x y, before ord x y → ¬ ancestor d y x) →
  ∀ sb fuel, size V * size V + size V + 2 < fuel → ∀ (L : bool → Prop) mcs s loc, (∀ n, mcs = Some n → n + 2 ≤ size V) →
  o_reach o ci sb false fuel ord mcs V L s →
  returns (o_learn o ci sb false fuel ord mcs loc s) (λ t,
    (∀ a b, a ∈ V → b ∈ V → a ≠ b → inseparable d V a b → mg_adj (ls_graph (os_ls t)) a b) ∧
    ((∀ a b, mg_adj (ls_graph (os_ls t)) a b → inseparable d V a b) → sound_for_dag d V (ls_graph (os_ls t)))).
Proof.
  intros Ho Hwf Hac HV Hp Hnd Hord Hbef sb fuel Hf L mcs s loc Hm Hr.
  pose proof (mag_exists d V Hwf Hac HV) as M. pose proof (mo_nodes _ _ _ M) as N.
  assert (forward ord (mag d V)) as Hfw.
  { intros a b Hab (A1 & A2 & A3 & A4)%(mag_adj d Hwf V _ M). apply (mo_arrow _ _ _ M). split_and!; try done. by apply Hbef. }
  pose proof (C72_sound_partial o Ho ci (mag d V) (mag_ancestral d Hwf Hac V _ M) (Hp _ M) ord Hnd
    ltac:(by rewrite N) Hfw sb fuel ltac:(by rewrite N) L mcs s loc ltac:(by rewrite N) ltac:(by rewrite N)) as H.
  pose proof (C71_calls o Ho ci V ord Hnd Hord sb false fuel Hf mcs Hm L s loc Hr) as H0.
  eapply returns_mono; [exact (returns_and _ _ _ H H0)|]. cbn beta.
  intros t [[H1 Hs] [J _]]. split; [intros a b Ha Hb Hne Hi; apply H1, (mag_adj d Hwf V _ M); by split_and!|]. intros Hi. apply (sound_mag_dag d V (mag d V)); [done..|]. apply Hs.
  intros a b Hab. pose proof Hab as [k Hk]. apply (mgw_in _ (ju_wf _ _ _ _ _ J)) in Hk as (H3 & H4 & H5). rewrite (ju_nodes _ _ _ _ _ J) in *.
  apply (mag_adj d Hwf V _ M). split_and!; [done..|]. by apply Hi.
Qed.
