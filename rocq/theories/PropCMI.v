(** C76, C84, C85: the empirical conditional mutual information and the test that uses it. *)
From Coq Require Import QArith Qreals Reals Lra.
From Verif Require Import Base BaseLemmas ModelGraph Spec ModelData SpecData ModelPC ModelCI SpecCI ProofGraph3 ProofCI ProofCI2 ModelCMI SpecCMI ProofCMI.
Local Open Scope nat_scope.

(** ** C76 *)
Theorem C76_statistic : ∀ data nv x y zz, data ≠ [] → Forall (λ r, length r = nv) data → x < nv → y < nv → Forall (λ v, v < nv) zz →
  returns (cmi_statistic data nv x y zz) (λ v, v = emp_cmi (unweighted data) x y zz ∧ (0 <= v)%R ∧
    (v = 0%R ↔ emp_indep (unweighted data) x y zz)).
Proof. exact cmi_statistic_ok. Qed.
Print Assumptions C76_statistic.

Theorem C76_weighted : ∀ data ws nv x y zz, data ≠ [] → Forall (λ r, length r = nv) data → length ws = length data →
  Forall (λ w, 0 <= w)%Q ws → x < nv → y < nv → Forall (λ v, v < nv) zz →
  returns (cmi_statistic_w data ws nv x y zz) (λ v, v = emp_cmi (weighted data ws) x y zz ∧ (0 <= v)%R ∧
    (v = 0%R ↔ emp_indep (weighted data ws) x y zz)).
Proof. exact cmi_statistic_w_ok. Qed.
Print Assumptions C76_weighted.

(** the order of the pair and of the conditioning variables does not matter *)
Theorem C76_symmetric : ∀ data ws nv x y zz zz', data ≠ [] → Forall (λ r, length r = nv) data → weights_ok data ws →
  x < nv → y < nv → Forall (λ v, v < nv) zz → (∀ v, v ∈ zz ↔ v ∈ zz') →
  ∃ v, cmi_calc data ws nv x y zz = Some v ∧ cmi_calc data ws nv y x zz' = Some v.
Proof. exact cmi_calc_sym. Qed.
Print Assumptions C76_symmetric.

(** a fair coin and its copy: one bit, ln 2 *)
Example C76_copy : emp_cmi (unweighted [[0;0];[1;1]]) 0 1 [] = ln 2.
Proof.
  unfold emp_cmi, mass, proj, unweighted. simpl. rewrite !Rplus_0_l, !Rplus_0_r, !Rmult_1_l.
  replace ((1 + 1) / 1)%R with 2%R by field. field.
Qed.
(** the copy given a third variable equal to both: conditionally independent, statistic 0 *)
Example C76_given : emp_indep (unweighted [[0;0;0];[1;1;1]]) 0 1 [2] ∧ ¬ emp_indep (unweighted [[0;0;0];[1;1;1]]) 0 1 [].
Proof.
  split.
  - intros a b c. unfold mass, proj, unweighted. simpl. repeat (destruct (decide _); try congruence; simpl); try lra; exfalso; repeat match goal with E : _ :: _ = _ |- _ => injection E as E; subst end; done.
  - intros H. specialize (H 0 0 []). unfold mass, proj, unweighted in H. simpl in H. repeat (destruct (decide _) in H; try done; simpl in H). lra.
Qed.
Example C76_case : ([[0;0;0];[1;1;1]] : list (list nat)) ≠ [] ∧ Forall (λ r, length r = 3) [[0;0;0];[1;1;1]] ∧ Forall (λ v, v < 3) [2] ∧
  (length [1#2; 3#1]%Q = 2 ∧ Forall (λ w, 0 <= w)%Q [1#2; 3#1]).
Proof. split_and!; [done|repeat constructor|repeat constructor|done|]. repeat constructor; unfold Qle; simpl; lia. Qed.

(** ** C84: are weights relative?  The sum is divided by the number of records, not by the total weight. *)
Theorem C84_scaling_refuted : ∃ data ws (c : Q) nv x y zz, data ≠ [] ∧ Forall (λ r, length r = nv) data ∧ length ws = length data ∧
  Forall (λ w, 0 <= w)%Q ws ∧ (0 < c)%Q ∧ x < nv ∧ y < nv ∧ Forall (λ v, v < nv) zz ∧
  cmi_calc data (Some ((λ w, c * w)%Q <$> ws)) nv x y zz ≠ cmi_calc data (Some ws) nv x y zz.
Proof. exact scaling_refuted. Qed.
Print Assumptions C84_scaling_refuted.

Theorem C84_scaling_partial : ∀ data ws (c : Q) nv x y zz, data ≠ [] → Forall (λ r, length r = nv) data → weights_ok data (Some ws) →
  (0 < c)%Q → x < nv → y < nv → Forall (λ v, v < nv) zz →
  ∃ v, cmi_calc data (Some ws) nv x y zz = Some v ∧ cmi_calc data (Some ((λ w, c * w)%Q <$> ws)) nv x y zz = Some (Q2R c * v)%R.
Proof. exact cmi_scaled. Qed.
Print Assumptions C84_scaling_partial.

(** integral weights act as repeated records, up to the ratio of the total weight and the number of records *)
Theorem C84_repetition_partial : ∀ data ks nv x y zz, Forall (λ r, length r = nv) data → length ks = length data → 0 < sum_list ks →
  x < nv → y < nv → Forall (λ v, v < nv) zz →
  ∃ v w, cmi_calc data (Some (Qnat <$> ks)) nv x y zz = Some v ∧ cmi_calc (repeated data ks) None nv x y zz = Some w ∧
    (v * INR (length data) = w * INR (sum_list ks))%R.
Proof. exact cmi_repeated. Qed.
Print Assumptions C84_repetition_partial.

Theorem C84_unit_weights : ∀ data nv x y zz, data ≠ [] → Forall (λ r, length r = nv) data → x < nv → y < nv → Forall (λ v, v < nv) zz →
  ∃ v, cmi_calc data (Some (replicate (length data) 1%Q)) nv x y zz = Some v ∧ cmi_calc data None nv x y zz = Some v.
Proof. exact cmi_unit. Qed.
Print Assumptions C84_unit_weights.
Example C84_case : repeated [[0;0];[1;1]] [2;1] = [[0;0];[0;0];[1;1]].
Proof. done. Qed.

(** ** C85: answers of CondIndepCMI over any history of queries and threshold changes, cache on: a pair is reported
    independent iff the empirical conditional mutual information does not exceed the threshold in force (or the edge
    is retained, C36), and the statistic is computed once per unordered query *)
Theorem C85_decisions : ∀ data ws nv retained th ops, data ≠ [] → Forall (λ r, length r = nv) data → weights_ok data ws →
  Forall (op_valid nv) ops →
  returns (stat_run (λ _, cmi_cond_indep rgt retained true (cmi_calc data ws nv)) 0 ops (StatState (ci_new nv true true) th)) (λ r,
    Forall2 (λ (b : bool) P, b = true ↔ P) r.1 (expected (λ t x y zz, adjacent retained x y ∨ (emp_cmi (records data ws) x y zz <= t)%R) th ops) ∧
    ∃ l, cs_count (ss_ci r.2) = Some l ∧ counts nv (op_queries retained ops) l).
Proof. exact cmi_decisions. Qed.
Print Assumptions C85_decisions.

(** with threshold 0 and no retained edges the test decides empirical conditional independence *)
Theorem C85_zero_threshold : ∀ data ws nv x y zz s, data ≠ [] → Forall (λ r, length r = nv) data → weights_ok data ws →
  qvalid nv (x, y, zz) → cs_cache s = None → cs_count s = None →
  returns (cmi_cond_indep rgt (mk_graph (seq 0 nv) []) false (cmi_calc data ws nv) x y zz (StatState s 0%R)) (λ r,
    r.1 = true ↔ emp_indep (records data ws) x y zz).
Proof. exact cmi_zero_threshold. Qed.
Print Assumptions C85_zero_threshold.

Definition e85 : list (list nat) := [[0;0;0];[1;1;1]].
Definition ops85 : list (stat_op R) := [Query 0 1 []; SetThreshold 1%R; Query 1 0 []; Query 0 1 [2]].
Example C85_case : Forall (op_valid 3) ops85 ∧ qvalid 3 (0, 1, [2]) ∧
  expected (λ t x y zz, (emp_cmi (unweighted e85) x y zz <= t)%R) 0%R ops85 =
  [(emp_cmi (unweighted e85) 0 1 [] <= 0)%R; (emp_cmi (unweighted e85) 1 0 [] <= 1)%R;
   (emp_cmi (unweighted e85) 0 1 [2%nat] <= 1)%R].
Proof.
  split; [|split; [|done]].
  - assert (Forall (qvalid 3) [(0, 1, []); (1, 0, []); (0, 1, [2])]) as H by (apply qvalid_check; by vm_compute).
    rewrite !Forall_cons in H. destruct H as (H1 & H2 & H3 & _). by repeat (apply Forall_cons; split).
  - assert (Forall (qvalid 3) [(0, 1, [2])]) as H by (apply qvalid_check; by vm_compute). by inversion H.
Qed.
