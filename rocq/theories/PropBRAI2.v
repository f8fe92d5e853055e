(** Properties C108 and C109: the separation sets of B-RAI, and sampling after is_scored has been switched off.
    Arguments as in PropBRAI.v; [choice n c]: the n-th random choice among c hypotheses, any index in range. *)
From Coq Require Import QArith.
From Verif Require Import Base BaseLemmas ModelGraph Spec ModelMixed SpecMixed ModelPC SpecPC ModelRAI ModelBRAI SpecBRAI ModelBRAI2 SpecBRAI2
  ProofGraph ProofGraph3 ProofBRAI ProofBRAI2.
Local Open Scope nat_scope.

(** ** C108 *)
(** every pair has a recorded set: the initial empty set or one given which the test answered independent; the sets are those
    stored in the last leaf of the selected hypotheses, whose edges make up the graph *)
Theorem C108_sets_partial : ∀ o ci ow lf V bdeu K (pick : nat → list score → nat),
  iter_ok o → size V * size V + 1 < lf → 0 < K → (∀ n l, l ≠ [] → pick n l < length l) →
  returns (brai_learn_s o ci ow lf V true false bdeu K pick) (λ '(t, log, g, m),
    (∀ a b, a ∈ V → b ∈ V → a ≠ b → ∃ S, sep_get m a b = Ok S ∧ (S = ∅ ∨ tested log a b S true)) ∧
    mnodes g = V ∧ pd_wf g ∧ (∀ a b, ¬ (darrow g a b ∧ darrow g b a)) ∧ no_rule_applies g [1;2;3] V ∧
    ∃ p l, spicks t l ∧ sets_of_last V l m ∧ union_of V l.*1 p ∧ pd_same_skeleton p g ∧
      ∀ l', spicks t l' → score_le (total l'.*1) (total l.*1)).
Proof.
  intros o ci ow lf V bdeu K pick Ho Hlf HK Hp.
  eapply returns_mono; [by apply (brai_learn_s_spec o Ho lf V pick Hlf Hp ci ow bdeu K HK)|]. cbn beta.
  intros [[[t log] g] m] (_ & _ & Hm & l & (H1 & H2 & H3 & H4 & _ & H6 & H7 & p & I1 & I2 & I3 & I4) & Hmax).
  split; [exact Hm|]. split_and!; [done..|]. exists p, l. by split_and!.
Qed.
Print Assumptions C108_sets_partial.

(** the same for every later sample; the graph and the score are those of the model without separation sets *)
Theorem C108_samples_partial : ∀ o ci ow lf V bdeu K (pick : nat → list score → nat) temp n,
  iter_ok o → size V * size V + 1 < lf → 0 < K → (∀ n l, l ≠ [] → pick n l < length l) → (0 <= temp)%Q →
  returns (brai_learn_s o ci ow lf V true false bdeu K pick) (λ '(t, log, _, m),
  returns (sample_cpdag_s o lf V pick temp t m n) (λ '(g, m', sc, n'),
    (∀ a b, a ∈ V → b ∈ V → a ≠ b → ∃ S, sep_get m' a b = Ok S ∧ (S = ∅ ∨ tested log a b S true)) ∧
    sample_cpdag o lf V pick temp (forget t) n = Ok (g, sc, n') ∧
    ∃ p l, spicks t l ∧ sets_of_last V l m' ∧ union_of V l.*1 p ∧ pd_same_skeleton p g ∧ score_eq sc (total l.*1))).
Proof.
  intros o ci ow lf V bdeu K pick temp n Ho Hlf HK Hp Htemp.
  eapply returns_mono; [by apply (brai_learn_s_spec o Ho lf V pick Hlf Hp ci ow bdeu K HK)|]. cbn beta.
  intros [[[t log] g] m] (Ht & Hs & Hm & _).
  eapply returns_mono; [by apply (sample_s_spec o Ho lf V pick Hlf Hp temp log t m n Ht Hs Hm Htemp)|]. cbn beta.
  intros [[[g' m'] sc] n'] (E & l & (H1 & H2 & H3 & H4 & H5 & H6 & H7 & p & I1 & I2 & I3 & I4) & Hsc & _).
  split; [exact H5|]. split; [done|]. exists p, l. by split_and!.
Qed.
Print Assumptions C108_samples_partial.

(** 0 and 2 are independent given 1 the first time this is asked, 4 and each of 0, 1, 2 are independent, everything else is
    dependent *)
Definition ci6 : citest := λ log a b c,
  match c with
  | [] => bool_decide (a = 4 ∧ b ∈ [0;1;2]) || bool_decide (b = 4 ∧ a ∈ [0;1;2])
  | [1] => bool_decide (hkey a b = (0, 2)) && forallb (λ '(a', b', c', r), negb (bool_decide (hkey a' b' = (0, 2) ∧ c' = [1]))) log
  | _ => false
  end.

(** one hypothesis: the set of 0 and 2 is {1} *)
Example C108_case : returns (brai_learn_s ord_sorted ci6 true 40 {[0;1;2;3;4]} true false (λ _ _, 0%Q) 1 (λ _ _, 0)) (λ '(t, log, g, m),
  bool_decide (sep_get m 0 2 = Ok {[1]}) && bool_decide (sep_get m 0 4 = Ok ∅) && negb (bool_decide (pd_adj g 0 2)) = true).
Proof. by vm_compute. Qed.

(** two hypotheses: the learned graph has no edge between a and b, the recorded set is empty although the test always
    answered dependent for a and b given the empty set *)
Theorem C108_separating_refuted : ∃ o ci ow lf V bdeu pick, iter_ok o ∧ size V * size V + 1 < lf ∧
  (∀ n l, l ≠ [] → pick n l < length l) ∧
  returns (brai_learn_s o ci ow lf V true false bdeu 2 pick) (λ '(t, log, g, m),
    ∃ a b S, a ∈ V ∧ b ∈ V ∧ a ≠ b ∧ ¬ pd_adj g a b ∧ sep_get m a b = Ok S ∧ tested log a b S false ∧ ¬ tested log a b S true).
Proof.
  exists ord_sorted, ci6, true, 40, {[0;1;2;3;4]}, (λ _ _, 0%Q), (λ _ _, 0).
  split_and!; [exact ord_sorted_ok|vm_compute; lia|by intros n [|x l]; [|simpl; lia]|].
  assert (returns (brai_learn_s ord_sorted ci6 true 40 {[0;1;2;3;4]} true false (λ _ _, 0%Q) 2 (λ _ _, 0)) (λ '(t, log, g, m),
    negb (bool_decide (pd_adj g 0 2)) && bool_decide (sep_get m 0 2 = Ok ∅) && bool_decide ((0, 2, [], false) ∈ log) &&
    forallb (λ '(a, b, c, r), negb (r && bool_decide (hkey a b = (0, 2) ∧ c = []))) log = true)) as H by by vm_compute.
  eapply returns_mono; [exact H|]. clear H. cbn beta. intros [[[t log] g] m] Hs.
  rewrite !andb_true_iff, negb_true_iff, !bool_decide_eq_true, bool_decide_eq_false in Hs. destruct Hs as [[[H1 H2] H3] H4].
  rewrite forallb_forall in H4. exists 0, 2, ∅. split_and!; [by apply (bool_decide_unpack _)..|done|done|done| |].
  - exists []. split; [intros z; rewrite elem_of_nil; set_solver +|by left].
  - intros (c & Hc & Hin). assert (c = []) as ->.
    { destruct c as [|z c]; [done|]. exfalso. apply (not_elem_of_empty (C := nset) z), Hc. left. }
    destruct Hin as [Hin|Hin]; apply elem_of_list_In, H4 in Hin; by vm_compute in Hin.
Qed.
Print Assumptions C108_separating_refuted.

(** ** C109 *)
Theorem C109_unscored_sample : ∀ o ci ow lf V bdeu K (pick : nat → list score → nat) (choice : nat → nat → nat) n,
  iter_ok o → size V * size V + 1 < lf → 0 < K → (∀ n l, l ≠ [] → pick n l < length l) → (∀ n c, 0 < c → choice n c < c) →
  returns (brai_learn_s o ci ow lf V true false bdeu K pick) (λ '(t, log, _, m),
  returns (sample_cpdag_u o lf V choice t m n) (λ '(g, m', _),
    mnodes g = V ∧ pd_wf g ∧ (∀ a b, ¬ (darrow g a b ∧ darrow g b a)) ∧ no_rule_applies g [1;2;3] V ∧
    (∀ a b, a ∈ V → b ∈ V → a ≠ b → ∃ S, sep_get m' a b = Ok S ∧ (S = ∅ ∨ tested log a b S true)) ∧
    ∃ p l, spicks t l ∧ sets_of_last V l m' ∧ union_of V l.*1 p ∧ pd_wf p ∧ pd_same_skeleton p g ∧
      ∀ a b c, darrow p a c → darrow p b c → a ≠ b → ¬ pd_adj p a b → darrow g a c)).
Proof.
  intros o ci ow lf V bdeu K pick choice n Ho Hlf HK Hp Hc.
  eapply returns_mono; [by apply (brai_learn_s_spec o Ho lf V pick Hlf Hp ci ow bdeu K HK)|]. cbn beta.
  intros [[[t log] g0] m] (Ht & Hs & Hm & _).
  eapply returns_mono; [by apply (sample_u_spec o Ho lf V Hlf choice log t m n Hc Ht Hs Hm)|]. cbn beta.
  intros [[g m'] n'] (l & H1 & H2 & H3 & H4 & H5 & H6 & H7 & p & I1 & I2 & I3 & I4).
  split_and!; [done..|]. exists p, l. split_and!; [done..|]. intros a b c Ha Hb Hne Hn. apply I4. split; [done|]. by exists b.
Qed.
Print Assumptions C109_unscored_sample.

(** every selection of hypotheses of the learned tree can be drawn: some choices, each in range, lead to it *)
Theorem C109_every_selection : ∀ o ci ow lf V bdeu K (pick : nat → list score → nat) n,
  iter_ok o → size V * size V + 1 < lf → 0 < K → (∀ n l, l ≠ [] → pick n l < length l) →
  returns (brai_learn_s o ci ow lf V true false bdeu K pick) (λ '(t, log, _, m),
  ∀ l, spicks t l → ∃ choice : nat → nat → nat, (∀ n c, 0 < c → choice n c < c) ∧
  returns (sample_cpdag_u o lf V choice t m n) (λ '(g, m', _), sets_of_last V l m' ∧
    ∃ p, union_of V l.*1 p ∧ pd_same_skeleton p g ∧ ∀ a b c, darrow p a c → darrow p b c → a ≠ b → ¬ pd_adj p a b → darrow g a c)).
Proof.
  intros o ci ow lf V bdeu K pick n Ho Hlf HK Hp.
  eapply returns_mono; [by apply (brai_learn_s_spec o Ho lf V pick Hlf Hp ci ow bdeu K HK)|]. cbn beta.
  intros [[[t log] g0] m] (Ht & Hs & Hm & _) l Hl.
  destruct (sample_u_every o lf V bdeu log t m n l Ho Hlf Ht Hs Hm Hl) as (choice & Hc & H). exists choice. split; [exact Hc|].
  eapply returns_mono; [exact H|]. cbn beta. intros [[g m'] n'] (H1 & p & I1 & I2 & I3 & I4).
  split; [done|]. exists p. split_and!; [done..|]. intros a b c Ha Hb Hne Hn. apply I4. split; [done|]. by exists b.
Qed.
Print Assumptions C109_every_selection.

(** every hypothesis can be drawn: choosing the last one where the scored learner takes the first gives the edge of 0 and 2 *)
Example C109_case : returns (brai_learn_s ord_sorted ci6 true 40 {[0;1;2;3;4]} true false (λ _ _, 0%Q) 2 (λ _ _, 0)) (λ '(t, log, g, m),
  returns (sample_cpdag_u ord_sorted 40 {[0;1;2;3;4]} (λ _ c, c - 1) t m 0) (λ '(g', _, n), bool_decide (pd_adj g' 0 2) && negb (bool_decide (pd_adj g 0 2)) = true)).
Proof. by vm_compute. Qed.
