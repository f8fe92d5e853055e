(** Property C81, what holds of it: why a pair of nodes is not adjacent in a graph of B-RAI.
    Arguments as in PropBRAI.v. *)
From Coq Require Import QArith.
From Verif Require Import Base BaseLemmas ModelGraph Spec ModelMixed SpecMixed ModelPC SpecPC ModelRAI ModelBRAI SpecBRAI SpecBRAI3
  ProofGraph ProofGraph3 ProofBRAI ProofBRAI3 PropBRAI.
Local Open Scope nat_scope.

(** for the learned graph g and for every sample h of the tree: the graph is made of the leaves l of a selection, and a pair that is
    not adjacent was found independent, or both leaves in which one of the two nodes is endogenous have the edge and do not hand it on *)
Theorem C81_brai_missing_partial : ∀ o ci ow lf V bdeu K (pick : nat → list score → nat),
  iter_ok o → size V * size V + 1 < lf → 0 < K → (∀ n l, l ≠ [] → pick n l < length l) →
  returns (brai_learn o ci ow lf V true false bdeu K pick) (λ '(t, s, g),
    let explained h := ∃ l, picks t l ∧ (∃ p, union_of V l p ∧ pd_same_skeleton p h) ∧
      ∀ a b, a ∈ V → b ∈ V → a ≠ b → ¬ pd_adj h a b →
        (∃ S, tested (pc_log s) a b S true) ∨ ∃ x y, x ∈ l ∧ y ∈ l ∧ not_copied x a b ∧ not_copied y b a in
    explained g ∧
    ∀ temp n, (0 <= temp)%Q → returns (sample_cpdag o lf V pick temp t n) (λ '(h, _, _), explained h)).
Proof.
  intros o ci ow lf V bdeu K pick Ho Hlf HK Hp.
  eapply returns_mono; [exact (returns_and _ _ _ (brai_learn_spec o Ho lf V pick Hlf Hp ci ow bdeu K HK)
    (brai_learn_cov o Ho ci ow lf V Hlf pick bdeu K HK Hp))|]. cbn beta.
  intros [[t s] g] [(Ht & p & sc & Hok) Hc]. cbn zeta. split; [by eapply sample_missing|].
  intros temp n Htemp. destruct (sample_steps o Ho lf V pick Hlf Hp temp t n Ht Htemp) as (p' & h & sc' & n' & _ & _ & E & Hok').
  rewrite E. cbn [returns]. by eapply sample_missing.
Qed.
Print Assumptions C81_brai_missing_partial.

(** every node is endogenous in a leaf of every selection *)
Theorem C81_brai_endogenous : ∀ o ci ow lf V bdeu K (pick : nat → list score → nat),
  iter_ok o → size V * size V + 1 < lf → 0 < K → (∀ n l, l ≠ [] → pick n l < length l) →
  returns (brai_learn o ci ow lf V true false bdeu K pick) (λ '(t, s, g), ∀ l v, picks t l → v ∈ V → ∃ x, x ∈ l ∧ v ∈ x.1.1.1).
Proof.
  intros o ci ow lf V bdeu K pick Ho Hlf HK Hp. eapply returns_mono; [by apply (brai_learn_cov o Ho ci ow lf V Hlf pick bdeu K HK Hp)|].
  cbn beta. intros [[t s] g] Hc l v Hl Hv. by apply (tree_cov_leaves _ _ _ _ _ _ Hc Hl).
Qed.
Print Assumptions C81_brai_endogenous.

(** the run of C81_brai_missing_refuted: 0 and 4 were found independent; 1 and 3 were not, and the leaves of both keep the edge *)
Definition leaves_of : nat → ggt → list leaf := fix go f t :=
  match f with
  | 0 => []
  | S f => match t with
           | GLeaf en ex g sc => [(en, ex, g, sc)]
           | GNode _ _ cs => concat (List.map (λ c : list ggt * ggt, concat (List.map (go f) c.1) ++ go f c.2) cs)
           end
  end.
Global Instance not_copied_decision x a b : Decision (not_copied x a b).
Proof. destruct x as [[[en ex] g] sc]. unfold not_copied, darrow, has_mark. apply _. Defined.
Example C81_case :
  returns (brai_learn ord_sorted ci5 true 40 {[0;1;2;3;4]} true false (λ _ _, 0%Q) 1 (λ _ _, 0)) (λ '(t, s, g),
    bool_decide (¬ pd_adj g 0 4 ∧ ¬ pd_adj g 1 3) &&
    bool_decide ((0, 4, [], true) ∈ pc_log s) &&
    existsb (λ x, bool_decide (not_copied x 1 3)) (leaves_of 10 t) && existsb (λ x, bool_decide (not_copied x 3 1)) (leaves_of 10 t) = true).
Proof. by vm_compute. Qed.
