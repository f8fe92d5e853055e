(** A Possible-D-Sep node that is missed, depending on the iteration order. *)
From Verif Require Import Base BaseLemmas ModelGraph Spec Paths ModelMixed SpecMixed ModelPAG ModelPDS SpecPDS ProofMixed ProofMixed2 ProofPDS ProofPDS3 ProofPDS4 ProofPDS5.

(** 0 o-o 1, 0 o-o 2, 2 o-> 1 <-o 3 *)
Definition gP : mgraph := mk_mg [0;1;2;3] (pag_ 0 Circle Circle 1 ++ pag_ 0 Circle Circle 2 ++ pag_ 2 Circle Directed 1 ++ pag_ 3 Circle Directed 1).
Lemma gP_wf : mg_wf gP.
Proof. apply mk_mg_wf. by vm_compute. Qed.
Lemma gP_mark a k b : bool_decide ((a, k, b) ∈ pag_ 0 Circle Circle 1 ++ pag_ 0 Circle Circle 2 ++ pag_ 2 Circle Directed 1 ++ pag_ 3 Circle Directed 1) = true → has_mark gP a k b.
Proof. intros H. apply mk_mg_mark. by apply bool_decide_eq_true in H. Qed.
Lemma gP_pds : possible_d_sep gP 0 3.
Proof.
  assert (mg_adj gP 0 2) as H02 by (exists Circle; by apply gP_mark; vm_compute).
  assert (mg_adj gP 2 1) as H21 by (exists Directed; by apply gP_mark; vm_compute).
  assert (mg_adj gP 1 3) as H13 by (exists Circle; by apply gP_mark; vm_compute).
  assert (mg_adj gP 0 1) as H01 by (exists Circle; by apply gP_mark; vm_compute).
  assert (pds_triple gP 0 2 1) as T1 by (split_and!; [done..|by left]).
  assert (pds_triple gP 2 1 3) as T2 by (split_and!; [done..|right; split; by apply gP_mark; vm_compute]).
  assert (pds_walk gP [0;2;1;3]) as Hw by (apply (pds_walk_snoc gP [0] 2 1 3); [apply (pds_walk_snoc gP [] 0 2 1)|]; [by apply pds_walk_two|done..]).
  split; [done|]. exists [0;2;1;3]. split; [|done]. split_and!; [done..| |apply Hw]. apply (bool_decide_unpack _). by vm_compute.
Qed.

Lemma pds_incomplete : ∃ g r v o1 o2, mg_wf g ∧ iter_ok o1 ∧ iter_ok o2 ∧ possible_d_sep g r v ∧
  (∃ fuel, returns (create_pds_tree o1 fuel g r None None) (λ r, v ∈ r.2) ∧ returns (create_pds_tree o2 fuel g r None None) (λ r, v ∉ r.2)) ∧
  (∃ fuel, returns (create_pds_set o1 fuel g r) (λ X, v ∈ X) ∧ returns (create_pds_set o2 fuel g r) (λ X, v ∉ X)).
Proof.
  exists gP, 0, 3, ord_down, ord_up. split; [apply gP_wf|]. split; [apply ord_down_ok|]. split; [apply ord_up_ok|]. split; [apply gP_pds|].
  assert (∀ (A : Type) (m : res A) (P : A → Prop) `{∀ x, Decision (P x)}, match m with Ok x => bool_decide (P x) | _ => false end = true → returns m P) as Hc.
  { intros A [x| |] P D; cbn; try done. by intros ?%bool_decide_eq_true. }
  split; exists 30; split; apply (Hc _ _ _ _); by vm_compute.
Qed.
