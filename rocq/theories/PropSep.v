(** Property C33: separation-set containers.  Programs are sequences of operations on any number of
    SeparationSet objects; see SpecSep.v for the specification (partial functions on unordered pairs). *)
From Verif Require Import Base BaseLemmas ModelPC ModelSep SpecSep ProofSep.

(** ** C33 *)
Theorem C33_sepset_refines : ∀ o ops, iter_ok o → scoped 0 ops →
  ∃ r, sc_run ops [] r ∧
    match r with
    | Some ls => returns (run_sops o ops) (λ w, length w.2 = length ls ∧ ∀ c t i j, ls !! c = Some t →
        read_sop w c i j = match sc_map t {[i; j]} with Some Z => Ok Z | None => Raise KeyError end)
    | None => run_sops o ops = Raise KeyError
    end.
Proof. exact sepset_refines. Qed.
Print Assumptions C33_sepset_refines.

(** a copy is taken, then the original is mutated in place and the copy is overwritten *)
Definition C33_prog : list sop :=
  [SNew {[0;1;2]}; SSet 0 2 1 [0]; SCopy 0 None; SAdd 0 1 2 7; SSet 1 0 1 [2]; SCopy 1 (Some {[1;2]}); SErase 1;
   SCopyFrom 0 2 {[1;2]}].
Example C33_case : scoped 0 C33_prog ∧
  returns (run_sops ord_up (take 4 C33_prog)) (λ w, bool_decide (read_sop w 0 2 1 = Ok {[0;7]}) ∧ bool_decide (read_sop w 1 1 2 = Ok {[0]})) ∧
  returns (run_sops ord_up C33_prog) (λ w, bool_decide (read_sop w 0 2 1 = Ok {[0]}) ∧ bool_decide (read_sop w 1 0 1 = Ok ∅) ∧
    bool_decide (read_sop w 2 0 1 = Raise KeyError)).
Proof. split_and!; [cbn; lia|by vm_compute|by vm_compute]. Qed.
(** and one that ends in KeyError: the copy has no entry for (0, 1) *)
Example C33_case_error : scoped 0 (C33_prog ++ [SCopyTo 2 0 (Some {[0;1]})]) ∧
  run_sops ord_up (C33_prog ++ [SCopyTo 2 0 (Some {[0;1]})]) = Raise KeyError.
Proof. split; [cbn; lia|by vm_compute]. Qed.
