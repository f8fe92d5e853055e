(** Model of PDAG.is_reachable_any_undirected (graphical_models/partially_dag.py 115-140); the other queries of the two
    classes are in ModelMixed.v and ModelPAG.v. *)
From Verif Require Import Base ModelGraph ModelMixed.

(** 115-140; [en] is en_nodes (nodes_set when the argument is left out, 124-125) *)
Fixpoint is_reachable_any_undirected (o : order) (fuel : nat) (g : mgraph) (s : node) (T en : nset) : res bool :=
  match fuel with
  | 0 => Diverges
  | S fuel =>
    if existsb (λ n, bool_decide (n ∈ T)) (o 128 (und g s)) then Ok true else
    (fix loop (l : list node) (past : nset) : res bool :=
       match l with
       | [] => Ok false
       | n :: l =>
         let past := past ∪ {[n]} in
         b ← is_reachable_any_undirected o fuel g n T (en ∖ past);
         if (b : bool) then Ok true else loop l past
       end) (o 134 (und g s ∩ en)) {[s]}
  end.
