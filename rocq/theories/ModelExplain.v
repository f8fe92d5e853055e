(** Model of experiment_utils/explanation.py and of CLEANN.explain (causal_reasoning/cleann_explainer.py).
    The user-defined test [is_explanation] is a function [expl] of the list of tokens it is given. *)
From Verif Require Import Base ModelGraph ModelMixed ModelPAG ModelPDS ModelPC ModelFCI.

(** explanation.py 4-31 *)
Definition exhaustive_search (tokens : list nat) (target : nat) (expl : list nat → bool) (minimal : bool) : res (list (list nat)) :=
  s ← for_brk (seq 1 (length tokens - 1)) (λ k s,
    s ← for_ (combs k tokens) (λ c s,
      if decide (target ∈ c) then Ok s else
      if expl c then Ok (s.1 ++ [c], true) else Ok s) s;
    Ok (s, minimal && s.2)) ([], false);
  Ok s.1.

(** cleann_explainer.py 77-97: the search in the tree; an entry is a set with its distance ([None] = math.inf); without a tester
    the second component is max_size (85) *)
Definition explain_search (o : order) (tX : ptree * nset) (max_set_size : option nat) (tester : option (list nat → bool)) (minimal : bool) :
    res (list (nset * option nat)) :=
  let max_size := default (size tX.2) max_set_size in
  match tester with
  | None => Ok (if decide (size tX.2 ≤ max_size) then [(tX.2, Some max_size)] else [])
  | Some expl =>
    s ← for_brk (seq 1 max_size) (λ k s,
      s ← for_ (sort_by_dist (get_subsets_list o tX.1 tX.2 k)) (λ c s,
        if expl (o 92 c.1) then Ok (s.1 ++ [c], true) else Ok s) s;
      Ok (s, s.2 && minimal)) ([], false);
    Ok s.1
  end.

(** cleann_explainer.py 69-100 with self.graph = g; the result of [explain] *)
Definition explain (o : order) (fuel : nat) (g : mgraph) (target : node) (max_set_size max_range : option nat)
    (tester : option (list nat → bool)) (minimal : bool) : res (list (nset * option nat)) :=
  tX ← create_pds_tree o fuel g target None max_range;
  explain_search o tX max_set_size tester minimal.

(** the dictionary stored for a target (72-75, 98) *)
Record eresult := EResult { er_tree : ptree; er_set : nset; er_depth : nat; er_expl : list (nset * option nat) }.
Definition explain_results (o : order) (fuel : nat) (g : mgraph) (target : node) (max_set_size max_range : option nat)
    (tester : option (list nat → bool)) (minimal : bool) : res eresult :=
  tX ← create_pds_tree o fuel g target None max_range;
  r ← explain_search o tX max_set_size tester minimal;
  Ok (EResult tX.1 tX.2 (get_max_depth tX.1) r).

(** a CLEANN object: self.graph (40), self.results (43), and the number of times learn_graph was called *)
Record cstate := CState { cl_graph : option mgraph; cl_learns : nat; cl_results : gmap node eresult }.
Definition cleann_init : cstate := CState None 0 ∅.
(** the arguments of a call of explain *)
Record ecall := ECall { ec_target : node; ec_size : option nat; ec_range : option nat }.

Section calls.
Context (o : order) (fuel : nat).
(** learn_graph (47-50): [learn k] is the outcome of its k-th call *)
Context (learn : nat → res mgraph).
(** self.is_explanation (44), given the tokens and the target; self._search_minimal (45) *)
Context (tester : option (list nat → node → bool)) (minimal : bool).
Definition call_results (g : mgraph) (c : ecall) : res eresult :=
  explain_results o fuel g (ec_target c) (ec_size c) (ec_range c) ((λ f l, f l (ec_target c)) <$> tester) minimal.

(** explain (52-100): the new state and the answer *)
Definition cleann_call (st : cstate) (c : ecall) : cstate * res (list (nset * option nat)) :=
  let learned := match cl_graph st with Some g => (Ok g, cl_learns st) | None => (learn (cl_learns st), S (cl_learns st)) end in
  match learned.1 with
  | Ok g =>
    match call_results g c with
    | Ok r => (CState (Some g) learned.2 (<[ec_target c := r]> (cl_results st)), Ok (er_expl r))
    | Raise e => (CState (Some g) learned.2 (cl_results st), Raise e)
    | Diverges => (CState (Some g) learned.2 (cl_results st), Diverges)
    end
  | Raise e => (CState None learned.2 (cl_results st), Raise e)
  | Diverges => (CState None learned.2 (cl_results st), Diverges)
  end.
Fixpoint cleann_calls (st : cstate) (cs : list ecall) : cstate * list (res (list (nset * option nat))) :=
  match cs with
  | [] => (st, [])
  | c :: cs => let r := cleann_call st c in let rs := cleann_calls r.1 cs in (rs.1, r.2 :: rs.2)
  end.
End calls.
