(** Model of score_bdeu and score_family_dirichlet (causal_discovery_utils/performance_measures.py 100-150) and of
    experiment_utils/threshold_select_ci_test.py, over exact real numbers.  scipy's gammaln is a parameter.  A score is
    [Some] number or [None] for minus infinity.  The answer minus infinity after a MemoryError (124-125) is not modelled. *)
From Coq Require Import QArith Reals.
From Verif Require Import Base ModelGraph ModelMixed ModelData ModelCMI.
Local Open Scope nat_scope.

Section bdeu.
Variable o : order.
Variable gammaln : R → R.

(** 136-150: [counts] and [prior] are q × r matrices *)
Definition score_family_dirichlet (q r : nat) (counts prior : nat → nat → R) : R :=
  rsum (λ i,
    let lu := rsum (λ j, gammaln (prior i j + counts i j) - gammaln (prior i j)) (seq 0 r) in
    let alpha := rsum (prior i) (seq 0 r) in
    let n := rsum (counts i) (seq 0 r) in
    lu + (gammaln alpha - gammaln (alpha + n)))%R (seq 0 q).

(** 119-131, one node.  126: a reshape that does not fit raises ValueError *)
Definition score_node (g : graph) (data : list (list nat)) (node_size : list nat) (n : node) : res R :=
  if decide (n ∈ gnodes g) then
    let family := o 120 (parents g n) ++ [n] in
    vs ← sizes node_size family;
    h ← calc_stats (columns data family) vs;
    let r := List.last vs 0 in
    if decide (r ≠ 0 ∧ length h mod r = 0) then
      let q := length h / r in
      let total := rsum (λ _, 1%R) (seq 0 (q * r)) in
      Ok (score_family_dirichlet q r (λ i j, INR (default 0 (h !! (i + q * j)))) (λ _ _, (1 / total)%R))
    else Raise ValueError
  else Raise KeyError.

(** 100-133 *)
Definition score_bdeu (dag : option graph) (data : list (list nat)) (node_size : list nat) (en : option nset) : res (option R) :=
  match dag with
  | None => Ok None
  | Some g =>
    s ← for_ (o 118 (default (gnodes g) en)) (λ n score, v ← score_node g data node_size n; Ok (score + v)%R) 0%R;
    Ok (Some s)
  end.

(** [a >= b] for scores *)
Definition score_ge (a b : option R) : bool :=
  match a, b with
  | _, None => true
  | None, Some _ => false
  | Some a, Some b => if Rle_dec b a then true else false
  end.

(** threshold_select_ci_test.py 16-37: [learn th s] runs the algorithm with the threshold th from the state s of the CI
    test (its cache).  The best threshold is [None] (inf) at first. *)
Definition search_threshold {T S} (fuel : nat) (learn : T → S → res (mgraph * S)) (data : list (list nat)) (node_size : list nat)
    (ths : list T) (s : S) : res (option T * list (option R)) :=
  r ← for_ ths (λ th '(best_th, best_score, scores, s),
    gs ← learn th s;
    r ← convert_to_dag o fuel gs.1 (empty_graph (mnodes gs.1));
    sc ← (if r.2 : bool then score_bdeu (Some r.1) data node_size None else Ok None);
    Ok (if score_ge sc best_score then (Some th, sc, scores ++ [sc], gs.2)
        else (best_th, best_score, scores ++ [sc], gs.2))) (None, None, [], s);
  Ok (r.1.1.1, r.1.2).
End bdeu.
