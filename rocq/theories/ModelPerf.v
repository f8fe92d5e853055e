(** Model of causal_discovery_utils/performance_measures.py: the measures computed from
    two graphs.  Quotients are exact rationals, not floating-point numbers; dividing by
    zero raises ZeroDivisionError as for Python numbers.  find_true_pag (10-14) is ICD
    with a d-separation test, see ModelFCI.v.  The BDeu score (100-150) is in ModelBDeu.v. *)
From Coq Require Import QArith.
From Verif Require Import Base ModelGraph ModelMixed.
Local Open Scope nat_scope.

(** [a / b] on Python numbers *)
Definition qdiv (a b : Q) : res Q :=
  if Qeq_bool b 0%Q then Raise ZeroDivisionError else Ok (a / b)%Q.
Definition qn (n : nat) : Q := inject_Z (Z.of_nat n).

(** 18-22: the counters of calc_skeleton_accuracy *)
Record skel := Skel { sk_tp : nat; sk_fn : nat; sk_fp : nat; sk_tn : nat; sk_edges : nat }.
(** 45-51: the returned dictionary *)
Record skel_acc := SkelAcc { sa_precision : Q; sa_recall : Q; sa_f1 : Q; sa_fpr : Q; sa_fnr : Q }.
(** 75-76: the counters of structural_hamming_distance_cpdag *)
Record shd := Shd { sh_missing : nat; sh_extra : nat; ah_missing : nat; ah_extra : nat; ah_reversed : nat }.
(** 95 *)
Definition shd_total (s : shd) : nat :=
  (sh_missing s + sh_extra s) + (ah_missing s + ah_extra s + ah_reversed s).

(** The graph classes that calc_skeleton_accuracy accepts: a DAG or an undirected graph, a
    PDAG, a PAG.  Their attribute _graph and method is_connected: basic_graph.py 4-14 and
    27-31 (dag.py 51-55), basic_equivalance_class_graph.py 10-17 and 92-106 *)
Inductive agraph := APlain (g : graph) | APdag (g : mgraph) | APag (g : mgraph).
Definition anodes (g : agraph) : nset :=
  match g with APlain g => gnodes g | APdag g | APag g => mnodes g end.
Definition a_is_connected (g : agraph) (i j : node) : res bool :=
  match g with
  | APlain g => Ok (is_connected g i j)
  | APdag g => m_is_connected PDAG_T g i j
  | APag g => m_is_connected PAG_T g i j
  end.

Section ordered.
Variable o : order.

(** 24-38 *)
Definition skel_counts (tested correct : agraph) : res skel :=
  for_ (comb2 (o 24 (anodes correct))) (λ '(i, j) s,
    bc ← a_is_connected correct i j; bt ← a_is_connected tested i j;
    Ok (if (bc : bool) then
          if (bt : bool) then Skel (S (sk_tp s)) (sk_fn s) (sk_fp s) (sk_tn s) (S (sk_edges s))
          else Skel (sk_tp s) (S (sk_fn s)) (sk_fp s) (sk_tn s) (S (sk_edges s))
        else
          if (bt : bool) then Skel (sk_tp s) (sk_fn s) (S (sk_fp s)) (sk_tn s) (sk_edges s)
          else Skel (sk_tp s) (sk_fn s) (sk_fp s) (S (sk_tn s)) (sk_edges s)))
    (Skel 0 0 0 0 0).

(** 40-52 *)
Definition skel_ratios (s : skel) : res skel_acc :=
  p ← qdiv (qn (sk_tp s)) (qn (sk_fp s + sk_tp s));
  r ← qdiv (qn (sk_tp s)) (qn (sk_edges s));
  f1 ← qdiv (2 * p * r)%Q (p + r)%Q;
  fpr ← qdiv (qn (sk_fp s)) (qn (sk_fp s + sk_tn s));
  fnr ← qdiv (qn (sk_fn s)) (qn (sk_fn s + sk_tp s));
  Ok (SkelAcc p r f1 fpr fnr).

(** 17-52 *)
Definition calc_skeleton_accuracy (tested correct : agraph) : res skel_acc :=
  s ← skel_counts tested correct; skel_ratios s.

(** 193-197 *)
Definition calc_skeleton_fnr_fpr (tested correct : agraph) : res (Q * Q) :=
  a ← calc_skeleton_accuracy tested correct; Ok (sa_fpr a, sa_fnr a).

(** 55-97.  Both arguments are PDAGs, so the type test (72-73) passes *)
Definition shd_cpdag (tested true_ : mgraph) : res shd :=
  for_ (comb2 (o 77 (mnodes true_))) (λ '(i, j) s,
    bt ← m_is_connected PDAG_T tested i j;
    bc ← m_is_connected PDAG_T true_ i j;
    Ok (if negb bt then
          if (bc : bool) then Shd (S (sh_missing s)) (sh_extra s) (ah_missing s) (ah_extra s) (ah_reversed s) else s
        else if negb bc then Shd (sh_missing s) (S (sh_extra s)) (ah_missing s) (ah_extra s) (ah_reversed s)
        else if bool_decide (i ∈ und true_ j) then
          if bool_decide (i ∈ pd_parents tested j) || bool_decide (j ∈ pd_parents tested i)
          then Shd (sh_missing s) (sh_extra s) (ah_missing s) (S (ah_extra s)) (ah_reversed s) else s
        else if bool_decide (i ∈ und tested j)
          then Shd (sh_missing s) (sh_extra s) (S (ah_missing s)) (ah_extra s) (ah_reversed s)
        else
          let '(source, target) := if bool_decide (i ∈ pd_parents true_ j) then (i, j) else (j, i) in
          if bool_decide (target ∈ pd_parents tested source)
          then Shd (sh_missing s) (sh_extra s) (ah_missing s) (ah_extra s) (S (ah_reversed s)) else s))
    (Shd 0 0 0 0 0).

(** 164-174: the number of correct edge-marks and of all edge-marks of pag_correct *)
Definition orient_counts (tested correct : mgraph) : res (nat * nat) :=
  for_ (comb2 (o 167 (mnodes correct))) (λ '(i, j) '(c, t),
    b ← m_is_connected PAG_T correct i j;
    Ok (if (b : bool) then
          (foldl (λ c k,
             let c := if bool_decide (i ∈ mset correct j k) && bool_decide (i ∈ mset tested j k) then S c else c in
             if bool_decide (j ∈ mset correct i k) && bool_decide (j ∈ mset tested i k) then S c else c) c PAG_T,
           t + 2)
        else (c, t))) (0, 0).

(** 153-190: the edge accuracy and orientation_correctness *)
Definition calc_structural_accuracy_pag (tested correct : mgraph) : res (skel_acc * Q) :=
  ct ← orient_counts tested correct;
  a ← calc_skeleton_accuracy (APag tested) (APag correct);
  q ← qdiv (qn ct.1) (qn ct.2);
  Ok (a, q).
End ordered.
