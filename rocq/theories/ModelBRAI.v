(** Model of causal_discovery_algs/brai.py.  Lines are those of brai.py; the tags of the iteration oracle are
    1700 plus the line.  Scores are rationals or minus infinity (None).  The CI test is an arbitrary function of
    the queries and answers so far, which covers the bootstrap samples (197-198): in one execution no two
    queries have the same past.  Separation sets of leaves and samples (179, 257-258, 310) are not in this
    model: they are written but do not influence a graph (ModelBRAI2.v has them, C108). *)
From Coq Require Import QArith.
From Verif Require Import Base ModelGraph ModelMixed ModelPC ModelRAI ModelPerf ModelSynth.
Local Open Scope nat_scope.

(** log-probability *)
Notation score := (option Q).
(** [+] on floats, for finite values and minus infinity *)
Definition score_add (a b : score) : score :=
  match a, b with Some a, Some b => Some (a + b)%Q | _, _ => None end.
(** [a < b] *)
Definition score_lt (a b : score) : bool :=
  match a, b with
  | None, Some _ => true
  | Some a, Some b => qlt a b
  | _, None => false
  end.

(** 11-93: the graph generating tree, MultiHypNode with its CookieNodes (ancestors, descendant).
    Order, cookie graph and slices are only stored and are left out *)
Inductive ggt :=
  | GLeaf (en ex : nset) (g : mgraph) (sc : score)
  | GNode (en ex : nset) (cookies : list (list ggt * ggt)).

Section ordered.
Variable o : order.
Variable ci : citest.
Variable overwrite : bool.
(** bound for loops and recursion *)
Variable lf : nat.
(** 109: the nodes of self.graph *)
Variable V : nset.

(** ** learning *)
(** 117-120: scoring_data is given *)
Variable scored : bool.
(** 113-115: a scoring function was passed to the constructor: then self.scoring_function is never set *)
Variable custom : bool.
(** 115: the default scoring function *)
Variable bdeu : graph → nset → Q.
(** 101 *)
Variable num_of_hyp : nat.

(** 162-172: the score and whether it is a float *)
Definition leaf_score (en ex : nset) (g : mgraph) : res (score * bool) :=
  if scored then
    lp ← add_edges_from o (mempty V) g (Some en) (Some ex);
    r ← convert_to_dag o lf lp (empty_graph V);
    if (r.2 : bool) then (if custom then Raise AttributeError else Ok (Some (bdeu r.1 en), true))
    else Ok (None, true)
  else Ok (Some 0%Q, false).

(** 160-183, with the assertions of 84-85 (those of 81-83 and 87-88 hold by the types) *)
Definition make_leaf (en ex : nset) (g : mgraph) : res ggt :=
  r ← leaf_score en ex g;
  _ ← assert_ r.2;
  Ok (GLeaf en ex (pd_copy g) r.1).

(** 143-229 *)
Fixpoint brai_rec (fuel : nat) (en ex : nset) (k : nat) (s : pc_state) : res (ggt * pc_state) :=
  match fuel with
  | 0 => Diverges
  | S fuel =>
    if rai_exit o (pc_graph s) en k then t ← make_leaf en ex (pc_graph s); Ok (t, s) else
    let g0 := pc_graph s in
    let sep0 := pc_sep s in
    r ← for_ (seq 0 num_of_hyp) (λ _ '(cs, s),
      s ← refine_and_orient o ci overwrite lf en ex k (PCState (pd_copy g0) sep0 (pc_log s));
      r ← rai_split o lf (pc_graph s) en;
      let '(d, l, a) := r in
      r ← for_ l (λ A '(ts, s), r ← brai_rec fuel A ex (S k) s; Ok (ts ++ [r.1], r.2)) ([], s);
      let '(ts, s) := r in
      r ← brai_rec fuel d (a ∪ ex) (S k) s;
      Ok (cs ++ [(ts, r.1)], r.2)) ([], s);
    Ok (GNode en ex r.1, r.2)
  end.

(** ** sampling *)
(** 293, 295: the index drawn; the first argument counts the draws *)
Variable pick : nat → list score → nat.

(** 297: np.argmax, the first maximum *)
Fixpoint argmax_go (best : nat) (bs : score) (i : nat) (l : list score) : nat :=
  match l with
  | [] => best
  | s :: l => if score_lt bs s then argmax_go i s (S i) l else argmax_go best bs (S i) l
  end.
Definition argmax (l : list score) : res nat :=
  match l with
  | [] => Raise ValueError
  | s :: l => Ok (argmax_go 0 s 1 l)
  end.

(** 286-300 *)
Definition select (temp : Q) (n : nat) (l : list score) : res nat :=
  if qlt 0 temp then Ok (pick n l) else
  if Qeq_bool temp 0 then argmax l else Raise AssertionError.

(** 243-311: adds a sample of the tree to [p]; returns the graph, the score and the number of draws so far *)
Fixpoint sample_rec (fuel : nat) (temp : Q) (t : ggt) (p : mgraph) (n : nat) : res (mgraph * score * nat) :=
  match fuel with
  | 0 => Diverges
  | S fuel =>
    match t with
    | GLeaf en ex g sc => p ← add_edges_from o p g (Some en) (Some ex); Ok (p, sc, n)
    | GNode en ex cs =>
      r ← for_ cs (λ '(ts, d) '(res, n),
        r ← for_ ts (λ t '(p, sc, n),
              r ← sample_rec fuel temp t p n;
              let '(p, sc', n) := r in Ok (p, score_add sc sc', n)) (mempty V, Some 0%Q, n);
        let '(p, sc, n) := r in
        r ← sample_rec fuel temp d p n;
        let '(p, sc', n) := r in
        Ok (res ++ [(p, score_add sc sc')], n)) ([], n);
      let '(res, n) := r in
      i ← select temp n (res.*2);
      match res !! i with
      | None => Raise IndexError
      | Some (q, sc) => p ← add_edges_from o p q (Some en) (Some ex); Ok (p, sc, S n)
      end
    end
  end.

(** 232-235: the contents of self.graph before line 240 *)
Definition sample_raw (temp : Q) (t : ggt) (n : nat) : res (mgraph * score * nat) :=
  sample_rec lf temp t (mempty V) n.

(** 231-241: the new self.graph, the score *)
Definition sample_cpdag (temp : Q) (t : ggt) (n : nat) : res (mgraph * score * nat) :=
  r ← sample_raw temp t n;
  let '(p, sc, n) := r in
  g ← re_orient o lf p;
  Ok (g, sc, n).

(** 97-100, 129-141: the tree, the state after learning and the sampled graph *)
Definition brai_learn : res (ggt * pc_state * mgraph) :=
  _ ← assert_ (bool_decide (0 < num_of_hyp));
  r ← brai_rec lf V ∅ 0 (pc_init o V);
  let '(t, s) := r in
  r ← sample_cpdag 0 t 0;
  Ok (t, s, r.1.1).

(** ** calc_graph_uncertainty.  Graph objects live on a heap (a list); self.graph and graphs_list hold locations *)
(** 340-342: line 232 empties the object that self.graph names and 235 fills it; 240 (rai.py 45, 58) binds self.graph
    to a new object *)
Definition draw_samples (num_of_samples : nat) (temp : Q) (t : ggt) (n : nat) (heap : list mgraph) (cur : nat)
    : res (list nat * list mgraph * nat * nat) :=
  for_ (seq 0 num_of_samples) (λ _ '(locs, heap, cur, n),
    r ← sample_raw temp t n;
    let '(p, _, n) := r in
    let heap := <[cur := p]> heap in
    g ← re_orient o lf p;
    Ok (locs ++ [length heap], heap ++ [g], length heap, n)) ([], heap, cur, n).

(** 336-355 *)
Definition calc_graph_uncertainty (num_of_samples : nat) (threshold temp : Q) (t : ggt) (n : nat)
    (heap : list mgraph) (cur : nat) : res mgraph :=
  r ← draw_samples num_of_samples temp t n heap cur;
  let '(locs, heap, _, _) := r in
  for_ (comb2 (o 2046 V)) (λ '(i, j) sk,
    count ← for_ locs (λ l c,
      b ← m_is_connected PDAG_T (default (mempty V) (heap !! l)) i j;
      Ok (if (b : bool) then S c else c)) 0;
    if qlt (threshold * inject_Z (Z.of_nat num_of_samples)) (inject_Z (Z.of_nat count))
    then pd_add_edges o sk {[i]} j Tail else Ok sk) (mempty V).
End ordered.
