(** Model of graphical_models/arrow_head_types.py, basic_equivalance_class_graph.py
    (class MixedGraph) and partially_dag.py (class PDAG). *)
From Verif Require Import Base ModelGraph.

(** arrow_head_types.py 2-5; [Tail] and [Undirected] are the same constant *)
Inductive mark := Circle | Directed | Tail.
Global Instance mark_eq_dec : EqDecision mark.
Proof. solve_decision. Defined.

(** basic_equivalance_class_graph.py 10-17: [mset g n k] is [_graph[n][k]], the set of the
    nodes m such that the edge between m and n carries mark k at n.  As for [graph], the
    dictionary is total.  [edge_mark_types] is the list [T] passed to the functions below;
    Python iterates over it as a set, the order matters for no function except
    [get_edge_mark], and there only if two marks sit at the same place. *)
Record mgraph := MGraph { mnodes : nset; mset : node → mark → nset }.

(** partially_dag.py 11 and partial_ancestral_graph.py 15 *)
Definition PDAG_T : list mark := [Tail; Directed].
Definition PAG_T : list mark := [Circle; Directed; Tail].

(** [_graph[n][k] = s] *)
Definition mupd (g : mgraph) (n : node) (k : mark) (s : nset) : mgraph :=
  MGraph (mnodes g) (λ m j, if decide (m = n ∧ j = k) then s else mset g m j).
(** [_graph[n][k].add(x)] *)
Definition madd (g : mgraph) (n : node) (k : mark) (x : node) : mgraph :=
  mupd g n k (mset g n k ∪ {[x]}).
(** [_graph[n][k].discard(x)] *)
Definition mdis (g : mgraph) (n : node) (k : mark) (x : node) : mgraph :=
  mupd g n k (mset g n k ∖ {[x]}).

(** 10-17: constructor *)
Definition mempty (V : nset) : mgraph := MGraph V (λ _ _, ∅).

(** 20-29: only the entries of the given nodes are cleared *)
Definition create_empty (T : list mark) (g : mgraph) (ns : option nset) : mgraph :=
  let V := default (mnodes g) ns in
  MGraph (mnodes g) (λ n k, if decide (n ∈ V ∧ k ∈ T) then ∅ else mset g n k).

(** 31-40 *)
Definition create_complete (T : list mark) (g : mgraph) (k : mark) (ns : option nset) : mgraph :=
  let V := default (mnodes g) ns in
  let g1 := create_empty T g ns in
  MGraph (mnodes g) (λ n j, if decide (n ∈ V ∧ j = k) then V ∖ {[n]} else mset g1 n j).

(** 72-83 *)
Definition is_any_mark (T : list mark) (g : mgraph) (s t : node) : bool :=
  existsb (λ k, bool_decide (s ∈ mset g t k)) T.

(** 85-90: the mark at the child *)
Definition get_edge_mark (T : list mark) (g : mgraph) (p c : node) : option mark :=
  List.find (λ k, bool_decide (p ∈ mset g c k)) T.

(** 101-106 (without the assertion) *)
Definition connected (T : list mark) (g : mgraph) (i j : node) : bool :=
  is_any_mark T g i j || is_any_mark T g j i.

(** 92-106 *)
Definition m_is_connected (T : list mark) (g : mgraph) (i j : node) : res bool :=
  _ ← assert_ (bool_decide (i ≠ j)); Ok (connected T g i j).

(** 119-122 *)
Definition edge_is (g : mgraph) (i j : node) (ki kj : mark) : bool :=
  bool_decide (j ∈ mset g i ki) && bool_decide (i ∈ mset g j kj).

(** 108-122 *)
Definition is_edge (T : list mark) (g : mgraph) (i j : node) (ki kj : mark) : res bool :=
  _ ← assert_ (bool_decide (ki ∈ T) && bool_decide (kj ∈ T)); Ok (edge_is g i j ki kj).

(** 154-164 *)
Definition adj_any (T : list mark) (g : mgraph) (i : node) : nset :=
  foldl (λ S k, S ∪ mset g i k) ∅ T.
Definition adj_by (g : mgraph) (i : node) (e : mark * mark) : nset :=
  filter (λ n, i ∈ mset g n e.2) (mset g i e.1).

(** 144-168 *)
Definition find_adj (T : list mark) (g : mgraph) (i : node) (pool : option nset) (e : option (mark * mark)) : nset :=
  let c := match e with None => adj_any T g i | Some e => adj_by g i e end in
  match pool with None => c | Some P => c ∩ P end.

(** 186-190 and 225-231: the neighbours by any of the edge types *)
Definition adj_list (T : list mark) (g : mgraph) (n : node) (pool : nset) (es : option (list (mark * mark))) : nset :=
  match es with
  | None => find_adj T g n (Some pool) None
  | Some es => foldl (λ S e, S ∪ find_adj T g n (Some pool) (Some e)) ∅ es
  end.

Section ordered.
Variable o : order.

(** 43-56 *)
Definition m_is_empty (T : list mark) (g : mgraph) (ns : option nset) : bool :=
  forallb (λ n, forallb (λ k, bool_decide (mset g n k = ∅)) T) (o 51 (default (mnodes g) ns)).

(** 58-70 with return_missing=True *)
Definition m_number_of_edges (T : list mark) (g : mgraph) : res (nat * nat) :=
  for_ (comb2 (o 61 (mnodes g))) (λ '(i, j) '(e, m),
    b ← m_is_connected T g i j; Ok (if (b : bool) then (S e, m) else (e, S m))) (0, 0).

(** 134-142 *)
Fixpoint m_connected_loop (fuel : nat) (T : list mark) (g : mgraph) (to_reach starting : nset) : res bool :=
  match fuel with
  | 0 => Diverges
  | S fuel =>
    match o 135 starting with
    | [] => Ok false
    | n :: _ =>
      let starting := starting ∖ {[n]} in
      let adj := find_adj T g n (Some to_reach) None in
      let to_reach := to_reach ∖ adj in
      if decide (size to_reach = 0) then Ok true else
      m_connected_loop fuel T g to_reach (starting ∪ adj)
    end
  end.

(** 124-142 *)
Definition m_is_graph_connected (fuel : nat) (T : list mark) (g : mgraph) (ns : option nset) : res bool :=
  let V := default (mnodes g) ns in
  _ ← assert_ (bool_decide (1 < size V));
  match o 132 V with
  | [] => Raise KeyError
  | n :: _ => m_connected_loop fuel T g (V ∖ {[n]}) {[n]}
  end.

(** 170-203 *)
Fixpoint find_reachable_recursive (fuel : nat) (T : list mark) (g : mgraph) (a : node) (pool : nset)
    (es : option (list (mark * mark))) : res nset :=
  match fuel with
  | 0 => Diverges
  | S fuel =>
    if decide (size pool = 0) then Ok ∅ else
    let nb := adj_list T g a pool es in
    if decide (size nb = 0) then Ok nb else
    r ← for_ (o 198 nb) (λ n '(reach, pool),
          nr ← find_reachable_recursive fuel T g n pool es;
          Ok (reach ∪ nr, pool ∖ nr)) (nb, pool ∖ nb);
    Ok r.1
  end.

(** 222-236 *)
Fixpoint reach_loop (fuel : nat) (T : list mark) (g : mgraph) (es : option (list (mark * mark)))
    (reach pool frontier : nset) : res nset :=
  match fuel with
  | 0 => Diverges
  | S fuel =>
    if decide (size frontier = 0) then Ok reach else
    let next := foldl (λ S n, S ∪ adj_list T g n pool es) ∅ (o 224 frontier) in
    reach_loop fuel T g es (reach ∪ next) (pool ∖ next) next
  end.

(** 205-236 *)
Definition find_reachable (fuel : nat) (T : list mark) (g : mgraph) (a : node) (pool : nset)
    (es : option (list (mark * mark))) : res nset :=
  if decide (size pool = 0) then Ok ∅ else reach_loop fuel T g es ∅ pool {[a]}.

(** 258-265 *)
Fixpoint subgraphs_loop (fuel fuel' : nat) (T : list mark) (g : mgraph) (es : option (list (mark * mark)))
    (nodes : nset) (acc : list nset) : res (list nset) :=
  match fuel with
  | 0 => Diverges
  | S fuel =>
    match o 259 nodes with
    | [] => Ok acc
    | i :: _ =>
      let nodes := nodes ∖ {[i]} in
      r ← find_reachable fuel' T g i nodes es;
      subgraphs_loop fuel fuel' T g es (nodes ∖ r) (acc ++ [r ∪ {[i]}])
    end
  end.

(** 238-265 *)
Definition find_unconnected_subgraphs (fuel : nat) (T : list mark) (g : mgraph) (en : option nset) (sym : option mark)
    : res (list nset) :=
  let es := match sym with
            | Some k => if decide (k ∈ T) then Some [(k, k)] else None
            | None => None
            end in
  subgraphs_loop fuel fuel T g es (default (mnodes g) en) [].

(** 267-275 *)
Definition get_skeleton_graph (T : list mark) (g : mgraph) (en : option nset) : res graph :=
  let V := default (mnodes g) en in
  for_ (comb2 (o 272 V)) (λ '(i, j) u,
    b ← m_is_connected T g i j; if (b : bool) then add_edge u i j else Ok u) (empty_graph V).

(** 278-281 *)
Definition delete_edge (T : list mark) (g : mgraph) (i j : node) : mgraph :=
  foldl (λ g k, mdis (mdis g i k j) j k i) g T.

(** 283-291 *)
Definition replace_mark_ (T : list mark) (g : mgraph) (s t : node) (k : mark) : mgraph :=
  madd (foldl (λ g k, mdis g t k s) g T) t k s.
Definition replace_edge_mark (T : list mark) (g : mgraph) (s t : node) (k : mark) : res mgraph :=
  _ ← assert_ (bool_decide (k ∈ T)); Ok (replace_mark_ T g s t k).

(** 293-307 *)
Definition reset_orientations (T : list mark) (g : mgraph) (k : mark) (ns : option nset) : res mgraph :=
  _ ← assert_ (bool_decide (k ∈ T));
  for_ (comb2 (o 304 (default (mnodes g) ns))) (λ '(x, y) g,
    b ← m_is_connected T g x y;
    if (b : bool) then g ← replace_edge_mark T g x y k; replace_edge_mark T g y x k else Ok g) g.

(** 309-323 *)
Definition m_add_edge (T : list mark) (g : mgraph) (i j : node) (ki kj : mark) : res mgraph :=
  b ← m_is_connected T g i j;
  _ ← assert_ (negb b);
  _ ← assert_ (bool_decide (ki ∈ T) && bool_decide (kj ∈ T));
  Ok (madd (madd g i ki j) j kj i).

(** 325-339: entry (p, c) is set for every p in _graph[c][mark] *)
Definition get_skeleton_mat (T : list mark) (g : mgraph) : res mat :=
  let l := merge_sort le (elements (mnodes g)) in
  let im := index_map l in
  for_ (o 334 (mnodes g)) (λ n m,
    for_ T (λ k m,
      for_ (o 336 (mset g n k)) (λ p m,
        i ← dict_get im p; j ← dict_get im n;
        Ok (Mat (mdim m) (λ i' j', if decide (i' = i ∧ j' = j) then 1 else ment m i' j'))) m) m)
    (Mat (length l) (λ _ _, 0)).

(** ** PDAG (partially_dag.py) *)

(** partially_dag.py 20-21 *)
Definition pd_complete (g : mgraph) (ns : option nset) : mgraph := create_complete PDAG_T g Tail ns.
(** 24-30 *)
Definition pd_parents (g : mgraph) (n : node) : nset := mset g n Directed.
(** 32-44 *)
Definition pd_children (g : mgraph) (p : node) (pot : nset) : nset :=
  foldl (λ S n, if decide (p ∈ mset g n Directed) then S ∪ {[n]} else S) ∅ (o 40 pot).
(** 46-52 *)
Definition und (g : mgraph) (n : node) : nset := mset g n Tail.
(** 54-68 *)
Definition is_sink (g : mgraph) (s : node) (en : option nset) : bool :=
  forallb (λ n, negb (bool_decide (s ∈ pd_parents g n))) (o 64 (default (mnodes g) en)).
(** 70-76 *)
Definition fan_in (g : mgraph) (n : node) : nat := size (pd_parents g n) + size (und g n).

(** 78-88; Python accumulates halves in a float and truncates: twice the value is summed here *)
Definition get_num_edges (g : mgraph) : nat :=
  foldl (λ s n, s + 2 * size (mset g n Directed) + size (mset g n Tail)) 0 (o 84 (mnodes g)) / 2.

(** 90-114 *)
Fixpoint is_reachable_undirected (fuel : nat) (g : mgraph) (s t : node) (en : nset) : res bool :=
  match fuel with
  | 0 => Diverges
  | S fuel =>
    if decide (t ∈ und g s) then Ok true else
    (fix loop (l : list node) (past : nset) : res bool :=
       match l with
       | [] => Ok false
       | n :: l =>
         let past := past ∪ {[n]} in
         b ← is_reachable_undirected fuel g n t (en ∖ past);
         if (b : bool) then Ok true else loop l past
       end) (o 108 (und g s ∩ en)) {[s]}
  end.

(** 143-164 *)
Fixpoint partial_topological (fuel : nat) (g : mgraph) (en : nset) : res (list nset) :=
  match fuel with
  | 0 => Diverges
  | S fuel =>
    if decide (size en = 0) then Ok [] else
    let ps := foldl (λ acc n, acc ∪ (pd_parents g n ∩ en)) ∅ (o 156 en) in
    let leaves := en ∖ ps in
    if decide (size leaves = 0) then Ok [ps] else
    high ← partial_topological fuel g ps;
    Ok (leaves :: high)
  end.

(** 167-178 *)
Definition orient_edge (g : mgraph) (s t : node) : mgraph :=
  mdis (mdis (madd g t Directed s) t Tail s) s Tail t.
(** 180-187 *)
Definition delete_directed (g : mgraph) (s t : node) : mgraph := mdis g t Directed s.
(** 189-197 *)
Definition delete_undirected (g : mgraph) (i j : node) : mgraph := mdis (mdis g i Tail j) j Tail i.
(** 199-202 *)
Definition pd_delete_edge (g : mgraph) (i j : node) : mgraph :=
  delete_undirected (delete_directed (delete_directed g i j) j i) i j.

(** 204-211 *)
Definition pd_add_edges (g : mgraph) (ps : nset) (t : node) (k : mark) : res mgraph :=
  match k with
  | Circle => Raise ValueError
  | Directed => Ok (mupd g t Directed (mset g t Directed ∪ ps))
  | Tail => Ok (foldl (λ g p, madd g p Tail t) (mupd g t Tail (mset g t Tail ∪ ps)) (o 210 ps))
  end.

(** 213-228 *)
Definition convert_bidirected_to_undirected (g : mgraph) (ns : option nset) : mgraph :=
  foldl (λ g '(x, y),
    if decide (y ∈ mset g x Directed ∧ x ∈ mset g y Directed)
    then madd (madd (mdis (mdis g x Directed y) y Directed x) x Tail y) y Tail x
    else g) g (comb2 (o 223 (default (mnodes g) ns))).

(** 230-243 (discarding an absent element changes nothing) *)
Definition convert_to_undirected (g : mgraph) (ns : option nset) : mgraph :=
  foldl (λ g '(x, y),
    if decide (y ∈ mset g x Directed ∨ x ∈ mset g y Directed)
    then madd (madd (mdis (mdis g x Directed y) y Directed x) x Tail y) y Tail x
    else g) g (comb2 (o 234 (default (mnodes g) ns))).

(** 264-281: state = (graph, graph_modified).  The inner loop over the live set
    [parents(x)] breaks right after modifying the graph. *)
Definition rule_1 (en : nset) (g : mgraph) : res (mgraph * bool) :=
  for_ (o 272 en) (λ y s,
    for_ (o 274 (und s.1 y)) (λ x s,
      for_live o 275 (λ s, pd_parents s.1 x) (λ z s,
        b ← m_is_connected PDAG_T s.1 z y;
        if (b : bool) then Ok (s, false) else Ok ((orient_edge s.1 x y, true), true)) s) s) (g, false).

(** 283-301 *)
Definition rule_2 (en : nset) (g : mgraph) : res (mgraph * bool) :=
  for_ (o 291 en) (λ y s,
    for_ (o 293 (und s.1 y)) (λ x s,
      for_live o 295 (λ s, pd_parents s.1 y) (λ z s,
        if decide (x ∈ pd_parents s.1 z)
        then Ok ((orient_edge s.1 x y, true), true) else Ok (s, false)) s) s) (g, false).

(** 303-324: [wz_nodes] is the live set of parents of y *)
Definition rule_3 (en : nset) (g : mgraph) : res (mgraph * bool) :=
  for_ (o 311 en) (λ y s,
    for_ (o 314 (und s.1 y)) (λ x s,
      for_brk (comb2 (o 316 (und s.1 x ∩ pd_parents s.1 y))) (λ '(w, z) s,
        b ← m_is_connected PDAG_T s.1 w z;
        if (b : bool) then Ok (s, false) else Ok ((orient_edge s.1 x y, true), true)) s) s) (g, false).

(** 326-348 *)
Definition rule_4 (en : nset) (g : mgraph) : res (mgraph * bool) :=
  for_ (o 335 en) (λ y s,
    for_ (o 338 (und s.1 y)) (λ x s,
      for_live o 339 (λ s, pd_parents s.1 y) (λ z s,
        b ← m_is_connected PDAG_T s.1 z x;
        if negb b then Ok (s, false) else
        if decide (0 < size (pd_parents s.1 z ∩ und s.1 x))
        then Ok ((orient_edge s.1 x y, true), true) else Ok (s, false)) s) s) (g, false).

(** 12-17 *)
Definition pd_rule (i : nat) : res (nset → mgraph → res (mgraph * bool)) :=
  match i with
  | 1 => Ok rule_1 | 2 => Ok rule_2 | 3 => Ok rule_3 | 4 => Ok rule_4
  | _ => Raise KeyError
  end.

(** 257-262: one pass of the while loop *)
Definition orient_pass (rules : list nat) (en : nset) (g : mgraph) : res (mgraph * bool) :=
  for_ rules (λ i s, rule ← pd_rule i; r ← rule en s.1; Ok (r.1, s.2 || r.2)) (g, false).

(** 245-262; [rules] is the rule set in its iteration order *)
Fixpoint orient_loop (fuel : nat) (rules : list nat) (en : nset) (g : mgraph) : res mgraph :=
  match fuel with
  | 0 => Diverges
  | S fuel => r ← orient_pass rules en g; if (r.2 : bool) then orient_loop fuel rules en r.1 else Ok r.1
  end.
Definition maximally_orient (fuel : nat) (g : mgraph) (rules : list nat) (en : option nset) : res mgraph :=
  orient_loop fuel rules (default (mnodes g) en) g.

(** 350-361: a copy (entries of nodes only; the model has no aliasing) *)
Definition pd_copy (g : mgraph) : mgraph :=
  MGraph (mnodes g) (λ n k, if decide (n ∈ mnodes g ∧ k ∈ PDAG_T) then mset g n k else ∅).

(** 363-369 *)
Definition delete_edges_not_present_in (g src : mgraph) (ns : option nset) : res mgraph :=
  for_ (comb2 (o 367 (default (mnodes src) ns))) (λ '(i, j) g,
    b ← m_is_connected PDAG_T src i j; Ok (if (b : bool) then g else pd_delete_edge g i j)) g.

(** 371-401 *)
Definition add_edges_from (g src : mgraph) (en ex : option nset) : res mgraph :=
  let V := default (mnodes g) en in
  let X := default ∅ ex in
  for_ (o 394 V) (λ n g,
    g ← pd_add_edges g (pd_parents src n ∩ (X ∪ V)) n Directed;
    pd_add_edges g (und src n ∩ (X ∪ V)) n Tail) g.

(** 415-427: all undirected neighbours of x are connected to all other adjacent nodes *)
Definition sink_ok (g : mgraph) (x : node) : res bool :=
  let adj := und g x ∪ pd_parents g x in
  bad ← any_ (o 416 (und g x)) (λ y,
    any_ (o 417 (adj ∖ {[y]})) (λ a, b ← m_is_connected PDAG_T g y a; Ok (negb b)));
  Ok (negb bad).

(** 409-430 *)
Definition select_node (a_nodes : nset) (g : mgraph) : res (option node) :=
  find_ (o 410 a_nodes) (λ x,
    if is_sink g x None then b ← sink_ok g x; Ok (if (b : bool) then Some x else None) else Ok None).

(** 449-453: disconnect x in the working copy *)
Definition detach (g : mgraph) (x : node) : mgraph :=
  let g1 := foldl (λ g y, delete_undirected g y x) g (o 450 (und g x)) in
  foldl (λ g p, delete_directed g p x) g1 (o 452 (pd_parents g1 x)).

(** 440-456 *)
Fixpoint extend_loop (fuel : nat) (cp : mgraph) (a_nodes : nset) (d : graph) : res (graph * bool) :=
  match fuel with
  | 0 => Diverges
  | S fuel =>
    if m_is_empty PDAG_T cp None then Ok (d, true) else
    sel ← select_node a_nodes cp;
    match sel with
    | None => Ok (d, false)
    | Some x =>
      d ← add_edges d (und cp x) x;
      extend_loop fuel (detach cp x) (a_nodes ∖ {[x]}) d
    end
  end.

(** 403-456: the given DAG is returned with the flag *)
Definition convert_to_dag (fuel : nat) (g : mgraph) (d : graph) : res (graph * bool) :=
  d ← for_ (o 436 (mnodes g)) (λ n d, add_edges d (pd_parents g n) n) d;
  extend_loop fuel (pd_copy g) (mnodes g) d.

(** dag.py 185-206: [cp] is the externally created PDAG, the rules are {1,2,3} in some order *)
Definition convert_to_cpdag (fuel : nat) (g : graph) (cp : mgraph) (rules : list nat) : res mgraph :=
  acy ← is_acyclic o fuel g;
  if negb acy then Raise ValueError else
  cp ← for_ (o 195 (gnodes g)) (λ n cp, pd_add_edges cp (parents g n) n Tail) cp;
  let cp := foldl (λ cp n,
    foldl (λ cp '(i, j), if is_connected g i j then cp else orient_edge (orient_edge cp i n) j n)
      cp (comb2 (o 201 (parents g n)))) cp (o 199 (gnodes g)) in
  maximally_orient fuel cp rules None.

End ordered.
