(** Model of graphical_models/basic_graph.py, undirected_graph.py and dag.py. *)
From Verif Require Import Base.

(** ** Graph (basic_graph.py) *)

(** basic_graph.py 4-14: [nodes_set] and [_graph : dict node -> set].  The dictionary is
    a total function; keys outside [gnodes] (KeyError in Python) read as the empty set. *)
Record graph := Graph { gnodes : nset; gadj : node → nset }.

(** basic_graph.py 17-24 (with the default [nodes_set]) *)
Definition empty_graph (V : nset) : graph := Graph V (λ _, ∅).

(** assignment [self._graph[n] = s] *)
Definition upd (g : graph) (n : node) (s : nset) : graph :=
  Graph (gnodes g) (λ m, if decide (m = n) then s else gadj g m).

(** basic_graph.py 27-31; also dag.py 51-55 *)
Definition is_connected (g : graph) (i j : node) : bool :=
  bool_decide (i ∈ gadj g j) || bool_decide (j ∈ gadj g i).

Section ordered.
Variable o : order.   (* iteration order of sets, see Base.v *)

(** basic_graph.py 33-47 with return_missing=True: (num_edges, missing_edges) *)
Definition number_of_edges (g : graph) (nodes_subset : option nset) : nat * nat :=
  foldl (λ '(e, m) '(i, j), if is_connected g i j then (S e, m) else (e, S m))
    (0, 0) (comb2 (o 38 (default (gnodes g) nodes_subset))).

(** basic_graph.py 49-54 *)
Definition get_neighbors (g : graph) (i : node) : list node :=
  filter (λ j, is_connected g i j = true) (o 51 (gnodes g ∖ {[i]})).

(** ** UndirectedGraph (undirected_graph.py) *)

(** undirected_graph.py 12-17 *)
Definition add_edge (g : graph) (i j : node) : res graph :=
  if bool_decide (i ∈ gnodes g) && bool_decide (j ∈ gnodes g) then
    let g1 := upd g i (gadj g i ∪ {[j]}) in
    Ok (upd g1 j (gadj g1 j ∪ {[i]}))
  else Raise ValueError.

(** undirected_graph.py 19-24 *)
Definition remove_edge (g : graph) (i j : node) : res graph :=
  if bool_decide (i ∈ gnodes g) && bool_decide (j ∈ gnodes g) then
    let g1 := upd g i (gadj g i ∖ {[j]}) in
    Ok (upd g1 j (gadj g1 j ∖ {[i]}))
  else Raise ValueError.

(** undirected_graph.py 26-29: the loop runs over the live set [self._graph[node]] *)
Definition disconnect_node (g : graph) (n : node) : res graph :=
  for_live o 28 (λ g, gadj g n) (λ nb g, g' ← remove_edge g nb n; Ok (g', false)) g.

(** undirected_graph.py 32-56.  [visited] is [visited_nodes_in] ([None] = empty).
    The loop state is the growing [visited_nodes]. *)
Fixpoint is_reachable (fuel : nat) (g : graph) (s t : node) (visited : nset) : res bool :=
  match fuel with
  | 0 => Diverges
  | S fuel =>
    if decide (s = t) then Ok true else
    let visited_nodes := visited ∪ {[s]} in
    let unvisited := gadj g s ∖ visited_nodes in
    (fix loop (l : list node) (vis : nset) : res bool :=
       match l with
       | [] => Ok false
       | nb :: l =>
         b ← is_reachable fuel g nb t vis;
         if (b : bool) then Ok true else loop l (vis ∪ {[nb]})
       end) (o 51 unvisited) visited_nodes
  end.

(** ** DAG (dag.py) *)

(** dag.py 33-34 *)
Definition parents (g : graph) (n : node) : nset := gadj g n.

(** dag.py 24-31 *)
Definition max_parents (g : graph) : nat :=
  foldl (λ m n, if decide (m < size (parents g n)) then size (parents g n) else m)
    0 (o 26 (gnodes g)).

(** dag.py 36-46 *)
Definition find_children (g : graph) (p : node) (nodes : option nset) : nset :=
  foldl (λ S n, if decide (p ∈ gadj g n) then S ∪ {[n]} else S)
    ∅ (o 42 (default (gnodes g) nodes)).

(** dag.py 48-49 *)
Definition find_adjacent (g : graph) (n : node) : nset :=
  parents g n ∪ find_children g n None.

(** dag.py 57-77 (unbounded recursion: on a cyclic graph Python raises
    RecursionError; here [Diverges]) *)
Fixpoint is_ancestor_recursive (fuel : nat) (g : graph) (d t : node) : res bool :=
  match fuel with
  | 0 => Diverges
  | S fuel =>
    if decide (d = t) then Ok true else
    let ps := parents g d in
    if decide (size ps = 0) then Ok false else
    if decide (t ∈ ps) then Ok true else
    any_ (o 73 ps) (λ p, is_ancestor_recursive fuel g p t)
  end.

(** dag.py 95-98: push the unvisited parents *)
Definition push_unvisited (vs : nset * list node) (p : node) : nset * list node :=
  if decide (p ∈ vs.1) then vs else (vs.1 ∪ {[p]}, p :: vs.2).

(** dag.py 90-100 (head of the list = top of the stack) *)
Fixpoint ancestor_loop (fuel : nat) (g : graph) (t : node) (visited : nset) (stack : list node) : res bool :=
  match fuel with
  | 0 => Diverges
  | S fuel =>
    match stack with
    | [] => Ok false
    | n :: stack =>
      let ps := parents g n in
      if decide (t ∈ ps) then Ok true else
      let vs := foldl push_unvisited (visited, stack) (o 95 ps) in
      ancestor_loop fuel g t vs.1 vs.2
    end
  end.

(** dag.py 79-100 *)
Definition is_ancestor (fuel : nat) (g : graph) (d t : node) : res bool :=
  if decide (d = t) then Ok true else ancestor_loop fuel g t {[d]} [d].

(** dag.py 102-110 *)
Definition is_acyclic (fuel : nat) (g : graph) : res bool :=
  b ← any_ (o 103 (gnodes g)) (λ n,
        any_ (o 105 (parents g n)) (λ p, is_ancestor fuel g p n));
  Ok (negb b).

(** dag.py 122-136 *)
Fixpoint connected_loop (fuel : nat) (g : graph) (to_reach starting : nset) : res bool :=
  match fuel with
  | 0 => Diverges
  | S fuel =>
    match o 123 starting with
    | [] => Ok false
    | n :: _ =>
      let starting := starting ∖ {[n]} in
      let parent_nodes := parents g n ∩ to_reach in
      let to_reach := to_reach ∖ parent_nodes in
      let children_nodes := find_children g n (Some to_reach) in
      let to_reach := to_reach ∖ children_nodes in
      if decide (size to_reach = 0) then Ok true else
      connected_loop fuel g to_reach (starting ∪ parent_nodes ∪ children_nodes)
    end
  end.

(** dag.py 112-136 *)
Definition is_graph_connected (fuel : nat) (g : graph) (nodes : option nset) : res bool :=
  let ns := default (gnodes g) nodes in
  _ ← assert_ (bool_decide (1 < size ns));
  match o 120 ns with
  | [] => Raise KeyError
  | n :: _ => connected_loop fuel g (ns ∖ {[n]}) {[n]}
  end.

(** dag.py 138-150 *)
Fixpoint get_ancestors (fuel : nat) (g : graph) (n : node) (cand : nset) : res nset :=
  match fuel with
  | 0 => Diverges
  | S fuel =>
    let ps := parents g n ∩ cand in
    if decide (size ps = 0) then Ok {[n]} else
    anc ← for_ (o 146 ps) (λ p acc, a ← get_ancestors fuel g p (cand ∖ ps); Ok (acc ∪ a)) ∅;
    Ok (anc ∪ {[n]})
  end.

(** dag.py 174-180: moralisation of the ancestral sub-graph, one node *)
Definition moralize_node (g : graph) (anc : nset) (n : node) (m : graph) : res graph :=
  let ps := parents g n ∩ anc in
  m ← for_ (o 176 ps) (λ p m, add_edge m p n) m;
  for_ (comb2 (o 178 ps)) (λ '(k, l) m,
    if is_connected g k l then Ok m else add_edge m k l) m.

(** dag.py 152-183.  [cond] is the conditioning collection in its own iteration order
    (a tuple or a set). *)
Definition dsep (fuel : nat) (g : graph) (i j : node) (cond : list node) : res bool :=
  a1 ← get_ancestors fuel g i (gnodes g);
  a2 ← get_ancestors fuel g j (gnodes g);
  anc ← for_ cond (λ c acc, a ← get_ancestors fuel g c (gnodes g); Ok (acc ∪ a)) (∅ ∪ a1 ∪ a2);
  m ← for_ (o 174 anc) (moralize_node g anc) (empty_graph anc);
  b ← is_reachable fuel m i j (list_to_set cond);
  Ok (negb b).

(** dag.py 242-257 *)
Fixpoint topological_groups (fuel : nat) (g : graph) (en : nset) : res (list nset) :=
  match fuel with
  | 0 => Diverges
  | S fuel =>
    if decide (size en = 0) then Ok [] else
    let ps := foldl (λ acc n, acc ∪ (parents g n ∩ en)) ∅ (o 250 en) in
    let leaves := en ∖ ps in
    _ ← assert_ (bool_decide (0 < size leaves));
    high ← topological_groups fuel g ps;
    Ok (high ++ [leaves])
  end.

Definition find_topological_order_groups (fuel : nat) (g : graph) (en : option nset) : res (list nset) :=
  topological_groups fuel g (default (gnodes g) en).

(** dag.py 238-240 *)
Definition find_topological_order (fuel : nat) (g : graph) (en : option nset) : res (list node) :=
  groups ← find_topological_order_groups fuel g en;
  Ok (concat (o 240 <$> groups)).

(** A square numpy matrix: dimension and entries (only indexes below the dimension
    are meaningful). *)
Record mat := Mat { mdim : nat; ment : nat → nat → nat }.

(** dag.py 226: {node: i for i, node in enumerate(list)} (a repeated key keeps the last index) *)
Definition index_map (l : list node) : gmap nat nat :=
  foldl (λ m p, <[p.2 := p.1]> m) ∅ (imap (λ i n, (i, n)) l).

(** dictionary access *)
Definition dict_get (m : gmap nat nat) (n : nat) : res nat :=
  match m !! n with Some i => Ok i | None => Raise KeyError end.

(** dag.py 224-236 *)
Definition adj_mat_of (g : graph) (l : list node) : res mat :=
  let im := index_map l in
  for_ l (λ n m,
    idxs ← for_ (o 229 (parents g n)) (λ p acc, i ← dict_get im p; Ok (acc ++ [i])) [];
    c ← dict_get im n;
    Ok (Mat (mdim m) (λ i j, if decide (j = c ∧ i ∈ idxs) then 1 else ment m i j)))
    (Mat (length l) (λ _ _, 0)).

(** dag.py 208-236 (the matrix; without list argument the order is [sorted(nodes)]) *)
Definition get_adj_mat (g : graph) (en : option (list node)) : res mat :=
  match en with
  | None => adj_mat_of g (merge_sort le (elements (gnodes g)))
  | Some l =>
    _ ← assert_ (bool_decide (Forall (λ n, n ∈ gnodes g) l));
    adj_mat_of g l
  end.

(** dag.py 278-287 *)
Definition add_edges (g : graph) (ps : nset) (t : node) : res graph :=
  if decide (size (ps ∖ gnodes g) ≠ 0) then Raise ValueError else
  if decide (t ∉ gnodes g) then Raise ValueError else
  Ok (upd g t (gadj g t ∪ ps)).

(** dag.py 270: adj_mat.nonzero(), row-major *)
Definition nonzero (m : mat) : list (nat * nat) :=
  filter (λ p, ment m p.1 p.2 ≠ 0)
    (mjoin ((λ i, (i,.) <$> seq 0 (mdim m)) <$> seq 0 (mdim m))).

(** list indexing *)
Definition list_get (l : list node) (i : nat) : res node :=
  match l !! i with Some n => Ok n | None => Raise IndexError end.

(** dag.py 260-276 *)
Definition init_from_adj_mat (g : graph) (m : mat) (nodes_order : option (list node)) : res graph :=
  l ← match nodes_order with
      | Some l => _ ← assert_ (bool_decide (mdim m = length l)); Ok l
      | None => Ok (seq 0 (mdim m))
      end;
  for_ (nonzero m) (λ '(p, c) g,
    pn ← list_get l p; cn ← list_get l c; add_edges g {[pn]} cn) (empty_graph (gnodes g)).

End ordered.
