(** Model of graphical_models/partial_ancestral_graph.py (class PAG).
    Line numbers refer to that file unless another one is named. *)
From Verif Require Import Base ModelGraph ModelMixed ModelPC.

(** ** Queries *)

(** 95-101 *)
Definition pag_fan_in (g : mgraph) (n : node) : nat := size (mset g n Directed) + size (mset g n Circle).

(** 103-115 *)
Definition is_collider (g : mgraph) (m x y : node) : bool :=
  bool_decide (x ∈ mset g m Directed) && bool_decide (y ∈ mset g m Directed).

(** 117-133 *)
Definition is_possible_collider (g : mgraph) (x m y : node) : res bool :=
  if decide (x = y) then Ok false else
  b1 ← m_is_connected PAG_T g x m;
  if negb b1 then Ok false else
  b2 ← m_is_connected PAG_T g m y;
  if negb b2 then Ok false else
  b3 ← m_is_connected PAG_T g x y;
  if (b3 : bool) then Ok true else Ok (is_collider g m x y).

(** 135-155 *)
Definition is_possible_parent (g : mgraph) (p c : node) : bool :=
  if decide (p = c) then false else
  if negb (connected PAG_T g p c) then false else
  if decide (p ∈ mset g c Tail ∨ c ∈ mset g p Directed) then false else true.

(** 182-190 *)
Definition is_parent (g : mgraph) (p c : node) : bool :=
  bool_decide (p ∈ mset g c Directed) && bool_decide (c ∈ mset g p Tail).

(** 192-203 *)
Definition pag_parents (g : mgraph) (c : node) : nset := filter (λ p, c ∈ mset g p Tail) (mset g c Directed).

(** 205-216 *)
Definition find_spouses (g : mgraph) (n : node) : nset :=
  filter (λ s, s ∈ mset g n Directed ∧ n ∈ mset g s Directed) (mnodes g).

Section ordered.
Variable o : order.

(** 165-173 *)
Definition find_possible_children (g : mgraph) (p : node) (en : option nset) : nset :=
  foldl (λ S n, if is_possible_parent g p n then S ∪ {[n]} else S) ∅ (o 169 (default (mnodes g ∖ {[p]}) en)).

(** 175-180 *)
Definition find_possible_parents (g : mgraph) (c : node) (en : option nset) : nset :=
  foldl (λ S n, if is_possible_parent g n c then S ∪ {[n]} else S) ∅ (o 179 (default (mnodes g ∖ {[c]}) en)).

(** 293-342.  [cond] is [edge_condition]; an edge condition may raise.  [en] is the pool before the four
    nodes are removed from it. *)
Fixpoint uncovered_path (fuel : nat) (g : mgraph) (cond : node → node → res bool) (x y nx ny : node) (en : nset)
    : res (option (list node)) :=
  match fuel with
  | 0 => Diverges
  | S fuel =>
    if decide (nx = ny) then Ok (Some [nx]) else
    let en := en ∖ {[x; y; nx; ny]} in
    trivial ← (b1 ← cond nx ny;
               if negb b1 then Ok false else
               b2 ← m_is_connected PAG_T g nx y;
               if (b2 : bool) then Ok false else
               b3 ← m_is_connected PAG_T g x ny; Ok (negb b3));
    if (trivial : bool) then Ok (Some [nx; ny]) else
    cs ← filter_ (o 332 (find_adj PAG_T g nx (Some en) None)) (λ t,
           b1 ← cond nx t;
           if negb b1 then Ok false else
           b2 ← m_is_connected PAG_T g x t; Ok (negb b2));
    find_ (o 335 cs) (λ c,
      p ← uncovered_path fuel g cond nx y c ny en;
      match p with Some p => Ok (Some (nx :: p)) | None => Ok None end)
  end.

(** 317-321: the defaults *)
Definition find_uncovered_path (fuel : nat) (g : mgraph) (x y nx ny : node) (en : option nset)
    (cond : option (node → node → res bool)) : res (option (list node)) :=
  uncovered_path fuel g (default (m_is_connected PAG_T g) cond) x y nx ny (default (mnodes g) en).

(** 344-378 *)
Fixpoint disc_path_rec (fuel : nat) (g : mgraph) (a b c : node) (ns : nset) : res (option node) :=
  match fuel with
  | 0 => Diverges
  | S fuel =>
    let d_nodes := (mset g a Directed ∖ {[a; b; c]}) ∩ ns in
    (* 363-370: either a source is found, or the new "A" nodes are collected *)
    r ← (fix scan (l : list node) (new : nset) : res (node + nset) :=
           match l with
           | [] => Ok (inr new)
           | d :: l =>
             x ← m_is_connected PAG_T g d c;
             if negb x then Ok (inl d) else
             scan l (if is_parent g d c && bool_decide (a ∈ mset g d Directed) then new ∪ {[d]} else new)
           end) (o 363 d_nodes) ∅;
    match r with
    | inl d => Ok (Some d)
    | inr new => find_ (o 373 new) (λ a', disc_path_rec fuel g a' b c (ns ∖ {[a']}))
    end
  end.
Definition find_disc_path_recursive (fuel : nat) (g : mgraph) (a b c : node) (ns : option nset) : res (option node) :=
  disc_path_rec fuel g a b c (default (mnodes g ∖ {[a; b; c]}) ns).

(** 403-415: one pass over the frontier *)
Fixpoint disc_scan_d (g : mgraph) (b c cur : node) (visited : nset) (l : list node) (new : nset) : res (node + nset) :=
  match l with
  | [] => Ok (inr new)
  | d :: l =>
    x ← m_is_connected PAG_T g d c;
    if negb x then Ok (inl d) else
    disc_scan_d g b c cur visited l
      (if bool_decide (d ∉ visited) && is_parent g d c && bool_decide (cur ∈ mset g d Directed) then new ∪ {[d]} else new)
  end.
Fixpoint disc_scan (g : mgraph) (b c : node) (ns visited : nset) (l : list node) (new : nset) : res (node + nset) :=
  match l with
  | [] => Ok (inr new)
  | cur :: l =>
    r ← disc_scan_d g b c cur visited (o 407 ((mset g cur Directed ∖ {[b; c]}) ∩ ns)) new;
    match r with
    | inl d => Ok (inl d)
    | inr new => disc_scan g b c ns visited l new
    end
  end.
(** 399-418 *)
Fixpoint disc_bfs (fuel : nat) (g : mgraph) (b c : node) (ns frontier visited : nset) : res (option node) :=
  match fuel with
  | 0 => Diverges
  | S fuel =>
    if decide (size frontier = 0) then Ok None else
    r ← disc_scan g b c ns visited (o 403 frontier) ∅;
    match r with
    | inl d => Ok (Some d)
    | inr next => disc_bfs fuel g b c ns next (visited ∪ next)
    end
  end.
(** 380-418 *)
Definition find_disc_path (fuel : nat) (g : mgraph) (a b c : node) (ns : option nset) : res (option node) :=
  disc_bfs fuel g b c (default (mnodes g ∖ {[a; b; c]}) ns) {[a]} {[a; b; c]}.

(** 420-445 *)
Fixpoint is_reachable_any (fuel : nat) (g : mgraph) (s t : node) (en : nset) : res bool :=
  match fuel with
  | 0 => Diverges
  | S fuel =>
    let nb := find_adj PAG_T g s (Some en) None in
    if decide (t ∈ nb) then Ok true else
    (fix loop (l : list node) (past : nset) : res bool :=
       match l with
       | [] => Ok false
       | n :: l =>
         let past := past ∪ {[n]} in
         b ← is_reachable_any fuel g n t (en ∖ past);
         if (b : bool) then Ok true else loop l past
       end) (o 439 nb) {[s]}
  end.

(** 493-506 *)
Definition which_reachable_any (fuel : nat) (g : mgraph) (S : nset) (t : node) (en : option nset) : res nset :=
  filter_ (o 502 S) (λ s, is_reachable_any fuel g s t (default (mnodes g) en)).

(** 447-474 *)
Fixpoint is_possible_ancestor (fuel : nat) (g : mgraph) (a d : node) (en : nset) : res bool :=
  match fuel with
  | 0 => Diverges
  | S fuel =>
    let ch := find_possible_children g a (Some en) in
    if decide (d ∈ ch) then Ok true else
    (fix loop (l : list node) (en : nset) : res bool :=
       match l with
       | [] => Ok false
       | c :: l =>
         let en := en ∖ {[c]} in
         b ← is_possible_ancestor fuel g c d en;
         if (b : bool) then Ok true else loop l en
       end) (o 469 ch) (en ∖ {[a]})
  end.

(** 476-491 *)
Definition is_set_possible_sink (g : mgraph) (S : nset) (ex : option nset) : bool :=
  let X := default (mnodes g ∖ S) ex in
  forallb (λ n, bool_decide (mset g n Tail ∩ X = ∅) && bool_decide (mset g n Circle ∩ X = ∅)) (o 486 S).

(** 508-526; [ds] is the collection in its own iteration order *)
Definition find_possible_ancestors (fuel : nat) (g : mgraph) (ds : list node) (en : option nset) : res nset :=
  let V := default (mnodes g) en in
  for_ ds (λ n anc,
    for_ (o 523 (V ∖ anc)) (λ p anc,
      b ← is_possible_ancestor fuel g p n V; Ok (if (b : bool) then anc ∪ {[p]} else anc)) anc)
    (list_to_set ds).

(** 573-586 *)
Definition find_dc_components (fuel : nat) (g : mgraph) (en : option nset) : res (list nset) :=
  find_unconnected_subgraphs o fuel PAG_T g (Some (default (mnodes g) en)) (Some Directed).

(** 559-565: a component with the nodes that have an arrow into it *)
Definition augment (g : mgraph) (ant C : nset) : nset :=
  C ∪ foldl (λ S n, S ∪ filter (λ m, m ∈ mset g n Directed) (ant ∖ C)) ∅ (o 560 C).

(** 528-571; [cond] is the condition set in its iteration order *)
Definition is_m_separated (fuel : nat) (g : mgraph) (x y : node) (cond : list node) : res bool :=
  a1 ← find_possible_ancestors fuel g [x] None;
  a2 ← find_possible_ancestors fuel g [y] None;
  ant ← for_ cond (λ z acc, a ← find_possible_ancestors fuel g [z] None; Ok (acc ∪ a)) (a1 ∪ a2);
  m ← get_skeleton_graph o PAG_T g (Some ant);
  cs ← find_dc_components fuel g (Some ant);
  m ← for_ (augment g ant <$> cs) (λ C m, for_ (comb2 (o 567 C)) (λ '(i, j) m, add_edge m i j) m) m;
  b ← is_reachable o fuel m x y (list_to_set cond);
  Ok (negb b).

(** 248-291 *)
Definition test_edge_visible (fuel : nat) (g : mgraph) (a b : node) : res bool :=
  if negb (is_parent g a b) then Ok false else
  cs ← filter_ (o 262 (mnodes g ∖ {[b]})) (λ n, x ← m_is_connected PAG_T g b n; Ok (negb x));
  let cs := cs ∖ {[a]} ∖ {[b]} in
  if existsb (λ c, bool_decide (c ∈ mset g a Directed)) (o 271 cs) then Ok true else
  any_ (o 287 (filter (λ n, is_parent g n b = true) (find_spouses g a))) (λ d,
    r ← find_disc_path fuel g d a b None; Ok (match r with Some _ => true | None => false end)).

(** 218-227: the pairs (parent, child) *)
Definition find_visible_edges (fuel : nat) (g : mgraph) : res (gset (node * node)) :=
  for_ (o 224 (mnodes g)) (λ c acc,
    for_ (o 225 (mset g c Directed)) (λ p acc,
      b ← test_edge_visible fuel g p c; Ok (if (b : bool) then acc ∪ {[(p, c)]} else acc)) acc) ∅.

(** 588-660.  [vis] is [self.visible_edges].  Line 654 tests (node_w, node_y) where node_y is whatever the
    loop of line 639 left in it: its last element. *)
Definition find_pc_component (fuel : nat) (g : mgraph) (vis : gset (node * node)) (x : node) (en : option nset)
    (dc : option (list nset)) : res nset :=
  let V := default (mnodes g) en in
  let inv := filter (λ n, (x, n) ∉ vis ∧ (n, x) ∉ vis) (find_adj PAG_T g x (Some V) None) in
  let ch := filter (λ n, x ∈ mset g n Directed) inv in
  dc ← match dc with Some l => Ok l | None => find_dc_components fuel g (Some V) end;
  let ys := o 639 ch in
  let valid := foldl (λ S y, match List.find (λ C, bool_decide (y ∈ C)) dc with Some C => S ∪ C | None => S end) ∅ ys in
  let pc := ch ∪ valid in
  let zs := valid ∖ {[x]} in
  let rest := V ∖ pc in
  let par := foldl (λ S z, S ∪ filter (λ w, w ∈ mset g z Directed ∧ match last ys with Some y => bool_decide ((w, y) ∉ vis) | None => true end = true) rest)
               ∅ (o 651 zs) in
  Ok (pc ∪ par ∪ inv ∪ {[x]}).

(** 662-682 *)
Definition find_pc_component_set (fuel : nat) (g : mgraph) (vis : gset (node * node)) (X : list node) (en : option nset) : res nset :=
  let V := default (mnodes g) en in
  dc ← find_dc_components fuel g (Some V);
  for_ X (λ x acc, s ← find_pc_component fuel g vis x (Some V) (Some dc); Ok (acc ∪ s)) ∅.

(** 702-711 *)
Definition find_buckets (fuel : nat) (g : mgraph) (en : option nset) : res (list nset) :=
  find_unconnected_subgraphs o fuel PAG_T g en (Some Circle).

(** 684-700 *)
Definition find_region (fuel : nat) (g : mgraph) (vis : gset (node * node)) (A : list node) (en : option nset) : res nset :=
  pc ← find_pc_component_set fuel g vis A en;
  bs ← find_buckets fuel g en;
  Ok (foldl (λ S n, match List.find (λ B, bool_decide (n ∈ B)) bs with Some B => S ∪ B | None => S end) ∅ (o 695 pc)).

(** 729-736: the first bucket that is a possible sink of the remaining nodes, and the other buckets *)
Fixpoint take_sink (g : mgraph) (rem : nset) (pre bs : list nset) : option (nset * list nset) :=
  match bs with
  | [] => None
  | B :: bs => if is_set_possible_sink g B (Some (rem ∖ B)) then Some (B, pre ++ bs) else take_sink g rem (pre ++ [B]) bs
  end.
(** 727-738 *)
Fixpoint bucket_loop (fuel : nat) (g : mgraph) (bs : list nset) (rem : nset) (ord : list nset) : res (list nset) :=
  match fuel with
  | 0 => Diverges
  | S fuel =>
    match bs with
    | [] => Ok ord
    | _ :: _ =>
      let '(bs, rem, ord) := match take_sink g rem [] bs with
                             | Some (B, bs') => (bs', rem ∖ B, ord ++ [B])
                             | None => (bs, rem, ord)
                             end in
      _ ← assert_ (bool_decide (0 < length ord));
      bucket_loop fuel g bs rem ord
    end
  end.
(** 713-741 *)
Definition get_ordered_buckets (fuel : nat) (g : mgraph) (en : option nset) : res (list nset) :=
  bs ← find_buckets fuel g (Some (default (mnodes g) en));
  r ← bucket_loop fuel g bs (⋃ bs) [];
  Ok (reverse r).

(** ** Matrices *)

(** 57-61 and 83-86 *)
Definition mark_code (k : mark) : nat := match k with Circle => 1 | Directed => 2 | Tail => 3 end.
Definition code_mark (n : nat) : option mark := match n with 1 => Some Circle | 2 => Some Directed | 3 => Some Tail | _ => None end.

(** 69-93 *)
Definition pag_adj_mat (g : mgraph) : res mat :=
  let l := merge_sort le (elements (mnodes g)) in
  let im := index_map l in
  for_ (o 88 (mnodes g)) (λ n m,
    for_ PAG_T (λ k m,
      for_ (o 90 (mset g n k)) (λ p m,
        i ← dict_get im p; j ← dict_get im n;
        Ok (Mat (mdim m) (λ i' j', if decide (i' = i ∧ j' = j) then mark_code k else ment m i' j'))) m) m)
    (Mat (length l) (λ _ _, 0)).

(** 30-67 (the matrix is square by type) *)
Definition pag_from_mat (g : mgraph) (m : mat) (nodes_order : option (list node)) : res mgraph :=
  _ ← assert_ (forallb (λ i, forallb (λ j, bool_decide (ment m i j ≤ 3)) (seq 0 (mdim m))) (seq 0 (mdim m)));
  l ← match nodes_order with
      | Some l => _ ← assert_ (bool_decide (mdim m = length l)); Ok l
      | None => Ok (merge_sort le (elements (mnodes g)))
      end;
  for_ (seq 0 (mdim m)) (λ i g,
    for_ (seq 0 (mdim m)) (λ j g,
      match code_mark (ment m i j) with
      | None => Ok g
      | Some k => t ← list_get l j; s ← list_get l i; Ok (madd g t k s)
      end) g) (create_empty PAG_T g None).

(** ** Methods that modify the graph *)

(** 745-759 *)
Definition copy_skeleton_from_pdag (g p : mgraph) (ns : option nset) : res mgraph :=
  for_ (comb2 (o 757 (default (mnodes g) ns))) (λ '(i, j) g,
    b ← m_is_connected PDAG_T p i j; if (b : bool) then m_add_edge PAG_T g i j Circle Circle else Ok g) g.

(** 761-779 *)
Definition pag_v_structures (g : mgraph) (sep : sepset) : res mgraph :=
  for_ (o 769 (mnodes g)) (λ z g,
    for_ (comb2 (o 772 (find_adj PAG_T g z None None))) (λ '(x, y) g,
      b ← m_is_connected PAG_T g x y;
      if (b : bool) then Ok g else
      s ← sep_get sep x y;
      if decide (z ∈ s) then Ok g else
      g ← replace_edge_mark PAG_T g x z Directed; replace_edge_mark PAG_T g y z Directed) g) g.

(** The rules: the state is (graph, graph_modified).  Loops over live sets of the graph that is being
    modified use [for_live]. *)
(** 798-816 *)
Definition pag_rule_1 (g : mgraph) : res (mgraph * bool) :=
  for_ (o 804 (mnodes g)) (λ b s,
    let cs := o 808 (mset s.1 b Circle) in
    for_live o 807 (λ s, mset s.1 b Directed) (λ a s,
      s ← for_ cs (λ c s,
            x ← m_is_connected PAG_T s.1 a c;
            if (x : bool) then Ok s else
            g ← replace_edge_mark PAG_T s.1 c b Tail;
            g ← replace_edge_mark PAG_T g b c Directed;
            Ok (g, true)) s;
      Ok (s, false)) s) (g, false).

(** 818-855 *)
Definition pag_rule_2 (g : mgraph) : res (mgraph * bool) :=
  s ← for_ (o 827 (mnodes g)) (λ b s,
    for_live o 831 (λ s, mset s.1 b Tail) (λ c s,
      if decide (b ∉ mset s.1 c Directed) then Ok (s, false) else
      s ← for_live o 835 (λ s, mset s.1 b Directed) (λ a s,
            if decide (a ∈ mset s.1 c Circle)
            then g ← replace_edge_mark PAG_T s.1 a c Directed; Ok ((g, true), false)
            else Ok (s, false)) s;
      Ok (s, false)) s) (g, false);
  for_ (o 842 (mnodes g)) (λ c s,
    for_ (o 845 (mset s.1 c Directed)) (λ b s,
      for_live o 847 (λ s, mset s.1 b Directed) (λ a s,
        if decide (b ∉ mset s.1 a Tail) then Ok (s, false) else
        if decide (a ∈ mset s.1 c Circle)
        then g ← replace_edge_mark PAG_T s.1 a c Directed; Ok ((g, true), false)
        else Ok (s, false)) s) s) s.

(** 857-875 *)
Definition pag_rule_3 (g : mgraph) : res (mgraph * bool) :=
  for_ (o 864 (mnodes g)) (λ b s,
    for_ (o 866 (mset s.1 b Circle)) (λ d s,
      for_ (comb2 (o 869 (mset s.1 b Directed ∩ mset s.1 d Circle))) (λ '(a, c) s,
        x ← m_is_connected PAG_T s.1 a c;
        if (x : bool) then Ok s else
        g ← replace_edge_mark PAG_T s.1 d b Directed; Ok (g, true)) s) s) (g, false).

(** 877-915 *)
Definition pag_rule_4 (fuel : nat) (sep : sepset) (g : mgraph) : res (mgraph * bool) :=
  for_ (o 886 (mnodes g)) (λ b s,
    for_ (o 888 (mset s.1 b Circle)) (λ c s,
      for_ (o 890 (pag_parents s.1 c)) (λ a s,
        if decide (b ∉ mset s.1 a Directed) then Ok s else
        r ← find_disc_path fuel s.1 a b c None;
        match r with
        | None => Ok s
        | Some d =>
          Z ← sep_get sep d c;
          if decide (b ∈ Z) then
            g ← replace_edge_mark PAG_T s.1 b c Directed;
            g ← replace_edge_mark PAG_T g c b Tail; Ok (g, true)
          else
            g ← replace_edge_mark PAG_T s.1 b a Directed;
            g ← replace_edge_mark PAG_T g a b Directed;
            g ← replace_edge_mark PAG_T g b c Directed;
            g ← replace_edge_mark PAG_T g c b Directed; Ok (g, true)
        end) s) s) (g, false).

(** 935-940: circle neighbours of a that are not connected to b *)
Definition circle_nb (k : nat) (g : mgraph) (a b : node) : res nset :=
  filter_ (o k (mnodes g ∖ {[a; b]})) (λ n,
    x ← is_edge PAG_T g a n Circle Circle;
    if negb x then Ok false else
    y ← m_is_connected PAG_T g b n; Ok (negb y)).

(** 951-954: all edges of a path become undirected *)
Fixpoint path_tails (p : list node) (g : mgraph) : res mgraph :=
  match p with
  | u :: ((v :: _) as p) => g ← reset_orientations o PAG_T g Tail (Some {[u; v]}); path_tails p g
  | _ => Ok g
  end.

(** 918-956 *)
Definition pag_rule_5 (fuel : nat) (g : mgraph) : res (mgraph * bool) :=
  let es := filter (λ e, edge_is g e.1 e.2 Circle Circle = true)
              (mjoin ((λ a, (a,.) <$> o 930 (mnodes g)) <$> o 929 (mnodes g))) in
  for_ es (λ '(a, b) s,
    A ← circle_nb 935 s.1 a b;
    B ← circle_nb 938 s.1 b a;
    for_ (o 942 A) (λ na s,
      for_ (o 943 B) (λ nb s,
        r ← find_uncovered_path fuel s.1 a b na nb None (Some (λ u v, is_edge PAG_T s.1 u v Circle Circle));
        match r with
        | None => Ok s
        | Some p =>
          g ← reset_orientations o PAG_T s.1 Tail (Some {[a; b]});
          g ← path_tails (a :: p ++ [b]) g; Ok (g, true)
        end) s) s) (g, false).

(** 958-975 *)
Definition pag_rule_6 (g : mgraph) : res (mgraph * bool) :=
  for_ (o 965 (mnodes g)) (λ b s,
    let A := filter (λ a, b ∈ mset s.1 a Tail) (mset s.1 b Tail) in
    let cs := o 970 (mset s.1 b Circle) in
    for_ (o 969 A) (λ a s,
      for_ cs (λ c s, g ← replace_edge_mark PAG_T s.1 c b Tail; Ok (g, true)) s) s) (g, false).

(** 977-997 *)
Definition pag_rule_7 (g : mgraph) : res (mgraph * bool) :=
  for_ (o 984 (mnodes g)) (λ b s,
    let A := filter (λ a, b ∈ mset s.1 a Tail) (mset s.1 b Circle) in
    let cs := o 989 (mset s.1 b Circle) in
    for_ (o 988 A) (λ a s,
      for_ cs (λ c s,
        if decide (a = c) then Ok s else
        x ← m_is_connected PAG_T s.1 a c;
        if (x : bool) then Ok s else
        g ← replace_edge_mark PAG_T s.1 c b Tail; Ok (g, true)) s) s) (g, false).

(** 1000-1019 *)
Definition pag_rule_8 (g : mgraph) : res (mgraph * bool) :=
  for_ (o 1007 (mnodes g)) (λ b s,
    let A := filter (λ a, b ∈ mset s.1 a Tail) (mset s.1 b Directed ∪ mset s.1 b Circle) in
    let C := filter (λ c, b ∈ mset s.1 c Directed) (mset s.1 b Tail) in
    for_ (o 1012 A) (λ a s,
      for_ (o 1013 C) (λ c s,
        x ← is_edge PAG_T s.1 a c Circle Directed;
        if negb x then Ok s else
        g ← replace_edge_mark PAG_T s.1 c a Tail; Ok (g, true)) s) s) (g, false).

(** 1021-1050: the rule returns after the first change; [find_] gives the edge to change *)
Definition pag_rule_9 (fuel : nat) (g : mgraph) : res (mgraph * bool) :=
  r ← find_ (o 1029 (mnodes g)) (λ a,
    find_ (o 1032 (filter (λ c, a ∈ mset g c Directed) (mset g a Circle))) (λ c,
      B ← filter_ (o 1034 (find_possible_children g a (Some (mnodes g ∖ {[c; a]})))) (λ b,
            x ← m_is_connected PAG_T g b c; Ok (negb x));
      find_ (o 1037 B) (λ b,
        find_ (o 1040 (find_possible_parents g c (Some (mnodes g ∖ {[a; b; c]})))) (λ d,
          p ← find_uncovered_path fuel g a c b d None (Some (λ u v, Ok (is_possible_parent g u v)));
          Ok (match p with Some _ => Some (a, c) | None => None end)))));
  match r with
  | Some (a, c) => g ← replace_edge_mark PAG_T g c a Tail; Ok (g, true)
  | None => Ok (g, false)
  end.

(** 1052-1098 *)
Definition pag_rule_10 (fuel : nat) (g : mgraph) : res (mgraph * bool) :=
  r ← find_ (o 1062 (mnodes g)) (λ c,
    let A := filter (λ a, edge_is g a c Circle Directed = true) (mnodes g ∖ {[c]}) in
    if decide (size A = 0) then Ok None else
    let BD := filter (λ a, edge_is g a c Tail Directed = true) (mnodes g ∖ {[c]}) in
    if decide (size BD < 2) then Ok None else
    find_ (o 1072 A) (λ a,
      let ch := find_possible_children g a (Some (mnodes g ∖ {[a; c]})) in
      if decide (size ch < 2) then Ok None else
      find_ (comb2 (o 1079 BD)) (λ '(b, d),
        find_ (o 1082 ch) (λ e,
          find_ (o 1083 ch) (λ f,
            if decide (e = f) then Ok None else
            x ← m_is_connected PAG_T g e f;
            if (x : bool) then Ok None else
            p ← find_uncovered_path fuel g a c e b None None;
            match p with
            | None => Ok None
            | Some _ =>
              q ← find_uncovered_path fuel g a c f d None None;
              Ok (match q with Some _ => Some (a, c) | None => None end)
            end)))));
  match r with
  | Some (a, c) => g ← replace_edge_mark PAG_T g c a Tail; Ok (g, true)
  | None => Ok (g, false)
  end.

(** 17-28 *)
Definition pag_rule (fuel : nat) (sep : sepset) (i : nat) : res (mgraph → res (mgraph * bool)) :=
  match i with
  | 1 => Ok pag_rule_1 | 2 => Ok pag_rule_2 | 3 => Ok pag_rule_3 | 4 => Ok (pag_rule_4 fuel sep)
  | 5 => Ok (pag_rule_5 fuel) | 6 => Ok pag_rule_6 | 7 => Ok pag_rule_7 | 8 => Ok pag_rule_8
  | 9 => Ok (pag_rule_9 fuel) | 10 => Ok (pag_rule_10 fuel)
  | _ => Raise KeyError
  end.

(** 792-795: one pass *)
Definition pag_pass (fuel : nat) (sep : sepset) (rules : list nat) (g : mgraph) : res (mgraph * bool) :=
  for_ rules (λ i s, rule ← pag_rule fuel sep i; r ← rule s.1; Ok (r.1, s.2 || r.2)) (g, false).

(** 790-795 *)
Fixpoint pag_orient_loop (fuel fuel' : nat) (sep : sepset) (rules : list nat) (g : mgraph) : res mgraph :=
  match fuel with
  | 0 => Diverges
  | S fuel => r ← pag_pass fuel' sep rules g; if (r.2 : bool) then pag_orient_loop fuel fuel' sep rules r.1 else Ok r.1
  end.
(** 781-795; the default is all rules, 1 to 10 *)
Definition pag_orient (fuel : nat) (sep : sepset) (g : mgraph) (rules : option (list nat)) : res mgraph :=
  pag_orient_loop fuel fuel sep (default (seq 1 10) rules) g.

End ordered.
