(** Model of causal_discovery_algs/rai.py.  Lines are those of rai.py; the tags of the iteration oracle are
    1300 plus the line, to keep them apart from the tags of the other files. *)
From Verif Require Import Base ModelGraph ModelMixed ModelPC.

Section ordered.
Variable o : order.
Variable ci : citest.
(** 24: overwrite_starting_graph *)
Variable overwrite : bool.
(** bound for the loops of the graph methods *)
Variable lf : nat.

(** parents(n) | undirected_neighbors(n) (47, 153-154, 187-188) *)
Definition pot_parents (g : mgraph) (n : node) : nset := pd_parents g n ∪ und g n.

(** 150-164: one exogenous node; [src] is the copy made at line 146, used when not overwriting.
    160-164 are as pc.py 58-62 *)
Definition rai_exogenous_pair (src : mgraph) (k : nat) (n e : node) (s : pc_state) : res pc_state :=
  let g := if overwrite then pc_graph s else src in
  b ← m_is_connected PDAG_T g e n;
  if negb b then Ok s else
  for_brk (uniq (combs k (o 1455 (pot_parents g n ∖ {[e]})) ++ combs k (o 1456 (pot_parents g e ∖ {[n]}))))
    (pc_try ci e n) s.

(** 131-164 *)
Definition refine_exogenous (en ex : nset) (k : nat) (s : pc_state) : res pc_state :=
  let src := pd_copy (pc_graph s) in
  for_ (o 1448 en) (λ n s, for_ (o 1449 ex) (λ e s, rai_exogenous_pair src k n e s) s) s.

(** 184-199: one pair of endogenous nodes *)
Definition rai_endogenous_pair (src : mgraph) (k : nat) (p : node * node) (s : pc_state) : res pc_state :=
  let '(i, j) := p in
  let g := if overwrite then pc_graph s else src in
  b ← m_is_connected PDAG_T g i j;
  if negb b then Ok s else
  for_brk (uniq (combs k (o 1489 (pot_parents g i ∖ {[j]})) ++ combs k (o 1490 (pot_parents g j ∖ {[i]}))))
    (pc_try ci i j) s.

(** 166-199 *)
Definition refine_endogenous (en : nset) (k : nat) (s : pc_state) : res pc_state :=
  let src := pd_copy (pc_graph s) in
  for_ (comb2 (o 1483 en)) (rai_endogenous_pair src k) s.

(** 287-290 *)
Definition rai_half_collider (sep : sepset) (z x y : node) (g : mgraph) : res mgraph :=
  b ← m_is_connected PDAG_T g x y;
  if (b : bool) then Ok g else
  s ← sep_get sep x y;
  Ok (if decide (z ∈ s) then g else orient_edge g x z).

(** 252-290; 271-275 are as pc.py 77-82 *)
Definition rai_v_structures (en : nset) (sep : sepset) (g : mgraph) : res mgraph :=
  let pre := und g in
  g ← for_ (o 1567 en) (λ z g, for_ (comb2 (o 1570 (pre z))) (pc_collider sep z) g) g;
  let nbr := und g in
  let par := pd_parents g in
  for_ (o 1581 en) (λ z g,
    for_ (o 1585 (nbr z)) (λ x g,
      for_ (o 1586 (par z)) (λ y g, rai_half_collider sep z x y g) g) g) g.

(** 238-250 *)
Definition rai_orient (en : nset) (s : pc_state) : res pc_state :=
  g ← rai_v_structures en (pc_sep s) (pc_graph s);
  g ← maximally_orient o lf g [1; 2; 3; 4] None;
  Ok (PCState (convert_bidirected_to_undirected o g (Some en)) (pc_sep s) (pc_log s)).

(** 104-117 *)
Definition refine_and_orient (en ex : nset) (k : nat) (s : pc_state) : res pc_state :=
  s ← refine_exogenous en ex k s;
  s ← rai_orient en s;
  s ← refine_endogenous en k s;
  rai_orient en s.

(** 201-236 (213-228 is dead code) *)
Definition lowest_set (g : mgraph) (en : nset) : res nset :=
  sets ← partial_topological o lf g en;
  match sets with
  | [] => Raise IndexError
  | [d] => Ok d
  | d :: l => Ok (en ∖ List.last l d)
  end.

(** 119-129: descendants, ancestor sets, all ancestors *)
Definition rai_split (g : mgraph) (en : nset) : res (nset * list nset * nset) :=
  d ← lowest_set g en;
  let a := en ∖ d in
  l ← find_unconnected_subgraphs o lf PDAG_T g (Some a) None;
  Ok (d, l, a).

(** 60-71 *)
Definition rai_exit (g : mgraph) (en : nset) (k : nat) : bool :=
  forallb (λ n, negb (bool_decide (k < fan_in g n))) (o 1367 en).

(** 73-102 *)
Fixpoint rai_rec (fuel : nat) (en ex : nset) (k : nat) (s : pc_state) : res pc_state :=
  match fuel with
  | 0 => Diverges
  | S fuel =>
    if rai_exit (pc_graph s) en k then Ok s else
    s ← refine_and_orient en ex k s;
    r ← rai_split (pc_graph s) en;
    let '(d, l, a) := r in
    s ← for_ l (λ A s, rai_rec fuel A ex (S k) s) s;
    rai_rec fuel d (a ∪ ex) (S k) s
  end.

(** 46-48 *)
Definition undirected_copy (g : mgraph) : res mgraph :=
  for_ (o 1346 (mnodes g)) (λ n c, pd_add_edges o c (pot_parents g n) n Tail) (mempty (mnodes g)).

(** 50-55: [g] is the learned graph, [c] the new one *)
Definition mark_colliders (g c : mgraph) : res mgraph :=
  for_ (o 1350 (mnodes g)) (λ n c,
    for_ (comb2 (o 1352 (pd_parents g n))) (λ '(i, j) c,
      b ← m_is_connected PDAG_T g i j;
      Ok (if (b : bool) then c else orient_edge (orient_edge c i n) j n)) c) c.

(** 40-58 *)
Definition re_orient (g : mgraph) : res mgraph :=
  c ← undirected_copy g;
  c ← mark_colliders g c;
  maximally_orient o lf c [1; 2; 3] None.

(** 21-38: the learned graph, with separation sets and log *)
Definition rai_learn (V : nset) : res pc_state :=
  s ← rai_rec lf V ∅ 0 (pc_init o V);
  g ← maximally_orient o lf (pc_graph s) [1; 2; 3] None;
  g ← re_orient g;
  Ok (PCState g (pc_sep s) (pc_log s)).
End ordered.
