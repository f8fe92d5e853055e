(** Model of causal_discovery_utils/constraint_based.py and causal_discovery_algs/pc.py. *)
From Verif Require Import Base ModelGraph ModelMixed.

(** ** SeparationSet (constraint_based.py 20-74), by value; ModelSep.v models the aliasing *)
Notation sepset := (gmap (nat * nat) nset).

(** 28-37 *)
Definition hkey (i j : node) : nat * nat := if decide (i < j) then (i, j) else (j, i).
(** 43-45 *)
Definition sep_set (m : sepset) (i j : node) (c : list node) : sepset := <[hkey i j := list_to_set c]> m.
(** 47-49 *)
Definition sep_get (m : sepset) (i j : node) : res nset :=
  match m !! hkey i j with Some s => Ok s | None => Raise KeyError end.

(** ** CI tests: the answer may depend on all earlier queries and answers.
    The log has the latest query first. *)
Notation query := (node * node * list node)%type.
Notation clog := (list (query * bool)).
Definition citest := clog → node → node → list node → bool.

(** 77-89: the first occurrences *)
Fixpoint uniq_go (seen : list (list node)) (l : list (list node)) : list (list node) :=
  match l with
  | [] => []
  | e :: l => if decide (e ∈ seen) then uniq_go seen l else e :: uniq_go (e :: seen) l
  end.
Definition uniq (l : list (list node)) : list (list node) := uniq_go [] l.

Section ordered.
Variable o : order.

(** constraint_based.py 21-26 *)
Definition sep_init (V : nset) : sepset :=
  foldl (λ m '(i, j), <[hkey i j := ∅]> m) ∅ (comb2 (o 24 V)).

(** ** LearnStructPC (pc.py) *)
(** self.graph, self.sepset and the log of CI queries *)
Record pc_state := PCState { pc_graph : mgraph; pc_sep : sepset; pc_log : clog }.

(** pc.py 7-10, constraint_based.py 8-14 *)
Definition pc_init (V : nset) : pc_state :=
  PCState (pd_complete (mempty V) (Some V)) (sep_init V) [].

(** 24-34 *)
Definition exit_cond (g : mgraph) (k : nat) : bool :=
  forallb (λ n, negb (bool_decide (k < fan_in g n))) (o 30 (mnodes g)).

Section pc.
Variable ci : citest.
(** 10: overwrite_starting_graph *)
Variable overwrite : bool.

(** 58-62 *)
Definition pc_try (i j : node) (c : list node) (s : pc_state) : res (pc_state * bool) :=
  let b := ci (pc_log s) i j c in
  let log := (i, j, c, b) :: pc_log s in
  if (b : bool)
  then Ok (PCState (pd_delete_edge (pc_graph s) i j) (sep_set (pc_sep s) i j c) log, true)
  else Ok (PCState (pc_graph s) (pc_sep s) log, false).

(** 46-62: one pair; [src] is the copy made at line 42, used when not overwriting *)
Definition pc_pair (src : mgraph) (k : nat) (p : node * node) (s : pc_state) : res pc_state :=
  let '(i, j) := p in
  let g := if overwrite then pc_graph s else src in
  b ← m_is_connected PDAG_T g i j;
  if negb b then Ok s else
  for_brk (uniq (combs k (o 52 (und g i ∖ {[j]})) ++ combs k (o 53 (und g j ∖ {[i]})))) (pc_try i j) s.

(** 45-64 *)
Fixpoint pc_levels (fuel : nat) (src : mgraph) (k : nat) (s : pc_state) : res pc_state :=
  match fuel with
  | 0 => Diverges
  | S fuel =>
    if exit_cond (pc_graph s) k then Ok s else
    s ← for_ (comb2 (o 46 (mnodes (if overwrite then pc_graph s else src)))) (pc_pair src k) s;
    pc_levels fuel src (S k) s
  end.

(** 36-64 *)
Definition pc_skeleton (fuel : nat) (s : pc_state) : res pc_state :=
  pc_levels fuel (pd_copy (pc_graph s)) 0 s.
End pc.

(** 77-82 *)
Definition pc_collider (sep : sepset) (z : node) (p : node * node) (g : mgraph) : res mgraph :=
  let '(x, y) := p in
  b ← m_is_connected PDAG_T g x y;
  if (b : bool) then Ok g else
  s ← sep_get sep x y;
  Ok (if decide (z ∈ s) then g else orient_edge (orient_edge g x z) y z).

(** 66-82: [pre] holds the undirected neighbours before any change *)
Definition pc_v_structures (g : mgraph) (sep : sepset) : res mgraph :=
  let pre := und g in
  for_ (o 74 (mnodes g)) (λ z g, for_ (comb2 (o 77 (pre z))) (pc_collider sep z) g) g.

(** 12-22: the learned graph, with separation sets and log *)
Definition pc_learn (ci : citest) (overwrite : bool) (fuel : nat) (V : nset) : res pc_state :=
  s ← pc_skeleton ci overwrite fuel (pc_init V);
  g ← pc_v_structures (pc_graph s) (pc_sep s);
  let g := convert_bidirected_to_undirected o g None in
  g ← maximally_orient o fuel g [1; 2; 3] None;
  Ok (PCState g (pc_sep s) (pc_log s)).

End ordered.

(** cond_indep_tests.py 123-141 (DSep.cond_indep without cache and counters):
    the d-separation oracle of a DAG; a failing call counts as "dependent" *)
Definition dsep_ci (o : order) (fuel : nat) (d : graph) : citest :=
  λ _ x y zz, match dsep o fuel d x y zz with Ok b => b | _ => false end.
