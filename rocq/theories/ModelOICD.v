(** Model of causal_discovery_algs/ordered_icd.py (line numbers refer to it unless another file is named). *)
From Verif Require Import Base ModelGraph ModelMixed ModelPC ModelPAG ModelPDS ModelFCI.

(** self.graph, self.sepset and the log of CI queries; self.edge_done, keyed by (base node, ancestor node) *)
Notation edge_map := (gmap (node * node) bool).
Record ostate := OState { os_ls : lstate; os_done : edge_map }.

(** 47-55 with start_base_idx=1 *)
Definition causal_pairs (ord : list node) : list (node * node) :=
  b ← seq 1 (length ord - 1);
  match ord !! b with Some base => (λ a, (a, base)) <$> take b ord | None => [] end.

(** self.edge_done[base][anc] (103, 116, 144, 194, 212, 253) *)
Definition done_get (s : ostate) (base anc : node) : res bool :=
  match os_done s !! (base, anc) with Some b => Ok b | None => Raise KeyError end.
(** all(self.edge_done[base].values()) (133, 240): the keys are the nodes before the base node *)
Definition all_done (ord : list node) (b : nat) (base : node) (s : ostate) : bool :=
  forallb (λ a, default true (os_done s !! (base, a))) (take b ord).
(** self.order[b] (69, 94, 102, 191, 207, 236, 252) *)
Definition order_at (ord : list node) (b : nat) : res node :=
  match ord !! b with Some x => Ok x | None => Raise IndexError end.

(** a CI test that records the separating set (121-125, 158-162, 217-221, 266-270) *)
Definition o_try (ci : citest) (a base : node) (c : list node) (s : ostate) : res (ostate * bool) :=
  r ← ls_try ci a base c (os_ls s);
  Ok (OState r.1 (if (r.2 : bool) then <[(base, a) := true]> (os_done s) else os_done s), r.2).
(** an unconditional CI test: the separating set is not recorded (105-107, 196-198) *)
Definition o_try0 (ci : citest) (a base : node) (s : ostate) : ostate :=
  let t := os_ls s in
  let q := ci (ls_log t) a base [] in
  let log := (a, base, [], q) :: ls_log t in
  if (q : bool)
  then OState (LState (delete_edge PAG_T (ls_graph t) a base) (ls_sep t) log) (<[(base, a) := true]> (os_done s))
  else OState (LState (ls_graph t) (ls_sep t) log) (os_done s).

Section ordered.
Variable o : order.
Variable ci : citest.
Variable sb tc : bool.
Variable fuel : nat.
(** causal_order and max_cond_size *)
Variable ord : list node.
Variable mcs : option nat.

(** 7-39; a negative max_cond_size also raises ValueError; causal_order is a list or a tuple *)
Definition oicd_init (V : nset) : res ostate :=
  if negb (bool_decide (length ord = size V)) then Raise ValueError else
  if (match mcs with Some m => bool_decide (length ord < m + 2) | None => false end) then Raise ValueError else
  Ok (OState (ls_init o V) (foldl (λ m '(a, b), <[(b, a) := false]> m) ∅ (causal_pairs ord))).

(** 57-66 *)
Definition o_reset (g : mgraph) : res mgraph :=
  for_ (causal_pairs ord) (λ '(a, b) g,
    c ← m_is_connected PAG_T g a b;
    if (c : bool) then g ← replace_edge_mark PAG_T g a b Directed; replace_edge_mark PAG_T g b a Circle else Ok g) g.

(** 165-176 *)
Definition o_orient (anytime : bool) (sep : sepset) (g : mgraph) : res mgraph :=
  g ← o_reset g; g ← orient_base o fuel sep g; if anytime then Ok g else orient_rest o sb tc fuel sep g.
Definition o_orient_graph (anytime : bool) (s : ostate) : res ostate :=
  t ← ls_orient (o_orient anytime) (os_ls s); Ok (OState t (os_done s)).

(** 68-82; a and b are the indexes of the two nodes *)
Definition o_cond_possible_ancestor (g : mgraph) (S : nset) (a b : nat) : res bool :=
  anc ← order_at ord a; base ← order_at ord b;
  r ← any_ (o 71 S) (λ z,
    p ← is_possible_ancestor o fuel g z anc (list_to_set (take a ord) ∪ {[anc]});
    if (p : bool) then Ok false else
    p ← is_possible_ancestor o fuel g z base (list_to_set (take b ord) ∪ {[base]}); Ok (negb p));
  Ok (negb r).

(** 101-107, 186-198 *)
Definition o_r0 (b : nat) (s : ostate) : res ostate :=
  base ← order_at ord b;
  for_ (take b ord) (λ a s, d ← done_get s base a; if (d : bool) then Ok s else Ok (o_try0 ci a base s)) s.

(** 113-125, 200-224 (the flag returned by the latter is not used by its caller, 304) *)
Definition o_r1 (l1 l2 : nat) (b : nat) (s : ostate) : res ostate :=
  base ← order_at ord b;
  let anc : nset := list_to_set (take b ord) in
  for_ (o l1 anc) (λ a s,
    c ← m_is_connected PAG_T (ls_graph (os_ls s)) a base;
    if negb c then Ok s else
    d ← done_get s base a;
    if (d : bool) then Ok s else
    for_brk (o l2 (find_adj PAG_T (ls_graph (os_ls s)) base (Some (anc ∖ {[a]})) None)) (λ z s, o_try ci a base [z] s) s) s.

(** 136-162, 243-274: the tests with r >= 2 conditioning nodes for the edges into the b-th node.
    The local variant writes False into edge_done before the test and not after a negative one; the value after
    the test is the same. The flag is the one of the global variant. *)
Definition o_level (l : nat) (r : nat) (b : nat) (s : ostate) : res (ostate * bool) :=
  base ← order_at ord b;
  t ← create_pds_tree o fuel (ls_graph (os_ls s)) base (Some (list_to_set (take (S b) ord))) (Some r);
  let cs := sort_by_dist (get_subsets_list o t.1 t.2 r) in
  for_ (seq 0 b) (λ ai (s : ostate * bool),
    a ← order_at ord ai;
    d ← done_get s.1 base a;
    if (d : bool) then Ok s else
    let s := (OState (os_ls s.1) (<[(base, a) := true]> (os_done s.1)), s.2) in
    c ← m_is_connected PAG_T (ls_graph (os_ls s.1)) a base;
    if negb c then Ok s else
    for_brk cs (λ c (s : ostate * bool),
      if decide (a ∈ c.1) then Ok (s, false) else
      p ← o_cond_possible_ancestor (ls_graph (os_ls s.1)) c.1 ai b;
      if negb p then Ok (s, false) else
      r ← o_try ci a base (o l c.1) s.1;
      Ok (if (r.2 : bool) then ((r.1, s.2), true)
          else ((OState (os_ls r.1) (<[(base, a) := false]> (os_done r.1)), false), false))) s) (s, true).

(** 85-163 *)
Definition o_learn_node (b : nat) (s : ostate) : res ostate :=
  base ← order_at ord b;
  let mx := match mcs with Some m => (b - 1) `min` m | None => b - 1 end in
  s ← o_r0 b s;
  s ← o_orient_graph true s;
  if decide (mx = 0) then Ok s else
  s ← o_r1 113 119 b s;
  s ← o_orient_graph true s;
  if decide (mx = 1) then Ok s else
  for_brk (seq 2 (mx - 1)) (λ r s,
    if all_done ord b base s then Ok (s, true) else
    t ← o_level 157 r b s;
    s ← o_orient_graph true t.1; Ok (s, false)) s.

(** 178-183 *)
Definition o_learn_local (s : ostate) : res ostate :=
  s ← for_ (seq 1 (size (mnodes (ls_graph (os_ls s))) - 1)) o_learn_node s;
  o_orient_graph false s.

(** 226-241: nothing to do when all edges into the node are done *)
Definition o_r_node (r b : nat) (s : ostate) : res (ostate * bool) :=
  base ← order_at ord b;
  if all_done ord b base s then Ok (s, true) else o_level 265 r b s.

(** 276-321 *)
Definition o_learn_global (s : ostate) : res ostate :=
  let n := size (mnodes (ls_graph (os_ls s))) in
  s ← for_ (seq 1 (n - 1)) o_r0 s;
  s ← o_orient_graph true s;
  s ← for_ (seq 2 (n - 2)) (o_r1 209 215) s;
  s ← o_orient_graph true s;
  let m := match mcs with Some m => m + 1 | None => (n - 2) + 1 end in
  s ← for_brk (seq 2 (m - 2)) (λ r (s : ostate * bool),
    s ← for_ (seq (r + 1) (n - (r + 1))) (λ b (s : ostate * bool),
      t ← o_r_node r b s.1; Ok (t.1, s.2 && t.2)) s;
    if (s.2 : bool) then Ok (s, true) else
    t ← o_orient_graph true s.1; Ok ((t, s.2), false)) (s, true);
  o_orient_graph false s.1.

(** 41-45 *)
Definition o_learn (loc : bool) (s : ostate) : res ostate := if loc then o_learn_local s else o_learn_global s.
End ordered.
