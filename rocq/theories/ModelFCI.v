(** Model of causal_discovery_algs/fci.py and causal_discovery_algs/icd.py.
    The separation sets are by value (PropSep: nothing else writes to them); self.graph.sepset is the same
    object as self.sepset (constraint_based.py 14, fci.py 57), so rule 4 sees the current separation sets. *)
From Verif Require Import Base ModelGraph ModelMixed ModelPC ModelPAG ModelPDS.

(** self.graph, self.sepset and the log of CI queries *)
Record lstate := LState { ls_graph : mgraph; ls_sep : sepset; ls_log : clog }.

(** one CI test with its consequences: delete the edge, store the separating set
    (fci.py 93-96; icd.py 110-113, 141-143, 176-179) *)
Definition ls_try (ci : citest) (i j : node) (c : list node) (s : lstate) : res (lstate * bool) :=
  let b := ci (ls_log s) i j c in
  let log := (i, j, c, b) :: ls_log s in
  if (b : bool)
  then Ok (LState (delete_edge PAG_T (ls_graph s) i j) (sep_set (ls_sep s) i j c) log, true)
  else Ok (LState (ls_graph s) (ls_sep s) log, false).

Section ordered.
Variable o : order.

(** constraint_based.py 65-74 *)
Definition sep_copy_from (m src : sepset) (V : nset) : res sepset :=
  for_ (comb2 (o 72 V)) (λ '(i, j) m, x ← sep_get src i j; Ok (<[hkey i j := x]> m)) m.

(** constraint_based.py 8-14, fci.py 17, icd.py 9-12 *)
Definition ls_init (V : nset) : lstate :=
  LState (create_complete PAG_T (mempty V) Circle (Some V)) (sep_init o V) [].

(** self.graph with the orientations replaced *)
Definition ls_orient (f : sepset → mgraph → res mgraph) (s : lstate) : res lstate :=
  g ← f (ls_sep s) (ls_graph s); Ok (LState g (ls_sep s) (ls_log s)).

Section learn.
Variable ci : citest.
(** is_selection_bias and is_tail_completeness *)
Variable sb tc : bool.
Variable fuel : nat.

(** rules 5-7 and 8-10 (fci.py 42-45; icd.py 122-125, 184-187) *)
Definition orient_rest (sep : sepset) (g : mgraph) : res mgraph :=
  g ← (if sb then pag_orient o fuel sep g (Some [5; 6; 7]) else Ok g);
  if tc then pag_orient o fuel sep g (Some [8; 9; 10]) else Ok g.
(** colliders and rules 1-4 (fci.py 40-41; icd.py 119-120, 145-146, 182-183) *)
Definition orient_base (sep : sepset) (g : mgraph) : res mgraph :=
  g ← pag_v_structures o g sep; pag_orient o fuel sep g (Some [1; 2; 3; 4]).
(** the same after erasing all orientations (fci.py 39-41; icd.py 25-29, 118-120, 181-183) *)
Definition orient_anew (sep : sepset) (g : mgraph) : res mgraph :=
  g ← reset_orientations o PAG_T g Circle None; orient_base sep g.

(** ** LearnStructFCI *)
(** fci.py 47-57; the CI tests of the PC learner are logged first *)
Definition fci_pc (V : nset) : res lstate :=
  let s := ls_init V in
  p ← pc_skeleton o ci true fuel (pc_init o V);
  sep ← sep_copy_from (ls_sep s) (pc_sep p) (mnodes (ls_graph s));
  g ← copy_skeleton_from_pdag o (create_empty PAG_T (ls_graph s) None) (pc_graph p) None;
  Ok (LState g sep (pc_log p)).

(** fci.py 82-98: all the subsets of the pool by increasing size *)
Definition fci_increasing (i j : node) (pool : nset) (s : lstate) : res (lstate * bool) :=
  for_brk (concat ((λ k, combs k (o 92 pool)) <$> seq 0 (S (size pool)))) (λ c s,
    r ← ls_try ci i j c s.1; Ok (r, r.2)) (s, false).

(** fci.py 59-80; the result says whether an edge was removed *)
Definition fci_refine (s : lstate) : res (lstate * bool) :=
  pds ← for_ (o 70 (mnodes (ls_graph s))) (λ x (m : gmap node nset),
    X ← create_pds_set o fuel (ls_graph s) x; Ok (<[x := X]> m)) ∅;
  for_ (o 74 (mnodes (ls_graph s))) (λ x (s : lstate * bool),
    match pds !! x with
    | None => Raise KeyError
    | Some X =>
      for_ (o 77 (find_adj PAG_T (ls_graph s.1) x None None)) (λ y (s : lstate * bool),
        r ← fci_increasing x y (X ∖ {[y]}) s.1; Ok (r.1, s.2 || r.2)) s
    end) (s, false).

(** fci.py 21-45, with found_D_Sep_link *)
Definition fci_learn (V : nset) : res (lstate * bool) :=
  s ← fci_pc V;
  s ← ls_orient (λ sep g, pag_v_structures o g sep) s;
  r ← fci_refine s;
  s ← ls_orient (λ sep g, g ← orient_anew sep g; orient_rest sep g) r.1;
  Ok (s, r.2).

(** ** LearnStructICD *)
(** is_pre_calc_cond_set *)
Variable precalc : bool.

(** icd.py 224-238 *)
Definition cond_possible_ancestor (g : mgraph) (S : nset) (i j : node) : res bool :=
  b ← any_ (o 234 S) (λ z,
    bi ← is_possible_ancestor o fuel g z i (mnodes g);
    if (bi : bool) then Ok false else
    bj ← is_possible_ancestor o fuel g z j (mnodes g); Ok (negb bj));
  Ok (negb b).

(** stable sort by the sum of distances (icd.py 221); None is infinity *)
Definition dist_le (a b : option nat) : bool :=
  match a, b with Some a, Some b => bool_decide (a ≤ b) | None, Some _ => false | _, None => true end.
Fixpoint sort_insert (x : nset * option nat) (l : list (nset * option nat)) : list (nset * option nat) :=
  match l with
  | [] => [x]
  | y :: l => if dist_le x.2 y.2 then x :: y :: l else y :: sort_insert x l
  end.
Definition sort_by_dist (l : list (nset * option nat)) : list (nset * option nat) := foldr sort_insert [] l.

(** icd.py 191-222 *)
Definition pdsep_range_sets (g : mgraph) (i j : node) (r : nat) : res (list (nset * option nat)) :=
  ti ← create_pds_tree o fuel g i None (Some r);
  tj ← create_pds_tree o fuel g j None (Some r);
  l ← for_ (get_subsets_list o ti.1 ti.2 r ++ get_subsets_list o tj.1 tj.2 r) (λ c l,
    if decide (i ∈ c.1 ∨ j ∈ c.1) then Ok l else
    b ← cond_possible_ancestor g c.1 i j;
    Ok (if (b : bool) then l ++ [c] else l)) [];
  Ok (sort_by_dist l).

(** the loops over conditioning sets with the flag [done] (icd.py 106-113, 174-179) *)
Definition icd_tests (i j : node) (cs : list (list node)) (s : lstate * bool) : res (lstate * bool) :=
  for_brk cs (λ c s, r ← ls_try ci i j c s.1; Ok ((r.1, false), r.2)) s.

(** icd.py 129-146 *)
Definition icd_step_0 (s : lstate) : res lstate :=
  s ← for_ (comb2 (o 140 (mnodes (ls_graph s)))) (λ '(i, j) s, r ← ls_try ci i j [] s; Ok r.1) s;
  ls_orient orient_base s.

(** icd.py 148-189 *)
Definition icd_step_1 (s : lstate) : res (lstate * bool) :=
  r ← for_ (comb2 (o 161 (mnodes (ls_graph s)))) (λ '(i, j) (s : lstate * bool),
    let g := ls_graph s.1 in
    b ← m_is_connected PAG_T g i j;
    if negb b then Ok s else
    icd_tests i j (uniq (combs 1 (o 168 (find_adj PAG_T g i None None ∖ {[j]})) ++
                         combs 1 (o 169 (find_adj PAG_T g j None None ∖ {[i]})))) s) (s, true);
  s ← ls_orient (λ sep g, g ← orient_anew sep g; orient_rest sep g) r.1;
  Ok (s, r.2).

(** icd.py 79-83: the conditioning sets of all the edges, before any test of the iteration;
    [m] holds the sets of earlier iterations *)
Notation cond_map := (gmap (nat * nat) (list (nset * option nat))).
Definition pre_calc (g : mgraph) (r : nat) (m : cond_map) : res cond_map :=
  for_ (comb2 (o 80 (mnodes g))) (λ '(i, j) (m : cond_map),
    b ← m_is_connected PAG_T g i j;
    if negb b then Ok m else
    l ← pdsep_range_sets g i j r; Ok (<[hkey i j := l]> m)) m.

(** icd.py 85-127 *)
Definition icd_step (r : nat) (m : cond_map) (s : lstate) : res (lstate * bool) :=
  s ← for_ (comb2 (o 97 (mnodes (ls_graph s)))) (λ '(i, j) (s : lstate * bool),
    let g := ls_graph s.1 in
    b ← m_is_connected PAG_T g i j;
    if negb b then Ok s else
    cs ← (if precalc then match m !! hkey i j with Some l => Ok l | None => Raise KeyError end
          else pdsep_range_sets g i j r);
    icd_tests i j ((λ c, o 109 c.1) <$> cs) s) (s, true);
  t ← ls_orient (if (s.2 : bool) then orient_rest else orient_anew) s.1;
  Ok (t, s.2).

(** self with self.conditioning_set and self._state *)
Record icd_state := IcdState { ic_ls : lstate; ic_cond : cond_map; ic_done : bool; ic_size : nat }.

(** icd.py 7-23 (the sets of conditioning sets are empty at first) *)
Definition icd_init (V : nset) : icd_state :=
  IcdState (ls_init V) (foldl (λ m '(i, j), <[hkey i j := []]> m) ∅ (comb2 (o 22 V))) false 0.

(** icd.py 47-77; returns (done, r-value) *)
Definition icd_iteration (s : icd_state) : res (icd_state * (bool * nat)) :=
  if ic_done s then Raise RuntimeError else
  let r := ic_size s in
  s ← match r with
      | 0 => t ← icd_step_0 (ic_ls s); Ok (IcdState t (ic_cond s) (ic_done s) r)
      | 1 => t ← icd_step_1 (ic_ls s); Ok (IcdState t.1 (ic_cond s) t.2 r)
      | _ =>
        m ← (if precalc then pre_calc (ls_graph (ic_ls s)) r (ic_cond s) else Ok (ic_cond s));
        t ← icd_step r m (ic_ls s); Ok (IcdState t.1 m t.2 r)
      end;
  Ok (IcdState (ic_ls s) (ic_cond s) (ic_done s) (S r), (ic_done s, r)).

(** icd.py 42-45 *)
Fixpoint icd_loop (n : nat) (s : icd_state) : res icd_state :=
  match n with
  | 0 => Diverges
  | S n => r ← icd_iteration s; if (r.2.1 : bool) then Ok r.1 else icd_loop n r.1
  end.
(** icd.py 31-45 *)
Definition icd_learn (s : icd_state) : res icd_state :=
  icd_loop fuel (IcdState (ic_ls s) (ic_cond s) false 0).
End learn.
End ordered.

(** cond_indep_tests.py 144-198 (GraphCondIndep.cond_indep with PAG.is_m_separated, without cache and counters):
    the m-separation oracle of a graph with directed and bi-directed edges; a failing call counts as "dependent" *)
Definition msep_ci (o : order) (fuel : nat) (m : mgraph) : citest :=
  λ _ x y zz, match is_m_separated o fuel m x y zz with Ok b => b | _ => false end.
