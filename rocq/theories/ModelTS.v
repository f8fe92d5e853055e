(** Model of causal_discovery_algs/ts_icd.py (LearnStructTSICD, a subclass of LearnStructICD).
    [NS] is nodes_sets_list: the first list has the nodes of the present, the next ones go back in time. *)
From Verif Require Import Base ModelGraph ModelMixed ModelPC ModelPAG ModelPDS ModelFCI.

Section window.
Variable NS : list (list node).

(** self.node2time (ts_icd.py 69); the names are all different *)
Definition node2time (n : node) : res nat :=
  match list_find (λ l, n ∈ l) NS with Some (t, _) => Ok t | None => Raise KeyError end.
(** self.node2idx (ts_icd.py 72) *)
Definition node2idx (n : node) : res nat :=
  match list_find (λ l, n ∈ l) NS with
  | Some (_, l) => match list_find (n =.) l with Some (i, _) => Ok i | None => Raise KeyError end
  | None => Raise KeyError
  end.
(** ts_icd.py 137-138 *)
Definition node_name (t i : nat) : res node :=
  match NS !! t with
  | Some l => match l !! i with Some n => Ok n | None => Raise IndexError end
  | None => Raise IndexError
  end.

(** [f(x) for x in l] *)
Definition map_ {A B} (l : list A) (f : A → res B) : res (list B) :=
  for_ l (λ x r, y ← f x; Ok (r ++ [y])) [].

(** ts_icd.py 92-109; range(a, b) is seq a (b - a) *)
Definition edge_homology (n0 n1 : node) : res (list (node * node)) :=
  t0 ← node2time n0; _ ← assert_ (bool_decide (t0 = 0));
  t1 ← node2time n1;
  i1 ← node2idx n1;
  i0 ← node2idx n0;
  map_ (zip (seq 1 (length NS - t1 - 1)) (seq (t1 + 1) (length NS - (t1 + 1)))) (λ '(u0, u1),
    m0 ← node_name u0 i0; m1 ← node_name u1 i1; Ok (m0, m1)).

(** max(l) of a list of numbers; ValueError when it is empty *)
Definition py_max (l : list nat) : res nat :=
  match l with [] => Raise ValueError | x :: l => Ok (foldl max x l) end.

(** ts_icd.py 111-135 *)
Definition ci_homology (n0 n1 : node) (c : list node) : res (list (node * node * list node)) :=
  t0 ← node2time n0; _ ← assert_ (bool_decide (t0 = 0));
  t1 ← node2time n1;
  tc ← map_ c node2time;
  i0 ← node2idx n0;
  i1 ← node2idx n1;
  ic ← map_ c node2idx;
  m ← py_max tc;
  let past := max m t1 in
  map_ (seq 0 (length NS - (past + 1))) (λ k,
    m0 ← node_name (1 + k) i0;
    m1 ← node_name (t1 + 1 + k) i1;
    c' ← map_ (zip tc ic) (λ '(t, i), node_name (t + 1 + k) i);
    Ok (m0, m1, c')).

(** replace_edge_mark with a value of get_edge_mark: None is not a mark of the graph (basic_equivalance_class_graph.py 283-291) *)
Definition replace_opt (g : mgraph) (s t : node) (k : option mark) : res mgraph :=
  match k with Some k => replace_edge_mark PAG_T g s t k | None => Raise AssertionError end.

(** present_nodes, past_nodes_iter (ts_icd.py 79-80) and the two lists of node pairs (81-82) *)
Definition present : list node := default [] (NS !! 0).
Definition cross_lag : list (node * node) := list_prod present (concat (tail NS)).
Definition contemporaneous : list (node * node) := comb2 present.

Section ordered.
Variable o : order.

(** ts_icd.py 37-46: circles everywhere, then arrowheads from the past into the future *)
Definition ts_default (V : nset) : res mgraph :=
  for_ (concat ((λ f, (λ p, (p, f)) <$> seq (f + 1) (length NS - (f + 1))) <$> seq 0 (length NS - 1))) (λ '(p, f) g,
    lp ← match NS !! p with Some l => Ok l | None => Raise IndexError end;
    lf ← match NS !! f with Some l => Ok l | None => Raise IndexError end;
    for_ (list_prod lp lf) (λ '(a, b) g, replace_edge_mark PAG_T g a b Directed) g)
    (create_complete PAG_T (mempty V) Circle (Some V)).

(** ts_icd.py 49-55: the copy of the initial graph; [g] is self.graph after create_empty_graph *)
Definition ts_copy (ini g : mgraph) : res mgraph :=
  for_ (comb2 (o 51 (mnodes ini))) (λ '(i, j) g,
    b ← m_is_connected PAG_T ini i j;
    if (b : bool) then
      match get_edge_mark PAG_T ini j i, get_edge_mark PAG_T ini i j with
      | Some ki, Some kj => m_add_edge PAG_T g i j ki kj
      | _, _ => Raise AssertionError
      end
    else Ok g) g.

(** self.fixed_orientations (ts_icd.py 57-61) *)
Notation fixmap := (gmap (nat * nat) (option mark)).
Definition ts_fixed (ini : mgraph) : res fixmap :=
  for_ (comb2 (o 58 (mnodes ini))) (λ '(i, j) (m : fixmap),
    b ← m_is_connected PAG_T ini i j;
    Ok (if (b : bool) then <[(j, i) := get_edge_mark PAG_T ini j i]> (<[(i, j) := get_edge_mark PAG_T ini i j]> m) else m)) ∅.

(** ts_icd.py 84-90 *)
Definition set_fixed (fx : fixmap) (g : mgraph) : res mgraph :=
  for_ (comb2 (o 85 (mnodes g))) (λ '(i, j) g,
    b ← m_is_connected PAG_T g i j;
    if (b : bool) then
      k ← match fx !! (i, j) with Some k => Ok k | None => Raise KeyError end;
      g ← replace_opt g i j k;
      k ← match fx !! (j, i) with Some k => Ok k | None => Raise KeyError end;
      replace_opt g j i k
    else Ok g) g.

(** ts_icd.py 301-311: invariant_marks, as (parent, child, mark at the child) *)
Definition invariant_marks (g : mgraph) : res (list (node * node * option mark)) :=
  for_ (comb2 (o 303 (mnodes g))) (λ '(i, j) l,
    b ← m_is_connected PAG_T g i j;
    if negb b then Ok l else
    let k12 := get_edge_mark PAG_T g i j in
    let k21 := get_edge_mark PAG_T g j i in
    let l := if decide (k12 = Some Circle) then l else l ++ [(i, j, k12)] in
    Ok (if decide (k21 = Some Circle) then l else l ++ [(j, i, k21)])) [].

(** ts_icd.py 320-327: the pairs (child, parent) for nodes one of which is in the present *)
Definition base_homology (pb cb : node) : res (list (node * node)) :=
  tcb ← node2time cb;
  if decide (tcb = 0) then edge_homology cb pb else
  tpb ← node2time pb;
  if decide (tpb = 0) then l ← edge_homology pb cb; Ok (map (λ e : node * node, (e.2, e.1)) l)
  else Raise RuntimeError.
(** ts_icd.py 315-327: the pairs (child, parent) of an entry *)
Definition entry_homology (p c : node) : res (list (node * node)) :=
  tp ← node2time p; tc ← node2time c;
  ip ← node2idx p; pb ← node_name (tp - min tp tc) ip;
  ic ← node2idx c; cb ← node_name (tc - min tp tc) ic;
  l ← base_homology pb cb;
  Ok (l ++ [(cb, pb)]).

(** ts_icd.py 294-331 *)
Definition fill_homology (g : mgraph) : res mgraph :=
  l ← invariant_marks g;
  for_ l (λ '(p, c, k) g,
    h ← entry_homology p c;
    for_ h (λ '(c', p') g, replace_opt g p' c' k) g) g.

Section learn.
Variable ci : citest.
(** is_homology, is_selection_bias, is_tail_completeness, is_pre_calc_cond_set *)
Variable hom sb tc precalc : bool.
Variable fuel : nat.
Variable fx : fixmap.

(** ts_icd.py 281-292 *)
Definition ts_orient (complete : bool) (sep : sepset) (g : mgraph) : res mgraph :=
  g ← reset_orientations o PAG_T g Circle None;
  g ← set_fixed fx g;
  g ← pag_v_structures o g sep;
  g ← fill_homology g;
  g ← pag_orient o fuel sep g (Some [1; 2; 3; 4]);
  g ← (if complete then orient_rest o sb tc fuel sep g else Ok g);
  fill_homology g.

(** delete_edge and set_sepset without a test (ts_icd.py 198-199, 203-204) *)
Definition ls_cut (i j : node) (c : list node) (s : lstate) : lstate :=
  LState (delete_edge PAG_T (ls_graph s) i j) (sep_set (ls_sep s) i j c) (ls_log s).

(** ts_icd.py 190-207 *)
Definition ts_try (i j : node) (c : list node) (s : lstate) : res (lstate * bool) :=
  r ← ls_try ci i j c s;
  if negb r.2 then Ok r else
  if negb hom then Ok r else
  s ← (if decide (length c = 0)
       then h ← edge_homology i j; for_ h (λ '(a, b) s, Ok (ls_cut a b c s)) r.1
       else h ← ci_homology i j c; for_ h (λ '(a, b, c') s, Ok (ls_cut a b c' s)) r.1);
  Ok (s, true).

(** the loops over conditioning sets with the flag [done] (ts_icd.py 181-187, 252-256, 272-276) *)
Definition ts_tests (i j : node) (cs : list (list node)) (s : lstate * bool) : res (lstate * bool) :=
  for_brk cs (λ c s, r ← ts_try i j c s.1; Ok ((r.1, false), r.2)) s.

(** ts_icd.py 209-223 *)
Definition ts_step_0 (s : lstate) : res lstate :=
  s ← for_ cross_lag (λ '(i, j) s, r ← ts_try i j [] s; Ok r.1) s;
  s ← for_ contemporaneous (λ '(i, j) s, r ← ts_try i j [] s; Ok r.1) s;
  ls_orient (ts_orient false) s.

(** ts_icd.py 239-256 and 259-276 *)
Definition ts_edges_1 (l1 l2 : nat) (es : list (node * node)) (s : lstate * bool) : res (lstate * bool) :=
  for_ es (λ '(i, j) (s : lstate * bool),
    let g := ls_graph s.1 in
    b ← m_is_connected PAG_T g i j;
    if negb b then Ok s else
    ts_tests i j (uniq (combs 1 (o l1 (find_adj PAG_T g i None None ∖ {[j]})) ++
                        combs 1 (o l2 (find_adj PAG_T g j None None ∖ {[i]})))) s) s.
(** ts_icd.py 225-279 *)
Definition ts_step_1 (s : lstate) : res (lstate * bool) :=
  r ← ts_edges_1 246 247 cross_lag (s, true);
  r ← ts_edges_1 266 267 contemporaneous r;
  s ← ls_orient (ts_orient r.2) r.1;
  Ok (s, r.2).

(** ts_icd.py 144-148 *)
Notation cond_map := (gmap (nat * nat) (list (nset * option nat))).
Definition ts_pre_edges (es : list (node * node)) (g : mgraph) (r : nat) (m : cond_map) : res cond_map :=
  for_ es (λ '(i, j) (m : cond_map),
    b ← m_is_connected PAG_T g i j;
    if negb b then Ok m else
    l ← pdsep_range_sets o fuel g i j r; Ok (<[hkey i j := l]> m)) m.
(** ts_icd.py 140-142 *)
Definition ts_pre_calc (g : mgraph) (r : nat) (m : cond_map) : res cond_map :=
  m ← ts_pre_edges contemporaneous g r m; ts_pre_edges cross_lag g r m.

(** ts_icd.py 170-188 *)
Definition ts_edges (es : list (node * node)) (r : nat) (m : cond_map) (s : lstate * bool) : res (lstate * bool) :=
  for_ es (λ '(i, j) (s : lstate * bool),
    let g := ls_graph s.1 in
    b ← m_is_connected PAG_T g i j;
    if negb b then Ok s else
    cs ← (if precalc then match m !! hkey i j with Some l => Ok l | None => Raise KeyError end
          else pdsep_range_sets o fuel g i j r);
    ts_tests i j ((λ c, o 183 c.1) <$> cs) s) s.
(** ts_icd.py 150-168 *)
Definition ts_step (r : nat) (m : cond_map) (s : lstate) : res (lstate * bool) :=
  t ← ts_edges cross_lag r m (s, true);
  t ← ts_edges contemporaneous r m t;
  s ← ls_orient (ts_orient t.2) t.1;
  Ok (s, t.2).

(** icd.py 47-77 with the overridden methods; returns (done, r-value) *)
Definition ts_iteration (s : icd_state) : res (icd_state * (bool * nat)) :=
  if ic_done s then Raise RuntimeError else
  let r := ic_size s in
  s ← match r with
      | 0 => t ← ts_step_0 (ic_ls s); Ok (IcdState t (ic_cond s) (ic_done s) r)
      | 1 => t ← ts_step_1 (ic_ls s); Ok (IcdState t.1 (ic_cond s) t.2 r)
      | _ =>
        m ← (if precalc then ts_pre_calc (ls_graph (ic_ls s)) r (ic_cond s) else Ok (ic_cond s));
        t ← ts_step r m (ic_ls s); Ok (IcdState t.1 m t.2 r)
      end;
  Ok (IcdState (ic_ls s) (ic_cond s) (ic_done s) (S r), (ic_done s, r)).

(** icd.py 42-45 *)
Fixpoint ts_loop (n : nat) (s : icd_state) : res icd_state :=
  match n with
  | 0 => Diverges
  | S n => r ← ts_iteration s; if (r.2.1 : bool) then Ok r.1 else ts_loop n r.1
  end.
(** icd.py 31-45 *)
Definition ts_learn (s : icd_state) : res icd_state :=
  ts_loop fuel (IcdState (ic_ls s) (ic_cond s) false 0).
End learn.

(** ts_icd.py 7-82: the learner and its fixed orientations; [ini] is initial_pag *)
Definition ts_init (ini : option mgraph) : res (icd_state * fixmap) :=
  _ ← assert_ (bool_decide (1 < length NS));
  n ← match NS with l :: _ => Ok (length l) | [] => Raise IndexError end;
  _ ← assert_ (forallb (λ l : list node, bool_decide (length l = n)) NS);
  let V := list_to_set (concat NS) : nset in
  _ ← assert_ (bool_decide (size V = length NS * n));
  let s := icd_init o V in
  ini ← match ini with Some g => Ok g | None => ts_default V end;
  g ← ts_copy ini (create_empty PAG_T (ls_graph (ic_ls s)) None);
  fx ← ts_fixed ini;
  Ok (IcdState (LState g (ls_sep (ic_ls s)) (ls_log (ic_ls s))) (ic_cond s) (ic_done s) (ic_size s), fx).
End ordered.
End window.
