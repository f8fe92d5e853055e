(** Model of graphical_models/possible_dsep_tree.py, of create_pds_tree (causal_discovery_algs/icd.py
    241-318) and of LearnStructFCI._create_pds_set (causal_discovery_algs/fci.py 100-144). *)
From Verif Require Import Base ModelGraph ModelMixed ModelPAG.

(** ** PDSTree (possible_dsep_tree.py) *)
(** 9-17: origin, depth_level and children; [dict_child] maps the origin of a child to its index *)
Inductive ptree := PTree (origin : node) (depth : nat) (children : list ptree).
Definition origin (t : ptree) : node := let 'PTree x _ _ := t in x.
Definition depth_level (t : ptree) : nat := let 'PTree _ d _ := t in d.
Definition children (t : ptree) : list ptree := let 'PTree _ _ cs := t in cs.

(** [dict_child]: the index of the child with this origin *)
Fixpoint child_index (cs : list ptree) (x : node) : option nat :=
  match cs with
  | [] => None
  | c :: cs => if decide (origin c = x) then Some 0 else S <$> child_index cs x
  end.

(** 19-24: the index of the child *)
Definition get_child_branch (t : ptree) (x : node) : res nat :=
  match child_index (children t) x with Some i => Ok i | None => Raise ValueError end.

(** 26-38 *)
Definition add_branch (t : ptree) (x : node) : res ptree :=
  match child_index (children t) x with
  | Some _ => Raise ValueError
  | None => Ok (PTree (origin t) (depth_level t) (children t ++ [PTree x (depth_level t + 1) []]))
  end.

(** 40-55 *)
Fixpoint get_max_depth (t : ptree) : nat :=
  let 'PTree _ _ cs := t in
  match cs with
  | [] => 1
  | _ => (fix go (m : nat) (cs : list ptree) :=
            match cs with
            | [] => m
            | c :: cs => go (if decide (m < get_max_depth c) then get_max_depth c else m) cs
            end) 1 cs + 1
  end.

(** [min] with [None] = infinity *)
Definition omin (a b : option nat) : option nat :=
  match a, b with Some a, Some b => Some (a `min` b) | Some a, None => Some a | None, b => b end.

(** 57-66; [None] = math.inf *)
Fixpoint get_minimal_distance (v : node) (t : ptree) : option nat :=
  let 'PTree _ _ cs := t in
  (fix go (m : option nat) (cs : list ptree) :=
     match cs with
     | [] => m
     | c :: cs => if decide (origin c = v) then Some (depth_level c) else go (omin m (get_minimal_distance v c)) cs
     end) None cs.

(** 68-77 *)
Fixpoint is_pds_path (t : ptree) (X : nset) : bool :=
  let 'PTree _ _ cs := t in
  if decide (X = ∅) then true else
  (fix go (cs : list ptree) :=
     match cs with
     | [] => false
     | c :: cs => if decide (origin c ∈ X) then (if is_pds_path c (X ∖ {[origin c]}) then true else go cs) else go cs
     end) cs.

(** 93-104; [X] is [possible_path_nodes], a tuple *)
Fixpoint t_reachable (v : node) (X : list node) (t : ptree) : bool :=
  let 'PTree _ _ cs := t in
  if decide (X = []) then false else
  (fix go (cs : list ptree) :=
     match cs with
     | [] => false
     | c :: cs =>
       if decide (origin c = v) then true else
       if decide (origin c ∈ X) then (if t_reachable v X c then true else go cs) else go cs
     end) cs.

(** 79-91 *)
Definition is_legal_cond_set (t : ptree) (X : list node) : bool := forallb (λ v, t_reachable v X t) X.

(** sum with infinity *)
Definition oplus (a b : option nat) : option nat := match a, b with Some a, Some b => Some (a + b) | _, _ => None end.

(** 106-120 *)
Definition get_subsets_list (o : order) (t : ptree) (X : nset) (k : nat) : list (nset * option nat) :=
  (λ c, (list_to_set c, foldl (λ s v, oplus s (get_minimal_distance v t)) (Some 0) c)) <$>
  filter (λ c, is_legal_cond_set t c = true) (combs k (o 112 X)).

(** ** Trees under construction: a reference to a subtree is its address, the list of child indices *)
Fixpoint t_at (t : ptree) (a : list nat) : option ptree :=
  match a with
  | [] => Some t
  | i :: a => c ← children t !! i; t_at c a
  end.
Fixpoint t_upd (f : ptree → res ptree) (a : list nat) (t : ptree) : res ptree :=
  match a with
  | [] => f t
  | i :: a =>
    match children t !! i with
    | Some c => c' ← t_upd f a c; Ok (PTree (origin t) (depth_level t) (<[i := c']> (children t)))
    | None => Raise IndexError
    end
  end.

Section ordered.
Variable o : order.

(** a pending pair with the address of the tree of its second node *)
Notation pend := (node * node * list nat)%type.
Record pds_state := PdsState { ps_adj : graph; ps_queue : list pend; ps_nodes : list node; ps_tree : ptree }.

(** icd.py 302-314: the loop over the neighbours of node_2 *)
Definition pds_step (g : mgraph) (n1 n2 : node) (a : list nat) (n3 : node) (s : pds_state) : res pds_state :=
  b ← is_possible_collider g n1 n2 n3;
  if negb b then Ok s else
  adj ← remove_edge (ps_adj s) n2 n3;
  t ← t_upd (λ t, add_branch t n3) a (ps_tree s);
  i ← match t_at t a with Some t2 => get_child_branch t2 n3 | None => Raise IndexError end;
  Ok (PdsState adj (ps_queue s ++ [(n2, n3, a ++ [i])]) (ps_nodes s ++ [n3]) t).

(** 290-314 *)
Fixpoint pds_loop (fuel : nat) (g : mgraph) (max_depth : nat) (s : pds_state) : res pds_state :=
  match fuel with
  | 0 => Diverges
  | S fuel =>
    match ps_queue s with
    | [] => Ok s
    | (n1, n2, a) :: q =>
      let s := PdsState (ps_adj s) q (ps_nodes s) (ps_tree s) in
      match t_at (ps_tree s) a with
      | None => Raise IndexError
      | Some t2 =>
        if decide (max_depth ≤ depth_level t2) then pds_loop fuel g max_depth s else
        s ← for_ (get_neighbors o (ps_adj s) n2) (pds_step g n1 n2 a) s;
        pds_loop fuel g max_depth s
      end
    end
  end.

(** 241-318 *)
Definition create_pds_tree (fuel : nat) (g : mgraph) (root : node) (en : option nset) (max_depth : option nat) : res (ptree * nset) :=
  _ ← match en with
      | None => Ok ()
      | Some V => _ ← assert_ (bool_decide (root ∈ V)); assert_ (bool_decide (V ⊆ mnodes g))
      end;
  adj ← get_skeleton_graph o PAG_T g en;
  let nb := get_neighbors o adj root in
  adj ← for_ nb (λ v adj, remove_edge adj root v) adj;
  let max_depth := default (size (gnodes adj) - 1) max_depth in
  t ← for_ nb (λ v t, add_branch t v) (PTree root 0 []);
  s ← pds_loop fuel g max_depth (PdsState adj (imap (λ i v, (root, v, [i])) nb) nb t);
  Ok (ps_tree s, list_to_set (ps_nodes s) ∖ {[root]}).

(** ** fci.py 100-144: the same search without tree and depth bound *)
Record fpds_state := FPdsState { fp_adj : graph; fp_queue : list (node * node); fp_nodes : list node }.

(** 135-140 *)
Definition fpds_step (g : mgraph) (n1 n2 : node) (n3 : node) (s : fpds_state) : res fpds_state :=
  b ← is_possible_collider g n1 n2 n3;
  if negb b then Ok s else
  adj ← remove_edge (fp_adj s) n2 n3;
  Ok (FPdsState adj (fp_queue s ++ [(n2, n3)]) (fp_nodes s ++ [n3])).

(** 129-140 *)
Fixpoint fpds_loop (fuel : nat) (g : mgraph) (s : fpds_state) : res fpds_state :=
  match fuel with
  | 0 => Diverges
  | S fuel =>
    match fp_queue s with
    | [] => Ok s
    | (n1, n2) :: q =>
      let s := FPdsState (fp_adj s) q (fp_nodes s) in
      s ← for_ (get_neighbors o (fp_adj s) n2) (fpds_step g n1 n2) s;
      fpds_loop fuel g s
    end
  end.

Definition create_pds_set (fuel : nat) (g : mgraph) (root : node) : res nset :=
  adj ← get_skeleton_graph o PAG_T g None;
  let nb := get_neighbors o adj root in
  adj ← for_ nb (λ v adj, remove_edge adj root v) adj;
  s ← fpds_loop fuel g (FPdsState adj ((λ v, (root, v)) <$> nb) nb);
  Ok (list_to_set (fp_nodes s) ∖ {[root]}).
End ordered.
