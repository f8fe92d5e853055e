(** Trees of nodes and possible-d-sep paths. *)
From Verif Require Import Base ModelGraph Spec ModelMixed SpecMixed ModelPDS.

(** [p] names the nodes of a path that starts below the root of [t] *)
Inductive tpath : ptree → list node → Prop :=
  | tp_nil t : tpath t []
  | tp_cons t c p : c ∈ children t → tpath c p → tpath t (origin c :: p).

(** depth levels count from the root, children have different origins *)
Inductive twf : ptree → Prop :=
  twf_intro t : NoDup (origin <$> children t) → (∀ c, c ∈ children t → depth_level c = depth_level t + 1 ∧ twf c) → twf t.

(** some path ends in v *)
Definition t_occurs (t : ptree) (v : node) : Prop := ∃ p, tpath t (p ++ [v]).

(** d is the least number of steps from the root to an occurrence of v *)
Definition t_distance (t : ptree) (v : node) (d : nat) : Prop :=
  (∃ p, tpath t (p ++ [v]) ∧ length p + 1 = d) ∧ ∀ p, tpath t (p ++ [v]) → d ≤ length p + 1.

(** every element of X is reached by a path inside X *)
Definition t_legal (t : ptree) (X : list node) : Prop := ∀ v, v ∈ X → ∃ p, tpath t (p ++ [v]) ∧ ∀ u, u ∈ p → u ∈ X.

(** ** Possible-d-sep paths of a mixed graph: every inner node is a collider or forms a triangle with its neighbours *)
Definition pds_triple (g : mgraph) (a b c : node) : Prop :=
  a ≠ c ∧ mg_adj g a b ∧ mg_adj g b c ∧ (mg_adj g a c ∨ (has_mark g a Directed b ∧ has_mark g c Directed b)).
Definition pds_walk (g : mgraph) (w : list node) : Prop :=
  linked (mg_adj g) w ∧ ∀ l1 a b c l2, w = l1 ++ a :: b :: c :: l2 → pds_triple g a b c.

(** the unordered pairs of consecutive nodes *)
Fixpoint steps (w : list node) : list nset :=
  match w with
  | a :: ((b :: _) as w') => {[a; b]} :: steps w'
  | _ => []
  end.
(** Possible-D-Sep of r: the end nodes of simple possible-d-sep paths *)
Definition possible_d_sep (g : mgraph) (r v : node) : Prop :=
  v ≠ r ∧ ∃ p, is_path (mg_adj g) r v p ∧ pds_walk g p.

(** n is the sum of the distances of the elements of Y *)
Definition t_total (t : ptree) (Y : nset) (n : nat) : Prop :=
  ∃ f : node → nat, (∀ v, v ∈ Y → t_distance t v (f v)) ∧ n = sum_list (f <$> elements Y).

(** A possible-d-sep tree of depth M over the nodes V; X is the set of its nodes.
    [pt_closed]: no branch can be extended by a node that is not in the tree. *)
Record pds_tree_spec (g : mgraph) (V : nset) (root : node) (M : nat) (t : ptree) (X : nset) : Prop := {
  pt_wf : twf t; pt_origin : origin t = root; pt_depth : depth_level t = 0;
  pt_branch : ∀ p, tpath t p → pds_walk g (root :: p) ∧ NoDup (steps (root :: p)) ∧ (∀ v, v ∈ p → v ∈ V ∧ v ≠ root) ∧ length p ≤ 1 `max` M;
  pt_nodes : ∀ v, v ∈ X ↔ t_occurs t v;
  pt_nb : ∀ v, v ∈ V → mg_adj g root v → tpath t [v];
  pt_closed : ∀ p w a b c, tpath t p → root :: p = w ++ [a; b] → length p < M → c ∈ V → c ≠ root → pds_triple g a b c → t_occurs t c;
}.
