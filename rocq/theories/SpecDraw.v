(** Specification of drawings: what the picture of a node, of an edge and of a graph is. *)
From Coq Require Import Reals String.
From Verif Require Import Base ModelGraph Spec ModelMixed SpecMixed ModelPDS ModelLayout SpecLayout ModelDraw.
Local Open Scope nat_scope.

(** x is the point on the ray from p through q that has distance d from p *)
Definition towards (p q : R * R) (d : R) (x : R * R) : Prop :=
  euclid p x = d ∧ ∃ t, (0 <= t)%R ∧ x = (p.1 + t * (q.1 - p.1), p.2 + t * (q.2 - p.2))%R.
Definition midpoint (p q : R * R) : R * R := ((p.1 + q.1) / 2, (p.2 + q.2) / 2)%R.
(** a line ends at the border of the node; a circle mark, with a quarter of the radius, lies between them *)
Definition reach (r : R) (k : mark) : R := match k with Circle => (r + r / 4)%R | _ => r end.
(** arrow heads at the start and at the end *)
Definition heads (st : astyle) : bool * bool :=
  match st with ANone => (false, false) | ATo => (false, true) | AFrom => (true, false) | ABoth => (true, true) end.
Definition is_head (k : mark) : bool := match k with Directed => true | _ => false end.
(** o--o red, ---> black, <--> blue, --- blueviolet, and green with one circle *)
Definition kind_color (j k : mark) : string :=
  match j, k with
  | Circle, Circle => "red"
  | Tail, Directed | Directed, Tail => "black"
  | Directed, Directed => "blue"
  | Tail, Tail => "blueviolet"
  | _, _ => "limegreen"
  end.
Definition curvature (p q : R * R) (r : R) (curved : bool) : R := if curved then (4 * r / euclid p q)%R else 0%R.

(** the picture of the edge between nodes at p and q that has the mark j at p and the mark k at q: a line between the two
    nodes, arrow heads and circles at the right ends, and a text in the middle *)
Definition edge_drawn (p q : R * R) (r : R) (j k : mark) (lc fc : string) (text : option label) (tc : string) (curved : bool) (P : list shape) : Prop :=
  ∃ a b st, towards p q (reach r j) a ∧ towards q p (reach r k) b ∧ heads st = (is_head j, is_head k) ∧
    let c := if decide (lower lc = "auto"%string) then kind_color j k else lc in
    P = SLine (Some a) (Some b) st c (curvature p q r curved) ::
      match j with Circle => [SDisc (Some a) (r / 4) fc c] | _ => [] end ++
      match k with Circle => [SDisc (Some b) (r / 4) fc c] | _ => [] end ++
      match text with Some t => [SText (Some (midpoint a b)) t tc (Some fc)] | None => [] end.
(** the picture of the edge of a DAG from the node at p to the node at q *)
Definition arrow_drawn (p q : R * R) (r : R) (lc : string) (curved : bool) (P : list shape) : Prop :=
  ∃ a b, towards p q r a ∧ towards q p r b ∧ P = [SLine (Some a) (Some b) ATo lc (curvature p q r curved)].
(** the picture of a node: latent nodes and selection nodes are squares, latent nodes have the colours swapped *)
Definition node_drawn (lat sel : nset) (bk fg : string) (r : R) (p : R * R) (l : label) (v : node) : list shape :=
  let fill := if decide (v ∈ lat) then fg else bk in
  [if decide (v ∈ lat ∪ sel) then SBox (p.1 - r, p.2 - r)%R (2 * r) (2 * r) (Some fill) fg else SDisc (Some p) r fill fg;
   SText (Some p) l (if decide (v ∈ lat) then bk else fg) None].
(** exchange the two ends of the lines *)
Definition reversed (st : astyle) : astyle := match st with ATo => AFrom | AFrom => ATo | st => st end.
Definition mirror (s : shape) : shape :=
  match s with SLine p q st c rad => SLine q p (reversed st) c rad | s => s end.

(** every pair of related nodes once, in one of the two orders *)
Definition pairs_once (adj : node → node → Prop) (L : list (node * node)) : Prop :=
  NoDup L ∧ (∀ i j, (i, j) ∈ L → adj i j ∧ (j, i) ∉ L) ∧ (∀ i j, adj i j → (i, j) ∈ L ∨ (j, i) ∈ L).
Definition visible (vis : option (gset (nat * nat))) (i j : node) : Prop := ∃ vs, vis = Some vs ∧ ((i, j) ∈ vs ∨ (j, i) ∈ vs).
(** the edges of a graph between the nodes at [pos]: those with [keep], curved those with [cur] *)
Definition edges_drawn (D : drawable) (pos : layout) (r : R) (lc bk : string) (keep cur : node → node → Prop) (P : list shape) : Prop :=
  match D with
  | DPag g vis => ∃ L Es, pairs_once (λ i j, mg_adj g i j ∧ keep i j) L ∧ P = concat Es ∧
      Forall2 (λ '(i, j) E, ∃ ki kj t b, has_mark g j ki i ∧ has_mark g i kj j ∧ (b = true ↔ cur i j) ∧
        (t = Some (LStr "v") ∧ visible vis i j ∨ t = None ∧ ¬ visible vis i j) ∧
        (at_ pos i ≠ at_ pos j → edge_drawn (at_ pos i) (at_ pos j) r ki kj lc bk t "black" b E)) L Es
  | DDag g => ∃ L Es, NoDup L ∧ (∀ p c, (p, c) ∈ L ↔ edge g p c ∧ keep p c) ∧ P = concat Es ∧
      Forall2 (λ '(p, c) E, ∃ b, (b = true ↔ cur p c) ∧ (at_ pos p ≠ at_ pos c →
        arrow_drawn (at_ pos p) (at_ pos c) r (if decide (lc = "auto"%string) then "black"%string else lc) b E)) L Es
  end.
Definition drawable_wf (D : drawable) : Prop :=
  match D with DPag g _ => mg_wf g | DDag g => wf_graph g ∧ ∀ v, ¬ edge g v v end.
(** every node once *)
Definition nodes_drawn (V lat sel : nset) (bk fg : string) (r : R) (pos : layout) (lab : node → label) (P : list shape) : Prop :=
  ∃ L, L ≡ₚ elements V ∧ P = concat ((λ v, node_drawn lat sel bk fg r (at_ pos v) (lab v) v) <$> L).
Definition in_square (lo hi : R) (p : R * R) : Prop := (lo <= p.1 <= hi ∧ lo <= p.2 <= hi)%R.

(** ** Trees: a vertex is the path of the indices of children from the root *)
Fixpoint subtree (t : ptree) (π : list nat) : option ptree :=
  match π with
  | [] => Some t
  | i :: π => match children t !! i with Some c => subtree c π | None => None end
  end.
Definition vertex (t : ptree) (π : list nat) (x : node) : Prop := ∃ s, subtree t π = Some s ∧ origin s = x.
Definition is_vertex (t : ptree) (π : list nat) : Prop := ∃ x, vertex t π x.
(** the disc lies inside the axes *)
Definition disc_in (cv : canvas) (p : R * R) (r : R) : Prop :=
  (c_left cv <= p.1 - r ∧ p.1 + r <= c_right cv ∧ c_bottom cv <= p.2 - r ∧ p.2 + r <= c_top cv)%R.
(** the root in the centre, every level on a circle, different vertices at different places *)
Definition tree_placed (t : ptree) (cv : canvas) (r : R) (pos : list nat → R * R) : Prop :=
  pos [] = (0, 0)%R ∧
  (∀ π, is_vertex t π → euclid (pos π) (0, 0)%R = INR (length π) ∧ disc_in cv (pos π) r) ∧
  (∀ π ρ, is_vertex t π → is_vertex t ρ → pos π = pos ρ → π = ρ).
(** the picture of a vertex: the edge from the vertex above, with the marks that [M] gives for its two ends, and the node, in
    the colours [fill] and [text] *)
Definition vertex_drawn (t : ptree) (M : node → node → mark → mark → Prop) (r : R) (fg lc : string) (fill text : node → string)
    (lab : node → label) (pos : list nat → R * R) (π : list nat) (E : list shape) : Prop :=
  ∃ y, vertex t π y ∧
    let N := [SDisc (Some (pos π)) r (fill y) fg; SText (Some (pos π)) (lab y) (text y) None] in
    (π = [] ∧ E = N) ∨
    ∃ ρ i x kx ky E0, π = ρ ++ [i] ∧ vertex t ρ x ∧ M x y kx ky ∧ E = E0 ++ N ∧
      edge_drawn (pos ρ) (pos π) r kx ky lc "white" None "black" false E0.
Definition tree_drawn (t : ptree) (M : node → node → mark → mark → Prop) (r : R) (fg lc : string) (fill text : node → string)
    (lab : node → label) (pos : list nat → R * R) (P : list shape) : Prop :=
  ∃ L Es, NoDup L ∧ (∀ π, π ∈ L ↔ is_vertex t π) ∧ P = concat Es ∧ Forall2 (vertex_drawn t M r fg lc fill text lab pos) L Es.
(** kx is the mark at x and ky the mark at y *)
Definition marks_at (g : mgraph) (x y : node) (kx ky : mark) : Prop := has_mark g y kx x ∧ has_mark g x ky y.
(** parents and children of the tree are neighbours *)
Definition tree_of (g : mgraph) (t : ptree) : Prop := ∀ π i x y, vertex t π x → vertex t (π ++ [i]) y → mg_adj g x y.
Definition occurs (t : ptree) (x : node) : Prop := ∃ π, vertex t π x.

(** the grid behind a tree of depth n: for every depth an arc around the centre, all of it inside the sector of the tree, with the depth written below its
    two ends; and five lines from the centre to the outer arc at equal angles, the first and the last of them solid *)
Definition ring_drawn (stop : R) (d : nat) : list shape :=
  SArc (INR d) 0 stop :: concat ((λ x, [SDisc (Some (x, - (2 / 10))%R) 0 "white" "white"; SText (Some (x, - (2 / 10))%R) (LNum d) "black" None]) <$> [INR d; (- INR d)%R]).
Definition ray_ends (circ : bool) (n : R) : list (R * R) :=
  if circ then [(n, 0); (0, n); (- n, 0); (0, - n); (n, 0)]%R
  else [(n, 0); (n / R_sqrt.sqrt 2, n / R_sqrt.sqrt 2); (0, n); (- (n / R_sqrt.sqrt 2), n / R_sqrt.sqrt 2); (- n, 0)]%R.
Definition grid_drawn (circ : bool) (n : nat) (G : list shape) : Prop :=
  G = concat (ring_drawn (if circ then 360 else 180)%R <$> seq 1 n) ++
      zip_with (SGrid (0, 0)%R) (ray_ends circ (INR n)) [false; true; true; true; false].

(** ** Temporal graphs: the groups are the columns, the first group is the present *)
(** the columns from right to left, the nodes of a column from top to bottom *)
Definition time_ordered (gl : list (list node)) (pos : layout) : Prop :=
  ∀ i j v i' j' v', placed gl i j v → placed gl i' j' v' →
    (i < i' → ((at_ pos v').1 < (at_ pos v).1)%R) ∧ (i = i' → (at_ pos v).1 = (at_ pos v').1) ∧
    (j < j' → ((at_ pos v').2 < (at_ pos v).2)%R) ∧ (j = j' → (at_ pos v).2 = (at_ pos v').2).
(** a frame that contains the nodes *)
Definition framed (pos : layout) (r : R) (g : list node) (s : shape) : Prop :=
  ∃ p w h, s = SBox p w h None "gray" ∧
    ∀ v, v ∈ g → (p.1 <= (at_ pos v).1 - r ∧ (at_ pos v).1 + r <= p.1 + w ∧ p.2 <= (at_ pos v).2 - r ∧ (at_ pos v).2 + r <= p.2 + h)%R.
(** more than one column or more than one row apart *)
Definition far_apart (gl : list (list node)) (u v : node) : Prop :=
  ∃ i j i' j', placed gl i j u ∧ placed gl i' j' v ∧ (S i < i' ∨ S i' < i ∨ S j < j' ∨ S j' < j).
(** the labels of the rows, left of the nodes of the present *)
Definition row_labels (pos : layout) (present : list node) (rows : option (list string)) (P : list shape) : Prop :=
  match rows with
  | Some l => length l = length present ∧ Forall2 (λ '(v, s) T, T = SText (Some (0, (at_ pos v).2)%R) (LStr s) "black" None) (zip present l) P
  | None => P = []
  end.
(** the labels of the columns, below their nodes, from the past to the present *)
Definition col_labels (pos : layout) (r : R) (gl : list (list node)) (cols : option (list string)) (P : list shape) : Prop :=
  match cols with
  | Some l => length l = length gl ∧ Forall2 (λ '(g, s) T, ∃ x, T = SText (Some (x, 2 * r)%R) (LStr s) "black" None ∧ ∀ v, v ∈ g → (at_ pos v).1 = x)
      (zip gl l) (rev P)
  | None => P = []
  end.
