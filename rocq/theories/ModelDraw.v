(** Model of plot_utils/draw_graph.py over exact real numbers: the artists that are added to the axes, in order.
    Not modelled: matplotlib itself, fonts, images as labels, show. *)
From Coq Require Import Reals String Ascii.
From Verif Require Import Base ModelGraph ModelMixed ModelPAG ModelPDS ModelLayout.
Local Open Scope nat_scope.

(** a point of the canvas; [None] has nan as coordinates *)
Notation point := (option (R * R)).
(** text: str of a number or of a node; a string *)
Inductive label := LNum (n : nat) | LStr (s : string).
Notation labels := (gmap nat label).
(** arrowstyle '-', '-|>', '<|-', '<|-|>' *)
Inductive astyle := ANone | ATo | AFrom | ABoth.
(** artists: FancyArrowPatch of an edge (rad is the curvature), Circle, Rectangle, text (with its background), Arc, line of the grid *)
Inductive shape :=
| SLine (p q : point) (st : astyle) (c : string) (rad : R)
| SDisc (p : point) (r : R) (fill line : string)
| SBox (corner : R * R) (w h : R) (fill : option string) (line : string)
| SText (p : point) (l : label) (c : string) (bg : option string)
| SArc (r from to : R)
| SGrid (p q : R * R) (dotted : bool).

(** str.lower *)
Definition lower_ascii (a : ascii) : ascii :=
  let n := nat_of_ascii a in if decide (65 ≤ n ∧ n ≤ 90) then ascii_of_nat (n + 32) else a.
Fixpoint lower (s : string) : string :=
  match s with EmptyString => EmptyString | String a s => String (lower_ascii a) (lower s) end.

(** 61-68 *)
Definition arrow_style (m0 m1 : option mark) : astyle :=
  if decide (m0 = Some Directed ∧ m1 = Some Directed) then ABoth
  else if decide (m0 = Some Directed ∧ m1 ≠ Some Directed) then AFrom
  else if decide (m0 ≠ Some Directed ∧ m1 = Some Directed) then ATo
  else ANone.
(** 70-81 *)
Definition edge_color (lc : string) (m0 m1 : option mark) : string :=
  if decide (lower lc = "auto"%string) then
    if decide (m0 = Some Circle ∧ m1 = Some Circle) then "red"
    else if decide (m0 = Some Directed ∧ m1 = Some Tail ∨ m0 = Some Tail ∧ m1 = Some Directed) then "black"
    else if decide (m0 = Some Directed ∧ m1 = Some Directed) then "blue"
    else if decide (m0 = Some Tail ∧ m1 = Some Tail) then "blueviolet"
    else "limegreen"
  else lc.

(** 14-115.  [np]: the coordinates are numpy numbers (a division by zero gives nan), not Python numbers *)
Definition draw_edge (np : bool) (pos0 pos1 : R * R) (r : R) (m0 m1 : option mark) (lc fc : string)
    (text : option label) (tc : string) (curved : bool) : res (list shape) :=
  let cr := (r / 4)%R in
  let dx := (pos1.1 - pos0.1)%R in
  let dy := (pos1.2 - pos0.2)%R in
  let d := R_sqrt.sqrt (dx * dx + dy * dy) in
  let zero := if Req_EM_T d 0 then true else false in
  if zero && negb np then Raise ZeroDivisionError else
  let off m := if decide (m = Some Circle) then (cr + r)%R else r in
  let p0 : point := if zero then None else Some (pos0.1 + off m0 * (dx / d), pos0.2 + off m0 * (dy / d))%R in
  let p1 : point := if zero then None else Some (pos1.1 - off m1 * (dx / d), pos1.2 - off m1 * (dy / d))%R in
  rad ← (if curved : bool then if zero then Raise ZeroDivisionError else Ok (4 * r / d)%R else Ok 0%R);
  let mid : point := match p0, p1 with Some a, Some b => Some ((b.1 + a.1) / 2, (b.2 + a.2) / 2)%R | _, _ => None end in
  let T := match text with Some t => [SText mid t tc (Some fc)] | None => [] end in
  if decide (m0 = None ∧ m1 = None) then Ok (SLine p0 p1 ATo lc rad :: T) else
  let c := edge_color lc m0 m1 in
  Ok (SLine p0 p1 (arrow_style m0 m1) c rad ::
      (if decide (m0 = Some Circle) then [SDisc p0 cr fc c] else []) ++
      (if decide (m1 = Some Circle) then [SDisc p1 cr fc c] else []) ++ T).

Inductive contour := CRect | CCirc.
(** 118-169 *)
Definition draw_node (pos : R * R) (r : R) (lc fc : string) (l : label) (tc : string) (ct : option contour) : list shape :=
  (match ct with
   | Some CRect => SBox (pos.1 - r, pos.2 - r)%R (r * 2) (r * 2) (Some fc) lc
   | _ => SDisc (Some pos) r fc lc
   end) :: [SText (Some pos) l tc None].

(** the two types of graphs: a DAG; a PAG and its attribute visible_edges *)
Inductive drawable := DDag (g : graph) | DPag (g : mgraph) (vis : option (gset (nat * nat))).
(** graph.nodes_set *)
Definition dnodes (D : drawable) : nset := match D with DDag g => gnodes g | DPag g _ => mnodes g end.

Section draw.
Variable o : order.
(** graph.find_adjacent_nodes *)
Definition dnbr (D : drawable) (v : node) : nset :=
  match D with DDag g => find_adjacent o g v | DPag g _ => find_adj PAG_T g v None None end.

(** [nodes_pos[node] = f(nodes_pos[node])] for all the nodes; k is the line of the loop *)
Definition map_pos (k : nat) (V : nset) (f : R * R → R * R) (pos : layout) : res layout :=
  for_ (o k V) (λ v pos, p ← get_pos pos v; Ok (<[v := f p]> pos)) pos.
(** [node_labels[node]] *)
Definition get_label (lab : labels) (v : node) : res label :=
  match lab !! v with Some l => Ok l | None => Raise KeyError end.

(** 195-199 *)
Definition fill_labels (V : nset) (lab : labels) : labels :=
  foldl (λ lab v, match lab !! v with Some _ => lab | None => <[v := LNum v]> lab end) lab (o 197 V).

(** 233-247, 519-533: the artists of a node; [lab] gives its label *)
Definition node_shapes (r : R) (lat sel : nset) (bk fg : string) (p : R * R) (l : label) (v : node) : list shape :=
  if decide (v ∈ lat) then draw_node p r fg fg l bk (Some CRect)
  else if decide (v ∈ sel) then draw_node p r fg bk l fg (Some CRect)
  else draw_node p r fg bk l fg (Some CCirc).
Definition draw_nodes (k : nat) (V : nset) (r : R) (lat sel : nset) (bk fg : string) (pos : layout) (lab : labels) : res (list shape) :=
  for_ (o k V) (λ v P, l ← get_label lab v; p ← get_pos pos v; Ok (P ++ node_shapes r lat sel bk fg p l v)) [].

(** 252-255, 542-545 *)
Definition edge_text (vis : option (gset (nat * nat))) (i j : node) : option label :=
  match vis with
  | Some vs => if decide ((i, j) ∈ vs ∨ (j, i) ∈ vs) then Some (LStr "v") else None
  | None => None
  end.

(** 249-270, 537-567: the edges; [skip i j]: the pair is passed over, [cur i j]: is_curved (a node without entry in a
    dict raises), [dcur]: is_curved for the edges of a DAG; k, k1, k2: lines of the loops *)
Definition draw_edges (k k1 k2 : nat) (D : drawable) (r : R) (lc bk : string) (pos : layout)
    (skip : node → node → bool) (cur : node → node → res bool) (dcur : bool) : res (list shape) :=
  match D with
  | DPag g vis =>
    for_ (comb2 (o k (mnodes g))) (λ '(i, j) P,
      if skip i j then Ok P else
      b ← m_is_connected PAG_T g i j;
      if (b : bool) then
        c ← cur i j;
        pi ← get_pos pos i; pj ← get_pos pos j;
        E ← draw_edge true pi pj r (get_edge_mark PAG_T g j i) (get_edge_mark PAG_T g i j) lc bk (edge_text vis i j) "black" c;
        Ok (P ++ E)
      else Ok P) []
  | DDag g =>
    let lc := if decide (lc = "auto"%string) then "black"%string else lc in
    for_ (o k1 (gnodes g)) (λ c P, for_ (o k2 (parents g c)) (λ p P,
      if skip p c then Ok P else
      pp ← get_pos pos p; pc ← get_pos pos c;
      E ← draw_edge true pp pc r None None lc "white" None "black" dcur;
      Ok (P ++ E)) P) []
  end.

(** 172-273; the artists and the dict node_labels after the call (the one of the caller, if there is one).  [rnd]: the
    random numbers of the layouts *)
Definition draw_graph (rnd : nat → nat → R) (D : drawable) (lat sel : option nset) (bk fg lc : string)
    (lt : option string) (lab : option labels) (nsf : R) : res (list shape * labels) :=
  let sel := default ∅ sel in
  let lat := default ∅ lat in
  let V := dnodes D in
  let lab := fill_labels V (default ∅ lab) in
  let r := (4 / 100 * nsf)%R in
  let w := Window (-1000) 1000 (-1000) 1000 in
  fk ← force_init o V w None None (rnd 0) (rnd 1) (rnd 2) (rnd 3);
  let force := force_layout o V w (dnbr D) fk.2 100 fk.1 in
  pos ← match lt with
        | None => force
        | Some s =>
          if decide (s = "circular"%string) then (pos ← base_init o V w None (rnd 4) (rnd 5); circle_layout o V w None pos)
          else if decide (s = "force"%string) then force
          else Raise ValueError
        end;
  pos ← map_pos 228 V (λ p, ((p.1 / 1000 * (1 - 4 * r) + 1) / 2, (p.2 / 1000 * (1 - 4 * r) + 1) / 2)%R) pos;
  N ← draw_nodes 233 V r lat sel bk fg pos lab;
  E ← draw_edges 250 266 267 D r lc bk pos (λ _ _, false) (λ _ _, Ok false) false;
  Ok (N ++ E, lab).

(** ** draw_pds_tree *)
Definition degrees (a : R) : R := (a * PI / 180)%R.
(** 326-336 *)
Definition pds_grid_ring (a b : R) (r : nat) : list shape :=
  SArc (INR r) a b :: draw_node (INR r, - (2 / 10))%R 0 "white" "white" (LNum r) "black" None ++
  draw_node (- INR r, - (2 / 10))%R 0 "white" "white" (LNum r) "black" None.
(** 322-324, 338-354: stop_angle is not start_angle, so the first and the last angle are those with index 0 and 4 *)
Definition pds_grid_ray (a b radius : R) (i : nat) : shape :=
  let ang := (a + INR i * (b - a) / INR (5 - 1))%R in
  SGrid (0, 0)%R (radius * cos (degrees ang), radius * sin (degrees ang))%R
    (if decide (i = 0 ∨ i = 4) then false else true).

Section tree.
Variables (pag : option mgraph) (marked : nset) (r : R) (bk fg lc : string).
(** 385-395 *)
Definition child_angle (a b : R) (n i : nat) : R := (a + (b - a) * (1 / (2 * INR n) + INR i / INR n))%R.
Definition child_limit (a b : R) (n i : nat) : R := (a + INR i * (b - a) / INR n)%R.
Definition polar (ang : R) (depth : nat) : R * R := (cos (degrees ang) * INR depth, sin (degrees ang) * INR depth)%R.
(** 357-415.  The colours of 368-371 are computed and not used *)
Fixpoint draw_branch (t : ptree) (pos : R * R) (a b : R) (depth : nat) (lab : labels) : res (list shape * labels) :=
  let 'PTree x _ cs := t in
  let lab := match lab !! x with Some _ => lab | None => <[x := LNum x]> lab end in
  l ← get_label lab x;
  let n := length cs in
  (fix go (cs : list ptree) (i : nat) (P : list shape) (lab : labels) :=
    match cs with
    | [] => Ok (P, lab)
    | c :: cs =>
      let cpos := polar (child_angle a b n i) depth in
      match pag with
      | None => Raise AttributeError
      | Some g =>
        E ← draw_edge false pos cpos r (get_edge_mark PAG_T g x (origin c)) (get_edge_mark PAG_T g (origin c) x) lc "white" None "black" false;
        B ← draw_branch c cpos (child_limit a b n i) (child_limit a b n (i + 1)) (depth + 1) lab;
        go cs (i + 1) (P ++ E ++ B.1) B.2
      end
    end) cs 0 (draw_node pos r fg "white" l "black" None) lab.
End tree.

(** the limits of the axes: left, right, bottom, top *)
Record canvas := Canvas { c_left : R; c_right : R; c_bottom : R; c_top : R }.
(** 276-424: the limits of the axes, the artists, and node_labels after the call *)
Definition draw_pds_tree (t : ptree) (pag : option mgraph) (marked : option nset) (lab : option labels) (nsf : R)
    (bk fg lc : string) (circ : bool) : res (canvas * list shape * labels) :=
  let lab := default ∅ lab in
  let r := (25 / 100 * nsf)%R in
  let marked := default ∅ marked in
  let max_depth := get_max_depth t - 1 in
  let cr := (INR max_depth + r)%R in
  let stop := if circ then 360%R else 180%R in
  let cv := if circ then Canvas (- cr) cr (- cr) cr else Canvas (- cr) cr (- r) cr in
  let grid := concat (pds_grid_ring 0 stop <$> seq 1 max_depth) ++ (pds_grid_ray 0 stop (INR max_depth) <$> seq 0 5) in
  B ← draw_branch pag r fg lc t (0, 0)%R 0 stop 1 lab;
  Ok (cv, grid ++ B.1, B.2).

(** ** draw_temporal_graph *)
(** sorted(list(set(l))) *)
Fixpoint insert_sorted (x : R) (l : list R) : list R :=
  match l with
  | [] => [x]
  | y :: l' => if Rlt_dec x y then x :: l else if Req_EM_T x y then l else y :: insert_sorted x l'
  end.
Definition sorted_set (l : list R) : list R := foldl (λ l x, insert_sorted x l) [] l.
(** [l[i]] *)
Definition real_get (l : list R) (i : nat) : res R := match l !! i with Some x => Ok x | None => Raise IndexError end.
(** [l[-1]] *)
Definition list_last {A} (l : list A) : res A := match last l with Some x => Ok x | None => Raise IndexError end.
(** [l[0]] *)
Definition list_first {A} (l : list A) : res A := match l with x :: _ => Ok x | [] => Raise IndexError end.

(** 461-467: the dicts node_time and node_y_id *)
Definition node_places (gl : list (list node)) : gmap nat (Z * nat) :=
  foldl (λ m '(i, g), foldl (λ m '(y, v), <[v := (Z.of_nat i - Z.of_nat (length gl) + 1, y)%Z]> m) m (imap (λ y v, (y, v)) g))
    ∅ (imap (λ i g, (i, g)) gl).
(** 546-551 *)
Definition is_curved (m : gmap nat (Z * nat)) (i j : node) : res bool :=
  match m !! i, m !! j with
  | Some (ti, yi), Some (tj, yj) =>
    Ok (if decide (1 < Z.abs (ti - tj))%Z then true else if decide (1 < Z.abs (Z.of_nat yi - Z.of_nat yj))%Z then true else false)
  | _, _ => Raise KeyError
  end.

(** 427-569 *)
Definition draw_temporal_graph (D : drawable) (nsl : option (list (list node))) (ignore_homology : bool) (lat sel : option nset)
    (cols rows : option (list string)) (bk fg lc : string) : res (list shape) :=
  let sel := default ∅ sel in
  let lat := default ∅ lat in
  let V := dnodes D in
  let gl := rev (match nsl with Some gl => gl | None => [o 439 V] end) in
  cols ← match cols with
         | Some c => _ ← assert_ (bool_decide (length c = length gl)); Ok (Some (rev c))
         | None => Ok None
         end;
  _ ← match rows with
      | Some l => g ← list_last gl; assert_ (bool_decide (length l = length g))
      | None => Ok tt
      end;
  let places := node_places gl in
  let r := (4 / 100)%R in
  let w := Window (-1) 1 (-1) 1 in
  pos ← base_init o V w (Some gl) (λ _, 0%R) (λ _, 0%R);
  pos ← column_layout o V w (Some gl) pos;
  pos ← map_pos 483 V (λ p, ((p.1 * (1 - 6 * r) + 1) / 2, (p.2 * (1 - 6 * r) + 1) / 2)%R) pos;
  pos ← match rows with Some _ => map_pos 489 V (λ p, (p.1 * (1 - 4 * r) + 4 * r, p.2)%R) pos | None => Ok pos end;
  pos ← match cols with Some _ => map_pos 492 V (λ p, (p.1, p.2 * (1 - 2 * r) + 2 * r)%R) pos | None => Ok pos end;
  nsl ← match nsl with Some l => Ok l | None => Raise TypeError end;
  present ← list_first nsl;
  vb ← list_last present; bot ← get_pos pos vb;
  vt ← list_first present; top ← get_pos pos vt;
  let box := SBox (bot.1 - 2 * r, bot.2 - 15 / 10 * r)%R (4 * r)%R (top.2 - bot.2 + 3 * r)%R None "gray" in
  R_ ← match rows with
       | Some l => g ← list_last gl; for_ (imap (λ i s, (i, s)) l) (λ '(i, s) P,
           v ← list_get g i; p ← get_pos pos v; Ok (P ++ [SText (Some (0, p.2)%R) (LStr s) "black" None])) []
       | None => Ok []
       end;
  C_ ← match cols with
       | Some l =>
         xs ← for_ (o 514 V) (λ v xs, p ← get_pos pos v; Ok (xs ++ [p.1])) [];
         for_ (imap (λ i s, (i, s)) l) (λ '(i, s) P,
           x ← real_get (sorted_set xs) i; Ok (P ++ [SText (Some (x, r * 2)%R) (LStr s) "black" None])) []
       | None => Ok []
       end;
  N ← draw_nodes 519 V r lat sel bk fg pos (fill_labels V ∅);
  let pres : nset := list_to_set present in
  let skip i j := ignore_homology && bool_decide (i ∉ pres) && bool_decide (j ∉ pres) in
  E ← draw_edges 538 561 562 D r lc bk pos skip (is_curved places) true;
  Ok (box :: R_ ++ C_ ++ N ++ E).
End draw.
