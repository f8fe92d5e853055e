(** Model of plot_utils/graph_layout.py over exact real numbers (no rounding); nan is a value.  The graph enters through
    its set of nodes V and the neighbours nbr v = graph.find_adjacent_nodes(v).  Window borders are Python numbers
    (a division by zero raises), k_const is not 0. *)
From Coq Require Import Reals.
From Verif Require Import Base.
Local Open Scope nat_scope.

(** 11-14 *)
Record window := Window { w_left : R; w_right : R; w_top : R; w_bottom : R }.
(** self.pos (29): a dict from nodes to a position *)
Notation layout := (gmap nat (R * R)).

(** np.linspace(a, b, n)[i] *)
Definition linspace (a b : R) (n i : nat) : R :=
  if decide (n = 1) then a else (a + INR i * ((b - a) / INR (n - 1)))%R.
(** [self.pos[node][0] = p.1; self.pos[node][1] = p.2] *)
Definition set_pos (pos : layout) (v : node) (p : R * R) : res layout :=
  match pos !! v with Some _ => Ok (<[v := p]> pos) | None => Raise KeyError end.
(** [self.pos[node]] *)
Definition get_pos (pos : layout) (v : node) : res (R * R) :=
  match pos !! v with Some p => Ok p | None => Raise KeyError end.
(** [l[i]] *)
Definition list_get (l : list node) (i : nat) : res node :=
  match l !! i with Some v => Ok v | None => Raise IndexError end.

Section layout.
Variable o : order.
Variable V : nset.
Variable w : window.
(** group_sort *)
Variable gs : option (list (list node)).

(** 19-24, 110-113: k is the line of list(graph.nodes_set) *)
Definition nodes_order (k : nat) : list node := match gs with Some gs => concat gs | None => o k V end.

(** 9-31; ux and uy are the random values of 25-26 *)
Definition base_init (ux uy : nat → R) : res layout :=
  let n := size V in let l := nodes_order 24 in
  for_ (seq 0 n) (λ i pos,
    v ← list_get l i;
    Ok (<[v := match gs with
               | Some _ => (linspace (w_left w) (w_right w) n i, linspace (w_top w) (w_bottom w) n i)
               | None => (ux i * (2 / 10), uy i * (2 / 10))%R
               end]> pos)) ∅.

(** CircleLayout: 106-107 (constructor of BaseLayout), calc_layout 109-126 *)
Definition circle_layout (pos : layout) : res layout :=
  let n := size V in let l := nodes_order 113 in
  let xrad := ((w_right w - w_left w) / 2)%R in
  let yrad := ((w_bottom w - w_top w) / 2)%R in
  let cx := ((w_right w + w_left w) / 2)%R in
  let cy := ((w_bottom w + w_top w) / 2)%R in
  for_ (seq 0 n) (λ i pos,
    v ← list_get l i;
    let angle := linspace 0 (2 * PI) (n + 1) i in
    set_pos pos v (cx + xrad * cos angle, cy + yrad * sin angle)%R) pos.

(** 141-144 *)
Definition max_group_len (gl : list (list node)) : nat :=
  foldl (λ m g, if decide (m < length g) then length g else m) 0 gl.
(** ColumnLayout: 130-131 (constructor of BaseLayout), calc_layout 133-161 *)
Definition column_layout (pos : layout) : res layout :=
  let gl := match gs with None => [o 135 V] | Some gl => gl end in
  let mg := max_group_len gl in
  let ng := length gl in
  let x_step := if decide (1 < ng) then ((w_right w - w_left w) / INR (ng - 1))%R else 0%R in
  let x_offset := if decide (1 < ng) then w_left w else ((w_right w + w_left w) / 2)%R in
  if decide (mg = 1) then Raise ZeroDivisionError else
  let y_step := ((w_top w - w_bottom w) / (INR mg - 1))%R in
  for_ (imap (λ i g, (i, g)) gl) (λ '(i, g) pos,
    for_ (imap (λ j v, (j, v)) g) (λ '(j, v) pos,
      set_pos pos v (x_step * INR i + x_offset, y_step * INR j + w_bottom w)%R) pos) pos.

(** ForceDirectedLayout *)
Variable nbr : node → nset.

(** 67-69, 77-79 *)
Definition fdist (dv : R * R) : R := Rmax (R_sqrt.sqrt (dv.1 * dv.1 + dv.2 * dv.2)) 1.
Definition vsub (p q : R * R) : R * R := (p.1 - q.1, p.2 - q.2)%R.
Definition vadd (p q : R * R) : R * R := (p.1 + q.1, p.2 + q.2)%R.
Definition vscale (c : R) (p : R * R) : R * R := (c * p.1, c * p.2)%R.
Section forces.
Variable k : R.
(** 56-57 *)
Definition attraction (d : R) : R := (d * d / k)%R.
Definition repulsion (d : R) : R := (k * k / d)%R.
(** 62-71 *)
Definition repulsive_forces (pos : layout) : res layout :=
  for_ (o 64 V) (λ i rep,
    f ← for_ (o 66 (V ∖ {[i]})) (λ j f,
      pi ← get_pos pos i; pj ← get_pos pos j;
      let dv := vsub pi pj in
      Ok (vadd f (vscale (repulsion (fdist dv)) (dv.1 / fdist dv, dv.2 / fdist dv)%R))) (0, 0)%R;
    Ok (<[i := f]> rep)) ∅.
(** 73-81 *)
Definition attracting_forces (pos : layout) : res layout :=
  for_ (o 75 V) (λ i att,
    f ← for_ (o 76 (nbr i)) (λ j f,
      pi ← get_pos pos i; pj ← get_pos pos j;
      let dv := vsub pi pj in
      Ok (vsub f (vscale (attraction (fdist dv)) (dv.1 / fdist dv, dv.2 / fdist dv)%R))) (0, 0)%R;
    Ok (<[i := f]> att)) ∅.

(** Python's max(a, b) and min(a, b); [None] is nan, every comparison with it is false *)
Definition py_max (a : R) (b : option R) : R :=
  match b with Some b => if Rlt_dec a b then b else a | None => a end.
Definition py_min (a b : R) : R := if Rlt_dec b a then b else a.
(** 97-99: the new position; the components of 0 / 0 are nan *)
Definition moved (p disp : R * R) (max_disp : R) : option (R * R) :=
  let nrm := R_sqrt.sqrt (disp.1 * disp.1 + disp.2 * disp.2) in
  if Req_EM_T nrm 0 then None else
  Some (vadd p (vscale (py_min nrm max_disp) (disp.1 / nrm, disp.2 / nrm)%R)).
(** 93-101 *)
Definition force_step (i : nat) (pos : layout) : res layout :=
  let max_disp := (k / INR (i + 1))%R in
  rep ← repulsive_forces pos;
  att ← attracting_forces pos;
  for_ (o 96 V) (λ v pos,
    r ← get_pos rep v; a ← get_pos att v; p ← get_pos pos v;
    let q := moved p (vadd r a) max_disp in
    set_pos pos v (py_min (w_right w) (py_max (w_left w) (fst <$> q)), py_min (w_bottom w) (py_max (w_top w) (snd <$> q)))) pos.
(** 83-102 *)
Definition force_layout (num_iter : nat) (pos : layout) : res layout :=
  for_ (seq 0 num_iter) force_step pos.
End forces.

(** 35-60: the positions and k_const.  The circle layout (59-60) is computed and not used *)
Definition force_init (k_const : option R) (ux uy ux' uy' : nat → R) : res (layout * R) :=
  pos ← base_init ux uy;
  k ← match k_const with
      | Some k => Ok k
      | None =>
        if decide (size V = 0) then Raise ZeroDivisionError else
        let a := ((w_right w - w_left w) * (w_bottom w - w_top w) / INR (size V))%R in
        if Rle_dec 0 a then Ok (R_sqrt.sqrt a) else Raise ValueError
      end;
  pos' ← base_init ux' uy';
  _ ← circle_layout pos';
  Ok (pos, k).
End layout.
