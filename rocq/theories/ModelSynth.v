(** Model of experiment_utils/synthetic_graphs.py.  Random numbers are parameters: [rnd k] is the
    k-th value of random.random(); [ri n u] is the value of random.randint(0, u) drawn for node n;
    [rs l k] is the value of random.sample(l, k).  Floating-point numbers are rationals. *)
From Coq Require Import QArith.
From Verif Require Import Base ModelGraph ModelPerf.
Local Open Scope nat_scope.

(** [set(range(n))] *)
Definition range_set (n : nat) : nset := list_to_set (seq 0 n).

(** [a < b] on numbers *)
Definition qlt (a b : Q) : bool := negb (Qle_bool b a).

Section random.
Variable o : order.
Variable rnd : nat → Q.

(** 6-17.  The state is the graph and the number of values drawn so far *)
Definition create_random_dag (n : nat) (e : Q) (k : nat) : res (graph * nat) :=
  for_ (seq 0 (n - 1)) (λ p s,
    for_ (seq (p + 1) (n - (p + 1))) (λ c '(g, k),
      pr ← qdiv e (qn (n - 1));
      if qlt (rnd k) pr then g' ← add_edges g {[p]} c; Ok (g', S k) else Ok (g, S k)) s)
    (empty_graph (range_set n), k).

(** 39-50: [left_] is num_dags_timeout - acc + 1, the number of graphs that may still be sampled *)
Fixpoint connected_dag_loop (fuel left_ : nat) (n : nat) (e : Q) (k : nat) : res (option graph * nat) :=
  match left_ with
  | 0 => Ok (None, k)
  | S left_ =>
    gk ← create_random_dag n e k;
    b ← is_graph_connected o fuel gk.1 None;
    if (b : bool) then Ok (Some gk.1, gk.2) else connected_dag_loop fuel left_ n e gk.2
  end.
Definition create_random_connected_dag (fuel : nat) (n : nat) (e : Q) (timeout : nat) (k : nat) : res (option graph * nat) :=
  connected_dag_loop fuel (timeout + 1) n e k.

Variable ri : nat → nat → nat.
Variable rs : list nat → nat → list nat.

(** 20-36 *)
Definition create_random_dag_max_fan (n max_fan_in : nat) : res graph :=
  for_ (seq 1 (n - 1)) (λ i g,
    let k := ri i (min i max_fan_in) in
    if decide (0 < k) then add_edges g (list_to_set (rs (seq 0 i) k)) i else Ok g)
    (empty_graph (range_set n)).

(** 53-73 *)
Definition select_latent_variables (g : graph) : nset :=
  let parentless := foldl (λ S n, if decide (size (parents g n) = 0) then S ∪ {[n]} else S) ∅ (o 63 (gnodes g)) in
  foldl (λ S p, if decide (2 ≤ size (find_children o g p None)) then S ∪ {[p]} else S) ∅ (o 69 parentless).

(** 76-88.  [sets]: random.sample accepts a set (Python up to 3.10); otherwise it raises TypeError *)
Definition create_random_dag_with_latents (sets : bool) (fuel : nat) (n : nat) (e : Q) (timeout : nat) : res (graph * nset * nset) :=
  dk ← create_random_connected_dag fuel n e timeout 0;
  match dk.1 with
  | None => Raise AttributeError
  | Some g =>
    let pot := select_latent_variables g in
    if sets then
      let lat := list_to_set (rs (o 85 pot) (size pot / 2)) in
      Ok (g, gnodes g ∖ lat, lat)
    else Raise TypeError
  end.

(** 91-112, one record: [noise v] is the noise term of node v; [sgn v p] and [mag v p] are the random sign bit and the uniform
    value drawn for the edge p --> v.  Node names are column indexes; a name outside the array raises IndexError *)
Definition edge_weight (sgn : node → node → nat) (mag : node → node → Q) (v p : node) : Q := ((qn 2 * qn (sgn v p) - 1) * mag v p)%Q.
Definition col_ok (g : graph) (v : node) : res unit :=
  if decide (v < size (gnodes g)) then Ok () else Raise IndexError.
Definition sample_record (fuel : nat) (g : graph) (noise : node → Q) (sgn : node → node → nat) (mag : node → node → Q) : res (node → Q) :=
  l ← find_topological_order o fuel g None;
  for_ l (λ v x, for_ (o 106 (parents g v)) (λ p x,
    _ ← col_ok g v; _ ← col_ok g p;
    Ok (λ u, if decide (u = v) then (x v + edge_weight sgn mag v p * x p)%Q else x u)) x) noise.
End random.
