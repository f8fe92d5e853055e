(** Model of causal_discovery_algs/brai.py with the separation sets, which ModelBRAI.v leaves out, and of sampling
    after is_scored has been switched off.  Lines are those of brai.py unless a file is named. *)
From Coq Require Import QArith.
From Verif Require Import Base ModelGraph ModelMixed ModelPC ModelRAI ModelFCI ModelPerf ModelSynth ModelBRAI.
Local Open Scope nat_scope.

(** 11-93: as [ggt]; a leaf stores a SeparationSet (179) *)
Inductive sggt :=
  | SLeaf (en ex : nset) (g : mgraph) (sep : sepset) (sc : score)
  | SNode (en ex : nset) (cookies : list (list sggt * sggt)).

Section ordered.
Variable o : order.
Variable ci : citest.
Variable overwrite : bool.
(** bound for loops and recursion *)
Variable lf : nat.
(** 109: the nodes of self.graph *)
Variable V : nset.

(** constraint_based.py 51-63 without a target: a new SeparationSet for [ns] *)
Definition sep_copy (m : sepset) (ns : nset) : res sepset :=
  for_ (comb2 (o 58 ns)) (λ '(i, j) t, x ← sep_get m i j; Ok (<[hkey i j := x]> t)) (sep_init o ns).

(** constraint_based.py 39-41 *)
Definition sep_erase (m : sepset) : sepset := (λ _, ∅) <$> m.

(** ** learning; the arguments as in ModelBRAI *)
Variable scored custom : bool.
Variable bdeu : graph → nset → Q.
Variable num_of_hyp : nat.

(** 160-183 *)
Definition make_leaf_s (en ex : nset) (s : pc_state) : res sggt :=
  r ← leaf_score o lf V scored custom bdeu en ex (pc_graph s);
  sep ← sep_copy (pc_sep s) (en ∪ ex);
  _ ← assert_ r.2;
  Ok (SLeaf en ex (pd_copy (pc_graph s)) sep r.1).

(** 143-229 *)
Fixpoint brai_rec_s (fuel : nat) (en ex : nset) (k : nat) (s : pc_state) : res (sggt * pc_state) :=
  match fuel with
  | 0 => Diverges
  | S fuel =>
    if rai_exit o (pc_graph s) en k then t ← make_leaf_s en ex s; Ok (t, s) else
    let g0 := pc_graph s in
    let sep0 := pc_sep s in
    r ← for_ (seq 0 num_of_hyp) (λ _ '(cs, s),
      sep ← sep_copy sep0 V;
      s ← refine_and_orient o ci overwrite lf en ex k (PCState (pd_copy g0) sep (pc_log s));
      r ← rai_split o lf (pc_graph s) en;
      let '(d, l, a) := r in
      r ← for_ l (λ A '(ts, s), r ← brai_rec_s fuel A ex (S k) s; Ok (ts ++ [r.1], r.2)) ([], s);
      let '(ts, s) := r in
      r ← brai_rec_s fuel d (a ∪ ex) (S k) s;
      Ok (cs ++ [(ts, r.1)], r.2)) ([], s);
    Ok (SNode en ex r.1, r.2)
  end.

(** ** sampling *)
Variable pick : nat → list score → nat.

(** 243-311: adds a sample of the tree to the graph [p] and the separation sets [m] *)
Fixpoint sample_rec_s (fuel : nat) (temp : Q) (t : sggt) (p : mgraph) (m : sepset) (n : nat)
    : res (mgraph * sepset * score * nat) :=
  match fuel with
  | 0 => Diverges
  | S fuel =>
    match t with
    | SLeaf en ex g sep sc =>
      p ← add_edges_from o p g (Some en) (Some ex);
      m ← sep_copy_from o m sep (en ∪ ex);
      Ok (p, m, sc, n)
    | SNode en ex cs =>
      r ← for_ cs (λ '(ts, d) '(res, n),
        r ← for_ ts (λ t '(p, m, sc, n),
              r ← sample_rec_s fuel temp t p m n;
              let '(p, m, sc', n) := r in Ok (p, m, score_add sc sc', n)) (mempty V, sep_init o V, Some 0%Q, n);
        let '(p, m, sc, n) := r in
        r ← sample_rec_s fuel temp d p m n;
        let '(p, m, sc', n) := r in
        Ok (res ++ [(p, m, score_add sc sc')], n)) ([], n);
      let '(res, n) := r in
      i ← select pick temp n (res.*2);
      match res !! i with
      | None => Raise IndexError
      | Some (q, m', sc) =>
        p ← add_edges_from o p q (Some en) (Some ex);
        m ← sep_copy_from o m m' (en ∪ ex);
        Ok (p, m, sc, S n)
      end
    end
  end.

(** 231-241 with is_scored; [m] is self.sepset before the call *)
Definition sample_cpdag_s (temp : Q) (t : sggt) (m : sepset) (n : nat) : res (mgraph * sepset * score * nat) :=
  r ← sample_rec_s lf temp t (mempty V) (sep_erase m) n;
  let '(p, m, sc, n) := r in
  g ← re_orient o lf p;
  Ok (g, m, sc, n).

(** 97-100, 129-141: the tree, the log, the sampled graph and its separation sets *)
Definition brai_learn_s : res (sggt * clog * mgraph * sepset) :=
  _ ← assert_ (bool_decide (0 < num_of_hyp));
  r ← brai_rec_s lf V ∅ 0 (pc_init o V);
  let '(t, s) := r in
  r ← sample_cpdag_s 0 t (pc_sep s) 0;
  let '(g, m, _, _) := r in
  Ok (t, pc_log s, g, m).

(** ** sampling without scores *)
(** 325: np.random.choice(c); the first argument counts the draws *)
Variable choice : nat → nat → nat.

(** 313-334 *)
Fixpoint sample_rec_u (fuel : nat) (t : sggt) (p : mgraph) (m : sepset) (n : nat) : res (mgraph * sepset * nat) :=
  match fuel with
  | 0 => Diverges
  | S fuel =>
    match t with
    | SLeaf en ex g sep sc =>
      p ← add_edges_from o p g (Some en) (Some ex);
      m ← sep_copy_from o m sep (en ∪ ex);
      Ok (p, m, n)
    | SNode en ex cs =>
      match cs !! choice n (length cs) with
      | None => Raise IndexError
      | Some (ts, d) =>
        r ← for_ ts (λ t '(p, m, n), sample_rec_u fuel t p m n) (p, m, S n);
        let '(p, m, n) := r in
        sample_rec_u fuel d p m n
      end
    end
  end.

(** 231-241 without is_scored; the score is None *)
Definition sample_cpdag_u (t : sggt) (m : sepset) (n : nat) : res (mgraph * sepset * nat) :=
  r ← sample_rec_u lf t (mempty V) (sep_erase m) n;
  let '(p, m, n) := r in
  g ← re_orient o lf p;
  Ok (g, m, n).
End ordered.
