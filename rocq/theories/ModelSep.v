(** Model of the class SeparationSet (causal_discovery_utils/constraint_based.py 20-74) with the
    aliasing of its Python set objects: the dictionary maps a key to the address of a set object. *)
From Verif Require Import Base ModelPC.

(** set objects by address; [hnext] is the next free address *)
Record heap := Heap { hnext : nat; hcell : gmap nat nset }.

(** create a set object with the given contents *)
Definition alloc (h : heap) (S : nset) : nat * heap := (hnext h, Heap (1 + hnext h) (<[hnext h := S]> (hcell h))).

(** 20-26: [_sepset] and [nodes_set] *)
Record sepobj := SepObj { so_map : gmap (nat * nat) nat; so_nodes : nset }.

(** the contents of the set object at an address *)
Definition deref (h : heap) (a : nat) : nset := default ∅ (hcell h !! a).

(** [_sepset[key] = <new set S>] *)
Definition store (hm : heap * gmap (nat * nat) nat) (k : nat * nat) (S : nset) : heap * gmap (nat * nat) nat :=
  let '(a, h) := alloc hm.1 S in (h, <[k := a]> hm.2).

(** dictionary access *)
Definition addr_of (m : gmap (nat * nat) nat) (i j : node) : res nat :=
  match m !! hkey i j with Some a => Ok a | None => Raise KeyError end.

Section ordered.
Variable o : order.

(** 21-26 *)
Definition so_new (h : heap) (V : nset) : heap * sepobj :=
  let '(h, m) := foldl (λ hm '(i, j), store hm (hkey i j) ∅) (h, ∅) (comb2 (o 24 V)) in (h, SepObj m V).

(** 39-41 *)
Definition so_erase (h : heap) (s : sepobj) : heap * sepobj :=
  let '(h, m) := foldl (λ hm k, store hm k ∅) (h, so_map s) (map_to_list (so_map s)).*1 in (h, SepObj m (so_nodes s)).

(** 43-45 *)
Definition so_set (h : heap) (s : sepobj) (i j : node) (c : list node) : heap * sepobj :=
  let '(h, m) := store (h, so_map s) (hkey i j) (list_to_set c) in (h, SepObj m (so_nodes s)).

(** 47-49: the address of the stored set object *)
Definition so_get (s : sepobj) (i j : node) : res nat := addr_of (so_map s) i j.

(** 58-61 and 72-74: both loops read the source entry and store a copy in the target *)
Definition so_copy_loop (k : nat) (src : sepobj) (self : bool) (ns : nset) (h : heap) (t : sepobj) : res (heap * sepobj) :=
  r ← for_ (comb2 (o k ns)) (λ '(i, j) hm,
        a ← addr_of (if self then hm.2 else so_map src) i j;
        Ok (store hm (hkey i j) (deref hm.1 a))) (h, so_map t);
  Ok (r.1, SepObj r.2 (so_nodes t)).
End ordered.

(** ** Programs using several SeparationSet objects *)
Inductive sop :=
  | SNew (V : nset)                                  (* SeparationSet(V) *)
  | SErase (c : nat)                                 (* c.erase() *)
  | SSet (c : nat) (i j : node) (S : list node)      (* c.set_sepset(i, j, S) *)
  | SAdd (c : nat) (i j x : node)                    (* c.get_sepset(i, j).add(x): the caller mutates the result *)
  | SCopy (c : nat) (ns : option nset)               (* c.copy(ns), a new object *)
  | SCopyTo (c t : nat) (ns : option nset)           (* c.copy(ns, target_sepset=t) *)
  | SCopyFrom (t c : nat) (ns : nset).               (* t.copy_from(c, ns) *)

Definition nth_obj {A} (l : list A) (c : nat) : res A := match l !! c with Some x => Ok x | None => Raise IndexError end.

Section run.
Variable o : order.
Definition sep_world : Type := heap * list sepobj.

Definition do_sop (op : sop) (w : sep_world) : res sep_world :=
  let '(h, l) := w in
  match op with
  | SNew V => let '(h, s) := so_new o h V in Ok (h, l ++ [s])
  | SErase c => s ← nth_obj l c; let '(h, s) := so_erase h s in Ok (h, <[c := s]> l)
  | SSet c i j Z => s ← nth_obj l c; let '(h, s) := so_set h s i j Z in Ok (h, <[c := s]> l)
  | SAdd c i j x => s ← nth_obj l c; a ← so_get s i j;
      Ok (Heap (hnext h) (<[a := deref h a ∪ {[x]}]> (hcell h)), l)
  | SCopy c ns => s ← nth_obj l c;                                          (* 51-56 *)
      let V := default (so_nodes s) ns in
      let '(h, t) := so_new o h V in
      r ← so_copy_loop o 58 s false V h t; Ok (r.1, l ++ [r.2])
  | SCopyTo c t ns => s ← nth_obj l c; t' ← nth_obj l t;                    (* 51-63 *)
      r ← so_copy_loop o 58 s (bool_decide (c = t)) (default (so_nodes s) ns) h t'; Ok (r.1, <[t := r.2]> l)
  | SCopyFrom t c ns => s ← nth_obj l c; t' ← nth_obj l t;                  (* 65-74 *)
      r ← so_copy_loop o 72 s (bool_decide (c = t)) ns h t'; Ok (r.1, <[t := r.2]> l)
  end.

Definition run_sops (ops : list sop) : res sep_world := for_ ops do_sop (Heap 0 ∅, []).

(** what a caller reads with [c.get_sepset(i, j)] *)
Definition read_sop (w : sep_world) (c : nat) (i j : node) : res nset :=
  s ← nth_obj w.2 c; a ← so_get s i j; Ok (deref w.1 a).
End run.
