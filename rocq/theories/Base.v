(** Modelling vocabulary shared by all files: results with exceptions, Python
    sets and their unspecified iteration order, loops.
    Models no specific file of /repo; it fixes how Python constructs are rendered. *)
From Coq Require Export Lia.
From stdpp Require Export base decidable gmap fin_sets sorting numbers list.

Notation node := nat (only parsing).
(** A Python [set] of nodes. *)
Notation nset := (gset nat).

(** Python exceptions used by the modelled code. *)
Inductive exn :=
  | AssertionError | KeyError | ValueError | RuntimeError | IndexError
  | ZeroDivisionError | AttributeError | TypeError.

(** Outcome of a call: normal return, exception, or "out of fuel".  [Diverges] is
    produced only when the explicit fuel of a loop is exhausted. *)
Inductive res (A : Type) :=
  | Ok (a : A)
  | Raise (e : exn)
  | Diverges.
Arguments Ok {A} a. Arguments Raise {A} e. Arguments Diverges {A}.

Global Instance exn_eq_dec : EqDecision exn.
Proof. solve_decision. Defined.

Global Instance res_eq_dec `{EqDecision A} : EqDecision (res A).
Proof. solve_decision. Defined.

Global Instance res_ret : MRet res := λ A a, Ok a.
Global Instance res_bind : MBind res := λ A B f m,
  match m with Ok a => f a | Raise e => Raise e | Diverges => Diverges end.

(** [assert b] *)
Definition assert_ (b : bool) : res unit := if b then Ok () else Raise AssertionError.

(** [returns m P]: the call returns normally and the value satisfies [P]. *)
Definition returns {A} (m : res A) (P : A → Prop) : Prop :=
  match m with Ok a => P a | _ => False end.

(** [raises m e]: the call raises [e]. *)
Definition raises {A} (m : res A) (e : exn) : Prop := m = Raise e.

(** Iteration order of Python sets: unspecified.  [o k S] is the order in which the
    loop at source line [k] visits the elements of [S]. *)
Definition order := nat → nset → list nat.
Definition iter_ok (o : order) : Prop := ∀ k S, o k S ≡ₚ elements S.

(** Two concrete orders, used to run the model. *)
Definition ord_up : order := λ _ S, elements S.
Definition ord_down : order := λ _ S, rev (elements S).
Definition ord_sorted : order := λ _ S, merge_sort le (elements S).

(** [for x in l: s = f x s] *)
Fixpoint for_ {A S} (l : list A) (f : A → S → res S) (s : S) : res S :=
  match l with
  | [] => Ok s
  | x :: l => s' ← f x s; for_ l f s'
  end.

(** loop with [break]: [f] returns the new state and whether to break *)
Fixpoint for_brk {A S} (l : list A) (f : A → S → res (S * bool)) (s : S) : res S :=
  match l with
  | [] => Ok s
  | x :: l => r ← f x s; if (r.2 : bool) then Ok r.1 else for_brk l f r.1
  end.

(** loop over a live set [get s] that the body may mutate: CPython raises
    RuntimeError at the next step when the size changed. *)
Fixpoint live_go {S} (get : S → nset) (n : nat) (l : list nat)
    (f : nat → S → res (S * bool)) (s : S) : res S :=
  if decide (size (get s) = n) then
    match l with
    | [] => Ok s
    | x :: l => r ← f x s; if (r.2 : bool) then Ok r.1 else live_go get n l f r.1
    end
  else Raise RuntimeError.
Definition for_live {S} (o : order) (k : nat) (get : S → nset)
    (f : nat → S → res (S * bool)) (s : S) : res S :=
  live_go get (size (get s)) (o k (get s)) f s.

(** [for x in l: if cond: return v] (first hit) *)
Fixpoint find_ {A B} (l : list A) (f : A → res (option B)) : res (option B) :=
  match l with
  | [] => Ok None
  | x :: l => r ← f x; match r with Some b => Ok (Some b) | None => find_ l f end
  end.

(** [any(f(x) for x in l)] with short-circuit *)
Fixpoint any_ {A} (l : list A) (f : A → res bool) : res bool :=
  match l with
  | [] => Ok false
  | x :: l => b ← f x; if (b : bool) then Ok true else any_ l f
  end.

(** [{x for x in l if f(x)}] *)
Fixpoint filter_ (l : list nat) (f : nat → res bool) : res nset :=
  match l with
  | [] => Ok ∅
  | x :: l => b ← f x; S ← filter_ l f; Ok (if (b : bool) then {[x]} ∪ S else S)
  end.

(** itertools.combinations(l, k), in lexicographic index order *)
Fixpoint combs {A} (k : nat) (l : list A) : list (list A) :=
  match k with
  | 0 => [[]]
  | S k' => match l with
            | [] => []
            | x :: l' => ((x ::.) <$> combs k' l') ++ combs k l'
            end
  end.

(** itertools.combinations(l, 2) as pairs *)
Fixpoint comb2 {A} (l : list A) : list (A * A) :=
  match l with
  | [] => []
  | x :: l => ((x,.) <$> l) ++ comb2 l
  end.
