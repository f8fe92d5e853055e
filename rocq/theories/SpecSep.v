(** Specification of separation-set containers: a container is a partial function from unordered
    pairs (two-element sets) to sets; no keys, no addresses. *)
From Verif Require Import Base ModelSep.

Record scont := SCont { sc_map : nset → option nset; sc_nodes : nset }.

(** p is a pair of two different nodes of V *)
Definition pair_in (V p : nset) : Prop := p ⊆ V ∧ size p = 2.
Global Instance pair_in_dec V p : Decision (pair_in V p).
Proof. unfold pair_in. apply _. Defined.

Definition sc_upd (f : nset → option nset) (p : nset) (S : option nset) : nset → option nset :=
  λ q, if decide (q = p) then S else f q.

(** the pairs of V get the values of the source *)
Definition sc_copy (src tgt : nset → option nset) (V : nset) : nset → option nset :=
  λ p, if decide (pair_in V p) then src p else tgt p.

(** all pairs of V have a value *)
Definition sc_total (f : nset → option nset) (V : nset) : Prop := ∀ i j, i ∈ V → j ∈ V → i ≠ j → f {[i; j]} ≠ None.

(** the effect of an operation on the containers; [None]: KeyError *)
Inductive sc_step : sop → list scont → option (list scont) → Prop :=
  | sc_new V l : sc_step (SNew V) l (Some (l ++ [SCont (λ p, if decide (pair_in V p) then Some ∅ else None) V]))
  | sc_erase c l s : l !! c = Some s →
      sc_step (SErase c) l (Some (<[c := SCont (λ p, (λ _, ∅) <$> sc_map s p) (sc_nodes s)]> l))
  | sc_set c i j S l s : l !! c = Some s →
      sc_step (SSet c i j S) l (Some (<[c := SCont (sc_upd (sc_map s) {[i; j]} (Some (list_to_set S))) (sc_nodes s)]> l))
  | sc_add c i j x l s S : l !! c = Some s → sc_map s {[i; j]} = Some S →
      sc_step (SAdd c i j x) l (Some (<[c := SCont (sc_upd (sc_map s) {[i; j]} (Some (S ∪ {[x]}))) (sc_nodes s)]> l))
  | sc_add_err c i j x l s : l !! c = Some s → sc_map s {[i; j]} = None → sc_step (SAdd c i j x) l None
  | sc_copy_new c ns l s : l !! c = Some s → let V := default (sc_nodes s) ns in sc_total (sc_map s) V →
      sc_step (SCopy c ns) l (Some (l ++ [SCont (sc_copy (sc_map s) (λ _, None) V) V]))
  | sc_copy_new_err c ns l s : l !! c = Some s → ¬ sc_total (sc_map s) (default (sc_nodes s) ns) → sc_step (SCopy c ns) l None
  | sc_copy_to c t ns l s s' : l !! c = Some s → l !! t = Some s' → let V := default (sc_nodes s) ns in sc_total (sc_map s) V →
      sc_step (SCopyTo c t ns) l (Some (<[t := SCont (sc_copy (sc_map s) (sc_map s') V) (sc_nodes s')]> l))
  | sc_copy_to_err c t ns l s s' : l !! c = Some s → l !! t = Some s' → ¬ sc_total (sc_map s) (default (sc_nodes s) ns) →
      sc_step (SCopyTo c t ns) l None
  | sc_copy_from t c ns l s s' : l !! c = Some s → l !! t = Some s' → sc_total (sc_map s) ns →
      sc_step (SCopyFrom t c ns) l (Some (<[t := SCont (sc_copy (sc_map s) (sc_map s') ns) (sc_nodes s')]> l))
  | sc_copy_from_err t c ns l s s' : l !! c = Some s → l !! t = Some s' → ¬ sc_total (sc_map s) ns →
      sc_step (SCopyFrom t c ns) l None.

(** a sequence of operations; after a KeyError nothing more is executed *)
Inductive sc_run : list sop → list scont → option (list scont) → Prop :=
  | sc_nil l : sc_run [] l (Some l)
  | sc_cons op ops l l' r : sc_step op l (Some l') → sc_run ops l' r → sc_run (op :: ops) l r
  | sc_err op ops l : sc_step op l None → sc_run (op :: ops) l None.

(** the program only uses objects that exist; n objects exist before it *)
Fixpoint scoped (n : nat) (ops : list sop) : Prop :=
  match ops with
  | [] => True
  | SNew _ :: r => scoped (1 + n) r
  | SErase c :: r | SSet c _ _ _ :: r | SAdd c _ _ _ :: r => c < n ∧ scoped n r
  | SCopy c _ :: r => c < n ∧ scoped (1 + n) r
  | SCopyTo c t _ :: r | SCopyFrom t c _ :: r => c < n ∧ t < n ∧ scoped n r
  end.
