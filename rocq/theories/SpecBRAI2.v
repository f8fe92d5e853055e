(** Specifications for B-RAI with separation sets. *)
From Coq Require Import QArith.
From Verif Require Import Base ModelGraph Spec ModelMixed SpecMixed ModelPC SpecPC ModelBRAI SpecBRAI ModelBRAI2.
Local Open Scope nat_scope.

(** the tree without its separation sets *)
Fixpoint forget (t : sggt) : ggt :=
  match t with
  | SLeaf en ex g _ sc => GLeaf en ex g sc
  | SNode en ex cs => GNode en ex (List.map (λ c, (List.map forget c.1, forget c.2)) cs)
  end.

(** for all pairs of W a set is recorded: the empty set of the initialisation or one given which the test answered
    independent for the pair *)
Definition sep_recorded (log : clog) (W : nset) (m : sepset) : Prop :=
  ∀ a b, a ∈ W → b ∈ W → a ≠ b → ∃ S, sep_get m a b = Ok S ∧ (S = ∅ ∨ tested log a b S true).

(** a leaf with the separation sets stored in it *)
Notation sleaf := (leaf * sepset)%type.
(** as [picks] *)
Inductive spicks : sggt → list sleaf → Prop :=
  | spicks_leaf en ex g sep sc : spicks (SLeaf en ex g sep sc) [(en, ex, g, sc, sep)]
  | spicks_node en ex cs ts d ls l : (ts, d) ∈ cs → Forall2 spicks ts ls → spicks d l → spicks (SNode en ex cs) (concat ls ++ l).

(** for pairs of W the sets are those of the last leaf *)
Definition sets_of_last (W : nset) (l : list sleaf) (m : sepset) : Prop :=
  ∃ x sep, last l = Some (x, sep) ∧ ∀ a b, a ∈ W → b ∈ W → a ≠ b → sep_get m a b = sep_get sep a b.
