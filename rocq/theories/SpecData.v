(** Specifications for data sets, independent of the model's loops. *)
From Coq Require Import QArith.
From Verif Require Import Base.
Local Open Scope nat_scope.

(** the number of joint configurations *)
Definition n_configs (vs : list nat) : nat := foldr Nat.mul 1 vs.

(** the index of a configuration when the first variable varies fastest (an array in Fortran order) *)
Fixpoint f_index (vs c : list nat) : nat :=
  match vs, c with s :: vs, x :: c => x + s * f_index vs c | _, _ => 0 end.

(** c is a configuration of variables with these cardinalities *)
Definition config (vs c : list nat) : Prop := Forall2 (λ x s, x < s) c vs.

(** number of records equal to c, total weight of the records equal to c *)
Definition n_records (data : list (list nat)) (c : list nat) : nat := length (filter (λ r, r = c) data).
Definition w_records (data : list (list nat)) (ws : list Q) (c : list nat) : Q :=
  foldr Qplus 0%Q (snd <$> filter (λ p, p.1 = c) (zip data ws)).

(** a table with the given number of rows of the given width *)
Definition table {A} (rows : list (list A)) (n m : nat) : Prop := length rows = n ∧ Forall (λ r, length r = m) rows.
Definition cell {A} (rows : list (list A)) (i j : nat) : option A := r ← rows !! i; r !! j.
