(** Specification of layouts: windows, ellipses, and the forces of Fruchterman and Reingold. *)
From Coq Require Import Reals.
From Verif Require Import Base ModelCMI ModelLayout.
Local Open Scope nat_scope.

Definition proper_window (w : window) : Prop := (w_left w < w_right w ∧ w_top w < w_bottom w)%R.
Definition in_window (w : window) (p : R * R) : Prop :=
  (w_left w <= p.1 <= w_right w ∧ w_top w <= p.2 <= w_bottom w)%R.
(** the ellipse that touches the four borders of the window *)
Definition on_ellipse (w : window) (p : R * R) : Prop :=
  (((p.1 - (w_left w + w_right w) / 2) / ((w_right w - w_left w) / 2)) ^ 2 +
   ((p.2 - (w_top w + w_bottom w) / 2) / ((w_bottom w - w_top w) / 2)) ^ 2 = 1)%R.
Definition distinct_positions (pos : layout) : Prop := ∀ u v p, pos !! u = Some p → pos !! v = Some p → u = v.
(** the groups contain every node exactly once *)
Definition group_sort_of (V : nset) (gs : option (list (list node))) : Prop :=
  match gs with Some gl => concat gl ≡ₚ elements V | None => True end.
(** v is the j-th member of the i-th group *)
Definition placed (gl : list (list node)) (i j : nat) (v : node) : Prop := ∃ g, gl !! i = Some g ∧ g !! j = Some v.

(** distance of two points, and at least 1 *)
Definition euclid (p q : R * R) : R := R_sqrt.sqrt ((p.1 - q.1) ^ 2 + (p.2 - q.2) ^ 2).
Definition dist1 (p q : R * R) : R := Rmax 1 (euclid p q).
Definition nowhere : R * R := (0, 0)%R.
Definition at_ (pos : layout) (v : node) : R * R := default nowhere (pos !! v).
(** one coordinate [c] of the total force on v: all the other nodes push it away, k²/d, its neighbours attract it, d²/k *)
Definition force (V : nset) (nbr : node → nset) (k : R) (pos : layout) (v : node) (c : R * R → R) : R :=
  (rsum (λ u, k ^ 2 / dist1 (at_ pos v) (at_ pos u) * ((c (at_ pos v) - c (at_ pos u)) / dist1 (at_ pos v) (at_ pos u))) (elements (V ∖ {[v]}))
   + rsum (λ u, dist1 (at_ pos v) (at_ pos u) ^ 2 / k * ((c (at_ pos u) - c (at_ pos v)) / dist1 (at_ pos v) (at_ pos u))) (elements (nbr v)))%R.
Definition net_force (V : nset) (nbr : node → nset) (k : R) (pos : layout) (v : node) : R * R :=
  (force V nbr k pos v fst, force V nbr k pos v snd).
(** the nearest point of the window *)
Definition clamp (w : window) (p : R * R) : R * R :=
  (Rmin (w_right w) (Rmax (w_left w) p.1), Rmin (w_bottom w) (Rmax (w_top w) p.2)).
