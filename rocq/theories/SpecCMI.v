(** Specification of the empirical conditional mutual information, in terms of records only. *)
From Coq Require Import QArith Qreals Reals.
From Verif Require Import Base ModelCI.
Local Open Scope nat_scope.

(** the values of some variables in a record *)
Definition proj (vars : list nat) (r : list nat) : list nat := (λ v, r !!! v) <$> vars.

(** total weight of the records in which the variables have the given values *)
Definition mass (recs : list (list nat * R)) (vars vals : list nat) : R :=
  foldr Rplus 0%R ((λ p : list nat * R, if decide (proj vars p.1 = vals) then p.2 else 0%R) <$> recs).

(** the mean over the records of the pointwise mutual information ln (P(x,y|z) / (P(x|z) P(y|z))), each probability
    being a ratio of masses *)
Definition emp_cmi (recs : list (list nat * R)) (x y : nat) (zz : list nat) : R :=
  (foldr Rplus 0 ((λ p : list nat * R,
     let m vars := mass recs vars (proj vars p.1) in
     p.2 * ln (m (x :: y :: zz) * m zz / (m (x :: zz) * m (y :: zz)))) <$> recs) / INR (length recs))%R.

(** empirical conditional independence *)
Definition emp_indep (recs : list (list nat * R)) (x y : nat) (zz : list nat) : Prop :=
  ∀ a b c, (mass recs (x :: y :: zz) (a :: b :: c) * mass recs zz c = mass recs (x :: zz) (a :: c) * mass recs (y :: zz) (b :: c))%R.

(** records with weight 1, with given weights *)
Definition unweighted (data : list (list nat)) : list (list nat * R) := (λ r, (r, 1%R)) <$> data.
Definition weighted (data : list (list nat)) (ws : list Q) : list (list nat * R) := zip_with (λ r w, (r, Q2R w)) data ws.
Definition records (data : list (list nat)) (ws : option (list Q)) : list (list nat * R) :=
  match ws with None => unweighted data | Some ws => weighted data ws end.
(** weights that can be used with a data set *)
Definition weights_ok (data : list (list nat)) (ws : option (list Q)) : Prop :=
  match ws with None => True | Some ws => length ws = length data ∧ Forall (λ w, 0 <= w)%Q ws end.

(** every record repeated as often as its weight says *)
Definition repeated (data : list (list nat)) (ks : list nat) : list (list nat) := concat (zip_with (λ r k, replicate k r) data ks).
Definition Qnat (k : nat) : Q := inject_Z (Z.of_nat k).

(** what the answers of a history of queries should say, the threshold being the one in force *)
Fixpoint expected (indep : R → nat → nat → list nat → Prop) (th : R) (ops : list (stat_op R)) : list Prop :=
  match ops with
  | [] => []
  | Query x y zz :: ops => indep th x y zz :: expected indep th ops
  | SetThreshold t :: ops => expected indep t ops
  end.
