(** Model of cov_to_corr (causal_discovery_utils/stat_utils.py) and of the independence test that CLEANN derives from an
    attention matrix (causal_reasoning/cleann_explainer.py 26-41), over exact real numbers (no rounding). *)
From Coq Require Import Reals.
From Verif Require Import Base ModelCMI ModelParCorr.
Local Open Scope nat_scope.

(** a two-dimensional numpy array *)
Record mat := Mat { rows : nat; cols : nat; ent : nat → nat → R }.

(** stat_utils.py 14; the name says variance, but it is compared with the square root (16) *)
Definition min_variance : R := (/ 10 ^ 8)%R.

(** stat_utils.py 4-22 (13, ndim == 2, holds by typing; np.sqrt of a negative number is nan, which is not > min_variance).
    [cov * inv_std] divides column j by the j-th standard deviation, [* inv_std[:, newaxis]] row i by the i-th. *)
Definition cov_to_corr (m : mat) : res mat :=
  if negb (rows m =? cols m) then Raise AssertionError else
  if negb (forallb (λ i, ngt (nsqrt (ent m i i)) min_variance) (seq 0 (rows m))) then Raise AssertionError else
  Ok (Mat (rows m) (cols m) (λ i j, ent m i j * (1 / R_sqrt.sqrt (ent m j j)) * (1 / R_sqrt.sqrt (ent m i i)))%R).

(** np.matmul(a, a.transpose()) (cleann_explainer.py 27) *)
Definition gram (a : mat) : mat :=
  Mat (rows a) (rows a) (λ i j, rsum (λ k, ent a i k * ent a j k)%R (seq 0 (cols a))).

(** cleann_explainer.py 27-28: the correlation matrix given to the test (38) *)
Definition cleann_corr (a : mat) : res mat := cov_to_corr (gram a).
(** cleann_explainer.py 35-38: the test of a CLEANN object with num_samples = [ns], p_val_th = [th] *)
Definition cleann_statistic (a : mat) (inv : list nat → option (nat → nat → R)) (cdf : R → R) (ns : nat) (x y : nat) (zz : list nat) : res num :=
  c ← cleann_corr a; pc_statistic (ent c) inv cdf ns x y zz.
Definition cleann_cond_indep (a : mat) (inv : list nat → option (nat → nat → R)) (cdf : R → R) (ns : nat) (th : R) (x y : nat) (zz : list nat) : res bool :=
  c ← cleann_corr a; pc_cond_indep (ent c) inv cdf ns th x y zz.
