(** Model of CondIndepParCorr (causal_discovery_utils/cond_indep_tests.py 294-346) over exact real numbers (no
    rounding).  numpy's infinities and nan are values.  numpy.linalg.inv is a parameter: [inv idx] is the inverse of
    the correlation matrix of the variables idx, [None] when it raises LinAlgError (here ValueError, of which it is a
    subclass).  scipy's stats.norm.cdf is a parameter [cdf]. *)
From Coq Require Import Reals.
From Verif Require Import Base ModelCMI.
Local Open Scope nat_scope.

(** a numpy float: finite, infinite of either sign, nan *)
Inductive num := Fin (r : R) | Inf | Nan.

(** [a / b] for finite a *)
Definition ndiv (a : R) (b : num) : num :=
  match b with
  | Fin b => if Req_EM_T b 0 then (if Req_EM_T a 0 then Nan else Inf) else Fin (a / b)
  | Inf => Fin 0
  | Nan => Nan
  end.
(** np.sqrt *)
Definition nsqrt (a : R) : num := if Rle_dec 0 a then Fin (R_sqrt.sqrt a) else Nan.
(** [statistic > threshold] (268); a comparison with nan is false *)
Definition ngt (v : num) (t : R) : bool :=
  match v with Fin v => if Rlt_dec t v then true else false | _ => false end.

(** np.corrcoef(data, rowvar=False): the covariance (divided by the number of records minus one) divided by the
    standard deviations, clipped to [-1, 1].  The columns are assumed not to be constant, so nothing is divided by 0. *)
Definition mean (d : nat → R) (n : nat) : R := (rsum d (seq 0 n) / INR n)%R.
Definition cov (data : nat → nat → R) (n : nat) (a b : nat) : R :=
  (rsum (λ t, (data t a - mean (λ t, data t a) n) * (data t b - mean (λ t, data t b) n)) (seq 0 n) / INR (n - 1))%R.
Definition corrcoef (data : nat → nat → R) (n : nat) (a b : nat) : R :=
  Rmax (-1) (Rmin 1 (cov data n a b / R_sqrt.sqrt (cov data n a a) / R_sqrt.sqrt (cov data n b b))).

Section statistic.
Variable corr : nat → nat → R.
Variable inv : list nat → option (nat → nat → R).
Variable cdf : R → R.
(** num_records *)
Variable n : nat.

(** 330-346; [k] is len(zz) *)
Definition p_value (par_corr : num) (k : nat) : num :=
  match par_corr with
  | Nan => Nan                                                 (* nan >= 1.0 is false, and the rest is nan *)
  | Inf => Fin 0
  | Fin r =>
    if Rle_dec 1 (Rabs r) then Fin 0 else
    let z := (1/2 * ln (1 + 2 * r / (1 - r)))%R in
    match nsqrt (INR n - INR (k + 2) - 1) with
    | Fin s => Fin (2 * (1 - cdf (Rabs (s * z))))
    | _ => Nan
    end
  end.

(** 308-346 *)
Definition pc_statistic (x y : nat) (zz : list nat) : res num :=
  match zz with
  | [] =>
    if Rle_dec 1 (corr x y) then Ok (Fin 0) else Ok (p_value (Fin (corr x y)) 0)
  | [z] =>
    if Rle_dec 1 (corr x z) then Ok (Fin 0) else
    if Rle_dec 1 (corr y z) then Ok (Fin 0) else
    Ok (p_value (match nsqrt ((1 - corr x z ^ 2) * (1 - corr y z ^ 2)) with
                 | Fin s => ndiv (corr x y - corr x z * corr y z) (Fin s)
                 | s => s
                 end) 1)
  | _ =>
    match inv (x :: y :: zz) with
    | None => Raise ValueError
    | Some N => Ok (p_value (ndiv (- N 0 1) (nsqrt (Rabs (- N 0 0 * - N 1 1)))) (length zz))
    end
  end.

(** cond_indep (263-270) without the cache (see ModelCI) *)
Definition pc_cond_indep (threshold : R) (x y : nat) (zz : list nat) : res bool :=
  s ← pc_statistic x y zz; Ok (ngt s threshold).
End statistic.
