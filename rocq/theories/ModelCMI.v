(** Model of CondIndepCMI.calc_statistic (causal_discovery_utils/cond_indep_tests.py 364-421) over exact real
    numbers (no rounding).  The data set and calc_stats as in ModelData.v; weights are rationals
    (the constructor, 349-359, only converts them and calls that of StatCondIndep, ModelCI.v).  The answer 0 after
    a MemoryError (378-379) is not modelled. *)
From Coq Require Import QArith Qreals Reals.
From Verif Require Import Base ModelData.
Local Open Scope nat_scope.

(** the sum of f over a list *)
Definition rsum {A} (f : A → R) (l : list A) : R := foldr (λ a s, (f a + s)%R) 0%R l.

(** 403-421; [cnt i j k] is hist_count[i, j, k], [n] is num_records *)
Definition calc_cmi_from_counts (cnt : nat → nat → nat → R) (xsize ysize csize n : nat) : R :=
  foldl (λ cmi zi,
    let cnum := rsum (λ i, rsum (λ j, cnt i j zi) (seq 0 ysize)) (seq 0 xsize) in
    foldl (λ cmi i,
      foldl (λ cmi j,
        if Rlt_dec 0 (cnt i j zi) then
          let cx := rsum (λ i', cnt i' j zi) (seq 0 xsize) in
          let cy := rsum (λ j', cnt i j' zi) (seq 0 ysize) in
          (cmi + ln (cnt i j zi * cnum / (cx * cy)) * cnt i j zi / INR n)%R
        else cmi) cmi (seq 0 ysize)) cmi (seq 0 xsize)) 0%R (seq 0 csize).

(** 380-382: np.reshape(h, [sx, sy, -1], order='F') and the statistic *)
Definition cmi_of_hist (h : list R) (sx sy n : nat) : res R :=
  if decide (sx * sy ≠ 0 ∧ length h mod (sx * sy) = 0) then
    Ok (calc_cmi_from_counts (λ i j k, default 0%R (h !! (i + sx * (j + sy * k)))) sx sy (length h / (sx * sy)) n)
  else Raise ValueError.

(** 372-374: the chosen columns and their cardinalities *)
Definition columns (data : list (list nat)) (vars : list nat) : list (list nat) := (λ r, (λ v, r !!! v) <$> vars) <$> data.
Definition sizes (node_size vars : list nat) : res (list nat) :=
  if decide (Forall (λ v, v < length node_size) vars) then Ok ((λ v, node_size !!! v) <$> vars) else Raise IndexError.

(** 364-401 with weights None; [nv] columns; node_size as set by StatCondIndep.__init__ (231-233) *)
Definition cmi_statistic (data : list (list nat)) (nv x y : nat) (zz : list nat) : res R :=
  ns ← get_var_size data nv;
  vs ← sizes ns (x :: y :: zz);
  h ← calc_stats (columns data (x :: y :: zz)) vs;
  cmi_of_hist (INR <$> h) (vs !!! 0) (vs !!! 1) (length data).

(** 364-401 with weights *)
Definition cmi_statistic_w (data : list (list nat)) (ws : list Q) (nv x y : nat) (zz : list nat) : res R :=
  ns ← get_var_size data nv;
  vs ← sizes ns (x :: y :: zz);
  h ← calc_stats_w (columns data (x :: y :: zz)) vs ws;
  cmi_of_hist (Q2R <$> h) (vs !!! 0) (vs !!! 1) (length data).

(** calc_statistic of an object created with these data and weights; [None] when it does not return *)
Definition cmi_calc (data : list (list nat)) (ws : option (list Q)) (nv x y : nat) (zz : list nat) : option R :=
  match (match ws with None => cmi_statistic data nv x y zz | Some ws => cmi_statistic_w data ws nv x y zz end) with
  | Ok v => Some v
  | _ => None
  end.
(** [statistic > threshold] (268) *)
Definition rgt (v t : R) : bool := if Rlt_dec t v then true else false.
