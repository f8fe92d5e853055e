(** Model of causal_discovery_utils/data_utils.py.  An array with two axes is the list of its
    rows; integers are unbounded (no int64 overflow) and the entries of a data set of
    categorical features are non-negative, as numpy.bincount requires.  The branch for a
    MemoryError (calc_stats 31-33) is not modelled. *)
From Coq Require Import QArith.
From Verif Require Import Base.
Local Open Scope nat_scope.

(** 4-10 get_var_size: the largest value of each column plus one.  [num_vars] is data.shape[1];
    the maximum of an empty column raises ValueError. *)
Definition column (data : list (list nat)) (v : nat) : list nat := (λ r, r !!! v) <$> data.
Definition get_var_size (data : list (list nat)) (num_vars : nat) : res (list nat) :=
  for_ (seq 0 num_vars) (λ v acc,
    match data with
    | [] => Raise ValueError
    | _ => Ok (acc ++ [max_list (column data v) + 1])
    end) [].

(** 21-23 *)
Definition sz_cum_prod (vs : list nat) : list nat :=
  foldl (λ acc i, acc ++ [List.last acc 0 * (vs !!! i)]) [1] (seq 0 (length vs - 1)).

(** [np.dot(data, sz_cum_prod)] of one row *)
Definition dot (r w : list nat) : nat := sum_list (zip_with Nat.mul r w).

(** [np.bincount(idx, minlength, weights)] for entries of a type with addition; the weights are
    1 by default, a vector of weights must have the length of idx *)
Definition bincount {A} (zero : A) (plus : A → A → A) (idx : list nat) (ws : list A) (minlength : nat) : res (list A) :=
  if decide (length idx = length ws) then
    Ok (foldl (λ h p, alter (λ x, plus x p.2) p.1 h)
          (replicate (max minlength (foldr (λ i m, max (S i) m) 0 idx)) zero) (zip idx ws))
  else Raise ValueError.

(** 13-34, up to the counting *)
Definition calc_index (data : list (list nat)) (vs : list nat) : res (list nat * nat) :=
  match List.last (Some <$> vs) None with
  | None => Raise IndexError
  | Some s =>
    let w := sz_cum_prod vs in
    if decide (Forall (λ r, length r = length w) data)
    then Ok ((λ r, dot r w) <$> data, List.last w 0 * s)
    else Raise ValueError
  end.
(** 13-34 with weights=None *)
Definition calc_stats (data : list (list nat)) (vs : list nat) : res (list nat) :=
  r ← calc_index data vs; bincount 0 Nat.add r.1 (replicate (length r.1) 1) r.2.
(** 13-34 with a vector of weights (as rationals) *)
Definition calc_stats_w (data : list (list nat)) (vs : list nat) (ws : list Q) : res (list Q) :=
  r ← calc_index data vs; bincount 0%Q Qplus r.1 ws r.2.

Section unroll.
Context {A : Type} (zero : A).

(** [np.arange(0, stop, step)] for natural numbers, step > 0: ceil(stop / step) values *)
Definition arange (stop step : nat) : list nat := (λ k, k * step) <$> seq 0 ((stop + step - 1) / step).

(** 50-60: [nc] is data_full.shape[1].  A slice that does not fill the row raises ValueError;
    step 0 raises ZeroDivisionError. *)
Definition unroll_rows (data : list (list A)) (nc window t_step : nat) : res (list (list A)) :=
  if decide (t_step = 0) then Raise ZeroDivisionError else
  for_ ((λ x, x * nc) <$> arange (length data + 1 - window) t_step) (λ st acc,
    let r := take (window * nc) (drop st (concat data)) in
    if decide (length r = window * nc) then Ok (acc ++ [r]) else Raise ValueError) [].

(** 63 *)
Definition nodes_full (nc window : nat) : list (list nat) :=
  (λ t, (λ v, t * nc + v) <$> seq 0 nc) <$> seq 0 window.
(** 64: indexing a row outside its length raises IndexError *)
Definition nodes_observed (nc window : nat) (obs : list nat) : res (list (list nat)) :=
  for_ (nodes_full nc window) (λ row acc,
    if decide (Forall (λ v, v < length row) obs) then Ok (acc ++ [(λ v, row !!! v) <$> obs]) else Raise IndexError) [].

(** 71: [new[:, idxes] = old[:, idxes_rev]] for one row *)
Definition assign_cols (old : list A) (new : list A) (idx rev_ : list nat) : list A :=
  foldl (λ new p, match old !! p.2 with Some x => <[p.1 := x]> new | None => new end) new (zip idx rev_).
(** 69-72 *)
Definition reverse_row (ns : list (list nat)) (old : list A) : list A :=
  foldl (λ new p, assign_cols old new p.1 p.2) (replicate (length old) zero) (zip ns (rev ns)).

(** 37-78 *)
Definition unroll_temporal_data (data : list (list A)) (nc : nat) (obs : list nat) (window t_step : nat) (reverse : bool) :
    res (list (list A) * list (list nat) * list (list nat)) :=
  u ← unroll_rows data nc window t_step;
  ns ← nodes_observed nc window obs;
  Ok (if reverse then List.map (reverse_row ns) u else u, nodes_full nc window, ns).
End unroll.
