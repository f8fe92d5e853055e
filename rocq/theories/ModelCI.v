(** Model of causal_discovery_utils/cond_indep_tests.py: the cache of CI tests and the classes DSep,
    GraphCondIndep, StatCondIndep and CondIndepCMI.  The statistics themselves (numpy, scipy) are a
    parameter here. *)
From Verif Require Import Base ModelGraph ModelPC.

(** ** CacheCI (11-96) *)
(** 20-28: [None] when not initialised, otherwise a dictionary of dictionaries *)
Definition cache (V : Type) : Type := option (gmap (nat * nat) (gmap (list nat) V)).

(** 30-40 *)
Definition get_hkeys (x y : node) (zz : list node) : (nat * nat) * list nat :=
  (if decide (x < y) then (x, y) else (y, x), merge_sort le zz).

(** 25-26: the pairs i < j below n *)
Definition upper_pairs (n : nat) : list (nat * nat) :=
  i ← seq 0 (n - 1); j ← seq (i + 1) (n - (i + 1)); [(i, j)].

Section cache.
Context {V : Type}.

(** 15-28 *)
Definition cc_new (n : option nat) : cache V :=
  match n with
  | None => None
  | Some n => Some (foldl (λ m '(i, j), <[(get_hkeys i j []).1 := ∅]> m) ∅ (upper_pairs n))
  end.

(** 42-54 *)
Definition cc_set (c : cache V) (x y : node) (zz : list node) (v : V) : res (cache V) :=
  match c with
  | None => Raise AssertionError
  | Some m =>
    let '(k, ks) := get_hkeys x y zz in
    match m !! k with
    | None => Raise KeyError
    | Some d => Ok (Some (<[k := <[ks := v]> d]> m))
    end
  end.

(** 56-75 *)
Definition cc_get (c : cache V) (x y : node) (zz : list node) : option V :=
  match c with
  | None => None
  | Some m =>
    let '(k, ks) := get_hkeys x y zz in
    match m !! k with
    | None => None
    | Some d => d !! ks
    end
  end.

(** 77-96: the new cache and the deleted result *)
Definition cc_del (c : cache V) (x y : node) (zz : list node) : cache V * option V :=
  match c with
  | None => (None, None)
  | Some m =>
    let '(k, ks) := get_hkeys x y zz in
    match m !! k with
    | None => (c, None)
    | Some d =>
      match d !! ks with
      | None => (c, None)
      | Some v => (Some (<[k := delete ks d]> m), Some v)
      end
    end
  end.

(** cache and test counters of a CI test object *)
Record ci_state := CIState { cs_cache : cache V; cs_count : option (list nat) }.

(** 109-121, 168-180, 243-255 *)
Definition ci_new (n : nat) (count use_cache : bool) : ci_state :=
  CIState (cc_new (if use_cache then Some n else None)) (if count then Some (replicate (n - 1) 0) else None).

(** [if self.count_tests: self.test_counter[k] += 1] *)
Definition count_test (k : nat) (c : option (list nat)) : res (option (list nat)) :=
  match c with
  | None => Ok None
  | Some l => match l !! k with Some v => Ok (Some (<[k := v + 1]> l)) | None => Raise IndexError end
  end.
End cache.
Arguments ci_state : clear implicits.

(** [if self.is_cache: set_cache_result(...)] *)
Definition cache_it {V} (use_cache : bool) (c : cache V) (x y : node) (zz : list node) (v : V) : res (cache V) :=
  if use_cache then cc_set c x y zz v else Ok c.

(** ** DSep.cond_indep (123-134); [crit] is [self.true_dag.dsep] *)
Definition dsep_cond_indep (use_cache : bool) (crit : node → node → list node → res bool)
    (x y : node) (zz : list node) (s : ci_state bool) : res (bool * ci_state bool) :=
  match cc_get (cs_cache s) x y zz with
  | Some b => Ok (b, s)
  | None =>
    b ← crit x y zz;
    c ← cache_it use_cache (cs_cache s) x y zz b;
    n ← count_test (length zz) (cs_count s);
    Ok (b, CIState c n)
  end.

(** ** GraphCondIndep.cond_indep (182-198); [crit] is [dsep] or [is_m_separated] of the reference graph *)
Definition graph_cond_indep (o : order) (static : option (list node)) (use_cache : bool)
    (crit : node → node → list node → res bool)
    (x y : node) (zz : list node) (s : ci_state bool) : res (bool * ci_state bool) :=
  let zz := match static with None => zz | Some st => o 186 (list_to_set (zz ++ st)) end in
  dsep_cond_indep use_cache crit x y zz s.

(** ** StatCondIndep (201-291) *)
(** [V]: values of the statistic, [T]: thresholds, [gt v t]: [v > t] *)
Section stat.
Context {V T : Type} (gt : V → T → bool).

Record stat_state := StatState { ss_ci : ci_state V; ss_threshold : T }.

(** 257-269, 274-291; [calc] is [self.calc_statistic], [None] when it returns None *)
Definition stat_cond_indep (retained : graph) (use_cache : bool) (calc : node → node → list node → option V)
    (x y : node) (zz : list node) (s : stat_state) : res (bool * stat_state) :=
  if is_connected retained x y then Ok (false, s) else
  let c := ss_ci s in
  match cc_get (cs_cache c) x y zz with
  | Some v => Ok (gt v (ss_threshold s), s)
  | None =>
    let r := calc x y zz in
    n ← count_test (length zz) (cs_count c);
    match r with
    | None => Raise TypeError                                     (* 268: None > threshold *)
    | Some v =>
      c ← cache_it use_cache (cs_cache c) x y zz v;
      Ok (gt v (ss_threshold s), StatState (CIState c n) (ss_threshold s))
    end
  end.

(** ** CondIndepCMI.cond_indep (361-363) *)
Definition cmi_cond_indep (retained : graph) (use_cache : bool) (calc : node → node → list node → option V)
    (x y : node) (zz : list node) (s : stat_state) : res (bool * stat_state) :=
  r ← stat_cond_indep retained use_cache calc x y zz s; Ok (negb r.1, r.2).
End stat.
Arguments stat_state : clear implicits.

(** ** Histories of calls *)
(** queries asked one after the other; [f t] answers the [t]-th *)
Fixpoint ask {S} (f : nat → node → node → list node → S → res (bool * S)) (t : nat) (qs : list query) (s : S) : res (list bool * S) :=
  match qs with
  | [] => Ok ([], s)
  | (x, y, zz) :: qs => r ← f t x y zz s; r' ← ask f (1 + t) qs r.2; Ok (r.1 :: r'.1, r'.2)
  end.

(** a user of a statistical test: queries, and assignments to [threshold]
    (experiment_utils/threshold_select_ci_test.py 22) *)
Inductive stat_op (T : Type) := Query (x y : node) (zz : list node) | SetThreshold (t : T).
Arguments Query {T}. Arguments SetThreshold {T}.

Fixpoint stat_run {V T} (f : nat → node → node → list node → stat_state V T → res (bool * stat_state V T))
    (t : nat) (ops : list (stat_op T)) (s : stat_state V T) : res (list bool * stat_state V T) :=
  match ops with
  | [] => Ok ([], s)
  | Query x y zz :: ops => r ← f t x y zz s; r' ← stat_run f (1 + t) ops r.2; Ok (r.1 :: r'.1, r'.2)
  | SetThreshold th :: ops => stat_run f (1 + t) ops (StatState (ss_ci s) th)
  end.

(** a user of a cache *)
Inductive cache_op (V : Type) := CSet (x y : node) (zz : list node) (v : V) | CDel (x y : node) (zz : list node).
Arguments CSet {V}. Arguments CDel {V}.
Fixpoint cache_run {V} (ops : list (cache_op V)) (c : cache V) : res (cache V) :=
  match ops with
  | [] => Ok c
  | CSet x y zz v :: ops => c ← cc_set c x y zz v; cache_run ops c
  | CDel x y zz :: ops => cache_run ops (cc_del c x y zz).1
  end.
