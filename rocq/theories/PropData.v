(** Properties C51 and C52: contingency counts and temporal unrolling. *)
From Coq Require Import QArith.
From Verif Require Import Base BaseLemmas ModelData SpecData ProofData.
Local Open Scope nat_scope.

(** ** C51 *)
Theorem C51_counts : ∀ data vs, vs ≠ [] → Forall (config vs) data → returns (calc_stats data vs) (λ h,
  length h = n_configs vs ∧ (∀ c, config vs c → h !! f_index vs c = Some (n_records data c)) ∧ sum_list h = length data).
Proof. exact stats_ok. Qed.
Print Assumptions C51_counts.

(** the index is one-to-one between configurations and positions *)
Theorem C51_index : ∀ vs, (∀ c, config vs c → f_index vs c < n_configs vs) ∧
  (∀ c d, config vs c → config vs d → f_index vs c = f_index vs d → c = d) ∧
  (∀ k, k < n_configs vs → ∃ c, config vs c ∧ f_index vs c = k).
Proof. intros vs. split; [exact (f_index_lt vs)|]. split; [exact (f_index_inj vs)|exact (f_index_surj vs)]. Qed.
Print Assumptions C51_index.

(** Entry (i, j, k) of the array with axes X, Y and conditioning configuration, in Fortran order, as read by CondIndepCMI.calc_statistic
    (cond_indep_tests.py 377-381): the records with X=i, Y=j and the k-th conditioning configuration *)
Theorem C51_contingency : ∀ data sx sy vz i j z, Forall (config (sx :: sy :: vz)) data → i < sx → j < sy → config vz z →
  returns (calc_stats data (sx :: sy :: vz)) (λ h, h !! (i + sx * (j + sy * f_index vz z)) = Some (n_records data (i :: j :: z))).
Proof.
  intros data sx sy vz i j z Hd Hi Hj Hz. eapply returns_mono; [apply stats_ok; [done|exact Hd]|]. intros h (_ & H & _). apply (H (i :: j :: z)). by do 2 (constructor; [done|]).
Qed.
Print Assumptions C51_contingency.

Theorem C51_weighted : ∀ data vs ws, vs ≠ [] → Forall (config vs) data → length ws = length data →
  returns (calc_stats_w data vs ws) (λ h, length h = n_configs vs ∧
    ∀ c, config vs c → ∃ q, h !! f_index vs c = Some q ∧ (q == w_records data ws c)%Q).
Proof. exact stats_w_ok. Qed.
Print Assumptions C51_weighted.

(** get_var_size returns the smallest cardinalities for which every record is a configuration *)
Theorem C51_var_size : ∀ data n, data ≠ [] → Forall (λ r, length r = n) data → returns (get_var_size data n) (λ vs,
  length vs = n ∧ Forall (config vs) data ∧ ∀ v s, vs !! v = Some s → 0 < s ∧ ∃ r, r ∈ data ∧ r !! v = Some (s - 1)).
Proof. exact var_size_ok. Qed.
Print Assumptions C51_var_size.

Definition e51 : list (list nat) := [[0;2;1];[1;0;0];[0;2;1];[1;2;1];[0;1;0]].
Example C51_case : get_var_size e51 3 = Ok [2;3;2] ∧ Forall (config [2;3;2]) e51 ∧ f_index [2;3;2] [0;2;1] = 10 ∧ n_records e51 [0;2;1] = 2 ∧
  calc_stats e51 [2;3;2] = Ok [0;1;1;0;0;0;0;0;0;0;2;1] ∧
  match calc_stats_w e51 [2;3;2] [1 # 2; 1; 1 # 4; 0; 2]%Q with Ok h => Qred <$> h | _ => [] end = [0;1;2;0;0;0;0;0;0;0;3 # 4;0]%Q.
Proof. split; [by vm_compute|]. split; [|by vm_compute]. repeat constructor. Qed.
(** a value outside its cardinality is counted as another configuration: (2, 0) as (0, 1) *)
Example C51_range_needed : calc_stats [[2;0]] [2;2] = Ok [0;0;1;0] ∧ f_index [2;2] [0;1] = 2.
Proof. by vm_compute. Qed.

(** ** C52 *)
Theorem C52_unroll : ∀ A (zero : A) data nc obs w step, 0 < step → Forall (λ r, length r = nc) data → Forall (λ v, v < nc) obs →
  returns (unroll_temporal_data zero data nc obs w step false) (λ '(u, full, ns),
    Forall (λ r, length r = w * nc) u ∧ (∀ r, r < length u ↔ r * step + w ≤ length data) ∧
    (∀ r t v, r < length u → t < w → v < nc → cell u r (t * nc + v) = cell data (r * step + t) v) ∧
    length full = w ∧ (∀ t v, t < w → v < nc → cell full t v = Some (t * nc + v)) ∧
    length ns = w ∧ (∀ t, t < w → ns !! t = Some ((λ v, t * nc + v) <$> obs))).
Proof. intros A zero data nc obs w step Hs Hd Ho. exact (unroll_ok zero data nc obs w step false Hs Hd Ho). Qed.
Print Assumptions C52_unroll.

(** In reversed order the observed variables are in the opposite order of time; the columns of all other variables are zero. *)
Theorem C52_unroll_reversed : ∀ A (zero : A) data nc obs w step, 0 < step → Forall (λ r, length r = nc) data → Forall (λ v, v < nc) obs →
  returns (unroll_temporal_data zero data nc obs w step true) (λ '(u, full, ns),
    Forall (λ r, length r = w * nc) u ∧ (∀ r, r < length u ↔ r * step + w ≤ length data) ∧
    (∀ r t v, r < length u → t < w → v < nc → cell u r (t * nc + v) =
      if decide (v ∈ obs) then cell data (r * step + (w - 1 - t)) v else Some zero) ∧
    length full = w ∧ (∀ t v, t < w → v < nc → cell full t v = Some (t * nc + v)) ∧
    length ns = w ∧ (∀ t, t < w → ns !! t = Some ((λ v, t * nc + v) <$> obs))).
Proof. intros A zero data nc obs w step Hs Hd Ho. exact (unroll_ok zero data nc obs w step true Hs Hd Ho). Qed.
Print Assumptions C52_unroll_reversed.

Definition e52 : list (list nat) := [[1;2;3];[4;5;6];[7;8;9];[10;11;12];[13;14;15]].
Example C52_case : Forall (λ r, length r = 3) e52 ∧
  unroll_temporal_data 0 e52 3 [0;2] 2 2 false = Ok ([[1;2;3;4;5;6];[7;8;9;10;11;12]], [[0;1;2];[3;4;5]], [[0;2];[3;5]]) ∧
  unroll_temporal_data 0 e52 3 [0;2] 2 2 true = Ok ([[4;0;6;1;0;3];[10;0;12;7;0;9]], [[0;1;2];[3;4;5]], [[0;2];[3;5]]) ∧
  unroll_temporal_data 0 e52 3 [0;2] 6 1 false = Ok ([], [[0;1;2];[3;4;5];[6;7;8];[9;10;11];[12;13;14];[15;16;17]], [[0;2];[3;5];[6;8];[9;11];[12;14];[15;17]]).
Proof. split; [repeat constructor|]. by vm_compute. Qed.
