(** Properties C86, C87, C88: the partial correlation test. *)
From Coq Require Import Reals Lra Psatz.
From Verif Require Import Base BaseLemmas ModelCMI ProofCMI ModelParCorr SpecParCorr ProofParCorr.
Local Open Scope nat_scope.

Section prop.
Context (data : nat → nat → R) (n : nat) (inv : list nat → option (nat → nat → R)) (cdf : R → R).
Local Notation stat := (pc_statistic (corrcoef data n) inv cdf n).
Local Notation varying l := (∀ a, a ∈ l → not_constant data n a).

(** C86: when the correlation matrix of the variables involved is invertible, the statistic is the two-sided p-value of
    the Fisher transform of the partial correlation, whichever of the three formulas computes it, and the number of
    degrees of freedom is not negative *)
Theorem C86_statistic x y zz : varying (x :: y :: zz) →
  inverts (corrcoef data n) inv (x :: y :: zz) → nonsingular (corrcoef data n) (x :: y :: zz) →
  length zz + 3 ≤ n ∧ ∃ r, partial_correlation data n x y zz r ∧ (Rabs r < 1)%R ∧
    stat x y zz = Ok (Fin (two_sided cdf (R_sqrt.sqrt (INR (n - length zz - 3)) * fisher_z r))).
Proof. intros. assert (length zz + 3 ≤ n) by by eapply nonsingular_size. split; [done|]. apply statistic_ok; [by eapply nonsingular_nodup|done..]. Qed.

(** C86: the variables are declared independent when that p-value exceeds the threshold *)
Theorem C86_decision x y zz threshold : varying (x :: y :: zz) →
  inverts (corrcoef data n) inv (x :: y :: zz) → nonsingular (corrcoef data n) (x :: y :: zz) →
  ∃ r b, partial_correlation data n x y zz r ∧ pc_cond_indep (corrcoef data n) inv cdf n threshold x y zz = Ok b ∧
    (b = true ↔ (threshold < two_sided cdf (R_sqrt.sqrt (INR (n - length zz - 3)) * fisher_z r))%R).
Proof.
  intros Hv Hi Hs. destruct (C86_statistic x y zz Hv Hi Hs) as (_ & r & Hr & _ & E). exists r. unfold pc_cond_indep. rewrite E. cbn [mbind res_bind ngt].
  destruct (Rlt_dec _ _); eexists; (split; [done|]; split; [done|]); done.
Qed.

(** C86: the partial correlation is a function of the data *)
Theorem C86_unique x y zz r r' : partial_correlation data n x y zz r → partial_correlation data n x y zz r' → r = r'.
Proof. apply partial_unique. Qed.

(** C86: a perfect (partial) correlation of either sign gets p-value 0 *)
Theorem C86_perfect x y zz r : varying (x :: y :: zz) → length zz ≤ 1 →
  partial_correlation data n x y zz r → Rabs r = 1%R → stat x y zz = Ok (Fin 0).
Proof. intros Hv. apply statistic_perfect; [|done]. by eapply varying_two, Hv; left. Qed.

(** C87: the test does not depend on the order of the two variables nor on that of the conditioning variables *)
Theorem C87_symmetric x y zz zz' threshold : zz ≡ₚ zz' → varying (x :: y :: zz) →
  inverts (corrcoef data n) inv (x :: y :: zz) → inverts (corrcoef data n) inv (y :: x :: zz') →
  stat x y zz = stat y x zz' ∧
  pc_cond_indep (corrcoef data n) inv cdf n threshold x y zz = pc_cond_indep (corrcoef data n) inv cdf n threshold y x zz'.
Proof.
  intros P Hv ? ?. assert (stat x y zz = stat y x zz') as E by (apply statistic_sym; try done; by eapply varying_two, Hv; left).
  unfold pc_cond_indep. by rewrite E.
Qed.

(** C87: without partial correlation the statistic is the largest possible, 2 (1 - cdf 0) *)
Theorem C87_uncorrelated x y zz : varying (x :: y :: zz) →
  inverts (corrcoef data n) inv (x :: y :: zz) → nonsingular (corrcoef data n) (x :: y :: zz) →
  partial_correlation data n x y zz 0 → stat x y zz = Ok (Fin (2 * (1 - cdf 0))).
Proof.
  intros Hv Hi Hs H0. destruct (C86_statistic x y zz Hv Hi Hs) as (_ & r & Hr & _ & ->). rewrite (C86_unique _ _ _ _ _ Hr H0).
  unfold two_sided. rewrite fisher_0, Rmult_0_r, Rabs_R0. done.
Qed.

(** C88, the part that holds: queries with at most one conditioning variable return on any data *)
Theorem C88_answers_partial x y zz : length zz ≤ 1 → ∃ v, stat x y zz = Ok v.
Proof. apply small_returns. Qed.

(** C88: when one of the two variables w determines the conditioning variable linearly, they are never declared independent; the statistic is
    0 for an increasing relation and nan for a decreasing one *)
Theorem C88_determined x y z w r : varying [x; y; z] → w ∈ [x; y] → partial_correlation data n w z [] r →
  (r = 1%R → stat x y [z] = Ok (Fin 0)) ∧
  (r = (-1)%R → (∀ v, v ∈ [x; y] → ¬ partial_correlation data n v z [] 1) → stat x y [z] = Ok Nan) ∧
  (Rabs r = 1%R → ∀ threshold, (0 <= threshold)%R → pc_cond_indep (corrcoef data n) inv cdf n threshold x y [z] = Ok false).
Proof. intros Hv. apply statistic_determined; [|done]. by eapply varying_two, Hv; left. Qed.

(** C88: with two or more conditioning variables the query raises exactly when the correlation matrix is singular *)
Theorem C88_raises_iff_singular x y zz : 2 ≤ length zz → inverts (corrcoef data n) inv (x :: y :: zz) →
  (∃ e, stat x y zz = Raise e) ↔ ¬ nonsingular (corrcoef data n) (x :: y :: zz).
Proof. apply singular_raises_iff. Qed.

(** C88: two conditioning variables (or a variable of the pair and a conditioning variable) with equal values in every
    record make the query raise *)
Theorem C88_equal_columns x y zz i j : 2 ≤ length zz → inverts (corrcoef data n) inv (x :: y :: zz) →
  i < length (x :: y :: zz) → j < length (x :: y :: zz) → i ≠ j →
  (∀ t, t < n → data t ((x :: y :: zz) !!! i) = data t ((x :: y :: zz) !!! j)) → stat x y zz = Raise ValueError.
Proof. intros Hl Hi ? ? ? ?. apply singular_raises; [done..|]. by eapply (same_singular data n _ i j). Qed.

(** C88: so does a number of records smaller than the number of conditioning variables plus 3 *)
Theorem C88_few_records x y zz : 2 ≤ length zz → n < length zz + 3 → varying (x :: y :: zz) →
  inverts (corrcoef data n) inv (x :: y :: zz) → stat x y zz = Raise ValueError.
Proof. intros Hl Hn Hv Hi. apply singular_raises; [done..|]. intros Hs. apply nonsingular_size in Hs; [lia|done]. Qed.
End prop.

(** C87: a stronger partial correlation, or as strong a one on more records, never gets a larger p-value: what was
    declared dependent stays so *)
Theorem C87_monotone (cdf : R → R) data n inv x y zz r data' n' inv' x' y' zz' r' threshold :
  (∀ u v, u <= v → cdf u <= cdf v)%R →
  length zz = length zz' → n ≤ n' →
  (∀ a, a ∈ x :: y :: zz → not_constant data n a) → (∀ a, a ∈ x' :: y' :: zz' → not_constant data' n' a) →
  inverts (corrcoef data n) inv (x :: y :: zz) → nonsingular (corrcoef data n) (x :: y :: zz) →
  inverts (corrcoef data' n') inv' (x' :: y' :: zz') → nonsingular (corrcoef data' n') (x' :: y' :: zz') →
  partial_correlation data n x y zz r → partial_correlation data' n' x' y' zz' r' → (Rabs r <= Rabs r')%R →
  pc_cond_indep (corrcoef data n) inv cdf n threshold x y zz = Ok false →
  pc_cond_indep (corrcoef data' n') inv' cdf n' threshold x' y' zz' = Ok false.
Proof.
  intros Hc Hl Hn' Hv Hv' Hi Hs Hi' Hs' Hr Hr' Habs.
  destruct (C86_statistic data n inv cdf x y zz Hv Hi Hs) as (_ & r1 & H1 & H1a & E1).
  destruct (C86_statistic data' n' inv' cdf x' y' zz' Hv' Hi' Hs') as (_ & r2 & H2 & H2a & E2).
  pose proof (partial_unique _ _ _ _ _ _ _ Hr H1) as <-. pose proof (partial_unique _ _ _ _ _ _ _ Hr' H2) as <-.
  unfold pc_cond_indep. rewrite E1, E2. cbn [mbind res_bind]. unfold ngt.
  pose proof (two_sided_mono cdf (n - length zz - 3) (n' - length zz' - 3) r r' Hc ltac:(lia) Habs H2a).
  destruct (Rlt_dec _ _); [done|]. intros _. destruct (Rlt_dec _ _); [lra|done].
Qed.

Print Assumptions C86_statistic.
Print Assumptions C86_decision.
Print Assumptions C86_unique.
Print Assumptions C86_perfect.
Print Assumptions C87_symmetric.
Print Assumptions C87_uncorrelated.
Print Assumptions C87_monotone.
Print Assumptions C88_answers_partial.
Print Assumptions C88_determined.
Print Assumptions C88_raises_iff_singular.
Print Assumptions C88_equal_columns.
Print Assumptions C88_few_records.

(** ** an instance: eight records, x = 3 u + 4 v, y = 3 v + 4 w, z = 5 u, q = 5 u v w for independent signs u, v, w;
    a fifth column repeats z *)
Definition tab : list (list Z) :=
  [[7; 7; 5; 5; 5]; [7; -1; 5; -5; 5]; [-1; 1; 5; -5; 5]; [-1; -7; 5; 5; 5];
   [1; 7; -5; -5; -5]; [1; -1; -5; 5; -5]; [-7; 1; -5; 5; -5]; [-7; -7; -5; -5; -5]]%Z.
Definition dat (t a : nat) : R := IZR (nth a (nth t tab []) 0%Z).
Definition gram (a b : nat) : R := IZR (nth b (nth a [[200; 96; 120; 0]; [96; 200; 0; 0]; [120; 0; 200; 0]; [0; 0; 0; 200]] []) 0)%Z.

Lemma dat_dev a t : a < 5 → t < 8 → dev dat 8 a t = dat t a.
Proof.
  intros Ha Ht. unfold dev. enough (rsum (λ t, dat t a) (seq 0 8) = 0%R) as ->; [unfold Rdiv; lra|].
  do 5 (destruct a as [|a]; [unfold rsum, dat; simpl; lra|]). lia.
Qed.
Lemma dat_dot a b : a < 4 → b < 4 → vdot 8 (dev dat 8 a) (dev dat 8 b) = gram a b.
Proof.
  intros Ha Hb. rewrite (dot_ext 8 _ (λ t, dat t a) _ (λ t, dat t b)); [|intros; apply dat_dev; lia..]. unfold vdot, gram.
  do 4 (destruct a as [|a]; [do 4 (destruct b as [|b]; [unfold rsum, dat; simpl; lra|]); lia|]). lia.
Qed.
Lemma dat_varying a : a < 4 → not_constant dat 8 a.
Proof. intros Ha. unfold not_constant. rewrite dat_dot by done. do 4 (destruct a as [|a]; [unfold gram; simpl; lra|]). lia. Qed.
Lemma dat_corr a b : a < 4 → b < 4 → corrcoef dat 8 a b = (gram a b / 200)%R.
Proof.
  intros Ha Hb. rewrite corrcoef_cr by (try lia; by apply dat_varying). unfold cr. rewrite !dat_dot by done.
  assert (gram a a = 200)%R as -> by (do 4 (destruct a as [|a]; [done|]); lia).
  assert (gram b b = 200)%R as -> by (do 4 (destruct b as [|b]; [done|]); lia). by rewrite sqrt_sqrt by lra.
Qed.
(** the inverse correlation matrix *)
Definition invm (i j : nat) : R := (IZR (nth j (nth i
  [[10000; -4800; -6000; 0]; [-4800; 6400; 2880; 0]; [-6000; 2880; 7696; 0]; [0; 0; 0; 4096]]%Z []) 0%Z) / 4096)%R.
Lemma dat_inverse : is_inverse 4 (λ i j, corrcoef dat 8 ([0; 1; 2; 3] !!! i) ([0; 1; 2; 3] !!! j)) invm.
Proof.
  intros i j Hi Hj. transitivity (rsum (λ k, invm i k * (gram k j / 200))%R (seq 0 4)).
  - apply rsum_ext. intros k Hk%elem_of_seq. f_equal.
    assert (∀ i, i < 4 → [0; 1; 2; 3] !!! i = i) as E by (intros m Hm; do 4 (destruct m as [|m]; [done|]); lia).
    rewrite !E by lia. apply dat_corr; lia.
  - do 4 (destruct i as [|i]; [do 4 (destruct j as [|j]; [unfold rsum, invm, gram; simpl; lra|]); lia|]). lia.
Qed.
Lemma dat_partial : partial_correlation dat 8 0 1 [2; 3] (3 / 5).
Proof.
  set (e := (λ t, dev dat 8 0 t - (3 / 5) * dev dat 8 2 t)%R). exists e, (dev dat 8 1).
  assert (∀ h, vdot 8 e h = vdot 8 (dev dat 8 0) h - 3 / 5 * vdot 8 (dev dat 8 2) h)%R as E.
  { intros h. unfold e. by rewrite dot_minus, dot_scal. }
  assert (vdot 8 e e = 128)%R as E128.
  { rewrite E, (dot_sym 8 (dev dat 8 0) e), (dot_sym 8 (dev dat 8 2) e), !E, !dat_dot by lia. unfold gram. simpl. lra. }
  split_and!.
  - split.
    + exists (λ z, if decide (z = 2%nat) then 3 / 5 else 0)%R. intros t Ht. unfold e. rewrite !rsum_cons. unfold rsum. simpl. lra.
    + intros z Hz. rewrite E. apply elem_of_cons in Hz as [->|Hz]; [|apply elem_of_list_singleton in Hz as ->]; rewrite !dat_dot by lia; unfold gram; simpl; lra.
  - split.
    + exists (λ _, 0%R). intros t Ht. rewrite !rsum_cons. unfold rsum. simpl. lra.
    + intros z Hz. apply elem_of_cons in Hz as [->|Hz]; [|apply elem_of_list_singleton in Hz as ->]; rewrite !dat_dot by lia; unfold gram; simpl; lra.
  - rewrite E128. lra.
  - rewrite dat_dot by lia. unfold gram. simpl. lra.
  - unfold cosine. rewrite E128, E, !dat_dot by lia. unfold gram. simpl.
    rewrite <-sqrt_mult by lra. replace (128 * 200)%R with (160 * 160)%R by lra. rewrite sqrt_square by lra. lra.
Qed.

(** hypotheses of the theorems about invertible correlation matrices, with a partial correlation (3/5) different from
    the correlation (12/25) *)
Example C86_case : (∀ a, a ∈ [0; 1; 2; 3] → not_constant dat 8 a) ∧ inverts (corrcoef dat 8) (λ _, Some invm) [0; 1; 2; 3] ∧
  nonsingular (corrcoef dat 8) [0; 1; 2; 3] ∧ partial_correlation dat 8 0 1 [2; 3] (3 / 5) ∧ corrcoef dat 8 0 1 = (12 / 25)%R.
Proof.
  split_and!; [|exact dat_inverse|exists invm; exact dat_inverse|exact dat_partial|].
  - intros a Ha. apply dat_varying. revert Ha. rewrite !elem_of_cons, elem_of_nil. lia.
  - rewrite dat_corr by lia. unfold gram. simpl. lra.
Qed.
(** the statistic of the instance, by the theorem *)
Example C86_instance cdf : pc_statistic (corrcoef dat 8) (λ _, Some invm) cdf 8 0 1 [2; 3] =
  Ok (Fin (two_sided cdf (R_sqrt.sqrt 3 * fisher_z (3 / 5)))).
Proof.
  destruct C86_case as (H1 & H2 & H3 & H4 & _).
  destruct (C86_statistic dat 8 (λ _, Some invm) cdf 0 1 [2; 3]) as (_ & r & Hr & _ & ->); [done..|].
  rewrite (C86_unique _ _ _ _ _ _ _ Hr H4). by replace (INR (8 - length [2; 3] - 3)) with 3%R by (simpl; lra).
Qed.
(** four records with two opposite columns and another one *)
Definition dat3 (t a : nat) : R := IZR (nth a (nth t [[1; 1; -1]; [1; -1; -1]; [-1; 1; 1]; [-1; -1; 1]] []) 0)%Z.
Lemma dat3_dev a t : a < 3 → t < 4 → dev dat3 4 a t = dat3 t a.
Proof.
  intros Ha Ht. unfold dev. enough (rsum (λ t, dat3 t a) (seq 0 4) = 0%R) as ->; [unfold Rdiv; lra|].
  do 3 (destruct a as [|a]; [unfold rsum, dat3; simpl; lra|]). lia.
Qed.
Lemma dat3_dot a b : a < 3 → b < 3 → vdot 4 (dev dat3 4 a) (dev dat3 4 b) = IZR (nth b (nth a [[4; 0; -4]; [0; 4; 0]; [-4; 0; 4]] []) 0)%Z.
Proof.
  intros Ha Hb. rewrite (dot_ext 4 _ (λ t, dat3 t a) _ (λ t, dat3 t b)); [|intros; apply dat3_dev; lia..]. unfold vdot.
  do 3 (destruct a as [|a]; [do 3 (destruct b as [|b]; [unfold rsum, dat3; simpl; lra|]); lia|]). lia.
Qed.
Lemma dat3_varying a : a ∈ [0; 1; 2] → not_constant dat3 4 a.
Proof.
  intros Ha. assert (a < 3) as H by (revert Ha; rewrite !elem_of_cons, elem_of_nil; lia). unfold not_constant. rewrite dat3_dot by done.
  do 3 (destruct a as [|a]; [simpl; lra|]). lia.
Qed.
Lemma dat3_corr a b : a < 3 → b < 3 → corrcoef dat3 4 a b = (IZR (nth b (nth a [[4; 0; -4]; [0; 4; 0]; [-4; 0; 4]] []) 0)%Z / 4)%R.
Proof.
  intros Ha Hb. rewrite corrcoef_cr by (try lia; apply dat3_varying; rewrite !elem_of_cons, elem_of_nil; lia). unfold cr. rewrite !dat3_dot by done.
  assert (∀ c, c < 3 → IZR (nth c (nth c [[4; 0; -4]; [0; 4; 0]; [-4; 0; 4]] []) 0)%Z = 4%R) as E by (intros c Hc; do 3 (destruct c as [|c]; [done|]); lia).
  by rewrite !E, sqrt_sqrt by (done || lra).
Qed.
Example C88_determined_case : (∀ a, a ∈ [0; 1; 2] → not_constant dat3 4 a) ∧ partial_correlation dat3 4 0 2 [] (-1) ∧
  (∀ v, v ∈ [0; 1] → ¬ partial_correlation dat3 4 v 2 [] 1) ∧
  ∀ inv cdf, pc_statistic (corrcoef dat3 4) inv cdf 4 0 1 [2] = Ok Nan.
Proof.
  assert (∀ a, a ∈ [0; 1; 2] → not_constant dat3 4 a) as Hv by exact dat3_varying.
  assert (partial_correlation dat3 4 0 2 [] (-1)) as Hp.
  { replace (-1)%R with (corrcoef dat3 4 0 2) by (rewrite dat3_corr by lia; simpl; lra). apply partial_corr; [lia|apply Hv; set_solver +..]. }
  assert (∀ v, v ∈ [0; 1] → ¬ partial_correlation dat3 4 v 2 [] 1) as Hn.
  { intros v Hv' H1. apply corr_partial in H1; [|lia|apply Hv; set_solver +Hv'|apply Hv; set_solver +].
    revert H1. assert (v < 2) as Hv2 by (revert Hv'; rewrite !elem_of_cons, elem_of_nil; lia). rewrite dat3_corr by lia. destruct v as [|[|]]; simpl; lra || lia. }
  split; [done|]. split; [done|]. split; [done|]. intros inv cdf.
  destruct (C88_determined dat3 4 inv cdf 0 1 2 0 (-1)) as (_ & H & _); [done|left|done|]. by apply H.
Qed.
(** two conditioning variables and four records: too few *)
Definition dat4 (t a : nat) : R := if decide (t = a) then 1%R else 0%R.
Example C88_case : 2 ≤ length [2; 3] ∧ 4 < length [2; 3] + 3 ∧ ∀ a, a ∈ [0; 1; 2; 3] → not_constant dat4 4 a.
Proof.
  split_and!; [simpl; lia..|]. intros a Ha. assert (a < 4) as H by (revert Ha; rewrite !elem_of_cons, elem_of_nil; lia).
  unfold not_constant, vdot, dev. do 4 (destruct a as [|a]; [unfold rsum, dat4; simpl; lra|]). lia.
Qed.

(** C88 is false: repeating a conditioning variable's column makes the query raise, although conditioning on either
    copy alone is answered *)
Theorem C88_refuted : ∃ data n x y zz, (∀ a, a ∈ x :: y :: zz → not_constant data n a) ∧ NoDup (x :: y :: zz) ∧ length zz + 3 ≤ n ∧
  (∀ inv cdf, inverts (corrcoef data n) inv (x :: y :: zz) → pc_statistic (corrcoef data n) inv cdf n x y zz = Raise ValueError) ∧
  (∀ inv cdf z, z ∈ zz → ∃ v, pc_statistic (corrcoef data n) inv cdf n x y [z] = Ok v) ∧
  ∃ inv, inverts (corrcoef data n) inv (x :: y :: zz).
Proof.
  assert (∀ t, t < 8 → dat t 2 = dat t 4) as E by (intros t Ht; do 8 (destruct t as [|t]; [done|]); lia).
  assert (¬ nonsingular (corrcoef dat 8) [0; 1; 2; 4]) as Hs by (apply (same_singular dat 8 _ 2 3); [simpl; lia..|done]).
  exists dat, 8, 0, 1, [2; 4]. split_and!.
  - intros a Ha. destruct (decide (a = 4)) as [->|Hne].
    + pose proof (dat_varying 2 ltac:(lia)) as H. unfold not_constant in *. rewrite (dot_ext 8 _ (dev dat 8 2) _ (dev dat 8 2)); [done|..];
        intros t Ht; rewrite !dat_dev by lia; symmetry; by apply E.
    + apply dat_varying. revert Ha. rewrite !elem_of_cons, elem_of_nil. lia.
  - apply NoDup_ListNoDup. repeat constructor; simpl; lia.
  - simpl. lia.
  - intros inv cdf Hi. apply singular_raises; [simpl; lia|done..].
  - intros inv cdf z _. by apply small_returns.
  - by exists (λ _, None).
Qed.
Print Assumptions C88_refuted.
