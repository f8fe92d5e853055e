(** Properties C94-C96: correlation matrices and the independence test of CLEANN, over exact real numbers. *)
From Coq Require Import Reals Lra Psatz.
From Verif Require Import Base BaseLemmas ModelCMI ProofCMI ModelParCorr SpecParCorr ProofParCorr ModelCLEANN SpecCLEANN ProofCLEANN.
Local Open Scope nat_scope.

(** ** C94 *)
(** every entry is divided by the two standard deviations *)
Theorem C94_entries : ∀ m, rows m = cols m → (∀ i, i < rows m → (/ 10 ^ 16 < ent m i i)%R) →
  ∃ c, cov_to_corr m = Ok c ∧ rows c = rows m ∧ cols c = rows m ∧
    ∀ i j, i < rows m → j < rows m → ent c i j = (ent m i j / R_sqrt.sqrt (ent m i i * ent m j j))%R.
Proof. exact ctc_ok. Qed.
Print Assumptions C94_entries.

(** the result has a unit diagonal, is symmetric if the argument is, has entries in [-1, 1] if the argument satisfies the
    Cauchy-Schwarz inequality, and is left unchanged by a second application *)
Theorem C94_correlation : ∀ m c, cov_to_corr m = Ok c →
  (∀ i, i < rows m → ent c i i = 1%R) ∧
  ((∀ i j, ent m i j = ent m j i) → ∀ i j, i < rows m → j < rows m → ent c i j = ent c j i) ∧
  (∀ i j, i < rows m → j < rows m → (ent m i j * ent m i j <= ent m i i * ent m j j)%R → (Rabs (ent c i j) <= 1)%R) ∧
  ∃ c', cov_to_corr c = Ok c' ∧ ∀ i j, i < rows m → j < rows m → ent c' i j = ent c i j.
Proof.
  intros m c H. split_and!.
  - by apply ctc_diag.
  - apply ctc_value in H as (_ & _ & _ & _ & He). intros Hs i j Hi Hj. rewrite !He by done. by rewrite (Hs i j), Rmult_comm.
  - intros i j. by apply ctc_bound.
  - by apply ctc_idempotent.
Qed.
Print Assumptions C94_correlation.

(** changing the units of the variables does not change the result *)
Theorem C94_units : ∀ m m' c c' (d : nat → R), cov_to_corr m = Ok c → cov_to_corr m' = Ok c' → rows m' = rows m →
  (∀ i, i < rows m → (0 < d i)%R) → (∀ i j, i < rows m → j < rows m → ent m' i j = (d i * d j * ent m i j)%R) →
  ∀ i j, i < rows m → j < rows m → ent c' i j = ent c i j.
Proof. exact ctc_scale. Qed.
Print Assumptions C94_units.

(** ** C95: matrices that are rejected *)
(** The smallest accepted variance is the square of the documented one. *)
Theorem C95_rejects_partial : ∀ m, cov_to_corr m = Raise AssertionError ↔ rows m ≠ cols m ∨ ∃ i, i < rows m ∧ (ent m i i <= / 10 ^ 16)%R.
Proof. exact ctc_raises. Qed.
Print Assumptions C95_rejects_partial.

(** ... so a variance far below min_variance is accepted *)
Theorem C95_refuted : ∃ m c i, rows m = cols m ∧ i < rows m ∧ (ent m i i < min_variance)%R ∧ cov_to_corr m = Ok c.
Proof.
  assert (0 < 10 ^ 8)%R as H8 by (apply pow_lt; lra). assert (0 < 10 ^ 12)%R as H12 by (apply pow_lt; lra). assert (0 < 10 ^ 16)%R as H16 by (apply pow_lt; lra).
  set (m := Mat 1 1 (λ _ _, / 10 ^ 12)%R).
  destruct (ctc_ok m) as (c & E & _); [done| |].
  { intros i _. cbn [ent m]. apply Rinv_lt_contravar; [by apply Rmult_lt_0_compat|]. apply Rlt_pow; [lra|lia]. }
  exists m, c, 0. split_and!; [done|simpl; lia| |done]. cbn [ent m]. unfold min_variance. apply Rinv_lt_contravar; [by apply Rmult_lt_0_compat|]. apply Rlt_pow; [lra|lia].
Qed.
Print Assumptions C95_refuted.

(** ** C96 *)
(** the matrix of a CLEANN object holds the cosines of the angles between the rows of the attention matrix *)
Theorem C96_cosines : ∀ a c, cleann_corr a = Ok c → rows c = rows a ∧ cols c = rows a ∧
  ∀ i j, i < rows a → j < rows a → ent c i j = angle_cos (cols a) (ent a i) (ent a j).
Proof.
  intros a c H. split_and!; [by apply ctc_value in H as (_ & ? & ? & _)..|]. intros i j Hi Hj. by apply (corr_ent a c H i j).
Qed.
Print Assumptions C96_cosines.

(** it is built unless some row is (almost) zero *)
Theorem C96_rejects : ∀ a, cleann_corr a = Raise AssertionError ↔ ∃ i, i < rows a ∧ (norm (cols a) (ent a i) <= / 10 ^ 8)%R.
Proof.
  intros a. unfold cleann_corr. rewrite ctc_raises. cbn [rows cols gram].
  assert (∀ i, ent (gram a) i i <= / 10 ^ 16 ↔ norm (cols a) (ent a i) <= / 10 ^ 8)%R as Hn.
  { intros i. rewrite gram_ent. unfold norm. set (v := inner _ _ _). assert (0 <= v)%R as Hv by (apply rsum_nonneg; intros; nra).
    assert (0 < / 10 ^ 8)%R as Hp by apply min_variance_pos. pose proof min_variance_sq as Hs. unfold min_variance in Hs. split; intros H.
    - rewrite <-(sqrt_square (/ 10 ^ 8)) by lra. apply sqrt_le_1_alt. by rewrite Hs.
    - rewrite <-(sqrt_sqrt v), <-Hs by done. pose proof (sqrt_pos v). apply Rmult_le_compat; done. }
  split.
  - intros [?|(i & Hi & H)]; [done|]. exists i. split; [done|]. by apply Hn.
  - intros (i & Hi & H). right. exists i. split; [done|]. by apply Hn.
Qed.
Print Assumptions C96_rejects.

(** a query is answered from the cosine of the angle between the two rows after removing their projections on the conditioning rows:
    its statistic is the two-sided p-value of the Fisher transform for num_samples samples; with too few samples it is nan and the
    pair is declared dependent *)
Theorem C96_statistic : ∀ a c inv cdf ns x y zz th, cleann_corr a = Ok c → (∀ v, v ∈ x :: y :: zz → v < rows a) →
  inverts (ent c) inv (x :: y :: zz) → nonsingular (ent c) (x :: y :: zz) →
  ∃ r, partial_cosine (ent a) (cols a) x y zz r ∧ (Rabs r < 1)%R ∧
    (length zz + 3 ≤ ns → let p := two_sided cdf (R_sqrt.sqrt (INR (ns - length zz - 3)) * fisher_z r) in
      cleann_statistic a inv cdf ns x y zz = Ok (Fin p) ∧
      ∃ b, cleann_cond_indep a inv cdf ns th x y zz = Ok b ∧ (b = true ↔ (th < p)%R)) ∧
    (ns < length zz + 3 → cleann_statistic a inv cdf ns x y zz = Ok Nan ∧ cleann_cond_indep a inv cdf ns th x y zz = Ok false).
Proof.
  intros a c inv cdf ns x y zz th Hc Hin Hi Hn. destruct (cleann_ok a c Hc inv cdf ns x y zz Hin Hi Hn) as (r & Hr & Hlt & E).
  exists r. split_and!; [done..| |].
  - intros Hns p. rewrite p_value_ok in E by done. fold p in E. split; [done|]. unfold cleann_cond_indep, pc_cond_indep. unfold cleann_statistic in E.
    rewrite Hc in *. cbn [mbind res_bind] in *. rewrite E. cbn [mbind res_bind ngt]. destruct (Rlt_dec th p); eexists; (split; [done|]); done.
  - intros Hns. rewrite p_value_few in E by done. split; [done|]. unfold cleann_cond_indep, pc_cond_indep. unfold cleann_statistic in E.
    rewrite Hc in *. cbn [mbind res_bind] in *. by rewrite E.
Qed.
Print Assumptions C96_statistic.

(** that cosine is determined by the attention matrix *)
Theorem C96_unique : ∀ A m x y zz r r', partial_cosine A m x y zz r → partial_cosine A m x y zz r' → r = r'.
Proof. intros A m x y zz r r' H%dbl_partial H'%dbl_partial. by eapply partial_unique. Qed.
Print Assumptions C96_unique.

(** rescaling the rows of the attention matrix changes no answer *)
Theorem C96_scaling : ∀ a a' inv cdf ns x y zz (d : nat → R) c c', cleann_corr a = Ok c → cleann_corr a' = Ok c' →
  rows a' = rows a → cols a' = cols a → (∀ i, i < rows a → (0 < d i)%R) →
  (∀ i k, i < rows a → k < cols a → ent a' i k = (d i * ent a i k)%R) → (∀ v, v ∈ x :: y :: zz → v < rows a) →
  (∀ i j, i < rows a → j < rows a → ent c' i j = ent c i j) ∧
  cleann_statistic a' inv cdf ns x y zz = cleann_statistic a inv cdf ns x y zz.
Proof.
  intros a a' inv cdf ns x y zz d c c' Hc Hc' Hr Hk Hd Ha Hin.
  assert (∀ i j, i < rows a → j < rows a → ent c' i j = ent c i j) as He.
  { apply (ctc_scale (gram a) (gram a') c c' d Hc Hc'); [done|done|]. intros i j Hi Hj. cbn [ent gram rows] in *. rewrite Hk.
    rewrite <-rsum_scal. apply rsum_ext. intros k Hk'%elem_of_seq. rewrite !Ha by lia. ring. }
  split; [done|]. unfold cleann_statistic. rewrite Hc, Hc'. cbn [mbind res_bind]. unfold pc_statistic.
  assert (x < rows a) as Hx by (apply Hin; left). assert (y < rows a) as Hy by (apply Hin; right; left).
  destruct zz as [|z [|z' zz']]; [by rewrite He| |done].
  assert (z < rows a) as Hz by (apply Hin; right; right; left). by rewrite !He by done.
Qed.
Print Assumptions C96_scaling.

(** rows (1,0,0), (3,4,0), (0,0,2): cosines 3/5, 0, 0 *)
Definition a96 : mat := Mat 3 3 (λ i k, match i, k with 0, 0 => 1 | 1, 0 => 3 | 1, 1 => 4 | 2, 2 => 2 | _, _ => 0 end)%R.
Definition inv96 (l : list nat) : option (nat → nat → R) := Some (λ i j, match i, j with 0, 0 | 1, 1 => 25/16 | 0, 1 | 1, 0 => -15/16 | 2, 2 => 1 | _, _ => 0 end)%R.
Example C96_case : ∃ c, cleann_corr a96 = Ok c ∧ (∀ v, v ∈ [0; 1; 2] → v < rows a96) ∧
  inverts (ent c) inv96 [0; 1; 2] ∧ nonsingular (ent c) [0; 1; 2] ∧ ent c 0 1 = (3/5)%R.
Proof.
  assert (∀ i j, ent (gram a96) i j = (ent a96 i 0 * ent a96 j 0 + ent a96 i 1 * ent a96 j 1 + ent a96 i 2 * ent a96 j 2)%R) as Hg.
  { intros i j. cbn [ent gram rsum seq cols a96 foldr]. unfold rsum. simpl foldr. ring. }
  assert (/ 10 ^ 16 < 1)%R as Ht by apply tiny_lt_1.
  destruct (ctc_ok (gram a96)) as (c & E & _ & _ & He); [done| |].
  { cbn [rows gram a96]. intros i Hi. rewrite Hg. do 3 (destruct i as [|i]; [simpl; lra|]). lia. }
  cbn [rows gram a96] in He. exists c. split; [exact E|].
  assert (∀ s v, (0 <= s)%R → v = (s * s)%R → R_sqrt.sqrt v = s) as Hsq by (intros s v Hs ->; by apply sqrt_square).
  assert (∀ i j, i < 3 → j < 3 → ent c i j = (match i, j with 0, 0 | 1, 1 | 2, 2 => 1 | 0, 1 | 1, 0 => 3/5 | _, _ => 0 end)%R) as Hc.
  { intros i j Hi Hj. rewrite He by done. rewrite !Hg. 
    do 3 (destruct i as [|i]; [do 3 (destruct j as [|j]; [simpl;
      match goal with |- context [R_sqrt.sqrt ?v] => first [rewrite (Hsq 1 v)%R by lra | rewrite (Hsq 5 v)%R by lra | rewrite (Hsq 2 v)%R by lra |
        rewrite (Hsq 25 v)%R by lra | rewrite (Hsq 10 v)%R by lra | rewrite (Hsq 4 v)%R by lra] end; lra|]); lia|]). lia. }
  assert (is_inverse 3 (λ i j, ent c ([0;1;2] !!! i) ([0;1;2] !!! j)) (λ i j, match i, j with 0, 0 | 1, 1 => 25/16 | 0, 1 | 1, 0 => -15/16 | 2, 2 => 1 | _, _ => 0 end)%R) as Hi.
  { intros i j Hi Hj. assert (∀ k, k < 3 → [0;1;2] !!! k = k) as Hl by (intros k Hk; do 3 (destruct k as [|k]; [done|]); lia).
    unfold rsum. cbn [seq foldr]. rewrite !Hl by lia. rewrite !Hc by lia.
    do 3 (destruct i as [|i]; [do 3 (destruct j as [|j]; [simpl; lra|]); lia|]). lia. }
  split_and!.
  - intros v Hv. simpl. revert Hv. rewrite !elem_of_cons, elem_of_nil. lia.
  - exact Hi.
  - eexists. exact Hi.
  - by rewrite Hc by lia.
Qed.
