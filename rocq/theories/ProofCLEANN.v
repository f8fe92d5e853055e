(** Proofs about cov_to_corr and the test of CLEANN. *)
From Coq Require Import Reals Lra Psatz.
From Verif Require Import Base BaseLemmas ModelCMI ModelCI ProofCMI ModelParCorr SpecParCorr ProofParCorr ModelCLEANN SpecCLEANN.
Local Open Scope nat_scope.
Local Notation Rsqrt := R_sqrt.sqrt.

Lemma min_variance_pos : (0 < min_variance)%R.
Proof. unfold min_variance. apply Rinv_0_lt_compat. apply pow_lt. lra. Qed.
Lemma min_variance_sq : (min_variance * min_variance = / 10 ^ 16)%R.
Proof. unfold min_variance. rewrite <-Rinv_mult. f_equal. ring. Qed.
Lemma std_gt v : ngt (nsqrt v) min_variance = true ↔ (/ 10 ^ 16 < v)%R.
Proof.
  pose proof min_variance_pos as Hm. rewrite <-min_variance_sq. unfold nsqrt. destruct (Rle_dec 0 v) as [Hv|Hv]; unfold ngt.
  - destruct (Rlt_dec min_variance (Rsqrt v)) as [Hl|Hl]; (split; [intros ?|intros ?]); try done.
    + rewrite <-(sqrt_sqrt v) by done. apply Rmult_gt_0_lt_compat; lra.
    + exfalso. apply Hl. rewrite <-(sqrt_square min_variance) by lra. apply sqrt_lt_1_alt. split; [|done]. apply Rmult_le_pos; lra.
  - split; [done|]. intros H. exfalso. apply Hv. pose proof (Rmult_lt_0_compat _ _ Hm Hm). lra.
Qed.

Lemma ctc_ok m : rows m = cols m → (∀ i, i < rows m → (/ 10 ^ 16 < ent m i i)%R) →
  ∃ c, cov_to_corr m = Ok c ∧ rows c = rows m ∧ cols c = rows m ∧
    ∀ i j, i < rows m → j < rows m → ent c i j = (ent m i j / Rsqrt (ent m i i * ent m j j))%R.
Proof.
  intros Hs Hd. unfold cov_to_corr. rewrite (proj2 (Nat.eqb_eq _ _) Hs). cbn [negb].
  assert (forallb (λ i, ngt (nsqrt (ent m i i)) min_variance) (seq 0 (rows m)) = true) as ->.
  { apply forallb_forall. intros i Hi%in_seq. apply std_gt, Hd. lia. }
  cbn [negb]. eexists. split; [done|]. cbn [rows cols ent]. split_and!; [done|done|]. intros i j Hi Hj.
  assert (0 < / 10 ^ 16)%R as Hp by (apply Rinv_0_lt_compat, pow_lt; lra).
  pose proof (Hd i Hi). pose proof (Hd j Hj). rewrite sqrt_mult by lra.
  pose proof (sqrt_lt_R0 (ent m i i) ltac:(lra)). pose proof (sqrt_lt_R0 (ent m j j) ltac:(lra)). field. split; lra.
Qed.
Lemma ctc_raises m : cov_to_corr m = Raise AssertionError ↔ rows m ≠ cols m ∨ ∃ i, i < rows m ∧ (ent m i i <= / 10 ^ 16)%R.
Proof.
  destruct (decide (rows m = cols m)) as [E|E].
  - destruct (forallb (λ i, ngt (nsqrt (ent m i i)) min_variance) (seq 0 (rows m))) eqn:F.
    + assert (∀ i, i < rows m → (/ 10 ^ 16 < ent m i i)%R) as Hd.
      { intros i Hi. apply std_gt. rewrite forallb_forall in F. apply F, in_seq. lia. }
      destruct (ctc_ok m E Hd) as (c & -> & _). split; [done|]. intros [?|(i & Hi & Hl)]; [done|]. pose proof (Hd i Hi). lra.
    + split; [|intros _; unfold cov_to_corr; by rewrite (proj2 (Nat.eqb_eq _ _) E), F]. intros _. right.
      assert (∃ i, i ∈ seq 0 (rows m) ∧ ngt (nsqrt (ent m i i)) min_variance ≠ true) as (i & Hi & Hn).
      { revert F. generalize (seq 0 (rows m)). intros l. induction l as [|a l IH]; [done|]. cbn [forallb]. intros F.
        destruct (ngt (nsqrt (ent m a a)) min_variance) eqn:Ea.
        - destruct IH as (i & Hi & Hn); [done|]. exists i. split; [by right|done].
        - exists a. split; [by left|by rewrite Ea]. }
      exists i. apply elem_of_seq in Hi. split; [lia|]. rewrite std_gt in Hn. lra.
  - split; [by left|]. intros _. unfold cov_to_corr. by rewrite (proj2 (Nat.eqb_neq _ _) E).
Qed.
Lemma ctc_total m : (∃ c, cov_to_corr m = Ok c) ∨ cov_to_corr m = Raise AssertionError.
Proof. unfold cov_to_corr. repeat case_match; eauto. Qed.
Lemma ctc_ok_inv m c : cov_to_corr m = Ok c → rows m = cols m ∧ ∀ i, i < rows m → (/ 10 ^ 16 < ent m i i)%R.
Proof.
  intros H. split.
  - destruct (decide (rows m = cols m)) as [|E]; [done|]. rewrite (proj2 (ctc_raises m)) in H by by left. done.
  - intros i Hi. destruct (Rlt_dec (/ 10 ^ 16) (ent m i i)) as [|E]; [done|]. rewrite (proj2 (ctc_raises m)) in H; [done|].
    right. exists i. split; [done|]. lra.
Qed.
Lemma ctc_value m c : cov_to_corr m = Ok c → rows m = cols m ∧ rows c = rows m ∧ cols c = rows m ∧
  (∀ i, i < rows m → (0 < ent m i i)%R) ∧
  ∀ i j, i < rows m → j < rows m → ent c i j = (ent m i j / Rsqrt (ent m i i * ent m j j))%R.
Proof.
  intros H. destruct (ctc_ok_inv m c H) as [Hs Hd]. destruct (ctc_ok m Hs Hd) as (c' & H' & Hr & Hc & He). rewrite H in H'. injection H' as <-.
  split_and!; try done. intros i Hi. pose proof (Hd i Hi). assert (0 < / 10 ^ 16)%R by (apply Rinv_0_lt_compat, pow_lt; lra). lra.
Qed.
Lemma ctc_diag m c : cov_to_corr m = Ok c → ∀ i, i < rows m → ent c i i = 1%R.
Proof.
  intros (_ & _ & _ & Hp & He)%ctc_value i Hi. rewrite He by done. pose proof (Hp i Hi). rewrite sqrt_square by lra. unfold Rdiv. apply Rinv_r. lra.
Qed.
Lemma tiny_lt_1 : (/ 10 ^ 16 < 1)%R.
Proof.
  assert (1 < 10 ^ 16)%R as H by (apply Rlt_pow_R1; [lra|lia]). rewrite <-Rinv_1. apply Rinv_lt_contravar; lra.
Qed.
Lemma ctc_idempotent m c : cov_to_corr m = Ok c → ∃ c', cov_to_corr c = Ok c' ∧ ∀ i j, i < rows m → j < rows m → ent c' i j = ent c i j.
Proof.
  intros H. pose proof (ctc_diag m c H) as Hd. apply ctc_value in H as (_ & Hr & Hc & _).
  destruct (ctc_ok c) as (c' & E & _ & _ & He); [congruence| |].
  { intros i Hi. rewrite Hd by lia. apply tiny_lt_1. }
  exists c'. split; [done|]. intros i j Hi Hj. rewrite He by lia. rewrite !Hd by done. rewrite Rmult_1_l, sqrt_1. field.
Qed.
Lemma ctc_bound m c i j : cov_to_corr m = Ok c → i < rows m → j < rows m →
  (ent m i j * ent m i j <= ent m i i * ent m j j)%R → (Rabs (ent c i j) <= 1)%R.
Proof.
  intros (_ & _ & _ & Hp & He)%ctc_value Hi Hj Hcs. rewrite He by done. pose proof (Hp i Hi). pose proof (Hp j Hj).
  assert (0 < ent m i i * ent m j j)%R as Hpos by by apply Rmult_lt_0_compat. pose proof (sqrt_lt_R0 _ Hpos) as Hs.
  unfold Rdiv. rewrite Rabs_mult, (Rabs_right (/ _)) by (apply Rle_ge; left; by apply Rinv_0_lt_compat).
  apply (Rmult_le_reg_r _ _ _ Hs). rewrite Rmult_assoc, Rinv_l, Rmult_1_r, Rmult_1_l by lra.
  rewrite <-sqrt_Rsqr_abs. apply sqrt_le_1_alt. done.
Qed.
Lemma ctc_scale m m' c c' (d : nat → R) : cov_to_corr m = Ok c → cov_to_corr m' = Ok c' → rows m' = rows m → (∀ i, i < rows m → (0 < d i)%R) →
  (∀ i j, i < rows m → j < rows m → ent m' i j = (d i * d j * ent m i j)%R) →
  ∀ i j, i < rows m → j < rows m → ent c' i j = ent c i j.
Proof.
  intros (_ & _ & _ & Hp & He)%ctc_value (_ & _ & _ & Hp' & He')%ctc_value Hr Hd Hm i j Hi Hj.
  rewrite He', He by lia. rewrite !Hm by done. pose proof (Hd i Hi). pose proof (Hd j Hj). pose proof (Hp i Hi). pose proof (Hp j Hj).
  assert (Rsqrt (d i * d i * ent m i i * (d j * d j * ent m j j)) = d i * d j * Rsqrt (ent m i i * ent m j j))%R as ->.
  { replace (d i * d i * ent m i i * (d j * d j * ent m j j))%R with ((d i * d j) * (d i * d j) * (ent m i i * ent m j j))%R by ring.
    pose proof (Rmult_lt_0_compat (d i) (d j) ltac:(done) ltac:(done)). pose proof (Rmult_lt_0_compat (ent m i i) (ent m j j) ltac:(done) ltac:(done)).
    rewrite sqrt_mult, sqrt_square by nra. done. }
  pose proof (sqrt_lt_R0 (ent m i i * ent m j j)). assert (0 < ent m i i * ent m j j)%R by by apply Rmult_lt_0_compat. field. split_and!; lra.
Qed.

(** ** the test: rows as centred data.  Every column is used twice, once with either sign, so that every row has mean 0 *)
Section doubled.
Context (A : nat → nat → R) (m : nat).
Definition dbl (t a : nat) : R := if decide (t < m) then A a t else (- A a (t - m)%nat)%R.
Local Notation n := (m + m).

Lemma dbl_sum (F : nat → R) : rsum F (seq 0 n) = rsum (λ k, F k + F (m + k)%nat)%R (seq 0 m).
Proof.
  rewrite seq_app, rsum_app, rsum_plus. f_equal. rewrite Nat.add_0_l. 
  replace (seq m m) with ((λ k, m + k) <$> seq 0 m); [by rewrite rsum_fmap|].
  apply list_eq. intros i. rewrite list_lookup_fmap. destruct (decide (i < m)).
  - rewrite !lookup_seq_lt by done. simpl. done.
  - rewrite !lookup_seq_ge by lia. done.
Qed.
Lemma dbl_mean a : rsum (λ t, dbl t a) (seq 0 n) = 0%R.
Proof.
  rewrite dbl_sum. rewrite <-(rsum_0 (seq 0 m)). apply rsum_ext. intros k Hk%elem_of_seq. unfold dbl.
  rewrite decide_True by lia. rewrite decide_False by lia. replace (m + k - m) with k by lia. lra.
Qed.
Lemma dbl_dev a t : dev dbl n a t = dbl t a.
Proof. unfold dev. rewrite dbl_mean. unfold Rdiv. rewrite Rmult_0_l. lra. Qed.
Lemma dbl_dot f g : (∀ k, k < m → f (m + k) = (- f k)%R) → (∀ k, k < m → g (m + k) = (- g k)%R) → vdot n f g = (2 * inner m f g)%R.
Proof.
  intros Hf Hg. unfold vdot, inner. rewrite dbl_sum, <-rsum_scal. apply rsum_ext. intros k Hk%elem_of_seq. rewrite Hf, Hg by lia. ring.
Qed.
Lemma dbl_odd a k : k < m → dbl (m + k) a = (- dbl k a)%R.
Proof. intros Hk. unfold dbl. rewrite decide_False by lia. rewrite decide_True by lia. by replace (m + k - m) with k by lia. Qed.
Lemma dbl_fst a k : k < m → dbl k a = A a k.
Proof. intros Hk. unfold dbl. by rewrite decide_True. Qed.
Lemma inner_ext f f' g g' : (∀ k, k < m → f k = f' k) → (∀ k, k < m → g k = g' k) → inner m f g = inner m f' g'.
Proof. intros Hf Hg. apply rsum_ext. intros k Hk%elem_of_seq. by rewrite Hf, Hg by lia. Qed.
Lemma dbl_dev_dot a b : vdot n (dev dbl n a) (dev dbl n b) = (2 * inner m (A a) (A b))%R.
Proof.
  rewrite dbl_dot; [|intros k Hk; rewrite !dbl_dev; by apply dbl_odd..]. f_equal.
  apply inner_ext; intros k Hk; rewrite dbl_dev; by apply dbl_fst.
Qed.
Lemma dbl_not_constant a : (0 < inner m (A a) (A a))%R → not_constant dbl n a.
Proof. intros H. unfold not_constant. rewrite dbl_dev_dot. lra. Qed.
Lemma sqrt_2 v : (0 <= v)%R → Rsqrt (2 * v) = (Rsqrt 2 * Rsqrt v)%R.
Proof. intros. apply sqrt_mult; lra. Qed.
Lemma cos_2 u v w : (0 < u)%R → (0 < v)%R → (2 * w / (Rsqrt (2 * u) * Rsqrt (2 * v)) = w / (Rsqrt u * Rsqrt v))%R.
Proof.
  intros Hu Hv. rewrite !sqrt_2 by lra. pose proof (sqrt_lt_R0 u Hu). pose proof (sqrt_lt_R0 v Hv). pose proof (sqrt_lt_R0 2 ltac:(lra)).
  replace (Rsqrt 2 * Rsqrt u * (Rsqrt 2 * Rsqrt v))%R with (Rsqrt 2 * Rsqrt 2 * (Rsqrt u * Rsqrt v))%R by ring. rewrite sqrt_sqrt by lra.
  field. split; lra.
Qed.
Lemma dbl_cr a b : (0 < inner m (A a) (A a))%R → (0 < inner m (A b) (A b))%R → cr dbl n a b = angle_cos m (A a) (A b).
Proof. intros Ha Hb. unfold cr, angle_cos, norm. rewrite !dbl_dev_dot. by apply cos_2. Qed.
Lemma norm_pos e : (0 < norm m e)%R ↔ (0 < inner m e e)%R.
Proof.
  unfold norm. split; intros H; [|by apply sqrt_lt_R0]. destruct (Rlt_dec 0 (inner m e e)) as [|Hn]; [done|].
  rewrite sqrt_neg_0 in H by lra. lra.
Qed.

Lemma dbl_residual zz a e : row_residual A m zz a e →
  residual dbl n zz a (λ t, if decide (t < m) then e t else (- e (t - m)%nat)%R).
Proof.
  intros [(beta & Hb) Ho]. split.
  - exists beta. intros t Ht. rewrite dbl_dev. unfold dbl. destruct (decide (t < m)) as [Hm|Hm].
    + rewrite Hb by done. f_equal. apply rsum_ext. intros z _. rewrite dbl_dev. unfold dbl. by rewrite decide_True.
    + rewrite Hb by lia. rewrite Ropp_minus_distr. unfold Rminus. rewrite Rplus_comm. f_equal. rewrite <-(Ropp_involutive (rsum _ zz)).
      f_equal. replace (- rsum (λ z, beta z * A z (t - m)%nat) zz)%R with (-1 * rsum (λ z, beta z * A z (t - m)%nat) zz)%R by ring.
      rewrite <-rsum_scal. apply rsum_ext. intros z _. rewrite dbl_dev. unfold dbl. rewrite decide_False by done. ring.
  - intros z Hz. rewrite dbl_dot.
    + enough (inner m (λ t, if decide (t < m) then e t else (- e (t - m)%nat)%R) (dev dbl n z) = 0%R) as -> by ring. rewrite <-(Ho z Hz).
      apply inner_ext; intros k Hk; [by rewrite decide_True|rewrite dbl_dev; by apply dbl_fst].
    + intros k Hk. rewrite decide_False by lia. rewrite decide_True by done. by replace (m + k - m) with k by lia.
    + intros k Hk. rewrite !dbl_dev. by apply dbl_odd.
Qed.
Lemma residual_odd zz a e : residual dbl n zz a e → ∀ k, k < m → e (m + k) = (- e k)%R.
Proof.
  intros [(beta & Hb) _] k Hk. rewrite !Hb by lia. rewrite !dbl_dev, dbl_odd by done.
  assert (rsum (λ z, beta z * dev dbl n z (m + k)%nat) zz = -1 * rsum (λ z, beta z * dev dbl n z k) zz)%R as ->; [|ring].
  rewrite <-rsum_scal. apply rsum_ext. intros z _. rewrite !dbl_dev, dbl_odd by done. ring.
Qed.
Lemma residual_dbl zz a e : residual dbl n zz a e → row_residual A m zz a e.
Proof.
  intros H. pose proof (residual_odd zz a e H) as Hodd. destruct H as [(beta & Hb) Ho]. split.
  - exists beta. intros k Hk. rewrite Hb by lia. rewrite dbl_dev, dbl_fst by done. f_equal. apply rsum_ext. intros z _. by rewrite dbl_dev, dbl_fst.
  - intros z Hz. specialize (Ho z Hz). rewrite dbl_dot in Ho; [|done|intros k Hk; rewrite !dbl_dev; by apply dbl_odd].
    assert (inner m e (A z) = inner m e (dev dbl n z)) as -> by (apply inner_ext; [done|]; intros k Hk; by rewrite dbl_dev, dbl_fst). lra.
Qed.
Lemma dbl_partial x y zz r : partial_cosine A m x y zz r ↔ partial_correlation dbl n x y zz r.
Proof.
  split.
  - intros (e & f & He & Hf & Pe & Pf & ->). exists (λ t, if decide (t < m) then e t else (- e (t - m)%nat)%R), (λ t, if decide (t < m) then f t else (- f (t - m)%nat)%R).
    assert (∀ g h, vdot n (λ t, if decide (t < m) then g t else (- g (t - m)%nat)%R) (λ t, if decide (t < m) then h t else (- h (t - m)%nat)%R) = (2 * inner m g h)%R) as Hd.
    { intros g h. rewrite dbl_dot.
      - f_equal. apply inner_ext; intros k Hk; by rewrite decide_True.
      - intros k Hk. rewrite decide_False by lia. rewrite decide_True by done. by replace (m + k - m) with k by lia.
      - intros k Hk. rewrite decide_False by lia. rewrite decide_True by done. by replace (m + k - m) with k by lia. }
    apply norm_pos in Pe, Pf. split_and!; [by apply dbl_residual..|rewrite Hd; lra|rewrite Hd; lra|].
    unfold cosine. rewrite !Hd. unfold angle_cos, norm. by rewrite cos_2.
  - intros (e & f & He & Hf & Pe & Pf & ->). exists e, f.
    pose proof (residual_odd _ _ _ He) as Oe. pose proof (residual_odd _ _ _ Hf) as Of. rewrite dbl_dot in Pe, Pf by done.
    split_and!; [by apply residual_dbl..|apply norm_pos; lra|apply norm_pos; lra|]. unfold cosine. rewrite !dbl_dot by done.
    unfold angle_cos, norm. rewrite cos_2 by lra. done.
Qed.
End doubled.

Section test.
Context (a : mat) (c : mat) (Hc : cleann_corr a = Ok c).
Local Notation A := (ent a).
Local Notation m := (cols a).

Lemma gram_ent i j : ent (gram a) i j = inner m (A i) (A j).
Proof. done. Qed.
Lemma corr_ent i j : i < rows a → j < rows a → (0 < norm m (A i))%R ∧ ent c i j = angle_cos m (A i) (A j).
Proof.
  intros Hi Hj. apply ctc_value in Hc as (_ & _ & _ & Hp & He). cbn [rows gram] in *. pose proof (Hp i Hi) as Hi'. pose proof (Hp j Hj) as Hj'.
  split; [by apply norm_pos|]. rewrite He by done. rewrite !gram_ent in *. rewrite sqrt_mult by lra. done.
Qed.
Lemma corr_eq i j : i < rows a → j < rows a → ent c i j = corrcoef (dbl A m) (m + m) i j.
Proof.
  intros Hi Hj. destruct (corr_ent i j Hi Hj) as [Pi ->]. destruct (corr_ent j i Hj Hi) as [Pj _]. apply norm_pos in Pi, Pj.
  assert (0 < m) as Hm. { destruct m eqn:E; [|lia]. unfold inner in Pi. simpl in Pi. lra. }
  rewrite corrcoef_cr; [|lia|by apply dbl_not_constant..]. symmetry. by apply dbl_cr.
Qed.

Lemma is_inverse_ext n M M' N : (∀ i j, i < n → j < n → M i j = M' i j) → is_inverse n M N → is_inverse n M' N.
Proof.
  intros H Hi i j Hi' Hj. rewrite <-(Hi i j Hi' Hj). apply rsum_ext. intros k Hk%elem_of_seq. by rewrite H by lia.
Qed.
Context (inv : list nat → option (nat → nat → R)) (cdf : R → R) (ns : nat) (x y : nat) (zz : list nat).
Context (Hin : ∀ v, v ∈ x :: y :: zz → v < rows a).
Local Notation D := (corrcoef (dbl A m) (m + m)).
Lemma idx_eq i j : i < length (x :: y :: zz) → j < length (x :: y :: zz) → ent c ((x :: y :: zz) !!! i) ((x :: y :: zz) !!! j) = D ((x :: y :: zz) !!! i) ((x :: y :: zz) !!! j).
Proof. intros Hi Hj. apply corr_eq; apply Hin; by apply elem_of_list_lookup_total_2. Qed.
Lemma nonsingular_eq : nonsingular (ent c) (x :: y :: zz) ↔ nonsingular D (x :: y :: zz).
Proof. split; intros (N & HN); exists N; (eapply is_inverse_ext; [|exact HN]); intros i j Hi Hj; [by apply idx_eq|symmetry; by apply idx_eq]. Qed.
Lemma inverts_eq : inverts (ent c) inv (x :: y :: zz) ↔ inverts D inv (x :: y :: zz).
Proof.
  unfold inverts. destruct (inv _) as [N|]; [|by rewrite nonsingular_eq].
  split; apply is_inverse_ext; intros i j Hi Hj; [by apply idx_eq|symmetry; by apply idx_eq].
Qed.
Lemma statistic_eq : pc_statistic (ent c) inv cdf ns x y zz = pc_statistic D inv cdf ns x y zz.
Proof.
  assert (x < rows a) as Hx by (apply Hin; left). assert (y < rows a) as Hy by (apply Hin; right; left).
  unfold pc_statistic. destruct zz as [|z [|z' zz']]; [by rewrite corr_eq| |done].
  assert (z < rows a) as Hz by (apply Hin; right; right; left). by rewrite !corr_eq by done.
Qed.

Lemma cleann_ok : inverts (ent c) inv (x :: y :: zz) → nonsingular (ent c) (x :: y :: zz) →
  ∃ r, partial_cosine A m x y zz r ∧ (Rabs r < 1)%R ∧
    cleann_statistic a inv cdf ns x y zz = Ok (p_value cdf ns (Fin r) (length zz)).
Proof.
  intros Hi Hn. apply inverts_eq in Hi. apply nonsingular_eq in Hn.
  assert (∀ v, v ∈ x :: y :: zz → not_constant (dbl A m) (m + m) v) as Hnc.
  { intros v Hv%Hin. apply dbl_not_constant. destruct (corr_ent v v Hv Hv) as [H _]. by apply norm_pos. }
  assert (2 ≤ m + m) as Hm.
  { destruct (corr_ent x x) as [H _]; [apply Hin; left..|]. apply norm_pos in H. destruct m eqn:E; [|lia]. unfold inner in H. simpl in H. lra. }
  pose proof Hn as [N HN].
  destruct (partial_exists (dbl A m) (m + m) x y zz N Hnc) as (r & Hr & Hlt); [by apply invert_cr|by eapply nonsingular_nodup|].
  exists r. split_and!; [by apply dbl_partial|done|]. unfold cleann_statistic. rewrite Hc. cbn [mbind res_bind]. rewrite statistic_eq.
  by apply (stat_value_gen (dbl A m) (m + m)).
Qed.
End test.
