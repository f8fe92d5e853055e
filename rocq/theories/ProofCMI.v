(** Proofs about the empirical conditional mutual information. *)
From Coq Require Import QArith Qreals Reals Lra.
From Verif Require Import Base BaseLemmas ModelGraph Spec ModelData SpecData ProofData ModelPC ModelCI SpecCI ProofGraph3 ProofCI ProofCI2 ModelCMI SpecCMI.
Local Open Scope nat_scope.

(** ** finite sums *)
Section sums.
  Context {A : Type}.
  Implicit Types (f g : A → R) (l : list A).
  Lemma rsum_cons f a l : rsum f (a :: l) = (f a + rsum f l)%R.
  Proof. done. Qed.
  Lemma rsum_ext f g l : (∀ a, a ∈ l → f a = g a) → rsum f l = rsum g l.
  Proof.
    intros H. induction l as [|a l IH]; [done|]. simpl. rewrite H by left. f_equal. apply IH. intros b Hb. apply H. by right.
  Qed.
  Lemma rsum_plus f g l : (rsum (λ a, f a + g a) l = rsum f l + rsum g l)%R.
  Proof. induction l as [|a l IH]; [unfold rsum; simpl; lra|]. rewrite !rsum_cons, IH. lra. Qed.
  Lemma rsum_scal c f l : (rsum (λ a, c * f a) l = c * rsum f l)%R.
  Proof. induction l as [|a l IH]; [unfold rsum; simpl; lra|]. rewrite !rsum_cons, IH. lra. Qed.
  Lemma rsum_scal_r c f l : (rsum (λ a, f a * c) l = rsum f l * c)%R.
  Proof. induction l as [|a l IH]; [unfold rsum; simpl; lra|]. rewrite !rsum_cons, IH. lra. Qed.
  Lemma rsum_minus f g l : (rsum (λ a, f a - g a) l = rsum f l - rsum g l)%R.
  Proof. induction l as [|a l IH]; [unfold rsum; simpl; lra|]. rewrite !rsum_cons, IH. lra. Qed.
  Lemma rsum_0 l : rsum (λ _ : A, 0%R) l = 0%R.
  Proof. induction l as [|a l IH]; [done|]. rewrite rsum_cons, IH. lra. Qed.
  Lemma rsum_le f g l : (∀ a, a ∈ l → (f a <= g a)%R) → (rsum f l <= rsum g l)%R.
  Proof.
    intros H. induction l as [|a l IH]; [unfold rsum; simpl; lra|]. pose proof (H a ltac:(left)). rewrite !rsum_cons.
    assert (rsum f l <= rsum g l)%R; [|lra]. apply IH. intros b Hb. apply H. by right.
  Qed.
  Lemma rsum_nonneg f l : (∀ a, a ∈ l → (0 <= f a)%R) → (0 <= rsum f l)%R.
  Proof. intros H. rewrite <-(rsum_0 l). by apply rsum_le. Qed.
  Lemma rsum_zero f l : (∀ a, a ∈ l → (0 <= f a)%R) → rsum f l = 0%R → ∀ a, a ∈ l → f a = 0%R.
  Proof.
    intros H H0. induction l as [|a l IH]; intros b Hb; [by apply elem_of_nil in Hb|].
    assert (0 <= f a)%R by (apply H; left).
    assert (0 <= rsum f l)%R by (apply rsum_nonneg; intros c Hc; apply H; by right).
    rewrite rsum_cons in H0.
    apply elem_of_cons in Hb as [->|Hb]; [lra|]. apply IH; [intros c Hc; apply H; by right|lra|done].
  Qed.
  Lemma rsum_in_le f l a : (∀ b, b ∈ l → (0 <= f b)%R) → a ∈ l → (f a <= rsum f l)%R.
  Proof.
    intros H Ha. induction l as [|b l IH]; [by apply elem_of_nil in Ha|].
    assert (0 <= f b)%R by (apply H; left).
    assert (0 <= rsum f l)%R by (apply rsum_nonneg; intros c Hc; apply H; by right).
    rewrite rsum_cons. apply elem_of_cons in Ha as [->|Ha]; [lra|].
    assert (f a <= rsum f l)%R; [|lra]. apply IH; [|done]. intros c Hc. apply H. by right.
  Qed.
  Lemma foldl_rsum f l : ∀ s, foldl (λ s a, (s + f a)%R) s l = (s + rsum f l)%R.
  Proof. induction l as [|a l IH]; intros s; [unfold rsum; simpl; lra|]. rewrite rsum_cons. simpl. rewrite IH. lra. Qed.
End sums.
Lemma foldl_ext_in {A B} (f g : B → A → B) l : (∀ b a, a ∈ l → f b a = g b a) → ∀ s, foldl f s l = foldl g s l.
Proof.
  intros H. induction l as [|a l IH]; intros s; [done|]. simpl. rewrite H by left. apply IH. intros b c Hc. apply H. by right.
Qed.
Lemma rsum_swap {A B} (f : A → B → R) la lb : rsum (λ a, rsum (f a) lb) la = rsum (λ b, rsum (λ a, f a b) la) lb.
Proof.
  induction la as [|a la IH]; [symmetry; apply rsum_0|].
  rewrite rsum_cons, IH. symmetry. apply rsum_plus.
Qed.
Lemma rsum_point (f : nat → R) n i : i < n → rsum (λ j, if decide (j = i) then f j else 0%R) (seq 0 n) = f i.
Proof.
  intros Hi. assert (∀ k m, rsum (λ j, if decide (j = i) then f j else 0%R) (seq k m) =
    if decide (k ≤ i < k + m) then f i else 0%R) as H.
  { intros k m. revert k. induction m as [|m IH]; intros k.
    - rewrite decide_False by lia. done.
    - change (seq k (S m)) with (k :: seq (S k) m). rewrite rsum_cons, IH. destruct (decide (k = i)) as [->|Hk].
      + rewrite (decide_False (P:=_ ∧ _)), decide_True by lia. lra.
      + destruct (decide (S k ≤ i < S k + m)); [rewrite decide_True by lia|rewrite decide_False by lia]; lra. }
  rewrite H, decide_True; [done|lia].
Qed.

(** ** ln *)
Lemma ln_bound t : (0 < t)%R → (ln t <= t - 1)%R ∧ (ln t = t - 1 → t = 1)%R.
Proof.
  intros Ht. pose proof (exp_ln t Ht) as E. destruct (Req_dec (ln t) 0) as [H0|Hne].
  - rewrite H0, exp_0 in E. split; lra.
  - pose proof (exp_ineq1 (ln t) Hne). split; lra.
Qed.
(** t ln (t / s) ≥ t - s with equality only for t = s *)
Lemma ln_gibbs t s : (0 < t)%R → (0 < s)%R → (t - s <= t * ln (t / s))%R ∧ (t * ln (t / s) = t - s → t = s)%R.
Proof.
  intros Ht Hs. assert (0 < s / t)%R as Hst by (by apply Rdiv_lt_0_compat).
  destruct (ln_bound (s / t) Hst) as [H1 H2].
  assert (ln (t / s) = - ln (s / t))%R as E.
  { rewrite <-ln_Rinv by done. f_equal. field. lra. }
  assert (t * (s / t) = s)%R as E' by (field; lra).
  rewrite E. split.
  - assert (t * ln (s / t) <= t * (s / t - 1))%R by (apply Rmult_le_compat_l; lra). lra.
  - intros H. assert (ln (s / t) = s / t - 1)%R as H3.
    { apply (Rmult_eq_reg_l t); lra. }
    apply H2 in H3. rewrite <-E', H3. lra.
Qed.

(** ** tables *)
Section table.
  Context (T : nat → nat → nat → R) (sx sy K n : nat).
  Context (HT : ∀ i j k, i < sx → j < sy → k < K → (0 <= T i j k)%R).
  Definition Tz (k : nat) : R := rsum (λ i, rsum (λ j, T i j k) (seq 0 sy)) (seq 0 sx).
  Definition Tyz (j k : nat) : R := rsum (λ i, T i j k) (seq 0 sx).
  Definition Txz (i k : nat) : R := rsum (λ j, T i j k) (seq 0 sy).

  Lemma cmi_sum : calc_cmi_from_counts T sx sy K n =
    (rsum (λ k, rsum (λ i, rsum (λ j, T i j k * ln (T i j k * Tz k / (Tyz j k * Txz i k))) (seq 0 sy)) (seq 0 sx)) (seq 0 K) / INR n)%R.
  Proof.
    unfold calc_cmi_from_counts. cbn zeta.
    set (t := λ k i j, (T i j k * ln (T i j k * Tz k / (Tyz j k * Txz i k)) / INR n)%R).
    assert (∀ k i, k < K → i < sx → ∀ s, foldl (λ cmi j, if Rlt_dec 0 (T i j k) then
      (cmi + ln (T i j k * Tz k / (Tyz j k * Txz i k)) * T i j k / INR n)%R else cmi) s (seq 0 sy) = (s + rsum (t k i) (seq 0 sy))%R) as H1.
    { intros k i Hk Hi s. rewrite <-foldl_rsum. apply foldl_ext_in. intros b j Hj%elem_of_seq. unfold t.
      destruct (Rlt_dec 0 (T i j k)) as [H|H]; [unfold Rdiv; ring|].
      assert (T i j k = 0)%R as -> by (pose proof (HT i j k Hi ltac:(lia) Hk); lra). unfold Rdiv. ring. }
    assert (∀ k, k < K → ∀ s, foldl (λ cmi i, foldl (λ cmi j, if Rlt_dec 0 (T i j k) then
      (cmi + ln (T i j k * Tz k / (Tyz j k * Txz i k)) * T i j k / INR n)%R else cmi) cmi (seq 0 sy)) s (seq 0 sx) =
      (s + rsum (λ i, rsum (t k i) (seq 0 sy)) (seq 0 sx))%R) as H2.
    { intros k Hk s. rewrite <-foldl_rsum. apply foldl_ext_in. intros b i Hi%elem_of_seq. apply H1; lia. }
    etransitivity.
    - apply (foldl_ext_in _ (λ s k, (s + rsum (λ i, rsum (t k i) (seq 0 sy)) (seq 0 sx))%R)).
      intros b k Hk%elem_of_seq. apply H2. lia.
    - rewrite foldl_rsum, Rplus_0_l. unfold Rdiv. rewrite <-rsum_scal_r. apply rsum_ext. intros k _.
      rewrite <-rsum_scal_r. apply rsum_ext. intros i _. rewrite <-rsum_scal_r. by apply rsum_ext.
  Qed.

  Lemma T_yz i j k : i < sx → j < sy → k < K → (T i j k <= Tyz j k)%R.
  Proof.
    intros Hi Hj Hk. apply (rsum_in_le (λ i, T i j k)); [|by apply elem_of_seq; lia].
    intros i' Hi'%elem_of_seq. apply HT; lia.
  Qed.
  Lemma T_xz i j k : i < sx → j < sy → k < K → (T i j k <= Txz i k)%R.
  Proof.
    intros Hi Hj Hk. apply (rsum_in_le (λ j, T i j k)); [|by apply elem_of_seq; lia].
    intros i' Hi'%elem_of_seq. apply HT; lia.
  Qed.
  Lemma Txz_nonneg i k : i < sx → k < K → (0 <= Txz i k)%R.
  Proof. intros Hi Hk. apply rsum_nonneg. intros j Hj%elem_of_seq. apply HT; lia. Qed.
  Lemma Tyz_nonneg j k : j < sy → k < K → (0 <= Tyz j k)%R.
  Proof. intros Hi Hk. apply rsum_nonneg. intros i Hj%elem_of_seq. apply HT; lia. Qed.
  Lemma Txz_z i k : i < sx → k < K → (Txz i k <= Tz k)%R.
  Proof.
    intros Hi Hk. apply (rsum_in_le (λ i, Txz i k)); [|by apply elem_of_seq; lia].
    intros i' Hi'%elem_of_seq. apply Txz_nonneg; lia.
  Qed.
  Lemma Tyz_z j k : j < sy → k < K → (Tyz j k <= Tz k)%R.
  Proof.
    intros Hj Hk. unfold Tz. rewrite rsum_swap. apply (rsum_in_le (λ j, Tyz j k)); [|by apply elem_of_seq; lia].
    intros i' Hi'%elem_of_seq. apply Tyz_nonneg; lia.
  Qed.

  (** one term against its lower bound *)
  Lemma term_bound i j k : i < sx → j < sy → k < K → (0 < Tz k)%R →
    let t := (T i j k * ln (T i j k * Tz k / (Tyz j k * Txz i k)))%R in
    let s := (Tyz j k * Txz i k / Tz k)%R in
    (T i j k - s <= t)%R ∧ (t = T i j k - s → T i j k = s)%R.
  Proof.
    intros Hi Hj Hk Hz t s. pose proof (HT i j k Hi Hj Hk). pose proof (T_yz i j k Hi Hj Hk). pose proof (T_xz i j k Hi Hj Hk).
    destruct (Req_dec (T i j k) 0) as [E|Hne].
    - assert (0 <= s)%R.
      { unfold s, Rdiv. apply Rmult_le_pos; [apply Rmult_le_pos; lra|]. left. by apply Rinv_0_lt_compat. }
      unfold t. rewrite E, Rmult_0_l. split; lra.
    - assert (0 < s)%R as Hs.
      { unfold s. apply Rdiv_lt_0_compat; [|done]. apply Rmult_lt_0_compat; lra. }
      assert (T i j k * Tz k / (Tyz j k * Txz i k) = T i j k / s)%R as E.
      { unfold s. field. split_and!; lra. }
      unfold t. rewrite E. apply ln_gibbs; [lra|done].
  Qed.

  Lemma slice_zero k : k < K → Tz k = 0%R → ∀ i j, i < sx → j < sy → T i j k = 0%R.
  Proof.
    intros Hk Hz i j Hi Hj. pose proof (HT i j k Hi Hj Hk). pose proof (T_xz i j k Hi Hj Hk).
    pose proof (Txz_z i k Hi Hk). lra.
  Qed.

  Definition slice (k : nat) : R :=
    rsum (λ i, rsum (λ j, T i j k * ln (T i j k * Tz k / (Tyz j k * Txz i k)))%R (seq 0 sy)) (seq 0 sx).

  Lemma slice_spec k : k < K → (0 <= slice k)%R ∧
    (slice k = 0%R ↔ ∀ i j, i < sx → j < sy → (T i j k * Tz k = Txz i k * Tyz j k)%R).
  Proof.
    intros Hk. assert (0 <= Tz k)%R as Hz0.
    { apply rsum_nonneg. intros i Hi%elem_of_seq. apply Txz_nonneg; lia. }
    destruct (Req_dec (Tz k) 0) as [Hz|Hz].
    - pose proof (slice_zero k Hk Hz) as H0.
      assert (slice k = 0%R) as ->.
      { unfold slice. rewrite <-(rsum_0 (seq 0 sx)). apply rsum_ext. intros i Hi%elem_of_seq.
        rewrite <-(rsum_0 (seq 0 sy)). apply rsum_ext. intros j Hj%elem_of_seq. rewrite H0 by lia. lra. }
      split; [lra|]. split; [|done]. intros _ i j Hi Hj.
      pose proof (Txz_z i k Hi Hk). pose proof (Txz_nonneg i k Hi Hk).
      assert (Txz i k = 0)%R as -> by lra. rewrite Hz. lra.
    - assert (0 < Tz k)%R as Hzp by lra.
      set (s := λ i j, (Tyz j k * Txz i k / Tz k)%R).
      set (d := λ i j, (T i j k * ln (T i j k * Tz k / (Tyz j k * Txz i k)) - (T i j k - s i j))%R).
      assert (rsum (λ i, rsum (λ j, T i j k - s i j)%R (seq 0 sy)) (seq 0 sx) = 0%R) as Hb.
      { rewrite (rsum_ext _ (λ i, Txz i k - Txz i k)%R).
        - rewrite rsum_minus. lra.
        - intros i _. rewrite rsum_minus. f_equal. unfold s.
          rewrite (rsum_ext _ (λ j, Tyz j k * (Txz i k / Tz k))%R) by (intros j _; unfold Rdiv; ring).
          rewrite rsum_scal_r. unfold Tyz. rewrite <-rsum_swap. fold (Tz k). field. done. }
      assert (slice k = rsum (λ i, rsum (d i) (seq 0 sy)) (seq 0 sx)) as Hsl.
      { unfold d. rewrite (rsum_ext (λ i, rsum _ (seq 0 sy))
          (λ i, rsum (λ j, T i j k * ln (T i j k * Tz k / (Tyz j k * Txz i k)))%R (seq 0 sy) -
                rsum (λ j, T i j k - s i j)%R (seq 0 sy))%R) by (intros i _; apply rsum_minus).
        rewrite rsum_minus, Hb. unfold slice. lra. }
      assert (∀ i j, i < sx → j < sy → (0 <= d i j)%R) as Hd.
      { intros i j Hi Hj. unfold d. destruct (term_bound i j k Hi Hj Hk Hzp) as [H _]. cbn zeta in H. fold (s i j) in H. lra. }
      assert (∀ i, i < sx → (0 <= rsum (d i) (seq 0 sy))%R) as Hd'.
      { intros i Hi. apply rsum_nonneg. intros j Hj%elem_of_seq. apply Hd; lia. }
      rewrite Hsl. split; [apply rsum_nonneg; intros i Hi%elem_of_seq; apply Hd'; lia|]. split.
      + intros H0 i j Hi Hj.
        assert (rsum (d i) (seq 0 sy) = 0%R) as H1.
        { apply (rsum_zero (λ i, rsum (d i) (seq 0 sy)) (seq 0 sx)); [|done|by apply elem_of_seq; lia].
          intros i' Hi'%elem_of_seq. apply Hd'; lia. }
        assert (d i j = 0%R) as H2.
        { apply (rsum_zero (d i) (seq 0 sy)); [|done|by apply elem_of_seq; lia].
          intros j' Hj'%elem_of_seq. apply Hd; lia. }
        destruct (term_bound i j k Hi Hj Hk Hzp) as [_ H]. cbn zeta in H. fold (s i j) in H.
        rewrite H by (unfold d in H2; lra). unfold s. field. done.
      + intros H. rewrite <-(rsum_0 (seq 0 sx)). apply rsum_ext. intros i Hi%elem_of_seq.
        rewrite <-(rsum_0 (seq 0 sy)). apply rsum_ext. intros j Hj%elem_of_seq. unfold d.
        assert (T i j k = s i j) as E.
        { unfold s. apply (Rmult_eq_reg_r (Tz k)); [|done]. rewrite H by lia. field. done. }
        rewrite <-E. destruct (Req_dec (T i j k) 0) as [E0|Hne]; [rewrite E0; lra|].
        pose proof (T_yz i j k ltac:(lia) ltac:(lia) Hk). pose proof (T_xz i j k ltac:(lia) ltac:(lia) Hk).
        pose proof (HT i j k ltac:(lia) ltac:(lia) Hk).
        assert (T i j k * Tz k / (Tyz j k * Txz i k) = 1)%R as ->; [|rewrite ln_1; lra].
        rewrite H by lia. field. lra.
  Qed.

  Lemma cmi_nonneg : 0 < n → (0 <= calc_cmi_from_counts T sx sy K n)%R ∧
    (calc_cmi_from_counts T sx sy K n = 0%R ↔
     ∀ i j k, i < sx → j < sy → k < K → (T i j k * Tz k = Txz i k * Tyz j k)%R).
  Proof.
    intros Hn. rewrite cmi_sum. fold slice. assert (0 < INR n)%R as Hn' by by apply lt_0_INR.
    assert (∀ k, k ∈ seq 0 K → (0 <= slice k)%R) as Hs by (intros k Hk%elem_of_seq; apply slice_spec; lia).
    pose proof (rsum_nonneg slice (seq 0 K) Hs) as H0. change (λ k, slice k) with slice. split.
    - unfold Rdiv. apply Rmult_le_pos; [done|]. left. by apply Rinv_0_lt_compat.
    - split.
      + intros H i j k Hi Hj Hk. assert (rsum slice (seq 0 K) = 0%R) as H1.
        { apply (Rmult_eq_reg_r (/ INR n)); [|apply Rinv_neq_0_compat; lra]. unfold Rdiv in H. lra. }
        apply (slice_spec k Hk); [|done..]. apply (rsum_zero slice (seq 0 K) Hs H1). apply elem_of_seq. lia.
      + intros H. assert (rsum slice (seq 0 K) = 0%R) as ->; [|unfold Rdiv; lra].
        rewrite <-(rsum_0 (seq 0 K)). apply rsum_ext. intros k Hk%elem_of_seq.
        apply slice_spec; [lia|]. intros i j Hi Hj. apply H; lia.
  Qed.
End table.

(** ** records *)
Definition ind (P : Prop) `{Decision P} : R := if decide P then 1%R else 0%R.
Lemma fubini_point {A} (f : A → nat) (g : nat → A → R) n (l : list A) : (∀ p, p ∈ l → f p < n) →
  rsum (λ j, rsum (λ p, ind (f p = j) * g j p)%R l) (seq 0 n) = rsum (λ p, g (f p) p) l.
Proof.
  intros H. rewrite rsum_swap. apply rsum_ext. intros p Hp.
  rewrite <-(rsum_point (λ j, g j p) n (f p) (H p Hp)). apply rsum_ext. intros j _. unfold ind.
  destruct (decide (f p = j)), (decide (j = f p)); try congruence; lra.
Qed.
Lemma foldr_rsum {A} (f : A → R) (l : list A) : foldr Rplus 0%R (f <$> l) = rsum f l.
Proof. induction l as [|a l IH]; [done|]. rewrite rsum_cons, <-IH. done. Qed.
Lemma mass_sum recs vars vals : mass recs vars vals = rsum (λ p, ind (proj vars p.1 = vals) * p.2)%R recs.
Proof. unfold mass. rewrite foldr_rsum. apply rsum_ext. intros p _. unfold ind. destruct (decide _); lra. Qed.

Section records.
  Context (recs : list (list nat * R)) (x y : nat) (zz : list nat) (sx sy : nat) (vz : list nat).
  Context (Hcfg : ∀ p, p ∈ recs → config (sx :: sy :: vz) (proj (x :: y :: zz) p.1)).
  Context (Hw : ∀ p, p ∈ recs → (0 <= p.2)%R).
  Notation K := (n_configs vz).
  Definition xp (p : list nat * R) : nat := p.1 !!! x.
  Definition yp (p : list nat * R) : nat := p.1 !!! y.
  Definition kp (p : list nat * R) : nat := f_index vz (proj zz p.1).
  Definition cellT (i j k : nat) : R := rsum (λ p, ind (xp p = i) * (ind (yp p = j) * (ind (kp p = k) * p.2)))%R recs.

  Lemma cfg_parts p : p ∈ recs → xp p < sx ∧ yp p < sy ∧ config vz (proj zz p.1) ∧ kp p < K.
  Proof.
    intros Hp. pose proof (Hcfg p Hp) as H. unfold config, proj in H. rewrite !fmap_cons, !Forall2_cons in H. destruct H as (H1 & H2 & H3).
    split_and!; [done..|]. by apply f_index_lt.
  Qed.
  Lemma cellT_nonneg i j k : (0 <= cellT i j k)%R.
  Proof.
    apply rsum_nonneg. intros p Hp. pose proof (Hw p Hp). unfold ind. repeat destruct (decide _); lra.
  Qed.
  Lemma yz_sum j k : Tyz cellT sx j k = rsum (λ p, ind (yp p = j) * (ind (kp p = k) * p.2))%R recs.
  Proof. unfold Tyz, cellT. apply (fubini_point xp (λ _ p, ind (yp p = j) * (ind (kp p = k) * p.2))%R). intros p Hp. by apply cfg_parts. Qed.
  Lemma xz_sum i k : Txz cellT sy i k = rsum (λ p, ind (xp p = i) * (ind (kp p = k) * p.2))%R recs.
  Proof.
    unfold Txz, cellT. etransitivity; [|apply (fubini_point yp (λ _ p, ind (xp p = i) * (ind (kp p = k) * p.2))%R sy)].
    - apply rsum_ext. intros j _. apply rsum_ext. intros p _. ring.
    - intros p Hp. by apply cfg_parts.
  Qed.
  Lemma z_sum k : Tz cellT sx sy k = rsum (λ p, ind (kp p = k) * p.2)%R recs.
  Proof.
    unfold Tz. etransitivity; [apply rsum_ext; intros i _; apply xz_sum|].
    apply (fubini_point xp (λ _ p, ind (kp p = k) * p.2)%R). intros p Hp. by apply cfg_parts.
  Qed.
  Lemma all_sum (F : nat → nat → nat → R) :
    rsum (λ k, rsum (λ i, rsum (λ j, cellT i j k * F i j k)%R (seq 0 sy)) (seq 0 sx)) (seq 0 K) =
    rsum (λ p, p.2 * F (xp p) (yp p) (kp p))%R recs.
  Proof.
    transitivity (rsum (λ k, rsum (λ i, rsum (λ p, ind (xp p = i) * (ind (kp p = k) * (p.2 * F i (yp p) k)))%R recs) (seq 0 sx)) (seq 0 K)).
    - apply rsum_ext. intros k _. apply rsum_ext. intros i _.
      rewrite <-(fubini_point yp (λ j p, ind (xp p = i) * (ind (kp p = k) * (p.2 * F i j k)))%R sy); [|intros p Hp; by apply cfg_parts].
      apply rsum_ext. intros j _. unfold cellT. rewrite <-rsum_scal_r. apply rsum_ext. intros p _. ring.
    - transitivity (rsum (λ k, rsum (λ p, ind (kp p = k) * (p.2 * F (xp p) (yp p) k))%R recs) (seq 0 K)).
      + apply rsum_ext. intros k _.
        apply (fubini_point xp (λ i p, ind (kp p = k) * (p.2 * F i (yp p) k))%R). intros p Hp. by apply cfg_parts.
      + apply (fubini_point kp (λ k p, p.2 * F (xp p) (yp p) k)%R). intros p Hp. by apply cfg_parts.
  Qed.

  Lemma ind_z p c : p ∈ recs → config vz c → ind (kp p = f_index vz c) = ind (proj zz p.1 = c).
  Proof.
    intros Hp Hc. unfold ind. destruct (decide (proj zz p.1 = c)) as [E|E].
    - rewrite decide_True; [done|]. unfold kp. by rewrite E.
    - rewrite decide_False; [done|]. intros H. apply E. apply (f_index_inj vz); [by apply cfg_parts|done..].
  Qed.
  Lemma ind_cons v vars r a c : ind (proj (v :: vars) r = a :: c) = (ind (r !!! v = a) * ind (proj vars r = c))%R.
  Proof.
    unfold ind. destruct (decide (r !!! v = a)) as [E|E]; destruct (decide (proj vars r = c)) as [E'|E'].
    - rewrite decide_True by (unfold proj in *; rewrite fmap_cons; congruence). lra.
    - rewrite decide_False by (unfold proj in *; rewrite fmap_cons; congruence). lra.
    - rewrite decide_False by (unfold proj in *; rewrite fmap_cons; congruence). lra.
    - rewrite decide_False by (unfold proj in *; rewrite fmap_cons; congruence). lra.
  Qed.
  Lemma mass_xyz a b c : config vz c → mass recs (x :: y :: zz) (a :: b :: c) = cellT a b (f_index vz c).
  Proof.
    intros Hc. rewrite mass_sum. apply rsum_ext. intros p Hp. rewrite !ind_cons, ind_z by done. unfold xp, yp. ring.
  Qed.
  Lemma mass_xz a c : config vz c → mass recs (x :: zz) (a :: c) = Txz cellT sy a (f_index vz c).
  Proof.
    intros Hc. rewrite mass_sum, xz_sum. apply rsum_ext. intros p Hp. rewrite !ind_cons, ind_z by done. unfold xp. ring.
  Qed.
  Lemma mass_yz b c : config vz c → mass recs (y :: zz) (b :: c) = Tyz cellT sx b (f_index vz c).
  Proof.
    intros Hc. rewrite mass_sum, yz_sum. apply rsum_ext. intros p Hp. rewrite !ind_cons, ind_z by done. unfold yp. ring.
  Qed.
  Lemma mass_z c : config vz c → mass recs zz c = Tz cellT sx sy (f_index vz c).
  Proof. intros Hc. rewrite mass_sum, z_sum. apply rsum_ext. intros p Hp. by rewrite ind_z. Qed.

  Lemma mass_absent vars vals : (∀ p, p ∈ recs → proj vars p.1 ≠ vals) → mass recs vars vals = 0%R.
  Proof.
    intros H. rewrite mass_sum, <-(rsum_0 recs). apply rsum_ext. intros p Hp. unfold ind. rewrite decide_False by by apply H. lra.
  Qed.

  Context (T : nat → nat → nat → R).
  Context (HT : ∀ i j k, i < sx → j < sy → k < K → T i j k = cellT i j k).
  Lemma T_nonneg i j k : i < sx → j < sy → k < K → (0 <= T i j k)%R.
  Proof. intros. rewrite HT by done. apply cellT_nonneg. Qed.
  Lemma Tz_T k : k < K → Tz T sx sy k = Tz cellT sx sy k.
  Proof. intros Hk. apply rsum_ext. intros i Hi%elem_of_seq. apply rsum_ext. intros j Hj%elem_of_seq. apply HT; lia. Qed.
  Lemma Tyz_T j k : j < sy → k < K → Tyz T sx j k = Tyz cellT sx j k.
  Proof. intros Hj Hk. apply rsum_ext. intros i Hi%elem_of_seq. apply HT; lia. Qed.
  Lemma Txz_T i k : i < sx → k < K → Txz T sy i k = Txz cellT sy i k.
  Proof. intros Hi Hk. apply rsum_ext. intros j Hj%elem_of_seq. apply HT; lia. Qed.

  Lemma cmi_records : calc_cmi_from_counts T sx sy K (length recs) = emp_cmi recs x y zz.
  Proof.
    rewrite cmi_sum by apply T_nonneg. unfold emp_cmi. rewrite foldr_rsum. unfold Rdiv. f_equal.
    transitivity (rsum (λ k, rsum (λ i, rsum (λ j, cellT i j k *
      ln (cellT i j k * Tz cellT sx sy k / (Tyz cellT sx j k * Txz cellT sy i k)))%R (seq 0 sy)) (seq 0 sx)) (seq 0 K)).
    - apply rsum_ext. intros k Hk%elem_of_seq. apply rsum_ext. intros i Hi%elem_of_seq. apply rsum_ext. intros j Hj%elem_of_seq.
      rewrite HT, Tz_T, Tyz_T, Txz_T by lia. done.
    - rewrite (all_sum (λ i j k, ln (cellT i j k * Tz cellT sx sy k / (Tyz cellT sx j k * Txz cellT sy i k)))%R).
      apply rsum_ext. intros p Hp. destruct (cfg_parts p Hp) as (H1 & H2 & H3 & H4). f_equal. f_equal.
      change (proj (x :: y :: zz) p.1) with (xp p :: yp p :: proj zz p.1).
      change (proj (x :: zz) p.1) with (xp p :: proj zz p.1). change (proj (y :: zz) p.1) with (yp p :: proj zz p.1).
      rewrite mass_xyz, mass_z, mass_xz, mass_yz by done. fold (kp p). unfold Rdiv. f_equal. f_equal. ring.
  Qed.

  Lemma cmi_indep : 0 < length recs → (0 <= calc_cmi_from_counts T sx sy K (length recs))%R ∧
    (calc_cmi_from_counts T sx sy K (length recs) = 0%R ↔ emp_indep recs x y zz).
  Proof.
    intros Hn. destruct (cmi_nonneg T sx sy K (length recs) T_nonneg Hn) as [H1 H2]. split; [done|]. rewrite H2. split.
    - intros H a b c. destruct (decide (Forall2 (λ x s, x < s) c vz)) as [Hc|Hc]; change (Forall2 _ c vz) with (config vz c) in Hc.
      + pose proof (f_index_lt vz c Hc) as Hk. destruct (decide (a < sx)) as [Ha|Ha]; [destruct (decide (b < sy)) as [Hb|Hb]|].
        * specialize (H a b (f_index vz c) Ha Hb Hk). rewrite HT, Tz_T, Tyz_T, Txz_T in H by done.
          by rewrite mass_xyz, mass_z, mass_xz, mass_yz.
        * rewrite (mass_absent (x :: y :: zz)), (mass_absent (y :: zz)); [lra|..]; intros p Hp [=]; by destruct (cfg_parts p Hp) as (? & ? & ? & ?); unfold yp in *; subst b.
        * rewrite (mass_absent (x :: y :: zz)), (mass_absent (x :: zz)); [lra|..]; intros p Hp [=]; by destruct (cfg_parts p Hp) as (? & ? & ? & ?); unfold xp in *; subst a.
      + rewrite (mass_absent zz), (mass_absent (x :: zz)); [lra|..]; intros p Hp [=]; apply Hc; subst c; by apply cfg_parts.
    - intros H i j k Hi Hj Hk. rewrite HT, Tz_T, Tyz_T, Txz_T by done.
      destruct (f_index_surj vz k Hk) as (c & Hc & <-). specialize (H i j c).
      by rewrite mass_xyz, mass_z, mass_xz, mass_yz in H.
  Qed.
End records.

(** the masses depend on the set of variables only *)
Lemma proj_eq vars r r' : proj vars r = proj vars r' ↔ ∀ v, v ∈ vars → r !!! v = r' !!! v.
Proof.
  induction vars as [|v vars IH]; [split; [by intros _ ? ?%elem_of_nil|done]|].
  change (proj (v :: vars) ?q) with (q !!! v :: proj vars q). split.
  - intros [= E1 E2] u [->|Hu]%elem_of_cons; [done|]. by apply IH.
  - intros H. f_equal; [apply H; left|]. apply IH. intros u Hu. apply H. by right.
Qed.
Lemma mass_set recs vars vars' r : (∀ v, v ∈ vars ↔ v ∈ vars') → mass recs vars (proj vars r) = mass recs vars' (proj vars' r).
Proof.
  intros H. rewrite !mass_sum. apply rsum_ext. intros p _. f_equal. unfold ind.
  assert (proj vars p.1 = proj vars r ↔ proj vars' p.1 = proj vars' r) as E.
  { rewrite !proj_eq. by setoid_rewrite H. }
  destruct (decide (proj vars p.1 = proj vars r)), (decide (proj vars' p.1 = proj vars' r)); tauto.
Qed.
Lemma emp_cmi_sym recs x y zz zz' : (∀ v, v ∈ zz ↔ v ∈ zz') → emp_cmi recs x y zz = emp_cmi recs y x zz'.
Proof.
  intros H. unfold emp_cmi. f_equal. rewrite !foldr_rsum. apply rsum_ext. intros p _. cbn zeta. f_equal. f_equal.
  rewrite (mass_set recs (x :: y :: zz) (y :: x :: zz')) by (intros v; rewrite !elem_of_cons, H; tauto).
  rewrite (mass_set recs zz zz') by done.
  rewrite (mass_set recs (x :: zz) (x :: zz')) by (intros v; rewrite !elem_of_cons, H; tauto).
  rewrite (mass_set recs (y :: zz) (y :: zz')) by (intros v; rewrite !elem_of_cons, H; tauto).
  unfold Rdiv. f_equal. f_equal. ring.
Qed.

(** ** the statistic *)
Lemma columns_config data ns vars : Forall (config ns) data → Forall (λ v, v < length ns) vars →
  ∀ r, r ∈ data → config ((λ v, ns !!! v) <$> vars) (proj vars r).
Proof.
  intros Hd Hv r Hr. rewrite Forall_forall in Hd. specialize (Hd r Hr).
  induction Hv as [|v vars Hlt _ IH]; [constructor|]. rewrite fmap_cons. unfold proj. rewrite fmap_cons. constructor; [|exact IH].
  destruct (lookup_lt_is_Some_2 ns v Hlt) as [s Es]. destruct (Forall2_lookup_r _ _ _ _ _ Hd Es) as (a & Ea & H).
  by rewrite (list_lookup_total_correct _ _ _ Ea), (list_lookup_total_correct _ _ _ Es).
Qed.
Lemma hist_cell {A} (h : list A) (f : A → R) sx sy vz i j k c a : i < sx → j < sy → k = f_index vz c →
  h !! f_index (sx :: sy :: vz) (i :: j :: c) = Some a → default 0%R ((f <$> h) !! (i + sx * (j + sy * k))) = f a.
Proof. intros Hi Hj -> H. rewrite list_lookup_fmap. simpl in H. by rewrite H. Qed.
Lemma n_records_mass data vars vals : INR (n_records (columns data vars) vals) = mass (unweighted data) vars vals.
Proof.
  unfold n_records, columns, unweighted. rewrite mass_sum. induction data as [|r data IH]; [done|].
  rewrite !fmap_cons, rsum_cons, filter_cons. cbn [fst snd]. unfold ind at 1. fold (proj vars r).
  destruct (decide (proj vars r = vals)); [|lra]. cbn [length]. rewrite S_INR. lra.
Qed.
Lemma w_records_mass data ws vars vals : Q2R (w_records (columns data vars) ws vals) = mass (weighted data ws) vars vals.
Proof.
  unfold w_records, columns, weighted. rewrite mass_sum. revert ws. induction data as [|r data IH]; intros ws.
  - unfold rsum. simpl. unfold Q2R. simpl. lra.
  - destruct ws as [|w ws]; [unfold rsum; simpl; unfold Q2R; simpl; lra|].
    rewrite fmap_cons. cbn [zip_with zip]. rewrite rsum_cons, filter_cons. cbn [fst snd]. unfold ind at 1. fold (proj vars r).
    destruct (decide (proj vars r = vals)); [|specialize (IH ws); lra].
    rewrite fmap_cons. cbn [foldr snd]. rewrite Q2R_plus. specialize (IH ws). lra.
Qed.
Lemma weighted_length data ws : length ws = length data → length (weighted data ws) = length data.
Proof. intros H. unfold weighted. rewrite zip_with_length. lia. Qed.
Lemma weighted_in data ws p : p ∈ weighted data ws → p.1 ∈ data ∧ ∃ w, w ∈ ws ∧ p.2 = Q2R w.
Proof.
  intros H. unfold weighted in H. apply elem_of_lookup_zip_with in H as (i & r & w & -> & Hr & Hw). cbn.
  split; [by eapply elem_of_list_lookup_2|]. exists w. split; [by eapply elem_of_list_lookup_2|done].
Qed.

Lemma cmi_of_hist_ok h sx sy vz n : 0 < sx → 0 < sy → length h = n_configs (sx :: sy :: vz) →
  cmi_of_hist h sx sy n = Ok (calc_cmi_from_counts (λ i j k, default 0%R (h !! (i + sx * (j + sy * k)))) sx sy (n_configs vz) n).
Proof.
  intros Hx Hy Hh. unfold cmi_of_hist. unfold n_configs in Hh. simpl in Hh.
  assert (length h = n_configs vz * (sx * sy)) as E by (unfold n_configs; lia). rewrite E.
  rewrite decide_True; [|split; [nia|apply Nat.mod_mul; nia]]. rewrite Nat.div_mul by nia. done.
Qed.

(** what both versions have in common *)
Definition cmi_good (recs : list (list nat * R)) (x y : nat) (zz : list nat) (v : R) : Prop :=
  v = emp_cmi recs x y zz ∧ (0 <= v)%R ∧ (v = 0%R ↔ emp_indep recs x y zz).

Lemma cmi_statistic_ok data nv x y zz : data ≠ [] → Forall (λ r, length r = nv) data → x < nv → y < nv → Forall (λ v, v < nv) zz →
  returns (cmi_statistic data nv x y zz) (cmi_good (unweighted data) x y zz).
Proof.
  intros Hne Hlen Hx Hy Hz. unfold cmi_statistic. eapply returns_bind; [apply (var_size_ok data nv Hne Hlen)|].
  intros ns (Hl & Hcfg & Hpos). assert (Forall (λ v, v < length ns) (x :: y :: zz)) as Hv by (rewrite Hl; repeat constructor; done).
  unfold sizes. rewrite decide_True by done. cbn [mbind res_bind]. rewrite !fmap_cons. cbn [lookup_total list_lookup_total].
  set (sx := ns !!! x). set (sy := ns !!! y). set (vz := (λ v, ns !!! v) <$> zz).
  pose proof (columns_config data ns (x :: y :: zz) Hcfg Hv) as Hc. rewrite !fmap_cons in Hc. fold sx sy vz in Hc.
  assert (0 < sx ∧ 0 < sy) as [Hsx Hsy].
  { split; [apply (Hpos x)|apply (Hpos y)]; apply list_lookup_lookup_total_lt; lia. }
  assert (Forall (config (sx :: sy :: vz)) (columns data (x :: y :: zz))) as Hcol.
  { rewrite Forall_forall. intros c (r & -> & Hr)%elem_of_list_fmap. by apply Hc. }
  eapply returns_bind; [apply (stats_ok _ (sx :: sy :: vz)); [done|exact Hcol]|]. intros h (Hh & Hcell & _).
  rewrite (cmi_of_hist_ok _ sx sy vz) by (rewrite ?fmap_length; done). cbn [returns].
  assert (∀ p, p ∈ unweighted data → config (sx :: sy :: vz) (proj (x :: y :: zz) p.1)) as Hp.
  { intros p (r & -> & Hr)%elem_of_list_fmap. by apply Hc. }
  assert (∀ p, p ∈ unweighted data → (0 <= p.2)%R) as Hw.
  { intros p (r & -> & Hr)%elem_of_list_fmap. cbn. lra. }
  assert (∀ i j k, i < sx → j < sy → k < n_configs vz →
    default 0%R ((INR <$> h) !! (i + sx * (j + sy * k))) = cellT (unweighted data) x y zz vz i j k) as HT.
  { intros i j k Hi Hj Hk. destruct (f_index_surj vz k Hk) as (c & Hcc & <-).
    rewrite (hist_cell h INR sx sy vz i j _ c (n_records (columns data (x :: y :: zz)) (i :: j :: c))); [|done..|].
    - rewrite n_records_mass. by apply (mass_xyz _ x y zz sx sy).
    - apply Hcell. by repeat constructor. }
  assert (length data = length (unweighted data)) as -> by (unfold unweighted; by rewrite fmap_length).
  split; [by apply cmi_records|]. apply cmi_indep; [done..|]. unfold unweighted. rewrite fmap_length. destruct data; [done|]. simpl. lia.
Qed.

Lemma cmi_statistic_w_ok data ws nv x y zz : data ≠ [] → Forall (λ r, length r = nv) data → length ws = length data →
  Forall (λ w, 0 <= w)%Q ws → x < nv → y < nv → Forall (λ v, v < nv) zz →
  returns (cmi_statistic_w data ws nv x y zz) (cmi_good (weighted data ws) x y zz).
Proof.
  intros Hne Hlen Hws Hnn Hx Hy Hz. unfold cmi_statistic_w. eapply returns_bind; [apply (var_size_ok data nv Hne Hlen)|].
  intros ns (Hl & Hcfg & Hpos). assert (Forall (λ v, v < length ns) (x :: y :: zz)) as Hv by (rewrite Hl; repeat constructor; done).
  unfold sizes. rewrite decide_True by done. cbn [mbind res_bind]. rewrite !fmap_cons. cbn [lookup_total list_lookup_total].
  set (sx := ns !!! x). set (sy := ns !!! y). set (vz := (λ v, ns !!! v) <$> zz).
  pose proof (columns_config data ns (x :: y :: zz) Hcfg Hv) as Hc. rewrite !fmap_cons in Hc. fold sx sy vz in Hc.
  assert (0 < sx ∧ 0 < sy) as [Hsx Hsy].
  { split; [apply (Hpos x)|apply (Hpos y)]; apply list_lookup_lookup_total_lt; lia. }
  assert (Forall (config (sx :: sy :: vz)) (columns data (x :: y :: zz))) as Hcol.
  { rewrite Forall_forall. intros c (r & -> & Hr)%elem_of_list_fmap. by apply Hc. }
  eapply returns_bind; [apply (stats_w_ok _ (sx :: sy :: vz) ws); [done|exact Hcol|unfold columns; by rewrite fmap_length]|]. intros h (Hh & Hcell).
  rewrite (cmi_of_hist_ok _ sx sy vz) by (rewrite ?fmap_length; done). cbn [returns].
  assert (∀ p, p ∈ weighted data ws → config (sx :: sy :: vz) (proj (x :: y :: zz) p.1)) as Hp.
  { intros p [Hr _]%weighted_in. by apply Hc. }
  assert (∀ p, p ∈ weighted data ws → (0 <= p.2)%R) as Hw.
  { intros p [_ (w & Hin & ->)]%weighted_in. rewrite Forall_forall in Hnn. apply Hnn, Qle_Rle in Hin.
    assert (Q2R 0 = 0%R) as E by (unfold Q2R; simpl; lra). lra. }
  assert (∀ i j k, i < sx → j < sy → k < n_configs vz →
    default 0%R ((Q2R <$> h) !! (i + sx * (j + sy * k))) = cellT (weighted data ws) x y zz vz i j k) as HT.
  { intros i j k Hi Hj Hk. destruct (f_index_surj vz k Hk) as (c & Hcc & <-).
    destruct (Hcell (i :: j :: c)) as (q & Hq & Eq); [by repeat constructor|].
    rewrite (hist_cell h Q2R sx sy vz i j _ c q) by done.
    rewrite (Qeq_eqR _ _ Eq), w_records_mass. by apply (mass_xyz _ x y zz sx sy). }
  rewrite <-(weighted_length data ws Hws).
  split; [by apply cmi_records|]. apply cmi_indep; [done..|]. rewrite weighted_length by done. destruct data; [done|]. simpl. lia.
Qed.

(** ** scaling the weights, repeating records *)
Lemma mass_pos recs vars p : (∀ q, q ∈ recs → (0 <= q.2)%R) → p ∈ recs → (0 < p.2)%R → (0 < mass recs vars (proj vars p.1))%R.
Proof.
  intros Hw Hp Hpos. rewrite mass_sum.
  pose proof (rsum_in_le (λ q, ind (proj vars q.1 = proj vars p.1) * q.2)%R recs p) as H.
  assert (ind (proj vars p.1 = proj vars p.1) = 1%R) as E by (unfold ind; by rewrite decide_True).
  cbn beta in H. rewrite E in H. assert (1 * p.2 <= rsum (λ q, ind (proj vars q.1 = proj vars p.1) * q.2)%R recs)%R; [|lra].
  apply H; [|done]. intros q Hq. pose proof (Hw q Hq). unfold ind. destruct (decide _); lra.
Qed.
Definition rscale (c : R) (recs : list (list nat * R)) : list (list nat * R) := (λ p : list nat * R, (p.1, c * p.2)%R) <$> recs.
Lemma rsum_fmap {A B} (f : B → R) (g : A → B) l : rsum f (g <$> l) = rsum (λ a, f (g a)) l.
Proof. induction l as [|a l IH]; [done|]. by rewrite fmap_cons, !rsum_cons, IH. Qed.
Lemma rsum_rscale c f recs : rsum f (rscale c recs) = rsum (λ p : list nat * R, f (p.1, c * p.2)%R) recs.
Proof. apply rsum_fmap. Qed.
Lemma mass_scale c recs vars vals : mass (rscale c recs) vars vals = (c * mass recs vars vals)%R.
Proof. rewrite !mass_sum. unfold rscale. rewrite rsum_fmap, <-rsum_scal. apply rsum_ext. intros p _. cbn. ring. Qed.
Lemma emp_cmi_scale c recs x y zz : (0 < c)%R → (∀ q, q ∈ recs → (0 <= q.2)%R) → emp_cmi (rscale c recs) x y zz = (c * emp_cmi recs x y zz)%R.
Proof.
  intros Hc Hw. unfold emp_cmi. rewrite !foldr_rsum, rsum_rscale.
  assert (length (rscale c recs) = length recs) as -> by (unfold rscale; by rewrite fmap_length).
  unfold Rdiv. rewrite <-Rmult_assoc. f_equal. rewrite <-rsum_scal. apply rsum_ext. intros p Hp. cbn zeta. cbn [fst snd].
  rewrite !mass_scale. destruct (Req_dec p.2 0) as [E|E]; [rewrite E; ring|]. rewrite Rmult_assoc. do 3 f_equal.
  assert (0 < p.2)%R as Hpos by (pose proof (Hw p Hp); lra).
  pose proof (mass_pos recs (x :: zz) p Hw Hp Hpos). pose proof (mass_pos recs (y :: zz) p Hw Hp Hpos).
  field. split_and!; lra.
Qed.
Lemma weighted_scale data ws (c : Q) : weighted data ((λ w, c * w)%Q <$> ws) = rscale (Q2R c) (weighted data ws).
Proof.
  unfold weighted, rscale. revert ws. induction data as [|r data IH]; intros ws; [done|]. destruct ws as [|w ws]; [done|].
  rewrite fmap_cons. cbn [zip_with]. rewrite fmap_cons, IH. cbn [fst snd]. by rewrite Q2R_mult.
Qed.
Lemma weighted_nonneg data ws : Forall (λ w, 0 <= w)%Q ws → ∀ p, p ∈ weighted data ws → (0 <= p.2)%R.
Proof.
  intros Hnn p [_ (w & Hin & ->)]%weighted_in. rewrite Forall_forall in Hnn. apply Hnn, Qle_Rle in Hin.
  assert (Q2R 0 = 0%R) as E by (unfold Q2R; simpl; lra). lra.
Qed.
Lemma repeated_sum data ks (F : list nat → R) : length ks = length data →
  rsum (λ p, p.2 * F p.1)%R (unweighted (repeated data ks)) = rsum (λ p, p.2 * F p.1)%R (weighted data (Qnat <$> ks)).
Proof.
  unfold repeated, unweighted, weighted. revert ks. induction data as [|r data IH]; intros ks Hl; [by destruct ks|].
  destruct ks as [|k ks]; [done|]. injection Hl as Hl. rewrite fmap_cons. cbn [zip_with concat]. rewrite fmap_app, rsum_cons, <-IH by done. cbn [fst snd].
  assert (Q2R (Qnat k) = INR k) as ->.
  { unfold Qnat, Q2R, inject_Z. cbn [Qnum Qden]. rewrite <-INR_IZR_INZ. lra. }
  clear. induction k as [|k IHk]; [simpl; lra|]. rewrite S_INR. cbn [replicate app]. rewrite fmap_cons. cbn [app]. rewrite rsum_cons, IHk. cbn [fst snd]. lra.
Qed.
Lemma emp_cmi_repeated data ks x y zz : length ks = length data → 0 < sum_list ks → 
  (emp_cmi (weighted data (Qnat <$> ks)) x y zz * INR (length data) = emp_cmi (unweighted (repeated data ks)) x y zz * INR (length (repeated data ks)))%R.
Proof.
  intros Hl Hs. assert (∀ vars vals, mass (unweighted (repeated data ks)) vars vals = mass (weighted data (Qnat <$> ks)) vars vals) as Hm.
  { intros vars vals. rewrite !mass_sum.
    etransitivity; [|etransitivity; [exact (repeated_sum data ks (λ r, ind (proj vars r = vals)) Hl)|]]; apply rsum_ext; intros; ring. }
  unfold emp_cmi. rewrite !foldr_rsum. cbn zeta.
  rewrite (repeated_sum data ks (λ r, ln (mass (unweighted (repeated data ks)) (x :: y :: zz) (proj (x :: y :: zz) r) *
    mass (unweighted (repeated data ks)) zz (proj zz r) / (mass (unweighted (repeated data ks)) (x :: zz) (proj (x :: zz) r) *
    mass (unweighted (repeated data ks)) (y :: zz) (proj (y :: zz) r))))%R) by done.
  rewrite weighted_length by (by rewrite fmap_length). assert (length (unweighted (repeated data ks)) = length (repeated data ks)) as -> by (unfold unweighted; by rewrite fmap_length).
  assert (length (repeated data ks) = sum_list ks) as El.
  { unfold repeated. clear Hs Hm. revert ks Hl. induction data as [|r data IH]; intros ks Hl; [by destruct ks|]. destruct ks as [|k ks]; [done|].
    injection Hl as Hl. cbn [zip_with concat]. rewrite app_length, replicate_length, IH by done. done. }
  assert (0 < length data) as Hd by (destruct data; [destruct ks; [simpl in Hs; lia|done]|simpl; lia]).
  assert (INR (length data) ≠ 0%R) by (apply not_0_INR; lia).
  assert (INR (length (repeated data ks)) ≠ 0%R) by (apply not_0_INR; lia).
  unfold Rdiv. rewrite !Rmult_assoc, !Rinv_l, !Rmult_1_r by done. apply rsum_ext. intros p _. by rewrite !Hm.
Qed.
Lemma weighted_ones data : emp_cmi (weighted data (replicate (length data) 1%Q)) = emp_cmi (unweighted data).
Proof.
  f_equal. unfold weighted, unweighted. induction data as [|r data IH]; [done|]. cbn [length replicate zip_with]. rewrite fmap_cons, IH.
  assert (Q2R 1 = 1%R) as -> by (unfold Q2R; simpl; lra). done.
Qed.

(** ** the statistic as a function *)
Lemma cmi_calc_ok data ws nv x y zz : data ≠ [] → Forall (λ r, length r = nv) data → weights_ok data ws →
  x < nv → y < nv → Forall (λ v, v < nv) zz →
  ∃ v, cmi_calc data ws nv x y zz = Some v ∧ cmi_good (records data ws) x y zz v.
Proof.
  intros Hne Hlen Hw Hx Hy Hz. unfold cmi_calc. destruct ws as [ws|].
  - destruct Hw as [Hw1 Hw2]. pose proof (cmi_statistic_w_ok data ws nv x y zz Hne Hlen Hw1 Hw2 Hx Hy Hz) as H.
    destruct (cmi_statistic_w _ _ _ _ _ _) as [v| |]; [|done..]. eauto.
  - pose proof (cmi_statistic_ok data nv x y zz Hne Hlen Hx Hy Hz) as H.
    destruct (cmi_statistic _ _ _ _ _) as [v| |]; [|done..]. eauto.
Qed.
Lemma cmi_calc_sym data ws nv x y zz zz' : data ≠ [] → Forall (λ r, length r = nv) data → weights_ok data ws →
  x < nv → y < nv → Forall (λ v, v < nv) zz → (∀ v, v ∈ zz ↔ v ∈ zz') →
  ∃ v, cmi_calc data ws nv x y zz = Some v ∧ cmi_calc data ws nv y x zz' = Some v.
Proof.
  intros Hne Hlen Hw Hx Hy Hz E. destruct (cmi_calc_ok data ws nv x y zz) as (v & H1 & Hv & _); [done..|].
  destruct (cmi_calc_ok data ws nv y x zz') as (v' & H2 & Hv' & _); [done..| |].
  { rewrite Forall_forall in *. intros u Hu%E. by apply Hz. }
  exists v. split; [done|]. rewrite H2, Hv', Hv. f_equal. symmetry. by apply emp_cmi_sym.
Qed.
Lemma cmi_scaled data ws (c : Q) nv x y zz : data ≠ [] → Forall (λ r, length r = nv) data → weights_ok data (Some ws) →
  (0 < c)%Q → x < nv → y < nv → Forall (λ v, v < nv) zz →
  ∃ v, cmi_calc data (Some ws) nv x y zz = Some v ∧ cmi_calc data (Some ((λ w, c * w)%Q <$> ws)) nv x y zz = Some (Q2R c * v)%R.
Proof.
  intros Hne Hlen Hw Hc Hx Hy Hz. destruct (cmi_calc_ok data (Some ws) nv x y zz) as (v & H1 & Hv & _); [done..|].
  destruct (cmi_calc_ok data (Some ((λ w, c * w)%Q <$> ws)) nv x y zz) as (v' & H2 & Hv' & _); [done..| |done|done|done|].
  { destruct Hw as [Hw1 Hw2]. split; [by rewrite fmap_length|]. rewrite Forall_fmap. eapply Forall_impl; [exact Hw2|]. intros w Hw. cbn.
    apply Qmult_le_0_compat; [by apply Qlt_le_weak|done]. }
  exists v. split; [done|]. rewrite H2, Hv', Hv. f_equal. cbn [records]. rewrite weighted_scale. apply emp_cmi_scale.
  - apply Qlt_Rlt in Hc. assert (Q2R 0 = 0%R) as E by (unfold Q2R; simpl; lra). lra.
  - apply weighted_nonneg, Hw.
Qed.
Lemma scaling_refuted : ∃ data ws (c : Q) nv x y zz, data ≠ [] ∧ Forall (λ r, length r = nv) data ∧ length ws = length data ∧
  Forall (λ w, 0 <= w)%Q ws ∧ (0 < c)%Q ∧ x < nv ∧ y < nv ∧ Forall (λ v, v < nv) zz ∧
  cmi_calc data (Some ((λ w, c * w)%Q <$> ws)) nv x y zz ≠ cmi_calc data (Some ws) nv x y zz.
Proof.
  exists [[0;0];[1;1]], [1%Q;1%Q], 2%Q, 2, 0, 1, [].
  assert (Forall (λ w, 0 <= w)%Q [1%Q;1%Q]) as Hw by (repeat constructor; unfold Qle; simpl; lia).
  assert (Forall (λ r, length r = 2) [[0;0];[1;1]]) as Hl by repeat constructor.
  split_and!; [done|done|done|done|unfold Qlt; simpl; lia|lia|lia|constructor|].
  destruct (cmi_scaled [[0;0];[1;1]] [1%Q;1%Q] 2%Q 2 0 1 []) as (v & H1 & H2); [done|done|done|unfold Qlt; simpl; lia|lia|lia|constructor|].
  destruct (cmi_calc_ok [[0;0];[1;1]] (Some [1%Q;1%Q]) 2 0 1 []) as (v' & H3 & _ & H4 & H5); [done|done|done|lia|lia|constructor|].
  rewrite H1 in H3. injection H3 as <-. rewrite H1, H2. intros [= E].
  assert (Q2R 2 = 2%R) as E2 by (unfold Q2R; simpl; lra). rewrite E2 in E. assert (v = 0)%R as Hv by lra. apply H5 in Hv.
  specialize (Hv 0 0 []). assert (Q2R 1 = 1%R) as E1 by (unfold Q2R; simpl; lra).
  unfold mass, proj, records, weighted in Hv. simpl in Hv. rewrite E1 in Hv. lra.
Qed.
Lemma repeated_length data ks : length ks = length data → length (repeated data ks) = sum_list ks.
Proof.
  unfold repeated. revert ks. induction data as [|r data IH]; intros ks Hl; [by destruct ks|]. destruct ks as [|k ks]; [done|].
  injection Hl as Hl. cbn [zip_with concat]. rewrite app_length, replicate_length, IH by done. done.
Qed.
Lemma repeated_in data ks r : r ∈ repeated data ks → r ∈ data.
Proof.
  unfold repeated. revert ks. induction data as [|s data IH]; intros ks; [by destruct ks; intros ?%elem_of_nil|].
  destruct ks as [|k ks]; [by intros ?%elem_of_nil|]. cbn [zip_with concat]. intros [H|H]%elem_of_app; [|right; by eapply IH].
  apply elem_of_replicate in H as [-> _]. left.
Qed.
Lemma cmi_repeated data ks nv x y zz : Forall (λ r, length r = nv) data → length ks = length data → 0 < sum_list ks →
  x < nv → y < nv → Forall (λ v, v < nv) zz →
  ∃ v w, cmi_calc data (Some (Qnat <$> ks)) nv x y zz = Some v ∧ cmi_calc (repeated data ks) None nv x y zz = Some w ∧
    (v * INR (length data) = w * INR (sum_list ks))%R.
Proof.
  intros Hlen Hl Hs Hx Hy Hz.
  assert (data ≠ []) as Hne by (intros ->; destruct ks; [simpl in Hs; lia|done]).
  destruct (cmi_calc_ok data (Some (Qnat <$> ks)) nv x y zz) as (v & H1 & Hv & _); [done|done| |done|done|done|].
  { split; [by rewrite fmap_length|]. rewrite Forall_fmap, Forall_forall. intros k _. cbn. unfold Qnat, Qle. simpl. lia. }
  destruct (cmi_calc_ok (repeated data ks) None nv x y zz) as (w & H2 & Hw & _); [| |done|done|done|done|].
  { intros E. apply (f_equal length) in E. rewrite repeated_length in E by done. simpl in E. lia. }
  { rewrite Forall_forall in *. intros r Hr%repeated_in. by apply Hlen. }
  exists v, w. split_and!; [done|done|]. rewrite Hv, Hw, <-(repeated_length data ks) by done. by apply emp_cmi_repeated.
Qed.
Lemma cmi_unit data nv x y zz : data ≠ [] → Forall (λ r, length r = nv) data → x < nv → y < nv → Forall (λ v, v < nv) zz →
  ∃ v, cmi_calc data (Some (replicate (length data) 1%Q)) nv x y zz = Some v ∧ cmi_calc data None nv x y zz = Some v.
Proof.
  intros Hne Hlen Hx Hy Hz.
  destruct (cmi_calc_ok data (Some (replicate (length data) 1%Q)) nv x y zz) as (v & H1 & Hv & _); [done|done| |done|done|done|].
  { split; [apply replicate_length|]. apply Forall_replicate. unfold Qle. simpl. lia. }
  destruct (cmi_calc_ok data None nv x y zz) as (w & H2 & Hw & _); [done..|].
  exists v. split; [done|]. rewrite H2, Hw, Hv. cbn [records]. by rewrite weighted_ones.
Qed.

(** ** decisions *)
Definition cmi_val (recs : list (list nat * R)) (k : nset * nset) : R :=
  match elements k.1 with a :: b :: _ => emp_cmi recs a b (elements k.2) | _ => 0%R end.
Lemma cmi_val_ok recs x y zz : x ≠ y → cmi_val recs (qkey (x, y, zz)) = emp_cmi recs x y zz.
Proof.
  intros Hne. unfold cmi_val, qkey. cbn [fst snd].
  assert (elements ({[x; y]} : nset) ≡ₚ [x; y]) as Hp.
  { rewrite elements_disj_union by (apply disjoint_singleton_l; by rewrite elem_of_singleton). by rewrite !elements_singleton. }
  assert (∀ v, v ∈ elements (list_to_set zz : nset) ↔ v ∈ zz) as Hz.
  { intros v. by rewrite elem_of_elements, elem_of_list_to_set. }
  apply Permutation_sym, Permutation_length_2_inv in Hp as [->| ->].
  - rewrite (emp_cmi_sym _ x y _ zz) by done. by apply emp_cmi_sym.
  - by apply emp_cmi_sym.
Qed.
Lemma cmi_decisions data ws nv retained th ops : data ≠ [] → Forall (λ r, length r = nv) data → weights_ok data ws →
  Forall (op_valid nv) ops →
  returns (stat_run (λ _, cmi_cond_indep rgt retained true (cmi_calc data ws nv)) 0 ops (StatState (ci_new nv true true) th)) (λ r,
    Forall2 (λ (b : bool) P, b = true ↔ P) r.1 (expected (λ t x y zz, adjacent retained x y ∨ (emp_cmi (records data ws) x y zz <= t)%R) th ops) ∧
    ∃ l, cs_count (ss_ci r.2) = Some l ∧ counts nv (op_queries retained ops) l).
Proof.
  intros Hne Hlen Hw Hops. set (recs := records data ws).
  pose proof (cmi_cached rgt retained nv (cmi_val recs) (λ _, cmi_calc data ws nv) th ops Hops) as H.
  eapply returns_mono; [apply H|].
  - intros _ x y zz (Hxy & Hx & Hy & _ & _ & _ & Hz). cbn [fst snd] in *.
    destruct (cmi_calc_ok data ws nv x y zz) as (v & H1 & Hv & _); [done..| |by rewrite H1, Hv, cmi_val_ok].
    rewrite Forall_forall. exact Hz.
  - intros r (-> & Hc). split; [|done]. clear H Hc. revert th. induction Hops as [|op ops Hop _ IH]; intros th; [constructor|].
    destruct op as [x y zz|t]; [|apply IH]. cbn [memoryless expected]. rewrite fmap_cons. constructor; [|apply IH].
    destruct Hop as (Hxy & _). cbn [fst snd] in Hxy. rewrite cmi_val_ok by done.
    case_bool_decide as Ha; [simpl; tauto|]. unfold rgt. destruct (Rlt_dec th (emp_cmi recs x y zz)) as [Hlt|Hge]; simpl; split; try done.
    + intros [?|?]; [done|lra].
    + intros _. right. lra.
Qed.
Lemma cmi_zero_threshold data ws nv x y zz s : data ≠ [] → Forall (λ r, length r = nv) data → weights_ok data ws →
  qvalid nv (x, y, zz) → cs_cache s = None → cs_count s = None →
  returns (cmi_cond_indep rgt (mk_graph (seq 0 nv) []) false (cmi_calc data ws nv) x y zz (StatState s 0%R)) (λ r,
    r.1 = true ↔ emp_indep (records data ws) x y zz).
Proof.
  intros Hne Hlen Hw (Hxy & Hx & Hy & _ & _ & _ & Hz) Hs1 Hs2. cbn [fst snd] in *.
  destruct (cmi_calc_ok data ws nv x y zz) as (v & H1 & _ & Hv0 & Hv); [done..|by rewrite Forall_forall|].
  unfold cmi_cond_indep, stat_cond_indep.
  destruct (is_connected (mk_graph (seq 0 nv) []) x y) eqn:Ec.
  { exfalso. apply is_connected_spec in Ec. destruct Ec as [Ec|Ec]; apply mk_graph_edge in Ec; by apply elem_of_nil in Ec. }
  cbn [ss_ci]. rewrite Hs1, Hs2. cbn [cc_get]. rewrite H1. cbn [count_test mbind res_bind cache_it ss_threshold returns fst snd].
  rewrite <-Hv. unfold rgt. destruct (Rlt_dec 0 v); simpl; split; try done; intros; lra.
Qed.
