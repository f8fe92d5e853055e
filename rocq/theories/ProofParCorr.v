(** Proofs about the partial correlation test. *)
From Coq Require Import FinFun Reals Lra Psatz.
From Verif Require Import Base BaseLemmas ModelCMI ModelCI ProofCMI ModelParCorr SpecParCorr.
Local Open Scope nat_scope.
Local Notation Rsqrt := R_sqrt.sqrt.

Lemma Rcomplements_abs r c : (Rabs r <= c)%R → (- c <= r <= c)%R.
Proof. unfold Rabs. destruct (Rcase_abs r); lra. Qed.

(** ** vectors *)
Section vec.
Context (n : nat).
Local Notation dot := (vdot n).
Lemma dot_sym f g : dot f g = dot g f.
Proof. apply rsum_ext. intros t _. ring. Qed.
Lemma dot_ext f f' g g' : (∀ t, t < n → f t = f' t) → (∀ t, t < n → g t = g' t) → dot f g = dot f' g'.
Proof. intros H H'. apply rsum_ext. intros t Ht%elem_of_seq. rewrite H, H' by lia. done. Qed.
Lemma dot_plus f g h : dot (λ t, f t + g t)%R h = (dot f h + dot g h)%R.
Proof. unfold vdot. rewrite <-rsum_plus. apply rsum_ext. intros; ring. Qed.
Lemma dot_minus f g h : dot (λ t, f t - g t)%R h = (dot f h - dot g h)%R.
Proof. unfold vdot. rewrite <-rsum_minus. apply rsum_ext. intros; ring. Qed.
Lemma dot_scal c f h : dot (λ t, c * f t)%R h = (c * dot f h)%R.
Proof. unfold vdot. rewrite <-rsum_scal. apply rsum_ext. intros; ring. Qed.
Lemma dot_scal_r c f h : dot h (λ t, c * f t)%R = (c * dot h f)%R.
Proof. rewrite dot_sym, dot_scal, dot_sym. done. Qed.
Lemma dot_sum {A} (F : A → nat → R) (l : list A) h : dot (λ t, rsum (λ a, F a t) l) h = rsum (λ a, dot (F a) h) l.
Proof.
  unfold vdot. rewrite rsum_swap. apply rsum_ext. intros t _. rewrite <-rsum_scal_r. done.
Qed.
Lemma dot_comb {A} (c : A → R) (F : A → nat → R) (l : list A) h : dot (λ t, rsum (λ a, c a * F a t)%R l) h = rsum (λ a, c a * dot (F a) h)%R l.
Proof. rewrite (dot_sum (λ a t, c a * F a t)%R). apply rsum_ext. intros a _. apply dot_scal. Qed.
Lemma dot_nonneg f : (0 <= dot f f)%R.
Proof. apply rsum_nonneg. intros t _. nra. Qed.
Lemma dot_zero f : dot f f = 0%R → ∀ t, t < n → f t = 0%R.
Proof.
  intros H t Ht. assert (f t * f t = 0)%R; [|nra].
  apply (rsum_zero (λ t, f t * f t)%R (seq 0 n)); [intros; nra|exact H|apply elem_of_seq; lia].
Qed.
Lemma dot_square a b f g : dot (λ t, a * f t + b * g t)%R (λ t, a * f t + b * g t)%R = (a * a * dot f f + 2 * a * b * dot f g + b * b * dot g g)%R.
Proof. unfold vdot. rewrite <-!rsum_scal, <-!rsum_plus. apply rsum_ext. intros; ring. Qed.
(** Cauchy-Schwarz *)
Lemma cauchy f g : (dot f g * dot f g <= dot f f * dot g g)%R.
Proof.
  pose proof (dot_nonneg (λ t, dot g g * f t + - dot f g * g t)%R) as H. rewrite dot_square in H.
  pose proof (dot_nonneg g). pose proof (dot_nonneg f).
  destruct (Req_dec (dot g g) 0) as [E|E].
  - assert (dot f g = 0%R) as ->; [|nra]. rewrite (dot_ext f f g (λ _, 0%R)) by (try done; by apply dot_zero).
    etransitivity; [|apply (rsum_0 (seq 0 n))]. apply rsum_ext. intros; ring.
  - assert (0 < dot g g)%R by lra. nra.
Qed.
End vec.

Lemma rsum_seq_lookup (f : nat → R) (l : list nat) : rsum (λ k, f (l !!! k)) (seq 0 (length l)) = rsum f l.
Proof.
  induction l as [|a l IH]; [done|]. cbn [length]. change (seq 0 (S (length l))) with (0 :: seq 1 (length l)). rewrite !rsum_cons. f_equal.
  rewrite <-IH, <-fmap_S_seq, rsum_fmap. done.
Qed.

Section partial.
Context (data : nat → nat → R) (n : nat).
Local Notation dot := (vdot n).
Local Notation dv := (dev data n).
(** normalised variables *)
Definition unit_ (a t : nat) : R := (dv a t / Rsqrt (dot (dv a) (dv a)))%R.
Definition cr (a b : nat) : R := (dot (dv a) (dv b) / (Rsqrt (dot (dv a) (dv a)) * Rsqrt (dot (dv b) (dv b))))%R.

Lemma sd_pos a : not_constant data n a → (0 < Rsqrt (dot (dv a) (dv a)))%R.
Proof. intros H. by apply sqrt_lt_R0. Qed.
Lemma cr_unit a b : not_constant data n a → not_constant data n b → cr a b = dot (unit_ a) (unit_ b).
Proof.
  intros Ha Hb. unfold cr, unit_. pose proof (sd_pos a Ha). pose proof (sd_pos b Hb).
  symmetry. etransitivity.
  - apply (dot_ext n _ (λ t, / Rsqrt (dot (dv a) (dv a)) * dv a t)%R _ (λ t, / Rsqrt (dot (dv b) (dv b)) * dv b t)%R); intros; unfold Rdiv; ring.
  - rewrite dot_scal, dot_scal_r. field. lra.
Qed.
Lemma cr_sym a b : cr a b = cr b a.
Proof. unfold cr. rewrite dot_sym. f_equal. apply Rmult_comm. Qed.
Lemma cr_self a : not_constant data n a → cr a a = 1%R.
Proof.
  intros H. unfold cr. rewrite sqrt_sqrt by (apply dot_nonneg). unfold Rdiv. apply Rinv_r. unfold not_constant in H. lra.
Qed.
Lemma cosine_bound e f : (0 < dot e e)%R → (0 < dot f f)%R → (Rabs (cosine n e f) <= 1)%R.
Proof.
  intros He Hf. unfold cosine. pose proof (sqrt_lt_R0 _ He). pose proof (sqrt_lt_R0 _ Hf).
  assert (0 < Rsqrt (dot e e) * Rsqrt (dot f f))%R by (by apply Rmult_lt_0_compat).
  set (p := (Rsqrt (dot e e) * Rsqrt (dot f f))%R) in *.
  unfold Rdiv. rewrite Rabs_mult, (Rabs_right (/ p)) by (apply Rle_ge; left; by apply Rinv_0_lt_compat).
  apply (Rmult_le_reg_r p); [done|]. rewrite Rmult_assoc, Rinv_l, Rmult_1_r, Rmult_1_l by lra. unfold p. rewrite <-sqrt_mult by lra.
  rewrite <-sqrt_Rsqr_abs. apply sqrt_le_1_alt. unfold Rsqr. apply cauchy.
Qed.
Lemma cr_bound a b : not_constant data n a → not_constant data n b → (Rabs (cr a b) <= 1)%R.
Proof. intros Ha Hb. by apply cosine_bound. Qed.
Lemma corrcoef_cr a b : 2 ≤ n → not_constant data n a → not_constant data n b → corrcoef data n a b = cr a b.
Proof.
  intros Hn Ha Hb. unfold corrcoef. assert (0 < INR (n - 1))%R as Hm by (apply lt_0_INR; lia).
  assert (∀ a b, cov data n a b = (dot (dv a) (dv b) / INR (n - 1))%R) as Hc by done. rewrite !Hc.
  pose proof (cr_bound a b Ha Hb) as Hbd. unfold not_constant in *.
  assert (dot (dv a) (dv b) / INR (n - 1) / Rsqrt (dot (dv a) (dv a) / INR (n - 1)) / Rsqrt (dot (dv b) (dv b) / INR (n - 1)) = cr a b)%R as ->.
  { unfold cr. rewrite !sqrt_div by lra. pose proof (sqrt_lt_R0 _ Ha). pose proof (sqrt_lt_R0 _ Hb). pose proof (sqrt_lt_R0 _ Hm).
    rewrite <-(sqrt_sqrt (INR (n - 1))) at 1 by lra. field. split_and!; lra. }
  apply Rcomplements_abs in Hbd. unfold Rmin, Rmax. repeat destruct (Rle_dec _ _); lra.
Qed.

(** *** linear combinations of the variables zz *)
Definition in_span (zz : list nat) (f : nat → R) : Prop :=
  ∃ l : list (R * nat), (∀ p, p ∈ l → p.2 ∈ zz) ∧ ∀ t, t < n → f t = rsum (λ p, p.1 * dv p.2 t)%R l.
Lemma rsum_app {A} (F : A → R) l l' : rsum F (l ++ l') = (rsum F l + rsum F l')%R.
Proof. induction l as [|c l IH]; [unfold rsum at 2; simpl; lra|]. cbn [app]. rewrite !rsum_cons, IH. lra. Qed.
Lemma span_plus zz f g : in_span zz f → in_span zz g → in_span zz (λ t, f t + g t)%R.
Proof.
  intros (l & H1 & H2) (l' & H1' & H2'). exists (l ++ l'). split.
  - intros p [?|?]%elem_of_app; auto.
  - intros t Ht. rewrite rsum_app, H2, H2' by done. done.
Qed.
Lemma span_scal zz c f : in_span zz f → in_span zz (λ t, c * f t)%R.
Proof.
  intros (l & H1 & H2). exists ((λ p : R * nat, ((c * p.1)%R, p.2)) <$> l). split.
  - intros p (q & -> & Hq)%elem_of_list_fmap. cbn. auto.
  - intros t Ht. rewrite rsum_fmap, H2 by done. rewrite <-rsum_scal. apply rsum_ext. intros p _. cbn. ring.
Qed.
Lemma span_comb {A} zz (c : A → R) (h : A → nat) (l : list A) : (∀ a, a ∈ l → h a ∈ zz) → in_span zz (λ t, rsum (λ a, c a * dv (h a) t)%R l).
Proof.
  intros H. exists ((λ a, (c a, h a)) <$> l). split; [intros p (a & -> & Ha)%elem_of_list_fmap; cbn; auto|].
  intros t _. by rewrite rsum_fmap.
Qed.
Lemma span_ext zz f g : (∀ t, t < n → f t = g t) → in_span zz f → in_span zz g.
Proof. intros H (l & H1 & H2). exists l. split; [done|]. intros t Ht. rewrite <-H by done. auto. Qed.
Lemma span_dot zz f e : in_span zz f → (∀ z, z ∈ zz → dot e (dv z) = 0%R) → dot e f = 0%R.
Proof.
  intros (l & H1 & H2) H. rewrite dot_sym, (dot_ext n f (λ t, rsum (λ p, p.1 * dv p.2 t)%R l) e e) by done.
  rewrite (dot_comb n (λ p : R * nat, p.1) (λ p, dv p.2)). etransitivity; [|apply (rsum_0 l)]. apply rsum_ext. intros p Hp.
  rewrite dot_sym, H by auto. ring.
Qed.
Lemma span_orth zz f : in_span zz f → (∀ z, z ∈ zz → dot f (dv z) = 0%R) → ∀ t, t < n → f t = 0%R.
Proof. intros H1 H2. apply dot_zero. by apply (span_dot zz). Qed.

(** *** residuals *)
Lemma residual_parts zz a e : residual data n zz a e → in_span zz (λ t, dv a t - e t)%R ∧ ∀ z, z ∈ zz → dot e (dv z) = 0%R.
Proof.
  intros [(beta & H1) H2]. split; [|done]. eapply span_ext; [|apply (span_comb zz beta (λ z, z) zz); done].
  intros t Ht. cbn. rewrite H1 by done. lra.
Qed.
Lemma residual_unique zz a e e' : residual data n zz a e → residual data n zz a e' → ∀ t, t < n → e t = e' t.
Proof.
  intros [S1 O1]%residual_parts [S2 O2]%residual_parts. assert (∀ t, t < n → (e t - e' t)%R = 0%R) as H.
  { apply (span_orth zz).
    - eapply span_ext; [|apply (span_plus zz _ _ S2 (span_scal zz (-1) _ S1))]. intros t _. cbn. ring.
    - intros z Hz. rewrite dot_minus, O1, O2 by done. ring. }
  intros t Ht. specialize (H t Ht). lra.
Qed.
(** a residual against the residual's own variable *)
Lemma residual_dot zz a e f : (∀ z, z ∈ zz → dot f (dv z) = 0%R) → residual data n zz a e → dot f (dv a) = dot f e.
Proof.
  intros Hf [S1 O1]%residual_parts. pose proof (span_dot zz _ f S1 Hf) as H.
  rewrite dot_sym, dot_minus in H. rewrite (dot_sym n f), (dot_sym n f e). lra.
Qed.

(** *** the inverse of the correlation matrix *)
Section inverse.
Context (x y : nat) (zz : list nat) (N : nat → nat → R).
Local Notation idx := (x :: y :: zz).
Local Notation m := (length idx).
Context (Hnc : ∀ a, a ∈ idx → not_constant data n a).
Context (HN : is_inverse m (λ i j, cr (idx !!! i) (idx !!! j)) N).
Definition dualv (i t : nat) : R := rsum (λ k, N i k * unit_ (idx !!! k) t)%R (seq 0 m).
Lemma idx_in k : k < m → idx !!! k ∈ idx.
Proof. intros H. apply elem_of_list_lookup_2 with k. by apply list_lookup_lookup_total_lt. Qed.
Lemma dual_unit i j : i < m → j < m → dot (dualv i) (unit_ (idx !!! j)) = if decide (i = j) then 1%R else 0%R.
Proof.
  intros Hi Hj. rewrite <-HN by done. unfold dualv. rewrite (dot_comb n (N i) (λ k, unit_ (idx !!! k))). apply rsum_ext. intros k Hk%elem_of_seq.
  rewrite cr_unit; [done|apply Hnc, idx_in; lia..].
Qed.
Lemma dual_dual i j : i < m → j < m → dot (dualv i) (dualv j) = N j i.
Proof.
  intros Hi Hj. rewrite dot_sym. unfold dualv at 1. rewrite (dot_comb n (N j) (λ k, unit_ (idx !!! k))).
  rewrite <-(rsum_point (N j) m i Hi). apply rsum_ext. intros k Hk%elem_of_seq. rewrite dot_sym, dual_unit by lia.
  destruct (decide (i = k)), (decide (k = i)); try congruence; ring.
Qed.
Lemma dual_dev i j : i < m → j < m → dot (dualv i) (dv (idx !!! j)) = if decide (i = j) then Rsqrt (dot (dv (idx !!! j)) (dv (idx !!! j))) else 0%R.
Proof.
  intros Hi Hj. pose proof (sd_pos _ (Hnc _ (idx_in j Hj))) as Hp.
  rewrite (dot_ext n (dualv i) (dualv i) _ (λ t, Rsqrt (dot (dv (idx !!! j)) (dv (idx !!! j))) * unit_ (idx !!! j) t)%R); [|done|].
  - rewrite dot_scal_r, dual_unit by done. destruct (decide _); ring.
  - intros t _. unfold unit_. field. lra.
Qed.
Lemma dual_zz i z : i < 2 → z ∈ zz → dot (dualv i) (dv z) = 0%R.
Proof.
  intros Hi Hz. apply elem_of_list_lookup in Hz as [k Hk]. pose proof (lookup_lt_Some _ _ _ Hk) as Hlt.
  pose proof (dual_dev i (S (S k)) ltac:(simpl; lia) ltac:(simpl; lia)) as H. rewrite decide_False in H by lia.
  change (idx !!! S (S k)) with (zz !!! k) in H. by rewrite (list_lookup_total_correct _ _ _ Hk) in H.
Qed.
Context (e f : nat → R) (He : residual data n zz x e) (Hf : residual data n zz y f).
Local Notation sx := (Rsqrt (dot (dv x) (dv x))).
Local Notation sy := (Rsqrt (dot (dv y) (dv y))).
Lemma dual_residuals i : i < 2 → ∀ t, t < n → dualv i t = (N i 0 / sx * e t + N i 1 / sy * f t)%R.
Proof.
  intros Hi. assert (∀ t, t < n → (dualv i t - (N i 0 / sx * e t + N i 1 / sy * f t))%R = 0%R) as H; [|intros t Ht; specialize (H t Ht); lra].
  destruct (residual_parts _ _ _ He) as [Se Oe]. destruct (residual_parts _ _ _ Hf) as [Sf Of].
  assert (∀ k, k ∈ seq 0 (length zz) → zz !!! k ∈ zz) as Hin.
  { intros k Hk%elem_of_seq. apply elem_of_list_lookup_2 with k. apply list_lookup_lookup_total_lt. lia. }
  apply (span_orth zz).
  - eapply span_ext; [|apply (span_plus zz _ _ (span_plus zz _ _ (span_scal zz (N i 0 / sx)%R _ Se) (span_scal zz (N i 1 / sy)%R _ Sf))
      (span_comb zz (λ k, N i (S (S k)) / Rsqrt (dot (dv (zz !!! k)) (dv (zz !!! k))))%R (λ k, zz !!! k) (seq 0 (length zz)) Hin))].
    intros t Ht. cbn beta. unfold dualv. cbn [length]. change (seq 0 (S (S (length zz)))) with (0 :: 1 :: seq 2 (length zz)). rewrite !rsum_cons.
      rewrite <-(fmap_S_seq 1), <-(fmap_S_seq 0), !rsum_fmap.
      replace (rsum (λ a, N i (S (S a)) * unit_ (idx !!! S (S a)) t)%R (seq 0 (length zz))) with
        (rsum (λ k, N i (S (S k)) / Rsqrt (dot (dv (zz !!! k)) (dv (zz !!! k))) * dv (zz !!! k) t)%R (seq 0 (length zz))).
      2: { apply rsum_ext. intros k _. unfold unit_. change (idx !!! S (S k)) with (zz !!! k). unfold Rdiv. ring. }
      unfold unit_. change (idx !!! 0) with x. change (idx !!! 1) with y. unfold Rdiv. ring.
  - intros z Hz. rewrite dot_minus, dot_plus, !dot_scal, dual_zz, Oe, Of by done. ring.
Qed.
(** the 2 × 2 block of N inverts the matrix of the (normalised) residuals *)
Lemma block_inverse : let a := (dot e e / (sx * sx))%R in let b := (dot e f / (sx * sy))%R in let c := (dot f f / (sy * sy))%R in
  (N 0 0 * a + N 0 1 * b = 1 ∧ N 0 0 * b + N 0 1 * c = 0 ∧ N 1 0 * a + N 1 1 * b = 0 ∧ N 1 0 * b + N 1 1 * c = 1 ∧ N 0 1 = N 1 0 ∧ 0 <= N 0 0 ∧ 0 <= N 1 1)%R.
Proof.
  cbn zeta. pose proof (sd_pos x (Hnc x ltac:(left))) as Hx. pose proof (sd_pos y (Hnc y ltac:(right; left))) as Hy.
  destruct (residual_parts _ _ _ He) as [_ Oe]. destruct (residual_parts _ _ _ Hf) as [_ Of].
  assert (∀ i, i < 2 → (N i 0 / sx * dot e e + N i 1 / sy * dot e f = if decide (i = 0%nat) then sx else 0)%R) as Hx'.
  { intros i Hi. pose proof (dual_dev i 0 ltac:(simpl; lia) ltac:(simpl; lia)) as H. change (idx !!! 0) with x in H. rewrite <-H.
    rewrite (dot_ext n _ _ _ _ (dual_residuals i Hi) (λ t _, eq_refl)), dot_plus, !dot_scal.
    rewrite (residual_dot zz x e e), (residual_dot zz x e f) by done. rewrite (dot_sym n f e). done. }
  assert (∀ i, i < 2 → (N i 0 / sx * dot e f + N i 1 / sy * dot f f = if decide (i = 1%nat) then sy else 0)%R) as Hy'.
  { intros i Hi. pose proof (dual_dev i 1 ltac:(simpl; lia) ltac:(simpl; lia)) as H. change (idx !!! 1) with y in H. rewrite <-H.
    rewrite (dot_ext n _ _ _ _ (dual_residuals i Hi) (λ t _, eq_refl)), dot_plus, !dot_scal.
    rewrite (residual_dot zz y f e), (residual_dot zz y f f) by done. done. }
  split_and!.
  - pose proof (Hx' 0 ltac:(lia)) as H. rewrite decide_True in H by done. apply (Rmult_eq_reg_r sx); [|lra].
    etransitivity; [|rewrite Rmult_1_l; exact H]. field. lra.
  - pose proof (Hy' 0 ltac:(lia)) as H. rewrite decide_False in H by done. apply (Rmult_eq_reg_r sy); [|lra].
    etransitivity; [|rewrite Rmult_0_l; exact H]. field. lra.
  - pose proof (Hx' 1 ltac:(lia)) as H. rewrite decide_False in H by done. apply (Rmult_eq_reg_r sx); [|lra].
    etransitivity; [|rewrite Rmult_0_l; exact H]. field. lra.
  - pose proof (Hy' 1 ltac:(lia)) as H. rewrite decide_True in H by done. apply (Rmult_eq_reg_r sy); [|lra].
    etransitivity; [|rewrite Rmult_1_l; exact H]. field. lra.
  - rewrite <-(dual_dual 1 0), dot_sym, dual_dual by (simpl; lia). done.
  - rewrite <-(dual_dual 0 0) by (simpl; lia). apply dot_nonneg.
  - rewrite <-(dual_dual 1 1) by (simpl; lia). apply dot_nonneg.
Qed.
Lemma block_cosine : (0 < dot e e)%R → (0 < dot f f)%R → (0 < N 0 0 * N 1 1)%R ∧ (- N 0 1 / Rsqrt (N 0 0 * N 1 1) = cosine n e f)%R.
Proof.
  intros Hee Hff. pose proof block_inverse as H. cbn zeta in H.
  pose proof (sd_pos x (Hnc x ltac:(left))) as Hx. pose proof (sd_pos y (Hnc y ltac:(right; left))) as Hy.
  set (a := (dot e e / (sx * sx))%R) in *. set (b := (dot e f / (sx * sy))%R) in *. set (c := (dot f f / (sy * sy))%R) in *.
  destruct H as (H1 & H2 & H3 & H4 & H5 & H6 & H7).
  assert (0 < a)%R as Ha by (apply Rdiv_lt_0_compat; [done|nra]). assert (0 < c)%R as Hc by (apply Rdiv_lt_0_compat; [done|nra]).
  assert (N 0 0 * (a * c - b * b) = c)%R as E0.
  { replace (N 0 0 * (a * c - b * b))%R with (c * (N 0 0 * a + N 0 1 * b) - b * (N 0 0 * b + N 0 1 * c))%R by ring. rewrite H1, H2. ring. }
  assert (N 1 1 * (a * c - b * b) = a)%R as E1.
  { replace (N 1 1 * (a * c - b * b))%R with (a * (N 1 0 * b + N 1 1 * c) - b * (N 1 0 * a + N 1 1 * b))%R by ring. rewrite H3, H4. ring. }
  assert (N 0 1 * (a * c - b * b) = - b)%R as E2.
  { replace (N 0 1 * (a * c - b * b))%R with (a * (N 0 0 * b + N 0 1 * c) - b * (N 0 0 * a + N 0 1 * b))%R by ring. rewrite H1, H2. ring. }
  set (d := (a * c - b * b)%R) in *. assert (0 < d)%R as Hd by (destruct (Rlt_le_dec 0 d); [done|nra]).
  assert (N 0 0 = c / d)%R as -> by (field_simplify_eq; lra). assert (N 1 1 = a / d)%R as -> by (field_simplify_eq; lra).
  assert (N 0 1 = - b / d)%R as -> by (field_simplify_eq; lra).
  assert (0 < c / d * (a / d))%R as Hp by (apply Rmult_lt_0_compat; by apply Rdiv_lt_0_compat).
  split; [done|].
  assert (Rsqrt (c / d * (a / d)) = (Rsqrt (dot e e) * Rsqrt (dot f f) / (sx * sy) / d))%R as ->.
  { replace (c / d * (a / d))%R with (Rsqr (Rsqrt (dot e e) * Rsqrt (dot f f) / (sx * sy) / d)).
    - apply sqrt_Rsqr. left. repeat apply Rdiv_lt_0_compat; try done; [|nra]. apply Rmult_lt_0_compat; by apply sqrt_lt_R0.
    - unfold Rsqr, a, c. rewrite <-(sqrt_sqrt (dot e e)) at 3 by lra. rewrite <-(sqrt_sqrt (dot f f)) at 3 by lra. field. lra. }
  unfold cosine, b. pose proof (sqrt_lt_R0 _ Hee). pose proof (sqrt_lt_R0 _ Hff). field. lra.
Qed.
End inverse.
End partial.

(** ** existence *)
Section exists_.
Context (data : nat → nat → R) (n x y : nat) (zz : list nat) (N : nat → nat → R).
Local Notation dot := (vdot n).
Local Notation dv := (dev data n).
Local Notation idx := (x :: y :: zz).
Local Notation m := (length idx).
Context (Hnc : ∀ a, a ∈ idx → not_constant data n a).
Context (HN : is_inverse m (λ i j, cr data n (idx !!! i) (idx !!! j)) N).
Local Notation w := (dualv data n x y zz N).
Local Notation sx := (Rsqrt (dot (dv x) (dv x))).
Local Notation sy := (Rsqrt (dot (dv y) (dv y))).

Lemma span_residual a e : NoDup zz → in_span data n zz (λ t, dv a t - e t)%R → (∀ z, z ∈ zz → dot e (dv z) = 0%R) → residual data n zz a e.
Proof.
  intros Hnd (l & H1 & H2) Ho. split; [|done]. exists (λ z, rsum (λ p : R * nat, ind (p.2 = z) * p.1)%R l). intros t Ht.
  specialize (H2 t Ht). cbn beta in H2. assert (rsum (λ p : R * nat, p.1 * dv p.2 t)%R l = rsum (λ z, rsum (λ p : R * nat, ind (p.2 = z) * p.1)%R l * dv z t)%R zz) as E; [|lra].
  transitivity (rsum (λ z, rsum (λ p : R * nat, ind (p.2 = z) * (p.1 * dv z t))%R l) zz).
  2: { apply rsum_ext. intros z _. rewrite <-rsum_scal_r. apply rsum_ext. intros p _. ring. }
  rewrite rsum_swap. apply rsum_ext. intros p Hp. specialize (H1 p Hp). clear -Hnd H1.
  induction Hnd as [|z zz Hz _ IH]; [by apply elem_of_nil in H1|]. rewrite rsum_cons. unfold ind at 1.
  apply elem_of_cons in H1 as [E|H1].
  - assert (rsum (λ z, ind (p.2 = z) * (p.1 * dv z t))%R zz = 0%R) as E0.
    { etransitivity; [|apply (rsum_0 zz)]. apply rsum_ext. intros u Hu. unfold ind. rewrite decide_False by (intros E'; apply Hz; congruence). ring. }
    rewrite E0, decide_True by done. rewrite E. ring.
  - rewrite decide_False by (intros E; apply Hz; congruence). rewrite IH by done. ring.
Qed.

Lemma dual_span i : i < 2 → in_span data n zz (λ t, w i t - (N i 0 / sx * dv x t + N i 1 / sy * dv y t))%R.
Proof.
  intros Hi. assert (∀ k, k ∈ seq 0 (length zz) → zz !!! k ∈ zz) as Hin.
  { intros k Hk%elem_of_seq. apply elem_of_list_lookup_2 with k. apply list_lookup_lookup_total_lt. lia. }
  eapply span_ext; [|apply (span_comb data n zz (λ k, N i (S (S k)) / Rsqrt (dot (dv (zz !!! k)) (dv (zz !!! k))))%R (λ k, zz !!! k) (seq 0 (length zz)) Hin)].
  intros t Ht. cbn beta. unfold dualv. cbn [length]. change (seq 0 (S (S (length zz)))) with (0 :: 1 :: seq 2 (length zz)). rewrite !rsum_cons.
  rewrite <-(fmap_S_seq 1), <-(fmap_S_seq 0), !rsum_fmap.
  replace (rsum (λ a, N i (S (S a)) * unit_ data n (idx !!! S (S a)) t)%R (seq 0 (length zz))) with
    (rsum (λ k, N i (S (S k)) / Rsqrt (dot (dv (zz !!! k)) (dv (zz !!! k))) * dv (zz !!! k) t)%R (seq 0 (length zz))).
  2: { apply rsum_ext. intros k _. unfold unit_. change (idx !!! S (S k)) with (zz !!! k). unfold Rdiv. ring. }
  unfold unit_. change (idx !!! 0) with x. change (idx !!! 1) with y. unfold Rdiv. ring.
Qed.

Lemma dual_det : N 0 1 = N 1 0 ∧ (0 < N 0 0)%R ∧ (0 < N 1 1)%R ∧ (0 < N 0 0 * N 1 1 - N 0 1 * N 0 1)%R.
Proof.
  pose proof (dual_dual data n x y zz N Hnc HN) as Hd.
  pose proof (dual_unit data n x y zz N Hnc HN) as Hu.
  assert (0 < m ∧ 1 < m) as [H0 H1] by (simpl; lia).
  assert (N 0 1 = N 1 0) as Es by (rewrite <-(Hd 1 0), dot_sym, Hd by done; done).
  assert (0 < N 1 1)%R as H11.
  { destruct (Rle_lt_or_eq_dec 0 (N 1 1)) as [?|E]; [rewrite <-(Hd 1 1) by done; apply dot_nonneg|done|]. exfalso.
    rewrite <-(Hd 1 1) in E by done. pose proof (dot_zero n (w 1) (eq_sym E)) as Hz. pose proof (Hu 1 1 H1 H1) as Hone. rewrite decide_True in Hone by done.
    rewrite (dot_ext n (w 1) (λ _, 0 * 0)%R _ _ ltac:(intros; rewrite Hz by done; ring) (λ t _, eq_refl)), dot_scal in Hone. lra. }
  assert (0 < N 0 0)%R as H00.
  { destruct (Rle_lt_or_eq_dec 0 (N 0 0)) as [?|E]; [rewrite <-(Hd 0 0) by done; apply dot_nonneg|done|]. exfalso.
    rewrite <-(Hd 0 0) in E by done. pose proof (dot_zero n (w 0) (eq_sym E)) as Hz. pose proof (Hu 0 0 H0 H0) as Hone. rewrite decide_True in Hone by done.
    rewrite (dot_ext n (w 0) (λ _, 0 * 0)%R _ _ ltac:(intros; rewrite Hz by done; ring) (λ t _, eq_refl)), dot_scal in Hone. lra. }
  split_and!; [done..|].
  set (h := λ t, (N 1 1 * w 0 t + - N 0 1 * w 1 t)%R).
  assert (dot h h = N 1 1 * (N 0 0 * N 1 1 - N 0 1 * N 0 1))%R as Eh.
  { unfold h. rewrite dot_square, !Hd by done. rewrite <-Es. ring. }
  pose proof (dot_nonneg n h) as Hh. destruct (Rlt_le_dec 0 (N 0 0 * N 1 1 - N 0 1 * N 0 1)) as [?|Hle]; [done|]. exfalso.
  assert (dot h h = 0)%R as Hz by (rewrite Eh in *; nra). pose proof (dot_zero n h Hz) as Hz'.
  pose proof (Hu 0 0 H0 H0) as A. pose proof (Hu 1 0 H1 H0) as B. rewrite decide_True in A by done. rewrite decide_False in B by done.
  assert (dot h (unit_ data n (idx !!! 0)) = N 1 1) as C by (unfold h; rewrite dot_plus, !dot_scal, A, B; ring).
  rewrite (dot_ext n h (λ _, 0 * 0)%R _ _ ltac:(intros; rewrite Hz' by done; ring) (λ t _, eq_refl)), dot_scal in C. lra.
Qed.

Lemma partial_exists : NoDup zz → ∃ r, partial_correlation data n x y zz r ∧ (Rabs r < 1)%R.
Proof.
  intros Hnd. destruct dual_det as (Es & H0 & H1 & Hdet). set (D := (N 0 0 * N 1 1 - N 0 1 * N 0 1)%R) in *.
  pose proof (sd_pos data n x (Hnc x ltac:(left))) as Hx. pose proof (sd_pos data n y (Hnc y ltac:(right; left))) as Hy.
  pose proof (dual_dual data n x y zz N Hnc HN) as Hd.
  set (e := λ t, (sx * N 1 1 / D * w 0 t + - (sx * N 0 1 / D) * w 1 t)%R).
  set (f := λ t, (- (sy * N 0 1 / D) * w 0 t + sy * N 0 0 / D * w 1 t)%R).
  assert (residual data n zz x e) as He.
  { apply span_residual; [done| |].
    - eapply span_ext; [|apply (span_plus data n zz _ _ (span_scal data n zz (- (sx * N 1 1 / D)) _ (dual_span 0 ltac:(lia)))
        (span_scal data n zz (sx * N 0 1 / D) _ (dual_span 1 ltac:(lia))))].
      intros t _. cbn beta. unfold e. rewrite <-Es. unfold D in *. field. split_and!; lra.
    - intros z Hz. unfold e. rewrite dot_plus, !dot_scal. rewrite !(dual_zz data n x y zz N) by (done || lia). ring. }
  assert (residual data n zz y f) as Hf.
  { apply span_residual; [done| |].
    - eapply span_ext; [|apply (span_plus data n zz _ _ (span_scal data n zz (sy * N 0 1 / D) _ (dual_span 0 ltac:(lia)))
        (span_scal data n zz (- (sy * N 0 0 / D)) _ (dual_span 1 ltac:(lia))))].
      intros t _. cbn beta. unfold f. rewrite <-Es. unfold D in *. field. split_and!; lra.
    - intros z Hz. unfold f. rewrite dot_plus, !dot_scal. rewrite !(dual_zz data n x y zz N) by (done || lia). ring. }
  assert (dot e e = sx * sx * N 1 1 / D)%R as Eee.
  { unfold e. rewrite dot_square, !Hd by (simpl; lia). rewrite <-Es. unfold D in *. field. lra. }
  assert (dot f f = sy * sy * N 0 0 / D)%R as Eff.
  { unfold f. rewrite dot_square, !Hd by (simpl; lia). rewrite <-Es. unfold D in *. field. lra. }
  assert (0 < dot e e)%R as Hee by (rewrite Eee; apply Rdiv_lt_0_compat; [|done]; repeat apply Rmult_lt_0_compat; done).
  assert (0 < dot f f)%R as Hff by (rewrite Eff; apply Rdiv_lt_0_compat; [|done]; repeat apply Rmult_lt_0_compat; done).
  exists (cosine n e f). split; [by exists e, f|].
  destruct (block_cosine data n x y zz N Hnc HN e f He Hf Hee Hff) as [Hp <-].
  pose proof (sqrt_lt_R0 _ Hp) as Hs. set (q := Rsqrt (N 0 0 * N 1 1)) in *.
  assert (q * q = N 0 0 * N 1 1)%R as Eq by (apply sqrt_sqrt; lra).
  assert (Rabs (- N 0 1) < q)%R as Hlt.
  { unfold Rabs. destruct (Rcase_abs _); unfold D in *; nra. }
  unfold Rdiv. rewrite Rabs_mult, (Rabs_right (/ q)) by (apply Rle_ge; left; by apply Rinv_0_lt_compat).
  apply (Rmult_lt_reg_r q); [done|]. rewrite Rmult_assoc, Rinv_l, Rmult_1_r, Rmult_1_l by lra. done.
Qed.
End exists_.

(** ** the statistic *)
Lemma partial_unique data n x y zz r r' : partial_correlation data n x y zz r → partial_correlation data n x y zz r' → r = r'.
Proof.
  intros (e & f & He & Hf & _ & _ & ->) (e' & f' & He' & Hf' & _ & _ & ->). unfold cosine.
  pose proof (residual_unique data n zz x e e' He He') as E1. pose proof (residual_unique data n zz y f f' Hf Hf') as E2.
  by rewrite (dot_ext n e e' f f' E1 E2), (dot_ext n e e' e e' E1 E1), (dot_ext n f f' f f' E2 E2).
Qed.
Lemma partial_bound data n x y zz r : partial_correlation data n x y zz r → (Rabs r <= 1)%R.
Proof. intros (e & f & _ & _ & He & Hf & ->). by apply cosine_bound. Qed.
Lemma rsum_perm {A} (F : A → R) (l l' : list A) : l ≡ₚ l' → rsum F l = rsum F l'.
Proof. induction 1; rewrite ?rsum_cons in *; [done|congruence|lra|congruence]. Qed.
Lemma residual_perm data n zz zz' a e : zz ≡ₚ zz' → residual data n zz a e → residual data n zz' a e.
Proof.
  intros P [(beta & H1) H2]. split.
  - exists beta. intros t Ht. rewrite H1 by done. by rewrite (rsum_perm _ _ _ P).
  - intros z Hz. apply H2. by rewrite P.
Qed.
Lemma partial_sym data n x y zz zz' r : zz ≡ₚ zz' → partial_correlation data n x y zz r → partial_correlation data n y x zz' r.
Proof.
  intros P (e & f & He & Hf & H1 & H2 & ->). exists f, e. split_and!; [by eapply residual_perm..|done|done|].
  unfold cosine. rewrite (dot_sym n e f). f_equal. apply Rmult_comm.
Qed.

(** the formulas without and with one conditioning variable *)
Section special.
Context (data : nat → nat → R) (n x y : nat).
Local Notation dot := (vdot n).
Local Notation dv := (dev data n).
Lemma empty_residual a e : residual data n [] a e → ∀ t, t < n → e t = dv a t.
Proof. intros [(beta & H) _] t Ht. rewrite H by done. unfold rsum. simpl. lra. Qed.
Lemma empty_value r : partial_correlation data n x y [] r → r = cr data n x y.
Proof.
  intros (e & f & He & Hf & _ & _ & ->). unfold cosine, cr.
  pose proof (empty_residual x e He) as E1. pose proof (empty_residual y f Hf) as E2.
  by rewrite (dot_ext n e (dv x) f (dv y) E1 E2), (dot_ext n e _ e _ E1 E1), (dot_ext n f _ f _ E2 E2).
Qed.
Context (z : nat) (Hx : not_constant data n x) (Hy : not_constant data n y) (Hz : not_constant data n z).
Lemma single_residual a e : residual data n [z] a e → ∀ t, t < n → e t = (1 * dv a t + - (dot (dv a) (dv z) / dot (dv z) (dv z)) * dv z t)%R.
Proof.
  intros [(beta & H) H2] t Ht. specialize (H2 z ltac:(left)). unfold not_constant in Hz.
  assert (∀ t, t < n → e t = (dv a t - beta z * dv z t)%R) as H'. { intros s Hs. rewrite H by done. rewrite rsum_cons. unfold rsum. simpl. lra. }
  rewrite (dot_ext n e _ _ _ H' (λ t _, eq_refl)), dot_minus, dot_scal in H2.
  rewrite H' by done. assert (beta z = dot (dv a) (dv z) / dot (dv z) (dv z))%R as ->; [|ring]. field_simplify_eq; lra.
Qed.
Lemma single_dot a b e f : residual data n [z] a e → residual data n [z] b f →
  dot e f = (dot (dv a) (dv b) - dot (dv a) (dv z) * dot (dv b) (dv z) / dot (dv z) (dv z))%R.
Proof.
  intros He Hf. pose proof (single_residual a e He) as E1. destruct Hf as [Hf1 Hf2]. specialize (Hf2 z ltac:(left)) as Of.
  pose proof (single_residual b f (conj Hf1 Hf2)) as E2. unfold not_constant in Hz.
  rewrite (dot_ext n e _ f f E1 (λ t _, eq_refl)), dot_plus, !dot_scal.
  rewrite (dot_sym n (dv z) f), Of, (dot_sym n (dv a) f), (dot_ext n f _ (dv a) (dv a) E2 (λ t _, eq_refl)), dot_plus, !dot_scal.
  rewrite (dot_sym n (dv b) (dv a)), (dot_sym n (dv z) (dv a)). field. lra.
Qed.
Lemma single_value r : partial_correlation data n x y [z] r → let a := cr data n x z in let b := cr data n y z in
  (a < 1 ∧ b < 1 ∧ 0 < (1 - a ^ 2) * (1 - b ^ 2) ∧ r = (cr data n x y - a * b) / Rsqrt ((1 - a ^ 2) * (1 - b ^ 2)))%R.
Proof.
  intros (e & f & He & Hf & Hee & Hff & ->) a b. pose proof (sd_pos data n x Hx) as Px. pose proof (sd_pos data n y Hy) as Py. pose proof (sd_pos data n z Hz) as Pz.
  assert (dot e e = (Rsqrt (dot (dv x) (dv x)) * Rsqrt (dot (dv x) (dv x))) * (1 - a ^ 2))%R as E1.
  { rewrite (single_dot x x e e He He). unfold a, cr. unfold not_constant in *.
    rewrite <-(sqrt_sqrt (dot (dv x) (dv x))) at 1 by lra. rewrite <-(sqrt_sqrt (dot (dv z) (dv z))) at 1 by lra. field. lra. }
  assert (dot f f = (Rsqrt (dot (dv y) (dv y)) * Rsqrt (dot (dv y) (dv y))) * (1 - b ^ 2))%R as E2.
  { rewrite (single_dot y y f f Hf Hf). unfold b, cr. unfold not_constant in *.
    rewrite <-(sqrt_sqrt (dot (dv y) (dv y))) at 1 by lra. rewrite <-(sqrt_sqrt (dot (dv z) (dv z))) at 1 by lra. field. lra. }
  assert (dot e f = Rsqrt (dot (dv x) (dv x)) * Rsqrt (dot (dv y) (dv y)) * (cr data n x y - a * b))%R as E3.
  { rewrite (single_dot x y e f He Hf). unfold a, b, cr. unfold not_constant in *.
    rewrite <-(sqrt_sqrt (dot (dv z) (dv z))) at 1 by lra. field. lra. }
  assert (0 < 1 - a ^ 2)%R as Ha.
  { destruct (Rlt_le_dec 0 (1 - a ^ 2)) as [?|Hle]; [done|]. exfalso. assert (0 < Rsqrt (dot (dv x) (dv x)) * Rsqrt (dot (dv x) (dv x)))%R by (by apply Rmult_lt_0_compat). nra. }
  assert (0 < 1 - b ^ 2)%R as Hb.
  { destruct (Rlt_le_dec 0 (1 - b ^ 2)) as [?|Hle]; [done|]. exfalso. assert (0 < Rsqrt (dot (dv y) (dv y)) * Rsqrt (dot (dv y) (dv y)))%R by (by apply Rmult_lt_0_compat). nra. }
  split_and!; [nra|nra|nra|]. unfold cosine. rewrite E1, E2, E3.
  rewrite !(sqrt_mult_alt (Rsqrt _ * Rsqrt _)) by (left; by apply Rmult_lt_0_compat). rewrite !sqrt_square by lra.
  rewrite sqrt_mult by lra. pose proof (sqrt_lt_R0 _ Ha). pose proof (sqrt_lt_R0 _ Hb). field. lra.
Qed.
End special.

(** ** k + 1 vectors with k coordinates are linearly dependent, hence correlation matrices of n or more variables over n
    records are singular *)
Lemma rsum_null {A} (F : A → R) (l : list A) : (∀ a, a ∈ l → F a = 0%R) → rsum F l = 0%R.
Proof. intros H. etransitivity; [|apply (rsum_0 l)]. by apply rsum_ext. Qed.
Lemma dependent (k : nat) : ∀ (l : list nat) (v : nat → nat → R), NoDup l → length l = S k →
  ∃ c, (∃ i, i ∈ l ∧ c i ≠ 0%R) ∧ ∀ t, t < k → rsum (λ i, c i * v i t)%R l = 0%R.
Proof.
  induction k as [|k IH]; intros l v Hnd Hl.
  { exists (λ _, 1%R). split; [|lia]. destruct l as [|a l]; [done|]. exists a. split; [left|lra]. }
  destruct (Classical_Prop.classic (Exists (λ i, v i k ≠ 0%R) l)) as [Hp|Hp].
  - apply Exists_exists in Hp as (p & Hp & Hv). apply elem_of_Permutation in Hp as [l' P].
    assert (NoDup (p :: l')) as Hnd' by (by rewrite <-P). apply NoDup_cons in Hnd' as [Hpl Hnd'].
    assert (length l' = S k) as Hl'. { apply Permutation_length in P. simpl in P. lia. }
    destruct (IH l' (λ i t, v i t - v i k / v p k * v p t)%R Hnd' Hl') as (c & (i & Hi & Hc) & H).
    set (q := (rsum (λ j, c j * v j k) l' / v p k)%R).
    exists (λ j, if decide (j = p) then (- q)%R else c j). split.
    { exists i. split; [rewrite P; by right|]. rewrite decide_False; [done|]. by intros ->. }
    intros t Ht. rewrite (rsum_perm _ _ _ P), rsum_cons, decide_True by done.
    rewrite (rsum_ext _ (λ j, c j * v j t)%R).
    2: { intros j Hj. rewrite decide_False; [done|]. by intros ->. }
    destruct (decide (t = k)) as [->|Htk]; [unfold q; field; done|].
    specialize (H t ltac:(lia)). rewrite (rsum_ext _ (λ j, c j * v j t - c j * v j k * (v p t / v p k))%R) in H.
    2: { intros j _. field. done. }
    rewrite rsum_minus, rsum_scal_r in H. unfold q. replace (- (rsum (λ j, c j * v j k) l' / v p k) * v p t)%R with (- (rsum (λ j, c j * v j k) l' * (v p t / v p k)))%R by (field; done). lra.
  - destruct l as [|a l]; [done|]. apply NoDup_cons in Hnd as [Ha Hnd]. simpl in Hl.
    destruct (IH l v Hnd ltac:(lia)) as (c & (i & Hi & Hc) & H). exists (λ j, if decide (j = a) then 0%R else c j). split.
    { exists i. split; [by right|]. rewrite decide_False; [done|]. by intros ->. }
    intros t Ht. rewrite rsum_cons, decide_True by done.
    rewrite (rsum_ext _ (λ j, c j * v j t)%R).
    2: { intros j Hj. rewrite decide_False; [done|]. by intros ->. }
    destruct (decide (t = k)) as [->|Htk]; [|rewrite H by lia; lra].
    enough (rsum (λ j, c j * v j k)%R l = 0%R) as -> by lra. etransitivity; [|apply (rsum_0 l)]. apply rsum_ext. intros j Hj. enough (v j k = 0%R) as -> by lra.
    destruct (Req_EM_T (v j k) 0) as [|Hne]; [done|]. destruct Hp. apply Exists_exists. exists j. split; [by right|done].
Qed.
Lemma dev_sum data n a : 0 < n → rsum (dev data n a) (seq 0 n) = 0%R.
Proof.
  intros Hn. unfold dev. rewrite rsum_minus. assert (INR n ≠ 0)%R by (apply not_0_INR; lia).
  assert (∀ (c : R) m s, rsum (λ _, c) (seq s m) = (c * INR m)%R) as Hc.
  { intros c. induction m as [|m IH]; intros s; [unfold rsum; simpl; lra|]. change (seq s (S m)) with (s :: seq (S s) m). rewrite rsum_cons, IH, S_INR. lra. }
  rewrite Hc. field. done.
Qed.
Lemma nonsingular_records data n idx : 0 < n → (∀ a, a ∈ idx → not_constant data n a) →
  (∃ N, is_inverse (length idx) (λ i j, cr data n (idx !!! i) (idx !!! j)) N) → length idx < n.
Proof.
  intros Hn Hv [N HN]. destruct (decide (length idx < n)) as [|Hge]; [done|exfalso].
  assert (∀ i, i < length idx → (0 < Rsqrt (vdot n (dev data n (idx !!! i)) (dev data n (idx !!! i))))%R) as Hsd.
  { intros i Hi. apply sd_pos, Hv. by apply elem_of_list_lookup_total_2. }
  destruct (dependent (n - 1) (seq 0 n) (λ i t, dev data n (idx !!! i) t)) as (c & (i & Hi & Hc) & H); [apply NoDup_seq|rewrite seq_length; lia|].
  apply elem_of_seq in Hi.
  set (w := λ t, rsum (λ i, c i * dev data n (idx !!! i) t)%R (seq 0 n)).
  assert (∀ t, t < n → w t = 0%R) as Hw.
  { intros t Ht. destruct (decide (t < n - 1)) as [|Hlast]; [by apply H|]. assert (t = n - 1) as -> by lia.
    assert (rsum w (seq 0 n) = 0%R) as Hsum.
    { unfold w. rewrite rsum_swap. apply rsum_null. intros j _. etransitivity; [apply (rsum_scal (c j) (dev data n (idx !!! j)))|]. rewrite dev_sum by done. lra. }
    assert (seq 0 n = seq 0 (n - 1) ++ [n - 1]) as E. { replace n with (n - 1 + 1) at 1 by lia. by rewrite seq_app. }
    rewrite E in Hsum. assert (∀ (F : nat → R) l l', rsum F (l ++ l') = (rsum F l + rsum F l')%R) as Happ.
    { intros F. induction l as [|a l IH]; intros l'; [unfold rsum at 2; simpl; lra|]. rewrite <-app_comm_cons, !rsum_cons, IH. lra. }
    rewrite Happ, rsum_cons in Hsum. rewrite (rsum_null w) in Hsum. 2: { intros s Hs%elem_of_seq. apply H. lia. }
    unfold rsum in Hsum. simpl in Hsum. lra. }
  set (sd := λ i, Rsqrt (vdot n (dev data n (idx !!! i)) (dev data n (idx !!! i)))).
  set (d := λ j, if decide (j < n) then (c j * sd j)%R else 0%R).
  assert (∀ k, k < length idx → rsum (λ j, cr data n (idx !!! k) (idx !!! j) * d j)%R (seq 0 (length idx)) = 0%R) as Hz.
  { intros k Hk. replace (length idx) with (n + (length idx - n)) by lia. rewrite seq_app.
    assert (∀ (F : nat → R) l l', rsum F (l ++ l') = (rsum F l + rsum F l')%R) as Happ.
    { intros F. induction l as [|a l IH]; intros l'; [unfold rsum at 2; simpl; lra|]. rewrite <-app_comm_cons, !rsum_cons, IH. lra. }
    rewrite Happ. rewrite (rsum_null _ (seq (0 + n) _)).
    2: { intros j Hj%elem_of_seq. unfold d. rewrite decide_False by lia. lra. }
    rewrite (rsum_ext _ (λ j, / sd k * (c j * vdot n (dev data n (idx !!! k)) (dev data n (idx !!! j))))%R).
    2: { intros j Hj%elem_of_seq. unfold d. rewrite decide_True by lia. unfold cr. fold (sd k). fold (sd j). 
         pose proof (Hsd k Hk). pose proof (Hsd j ltac:(lia)). fold (sd k) in *. fold (sd j) in *. field. lra. }
    rewrite rsum_scal. unfold vdot.
    rewrite (rsum_ext _ (λ j, rsum (λ t, dev data n (idx !!! k) t * (c j * dev data n (idx !!! j) t))%R (seq 0 n))).
    2: { intros j _. rewrite <-rsum_scal. apply rsum_ext. intros t _. ring. }
    rewrite rsum_swap. rewrite rsum_null; [lra|]. intros t Ht%elem_of_seq. rewrite rsum_scal. fold (w t). rewrite Hw by lia. lra. }
  assert (d i = 0%R) as Hd.
  { transitivity (rsum (λ j, (if decide (i = j) then 1 else 0) * d j)%R (seq 0 (length idx))).
    - rewrite <-(rsum_point d (length idx) i) by lia. apply rsum_ext. intros j _.
      destruct (decide (j = i)), (decide (i = j)); try congruence; lra.
    - rewrite (rsum_ext _ (λ j, rsum (λ k, N i k * (cr data n (idx !!! k) (idx !!! j) * d j))%R (seq 0 (length idx)))).
      2: { intros j Hj%elem_of_seq. rewrite <-(HN i j) by lia. rewrite <-rsum_scal_r. apply rsum_ext. intros k _. ring. }
      rewrite rsum_swap. apply rsum_null. intros k Hk%elem_of_seq. rewrite rsum_scal, Hz by lia. lra. }
  unfold d in Hd. rewrite decide_True in Hd by lia. pose proof (Hsd i ltac:(lia)) as Hpos. fold (sd i) in Hpos.
  apply Rmult_integral in Hd as [?|?]; [done|lra].
Qed.

Section statistic.
Context (data : nat → nat → R) (n : nat) (inv : list nat → option (nat → nat → R)) (cdf : R → R).
Local Notation stat := (pc_statistic (corrcoef data n) inv cdf n).

Lemma invert_cr x y zz N : 2 ≤ n → (∀ a, a ∈ x :: y :: zz → not_constant data n a) →
  is_inverse (length (x :: y :: zz)) (λ i j, corrcoef data n ((x :: y :: zz) !!! i) ((x :: y :: zz) !!! j)) N →
  is_inverse (length (x :: y :: zz)) (λ i j, cr data n ((x :: y :: zz) !!! i) ((x :: y :: zz) !!! j)) N.
Proof.
  intros Hn Hnc H i j Hi Hj. rewrite <-H by done. apply rsum_ext. intros k Hk%elem_of_seq.
  rewrite corrcoef_cr; [done|done|apply Hnc, idx_in; lia|apply Hnc, idx_in; lia].
Qed.

Lemma stat_value_gen nr x y zz r : 2 ≤ n → (∀ a, a ∈ x :: y :: zz → not_constant data n a) →
  inverts (corrcoef data n) inv (x :: y :: zz) → (2 ≤ length zz → nonsingular (corrcoef data n) (x :: y :: zz)) →
  partial_correlation data n x y zz r →
  pc_statistic (corrcoef data n) inv cdf nr x y zz = Ok (p_value cdf nr (Fin r) (length zz)).
Proof.
  intros Hn Hnc Hinv Hns Hr. pose proof (Hnc x ltac:(left)) as Hx. pose proof (Hnc y ltac:(right; left)) as Hy.
  destruct zz as [|z [|z' zz]].
  - unfold pc_statistic. rewrite corrcoef_cr by done. rewrite <-(empty_value data n x y r Hr).
    destruct (Rle_dec 1 r) as [H1|H1]; [|done]. unfold p_value. destruct (Rle_dec 1 (Rabs r)) as [_|H2]; [done|].
    exfalso. apply H2. unfold Rabs. destruct (Rcase_abs r); lra.
  - pose proof (Hnc z ltac:(right; right; left)) as Hz. unfold pc_statistic. rewrite !corrcoef_cr by done.
    destruct (single_value data n x y z Hx Hy Hz r Hr) as (H1 & H2 & H3 & ->).
    destruct (Rle_dec 1 (cr data n x z)); [lra|]. destruct (Rle_dec 1 (cr data n y z)); [lra|].
    unfold nsqrt. destruct (Rle_dec 0 _) as [_|]; [|lra]. unfold ndiv. pose proof (sqrt_lt_R0 _ H3).
    destruct (Req_EM_T _ 0) as [E|_]; [lra|done].
  - unfold pc_statistic. pose proof Hinv as Hi. unfold inverts in Hi.
    destruct (inv (x :: y :: z :: z' :: zz)) as [N|]; [|destruct Hi; apply Hns; simpl; lia].
    apply (invert_cr x y (z :: z' :: zz) N Hn Hnc) in Hi. destruct Hr as (e & f & He & Hf & Hee & Hff & ->).
    destruct (block_cosine data n x y (z :: z' :: zz) N Hnc Hi e f He Hf Hee Hff) as [Hp <-].
    replace (- N 0%nat 0%nat * - N 1%nat 1%nat)%R with (N 0%nat 0%nat * N 1%nat 1%nat)%R by ring. rewrite Rabs_right by lra.
    unfold nsqrt. destruct (Rle_dec 0 _) as [_|]; [|lra]. unfold ndiv. pose proof (sqrt_lt_R0 _ Hp).
    destruct (Req_EM_T _ 0) as [E|_]; [lra|done].
Qed.

Lemma stat_value x y zz r : 2 ≤ n → (∀ a, a ∈ x :: y :: zz → not_constant data n a) →
  inverts (corrcoef data n) inv (x :: y :: zz) → (2 ≤ length zz → nonsingular (corrcoef data n) (x :: y :: zz)) →
  partial_correlation data n x y zz r → stat x y zz = Ok (p_value cdf n (Fin r) (length zz)).
Proof. apply stat_value_gen. Qed.

Lemma p_value_ok r k : (Rabs r < 1)%R → k + 3 ≤ n → p_value cdf n (Fin r) k = Fin (two_sided cdf (Rsqrt (INR (n - k - 3)) * fisher_z r)).
Proof.
  intros Hr Hk. unfold p_value. destruct (Rle_dec 1 (Rabs r)) as [?|_]; [lra|].
  assert (INR n - INR (k + 2) - 1 = INR (n - k - 3))%R as E.
  { replace n with ((n - k - 3) + (k + 2) + 1) at 1 by lia. rewrite !plus_INR. simpl. lra. }
  rewrite E. unfold nsqrt. destruct (Rle_dec 0 _) as [_|H]; [|destruct H; apply pos_INR].
  unfold two_sided, fisher_z. do 6 f_equal. assert (1 - r ≠ 0)%R by (unfold Rabs in Hr; destruct (Rcase_abs r); lra). do 2 f_equal. field. done.
Qed.
Lemma p_value_one r k : (1 <= Rabs r)%R → p_value cdf n (Fin r) k = Fin 0.
Proof. intros Hr. unfold p_value. by destruct (Rle_dec 1 (Rabs r)). Qed.
Lemma p_value_few r k : (Rabs r < 1)%R → n < k + 3 → p_value cdf n (Fin r) k = Nan.
Proof.
  intros Hr Hk. unfold p_value. destruct (Rle_dec 1 (Rabs r)) as [?|_]; [lra|]. unfold nsqrt.
  destruct (Rle_dec 0 _) as [H|]; [|done]. exfalso. assert (INR n < INR (k + 2) + 1)%R; [|lra].
  change 1%R with (INR 1). rewrite <-plus_INR. apply lt_INR. lia.
Qed.

Lemma statistic_ok x y zz : NoDup zz → length zz + 3 ≤ n → (∀ a, a ∈ x :: y :: zz → not_constant data n a) →
  inverts (corrcoef data n) inv (x :: y :: zz) → nonsingular (corrcoef data n) (x :: y :: zz) →
  ∃ r, partial_correlation data n x y zz r ∧ (Rabs r < 1)%R ∧
    stat x y zz = Ok (Fin (two_sided cdf (Rsqrt (INR (n - length zz - 3)) * fisher_z r))).
Proof.
  intros Hnd Hn Hnc Hinv [N HN]. destruct (partial_exists data n x y zz N Hnc) as (r & Hr & Hlt); [by apply invert_cr; [lia|..]|done|].
  exists r. split_and!; [done..|]. rewrite (stat_value x y zz r); [|lia|done|done|intros _; by exists N|done]. by rewrite p_value_ok.
Qed.
Lemma statistic_few x y zz : 2 ≤ n → n < length zz + 3 → NoDup zz → (∀ a, a ∈ x :: y :: zz → not_constant data n a) →
  inverts (corrcoef data n) inv (x :: y :: zz) → nonsingular (corrcoef data n) (x :: y :: zz) → stat x y zz = Ok Nan.
Proof.
  intros H2 Hn Hnd Hnc Hinv [N HN]. destruct (partial_exists data n x y zz N Hnc) as (r & Hr & Hlt); [by apply invert_cr|done|].
  rewrite (stat_value x y zz r); [|done|done|done|intros _; by exists N|done]. by rewrite p_value_few.
Qed.
Lemma statistic_perfect x y zz r : 2 ≤ n → (∀ a, a ∈ x :: y :: zz → not_constant data n a) → length zz ≤ 1 →
  partial_correlation data n x y zz r → Rabs r = 1%R → stat x y zz = Ok (Fin 0).
Proof.
  intros Hn Hnc Hl Hr H1. transitivity (Ok (p_value cdf n (Fin r) (length zz))); [|by rewrite p_value_one by lra].
  destruct zz as [|z [|]]; [..|simpl in Hl; lia].
  - unfold pc_statistic. rewrite corrcoef_cr by (try done; apply Hnc; set_solver +). rewrite <-(empty_value data n x y r Hr).
    destruct (Rle_dec 1 r) as [Hle|Hle]; [|done]. by rewrite p_value_one by lra.
  - pose proof (Hnc z ltac:(right; right; left)) as Hz. unfold pc_statistic. rewrite !corrcoef_cr by (try done; apply Hnc; set_solver +).
    destruct (single_value data n x y z (Hnc x ltac:(left)) (Hnc y ltac:(right; left)) Hz r Hr) as (H1' & H2 & H3 & ->).
    destruct (Rle_dec 1 (cr data n x z)); [lra|]. destruct (Rle_dec 1 (cr data n y z)); [lra|].
    unfold nsqrt. destruct (Rle_dec 0 _) as [_|]; [|lra]. unfold ndiv. pose proof (sqrt_lt_R0 _ H3).
    destruct (Req_EM_T _ 0) as [E|_]; [lra|done].
Qed.
(** a conditioning variable that is the negative of one of the two *)
Lemma opposite a b c : not_constant data n a → not_constant data n b → not_constant data n c → cr data n a c = (-1)%R → cr data n a b = (- cr data n b c)%R.
Proof.
  intros Ha Hb Hc H. rewrite (cr_sym data n b c), !(cr_unit data n) in * by done.
  pose proof (cr_self data n a Ha) as Ea. pose proof (cr_self data n c Hc) as Ec. rewrite (cr_unit data n) in Ea, Ec by done.
  set (u := unit_ data n a) in *. set (w := unit_ data n c) in *.
  assert (vdot n (λ t, 1 * u t + 1 * w t)%R (λ t, 1 * u t + 1 * w t)%R = 0%R) as E0 by (rewrite dot_square; lra).
  assert (∀ t, t < n → (1 * u t + 1 * w t)%R = 0%R) as E by by apply dot_zero.
  replace (- vdot n w (unit_ data n b))%R with (-1 * vdot n w (unit_ data n b))%R by ring. rewrite <-dot_scal. apply dot_ext; [|done].
  intros t Ht. specialize (E t Ht). lra.
Qed.
Lemma corr_partial x y r : 2 ≤ n → not_constant data n x → not_constant data n y → partial_correlation data n x y [] r → corrcoef data n x y = r.
Proof. intros Hn Hx Hy Hr. rewrite corrcoef_cr by done. symmetry. by apply empty_value. Qed.
Lemma partial_corr x y : 2 ≤ n → not_constant data n x → not_constant data n y → partial_correlation data n x y [] (corrcoef data n x y).
Proof.
  intros Hn Hx Hy. rewrite corrcoef_cr by done. exists (dev data n x), (dev data n y).
  split_and!; try done; (split; [exists (λ _, 0%R); intros t Ht; unfold rsum; simpl; lra|intros z Hz; by apply elem_of_nil in Hz]).
Qed.
Lemma corr_bounds x y : 2 ≤ n → not_constant data n x → not_constant data n y → (-1 <= corrcoef data n x y <= 1)%R.
Proof. intros Hn Hx Hy. rewrite corrcoef_cr by done. by apply Rcomplements_abs, cr_bound. Qed.
Lemma statistic_determined x y z w r : 2 ≤ n → (∀ a, a ∈ [x; y; z] → not_constant data n a) → w ∈ [x; y] →
  partial_correlation data n w z [] r →
  (r = 1%R → stat x y [z] = Ok (Fin 0)) ∧
  (r = (-1)%R → (∀ v, v ∈ [x; y] → ¬ partial_correlation data n v z [] 1) → stat x y [z] = Ok Nan) ∧
  (Rabs r = 1%R → ∀ threshold, (0 <= threshold)%R → pc_cond_indep (corrcoef data n) inv cdf n threshold x y [z] = Ok false).
Proof.
  intros Hn Hnc Hw Hr. pose proof (Hnc x ltac:(set_solver +)) as Hx. pose proof (Hnc y ltac:(set_solver +)) as Hy. pose proof (Hnc z ltac:(set_solver +)) as Hz.
  assert (not_constant data n w) as Hw' by (apply Hnc; set_solver +Hw).
  pose proof (corr_partial w z r Hn Hw' Hz Hr) as Er. pose proof (corr_bounds x z Hn Hx Hz) as Bx. pose proof (corr_bounds y z Hn Hy Hz) as By.
  assert (r = 1%R → stat x y [z] = Ok (Fin 0)) as H1.
  { intros ->. unfold pc_statistic. destruct (Rle_dec 1 (corrcoef data n x z)); [done|]. destruct (Rle_dec 1 (corrcoef data n y z)); [done|].
    apply elem_of_cons in Hw as [->|Hw%elem_of_list_singleton]; [|subst w]; lra. }
  assert (r = (-1)%R → (stat x y [z] = Ok (Fin 0) ∧ ∃ v, v ∈ [x; y] ∧ (1 <= corrcoef data n v z)%R) ∨ stat x y [z] = Ok Nan) as H2.
  { intros ->. unfold pc_statistic. destruct (Rle_dec 1 (corrcoef data n x z)); [left; split; [done|]; exists x; split; [set_solver +|done]|].
    destruct (Rle_dec 1 (corrcoef data n y z)); [left; split; [done|]; exists y; split; [set_solver +|done]|]. right.
    assert ((1 - corrcoef data n x z ^ 2) * (1 - corrcoef data n y z ^ 2) = 0 ∧ corrcoef data n x y - corrcoef data n x z * corrcoef data n y z = 0)%R as [-> ->].
    { apply elem_of_cons in Hw as [->|Hw%elem_of_list_singleton]; [|subst w]; rewrite Er; (split; [ring|]).
      - rewrite !corrcoef_cr in * by done. rewrite (opposite x y z) by done. ring.
      - rewrite !corrcoef_cr in * by done. rewrite (cr_sym data n x y), (opposite y x z) by done. ring. }
    unfold nsqrt. destruct (Rle_dec 0 0) as [_|]; [|lra]. rewrite sqrt_0. unfold ndiv. destruct (Req_EM_T 0 0) as [_|]; [|lra]. done. }
  split; [done|]. split.
  - intros Er' Hno. destruct (H2 Er') as [(_ & v & Hv & Hle)|]; [|done]. exfalso. apply (Hno v Hv).
    assert (not_constant data n v) as Hv' by (apply Hnc; set_solver +Hv). pose proof (corr_bounds v z Hn Hv' Hz).
    replace 1%R with (corrcoef data n v z) by lra. by apply partial_corr.
  - intros Ha threshold Ht. unfold pc_cond_indep. assert (r = 1 ∨ r = -1)%R as [Hr1|Hr1] by (unfold Rabs in Ha; destruct (Rcase_abs r); lra).
    + rewrite H1 by done. cbn [mbind res_bind ngt]. destruct (Rlt_dec threshold 0); [lra|done].
    + destruct (H2 Hr1) as [[-> _]| ->]; [|done]. cbn [mbind res_bind ngt]. destruct (Rlt_dec threshold 0); [lra|done].
Qed.
(** a matrix with two equal columns is singular *)
Lemma corrcoef_same a b c : (∀ t, t < n → data t a = data t b) → corrcoef data n c a = corrcoef data n c b.
Proof.
  intros H. unfold corrcoef, cov, mean. assert (rsum (λ t, data t a) (seq 0 n) = rsum (λ t, data t b) (seq 0 n)) as E.
  { apply rsum_ext. intros t Ht%elem_of_seq. apply H. lia. }
  rewrite E. f_equal. f_equal. f_equal.
  - f_equal. f_equal. apply rsum_ext. intros t Ht%elem_of_seq. rewrite H by lia. done.
  - f_equal. f_equal. apply rsum_ext. intros t Ht%elem_of_seq. rewrite H by lia. done.
Qed.
Lemma same_singular idx i j : i < length idx → j < length idx → i ≠ j → (∀ t, t < n → data t (idx !!! i) = data t (idx !!! j)) →
  ¬ nonsingular (corrcoef data n) idx.
Proof.
  intros Hi Hj Hij H [N HN]. pose proof (HN i i Hi Hi) as E1. pose proof (HN i j Hi Hj) as E2.
  rewrite decide_True in E1 by done. rewrite decide_False in E2 by done. enough (1 = 0)%R by lra. rewrite <-E1, <-E2.
  apply rsum_ext. intros k _. f_equal. by apply corrcoef_same.
Qed.
Lemma singular_raises x y zz : 2 ≤ length zz → inverts (corrcoef data n) inv (x :: y :: zz) → ¬ nonsingular (corrcoef data n) (x :: y :: zz) →
  stat x y zz = Raise ValueError.
Proof.
  intros Hl Hi Hs. destruct zz as [|z [|z' zz]]; [simpl in Hl; lia..|]. unfold pc_statistic. unfold inverts in Hi.
  destruct (inv _) as [N|]; [|done]. destruct Hs. by exists N.
Qed.
Lemma singular_raises_iff x y zz : 2 ≤ length zz → inverts (corrcoef data n) inv (x :: y :: zz) →
  (∃ e, stat x y zz = Raise e) ↔ ¬ nonsingular (corrcoef data n) (x :: y :: zz).
Proof.
  intros Hl Hi. split; [|intros; eexists; by apply singular_raises]. intros [e He] Hs. destruct zz as [|z [|z' zz]]; [simpl in Hl; lia..|].
  unfold pc_statistic in He. unfold inverts in Hi. destruct (inv _) as [N|]; [done|]. by destruct Hi.
Qed.
Lemma small_returns x y zz : length zz ≤ 1 → ∃ v, stat x y zz = Ok v.
Proof. intros Hl. destruct zz as [|z [|]]; [..|simpl in Hl; lia]; unfold pc_statistic; repeat destruct (Rle_dec _ _); eauto. Qed.

(** the inverse of a permuted matrix *)
Lemma inverse_perm (C : nat → nat → R) (l l' : list nat) N : l ≡ₚ l' → is_inverse (length l) (λ i j, C (l !!! i) (l !!! j)) N →
  ∃ N', is_inverse (length l') (λ i j, C (l' !!! i) (l' !!! j)) N'.
Proof.
  intros P H. assert (length l = length l') as El by by apply Permutation_length.
  apply (Permutation_nth l l' 0) in P as (_ & f & Hf & Hinj & Hn). 
  assert (∀ (k : list nat) i, i < length k → k !!! i = nth i k 0) as Hnth.
  { intros k i Hi. by rewrite nth_lookup, (list_lookup_lookup_total_lt k i Hi). }
  exists (λ i j, N (f i) (f j)). intros i j Hi Hj. rewrite <-El in *.
  transitivity (if decide (f i = f j) then 1%R else 0%R).
  - rewrite <-(H (f i) (f j)) by (by apply Hf).
    transitivity (rsum (λ k, N (f i) k * C (l !!! k) (l !!! f j))%R (f <$> seq 0 (length l))).
    + rewrite rsum_fmap. apply rsum_ext. intros k Hk%elem_of_seq.
      rewrite !(Hnth l') by (rewrite <-?El; lia). rewrite !Hn by lia. rewrite !(Hnth l); [done|apply Hf; lia..].
    + apply rsum_perm. symmetry. apply NoDup_Permutation_bis.
      * apply NoDup_ListNoDup, NoDup_seq.
      * by rewrite fmap_length, seq_length.
      * intros k Hk%elem_of_list_In%elem_of_seq. apply elem_of_list_In.
        apply bInjective_bSurjective in Hinj; [|done]. destruct (Hinj k) as (i' & ? & <-); [lia|]. apply elem_of_list_fmap_1. apply elem_of_seq. lia.
  - destruct (decide (f i = f j)) as [E|E], (decide (i = j)) as [E'|E']; try done; [|congruence]. destruct E'. by apply Hinj.
Qed.
End statistic.

Lemma nonsingular_perm (C : nat → nat → R) l l' : l ≡ₚ l' → nonsingular C l → nonsingular C l'.
Proof. intros P [N H]. by eapply inverse_perm. Qed.

(** ** monotonicity *)
Lemma fisher_opp r : (Rabs r < 1)%R → fisher_z (- r) = (- fisher_z r)%R.
Proof.
  intros H. apply Rabs_def2 in H. unfold fisher_z. replace ((1 + - r) / (1 - - r))%R with (/ ((1 + r) / (1 - r)))%R by (field; lra).
  rewrite ln_Rinv; [lra|]. apply Rdiv_lt_0_compat; lra.
Qed.
Lemma fisher_mono r s : (-1 < r)%R → (r <= s)%R → (s < 1)%R → (fisher_z r <= fisher_z s)%R.
Proof.
  intros H1 H2 H3. unfold fisher_z. apply Rmult_le_compat_l; [lra|].
  assert ((1 + r) / (1 - r) <= (1 + s) / (1 - s))%R as [Hlt|Heq].
  { apply (Rmult_le_reg_r ((1 - r) * (1 - s))); [apply Rmult_lt_0_compat; lra|].
    replace ((1 + r) / (1 - r) * ((1 - r) * (1 - s)))%R with ((1 + r) * (1 - s))%R by (field; lra).
    replace ((1 + s) / (1 - s) * ((1 - r) * (1 - s)))%R with ((1 + s) * (1 - r))%R by (field; lra). nra. }
  - left. apply ln_increasing; [|done]. apply Rdiv_lt_0_compat; lra.
  - rewrite Heq. lra.
Qed.
Lemma fisher_0 : fisher_z 0 = 0%R.
Proof. unfold fisher_z. replace ((1 + 0) / (1 - 0))%R with 1%R by field. rewrite ln_1. lra. Qed.
Lemma fisher_abs r : (Rabs r < 1)%R → Rabs (fisher_z r) = fisher_z (Rabs r).
Proof.
  intros H. pose proof (Rabs_def2 _ _ H). unfold Rabs at 2. destruct (Rcase_abs r) as [Hr|Hr].
  - rewrite fisher_opp by done. apply Rabs_left1. rewrite <-fisher_0. apply fisher_mono; lra.
  - apply Rabs_right. apply Rle_ge. rewrite <-fisher_0 at 1. apply fisher_mono; lra.
Qed.
Lemma two_sided_mono (cdf : R → R) m m' r r' : (∀ u v, u <= v → cdf u <= cdf v)%R → m ≤ m' → (Rabs r <= Rabs r')%R → (Rabs r' < 1)%R →
  (two_sided cdf (Rsqrt (INR m') * fisher_z r') <= two_sided cdf (Rsqrt (INR m) * fisher_z r))%R.
Proof.
  intros Hc Hm Hr Hr'. unfold two_sided. assert (cdf (Rabs (Rsqrt (INR m) * fisher_z r)) <= cdf (Rabs (Rsqrt (INR m') * fisher_z r')))%R; [|lra].
  apply Hc. rewrite !Rabs_mult. pose proof (sqrt_pos (INR m)). pose proof (sqrt_pos (INR m')).
  rewrite !(Rabs_right (Rsqrt _)) by lra. apply Rmult_le_compat; [lra|apply Rabs_pos| |].
  - apply sqrt_le_1_alt. by apply le_INR.
  - rewrite !fisher_abs by lra. pose proof (Rabs_pos r). apply fisher_mono; lra.
Qed.

(** ** symmetry of the statistic *)
Lemma nonsingular_nodup data n x y zz : nonsingular (corrcoef data n) (x :: y :: zz) → NoDup zz.
Proof.
  intros H. apply NoDup_alt. intros i j z Hi Hj. destruct (decide (i = j)) as [|Hij]; [done|exfalso].
  apply (same_singular data n (x :: y :: zz) (S (S i)) (S (S j))); [..|done].
  - simpl. apply lookup_lt_Some in Hi. lia.
  - simpl. apply lookup_lt_Some in Hj. lia.
  - lia.
  - intros t _. change ((x :: y :: zz) !!! S (S i)) with (zz !!! i). change ((x :: y :: zz) !!! S (S j)) with (zz !!! j).
    by rewrite !(list_lookup_total_correct _ _ _ Hi), !(list_lookup_total_correct _ _ _ Hj).
Qed.
Lemma corrcoef_sym data n a b : corrcoef data n a b = corrcoef data n b a.
Proof.
  unfold corrcoef. f_equal. f_equal. unfold Rdiv. rewrite !Rmult_assoc, (Rmult_comm (/ _) (/ _)). f_equal.
  unfold cov. f_equal. apply rsum_ext. intros t _. apply Rmult_comm.
Qed.
Lemma statistic_sym data n inv cdf x y zz zz' : zz ≡ₚ zz' → 2 ≤ n → (∀ a, a ∈ x :: y :: zz → not_constant data n a) →
  inverts (corrcoef data n) inv (x :: y :: zz) → inverts (corrcoef data n) inv (y :: x :: zz') →
  pc_statistic (corrcoef data n) inv cdf n x y zz = pc_statistic (corrcoef data n) inv cdf n y x zz'.
Proof.
  intros P Hn Hv Hi Hi'. destruct (decide (2 ≤ length zz)) as [Hl|Hl].
  - assert (2 ≤ length zz') as Hl' by (by rewrite <-P). assert (x :: y :: zz ≡ₚ y :: x :: zz') as P' by (rewrite P; constructor).
    assert (∀ a, a ∈ y :: x :: zz' → not_constant data n a) as Hv'. { intros a Ha. apply Hv. by rewrite P'. }
    destruct (inv (x :: y :: zz)) as [N|] eqn:E.
    + assert (nonsingular (corrcoef data n) (x :: y :: zz)) as Hs. { unfold inverts in Hi. rewrite E in Hi. by exists N. }
      pose proof (nonsingular_perm _ _ _ P' Hs) as Hs'. destruct Hs as [M HM].
      destruct (partial_exists data n x y zz M Hv) as (r & Hr & _); [by apply invert_cr|eapply nonsingular_nodup; by exists M|].
      rewrite (stat_value data n inv cdf x y zz r); [|done..|intros _; by exists M|done].
      rewrite (stat_value data n inv cdf y x zz' r); [|done..|by eapply partial_sym]. by rewrite P.
    + assert (¬ nonsingular (corrcoef data n) (x :: y :: zz)) as Hs. { unfold inverts in Hi. by rewrite E in Hi. }
      rewrite !singular_raises; try done. intros Hs'. apply Hs. by eapply nonsingular_perm.
  - destruct zz as [|z [|]]; [..|simpl in Hl; lia].
    + apply Permutation_nil_l in P as <-. unfold pc_statistic. by rewrite (corrcoef_sym data n x y).
    + apply Permutation_singleton_l in P as <-. unfold pc_statistic. rewrite (corrcoef_sym data n x y).
      rewrite (Rmult_comm (1 - corrcoef data n y z ^ 2)), (Rmult_comm (corrcoef data n y z)). by repeat destruct (Rle_dec 1 _).
Qed.

(** a variable that varies has two records or more, and an invertible correlation matrix needs more records than
    variables *)
Lemma varying_two data n a : not_constant data n a → 2 ≤ n.
Proof.
  intros H. destruct n as [|[|n]]; [..|lia]; exfalso; unfold not_constant, vdot in H.
  - unfold rsum in H. simpl in H. lra.
  - unfold dev, rsum in H. simpl in H. lra.
Qed.
Lemma nonsingular_size data n x y zz : (∀ a, a ∈ x :: y :: zz → not_constant data n a) →
  nonsingular (corrcoef data n) (x :: y :: zz) → length zz + 3 ≤ n.
Proof.
  intros Hv [N HN]. pose proof (varying_two data n x (Hv x ltac:(left))) as H2.
  pose proof (nonsingular_records data n (x :: y :: zz) ltac:(lia) Hv) as H. feed specialize H; [exists N; by apply invert_cr|]. simpl in H. lia.
Qed.
