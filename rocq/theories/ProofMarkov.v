(** d-separation implies independence in data distributed according to a Bayesian network (global Markov property). *)
From Coq Require Import QArith Qreals Reals Lra.
From Verif Require Import Base BaseLemmas ModelGraph Spec Paths MSepTheory ProofGraph ProofGraph2 ProofGraph3 ProofDsep ModelData ModelCI ModelCMI SpecCMI ProofCMI SpecMarkov.
Local Open Scope nat_scope.

Section sums.
Context (K : nat).
Implicit Types (F G : (nat → nat) → R) (r : nat → nat) (L : list nat).

(** sum over all values below K of the variables of a list *)
Fixpoint msum L F r : R := match L with [] => F r | v :: L => rsum (λ a, msum L F (setv r v a)) (seq 0 K) end.
(** F looks at the variables of S only *)
Definition dep (S : nat → Prop) F : Prop := ∀ r r', (∀ u, S u → r u = r' u) → F r = F r'.

Lemma setv_eq r v a : setv r v a v = a.
Proof. unfold setv. by rewrite decide_True. Qed.
Lemma setv_ne r v a u : u ≠ v → setv r v a u = r u.
Proof. intros H. unfold setv. by rewrite decide_False. Qed.
Lemma dep_mono (S S' : nat → Prop) F : (∀ u, S u → S' u) → dep S F → dep S' F.
Proof. intros H HF r r' E. apply HF. auto. Qed.
Lemma msum_ext L F G : ∀ r, (∀ r', (∀ u, u ∈ L → r' u < K) → (∀ u, u ∉ L → r' u = r u) → F r' = G r') → msum L F r = msum L G r.
Proof.
  induction L as [|v L IH]; intros r H; cbn [msum].
  - apply H; [set_solver|done].
  - apply rsum_ext. intros a Ha%elem_of_seq. apply IH. intros r' H1 H2. apply H.
    + intros u Hu. destruct (decide (u ∈ L)) as [Hu'|Hu']; [by apply H1|]. rewrite H2 by done.
      apply elem_of_cons in Hu as [->|?]; [|done]. rewrite setv_eq. lia.
    + intros u Hu. rewrite H2 by set_solver +Hu. apply setv_ne. set_solver +Hu.
Qed.
Lemma msum_dep L F (S : nat → Prop) : dep S F → dep (λ u, S u ∧ u ∉ L) (msum L F).
Proof.
  intros HF. induction L as [|v L IH]; intros r r' E; cbn [msum].
  - apply HF. intros u Hu. apply E. split; [done|set_solver].
  - apply rsum_ext. intros a _. apply IH. intros u [Hu HL]. unfold setv. destruct (decide (u = v)) as [|Hne]; [done|]. apply E. set_solver.
Qed.
Lemma msum_app L1 L2 F : ∀ r, msum (L1 ++ L2) F r = msum L1 (msum L2 F) r.
Proof. induction L1 as [|v L1 IH]; intros r; cbn [msum app]; [done|]. apply rsum_ext. intros a _. apply IH. Qed.
Lemma msum_perm L L' F : dep (λ _, True) F → L ≡ₚ L' → NoDup L → ∀ r, msum L F r = msum L' F r.
Proof.
  intros HF. induction 1 as [|v L L' _ IH|v w L|L1 L2 L3 H12 IH1 _ IH2]; intros Hnd r.
  - done.
  - cbn [msum]. apply rsum_ext. intros a _. apply NoDup_cons in Hnd as [_ Hnd]. by apply IH.
  - cbn [msum]. rewrite rsum_swap. apply rsum_ext. intros a _. apply rsum_ext. intros b _.
    apply (msum_dep L F (λ _, True)); [done|]. intros u _. apply NoDup_cons in Hnd as [Hv _]. unfold setv.
    destruct (decide (u = v)), (decide (u = w)); subst; try done. set_solver.
  - rewrite IH1 by done. apply IH2. by rewrite <-H12.
Qed.
Lemma msum_mult_l L F G (S : nat → Prop) : dep S G → (∀ u, S u → u ∉ L) → ∀ r, msum L (λ r, G r * F r)%R r = (G r * msum L F r)%R.
Proof.
  intros HG. induction L as [|v L IH]; intros HS r; cbn [msum]; [done|].
  rewrite <-rsum_scal. apply rsum_ext. intros a _. rewrite IH by set_solver. f_equal. apply HG. intros u Hu. apply setv_ne. set_solver.
Qed.
Lemma msum_prod L1 L2 F G (S1 S2 : nat → Prop) : dep S1 F → dep S2 G → (∀ u, S1 u → u ∉ L2) → (∀ u, S2 u → u ∉ L1) →
  ∀ r, msum (L1 ++ L2) (λ r, F r * G r)%R r = (msum L1 F r * msum L2 G r)%R.
Proof.
  intros HF HG H1 H2 r. rewrite msum_app.
  rewrite (msum_ext L1 _ (λ r, msum L2 G r * F r)%R).
  - rewrite (msum_mult_l L1 F (msum L2 G) S2); [apply Rmult_comm| |done].
    eapply (dep_mono (λ u, S2 u ∧ u ∉ L2)); [tauto|by apply msum_dep].
  - intros r' _ _. rewrite (msum_mult_l L2 G F S1) by done. apply Rmult_comm.
Qed.
End sums.

Section net.
Context (d : graph) (nv K : nat) (recs : list (list nat * R)).
Context (Hwf : wf_graph d) (Hac : acyclic d) (Hn : ∀ v, v ∈ gnodes d ↔ v < nv).
Context (HK : ∀ p v, p ∈ recs → v < nv → p.1 !!! v < K).
Context (f : nat → (nat → nat) → R) (Hf : ∀ v, v < nv → cond_table d K v (f v)).
Implicit Types (r : nat → nat) (L : list nat).

Definition M (vs : list nat) r : R := mass recs vs (r <$> vs).
Lemma proj_vals vs (q : list nat) r : proj vs q = r <$> vs ↔ ∀ v, v ∈ vs → q !!! v = r v.
Proof.
  unfold proj. induction vs as [|v vs IH]; [split; [by intros _ ? ?%elem_of_nil|done]|]. cbn [fmap list_fmap]. split.
  - intros [= E1 E2] u [->|Hu]%elem_of_cons; [done|]. by apply IH.
  - intros H. f_equal; [apply H; left|]. apply IH. intros u Hu. apply H. by right.
Qed.
Lemma ind_iff (P Q : Prop) `{Decision P, Decision Q} : (P ↔ Q) → ind P = ind Q.
Proof. intros E. unfold ind. destruct (decide P), (decide Q); tauto. Qed.
Lemma M_set vs vs' r : (∀ v, v ∈ vs ↔ v ∈ vs') → M vs r = M vs' r.
Proof.
  intros H. unfold M. rewrite !mass_sum. apply rsum_ext. intros p _. f_equal. apply ind_iff. rewrite !proj_vals. by setoid_rewrite H.
Qed.
Lemma M_step vs v r : v < nv → v ∉ vs → M vs r = rsum (λ a, M (v :: vs) (setv r v a)) (seq 0 K).
Proof.
  intros Hv Hn'. unfold M.
  rewrite (rsum_ext _ (λ a, rsum (λ p : list nat * R, ind (proj (v :: vs) p.1 = setv r v a <$> v :: vs) * p.2)%R recs)) by (intros; apply mass_sum).
  rewrite rsum_swap, mass_sum. apply rsum_ext. intros p Hp.
  rewrite (rsum_ext _ (λ a, if decide (a = p.1 !!! v) then ind (proj vs p.1 = r <$> vs) * p.2 else 0)%R).
  - by rewrite (rsum_point (λ _, ind (proj vs p.1 = r <$> vs) * p.2)%R) by (by apply HK).
  - intros a _. destruct (decide (a = p.1 !!! v)) as [->|Hne].
    + f_equal. apply ind_iff. rewrite !proj_vals. split.
      * intros H u Hu. rewrite <-(setv_ne r v (p.1 !!! v) u) by (intros ->; done). apply H. by right.
      * intros H u [->|Hu]%elem_of_cons; [by rewrite setv_eq|]. rewrite setv_ne by (intros ->; done). by apply H.
    + unfold ind. rewrite decide_False; [by rewrite Rmult_0_l|]. rewrite proj_vals. intros H. apply Hne. rewrite (H v) by left. symmetry. apply setv_eq.
Qed.
Lemma M_msum rest : ∀ vs r, NoDup rest → (∀ v, v ∈ rest → v < nv ∧ v ∉ vs) → M vs r = msum K rest (M (rest ++ vs)) r.
Proof.
  induction rest as [|v rest IH]; intros vs r Hnd H; [done|]. cbn [msum].
  destruct (H v) as [Hv Hvs]; [by left|]. apply NoDup_cons in Hnd as [Hv' Hnd].
  rewrite (M_step vs v) by done. apply rsum_ext. intros a _. rewrite (IH (v :: vs)).
  - apply msum_ext. intros r' _ _. apply M_set. set_solver +.
  - done.
  - intros u Hu. destruct (H u) as [? ?]; [by right|]. split; [done|]. intros [->|?]%elem_of_cons; done.
Qed.

(** products of table entries *)
Definition fprod L r : R := foldr Rmult 1%R ((λ v, f v r) <$> L).
Lemma fprod_perm L L' r : L ≡ₚ L' → fprod L r = fprod L' r.
Proof.
  unfold fprod. induction 1 as [|v L L' _ IH|v w L|L1 L2 L3 _ IH1 _ IH2]; cbn [fmap list_fmap foldr]; [done|by f_equal|ring|congruence].
Qed.
Lemma fprod_app L L' r : fprod (L ++ L') r = (fprod L r * fprod L' r)%R.
Proof. unfold fprod. induction L as [|v L IH]; cbn [fmap list_fmap foldr app]; [ring|]. rewrite IH. ring. Qed.
Lemma fprod_dep L (S : nat → Prop) : (∀ v, v ∈ L → v < nv) → (∀ v u, v ∈ L → u = v ∨ edge d u v → S u) → dep S (fprod L).
Proof.
  intros HL HS r r' E. unfold fprod. f_equal. apply list_fmap_ext. intros i v Hv%elem_of_list_lookup_2.
  destruct (Hf v (HL _ Hv)) as [H _]. apply H. intros u Hu. apply E. by eapply HS.
Qed.

(** summing out the variables outside an ancestral set *)
Lemma sum_out (A : nset) L : (∀ u v, edge d u v → v ∈ A → u ∈ A) → NoDup L → (∀ v, v ∈ L → v < nv) →
  (∀ l1 v l2, L = l1 ++ v :: l2 → ∀ u, u ∈ l2 → ¬ edge d v u) →
  ∀ r, msum K (filter (.∉ A) L) (fprod L) r = fprod (filter (.∈ A) L) r.
Proof.
  intros HA. induction L as [|v L IH]; intros Hnd HL Hord r; [done|]. apply NoDup_cons in Hnd as [Hv Hnd].
  assert (∀ r, msum K (filter (.∉ A) L) (fprod L) r = fprod (filter (.∈ A) L) r) as IH'.
  { apply IH; [done|set_solver|]. intros l1 u l2 -> w Hw. apply (Hord (v :: l1) u l2); [done|done]. }
  clear IH. destruct (Hf v) as [Hd Hs]; [apply HL; left|].
  destruct (decide (v ∈ A)) as [HvA|HvA].
  - rewrite (filter_cons_False (.∉ A)) by tauto. rewrite (filter_cons_True (.∈ A)) by done.
    change (fprod (v :: ?l)) with (λ r, f v r * fprod l r)%R. cbn beta.
    rewrite (msum_mult_l K _ (fprod L) (f v) (λ u, u = v ∨ edge d u v)); [by rewrite IH'|done|].
    intros u Hu [HuA _]%elem_of_list_filter. destruct Hu as [->|Hu]; [done|]. apply HuA. by eapply HA.
  - rewrite (filter_cons_True (.∉ A)) by done. rewrite (filter_cons_False (.∈ A)) by tauto. rewrite <-IH'.
    rewrite (msum_perm K (v :: filter (.∉ A) L) (filter (.∉ A) L ++ [v])).
    + rewrite msum_app. apply msum_ext. intros r' _ _. cbn [msum].
      rewrite (rsum_ext _ (λ a, fprod L r' * f v (setv r' v a))%R).
      * rewrite rsum_scal. rewrite <-foldr_rsum. rewrite Hs. ring.
      * intros a _. change (fprod (v :: L) (setv r' v a)) with (f v (setv r' v a) * fprod L (setv r' v a))%R.
        rewrite Rmult_comm. f_equal. apply (fprod_dep L (λ u, u ≠ v)); [set_solver| |intros u Hu; by apply setv_ne].
        intros w u Hw [->|Hu]; [by intros ->|]. intros ->. by apply (Hord [] v L eq_refl w Hw).
    + eapply dep_mono; [|apply (fprod_dep _ (λ _, True))]; done.
    + apply Permutation_cons_append.
    + apply NoDup_cons. split; [|by apply NoDup_filter]. intros [_ ?]%elem_of_list_filter. done.
Qed.

Lemma before_asym' (l : list nat) a b : NoDup l → before l a b → ¬ before l b a.
Proof.
  intros Hnd (l1 & l2 & l3 & E) (k1 & k2 & k3 & E').
  assert (l !! length l1 = Some a) as H1 by (rewrite E; by apply list_lookup_middle).
  assert (l !! length (l1 ++ a :: l2) = Some b) as H2 by (rewrite E, (app_comm_cons l2 (b :: l3) a), (app_assoc l1); by apply list_lookup_middle).
  assert (l !! length k1 = Some b) as H3 by (rewrite E'; by apply list_lookup_middle).
  assert (l !! length (k1 ++ b :: k2) = Some a) as H4 by (rewrite E', (app_comm_cons k2 (a :: k3) b), (app_assoc k1); by apply list_lookup_middle).
  pose proof (NoDup_lookup _ _ _ _ Hnd H1 H4) as H5. pose proof (NoDup_lookup _ _ _ _ Hnd H2 H3) as H6.
  rewrite app_length in H5, H6. simpl in H5, H6. lia.
Qed.
Lemma order_exists : ∃ L, NoDup L ∧ (∀ v, v ∈ L ↔ v < nv) ∧ ∀ l1 v l2, L = l1 ++ v :: l2 → ∀ u, u ∈ l2 → ¬ edge d v u.
Proof.
  destruct (topological_ok ord_up d (S (size (gnodes d))) None) as [_ H]; [apply ord_up_ok|simpl; lia| |].
  { intros a Ha. apply (Hac a). eapply tc_mono; [|exact Ha]. intros ? ? H. apply H. }
  apply returns_ok in H as (l & _ & Hnd & Hl & He). simpl in Hl, He. exists (reverse l). split; [by rewrite reverse_Permutation|]. split.
  { intros v. rewrite elem_of_reverse, Hl. apply Hn. }
  intros l1 v l2 E u Hu Hvu. destruct (Hwf _ _ Hvu) as [Hv Hu'].
  apply (f_equal reverse) in E. rewrite reverse_involutive, reverse_app, reverse_cons, <-app_assoc in E. simpl in E.
  rewrite <-elem_of_reverse in Hu. apply elem_of_list_split in Hu as (p1 & p2 & Ep).
  apply (before_asym' l u v Hnd).
  - exists p1, p2, (reverse l1). rewrite E, Ep, <-app_assoc. done.
  - by apply He.
Qed.

Context (N : R) (HP : ∀ r, (∀ v, v < nv → r v < K) → M (seq 0 nv) r = (N * fprod (seq 0 nv) r)%R).
(** the weight of a configuration of variables of an ancestral set *)
Lemma ancestral_mass (A : nset) L vars r : (∀ u v, edge d u v → v ∈ A → u ∈ A) → NoDup L → (∀ v, v ∈ L ↔ v < nv) →
  (∀ l1 v l2, L = l1 ++ v :: l2 → ∀ u, u ∈ l2 → ¬ edge d v u) → (∀ v, v ∈ vars → v ∈ A ∧ v < nv ∧ r v < K) →
  M vars r = (N * msum K (filter (λ v, v ∈ A ∧ v ∉ vars) L) (fprod (filter (.∈ A) L)) r)%R.
Proof.
  intros HA Hnd HL Hord Hvars.
  set (LA := filter (λ v, v ∈ A ∧ v ∉ vars) L). set (LB := filter (.∉ A) L).
  assert (∀ v, v ∈ LA ++ LB ↔ v < nv ∧ v ∉ vars) as Hin.
  { intros v. rewrite elem_of_app. unfold LA, LB. rewrite !elem_of_list_filter, HL. destruct (decide (v ∈ A)) as [Hv|Hv]; [tauto|].
    split; [|tauto]. intros H. assert (v ∉ vars) by (intros H'; by apply Hvars in H' as [? _]). tauto. }
  rewrite (M_msum (LA ++ LB) vars r).
  - rewrite (msum_ext K _ _ (λ r, N * fprod L r)%R).
    + rewrite (msum_mult_l K _ (fprod L) (λ _, N) (λ _, False)); [|done|tauto]. f_equal. rewrite msum_app. apply msum_ext. intros r' _ _.
      apply sum_out; try done. intros v. by apply HL.
    + intros r' H1 H2. rewrite (fprod_perm L (seq 0 nv)).
      * rewrite <-HP.
        -- apply M_set. intros v. rewrite elem_of_app, Hin, elem_of_seq. split; [intros [[? ?]|(_ & ? & _)%Hvars]; lia|]. intros [_ ?]. destruct (decide (v ∈ vars)); [by right|by left].
        -- intros v Hv. destruct (decide (v ∈ vars)) as [Hv'|Hv']; [|by apply H1, Hin]. rewrite H2 by (rewrite Hin; tauto). by apply Hvars.
      * apply NoDup_Permutation; [done|apply NoDup_seq|]. intros v. rewrite HL, elem_of_seq. lia.
  - apply NoDup_app. split; [by apply NoDup_filter|]. split; [|by apply NoDup_filter]. intros v [[? _] _]%elem_of_list_filter [? _]%elem_of_list_filter. done.
  - intros v Hv. by apply Hin.
Qed.

Lemma set_of (P : nat → Prop) : ¬ ¬ ∃ X : nset, ∀ v, v ∈ X ↔ v < nv ∧ P v.
Proof.
  clear. induction nv as [|n IH].
  - intros H. apply H. exists ∅. intros v. rewrite elem_of_empty. lia.
  - intros H. apply IH. intros [X HX]. assert (¬ ¬ (P n ∨ ¬ P n)) as Hd by tauto. apply Hd. intros [Hp|Hp]; apply H.
    + exists (X ∪ {[n]}). intros v. rewrite elem_of_union, elem_of_singleton, HX. destruct (decide (v = n)) as [->|]; [|assert (v < S n ↔ v < n) by lia; tauto]. split; [split; [lia|done]|by right].
    + exists X. intros v. rewrite HX. destruct (decide (v = n)) as [->|]; [|assert (v < S n ↔ v < n) by lia; tauto]. split; [lia|tauto].
Qed.

Lemma markov_config x y zz r : x < nv → y < nv → Forall (λ v, v < nv) zz → x ≠ y → x ∉ zz → y ∉ zz → d_separated d x y zz →
  (∀ v, v ∈ x :: y :: zz → r v < K) → (M (x :: y :: zz) r * M zz r = M (x :: zz) r * M (y :: zz) r)%R.
Proof.
  intros Hx Hy Hz Hxy Hxz Hyz Hsep Hr.
  match goal with |- ?l = ?q => destruct (Req_dec l q) as [|Hne]; [done|exfalso] end.
  apply (set_of (An (edge d) (.∈ zz) x y)). intros [A HA].
  apply (set_of (λ v, augreach (edge d) (.∈ zz) x y x v)). intros [X HX]. apply Hne. clear Hne.
  apply (d_separated_aug ord_up ord_up_ok) in Hsep; [|done..]. rewrite Forall_forall in Hz.
  assert (∀ u v, edge d u v → v ∈ A → u ∈ A) as Hcl.
  { intros u v He. rewrite !HA. intros [_ Hv]. split; [apply Hn; by apply (Hwf u v)|].
    unfold An, anZ in *. apply (dir_edge d u v Hac) in He. destruct Hv as [Hv|[Hv|(z & ? & Hv)]].
    - left. by eapply rtc_l.
    - right. left. by eapply rtc_l.
    - right. right. exists z. split; [done|]. by eapply rtc_l. }
  assert (∀ v, v ∈ x :: y :: zz → v ∈ A) as Hin.
  { intros v Hv. rewrite HA. unfold An, anZ. apply elem_of_cons in Hv as [->|Hv]; [split; [done|by left]|].
    apply elem_of_cons in Hv as [->|Hv]; [split; [done|right; by left]|]. split; [by apply Hz|]. right. right. by exists v. }
  assert (x ∈ X) as HxX by (apply HX; split; [done|apply rtc_refl]).
  assert (y ∉ X) as HyX by (rewrite HX; intros [_ ?]; done).
  assert (∀ v, v ∈ X → v ∈ A ∧ v ∉ zz) as HXA.
  { intros v [Hv Hr']%HX. apply rtc_inv_r in Hr' as [<-|(w & _ & (_ & Ha & _) & HZ)]; [split; [apply Hin; left|done]|]. split; [by apply HA|done]. }
  assert (∀ v u w, v ∈ A → (u = v ∨ edge d u v) → (w = v ∨ edge d w v) → w ∈ X → u ∈ X ∨ u ∈ zz) as Hclq.
  { intros v u w Hv Hu Hw HwX. destruct (decide (u ∈ zz)) as [|Huz]; [by right|]. destruct (decide (u = w)) as [->|Hne]; [by left|]. left.
    assert (u ∈ A ∧ w ∈ A) as [HuA HwA] by (split; [destruct Hu as [->|Hu]|destruct Hw as [->|Hw]]; eauto).
    apply HX. split; [by apply HA|]. apply HX in HwX as [_ HwX]. eapply rtc_r; [exact HwX|]. split; [|done].
    split_and!; [by apply HA|by apply HA|].
    destruct Hu as [->|Hu], Hw as [->|Hw].
    - done.
    - exists []. split; [by left|]. by intros ? ?%elem_of_nil.
    - exists []. split; [by right|]. by intros ? ?%elem_of_nil.
    - exists [v]. split; [simpl; split_and!; [done|done|by right]|]. intros c ->%elem_of_list_singleton. by apply HA. }
  destruct order_exists as (L & Hnd & HL & Hord).
  set (fx v := bool_decide ((parents d v ∪ {[v]}) ∩ X ≠ ∅)).
  set (LX := filter (λ v, v ∈ A ∧ fx v = true) L). set (LY := filter (λ v, v ∈ A ∧ fx v = false) L).
  assert (∀ v, fx v = true ↔ ∃ w, (w = v ∨ edge d w v) ∧ w ∈ X) as Hfx.
  { intros v. unfold fx. rewrite bool_decide_eq_true. split.
    - intros H. apply set_choose_L in H as [w Hw]. exists w. unfold edge, parents in *. set_solver +Hw.
    - intros (w & Hw & HwX). unfold edge, parents in *. set_solver +Hw HwX. }
  assert (∀ r', fprod (filter (.∈ A) L) r' = fprod LX r' * fprod LY r')%R as Hsplit.
  { intros r'. rewrite <-fprod_app. apply fprod_perm. apply NoDup_Permutation; [by apply NoDup_filter| |].
    - apply NoDup_app. split; [by apply NoDup_filter|]. split; [|by apply NoDup_filter]. intros v [[_ H1] _]%elem_of_list_filter [[_ H2] _]%elem_of_list_filter. congruence.
    - intros v. rewrite elem_of_app. unfold LX, LY. rewrite !elem_of_list_filter. destruct (fx v); naive_solver. }
  assert (dep (λ u, u ∈ X ∨ u ∈ zz) (fprod LX)) as HdX.
  { apply fprod_dep; [intros v [_ Hv]%elem_of_list_filter; by apply HL|]. intros v u [[HvA Hv] _]%elem_of_list_filter Hu.
    apply Hfx in Hv as (w & Hw & HwX). exact (Hclq v u w HvA Hu Hw HwX). }
  assert (dep (λ u, u ∈ A ∧ u ∉ X) (fprod LY)) as HdY.
  { apply fprod_dep; [intros v [_ Hv]%elem_of_list_filter; by apply HL|]. intros v u [[HvA Hv] _]%elem_of_list_filter Hu. split.
    - destruct Hu as [->|Hu]; eauto.
    - intros HuX. assert (fx v = true) as H by (apply Hfx; by exists u). congruence. }
  assert (∀ vars, (∀ v, v ∈ zz → v ∈ vars) → (∀ v, v ∈ vars → v ∈ x :: y :: zz) →
    M vars r = N * (msum K (filter (λ v, v ∈ X ∧ v ∉ vars) L) (fprod LX) r * msum K (filter (λ v, (v ∈ A ∧ v ∉ X) ∧ v ∉ vars) L) (fprod LY) r))%R as Hmass.
  { intros vars Hv1 Hv2. rewrite (ancestral_mass A L vars r); [|done..|].
    2: { intros v Hv%Hv2. split; [by apply Hin|]. split; [|by apply Hr]. apply HA, Hin, Hv. }
    f_equal. rewrite (msum_ext K _ _ (λ r, fprod LX r * fprod LY r)%R) by (intros; apply Hsplit).
    rewrite (msum_perm K _ (filter (λ v, v ∈ X ∧ v ∉ vars) L ++ filter (λ v, (v ∈ A ∧ v ∉ X) ∧ v ∉ vars) L)).
    - apply (msum_prod K _ _ _ _ _ _ HdX HdY).
      + intros u [Hu|Hu] [[[_ ?] ?] _]%elem_of_list_filter; [done|]. by apply Hv1 in Hu.
      + intros u [_ Hu] [[? _] _]%elem_of_list_filter. done.
    - intros r1 r2 E. f_equal; [apply HdX|apply HdY]; intros; by apply E.
    - apply NoDup_Permutation; [by apply NoDup_filter| |].
      + apply NoDup_app. split; [by apply NoDup_filter|]. split; [|by apply NoDup_filter]. intros v [[? _] _]%elem_of_list_filter [[[_ ?] _] _]%elem_of_list_filter. done.
      + intros v. rewrite elem_of_app, !elem_of_list_filter. destruct (decide (v ∈ X)) as [HvX|]; [pose proof (proj1 (HXA v HvX))|]; tauto.
    - by apply NoDup_filter. }
  rewrite (Hmass (x :: y :: zz)) by set_solver +. rewrite (Hmass zz) by set_solver +. rewrite (Hmass (x :: zz)) by set_solver +. rewrite (Hmass (y :: zz)) by set_solver +.
  assert (∀ vars vars' : list nat, (∀ v, v ∈ X → v ∈ vars ↔ v ∈ vars') → filter (λ v, v ∈ X ∧ v ∉ vars) L = filter (λ v, v ∈ X ∧ v ∉ vars') L) as EX.
  { intros vars vars' E. apply list_filter_iff. intros v. specialize (E v). tauto. }
  assert (∀ vars vars' : list nat, (∀ v, v ∉ X → v ∈ vars ↔ v ∈ vars') → filter (λ v, (v ∈ A ∧ v ∉ X) ∧ v ∉ vars) L = filter (λ v, (v ∈ A ∧ v ∉ X) ∧ v ∉ vars') L) as EY.
  { intros vars vars' E. apply list_filter_iff. intros v. specialize (E v). tauto. }
  rewrite (EX (x :: y :: zz) (x :: zz)) by (intros v Hv; rewrite !elem_of_cons; split; [intros [?|[->|?]]; tauto|tauto]).
  rewrite (EX zz (y :: zz)) by (intros v Hv; rewrite !elem_of_cons; split; [tauto|intros [->|?]; tauto]).
  rewrite (EY (x :: y :: zz) (y :: zz)) by (intros v Hv; rewrite !elem_of_cons; split; [intros [->|[?|?]]; tauto|tauto]).
  rewrite (EY zz (x :: zz)) by (intros v Hv; rewrite !elem_of_cons; split; [tauto|intros [->|?]; tauto]).
  ring.
Qed.
End net.

Theorem markov d nv K recs x y zz : wf_graph d → acyclic d → (∀ v, v ∈ gnodes d ↔ v < nv) → bayes_net d nv K recs →
  x < nv → y < nv → Forall (λ v, v < nv) zz → x ≠ y → x ∉ zz → y ∉ zz → d_separated d x y zz → emp_indep recs x y zz.
Proof.
  intros Hwf Hac Hn (HK & f & Hf & HP) Hx Hy Hz Hxy Hxz Hyz Hsep a b c.
  assert (∀ vars vals, (∀ p, p ∈ recs → proj vars p.1 ≠ vals) → mass recs vars vals = 0%R) as Habs.
  { intros vars vals H. rewrite mass_sum. rewrite (rsum_ext _ (λ _, 0%R)); [apply rsum_0|]. intros p Hp. unfold ind. rewrite decide_False by (by apply H). ring. }
  destruct (decide (Exists (λ p : list nat * R, proj zz p.1 = c) recs)) as [Hc|Hc].
  2: { rewrite (Habs zz c), (Habs (x :: zz)); [ring| |]; intros p Hp E; apply Hc, Exists_exists; exists p; (split; [done|]); [by injection E|done]. }
  apply Exists_exists in Hc as (p & Hp & <-).
  destruct (decide (a < K)) as [Ha|Ha].
  2: { rewrite (Habs (x :: y :: zz)), (Habs (x :: zz)); [ring| |]; intros q Hq [= E]; apply Ha; subst a; by apply HK. }
  destruct (decide (b < K)) as [Hb|Hb].
  2: { rewrite (Habs (x :: y :: zz)), (Habs (y :: zz)); [ring| |]; intros q Hq [= E]; apply Hb; subst b; by apply HK. }
  set (r := λ v, if decide (v = x) then a else if decide (v = y) then b else p.1 !!! v).
  assert (proj zz p.1 = r <$> zz) as ->.
  { apply proj_vals. intros v Hv. unfold r. rewrite !decide_False; [done|by intros ->..]. }
  assert (r x = a) as Ea by (unfold r; by rewrite decide_True).
  assert (r y = b) as Eb by (unfold r; rewrite decide_False by done; by rewrite decide_True).
  rewrite <-Ea at 1 2. rewrite <-Eb at 1 2.
  apply (markov_config d nv K recs Hwf Hac Hn HK f Hf _ HP x y zz r); try done.
  rewrite Forall_forall in Hz. intros v Hv. unfold r. destruct (decide (v = x)); [done|]. destruct (decide (v = y)); [done|].
  apply elem_of_cons in Hv as [?|Hv]; [done|]. apply elem_of_cons in Hv as [?|Hv]; [done|]. apply HK; [done|]. by apply Hz.
Qed.
