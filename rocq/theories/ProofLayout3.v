(** Layouts: forces. *)
From Coq Require Import Reals Lra.
From Verif Require Import Base BaseLemmas ModelCMI ModelLayout SpecLayout ProofLayout ProofLayout2 ProofCMI ProofBDeu.
Local Open Scope nat_scope.

Lemma for_vsum {A} (l : list A) (f : A → R * R → res (R * R)) (G : A → R * R) a :
  (∀ j s, j ∈ l → f j s = Ok (s.1 + (G j).1, s.2 + (G j).2)%R) →
  for_ l f a = Ok (a.1 + rsum (λ j, (G j).1) l, a.2 + rsum (λ j, (G j).2) l)%R.
Proof.
  revert a. induction l as [|j l IH]; intros a H; [cbn; rewrite !Rplus_0_r; by destruct a|]. cbn [for_]. rewrite H by set_solver. cbn [mbind res_bind].
  rewrite IH by set_solver. cbn [fst snd]. rewrite !rsum_cons. do 2 f_equal; ring.
Qed.
Lemma fdist_dist p q : fdist (vsub p q) = dist1 p q.
Proof. unfold fdist, dist1, euclid, vsub. cbn [fst snd]. rewrite Rmax_comm. do 2 f_equal. ring. Qed.
Lemma dist1_pos p q : (0 < dist1 p q)%R.
Proof. unfold dist1. pose proof (Rmax_l 1 (euclid p q)). lra. Qed.

Section force.
Variable o : order.
Hypothesis Ho : iter_ok o.
Variable V : nset.
Variable w : window.
Variable nbr : node → nset.
Hypothesis Hnbr : ∀ v, v ∈ V → nbr v ⊆ V.
Variable k : R.

Lemma get_pos_ok (pos : layout) v : v ∈ dom pos → get_pos pos v = Ok (at_ pos v).
Proof. intros [p Hp]%elem_of_dom. unfold get_pos, at_. by rewrite Hp. Qed.

Lemma repulsive_ok pos : dom pos = V → returns (repulsive_forces o V k pos) (λ rep, dom rep = V ∧ ∀ v, v ∈ V → rep !! v = Some
  (rsum (λ u, k ^ 2 / dist1 (at_ pos v) (at_ pos u) * (((at_ pos v).1 - (at_ pos u).1) / dist1 (at_ pos v) (at_ pos u))) (elements (V ∖ {[v]})),
   rsum (λ u, k ^ 2 / dist1 (at_ pos v) (at_ pos u) * (((at_ pos v).2 - (at_ pos u).2) / dist1 (at_ pos v) (at_ pos u))) (elements (V ∖ {[v]})))%R).
Proof.
  intros Hd. unfold repulsive_forces.
  eapply returns_mono; [apply (for_assign _ _ Datatypes.id (λ v,
   (rsum (λ u, k ^ 2 / dist1 (at_ pos v) (at_ pos u) * (((at_ pos v).1 - (at_ pos u).1) / dist1 (at_ pos v) (at_ pos u))) (elements (V ∖ {[v]})),
    rsum (λ u, k ^ 2 / dist1 (at_ pos v) (at_ pos u) * (((at_ pos v).2 - (at_ pos u).2) / dist1 (at_ pos v) (at_ pos u))) (elements (V ∖ {[v]})))%R) (λ q, dom q ⊆ V))|].
  - rewrite list_fmap_id, (Ho 64 V). apply NoDup_elements.
  - rewrite dom_empty_L. set_solver.
  - intros v q Hv Hq _. rewrite (Ho 64 V), elem_of_elements in Hv.
    rewrite (for_vsum _ _ (λ u, (k ^ 2 / dist1 (at_ pos v) (at_ pos u) * (((at_ pos v).1 - (at_ pos u).1) / dist1 (at_ pos v) (at_ pos u)),
      k ^ 2 / dist1 (at_ pos v) (at_ pos u) * (((at_ pos v).2 - (at_ pos u).2) / dist1 (at_ pos v) (at_ pos u)))%R)).
    + cbn [mbind res_bind fst snd Datatypes.id]. rewrite !Rplus_0_l, !(rsum_permutation _ _ _ (Ho 66 (V ∖ {[v]}))). split; [done|]. rewrite dom_insert_L. set_solver.
    + intros u s Hu. rewrite (Ho 66 _), elem_of_elements in Hu. rewrite !get_pos_ok by (rewrite Hd; set_solver). cbn [mbind res_bind].
      rewrite fdist_dist. unfold vadd, vscale, repulsion, vsub. cbn [fst snd]. replace (k * k)%R with (k ^ 2)%R by ring. done.
  - cbn beta. intros q (Hq & Hv & _). assert (∀ v, v ∈ V → v ∈ o 64 V) as Hin by (intros v Hv'; by rewrite (Ho 64 V), elem_of_elements).
    split; [|intros v Hv'; by apply (Hv v), Hin]. apply leibniz_equiv. intros v. split; [apply Hq|]. intros Hv'. apply elem_of_dom. specialize (Hv v (Hin v Hv')). by eexists.
Qed.
Lemma attracting_ok pos : dom pos = V → returns (attracting_forces o V nbr k pos) (λ att, dom att = V ∧ ∀ v, v ∈ V → att !! v = Some
  (rsum (λ u, dist1 (at_ pos v) (at_ pos u) ^ 2 / k * (((at_ pos u).1 - (at_ pos v).1) / dist1 (at_ pos v) (at_ pos u))) (elements (nbr v)),
   rsum (λ u, dist1 (at_ pos v) (at_ pos u) ^ 2 / k * (((at_ pos u).2 - (at_ pos v).2) / dist1 (at_ pos v) (at_ pos u))) (elements (nbr v)))%R).
Proof.
  intros Hd. unfold attracting_forces.
  eapply returns_mono; [apply (for_assign _ _ Datatypes.id (λ v,
   (rsum (λ u, dist1 (at_ pos v) (at_ pos u) ^ 2 / k * (((at_ pos u).1 - (at_ pos v).1) / dist1 (at_ pos v) (at_ pos u))) (elements (nbr v)),
    rsum (λ u, dist1 (at_ pos v) (at_ pos u) ^ 2 / k * (((at_ pos u).2 - (at_ pos v).2) / dist1 (at_ pos v) (at_ pos u))) (elements (nbr v)))%R) (λ q, dom q ⊆ V))|].
  - rewrite list_fmap_id, (Ho 75 V). apply NoDup_elements.
  - rewrite dom_empty_L. set_solver.
  - intros v q Hv Hq _. rewrite (Ho 75 V), elem_of_elements in Hv.
    rewrite (for_vsum _ _ (λ u, (dist1 (at_ pos v) (at_ pos u) ^ 2 / k * (((at_ pos u).1 - (at_ pos v).1) / dist1 (at_ pos v) (at_ pos u)),
      dist1 (at_ pos v) (at_ pos u) ^ 2 / k * (((at_ pos u).2 - (at_ pos v).2) / dist1 (at_ pos v) (at_ pos u)))%R)).
    + cbn [mbind res_bind fst snd Datatypes.id]. rewrite !Rplus_0_l, !(rsum_permutation _ _ _ (Ho 76 (nbr v))). split; [done|]. rewrite dom_insert_L. set_solver.
    + intros u s Hu. rewrite (Ho 76 _), elem_of_elements in Hu. apply (Hnbr v Hv) in Hu. rewrite !get_pos_ok by (by rewrite Hd). cbn [mbind res_bind].
      rewrite fdist_dist. unfold vsub, vscale, attraction. cbn [fst snd]. unfold Rdiv. do 2 f_equal; ring.
  - cbn beta. intros q (Hq & Hv & _). assert (∀ v, v ∈ V → v ∈ o 75 V) as Hin by (intros v Hv'; by rewrite (Ho 75 V), elem_of_elements).
    split; [|intros v Hv'; by apply (Hv v), Hin]. apply leibniz_equiv. intros v. split; [apply Hq|]. intros Hv'. apply elem_of_dom. specialize (Hv v (Hin v Hv')). by eexists.
Qed.

(** ** One iteration *)
Definition norm (p : R * R) : R := euclid p nowhere.
Definition target (i : nat) (p F : R * R) : R * R :=
  (p.1 + Rmin (norm F) (k / INR (i + 1)) * (F.1 / norm F), p.2 + Rmin (norm F) (k / INR (i + 1)) * (F.2 / norm F))%R.
Definition next_pos (i : nat) (pos : layout) (v : node) : R * R :=
  let F := net_force V nbr k pos v in
  if Req_EM_T (norm F) 0 then (w_left w, w_top w) else clamp w (target i (at_ pos v) F).

Lemma py_min_ok a b : py_min a b = Rmin a b.
Proof. unfold py_min, Rmin. destruct (Rlt_dec b a), (Rle_dec a b); lra. Qed.
Lemma py_max_ok a b : py_max a (Some b) = Rmax a b.
Proof. unfold py_max, Rmax. destruct (Rlt_dec a b), (Rle_dec a b); lra. Qed.

Lemma force_step_ok i pos : proper_window w → dom pos = V → returns (force_step o V w nbr k i pos) (λ q, dom q = V ∧ ∀ v, v ∈ V → q !! v = Some (next_pos i pos v)).
Proof.
  intros [W1 W2] Hd. unfold force_step.
  eapply returns_bind; [by apply repulsive_ok|]. cbn beta. intros rep [Hr Hrep].
  eapply returns_bind; [by apply attracting_ok|]. cbn beta. intros att [Ha Hatt].
  eapply returns_mono; [apply (for_assign _ _ Datatypes.id (next_pos i pos) (λ q, dom q = V))|].
  - rewrite list_fmap_id, (Ho 96 V). apply NoDup_elements.
  - done.
  - intros v q Hv Hq Hvq. cbn [Datatypes.id] in *. rewrite (Ho 96 V), elem_of_elements in Hv. split; [|rewrite dom_insert_L; set_solver].
    assert (is_Some (pos !! v)) as [p Hp] by (apply elem_of_dom; by rewrite Hd).
    unfold get_pos at 1 2 3. rewrite (Hrep v Hv), (Hatt v Hv), Hvq, Hp. cbn [mbind res_bind]. unfold set_pos. rewrite Hvq, Hp. do 2 f_equal.
    assert (at_ pos v = p) as Ep by (unfold at_; by rewrite Hp).
    change (vadd _ _) with (net_force V nbr k pos v). unfold next_pos. rewrite Ep. set (F := net_force V nbr k pos v).
    unfold moved. assert (R_sqrt.sqrt (F.1 * F.1 + F.2 * F.2) = norm F) as EN.
    { unfold norm, euclid, nowhere. cbn [fst snd]. f_equal. ring. }
    rewrite EN. destruct (Req_EM_T (norm F) 0) as [E0|E0].
    + cbn [fmap option_fmap option_map py_max]. rewrite !py_min_ok. unfold Rmin. destruct (Rle_dec _ _), (Rle_dec _ _); try lra. done.
    + cbn [fmap option_fmap option_map]. rewrite !py_max_ok, !py_min_ok. unfold clamp, target, vadd, vscale. cbn [fst snd]. done.
  - cbn beta. intros q (Hq & Hv & _). split; [done|]. intros v Hv'. apply (Hv v). by rewrite (Ho 96 V), elem_of_elements.
Qed.
End force.

Lemma force_step_det o o' V w nbr k i pos : iter_ok o → iter_ok o' → (∀ v, v ∈ V → nbr v ⊆ V) → proper_window w → dom pos = V →
  force_step o V w nbr k i pos = force_step o' V w nbr k i pos.
Proof.
  intros Ho Ho' Hn Hw Hd. pose proof (force_step_ok o Ho V w nbr Hn k i pos Hw Hd) as H1. pose proof (force_step_ok o' Ho' V w nbr Hn k i pos Hw Hd) as H2.
  apply returns_ok in H1 as (q & -> & D1 & H1), H2 as (q' & -> & D2 & H2). f_equal. apply map_eq. intros v. destruct (decide (v ∈ V)) as [Hv|Hv]; [by rewrite H1, H2|].
  assert (q !! v = None) as -> by (apply not_elem_of_dom; by rewrite D1). symmetry. apply not_elem_of_dom. by rewrite D2.
Qed.
Theorem force_layout_det o o' V w nbr k n pos : iter_ok o → iter_ok o' → (∀ v, v ∈ V → nbr v ⊆ V) → proper_window w → dom pos = V →
  force_layout o V w nbr k n pos = force_layout o' V w nbr k n pos.
Proof.
  intros Ho Ho' Hn Hw Hd. unfold force_layout. revert pos Hd. induction (seq 0 n) as [|i l IH]; intros pos Hd; [done|]. cbn [for_].
  rewrite (force_step_det o o') by done. pose proof (force_step_ok o' Ho' V w nbr Hn k i pos Hw Hd) as H. apply returns_ok in H as (q & -> & D & _). cbn [mbind res_bind]. by apply IH.
Qed.

Lemma clamp_in w p : proper_window w → in_window w (clamp w p).
Proof. intros [H1 H2]. unfold clamp, in_window, Rmin, Rmax. cbn [fst snd]. repeat destruct (Rle_dec _ _); lra. Qed.
Lemma next_in V w nbr k i pos v : proper_window w → in_window w (next_pos V w nbr k i pos v).
Proof. intros Hw. unfold next_pos. destruct (Req_EM_T _ _); [|by apply clamp_in]. destruct Hw. unfold in_window. cbn [fst snd]. lra. Qed.

Theorem force_layout_window o V w nbr k n pos : iter_ok o → (∀ v, v ∈ V → nbr v ⊆ V) → proper_window w → dom pos = V →
  returns (force_layout o V w nbr k n pos) (λ q, dom q = V ∧ (0 < n → ∀ v p, q !! v = Some p → in_window w p)).
Proof.
  intros Ho Hn Hw Hd. unfold force_layout.
  eapply returns_mono; [apply (for_returns_pre _ _ _ (λ pre q, dom q = V ∧ (pre ≠ [] → ∀ v p, q !! v = Some p → in_window w p)))|].
  - done.
  - intros pre i post q _ [Hq _]. eapply returns_mono; [by apply force_step_ok|]. cbn beta. intros q' [Hq' Hv]. split; [done|]. intros _ v p Hp.
    assert (v ∈ V) as Hin by (rewrite <-Hq'; apply elem_of_dom; by eexists). rewrite (Hv v Hin) in Hp. injection Hp as <-. by apply next_in.
  - cbn beta. intros q [Hq Hv]. split; [done|]. intros Hn0. apply Hv. destruct n; [lia|done].
Qed.

(** a point of the window moves by at most k / (i + 1), unless there is no force on it *)
Lemma clamp_near lo hi a b : (lo <= a <= hi → (Rmin hi (Rmax lo b) - a) ^ 2 <= (b - a) ^ 2)%R.
Proof. intros H. unfold Rmin, Rmax. repeat destruct (Rle_dec _ _); nra. Qed.
Lemma norm_nonneg p : (0 <= norm p)%R.
Proof. apply sqrt_pos. Qed.
Lemma next_near V w nbr k i pos v : proper_window w → (0 <= k)%R → in_window w (at_ pos v) → net_force V nbr k pos v ≠ nowhere →
  (euclid (next_pos V w nbr k i pos v) (at_ pos v) <= k / INR (i + 1))%R.
Proof.
  intros Hw Hk [Hx Hy] HF. unfold next_pos. set (F := net_force V nbr k pos v) in *. set (p := at_ pos v) in *.
  assert (norm F ^ 2 = F.1 ^ 2 + F.2 ^ 2)%R as N2.
  { unfold norm, euclid, nowhere. cbn [fst snd]. rewrite <-Rsqr_pow2, Rsqr_sqrt; [ring|]. nra. }
  assert (0 < norm F)%R as N0.
  { pose proof (norm_nonneg F) as Hp. destruct (Req_EM_T (norm F) 0) as [E|E]; [|lra]. exfalso. apply HF. rewrite E in N2. destruct F as [x y]. cbn [fst snd] in *. unfold nowhere. f_equal; nra. }
  destruct (Req_EM_T (norm F) 0) as [E|E]; [lra|]. clear E.
  assert (0 < INR (i + 1))%R as Hi by (apply lt_0_INR; lia).
  assert (0 <= k / INR (i + 1))%R as Hmd by (apply Rmult_le_pos; [done|]; by apply Rlt_le, Rinv_0_lt_compat).
  set (md := (k / INR (i + 1))%R) in *. unfold clamp, target. fold md. cbn [fst snd].
  set (s := Rmin (norm F) md). assert (0 <= s <= md)%R as Hs by (unfold s; split; [apply Rmin_glb; lra|apply Rmin_r]).
  unfold euclid. rewrite <-(sqrt_pow2 md) by done. apply sqrt_le_1_alt. cbn [fst snd].
  pose proof (clamp_near (w_left w) (w_right w) p.1 (p.1 + s * (F.1 / norm F)) Hx) as Cx.
  pose proof (clamp_near (w_top w) (w_bottom w) p.2 (p.2 + s * (F.2 / norm F)) Hy) as Cy.
  assert ((p.1 + s * (F.1 / norm F) - p.1) ^ 2 + (p.2 + s * (F.2 / norm F) - p.2) ^ 2 = s ^ 2)%R as Es.
  { replace ((p.1 + s * (F.1 / norm F) - p.1) ^ 2 + (p.2 + s * (F.2 / norm F) - p.2) ^ 2)%R with (s ^ 2 * ((F.1 ^ 2 + F.2 ^ 2) / norm F ^ 2))%R by (field; lra).
    rewrite <-N2. field. lra. }
  nra.
Qed.
