(** Properties C114 and C115: the partial correlation test, and the learners that use it, on data of a linear structural equation model:
    every variable is a linear function of its parents in a DAG plus noise, and the noise columns are uncorrelated in the n records. *)
From Coq Require Import QArith Qreals Reals Lra.
From Verif Require Import Base BaseLemmas ModelGraph Spec Paths ProofGraph ProofGraph2 ProofGraph3 ProofDsep ModelMixed SpecMixed ModelPC SpecPC ProofPDAG ProofPDAG2 ProofPDAG3 ProofMixed ProofMixed2 ProofPC
  PropMeek ModelPAG SpecPAG ModelPDS ModelFCI SpecFCI ModelOICD SpecOICD SpecLatent ProofLatent PropFCI PropLatent ModelCI SpecCI ProofCI ProofCI2 ModelCMI ProofCMI ModelParCorr SpecParCorr ProofParCorr SpecMarkov ProofMarkov2 PropMarkov SpecLinear ProofLinear.
Local Open Scope nat_scope.

(** ** C114 *)
(** d-separated variables have partial correlation 0 *)
Theorem C114_markov : ∀ d w data n x y zz r, wf_graph d → acyclic d → linear_model d w data n →
  x ∈ gnodes d → y ∈ gnodes d → x ≠ y → (∀ z, z ∈ zz → z ∈ gnodes d ∧ z ≠ x ∧ z ≠ y) → d_separated d x y zz →
  partial_correlation data n x y zz r → r = 0%R.
Proof. intros d w data n x y zz r Hwf Hac HM. by apply (linear_partial d Hwf Hac w data n HM). Qed.
Print Assumptions C114_markov.

(** when every variable has noise of its own, no variable is constant and no correlation matrix is singular, so every query is answered *)
Theorem C114_regular : ∀ d w data n idx, wf_graph d → acyclic d → linear_model d w data n → noisy d w data n →
  NoDup idx → (∀ a, a ∈ idx → a ∈ gnodes d) → idx ≠ [] → nonsingular (corrcoef data n) idx ∧ ∀ a, a ∈ idx → not_constant data n a.
Proof. intros d w data n idx Hwf Hac HM HN. by apply (noisy_regular d Hwf Hac w data n HM HN). Qed.
Print Assumptions C114_regular.

(** then the p-value of d-separated variables is the largest possible one, which is 1 for the normal distribution, and they are declared independent *)
Theorem C114_test : ∀ d w data n inv (cdf : R → R) x y zz, wf_graph d → acyclic d → linear_model d w data n → noisy d w data n →
  inverts_all data n inv (gnodes d) →
  x ∈ gnodes d → y ∈ gnodes d → x ≠ y → NoDup zz → (∀ z, z ∈ zz → z ∈ gnodes d ∧ z ≠ x ∧ z ≠ y) → d_separated d x y zz →
  partial_correlation data n x y zz 0%R ∧ pc_statistic (corrcoef data n) inv cdf n x y zz = Ok (Fin (2 * (1 - cdf 0%R))%R) ∧
  ∀ th, (th < 2 * (1 - cdf 0))%R → pc_cond_indep (corrcoef data n) inv cdf n th x y zz = Ok true.
Proof.
  intros d w data n inv cdf x y zz Hwf Hac HM HN Hinv Hx Hy Hne Hnd Hz Hs.
  destruct (linear_zero d Hwf Hac w data n HM HN inv cdf (gnodes d) ltac:(done) Hinv x y zz) as [H1 H2]; [unfold qnodes; auto|done|].
  split_and!; [done..|]. intros th Hth. unfold pc_cond_indep. rewrite H2. cbn [mbind res_bind ngt]. by destruct (Rlt_dec _ _).
Qed.
Print Assumptions C114_test.

(** ** C115 *)
Theorem C115_pc : ∀ o d w data n nv inv (cdf : R → R) th ow fuel, iter_ok o → wf_graph d → acyclic d → (∀ v, v ∈ gnodes d ↔ v < nv) →
  linear_model d w data n → noisy d w data n → inverts_all data n inv (gnodes d) →
  (th < 2 * (1 - cdf 0))%R → significant cdf th d (gnodes d) data n → size (gnodes d) * size (gnodes d) + 1 < fuel →
  ∃ s, pc_learn o (parcorr_test data n nv inv cdf th) ow fuel (gnodes d) = Ok s ∧ essential_graph d (pc_graph s).
Proof.
  intros o d w data n nv inv cdf th ow fuel Ho Hwf Hac Hn HM HN Hinv Hth HF Hf.
  assert (∀ i, i ∈ [1;2;3] ↔ 1 ≤ i ≤ 3) as Hr by (intros i; set_unfold; lia).
  destruct (pc_perfect_cpdag o o (parcorr_test data n nv inv cdf th) d (mempty (gnodes d)) [1;2;3] ow fuel fuel Ho Ho Hwf Hac) as (s & g & Es & Eg & Hn' & Hs); [done..| |].
  { intros log i j c Hlog. assert (∀ i' j' c' b', (i', j', c', b') ∈ (i, j, c, true) :: log → qvalid nv (i', j', c')) as Hq.
    { intros i' j' c' b' Hin. by apply (qvalid_qnodes d nv Hn), (Hlog i' j' c' b'). }
    apply (cached_decides d Hwf Hac w data n nv HM Hn HN inv cdf Hinv th Hth HF); [apply (Hq i j c true); left|].
    intros [[[i' j'] c'] b'] Hin. apply (Hq i' j' c' b'). by right. }
  exists s. split; [done|].
  destruct (C92_cpdag_is_essential o d (mempty (gnodes d)) [1;2;3] fuel) as (g' & Eg' & N & D & U); [done..|]. rewrite Eg in Eg'. injection Eg' as <-.
  split_and!; [congruence|..].
  - intros a b. by rewrite <-D, (proj1 (Hs a b)).
  - intros a b. by rewrite <-U, (proj2 (Hs a b)).
Qed.
Print Assumptions C115_pc.

(** FCI and ICD, when only the variables of V are given to the learner: no edge between inseparable nodes is lost, and if no other
    edge is left then everything the graph says is true of the model *)
Theorem C115_fci : ∀ o d w data n inv (cdf : R → R) th V sb fuel, iter_ok o → wf_graph d → acyclic d → V ⊆ gnodes d →
  linear_model d w data n → noisy d w data n → inverts_all data n inv V →
  (th < 2 * (1 - cdf 0))%R → significant cdf th d V data n → size V * size V + size V + 2 < fuel →
  returns (fci_learn o (parcorr_test_plain data n inv cdf th) sb false fuel V) (λ r,
    (∀ a b, a ∈ V → b ∈ V → a ≠ b → inseparable d V a b → mg_adj (ls_graph r.1) a b) ∧
    ((∀ a b, mg_adj (ls_graph r.1) a b → inseparable d V a b) → sound_for_dag d V (ls_graph r.1))).
Proof.
  intros o d w data n inv cdf th V sb fuel Ho Hwf Hac HV HM HN Hinv Hth HF Hf. pose proof (mag_exists d V Hwf Hac HV) as M. pose proof (mo_nodes _ _ _ M) as N.
  assert (size (mnodes (mag d V)) * size (mnodes (mag d V)) + size (mnodes (mag d V)) + 2 < fuel) as Hf2 by by rewrite N.
  pose proof (C70_fci_partial o Ho _ (mag d V) (mag_ancestral d Hwf Hac V _ M) (plain_perfect d Hwf Hac w data n HM HN inv cdf V HV Hinv th Hth HF _ M) sb fuel Hf2) as H.
  pose proof (C43_fci o (parcorr_test_plain data n inv cdf th) V sb false fuel Ho Hf) as H0.
  rewrite N in H. eapply returns_mono; [exact (returns_and _ _ _ H H0)|]. cbn beta. intros r [[H1 Hs] J]. split; [intros a b Ha Hb Hne Hi; apply H1, (mag_adj d Hwf V _ M); by split_and!|]. intros Hi. apply (sound_mag_dag d V (mag d V)); [done..|]. apply Hs.
  intros a b Hab. pose proof Hab as [k Hk]. apply (mgw_in _ (ju_wf _ _ _ _ _ J)) in Hk as (H3 & H4 & H5). rewrite (ju_nodes _ _ _ _ _ J) in *.
  apply (mag_adj d Hwf V _ M). split_and!; [done..|]. by apply Hi.
Qed.
Print Assumptions C115_fci.

Theorem C115_icd : ∀ o d w data n inv (cdf : R → R) th V sb fuel precalc, iter_ok o → wf_graph d → acyclic d → V ⊆ gnodes d →
  linear_model d w data n → noisy d w data n → inverts_all data n inv V →
  (th < 2 * (1 - cdf 0))%R → significant cdf th d V data n → size V * size V + size V + 2 < fuel →
  returns (icd_learn o (parcorr_test_plain data n inv cdf th) sb false fuel precalc (icd_init o V)) (λ t,
    (∀ a b, a ∈ V → b ∈ V → a ≠ b → inseparable d V a b → mg_adj (ls_graph (ic_ls t)) a b) ∧
    ((∀ a b, mg_adj (ls_graph (ic_ls t)) a b → inseparable d V a b) → sound_for_dag d V (ls_graph (ic_ls t)))).
Proof.
  intros o d w data n inv cdf th V sb fuel precalc Ho Hwf Hac HV HM HN Hinv Hth HF Hf. pose proof (mag_exists d V Hwf Hac HV) as M. pose proof (mo_nodes _ _ _ M) as N.
  assert (size (mnodes (mag d V)) * size (mnodes (mag d V)) + size (mnodes (mag d V)) + 2 < fuel) as Hf2 by by rewrite N.
  pose proof (C70_icd_partial o Ho _ (mag d V) (mag_ancestral d Hwf Hac V _ M) (plain_perfect d Hwf Hac w data n HM HN inv cdf V HV Hinv th Hth HF _ M) sb fuel precalc Hf2) as H.
  pose proof (C43_icd o (parcorr_test_plain data n inv cdf th) V sb false fuel precalc Ho Hf) as H0.
  rewrite N in H. eapply returns_mono; [exact (returns_and _ _ _ H H0)|]. cbn beta. intros t [[H1 Hs] [J _]]. split; [intros a b Ha Hb Hne Hi; apply H1, (mag_adj d Hwf V _ M); by split_and!|]. intros Hi. apply (sound_mag_dag d V (mag d V)); [done..|]. apply Hs.
  intros a b Hab. pose proof Hab as [k Hk]. apply (mgw_in _ (ju_wf _ _ _ _ _ J)) in Hk as (H3 & H4 & H5). rewrite (ju_nodes _ _ _ _ _ J) in *.
  apply (mag_adj d Hwf V _ M). split_and!; [done..|]. by apply Hi.
Qed.
Print Assumptions C115_icd.

(** eight records of four variables, built from the orthogonal columns h1, ..., h4 with entries 1 and -1:
    X0 = h1, X1 = h2, X2 = 2 X0 + 2 X1 + h3, X3 = 4 X2 + 5 h4 *)
Definition d4 : graph := mk_graph [0; 1; 2; 3] [(0, 2); (1, 2); (2, 3)].
Definition h1 : list Z := [1; -1; 1; -1; 1; -1; 1; -1]%Z.
Definition h2 : list Z := [1; 1; -1; -1; 1; 1; -1; -1]%Z.
Definition h3 : list Z := [1; -1; -1; 1; 1; -1; -1; 1]%Z.
Definition h4 : list Z := [1; 1; 1; 1; -1; -1; -1; -1]%Z.
Definition ex_noise (v t : nat) : Z := match v with 0 => h1 !!! t | 1 => h2 !!! t | 2 => h3 !!! t | _ => (5 * h4 !!! t)%Z end.
Definition ex_col (v t : nat) : Z :=
  match v with 0 => h1 !!! t | 1 => h2 !!! t | 2 => (2 * h1 !!! t + 2 * h2 !!! t + h3 !!! t)%Z | _ => (4 * (2 * h1 !!! t + 2 * h2 !!! t + h3 !!! t) + 5 * h4 !!! t)%Z end.
Definition ex_data (t v : nat) : R := IZR (ex_col v t).
Definition ex_w (v p : nat) : R := match v with 3 => 4%R | _ => 2%R end.

Definition zdot (f g : nat → Z) : Z := foldr (λ t s, (f t * g t + s)%Z) 0%Z (seq 0 8).
Lemma zdot_ok f g : vdot 8 (λ t, IZR (f t)) (λ t, IZR (g t)) = IZR (zdot f g).
Proof.
  unfold vdot, zdot. induction (seq 0 8) as [|t l IH]; [done|]. rewrite rsum_cons, IH. cbn [foldr]. by rewrite plus_IZR, mult_IZR.
Qed.
Lemma ex_dev v t : dev ex_data 8 v t = IZR (ex_col v t).
Proof.
  unfold dev. assert (rsum (λ t, ex_data t v) (seq 0 8) = 0%R) as ->; [|unfold ex_data; lra].
  assert (∀ l, rsum (λ t, ex_data t v) l = IZR (foldr (λ t s, (ex_col v t + s)%Z) 0%Z l)) as ->.
  { intros l. induction l as [|t' l IH]; [done|]. rewrite rsum_cons, IH. cbn [foldr]. by rewrite plus_IZR. }
  f_equal. destruct v as [|[|[|v]]]; vm_compute; reflexivity.
Qed.
Lemma d4_parents v : v < 4 → elements (gadj d4 v) = match v with 2 => [0; 1] | 3 => [2] | _ => [] end ∨ elements (gadj d4 v) = match v with 2 => [1; 0] | 3 => [2] | _ => [] end.
Proof. intros Hv. destruct v as [|[|[|[|v]]]]; [..|lia]; first [left; vm_compute; reflexivity|right; vm_compute; reflexivity]. Qed.
Lemma dC_parents v : v < 3 → elements (gadj dC v) = match v with 2 => [0; 1] | _ => [] end ∨ elements (gadj dC v) = match v with 2 => [1; 0] | _ => [] end.
Proof. intros Hv. destruct v as [|[|[|v]]]; [..|lia]; first [left; vm_compute; reflexivity|right; vm_compute; reflexivity]. Qed.
Lemma d4_noise v t : v < 4 → noise d4 ex_w ex_data 8 v t = IZR (ex_noise v t).
Proof.
  intros Hv. unfold noise. destruct (d4_parents v Hv) as [-> | ->]; destruct v as [|[|[|[|v]]]]; try lia; cbn [rsum fmap list_fmap foldr]; unfold rsum; cbn [fmap list_fmap foldr]; rewrite ?ex_dev; cbn [ex_w ex_col ex_noise]; rewrite ?plus_IZR, ?mult_IZR, ?plus_IZR, ?mult_IZR; try lra.
Qed.
Lemma dC_noise v t : v < 3 → noise dC ex_w ex_data 8 v t = IZR (ex_noise v t).
Proof.
  intros Hv. unfold noise. destruct (dC_parents v Hv) as [-> | ->]; destruct v as [|[|[|v]]]; try lia; unfold rsum; cbn [fmap list_fmap foldr]; rewrite ?ex_dev; cbn [ex_w ex_col ex_noise]; rewrite ?plus_IZR, ?mult_IZR, ?plus_IZR, ?mult_IZR; try lra.
Qed.
Lemma d4_nodes v : v ∈ gnodes d4 ↔ v < 4.
Proof. cbn. set_unfold. lia. Qed.
Lemma dC_nodes v : v ∈ gnodes dC ↔ v < 3.
Proof. cbn. set_unfold. lia. Qed.
Lemma noise_dots u v : u < 4 → v < 4 → vdot 8 (λ t, IZR (ex_noise u t)) (λ t, IZR (ex_noise v t)) = IZR (if decide (u = v) then (if decide (u = 3) then 200 else 8) else 0).
Proof. intros Hu Hv. rewrite zdot_ok. f_equal. destruct u as [|[|[|[|]]]], v as [|[|[|[|]]]]; try lia; vm_compute; reflexivity. Qed.
Lemma d4_linear : linear_model d4 ex_w ex_data 8 ∧ noisy d4 ex_w ex_data 8.
Proof.
  split.
  - intros u v Hu%d4_nodes Hv%d4_nodes Huv. rewrite (dot_ext 8 _ (λ t, IZR (ex_noise u t)) _ (λ t, IZR (ex_noise v t))) by (intros; by apply d4_noise).
    rewrite noise_dots by done. by rewrite decide_False.
  - intros v Hv%d4_nodes. rewrite (dot_ext 8 _ (λ t, IZR (ex_noise v t)) _ (λ t, IZR (ex_noise v t))) by (intros; by apply d4_noise).
    rewrite noise_dots by done. rewrite decide_True by done. case_decide; lra.
Qed.
Lemma dC_linear : linear_model dC ex_w ex_data 8 ∧ noisy dC ex_w ex_data 8.
Proof.
  split.
  - intros u v Hu%dC_nodes Hv%dC_nodes Huv. rewrite (dot_ext 8 _ (λ t, IZR (ex_noise u t)) _ (λ t, IZR (ex_noise v t))) by (intros; by apply dC_noise).
    rewrite noise_dots by lia. by rewrite decide_False.
  - intros v Hv%dC_nodes. rewrite (dot_ext 8 _ (λ t, IZR (ex_noise v t)) _ (λ t, IZR (ex_noise v t))) by (intros; by apply dC_noise).
    rewrite noise_dots by lia. rewrite decide_True by done. case_decide; [lia|lra].
Qed.

(** the inverse of the correlation matrix *)
Definition ex_inverse (a b : nat) : R :=
  match a, b with
  | 0, 0 | 1, 1 => 5 | 0, 1 | 1, 0 => 4 | 0, 2 | 2, 0 | 1, 2 | 2, 1 => -6
  | 2, 2 => 369/25 | 2, 3 | 3, 2 => -156/25 | 3, 3 => 169/25 | _, _ => 0
  end%R.
Definition ex_inv (idx : list nat) : option (nat → nat → R) := Some (λ i j, ex_inverse (idx !!! i) (idx !!! j)).
Definition ex_corr (a b : nat) : R :=
  match a, b with
  | 0, 0 | 1, 1 | 2, 2 | 3, 3 => 1 | 0, 2 | 2, 0 | 1, 2 | 2, 1 => 2/3
  | 0, 3 | 3, 0 | 1, 3 | 3, 1 => 8/13 | 2, 3 | 3, 2 => 12/13 | _, _ => 0
  end%R.
Lemma ex_dots a b : a < 4 → b < 4 → vdot 8 (dev ex_data 8 a) (dev ex_data 8 b) = IZR (zdot (ex_col a) (ex_col b)).
Proof. intros Ha Hb. rewrite <-zdot_ok. apply dot_ext; intros; apply ex_dev. Qed.
Lemma ex_sd a : a < 4 → R_sqrt.sqrt (vdot 8 (dev ex_data 8 a) (dev ex_data 8 a)) = (match a with 2 => 3 | 3 => 13 | _ => 1 end * R_sqrt.sqrt 8)%R.
Proof.
  intros Ha. rewrite ex_dots by done. assert (0 <= R_sqrt.sqrt 8)%R as Hp by apply sqrt_pos. assert (R_sqrt.sqrt 8 * R_sqrt.sqrt 8 = 8)%R as E by (apply sqrt_sqrt; lra).
  destruct a as [|[|[|[|]]]]; try lia; match goal with |- context [IZR ?z] => let m := eval vm_compute in z in change z with m end; apply sqrt_lem_1; try lra;
    match goal with |- (?a * ?s * (?a * ?s) = _)%R => replace (a * s * (a * s))%R with (a * a * (s * s))%R by ring; rewrite E; lra end.
Qed.
Lemma ex_varying a : a < 4 → not_constant ex_data 8 a.
Proof.
  intros Ha. destruct d4_linear as [HM HN]. destruct (C114_regular d4 ex_w ex_data 8 [a]) as [_ H]; try done; [by apply mk_graph_wf; vm_compute|by apply mk_graph_acyclic; vm_compute|apply NoDup_singleton| |apply H; left].
  intros u ->%elem_of_list_singleton. by apply d4_nodes.
Qed.
Lemma ex_corrcoef a b : a < 4 → b < 4 → corrcoef ex_data 8 a b = ex_corr a b.
Proof.
  intros Ha Hb. rewrite corrcoef_cr; [|lia|by apply ex_varying..]. unfold cr. rewrite !ex_sd by done. rewrite ex_dots by done.
  assert (R_sqrt.sqrt 8 * R_sqrt.sqrt 8 = 8)%R as E by (apply sqrt_sqrt; lra).
  match goal with |- (_ / (?p * ?s * (?q * ?s)))%R = _ => replace (p * s * (q * s))%R with (p * q * (s * s))%R by ring end. rewrite E.
  destruct a as [|[|[|[|]]]], b as [|[|[|[|]]]]; try lia; match goal with |- context [IZR (zdot ?x ?y)] => let m := eval vm_compute in (zdot x y) in change (zdot x y) with m end; cbn [ex_corr]; lra.
Qed.
Lemma ex_inverts : inverts_all ex_data 8 ex_inv (gnodes d4).
Proof.
  intros idx Hnd Hin Hl.
  assert (idx ≡ₚ [0; 1; 2; 3]) as HP.
  { apply submseteq_Permutation_length_le; [cbn; lia|]. apply NoDup_submseteq; [done|]. intros a Ha%Hin%d4_nodes. set_unfold. lia. }
  unfold inverts, ex_inv. intros i j Hi Hj. set (a := idx !!! i). set (b := idx !!! j).
  assert (a < 4) as Ha by (apply d4_nodes, Hin, elem_of_list_lookup_total_2; lia). assert (b < 4) as Hb by (apply d4_nodes, Hin, elem_of_list_lookup_total_2; lia).
  assert (i = j ↔ a = b) as Hij.
  { split; [by unfold a, b; intros ->|]. intros E. apply (NoDup_lookup idx i j a Hnd); [by apply list_lookup_lookup_total_lt|]. rewrite E. by apply list_lookup_lookup_total_lt. }
  pose proof (rsum_seq_lookup (λ u, ex_inverse a u * corrcoef ex_data 8 u b)%R idx) as E. cbn beta in E. etransitivity; [exact E|]. rewrite (rsum_perm _ _ _ HP).
  unfold rsum. cbn [fmap list_fmap foldr]. rewrite !ex_corrcoef by (done || lia).
  rewrite (decide_ext _ _ 1%R 0%R Hij). clearbody a b. clear -Ha Hb.
  destruct a as [|[|[|[|]]]], b as [|[|[|[|]]]]; try lia; cbn [ex_inverse ex_corr]; case_decide; try lia; lra.
Qed.
Lemma sep_ok d x y zz : wf_graph d → acyclic d → x ∈ gnodes d → y ∈ gnodes d → x ≠ y → (∀ z, z ∈ zz → z ∈ gnodes d) → y ∉ zz → dsep ord_up (S (size (gnodes d))) d x y zz = Ok true → d_separated d x y zz.
Proof.
  intros Hwf Hac Hx Hy Hne Hz Hyz E. assert (returns (dsep ord_up (S (size (gnodes d))) d x y zz) (λ b, b = true ↔ d_separated d x y zz)) as H.
  { apply dsep_spec; try done; [apply ord_up_ok|lia]. }
  rewrite E in H. by apply H.
Qed.
Example C114_case : wf_graph d4 ∧ acyclic d4 ∧ linear_model d4 ex_w ex_data 8 ∧ noisy d4 ex_w ex_data 8 ∧ inverts_all ex_data 8 ex_inv (gnodes d4) ∧
  d_separated d4 0 3 [2; 1] ∧ partial_correlation ex_data 8 0 3 [2; 1] 0%R ∧ corrcoef ex_data 8 0 3 = (8 / 13)%R.
Proof.
  assert (wf_graph d4) as Hwf by by apply mk_graph_wf; vm_compute. assert (acyclic d4) as Hac by by apply mk_graph_acyclic; vm_compute.
  destruct d4_linear as [HM HN]. pose proof ex_inverts as HI.
  assert (d_separated d4 0 3 [2; 1]) as Hs.
  { apply sep_ok; [done|done|apply d4_nodes; lia|apply d4_nodes; lia|lia|intros z; rewrite d4_nodes; set_unfold; lia|set_unfold; lia|vm_compute; reflexivity]. }
  split_and!; try done; [|by rewrite ex_corrcoef by lia].
  apply (C114_test d4 ex_w ex_data 8 ex_inv (λ _, 0%R) 0 3 [2; 1]); [done|done|done|done|done|apply d4_nodes; lia|apply d4_nodes; lia|lia|repeat constructor; set_unfold; lia| |done].
  intros z; rewrite d4_nodes; set_unfold; lia.
Qed.

(** PC with the first three variables; cdf is a step function, so that every partial correlation other than 0 is significant *)
Definition ex_cdf (v : R) : R := if Rle_dec v 0 then (1/2)%R else 1%R.
Lemma ex_step k r : k ≤ 1 → (Rabs r < 1)%R → r ≠ 0%R → two_sided ex_cdf (R_sqrt.sqrt (INR (8 - k - 3)) * fisher_z r) = 0%R.
Proof.
  intros Hk Hr H0. unfold two_sided, ex_cdf. destruct (Rle_dec _ 0) as [H|H]; [|lra]. exfalso.
  rewrite Rabs_mult, fisher_abs in H by done.
  assert (0 < Rabs (R_sqrt.sqrt (INR (8 - k - 3))))%R as Hs.
  { apply Rabs_pos_lt. apply Rgt_not_eq, sqrt_lt_R0, lt_0_INR. lia. }
  assert (0 < fisher_z (Rabs r))%R as Hf; [|pose proof (Rmult_lt_0_compat _ _ Hs Hf); lra].
  apply Rabs_pos_lt in H0. unfold fisher_z. assert (0 < ln ((1 + Rabs r) / (1 - Rabs r)))%R; [|lra].
  rewrite <-ln_1. apply ln_increasing; [lra|]. apply (Rmult_lt_reg_r (1 - Rabs r)); [lra|]. unfold Rdiv. rewrite Rmult_assoc, Rinv_l by lra. lra.
Qed.
Lemma ex_nonzero x y zz r : qnodes (gnodes dC) x y zz → length zz ≤ 1 → ¬ (x = 0 ∧ y = 1 ∧ zz = []) → ¬ (x = 1 ∧ y = 0 ∧ zz = []) → partial_correlation ex_data 8 x y zz r → r ≠ 0%R.
Proof.
  intros (Hx & Hy & Hne & Hnd & Hz) Hl H1 H2 (e & f & He & Hf & Hee & Hff & ->) E0.
  assert (vdot 8 e f = 0%R) as E.
  { unfold cosine in E0. apply Rmult_integral in E0 as [?|E0]; [done|]. exfalso. revert E0. apply Rinv_neq_0_compat. apply Rmult_integral_contrapositive_currified; apply Rgt_not_eq, sqrt_lt_R0; done. }
  apply dC_nodes in Hx, Hy. destruct zz as [|z [|? ?]]; [| |cbn in Hl; lia].
  - rewrite (dot_ext 8 _ _ _ _ (empty_residual ex_data 8 x e He) (empty_residual ex_data 8 y f Hf)) in E.
    rewrite ex_dots in E by lia. apply eq_IZR in E. destruct x as [|[|[|]]], y as [|[|[|]]]; try lia; first [vm_compute in E; discriminate E|exfalso; naive_solver].
  - destruct (Hz z) as (Hz1%dC_nodes & Hz2 & Hz3); [left|].
    rewrite (single_dot ex_data 8 z (ex_varying z ltac:(lia)) x y e f He Hf) in E. rewrite !ex_dots in E by lia.
    destruct x as [|[|[|]]], y as [|[|[|]]], z as [|[|[|]]]; try lia;
      repeat match type of E with context [IZR (zdot ?x ?y)] => let m := eval vm_compute in (zdot x y) in change (zdot x y) with m in E end; lra.
Qed.
Lemma ex_significant : significant ex_cdf (1/20) dC (gnodes dC) ex_data 8.
Proof.
  assert (wf_graph dC) as Hwf by by apply mk_graph_wf; vm_compute. assert (acyclic dC) as Hac by by apply mk_graph_acyclic; vm_compute.
  destruct dC_linear as [HM HN]. intros x y zz r Hx Hy Hne Hnd Hz Hs Hr.
  assert (qnodes (gnodes dC) x y zz) as Hq by (unfold qnodes; auto).
  assert (length zz ≤ 1) as Hl.
  { destruct zz as [|z1 [|z2 zz]]; [cbn; lia..|]. exfalso. apply NoDup_cons in Hnd as [Hnd _].
    destruct (Hz z1) as (H1 & ? & ?); [set_solver +|]. destruct (Hz z2) as (H2 & ? & ?); [set_solver +|]. apply dC_nodes in Hx, Hy, H1, H2.
    assert (z1 ≠ z2) by set_solver +Hnd. lia. }
  assert (∀ u v, u < 3 → v < 3 → u ≠ v → dsep ord_up 4 dC u v [] = Ok true → d_separated dC u v []) as H01.
  { intros u v Hu Hv Huv E. apply sep_ok; try done; [by apply dC_nodes..|set_solver +|set_solver +]. }
  assert (inverts_all ex_data 8 ex_inv (gnodes dC)) as HI.
  { intros idx H1 H2 H3. exfalso. assert (length idx ≤ length [0;1;2]); [|cbn in *; lia]. apply submseteq_length, NoDup_submseteq; [done|]. intros a Ha%H2%dC_nodes. set_unfold. lia. }
  destruct (linear_statistic dC Hwf Hac ex_w ex_data 8 HM HN ex_inv ex_cdf (gnodes dC) ltac:(done) HI x y zz Hq) as (r' & Hr' & Hlt & _).
  rewrite (partial_unique _ _ _ _ _ _ _ Hr Hr'). rewrite ex_step; [lra|done|done|].
  apply (ex_nonzero x y zz); [done..| | |done]; intros (-> & -> & ->); apply Hs, H01; try lia; vm_compute; reflexivity.
Qed.
Example C115_case : linear_model dC ex_w ex_data 8 ∧ noisy dC ex_w ex_data 8 ∧ significant ex_cdf (1/20) dC (gnodes dC) ex_data 8 ∧
  ∃ s, pc_learn ord_up (parcorr_test ex_data 8 3 ex_inv ex_cdf (1/20)) false 20 (gnodes dC) = Ok s ∧ essential_graph dC (pc_graph s).
Proof.
  destruct dC_linear as [HM HN]. split_and!; [done|done|apply ex_significant|].
  apply (C115_pc ord_up dC ex_w ex_data 8 3 ex_inv ex_cdf (1/20) false 20); auto using ord_up_ok, ex_significant, dC_nodes.
  - by apply mk_graph_wf; vm_compute.
  - by apply mk_graph_acyclic; vm_compute.
  - intros idx H1 H2 H3. exfalso. assert (length idx ≤ length [0;1;2]); [|cbn in *; lia]. apply submseteq_length, NoDup_submseteq; [done|]. intros a Ha%H2%dC_nodes. set_unfold. lia.
  - unfold ex_cdf. destruct (Rle_dec 0 0); lra.
  - apply (bool_decide_unpack _); by vm_compute.
Qed.
