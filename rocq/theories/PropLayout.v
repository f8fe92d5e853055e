(** Properties C100-C102: the layouts of plot_utils (over exact real numbers).
    [V] is the set of nodes, [gs] the argument group_sort, [w] the window, [ux] and [uy] the random numbers of the initial
    positions, [nbr] the neighbours in the graph, [k] the constant of the forces. *)
From Coq Require Import Reals Lra.
From Verif Require Import Base BaseLemmas ModelCMI ModelLayout SpecLayout ProofLayout ProofLayout2 ProofLayout3 ProofCMI.
Local Open Scope nat_scope.

(** ** C100: circle *)
Theorem C100_circle : ∀ o V w gs ux uy, iter_ok o → proper_window w → group_sort_of V gs →
  returns (pos ← base_init o V w gs ux uy; circle_layout o V w gs pos) (λ q, dom q = V ∧
    (∀ v p, q !! v = Some p → in_window w p ∧ on_ellipse w p) ∧ distinct_positions q ∧
    ∃ l, l ≡ₚ elements V ∧ (∀ gl, gs = Some gl → l = concat gl) ∧
      ∀ i v, l !! i = Some v → q !! v = Some
        ((w_left w + w_right w) / 2 + (w_right w - w_left w) / 2 * cos (2 * PI * INR i / INR (size V)),
         (w_top w + w_bottom w) / 2 + (w_bottom w - w_top w) / 2 * sin (2 * PI * INR i / INR (size V)))%R).
Proof.
  intros o V w gs ux uy Ho Hw HG. eapply returns_mono; [by apply circle_layout_spec|]. cbn beta. intros q (H1 & H2 & H3 & H4).
  split; [done|]. split; [done|]. split; [done|]. exists (nodes_order o V gs 113). split; [by apply nodes_order_ok|]. split; [by intros gl ->|exact H4].
Qed.
Print Assumptions C100_circle.

(** groups that miss a node *)
Theorem C100_missing_nodes : ∀ o V w gl ux uy, length (concat gl) < size V → base_init o V w (Some gl) ux uy = Raise IndexError.
Proof.
  intros o V w gl ux uy H. unfold base_init, nodes_order. replace (size V) with (length (concat gl) + S (size V - S (length (concat gl)))) at 1 by lia.
  rewrite seq_app, for_app. cbn [Nat.add].
  assert (∀ n (s : layout), n ≤ length (concat gl) → returns (for_ (seq 0 n) (λ i pos, v ← list_get (concat gl) i;
    Ok (<[v := (linspace (w_left w) (w_right w) (size V) i, linspace (w_top w) (w_bottom w) (size V) i)]> pos)) s) (λ _, True)) as HR.
  { intros n s Hn. apply for_returns; [done|]. intros i q Hi _. apply elem_of_seq in Hi. unfold list_get.
    destruct (lookup_lt_is_Some_2 (concat gl) i) as [x ->]; [lia|]. done. }
  specialize (HR (length (concat gl)) ∅ (le_n _)). apply returns_ok in HR as (q & -> & _). cbn [mbind res_bind seq for_].
  unfold list_get. by rewrite lookup_ge_None_2 by lia.
Qed.
Print Assumptions C100_missing_nodes.

Example C100_case : proper_window (Window 0 4 0 2) ∧ group_sort_of (list_to_set [5; 6; 7; 8]) (Some [[6]; [8; 5]; []; [7]]) ∧
  ((0 + 4) / 2 + (4 - 0) / 2 * cos (2 * PI * INR 2 / INR 4) = 0)%R ∧ length (concat [[6]; [8; 5]; [];[7]]) < size (list_to_set [5; 6; 7; 8; 9] : nset).
Proof.
  split; [split; simpl; lra|]. split; [|split].
  - apply NoDup_Permutation; [apply (bool_decide_unpack _); by vm_compute|apply NoDup_elements|]. intros x. rewrite elem_of_elements, elem_of_list_to_set. cbn [concat app]. set_solver.
  - replace (2 * PI * INR 2 / INR 4)%R with PI by (simpl; field). rewrite cos_PI. lra.
  - apply (bool_decide_unpack _). by vm_compute.
Qed.

(** ** C101: columns; [placed gl i j v]: v is the j-th node of the i-th group.  The first group is at the left border, the last
    at the right border, the first node of a group at the bottom, and the longest group reaches the top *)
Theorem C101_columns_partial : ∀ o V w gl ux uy, iter_ok o → proper_window w → group_sort_of V (Some gl) → (∃ g, g ∈ gl ∧ 2 ≤ length g) →
  returns (pos ← base_init o V w (Some gl) ux uy; column_layout o V w (Some gl) pos) (λ q, dom q = V ∧ (∀ v p, q !! v = Some p → in_window w p) ∧ distinct_positions q ∧
    (∀ i j v i' j' v' p p', placed gl i j v → placed gl i' j' v' → q !! v = Some p → q !! v' = Some p' →
      (i < i' → (p.1 < p'.1)%R) ∧ (i = i' → p.1 = p'.1) ∧ (j < j' → (p'.2 < p.2)%R) ∧ (j = j' → p.2 = p'.2)) ∧
    (∀ i j v p, placed gl i j v → q !! v = Some p → (1 < length gl → (i = 0 → p.1 = w_left w) ∧ (S i = length gl → p.1 = w_right w)) ∧
      (j = 0 → p.2 = w_bottom w) ∧ ((∀ g, g ∈ gl → length g ≤ S j) → p.2 = w_top w))).
Proof.
  intros o V w gl ux uy Ho Hw HG (g & Hg & Hl). destruct (max_group_len_ok gl) as [M1 M2]. pose proof (M1 g Hg) as M3.
  eapply returns_mono; [apply (column_layout_positions o V w (Some gl) ux uy Ho Hw HG); cbn [groups]; clear -M3 Hl; lia|]. cbn beta. cbn [groups].
  intros q (H1 & H2 & H3 & H4 & H5). split; [done|]. split; [done|]. split; [done|]. split; [done|]. intros i j v p Hp Hq.
  destruct (H5 i j v p Hp Hq) as (A & B & C). split; [done|]. split; [done|]. intros Hmax. apply C. apply placed_bounds in Hp as [_ Hp].
  destruct M2 as [M2|(h & Hh & M2)]; [clear -M2 Hp; lia|]. pose proof (Hmax h Hh) as M4. rewrite M2 in M4. clear -Hp M4. lia.
Qed.
Print Assumptions C101_columns_partial.

(** without group_sort there is one column *)
Theorem C101_one_column_partial : ∀ o V w ux uy, iter_ok o → proper_window w → size V ≠ 1 →
  returns (pos ← base_init o V w None ux uy; column_layout o V w None pos) (λ q, dom q = V ∧
    (∀ v p, q !! v = Some p → in_window w p ∧ p.1 = (w_left w + w_right w) / 2)%R ∧ distinct_positions q).
Proof.
  intros o V w ux uy Ho Hw Hn. assert (length (o 135 V) = size V) as El by (by rewrite (Ho 135 V)).
  assert (max_group_len [o 135 V] = size V) as Em. { unfold max_group_len. cbn [foldl]. rewrite El. destruct (decide _); lia. }
  eapply returns_bind; [by apply (base_init_ok o Ho V w None)|]. cbn beta. intros pos Hd.
  pose proof (column_layout_positions o V w None ux uy Ho Hw I) as HP. cbn [groups] in HP. rewrite Em in HP. specialize (HP Hn).
  pose proof (base_init_ok o Ho V w None I ux uy) as Hb. apply returns_ok in Hb as (pos' & Eb & Hb). rewrite Eb in HP. cbn [mbind res_bind] in HP.
  pose proof (column_ok o Ho V w None I pos Hd) as H1. pose proof (column_ok o Ho V w None I pos' Hb) as H2. cbn [groups] in *. rewrite Em in *. specialize (H1 Hn). specialize (H2 Hn).
  apply returns_ok in HP as (q' & Eq' & D' & W' & Dist' & _). rewrite Eq' in H2. cbn [returns] in H2. destruct H2 as [_ H2].
  eapply returns_mono; [exact H1|]. cbn beta. intros q [Dq Hq].
  assert (∀ v, v ∈ V → ∃ j, placed [o 135 V] 0 j v) as Hpl.
  { intros v Hv. assert (v ∈ o 135 V) as Hin by (by rewrite (Ho 135 V), elem_of_elements). apply elem_of_list_lookup in Hin as [j Hj]. exists j, (o 135 V). done. }
  assert (∀ v, v ∈ V → q !! v = q' !! v) as Hqq. { intros v Hv. destruct (Hpl v Hv) as [j Hj]. by rewrite (Hq _ _ _ Hj), (H2 _ _ _ Hj). }
  assert (∀ v p, q !! v = Some p → v ∈ V) as Hdom by (intros v p Hp; rewrite <-Dq; apply elem_of_dom; by eexists).
  split; [done|]. split.
  - intros v p Hp. pose proof (Hdom v p Hp) as Hv. split; [apply (W' v); by rewrite <-Hqq|]. destruct (Hpl v Hv) as [j Hj]. rewrite (Hq _ _ _ Hj) in Hp. injection Hp as <-. done.
  - intros u v p Hu Hv. apply (Dist' u v p); [rewrite <-Hqq; [done|by eapply Hdom]..].
Qed.
Print Assumptions C101_one_column_partial.

(** the largest group has one node: these groupings, and only these, raise an exception *)
Theorem C101_single_nodes : ∀ o V w gl ux uy, iter_ok o → proper_window w → group_sort_of V (Some gl) →
  (∃ g, g ∈ gl ∧ length g ≠ 0) ∧ (∀ g, g ∈ gl → length g ≤ 1) ↔
  (pos ← base_init o V w (Some gl) ux uy; column_layout o V w (Some gl) pos) = Raise ZeroDivisionError.
Proof. intros o V w gl ux uy Ho Hw HG. exact (column_layout_spec o V w (Some gl) ux uy Ho Hw HG). Qed.
Print Assumptions C101_single_nodes.

Theorem C101_refuted : ∃ V gl, group_sort_of V (Some gl) ∧ ∀ o w ux uy, iter_ok o → proper_window w →
  (pos ← base_init o V w (Some gl) ux uy; column_layout o V w (Some gl) pos) = Raise ZeroDivisionError.
Proof.
  exists (list_to_set [1; 2; 3]), [[2]; [1]; [3]].
  assert (group_sort_of (list_to_set [1; 2; 3]) (Some [[2]; [1]; [3]])) as HG.
  { apply NoDup_Permutation; [apply (bool_decide_unpack _); by vm_compute|apply NoDup_elements|]. intros x. rewrite elem_of_elements, elem_of_list_to_set. cbn [concat app]. set_solver. }
  split; [done|]. intros o w ux uy Ho Hw. apply C101_single_nodes; [done..|]. split; [exists [2]; split; [set_solver|done]|].
  apply Forall_forall. apply (bool_decide_unpack _). by vm_compute.
Qed.
Print Assumptions C101_refuted.

Example C101_case : group_sort_of (list_to_set [1; 2; 3]) (Some [[2]; [1]; [3]]) ∧ (∀ g, g ∈ [[2]; [1]; [3]] → length g ≤ 1) ∧
  group_sort_of (list_to_set [1; 2; 3]) (Some [[2]; [3; 1]]) ∧ (∃ g, g ∈ [[2]; [3; 1]] ∧ 2 ≤ length g).
Proof.
  split; [|split; [|split]].
  - apply NoDup_Permutation; [apply (bool_decide_unpack _); by vm_compute|apply NoDup_elements|]. intros x. rewrite elem_of_elements, elem_of_list_to_set. cbn [concat app]. set_solver.
  - apply Forall_forall. apply (bool_decide_unpack _). by vm_compute.
  - apply NoDup_Permutation; [apply (bool_decide_unpack _); by vm_compute|apply NoDup_elements|]. intros x. rewrite elem_of_elements, elem_of_list_to_set. cbn [concat app]. set_solver.
  - exists [3; 1]. split; [set_solver|done].
Qed.

(** ** C102: forces *)
(** the constant of the forces and the first positions *)
Theorem C102_init : ∀ o V w gs kc ux uy ux' uy', iter_ok o → proper_window w → group_sort_of V gs →
  if decide (kc = None ∧ V = ∅) then force_init o V w gs kc ux uy ux' uy' = Raise ZeroDivisionError else
  returns (force_init o V w gs kc ux uy ux' uy') (λ r, dom r.1 = V ∧ base_init o V w gs ux uy = Ok r.1 ∧
    match kc with Some k => r.2 = k | None => (0 < r.2 ∧ r.2 ^ 2 * INR (size V) = (w_right w - w_left w) * (w_bottom w - w_top w))%R end).
Proof.
  intros o V w gs kc ux uy ux' uy' Ho Hw HG. unfold force_init.
  pose proof (base_init_ok o Ho V w gs HG ux uy) as Hb. apply returns_ok in Hb as (pos & Eb & Hd). rewrite Eb.
  pose proof (base_init_ok o Ho V w gs HG ux' uy') as Hb'. apply returns_ok in Hb' as (pos' & -> & Hd').
  pose proof (circle_ok o Ho V w gs HG pos' Hd') as Hc. apply returns_ok in Hc as (c & Ec & _). cbn [mbind res_bind].
  destruct kc as [k|]; cbn [mbind res_bind].
  { rewrite decide_False by (by intros [? ?]). rewrite Ec. done. }
  destruct (decide (None = None ∧ V = ∅)) as [[_ HV]|HV].
  { rewrite decide_True; [done|]. by rewrite HV. }
  assert (size V ≠ 0) as Hn. { intros E. apply HV. split; [done|]. by apply leibniz_equiv, size_empty_iff. }
  rewrite decide_False by done. assert (0 < INR (size V))%R as Hp by (apply lt_0_INR; clear -Hn; lia). destruct Hw as [W1 W2].
  set (a := ((w_right w - w_left w) * (w_bottom w - w_top w) / INR (size V))%R).
  assert (0 < a)%R as Ha. { unfold a. apply Rmult_lt_0_compat; [apply Rmult_lt_0_compat; lra|by apply Rinv_0_lt_compat]. }
  destruct (Rle_dec 0 a) as [Hle|Hle]; [|lra]. cbn [mbind res_bind]. rewrite Ec. cbn [mbind res_bind returns fst snd]. split; [done|]. split; [done|].
  split; [by apply sqrt_lt_R0|]. rewrite <-Rsqr_pow2, Rsqr_sqrt by lra. unfold a. field. lra.
Qed.
Print Assumptions C102_init.

(** one iteration moves every node in the direction of the force, by at most k / (i + 1), and back into the window *)
Theorem C102_step : ∀ o V w nbr k i pos, iter_ok o → (∀ v, v ∈ V → nbr v ⊆ V) → proper_window w → dom pos = V → (0 < k)%R →
  returns (force_step o V w nbr k i pos) (λ q, dom q = V ∧ ∀ v p, pos !! v = Some p → ∃ p', q !! v = Some p' ∧ in_window w p' ∧
    let F := net_force V nbr k pos v in let len := euclid F nowhere in let s := Rmin len (k / INR (i + 1)) in
    (F = nowhere → p' = (w_left w, w_top w)) ∧
    (F ≠ nowhere → p' = clamp w (p.1 + s * (F.1 / len), p.2 + s * (F.2 / len))%R ∧ (in_window w p → (euclid p' p <= k / INR (i + 1))%R))).
Proof.
  intros o V w nbr k i pos Ho Hn Hw Hd Hk. eapply returns_mono; [by apply force_step_ok|]. cbn beta. intros q [Hq Hv]. split; [done|]. intros v p Hp.
  assert (v ∈ V) as Hin by (rewrite <-Hd; apply elem_of_dom; by eexists). assert (at_ pos v = p) as Ep by (unfold at_; by rewrite Hp).
  exists (next_pos V w nbr k i pos v). split; [by apply Hv|]. split; [by apply next_in|]. cbv zeta.
  assert (norm (net_force V nbr k pos v) = 0%R ↔ net_force V nbr k pos v = nowhere) as HN.
  { set (F := net_force V nbr k pos v). unfold norm, euclid, nowhere. cbn [fst snd]. split.
    - intros E. apply sqrt_eq_0 in E; [|nra]. destruct F as [x y]. cbn [fst snd] in E. f_equal; nra.
    - intros ->. cbn [fst snd]. replace ((0 - 0) ^ 2 + (0 - 0) ^ 2)%R with 0%R by ring. apply sqrt_0. }
  split.
  - intros HF. apply HN in HF. unfold next_pos. by destruct (Req_EM_T _ 0).
  - intros HF. split.
    + unfold next_pos. destruct (Req_EM_T _ 0) as [E|E]; [by apply HN in E|]. by rewrite Ep.
    + intros HW. rewrite <-Ep in *. apply next_near; [done|lra|done..].
Qed.
Print Assumptions C102_step.

Theorem C102_window : ∀ o V w nbr k n pos, iter_ok o → (∀ v, v ∈ V → nbr v ⊆ V) → proper_window w → dom pos = V →
  returns (force_layout o V w nbr k n pos) (λ q, dom q = V ∧ (0 < n → ∀ v p, q !! v = Some p → in_window w p)).
Proof. exact force_layout_window. Qed.
Print Assumptions C102_window.

Theorem C102_order : ∀ o o' V w nbr k n pos, iter_ok o → iter_ok o' → (∀ v, v ∈ V → nbr v ⊆ V) → proper_window w → dom pos = V →
  force_layout o V w nbr k n pos = force_layout o' V w nbr k n pos.
Proof. exact force_layout_det. Qed.
Print Assumptions C102_order.

(** two adjacent nodes at distance k, where the forces cancel: 0 / 0 is nan, and both are put into the corner *)
Definition pos2 : layout := {[0 := (2, 5)%R; 1 := (4, 5)%R]}.
Definition nbr2 (v : node) : nset := if decide (v = 0) then {[1]} else {[0]}.
Theorem C102_rest_refuted : ∃ V w nbr k pos, proper_window w ∧ dom pos = V ∧ (0 < k)%R ∧ (∀ v, v ∈ V → nbr v ⊆ V) ∧ distinct_positions pos ∧
  (∀ v p, pos !! v = Some p → in_window w p ∧ p ≠ (w_left w, w_top w) ∧ net_force V nbr k pos v = nowhere) ∧ size V = 2 ∧
  ∀ o, iter_ok o → returns (force_layout o V w nbr k 1 pos) (λ q, ∀ v, v ∈ V → q !! v = Some (w_left w, w_top w)).
Proof.
  set (V := {[0; 1]} : nset). set (w := Window 0 10 0 10).
  assert (proper_window w) as Hw by (split; simpl; lra).
  assert (dom pos2 = V) as Hd by (unfold pos2, V; apply leibniz_equiv; set_solver).
  assert (∀ v, v ∈ V → nbr2 v ⊆ V) as Hn. { intros v _. unfold nbr2, V. destruct (decide (v = 0)); set_solver. }
  assert (∀ v p, pos2 !! v = Some p → v = 0 ∧ p = (2, 5)%R ∨ v = 1 ∧ p = (4, 5)%R) as Hp.
  { intros v p Hp. unfold pos2 in Hp. destruct (decide (v = 0)) as [->|H0]; [rewrite lookup_insert in Hp; injection Hp as <-; by left|].
    rewrite lookup_insert_ne in Hp by done. apply lookup_singleton_Some in Hp as [<- <-]. by right. }
  assert (at_ pos2 0 = (2, 5)%R) as A0 by (unfold at_, pos2; by rewrite lookup_insert).
  assert (at_ pos2 1 = (4, 5)%R) as A1 by (unfold at_, pos2; rewrite lookup_insert_ne by done; by rewrite lookup_singleton).
  assert (∀ p q, p = (2, 5)%R ∧ q = (4, 5)%R ∨ p = (4, 5)%R ∧ q = (2, 5)%R → dist1 p q = 2%R) as D.
  { intros p q H. unfold dist1, euclid. assert (R_sqrt.sqrt ((p.1 - q.1) ^ 2 + (p.2 - q.2) ^ 2) = 2)%R as ->; [|rewrite Rmax_right; lra].
    destruct H as [[-> ->]|[-> ->]]; cbn [fst snd]; (replace (_ + _)%R with (2 * 2)%R by ring); rewrite sqrt_square; lra. }
  assert (elements (V ∖ {[0]}) = [1]) as E0 by (unfold V; by vm_compute). assert (elements (V ∖ {[1]}) = [0]) as E1 by (unfold V; by vm_compute).
  assert (elements (nbr2 0) = [1]) as N0 by by vm_compute. assert (elements (nbr2 1) = [0]) as N1 by by vm_compute.
  assert (∀ v, v ∈ V → net_force V nbr2 2 pos2 v = nowhere) as HF.
  { intros v Hv. assert (v = 0 ∨ v = 1) as [->| ->] by (unfold V in Hv; set_solver); unfold net_force, force, nowhere.
    - rewrite E0, N0, !rsum_cons, A0, A1, D by tauto. cbn [rsum foldr fst snd]. f_equal; field.
    - rewrite E1, N1, !rsum_cons, A0, A1, D by tauto. cbn [rsum foldr fst snd]. f_equal; field. }
  exists V, w, nbr2, 2%R, pos2. split; [done|]. split; [done|]. split; [lra|]. split; [done|]. split.
  { intros u v p Hu Hv. destruct (Hp u p Hu) as [[-> E]|[-> E]], (Hp v p Hv) as [[-> E']|[-> E']]; subst; [done| | |done]; injection E'; lra. }
  split.
  { intros v p Hvp. assert (v ∈ V) as Hv by (rewrite <-Hd; apply elem_of_dom; by eexists). split; [|split; [|by apply HF]].
    - destruct (Hp v p Hvp) as [[_ ->]|[_ ->]]; unfold in_window; simpl; lra.
    - destruct (Hp v p Hvp) as [[_ ->]|[_ ->]]; intros E; injection E; simpl; lra. }
  split; [by vm_compute|]. intros o Ho. unfold force_layout. cbn [seq for_].
  eapply returns_bind; [apply (C102_step o V w nbr2 2 0 pos2 Ho Hn Hw Hd); lra|]. cbn beta. intros q [_ Hq]. cbn [returns]. intros v Hv.
  assert (is_Some (pos2 !! v)) as [p Hvp] by (apply elem_of_dom; by rewrite Hd). destruct (Hq v p Hvp) as (p' & Hq' & _ & H & _). rewrite Hq'. f_equal. apply H. by apply HF.
Qed.
Print Assumptions C102_rest_refuted.

(** two nodes that are not adjacent repel each other: the force on 0 points to the left *)
Example C102_case : proper_window (Window 0 10 0 10) ∧ dom pos2 = {[0; 1]} ∧ net_force {[0; 1]} (λ _, ∅) 2 pos2 0 = (-2, 0)%R.
Proof.
  split; [split; simpl; lra|]. split; [unfold pos2; apply leibniz_equiv; set_solver|].
  assert (at_ pos2 0 = (2, 5)%R) as A0 by (unfold at_, pos2; by rewrite lookup_insert).
  assert (at_ pos2 1 = (4, 5)%R) as A1 by (unfold at_, pos2; rewrite lookup_insert_ne by done; by rewrite lookup_singleton).
  assert (dist1 (2, 5) (4, 5) = 2)%R as D.
  { unfold dist1, euclid. cbn [fst snd]. replace (_ + _)%R with (2 * 2)%R by ring. rewrite sqrt_square by lra. rewrite Rmax_right; lra. }
  assert (elements (({[0; 1]} : nset) ∖ {[0]}) = [1]) as E0 by by vm_compute.
  unfold net_force, force. rewrite E0, elements_empty, !rsum_cons, A0, A1, D. cbn [rsum foldr fst snd]. f_equal; field.
Qed.
