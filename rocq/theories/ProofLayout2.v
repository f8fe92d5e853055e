(** Layouts: columns and forces. *)
From Coq Require Import Reals Lra.
From Verif Require Import Base BaseLemmas ModelCMI ModelLayout SpecLayout ProofLayout ProofCMI ProofBDeu.
Local Open Scope nat_scope.

(** ** Columns *)
Lemma max_group_len_ok gl : (∀ g, g ∈ gl → length g ≤ max_group_len gl) ∧ (max_group_len gl = 0 ∨ ∃ g, g ∈ gl ∧ length g = max_group_len gl).
Proof.
  unfold max_group_len. induction gl as [|g gl IH] using rev_ind; [split; [by intros g Hg%elem_of_nil|by left]|].
  rewrite foldl_app. cbn [foldl]. set (m := foldl _ 0 gl) in *. destruct IH as [H1 H2]. destruct (decide (m < length g)) as [Hm|Hm].
  - split; [|right; exists g; split; [set_solver|done]]. intros h [Hh|Hh%elem_of_list_singleton]%elem_of_app; [|by subst]. apply H1 in Hh. lia.
  - split; [intros h [Hh|Hh%elem_of_list_singleton]%elem_of_app; [by apply H1|subst; lia]|]. destruct H2 as [H2|(h & Hh & E)]; [by left|]. right. exists h. split; [set_solver|done].
Qed.

Definition column_point (w : window) (ng mg i j : nat) : R * R :=
  ((if decide (1 < ng)%nat then w_left w + INR i * ((w_right w - w_left w) / INR (ng - 1)%nat) else (w_left w + w_right w) / 2),
   w_bottom w - INR j * ((w_bottom w - w_top w) / INR (mg - 1)%nat))%R.

(** the list of (group index, group), (index in the group, node) *)
Definition cells (gl : list (list node)) : list ((nat * list node) * (nat * node)) :=
  imap (λ i g, (i, g)) gl ≫= λ x, (x,.) <$> imap (λ j v, (j, v)) x.2.
Lemma imap_snd {A} (l : list A) : (imap (λ j v, (j, v)) l).*2 = l.
Proof. rewrite fmap_imap. apply list_eq. intros i. rewrite list_lookup_imap. by destruct (l !! i). Qed.
Lemma cells_keys gl : (λ x, x.2.2) <$> cells gl = concat gl.
Proof.
  unfold cells. rewrite <-(imap_snd gl) at 2. induction (imap (λ i g, (i, g)) gl) as [|[i g] L IH]; [done|]. simpl. rewrite fmap_app. f_equal; [|done].
  rewrite <-list_fmap_compose. transitivity ((imap (λ j v, (j, v)) g).*2); [by apply list_fmap_ext|apply imap_snd].
Qed.
Lemma elem_cells gl i g j v : ((i, g), (j, v)) ∈ cells gl ↔ gl !! i = Some g ∧ g !! j = Some v.
Proof.
  unfold cells. rewrite elem_of_list_bind. setoid_rewrite elem_of_list_fmap. split.
  - intros ([i' g'] & ([j' v'] & E & Hv) & Hg). injection E as <- <- <- <-. apply elem_of_lookup_imap in Hv as (? & ? & E1 & ?), Hg as (? & ? & E2 & ?). injection E1 as -> ->. injection E2 as -> ->. done.
  - intros [Hg Hv]. exists (i, g). split.
    + exists (j, v). split; [done|]. apply elem_of_lookup_imap. eauto.
    + apply elem_of_lookup_imap. eauto.
Qed.

Section col.
Variable o : order.
Hypothesis Ho : iter_ok o.
Variable V : nset.
Variable w : window.
Variable gs : option (list (list node)).
Hypothesis HG : group_sort_of V gs.
Definition groups : list (list node) := match gs with None => [o 135 V] | Some gl => gl end.
Lemma groups_ok : concat groups ≡ₚ elements V.
Proof. unfold groups. destruct gs; [done|]. simpl. rewrite app_nil_r. apply Ho. Qed.
Lemma placed_elem i j v : placed groups i j v → v ∈ V.
Proof.
  intros (g & Hg & Hv). apply elem_of_elements. rewrite <-groups_ok, <-cells_keys. apply elem_of_list_fmap. exists ((i, g), (j, v)). split; [done|]. by apply elem_cells.
Qed.
Lemma elem_placed v : v ∈ V → ∃ i j, placed groups i j v.
Proof.
  intros Hv. apply elem_of_elements in Hv. rewrite <-groups_ok, <-cells_keys in Hv. apply elem_of_list_fmap in Hv as ([[i g] [j v']] & E & Hc). simpl in E. subst.
  apply elem_cells in Hc. exists i, j, g. done.
Qed.

Lemma column_ok pos : dom pos = V → max_group_len groups ≠ 1 → returns (column_layout o V w gs pos) (λ q, dom q = V ∧
  ∀ i j v, placed groups i j v → q !! v = Some (column_point w (length groups) (max_group_len groups) i j)).
Proof.
  intros Hd Hm. unfold column_layout. fold groups. rewrite decide_False by done.
  set (F := λ x : (nat * list node) * (nat * node), column_point w (length groups) (max_group_len groups) x.1.1 x.2.1).
  rewrite (for_ext _ _ (λ x s, for_ (imap (λ j v, (j, v)) x.2) (λ jv s, (set_pos s jv.2 (F (x, jv)))) s)).
  - rewrite (for_nested _ (λ x, imap (λ j v, (j, v)) x.2) (λ x jv s, set_pos s jv.2 (F (x, jv)))). fold (cells groups).
    eapply returns_mono; [apply (for_assign _ _ (λ x, x.2.2) F (λ q, dom q = V))|].
    + rewrite cells_keys, groups_ok. apply NoDup_elements.
    + done.
    + intros [[i g] [j v]] q Hx Hq _. apply elem_cells in Hx. assert (v ∈ V) as Hv by (apply (placed_elem i j); by exists g). cbn [fst snd].
      split; [|rewrite dom_insert_L; set_solver]. unfold set_pos. assert (is_Some (q !! v)) as [p ->] by (apply elem_of_dom; by rewrite Hq). done.
    + cbn beta. intros q (Hq & Hv & _). split; [done|]. intros i j v (g & Hg & Hgv). apply (Hv ((i, g), (j, v))). by apply elem_cells.
  - intros [i g] s Hx. apply elem_of_lookup_imap in Hx as (i' & g' & E & Hg). simplify_eq. cbn [snd]. apply for_ext. intros [j v] s' Hj.
    apply elem_of_lookup_imap in Hj as (j' & v' & E & Hv). simplify_eq. cbn [snd]. f_equal. unfold F, column_point. cbn [fst snd].
    assert (length g' ≤ max_group_len groups) as Hlen by (apply max_group_len_ok; by eapply elem_of_list_lookup_2).
    apply lookup_lt_Some in Hv. f_equal.
    + destruct (decide (1 < length groups)); lra.
    + rewrite minus_INR by lia. simpl (INR 1).
      assert (INR (max_group_len groups) - 1 ≠ 0)%R.
      { intros E. apply Hm. apply INR_eq. simpl. lra. }
      field. done.
Qed.
End col.

Lemma column_point_ok w ng mg i j : proper_window w → i < ng → j < mg → mg ≠ 1 → in_window w (column_point w ng mg i j).
Proof.
  intros [H1 H2] Hi Hj Hm. unfold in_window, column_point. cbn [fst snd].
  assert (0 <= INR i)%R as Pi by apply pos_INR. assert (0 <= INR j)%R as Pj by apply pos_INR.
  assert (∀ n k d, 1 < n → k < n → (0 < d)%R → (0 <= INR k * (d / INR (n - 1)) <= d)%R) as Hstep.
  { clear. intros n k d Hn Hk Hd. assert (0 < INR (n - 1))%R as Hp by (apply lt_0_INR; lia). assert (INR k <= INR (n - 1))%R as Hle by (apply le_INR; lia).
    assert (0 <= INR k)%R by apply pos_INR. replace (INR k * (d / INR (n - 1)))%R with (d * (INR k / INR (n - 1)))%R by (field; lra).
    assert (0 <= INR k / INR (n - 1) <= 1)%R as Hq.
    { split; [apply Rmult_le_pos; [done|]; by apply Rlt_le, Rinv_0_lt_compat|]. apply (Rmult_le_reg_r (INR (n - 1))); [done|]. unfold Rdiv. rewrite Rmult_assoc, Rinv_l by lra. lra. }
    nra. }
  pose proof (Hstep mg j (w_bottom w - w_top w)%R ltac:(lia) Hj ltac:(lra)) as Hy.
  destruct (decide (1 < ng)) as [Hn|Hn]; [pose proof (Hstep ng i (w_right w - w_left w)%R Hn Hi ltac:(lra)) as Hx; split; lra|split; lra].
Qed.
Lemma column_point_lt w ng mg i j i' j' : proper_window w → i < ng → i' < ng → j < mg → j' < mg →
  let p := column_point w ng mg i j in let p' := column_point w ng mg i' j' in
  (i < i' → (p.1 < p'.1)%R) ∧ (i = i' → p.1 = p'.1) ∧ (j < j' → (p'.2 < p.2)%R) ∧ (j = j' → p.2 = p'.2).
Proof.
  intros [H1 H2] Hi Hi' Hj Hj' p p'. unfold p, p', column_point. cbn [fst snd].
  assert (∀ n k k' d, k < k' → k' < n → (0 < d)%R → (INR k * (d / INR (n - 1)) < INR k' * (d / INR (n - 1)))%R) as Hstep.
  { clear. intros n k k' d Hk Hk' Hd. assert (0 < INR (n - 1))%R as Hp by (apply lt_0_INR; lia). assert (INR k < INR k')%R as Hlt by (by apply lt_INR).
    apply Rmult_lt_compat_r; [|done]. apply Rmult_lt_0_compat; [done|]. by apply Rinv_0_lt_compat. }
  split; [|split; [by intros ->|split; [|by intros ->]]].
  - intros Hlt. rewrite !decide_True by lia. pose proof (Hstep ng i i' (w_right w - w_left w)%R Hlt Hi' ltac:(lra)). lra.
  - intros Hlt. pose proof (Hstep mg j j' (w_bottom w - w_top w)%R Hlt Hj' ltac:(lra)). lra.
Qed.

Lemma placed_bounds gl i j v : placed gl i j v → i < length gl ∧ j < max_group_len gl.
Proof.
  intros (g & Hg & Hv). split; [by eapply lookup_lt_Some|]. apply lookup_lt_Some in Hv.
  pose proof (proj1 (max_group_len_ok gl) g (elem_of_list_lookup_2 _ _ _ Hg)). lia.
Qed.

Theorem column_layout_spec o V w gs ux uy : iter_ok o → proper_window w → group_sort_of V gs →
  let gl := groups o V gs in
  (∃ g, g ∈ gl ∧ length g ≠ 0) ∧ (∀ g, g ∈ gl → length g ≤ 1) ↔ (pos ← base_init o V w gs ux uy; column_layout o V w gs pos) = Raise ZeroDivisionError.
Proof.
  intros Ho Hw HG. cbv zeta. set (gl := groups o V gs). pose proof (base_init_ok o Ho V w gs HG ux uy) as Hb. apply returns_ok in Hb as (pos & -> & Hd). cbn [mbind res_bind].
  destruct (max_group_len_ok gl) as [M1 M2]. split.
  - intros [(g & Hg & Hl) Hle]. pose proof (M1 g Hg) as M3.
    assert (max_group_len gl = 1) as M.
    { destruct M2 as [M2|(h & Hh & M2)]; [rewrite M2 in M3; exfalso; apply Hl; by apply Nat.le_0_r|]. pose proof (Hle h Hh) as M4. rewrite M2 in M4. destruct (length g) as [|n] eqn:El; [done|]. clear -M3 M4. lia. }
    unfold column_layout. by rewrite (decide_True (P := max_group_len _ = 1) _ _ M).
  - intros E. destruct (decide (max_group_len gl = 1)) as [M|M].
    + split; [|intros g Hg; rewrite <-M; by apply M1]. destruct M2 as [M2|(h & Hh & M2)]; [lia|]. exists h. split; [done|lia].
    + pose proof (column_ok o Ho V w gs HG pos Hd M) as H. by rewrite E in H.
Qed.
Theorem column_layout_positions o V w gs ux uy : iter_ok o → proper_window w → group_sort_of V gs →
  let gl := groups o V gs in max_group_len gl ≠ 1 →
  returns (pos ← base_init o V w gs ux uy; column_layout o V w gs pos) (λ q, dom q = V ∧ (∀ v p, q !! v = Some p → in_window w p) ∧ distinct_positions q ∧
    (∀ i j v i' j' v' p p', placed gl i j v → placed gl i' j' v' → q !! v = Some p → q !! v' = Some p' →
      (i < i' → (p.1 < p'.1)%R) ∧ (i = i' → p.1 = p'.1) ∧ (j < j' → (p'.2 < p.2)%R) ∧ (j = j' → p.2 = p'.2)) ∧
    (∀ i j v p, placed gl i j v → q !! v = Some p → (1 < length gl → (i = 0 → p.1 = w_left w) ∧ (S i = length gl → p.1 = w_right w)) ∧
      (j = 0 → p.2 = w_bottom w) ∧ (S j = max_group_len gl → p.2 = w_top w))).
Proof.
  intros Ho Hw HG gl M. eapply returns_bind; [by apply base_init_ok|]. cbn beta. intros pos Hd.
  eapply returns_mono; [by apply column_ok|]. cbn beta. fold gl. intros q [Hq Hv].
  assert (∀ v p, q !! v = Some p → ∃ i j, placed gl i j v ∧ p = column_point w (length gl) (max_group_len gl) i j) as Hi.
  { intros v p Hp. assert (v ∈ V) as Hin by (rewrite <-Hq; apply elem_of_dom; by eexists).
    destruct (elem_placed o Ho V gs HG v Hin) as (i & j & Hij). exists i, j. split; [done|]. specialize (Hv i j v Hij). congruence. }
  assert (∀ i j v i' j' v' p p', placed gl i j v → placed gl i' j' v' → q !! v = Some p → q !! v' = Some p' →
      (i < i' → (p.1 < p'.1)%R) ∧ (i = i' → p.1 = p'.1) ∧ (j < j' → (p'.2 < p.2)%R) ∧ (j = j' → p.2 = p'.2)) as Hord.
  { intros i j v i' j' v' p p' H1 H2 Hp Hp'. rewrite (Hv _ _ _ H1) in Hp. rewrite (Hv _ _ _ H2) in Hp'. injection Hp as <-. injection Hp' as <-.
    apply placed_bounds in H1 as [? ?], H2 as [? ?]. by apply column_point_lt. }
  split; [done|]. split; [|split; [|split; [done|]]].
  - intros v p Hp. destruct (Hi v p Hp) as (i & j & Hij & ->). apply placed_bounds in Hij as [? ?]. by apply column_point_ok.
  - intros u v p Hu Hvp. destruct (Hi u p Hu) as (i & j & H1 & _). destruct (Hi v p Hvp) as (i' & j' & H2 & _).
    destruct (Hord _ _ _ _ _ _ _ _ H1 H2 Hu Hvp) as (A1 & _ & B1 & _). destruct (Hord _ _ _ _ _ _ _ _ H2 H1 Hvp Hu) as (A2 & _ & B2 & _).
    assert (i = i') as -> by (destruct (Nat.lt_trichotomy i i') as [H|[H|H]]; [apply A1 in H; lra|done|apply A2 in H; lra]).
    assert (j = j') as -> by (destruct (Nat.lt_trichotomy j j') as [H|[H|H]]; [apply B1 in H; lra|done|apply B2 in H; lra]).
    destruct H1 as (g & ? & ?), H2 as (g' & ? & ?). congruence.
  - intros i j v p Hij Hp. rewrite (Hv _ _ _ Hij) in Hp. injection Hp as <-. apply placed_bounds in Hij as [B1 B2]. unfold column_point. cbn [fst snd]. split; [|split].
    + intros Hn. rewrite decide_True by done. split; [intros ->; simpl; lra|]. intros E. replace (length gl - 1) with i by lia. assert (0 < INR i)%R by (apply lt_0_INR; lia). field. lra.
    + intros ->. simpl. lra.
    + intros E. replace (max_group_len gl - 1) with j by lia. assert (0 < INR j)%R by (apply lt_0_INR; lia). field. lra.
Qed.
