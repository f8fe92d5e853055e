(** Proofs about draw_temporal_graph. *)
From Coq Require Import Reals Lra String.
From Verif Require Import Base BaseLemmas ModelGraph Spec ModelMixed SpecMixed ProofMixed ModelPDS ModelLayout SpecLayout ModelDraw SpecDraw.
From Verif Require Import ModelCMI ProofLayout ProofLayout2 ProofLayout3 ProofDraw.
Local Open Scope nat_scope.

(** ** sorted sets of numbers *)
Lemma insert_sorted_elem x y l : y ∈ insert_sorted x l ↔ y = x ∨ y ∈ l.
Proof.
  induction l as [|z l IH]; cbn [insert_sorted]; [set_solver|]. destruct (Rlt_dec x z) as [H|H]; [set_solver|]. destruct (Req_EM_T x z) as [->|H']; [set_solver|]. rewrite elem_of_cons, IH. set_solver.
Qed.
Lemma insert_sorted_sorted x l : StronglySorted Rlt l → StronglySorted Rlt (insert_sorted x l).
Proof.
  induction 1 as [|z l HS IH HF]; cbn [insert_sorted]; [repeat constructor|]. destruct (Rlt_dec x z) as [H|H].
  - constructor; [by constructor|]. constructor; [done|]. eapply Forall_impl; [exact HF|]. intros y Hy. lra.
  - destruct (Req_EM_T x z) as [->|H']; [by constructor|]. constructor; [done|]. apply Forall_forall. intros y Hy. apply insert_sorted_elem in Hy as [->|Hy]; [lra|].
    rewrite Forall_forall in HF. by apply HF.
Qed.
Lemma sorted_set_ok l : StronglySorted Rlt (sorted_set l) ∧ ∀ y, y ∈ sorted_set l ↔ y ∈ l.
Proof.
  unfold sorted_set. assert (∀ l a, StronglySorted Rlt a → StronglySorted Rlt (foldl (λ l x, insert_sorted x l) a l) ∧
    ∀ y, y ∈ foldl (λ l x, insert_sorted x l) a l ↔ y ∈ a ∨ y ∈ l) as H.
  { clear. induction l as [|x l IH]; intros a Ha; cbn [foldl]; [split; [done|set_solver]|]. destruct (IH (insert_sorted x a)) as [H1 H2]; [by apply insert_sorted_sorted|].
    split; [done|]. intros y. rewrite H2, insert_sorted_elem. set_solver. }
  destruct (H l []) as [H1 H2]; [constructor|]. split; [done|]. intros y. rewrite H2. set_solver.
Qed.
Lemma sorted_unique (l1 l2 : list R) : StronglySorted Rlt l1 → StronglySorted Rlt l2 → (∀ y, y ∈ l1 ↔ y ∈ l2) → l1 = l2.
Proof.
  intros H1. revert l2. induction H1 as [|x l1 H1 IH F1]; intros l2 H2 HE.
  - destruct l2 as [|y l2]; [done|]. exfalso. assert (y ∈ []) as Hy by (apply HE; by left). by apply elem_of_nil in Hy.
  - destruct H2 as [|y l2 H2 F2]; [exfalso; assert (x ∈ []) as Hy by (apply HE; by left); by apply elem_of_nil in Hy|].
    rewrite Forall_forall in F1, F2.
    assert (x = y) as ->.
    { assert (x ∈ y :: l2) as A by (apply HE; by left). assert (y ∈ x :: l1) as B by (apply HE; by left).
      apply elem_of_cons in A as [->|A]; [done|]. apply elem_of_cons in B as [->|B]; [done|]. specialize (F1 _ B). specialize (F2 _ A). lra. }
    f_equal. apply IH; [done|]. intros z. split; intros Hz.
    + assert (z ∈ y :: l2) as A by (apply HE; by right). apply elem_of_cons in A as [->|A]; [specialize (F1 _ Hz); lra|done].
    + assert (z ∈ y :: l1) as A by (apply HE; by right). apply elem_of_cons in A as [->|A]; [specialize (F2 _ Hz); lra|done].
Qed.

(** ** places in the groups *)
Lemma placed_rev gl i j v : placed gl i j v → i < length gl ∧ placed (rev gl) (length gl - 1 - i) j v.
Proof.
  intros (g & Hg & Hv). pose proof (lookup_lt_Some _ _ _ Hg) as Hi. split; [done|]. exists g. split; [|done]. rewrite rev_alt. fold (reverse gl).
  rewrite reverse_lookup by lia. by replace (length gl - S (length gl - 1 - i)) with i by lia.
Qed.
Lemma foldl_insert {A B} (l : list A) (key : A → nat) (val : A → B) (m : gmap nat B) x : NoDup (key <$> l) → x ∈ l →
  foldl (λ m x, <[key x := val x]> m) m l !! key x = Some (val x).
Proof.
  revert m. induction l as [|y l IH]; intros m ND Hx; [by apply elem_of_nil in Hx|]. cbn [foldl fmap list_fmap] in *. apply NoDup_cons in ND as [Hy ND].
  apply elem_of_cons in Hx as [->|Hx]; [|by apply IH].
  assert (∀ l m, key y ∉ key <$> l → foldl (λ m x, <[key x := val x]> m) m l !! key y = (m : gmap nat B) !! key y) as HK.
  { clear. induction l as [|z l IH]; intros m Hy; [done|]. cbn [foldl fmap list_fmap] in *. apply not_elem_of_cons in Hy as [H1 H2]. rewrite IH by done. by rewrite lookup_insert_ne. }
  rewrite HK by done. apply lookup_insert.
Qed.
Lemma foldl_nested {A B C} (L : list A) (g : A → list B) (h : C → A → B → C) m :
  foldl (λ m x, foldl (λ m y, h m x y) m (g x)) m L = foldl (λ m xy, h m xy.1 xy.2) m (L ≫= λ x, (x,.) <$> g x).
Proof.
  revert m. induction L as [|x L IH]; intros m; [done|]. cbn [foldl]. rewrite IH. cbn [mbind list_bind]. rewrite foldl_app. f_equal.
  generalize (g x) as l. intros l. revert m. induction l as [|y l IHl]; intros m; [done|]. cbn. apply IHl.
Qed.
Lemma node_places_ok gl i j v : NoDup (concat gl) → placed gl i j v → node_places gl !! v = Some (Z.of_nat i - Z.of_nat (length gl) + 1, j)%Z.
Proof.
  intros ND (g & Hg & Hv). unfold node_places.
  assert (∀ m L, foldl (λ m '(i, g), foldl (λ m '(y, v), <[v := (Z.of_nat i - Z.of_nat (length gl) + 1, y)%Z]> m) m (imap (λ y v, (y, v)) g)) m L =
    foldl (λ (m : gmap nat (Z * nat)) x, foldl (λ m y, <[y.2 := (Z.of_nat x.1 - Z.of_nat (length gl) + 1, y.1)%Z]> m) m (imap (λ y v, (y, v)) x.2)) m L) as HE.
  { intros m L. revert m. induction L as [|[k h] L IH]; intros m; [done|]. cbn [foldl fst snd]. rewrite IH. f_equal. generalize (imap (λ y v, (y, v)) h) as M. intros M. clear. revert m.
    induction M as [|[y u] M IHM]; intros m; [done|]. cbn [foldl fst snd]. apply IHM. }
  rewrite HE. rewrite (foldl_nested _ (λ x, imap (λ y v, (y, v)) x.2) (λ m x y, <[y.2 := (Z.of_nat x.1 - Z.of_nat (length gl) + 1, y.1)%Z]> m)). fold (cells gl).
  apply (foldl_insert (cells gl) (λ c, c.2.2) (λ c, (Z.of_nat c.1.1 - Z.of_nat (length gl) + 1, c.2.1)%Z) ∅ ((i, g), (j, v))).
  - by rewrite cells_keys.
  - by apply elem_cells.
Qed.

Lemma max_group_len_big gl : (∃ g, g ∈ gl ∧ 2 ≤ length g) → max_group_len gl ≠ 1.
Proof. intros (g & Hg & H2). pose proof (proj1 (max_group_len_ok gl) g Hg). lia. Qed.
Lemma placed_unique gl i j i' j' v : NoDup (concat gl) → placed gl i j v → placed gl i' j' v → i = i' ∧ j = j'.
Proof.
  intros ND H1 H2. pose proof (node_places_ok gl i j v ND H1) as E1. rewrite (node_places_ok gl i' j' v ND H2) in E1. injection E1 as E1 E2. split; lia.
Qed.
Lemma for_append_imap {A} (l : list A) (f : nat * A → list shape → res (list shape)) (F : nat → A → shape) P0 :
  (∀ i s P, l !! i = Some s → f (i, s) P = Ok (P ++ [F i s])) → for_ (imap (λ i s, (i, s)) l) f P0 = Ok (P0 ++ imap F l).
Proof.
  intros Hf. assert (∀ L P, (∀ x, x ∈ L → l !! x.1 = Some x.2) → for_ L f P = Ok (P ++ ((λ x, F x.1 x.2) <$> L))) as H.
  { induction L as [|[i s] L IH]; intros P HL; cbn [for_]; [by rewrite app_nil_r|]. rewrite Hf by (apply (HL (i, s)); by left). cbn [mbind res_bind].
    rewrite IH by (intros x Hx; apply HL; by right). by rewrite <-app_assoc. }
  rewrite H.
  - by rewrite fmap_imap.
  - intros x Hx. apply elem_of_lookup_imap in Hx as (i & s & -> & Hs). done.
Qed.

(** the positions on the page *)
Definition page_x (rows : option (list string)) (x : R) : R :=
  let y := ((x * (1 - 6 * (4 / 100)) + 1) / 2)%R in match rows with Some _ => (y * (1 - 4 * (4 / 100)) + 4 * (4 / 100))%R | None => y end.
Definition page_y (cols : option (list string)) (x : R) : R :=
  let y := ((x * (1 - 6 * (4 / 100)) + 1) / 2)%R in match cols with Some _ => (y * (1 - 2 * (4 / 100)) + 2 * (4 / 100))%R | None => y end.
Lemma page_x_lt rows x y : (x < y)%R → (page_x rows x < page_x rows y)%R.
Proof. unfold page_x. destruct rows; lra. Qed.
Lemma page_y_lt rows x y : (x < y)%R → (page_y rows x < page_y rows y)%R.
Proof. unfold page_y. destruct rows; lra. Qed.
Lemma page_x_in rows x : (-1 <= x <= 1)%R → (12 / 100 <= page_x rows x <= 90 / 100)%R.
Proof. unfold page_x. destruct rows; lra. Qed.
Lemma page_y_in rows x : (-1 <= x <= 1)%R → (12 / 100 <= page_y rows x <= 90 / 100)%R.
Proof. unfold page_y. destruct rows; lra. Qed.

Section temporal.
Context (o : order) (Ho : iter_ok o).

Theorem draw_temporal_graph_ok D nsl present ign lat sel cols rows bk fg lc :
  drawable_wf D → concat nsl ≡ₚ elements (dnodes D) → (∃ g, g ∈ nsl ∧ 2 ≤ length g) →
  nsl !! 0 = Some present → present ≠ [] →
  (∀ l, rows = Some l → length l = length present) →
  (∀ l, cols = Some l → length l = length nsl ∧ ∀ g, g ∈ nsl → g ≠ []) →
  let r := (4 / 100)%R in let V := dnodes D in
  returns (draw_temporal_graph o D (Some nsl) ign lat sel cols rows bk fg lc) (λ P,
    ∃ pos box R_ C_ N E, P = box :: R_ ++ C_ ++ N ++ E ∧ dom pos = V ∧
      (∀ v, v ∈ V → in_square (12 / 100) (90 / 100) (at_ pos v)) ∧ time_ordered nsl pos ∧ framed pos r present box ∧
      row_labels pos present rows R_ ∧ col_labels pos r nsl cols C_ ∧
      nodes_drawn V (default ∅ lat) (default ∅ sel) bk fg r pos LNum N ∧
      edges_drawn D pos r lc bk (λ u v, ign = true → u ∈ present ∨ v ∈ present)
        (λ u v, match D with DPag _ _ => far_apart nsl u v | DDag _ => True end) E).
Proof.
  intros HD HP Hbig Hpres Hne Hrows Hcols r V. unfold draw_temporal_graph. cbv zeta. fold V. fold V in HP.
  set (gl := rev nsl). assert (concat gl ≡ₚ elements V) as HPr.
  { unfold gl. rewrite <-HP. clear. induction nsl as [|g l IH]; [done|]. cbn [rev]. rewrite concat_app. cbn [concat]. rewrite app_nil_r, IH. apply Permutation_app_comm. }
  assert (length gl = length nsl) as Hlen by apply rev_length.
  assert (∃ g, g ∈ gl ∧ 2 ≤ length g) as Hbig' by (destruct Hbig as (g & Hg & H2); exists g; split; [by apply elem_of_list_In, in_rev, elem_of_list_In in Hg|done]).
  assert (NoDup (concat nsl)) as ND by (rewrite HP; apply NoDup_elements). assert (NoDup (concat gl)) as ND' by (rewrite HPr; apply NoDup_elements).
  assert (last gl = Some present) as Hlast.
  { unfold gl. destruct nsl as [|g l]; [done|]. injection Hpres as ->. cbn [rev]. apply last_snoc. }
  apply (returns_bind _ _ (λ c, c = rev (A := string) <$> cols) _).
  { destruct cols as [c|]; [|done]. destruct (Hcols c eq_refl) as [Hc _]. rewrite bool_decide_eq_true_2 by (rewrite Hlen; done). done. }
  intros cols' ->.
  apply (returns_bind _ _ (λ _, True) _).
  { destruct rows as [l|]; [|done]. unfold list_last. rewrite Hlast. cbn [mbind res_bind]. rewrite bool_decide_eq_true_2 by (by apply Hrows). done. }
  intros _ _. set (w := Window (-1) 1 (-1) 1). assert (proper_window w) as Hw by (split; cbn; lra). assert (group_sort_of V (Some gl)) as HG by done.
  eapply returns_bind; [apply (base_init_ok o Ho V w (Some gl) HG)|]. intros p0 D0. cbn beta in D0.
  eapply returns_bind; [apply (column_ok o Ho V w (Some gl) HG p0 D0)|]; [by apply max_group_len_big|]. cbn [groups]. intros p1 [D1 P1].
  set (cp := column_point w (length gl) (max_group_len gl)) in P1.
  eapply returns_bind; [by apply (map_pos_ok o Ho)|]. intros p2 [D2 P2].
  eapply (returns_bind _ _ (λ p, dom p = V ∧ ∀ v, v ∈ V → at_ p v = (page_x rows (at_ p1 v).1, page_y None (at_ p1 v).2)) _).
  { destruct rows; [eapply returns_mono; [by apply (map_pos_ok o Ho)|]|].
    - cbn beta. intros p [Hd Hp]. split; [done|]. intros v Hv. rewrite Hp, P2 by done. done.
    - split; [done|]. intros v Hv. by rewrite P2. }
  intros p3 [D3 P3].
  eapply (returns_bind _ _ (λ p, dom p = V ∧ ∀ v, v ∈ V → at_ p v = (page_x rows (at_ p1 v).1, page_y cols (at_ p1 v).2)) _).
  { destruct cols; cbn [fmap option_fmap option_map]; [eapply returns_mono; [by apply (map_pos_ok o Ho)|]|].
    - cbn beta. intros p [Hd Hp]. split; [done|]. intros v Hv. rewrite Hp, P3 by done. done.
    - split; [done|]. intros v Hv. by rewrite P3. }
  intros pos [Dp Pp]. clear p2 D2 P2 p3 D3 P3 p0 D0.
  (* the positions *)
  assert (∀ i j v, placed nsl i j v → v ∈ V) as HV.
  { intros i j v (g & Hg & Hv). apply elem_of_elements. rewrite <-HP. apply elem_of_list_In, in_concat. exists g. split; apply elem_of_list_In; by eapply elem_of_list_lookup_2. }
  assert (∀ v, v ∈ V → ∃ i j, placed nsl i j v) as HV'.
  { intros v Hv. apply elem_of_elements in Hv. rewrite <-HP in Hv. apply elem_of_list_In, in_concat in Hv as (g & Hg & Hv).
    apply elem_of_list_In, elem_of_list_lookup in Hg as [i Hg], Hv as [j Hv]. exists i, j, g. done. }
  assert (∀ i j v, placed nsl i j v → at_ pos v = (page_x rows (cp (length nsl - 1 - i) j).1, page_y cols (cp (length nsl - 1 - i) j).2)) as Hat.
  { intros i j v Hv. rewrite Pp by (by eapply HV). destruct (placed_rev _ _ _ _ Hv) as [_ Hr]. pose proof (P1 _ _ _ Hr) as E. unfold at_. rewrite E. done. }
  assert (time_ordered nsl pos) as Htime.
  { intros i j v i' j' v' Hv Hv'. rewrite (Hat _ _ _ Hv), (Hat _ _ _ Hv'). destruct (placed_rev _ _ _ _ Hv) as [L1 B1], (placed_rev _ _ _ _ Hv') as [L2 B2].
    apply placed_bounds in B1 as [B1 B1'], B2 as [B2 B2']. fold gl in B1, B1', B2, B2'.
    destruct (column_point_lt w _ _ _ _ _ _ Hw B1 B2 B1' B2') as (_ & _ & Y1 & Y2). destruct (column_point_lt w _ _ _ _ _ _ Hw B2 B1 B2' B1') as (X1 & X2 & _ & _). fold cp in Y1, Y2, X1, X2. cbn [fst snd].
    split; [intros H; apply page_x_lt, X1; lia|]. split; [intros ->; by rewrite X2 by done|].
    split; [intros H; by apply page_y_lt, Y1|]. intros ->. by rewrite Y2 by done. }
  assert (∀ u v, u ∈ V → v ∈ V → at_ pos u = at_ pos v → u = v) as Hinj.
  { intros u v Hu Hv E. destruct (HV' u Hu) as (i & j & A), (HV' v Hv) as (i' & j' & B). pose proof (Htime _ _ _ _ _ _ A B) as (X1 & _ & Y1 & _).
    pose proof (Htime _ _ _ _ _ _ B A) as (X2 & _ & Y2 & _). rewrite E in X1, Y1, X2, Y2.
    assert (i = i') as -> by (destruct (lt_eq_lt_dec i i') as [[H|H]|H]; [specialize (X1 H); lra|done|specialize (X2 H); lra]).
    assert (j = j') as -> by (destruct (lt_eq_lt_dec j j') as [[H|H]|H]; [specialize (Y1 H); lra|done|specialize (Y2 H); lra]).
    destruct A as (g & Hg & Hu'), B as (g' & Hg' & Hv'). rewrite Hg in Hg'. injection Hg' as <-. congruence. }
  assert (∀ j v, present !! j = Some v → placed nsl 0 j v) as Hpl by (intros j v Hv; exists present; done).
  (* the frame *)
  cbn [mbind res_bind]. assert (list_first nsl = Ok present) as -> by (clear -Hpres; destruct nsl as [|g0 rest]; [done|]; by injection Hpres as ->). cbn [mbind res_bind].
  destruct present as [|v0 tl] eqn:Epr; [done|]. rewrite <-Epr in *. destruct (last present) as [vl|] eqn:El; [|by apply last_None in El; subst]. replace (list_last present) with (Ok vl) by (unfold list_last; by rewrite El). cbn [mbind res_bind].
  assert (present !! (length present - 1) = Some vl) as Hvl by (rewrite last_lookup in El; by replace (length present - 1) with (pred (length present)) by lia).
  assert (present !! 0 = Some v0) as Hv0 by (by rewrite Epr).
  rewrite (get_pos_ok pos vl) by (rewrite Dp; by eapply HV, Hpl). cbn [mbind res_bind].
  replace (list_first present) with (Ok v0) by (by rewrite Epr). cbn [mbind res_bind]. rewrite (get_pos_ok pos v0) by (rewrite Dp; by eapply HV, Hpl). cbn [mbind res_bind].
  set (box := SBox _ _ _ _ _).
  assert (framed pos r present box) as Hbox.
  { eexists _, _, _. split; [done|]. intros v Hv. apply elem_of_list_lookup in Hv as [j Hj]. pose proof (lookup_lt_Some _ _ _ Hj) as Hjl. cbn [fst snd].
    pose proof (Htime _ _ _ _ _ _ (Hpl _ _ Hj) (Hpl _ _ Hvl)) as (_ & X1 & Y1 & Y2). pose proof (Htime _ _ _ _ _ _ (Hpl _ _ Hv0) (Hpl _ _ Hj)) as (_ & X3 & Y3 & Y4).
    specialize (X1 eq_refl). specialize (X3 eq_refl).
    assert ((at_ pos vl).2 <= (at_ pos v).2)%R as HA by (destruct (decide (j = length present - 1)) as [H|H]; [right; symmetry; by apply Y2|left; apply Y1; lia]).
    assert ((at_ pos v).2 <= (at_ pos v0).2)%R as HB by (destruct (decide (0 = j)) as [H|H]; [right; symmetry; by apply Y4|left; apply Y3; lia]).
    clear -X1 HA HB. unfold r. split; [lra|]. split; [lra|]. split; lra. }
  clearbody box.
  (* row labels *)
  eapply (returns_bind _ _ (row_labels pos present rows) _).
  { destruct rows as [l|]; [|done]. specialize (Hrows l eq_refl). unfold list_last. rewrite Hlast. cbn [mbind res_bind].
    rewrite (for_append_imap l _ (λ i s, SText (Some (0, (at_ pos (default 0%nat (present !! i))).2)%R) (LStr s) "black" None)).
    - cbn [returns app row_labels]. split; [done|]. apply Forall2_same_length_lookup_2; [rewrite zip_with_length, imap_length; lia|].
      intros i [v s] T H1 H2. apply lookup_zip_with_Some in H1 as (v' & s' & [= -> ->] & H3 & H4). rewrite list_lookup_imap, H4 in H2. injection H2 as <-. by rewrite H3.
    - intros i s P Hs. pose proof (lookup_lt_Some _ _ _ Hs) as Hi. destruct (lookup_lt_is_Some_2 present i) as [v Hv]; [lia|]. unfold list_get. rewrite Hv. cbn [mbind res_bind default].
      rewrite get_pos_ok by (rewrite Dp; by eapply HV, Hpl). done. }
  intros R_ HR. cbn beta in HR.
  (* column labels *)
  eapply (returns_bind _ _ (col_labels pos r nsl cols) _).
  { destruct cols as [l|]; cbn [fmap option_fmap option_map]; [|done]. destruct (Hcols l eq_refl) as [Hl Hgs].
    apply (returns_bind _ _ (λ xs, ∀ x, x ∈ xs ↔ ∃ v, v ∈ V ∧ (at_ pos v).1 = x) _).
    { eapply returns_mono; [apply (for_returns_pre (o 514 V) _ _ (λ pre xs, ∀ x, x ∈ xs ↔ ∃ v, v ∈ pre ∧ (at_ pos v).1 = x))|].
      - intros x. split; [by intros ?%elem_of_nil|]. by intros (v & ?%elem_of_nil & _).
      - intros pre v post xs E IH. assert (v ∈ V) as Hv by (apply (iter_elem o 514 V v Ho); rewrite E; set_solver). rewrite get_pos_ok by (by rewrite Dp). cbn [mbind res_bind returns].
        intros x. rewrite elem_of_app, elem_of_list_singleton, IH. split.
        + intros [(u & Hu & Ex)|Ex]; [exists u; split; [set_solver|done]|exists v; split; [set_solver|done]].
        + intros (u & Hu & Ex). apply elem_of_app in Hu as [Hu|Hu%elem_of_list_singleton]; [left; eauto|right; by subst].
      - cbn beta. intros xs H x. rewrite H. split; intros (v & Hv & Ex); exists v; (split; [|done]); by apply (iter_elem o 514 V v Ho). }
    intros xs Hxs. cbn beta in Hxs.
    set (X := λ i, page_x rows (cp i 0).1).
    assert (0 < max_group_len gl) as Hmg by (destruct Hbig' as (g & Hg & H2); pose proof (proj1 (max_group_len_ok gl) g Hg); lia).
    assert (∀ i j v, placed nsl i j v → (at_ pos v).1 = X (length nsl - 1 - i)) as HX by (intros i j v Hv; by rewrite (Hat _ _ _ Hv)).
    assert (sorted_set xs = X <$> seq 0 (length nsl)) as HS.
    { apply sorted_unique; [apply sorted_set_ok| |].
      - assert (∀ n k, k + n ≤ length nsl → StronglySorted Rlt (X <$> seq k n)) as H; [|by apply H].
        induction n as [|n IH]; intros k Hk; cbn [seq fmap list_fmap]; constructor; [apply IH; lia|]. apply Forall_fmap, Forall_forall. intros i Hi. apply elem_of_seq in Hi.
        cbn. unfold X. apply page_x_lt. assert (k < length gl) as K1 by (rewrite Hlen; lia). assert (i < length gl) as K2 by (rewrite Hlen; lia).
        destruct (column_point_lt w _ _ _ _ _ _ Hw K1 K2 Hmg Hmg) as (X1 & _). apply X1. lia.
      - intros y. rewrite (proj2 (sorted_set_ok xs)), Hxs, elem_of_list_fmap. setoid_rewrite elem_of_seq. split.
        + intros (v & Hv & <-). destruct (HV' v Hv) as (i & j & A). exists (length nsl - 1 - i). split; [by eapply HX|]. destruct (placed_rev _ _ _ _ A). lia.
        + intros (i & -> & Hi). destruct (lookup_lt_is_Some_2 nsl (length nsl - 1 - i)) as [g Hg]; [lia|].
          pose proof (Hgs g (elem_of_list_lookup_2 _ _ _ Hg)) as Hgn. destruct g as [|v g]; [done|]. assert (placed nsl (length nsl - 1 - i) 0 v) as A by (exists (v :: g); done).
          exists v. split; [by eapply HV|]. rewrite (HX _ _ _ A). f_equal. lia. }
    rewrite (for_append_imap (rev l) _ (λ i s, SText (Some (X i, r * 2)%R) (LStr s) "black" None)).
    - cbn [returns app col_labels]. split; [done|]. apply Forall2_same_length_lookup_2; [rewrite zip_with_length, rev_length, imap_length, rev_length; lia|].
      intros i [g s] T H1 H2. apply lookup_zip_with_Some in H1 as (g' & s' & [= -> ->] & H3 & H4). pose proof (lookup_lt_Some _ _ _ H4) as Hi. pose proof (lookup_lt_Some _ _ _ H3) as Hi'.
      rewrite rev_alt in H2. fold (reverse (imap (λ i s, SText (Some (X i, r * 2)%R) (LStr s) "black" None) (rev l))) in H2.
      rewrite reverse_lookup in H2 by (rewrite imap_length, rev_length; lia). rewrite list_lookup_imap, imap_length, rev_length in H2.
      assert (rev l !! (length l - S i) = Some s') as E.
      { rewrite rev_alt. fold (reverse l). rewrite reverse_lookup by lia. by replace (length l - S (length l - S i)) with i by lia. }
      rewrite E in H2. injection H2 as <-. exists (X (length l - S i)). split; [by rewrite (Rmult_comm 2 r)|]. intros v Hv. apply elem_of_list_lookup in Hv as [j Hj].
      rewrite (HX i j v) by (by exists g'). f_equal. lia.
    - intros i s P Hs. pose proof (lookup_lt_Some _ _ _ Hs) as Hi. rewrite rev_length in Hi. unfold real_get. rewrite HS, list_lookup_fmap, lookup_seq_lt by lia. done. }
  intros C_ HC. cbn beta in HC.
  eapply returns_bind; [apply (draw_nodes_ok o Ho); [by rewrite Dp|]|].
  { intros v Hv. apply elem_of_dom. rewrite fill_labels_ok by done. rewrite decide_True by done. eauto. }
  cbn beta. intros N HN.
  eapply returns_bind; [apply (draw_edges_ok o Ho _ _ _ D r lc bk pos _ _ true (λ u v, ign = true → u ∈ present ∨ v ∈ present) (λ u v, match D with DPag _ _ => far_apart nsl u v | DDag _ => True end)); [done|done|unfold r; lra| | |]|].
  - intros i j. destruct ign; cbn [andb]; [|naive_solver].
    destruct (decide (i ∈ present)) as [Hi|Hi]; [rewrite bool_decide_eq_false_2 by (rewrite elem_of_list_to_set; tauto); cbn; tauto|].
    rewrite bool_decide_eq_true_2 by (by rewrite elem_of_list_to_set). cbn [andb].
    destruct (decide (j ∈ present)) as [Hj|Hj]; [rewrite bool_decide_eq_false_2 by (rewrite elem_of_list_to_set; tauto); tauto|].
    rewrite bool_decide_eq_true_2 by (by rewrite elem_of_list_to_set). naive_solver.
  - intros i j H E. destruct (H E); tauto.
  - destruct D as [g|g vis]; cbn [drawable_wf dnodes] in *.
    + intros p c He _. split; [done|]. intros E. exfalso. destruct HD as [HW HI]. destruct (HW _ _ He) as [Hp Hc]. assert (p = c) as -> by (by apply Hinj). by eapply HI.
    + intros i j Ha _. assert (i ∈ V ∧ j ∈ V ∧ i ≠ j) as (Hi & Hj & Hij).
      { destruct Ha as [k Hk]. apply (mgw_in _ HD) in Hk. tauto. }
      destruct (HV' i Hi) as (ti & yi & Ai), (HV' j Hj) as (tj & yj & Aj). destruct (placed_rev _ _ _ _ Ai) as [Li Ri], (placed_rev _ _ _ _ Aj) as [Lj Rj]. fold gl in Ri, Rj.
      unfold is_curved. rewrite (node_places_ok gl _ _ _ ND' Ri), (node_places_ok gl _ _ _ ND' Rj). eexists. split; [done|]. split.
      * rewrite Hlen. transitivity (S ti < tj ∨ S tj < ti ∨ S yi < yj ∨ S yj < yi).
        -- destruct (decide (1 < Z.abs _)%Z) as [H|H]; [clear -H Li Lj; split; [lia|done]|]. destruct (decide (1 < Z.abs _)%Z) as [H'|H']; [clear -H H' Li Lj; split; [lia|done]|]. split; [done|]. clear -H H' Li Lj. lia.
        -- split; [intros H; exists ti, yi, tj, yj; tauto|]. intros (a & b & c & d & A & B & H). destruct (placed_unique _ _ _ _ _ _ ND Ai A) as [-> ->], (placed_unique _ _ _ _ _ _ ND Aj B) as [-> ->]. done.
      * intros E. exfalso. apply Hij. by apply Hinj.
  - cbn beta. intros E HE. cbn [returns]. exists pos, box, R_, C_, N, E. split; [done|]. split; [done|]. split.
    { intros v Hv. destruct (HV' v Hv) as (i & j & A). rewrite (Hat _ _ _ A). destruct (placed_rev _ _ _ _ A) as [_ B]. apply placed_bounds in B as [B B']. fold gl in B, B'.
      destruct (column_point_ok w _ _ _ _ Hw B B' (max_group_len_big _ Hbig')) as [W1 W2]. fold cp in W1, W2. cbn [w_left w_right w_top w_bottom w] in W1, W2.
      split; [by apply page_x_in|by apply page_y_in]. }
    split; [done|]. split; [done|]. split; [done|]. split; [done|]. split; [|done].
    destruct HN as (L & HL & ->). exists L. split; [done|]. f_equal. apply list_fmap_ext. intros i v Hi. cbn beta. rewrite fill_labels_ok by done.
    destruct (decide (v ∈ V)); by rewrite lookup_empty.
Qed.

(** without the groups there is always an exception *)
Lemma draw_temporal_none D ign lat sel cols rows bk fg lc : ∃ e, draw_temporal_graph o D None ign lat sel cols rows bk fg lc = Raise e.
Proof.
  unfold draw_temporal_graph. cbv zeta. set (V := dnodes D). cbn [rev app].
  destruct cols as [c|]; [destruct (bool_decide _); cbn [assert_ mbind res_bind]; [|eauto]|cbn [mbind res_bind]];
    (destruct rows as [l|]; [cbn [list_last last mbind res_bind]; destruct (bool_decide _); cbn [assert_ mbind res_bind]; [|eauto]|cbn [mbind res_bind]]).
  all: assert (group_sort_of V (Some [o 439 V])) as HG by (cbn; rewrite app_nil_r; apply Ho).
  all: pose proof (base_init_ok o Ho V (Window (-1) 1 (-1) 1) (Some [o 439 V]) HG (λ _, 0%R) (λ _, 0%R)) as HB; apply returns_ok in HB as (p0 & -> & D0); cbn [mbind res_bind].
  all: destruct (decide (max_group_len [o 439 V] = 1)) as [H1|H1]; [unfold column_layout; rewrite decide_True by done; cbn [mbind res_bind]; eauto|].
  all: pose proof (column_ok o Ho V (Window (-1) 1 (-1) 1) (Some [o 439 V]) HG p0 D0 H1) as HB; apply returns_ok in HB as (p1 & -> & D1 & _); cbn [mbind res_bind].
  all: repeat match goal with |- context [map_pos o ?k ?W ?f ?p] =>
    match goal with H : dom p = W |- _ => let HB := fresh in let p' := fresh in let D' := fresh in
      pose proof (map_pos_ok o Ho k W f p H) as HB; apply returns_ok in HB as (p' & -> & D' & _); cbn [mbind res_bind] end end.
  all: eauto.
Qed.
(** groups of one node: no layout *)
Lemma draw_temporal_single D nsl ign lat sel bk fg lc : concat nsl ≡ₚ elements (dnodes D) → dnodes D ≠ ∅ → (∀ g, g ∈ nsl → length g ≤ 1) →
  draw_temporal_graph o D (Some nsl) ign lat sel None None bk fg lc = Raise ZeroDivisionError.
Proof.
  intros HP HV Hs. unfold draw_temporal_graph. cbv zeta. set (V := dnodes D) in *. cbn [mbind res_bind]. set (gl := rev nsl).
  assert (concat gl ≡ₚ elements V) as HPr.
  { unfold gl. rewrite <-HP. clear. induction nsl as [|g l IH]; [done|]. cbn [rev]. rewrite concat_app. cbn [concat]. rewrite app_nil_r, IH. apply Permutation_app_comm. }
  assert (group_sort_of V (Some gl)) as HG by done.
  pose proof (base_init_ok o Ho V (Window (-1) 1 (-1) 1) (Some gl) HG (λ _, 0%R) (λ _, 0%R)) as HB. apply returns_ok in HB as (p0 & -> & D0). cbn [mbind res_bind].
  unfold column_layout. rewrite decide_True; [done|]. destruct (max_group_len_ok gl) as [M1 M2].
  assert (∃ g, g ∈ gl ∧ length g ≠ 0) as (g & Hg & Hl).
  { apply set_choose_L in HV as [v Hv]. apply elem_of_elements in Hv. rewrite <-HPr in Hv. apply elem_of_list_In, in_concat in Hv as (g & Hg & Hv).
    apply elem_of_list_In in Hg. exists g. split; [done|]. by destruct g. }
  specialize (M1 g Hg). destruct M2 as [M2|(h & Hh & M2)]; [lia|].
  assert (h ∈ nsl) as Hh' by (apply elem_of_list_In in Hh; apply elem_of_list_In; by apply in_rev). specialize (Hs h Hh'). lia.
Qed.
End temporal.
