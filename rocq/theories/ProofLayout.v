(** Layouts: circles and columns. *)
From Coq Require Import Reals Lra.
From Verif Require Import Base BaseLemmas ModelCMI ModelLayout SpecLayout.
Local Open Scope nat_scope.

(** ** Loops that assign to the keys of a dict *)
Lemma for_assign {A} (L : list A) (f : A → layout → res layout) (key : A → nat) (val : A → R * R) (I : layout → Prop) (pos : layout) :
  NoDup (key <$> L) → I pos →
  (∀ x q, x ∈ L → I q → q !! key x = pos !! key x → f x q = Ok (<[key x := val x]> q) ∧ I (<[key x := val x]> q)) →
  returns (for_ L f pos) (λ q, I q ∧ (∀ x, x ∈ L → q !! key x = Some (val x)) ∧ ∀ u, u ∉ key <$> L → q !! u = pos !! u).
Proof.
  intros ND HI Hf.
  apply (for_returns_pre L f pos (λ pre q, I q ∧ (∀ x, x ∈ pre → q !! key x = Some (val x)) ∧ ∀ u, u ∉ key <$> pre → q !! u = pos !! u)).
  { split; [done|]. split; [by intros x Hx%elem_of_nil|done]. }
  intros pre x post q -> (Hq & Hv & Hu).
  rewrite fmap_app, fmap_cons in ND. apply NoDup_app in ND as (ND1 & ND2 & ND3).
  assert (key x ∉ key <$> pre) as Hx. { intros H. apply (ND2 _ H). apply elem_of_cons. by left. }
  destruct (Hf x q) as [E HI2]; [apply elem_of_app; right; by left|done|by apply Hu|].
  rewrite E. simpl. split; [done|]. split.
  - intros y [Hy|Hy%elem_of_list_singleton]%elem_of_app; [|subst; apply lookup_insert].
    rewrite lookup_insert_ne; [by apply Hv|]. intros E2. apply Hx. rewrite E2. apply elem_of_list_fmap. eauto.
  - intros u Hu2. rewrite fmap_app, elem_of_app in Hu2. rewrite lookup_insert_ne.
    + apply Hu. tauto.
    + intros <-. apply Hu2. right. by left.
Qed.

Lemma for_fmap {A B S} (g : A → B) (l : list A) (f : B → S → res S) s : for_ (g <$> l) f s = for_ l (λ x, f (g x)) s.
Proof. revert s. induction l as [|x l IH]; intros s; simpl; [done|]. destruct (f (g x) s); simpl; [apply IH|done..]. Qed.
Lemma for_nested {A B S} (L : list A) (g : A → list B) (h : A → B → S → res S) s :
  for_ L (λ x s, for_ (g x) (h x) s) s = for_ (L ≫= λ x, (x,.) <$> g x) (λ xy, h xy.1 xy.2) s.
Proof.
  revert s. induction L as [|x L IH]; intros s; [done|]. simpl. rewrite for_app, for_fmap. simpl.
  destruct (for_ (g x) (h x) s); simpl; [apply IH|done..].
Qed.

Section lay.
Variable o : order.
Hypothesis Ho : iter_ok o.
Variable V : nset.
Variable w : window.
Variable gs : option (list (list node)).
Hypothesis HG : group_sort_of V gs.

Lemma nodes_order_ok k : nodes_order o V gs k ≡ₚ elements V.
Proof. unfold nodes_order. destruct gs; [done|apply Ho]. Qed.
Lemma nodes_order_length k : length (nodes_order o V gs k) = size V.
Proof. by rewrite nodes_order_ok. Qed.
Lemma order_keys (l : list nat) n : length l = n → (λ i, l !!! i) <$> seq 0 n = l.
Proof.
  intros <-. apply list_eq. intros i. rewrite list_lookup_fmap. destruct (decide (i < length l)) as [Hi|Hi].
  - rewrite lookup_seq_lt by done. simpl. destruct (lookup_lt_is_Some_2 l i Hi) as [x Hx]. by rewrite Hx, (list_lookup_total_correct _ _ _ Hx).
  - rewrite lookup_seq_ge by lia. rewrite lookup_ge_None_2 by lia. done.
Qed.
Lemma list_get_ok k i : i < size V → list_get (nodes_order o V gs k) i = Ok (nodes_order o V gs k !!! i).
Proof.
  intros Hi. unfold list_get. rewrite <-(nodes_order_length k) in Hi. destruct (lookup_lt_is_Some_2 _ _ Hi) as [x Hx].
  by rewrite Hx, (list_lookup_total_correct _ _ _ Hx).
Qed.

Lemma base_init_ok ux uy : returns (base_init o V w gs ux uy) (λ pos, dom pos = V).
Proof.
  unfold base_init. set (l := nodes_order o V gs 24).
  eapply returns_mono; [apply (for_assign _ _ (λ i, l !!! i)
    (λ i, match gs with Some _ => (linspace (w_left w) (w_right w) (size V) i, linspace (w_top w) (w_bottom w) (size V) i) | None => (ux i * (2 / 10), uy i * (2 / 10))%R end)
    (λ q, dom q ⊆ V))|].
  - rewrite order_keys by apply nodes_order_length. unfold l. rewrite nodes_order_ok. apply NoDup_elements.
  - rewrite dom_empty_L. set_solver.
  - intros i q Hi Hq _. apply elem_of_seq in Hi. unfold l. rewrite list_get_ok by lia. simpl. split; [done|].
    rewrite dom_insert_L. intros z [->%elem_of_singleton|Hz]%elem_of_union; [|by apply Hq].
    apply elem_of_elements. rewrite <-(nodes_order_ok 24). apply elem_of_list_lookup_total_2. rewrite nodes_order_length. lia.
  - cbn beta. intros q (Hq & Hv & _). apply leibniz_equiv. intros z. split; [apply Hq|]. intros Hz.
    apply elem_of_elements in Hz. rewrite <-(nodes_order_ok 24) in Hz. apply elem_of_list_lookup in Hz as [i Hi].
    assert (i < size V) as Hlt by (rewrite <-(nodes_order_length 24); by eapply lookup_lt_Some).
    assert (i ∈ seq 0 (size V)) as Hs by (apply elem_of_seq; lia). apply Hv in Hs. unfold l in Hs. rewrite (list_lookup_total_correct _ _ _ Hi) in Hs.
    apply elem_of_dom. by eexists.
Qed.

(** ** Circles *)
Definition circle_point (i : nat) : R * R :=
  ((w_left w + w_right w) / 2 + (w_right w - w_left w) / 2 * cos (2 * PI * INR i / INR (size V)),
   (w_top w + w_bottom w) / 2 + (w_bottom w - w_top w) / 2 * sin (2 * PI * INR i / INR (size V)))%R.
Lemma circle_ok pos : dom pos = V → returns (circle_layout o V w gs pos) (λ q, dom q = V ∧
  ∀ i v, nodes_order o V gs 113 !! i = Some v → q !! v = Some (circle_point i)).
Proof.
  intros Hd. unfold circle_layout. set (l := nodes_order o V gs 113).
  eapply returns_mono; [apply (for_assign _ _ (λ i, l !!! i) circle_point (λ q, dom q = V))|].
  - rewrite order_keys by apply nodes_order_length. unfold l. rewrite nodes_order_ok. apply NoDup_elements.
  - done.
  - intros i q Hi Hq _. apply elem_of_seq in Hi. unfold l. rewrite list_get_ok by lia. cbn [mbind res_bind].
    assert (nodes_order o V gs 113 !!! i ∈ V) as Hin.
    { apply elem_of_elements. rewrite <-(nodes_order_ok 113). apply elem_of_list_lookup_total_2. rewrite nodes_order_length. lia. }
    split; [|rewrite dom_insert_L; set_solver]. unfold set_pos.
    assert (is_Some (q !! (nodes_order o V gs 113 !!! i))) as [p ->] by (apply elem_of_dom; by rewrite Hq).
    do 2 f_equal. unfold circle_point, linspace. rewrite decide_False by lia. replace (size V + 1 - 1) with (size V) by lia.
    replace (0 + INR i * ((2 * PI - 0) / INR (size V)))%R with (2 * PI * INR i / INR (size V))%R by (unfold Rdiv; ring).
    f_equal; [f_equal; f_equal; ring|f_equal; f_equal; ring].
  - cbn beta. intros q (Hq & Hv & _). split; [done|]. intros i v Hi. rewrite <-(Hv i).
    + by rewrite (list_lookup_total_correct _ _ _ Hi).
    + apply elem_of_seq. apply lookup_lt_Some in Hi. unfold l in Hi. rewrite nodes_order_length in Hi. lia.
Qed.
End lay.

Lemma angle_inj a b : (0 <= a < 2 * PI)%R → (0 <= b < 2 * PI)%R → cos a = cos b → sin a = sin b → a = b.
Proof.
  assert (∀ a b, (0 <= a < 2 * PI)%R → (0 <= b < 2 * PI)%R → cos a = cos b → sin a = sin b → (b < a)%R → False) as H.
  { clear. intros a b Ha Hb Hc Hs Hlt.
    assert (cos (a - b) = 1)%R as H1.
    { rewrite cos_minus, Hc, Hs. pose proof (sin2_cos2 b) as H. unfold Rsqr in H. lra. }
    assert (cos (2 * ((a - b) / 2)) = 1)%R as H2 by (replace (2 * ((a - b) / 2))%R with (a - b)%R by lra; done).
    rewrite cos_2a_sin in H2.
    assert (0 < sin ((a - b) / 2))%R as H3 by (apply sin_gt_0; lra).
    nra. }
  intros Ha Hb Hc Hs. destruct (Rtotal_order a b) as [H1|[H1|H1]]; [exfalso; by apply (H b a)|done|exfalso; by apply (H a b)].
Qed.
Lemma circle_angle i n : i < n → (0 <= 2 * PI * INR i / INR n < 2 * PI)%R.
Proof.
  intros Hi. assert (0 < INR n)%R as Hn by (apply lt_0_INR; lia). assert (0 <= INR i)%R as H0 by apply pos_INR. assert (INR i < INR n)%R as H1 by (by apply lt_INR).
  pose proof PI_RGT_0 as HP. split.
  - apply Rmult_le_pos; [nra|]. by apply Rlt_le, Rinv_0_lt_compat.
  - apply (Rmult_lt_reg_r (INR n)); [done|]. unfold Rdiv. rewrite Rmult_assoc, Rinv_l by lra. nra.
Qed.
Lemma circle_point_ok V w i : proper_window w → in_window w (circle_point V w i) ∧ on_ellipse w (circle_point V w i).
Proof.
  intros [H1 H2]. unfold circle_point. set (t := (2 * PI * INR i / INR (size V))%R). pose proof (COS_bound t) as Hc. pose proof (SIN_bound t) as Hs. split.
  - unfold in_window. cbn [fst snd]. split; nra.
  - unfold on_ellipse. cbn [fst snd].
    replace (((w_left w + w_right w) / 2 + (w_right w - w_left w) / 2 * cos t - (w_left w + w_right w) / 2) / ((w_right w - w_left w) / 2))%R with (cos t) by (field; lra).
    replace (((w_top w + w_bottom w) / 2 + (w_bottom w - w_top w) / 2 * sin t - (w_top w + w_bottom w) / 2) / ((w_bottom w - w_top w) / 2))%R with (sin t) by (field; lra).
    pose proof (sin2_cos2 t) as H. unfold Rsqr in H. nra.
Qed.
Lemma circle_point_inj V w i j : proper_window w → i < size V → j < size V → circle_point V w i = circle_point V w j → i = j.
Proof.
  intros [H1 H2] Hi Hj E. unfold circle_point in E. injection E as Ex Ey.
  assert (2 * PI * INR i / INR (size V) = 2 * PI * INR j / INR (size V))%R as Ea.
  { apply angle_inj; [by apply circle_angle..| |]; nra. }
  assert (0 < INR (size V))%R as Hn by (apply lt_0_INR; lia). pose proof PI_RGT_0 as HP.
  apply INR_eq. apply (Rmult_eq_reg_l (2 * PI / INR (size V))).
  - unfold Rdiv in *. lra.
  - apply Rgt_not_eq. apply Rmult_lt_0_compat; [lra|]. by apply Rinv_0_lt_compat.
Qed.

Theorem circle_layout_spec o V w gs ux uy : iter_ok o → proper_window w → group_sort_of V gs →
  returns (pos ← base_init o V w gs ux uy; circle_layout o V w gs pos) (λ q, dom q = V ∧
    (∀ v p, q !! v = Some p → in_window w p ∧ on_ellipse w p) ∧ distinct_positions q ∧
    ∀ i v, nodes_order o V gs 113 !! i = Some v → q !! v = Some (circle_point V w i)).
Proof.
  intros Ho Hw HG. eapply returns_bind; [by apply base_init_ok|]. cbn beta. intros pos Hd.
  eapply returns_mono; [by apply circle_ok|]. cbn beta. intros q [Hq Hv].
  assert (∀ v p, q !! v = Some p → ∃ i, i < size V ∧ nodes_order o V gs 113 !! i = Some v ∧ p = circle_point V w i) as Hi.
  { intros v p Hp. assert (v ∈ V) as Hin by (rewrite <-Hq; apply elem_of_dom; by eexists).
    apply elem_of_elements in Hin. rewrite <-(nodes_order_ok o Ho V gs HG 113) in Hin. apply elem_of_list_lookup in Hin as [i Hi].
    exists i. split; [rewrite <-(nodes_order_length o Ho V gs HG 113); by eapply lookup_lt_Some|]. split; [done|]. specialize (Hv i v Hi). congruence. }
  split; [done|]. split; [|split; [|done]].
  - intros v p Hp. destruct (Hi v p Hp) as (i & _ & _ & ->). by apply circle_point_ok.
  - intros u v p Hu Hvp. destruct (Hi u p Hu) as (i & Hi1 & Hi2 & Ei). destruct (Hi v p Hvp) as (j & Hj1 & Hj2 & Ej).
    assert (i = j) as -> by (apply (circle_point_inj V w); [done..|congruence]). congruence.
Qed.
