(** Proofs about draw_edge, draw_node and draw_graph. *)
From Coq Require Import Reals Lra String.
From Verif Require Import Base BaseLemmas ModelGraph Spec ModelMixed SpecMixed ProofMixed ModelPDS ModelLayout SpecLayout ModelDraw SpecDraw.
From Verif Require Import ModelCMI ProofLayout ProofLayout3 ProofGraph3 ProofPAG ProofPDAG3.
Local Open Scope nat_scope.

(** ** the geometry of one edge *)
Lemma sqr_pos (x : R) : x ≠ 0%R → (0 < x * x)%R.
Proof. intros H. destruct (Rtotal_order x 0) as [Hl|[Hl|Hl]]; nra. Qed.
Lemma point_eq (p q : R * R) : p = q ∨ p ≠ q.
Proof. destruct p as [a b], q as [c d]. destruct (Req_dec a c) as [->|H], (Req_dec b d) as [->|H']; (by left) || (right; congruence). Qed.
Lemma dist_pos (p q : R * R) : p ≠ q → (0 < R_sqrt.sqrt ((q.1 - p.1) * (q.1 - p.1) + (q.2 - p.2) * (q.2 - p.2)))%R.
Proof.
  intros H. apply sqrt_lt_R0. destruct p as [a b], q as [c d]. cbn [fst snd].
  destruct (Req_dec a c) as [->|H1]; [destruct (Req_dec b d) as [->|H2]; [done|]|].
  - pose proof (sqr_pos (d - b)) as H3. replace ((c - c) * (c - c))%R with 0%R by ring. rewrite Rplus_0_l. apply H3. lra.
  - pose proof (sqr_pos (c - a)) as H3. apply Rplus_lt_le_0_compat; [apply H3; lra|]. apply Rle_0_sqr.
Qed.
Lemma euclid_sym p q : euclid p q = euclid q p.
Proof. unfold euclid. f_equal. ring. Qed.
Lemma euclid_dist (p q : R * R) : R_sqrt.sqrt ((q.1 - p.1) * (q.1 - p.1) + (q.2 - p.2) * (q.2 - p.2)) = euclid p q.
Proof. unfold euclid. f_equal. ring. Qed.
Lemma euclid_pos p q : p ≠ q → (0 < euclid p q)%R.
Proof. intros H. rewrite <-euclid_dist. by apply dist_pos. Qed.
Lemma euclid_sq p q : (euclid p q * euclid p q = (p.1 - q.1) ^ 2 + (p.2 - q.2) ^ 2)%R.
Proof. unfold euclid. apply sqrt_sqrt. apply Rplus_le_le_0_compat; apply pow2_ge_0. Qed.
Lemma euclid_nonneg p q : (0 <= euclid p q)%R.
Proof. apply sqrt_pos. Qed.
Lemma euclid_eq p q d : (0 <= d)%R → ((p.1 - q.1) ^ 2 + (p.2 - q.2) ^ 2 = d * d)%R → euclid p q = d.
Proof. intros Hd H. unfold euclid. rewrite H. by apply sqrt_square. Qed.

Lemma towards_point p q d : p ≠ q → (0 <= d)%R →
  towards p q d (p.1 + d * ((q.1 - p.1) / euclid p q), p.2 + d * ((q.2 - p.2) / euclid p q))%R.
Proof.
  intros H Hd. pose proof (euclid_pos p q H) as He. pose proof (euclid_sq p q) as Hs. split.
  - apply euclid_eq; [done|]. cbn [fst snd].
    replace ((p.1 - (p.1 + d * ((q.1 - p.1) / euclid p q))) ^ 2 + (p.2 - (p.2 + d * ((q.2 - p.2) / euclid p q))) ^ 2)%R
      with (d * d * ((p.1 - q.1) ^ 2 + (p.2 - q.2) ^ 2) / (euclid p q * euclid p q))%R by (field; lra).
    rewrite <-Hs. field. lra.
  - exists (d / euclid p q)%R. split; [apply Rmult_le_pos; [done|]; left; by apply Rinv_0_lt_compat|]. f_equal; field; lra.
Qed.
Lemma towards_point' p q d : p ≠ q → (0 <= d)%R →
  towards q p d (q.1 - d * ((q.1 - p.1) / euclid p q), q.2 - d * ((q.2 - p.2) / euclid p q))%R.
Proof.
  intros H Hd. pose proof (euclid_pos p q H) as He. pose proof (towards_point q p d (not_eq_sym H) Hd) as HT. rewrite (euclid_sym q p) in HT.
  replace (q.1 - d * ((q.1 - p.1) / euclid p q), q.2 - d * ((q.2 - p.2) / euclid p q))%R with
    (q.1 + d * ((p.1 - q.1) / euclid p q), q.2 + d * ((p.2 - q.2) / euclid p q))%R; [done|]. f_equal; field; lra.
Qed.
Lemma towards_unique p q d x y : p ≠ q → towards p q d x → towards p q d y → x = y.
Proof.
  intros H [D1 (s & Hs & ->)] [D2 (t & Ht & ->)]. pose proof (euclid_pos p q H) as He. pose proof (euclid_sq p q) as Hq.
  rewrite <-D2 in D1. clear D2.
  assert (∀ u, (0 <= u)%R → euclid p (p.1 + u * (q.1 - p.1), p.2 + u * (q.2 - p.2))%R = (u * euclid p q)%R) as HU.
  { intros u Hu. apply euclid_eq; [nra|]. cbn [fst snd]. replace (u * euclid p q * (u * euclid p q))%R with (u * u * (euclid p q * euclid p q))%R by ring. rewrite Hq. ring. }
  rewrite !HU in D1 by done. assert (s = t) as -> by nra. done.
Qed.
(** the ends of the line *)
Lemma towards_gap p q d e a b : p ≠ q → (d + e <= euclid p q)%R → towards p q d a → towards q p e b → euclid a b = (euclid p q - d - e)%R.
Proof.
  intros H Hde Ha Hb. assert (0 <= d)%R as Hd by (destruct Ha as [<- _]; apply euclid_nonneg). assert (0 <= e)%R as He' by (destruct Hb as [<- _]; apply euclid_nonneg).
  rewrite (towards_unique p q d _ _ H Ha (towards_point p q d H Hd)). rewrite (towards_unique q p e _ _ (not_eq_sym H) Hb (towards_point' p q e H He')).
  pose proof (euclid_pos p q H) as He. pose proof (euclid_sq p q) as Hq. apply euclid_eq; [lra|]. cbn [fst snd].
  replace ((p.1 + d * ((q.1 - p.1) / euclid p q) - (q.1 - e * ((q.1 - p.1) / euclid p q))) ^ 2 +
    (p.2 + d * ((q.2 - p.2) / euclid p q) - (q.2 - e * ((q.2 - p.2) / euclid p q))) ^ 2)%R
    with (((p.1 - q.1) ^ 2 + (p.2 - q.2) ^ 2) * ((euclid p q - d - e) * (euclid p q - d - e)) / (euclid p q * euclid p q))%R by (field; lra).
  rewrite <-Hq. field. lra.
Qed.

Lemma draw_edge_eq np p q r m0 m1 lc fc t tc cur : p ≠ q →
  draw_edge np p q r m0 m1 lc fc t tc cur =
  let off m := if decide (m = Some Circle) then (r / 4 + r)%R else r in
  let a := (p.1 + off m0 * ((q.1 - p.1) / euclid p q), p.2 + off m0 * ((q.2 - p.2) / euclid p q))%R in
  let b := (q.1 - off m1 * ((q.1 - p.1) / euclid p q), q.2 - off m1 * ((q.2 - p.2) / euclid p q))%R in
  let T := match t with Some t => [SText (Some ((b.1 + a.1) / 2, (b.2 + a.2) / 2)%R) t tc (Some fc)] | None => [] end in
  if decide (m0 = None ∧ m1 = None) then Ok (SLine (Some a) (Some b) ATo lc (curvature p q r cur) :: T) else
  let c := edge_color lc m0 m1 in
  Ok (SLine (Some a) (Some b) (arrow_style m0 m1) c (curvature p q r cur) ::
      (if decide (m0 = Some Circle) then [SDisc (Some a) (r / 4) fc c] else []) ++
      (if decide (m1 = Some Circle) then [SDisc (Some b) (r / 4) fc c] else []) ++ T).
Proof.
  intros H. unfold draw_edge. cbv zeta. rewrite euclid_dist. pose proof (euclid_pos p q H) as He.
  destruct (Req_EM_T (euclid p q) 0) as [E|E]; [lra|]. cbn [andb]. unfold curvature. destruct cur; cbn [mbind res_bind]; done.
Qed.

Lemma edge_color_kind lc j k : edge_color lc (Some j) (Some k) = if decide (lower lc = "auto"%string) then kind_color j k else lc.
Proof. unfold edge_color. destruct (decide (lower lc = "auto"%string)); [|done]. destruct j, k; done. Qed.
Lemma arrow_style_heads j k : heads (arrow_style (Some j) (Some k)) = (is_head j, is_head k).
Proof. destruct j, k; done. Qed.
Lemma draw_edge_ok np p q r j k lc fc t tc cur : p ≠ q → (0 <= r)%R →
  returns (draw_edge np p q r (Some j) (Some k) lc fc t tc cur) (edge_drawn p q r j k lc fc t tc cur).
Proof.
  intros H Hr. rewrite draw_edge_eq by done. cbv zeta. rewrite decide_False by (by intros [? ?]). cbn [returns].
  exists (p.1 + reach r j * ((q.1 - p.1) / euclid p q), p.2 + reach r j * ((q.2 - p.2) / euclid p q))%R,
    (q.1 - reach r k * ((q.1 - p.1) / euclid p q), q.2 - reach r k * ((q.2 - p.2) / euclid p q))%R, (arrow_style (Some j) (Some k)).
  assert (0 <= reach r j ∧ 0 <= reach r k)%R as [R1 R2] by (split; [destruct j|destruct k]; cbn [reach]; lra).
  split; [by apply towards_point|]. split; [by apply towards_point'|]. split; [apply arrow_style_heads|]. cbv zeta. rewrite edge_color_kind.
  assert (∀ m, (if decide (Some m = Some Circle) then r / 4 + r else r)%R = reach r m) as Hoff by (intros []; unfold reach; [rewrite decide_True by done; ring|by rewrite decide_False by done..]). rewrite !Hoff.
  unfold midpoint. cbn [fst snd]. f_equal. f_equal; [by destruct j|]. f_equal; [by destruct k|]. destruct t; [|done]. f_equal. assert (∀ a b a' b' : R, ((a + b) / 2, (a' + b') / 2) = ((b + a) / 2, (b' + a') / 2))%R as HC by (intros; f_equal; lra). by rewrite HC.
Qed.
Lemma draw_arrow_ok np p q r lc fc tc cur : p ≠ q → (0 <= r)%R →
  returns (draw_edge np p q r None None lc fc None tc cur) (arrow_drawn p q r lc cur).
Proof.
  intros H Hr. rewrite draw_edge_eq by done. cbv zeta. rewrite (decide_True _ _ (conj eq_refl eq_refl)). cbn [returns].
  rewrite decide_False by done. eexists _, _. split; [by apply towards_point|]. split; [by apply towards_point'|]. done.
Qed.
(** coinciding nodes: no exception with numpy numbers and straight lines *)
Lemma draw_edge_straight p q r m0 m1 lc fc t tc : returns (draw_edge true p q r m0 m1 lc fc t tc false) (λ _, True).
Proof.
  unfold draw_edge. cbv zeta. destruct (Req_EM_T _ 0); cbn [andb negb mbind res_bind]; destruct (decide _); done.
Qed.

(** ** loops that append *)
Lemma for_append {A} (l : list A) (f : A → list shape → res (list shape)) (keep : A → bool) (Q : A → list shape → Prop) P0 :
  (∀ x P, x ∈ l → returns (f x P) (λ P', ∃ E, P' = P ++ E ∧ if keep x then Q x E else E = [])) →
  returns (for_ l f P0) (λ P, ∃ Es, P = P0 ++ concat Es ∧ Forall2 Q (filter (λ x, keep x = true) l) Es).
Proof.
  intros Hf. apply (for_returns_pre l f P0 (λ pre P, ∃ Es, P = P0 ++ concat Es ∧ Forall2 Q (filter (λ x, keep x = true) pre) Es)).
  { exists []. split; [by rewrite app_nil_r|constructor]. }
  intros pre x post P -> (Es & -> & HE). eapply returns_mono; [apply Hf; set_solver|]. cbn beta. intros P' (E & -> & HK).
  rewrite filter_app. destruct (keep x) eqn:K.
  - exists (Es ++ [E]). split; [by rewrite concat_app, <-app_assoc; cbn [concat]; rewrite app_nil_r|]. apply Forall2_app; [done|].
    rewrite filter_cons_True by done. rewrite filter_nil. by repeat constructor.
  - subst E. exists Es. split; [by rewrite app_nil_r|]. rewrite filter_cons_False by (by rewrite K). by rewrite filter_nil, app_nil_r.
Qed.

Lemma nodup_pairs (l : list nat) (g : nat → list nat) : NoDup l → (∀ x, NoDup (g x)) → NoDup (l ≫= λ x, (x,.) <$> g x).
Proof.
  intros Hl Hg. induction Hl as [|x l Hx _ IH]; [constructor|]. cbn [mbind list_bind]. apply NoDup_app. split; [|split; [|done]].
  - apply NoDup_fmap_2; [by intros ? ? [= ->]|done].
  - intros [a b] H1 H2. apply elem_of_list_fmap in H1 as (? & [= -> ->] & _). apply elem_of_list_bind in H2 as (y & H2 & Hy).
    apply elem_of_list_fmap in H2 as (? & [= -> _] & _). done.
Qed.

Section draw.
Variable o : order.
Hypothesis Ho : iter_ok o.

Lemma map_pos_ok k V f pos : dom pos = V → returns (map_pos o k V f pos) (λ q, dom q = V ∧ ∀ v, v ∈ V → at_ q v = f (at_ pos v)).
Proof.
  intros Hd. unfold map_pos. eapply returns_mono; [apply (for_assign (o k V) _ (λ v, v) (λ v, f (at_ pos v)) (λ q, dom q = V) pos)|].
  - rewrite list_fmap_id. by apply iter_nodup.
  - done.
  - intros v q Hv Hq E. apply iter_elem in Hv; [|done]. unfold get_pos. rewrite E.
    assert (is_Some (pos !! v)) as [p Hp] by (apply elem_of_dom; by rewrite Hd). unfold at_. rewrite Hp. cbn. split; [done|]. rewrite dom_insert_L. set_solver.
  - cbn beta. intros q (H1 & H2 & _). split; [done|]. intros v Hv. unfold at_ at 1. rewrite (H2 v); [done|]. by apply iter_elem.
Qed.
Lemma at_ok (pos : layout) v : v ∈ dom pos → pos !! v = Some (at_ pos v).
Proof. intros H. apply elem_of_dom in H as [p Hp]. unfold at_. by rewrite Hp. Qed.

Lemma fill_labels_ok V lab v : fill_labels o V lab !! v = if decide (v ∈ V) then Some (default (LNum v) (lab !! v)) else lab !! v.
Proof.
  unfold fill_labels.
  assert (∀ l lab, foldl (λ lab v, match lab !! v with Some _ => lab | None => <[v := LNum v]> lab end) lab l !! v =
    if decide (v ∈ l) then Some (default (LNum v) (lab !! v)) else (lab : labels) !! v) as H.
  { clear lab. induction l as [|x l IH]; intros lab; [done|]. cbn [foldl]. rewrite IH. clear IH.
    destruct (lab !! x) as [y|] eqn:E.
    - destruct (decide (v = x)) as [->|Hne].
      + rewrite E. rewrite (decide_True (P := x ∈ x :: l)) by set_solver. by destruct (decide (x ∈ l)).
      + assert (v ∈ x :: l ↔ v ∈ l) as Hiff by set_solver. destruct (decide (v ∈ l)), (decide (v ∈ x :: l)); tauto.
    - destruct (decide (v = x)) as [->|Hne].
      + rewrite lookup_insert, E. rewrite (decide_True (P := x ∈ x :: l)) by set_solver. by destruct (decide (x ∈ l)).
      + rewrite lookup_insert_ne by done. assert (v ∈ x :: l ↔ v ∈ l) as Hiff by set_solver. destruct (decide (v ∈ l)), (decide (v ∈ x :: l)); tauto. }
  rewrite H. destruct (decide (v ∈ V)); [rewrite decide_True by (by apply iter_elem)|rewrite decide_False by (by rewrite iter_elem)]; done.
Qed.

Lemma node_shapes_ok r lat sel bk fg p l v : node_shapes r lat sel bk fg p l v = node_drawn lat sel bk fg r p l v.
Proof.
  unfold node_shapes, node_drawn, draw_node. cbv zeta. rewrite (Rmult_comm 2 r). destruct (decide (v ∈ lat)).
  - by rewrite decide_True by set_solver.
  - destruct (decide (v ∈ sel)); [by rewrite decide_True by set_solver|by rewrite decide_False by set_solver].
Qed.
Lemma draw_nodes_ok k V r lat sel bk fg pos lab : V ⊆ dom pos → V ⊆ dom lab →
  returns (draw_nodes o k V r lat sel bk fg pos lab) (nodes_drawn V lat sel bk fg r pos (λ v, default (LNum v) (lab !! v))).
Proof.
  intros Hd Hl. unfold draw_nodes.
  eapply returns_mono; [apply (for_append (o k V) _ (λ _, true) (λ v E, E = node_drawn lat sel bk fg r (at_ pos v) (default (LNum v) (lab !! v)) v))|].
  - intros v P Hv. apply iter_elem in Hv; [|done]. unfold get_label. assert (is_Some (lab !! v)) as [l El] by (apply elem_of_dom; set_solver). rewrite El.
    cbn [mbind res_bind]. rewrite get_pos_ok by set_solver. cbn [mbind res_bind returns]. eexists. split; [done|]. by rewrite node_shapes_ok.
  - cbn beta. intros P (Es & -> & HE). exists (o k V). split; [apply Ho|]. cbn [app]. f_equal.
    assert (∀ l : list nat, filter (λ _ : nat, true = true) l = l) as Hf. { induction l as [|x l IH]; [done|]. rewrite filter_cons_True by done. by rewrite IH. }
    rewrite Hf in HE. clear Hf. revert HE. generalize (o k V) as L. induction 1 as [|x y l l' -> _ IH]; [done|]. cbn. by rewrite IH.
Qed.

Lemma draw_edges_ok k k1 k2 D r lc bk pos skip cur dcur (keep : node → node → Prop) (crv : node → node → Prop) :
  drawable_wf D → dom pos = dnodes D → (0 <= r)%R →
  (∀ i j, skip i j = false ↔ keep i j) → (∀ i j, keep i j → keep j i) →
  match D with
  | DPag g _ => ∀ i j, mg_adj g i j → keep i j → ∃ b, cur i j = Ok b ∧ (b = true ↔ crv i j) ∧ (at_ pos i = at_ pos j → b = false)
  | DDag g => ∀ p c, edge g p c → keep p c → (dcur = true ↔ crv p c) ∧ (at_ pos p = at_ pos c → dcur = false)
  end →
  returns (draw_edges o k k1 k2 D r lc bk pos skip cur dcur) (edges_drawn D pos r lc bk keep crv).
Proof.
  intros HD Hd Hr Hsk Hsym Hcur. destruct D as [g|g vis]; cbn [draw_edges edges_drawn dnodes drawable_wf] in *.
  - destruct HD as [HW _]. rewrite for_nested.
    set (L := o k1 (gnodes g) ≫= λ x, (x,.) <$> o k2 (parents g x)).
    assert (∀ c p, (c, p) ∈ L ↔ edge g p c) as HL.
    { intros c p. unfold L. rewrite elem_of_list_bind. split.
      - intros (x & Hx & _). apply elem_of_list_fmap in Hx as (y & [= <- <-] & Hy). by apply iter_elem in Hy.
      - intros He. exists c. split; [apply elem_of_list_fmap; exists p; split; [done|by apply iter_elem]|apply iter_elem; [done|]]. by apply HW in He as [_ ?]. }
    assert (NoDup L) as HND.
    { unfold L. apply nodup_pairs; [by apply iter_nodup|]. intros x. by apply iter_nodup. }
    eapply returns_mono; [apply (for_append L _ (λ x, negb (skip x.2 x.1)) (λ x E, ∃ b, (b = true ↔ crv x.2 x.1) ∧ (at_ pos x.2 ≠ at_ pos x.1 →
      arrow_drawn (at_ pos x.2) (at_ pos x.1) r (if decide (lc = "auto"%string) then "black"%string else lc) b E)))|].
    + intros [c p] P Hx. apply HL in Hx. cbn [fst snd]. destruct (skip p c) eqn:Sk; cbn [negb returns]; [exists []; by rewrite app_nil_r|].
      destruct (HW _ _ Hx) as [Hp Hc]. destruct (Hcur p c Hx) as [C1 C2]; [by apply Hsk|].
      rewrite !get_pos_ok by (by rewrite Hd). cbn [mbind res_bind].
      destruct (point_eq (at_ pos p) (at_ pos c)) as [Heq|Hne].
      * rewrite (C2 Heq) in *. eapply returns_bind; [apply draw_edge_straight|]. cbn beta. intros E _. cbn [returns]. exists E. split; [done|]. exists false. by split.
      * eapply returns_bind; [by apply draw_arrow_ok|]. cbn beta. intros E HE. cbn [returns]. exists E. split; [done|]. by exists dcur.
    + cbn beta. intros P (Es & -> & HE). exists ((λ x : node * node, (x.2, x.1)) <$> filter (λ x, negb (skip x.2 x.1) = true) L), Es. split_and!.
      * apply NoDup_fmap_2; [intros [] []; by intros [= -> ->]|]. by apply NoDup_filter.
      * intros p c. rewrite <-Hsk. split.
        -- intros H. apply elem_of_list_fmap in H as ([a b] & [= -> ->] & H). apply elem_of_list_filter in H as [H1 H2]. cbn [fst snd] in H1. apply HL in H2. split; [done|]. by destruct (skip _ _).
        -- intros [H1 H2]. apply elem_of_list_fmap. exists (c, p). split; [done|]. apply elem_of_list_filter. cbn [fst snd]. rewrite H2. split; [done|by apply HL].
      * done.
      * apply Forall2_fmap_l. eapply Forall2_impl; [exact HE|]. by intros [c p] E.
  - pose proof (comb2_iter o k (mnodes g)) as HC.
    assert (∀ i j, (i, j) ∈ comb2 (o k (mnodes g)) → i ∈ mnodes g ∧ j ∈ mnodes g ∧ i ≠ j) as HC1 by (intros i j; by apply HC).
    assert (∀ i j, mg_adj g i j → i ∈ mnodes g ∧ j ∈ mnodes g ∧ i ≠ j) as Hin by (intros i j [m Hm]; by apply (mgw_in _ HD) in Hm).
    assert (∀ i j, mg_adj g i j → mg_adj g j i) as Hadjs by (intros i j [m Hm]; by apply (mgw_both _ HD) in Hm).
    set (keep' := λ x : node * node, negb (skip x.1 x.2) && connected PAG_T g x.1 x.2).
    assert (∀ i j, keep' (i, j) = true ↔ mg_adj g i j ∧ keep i j) as HK.
    { intros i j. unfold keep'. cbn [fst snd]. rewrite andb_true_iff, connected_pag, <-Hsk by done. destruct (skip i j); cbn [negb]; naive_solver. }
    eapply returns_mono; [apply (for_append (comb2 (o k (mnodes g))) _ keep' (λ x E, ∃ ki kj t b, has_mark g x.2 ki x.1 ∧ has_mark g x.1 kj x.2 ∧ (b = true ↔ crv x.1 x.2) ∧
        (t = Some (LStr "v") ∧ visible vis x.1 x.2 ∨ t = None ∧ ¬ visible vis x.1 x.2) ∧
        (at_ pos x.1 ≠ at_ pos x.2 → edge_drawn (at_ pos x.1) (at_ pos x.2) r ki kj lc bk t "black" b E)))|].
    + intros [i j] P Hx. destruct (HC1 _ _ Hx) as (Hi & Hj & Hne). cbn [fst snd].
      destruct (skip i j) eqn:Sk; [unfold keep'; cbn [fst snd]; rewrite Sk; cbn [negb andb returns]; exists []; by rewrite app_nil_r|].
      unfold m_is_connected. rewrite bool_decide_true by done. cbn [assert_ mbind res_bind].
      destruct (connected PAG_T g i j) eqn:Co; [|unfold keep'; cbn [fst snd]; rewrite Sk, Co; cbn [negb andb returns]; exists []; by rewrite app_nil_r].
      assert (keep' (i, j) = true) as HKt by (unfold keep'; cbn [fst snd]; by rewrite Sk, Co). rewrite HKt. apply HK in HKt as [Hadj Hkp].
      destruct (Hcur i j Hadj Hkp) as (b & -> & Hb & Hbz). cbn [mbind res_bind]. rewrite !get_pos_ok by (by rewrite Hd). cbn [mbind res_bind].
      destruct Hadj as [kj Hkj]. destruct (mgw_both _ HD _ _ _ Hkj) as [ki Hki].
      assert (get_edge_mark PAG_T g j i = Some ki) as -> by (by apply get_edge_mark_some).
      assert (get_edge_mark PAG_T g i j = Some kj) as -> by (by apply get_edge_mark_some).
      assert (edge_text vis i j = Some (LStr "v") ∧ visible vis i j ∨ edge_text vis i j = None ∧ ¬ visible vis i j) as Ht.
      { unfold edge_text, visible. destruct vis as [vs|]; [|right; split; [done|]; by intros (? & ? & _)].
        destruct (decide _) as [Hv|Hv]; [left; split; [done|]; by exists vs|right; split; [done|]]. by intros (? & [= <-] & ?). }
      destruct (point_eq (at_ pos i) (at_ pos j)) as [Heq|Hpne].
      * rewrite (Hbz Heq) in *. eapply returns_bind; [apply draw_edge_straight|]. cbn beta. intros E _. cbn [returns]. exists E. split; [done|]. by exists ki, kj, (edge_text vis i j), false.
      * eapply returns_bind; [by apply draw_edge_ok|]. cbn beta. intros E HE. cbn [returns]. exists E. split; [done|]. by exists ki, kj, (edge_text vis i j), b.
    + cbn beta. intros P (Es & -> & HE). exists (filter (λ x, keep' x = true) (comb2 (o k (mnodes g)))), Es. split_and!.
      * split; [apply NoDup_filter, comb2_nodup; by apply iter_nodup|]. split.
        -- intros i j. rewrite !elem_of_list_filter. intros [H1 H2]. apply HK in H1. split; [done|]. intros [_ H3].
           by apply (comb2_asym o Ho _ i j (iter_nodup o k _ Ho)) in H2.
        -- intros i j [H1 H2]. destruct (Hin _ _ H1) as (Hi & Hj & Hne). destruct (comb2_iter o k (mnodes g) i j Ho) as [_ HT].
           destruct (HT Hi Hj Hne) as [H3|H3]; [left|right]; apply elem_of_list_filter; (split; [|done]); apply HK; auto.
      * done.
      * eapply Forall2_impl; [exact HE|]. by intros [i j] E.
Qed.

Lemma dnbr_sub D v : drawable_wf D → v ∈ dnodes D → dnbr o D v ⊆ dnodes D.
Proof.
  intros HD _ u. destruct D as [g|g vis]; cbn [dnbr dnodes drawable_wf] in *.
  - destruct HD as [HW _]. rewrite find_adjacent_spec by done. intros [He|He]; apply HW in He; tauto.
  - rewrite elem_find_adj_pag. intros [[k Hk] _]. apply (mgw_in _ HD) in Hk. tauto.
Qed.

Definition win1000 : window := Window (-1000) 1000 (-1000) 1000.
Lemma win1000_proper : proper_window win1000.
Proof. split; cbn [w_left w_right w_top w_bottom win1000]; lra. Qed.

Lemma force_init_win V (rnd : nat → nat → R) : V ≠ ∅ → returns (force_init o V win1000 None None (rnd 0) (rnd 1) (rnd 2) (rnd 3)) (λ fk, dom fk.1 = V).
Proof.
  intros HV. assert (group_sort_of V None) as HG by done. unfold force_init. eapply returns_bind; [apply (base_init_ok o Ho V win1000 None HG)|]. cbn beta. intros p0 D0.
  assert (size V ≠ 0) as Hsz by (intros E; apply HV; by apply leibniz_equiv, size_empty_iff). rewrite decide_False by done.
  assert (0 < INR (size V))%R as Hp by (apply lt_0_INR; clear -Hsz; lia).
  destruct (Rle_dec 0 _) as [Hle|Hle].
  - cbn [mbind res_bind]. eapply returns_bind; [apply (base_init_ok o Ho V win1000 None HG)|]. cbn beta. intros p1 D1.
    eapply returns_bind; [by apply (circle_ok o Ho V win1000 None HG)|]. cbn beta. intros p2 _. done.
  - exfalso. apply Hle. apply Rmult_le_pos; [cbn [w_left w_right w_top w_bottom win1000]; lra|]. left. by apply Rinv_0_lt_compat.
Qed.

Theorem draw_graph_ok rnd D lat sel bk fg lc lt lab nsf : drawable_wf D → dnodes D ≠ ∅ → (0 <= nsf)%R →
  lt = None ∨ lt = Some "circular"%string ∨ lt = Some "force"%string →
  let r := (4 / 100 * nsf)%R in let V := dnodes D in
  returns (draw_graph o rnd D lat sel bk fg lc lt lab nsf) (λ '(P, lab'),
    (∀ v, lab' !! v = if decide (v ∈ V) then Some (default (LNum v) (default ∅ lab !! v)) else default ∅ lab !! v) ∧
    ∃ pos N E, dom pos = V ∧ P = N ++ E ∧
      ((r <= 1 / 4)%R → ∀ v, v ∈ V → in_square (2 * r) (1 - 2 * r) (at_ pos v)) ∧
      (lt = Some "circular"%string → (r < 1 / 4)%R → (∀ u v, u ∈ V → v ∈ V → at_ pos u = at_ pos v → u = v) ∧
        ∀ v, v ∈ V → euclid (at_ pos v) (1 / 2, 1 / 2)%R = (1 / 2 - 2 * r)%R) ∧
      nodes_drawn V (default ∅ lat) (default ∅ sel) bk fg r pos (λ v, default (LNum v) (default ∅ lab !! v)) N ∧
      edges_drawn D pos r lc bk (λ _ _, True) (λ _ _, False) E).
Proof.
  intros HD HV Hn Hlt. cbv zeta. unfold draw_graph. cbv zeta. set (V := dnodes D) in *. set (r := (4 / 100 * nsf)%R).
  fold win1000. pose proof win1000_proper as HW. assert (group_sort_of V None) as HG by done. assert (0 <= r)%R as Hr by (unfold r; lra).
  pose proof (force_init_win V rnd HV) as HF.
  eapply returns_bind; [exact HF|]. cbn beta. intros [p0 kc] D0. cbn [fst snd] in *.
  (* layout *)
  assert (returns (match lt with
        | None => force_layout o V win1000 (dnbr o D) kc 100 p0
        | Some s =>
          if decide (s = "circular"%string) then (pos ← base_init o V win1000 None (rnd 4) (rnd 5); circle_layout o V win1000 None pos)
          else if decide (s = "force"%string) then force_layout o V win1000 (dnbr o D) kc 100 p0
          else Raise ValueError
        end) (λ pos, dom pos = V ∧ (∀ v p, pos !! v = Some p → in_window win1000 p) ∧
          (lt = Some "circular"%string → distinct_positions pos ∧ ∀ v p, pos !! v = Some p → on_ellipse win1000 p))) as HL.
  { assert (returns (force_layout o V win1000 (dnbr o D) kc 100 p0) (λ pos, dom pos = V ∧ ∀ v p, pos !! v = Some p → in_window win1000 p)) as HFL.
    { eapply returns_mono; [apply (force_layout_window o V win1000 (dnbr o D) kc 100 p0 Ho); [intros v; by apply dnbr_sub|done|done]|].
      cbn beta. intros q [H1 H2]. split; [done|]. apply H2. lia. }
    destruct Hlt as [-> | [-> | ->]].
    - eapply returns_mono; [exact HFL|]. cbn beta. intros q [H1 H2]. done.
    - rewrite decide_True by done. eapply returns_mono; [by apply (circle_layout_spec o V win1000 None)|]. cbn beta. intros q (H1 & H2 & H3 & _).
      split; [done|]. split; [intros v p Hp; by apply (H2 v p)|]. intros _. split; [done|]. intros v p Hp. by apply (H2 v p).
    - rewrite decide_False by done. rewrite decide_True by done. eapply returns_mono; [exact HFL|]. cbn beta. intros q [H1 H2]. done. }
  eapply returns_bind; [exact HL|]. cbn beta. intros p1 (D1 & W1 & C1).
  eapply returns_bind; [by apply map_pos_ok|]. cbn beta. intros pos (D2 & P2).
  assert (∀ v, fill_labels o V (default ∅ lab) !! v = if decide (v ∈ V) then Some (default (LNum v) (default ∅ lab !! v)) else default ∅ lab !! v) as HLab by (intros v; apply fill_labels_ok).
  eapply returns_bind; [apply draw_nodes_ok; [by rewrite D2|]|].
  { intros v Hv. apply elem_of_dom. rewrite HLab, decide_True by done. eauto. }
  cbn beta. intros N HN.
  eapply returns_bind; [apply (draw_edges_ok 250 266 267 D r lc bk pos _ _ _ (λ _ _, True) (λ _ _, False) HD D2 Hr); [done|done|]|].
  { destruct D; [by intros|]. intros i j _ _. by exists false. }
  cbn beta. intros E HE. cbn [returns]. split; [done|]. exists pos, N, E. split; [done|]. split; [done|]. split; [|split; [|split; [|done]]].
  - intros Hr4 v Hv. rewrite P2 by done. destruct (W1 v (at_ p1 v)) as [X Y]; [apply at_ok; by rewrite D1|].
    cbn [w_left w_right w_top w_bottom win1000] in X, Y. unfold in_square. cbn [fst snd]. set (x := (at_ p1 v).1) in *. set (y := (at_ p1 v).2) in *.
    assert (∀ z, (-1000 <= z <= 1000)%R → (2 * r <= (z / 1000 * (1 - 4 * r) + 1) / 2 <= 1 - 2 * r)%R) as HZ; [|by split; apply HZ].
    intros z Hz. assert (-1 <= z / 1000 <= 1)%R by lra. set (u := (z / 1000)%R) in *. clearbody u. clear -H Hr Hr4. split; nra.
  - intros Hc Hr4. destruct (C1 Hc) as [C2 C3]. split.
    + intros u v Hu Hv. rewrite !P2 by done. intros [= E1 E2]. apply (C2 u v (at_ p1 u)); [apply at_ok; by rewrite D1|].
      rewrite (at_ok p1 v) by (by rewrite D1). f_equal. destruct (at_ p1 u) as [a b], (at_ p1 v) as [c d]. cbn [fst snd] in *.
      assert (∀ x y, ((x / 1000 * (1 - 4 * r) + 1) / 2 = (y / 1000 * (1 - 4 * r) + 1) / 2)%R → x = y) as HI by (intros; nra).
      by rewrite (HI _ _ E1), (HI _ _ E2).
    + intros v Hv. rewrite P2 by done. pose proof (C3 v (at_ p1 v)) as H3. specialize (H3 ltac:(apply at_ok; by rewrite D1)). unfold on_ellipse in H3. cbn [w_left w_right w_top w_bottom win1000] in H3.
      apply euclid_eq; [lra|]. cbn [fst snd]. set (x := (at_ p1 v).1) in *. set (y := (at_ p1 v).2) in *.
      replace ((((x - (-1000 + 1000) / 2) / ((1000 - -1000) / 2)) ^ 2 + ((y - (-1000 + 1000) / 2) / ((1000 - -1000) / 2)) ^ 2)%R) with ((x / 1000) ^ 2 + (y / 1000) ^ 2)%R in H3 by field.
      replace (((x / 1000 * (1 - 4 * r) + 1) / 2 - 1 / 2) ^ 2 + ((y / 1000 * (1 - 4 * r) + 1) / 2 - 1 / 2) ^ 2)%R with
        (((x / 1000) ^ 2 + (y / 1000) ^ 2) * ((1 / 2 - 2 * r) * (1 / 2 - 2 * r)))%R by field. rewrite H3. ring.
  - destruct HN as (L & HL1 & ->). exists L. split; [done|]. f_equal. apply list_fmap_ext. intros i v Hi. f_equal.
    assert (v ∈ V) as Hv by (apply elem_of_elements; rewrite <-HL1; by eapply elem_of_list_lookup_2). by rewrite HLab, decide_True by done.
Qed.

(** exceptions *)
Lemma draw_graph_empty rnd D lat sel bk fg lc lt lab nsf : dnodes D = ∅ → draw_graph o rnd D lat sel bk fg lc lt lab nsf = Raise ZeroDivisionError.
Proof. intros HV. unfold draw_graph. cbv zeta. by rewrite HV. Qed.
Lemma draw_graph_layout rnd D lat sel bk fg lc s lab nsf : dnodes D ≠ ∅ → s ≠ "circular"%string → s ≠ "force"%string →
  draw_graph o rnd D lat sel bk fg lc (Some s) lab nsf = Raise ValueError.
Proof.
  intros HV H1 H2. unfold draw_graph. cbv zeta. pose proof (force_init_win _ rnd HV) as HF. unfold win1000 in HF. apply returns_ok in HF as (fk & -> & _).
  cbn [mbind res_bind]. by rewrite !decide_False.
Qed.
End draw.
