(** Properties C103-C106: the pictures of plot_utils/draw_graph.py (over exact real numbers).  A picture is the list of the
    shapes in the order in which they are drawn. *)
From Coq Require Import Reals Lra String.
From Verif Require Import Base BaseLemmas ModelGraph Spec ModelMixed SpecMixed ProofMixed ModelPDS SpecPDS ModelLayout SpecLayout ModelDraw SpecDraw.
From Verif Require Import ProofGraph3 ProofMixed2 ProofPDS ProofPDS3 ProofPDS5 ProofPDS6 ProofLayout ProofDraw ProofDraw2 ProofDraw3 Paths.
Local Open Scope nat_scope.

(** ** C103: one edge *)
(** marks j and k at the nodes p and q; the visible line has the length that the nodes and the circles leave *)
Theorem C103_edge : ∀ np p q r j k lc fc text tc curved, p ≠ q → (0 <= r)%R →
  returns (draw_edge np p q r (Some j) (Some k) lc fc text tc curved) (λ P, edge_drawn p q r j k lc fc text tc curved P ∧
    ∃ a b st c rad P', P = SLine (Some a) (Some b) st c rad :: P' ∧
      ((reach r j + reach r k <= euclid p q)%R → euclid a b = (euclid p q - reach r j - reach r k)%R)).
Proof.
  intros np p q r j k lc fc text tc curved H Hr. eapply returns_mono; [by apply draw_edge_ok|]. intros P HP. split; [done|].
  destruct HP as (a & b & st & Ha & Hb & _ & ->). eexists _, _, _, _, _, _. split; [done|]. intros HL. by apply towards_gap.
Qed.
Print Assumptions C103_edge.

(** an edge without marks, of a DAG *)
Theorem C103_arrow : ∀ np p q r lc fc tc curved, p ≠ q → (0 <= r)%R →
  returns (draw_edge np p q r None None lc fc None tc curved) (arrow_drawn p q r lc curved).
Proof. intros. by apply draw_arrow_ok. Qed.
Print Assumptions C103_arrow.

(** the order of the two nodes does not matter *)
Theorem C103_symmetric : ∀ np p q r j k lc fc text tc curved, p ≠ q → (0 <= r)%R →
  ∃ P Q, draw_edge np p q r (Some j) (Some k) lc fc text tc curved = Ok P ∧ draw_edge np q p r (Some k) (Some j) lc fc text tc curved = Ok Q ∧
    mirror <$> P ≡ₚ Q.
Proof.
  intros np p q r j k lc fc text tc curved H Hr. pose proof (draw_edge_ok np p q r j k lc fc text tc curved H Hr) as H1.
  pose proof (draw_edge_ok np q p r k j lc fc text tc curved (not_eq_sym H) Hr) as H2. apply returns_ok in H1 as (P & EP & a & b & st & Ha & Hb & Hst & ->), H2 as (Q & EQ & b' & a' & st' & Hb' & Ha' & Hst' & ->).
  eexists _, _. split; [exact EP|]. split; [exact EQ|]. clear EP EQ.
  rewrite (towards_unique _ _ _ _ _ H Ha' Ha). rewrite (towards_unique _ _ _ _ _ (not_eq_sym H) Hb' Hb). clear Ha' Hb' Ha Hb a' b'.
  assert (kind_color k j = kind_color j k) as -> by (destruct j, k; done).
  assert (midpoint b a = midpoint a b) as -> by (unfold midpoint; f_equal; lra).
  assert (curvature q p r curved = curvature p q r curved) as ->.
  { unfold curvature, euclid. destruct curved; [|done]. do 3 f_equal; ring. }
  assert (st' = reversed st) as -> by (destruct st, st', j, k; done).
  set (c := if decide _ then _ else _). rewrite fmap_cons, !fmap_app. cbn [mirror]. apply perm_skip. rewrite !app_assoc.
  assert (mirror <$> match text with Some t => [SText (Some (midpoint a b)) t tc (Some fc)] | None => [] end = match text with Some t => [SText (Some (midpoint a b)) t tc (Some fc)] | None => [] end) as -> by (by destruct text).
  apply Permutation_app_tail. rewrite (Permutation_app_comm (match k with Circle => _ | _ => _ end)). by destruct j, k.
Qed.
Print Assumptions C103_symmetric.

(** nodes at the same place: an exception for Python numbers and for curved edges, otherwise a line without position *)
Theorem C103_same_place : ∀ p r m0 m1 lc fc text tc,
  (∀ curved, draw_edge false p p r m0 m1 lc fc text tc curved = Raise ZeroDivisionError) ∧
  draw_edge true p p r m0 m1 lc fc text tc true = Raise ZeroDivisionError ∧
  returns (draw_edge true p p r m0 m1 lc fc text tc false) (λ P, ∃ st c P', P = SLine None None st c 0 :: P').
Proof.
  intros p r m0 m1 lc fc text tc. unfold draw_edge. cbv zeta.
  assert (R_sqrt.sqrt ((p.1 - p.1) * (p.1 - p.1) + (p.2 - p.2) * (p.2 - p.2)) = 0)%R as ->.
  { rewrite <-sqrt_0. f_equal. ring. }
  destruct (Req_EM_T 0 0) as [_|H]; [|lra]. cbn [andb negb mbind res_bind]. split; [done|]. split; [done|]. destruct (decide _); cbn [returns]; eauto.
Qed.
Print Assumptions C103_same_place.

(** a circle at (0,0) and an arrow head at (30,40), radius 4: the circle is centred at distance 5 and the line ends at
    distance 4 *)
Example C103_case : (0, 0)%R ≠ (30, 40)%R ∧ (0 <= 4)%R ∧ edge_drawn (0, 0)%R (30, 40)%R 4 Circle Directed "auto" "white" None "black" false
  [SLine (Some (3, 4)%R) (Some (30 - 12 / 5, 40 - 16 / 5)%R) ATo "limegreen" 0; SDisc (Some (3, 4)%R) (4 / 4) "white" "limegreen"] ∧
  (reach 4 Circle + reach 4 Directed <= euclid (0, 0) (30, 40))%R.
Proof.
  assert (∀ x y z : R, (0 <= z)%R → (x ^ 2 + y ^ 2 = z ^ 2)%R → R_sqrt.sqrt (x ^ 2 + y ^ 2) = z) as HS by (intros x y z Hz ->; by apply sqrt_pow2).
  split; [intros [=]; lra|]. split; [lra|]. split.
  - exists (3, 4)%R, (30 - 12 / 5, 40 - 16 / 5)%R, ATo. split; [|split; [|done]].
    + split; [unfold euclid; cbn [fst snd reach]; apply HS; lra|]. exists (1 / 10)%R. split; [lra|]. cbn [fst snd]. f_equal; lra.
    + split; [unfold euclid; cbn [fst snd reach]; apply HS; lra|]. exists (2 / 25)%R. split; [lra|]. cbn [fst snd]. f_equal; lra.
  - unfold euclid. cbn [fst snd reach]. rewrite (HS _ _ 50%R) by lra. lra.
Qed.

(** ** C104: the picture of a graph *)
(** [rnd]: the random numbers of the layouts; [D]: a DAG or a PAG with its visible edges; every node is drawn once, every edge
    once, and the nodes lie in the unit square; on a circle, and at different places, for the circular layout *)
Theorem C104_graph : ∀ o rnd D lat sel bk fg lc lt lab nsf, iter_ok o → drawable_wf D → dnodes D ≠ ∅ → (0 <= nsf)%R →
  lt = None ∨ lt = Some "circular"%string ∨ lt = Some "force"%string →
  let r := (4 / 100 * nsf)%R in let V := dnodes D in
  returns (draw_graph o rnd D lat sel bk fg lc lt lab nsf) (λ '(P, lab'),
    (∀ v, lab' !! v = if decide (v ∈ V) then Some (default (LNum v) (default ∅ lab !! v)) else default ∅ lab !! v) ∧
    ∃ pos N E, dom pos = V ∧ P = N ++ E ∧
      ((r <= 1 / 4)%R → ∀ v, v ∈ V → in_square (2 * r) (1 - 2 * r) (at_ pos v)) ∧
      (lt = Some "circular"%string → (r < 1 / 4)%R → (∀ u v, u ∈ V → v ∈ V → at_ pos u = at_ pos v → u = v) ∧
        ∀ v, v ∈ V → euclid (at_ pos v) (1 / 2, 1 / 2)%R = (1 / 2 - 2 * r)%R) ∧
      nodes_drawn V (default ∅ lat) (default ∅ sel) bk fg r pos (λ v, default (LNum v) (default ∅ lab !! v)) N ∧
      edges_drawn D pos r lc bk (λ _ _, True) (λ _ _, False) E).
Proof. intros o rnd D lat sel bk fg lc lt lab nsf Ho. by apply draw_graph_ok. Qed.
Print Assumptions C104_graph.

(** a graph without nodes raises an exception, for every layout *)
Theorem C104_empty : ∀ o rnd D lat sel bk fg lc lt lab nsf, dnodes D = ∅ → draw_graph o rnd D lat sel bk fg lc lt lab nsf = Raise ZeroDivisionError.
Proof. intros. by apply draw_graph_empty. Qed.
Print Assumptions C104_empty.

Theorem C104_layout_names : ∀ o rnd D lat sel bk fg lc s lab nsf, iter_ok o → dnodes D ≠ ∅ → s ≠ "circular"%string → s ≠ "force"%string →
  draw_graph o rnd D lat sel bk fg lc (Some s) lab nsf = Raise ValueError.
Proof. intros. by apply draw_graph_layout. Qed.
Print Assumptions C104_layout_names.

Definition gD : graph := mk_graph [0; 1; 2; 3] [(0, 2); (1, 2); (2, 3)].
Lemma gD_wf : drawable_wf (DDag gD).
Proof.
  split; [apply mk_graph_wf; by vm_compute|]. intros v Hv. apply mk_graph_edge in Hv. repeat (apply elem_of_cons in Hv as [[= E1 E2]|Hv]; [congruence|]). by apply elem_of_nil in Hv.
Qed.
Example C104_case : drawable_wf (DDag gD) ∧ dnodes (DDag gD) ≠ ∅ ∧ drawable_wf (DPag gP (Some {[(2, 1)]})) ∧ dnodes (DPag gP (Some {[(2, 1)]})) ≠ ∅ ∧
  (4 / 100 * 1 < 1 / 4)%R ∧ mg_adj gP 2 1 ∧ visible (Some {[(2, 1)]}) 1 2.
Proof.
  split; [apply gD_wf|]. split; [apply (bool_decide_unpack _); by vm_compute|]. split; [apply gP_wf|]. split; [apply (bool_decide_unpack _); by vm_compute|].
  split; [lra|]. split; [exists Directed; unfold has_mark; apply (bool_decide_unpack _); by vm_compute|]. exists {[(2, 1)]}. split; [done|right; set_solver].
Qed.

(** ** C105: the picture of a possible-d-sep tree *)
(** [tree_placed]: the root in the centre, every level on a circle, all the discs inside the axes and at different places.
    The picture has the marks of every edge exchanged ([swapped]), and the same colours for all the nodes *)
Theorem C105_tree_partial : ∀ t g marked lab nsf bk fg lc circ, mg_wf g → tree_of g t → (0 <= nsf)%R →
  let r := (25 / 100 * nsf)%R in let l0 : labels := default ∅ lab in
  returns (draw_pds_tree t (Some g) marked lab nsf bk fg lc circ) (λ '(cv, P, lab'),
    (∀ x, occurs t x → lab' !! x = Some (default (LNum x) (l0 !! x))) ∧ (∀ x, ¬ occurs t x → lab' !! x = l0 !! x) ∧
    ∃ pos G B, P = G ++ B ∧ (∀ s, s ∈ G → match s with SLine _ _ _ _ _ => False | _ => True end) ∧ tree_placed t cv r pos ∧
      (circ = false → ∀ π, is_vertex t π → (0 <= (pos π).2)%R) ∧
      tree_drawn t (λ x y kx ky, marks_at g x y ky kx) r fg lc (λ _, "white"%string) (λ _, "black"%string) (λ x, default (LNum x) (l0 !! x)) pos B).
Proof.
  intros t g marked lab nsf bk fg lc circ Hwf HT Hn. cbv zeta. eapply returns_mono; [by apply draw_pds_tree_ok|]. cbv zeta. intros [[cv P] lab'] ([H1 H1'] & -> & G & B & -> & HG & HB).
  split; [done|]. split; [done|]. exists (tpos t 0 (stop_angle circ) 1 (0, 0)%R), G, B. split; [done|]. split.
  { intros s Hs. rewrite HG in Hs. apply elem_of_app in Hs as [Hs|Hs].
    - apply elem_of_list_In, in_concat in Hs as (l & Hl & Hs). apply elem_of_list_In in Hl, Hs. apply elem_of_list_fmap in Hl as (n & -> & _).
      repeat (apply elem_of_cons in Hs as [->|Hs]; [done|]). by apply elem_of_nil in Hs.
    - apply elem_of_list_fmap in Hs as (n & -> & _). done. }
  split; [apply tree_placed_ok|]. split; [|done]. intros -> π Hπ. destruct (tree_placed_ok t (25 / 100 * nsf) false) as (_ & HP & _). destruct (HP π Hπ) as [_ (_ & _ & HB' & _)].
  cbn [tree_canvas c_bottom] in HB'. unfold tree_canvas in HB'. cbn [c_bottom] in HB'. lra.
Qed.
Print Assumptions C105_tree_partial.

(** the grid, which comes first in the picture, has one ring for every depth of the tree *)
Lemma grid_ray n a b i x y k : (degrees (a + INR i * (b - a) / INR (5 - 1)) = x)%R → (n * cos x, n * sin x)%R = y → (if decide (i = 0 ∨ i = 4) then false else true) = k →
  pds_grid_ray a b n i = SGrid (0, 0)%R y k.
Proof. intros Hx Hy Hk. unfold pds_grid_ray. cbv zeta. by rewrite Hx, Hy, Hk. Qed.
Lemma grid_rays circ n : pds_grid_ray 0 (stop_angle circ) n <$> seq 0 5 = zip_with (SGrid (0, 0)%R) (ray_ends circ n) [false; true; true; true; false].
Proof.
  assert (R_sqrt.sqrt 2 ≠ 0)%R as Hs by (apply Rgt_not_eq, sqrt_lt_R0; lra).
  destruct circ; cbn [stop_angle seq fmap list_fmap ray_ends zip_with]; repeat apply f_equal2; try done.
  - apply (grid_ray _ _ _ _ 0); [unfold degrees; cbn; field|rewrite cos_0, sin_0; f_equal; ring|done].
  - apply (grid_ray _ _ _ _ (PI / 2)); [unfold degrees; cbn; field|rewrite cos_PI2, sin_PI2; f_equal; ring|done].
  - apply (grid_ray _ _ _ _ PI); [unfold degrees; cbn; field|rewrite cos_PI, sin_PI; f_equal; ring|done].
  - apply (grid_ray _ _ _ _ (3 * (PI / 2))); [unfold degrees; cbn; field|rewrite cos_3PI2, sin_3PI2; f_equal; ring|done].
  - apply (grid_ray _ _ _ _ (2 * PI)); [unfold degrees; cbn; field|rewrite cos_2PI, sin_2PI; f_equal; ring|done].
  - apply (grid_ray _ _ _ _ 0); [unfold degrees; cbn; field|rewrite cos_0, sin_0; f_equal; ring|done].
  - apply (grid_ray _ _ _ _ (PI / 4)); [unfold degrees; cbn; field|rewrite cos_PI4, sin_PI4; f_equal; by field|done].
  - apply (grid_ray _ _ _ _ (PI / 2)); [unfold degrees; cbn; field|rewrite cos_PI2, sin_PI2; f_equal; ring|done].
  - apply (grid_ray _ _ _ _ (3 * (PI / 4))); [unfold degrees; cbn; field|rewrite cos_3PI4, sin_3PI4; f_equal; by field|done].
  - apply (grid_ray _ _ _ _ PI); [unfold degrees; cbn; field|rewrite cos_PI, sin_PI; f_equal; ring|done].
Qed.
Lemma max_depth_vertex t : ∃ π, is_vertex t π ∧ get_max_depth t = length π + 1.
Proof.
  destruct (get_max_depth_ok t) as [(p & Hp & ->) _]. induction Hp as [t|t c p Hc Hp (π & (x & s & Hs & <-) & El)].
  - exists []. split; [|done]. by exists (origin t), t.
  - apply elem_of_list_lookup in Hc as [i Hi]. exists (i :: π). split; [|cbn; lia]. exists (origin s), s. cbn [subtree]. by rewrite Hi.
Qed.
Theorem C105_grid : ∀ t g marked lab nsf bk fg lc circ, mg_wf g → tree_of g t → (0 <= nsf)%R →
  returns (draw_pds_tree t (Some g) marked lab nsf bk fg lc circ) (λ '(cv, P, lab'),
    ∃ G B n, P = G ++ B ∧ grid_drawn circ n G ∧ (∃ π, is_vertex t π ∧ length π = n) ∧ (∀ π, is_vertex t π → length π ≤ n) ∧
      ∃ pos, tree_placed t cv (25 / 100 * nsf)%R pos ∧
        tree_drawn t (λ x y kx ky, marks_at g x y ky kx) (25 / 100 * nsf)%R fg lc (λ _, "white"%string) (λ _, "black"%string)
          (λ x, default (LNum x) ((default ∅ lab : labels) !! x)) pos B).
Proof.
  intros t g marked lab nsf bk fg lc circ Hwf HT Hn. eapply returns_mono; [by apply draw_pds_tree_ok|]. cbv zeta. intros [[cv P] lab'] (_ & -> & G & B & -> & HG & HB).
  exists G, B, (get_max_depth t - 1). split; [done|]. split.
  { rewrite HG, grid_rays. unfold grid_drawn. f_equal. }
  split.
  { destruct (max_depth_vertex t) as (π & Hπ & El). exists π. split; [done|]. lia. }
  split; [intros π Hπ; pose proof (vertex_depth π t Hπ); lia|].
  exists (tpos t 0 (stop_angle circ) 1 (0, 0)%R). split; [apply tree_placed_ok|done].
Qed.
Print Assumptions C105_grid.

(** the trees of create_pds_tree can be drawn *)
Lemma pds_tree_of g t : (∀ p, tpath t p → linked (mg_adj g) (origin t :: p)) → tree_of g t.
Proof.
  intros HL π. revert t HL. induction π as [|j π IH]; intros t HL i x y (s & Hs & <-) (s' & Hs' & <-).
  - cbn [subtree app] in *. injection Hs as <-. destruct (children t !! i) as [c|] eqn:E; [|done]. injection Hs' as <-.
    assert (tpath t [origin c]) as HT by (constructor; [by eapply elem_of_list_lookup_2|constructor]). apply HL, linked_cons in HT. tauto.
  - cbn [subtree app] in *. destruct (children t !! j) as [c|] eqn:E; [|done]. apply (IH c) with (i := i); [|by exists s|by exists s'].
    intros p Hp. assert (tpath t (origin c :: p)) as HT by (constructor; [by eapply elem_of_list_lookup_2|done]). apply HL, linked_cons in HT. tauto.
Qed.
Theorem C105_learned_trees : ∀ o fuel g root en md, let V := default (mnodes g) en in iter_ok o → mg_wf g → root ∈ V → V ⊆ mnodes g →
  size V * size V + size V < fuel →
  returns (create_pds_tree o fuel g root en md) (λ r, tree_of g r.1 ∧
    ∀ marked lab nsf bk fg lc circ, (0 <= nsf)%R → returns (draw_pds_tree r.1 (Some g) marked lab nsf bk fg lc circ) (λ _, True)).
Proof.
  intros o fuel g root en md V Ho Hwf Hr HV Hf. eapply returns_mono; [by apply create_pds_tree_ok|]. cbn beta. intros [t X] HS. cbn [fst snd] in *.
  assert (tree_of g t) as HT. { apply pds_tree_of. intros p Hp. rewrite (pt_origin _ _ _ _ _ _ HS). by apply (pt_branch _ _ _ _ _ _ HS). }
  split; [done|]. intros. eapply returns_mono; [by apply draw_pds_tree_ok|]. done.
Qed.
Print Assumptions C105_learned_trees.

(** ---> is drawn as <--- *)
Lemma tree_line_in t M r fg lc fi te lab pos P a b st c rad : tree_drawn t M r fg lc fi te lab pos P → SLine a b st c rad ∈ P →
  ∃ ρ i x y kx ky, vertex t ρ x ∧ vertex t (ρ ++ [i]) y ∧ M x y kx ky ∧ heads st = (is_head kx, is_head ky).
Proof.
  intros (L & Es & _ & _ & -> & HE) HS. apply elem_of_list_In, in_concat in HS as (E & HEin & HS). apply elem_of_list_In in HEin, HS.
  apply elem_of_list_lookup in HEin as [n Hn]. destruct (Forall2_lookup_r _ _ _ _ _ HE Hn) as (π & _ & y & Hy & [[_ ->]|(ρ & i & x & kx & ky & E0 & -> & Hx & HM & -> & HE0)]).
  - repeat (apply elem_of_cons in HS as [HS|HS]; [done|]). by apply elem_of_nil in HS.
  - exists ρ, i, x, y, kx, ky. split; [done|]. split; [done|]. split; [done|]. apply elem_of_app in HS as [HS|HS].
    + destruct HE0 as (p & q & st' & _ & _ & Hh & ->). apply elem_of_cons in HS as [[= _ _ -> _ _]|HS]; [done|]. exfalso. clear -HS. destruct kx, ky; set_solver.
    + repeat (apply elem_of_cons in HS as [HS|HS]; [done|]). by apply elem_of_nil in HS.
Qed.
Lemma tree_line_ex t M r fg lc fi te lab pos P ρ i y : tree_drawn t M r fg lc fi te lab pos P → vertex t (ρ ++ [i]) y →
  ∃ a b st c rad x kx ky, SLine a b st c rad ∈ P ∧ vertex t ρ x ∧ M x y kx ky ∧ heads st = (is_head kx, is_head ky).
Proof.
  intros (L & Es & _ & HL & -> & HE) Hy. assert (ρ ++ [i] ∈ L) as Hin by (apply HL; by exists y). apply elem_of_list_lookup in Hin as [n Hn].
  destruct (Forall2_lookup_l _ _ _ _ _ HE Hn) as (E & HEn & y' & Hy' & HD). assert (y' = y) as ->.
  { destruct Hy as (s & Hs & <-), Hy' as (s' & Hs' & <-). congruence. }
  destruct HD as [[HD _]|(ρ' & i' & x & kx & ky & E0 & Heq & Hx & HM & -> & HE0)]; [by destruct ρ|]. apply app_inj_tail in Heq as [<- <-].
  destruct HE0 as (p & q & st & _ & _ & Hh & ->). eexists _, _, st, _, _, x, kx, ky. split; [|done]. apply elem_of_list_In, in_concat. eexists. split; [apply elem_of_list_In; by eapply elem_of_list_lookup_2|].
  apply elem_of_list_In. apply elem_of_app. left. by left.
Qed.
Definition gM : mgraph := mk_mg [0; 1] (pag_ 0 Tail Directed 1).
Lemma gM_wf : mg_wf gM.
Proof. apply mk_mg_wf; by vm_compute. Qed.
Definition tM : ptree := PTree 0 0 [PTree 1 1 []].
Lemma tM_of : tree_of gM tM.
Proof.
  intros π i x y (s & Hs & <-) (s' & Hs' & <-). destruct π as [|[|j] π]; cbn in Hs, Hs'.
  - injection Hs as <-. destruct i as [|i]; cbn in Hs'; [|done]. injection Hs' as <-. exists Directed. unfold has_mark. apply (bool_decide_unpack _). by vm_compute.
  - destruct π as [|j π]; [|done]. injection Hs as <-. done.
  - done.
Qed.
Theorem C105_marks_refuted : ∃ t g, mg_wf g ∧ tree_of g t ∧ ∀ marked lab nsf bk fg lc circ, (0 <= nsf)%R →
  returns (draw_pds_tree t (Some g) marked lab nsf bk fg lc circ) (λ '(_, P, _),
    ∀ G B r fg' lc' fill text lab' pos, P = G ++ B → ¬ tree_drawn t (marks_at g) r fg' lc' fill text lab' pos B).
Proof.
  exists tM, gM. split; [apply gM_wf|]. split; [apply tM_of|]. intros marked lab nsf bk fg lc circ Hn.
  eapply returns_mono; [by apply (C105_tree_partial tM gM marked lab nsf bk fg lc circ gM_wf tM_of)|]. cbv zeta. intros [[cv P] lab'] (_ & _ & pos & G & B & -> & HG & _ & _ & HB).
  intros G' B' r fg' lc' fill text lab'' pos' HP HB'.
  assert (vertex tM ([] ++ [0]) 1) as H1 by (eexists; split; [done|done]).
  destruct (tree_line_ex _ _ _ _ _ _ _ _ _ _ _ _ _ HB' H1) as (a & b & st & c & rad & x & kx & ky & HS & (s & Hs & <-) & [M1 M2] & Hh). cbn in Hs. injection Hs as <-. cbn [origin] in M1, M2.
  assert (SLine a b st c rad ∈ B) as HSB.
  { assert (SLine a b st c rad ∈ G ++ B) as HI by (rewrite HP; set_solver). apply elem_of_app in HI as [HI|HI]; [by apply HG in HI|done]. }
  destruct (tree_line_in _ _ _ _ _ _ _ _ _ _ _ _ _ _ _ HB HSB) as (ρ & i & x & y & kx' & ky' & (s & Hs & <-) & (s' & Hs' & <-) & [M3 M4] & Hh').
  assert (ρ = [] ∧ i = 0) as [-> ->].
  { destruct ρ as [|[|j] ρ]; cbn in Hs, Hs'; [|by destruct ρ|done]. destruct i; [done|done]. }
  cbn in Hs, Hs'. injection Hs as <-. injection Hs' as <-. cbn [origin] in M3, M4.
  assert (∀ k, has_mark gM 1 k 0 → k = Tail) as T1 by (intros k Hk; destruct k; try done; exfalso; revert Hk; unfold has_mark; apply (bool_decide_unpack _); by vm_compute).
  assert (∀ k, has_mark gM 0 k 1 → k = Directed) as T2 by (intros k Hk; destruct k; try done; exfalso; revert Hk; unfold has_mark; apply (bool_decide_unpack _); by vm_compute).
  apply T1 in M1, M3. apply T2 in M2, M4. subst. cbn [is_head] in *. congruence.
Qed.
Print Assumptions C105_marks_refuted.

(** marked nodes and the background colour have no effect *)
Theorem C105_marked_no_effect : ∀ t pag marked lab nsf bk fg lc circ,
  draw_pds_tree t pag marked lab nsf bk fg lc circ = draw_pds_tree t pag None lab nsf "white" fg lc circ.
Proof. done. Qed.
Print Assumptions C105_marked_no_effect.

(** without a PAG, the default, only a tree with one node can be drawn *)
Theorem C105_no_pag : ∀ t marked lab nsf bk fg lc circ, children t ≠ [] → draw_pds_tree t None marked lab nsf bk fg lc circ = Raise AttributeError.
Proof. exact draw_pds_tree_none. Qed.
Print Assumptions C105_no_pag.

Example C105_case : mg_wf gM ∧ tree_of gM tM ∧ is_vertex tM [0] ∧ marks_at gM 0 1 Tail Directed ∧ children tM ≠ [].
Proof.
  split; [apply gM_wf|]. split; [apply tM_of|]. split; [exists 1, (PTree 1 1 []); done|]. split; [|done].
  split; unfold has_mark; apply (bool_decide_unpack _); by vm_compute.
Qed.

(** ** C106: temporal graphs *)
(** the first group, the present, is the right-most column; it is framed; edges between nodes that are not of the present are
    left out if ignore_homology *)
Theorem C106_temporal_partial : ∀ o D nsl present ign lat sel cols rows bk fg lc, iter_ok o →
  drawable_wf D → concat nsl ≡ₚ elements (dnodes D) → (∃ g, g ∈ nsl ∧ 2 ≤ length g) →
  nsl !! 0 = Some present → present ≠ [] →
  (∀ l, rows = Some l → length l = length present) →
  (∀ l, cols = Some l → length l = length nsl ∧ ∀ g, g ∈ nsl → g ≠ []) →
  let r := (4 / 100)%R in let V := dnodes D in
  returns (draw_temporal_graph o D (Some nsl) ign lat sel cols rows bk fg lc) (λ P,
    ∃ pos box R_ C_ N E, P = box :: R_ ++ C_ ++ N ++ E ∧ dom pos = V ∧
      (∀ v, v ∈ V → in_square (12 / 100) (90 / 100) (at_ pos v)) ∧ time_ordered nsl pos ∧ framed pos r present box ∧
      row_labels pos present rows R_ ∧ col_labels pos r nsl cols C_ ∧
      nodes_drawn V (default ∅ lat) (default ∅ sel) bk fg r pos LNum N ∧
      edges_drawn D pos r lc bk (λ u v, ign = true → u ∈ present ∨ v ∈ present)
        (λ u v, match D with DPag _ _ => far_apart nsl u v | DDag _ => True end) E).
Proof. intros o D nsl present ign lat sel cols rows bk fg lc Ho. by apply draw_temporal_graph_ok. Qed.
Print Assumptions C106_temporal_partial.

(** one node at every time *)
Theorem C106_single_nodes : ∀ o D nsl ign lat sel bk fg lc, iter_ok o → concat nsl ≡ₚ elements (dnodes D) → dnodes D ≠ ∅ → (∀ g, g ∈ nsl → length g ≤ 1) →
  draw_temporal_graph o D (Some nsl) ign lat sel None None bk fg lc = Raise ZeroDivisionError.
Proof. intros. by apply draw_temporal_single. Qed.
Print Assumptions C106_single_nodes.

(** nodes_set_list = None *)
Theorem C106_no_groups : ∀ o D ign lat sel cols rows bk fg lc, iter_ok o → ∃ e, draw_temporal_graph o D None ign lat sel cols rows bk fg lc = Raise e.
Proof. intros. by apply draw_temporal_none. Qed.
Print Assumptions C106_no_groups.

(** X1, Y1 at the present are 2 and 3; X0, Y0 are 0 and 1 *)
Definition nslD : list (list node) := [[2; 3]; [0; 1]].
Example C106_case : drawable_wf (DDag gD) ∧ concat nslD ≡ₚ elements (dnodes (DDag gD)) ∧ (∃ g, g ∈ nslD ∧ 2 ≤ length g) ∧ nslD !! 0 = Some [2; 3] ∧
  (∀ g, g ∈ nslD → g ≠ []) ∧ placed nslD 0 1 3 ∧ placed nslD 1 0 0 ∧
  concat [[2]; [3]; [1]; [0]] ≡ₚ elements (dnodes (DDag gD)) ∧ (∀ g, g ∈ [[2]; [3]; [1]; [0]] → length g ≤ 1).
Proof.
  assert (∀ l : list node, bool_decide (l ≡ₚ elements (dnodes (DDag gD))) = true → l ≡ₚ elements (dnodes (DDag gD))) as HP by (intros l Hl; by apply bool_decide_eq_true in Hl).
  split; [apply gD_wf|]. split; [apply HP; by vm_compute|]. split; [exists [2; 3]; split; [set_solver|done]|]. split; [done|].
  split; [apply Forall_forall; apply (bool_decide_unpack _); by vm_compute|]. split; [by exists [2; 3]|]. split; [by exists [0; 1]|]. split; [apply HP; by vm_compute|].
  apply Forall_forall. apply (bool_decide_unpack _). by vm_compute.
Qed.
