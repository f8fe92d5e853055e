(** Proofs about draw_pds_tree. *)
From Coq Require Import Reals Lra String.
From Verif Require Import Base BaseLemmas ModelGraph Spec ModelMixed SpecMixed ProofMixed ModelPDS SpecPDS ProofPDS ModelLayout SpecLayout ModelDraw SpecDraw.
From Verif Require Import ModelCMI ProofLayout ProofDraw.
Local Open Scope nat_scope.

(** ** the places of the vertices *)
Fixpoint tangle (t : ptree) (a b : R) (π : list nat) : R :=
  match π with
  | [] => a
  | i :: π =>
    let n := length (children t) in
    match π with
    | [] => child_angle a b n i
    | _ => match children t !! i with Some c => tangle c (child_limit a b n i) (child_limit a b n (i + 1)) π | None => a end
    end
  end.
Definition tpos (t : ptree) (a b : R) (depth : nat) (pos : R * R) (π : list nat) : R * R :=
  match π with [] => pos | _ => polar (tangle t a b π) (depth + length π - 1) end.

Lemma tangle_cons t a b i π c : π ≠ [] → children t !! i = Some c →
  tangle t a b (i :: π) = tangle c (child_limit a b (length (children t)) i) (child_limit a b (length (children t)) (i + 1)) π.
Proof. intros H E. destruct π as [|j π]; [done|]. cbn [tangle]. by rewrite E. Qed.

Lemma child_limit_lt a b n i j : (a < b)%R → i < j → 0 < n → (child_limit a b n i < child_limit a b n j)%R.
Proof.
  intros Hab Hij Hn. unfold child_limit. assert (0 < INR n)%R as HN by (by apply lt_0_INR). assert (INR i < INR j)%R as Hlt by (by apply lt_INR).
  assert (INR i * (b - a) < INR j * (b - a))%R as H by nra. apply Rplus_lt_compat_l. apply Rmult_lt_compat_r; [by apply Rinv_0_lt_compat|done].
Qed.
Lemma child_limit_0 a b n : child_limit a b n 0 = a.
Proof. unfold child_limit, Rdiv. cbn [INR]. ring. Qed.
Lemma child_limit_n a b n : 0 < n → child_limit a b n n = b.
Proof. intros Hn. unfold child_limit. assert (0 < INR n)%R as HN by (by apply lt_0_INR). field. lra. Qed.
Lemma child_angle_in a b n i : (a < b)%R → i < n → (child_limit a b n i < child_angle a b n i < child_limit a b n (i + 1))%R.
Proof.
  intros Hab Hi. assert (0 < INR n)%R as HN by (apply lt_0_INR; lia). unfold child_limit, child_angle. rewrite plus_INR. cbn [INR].
  assert (0 < (b - a) / INR n)%R as HP by (apply Rmult_lt_0_compat; [lra|by apply Rinv_0_lt_compat]).
  replace (a + (b - a) * (1 / (2 * INR n) + INR i / INR n))%R with (a + INR i * (b - a) / INR n + (b - a) / INR n / 2)%R by (field; lra).
  replace (a + (INR i + 1) * (b - a) / INR n)%R with (a + INR i * (b - a) / INR n + (b - a) / INR n)%R by (field; lra). lra.
Qed.
Lemma child_limit_range a b n i : (a < b)%R → i ≤ n → 0 < n → (a <= child_limit a b n i <= b)%R.
Proof.
  intros Hab Hi Hn. split.
  - destruct (decide (i = 0)) as [->|H]; [rewrite child_limit_0; lra|]. left. rewrite <-(child_limit_0 a b n) at 1. apply child_limit_lt; [done|lia|done].
  - destruct (decide (i = n)) as [->|H]; [rewrite child_limit_n by done; lra|]. left. rewrite <-(child_limit_n a b n Hn) at 2. apply child_limit_lt; [done|lia|done].
Qed.

Lemma is_vertex_cons t i π : is_vertex t (i :: π) ↔ ∃ c, children t !! i = Some c ∧ is_vertex c π.
Proof.
  unfold is_vertex, vertex. cbn [subtree]. destruct (children t !! i) as [c|].
  - split; [intros (x & H); exists c; split; [done|by exists x]|intros (? & [= <-] & x & H); by exists x].
  - split; [by intros (x & s & ? & _)|by intros (c & ? & _)].
Qed.
(** the vertices below the i-th child lie in its sector *)
Lemma tangle_sector π : ∀ t a b i, (a < b)%R → is_vertex t (i :: π) →
  (child_limit a b (length (children t)) i < tangle t a b (i :: π) < child_limit a b (length (children t)) (i + 1))%R ∧ i < length (children t).
Proof.
  induction π as [|j π IH]; intros t a b i Hab Hv; apply is_vertex_cons in Hv as (c & Hc & Hv); pose proof (lookup_lt_Some _ _ _ Hc) as Hi; (split; [|done]).
  - by apply child_angle_in.
  - rewrite (tangle_cons _ _ _ _ _ c) by done. set (n := length (children t)) in *.
    assert (child_limit a b n i < child_limit a b n (i + 1))%R as Hlt by (apply child_limit_lt; [done|lia|lia]).
    destruct (IH c _ _ j Hlt Hv) as [[H1 H2] Hj]. set (m := length (children c)) in *.
    destruct (child_limit_range (child_limit a b n i) (child_limit a b n (i + 1)) m j Hlt) as [H3 _]; [lia|lia|].
    destruct (child_limit_range (child_limit a b n i) (child_limit a b n (i + 1)) m (j + 1) Hlt) as [_ H4]; [lia|lia|]. lra.
Qed.
Lemma tangle_range t a b i π : (a < b)%R → is_vertex t (i :: π) → (a < tangle t a b (i :: π) < b)%R.
Proof.
  intros Hab Hv. destruct (tangle_sector π t a b i Hab Hv) as [[H1 H2] Hi].
  destruct (child_limit_range a b (length (children t)) i Hab) as [H3 _]; [lia|lia|]. destruct (child_limit_range a b (length (children t)) (i + 1) Hab) as [_ H4]; [lia|lia|]. lra.
Qed.
Lemma tangle_inj π : ∀ ρ t a b, (a < b)%R → length π = length ρ → π ≠ [] → is_vertex t π → is_vertex t ρ → tangle t a b π = tangle t a b ρ → π = ρ.
Proof.
  induction π as [|i π IH]; intros [|j ρ] t a b Hab Hl Hne Hv Hw E; [done..|]. clear Hne. injection Hl as Hl.
  destruct (tangle_sector π t a b i Hab Hv) as [[H1 H2] Hi]. destruct (tangle_sector ρ t a b j Hab Hw) as [[H3 H4] Hj]. set (n := length (children t)) in *.
  assert (∀ i j, i < j → j < n → (child_limit a b n (i + 1) <= child_limit a b n j)%R) as HM.
  { intros x y Hxy Hy. destruct (decide (x + 1 = y)) as [->|H]; [lra|]. left. apply child_limit_lt; [done|lia|lia]. }
  assert (i = j) as <-.
  { destruct (lt_eq_lt_dec i j) as [[H|H]|H]; [exfalso; specialize (HM i j H Hj); lra|done|exfalso; specialize (HM j i H Hi); lra]. }
  f_equal. apply is_vertex_cons in Hv as (c & Hc & Hv), Hw as (c' & Hc' & Hw). rewrite Hc in Hc'. injection Hc' as <-.
  destruct π as [|x π]; [by destruct ρ|]. destruct ρ as [|y ρ]; [done|].
  rewrite (tangle_cons t a b i (x :: π) c), (tangle_cons t a b i (y :: ρ) c) in E by done. fold n in E. eapply IH; [|done|done|exact Hv|exact Hw|exact E]. apply child_limit_lt; [done|lia|lia].
Qed.

Lemma polar_dist ang d : euclid (polar ang d) (0, 0)%R = INR d.
Proof.
  apply euclid_eq; [apply pos_INR|]. unfold polar. cbn [fst snd]. pose proof (sin2_cos2 (degrees ang)) as H. unfold Rsqr in H.
  replace ((cos (degrees ang) * INR d - 0) ^ 2 + (sin (degrees ang) * INR d - 0) ^ 2)%R with
    ((sin (degrees ang) * sin (degrees ang) + cos (degrees ang) * cos (degrees ang)) * (INR d * INR d))%R by ring. rewrite H. ring.
Qed.
Lemma polar_inj a b d : 0 < d → (0 <= a < 360)%R → (0 <= b < 360)%R → polar a d = polar b d → a = b.
Proof.
  intros Hd Ha Hb E. assert (0 < INR d)%R as HD by (by apply lt_0_INR). unfold polar in E. injection E as E1 E2.
  apply Rmult_eq_reg_r in E1; [|lra]. apply Rmult_eq_reg_r in E2; [|lra]. pose proof PI_RGT_0 as HP.
  assert (∀ x, (0 <= x < 360 → 0 <= degrees x < 2 * PI)%R) as HR. { intros x Hx. unfold degrees. split; [apply Rmult_le_pos; [nra|lra]|]. nra. }
  assert (degrees a = degrees b) as E by (apply angle_inj; auto). unfold degrees in E. apply (Rmult_eq_reg_r (PI / 180)); lra.
Qed.
Lemma vertex_depth π : ∀ t, is_vertex t π → length π + 1 ≤ get_max_depth t.
Proof.
  induction π as [|i π IH]; intros t Hv; [cbn; apply max_depth_pos|]. apply is_vertex_cons in Hv as (c & Hc & Hv). apply IH in Hv. destruct t as [x d cs]. cbn [children] in Hc.
  rewrite get_max_depth_eq by (by destruct cs). destruct (max_go_spec cs 1) as (_ & H2 & _). specialize (H2 c (elem_of_list_lookup_2 _ _ _ Hc)). cbn [length]. lia.
Qed.

Definition stop_angle (circ : bool) : R := if circ then 360%R else 180%R.
Definition tree_canvas (t : ptree) (r : R) (circ : bool) : canvas :=
  let cr := (INR (get_max_depth t - 1) + r)%R in if circ then Canvas (- cr) cr (- cr) cr else Canvas (- cr) cr (- r) cr.
Theorem tree_placed_ok t r circ : tree_placed t (tree_canvas t r circ) r (tpos t 0 (stop_angle circ) 1 (0, 0)%R).
Proof.
  assert (0 < stop_angle circ <= 360)%R as HS by (destruct circ; cbn [stop_angle]; lra).
  assert (∀ π, is_vertex t π → euclid (tpos t 0 (stop_angle circ) 1 (0, 0)%R π) (0, 0)%R = INR (length π)) as HD.
  { intros [|i π] Hv; [apply euclid_eq; cbn; lra|]. unfold tpos. rewrite polar_dist. f_equal; lia. }
  split; [done|]. split.
  - intros π Hv. split; [by apply HD|]. pose proof (vertex_depth π t Hv) as Hl.
    assert (INR (length π) <= INR (get_max_depth t - 1))%R as HI by (apply le_INR; lia).
    assert (0 <= INR (length π))%R as H0 by apply pos_INR.
    assert (∀ x y : R, x = 0%R → y = 0%R → (x, y) = (0, 0)%R) as Hz by (by intros ? ? -> ->).
    set (p := tpos t 0 (stop_angle circ) 1 (0, 0)%R π).
    assert (- INR (length π) <= p.1 <= INR (length π) ∧ - INR (length π) <= p.2 <= INR (length π) ∧ (circ = false → 0 <= p.2))%R as (X & Y & Z).
    { unfold p. destruct π as [|i π]; [cbn; lra|]. unfold tpos, polar. cbn [fst snd]. replace (1 + length (i :: π) - 1) with (length (i :: π)) by lia.
      set (ang := tangle t 0 (stop_angle circ) (i :: π)). pose proof (COS_bound (degrees ang)) as C. pose proof (SIN_bound (degrees ang)) as S.
      set (m := INR (length (i :: π))) in *. split; [split; nra|]. split; [split; nra|]. intros ->. cbn [stop_angle] in *.
      destruct (tangle_range t 0 180 i π) as [A B]; [lra|done|]. fold ang in A, B. apply Rmult_le_pos; [|done]. pose proof PI_RGT_0 as HP.
      apply sin_ge_0; unfold degrees; nra. }
    unfold disc_in, tree_canvas. destruct circ; cbn [c_left c_right c_bottom c_top]; [lra|]. specialize (Z eq_refl). lra.
  - intros π ρ Hv Hw E. pose proof (HD π Hv) as D1. pose proof (HD ρ Hw) as D2. rewrite E, D2 in D1. apply INR_eq in D1.
    destruct π as [|i π], ρ as [|j ρ]; [done..|]. unfold tpos in E. rewrite D1 in E.
    apply (tangle_inj _ _ t 0 (stop_angle circ)); [lra|done|done|done|done|]. cbn [length] in E.
    destruct (tangle_range t 0 (stop_angle circ) i π) as [A B]; [lra|done|]. destruct (tangle_range t 0 (stop_angle circ) j ρ) as [A' B']; [lra|done|].
    apply polar_inj in E; [done|lia|lra|lra].
Qed.

(** ** the artists *)
Definition child_paths (paths : ptree → list (list nat)) : nat → list ptree → list (list nat) :=
  fix go (i : nat) (cs : list ptree) := match cs with [] => [] | c :: cs => ((i ::.) <$> paths c) ++ go (S i) cs end.
Fixpoint tpaths (t : ptree) : list (list nat) := let 'PTree _ _ cs := t in [] :: child_paths tpaths 0 cs.

Lemma elem_child_paths f i cs π : π ∈ child_paths f i cs ↔ ∃ j c ρ, cs !! j = Some c ∧ ρ ∈ f c ∧ π = (i + j) :: ρ.
Proof.
  revert i. induction cs as [|c cs IH]; intros i; cbn [child_paths].
  - split; [by intros H%elem_of_nil|by intros (j & c & ρ & ? & _)].
  - rewrite elem_of_app, elem_of_list_fmap, IH. split.
    + intros [(ρ & -> & H)|(j & c' & ρ & H1 & H2 & ->)]; [exists 0, c, ρ; by rewrite Nat.add_0_r|exists (S j), c', ρ; split; [done|]; split; [done|]; f_equal; lia].
    + intros (j & c' & ρ & H1 & H2 & ->). destruct j as [|j]; [injection H1 as <-; left; exists ρ; by rewrite Nat.add_0_r|].
      right. exists j, c', ρ. split; [done|]. split; [done|]. f_equal; lia.
Qed.
Lemma tpaths_ok t π : π ∈ tpaths t ↔ is_vertex t π.
Proof.
  revert π. induction t as [x d cs IH] using ptree_ind'. rewrite Forall_forall in IH. intros π. cbn [tpaths]. rewrite elem_of_cons, elem_child_paths.
  destruct π as [|i π].
  - split; [|by left]. intros _. exists x. by eexists.
  - rewrite is_vertex_cons. cbn [children]. split.
    + intros [?|(j & c & ρ & H1 & H2 & [= -> ->])]; [done|]. exists c. split; [done|]. by apply IH; [eapply elem_of_list_lookup_2|].
    + intros (c & Hc & Hv). right. exists i, c, π. split; [done|]. split; [|done]. apply IH; [by eapply elem_of_list_lookup_2|done].
Qed.
Lemma tpaths_nodup t : NoDup (tpaths t).
Proof.
  induction t as [x d cs IH] using ptree_ind'. cbn [tpaths]. apply NoDup_cons. split.
  { intros H%elem_child_paths. by destruct H as (? & ? & ? & _ & _ & ?). }
  generalize 0 as i. induction IH as [|c cs Hc _ IHc]; intros i; [constructor|]. cbn [child_paths]. apply NoDup_app. split; [|split; [|done]].
  - by apply NoDup_fmap_2; [intros ? ? [= ->]|].
  - intros π H1 H2. apply elem_of_list_fmap in H1 as (ρ & -> & _). apply elem_child_paths in H2 as (j & c' & ρ' & _ & _ & [= E _]). lia.
Qed.
Lemma tpaths_root t : ∃ l, tpaths t = [] :: l ∧ [] ∉ l.
Proof. destruct t as [x d cs]. eexists. split; [done|]. intros H%elem_child_paths. by destruct H as (? & ? & ? & _ & _ & ?). Qed.

Lemma tpos_cons t a b depth pos i c π : 1 ≤ depth → children t !! i = Some c →
  tpos t a b depth pos (i :: π) =
  tpos c (child_limit a b (length (children t)) i) (child_limit a b (length (children t)) (i + 1)) (depth + 1) (polar (child_angle a b (length (children t)) i) depth) π.
Proof.
  intros Hd Hc. destruct π as [|j π]; unfold tpos.
  - cbn [tangle length]. f_equal. lia.
  - rewrite (tangle_cons t a b i (j :: π) c) by done. f_equal. cbn [length]. lia.
Qed.

Section branch.
Variables (g : mgraph) (r : R) (fg lc : string).
Hypothesis Hwf : mg_wf g.
Hypothesis Hr : (0 <= r)%R.
(** what the code does: the marks are swapped *)
Definition swapped (x y : node) (kx ky : mark) : Prop := marks_at g x y ky kx.
Notation VD t lab pos := (vertex_drawn t swapped r fg lc (λ _, "white"%string) (λ _, "black"%string) lab pos).

Definition labels_ext (lab lab' : labels) (S : node → Prop) : Prop :=
  (∀ x, S x → lab' !! x = Some (default (LNum x) (lab !! x))) ∧ (∀ x, ¬ S x → lab' !! x = lab !! x).
Definition the_label (lab : labels) (x : node) : label := default (LNum x) (lab !! x).
(** every entry that is not one of lab is the default one *)
Definition labels_of (l0 lab : labels) : Prop := ∀ x, the_label lab x = the_label l0 x.

Lemma vertex_drawn_child x d cs i c lab pos posc π E : cs !! i = Some c → (∀ π, pos (i :: π) = posc π) → π ≠ [] →
  VD c lab posc π E → VD (PTree x d cs) lab pos (i :: π) E.
Proof.
  intros Hc Hp Hne (y & Hy & HE). assert (∀ π z, vertex c π z → vertex (PTree x d cs) (i :: π) z) as HV.
  { intros ρ z (s & Hs & Hz). exists s. split; [|done]. cbn [subtree children]. by rewrite Hc. }
  exists y. split; [by apply HV|]. cbv zeta in *. rewrite !Hp. right. destruct HE as [[? _]|(ρ & j & z & kx & ky & E0 & -> & H1 & H2 & H3 & H4)]; [done|].
  exists (i :: ρ), j, z, kx, ky, E0. split; [done|]. split; [by apply HV|]. split; [done|]. split; [done|]. by rewrite !Hp.
Qed.

Lemma child_paths_app f i l1 l2 : child_paths f i (l1 ++ l2) = child_paths f i l1 ++ child_paths f (i + length l1) l2.
Proof.
  revert i. induction l1 as [|c l1 IH]; intros i; [cbn; by rewrite Nat.add_0_r|]. cbn [app child_paths]. fold (child_paths f). rewrite IH, <-app_assoc. do 2 f_equal.
  cbn [length]. f_equal. lia.
Qed.

(** the loop over the children *)
Definition branch_go (pag : option mgraph) (x : node) (pos : R * R) (a b : R) (n depth : nat) :=
  fix go (cs : list ptree) (i : nat) (P : list shape) (lab : labels) : res (list shape * labels) :=
    match cs with
    | [] => Ok (P, lab)
    | c :: cs =>
      let cpos := polar (child_angle a b n i) depth in
      match pag with
      | None => Raise AttributeError
      | Some g =>
        E ← draw_edge false pos cpos r (get_edge_mark PAG_T g x (origin c)) (get_edge_mark PAG_T g (origin c) x) lc "white" None "black" false;
        B ← draw_branch pag r fg lc c cpos (child_limit a b n i) (child_limit a b n (i + 1)) (depth + 1) lab;
        go cs (i + 1) (P ++ E ++ B.1) B.2
      end
    end.
Lemma draw_branch_eq pag x d cs pos a b depth lab :
  draw_branch pag r fg lc (PTree x d cs) pos a b depth lab =
  let lab := match lab !! x with Some _ => lab | None => <[x := LNum x]> lab end in
  l ← get_label lab x; branch_go pag x pos a b (length cs) depth cs 0 (draw_node pos r fg "white" l "black" None) lab.
Proof. done. Qed.

Lemma add_label_ok lab x : let lab' := match lab !! x with Some _ => lab | None => <[x := LNum x]> lab end in
  get_label lab' x = Ok (the_label lab x) ∧ labels_ext lab lab' (λ y, y = x).
Proof.
  cbv zeta. unfold get_label, the_label. destruct (lab !! x) as [l|] eqn:E.
  - rewrite E. split; [done|]. split; [intros y ->; by rewrite E|done].
  - rewrite lookup_insert. split; [done|]. split; [intros y ->; by rewrite lookup_insert, E|intros y Hy; by rewrite lookup_insert_ne].
Qed.
Lemma labels_ext_trans l1 l2 l3 (S1 S2 S3 : node → Prop) : labels_ext l1 l2 S1 → labels_ext l2 l3 S2 → (∀ x, S3 x ↔ S1 x ∨ S2 x) →
  (∀ x, S1 x ∨ ¬ S1 x) → (∀ x, S2 x ∨ ¬ S2 x) → labels_ext l1 l3 S3.
Proof.
  intros [A1 A2] [B1 B2] HS D1 D2. split; intros x; rewrite HS; intros Hx.
  - destruct (D2 x) as [H2|H2].
    + rewrite B1 by done. destruct (D1 x) as [H1|H1]; [by rewrite A1 by done|by rewrite A2 by done].
    + rewrite B2 by done. apply A1. tauto.
  - rewrite B2, A2 by tauto. done.
Qed.
Lemma labels_ext_label lab lab' S x : labels_ext lab lab' S → (S x ∨ ¬ S x) → the_label lab' x = the_label lab x.
Proof. intros [A1 A2] [H|H]; unfold the_label; [by rewrite A1|by rewrite A2]. Qed.

Lemma occurs_eq x d cs z : occurs (PTree x d cs) z ↔ z = x ∨ ∃ c, c ∈ cs ∧ occurs c z.
Proof.
  split.
  - intros ([|i π] & s & Hs & <-); cbn [subtree children] in Hs; [injection Hs as <-; by left|]. destruct (cs !! i) as [c|] eqn:E; [|done].
    right. exists c. split; [by eapply elem_of_list_lookup_2|]. by exists π, s.
  - intros [->|(c & Hc & π & s & Hs & <-)]; [exists []; by eexists|]. apply elem_of_list_lookup in Hc as [i Hi]. exists (i :: π), s. cbn [subtree children]. by rewrite Hi.
Qed.
Lemma occurs_dec t z : occurs t z ∨ ¬ occurs t z.
Proof.
  induction t as [x d cs IH] using ptree_ind'. destruct (decide (z = x)) as [->|Hne]; [left; apply occurs_eq; by left|].
  assert ((∃ c, c ∈ cs ∧ occurs c z) ∨ ¬ (∃ c, c ∈ cs ∧ occurs c z)) as [H|H].
  { induction IH as [|c cs Hc _ IHc]; [right; intros (c & Hc & _); by apply elem_of_nil in Hc|].
    destruct Hc as [Hc|Hc]; [left; exists c; split; [by left|done]|]. destruct IHc as [(c' & H1 & H2)|IHc]; [left; exists c'; split; [by right|done]|].
    right. intros (c' & [->|H1]%elem_of_cons & H2); [done|]. apply IHc. eauto. }
  - left. apply occurs_eq. by right.
  - right. rewrite occurs_eq. tauto.
Qed.

Lemma draw_branch_ok (l0 : labels) t : ∀ pos a b depth lab, 1 ≤ depth → euclid pos (0, 0)%R = INR (depth - 1) → tree_of g t → labels_of l0 lab →
  returns (draw_branch (Some g) r fg lc t pos a b depth lab) (λ '(P, lab'), labels_ext lab lab' (occurs t) ∧
    ∃ Es, P = concat Es ∧ Forall2 (VD t (the_label l0) (tpos t a b depth pos)) (tpaths t) Es).
Proof.
  induction t as [x d cs IH] using ptree_ind'. intros pos a b depth lab Hd Hp HT Hl. rewrite Forall_forall in IH.
  rewrite draw_branch_eq. cbv zeta. destruct (add_label_ok lab x) as [-> HX]. cbv zeta in HX. set (lab1 := match lab !! x with Some _ => lab | None => _ end) in *.
  cbn [mbind res_bind]. set (N := draw_node _ _ _ _ _ _ _). set (n := length cs). set (posf := tpos (PTree x d cs) a b depth pos).
  assert (VD (PTree x d cs) (the_label l0) posf [] N) as HN.
  { exists x. split; [by eexists|]. left. split; [done|]. unfold N, draw_node. by rewrite (Hl x). }
  (* the children still to be drawn *)
  assert (∀ cs2 cs1 P lab2 Es, cs = cs1 ++ cs2 → labels_ext lab lab2 (λ z, z = x ∨ ∃ c, c ∈ cs1 ∧ occurs c z) → P = concat Es →
    Forall2 (VD (PTree x d cs) (the_label l0) posf) ([] :: child_paths tpaths 0 cs1) Es →
    returns (branch_go (Some g) x pos a b n depth cs2 (length cs1) P lab2) (λ '(P, lab'), labels_ext lab lab' (occurs (PTree x d cs)) ∧
      ∃ Es, P = concat Es ∧ Forall2 (VD (PTree x d cs) (the_label l0) posf) (tpaths (PTree x d cs)) Es)) as HGo.
  { induction cs2 as [|c cs2 IHc]; intros cs1 P lab2 Es Ecs Hlab -> HF.
    - rewrite app_nil_r in Ecs. subst cs1. cbn [branch_go returns]. split; [|by exists Es].
      destruct Hlab as [A1 A2]. split; intros z Hz; [apply A1; by apply occurs_eq in Hz|apply A2; by rewrite <-occurs_eq].
    - assert (cs !! length cs1 = Some c) as Hc by (rewrite Ecs; apply list_lookup_middle; done). set (i := length cs1) in *.
      assert (c ∈ cs) as Hcin by (by eapply elem_of_list_lookup_2).
      cbn [branch_go]. cbv zeta. set (cpos := polar (child_angle a b n i) depth).
      assert (vertex (PTree x d cs) [] x) as Vx by (by eexists).
      assert (vertex (PTree x d cs) [i] (origin c)) as Vc by (exists c; split; [cbn [subtree children]; by rewrite Hc|done]).
      destruct (HT [] i x (origin c) Vx Vc) as [ky Hky]. destruct (mgw_both _ Hwf _ _ _ Hky) as [kx Hkx].
      assert (get_edge_mark PAG_T g x (origin c) = Some ky) as -> by (by apply get_edge_mark_some).
      assert (get_edge_mark PAG_T g (origin c) x = Some kx) as -> by (by apply get_edge_mark_some).
      assert (euclid cpos (0, 0)%R = INR depth) as Hcp by apply polar_dist.
      assert (pos ≠ cpos) as Hne. { intros E. rewrite E, Hcp in Hp. apply INR_eq in Hp. lia. }
      eapply returns_bind; [by apply draw_edge_ok|]. cbn beta. intros E HE.
      assert (∀ π, posf (i :: π) = tpos c (child_limit a b n i) (child_limit a b n (i + 1)) (depth + 1) cpos π) as Hpos by (intros π; by apply tpos_cons).
      assert (∀ z, (λ z, z = x ∨ ∃ c, c ∈ cs1 ∧ occurs c z) z ∨ ¬ (λ z, z = x ∨ ∃ c, c ∈ cs1 ∧ occurs c z) z) as Hdec.
      { intros z. cbn beta. destruct (decide (z = x)); [tauto|]. assert ((∃ c, c ∈ cs1 ∧ occurs c z) ∨ ¬ (∃ c, c ∈ cs1 ∧ occurs c z)); [|tauto]. clear.
        induction cs1 as [|c cs1 IHc]; [right; intros (c & Hc & _); by apply elem_of_nil in Hc|].
        destruct (occurs_dec c z) as [Hc|Hc]; [left; exists c; split; [by left|done]|]. destruct IHc as [(c' & H1 & H2)|IHc]; [left; exists c'; split; [by right|done]|].
        right. intros (c' & [->|H1]%elem_of_cons & H2); [done|]. apply IHc. eauto. }
      eapply returns_bind; [apply (IH c Hcin cpos (child_limit a b n i) (child_limit a b n (i + 1)) (depth + 1) lab2)|].
      { lia. }
      { rewrite Hcp. f_equal. lia. }
      { intros π j u v (s & Hs & Hu) (s' & Hs' & Hv). apply (HT (i :: π) j); [exists s|exists s']; (split; [|done]); cbn [subtree children app]; by rewrite Hc. }
      { intros z. rewrite <-(Hl z). apply (labels_ext_label lab lab2 _ z Hlab). apply Hdec. }
      cbn beta. intros [B labB] (HlB & EsB & -> & HB). cbn [fst snd].
      replace (i + 1) with (length (cs1 ++ [c])) by (rewrite app_length; cbn [length]; unfold i; lia).
      destruct (tpaths_root c) as (lc0 & Elc & Hlc). rewrite Elc in HB. inversion HB as [|? E0 ? EsB' HB0 HB' Ea Eb]. subst EsB.
      eapply IHc with (Es := Es ++ (E ++ E0) :: EsB').
      + by rewrite <-app_assoc.
      + eapply (labels_ext_trans lab lab2 labB _ (occurs c) _ Hlab HlB); [|exact Hdec|intros z; apply occurs_dec].
        intros z. split.
        * intros [Hz|(c' & [Hz|Hz%elem_of_list_singleton]%elem_of_app & Ho)]; [left; by left|left; right; eauto|subst; by right].
        * intros [[Hz|(c' & Hz & Ho)]|Hz]; [by left|right; exists c'; split; [apply elem_of_app; by left|done]|right; exists c; split; [apply elem_of_app; right; by left|done]].
      + rewrite concat_app. cbn [concat]. by rewrite <-!app_assoc.
      + rewrite child_paths_app. rewrite app_comm_cons. apply Forall2_app; [exact HF|]. cbn [child_paths]. rewrite app_nil_r, Elc. fold i. cbn [Nat.add fmap list_fmap].
        constructor.
        * destruct HB0 as (y & (s & Hs & Hy) & HB0). cbn [subtree] in Hs. injection Hs as <-. exists y. split; [by rewrite <-Hy|]. cbv zeta in *. right.
          exists [], i, x, ky, kx, E. split; [done|]. split; [done|]. split; [by rewrite <-Hy|]. destruct HB0 as [[_ ->]|(ρ & j & ? & ? & ? & ? & Hρ & _)]; [|by destruct ρ].
          rewrite Hpos. split; [done|]. exact HE.
        * assert (∀ l Es', Forall2 (VD c (the_label l0) (tpos c (child_limit a b n i) (child_limit a b n (i + 1)) (depth + 1) cpos)) l Es' → [] ∉ l →
            Forall2 (VD (PTree x d cs) (the_label l0) posf) ((λ π, i :: π) <$> l) Es') as HM.
          { induction 1 as [|π E' l' Es'' H1 _ IHl]; intros Hnil; [constructor|]. cbn [fmap list_fmap]. constructor.
            - eapply vertex_drawn_child; [exact Hc|exact Hpos| |exact H1]. intros ->. apply Hnil. by left.
            - apply IHl. intros Hz. apply Hnil. by right. }
          by apply HM. }
  apply (HGo cs [] N lab1 [N]); [done| |cbn [concat]; by rewrite app_nil_r|].
  - destruct HX as [A1 A2]. split; intros z Hz.
    + apply A1. destruct Hz as [Hz|(c & Hz & _)]; [done|]. by apply elem_of_nil in Hz.
    + apply A2. intros ->. apply Hz. by left.
  - cbn [child_paths]. by constructor.
Qed.
End branch.

Theorem draw_pds_tree_ok t g marked lab nsf bk fg lc circ : mg_wf g → tree_of g t → (0 <= nsf)%R →
  let r := (25 / 100 * nsf)%R in
  returns (draw_pds_tree t (Some g) marked lab nsf bk fg lc circ) (λ '(cv, P, lab'),
    labels_ext (default ∅ lab) lab' (occurs t) ∧ cv = tree_canvas t r circ ∧
    ∃ G B, P = G ++ B ∧ G = concat (pds_grid_ring 0 (stop_angle circ) <$> seq 1 (get_max_depth t - 1)) ++ (pds_grid_ray 0 (stop_angle circ) (INR (get_max_depth t - 1)) <$> seq 0 5) ∧
      tree_drawn t (swapped g) r fg lc (λ _, "white"%string) (λ _, "black"%string) (the_label (default ∅ lab)) (tpos t 0 (stop_angle circ) 1 (0, 0)%R) B).
Proof.
  intros Hwf HT Hn. cbv zeta. unfold draw_pds_tree. cbv zeta. fold (stop_angle circ). set (r := (25 / 100 * nsf)%R). assert (0 <= r)%R as Hr by (unfold r; lra).
  eapply returns_bind; [apply (draw_branch_ok g r fg lc Hwf Hr (default ∅ lab) t (0, 0)%R 0 (stop_angle circ) 1 (default ∅ lab)); [done| |done|done]|].
  { apply euclid_eq; cbn; lra. }
  cbn beta. intros [B lab'] (Hl & Es & -> & HE). cbn [returns fst snd]. split; [done|]. split; [done|].
  eexists _, _. split; [done|]. split; [done|]. exists (tpaths t), Es. split; [apply tpaths_nodup|]. split; [apply tpaths_ok|]. done.
Qed.
Lemma draw_pds_tree_none t marked lab nsf bk fg lc circ : children t ≠ [] → draw_pds_tree t None marked lab nsf bk fg lc circ = Raise AttributeError.
Proof.
  intros Hc. unfold draw_pds_tree. cbv zeta. destruct t as [x d [|c cs]]; [done|]. rewrite draw_branch_eq. cbv zeta. destruct (add_label_ok (default ∅ lab) x) as [-> _]. done.
Qed.
