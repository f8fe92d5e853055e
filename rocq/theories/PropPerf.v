(** Properties C49, C50, C74, C75: performance measures. *)
From Coq Require Import QArith.
From Verif Require Import Base BaseLemmas ModelGraph Spec ModelMixed SpecMixed SpecCount ModelPerf SpecPerf
  ProofGraph3 ProofMixed2 ProofPerf ProofPerf2 ProofPerf3.
Local Open Scope nat_scope.

(** ** C49 *)
(** each count is the number of node pairs with that error, the total the number of pairs about which the graphs differ *)
Theorem C49_shd_counts : ∀ o g t, iter_ok o → pd_wf g → pd_wf t → one_way g → one_way t →
  returns (shd_cpdag o g t) (shd_spec g t).
Proof. exact shd_ok. Qed.
Print Assumptions C49_shd_counts.

Theorem C49_shd_zero : ∀ o g h, iter_ok o → pd_wf g → pd_wf h → one_way g → one_way h → mnodes g = mnodes h →
  returns (shd_cpdag o g h) (λ s, shd_total s = 0 ↔ pd_same g h).
Proof. exact shd_zero. Qed.
Print Assumptions C49_shd_zero.

(** swapping the arguments swaps missing and extra; the total is symmetric *)
Theorem C49_shd_swap : ∀ o1 o2 g h, iter_ok o1 → iter_ok o2 → pd_wf g → pd_wf h → one_way g → one_way h → mnodes g = mnodes h →
  ∃ s s', shd_cpdag o1 g h = Ok s ∧ shd_cpdag o2 h g = Ok s' ∧
    s' = Shd (sh_extra s) (sh_missing s) (ah_extra s) (ah_missing s) (ah_reversed s) ∧ shd_total s' = shd_total s.
Proof.
  intros o1 o2 g h H1 H2 H3 H4 H5 H6 H7. destruct (shd_swap o1 o2 g h H1 H2 H3 H4 H5 H6 H7) as (s & s' & E1 & E2 & ->).
  exists s. eexists. split; [exact E1|]. split; [exact E2|]. split; [done|]. unfold shd_total. simpl. lia.
Qed.
Print Assumptions C49_shd_swap.

Theorem C49_shd_triangle : ∀ o1 o2 o3 g h k, iter_ok o1 → iter_ok o2 → iter_ok o3 → pd_wf g → pd_wf h → pd_wf k →
  one_way g → one_way h → one_way k → mnodes g = mnodes h → mnodes h = mnodes k →
  ∃ s1 s2 s3, shd_cpdag o1 g h = Ok s1 ∧ shd_cpdag o2 h k = Ok s2 ∧ shd_cpdag o3 g k = Ok s3 ∧
    shd_total s3 ≤ shd_total s1 + shd_total s2.
Proof. exact shd_triangle. Qed.
Print Assumptions C49_shd_triangle.

(** all five errors: 0 - 1 missing, 0 - 2 extra, 1 - 2 arrowhead missing, 2 - 3 arrowhead extra, 3 - 4 reversed, 4 - 5 correct *)
Definition e49g : mgraph := mk_mg [0;1;2;3;4;5] (dir_ 0 2 ++ und_ 1 2 ++ dir_ 2 3 ++ dir_ 3 4 ++ dir_ 4 5).
Definition e49t : mgraph := mk_mg [0;1;2;3;4;5] (und_ 0 1 ++ dir_ 1 2 ++ und_ 2 3 ++ dir_ 4 3 ++ dir_ 4 5).
Lemma mk_one_way (ns : list node) es : forallb (λ a, forallb (λ b,
    negb (bool_decide (a ∈ mset (mk_mg ns es) b Directed) && bool_decide (b ∈ mset (mk_mg ns es) a Directed))) ns) ns = true →
  pd_wf (mk_mg ns es) → one_way (mk_mg ns es).
Proof.
  intros H Hwf a b H1 H2. destruct (pdw_dir _ Hwf _ _ H1) as (Ha & Hb & _). rewrite forallb_forall in H.
  assert (∀ x, x ∈ mnodes (mk_mg ns es) → In x ns) as Hin.
  { intros x Hx. apply elem_of_list_In. revert Hx. unfold mk_mg. cbn [mnodes]. by rewrite elem_of_list_to_set. }
  specialize (H a (Hin a Ha)). rewrite forallb_forall in H. specialize (H b (Hin b Hb)).
  unfold darrow, has_mark in *. rewrite !bool_decide_true in H by done. done.
Qed.
Example C49_case : pd_wf e49g ∧ pd_wf e49t ∧ one_way e49g ∧ one_way e49t ∧ mnodes e49g = mnodes e49t ∧
  shd_cpdag ord_up e49g e49t = Ok (Shd 1 1 1 1 1) ∧ shd_cpdag ord_down e49t e49g = Ok (Shd 1 1 1 1 1) ∧
  shd_cpdag ord_up e49g e49g = Ok (Shd 0 0 0 0 0).
Proof.
  assert (pd_wf e49g) as H1 by (apply mk_pd_wf; by vm_compute). assert (pd_wf e49t) as H2 by (apply mk_pd_wf; by vm_compute).
  split; [done|]. split; [done|]. split; [apply mk_one_way; [by vm_compute|done]|]. split; [apply mk_one_way; [by vm_compute|done]|]. split; [done|]. by vm_compute.
Qed.

(** ** C50 *)
(** the five counters are the numbers of node pairs of the five kinds, and the four confusion counts sum to the number of pairs *)
Theorem C50_counts : ∀ o g c, iter_ok o → returns (skel_counts o g c) (skel_spec g c).
Proof. exact skel_ok. Qed.
Print Assumptions C50_counts.

(** The measures are defined when the two graphs share an edge and the correct graph is not complete ... *)
Theorem C50_defined_partial : ∀ o g c, iter_ok o → overlap g c → incomplete c →
  ∃ s a, skel_counts o g c = Ok s ∧ skel_spec g c s ∧ calc_skeleton_accuracy o g c = Ok a ∧ acc_spec s a.
Proof. exact acc_ok. Qed.
Print Assumptions C50_defined_partial.

(** calc_skeleton_fnr_fpr returns the false positive and the false negative rate *)
Theorem C50_rates_partial : ∀ o g c, iter_ok o → overlap g c → incomplete c →
  ∃ s fpr fnr, skel_spec g c s ∧ calc_skeleton_fnr_fpr o g c = Ok (fpr, fnr) ∧
    (fpr == qn (sk_fp s) / qn (sk_fp s + sk_tn s))%Q ∧ (fnr == qn (sk_fn s) / qn (sk_tp s + sk_fn s))%Q.
Proof.
  intros o g c Ho H1 H2. destruct (acc_ok o g c Ho H1 H2) as (s & a & _ & Hs & Ha & Hspec). exists s, (sa_fpr a), (sa_fnr a).
  unfold calc_skeleton_fnr_fpr. rewrite Ha. split_and!; [done..|apply (as_fpr _ _ Hspec)|apply (as_fnr _ _ Hspec)].
Qed.
Print Assumptions C50_rates_partial.

(** ... and perfect exactly for equal skeletons *)
Theorem C50_perfect_partial : ∀ o g c, iter_ok o → overlap g c → incomplete c →
  returns (calc_skeleton_accuracy o g c) (λ a,
    perfect a ↔ ∀ x y, x ∈ anodes c → y ∈ anodes c → x ≠ y → joined g x y ↔ joined c x y).
Proof. exact acc_perfect. Qed.
Print Assumptions C50_perfect_partial.

(** In all other cases the call raises ZeroDivisionError. *)
Theorem C50_undefined : ∀ o g c, iter_ok o → ¬ (overlap g c ∧ incomplete c) →
  calc_skeleton_accuracy o g c = Raise ZeroDivisionError.
Proof. exact acc_raise. Qed.
Print Assumptions C50_undefined.

(** The full claim is false: a correct result without edges, or a complete graph, compared with itself *)
Theorem C50_refuted : ∃ g h : agraph, anodes g = anodes h ∧ (∃ x y, x ∈ anodes h ∧ y ∈ anodes h ∧ x ≠ y ∧ joined h x y) ∧ ∀ o, iter_ok o →
  calc_skeleton_accuracy o g g = Raise ZeroDivisionError ∧ calc_skeleton_accuracy o g h = Raise ZeroDivisionError ∧
  calc_skeleton_accuracy o h g = Raise ZeroDivisionError ∧ calc_skeleton_accuracy o h h = Raise ZeroDivisionError.
Proof.
  exists (APag (mempty {[0; 1]})), (APag (mk_mg [0; 1] (pag_ 0 Circle Circle 1))). 
  assert (∀ a b, ¬ joined (APag (mempty {[0; 1]})) a b) as H1 by (intros a b [k [H|H]]; unfold has_mark, mempty in H; cbn [mset] in H; set_solver +H).
  assert (∀ a b, a ∈ anodes (APag (mempty {[0; 1]})) → b ∈ anodes (APag (mempty {[0; 1]})) → a ≠ b → joined (APag (mk_mg [0; 1] (pag_ 0 Circle Circle 1))) a b) as H2.
  { intros a b. cbn [anodes mnodes mempty]. rewrite !elem_of_union, !elem_of_singleton. assert (1 ∈ mset (mk_mg [0; 1] (pag_ 0 Circle Circle 1)) 0 Circle) as H by (apply (bool_decide_unpack _); by vm_compute).
    intros [->| ->] [->| ->] ?; try done; exists Circle; unfold has_mark; tauto. }
  assert (anodes (APag (mempty {[0; 1]})) = anodes (APag (mk_mg [0; 1] (pag_ 0 Circle Circle 1)))) as En by (apply (bool_decide_unpack _); by vm_compute).
  split; [exact En|]. split; [exists 0, 1; rewrite <-En; split_and!; [set_solver +|set_solver +|done|apply H2; [set_solver +|set_solver +|done]]|]. intros o Ho.
  split_and!; apply C50_undefined; [exact Ho| |exact Ho| |exact Ho| |exact Ho|].
  - intros [(a & b & _ & _ & _ & H & _) _]. by apply H1 in H.
  - intros [(a & b & _ & _ & _ & _ & H) _]. by apply H1 in H.
  - intros [(a & b & _ & _ & _ & H & _) _]. by apply H1 in H.
  - intros [_ (a & b & Ha & Hb & Hne & H)]. apply H. rewrite <-En in Ha, Hb. by apply H2.
Qed.
Print Assumptions C50_refuted.

Definition e50g : agraph := APlain (mk_graph [0;1;2;3] [(0,1);(2,1);(2,3)]).
Definition e50c : agraph := APag (mk_mg [0;1;2;3] (pag_ 0 Circle Directed 1 ++ pag_ 1 Circle Circle 2 ++ pag_ 0 Tail Directed 3)).
Example C50_case : overlap e50g e50c ∧ incomplete e50c ∧ skel_counts ord_up e50g e50c = Ok (Skel 2 1 1 2 3) ∧
  match calc_skeleton_accuracy ord_down e50g e50c with Ok a => (Qred (sa_precision a), Qred (sa_recall a), Qred (sa_f1 a), Qred (sa_fpr a), Qred (sa_fnr a)) | _ => (0, 0, 0, 0, 0)%Q end
    = (2 # 3, 2 # 3, 2 # 3, 1 # 3, 1 # 3)%Q ∧
  match calc_skeleton_accuracy ord_down e50c e50c with Ok a => (Qred (sa_precision a), Qred (sa_recall a), Qred (sa_f1 a), Qred (sa_fpr a), Qred (sa_fnr a)) | _ => (0, 0, 0, 0, 0)%Q end
    = (1, 1, 1, 0, 0)%Q.
Proof.
  split; [|split].
  - exists 0, 1. split; [apply (bool_decide_unpack _); by vm_compute|]. split; [apply (bool_decide_unpack _); by vm_compute|]. split; [done|]. split.
    + exists Directed. left. unfold has_mark. apply (bool_decide_unpack _). by vm_compute.
    + left. unfold edge. apply (bool_decide_unpack _). by vm_compute.
  - exists 1, 3. split; [apply (bool_decide_unpack _); by vm_compute|]. split; [apply (bool_decide_unpack _); by vm_compute|]. split; [done|].
    intros [k [H|H]]; unfold has_mark in H; revert H; destruct k; apply (bool_decide_unpack (¬ _)); by vm_compute.
  - by vm_compute.
Qed.

(** ** C74: edges directed both ways *)
(** For a PDAG with an edge directed both ways the distance is zero for different graphs and depends on the order of the arguments. *)
Theorem C74_two_way_refuted : ∃ g h : mgraph, pd_wf g ∧ pd_wf h ∧ mnodes g = mnodes h ∧ ¬ pd_same g h ∧
  ∃ s s', shd_cpdag ord_up g h = Ok s ∧ shd_cpdag ord_up h g = Ok s' ∧ shd_total s = 0 ∧ shd_total s' = 1.
Proof.
  exists (mk_mg [0;1] (dir_ 0 1)), (mk_mg [0;1] (dir_ 0 1 ++ dir_ 1 0)). split; [apply mk_pd_wf; by vm_compute|]. split; [apply mk_pd_wf; by vm_compute|].
  split; [done|]. split.
  - intros [_ H]. destruct (H 1 0) as [[_ H'] _]. assert (darrow (mk_mg [0;1] (dir_ 0 1 ++ dir_ 1 0)) 1 0) as Hd by (unfold darrow, has_mark; apply (bool_decide_unpack _); by vm_compute).
    apply H' in Hd. unfold darrow, has_mark in Hd. revert Hd. apply (bool_decide_unpack (¬ _)). by vm_compute.
  - exists (Shd 0 0 0 0 0), (Shd 0 0 0 0 1). by vm_compute.
Qed.
Print Assumptions C74_two_way_refuted.

(** such an edge of the true graph makes the number of reversed arrowheads depend on the iteration order *)
Theorem C74_order_refuted : ∃ g h o o' s s', pd_wf g ∧ pd_wf h ∧ mnodes g = mnodes h ∧ iter_ok o ∧ iter_ok o' ∧
  shd_cpdag o g h = Ok s ∧ shd_cpdag o' g h = Ok s' ∧ shd_total s ≠ shd_total s'.
Proof.
  exists (mk_mg [0;1] (dir_ 0 1)), (mk_mg [0;1] (dir_ 0 1 ++ dir_ 1 0)), ord_up, ord_down, (Shd 0 0 0 0 0), (Shd 0 0 0 0 1).
  split; [apply mk_pd_wf; by vm_compute|]. split; [apply mk_pd_wf; by vm_compute|]. split; [done|]. split; [apply ord_up_ok|]. split; [apply ord_down_ok|].
  split; [by vm_compute|]. split; [by vm_compute|]. by vm_compute.
Qed.
Print Assumptions C74_order_refuted.

(** the other four counts are exact for every PDAG, whether or not it has edges directed both ways *)
Theorem C74_counts_partial : ∀ o g t, iter_ok o → pd_wf g → pd_wf t →
  returns (shd_cpdag o g t) (λ s,
    pair_count (mnodes t) (λ a b, pd_adj t a b ∧ ¬ pd_adj g a b) (sh_missing s) ∧
    pair_count (mnodes t) (λ a b, pd_adj g a b ∧ ¬ pd_adj t a b) (sh_extra s) ∧
    pair_count (mnodes t) (λ a b, uline g a b ∧ darrow_any t a b) (ah_missing s) ∧
    pair_count (mnodes t) (λ a b, darrow_any g a b ∧ uline t a b) (ah_extra s)).
Proof. exact shd_ok2. Qed.
Print Assumptions C74_counts_partial.

Example C74_counts_case : let g := mk_mg [0;1;2;3] (dir_ 0 1 ++ dir_ 1 0 ++ und_ 1 2) in let t := mk_mg [0;1;2;3] (und_ 0 1 ++ dir_ 1 2 ++ dir_ 2 1 ++ dir_ 2 3) in
  pd_wf g ∧ pd_wf t ∧ shd_cpdag ord_up g t = Ok (Shd 1 0 1 1 0).
Proof. split; [apply mk_pd_wf; by vm_compute|]. split; [apply mk_pd_wf; by vm_compute|]. by vm_compute. Qed.

(** ** C75: edge marks *)
Theorem C75_structural_accuracy : ∀ o g c, iter_ok o → mg_wf c → overlap (APag g) (APag c) → incomplete (APag c) →
  ∃ n t a q, calc_structural_accuracy_pag o g c = Ok (a, q) ∧
    end_count (mnodes c) (mark_agrees g c) n ∧ end_count (mnodes c) (mg_adj c) t ∧
    (q == qn n / qn t)%Q ∧ unit_interval q ∧ calc_skeleton_accuracy o (APag g) (APag c) = Ok a ∧
    ((q == 1)%Q ↔ ∀ x k y, has_mark c x k y → has_mark g x k y).
Proof. exact structural_ok. Qed.
Print Assumptions C75_structural_accuracy.

(** 0 o-> 1 (one of the two marks right), 1 o-o 2 (both), 0 --> 3 (edge missing) *)
Definition e75g : mgraph := mk_mg [0;1;2;3] (pag_ 0 Tail Directed 1 ++ pag_ 1 Circle Circle 2 ++ pag_ 2 Circle Circle 3).
Definition e75c : mgraph := mk_mg [0;1;2;3] (pag_ 0 Circle Directed 1 ++ pag_ 1 Circle Circle 2 ++ pag_ 0 Tail Directed 3).
Example C75_case : mg_wf e75c ∧ overlap (APag e75g) (APag e75c) ∧ incomplete (APag e75c) ∧ orient_counts ord_up e75g e75c = Ok (3, 6) ∧
  match calc_structural_accuracy_pag ord_up e75g e75c with Ok (_, q) => Qred q | _ => 0%Q end = (1 # 2)%Q.
Proof.
  split; [apply mk_mg_wf; by vm_compute|]. split; [|split].
  - exists 0, 1. split; [apply (bool_decide_unpack _); by vm_compute|]. split; [apply (bool_decide_unpack _); by vm_compute|]. split; [done|].
    split; exists Directed; left; unfold has_mark; apply (bool_decide_unpack _); by vm_compute.
  - exists 1, 3. split; [apply (bool_decide_unpack _); by vm_compute|]. split; [apply (bool_decide_unpack _); by vm_compute|]. split; [done|].
    intros [k [H|H]]; unfold has_mark in H; revert H; destruct k; apply (bool_decide_unpack (¬ _)); by vm_compute.
  - by vm_compute.
Qed.
