(** Concrete PAGs and ancestral graphs: builders with checkers, and witnesses. *)
From Verif Require Import Base BaseLemmas ModelGraph Spec Paths ProofDsep.
From Verif Require Import ModelMixed ModelPC ModelPAG SpecMixed SpecPAG ProofPDAG ProofMixed ProofMixed2 ProofPAG ProofPAG2.
From Verif Require Import ProofPAGR ProofPAGR2 ProofPAGS ProofPAGT ProofPAGM ProofPAGU ProofPAGV.

Notation marks := (list (node * mark * node)).
Definition has (es : marks) (a : node) (k : mark) (b : node) : bool := bool_decide ((a, k, b) ∈ es).
Definition dirs (es : marks) : list (node * node) :=
  (λ e, (e.1.1, e.2)) <$> filter (λ e, e.1.2 = Directed ∧ (e.2, Tail, e.1.1) ∈ es) es.
Lemma elem_dirs ns es a b : (a, b) ∈ dirs es ↔ SpecPAG.dir_edge (mk_mg ns es) a b.
Proof.
  unfold dirs, SpecPAG.dir_edge. rewrite !mk_mg_mark, elem_of_list_fmap. split.
  - intros ([[a' k] b'] & E & H). simpl in E. injection E as -> ->. apply elem_of_list_filter in H as [[H1 H2] H3]. simpl in *. by subst.
  - intros [H1 H2]. exists (a, Directed, b). split; [done|]. by apply elem_of_list_filter.
Qed.
(** T contains the directed edges and is closed under appending one *)
Definition closed_under (es : marks) (T : list (node * node)) : bool :=
  forallb (λ e, bool_decide (e ∈ T) && forallb (λ p, negb (bool_decide (p.2 = e.1)) || bool_decide ((p.1, e.2) ∈ T)) T) (dirs es).
Lemma closed_tc ns es T : closed_under es T = true → ∀ a b, tc (SpecPAG.dir_edge (mk_mg ns es)) a b → (a, b) ∈ T.
Proof.
  unfold closed_under. rewrite forallb_forall. intros H.
  assert (∀ a b, SpecPAG.dir_edge (mk_mg ns es) a b → (a, b) ∈ T ∧ ∀ c, (c, a) ∈ T → (c, b) ∈ T) as H'.
  { intros a b Hab. apply (elem_dirs ns), elem_of_list_In, H in Hab. rewrite andb_true_iff, bool_decide_eq_true, forallb_forall in Hab.
    destruct Hab as [? Hc]. split; [done|]. intros c Hca. apply elem_of_list_In, Hc in Hca. simpl in Hca.
    rewrite orb_true_iff, negb_true_iff, bool_decide_eq_true, bool_decide_eq_false in Hca. by destruct Hca. }
  assert (∀ a b c, tc (SpecPAG.dir_edge (mk_mg ns es)) b c → (a, b) ∈ T → (a, c) ∈ T) as Hext.
  { intros a b c Hbc. induction Hbc as [b c Hbc|b d c Hbd _ IH]; intros Hab; [by apply (H' b c)|]. apply IH. by apply (H' b d). }
  intros a b Hab. inversion Hab as [? ? Hab'|? d ? Had Hdb]; subst; [by apply H'|]. eapply Hext; [exact Hdb|]. by apply H'.
Qed.

Definition mk_anc_ok (ns : list node) (es : marks) (T : list (node * node)) : bool :=
  mk_mg_ok ns es && forallb (λ e, negb (bool_decide (e.1.2 = Circle))) es && closed_under es T &&
  forallb (λ p, negb (has es p.2 Directed p.1)) T &&
  forallb (λ e, negb (bool_decide (e.1.2 = Tail ∧ (e.2, Tail, e.1.1) ∈ es)) ||
                forallb (λ e', negb (bool_decide (e'.1.2 = Directed ∧ e'.2 = e.2))) es) es.
Lemma mk_ancestral ns es T : mk_anc_ok ns es T = true → ancestral (mk_mg ns es).
Proof.
  unfold mk_anc_ok. rewrite !andb_true_iff. intros [[[[H1 H2] H3] H4] H5]. rewrite !forallb_forall in *. split.
  - by apply mk_mg_wf.
  - intros a b Hab. apply mk_mg_mark, elem_of_list_In, H2 in Hab. by rewrite negb_true_iff, bool_decide_eq_false in Hab.
  - intros a b Hab Hba. eapply closed_tc in Hab; [|done]. apply elem_of_list_In, H4 in Hab. unfold has in Hab. rewrite negb_true_iff, bool_decide_eq_false in Hab.
    apply mk_mg_mark in Hba. done.
  - intros a b c [Hab Hba] Hcb. apply mk_mg_mark in Hab, Hba, Hcb. apply elem_of_list_In, H5 in Hab. rewrite orb_true_iff, negb_true_iff, bool_decide_eq_false, forallb_forall in Hab.
    destruct Hab as [Hab|Hab]; [by destruct Hab|]. apply elem_of_list_In, Hab in Hcb. rewrite negb_true_iff, bool_decide_eq_false in Hcb. by destruct Hcb.
Qed.
Lemma ancestral_dir_mixed ns es T : mk_anc_ok ns es T = true →
  forallb (λ e, negb (bool_decide (e.1.2 = Tail ∧ (e.2, Tail, e.1.1) ∈ es))) es = true → dir_mixed (mk_mg ns es).
Proof.
  intros H Hu. pose proof (mk_ancestral _ _ _ H) as A. split; try apply A.
  - intros a b [Hab Hba]. apply mk_mg_mark in Hab, Hba. rewrite forallb_forall in Hu. apply elem_of_list_In, Hu in Hab.
    rewrite negb_true_iff, bool_decide_eq_false in Hab. by destruct Hab.
  - intros a Ha. inversion Ha as [? ? [Hab Hba]|? b ? [Hab Hba] Hb]; subst.
    + apply (mgw_in _ (an_wf _ A)) in Hab as (_ & _ & ?). done.
    + eapply (an_cycle _ A b a); done.
Qed.

Lemma size_list_le (l : list node) : size (list_to_set l : nset) ≤ length l.
Proof.
  induction l as [|x l IH]; [done|]. cbn [list_to_set length]. pose proof (size_union_alt ({[x]} : nset) (list_to_set l)) as E.
  assert (size ((list_to_set l : nset) ∖ {[x]}) ≤ size (list_to_set l : nset)) by (apply subseteq_size; set_solver +). rewrite size_singleton in E. simpl. lia.
Qed.

(** separation sets as a list *)
Definition mk_sep (l : list (node * node * list node)) : sepset := foldr (λ e m, sep_set m e.1.1 e.1.2 e.2) ∅ l.
Definition sep_ok (ns : list node) (es : marks) (sep : sepset) : bool :=
  forallb (λ x, forallb (λ y, bool_decide (x = y) || existsb (λ k, has es x k y) all_marks ||
    match sep_get sep x y with
    | Ok Z => bool_decide (x ∉ Z) && bool_decide (y ∉ Z) && forallb (λ z, bool_decide (z ∈ ns)) (elements Z) &&
              match is_m_separated ord_up (length ns + 2) (mk_mg ns es) x y (elements Z) with Ok b => b | _ => false end
    | _ => false
    end) ns) ns.
Lemma sep_ok_separating ns es sep : dir_mixed (mk_mg ns es) → sep_ok ns es sep = true → separating (mk_mg ns es) (sep_fun sep).
Proof.
  intros D H x y Hx Hy Hne Hn. unfold sep_ok in H. rewrite forallb_forall in H. pose proof Hx as Hx'. pose proof Hy as Hy'. apply mk_mg_nodes, elem_of_list_In in Hx', Hy'.
  specialize (H x Hx'). rewrite forallb_forall in H. specialize (H y Hy'). rewrite !orb_true_iff, bool_decide_eq_true in H.
  destruct H as [[?|H]|H]; [done| |].
  - exfalso. apply Hn. apply existsb_exists in H as (k & _ & H). exists k. apply mk_mg_mark. by apply bool_decide_eq_true in H.
  - unfold sep_fun. destruct (sep_get sep x y) as [Z| |]; [|done..]. rewrite !andb_true_iff, !bool_decide_eq_true, forallb_forall in H. destruct H as [[[H1 H2] H3] H4].
    exists Z. split_and!; try done.
    assert (size (mnodes (mk_mg ns es)) + 1 < length ns + 2) as Hf.
    { unfold mk_mg. cbn [mnodes]. pose proof (size_list_le ns). lia. }
    pose proof (is_m_separated_ok ord_up ord_up_ok (mk_mg ns es) D (length ns + 2) x y (elements Z) Hf Hx Hy) as Hr.
    destruct (is_m_separated ord_up (length ns + 2) (mk_mg ns es) x y (elements Z)) as [b| |]; [|done..]. subst b. simpl in Hr.
    rewrite list_to_set_elements_L in Hr. apply Hr; [|done|by rewrite elem_of_elements|done].
    intros z Hz. apply elem_of_list_In, H3 in Hz. apply elem_of_list_to_set. by apply bool_decide_eq_true in Hz.
Qed.

(** ** Rule 10 asserts a tail that is false: A <-> C is oriented A --> C *)
(** A=0 B=1 C=2 D=3 E=4 F=5, 6 and 7 into B, 8 and 9 into D *)
Definition w10_nodes : list node := seq 0 10.
Definition w10_mag : marks :=
  pag_ 0 Tail Directed 4 ++ pag_ 0 Tail Directed 5 ++ pag_ 1 Tail Directed 4 ++ pag_ 1 Tail Directed 2 ++
  pag_ 3 Tail Directed 5 ++ pag_ 3 Tail Directed 2 ++ pag_ 6 Tail Directed 1 ++ pag_ 7 Tail Directed 1 ++
  pag_ 8 Tail Directed 3 ++ pag_ 9 Tail Directed 3 ++ pag_ 0 Directed Directed 2.
Definition w10_sep : sepset := mk_sep
  [((0,1),[]); ((0,3),[]); ((0,6),[]); ((0,7),[]); ((0,8),[]); ((0,9),[]); ((1,3),[]); ((1,5),[]); ((1,8),[]); ((1,9),[]);
   ((2,4),[0;1]); ((2,5),[0;3]); ((2,6),[1]); ((2,7),[1]); ((2,8),[3]); ((2,9),[3]); ((3,4),[]); ((3,6),[]); ((3,7),[]);
   ((4,5),[0]); ((4,6),[1]); ((4,7),[1]); ((4,8),[]); ((4,9),[]); ((5,6),[]); ((5,7),[]); ((5,8),[3]); ((5,9),[3]);
   ((6,7),[]); ((6,8),[]); ((6,9),[]); ((7,8),[]); ((7,9),[]); ((8,9),[])].
Definition w10_T : list (node * node) :=
  [(0,4);(0,5);(1,4);(1,2);(3,5);(3,2);(6,1);(7,1);(8,3);(9,3);(6,4);(6,2);(7,4);(7,2);(8,5);(8,2);(9,5);(9,2)].
(** the skeleton with circles *)
Definition circles_of (es : marks) : marks := (λ e, (e.1.1, Circle, e.2)) <$> es.
Definition w10_orient (rules : list nat) : res mgraph :=
  h ← pag_v_structures ord_up (mk_mg w10_nodes (circles_of w10_mag)) w10_sep; pag_orient ord_up 200 w10_sep h (Some rules).

(** checks of marks on computed results *)
Definition res_has (r : res mgraph) (a : node) (k : mark) (b : node) : bool := match r with Ok g => bool_decide (a ∈ mset g b k) | _ => false end.
Lemma res_has_ok r a k b : res_has r a k b = true → ∃ g, r = Ok g ∧ has_mark g a k b.
Proof. destruct r as [g| |]; simpl; try done. intros H. exists g. split; [done|]. by apply bool_decide_eq_true in H. Qed.
Lemma circles_reflect ns es : reflects (mk_mg ns es) (mk_mg ns (circles_of es)).
Proof.
  split; [done|..].
  - intros a b. unfold mg_adj. split; intros [k Hk]; apply mk_mg_mark in Hk.
    + exists Circle. apply mk_mg_mark, elem_of_list_fmap. by exists (a, k, b).
    + apply elem_of_list_fmap in Hk as ([[a' k'] b'] & E & Hin). simpl in E. simplify_eq. exists k'. by apply mk_mg_mark.
  - intros a k b Hk Hab. apply mk_mg_mark, elem_of_list_fmap in Hab as ([[a' k'] b'] & E & Hin). simpl in E. by simplify_eq.
Qed.

Lemma w10_ancestral : ancestral (mk_mg w10_nodes w10_mag).
Proof. apply (mk_ancestral _ _ w10_T). by vm_compute. Qed.
Lemma w10_separating : separating (mk_mg w10_nodes w10_mag) (sep_fun w10_sep).
Proof. apply sep_ok_separating; [apply (ancestral_dir_mixed _ _ w10_T)|]; by vm_compute. Qed.
Lemma w10_skeleton_wf : mg_wf (mk_mg w10_nodes (circles_of w10_mag)).
Proof. apply mk_mg_wf. by vm_compute. Qed.

(** rule 10 makes a tail out of an arrowhead of the true graph; rules 1-9 alone do not *)
Theorem rule_10_unsound : ∃ o m g0 sep, iter_ok o ∧ ancestral m ∧ separating m (sep_fun sep) ∧ mg_wf g0 ∧ reflects m g0 ∧
  ∃ fuel g a c, (h ← pag_v_structures o g0 sep; pag_orient o fuel sep h None) = Ok g ∧ has_mark g c Tail a ∧ has_mark m c Directed a.
Proof.
  exists ord_up, (mk_mg w10_nodes w10_mag), (mk_mg w10_nodes (circles_of w10_mag)), w10_sep.
  split; [apply ord_up_ok|]. split; [apply w10_ancestral|]. split; [apply w10_separating|]. split; [apply w10_skeleton_wf|].
  split; [apply circles_reflect|]. exists 200.
  destruct (res_has_ok (h ← pag_v_structures ord_up (mk_mg w10_nodes (circles_of w10_mag)) w10_sep; pag_orient ord_up 200 w10_sep h None) 2 Tail 0) as (g & E & Hg); [by vm_compute|].
  exists g, 0, 2. split_and!; [done..|]. apply mk_mg_mark. apply (bool_decide_unpack _). by vm_compute.
Qed.

(** rule 10 orients although no pattern of the documented rule is present *)
Theorem rule_10_refuted : ∃ o g fuel g' a c, iter_ok o ∧ mg_wf g ∧ pag_rule_10 o fuel g = Ok (g', true) ∧
  has_mark g c Circle a ∧ has_mark g' c Tail a ∧ ¬ r10_pattern g a c.
Proof.
  assert (res_has (w10_orient (seq 1 9)) 2 Circle 0 = true) as H1 by by vm_compute.
  assert (res_has (r ← w10_orient (seq 1 9); r ← pag_rule_10 ord_up 200 r; Ok r.1) 2 Tail 0 = true) as H2 by by vm_compute.
  assert (match (r ← w10_orient (seq 1 9); pag_rule_10 ord_up 200 r) with Ok r => r.2 | _ => false end = true) as H3 by by vm_compute.
  assert (returns (w10_orient (seq 1 9)) (λ h, mg_wf h ∧ compat (mk_mg w10_nodes w10_mag) h (sep_fun w10_sep))) as Hs.
  { apply (fci_orient_compat ord_up ord_up_ok w10_sep _ _ w10_ancestral w10_skeleton_wf (circles_reflect _ _) w10_separating).
    - assert (size (mnodes (mk_mg w10_nodes (circles_of w10_mag))) = 10) as -> by by vm_compute. lia.
    - intros i Hi. apply elem_of_seq in Hi. lia. }
  destruct (w10_orient (seq 1 9)) as [g| |]; [|done..].
  cbn [mbind res_bind res_has returns] in *. apply bool_decide_eq_true in H1.
  destruct (pag_rule_10 ord_up 200 g) as [[g' b]| |] eqn:E10; [|done..]. cbn [mbind res_bind res_has fst snd] in *. apply bool_decide_eq_true in H2. subst b.
  destruct Hs as [Hg HC]. exists ord_up, g, 200, g', 0, 2. split; [apply ord_up_ok|]. do 4 (split; [done|]).
  intros Hp. apply (r10_sound _ _ _ _ _ Hg HC) in Hp as [_ Ht].
  assert (has_mark (mk_mg w10_nodes w10_mag) 2 Directed 0) as Hd by (apply mk_mg_mark, (bool_decide_unpack _); by vm_compute).
  by pose proof (mgw_one _ (an_wf _ w10_ancestral) _ _ _ _ Ht Hd).
Qed.

(** ** a tail placed by the rules is replaced by an arrowhead in a later pass of the same call *)
(** p=0 q=1 A=2 B=3 C=4 X=5 *)
Definition w24 : marks := pag_ 0 Circle Directed 3 ++ pag_ 1 Circle Directed 3 ++ pag_ 0 Circle Circle 2 ++ pag_ 1 Circle Circle 2 ++
  pag_ 2 Circle Circle 3 ++ pag_ 0 Circle Tail 4 ++ pag_ 1 Circle Tail 4 ++ pag_ 5 Tail Circle 4 ++ pag_ 4 Circle Circle 3.
Definition w24_sep := mk_sep [((0,1),[3;2]);((2,4),[0;1;3]);((5,0),[4]);((5,1),[4]);((5,2),[4]);((5,3),[4])].
Lemma list_total ns es sep : forallb (λ x, forallb (λ y, bool_decide (x = y) || existsb (λ k, has es x k y) all_marks ||
    match sep_get sep x y with Ok _ => true | _ => false end) ns) ns = true → sep_total sep (mk_mg ns es).
Proof.
  intros H x y Hx Hy Hne Hn. apply mk_mg_nodes, elem_of_list_In in Hx, Hy. rewrite forallb_forall in H. specialize (H x Hx).
  rewrite forallb_forall in H. specialize (H y Hy). rewrite !orb_true_iff, bool_decide_eq_true in H. destruct H as [[?|H]|H]; [done| |].
  - exfalso. apply Hn. apply existsb_exists in H as (k & _ & H). exists k. apply mk_mg_mark. by apply bool_decide_eq_true in H.
  - destruct (sep_get sep x y) as [Z| |]; [|done..]. by exists Z.
Qed.
Theorem marks_flip : ∃ o sep g fuel g1 g2 a b, iter_ok o ∧ mg_wf g ∧ sep_total sep g ∧
  has_mark g a Circle b ∧ pag_pass o fuel sep (seq 1 10) g = Ok (g1, true) ∧ has_mark g1 a Tail b ∧
  pag_orient o fuel sep g None = Ok g2 ∧ has_mark g2 a Directed b.
Proof.
  assert (res_has (r ← pag_pass ord_up 50 w24_sep (seq 1 10) (mk_mg (seq 0 6) w24); Ok r.1) 3 Tail 4 = true) as H1 by by vm_compute.
  assert (match pag_pass ord_up 50 w24_sep (seq 1 10) (mk_mg (seq 0 6) w24) with Ok r => r.2 | _ => false end = true) as H2 by by vm_compute.
  destruct (pag_pass ord_up 50 w24_sep (seq 1 10) (mk_mg (seq 0 6) w24)) as [[g1 b]| |] eqn:E; [|done..]. cbn [mbind res_bind res_has snd fst] in *.
  apply bool_decide_eq_true in H1. subst b.
  destruct (res_has_ok (pag_orient ord_up 50 w24_sep (mk_mg (seq 0 6) w24) None) 3 Directed 4) as (g2 & E2 & Hg2); [by vm_compute|].
  exists ord_up, w24_sep, (mk_mg (seq 0 6) w24), 50, g1, g2, 3, 4. split; [apply ord_up_ok|]. split; [apply mk_mg_wf; by vm_compute|].
  split; [apply list_total; by vm_compute|]. split; [apply mk_mg_mark, (bool_decide_unpack _); by vm_compute|].
  split; [exact E|]. split; [exact H1|]. split; [exact E2|exact Hg2].
Qed.

(** ** get_ordered_buckets need not terminate *)
Lemma bucket_loop_stuck o g bs rem ord : take_sink o g rem [] bs = None → bs ≠ [] → ord ≠ [] → ∀ fuel, bucket_loop o fuel g bs rem ord = Diverges.
Proof.
  intros Ht Hb Hord fuel. induction fuel as [|fuel IH]; [done|]. cbn [bucket_loop]. destruct bs as [|B bs]; [done|]. rewrite Ht.
  rewrite bool_decide_true by (destruct ord; [done|simpl; lia]). done.
Qed.
Definition w31 : mgraph := mk_mg [0;1;2] (und_ 1 2).
Theorem ordered_buckets_diverge : ∃ o g, iter_ok o ∧ mg_wf g ∧ ∀ fuel, get_ordered_buckets o fuel g None = Diverges.
Proof.
  exists ord_up, w31. split; [apply ord_up_ok|]. split; [apply mk_mg_wf; by vm_compute|]. intros fuel.
  assert (fuel < 8 ∨ ∃ n, fuel = 8 + n) as [Hf|[n ->]].
  { destruct (decide (fuel < 8)); [by left|right]. exists (fuel - 8). lia. }
  { do 8 (destruct fuel as [|fuel]; [by vm_compute|]). lia. }
  assert (match find_buckets ord_up (8 + n) w31 (Some (mnodes w31)) with
    | Ok (B0 :: L) =>
      match take_sink ord_up w31 (⋃ (B0 :: L)) [] (B0 :: L) with
      | Some (B, b :: bs) => match take_sink ord_up w31 (⋃ (B0 :: L) ∖ B) [] (b :: bs) with None => true | Some _ => false end
      | _ => false
      end
    | _ => false
    end = true) as Hc by by vm_compute.
  unfold get_ordered_buckets. cbn [default from_option]. unfold id.
  destruct (find_buckets ord_up (8 + n) w31 (Some (mnodes w31))) as [[|B0 L]| |]; try done. cbn [mbind res_bind].
  destruct (take_sink ord_up w31 (⋃ (B0 :: L)) [] (B0 :: L)) as [[B [|b bs]]|] eqn:E1; try done.
  destruct (take_sink ord_up w31 (⋃ (B0 :: L) ∖ B) [] (b :: bs)) eqn:E2; try done.
  assert (bucket_loop ord_up (8 + n) w31 (B0 :: L) (⋃ (B0 :: L)) [] = bucket_loop ord_up (7 + n) w31 (b :: bs) (⋃ (B0 :: L) ∖ B) [B]) as ->.
  { change (8 + n) with (S (7 + n)). cbn [bucket_loop]. by rewrite E1. }
  rewrite (bucket_loop_stuck ord_up w31 (b :: bs) (⋃ (B0 :: L) ∖ B) [B] E2); done.
Qed.

(** ** the visibility of the wrong edge is tested for the pc-component *)
Definition w32 : marks := pag_ 0 Circle Directed 1 ++ pag_ 1 Directed Directed 2 ++ pag_ 3 Tail Directed 2 ++ pag_ 4 Circle Directed 3 ++ pag_ 5 Circle Directed 3.
Lemma w32_visible : find_visible_edges ord_up 20 (mk_mg (seq 0 6) w32) = Ok {[(3, 2)]}.
Proof.
  assert (match find_visible_edges ord_up 20 (mk_mg (seq 0 6) w32) with Ok v => bool_decide (v = {[(3, 2)]}) | _ => false end = true) as Hv by by vm_compute.
  destruct (find_visible_edges _ _ _); [|done..]. apply bool_decide_eq_true in Hv. by subst.
Qed.
Lemma w32_not_member : ¬ pc_member (mk_mg (seq 0 6) w32) {[(3, 2)]} (mnodes (mk_mg (seq 0 6) w32)) 0 3.
Proof.
  set (g := mk_mg (seq 0 6) w32).
  assert (∀ a k b, has_mark g a k b → (a, k, b) ∈ w32) as Hin by (intros a k b; apply mk_mg_mark).
  assert (∀ y, pc_neighbour g {[(3, 2)]} (mnodes g) 0 y → y = 1) as Hnb.
  { intros y (_ & [k Hk] & _). apply Hin in Hk. unfold w32, pag_ in Hk. set_solver +Hk. }
  assert (∀ y z, rtc (λ u v, bidir_edge g u v ∧ v ∈ mnodes g) y z → y = 1 ∨ y = 2 → z = 1 ∨ z = 2) as Hrtc.
  { intros y z Hr. induction Hr as [|y y' z [[Hy _] _] _ IH]; [done|]. intros Hy'. apply IH. apply Hin in Hy. unfold w32, pag_ in Hy. set_solver +Hy Hy'. }
  assert (∀ z, pc_linked g {[(3, 2)]} (mnodes g) 0 z → z = 1 ∨ z = 2) as Hl.
  { intros z (y & Hy & _ & (_ & _ & Hr)). apply Hnb in Hy as ->. eapply Hrtc; [done|]. by left. }
  intros [?|[H|[H|(_ & z & Hz & _ & H3 & Hvis)]]]; [done|by apply Hnb in H|by apply Hl in H as [?|?]|].
  apply Hl in Hz as [->| ->].
  - apply Hin in H3. unfold w32, pag_ in H3. set_solver +H3.
  - set_solver +Hvis.
Qed.
Theorem pc_component_refuted : ∃ o g fuel vis S x w, iter_ok o ∧ mg_wf g ∧ find_visible_edges o fuel g = Ok vis ∧
  find_pc_component o fuel g vis x None None = Ok S ∧ w ∈ S ∧ ¬ pc_member g vis (mnodes g) x w.
Proof.
  assert (match find_pc_component ord_up 20 (mk_mg (seq 0 6) w32) {[(3, 2)]} 0 None None with Ok R => bool_decide (3 ∈ R) | _ => false end = true) as Hp by by vm_compute.
  destruct (find_pc_component ord_up 20 _ {[(3, 2)]} 0 None None) as [R| |] eqn:E; [|done..]. apply bool_decide_eq_true in Hp.
  exists ord_up, (mk_mg (seq 0 6) w32), 20, {[(3, 2)]}, R, 0, 3. split; [apply ord_up_ok|]. split; [apply mk_mg_wf; by vm_compute|].
  split; [exact w32_visible|]. split; [exact E|]. split; [exact Hp|exact w32_not_member].
Qed.
