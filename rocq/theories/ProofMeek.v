(** The result of rules 1-3 on the pattern of a DAG is its essential graph: every undirected edge occurs in both
    directions among the equivalent DAGs (Meek 1995). *)
From Verif Require Import Base BaseLemmas ModelGraph Spec ModelMixed SpecMixed ProofGraph ProofDsep ProofGraph2 ProofGraph3
  ProofPDAG ProofPDAG2 ProofPDAG3 ProofMixed ProofMixed2.

Lemma sub_elem {A} (l k : list A) a : l `sublist_of` k → a ∈ l → a ∈ k.
Proof. induction 1; set_solver. Qed.
Lemma sub_single {A} (k : list A) a : a ∈ k → [a] `sublist_of` k.
Proof. intros (k1 & k2 & ->)%elem_of_list_split. apply sublist_inserts_l, sublist_skip, sublist_nil_l. Qed.

(** ** Chordal graphs: orders in which the earlier neighbours of every node are adjacent to each other *)
(** a before b in the list *)
Definition bf (l : list node) (a b : node) : Prop := [a; b] `sublist_of` l.
Lemma bf_snoc l s a b : bf (l ++ [s]) a b ↔ bf l a b ∨ (a ∈ l ∧ b = s).
Proof.
  unfold bf. split.
  - intros (l1 & l2 & E & H1 & H2)%sublist_app_r. destruct l1 as [|x [|y l1]]; simpl in E; simplify_eq.
    + exfalso. apply sublist_length in H2. simpl in H2. lia.
    + right. split; [apply (sub_elem _ _ _ H1); set_solver|].
      apply (sub_elem _ _ b) in H2; [by apply elem_of_list_singleton in H2|set_solver].
    + destruct l1; simplify_eq. by left.
  - intros [H|[H ->]]; [by apply sublist_inserts_r|]. apply (sublist_app [a] _ [s] _); [by apply sub_single|done].
Qed.
Lemma bf_in l a b : bf l a b → a ∈ l ∧ b ∈ l.
Proof. intros H. split; apply (sub_elem _ _ _ H); set_solver. Qed.
Lemma bf_irr l a : NoDup l → ¬ bf l a a.
Proof.
  intros Hnd H. apply sublist_cons_l in H as (k1 & k2 & -> & H). apply NoDup_app in Hnd as (_ & _ & Hnd).
  apply NoDup_cons in Hnd as [Hn _]. apply Hn. apply (sub_elem _ _ _ H). set_solver.
Qed.
Lemma bf_total l a b : a ∈ l → b ∈ l → a ≠ b → bf l a b ∨ bf l b a.
Proof.
  intros (k1 & k2 & ->)%elem_of_list_split Hb Hne. unfold bf. apply elem_of_app in Hb as [Hb|[->|Hb]%elem_of_cons]; [|done|].
  - right. apply (sublist_app [b] _ [a] _); [by apply sub_single|]. apply sublist_skip, sublist_nil_l.
  - left. apply sublist_inserts_l, sublist_skip. by apply sub_single.
Qed.
Lemma bf_trans l a b c : NoDup l → bf l a b → bf l b c → bf l a c.
Proof.
  intros Hnd H1 H2. apply sublist_cons_l in H2 as (k1 & k2 & -> & H2). 
  apply sublist_app_r in H1 as (l1 & l2 & E & Ha & Hb). destruct l1 as [|x l1]; simpl in E; simplify_eq.
  - exfalso. apply NoDup_app in Hnd as (_ & _ & Hnd). apply NoDup_cons in Hnd as [Hn _]. apply Hn.
    apply sublist_cons_r in Hb as [Hb|(l' & E & Hb)].
    + apply (sub_elem _ _ _ Hb). set_solver.
    + simplify_eq. apply (sub_elem _ _ _ Hb). set_solver.
  - assert (x ∈ k1) as Hx by (apply (sub_elem _ _ _ Ha); set_solver). unfold bf.
    apply (sublist_app [x] _ [c] _); [by apply sub_single|]. by apply sublist_cons.
Qed.

Lemma bf_cons z l a b : bf (z :: l) a b ↔ bf l a b ∨ (a = z ∧ b ∈ l).
Proof.
  unfold bf. rewrite sublist_cons_r. split.
  - intros [?|(l' & [= -> <-] & H)]; [by left|]. right. split; [done|]. apply (sub_elem _ _ _ H). set_solver.
  - intros [?|[-> ?]]; [by left|]. right. exists [b]. split; [done|by apply sub_single].
Qed.
Global Instance bf_decision k x y : Decision (bf k x y).
Proof.
  induction k as [|z k IH].
  - right. intros H%sublist_length. simpl in H. lia.
  - destruct IH as [H|H]; [left; apply bf_cons; by left|]. destruct (decide (x = z ∧ y ∈ k)) as [H'|H'].
    + left. apply bf_cons. by right.
    + right. intros [?|?]%bf_cons; tauto.
Defined.

Section chordal.
Context (U : node → node → Prop) (Usym : ∀ a b, U a b → U b a) (Udec : ∀ a b, U a b ∨ ¬ U a b).

Definition moral (l : list node) : Prop := ∀ a b c, bf l a c → bf l b c → a ≠ b → U a c → U b c → U a b.
(** the neighbours of s in the list are adjacent to each other *)
Definition simplicial (l : list node) (s : node) : Prop :=
  ∀ a b, a ∈ l → b ∈ l → a ≠ b → U a s → U b s → U a b.
Definition clique (l : list node) : Prop := ∀ a b, a ∈ l → b ∈ l → a ≠ b → U a b.

Lemma clique_dec l : clique l ∨ ∃ a b, a ∈ l ∧ b ∈ l ∧ a ≠ b ∧ ¬ U a b.
Proof.
  destruct (list_exists_dec l (λ a, ∃ b, b ∈ l ∧ a ≠ b ∧ ¬ U a b)) as [(a & Ha & b & ? & ? & ?)|H].
  - intros a. destruct (list_exists_dec l (λ b, a ≠ b ∧ ¬ U a b)) as [(b & ? & ? & ?)|H].
    + intros b. destruct (decide (a = b)); [right; tauto|]. destruct (Udec a b); tauto.
    + left. eauto.
    + right. intros (b & ? & ? & ?). by apply (H b).
  - right. eauto 10.
  - left. intros a b Ha Hb Hne. destruct (Udec a b); [done|]. exfalso. apply (H a Ha). eauto.
Qed.

Lemma moral_sub l k : k `sublist_of` l → moral l → moral k.
Proof. intros Hs Hm a b c H1 H2. apply Hm; unfold bf; by etransitivity. Qed.
Lemma moral_last l s : NoDup (l ++ [s]) → moral (l ++ [s]) → simplicial l s.
Proof. intros Hnd Hm a b Ha Hb Hne. apply Hm; [apply bf_snoc; by right..|done]. Qed.
Lemma moral_snoc l s : moral l → s ∉ l → simplicial l s → moral (l ++ [s]).
Proof.
  intros Hm Hs Hsi a b c. rewrite !bf_snoc. intros [Ha|[Ha ->]] [Hb|[Hb E]] Hne.
  - by apply Hm.
  - subst c. by apply bf_in in Ha as [_ ?].
  - by apply bf_in in Hb as [_ ?].
  - by apply Hsi.
Qed.
Lemma simplicial_snoc l s v : simplicial l v → ¬ U s v → simplicial (l ++ [s]) v.
Proof.
  intros Hs Hn a b Ha Hb Hne Hav Hbv. apply elem_of_app in Ha as [Ha| ->%elem_of_list_singleton]; [|done].
  apply elem_of_app in Hb as [Hb| ->%elem_of_list_singleton]; [|done]. by apply Hs.
Qed.
Lemma simplicial_self l s : simplicial l s → simplicial (l ++ [s]) s.
Proof.
  intros Hs a b Ha Hb Hne Hav Hbv. apply elem_of_app in Ha as [Ha| ->%elem_of_list_singleton]; [|by apply Usym].
  apply elem_of_app in Hb as [Hb| ->%elem_of_list_singleton]; [|done]. by apply Hs.
Qed.

(** Dirac: a chordal graph that is not complete has two simplicial nodes that are not adjacent *)
Lemma dirac l : NoDup l → moral l → clique l ∨
  ∃ s t, s ∈ l ∧ t ∈ l ∧ s ≠ t ∧ ¬ U s t ∧ simplicial l s ∧ simplicial l t.
Proof.
  induction l as [|s l IH] using rev_ind; intros Hnd Hm; [left; by intros a b ?%elem_of_nil|].
  pose proof (moral_last l s Hnd Hm) as Hs. pose proof Hnd as Hnd'. apply NoDup_app in Hnd' as (Hl & Hd & _).
  assert (s ∉ l) as Hsl by (intros ?; by apply (Hd s), elem_of_list_singleton).
  assert (∀ v, v ∈ l → ¬ U s v → simplicial l v → clique (l ++ [s]) ∨
    ∃ s0 t, s0 ∈ l ++ [s] ∧ t ∈ l ++ [s] ∧ s0 ≠ t ∧ ¬ U s0 t ∧ simplicial (l ++ [s]) s0 ∧ simplicial (l ++ [s]) t) as Hfin.
  { intros v Hv Hn Hsv. right. exists s, v. split_and!; [set_solver..|intros ->; done|done|by apply simplicial_self|by apply simplicial_snoc]. }
  destruct IH as [Hc|(u & t & Hu & Ht & Hne & Hn & Hsu & Hst)]; [done|by eapply moral_sub; [apply sublist_inserts_r|]| |].
  - destruct (clique_dec (l ++ [s])) as [?|(a & b & Ha & Hb & Hne & Hn)]; [by left|].
    assert (∃ v, v ∈ l ∧ ¬ U s v) as (v & Hv & Hnv).
    { apply elem_of_app in Ha as [Ha| ->%elem_of_list_singleton], Hb as [Hb| ->%elem_of_list_singleton]; [|exists a|exists b|done].
      - exfalso. apply Hn. by apply Hc.
      - split; [done|]. intros ?. by apply Hn, Usym.
      - done. }
    apply (Hfin v Hv Hnv). intros x y ? ? ? _ _. by apply Hc.
  - destruct (Udec s u) as [H1|H1]; [|by apply (Hfin u)]. destruct (Udec s t) as [H2|H2]; [|by apply (Hfin t)].
    exfalso. apply Hn. apply Hs; auto.
Qed.

Lemma other_simplicial l x : NoDup l → moral l → (∃ y, y ∈ l ∧ y ≠ x) → ∃ s, s ∈ l ∧ s ≠ x ∧ simplicial l s.
Proof.
  intros Hnd Hm (y & Hy & Hne). destruct (dirac l Hnd Hm) as [Hc|(s & t & Hs & Ht & Hst & _ & H1 & H2)].
  - exists y. split_and!; [done..|]. intros a b ? ? ? _ _. by apply Hc.
  - destruct (decide (s = x)) as [->|]; eauto.
Qed.

(** any node can come first *)
Lemma rooted n : ∀ l x, length l = n → NoDup l → moral l → x ∈ l → ∃ l', l' ≡ₚ l ∧ moral l' ∧ head l' = Some x.
Proof.
  induction n as [|n IH]; intros l x Hn Hnd Hm Hx; [destruct l; [by apply elem_of_nil in Hx|done]|].
  destruct (list_exists_dec l (λ y, y ≠ x)) as [Hy|Hno].
  - intros y. destruct (decide (y = x)); tauto.
  - destruct (other_simplicial l x Hnd Hm Hy) as (s & Hs & Hsx & Hsi).
    apply elem_of_list_split in Hs as (l1 & l2 & ->).
    assert (l1 ++ l2 `sublist_of` l1 ++ s :: l2) as Hsub by (apply sublist_app; [done|by apply sublist_cons]).
    destruct (IH (l1 ++ l2) x) as (k & Hk & Hkm & Hh).
    + rewrite app_length in *. simpl in Hn. lia.
    + rewrite <-Permutation_middle in Hnd. by apply NoDup_cons in Hnd as [_ ?].
    + by eapply moral_sub.
    + set_solver.
    + exists (k ++ [s]). split_and!.
      * rewrite Hk. rewrite <-app_assoc. by rewrite (Permutation_app_comm l2 [s]).
      * apply moral_snoc; [done| |].
        -- rewrite Hk. rewrite <-Permutation_middle in Hnd. by apply NoDup_cons in Hnd as [? _].
        -- intros a b Ha Hb. rewrite Hk in Ha, Hb. apply Hsi; by eapply sub_elem.
      * destruct k; [done|]. done.
  - exists l. split_and!; [done..|]. destruct l as [|y l]; [done|]. simpl. f_equal. specialize (Hno y ltac:(left)).
    destruct (decide (y = x)); [done|]. by destruct Hno.
Qed.
End chordal.

Lemma before_bf l a b : before l a b → bf l a b.
Proof.
  intros (l1 & l2 & l3 & ->). unfold bf. apply sublist_inserts_l, sublist_skip, sublist_inserts_l, sublist_skip, sublist_nil_l.
Qed.

(** a topological order *)
Lemma topo_exists d : acyclic d → ∃ l, NoDup l ∧ (∀ n, n ∈ l ↔ n ∈ gnodes d) ∧
  ∀ a b, a ∈ gnodes d → b ∈ gnodes d → edge d a b → bf l a b.
Proof.
  intros Hac. destruct (topological_ok (λ _ S, elements S) d (S (size (gnodes d))) None) as [_ H]; [by intros k S|simpl; lia| |].
  { intros a Ha. apply (Hac a). assert (∀ x y, tc (sub_edge d (default (gnodes d) None)) x y → tc (edge d) x y) as Hs; [|by apply Hs]. clear. induction 1 as [x y [H _]|x y z [H _] _ IH]; [by apply tc_once|by eapply tc_l]. }
  destruct (find_topological_order _ _ _ _) as [l|e|]; [|done..]. destruct H as (H1 & H2 & H3). exists l. split_and!; [done..|].
  intros a b Ha Hb He. by apply before_bf, H3.
Qed.

Section meek.
Context (d : graph) (g h : mgraph).
Context (Hwf : pd_wf g) (Hwh : pd_wf h) (Hd : wf_graph d) (Hp : pattern_of d g) (Heg : extends d g) (Heh : extends d h) (Ho : orientation_of g h).
Context (Hno : ∀ i x y, i ∈ [1;2;3] → uline h x y → ¬ rule_pattern i h x y).
Context (Hm : ∀ a b, darrow h a b ↔ meek g a b).

Lemma mk_N1 x y : uline h x y → ¬ r1_pattern h x y.
Proof. intros. apply (Hno 1); [set_solver|done]. Qed.
Lemma mk_N2 x y : uline h x y → ¬ r2_pattern h x y.
Proof. intros. apply (Hno 2); [set_solver|done]. Qed.
Lemma mk_N3 x y : uline h x y → ¬ r3_pattern h x y.
Proof. intros. apply (Hno 3); [set_solver|done]. Qed.
Lemma mk_adj a b : pd_adj g a b ↔ pd_adj h a b.
Proof. destruct (orientation_skeleton g h Hwf Ho) as [_ H]. apply H. Qed.
Lemma mk_dir_und a b : darrow h a b → ¬ uline h a b ∧ ¬ uline h b a.
Proof. intros H. split; intros Hu; [by apply (pdw_one _ Hwh) in Hu|]. apply (pdw_sym _ Hwh) in Hu. by apply (pdw_one _ Hwh) in Hu. Qed.

(** the first half: if a --> b --- c then a --- c is impossible, by induction on the orientation of a --> b *)
Lemma mk_step a b c : darrow h a b → uline h b c → (uline h a c → False) → darrow h a c.
Proof.
  intros Hab Hbc Hn. assert (pd_adj h a c) as Hac.
  { destruct (pd_adj_dec h a c) as [?|Hna]; [done|]. exfalso. apply (mk_N1 b c Hbc). by exists a. }
  destruct Hac as [Hu|[?|Hca]]; [by apply Hn in Hu|done|].
  exfalso. apply (mk_N2 c b); [by apply (pdw_sym _ Hwh)|]. by exists a.
Qed.

Lemma mk_no_triangle a b : meek g a b → ∀ c, uline h b c → uline h a c → False.
Proof.
  pose proof (ext_acyclic _ _ Heg) as Hac. induction 1 as [a b Hab|z a b Hza IH Hu Hzb Hn|a z b Haz _ Hzb IH Hu|a b w z Hu Hw Hz Hwb IHw Hzb IHz Hne Hn];
    intros c Hbc Hac'; pose proof (pdw_sym _ Hwh _ _ Hbc) as Hcb; pose proof (pdw_sym _ Hwh _ _ Hac') as Hca.
  - assert (darrow h a b) as Habh by by apply (or_dir _ _ Ho).
    destruct Hp as (_ & HD & _). apply HD in Hab as (x & Hv). pose proof Hv as (_ & _ & Hne & Hnax).
    rewrite (ext_skel _ _ Heh) in Hnax. destruct (ext_vstr _ _ Heh _ _ _ Hv) as [_ Hxb].
    assert (pd_adj h x c) as Hxc.
    { destruct (pd_adj_dec h x c) as [?|Hna]; [done|]. exfalso. apply (mk_N1 b c Hbc). by exists x. }
    destruct Hxc as [Hxc|[Hxc|Hxc]].
    + apply (mk_N3 c b Hcb). exists a, x. done.
    + apply (mk_N1 c a Hca). exists x. split; [done|]. intros ?. apply Hnax. by apply pd_adj_sym.
    + apply (mk_N2 c b Hcb). by exists x.
  - assert (darrow h z a) as Hzah by by apply Hm. assert (darrow h z c) as Hzc by (apply (mk_step z a c); eauto).
    apply (mk_N1 c b Hcb). exists z. split; [done|]. by rewrite <-mk_adj.
  - assert (darrow h z b) as Hzbh by by apply Hm. assert (darrow h z c) as Hzc by (apply (mk_step z b c); eauto).
    apply (mk_N2 a c Hac'). exists z. split; [by apply Hm|done].
  - assert (darrow h w b) as Hwbh by by apply Hm. assert (darrow h w c) as Hwc by (apply (mk_step w b c); eauto).
    assert (darrow h z b) as Hzbh by by apply Hm. assert (darrow h z c) as Hzc by (apply (mk_step z b c); eauto).
    assert (¬ pd_adj h w z) as Hnh by by rewrite <-mk_adj.
    destruct (orientation_cases _ _ _ _ Ho Hw) as [Hw'|[Hw'|Hw']].
    + destruct (orientation_cases _ _ _ _ Ho Hz) as [Hz'|[Hz'|Hz']].
      * apply (mk_N3 a c Hac'). by exists w, z.
      * apply (mk_N1 a w); [by apply (pdw_sym _ Hwh)|]. exists z. split; [done|]. intros ?. apply Hnh. by apply pd_adj_sym.
      * apply (mk_N2 a c Hac'). by exists z.
    + destruct (orientation_cases _ _ _ _ Ho Hz) as [Hz'|[Hz'|Hz']].
      * apply (mk_N1 a z); [by apply (pdw_sym _ Hwh)|]. by exists w.
      * destruct (ext_vstr _ _ Heg w a z) as [H _].
        { split_and!; [by apply (ext_dir _ _ Heh)..|done|]. by rewrite (ext_skel _ _ Heg). }
        by apply (pdw_one _ Hwf) in Hw.
      * apply (mk_N2 a c Hac'). by exists z.
    + apply (mk_N2 a c Hac'). by exists w.
Qed.

(** a --> b --- c implies a --> c *)
Lemma mk_chain a b c : darrow h a b → uline h b c → darrow h a c.
Proof. intros Hab Hbc. eapply mk_step; [done..|]. apply (mk_no_triangle a b); [by apply Hm|done]. Qed.

(** ** the undirected part, oriented along a moral order *)
Context (l : list node) (Hnd : NoDup l) (Hin : ∀ n, n ∈ l ↔ n ∈ gnodes d) (Hmor : moral (uline h) l).

Local Instance darrow_decision x y : Decision (darrow h x y) := decide (x ∈ mset h y Directed).
Local Instance uline_decision x y : Decision (uline h x y) := decide (x ∈ mset h y Tail).
Definition oriented : graph := {| gnodes := gnodes d; gadj := λ b, filter (λ a, darrow h a b ∨ (uline h a b ∧ bf l a b)) (gnodes d) |}.
Lemma oriented_edge a b : edge oriented a b ↔ darrow h a b ∨ (uline h a b ∧ bf l a b).
Proof.
  unfold edge. simpl. rewrite elem_of_filter. split; [tauto|]. intros H. split; [done|]. rewrite (ext_nodes _ _ Heh).
  destruct H as [H|[H _]]; [by apply (pdw_dir _ Hwh) in H as [? _]|by apply (pdw_und _ Hwh) in H as [? _]].
Qed.

Lemma dir_und_path a b c : tc (darrow h) a b → rtc (uline h) b c → tc (darrow h) a c.
Proof.
  intros H1 H2. revert H1. induction H2 as [|b b' c Hb _ IH]; [done|]. intros H1. apply IH. clear IH.
  induction H1 as [a b H|a k b H _ IH].
  - by apply tc_once, (mk_chain a b).
  - eapply tc_l; [done|]. by apply IH.
Qed.
Lemma dir_acyclic a : ¬ tc (darrow h) a a.
Proof.
  intros H. apply (ext_acyclic _ _ Heh a). assert (∀ x y, tc (darrow h) x y → tc (edge d) x y) as Hs; [|by apply Hs].
  induction 1 as [x y Hxy|x y z Hxy _ IH]; [by apply tc_once, (ext_dir _ _ Heh)|]. eapply tc_l; [by apply (ext_dir _ _ Heh)|done].
Qed.
Lemma und_in a b : uline h a b → a ∈ l ∧ b ∈ l.
Proof. intros (? & ? & _)%(pdw_und _ Hwh). rewrite !Hin, (ext_nodes _ _ Heh). done. Qed.

Lemma oriented_path a b : tc (edge oriented) a b → (bf l a b ∧ rtc (uline h) a b) ∨ ∃ c, rtc (uline h) a c ∧ tc (darrow h) c b.
Proof.
  intros H. induction H as [a b H|a c b H _ IH].
  - apply oriented_edge in H as [H|[Hu Hb]]; [right; exists a; split; [done|by apply tc_once]|left; split; [done|by apply rtc_once]].
  - apply oriented_edge in H as [H|[Hu Hb]].
    + right. exists a. split; [done|]. destruct IH as [[_ Hr]|(k & Hk & Hkb)].
      * eapply dir_und_path; [by apply tc_once|done].
      * eapply tc_rtc_r; [|by apply tc_rtc]. eapply dir_und_path; [by apply tc_once|done].
    + destruct IH as [[Hbf Hr]|(k & Hk & Hkb)].
      * left. split; [by eapply bf_trans|by eapply rtc_l].
      * right. exists k. split; [by eapply rtc_l|done].
Qed.

Lemma oriented_acyclic : acyclic oriented.
Proof.
  intros a Ha. apply oriented_path in Ha as [[H _]|(c & Hc & Ht)]; [by apply bf_irr in H|].
  apply (dir_acyclic c). by eapply dir_und_path.
Qed.

Lemma oriented_adj a b : adjacent oriented a b ↔ adjacent d a b.
Proof.
  rewrite (ext_skel _ _ Heh). unfold adjacent. rewrite !oriented_edge. split.
  - intros [[?|[? _]]|[?|[? _]]]; unfold pd_adj; [tauto..|]. left. by apply (pdw_sym _ Hwh).
  - intros [Hu|[?|?]]; [|tauto..]. destruct (und_in _ _ Hu) as [Ha Hb]. pose proof (pdw_und _ Hwh _ _ Hu) as (_ & _ & Hne).
    destruct (bf_total l a b Ha Hb Hne); [tauto|]. right. right. split; [by apply (pdw_sym _ Hwh)|done].
Qed.

Lemma oriented_extends : extends oriented h.
Proof.
  split.
  - exact oriented_acyclic.
  - apply (ext_nodes _ _ Heh).
  - intros a b. rewrite oriented_adj. apply (ext_skel _ _ Heh).
  - intros a b H. apply oriented_edge. by left.
  - intros a c b (Hac & Hbc & Hne & Hn). rewrite oriented_adj, (ext_skel _ _ Heh) in Hn.
    apply oriented_edge in Hac as [Hac|[Hac Bac]]; apply oriented_edge in Hbc as [Hbc|[Hbc Bbc]].
    + done.
    + exfalso. apply Hn. right. left. apply (mk_chain a c b); [done|by apply (pdw_sym _ Hwh)].
    + exfalso. apply Hn. right. right. apply (mk_chain b c a); [done|by apply (pdw_sym _ Hwh)].
    + exfalso. apply Hn. left. by apply (Hmor a b c).
Qed.
End meek.

(** every undirected edge of the result occurs in either direction *)
Lemma essential d g h : pd_wf g → pd_wf h → wf_graph d → pattern_of d g → extends d g → extends d h → orientation_of g h →
  (∀ i x y, i ∈ [1;2;3] → uline h x y → ¬ rule_pattern i h x y) → (∀ a b, darrow h a b ↔ meek g a b) →
  ∀ x y, uline h x y → ∃ e, extends e h ∧ edge e x y.
Proof.
  intros Hwf Hwh Hd Hp Heg Heh Ho Hno Hm x y Hxy. pose proof (ext_acyclic _ _ Heh) as Hac.
  destruct (topo_exists d Hac) as (l & Hnd & Hin & Hl).
  assert (∀ a b, uline h a b → a ∈ gnodes d ∧ b ∈ gnodes d) as Hun.
  { intros a b (? & ? & _)%(pdw_und _ Hwh). by rewrite (ext_nodes _ _ Heh). }
  assert (∀ a b, uline h a b → bf l a b → edge d a b) as Hbe.
  { intros a b Hu Hb. destruct (extends_uline _ _ _ _ Heh Hu) as [?|He]; [done|]. exfalso.
    apply (bf_irr l a Hnd). eapply bf_trans; [done|exact Hb|]. apply Hl; [by apply (Hun a b)..|done]. }
  assert (moral (uline h) l) as Hmor.
  { intros a b c Hac' Hbc' Hne Ha Hb. destruct (uline_dec h a b) as [?|Hn]; [done|]. exfalso.
    assert (∀ a b, uline h a c → uline h b c → ¬ darrow h a b) as Hnd'.
    { intros a' b' H1 H2 H3. pose proof (mk_chain d g h Hwf Hwh Hd Hp Heg Heh Ho Hno Hm a' b' c H3 H2) as H.
      by apply (mk_dir_und h Hwh) in H as [? _]. }
    destruct (ext_vstr _ _ Heh a c b) as [H _].
    - split_and!; [by apply Hbe..|done|]. rewrite (ext_skel _ _ Heh). intros [?|[?|?]]; [done|by apply (Hnd' a b)|by apply (Hnd' b a)].
    - by apply (mk_dir_und h Hwh) in H as [? _]. }
  destruct (rooted (uline h) (pdw_sym _ Hwh) (uline_dec h) (length l) l x) as (l' & Hl' & Hmor' & Hhd); [done..|apply Hin; by apply (Hun x y)|].
  assert (NoDup l') as Hnd' by by rewrite Hl'. assert (∀ n, n ∈ l' ↔ n ∈ gnodes d) as Hin' by (intros n; by rewrite Hl').
  exists (oriented d h l'). split; [exact (oriented_extends d g h Hwf Hwh Hd Hp Heg Heh Ho Hno Hm l' Hnd' Hin' Hmor')|].
  rewrite oriented_edge by done. right. split; [done|]. destruct l' as [|x' l']; simplify_eq/=. apply bf_cons. right. split; [done|].
  assert (y ∈ x :: l') as Hy by (apply Hin'; by apply (Hun x y)). apply elem_of_cons in Hy as [->|?]; [|done].
  by apply (pdw_und _ Hwh) in Hxy as (_ & _ & ?).
Qed.
