(** Undirected reachability in PDAGs, regions of PAGs. *)
From Verif Require Import Base BaseLemmas ModelGraph ModelMixed ModelPAG ModelReach Spec SpecMixed SpecPAG SpecReach Paths ProofMixed ProofMixed2 ProofPAG ProofPAG2 ProofPAGV ProofPAGW.

Lemma last_in_set (P : nset) (l : list nat) : (∃ x, x ∈ l ∧ x ∈ P) →
  ∃ l1 c l2, l = l1 ++ c :: l2 ∧ c ∈ P ∧ ∀ v, v ∈ l2 → v ∉ P.
Proof.
  induction l as [|x l IH]; intros (y & Hy & HP); [set_solver|].
  destruct (decide (Exists (λ z, z ∈ P) l)) as [He|He].
  - rewrite Exists_exists in He. destruct (IH He) as (l1 & c & l2 & -> & ? & ?). by exists (x :: l1), c, l2.
  - assert (∀ v, v ∈ l → v ∉ P) as Hn by (intros v Hv HvP; apply He, Exists_exists; eauto).
    exists [], x, l. split_and!; [done| |done]. apply elem_of_cons in Hy as [->|Hy]; [done|]. by destruct (Hn y Hy).
Qed.

Section hdfs.
  Context (o : order) (Ho : iter_ok o) (k : nat) (R : node → node → Prop) (nb : node → nset) (Hnb : ∀ s v, v ∈ nb s ↔ R s v).
  Context (hit : node → bool).

  Fixpoint hdfs (fuel : nat) (s : node) (en : nset) : res bool :=
    match fuel with
    | 0 => Diverges
    | S fuel =>
      if hit s then Ok true else
      (fix loop (l : list node) (past : nset) : res bool :=
         match l with
         | [] => Ok false
         | n :: l =>
           let past := past ∪ {[n]} in
           b ← hdfs fuel n (en ∖ past);
           if (b : bool) then Ok true else loop l past
         end) (o k (nb s ∩ en)) {[s]}
    end.

  Definition hreach (en : nset) (s : node) : Prop := ∃ u, rtc (λ a b, R a b ∧ b ∈ en) s u ∧ hit u = true.
  Lemma hreach_mono en en' s : en ⊆ en' → hreach en s → hreach en' s.
  Proof.
    intros H (u & Hr & Hu). exists u. split; [|done]. clear Hu. induction Hr as [|a b c [? ?] ? IH]; [constructor|].
    eapply rtc_l; [|done]. split; [done|]. by apply H.
  Qed.

  Lemma hdfs_ok fuel : ∀ s en, size en < fuel → returns (hdfs fuel s en) (λ b, b = true ↔ hreach en s).
  Proof.
    induction fuel as [|fuel IH]; intros s en Hf; [lia|]. cbn [hdfs].
    destruct (hit s) eqn:Hs.
    { simpl. split; [|done]. intros _. exists s. by split; [constructor|]. }
    match goal with |- returns (?f _ _) _ => set (loop := f) end.
    set (ch := nb s ∩ en) in *.
    assert (∀ l past, (∀ c, c ∈ l → c ∈ ch) →
      returns (loop l past) (λ b, b = true ↔ ∃ l1 c l2, l = l1 ++ c :: l2 ∧ hreach (en ∖ past ∖ list_to_set l1 ∖ {[c]}) c)) as Hloop.
    { induction l as [|c l IHl]; intros past Hl; subst loop; cbn beta iota.
      { simpl. split; [done|]. intros ([] & ? & ? & ? & _); done. }
      assert (c ∈ ch) as Hc by (apply Hl; set_solver +). assert (c ∈ en) as Hce by (unfold ch in Hc; set_solver +Hc).
      eapply returns_bind; [apply IH|].
      { enough (size (en ∖ (past ∪ {[c]})) < size en) by lia. apply subset_size. set_solver +Hce. }
      intros b Hb. cbn beta in Hb. destruct b.
      { simpl. split; [|done]. intros _. exists [], c, l. split; [done|]. eapply hreach_mono; [|by apply Hb]. set_solver +. }
      eapply returns_mono; [apply IHl; set_solver +Hl|]. cbn beta. intros b' Hb'. rewrite Hb'. split.
      - intros (l1 & c' & l2 & -> & Hr). exists (c :: l1), c', l2. split; [done|].
        eapply hreach_mono; [|exact Hr]. simpl. set_solver +.
      - intros (l1 & c' & l2 & E & Hr). destruct l1 as [|c1 l1]; simplify_eq/=.
        + assert (false = true); [|done]. apply Hb. eapply hreach_mono; [|exact Hr]. set_solver +.
        + exists l1, c', l2. split; [done|]. eapply hreach_mono; [|exact Hr]. set_solver +. }
    eapply returns_mono; [apply Hloop; intros c; by rewrite iter_elem|]. cbn beta.
    intros b Hb. rewrite Hb. split.
    - intros (l1 & c & l2 & E & Hr). assert (c ∈ ch) as Hc. { rewrite <-(iter_elem o k ch c Ho), E. set_solver +. }
      apply (hreach_mono _ en) in Hr as (u & Hr & Hu); [|set_solver +]. exists u. split; [|done].
      eapply rtc_l; [|done]. unfold ch in Hc. apply elem_of_intersection in Hc as [? ?]. split; [by apply Hnb|done].
    - intros (u & Hr & Hu). apply rtc_path in Hr as (p & Hh & Hl & Hnd & Hlk).
      destruct p as [|s0 p]; [done|]. simpl in Hh. injection Hh as ->.
      destruct p as [|c0 p]; [simpl in Hl; congruence|]. set (q := c0 :: p) in *.
      assert (c0 ∈ ch) as Hc0. { apply linked_cons in Hlk as [[? ?] _]. apply elem_of_intersection. split; [by apply Hnb|done]. }
      destruct (last_in_set ch q) as (l1 & c & l2 & Eq & Hc & Hl2). { exists c0. split; [set_solver +|done]. }
      assert (c ∈ o k ch) as Hin by (by rewrite iter_elem). apply elem_of_list_split in Hin as (k1 & k2 & Ek).
      exists k1, c, k2. split; [done|]. exists u. split; [|done].
      assert (last (c :: l2) = Some u) as Hlast.
      { rewrite <-Hl. change (s :: q) with ([s] ++ q). rewrite Eq. rewrite app_assoc. by rewrite last_app_cons. }
      eapply walk_rtc; [|exact Hlast|]; [done|].
      intros m1 a v m2 E. destruct (Hlk (s :: l1 ++ m1) a v m2) as [? Hv].
      { change (s :: q) with ([s] ++ q). rewrite Eq, E. simpl. by rewrite <-app_assoc. }
      split; [done|]. assert (v ∈ l2) as Hv2 by (destruct m1; simplify_eq/=; set_solver +).
      assert (v ∉ ch) as Hvch by by apply Hl2.
      assert (v ≠ s). { intros ->. apply NoDup_cons in Hnd as [Hs' _]. apply Hs'. rewrite Eq. set_solver +Hv2. }
      assert (v ∉ (list_to_set k1 : nset)).
      { rewrite elem_of_list_to_set. intros Hk. apply Hvch. rewrite <-(iter_elem o k ch v Ho), Ek. set_solver +Hk. }
      assert (v ≠ c) by congruence. set_solver.
  Qed.
End hdfs.

Lemma und_walk_step g en s c t : uline g s c → c ∈ en → und_walk g en c t → und_walk g en s t.
Proof.
  intros H Hc (p & Hp & Hin). exists (c :: p). split; [|set_solver]. simpl. apply linked_cons. split; [done|]. exact Hp.
Qed.
Lemma und_walk_rtc g en s t :
  und_walk g en s t ↔ ∃ u, rtc (λ a b, uline g a b ∧ b ∈ en) s u ∧ uline g u t.
Proof.
  split.
  - intros (p & Hp & Hin). revert s Hp. induction p as [|c p IH]; intros s Hp.
    { exists s. split; [constructor|]. by apply (Hp [] s t []). }
    simpl in Hp. apply linked_cons in Hp as [H1 H2].
    destruct (IH ltac:(intros v Hv; apply Hin; set_solver +Hv) c H2) as (u & Hr & Hu). exists u. split; [|done].
    eapply rtc_l; [|done]. split; [done|]. apply Hin. set_solver +.
  - intros (u & Hr & Hu). induction Hr as [s|s c u [H1 H2] _ IH].
    + exists []. split; [|set_solver +]. simpl. intros l1 a b l2 E. destruct l1 as [|? [|? [|? ?]]]; simplify_eq/=; done.
    + eapply und_walk_step; eauto.
Qed.

Section pdag.
  Context (o : order) (Ho : iter_ok o) (g : mgraph) (Hwf : pd_wf g).

  Lemma und_nb s v : v ∈ und g s ↔ uline g s v.
  Proof. unfold und. split; intros H; by apply (pdw_sym _ Hwf). Qed.

  Lemma reachable_undirected_ok fuel s t en : size en < fuel →
    returns (is_reachable_undirected o fuel g s t en) (λ b, b = true ↔ und_walk g en s t).
  Proof.
    intros Hf.
    assert (is_reachable_undirected o fuel g s t en = hdfs o 108 (und g) (λ s, bool_decide (t ∈ und g s)) fuel s en) as ->.
    { clear Hf. revert s en. induction fuel as [|fuel IH]; intros s en; [done|]. cbn [is_reachable_undirected hdfs].
      case_bool_decide; [by rewrite decide_True by done|]. rewrite decide_False by done.
      generalize (o 108 (und g s ∩ en)) as l, ({[s]} : nset) as past.
      induction l as [|c l IHl]; intros past; [done|]. rewrite IH.
      destruct (hdfs _ _ _ _ _ _ _) as [[]|e|]; [done| |done..]. cbn [mbind res_bind]. apply IHl. }
    eapply returns_mono; [apply hdfs_ok with (R := uline g); [done|apply und_nb|done]|].
    cbn beta. intros b ->. rewrite und_walk_rtc. unfold hreach. f_equiv. intros u. rewrite bool_decide_eq_true, und_nb. done.
  Qed.

  Lemma reachable_any_undirected_ok fuel s (T : nset) en : size en < fuel →
    returns (is_reachable_any_undirected o fuel g s T en) (λ b, b = true ↔ ∃ t, t ∈ T ∧ und_walk g en s t).
  Proof.
    intros Hf. set (hit := λ s, existsb (λ n, bool_decide (n ∈ T)) (o 128 (und g s))).
    assert (is_reachable_any_undirected o fuel g s T en = hdfs o 134 (und g) hit fuel s en) as ->.
    { clear Hf. revert s en. induction fuel as [|fuel IH]; intros s en; [done|]. cbn [is_reachable_any_undirected hdfs].
      unfold hit at 1. destruct (existsb _ _); [done|].
      generalize (o 134 (und g s ∩ en)) as l, ({[s]} : nset) as past.
      induction l as [|c l IHl]; intros past; [done|]. rewrite IH.
      destruct (hdfs _ _ _ _ _ _ _) as [[]|e|]; [done| |done..]. cbn [mbind res_bind]. apply IHl. }
    eapply returns_mono; [apply hdfs_ok with (R := uline g); [done|apply und_nb|done]|].
    cbn beta. intros b ->. unfold hreach. split.
    - intros (u & Hr & Hu). unfold hit in Hu. apply existsb_exists in Hu as (t & Ht & HT). apply elem_of_list_In in Ht.
      rewrite iter_elem in Ht by done. apply bool_decide_eq_true in HT. exists t. split; [done|].
      apply und_walk_rtc. exists u. split; [done|]. by apply und_nb.
    - intros (t & HT & (u & Hr & Hu)%und_walk_rtc). exists u. split; [done|]. unfold hit. apply existsb_exists. exists t.
      split; [apply elem_of_list_In; rewrite iter_elem by done; by apply und_nb|]. by apply bool_decide_eq_true.
  Qed.

  Lemma pd_children_ok p pot c : c ∈ pd_children o g p pot ↔ c ∈ pot ∧ darrow g p c.
  Proof.
    unfold pd_children. rewrite <-(iter_elem o 40 pot c Ho).
    enough (∀ l (S : nset), c ∈ foldl (λ S n, if decide (p ∈ mset g n Directed) then S ∪ {[n]} else S) S l ↔ c ∈ S ∨ (c ∈ l ∧ darrow g p c)) as H.
    { rewrite H. set_solver +. }
    induction l as [|n l IH]; intros S; simpl; [set_solver +|]. rewrite IH. case_decide as Hd.
    - rewrite elem_of_union, elem_of_singleton, elem_of_cons. split; [|tauto]. intros [[?| ->]|[? ?]]; auto.
    - rewrite elem_of_cons. split; [tauto|]. intros [?|[[->|?] ?]]; [auto| |auto]. by destruct Hd.
  Qed.

  Lemma fan_in_ok n : counts (λ v, darrow g v n ∨ uline g v n) (fan_in g n).
  Proof.
    exists (elements (pd_parents g n ∪ und g n)). split; [apply NoDup_elements|]. split.
    - change (length (elements (pd_parents g n ∪ und g n))) with (size (pd_parents g n ∪ und g n)).
      rewrite size_union; [done|]. intros v H1 H2. by apply (pdw_one _ Hwf v n).
    - intros v. rewrite elem_of_elements, elem_of_union. done.
  Qed.
  Lemma sink_query_ok s en : is_sink o g s en = true ↔ ∀ v, v ∈ default (mnodes g) en → ¬ darrow g s v.
  Proof.
    unfold is_sink. rewrite forallb_forall. split.
    - intros H v Hv Hd. specialize (H v). rewrite negb_true_iff, bool_decide_eq_false in H.
      apply H; [|done]. apply elem_of_list_In. by rewrite iter_elem.
    - intros H v Hv. apply elem_of_list_In in Hv. rewrite iter_elem in Hv by done. apply negb_true_iff, bool_decide_eq_false. by apply H.
  Qed.
End pdag.

Lemma pag_fan_in_ok g n : mg_wf g → counts (λ v, has_mark g v Directed n ∨ has_mark g v Circle n) (pag_fan_in g n).
Proof.
  intros Hwf. exists (elements (mset g n Directed ∪ mset g n Circle)). split; [apply NoDup_elements|]. split.
  - change (length (elements ?X)) with (size X).
    rewrite size_union; [done|]. intros v H1 H2. by pose proof (mgw_one _ Hwf v _ _ n H1 H2).
  - intros v. rewrite elem_of_elements, elem_of_union. done.
Qed.

Section region.
  Context (o : order) (Ho : iter_ok o) (g : mgraph) (Hwf : mg_wf g) (vis : gset (node * node)).

  (** the component computed for one node does not depend on whether the dc-components are passed *)
  Lemma pc_component_dc fuel x en : let V := default (mnodes g) en in size V + 1 < fuel →
    ∃ S, find_pc_component o fuel g vis x en None = Ok S ∧
      ∀ l, components (bidir_edge g) V l → ∃ S', find_pc_component o fuel g vis x (Some V) (Some l) = Ok S' ∧ ∀ w, w ∈ S' ↔ w ∈ S.
  Proof.
    intros V Hf. pose proof (pc_component_ok o Ho g Hwf vis fuel x en None Hf I) as H1. fold V in H1.
    destruct (find_pc_component o fuel g vis x en None) as [S| |]; [|done..]. exists S. split; [done|]. intros l Hl.
    pose proof (pc_component_ok o Ho g Hwf vis fuel x (Some V) (Some l) Hf Hl) as H2. cbn zeta in H2. change (default (mnodes g) (Some V)) with V in H2.
    destruct (find_pc_component o fuel g vis x (Some V) (Some l)) as [S'| |]; [|done..]. exists S'. split; [done|].
    simpl in H1, H2. intros w. by rewrite H1, H2.
  Qed.

  Definition in_pc (fuel : nat) (en : option nset) (X : list node) (w : node) : Prop :=
    ∃ x S, x ∈ X ∧ find_pc_component o fuel g vis x en None = Ok S ∧ w ∈ S.

  Lemma pc_set_ok fuel X en : size (default (mnodes g) en) + 1 < fuel →
    returns (find_pc_component_set o fuel g vis X en) (λ S, ∀ w, w ∈ S ↔ in_pc fuel en X w).
  Proof.
    intros Hf. unfold find_pc_component_set. set (V := default (mnodes g) en) in *.
    eapply returns_bind; [apply (pag_components o g fuel (Some V) (Some Directed) Ho Hwf Hf)|]. intros l Hl.
    eapply (for_returns_pre _ _ _ (λ pre S, ∀ w, w ∈ S ↔ in_pc fuel en pre w)).
    - intros w. split; [set_solver +|]. intros (x & _ & Hx & _). set_solver +Hx.
    - intros pre x post S EX HS. destruct (pc_component_dc fuel x en Hf) as (P & HP & Hdc).
      destruct (Hdc l Hl) as (P' & HP' & Heq). fold V in HP'. rewrite HP'. cbn. intros w.
      rewrite elem_of_union, HS, Heq. split.
      + intros [(y & Y & Hy & HY & Hw)|Hw]; [exists y, Y; split; [|done]; set_solver +Hy|].
        exists x, P. split; [set_solver +|]. split; [exact HP|exact Hw].
      + intros (y & Y & Hy & HY & Hw). apply elem_of_app in Hy as [Hy|Hy].
        * left. by exists y, Y.
        * apply elem_of_list_singleton in Hy as ->. right. rewrite HP in HY. by injection HY as <-.
  Qed.

  Lemma elem_foldl_bucket l V xs v : components (circ_edge g) V l →
    ∀ S, v ∈ foldl (λ S n, match List.find (λ B, bool_decide (n ∈ B)) l with Some B => S ∪ B | None => S end) S xs ↔
      v ∈ S ∨ ∃ n, n ∈ xs ∧ same_component (circ_edge g) V n v.
  Proof.
    intros (H1 & _ & _ & H4). induction xs as [|n xs IH]; intros S; simpl.
    { split; [auto|]. intros [?|(? & Hx & _)]; [done|set_solver +Hx]. }
    rewrite IH. destruct (List.find _ l) as [B|] eqn:E.
    - apply List.find_some in E as [HB Hn]. apply elem_of_list_In in HB. apply bool_decide_eq_true in Hn.
      rewrite elem_of_union, (H4 B n HB Hn). split.
      + intros [[?|?]|(z & ? & ?)]; [by left|right; exists n; split; [set_solver +|done]|right; exists z; split; [by apply elem_of_cons; right|done]].
      + intros [?|(z & Hz & ?)]; [auto|]. apply elem_of_cons in Hz as [->|?]; [auto|right; eauto].
    - split.
      + intros [?|(z & ? & ?)]; [auto|]. right. exists z. split; [by apply elem_of_cons; right|done].
      + intros [?|(z & Hz & Hsc)]; [auto|]. apply elem_of_cons in Hz as [->|?]; [|right; eauto].
        exfalso. destruct Hsc as (Hn & _). apply H1 in Hn as (C & HC & HnC).
        apply elem_of_list_In in HC. pose proof (List.find_none _ _ E C HC) as Hf. cbn beta in Hf. by rewrite bool_decide_eq_false in Hf.
  Qed.

  Lemma region_ok fuel A en : let V := default (mnodes g) en in size V + 1 < fuel →
    returns (find_region o fuel g vis A en) (λ S, ∀ v, v ∈ S ↔ ∃ w, in_pc fuel en A w ∧ same_component (circ_edge g) V w v).
  Proof.
    intros V Hf. unfold find_region. eapply returns_bind; [by apply pc_set_ok|]. intros P HP. cbn beta in HP.
    eapply returns_bind; [apply (pag_components o g fuel en (Some Circle) Ho Hwf Hf)|]. intros bs Hbs. cbn [returns]. intros v.
    fold V in Hbs. rewrite (elem_foldl_bucket bs V _ v Hbs). split.
    - intros [H|(n & Hn & ?)]; [set_solver +H|]. rewrite iter_elem in Hn by done. exists n. split; [by apply HP|done].
    - intros (w & ? & ?). right. exists w. split; [|done]. rewrite iter_elem by done. by apply HP.
  Qed.

  (** ** without visible edges the documented sets are returned *)
  Lemma pc_linked_child V x z : pc_linked g vis V x z → ∃ y, pc_neighbour g vis V x y ∧ has_mark g x Directed y.
  Proof. intros (y & ? & ? & _). by exists y. Qed.

  Lemma pc_member_ok fuel x en S : let V := default (mnodes g) en in size V + 1 < fuel → vis_uniform g vis V →
    find_pc_component o fuel g vis x en None = Ok S → ∀ w, w ∈ S ↔ pc_member g vis V x w.
  Proof.
    intros V Hf Hu E. pose proof (pc_component_ok o Ho g Hwf vis fuel x en None Hf I) as H. fold V in H. rewrite E in H.
    cbn [returns] in H. intros w. rewrite H. unfold pc_member.
    set (ch := filter _ (filter _ (find_adj PAG_T g x (Some V) None))).
    assert (∀ n, n ∈ ch ↔ pc_neighbour g vis V x n ∧ has_mark g x Directed n) as Hch.
    { intros n. unfold ch, pc_neighbour. rewrite !elem_of_filter, elem_find_adj_pag. tauto. }
    assert (∀ z, pc_linked g vis V x z → has_mark g w Directed z →
      ((∃ y, last (o 639 ch) = Some y ∧ (w, y) ∉ vis) ↔ (w, z) ∉ vis)) as Hz.
    { intros z Hl Hm. split.
      - intros (y & Hy & Hv) Hvz. apply Hv. apply last_Some in Hy as [l Hy].
        assert (y ∈ ch) as Hy'. { rewrite <-(iter_elem o 639 ch y Ho), Hy. set_solver +. } apply Hch in Hy' as [? ?]. by eapply (Hu x y z w).
      - intros Hv. destruct (last (o 639 ch)) as [y|] eqn:Hy.
        + exists y. split; [done|]. intros Hvy. apply Hv. apply last_Some in Hy as [l Hy].
          assert (y ∈ ch) as Hy'. { rewrite <-(iter_elem o 639 ch y Ho), Hy. set_solver +. } apply Hch in Hy' as [? ?]. by eapply (Hu x y z w).
        + exfalso. apply last_None in Hy. destruct Hl as (y & ? & ? & _). assert (y ∈ o 639 ch) as Hin.
          { rewrite iter_elem by done. by apply Hch. } rewrite Hy in Hin. set_solver +Hin. }
    clear H E. split.
    - intros [?|[?|[?|(? & z & ? & ? & ? & ?)]]]; [auto..|]. right; right; right. split; [done|]. exists z. split_and!; try done. by apply Hz.
    - intros [?|[?|[?|(? & z & ? & ? & ? & ?)]]]; [auto..|]. right; right; right. split; [done|]. exists z. split_and!; try done. by apply (Hz z).
  Qed.

  Lemma in_pc_member fuel en A w : let V := default (mnodes g) en in size V + 1 < fuel → vis_uniform g vis V →
    in_pc fuel en A w ↔ ∃ x, x ∈ A ∧ pc_member g vis V x w.
  Proof.
    intros V Hf Hu. split.
    - intros (x & S & ? & E & ?). exists x. split; [done|]. by eapply (pc_member_ok fuel x en S).
    - intros (x & ? & ?). destruct (pc_component_dc fuel x en Hf) as (S & E & _). exists x, S. split_and!; [done..|].
      by eapply (pc_member_ok fuel x en S).
  Qed.
  Lemma pc_set_exact fuel A en : let V := default (mnodes g) en in size V + 1 < fuel → vis_uniform g vis V →
    returns (find_pc_component_set o fuel g vis A en) (λ S, ∀ w, w ∈ S ↔ ∃ x, x ∈ A ∧ pc_member g vis V x w).
  Proof.
    intros V Hf Hu. eapply returns_mono; [by apply pc_set_ok|]. intros S HS w. cbn beta in HS. rewrite HS. by apply in_pc_member.
  Qed.
  Lemma region_exact fuel A en : let V := default (mnodes g) en in size V + 1 < fuel → vis_uniform g vis V →
    returns (find_region o fuel g vis A en) (λ S, ∀ v, v ∈ S ↔ region_member g vis V A v).
  Proof.
    intros V Hf Hu. eapply returns_mono; [by apply region_ok|]. intros S HS v. cbn beta in HS. rewrite HS. split.
    - intros (w & H & ?). apply in_pc_member in H as (x & ? & ?); [|done..]. by exists x, w.
    - intros (x & w & ? & ? & ?). exists w. split; [|done]. apply in_pc_member; [done..|]. by exists x.
  Qed.
End region.

(** ** the visibility of the wrong edge: a node outside the region is returned *)
Lemma w32_region : ∃ S, find_region ord_up 20 (mk_mg (seq 0 6) w32) {[(3, 2)]} [0] None = Ok S ∧ 3 ∈ S ∧
  ¬ region_member (mk_mg (seq 0 6) w32) {[(3, 2)]} (mnodes (mk_mg (seq 0 6) w32)) [0] 3.
Proof.
  assert (match find_region ord_up 20 (mk_mg (seq 0 6) w32) {[(3, 2)]} [0] None with Ok R => bool_decide (3 ∈ R) | _ => false end = true) as Hp by by vm_compute.
  destruct (find_region ord_up 20 _ _ _ _) as [R| |]; [|done..]. apply bool_decide_eq_true in Hp. exists R. split; [done|]. split; [done|].
  intros (x & w & Hx & Hw & _ & _ & Hr). apply elem_of_list_singleton in Hx as ->.
  assert (∀ a b, rtc (λ u v, circ_edge (mk_mg (seq 0 6) w32) u v ∧ v ∈ mnodes (mk_mg (seq 0 6) w32)) a b → a = b) as Heq.
  { intros a b H. induction H as [|a c b [[H1 H2] _] _ _]; [done|]. exfalso. apply mk_mg_mark in H1, H2. unfold w32, pag_ in H1, H2. set_solver +H1 H2. }
  apply Heq in Hr as ->. by apply w32_not_member.
Qed.
