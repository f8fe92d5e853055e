(** The number of CI queries of PC. *)
From Verif Require Import Base BaseLemmas ModelGraph Spec Paths ProofGraph ProofGraph2 ProofGraph3 ProofDsep ModelMixed SpecMixed ModelPC SpecPC ProofPDAG ProofPDAG2 ProofPDAG3 ProofMixed ProofMixed2 ProofPC SpecPCCount.

(** ** combinations *)
Lemma combs_length {A} (l : list A) : ∀ k, length (combs k l) = choose (length l) k.
Proof. induction l as [|x l IH]; intros [|k]; try done. cbn [combs choose length]. by rewrite app_length, fmap_length, !IH. Qed.
Lemma choose_mono n m k : n ≤ m → choose n k ≤ choose m k.
Proof.
  intros H. induction H as [|m H IH]; [done|]. etransitivity; [exact IH|]. destruct k as [|k]; [by destruct m|]. cbn [choose]. lia.
Qed.
Lemma uniq_go_length l : ∀ seen, length (uniq_go seen l) ≤ length l.
Proof. induction l as [|e l IH]; intros seen; cbn; [done|]. case_decide; cbn; [specialize (IH seen)|specialize (IH (e :: seen))]; lia. Qed.
Lemma uniq_nodup l : NoDup (uniq l).
Proof.
  unfold uniq. assert (∀ seen, NoDup (uniq_go seen l)) as H; [|apply H].
  induction l as [|e l IH]; intros seen; cbn; [constructor|]. case_decide; [apply IH|]. constructor; [|apply IH]. rewrite elem_uniq_go. set_solver +.
Qed.
Lemma comb2_length {A} (l : list A) : 2 * length (comb2 l) = length l * (length l - 1).
Proof.
  induction l as [|x l IH]; [done|]. cbn [comb2 length]. rewrite app_length, fmap_length. destruct l as [|y l]; [done|]. cbn [length] in *. nia.
Qed.
Lemma comb2_nodup {A} (l : list A) : NoDup l → NoDup (comb2 l) ∧ ∀ x y, (x, y) ∈ comb2 l → (y, x) ∉ comb2 l.
Proof.
  induction 1 as [|x l Hx Hnd [IH1 IH2]]; cbn [comb2]; [split; [constructor|intros ?? ?%elem_of_nil; done]|]. split.
  - apply NoDup_app. split; [by apply NoDup_fmap_2; [intros ?? [=]|]|]. split; [|done]. intros [a b] (c & [= -> ->] & Hc)%elem_of_list_fmap [? _]%comb2_elem. done.
  - intros a b [(c & [= -> ->] & Hc)%elem_of_list_fmap|H1]%elem_of_app [(c' & [= -> ->] & Hc')%elem_of_list_fmap|H2]%elem_of_app.
    + done.
    + apply comb2_elem in H2 as [_ ?]. done.
    + apply comb2_elem in H1 as [_ ?]. done.
    + by apply (IH2 a b).
Qed.
(** two sublists of consistently ordered lists with the same elements are equal *)
Lemma ranked_eq (rank : nat → nat) (c c' : list nat) : (∀ l1 x l2 y l3, c = l1 ++ x :: l2 ++ y :: l3 → rank x < rank y) → (∀ l1 x l2 y l3, c' = l1 ++ x :: l2 ++ y :: l3 → rank x < rank y) →
  (∀ z, z ∈ c ↔ z ∈ c') → c = c'.
Proof.
  revert c'. induction c as [|x c IH]; intros c' H1 H2 Heq.
  - destruct c' as [|y c']; [done|]. exfalso. assert (y ∈ []) as ?%elem_of_nil by (apply Heq; left). done.
  - destruct c' as [|y c']; [exfalso; assert (x ∈ []) as ?%elem_of_nil by (apply Heq; left); done|].
    assert (∀ z, z ∈ c → rank x < rank z) as H1'. { intros z (l2 & l3 & ->)%elem_of_list_split. by apply (H1 [] x l2 z l3). }
    assert (∀ z, z ∈ c' → rank y < rank z) as H2'. { intros z (l2 & l3 & ->)%elem_of_list_split. by apply (H2 [] y l2 z l3). }
    assert (x = y) as ->.
    { destruct (proj1 (elem_of_cons c' x y)) as [?|Hx]; [apply Heq; left|done|]. destruct (proj1 (elem_of_cons c y x)) as [?|Hy]; [apply Heq; left|done|]. apply H2' in Hx. apply H1' in Hy. lia. }
    f_equal. apply IH.
    + intros l1 u l2 v l3 ->. by apply (H1 (y :: l1) u l2 v l3).
    + intros l1 u l2 v l3 ->. by apply (H2 (y :: l1) u l2 v l3).
    + intros z. specialize (Heq z). rewrite !elem_of_cons in Heq. split; intros Hz.
      * destruct (proj1 Heq (or_intror Hz)) as [->|?]; [|done]. apply H1' in Hz. lia.
      * destruct (proj2 Heq (or_intror Hz)) as [->|?]; [|done]. apply H2' in Hz. lia.
Qed.
Lemma sublist_two {A} (c l l1 l2 l3 : list A) x y : c `sublist_of` l → c = l1 ++ x :: l2 ++ y :: l3 → ∃ l1 l2 l3, l = l1 ++ x :: l2 ++ y :: l3.
Proof.
  intros H ->. apply sublist_app_l in H as (k1 & k2 & -> & _ & H). apply sublist_cons_l in H as (k3 & k4 & -> & H).
  apply sublist_app_l in H as (k5 & k6 & -> & _ & H). apply sublist_cons_l in H as (k7 & k8 & -> & H).
  exists (k1 ++ k3), (k5 ++ k7), k8. by rewrite <-!app_assoc.
Qed.

(** ** one pair *)
Definition cands (o : order) (k : nat) (G : mgraph) (i j : node) : list (list node) :=
  uniq (combs k (o 52 (und G i ∖ {[j]})) ++ combs k (o 53 (und G j ∖ {[i]}))).
Section pair.
  Context (o : order) (ci : citest) (ow : bool) (V : nset) (src : mgraph).
  (** the queries about one pair are different candidates, and only the last may be answered independent *)
  Definition new_log (i j : node) (U : list (list node)) (log log' : clog) : Prop :=
    ∃ new, log' = new ++ log ∧ (∀ q, q ∈ new → q.1.1 = (i, j) ∧ q.1.2 ∈ U) ∧ NoDup (snd <$> new.*1) ∧
      ∀ l1 c l2, new = l1 ++ (i, j, c, true) :: l2 → l1 = [].
  Lemma pc_pair_log k i j s s' : pc_pair o ci ow src k (i, j) s = Ok s' →
    ∃ U, new_log i j U (pc_log s) (pc_log s') ∧ (U = [] ∧ pc_log s' = pc_log s ∨ m_is_connected PDAG_T (if ow then pc_graph s else src) i j = Ok true ∧ U = cands o k (if ow then pc_graph s else src) i j).
  Proof.
    unfold pc_pair. set (G := if ow then pc_graph s else src). destruct (m_is_connected PDAG_T G i j) as [b| |] eqn:EG; [|done..]. cbn [mbind res_bind].
    destruct b; cbn [negb].
    2: { intros [= <-]. exists []. split; [|by left]. exists []. split_and!; [done|set_solver +|constructor|]. by intros [|??] ?? [=]. }
    intros E. exists (cands o k G i j). split; [|by right]. fold (cands o k G i j) in E.
    assert (returns (for_brk (cands o k G i j) (pc_try ci i j) s) (λ s', new_log i j (cands o k G i j) (pc_log s) (pc_log s'))) as H; [|by rewrite E in H].
    apply (for_brk_returns _ _ _ (λ pre s', ∃ new, pc_log s' = new ++ pc_log s ∧ (∀ q, q ∈ new → q.1.1 = (i, j) ∧ q.1.2 ∈ pre ∧ q.2 = false) ∧ NoDup (snd <$> new.*1))).
    - exists []. split_and!; [done|set_solver +|constructor].
    - intros pre c post s1 Hl (new & El & Hnew & Hnd).
      assert (c ∉ pre ∧ (∀ c', c' ∈ pre → c' ∈ cands o k G i j) ∧ c ∈ cands o k G i j) as (Hc & Hpre & Hcc).
      { pose proof (uniq_nodup (combs k (o 52 (und G i ∖ {[j]})) ++ combs k (o 53 (und G j ∖ {[i]})))) as Hu. fold (cands o k G i j) in Hu. rewrite Hl in *.
        apply NoDup_app in Hu as (_ & Hu & _). split; [intros H; apply (Hu c H); left|]. split; [intros c' ?; apply elem_of_app; by left|apply elem_of_app; right; left]. }
      assert (NoDup (c :: (snd <$> new.*1))) as Hnd'.
      { constructor; [|done]. intros (q & -> & (q' & -> & Hq)%elem_of_list_fmap)%elem_of_list_fmap. apply Hnew in Hq as (_ & ? & _). done. }
      unfold pc_try. rewrite El. destruct (ci (new ++ pc_log s) i j c) eqn:Eb; cbn.
      + exists ((i, j, c, true) :: new). split_and!; [done| |done|].
        * intros q [->|Hq]%elem_of_cons; [done|]. apply Hnew in Hq as (? & ? & _). split; [done|by apply Hpre].
        * intros l1 c' l2 E1. destruct l1 as [|q l1]; [done|]. injection E1 as <- E1. exfalso.
          assert ((i, j, c', true) ∈ new) as H by (rewrite E1; set_solver +). apply Hnew in H as (_ & _ & H). done.
      + exists ((i, j, c, false) :: new). split_and!; [done| |done].
        intros q [->|Hq]%elem_of_cons; [split_and!; [done|cbn; set_solver +|done]|]. apply Hnew in Hq as (? & ? & ?). split_and!; [done|set_solver|done].
    - intros s1 (new & E1 & Hnew & Hnd). exists new. split_and!; [done| |done|].
      + intros q Hq. apply Hnew in Hq as (? & ? & _). done.
      + intros l1 c l2 E2. exfalso. assert ((i, j, c, true) ∈ new) as H by (rewrite E2; set_solver +). apply Hnew in H as (_ & _ & H). done.
  Qed.
  Lemma cands_ok k G i j c : pd_wf G → mnodes G = V → c ∈ cands o k G i j → length c = k ∧ ∃ site P, c `sublist_of` o site P.
  Proof.
    intros HG HN Hc. unfold cands in Hc. apply elem_uniq, elem_of_app in Hc as [[H1 H2]%elem_of_combs|[H1 H2]%elem_of_combs]; eauto.
  Qed.
  Lemma cands_length k G i j : iter_ok o → pd_wf G → mnodes G = V → i ∈ V → j ∈ V → i ≠ j → length (cands o k G i j) ≤ 2 * choose (size V - 2) k.
  Proof.
    intros Ho HG HN Hi Hj Hij. unfold cands. etransitivity; [apply uniq_go_length|]. rewrite app_length, !combs_length, !iter_length by done.
    assert (∀ x y, x ∈ V → y ∈ V → x ≠ y → size (und G x ∖ {[y]}) ≤ size V - 2) as H.
    { intros x y Hx Hy Hxy. assert (und G x ∖ {[y]} ⊆ V ∖ {[x; y]}) as Hs.
      { intros z [Hz Hzy]%elem_of_difference. apply (pdw_und _ HG z x) in Hz as (HzV & _ & Hzx). rewrite HN in HzV. set_solver +HzV Hzx Hzy. }
      apply subseteq_size in Hs. rewrite (size_difference V) in Hs by set_solver +Hx Hy. assert (size ({[x; y]} : nset) = 2) as H2 by (rewrite size_union by set_solver +Hxy; by rewrite !size_singleton). rewrite H2 in Hs. done. }
    pose proof (choose_mono _ _ k (H i j Hi Hj Hij)). pose proof (choose_mono _ _ k (H j i Hj Hi (not_eq_sym Hij))). lia.
  Qed.
End pair.

(** ** all pairs *)
(** the queries so far: [k] is the level, [pre] the pairs of this level *)
Record cnt (m : nat) (ow : bool) (o : order) (V : nset) (k : nat) (pre : list (node * node)) (log : clog) : Prop := {
  cnt_nodup : NoDup log.*1;
  cnt_level : ∀ q, q ∈ log → length q.1.2 < k ∨ (length q.1.2 = k ∧ q.1.1 ∈ pre);
  cnt_sub : ∀ q, q ∈ log → q.1.1.1 ≠ q.1.1.2 ∧ (∃ site P, q.1.2 `sublist_of` o site P) ∧ (q.1.1 ∈ comb2 (o 46 V));
  cnt_old : ∀ k', k' < k → 2 * count_size k' log ≤ size V * (size V - 1) * (m * choose (size V - 2) k');
  cnt_now : count_size k log ≤ length pre * (m * choose (size V - 2) k);
  cnt_stop : ow = true → ∀ l1 i j c l2, log = l1 ++ (i, j, c, true) :: l2 → ∀ q, q ∈ l1 → ¬ is_pair q.1.1.1 q.1.1.2 i j;
}.
Lemma count_app k l l' : count_size k (l ++ l') = count_size k l + count_size k l'.
Proof. unfold count_size. by rewrite filter_app, app_length. Qed.
Lemma count_none k l : (∀ q, q ∈ l → length q.1.2 ≠ k) → count_size k l = 0.
Proof.
  intros H. unfold count_size. destruct (filter _ l) as [|q l'] eqn:E; [done|]. assert (q ∈ q :: l') as Hq by left. rewrite <-E in Hq. apply elem_of_list_filter in Hq as [Hq ?]. exfalso. by apply (H q).
Qed.
Lemma nodup_length_le {A} (l k : list A) : NoDup l → (∀ x, x ∈ l → x ∈ k) → length l ≤ length k.
Proof. intros H1 H2. apply submseteq_length. by apply NoDup_submseteq. Qed.

Section levels.
  Context (o : order) (Ho : iter_ok o) (ci : citest) (ow : bool) (V : nset) (src : mgraph).
  Context (Hsn : mnodes src = V) (Hsw : pd_wf src) (Hsd : ∀ a b, ¬ darrow src a b).
  Context (m : nat) (Hm : ∀ k G i j, pd_wf G → mnodes G = V → i ∈ V → j ∈ V → i ≠ j → length (cands o k G i j) ≤ m * choose (size V - 2) k).
  Lemma cnt_pair k pre i j post s s' : sk_inv ci V s → comb2 (o 46 V) = pre ++ (i, j) :: post → cnt m ow o V k pre (pc_log s) → pc_pair o ci ow src k (i, j) s = Ok s' →
    cnt m ow o V k (pre ++ [(i, j)]) (pc_log s').
  Proof.
    intros Hs Hl [C1 C2 C3 C4 C5 C6] E. apply (pc_pair_log o ci ow src) in E as (U & (new & El & Hnew & Hnd & Hlast) & HU). rewrite El in *.
    assert ((i, j) ∈ comb2 (o 46 V)) as Hij by (rewrite Hl; set_solver +).
    pose proof Hij as (Hi & Hj & Hne)%comb2_iter; [|done].
    assert ((i, j) ∉ pre) as Hpre.
    { pose proof (proj1 (comb2_nodup _ (iter_nodup o 46 V Ho))) as Hn. rewrite Hl in Hn. apply NoDup_app in Hn as (_ & Hn & _). intros H. apply (Hn _ H). left. }
    set (G := if ow then pc_graph s else src) in *. assert (pd_wf G ∧ mnodes G = V) as [HG HN] by (unfold G; destruct ow; [split; apply Hs|done]).
    assert (∀ c, c ∈ U → length c = k ∧ ∃ site P, c `sublist_of` o site P) as HUc.
    { destruct HU as [[-> _]|[_ ->]]; [by intros c ?%elem_of_nil|]. intros c. by apply (cands_ok o V _ G). }
    assert (length U ≤ m * choose (size V - 2) k) as HUl by (destruct HU as [[-> _]|[_ ->]]; [cbn; lia|by apply Hm]).
    assert (∀ a b c, (a, b, c, true) ∈ pc_log s → ow = true → is_pair i j a b → ∀ q : query * bool, q.1.2 ∈ U → False) as Hold.
    { intros a b c Hin How Hp q Hq. apply (sk_true _ _ _ Hs) in Hin. destruct HU as [[-> _]|[EG _]]; [by apply elem_of_nil in Hq|].
      unfold G in EG. rewrite How in EG. pose proof (m_is_connected_pd (pc_graph s) i j) as Hc. rewrite EG in Hc. cbn [returns] in Hc.
      assert (pd_adj (pc_graph s) i j) as Ha by (apply Hc; [apply Hs|done|done]).
      destruct Ha as [Ha|[Ha|Ha]]; [|by apply (sk_dir _ _ _ Hs) in Ha..]. apply Hin. destruct Hp as [[-> ->]|[-> ->]]; [done|]. by apply (pdw_sym _ (sk_wf _ _ _ Hs)). }
    split.
    - rewrite fmap_app. apply NoDup_app. split; [by apply (NoDup_fmap_1 snd)|]. split; [|done].
      intros q (q1 & -> & H1)%elem_of_list_fmap (q2 & E & H2)%elem_of_list_fmap. apply Hnew in H1 as [Ep Hc]. apply HUc in Hc as [Hc _]. apply C2 in H2. rewrite <-E in H2. rewrite Ep in H2. destruct H2 as [?|[_ ?]]; [lia|done].
    - intros q [[Ep Hc]%Hnew|Hq]%elem_of_app; [right; rewrite Ep; split; [by apply HUc|set_solver +]|]. apply C2 in Hq as [?|[? ?]]; [by left|right]. split; [done|set_solver].
    - intros q [[Ep Hc]%Hnew|Hq]%elem_of_app; [|by apply C3]. rewrite Ep. split_and!; [done|by apply HUc|done].
    - intros k' Hk. rewrite count_app, (count_none k' new), Nat.add_0_l; [by apply C4|]. intros q [_ Hc]%Hnew. apply HUc in Hc as [Hc _]. lia.
    - rewrite count_app, app_length. cbn [length]. assert (count_size k new ≤ length U); [|nia]. unfold count_size. etransitivity; [apply (sublist_length _ new), filter_sublist|].
      rewrite <-(fmap_length fst new), <-(fmap_length snd (new.*1)). apply nodup_length_le; [done|]. intros c (q & -> & (q' & -> & Hq)%elem_of_list_fmap)%elem_of_list_fmap. by apply Hnew.
    - intros How l1 a b c l2 E q Hq. apply app_eq_inv in E as [(l & En & E)|(l & -> & E)].
      + rewrite En in *. destruct l as [|q' l].
        * cbn in E. assert ((a, b, c, true) ∈ pc_log s) as Hin by (rewrite <-E; left). rewrite app_nil_r in *. destruct (Hnew q Hq) as [Ep HqU]. rewrite Ep. cbn. intros Hp.
          by apply (Hold a b c Hin How Hp q HqU).
        * injection E as <- ->. assert (l1 = []) as ->; [|by apply elem_of_nil in Hq].
          destruct (Hnew (a, b, c, true)) as [[= -> ->] _]; [set_solver +|]. by apply (Hlast l1 c l).
      + assert ((a, b, c, true) ∈ pc_log s) as Hin by (rewrite E; set_solver +). apply elem_of_app in Hq as [Hq|Hq]; [|by apply (C6 How l a b c l2 E)].
        destruct (Hnew q Hq) as [Ep HqU]. rewrite Ep. cbn. intros Hp. by apply (Hold a b c Hin How Hp q HqU).
  Qed.
  (** states at the start of a level *)
  Definition started (k : nat) (s : pc_state) : Prop := sk_inv ci V s ∧ (∀ k', k' < k → level_done s k' (λ _ _, True)) ∧ ∃ v, v ∈ V ∧ k < fan_in (pc_graph s) v.
  Lemma pc_levels_count fuel : ∀ k s s', sk_inv ci V s → (∀ a b, uline (pc_graph s) a b → uline src a b) → (∀ k', k' < k → level_done s k' (λ _ _, True)) → cnt m ow o V k [] (pc_log s) →
    pc_levels o ci ow fuel src k s = Ok s' → (∃ K, cnt m ow o V K [] (pc_log s')) ∧ ∀ q, q ∈ pc_log s' → q ∈ pc_log s ∨ ∃ s1, started (length q.1.2) s1.
  Proof.
    induction fuel as [|fuel IH]; intros k s s' Hs Hsub Hdone Hc E; [done|]. cbn [pc_levels] in E.
    destruct (exit_cond o (pc_graph s) k) eqn:Ex; [injection E as <-; split; [by exists k|auto]|].
    assert (started k s) as Hst.
    { split_and!; [done|done|]. apply not_true_iff_false in Ex. rewrite (exit_cond_spec o Ho) in Ex.
      assert (¬ Forall (λ n, fan_in (pc_graph s) n ≤ k) (elements (mnodes (pc_graph s)))) as HF.
      { intros HF. apply Ex. intros n Hn. rewrite Forall_forall in HF. apply HF. by apply elem_of_elements. }
      apply not_Forall_Exists in HF; [|apply _]. apply Exists_exists in HF as (n & Hn%elem_of_elements & Hf). exists n. rewrite (sk_nodes _ _ _ Hs) in Hn. split; [done|]. cbn in Hf. lia. }
    assert (mnodes (if ow then pc_graph s else src) = V) as HV by (destruct ow; [apply Hs|done]). rewrite HV in E.
    assert (returns (for_ (comb2 (o 46 V)) (pc_pair o ci ow src k) s) (λ s', sk_inv ci V s' ∧ sk_le s s' ∧
      level_done s' k (λ a b, (a, b) ∈ comb2 (o 46 V) ∨ (b, a) ∈ comb2 (o 46 V)) ∧ cnt m ow o V k (comb2 (o 46 V)) (pc_log s') ∧ ∀ q, q ∈ pc_log s' → q ∈ pc_log s ∨ length q.1.2 = k)) as H.
    { apply (for_returns_pre _ _ _ (λ pre s', sk_inv ci V s' ∧ sk_le s s' ∧
          level_done s' k (λ a b, (a, b) ∈ pre ∨ (b, a) ∈ pre) ∧ cnt m ow o V k pre (pc_log s') ∧ ∀ q, q ∈ pc_log s' → q ∈ pc_log s ∨ length q.1.2 = k)).
      - split_and!; [done|apply sk_le_refl| |done|auto]. intros a b S [H|H]; by apply elem_of_nil in H.
      - intros pre [i j] post s1 Hl (Hs1 & Hle & Hd & Hc1 & Hq1).
        assert ((i, j) ∈ comb2 (o 46 V)) as Hij by (rewrite Hl; set_solver +).
        apply comb2_iter in Hij as (Hi & Hj & Hne); [|done].
        assert (returns (pc_pair o ci ow src k (i, j) s1) (λ s', sk_inv ci V s' ∧ sk_le s1 s' ∧ level_done s' k (λ a b, is_pair a b i j))) as H.
        { apply (pc_pair_spec o Ho ci ow V src); try done. intros a b Hab. apply Hsub. by apply Hle. }
        apply returns_ok in H as (s2 & E2 & Hs2 & Hle2 & Hd2). rewrite E2. cbn [returns].
        pose proof (cnt_pair k pre i j post s1 s2 Hs1 Hl Hc1 E2) as Hc2.
        split_and!; [done|by eapply sk_le_trans| |done|].
        + intros a b S Hp Hu HS HSk.
          destruct (decide ((a = i ∧ b = j) ∨ (a = j ∧ b = i))) as [Hpair|Hpair]; [by apply Hd2|].
          eapply (level_done_mono s1 s2); [done|exact Hd| |done..].
          cbn beta. rewrite !elem_of_app, !elem_of_list_singleton in Hp.
          destruct Hp as [[?|?]|[?|?]]; try tauto; simplify_eq; tauto.
        + intros q Hq. apply (pc_pair_log o ci ow src) in E2 as (U & (new & E2 & Hnew & _) & HU). rewrite E2 in Hq. apply elem_of_app in Hq as [[_ Hq]%Hnew|Hq]; [right|by apply Hq1].
          destruct HU as [[-> _]|[_ ->]]; [by apply elem_of_nil in Hq|]. eapply (cands_ok o V) in Hq as [? _]; [done|destruct ow; [apply Hs1|done]..]. }
    destruct (for_ _ _ s) as [s1| |]; [|done..]. cbn [returns] in H. destruct H as (Hs1 & Hle & Hd & Hc1 & Hq1). cbn [mbind res_bind] in E.
    apply IH in E as [H1 H2]; [|done|intros a b Hab; by apply Hsub, Hle| |].
    - split; [done|]. intros q Hq. apply H2 in Hq as [Hq|?]; [|by right]. apply Hq1 in Hq as [?| ->]; [by left|right; by exists s].
    - intros k' Hk'. destruct (decide (k' = k)) as [->|].
      + intros a b S _ Hab. apply Hd; [|done].
        apply (pdw_und _ (sk_wf _ _ _ Hs1)) in Hab as (Ha & Hb & Hne). rewrite (sk_nodes _ _ _ Hs1) in *. by apply comb2_iter.
      + eapply level_done_mono; [exact Hle|]. apply Hdone. lia.
    - destruct Hc1 as [C1 C2 C3 C4 C5 C6]. split; [done| |done| | |done].
      + intros q Hq. left. apply C2 in Hq as [?|[? _]]; lia.
      + intros k' Hk'. destruct (decide (k' = k)) as [->|]; [|apply C4; lia]. 
        pose proof (comb2_length (o 46 V)) as Hl. rewrite !iter_length in Hl by done. rewrite <-Hl. rewrite <-Nat.mul_assoc. by apply Nat.mul_le_mono_l.
      + cbn. rewrite count_none; [done|]. intros q Hq. apply C2 in Hq as [?|[? _]]; lia.
  Qed.
End levels.

(** ** the whole run *)
Lemma pc_run o ci ow fuel V m : iter_ok o → size V * size V + 1 < fuel →
  (∀ k G i j, pd_wf G → mnodes G = V → i ∈ V → j ∈ V → i ≠ j → length (cands o k G i j) ≤ m * choose (size V - 2) k) →
  returns (pc_learn o ci ow fuel V) (λ s, (∃ K, cnt m ow o V K [] (pc_log s)) ∧ ∀ q, q ∈ pc_log s → ∃ s1, started ci V (length q.1.2) s1).
Proof.
  intros Ho Hf Hm. eapply returns_mono; [by apply pc_learn_result_of|]. cbn beta. intros s (s0 & E & g1 & _ & _ & _ & -> & _).
  pose proof (pc_init_inv o ci V Ho) as Hinit. pose proof (pd_copy_same (pc_graph (pc_init o V)) (sk_wf _ _ _ Hinit)) as [Hcn Hcs].
  unfold pc_skeleton in E. apply (pc_levels_count o Ho ci ow V _) with (m := m) in E as [H1 H2]; [|try done..].
  - split; [done|]. intros q Hq. apply H2 in Hq as [Hq|?]; [|done]. by apply elem_of_nil in Hq.
  - eapply pd_same_wf; [|exact (sk_wf _ _ _ Hinit)]. done.
  - intros a b H. apply Hcs in H. by apply (sk_dir _ _ _ Hinit) in H.
  - intros a b H. by apply Hcs.
  - lia.
  - split; cbn; [constructor|set_solver +|set_solver +|lia|unfold count_size; cbn; lia|]. intros _ [|??] ???? [=].
Qed.
Lemma count_all m ow o V K log : cnt m ow o V K [] log → ∀ k, 2 * count_size k log ≤ size V * (size V - 1) * (m * choose (size V - 2) k).
Proof.
  intros [C1 C2 C3 C4 C5 C6] k. destruct (decide (k < K)) as [|Hk]; [by apply C4|]. rewrite count_none; [lia|]. intros q Hq. apply C2 in Hq as [?|[_ Hq]]; [lia|]. by apply elem_of_nil in Hq.
Qed.

(** ** sets traversed consistently *)
Section consistent.
  Context (o : order) (Ho : iter_ok o) (rank : nat → nat) (Hr : ∀ k S l1 x l2 y l3, o k S = l1 ++ x :: l2 ++ y :: l3 → rank x < rank y).
  Lemma ranked_sub c site P : c `sublist_of` o site P → ∀ l1 x l2 y l3, c = l1 ++ x :: l2 ++ y :: l3 → rank x < rank y.
  Proof. intros Hc l1 x l2 y l3 E. destruct (sublist_two c _ l1 l2 l3 x y Hc E) as (k1 & k2 & k3 & E'). by apply (Hr _ _ _ _ _ _ _ E'). Qed.
  Lemma ranked_cands k V G i j : pd_wf G → mnodes G = V → i ∈ V → j ∈ V → i ≠ j → length (cands o k G i j) ≤ 1 * choose (size V - 2) k.
  Proof.
    intros HG HN Hi Hj Hij. assert (size (V ∖ {[i; j]}) = size V - 2) as <-.
    { rewrite size_difference by set_solver +Hi Hj. assert (size ({[i; j]} : nset) = 2) as ->; [|done]. rewrite size_union by set_solver +Hij. by rewrite !size_singleton. }
    rewrite Nat.mul_1_l, <-(iter_length o 0) by done. rewrite <-combs_length. apply nodup_length_le; [apply uniq_nodup|]. intros c Hc.
    assert ((∀ z, z ∈ c → z ∈ V ∖ {[i; j]}) ∧ length c = k ∧ ∃ site P, c `sublist_of` o site P) as (H1 & H2 & site & P & H3).
    { apply elem_uniq, elem_of_app in Hc as [Hc|Hc]; pose proof Hc as [H1 H2]%elem_of_combs; (split; [|by eauto]);
        apply (combs_elem o) in Hc as (_ & _ & Hc); try done; intros z Hz; apply Hc, elem_of_difference in Hz as [Hz Hn]; apply (pdw_und _ HG) in Hz as (Hz1 & _ & Hz2); rewrite HN in Hz1; clear -Hz1 Hz2 Hn; set_solver. }
    apply elem_of_combs. assert (c = filter (.∈ c) (o 0 (V ∖ {[i; j]}))) as Ec; [|split; [rewrite Ec; apply filter_sublist|done]].
    apply (ranked_eq rank); [by apply (ranked_sub c site P)|apply (ranked_sub _ 0 (V ∖ {[i; j]})), filter_sublist|].
    intros z. rewrite elem_of_list_filter, iter_elem by done. split; [|tauto]. intros Hz. split; [done|by apply H1].
  Qed.
  Lemma ranked_questions V m ow K log : cnt m ow o V K [] log → NoDup (question <$> log.*1).
  Proof.
    intros [C1 C2 C3 _ _ _]. assert (∀ q, q ∈ log.*1 → (∃ site P, q.2 `sublist_of` o site P) ∧ q.1 ∈ comb2 (o 46 V)) as H.
    { intros q (q' & -> & Hq)%elem_of_list_fmap. by apply C3 in Hq as (_ & ? & ?). }
    clear C2 C3. induction C1 as [|q l Hq Hnd IH]; cbn; [constructor|]. constructor; [|apply IH; intros q' ?; apply H; by right].
    intros (q' & E & Hq')%elem_of_list_fmap. destruct (H q) as [(s1 & P1 & S1) H1]; [left|]. destruct (H q') as [(s2 & P2 & S2) H2]; [by right|].
    assert (q = q') as ->; [|done]. destruct q as [[x y] c], q' as [[x' y'] c']. apply pair_equal_spec in E as [E1 E2]. cbn [fst snd] in *.
    assert (c = c') as ->.
    { apply (ranked_eq rank); [by apply (ranked_sub _ s1 P1)|by apply (ranked_sub _ s2 P2)|]. intros z. rewrite <-!(elem_of_list_to_set (C := nset)). by rewrite E2. }
    pose proof (comb2_iter o 46 V x y Ho) as [Hxy _]. destruct (Hxy H1) as (_ & _ & Hne).
    assert ((x = x' ∧ y = y') ∨ (x = y' ∧ y = x')) as [[-> ->]|[-> ->]]; [|done|].
    { assert (x ∈ ({[x'; y']} : nset)) as Hx by (rewrite <-E1; set_solver +). assert (y ∈ ({[x'; y']} : nset)) as Hy by (rewrite <-E1; set_solver +). set_solver +Hx Hy Hne. }
    exfalso. exact (proj2 (comb2_nodup _ (iter_nodup o 46 V Ho)) _ _ H1 H2).
  Qed.
End consistent.

(** ** with a test that answers according to d-separation *)
Definition answers (d : graph) (ci : citest) : Prop :=
  ∀ log i j c, (∀ i' j' c' b', (i', j', c', b') ∈ (i, j, c, true) :: log →
      i' ∈ gnodes d ∧ j' ∈ gnodes d ∧ i' ≠ j' ∧ NoDup c' ∧ ∀ z, z ∈ c' → z ∈ gnodes d ∧ z ≠ i' ∧ z ≠ j') →
    ci log i j c = true ↔ d_separated d i j c.
Lemma dsep_answers o fuel d : iter_ok o → wf_graph d → acyclic d → size (gnodes d) < fuel → answers d (dsep_ci o fuel d).
Proof.
  intros Ho Hwf Hac Hf log i j c H. destruct (H i j c true) as (Hi & Hj & Hne & _ & Hz); [left|]. unfold dsep_ci.
  assert (returns (dsep o fuel d i j c) (λ b, b = true ↔ d_separated d i j c)) as Hd.
  { apply dsep_spec; try done; [intros z ?%Hz; tauto|]. intros Hj'. apply Hz in Hj'. tauto. }
  apply returns_ok in Hd as (b' & -> & Hd). done.
Qed.
Section sizes.
  Context (d : graph) (Hwf : wf_graph d) (Hac : acyclic d) (ci : citest) (Hci : answers d ci).
  Lemma perfect_tested s x y S b : sk_inv ci (gnodes d) s → tested (pc_log s) x y S b → (b = true ↔ d_separated d x y (elements S)).
  Proof.
    intros Hs (c & Hc & H).
    assert (∀ z, z ∈ c ↔ z ∈ elements S) as Hc' by (intros z; by rewrite elem_of_elements).
    assert (∀ i j, (i, j, c, b) ∈ pc_log s → b = true ↔ d_separated d i j c) as Hlog.
    { intros i j Hin. apply elem_of_list_split in Hin as (l1 & l2 & El). rewrite (sk_honest _ _ _ Hs _ _ _ _ _ _ El). apply Hci.
      pose proof (sk_log _ _ _ Hs) as HL. rewrite El in HL. intros i' j' c' b' [E|Hin]%elem_of_cons; [injection E as -> -> -> _; apply (HL i j c b); set_solver +|].
      apply (HL i' j' c' b'). set_solver +Hin. }
    rewrite <-(d_separated_set d x y c (elements S)) by done.
    destruct H as [H|H]; apply Hlog in H; rewrite H; [done|]. split; apply d_separated_sym.
  Qed.
  (** after the levels below K the skeleton is right if every node has fewer than K parents *)
  Lemma perfect_skeleton s K : sk_inv ci (gnodes d) s → (∀ k, k < K → level_done s k (λ _ _, True)) → (∀ v, v ∈ gnodes d → size (gadj d v) < K) →
    ∀ a b, uline (pc_graph s) a b ↔ adjacent d a b.
  Proof.
    intros Hs Hd HK.
    assert (∀ a b, adjacent d a b → uline (pc_graph s) a b) as H1.
    { intros a b Hab. destruct (uline_dec (pc_graph s) a b) as [|Hn]; [done|exfalso].
      assert (a ∈ gnodes d ∧ b ∈ gnodes d) as [Ha Hb] by (destruct Hab as [H|H]; apply Hwf in H; tauto).
      pose proof (adj_ne d a b Hac Hab) as Hne.
      destruct (sk_rem _ _ _ Hs a b) as (S & _ & Ht); [done..|].
      pose proof (proj1 (perfect_tested s a b S true Hs Ht) eq_refl) as Hsep. by apply adjacent_not_dsep in Hsep. }
    intros a b. split; [|apply H1]. intros Hab.
    destruct (edge_dec d a b) as [|Hn1]; [by left|]. destruct (edge_dec d b a) as [|Hn2]; [by right|]. exfalso.
    pose proof (pdw_und _ (sk_wf _ _ _ Hs) _ _ Hab) as (_ & _ & Hne).
    assert (∀ u v, uline (pc_graph s) u v → ¬ adjacent d u v → ¬ d_separated d u v (elements (gadj d u))) as H2.
    { intros u v Huv Hna Hsep. assert (tested (pc_log s) u v (gadj d u) false) as Ht.
      { eapply (Hd (size (gadj d u))); [|done|done| |done].
        - apply HK. apply (pdw_und _ (sk_wf _ _ _ Hs)) in Huv as (? & _). by rewrite (sk_nodes _ _ _ Hs) in *.
        - intros z Hz. split; [apply H1; by left|]. intros ->. apply Hna. by right. }
      apply (perfect_tested s u v _ _ Hs) in Ht. apply Ht in Hsep. done. }
    destruct (nonadjacent_separated d a b Hwf Hac Hne) as [H|H].
    - intros [?|?]; done.
    - apply (H2 a b); [done| |done]. intros [?|?]; done.
    - apply (H2 b a); [by apply (pdw_sym _ (sk_wf _ _ _ Hs))|intros [?|?]; done|]. by apply d_separated_sym.
  Qed.
  Lemma perfect_started k s : started ci (gnodes d) k s → ∃ v, v ∈ gnodes d ∧ (k ≤ size (gadj d v) ∨ k < size (neighbours d v)).
  Proof.
    intros (Hs & Hd & v & Hv & Hf).
    destruct (decide (Exists (λ u, k ≤ size (gadj d u)) (elements (gnodes d)))) as [(u & Hu%elem_of_elements & ?)%Exists_exists|Hn]; [exists u; auto|].
    exists v. split; [done|right]. rewrite (fan_in_und ci (gnodes d)) in Hf by done. eapply Nat.lt_le_trans; [exact Hf|]. apply subseteq_size. intros z Hz.
    apply (perfect_skeleton s k Hs Hd) in Hz as Ha.
    - unfold neighbours. destruct Ha as [Ha|Ha]; [apply elem_of_union_l; exact Ha|]. apply elem_of_union_r, elem_of_filter. split; [exact Ha|]. apply Hwf in Ha. tauto.
    - intros u Hu. destruct (decide (size (gadj d u) < k)) as [|Hk]; [done|]. exfalso. apply Hn, Exists_exists. exists u. split; [by apply elem_of_elements|lia].
  Qed.
  Lemma perfect_sizes o ow fuel : iter_ok o → size (gnodes d) * size (gnodes d) + 1 < fuel →
    returns (pc_learn o ci ow fuel (gnodes d)) (λ s, ∀ i j c b, (i, j, c, b) ∈ pc_log s →
      ∃ v, v ∈ gnodes d ∧ (length c ≤ size (gadj d v) ∨ length c < size (neighbours d v))).
  Proof.
    intros Ho Hf. eapply returns_mono; [apply (pc_run o ci ow fuel (gnodes d) 2 Ho Hf)|].
    - intros k G i j. by apply cands_length.
    - cbn beta. intros s [_ H] i j c b Hin. destruct (H _ Hin) as [s1 Hs]. by apply perfect_started in Hs.
  Qed.
End sizes.
