(** Proofs about LearnStructBRAI with separation sets and about sampling without scores. *)
From Coq Require Import QArith.
From Verif Require Import Base BaseLemmas ModelGraph Spec ModelMixed SpecMixed ModelPC SpecPC ModelRAI SpecRAI ModelFCI ModelPerf ModelSynth
  ModelBRAI SpecBRAI ModelBRAI2 SpecBRAI2
  ProofGraph ProofDsep ProofGraph2 ProofGraph3 ProofPDAG ProofPDAG2 ProofPDAG3 ProofMixed ProofMixed2 ProofPC ProofCount ProofRAI
  ProofFCI2 ProofSynth ProofBRAI.
Local Open Scope nat_scope.

Lemma sep_recorded_mono log log' W m : (∀ e, e ∈ log → e ∈ log') → sep_recorded log W m → sep_recorded log' W m.
Proof.
  intros Hl H a b Ha Hb Hne. destruct (H a b Ha Hb Hne) as (S & HS & Ht). exists S. split; [done|].
  destruct Ht as [?|Ht]; [by left|right]. by eapply tested_mono.
Qed.
Lemma sep_recorded_ext log W m m' : (∀ a b, a ∈ W → b ∈ W → a ≠ b → (m' : sepset) !! hkey a b = m !! hkey a b) →
  sep_recorded log W m → sep_recorded log W m'.
Proof. intros He H a b Ha Hb Hne. unfold sep_get. rewrite He by done. by apply H. Qed.
Lemma sep_recorded_dom log W m a b : sep_recorded log W m → a ∈ W → b ∈ W → a ≠ b → is_Some (m !! hkey a b).
Proof.
  intros H Ha Hb Hne. destruct (H a b Ha Hb Hne) as (S & HS & _). unfold sep_get in HS. destruct (m !! hkey a b); [by eexists|done].
Qed.
Lemma sep_recorded_sub log W W' m : W' ⊆ W → sep_recorded log W m → sep_recorded log W' m.
Proof. intros Hs H a b Ha Hb. apply H; auto. Qed.

Lemma ra_recorded ci V B s : ra_inv ci V B s → sep_recorded (pc_log s) V (pc_sep s).
Proof.
  intros Hs a b Ha Hb Hne. unfold sep_get. destruct (decide (pd_adj (pc_graph s) a b)) as [H|H].
  - rewrite (ra_kept _ _ _ _ Hs a b Ha Hb Hne H). exists ∅. auto.
  - destruct (ra_rem _ _ _ _ Hs a b Ha Hb Hne H) as (S & -> & Ht). eauto.
Qed.

(** two loops in step *)
Lemma for_sim {A A' S S'} (h : A → A') (R : S → S' → Prop) (f : A → S → res S) (f' : A' → S' → res S') l :
  (∀ x s s' r', x ∈ l → R s s' → f' (h x) s' = Ok r' → ∃ r, f x s = Ok r ∧ R r r') →
  ∀ s s' r', R s s' → for_ (List.map h l) f' s' = Ok r' → ∃ r, for_ l f s = Ok r ∧ R r r'.
Proof.
  induction l as [|x l IH]; intros Hf s s' r' HR Hr; cbn [List.map for_] in *.
  - simplify_eq. eauto.
  - destruct (f' (h x) s') as [s1'|e|] eqn:E; [|done..]. cbn [mbind res_bind] in Hr.
    destruct (Hf x s s' s1') as (s1 & -> & HR1); [left|done..|]. cbn [mbind res_bind].
    eapply IH; [|done..]. intros y t t' u Hy. apply Hf. by right.
Qed.

Section seps.
  Context (o : order) (Ho : iter_ok o).

  Lemma sep_copy_ok m W : (∀ a b, a ∈ W → b ∈ W → a ≠ b → is_Some (m !! hkey a b)) →
    returns (sep_copy o m W) (λ m', ∀ a b, a ∈ W → b ∈ W → a ≠ b → (m' : sepset) !! hkey a b = m !! hkey a b).
  Proof.
    intros Hd. unfold sep_copy. eapply returns_mono.
    - apply (for_returns_pre _ _ _ (λ pre (m' : sepset), ∀ a b, (a, b) ∈ pre ∨ (b, a) ∈ pre → m' !! hkey a b = m !! hkey a b)).
      + intros a b [H|H]; by apply elem_of_nil in H.
      + intros pre [i j] post m' E IH. assert ((i, j) ∈ comb2 (o 58 W)) as Hij by (rewrite E; set_solver +).
        apply comb2_iter in Hij as (Hi & Hj & Hne); [|done]. destruct (Hd i j Hi Hj Hne) as [x Hx].
        unfold sep_get. rewrite Hx. cbn [mbind res_bind returns]. intros a b Hab.
        destruct (decide (hkey i j = hkey a b)) as [Hk|Hk]; [by rewrite <-Hk, lookup_insert|]. rewrite lookup_insert_ne by done.
        apply IH. rewrite hkey_eq in Hk. rewrite !elem_of_app, !elem_of_list_singleton in Hab. unfold is_pair in Hk.
        destruct Hab as [[?|?]|[?|?]]; [by left| |by right|]; simplify_eq; destruct Hk; auto.
    - cbn beta. intros m' H a b Ha Hb Hne. apply H. by apply comb2_iter.
  Qed.

  (** copying recorded sets into recorded sets *)
  Lemma copy_from_recorded log V W m src : W ⊆ V → sep_recorded log V m → sep_recorded log W src →
    returns (sep_copy_from o m src W) (sep_recorded log V).
  Proof.
    intros HW Hm Hs. unfold sep_copy_from.
    apply (for_returns_pre _ _ _ (λ _, sep_recorded log V)); [done|].
    intros pre [i j] post m' E IH. assert ((i, j) ∈ comb2 (o 72 W)) as Hij by (rewrite E; set_solver +).
    apply comb2_iter in Hij as (Hi & Hj & Hne); [|done]. destruct (Hs i j Hi Hj Hne) as (S & HS & Ht).
    rewrite HS. cbn [mbind res_bind returns]. intros a b Ha Hb Hab. unfold sep_get.
    destruct (decide (hkey i j = hkey a b)) as [Hk|Hk]; [|rewrite lookup_insert_ne by done; by apply IH].
    rewrite Hk, lookup_insert. exists S. split; [done|]. destruct Ht as [?|(c & Hc & Ht)]; [by left|right].
    exists c. split; [done|]. apply hkey_eq in Hk as [[-> ->]|[-> ->]]; tauto.
  Qed.

  Lemma init_recorded log V : sep_recorded log V (sep_init o V).
  Proof. intros a b Ha Hb Hne. unfold sep_get. rewrite sep_init_spec by done. eauto. Qed.
  Lemma erase_recorded log log' V m : sep_recorded log V m → sep_recorded log' V (sep_erase m).
  Proof.
    intros H a b Ha Hb Hne. destruct (sep_recorded_dom _ _ _ _ _ H Ha Hb Hne) as [S HS].
    unfold sep_get, sep_erase. rewrite lookup_fmap, HS. simpl. eauto.
  Qed.
End seps.

(** ** the separation sets of a tree *)
Fixpoint tree_sep (log : clog) (V : nset) (fuel : nat) (t : sggt) : Prop :=
  match fuel with
  | 0 => False
  | S fuel =>
    match t with
    | SLeaf en ex _ sep _ => en ∪ ex ⊆ V ∧ sep_recorded log (en ∪ ex) sep
    | SNode en ex cs => en ∪ ex ⊆ V ∧ ∀ ts d, (ts, d) ∈ cs → Forall (tree_sep log V fuel) ts ∧ tree_sep log V fuel d
    end
  end.
Lemma tree_sep_mono log log' V fuel : (∀ e, e ∈ log → e ∈ log') → ∀ t, tree_sep log V fuel t → tree_sep log' V fuel t.
Proof.
  intros Hl. induction fuel as [|fuel IH]; intros t Ht; [done|]. cbn [tree_sep] in *. destruct t as [en ex g sep sc|en ex cs].
  - destruct Ht as [? Ht]. split; [done|]. by eapply sep_recorded_mono.
  - destruct Ht as [? Ht]. split; [done|]. intros ts d Hin. apply Ht in Hin as [H1 H2]. split; [|by apply IH].
    eapply Forall_impl; [exact H1|exact IH].
Qed.

Section learn.
  Context (o : order) (Ho : iter_ok o) (ci : citest) (ow : bool) (lf : nat) (V : nset).
  Context (Hlf : size V * size V + 1 < lf).

  Lemma grown_log B s e : grown ci V B s → e ∈ B → e ∈ pc_log s.
  Proof. intros (B' & Hs & HB) He. by apply (ra_base _ _ _ _ Hs), HB. Qed.

  Lemma make_leaf_s_spec bdeu en ex s B : ra_inv ci V B s → en ⊆ V → ex ⊆ V → en ## ex → ∀ fuel,
    returns (make_leaf_s o lf V true false bdeu en ex s) (λ t,
      tree_ok bdeu V (S fuel) (forget t) en ex ∧ tree_sep (pc_log s) V (S fuel) t).
  Proof.
    intros Hs Hen Hex Hd fuel. pose proof (make_leaf_spec o Ho ci lf V Hlf bdeu en ex s B Hs Hen Hex Hd fuel) as Hl.
    unfold make_leaf in Hl. unfold make_leaf_s. destruct (leaf_score o lf V true false bdeu en ex (pc_graph s)) as [r|e|]; [|done..].
    cbn [mbind res_bind] in *. assert (en ∪ ex ⊆ V) as Hx by set_solver +Hen Hex. pose proof (ra_recorded _ _ _ _ Hs) as Hr.
    eapply returns_bind.
    { apply sep_copy_ok; [done|]. intros a b Ha Hb Hne. eapply sep_recorded_dom; [exact Hr|auto..]. }
    cbn beta. intros m Hm. destruct r.2; [|done]. cbn [assert_ mbind res_bind returns] in *. split; [exact Hl|].
    cbn [tree_sep]. split; [done|]. eapply sep_recorded_ext; [exact Hm|]. by eapply sep_recorded_sub.
  Qed.

  Lemma brai_rec_s_spec bdeu K fuel : 0 < K → ∀ en ex k s B, size V < fuel + k → k ≤ size V → ra_inv ci V B s →
    en ⊆ V → ex ⊆ V → en ## ex →
    returns (brai_rec_s o ci ow lf V true false bdeu K fuel en ex k s) (λ r,
      tree_ok bdeu V fuel (forget r.1) en ex ∧ tree_sep (pc_log r.2) V fuel r.1 ∧ grown ci V (pc_log s) r.2).
  Proof.
    intros HK. induction fuel as [|fuel IH]; intros en ex k s B Hf Hk Hs Hen Hex Hd; [lia|]. cbn [brai_rec_s].
    destruct (rai_exit o (pc_graph s) en k) eqn:E.
    { eapply returns_bind; [by apply (make_leaf_s_spec bdeu en ex s B Hs Hen Hex Hd fuel)|]. cbn beta.
      intros t [Ht1 Ht2]. cbn [returns fst snd]. split_and!; [done..|]. exists (pc_log s). split; [by eapply ra_rebase|done]. }
    apply rai_exit_false in E as (n & Hn & Hkn); [|done]. pose proof (fan_in_bound ci V B s n Hs).
    eapply returns_bind.
    - apply (for_returns_pre _ _ ([], s) (λ pre '(cs, s'), length cs = length pre ∧ grown ci V (pc_log s) s' ∧
        ∀ ts d, (ts, d) ∈ cs → (Forall (tree_sep (pc_log s') V fuel) ts ∧ tree_sep (pc_log s') V fuel d) ∧ ∃ As D,
          D ⊆ en ∧ Forall2 (λ t A, tree_ok bdeu V fuel (forget t) A ex) ts As ∧ (∀ A, A ∈ As → A ⊆ en ∖ D) ∧ apart As ∧
          tree_ok bdeu V fuel (forget d) D (en ∖ D ∪ ex))).
      + split_and!; [done| |].
        * exists (pc_log s). split; [by eapply ra_rebase|done].
        * intros ts d Hin. by apply elem_of_nil in Hin.
      + intros pre x post [cs s1] _ (Hlen & Hg1 & Hcs). pose proof Hg1 as (B1 & Hs1 & HB1).
        eapply returns_bind; [apply (sep_copy_ok o Ho (pc_sep s) V), Hs|]. cbn beta. intros m Hm.
        pose proof (ra_restart_sep ci V s s1 m B B1 Hs Hs1 HB1 Hm) as Hr.
        eapply returns_bind; [by apply refine_and_orient_spec|]. cbn beta. intros s2 Hs2.
        assert (grown ci V (pc_log s1) s2) as Hg12 by (by exists (pc_log s1)).
        assert (grown ci V (pc_log s) s2) as Hg2 by by eapply grown_trans.
        eapply returns_bind; [apply (rai_split_apart o lf V _ en Ho Hlf); [done|set_solver +Hn]|]. cbn beta.
        intros [[d l] a] (Hde & -> & Hl & Hap).
        eapply returns_bind.
        * apply (for_returns_pre _ _ ([], s2) (λ pre '(ts, s'), grown ci V (pc_log s1) s' ∧ Forall (tree_sep (pc_log s') V fuel) ts ∧
            Forall2 (λ t A, tree_ok bdeu V fuel (forget t) A ex) ts pre)).
          -- by split_and!.
          -- intros pre' A post' [ts s3] El (Hg3 & Hts & Hta). pose proof Hg3 as (B3 & Hs3 & HB3).
             assert (A ⊆ en ∖ d) as HA by (apply Hl; rewrite El; set_solver +).
             eapply returns_bind; [apply (IH A ex (S k) s3 B3); [lia|lia|done|set_solver +HA Hen|done|set_solver +HA Hd]|].
             cbn beta. intros [t s4] (Ht & Ht' & Hg4). cbn [returns fst snd] in *. split_and!; [by eapply grown_trans|..].
             ++ apply Forall_app. split; [|by constructor]. eapply Forall_impl; [exact Hts|]. intros u. apply tree_sep_mono.
                intros e. by apply grown_log.
             ++ apply Forall2_app; [done|]. by constructor.
        * cbn beta. intros [ts s3] (Hg3 & Hts & Hta). pose proof Hg3 as (B3 & Hs3 & HB3).
          eapply returns_bind.
          { apply (IH d (en ∖ d ∪ ex) (S k) s3 B3); [lia|lia|done|set_solver +Hde Hen|set_solver +Hen Hex|set_solver +Hde Hd]. }
          cbn beta. intros [t s4] (Ht & Ht' & Hg4). cbn [returns fst snd] in *. assert (grown ci V (pc_log s1) s4) as Hg14 by by eapply grown_trans.
          split_and!.
          -- rewrite !app_length. simpl. lia.
          -- exact (grown_trans ci V _ _ _ Hg1 Hg14).
          -- intros ts' d' [Hin|Hin]%elem_of_app.
             ++ apply Hcs in Hin as [[I1 I2] I3]. split; [|done]. assert (∀ e, e ∈ pc_log s1 → e ∈ pc_log s4) as He by (intros e; by apply grown_log).
                split; [|by eapply tree_sep_mono]. eapply Forall_impl; [exact I1|]. intros u. by apply tree_sep_mono.
             ++ apply elem_of_list_singleton in Hin. simplify_eq. split; [split; [|done]|by exists l, d].
                eapply Forall_impl; [exact Hts|]. intros u. apply tree_sep_mono. intros e. by apply grown_log.
    - cbn beta. intros [cs s'] (Hlen & Hg & Hcs). cbn [returns fst snd]. split_and!; [| |done].
      + cbn [forget tree_ok]. split_and!; [done..| |].
        * rewrite seq_length in Hlen. intros Hm. apply map_eq_nil in Hm as ->. simpl in Hlen. lia.
        * intros ts d Hin. apply elem_of_list_fmap in Hin as ([ts' d'] & Heq & Hin). cbn [fst snd] in Heq. simplify_eq.
          apply Hcs in Hin as (_ & As & D & I1 & I2 & I3 & I4 & I5). exists As, D. split_and!; [done| |done..].
          by apply Forall2_fmap_l.
      + cbn [tree_sep]. split; [set_solver +Hen Hex|]. intros ts d Hin. apply Hcs in Hin. tauto.
  Qed.
End learn.

(** ** sampling *)
Section sample.
  Context (o : order) (Ho : iter_ok o) (V : nset) (pick : nat → list score → nat) (temp : Q) (log : clog).

  Lemma sample_rec_s_sim fuel : ∀ t p m n p' sc n', tree_sep log V fuel t → sep_recorded log V m →
    sample_rec o V pick fuel temp (forget t) p n = Ok (p', sc, n') →
    ∃ m', sample_rec_s o V pick fuel temp t p m n = Ok (p', m', sc, n') ∧ sep_recorded log V m'.
  Proof.
    induction fuel as [|fuel IH]; intros t p m n p' sc n' Ht Hm Hr; [done|]. cbn [tree_sep] in Ht.
    destruct t as [en ex g sep sc0|en ex cs]; destruct Ht as [Hx Ht]; cbn [forget sample_rec sample_rec_s] in *.
    - destruct (add_edges_from o p g (Some en) (Some ex)) as [q|e|]; [|done..]. cbn [mbind res_bind] in *. simplify_eq.
      pose proof (copy_from_recorded o Ho log V (en ∪ ex) m sep Hx Hm Ht) as Hc.
      destruct (sep_copy_from o m sep (en ∪ ex)) as [m'|e|]; [|done..]. cbn [mbind res_bind]. eauto.
    - match type of Hr with mbind _ ?m = _ => destruct m as [[res' n1]|e|] eqn:Er; [|done..] end. cbn [mbind res_bind] in Hr.
      set (drop := λ x : mgraph * sepset * score, (x.1.1, x.2)).
      eapply (for_sim (S := list (mgraph * sepset * score) * nat) _ (λ '(res, n) '(res', n'),
        n = n' ∧ res' = List.map drop res ∧ Forall (λ x, sep_recorded log V x.1.2) res)) in Er as ([res n2] & -> & -> & -> & Hres).
      3:{ split_and!; [done|done|constructor]. }
      2:{ intros [ts d] [res k] [resb k'] [res1' k1'] Hin (-> & -> & Hres) Hb. cbn [fst snd] in Hb.
          destruct (Ht ts d Hin) as [Hts Hd].
          match type of Hb with mbind _ ?m = _ => destruct m as [[[p1 sc1] k2]|e|] eqn:Ef; [|done..] end. cbn [mbind res_bind] in Hb.
          eapply (for_sim (S := mgraph * sepset * score * nat) _ (λ '(p, m, sc, n) '(p', sc', n'),
            p = p' ∧ sc = sc' ∧ n = n' ∧ sep_recorded log V m)) in Ef as ([[[p2 m2] sc2] k3] & -> & -> & -> & -> & Hm2).
          3:{ split_and!; [done..|]. by apply init_recorded. }
          2:{ intros t [[[p3 m3] sc3] k3] [[p3' sc3'] k3'] [[p4' sc4'] k4'] Hint (-> & -> & -> & Hm3) Hb3.
              rewrite Forall_forall in Hts. specialize (Hts t Hint).
              destruct (sample_rec o V pick fuel temp (forget t) p3' k3') as [[[p5 sc5] k5]|e|] eqn:E5; [|done..].
              cbn [mbind res_bind] in Hb3. simplify_eq.
              destruct (IH t p3' m3 k3' p4' sc5 k4' Hts Hm3 E5) as (m5 & -> & Hm5). cbn [mbind res_bind].
              eexists. split; [done|]. by split_and!. }
          destruct (sample_rec o V pick fuel temp (forget d) p1 k2) as [[[p5 sc5] k5]|e|] eqn:E5; [|done..].
          cbn [mbind res_bind] in Hb |- *. simplify_eq.
          destruct (IH d p1 m2 k2 p5 sc5 k1' Hd Hm2 E5) as (m5 & -> & Hm5). cbn [mbind res_bind].
          eexists. split; [done|]. split_and!; [done| |].
          - rewrite map_app. done.
          - apply Forall_app. split; [done|]. by constructor. }
      cbn [mbind res_bind] in *.
      assert ((List.map drop res).*2 = res.*2) as Hsc by (rewrite <-list_fmap_compose; done). rewrite Hsc in Hr.
      destruct (select pick temp n1 res.*2) as [i|e|]; [|done..]. cbn [mbind res_bind] in Hr |- *.
      change (List.map drop res) with (drop <$> res) in Hr. rewrite (list_lookup_fmap drop res i) in Hr. destruct (res !! i) as [[[q m'] sq]|] eqn:Ei; [|done].
      cbn [drop fst snd fmap option_fmap option_map] in Hr.
      destruct (add_edges_from o p q (Some en) (Some ex)) as [p2|e|]; [|done..]. cbn [mbind res_bind] in *. simplify_eq.
      assert (sep_recorded log V m') as Hm'.
      { rewrite Forall_forall in Hres. apply (Hres (q, m', sc)). by eapply elem_of_list_lookup_2. }
      pose proof (copy_from_recorded o Ho log V (en ∪ ex) m m' Hx Hm (sep_recorded_sub _ _ _ _ Hx Hm')) as Hc.
      destruct (sep_copy_from o m m' (en ∪ ex)) as [m2|e|]; [|done..]. cbn [mbind res_bind]. eauto.
  Qed.
End sample.

(** ** what is sampled *)
Lemma spicks_picks log V fuel : ∀ t l, tree_sep log V fuel t → spicks t l → picks (forget t) l.*1.
Proof.
  induction fuel as [|fuel IH]; intros t l Ht Hl; [done|]. cbn [tree_sep] in Ht.
  inversion Hl as [en ex g sep sc|en ex cs ts d ls l' Hin Hts Hd]; subst; cbn [forget].
  - constructor.
  - destruct Ht as [_ Ht]. destruct (Ht _ _ Hin) as [H1 H2]. rewrite fmap_app.
    assert ((concat ls).*1 = concat (List.map (List.map fst) ls)) as -> by apply concat_map.
    apply (picks_node en ex _ (forget <$> ts) (forget d)).
    + apply elem_of_list_fmap. by exists (ts, d).
    + clear -Hts H1 IH. induction Hts as [|t l ts ls Ht Hts IH2]; [constructor|]. apply Forall_cons in H1 as [H1 H1'].
      cbn [fmap list_fmap List.map]. constructor; [by apply IH|by apply IH2].
    + by apply IH.
Qed.
Lemma picks_spicks log V fuel : ∀ t l, tree_sep log V fuel t → picks (forget t) l → ∃ l', spicks t l' ∧ l = l'.*1.
Proof.
  induction fuel as [|fuel IH]; intros t l Ht Hl; [done|]. cbn [tree_sep] in Ht.
  destruct t as [en ex g sep sc|en ex cs]; cbn [forget] in Hl; inversion Hl as [en' ex' g' sc'|en' ex' cs' ts' d' ls l' Hin Hts Hd]; subst.
  - eexists. split; [constructor|done].
  - apply elem_of_list_fmap in Hin as ([ts d] & Heq & Hin). cbn [fst snd] in Heq. simplify_eq.
    destruct Ht as [_ Ht]. destruct (Ht _ _ Hin) as [H1 H2]. destruct (IH d l' H2 Hd) as (l2 & Hl2 & ->).
    assert (∃ ls', Forall2 spicks ts ls' ∧ ls = List.map (List.map fst) ls') as (ls' & Hls & ->).
    { clear -Hts H1 IH. revert ls Hts. induction ts as [|t ts IH2]; intros ls Hts; cbn [List.map] in Hts.
      - inversion Hts; subst. by exists [].
      - inversion Hts as [|? l1 ? ls1 Ht Hts1]; subst. apply Forall_cons in H1 as [H1 H1'].
        destruct (IH t l1 H1 Ht) as (l1' & ? & ->). destruct (IH2 H1' ls1 Hts1) as (ls' & ? & ->).
        exists (l1' :: ls'). split; [by constructor|done]. }
    exists (concat ls' ++ l2). split; [by eapply spicks_node|]. rewrite fmap_app. f_equal. symmetry. apply concat_map.
Qed.

Lemma last_app_some {A} (l l' : list A) x : last l' = Some x → last (l ++ l') = Some x.
Proof. intros H. rewrite last_app, H. done. Qed.

Section unscored.
  Context (o : order) (Ho : iter_ok o) (V : nset).

  Lemma sampled_weaken (P P' : list leaf → Prop) en ex p p' sc : (∀ l, P l → P' l) →
    sampled V 1 P en ex p p' sc → sampled V 1 P' en ex p p' sc.
  Proof.
    intros HP (l & H1 & H2 & H3 & H4 & H5 & H6 & H7 & H8 & H9 & H10). exists l.
    split_and!; try done. by apply HP.
  Qed.

  Lemma sampled_score (P : list leaf → Prop) en ex p p' sc sc' : score_eq sc' sc → sampled V 1 P en ex p p' sc → sampled V 1 P en ex p p' sc'.
  Proof.
    intros He (l & H1 & H2 & H3 & H4 & H5 & H6 & H7 & H8 & H9 & H10). exists l.
    split_and!; try done. by rewrite He.
  Qed.

  Lemma all_nodes (en ex D : nset) a : a ∈ en ∪ ex → a ∈ D ∪ (en ∖ D ∪ ex).
  Proof. intros H. destruct (decide (a ∈ D)) as [H'|H']; set_solver +H H'. Qed.
  Lemma sampled_grow P en ex en' ex' p p' sc : sampled V 1 P en ex p p' sc → en ⊆ en' → ex ⊆ en' ∪ ex' → sampled V 1 P en' ex' p p' sc.
  Proof. intros H H1 H2. eapply sampled_mono; [..|exact H]; done. Qed.

  Lemma pick0_ok (n : nat) (l : list score) : l ≠ [] → (λ (_ : nat) (_ : list score), 0) n l < length l.
  Proof. destruct l; [done|simpl; lia]. Qed.
  Lemma sampled_adj1 P en ex p p' sc a b : sampled V 1 P en ex p p' sc → pd_adj p' a b →
    pd_adj p a b ∨ (a ∈ en ∪ ex ∧ b ∈ en ∪ ex ∧ (a ∈ en ∨ b ∈ en)).
  Proof. exact (sampled_adj o Ho V (λ _ _, 0) pick0_ok 1 ltac:(done) P en ex p p' sc a b). Qed.

  (** copying a sampled graph that was started from an empty one *)
  Lemma sampled_copy P en ex p q sc : sampled V 1 P en ex (mempty V) q sc → en ⊆ V → ex ⊆ V → mnodes p = V → pd_wf p →
    (∀ a b, ¬ (darrow p a b ∧ darrow p b a)) → (∀ a b, pd_adj p a b → a ∉ en ∧ b ∉ en) →
    returns (add_edges_from o p q (Some en) (Some ex)) (λ p', sampled V 1 P en ex p p' sc).
  Proof.
    intros (l & H1 & H2 & H3 & H4 & H5 & H6 & H7 & H8 & H9 & H10) Hen Hex HN Hw Hb Hno.
    eapply returns_mono; [apply (add_edges_from_wf o p q en ex Ho); [done|done|by rewrite HN..|done]|].
    cbn beta. intros p' (HqN & Hqw & Hqd & Hqu). exists l. split_and!; [done|congruence|done|..]; try done.
    - intros a b. rewrite !Hqd. intros [[I1|(Hb1 & Ha1 & I1)] [I2|(Hb2 & Ha2 & I2)]].
      + by apply (Hb a b).
      + destruct (Hno a b) as [? ?]; [by right; left|done].
      + destruct (Hno a b) as [? ?]; [by right; right|done].
      + by apply (H4 a b).
    - intros a b. rewrite Hqd, H5. split.
      + intros [H|(_ & _ & [H|H])]; [by left| |by right]. exfalso. eapply mempty_adj. right. left. exact H.
      + intros [H|(x & Hx & H)]; [by left|]. right. destruct (H7 _ _ _ Hx H). split_and!; [done..|]. right. by exists x.
    - intros a b. rewrite Hqu, H6. split.
      + intros [H|(_ & [H|H])]; [by left| |by right]. exfalso. eapply mempty_adj. left. exact H.
      + intros [H|(x & Hx & H)]; [by left|]. right. split; [exact (H8 _ _ _ Hx H)|]. right. by exists x.
  Qed.

  (** the leaf *)
  Lemma leaf_sampled {bdeu} fuel en ex en' ex' g sep sc p m log : tree_ok bdeu V (S fuel) (GLeaf en' ex' g sc) en ex →
    sep_recorded log (en' ∪ ex') sep → mnodes p = V → pd_wf p →
    (∀ a b, ¬ (darrow p a b ∧ darrow p b a)) → (∀ a b, pd_adj p a b → a ∉ en ∧ b ∉ en) →
    returns (p ← add_edges_from o p g (Some en') (Some ex'); m ← sep_copy_from o m sep (en' ∪ ex'); Ok (p, m)) (λ '(p', m'),
      sampled V 1 (λ l, l = [(en', ex', g, sc)]) en ex p p' sc ∧ sets_of_last (en ∪ ex) [(en', ex', g, sc, sep)] m').
  Proof.
    intros Ht Hsep HN Hw Hb Hno.
    pose proof (sample_rec_spec o Ho V (λ _ _, 0) pick0_ok 1 ltac:(done) (S fuel) _ en ex p 0 Ht HN Hw Hb Hno) as Hr.
    cbn [tree_ok] in Ht. destruct Ht as (_ & _ & _ & -> & -> & _). cbn [sample_rec] in Hr.
    destruct (add_edges_from o p g (Some en) (Some ex)) as [q|e|]; [|done..]. cbn [mbind res_bind returns] in Hr |- *.
    eapply returns_bind; [apply (sep_copy_from_ok o Ho m sep (en ∪ ex)); intros a b Ha Hb' Hne; by eapply sep_recorded_dom|].
    cbn beta. intros m' Hm'. cbn [returns]. split.
    - eapply sampled_weaken; [|exact Hr]. intros l Hl. by inversion Hl.
    - eexists _, _. split; [done|]. intros a b Ha Hb' Hne. unfold sep_get. by rewrite Hm'.
  Qed.

  (** the trees of one hypothesis, sampled one after the other by [f] *)
  Section trees.
    Context {T : Type} (gr : T → mgraph) (bdeu : graph → nset → Q) (fuel : nat) (log : clog) (f : sggt → T → res T).
    Context (ok : T → Prop) (adds : T → T → score → Prop).
    Context (adds_0 : ∀ s, adds s s (Some 0%Q)) (adds_add : ∀ s s1 s2 a b, adds s s1 a → adds s1 s2 b → adds s s2 (score_add a b)).
    Hypothesis IH : ∀ t en ex s, tree_ok bdeu V fuel (forget t) en ex → tree_sep log V fuel t → ok s → mnodes (gr s) = V → pd_wf (gr s) →
      (∀ a b, ¬ (darrow (gr s) a b ∧ darrow (gr s) b a)) → (∀ a b, pd_adj (gr s) a b → a ∉ en ∧ b ∉ en) →
      returns (f t s) (λ s', ok s' ∧ ∃ l sc, spicks t l ∧ adds s s' sc ∧ sampled V 1 (λ l', l' = l.*1) en ex (gr s) (gr s') sc).

    Lemma trees_sampled en ex D As ts s : en ⊆ V → ex ⊆ V → en ## ex → D ⊆ en →
      Forall2 (λ t A, tree_ok bdeu V fuel (forget t) A ex) ts As → Forall (tree_sep log V fuel) ts →
      (∀ A, A ∈ As → A ⊆ en ∖ D) → apart As → ok s → mnodes (gr s) = V → pd_wf (gr s) →
      (∀ a b, ¬ (darrow (gr s) a b ∧ darrow (gr s) b a)) → (∀ a b, pd_adj (gr s) a b → a ∉ en ∧ b ∉ en) →
      returns (for_ ts f s) (λ s', ok s' ∧ (∃ ls sc, Forall2 spicks ts ls ∧ adds s s' sc ∧
        sampled V 1 (λ l', l' = (concat ls).*1) en ex (gr s) (gr s') sc) ∧ ∀ a b, pd_adj (gr s') a b → a ∉ D ∧ b ∉ D).
    Proof.
      intros Hen Hex Hdis HD HA Hst HAe Hap Hok HN Hw Hb Hno. rewrite Forall_forall in Hst. eapply returns_mono.
      - apply (for_returns_pre ts _ s (λ pre s1, ok s1 ∧ ∃ As1 As2 ls sc, As = As1 ++ As2 ∧
            Forall2 (λ t A, tree_ok bdeu V fuel (forget t) A ex) pre As1 ∧ Forall2 spicks pre ls ∧ adds s s1 sc ∧
            sampled V 1 (λ l', l' = (concat ls).*1) (⋃ As1) ex (gr s) (gr s1) sc)).
        + split; [done|]. exists [], As, [], (Some 0%Q). split_and!; [done|constructor|constructor|done|].
          eapply (sampled_mono V 1 (λ l, l = []) _ ∅ ex); [done|..|by apply sampled_none].
          -- set_solver +. -- set_solver +.
        + intros pre' t post' s1 El' (Hok1 & As1 & As2 & ls & sc1 & HAs & HA1 & Hls & Had & Hs1).
          assert (∃ A As3, As2 = A :: As3 ∧ tree_ok bdeu V fuel (forget t) A ex) as (A & As3 & -> & HtA).
          { rewrite El', HAs in HA. apply Forall2_app_inv in HA as [_ HA]; [|by eapply Forall2_length].
            apply Forall2_cons_inv_l in HA as (A & As3 & HtA & _ & ->). eauto. }
          assert (∀ B, B ∈ As1 → A ## B) as HAB by (by eapply Hap).
          assert (A ## ex ∧ A ⊆ V) as [HAx HAV].
          { destruct fuel; [done|]. cbn [tree_ok] in HtA. tauto. }
          assert (A ⊆ en) as HAen.
          { assert (A ⊆ en ∖ D) as H; [|set_solver +H]. apply HAe. rewrite HAs. set_solver +. }
          pose proof Hs1 as (l1 & _ & K1 & K2 & K3 & _).
          eapply returns_mono.
          { apply (IH t A ex s1 HtA); [apply Hst; rewrite El'; set_solver +|done..|]. intros a b Hab.
            apply (sampled_adj1 _ _ _ _ _ _ _ _ Hs1) in Hab as [Hab|Hab].
            { apply Hno in Hab. set_solver +Hab HAen. }
            assert (∀ v, v ∈ ⋃ As1 ∪ ex → v ∉ A) as Hv.
            { intros v [Hv|Hv]%elem_of_union HvA; [|set_solver +Hv HvA HAx].
              apply elem_of_union_list in Hv as (B & HB & Hv). pose proof (HAB B HB) as HB'. set_solver +HB' Hv HvA. }
            split; apply Hv; tauto. }
          cbn beta. intros s2 (Hok2 & l2 & sc2 & Hl2 & Had2 & Hs2). split; [done|].
          exists (As1 ++ [A]), As3, (ls ++ [l2]), (score_add sc1 sc2). split_and!.
          * by rewrite HAs, <-app_assoc.
          * apply Forall2_app; [done|]. by constructor.
          * apply Forall2_app; [done|]. by constructor.
          * by eapply adds_add.
          * eapply sampled_weaken; [|eapply (sampled_trans V 1 (λ l', l' = (concat ls).*1) (λ l', l' = l2.*1))].
            2:{ apply (sampled_grow _ (⋃ As1) ex (⋃ (As1 ++ [A])) ex _ _ _ Hs1).
                - rewrite union_list_app_L. set_solver +. - set_solver +. }
            2:{ apply (sampled_grow _ A ex (⋃ (As1 ++ [A])) ex _ _ _ Hs2).
                - rewrite union_list_app_L. simpl. set_solver +. - set_solver +. }
            cbn beta. intros l (l1' & l2' & -> & -> & ->). rewrite concat_app, fmap_app. simpl. by rewrite app_nil_r.
      - cbn beta. intros s1 (Hok1 & As1 & As2 & ls & sc1 & HAs & HA1 & Hls & Had & Hs1).
        assert (As2 = []) as ->.
        { apply Forall2_length in HA1. apply Forall2_length in HA. rewrite HAs, app_length in HA.
          destruct As2; [done|simpl in HA; lia]. }
        rewrite app_nil_r in HAs. subst As1.
        assert (⋃ As ⊆ en ∖ D) as HU.
        { intros v (B & HB & Hv)%elem_of_union_list. by apply (HAe B). }
        split; [done|]. split.
        + exists ls, sc1. split; [done|]. split; [done|]. apply (sampled_grow _ (⋃ As) ex en ex _ _ _ Hs1); [set_solver +HU|set_solver +].
        + intros a b Hab. apply (sampled_adj1 _ _ _ _ _ _ _ _ Hs1) in Hab as [Hab|(Ha & Hb' & _)].
          { apply Hno in Hab. set_solver +Hab HD. }
          assert (∀ v, v ∈ ⋃ As ∪ ex → v ∉ D) as Hv.
          { intros v [Hv%HU|Hv]%elem_of_union HvD; [set_solver +Hv HvD|set_solver +Hv HvD HD Hdis]. }
          split; by apply Hv.
    Qed.

    (** and then the tree of the descendants *)
    Lemma cookie_sampled en ex D ts d ls sc1 s s1 cs : (ts, d) ∈ cs → Forall2 spicks ts ls → D ⊆ en →
      sampled V 1 (λ l', l' = (concat ls).*1) en ex (gr s) (gr s1) sc1 →
      ∀ l s2 sc2, spicks d l → sampled V 1 (λ l', l' = l.*1) D (en ∖ D ∪ ex) (gr s1) (gr s2) sc2 →
      spicks (SNode en ex cs) (concat ls ++ l) ∧
      sampled V 1 (λ l', l' = (concat ls ++ l).*1) en ex (gr s) (gr s2) (score_add sc1 sc2).
    Proof.
      intros Hin Hls HD Hs1 l s2 sc2 Hl Hs2. split; [by eapply spicks_node|].
      eapply sampled_weaken; [|eapply (sampled_trans V 1 (λ l', l' = (concat ls).*1) (λ l', l' = l.*1)); [exact Hs1|]].
      - cbn beta. intros l0 (l1 & l2 & -> & -> & ->). by rewrite fmap_app.
      - apply (sampled_grow _ D (en ∖ D ∪ ex) en ex _ _ _ Hs2); [done|set_solver +HD].
    Qed.
  End trees.

  Lemma sample_rec_u_spec {bdeu} choice log fuel : (∀ n c, 0 < c → choice n c < c) → ∀ t en ex p m n, tree_ok bdeu V fuel (forget t) en ex →
    tree_sep log V fuel t → mnodes p = V → pd_wf p → (∀ a b, ¬ (darrow p a b ∧ darrow p b a)) → (∀ a b, pd_adj p a b → a ∉ en ∧ b ∉ en) →
    sep_recorded log V m →
    returns (sample_rec_u o choice fuel t p m n) (λ '(p', m', _), sep_recorded log V m' ∧
      ∃ l sc, spicks t l ∧ sampled V 1 (λ l', l' = l.*1) en ex p p' sc ∧ sets_of_last (en ∪ ex) l m').
  Proof.
    intros Hchoice. induction fuel as [|fuel IH]; intros t en ex p m n Ht Hts HN Hw Hb Hno Hm; [done|].
    destruct t as [en' ex' g sep sc|en' ex' cs].
    - cbn [tree_sep] in Hts. destruct Hts as [Hx Hsep]. cbn [forget] in Ht.
      pose proof (leaf_sampled fuel en ex en' ex' g sep sc p m log Ht Hsep HN Hw Hb Hno) as Hr. cbn [sample_rec_u].
      pose proof (copy_from_recorded o Ho log V (en' ∪ ex') m sep Hx Hm Hsep) as Hc.
      destruct (add_edges_from o p g (Some en') (Some ex')) as [q|e|]; [|done..]. cbn [mbind res_bind returns] in *.
      destruct (sep_copy_from o m sep (en' ∪ ex')) as [m'|e|]; [|done..]. cbn [mbind res_bind returns] in *. destruct Hr as [H1 H2].
      split; [done|]. eexists _, sc. split_and!; [constructor|exact H1|exact H2].
    - cbn [tree_ok forget] in Ht. destruct Ht as (Hen & Hex & Hdis & -> & -> & Hcs & Hc). cbn [tree_sep] in Hts. destruct Hts as [Hx Hts].
      cbn [sample_rec_u]. destruct (lookup_lt_is_Some_2 cs (choice n (length cs))) as [[ts d] Ei].
      { apply Hchoice. destruct cs; [done|simpl; lia]. }
      rewrite Ei. apply elem_of_list_lookup_2 in Ei. destruct (Hts ts d Ei) as [Hst Hsd].
      assert ((List.map forget ts, forget d) ∈ List.map (λ c, (List.map forget c.1, forget c.2)) cs) as Hin.
      { apply elem_of_list_fmap. by exists (ts, d). }
      destruct (Hc _ _ Hin) as (As & D & HD & HA & HAe & Hap & Hd). change (List.map forget ts) with (forget <$> ts) in HA.
      rewrite Forall2_fmap_l in HA.
      eapply returns_bind.
      { apply (trees_sampled (λ s : mgraph * sepset * nat, s.1.1) bdeu fuel log (λ t '(p, m, n), sample_rec_u o choice fuel t p m n)
          (λ s, sep_recorded log V s.1.2) (λ _ _ _, True)) with (en := en) (ex := ex) (D := D) (As := As); try done.
        intros t en0 ex0 [[p0 m0] n0] T1 T2 T3 T4 T5 T6 T7. cbn [fst snd] in *. eapply returns_mono; [by apply (IH t en0 ex0 p0 m0 n0)|].
        cbn beta. intros [[p1 m1] n1] (Hm1 & l & sc & I1 & I2 & I3). cbn [fst snd]. eauto 8. }
      cbn beta. intros [[p1 m1] n1] (Hm1 & (ls & sc1 & Hls & _ & Hs1) & Hno1). cbn [fst snd] in *.
      pose proof Hs1 as (l1 & _ & K1 & K2 & K3 & _).
      eapply returns_mono; [by apply (IH d D (en ∖ D ∪ ex) p1 m1 n1)|]. cbn beta.
      intros [[p2 m2] n2] (Hm2 & l & sc2 & Hl & Hs2 & x & sep & Hlast & Hsets). split; [done|].
      exists (concat ls ++ l), (score_add sc1 sc2).
      destruct (cookie_sampled (λ s : mgraph, s) en ex D ts d ls sc1 p p1 cs Ei Hls HD Hs1 l p2 sc2 Hl Hs2) as [J1 J2].
      split_and!; [exact J1|exact J2|]. exists x, sep. split; [by apply last_app_some|]. intros a b Ha Hb' Hne.
      apply Hsets; [|..|done].
      + by apply all_nodes.
      + by apply all_nodes.
  Qed.

  Lemma sample_rec_s_spec {bdeu} pick temp log fuel : (∀ n l, l ≠ [] → pick n l < length l) → (0 <= temp)%Q →
    ∀ t en ex p m n, tree_ok bdeu V fuel (forget t) en ex →
    tree_sep log V fuel t → mnodes p = V → pd_wf p → (∀ a b, ¬ (darrow p a b ∧ darrow p b a)) → (∀ a b, pd_adj p a b → a ∉ en ∧ b ∉ en) →
    sep_recorded log V m →
    returns (sample_rec_s o V pick fuel temp t p m n) (λ '(p', m', sc, _), sep_recorded log V m' ∧
      ∃ l, spicks t l ∧ sampled V 1 (λ l', l' = l.*1) en ex p p' sc ∧ sets_of_last (en ∪ ex) l m').
  Proof.
    intros Hpick Htemp. induction fuel as [|fuel IH]; intros t en ex p m n Ht Hts HN Hw Hb Hno Hm; [done|].
    destruct t as [en' ex' g sep sc|en' ex' cs].
    - cbn [tree_sep] in Hts. destruct Hts as [Hx Hsep]. cbn [forget] in Ht.
      pose proof (leaf_sampled fuel en ex en' ex' g sep sc p m log Ht Hsep HN Hw Hb Hno) as Hr. cbn [sample_rec_s].
      pose proof (copy_from_recorded o Ho log V (en' ∪ ex') m sep Hx Hm Hsep) as Hc.
      destruct (add_edges_from o p g (Some en') (Some ex')) as [q|e|]; [|done..]. cbn [mbind res_bind returns] in *.
      destruct (sep_copy_from o m sep (en' ∪ ex')) as [m'|e|]; [|done..]. cbn [mbind res_bind returns] in *. destruct Hr as [H1 H2].
      split; [done|]. eexists. split_and!; [constructor|exact H1|exact H2].
    - cbn [tree_ok forget] in Ht. destruct Ht as (Hen & Hex & Hdis & -> & -> & Hcs & Hc). cbn [tree_sep] in Hts. destruct Hts as [Hx Hts].
      cbn [sample_rec_s].
      eapply returns_bind.
      + apply (for_returns_pre _ _ ([], n) (λ pre '(res, _), length res = length pre ∧ Forall (λ r : mgraph * sepset * score,
          sep_recorded log V r.1.2 ∧ ∃ l, spicks (SNode en ex cs) l ∧ sampled V 1 (λ l', l' = l.*1) en ex (mempty V) r.1.1 r.2 ∧
          sets_of_last (en ∪ ex) l r.1.2) res)); [by split|].
        intros pre [ts d] post [res n1] El [Hlen Hres].
        assert ((ts, d) ∈ cs) as Ei by (rewrite El; set_solver +). destruct (Hts ts d Ei) as [Hst Hsd].
        assert ((List.map forget ts, forget d) ∈ List.map (λ c, (List.map forget c.1, forget c.2)) cs) as Hin.
        { apply elem_of_list_fmap. by exists (ts, d). }
        destruct (Hc _ _ Hin) as (As & D & HD & HA & HAe & Hap & Hd). change (List.map forget ts) with (forget <$> ts) in HA.
        rewrite Forall2_fmap_l in HA.
        eapply returns_bind.
        { apply (trees_sampled (λ s : mgraph * sepset * score * nat, s.1.1.1) bdeu fuel log
            (λ t '(p, m, sc, n), r ← sample_rec_s o V pick fuel temp t p m n; let '(p, m, sc', n) := r in Ok (p, m, score_add sc sc', n))
            (λ s, sep_recorded log V s.1.1.2) (λ s s' sc, score_eq s'.1.2 (score_add s.1.2 sc))) with (en := en) (ex := ex) (D := D) (As := As); try done.
          - intros s. by rewrite score_add_0_r.
          - intros s s1 s2 a b Ha Hb'. by rewrite Hb', Ha, score_add_assoc.
          - intros t en0 ex0 [[[p0 m0] sc0] n0] T1 T2 T3 T4 T5 T6 T7. cbn [fst snd] in *. eapply returns_bind; [by apply (IH t en0 ex0 p0 m0 n0)|].
            cbn beta. intros [[[p1 m1] sc1] n2] (Hm1 & l & I1 & I2 & I3). cbn [returns fst snd]. split; [done|]. exists l, sc1. done.
          - by apply init_recorded.
          - cbn [fst snd]. intros a b [H _]. apply (mempty_adj V a b). right. left. exact H.
          - cbn [fst snd]. intros a b H. by apply mempty_adj in H. }
        cbn beta. intros [[[p1 m1] sa] n2] (Hm1 & (ls & sc1 & Hls & Hsa & Hs1) & Hno1). cbn [fst snd] in *.
        pose proof Hs1 as (l1 & _ & K1 & K2 & K3 & _).
        eapply returns_bind; [by apply (IH d D (en ∖ D ∪ ex) p1 m1 n2)|]. cbn beta.
        intros [[[p2 m2] sc2] n3] (Hm2 & l & Hl & Hs2 & x & sep & Hlast & Hsets). cbn [returns]. split.
        { rewrite !app_length. simpl. lia. }
        apply Forall_app. split; [done|]. constructor; [|constructor]. cbn [fst snd]. split; [done|].
        exists (concat ls ++ l).
        destruct (cookie_sampled (λ s : mgraph, s) en ex D ts d ls sc1 (mempty V) p1 cs Ei Hls HD Hs1 l p2 sc2 Hl Hs2) as [J1 J2].
        split_and!; [exact J1| |].
        * eapply sampled_score; [|exact J2]. by rewrite Hsa, score_add_0_l.
        * exists x, sep. split; [by apply last_app_some|]. intros a b Ha Hb' Hne.
          apply Hsets; [|..|done].
          -- by apply all_nodes.
          -- by apply all_nodes.
      + cbn beta. intros [res n1] [Hlen Hres].
        assert (res ≠ []) as Hres0 by (intros ->; by destruct cs).
        eapply returns_bind; [apply (select_spec pick Hpick temp Htemp); by destruct res|]. cbn beta. intros i (s & Hs & _).
        rewrite list_lookup_fmap in Hs. destruct (res !! i) as [[[q mq] sq]|] eqn:Ei; [|done].
        rewrite Forall_forall in Hres. destruct (Hres (q, mq, sq)) as (Hmq & l & J1 & J2 & x & sep & J3 & J4); [by eapply elem_of_list_lookup_2|].
        cbn [fst snd] in *.
        eapply returns_bind; [by apply (sampled_copy _ en ex p q sq J2)|]. cbn beta. intros p' Hp'.
        pose proof (copy_from_recorded o Ho log V (en ∪ ex) m mq Hx Hm (sep_recorded_sub _ _ _ _ Hx Hmq)) as Hc1.
        assert (returns (sep_copy_from o m mq (en ∪ ex)) (λ m', ∀ a b, a ∈ en ∪ ex → b ∈ en ∪ ex → a ≠ b → (m' : sepset) !! hkey a b = mq !! hkey a b)) as Hc2.
        { apply (sep_copy_from_ok o Ho). intros a b Ha Hb' Hne. eapply sep_recorded_dom; [exact Hmq|auto..]. }
        destruct (sep_copy_from o m mq (en ∪ ex)) as [m'|e|]; [|done..]. cbn [mbind res_bind returns] in *.
        split; [done|]. exists l. split_and!; [done|exact Hp'|]. exists x, sep. split; [done|]. intros a b Ha Hb' Hne.
        rewrite <-J4 by done. unfold sep_get. by rewrite Hc2.
  Qed.
End unscored.

(** ** learn_structure and sample_cpdag *)
Section top.
  Context (o : order) (Ho : iter_ok o) (lf : nat) (V : nset) (pick : nat → list score → nat).
  Context (Hlf : size V * size V + 1 < lf).
  Context (Hpick : ∀ n l, l ≠ [] → pick n l < length l).

  (** the graph g and the sets m come from the leaves l of one choice of hypotheses *)
  Definition sample_of (log : clog) (t : sggt) (g : mgraph) (m : sepset) (l : list sleaf) : Prop :=
    mnodes g = V ∧ pd_wf g ∧ (∀ a b, ¬ (darrow g a b ∧ darrow g b a)) ∧ no_rule_applies g [1;2;3] V ∧ sep_recorded log V m ∧
    spicks t l ∧ sets_of_last V l m ∧
    ∃ p, union_of V l.*1 p ∧ pd_wf p ∧ pd_same_skeleton p g ∧ (∀ a b, shown_collider p a b → darrow g a b).

  Lemma re_orient_sampled log t p m l sc : spicks t l → sampled V 1 (λ l', l' = l.*1) V ∅ (mempty V) p sc →
    sep_recorded log V m → sets_of_last (V ∪ ∅) l m →
    returns (re_orient o lf p) (λ g, sample_of log t g m l ∧ score_eq sc (total l.*1)).
  Proof.
    intros Hl (l' & -> & H2 & H3 & H4 & H5 & H6 & _ & _ & H9 & _) Hm Hs.
    eapply returns_mono; [apply re_orient_spec; [done..|rewrite H2; lia]|].
    cbn beta. intros g (I1 & I2 & I3 & I4 & I5). rewrite H2 in I5.
    split; [|done]. split_and!; try done; [by rewrite <-(proj1 I2)|by apply I3|by rewrite union_empty_r_L in Hs|].
    exists p. split_and!; try done. split_and!; [done|..]; intros a b; rewrite ?H5, ?H6.
    - split; [|by right]. intros [H|H]; [|done]. exfalso. eapply mempty_adj. right. left. exact H.
    - split; [|by right]. intros [H|H]; [|done]. exfalso. eapply mempty_adj. left. exact H.
  Qed.

  Lemma sample_s_spec {bdeu} temp log t m n : tree_ok bdeu V lf (forget t) V ∅ → tree_sep log V lf t → sep_recorded log V m →
    (0 <= temp)%Q →
    returns (sample_cpdag_s o lf V pick temp t m n) (λ '(g, m', sc, n'), sample_cpdag o lf V pick temp (forget t) n = Ok (g, sc, n') ∧
      ∃ l, sample_of log t g m' l ∧ score_eq sc (total l.*1) ∧ ((temp == 0)%Q → ∀ l', spicks t l' → score_le (total l'.*1) (total l.*1))).
  Proof.
    intros Ht Hs Hm Htemp. destruct (sample_steps o Ho lf V pick Hlf Hpick temp (forget t) n Ht Htemp) as (p & g & sc & n' & E & Eg & Ec & Hok).
    pose proof (erase_recorded log log V m Hm) as Hm0.
    destruct (sample_rec_s_sim o Ho V pick temp log lf t (mempty V) (sep_erase m) n p sc n' Hs Hm0 E) as (m' & E' & Hm').
    assert (returns (sample_rec_s o V pick lf temp t (mempty V) (sep_erase m) n) (λ '(p', m', sc, _), sep_recorded log V m' ∧
      ∃ l, spicks t l ∧ sampled V 1 (λ l', l' = l.*1) V ∅ (mempty V) p' sc ∧ sets_of_last (V ∪ ∅) l m')) as Hr.
    { apply (sample_rec_s_spec (bdeu := bdeu) o Ho V pick temp log lf Hpick Htemp t V ∅); [done|done|done|apply mempty_wf| | |done].
      - intros a b [H _]. apply (mempty_adj V a b). right. left. exact H.
      - intros a b H. by apply mempty_adj in H. }
    rewrite E' in Hr. cbn [returns] in Hr. destruct Hr as (_ & l & H1 & H2 & H3).
    pose proof (re_orient_sampled log t p m' l sc H1 H2 Hm' H3) as Hg. rewrite Eg in Hg. cbn [returns] in Hg. destruct Hg as [Hg Hsc].
    unfold sample_cpdag_s. rewrite E'. cbn [mbind res_bind]. rewrite Eg. cbn [mbind res_bind returns]. split; [done|].
    exists l. split_and!; [done..|]. intros H0 l' Hl'.
    destruct Hok as (_ & _ & _ & _ & _ & _ & _ & l0 & _ & _ & I3 & I4). rewrite <-Hsc. apply I4; [done|]. by eapply spicks_picks.
  Qed.

  Lemma brai_learn_s_spec ci ow bdeu K : 0 < K →
    returns (brai_learn_s o ci ow lf V true false bdeu K pick) (λ '(t, log, g, m),
      tree_ok bdeu V lf (forget t) V ∅ ∧ tree_sep log V lf t ∧ sep_recorded log V m ∧
      ∃ l, sample_of log t g m l ∧ ∀ l', spicks t l' → score_le (total l'.*1) (total l.*1)).
  Proof.
    intros HK. unfold brai_learn_s. rewrite bool_decide_true by done. cbn [assert_ mbind res_bind].
    eapply returns_bind.
    { apply (brai_rec_s_spec o Ho ci ow lf V Hlf bdeu K lf HK V ∅ 0 _ []); [|lia|by apply rai_init_inv|set_solver +..].
      pose proof (lf_V lf V Hlf). lia. }
    cbn beta. intros [t s] (Ht & Hs & B' & Hi & _). cbn [fst snd] in *.
    eapply returns_bind; [apply (sample_s_spec 0 (pc_log s) t (pc_sep s) 0 Ht Hs (ra_recorded _ _ _ _ Hi)), Qle_refl|].
    cbn beta. intros [[[g m] sc] n] (_ & l & H1 & _ & H3). cbn [returns]. split_and!; [done..|apply H1|].
    exists l. split; [done|]. by apply H3.
  Qed.

  Lemma sample_u_spec {bdeu} choice log t m n : (∀ n c, 0 < c → choice n c < c) →
    tree_ok bdeu V lf (forget t) V ∅ → tree_sep log V lf t → sep_recorded log V m →
    returns (sample_cpdag_u o lf V choice t m n) (λ '(g, m', _), ∃ l, sample_of log t g m' l).
  Proof.
    intros Hc Ht Hs Hm. unfold sample_cpdag_u. eapply returns_bind.
    { apply (sample_rec_u_spec o Ho V choice log lf Hc t V ∅ (mempty V) (sep_erase m) n Ht Hs); [done|apply mempty_wf| | |by eapply erase_recorded].
      - intros a b [H _]. apply (mempty_adj V a b). right. left. exact H.
      - intros a b H. by apply mempty_adj in H. }
    cbn beta. intros [[p m'] n'] (Hm' & l & sc & H1 & H2 & H3).
    eapply returns_bind; [by apply (re_orient_sampled log t p m' l sc)|]. cbn beta. intros g [Hg _]. cbn [returns]. eauto.
  Qed.
End top.

(** ** every selection can be drawn *)
Section every.
  Context (o : order) (V : nset) (bdeu : graph → nset → Q) (log : clog).

  (** the choices [is], each with the number of alternatives, are made from the n-th draw on *)
  Definition makes (choice : nat → nat → nat) (n : nat) (is : list (nat * nat)) : Prop :=
    ∀ i x c, is !! i = Some (x, c) → choice (n + i) c = x.
  Lemma makes_app choice n is js : makes choice n (is ++ js) → makes choice n is ∧ makes choice (n + length is) js.
  Proof.
    intros H. split.
    - intros i x c Hi. apply H. by apply lookup_app_l_Some.
    - intros i x c Hi. replace (n + length is + i) with (n + (length is + i)) by lia. apply H.
      rewrite lookup_app_r by lia. by replace (length is + i - length is) with i by lia.
  Qed.

  (** the tree t' has the only selection l; the choices [is] in t lead to it *)
  Definition prunes (fuel : nat) (t t' : sggt) (l : list sleaf) (is : list (nat * nat)) : Prop :=
    (∀ l', spicks t' l' → l' = l) ∧ Forall (λ xc, xc.1 < xc.2) is ∧
    ∀ choice n, makes choice n is → ∀ p m,
      sample_rec_u o choice fuel t p m n = sample_rec_u o (λ _ _, 0) fuel t' p m n ∧
      ∀ r, sample_rec_u o choice fuel t p m n = Ok r → r.2 = n + length is.

  Lemma prune_list fuel ex :
    (∀ t en ex l, tree_ok bdeu V fuel (forget t) en ex → tree_sep log V fuel t → spicks t l →
      ∃ t' is, tree_ok bdeu V fuel (forget t') en ex ∧ tree_sep log V fuel t' ∧ prunes fuel t t' l is) →
    ∀ ts ls As, Forall2 spicks ts ls → Forall2 (λ t A, tree_ok bdeu V fuel (forget t) A ex) ts As → Forall (tree_sep log V fuel) ts →
    ∃ ts' is, Forall2 (λ t A, tree_ok bdeu V fuel (forget t) A ex) ts' As ∧ Forall (tree_sep log V fuel) ts' ∧
      (∀ ls', Forall2 spicks ts' ls' → ls' = ls) ∧ Forall (λ xc, xc.1 < xc.2) is ∧
      ∀ choice n, makes choice n is → ∀ p m,
        for_ ts (λ t '(p, m, n), sample_rec_u o choice fuel t p m n) (p, m, n) =
        for_ ts' (λ t '(p, m, n), sample_rec_u o (λ _ _, 0) fuel t p m n) (p, m, n) ∧
        ∀ r, for_ ts (λ t '(p, m, n), sample_rec_u o choice fuel t p m n) (p, m, n) = Ok r → r.2 = n + length is.
  Proof.
    intros IH ts ls As H. revert As. induction H as [|t l ts ls Hl _ IHl]; intros As HA Hs.
    { apply Forall2_nil_inv_l in HA as ->. exists [], []. split_and!; [constructor..| |constructor|].
      - intros ls' H. by apply Forall2_nil_inv_l in H.
      - intros choice n _ p m. split; [done|]. intros r [= <-]. simpl. lia. }
    apply Forall2_cons_inv_l in HA as (A & As' & Ht & HA & ->). apply Forall_cons in Hs as [Hs1 Hs2].
    destruct (IH t A ex l Ht Hs1 Hl) as (t' & is & T1 & T2 & T3 & T4 & T5).
    destruct (IHl As' HA Hs2) as (ts' & js & J1 & J2 & J3 & J4 & J5).
    exists (t' :: ts'), (is ++ js). split_and!; [by constructor|by constructor| |by apply Forall_app|].
    - intros ls' H. apply Forall2_cons_inv_l in H as (l0 & ls0 & H1 & H2 & ->). f_equal; [by apply T3|by apply J3].
    - intros choice n Hm p m. apply makes_app in Hm as [Hm1 Hm2]. cbn [for_].
      destruct (T5 choice n Hm1 p m) as [E1 E2]. rewrite <-E1.
      destruct (sample_rec_u o choice fuel t p m n) as [[[p1 m1] n1]|e|]; [|done..].
      specialize (E2 _ eq_refl). cbn [snd] in E2. subst n1. cbn [mbind res_bind].
      destruct (J5 choice (n + length is) Hm2 p1 m1) as [F1 F2]. split; [exact F1|].
      intros r Hr. rewrite (F2 r Hr), app_length. lia.
  Qed.

  Lemma prune fuel : ∀ t en ex l, tree_ok bdeu V fuel (forget t) en ex → tree_sep log V fuel t → spicks t l →
    ∃ t' is, tree_ok bdeu V fuel (forget t') en ex ∧ tree_sep log V fuel t' ∧ prunes fuel t t' l is.
  Proof.
    induction fuel as [|fuel IH]; intros t en ex l Ht Hs Hl; [done|].
    destruct t as [en' ex' g sep sc|en' ex' cs].
    - exists (SLeaf en' ex' g sep sc), []. split_and!; [done..|]. inversion Hl; subst. split_and!; [|constructor|].
      + intros l' H. by inversion H.
      + intros choice n _ p m. cbn [sample_rec_u]. split; [done|]. intros r.
        destruct (add_edges_from o p g (Some en') (Some ex')); [|done..]. cbn [mbind res_bind].
        destruct (sep_copy_from o m sep (en' ∪ ex')); [|done..]. cbn [mbind res_bind]. intros [= <-]. simpl. lia.
    - cbn [tree_ok forget] in Ht. destruct Ht as (Hen & Hex & Hdis & -> & -> & Hcs & Hc). cbn [tree_sep] in Hs. destruct Hs as [Hx Hts].
      inversion Hl as [|? ? ? ts d ls l0 Hin Hls Hd]; subst.
      destruct (Hts ts d Hin) as [Hst Hsd].
      assert ((List.map forget ts, forget d) ∈ List.map (λ c, (List.map forget c.1, forget c.2)) cs) as Hin'.
      { apply elem_of_list_fmap. by exists (ts, d). }
      destruct (Hc _ _ Hin') as (As & D & HD & HA & HAe & Hap & HdD). change (List.map forget ts) with (forget <$> ts) in HA.
      rewrite Forall2_fmap_l in HA.
      destruct (prune_list fuel ex IH ts ls As Hls HA Hst) as (ts' & is & I1 & I2 & I3 & I4 & I5).
      destruct (IH d D (en ∖ D ∪ ex) l0 HdD Hsd Hd) as (d' & js & J1 & J2 & J3 & J4 & J5).
      apply elem_of_list_lookup in Hin as [i Hi].
      exists (SNode en ex [(ts', d')]), ((i, length cs) :: is ++ js). split; [|split].
      + cbn [tree_ok forget]. split_and!; try done. intros us u Hu. simpl in Hu. apply elem_of_list_singleton in Hu. simplify_eq.
        exists As, D. split_and!; try done. change (List.map forget ts') with (forget <$> ts'). by rewrite Forall2_fmap_l.
      + cbn [tree_sep]. split; [done|]. intros us u Hu. apply elem_of_list_singleton in Hu. by simplify_eq.
      + split_and!.
        * intros l' H. inversion H as [|? ? ? us u ls' l1 Hu Hls' Hl1]; subst. apply elem_of_list_singleton in Hu. simplify_eq.
          f_equal; [f_equal; by apply I3|by apply J3].
        * constructor; [|by apply Forall_app]. simpl. by eapply lookup_lt_Some.
        * intros choice n Hm p m. cbn [sample_rec_u].
          assert (choice n (length cs) = i) as ->. { rewrite <-(Hm 0 i (length cs) eq_refl). f_equal; lia. }
          rewrite Hi. cbn [lookup list_lookup].
          assert (makes choice (S n) (is ++ js)) as Hm'.
          { intros k x c Hk. replace (S n + k) with (n + S k) by lia. by apply Hm. }
          apply makes_app in Hm' as [Hm1 Hm2].
          destruct (I5 choice (S n) Hm1 p m) as [E1 E2]. rewrite <-E1.
          destruct (for_ ts _ _) as [[[p1 m1] n1]|e|]; [|done..].
          specialize (E2 _ eq_refl). cbn [snd] in E2. subst n1. cbn [mbind res_bind].
          destruct (J5 choice (S n + length is) Hm2 p1 m1) as [F1 F2]. split; [exact F1|].
          intros r Hr. rewrite (F2 r Hr). cbn [length]. rewrite app_length. lia.
  Qed.

  (** choices within range that make [is] *)
  Definition choose (n : nat) (is : list (nat * nat)) (k c : nat) : nat :=
    match is !! (k - n) with Some (x, c') => if decide (c' = c) then x else 0 | None => 0 end.
  Lemma choose_range n is k c : Forall (λ xc, xc.1 < xc.2) is → 0 < c → choose n is k c < c.
  Proof.
    intros H Hc. unfold choose. destruct (is !! (k - n)) as [[x c']|] eqn:E; [|done]. case_decide; [|done]. subst.
    by apply (Forall_lookup_1 _ _ _ _ H E).
  Qed.
  Lemma choose_makes n is : makes (choose n is) n is.
  Proof. intros i x c H. unfold choose. replace (n + i - n) with i by lia. rewrite H. by rewrite decide_True. Qed.
End every.

Lemma sample_u_every o lf V bdeu log t m n l : iter_ok o → size V * size V + 1 < lf →
  tree_ok bdeu V lf (forget t) V ∅ → tree_sep log V lf t → sep_recorded log V m → spicks t l →
  ∃ choice : nat → nat → nat, (∀ n c, 0 < c → choice n c < c) ∧
    returns (sample_cpdag_u o lf V choice t m n) (λ '(g, m', _), sets_of_last V l m' ∧
      ∃ p, union_of V l.*1 p ∧ pd_wf p ∧ pd_same_skeleton p g ∧ (∀ a b, shown_collider p a b → darrow g a b)).
Proof.
  intros Ho Hlf Ht Hs Hm Hl.
  destruct (prune o V bdeu log lf t V ∅ l Ht Hs Hl) as (t' & is & Ht' & Hs' & Honly & His & Heq).
  exists (choose n is). split; [intros k c; by apply choose_range|].
  assert (sample_cpdag_u o lf V (choose n is) t m n = sample_cpdag_u o lf V (λ _ _, 0) t' m n) as ->.
  { unfold sample_cpdag_u. destruct (Heq (choose n is) n (choose_makes n is) (mempty V) (sep_erase m)) as [-> _]. done. }
  eapply returns_mono; [apply (sample_u_spec (bdeu:=bdeu) o Ho lf V Hlf (λ _ _, 0) log t' m n); [intros ? c ?; lia|done..]|]. cbn beta.
  intros [[g m'] n'] (l' & _ & _ & _ & _ & _ & Hl' & Hset & Hp). rewrite (Honly l' Hl') in *. done.
Qed.
