(** Temporal ICD: the initial state and the whole learner. *)
From Verif Require Import Base BaseLemmas ModelGraph Spec ModelMixed SpecMixed ProofMixed ProofMixed2 ProofPDAG ProofPDAG2 ProofPDAG3
  ModelPC SpecPC ProofPC ModelPAG SpecPAG ProofPAG ProofPAGU ProofPAGX ModelPDS ModelFCI SpecFCI ProofFCI ProofFCI2 ProofFCI3 ProofFCI4 ModelTS SpecTS ProofTS ProofTS2 ProofTS3.

Section init.
  Context (NS : list (list node)) (W : window NS) (o : order) (Ho : iter_ok o).
  Notation V := (win_nodes NS).

  (** complete, with arrowheads at the second nodes of L and circles elsewhere *)
  Definition arrowed (L : list (node * node)) (g : mgraph) : Prop :=
    mnodes g = V ∧ mg_wf g ∧ ∀ a k b, has_mark g a k b ↔ a ∈ V ∧ b ∈ V ∧ a ≠ b ∧ (k = Directed ∧ (a, b) ∈ L ∨ k = Circle ∧ (a, b) ∉ L).

  Lemma arrowed_adj L g a b : arrowed L g → mg_adj g a b ↔ a ∈ V ∧ b ∈ V ∧ a ≠ b.
  Proof.
    intros (N & Wg & M). unfold mg_adj. setoid_rewrite M. split; [by intros (k & ? & ? & ? & _)|]. intros (? & ? & ?).
    destruct (decide ((a, b) ∈ L)); [exists Directed|exists Circle]; tauto.
  Qed.
  Lemma arrows_loop L0 L g : arrowed L0 g → (∀ a b, (a, b) ∈ L → a ∈ V ∧ b ∈ V ∧ a ≠ b) →
    returns (for_ L (λ '(a, b) g, replace_edge_mark PAG_T g a b Directed) g) (arrowed (L0 ++ L)).
  Proof.
    intros H0 HL. apply (for_returns_pre _ _ _ (λ pre g, arrowed (L0 ++ pre) g)); [by rewrite app_nil_r|].
    intros pre [i j] post h E H. rewrite replace_edge_mark_ok. cbn [returns]. destruct (HL i j) as (Hi & Hj & Hne); [rewrite E; set_solver +|].
    assert (mg_adj h i j) as Hij by by apply (arrowed_adj _ _ _ _ H). destruct H as (N & Wh & M).
    split; [by rewrite replace_mark_nodes|]. split; [by apply mg_wf_replace|].
    intros a k b. rewrite replace_mark_spec, M, app_assoc, (elem_of_app (L0 ++ pre)), elem_of_list_singleton.
    destruct (decide (a = i ∧ b = j)) as [[-> ->]|Hn].
    - split.
      + intros [(_ & _ & ->)|[[] _]]; [|done]. split; [done|]. split; [done|]. split; [done|]. left. split; [done|by right].
      + intros (_ & _ & _ & [[-> _]|[_ H]]); [by left|]. destruct H. by right.
    - assert ((a, b) ≠ (i, j)) by (intros [= -> ->]; by apply Hn). split.
      + intros [(-> & -> & _)|[_ Hx]]; [by destruct Hn|]. tauto.
      + intros H'. right. tauto.
  Qed.

  Lemma ts_default_ok : returns (ts_default NS V) (λ g, mnodes g = V ∧ mg_wf g ∧
    ∀ a k b, has_mark g a k b ↔ a ∈ V ∧ b ∈ V ∧ a ≠ b ∧ (k = Directed ∧ past_of NS a b ∨ k = Circle ∧ ¬ past_of NS a b)).
  Proof.
    unfold ts_default. change (create_complete PAG_T (mempty V) Circle (Some V)) with (create_complete PAG_T (mempty V) Circle None).
    set (PF := concat _). assert (∀ p f, (p, f) ∈ PF ↔ f < p < length NS) as HPF.
    { intros p f. unfold PF. rewrite elem_of_list_In, in_concat. split.
      - intros (l & Hl & Hin). apply elem_of_list_In in Hl, Hin. apply elem_of_list_fmap in Hl as (f' & -> & Hf'). apply elem_of_list_fmap in Hin as (p' & [= -> ->] & Hp').
        rewrite elem_of_seq in *. lia.
      - intros H. eexists. split; [apply elem_of_list_In, elem_of_list_fmap; exists f; split; [done|]; apply elem_of_seq; lia|].
        apply elem_of_list_In, elem_of_list_fmap. exists p. split; [done|]. apply elem_of_seq. lia. }
    eapply returns_mono.
    - apply (for_returns_pre _ _ _ (λ pre g, ∃ L, arrowed L g ∧ ∀ a b, (a, b) ∈ L ↔ ∃ p f, (p, f) ∈ pre ∧ in_time NS p a ∧ in_time NS f b)).
      + exists []. split.
        * split; [done|]. split; [apply create_complete_wf|]. intros a k b. rewrite create_complete_spec. cbn [mnodes mempty]. unfold has_mark. cbn [mset mempty].
          split; [intros [(? & -> & ? & ?)|[_ H]]|].
          -- do 3 (split; [done|]). right. split; [done|]. by intros ?%elem_of_nil.
          -- by apply elem_of_empty in H.
          -- intros (? & ? & ? & [[_ H]|[-> _]]); [by apply elem_of_nil in H|]. by left.
        * intros a b. split; [by intros ?%elem_of_nil|]. intros (p & f & H & _). by apply elem_of_nil in H.
      + intros pre [p f] post g E (L & Hg & HL). assert (f < p < length NS) as Hpf by (apply HPF; rewrite E; set_solver +).
        destruct (lookup_lt_is_Some_2 NS p) as [lp Hp]; [lia|]. destruct (lookup_lt_is_Some_2 NS f) as [lf Hlf]; [lia|].
        rewrite Hp, Hlf. cbn [mbind res_bind].
        assert (∀ a b, (a, b) ∈ list_prod lp lf ↔ in_time NS p a ∧ in_time NS f b) as Hprod.
        { intros a b. rewrite elem_of_list_In, in_prod_iff, <-!elem_of_list_In, !elem_of_list_lookup. unfold in_time, at_. split.
          - intros [[x Hx] [y Hy]]. split; [by exists x, lp|by exists y, lf].
          - intros [(x & l & Hl & Hx) (y & l' & Hl' & Hy)]. simplify_eq. split; by eexists. }
        eapply returns_mono; [apply arrows_loop; [exact Hg|]|].
        * intros a b [[x Ha] [y Hb]]%Hprod. split; [by eapply at_node|]. split; [by eapply at_node|]. intros ->.
          destruct (at_unique NS W _ _ _ _ _ Ha Hb). lia.
        * cbn beta. intros h Hh. eexists. split; [exact Hh|]. intros a b. rewrite elem_of_app, HL, Hprod. setoid_rewrite elem_of_app. setoid_rewrite elem_of_list_singleton.
          split.
          -- intros [(p' & f' & ? & ?)|?]; [exists p', f'; tauto|exists p, f; tauto].
          -- intros (p' & f' & [?|[= -> ->]] & ?); [left; by exists p', f'|by right].
    - cbn beta. intros g (L & (N & Wg & M) & HL). split; [done|]. split; [done|]. intros a k b. rewrite M.
      assert ((a, b) ∈ L ↔ past_of NS a b) as ->; [|done]. rewrite HL. unfold past_of. split.
      + intros (p & f & H%HPF & Ha & Hb). exists p, f. split; [done|]. split; [done|lia].
      + intros (p & f & Ha & Hb & Hlt). exists p, f. split; [|done]. apply HPF. destruct Ha as [x Ha%at_time]. lia.
  Qed.

  Lemma ts_copy_ok ini g : mg_wf ini → mg_wf g → mnodes g = mnodes ini → (∀ a b, ¬ mg_adj g a b) →
    returns (ts_copy o ini g) (λ h, mnodes h = mnodes g ∧ mg_wf h ∧ ∀ a k b, has_mark h a k b ↔ has_mark ini a k b).
  Proof.
    intros Wi Wg Hn H0. unfold ts_copy. assert (NoDup (o 51 (mnodes ini))) as Hnd by by apply iter_nodup. eapply returns_mono.
    - apply (for_returns_pre _ _ _ (λ pre h, mnodes h = mnodes g ∧ mg_wf h ∧ ∀ a k b, has_mark h a k b ↔ ((a, b) ∈ pre ∨ (b, a) ∈ pre) ∧ has_mark ini a k b)).
      + split; [done|]. split; [done|]. intros a k b. split.
        * intros H. destruct (H0 a b). by exists k.
        * intros ([H|H] & _); by apply elem_of_nil in H.
      + intros pre [i j] post h E (N & Wh & M). pose proof (comb2_fresh _ _ _ _ _ Hnd E) as [F1 F2].
        assert ((i, j) ∈ comb2 (o 51 (mnodes ini))) as Hij by (rewrite E; set_solver +).
        apply comb2_iter in Hij as (Hi & Hj & Hne); [|done].
        eapply returns_bind; [by apply m_is_connected_pag|]. cbn beta. intros b Hb. destruct b; cbv iota.
        * destruct (adj_mark ini i j Wi (proj1 Hb eq_refl)) as (kj & -> & M1).
          destruct (adj_mark ini j i Wi) as (ki & -> & M2); [apply mg_adj_sym; [done|by apply Hb]|].
          assert (¬ mg_adj h i j) as Hn' by (intros (k & Hk); apply M in Hk; tauto).
          rewrite (proj1 (m_add_edge_spec h i j ki kj Wh Hne) Hn'). cbn [returns]. split; [done|].
          split; [apply mg_wf_add; [done|rewrite N, Hn; done|rewrite N, Hn; done|done|done]|]. intros a k b. rewrite add_spec, M.
          rewrite !elem_of_app, !elem_of_list_singleton. split.
          -- intros [(? & ?)|[(-> & -> & ->)|(-> & -> & ->)]]; [tauto| |].
             ++ split; [right; by right|done].
             ++ split; [left; by right|done].
          -- intros ([[?|[= -> ->]]|[?|[= -> ->]]] & Hk); [left; tauto|right; right|left; tauto|right; left];
             (do 2 (split; [done|]); by eapply (mgw_one _ Wi)).
        * cbn [returns]. split; [done|]. split; [done|]. intros a k b. rewrite M, !elem_of_app, !elem_of_list_singleton.
          split; [tauto|]. intros ([[?|[= -> ->]]|[?|[= -> ->]]] & Hk); [tauto| |tauto|].
          -- assert (mg_adj ini i j) as Hp by by exists k. by apply Hb in Hp.
          -- assert (mg_adj ini i j) as Hp by (apply mg_adj_sym; [done|by exists k]). by apply Hb in Hp.
    - cbn beta. intros h (N & Wh & M). split; [done|]. split; [done|]. intros a k b. rewrite M. split; [tauto|].
      intros H. split; [|done]. pose proof (mgw_in _ Wi _ _ _ H) as (? & ? & ?). by apply comb2_iter.
  Qed.

  Notation fixmap := (gmap (nat * nat) (option mark)).
  Lemma ts_fixed_ok (ini : mgraph) : mg_wf ini →
    returns (ts_fixed o ini) (λ m : fixmap, ∀ a k b, has_mark ini a k b → m !! (a, b) = Some (Some k)).
  Proof.
    intros Wi. unfold ts_fixed. eapply returns_mono.
    - apply (for_returns_pre _ _ _ (λ pre (m : fixmap), ∀ a k b, (a, b) ∈ pre ∨ (b, a) ∈ pre → has_mark ini a k b → m !! (a, b) = Some (Some k))).
      + intros a k b [H|H]; by apply elem_of_nil in H.
      + intros pre [i j] post m E IH. pose proof (comb2_iter o 58 (mnodes ini) i j Ho) as [Hij _].
        destruct Hij as (Hi & Hj & Hne); [rewrite E; set_solver +|].
        eapply returns_bind; [by apply m_is_connected_pag|]. cbn beta. intros b Hb. cbn [returns]. intros a k b' Hin Hk.
        rewrite !elem_of_app, !elem_of_list_singleton in Hin. assert (mg_adj ini a b') as Hadj by by exists k.
        destruct b.
        * destruct (decide ((j, i) = (a, b'))) as [[= <- <-]|N1]; [rewrite lookup_insert; f_equal; by apply get_edge_mark_some|].
          rewrite lookup_insert_ne by done.
          destruct (decide ((i, j) = (a, b'))) as [[= <- <-]|N2]; [rewrite lookup_insert; f_equal; by apply get_edge_mark_some|].
          rewrite lookup_insert_ne by done. apply IH; [|done]. destruct Hin as [[?|?]|[?|?]]; [by left|by destruct N2|by right|simplify_eq].
        * apply IH; [|done]. destruct Hin as [[?|?]|[?|?]]; [by left| |by right|]; simplify_eq; exfalso.
          -- by apply Hb in Hadj.
          -- apply mg_adj_sym in Hadj; [|done]. by apply Hb in Hadj.
    - cbn beta. intros m H a k b Hk. apply (H a k b); [|done]. pose proof (mgw_in _ Wi _ _ _ Hk) as (? & ? & ?). by apply comb2_iter.
  Qed.

  Lemma past_dec a b : a ∈ V → b ∈ V → past_of NS a b ∨ ¬ past_of NS a b.
  Proof.
    intros (ta & i & Ha)%node_at (tb & j & Hb)%node_at. destruct (decide (tb < ta)) as [Hlt|Hn].
    - left. exists ta, tb. split; [by exists i|]. split; [by exists j|done].
    - right. intros (ta' & tb' & [i' Ha'] & [j' Hb'] & Hlt'). destruct (at_unique NS W _ _ _ _ _ Ha Ha') as [-> _].
      destruct (at_unique NS W _ _ _ _ _ Hb Hb') as [-> _]. done.
  Qed.
  (** what the learner starts from *)
  Definition initial (ini : option mgraph) (g : mgraph) : Prop := match ini with
    | Some h => ∀ a k b, has_mark g a k b ↔ has_mark h a k b
    | None => ∀ a k b, has_mark g a k b ↔ a ∈ V ∧ b ∈ V ∧ a ≠ b ∧ (k = Directed ∧ past_of NS a b ∨ k = Circle ∧ ¬ past_of NS a b)
    end.
  Lemma ts_init_ok (ini : option mgraph) : (∀ h, ini = Some h → mg_wf h ∧ mnodes h = V) →
    returns (ts_init NS o ini) (λ r : icd_state * fixmap,
      mnodes (ls_graph (ic_ls r.1)) = V ∧ mg_wf (ls_graph (ic_ls r.1)) ∧ initial ini (ls_graph (ic_ls r.1)) ∧
      ls_sep (ic_ls r.1) = sep_init o V ∧ ls_log (ic_ls r.1) = [] ∧ ic_done r.1 = false ∧ ic_size r.1 = 0 ∧
      ∀ a k b, has_mark (ls_graph (ic_ls r.1)) a k b → r.2 !! (a, b) = Some (Some k)).
  Proof.
    intros Hini. unfold ts_init. pose proof (wi_two _ W) as H2. rewrite (bool_decide_true (1 < length NS)) by lia. cbn [assert_ mbind res_bind].
    destruct (wi_same _ W) as (m & Hm). assert (∃ l0 ls, NS = l0 :: ls ∧ length l0 = m) as (l0 & ls & ENS & Hl0).
    { destruct NS as [|l0 ls] eqn:E; [cbn in H2; lia|]. exists l0, ls. split; [done|]. apply Hm. apply elem_of_list_here. }
    assert (match NS with l :: _ => Ok (length l) | [] => Raise IndexError end = Ok m) as -> by by rewrite ENS, Hl0. cbn [mbind res_bind].
    assert (forallb (λ l : list node, bool_decide (length l = m)) NS = true) as ->.
    { apply forallb_forall. intros l Hl. apply bool_decide_eq_true, Hm. by apply elem_of_list_In. }
    cbn [assert_ mbind res_bind]. change (list_to_set (concat NS) : nset) with V.
    assert (size V = length NS * m) as Hsz.
    { unfold win_nodes. rewrite size_list_to_set by apply W. clear -Hm. induction NS as [|l ls IH]; [done|]. cbn [concat length].
      rewrite app_length, IH, (Hm l); [lia|apply elem_of_list_here|]. intros l' H. apply Hm. by apply elem_of_list_further. }
    rewrite bool_decide_true by done. cbn [assert_ mbind res_bind].
    set (s := icd_init o V). pose proof (ls_init_inv o (λ _ _ _ _, false) V Ho) as I0.
    destruct (empty_graph_ok (ls_graph (ic_ls s)) (li_wf _ _ _ I0)) as [We Ae].
    eapply returns_bind.
    - instantiate (1 := λ g, mnodes g = V ∧ mg_wf g ∧ initial ini g). destruct ini as [h|].
      + cbn [returns]. destruct (Hini h eq_refl) as [? ?]. by split_and!.
      + eapply returns_mono; [apply ts_default_ok|]. cbn beta. done.
    - cbn beta. intros g (N & Wg & Hg). eapply returns_bind; [apply ts_copy_ok; [done|exact We|by rewrite N|exact Ae]|].
      cbn beta. intros h (Nh & Wh & Mh). eapply returns_bind; [by apply ts_fixed_ok|]. cbn beta. intros fx Hfx. cbn [returns ic_ls ls_graph ls_sep ls_log ic_done ic_size fst snd].
      split; [by rewrite Nh|]. split; [done|]. split.
      + destruct ini; cbn [initial] in *; intros a k b; by rewrite Mh, Hg.
      + split; [done|]. split; [done|]. split; [done|]. split; [done|]. intros a k b Hk. by apply Hfx, Mh.
  Qed.
End init.

Section learn.
  Context (NS : list (list node)) (W : window NS) (o : order) (Ho : iter_ok o) (ci : citest) (A : node → node → Prop).
  Notation V := (win_nodes NS).
  Notation fixmap := (gmap (nat * nat) (option mark)).
  Context (fx : fixmap) (P : node → node → Prop) (SP : stationary NS P).
  Context (Hfx : fix_ok fx A) (HP : ∀ a b, A a b → P a b → fx !! (a, b) = Some (Some Directed)).
  Context (sb tc : bool) (fuel : nat) (Hf : size V * size V + size V + 2 < fuel) (Hnear : near NS ci).

  Record tsl_inv (s : icd_state) : Prop := {
    tl_inv : ts_inv NS ci A (ic_ls s);
    tl_cov : 0 < ic_size s → cov NS (ls_log (ic_ls s));
    tl_out : 0 < ic_size s → out_ok NS P (ls_graph (ic_ls s));
    tl_grow : growing (ls_log (ic_ls s));
    tl_bound : bounded_log (ic_size s) (ls_log (ic_ls s));
  }.

  Lemma ts_iteration_inv precalc s : ic_done s = false → tsl_inv s →
    returns (ts_iteration NS o ci true sb tc precalc fuel fx s) (λ r, tsl_inv r.1 ∧ ls_le (ic_ls s) (ic_ls r.1) ∧
      ic_size r.1 = S (ic_size s) ∧ r.2 = (ic_done r.1, ic_size s) ∧ (ic_size s = 0 → ic_done r.1 = false) ∧
      (ic_done r.1 = false → S (ic_size s) < 2 `max` size V)).
  Proof.
    intros Hd I. eapply returns_mono; [eapply ts_iteration_ok; [done|done|exact SP|done|done|done|done|done|apply I|apply I]|]. cbn beta.
    intros [t [d n]] (It & Hct & Hle & Hout & Hsz & Hr & q & Ha & H0 & H1). cbn [fst snd] in *.
    destruct (growing_asks _ _ _ _ (tl_bound _ I) (tl_grow _ I) Ha) as [Hg Hb].
    split; [constructor; [done|done|done|done|by rewrite Hsz]|]. split; [done|]. split; [done|]. split; [done|]. split; [done|].
    intros Hdt. destruct (ic_size s) as [|r] eqn:Er; [lia|]. assert (q = true) as -> by (rewrite H1; [by rewrite Hdt|lia]).
    destruct Ha as (l & El & Hl & Hne). assert (l ≠ []) as Hne' by by apply Hne. destruct l as [|[[[i j] c] b] l]; [done|].
    assert (length c = S r) as Hc by (apply (Hl i j c b), elem_of_list_here).
    assert ((i, j, c, b) ∈ ls_log (ic_ls t)) as Hin by (rewrite El; apply elem_of_list_here).
    apply (ti_log _ _ _ _ It) in Hin as (Hi & Hj & Hij & Hnd & Hz). pose proof (cond_size V i j c Hi Hj Hij Hnd Hz). lia.
  Qed.

  Lemma ts_loop_ok precalc : ∀ n s, ic_done s = false → tsl_inv s → ic_size s < 2 `max` size V → 2 `max` size V ≤ n + ic_size s →
    returns (ts_loop NS o ci true sb tc precalc fuel fx n s) (λ t, tsl_inv t ∧ ic_done t = true ∧
      ic_size s < ic_size t ≤ 2 `max` size V ∧ (ic_size s = 0 → 2 ≤ ic_size t)).
  Proof.
    intros n. induction n as [|n IH]; intros s Hd I Hr Hn; [lia|]. cbn [ts_loop].
    eapply returns_bind; [by apply ts_iteration_inv|]. cbn beta. intros [t [d m]] (It & Hle & Hsz & Hr' & Hd0 & Hmore). cbn [fst snd] in *.
    injection Hr' as -> ->. destruct (ic_done t) eqn:Edt.
    - cbn [returns]. split; [done|]. split; [done|]. split; [lia|]. intros E0. by specialize (Hd0 E0).
    - eapply returns_mono; [apply IH; [done|done|rewrite Hsz; by apply Hmore|lia]|]. cbn beta. intros u (Iu & Hdu & Hru & _).
      split; [done|]. split; [done|]. lia.
  Qed.

  Lemma ts_learn_ok precalc s : tsl_inv (IcdState (ic_ls s) (ic_cond s) false 0) →
    returns (ts_learn NS o ci true sb tc precalc fuel fx s) (λ t, tsl_inv t ∧ ic_done t = true ∧ 2 ≤ ic_size t ≤ 2 `max` size V).
  Proof.
    intros I. unfold ts_learn. assert (size V ≤ size V * size V) by (destruct (size V); lia).
    eapply returns_mono; [apply ts_loop_ok; [done|exact I|cbn; lia|cbn; lia]|]. cbn beta. intros t (It & Hd & Hr & H0).
    split; [done|]. split; [done|]. split; [by apply H0|apply Hr].
  Qed.
End learn.

Section whole.
  Context (NS : list (list node)) (W : window NS) (o : order) (Ho : iter_ok o).
  Notation V := (win_nodes NS).
  Notation fixmap := (gmap (nat * nat) (option mark)).

  Lemma past_stationary : stationary NS (past_of NS).
  Proof.
    assert (∀ a b c d, same_lag NS a b c d → past_of NS a b → past_of NS c d) as H.
    { intros a b c d (ta & i & tb & j & tc & td & Ha & Hb & Hc & Hd & E)%(same_lag_at NS) (ta' & tb' & [i' Ha'] & [j' Hb'] & Hlt).
      destruct (at_unique NS W _ _ _ _ _ Ha Ha') as [-> ->]. destruct (at_unique NS W _ _ _ _ _ Hb Hb') as [-> ->].
      exists tc, td. split; [by exists i'|]. split; [by exists j'|lia]. }
    intros a b c d Hs. split; apply H; [done|by apply same_lag_sym].
  Qed.
  Lemma complete_stationary : stationary NS (λ a b, a ∈ V ∧ b ∈ V ∧ a ≠ b).
  Proof.
    intros a b c d Hs. destruct (same_lag_nodes NS _ _ _ _ Hs) as (? & ? & ? & ?).
    assert (a = b ↔ c = d) as Heq; [|tauto]. apply (same_lag_at NS) in Hs as (ta & i & tb & j & tc & td & Ha & Hb & Hc & Hd & E). split.
    - intros <-. destruct (at_unique NS W _ _ _ _ _ Ha Hb) as [-> ->]. assert (tc = td) as -> by lia. exact (at_fun NS _ _ _ _ Hc Hd).
    - intros <-. destruct (at_unique NS W _ _ _ _ _ Hc Hd) as [-> ->]. assert (ta = tb) as -> by lia. exact (at_fun NS _ _ _ _ Ha Hb).
  Qed.
  (** arrowheads present at all times *)
  Definition always (h : mgraph) (a b : node) : Prop := ∀ c d, same_lag NS a b c d → has_mark h c Directed d.
  Lemma always_stationary h : stationary NS (always h).
  Proof.
    intros a b c d Hs. unfold always. split; intros H e f Hs'; apply H; (eapply same_lag_trans; [exact W| |exact Hs']); [done|by apply same_lag_sym].
  Qed.

  Lemma start_inv ci (s : icd_state) : mnodes (ls_graph (ic_ls s)) = V → mg_wf (ls_graph (ic_ls s)) → stationary NS (mg_adj (ls_graph (ic_ls s))) →
    ls_sep (ic_ls s) = sep_init o V → ls_log (ic_ls s) = [] → ts_inv NS ci (mg_adj (ls_graph (ic_ls s))) (ic_ls s).
  Proof.
    intros N Wg St Es El. constructor; rewrite ?Es, ?El; try done.
    - intros a b Ha Hb Hne. rewrite sep_init_spec by done. by eexists.
    - intros l1 l2 i j c b H. by destruct l1.
    - intros i j c b H. by apply elem_of_nil in H.
    - intros i j c b H. by apply elem_of_nil in H.
    - intros i j c H. by apply elem_of_nil in H.
  Qed.
  Lemma start_tsl ci P (s : icd_state) : ts_inv NS ci (mg_adj (ls_graph (ic_ls s))) (ic_ls s) → ls_log (ic_ls s) = [] →
    tsl_inv NS ci (mg_adj (ls_graph (ic_ls s))) P (IcdState (ic_ls s) (ic_cond s) false 0).
  Proof.
    intros I El. constructor; cbn [ic_ls ic_size]; rewrite ?El; try done; try lia.
    - intros l1 ? ? ? ? l2 ? ? ? ? l3 E. by destruct l1.
    - intros ???? H. by apply elem_of_nil in H.
  Qed.

  (** the whole run: from a complete graph (None) or an initial graph *)
  Lemma ts_run_ok ci P ini sb tc precalc fuel : size V * size V + size V + 2 < fuel → near NS ci → stationary NS P →
    (∀ h, ini = Some h → mg_wf h ∧ mnodes h = V ∧ stationary NS (mg_adj h)) →
    (∀ g, initial NS ini g → ∀ a b, mg_adj g a b → P a b → has_mark g a Directed b) →
    returns (r ← ts_init NS o ini; t ← ts_learn NS o ci true sb tc precalc fuel r.2 r.1; Ok (r.1, t)) (λ u,
      initial NS ini (ls_graph (ic_ls u.1)) ∧
      ts_justified NS ci (mg_adj (ls_graph (ic_ls u.1))) (ls_graph (ic_ls u.2)) (ls_sep (ic_ls u.2)) (ls_log (ic_ls u.2)) ∧
      (∀ k, stationary NS (λ a b, has_mark (ls_graph (ic_ls u.2)) a k b)) ∧
      (∀ a b, mg_adj (ls_graph (ic_ls u.2)) a b → P a b → has_mark (ls_graph (ic_ls u.2)) a Directed b) ∧
      growing (ls_log (ic_ls u.2)) ∧ cov NS (ls_log (ic_ls u.2))).
  Proof.
    intros Hf Hn SP Hini HP. eapply returns_bind; [apply ts_init_ok; [done|done|]|].
    { intros h E. destruct (Hini h E) as (? & ? & _). done. }
    cbn beta. intros [s fx] (N & Wg & Hi & Es & El & _ & _ & Hfx). cbn [fst snd] in *.
    assert (stationary NS (mg_adj (ls_graph (ic_ls s)))) as St.
    { destruct ini as [h|]; cbn [initial] in Hi.
      - destruct (Hini h eq_refl) as (_ & _ & Hst). intros a b c d Hs. unfold mg_adj. setoid_rewrite Hi. by apply Hst.
      - assert (∀ a b, mg_adj (ls_graph (ic_ls s)) a b ↔ a ∈ V ∧ b ∈ V ∧ a ≠ b) as Hc.
        { intros a b. unfold mg_adj. setoid_rewrite Hi. split; [by intros (k & ? & ? & ? & _)|]. intros (? & ? & ?).
          destruct (past_dec NS W a b); [done|done|exists Directed|exists Circle]; tauto. }
        intros a b c d Hs. rewrite !Hc. by apply complete_stationary. }
    pose proof (start_inv ci s N Wg St Es El) as I0.
    eapply returns_bind; [eapply (ts_learn_ok NS W o Ho ci (mg_adj (ls_graph (ic_ls s))) fx P SP); [| |done|done|by apply start_tsl]|].
    - intros a b (k & Hk). exists k. by apply Hfx.
    - intros a b Hab Hp. apply Hfx. by apply HP.
    - cbn beta. intros t (It & _ & Hr). cbn [returns fst snd]. split; [done|].
      destruct (tl_out _ _ _ _ _ It) as [O1 O2]; [lia|]. split; [apply ts_inv_justified, It|].
      split; [done|]. split; [done|]. split; [apply It|]. apply It. lia.
  Qed.
End whole.
