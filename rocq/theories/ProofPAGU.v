(** PAG collider orientation and the soundness of collider orientation followed by rules 1-9. *)
From Verif Require Import Base BaseLemmas ModelGraph Spec Paths.
From Verif Require Import ModelMixed ModelPC ModelPAG SpecMixed SpecPAG ProofMixed ProofMixed2 ProofPAG ProofPAG2.
From Verif Require Import ProofPAGR ProofPAGR2 ProofPAGS ProofPAGT.

Lemma sep_fun_sym sep a b : sep_fun sep a b = sep_fun sep b a.
Proof. unfold sep_fun, sep_get. replace (hkey b a) with (hkey a b); [done|]. unfold hkey. destruct (decide (a < b)), (decide (b < a)); try done; [lia|]. assert (a = b) as -> by lia. done. Qed.

Section vs.
  Context (o : order) (Ho : iter_ok o) (sep : sepset) (g : mgraph) (Hwf : mg_wf g) (Hs : sep_total sep g).
  Let SC := sep_collider g (sep_fun sep).
  Definition vinv (Q : node → node → node → Prop) (h : mgraph) : Prop :=
    mg_wf h ∧ mnodes h = mnodes g ∧ (∀ a b, mg_adj h a b ↔ mg_adj g a b) ∧
    (∀ a b, has_mark h a Directed b → has_mark g a Directed b ∨ SC a b) ∧
    (∀ a k b, k ≠ Directed → has_mark h a k b → has_mark g a k b) ∧
    (∀ a b, has_mark g a Directed b → has_mark h a Directed b) ∧
    (∀ x z y, Q x z y → mg_adj g x z → mg_adj g y z → x ≠ y → ¬ mg_adj g x y → (∃ Z, sep_fun sep x y = Some Z ∧ z ∉ Z) → has_mark h x Directed z ∧ has_mark h y Directed z).

  Lemma vinv_impl (Q Q' : node → node → node → Prop) h : (∀ x z y, Q' x z y → mg_adj g x z → mg_adj g y z → x ≠ y → Q x z y ∨ Q y z x) → vinv Q h → vinv Q' h.
  Proof.
    intros HQ (H1 & H2 & H3 & H4 & H5 & H6 & H7). split_and!; try done. intros x z y Hq Hx Hy Hne Hn (Z & HZ & Hz).
    destruct (HQ _ _ _ Hq Hx Hy Hne) as [Hq'|Hq']; [by apply (H7 x z y); eauto|]. destruct (H7 y z x) as [? ?]; try done.
    - intros ?. apply Hn. by apply mg_adj_sym.
    - exists Z. by rewrite sep_fun_sym.
  Qed.

  Lemma vinv_orient Q h x z : vinv Q h → SC x z → vinv Q (replace_mark_ PAG_T h x z Directed).
  Proof.
    intros (H1 & H2 & H3 & H4 & H5 & H6 & H7) HC.
    assert (mg_adj h x z) as Hxz by (destruct HC as (c & Z & ? & _); by apply H3).
    assert (∀ a b, has_mark h a Directed b → has_mark (replace_mark_ PAG_T h x z Directed) a Directed b) as Hk.
    { intros a b Hab. rewrite replace_mark_spec. destruct (decide (a = x ∧ b = z)) as [[-> ->]|]; [by left|by right]. }
    split_and!.
    - by apply mg_wf_replace.
    - by rewrite replace_mark_nodes.
    - intros a b. rewrite <-H3. unfold mg_adj. setoid_rewrite replace_mark_spec.
      destruct (decide (a = x ∧ b = z)) as [[-> ->]|Hne].
      + split; [done|]. intros _. exists Directed. by left.
      + split; intros (k & Hk'); exists k; [|by right]. destruct Hk' as [(-> & -> & ->)|[? ?]]; [by destruct Hne|done].
    - intros a b. rewrite replace_mark_spec. intros [(-> & -> & _)|[_ ?]]; [by right|by apply H4].
    - intros a k b Hkd. rewrite replace_mark_spec. intros [(_ & _ & ->)|[_ ?]]; [done|by apply H5].
    - intros a b Hab. by apply Hk, H6.
    - intros a c b ??????. destruct (H7 a c b) as [? ?]; try done. split; by apply Hk.
  Qed.

  Lemma v_structures_inv : returns (pag_v_structures o g sep) (vinv (λ x z y, True)).
  Proof.
    unfold pag_v_structures.
    assert (vinv (λ x z y, False) g) as H0 by (split_and!; try done; tauto).
    eapply returns_mono; [apply (for_returns_pre _ _ _ (λ pre, vinv (λ x z y, z ∈ pre)))|].
    - eapply vinv_impl; [|exact H0]. intros x z y Hz. by apply elem_of_nil in Hz.
    - intros pre z post h E Hh.
      eapply returns_mono; [apply (for_returns_pre _ _ _ (λ pq, vinv (λ x z' y, z' ∈ pre ∨ (z' = z ∧ (x, y) ∈ pq))))|].
      + eapply vinv_impl; [|exact Hh]. intros x z' y [Hz|[_ Hz]]; [by left|by apply elem_of_nil in Hz].
      + intros pq [x y] qost k E2 Hk.
        assert ((x, y) ∈ comb2 (o 772 (find_adj PAG_T h z None None))) as Hxy by (rewrite E2; set_solver +).
        apply comb2_iter in Hxy as (Hx & Hy & Hne); [|done]. rewrite elem_find_adj_pag in Hx, Hy.
        destruct Hh as (_ & _ & Hha & _). apply proj1 in Hx, Hy. apply Hha in Hx, Hy.
        pose proof Hk as (K1 & K2 & K3 & _).
        eapply returns_bind; [by apply m_is_connected_pag|]. cbn beta. intros b Hb. rewrite K3 in Hb. destruct b; simpl.
        * eapply vinv_impl; [|]; [intros x' z' y' Hq; left; exact Hq|].
          destruct Hk as (? & ? & ? & ? & ? & ? & H7). split_and!; try done.
          intros x' z' y' [?|[-> Hq]]; [apply H7; by left|]. apply elem_of_app in Hq as [Hq|Hq]; [apply H7; right; done|].
          apply elem_of_list_singleton in Hq. simplify_eq. intros _ _ _ Hn. exfalso. by apply Hn, Hb.
        * assert (¬ mg_adj g x y) as Hn by (intros Hxy; by apply Hb in Hxy).
          assert (x ∈ mnodes g ∧ y ∈ mnodes g) as [Vx Vy].
          { destruct Hx as [k1 Hx], Hy as [k2 Hy]. apply (mgw_in _ Hwf) in Hx as (? & _), Hy as (? & _). done. }
          destruct (Hs x y Vx Vy Hne Hn) as [Z HZ]. rewrite HZ. cbn [mbind res_bind].
          assert (sep_fun sep x y = Some Z) as HZ' by (unfold sep_fun; by rewrite HZ).
          assert (∀ h', vinv (λ x z' y, z' ∈ pre ∨ z' = z ∧ (x, y) ∈ pq) h' →
            (z ∉ Z → has_mark h' x Directed z ∧ has_mark h' y Directed z) →
            vinv (λ x1 z' y1, z' ∈ pre ∨ z' = z ∧ (x1, y1) ∈ pq ++ [(x, y)]) h') as Hadd.
          { intros h' (? & ? & ? & ? & ? & ? & H7) Hz. split_and!; try done.
            intros x' z' y' [?|[-> Hq]]; [apply H7; by left|]. apply elem_of_app in Hq as [Hq|Hq]; [apply H7; right; done|].
            apply elem_of_list_singleton in Hq. injection Hq as -> ->. intros _ _ _ _ (Z' & HZ'' & ?). apply Hz. congruence. }
          destruct (decide (z ∈ Z)) as [HzZ|HzZ]; [by apply Hadd|].
          rewrite !replace_edge_mark_ok. cbn [mbind res_bind returns]. rewrite ?replace_edge_mark_ok. cbn [mbind res_bind returns].
          assert (mg_adj g x z) as Axz by done.
          assert (SC x z) as C1 by (exists y, Z; done).
          assert (SC y z) as C2.
          { exists x, Z. split_and!; try done; [intros ?; apply Hn; by apply mg_adj_sym|by rewrite sep_fun_sym]. }
          apply Hadd; [apply vinv_orient; [by apply vinv_orient|done]|]. intros _. rewrite !replace_mark_spec.
          split; [right|left; done]. split; [by intros [? _]|]. by left.
      + cbn beta. intros k Hk. eapply vinv_impl; [|exact Hk].
        destruct Hh as (_ & _ & Hha & _).
        intros x z' y Hz Hx Hy Hne. apply elem_of_app in Hz as [Hz|Hz]; [left; by left|]. apply elem_of_list_singleton in Hz as ->.
        assert (∀ v, mg_adj g v z → v ∈ find_adj PAG_T h z None None) as Hin.
        { intros v Hv. apply elem_find_adj_pag. split; [by apply Hha|done]. }
        destruct (proj2 (comb2_iter o 772 _ x y Ho) (Hin _ Hx) (Hin _ Hy) Hne); [left|right]; by right.
    - cbn beta. intros h Hh. eapply vinv_impl; [|exact Hh]. intros x z y _ [k Hk] _ _. left. apply iter_elem; [done|].
      by apply (mgw_in _ Hwf) in Hk as (_ & ? & _).
  Qed.

  Theorem v_structures_ok : returns (pag_v_structures o g sep) (λ h, mg_wf h ∧ mnodes h = mnodes g ∧
    (∀ a b, mg_adj h a b ↔ mg_adj g a b) ∧
    (∀ a b, has_mark h a Directed b ↔ has_mark g a Directed b ∨ SC a b) ∧
    (∀ a k b, k ≠ Directed → has_mark h a k b ↔ has_mark g a k b ∧ ¬ SC a b)).
  Proof.
    eapply returns_mono; [apply v_structures_inv|]. intros h (H1 & H2 & H3 & H4 & H5 & H6 & H7).
    assert (∀ a b, SC a b → has_mark h a Directed b) as H8.
    { intros a b (c & Z & Hab & Hcb & Hne & Hn & HZ & Hb). destruct (H7 a b c) as [? _]; try done. by exists Z. }
    split_and!; try done.
    - intros a b. split; [apply H4|]. intros [?|?]; [by apply H6|by apply H8].
    - intros a k b Hk. split.
      + intros Ha. split; [by apply H5|]. intros HC. apply H8 in HC. by pose proof (mgw_one _ H1 _ _ _ _ Ha HC).
      + intros [Ha HC]. assert (mg_adj h a b) as [k' Hk'] by (apply H3; by exists k). destruct (decide (k' = Directed)) as [->|Hne].
        * apply H4 in Hk' as [Hk'|?]; [|done]. by pose proof (mgw_one _ Hwf _ _ _ _ Ha Hk').
        * pose proof (H5 _ _ _ Hne Hk') as Hk2. by pose proof (mgw_one _ Hwf _ _ _ _ Ha Hk2) as ->.
  Qed.
End vs.

(** the separation sets of an ancestral graph *)
Lemma separating_total m g sep : mnodes m = mnodes g → (∀ a b, mg_adj m a b ↔ mg_adj g a b) → separating m (sep_fun sep) → sep_total sep g.
Proof.
  intros Hn Ha HS x y Hx Hy Hne Hxy. rewrite <-Hn in Hx, Hy. destruct (HS x y Hx Hy Hne) as (Z & HZ & _); [by rewrite Ha|].
  exists Z. unfold sep_fun in HZ. by destruct (sep_get sep x y); simplify_eq.
Qed.

Section vsound.
  Context (o : order) (Ho : iter_ok o) (sep : sepset) (m g : mgraph) (A : ancestral m) (Hwf : mg_wf g) (R : reflects m g) (HS : separating m (sep_fun sep)).

  Lemma sep_coll_m a b : sep_collider g (sep_fun sep) a b → ∃ c, a ≠ c ∧ ¬ mg_adj m a c ∧ m_collider m a b c.
  Proof.
    intros (c & Z & Hab & Hcb & Hne & Hn & HZ & Hb). rewrite <-(rl_adj _ _ R) in Hab, Hcb, Hn. exists c. split_and!; try done.
    assert (mg_adj m b c) as Hbc by (apply mg_adj_sym; [apply A|done]).
    destruct (decide (a ∈ mset m b Directed)) as [H1|H1], (decide (c ∈ mset m b Directed)) as [H2|H2]; [by split|..];
    destruct Hb; apply (sep_unshielded m (sep_fun sep) A HS a b c Z); try done; intros [? ?]; done.
  Qed.

  Lemma v_structures_compat : returns (pag_v_structures o g sep) (λ h, mg_wf h ∧ compat m h (sep_fun sep)).
  Proof.
    assert (sep_total sep g) as Ht by (eapply separating_total; [apply R|apply R|done]).
    eapply returns_mono; [by apply v_structures_ok|]. cbn beta. intros h (H1 & H2 & H3 & H4 & H5). split; [done|]. split.
    - done.
    - rewrite H2. apply R.
    - intros a b. rewrite H3. apply R.
    - intros a k b Hk Hab. destruct (decide (k = Directed)) as [->|Hne].
      + apply H4 in Hab as [Hab|Hab]; [by apply R|]. by apply sep_coll_m in Hab as (c & _ & _ & ? & _).
      + apply H5 in Hab as [Hab _]; [|done]. by apply R.
    - intros a b c Hne Hn [Ha Hc]. apply H4. right.
      assert (a ∈ mnodes m ∧ c ∈ mnodes m) as [Va Vc].
      { apply (mgw_in _ (an_wf _ A)) in Ha as (? & _), Hc as (? & _). done. }
      destruct (HS a c Va Vc Hne Hn) as (Z & HZ & _). exists c, Z. rewrite <-!(rl_adj _ _ R). split_and!; try done; try by eexists.
      assert (mg_adj m b c) as Hbc by (apply mg_adj_sym; [apply A|by eexists]).
      intros Hb. apply (sep_unshielded m (sep_fun sep) A HS a b c Z) in Hb; try done; [|by eexists]. by apply Hb.
    - intros d q b c Z. by apply sep_disc.
  Qed.

  Lemma fci_orient_compat fuel rules : size (mnodes g) * size (mnodes g) + 2 < fuel → (∀ i, i ∈ rules → 1 ≤ i ≤ 9) →
    returns (h ← pag_v_structures o g sep; pag_orient o fuel sep h (Some rules)) (λ h, mg_wf h ∧ compat m h (sep_fun sep)).
  Proof.
    intros Hf Hr. eapply returns_bind; [apply v_structures_compat|]. cbn beta. intros h [Hh C].
    assert (sep_total sep h) as Ht by (eapply separating_total; [apply C|apply C|done]).
    assert (mnodes h = mnodes g) as En by (rewrite <-(cp_nodes _ _ _ C); apply R).
    eapply returns_mono; [apply pag_orient_ok; try done; [by rewrite En|]|].
    { simpl. intros i Hi. apply Hr in Hi. unfold rule_no. lia. }
    cbn beta. simpl. intros k (Hst & _ & _). split; [by eapply stale_refines; [apply Pany_good|done..]|].
    eapply stale_sound; [apply (Pany_good sep rules)|done|apply sound_any; [done|]|done|done]. intros i Hi ->. apply Hr in Hi. lia.
  Qed.

  Theorem fci_orient_sound fuel rules : size (mnodes g) * size (mnodes g) + 2 < fuel → (∀ i, i ∈ rules → 1 ≤ i ≤ 9) →
    returns (h ← pag_v_structures o g sep; pag_orient o fuel sep h (Some rules)) (λ h, reflects m h ∧
      ∀ a b c, mg_adj h a b → mg_adj h b c → a ≠ c → ¬ mg_adj h a c → m_collider h a b c ↔ m_collider m a b c).
  Proof.
    intros Hf Hr. eapply returns_mono; [by apply fci_orient_compat|]. cbn beta. intros k [_ Ck].
    split; [split; apply Ck|]. intros a b c Hab Hbc Hne Hn. rewrite <-(cp_adj _ _ _ Ck) in Hn. split.
    - intros [H1 H2]. split; by apply (cp_marks _ _ _ Ck).
    - intros Hcol. split; [by eapply (cp_coll _ _ _ Ck a b c)|]. destruct Hcol. eapply (cp_coll _ _ _ Ck c b a); [by apply not_eq_sym| |by split].
      intros ?. apply Hn. apply mg_adj_sym; [apply A|done].
  Qed.
End vsound.
