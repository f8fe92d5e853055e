(** Rules 4, 5, 9 and 10 of PAG, which search for paths. *)
From Verif Require Import Base BaseLemmas ModelGraph ModelMixed ModelPC ModelPAG Spec SpecMixed SpecPAG SpecPC Paths ProofMixed ProofMixed2 ProofPAG ProofPAGR.

Definition P9 : pattern := λ h _ acts, ∃ a b d c p, has_mark h a Directed c ∧ has_mark h c Circle a ∧ pd_edge h a b ∧ pd_edge h d c ∧
  ¬ mg_adj h b c ∧ b ≠ d ∧ uncovered_path_spec h (pd_edge h) (mnodes h) a c b d p ∧ acts = [(c, a, Tail)].
Lemma P9_good : good P9.
Proof. intros h k acts Hwf R (a & b & d & c & p & _ & H & _ & _ & _ & _ & _ & ->). constructor; [|constructor]. by eapply act_tail. Qed.
(** rule 10 as implemented: the paths are uncovered, but their edges are arbitrary *)
Definition P10 : pattern := λ h _ acts, ∃ a b c d e f, has_mark h a Directed c ∧ has_mark h c Circle a ∧ dir_edge h b c ∧ dir_edge h d c ∧ b ≠ d ∧
  pd_edge h a e ∧ pd_edge h a f ∧ e ≠ f ∧ ¬ mg_adj h e f ∧
  (e = b ∨ ∃ p, uncovered_path_spec h (mg_adj h) (mnodes h) a c e b p) ∧
  (f = d ∨ ∃ p, uncovered_path_spec h (mg_adj h) (mnodes h) a c f d p) ∧ acts = [(c, a, Tail)].
Lemma P10_good : good P10.
Proof. intros h k acts Hwf R (a & b & c & d & e & f & _ & H & _ & _ & _ & _ & _ & _ & _ & _ & _ & ->). constructor; [|constructor]. by eapply act_tail. Qed.

Definition P4 (sep : sepset) : pattern := λ h k acts, ∃ d q a b c Z, has_mark h c Circle b ∧ discriminating k d q b c ∧ last q = Some a ∧
  sep_get sep d c = Ok Z ∧
  ((b ∈ Z ∧ acts = [(b, c, Directed); (c, b, Tail)]) ∨
   (b ∉ Z ∧ acts = [(b, a, Directed); (a, b, Directed); (b, c, Directed); (c, b, Directed)])).
Lemma disc_last_adj g d q a b c : discriminating g d q b c → last q = Some a → mg_adj g a b.
Proof.
  intros D Hl. apply last_Some in Hl as [q' ->]. apply (dp_linked _ _ _ _ _ D (d :: q') a b [c]). by simplify_list_eq.
Qed.
Lemma P4_good sep : good (P4 sep).
Proof.
  intros h k acts Hwf R (d & q & a & b & c & Z & H & HD & Hl & _ & HA).
  assert (mg_adj h c b) as H1 by by eexists. assert (mg_adj h b c) as H2 by by apply mg_adj_sym.
  destruct HA as [[_ ->]|[_ ->]].
  - constructor; [by apply act_dir|]. constructor; [|constructor]. by eapply act_tail.
  - assert (mg_adj h a b) as H3. { apply (rf_adj _ _ R). by eapply disc_last_adj. }
    assert (mg_adj h b a) by by apply mg_adj_sym.
    repeat (constructor; [by apply act_dir|]). constructor.
Qed.

Definition noarrow (g : mgraph) (x y : node) : Prop := mg_adj g x y ∧ ¬ has_mark g x Directed y ∧ ¬ has_mark g y Directed x.
Record unc_cycle (g : mgraph) (a : node) (p : list node) (b : node) : Prop := {
  uc_linked : linked (noarrow g) (a :: p ++ [b]);
  uc_close : noarrow g a b;
  uc_unc : uncovered g (a :: p ++ [b]);
  uc_nodup : NoDup (a :: p ++ [b]);
  uc_ends : ∃ x mid y, p = x :: mid ++ [y] ∧ ¬ mg_adj g x b ∧ ¬ mg_adj g a y;
}.
Definition cyc_edge (l : list node) (x y : node) : Prop := ∃ l1 l2, l = l1 ++ x :: y :: l2.
Definition P5 : pattern := λ h _ acts, ∃ a p b x y, unc_cycle h a p b ∧
  (cyc_edge (a :: p ++ [b]) x y ∨ cyc_edge (a :: p ++ [b]) y x ∨ (x = a ∧ y = b) ∨ (x = b ∧ y = a)) ∧
  acts = [(x, y, Tail); (y, x, Tail)].
Lemma noarrow_sym g x y : mg_wf g → noarrow g x y → noarrow g y x.
Proof. intros Hwf (? & ? & ?). split_and!; try done. by apply mg_adj_sym. Qed.
Lemma cyc_noarrow g a p b x y : mg_wf g → unc_cycle g a p b →
  (cyc_edge (a :: p ++ [b]) x y ∨ cyc_edge (a :: p ++ [b]) y x ∨ (x = a ∧ y = b) ∨ (x = b ∧ y = a)) → noarrow g x y.
Proof.
  intros Hwf U [(l1 & l2 & E)|[(l1 & l2 & E)|[[-> ->]|[-> ->]]]].
  - by apply (uc_linked _ _ _ _ U l1 x y l2).
  - apply noarrow_sym; [done|]. by apply (uc_linked _ _ _ _ U l1 y x l2).
  - apply U.
  - apply noarrow_sym; [done|]. apply U.
Qed.
Lemma P5_good : good P5.
Proof.
  intros h k acts Hwf R (a & p & b & x & y & U & HE & ->).
  destruct (cyc_noarrow h a p b x y Hwf U HE) as (H1 & H2 & H3).
  assert (mg_adj h y x) by by apply mg_adj_sym.
  constructor; [|constructor; [|constructor]]; unfold act_ok; cbn [fst snd]; split_and!; auto.
Qed.

Section rules.
  Context (o : order) (Ho : iter_ok o) (g : mgraph) (Hwf : mg_wf g).
  Let V := mnodes g.

  Lemma adj_ne a b : mg_adj g a b → a ≠ b.
  Proof. intros [k Hk]. by apply (mgw_in _ Hwf) in Hk as (_ & _ & ?). Qed.
  Lemma adj_in a b : mg_adj g a b → a ∈ mnodes g ∧ b ∈ mnodes g.
  Proof. intros [k Hk]. by apply (mgw_in _ Hwf) in Hk as (? & ? & _). Qed.

  Lemma nodup4 (x y z w : node) : NoDup [x; y; z; w] ↔ x ≠ y ∧ x ≠ z ∧ x ≠ w ∧ y ≠ z ∧ y ≠ w ∧ z ≠ w.
  Proof.
    rewrite !NoDup_cons, !elem_of_cons, !elem_of_nil. split.
    - intros (A & B & C & _). split_and!; intros ->; tauto.
    - intros (? & ? & ? & ? & ? & ?). split; [tauto|]. split; [tauto|]. split; [tauto|]. split; [tauto|]. constructor.
  Qed.

  Lemma uspec_ends E en x y nx ny p : uncovered_path_spec g E en x y nx ny p → NoDup [x; y; nx; ny].
  Proof.
    intros (mid & -> & _ & Hnd & _). rewrite !NoDup_cons. rewrite NoDup_cons in Hnd. destruct Hnd as [Hx Hnd].
    simpl in Hnd. rewrite NoDup_cons in Hnd. destruct Hnd as [Hnx Hnd]. rewrite <-app_assoc in Hnd. apply NoDup_app in Hnd as (_ & _ & Hnd).
    simpl in Hnd. rewrite !NoDup_cons in Hnd. split_and!; [| | |set_solver +|constructor]; set_solver +Hx Hnx Hnd.
  Qed.

  Definition r9_at (a c b d : node) (p : list node) : Prop :=
    has_mark g a Directed c ∧ has_mark g c Circle a ∧ pd_edge g a b ∧ pd_edge g d c ∧ ¬ mg_adj g b c ∧ b ≠ d ∧
          uncovered_path_spec g (pd_edge g) (mnodes g) a c b d p.

  Lemma rule_9_ok fuel : size V + 1 < fuel →
    returns (pag_rule_9 o fuel g) (λ r, stale P9 g r.1 ∧ flag g (¬ r9_applies g) r).
  Proof.
    intros Hf. unfold pag_rule_9.
    set (R := λ (N : Prop) (r : option (node * node)), match r with
       | Some (a, c) => has_mark g c Circle a ∧ P9 g g [(c, a, Tail)] | None => N end).
    eapply returns_bind; [apply (find_returns _ _ (R (¬ r9_applies g)) (λ a, ∀ c b d p, ¬ r9_at a c b d p))|].
    - intros a _.
      eapply returns_mono; [apply (find_returns _ _ (R (∀ c b d p, ¬ r9_at a c b d p)) (λ c, ∀ b d p, ¬ r9_at a c b d p))|].
      3:{ intros [[? ?]|]; cbn; auto. }
      2:{ intros HN c b d p Hall. eapply (HN c); [|exact Hall]. rewrite iter_elem, elem_of_filter by done. by destruct Hall as (? & ? & _). }
      intros c Hc. rewrite iter_elem, elem_of_filter in Hc by done. destruct Hc as [Hac Hca].
      assert (a ≠ c) as Nac by (apply adj_ne; by eexists).
      eapply returns_bind; [apply (filter_returns _ _ (λ b, ¬ mg_adj g b c))|].
      { intros b Hb. rewrite iter_elem, elem_possible_children in Hb by done. cbn [default from_option id] in Hb.
        eapply returns_bind; [apply m_is_connected_pag; [done|set_solver +Hb]|]. cbn beta. intros x Hx. simpl.
        destruct x; simpl; [|]; split; try done; intros H'; [by destruct H'; apply Hx|intros H''; by apply Hx in H'']. }
      cbn beta. intros B HB.
      eapply returns_mono; [apply (find_returns _ _ (R (∀ b d p, ¬ r9_at a c b d p)) (λ b, ∀ d p, ¬ r9_at a c b d p))|].
      3:{ intros [[? ?]|]; cbn; auto. }
      2:{ intros HN b d p Hall. eapply (HN b); [|exact Hall]. rewrite iter_elem, HB, iter_elem, elem_possible_children by done. cbn [default from_option id].
          destruct Hall as (_ & _ & Hab & Hdc & Hbc & _ & Hp). apply uspec_ends in Hp. destruct Hab as [Hab ?].
          apply adj_in in Hab as ?. apply nodup4 in Hp. split; [split|done]; [|done]. rewrite elem_of_difference, elem_of_union, !elem_of_singleton. naive_solver. }
      intros b Hb. rewrite iter_elem, HB, iter_elem, elem_possible_children in Hb by done. cbn [default from_option id] in Hb. destruct Hb as [[Hb Hab] Hbc].
      eapply returns_mono; [apply (find_returns _ _ (R (∀ d p, ¬ r9_at a c b d p)) (λ d, ∀ p, ¬ r9_at a c b d p))|].
      3:{ intros [[? ?]|]; cbn; auto. }
      2:{ intros HN d p Hall. eapply (HN d); [|exact Hall]. rewrite iter_elem, elem_possible_parents by done. cbn [default from_option id].
          destruct Hall as (_ & _ & _ & Hdc & _ & _ & Hp). apply uspec_ends in Hp. pose proof Hdc as [Hdc' _].
          apply adj_in in Hdc' as ?. apply nodup4 in Hp. split; [|done]. rewrite elem_of_difference, !elem_of_union, !elem_of_singleton. naive_solver. }
      intros d Hd. rewrite iter_elem, elem_possible_parents in Hd by done. cbn [default from_option id] in Hd. destruct Hd as [Hd Hdc].
      eapply returns_bind; [apply (uncovered_path_ok o Ho g Hwf _ (pd_edge g) (cond_pd g Hwf))|].
      { by intros u v [? _]. }
      { apply nodup4. split_and!; try done; set_solver +Hb Hd. }
      { enough (size (mnodes g ∖ {[b]}) ≤ size V) by (simpl; lia). apply subseteq_size. set_solver +. }
      cbn beta. intros [p|]; simpl.
      + intros Hp. split; [done|]. exists a, b, d, c, p. split_and!; try done. set_solver +Hd.
      + intros Hp p (_ & _ & _ & _ & _ & _ & Hq). by eapply Hp.
    - intros HN (a & b & d & c & p & Hall). eapply (HN a); [|exact Hall]. destruct Hall as [Hall _].
      rewrite iter_elem by done. by apply (mgw_in _ Hwf) in Hall as (? & _).
    - cbn beta. intros [[a c]|]; cbn [R].
      + intros [Hca HP]. rewrite replace_edge_mark_ok. cbn [mbind res_bind returns fst]. split.
        * apply (stale_step P9 g g g _ (stale_refl _ _) (stale_refl _ _) HP).
        * apply (flag_step g _ g _ (P9_good _ _ _ Hwf (refines_refl _ Hwf) HP) g). exists c, a, Tail. split; [set_solver +|done].
      + intros HN. simpl. split; [constructor|]. by apply flag_start.
  Qed.

  Lemma rule_10_ok fuel : size V + 1 < fuel →
    returns (pag_rule_10 o fuel g) (λ r, stale P10 g r.1 ∧ flag g True r).
  Proof.
    intros Hf. unfold pag_rule_10.
    set (R := λ (r : option (node * node)), match r with
       | Some (a, c) => has_mark g c Circle a ∧ P10 g g [(c, a, Tail)] | None => True end).
    assert (∀ a c e b, a ≠ c → e ∉ ({[a; c]} : nset) → b ∉ ({[a; c]} : nset) →
      returns (find_uncovered_path o fuel g a c e b None None) (λ r, match r with
        Some _ => e = b ∨ ∃ p, uncovered_path_spec g (mg_adj g) (mnodes g) a c e b p | None => True end)) as Hpath.
    { intros a c e b Hac He Hb. destruct (decide (e = b)) as [->|Heb].
      - unfold find_uncovered_path. destruct fuel; [lia|]. cbn [uncovered_path]. destruct (decide (b = b)); [|done]. simpl. by left.
      - eapply returns_mono; [apply (uncovered_path_ok o Ho g Hwf _ (mg_adj g) (cond_connected g Hwf))|].
        + done.
        + apply nodup4. split_and!; try done; set_solver +He Hb.
        + enough (size (mnodes g ∖ {[e]}) ≤ size V) by (simpl; lia). apply subseteq_size. set_solver +.
        + cbn beta. intros [p|]; [|done]. eauto. }
    eapply returns_bind; [apply (find_returns _ _ R (λ _, True)); [|done]|].
    - intros c _. cbn zeta. destruct (decide _) as [_|_]; [done|]. destruct (decide _) as [_|_]; [done|].
      eapply returns_mono; [apply (find_returns _ _ R (λ _, True)); [|done]|by intros [[? ?]|]].
      intros a Ha. rewrite iter_elem, elem_of_filter, edge_is_spec in Ha by done. destruct Ha as [[Hca Hac] Ha].
      destruct (decide _) as [_|_]; [done|].
      eapply returns_mono; [apply (find_returns _ _ R (λ _, True)); [|done]|by intros [[? ?]|]].
      intros [b d] Hbd. apply comb2_iter in Hbd as (Hb & Hd & Hbd); [|done]. rewrite elem_of_filter, edge_is_spec in Hb, Hd.
      destruct Hb as [[Hb1 Hb2] Hb], Hd as [[Hd1 Hd2] Hd].
      assert (a ≠ b). { intros ->. by pose proof (mgw_one _ Hwf _ _ _ _ Hca Hb1). }
      assert (a ≠ d). { intros ->. by pose proof (mgw_one _ Hwf _ _ _ _ Hca Hd1). }
      eapply returns_mono; [apply (find_returns _ _ R (λ _, True)); [|done]|by intros [[? ?]|]].
      intros e He. rewrite iter_elem, elem_possible_children in He by done. cbn [default from_option id] in He. destruct He as [He Hae].
      eapply returns_mono; [apply (find_returns _ _ R (λ _, True)); [|done]|by intros [[? ?]|]].
      intros f Hff. rewrite iter_elem, elem_possible_children in Hff by done. cbn [default from_option id] in Hff. destruct Hff as [Hff Haf].
      destruct (decide (e = f)) as [|Hef]; [done|].
      eapply returns_bind; [by apply m_is_connected_pag|]. cbn beta. intros x Hx. destruct x; [done|].
      eapply returns_bind; [apply Hpath; set_solver|]. cbn beta. intros [p|]; [|done]. intros Hp.
      eapply returns_bind; [apply Hpath; set_solver|]. cbn beta. intros [q|]; [|done]. intros Hq. simpl.
      split; [done|]. exists a, b, c, d, e, f. unfold dir_edge. split_and!; try done. intros H'. by apply Hx in H'.
    - cbn beta. intros [[a c]|]; cbn [R].
      + intros [Hca HP]. rewrite replace_edge_mark_ok. cbn [mbind res_bind returns fst]. split.
        * apply (stale_step P10 g g g _ (stale_refl _ _) (stale_refl _ _) HP).
        * apply (flag_step g _ g _ (P10_good _ _ _ Hwf (refines_refl _ Hwf) HP) g). exists c, a, Tail. split; [set_solver +|done].
      + intros _. simpl. split; [constructor|]. by apply flag_start.
  Qed.

  (** ** rule 4 *)
  Lemma rule_4_ok fuel sep : size V + 1 < fuel →
    (∀ x y, x ∈ V → y ∈ V → x ≠ y → ¬ mg_adj g x y → ∃ Z, sep_get sep x y = Ok Z) →
    returns (pag_rule_4 o fuel sep g) (λ r, stale (P4 sep) g r.1 ∧ flag g (¬ r4_applies g) r).
  Proof.
    intros Hf Hsep. unfold pag_rule_4.
    set (M := λ b c a, ∀ d q, has_mark g c Circle b → last q = Some a → ¬ discriminating g d q b c).
    eapply returns_mono; [apply (loop_flag g _ _ (λ _ g', stale (P4 sep) g g') (λ b, ∀ c a, M b c a) True); [constructor|by apply flag_start|]|].
    - intros _ b _ s N _ Hst Hfl. set (h := s.1) in *.
      assert (refines g h) as Rgh by (eapply stale_refines; [apply P4_good|done..]). assert (mg_wf h) as Wh by apply Rgh.
      eapply returns_mono; [apply (loop_flag g _ _ (λ _ g', stale (P4 sep) h g') (λ c, ∀ a, M b c a) (N ∧ h = g)); [constructor|by apply flag_skip|]|].
      + intros prec c postc s1 N1 Ec Hst1 Hfl1. apply (in_split_set o Ho) in Ec as Hcb.
        assert (c ≠ b) as Ncb by (by apply (mgw_in _ Wh) in Hcb as (_ & _ & ?)).
        set (h1 := s1.1) in *. assert (refines h h1) as R1 by (eapply stale_refines; [apply P4_good|done..]).
        assert (mg_wf h1) as W1 by apply R1.
        eapply returns_mono; [apply (loop_flag g _ _ (λ _ g', stale (P4 sep) h g' ∧ ∀ x, x ≠ b → dir_edge h1 x c → dir_edge g' x c)
          (λ a, M b c a) (N1 ∧ h1 = g)); [|by apply flag_skip|]|].
        * done.
        * intros prea a posta s2 N2 Ea [Hst2 Hk2] Hfl2. apply (in_split_set o Ho) in Ea as Hac. rewrite elem_pag_parents in Hac.
          assert (refines h s2.1) as R2 by (eapply stale_refines; [apply P4_good|done..]). assert (mg_wf s2.1) as W2 by apply R2.
          destruct (decide (b ∉ mset s2.1 a Directed)) as [Hba|Hba].
          { simpl. split_and!; [done..|]. apply flag_skip; [done|]. intros E d q _ Hl D. apply Hba. rewrite E.
            apply last_Some in Hl as [q' ->]. destruct (rev_case q') as [->|(q'' & u & ->)].
            - by apply (dp_coll _ _ _ _ _ D [] d a b []).
            - apply (dp_coll _ _ _ _ _ D (d :: q'') u a b []). by simplify_list_eq. }
          assert (has_mark s2.1 b Directed a) as Hba2 by (unfold has_mark; destruct (decide (b ∈ mset s2.1 a Directed)); [done|by destruct Hba]).
          assert (a ≠ b) as Nab by (intros ->; by apply (mgw_in _ W2) in Hba2 as (_ & _ & ?)).
          assert (a ≠ c) as Nac by (intros ->; by destruct Hac as [Hac%(mgw_in _ W1) _]; destruct Hac as (_ & _ & ?)).
          assert (mg_adj s2.1 b c) as Hbc. { apply mg_adj_sym; [done|]. apply (rf_adj _ _ R2). by eexists. }
          assert (dir_edge s2.1 a c) as Hac2 by by apply Hk2.
          eapply returns_bind; [apply (find_disc_path_ok o Ho s2.1 W2 b c fuel a None Nab Nac)|].
          { cbn [default from_option]. rewrite (rf_nodes _ _ R2), (rf_nodes _ _ Rgh).
            enough (size (mnodes g ∖ {[a; b; c]}) ≤ size V) by lia. apply subseteq_size. set_solver +. }
          cbn [default from_option]. intros [d|] Hd.
          2:{ simpl. split_and!; [done..|]. apply flag_skip; [done|]. intros E d q _ Hl D. eapply (Hd d).
              eapply dfound_disc; [exact W2|by apply not_eq_sym|done..|]. exists q. by rewrite E. }
          apply dfound_disc in Hd as (q & Hl & HD); [|exact W2|by apply not_eq_sym|done..].
          destruct (Hsep d c) as [Z HZ].
          { pose proof (dp_linked _ _ _ _ _ HD) as Hlk. unfold V. rewrite <-(rf_nodes _ _ Rgh), <-(rf_nodes _ _ R2).
            destruct q as [|u q]; [by destruct (dp_some _ _ _ _ _ HD)|]. destruct (Hlk [] d u (q ++ [b; c])) as [k Hk]; [done|].
            by apply (mgw_in _ W2) in Hk as (? & _). }
          { apply (mgw_in _ Wh) in Hcb as (Hcb & _). by rewrite (rf_nodes _ _ Rgh) in Hcb. }
          { pose proof (dp_simple _ _ _ _ _ HD) as Hnd. apply NoDup_cons in Hnd as [Hnd _]. set_solver +Hnd. }
          { pose proof (dp_ends _ _ _ _ _ HD) as Hn. by rewrite (rf_adj _ _ R2), (rf_adj _ _ Rgh) in Hn. }
          rewrite HZ. cbn [mbind res_bind].
          assert (∀ acts, P4 sep h s2.1 acts → (∃ k, (c, b, k) ∈ acts) → (∀ s t k, (s, t, k) ∈ acts → t ≠ b → (t = c ∧ s = b) ∨ (t = a ∧ s = b)) → 
            (stale (P4 sep) h (apply_acts s2.1 acts) ∧ ∀ x, x ≠ b → dir_edge h1 x c → dir_edge (apply_acts s2.1 acts) x c) ∧
            flag g (N2 ∧ M b c a) (apply_acts s2.1 acts, true)) as Hone.
          { intros acts HP [k Hin] Hacts. split_and!.
            - apply (stale_step (P4 sep) h h s2.1 _ (stale_refl _ _) Hst2 HP).
            - intros x Hx Hxc. apply (Hk2 x Hx) in Hxc. clear -Hx Hxc Hacts Nac Ncb Nab.
              assert (∀ l g', (∀ s t k, (s, t, k) ∈ l → t ≠ b → (t = c ∧ s = b) ∨ (t = a ∧ s = b)) → dir_edge g' x c → dir_edge (apply_acts g' l) x c) as Hgen.
              { induction l as [|[[s t] k] l IH]; intros g' Hl Hg'; [done|]. simpl. apply IH; [intros; eapply Hl; [by right|done]|].
                unfold apply_act, dir_edge. cbn [fst snd]. rewrite !replace_mark_spec. destruct Hg' as [A B].
                split; right; (split; [|done]); intros [<- <-].
                - destruct (Hl x c k) as [[? ?]|[? ?]]; [by left|done|congruence|congruence].
                - destruct (Hl c x k) as [[? ?]|[? ?]]; [by left|done|congruence|congruence]. }
              by apply Hgen.
            - apply (flag_step g _ h _ (P4_good _ _ _ _ Wh R2 HP) s2.1). exists c, b, k. split; [done|]. by apply Rgh. }
          destruct (decide (b ∈ Z)) as [HbZ|HbZ]; rewrite !replace_edge_mark_ok; cbn [mbind res_bind]; repeat (rewrite !replace_edge_mark_ok; cbn [mbind res_bind]);
            cbn [returns fst].
          -- apply (Hone [(b, c, Directed); (c, b, Tail)]).
             ++ exists d, q, a, b, c, Z. split_and!; try done. left. done.
             ++ exists Tail. set_solver +.
             ++ intros s' t' k'. rewrite !elem_of_cons, elem_of_nil. intros [E|[E|[]]] Ht; simplify_eq; auto.
          -- apply (Hone [(b, a, Directed); (a, b, Directed); (b, c, Directed); (c, b, Directed)]).
             ++ exists d, q, a, b, c, Z. split_and!; try done. right. done.
             ++ exists Directed. set_solver +.
             ++ intros s' t' k'. rewrite !elem_of_cons, elem_of_nil. intros [E|[E|[E|[E|[]]]]] Ht; simplify_eq; auto.
        * cbn beta. intros r [[? _] Hfl2]. split; [done|]. eapply flag_mono; [exact Hfl2|]. intros _ [[? Eh] HM]. split; [done|].
          intros a d q Hc Hl D. eapply (HM a); [|done..]. rewrite iter_elem, elem_pag_parents, Eh by done.
          apply (dp_par _ _ _ _ _ D). apply last_Some in Hl as [q' ->]. set_solver +.
      + cbn beta. intros r [? Hfl1]. split; [by eapply stale_trans|]. eapply flag_mono; [exact Hfl1|]. intros _ [[? Eh] HM]. split; [done|].
        intros c a d q Hc Hl D. eapply (HM c); [|done..]. rewrite iter_elem, Eh by done. done.
    - cbn beta. intros r [? Hfl]. split; [done|]. eapply flag_mono; [exact Hfl|]. intros _ [_ HN] (d & q & b & c & D & Hc).
      destruct (last q) as [a|] eqn:El; [|by apply last_None in El; apply (dp_some _ _ _ _ _ D) in El].
      eapply (HN b); [|done..]. rewrite iter_elem by done. by apply (mgw_in _ Hwf) in Hc as (_ & ? & _).
  Qed.

  (** ** rule 5 *)
  Lemma reset_pair h u v : mg_wf h → mg_adj h u v →
    ∃ x y, reset_orientations o PAG_T h Tail (Some {[u; v]}) = Ok (apply_acts h [(x, y, Tail); (y, x, Tail)]) ∧
      ((x = u ∧ y = v) ∨ (x = v ∧ y = u)).
  Proof.
    intros Wh Hadj. assert (u ≠ v) as Hne by (destruct Hadj as [k Hk]; by apply (mgw_in _ Wh) in Hk as (_ & _ & ?)).
    assert (∃ x y, o 304 {[u; v]} = [x; y] ∧ ((x = u ∧ y = v) ∨ (x = v ∧ y = u))) as (x & y & E & Hxy).
    { pose proof (iter_length o 304 {[u; v]} Ho) as Hl. rewrite size_union, !size_singleton in Hl by set_solver +Hne.
      pose proof (iter_nodup o 304 {[u; v]} Ho) as Hnd. assert (∀ x, x ∈ o 304 {[u; v]} ↔ x = u ∨ x = v) as He by (intros x; rewrite iter_elem by done; set_solver +).
      destruct (o 304 {[u; v]}) as [|x [|y [|]]]; try done. exists x, y. split; [done|].
      apply NoDup_cons in Hnd as [Hnd _]. rewrite elem_of_list_singleton in Hnd.
      destruct (proj1 (He x)) as [->| ->]; [set_solver +| |]; destruct (proj1 (He y)) as [->| ->]; try set_solver +; auto; done. }
    exists x, y. split; [|done]. unfold reset_orientations. rewrite bool_decide_true by apply mark_in_PAG. cbn [default from_option assert_ mbind res_bind].
    unfold id. rewrite E. simpl.
    assert (x ≠ y) as Nxy by (destruct Hxy as [[-> ->]|[-> ->]]; auto).
    pose proof (m_is_connected_pag h x y Wh Nxy) as Hc. apply returns_ok in Hc as (w & Ew & Hw). rewrite Ew. simpl.
    destruct w.
    - rewrite !replace_edge_mark_ok. done.
    - assert (mg_adj h x y) as H'. { destruct Hxy as [[-> ->]|[-> ->]]; [done|by apply mg_adj_sym]. } by apply Hw in H'.
  Qed.

  Lemma circle_nb_ok k a b : b ∈ V → returns (circle_nb o k g a b) (λ A, ∀ n, n ∈ A ↔ (n ∈ V ∧ n ≠ a ∧ n ≠ b) ∧ circ_edge g a n ∧ ¬ mg_adj g b n).
  Proof.
    intros Hb. unfold circle_nb. eapply returns_mono; [apply (filter_returns _ _ (λ n, circ_edge g a n ∧ ¬ mg_adj g b n))|].
    - intros n Hn. rewrite iter_elem in Hn by done. rewrite is_edge_pag. cbn [mbind res_bind].
      pose proof (edge_is_spec g a n Circle Circle) as He. unfold circ_edge. destruct (edge_is g a n Circle Circle); cbn [negb].
      + eapply returns_bind; [apply m_is_connected_pag; [done|set_solver +Hn]|]. cbn beta. intros y Hy. simpl.
        destruct (proj1 He eq_refl). destruct y; simpl; split; try done.
        * intros [_ H']. destruct H'. by apply Hy.
        * intros _. split_and!; try done. intros H'. by apply Hy in H'.
      + simpl. split; [done|]. intros [[H1 H2] _]. by apply He.
    - cbn beta. intros A HA n. rewrite HA, iter_elem by done. unfold V. set_solver +.
  Qed.

  Lemma path_tails_ok h l : ∀ g', mg_wf h → stale P5 h g' →
    (∀ u v, cyc_edge l u v → noarrow h u v ∧ ∀ x y, (x = u ∧ y = v) ∨ (x = v ∧ y = u) → P5 h h [(x, y, Tail); (y, x, Tail)]) →
    returns (path_tails o l g') (λ r, stale P5 h r ∧ (∀ u v, has_mark r u Circle v → has_mark g' u Circle v) ∧ ∀ u v, cyc_edge l u v → ¬ has_mark r u Circle v).
  Proof.
    induction l as [|u [|v l] IH]; intros g' Wh Hst Hl.
    - simpl. split_and!; [done..|]. intros u v (l1 & l2 & E). by destruct l1.
    - simpl. split_and!; [done..|]. intros u' v (l1 & l2 & E). by destruct l1 as [|? [|]].
    - cbn [path_tails]. destruct (Hl u v) as [(Huv & _) HP]; [by exists [], l|].
      assert (refines h g') as R by (eapply stale_refines; [apply P5_good|done..]).
      destruct (reset_pair g' u v) as (x & y & -> & Hxy); [apply R|by apply (rf_adj _ _ R)|]. cbn [mbind res_bind].
      assert (stale P5 h (apply_acts g' [(x, y, Tail); (y, x, Tail)])) as Hst'.
      { apply (stale_step P5 h h g' _ (stale_refl _ _) Hst). by apply (HP x y). }
      eapply returns_mono; [apply IH; [done|exact Hst'|]|].
      + intros u' v' (l1 & l2 & E). apply Hl. exists (u :: l1), l2. by rewrite E.
      + assert (∀ z, z ∈ [(x, y, Tail); (y, x, Tail)] → z.2 ≠ Circle) as Hz by (intros z; rewrite !elem_of_cons, elem_of_nil; intros [->|[->|[]]]; done).
        cbn beta. intros r (Hr1 & Hr3 & Hr2). split_and!; [done| |].
        { intros u' v' HC%Hr3. by apply apply_acts_circle in HC as [HC _]. }
        intros u' v' (l1 & l2 & E). destruct l1 as [|w l1]; simplify_eq/=.
        * intros HC%Hr3. apply (apply_acts_circle g' [(x, y, Tail); (y, x, Tail)]) in HC as [_ HC]; [|exact Hz].
          apply (HC Tail). destruct Hxy as [[-> ->]|[-> ->]]; set_solver +.
        * apply Hr2. by exists l1, l2.
  Qed.
End rules.

Section rule5.
  Context (o : order) (Ho : iter_ok o) (g : mgraph) (Hwf : mg_wf g).
  Let V := mnodes g.

  Lemma stale5_arrow h k : mg_wf h → stale P5 h k → ∀ x y, has_mark k x Directed y → has_mark h x Directed y.
  Proof.
    intros Wh. induction 1 as [|h h1 g' acts H1 IH1 H2 IH2 HP]; [done|]. intros x y Hxy.
    assert (refines h h1) as R1 by (eapply stale_refines; [apply P5_good|done..]).
    destruct HP as (? & ? & ? & u & v & _ & _ & ->). simpl in Hxy. unfold apply_act in Hxy. cbn [fst snd] in Hxy.
    apply replace_mark_spec in Hxy as [(_ & _ & ?)|[_ Hxy]]; [done|].
    apply replace_mark_spec in Hxy as [(_ & _ & ?)|[_ Hxy]]; [done|].
    apply IH1; [done|]. apply IH2; [apply R1|done].
  Qed.

  Definition r5_at (a b x y : node) (p : list node) : Prop :=
    circ_edge g a x ∧ circ_edge g y b ∧ x ≠ y ∧ uncovered_path_spec g (circ_edge g) (mnodes g) a b x y p ∧ ¬ mg_adj g a y ∧ ¬ mg_adj g x b.

  Lemma rule_5_ok fuel : size V + 1 < fuel → returns (pag_rule_5 o fuel g) (λ r, stale P5 g r.1 ∧ flag g (¬ r5_applies g) r).
  Proof.
    intros Hf. unfold pag_rule_5.
    assert (∀ h x y, stale P5 g h → circ_edge g x y → noarrow h x y) as Hna.
    { intros h x y Hst [H1 H2]. assert (refines g h) as R by (eapply stale_refines; [apply P5_good|done..]). split_and!.
      - apply (rf_adj _ _ R). by eexists.
      - intros H3. apply (stale5_arrow g h Hwf Hst) in H3. by pose proof (mgw_one _ Hwf _ _ _ _ H1 H3).
      - intros H3. apply (stale5_arrow g h Hwf Hst) in H3. by pose proof (mgw_one _ Hwf _ _ _ _ H2 H3). }
    set (es := filter _ _).
    assert (∀ a b, (a, b) ∈ es ↔ circ_edge g a b) as Hes.
    { intros a b. unfold es. rewrite elem_of_list_filter, edge_is_spec. cbn [fst snd]. unfold circ_edge. split; [tauto|]. intros [H1 H2].
      split; [tauto|]. apply (mgw_in _ Hwf) in H1 as (HA & HB & _).
      apply elem_of_list_join. exists ((a,.) <$> o 930 (mnodes g)). split.
      - apply elem_of_list_fmap. exists b. by rewrite iter_elem by done.
      - apply elem_of_list_fmap. exists a. by rewrite iter_elem by done. }
    eapply returns_mono; [apply (loop_flag g es _ (λ _ g', stale P5 g g') (λ e, ∀ x y p, ¬ r5_at e.1 e.2 x y p) True); [constructor|by apply flag_start|]|].
    - intros pre [a b] post s N Ees Hst Hfl. cbn [fst snd]. set (h := s.1) in *.
      assert (circ_edge g a b) as Hab by (apply Hes; rewrite Ees; set_solver +).
      assert (refines g h) as R by (eapply stale_refines; [apply P5_good|done..]). assert (mg_wf h) as Wh by apply R.
      destruct Hab as [Hab1 Hab2]. pose proof (mgw_in _ Hwf _ _ _ Hab1) as (HaV & HbV & Nab).
      eapply returns_bind; [apply (circle_nb_ok o Ho h Wh); by rewrite (rf_nodes _ _ R)|]. cbn beta. intros A HA.
      eapply returns_bind; [apply (circle_nb_ok o Ho h Wh); by rewrite (rf_nodes _ _ R)|]. cbn beta. intros B HB.
      eapply returns_mono; [apply (loop_flag g _ _ (λ _ g', stale P5 g g') (λ x, ∀ y, y ∈ o 943 B → ∀ p, ¬ r5_at a b x y p) (N ∧ h = g)); [done|by apply flag_skip|]|].
      + intros prex x postx s1 N1 Ex Hst1 Hfl1. apply (in_split_set o Ho) in Ex as Hx. apply HA in Hx as ((HxV & Nxa & Nxb) & Hax & Hbx).
        eapply returns_mono; [apply (loop_flag g _ _ (λ _ g', stale P5 g g') (λ y, ∀ p, ¬ r5_at a b x y p) N1); [done|done|]|].
        * intros prey y posty s2 N2 Ey Hst2 Hfl2. apply (in_split_set o Ho) in Ey as Hy. apply HB in Hy as ((HyV & Nyb & Nya) & Hby & Hay).
          set (h2 := s2.1) in *. assert (refines g h2) as R2 by (eapply stale_refines; [apply P5_good|done..]). assert (mg_wf h2) as W2 by apply R2.
          assert (x ≠ y) as Nxy. { intros ->. apply Hbx. destruct Hby. by exists Circle. }
          eapply returns_bind; [apply (uncovered_path_ok o Ho h2 W2 _ (circ_edge h2) (cond_circle h2))|].
          { intros u v [? _]. by exists Circle. }
          { by apply nodup4. }
          { cbn [default from_option]. unfold id. rewrite (rf_nodes _ _ R2). enough (size (mnodes g ∖ {[x]}) ≤ size V) by lia. apply subseteq_size. set_solver +. }
          cbn [default from_option]. unfold id. intros [p|]; intros Hp.
          2:{ simpl. split; [done|]. apply flag_skip; [done|]. intros E p (_ & _ & _ & Hq & _). apply (Hp p). subst h2. by rewrite E. }
          destruct Hp as (mid & Ep & Hmid & Hnd & Hlk & Hunc).
          assert (∀ u v, circ_edge h u v → circ_edge g u v) as Hcg. { intros u v [? ?]. split; by apply (rf_circle _ _ R). }
          assert (unc_cycle h2 a p b) as U.
          { split.
            - assert (∀ q u v, linked (noarrow h2) (u :: q) → noarrow h2 v u → linked (noarrow h2) (v :: u :: q)) as Hcons.
              { intros q u v Hl Hvu. by apply linked_cons. }
              rewrite Ep. simpl. apply Hcons; [|by apply Hna; auto].
              rewrite <-app_assoc. change (x :: mid ++ [y] ++ [b]) with ((x :: mid) ++ [y; b]). apply linked_snoc.
              + change ((x :: mid) ++ [y]) with (x :: mid ++ [y]). rewrite <-Ep. intros l1 w1 w2 l2 E. apply Hna; [done|].
                destruct (Hlk l1 w1 w2 l2 E). split; by apply (rf_circle _ _ R2).
              + apply noarrow_sym; [done|]. apply Hna; auto.
            - by apply Hna.
            - done.
            - done.
            - exists x, mid, y. rewrite (rf_adj _ _ R2). rewrite (rf_adj _ _ R2). rewrite <-!(rf_adj _ _ R).
              split_and!; try done. intros H'. apply Hbx. by apply mg_adj_sym. }
          destruct (reset_pair o Ho h2 a b) as (u & v & -> & Huv); [done|by apply Hna|]. cbn [mbind res_bind].
          assert (stale P5 h2 (apply_acts h2 [(u, v, Tail); (v, u, Tail)])) as Hst3.
          { apply (stale_step P5 h2 h2 h2 _ (stale_refl _ _) (stale_refl _ _)). exists a, p, b, u, v. tauto. }
          eapply returns_bind; [apply (path_tails_ok o Ho h2); [done|exact Hst3|]|].
          { intros u' v' He. split; [by apply (cyc_noarrow h2 a p b); auto|]. intros x' y' Hxy. exists a, p, b, x', y'.
            split_and!; [done| |done]. destruct Hxy as [[-> ->]|[-> ->]]; auto. }
          cbn beta. intros r (Hr1 & _ & Hr2). simpl. split; [by eapply stale_trans|]. left. split; [done|].
          destruct mid as [|m mid].
          -- exists x, y. split.
             ++ apply (rf_circle _ _ R2). apply (Hlk [] x y []). by rewrite Ep.
             ++ apply Hr2. exists [a], [b]. by rewrite Ep.
          -- exists x, m. split.
             ++ apply (rf_circle _ _ R2). apply (Hlk [] x m (mid ++ [y])). by rewrite Ep.
             ++ apply Hr2. exists [a], (mid ++ [y] ++ [b]). rewrite Ep. simpl. by rewrite <-app_assoc.
        * cbn beta. intros r [? Hfl2]. split; [done|]. eapply flag_mono; [exact Hfl2|]. done.
      + cbn beta. intros r [? Hfl1]. split; [done|]. eapply flag_mono; [exact Hfl1|]. intros _ [[? Eh] HM]. split; [done|].
        intros x y p Hall. pose proof Hall as (H1 & [H2 H2'] & H3 & Hp & H4 & H5). apply uspec_ends, nodup4 in Hp. destruct Hp as (N1 & N2 & N3 & N4 & N5 & N6).
        destruct H1 as [H1 H1']. eapply (HM x); [..|exact Hall].
        * rewrite iter_elem, HA, Eh by done. pose proof (mgw_in _ Hwf _ _ _ H1) as (_ & HxV & _).
          split; [split_and!; [done|by apply not_eq_sym|by apply not_eq_sym]|]. split; [done|]. intros H'. apply H5. by apply mg_adj_sym.
        * rewrite iter_elem, HB, Eh by done. pose proof (mgw_in _ Hwf _ _ _ H2) as (HyV & _ & _).
          split; [split_and!; [done|by apply not_eq_sym|by apply not_eq_sym]|]. split; [done|done].
    - cbn beta. intros r [? Hfl]. split; [done|]. eapply flag_mono; [exact Hfl|]. intros _ [_ HN] (a & b & x & p & y & Hab & Hall).
      eapply (HN (a, b)); [by apply Hes|exact Hall].
  Qed.
End rule5.
