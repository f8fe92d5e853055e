(** Temporal ICD: the claims about whole runs. *)
From Verif Require Import Base BaseLemmas ModelGraph Spec ModelMixed SpecMixed ProofMixed ProofMixed2 ProofPDAG ProofPDAG2 ProofPDAG3
  ModelPC SpecPC ProofPC ModelPAG SpecPAG ProofPAG ProofPAGU ProofPAGX ModelPDS ModelFCI SpecFCI ProofFCI ProofFCI2 ProofFCI3 ProofFCI4 ModelTS SpecTS ProofTS ProofTS2 ProofTS3 ProofTS4.

Section runs.
  Context (NS : list (list node)) (W : window NS) (o : order) (Ho : iter_ok o).
  Notation V := (win_nodes NS).

  Lemma complete_adj g : initial NS None g → ∀ a b, mg_adj g a b ↔ a ∈ V ∧ b ∈ V ∧ a ≠ b.
  Proof.
    cbn [initial]. intros Hi a b. unfold mg_adj. setoid_rewrite Hi. split; [by intros (k & ? & ? & ? & _)|]. intros (? & ? & ?).
    destruct (past_dec NS W a b); [done|done|exists Directed|exists Circle]; tauto.
  Qed.
  Lemma justified_ext ci (A B : node → node → Prop) g sep log : (∀ a b, A a b ↔ B a b) → ts_justified NS ci A g sep log → ts_justified NS ci B g sep log.
  Proof.
    intros H J. constructor; try apply J.
    - intros a b. rewrite <-H. apply J.
    - intros a b HB. apply H in HB. by apply J.
  Qed.

  Lemma ts_run_complete ci sb tc precalc fuel : size V * size V + size V + 2 < fuel → near NS ci →
    returns (r ← ts_init NS o None; ts_learn NS o ci true sb tc precalc fuel r.2 r.1) (λ t,
      let g := ls_graph (ic_ls t) in
      ts_justified NS ci (λ a b, a ∈ V ∧ b ∈ V ∧ a ≠ b) g (ls_sep (ic_ls t)) (ls_log (ic_ls t)) ∧
      (∀ k, stationary NS (λ a b, has_mark g a k b)) ∧ (∀ a b, mg_adj g a b → past_of NS a b → has_mark g a Directed b) ∧
      growing (ls_log (ic_ls t)) ∧ ∀ x y, in_time NS 0 x → y ∈ V → x ≠ y → ∃ q, tested (ls_log (ic_ls t)) x y ∅ q).
  Proof.
    intros Hf Hn. pose proof (ts_run_ok NS W o Ho ci (past_of NS) None sb tc precalc fuel Hf Hn (past_stationary NS W)) as H.
    assert (∀ g, initial NS None g → ∀ a b, mg_adj g a b → past_of NS a b → has_mark g a Directed b) as HP.
    { intros g Hi a b Hab Hp. apply (complete_adj g Hi) in Hab. apply Hi. tauto. }
    specialize (H ltac:(done) HP). apply returns_ok in H as ([s t] & E & Hi & J & M & P & G & C).
    cbn [fst snd] in *. destruct (ts_init NS o None) as [r|e|] eqn:Ei; [|done|done]. cbn [mbind res_bind] in *.
    destruct (ts_learn _ _ _ _ _ _ _ _ _ _) as [u|e|] eqn:El; [|done|done]. cbn [mbind res_bind] in E. injection E as _ ->. cbn [returns]. cbv zeta.
    split; [|split; [done|]; split; [done|]; split; [done|]].
    - eapply justified_ext; [|exact J]. by apply complete_adj.
    - intros x y Hx Hy Hne. apply C. done.
  Qed.

  Lemma ts_run_initial ci h sb tc precalc fuel : size V * size V + size V + 2 < fuel → near NS ci →
    mg_wf h → mnodes h = V → stationary NS (mg_adj h) →
    returns (r ← ts_init NS o (Some h); ts_learn NS o ci true sb tc precalc fuel r.2 r.1) (λ t,
      let g := ls_graph (ic_ls t) in
      ts_justified NS ci (mg_adj h) g (ls_sep (ic_ls t)) (ls_log (ic_ls t)) ∧
      (∀ k, stationary NS (λ a b, has_mark g a k b)) ∧
      (∀ a b, mg_adj g a b → (∀ c d, same_lag NS a b c d → has_mark h c Directed d) → has_mark g a Directed b) ∧
      growing (ls_log (ic_ls t))).
  Proof.
    intros Hf Hn Wh Nh Sh. pose proof (ts_run_ok NS W o Ho ci (always NS h) (Some h) sb tc precalc fuel Hf Hn (always_stationary NS W h)) as H.
    assert (∀ g, initial NS (Some h) g → ∀ a b, mg_adj g a b → always NS h a b → has_mark g a Directed b) as HP.
    { intros g Hi a b Hab Hp. apply Hi, Hp. destruct Hab as (k & Hk). apply Hi in Hk. destruct (mgw_in _ Wh _ _ _ Hk) as (? & ? & _). apply same_lag_refl; by rewrite <-Nh. }
    specialize (H ltac:(intros ? [= <-]; done) HP). apply returns_ok in H as ([s t] & E & Hi & J & M & P & G & C).
    cbn [fst snd] in *. destruct (ts_init NS o (Some h)) as [r|e|] eqn:Ei; [|done|done]. cbn [mbind res_bind] in *.
    destruct (ts_learn _ _ _ _ _ _ _ _ _ _) as [u|e|] eqn:El; [|done|done]. cbn [mbind res_bind] in E. injection E as _ ->. cbn [returns]. cbv zeta.
    split; [|split; [done|]; split; [exact P|done]].
    eapply justified_ext; [|exact J]. intros a b. unfold mg_adj. cbn [initial] in Hi. setoid_rewrite Hi. done.
  Qed.

  (** the first iteration needs no assumption on the test *)
  Lemma ts_first ci sb tc precalc fuel : size V * size V + size V + 2 < fuel →
    returns (r ← ts_init NS o None; ts_iteration NS o ci true sb tc precalc fuel r.2 r.1) (λ u,
      let t := ic_ls u.1 in let g := ls_graph t in
      u.2 = (false, 0) ∧ ts_justified NS ci (λ a b, a ∈ V ∧ b ∈ V ∧ a ≠ b) g (ls_sep t) (ls_log t) ∧
      (∀ k, stationary NS (λ a b, has_mark g a k b)) ∧ (∀ a b, mg_adj g a b → past_of NS a b → has_mark g a Directed b) ∧
      (∀ i j c b, (i, j, c, b) ∈ ls_log t → c = []) ∧ ∀ x y, in_time NS 0 x → y ∈ V → x ≠ y → ∃ q, tested (ls_log t) x y ∅ q).
  Proof.
    intros Hf. eapply returns_bind; [by apply ts_init_ok|]. cbn beta. intros [s fx] (N & Wg & Hi & Es & El & Ed & Ez & Hfx). cbn [fst snd] in *.
    pose proof (complete_adj _ Hi) as Hc.
    assert (stationary NS (mg_adj (ls_graph (ic_ls s)))) as St by (intros a b c d Hs; rewrite !Hc; by apply complete_stationary).
    pose proof (start_inv NS o Ho ci s N Wg St Es El) as I0. unfold ts_iteration. rewrite Ed, Ez.
    eapply returns_bind; [eapply returns_bind; [eapply (ts_step_0_ok NS W o Ho ci (mg_adj (ls_graph (ic_ls s))) fx (past_of NS) (past_stationary NS W)); [| |done|done]|]|].
    - intros a b (k & Hk). exists k. by apply Hfx.
    - intros a b Hab Hp. apply Hfx, Hi. apply Hc in Hab. tauto.
    - cbn beta. intros t Ht. cbn [returns].
      instantiate (1 := λ r, ts_inv NS ci (mg_adj (ls_graph (ic_ls s))) (ic_ls r) ∧ ls_le (ic_ls s) (ic_ls r) ∧ (∃ q, asks 0 (ls_log (ic_ls s)) (ls_log (ic_ls r)) q) ∧ out_ok NS (past_of NS) (ls_graph (ic_ls r)) ∧
        (∀ i j, valid NS i j → ∃ q, tested (ls_log (ic_ls r)) i j ∅ q) ∧ ic_done r = false). cbn beta. cbn [ic_ls ic_done]. tauto.
    - cbn beta. intros r (Ir & _ & (q & Q) & [O1 O2] & C & Dr). cbn [returns fst snd ic_ls]. cbv zeta. rewrite Dr. split; [done|].
      split; [eapply justified_ext; [|by apply ts_inv_justified]; exact Hc|]. split; [done|]. split; [done|]. split.
      + destruct Q as (l & El' & Hsz & _). rewrite El, app_nil_r in El'. intros i j c b H. rewrite El' in H. apply Hsz in H. by destruct c.
      + intros x y Hx Hy Hne. by apply C.
  Qed.
End runs.

(** ** tools for examples *)
Section examples.
  Context (NS : list (list node)).
  Lemma window_check : (bool_decide (2 ≤ length NS) && bool_decide (Forall (λ l, length l = length (default [] (NS !! 0))) NS) && bool_decide (NoDup (concat NS))) = true → window NS.
  Proof.
    intros [[H1 H2]%andb_true_iff H3]%andb_true_iff. apply bool_decide_eq_true in H1, H2, H3. constructor; [done| |done].
    eexists. intros l Hl. by apply (proj1 (Forall_forall _ _) H2).
  Qed.

  (** all lists without repetitions of members of U *)
  Lemma lists_in (U c : list node) : NoDup U → NoDup c → (∀ z, z ∈ c → z ∈ U) → c ∈ concat (permutations <$> concat ((λ k, combs k U) <$> seq 0 (S (length U)))).
  Proof.
    intros HU Hc Hz. set (u := filter (λ z, z ∈ c) U). assert (u ≡ₚ c) as Hp.
    { apply NoDup_Permutation; [by apply NoDup_filter|done|]. intros z. unfold u. rewrite elem_of_list_filter. split; [tauto|]. auto. }
    apply elem_of_list_In, in_concat. exists (permutations u). split; apply elem_of_list_In; [|by apply permutations_Permutation].
    apply elem_of_list_fmap. exists u. split; [done|]. apply elem_of_list_In, in_concat. exists (combs (length u) U). split; apply elem_of_list_In.
    - apply elem_of_list_fmap. exists (length u). split; [done|]. apply elem_of_seq. pose proof (filter_length (λ z, z ∈ c) U). unfold u. lia.
    - apply elem_of_combs. split; [|done]. clear. unfold u. induction U as [|x U IH]; [done|]. rewrite filter_cons. destruct (decide (x ∈ c)); [by apply sublist_skip|by apply sublist_cons].
  Qed.

  Definition name_at (t i : nat) : option node := NS !! t ≫= (.!! i).
  Lemma at_name t i n : at_ NS t i n ↔ name_at t i = Some n.
  Proof. unfold at_, name_at. by rewrite bind_Some. Qed.
  (** m is the number of variables *)
  Definition stationary_b (R : node → node → bool) (m : nat) : bool :=
    forallb (λ '(ta, tb, (tc, td), (i, j)), negb (bool_decide (ta + td = tc + tb)) ||
      match name_at ta i, name_at tb j, name_at tc i, name_at td j with
      | Some a, Some b, Some c, Some d => eqb (R a b) (R c d)
      | _, _, _, _ => true
      end)
      (let T := seq 0 (length NS) in list_prod (list_prod (list_prod T T) (list_prod T T)) (list_prod (seq 0 m) (seq 0 m))).
  Lemma stationary_check (R : node → node → bool) m : forallb (λ l, bool_decide (length l ≤ m)) NS = true → stationary_b R m = true → stationary NS (λ a b, R a b = true).
  Proof.
    intros Hm H a b c d (ta & i & tb & j & tc & td & Ha & Hb & Hc & Hd & E)%(same_lag_at NS).
    assert (∀ t i n, at_ NS t i n → t ∈ seq 0 (length NS) ∧ i ∈ seq 0 m) as Hin.
    { intros t i' n Hn. rewrite !elem_of_seq. pose proof (at_time NS _ _ _ Hn). destruct Hn as (l & Hl & Hi).
      apply elem_of_list_lookup_2, elem_of_list_In in Hl. apply (proj1 (forallb_forall _ _) Hm) in Hl. apply bool_decide_eq_true in Hl. apply lookup_lt_Some in Hi. lia. }
    unfold stationary_b in H. rewrite forallb_forall in H. specialize (H (ta, tb, (tc, td), (i, j))). cbv beta iota in H.
    apply at_name in Ha as Ea, Hb as Eb, Hc as Ec, Hd as Ed. rewrite Ea, Eb, Ec, Ed in H. rewrite bool_decide_true in H by done. cbn [negb orb] in H.
    rewrite eqb_true_iff in H. rewrite H; [done|]. repeat apply in_prod; apply elem_of_list_In; eapply Hin; eauto.
  Qed.
End examples.
