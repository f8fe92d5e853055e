(** The loops of create_pds_tree and create_pds_set. *)
From Verif Require Import Base BaseLemmas ModelGraph Spec Paths ModelMixed SpecMixed ModelPAG ModelPDS SpecPDS ProofDsep ProofGraph3 ProofCount ProofMixed ProofMixed2 ProofPAG ProofPAG2 ProofPAGM ProofPDS ProofPDS3.

Lemma skeleton_ok_wf o g en : iter_ok o → mg_wf g → let V := default (mnodes g) en in
  returns (get_skeleton_graph o PAG_T g en) (λ u, gnodes u = V ∧ ∀ a b, a ∈ gadj u b ↔ a ∈ V ∧ b ∈ V ∧ mg_adj g a b).
Proof.
  intros Ho Hwf V. unfold get_skeleton_graph. fold V.
  eapply returns_mono; [apply (for_returns_pre _ _ _ (λ pre u, gnodes u = V ∧
    ∀ a b, a ∈ gadj u b ↔ ((a, b) ∈ pre ∨ (b, a) ∈ pre) ∧ mg_adj g a b))|].
  - split; [done|]. intros a b. simpl. set_solver +.
  - intros pre [i j] post u E [Hn Hu].
    assert ((i, j) ∈ comb2 (o 272 V)) as Hij by (rewrite E; set_solver +).
    apply comb2_iter in Hij as (Hi & Hj & Hne); [|done].
    eapply returns_bind; [by apply m_is_connected_pag|]. cbn beta. intros x Hx. destruct x.
    + eapply returns_mono; [apply add_edge_spec; by rewrite Hn|]. cbn beta. intros u' [Hn' Hu']. split; [congruence|].
      assert (mg_adj g i j) as Hadj by by apply Hx. assert (mg_adj g j i) as Hadj' by by apply mg_adj_sym.
      intros a b. rewrite Hu', Hu, !elem_of_app, !elem_of_list_singleton. split.
      * intros [[? ?]|[[-> ->]|[-> ->]]]; [tauto|..]; (split; [|done]); auto.
      * intros [[[?|?]|[?|?]] ?]; simplify_eq; tauto.
    + simpl. split; [done|]. intros a b. rewrite Hu, !elem_of_app, !elem_of_list_singleton. split; [tauto|].
      intros [[[?|Ex]|[?|Ex]] Hab]; simplify_eq; [tauto|by apply Hx in Hab|tauto|].
      apply mg_adj_sym in Hab; [|done]. by apply Hx in Hab.
  - cbn beta. intros u [Hn Hu]. split; [done|]. intros a b. rewrite Hu. split.
    + intros [[Hab|Hab] ?]; apply comb2_iter in Hab as (? & ? & _); done.
    + intros (Ha & Hb & Hadj). split; [|done]. apply comb2_iter; try done. intros ->. by apply (mg_adj_irr g b Hwf).
Qed.

Lemma remove_edge_spec g i j : i ∈ gnodes g → j ∈ gnodes g → ∃ h, remove_edge g i j = Ok h ∧ gnodes h = gnodes g ∧
  ∀ a b, a ∈ gadj h b ↔ a ∈ gadj g b ∧ ¬ (a = i ∧ b = j) ∧ ¬ (a = j ∧ b = i).
Proof.
  intros Hi Hj. unfold remove_edge. rewrite !bool_decide_true by done. cbn [andb]. eexists. split; [done|]. split; [done|].
  intros a b. cbn [gadj upd]. repeat case_decide; subst; rewrite ?elem_of_difference, ?elem_of_singleton; naive_solver.
Qed.

Lemma is_possible_collider_ok g x m y : mg_wf g → x ≠ m → m ≠ y →
  returns (is_possible_collider g x m y) (λ b, b = true ↔ pds_triple g x m y).
Proof.
  intros Hwf Hxm Hmy. unfold is_possible_collider, pds_triple. case_decide as E; [cbn; naive_solver|].
  eapply returns_bind; [by apply m_is_connected_pag|]. cbn beta. intros b1 H1. destruct b1; cbn [negb]; [|cbn; naive_solver].
  eapply returns_bind; [by apply m_is_connected_pag|]. cbn beta. intros b2 H2. destruct b2; cbn [negb]; [|cbn; naive_solver].
  eapply returns_bind; [by apply m_is_connected_pag|]. cbn beta. intros b3 H3. destruct b3; cbn [returns]; [naive_solver|].
  unfold is_collider. rewrite andb_true_iff, !bool_decide_eq_true. unfold has_mark. naive_solver.
Qed.

(** ** Walks *)
Lemma steps_cons x y w : steps (x :: y :: w) = {[x; y]} :: steps (y :: w).
Proof. done. Qed.
Lemma steps_snoc w a b : steps (w ++ [a; b]) = steps (w ++ [a]) ++ [{[a; b]}].
Proof.
  induction w as [|x w IH]; [done|]. destruct w as [|y w]; [done|]. simpl app in *. by rewrite !steps_cons, IH.
Qed.
Lemma pds_walk_snoc g w a b c : pds_walk g (w ++ [a; b]) → pds_triple g a b c → pds_walk g (w ++ [a; b; c]).
Proof.
  intros [Hl Ht] H3. split.
  - assert (linked (mg_adj g) ((w ++ [a]) ++ b :: [c])) as H; [|by rewrite <-app_assoc in H].
    apply linked_glue; [by rewrite <-app_assoc|]. apply linked_cons. split; [apply H3|apply linked_one].
  - intros l1 x y z l2 E. destruct l2 as [|z' l2 _] using rev_ind.
    + assert (x = a ∧ y = b ∧ z = c) as (-> & -> & ->); [|done].
      assert (length w = length l1) as El by (apply (f_equal length) in E; rewrite !app_length in E; simpl in E; lia).
      apply app_inj_1 in E as [_ E]; [|done]. by injection E.
    + apply (Ht l1 x y z l2). replace (w ++ [a; b; c]) with ((w ++ [a; b]) ++ [c]) in E by by rewrite <-app_assoc.
      replace (l1 ++ x :: y :: z :: l2 ++ [z']) with ((l1 ++ x :: y :: z :: l2) ++ [z']) in E by by rewrite <-app_assoc.
      by apply app_inj_tail in E as [E _].
Qed.
Lemma pds_walk_two g a b : mg_adj g a b → pds_walk g [a; b].
Proof.
  intros H. split; [apply linked_cons; split; [done|apply linked_one]|]. intros l1 x y z l2 E. apply (f_equal length) in E. rewrite app_length in E. simpl in E. lia.
Qed.
Lemma steps_in w a b : {[a; b]} ∈ steps w → a ∈ w ∧ b ∈ w.
Proof.
  induction w as [|x [|y w] IH]; cbn [steps]; [by intros ?%elem_of_nil..|]. intros [E|H]%elem_of_cons.
  - assert (a ∈ ({[x; y]} : nset)) as Ha by (rewrite <-E; set_solver +). assert (b ∈ ({[x; y]} : nset)) as Hb by (rewrite <-E; set_solver +).
    set_solver +Ha Hb.
  - apply IH in H. set_solver +H.
Qed.

(** ** Number of edges left *)
Definition esum (V : nset) (u : graph) : nat := sum_list_with (λ b, size (gadj u b)) (elements V).
Lemma sum_list_with_le {A} (f h : A → nat) l : (∀ x, x ∈ l → f x ≤ h x) → sum_list_with f l ≤ sum_list_with h l.
Proof. induction l as [|x l IH]; intros H; [done|]. simpl. pose proof (H x ltac:(left)). assert (∀ y, y ∈ l → f y ≤ h y) by (intros; apply H; by right). apply IH in H1. lia. Qed.
Lemma sum_list_with_lt {A} (f h : A → nat) l y : (∀ x, x ∈ l → f x ≤ h x) → y ∈ l → f y < h y → sum_list_with f l < sum_list_with h l.
Proof.
  intros H Hy Hlt. induction l as [|x l IH]; [by apply elem_of_nil in Hy|]. simpl. pose proof (H x ltac:(left)).
  assert (∀ z, z ∈ l → f z ≤ h z) as H' by (intros; apply H; by right). apply elem_of_cons in Hy as [<-|Hy].
  - pose proof (sum_list_with_le f h l H'). lia.
  - specialize (IH H' Hy). lia.
Qed.
Lemma esum_le V u v : (∀ a b, a ∈ gadj u b → a ∈ gadj v b) → esum V u ≤ esum V v.
Proof. intros H. apply sum_list_with_le. intros b _. apply subseteq_size. intros a. apply H. Qed.
Lemma esum_lt V u v x y : (∀ a b, a ∈ gadj u b → a ∈ gadj v b) → y ∈ V → x ∈ gadj v y → x ∉ gadj u y → esum V u < esum V v.
Proof.
  intros H Hy Hx Hn. apply (sum_list_with_lt _ _ _ y); [|by apply elem_of_elements|].
  - intros b _. apply subseteq_size. intros a. apply H.
  - apply subset_size. split; [intros a; apply H|]. intros Hs. by apply Hn, Hs.
Qed.
Lemma esum_bound V u : (∀ b, gadj u b ⊆ V) → esum V u ≤ size V * size V.
Proof.
  intros H. assert (∀ l, sum_list_with (λ b, size (gadj u b)) l ≤ length l * size V) as Hl.
  { induction l as [|b l IH]; [done|]. simpl. pose proof (subseteq_size _ _ (H b)). lia. }
  exact (Hl (elements V)).
Qed.

(** ** Invariant of the search *)
Section pds.
  Context (o : order) (Ho : iter_ok o) (g : mgraph) (Hwf : mg_wf g) (V : nset) (root : node) (M : nat).

  Record adj_inv (u : graph) : Prop := {
    ai_nodes : gnodes u = V;
    ai_sym : ∀ a b, a ∈ gadj u b → b ∈ gadj u a;
    ai_in : ∀ a b, a ∈ gadj u b → a ∈ V ∧ a ≠ root ∧ mg_adj g a b;
  }.
  Lemma adj_inv_wf u : adj_inv u → wf_graph u.
  Proof. intros I a b H. unfold edge in H. rewrite (ai_nodes _ I). pose proof (ai_sym _ I _ _ H) as H'. by apply (ai_in _ I) in H as [? _], H' as [? _]. Qed.
  Lemma adj_inv_remove u i j : adj_inv u → j ∈ gadj u i → ∃ h, remove_edge u i j = Ok h ∧ adj_inv h ∧ esum V h < esum V u ∧
    ∀ a b, a ∈ gadj h b ↔ a ∈ gadj u b ∧ ¬ (a = i ∧ b = j) ∧ ¬ (a = j ∧ b = i).
  Proof.
    intros I Hj. pose proof (ai_sym _ I _ _ Hj) as Hi. destruct (ai_in _ I _ _ Hj) as [HjV _]. destruct (ai_in _ I _ _ Hi) as [HiV _].
    destruct (remove_edge_spec u i j) as (h & E & Hn & Hh); [by rewrite (ai_nodes _ I)..|]. exists h. split; [done|]. split; [|split; [|done]].
    - split; [by rewrite Hn, (ai_nodes _ I)| |].
      + intros a b. rewrite !Hh. intros (Hab & H1 & H2). split; [by apply (ai_sym _ I)|naive_solver].
      + intros a b. rewrite Hh. intros (Hab & _). by apply (ai_in _ I).
    - apply (esum_lt V h u j i); [|done|done|]; [intros a b; rewrite Hh; tauto|]. rewrite Hh. tauto.
  Qed.

  Lemma adj_inv_nb u n m : adj_inv u → m ∈ get_neighbors o u n ↔ m ∈ gadj u n.
  Proof.
    intros I. destruct (get_neighbors_ok o u n Ho (adj_inv_wf _ I)) as [_ H]. rewrite H. unfold adjacent, edge. split.
    - intros [_ [H'|H']]; [by apply (ai_sym _ I)|done].
    - intros H'. split; [|by right]. intros ->. apply (ai_in _ I) in H' as (_ & _ & H'). by apply (mg_adj_irr g n Hwf).
  Qed.

  Definition good_walk (u : graph) (w : list node) : Prop :=
    pds_walk g (root :: w) ∧ NoDup (steps (root :: w)) ∧ (∀ a b, a ∈ gadj u b → {[a; b]} ∉ steps (root :: w)) ∧ ∀ v, v ∈ w → v ∈ V ∧ v ≠ root.

  Lemma good_walk_mono u u' w : (∀ a b, a ∈ gadj u' b → a ∈ gadj u b) → good_walk u w → good_walk u' w.
  Proof. intros H (H1 & H2 & H3 & H4). split_and!; [done..| |done]. intros a b Hab. by apply H3, H. Qed.

  Lemma pair_eq (a b i j : node) : ({[a; b]} : nset) = {[i; j]} → (a = i ∧ b = j) ∨ (a = j ∧ b = i).
  Proof.
    intros E. assert (a ∈ ({[i; j]} : nset)) as Ha by (rewrite <-E; set_solver +). assert (b ∈ ({[i; j]} : nset)) as Hb by (rewrite <-E; set_solver +).
    assert (i ∈ ({[a; b]} : nset)) as Hi by (rewrite E; set_solver +). assert (j ∈ ({[a; b]} : nset)) as Hj by (rewrite E; set_solver +).
    set_solver +Ha Hb Hi Hj.
  Qed.

  (** a walk extended by an edge that is then removed *)
  Lemma good_walk_step u h p w a b c : adj_inv u → good_walk u p → root :: p = w ++ [a; b] → c ∈ gadj u b → pds_triple g a b c →
    (∀ x y, x ∈ gadj h y ↔ x ∈ gadj u y ∧ ¬ (x = b ∧ y = c) ∧ ¬ (x = c ∧ y = b)) → good_walk h (p ++ [c]).
  Proof.
    intros I (H1 & H2 & H3 & H4) Ep Hc H3' Hh. unfold good_walk. change (root :: p ++ [c]) with ((root :: p) ++ [c]). rewrite Ep in *.
    rewrite <-app_assoc. change ([a; b] ++ [c]) with ([a] ++ [b; c]). rewrite !app_assoc, steps_snoc, <-!app_assoc. change ([a] ++ [b; c]) with [a; b; c].
    change ([a] ++ [b]) with [a; b]. split_and!.
    - by apply pds_walk_snoc.
    - apply NoDup_app. split_and!; [done| |apply NoDup_singleton]. intros s Hs ->%elem_of_list_singleton. apply (H3 b c); [by apply (ai_sym _ I)|done].
    - intros x y Hxy [Hs|Hs%elem_of_list_singleton]%elem_of_app; apply Hh in Hxy as (Hxy & N1 & N2); [by apply (H3 x y)|].
      apply pair_eq in Hs. tauto.
    - intros v [Hv| ->%elem_of_list_singleton]%elem_of_app; [by apply H4|]. by apply (ai_in _ I) in Hc as (? & ? & _).
  Qed.

  Definition pending (t : ptree) (n1 n2 : node) (a : list nat) (X : list node) : Prop :=
    ∃ t2 w, t_at t a = Some t2 ∧ root :: t_names t a = w ++ [n1; n2] ∧ ∀ c, c ∈ children t2 → origin c ∈ X.

  Record pds_inv (s : pds_state) : Prop := {
    pi_adj : adj_inv (ps_adj s);
    pi_wf : twf (ps_tree s);
    pi_origin : origin (ps_tree s) = root;
    pi_depth : depth_level (ps_tree s) = 0;
    pi_walk : ∀ p, tpath (ps_tree s) p → good_walk (ps_adj s) p ∧ length p ≤ 1 `max` M;
    pi_nodes : ∀ v, v ∈ ps_nodes s ↔ t_occurs (ps_tree s) v;
    pi_queue : ∀ n1 n2 a, (n1, n2, a) ∈ ps_queue s → pending (ps_tree s) n1 n2 a [];
    pi_addr : NoDup (ps_queue s).*2;
    pi_removed : ∀ a b, a ∈ V → b ∈ V → a ≠ root → b ≠ root → mg_adj g a b → a ∈ gadj (ps_adj s) b ∨ (a ∈ ps_nodes s ∧ b ∈ ps_nodes s);
  }.

  (** branches that need not be extended any more; [ex] are exempt *)
  Definition closed (ex : list node) (s : pds_state) : Prop := ∀ p w n1 n2, tpath (ps_tree s) p → root :: p = w ++ [n1; n2] →
    (∃ a, (n1, n2, a) ∈ ps_queue s ∧ t_names (ps_tree s) a = p) ∨ p = ex ∨
    (length p < M → ∀ b, b ∈ V → pds_triple g n1 n2 b → b = root ∨ b ∈ ps_nodes s).

  Definition mu (s : pds_state) : nat := length (ps_queue s) + esum V (ps_adj s).

  (** while the neighbours of [n2] are visited *)
  Record pds_cur (n1 n2 : node) (a : list nat) (t0 : ptree) (u0 : graph) (pre post : list node) (m : nat) (s : pds_state) : Prop := {
    pc_keep : ∀ p, tpath t0 p → tpath (ps_tree s) p;
    pc_inv : pds_inv s;
    pc_closed : closed (t_names (ps_tree s) a) s;
    pc_sub : ∀ x y, x ∈ gadj (ps_adj s) y → x ∈ gadj u0 y;
    pc_pend : pending (ps_tree s) n1 n2 a pre;
    pc_fresh : a ∉ (ps_queue s).*2;
    pc_len : length a < M;
    pc_post : ∀ v, v ∈ post → v ∈ gadj (ps_adj s) n2;
    pc_mu : mu s ≤ m;
    pc_edges : ∀ v, v ∈ pre → v ∉ gadj (ps_adj s) n2 ∨ ¬ pds_triple g n1 n2 v;
  }.

  Lemma pds_step_ok n1 n2 a t0 u0 pre x post m s : NoDup (pre ++ x :: post) → pds_cur n1 n2 a t0 u0 pre (x :: post) m s →
    returns (pds_step g n1 n2 a x s) (pds_cur n1 n2 a t0 u0 (pre ++ [x]) post m).
  Proof.
    intros Hnd C. destruct C as [Hk I Hcl Hsub (t2 & w & Hat & Hnm & Hch) Hfr Hlen Hpost Hmu Hed]. pose proof (pi_adj _ I) as A.
    assert (x ∈ gadj (ps_adj s) n2) as Hx by (apply Hpost; left).
    assert (n2 ≠ x) as Hne. { intros ->. apply (ai_in _ A) in Hx as (_ & _ & Hx). by apply (mg_adj_irr g x Hwf). }
    pose proof (pi_walk _ I (t_names (ps_tree s) a)) as Hw. destruct Hw as [Hgw _]; [rewrite <-(app_nil_r (t_names _ _)); eapply t_at_path; [done|constructor]|].
    assert (mg_adj g n1 n2) as Hadj. { destruct Hgw as [[Hl _] _]. rewrite Hnm in Hl. by apply (Hl w n1 n2 []). }
    assert (n1 ≠ n2) as Hne'. { intros ->. by apply (mg_adj_irr g n2 Hwf). }
    unfold pds_step. eapply returns_bind; [by apply is_possible_collider_ok|]. cbn beta. intros b Hb. destruct b; cbn [negb]. 2:
    { cbn [returns]. split; try done.
      - exists t2, w. split_and!; [done..|]. intros c Hc. apply elem_of_app. left. by apply Hch.
      - intros v Hv. apply Hpost. by right.
      - intros v [Hv| ->%elem_of_list_singleton]%elem_of_app; [by apply Hed|]. right. intros H3. by apply Hb in H3. }
    assert (pds_triple g n1 n2 x) as H3 by by apply Hb.
    destruct (adj_inv_remove _ _ _ A Hx) as (h & Eh & Ah & Hes & Hh). rewrite Eh. cbn [mbind res_bind].
    apply NoDup_app in Hnd as (Hndp & Hdis & Hndx). apply NoDup_cons in Hndx as [Hxpost Hndpost].
    assert (x ∉ origin <$> children t2) as Hxc.
    { rewrite elem_of_list_fmap. intros (c & -> & Hc). apply (Hdis _ (Hch _ Hc)). left. }
    destruct (t_upd_ok x a (ps_tree s) t2 Hat Hxc) as (t' & Et & Ho' & Hd' & Hat' & Hp' & Hwf' & Hn' & Hl'). rewrite Et. cbn [mbind res_bind].
    rewrite Hat'. unfold get_child_branch. change (children (grown t2 x)) with (children t2 ++ [PTree x (depth_level t2 + 1) []]).
    rewrite child_index_app; [|intros c Hc <-; apply Hxc, elem_of_list_fmap; eauto|done]. cbn [mbind res_bind returns].
    pose proof (t_names_length _ _ _ Hat) as Hnl.
    assert (t_names t' a = t_names (ps_tree s) a) as Hna by (apply Hn'; eauto).
    assert (t_at t' (a ++ [length (children t2)]) = Some (PTree x (depth_level t2 + 1) [])) as Hnew.
    { rewrite (t_at_app _ _ _ _ Hat'). cbn [t_at grown children]. by rewrite list_lookup_middle. }
    split; cbn [ps_adj ps_queue ps_nodes ps_tree].
    - intros p Hp. apply Hp'. left. by apply Hk.
    - split; cbn [ps_adj ps_queue ps_nodes ps_tree].
      + done.
      + apply Hwf', I.
      + rewrite Ho'. apply I.
      + rewrite Hd'. apply I.
      + intros p [Hp| ->]%Hp'.
        * destruct (pi_walk _ I p Hp) as [Hg ?]. split; [|done]. eapply good_walk_mono; [|exact Hg]. intros u v. rewrite Hh. tauto.
        * split; [exact (good_walk_step (ps_adj s) h _ w n1 n2 x A Hgw Hnm Hx H3 Hh)|]. rewrite app_length, Hnl. simpl. lia.
      + intros v. rewrite elem_of_app, elem_of_list_singleton, (pi_nodes _ I). unfold t_occurs. split.
        * intros [[p Hp]| ->]; [exists p; apply Hp'; by left|]. eexists. apply Hp'. by right.
        * intros [p [Hp|Hp]%Hp']; [left; eauto|]. apply app_inj_tail in Hp as [_ ->]. by right.
      + intros m1 m2 b [Hq|Hq%elem_of_list_singleton]%elem_of_app.
        * destruct (pi_queue _ I _ _ _ Hq) as (u & w' & Hu & Hnw & Hcu). exists u, w'. split_and!; [|rewrite Hn'; eauto|done].
          apply Hl'; [done| |].
          -- destruct (children u) as [|c cs] eqn:E; [done|]. exfalso. assert (origin c ∈ @nil node) as H0 by (apply Hcu; left). by apply elem_of_nil in H0.
          -- intros ->. apply Hfr, elem_of_list_fmap. exists (m1, m2, a). by split.
        * injection Hq as -> -> ->. eexists _, (w ++ [n1]). split; [exact Hnew|]. split.
          -- rewrite (t_names_app _ _ _ _ Hat'), Hna. cbn [t_names grown children]. rewrite list_lookup_middle by done. cbn [origin].
             change (root :: t_names (ps_tree s) a ++ [x]) with ((root :: t_names (ps_tree s) a) ++ [x]). rewrite Hnm, <-!app_assoc. done.
          -- cbn. intros c Hc. by apply elem_of_nil in Hc.
      + rewrite fmap_app. apply NoDup_app. split_and!; [apply I| |cbn; apply NoDup_singleton]. cbn. intros b Hb' ->%elem_of_list_singleton.
        apply elem_of_list_fmap in Hb' as ([[m1 m2] b] & Eb & Hq). cbn in Eb. subst b. destruct (pi_queue _ I _ _ _ Hq) as (u & w' & Hu & _).
        rewrite (t_at_app _ _ _ _ Hat) in Hu. cbn [t_at] in Hu. by rewrite lookup_ge_None_2 in Hu.
      + assert (n2 ∈ ps_nodes s) as Hn2.
        { apply (pi_nodes _ I). destruct (t_names (ps_tree s) a) as [|y l _] eqn:El using rev_ind.
          - destruct w as [|? [|]]; done.
          - exists l. assert (y = n2) as <-; [|rewrite <-El; rewrite <-(app_nil_r (t_names _ _)); eapply t_at_path; [done|constructor]].
            change (root :: l ++ [y]) with ((root :: l) ++ [y]) in Hnm. change [n1; n2] with ([n1] ++ [n2]) in Hnm. rewrite app_assoc in Hnm. by apply app_inj_tail in Hnm as [_ ?]. }
        intros y z Hy Hz Hyr Hzr Hyz. rewrite !elem_of_app, !elem_of_list_singleton, Hh. destruct (pi_removed _ I y z Hy Hz Hyr Hzr Hyz) as [Hin|[? ?]]; [|tauto].
        destruct (decide (y = n2 ∧ z = x)) as [[-> ->]|N1]; [tauto|]. destruct (decide (y = x ∧ z = n2)) as [[-> ->]|N2]; [tauto|]. tauto.
    - intros p w' m1 m2 [Hp| ->]%Hp' Hpw; cbn [ps_adj ps_queue ps_nodes ps_tree].
      + destruct (Hcl p w' m1 m2 Hp Hpw) as [(b & Hq & Hb')|[->|Hc]].
        * left. exists b. split; [apply elem_of_app; by left|]. rewrite Hn'; [done|]. destruct (pi_queue _ I _ _ _ Hq) as (u & ? & Hu & _). eauto.
        * right. left. by rewrite Hna.
        * right. right. intros Hlt b HbV Htr. rewrite elem_of_app. destruct (Hc Hlt b HbV Htr); tauto.
      + left. exists (a ++ [length (children t2)]). split.
        * apply elem_of_app. right. apply elem_of_list_singleton. change (root :: t_names (ps_tree s) a ++ [x]) with ((root :: t_names (ps_tree s) a) ++ [x]) in Hpw.
          rewrite Hnm in Hpw. replace ((w ++ [n1; n2]) ++ [x]) with ((w ++ [n1]) ++ [n2; x]) in Hpw by by rewrite <-!app_assoc.
          apply app_inj_2 in Hpw as [_ Hpw]; [|done]. by injection Hpw as -> ->.
        * rewrite (t_names_app _ _ _ _ Hat'), Hna. cbn [t_names grown children]. by rewrite list_lookup_middle.
    - intros y z. rewrite Hh. intros [? _]. by apply Hsub.
    - exists (grown t2 x), w. split_and!; [done|by rewrite Hna|]. intros c. cbn [grown children]. intros [Hc| ->%elem_of_list_singleton]%elem_of_app.
      + apply elem_of_app. left. by apply Hch.
      + apply elem_of_app. right. by left.
    - rewrite fmap_app, elem_of_app. intros [?|Ha]; [done|]. cbn in Ha. apply elem_of_list_singleton in Ha. apply (f_equal length) in Ha. rewrite app_length in Ha. simpl in Ha. lia.
    - done.
    - intros v Hv. apply Hh. split; [apply Hpost; by right|]. split; [by intros [? ?]|]. intros [-> _]. done.
    - unfold mu in *. cbn [ps_queue ps_adj]. rewrite app_length. simpl. lia.
    - intros v [Hv| ->%elem_of_list_singleton]%elem_of_app; [|left; rewrite Hh; tauto]. destruct (Hed v Hv) as [?|?]; [|by right]. left. rewrite Hh. tauto.
  Qed.

  Lemma pds_loop_ok fuel : ∀ s, mu s < fuel → pds_inv s → closed [] s → returns (pds_loop o fuel g M s) (λ s', pds_inv s' ∧ ps_queue s' = [] ∧
    closed [] s' ∧ ∀ p, tpath (ps_tree s) p → tpath (ps_tree s') p).
  Proof.
    induction fuel as [|fuel IH]; intros s Hf I Hcl; [lia|]. destruct s as [u q ns t]. cbn [pds_loop ps_queue ps_adj ps_nodes ps_tree].
    destruct q as [|[[n1 n2] a] q]; [by cbn|].
    assert ((n1, n2, a) ∈ (n1, n2, a) :: q) as Hin by left. destruct (pi_queue _ I n1 n2 a Hin) as (t2 & w & Hat & Hnm & Hch). cbn [ps_tree] in Hat, Hnm.
    rewrite Hat. pose proof (pi_addr _ I) as Hnd. cbn [ps_queue] in Hnd. change (((n1, n2, a) :: q).*2) with (a :: q.*2) in Hnd. apply NoDup_cons in Hnd as [Ha Hnd].
    pose proof (t_names_length _ _ _ Hat) as Hnl.
    assert (pds_inv (PdsState u q ns t)) as I'.
    { destruct I as [I1 I2 I3 I4 I5 I6 I7 I8 I9]. cbn [ps_adj ps_queue ps_nodes ps_tree] in *. split; cbn [ps_adj ps_queue ps_nodes ps_tree]; try done.
      intros m1 m2 b Hb. apply I7. by right. }
    assert (depth_level t2 = length a) as Hdep.
    { destruct (t_at_depth _ _ _ (pi_wf _ I) Hat) as [-> _]. pose proof (pi_depth _ I) as H0. cbn [ps_tree] in H0 |- *. by rewrite H0. }
    assert (closed (t_names t a) (PdsState u q ns t)) as Hcl'.
    { intros p w' m1 m2 Hp Hpw. destruct (Hcl p w' m1 m2 Hp Hpw) as [(b & Hq & Hb)|[->|Hc]].
      - cbn [ps_queue ps_tree] in Hq, Hb |- *. apply elem_of_cons in Hq as [[= -> -> ->]|Hq]; [by right; left|]. left. by exists b.
      - by destruct w' as [|? [|]].
      - by right; right. }
    case_decide as HM.
    - eapply returns_mono; [apply IH; [unfold mu in *; cbn [ps_queue ps_adj] in *; simpl in Hf; lia|done|]|done].
      intros p w' m1 m2 Hp Hpw. destruct (Hcl' p w' m1 m2 Hp Hpw) as [Hc|[->|Hc]]; [by left| |by right; right].
      right. right. intros Hlt. lia.
    - eapply returns_bind.
      { apply (for_returns_pre _ _ _ (λ pre s, ∃ post, get_neighbors o u n2 = pre ++ post ∧ pds_cur n1 n2 a t u pre post (length q + esum V u) s)).
        - exists (get_neighbors o u n2). split; [done|]. split; cbn [ps_adj ps_queue ps_nodes ps_tree]; try done.
          + exists t2, w. split_and!; [done..|]. exact Hch.
          + lia.
          + intros v. apply (adj_inv_nb u n2 v (pi_adj _ I)).
          + intros v Hv. by apply elem_of_nil in Hv.
        - intros pre x post s E (post' & E' & C). rewrite E in E'. apply app_inv_head in E' as <-.
          destruct (get_neighbors_ok o u n2 Ho (adj_inv_wf _ (pi_adj _ I))) as [Hndn _]. cbn [ps_adj] in Hndn. rewrite E in Hndn.
          eapply returns_mono; [by apply (pds_step_ok n1 n2 a t u pre x post (length q + esum V u))|].
          cbn beta. intros s' C'. exists post. split; [|done]. by rewrite E, <-app_assoc. }
      cbn beta. intros s (post & E & C). assert (post = []) as ->.
      { apply (f_equal length) in E. rewrite app_length in E. destruct post; [done|]. simpl in E. lia. }
      destruct C as [Hk I'' Hcl'' Hsub (t2' & w' & Hat' & Hnm' & _) _ Hlen _ Hmu Hed].
      eapply returns_mono; [apply IH; [unfold mu in *; cbn [ps_queue ps_adj] in *; simpl in Hf; lia|done|]|].
      + intros p w'' m1 m2 Hp Hpw. destruct (Hcl'' p w'' m1 m2 Hp Hpw) as [Hc|[->|Hc]]; [by left| |by right; right].
        right. right. intros Hlt b HbV Htr. destruct (decide (b = root)) as [->|Hbr]; [by left|]. right.
        rewrite Hnm' in Hpw. apply app_inj_2 in Hpw as [-> Hpw]; [|done]. injection Hpw as <- <-.
        assert (n2 ∈ V ∧ n2 ≠ root) as [Hn2V Hn2r].
        { destruct (pi_walk _ I'' (t_names (ps_tree s) a)) as [(_ & _ & _ & Hv) _]; [rewrite <-(app_nil_r (t_names _ _)); eapply t_at_path; [done|constructor]|].
          apply Hv. destruct (t_names (ps_tree s) a) as [|y l _] using rev_ind; [by destruct w'' as [|? [|]]|].
          change (root :: l ++ [y]) with ((root :: l) ++ [y]) in Hnm'. change [n1; n2] with ([n1] ++ [n2]) in Hnm'. rewrite app_assoc in Hnm'. apply app_inj_tail in Hnm' as [_ ->].
          apply elem_of_app. right. by left. }
        assert (mg_adj g b n2) as Hbn by (apply mg_adj_sym; [done|]; apply Htr).
        destruct (pi_removed _ I'' b n2 HbV Hn2V Hbr Hn2r Hbn) as [Hin'|[? _]]; [|done]. exfalso.
        assert (b ∈ get_neighbors o u n2) as Hbnb. { apply (adj_inv_nb u n2 b (pi_adj _ I)). by apply Hsub. }
        by destruct (Hed b Hbnb).
      + cbn beta. intros s' (? & ? & ? & Hk'). split_and!; try done. intros p Hp. by apply Hk', Hk.
  Qed.
End pds.
