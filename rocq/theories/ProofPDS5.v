(** create_pds_tree and create_pds_set. *)
From Verif Require Import Base BaseLemmas ModelGraph Spec Paths ModelMixed SpecMixed ModelPAG ModelPDS SpecPDS ProofGraph3 ProofCount ProofMixed ProofPAG ProofPDS ProofPDS3 ProofPDS4.

(** removing the edges of the root *)
Lemma remove_root o g V root u : iter_ok o → mg_wf g → root ∈ V → gnodes u = V → (∀ a b, a ∈ gadj u b ↔ a ∈ V ∧ b ∈ V ∧ mg_adj g a b) →
  NoDup (get_neighbors o u root) ∧ (∀ v, v ∈ get_neighbors o u root ↔ v ∈ V ∧ mg_adj g root v) ∧
  returns (for_ (get_neighbors o u root) (λ v u, remove_edge u root v) u) (λ u', adj_inv g V root u' ∧
    ∀ a b, a ∈ V → b ∈ V → a ≠ root → b ≠ root → mg_adj g a b → a ∈ gadj u' b).
Proof.
  intros Ho Hwf Hr Hn Hu. assert (wf_graph u) as Hwu by (intros a b H; unfold edge in H; rewrite Hn; by apply Hu in H as (? & ? & _)).
  destruct (get_neighbors_ok o u root Ho Hwu) as [Hnd Hnb]. split; [done|].
  assert (∀ v, v ∈ get_neighbors o u root ↔ v ∈ V ∧ mg_adj g root v) as Hnb'.
  { intros v. rewrite Hnb. unfold adjacent, edge. rewrite !Hu. split.
    - intros [_ [(? & ? & ?)|(? & ? & H)]]; [done|]. split; [done|]. by apply mg_adj_sym.
    - intros [? ?]. split; [|left; done]. intros ->. by apply (mg_adj_irr g root Hwf). }
  split; [done|].
  eapply returns_mono; [apply (for_returns_pre _ _ _ (λ pre u', gnodes u' = V ∧ ∀ a b, a ∈ gadj u' b ↔ a ∈ gadj u b ∧ ¬ (a = root ∧ b ∈ pre) ∧ ¬ (b = root ∧ a ∈ pre)))|].
  - split; [done|]. intros a b. set_solver +.
  - intros pre x post u' E [Hn' Hu']. assert (x ∈ get_neighbors o u root) as Hx by (rewrite E; set_solver +). apply Hnb' in Hx as [HxV _].
    destruct (remove_edge_spec u' root x) as (h & -> & Hh & Hh'); [by rewrite Hn'..|]. cbn [returns]. split; [by rewrite Hh|].
    intros a b. rewrite Hh', Hu', !elem_of_app, !elem_of_list_singleton. tauto.
  - cbn beta. intros u' [Hn' Hu']. split; [split; [done| |]|].
    + intros a b. rewrite !Hu', !Hu. intros ((? & ? & ?) & ? & ?). split_and!; [done..|by apply mg_adj_sym|done|done].
    + intros a b. rewrite Hu', Hu. intros ((? & ? & Hab) & H1 & H2). split_and!; try done. intros ->. apply H1. split; [done|]. by apply Hnb'.
    + intros a b Ha Hb Har Hbr Hab. apply Hu'. rewrite Hu. split; [done|]. split; by intros [? _].
Qed.

(** the tree with the neighbours *)
Lemma nb_tree root (nb : list node) : NoDup nb → returns (for_ nb (λ v t, add_branch t v) (PTree root 0 [])) (λ t, t = PTree root 0 ((λ v, PTree v 1 []) <$> nb)).
Proof.
  intros Hnd. apply (for_returns_pre _ _ _ (λ pre t, t = PTree root 0 ((λ v, PTree v 1 []) <$> pre))); [done|].
  intros pre x post t E ->. rewrite add_branch_ok, decide_False; cbn [children returns].
  - unfold grown. cbn [origin depth_level children]. by rewrite fmap_app.
  - rewrite E in Hnd. apply NoDup_app in Hnd as (_ & Hd & _). rewrite elem_of_list_fmap. intros (c & -> & Hc).
    apply elem_of_list_fmap in Hc as (v & -> & Hv). cbn [origin] in Hd. apply (Hd v Hv). left.
Qed.
Lemma nb_tree_path root nb p : tpath (PTree root 0 ((λ v, PTree v 1 []) <$> nb)) p ↔ p = [] ∨ ∃ v, p = [v] ∧ v ∈ nb.
Proof.
  destruct p as [|x p]; [split; [by left|constructor]|]. rewrite tpath_cons. cbn [children]. split.
  - intros (c & Hc & Hx & Hp). apply elem_of_list_fmap in Hc as (v & -> & Hv). cbn in Hx. subst x. right. exists v. split; [|done].
    apply tpath_inv in Hp as [->|(c & ? & _ & Hc & _)]; [done|by apply elem_of_nil in Hc].
  - intros [?|(v & [= -> ->] & Hv)]; [done|]. exists (PTree v 1 []). split; [apply elem_of_list_fmap; eauto|]. split; [done|constructor].
Qed.

Theorem create_pds_tree_ok o fuel g root en md : let V := default (mnodes g) en in iter_ok o → mg_wf g → root ∈ V → V ⊆ mnodes g →
  size V * size V + size V < fuel →
  returns (create_pds_tree o fuel g root en md) (λ r, pds_tree_spec g V root (default (size V - 1) md) r.1 r.2).
Proof.
  intros V Ho Hwf Hr HV Hf. unfold create_pds_tree. eapply returns_bind.
  { instantiate (1 := λ _, True). destruct en as [V'|]; [|done]. change V with V' in *. rewrite !bool_decide_true by done. done. }
  intros _ _. eapply returns_bind; [apply skeleton_ok_wf; done|]. fold V. cbn beta. intros u [Hn Hu].
  destruct (remove_root o g V root u Ho Hwf Hr Hn Hu) as (Hnd & Hnb & Hrem). set (nb := get_neighbors o u root) in *.
  eapply returns_bind; [exact Hrem|]. cbn beta. intros u' [A Hu']. rewrite (ai_nodes _ _ _ _ A).
  set (M := default (size V - 1) md). eapply returns_bind; [by apply nb_tree|]. cbn beta. intros t ->.
  set (t := PTree root 0 ((λ v, PTree v 1 []) <$> nb)).
  assert (∀ i v, nb !! i = Some v → t_at t [i] = Some (PTree v 1 [])) as Hat by (intros i v E; cbn [t_at t children]; by rewrite list_lookup_fmap, E).
  assert (∀ i v, nb !! i = Some v → t_names t [i] = [v]) as Hnm by (intros i v E; cbn [t_names t children]; by rewrite list_lookup_fmap, E).
  assert (∀ n1 n2 a, (n1, n2, a) ∈ imap (λ i v, (root, v, [i])) nb → n1 = root ∧ ∃ i, a = [i] ∧ nb !! i = Some n2) as Hq.
  { intros n1 n2 a Hin. apply elem_of_list_lookup in Hin as [i Hi]. rewrite list_lookup_imap in Hi. destruct (nb !! i) as [v|] eqn:E; [|done].
    injection Hi as <- <- <-. eauto. }
  assert (pds_inv g V root M (PdsState u' (imap (λ i v, (root, v, [i])) nb) nb t)) as I.
  { split; cbn [ps_adj ps_queue ps_nodes ps_tree]; [exact A| |reflexivity|reflexivity|..].
    - constructor; cbn [t children].
      + rewrite <-list_fmap_compose. unfold compose. cbn [origin]. by rewrite list_fmap_id.
      + intros c Hc. apply elem_of_list_fmap in Hc as (v & -> & _). split; [done|apply leaf_twf].
    - intros p [->|(v & -> & Hv)]%nb_tree_path.
      + split; [|simpl; lia]. split_and!; [split; [apply linked_one|]|constructor| |by intros ? ?%elem_of_nil].
        * intros l1 a b c l2 E. apply (f_equal length) in E. rewrite app_length in E. simpl in E. lia.
        * intros a b _. apply not_elem_of_nil.
      + apply Hnb in Hv as [HvV Hadj]. split; [|simpl; lia]. split_and!; [by apply pds_walk_two|cbn; apply NoDup_singleton| |].
        * intros a b Hab. cbn [steps]. rewrite elem_of_list_singleton. intros E. pose proof (ai_sym _ _ _ _ A _ _ Hab) as Hba.
          apply (ai_in _ _ _ _ A) in Hab as (_ & ? & _), Hba as (_ & ? & _). apply pair_eq in E. naive_solver.
        * intros w ->%elem_of_list_singleton. split; [done|]. intros ->. by apply (mg_adj_irr g root Hwf).
    - intros v. unfold t_occurs. split; [intros Hv; exists []; apply nb_tree_path; right; eauto|].
      intros [p [E|(w & E & Hw)]%nb_tree_path]; [by destruct p|]. destruct p as [|? [|]]; try done. by injection E as ->.
    - intros n1 n2 a (-> & i & -> & Hi)%Hq. exists (PTree n2 1 []), []. split; [by apply Hat|]. split; [by rewrite (Hnm _ _ Hi)|]. by intros c ?%elem_of_nil.
    - assert ((imap (λ i v, (root, v, [i])) nb).*2 = imap (λ i v, [i]) nb) as -> by by rewrite fmap_imap.
      apply NoDup_alt. intros i j a Hi Hj. rewrite list_lookup_imap in Hi, Hj. destruct (nb !! i); [|done]. destruct (nb !! j); [|done]. cbn in Hi, Hj. congruence.
    - intros a b Ha Hb Har Hbr Hab. left. by apply Hu'. }
  assert (closed g V root M [] (PdsState u' (imap (λ i v, (root, v, [i])) nb) nb t)) as C.
  { intros p w n1 n2 [->|(v & -> & Hv)]%nb_tree_path Hw; [by right; left|]. left. cbn [ps_queue ps_tree].
    destruct w as [|? [|? [|]]]; try done. injection Hw as <- <-. apply elem_of_list_lookup in Hv as [i Hi]. exists [i]. split; [|by apply Hnm].
    apply elem_of_list_lookup. exists i. by rewrite list_lookup_imap, Hi. }
  eapply returns_bind; [apply (pds_loop_ok o Ho g Hwf V root M fuel); [|done|done]|].
  - unfold mu. cbn [ps_queue ps_adj]. rewrite imap_length. assert (length nb ≤ size V).
    { rewrite <-(size_list_to_set (C:=nset) nb) by done. apply subseteq_size. intros v. rewrite elem_of_list_to_set. by intros [? _]%Hnb. }
    assert (esum V u' ≤ size V * size V); [|lia]. apply esum_bound. intros b a Ha. by apply (ai_in _ _ _ _ A) in Ha as (? & _).
  - cbn beta. intros s (I' & Hqe & C' & Hk). cbn [returns fst snd].
    assert (∀ v, v ∈ (list_to_set (ps_nodes s) ∖ {[root]} : nset) ↔ t_occurs (ps_tree s) v) as HX.
    { intros v. rewrite elem_of_difference, elem_of_list_to_set, elem_of_singleton, (pi_nodes _ _ _ _ _ I'). split; [by intros [? _]|].
      intros Hv. split; [done|]. destruct Hv as [p Hp]. destruct (pi_walk _ _ _ _ _ I' _ Hp) as [(_ & _ & _ & Hv) _]. apply Hv. set_solver +. }
    split; [apply I'..| |done| |].
    + intros p Hp. destruct (pi_walk _ _ _ _ _ I' _ Hp) as [(? & ? & _ & ?) ?]. by split_and!.
    + intros v Hv Hadj. apply Hk. apply nb_tree_path. right. exists v. split; [done|]. by apply Hnb.
    + intros p w a b c Hp Hw Hlt Hc Hcr Htr. apply (pi_nodes _ _ _ _ _ I'). destruct (C' p w a b Hp Hw) as [(? & Hin & _)|[->|H]].
      * rewrite Hqe in Hin. by apply elem_of_nil in Hin.
      * by destruct w as [|? [|]].
      * by destruct (H Hlt c Hc Htr).
Qed.

Theorem create_pds_tree_assert o fuel g root V md : root ∉ V ∨ ¬ V ⊆ mnodes g → create_pds_tree o fuel g root (Some V) md = Raise AssertionError.
Proof.
  intros H. unfold create_pds_tree. cbn [mbind res_bind]. destruct (decide (root ∈ V)) as [Hr|Hr].
  - rewrite (bool_decide_true (root ∈ V)) by done. rewrite (bool_decide_false (V ⊆ mnodes g)) by tauto. done.
  - by rewrite (bool_decide_false (root ∈ V)) by done.
Qed.

(** ** The set computed by FCI *)
Section fpds.
  Context (o : order) (Ho : iter_ok o) (g : mgraph) (Hwf : mg_wf g) (V : nset) (root : node).

  Record fpds_inv (s : fpds_state) : Prop := {
    fi_adj : adj_inv g V root (fp_adj s);
    fi_queue : ∀ n1 n2, (n1, n2) ∈ fp_queue s → ∃ p w, good_walk g V root (fp_adj s) p ∧ root :: p = w ++ [n1; n2];
    fi_queue_in : ∀ n1 n2, (n1, n2) ∈ fp_queue s → n2 ∈ fp_nodes s;
    fi_nodes : ∀ v, v ∈ fp_nodes s → ∃ p, good_walk g V root (fp_adj s) (p ++ [v]);
    fi_removed : ∀ a b, a ∈ V → b ∈ V → a ≠ root → b ≠ root → mg_adj g a b → a ∈ gadj (fp_adj s) b ∨ (a ∈ fp_nodes s ∧ b ∈ fp_nodes s);
    fi_nb : ∀ v, v ∈ V → mg_adj g root v → v ∈ fp_nodes s;
  }.
  Definition fclosed (ex : node) (s : fpds_state) : Prop := ∀ a, a ∈ V → mg_adj g root a →
    (root, a) ∈ fp_queue s ∨ a = ex ∨ ∀ b, b ∈ V → pds_triple g root a b → b = root ∨ b ∈ fp_nodes s.
  Definition fmu (s : fpds_state) : nat := length (fp_queue s) + esum V (fp_adj s).

  Record fpds_cur (n1 n2 : node) (u0 : graph) (ex : node) (pre post : list node) (m : nat) (s : fpds_state) : Prop := {
    fc_inv : fpds_inv s;
    fc_closed : fclosed ex s;
    fc_sub : ∀ x y, x ∈ gadj (fp_adj s) y → x ∈ gadj u0 y;
    fc_cur : ∃ p w, good_walk g V root (fp_adj s) p ∧ root :: p = w ++ [n1; n2];
    fc_cur_in : n2 ∈ fp_nodes s;
    fc_post : ∀ v, v ∈ post → v ∈ gadj (fp_adj s) n2;
    fc_mu : fmu s ≤ m;
    fc_edges : ∀ v, v ∈ pre → v ∉ gadj (fp_adj s) n2 ∨ ¬ pds_triple g n1 n2 v;
  }.

  Lemma fpds_step_ok n1 n2 u0 ex pre x post m s : NoDup (pre ++ x :: post) → fpds_cur n1 n2 u0 ex pre (x :: post) m s →
    returns (fpds_step g n1 n2 x s) (fpds_cur n1 n2 u0 ex (pre ++ [x]) post m).
  Proof.
    intros Hnd C. destruct C as [I Hcl Hsub (p & w & Hgw & Hpw) Hn2 Hpost Hmu Hed]. pose proof (fi_adj _ I) as A.
    assert (x ∈ gadj (fp_adj s) n2) as Hx by (apply Hpost; left).
    assert (n2 ≠ x) as Hne. { intros ->. apply (ai_in _ _ _ _ A) in Hx as (_ & _ & Hx). by apply (mg_adj_irr g x Hwf). }
    assert (mg_adj g n1 n2) as Hadj. { destruct Hgw as [[Hl _] _]. rewrite Hpw in Hl. by apply (Hl w n1 n2 []). }
    assert (n1 ≠ n2) as Hne'. { intros ->. by apply (mg_adj_irr g n2 Hwf). }
    unfold fpds_step. eapply returns_bind; [by apply is_possible_collider_ok|]. cbn beta. intros b Hb. destruct b; cbn [negb]. 2:
    { cbn [returns]. split; try done.
      - by exists p, w.
      - intros v Hv. apply Hpost. by right.
      - intros v [Hv| ->%elem_of_list_singleton]%elem_of_app; [by apply Hed|]. right. intros H3. by apply Hb in H3. }
    assert (pds_triple g n1 n2 x) as H3 by by apply Hb.
    destruct (adj_inv_remove g V root _ _ _ A Hx) as (h & Eh & Ah & Hes & Hh). rewrite Eh. cbn [mbind res_bind returns].
    apply NoDup_app in Hnd as (Hndp & Hdis & Hndx). apply NoDup_cons in Hndx as [Hxpost Hndpost].
    assert (∀ q, good_walk g V root (fp_adj s) q → good_walk g V root h q) as Hmono.
    { intros q. apply good_walk_mono. intros a b. rewrite Hh. tauto. }
    assert (good_walk g V root h (p ++ [x])) as Hnew by exact (good_walk_step g V root (fp_adj s) h _ w n1 n2 x A Hgw Hpw Hx H3 Hh).
    split; cbn [fp_adj fp_queue fp_nodes].
    - split; cbn [fp_adj fp_queue fp_nodes]; [done|..].
      + intros m1 m2 [Hq|Hq%elem_of_list_singleton]%elem_of_app.
        * destruct (fi_queue _ I _ _ Hq) as (q & w' & Hg & Hw'). exists q, w'. split; [by apply Hmono|done].
        * injection Hq as -> ->. exists (p ++ [x]), (w ++ [n1]). split; [done|]. change (root :: p ++ [x]) with ((root :: p) ++ [x]). by rewrite Hpw, <-!app_assoc.
      + intros m1 m2 [Hq|Hq%elem_of_list_singleton]%elem_of_app; apply elem_of_app; [left; by eapply fi_queue_in|]. injection Hq as -> ->. right. by left.
      + intros v [Hv| ->%elem_of_list_singleton]%elem_of_app; [|by exists p]. destruct (fi_nodes _ I v Hv) as [q Hq]. exists q. by apply Hmono.
      + intros y z Hy Hz Hyr Hzr Hyz. rewrite !elem_of_app, !elem_of_list_singleton, Hh. destruct (fi_removed _ I y z Hy Hz Hyr Hzr Hyz) as [Hin|[? ?]]; [|tauto].
        destruct (decide (y = n2 ∧ z = x)) as [[-> ->]|N1]; [tauto|]. destruct (decide (y = x ∧ z = n2)) as [[-> ->]|N2]; [tauto|]. tauto.
      + intros v Hv Hadj'. apply elem_of_app. left. by apply (fi_nb _ I).
    - intros a HaV Haa. cbn [fp_queue fp_nodes]. destruct (Hcl a HaV Haa) as [Hq|[->|Hc]]; [left; apply elem_of_app; by left|by right; left|].
      right. right. intros b HbV Htr. rewrite elem_of_app. destruct (Hc b HbV Htr); tauto.
    - intros y z. rewrite Hh. intros [? _]. by apply Hsub.
    - exists p, w. split; [by apply Hmono|done].
    - apply elem_of_app. by left.
    - intros v Hv. apply Hh. split; [apply Hpost; by right|]. split; [by intros [? ?]|]. intros [-> _]. done.
    - unfold fmu in *. cbn [fp_queue fp_adj]. rewrite app_length. simpl. lia.
    - intros v [Hv| ->%elem_of_list_singleton]%elem_of_app; [|left; rewrite Hh; tauto]. destruct (Hed v Hv) as [?|?]; [|by right]. left. rewrite Hh. tauto.
  Qed.

  Lemma fpds_loop_ok fuel : ∀ s, fmu s < fuel → fpds_inv s → fclosed root s → returns (fpds_loop o fuel g s) (λ s', fpds_inv s' ∧ fp_queue s' = [] ∧ fclosed root s').
  Proof.
    induction fuel as [|fuel IH]; intros s Hf I Hcl; [lia|]. destruct s as [u q ns]. cbn [fpds_loop fp_queue fp_adj fp_nodes].
    destruct q as [|[n1 n2] q]; [by cbn|].
    assert ((n1, n2) ∈ (n1, n2) :: q) as Hin by left. pose proof (fi_queue _ I n1 n2 Hin) as (p & w & Hgw & Hpw). pose proof (fi_queue_in _ I n1 n2 Hin) as Hn2.
    cbn [fp_adj fp_nodes] in Hgw, Hn2.
    assert (fpds_inv (FPdsState u q ns)) as I'.
    { destruct I as [I1 I2 I3 I4 I5 I6]. cbn [fp_adj fp_queue fp_nodes] in *. split; cbn [fp_adj fp_queue fp_nodes]; try done.
      - intros m1 m2 Hb. apply I2. by right.
      - intros m1 m2 Hb. apply (I3 m1). by right. }
    set (ex := if decide (n1 = root) then n2 else root).
    assert (root ∉ V ∨ ¬ mg_adj g root root) as Hroot by (right; apply (mg_adj_irr g root Hwf)).
    assert (fclosed ex (FPdsState u q ns)) as Hcl'.
    { intros a Ha Haa. destruct (Hcl a Ha Haa) as [Hq|[->|Hc]].
      - cbn [fp_queue] in Hq |- *. apply elem_of_cons in Hq as [[= <- <-]|Hq]; [right; left; unfold ex; by rewrite decide_True|]. by left.
      - by apply (mg_adj_irr g root Hwf) in Haa.
      - by right; right. }
    eapply returns_bind.
    { apply (for_returns_pre _ _ _ (λ pre s, ∃ post, get_neighbors o u n2 = pre ++ post ∧ fpds_cur n1 n2 u ex pre post (length q + esum V u) s)).
      - exists (get_neighbors o u n2). split; [done|]. split; cbn [fp_adj fp_queue fp_nodes]; try done.
        + by exists p, w.
        + intros v. apply (adj_inv_nb o Ho g Hwf V root u n2 v (fi_adj _ I)).
        + intros v Hv. by apply elem_of_nil in Hv.
      - intros pre x post s E (post' & E' & C). rewrite E in E'. apply app_inv_head in E' as <-.
        destruct (get_neighbors_ok o u n2 Ho (adj_inv_wf _ _ _ _ (fi_adj _ I))) as [Hndn _]. cbn [fp_adj] in Hndn. rewrite E in Hndn.
        eapply returns_mono; [by apply (fpds_step_ok n1 n2 u ex pre x post (length q + esum V u))|].
        cbn beta. intros s' C'. exists post. split; [|done]. by rewrite E, <-app_assoc. }
    cbn beta. intros s (post & E & C). assert (post = []) as ->.
    { apply (f_equal length) in E. rewrite app_length in E. destruct post; [done|]. simpl in E. lia. }
    destruct C as [I'' Hcl'' Hsub (p' & w' & Hgw' & Hpw') Hn2' _ Hmu Hed].
    apply IH; [unfold fmu in *; cbn [fp_queue fp_adj] in *; simpl in Hf; lia|done|].
    intros a HaV Haa. destruct (Hcl'' a HaV Haa) as [Hc|[->|Hc]]; [by left| |by right; right].
    unfold ex in *. case_decide as Er; [subst n1|by apply (mg_adj_irr g root Hwf) in Haa]. right. right. intros b HbV Htr. destruct (decide (b = root)) as [->|Hbr]; [by left|]. right.
    assert (n2 ≠ root) as Hn2r by (intros ->; by apply (mg_adj_irr g root Hwf) in Haa).
    assert (mg_adj g b n2) as Hbn by (apply mg_adj_sym; [done|]; apply Htr).
    destruct (fi_removed _ I'' b n2 HbV HaV Hbr Hn2r Hbn) as [Hin'|[? _]]; [|done]. exfalso.
    assert (b ∈ get_neighbors o u n2) as Hbnb. { apply (adj_inv_nb o Ho g Hwf V root u n2 b (fi_adj _ I)). by apply Hsub. }
    by destruct (Hed b Hbnb).
  Qed.
End fpds.

Theorem create_pds_set_ok o fuel g root : iter_ok o → mg_wf g → root ∈ mnodes g → size (mnodes g) * size (mnodes g) + size (mnodes g) < fuel →
  returns (create_pds_set o fuel g root) (λ X,
    (∀ v, v ∈ X → v ∈ mnodes g ∧ v ≠ root ∧ ∃ p, pds_walk g (root :: p ++ [v]) ∧ NoDup (steps (root :: p ++ [v])) ∧ root ∉ p) ∧
    (∀ v, mg_adj g root v → v ∈ X) ∧
    (∀ a b, b ≠ root → pds_triple g root a b → b ∈ X)).
Proof.
  intros Ho Hwf Hr Hf. unfold create_pds_set. set (V := mnodes g) in *.
  eapply returns_bind; [apply (skeleton_ok_wf o g None); done|]. cbn beta. intros u [Hn Hu]. cbn [default from_option] in Hn, Hu. unfold id in *. fold V in Hn, Hu.
  destruct (remove_root o g V root u Ho Hwf Hr Hn Hu) as (Hnd & Hnb & Hrem). set (nb := get_neighbors o u root) in *.
  eapply returns_bind; [exact Hrem|]. cbn beta. intros u' [A Hu'].
  assert (∀ v, v ∈ nb → good_walk g V root u' [v]) as Hgw.
  { intros v [HvV Hadj]%Hnb. split_and!; [by apply pds_walk_two|cbn; apply NoDup_singleton| |].
    - intros a b Hab. cbn [steps]. rewrite elem_of_list_singleton. intros E. pose proof (ai_sym _ _ _ _ A _ _ Hab) as Hba.
      apply (ai_in _ _ _ _ A) in Hab as (_ & ? & _), Hba as (_ & ? & _). apply pair_eq in E. naive_solver.
    - intros w ->%elem_of_list_singleton. split; [done|]. intros ->. by apply (mg_adj_irr g root Hwf). }
  assert (∀ n1 n2 : node, (n1, n2) ∈ (λ v, (root, v)) <$> nb → n1 = root ∧ n2 ∈ nb) as Hq.
  { intros n1 n2 Hin. apply elem_of_list_fmap in Hin as (v & [= -> ->] & Hv). done. }
  eapply returns_bind; [apply (fpds_loop_ok o Ho g Hwf V root fuel)|].
  - unfold fmu. cbn [fp_queue fp_adj]. rewrite fmap_length. assert (length nb ≤ size V).
    { rewrite <-(size_list_to_set (C:=nset) nb) by done. apply subseteq_size. intros v. rewrite elem_of_list_to_set. by intros [? _]%Hnb. }
    assert (esum V u' ≤ size V * size V); [|lia]. apply esum_bound. intros b a Ha. by apply (ai_in _ _ _ _ A) in Ha as (? & _).
  - split; cbn [fp_adj fp_queue fp_nodes]; [done|..].
    + intros n1 n2 [-> Hn2]%Hq. exists [n2], []. split; [by apply Hgw|done].
    + by intros n1 n2 [-> Hn2]%Hq.
    + intros v Hv. exists []. by apply Hgw.
    + intros a b Ha Hb Har Hbr Hab. left. by apply Hu'.
    + intros v Hv Hadj. by apply Hnb.
  - intros a Ha Haa. left. cbn [fp_queue]. apply elem_of_list_fmap. exists a. split; [done|]. by apply Hnb.
  - cbn beta. intros s (I & Hqe & C). cbn [returns].
    assert (∀ a b, mg_adj g a b → a ∈ V ∧ b ∈ V) as HV by (intros a b [k Hk]; by apply (mgw_in _ Hwf) in Hk as (? & ? & _)).
    assert (∀ v, v ∈ fp_nodes s → v ∈ V ∧ v ≠ root ∧ ∃ p, pds_walk g (root :: p ++ [v]) ∧ NoDup (steps (root :: p ++ [v])) ∧ root ∉ p) as Hs.
    { intros v Hv. destruct (fi_nodes _ _ _ _ I v Hv) as (p & H1 & H2 & _ & H4). assert (v ∈ V ∧ v ≠ root) as [? ?] by (apply H4; set_solver +).
      split_and!; [done..|]. exists p. split_and!; try done. intros Hin. destruct (H4 root) as [_ ?]; [|done]. apply elem_of_app. by left. }
    split_and!.
    + intros v. rewrite elem_of_difference, elem_of_list_to_set. intros [Hv _]. by apply Hs.
    + intros v Hv. destruct (HV _ _ Hv) as [_ HvV]. pose proof (fi_nb _ _ _ _ I v HvV Hv) as Hin. rewrite elem_of_difference, elem_of_list_to_set, elem_of_singleton. split; [done|]. by apply Hs.
    + intros a b Hb Htr. pose proof Htr as (_ & Hra & Hab & _). destruct (HV _ _ Hra) as [_ HaV]. destruct (HV _ _ Hab) as [_ HbV].
      destruct (C a HaV Hra) as [Hin|[->|Hc]]; [rewrite Hqe in Hin; by apply elem_of_nil in Hin|by apply (mg_adj_irr g root Hwf) in Hra|].
      destruct (Hc b HbV Htr) as [?|Hin]; [done|]. rewrite elem_of_difference, elem_of_list_to_set, elem_of_singleton. done.
Qed.

Theorem create_pds_tree_near o fuel g root en md : let V := default (mnodes g) en in iter_ok o → mg_wf g → root ∈ V → V ⊆ mnodes g →
  size V * size V + size V < fuel → 2 ≤ default (size V - 1) md →
  returns (create_pds_tree o fuel g root en md) (λ r,
    (∀ v, v ∈ V → mg_adj g root v → v ∈ r.2) ∧
    ∀ a b, a ∈ V → b ∈ V → b ≠ root → pds_triple g root a b → b ∈ r.2).
Proof.
  intros V Ho Hwf Hr HV Hf HM. eapply returns_mono; [by apply create_pds_tree_ok|]. fold V. cbn beta. intros [t X] P. cbn [fst snd] in *. split.
  - intros v Hv Hadj. apply (pt_nodes _ _ _ _ _ _ P). exists []. by apply (pt_nb _ _ _ _ _ _ P).
  - intros a b Ha Hb Hbr Htr. apply (pt_nodes _ _ _ _ _ _ P). apply (pt_closed _ _ _ _ _ _ P [a] [] root a b); try done.
    apply (pt_nb _ _ _ _ _ _ P); [done|]. apply Htr.
Qed.

Theorem add_branch_spec t x :
  match add_branch t x with
  | Ok t' => ¬ tpath t [x] ∧ origin t' = origin t ∧ (∀ p, tpath t' p ↔ tpath t p ∨ p = [x]) ∧ (twf t → twf t' ∧ depth_level t' = depth_level t)
  | Raise e => e = ValueError ∧ tpath t [x]
  | Diverges => False
  end.
Proof.
  assert (tpath t [x] ↔ x ∈ origin <$> children t) as Hx.
  { rewrite tpath_cons, elem_of_list_fmap. split; [intros (c & ? & <- & _); eauto|]. intros (c & -> & ?). exists c. split_and!; [done..|constructor]. }
  rewrite add_branch_ok. case_decide as E; [split; [done|by apply Hx]|]. split; [by rewrite Hx|]. split; [done|]. split; [intros p; apply grown_tpath|].
  intros Hwf. split; [by apply grown_twf|done].
Qed.
