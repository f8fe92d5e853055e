(** FCI and ICD: every removed edge is justified by a test. *)
From Verif Require Import Base BaseLemmas Paths ModelGraph Spec ModelMixed SpecMixed ProofMixed ProofMixed2 ProofPDAG ProofPDAG2
  ModelPC SpecPC ProofPC ModelPAG SpecPAG ProofPAG ProofPAG2 ProofPAGR ProofPAGR2 ProofPAGU ProofPAGX
  ModelPDS SpecPDS ProofPDS ProofPDS2 ProofPDS3 ProofPDS4 ProofPDS5 ModelFCI SpecFCI.

#[global] Instance mg_adj_dec g a b : Decision (mg_adj g a b).
Proof.
  destruct (decide (a ∈ mset g b Circle ∨ a ∈ mset g b Directed ∨ a ∈ mset g b Tail)) as [H|H].
  - left. destruct H as [H|[H|H]]; by eexists.
  - right. intros ([] & H'); tauto.
Defined.

Record ls_inv (ci : citest) (V : nset) (s : lstate) : Prop := {
  li_nodes : mnodes (ls_graph s) = V;
  li_wf : mg_wf (ls_graph s);
  li_dom : ∀ a b, a ∈ V → b ∈ V → a ≠ b → is_Some (ls_sep s !! hkey a b);
  li_honest : honest ci (ls_log s);
  li_log : proper_log V (ls_log s);
  li_true : ∀ i j c, (i, j, c, true) ∈ ls_log s → ¬ mg_adj (ls_graph s) i j;
  li_rem : ∀ a b, a ∈ V → b ∈ V → a ≠ b → ¬ mg_adj (ls_graph s) a b →
    ∃ S, ls_sep s !! hkey a b = Some S ∧ tested (ls_log s) a b S true;
}.

Lemma ls_inv_justified ci V s : ls_inv ci V s → justified ci V (ls_graph s) (ls_sep s) (ls_log s).
Proof.
  intros I. assert (∀ a b, a ∈ V → b ∈ V → a ≠ b → ¬ mg_adj (ls_graph s) a b →
    ∃ S, sep_get (ls_sep s) a b = Ok S ∧ tested (ls_log s) a b S true) as Hrem.
  { intros a b Ha Hb Hne Hn. destruct (li_rem _ _ _ I a b Ha Hb Hne Hn) as (S & HS & HT). exists S. split; [|done].
    unfold sep_get. by rewrite HS. }
  constructor; [apply I..| |done].
  intros a b Ha Hb Hne. split.
  - intros Hadj S (c & _ & [H|H]); apply (li_true _ _ _ I) in H; [done|]. apply H. apply mg_adj_sym; [apply I|done].
  - intros H. destruct (decide (mg_adj (ls_graph s) a b)) as [?|Hn]; [done|].
    destruct (Hrem a b Ha Hb Hne Hn) as (S & _ & HT). by destruct (H S).
Qed.

Lemma ls_inv_total ci V s : ls_inv ci V s → sep_total (ls_sep s) (ls_graph s).
Proof.
  intros I x y Hx Hy Hne _. rewrite (li_nodes _ _ _ I) in Hx, Hy. destruct (li_dom _ _ _ I x y Hx Hy Hne) as [Z HZ].
  exists Z. unfold sep_get. by rewrite HZ.
Qed.

(** only the orientations differ *)
Lemma ls_inv_graph ci V s g : ls_inv ci V s → mnodes g = mnodes (ls_graph s) → mg_wf g →
  (∀ a b, mg_adj g a b ↔ mg_adj (ls_graph s) a b) → ls_inv ci V (LState g (ls_sep s) (ls_log s)).
Proof.
  intros I N W A. constructor; cbn [ls_graph ls_sep ls_log].
  - rewrite N. apply I.
  - done.
  - apply I.
  - apply I.
  - apply I.
  - intros i j c H. rewrite A. by apply (li_true _ _ _ I) in H.
  - intros a b Ha Hb Hne. rewrite A. by apply I.
Qed.

Definition ls_le (s s' : lstate) : Prop := ∀ a b, mg_adj (ls_graph s') a b → mg_adj (ls_graph s) a b.

Lemma delete_edge_adj g i j a b : mg_adj (delete_edge PAG_T g i j) a b ↔ mg_adj g a b ∧ ¬ is_pair a b i j.
Proof. unfold mg_adj. setoid_rewrite delete_edge_spec. naive_solver. Qed.

Definition good_cond (V : nset) (i j : node) (c : list node) : Prop := NoDup c ∧ ∀ z, z ∈ c → z ∈ V ∧ z ≠ i ∧ z ≠ j.

Lemma ls_try_ok ci V i j c s : ls_inv ci V s → i ∈ V → j ∈ V → i ≠ j → good_cond V i j c →
  returns (ls_try ci i j c s) (λ r, ls_inv ci V r.1 ∧ ls_le s r.1 ∧
    ∃ b, ls_log r.1 = (i, j, c, b) :: ls_log s ∧ r.2 = b ∧
      (∀ a a', mg_adj (ls_graph r.1) a a' ↔ mg_adj (ls_graph s) a a' ∧ (b = true → ¬ is_pair a a' i j))).
Proof.
  intros I Hi Hj Hne [Hnd Hc]. unfold ls_try. set (b := ci (ls_log s) i j c).
  assert (honest ci ((i, j, c, b) :: ls_log s)) as Hh by (apply honest_cons, I).
  assert (proper_log V ((i, j, c, b) :: ls_log s)) as Hp.
  { intros i' j' c' b' [H|H]%elem_of_cons; [|by apply (li_log _ _ _ I) in H]. simplify_eq. done. }
  destruct b eqn:Eb; cbn [returns fst snd ls_graph ls_log].
  - split_and!.
    + constructor; cbn [ls_graph ls_sep ls_log].
      * rewrite delete_edge_nodes. apply I.
      * apply mg_wf_delete, I.
      * intros a a' Ha Ha' Hne'. unfold sep_set. destruct (decide (hkey i j = hkey a a')) as [->|Hk]; [by rewrite lookup_insert|].
        rewrite lookup_insert_ne by done. by apply I.
      * done.
      * done.
      * intros i' j' c' [H|H]%elem_of_cons; rewrite delete_edge_adj.
        -- simplify_eq. intros [_ H]. apply H. by left.
        -- apply (li_true _ _ _ I) in H. tauto.
      * intros a a' Ha Ha' Hne' Hn. unfold sep_set. destruct (decide (hkey i j = hkey a a')) as [Hk|Hk].
        -- rewrite Hk, lookup_insert. exists (list_to_set c). split; [done|]. exists c. split; [intros z; by rewrite elem_of_list_to_set|].
           apply hkey_eq in Hk as [[-> ->]|[-> ->]]; [left|right]; apply elem_of_list_here.
        -- rewrite lookup_insert_ne by done. rewrite hkey_eq in Hk.
           destruct (li_rem _ _ _ I a a' Ha Ha' Hne') as (S & HS & HT).
           { intros Hadj. apply Hn, delete_edge_adj. done. }
           exists S. split; [done|]. eapply tested_mono; [|done]. intros e He. by apply elem_of_list_further.
    + intros a a' [H _]%delete_edge_adj. done.
    + exists true. split; [done|]. split; [done|]. intros a a'. rewrite delete_edge_adj. tauto.
  - split_and!.
    + constructor; cbn [ls_graph ls_sep ls_log]; [apply I..|done|done| |].
      * intros i' j' c' [H|H]%elem_of_cons; [by simplify_eq|by apply (li_true _ _ _ I) in H].
      * intros a a' Ha Ha' Hne' Hn. destruct (li_rem _ _ _ I a a' Ha Ha' Hne' Hn) as (S & HS & HT).
        exists S. split; [done|]. eapply tested_mono; [|done]. intros e He. by apply elem_of_list_further.
    + intros a a' H. done.
    + exists false. split; [done|]. split; [done|]. intros a a'. naive_solver.
Qed.

Lemma ls_init_inv o ci V : iter_ok o → ls_inv ci V (ls_init o V).
Proof.
  intros Ho. unfold ls_init. change (create_complete PAG_T (mempty V) Circle (Some V)) with (create_complete PAG_T (mempty V) Circle None).
  constructor; cbn [ls_graph ls_sep ls_log].
  - done.
  - apply create_complete_wf.
  - intros a b Ha Hb Hne. rewrite sep_init_spec by done. by eexists.
  - intros l1 l2 i j c b H. by destruct l1.
  - intros i j c b H. by apply elem_of_nil in H.
  - intros i j c H. by apply elem_of_nil in H.
  - intros a b Ha Hb Hne Hn. destruct Hn. exists Circle. apply create_complete_spec. left. done.
Qed.

Definition keeps (f : sepset → mgraph → res mgraph) (fuel : nat) : Prop := ∀ sep g, mg_wf g → sep_total sep g →
  size (mnodes g) * size (mnodes g) + 2 < fuel →
  returns (f sep g) (λ h, mnodes h = mnodes g ∧ mg_wf h ∧ ∀ a b, mg_adj h a b ↔ mg_adj g a b).

Lemma sep_total_same sep g h : mnodes h = mnodes g → (∀ a b, mg_adj h a b ↔ mg_adj g a b) → sep_total sep g → sep_total sep h.
Proof. intros N A H x y. rewrite N, A. apply H. Qed.

Lemma keeps_seq f f' fuel : keeps f fuel → keeps f' fuel → keeps (λ sep g, g ← f sep g; f' sep g) fuel.
Proof.
  intros Hf Hf' sep g W T F. eapply returns_bind; [by apply Hf|]. cbn beta. intros h (N & W' & A).
  eapply returns_mono; [apply Hf'; [done|by eapply sep_total_same|by rewrite N]|]. cbn beta. intros h' (N' & W'' & A').
  split; [congruence|]. split; [done|]. intros a b. by rewrite A', A.
Qed.
Lemma keeps_rules o fuel rules : iter_ok o → (∀ i, i ∈ rules → 1 ≤ i ≤ 10) → keeps (λ sep g, pag_orient o fuel sep g (Some rules)) fuel.
Proof.
  intros Ho Hr sep g W T F. eapply returns_mono; [apply orient_refines; done|]. cbn beta. intros h [R _].
  split; [apply R|]. split; [apply R|]. apply R.
Qed.
Lemma keeps_id fuel : keeps (λ _ g, Ok g) fuel.
Proof. intros sep g W T F. done. Qed.
Lemma keeps_v o fuel : iter_ok o → keeps (λ sep g, pag_v_structures o g sep) fuel.
Proof.
  intros Ho sep g W T F. eapply returns_mono; [by apply v_structures_ok|]. cbn beta. intros h (W' & N & A & _). done.
Qed.
Lemma reset_adj o g : iter_ok o → mg_wf g → returns (reset_orientations o PAG_T g Circle None) (λ h, mnodes h = mnodes g ∧ mg_wf h ∧
  (∀ a b, mg_adj h a b ↔ mg_adj g a b) ∧ ∀ a k b, has_mark h a k b ↔ mg_adj g a b ∧ k = Circle).
Proof.
  intros Ho W. pose proof (reset_orientations_spec o Ho g Circle None W) as H. cbn [default from_option] in H. unfold id in H.
  eapply returns_mono; [exact H|]. cbn beta. intros h (N & W' & M).
  assert (∀ a k b, has_mark h a k b ↔ mg_adj g a b ∧ k = Circle) as M'.
  { intros a k b. rewrite M. split.
    - intros [?|[Hn Hm]]; [tauto|]. destruct Hn. apply (mgw_in _ W) in Hm. tauto.
    - intros [(k' & Hm) ->]. left. pose proof (mgw_in _ W _ _ _ Hm) as Hin. split_and!; [tauto|tauto|by exists k'|done]. }
  split; [done|]. split; [done|]. split; [|done]. intros a b. unfold mg_adj at 1. setoid_rewrite M'. split; [by intros (k & ? & _)|]. intros Hab. by exists Circle.
Qed.
Lemma keeps_reset o fuel : iter_ok o → keeps (λ _ g, reset_orientations o PAG_T g Circle None) fuel.
Proof. intros Ho sep g W T F. eapply returns_mono; [by apply reset_adj|]. cbn beta. intros h (N & W' & A & _). done. Qed.
Lemma keeps_rest o sb tc fuel : iter_ok o → keeps (orient_rest o sb tc fuel) fuel.
Proof.
  intros Ho. unfold orient_rest. apply (keeps_seq (λ sep g, if sb then pag_orient o fuel sep g (Some [5; 6; 7]) else Ok g)
    (λ sep g, if tc then pag_orient o fuel sep g (Some [8; 9; 10]) else Ok g)).
  - destruct sb; [|apply keeps_id]. apply keeps_rules; [done|]. intros i Hi. set_unfold. lia.
  - destruct tc; [|apply keeps_id]. apply keeps_rules; [done|]. intros i Hi. set_unfold. lia.
Qed.
Lemma keeps_base o fuel : iter_ok o → keeps (orient_base o fuel) fuel.
Proof.
  intros Ho. apply (keeps_seq (λ sep g, pag_v_structures o g sep) (λ sep g, pag_orient o fuel sep g (Some [1; 2; 3; 4]))).
  - by apply keeps_v.
  - apply keeps_rules; [done|]. intros i Hi. set_unfold. lia.
Qed.
Lemma keeps_anew o fuel : iter_ok o → keeps (orient_anew o fuel) fuel.
Proof. intros Ho. apply (keeps_seq (λ _ g, reset_orientations o PAG_T g Circle None) (orient_base o fuel)); [by apply keeps_reset|by apply keeps_base]. Qed.

Lemma ls_orient_ok f fuel ci V s : keeps f fuel → ls_inv ci V s → size V * size V + 2 < fuel →
  returns (ls_orient f s) (λ t, ls_inv ci V t ∧ ls_sep t = ls_sep s ∧ ls_log t = ls_log s ∧
    ∀ a b, mg_adj (ls_graph t) a b ↔ mg_adj (ls_graph s) a b).
Proof.
  intros Hf I F. unfold ls_orient. eapply returns_bind.
  { apply Hf; [apply I|by eapply ls_inv_total|]. by rewrite (li_nodes _ _ _ I). }
  cbn beta. intros h (N & W & A). cbn [returns ls_graph ls_sep ls_log]. split; [by apply ls_inv_graph|]. done.
Qed.
