(** Building trees of nodes by address. *)
From Verif Require Import Base BaseLemmas ModelGraph Spec Paths ModelMixed SpecMixed ModelPDS SpecPDS ProofPDS.

(** the origins on the way to an address *)
Fixpoint t_names (t : ptree) (a : list nat) : list node :=
  match a with
  | [] => []
  | i :: a => match children t !! i with Some c => origin c :: t_names c a | None => [] end
  end.

Lemma t_at_cons t i a u : t_at t (i :: a) = Some u ↔ ∃ c, children t !! i = Some c ∧ t_at c a = Some u.
Proof. cbn [t_at]. destruct (children t !! i) as [c|]; cbn; naive_solver. Qed.
Lemma t_names_cons t i a c : children t !! i = Some c → t_names t (i :: a) = origin c :: t_names c a.
Proof. intros E. cbn [t_names]. by rewrite E. Qed.

Lemma t_at_app a : ∀ t b u, t_at t a = Some u → t_at t (a ++ b) = t_at u b.
Proof.
  induction a as [|i a IH]; intros t b u H; [by injection H as ->|].
  apply t_at_cons in H as (c & Hc & H). change ((i :: a) ++ b) with (i :: (a ++ b)). cbn [t_at]. rewrite Hc. cbn. by apply IH.
Qed.
Lemma t_names_app a : ∀ t b u, t_at t a = Some u → t_names t (a ++ b) = t_names t a ++ t_names u b.
Proof.
  induction a as [|i a IH]; intros t b u H; [by injection H as ->|].
  apply t_at_cons in H as (c & Hc & H). change ((i :: a) ++ b) with (i :: (a ++ b)). rewrite !(t_names_cons _ _ _ _ Hc). simpl. f_equal. by apply IH.
Qed.
Lemma t_names_length a : ∀ t u, t_at t a = Some u → length (t_names t a) = length a.
Proof.
  induction a as [|i a IH]; intros t u H; [done|]. apply t_at_cons in H as (c & Hc & H). rewrite (t_names_cons _ _ _ _ Hc). simpl. f_equal. by eapply IH.
Qed.
Lemma t_at_path a : ∀ t u p, t_at t a = Some u → tpath u p → tpath t (t_names t a ++ p).
Proof.
  induction a as [|i a IH]; intros t u p H Hp; [by injection H as ->|].
  apply t_at_cons in H as (c & Hc & H). rewrite (t_names_cons _ _ _ _ Hc). simpl. constructor; [by eapply elem_of_list_lookup_2|by eapply IH].
Qed.
Lemma t_at_depth a : ∀ t u, twf t → t_at t a = Some u → depth_level u = depth_level t + length a ∧ twf u.
Proof.
  induction a as [|i a IH]; intros t u Hwf H; [injection H as ->; split; [simpl; lia|done]|].
  apply t_at_cons in H as (c & Hc & H). inversion_clear Hwf as [? Hnd Hcs].
  destruct (Hcs c) as [Hd Hw]; [by eapply elem_of_list_lookup_2|]. destruct (IH _ _ Hw H) as [-> ?]. split; [simpl; lia|done].
Qed.

Lemma child_index_none cs x : child_index cs x = None ↔ ∀ c, c ∈ cs → origin c ≠ x.
Proof.
  induction cs as [|c cs IH]; cbn [child_index]; [split; [intros _ c Hc; by apply elem_of_nil in Hc|done]|].
  case_decide as E; [split; [done|]; intros H; by destruct (H c ltac:(left))|].
  rewrite fmap_None, IH. split; [|intros H c' Hc'; apply H; by right]. intros H c' [->|Hc']%elem_of_cons; [done|by apply H].
Qed.
Lemma child_index_app cs x t : (∀ c, c ∈ cs → origin c ≠ x) → origin t = x → child_index (cs ++ [t]) x = Some (length cs).
Proof.
  induction cs as [|c cs IH]; intros H Ht; cbn [child_index app length].
  - by rewrite decide_True by done.
  - rewrite decide_False by (apply H; left). rewrite IH; [done| |done]. intros c' Hc'. apply H. by right.
Qed.

Definition grown (t : ptree) (x : node) : ptree := PTree (origin t) (depth_level t) (children t ++ [PTree x (depth_level t + 1) []]).
Lemma add_branch_ok t x : add_branch t x = if decide (x ∈ origin <$> children t) then Raise ValueError else Ok (grown t x).
Proof.
  unfold add_branch. destruct (child_index (children t) x) as [i|] eqn:E.
  - rewrite decide_True; [done|]. apply dec_stable. intros H. assert (child_index (children t) x = None) as E'; [|congruence].
    apply child_index_none. intros c Hc He. apply H, elem_of_list_fmap. eauto.
  - rewrite decide_False; [done|]. rewrite elem_of_list_fmap. intros (c & -> & Hc). by eapply (proj1 (child_index_none _ _) E).
Qed.
Lemma leaf_twf x d : twf (PTree x d []).
Proof. constructor; [constructor|]. intros c Hc. by apply elem_of_nil in Hc. Qed.
Lemma grown_twf t x : twf t → x ∉ origin <$> children t → twf (grown t x).
Proof.
  intros Hwf Hx. inversion_clear Hwf as [? Hnd Hcs]. constructor; cbn [grown children depth_level].
  - rewrite fmap_app. apply NoDup_app. split_and!; [done| |cbn; apply NoDup_singleton]. cbn. intros y Hy ->%elem_of_list_singleton. done.
  - intros c [Hc| ->%elem_of_list_singleton]%elem_of_app; [by apply Hcs|]. split; [done|apply leaf_twf].
Qed.
Lemma grown_tpath t x p : tpath (grown t x) p ↔ tpath t p ∨ p = [x].
Proof.
  destruct p as [|y p]; [split; intros _; [left|]; constructor|]. rewrite !tpath_cons. cbn [grown children]. setoid_rewrite elem_of_app. setoid_rewrite elem_of_list_singleton.
  split.
  - intros (c & [Hc| ->] & Hy & Hp); [left; eauto|]. right. cbn in Hy. subst y. apply tpath_inv in Hp as [->|(c & ? & _ & Hc & _)]; [done|by apply elem_of_nil in Hc].
  - intros [(c & ? & ? & ?)|[= -> ->]]; [exists c; eauto|]. eexists. split; [by right|]. split; [done|constructor].
Qed.

Lemma t_upd_ok x a : ∀ t u, t_at t a = Some u → x ∉ origin <$> children u → ∃ t', t_upd (λ t, add_branch t x) a t = Ok t' ∧
  origin t' = origin t ∧ depth_level t' = depth_level t ∧ t_at t' a = Some (grown u x) ∧
  (∀ p, tpath t' p ↔ tpath t p ∨ p = t_names t a ++ [x]) ∧ (twf t → twf t') ∧
  (∀ b, is_Some (t_at t b) → t_names t' b = t_names t b) ∧
  (∀ b v, t_at t b = Some v → children v = [] → b ≠ a → t_at t' b = Some v).
Proof.
  induction a as [|i a IH]; intros t u Hu Hx.
  - injection Hu as ->. cbn [t_upd]. rewrite add_branch_ok, decide_False by done. exists (grown u x).
    split; [reflexivity|]. split; [reflexivity|]. split; [reflexivity|]. split; [reflexivity|]. split; [|split; [|split]].
    + intros p. rewrite grown_tpath. cbn. tauto.
    + intros Hwf. by apply grown_twf.
    + intros [|j b] [v Hv]; [done|]. apply t_at_cons in Hv as (c & Hc & Hv). rewrite (t_names_cons u _ _ c) by done. apply t_names_cons. cbn [grown children].
      by apply lookup_app_l_Some.
    + intros [|j b] v Hv Hch Hne; [done|]. apply t_at_cons in Hv as (c & Hc & Hv). apply t_at_cons. exists c. split; [|done]. by apply lookup_app_l_Some.
  - apply t_at_cons in Hu as (c & Hc & Hu). destruct (IH c u Hu Hx) as (c' & E & Ho & Hd & Hat & Hp & Hwf & Hn & Hl).
    cbn [t_upd]. rewrite Hc, E. cbn [mbind res_bind]. eexists. split; [done|]. pose proof (lookup_lt_Some _ _ _ Hc) as Hlt.
    split; [reflexivity|]. split; [reflexivity|]. split; [|split; [|split; [|split]]].
    + apply t_at_cons. exists c'. split; [by apply list_lookup_insert|done].
    + assert (∀ y p, tpath (PTree (origin t) (depth_level t) (<[i:=c']> (children t))) (y :: p) ↔ tpath t (y :: p) ∨ y :: p = t_names t (i :: a) ++ [x]) as H.
      { intros y p. rewrite !tpath_cons, (t_names_cons _ _ _ _ Hc). cbn [children]. split.
        - intros (d & Hd' & <- & Hp'). apply elem_of_list_lookup in Hd' as [j Hj]. apply list_lookup_insert_Some in Hj as [(<- & <- & _)|(Hne & Hj)].
          + apply Hp in Hp' as [Hp'| ->]; [|right; simpl; by rewrite Ho]. left. exists c. split; [by eapply elem_of_list_lookup_2|by split].
          + left. exists d. split; [by eapply elem_of_list_lookup_2|done].
        - intros [(d & Hd' & <- & Hp')|[= -> ->]].
          + apply elem_of_list_lookup in Hd' as [j Hj]. destruct (decide (i = j)) as [<-|Hne].
            * rewrite Hc in Hj. injection Hj as <-. exists c'. split; [eapply elem_of_list_lookup_2; by apply list_lookup_insert|]. split; [done|]. apply Hp. by left.
            * exists d. split; [|done]. eapply elem_of_list_lookup_2. by rewrite list_lookup_insert_ne.
          + exists c'. split; [eapply elem_of_list_lookup_2; by apply list_lookup_insert|]. split; [done|]. apply Hp. by right. }
      intros [|y p]; [|apply H]. split; intros _; [left|]; constructor.
    + intros Ht. inversion_clear Ht as [? Hnd Hcs]. constructor; cbn [children depth_level].
      * rewrite list_fmap_insert, Ho, list_insert_id; [done|]. by rewrite list_lookup_fmap, Hc.
      * intros d Hd'. apply elem_of_list_lookup in Hd' as [j Hj]. apply list_lookup_insert_Some in Hj as [(<- & <- & _)|(Hne & Hj)].
        -- rewrite Hd. destruct (Hcs c) as [? ?]; [by eapply elem_of_list_lookup_2|]. split; [done|]. by apply Hwf.
        -- apply Hcs. by eapply elem_of_list_lookup_2.
    + intros [|j b] [v Hv]; [done|]. apply t_at_cons in Hv as (d & Hd' & Hv). destruct (decide (i = j)) as [<-|Hne].
      * rewrite Hc in Hd'. injection Hd' as <-. rewrite (t_names_cons t _ _ c) by done. rewrite (t_names_cons _ _ _ c') by (cbn; by apply list_lookup_insert).
        rewrite Ho. f_equal. apply Hn. eauto.
      * rewrite (t_names_cons t _ _ d) by done. apply t_names_cons. cbn. by rewrite list_lookup_insert_ne.
    + intros [|j b] v Hv Hch Hne.
      * injection Hv as ->. by rewrite Hch in Hc.
      * apply t_at_cons in Hv as (d & Hd' & Hv). apply t_at_cons. cbn [children]. destruct (decide (i = j)) as [<-|Hij].
        -- rewrite Hc in Hd'. injection Hd' as <-. exists c'. split; [by apply list_lookup_insert|]. apply Hl; [done|done|]. by intros ->.
        -- exists d. split; [by rewrite list_lookup_insert_ne|done].
Qed.
