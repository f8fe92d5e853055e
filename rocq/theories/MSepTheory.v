(** Graph theory: separation in the augmented (moral) graph of the ancestral set is
    equivalent to the absence of an active simple path, for mixed graphs with directed
    and bi-directed edges.  Pure mathematics; used for DAG.dsep and PAG.is_m_separated. *)
From Verif Require Import Base BaseLemmas.

Section msep.
  (** [H a b]: there is an edge between a and b with an arrowhead at b *)
  Context (H : nat → nat → Prop).
  Context (Hirr : ∀ a, ¬ H a a).
  Context (Hdec : ∀ a b, H a b ∨ ¬ H a b).

  Definition madj (a b : nat) : Prop := H a b ∨ H b a.
  Definition dir (a b : nat) : Prop := H a b ∧ ¬ H b a.
  Context (Hacy : ∀ a, ¬ tc dir a a).

  Context (Z : nat → Prop).
  Definition anZ (a : nat) : Prop := ∃ z, Z z ∧ rtc dir a z.
  Context (anZ_dec : ∀ a, anZ a ∨ ¬ anZ a).

  Definition coll (a b c : nat) : Prop := H a b ∧ H c b.
  Definition triple_ok (a b c : nat) : Prop := (coll a b c → anZ b) ∧ (¬ coll a b c → ¬ Z b).

  Lemma madj_sym a b : madj a b → madj b a.
  Proof. unfold madj. tauto. Qed.
  Lemma triple_ok_sym a b c : triple_ok a b c → triple_ok c b a.
  Proof. unfold triple_ok, coll. tauto. Qed.
  Lemma madj_dir a b : madj a b → ¬ H b a → dir a b.
  Proof. unfold madj, dir. tauto. Qed.
  Lemma madj_irr a : ¬ madj a a.
  Proof. unfold madj. intros [?|?]; by eapply Hirr. Qed.
  Lemma coll_dec a b c : coll a b c ∨ ¬ coll a b c.
  Proof. unfold coll. destruct (Hdec a b), (Hdec c b); tauto. Qed.

  (** active walks (lists, either direction) *)
  Fixpoint act (w : list nat) : Prop :=
    match w with
    | a :: ((b :: t) as w') =>
        madj a b ∧ match t with c :: _ => triple_ok a b c | [] => True end ∧ act w'
    | _ => True
    end.

  Lemma act_tail a w : act (a :: w) → act w.
  Proof. destruct w; simpl; tauto. Qed.

  Lemma act_app_r l1 l2 : act (l1 ++ l2) → act l2.
  Proof. induction l1; simpl; [done|]. intros. apply IHl1. by eapply act_tail. Qed.

  Lemma act_app_l l1 l2 : act (l1 ++ l2) → act l1.
  Proof.
    induction l1 as [|a l1 IH]; [done|].
    destruct l1 as [|b l1]; [done|]. destruct l1 as [|c l1].
    - simpl. tauto.
    - simpl in *. tauto.
  Qed.

  (** gluing two active walks at a common node *)
  Lemma act_glue l1 a v c l3 :
    act (l1 ++ [a; v]) → act (v :: c :: l3) → triple_ok a v c → act (l1 ++ a :: v :: c :: l3).
  Proof.
    induction l1 as [|b l1 IH]; intros H1 H2 H3.
    - simpl in *. tauto.
    - destruct l1 as [|b' l1]; simpl in *; [tauto|].
      destruct l1; simpl in *; tauto.
  Qed.

  Lemma act_snoc w a b c : act (w ++ [a; b]) → madj b c → triple_ok a b c → act (w ++ [a; b; c]).
  Proof. intros. apply act_glue; simpl; auto. Qed.

  Lemma act_rev w : act w → act (reverse w).
  Proof.
    induction w as [|a w IH]; [done|]. intros Ha.
    rewrite reverse_cons.
    destruct w as [|b w]; [done|].
    specialize (IH (act_tail _ _ Ha)). rewrite reverse_cons in *.
    destruct w as [|c w].
    - simpl in *. split; [|done]. apply madj_sym. tauto.
    - rewrite reverse_cons in *. rewrite <-!app_assoc in *. simpl in *.
      apply act_snoc; [done|apply madj_sym; tauto|]. apply triple_ok_sym. tauto.
  Qed.

  (** a directed path as a list *)
  Fixpoint dpath (w : list nat) : Prop :=
    match w with a :: ((b :: _) as w') => dir a b ∧ dpath w' | _ => True end.

  Lemma rtc_dpath a b : rtc dir a b → ∃ w, dpath (a :: w) ∧ last (a :: w) = Some b.
  Proof.
    induction 1 as [a|a c b Hac _ (w & Hw & Hl)]; [by exists []|].
    exists (c :: w). simpl. done.
  Qed.

  Lemma dpath_all a w v : dpath (a :: w) → v ∈ a :: w → rtc dir a v.
  Proof.
    revert a. induction w as [|b w IH]; intros a.
    - intros _ ->%elem_of_list_singleton. done.
    - intros [Hab Hw] [->|Hv]%elem_of_cons; [done|]. eapply rtc_l; [done|]. by apply IH.
  Qed.

  (** a directed path avoiding Z is active *)
  Lemma dpath_act w : dpath w → (∀ v, v ∈ w → ¬ Z v) → act w.
  Proof.
    induction w as [|a w IH]; [done|]. destruct w as [|b w]; [done|].
    intros [Hab Hw] HZ. split; [left; apply Hab|]. split.
    - destruct w as [|c w]; [done|]. destruct Hw as [Hbc _].
      split; [|intros _; apply HZ; set_solver].
      intros [_ ?]. destruct Hbc. tauto.
    - apply IH; [done|]. set_solver.
  Qed.

  (** follow a walk leaving v along a directed edge: either it is directed to its end,
      or it meets a collider, which is in an(Z) *)
  Lemma follow v n w e : act (v :: n :: w) → dir v n → last (n :: w) = Some e →
    tc dir v e ∨ anZ v.
  Proof.
    revert v n. induction w as [|c w IH]; intros v n Hact Hd Hl.
    - simpl in Hl. injection Hl as ->. left. by apply tc_once.
    - destruct Hact as (_ & Hok & Hact).
      destruct (Hdec c n) as [Hc|Hc].
      + right. assert (anZ n) as (z & ? & ?) by (apply Hok; split; [apply Hd|done]).
        exists z. split; [done|]. by eapply rtc_l.
      + assert (dir n c) as Hnc by (apply madj_dir; [simpl in Hact; tauto|done]).
        destruct (IH n c Hact Hnc) as [?|(z & ? & ?)]; [done| |].
        * left. by eapply tc_l.
        * right. exists z. split; [done|]. by eapply rtc_l.
  Qed.

  (** removing a loop keeps the walk active *)
  Lemma act_cut l1 v l2 l3 : act (l1 ++ v :: l2 ++ v :: l3) → act (l1 ++ v :: l3).
  Proof.
    intros Hw.
    assert (act (l1 ++ [v])) as Hl.
    { apply (act_app_l _ (l2 ++ v :: l3)). by rewrite <-app_assoc. }
    assert (act (v :: l3)) as Hr.
    { apply (act_app_r (l1 ++ v :: l2)). by rewrite <-app_assoc. }
    destruct l1 as [|a l1 _] using rev_ind; [done|].
    destruct l3 as [|c l3].
    { done. }
    rewrite <-app_assoc in *. simpl in *.
    apply act_glue; [done|done|].
    (* original triples at the two occurrences of v *)
    assert (act (a :: v :: l2 ++ v :: c :: l3)) as Hw' by by eapply act_app_r.
    destruct l2 as [|n1 l2].
    { simpl in Hw'. exfalso. eapply madj_irr. apply Hw'. }
    assert (triple_ok a v n1) as Ht1 by (simpl in Hw'; tauto).
    destruct (rev_case (n1 :: l2)) as [?|(l2' & n2 & Hl2)]; [done|].
    assert (triple_ok n2 v c) as Ht2.
    { rewrite Hl2 in Hw'. rewrite <-app_assoc in Hw'.
      apply (act_app_r (a :: v :: l2')) in Hw'. simpl in Hw'. tauto. }
    split.
    - intros [Hav Hcv]. destruct (Hdec n1 v) as [Hn|Hn].
      + apply Ht1. done.
      + assert (act (v :: n1 :: l2 ++ [v])) as Hseg.
        { apply act_tail in Hw'. apply (act_app_l _ (c :: l3)). simpl.
          by rewrite <-app_assoc. }
        destruct (follow v n1 (l2 ++ [v]) v) as [Hc|Hc]; [done| | |by apply Hacy in Hc|done].
        * apply madj_dir; [simpl in Hseg; tauto|done].
        * rewrite app_comm_cons. by rewrite last_snoc.
    - intros Hnc. destruct (Hdec a v) as [Hav|Hav].
      + apply Ht2. intros [_ ?]. apply Hnc. done.
      + apply Ht1. intros [? _]. done.
  Qed.

  Definition starts (w : list nat) (x y : nat) : Prop := head w = Some x ∧ last w = Some y.

  Lemma dup_split (w : list nat) : ¬ NoDup w → ∃ v l1 l2 l3, w = l1 ++ v :: l2 ++ v :: l3.
  Proof.
    induction w as [|a w IH]; intros Hn; [by destruct Hn; constructor|].
    destruct (decide (a ∈ w)) as [Ha|Ha].
    - apply elem_of_list_split in Ha as (l2 & l3 & ->). by exists a, [], l2, l3.
    - destruct IH as (v & l1 & l2 & l3 & ->).
      { intros ?. apply Hn. by constructor. }
      by exists v, (a :: l1), l2, l3.
  Qed.

  (** active walk => active simple path *)
  Lemma act_walk_path w x y : act w → starts w x y → ∃ p, act p ∧ starts p x y ∧ NoDup p.
  Proof.
    remember (length w) as n eqn:Hn. revert w Hn.
    induction (lt_wf n) as [n _ IH]. intros w -> Hact [Hh Hl].
    destruct (decide (NoDup w)) as [?|Hnd]; [by exists w|].
    apply dup_split in Hnd as (v & l1 & l2 & l3 & ->).
    apply (IH (length (l1 ++ v :: l3))) with (w := l1 ++ v :: l3); [|done|by eapply act_cut|].
    { rewrite !app_length. simpl. rewrite app_length. simpl. lia. }
    split.
    - destruct l1; done.
    - destruct (rev_case l3) as [->|(l3' & e & ->)].
      + rewrite last_snoc. rewrite app_comm_cons, app_assoc, last_snoc in Hl. done.
      + rewrite app_comm_cons, app_assoc, last_snoc.
        rewrite app_comm_cons in Hl.
        replace (l1 ++ (v :: l2) ++ v :: l3' ++ [e]) with
          ((l1 ++ (v :: l2) ++ v :: l3') ++ [e]) in Hl by by rewrite <-!app_assoc.
        by rewrite last_snoc in Hl.
  Qed.

  (** ** The augmented graph *)
  Context (x y : nat).
  (** ancestors of {x,y} ∪ Z *)
  Definition An (a : nat) : Prop := rtc dir a x ∨ rtc dir a y ∨ anZ a.

  (** [cchain a cs b]: a walk a, cs, b in which every node of cs is a collider *)
  Fixpoint cchain (a : nat) (cs : list nat) (b : nat) : Prop :=
    match cs with
    | [] => madj a b
    | c :: cs' => H a c ∧ match cs' with [] => H b c | d :: _ => H d c end ∧ cchain c cs' b
    end.

  Definition aug (a b : nat) : Prop :=
    An a ∧ An b ∧ ∃ cs, cchain a cs b ∧ ∀ c, c ∈ cs → An c.

  Definition augreach : nat → nat → Prop := rtc (λ a b, aug a b ∧ ¬ Z b).

  (** weakly active walks: colliders only need to be in An *)
  Definition weak_ok (a b c : nat) : Prop := An b ∧ (¬ coll a b c → ¬ Z b).

  Fixpoint weak (w : list nat) : Prop :=
    match w with
    | a :: ((b :: t) as w') =>
        madj a b ∧ match t with c :: _ => weak_ok a b c | [] => True end ∧ weak w'
    | _ => True
    end.

  Lemma weak_tail a w : weak (a :: w) → weak w.
  Proof. destruct w; simpl; tauto. Qed.

  (** prepending a collider chain *)
  Lemma weak_chain a cs b t : cchain a cs b → (∀ c, c ∈ cs → An c) → An b → ¬ Z b →
    weak (b :: t) → weak (a :: cs ++ b :: t).
  Proof.
    revert a. induction cs as [|c cs IH]; intros a Hc HAn Hb HZ Hw.
    - simpl in *. split; [done|]. split; [|done]. destruct t; [done|]. by split.
    - simpl in Hc. destruct Hc as (Hac & Hbc & Hc).
      change (a :: (c :: cs) ++ b :: t) with (a :: c :: (cs ++ b :: t)).
      split; [by left|]. split; [|apply IH; [done| |done..]; set_solver].
      destruct cs as [|d cs]; simpl.
      + split; [apply HAn; set_solver|]. intros Hn. exfalso. apply Hn. by split.
      + split; [apply HAn; set_solver|]. intros Hn. exfalso. apply Hn. by split.
  Qed.

  Lemma augreach_weak a b : augreach a b → ∃ w, weak (a :: w) ∧ last (a :: w) = Some b.
  Proof.
    induction 1 as [a|a c b [(Ha & Hc & cs & Hch & Hcs) HZ] _ (w & Hw & Hl)].
    - by exists [].
    - exists (cs ++ c :: w). split; [by apply weak_chain|].
      rewrite <-Hl. rewrite app_comm_cons. destruct w as [|d w].
      + by rewrite last_snoc.
      + rewrite !last_cons, last_app. simpl. rewrite last_cons. by destruct (last w).
  Qed.

  Lemma act_dpath_ext w u : act (w ++ [u]) → ∀ t, dpath (u :: t) → (∀ v, v ∈ u :: t → ¬ Z v) →
    act (w ++ u :: t).
  Proof.
    intros Hw t Ht HZ. destruct t as [|n t]; [done|].
    destruct (rev_case w) as [->|(w' & a & ->)].
    - by apply dpath_act.
    - rewrite <-app_assoc in *. simpl in *. apply act_glue; [done|by apply dpath_act|].
      split; [|intros _; apply HZ; set_solver].
      intros [_ ?]. destruct Ht as [[_ ?] _]. done.
  Qed.

  Lemma dpath_rev_act w : dpath w → (∀ v, v ∈ w → ¬ Z v) → act (reverse w).
  Proof. intros. apply act_rev. by apply dpath_act. Qed.

  Lemma not_anZ_rtc u v : ¬ anZ u → rtc dir u v → ¬ Z v.
  Proof. intros Hn Hr Hz. apply Hn. by exists v. Qed.

  (** weak walk from x => active walk to y *)
  Lemma weak_act_gen u v t : weak (u :: v :: t) → last (v :: t) = Some y →
    (∃ w, act (w ++ [u; v]) ∧ head (w ++ [u; v]) = Some x) →
    ∃ w, act w ∧ starts w x y.
  Proof.
    revert u v. induction t as [|n t IH]; intros u v Hw Hl (w & Hact & Hh).
    { simpl in Hl. injection Hl as ->. exists (w ++ [u; y]). split; [done|].
      split; [done|]. by rewrite last_app. }
    destruct Hw as (Huv & [HAn HnZ] & Hw).
    assert (madj v n) as Hvn by (simpl in Hw; tauto).
    assert (triple_ok u v n → ∃ w0, act w0 ∧ starts w0 x y) as Hcont.
    { intros Hok. apply (IH v n Hw); [by rewrite <-Hl|].
      exists (w ++ [u]). rewrite <-!app_assoc. simpl. split; [by apply act_snoc|].
      by destruct w. }
    destruct (coll_dec u v n) as [Hcol|Hcol]; [|apply Hcont; split; [tauto|auto]].
    destruct (anZ_dec v) as [Hv|Hv]; [apply Hcont; split; tauto|].
    destruct HAn as [Hvx|[Hvy|?]]; [| |done].
    - (* v is an ancestor of x: restart from x *)
      apply rtc_dpath in Hvx as (p & Hp & Hpl).
      assert (∀ z, z ∈ v :: p → ¬ Z z) as HpZ.
      { intros z Hz. eapply not_anZ_rtc; [done|]. by eapply dpath_all. }
      apply (IH v n Hw); [by rewrite <-Hl|].
      pose proof (dpath_rev_act _ Hp HpZ) as Hrev.
      destruct p as [|c p].
      + simpl in Hpl. injection Hpl as ->. exists []. simpl. split; [tauto|done].
      + exists (reverse (c :: p)). rewrite !reverse_cons in *.
        rewrite <-!app_assoc in *. simpl in *. split.
        * apply act_snoc; [done|done|]. split.
          -- intros [Hcv _]. destruct Hp as [[_ ?] _]. done.
          -- intros _. apply HpZ. set_solver.
        * rewrite last_cons in Hpl. destruct (last p) as [e|] eqn:He.
          -- destruct (rev_case p) as [->|(p' & e' & ->)]; [done|].
             rewrite last_snoc in He. simplify_eq. rewrite reverse_snoc. done.
          -- destruct p; [|by rewrite last_cons in He; destruct (last p)]. simpl in *.
             done.
    - (* v is an ancestor of y: go down to y *)
      apply rtc_dpath in Hvy as (p & Hp & Hpl).
      assert (∀ z, z ∈ v :: p → ¬ Z z) as HpZ.
      { intros z Hz. eapply not_anZ_rtc; [done|]. by eapply dpath_all. }
      exists ((w ++ [u]) ++ v :: p). split.
      + apply act_dpath_ext; [|done|done]. by rewrite <-app_assoc.
      + split; [by destruct w|]. rewrite last_app, Hpl. done.
  Qed.

  Lemma augreach_act : x ≠ y → augreach x y → ∃ p, act p ∧ starts p x y ∧ NoDup p.
  Proof.
    intros Hne Hr. apply augreach_weak in Hr as (w & Hw & Hl).
    destruct w as [|v w]; [simpl in Hl; congruence|].
    destruct (weak_act_gen x v w) as (w' & ? & ?); [done|by rewrite <-Hl| |].
    - exists []. simpl in *. tauto.
    - by eapply act_walk_path.
  Qed.

  (** ** active path => connected in the augmented graph *)
  Lemma act_An_mid l1 a b c l2 : act (l1 ++ a :: b :: c :: l2) → starts (l1 ++ a :: b :: c :: l2) x y →
    An b.
  Proof.
    intros Hact [Hh Hl].
    assert (act (a :: b :: c :: l2)) as Hr by by eapply act_app_r.
    assert (triple_ok a b c) as Hok by (simpl in Hr; tauto).
    destruct (Hdec c b) as [Hcb|Hcb].
    - destruct (Hdec a b) as [Hab|Hab].
      { right. right. apply Hok. by split. }
      (* edge b --> a, follow backwards to x *)
      assert (act (b :: a :: reverse l1)) as Hl1.
      { assert (act (l1 ++ [a; b])) as Hq.
        { apply (act_app_l _ (c :: l2)). by rewrite <-app_assoc. }
        apply act_rev in Hq. rewrite reverse_app in Hq. done. }
      destruct (follow b a (reverse l1) x) as [Ht|Ht]; [done| | | |].
      + apply madj_dir; [|done]. simpl in Hl1. tauto.
      + destruct l1 as [|e l1]; simpl in Hh; simplify_eq; [done|].
        rewrite reverse_cons, app_comm_cons, last_snoc. done.
      + left. by apply tc_rtc.
      + right. by right.
    - destruct (follow b c l2 y) as [Ht|Ht].
      + simpl in Hr. simpl. tauto.
      + apply madj_dir; [|done]. simpl in Hr. tauto.
      + rewrite <-Hl. rewrite last_app. simpl. rewrite !last_cons.
        destruct (last l2); done.
      + right. left. by apply tc_rtc.
      + right. by right.
  Qed.

  Lemma cchain_snoc m cs v v' : cchain m cs v → H (default m (last cs)) v → H v' v → madj v v' →
    cchain m (cs ++ [v]) v'.
  Proof.
    revert m. induction cs as [|c cs IH]; intros m Hc H1 H2 H3.
    - simpl in *. tauto.
    - simpl in Hc. destruct Hc as (Hmc & Hn & Hc).
      change ((c :: cs) ++ [v]) with (c :: (cs ++ [v])). split; [done|]. split.
      + by destruct cs.
      + apply IH; [done| |done|done]. rewrite last_cons in H1.
        destruct (last cs) eqn:E; simpl in *; done.
  Qed.

  Lemma act_augreach_gen l1 u v t :
    act (l1 ++ u :: v :: t) → starts (l1 ++ u :: v :: t) x y → ¬ Z y → 
    (∃ m cs, augreach x m ∧ An m ∧ cchain m cs v ∧ (∀ c, c ∈ cs → An c) ∧ default m (last cs) = u) →
    augreach x y.
  Proof.
    revert l1 u v. induction t as [|n t IH]; intros l1 u v Hact Hst HZy (m & cs & Hm & HAnm & Hch & Hcs & Hu).
    - assert (v = y) as ->.
      { destruct Hst as [_ Hl]. rewrite last_app in Hl. simpl in Hl. congruence. }
      eapply rtc_r; [done|]. split; [|done]. split; [done|]. split; [right; by left|]. eauto.
    - assert (An v) as HAnv by by eapply act_An_mid.
      assert (act (u :: v :: n :: t)) as Hact' by by eapply act_app_r.
      assert (triple_ok u v n ∧ madj v n) as [Hok Hvn] by (simpl in Hact'; tauto).
      apply (IH (l1 ++ [u]) v n); [by rewrite <-app_assoc..|done|].
      destruct (coll_dec u v n) as [Hcol|Hcol].
      + exists m, (cs ++ [v]). split_and!; [done|done| | |].
        * apply cchain_snoc; [done| |apply Hcol|done]. rewrite Hu. apply Hcol.
        * intros c. rewrite elem_of_app, elem_of_list_singleton. intros [?| ->]; auto.
        * by rewrite last_snoc.
      + exists v, []. split_and!; [|done|done|set_solver|done].
        eapply rtc_r; [done|]. split; [|by apply Hok]. split; [done|]. split; [done|]. eauto.
  Qed.

  Lemma act_augreach p : x ≠ y → ¬ Z y → act p → starts p x y → augreach x y.
  Proof.
    intros Hne HZy Hact Hst. destruct p as [|u [|v t]].
    - by destruct Hst.
    - destruct Hst; simpl in *; congruence.
    - apply (act_augreach_gen [] u v t); [done|done|done|].
      assert (u = x) as -> by (destruct Hst; simpl in *; congruence).
      exists x, []. split_and!; [done|by left| |set_solver|done].
      simpl in *. tauto.
  Qed.

  Theorem msep_aug : x ≠ y → ¬ Z y →
    (∃ p, act p ∧ starts p x y ∧ NoDup p) ↔ augreach x y.
  Proof.
    intros Hne HZ. split.
    - intros (p & ? & ? & _). by eapply act_augreach.
    - by apply augreach_act.
  Qed.
End msep.
