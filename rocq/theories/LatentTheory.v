(** Graph theory: marginalisation of a DAG over latent nodes (Richardson and Spirtes 2002).  The observed nodes V of a
    DAG E, joined when there is an inducing path between them, with an arrowhead at the nodes that are no ancestors of the
    other end, have the separations of the DAG.  Pure mathematics; used for the learners of ancestral graphs. *)
From Verif Require Import Base BaseLemmas Paths MSepTheory ProofVP.

(** ** Walks with a condition on the inner nodes *)
Section walks.
  Context (E : nat → nat → Prop).
  Implicit Types T : nat → nat → nat → Prop.
  Fixpoint tw T (w : list nat) : Prop :=
    match w with
    | a :: ((b :: t) as w') =>
        madj E a b ∧ match t with c :: _ => T a b c | [] => True end ∧ tw T w'
    | _ => True
    end.
  Lemma tw_impl T T' w : (∀ a b c, T a b c → T' a b c) → tw T w → tw T' w.
  Proof.
    intros HT. induction w as [|a w IH]; [done|]. destruct w as [|b w]; [done|]. intros (H1 & H2 & H3).
    split; [done|]. split; [|by apply IH]. destruct w; [done|]. by apply HT.
  Qed.
  Lemma tw_and T T' w : tw T w → (∀ l1 a b c l2, w = l1 ++ a :: b :: c :: l2 → T' a b c) → tw (λ a b c, T a b c ∧ T' a b c) w.
  Proof.
    induction w as [|a w IH]; [done|]. destruct w as [|b w]; [done|]. intros (H1 & H2 & H3) Hs.
    split; [done|]. split.
    - destruct w as [|c w]; [done|]. split; [done|]. by apply (Hs [] a b c w).
    - apply IH; [done|]. intros l1 a' b' c' l2 Eq. apply (Hs (a :: l1) a' b' c' l2). by rewrite Eq.
  Qed.
  Lemma tw_glue T l1 v l2 : tw T (l1 ++ [v]) → tw T (v :: l2) →
    (∀ p q, last l1 = Some p → head l2 = Some q → T p v q) → tw T (l1 ++ v :: l2).
  Proof.
    induction l1 as [|a l1 IH]; [done|]. intros H1 H2 H3. destruct l1 as [|b l1].
    - simpl in H1. simpl app. split; [tauto|]. split; [|done]. destruct l2 as [|q l2]; [done|]. by apply H3.
    - assert (tw T (b :: l1 ++ v :: l2)) as IH'.
      { apply IH; [simpl in *; tauto|done|]. intros p q Hp. apply H3. done. }
      simpl app in *. destruct H1 as (Ha & Ht & H1). split; [done|]. split; [|done]. destruct l1; done.
  Qed.
  Lemma tw_split T l1 v l2 : tw T (l1 ++ v :: l2) → tw T (l1 ++ [v]) ∧ tw T (v :: l2) ∧
    ∀ p q, last l1 = Some p → head l2 = Some q → T p v q.
  Proof.
    induction l1 as [|a l1 IH]; [done|]. intros H1. destruct l1 as [|b l1].
    - simpl app in *. destruct H1 as (Ha & Ht & H1). split; [done|]. split; [done|]. intros p q [= <-] Hq. destruct l2; simplify_eq/=. done.
    - simpl app in *. destruct H1 as (Ha & Ht & H1). destruct (IH H1) as (I1 & I2 & I3). split_and!; [|done|].
      + split; [done|]. split; [|done]. destruct l1; done.
      + intros p q Hp. by apply I3.
  Qed.
  Lemma tw_rev T w : (∀ a b c, T a b c → T c b a) → tw T w → tw T (reverse w).
  Proof.
    intros HT. induction w as [|a w IH]; [done|]. intros Ha. rewrite reverse_cons. destruct w as [|b w]; [done|].
    destruct Ha as (Hab & Ht & Hw). specialize (IH Hw). rewrite reverse_cons in *. rewrite <-app_assoc. simpl app.
    apply tw_glue; [done| |].
    - simpl. split; [|done]. by apply madj_sym.
    - intros p q Hp [= <-]. destruct w as [|c w]; [done|]. rewrite reverse_cons, last_snoc in Hp. injection Hp as <-. by apply HT.
  Qed.
End walks.

(** ** Lists with a condition on neighbours *)
Section links.
  Context {A : Type}.
  Implicit Types (J : A → A → Prop) (l : list A).
  Fixpoint links J l : Prop :=
    match l with a :: ((b :: _) as r) => J a b ∧ links J r | _ => True end.
  Lemma links_app J l1 a l2 : links J (l1 ++ a :: l2) ↔ links J (l1 ++ [a]) ∧ links J (a :: l2).
  Proof.
    induction l1 as [|b l1 IH]; [simpl; tauto|]. destruct l1 as [|c l1]; [simpl; tauto|].
    simpl app in *. change (links J (b :: c :: l1 ++ a :: l2)) with (J b c ∧ links J (c :: l1 ++ a :: l2)).
    change (links J (b :: c :: l1 ++ [a])) with (J b c ∧ links J (c :: l1 ++ [a])). tauto.
  Qed.
  Lemma links_snoc J l a : links J (l ++ [a]) ↔ links J l ∧ ∀ p, last l = Some p → J p a.
  Proof.
    destruct (rev_case l) as [->|(l' & b & ->)]; [simpl; split; [done|tauto]|].
    rewrite <-app_assoc. simpl app. rewrite links_app, last_snoc. simpl. split.
    - intros (? & ? & _). split; [done|]. by intros ? [= ->].
    - intros [? Hp]. split; [done|]. split; [by apply Hp|done].
  Qed.
  Lemma links_cons J a l : links J (a :: l) ↔ (∀ q, head l = Some q → J a q) ∧ links J l.
  Proof.
    destruct l as [|b l]; simpl; [split; [done|tauto]|]. split; [intros [? ?]; split; [by intros ? [= ->]|done]|intros [Hq ?]; split; [by apply Hq|done]].
  Qed.
  Lemma links_dec J l : (∀ a b, J a b ∨ ¬ J a b) → links J l ∨ ∃ l1 a b l2, l = l1 ++ a :: b :: l2 ∧ ¬ J a b.
  Proof.
    intros Hd. induction l as [|a l IH]; [by left|]. destruct l as [|b l]; [by left|].
    destruct (Hd a b) as [Hab|Hab]; [|right; by exists [], a, b, l].
    destruct IH as [IH|(l1 & c & d & l2 & -> & Hn)]; [by left|]. right. exists (a :: l1), c, d, l2. done.
  Qed.
End links.

Section latent.
  Context (E : nat → nat → Prop) (Hac : ∀ a, ¬ tc E a a) (Hdec : ∀ a b, E a b ∨ ¬ E a b).
  Context (anc_dec : ∀ a b, rtc E a b ∨ ¬ rtc E a b).
  Context (V : nat → Prop) (Vdec : ∀ a, V a ∨ ¬ V a).

  Lemma E_irr a : ¬ E a a.
  Proof. intros H. apply (Hac a). by apply tc_once. Qed.
  Lemma E_anti a b : E a b → ¬ E b a.
  Proof. intros H1 H2. apply (Hac a). eapply tc_l; [done|]. by apply tc_once. Qed.
  Lemma dir_E a b : dir E a b ↔ E a b.
  Proof. unfold dir. split; [tauto|]. intros H. split; [done|]. by apply E_anti. Qed.
  Lemma E_dacyc a : ¬ tc (dir E) a a.
  Proof. intros Ht. apply (Hac a). eapply tc_mono; [|exact Ht]. by intros ?? [? _]. Qed.
  Lemma rtc_dir_E a b : rtc (dir E) a b ↔ rtc E a b.
  Proof. split; intros Hr; (eapply rtc_subrel; [|exact Hr]); intros u v; apply dir_E. Qed.
  Lemma rtc_anti a b : rtc E a b → rtc E b a → a = b.
  Proof.
    intros H1 H2. apply rtc_inv in H1 as [->|(c & H1 & H3)]; [done|]. destruct (Hac a).
    eapply tc_rtc_r; [|exact H2]. eapply tc_rtc_r; [by apply tc_once|done].
  Qed.

  (** ** Inducing walks: colliders are ancestors of the ends, other inner nodes are latent *)
  Definition it (u v a b c : nat) : Prop := (coll E a b c → rtc E b u ∨ rtc E b v) ∧ (¬ coll E a b c → ¬ V b).
  Definition ind (u v : nat) : Prop := ∃ l, tw E (it u v) (u :: l ++ [v]).
  Lemma it_sym u v a b c : it u v a b c → it v u c b a.
  Proof. unfold it, coll. tauto. Qed.

  (** an inducing walk with its marks: [i] says whether it has an arrowhead at u, [j] at v *)
  Definition seg (u : nat) (i j : bool) (v : nat) : Prop := ∃ l, tw E (it u v) (u :: l ++ [v]) ∧
    (∀ q, head (l ++ [v]) = Some q → (E q u ↔ i = true)) ∧ (∀ p, last (u :: l) = Some p → (E p v ↔ j = true)).

  Lemma E_bool a b : ∃ i : bool, E a b ↔ i = true.
  Proof. destruct (Hdec a b); [by exists true|by exists false]. Qed.
  Lemma ind_seg u v : ind u v → ∃ i j, seg u i j v.
  Proof.
    intros (l & Hl). destruct (head (l ++ [v])) as [q|] eqn:Eh; [|by destruct l]. destruct (last (u :: l)) as [p|] eqn:El; [|by apply last_None in El].
    destruct (E_bool q u) as [i Hi], (E_bool p v) as [j Hj]. exists i, j, l. split_and!; [done|intros ? ?; by simplify_eq..].
  Qed.
  Lemma seg_ind u i j v : seg u i j v → ind u v.
  Proof. intros (l & H & _). by exists l. Qed.

  Lemma seg_sym u i j v : seg u i j v → seg v j i u.
  Proof.
    intros (l & Hl & H1 & H2). exists (reverse l). split_and!.
    - apply (tw_rev E) in Hl as Hl'.
      + rewrite reverse_cons, reverse_app in Hl'. simpl in Hl'. eapply tw_impl; [|exact Hl']. intros a b c. unfold it. tauto.
      + intros a b c. unfold it, coll. tauto.
    - intros q Hq. apply H2. rewrite <-Hq. rewrite <-head_reverse. by rewrite reverse_cons.
    - intros p Hp. apply H1. rewrite <-Hp. rewrite <-last_reverse. by rewrite reverse_app.
  Qed.
  Lemma ind_sym u v : ind u v → ind v u.
  Proof. intros (i & j & H)%ind_seg. eapply seg_ind. by apply seg_sym. Qed.

  Lemma seg_merge u i v j w : seg u i true v → seg v true j w → rtc E v u ∨ rtc E v w → seg u i j w.
  Proof.
    intros (l1 & L1 & H1 & H2) (l2 & L2 & H3 & H4) Hv. exists (l1 ++ v :: l2). split_and!.
    - rewrite <-app_assoc. simpl app. rewrite app_comm_cons. apply tw_glue.
      + eapply tw_impl; [|exact L1]. intros a b c [Ha Hb]. split; [|done]. intros Hc. destruct (Ha Hc) as [?|?]; [by left|].
        destruct Hv; [left|right]; by etrans.
      + eapply tw_impl; [|exact L2]. intros a b c [Ha Hb]. split; [|done]. intros Hc. destruct (Ha Hc) as [?|?]; [|by right].
        destruct Hv; [left|right]; by etrans.
      + intros p q Hp Hq. split; [done|]. intros []. split; [by apply H2|by apply H3].
    - intros q Hq. apply H1. rewrite <-Hq. rewrite <-app_assoc. simpl app. by destruct l1.
    - intros p Hp. apply H4. rewrite <-Hp. rewrite app_comm_cons. by rewrite last_app_cons.
  Qed.

  (** leaving along an edge one comes down to a collider or to the end *)
  Lemma seg_fwd (P : nat → Prop) u v t : (∀ a b, E a b → P b → P a) → (∀ b, rtc E b u ∨ rtc E b v → P b) →
    ∀ a b, tw E (it u v) (a :: b :: t) → E a b → last (b :: t) = Some v → P a.
  Proof.
    intros Hup HP. induction t as [|c t IH]; intros a b (H1 & H2 & H3) Hab Hl.
    - injection Hl as ->. apply (Hup a v); [done|]. apply HP. by right.
    - apply (Hup a b); [done|]. destruct (Hdec c b) as [Hcb|Hcb].
      + apply HP. apply H2. by split.
      + apply (IH b c); [done| |done]. destruct H3 as [[?|?] _]; done.
  Qed.
  Lemma seg_inner u v l : tw E (it u v) (u :: l ++ [v]) → ∀ l1 a b c l2, u :: l ++ [v] = l1 ++ a :: b :: c :: l2 → rtc E b u ∨ rtc E b v.
  Proof.
    intros Hl l1 a b c l2 Eq.
    assert (∀ a b, E a b → (rtc E b u ∨ rtc E b v) → rtc E a u ∨ rtc E a v) as Hup.
    { intros a' b' Hab [?|?]; [left|right]; by eapply rtc_l. }
    pose proof Hl as Hr. rewrite Eq in Hr. pose proof Hr as Hr2.
    replace (l1 ++ a :: b :: c :: l2) with ((l1 ++ [a]) ++ b :: c :: l2) in Hr by by rewrite <-app_assoc.
    apply tw_split in Hr as (R1 & R2 & R3).
    assert (it u v a b c) as Hit by (apply (R3 a c); [by rewrite last_snoc|done]).
    destruct (Hdec b c) as [Hbc|Hbc].
    - apply (seg_fwd (λ n, rtc E n u ∨ rtc E n v) u v l2 Hup (λ _ H, H) b c R2 Hbc).
      assert (last (u :: l ++ [v]) = Some v) as Hlast by by rewrite app_comm_cons, last_snoc.
      rewrite Eq in Hlast. replace (l1 ++ a :: b :: c :: l2) with ((l1 ++ [a;b]) ++ c :: l2) in Hlast by by rewrite <-app_assoc.
      by rewrite last_app_cons in Hlast.
    - assert (E c b) as Hcb by (destruct R2 as [[?|?] _]; done).
      destruct (Hdec a b) as [Hab|Hab]; [by apply Hit|].
      assert (E b a) as Hba. { apply tw_split in Hr2 as (_ & [[?|?] _] & _); done. }
      rewrite <-app_assoc in R1. apply (tw_rev E) in R1; [|intros ???; unfold it, coll; tauto].
      rewrite reverse_app in R1. cbn [reverse rev_append app] in R1. change (tw E (it u v) (b :: a :: reverse l1)) in R1.
      destruct (seg_fwd (λ n, rtc E n v ∨ rtc E n u) v u (reverse l1)) with (a := b) (b := a) as [?|?]; [| | |done| |by right|by left].
      + intros a' b' ? ?. apply or_comm, (Hup a' b'); tauto.
      + tauto.
      + eapply tw_impl; [|exact R1]. intros ???. unfold it. tauto.
      + rewrite <-reverse_snoc, last_reverse. assert (head (u :: l ++ [v]) = Some u) as Hh by done. rewrite Eq in Hh. by destruct l1.
  Qed.
  (** a walk that leaves its start is directed away from it *)
  Lemma seg_out u j v : seg u false j v → rtc E u v.
  Proof.
    intros (l & Hl & H1 & _). 
    assert (∀ t a b, rtc E u a → tw E (it u v) (a :: b :: t) → E a b → last (b :: t) = Some v → rtc E a v) as Hf.
    { induction t as [|c t IH]; intros a b Hua (I1 & I2 & I3) Hab Hla.
      - injection Hla as ->. by apply rtc_once.
      - eapply rtc_l; [done|]. destruct (Hdec c b) as [Hcb|Hcb].
        + destruct I2 as [[Hb|Hb] _]; [by split| |done]. destruct (Hac b). eapply tc_rtc_l; [exact Hb|]. eapply tc_rtc_l; [exact Hua|]. by apply tc_once.
        + apply (IH b c); [by eapply rtc_r|done| |done]. destruct I3 as [[?|?] _]; done. }
    destruct (l ++ [v]) as [|q t] eqn:El; [by destruct l|]. apply (Hf t u q); [done|done| |].
    - destruct Hl as [[?|Hq] _]; [done|]. by apply (H1 q) in Hq.
    - rewrite <-El. by rewrite last_snoc.
  Qed.

  (** ** The projection *)
  Definition Hm (a b : nat) : Prop := V a ∧ V b ∧ a ≠ b ∧ ind a b ∧ ¬ rtc E b a.
  Lemma madj_Hm a b : madj Hm a b ↔ V a ∧ V b ∧ a ≠ b ∧ ind a b.
  Proof.
    unfold madj, Hm. split.
    - intros [(?&?&?&?&_)|(?&?&?&?&_)]; [done|]. split_and!; [done..|by apply ind_sym].
    - intros (H1 & H2 & H3 & H4). destruct (anc_dec b a) as [Hr|Hr]; [|by left]. right. split_and!; [done..|by apply ind_sym|].
      intros Hr2. by pose proof (rtc_anti _ _ Hr Hr2).
  Qed.
  Lemma dir_Hm a b : dir Hm a b ↔ V a ∧ V b ∧ a ≠ b ∧ ind a b ∧ rtc E a b.
  Proof.
    unfold dir. split.
    - intros [(?&?&?&?&?) Hn]. split_and!; [done..|]. destruct (anc_dec a b) as [|Hr]; [done|]. destruct Hn. split_and!; [done..|by apply ind_sym|done].
    - intros (?&?&?&?&Hr). split.
      + split_and!; [done..|]. intros Hr2. by pose proof (rtc_anti _ _ Hr Hr2).
      + by intros (_&_&_&_&Hn).
  Qed.
  Lemma rtc_Hm a b : rtc (dir Hm) a b → rtc E a b.
  Proof. induction 1 as [|a b c Hab _ IH]; [done|]. apply dir_Hm in Hab as (_&_&_&_&Hr). by etrans. Qed.
  Lemma Hm_acyclic a : ¬ tc (dir Hm) a a.
  Proof.
    intros Ht.
    assert (∃ b, dir Hm a b ∧ rtc (dir Hm) b a) as (b & H1 & H2).
    { inversion Ht as [? ? H1|? b ? H1 H2]; subst; [exists a|exists b]; (split; [done|]); [done|by apply tc_rtc]. }
    apply rtc_Hm in H2. apply dir_Hm in H1 as (_&_&Hne&_&Hr). by pose proof (rtc_anti _ _ Hr H2).
  Qed.
  Lemma Hm_irr a : ¬ Hm a a.
  Proof. by intros (_&_&?&_). Qed.

  (** ** From the DAG to the projection *)
  Context (Z : nat → Prop) (ZV : ∀ z, Z z → V z).

  Record step := Step { s_u : nat; s_i : bool; s_j : bool; s_v : nat }.
  Definition ok (s : step) : Prop := V (s_u s) ∧ V (s_v s) ∧ seg (s_u s) (s_i s) (s_j s) (s_v s).
  Definition join (s s' : step) : Prop := s_v s = s_u s' ∧ (Z (s_v s) ↔ s_j s = true ∧ s_i s' = true).
  Definition good (s s' : step) : Prop := s_j s = true → s_i s' = true → ¬ rtc E (s_v s) (s_u s) ∧ ¬ rtc E (s_v s) (s_v s').

  (** a strict walk, cut at the observed nodes *)
  Definition trek (a b c : nat) : Prop := ¬ coll E a b c ∧ ¬ V b.
  Lemma trek_seg a l b i j p q : tw E trek (a :: l ++ [b]) → head (l ++ [b]) = Some q → (E q a ↔ i = true) →
    last (a :: l) = Some p → (E p b ↔ j = true) → seg a i j b.
  Proof.
    intros Hl Hq Hi Hp Hj. exists l. split_and!; [|intros ? ?; by simplify_eq..].
    eapply tw_impl; [|exact Hl]. intros u v w [H1 H2]. by split.
  Qed.
  Lemma cut y : V y → ∀ t a l p b, V a → tw E trek (a :: l ++ [b]) → last (a :: l) = Some p →
    sact E Z (p :: b :: t) → last (b :: t) = Some y →
    ∃ s ss, Forall ok (s :: ss) ∧ links join (s :: ss) ∧ s_u s = a ∧ (∀ q, head (l ++ [b]) = Some q → (E q a ↔ s_i s = true)) ∧
      (s_v <$> last (s :: ss)) = Some y.
  Proof.
    intros Hy. induction t as [|c t IH]; intros a l p b Ha Hl Hp Hs Hlast.
    - injection Hlast as ->. destruct (head (l ++ [y])) as [q|] eqn:Eh; [|by destruct l].
      destruct (E_bool q a) as [i Hi], (E_bool p y) as [j Hj]. exists (Step a i j y), []. split_and!; [|done|done| |done].
      + constructor; [|constructor]. split_and!; [done..|]. by eapply trek_seg.
      + intros ? ?. by simplify_eq.
    - destruct Hs as (Hpb & Ht & Hs). destruct (Vdec b) as [Hb|Hb].
      + destruct (IH b [] b c Hb) as (s & ss & F & L & Hu & Hi & Hv); [|done|done|by rewrite last_cons_cons in Hlast|].
        { destruct Hs as [? _]. by simpl. }
        destruct (head (l ++ [b])) as [q|] eqn:Eh; [|by destruct l].
        destruct (E_bool q a) as [i Hqa], (E_bool p b) as [j Hj]. exists (Step a i j b), (s :: ss). split_and!.
        * constructor; [|done]. split_and!; [done..|]. by eapply trek_seg.
        * split; [|done]. split; [done|]. simpl. rewrite Ht. unfold coll. specialize (Hi c eq_refl). tauto.
        * done.
        * intros ? ?. by simplify_eq.
        * rewrite last_cons_cons. done.
      + assert (¬ coll E p b c) as Hnc by (rewrite <-Ht; intros ?%ZV; done).
        destruct (IH a (l ++ [b]) b c Ha) as (s & ss & F & L & Hu & Hi & Hv); [| |done|by rewrite last_cons_cons in Hlast|].
        * rewrite <-app_assoc. simpl app. rewrite app_comm_cons. apply tw_glue; [done| |].
          -- destruct Hs as [? _]. by simpl.
          -- intros p' q' Hp' Hq'. rewrite Hp in Hp'. simplify_eq/=. by split.
        * by rewrite app_comm_cons, last_snoc.
        * exists s, ss. split_and!; [done..| |done]. intros q Hq. apply Hi. rewrite <-Hq. rewrite <-app_assoc. by destruct l.
  Qed.

  (** fewer steps: an observed collider that is an ancestor of a neighbour is skipped, and so are loops *)
  Lemma seg_loop u i j : seg u i j u → i = true ∧ j = true.
  Proof.
    assert (∀ j, ¬ seg u false j u) as Hno.
    { intros j' (l & Hl & H1 & _).
      assert (∀ t a b, rtc E u a → tw E (it u u) (a :: b :: t) → E a b → last (b :: t) = Some u → False) as Hf.
      { induction t as [|c t IH]; intros a b Hua (I1 & I2 & I3) Hab Hla.
        - injection Hla as ->. apply (Hac u). eapply tc_rtc_l; [exact Hua|]. by apply tc_once.
        - destruct (Hdec c b) as [Hcb|Hcb].
          + destruct I2 as [Hb _]. assert (rtc E b u) as Hbu by (destruct Hb; [by split|done..]).
            destruct (Hac b). eapply tc_rtc_l; [exact Hbu|]. eapply tc_rtc_l; [exact Hua|]. by apply tc_once.
          + apply (IH b c); [by eapply rtc_r|done| |done]. destruct I3 as [[?|?] _]; done. }
      destruct (l ++ [u]) as [|q t] eqn:El; [by destruct l|]. apply (Hf t u q); [done|done| |].
      - destruct Hl as [[?|Hq] _]; [done|]. by apply (H1 q) in Hq.
      - rewrite <-El. by rewrite last_snoc. }
    intros Hs. split.
    - destruct i; [done|]. by apply Hno in Hs.
    - destruct j; [done|]. by apply seg_sym, Hno in Hs.
  Qed.

  Definition from_to (ss : list step) (x y : nat) : Prop := (s_u <$> head ss) = Some x ∧ (s_v <$> last ss) = Some y.
  Lemma links_replace l1 s s' l2 m : links join (l1 ++ s :: s' :: l2) → s_u m = s_u s → s_i m = s_i s → s_v m = s_v s' → s_j m = s_j s' →
    links join (l1 ++ m :: l2).
  Proof.
    intros H U I V' J. apply links_app in H as [H1 H2]. apply links_app. split.
    - apply links_snoc in H1 as [H1 Hp]. apply links_snoc. split; [done|]. intros p Hp'. specialize (Hp p Hp'). unfold join in *. by rewrite U, I.
    - apply links_cons in H2 as [_ H2]. apply links_cons in H2 as [Hq H2]. apply links_cons. split; [|done].
      intros q Hq'. specialize (Hq q Hq'). unfold join in *. by rewrite V', J.
  Qed.
  Lemma shrink x y : x ≠ y → ∀ n ss, length ss < n → Forall ok ss → links join ss → from_to ss x y →
    ∃ ss', Forall ok ss' ∧ links join ss' ∧ from_to ss' x y ∧ links good ss' ∧ Forall (λ s, s_u s ≠ s_v s) ss'.
  Proof.
    intros Hxy. induction n as [|n IH]; [lia|]. intros ss Hlen F L [Hx Hy].
    destruct (decide (Forall (λ s, s_u s ≠ s_v s) ss)) as [Hne|Hne].
    - destruct (links_dec good ss) as [G|(l1 & s & s' & l2 & -> & Hn)].
      { intros a b. unfold good. destruct (s_j a), (s_i b); [|by left..]. destruct (anc_dec (s_v a) (s_u a)); [right; naive_solver|].
        destruct (anc_dec (s_v a) (s_v b)); [right; naive_solver|]. by left. }
      + exists ss. done.
      + pose proof F as F'. apply Forall_app in F' as [F1 F2]. apply Forall_cons in F2 as [(A1 & A2 & A3) F2]. apply Forall_cons in F2 as [(B1 & B2 & B3) F2].
        pose proof L as L'. apply links_app in L' as [_ [[Ev _] _]].
        assert (s_j s = true ∧ s_i s' = true ∧ (rtc E (s_v s) (s_u s) ∨ rtc E (s_v s) (s_v s'))) as (J & I & Hr).
        { unfold good in Hn. destruct (s_j s), (s_i s'); try (by destruct Hn). split_and!; [done..|].
          destruct (anc_dec (s_v s) (s_u s)); [by left|]. destruct (anc_dec (s_v s) (s_v s')); [by right|]. by destruct Hn. }
        set (m := Step (s_u s) (s_i s) (s_j s') (s_v s')).
        apply (IH (l1 ++ m :: l2)).
        * rewrite !app_length in *. simpl in *. lia.
        * apply Forall_app. split; [done|]. constructor; [|done]. split_and!; [done..|]. simpl. rewrite J in A3. rewrite I, <-Ev in B3. by eapply seg_merge.
        * by eapply links_replace.
        * split; [by destruct l1|]. rewrite <-Hy. rewrite !last_app_cons, last_cons_cons. destruct l2 as [|? ?]; [done|]. by rewrite !last_cons_cons.
    - assert (∃ l1 s l2, ss = l1 ++ s :: l2 ∧ s_u s = s_v s) as (l1 & s & l2 & -> & Es).
      { apply not_Forall_Exists in Hne; [|apply _]. apply Exists_exists in Hne as (s & Hin & Hs). apply elem_of_list_split in Hin as (l1 & l2 & ->).
        exists l1, s, l2. split; [done|]. simpl in Hs. by apply dec_stable in Hs. }
      pose proof F as F'. apply Forall_app in F' as [F1 F2]. apply Forall_cons in F2 as [(A1 & A2 & A3) F2]. rewrite <-Es in A3.
      apply seg_loop in A3 as [I J]. pose proof L as L'. apply links_app in L' as [L1 L2]. apply links_snoc in L1 as [L1 Hp]. apply links_cons in L2 as [Hq L2].
      apply (IH (l1 ++ l2)).
      + rewrite !app_length in *. simpl in *. lia.
      + by apply Forall_app.
      + destruct l2 as [|s2 l2]; [by rewrite app_nil_r|]. apply links_app. split; [|done]. apply links_snoc. split; [done|].
        intros p Hp'. destruct (Hp p Hp') as [P1 P2], (Hq s2 eq_refl) as [Q1 Q2]. split; [congruence|]. rewrite I in P2. rewrite J in Q2.
        rewrite P1, Es in *. split; [|tauto]. intros Hz. split; [by apply P2|by apply Q2].
      + split.
        * destruct l1 as [|s0 l1]; [|done]. simpl in *. injection Hx as <-. destruct l2 as [|s2 l2].
          { simpl in Hy. congruence. }
          simpl. f_equal. destruct (Hq s2 eq_refl) as [Q1 _]. congruence.
        * destruct l2 as [|s2 l2].
          -- rewrite last_snoc in Hy. rewrite app_nil_r. destruct (last l1) as [p|] eqn:Ep.
             ++ simpl in *. destruct (Hp p eq_refl) as [P1 _]. congruence.
             ++ apply last_None in Ep as ->. simpl in *. congruence.
          -- by rewrite !last_app_cons, ?last_cons_cons in *.
  Qed.

  (** in a reduced chain the nodes of Z are the colliders of the projection *)
  Lemma chain_sact s ss : Forall ok (s :: ss) → links join (s :: ss) → links good (s :: ss) → Forall (λ s, s_u s ≠ s_v s) (s :: ss) →
    sact Hm Z (s_u s :: s_v s :: (s_v <$> ss)).
  Proof.
    revert s. induction ss as [|s' ss IH]; intros s F L G N.
    - apply Forall_cons in F as [(A1 & A2 & A3) _]. apply Forall_cons in N as [N _]. simpl. split; [|done].
      apply madj_Hm. split_and!; [done..|]. by eapply seg_ind.
    - apply Forall_cons in F as [(A1 & A2 & A3) F]. apply Forall_cons in N as [N N2]. destruct L as [[Ev Hz] L], G as [Hg G].
      pose proof F as F'. apply Forall_cons in F' as [(B1 & B2 & B3) _]. pose proof N2 as N3. apply Forall_cons in N3 as [N3 _].
      specialize (IH s' F L G N2). rewrite <-Ev in IH. cbn [fmap list_fmap]. split; [|split; [|done]].
      + apply madj_Hm. split_and!; [done..|]. by eapply seg_ind.
      + rewrite Hz. unfold coll. split.
        * intros [J I]. destruct (Hg J I) as [G1 G2]. split.
          -- split_and!; [done..|by eapply seg_ind|done].
          -- rewrite Ev in *. split_and!; [done..|done|apply ind_sym; by eapply seg_ind|done].
        * intros [(_&_&_&_&H1) (_&_&_&_&H2)]. split.
          -- destruct (s_j s); [done|]. destruct H1. by apply seg_sym, seg_out in A3.
          -- destruct (s_i s'); [done|]. destruct H2. rewrite Ev. by eapply seg_out.
  Qed.

  Lemma project x y w : x ≠ y → V x → V y → sact E Z w → starts w x y → ∃ w', sact Hm Z w' ∧ starts w' x y.
  Proof.
    intros Hxy Hx Hy Hw [Hh Hl]. destruct w as [|a [|b t]]; [done|simpl in *; congruence|]. injection Hh as ->.
    destruct (cut y Hy t x [] x b Hx) as (s & ss & F & L & Hu & _ & Hv); [|done|done|by rewrite last_cons_cons in Hl|].
    { destruct Hw as [? _]. by simpl. }
    destruct (shrink x y Hxy (S (length (s :: ss))) (s :: ss)) as (ss' & F' & L' & [Hx' Hy'] & G & N); [lia|done|done|split; [simpl; by rewrite Hu|done]|].
    destruct ss' as [|s' ss']; [done|]. simpl in Hx'. injection Hx' as <-. exists (s_u s' :: s_v s' :: (s_v <$> ss')). split; [by apply chain_sact|].
    split; [done|]. rewrite last_cons_cons. rewrite <-Hy'. change (s_v s' :: (s_v <$> ss')) with (s_v <$> (s' :: ss')). by rewrite fmap_last.
  Qed.

  (** ** From the projection to the DAG *)
  Context (Zanc_dec : ∀ a, anZ E Z a ∨ ¬ anZ E Z a).
  Context (x y : nat).
  Lemma weak_tw w : weak E Z x y w ↔ tw E (weak_ok E Z x y) w.
  Proof.
    induction w as [|a w IH]; [done|]. destruct w as [|b w]; [done|].
    change (weak E Z x y (a :: b :: w)) with (madj E a b ∧ match w with c :: _ => weak_ok E Z x y a b c | [] => True end ∧ weak E Z x y (b :: w)).
    change (tw E (weak_ok E Z x y) (a :: b :: w)) with (madj E a b ∧ match w with c :: _ => weak_ok E Z x y a b c | [] => True end ∧ tw E (weak_ok E Z x y) (b :: w)).
    by rewrite IH.
  Qed.
  Lemma An_up a b : rtc E a b → An E Z x y b → An E Z x y a.
  Proof.
    unfold An, anZ. intros Hr%rtc_dir_E [H|[H|(z & Hz & H)]]; [left; by etrans|right; left; by etrans|].
    right. right. exists z. split; [done|]. by etrans.
  Qed.
  Lemma seg_weak u l v : tw E (it u v) (u :: l ++ [v]) → An E Z x y u → An E Z x y v → tw E (weak_ok E Z x y) (u :: l ++ [v]).
  Proof.
    intros Hl Hu Hv. pose proof (tw_and E _ (λ _ b _, rtc E b u ∨ rtc E b v) _ Hl (seg_inner u v l Hl)) as H.
    eapply tw_impl; [|exact H]. cbn beta. intros a b c [[_ Hi] Hb]. split; [destruct Hb; by eapply An_up|].
    intros Hc Hz. by apply (Hi Hc), ZV.
  Qed.
  Lemma weak_connected u w : tw E (weak_ok E Z x y) (x :: u :: w) → last (u :: w) = Some y → ∃ p, act E Z p ∧ starts p x y.
  Proof.
    intros Hw Hl. apply (weak_act_gen E E_irr Hdec E_dacyc Z Zanc_dec x y x u w); [by apply weak_tw|done|].
    exists []. split; [|done]. destruct Hw as [? _]. by simpl.
  Qed.
  Lemma lift : (∀ a b, Hm a b ∨ ¬ Hm a b) → ∀ t u v, act Hm Z (u :: v :: t) → (∀ n, n ∈ u :: v :: t → An E Z x y n) → last (v :: t) = Some y →
    ∃ q w, tw E (weak_ok E Z x y) (u :: q :: w) ∧ last (q :: w) = Some y ∧ (Hm v u → E q u).
  Proof.
    intros Hmd. induction t as [|c t IH]; intros u v Ha HAn Hl.
    - injection Hl as ->. destruct Ha as [Ha _]. apply madj_Hm in Ha as (_&_&_&Hi). apply ind_seg in Hi as (i & j & Hs). pose proof Hs as (l & L & L1 & L2).
      apply seg_weak in L; [|apply HAn; set_solver +..]. destruct (l ++ [y]) as [|q w] eqn:El; [by destruct l|]. exists q, w. split_and!; [done| |].
      + rewrite <-El. by rewrite last_snoc.
      + intros (_&_&_&_&Hn). apply (L1 q eq_refl). destruct i; [done|]. destruct Hn. by eapply seg_out.
    - destruct Ha as (Ha & Ht & Hact). destruct (IH v c Hact) as (q' & w' & W & Wl & Wi); [set_solver +HAn|by rewrite last_cons_cons in Hl|].
      apply madj_Hm in Ha as (_&_&_&Hi). apply ind_seg in Hi as (i & j & Hs). pose proof Hs as (l & L & L1 & L2).
      apply seg_weak in L; [|apply HAn; set_solver +..].
      assert (tw E (weak_ok E Z x y) ((u :: l) ++ v :: q' :: w')) as Hw.
      { apply tw_glue; [done|done|]. intros p q Hp [= <-]. split; [apply HAn; set_solver +|]. intros Hc Hz. apply Hc.
        destruct (coll_dec Hm Hmd u v c) as [[C1 C2]|C]; [|by apply Ht in C]. split; [|by apply Wi]. apply (L2 p Hp).
        destruct j; [done|]. destruct C1 as (_&_&_&_&Hn). destruct Hn. by apply seg_sym, seg_out in Hs. }
      destruct (l ++ [v]) as [|q w] eqn:El; [by destruct l|].
      assert (∃ w2, l ++ v :: q' :: w' = q :: w2 ∧ last (q :: w2) = Some y) as (w2 & E2 & E3).
      { exists (tail (l ++ v :: q' :: w')). assert (l ++ v :: q' :: w' = q :: tail (l ++ v :: q' :: w')) as E2 by (destruct l; simpl in *; congruence).
        split; [done|]. rewrite <-E2. rewrite last_app_cons, last_cons_cons. done. }
      exists q, w2. split_and!; [|done|].
      + rewrite <-E2. done.
      + intros (_&_&_&_&Hn). apply (L1 q eq_refl). destruct i; [done|]. destruct Hn. by eapply seg_out.
  Qed.
  Lemma unproject w : (∀ a b, Hm a b ∨ ¬ Hm a b) → x ≠ y → act Hm Z w → starts w x y → ∃ p, act E Z p ∧ starts p x y.
  Proof.
    intros Hmd Hxy Hw Hs. pose proof Hs as [Hh Hl]. destruct w as [|u [|v t]]; [done|simpl in *; congruence|]. injection Hh as ->.
    destruct (lift Hmd t x v Hw) as (q & w & W & Wl & _); [|by rewrite last_cons_cons in Hl|by eapply weak_connected].
    intros n Hn. apply elem_of_list_split in Hn as (l1 & l2 & Eq). destruct (rev_case l1) as [->|(l1' & a & ->)].
    { simpl in Eq. injection Eq as <- _. by left. }
    destruct l2 as [|c l2].
    { rewrite Eq, last_snoc in Hl. injection Hl as ->. right. by left. }
    rewrite <-app_assoc in Eq. simpl in Eq. rewrite Eq in Hw, Hs.
    assert (∀ a b, rtc (dir Hm) a b → rtc (dir E) a b) as Hr by (intros a' b' ?; by apply rtc_dir_E, rtc_Hm).
    destruct (act_An_mid Hm Hmd Z x y l1' a n c l2 Hw Hs) as [H|[H|(z & Hz & H)]]; [left; by apply Hr|right; left; by apply Hr|].
    right. right. exists z. split; [done|]. by apply Hr.
  Qed.
  Lemma ind_connected : ind x y → ∃ p, act E Z p ∧ starts p x y.
  Proof.
    intros (l & L). apply seg_weak in L; [|by left|right; by left]. destruct (l ++ [y]) as [|q w] eqn:El; [by destruct l|].
    eapply weak_connected; [done|]. rewrite <-El. by rewrite last_snoc.
  Qed.
End latent.
