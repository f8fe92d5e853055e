(** Markov equivalence (Verma and Pearl 1990): two DAGs have the same d-separations iff they have the same skeleton
    and the same unshielded colliders. *)
From Verif Require Import Base BaseLemmas MSepTheory Paths ModelGraph Spec ModelMixed SpecMixed ProofGraph ProofDsep ProofGraph2 ProofGraph3
  ProofPDAG ProofPDAG2 ProofPDAG3 ProofMixed ProofMixed2 ProofMeek.

(** ** Walks on which the nodes of Z are exactly the colliders *)
Section strict.
  Context (H : nat → nat → Prop) (Z : nat → Prop).
  Fixpoint sact (w : list nat) : Prop :=
    match w with
    | a :: ((b :: t) as w') =>
        madj H a b ∧ match t with c :: _ => (Z b ↔ coll H a b c) | [] => True end ∧ sact w'
    | _ => True
    end.

  Lemma sact_glue l1 v l2 : sact (l1 ++ [v]) → sact (v :: l2) →
    (∀ p q, last l1 = Some p → head l2 = Some q → (Z v ↔ coll H p v q)) → sact (l1 ++ v :: l2).
  Proof.
    induction l1 as [|a l1 IH]; [done|]. intros H1 H2 H3. destruct l1 as [|b l1].
    - simpl in H1. simpl app. split; [tauto|]. split; [|done]. destruct l2 as [|q l2]; [done|]. by apply H3.
    - assert (sact (b :: l1 ++ v :: l2)) as IH'.
      { apply IH; [simpl in *; tauto|done|]. intros p q Hp. apply H3. done. }
      simpl app in *. destruct H1 as (Ha & Ht & H1). split; [done|]. split; [|done]. destruct l1; done.
  Qed.
  Lemma sact_split l1 v l2 : sact (l1 ++ v :: l2) → sact (l1 ++ [v]) ∧ sact (v :: l2) ∧
    ∀ p q, last l1 = Some p → head l2 = Some q → (Z v ↔ coll H p v q).
  Proof.
    induction l1 as [|a l1 IH]; [done|]. intros H1. destruct l1 as [|b l1].
    - simpl app in *. destruct H1 as (Ha & Ht & H1). split; [done|]. split; [done|]. intros p q [= <-] Hq. destruct l2; simplify_eq/=. done.
    - simpl app in *. destruct H1 as (Ha & Ht & H1). destruct (IH H1) as (I1 & I2 & I3). split_and!; [|done|].
      + split; [done|]. split; [|done]. destruct l1; done.
      + intros p q Hp. by apply I3.
  Qed.
  Lemma sact_rev w : sact w → sact (reverse w).
  Proof.
    induction w as [|a w IH]; [done|]. intros Ha. rewrite reverse_cons. destruct w as [|b w]; [done|].
    destruct Ha as (Hab & Ht & Hw). specialize (IH Hw). rewrite reverse_cons in *. rewrite <-app_assoc. simpl app.
    apply sact_glue; [done| |].
    - simpl. split; [|done]. by apply madj_sym.
    - intros p q Hp [= <-]. destruct w as [|c w]; [done|]. rewrite reverse_cons, last_snoc in Hp. injection Hp as <-.
      rewrite Ht. unfold coll. tauto.
  Qed.
End strict.

Section convert.
  Context (H : nat → nat → Prop) (Hirr : ∀ a, ¬ H a a) (Hdec : ∀ a b, H a b ∨ ¬ H a b) (Z : nat → Prop) (Zdec : ∀ a, Z a ∨ ¬ Z a).

  Lemma sact_act w : sact H Z w → act H Z w.
  Proof.
    induction w as [|a w IH]; [done|]. destruct w as [|b w]; [done|]. intros (Ha & Ht & Hw). split; [done|]. split; [|by apply IH].
    destruct w as [|c w]; [done|]. split; [|tauto]. intros Hc. exists b. split; [tauto|done].
  Qed.

  (** down to Z and back *)
  Lemma descent b z : rtc (dir H) b z → Z z → ¬ Z b →
    ∃ m n1 n2, head m = Some n1 ∧ last m = Some n2 ∧ dir H b n1 ∧ dir H b n2 ∧ sact H Z (b :: m ++ [b]).
  Proof.
    intros Hr Hz. induction Hr as [|b n z Hbn _ IH]; intros Hb; [done|].
    assert (madj H b n) as M1 by (left; apply Hbn). assert (madj H n b) as M2 by by apply madj_sym.
    destruct (Zdec n) as [Hn|Hn].
    - exists [n], n, n. split_and!; [done..|]. simpl. split; [done|]. split; [|done]. split; [|done]. intros _. split; apply Hbn.
    - destruct (IH Hz Hn) as (m & n1 & n2 & Hh & Hl & H1 & H2 & Hs). exists (n :: m ++ [n]), n, n.
      split_and!; [done|by rewrite app_comm_cons, last_snoc|done..|].
      simpl app. rewrite <-app_assoc. simpl app. split; [done|]. split.
      + destruct m as [|n1' m]; [done|]. simplify_eq/=. split; [done|]. intros [_ ?]. by destruct H1.
      + rewrite app_comm_cons. apply sact_glue; [done|by simpl|]. intros p q Hp [= <-]. destruct m as [|m0 m]; [done|].
        rewrite last_cons_cons, Hl in Hp. injection Hp as <-. split; [done|]. intros [? _]. by destruct H2.
  Qed.
  Lemma act_sact t : ∀ a b, act H Z (a :: b :: t) → ∃ t', sact H Z (a :: b :: t') ∧ last (b :: t') = last (b :: t).
  Proof.
    induction t as [|c t IH]; intros a b (Hab & Ht & Hact); [by exists []|].
    destruct (IH b c Hact) as (t' & Hs & Hl). 
    assert ((Z b ↔ coll H a b c) ∨ (coll H a b c ∧ ¬ Z b)) as [Ho|[Hc Hb]].
    { destruct (coll_dec H Hdec a b c) as [Hc|Hc], (Zdec b) as [Hb|Hb]; [left; tauto|by right|by apply Ht in Hc|left; tauto]. }
    - exists (c :: t'). split; [|by rewrite !last_cons_cons]. split; [done|]. by split.
    - destruct Ht as [Ht _]. destruct (Ht Hc) as (z & Hz & Hr).
      destruct (descent b z Hr Hz Hb) as (m & n1 & n2 & Hh & Hlm & H1 & H2 & Hsm).
      exists (m ++ b :: c :: t'). split.
      + split; [done|]. split.
        * destruct m as [|n1' m]; [done|]. simplify_eq/=. split; [done|]. intros [_ ?]. by destruct H1.
        * rewrite app_comm_cons. apply sact_glue; [done..|]. intros p q Hp [= <-]. destruct m as [|m0 m]; [done|].
          rewrite last_cons_cons, Hlm in Hp. injection Hp as <-. split; [done|]. intros [? _]. by destruct H2.
      + rewrite last_cons_cons, <-Hl, <-(last_cons_cons b c t'). rewrite app_comm_cons. by rewrite last_app_cons.
  Qed.
End convert.

(** d-separation is the absence of a strict walk *)
Lemma d_separated_strict g x y Z : acyclic g → d_separated g x y Z ↔ ¬ ∃ w, sact (edge g) (.∈ Z) w ∧ starts w x y.
Proof.
  intros Hac. unfold d_separated. apply not_iff_compat.
  assert (∀ a, a ∈ Z ∨ a ∉ Z) as Zdec by (intros a; destruct (decide (a ∈ Z)); tauto).
  split.
  - intros (p & (Hh & Hl & Hnd & Hlk) & Ha). assert (act (edge g) (.∈ Z) p) as H by by apply act_active.
    destruct p as [|a [|b t]]; [done|by exists [a]|]. destruct (act_sact (edge g) (edge_dec g) (.∈ Z) Zdec t a b H) as (t' & Ht & El).
    exists (a :: b :: t'). split; [done|]. split; [done|]. by rewrite last_cons_cons, El.
  - intros (w & Hw & Hs). apply sact_act in Hw.
    assert (∃ p, act (edge g) (.∈ Z) p ∧ starts p x y ∧ NoDup p) as (p & Hp & [Hh Hl] & Hnd).
    { apply (act_walk_path (edge g)) with (w := w); [intros a; by apply acyclic_irr|apply edge_dec| |done|done].
      intros a Ht. apply (Hac a). eapply tc_mono; [|exact Ht]. by intros ?? [? _]. }
    exists p. apply act_active in Hp as [Hlk Ha]; [|done]. by split; [split_and!|].
Qed.

(** ** Reversing an edge whose ends have otherwise the same parents keeps the strict connections *)
Section covered.
  Context (H E : nat → nat → Prop) (Hac : ∀ a, ¬ tc H a a) (Hdec : ∀ a b, H a b ∨ ¬ H a b).
  Context (x y : nat) (Hxy : H x y) (Hcov : ∀ p, p ≠ x → (H p y ↔ H p x)).
  Context (HE : ∀ a b, E a b ↔ (H a b ∧ ¬ (a = x ∧ b = y)) ∨ (a = y ∧ b = x)).
  Context (Z : nat → Prop).

  Lemma cov_anti a b : H a b → ¬ H b a.
  Proof using Hac. intros H1 H2. apply (Hac a). eapply tc_l; [done|]. by apply tc_once. Qed.
  Lemma cov_irr a : ¬ H a a.
  Proof using Hac. intros H1. apply (Hac a). by apply tc_once. Qed.

  Lemma swap_head u v q l : madj H v q → (H u q ↔ H v q) → sact H Z (u :: q :: l) → sact H Z (v :: q :: l).
  Proof. intros Hm He (H1 & H2 & H3). split; [done|]. split; [|done]. destruct l as [|r l]; [done|]. unfold coll in *. by rewrite <-He. Qed.
  Lemma swap_tail u v q l : madj H q v → (H u q ↔ H v q) → sact H Z (l ++ [q; u]) → sact H Z (l ++ [q; v]).
  Proof.
    intros Hm He (H1 & H2 & H3)%sact_split. apply sact_glue; [done|by simpl|]. intros p r Hp [= <-].
    rewrite (H3 p u Hp eq_refl). unfold coll. by rewrite He.
  Qed.

  Definition shorter (w : list nat) : Prop :=
    ∃ w', sact H Z w' ∧ head w' = head w ∧ last w' = last w ∧ length w' < length w.

  Lemma head_app_cons (l : list nat) v l1 l2 : head (l ++ v :: l1) = head (l ++ v :: l2).
  Proof. by destruct l. Qed.

  Lemma shorten_collider l1 c l2 : sact H Z (l1 ++ x :: y :: c :: l2) → H c y → Z y → shorter (l1 ++ x :: y :: c :: l2).
  Proof.
    intros Hw Hcy Hy. pose proof Hw as (A1 & A2 & A3)%sact_split.
    assert (∀ p, last l1 = Some p → ¬ Z x) as Hx.
    { intros p Hp Hz. apply (A3 p y Hp eq_refl) in Hz as [_ Hz]. by apply (cov_anti x y). }
    destruct A2 as (_ & _ & A2). 
    destruct (decide (c = x)) as [->|Hcx].
    - (* x y x *) destruct A2 as (_ & A4 & A2).
      assert ((∃ p q, last l1 = Some p ∧ head l2 = Some q ∧ coll H p x q) ∨ (∀ p q, last l1 = Some p → head l2 = Some q → ¬ coll H p x q)) as [(p & q & Hp & Hq & Hc1 & Hc2)|Hn].
      { destruct (last l1) as [p|]; [|right; by intros p q [=]]. destruct l2 as [|q l2]; [right; by intros p' q' _ [=]|].
        destruct (coll_dec H Hdec p x q) as [?|?]; [left; by exists p, q|right; by intros ?? [= <-] [= <-]]. }
      + destruct (rev_case l1) as [->|(l1' & p' & ->)]; [done|]. rewrite last_snoc in Hp. injection Hp as ->.
        destruct l2 as [|q' l2]; [done|]. injection Hq as ->.
        assert (p ≠ x) by (intros ->; by apply (cov_irr x)). assert (q ≠ x) by (intros ->; by apply (cov_irr x)).
        assert (H p y) by by apply Hcov. assert (H q y) by by apply Hcov.
        exists ((l1' ++ [p]) ++ y :: q :: l2). split_and!.
        * apply sact_glue.
          -- rewrite <-!app_assoc in *. simpl in *. apply (swap_tail x); [by left| |done].
             split; intros ?; exfalso; [by apply (cov_anti p x)|by apply (cov_anti p y)].
          -- apply (swap_head x); [by right| |done]. split; intros ?; exfalso; [by apply (cov_anti q x)|by apply (cov_anti q y)].
          -- intros p' q' Hp' [= <-]. rewrite last_snoc in Hp'. injection Hp' as <-. split; [by split|done].
        * rewrite <-!app_assoc. apply head_app_cons.
        * rewrite !last_app_cons, !last_cons_cons. done.
        * rewrite !app_length. simpl. lia.
      + exists (l1 ++ x :: l2). split_and!.
        * apply sact_glue; [done..|]. intros p q Hp Hq. split; [by intros ?%(Hx p Hp)|]. by intros ?%(Hn p q Hp Hq).
        * apply head_app_cons.
        * by rewrite !last_app_cons, !last_cons_cons.
        * rewrite !app_length. simpl. lia.
    - assert (H c x) as Hcx' by by apply Hcov.
      assert ((∃ p, last l1 = Some p ∧ H p x) ∨ (∀ p, last l1 = Some p → ¬ H p x)) as [(p & Hp & Hpx)|Hn].
      { destruct (last l1) as [p|]; [|right; by intros p [=]]. destruct (Hdec p x); [left; by exists p|right; by intros ? [= <-]]. }
      + destruct (rev_case l1) as [->|(l1' & p' & ->)]; [done|]. rewrite last_snoc in Hp. injection Hp as ->.
        assert (p ≠ x) by (intros ->; by apply (cov_irr x)). assert (H p y) by by apply Hcov.
        exists ((l1' ++ [p]) ++ y :: c :: l2). split_and!.
        * apply sact_glue.
          -- rewrite <-!app_assoc in *. simpl in *. apply (swap_tail x); [by left| |done].
             split; intros ?; exfalso; [by apply (cov_anti p x)|by apply (cov_anti p y)].
          -- done.
          -- intros p' q' Hp' [= <-]. rewrite last_snoc in Hp'. injection Hp' as <-. split; [by split|done].
        * rewrite <-!app_assoc. apply head_app_cons.
        * by rewrite !last_app_cons, !last_cons_cons.
        * rewrite !app_length. simpl. lia.
      + exists (l1 ++ x :: c :: l2). split_and!.
        * apply sact_glue; [done| |].
          -- apply (swap_head y); [by right| |done]. split; intros ?; exfalso; [by apply (cov_anti c y)|by apply (cov_anti c x)].
          -- intros p q Hp [= <-]. split; [by intros ?%(Hx p Hp)|]. by intros [?%(Hn p Hp) _].
        * apply head_app_cons.
        * by rewrite !last_app_cons, !last_cons_cons.
        * rewrite !app_length. simpl. lia.
  Qed.

  Lemma shorten_chain l1 c l2 : sact H Z (l1 ++ y :: x :: c :: l2) → c = y ∨ H c x → shorter (l1 ++ y :: x :: c :: l2).
  Proof.
    intros Hw Hc. pose proof Hw as (A1 & A2 & A3)%sact_split. destruct A2 as (_ & _ & A2).
    destruct (decide (c = y)) as [->|Hcy].
    - destruct A2 as (_ & A4 & A2). exists (l1 ++ y :: l2). split_and!.
      + apply sact_glue; [done..|]. intros p q Hp Hq. pose proof (A3 p x Hp eq_refl) as B1.
        destruct l2 as [|q' l2]; [done|]. injection Hq as ->. unfold coll in *. tauto.
      + apply head_app_cons.
      + by rewrite !last_app_cons, !last_cons_cons.
      + rewrite !app_length. simpl. lia.
    - destruct Hc as [?|Hc]; [done|]. assert (c ≠ x) as Hcx by (intros ->; by apply (cov_irr x)). assert (H c y) as Hcy' by by apply Hcov.
      exists (l1 ++ y :: c :: l2). split_and!.
      + apply sact_glue; [done| |].
        * apply (swap_head x); [by right| |done]. split; intros ?; exfalso; [by apply (cov_anti c x)|by apply (cov_anti c y)].
        * intros p q Hp [= <-]. rewrite (A3 p x Hp eq_refl). unfold coll. tauto.
      + apply head_app_cons.
      + by rewrite !last_app_cons, !last_cons_cons.
      + rewrite !app_length. simpl. lia.
  Qed.

  Lemma madj_cov a b : madj H a b ↔ madj E a b.
  Proof using HE Hxy.
    clear Z Hcov Hac Hdec. unfold madj. rewrite !HE. split.
    - intros [?|?]; [destruct (decide (a = x ∧ b = y))|destruct (decide (b = x ∧ a = y))]; tauto.
    - intros [[[? _]|[-> ->]]|[[? _]|[-> ->]]]; tauto.
  Qed.
  Lemma coll_cov a b c : (Z b ↔ coll H a b c) → (Z b ↔ coll E a b c) ∨
    (Z b ∧ b = y ∧ ((a = x ∧ H c y) ∨ (c = x ∧ H a y))) ∨
    (b = x ∧ ((a = y ∧ (c = y ∨ H c x)) ∨ (c = y ∧ (a = y ∨ H a x)))).
  Proof.
    intros Hz. unfold coll in *. rewrite !HE.
    pose proof (cov_irr x) as Hx. pose proof (cov_anti _ _ Hxy) as Hyx.
    destruct (decide (b = y)) as [->|Hby].
    - destruct (decide (a = x)) as [->|Hax].
      + destruct (Hdec c y) as [Hc|Hc]; [right; left; tauto|]. left. rewrite Hz. assert (y ≠ x) by (intros ->; tauto). naive_solver.
      + destruct (decide (c = x)) as [->|Hcx].
        * destruct (Hdec a y) as [Ha|Ha]; [right; left; tauto|]. left. rewrite Hz. assert (y ≠ x) by (intros ->; tauto). naive_solver.
        * left. rewrite Hz. assert (y ≠ x) by (intros ->; tauto). tauto.
    - destruct (decide (b = x)) as [->|Hbx]; [|left; rewrite Hz; tauto].
      destruct (decide (a = y)) as [->|Hay], (decide (c = y)) as [->|Hcy].
      + right. right. tauto.
      + destruct (Hdec c x); [right; right; tauto|]. left. rewrite Hz. tauto.
      + destruct (Hdec a x); [right; right; tauto|]. left. rewrite Hz. tauto.
      + left. rewrite Hz. tauto.
  Qed.

  Lemma shorter_rev w : shorter (reverse w) → shorter w.
  Proof.
    intros (w' & H1 & H2 & H3 & H4). exists (reverse w'). split; [by apply sact_rev|].
    rewrite head_reverse, last_reverse, H2, H3, head_reverse, last_reverse. rewrite !reverse_length in *. done.
  Qed.

  Lemma strict_transfer w : sact H Z w → sact E Z w ∨ shorter w.
  Proof.
    assert (∀ w2 w1, sact H Z (w1 ++ w2) → sact E Z w2 ∨ shorter (w1 ++ w2)) as Hgen; [|by apply (Hgen w [])].
    induction w2 as [|a w2 IH]; intros w1 Hw; [by left|].
    destruct (IH (w1 ++ [a])) as [IH'|IH']; [by rewrite <-app_assoc| |right; by rewrite <-app_assoc in IH'].
    destruct w2 as [|b w2]; [by left|]. pose proof Hw as (_ & A2 & _)%sact_split. destruct A2 as (Hab & Ht & A2).
    destruct w2 as [|c w2]; [left; split; [by apply madj_cov|by split]|].
    destruct (coll_cov a b c Ht) as [?|[(Hz & -> & [[-> Hc]|[-> Ha]])|(-> & [[-> Hc]|[-> Ha]])]].
    - left. split; [by apply madj_cov|by split].
    - right. by apply shorten_collider.
    - right. apply shorter_rev. assert (reverse (w1 ++ a :: y :: x :: w2) = reverse w2 ++ x :: y :: a :: reverse w1) as Er.
      { by rewrite reverse_app, !reverse_cons, <-!app_assoc. }
      apply sact_rev in Hw. rewrite Er in *. by apply shorten_collider.
    - right. by apply shorten_chain.
    - right. apply shorter_rev. assert (reverse (w1 ++ a :: x :: y :: w2) = reverse w2 ++ y :: x :: a :: reverse w1) as Er.
      { by rewrite reverse_app, !reverse_cons, <-!app_assoc. }
      apply sact_rev in Hw. rewrite Er in *. by apply shorten_chain.
  Qed.
  Lemma strict_keeps w s t : sact H Z w → starts w s t → ∃ w', sact E Z w' ∧ starts w' s t.
  Proof.
    remember (length w) as n eqn:Hn. revert w Hn. induction (lt_wf n) as [n _ IH]. intros w -> Hw [Hh Hl].
    destruct (strict_transfer w Hw) as [?|(w' & H1 & H2 & H3 & H4)]; [by exists w|].
    apply (IH (length w') H4 w'); [done..|]. split; congruence.
  Qed.

  Lemma covered_acyclic a : ¬ tc E a a.
  Proof.
    set (H0 := λ a b, H a b ∧ ¬ (a = x ∧ b = y)).
    assert (∀ a b, tc E a b → tc H0 a b ∨ (rtc H0 a y ∧ rtc H0 x b)) as Hs.
    { induction 1 as [a' b' Hab|a' b' c' Hab _ IH].
      - apply HE in Hab as [Hab|[-> ->]]; [left; by apply tc_once|right; by split].
      - apply HE in Hab as [Hab|[-> ->]].
        + destruct IH as [IH|[IH1 IH2]]; [left; by eapply tc_l|right]. split; [by eapply rtc_l|done].
        + destruct IH as [IH|[IH1 IH2]]; [right; split; [done|by apply tc_rtc]|]. right. by split. }
    assert (∀ a b, tc H0 a b → tc H a b) as Hm.
    { induction 1 as [? ? [? _]|? ? ? [? _] _ ?]; [by apply tc_once|by eapply tc_l]. }
    intros [Ht|[H1 H2]]%Hs; [by apply (Hac a), Hm|].
    assert (rtc H0 x y) as Hr by by etrans.
    apply rtc_inv_r in Hr as [->|(p & Hp & [Hpy Hne])]; [by apply (cov_irr y)|].
    destruct (decide (p = x)) as [->|Hpx]; [by apply Hne|]. apply Hcov in Hpy; [|done].
    apply (Hac x). assert (rtc H x p) as Hp' by (eapply rtc_subrel; [|exact Hp]; by intros ?? [? _]).
    eapply tc_rtc_l; [exact Hp'|by apply tc_once].
  Qed.
End covered.

(** ** Markov equivalence *)
Definition reversed (d : graph) (x y : node) : graph :=
  Graph (gnodes d) (λ n, if decide (n = y) then gadj d y ∖ {[x]} else if decide (n = x) then gadj d x ∪ {[y]} else gadj d n).
Lemma reversed_edge d x y a b : x ≠ y → edge (reversed d x y) a b ↔ (edge d a b ∧ ¬ (a = x ∧ b = y)) ∨ (a = y ∧ b = x).
Proof. intros Hne. unfold edge, reversed. simpl. repeat case_decide; set_solver. Qed.

Lemma first_in (P : node → Prop) `{!∀ n, Decision (P n)} (l : list node) : (∃ n, n ∈ l ∧ P n) → NoDup l →
  ∃ n, n ∈ l ∧ P n ∧ ∀ m, bf l m n → ¬ P m.
Proof.
  induction l as [|a l IH]; intros (n & Hn & Hp) Hnd; [by apply elem_of_nil in Hn|]. apply NoDup_cons in Hnd as [Ha Hnd].
  destruct (decide (P a)) as [Hpa|Hpa].
  - exists a. split_and!; [by left|done|]. intros m [[_ Hb]%bf_in|[_ Hb]]%bf_cons; done.
  - apply elem_of_cons in Hn as [->|Hn]; [done|]. destruct IH as (k & Hk & Hpk & Hm); [by exists n|done|]. exists k. split_and!; [by right|done|].
    intros m [Hb|[-> Hb]]%bf_cons; [by apply Hm|done].
Qed.
Lemma last_in (P : node → Prop) `{!∀ n, Decision (P n)} (l : list node) : (∃ n, n ∈ l ∧ P n) → NoDup l →
  ∃ n, n ∈ l ∧ P n ∧ ∀ m, bf l n m → ¬ P m.
Proof.
  induction l as [|a l IH]; intros (n & Hn & Hp) Hnd; [by apply elem_of_nil in Hn|]. apply NoDup_cons in Hnd as [Ha Hnd].
  destruct (decide (Exists P l)) as [He|He].
  - apply Exists_exists in He as (n' & Hn' & Hp'). destruct IH as (k & Hk & Hpk & Hm); [by exists n'|done|]. exists k. split_and!; [by right|done|].
    intros m [Hb|[-> Hb]]%bf_cons; [by apply Hm|done].
  - assert (∀ m, m ∈ l → ¬ P m) as Hno by (intros m Hm Hp'; apply He, Exists_exists; by exists m).
    apply elem_of_cons in Hn as [->|Hn]; [|by apply Hno in Hn]. exists a. split_and!; [by left|done|].
    intros m [[? _]%bf_in|[_ Hb]]%bf_cons; [done|by apply Hno].
Qed.

Global Instance edge_decision d a b : Decision (edge d a b).
Proof. unfold edge. apply _. Defined.

(** the pairs directed differently *)
Definition differing (d e : graph) : gset (node * node) :=
  filter (λ p, edge d p.1 p.2 ∧ edge e p.2 p.1) (list_to_set (elements (gnodes d) ≫= λ a, (λ b, (a, b)) <$> elements (gnodes d))).
Lemma elem_differing d e a b : wf_graph d → (a, b) ∈ differing d e ↔ edge d a b ∧ edge e b a.
Proof.
  intros Hwf. unfold differing. rewrite elem_of_filter, elem_of_list_to_set, elem_of_list_bind. simpl. split; [tauto|].
  intros Hab. split; [done|]. destruct (Hwf a b) as [H1 H2]; [tauto|]. exists a. split; [|by apply elem_of_elements].
  apply elem_of_list_fmap. exists b. split; [done|by apply elem_of_elements].
Qed.

(** a covered edge directed differently, unless there is none directed differently (Chickering 1995) *)
Lemma covered_exists d e : wf_graph d → acyclic d → acyclic e → same_skeleton d e → same_v_structures d e →
  (∃ a b, edge d a b ∧ edge e b a) →
  ∃ x y, edge d x y ∧ edge e y x ∧ ∀ p, p ≠ x → (edge d p y ↔ edge d p x).
Proof.
  intros Hwf Had Hae [Hn Hs] Hv (a0 & b0 & Hab0). destruct (topo_exists d Had) as (l & Hnd & Hin & Hl).
  assert (∀ a b, edge d a b → bf l a b) as Hl' by (intros a b Hab; destruct (Hwf a b Hab); by apply Hl).
  assert (∀ y, Decision (∃ x, x ∈ l ∧ (edge d x y ∧ edge e y x))) as Hdec.
  { intros y. destruct (decide (Exists (λ x, edge d x y ∧ edge e y x) l)) as [H|H]; [left|right]; by rewrite <-Exists_exists. }
  destruct (first_in (λ y, ∃ x, x ∈ l ∧ (edge d x y ∧ edge e y x)) l) as (y & Hy & Hyx & Hmin); [|done|].
  { destruct (Hwf a0 b0) as [? ?]; [tauto|]. exists b0. split; [by apply Hin|]. exists a0. split; [by apply Hin|done]. }
  destruct (last_in (λ x, edge d x y ∧ edge e y x) l) as (x & Hx & [Hxy Hyx'] & Hmax); [done..|].
  assert (∀ x' y', bf l y' y → edge d x' y' → ¬ edge e y' x') as Hmin'.
  { intros x' y' Hb H1 H2. apply (Hmin y' Hb). exists x'. split; [|done]. apply Hin. by destruct (Hwf x' y' H1). }
  exists x, y. split_and!; [done..|]. intros p Hpx. split.
  - intros Hpy. destruct (decide (adjacent d p x)) as [[Hpx'|Hxp]|Hna]; [done| |].
    + exfalso. destruct (decide (edge e p y)) as [Epy|Epy].
      * assert (edge e p x) as Epx.
        { destruct (proj1 (Hs p x)) as [?|Exp]; [by right|done|]. exfalso. apply (Hae x). do 2 (eapply tc_l; [done|]). by apply tc_once. }
        by apply (Hmin' x p); [apply Hl'|..].
      * assert (edge e y p) as Eyp by (destruct (proj1 (Hs p y)) as [?|?]; [by left|done|done]).
        apply (Hmax p); [by apply Hl'|done].
    + exfalso. assert (v_structure d p y x) as Hvs by done. apply Hv in Hvs as (_ & Exy & _). by apply (acyclic_anti e x y).
  - intros Hpx'. destruct (decide (adjacent d p y)) as [[?|Hyp]|Hna]; [done| |].
    + exfalso. apply (Had p). do 2 (eapply tc_l; [done|]). by apply tc_once.
    + exfalso. assert (p ≠ y) as Hpy by (intros ->; by apply (acyclic_anti d x y)). destruct (decide (edge e p x)) as [Epx|Epx].
      * assert (v_structure e p x y) as Hvs by (split_and!; [done..|]; by rewrite <-Hs). apply Hv in Hvs as (_ & Hyx'' & _). by apply (acyclic_anti d x y).
      * assert (edge e x p) as Exp by (destruct (proj1 (Hs p x)) as [?|?]; [by left|done|done]).
        by apply (Hmin' p x); [apply Hl'|..].
Qed.

Lemma reversed_equivalent d x y : wf_graph d → acyclic d → edge d x y → (∀ p, p ≠ x → (edge d p y ↔ edge d p x)) →
  same_skeleton d (reversed d x y) ∧ same_v_structures d (reversed d x y).
Proof.
  intros Hwf Had Hxy Hcov. assert (x ≠ y) as Hne by (intros ->; by apply (acyclic_irr d y)).
  pose proof (acyclic_anti d x y Had Hxy) as Hyx. pose proof (acyclic_irr d x Had) as Hxx.
  assert (∀ a b, adjacent d a b ↔ adjacent (reversed d x y) a b) as Hs.
  { intros a b. apply (madj_cov (edge d) (edge (reversed d x y)) x y Hxy). intros; by apply reversed_edge. }
  split; [split; [done|exact Hs]|]. intros a c b. unfold v_structure. rewrite <-!Hs, !reversed_edge by done.
  split.
  - intros (H1 & H2 & H3 & H4). split_and!; [| |done..]; left; (split; [done|]); intros [-> ->].
    + apply H4. right. by apply Hcov; [|done].
    + apply H4. left. by apply Hcov; [|done].
  - intros (H1 & H2 & H3 & H4). split_and!; [| |done..].
    + destruct H1 as [[? _]|[-> ->]]; [done|]. exfalso. destruct H2 as [[H2 _]|[-> _]]; [|done].
      apply H4. right. apply Hcov; [|done]. intros ->. done.
    + destruct H2 as [[? _]|[-> ->]]; [done|]. exfalso. destruct H1 as [[H1 _]|[-> _]]; [|done].
      apply H4. left. apply Hcov; [|done]. intros ->. done.
Qed.

Lemma d_separated_edges d e a b Z : acyclic d → acyclic e → (∀ u v, edge d u v ↔ edge e u v) → d_separated d a b Z ↔ d_separated e a b Z.
Proof.
  intros Had Hae H. unfold d_separated, is_path, linked, active, collider, adjacent, ancestor. 
  assert (∀ u v, rtc (edge d) u v ↔ rtc (edge e) u v) as Hr.
  { intros u v. split; apply rtc_subrel; intros ??; apply H. }
  setoid_rewrite H. setoid_rewrite Hr. done.
Qed.

Theorem equivalent_d_separated d e : wf_graph d → acyclic d → acyclic e → same_skeleton d e → same_v_structures d e →
  ∀ a b Z, d_separated d a b Z ↔ d_separated e a b Z.
Proof.
  remember (size (differing d e)) as n eqn:Hn. revert d Hn. induction (lt_wf n) as [n _ IH]. intros d -> Hwf Had Hae Hs Hv a b Z.
  destruct (decide (differing d e = ∅)) as [Hem|Hne].
  - apply d_separated_edges; [done..|]. assert (∀ u v, edge d u v → ¬ edge e v u) as Hno.
    { intros u v H1 H2. assert ((u, v) ∈ differing d e) as Hin by by apply elem_differing. rewrite Hem in Hin. set_solver. }
    destruct Hs as [_ Hs]. intros u v. split; intros Huv.
    + destruct (proj1 (Hs u v)) as [?|?]; [by left|done|]. by apply Hno in Huv.
    + destruct (proj2 (Hs u v)) as [?|Hvu]; [by left|done|]. by apply Hno in Hvu.
  - apply set_choose_L in Hne as ([a0 b0] & Hab0). apply elem_differing in Hab0; [|done].
    destruct (covered_exists d e) as (x & y & Hxy & Eyx & Hcov); [done..|by exists a0, b0|].
    assert (x ≠ y) as Hxy' by (intros ->; by apply (acyclic_irr d y)).
    set (d' := reversed d x y). assert (∀ u v, edge d' u v ↔ (edge d u v ∧ ¬ (u = x ∧ v = y)) ∨ (u = y ∧ v = x)) as He' by (intros; by apply reversed_edge).
    destruct (reversed_equivalent d x y) as [Hs' Hv']; [done..|]. fold d' in Hs', Hv'.
    assert (acyclic d') as Had' by exact (covered_acyclic (edge d) (edge d') Had x y Hxy Hcov He').
    assert (wf_graph d') as Hwf'.
    { intros u v [[Huv _]|[-> ->]]%He'; [by apply Hwf|]. destruct (Hwf x y Hxy). by split. }
    assert (d_separated d a b Z ↔ d_separated d' a b Z) as ->.
    { rewrite !d_separated_strict by done. apply not_iff_compat. split; intros (w & Hw & Hst).
      - exact (strict_keeps (edge d) (edge d') Had (edge_dec d) x y Hxy Hcov He' (.∈ Z) w a b Hw Hst).
      - assert (edge d' y x) as Hyx by (apply He'; by right).
        assert (¬ edge d y x) as Hny by by apply acyclic_anti.
        refine (strict_keeps (edge d') (edge d) Had' (edge_dec d') y x Hyx _ _ (.∈ Z) w a b Hw Hst).
        + intros p Hp. rewrite !He'. destruct (decide (p = x)) as [->|Hpx]; [|rewrite (Hcov p Hpx); naive_solver].
          pose proof (acyclic_irr d x Had). naive_solver.
        + intros u v. rewrite He'. split; [|naive_solver]. intros Huv. destruct (decide (u = x ∧ v = y)); [by right|]. left. split; [by left|]. by intros [-> ->]. }
    apply (IH (size (differing d' e))); try done.
    + apply subset_size. apply strict_spec_alt. split.
      * intros [u v] [Huv Evu]%elem_differing; [|done]. apply elem_differing; [done|]. split; [|done].
        apply He' in Huv as [[? _]|[-> ->]]; [done|]. by apply (acyclic_anti e y x) in Eyx.
      * intros Heq. assert ((x, y) ∈ differing d e) as Hin by by apply elem_differing. rewrite <-Heq in Hin.
        apply elem_differing in Hin as [Hin _]; [|done]. apply He' in Hin as [[_ Hin]|[-> _]]; [by apply Hin|done].
    + destruct Hs as [N1 S1], Hs' as [N2 S2]. split; [congruence|]. intros u v. by rewrite <-S2, S1.
    + intros u c v. split; intros H; [by apply Hv, Hv'|by apply Hv', Hv].
Qed.

(** the same d-separations leave the same skeleton and the same unshielded colliders *)
Lemma d_separated_equivalent d e : wf_graph d → wf_graph e → acyclic d → acyclic e → gnodes d = gnodes e →
  (∀ a b Z, a ∈ gnodes d → b ∈ gnodes d → a ≠ b → (∀ z, z ∈ Z → z ∈ gnodes d ∧ z ≠ a ∧ z ≠ b) → d_separated d a b Z ↔ d_separated e a b Z) →
  same_skeleton d e ∧ same_v_structures d e.
Proof.
  intros Hwd Hwe Had Hae Hn Hs.
  assert (∀ d' a b, wf_graph d' → acyclic d' → a ≠ b → ¬ adjacent d' a b → ∃ Z, d_separated d' a b Z ∧ ∀ z, z ∈ Z → z ∈ gnodes d' ∧ z ≠ a ∧ z ≠ b) as Hsep.
  { intros d' a b Hw Ha Hne Hna. destruct (nonadjacent_separated d' a b Hw Ha Hne Hna) as [H|H]; eexists; (split; [exact H|]); intros z Hz%elem_of_elements;
      (destruct (Hw z _ Hz) as [? _]; split_and!; [done|intros ->|intros ->]).
    - by apply (acyclic_irr d' a).
    - apply Hna. by right.
    - apply Hna. by left.
    - by apply (acyclic_irr d' b). }
  assert (∀ d' e' a b, wf_graph d' → wf_graph e' → acyclic d' → acyclic e' → gnodes d' = gnodes e' →
    (∀ a b Z, a ∈ gnodes d' → b ∈ gnodes d' → a ≠ b → (∀ z, z ∈ Z → z ∈ gnodes d' ∧ z ≠ a ∧ z ≠ b) → d_separated d' a b Z ↔ d_separated e' a b Z) →
    adjacent d' a b → adjacent e' a b) as Hadj.
  { intros d' e' a b Hw1 Hw2 Ha1 Ha2 Hn' Hs' Hab. destruct (decide (adjacent e' a b)) as [?|Hna]; [done|]. exfalso.
    assert (a ≠ b) as Hne by (intros ->; destruct Hab; by apply (acyclic_irr d' b)).
    assert (a ∈ gnodes d' ∧ b ∈ gnodes d') as [Ha Hb] by (destruct Hab as [?%Hw1|?%Hw1]; tauto).
    destruct (Hsep e' a b Hw2 Ha2 Hne Hna) as (Z & HZ & Hin). rewrite <-Hn' in Hin. apply Hs' in HZ; [|done..].
    by apply (adjacent_not_dsep d' a b Z). }
  assert (∀ a b, adjacent d a b ↔ adjacent e a b) as Hsk.
  { intros a b. split; [by apply Hadj|]. apply Hadj; [done..|]. intros ? ? Z ? ? ? HZ. rewrite <-Hn in *. symmetry. by apply Hs. }
  split; [by split|].
  assert (∀ d' e' a c b, wf_graph d' → wf_graph e' → acyclic d' → acyclic e' → gnodes d' = gnodes e' →
    (∀ a b, adjacent d' a b ↔ adjacent e' a b) →
    (∀ a b Z, a ∈ gnodes d' → b ∈ gnodes d' → a ≠ b → (∀ z, z ∈ Z → z ∈ gnodes d' ∧ z ≠ a ∧ z ≠ b) → d_separated d' a b Z ↔ d_separated e' a b Z) →
    v_structure d' a c b → v_structure e' a c b) as Hv.
  { intros d' e' a c b Hw1 Hw2 Ha1 Ha2 Hn' Hsk' Hs' (Hac & Hbc & Hne & Hna).
    assert (¬ adjacent e' a b) as Hna' by by rewrite <-Hsk'. 
    destruct (Hsep e' a b Hw2 Ha2 Hne Hna') as (Z & HZ & Hin). rewrite <-Hn' in Hin. pose proof HZ as HZ'.
    apply Hs' in HZ'; [|by apply Hw1 in Hac as []|by apply Hw1 in Hbc as []|done..].
    assert (NoDup [a; c; b]) as Hnd.
    { assert (a ≠ c) by (intros ->; by apply (acyclic_irr d' c)). assert (b ≠ c) by (intros ->; by apply (acyclic_irr d' c)).
      apply NoDup_cons. split; [rewrite elem_of_cons, elem_of_list_singleton; intros [?|?]; congruence|].
      apply NoDup_cons. split; [rewrite elem_of_list_singleton; congruence|apply NoDup_singleton]. }
    assert (∀ d'', adjacent d'' a c → adjacent d'' b c → (collider d'' a c b ↔ c ∈ Z) → ¬ d_separated d'' a b Z) as Hone.
    { intros d'' H1 H2 H3 H4. apply H4. exists [a; c; b]. split; [split_and!; [done..|]|].
      - apply linked_cons. split; [done|]. apply linked_cons. split; [destruct H2; [by right|by left]|apply linked_one].
      - intros l1 u v w l2 E. assert (l1 = [] ∧ u = a ∧ v = c ∧ w = b) as (-> & -> & -> & ->).
        { destruct l1 as [|? [|? [|? [|? l1]]]]; simplify_eq/=; done. }
        split; [|tauto]. intros Hc. exists c. split; [by apply H3|apply rtc_refl]. }
    assert (adjacent e' a c) as Eac by (apply Hsk'; by left). assert (adjacent e' b c) as Ebc by (apply Hsk'; by left).
    assert (c ∉ Z) as Hc. { intros Hc. apply (Hone d'); [by left|by left|by split|done]. }
    destruct (decide (edge e' a c)) as [H1|H1]; [destruct (decide (edge e' b c)) as [H2|H2]; [done|]|].
    - exfalso. apply (Hone e'); [done..| |done]. split; [by intros []|done].
    - exfalso. apply (Hone e'); [done..| |done]. split; [by intros []|done]. }
  intros a c b. split; [by apply Hv|]. apply Hv; [done..|by intros; symmetry; apply Hsk|]. intros ? ? Z ? ? ? HZ. rewrite <-Hn in *. symmetry. by apply Hs.
Qed.

(** ** the CPDAG is the essential graph *)
Lemma cpdag_essential o d cp rules fuel : iter_ok o → wf_graph d → acyclic d → mnodes cp = gnodes d →
  (∀ n k, mset cp n k = ∅) → (∀ i, i ∈ rules ↔ 1 ≤ i ≤ 3) → size (gnodes d) * size (gnodes d) + 1 < fuel →
  returns (convert_to_cpdag o fuel d cp rules) (λ g, mnodes g = gnodes d ∧
    (∀ a b, darrow g a b ↔ adjacent d a b ∧ ∀ e, acyclic e → same_skeleton d e → same_v_structures d e → edge e a b) ∧
    (∀ a b, uline g a b ↔
      (∃ e, acyclic e ∧ same_skeleton d e ∧ same_v_structures d e ∧ edge e a b) ∧
      (∃ e, acyclic e ∧ same_skeleton d e ∧ same_v_structures d e ∧ edge e b a))).
Proof.
  intros Ho Hwf Hac Hn He Hr Hf. pose proof (cpdag_correct o d cp rules fuel Ho Hwf Hac Hn He Hr Hf) as H1.
  assert (∀ i, i ∈ rules → 1 ≤ i ≤ 4) as Hr4 by (intros i ?%Hr; lia).
  pose proof (convert_to_cpdag_steps o Ho d cp rules fuel Hwf Hac Hn He Hr4 Hf) as H2.
  destruct (convert_to_cpdag o fuel d cp rules) as [h| |]; [|done..]. cbn [returns] in *.
  destruct H1 as (Hwh & Hnh & Hadj & _ & _ & Hext & Hno), H2 as (g & Hp & Hst & _).
  pose proof (pattern_wf _ _ Hwf Hac Hp) as Hwg. destruct (osteps_orientation _ _ _ _ Hwg Hst) as [Hor _].
  assert (extends d g) as Hdg by by eapply pattern_extends. assert (extends d h) as Hdh by by apply Hext.
  assert (∀ i x y, i ∈ [1;2;3] → uline h x y → ¬ rule_pattern i h x y) as Hno'.
  { intros i x y Hi Hu. apply Hno; [apply Hr; set_unfold; lia| |done].
    apply (pdw_und _ Hwh) in Hu as (_ & Hy & _). congruence. }
  assert (∀ a b, darrow h a b ↔ meek g a b) as Hm.
  { intros a b. split.
    - eapply osteps_meek; [exact Hwg|by intros i ?%Hr|exact Hst|by apply orientation_refl|done|by constructor].
    - apply (meek_complete d); [done..|]. intros i x y Hi. apply Hno'. done. }
  assert (∀ a b, uline h a b → ∃ e, acyclic e ∧ same_skeleton d e ∧ same_v_structures d e ∧ edge e a b) as Hess.
  { intros a b Hu. destruct (essential d g h Hwg Hwh Hwf Hp Hdg Hdh Hor Hno' Hm a b Hu) as (e & Hee & Hab).
    destruct (extensions_equivalent h d e Hdh Hee) as [? ?]. exists e. split_and!; [apply (ext_acyclic _ _ Hee)|done..]. }
  split_and!; [done| |].
  - intros a b. split.
    + intros Hab. split; [apply Hadj; right; by left|]. intros e ? ? ?. apply (ext_dir e h); [by apply Hext|done].
    + intros [Hab Hall]. apply Hadj in Hab as [Hu|[?|Hba]]; [|done|].
      * apply (pdw_sym _ Hwh) in Hu. destruct (Hess b a Hu) as (e & Ha & Hs & Hv & Hba). exfalso. by apply (acyclic_anti e b a), Hall.
      * exfalso. apply (acyclic_anti d b a); [done|by apply (ext_dir _ _ Hdh)|by apply Hall].
  - intros a b. split.
    + intros Hu. split; [by apply Hess|]. by apply Hess, (pdw_sym _ Hwh).
    + intros [(e1 & A1 & S1 & V1 & E1) (e2 & A2 & S2 & V2 & E2)].
      assert (adjacent d a b) as Hab by (destruct S1 as [_ S1]; apply S1; by left).
      apply Hadj in Hab as [?|[Hab|Hab]]; [done|..]; exfalso.
      * apply (acyclic_anti e2 b a); [done..|]. by apply (ext_dir e2 h); [apply Hext|].
      * apply (acyclic_anti e1 a b); [done..|]. by apply (ext_dir e1 h); [apply Hext|].
Qed.

(** ** the same answers iff the same CPDAG *)
Lemma markov_equivalence o1 o2 o3 o4 d1 d2 cp1 cp2 r1 r2 f1 f2 f3 f4 : iter_ok o1 → iter_ok o2 → iter_ok o3 → iter_ok o4 →
  wf_graph d1 → wf_graph d2 → acyclic d1 → acyclic d2 → gnodes d1 = gnodes d2 →
  mnodes cp1 = gnodes d1 → (∀ n k, mset cp1 n k = ∅) → mnodes cp2 = gnodes d2 → (∀ n k, mset cp2 n k = ∅) →
  (∀ i, i ∈ r1 ↔ 1 ≤ i ≤ 3) → (∀ i, i ∈ r2 ↔ 1 ≤ i ≤ 3) →
  size (gnodes d1) * size (gnodes d1) + 1 < f1 → size (gnodes d2) * size (gnodes d2) + 1 < f2 →
  size (gnodes d1) < f3 → size (gnodes d2) < f4 →
  ∃ g1 g2, convert_to_cpdag o1 f1 d1 cp1 r1 = Ok g1 ∧ convert_to_cpdag o2 f2 d2 cp2 r2 = Ok g2 ∧
    (pd_same g1 g2 ↔ ∀ a b Z, a ∈ gnodes d1 → b ∈ gnodes d1 → a ≠ b → (∀ z, z ∈ Z → z ∈ gnodes d1 ∧ z ≠ a ∧ z ≠ b) →
      dsep o3 f3 d1 a b Z = dsep o4 f4 d2 a b Z).
Proof.
  intros Ho1 Ho2 Ho3 Ho4 Hw1 Hw2 Ha1 Ha2 Hn Hn1 He1 Hn2 He2 Hr1 Hr2 Hf1 Hf2 Hf3 Hf4.
  pose proof (cpdag_correct o1 d1 cp1 r1 f1 Ho1 Hw1 Ha1 Hn1 He1 Hr1 Hf1) as (g1 & E1 & _)%returns_ok.
  pose proof (cpdag_correct o2 d2 cp2 r2 f2 Ho2 Hw2 Ha2 Hn2 He2 Hr2 Hf2) as (g2 & E2 & _)%returns_ok.
  exists g1, g2. split_and!; [done..|].
  assert (∀ a b Z, a ∈ gnodes d1 → b ∈ gnodes d1 → a ≠ b → (∀ z, z ∈ Z → z ∈ gnodes d1 ∧ z ≠ a ∧ z ≠ b) →
    dsep o3 f3 d1 a b Z = dsep o4 f4 d2 a b Z ↔ (d_separated d1 a b Z ↔ d_separated d2 a b Z)) as Hd.
  { intros a b Z Ha Hb Hne HZ. assert (b ∉ Z) as HbZ by (intros Hb'; by destruct (HZ b Hb') as (_ & _ & ?)).
    pose proof (dsep_spec o3 Ho3 d1 f3 a b Z Hw1 Ha1 Hf3 Ha Hb ltac:(intros z Hz; by apply HZ) Hne HbZ) as (r3 & -> & R3)%returns_ok.
    rewrite Hn in Ha, Hb.
    pose proof (dsep_spec o4 Ho4 d2 f4 a b Z Hw2 Ha2 Hf4 Ha Hb ltac:(intros z Hz; rewrite <-Hn; by apply HZ) Hne HbZ) as (r4 & -> & R4)%returns_ok.
    rewrite <-R3, <-R4. split; [by intros [= ->]|]. intros H. f_equal. by apply eq_true_iff_eq. }
  split.
  - intros Hs. destruct (cpdag_separates o1 o2 d1 d2 cp1 cp2 r1 r2 f1 f2 g1 g2) as [S V]; [done..|].
    intros a b Z Ha Hb Hne HZ. apply Hd; [done..|]. by apply equivalent_d_separated.
  - intros Hall. destruct (d_separated_equivalent d1 d2) as [S V]; [done..| |].
    { intros a b Z Ha Hb Hne HZ. apply Hd; [done..|]. by apply Hall. }
    destruct (cpdag_unique o1 o2 d1 d2 cp1 cp2 r1 r2 f1 f2) as (h1 & h2 & E1' & E2' & Hs); [done..|].
    rewrite E1 in E1'. rewrite E2 in E2'. injection E1' as <-. injection E2' as <-. exact Hs.
Qed.
