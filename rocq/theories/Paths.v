(** Facts about lists, walks and simple paths. *)
From Verif Require Import Base BaseLemmas ModelGraph Spec.

Lemma linked_nil R : linked R [].
Proof. intros l1 a b l2 H. by destruct l1. Qed.
Lemma linked_one R a : linked R [a].
Proof. intros l1 b c l2 H. destruct l1 as [|? [|]]; done. Qed.
Lemma linked_cons R a b l : linked R (a :: b :: l) ↔ R a b ∧ linked R (b :: l).
Proof.
  split.
  - intros H. split; [by apply (H [] a b l)|]. intros l1 c d l2 Heq.
    apply (H (a :: l1) c d l2). simpl. by rewrite Heq.
  - intros [Hab H] l1 c d l2 Heq. destruct l1 as [|e l1]; simplify_eq/=; [done|].
    by apply (H l1 c d l2).
Qed.

Lemma linked_app_l R l1 l2 : linked R (l1 ++ l2) → linked R l1.
Proof.
  intros H k1 a b k2 ->. apply (H k1 a b (k2 ++ l2)). by rewrite <-app_assoc.
Qed.
Lemma linked_app_r R l1 l2 : linked R (l1 ++ l2) → linked R l2.
Proof.
  intros H k1 a b k2 ->. apply (H (l1 ++ k1) a b k2). by rewrite <-app_assoc.
Qed.

Lemma linked_impl (R Q : nat → nat → Prop) l :
  linked R l → (∀ a b, R a b → Q a b) → linked Q l.
Proof. intros H HRQ l1 a b l2 Heq. eapply HRQ, H, Heq. Qed.

Lemma linked_glue R l1 v l2 : linked R (l1 ++ [v]) → linked R (v :: l2) → linked R (l1 ++ v :: l2).
Proof.
  induction l1 as [|a l1 IH]; intros H1 H2; [done|].
  destruct l1 as [|b l1]; simpl in *.
  - apply linked_cons in H1 as [H1 _]. by apply linked_cons.
  - apply linked_cons in H1 as [H1 H1']. apply linked_cons. auto.
Qed.

Lemma dup_split (w : list nat) : ¬ NoDup w → ∃ v l1 l2 l3, w = l1 ++ v :: l2 ++ v :: l3.
Proof.
  induction w as [|a w IH]; intros Hn; [by destruct Hn; constructor|].
  destruct (decide (a ∈ w)) as [Ha|Ha].
  - apply elem_of_list_split in Ha as (l2 & l3 & ->). by exists a, [], l2, l3.
  - destruct IH as (v & l1 & l2 & l3 & ->).
    { intros ?. apply Hn. by constructor. }
    by exists v, (a :: l1), l2, l3.
Qed.

Lemma last_app_cons {A} (l1 : list A) a l2 : last (l1 ++ a :: l2) = last (a :: l2).
Proof. rewrite last_app. rewrite last_cons. by destruct (last l2). Qed.

Lemma head_app_cons {A} (l1 : list A) a l2 l3 : head (l1 ++ a :: l2) = head (l1 ++ a :: l3).
Proof. by destruct l1. Qed.

(** walks and reachability *)
Lemma rtc_walk (R : nat → nat → Prop) x y :
  rtc R x y → ∃ w, head w = Some x ∧ last w = Some y ∧ linked R w.
Proof.
  induction 1 as [x|x z y Hxz _ (w & Hh & Hl & Hw)].
  - exists [x]. split_and!; [done|done|apply linked_one].
  - exists (x :: w). split_and!; [done| |].
    + rewrite last_cons. by rewrite Hl.
    + destruct w as [|z' w]; [done|]. simpl in Hh. simplify_eq. by apply linked_cons.
Qed.

Lemma walk_rtc (R : nat → nat → Prop) x y w :
  head w = Some x → last w = Some y → linked R w → rtc R x y.
Proof.
  revert x. induction w as [|a w IH]; intros x Hh Hl Hw; [done|]. simpl in Hh. simplify_eq.
  destruct w as [|b w]; [simpl in Hl; by simplify_eq|].
  apply linked_cons in Hw as [Hab Hw]. eapply rtc_l; [done|]. apply IH; [done| |done].
  by rewrite last_cons_cons in Hl.
Qed.

Lemma walk_path (R : nat → nat → Prop) x y w :
  head w = Some x → last w = Some y → linked R w → ∃ p, is_path R x y p.
Proof.
  remember (length w) as n eqn:Hn. revert w Hn.
  induction (lt_wf n) as [n _ IH]. intros w -> Hh Hl Hw.
  destruct (decide (NoDup w)) as [Hnd|Hnd]; [by exists w|].
  apply dup_split in Hnd as (v & l1 & l2 & l3 & ->).
  apply (IH (length (l1 ++ v :: l3))) with (w := l1 ++ v :: l3); [|done|..].
  - rewrite !app_length. simpl. rewrite app_length. simpl. lia.
  - by rewrite <-Hh, (head_app_cons _ _ _ (l2 ++ v :: l3)).
  - rewrite last_app_cons. rewrite app_comm_cons, app_assoc, last_app_cons in Hl. done.
  - apply linked_glue.
    + apply (linked_app_l _ _ (l2 ++ v :: l3)). by rewrite <-app_assoc.
    + apply (linked_app_r _ (l1 ++ v :: l2)). by rewrite <-app_assoc.
Qed.

Lemma rtc_path (R : nat → nat → Prop) x y : rtc R x y ↔ ∃ p, is_path R x y p.
Proof.
  split.
  - intros (w & ? & ? & ?)%rtc_walk. by eapply walk_path.
  - intros (p & ? & ? & _ & ?). by eapply walk_rtc.
Qed.

(** relation induced by edges that do not enter [V] *)
Lemma avoid_path (R : nat → nat → Prop) (V : nset) s t :
  rtc (λ a b, R a b ∧ b ∉ V) s t ↔
  ∃ p, is_path R s t p ∧ ∀ v, v ∈ p → v ≠ s → v ∉ V.
Proof.
  rewrite rtc_path. split.
  - intros (p & Hh & Hl & Hnd & Hlk). exists p. split; [split_and!; try done|].
    + eapply linked_impl; [done|]. naive_solver.
    + intros v Hv Hne. apply elem_of_list_split in Hv as (l1 & l2 & ->).
      destruct (rev_case l1) as [->|(l1' & u & ->)]; [simpl in Hh; congruence|].
      rewrite <-app_assoc in Hlk. by apply (Hlk l1' u v l2).
  - intros (p & (Hh & Hl & Hnd & Hlk) & HV). exists p. split_and!; try done.
    intros l1 a b l2 Heq. split; [by eapply Hlk|].
    apply HV; [subst; set_solver|]. intros ->. subst p.
    destruct l1 as [|c l1]; simpl in Hh; simplify_eq.
    + apply NoDup_cons in Hnd. set_solver.
    + apply NoDup_cons in Hnd. set_solver.
Qed.

Lemma tc_mono (R Q : nat → nat → Prop) x y : (∀ a b, R a b → Q a b) → tc R x y → tc Q x y.
Proof. intros HRQ. induction 1; [apply tc_once; auto|eapply tc_l; eauto]. Qed.
