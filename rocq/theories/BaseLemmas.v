(** Reasoning principles for the vocabulary of Base.v (no model code). *)
From Verif Require Import Base.

Lemma returns_ok {A} (m : res A) P : returns m P ↔ ∃ a, m = Ok a ∧ P a.
Proof. destruct m as [a|e|]; simpl; naive_solver. Qed.

Lemma returns_mono {A} (m : res A) (P Q : A → Prop) :
  returns m P → (∀ a, P a → Q a) → returns m Q.
Proof. destruct m; simpl; auto. Qed.

Lemma returns_and {A} (m : res A) (P Q : A → Prop) :
  returns m P → returns m Q → returns m (λ a, P a ∧ Q a).
Proof. destruct m; simpl; auto. Qed.

Lemma returns_bind {A B} (m : res A) (f : A → res B) P Q :
  returns m P → (∀ a, P a → returns (f a) Q) → returns (m ≫= f) Q.
Proof. destruct m; simpl; [|tauto..]. intros HP Hf. by apply Hf. Qed.

Lemma returns_bind_inv {A B} (m : res A) (f : A → res B) Q :
  returns (m ≫= f) Q → ∃ a, m = Ok a ∧ returns (f a) Q.
Proof. destruct m; simpl; [eauto|tauto..]. Qed.

Lemma bind_ok {A B} (a : A) (f : A → res B) : (Ok a ≫= f) = f a.
Proof. done. Qed.

Lemma assert_returns b (P : () → Prop) : b = true → P () → returns (assert_ b) P.
Proof. intros -> ?. done. Qed.

Lemma rev_case {A} (l : list A) : l = [] ∨ ∃ l' x, l = l' ++ [x].
Proof. destruct l as [|x l _] using rev_ind; eauto. Qed.

(** ** [for_] *)
Lemma for_returns_pre {A S} (l : list A) (f : A → S → res S) s (I : list A → S → Prop) :
  I [] s →
  (∀ pre x post s, l = pre ++ x :: post → I pre s → returns (f x s) (I (pre ++ [x]))) →
  returns (for_ l f s) (I l).
Proof.
  intros H0 Hs.
  assert (∀ post pre s, l = pre ++ post → I pre s → returns (for_ post f s) (I l)) as Hgen.
  { induction post as [|x post IH]; intros pre s' Hl HI; simpl.
    - rewrite app_nil_r in Hl. by subst.
    - eapply returns_bind; [by eapply Hs|]. intros s'' HI'. simpl.
      eapply IH; [|exact HI']. by rewrite <-app_assoc. }
  by apply (Hgen l []).
Qed.

Lemma for_returns {A S} (l : list A) (f : A → S → res S) s (I : S → Prop) :
  I s → (∀ x s, x ∈ l → I s → returns (f x s) I) → returns (for_ l f s) I.
Proof.
  intros H0 Hs. apply (for_returns_pre l f s (λ _, I)); [done|].
  intros pre x post s' -> HI. apply Hs; [|done]. set_solver.
Qed.

Lemma for_ext {A S} (l : list A) (f g : A → S → res S) s :
  (∀ x s, x ∈ l → f x s = g x s) → for_ l f s = for_ l g s.
Proof.
  revert s. induction l as [|x l IH]; intros s H; simpl; [done|].
  rewrite H by set_solver. destruct (g x s); simpl; [|done..]. apply IH. set_solver.
Qed.

Lemma for_app {A S} (l1 l2 : list A) (f : A → S → res S) s :
  for_ (l1 ++ l2) f s = (for_ l1 f s ≫= for_ l2 f).
Proof.
  revert s. induction l1 as [|x l IH]; intros s; simpl; [done|].
  destruct (f x s); simpl; [|done..]. apply IH.
Qed.

(** ** [for_brk] *)
Lemma for_brk_returns {A S} (l : list A) f (s : S) (I : list A → S → Prop) (Q : S → Prop) :
  I [] s →
  (∀ pre x post s, l = pre ++ x :: post → I pre s →
     returns (f x s) (λ r, if (r.2 : bool) then Q r.1 else I (pre ++ [x]) r.1)) →
  (∀ s, I l s → Q s) →
  returns (for_brk l f s) Q.
Proof.
  intros H0 Hs HQ.
  assert (∀ post pre s, l = pre ++ post → I pre s → returns (for_brk post f s) Q) as Hgen.
  { induction post as [|x post IH]; intros pre s' Hl HI; simpl.
    - rewrite app_nil_r in Hl. subst. by apply HQ.
    - eapply returns_bind; [by eapply Hs|]. intros [s'' b] HI'. simpl in *.
      destruct b; [done|]. eapply IH; [|exact HI']. by rewrite <-app_assoc. }
  by apply (Hgen l []).
Qed.

(** ** [for_live] *)
Lemma for_live_returns {S} o k (get : S → nset) f (s : S) (I : list nat → S → Prop) (Q : S → Prop) :
  I [] s →
  (∀ pre x post s', o k (get s) = pre ++ x :: post → I pre s' →
     returns (f x s') (λ r, if (r.2 : bool) then Q r.1 else I (pre ++ [x]) r.1)) →
  (∀ pre s', I pre s' → get s' = get s) →
  (∀ s', I (o k (get s)) s' → Q s') →
  returns (for_live o k get f s) Q.
Proof.
  intros H0 Hs Hget HQ. unfold for_live.
  remember (o k (get s)) as l eqn:Hl. clear Hl.
  assert (∀ post pre s', l = pre ++ post → I pre s' →
    returns (live_go get (size (get s)) post f s') Q) as Hgen.
  { induction post as [|x post IH]; intros pre s' Hl HI; simpl.
    - rewrite decide_True by (by rewrite (Hget pre s' HI)).
      rewrite app_nil_r in Hl. subst. by apply HQ.
    - rewrite decide_True by (by rewrite (Hget pre s' HI)).
      eapply returns_bind; [by eapply Hs|]. intros [s'' b] HI'. simpl in *.
      destruct b; [done|]. eapply IH; [|exact HI']. by rewrite <-app_assoc. }
  by apply (Hgen l []).
Qed.

(** ** [find_], [any_], [filter_] *)
Lemma find_returns {A B} (l : list A) (f : A → res (option B)) (P : option B → Prop) (N : A → Prop) :
  (∀ x, x ∈ l → returns (f x) (λ r, match r with Some b => P (Some b) | None => N x end)) →
  ((∀ x, x ∈ l → N x) → P None) →
  returns (find_ l f) P.
Proof.
  induction l as [|x l IH]; intros Hf HN; simpl.
  - apply HN. set_solver.
  - eapply returns_bind; [apply Hf; set_solver|].
    intros [b|] Hx; simpl; [done|].
    apply IH; [set_solver|]. intros HN'. apply HN. intros y [->|?]%elem_of_cons; auto.
Qed.

Lemma any_returns {A} (l : list A) (f : A → res bool) (P : A → Prop) :
  (∀ x, x ∈ l → returns (f x) (λ b, b = true ↔ P x)) →
  returns (any_ l f) (λ b, b = true ↔ ∃ x, x ∈ l ∧ P x).
Proof.
  induction l as [|x l IH]; intros Hf; simpl.
  - split; [done|]. set_solver.
  - eapply returns_bind; [apply Hf; set_solver|].
    intros [] Hb; simpl.
    + split; [|done]. intros _. exists x. split; [set_solver|by apply Hb].
    + eapply returns_mono; [apply IH; set_solver|].
      intros b' Hb'. rewrite Hb'. split.
      * intros (y & ? & ?). exists y. set_solver.
      * intros (y & [->|?]%elem_of_cons & Hy); [by apply Hb in Hy|eauto].
Qed.

Lemma filter_returns (l : list nat) (f : nat → res bool) (P : nat → Prop) :
  (∀ x, x ∈ l → returns (f x) (λ b, b = true ↔ P x)) →
  returns (filter_ l f) (λ S, ∀ x, x ∈ S ↔ x ∈ l ∧ P x).
Proof.
  induction l as [|x l IH]; intros Hf; simpl.
  - set_solver.
  - eapply returns_bind; [apply Hf; set_solver|].
    intros b Hb; simpl. eapply returns_bind; [apply IH; set_solver|].
    intros T HS. cbn in *. intros y. destruct b.
    + rewrite elem_of_union, elem_of_singleton, elem_of_cons, HS. naive_solver.
    + rewrite elem_of_cons, HS. split; [naive_solver|].
      intros [[->|?] Hy]; [|done]. by apply Hb in Hy.
Qed.

(** ** Orders *)
Lemma iter_elem o k S x : iter_ok o → x ∈ o k S ↔ x ∈ S.
Proof. intros Ho. rewrite (Ho k S). apply elem_of_elements. Qed.
Lemma iter_nodup o k S : iter_ok o → NoDup (o k S).
Proof. intros Ho. rewrite (Ho k S). apply NoDup_elements. Qed.
Lemma iter_length o k S : iter_ok o → length (o k S) = size S.
Proof. intros Ho. by rewrite (Ho k S). Qed.

Lemma ord_up_ok : iter_ok ord_up.
Proof. by intros k S. Qed.
Lemma ord_down_ok : iter_ok ord_down.
Proof. intros k S. unfold ord_down. symmetry. apply Permutation_rev. Qed.
Lemma ord_sorted_ok : iter_ok ord_sorted.
Proof. intros k S. unfold ord_sorted. apply merge_sort_Permutation. Qed.

(** ** Combinations *)
Lemma elem_of_combs {A} k (l c : list A) : c ∈ combs k l ↔ c `sublist_of` l ∧ length c = k.
Proof.
  revert k c. induction l as [|x l IH]; intros [|k] c; simpl.
  - rewrite elem_of_list_singleton. split; [intros ->; split; [constructor|done]|].
    intros [_ ?]. by destruct c.
  - split; [set_solver|]. intros [Hs Hl]. inversion Hs; subst; done.
  - rewrite elem_of_list_singleton. split.
    + intros ->. split; [apply sublist_nil_l|done].
    + intros [_ ?]. by destruct c.
  - rewrite elem_of_app, elem_of_list_fmap, (IH (S k)). split.
    + intros [(c' & -> & [Hs Hl]%IH)|[Hs Hl]]; (split; [|simpl; lia]); by constructor.
    + intros [Hs Hl]. inversion Hs as [|? c' ? Hs'|]; subst.
      * left. eexists; split; [done|]. apply IH. split; [done|]. simpl in Hl. lia.
      * right. done.
Qed.

Lemma elem_of_comb2 {A} (l : list A) x y :
  (x, y) ∈ comb2 l ↔ ∃ l1 l2 l3, l = l1 ++ x :: l2 ++ y :: l3.
Proof.
  induction l as [|z l IH]; simpl.
  - split; [set_solver|]. intros (l1 & l2 & l3 & H). by destruct l1.
  - rewrite elem_of_app, elem_of_list_fmap, IH. split.
    + intros [(y' & [= -> ->] & (l2 & l3 & ->)%elem_of_list_split)|(l1 & l2 & l3 & ->)].
      * by exists [], l2, l3.
      * by exists (z :: l1), l2, l3.
    + intros (l1 & l2 & l3 & H). destruct l1 as [|z' l1]; simplify_eq/=.
      * left. exists y. split; [done|]. set_solver.
      * right. eauto.
Qed.

Lemma comb2_elem {A} (l : list A) x y : (x, y) ∈ comb2 l → x ∈ l ∧ y ∈ l.
Proof. rewrite elem_of_comb2. intros (?&?&?&->). set_solver. Qed.

Lemma comb2_ne {A} (l : list A) x y : NoDup l → (x, y) ∈ comb2 l → x ≠ y.
Proof.
  rewrite elem_of_comb2. intros Hnd (l1&l2&l3&->) ->.
  apply NoDup_app in Hnd as (_ & _ & Hnd). apply NoDup_cons in Hnd as [Hnd _]. set_solver.
Qed.

Lemma comb2_total {A} (l : list A) x y :
  x ∈ l → y ∈ l → x ≠ y → (x, y) ∈ comb2 l ∨ (y, x) ∈ comb2 l.
Proof.
  induction l as [|z l IH]; simpl; [set_solver|].
  rewrite !elem_of_cons, !elem_of_app, !elem_of_list_fmap. intros [->|?] [->|?] ?; [done|..].
  - left. left. eauto.
  - right. left. eauto.
  - destruct IH; auto.
Qed.

(** membership in a comb2 of a set iteration, up to the order of the pair *)
Lemma comb2_iter o k S x y : iter_ok o →
  ((x, y) ∈ comb2 (o k S) → x ∈ S ∧ y ∈ S ∧ x ≠ y) ∧
  (x ∈ S → y ∈ S → x ≠ y → (x, y) ∈ comb2 (o k S) ∨ (y, x) ∈ comb2 (o k S)).
Proof.
  intros Ho. split.
  - intros H. pose proof (comb2_elem _ _ _ H) as [Hx Hy].
    rewrite !iter_elem in Hx, Hy by done. split_and!; [done..|].
    eapply comb2_ne; [|done]. by apply iter_nodup.
  - intros Hx Hy Hne. apply comb2_total; [by apply iter_elem..|done].
Qed.
