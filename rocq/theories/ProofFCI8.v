(** ICD: histories of calls of learn_structure and learn_structure_iteration on one learner. *)
From Verif Require Import Base BaseLemmas Paths ModelGraph Spec ModelMixed SpecMixed ProofMixed ProofMixed2 ModelPC SpecPC ProofPC ModelPAG SpecPAG ProofPAG
  ModelPDS SpecPDS ModelFCI SpecFCI ProofFCI ProofFCI2 ProofFCI3 ProofFCI4 ProofFCI5 ProofFCI6.

(** states reached from the constructor by calls of the two methods *)
Inductive icd_reach (o : order) (ci : citest) (sb tc : bool) (fuel : nat) (precalc : bool) (V : nset) : icd_state → Prop :=
  | ir_init : icd_reach o ci sb tc fuel precalc V (icd_init o V)
  | ir_iter s t r : icd_reach o ci sb tc fuel precalc V s → icd_iteration o ci sb tc fuel precalc s = Ok (t, r) → icd_reach o ci sb tc fuel precalc V t
  | ir_learn s t : icd_reach o ci sb tc fuel precalc V s → icd_learn o ci sb tc fuel precalc s = Ok t → icd_reach o ci sb tc fuel precalc V t.

Section hist.
  Context (o : order) (Ho : iter_ok o) (ci : citest) (V : nset).

  Record icd_inv0 (s : icd_state) : Prop := {
    i0_inv : ls_inv ci V (ic_ls s);
    i0_low : low_order V (ic_size s) (ic_ls s);
    i0_size : ic_size s ≤ 2 `max` size V;
    i0_more : ic_done s = false → ic_size s < 2 `max` size V;
    i0_done : ic_done s = true → 2 ≤ ic_size s;
  }.
  Lemma icd_inv0_init : icd_inv0 (icd_init o V).
  Proof. constructor; cbn [icd_init ic_ls ic_size ic_done]; [by apply ls_init_inv|split; lia|lia|lia|done]. Qed.
  Lemma icd_inv0_reset s : icd_inv0 s → icd_inv0 (IcdState (ic_ls s) (ic_cond s) false 0).
  Proof. intros I. constructor; cbn [ic_ls ic_size ic_done]; [apply I|split; lia|lia|lia|done]. Qed.

  Lemma icd_iteration_inv0 sb tc fuel precalc s : ic_done s = false → icd_inv0 s → size V * size V + size V + 2 < fuel →
    returns (icd_iteration o ci sb tc fuel precalc s) (λ r, icd_inv0 r.1 ∧ ls_le (ic_ls s) (ic_ls r.1) ∧ ic_size r.1 = S (ic_size s) ∧ r.2 = (ic_done r.1, ic_size s) ∧
      ∃ q, asks (ic_size s) (ls_log (ic_ls s)) (ls_log (ic_ls r.1)) q).
  Proof using Ho.
    intros Hd I Hf. eapply returns_mono; [apply (icd_iteration_ok o Ho ci V); [done|apply I..|done]|]. cbn beta.
    intros [t [d n]] (It & Hle & Hlow & Hsz & Hr & q & Ha & H0 & H1). cbn [fst snd] in *.
    pose proof (i0_more _ I Hd) as Hlt. split; [|split; [done|]; split; [done|]; split; [done|by exists q]].
    constructor; [done|done|lia| |].
    - intros Hdt. destruct (ic_size s) as [|r] eqn:Er; [lia|]. assert (q = true) as -> by (rewrite H1; [by rewrite Hdt|lia]).
      destruct Ha as (l & El & Hl & Hne). assert (l ≠ []) as Hne' by by apply Hne. destruct l as [|[[[i j] c] b] l]; [done|].
      assert (length c = S r) as Hc by (apply (Hl i j c b), elem_of_list_here).
      assert ((i, j, c, b) ∈ ls_log (ic_ls t)) as Hin by (rewrite El; apply elem_of_list_here).
      apply (li_log _ _ _ It) in Hin as (Hi & Hj & Hij & Hnd & Hz). pose proof (cond_size V i j c Hi Hj Hij Hnd Hz). lia.
    - intros Hdt. destruct (ic_size s) as [|r]; [|lia]. by rewrite (H0 eq_refl) in Hdt.
  Qed.

  Lemma icd_loop_inv0 sb tc fuel precalc : size V * size V + size V + 2 < fuel → ∀ n s, ic_done s = false → icd_inv0 s →
    2 `max` size V ≤ n + ic_size s →
    returns (icd_loop o ci sb tc fuel precalc n s) (λ t, icd_inv0 t ∧ ic_done t = true ∧ ls_le (ic_ls s) (ic_ls t) ∧
      ∃ l, ls_log (ic_ls t) = l ++ ls_log (ic_ls s)).
  Proof using Ho.
    intros Hf n. induction n as [|n IH]; intros s Hd I Hn; [pose proof (i0_more _ I Hd); lia|]. cbn [icd_loop].
    eapply returns_bind; [by apply icd_iteration_inv0|]. cbn beta. intros [t [d m]] (It & Hle & Hsz & Hr' & q & l & El & _). cbn [fst snd] in *.
    injection Hr' as -> ->. destruct (ic_done t) eqn:Edt.
    - cbn [returns]. split; [done|]. split; [done|]. split; [done|]. by exists l.
    - eapply returns_mono; [apply IH; [done|done|lia]|]. cbn beta. intros u (Iu & Hdu & Hleu & l' & El').
      split; [done|]. split; [done|]. split; [intros a b H; by apply Hle, Hleu|]. exists (l' ++ l). by rewrite El', El, <-app_assoc.
  Qed.

  Context (sb tc : bool) (fuel : nat) (precalc : bool) (Hf : size V * size V + size V + 2 < fuel).
  Lemma icd_learn_inv0 s : icd_inv0 s →
    returns (icd_learn o ci sb tc fuel precalc s) (λ t, icd_inv0 t ∧ ic_done t = true ∧ ls_le (ic_ls s) (ic_ls t) ∧
      ∃ l, ls_log (ic_ls t) = l ++ ls_log (ic_ls s)).
  Proof using Ho Hf.
    intros I. assert (size V ≤ size V * size V) by (destruct (size V); lia). unfold icd_learn.
    eapply returns_mono; [apply icd_loop_inv0; [done|done|by apply icd_inv0_reset|cbn; lia]|]. cbn beta. cbn [ic_ls]. done.
  Qed.
  Lemma icd_reach_inv0 s : icd_reach o ci sb tc fuel precalc V s → icd_inv0 s.
  Proof using Ho Hf.
    induction 1 as [|s t r _ I E|s t _ I E]; [apply icd_inv0_init| |].
    - destruct (ic_done s) eqn:Ed; [by unfold icd_iteration in E; rewrite Ed in E|].
      pose proof (icd_iteration_inv0 sb tc fuel precalc s Ed I Hf) as H. rewrite E in H. apply H.
    - pose proof (icd_learn_inv0 s I) as H. rewrite E in H. apply H.
  Qed.

  Theorem icd_calls s : icd_reach o ci sb tc fuel precalc V s →
    justified ci V (ls_graph (ic_ls s)) (ls_sep (ic_ls s)) (ls_log (ic_ls s)) ∧
    (ic_done s = true → icd_iteration o ci sb tc fuel precalc s = Raise RuntimeError) ∧
    (ic_done s = false → returns (icd_iteration o ci sb tc fuel precalc s) (λ r, r.2 = (ic_done r.1, ic_size s) ∧ ic_size r.1 = S (ic_size s) ∧
      (∀ a b, mg_adj (ls_graph (ic_ls r.1)) a b → mg_adj (ls_graph (ic_ls s)) a b) ∧ ∃ q, asks (ic_size s) (ls_log (ic_ls s)) (ls_log (ic_ls r.1)) q)) ∧
    returns (icd_learn o ci sb tc fuel precalc s) (λ t, ic_done t = true ∧
      (∀ a b, mg_adj (ls_graph (ic_ls t)) a b → mg_adj (ls_graph (ic_ls s)) a b) ∧
      (∃ l, ls_log (ic_ls t) = l ++ ls_log (ic_ls s)) ∧
      (∀ a b z, mg_adj (ls_graph (ic_ls t)) a b → mg_adj (ls_graph (ic_ls t)) z a → z ≠ b → tested (ls_log (ic_ls t)) a b {[z]} false)).
  Proof using Ho Hf.
    intros I%icd_reach_inv0. split; [apply ls_inv_justified, I|]. split; [intros E; unfold icd_iteration; by rewrite E|]. split.
    - intros E. eapply returns_mono; [by apply icd_iteration_inv0|]. cbn beta. intros r (_ & Hle & Hs & Hr & Ha). done.
    - eapply returns_mono; [by apply icd_learn_inv0|]. cbn beta. intros t (It & Hd & Hle & Hl). split; [done|]. split; [done|]. split; [done|].
      apply (i0_low _ It). pose proof (i0_done _ It Hd). lia.
  Qed.
End hist.

(** ** orientations with a perfect oracle *)
Section sound.
  Context (o : order) (Ho : iter_ok o) (ci : citest) (m : mgraph) (A : ancestral m) (Hci : perfect_for m ci).
  Notation V := (mnodes m).
  Context (sb : bool) (fuel : nat) (precalc : bool) (Hf : size V * size V + size V + 2 < fuel).
  Lemma icd_loop_oriented0 : ∀ n s, ic_done s = false → icd_inv0 ci V s → (1 < ic_size s → oriented m (ic_ls s)) → 2 `max` size V ≤ n + ic_size s →
    returns (icd_loop o ci sb false fuel precalc n s) (λ t, 1 < ic_size t → oriented m (ic_ls t)).
  Proof using Ho A Hci Hf.
    intros n. induction n as [|n IH]; intros s Hd I O Hn; [pose proof (i0_more _ _ _ I Hd); lia|]. cbn [icd_loop].
    eapply returns_bind; [apply (returns_and _ _ _ (icd_iteration_inv0 o Ho ci V sb false fuel precalc s Hd I Hf) (icd_iteration_oriented o Ho ci m A Hci sb fuel precalc s Hd (i0_inv _ _ _ I) O Hf))|].
    cbn beta. intros [t [d k]] ((It & Hle & Hsz & Hr' & _) & Ot). cbn [fst snd] in *.
    injection Hr' as -> ->. destruct (ic_done t) eqn:Edt; [done|]. apply IH; [done|done|done|lia].
  Qed.
  Theorem icd_calls_sound s : icd_reach o ci sb false fuel precalc V s →
    returns (icd_learn o ci sb false fuel precalc s) (λ t, (∀ a b, mg_adj m a b → mg_adj (ls_graph (ic_ls t)) a b) ∧
      ((∀ a b, mg_adj (ls_graph (ic_ls t)) a b → mg_adj m a b) → sound_for m (ls_graph (ic_ls t)))).
  Proof using Ho A Hci Hf.
    intros I%icd_reach_inv0; [|done..]. assert (size V ≤ size V * size V) by (destruct (size V); lia).
    eapply returns_mono; [eapply returns_and; [by apply (icd_learn_inv0 o Ho ci V sb false fuel precalc Hf s)|]|].
    { unfold icd_learn. apply icd_loop_oriented0; [done|by apply icd_inv0_reset|cbn; lia|cbn; lia]. }
    cbn beta. intros t ((It & Hd & _) & O). pose proof (i0_done _ _ _ It Hd).
    split; [intros a b; apply (perfect_adj ci m A Hci); apply It|]. apply (oriented_sound ci m A); [apply It|apply O; lia].
  Qed.
End sound.
