(** In data of a linear structural equation model d-separated variables have partial correlation 0. *)
From Coq Require Import QArith Qreals Reals Lra.
From Verif Require Import Base BaseLemmas ModelGraph Spec Paths MSepTheory ProofGraph ProofGraph2 ProofGraph3 ProofDsep ModelMixed SpecMixed ModelPC SpecPC ProofPC ModelPAG SpecPAG ModelPDS ModelFCI SpecFCI ModelOICD SpecOICD SpecLatent ProofLatent
  ModelCI SpecCI ProofCI ProofCI2 ModelCMI SpecCMI ProofCMI SpecMarkov ProofMarkov ProofMarkov2 ModelParCorr SpecParCorr ProofParCorr SpecLinear.
Local Open Scope nat_scope.

(** ** d-separation as separation in the moral graph of the ancestors *)
Section moral.
  Context (d : graph) (Hwf : wf_graph d) (Hac : acyclic d).
  (** v or a parent of v *)
  Definition famn (v a : nat) : Prop := a = v ∨ edge d a v.
  Definition anc (S : list nat) (v : nat) : Prop := ∃ s, s ∈ S ∧ ancestor d v s.
  Definition conn (S Z : list nat) : nat → nat → Prop := rtc (λ a b, (∃ v, anc S v ∧ famn v a ∧ famn v b) ∧ b ∉ Z).

  Lemma anc_An x y Z v : anc (x :: y :: Z) v ↔ An (edge d) (.∈ Z) x y v.
  Proof.
    unfold anc, An, anZ. setoid_rewrite (rtc_dir d _ _ Hac). split.
    - intros (s & [->|[->|Hs]%elem_of_cons]%elem_of_cons & H); [by left|right; by left|right; right; eauto].
    - intros [H|[H|(s & Hs & H)]]; [exists x|exists y|exists s]; (split; [set_solver +|done]) || (split; [set_solver +Hs|done]).
  Qed.
  Lemma anc_edge S a v : anc S v → famn v a → anc S a.
  Proof. intros (s & Hs & H) [->|He]; [by exists s|]. exists s. split; [done|]. eapply rtc_l; [exact He|exact H]. Qed.
  Lemma dsep_conn x y Z : x ≠ y → y ∉ Z → d_separated d x y Z ↔ ¬ conn (x :: y :: Z) Z x y.
  Proof.
    intros Hne Hy. rewrite (d_separated_aug ord_up ord_up_ok) by done. apply not_iff_compat. unfold augreach, conn. split.
    - intros H. eapply rtc_subrel; [|exact H]. clear H. intros a b [(Ha & Hb & cs & Hcs & HA) HZ]. split; [|done].
      destruct cs as [|c [|c' cs]]; cbn in Hcs.
      + destruct Hcs as [He|He]; [exists b|exists a]; (split; [by apply anc_An|]); unfold famn; auto.
      + destruct Hcs as (H1 & H2 & _). exists c. split; [apply anc_An, HA; left|]. unfold famn. auto.
      + exfalso. destruct Hcs as (_ & H1 & H2 & _). by apply (acyclic_anti d c' c).
    - assert (∀ a c, conn (x :: y :: Z) Z a c → rtc (λ a b, aug (edge d) (.∈ Z) x y a b ∧ b ∉ Z) a c) as Hgen; [|apply Hgen].
      intros a c H. induction H as [|a b c [(v & Hv & Ha & Hb) HZ] _ IH]; [apply rtc_refl|].
      destruct (decide (a = b)) as [->|Hab]; [done|]. eapply rtc_l; [|exact IH]. split; [|done].
      split_and!; [by apply anc_An, (anc_edge _ a v)|by apply anc_An, (anc_edge _ b v)|].
      destruct Ha as [->|Ha], Hb as [->|Hb].
      + done.
      + exists []. split; [by right|]. by intros ? ?%elem_of_nil.
      + exists []. split; [by left|]. by intros ? ?%elem_of_nil.
      + exists [v]. split; [cbn; split_and!; [done|done|by right]|]. intros c' ->%elem_of_list_singleton. by apply anc_An.
  Qed.
  Lemma conn_sym S Z x y : x ∉ Z → conn S Z x y → conn S Z y x.
  Proof.
    intros Hx H. induction H as [|a b c [(v & Hv & Ha & Hb) HZ] _ IH]; [apply rtc_refl|].
    eapply rtc_r; [by apply IH|]. split; [|done]. exists v. auto.
  Qed.
  Lemma conn_mono (S S' Z Z' : list nat) x y : (∀ v, anc S v → anc S' v) → (∀ v, anc S v → v ∉ Z → v ∉ Z') → conn S Z x y → conn S' Z' x y.
  Proof.
    intros HS HZ H. eapply rtc_subrel; [|exact H]. intros a b [(v & Hv & Ha & Hb) Hb']. split; [exists v; auto|]. apply HZ; [|done]. by eapply anc_edge.
  Qed.
End moral.

(** ** projections *)
Section proj.
  Context (data : nat → nat → R) (n : nat).
  Local Notation dot := (vdot n).
  Local Notation dv := (dev data n).
  Local Notation span := (in_span data n).
  Lemma span_mono (Z Z' : list nat) f : (∀ z, z ∈ Z → z ∈ Z') → span Z f → span Z' f.
  Proof. intros H (l & H1 & H2). exists l. split; [auto|done]. Qed.
  Lemma span_self (Z : list nat) z : z ∈ Z → span Z (dv z).
  Proof. intros Hz. exists [(1%R, z)]. split; [by intros p ->%elem_of_list_singleton|]. intros t _. unfold rsum. cbn. ring. Qed.
  (** e is the residual of f after projection on the variables Z *)
  Definition resid (Z : list nat) (f e : nat → R) : Prop := span Z (λ t, f t - e t)%R ∧ ∀ z, z ∈ Z → dot e (dv z) = 0%R.
  Lemma resid_dot Z f e h : resid Z f e → (∀ z, z ∈ Z → dot h (dv z) = 0%R) → dot h f = dot h e.
  Proof. intros [S1 _] Hh. pose proof (span_dot data n Z _ h S1 Hh) as H. rewrite dot_sym, dot_minus in H. rewrite (dot_sym n h f), (dot_sym n h e). lra. Qed.
  Lemma resid_unique Z f e e' : resid Z f e → resid Z f e' → ∀ h, dot e h = dot e' h.
  Proof.
    intros [S1 O1] [S2 O2] h. apply dot_ext; [|done]. assert (∀ t, t < n → (e t - e' t)%R = 0%R) as H; [|intros t Ht; specialize (H t Ht); lra].
    apply (span_orth data n Z).
    - eapply span_ext; [|apply (span_plus data n Z _ _ S2 (span_scal data n Z (-1) _ S1))]. intros t _. cbn. ring.
    - intros z Hz. rewrite dot_minus, O1, O2 by done. ring.
  Qed.
  Lemma resid_exists Z : ∀ f, ∃ e, resid Z f e.
  Proof.
    induction Z as [|z Z IH]; intros f.
    { exists f. split; [|by intros ? ?%elem_of_nil]. exists []. split; [by intros ? ?%elem_of_nil|]. intros t _. unfold rsum. cbn. ring. }
    destruct (IH f) as [e He], (IH (dv z)) as [g Hg]. pose proof He as [S1 O1]. pose proof Hg as [S2 O2].
    destruct (Req_EM_T (dot g g) 0) as [E|E].
    - exists e. split; [eapply span_mono; [|exact S1]; intros; by right|]. intros z' [->|Hz']%elem_of_cons; [|by apply O1].
      rewrite (resid_dot Z (dv z) g e Hg O1). transitivity (dot e (λ t, 0 * g t)%R); [|rewrite dot_scal_r; ring].
      apply dot_ext; [done|]. intros t Ht. rewrite (dot_zero n g E t Ht). ring.
    - set (c := (dot e g / dot g g)%R). exists (λ t, e t - c * g t)%R.
      assert (∀ z', z' ∈ Z → dot (λ t, e t - c * g t)%R (dv z') = 0%R) as HO.
      { intros z' Hz'. rewrite (dot_minus n e (λ t, c * g t)%R), dot_scal, O1, O2 by done. ring. }
      split.
      + assert (span (z :: Z) g) as Hsg.
        { eapply span_ext; [|apply (span_plus data n (z :: Z) (dv z) (λ t, -1 * (dv z t - g t))%R); [apply span_self; left|apply span_scal; eapply span_mono; [|exact S2]; intros; by right]]. intros t _. cbn. ring. }
        eapply span_ext; [|apply (span_plus data n (z :: Z) (λ t, f t - e t)%R (λ t, c * g t)%R); [eapply span_mono; [|exact S1]; intros; by right|by apply span_scal]]. intros t _. cbn. ring.
      + intros z' [->|Hz']%elem_of_cons; [|by apply HO]. rewrite (resid_dot Z (dv z) g _ Hg HO), (dot_minus n e (λ t, c * g t)%R), dot_scal. unfold c. field. done.
  Qed.

  (** x is uncorrelated with y given Z *)
  Definition uncor (x y : nat) (Z : list nat) : Prop := ∀ e, resid Z (dv y) e → dot e (dv x) = 0%R.
  Lemma uncor_one x y Z e : resid Z (dv y) e → dot e (dv x) = 0%R → uncor x y Z.
  Proof. intros H H0 e' H'. by rewrite (resid_unique Z _ e' e H' H). Qed.
  Lemma uncor_sym x y Z : uncor x y Z → uncor y x Z.
  Proof.
    intros H e' H'. destruct (resid_exists Z (dv y)) as [e He]. specialize (H e He).
    rewrite (resid_dot Z (dv y) e e' He); [|apply H']. rewrite dot_sym. rewrite (resid_dot Z (dv x) e' e H') in H; [done|]. apply He.
  Qed.
  (** a conditioning variable that is uncorrelated with y can be added *)
  Lemma uncor_add x y v Z : uncor x y Z → uncor v y Z → uncor x y (v :: Z).
  Proof.
    intros Hx Hv. destruct (resid_exists Z (dv y)) as [e He]. apply (uncor_one _ _ _ e); [|by apply Hx]. pose proof He as [S1 O1]. split.
    - eapply span_mono; [|exact S1]. intros; by right.
    - intros z [->|Hz]%elem_of_cons; [by apply Hv|by apply O1].
  Qed.
  Lemma uncor_set x y (Z Z' : list nat) : (∀ z, z ∈ Z ↔ z ∈ Z') → uncor x y Z → uncor x y Z'.
  Proof.
    intros HZ H e [S1 O1]. apply H. split; [eapply span_mono; [|exact S1]; intros z; apply HZ|]. intros z Hz. by apply O1, HZ.
  Qed.
End proj.

(** ** the linear Markov property *)
Section markov.
  Context (d : graph) (Hwf : wf_graph d) (Hac : acyclic d) (w : nat → nat → R) (data : nat → nat → R) (n : nat) (HM : linear_model d w data n).
  Local Notation dot := (vdot n).
  Local Notation dv := (dev data n).
  Local Notation eps := (noise d w data n).
  (** nodes listed after all their descendants *)
  Definition ordered (L : list nat) : Prop := NoDup L ∧ (∀ v, v ∈ L → v ∈ gnodes d) ∧ ∀ l1 v l2, L = l1 ++ v :: l2 → ∀ p, edge d p v → p ∈ l2.
  Lemma ordered_tail v L : ordered (v :: L) → ordered L ∧ v ∉ L ∧ v ∈ gnodes d ∧ (∀ p, edge d p v → p ∈ L) ∧ ∀ u s, u ∈ L → ancestor d s u → s ∈ L.
  Proof.
    intros (Hnd & Hin & Hp). apply NoDup_cons in Hnd as [Hv Hnd].
    assert (∀ u p, u ∈ L → edge d p u → p ∈ L) as Hcl.
    { intros u p Hu He. apply elem_of_list_split in Hu as (l1 & l2 & ->). assert (p ∈ l2) by (apply (Hp (v :: l1) u l2); done). set_solver. }
    split_and!; [|done|by apply Hin; left|by apply (Hp [] v L)|].
    - split_and!; [done|intros u Hu; apply Hin; by right|]. intros l1 u l2 -> p He. by apply (Hp (v :: l1) u l2).
    - intros u s Hu Ha. unfold ancestor in Ha. induction Ha as [|a b c He _ IH]; [done|]. eapply Hcl; [by apply IH|done].
  Qed.
  Lemma dv_split h v : dot h (dv v) = (dot h (eps v) + rsum (λ p, w v p * dot h (dv p)) (elements (gadj d v)))%R.
  Proof.
    rewrite (dot_sym n h (dv v)). transitivity (dot (λ t, eps v t + rsum (λ p, w v p * dv p t) (elements (gadj d v)))%R h).
    - apply dot_ext; [|done]. intros t _. unfold noise. ring.
    - rewrite dot_plus, dot_comb, dot_sym. f_equal. apply rsum_ext. intros p _. by rewrite dot_sym.
  Qed.
  Lemma noise_orth v L : ordered L → v ∉ L → v ∈ gnodes d → ∀ u, u ∈ L → dot (eps v) (dv u) = 0%R.
  Proof.
    intros HL Hv Hg. induction L as [|u0 L IH]; intros u Hu; [by apply elem_of_nil in Hu|].
    pose proof (ordered_tail u0 L HL) as (HL' & Hu0 & Hg0 & Hp & _). assert (v ∉ L) as Hv' by set_solver +Hv.
    apply elem_of_cons in Hu as [->|Hu]; [|by apply IH]. rewrite dv_split, HM; [|done|done|set_solver +Hv]. rewrite Rplus_0_l.
    etransitivity; [|apply (rsum_0 (elements (gadj d u0)))]. apply rsum_ext. intros p Hp'%elem_of_elements. rewrite (IH HL' Hv' p); [ring|]. by apply Hp.
  Qed.
  Lemma noise_resid v L y Z e : ordered L → v ∉ L → v ∈ gnodes d → y ∈ L → (∀ z, z ∈ Z → z ∈ L) → resid data n Z (dv y) e → dot e (eps v) = 0%R.
  Proof.
    intros HL Hv Hg Hy HZ [S1 _]. pose proof (noise_orth v L HL Hv Hg) as H.
    pose proof (span_dot data n Z _ (eps v) S1 ltac:(auto)) as E. rewrite dot_sym, dot_minus, (dot_sym n (dv y)), H in E by done. lra.
  Qed.
  Lemma markov_last v L y Z : ordered (v :: L) → y ∈ L → y ∉ Z → (∀ z, z ∈ Z → z ∈ L) →
    (∀ p, edge d p v → p ∉ Z → p = y ∨ uncor data n p y Z) → ¬ edge d y v → uncor data n v y Z.
  Proof.
    intros HL Hy HyZ HZ Hp Hyv e He. pose proof (ordered_tail v L HL) as (HL' & Hv & Hg & Hpa & _).
    rewrite dv_split, (noise_resid v L y Z e) by done. rewrite Rplus_0_l. etransitivity; [|apply (rsum_0 (elements (gadj d v)))].
    apply rsum_ext. intros p Hpv%elem_of_elements. destruct (decide (p ∈ Z)) as [HpZ|HpZ].
    - destruct He as [_ O]. rewrite O by done. ring.
    - destruct (Hp p Hpv HpZ) as [->|H]; [done|]. rewrite (H e He). ring.
  Qed.
  Lemma linear_conn L : ordered L → ∀ x y Z, x ∈ L → y ∈ L → x ≠ y → x ∉ Z → y ∉ Z → (∀ z, z ∈ Z → z ∈ L) → ¬ conn d (x :: y :: Z) Z x y → uncor data n x y Z.
  Proof.
    induction L as [|v L IH]; intros HL x y Z Hx Hy Hne HxZ HyZ HZ Hc; [by apply elem_of_nil in Hx|].
    pose proof (ordered_tail v L HL) as (HL' & Hv & Hg & Hpa & Hcl). specialize (IH HL').
    (* the last node against another one *)
    assert (∀ y Z, y ∈ L → y ∉ Z → (∀ z, z ∈ Z → z ∈ L) → ¬ conn d (v :: y :: Z) Z v y → uncor data n v y Z) as Hlast.
    { clear x y Z Hx Hy Hne HxZ HyZ HZ Hc. intros y Z Hy HyZ HZ Hc.
      assert (∀ p, edge d p v → p ∉ Z → ¬ conn d (v :: y :: Z) Z p y) as Hp.
      { intros p He HpZ Hpy. apply Hc. eapply rtc_l; [|exact Hpy]. split; [|done]. exists v. split; [exists v; split; [left|apply rtc_refl]|]. unfold famn. auto. }
      apply (markov_last v L); try done.
      - intros p He HpZ. destruct (decide (p = y)) as [|Hpy]; [by left|]. right. apply IH; auto. intros H. apply (Hp p He HpZ). eapply conn_mono; [| |exact H]; [|done].
        intros u (s & Hs & Hus). apply elem_of_cons in Hs as [->|Hs]; [|exists s; split; [set_solver +Hs|done]]. exists v. split; [left|]. eapply rtc_r; [exact Hus|done].
      - intros He. apply (Hp y He HyZ). apply rtc_refl. }
    assert (∀ x y Z, x ∈ v :: L → y ∈ L → x ≠ y → x ∉ Z → y ∉ Z → (∀ z, z ∈ Z → z ∈ L) → ¬ conn d (x :: y :: Z) Z x y → uncor data n x y Z) as Hfree.
    { clear x y Z Hx Hy Hne HxZ HyZ HZ Hc. intros x y Z [->|Hx]%elem_of_cons Hy Hne HxZ HyZ HZ Hc; [by apply Hlast|by apply IH]. }
    destruct (decide (v ∈ Z)) as [HvZ|HvZ].
    - assert (x ∈ L) as HxL by (apply elem_of_cons in Hx as [->|?]; done). assert (y ∈ L) as HyL by (apply elem_of_cons in Hy as [->|?]; done).
      set (Z' := filter (.≠ v) Z).
      assert (∀ z, z ∈ Z' ↔ z ∈ Z ∧ z ≠ v) as HZ' by (intros z; unfold Z'; rewrite elem_of_list_filter; tauto).
      assert (∀ z, z ∈ Z' → z ∈ L) as HZL by (intros z [Hz Hzv]%HZ'; apply HZ in Hz; set_solver +Hz Hzv).
      apply (uncor_set data n x y (v :: Z')).
      { intros z. rewrite elem_of_cons, HZ'. destruct (decide (z = v)) as [->|]; tauto. }
      assert (∀ S u, (∀ s, s ∈ S → s ∈ L) → anc d S u → u ∈ L) as HancL by (intros S u HS (s & Hs & Hus); eapply Hcl; [by apply HS|done]).
      assert (uncor data n x y Z') as Hxy.
      { apply IH; [done..|by rewrite HZ'; tauto|by rewrite HZ'; tauto|done|]. intros H. apply Hc. eapply conn_mono; [| |exact H].
        - intros u (s & Hs & Hus). exists s. split; [|done]. rewrite !elem_of_cons, HZ' in Hs. rewrite !elem_of_cons. tauto.
        - intros u Hu Hu'. apply HancL in Hu; [|intros s; set_solver +HxL HyL HZL]. rewrite HZ' in Hu'. intros HuZ. apply Hu'. split; [done|]. intros ->. done. }
      assert (∀ u, u ∈ L → u ∉ Z → u ∈ [x; y] → (∀ p, edge d p v → p ∉ Z → ¬ conn d (x :: y :: Z) Z p u) → uncor data n v u Z') as Hside.
      { intros u Hu HuZ Huxy Hno. apply Hlast; [done|rewrite HZ'; tauto|done|]. intros H.
        assert (∀ a, conn d (v :: u :: Z') Z' a u → (a ≠ v ∧ conn d (x :: y :: Z) Z a u) ∨ ∃ p, edge d p v ∧ p ∉ Z ∧ conn d (x :: y :: Z) Z p u) as Hind.
        { clear H. intros a H. unfold conn in H. remember u as u' eqn:Eu in H at 2. revert Eu.
          induction H as [a|a b c [(f & Hf & Ha & Hb) HbZ] _ IHc]; intros ->.
          - left. split; [|apply rtc_refl]. intros ->. done.
          - destruct (IHc eq_refl) as [[Hbv Hbu]|]; [|by right].
            assert (b ∉ Z) as HbZ2 by (rewrite HZ' in HbZ; tauto).
            destruct (decide (a = v)) as [->|Hav].
            + right. exists b. split_and!; [|done|done].
              assert (f = v) as ->.
              { destruct Ha as [?|Ha]; [done|]. destruct Hf as (s & Hs & Hfs). exfalso. rewrite !elem_of_cons in Hs. destruct Hs as [->|Hs].
                - apply (Hac v). eapply tc_rtc_r; [apply tc_once; exact Ha|exact Hfs].
                - apply Hv. apply (Hcl s v); [destruct Hs as [->|Hs]; auto|]. eapply rtc_l; [exact Ha|exact Hfs]. }
              destruct Hb as [->|Hb]; done.
            + left. split; [done|]. eapply rtc_l; [|exact Hbu]. split; [|done]. exists f. split_and!; [|done|done].
              destruct Hf as (s & Hs & Hfs). exists s. split; [|done]. rewrite !elem_of_cons, HZ' in Hs. rewrite !elem_of_cons. rewrite elem_of_cons, elem_of_list_singleton in Huxy.
              destruct Hs as [->|[->|[? _]]]; tauto. }
        destruct (Hind v H) as [[? _]|(p & Hp1 & Hp2 & Hp3)]; [done|by apply (Hno p)]. }
      intros e He. destruct (Req_EM_T (dot e (dv x)) 0) as [E|E]; [done|exfalso].
      assert (v ∈ Z → anc d (x :: y :: Z) v) as HvS by (intros _; exists v; split; [set_solver +HvZ|apply rtc_refl]).
      apply E. apply (uncor_add data n x y v Z' Hxy); [|done]. apply Hside; [done|done|set_solver +|]. intros p Hp HpZ Hpy.
      apply E. revert e He E. intros e He _. revert e He. apply uncor_sym, (uncor_add data n y x v Z' (uncor_sym data n _ _ _ Hxy)).
      apply Hside; [done|done|set_solver +|]. intros q Hq HqZ Hqx. apply Hc. apply conn_sym in Hqx; [|done].
      eapply rtc_transitive; [exact Hqx|]. eapply rtc_l; [|exact Hpy]. split; [|done]. exists v. split; [by apply HvS|]. unfold famn. auto.
    - destruct (decide (y = v)) as [->|Hyv].
      + apply uncor_sym, Hfree; [done|set_solver +Hx Hne|done|done|done|intros z Hz; specialize (HZ z Hz); set_solver +HZ Hz HvZ|].
        intros H. apply Hc. eapply conn_mono; [| |eapply conn_sym; [|exact H]]; [|done|done].
        intros u (s & Hs & Hus). exists s. split; [set_solver +Hs|done].
      + apply Hfree; try done; [set_solver +Hy Hyv|]. intros z Hz. specialize (HZ z Hz). set_solver +HZ Hz HvZ.
  Qed.
End markov.

(** ** noise in every variable: all correlation matrices are regular *)
Section regular.
  Context (data : nat → nat → R) (n : nat).
  Local Notation dot := (vdot n).
  Local Notation dv := (dev data n).
  Definition indep (idx : list nat) : Prop := ∀ c, (∀ t, t < n → rsum (λ u, c u * dv u t)%R idx = 0%R) → ∀ u, u ∈ idx → c u = 0%R.
  Lemma indep_sub idx L : NoDup idx → NoDup L → (∀ u, u ∈ idx → u ∈ L) → indep L → indep idx.
  Proof.
    intros H1 H2 Hs HL c Hc u Hu. set (c' v := if decide (v ∈ idx) then c v else 0%R).
    assert (c' u = 0%R) as E; [|by unfold c' in E; rewrite decide_True in E].
    apply (HL c'); [|by apply Hs]. intros t Ht.
    assert (L ≡ₚ idx ++ filter (.∉ idx) L) as HP.
    { apply NoDup_Permutation; [done| |].
      - apply NoDup_app. split; [done|]. split; [|by apply NoDup_filter]. intros v Hv [? _]%elem_of_list_filter. done.
      - intros v. rewrite elem_of_app, elem_of_list_filter. destruct (decide (v ∈ idx)); naive_solver. }
    rewrite (rsum_perm _ _ _ HP), rsum_app. rewrite (rsum_null _ (filter _ _)).
    2: { intros v [Hv _]%elem_of_list_filter. unfold c'. rewrite decide_False by done. ring. }
    rewrite Rplus_0_r. etransitivity; [|exact (Hc t Ht)]. apply rsum_ext. intros v Hv. unfold c'. by rewrite decide_True.
  Qed.
  Lemma indep_varying idx a : NoDup idx → a ∈ idx → indep idx → not_constant data n a.
  Proof.
    intros Hnd Ha H. assert (indep [a]) as H1 by (apply (indep_sub [a] idx); [apply NoDup_singleton|done|by intros u ->%elem_of_list_singleton|done]).
    destruct (dot_nonneg n (dv a)) as [?|E]; [done|]. exfalso. assert (1%R = 0%R) as E1; [|lra].
    apply (H1 (λ _, 1%R) ltac:(intros t Ht; unfold rsum; cbn; rewrite (dot_zero n _ (eq_sym E) t Ht); ring) a). left.
  Qed.
  Lemma indep_dual idx i : NoDup idx → indep idx → i < length idx →
    ∃ g : nat → R, ∀ j, j < length idx → rsum (λ k, g k * cr data n (idx !!! k) (idx !!! j))%R (seq 0 (length idx)) = if decide (i = j) then 1%R else 0%R.
  Proof.
    intros Hnd HI Hi. set (a := idx !!! i). assert (a ∈ idx) as Ha by (by apply elem_of_list_lookup_total_2).
    assert (∀ u, u ∈ idx → (0 < R_sqrt.sqrt (dot (dv u) (dv u)))%R) as Hs by (intros u Hu; apply sd_pos; by eapply indep_varying).
    set (zz := filter (.≠ a) idx). destruct (resid_exists data n zz (dv a)) as [e He].
    assert (residual data n zz a e) as Hr by (apply span_residual; [by apply NoDup_filter|apply He|apply He]).
    destruct Hr as [[beta Hb] Ho]. set (c u := if decide (u = a) then 1%R else (- beta u)%R).
    assert (idx ≡ₚ a :: zz) as HP.
    { apply NoDup_Permutation; [done| |].
      - constructor; [|by apply NoDup_filter]. intros [? _]%elem_of_list_filter. done.
      - intros v. unfold zz. rewrite elem_of_cons, elem_of_list_filter. destruct (decide (v = a)) as [->|]; tauto. }
    assert (∀ t, t < n → e t = rsum (λ u, c u * dv u t)%R idx) as Hc.
    { intros t Ht. rewrite (rsum_perm _ _ _ HP), rsum_cons, (Hb t Ht). unfold c at 1. rewrite decide_True by done.
      rewrite (rsum_ext (λ u, c u * dv u t)%R (λ u, -1 * (beta u * dv u t))%R).
      2: { intros u [Hu _]%elem_of_list_filter. unfold c. rewrite decide_False by done. ring. }
      rewrite rsum_scal. ring. }
    assert (dot e e ≠ 0%R) as Hee.
    { intros E. assert (c a = 0%R) as E1; [|unfold c in E1; rewrite decide_True in E1 by done; lra].
      apply HI; [|done]. intros t Ht. rewrite <-Hc by done. by apply (dot_zero n e). }
    assert (dot e (dv a) = dot e e) as Hea by (apply (resid_dot data n zz (dv a) e e He), He).
    exists (λ k, c (idx !!! k) * R_sqrt.sqrt (dot (dv (idx !!! k)) (dv (idx !!! k))) * R_sqrt.sqrt (dot (dv a) (dv a)) / dot e e)%R. intros j Hj.
    set (b := idx !!! j). assert (b ∈ idx) as Hbi by (by apply elem_of_list_lookup_total_2).
    pose proof (rsum_seq_lookup (λ u, c u * R_sqrt.sqrt (dot (dv u) (dv u)) * R_sqrt.sqrt (dot (dv a) (dv a)) / dot e e * cr data n u b)%R idx) as E. cbn beta in E.
    etransitivity; [exact E|]. clear E.
    pose proof (Hs b Hbi) as Hsb. pose proof (Hs a Ha) as Hsa.
    transitivity (R_sqrt.sqrt (dot (dv a) (dv a)) / (dot e e * R_sqrt.sqrt (dot (dv b) (dv b))) * rsum (λ u, c u * dot (dv u) (dv b)) idx)%R.
    { rewrite <-rsum_scal. apply rsum_ext. intros u Hu. pose proof (Hs u Hu). unfold cr. field. repeat split; first [exact Hee|lra]. }
    assert (rsum (λ u, c u * dot (dv u) (dv b))%R idx = dot e (dv b)) as ->.
    { rewrite <-(dot_comb n c dv). apply dot_ext; [|done]. intros t Ht. symmetry. exact (Hc t Ht). }
    destruct (decide (i = j)) as [<-|Hij].
    - change b with a. rewrite Hea. field. repeat split; first [exact Hee|lra].
    - rewrite Ho; [ring|]. apply elem_of_list_filter. split; [|done]. intros E. apply Hij. apply (NoDup_lookup idx i j a Hnd); [by apply list_lookup_lookup_total_lt|]. rewrite <-E. by apply list_lookup_lookup_total_lt.
  Qed.
  Lemma finite_choice {A} (P : nat → A → Prop) (a0 : A) m : (∀ i, i < m → ∃ a, P i a) → ∃ f, ∀ i, i < m → P i (f i).
  Proof.
    induction m as [|m IH]; intros H; [by exists (λ _, a0); lia|]. destruct IH as [f Hf]; [intros; apply H; lia|]. destruct (H m ltac:(lia)) as [a Ha].
    exists (λ i, if decide (i = m) then a else f i). intros i Hi. case_decide; [by subst|]. apply Hf. lia.
  Qed.
  Lemma indep_nonsingular idx : NoDup idx → indep idx → 2 ≤ n → nonsingular (corrcoef data n) idx.
  Proof.
    intros Hnd HI Hn. destruct (finite_choice _ (λ _, 0%R) (length idx) (λ i Hi, indep_dual idx i Hnd HI Hi)) as [N HN].
    exists N. intros i j Hi Hj. rewrite <-(HN i Hi j Hj). apply rsum_ext. intros k Hk%elem_of_seq. f_equal.
    apply corrcoef_cr; [done|eapply indep_varying; [done|apply elem_of_list_lookup_total_2; lia|done]..].
  Qed.
End regular.

Section tests.
  Context (d : graph) (Hwf : wf_graph d) (Hac : acyclic d) (w : nat → nat → R) (data : nat → nat → R) (n : nat) (HM : linear_model d w data n).
  Local Notation dot := (vdot n).
  Local Notation dv := (dev data n).
  Local Notation eps := (noise d w data n).
  Lemma ordered_exists : ∃ L, ordered d L ∧ ∀ v, v ∈ L ↔ v ∈ gnodes d.
  Proof.
    destruct (topological_ok ord_up d (S (size (gnodes d))) None) as [_ H]; [apply ord_up_ok|simpl; lia| |].
    { intros a Ha. apply (Hac a). eapply tc_mono; [|exact Ha]. intros ? ? H. apply H. }
    apply returns_ok in H as (l & _ & Hnd & Hl & He). simpl in Hl, He. exists (reverse l). split; [|intros v; by rewrite elem_of_reverse, Hl].
    split; [by rewrite reverse_Permutation|]. split; [intros v; by rewrite elem_of_reverse, Hl|].
    intros l1 v l2 E p Hpv. destruct (Hwf _ _ Hpv) as [Hp Hv].
    apply (f_equal reverse) in E. rewrite reverse_involutive, reverse_app, reverse_cons, <-app_assoc in E. simpl in E.
    assert (Spec.before l p v) as (l3 & l4 & l5 & E') by by apply He.
    destruct (decide (p ∈ l2)) as [|Hn]; [done|exfalso].
    assert (p ∈ reverse l1 ∨ p = v) as Hp'.
    { assert (p ∈ l) as Hpl by (by apply Hl). rewrite E in Hpl. rewrite !elem_of_app, elem_of_cons in Hpl. rewrite elem_of_reverse in Hpl. tauto. }
    apply (before_asym' l p v Hnd); [by exists l3, l4, l5|]. destruct Hp' as [Hp'| ->]; [|].
    - apply elem_of_list_split in Hp' as (p1 & p2 & Ep). exists (reverse l2), p1, p2. rewrite E, Ep. done.
    - exfalso. apply (Hac v). by apply tc_once.
  Qed.
  Lemma linear_uncor x y Z : x ∈ gnodes d → y ∈ gnodes d → x ≠ y → (∀ z, z ∈ Z → z ∈ gnodes d ∧ z ≠ x ∧ z ≠ y) → d_separated d x y Z → uncor data n x y Z.
  Proof.
    intros Hx Hy Hne HZ Hs. destruct ordered_exists as (L & HL & Hin).
    apply (linear_conn d Hwf Hac w data n HM L HL); [by apply Hin|by apply Hin|done|by intros (_ & ? & ?)%HZ|by intros (_ & ? & ?)%HZ|intros z (? & _)%HZ; by apply Hin|].
    apply (dsep_conn d Hwf Hac); [done| |done]. by intros (_ & ? & ?)%HZ.
  Qed.
  Lemma linear_partial x y Z r : x ∈ gnodes d → y ∈ gnodes d → x ≠ y → (∀ z, z ∈ Z → z ∈ gnodes d ∧ z ≠ x ∧ z ≠ y) → d_separated d x y Z →
    partial_correlation data n x y Z r → r = 0%R.
  Proof.
    intros Hx Hy Hne HZ Hs (e & f & He & Hf & _ & _ & ->). pose proof (linear_uncor x y Z Hx Hy Hne HZ Hs) as Hu.
    apply residual_parts in He, Hf. unfold cosine. rewrite dot_sym. rewrite <-(resid_dot data n Z (dv x) e f He) by apply Hf.
    rewrite (Hu f Hf). unfold Rdiv. ring.
  Qed.

  Context (HN : noisy d w data n).
  Lemma ordered_indep L : ordered d L → indep data n L.
  Proof.
    induction L as [|v L IH]; intros HL c Hc u Hu; [by apply elem_of_nil in Hu|].
    pose proof (ordered_tail d Hwf Hac w data n HM v L HL) as (HL' & Hv & Hg & Hpa & _). pose proof (noise_orth d Hwf Hac w data n HM v L HL' Hv Hg) as Ho.
    assert (dot (eps v) (dv v) = dot (eps v) (eps v)) as Ev.
    { rewrite (dv_split d w data n), rsum_null; [ring|]. intros p Hp%elem_of_elements. rewrite Ho; [ring|by apply Hpa]. }
    assert (c v = 0%R) as E.
    { assert (dot (λ t, rsum (λ u, c u * dv u t) (v :: L)) (eps v) = 0)%R as E0.
      { transitivity (dot (λ t, 0 * 0)%R (eps v)); [apply dot_ext; [|done]; intros t Ht; rewrite (Hc t Ht); ring|]. rewrite dot_scal. ring. }
      rewrite dot_comb, rsum_cons, rsum_null in E0.
      - rewrite dot_sym, Ev in E0. specialize (HN v Hg). rewrite Rplus_0_r in E0. apply Rmult_integral in E0 as [?|?]; [done|lra].
      - intros u' Hu'. rewrite dot_sym, Ho by done. ring. }
    apply elem_of_cons in Hu as [->|Hu]; [done|]. apply IH; [done| |done]. intros t Ht. pose proof (Hc t Ht) as E'. rewrite rsum_cons, E in E'. lra.
  Qed.
  Lemma noisy_indep idx : NoDup idx → (∀ a, a ∈ idx → a ∈ gnodes d) → indep data n idx.
  Proof.
    intros Hnd Hin. destruct ordered_exists as (L & HL & HLn). apply (indep_sub data n idx L); [done|apply HL|intros u Hu; by apply HLn, Hin|by apply ordered_indep].
  Qed.
  Lemma noisy_regular idx : NoDup idx → (∀ a, a ∈ idx → a ∈ gnodes d) → idx ≠ [] → nonsingular (corrcoef data n) idx ∧ ∀ a, a ∈ idx → not_constant data n a.
  Proof.
    intros Hnd Hin Hne. pose proof (noisy_indep idx Hnd Hin) as HI. assert (∀ a, a ∈ idx → not_constant data n a) as Hv by (intros a Ha; by eapply indep_varying).
    split; [|done]. apply indep_nonsingular; [done..|]. destruct idx as [|a idx]; [done|]. eapply varying_two, Hv. left.
  Qed.

  Context (inv : list nat → option (nat → nat → R)) (cdf : R → R) (V : nset) (HV : V ⊆ gnodes d) (Hinv : inverts_all data n inv V).
  Local Notation stat := (pc_statistic (corrcoef data n) inv cdf n).
  (** a query about distinct nodes of V *)
  Definition qnodes (x y : nat) (zz : list nat) : Prop := x ∈ V ∧ y ∈ V ∧ x ≠ y ∧ NoDup zz ∧ ∀ z, z ∈ zz → z ∈ V ∧ z ≠ x ∧ z ≠ y.
  Lemma linear_statistic x y zz : qnodes x y zz → ∃ r, partial_correlation data n x y zz r ∧ (Rabs r < 1)%R ∧
    stat x y zz = Ok (Fin (two_sided cdf (R_sqrt.sqrt (INR (n - length zz - 3)) * fisher_z r))).
  Proof.
    intros (Hx & Hy & Hne & Hnd & Hz).
    assert (NoDup (x :: y :: zz)) as Hnd'.
    { constructor; [|constructor; [|done]]; [|by intros (_ & _ & ?)%Hz]. intros [?|(_ & ? & _)%Hz]%elem_of_cons; done. }
    assert (∀ a, a ∈ x :: y :: zz → a ∈ V) as Hin by (intros a [->|[->|(? & _)%Hz]%elem_of_cons]%elem_of_cons; done).
    destruct (noisy_regular (x :: y :: zz)) as [Hns Hv]; [done|intros a Ha; by apply HV, Hin|done|].
    pose proof (nonsingular_size data n x y zz Hv Hns) as Hsz.
    destruct (decide (2 ≤ length zz)) as [Hl|Hl].
    - destruct (statistic_ok data n inv cdf x y zz Hnd Hsz Hv) as (r & Hr & Hr1 & E); [|done|by exists r]. apply Hinv; [done..|cbn; lia].
    - pose proof Hns as [N HNi]. destruct (statistic_ok data n (λ _, Some N) cdf x y zz Hnd Hsz Hv) as (r & Hr & Hr1 & E); [done..|]. exists r. split; [done|]. split; [done|].
      rewrite <-E. unfold pc_statistic. destruct zz as [|z [|z' zz]]; [done..|]. cbn in Hl. lia.
  Qed.
  Lemma linear_zero x y zz : qnodes x y zz → d_separated d x y zz → partial_correlation data n x y zz 0 ∧ stat x y zz = Ok (Fin (2 * (1 - cdf 0))).
  Proof.
    intros Hq Hs. destruct (linear_statistic x y zz Hq) as (r & Hr & _ & E). destruct Hq as (Hx & Hy & Hne & Hnd & Hz).
    assert (r = 0%R) as ->.
    { apply (linear_partial x y zz); [by apply HV|by apply HV|done| |done|done]. intros z (? & ? & ?)%Hz. auto. }
    split; [done|]. rewrite E. unfold two_sided. rewrite fisher_0, Rmult_0_r, Rabs_R0. done.
  Qed.
  Context (th : R) (Hth : (th < 2 * (1 - cdf 0))%R) (HF : significant cdf th d V data n).
  Lemma linear_decides x y zz : qnodes x y zz → ∃ v, stat x y zz = Ok v ∧ (ngt v th = true ↔ d_separated d x y zz).
  Proof.
    intros Hq. destruct (linear_statistic x y zz Hq) as (r & Hr & _ & E). eexists. split; [exact E|].
    assert (d_separated d x y zz ∨ ¬ d_separated d x y zz) as [Hs|Hs].
    { destruct Hq as (Hx & Hy & Hne & Hnd & Hz). apply d_separated_dec; [done|done|by apply HV|by apply HV|done|]. intros z (? & ? & ?)%Hz. auto. }
    - destruct (linear_zero x y zz Hq Hs) as [_ E2]. rewrite E2 in E. injection E as <-. cbn [ngt]. by destruct (Rlt_dec _ _).
    - destruct Hq as (Hx & Hy & Hne & Hnd & Hz). specialize (HF x y zz r Hx Hy Hne Hnd Hz Hs Hr). cbn [ngt]. destruct (Rlt_dec _ _); [lra|]. split; done.
  Qed.
  Lemma plain_decides log x y zz : qnodes x y zz → parcorr_test_plain data n inv cdf th log x y zz = true ↔ d_separated d x y zz.
  Proof. intros Hq. destruct (linear_decides x y zz Hq) as (v & E & H). unfold parcorr_test_plain, pc_cond_indep. rewrite E. cbn. done. Qed.
  Lemma plain_perfect m : mag_of d V m → perfect_for m (parcorr_test_plain data n inv cdf th).
  Proof.
    intros M log i j c Hi Hj Hne Hc Hz. rewrite (mo_nodes _ _ _ M) in *. rewrite plain_decides by done. symmetry. by apply (mag_separated d Hwf Hac V m M).
  Qed.
End tests.

(** with the cache *)
Section cached.
  Context (d : graph) (Hwf : wf_graph d) (Hac : acyclic d) (w : nat → nat → R) (data : nat → nat → R) (n nv : nat) (HM : linear_model d w data n).
  Context (Hn : ∀ v, v ∈ gnodes d ↔ v < nv).
  Context (HN : noisy d w data n).
  Context (inv : list nat → option (nat → nat → R)) (cdf : R → R) (Hinv : inverts_all data n inv (gnodes d)).
  Context (th : R) (Hth : (th < 2 * (1 - cdf 0))%R) (HF : significant cdf th d (gnodes d) data n).
  Lemma qvalid_qnodes x y zz : qvalid nv (x, y, zz) ↔ qnodes (gnodes d) x y zz.
  Proof. unfold qvalid, qnodes. cbn [fst snd]. setoid_rewrite Hn. naive_solver. Qed.
  Definition pc_val (k : nset * nset) : num :=
    match elements k.1 with [a; b] => default Nan (pc_calc data n inv cdf a b (elements k.2)) | _ => Nan end.
  Lemma pc_val_ok x y zz : qvalid nv (x, y, zz) → pc_calc data n inv cdf x y zz = Some (pc_val (qkey (x, y, zz))).
  Proof.
    intros Hq%qvalid_qnodes. unfold pc_calc.
    destruct (linear_statistic d Hwf Hac w data n HM HN inv cdf (gnodes d) ltac:(done) Hinv x y zz Hq) as (r & Hr & _ & ->). f_equal.
    destruct Hq as (Hx & Hy & Hne & Hnd & Hz). unfold pc_val, qkey. cbn [fst snd].
    assert (elements (list_to_set zz : nset) ≡ₚ zz) as Pz by (by apply elements_list_to_set).
    assert (∀ x' y', x' = x ∧ y' = y ∨ x' = y ∧ y' = x → Fin (two_sided cdf (R_sqrt.sqrt (INR (n - length zz - 3)) * fisher_z r)) = default Nan (pc_calc data n inv cdf x' y' (elements (list_to_set zz : nset)))) as H.
    { intros x' y' Hxy. assert (qnodes (gnodes d) x' y' (elements (list_to_set zz : nset))) as Hq'.
      { unfold qnodes. split_and!; [naive_solver..|apply NoDup_elements|]. intros z. rewrite Pz. intros (? & ? & ?)%Hz. naive_solver. }
      destruct (linear_statistic d Hwf Hac w data n HM HN inv cdf (gnodes d) ltac:(done) Hinv x' y' _ Hq') as (r' & Hr' & _ & E'). unfold pc_calc. rewrite E'. cbn.
      assert (r = r') as ->; [|by rewrite Pz]. destruct Hxy as [[-> ->]|[-> ->]].
      - apply (partial_unique data n x y zz); [done|]. destruct Hr' as (e & f & He & Hf & ? & ? & ->). exists e, f. split_and!; [by eapply residual_perm..|done|done|done].
      - apply (partial_unique data n x y zz); [done|]. by eapply partial_sym. }
    assert (elements ({[x; y]} : nset) ≡ₚ [x; y]) as Pxy.
    { rewrite elements_union_singleton; [by rewrite elements_singleton|]. set_solver +Hne. }
    destruct (elements ({[x; y]} : nset)) as [|a [|b [|c l]]] eqn:El; try (apply Permutation_length in Pxy; cbn in Pxy; lia).
    apply H. assert (a ∈ [x; y]) as Ha by (rewrite <-Pxy; set_solver +). assert (b ∈ [x; y]) as Hb by (rewrite <-Pxy; set_solver +).
    assert (a ≠ b) by (pose proof (NoDup_elements ({[x; y]} : nset)) as Hd; rewrite El in Hd; apply NoDup_cons in Hd as [Hd _]; set_solver +Hd).
    rewrite elem_of_cons, elem_of_list_singleton in Ha, Hb. naive_solver.
  Qed.
  Lemma cached_decides log x y zz : qvalid nv (x, y, zz) → (∀ q, q ∈ log → qvalid nv q.1) →
    parcorr_test data n nv inv cdf th log x y zz = true ↔ d_separated d x y zz.
  Proof.
    intros Hq Hlog. unfold parcorr_test.
    set (ops := (λ q : query * bool, Query q.1.1.1 q.1.1.2 q.1.2) <$> reverse log).
    assert (Forall (op_valid nv) (ops ++ [Query x y zz])) as Hops.
    { apply Forall_app. split; [|constructor; [exact Hq|constructor]]. apply Forall_forall. intros op Hop. unfold ops in Hop.
      apply elem_of_list_fmap in Hop as ([[[i j] c] b] & -> & Hin). cbn. apply elem_of_reverse, Hlog in Hin. done. }
    pose proof (stat_cached ngt (empty_graph (list_to_set (seq 0 nv))) nv pc_val (λ _, pc_calc data n inv cdf) th _ Hops) as H.
    destruct (stat_run _ _ _ _) as [r| |]; [|by destruct H; intros; apply pc_val_ok..]. cbn [returns] in H. destruct H as [-> _]; [intros; by apply pc_val_ok|].
    assert (∀ l, (∀ op, op ∈ l → ∃ x y zz, op = Query x y zz) → memoryless ngt (empty_graph (list_to_set (seq 0 nv))) pc_val th (l ++ [Query x y zz]) =
      memoryless ngt (empty_graph (list_to_set (seq 0 nv))) pc_val th l ++ [ngt (pc_val (qkey (x, y, zz))) th]) as He.
    { intros l Hl. induction l as [|op l IH].
      - cbn [app memoryless]. rewrite bool_decide_eq_false_2; [done|]. unfold adjacent, edge, empty_graph. cbn. set_solver +.
      - destruct (Hl op) as (x' & y' & zz' & ->); [by left|]. cbn [app memoryless]. f_equal. apply IH. intros op Hop. apply Hl. by right. }
    rewrite He. 2: { intros op Hop. unfold ops in Hop. apply elem_of_list_fmap in Hop as (q & -> & _). eauto. }
    rewrite last_snoc. cbn [default]. pose proof (pc_val_ok x y zz Hq) as E. apply qvalid_qnodes in Hq.
    destruct (linear_decides d Hwf Hac w data n HM HN inv cdf (gnodes d) ltac:(done) Hinv th Hth HF x y zz Hq) as (v & Ev & Hv).
    unfold pc_calc in E. rewrite Ev in E. injection E as <-. done.
  Qed.
End cached.
