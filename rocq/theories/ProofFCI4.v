(** ICD runs to completion; FCI and ICD with a perfect oracle. *)
From Verif Require Import Base BaseLemmas Paths ModelGraph Spec ProofGraph2 ModelMixed SpecMixed ProofMixed ProofMixed2 ProofPDAG ProofPDAG2 ProofPDAG3
  ModelPC SpecPC ProofPC ProofPC2 ModelPAG SpecPAG ProofPAG ModelPDS SpecPDS ModelFCI SpecFCI ProofFCI ProofFCI2 ProofFCI3 ProofDsep.

Definition bounded_log (n : nat) (log : clog) : Prop := ∀ i j c b, (i, j, c, b) ∈ log → length c < n.

Lemma growing_cons i j c b log : growing log → (∀ i' j' c' b', (i', j', c', b') ∈ log → length c' ≤ length c) → growing ((i, j, c, b) :: log).
Proof.
  intros Hg H l1 i1 j1 c1 b1 l2 i2 j2 c2 b2 l3 E. destruct l1 as [|e l1].
  - injection E as <- <- <- <- E. apply (H i2 j2 c2 b2). rewrite E. apply elem_of_app. right. apply elem_of_list_here.
  - injection E as _ E. by eapply Hg.
Qed.
Lemma growing_asks n log log' q : bounded_log n log → growing log → asks n log log' q → growing log' ∧ bounded_log (S n) log'.
Proof.
  intros Hb Hg (l & -> & Hsz & _). clear q. induction l as [|[[[i j] c] b] l IH].
  - split; [done|]. intros i j c b H. apply Hb in H. lia.
  - destruct IH as [IH1 IH2]; [intros i' j' c' b' H; apply (Hsz i' j' c' b'); by apply elem_of_list_further|].
    assert (length c = n) as Hc by (apply (Hsz i j c b), elem_of_list_here). split.
    + apply growing_cons; [done|]. intros i' j' c' b' H. apply IH2 in H. lia.
    + intros i' j' c' b' [H|H]%elem_of_cons; [simplify_eq; lia|by apply IH2 in H].
Qed.

Lemma cond_size (V : nset) i j c : i ∈ V → j ∈ V → i ≠ j → NoDup c → (∀ z, z ∈ c → z ∈ V ∧ z ≠ i ∧ z ≠ j) → length c + 2 ≤ size V.
Proof.
  intros Hi Hj Hne Hnd Hc. assert (size (list_to_set c ∪ {[i; j]} : nset) ≤ size V) as H.
  { apply subseteq_size. intros z. rewrite elem_of_union, elem_of_list_to_set, elem_of_union, !elem_of_singleton.
    intros [Hz%Hc|[-> | ->]]; [tauto|done|done]. }
  rewrite size_union, size_list_to_set, size_union, !size_singleton in H; [lia|set_solver +Hne|done|].
  intros z Hz Hz'. apply elem_of_list_to_set, Hc in Hz. set_solver +Hz Hz'.
Qed.

Section ordered.
  Context (o : order) (Ho : iter_ok o) (ci : citest) (V : nset).

  Record icd_inv (s : icd_state) : Prop := {
    ii_inv : ls_inv ci V (ic_ls s);
    ii_low : low_order V (ic_size s) (ic_ls s);
    ii_grow : growing (ls_log (ic_ls s));
    ii_bound : bounded_log (ic_size s) (ls_log (ic_ls s));
  }.

  Lemma icd_init_inv : icd_inv (icd_init o V).
  Proof.
    constructor; cbn [icd_init ic_ls ic_size ls_log ls_init].
    - by apply ls_init_inv.
    - split; lia.
    - intros l1 ? ? ? ? l2 ? ? ? ? l3 E. by destruct l1.
    - intros ???? H. by apply elem_of_nil in H.
  Qed.

  Lemma icd_iteration_inv sb tc fuel precalc s : ic_done s = false → icd_inv s → size V * size V + size V + 2 < fuel →
    returns (icd_iteration o ci sb tc fuel precalc s) (λ r, icd_inv r.1 ∧ ls_le (ic_ls s) (ic_ls r.1) ∧
      ic_size r.1 = S (ic_size s) ∧ r.2 = (ic_done r.1, ic_size s) ∧
      (∃ q, asks (ic_size s) (ls_log (ic_ls s)) (ls_log (ic_ls r.1)) q) ∧
      (ic_size s = 0 → ic_done r.1 = false) ∧
      (ic_done r.1 = false → S (ic_size s) < 2 `max` size V)).
  Proof.
    intros Hd I Hf. eapply returns_mono; [apply icd_iteration_ok; [done|done|apply I|apply I|done]|]. cbn beta.
    intros [t [d n]] (It & Hle & Hlow & Hsz & Hr & q & Ha & H0 & H1). cbn [fst snd] in *.
    destruct (growing_asks _ _ _ _ (ii_bound _ I) (ii_grow _ I) Ha) as [Hg Hb].
    split; [constructor; [done|done|done|by rewrite Hsz]|]. split; [done|]. split; [done|]. split; [done|]. split; [by exists q|]. split; [done|].
    intros Hdt. destruct (ic_size s) as [|r] eqn:Er; [lia|]. assert (q = true) as -> by (rewrite H1; [by rewrite Hdt|lia]).
    destruct Ha as (l & El & Hl & Hne). assert (l ≠ []) as Hne' by by apply Hne. destruct l as [|[[[i j] c] b] l]; [done|].
    assert (length c = S r) as Hc by (apply (Hl i j c b), elem_of_list_here).
    assert ((i, j, c, b) ∈ ls_log (ic_ls t)) as Hin by (rewrite El; apply elem_of_list_here).
    apply (li_log _ _ _ It) in Hin as (Hi & Hj & Hij & Hnd & Hz). pose proof (cond_size V i j c Hi Hj Hij Hnd Hz). lia.
  Qed.

  Lemma icd_loop_ok sb tc fuel precalc : size V * size V + size V + 2 < fuel → ∀ n s, ic_done s = false → icd_inv s →
    ic_size s < 2 `max` size V → 2 `max` size V ≤ n + ic_size s →
    returns (icd_loop o ci sb tc fuel precalc n s) (λ t, icd_inv t ∧ ic_done t = true ∧ ls_le (ic_ls s) (ic_ls t) ∧
      ic_size s < ic_size t ≤ 2 `max` size V ∧ (ic_size s = 0 → 2 ≤ ic_size t)).
  Proof.
    intros Hf n. induction n as [|n IH]; intros s Hd I Hr Hn; [lia|]. cbn [icd_loop].
    eapply returns_bind; [by apply icd_iteration_inv|]. cbn beta. intros [t [d m]] (It & Hle & Hsz & Hr' & _ & Hd0 & Hmore). cbn [fst snd] in *.
    injection Hr' as -> ->. destruct (ic_done t) eqn:Edt.
    - cbn [returns]. split; [done|]. split; [done|]. split; [done|]. split; [lia|]. intros E0. by specialize (Hd0 E0).
    - eapply returns_mono; [apply IH; [done|done|rewrite Hsz; by apply Hmore|lia]|]. cbn beta. intros u (Iu & Hdu & Hleu & Hru & _).
      split; [done|]. split; [done|]. split; [intros a b H; by apply Hle, Hleu|]. lia.
  Qed.

  Theorem icd_learn_ok sb tc fuel precalc : size V * size V + size V + 2 < fuel →
    returns (icd_learn o ci sb tc fuel precalc (icd_init o V)) (λ t, icd_inv t ∧ ic_done t = true ∧ 2 ≤ ic_size t ≤ 2 `max` size V).
  Proof.
    intros Hf. unfold icd_learn. change (IcdState _ _ false 0) with (icd_init o V).
    assert (size V ≤ size V * size V) by (destruct (size V); lia).
    eapply returns_mono; [apply icd_loop_ok; [done|done|apply icd_init_inv|cbn; lia|cbn; lia]|]. cbn beta.
    intros t (It & Hd & _ & Hr & H0). split; [done|]. split; [done|]. split; [by apply H0|apply Hr].
  Qed.
End ordered.

(** ** with the d-separation oracle of a DAG that may have further (latent) nodes *)
Section oracle.
  Context (d : graph) (Hwf : wf_graph d) (Hac : acyclic d).
  Context (o' : order) (Ho' : iter_ok o') (fuel' : nat) (Hf' : size (gnodes d) < fuel').
  Context (V : nset) (HV : V ⊆ gnodes d).
  Context (g : mgraph) (sep : sepset) (log : clog) (J : justified (dsep_ci o' fuel' d) V g sep log).

  Lemma justified_log i j c b : (i, j, c, b) ∈ log → b = true ↔ d_separated d i j c.
  Proof.
    intros Hin. pose proof (ju_log _ _ _ _ _ J _ _ _ _ Hin) as (Hi & Hj & Hne & _ & Hc).
    apply elem_of_list_split in Hin as (l1 & l2 & Hl). apply (ju_honest _ _ _ _ _ J) in Hl as ->.
    unfold dsep_ci.
    assert (returns (dsep o' fuel' d i j c) (λ b, b = true ↔ d_separated d i j c)) as H.
    { apply dsep_spec; auto; [intros z ?%Hc; apply HV; tauto|]. intros Hj'. apply Hc in Hj'. tauto. }
    apply returns_ok in H as (b' & -> & H). done.
  Qed.

  Lemma justified_tested x y S b : tested log x y S b → (b = true ↔ d_separated d x y (elements S)) ∧ S ⊆ V ∖ {[x; y]}.
  Proof.
    intros (c & Hc & H). assert (∀ z, z ∈ c ↔ z ∈ elements S) as Hc' by (intros z; by rewrite elem_of_elements).
    split.
    - rewrite <-(d_separated_set d x y c (elements S)) by done.
      destruct H as [H|H]; apply justified_log in H; rewrite H; [done|]. split; apply d_separated_sym.
    - intros z Hz%Hc. destruct H as [H|H]; apply (ju_log _ _ _ _ _ J) in H as (_ & _ & _ & _ & Hin); destruct (Hin z Hz) as (? & ? & ?); set_solver.
  Qed.

  Lemma inseparable_adjacent a b : a ∈ V → b ∈ V → a ≠ b → (∀ S : nset, S ⊆ V ∖ {[a; b]} → ¬ d_separated d a b (elements S)) → mg_adj g a b.
  Proof.
    intros Ha Hb Hne H. apply (ju_adj _ _ _ _ _ J); [done..|]. intros S HT. destruct (justified_tested _ _ _ _ HT) as [H1 H2].
    apply (H S H2). by apply H1.
  Qed.
  Lemma recorded_separates a b : a ∈ V → b ∈ V → a ≠ b → ¬ mg_adj g a b →
    ∃ S, sep_get sep a b = Ok S ∧ S ⊆ V ∖ {[a; b]} ∧ d_separated d a b (elements S).
  Proof.
    intros Ha Hb Hne H. destruct (ju_sep _ _ _ _ _ J a b Ha Hb Hne H) as (S & HS & HT). exists S. split; [done|].
    destruct (justified_tested _ _ _ _ HT) as [H1 H2]. split; [done|]. by apply H1.
  Qed.
End oracle.

Theorem fci_no_latents o o' fuel fuel' d sb tc : iter_ok o → iter_ok o' → wf_graph d → acyclic d →
  let V := gnodes d in size V * size V + size V + 2 < fuel → size V < fuel' →
  returns (fci_learn o (dsep_ci o' fuel' d) sb tc fuel V) (λ r, (∀ a b, mg_adj (ls_graph r.1) a b ↔ adjacent d a b) ∧ r.2 = false).
Proof.
  intros Ho Ho' Hwf Hac V Hf Hf'. eapply returns_mono; [apply (fci_learn_ok o Ho (dsep_ci o' fuel' d) V sb tc fuel Hf)|]. cbn beta.
  intros [s q] (I & p & h & Hp & Hd & _ & _ & _ & Hh & Hle & Hq & _). cbn [fst snd] in *.
  pose proof (ls_inv_justified _ _ _ I) as J. pose proof (oracle_skeleton d Hwf Hac o' Ho' fuel' Hf' p Hp Hd) as Hsk.
  assert (∀ a b, adjacent d a b → mg_adj (ls_graph s) a b) as H1.
  { intros a b Hab. assert (a ∈ V ∧ b ∈ V) as [Ha Hb] by (destruct Hab as [H|H]; apply Hwf in H; tauto).
    eapply (inseparable_adjacent d Hwf Hac o' Ho' fuel' Hf' V); [done|exact J|done|done|by eapply adj_ne|].
    intros S _. apply adjacent_not_dsep; [by eapply ProofPDAG2.adj_ne|done]. }
  assert (∀ a b, mg_adj (ls_graph s) a b ↔ adjacent d a b) as H2.
  { intros a b. split; [|apply H1]. intros H%Hle. by apply Hsk, Hh. }
  split; [done|]. destruct q; [|done]. destruct (proj1 Hq eq_refl) as (a & b & H & H'). destruct H'. by apply H1, Hsk, Hh.
Qed.
