(** ICD with a causal order: histories of calls, and orientations with a perfect oracle. *)
From Verif Require Import Base BaseLemmas Paths ModelGraph Spec ProofGraph2 ProofGraph3 ProofDsep ModelMixed SpecMixed ProofMixed ProofMixed2 ProofPDAG ProofPDAG2
  ModelPC SpecPC ProofPC ModelPAG SpecPAG ProofPAG ProofPAG2 ProofPAGU ProofPAGX ModelPDS SpecPDS
  ModelFCI SpecFCI ProofFCI ProofFCI2 ProofFCI3 ProofFCI5 ProofFCI6 ModelOICD SpecOICD ProofOICD ProofOICD2.

(** states reached from the constructor by calls of learn_structure, each with its argument *)
Inductive o_reach (o : order) (ci : citest) (sb tc : bool) (fuel : nat) (ord : list node) (mcs : option nat) (V : nset) (L : bool → Prop) : ostate → Prop :=
  | or_init s : oicd_init o ord mcs V = Ok s → o_reach o ci sb tc fuel ord mcs V L s
  | or_call s loc t : o_reach o ci sb tc fuel ord mcs V L s → L loc → o_learn o ci sb tc fuel ord mcs loc s = Ok t → o_reach o ci sb tc fuel ord mcs V L t.

Section ordered.
  Context (o : order) (Ho : iter_ok o) (ci : citest) (V : nset) (ord : list node).
  Context (Hnd : NoDup ord) (HV : list_to_set ord = V).
  Context (sb tc : bool) (fuel : nat) (Hf : size V * size V + size V + 2 < fuel).
  Context (mcs : option nat) (Hm : ∀ m, mcs = Some m → m + 2 ≤ size V).
  Notation lg s := (ls_log (os_ls s)).
  Notation gr s := (ls_graph (os_ls s)).

  Definition obound (loc : bool) : nat := match mcs with Some m => if loc then m else 1 `max` m | None => 1 `max` (size V - 2) end.

  Lemma o_learn_ok B loc s : oinv ci V ord B s → obound loc ≤ B →
    returns (o_learn o ci sb tc fuel ord mcs loc s) (λ t, oall ci V ord B s t ∧ (∃ u, oinv ci V ord B u ∧ o_orient_graph o sb tc fuel ord false u = Ok t) ∧ forward ord (gr t) ∧
      (fresh_from ord 1 s → ∀ b base, 1 ≤ b → ord !! b = Some base → low ord b base (if loc then bool_decide (1 ≤ lim mcs b) else bool_decide (2 ≤ b)) t)).
  Proof using Hf Ho Hnd HV.
    clear Hm. intros I HB. unfold obound in HB. destruct loc; cbn [o_learn].
    - apply o_learn_local_ok; [done..| |done]. intros b Hb. unfold lim. destruct mcs; lia.
    - apply o_learn_global_ok; [done..| | |done]; destruct mcs; lia.
  Qed.

  Lemma o_reach_inv B (L : bool → Prop) s : (∀ loc, L loc → obound loc ≤ B) → o_reach o ci sb tc fuel ord mcs V L s → oinv ci V ord B s.
  Proof using Hf Ho Hnd HV Hm.
    intros HB. induction 1 as [s E|s loc t _ IH Hl E].
    - pose proof (oicd_init_ok o Ho ci V ord Hnd HV mcs B Hm) as H. rewrite E in H. by destruct H.
    - pose proof (o_learn_ok B loc s IH (HB loc Hl)) as H. rewrite E in H. by destruct H as [[H _] _].
  Qed.

  Lemma oicd_init_returns : returns (oicd_init o ord mcs V) (λ _, True).
  Proof using Ho Hnd HV Hm. eapply returns_mono; [by apply (oicd_init_ok o Ho (λ _ _ _ _, true) V ord Hnd HV mcs 0)|]. done. Qed.

  Theorem oicd_calls (L : bool → Prop) s loc : o_reach o ci sb tc fuel ord mcs V L s →
    returns (o_learn o ci sb tc fuel ord mcs loc s) (λ t, justified ci V (gr t) (ls_sep (os_ls t)) (lg t) ∧ ordered_log ord (lg t) ∧ forward ord (gr t) ∧
      ∀ a b, mg_adj (gr t) a b → mg_adj (gr s) a b).
  Proof using Hf Ho Hnd HV Hm.
    intros H. set (B := obound true `max` obound false). assert (∀ loc, obound loc ≤ B) as HB by (unfold B; intros []; lia).
    pose proof (o_reach_inv B L s (λ loc _, HB loc) H) as I. eapply returns_mono; [by apply (o_learn_ok B loc)|]. cbn beta.
    intros t (A & _ & Fw & _). pose proof (oa_inv _ _ _ _ _ _ A) as It. split; [apply ls_inv_justified, It|]. split; [apply It|]. split; [done|]. apply A.
  Qed.

  Theorem oicd_bounded m (L : bool → Prop) s : mcs = Some m → (L false → 1 ≤ m) → o_reach o ci sb tc fuel ord mcs V L s → max_size m (lg s).
  Proof using Hf Ho Hnd HV Hm.
    intros Em HL H. apply (o_reach_inv m) in H; [apply H|]. intros loc Hl. unfold obound. rewrite Em. destruct loc; [done|]. apply HL in Hl. lia.
  Qed.

  Theorem oicd_low loc s : oicd_init o ord mcs V = Ok s →
    returns (o_learn o ci sb tc fuel ord mcs loc s) (λ t,
      (∀ a b, before ord a b → ∃ q, tested (lg t) a b ∅ q) ∧
      ((∀ m, mcs = Some m → loc = true → 1 ≤ m) → ∀ a b z, before ord a b → before ord z b → a ≠ z → mg_adj (gr t) a b → mg_adj (gr t) z b → tested (lg t) a b {[z]} false)).
  Proof using Hf Ho Hnd HV Hm.
    intros E. set (B := obound true `max` obound false). assert (∀ loc, obound loc ≤ B) as HB by (unfold B; intros []; lia).
    pose proof (oicd_init_ok o Ho ci V ord Hnd HV mcs B Hm) as H. rewrite E in H. destruct H as (I & Hfr & _).
    eapply returns_mono; [by apply (o_learn_ok B loc)|]. cbn beta. intros t (A & _ & _ & Hlow). specialize (Hlow Hfr). split.
    - intros a b Hab. destruct (before_index _ _ _ Hab) as (i & [Hi _] & Hb). destruct (Hlow i b Hi Hb) as [H0 _]. destruct (H0 a Hab) as (q & Hq).
      exists q, []. split; [set_solver +|]. by left.
    - intros Hm1 a b z Hab Hzb Hne Ha Hz. destruct (before_index _ _ _ Hab) as (i & [Hi _] & Hb). destruct (Hlow i b Hi Hb) as [_ H1].
      assert (2 ≤ i) as Hi2.
      { apply (before_take ord i b _ Hnd Hb) in Hab, Hzb. apply elem_of_take in Hab as (j & Hj & ?). apply elem_of_take in Hzb as (k & Hk & ?).
        assert (j ≠ k) by congruence. lia. }
      exists [z]. split; [set_solver +|]. left. apply H1; try done. destruct loc; [|by apply bool_decide_true]. apply bool_decide_true.
      unfold lim. destruct mcs as [m|]; [|lia]. specialize (Hm1 m eq_refl eq_refl). lia.
  Qed.
End ordered.

(** ** a perfect oracle *)
Section sound.
  Context (o : order) (Ho : iter_ok o) (ci : citest) (m : mgraph) (A : ancestral m) (Hci : perfect_for m ci).
  Notation V := (mnodes m).
  Context (ord : list node) (Hnd : NoDup ord) (HV : list_to_set ord = V) (Hfw : forward ord m).
  Context (sb : bool) (fuel : nat) (Hf : size V * size V + size V + 2 < fuel).
  Notation lg s := (ls_log (os_ls s)).
  Notation gr s := (ls_graph (os_ls s)).

  Lemma o_final_sound B s : oinv ci V ord B s → returns (o_orient_graph o sb false fuel ord false s) (λ t, oriented m (os_ls t)).
  Proof using Hf Ho Hnd HV Hfw A Hci.
    intros I. pose proof (oi_ls _ _ _ _ _ I) as Il. destruct (skel_dec ci m (os_ls s) Il) as [Hs|Hs].
    2: { eapply returns_mono; [apply (o_orient_graph_ok o Ho ci V ord Hnd HV sb false fuel false B 0 s I); lia|]. cbn beta.
      intros t (_ & _ & At & _) Ht. destruct Hs. intros a b Hab. by apply Ht, At. }
    pose proof (perfect_separating ci m A Hci _ Il Hs) as HS.
    assert (∀ a b, mg_adj (gr s) a b ↔ mg_adj m a b) as Ha by (intros a b; split; [apply Hs|by eapply perfect_adj]).
    unfold o_orient_graph, ls_orient, o_orient. eapply returns_bind; [eapply returns_bind; [eapply returns_bind; [apply (o_reset_ok V ord Hnd HV); apply Il|]|]|].
    - cbn beta. intros h0 (N0 & W0 & A0 & M0). assert (reflects m h0) as R.
      { split; [done|intros a b; by rewrite A0, Ha|]. intros a k b Hk Hmk. assert (mg_adj (gr s) a b) as Hab by (apply A0; by exists k).
        pose proof (mg_adj_nodes _ _ _ W0 (ex_intro _ k Hmk)) as (Hin1 & Hin2 & Hne). rewrite N0, <-(ord_V V ord HV) in Hin1, Hin2.
        destruct (before_total ord a b Hin1 Hin2 Hne) as [Hb|Hb].
        - apply (M0 a b Hb Hab) in Hmk as ->. apply Hfw; [done|]. by apply Ha.
        - apply mg_adj_sym in Hab; [|apply Il]. apply (M0 b a Hb Hab) in Hmk. done. }
      eapply returns_bind; [unfold orient_base; apply (fci_orient_compat o Ho _ m h0 A W0 R HS); [rewrite N0; lia|intros i Hi; set_unfold; lia]|].
      cbn beta. intros h1 [W1 C1]. apply (rest_compat o Ho ci m A Hci (ls_sep (os_ls s)) sb fuel h1 W1 C1 HS). lia.
    - cbn beta. intros h [_ C]. cbn [returns]. instantiate (1 := λ t, oriented m t). cbn beta. by intros _.
    - cbn beta. intros t Ht. exact Ht.
  Qed.

  Theorem oicd_sound (L : bool → Prop) mcs s loc : (∀ n, mcs = Some n → n + 2 ≤ size V) → o_reach o ci sb false fuel ord mcs V L s →
    returns (o_learn o ci sb false fuel ord mcs loc s) (λ t, (∀ a b, mg_adj m a b → mg_adj (gr t) a b) ∧
      ((∀ a b, mg_adj (gr t) a b → mg_adj m a b) → sound_for m (gr t))).
  Proof using Hf Ho Hnd HV Hfw A Hci.
    intros Hm H. set (B := obound V mcs true `max` obound V mcs false). assert (∀ loc, obound V mcs loc ≤ B) as HB by (unfold B; intros []; lia).
    pose proof (o_reach_inv o Ho ci V ord Hnd HV sb false fuel Hf mcs Hm B L s (λ loc _, HB loc) H) as I.
    eapply returns_mono; [apply (o_learn_ok o Ho ci V ord Hnd HV sb false fuel Hf mcs B loc s I (HB loc))|]. cbn beta.
    intros t (Al & (u & Iu & Eu) & _). pose proof (oi_ls _ _ _ _ _ (oa_inv _ _ _ _ _ _ Al)) as It.
    split; [intros a b; by eapply perfect_adj|]. apply (oriented_sound ci m A _ It).
    pose proof (o_final_sound B u Iu) as Hs. rewrite Eu in Hs. exact Hs.
  Qed.
End sound.

(** ** A superfluous edge: 5, 6 and 7 are latent; 0 and 4 are separated by 1, 2 and 3, but the tree of the later node 4
    reaches 2 through the superfluous edge 4 - 0 and misses the branch 4, 1, 3, 2 *)
Definition dO : graph := mk_graph (seq 0 8) [(1,0);(2,3);(3,0);(5,0);(5,2);(6,1);(6,3);(7,1);(7,4)].
Definition VO : nset := list_to_set (seq 0 5).
Definition oO : list node := [2;3;1;0;4].
Lemma dO_wf : wf_graph dO.
Proof. apply mk_graph_wf. by vm_compute. Qed.
Lemma dO_acyclic : acyclic dO.
Proof. apply mk_graph_acyclic; by vm_compute. Qed.
Lemma VO_sub : VO ⊆ gnodes dO.
Proof. apply (bool_decide_unpack _). by vm_compute. Qed.
Definition rankO (x : node) : nat := match x with 0 => 4 | 1 => 3 | 2 => 1 | 3 => 2 | 4 => 5 | _ => 0 end.
Lemma dO_rank a b : tc (edge dO) a b → rankO a < rankO b.
Proof.
  assert (∀ a b, edge dO a b → rankO a < rankO b) as H.
  { intros x y Hxy. apply mk_graph_edge in Hxy. revert x y Hxy.
    assert (Forall (λ e, rankO e.1 < rankO e.2) [(1,0);(2,3);(3,0);(5,0);(5,2);(6,1);(6,3);(7,1);(7,4)]) as HF by (apply (bool_decide_unpack _); by vm_compute).
    rewrite Forall_forall in HF. intros x y Hxy. apply (HF (x, y)), Hxy. }
  induction 1 as [x y Hxy|x y z Hxy _ IH]; [by apply H|]. apply H in Hxy. lia.
Qed.
Lemma oO_causal a b : before oO a b → ¬ ancestor dO b a.
Proof.
  assert (NoDup oO) as Hnd by (apply (bool_decide_unpack _); by vm_compute).
  intros Hab [->|Ht%dO_rank]%rtc_tc; [by apply before_ne in Hab|].
  apply elem_causal_pairs in Hab; [|done]. revert Ht. assert (Forall (λ e, ¬ rankO e.2 < rankO e.1) (causal_pairs oO)) as HF by (apply (bool_decide_unpack _); by vm_compute).
  rewrite Forall_forall in HF. apply (HF (a, b) Hab).
Qed.
Definition runO (loc : bool) : res ostate := s ← oicd_init ord_up oO None VO; o_learn ord_up (dsep_ci ord_up 10 dO) true true 60 oO None loc s.
Lemma dO_run loc : match runO loc with Ok s => bool_decide (0 ∈ find_adj PAG_T (ls_graph (os_ls s)) 4 None None) | _ => false end = true.
Proof. destruct loc; vm_cast_no_check (eq_refl true). Qed.
Lemma dO_sep : d_separated dO 0 4 [1;2;3].
Proof.
  assert (returns (dsep ord_up 10 dO 0 4 [1;2;3]) (λ b, b = true ↔ d_separated dO 0 4 [1;2;3])) as H.
  { apply dsep_spec; [apply ord_up_ok|apply dO_wf|apply dO_acyclic|by apply (bool_decide_unpack _); vm_compute..| | |].
    - intros z Hz. apply VO_sub. revert z Hz. apply Forall_forall. apply (bool_decide_unpack _). by vm_compute.
    - done.
    - apply (bool_decide_unpack _). by vm_compute. }
  assert (dsep ord_up 10 dO 0 4 [1;2;3] = Ok true) as E by by vm_compute. rewrite E in H. by apply H.
Qed.

Theorem oicd_superfluous : ∀ loc, ∃ o d fuel V ord a b Z, iter_ok o ∧ wf_graph d ∧ acyclic d ∧ V ⊆ gnodes d ∧ size (gnodes d) < fuel ∧
  NoDup ord ∧ list_to_set ord = V ∧ (∀ x y, before ord x y → ¬ ancestor d y x) ∧
  a ∈ V ∧ b ∈ V ∧ Z ⊆ V ∖ {[a; b]} ∧ d_separated d a b (elements Z) ∧
  ∃ fuel', size V * size V + size V + 2 < fuel' ∧
    returns (s ← oicd_init o ord None V; o_learn o (dsep_ci o fuel d) true true fuel' ord None loc s) (λ s, mg_adj (ls_graph (os_ls s)) a b).
Proof.
  intros loc. exists ord_up, dO, 10, VO, oO, 0, 4, {[1;2;3]}. split; [apply ord_up_ok|]. split; [apply dO_wf|]. split; [apply dO_acyclic|]. split; [apply VO_sub|].
  split; [vm_compute; lia|]. split; [apply (bool_decide_unpack _); by vm_compute|]. split; [apply (bool_decide_unpack _); by vm_compute|].
  split; [intros x y Hxy; by apply oO_causal|]. split; [apply (bool_decide_unpack _); by vm_compute|]. split; [apply (bool_decide_unpack _); by vm_compute|].
  split; [apply (bool_decide_unpack _); by vm_compute|]. split.
  { apply (d_separated_set dO 0 4 [1;2;3]); [|apply dO_sep]. intros z. rewrite elem_of_elements. set_solver +. }
  exists 60. split; [vm_compute; lia|]. pose proof (dO_run loc) as H. unfold runO in H.
  destruct (oicd_init ord_up oO None VO ≫= _) as [s| |]; [|done..]. cbn [returns]. apply bool_decide_eq_true in H. by apply elem_find_adj_pag in H as [H _].
Qed.

(** ** a query with more conditioning nodes than max_cond_size *)
Definition runU : res ostate := s ← oicd_init ord_up [0;1;2] (Some 0) (list_to_set [0;1;2]); o_learn ord_up (λ _ _ _ _, false) true true 20 [0;1;2] (Some 0) false s.
Lemma runU_log : match runU with Ok s => bool_decide ((0, 2, [1], false) ∈ ls_log (os_ls s)) | _ => false end = true.
Proof. by vm_compute. Qed.
Theorem oicd_unbounded : ∃ o ci V ord fuel m s, iter_ok o ∧ NoDup ord ∧ list_to_set ord = V ∧ size V * size V + size V + 2 < fuel ∧ m + 2 ≤ size V ∧
  o_reach o ci true true fuel ord (Some m) V (λ loc, loc = false) s ∧ ¬ max_size m (ls_log (os_ls s)).
Proof.
  pose proof runU_log as H. unfold runU in H. destruct (oicd_init ord_up [0;1;2] (Some 0) (list_to_set [0;1;2])) as [s0| |] eqn:E0; [|done..]. cbn [mbind res_bind] in H.
  destruct (o_learn ord_up (λ _ _ _ _, false) true true 20 [0;1;2] (Some 0) false s0) as [s| |] eqn:E; [|done..].
  exists ord_up, (λ _ _ _ _, false), (list_to_set [0;1;2]), [0;1;2], 20, 0, s. split; [apply ord_up_ok|]. split; [apply (bool_decide_unpack _); by vm_compute|].
  split; [done|]. split; [vm_compute; lia|]. split; [vm_compute; lia|]. split; [eapply or_call; [by apply or_init|done|exact E]|].
  intros HM. apply bool_decide_eq_true in H. apply HM in H. cbn [length] in H. lia.
Qed.
