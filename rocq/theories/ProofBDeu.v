(** Proofs about the BDeu score. *)
From Coq Require Import QArith Reals Lra.
From Verif Require Import Base BaseLemmas ModelGraph Spec ModelMixed SpecMixed ProofGraph2 ProofMixed ProofMixed2 ProofPDAG3 ModelData SpecData ProofData ModelCMI SpecCMI ProofCMI ModelBDeu SpecBDeu.
Local Open Scope nat_scope.

(** ** configurations *)
Lemma configs_elem vs c : c ∈ configs vs ↔ config vs c.
Proof.
  revert c. induction vs as [|s vs IH]; intros c; cbn [configs].
  - rewrite elem_of_list_singleton. split; [intros ->; constructor|]. intros H. by inversion H.
  - rewrite elem_of_list_bind. split.
    + intros (a & Ha & Hs). apply elem_of_seq in Hs. apply elem_of_list_fmap in Ha as (c' & -> & Hc'). constructor; [lia|]. by apply IH.
    + intros H. inversion H as [|a ? c' ? Ha Hc]; subst. exists a. split; [|apply elem_of_seq; lia]. apply elem_of_list_fmap_1. by apply IH.
Qed.
Lemma configs_nodup vs : NoDup (configs vs).
Proof.
  induction vs as [|s vs IH]; cbn [configs]; [apply NoDup_singleton|].
  assert (∀ l : list nat, NoDup l → NoDup (l ≫= λ a, (λ c, a :: c) <$> configs vs)) as H; [|apply H, NoDup_seq].
  induction l as [|a l IHl]; intros Hl; [constructor|]. apply NoDup_cons in Hl as [Ha Hl]. rewrite bind_cons. apply NoDup_app. split_and!.
  - apply NoDup_fmap_2; [|done]. by intros ? ? [= ->].
  - intros c Hc Hb. apply elem_of_list_fmap in Hc as (c' & -> & _). apply elem_of_list_bind in Hb as (b & Hb & Hbl).
    apply elem_of_list_fmap in Hb as (c2 & [= -> ->] & _). done.
  - by apply IHl.
Qed.
Lemma rsum_permutation {A} (F : A → R) (l l' : list A) : l ≡ₚ l' → rsum F l = rsum F l'.
Proof. induction 1; rewrite ?rsum_cons in *; [done|congruence|lra|congruence]. Qed.
Lemma rsum_configs (G : nat → R) vs : rsum G (seq 0 (n_configs vs)) = rsum (λ c, G (f_index vs c)) (configs vs).
Proof.
  rewrite <-(rsum_fmap G (f_index vs)). apply rsum_permutation. apply NoDup_Permutation.
  - apply NoDup_seq.
  - apply NoDup_fmap_2_strong; [|apply configs_nodup]. intros c d Hc%configs_elem Hd%configs_elem. by apply f_index_inj.
  - intros k. rewrite elem_of_seq, elem_of_list_fmap. split.
    + intros Hk. destruct (f_index_surj vs k) as (c & Hc & <-); [lia|]. exists c. split; [done|]. by apply configs_elem.
    + intros (c & -> & Hc%configs_elem). apply f_index_lt in Hc. lia.
Qed.
Lemma rsum_app {A} (F : A → R) (l l' : list A) : rsum F (l ++ l') = (rsum F l + rsum F l')%R.
Proof. induction l as [|a l IH]; [unfold rsum at 2; simpl; lra|]. rewrite <-app_comm_cons, !rsum_cons, IH. lra. Qed.
Lemma rsum_configs_cons (G : list nat → R) s vs : rsum G (configs (s :: vs)) = rsum (λ a, rsum (λ c, G (a :: c)) (configs vs)) (seq 0 s).
Proof.
  cbn [configs]. generalize (seq 0 s). intros l. induction l as [|a l IH]; [done|]. rewrite bind_cons, rsum_app, rsum_cons, IH. f_equal. apply rsum_fmap.
Qed.

(** ** sums over the configurations of a set of variables do not depend on their order *)
Lemma occurs_cons data x l a c : occurs data (x :: l) (a :: c) = occurs (filter (λ r : list nat, r !!! x = a) data) l c.
Proof.
  unfold occurs. rewrite list_filter_filter. f_equal. apply list_filter_iff. intros r. unfold proj. rewrite fmap_cons. split.
  - by intros [= -> ->].
  - by intros [-> ->].
Qed.
Definition csum (G : nat → R) (card : nat → nat) (data : list (list nat)) (l : list nat) : R :=
  rsum (λ c, G (occurs data l c)) (configs (card <$> l)).
Lemma csum_cons G card data x l : csum G card data (x :: l) = rsum (λ a, csum G card (filter (λ r : list nat, r !!! x = a) data) l) (seq 0 (card x)).
Proof.
  unfold csum. rewrite fmap_cons, rsum_configs_cons. apply rsum_ext. intros a _. apply rsum_ext. intros c _. by rewrite occurs_cons.
Qed.
Lemma csum_perm G card l l' : l ≡ₚ l' → ∀ data, csum G card data l = csum G card data l'.
Proof.
  induction 1 as [|x l l' _ IH|x y l|l1 l2 l3 _ IH1 _ IH2]; intros data.
  - done.
  - rewrite !csum_cons. apply rsum_ext. intros a _. apply IH.
  - rewrite !csum_cons. etransitivity; [|symmetry]; (etransitivity; [apply rsum_ext; intros a _; apply csum_cons|]); [reflexivity|].
    rewrite rsum_swap. apply rsum_ext. intros b _. apply rsum_ext. intros a _. f_equal. rewrite !list_filter_filter. apply list_filter_iff. intros r. tauto.
  - by rewrite IH1.
Qed.
Lemma n_configs_perm card (l l' : list nat) : l ≡ₚ l' → n_configs (card <$> l) = n_configs (card <$> l').
Proof.
  induction 1 as [|x l l' _ IH|x y l|l1 l2 l3 _ IH1 _ IH2]; [done| | |congruence]; rewrite !fmap_cons; unfold n_configs in *; cbn [foldr]; [by rewrite IH|lia].
Qed.

Section family.
Context (gl : R → R) (data : list (list nat)) (card : nat → nat).
(** the part of the score that belongs to a set of variables *)
Definition fscore (l : list nat) : R :=
  let m := (1 / INR (n_configs (card <$> l)))%R in csum (λ k, gl (m + INR k) - gl m)%R card data l.
Lemma fscore_perm l l' : l ≡ₚ l' → fscore l = fscore l'.
Proof. intros P. unfold fscore. rewrite (n_configs_perm card _ _ P). by apply csum_perm. Qed.
Lemma family_parts ps v : bdeu_family gl data card ps v = (fscore (v :: ps) - fscore ps)%R.
Proof.
  unfold bdeu_family, fscore, csum. rewrite fmap_cons, rsum_configs_cons, rsum_swap, <-rsum_minus. apply rsum_ext. intros c _.
  assert (INR (n_configs (card v :: (card <$> ps))) = INR (n_configs (card <$> ps)) * INR (card v))%R as ->.
  { rewrite <-mult_INR. f_equal. unfold n_configs. simpl. lia. }
  lra.
Qed.
Lemma family_perm ps ps' v : ps ≡ₚ ps' → bdeu_family gl data card ps v = bdeu_family gl data card ps' v.
Proof. intros P. rewrite !family_parts. f_equal; apply fscore_perm; [by constructor|done]. Qed.
End family.

(** ** the model computes the score *)
Lemma f_index_snoc vs c s k : length c = length vs → f_index (vs ++ [s]) (c ++ [k]) = f_index vs c + n_configs vs * k.
Proof.
  revert c. induction vs as [|x vs IH]; intros [|a c] Hl; try done; [unfold n_configs; simpl; lia|]. injection Hl as Hl. simpl. rewrite IH by done. unfold n_configs. simpl. lia.
Qed.
Lemma rsum_const (c : R) m s : rsum (λ _, c) (seq s m) = (c * INR m)%R.
Proof. revert s. induction m as [|m IH]; intros s; [unfold rsum; simpl; lra|]. change (seq s (S m)) with (s :: seq (S s) m). rewrite rsum_cons, IH, S_INR. lra. Qed.
Lemma rsum_INR {A} (F : A → nat) (l : list A) : rsum (λ a, INR (F a)) l = INR (sum_list (F <$> l)).
Proof. induction l as [|a l IH]; [done|]. rewrite rsum_cons, IH. simpl. by rewrite plus_INR. Qed.
Lemma sum_occurs (data : list (list nat)) v ps c (m : nat) : Forall (λ r : list nat, r !!! v < m) data →
  sum_list ((λ k, occurs data (v :: ps) (k :: c)) <$> seq 0 m) = occurs data ps c.
Proof.
  intros H. induction H as [|r data Hr H IH].
  - unfold occurs. simpl. induction (seq 0 m) as [|k l IHl]; [done|]. simpl. done.
  - assert (∀ l vals, occurs (r :: data) l vals = (if decide (proj l r = vals) then 1 else 0) + occurs data l vals) as E.
    { intros l vals. unfold occurs. rewrite filter_cons. by destruct (decide (proj l r = vals)). }
    rewrite E, <-IH. 
    assert (∀ l : list nat, NoDup l → sum_list ((λ k, occurs (r :: data) (v :: ps) (k :: c)) <$> l) =
      (if decide (proj ps r = c ∧ r !!! v ∈ l) then 1 else 0) + sum_list ((λ k, occurs data (v :: ps) (k :: c)) <$> l)) as Hs.
    { induction l as [|k l IHl]; intros Hl.
      - simpl. rewrite decide_False; [done|]. intros [_ Hv]. by apply elem_of_nil in Hv.
      - apply NoDup_cons in Hl as [Hk Hl]. rewrite !fmap_cons. change (sum_list (?x :: ?l)) with (x + sum_list l). rewrite E, IHl by done.
        change (proj (v :: ps) r) with (r !!! v :: proj ps r).
        destruct (decide (proj ps r = c)) as [Ec|Ec], (decide (r !!! v = k)) as [Ek|Ek], (decide (r !!! v ∈ l)) as [El|El]; subst; try done;
          repeat case_decide; try lia; exfalso; rewrite ?elem_of_cons in *; naive_solver. }
    rewrite Hs by apply NoDup_seq. f_equal. assert (r !!! v ∈ seq 0 m) as Hv by (apply elem_of_seq; lia).
    repeat case_decide; tauto.
Qed.

Section node.
Context (gl : R → R) (data : list (list nat)) (ns : list nat).
Context (Hd : dataset data ns).
Local Notation card := (λ v, ns !!! v).

Lemma data_lt v : v < length ns → Forall (λ r : list nat, r !!! v < ns !!! v) data.
Proof.
  intros Hv. destruct Hd as [H _]. eapply Forall_impl; [exact H|]. intros r Hr. unfold config in Hr. rewrite Forall2_lookup in Hr.
  specialize (Hr v). rewrite (list_lookup_lookup_total_lt ns v Hv) in Hr. inversion Hr as [a b Hab E1 E2|]. subst.
  by rewrite (list_lookup_total_correct r v a) by done.
Qed.
Lemma card_pos v : v < length ns → 0 < ns !!! v.
Proof. intros Hv. destruct Hd as [_ H]. rewrite Forall_lookup in H. apply (H v). by apply list_lookup_lookup_total_lt. Qed.
Lemma n_configs_pos l : Forall (λ v, v < length ns) l → 0 < n_configs ((λ v, ns !!! v) <$> l).
Proof. induction 1 as [|v l Hv _ IH]; [unfold n_configs; simpl; lia|]. pose proof (card_pos v Hv). rewrite fmap_cons. unfold n_configs in *. cbn [foldr]. by apply Nat.mul_pos_pos. Qed.
Lemma columns_occurs vars c : n_records (columns data vars) c = occurs data vars c.
Proof.
  unfold n_records, occurs, columns. clear Hd. induction data as [|r l IH]; [done|]. rewrite fmap_cons, !filter_cons. unfold proj. 
  destruct (decide ((λ v, r !!! v) <$> vars = c)); simpl; by rewrite IH.
Qed.
Lemma occurs_snoc v ps c k : occurs data (ps ++ [v]) (c ++ [k]) = occurs data (v :: ps) (k :: c).
Proof.
  unfold occurs. f_equal. apply list_filter_iff. intros r. unfold proj. rewrite fmap_app, fmap_cons. simpl. split.
  - intros [H1 H2]%app_inj_tail. by rewrite <-H1, <-H2.
  - intros [= H1 H2]. by rewrite <-H1, <-H2.
Qed.
Lemma score_node_ok o g n : iter_ok o → wf_graph g → n ∈ gnodes g → (∀ v, v ∈ gnodes g → v < length ns) →
  score_node o gl g data ns n = Ok (bdeu_family gl data card (elements (gadj g n)) n).
Proof.
  intros Ho Hw Hn HV. unfold score_node. rewrite decide_True by done. set (ps := o 120 (parents g n)).
  assert (ps ≡ₚ elements (gadj g n)) as Pps by (apply Ho).
  assert (Forall (λ v, v < length ns) (ps ++ [n])) as Hvars.
  { apply Forall_app. split; [|by repeat constructor; apply HV]. apply Forall_forall. intros v Hv. apply HV. rewrite Pps in Hv.
    apply elem_of_elements in Hv. by apply (Hw v n). }
  unfold sizes. rewrite decide_True by done. cbn [mbind res_bind]. rewrite fmap_app. cbn [fmap list_fmap].
  set (vs := (λ v, ns !!! v) <$> ps). set (r := ns !!! n).
  assert (0 < r) as Hr by (apply card_pos; by apply HV).
  assert (Forall (config (vs ++ [r])) (columns data (ps ++ [n]))) as Hcol.
  { unfold columns. apply Forall_fmap. apply Forall_forall. intros rc Hrc.
    pose proof (columns_config data ns (ps ++ [n]) (proj1 Hd) Hvars rc Hrc) as H. by rewrite fmap_app in H. }
  pose proof (stats_ok (columns data (ps ++ [n])) (vs ++ [r]) ltac:(by destruct vs) Hcol) as Hs.
  destruct (calc_stats (columns data (ps ++ [n])) (vs ++ [r])) as [h| |]; [|done..]. destruct Hs as (Hlen & Hcell & _). cbn [mbind res_bind].
  rewrite last_snoc. rewrite Hlen, n_configs_snoc, Nat.mod_mul by lia. rewrite decide_True by (split; lia). rewrite Nat.div_mul by lia.
  f_equal. rewrite <-(family_perm gl data card _ _ n Pps). unfold score_family_dirichlet, bdeu_family. rewrite rsum_configs. fold vs.
  assert (0 < n_configs vs) as Hq by (apply n_configs_pos; by apply Forall_app in Hvars as [? _]).
  apply rsum_ext. intros c Hc%configs_elem. cbn zeta.
  assert (∀ k, k < r → default 0 (h !! (f_index vs c + n_configs vs * k)) = occurs data (n :: ps) (k :: c)) as Hk.
  { intros k Hk. rewrite <-(f_index_snoc vs c r k) by (by apply config_length). rewrite Hcell; [|apply Forall2_app; [done|by repeat constructor]].
    cbn [default]. rewrite columns_occurs. apply occurs_snoc. }
  assert (INR (n_configs vs) ≠ 0)%R as Nq by (apply not_0_INR; lia). assert (INR r ≠ 0)%R as Nr by (apply not_0_INR; lia).
  rewrite !rsum_const, mult_INR, Rmult_1_l. fold r.
  replace (1 / (INR (n_configs vs) * INR r) * INR r)%R with (1 / INR (n_configs vs))%R by (field; done).
  assert (rsum (λ j, INR (default 0 (h !! (f_index vs c + n_configs vs * j)))) (seq 0 r) = INR (occurs data ps c)) as ->.
  { rewrite rsum_INR. f_equal. rewrite <-(sum_occurs data n ps c r) by (apply data_lt; by apply HV). f_equal. apply list_fmap_ext. intros i k Hik. apply Hk.
    apply lookup_seq in Hik. lia. }
  rewrite Rplus_comm. f_equal. apply rsum_ext. intros k Hk'%elem_of_seq. rewrite Hk by lia. done.
Qed.

Lemma score_bdeu_ok o g en : iter_ok o → wf_graph g → (∀ v, v ∈ gnodes g → v < length ns) → default (gnodes g) en ⊆ gnodes g →
  score_bdeu o gl (Some g) data ns en = Ok (Some (bdeu gl data card g (default (gnodes g) en))).
Proof.
  intros Ho Hw HV Hen. unfold score_bdeu, bdeu. set (V := default (gnodes g) en) in *.
  rewrite <-(rsum_permutation _ _ _ (Ho 118 V)).
  assert (∀ l s, (∀ v, v ∈ l → v ∈ gnodes g) → for_ l (λ n score, v ← score_node o gl g data ns n; Ok (score + v)%R) s =
    Ok (s + rsum (λ v, bdeu_family gl data card (elements (gadj g v)) v) l)%R) as H.
  { induction l as [|v l IH]; intros s Hl; [unfold rsum; simpl; do 2 f_equal; lra|]. cbn [for_]. rewrite score_node_ok by (done || apply Hl; left). cbn [mbind res_bind].
    rewrite IH by (intros; apply Hl; by right). f_equal. rewrite rsum_cons. lra. }
  rewrite H; [cbn [mbind res_bind]; do 2 f_equal; lra|]. intros v Hv. apply Hen. revert Hv. rewrite (Ho 118 V). apply elem_of_elements.
Qed.
End node.

(** ** Equivalent DAGs: the multiset of families and the other's parent sets is the same *)
(** families of sets with as many supersets of every set *)
Lemma superset_count (L1 : list nset) : ∀ L2 : list nset,
  (∀ S : nset, length (filter (λ T, S ⊆ T) L1) = length (filter (λ T, S ⊆ T) L2)) → L1 ≡ₚ L2.
Proof.
  induction L1 as [L1 IH] using (induction_ltof1 _ (@length _)). unfold ltof in IH. intros L2 H.
  destruct L1 as [|T1 L1'].
  { specialize (H ∅). destruct L2 as [|T L2]; [done|]. rewrite filter_nil, filter_cons, decide_True in H by set_solver +. done. }
  set (L1 := T1 :: L1') in *.
  assert (∃ T, T ∈ L1 ∧ ∀ T', T' ∈ L1 ∨ T' ∈ L2 → T ⊆ T' → T' = T) as (T & HT & Hmax).
  { assert (∀ T, T ∈ L1 → ∀ k, max_list (size <$> L1 ++ L2) - size T ≤ k → ∃ T, T ∈ L1 ∧ ∀ T', T' ∈ L1 ∨ T' ∈ L2 → T ⊆ T' → T' = T) as Hex.
    { intros T HT k. revert T HT. induction k as [k IHk] using lt_wf_ind. intros T HT Hk.
      destruct (decide (Exists (λ T', T ⊂ T') L1)) as [He|He].
      - apply Exists_exists in He as (T' & HT' & Hss). pose proof (subset_size _ _ Hss).
        assert (size T' ≤ max_list (size <$> L1 ++ L2)). { apply max_list_le. apply elem_of_list_fmap_1. set_solver. }
        apply (IHk (k - 1)) with T'; [lia|done|lia].
      - exists T. split; [done|]. intros T' HT' Hsub. apply dec_stable. intros Hne.
        assert (T ⊂ T') as Hss by (split; [done|]; intros ?; apply Hne; set_solver).
        destruct HT' as [HT'|HT']; [apply He, Exists_exists; eauto|].
        (* a strictly larger set in L2 only: as many supersets of T' in L1 *)
        assert (0 < length (filter (λ T0, T' ⊆ T0) L1)) as Hlen.
        { rewrite H. destruct (filter (λ T0, T' ⊆ T0) L2) eqn:E; [|simpl; lia]. exfalso. 
          assert (T' ∈ filter (λ T0, T' ⊆ T0) L2) as Hin by (by apply elem_of_list_filter). rewrite E in Hin. by apply elem_of_nil in Hin. }
        destruct (filter (λ T0, T' ⊆ T0) L1) as [|T0 l] eqn:E; [simpl in Hlen; lia|]. assert (T0 ∈ T0 :: l) as H0 by left. rewrite <-E in H0.
        apply elem_of_list_filter in H0 as [H0 H1]. apply He. apply Exists_exists. exists T0. split; [done|]. clear -Hss H0. set_solver. }
    apply (Hex T1 ltac:(left) _ ltac:(reflexivity)). }
  assert (T ∈ L2) as HT2.
  { assert (0 < length (filter (λ T0, T ⊆ T0) L2)) as Hlen.
    { rewrite <-H. destruct (filter (λ T0, T ⊆ T0) L1) eqn:E; [|simpl; lia]. exfalso.
      assert (T ∈ filter (λ T0, T ⊆ T0) L1) as Hin by (by apply elem_of_list_filter). rewrite E in Hin. by apply elem_of_nil in Hin. }
    destruct (filter (λ T0, T ⊆ T0) L2) as [|T0 l] eqn:E; [simpl in Hlen; lia|]. assert (T0 ∈ T0 :: l) as H0 by left. rewrite <-E in H0.
    apply elem_of_list_filter in H0 as [H0 H1]. by rewrite <-(Hmax T0 (or_intror H1) H0). }
  apply elem_of_Permutation in HT as [M1 P1]. apply elem_of_Permutation in HT2 as [M2 P2]. rewrite P1, P2. constructor. apply IH.
  - apply Permutation_length in P1. rewrite P1. simpl. lia.
  - intros S. specialize (H S). rewrite P1, P2, !filter_cons in H. destruct (decide (S ⊆ T)); simpl in H; lia.
Qed.

(** S is a family of d: one of its nodes has all others as parents *)
Definition is_top (d : graph) (S : nset) (v : node) : Prop := v ∈ S ∧ S ∖ {[v]} ⊆ gadj d v.
Global Instance is_top_dec d S v : Decision (is_top d S v).
Proof. unfold is_top. apply _. Defined.
Lemma no_loop d v : acyclic d → v ∉ gadj d v.
Proof. intros Ha H. apply (Ha v). by constructor. Qed.
Lemma top_unique d S v w : acyclic d → is_top d S v → is_top d S w → v = w.
Proof.
  intros Ha [Hv1 Hv2] [Hw1 Hw2]. apply dec_stable. intros Hne. apply (Ha v). eapply tc_l; [|apply tc_once]; unfold edge.
  - apply Hw2. set_solver. - apply Hv2. set_solver.
Qed.
(** a node of a nonempty set without children in it *)
Lemma sink_exists d (S : nset) : acyclic d → S ≠ ∅ → ∃ v, v ∈ S ∧ ∀ w, w ∈ S → ¬ edge d v w.
Proof.
  intros Ha Hne. destruct (decide (set_Exists (λ v, set_Forall (λ w, v ∉ gadj d w) S) S)) as [(v & Hv & H)|Hno]; [exists v; split; [done|exact H]|].
  exfalso. destruct (no_sink_cycle (edge d) S Hne) as (v & _ & Hc); [|by apply (Ha v)].
  intros v Hv. assert (¬ set_Forall (λ w, v ∉ gadj d w) S) as Hn by (intros H; apply Hno; by exists v).
  apply not_set_Forall_Exists in Hn as (w & Hw & H); [|apply _]. exists w. split; [done|]. unfold edge. apply dec_stable. exact H.
Qed.
Lemma top_equiv d e S : acyclic d → acyclic e → same_skeleton d e → same_v_structures d e → (∃ v, is_top d S v) → ∃ v, is_top e S v.
Proof.
  intros Ad Ae [_ Hsk] Hvs (i & Hi & Hpa).
  assert (∀ j, j ∈ S → j ≠ i → edge d j i) as Hpa' by (intros j Hj Hji; apply Hpa; set_solver).
  (* the nodes adjacent to all others *)
  set (L := filter (λ l, set_Forall (λ j, j = l ∨ adjacent d j l) S) S).
  assert (∀ l, l ∈ L ↔ l ∈ S ∧ ∀ j, j ∈ S → j = l ∨ adjacent d j l) as HL by (intros l; unfold L; rewrite elem_of_filter; unfold set_Forall; tauto).
  assert (i ∈ L) as HiL. { apply HL. split; [done|]. intros j Hj. destruct (decide (j = i)); [by left|]. right. left. by apply Hpa'. }
  destruct (sink_exists e L Ae) as (v & Hv & Hsink); [set_solver|]. exists v. pose proof Hv as Hv'. apply HL in Hv' as [HvS Hadj]. split; [done|].
  intros j Hj. apply elem_of_difference in Hj as [Hj Hjv%not_elem_of_singleton].
  destruct (Hadj j Hj) as [?|Hjv']; [done|]. apply Hsk in Hjv' as [?|Hvj]; [done|].
  (* v --> j in e *)
  destruct (decide (j ∈ L)) as [HjL|HjL]; [by destruct (Hsink j HjL)|].
  assert (∃ k, k ∈ S ∧ k ≠ j ∧ ¬ adjacent d k j) as (k & Hk & Hkj & Hnadj).
  { apply dec_stable. intros Hn. apply HjL, HL. split; [done|]. intros k Hk. destruct (decide (k = j)); [by left|]. right.
    unfold adjacent, edge. destruct (decide (k ∈ gadj d j)); [by left|]. destruct (decide (j ∈ gadj d k)); [by right|].
    destruct Hn. exists k. split_and!; [done..|]. unfold adjacent, edge. tauto. }
  assert (j ≠ i) as Hji by (by intros ->). assert (k ≠ i) as Hki.
  { intros ->. apply Hnadj. right. by apply Hpa'. }
  assert (v_structure d j i k) as Hvst.
  { split_and!; [by apply Hpa'..|done|]. intros [H|H]; apply Hnadj; [right|left]; done. }
  apply Hvs in Hvst as (Hji' & _ & _ & _). exfalso. apply (Ae v). destruct (decide (v = i)) as [->|Hvi]; [by eapply tc_l; [|apply tc_once]|].
  assert (edge e i v) as Hiv.
  { assert (adjacent e i v) as [?|H] by (apply Hsk; destruct (Hadj i Hi) as [?|?]; [congruence|done]); [done|]. by destruct (Hsink i HiL). }
  eapply tc_l; [exact Hvj|]. eapply tc_l; [exact Hji'|]. by apply tc_once.
Qed.

(** ** equal scores *)
Lemma filter_length_split {A} (P Q1 Q2 : A → Prop) `{∀ x, Decision (P x), ∀ x, Decision (Q1 x), ∀ x, Decision (Q2 x)} (l : list A) :
  (∀ x, x ∈ l → P x ↔ Q1 x ∨ Q2 x) → (∀ x, x ∈ l → Q1 x → Q2 x → False) → length (filter P l) = length (filter Q1 l) + length (filter Q2 l).
Proof.
  induction l as [|a l IH]; intros HP HQ; [done|]. specialize (IH ltac:(intros; apply HP; by right) ltac:(intros x ?; apply (HQ x); by right)).
  pose proof (HP a ltac:(left)) as Ha. pose proof (HQ a ltac:(left)) as Hb. rewrite !filter_cons. repeat case_decide; simpl; try lia; tauto.
Qed.
Lemma filter_unique {A} (P : A → Prop) `{∀ x, Decision (P x)} (l : list A) : NoDup l → (∀ x y, P x → P y → x = y) →
  length (filter P l) = if decide (Exists P l) then 1 else 0.
Proof.
  intros Hl Hu. induction Hl as [|a l Ha Hl IH]; [rewrite decide_False; [done|]; intros Hx%Exists_nil; done|]. rewrite filter_cons.
  destruct (decide (P a)) as [Pa|Pa].
  - rewrite (decide_True (P := Exists P (a :: l))) by (by left). simpl. rewrite IH, decide_False; [done|]. intros He. apply Exists_exists in He as (b & Hb & Pb).
    by rewrite (Hu a b Pa Pb) in Ha.
  - rewrite IH. destruct (decide (Exists P l)) as [He|He]; case_decide as He'; try done; [destruct He'; by right|].
    apply Exists_cons in He'. tauto.
Qed.
Lemma filter_fmap_length {A B} (f : A → B) (P : B → Prop) `{∀ x, Decision (P x)} (l : list A) : length (filter P (f <$> l)) = length (filter (λ a, P (f a)) l).
Proof. induction l as [|a l IH]; [done|]. rewrite fmap_cons, !filter_cons. case_decide; simpl; by rewrite IH. Qed.

(** families of d containing S, minus parent sets of d containing S *)
Lemma family_count (g : graph) (S : nset) : acyclic g →
  length (filter (λ v, S ⊆ {[v]} ∪ gadj g v) (elements (gnodes g))) =
  length (filter (λ v, S ⊆ gadj g v) (elements (gnodes g))) + length (filter (is_top g S) (elements (gnodes g))).
Proof.
  intros Ha. apply filter_length_split.
  - intros v _. unfold is_top. split.
    + intros H. destruct (decide (v ∈ S)); [right|left]; set_solver.
    + intros [H|[H1 H2]]; [set_solver|]. intros x Hx. destruct (decide (x = v)); set_solver.
  - intros v _ H [Hv _]. apply (no_loop g v Ha). by apply H.
Qed.
Lemma top_transfer g h (S : nset) : wf_graph g → acyclic g → acyclic h → same_skeleton g h → same_v_structures g h →
  Exists (is_top g S) (elements (gnodes g)) → Exists (is_top h S) (elements (gnodes h)).
Proof.
  intros Hw Hg Hh Hs Hv' He. apply Exists_exists in He as (v & Hv & Ht). destruct (top_equiv g h S Hg Hh Hs Hv') as (w & Hw'); [by exists v|].
  apply Exists_exists. exists w. split; [|done]. apply elem_of_elements. apply elem_of_elements in Hv. destruct Hs as [<- _].
  destruct Hw' as [Hw' _]. destruct Ht as [_ Ht]. destruct (decide (w = v)) as [->|Hne]; [done|].
  apply (Hw w v). apply Ht. set_solver.
Qed.

Section equiv.
Context (d e : graph) (Ad : acyclic d) (Ae : acyclic e) (Wd : wf_graph d) (We : wf_graph e).
Context (Hsk : same_skeleton d e) (Hvs : same_v_structures d e).
Lemma top_count (S : nset) : length (filter (is_top d S) (elements (gnodes d))) = length (filter (is_top e S) (elements (gnodes e))).
Proof using Ad Ae Wd We Hsk Hvs.
  assert (same_skeleton e d) as Hsk'. { destruct Hsk as [H1 H2]. split; [done|]. intros a b. symmetry. apply H2. }
  assert (same_v_structures e d) as Hvs' by (intros a c b; symmetry; apply Hvs).
  rewrite !filter_unique; [|apply NoDup_elements|intros ? ?; by apply top_unique|apply NoDup_elements|intros ? ?; by apply top_unique].
  destruct (decide (Exists (is_top d S) _)) as [H1|H1], (decide (Exists (is_top e S) _)) as [H2|H2]; try done; exfalso.
  - by apply H2, (top_transfer d e).
  - by apply H1, (top_transfer e d).
Qed.
Lemma family_multiset : ((λ v, {[v]} ∪ gadj d v) <$> elements (gnodes d)) ++ (gadj e <$> elements (gnodes e)) ≡ₚ
  ((λ v, {[v]} ∪ gadj e v) <$> elements (gnodes e)) ++ (gadj d <$> elements (gnodes d)).
Proof using Ad Ae Wd We Hsk Hvs.
  apply superset_count. intros S. rewrite !filter_app, !app_length, !filter_fmap_length, !family_count, top_count by done. lia.
Qed.
Context (gl : R → R) (data : list (list nat)) (card : nat → nat).
Lemma bdeu_parts (g : graph) : acyclic g → bdeu gl data card g (gnodes g) =
  (rsum (λ T, fscore gl data card (elements T)) ((λ v, {[v]} ∪ gadj g v) <$> elements (gnodes g)) -
   rsum (λ T, fscore gl data card (elements T)) (gadj g <$> elements (gnodes g)))%R.
Proof.
  intros Ha. unfold bdeu. rewrite !rsum_fmap, <-rsum_minus. apply rsum_ext. intros v _. rewrite family_parts. f_equal.
  apply fscore_perm. symmetry. apply elements_union_singleton. by apply no_loop.
Qed.
Lemma bdeu_equivalent : bdeu gl data card d (gnodes d) = bdeu gl data card e (gnodes e).
Proof using Ad Ae Wd We Hsk Hvs.
  rewrite !bdeu_parts by done. pose proof (rsum_permutation (λ T, fscore gl data card (elements T)) _ _ family_multiset) as H.
  rewrite !rsum_app in H. lra.
Qed.
End equiv.

(** ** threshold search *)
Lemma extends_wf d g : pd_wf g → extends d g → wf_graph d.
Proof.
  intros Hg Hd a b Hab. assert (pd_adj g a b) as H by (apply (ext_skel _ _ Hd); by left). rewrite (ext_nodes _ _ Hd).
  destruct H as [H|[H|H]]; [destruct (pdw_und g Hg a b H)|destruct (pdw_dir g Hg a b H)|destruct (pdw_dir g Hg b a H)]; tauto.
Qed.
Lemma score_ge_le a b : score_ge a b = true ↔ score_le b a.
Proof. destruct a as [a|], b as [b|]; simpl; try done. by destruct (Rle_dec b a). Qed.
Lemma score_le_total a b : score_le a b ∨ score_le b a.
Proof. destruct a as [a|], b as [b|]; simpl; try tauto. destruct (Rle_dec a b); [by left|right; lra]. Qed.
Lemma score_le_trans a b c : score_le a b → score_le b c → score_le a c.
Proof. destruct a as [a|], b as [b|], c as [c|]; simpl; try done. lra. Qed.

Section search.
Context (o : order) (gl : R → R) (data : list (list nat)) (ns : list nat) {T S : Type} (fuel : nat) (learn : T → S → res (mgraph * S)).
Context (Ho : iter_ok o) (Hd : dataset data ns).
Local Notation card := (λ v, ns !!! v).
Context (Hlearn : ∀ th s, returns (learn th s) (λ r, pd_wf r.1 ∧ (∀ v, v ∈ mnodes r.1 → v < length ns) ∧ size (mnodes r.1) < fuel)).

Lemma graph_score_ok g : pd_wf g → (∀ v, v ∈ mnodes g → v < length ns) → size (mnodes g) < fuel →
  returns (r ← convert_to_dag o fuel g (empty_graph (mnodes g)); if r.2 : bool then score_bdeu o gl (Some r.1) data ns None else Ok None)
    (class_score gl data card g).
Proof using Ho Hd.
  intros Hg HV Hf. eapply returns_bind; [by apply (convert_to_dag_spec o Ho g (empty_graph (mnodes g)) fuel)|]. intros [d b] [Hn Hb]. cbn [fst snd] in *.
  destruct b; [|exact Hb]. rewrite (score_bdeu_ok gl data ns Hd o d None); [|done|by eapply extends_wf|by rewrite Hn|done]. cbn [returns default].
  split; [by exists d|]. intros d' Hd'. destruct (extensions_equivalent g d d' Hb Hd') as [H1 H2].
  apply bdeu_equivalent; try done; [by apply (ext_acyclic _ _ Hb)|by apply (ext_acyclic _ _ Hd')|by eapply extends_wf|by eapply extends_wf].
Qed.

Definition best_of (done : list T) (best : option T) (bs : option R) (scores : list (option R)) : Prop :=
  length scores = length done ∧
  (scores = [] ∧ best = None ∧ bs = None ∨ ∃ i, best = done !! i ∧ scores !! i = Some bs ∧ last_best scores i).
Lemma best_of_step dn best bs scores th sc : best_of dn best bs scores →
  (if score_ge sc bs then best_of (dn ++ [th]) (Some th) sc (scores ++ [sc]) else best_of (dn ++ [th]) best bs (scores ++ [sc])).
Proof.
  intros [Hl Hc]. assert (∀ j s', (scores ++ [sc]) !! j = Some s' → scores !! j = Some s' ∨ j = length scores ∧ s' = sc) as Hsp.
  { intros j s' Hj. apply lookup_app_Some in Hj as [?|[Hj1 Hj2]]; [by left|right]. apply list_lookup_singleton_Some in Hj2 as [? ->]. split; [lia|done]. }
  destruct (score_ge sc bs) eqn:E.
  - apply score_ge_le in E. split; [rewrite !app_length; simpl; lia|]. right. exists (length dn). split; [by rewrite lookup_app_r, Nat.sub_diag|].
    rewrite <-Hl. split; [by rewrite lookup_app_r, Nat.sub_diag|]. exists sc. split; [by rewrite lookup_app_r, Nat.sub_diag|].
    intros j s' Hj. destruct (Hsp j s' Hj) as [Hj'|[-> ->]].
    + split; [|apply lookup_lt_Some in Hj'; lia]. destruct Hc as [(-> & _)|(i & _ & Hi & m & Hm & Hmax)]; [done|]. simplify_eq.
      eapply score_le_trans; [|exact E]. by apply (Hmax j s').
    + split; [|lia]. destruct (score_le_total sc sc); done.
  - assert (¬ score_le bs sc) as E'. { intros H%score_ge_le. congruence. }
    destruct Hc as [(-> & -> & ->)|(i & Hb & Hi & m & Hm & Hmax)]; [by destruct E'|]. simplify_eq.
    split; [rewrite !app_length; simpl; lia|]. right. exists i. pose proof (lookup_lt_Some _ _ _ Hi) as Hlt. split_and!.
    + by rewrite lookup_app_l by lia.
    + by rewrite lookup_app_l by lia.
    + exists bs. split; [by rewrite lookup_app_l by lia|]. intros j s' Hj. destruct (Hsp j s' Hj) as [Hj'|[-> ->]]; [by apply Hmax|].
      split; [|done]. destruct (score_le_total sc bs); [done|]. done.
Qed.

Lemma search_ok ths s : returns (search_threshold o gl fuel learn data ns ths s) (λ r,
  (∃ gs, learn_all learn ths s = Ok gs ∧ Forall2 (class_score gl data card) gs r.2) ∧
  length r.2 = length ths ∧ match r.1 with None => ths = [] | Some th => ∃ i, ths !! i = Some th ∧ last_best r.2 i end).
Proof using Ho Hd Hlearn.
  unfold search_threshold.
  set (body := λ th '(best_th, best_score, scores, s), _).
  assert (∀ ths dn best bs scores s, best_of dn best bs scores → returns (for_ ths body (best, bs, scores, s)) (λ r,
    ∃ new gs, r.1.2 = scores ++ new ∧ learn_all learn ths s = Ok gs ∧ Forall2 (class_score gl data card) gs new ∧
      best_of (dn ++ ths) r.1.1.1 r.1.1.2 r.1.2)) as H.
  { clear ths s. induction ths as [|th ths IH]; intros dn best bs scores s Hbest.
    - cbn [for_ returns fst snd]. exists [], []. rewrite !app_nil_r. done.
    - cbn [for_]. pose proof (Hlearn th s) as HL. cbn [learn_all].
      destruct (learn th s) as [[g s']| |] eqn:EL; [|done..]. cbn [mbind res_bind returns fst snd] in *. destruct HL as (Hg & HV & Hf).
      pose proof (graph_score_ok g Hg HV Hf) as Hsc. destruct (convert_to_dag o fuel g (empty_graph (mnodes g))) as [r| |] eqn:Ec; [|done..]. cbn [mbind res_bind] in *.
      destruct (if r.2 then score_bdeu o gl (Some r.1) data ns None else Ok None) as [sc| |] eqn:Es; [|done..]. cbn [returns] in Hsc.
      pose proof (best_of_step dn best bs scores th sc Hbest) as Hstep.
      assert (body th (best, bs, scores, s) = Ok (if score_ge sc bs then (Some th, sc, scores ++ [sc], s') else (best, bs, scores ++ [sc], s'))) as ->.
      { unfold body. rewrite EL. cbn [mbind res_bind fst snd]. rewrite Ec. cbn [mbind res_bind]. rewrite Es. done. }
      assert (∀ b' bs', best_of (dn ++ [th]) b' bs' (scores ++ [sc]) → returns (for_ ths body (b', bs', scores ++ [sc], s')) (λ r0,
        ∃ new gs, r0.1.2 = scores ++ new ∧ (gs0 ← learn_all learn ths s'; Ok (g :: gs0)) = Ok gs ∧ Forall2 (class_score gl data card) gs new ∧
          best_of (dn ++ th :: ths) r0.1.1.1 r0.1.1.2 r0.1.2)) as Hgo.
      { intros b' bs' Hb'. eapply returns_mono; [by apply (IH (dn ++ [th]))|]. intros r0 (new & gs & E1 & E2 & E3 & E4).
        exists (sc :: new), (g :: gs). rewrite E2. rewrite <-app_assoc in E1. rewrite <-app_assoc in E4. split_and!; [done|done|by constructor|done]. }
      cbn [mbind res_bind]. destruct (score_ge sc bs); by apply Hgo. }
  eapply returns_bind; [apply (H ths [] None None [] s)|].
  - split; [done|]. by left.
  - intros r (new & gs & E1 & E2 & E3 & E4). cbn [returns fst snd]. rewrite E1 in *. simpl in *. destruct E4 as [Hl Hc].
    split_and!; [by exists gs|done|]. destruct Hc as [(-> & -> & _)|(i & -> & Hi & Hlast)]; [by destruct ths|].
    pose proof (lookup_lt_Some _ _ _ Hi) as Hlt. destruct (lookup_lt_is_Some_2 ths i) as [th Hth]; [lia|]. rewrite Hth. by exists i.
Qed.
End search.
